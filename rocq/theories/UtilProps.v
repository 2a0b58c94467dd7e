(** C51 paired vectors, C52 closest value, C62 cosets, C71 interpolation, C72 integrals, C73 integer helpers. *)
From Coq Require Import List Arith Lia Bool ZArith QArith Qabs Lqa.
From Verif Require Import Base FullModel FullProofs GaloisModel FloatQ UtilModel UtilSpec UtilProofs.
Import ListNotations.
Local Open Scope nat_scope.

(** * C51 *)
(** The reference is sorted, and the companion goes through the same permutation, which keeps the order of equal values. *)
Theorem C51_sort : forall (A B : Type) (d : A) (e : B) (comp : A -> A -> bool) xs ys,
  (forall a b, comp a b = true -> comp b a = false) -> (forall a b c, comp b a = false -> comp c b = false -> comp c a = false) ->
  length ys = length xs ->
  exists s, is_perm (length xs) s /\
    mutual_sort comp swap_vec xs ys = Ret (map (fun i => nth i xs d) s, map (fun i => nth i ys e) s) /\
    forall a b, a < b < length xs -> comp (nth (nth b s 0) xs d) (nth (nth a s 0) xs d) = false /\
      (comp (nth (nth a s 0) xs d) (nth (nth b s 0) xs d) = false -> nth a s 0 < nth b s 0).
Proof.
  intros A B d e comp xs ys AS TR L. destruct (mutual_sort_ok d comp swap_vec xs (fun zs s => zs = pick e ys s) AS TR) with (ys := ys) as (s & xs' & ys' & E & P & -> & -> & O).
  - intros zs s j -> P Hj. exists (pick e ys (exch s j)). split; [|reflexivity]. apply swap_vec_ok. rewrite (proj1 P). exact Hj.
  - rewrite <- L. symmetry. apply (tab_nth B ys e).
  - exists s. split; [exact P|]. split; [exact E|]. intros a b Hab. apply (O a b Hab).
Qed.

Theorem C51_sort_several : forall (d : Z) xs (yss : list (list Z)), (forall y, In y yss -> length y = length xs) ->
  exists s yss', is_perm (length xs) s /\
    mutual_sort Z.ltb swap_vecs xs yss = Ret (map (fun i => nth i xs d) s, yss') /\ length yss' = length yss /\
    (forall k, k < length yss -> nth k yss' [] = map (fun i => nth i (nth k yss []) 0%Z) s) /\
    forall a b, a < b < length xs -> (nth (nth a s 0%nat) xs d <= nth (nth b s 0%nat) xs d)%Z.
Proof.
  intros d xs yss HL. destruct (mutual_sort_ok d Z.ltb swap_vecs xs (rows_at yss)) with (ys := yss) as (s & xs' & ys' & E & P & -> & [LY HY] & O).
  - intros a b H. apply Z.ltb_lt in H. apply Z.ltb_ge. lia.
  - intros a b c H1 H2. apply Z.ltb_ge in H1, H2. apply Z.ltb_ge. lia.
  - intros zs s j R P Hj. apply (swap_vecs_ok yss zs s j (length xs)); assumption.
  - split; [reflexivity|]. intros i Hi. rewrite <- (HL (nth i yss [])) by (apply nth_In; exact Hi). symmetry. apply (tab_nth Z (nth i yss []) 0%Z).
  - exists s, ys'. split; [exact P|]. split; [exact E|]. split; [exact LY|]. split; [exact HY|]. intros a b Hab. destruct (O a b Hab) as [O1 _]. apply Z.ltb_ge in O1. exact O1.
Qed.

(** What mutual_unique keeps: the first element of each run, except that the last run is lost when there are several. *)
Theorem C51_unique_partial : forall (A B : Type) (eqb : A -> A -> bool) (d : A) (e : B) X Y, (forall a b, reflect (a = b) (eqb a b)) -> length Y = length X ->
  let S := run_starts eqb d X in let K := if length S <=? 1 then S else removelast S in
  mutual_unique eqb X Y = Ret (map (fun i => nth i X d) K, map (fun i => nth i Y e) K).
Proof. intros A B eqb d e X Y H L. apply unique_ok; assumption. Qed.

(** The number of kept elements is never the number of runs when there are several. *)
Theorem C51_unique_refuted : forall (A B : Type) (eqb : A -> A -> bool) (d : A) X (Y : list B), (forall a b, reflect (a = b) (eqb a b)) -> length Y = length X ->
  1 < length (run_starts eqb d X) -> exists xs ys, mutual_unique eqb X Y = Ret (xs, ys) /\ length xs = length (run_starts eqb d X) - 1 /\ length ys = length (run_starts eqb d X) - 1.
Proof.
  intros A B eqb d X Y H L H1. destruct Y as [|e Y'] eqn:EY; [destruct X; [cbn in H1; lia|discriminate]|]. rewrite <- EY in *. rewrite (C51_unique_partial A B eqb d e X Y H L). cbv zeta.
  destruct (Nat.leb_spec (length (run_starts eqb d X)) 1); [lia|]. do 2 eexists. split; [reflexivity|]. rewrite !map_length. rewrite removelast_firstn_len, firstn_length. lia.
Qed.

Example C51_examples :
  mutual_sort Z.ltb swap_vec [3; 1; 2; 1]%Z [30; 10; 20; 11]%Z = Ret ([1; 1; 2; 3], [10; 11; 20; 30])%Z /\
  mutual_unique Z.eqb [1; 1; 2; 3]%Z [10; 11; 20; 30]%Z = Ret ([1; 2], [10; 20])%Z.
Proof. split; reflexivity. Qed.

(** With several companions, the number of companions is cut instead of their length: one companion is lost here, and the other one keeps its four elements. *)
Theorem C51_uniques_refuted : mutual_uniques Z.eqb [1; 1; 1; 2]%Z [[10; 11; 12; 20]; [30; 31; 32; 40]]%Z = Ret ([1], [[10; 20; 12; 20]])%Z.
Proof. reflexivity. Qed.

(** * C52 *)
(** Exact arithmetic: an element at minimal distance. *)
Theorem C52_closest : forall l v, l <> [] -> sortedQ l ->
  exists p, get_closest Qminus l v = Ret p /\ p < length l /\ forall i, i < length l -> (dist l v p <= dist l v i)%Q.
Proof. intros l v NE S. apply (closest_ok (fun x => x)); auto. Qed.

(** Floating-point subtraction: the distance is minimal up to the rounding of the distances. *)
Theorem C52_closest_float : forall prec l v, (0 < prec)%Z -> l <> [] -> sortedQ l ->
  exists p, get_closest (fun a b => fl prec (a - b)%Q) l v = Ret p /\ p < length l /\ forall i, i < length l -> (fl prec (dist l v p) <= fl prec (dist l v i))%Q.
Proof. intros prec l v HP NE S. apply (closest_ok (fl prec)); auto. intros x y H. apply fl_mono; assumption. Qed.

(** In an empty range the result is the end of the range. *)
Theorem C52_empty_refuted : forall v, get_closest Qminus [] v = Ret 0 /\ nearest_interpolation Qminus [] [] v = Undef.
Proof. intros v. split; reflexivity. Qed.

Example C52_example : get_closest Qminus [1; 2; 4; 4; 9]%Q 3%Q = Ret 1 /\ get_closest Qminus [1; 2; 4; 4; 9]%Q (31 # 10)%Q = Ret 2 /\ sortedQ [1; 2; 4; 4; 9]%Q.
Proof.
  split; [reflexivity|]. split; [reflexivity|]. intros i j H. cbn [length] in H. do 5 (destruct i as [|i]; [do 5 (destruct j as [|j]; [cbn; try discriminate; lia|]); lia|]). lia.
Qed.

(** * C62 *)
Theorem C62_bits : forall size ref inp out out2, length ref = size -> length inp = size -> length out = size -> length out2 = size ->
  (forall i, i < size -> nth i inp 0%Z = 0%Z \/ nth i inp 0%Z = 1%Z) ->
  exists x, coset_bit size ref inp out = Ret x /\
    (forall i, i < size -> nth i x 0%Z = if (nth i ref 0 =? 0)%Z then nth i inp 0%Z else (1 - nth i inp 0)%Z) /\
    coset_bit size ref x out2 = Ret inp.
Proof.
  intros size ref inp out out2 LR LI LO LO2 B. rewrite coset_bit_ok by assumption. eexists. split; [reflexivity|].
  assert (N : forall i, i < size -> nth i (tab size (fun i => if (nth i ref 0 =? 0)%Z then nth i inp 0%Z else if (nth i inp 0 =? 0)%Z then 1%Z else 0%Z)) 0%Z = if (nth i ref 0 =? 0)%Z then nth i inp 0%Z else (1 - nth i inp 0)%Z).
  { intros i Hi. rewrite nth_tab by exact Hi. destruct (nth i ref 0 =? 0)%Z; [reflexivity|]. destruct (B i Hi) as [-> | ->]; reflexivity. }
  split; [exact N|]. rewrite coset_bit_ok; [|assumption|apply length_tab|assumption]. f_equal. symmetry. apply (eq_tab _ 0%Z); [exact LI|]. intros i Hi. rewrite N by exact Hi.
  destruct (nth i ref 0 =? 0)%Z; [reflexivity|]. destruct (B i Hi) as [-> | ->]; reflexivity.
Qed.

(** Fixed-point LLRs of w bits (8, 16, 32 or 64), the lowest value excepted: the coset is an involution, and the hard decisions of the
    result are the bit coset of the hard decisions. *)
Theorem C62_fixed : forall w size ref inp out out2, 0 < w -> length ref = size -> length inp = size -> length out = size -> length out2 = size ->
  (forall i, i < size -> (- 2 ^ (Z.of_nat w - 1) < nth i inp 0 < 2 ^ (Z.of_nat w - 1))%Z) ->
  let hard l := map (fun x => if (x <? 0)%Z then 1%Z else 0%Z) l in
  exists x, coset_real (neg_int w) size ref inp out = Ret x /\ coset_real (neg_int w) size ref x out2 = Ret inp /\
    ((forall i, i < size -> nth i inp 0%Z <> 0%Z) -> coset_bit size ref (hard inp) out = Ret (hard x)).
Proof.
  intros w size ref inp out out2 Hw LR LI LO LO2 B hard.
  assert (NG : forall z, (- 2 ^ (Z.of_nat w - 1) < z < 2 ^ (Z.of_nat w - 1))%Z -> neg_int w z = Ret (- z)%Z).
  { intros z Hz. unfold neg_int. destruct (Z.eqb_spec z (- 2 ^ (Z.of_nat w - 1))); [lia|]. rewrite andb_false_r. rewrite cast_small by lia. reflexivity. }
  set (x := tab size (fun i => if (nth i ref 0 =? 0)%Z then nth i inp 0%Z else (- nth i inp 0)%Z)).
  assert (LX : length x = size) by apply length_tab.
  assert (NX : forall i, i < size -> nth i x 0%Z = if (nth i ref 0 =? 0)%Z then nth i inp 0%Z else (- nth i inp 0)%Z) by (intros i Hi; apply nth_tab; exact Hi).
  exists x. split; [apply (coset_real_ok Z 0%Z (neg_int w) (fun z => (- z)%Z)); try assumption; intros i Hi _; apply NG; apply B; exact Hi|]. split.
  - rewrite (coset_real_ok Z 0%Z (neg_int w) (fun z => (- z)%Z)); try assumption.
    + f_equal. symmetry. apply (eq_tab _ 0%Z); [exact LI|]. intros i Hi. rewrite NX by exact Hi. destruct (nth i ref 0 =? 0)%Z; [reflexivity|lia].
    + intros i Hi _. apply NG. rewrite NX by exact Hi. specialize (B i Hi). destruct (nth i ref 0 =? 0)%Z; lia.
  - intros NZ. unfold hard. rewrite coset_bit_ok; [|assumption|rewrite map_length; assumption|assumption]. f_equal. symmetry. apply (eq_tab _ 0%Z); [rewrite map_length; exact LX|]. intros i Hi.
    assert (MN : forall l, length l = size -> nth i (map (fun x => if (x <? 0)%Z then 1%Z else 0%Z) l) 0%Z = if (nth i l 0 <? 0)%Z then 1%Z else 0%Z).
    { intros l Ll. rewrite (nth_indep _ 0%Z ((fun x => if (x <? 0)%Z then 1%Z else 0%Z) 0%Z)) by (rewrite map_length; lia). apply (map_nth (fun x => if (x <? 0)%Z then 1%Z else 0%Z)). }
    rewrite !MN by assumption. rewrite NX by exact Hi. specialize (NZ i Hi). destruct (nth i ref 0 =? 0)%Z; [reflexivity|]. destruct (Z.ltb_spec (- nth i inp 0%Z) 0%Z), (Z.ltb_spec (nth i inp 0%Z) 0%Z); try reflexivity; lia.
Qed.

(** The lowest value is its own opposite on 8 and 16 bits, so that its decision does not change; on 32 and 64 bits the minus is undefined. *)
Theorem C62_lowest_refuted : forall w, 0 < w -> (w < 32 -> neg_int w (- 2 ^ (Z.of_nat w - 1)) = Ret (- 2 ^ (Z.of_nat w - 1))%Z) /\ (32 <= w -> neg_int w (- 2 ^ (Z.of_nat w - 1)) = Undef).
Proof.
  intros w Hw. unfold neg_int. rewrite Z.eqb_refl, andb_true_r. split; intros H.
  - destruct (Nat.leb_spec 32 w); [lia|]. rewrite Z.opp_involutive, cast_min by lia. reflexivity.
  - destruct (Nat.leb_spec 32 w); [reflexivity|lia].
Qed.

(** Floating-point LLRs. *)
Theorem C62_float : forall size ref (inp out out2 : list Q), length ref = size -> length inp = size -> length out = size -> length out2 = size ->
  exists x y, coset_real neg_real size ref inp out = Ret x /\ coset_real neg_real size ref x out2 = Ret y /\
    forall i, i < size -> nth i y 0%Q = nth i inp 0%Q /\ nth i x 0%Q = (if (nth i ref 0 =? 0)%Z then nth i inp 0%Q else (- nth i inp 0)%Q).
Proof.
  intros size ref inp out out2 LR LI LO LO2. rewrite (coset_real_ok Q 0%Q neg_real Qopp) by (auto; reflexivity). do 2 eexists. split; [reflexivity|].
  rewrite (coset_real_ok Q 0%Q neg_real Qopp); [|assumption|apply length_tab|assumption|reflexivity]. split; [reflexivity|]. intros i Hi. rewrite !nth_tab by exact Hi. destruct (nth i ref 0 =? 0)%Z; split; try reflexivity.
  destruct (nth i inp 0%Q) as [n q]. unfold Qopp. cbn [Qnum Qden]. rewrite Z.opp_involutive. reflexivity.
Qed.

Example C62_example : coset_real (neg_int 8) 4 [1; 0; 1; 1]%Z [5; -6; -7; -128]%Z [0; 0; 0; 0]%Z = Ret [-5; -6; 7; -128]%Z.
Proof. reflexivity. Qed.

(** * C71 *)
(** Between two consecutive abscissas, away from them by the tolerance 1e-6: the point of the segment. Within the tolerance: the ordinate
    of the abscissa. Below the first abscissa: the first ordinate. *)
Theorem C71_linear : forall xs ys v, xs <> [] -> sortedQ xs -> length ys = length xs ->
  ((v <= nth 0 xs 0)%Q -> linear_interpolation xs ys v = Ret (nth 0 ys 0%Q)) /\
  (forall i, S i < length xs -> (nth i xs 0 < v)%Q -> (v <= nth (S i) xs 0)%Q -> exists r, linear_interpolation xs ys v = Ret r /\
     ((nth (S i) xs 0 - v < 1 # 1000000)%Q -> r = nth (S i) ys 0%Q) /\
     ((1 # 1000000 <= nth (S i) xs 0 - v)%Q -> (v - nth i xs 0 < 1 # 1000000)%Q -> r = nth i ys 0%Q) /\
     ((1 # 1000000 <= nth (S i) xs 0 - v)%Q -> (1 # 1000000 <= v - nth i xs 0)%Q -> on_segment (nth i xs 0%Q) (nth i ys 0%Q) (nth (S i) xs 0%Q) (nth (S i) ys 0%Q) v r)).
Proof.
  intros xs ys v NE S L. split; [intros H; apply linear_first; assumption|]. intros i Hi H1 H2. rewrite (linear_between xs ys v i S L Hi H1 H2). eexists. split; [reflexivity|].
  assert (Q1 : (Qabs (v - nth (Datatypes.S i) xs 0) == nth (Datatypes.S i) xs 0 - v)%Q) by (rewrite Qabs_neg by lra; ring).
  assert (Q2 : (Qabs (v - nth i xs 0) == v - nth i xs 0)%Q) by (rewrite Qabs_pos by lra; ring).
  assert (C1 : comp_equal v (nth (Datatypes.S i) xs 0%Q) = true <-> (nth (Datatypes.S i) xs 0 - v < 1 # 1000000)%Q) by (rewrite comp_equal_iff, Q1; reflexivity).
  assert (C2 : comp_equal v (nth i xs 0%Q) = true <-> (v - nth i xs 0 < 1 # 1000000)%Q) by (rewrite comp_equal_iff, Q2; reflexivity).
  split; [|split].
  - intros K. apply C1 in K. rewrite K. reflexivity.
  - intros K1 K2. destruct (comp_equal v (nth (Datatypes.S i) xs 0%Q)); [pose proof (proj1 C1 eq_refl); exfalso; lra|]. apply C2 in K2. rewrite K2. reflexivity.
  - intros K1 K2. destruct (comp_equal v (nth (Datatypes.S i) xs 0%Q)); [pose proof (proj1 C1 eq_refl); exfalso; lra|]. destruct (comp_equal v (nth i xs 0%Q)); [pose proof (proj1 C2 eq_refl); exfalso; lra|].
    unfold on_segment. field. lra.
Qed.

(** Above the last abscissa, the value one past the end of the abscissas is read before the end is tested. *)
Theorem C71_above_refuted : forall xs ys v, xs <> [] -> sortedQ xs -> (nth (length xs - 1) xs 0 < v)%Q -> linear_interpolation xs ys v = Undef.
Proof. intros. apply linear_above; assumption. Qed.

(** The ordinate of an element at minimal distance. *)
Theorem C71_nearest : forall xs ys v, xs <> [] -> sortedQ xs -> length ys = length xs ->
  exists p, nearest_interpolation Qminus xs ys v = Ret (nth p ys 0%Q) /\ p < length xs /\ forall i, i < length xs -> (dist xs v p <= dist xs v i)%Q.
Proof. intros xs ys v NE S L. destruct (C52_closest xs v NE S) as (p & E & Hp & M). exists p. unfold nearest_interpolation. rewrite E. cbn [bind]. rewrite (rd_ok _ 0%Q) by lia. auto. Qed.

Example C71_example : match linear_interpolation [0; 1; 3]%Q [10; 20; 0]%Q 2%Q with Ret r => (r == 10)%Q | _ => False end.
Proof. reflexivity. Qed.

(** * C72 *)
Definition trapezes (y : list Q) (step : Q) (size : nat) : Q := (sumQ (fun i => (nth i y 0 + nth (i + 1) y 0) * (1 # 2) * step) 0 (size - 1))%Q.

Lemma trapezes_sum : forall y step m, (sumQ (fun i => (nth i y 0 + nth (i + 1) y 0) * (1 # 2) * step) 0 (S m) == (sumQ (fun k => nth k y 0) 1 m + (nth 0 y 0 + nth (S m) y 0) * (1 # 2)) * step)%Q.
Proof.
  intros y step m. induction m as [|m IH]; [unfold sumQ; cbn [seq fold_right Nat.add]; ring|]. rewrite sumQ_S, IH, sumQ_S. replace (0 + S m) with (S m) by lia. replace (S m + 1) with (S (S m)) by lia. change (1 + m) with (S m). ring.
Qed.

(** The sequential version is the sum of the areas of the trapezes. *)
Theorem C72_trapz_seq : forall y step size, size <= length y -> exists r, trapz_seq y step size = Ret r /\ (r == trapezes y step size)%Q.
Proof.
  intros y step size H. unfold trapz_seq, trapezes. destruct (Nat.leb_spec size 1) as [C|C].
  - exists 0%Q. split; [reflexivity|]. destruct size as [|[|size]]; [reflexivity|reflexivity|lia].
  - rewrite (rd_ok _ 0%Q) by lia. cbn [bind]. cbv zeta. destruct (acc_from (rd y) (fun k => nth k y 0%Q) 1 (size - 1 - 1) (div2 (nth 0 y 0%Q))) as (r & E & I); [intros i Hi; apply rd_ok; lia|]. rewrite E. cbn [bind]. rewrite (rd_ok _ 0%Q) by lia. cbn [bind].
    eexists. split; [reflexivity|]. rewrite I. destruct size as [|[|m]]; [lia|lia|]. replace (S (S m) - 1) with (S m) by lia. replace (S m - 1) with m by lia. rewrite trapezes_sum. unfold div2. ring.
Qed.

(** The vectorised version adds one ordinate too many, the first one out of the registers, for any number of points. *)
Theorem C72_trapz_simd_refuted : forall N y step size, 2 <= N -> 2 <= size -> size <= length y ->
  exists r, trapz_simd N y step size = Ret r /\
    (r == trapezes y step size + nth ((size - 1) / N * N) y 0 * step)%Q.
Proof.
  intros N y step size HN HS HL. unfold trapz_simd, trapezes. destruct (Nat.leb_spec size 1) as [C|C]; [lia|]. cbv zeta. destruct size as [|[|m]]; [lia|lia|]. replace (S (S m) - 1) with (S m) by lia. set (q := S m / N).
  pose proof (Nat.div_mod (S m) N ltac:(lia)) as D. pose proof (Nat.mod_upper_bound (S m) N ltac:(lia)) as U. fold q in D. set (rm := S m mod N) in *.
  assert (T : (q * N - 1 + (N - 1)) / N = q).
  { destruct q as [|q']; [apply Nat.div_small; lia|]. symmetry. apply (Nat.div_unique _ N (S q') (N - 2)); nia. }
  rewrite T. destruct (regs_ok N y q 1 0%Q) as (a & Ea & Ia); [nia|]. change (fun t a => add_reg N y (1 + t * N) a) with (fun t a => add_reg N y (1 + t * N) a) in Ea. rewrite Ea. cbn [bind].
  destruct (acc_from (rd y) (fun k => nth k y 0%Q) (q * N) (S m - q * N) a) as (b & Eb & Ib); [intros i Hi; apply rd_ok; lia|]. rewrite Eb. cbn [bind]. rewrite !(rd_ok _ 0%Q) by lia. cbn [bind].
  eexists. split; [reflexivity|]. rewrite Ib, Ia, trapezes_sum. unfold div2.
  destruct (Nat.leb_spec N (S m)) as [C1|C1].
  - assert (Hq : 1 <= q) by (unfold q; apply Nat.div_le_lower_bound; lia).
    assert (X : (sumQ (fun k => nth k y 0) 1 (q * N) + sumQ (fun k => nth k y 0) (q * N) (S m - q * N) == sumQ (fun k => nth k y 0) 1 m + nth (q * N) y 0)%Q).
    { replace (q * N) with (S (q * N - 1)) at 1 by nia. rewrite sumQ_S. replace (1 + (q * N - 1)) with (q * N) by nia.
      replace m with ((q * N - 1) + (S m - q * N)) at 2 by nia. rewrite sumQ_app. replace (1 + (q * N - 1)) with (q * N) by nia. ring. }
    lra || (setoid_replace (0 + sumQ (fun k => nth k y 0) 1 (q * N) + sumQ (fun k => nth k y 0) (q * N) (S m - q * N))%Q with (sumQ (fun k => nth k y 0) 1 m + nth (q * N) y 0)%Q by (rewrite <- X; ring); ring).
  - assert (Hq : q = 0) by (unfold q; apply Nat.div_small; lia). rewrite Hq. cbn [Nat.mul]. rewrite Nat.sub_0_r.
    assert (X : (sumQ (fun k => nth k y 0) 0 (S m) == nth 0 y 0 + sumQ (fun k => nth k y 0) 1 m)%Q) by (change (S m) with (1 + m); rewrite sumQ_app; change (0 + 1) with 1; unfold sumQ at 1; cbn [seq fold_right]; ring).
    rewrite X. change (sumQ (fun k => nth k y 0) 1 0)%Q with 0%Q. cbn [Nat.mul]. ring.
Qed.

Example C72_trapz_example : trapz_simd 2 [1; 1; 1; 1]%Q 1%Q 4 <> trapz_seq [1; 1; 1; 1]%Q 1%Q 4 /\ match trapz_simd 2 [1; 1; 1; 1]%Q 1%Q 4 with Ret r => (r == 4)%Q | _ => False end.
Proof. split; [discriminate|reflexivity]. Qed.

(** Rectangles: both versions are the sum of the areas. *)
Theorem C72_rect : forall N y step size, 0 < N -> size <= length y -> size <> 1 ->
  exists r s, rect_seq y step size = Ret r /\ rect_simd N y step size = Ret s /\ (r == sumQ (fun i => nth i y 0 * step) 0 size)%Q /\ (s == r)%Q.
Proof.
  intros N y step size HN HL H1. unfold rect_seq, rect_simd. destruct (Nat.leb_spec size 1) as [C|C].
  - assert (size = 0) by lia. subst size. exists 0%Q, 0%Q. split; [reflexivity|]. split; [reflexivity|]. split; reflexivity.
  - destruct (acc_from (rd y) (fun k => nth k y 0%Q) 0 size 0%Q) as (r & E & I); [intros i Hi; apply rd_ok; lia|]. change (for_ size (fun i area => v <- rd y i;; Ret (area + v)%Q) 0%Q) with (for_from 0 size (fun i area => v <- rd y i;; Ret (area + v)%Q) 0%Q). rewrite E. cbn [bind]. cbv zeta.
    set (q := size / N). pose proof (Nat.div_mod size N ltac:(lia)) as D. pose proof (Nat.mod_upper_bound size N ltac:(lia)) as U. fold q in D.
    destruct (regs_ok N y q 0 0%Q) as (a & Ea & Ia); [nia|]. cbn [Nat.add] in Ea. rewrite Ea. cbn [bind].
    destruct (acc_from (rd y) (fun k => nth k y 0%Q) (q * N) (size - q * N) a) as (b & Eb & Ib); [intros i Hi; apply rd_ok; nia|]. rewrite Eb. cbn [bind].
    do 2 eexists. split; [reflexivity|]. split; [reflexivity|].
    assert (X : (sumQ (fun k => nth k y 0) 0 size == sumQ (fun k => nth k y 0) 0 (q * N) + sumQ (fun k => nth k y 0) (q * N) (size - q * N))%Q).
    { replace size with (q * N + (size - q * N)) at 1 by nia. rewrite sumQ_app. reflexivity. }
    split; [|rewrite Ib, Ia, I, X; ring]. rewrite I. clear. induction size as [|n IH]; [unfold sumQ; cbn; ring|]. rewrite !sumQ_S, <- IH. cbn [Nat.add]. ring.
Qed.

(** One ordinate alone has area zero, not y[0] * step. *)
Theorem C72_rect_one_refuted : forall N y step, rect_seq y step 1 = Ret 0%Q /\ rect_simd N y step 1 = Ret 0%Q.
Proof. intros. split; reflexivity. Qed.

(** Between given abscissas, and cumulated. *)
Definition area_xy (x y : list Q) (n : nat) : Q := sumQ (fun i => (nth i y 0 + nth (i + 1) y 0) * (1 # 2) * (nth (i + 1) x 0 - nth i x 0))%Q 0 n.

Theorem C72_trapz_xy : forall x y size, size <= length x -> size <= length y -> exists r, trapz_xy x y size = Ret r /\ (r == area_xy x y (size - 1))%Q.
Proof.
  intros x y size HX HY. unfold trapz_xy. destruct (Nat.leb_spec size 1) as [C|C].
  - exists 0%Q. split; [reflexivity|]. replace (size - 1) with 0 by lia. reflexivity.
  - match goal with |- context [for_ ?K ?body ?s0] => destruct (for_inv _ (fun n a => a == area_xy x y n)%Q K body s0) as (r & E & I) end; [reflexivity| |eauto].
    intros i a Hi I. rewrite !(rd_ok _ 0%Q) by lia. cbn [bind]. eexists. split; [reflexivity|]. unfold area_xy in *. rewrite sumQ_S, I. cbn [Nat.add]. unfold div2. ring.
Qed.

Theorem C72_cumul_xy : forall x y cumul size, size <= length x -> size <= length y -> size <= length cumul ->
  exists r, cumtrapz_xy x y cumul size = Ret r /\ length r = length cumul /\ (forall n, n < size -> (nth n r 0 == area_xy x y n)%Q) /\ forall n, size <= n -> nth n r 0%Q = nth n cumul 0%Q.
Proof.
  intros x y cumul size HX HY HC. unfold cumtrapz_xy. destruct (Nat.eqb_spec size 0) as [->|C0]; [exists cumul; split; [reflexivity|]; split; [reflexivity|]; split; [intros; lia|reflexivity]|].
  destruct (Nat.eqb_spec size 1) as [->|C1].
  - rewrite wr_ok by lia. eexists. split; [reflexivity|]. rewrite length_upd. split; [reflexivity|]. split.
    + intros n Hn. replace n with 0 by lia. rewrite nth_upd_eq by lia. reflexivity.
    + intros n Hn. rewrite nth_upd_neq by lia. reflexivity.
  - match goal with |- context [for_ ?K ?body ?s0] => destruct (for_inv _ (fun k st => fst st == area_xy x y k /\ length (snd st) = length cumul /\ (forall n, (n < k)%nat -> nth n (snd st) 0 == area_xy x y n) /\ forall n, (k <= n)%nat -> nth n (snd st) 0 = nth n cumul 0)%Q K body s0) as ([ar cu] & E & I1 & I2 & I3 & I4) end.
    + cbn [fst snd]. split; [reflexivity|]. split; [reflexivity|]. split; [intros; lia|reflexivity].
    + intros i [ar cu] Hi (I1 & I2 & I3 & I4). cbn [fst snd] in *. rewrite wr_ok by lia. cbn [bind]. rewrite !(rd_ok _ 0%Q) by lia. cbn [bind]. eexists. split; [reflexivity|]. cbn [fst snd]. rewrite length_upd. split.
      * unfold area_xy in *. rewrite sumQ_S, I1. cbn [Nat.add]. unfold div2. ring.
      * split; [exact I2|]. split.
        -- intros n Hn. destruct (Nat.eq_dec n i) as [->|Ne]; [rewrite nth_upd_eq by lia; exact I1|]. rewrite nth_upd_neq by lia. apply I3. lia.
        -- intros n Hn. rewrite nth_upd_neq by lia. apply I4. lia.
    + rewrite E. cbn [bind fst snd] in *. rewrite wr_ok by lia. eexists. split; [reflexivity|]. rewrite length_upd. split; [exact I2|]. split.
      * intros n Hn. destruct (Nat.eq_dec n (size - 1)) as [->|Ne]; [rewrite nth_upd_eq by lia; exact I1|]. rewrite nth_upd_neq by lia. apply I3. lia.
      * intros n Hn. rewrite nth_upd_neq by lia. apply I4. lia.
Qed.

(** * C73 *)
Theorem C73_power : forall x, is_power_of_2 x = true <-> exists k, (0 <= k)%Z /\ x = (2 ^ k)%Z.
Proof.
  intros x. unfold is_power_of_2. rewrite andb_true_iff, Z.ltb_lt, Z.eqb_eq. split.
  - intros [P L]. exists (Z.log2 x). split; [apply Z.log2_nonneg|]. destruct (Z.eq_dec x (2 ^ Z.log2 x)) as [E|N]; [exact E|]. exfalso.
    destruct (Z.log2_spec x P) as [A1 A2]. assert (A3 : (Z.log2 (x - 1) = Z.log2 x)%Z) by (apply Z.log2_unique; [apply Z.log2_nonneg|lia]).
    assert (T1 : Z.testbit x (Z.log2 x) = true) by (apply Z.bit_log2; exact P).
    assert (T2 : Z.testbit (x - 1) (Z.log2 x) = true) by (rewrite <- A3; apply Z.bit_log2; pose proof (Z.pow_pos_nonneg 2 (Z.log2 x) ltac:(lia) (Z.log2_nonneg x)); lia).
    assert (T3 : Z.testbit (Z.land x (x - 1)) (Z.log2 x) = true) by (rewrite Z.land_spec, T1, T2; reflexivity). rewrite L, Z.bits_0 in T3. discriminate.
  - intros (k & Hk & ->). pose proof (Z.pow_pos_nonneg 2 k ltac:(lia) Hk). split; [assumption|]. replace (2 ^ k - 1)%Z with (Z.ones k) by (rewrite Z.ones_equiv; lia). rewrite Z.land_ones by exact Hk. apply Z_mod_same_full.
Qed.

Lemma np2_ok : forall fuel w k x, (0 <= k)%Z -> (Z.of_nat w <= k + Z.of_nat fuel)%Z -> (0 < w) -> (k < Z.of_nat w)%Z -> (forall j, 0 <= j < k -> 2 ^ j <= x)%Z ->
  (forall r, np2_loop fuel w (2 ^ k) x = Ret r -> exists j, (k <= j)%Z /\ r = (2 ^ j)%Z /\ (x < 2 ^ j)%Z /\ (forall i, 0 <= i < j -> 2 ^ i <= x)%Z) /\
  ((2 ^ k < 2 ^ (Z.of_nat w - 1))%Z -> (x < 2 ^ (Z.of_nat w - 2))%Z -> exists r, np2_loop fuel w (2 ^ k) x = Ret r) /\
  ((2 ^ (Z.of_nat w - 2) <= x)%Z -> (k < Z.of_nat w - 1)%Z -> np2_loop fuel w (2 ^ k) x = Undef).
Proof.
  induction fuel as [|fuel IH]; intros w k x Hk HF Hw KW HB; [lia|]. cbn [np2_loop]. destruct (Z.leb_spec (2 ^ k) x) as [C|C].
  - rewrite <- Z.pow_succ_r by exact Hk. destruct (Z.ltb_spec (2 ^ Z.succ k) (2 ^ (Z.of_nat w - 1))) as [C2|C2].
    + apply Z.pow_lt_mono_r_iff in C2; [|lia|lia].
      destruct (IH w (Z.succ k) x) as (P1 & P2 & P3); [lia|lia|exact Hw|lia|intros j Hj; destruct (Z.eq_dec j k) as [->|]; [exact C|apply HB; lia]|].
      split; [intros r E; destruct (P1 r E) as (j & J1 & J2); exists j; split; [lia|exact J2]|]. split.
      * intros _ H. apply P2; [|exact H]. apply Z.pow_lt_mono_r; lia.
      * intros H _. apply P3; [exact H|lia].
    + split; [discriminate|]. split; [|reflexivity]. intros H1 H2. exfalso. apply Z.pow_lt_mono_r_iff in H1; [|lia|lia].
      assert (Z.succ k >= Z.of_nat w - 1)%Z. { destruct (Z_lt_le_dec (Z.succ k) (Z.of_nat w - 1)); [pose proof (Z.pow_lt_mono_r 2 (Z.succ k) (Z.of_nat w - 1) ltac:(lia) ltac:(lia) ltac:(lia)); lia|lia]. }
      replace (Z.of_nat w - 2)%Z with k in H2 by lia. lia.
  - split; [intros r E; injection E as <-; exists k; split; [lia|]; split; [reflexivity|]; split; [exact C|exact HB]|]. split; [eauto|]. intros H H2. exfalso.
    assert (2 ^ k <= 2 ^ (Z.of_nat w - 2))%Z by (apply Z.pow_le_mono_r; lia). lia.
Qed.

(** On w bits the result is the smallest power of two above x; beyond 2^(w-2) it does not fit and the shift is undefined. *)
Theorem C73_next_power : forall w x, 2 < w ->
  ((x < 2 ^ (Z.of_nat w - 2))%Z -> exists j, (0 <= j)%Z /\ next_power_of_2 w x = Ret (2 ^ j)%Z /\ (x < 2 ^ j)%Z /\ forall i, (0 <= i < j)%Z -> (2 ^ i <= x)%Z) /\
  ((2 ^ (Z.of_nat w - 2) <= x)%Z -> next_power_of_2 w x = Undef).
Proof.
  intros w x Hw. unfold next_power_of_2. destruct (np2_ok w w 0 x) as (P1 & P2 & P3); [lia|lia|lia|lia|intros; lia|]. change (2 ^ 0)%Z with 1%Z in *. split.
  - intros H. destruct P2 as [r E]; [change 1%Z with (2 ^ 0)%Z; apply Z.pow_lt_mono_r; lia|exact H|]. destruct (P1 r E) as (j & J0 & -> & J1 & J2). exists j. auto.
  - intros H. apply P3; [exact H|lia].
Qed.

Lemma gcd_ok : forall fuel a b, (0 <= a)%Z -> (0 < b)%Z -> (b <= Z.of_nat fuel)%Z -> gcd_loop fuel a b = Ret (Z.gcd a b).
Proof.
  induction fuel as [|fuel IH]; intros a b Ha Hb HF; [lia|]. cbn [gcd_loop]. rewrite Z.rem_mod_nonneg by lia. pose proof (Z.mod_pos_bound a b Hb) as MB. destruct (Z.eqb_spec (a mod b) 0) as [E|E].
  - f_equal. rewrite Z.gcd_comm, <- (Z.gcd_mod a b) by lia. rewrite E. rewrite Z.gcd_0_l. lia.
  - rewrite IH by lia. f_equal. rewrite (Z.gcd_comm b), Z.gcd_mod by lia. apply Z.gcd_comm.
Qed.

Theorem C73_gcd : forall a b, (0 <= a)%Z -> (0 < b)%Z -> greatest_common_divisor a b = Ret (Z.gcd a b).
Proof. intros a b Ha Hb. unfold greatest_common_divisor. destruct (Z.eqb_spec b 0); [lia|]. apply gcd_ok; lia. Qed.

Theorem C73_gcd_zero_refuted : forall a, greatest_common_divisor a 0 = Ret 1%Z /\ Z.gcd a 0 = Z.abs a.
Proof. intros a. split; [reflexivity|apply Z.gcd_0_r]. Qed.

Theorem C73_lcm : forall w a b, (0 <= a)%Z -> (0 < b)%Z -> (a * b < 2 ^ (Z.of_nat w - 1))%Z -> least_common_multiple w a b = Ret (Z.lcm a b).
Proof.
  intros w a b Ha Hb HP. unfold least_common_multiple. assert (0 <= a * b)%Z by nia. destruct (Z.leb_spec (- 2 ^ (Z.of_nat w - 1)) (a * b)); [|lia]. destruct (Z.ltb_spec (a * b) (2 ^ (Z.of_nat w - 1))); [|lia]. cbn [andb].
  rewrite C73_gcd by assumption. cbn [bind]. f_equal. unfold Z.lcm. assert (G : (0 < Z.gcd a b)%Z). { pose proof (Z.gcd_nonneg a b). destruct (Z.eq_dec (Z.gcd a b) 0) as [E|]; [apply Z.gcd_eq_0_r in E; lia|lia]. }
  rewrite Z.quot_div_nonneg by lia. rewrite Z.divide_div_mul_exact; [|lia|apply Z.gcd_divide_r]. rewrite Z.abs_eq; [reflexivity|]. apply Z.mul_nonneg_nonneg; [lia|]. apply Z.div_pos; lia.
Qed.

Example C73_example : greatest_common_divisor 84 30 = Ret 6%Z /\ least_common_multiple 32 84 30 = Ret 420%Z /\ next_power_of_2 32 64 = Ret 128%Z /\ is_power_of_2 96 = false.
Proof. repeat split; reflexivity. Qed.
