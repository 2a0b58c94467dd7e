(** Proofs about the small helpers. *)
From Coq Require Import List Arith Lia Bool ZArith QArith Qabs Lqa.
From Verif Require Import Base FullModel FullProofs GaloisModel UtilModel UtilSpec.
Import ListNotations.
Local Open Scope nat_scope.

(** A loop that computes each element of an array. *)
Lemma each_cell : forall A n (f : nat -> outcome A) g out, length out = n -> (forall i, i < n -> f i = Ret (g i)) ->
  for_ n (fun i out => y <- f i ;; wr out i y) out = Ret (tab n g).
Proof.
  intros A n f g out L F. destruct n as [|n]; [destruct out; [reflexivity|discriminate]|]. set (d := g 0).
  match goal with |- for_ ?k ?body ?s0 = _ => destruct (for_inv _ (fun i o => length o = k /\ forall j, j < i -> nth j o d = g j) k body s0) as (o & E & LO & HO) end.
  - split; [exact L|]. intros; lia.
  - intros i o Hi (LO & HO). rewrite F by exact Hi. cbn [bind]. rewrite wr_ok by lia. eexists. split; [reflexivity|]. rewrite length_upd. split; [exact LO|]. intros j Hj. destruct (Nat.eq_dec j i) as [-> | Hne]; [apply nth_upd_eq; lia|]. rewrite nth_upd_neq by auto. apply HO. lia.
  - rewrite E. f_equal. apply (eq_tab _ d); assumption.
Qed.

(** ** Coset *)
Lemma coset_bit_ok : forall size ref inp out, length ref = size -> length inp = size -> length out = size ->
  coset_bit size ref inp out = Ret (tab size (fun i => if (nth i ref 0 =? 0)%Z then nth i inp 0%Z else if (nth i inp 0 =? 0)%Z then 1%Z else 0%Z)).
Proof.
  intros size ref inp out LR LI LO. unfold coset_bit.
  rewrite <- (each_cell _ size (fun i => r <- rd ref i ;; x <- rd inp i ;; Ret (if (r =? 0)%Z then x else if (x =? 0)%Z then 1%Z else 0%Z)) _ out LO).
  - apply for_ext. intros i o Hi. rewrite (rd_ok _ 0%Z) by lia. cbn [bind]. rewrite (rd_ok _ 0%Z) by lia. reflexivity.
  - intros i Hi. rewrite !(rd_ok _ 0%Z) by lia. reflexivity.
Qed.

Lemma coset_real_ok : forall D (d : D) neg g size ref inp out, length ref = size -> length inp = size -> length out = size ->
  (forall i, i < size -> (nth i ref 0 <> 0)%Z -> neg (nth i inp d) = Ret (g (nth i inp d))) ->
  coset_real neg size ref inp out = Ret (tab size (fun i => if (nth i ref 0 =? 0)%Z then nth i inp d else g (nth i inp d))).
Proof.
  intros D d neg g size ref inp out LR LI LO HN. unfold coset_real.
  rewrite <- (each_cell _ size (fun i => r <- rd ref i ;; x <- rd inp i ;; if (r =? 0)%Z then Ret x else neg x) _ out LO).
  - apply for_ext. intros i o Hi. rewrite (rd_ok _ 0%Z) by lia. cbn [bind]. rewrite (rd_ok _ d) by lia. reflexivity.
  - intros i Hi. rewrite (rd_ok _ 0%Z) by lia. cbn [bind]. rewrite (rd_ok _ d) by lia. cbn [bind]. destruct (Z.eqb_spec (nth i ref 0%Z) 0); [reflexivity|]. apply HN; assumption.
Qed.

Lemma cast_small : forall w z, (0 < w)%Z -> (- 2 ^ (w - 1) <= z < 2 ^ (w - 1))%Z -> cast w z = z.
Proof.
  intros w z Hw Hz. unfold cast. assert (E : (2 ^ w = 2 * 2 ^ (w - 1))%Z) by (rewrite <- Z.pow_succ_r by lia; f_equal; lia). rewrite Z.mod_small by lia. lia.
Qed.
Lemma cast_min : forall w, (0 < w)%Z -> cast w (2 ^ (w - 1)) = (- 2 ^ (w - 1))%Z.
Proof.
  intros w Hw. unfold cast. assert (E : (2 ^ w = 2 * 2 ^ (w - 1))%Z) by (rewrite <- Z.pow_succ_r by lia; f_equal; lia). assert (P : (0 < 2 ^ (w - 1))%Z) by (apply Z.pow_pos_nonneg; lia).
  replace (2 ^ (w - 1) + 2 ^ (w - 1))%Z with (2 ^ w)%Z by lia. rewrite Z.mod_same by lia. lia.
Qed.

(** ** Closest value *)
Lemma lb_spec : forall l v, sortedQ l -> lower_bound l v <= length l /\ (forall i, i < lower_bound l v -> (nth i l 0 < v)%Q) /\ (forall i, lower_bound l v <= i < length l -> (v <= nth i l 0)%Q).
Proof.
  induction l as [|x l IH]; intros v S; cbn [lower_bound length].
  - split; [lia|]. split; intros; lia.
  - assert (S' : sortedQ l) by (intros i j H; apply (S (Datatypes.S i) (Datatypes.S j)); cbn [length]; lia). destruct (IH v S') as (L & A & B). destruct (Qlt_le_dec x v) as [C|C].
    + split; [lia|]. split.
      * intros [|i] Hi; cbn [nth]; [exact C|apply A; lia].
      * intros [|i] Hi; [lia|]. cbn [nth]. apply B. lia.
    + split; [lia|]. split; [intros; lia|]. intros i Hi. apply Qle_trans with x; [exact C|]. apply (S 0 i). cbn [length]. lia.
Qed.

Section Closest.
Variable rnd : Q -> Q.
Hypothesis mono : forall x y, (x <= y)%Q -> (rnd x <= rnd y)%Q.

Lemma closest_ok : forall l v, l <> [] -> sortedQ l -> exists p, get_closest (fun a b => rnd (a - b)%Q) l v = Ret p /\ p < length l /\ forall i, i < length l -> (rnd (dist l v p) <= rnd (dist l v i))%Q.
Proof.
  intros l v NE S. assert (Ln : 0 < length l) by (destruct l; [congruence|cbn; lia]). destruct (lb_spec l v S) as (L & A & B). unfold get_closest. set (b := lower_bound l v) in *.
  assert (Ab : forall i, i < b -> (dist l v i == v - nth i l 0)%Q) by (intros i Hi; unfold dist; rewrite Qabs_neg; [ring|]; pose proof (A i Hi); lra).
  assert (Bb : forall i, b <= i < length l -> (dist l v i == nth i l 0 - v)%Q) by (intros i Hi; unfold dist; rewrite Qabs_pos; [reflexivity|]; pose proof (B i Hi); lra).
  assert (RE : forall x y, (x == y)%Q -> (rnd x == rnd y)%Q) by (intros x y E; apply Qle_antisym; apply mono; lra).
  destruct (Nat.eqb_spec b 0) as [E0|E0].
  - exists 0. split; [reflexivity|]. split; [lia|]. intros i Hi. apply mono. rewrite !Bb by lia. pose proof (S 0 i ltac:(lia)). lra.
  - destruct (Nat.eqb_spec b (length l)) as [E1|E1].
    + exists (length l - 1). split; [reflexivity|]. split; [lia|]. intros i Hi. apply mono. rewrite !Ab by lia. pose proof (S i (length l - 1) ltac:(lia)). lra.
    + rewrite (rd_ok _ 0%Q) by lia. cbn [bind]. rewrite (rd_ok _ 0%Q) by lia. cbn [bind]. eexists. split; [reflexivity|].
      destruct (Qlt_le_dec (rnd (nth b l 0 - v)%Q) (rnd (v - nth (b - 1) l 0)%Q)) as [C|C]; (split; [lia|]); intros i Hi.
      * rewrite (RE _ _ (Bb b ltac:(lia))). destruct (Nat.lt_ge_cases i b) as [D|D].
        -- rewrite (RE _ _ (Ab i D)). apply Qle_trans with (rnd (v - nth (b - 1) l 0)%Q); [lra|]. apply mono. pose proof (S i (b - 1) ltac:(lia)). lra.
        -- rewrite (RE _ _ (Bb i ltac:(lia))). apply mono. pose proof (S b i ltac:(lia)). lra.
      * rewrite (RE _ _ (Ab (b - 1) ltac:(lia))). destruct (Nat.lt_ge_cases i b) as [D|D].
        -- rewrite (RE _ _ (Ab i D)). apply mono. pose proof (S i (b - 1) ltac:(lia)). lra.
        -- rewrite (RE _ _ (Bb i ltac:(lia))). apply Qle_trans with (rnd (nth b l 0 - v)%Q); [exact C|]. apply mono. pose proof (S b i ltac:(lia)). lra.
Qed.
End Closest.

(** ** Interpolation *)
Lemma comp_equal_iff : forall a b, comp_equal a b = true <-> (Qabs (a - b) < 1 # 1000000)%Q.
Proof. intros a b. unfold comp_equal. destruct (Qlt_le_dec (Qabs (a - b)) (1 # 1000000)); split; intros; try assumption; try discriminate; try reflexivity. exfalso. lra. Qed.

Lemma lb_at : forall l v i, sortedQ l -> i < length l -> (v <= nth i l 0)%Q -> (forall j, j < i -> (nth j l 0 < v)%Q) -> lower_bound l v = i.
Proof.
  intros l v i S Hi Hv Hj. destruct (lb_spec l v S) as (L & A & B). destruct (Nat.lt_trichotomy (lower_bound l v) i) as [C|[C|C]]; [|exact C|].
  - exfalso. pose proof (B (lower_bound l v) ltac:(lia)). pose proof (Hj _ C). lra.
  - exfalso. pose proof (A i C). lra.
Qed.

Lemma linear_first : forall xs ys v, sortedQ xs -> xs <> [] -> length ys = length xs -> (v <= nth 0 xs 0)%Q -> linear_interpolation xs ys v = Ret (nth 0 ys 0%Q).
Proof.
  intros xs ys v S NE L Hv. assert (Ln : 0 < length xs) by (destruct xs; [congruence|cbn; lia]). unfold linear_interpolation. rewrite firstn_all. rewrite (lb_at xs v 0 S Ln Hv) by (intros; lia). cbn [Nat.eqb bind]. apply rd_ok. lia.
Qed.

Lemma linear_between : forall xs ys v i, sortedQ xs -> length ys = length xs -> S i < length xs -> (nth i xs 0 < v)%Q -> (v <= nth (S i) xs 0)%Q ->
  linear_interpolation xs ys v = Ret (if comp_equal v (nth (S i) xs 0%Q) then nth (S i) ys 0%Q else if comp_equal v (nth i xs 0%Q) then nth i ys 0%Q
    else (nth i ys 0 + (nth (S i) ys 0 - nth i ys 0) * (v - nth i xs 0) / (nth (S i) xs 0 - nth i xs 0))%Q).
Proof.
  intros xs ys v i S L Hi H1 H2. unfold linear_interpolation. rewrite firstn_all.
  rewrite (lb_at xs v (Datatypes.S i) S Hi H2) by (intros j Hj; pose proof (S j i ltac:(lia)); lra).
  replace (Datatypes.S i =? 0) with false by reflexivity. rewrite (rd_ok _ 0%Q) by lia. cbn [bind]. destruct (comp_equal v (nth (Datatypes.S i) xs 0%Q)); [apply rd_ok; lia|].
  destruct (Nat.eqb_spec (Datatypes.S i) (length xs)); [lia|]. replace (Datatypes.S i - 1) with i by lia. rewrite (rd_ok _ 0%Q) by lia. cbn [bind]. destruct (comp_equal v (nth i xs 0%Q)); [apply rd_ok; lia|].
  rewrite !(rd_ok _ 0%Q) by lia. cbn [bind]. reflexivity.
Qed.

Lemma linear_above : forall xs ys v, sortedQ xs -> xs <> [] -> (nth (length xs - 1) xs 0 < v)%Q -> linear_interpolation xs ys v = Undef.
Proof.
  intros xs ys v S NE Hv. assert (Ln : 0 < length xs) by (destruct xs; [congruence|cbn; lia]). unfold linear_interpolation. rewrite firstn_all. destruct (lb_spec xs v S) as (L & A & B).
  assert (E : lower_bound xs v = length xs). { destruct (Nat.eq_dec (lower_bound xs v) (length xs)); [assumption|]. pose proof (B (length xs - 1) ltac:(lia)). exfalso. lra. }
  rewrite E. destruct (Nat.eqb_spec (length xs) 0); [lia|]. rewrite rd_out by lia. reflexivity.
Qed.

(** ** mutual_unique *)
Section Unique.
Context {A B : Type} (eqb : A -> A -> bool) (d : A) (e : B) (X : list A) (Y : list B).
Hypothesis eqb_ok : forall a b, reflect (a = b) (eqb a b).
Hypothesis LY : length Y = length X.
Definition starts (n : nat) : list nat := filter (fun i => (i =? 0) || negb (eqb (nth (i - 1) X d) (nth i X d))) (seq 0 n).

Lemma starts_S : forall n, starts (S n) = starts n ++ (if (n =? 0) || negb (eqb (nth (n - 1) X d) (nth n X d)) then [n] else []).
Proof. intros n. unfold starts. rewrite seq_S, filter_app. reflexivity. Qed.
Lemma starts_lt : forall n k, k < length (starts n) -> nth k (starts n) 0 < n.
Proof. intros n k Hk. pose proof (nth_In (starts n) 0 Hk) as H. set (x := nth k (starts n) 0) in *. clearbody x. unfold starts in H. apply filter_In in H. destruct H as [H _]. apply in_seq in H. lia. Qed.

Definition uinv (i : nat) (s : nat * list A * list B) : Prop :=
  let '(r, xs, ys) := s in
  length xs = length X /\ length ys = length X /\ length (starts i) = S r /\ r < i /\
  (forall k, k <= r -> nth k xs d = nth (nth k (starts i) 0) X d /\ nth k ys e = nth (nth k (starts i) 0) Y e) /\
  (forall k, i <= k -> nth k xs d = nth k X d /\ nth k ys e = nth k Y e) /\
  nth (nth r (starts i) 0) X d = nth (i - 1) X d.

Lemma unique_inv : forall i s, 1 <= i < length X -> uinv i s -> exists s', unique_step eqb i s = Ret s' /\ uinv (S i) s'.
Proof.
  intros i [[r xs] ys] Hi (L1 & L2 & LS & Hr & H1 & H2 & H3). unfold unique_step. rewrite (rd_ok _ d) by lia. cbn [bind]. rewrite (rd_ok _ d) by lia. cbn [bind].
  rewrite (proj1 (H1 r ltac:(lia))), H3, (proj1 (H2 i ltac:(lia))).
  assert (ST : starts (S i) = starts i ++ if eqb (nth (i - 1) X d) (nth i X d) then [] else [i]).
  { rewrite starts_S. destruct (Nat.eqb_spec i 0); [lia|]. cbn [orb]. destruct (eqb (nth (i - 1) X d) (nth i X d)); reflexivity. }
  destruct (eqb_ok (nth (i - 1) X d) (nth i X d)) as [Ee|Ee].
  - eexists. split; [reflexivity|]. rewrite app_nil_r in ST. unfold uinv. rewrite ST. split; [exact L1|]. split; [exact L2|]. split; [exact LS|]. split; [lia|]. split; [exact H1|]. split; [intros k Hk; apply H2; lia|].
    rewrite H3. replace (S i - 1) with i by lia. exact Ee.
  - assert (LS' : length (starts (S i)) = S (S r)) by (rewrite ST, app_length, LS; cbn [length]; lia).
    assert (NS : forall k, k <= r -> nth k (starts (S i)) 0 = nth k (starts i) 0) by (intros k Hk; rewrite ST; apply app_nth1; lia).
    assert (NL : nth (S r) (starts (S i)) 0 = i) by (rewrite ST, app_nth2 by lia; rewrite LS, Nat.sub_diag; reflexivity).
    destruct (Nat.eqb_spec (r + 1) i) as [Er|Er].
    + eexists. split; [reflexivity|]. unfold uinv. split; [exact L1|]. split; [exact L2|]. split; [rewrite LS'; lia|]. split; [lia|]. rewrite Nat.add_1_r in *. split; [|split].
      * intros k Hk. destruct (Nat.eq_dec k (S r)) as [-> | Hne]; [rewrite NL; rewrite Er; apply H2; lia|]. rewrite NS by lia. apply H1. lia.
      * intros k Hk. apply H2. lia.
      * rewrite NL. f_equal. lia.
    + rewrite wr_ok by lia. cbn [bind]. rewrite (rd_ok _ e) by lia. cbn [bind]. rewrite wr_ok by lia. cbn [bind]. eexists. split; [reflexivity|]. unfold uinv. rewrite !length_upd. split; [exact L1|]. split; [exact L2|]. split; [rewrite LS'; lia|]. split; [lia|].
      rewrite (proj2 (H2 i ltac:(lia))). rewrite Nat.add_1_r in *. split; [|split].
      * intros k Hk. destruct (Nat.eq_dec k (S r)) as [-> | Hne]; [rewrite NL; rewrite !nth_upd_eq by lia; auto|]. rewrite NS by lia. rewrite !nth_upd_neq by auto. apply H1. lia.
      * intros k Hk. rewrite !nth_upd_neq by lia. apply H2. lia.
      * rewrite NL. f_equal. lia.
Qed.

Lemma unique_ok : let S := run_starts eqb d X in let K := if length S <=? 1 then S else removelast S in
  mutual_unique eqb X Y = Ret (map (fun i => nth i X d) K, map (fun i => nth i Y e) K).
Proof.
  intros S K. destruct (Nat.eq_dec (length X) 0) as [E0|E0].
  { destruct X; [|discriminate]. destruct Y; [|discriminate]. reflexivity. }
  unfold mutual_unique. destruct (for_from_inv _ (fun i s => uinv (Nat.min i (length X)) s) (length X - 1) 1 (unique_step eqb) (0, X, Y)) as ([[r xs] ys] & E & I).
  - rewrite Nat.min_l by lia. unfold uinv. split; [reflexivity|]. split; [exact LY|]. split; [reflexivity|]. split; [lia|]. split; [|split; [auto|reflexivity]]. intros k Hk. assert (k = 0) by lia. subst k. split; reflexivity.
  - intros i s Hi I. rewrite Nat.min_l in I by lia. rewrite Nat.min_l by lia. apply unique_inv; [lia|exact I].
  - rewrite E. cbn [bind]. replace (1 + (length X - 1)) with (length X) in I by lia. rewrite Nat.min_id in I. destruct I as (L1 & L2 & LS & Hr & H1 & _ & _).
    change (starts (length X)) with S in *. rewrite L1. destruct (Nat.eqb_spec (length X) 0); [lia|]. cbn [negb andb]. set (r' := if r =? 0 then 1 else r).
    assert (LK : length K = r' /\ K = firstn r' S).
    { unfold K, r'. rewrite LS. destruct (Nat.eqb_spec r 0) as [-> | Hne]; [cbn [Nat.leb]; split; [exact LS|rewrite <- LS; symmetry; apply firstn_all]|]. destruct (Nat.leb_spec (Datatypes.S r) 1); [lia|].
      rewrite removelast_firstn_len, LS. cbn [pred]. split; [rewrite firstn_length; lia|reflexivity]. }
    destruct LK as [LK EK]. assert (Hr' : r' <= Datatypes.S r) by (unfold r'; destruct (Nat.eqb_spec r 0); lia).
    assert (NK : forall k, k < r' -> nth k K 0 = nth k S 0) by (intros k Hk; rewrite EK; apply firstn_nth; lia).
    f_equal. f_equal.
    + apply (list_eq_nth _ d); [rewrite firstn_length, map_length, LK; lia|]. intros k Hk. rewrite firstn_length in Hk. rewrite firstn_nth by lia. rewrite (proj1 (H1 k ltac:(lia))).
      rewrite (nth_indep (map _ K) d (nth 0 X d)) by (rewrite map_length; lia). rewrite (map_nth (fun i => nth i X d)). rewrite NK by lia. reflexivity.
    + apply (list_eq_nth _ e); [rewrite firstn_length, map_length, LK; lia|]. intros k Hk. rewrite firstn_length in Hk. rewrite firstn_nth by lia. rewrite (proj2 (H1 k ltac:(lia))).
      rewrite (nth_indep (map _ K) e (nth 0 Y e)) by (rewrite map_length; lia). rewrite (map_nth (fun i => nth i Y e)). rewrite NK by lia. reflexivity.
Qed.
End Unique.

(** ** Integrals *)
Lemma sumQ_S : forall f lo n, (sumQ f lo (S n) == sumQ f lo n + f (lo + n)%nat)%Q.
Proof.
  intros f lo n. unfold sumQ. revert lo. induction n as [|n IH]; intros lo; [cbn [seq fold_right]; rewrite Nat.add_0_r; ring|].
  change (seq lo (S (S n))) with (lo :: seq (S lo) (S n)). change (seq lo (S n)) with (lo :: seq (S lo) n). cbn [fold_right]. rewrite IH. replace (S lo + n) with (lo + S n) by lia. ring.
Qed.
Lemma sumQ_app : forall f lo n m, (sumQ f lo (n + m) == sumQ f lo n + sumQ f (lo + n) m)%Q.
Proof. intros f lo n m. induction m as [|m IH]; [rewrite Nat.add_0_r; unfold sumQ at 3; cbn; ring|]. rewrite Nat.add_succ_r, !sumQ_S, IH. rewrite Nat.add_assoc. ring. Qed.
Lemma sumQ_ext : forall f g lo n, (forall i, lo <= i < lo + n -> (f i == g i)%Q) -> (sumQ f lo n == sumQ g lo n)%Q.
Proof. intros f g lo n H. induction n as [|n IH]; [reflexivity|]. rewrite !sumQ_S. rewrite IH by (intros; apply H; lia). rewrite H by lia. reflexivity. Qed.

Lemma acc_from : forall (f : nat -> outcome Q) g lo n a, (forall i, lo <= i < lo + n -> f i = Ret (g i)) ->
  exists r, for_from lo n (fun i area => v <- f i ;; Ret (area + v)%Q) a = Ret r /\ (r == a + sumQ g lo n)%Q.
Proof.
  intros f g lo n a H. destruct (for_from_inv _ (fun i r => (r == a + sumQ g lo (i - lo))%Q) n lo (fun i area => v <- f i ;; Ret (area + v)%Q) a) as (r & E & I).
  - rewrite Nat.sub_diag. unfold sumQ. cbn. ring.
  - intros i r Hi I. rewrite H by lia. cbn [bind]. eexists. split; [reflexivity|]. replace (S i - lo) with (S (i - lo)) by lia. rewrite sumQ_S, I. replace (lo + (i - lo)) with i by lia. ring.
  - exists r. split; [exact E|]. rewrite I. replace (lo + n - lo) with n by lia. reflexivity.
Qed.

Lemma add_reg_ok : forall N y i a, i + N <= length y -> exists r, add_reg N y i a = Ret r /\ (r == a + sumQ (fun k => nth k y 0) i N)%Q.
Proof.
  intros N y i a H. unfold add_reg, for_. destruct (acc_from (fun l => rd y (i + l)) (fun l => nth (i + l) y 0%Q) 0 N a) as (r & E & I); [intros l Hl; apply rd_ok; lia|].
  exists r. split; [exact E|]. rewrite I. assert (Z : (sumQ (fun l => nth (i + l) y 0) 0 N == sumQ (fun k => nth k y 0) i N)%Q); [|rewrite Z; reflexivity].
  clear. induction N as [|N IH]; [reflexivity|]. rewrite !sumQ_S, IH. reflexivity.
Qed.

Lemma regs_ok : forall N y t lo a, lo + t * N <= length y -> exists r, for_ t (fun t a => add_reg N y (lo + t * N) a) a = Ret r /\ (r == a + sumQ (fun k => nth k y 0) lo (t * N))%Q.
Proof.
  intros N y t lo a H. destruct (for_inv _ (fun k r => (r == a + sumQ (fun k => nth k y 0) lo (k * N))%Q) t (fun t a => add_reg N y (lo + t * N) a) a) as (r & E & I).
  - unfold sumQ. cbn. ring.
  - intros k r Hk I. destruct (add_reg_ok N y (lo + k * N) r) as (r' & E' & I'); [nia|]. exists r'. split; [exact E'|]. rewrite I', I. replace (S k * N) with (k * N + N) by lia. rewrite sumQ_app. ring.
  - exists r. auto.
Qed.
