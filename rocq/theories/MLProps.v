(** Exhaustive decoding is optimal (C57), and the Chase decoder (C83). *)
From Coq Require Import List Arith Lia Bool ZArith QArith Qabs Lqa Permutation Sorted.
From Verif Require Import Base BitPackerModel BitPackerSpec BitPackerProofs FloatQ QuantProps MLModel.
Import ListNotations.
Local Open Scope nat_scope.

(** ** Specification *)
(** the words of a code given by its encoder *)
Definition code_of (enc : list bool -> list bool) (K : nat) (X : list bool) : Prop := exists u, length u = K /\ X = enc u.
(** the number of positions where a word differs from the received bits *)
Definition hdist (X : list bool) (Y : list Z) : nat := length (filter (fun p : bool * Z => negb ((if fst p then 1 else 0) =? snd p)%Z) (combine X Y)).
(** the square of the Euclidean distance, exactly: 0 is sent as 1 and 1 as -1 *)
Fixpoint edist (X : list bool) (Y : list Q) : Q :=
  match X, Y with
  | x :: X, y :: Y => (((if x then -1 else 1) - y) * ((if x then -1 else 1) - y) + edist X Y)%Q
  | _, _ => 0%Q
  end.
Definition closest_hard (Y : list Z) (code : list bool -> Prop) (X : list bool) : Prop := code X /\ forall X', code X' -> hdist X Y <= hdist X' Y.
Definition closest_soft (Y : list Q) (code : list bool -> Prop) (X : list bool) : Prop := code X /\ forall X', code X' -> (edist X Y <= edist X' Y)%Q.
(** within a factor: X is at most 1 / r times farther than the closest word *)
Definition nearly_closest (r : Q) (Y : list Q) (code : list bool -> Prop) (X : list bool) : Prop :=
  code X /\ forall X', code X' -> (edist X Y * r <= edist X' Y)%Q.

(** ** The counter and the words *)
Lemma bits_exist : forall n (f : nat -> bool), exists t, t < 2 ^ n /\ forall b, b < n -> Nat.testbit t b = f b.
Proof.
  induction n as [|n IH]; intros f; [exists 0; split; [cbn; lia|intros; lia]|].
  destruct (IH (fun b => f (S b))) as (t & L & H). exists (2 * t + Nat.b2n (f 0)). split; [cbn [Nat.pow]; destruct (f 0); cbn; lia|].
  intros [|b] Hb.
  - rewrite Nat.testbit_0_r. reflexivity.
  - rewrite Nat.testbit_succ_r. apply H. lia.
Qed.
Lemma words_tab : forall (u : list bool), u = tab (length u) (fun k => nth k u false).
Proof. intros u. apply (list_eq_nth _ false). - rewrite length_tab. reflexivity. - intros i Hi. rewrite nth_tab by exact Hi. reflexivity. Qed.

Lemma testbit_Z : forall k u, Z.testbit (Z.of_nat u) (Z.of_nat k) = Nat.testbit u k.
Proof.
  induction k as [|k IH]; intros u.
  - change (Z.of_nat 0) with 0%Z. rewrite Z.bit0_odd, Nat.bit0_odd. rewrite <- Z.negb_even, <- Nat.negb_even. f_equal.
    destruct (Nat.Even_or_Odd u) as [(v & ->)|(v & ->)].
    + replace (Z.of_nat (2 * v)) with (0 + 2 * Z.of_nat v)%Z by lia. rewrite Z.even_add_mul_2. replace (2 * v) with (0 + 2 * v) by lia. rewrite Nat.even_add_mul_2. reflexivity.
    + replace (Z.of_nat (2 * v + 1)) with (1 + 2 * Z.of_nat v)%Z by lia. rewrite Z.even_add_mul_2. replace (2 * v + 1) with (1 + 2 * v) by lia. rewrite Nat.even_add_mul_2. reflexivity.
  - rewrite Nat2Z.inj_succ. rewrite <- Z.div2_bits by lia. change 2%Z with (Z.of_nat 2). rewrite <- Nat2Z.inj_div, IH.
    change 2 with (2 ^ 1). rewrite Nat.div_pow2_bits. f_equal. lia.
Qed.
Lemma byte_bits : forall u i j, (0 <= u)%Z -> j < 8 -> Z.testbit (Z.land (Z.shiftr u (8 * Z.of_nat i)) 255) (Z.of_nat j) = Z.testbit u (Z.of_nat (i * 8 + j)).
Proof.
  intros u i j Hu Hj. rewrite Z.land_spec. replace (Z.testbit 255 (Z.of_nat j)) with true.
  - rewrite andb_true_r, Z.shiftr_spec by lia. f_equal. lia.
  - symmetry. do 8 (destruct j as [|j]; [reflexivity|]). lia.
Qed.

Lemma candidate_ok : forall sB K u, 0 < sB -> 0 < K <= 64 -> u < 2 ^ K -> candidate sB K (Z.of_nat u) = Ret (tab K (Nat.testbit u)).
Proof.
  intros sB K u HsB HK Hu. unfold candidate.
  assert (LM : 8 <= (K + 7) * sB) by nia.
  destruct (for_inv _ (fun i (m : list Z) => length m = (K + 7) * sB /\ forall j, j < i -> nth j m 0%Z = Z.land (Z.shiftr (Z.of_nat u) (8 * Z.of_nat j)) 255) 8
    (fun i m => wr m i (Z.land (Z.shiftr (Z.of_nat u) (8 * Z.of_nat i)) 255)) (repeat 0%Z ((K + 7) * sB))) as (m & E & L & I).
  - split; [apply repeat_length|]. intros; lia.
  - intros i m Hi (L & I). rewrite wr_ok by lia. eexists. split; [reflexivity|]. rewrite length_upd. split; [exact L|].
    intros j Hj. destruct (Nat.eq_dec j i) as [->|Ne]; [apply nth_upd_eq; lia|]. rewrite nth_upd_neq by lia. apply I. lia.
  - rewrite E. cbn [bind].
    destruct (unpack_inplace_one sB m K false 8 (Nat.testbit u)) as (out & EO & LO & IO & _).
    + exact HsB. + lia. + transitivity 64%Z; [lia|]. vm_compute. discriminate. + rewrite L. nia.
    + intros i Hi. assert (Hi8 : i < 8). { unfold symbols_for in Hi. enough ((K + 8 - 1) / 8 <= 8) by lia. apply Nat.lt_succ_r, Nat.div_lt_upper_bound; lia. }
      rewrite I by exact Hi8. split.
      * change (2 ^ Z.of_nat 8)%Z with (2 ^ 8)%Z. rewrite (Z.land_ones _ 8) by lia. apply Z.mod_pos_bound. reflexivity.
      * intros k Hk. rewrite byte_bits by lia. rewrite testbit_Z.
        destruct (Nat.ltb_spec k (Nat.min 8 (K - i * 8))) as [Lt|Ge]; cbn [andb]; [reflexivity|].
        destruct u as [|u]; [apply Nat.bits_0|]. apply Nat.bits_above_log2. apply Nat.log2_lt_pow2 in Hu; lia.
    + rewrite EO. cbn [bind]. f_equal. apply (list_eq_nth _ false).
      * unfold bits_of, elements. rewrite !map_length, seq_length, length_tab. reflexivity.
      * intros k Hk. unfold bits_of in *. rewrite map_length in Hk. assert (Hk' : k < K) by (unfold elements in Hk; rewrite map_length, seq_length in Hk; exact Hk).
        rewrite (nth_indep _ false (negb (0 =? 0)%Z)) by (rewrite map_length; exact Hk). rewrite (map_nth (fun x => negb (x =? 0)%Z)).
        rewrite IO by exact Hk'. rewrite nth_tab by exact Hk'. destruct (Nat.testbit u k); reflexivity.
Qed.

Lemma u_max_trials : forall K, 0 < K < 64 -> exists m, u_max K = Ret m /\ trials m = 2 ^ K.
Proof.
  intros K HK. unfold u_max. replace (K <=? 64) with true by (symmetry; apply Nat.leb_le; lia). replace (K =? 64) with false by (symmetry; apply Nat.eqb_neq; lia).
  cbn [guard bind]. eexists. split; [reflexivity|]. unfold trials, UINT64_MAX.
  assert (P : (2 ^ Z.of_nat K <= 2 ^ 63)%Z) by (apply Z.pow_le_mono_r; lia). assert (2 ^ 63 < 2 ^ 64)%Z by reflexivity.
  replace (2 ^ Z.of_nat K - 1 =? 2 ^ 64 - 1)%Z with false by (symmetry; apply Z.eqb_neq; lia).
  replace (2 ^ Z.of_nat K - 1 + 1)%Z with (2 ^ Z.of_nat K)%Z by lia. change 2%Z with (Z.of_nat 2). rewrite <- Nat2Z.inj_pow. apply Nat2Z.id.
Qed.

(** ** The search of a minimum *)
Section Min.
Variable D : Type.
Variable lt : D -> D -> bool.
Hypothesis irrefl : forall a, lt a a = false.
Hypothesis trans : forall a b c, lt a b = true -> lt b c = true -> lt a c = true.
Lemma search_min : forall n (ok : nat -> bool) (d : nat -> D) dmax,
  let loop A (val : nat -> A) a0 := for_ n (fun u (st : D * A) => Ret (if ok u && lt (d u) (fst st) then (d u, val u) else st)) (dmax, a0) in
  ((forall u, u < n -> ok u = true -> lt (d u) dmax = false) /\ forall A val a0, loop A val a0 = Ret (dmax, a0)) \/
  (exists u, u < n /\ ok u = true /\ (forall A val a0, loop A val a0 = Ret (d u, val u)) /\ forall u', u' < n -> ok u' = true -> lt (d u') (d u) = false).
Proof.
  intros n ok d dmax. cbn zeta. induction n as [|i IH]; [left; split; [intros; lia|reflexivity]|].
  destruct IH as [(N & E)|(u & Hu & Ou & E & M)].
  - assert (E' : forall A val a0, for_ (S i) (fun u (st : D * A) => Ret (if ok u && lt (d u) (fst st) then (d u, val u) else st)) (dmax, a0) = Ret (if ok i && lt (d i) dmax then (d i, val i) else (dmax, a0))).
    { intros A val a0. rewrite for_S, E. reflexivity. }
    destruct (ok i) eqn:O; cbn [andb] in E'; [destruct (lt (d i) dmax) eqn:L|].
    + right. exists i. split; [lia|]. split; [exact O|]. split; [exact E'|]. intros u' Hu' O'. destruct (Nat.eq_dec u' i) as [->|Ne]; [apply irrefl|].
      destruct (lt (d u') (d i)) eqn:L'; [|reflexivity]. rewrite <- (N u' ltac:(lia) O'). symmetry. exact (trans _ _ _ L' L).
    + left. split; [|exact E']. intros u' Hu' O'. destruct (Nat.eq_dec u' i) as [->|Ne]; [exact L|]. apply N; [lia|exact O'].
    + left. split; [|exact E']. intros u' Hu' O'. destruct (Nat.eq_dec u' i) as [->|Ne]; [congruence|]. apply N; [lia|exact O'].
  - assert (E' : forall A val a0, for_ (S i) (fun u (st : D * A) => Ret (if ok u && lt (d u) (fst st) then (d u, val u) else st)) (dmax, a0) = Ret (if ok i && lt (d i) (d u) then (d i, val i) else (d u, val u))).
    { intros A val a0. rewrite for_S, E. reflexivity. }
    right. destruct (ok i) eqn:O; cbn [andb] in E'; [destruct (lt (d i) (d u)) eqn:L|].
    + exists i. split; [lia|]. split; [exact O|]. split; [exact E'|]. intros u' Hu' O'. destruct (Nat.eq_dec u' i) as [->|Ne]; [apply irrefl|].
      destruct (lt (d u') (d i)) eqn:L'; [|reflexivity]. rewrite <- (M u' ltac:(lia) O'). symmetry. exact (trans _ _ _ L' L).
    + exists u. split; [lia|]. split; [exact Ou|]. split; [exact E'|]. intros u' Hu' O'. destruct (Nat.eq_dec u' i) as [->|Ne]; [exact L|]. apply M; [lia|exact O'].
    + exists u. split; [lia|]. split; [exact Ou|]. split; [exact E'|]. intros u' Hu' O'. destruct (Nat.eq_dec u' i) as [->|Ne]; [congruence|]. apply M; [lia|exact O'].
Qed.

Variable dmax : D.
Variable sB : nat.
Hypothesis HsB : 0 < sB.
Variables (dist : list bool -> outcome D) (d : list bool -> D).

Lemma std_search_ok : forall K N enc V bU, 0 < K < 64 -> (forall u, length u = K -> length (enc u) = N) ->
  (forall X, length X = N -> dist X = Ret (d X)) ->
  ((forall u, length u = K -> lt (d (enc u)) dmax = false) /\ std_search D lt dmax dist sB K enc V bU = Ret (V, bU)) \/
  (exists u, length u = K /\ std_search D lt dmax dist sB K enc V bU = Ret (enc u, u) /\ forall u', length u' = K -> lt (d (enc u')) (d (enc u)) = false).
Proof.
  intros K N enc V bU HK HL HD. unfold std_search. destruct (u_max_trials K HK) as (m & -> & T). cbn [bind]. rewrite T.
  rewrite (for_ext _ _ _ (fun u (st : D * (list bool * list bool)) => Ret (if true && lt (d (enc (tab K (Nat.testbit u)))) (fst st) then (d (enc (tab K (Nat.testbit u))), (enc (tab K (Nat.testbit u)), tab K (Nat.testbit u))) else st))).
  2:{ intros u st Hu. rewrite candidate_ok by lia. cbn [bind]. rewrite HD by (apply HL; apply length_tab). cbn [bind andb]. reflexivity. }
  assert (W : forall u, length u = K -> exists t, t < 2 ^ K /\ u = tab K (Nat.testbit t)).
  { intros u Lu. destruct (bits_exist K (fun k => nth k u false)) as (t & Ht & B). exists t. split; [exact Ht|]. rewrite (words_tab u), Lu. apply (list_eq_nth _ false); [rewrite !length_tab; reflexivity|].
    intros k Hk. rewrite length_tab in Hk. rewrite !nth_tab by exact Hk. symmetry. apply B. exact Hk. }
  destruct (search_min (2 ^ K) (fun _ => true) (fun u => d (enc (tab K (Nat.testbit u)))) dmax) as [(N' & E)|(u & Hu & _ & E & M)].
  - left. cbn zeta in E. rewrite (E _ (fun u => (enc (tab K (Nat.testbit u)), tab K (Nat.testbit u)))). cbn [bind snd]. split; [|reflexivity]. intros u Lu. destruct (W u Lu) as (t & Ht & ->). apply (N' t Ht eq_refl).
  - right. exists (tab K (Nat.testbit u)). split; [apply length_tab|]. rewrite (E _ (fun u => (enc (tab K (Nat.testbit u)), tab K (Nat.testbit u)))). cbn [bind snd]. split; [reflexivity|]. intros u' Lu. destruct (W u' Lu) as (t & Ht & ->). apply (M t Ht eq_refl).
Qed.

Lemma naive_search_ok : forall N isc V, 0 < N < 64 -> (forall X, length X = N -> dist X = Ret (d X)) ->
  ((forall X, length X = N -> isc X = true -> lt (d X) dmax = false) /\ naive_search D lt dmax dist sB N isc V = Ret V) \/
  (exists X, length X = N /\ isc X = true /\ naive_search D lt dmax dist sB N isc V = Ret X /\ forall X', length X' = N -> isc X' = true -> lt (d X') (d X) = false).
Proof.
  intros N isc V HN HD. unfold naive_search. destruct (u_max_trials N HN) as (m & -> & T). cbn [bind]. rewrite T.
  rewrite (for_ext _ _ _ (fun u (st : D * list bool) => Ret (if isc (tab N (Nat.testbit u)) && lt (d (tab N (Nat.testbit u))) (fst st) then (d (tab N (Nat.testbit u)), tab N (Nat.testbit u)) else st))).
  2:{ intros u st Hu. rewrite candidate_ok by lia. cbn [bind]. destruct (isc (tab N (Nat.testbit u))); [|reflexivity]. rewrite HD by apply length_tab. cbn [bind andb]. reflexivity. }
  assert (W : forall u, length u = N -> exists t, t < 2 ^ N /\ u = tab N (Nat.testbit t)).
  { intros u Lu. destruct (bits_exist N (fun k => nth k u false)) as (t & Ht & B). exists t. split; [exact Ht|]. rewrite (words_tab u), Lu. apply (list_eq_nth _ false); [rewrite !length_tab; reflexivity|].
    intros k Hk. rewrite length_tab in Hk. rewrite !nth_tab by exact Hk. symmetry. apply B. exact Hk. }
  destruct (search_min (2 ^ N) (fun u => isc (tab N (Nat.testbit u))) (fun u => d (tab N (Nat.testbit u))) dmax) as [(N' & E)|(u & Hu & O & E & M)].
  - left. cbn zeta in E. rewrite (E _ (fun u => tab N (Nat.testbit u))). cbn [bind snd]. split; [|reflexivity]. intros X LX OX. destruct (W X LX) as (t & Ht & ->). apply (N' t Ht OX).
  - right. exists (tab N (Nat.testbit u)). split; [apply length_tab|]. rewrite (E _ (fun u => tab N (Nat.testbit u))). cbn [bind snd]. split; [exact O|]. split; [reflexivity|]. intros X LX OX. destruct (W X LX) as (t & Ht & ->). apply (M t Ht OX).
Qed.
End Min.

(** ** The distances *)
Lemma for_combine : forall A B C (dA : A) (dB : B) (f : A -> B -> C -> C) (X : list A) (Y : list B) c, length Y = length X ->
  for_ (length X) (fun n c => x <- rd X n ;; y <- rd Y n ;; Ret (f x y c)) c = Ret (fold_left (fun c p => f (fst p) (snd p) c) (combine X Y) c).
Proof.
  intros A B C dA dB f X Y c L.
  destruct (for_inv _ (fun i r => r = fold_left (fun c p => f (fst p) (snd p) c) (firstn i (combine X Y)) c) (length X) (fun n c => x <- rd X n ;; y <- rd Y n ;; Ret (f x y c)) c) as (r & E & ->).
  - reflexivity.
  - intros i r Hi ->. rewrite (rd_ok _ dA) by exact Hi. cbn [bind]. rewrite (rd_ok _ dB) by lia. cbn [bind]. eexists. split; [reflexivity|].
    assert (Hc : i < length (combine X Y)) by (rewrite combine_length; lia).
    rewrite <- (firstn_skipn i (firstn (S i) (combine X Y))), firstn_firstn, Nat.min_l by lia. rewrite fold_left_app.
    replace (skipn i (firstn (S i) (combine X Y))) with [nth i (combine X Y) (dA, dB)].
    + rewrite combine_nth by lia. reflexivity.
    + revert Hc. generalize (combine X Y) as l. clear. intros l. revert i. induction l as [|a l IH]; intros [|i] H; cbn in *; try lia; [destruct l; reflexivity|]. apply IH. lia.
  - rewrite E. rewrite firstn_all2; [reflexivity|]. rewrite combine_length. lia.
Qed.

Lemma hamming_fold : forall l c, (0 <= c)%Z -> (c + Z.of_nat (length l) < 2 ^ 32)%Z ->
  fold_left (fun d (p : bool * Z) => ((d + (if (b2z (fst p) =? snd p)%Z then 0 else 1)) mod 2 ^ 32)%Z) l c =
  (c + Z.of_nat (length (filter (fun p : bool * Z => negb ((if fst p then 1 else 0) =? snd p)%Z) l)))%Z.
Proof.
  induction l as [|[x y] l IH]; intros c H0 H; cbn [fold_left filter length fst snd]; [lia|]. cbn [length] in H. rewrite Nat2Z.inj_succ in H. unfold b2z at 2.
  destruct (((if x then 1 else 0) =? y)%Z); cbn [negb]; rewrite Z.mod_small by lia; rewrite IH by lia; cbn [length]; lia.
Qed.
Lemma hamming_ok : forall N X Y, length X = N -> length Y = N -> (Z.of_nat N < 2 ^ 31)%Z -> hamming_dist N X Y = Ret (Z.of_nat (hdist X Y)).
Proof.
  intros N X Y LX LY HN. unfold hamming_dist. rewrite <- LX. rewrite (for_combine _ _ _ false 0%Z (fun x y d => ((d + (if (b2z x =? y)%Z then 0 else 1)) mod 2 ^ 32)%Z)) by lia.
  rewrite hamming_fold; [reflexivity|lia|]. rewrite combine_length, LX, LY, Nat.min_id. change (2 ^ 31)%Z with 2147483648%Z in HN. change (2 ^ 32)%Z with 4294967296%Z. lia.
Qed.
Lemma hdist_le : forall X Y, hdist X Y <= length X.
Proof.
  intros X Y. unfold hdist. transitivity (length (combine X Y)); [|rewrite combine_length; lia].
  generalize (combine X Y) as l. induction l as [|p l IH]; cbn; [lia|]. destruct (negb _); cbn; lia.
Qed.

Lemma Zltb_irrefl : forall a, (a <? a)%Z = false. Proof. intros. apply Z.ltb_irrefl. Qed.
Lemma Zltb_trans : forall a b c, (a <? b)%Z = true -> (b <? c)%Z = true -> (a <? c)%Z = true.
Proof. intros a b c. rewrite !Z.ltb_lt. lia. Qed.
Lemma Qltb_true : forall a b, Qltb a b = true <-> (a < b)%Q.
Proof. intros a b. unfold Qltb. rewrite negb_true_iff. destruct (Qle_bool b a) eqn:E; split; intros H; try discriminate; try reflexivity. - apply Qle_bool_iff in E. lra. - apply Qnot_le_lt. intros C. apply Qle_bool_iff in C. congruence. Qed.
Lemma Qltb_false : forall a b, Qltb a b = false <-> (b <= a)%Q.
Proof. intros a b. unfold Qltb. rewrite negb_false_iff. apply Qle_bool_iff. Qed.
Lemma Qltb_irrefl : forall a, Qltb a a = false. Proof. intros a. apply Qltb_false. lra. Qed.
Lemma Qltb_trans : forall a b c, Qltb a b = true -> Qltb b c = true -> Qltb a c = true.
Proof. intros a b c. rewrite !Qltb_true. lra. Qed.

(** ** C57, Hamming distance *)
Theorem C57_hard_std : forall sB K N enc Y V best_U, 0 < sB -> 0 < K < 64 -> (Z.of_nat N < 2 ^ 31)%Z ->
  (forall u, length u = K -> length (enc u) = N) -> length Y = N ->
  exists u, length u = K /\ std_hiho_cw sB K N enc Y V best_U = Ret (enc u, u) /\ closest_hard Y (code_of enc K) (enc u).
Proof.
  intros sB K N enc Y V bU HsB HK HN HL LY. unfold std_hiho_cw.
  assert (E32 : (2 ^ 31 < UINT32_MAX)%Z) by reflexivity.
  destruct (std_search_ok Z Z.ltb Zltb_irrefl Zltb_trans UINT32_MAX sB HsB (fun X => hamming_dist N X Y) (fun X => Z.of_nat (hdist X Y)) K N enc V bU HK HL) as [(F & _)|(u & Lu & E & M)].
  - intros X LX. apply hamming_ok; assumption.
  - exfalso. specialize (F (repeat false K) (repeat_length _ _)). apply Z.ltb_ge in F. pose proof (hdist_le (enc (repeat false K)) Y) as B. rewrite HL in B by apply repeat_length. lia.
  - exists u. split; [exact Lu|]. split; [exact E|]. split; [exists u; auto|]. intros X' (u' & Lu' & ->). specialize (M u' Lu'). apply Z.ltb_ge in M. lia.
Qed.
Theorem C57_hard_naive : forall sB N isc Y V, 0 < sB -> 0 < N < 64 -> length Y = N ->
  (exists X, length X = N /\ isc X = true) ->
  exists X, naive_hiho_cw sB N isc Y V = Ret X /\ closest_hard Y (fun X => length X = N /\ isc X = true) X.
Proof.
  intros sB N isc Y V HsB HN LY (X0 & L0 & C0). unfold naive_hiho_cw.
  assert (HN31 : (Z.of_nat N < 2 ^ 31)%Z) by (change (2 ^ 31)%Z with 2147483648%Z; lia). assert (E32 : (2 ^ 31 < UINT32_MAX)%Z) by reflexivity.
  destruct (naive_search_ok Z Z.ltb Zltb_irrefl Zltb_trans UINT32_MAX sB HsB (fun X => hamming_dist N X Y) (fun X => Z.of_nat (hdist X Y)) N isc V HN) as [(F & _)|(X & LX & CX & E & M)].
  - intros X LX. apply hamming_ok; assumption.
  - exfalso. specialize (F X0 L0 C0). apply Z.ltb_ge in F. pose proof (hdist_le X0 Y). lia.
  - exists X. split; [exact E|]. split; [auto|]. intros X' (L' & C'). specialize (M X' L' C'). apply Z.ltb_ge in M. lia.
Qed.
(** with soft values and the option "hamming": the same on the signs *)
Lemma length_hard : forall Y, length (of_bits (hard Y)) = length Y. Proof. intros. unfold of_bits, hard. rewrite !map_length. reflexivity. Qed.
Theorem C57_signs : forall sB K N enc Y V best_U, 0 < sB -> 0 < K < 64 -> (Z.of_nat N < 2 ^ 31)%Z ->
  (forall u, length u = K -> length (enc u) = N) -> length Y = N ->
  exists u, length u = K /\ std_siho_cw true sB K N enc Y V best_U = Ret (enc u, u) /\
    closest_hard (map (fun y => if Qlt_le_dec y 0 then 1 else 0)%Z Y) (code_of enc K) (enc u).
Proof.
  intros sB K N enc Y V bU HsB HK HN HL LY. destruct (C57_hard_std sB K N enc (of_bits (hard Y)) V bU HsB HK HN HL) as (u & Lu & E & C); [rewrite length_hard; exact LY|].
  exists u. split; [exact Lu|]. split; [exact E|]. replace (map _ Y) with (of_bits (hard Y)); [exact C|]. unfold of_bits, hard. rewrite map_map. apply map_ext. intros y.
  destruct (Qlt_le_dec y 0) as [L|L]; [rewrite (proj2 (Qltb_true y 0) L)|rewrite (proj2 (Qltb_false y 0) L)]; reflexivity.
Qed.
(** The information bits read by the naive decoder, for a systematic encoder and the corresponding test of codewords *)
Theorem C57_info : forall sB K N enc isc pos Y V V_K, 0 < sB -> 0 < N < 64 -> length Y = N -> length pos = K -> length V_K = K ->
  (forall u, length u = K -> length (enc u) = N) ->
  (forall X, length X = N -> (isc X = true <-> code_of enc K X)) ->
  (forall u k, length u = K -> k < K -> nth k pos 0 < N /\ nth (nth k pos 0) (enc u) false = nth k u false) ->
  exists u, length u = K /\ naive_info true K pos (naive_hiho_cw sB N isc Y V) V_K = Ret u /\ closest_hard Y (code_of enc K) (enc u).
Proof.
  intros sB K N enc isc pos Y V V_K HsB HN LY LP LV HL HC HS.
  destruct (C57_hard_naive sB N isc Y V HsB HN LY) as (X & E & (LX & CX) & M).
  { exists (enc (repeat false K)). split; [apply HL, repeat_length|]. apply HC; [apply HL, repeat_length|]. exists (repeat false K). split; [apply repeat_length|reflexivity]. }
  destruct (proj1 (HC X LX) CX) as (u & Lu & ->). exists u. split; [exact Lu|]. split.
  - unfold naive_info. cbn [guard bind]. rewrite E. cbn [bind].
    destruct (for_inv _ (fun i (v : list bool) => length v = K /\ forall k, k < i -> nth k v false = nth k u false) K (fun k V => p <- rd pos k ;; x <- rd (enc u) p ;; wr V k x) V_K) as (v & Ev & Lv & Iv).
    + split; [exact LV|]. intros; lia.
    + intros k v Hk (Lv & Iv). destruct (HS u k Lu Hk) as (Hp & Hn). rewrite (rd_ok _ 0) by lia. cbn [bind]. rewrite (rd_ok _ false) by (rewrite HL by exact Lu; exact Hp). cbn [bind]. rewrite wr_ok by lia.
      eexists. split; [reflexivity|]. rewrite length_upd. split; [exact Lv|]. intros j Hj. destruct (Nat.eq_dec j k) as [->|Ne]; [rewrite nth_upd_eq by lia; exact Hn|]. rewrite nth_upd_neq by lia. apply Iv. lia.
    + rewrite Ev. f_equal. apply (list_eq_nth _ false); [lia|]. intros k Hk. apply Iv. lia.
  - split; [exists u; auto|]. intros X' (u' & Lu' & ->). apply M. split; [apply HL; exact Lu'|]. apply HC; [apply HL; exact Lu'|]. exists u'. auto.
Qed.

(** ** C57, Euclidean distance in single precision *)
Local Open Scope Q_scope.
Definition eps : Q := 2 ^ (-24).
Definition computed (X : list bool) (Y : list Q) : Q :=
  fold_left (fun d (p : bool * Q) => fl 24 (d + fl 24 (fl 24 ((if fst p then -1 else 1) - fl 24 (snd p)) * fl 24 ((if fst p then -1 else 1) - fl 24 (snd p))))) (combine X Y) 0.
Lemma euclidean_ok : forall N X Y, length X = N -> length Y = N -> euclidean_dist N X Y = Ret (computed X Y).
Proof.
  intros N X Y LX LY. unfold euclidean_dist. rewrite <- LX. apply (for_combine _ _ _ false 0 (fun x y d => fl 24 (d + fl 24 (fl 24 ((if x then -1 else 1) - fl 24 y) * fl 24 ((if x then -1 else 1) - fl 24 y))))). lia.
Qed.

Fixpoint qpow (x : Q) (n : nat) : Q := match n with O => 1 | S n => x * qpow x n end.
Lemma qpow_pos : forall x n, 0 <= x -> 0 <= qpow x n.
Proof. intros x n H. induction n as [|n IH]; cbn [qpow]; [lra|]. apply Qmult_le_0_compat; assumption. Qed.
Lemma qpow_le1 : forall x n, 0 <= x <= 1 -> qpow x n <= 1.
Proof. intros x n H. induction n as [|n IH]; cbn [qpow]; [lra|]. pose proof (qpow_pos x n ltac:(lra)). nra. Qed.
Lemma qpow_ge1 : forall x n, 1 <= x -> 1 <= qpow x n.
Proof. intros x n H. induction n as [|n IH]; cbn [qpow]; [lra|]. nra. Qed.
Definition Qn (n : nat) : Q := inject_Z (Z.of_nat n).
Lemma Qn_S : forall n, Qn (S n) == Qn n + 1.
Proof. intros n. unfold Qn. rewrite Nat2Z.inj_succ. unfold Z.succ. rewrite inject_Z_plus. reflexivity. Qed.
Lemma Qn_nonneg : forall n, 0 <= Qn n.
Proof. intros n. unfold Qn. change 0 with (inject_Z 0). rewrite <- Zle_Qle. lia. Qed.
Lemma upper_pow : forall e n, 0 <= e -> qpow (1 + e) n * (1 - Qn n * e) <= 1.
Proof.
  intros e n He. induction n as [|n IH]; cbn [qpow]; [change (Qn 0) with 0; lra|]. rewrite Qn_S.
  pose proof (qpow_pos (1 + e) n ltac:(lra)) as P. pose proof (Qn_nonneg n) as Pn. set (q := qpow (1 + e) n) in *. set (m := Qn n) in *. clearbody q m.
  assert (E : (1 + e) * q * (1 - (m + 1) * e) == q * (1 - m * e) - q * (m * (e * e)) - q * (e * e)) by ring. rewrite E.
  assert (0 <= e * e) by (apply Qmult_le_0_compat; lra). assert (0 <= q * (m * (e * e))) by (repeat apply Qmult_le_0_compat; lra). assert (0 <= q * (e * e)) by (apply Qmult_le_0_compat; lra). lra.
Qed.
Lemma lower_pow : forall e n, 0 <= e <= 1 -> 1 - Qn n * e <= qpow (1 - e) n.
Proof.
  intros e n He. induction n as [|n IH]; cbn [qpow]; [change (Qn 0) with 0; lra|]. rewrite Qn_S.
  pose proof (Qn_nonneg n) as Pn. set (q := qpow (1 - e) n) in *. set (m := Qn n) in *. clearbody q m.
  assert (0 <= m * (e * e)) by (repeat apply Qmult_le_0_compat; lra). assert ((1 - e) * (1 - m * e) <= (1 - e) * q) by (rewrite !(Qmult_comm (1 - e)); apply Qmult_le_compat_r; lra).
  assert (E : (1 - e) * (1 - m * e) == 1 - (m + 1) * e + m * (e * e)) by ring. rewrite E in *. lra.
Qed.

Lemma eps_bound : 0 < eps /\ eps <= 1 # 2.
Proof. split; vm_compute; [reflexivity|discriminate]. Qed.
Lemma fl_rel0 : forall x, 0 <= x -> x * (1 - eps) <= fl 24 x <= x * (1 + eps).
Proof. intros x H. destruct (Qlt_le_dec 0 x) as [L|L]; [apply (fl_rel 24 x); [reflexivity|exact L]|]. assert (E : x == 0) by lra. rewrite (fl_zero 24 x E). rewrite E. lra. Qed.
Lemma fl_sq : forall t, let a := 1 - eps in let b := 1 + eps in a * (a * a) * (t * t) <= fl 24 (fl 24 t * fl 24 t) <= b * (b * b) * (t * t).
Proof.
  intros t a b. pose proof eps_bound as [E0 E1].
  assert (S : (a * a) * (t * t) <= fl 24 t * fl 24 t <= (b * b) * (t * t)).
  { destruct (Qlt_le_dec t 0) as [L|L].
    - pose proof (fl_rel0 (- t) ltac:(lra)) as [R1 R2]. pose proof (fl_opp 24 t) as O. set (f := fl 24 (- t)) in *. set (g := fl 24 t) in *. clearbody f g. assert (G : g == - f) by lra. rewrite G.
      fold a in R1. fold b in R2. assert (0 <= - t * a) by (unfold a; nra). split; nra.
    - pose proof (fl_rel0 t ltac:(lra)) as [R1 R2]. set (f := fl 24 t) in *. clearbody f. fold a in R1. fold b in R2. assert (0 <= t * a) by (unfold a; nra). split; nra. }
  assert (P : 0 <= fl 24 t * fl 24 t) by nra.
  pose proof (fl_rel0 _ P) as [R1 R2]. fold a in R1. fold b in R2. set (s := fl 24 t * fl 24 t) in *. clearbody s. set (tt := t * t) in *. clearbody tt.
  assert (0 < a) by (unfold a; lra). assert (0 < b) by (unfold b; lra). split.
  - eapply Qle_trans; [|exact R1]. setoid_replace (a * (a * a) * tt) with (a * a * tt * a) by ring. apply Qmult_le_compat_r; lra.
  - eapply Qle_trans; [exact R2|]. setoid_replace (b * (b * b) * tt) with (b * b * tt * b) by ring. apply Qmult_le_compat_r; lra.
Qed.

Lemma edist_nonneg : forall X Y, 0 <= edist X Y.
Proof. induction X as [|x X IH]; intros [|y Y]; cbn [edist]; try lra. specialize (IH Y). set (t := (if x then -1 else 1) - y). nra. Qed.
Lemma edist_app : forall X1 Y1 x y, length X1 = length Y1 -> edist (X1 ++ [x]) (Y1 ++ [y]) == edist X1 Y1 + ((if x then -1 else 1) - y) * ((if x then -1 else 1) - y).
Proof. induction X1 as [|x1 X1 IH]; intros [|y1 Y1] x y L; try discriminate; cbn [app edist]; [ring|]. rewrite IH by (cbn in L; lia). ring. Qed.
Lemma computed_app : forall X1 Y1 x y, length X1 = length Y1 -> computed (X1 ++ [x]) (Y1 ++ [y]) =
  fl 24 (computed X1 Y1 + fl 24 (fl 24 ((if x then -1 else 1) - fl 24 y) * fl 24 ((if x then -1 else 1) - fl 24 y))).
Proof.
  intros X1 Y1 x y L. unfold computed. replace (combine (X1 ++ [x]) (Y1 ++ [y])) with (combine X1 Y1 ++ [(x, y)]).
  - rewrite fold_left_app. reflexivity.
  - revert Y1 L. induction X1 as [|x1 X1 IH]; intros [|y1 Y1] L; try discriminate; [reflexivity|]. cbn [app combine]. f_equal. apply IH. cbn in L. lia.
Qed.
Lemma list_snoc_len : forall A (l : list A) n, length l = S n -> exists l' a, l = l' ++ [a] /\ length l' = n.
Proof. intros A l n H. destruct (exists_last (l := l)) as (l' & a & E); [intros ->; discriminate|]. exists l', a. split; [exact E|]. rewrite E, app_length in H. cbn in H. lia. Qed.

(** the relative error of the computed distance *)
Lemma computed_error : forall N X Y, length X = N -> length Y = N ->
  edist X (map (fl 24) Y) * qpow (1 - eps) (N + 3) <= computed X Y <= edist X (map (fl 24) Y) * qpow (1 + eps) (N + 3).
Proof.
  induction N as [|N IH]; intros X Y LX LY.
  - destruct X, Y; try discriminate. cbn [map edist]. change (computed [] []) with 0. rewrite !Qmult_0_l. lra.
  - destruct (list_snoc_len _ X N LX) as (X1 & x & -> & L1). destruct (list_snoc_len _ Y N LY) as (Y1 & y & -> & L2).
    rewrite map_app. cbn [map]. rewrite edist_app by (rewrite map_length; lia). rewrite computed_app by lia. specialize (IH X1 Y1 L1 L2).
    set (t := (if x then -1 else 1) - fl 24 y). pose proof (fl_sq t) as Q. cbv zeta in Q. set (c := computed X1 Y1) in *. set (S := edist X1 (map (fl 24) Y1)) in *. set (g := fl 24 (fl 24 t * fl 24 t)) in *.
    pose proof (edist_nonneg X1 (map (fl 24) Y1)) as PS. fold S in PS. assert (PT : 0 <= t * t) by (destruct (Qlt_le_dec t 0); nra). set (T := t * t) in *. clearbody T S c.
    pose proof eps_bound as [E0 E1]. set (a := 1 - eps) in *. set (b := 1 + eps) in *. assert (A0 : 0 < a) by (unfold a; lra). assert (A1 : a <= 1) by (unfold a; lra). assert (B1 : 1 <= b) by (unfold b; lra).
    change (qpow a (Datatypes.S N + 3)) with (a * qpow a (N + 3)). change (qpow b (Datatypes.S N + 3)) with (b * qpow b (N + 3)).
    assert (QA : qpow a (N + 3) <= a * (a * a)). { rewrite Nat.add_comm. cbn [Nat.add qpow]. pose proof (qpow_le1 a N ltac:(lra)). assert (0 <= a * (a * a)) by (repeat apply Qmult_le_0_compat; lra). nra. }
    assert (QB : b * (b * b) <= qpow b (N + 3)). { rewrite Nat.add_comm. cbn [Nat.add qpow]. pose proof (qpow_ge1 b N ltac:(lra)). assert (0 <= b * (b * b)) by (repeat apply Qmult_le_0_compat; lra). nra. }
    pose proof (qpow_pos a (N + 3) ltac:(lra)) as PA. pose proof (qpow_pos b (N + 3) ltac:(lra)) as PB. set (qa := qpow a (N + 3)) in *. set (qb := qpow b (N + 3)) in *. clearbody qa qb.
    assert (L : (S + T) * qa <= c + g). { assert (T * qa <= T * (a * (a * a))) by (rewrite !(Qmult_comm T); apply Qmult_le_compat_r; assumption). lra. }
    assert (U : c + g <= (S + T) * qb). { assert (T * (b * (b * b)) <= T * qb) by (rewrite !(Qmult_comm T); apply Qmult_le_compat_r; assumption). lra. }
    assert (P : 0 <= c + g). { assert (0 <= (S + T) * qa) by (apply Qmult_le_0_compat; lra). lra. }
    pose proof (fl_rel0 _ P) as [R1 R2]. fold a in R1. fold b in R2. split.
    + eapply Qle_trans; [|exact R1]. setoid_replace ((S + T) * (a * qa)) with ((S + T) * qa * a) by ring. apply Qmult_le_compat_r; lra.
    + eapply Qle_trans; [exact R2|]. setoid_replace ((S + T) * (b * qb)) with ((S + T) * qb * b) by ring. apply Qmult_le_compat_r; lra.
Qed.

Definition ratio (N : nat) : Q := (1 - Qn (N + 3) * eps) * (1 - Qn (N + 3) * eps).
Lemma half_bound : forall N, (Z.of_nat N + 3 <= 2 ^ 23)%Z -> 0 <= Qn (N + 3) * eps <= 1 # 2.
Proof.
  intros N H. pose proof (Qn_nonneg (N + 3)). pose proof eps_bound as [E0 _]. split; [apply Qmult_le_0_compat; lra|].
  assert (L : Qn (N + 3) <= inject_Z (2 ^ 23)) by (unfold Qn; rewrite <- Zle_Qle; lia).
  assert (X : Qn (N + 3) * eps <= inject_Z (2 ^ 23) * eps) by (apply Qmult_le_compat_r; lra). eapply Qle_trans; [exact X|]. vm_compute. discriminate.
Qed.
Lemma under_max : forall N X Y, (Z.of_nat N + 3 <= 2 ^ 23)%Z -> length X = N -> length Y = N -> edist X (map (fl 24) Y) <= 2 ^ 126 -> computed X Y < FLT_MAX.
Proof.
  intros N X Y HN LX LY H. destruct (computed_error N X Y LX LY) as [_ U]. pose proof (half_bound N HN) as HB. pose proof eps_bound as [E0 _].
  pose proof (upper_pow eps (N + 3) ltac:(lra)) as UP. pose proof (qpow_ge1 (1 + eps) (N + 3) ltac:(lra)) as G1. set (q := qpow (1 + eps) (N + 3)) in *. set (m := Qn (N + 3) * eps) in *. clearbody q m.
  assert (Q2 : q <= 2) by nra. pose proof (edist_nonneg X (map (fl 24) Y)) as P.
  assert (S2 : edist X (map (fl 24) Y) * q <= 2 ^ 126 * 2). { apply Qle_trans with (2 ^ 126 * q); [apply Qmult_le_compat_r; lra|]. rewrite !(Qmult_comm (2 ^ 126)). apply Qmult_le_compat_r; [lra|]. vm_compute. discriminate. }
  apply Qle_lt_trans with (2 ^ 126 * 2); [lra|]. vm_compute. reflexivity.
Qed.
Lemma computed_ratio : forall N X X' Y, (Z.of_nat N + 3 <= 2 ^ 23)%Z -> length X = N -> length X' = N -> length Y = N -> computed X Y <= computed X' Y ->
  edist X (map (fl 24) Y) * ratio N <= edist X' (map (fl 24) Y).
Proof.
  intros N X X' Y HN LX LX' LY H. destruct (computed_error N X Y LX LY) as [L _]. destruct (computed_error N X' Y LX' LY) as [_ U]. pose proof (half_bound N HN) as HB. pose proof eps_bound as [E0 E1].
  pose proof (upper_pow eps (N + 3) ltac:(lra)) as UP. pose proof (lower_pow eps (N + 3) ltac:(lra)) as LP. pose proof (edist_nonneg X (map (fl 24) Y)) as P. pose proof (edist_nonneg X' (map (fl 24) Y)) as P'. unfold ratio.
  set (S := edist X (map (fl 24) Y)) in *. set (S' := edist X' (map (fl 24) Y)) in *. set (qa := qpow (1 - eps) (N + 3)) in *. set (qb := qpow (1 + eps) (N + 3)) in *. set (m := Qn (N + 3) * eps) in *. clearbody S S' qa qb m.
  assert (A : S * (1 - m) <= S * qa) by (rewrite !(Qmult_comm S); apply Qmult_le_compat_r; lra).
  assert (B : S * (1 - m) <= S' * qb) by lra. assert (C : S * (1 - m) * (1 - m) <= S' * qb * (1 - m)) by (apply Qmult_le_compat_r; lra).
  assert (D : S' * (qb * (1 - m)) <= S' * 1) by (rewrite !(Qmult_comm S'); apply Qmult_le_compat_r; lra). lra.
Qed.

(** The word found is a codeword, at most 1 / ratio times farther (ratio = (1 - (N + 3) 2^-24)^2) than the closest one from the LLRs converted to
    single precision, provided that one codeword is not too far for the arithmetic. *)
Theorem C57_soft_std : forall sB K N enc Y V best_U, (0 < sB)%nat -> (0 < K < 64)%nat -> (Z.of_nat N + 3 <= 2 ^ 23)%Z ->
  (forall u, length u = K -> length (enc u) = N) -> length Y = N ->
  (exists X, code_of enc K X /\ edist X (map (fl 24) Y) <= 2 ^ 126) ->
  exists u, length u = K /\ std_siho_cw false sB K N enc Y V best_U = Ret (enc u, u) /\ nearly_closest (ratio N) (map (fl 24) Y) (code_of enc K) (enc u).
Proof.
  intros sB K N enc Y V bU HsB HK HN HL LY (X0 & (u0 & Lu0 & ->) & B0). unfold std_siho_cw.
  destruct (std_search_ok Q Qltb Qltb_irrefl Qltb_trans FLT_MAX sB HsB (fun X => euclidean_dist N X Y) (fun X => computed X Y) K N enc V bU HK HL) as [(F & _)|(u & Lu & E & M)].
  - intros X LX. apply euclidean_ok; assumption.
  - exfalso. specialize (F u0 Lu0). apply Qltb_false in F. pose proof (under_max N (enc u0) Y HN (HL _ Lu0) LY B0). lra.
  - exists u. split; [exact Lu|]. split; [exact E|]. split; [exists u; auto|]. intros X' (u' & Lu' & ->). specialize (M u' Lu'). apply Qltb_false in M. apply (computed_ratio N); auto.
Qed.
Theorem C57_soft_naive : forall sB N isc Y V, (0 < sB)%nat -> (0 < N < 64)%nat -> length Y = N ->
  (exists X, length X = N /\ isc X = true /\ edist X (map (fl 24) Y) <= 2 ^ 126) ->
  exists X, naive_siho_cw false sB N isc Y V = Ret X /\ nearly_closest (ratio N) (map (fl 24) Y) (fun X => length X = N /\ isc X = true) X.
Proof.
  intros sB N isc Y V HsB HN LY (X0 & L0 & C0 & B0). unfold naive_siho_cw. assert (HN23 : (Z.of_nat N + 3 <= 2 ^ 23)%Z) by (change (2 ^ 23)%Z with 8388608%Z; lia).
  destruct (naive_search_ok Q Qltb Qltb_irrefl Qltb_trans FLT_MAX sB HsB (fun X => euclidean_dist N X Y) (fun X => computed X Y) N isc V HN) as [(F & _)|(X & LX & CX & E & M)].
  - intros X LX. apply euclidean_ok; assumption.
  - exfalso. specialize (F X0 L0 C0). apply Qltb_false in F. pose proof (under_max N X0 Y HN23 L0 LY B0). lra.
  - exists X. split; [exact E|]. split; [auto|]. intros X' (L' & C'). specialize (M X' L' C'). apply Qltb_false in M. apply (computed_ratio N); auto.
Qed.

(** ** Fixed-point LLRs: no rounding *)
Lemma fl_Z : forall x z, x == inject_Z z -> (Z.abs z <= 2 ^ 24)%Z -> fl 24 x == inject_Z z.
Proof. intros x z E H. rewrite <- E. apply fl_exact; [reflexivity|]. apply (holds_ext 24 (inject_Z z)); [symmetry; exact E|]. apply holds_Z. exact H. Qed.
Definition sgnz (x : bool) : Z := if x then -1 else 1.
Fixpoint zdist (X : list bool) (Y : list Z) : Z := match X, Y with x :: X, y :: Y => ((sgnz x - y) * (sgnz x - y) + zdist X Y)%Z | _, _ => 0%Z end.
Lemma zdist_app : forall X1 Y1 x y, length X1 = length Y1 -> (zdist (X1 ++ [x]) (Y1 ++ [y]) = zdist X1 Y1 + (sgnz x - y) * (sgnz x - y))%Z.
Proof. induction X1 as [|x1 X1 IH]; intros [|y1 Y1] x y L; try discriminate; cbn [app zdist]; [lia|]. rewrite IH by (cbn in L; lia). lia. Qed.
Lemma edist_Z : forall X Y, edist X (map inject_Z Y) == inject_Z (zdist X Y).
Proof.
  induction X as [|x X IH]; intros [|y Y]; try reflexivity. cbn [map edist zdist]. unfold sgnz, Z.sub. rewrite IH, inject_Z_plus, inject_Z_mult, !inject_Z_plus, !inject_Z_opp. destruct x; [change (inject_Z (-1)) with (-1)|change (inject_Z 1) with 1]; ring.
Qed.
Lemma zdist_bound : forall M X Y, (0 <= M)%Z -> length X = length Y -> Forall (fun y => (Z.abs y <= M)%Z) Y -> (0 <= zdist X Y <= Z.of_nat (length Y) * ((M + 1) * (M + 1)))%Z.
Proof.
  intros M X. induction X as [|x X IH]; intros [|y Y] HM L F; try discriminate; cbn [zdist length]; [lia|]. inversion F as [|? ? Fy FY]; subst. specialize (IH Y HM ltac:(cbn in L; lia) FY).
  assert (B : (Z.abs (sgnz x - y) <= M + 1)%Z) by (unfold sgnz; destruct x; lia). assert (S : ((sgnz x - y) * (sgnz x - y) <= (M + 1) * (M + 1))%Z) by nia. assert (0 <= (sgnz x - y) * (sgnz x - y))%Z by nia. nia.
Qed.
Lemma computed_exact : forall M N X Y, (0 <= M)%Z -> length X = N -> length Y = N -> Forall (fun y => (Z.abs y <= M)%Z) Y -> (Z.of_nat N * ((M + 1) * (M + 1)) <= 2 ^ 24)%Z ->
  computed X (map inject_Z Y) == inject_Z (zdist X Y).
Proof.
  intros M N. induction N as [|N IH]; intros X Y HM LX LY F HB.
  - destruct X, Y; try discriminate. reflexivity.
  - destruct (list_snoc_len _ X N LX) as (X1 & x & -> & L1). destruct (list_snoc_len _ Y N LY) as (Y1 & y & -> & L2). apply Forall_app in F as [F1 F2]. assert (Fy : (Z.abs y <= M)%Z) by (inversion F2; assumption).
    rewrite map_app. cbn [map]. rewrite computed_app by (rewrite map_length; lia). rewrite zdist_app by lia.
    assert (P24 : (2 ^ 24)%Z = 16777216%Z) by reflexivity. assert (B : (Z.abs (sgnz x - y) <= M + 1)%Z) by (unfold sgnz; destruct x; lia).
    assert (SQ : (0 <= (sgnz x - y) * (sgnz x - y) <= (M + 1) * (M + 1))%Z) by nia. rewrite Nat2Z.inj_succ in HB.
    assert (M1 : (M + 1 <= 2 ^ 24)%Z) by nia.
    assert (E1 : fl 24 (inject_Z y) == inject_Z y) by (apply fl_Z; [reflexivity|lia]).
    assert (E2 : fl 24 ((if x then -1 else 1) - fl 24 (inject_Z y)) == inject_Z (sgnz x - y)). { apply fl_Z; [|lia]. rewrite E1. unfold sgnz, Z.sub. destruct x; rewrite inject_Z_plus, inject_Z_opp; reflexivity. }
    assert (E3 : fl 24 (fl 24 ((if x then -1 else 1) - fl 24 (inject_Z y)) * fl 24 ((if x then -1 else 1) - fl 24 (inject_Z y))) == inject_Z ((sgnz x - y) * (sgnz x - y))).
    { apply fl_Z; [rewrite E2, inject_Z_mult; reflexivity|]. nia. }
    rewrite <- L1 in HB. assert (HM' : (Z.of_nat (length X1) * ((M + 1) * (M + 1)) <= 2 ^ 24)%Z) by nia.
    pose proof (zdist_bound M X1 Y1 HM ltac:(lia) F1) as ZB. assert (LXY : length X1 = length Y1) by lia. rewrite <- LXY in ZB.
    apply fl_Z; [|nia]. rewrite E3. rewrite IH by (auto; rewrite <- L1; exact HM'). rewrite inject_Z_plus. reflexivity.
Qed.
Theorem C57_fixed_std : forall M sB K N enc Y V best_U, (0 < sB)%nat -> (0 < K < 64)%nat -> (0 <= M)%Z -> (Z.of_nat N * ((M + 1) * (M + 1)) < 2 ^ 24)%Z ->
  (forall u, length u = K -> length (enc u) = N) -> length Y = N -> Forall (fun y => (Z.abs y <= M)%Z) Y ->
  exists u, length u = K /\ std_siho_cw false sB K N enc (map inject_Z Y) V best_U = Ret (enc u, u) /\ closest_soft (map inject_Z Y) (code_of enc K) (enc u).
Proof.
  intros M sB K N enc Y V bU HsB HK HM HB HL LY F. unfold std_siho_cw.
  assert (C : forall u, length u = K -> computed (enc u) (map inject_Z Y) == edist (enc u) (map inject_Z Y)). { intros u Lu. rewrite edist_Z. apply (computed_exact M N); auto; lia. }
  destruct (std_search_ok Q Qltb Qltb_irrefl Qltb_trans FLT_MAX sB HsB (fun X => euclidean_dist N X (map inject_Z Y)) (fun X => computed X (map inject_Z Y)) K N enc V bU HK HL) as [(G & _)|(u & Lu & E & MM)].
  - intros X LX. apply euclidean_ok; [assumption|]. rewrite map_length. exact LY.
  - exfalso. specialize (G (repeat false K) (repeat_length _ _)). apply Qltb_false in G. rewrite C in G by apply repeat_length. rewrite edist_Z in G.
    pose proof (zdist_bound M (enc (repeat false K)) Y HM ltac:(rewrite HL by apply repeat_length; congruence) F) as ZB. rewrite LY in ZB.
    assert (L : inject_Z (zdist (enc (repeat false K)) Y) <= inject_Z (2 ^ 24)) by (rewrite <- Zle_Qle; lia). assert (FM : inject_Z (2 ^ 24) < FLT_MAX) by (vm_compute; reflexivity). lra.
  - exists u. split; [exact Lu|]. split; [exact E|]. split; [exists u; auto|]. intros X' (u' & Lu' & ->). specialize (MM u' Lu'). apply Qltb_false in MM. rewrite !C in MM by assumption. exact MM.
Qed.
Theorem C57_fixed_naive : forall M sB N isc Y V, (0 < sB)%nat -> (0 < N < 64)%nat -> (0 <= M)%Z -> (Z.of_nat N * ((M + 1) * (M + 1)) < 2 ^ 24)%Z ->
  length Y = N -> Forall (fun y => (Z.abs y <= M)%Z) Y -> (exists X, length X = N /\ isc X = true) ->
  exists X, naive_siho_cw false sB N isc (map inject_Z Y) V = Ret X /\ closest_soft (map inject_Z Y) (fun X => length X = N /\ isc X = true) X.
Proof.
  intros M sB N isc Y V HsB HN HM HB LY F (X0 & L0 & C0). unfold naive_siho_cw.
  assert (C : forall X, length X = N -> computed X (map inject_Z Y) == edist X (map inject_Z Y)). { intros X LX. rewrite edist_Z. apply (computed_exact M N); auto; lia. }
  destruct (naive_search_ok Q Qltb Qltb_irrefl Qltb_trans FLT_MAX sB HsB (fun X => euclidean_dist N X (map inject_Z Y)) (fun X => computed X (map inject_Z Y)) N isc V HN) as [(G & _)|(X & LX & CX & E & MM)].
  - intros X LX. apply euclidean_ok; [assumption|]. rewrite map_length. exact LY.
  - exfalso. specialize (G X0 L0 C0). apply Qltb_false in G. rewrite C in G by exact L0. rewrite edist_Z in G.
    pose proof (zdist_bound M X0 Y HM ltac:(congruence) F) as ZB. rewrite LY in ZB.
    assert (L : inject_Z (zdist X0 Y) <= inject_Z (2 ^ 24)) by (rewrite <- Zle_Qle; lia). assert (FM : inject_Z (2 ^ 24) < FLT_MAX) by (vm_compute; reflexivity). lra.
  - exists X. split; [exact E|]. split; [auto|]. intros X' (L' & C'). specialize (MM X' L' C'). apply Qltb_false in MM. rewrite !C in MM by assumption. exact MM.
Qed.

(** ** Where it is false *)
Local Open Scope nat_scope.
(** K = 64 is accepted by the constructor, but only the null message is tried: *)
Theorem C57_64_refuted :
  (forall sB N enc Y V best_U, 0 < sB -> (Z.of_nat N < 2 ^ 31)%Z -> (forall u, length u = 64 -> length (enc u) = N) -> length Y = N ->
    std_hiho_cw sB 64 N enc Y V best_U = Ret (enc (repeat false 64), repeat false 64)) /\
  ~ closest_hard (repeat 1%Z 64) (code_of (fun u => u) 64) (repeat false 64).
Proof.
  split.
  - intros sB N enc Y V bU HsB HN HL LY. unfold std_hiho_cw, std_search. assert (U : u_max 64 = Ret UINT64_MAX) by reflexivity. rewrite U. cbn [bind]. unfold trials. rewrite Z.eqb_refl.
    unfold for_. cbn [for_from]. rewrite candidate_ok by (auto; lia || (apply Nat.neq_0_lt_0; apply Nat.pow_nonzero; lia)). cbn [bind].
    assert (T : tab 64 (Nat.testbit 0) = repeat false 64) by reflexivity. rewrite T. rewrite hamming_ok by (auto; apply HL, repeat_length). cbn [bind fst].
    pose proof (hdist_le (enc (repeat false 64)) Y) as B. rewrite HL in B by apply repeat_length. assert (E32 : (2 ^ 31 < UINT32_MAX)%Z) by reflexivity.
    replace (Z.of_nat (hdist (enc (repeat false 64)) Y) <? UINT32_MAX)%Z with true by (symmetry; apply Z.ltb_lt; lia). reflexivity.
  - intros (_ & H). specialize (H (repeat true 64)). assert (C : code_of (fun u => u) 64 (repeat true 64)) by (exists (repeat true 64); auto). specialize (H C). vm_compute in H. lia.
Qed.
(** Rounding: the two distances are equal in single precision, and the first word is kept though the second one is closer. *)
Definition rep2 (u : list bool) : list bool := match u with b :: _ => [b; b] | [] => [] end.
Theorem C57_rounding_refuted :
  std_siho_cw false 1 1 2 rep2 [- inject_Z (2 ^ 30); 1]%Q [] [] = Ret ([false; false], [false]) /\
  (edist [true; true] [- inject_Z (2 ^ 30); 1] < edist [false; false] [- inject_Z (2 ^ 30); 1])%Q.
Proof. split; vm_compute; reflexivity. Qed.
(** All the distances overflow: the output and the information bits are those of the last frame. *)
Theorem C57_overflow_refuted : forall V best_U, std_siho_cw false 1 1 2 rep2 [inject_Z (2 ^ 100); inject_Z (2 ^ 100)] V best_U = Ret (V, best_U).
Proof. intros V bU. vm_compute. reflexivity. Qed.

Definition ham74 (u : list bool) : list bool := match u with [a; b; c; d] => [a; b; c; d; xorb a (xorb b c); xorb a (xorb b d); xorb a (xorb c d)] | _ => repeat false 7 end.
Example C57_case : std_siho_cw false 4 4 7 ham74 (map inject_Z [9; -3; 2; -20; 5; 1; 12]%Z) [] [] = Ret (ham74 [false; true; true; true], [false; true; true; true]) /\
  std_hiho_cw 2 4 7 ham74 [1; 1; 0; 1; 0; 0; 1]%Z [] [] = Ret (ham74 [true; true; false; false], [true; true; false; false]) /\
  naive_hiho_cw 1 3 (fun X => match X with [a; b; c] => Bool.eqb a b && Bool.eqb b c | _ => false end) [1; 0; 1]%Z [] = Ret [true; true; true].
Proof. vm_compute. auto. Qed.
Example C57_hypotheses : (forall u, length u = 4 -> length (ham74 u) = 7) /\ Forall (fun y => (Z.abs y <= 127)%Z) [9; -3; 2; -20; 5; 1; 12]%Z /\ (Z.of_nat 7 * ((127 + 1) * (127 + 1)) < 2 ^ 24)%Z /\
  exists X, code_of ham74 4 X /\ (edist X (map (fl 24) (map inject_Z [9; -3; 2; -20; 5; 1; 12]%Z)) <= 2 ^ 126)%Q.
Proof.
  split; [|split; [|split]].
  - intros u L. do 5 (destruct u as [|? u]; try discriminate L). reflexivity.
  - repeat constructor; lia.
  - reflexivity.
  - exists (repeat false 7). split; [exists (repeat false 4); auto|]. vm_compute. discriminate.
Qed.

(** * C83: the Chase decoder *)
From Verif Require Import FrozenProps.
(** ** Specification *)
(** X with the bits of the set S of positions flipped *)
Definition toggle (S : nat -> bool) (X : list bool) : list bool := tab (length X) (fun i => xorb (S i) (nth i X false)).
Definition within (S : nat -> bool) (L : list nat) : Prop := forall i, S i = true -> In i L.
(** L holds p positions whose LLRs are not more reliable than those of the other positions *)
Definition least_reliable (Y : list Q) (p : nat) (L : list nat) : Prop :=
  NoDup L /\ length L = p /\ (forall i, In i L -> i < length Y) /\
  forall i j, In i L -> j < length Y -> ~ In j L -> (Qabs (nth i Y 0) <= Qabs (nth j Y 0))%Q.
(** the price of a set of flips: their number, or the sum of the reliabilities (in the order of the list, in single precision) *)
Definition n_flips (L : list nat) (S : nat -> bool) : nat := length (filter S L).
Definition weight (Y : list Q) (L : list nat) (S : nat -> bool) : Q :=
  fold_left (fun d i => if S i then fl 24 (d + fl 24 (Qabs (nth i Y 0))) else d)%Q L 0%Q.
Definition cheaper (hamming : bool) (Y : list Q) (L : list nat) (S S' : nat -> bool) : Prop :=
  if hamming then n_flips L S <= n_flips L S' else (weight Y L S <= weight Y L S')%Q.
(** what std::partial_sort guarantees *)
Definition partial_sorts (psort : (nat -> nat -> bool) -> nat -> list nat -> list nat) : Prop :=
  forall lt p l, strict_weak lt -> p <= length l ->
    Permutation l (psort lt p l) /\ forall a b, a < p -> a < b < length l -> lt (nth b (psort lt p l) 0) (nth a (psort lt p l) 0) = false.

(** ** Flips *)
Lemma toggle_ext : forall S S' X, (forall i, i < length X -> S i = S' i) -> toggle S X = toggle S' X.
Proof. intros S S' X H. unfold toggle. apply tab_ext. intros i Hi. rewrite H by exact Hi. reflexivity. Qed.
Lemma length_toggle : forall S X, length (toggle S X) = length X. Proof. intros. apply length_tab. Qed.
Lemma toggle_none : forall S X, (forall i, i < length X -> S i = false) -> toggle S X = X.
Proof. intros S X H. apply (list_eq_nth _ false); [apply length_toggle|]. intros i Hi. rewrite length_toggle in Hi. unfold toggle. rewrite nth_tab by exact Hi. rewrite H by exact Hi. destruct (nth i X false); reflexivity. Qed.
Lemma toggle_twice : forall S X, toggle S (toggle S X) = X.
Proof. intros S X. apply (list_eq_nth _ false); [rewrite !length_toggle; reflexivity|]. intros i Hi. rewrite !length_toggle in Hi. unfold toggle. rewrite length_tab, !nth_tab by exact Hi. destruct (S i), (nth i X false); reflexivity. Qed.
Lemma toggle_one : forall X i, i < length X -> upd X i (negb (nth i X false)) = toggle (Nat.eqb i) X.
Proof.
  intros X i Hi. apply (list_eq_nth _ false); [rewrite length_upd, length_toggle; reflexivity|]. intros j Hj. rewrite length_upd in Hj. unfold toggle. rewrite nth_tab by exact Hj.
  destruct (Nat.eqb_spec i j) as [->|Ne]; [rewrite nth_upd_eq by exact Hj; destruct (nth j X false); reflexivity|]. rewrite nth_upd_neq by lia. destruct (nth j X false); reflexivity.
Qed.
Lemma toggle_toggle : forall S S' X, toggle S (toggle S' X) = toggle (fun i => xorb (S i) (S' i)) X.
Proof. intros S S' X. apply (list_eq_nth _ false); [rewrite !length_toggle; reflexivity|]. intros i Hi. rewrite !length_toggle in Hi. unfold toggle. rewrite length_tab, !nth_tab by exact Hi. destruct (S i), (S' i), (nth i X false); reflexivity. Qed.

(** the set of a test pattern *)
Definition pset (less : list nat) (p t : nat) (i : nat) : bool := existsb (fun b => Nat.testbit t b && (nth b less 0 =? i)) (seq 0 p).
Lemma pset_within : forall less p t, p <= length less -> within (pset less p t) (firstn p less).
Proof.
  intros less p t Hp i H. apply existsb_exists in H as (b & Hb & H). apply in_seq in Hb. apply andb_true_iff in H as [_ H]. apply Nat.eqb_eq in H. subst i.
  rewrite <- (firstn_nth _ less p b 0) by lia. apply nth_In. rewrite firstn_length. lia.
Qed.
Lemma pset_nth : forall less p t b, NoDup (firstn p less) -> p <= length less -> b < p -> pset less p t (nth b less 0) = Nat.testbit t b.
Proof.
  intros less p t b ND Hp Hb. unfold pset. destruct (Nat.testbit t b) eqn:T.
  - apply existsb_exists. exists b. split; [apply in_seq; lia|]. rewrite T, Nat.eqb_refl. reflexivity.
  - destruct (existsb _ _) eqn:E; [|reflexivity]. exfalso. apply existsb_exists in E as (c & Hc & E). apply in_seq in Hc. apply andb_true_iff in E as [E1 E2]. apply Nat.eqb_eq in E2.
    assert (c = b); [|congruence]. rewrite <- (firstn_nth _ less p c 0), <- (firstn_nth _ less p b 0) in E2 by lia. apply (proj1 (NoDup_nth _ 0) ND) in E2; rewrite ?firstn_length; lia.
Qed.
Lemma pset_S : forall less p t i, pset less (S p) t i = pset less p t i || (Nat.testbit t p && (nth p less 0 =? i)).
Proof. intros less p t i. unfold pset. rewrite seq_S, existsb_app. cbn [Nat.add existsb]. rewrite orb_false_r. reflexivity. Qed.
Lemma pset_all : forall less p S, NoDup (firstn p less) -> p <= length less -> within S (firstn p less) -> exists t, t < 2 ^ p /\ forall i, pset less p t i = S i.
Proof.
  intros less p S ND Hp W. destruct (bits_exist p (fun b => S (nth b less 0))) as (t & Ht & B). exists t. split; [exact Ht|]. intros i.
  destruct (in_dec Nat.eq_dec i (firstn p less)) as [I|I].
  - apply (In_nth _ _ 0) in I as (b & Hb & E). rewrite firstn_length in Hb. rewrite firstn_nth in E by lia. subst i. rewrite pset_nth by (auto; lia). apply B. lia.
  - destruct (pset less p t i) eqn:E1; [apply pset_within in E1; [contradiction|exact Hp]|]. destruct (S i) eqn:E2; [apply W in E2; contradiction|reflexivity].
Qed.

Section Flips.
Variable less : list nat.
Variable p : nat.
Hypothesis ND : NoDup (firstn p less).
Hypothesis Hp : p <= length less.

Lemma flip_ok : forall t V, (forall b, b < p -> nth b less 0 < length V) -> flip less p t V = Ret (toggle (pset less p t) V).
Proof.
  intros t V HV. unfold flip.
  destruct (for_inv _ (fun i X => X = toggle (pset less i t) V) p (fun b V => if Nat.testbit t b then i <- rd less b ;; v <- rd V i ;; wr V i (negb v) else Ret V) V) as (X & E & ->); [| |exact E].
  - symmetry. apply toggle_none. reflexivity.
  - intros b X Hb ->. destruct (Nat.testbit t b) eqn:T.
    + rewrite (rd_ok _ 0) by lia. cbn [bind]. specialize (HV b Hb). rewrite (rd_ok _ false) by (rewrite length_toggle; exact HV). cbn [bind]. rewrite wr_ok by (rewrite length_toggle; exact HV).
      eexists. split; [reflexivity|]. rewrite toggle_one by (rewrite length_toggle; exact HV). rewrite toggle_toggle. apply toggle_ext. intros i Hi. rewrite pset_S, T. cbn [andb].
      destruct (Nat.eqb_spec (nth b less 0) i) as [<-|Ne]; [|destruct (pset less b t i); reflexivity]. rewrite orb_true_r.
      destruct (pset less b t (nth b less 0)) eqn:C; [|reflexivity]. exfalso. apply existsb_exists in C as (c & Hc & C). apply in_seq in Hc. apply andb_true_iff in C as [_ C]. apply Nat.eqb_eq in C.
      assert (c = b); [|lia]. rewrite <- (firstn_nth _ less p c 0), <- (firstn_nth _ less p b 0) in C by lia. apply (proj1 (NoDup_nth _ 0) ND) in C; rewrite ?firstn_length; lia.
    + eexists. split; [reflexivity|]. apply toggle_ext. intros i Hi. rewrite pset_S, T, orb_false_r. reflexivity.
Qed.

Lemma flip_hamming_ok : forall t, flip_hamming p t = Ret (Z.of_nat (n_flips (firstn p less) (pset less p t))).
Proof.
  intros t. unfold flip_hamming.
  destruct (for_inv _ (fun i d => d = Z.of_nat (n_flips (firstn i less) (pset less p t))) p (fun b d => Ret (if Nat.testbit t b then d + 1 else d)%Z) 0%Z) as (d & E & ->); [| |exact E].
  - reflexivity.
  - intros b d Hb ->. eexists. split; [reflexivity|]. rewrite (firstn_S_nth _ 0) by lia. unfold n_flips. rewrite filter_app, app_length. cbn [filter]. rewrite pset_nth by assumption.
    destruct (Nat.testbit t b); cbn [length]; lia.
Qed.
Lemma flip_euclidean_ok : forall Y t, (forall b, b < p -> nth b less 0 < length Y) -> flip_euclidean less Y p t = Ret (weight Y (firstn p less) (pset less p t)).
Proof.
  intros Y t HY. unfold flip_euclidean.
  destruct (for_inv _ (fun i d => d = weight Y (firstn i less) (pset less p t)) p (fun b d => if Nat.testbit t b then i <- rd less b ;; y <- rd Y i ;; Ret (fl 24 (d + fl 24 (Qabs y)))%Q else Ret d) 0%Q) as (d & E & ->); [| |exact E].
  - reflexivity.
  - intros b d Hb ->. rewrite (firstn_S_nth _ 0) by lia. unfold weight. rewrite fold_left_app. cbn [fold_left]. rewrite pset_nth by assumption. destruct (Nat.testbit t b).
    + rewrite (rd_ok _ 0) by lia. cbn [bind]. rewrite (rd_ok _ 0%Q) by (apply HY; exact Hb). cbn [bind]. eexists. split; reflexivity.
    + eexists. split; reflexivity.
Qed.

Variable D : Type.
Variable lt : D -> D -> bool.
Hypothesis irrefl : forall a, lt a a = false.
Hypothesis trans : forall a b c, lt a b = true -> lt b c = true -> lt a c = true.
Lemma chase_search_ok : forall dmax dist (d : nat -> D) isc V, (forall b, b < p -> nth b less 0 < length V) -> (forall t, dist t = Ret (d t)) ->
  let good t := isc (toggle (pset less p t) V) in
  ((forall t, 2 <= t < 2 ^ p -> good t = true -> lt (d t) dmax = false) /\ forall best, chase_search D lt dmax dist isc less p V best = Ret (toggle (pset less p best) V, best)) \/
  (exists t, 2 <= t < 2 ^ p /\ good t = true /\ (forall best, chase_search D lt dmax dist isc less p V best = Ret (toggle (pset less p t) V, t)) /\ forall t', 2 <= t' < 2 ^ p -> good t' = true -> lt (d t') (d t) = false).
Proof.
  intros dmax dist d isc V HV HD good. unfold chase_search.
  assert (G : forall n k st, for_from k n (fun t (st : D * nat * list bool) => let '(dmin, best, V) := st in V <- flip less p t V ;; cur <- dist t ;;
      let '(dmin, best) := if lt cur dmin && isc V then (cur, t) else (dmin, best) in V <- flip less p t V ;; Ret (dmin, best, V)) (st, V) =
    (r <- for_ n (fun u (st : D * nat) => Ret (if good (k + u) && lt (d (k + u)) (fst st) then (d (k + u), k + u) else st)) st ;; Ret (r, V))).
  { induction n as [|n IH]; intros k st; [reflexivity|]. cbn [for_from]. destruct st as [dm b]. rewrite flip_ok by exact HV. cbn [bind]. rewrite HD. cbn [bind].
    assert (F2 : flip less p k (toggle (pset less p k) V) = Ret V) by (rewrite flip_ok by (rewrite length_toggle; exact HV); rewrite toggle_twice; reflexivity).
    unfold for_. cbn [for_from]. rewrite Nat.add_0_r. cbn [fst]. fold (good k). rewrite (andb_comm (lt (d k) dm)).
    assert (SH : forall m j st, for_from (S j) m (fun u (st : D * nat) => Ret (if good (k + u) && lt (d (k + u)) (fst st) then (d (k + u), k + u) else st)) st =
       for_from j m (fun u (st : D * nat) => Ret (if good (S k + u) && lt (d (S k + u)) (fst st) then (d (S k + u), S k + u) else st)) st).
    { induction m as [|m IHm]; intros j s; [reflexivity|]. cbn [for_from bind]. replace (k + S j) with (S k + j) by lia. apply IHm. }
    destruct (good k && lt (d k) dm); cbn [fst]; rewrite F2; cbn [bind]; rewrite IH; unfold for_; rewrite SH; reflexivity. }
  destruct (search_min D lt irrefl trans (2 ^ p - 2) (fun u => good (2 + u)) (fun u => d (2 + u)) dmax) as [(N & E)|(u & Hu & O & E & M)]; cbn zeta in E.
  - left. split.
    + intros t Ht Gt. replace t with (2 + (t - 2)) in * by lia. apply N; [lia|exact Gt].
    + intros best. rewrite G, (E _ (fun u => 2 + u)). cbn [bind]. rewrite flip_ok by exact HV. reflexivity.
  - right. exists (2 + u). split; [lia|]. split; [exact O|]. split; [intros best; rewrite G, (E _ (fun u => 2 + u)); cbn [bind]; rewrite flip_ok by exact HV; reflexivity|]. intros t Ht Gt. replace t with (2 + (t - 2)) in * by lia. apply M; [lia|exact Gt].
Qed.
End Flips.

(** ** Weights *)
Lemma weight_app : forall Y L i S, weight Y (L ++ [i]) S = if S i then fl 24 (weight Y L S + fl 24 (Qabs (nth i Y 0)))%Q else weight Y L S.
Proof. intros. unfold weight. rewrite fold_left_app. reflexivity. Qed.
Lemma weight_holds : forall Y S L, holds 24 (weight Y L S).
Proof. intros Y S L. induction L as [|i L IH] using rev_ind; [apply holds_0; reflexivity|]. rewrite weight_app. destruct (S i); [apply fl_holds; reflexivity|exact IH]. Qed.
Lemma weight_nonneg : forall Y S L, (0 <= weight Y L S)%Q.
Proof.
  intros Y S L. induction L as [|i L IH] using rev_ind; [unfold weight; cbn; lra|]. rewrite weight_app. destruct (S i); [|exact IH].
  apply fl_ge; [reflexivity|apply holds_0; reflexivity|]. assert (0 <= fl 24 (Qabs (nth i Y 0)))%Q by (apply fl_ge; [reflexivity|apply holds_0; reflexivity|apply Qabs_nonneg]). lra.
Qed.
Lemma weight_le : forall Y S L i, In i L -> S i = true -> (fl 24 (Qabs (nth i Y 0)) <= weight Y L S)%Q.
Proof.
  intros Y S L i I HS. induction L as [|j L IH] using rev_ind; [destruct I|]. rewrite weight_app. apply in_app_or in I as [I|[->|[]]].
  - specialize (IH I). destruct (S j); [|exact IH]. apply fl_ge; [reflexivity|apply fl_holds; reflexivity|]. assert (0 <= fl 24 (Qabs (nth j Y 0)))%Q by (apply fl_ge; [reflexivity|apply holds_0; reflexivity|apply Qabs_nonneg]). lra.
  - rewrite HS. apply fl_ge; [reflexivity|apply fl_holds; reflexivity|]. pose proof (weight_nonneg Y S L). lra.
Qed.
Lemma weight_bound : forall Y S L, (forall i, In i L -> (Qabs (nth i Y 0) <= 2 ^ 120)%Q) -> length L <= 31 -> (weight Y L S <= Qn (length L) * 2 ^ 120)%Q.
Proof.
  intros Y S L. induction L as [|i L IH] using rev_ind; intros HB HL; [unfold weight; cbn [fold_left length]; change (Qn 0) with 0%Q; rewrite Qmult_0_l; lra|]. rewrite weight_app, app_length in *. cbn [length] in *. rewrite Nat.add_1_r in *. 
  specialize (IH ltac:(intros j Hj; apply HB, in_or_app; left; exact Hj) ltac:(lia)).
  assert (P : (0 < 2 ^ 120)%Q) by (vm_compute; reflexivity). assert (ST : (Qn (Datatypes.S (length L)) * 2 ^ 120 == Qn (length L) * 2 ^ 120 + 2 ^ 120)%Q) by (rewrite Qn_S; ring).
  destruct (S i); [|lra]. apply fl_le; [reflexivity| |].
  - apply holds_scale. apply holds_Z. change (2 ^ 24)%Z with 16777216%Z. lia.
  - assert (fl 24 (Qabs (nth i Y 0)) <= 2 ^ 120)%Q by (apply fl_le; [reflexivity|apply holds_pow; reflexivity|apply HB, in_or_app; right; left; reflexivity]). lra.
Qed.

Lemma NoDup_prefix : forall A (l : list A) n, NoDup l -> NoDup (firstn n l).
Proof. intros A l n H. revert n. induction H as [|a l N H IH]; intros [|n]; cbn [firstn]; constructor; [|apply IH]. intros I. apply N. rewrite <- (firstn_skipn n l). apply in_or_app. left. exact I. Qed.
Lemma abs_weak : forall Y, strict_weak (fun i1 i2 => Qltb (Qabs (nth i1 Y 0%Q)) (Qabs (nth i2 Y 0%Q))).
Proof.
  intros Y. split; [|split].
  - intros a. apply Qltb_irrefl. - intros a b c. apply Qltb_trans. - intros a b c. rewrite !Qltb_false. lra.
Qed.
Lemma filter_ext_len : forall A (f g : A -> bool) l, (forall x, f x = g x) -> length (filter f l) = length (filter g l).
Proof. intros A f g l H. rewrite (filter_ext f g H). reflexivity. Qed.
Lemma weight_ext : forall Y L S S', (forall i, S i = S' i) -> weight Y L S = weight Y L S'.
Proof. intros Y L S S' H. induction L as [|i L IH] using rev_ind; [reflexivity|]. rewrite !weight_app, H, IH. reflexivity. Qed.

(** ** The decoder *)
Section ChaseProps.
Variable psort : (nat -> nat -> bool) -> nat -> list nat -> list nat.
Hypothesis HS : partial_sorts psort.
Variables (N p : nat) (isc : list bool -> bool) (Y : list Q).
Hypothesis Hnew : chase_new N p = Ret 0.
Hypothesis LY : length Y = N.
Hypothesis HY : forall y, In y Y -> (Qabs y <= 2 ^ 120)%Q.

Lemma limits : p <= N /\ p <= 31.
Proof.
  revert Hnew. unfold chase_new. destruct (Nat.leb_spec p N) as [A|A]; cbn [guard bind]; [|discriminate]. destruct (Nat.leb_spec p 31) as [B|B]; cbn [guard bind]; [|discriminate]. auto.
Qed.
Let less := psort (fun i1 i2 => Qltb (Qabs (nth i1 Y 0%Q)) (Qabs (nth i2 Y 0%Q))) p (seq 0 N).
Lemma less_facts : length less = N /\ NoDup less /\ (forall i, In i less <-> i < N) /\
  forall a b, a < p -> a < b < N -> (Qabs (nth (nth a less 0%nat) Y 0) <= Qabs (nth (nth b less 0%nat) Y 0))%Q.
Proof.
  destruct limits as [L1 _]. destruct (HS _ p (seq 0 N) (abs_weak Y)) as (P & O); [rewrite seq_length; exact L1|]. fold less in P, O. split; [rewrite <- (Permutation_length P); apply seq_length|].
  split; [eapply Permutation_NoDup; [exact P|apply seq_NoDup]|]. split.
  - intros i. split; intros I. + apply (Permutation_in _ (Permutation_sym P)), in_seq in I. lia. + apply (Permutation_in _ P), in_seq. lia.
  - intros a b Ha Hb. specialize (O a b Ha). rewrite seq_length in O. specialize (O Hb). apply Qltb_false in O. exact O.
Qed.
Lemma least : least_reliable Y p (firstn p less).
Proof.
  destruct limits as [L1 _]. destruct less_facts as (L & ND & I & O). split; [|split; [|split]].
  - apply NoDup_prefix. exact ND.
  - rewrite firstn_length. lia.
  - intros i Hi. rewrite LY. apply I. rewrite <- (firstn_skipn p less). apply in_or_app. left. exact Hi.
  - intros i j Hi Hj Nj. apply (In_nth _ _ 0) in Hi as (a & Ha & <-). rewrite firstn_length in Ha. rewrite firstn_nth by lia.
    assert (Ij : In j less) by (apply I; lia). apply (In_nth _ _ 0) in Ij as (b & Hb & <-). apply O; [lia|].
    destruct (Nat.lt_ge_cases b p) as [C|C]; [|lia]. exfalso. apply Nj. rewrite <- (firstn_nth _ less p b 0) by exact C. apply nth_In. rewrite firstn_length. lia.
Qed.
Lemma length_hardb : length (hard Y) = N. Proof. unfold hard. rewrite map_length. exact LY. Qed.

(** If flipping some of the p least reliable positions gives a codeword, the output is the cheapest of these codewords, whatever was decoded before. *)
Theorem C83_partial : exists L, least_reliable Y p L /\ forall hamming,
  (exists S, within S L /\ isc (toggle S (hard Y)) = true) ->
  exists S, within S L /\ isc (toggle S (hard Y)) = true /\
    (forall S', within S' L -> isc (toggle S' (hard Y)) = true -> cheaper hamming Y L S S') /\
    forall best_test, exists best_test', chase_siho_cw psort hamming N p isc Y best_test = Ret (toggle S (hard Y), best_test').
Proof.
  destruct limits as [L1 L2]. destruct less_facts as (LL & ND & I & O). exists (firstn p less). split; [exact least|]. intros hamming (S0 & W0 & C0).
  unfold chase_siho_cw. fold less. pose proof length_hardb as LH. set (V := hard Y) in *.
  assert (NDp : NoDup (firstn p less)) by apply least.
  assert (CH : forall S S', (forall i, In i (firstn p less) -> S i = false) -> cheaper hamming Y (firstn p less) S S').
  { intros S S' E. unfold cheaper. destruct hamming.
    - replace (n_flips (firstn p less) S) with 0; [lia|]. symmetry. unfold n_flips. revert E. generalize (firstn p less). clear. intros l. induction l as [|i l IH]; intros E; [reflexivity|]. cbn. rewrite (E i) by (left; reflexivity). apply IH. intros j Hj. apply E. right. exact Hj.
    - assert (Z : (weight Y (firstn p less) S = 0)%Q). { revert E. generalize (firstn p less). clear. intros l. induction l as [|i l IH] using rev_ind; intros E; [reflexivity|]. rewrite weight_app, (E i) by (apply in_or_app; right; left; reflexivity). apply IH. intros j Hj. apply E, in_or_app. left. exact Hj. }
      rewrite Z. apply weight_nonneg. }
  destruct (isc V) eqn:CV; [|destruct (Nat.eqb_spec p 0) as [P0|P0]; cbn [orb]].
  - rewrite orb_true_r. exists (fun _ => false). split; [intros i; discriminate|]. rewrite toggle_none by reflexivity. split; [exact CV|]. split; [intros S' _ _; apply CH; reflexivity|]. intros bt. exists bt. reflexivity.
  - exfalso. rewrite P0 in W0. rewrite toggle_none in C0; [congruence|]. intros i _. destruct (S0 i) eqn:E; [|reflexivity]. destruct (W0 i E).
  - assert (H0 : nth 0 less 0 < N) by (apply I, nth_In; lia).
    assert (HB : forall b, b < p -> nth b less 0 < length V) by (intros b Hb; rewrite LH; apply I, nth_In; lia).
    rewrite (rd_ok _ 0 less 0) by lia. cbn [bind]. rewrite (rd_ok _ false) by lia. cbn [bind]. rewrite wr_ok by lia. cbn [bind]. rewrite toggle_one by lia.
    rewrite (rd_ok _ false (toggle _ _)) by (rewrite length_toggle; lia). cbn [bind]. rewrite wr_ok by (rewrite length_toggle; lia). cbn [bind]. rewrite toggle_one by (rewrite length_toggle; lia). rewrite toggle_twice.
    assert (NE : forall S, within S (firstn p less) -> isc (toggle S V) = true -> exists b, b < p /\ S (nth b less 0) = true).
    { intros S W C. destruct (existsb (fun b => S (nth b less 0)) (seq 0 p)) eqn:E; [apply existsb_exists in E as (b & Hb & E); apply in_seq in Hb; exists b; split; [lia|exact E]|].
      exfalso. rewrite toggle_none in C; [congruence|]. intros i _. destruct (S i) eqn:Si; [|reflexivity]. specialize (W i Si). apply (In_nth _ _ 0) in W as (b & Hb & Eb). rewrite firstn_length in Hb. rewrite firstn_nth in Eb by lia.
      rewrite <- E. symmetry. apply existsb_exists. exists b. split; [apply in_seq; lia|]. rewrite Eb. exact Si. }
    destruct (isc (toggle (Nat.eqb (nth 0 less 0)) V)) eqn:C1.
    + exists (Nat.eqb (nth 0 less 0)). split. { intros i E. apply Nat.eqb_eq in E. subst i. rewrite <- (firstn_nth _ less p 0 0) by lia. apply nth_In. rewrite firstn_length. lia. }
      split; [exact C1|]. split; [|intros bt; exists bt; reflexivity]. intros S' W' C'. destruct (NE S' W' C') as (b & Hb & Sb).
      assert (Eb : forall c, c < p -> (nth 0 less 0 =? nth c less 0) = (c =? 0)). { intros c Hc. destruct (Nat.eqb_spec c 0) as [->|Nc]; [apply Nat.eqb_refl|]. apply Nat.eqb_neq. intros E. apply (proj1 (NoDup_nth _ 0) ND) in E; lia. }
      assert (FL : firstn p less = nth 0 less 0 :: skipn 1 (firstn p less)). { destruct (firstn p less) as [|a l] eqn:F; [apply (f_equal (@length _)) in F; rewrite firstn_length in F; cbn in F; lia|]. rewrite <- (firstn_nth _ less p 0 0) by lia. rewrite F. reflexivity. }
      assert (RE : forall i, In i (skipn 1 (firstn p less)) -> (nth 0 less 0 =? i) = false). { intros i Hi. apply Nat.eqb_neq. intros <-. rewrite FL in NDp. inversion NDp; contradiction. }
      unfold cheaper. destruct hamming.
      * unfold n_flips. transitivity 1.
        -- rewrite FL. cbn [filter]. rewrite Nat.eqb_refl. cbn [length]. assert (Z : filter (Nat.eqb (nth 0 less 0)) (skipn 1 (firstn p less)) = []). { revert RE. generalize (skipn 1 (firstn p less)). clear. intros l. induction l as [|i l IH]; intros H; [reflexivity|]. cbn. rewrite (H i) by (left; reflexivity). apply IH. intros j Hj. apply H. right. exact Hj. } rewrite Z. cbn. lia.
        -- destruct (filter S' (firstn p less)) eqn:F; [|cbn; lia]. exfalso. assert (IN : In (nth b less 0) (filter S' (firstn p less))). { apply filter_In. split; [|exact Sb]. rewrite <- (firstn_nth _ less p b 0) by lia. apply nth_In. rewrite firstn_length. lia. } rewrite F in IN. destruct IN.
      * assert (WE : (weight Y (firstn p less) (Nat.eqb (nth 0%nat less 0%nat)) == fl 24 (Qabs (nth (nth 0%nat less 0%nat) Y 0)))%Q).
        { rewrite FL. unfold weight. cbn [fold_left]. rewrite Nat.eqb_refl.
          assert (R : forall l c, (forall i, In i l -> (nth 0%nat less 0%nat =? i) = false) -> fold_left (fun d i => if (nth 0 less 0 =? i)%nat then fl 24 (d + fl 24 (Qabs (nth i Y 0))) else d)%Q l c = c). { clear. induction l as [|i l IH]; intros c H; [reflexivity|]. cbn [fold_left]. rewrite (H i) by (left; reflexivity). apply IH. intros j Hj. apply H. right. exact Hj. }
          rewrite R by exact RE. assert (FE : (fl 24 (fl 24 (Qabs (nth (nth 0%nat less 0%nat) Y 0))) == fl 24 (Qabs (nth (nth 0%nat less 0%nat) Y 0)))%Q) by (apply fl_exact; [reflexivity|apply fl_holds; reflexivity]).
          rewrite <- FE at 2. apply Qle_antisym; apply fl_mono; try reflexivity; lra. }
        rewrite WE. apply Qle_trans with (fl 24 (Qabs (nth (nth b less 0%nat) Y 0%Q))).
        -- apply fl_mono; [reflexivity|]. destruct b as [|b]; [lra|]. apply O; lia.
        -- apply weight_le; [|exact Sb]. rewrite <- (firstn_nth _ less p b 0) by lia. apply nth_In. rewrite firstn_length. lia.
    + assert (P1 : forall i, pset less p 1 i = (nth 0 less 0 =? i)).
      { intros i. unfold pset. destruct p as [|q]; [lia|]. cbn [seq existsb]. change (Nat.testbit 1 0) with true. cbn [andb]. replace (existsb _ (seq 1 q)) with false; [apply orb_false_r|]. symmetry.
        destruct (existsb _ (seq 1 q)) eqn:E; [|reflexivity]. apply existsb_exists in E as (c & Hc & E). apply in_seq in Hc. destruct c as [|c]; [lia|]. cbn [Nat.testbit Nat.div2] in E. rewrite Nat.bits_0 in E. discriminate E. }
      assert (T2 : forall S, within S (firstn p less) -> isc (toggle S V) = true -> exists t, 2 <= t < 2 ^ p /\ forall i, pset less p t i = S i).
      { intros S W C. destruct (pset_all less p S NDp ltac:(lia) W) as (t & Ht & E). exists t. split; [|exact E]. split; [|exact Ht].
        destruct t as [|[|t]]; [| |lia]; exfalso; rewrite (toggle_ext S (pset less p _)) in C by (intros i _; symmetry; apply E).
        - rewrite toggle_none in C; [congruence|]. intros i _. unfold pset. destruct (existsb _ _) eqn:X; [|reflexivity]. apply existsb_exists in X as (b & _ & X). rewrite Nat.bits_0 in X. discriminate X.
        - rewrite (toggle_ext _ (Nat.eqb (nth 0 less 0))) in C by (intros; apply P1). congruence. }
      destruct (T2 S0 W0 C0) as (t0 & Ht0 & E0). rewrite (toggle_ext S0 (pset less p t0)) in C0 by (intros i _; symmetry; apply E0).
      destruct hamming.
      * assert (B0 : (Z.of_nat (n_flips (firstn p less) (pset less p t0)) < UINT32_MAX)%Z).
        { assert (n_flips (firstn p less) (pset less p t0) <= 31). { unfold n_flips. transitivity (length (firstn p less)); [|rewrite firstn_length; lia]. generalize (firstn p less) as l. induction l as [|a l IH]; cbn; [lia|]. destruct (pset less p t0 a); cbn; lia. } assert (31 < UINT32_MAX)%Z by reflexivity. lia. }
        destruct (chase_search_ok less p NDp ltac:(lia) Z Z.ltb Zltb_irrefl Zltb_trans UINT32_MAX (flip_hamming p) (fun t => Z.of_nat (n_flips (firstn p less) (pset less p t))) isc V HB ltac:(intros t; apply flip_hamming_ok; [exact NDp|lia])) as [(F & _)|(t & Ht & Gt & E & M)].
        { exfalso. specialize (F t0 Ht0 C0). apply Z.ltb_ge in F. lia. }
        exists (pset less p t). split; [apply pset_within; lia|]. split; [exact Gt|]. split; [|intros bt; exists t; apply E].
        intros S' W' C'. destruct (T2 S' W' C') as (t' & Ht' & E'). rewrite (toggle_ext S' (pset less p t')) in C' by (intros i _; symmetry; apply E'). specialize (M t' Ht' C'). apply Z.ltb_ge in M. unfold cheaper. unfold n_flips in *. rewrite (filter_ext_len _ S' (pset less p t')) by (intros i; symmetry; apply E'). lia.
      * assert (B0 : (weight Y (firstn p less) (pset less p t0) < FLT_MAX)%Q).
        { eapply Qle_lt_trans; [apply weight_bound|].
          - intros i Hi. apply HY. apply nth_In. rewrite LY. apply I. rewrite <- (firstn_skipn p less). apply in_or_app. left. exact Hi.
          - rewrite firstn_length. lia.
          - apply Qle_lt_trans with (31 * 2 ^ 120)%Q; [|vm_compute; reflexivity]. apply Qmult_le_compat_r; [|vm_compute; discriminate]. unfold Qn. change 31%Q with (inject_Z 31). rewrite <- Zle_Qle. rewrite firstn_length. lia. }
        destruct (chase_search_ok less p NDp ltac:(lia) Q Qltb Qltb_irrefl Qltb_trans FLT_MAX (flip_euclidean less Y p) (fun t => weight Y (firstn p less) (pset less p t)) isc V HB ltac:(intros t; apply flip_euclidean_ok; [exact NDp|lia|intros b Hb; rewrite LY, <- LH; apply HB; exact Hb])) as [(F & _)|(t & Ht & Gt & E & M)].
        { exfalso. specialize (F t0 Ht0 C0). apply Qltb_false in F. lra. }
        exists (pset less p t). split; [apply pset_within; lia|]. split; [exact Gt|]. split; [|intros bt; exists t; apply E].
        intros S' W' C'. destruct (T2 S' W' C') as (t' & Ht' & E'). rewrite (toggle_ext S' (pset less p t')) in C' by (intros i _; symmetry; apply E'). specialize (M t' Ht' C'). apply Qltb_false in M. unfold cheaper. rewrite (weight_ext _ _ S' (pset less p t')) by (intros i; symmetry; apply E'). exact M.
Qed.

(** If no such flips give a codeword, a decoder that has not found anything yet returns the hard decision. *)
Theorem C83_none : exists L, least_reliable Y p L /\ forall hamming, (forall S, within S L -> isc (toggle S (hard Y)) = false) ->
  chase_siho_cw psort hamming N p isc Y 0 = Ret (hard Y, 0).
Proof.
  destruct limits as [L1 L2]. destruct less_facts as (LL & ND & I & O). exists (firstn p less). split; [exact least|]. intros hamming NO.
  unfold chase_siho_cw. fold less. pose proof length_hardb as LH. set (V := hard Y) in *. assert (NDp : NoDup (firstn p less)) by apply least.
  destruct ((p =? 0) || isc V) eqn:P0; [reflexivity|]. apply orb_false_iff in P0 as [P0 _]. apply Nat.eqb_neq in P0.
  assert (H0 : nth 0 less 0 < N) by (apply I, nth_In; lia). assert (HB : forall b, b < p -> nth b less 0 < length V) by (intros b Hb; rewrite LH; apply I, nth_In; lia).
  rewrite (rd_ok _ 0 less 0) by lia. cbn [bind]. rewrite (rd_ok _ false) by lia. cbn [bind]. rewrite wr_ok by lia. cbn [bind]. rewrite toggle_one by lia.
  rewrite NO.
  2:{ intros i E. apply Nat.eqb_eq in E. subst i. rewrite <- (firstn_nth _ less p 0 0) by lia. apply nth_In. rewrite firstn_length. lia. }
  rewrite (rd_ok _ false (toggle _ _)) by (rewrite length_toggle; lia). cbn [bind]. rewrite wr_ok by (rewrite length_toggle; lia). cbn [bind]. rewrite toggle_one by (rewrite length_toggle; lia). rewrite toggle_twice.
  assert (Z0 : toggle (pset less p 0) V = V). { apply toggle_none. intros i _. unfold pset. destruct (existsb _ _) eqn:X; [|reflexivity]. apply existsb_exists in X as (b & _ & X). rewrite Nat.bits_0 in X. discriminate X. }
  destruct hamming.
  - destruct (chase_search_ok less p NDp ltac:(lia) Z Z.ltb Zltb_irrefl Zltb_trans UINT32_MAX (flip_hamming p) (fun t => Z.of_nat (n_flips (firstn p less) (pset less p t))) isc V HB ltac:(intros t; apply flip_hamming_ok; [exact NDp|lia])) as [(_ & E)|(t & Ht & Gt & E & M)].
    + rewrite E, Z0. reflexivity.
    + exfalso. rewrite NO in Gt; [discriminate|]. apply pset_within. lia.
  - destruct (chase_search_ok less p NDp ltac:(lia) Q Qltb Qltb_irrefl Qltb_trans FLT_MAX (flip_euclidean less Y p) (fun t => weight Y (firstn p less) (pset less p t)) isc V HB ltac:(intros t; apply flip_euclidean_ok; [exact NDp|lia|intros b Hb; rewrite LY, <- LH; apply HB; exact Hb])) as [(_ & E)|(t & Ht & Gt & E & M)].
    + rewrite E, Z0. reflexivity.
    + exfalso. rewrite NO in Gt; [discriminate|]. apply pset_within. lia.
Qed.
End ChaseProps.

(** With fixed-point LLRs the weight is the exact sum. *)
Definition zweight (Y : list Z) (L : list nat) (S : nat -> bool) : Z := fold_right Z.add 0%Z (map (fun i => Z.abs (nth i Y 0%Z)) (filter S L)).
Theorem C83_fixed : forall Y L S, (forall y, In y Y -> (Z.abs y <= 2 ^ 15)%Z) -> length L <= 31 -> (weight (map inject_Z Y) L S == inject_Z (zweight Y L S))%Q.
Proof.
  intros Y L S HY. assert (AB : forall i, (0 <= Z.abs (nth i Y 0%Z) <= 2 ^ 15)%Z).
  { intros i. split; [lia|]. destruct (Nat.lt_ge_cases i (length Y)) as [C|C]; [apply HY, nth_In; exact C|]. rewrite nth_overflow by exact C. cbn. lia. }
  assert (SUM : forall l k, fold_right Z.add k (map (fun i => Z.abs (nth i Y 0%Z)) l) = (fold_right Z.add 0 (map (fun i => Z.abs (nth i Y 0%Z)) l) + k)%Z) by (induction l as [|a l IH]; intros k; cbn [map fold_right]; [lia|]; rewrite IH; lia).
  assert (ZA : forall l i, zweight Y (l ++ [i]) S = if S i then (zweight Y l S + Z.abs (nth i Y 0%Z))%Z else zweight Y l S).
  { intros l i. unfold zweight. rewrite filter_app, map_app, fold_right_app. cbn [filter]. destruct (S i); cbn [map fold_right]; [rewrite SUM; lia|reflexivity]. }
  assert (ZB : forall l, (0 <= zweight Y l S <= Z.of_nat (length l) * 2 ^ 15)%Z).
  { induction l as [|i l IH] using rev_ind; [cbn; lia|]. rewrite ZA, app_length. cbn [length]. pose proof (AB i). change (2 ^ 15)%Z with 32768%Z in *. destruct (S i); lia. }
  induction L as [|i L IH] using rev_ind; intros HL; [reflexivity|]. rewrite app_length in HL. cbn [length] in HL. specialize (IH ltac:(lia)). rewrite weight_app, ZA. destruct (S i); [|exact IH].
  assert (E1 : (fl 24 (Qabs (nth i (map inject_Z Y) 0)) == inject_Z (Z.abs (nth i Y 0%Z)))%Q).
  { apply fl_Z; [|pose proof (AB i); change (2 ^ 15)%Z with 32768%Z in *; change (2 ^ 24)%Z with 16777216%Z; lia]. change 0%Q with (inject_Z 0). rewrite map_nth. reflexivity. }
  apply fl_Z.
  - rewrite E1, IH, inject_Z_plus. reflexivity.
  - pose proof (AB i). pose proof (ZB L). change (2 ^ 15)%Z with 32768%Z in *. change (2 ^ 24)%Z with 16777216%Z. lia.
Qed.

(** The test pattern of an earlier frame is used again when no flips give a codeword: the same LLRs are decoded to the hard decision by a new decoder, and to another word that
    is not a codeword after a frame that was corrected with two flips. *)
Definition full_sort (lt : nat -> nat -> bool) (_ : nat) (l : list nat) : list nat := isort lt l.
Definition rep4 (X : list bool) : bool := forallb (fun x => x) X || forallb negb X.
Theorem C83_refuted :
  chase_siho_cw full_sort false 4 2 rep4 (map inject_Z [1; 2; -9; 9]%Z) 0 = Ret ([false; false; true; false], 0) /\
  match chase_siho_cw full_sort false 4 2 rep4 (map inject_Z [-1; -2; 9; 9]%Z) 0 with
  | Ret (V, best_test) => V = [false; false; false; false] /\
      match chase_siho_cw full_sort false 4 2 rep4 (map inject_Z [1; 2; -9; 9]%Z) best_test with Ret (V', _) => V' = [true; true; true; false] /\ rep4 V' = false | _ => False end
  | _ => False end.
Proof. vm_compute. auto 10. Qed.

Lemma full_sort_ok : partial_sorts full_sort.
Proof.
  intros lt p l W _. unfold full_sort. destruct (isort_sorts lt l W) as (P & S). split; [exact P|]. intros a b Ha Hb. rewrite (Permutation_length P) in Hb. revert a b Ha Hb S. generalize (isort lt l) as r. clear. 
  intros r. induction r as [|x r IH]; intros a b Ha Hb S; [cbn in Hb; lia|]. inversion S as [|? ? S' F]; subst. destruct b as [|b]; [lia|]. cbn [length] in Hb. destruct a as [|a]; cbn [nth].
  - rewrite Forall_forall in F. apply F, nth_In. lia.
  - apply (IH a b); [|lia|exact S']. lia.
Qed.
Example C83_hypotheses : partial_sorts full_sort /\ chase_new 4 2 = Ret 0 /\ (forall y, In y (map inject_Z [-1; -2; 9; 9]%Z) -> (Qabs y <= 2 ^ 120)%Q) /\
  exists S, within S [0; 1] /\ rep4 (toggle S (hard (map inject_Z [-1; -2; 9; 9]%Z))) = true.
Proof.
  split; [exact full_sort_ok|]. split; [reflexivity|]. split.
  - intros y [<-|[<-|[<-|[<-|[]]]]]; vm_compute; discriminate.
  - exists (fun i => i <? 2). split; [|vm_compute; reflexivity]. intros i H. apply Nat.ltb_lt in H. destruct i as [|[|i]]; cbn; auto. lia.
Qed.
