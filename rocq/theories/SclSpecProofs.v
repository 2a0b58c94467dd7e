(** Facts about the specification of the list decoder: metrics and survivors. *)
From Coq Require Import List Arith ZArith Lia Bool Permutation.
From Verif Require Import Base Loops GF2 PolarModel PolarSpec PolarProofs PolarSCProofs WLoops SclSpec SclTreeProofs SclListProofs.
Import ListNotations.

Lemma sumz_app : forall n k f, sumz (n + k) f = (sumz n f + sumz k (fun i => f (n + i)%nat))%Z.
Proof. induction k; intros. { rewrite Nat.add_0_r. simpl. lia. } rewrite Nat.add_succ_r. cbn [sumz]. rewrite IHk. lia. Qed.
Lemma sumz_add : forall n f g, sumz n (fun i => (f i + g i)%Z) = (sumz n f + sumz n g)%Z.
Proof. induction n; intros; simpl; auto. rewrite IHn. lia. Qed.
Lemma sumz_nonneg : forall n f, (forall k, k < n -> (0 <= f k)%Z) -> (0 <= sumz n f)%Z.
Proof. induction n; intros; simpl; [lia|]. assert (0 <= sumz n f)%Z by (apply IHn; auto). specialize (H n ltac:(lia)). lia. Qed.
Lemma penalty_nonneg : forall l b, (0 <= penalty l b)%Z.
Proof. intros. unfold penalty. destruct b; [destruct (0 <? l)%Z|destruct (l <? 0)%Z]; lia. Qed.

Section S.
Variable F : Z -> Z -> Z.
Variable G : Z -> Z -> bool -> Z.

Definition yl n (y : list Z) := tab (2 ^ n) (fun i => F (nth i y 0%Z) (nth (2 ^ n + i) y 0%Z)).
Definition yr n (y : list Z) (s : list bool) := tab (2 ^ n) (fun i => G (nth i y 0%Z) (nth (2 ^ n + i) y 0%Z) (nth i s false)).

Lemma sc_llr_lo : forall n y u, length y = 2 ^ S n -> length u < 2 ^ n -> sc_llr F G (S n) y u = sc_llr F G n (yl n y) u.
Proof.
  intros n y u Ly Hu. rewrite Nat.pow_succ_r' in Ly. cbn [sc_llr]. destruct (Nat.ltb_spec (length u) (2 ^ n)); [|lia]. f_equal.
  unfold lo, hi. rewrite (map2_tab _ _ _ F _ _ 0%Z 0%Z (2 ^ n)) by (rewrite ?firstn_length, ?skipn_length; lia).
  apply tab_ext. intros k Hk. rewrite nth_firstn_lt by auto. rewrite skipn_nth. auto.
Qed.
Lemma sc_llr_hi : forall n y a b, length y = 2 ^ S n -> length a = 2 ^ n ->
  sc_llr F G (S n) y (a ++ b) = sc_llr F G n (yr n y (arikan (2 ^ n) a)) b.
Proof.
  intros n y a b Ly La. rewrite Nat.pow_succ_r' in Ly. cbn [sc_llr]. rewrite app_length. destruct (Nat.ltb_spec (length a + length b) (2 ^ n)); [lia|].
  rewrite firstn_app, skipn_app, La, Nat.sub_diag, firstn_all2, skipn_all2 by lia. cbn [firstn skipn app]. rewrite app_nil_r. f_equal.
  unfold lo, hi. rewrite (map2_tab _ _ _ _ _ _ (0, 0)%Z false (2 ^ n)); rewrite ?combine_length, ?firstn_length, ?skipn_length, ?length_arikan; try lia.
  apply tab_ext. intros k Hk. rewrite combine_nth by (rewrite firstn_length, skipn_length; lia). cbn [fst snd].
  rewrite nth_firstn_lt by auto. rewrite skipn_nth. auto.
Qed.

Lemma pm_split : forall n y a b, length y = 2 ^ S n -> length a = 2 ^ n ->
  path_metric F G (S n) y (a ++ b) = (path_metric F G n (yl n y) a + path_metric F G n (yr n y (arikan (2 ^ n) a)) b)%Z.
Proof.
  intros n y a b Ly La. unfold path_metric. rewrite app_length, sumz_app. f_equal; apply sumz_ext; intros k Hk.
  - rewrite firstn_app. replace (k - length a) with 0 by lia. cbn [firstn]. rewrite app_nil_r, app_nth1 by auto.
    rewrite sc_llr_lo; auto. rewrite firstn_length. lia.
  - rewrite firstn_app. replace (length a + k - length a) with k by lia. rewrite firstn_all2 by lia.
    rewrite sc_llr_hi by auto. rewrite app_nth2 by lia. do 2 f_equal. lia.
Qed.

Lemma pm_nonneg : forall n y u, (0 <= path_metric F G n y u)%Z.
Proof. intros. apply sumz_nonneg. intros. apply penalty_nonneg. Qed.
End S.

(** ** Metric of a complete path with the exact kernels *)
Lemma kernel_penalty : forall a b p q,
  (penalty (f_LLR a b) p + penalty (g_LLR a b p) q = penalty a (xorb p q) + penalty b q)%Z.
Proof.
  intros a b p q. unfold f_LLR, g_LLR. rewrite Z.sgn_mul.
  assert (HA : (a < 0 /\ Z.sgn a = -1 \/ a = 0 /\ Z.sgn a = 0 \/ 0 < a /\ Z.sgn a = 1)%Z)
    by (destruct (Z.lt_total a 0) as [H|[H|H]]; [left|right; left|right; right]; split; auto; [apply Z.sgn_neg; auto|subst; auto|apply Z.sgn_pos; auto]).
  assert (HB : (b < 0 /\ Z.sgn b = -1 \/ b = 0 /\ Z.sgn b = 0 \/ 0 < b /\ Z.sgn b = 1)%Z)
    by (destruct (Z.lt_total b 0) as [H|[H|H]]; [left|right; left|right; right]; split; auto; [apply Z.sgn_neg; auto|subst; auto|apply Z.sgn_pos; auto]).
  destruct HA as [[HA ->]|[[HA ->]|[HA ->]]]; destruct HB as [[HB ->]|[[HB ->]|[HB ->]]]; unfold penalty;
  destruct p, q; cbn [xorb];
  repeat match goal with |- context [(?x <? ?y)%Z] => destruct (Z.ltb_spec x y) end; lia.
Qed.

Lemma length_yl : forall F n y, length (yl F n y) = 2 ^ n. Proof. intros. apply length_tab. Qed.
Lemma length_yr : forall G n y s, length (yr G n y s) = 2 ^ n. Proof. intros. apply length_tab. Qed.

Lemma metric_discrepancy : forall n y u, length y = 2 ^ n -> length u = 2 ^ n ->
  path_metric f_LLR g_LLR n y u = discrepancy y (arikan (2 ^ n) u).
Proof.
  induction n; intros y u Ly Lu.
  - destruct y as [|z [|? ?]], u as [|b [|? ?]]; try discriminate. unfold path_metric, discrepancy. cbn [length sumz firstn nth sc_llr hd].
    change (2 ^ 0) with 1. rewrite arikan_one. auto.
  - rewrite <- (firstn_skipn (2 ^ n) u). set (a := firstn (2 ^ n) u). set (b := skipn (2 ^ n) u).
    assert (P2 : 2 ^ S n = 2 ^ n + 2 ^ n) by (rewrite Nat.pow_succ_r'; lia).
    assert (La : length a = 2 ^ n) by (unfold a; rewrite firstn_length; lia).
    assert (Lb : length b = 2 ^ n) by (unfold b; rewrite skipn_length; lia).
    rewrite pm_split by auto. rewrite !IHn by (auto using length_yl, length_yr). unfold discrepancy. rewrite length_yl, length_yr, Ly, P2, sumz_app, <- !sumz_add.
    apply sumz_ext. intros k Hk. unfold yl, yr. rewrite !nth_tab by auto. rewrite kernel_penalty.
    rewrite <- P2, arikan_app by auto. rewrite arikan_xorl by lia. f_equal; f_equal.
    + rewrite app_nth1 by (rewrite length_xorl; rewrite ?length_arikan; auto). rewrite nth_xorl; rewrite ?length_arikan; auto.
    + rewrite app_nth2; rewrite length_xorl; rewrite ?length_arikan; auto; [f_equal|]; lia.
Qed.

Lemma correlation_discrepancy : forall y x,
  correlation y x = (sumz (length y) (fun j => Z.abs (nth j y 0)) - 2 * discrepancy y x)%Z.
Proof.
  intros. unfold correlation, discrepancy. induction (length y); cbn [sumz]; [lia|]. rewrite IHn.
  assert (X : forall (z : Z) (b : bool), (if b then - z else z)%Z = (Z.abs z - 2 * penalty z b)%Z).
  { intros z b. unfold penalty. destruct b; [destruct (Z.ltb_spec 0 z)|destruct (Z.ltb_spec z 0)]; lia. }
  rewrite (X (nth n y 0%Z) (nth n x false)). lia.
Qed.

(** ** Survivors *)
Section V.
Variable F : Z -> Z -> Z.
Variable G : Z -> Z -> bool -> Z.
Variable n L : nat.
Variable fb : list bool.
Variable y : list Z.
Notation surv := (survivors F G n L fb y).
Notation pm := (path_metric F G n y).

Lemma length_extend : forall C, length (extend C) = 2 * length C.
Proof. unfold extend. induction C; auto. cbn [flat_map]. rewrite app_length, IHC. cbn [length]. lia. Qed.
Lemma in_extend : forall C u b, In u C -> In (u ++ [b]) (extend C).
Proof. intros. apply in_flat_map. exists u. split; auto. destruct b; simpl; auto. Qed.

(** With a list of at least 2^K entries nothing is dropped. *)
Lemma survivors_all : length fb = 2 ^ n -> 2 ^ length (info_positions fb) <= L ->
  forall i C, surv i C -> i <= 2 ^ n ->
  length C = 2 ^ rank fb i /\
  forall u, length u = i -> (forall k, k < i -> nth k fb true = true -> nth k u false = false) -> In u C.
Proof.
  intros Lf HL i C H. rewrite length_info_positions in HL. induction H; intros Hi.
  - split; auto. intros u Lu _. destruct u; [left; auto|discriminate].
  - destruct IHsurvivors as [I1 I2]; [lia|]. split.
    + apply Permutation_length in H1. rewrite H1, map_length, I1. rewrite rank_S by lia. rewrite H0. f_equal. lia.
    + intros u Lu Z. apply (Permutation_in _ (Permutation_sym H1)). apply in_map_iff.
      destruct (exists_last (l := u)) as (v & b & ->); [intros ->; discriminate|]. rewrite app_length in Lu. simpl in Lu.
      exists v. assert (Lv : length v = i) by lia. split.
      * specialize (Z i ltac:(lia) H0). rewrite app_nth2, Lv, Nat.sub_diag in Z by lia. simpl in Z. congruence.
      * apply I2; auto. intros k Hk Hf. specialize (Z k ltac:(lia) Hf). rewrite app_nth1 in Z by lia. auto.
  - destruct IHsurvivors as [I1 I2]; [lia|].
    assert (R : rank fb (S i) = S (rank fb i)) by (rewrite rank_S by lia; rewrite H0; lia).
    assert (RK : rank fb (S i) <= count_info fb) by (rewrite <- rank_full; apply rank_mono; lia).
    assert (2 ^ rank fb (S i) <= 2 ^ count_info fb) by (apply Nat.pow_le_mono_r; lia).
    assert (LC : length C' = 2 ^ rank fb (S i)). { rewrite H2, I1, R, Nat.pow_succ_r' in *. lia. }
    assert (D = []).
    { apply Permutation_length in H1. rewrite app_length, length_extend, I1, LC, R, Nat.pow_succ_r' in H1. destruct D; auto. simpl in H1. lia. }
    subst D. rewrite app_nil_r in H1. split; auto.
    intros u Lu Z. apply (Permutation_in _ (Permutation_sym H1)).
    destruct (exists_last (l := u)) as (v & b & ->); [intros ->; discriminate|]. rewrite app_length in Lu. simpl in Lu.
    apply in_extend. apply I2; [lia|]. intros k Hk Hf. specialize (Z k ltac:(lia) Hf). rewrite app_nth1 in Z by lia. auto.
Qed.

Lemma survivors_some : 0 < L -> forall i C, surv i C -> 0 < length C <= L.
Proof.
  intros HL i C H. induction H; simpl; try lia.
  - apply Permutation_length in H1. rewrite map_length in H1. lia.
Qed.

(** A path whose every decision agrees with a non-zero LLR survives. *)
Lemma agreeing_survives : forall v, 0 < L -> length v = 2 ^ n -> length fb = 2 ^ n -> frozen_zero fb v ->
  (forall k, k < 2 ^ n -> if nth k v false then (sc_llr F G n y (firstn k v) < 0)%Z else (0 < sc_llr F G n y (firstn k v))%Z) ->
  (forall u, length u <= 2 ^ n -> pm u = 0%Z -> u = firstn (length u) v) /\
  (forall k, k <= 2 ^ n -> pm (firstn k v) = 0%Z) /\
  (forall i C, surv i C -> i <= 2 ^ n -> In (firstn i v) C).
Proof.
  intros v HL Lv Lf FZ HA.
  assert (SN : forall k, k < 2 ^ n -> firstn (S k) v = firstn k v ++ [nth k v false]).
  { intros k Hk. assert (forall (l : list bool) k, k < length l -> firstn (S k) l = firstn k l ++ [nth k l false]).
    { induction l; intros j Hj; simpl in Hj; [lia|]. destruct j; auto. simpl. f_equal. apply IHl. lia. } apply H. lia. }
  assert (Z0 : forall k, k <= 2 ^ n -> pm (firstn k v) = 0%Z).
  { induction k; intros Hk; auto. rewrite SN by lia. rewrite pm_snoc. rewrite IHk by lia.
    specialize (HA k ltac:(lia)). unfold penalty. destruct (nth k v false).
    - destruct (Z.ltb_spec 0 (sc_llr F G n y (firstn k v))); lia.
    - destruct (Z.ltb_spec (sc_llr F G n y (firstn k v)) 0); lia. }
  assert (UQ : forall u, length u <= 2 ^ n -> pm u = 0%Z -> u = firstn (length u) v).
  { induction u using rev_ind; intros Hu Hp; auto. rewrite pm_snoc in Hp. rewrite app_length in Hu |- *. simpl in Hu |- *.
    pose proof (pm_nonneg F G n y u). pose proof (penalty_nonneg (sc_llr F G n y u) x).
    assert (EU : u = firstn (length u) v) by (apply IHu; lia). rewrite Nat.add_1_r, SN by lia. rewrite <- EU. do 2 f_equal.
    specialize (HA (length u) ltac:(lia)). rewrite <- EU in HA. assert (penalty (sc_llr F G n y u) x = 0%Z) by lia. unfold penalty in H1.
    destruct x, (nth (length u) v false); auto.
    - destruct (Z.ltb_spec 0 (sc_llr F G n y u)); lia.
    - destruct (Z.ltb_spec (sc_llr F G n y u) 0); lia. }
  split; auto. split; auto.
  intros i C H. induction H; intros Hi.
  - left. auto.
  - apply (Permutation_in _ (Permutation_sym H1)). rewrite SN by lia. rewrite FZ by (auto; lia).
    apply in_map_iff. exists (firstn i v). split; auto. apply IHsurvivors. lia.
  - assert (I : In (firstn (S i) v) (C' ++ D)).
    { apply (Permutation_in _ (Permutation_sym H1)). rewrite SN by lia. apply in_extend. apply IHsurvivors. lia. }
    apply in_app_or in I. destruct I as [I|I]; auto.
    destruct C' as [|c C']. { pose proof (survivors_some HL _ _ H). simpl in H2. lia. }
    assert (LC : length c = S i).
    { eapply (survivors_len F G n fb L y (S i) (c :: C')); [eapply surv_info; eauto|left; auto]. }
    specialize (H3 c _ (or_introl eq_refl) I). rewrite Z0 in H3 by lia. pose proof (pm_nonneg F G n y c).
    left. rewrite (UQ c) by lia. rewrite LC. auto.
Qed.
End V.

(** ** Noiseless LLRs *)
Lemma noiseless_llr : forall n y v, length y = 2 ^ n -> length v = 2 ^ n ->
  (forall j, j < 2 ^ n -> if nth j (arikan (2 ^ n) v) false then (nth j y 0 < 0)%Z else (0 < nth j y 0)%Z) ->
  forall k, k < 2 ^ n -> if nth k v false then (sc_llr f_LLR g_LLR n y (firstn k v) < 0)%Z else (0 < sc_llr f_LLR g_LLR n y (firstn k v))%Z.
Proof.
  induction n; intros y v Ly Lv HY k Hk.
  - simpl in Hk. assert (k = 0) by lia. subst. destruct y as [|z [|? ?]], v as [|b [|? ?]]; try discriminate.
    specialize (HY 0 ltac:(simpl; lia)). change (2 ^ 0) with 1 in HY. rewrite arikan_one in HY. simpl in *. auto.
  - rewrite <- (firstn_skipn (2 ^ n) v) in HY |- *. set (a := firstn (2 ^ n) v) in *. set (b := skipn (2 ^ n) v) in *.
    assert (P2 : 2 ^ S n = 2 ^ n + 2 ^ n) by (rewrite Nat.pow_succ_r'; lia).
    assert (La : length a = 2 ^ n) by (unfold a; rewrite firstn_length; lia).
    assert (Lb : length b = 2 ^ n) by (unfold b; rewrite skipn_length; lia).
    rewrite arikan_app in HY by auto. rewrite arikan_xorl in HY by lia.
    assert (H1 : forall j, j < 2 ^ n -> if xorb (nth j (arikan (2 ^ n) a) false) (nth j (arikan (2 ^ n) b) false) then (nth j y 0 < 0)%Z else (0 < nth j y 0)%Z).
    { intros j Hj. specialize (HY j ltac:(lia)). rewrite app_nth1 in HY by (rewrite length_xorl; rewrite !length_arikan; auto).
      rewrite nth_xorl in HY; rewrite ?length_arikan; auto. }
    assert (H2 : forall j, j < 2 ^ n -> if nth j (arikan (2 ^ n) b) false then (nth (2 ^ n + j) y 0 < 0)%Z else (0 < nth (2 ^ n + j) y 0)%Z).
    { intros j Hj. specialize (HY (2 ^ n + j) ltac:(lia)). rewrite app_nth2 in HY; rewrite ?length_xorl in HY; rewrite ?length_xorl; rewrite ?length_arikan in *; auto; try lia.
      replace (2 ^ n + j - 2 ^ n) with j in HY by lia. auto. }
    destruct (Nat.lt_ge_cases k (2 ^ n)).
    + rewrite firstn_app. replace (k - length a) with 0 by lia. cbn [firstn]. rewrite app_nil_r, app_nth1 by lia.
      rewrite sc_llr_lo by (auto; rewrite firstn_length; lia). apply IHn; auto using length_yl.
      intros j Hj. specialize (H1 j Hj). specialize (H2 j Hj). unfold yl. rewrite nth_tab by auto. unfold f_LLR. rewrite Z.sgn_mul.
      destruct (nth j (arikan (2 ^ n) a) false), (nth j (arikan (2 ^ n) b) false); cbn [xorb] in H1;
        rewrite ?(Z.sgn_neg (nth j y 0%Z)), ?(Z.sgn_pos (nth j y 0%Z)), ?(Z.sgn_neg (nth (2 ^ n + j) y 0%Z)), ?(Z.sgn_pos (nth (2 ^ n + j) y 0%Z)) by auto; lia.
    + rewrite firstn_app. rewrite firstn_all2 by lia. rewrite sc_llr_hi by auto. rewrite app_nth2 by lia. rewrite La.
      apply IHn; auto using length_yr; [|lia].
      intros j Hj. specialize (H1 j Hj). specialize (H2 j Hj). unfold yr. rewrite nth_tab by auto. unfold g_LLR.
      destruct (nth j (arikan (2 ^ n) a) false), (nth j (arikan (2 ^ n) b) false); cbn [xorb] in H1; lia.
Qed.

(** ** Successive cancellation *)
Lemma sc_decisions : forall F G H h lane fb lam d, length lam = 2 ^ h -> (lane + 1) * 2 ^ h <= length fb ->
  recursive_decode F G H fb (full h lane) lam = Ret d ->
  forall i, i < 2 ^ h -> nth i (leaves d) false =
    negb (nth (lane * 2 ^ h + i) fb true) && H (sc_llr F G h lam (firstn i (leaves d))).
Proof.
  intros F G H. induction h; intros lane fb lam d Ll B E i Hi.
  - destruct lam as [|z [|? ?]]; try discriminate. cbn [full recursive_decode] in E. simpl in B. rewrite (rd_ok _ true) in E by lia. cbn [bind rd nth_error] in E.
    injection E as <-. simpl in Hi. assert (i = 0) by lia. subst. simpl. do 3 f_equal. lia.
  - assert (P2 : 2 ^ S h = 2 ^ h + 2 ^ h) by (rewrite Nat.pow_succ_r'; lia). assert (P := pow2_pos h).
    cbn [full recursive_decode] in E. rewrite Ll, half_pow in E.
    rewrite (gen_ok _ (2 ^ h) _ (fun i => F (nth i lam 0%Z) (nth (2 ^ h + i) lam 0%Z))) in E
      by (intros j Hj; rewrite !(rd_ok _ 0%Z) by lia; auto). cbn [bind] in E.
    destruct (decode_ok _ F G H h (2 * lane) fb (yl F h lam)) as (dl & El & Ldl & Sl & _); [apply length_yl|lia|].
    unfold yl in El. rewrite El in E. cbn [bind] in E.
    assert (LSl : length (sums dl) = 2 ^ h) by (rewrite Sl; apply length_arikan).
    rewrite (gen_ok _ (2 ^ h) _ (fun i => G (nth i lam 0%Z) (nth (2 ^ h + i) lam 0%Z) (nth i (sums dl) false))) in E
      by (intros j Hj; rewrite !(rd_ok _ 0%Z) by lia; rewrite (rd_ok _ false) by lia; auto). cbn [bind] in E.
    destruct (decode_ok _ F G H h (2 * lane + 1) fb (yr G h lam (sums dl))) as (dr & Er & Ldr & Sr & _); [apply length_yr|lia|].
    unfold yr in Er. rewrite Er in E. cbn [bind] in E.
    assert (LSr : length (sums dr) = 2 ^ h) by (rewrite Sr; apply length_arikan).
    rewrite (gen_ok _ (2 ^ h) _ (fun i => xorb (nth i (sums dl) false) (nth i (sums dr) false))) in E
      by (intros j Hj; rewrite !(rd_ok _ false) by lia; auto). cbn [bind] in E.
    rewrite (gen_ok _ (2 ^ h) _ (fun i => nth i (sums dr) false)) in E
      by (intros j Hj; rewrite !(rd_ok _ false) by lia; auto). cbn [bind] in E. injection E as <-. cbn [leaves].
    destruct (Nat.lt_ge_cases i (2 ^ h)).
    + rewrite app_nth1 by lia. rewrite firstn_app. replace (i - length (leaves dl)) with 0 by lia. cbn [firstn]. rewrite app_nil_r.
      rewrite sc_llr_lo by (auto; rewrite firstn_length; lia).
      rewrite (IHh (2 * lane) fb (yl F h lam) dl (length_yl F h lam) ltac:(lia) El i) by lia.
      replace (2 * lane * 2 ^ h + i) with (lane * 2 ^ S h + i) by (rewrite P2; lia). auto.
    + rewrite app_nth2 by lia. rewrite firstn_app, firstn_all2 by lia. rewrite sc_llr_hi by auto. rewrite <- Sl, Ldl.
      rewrite (IHh (2 * lane + 1) fb (yr G h lam (sums dl)) dr (length_yr G h lam (sums dl)) ltac:(lia) Er (i - 2 ^ h)) by lia.
      replace ((2 * lane + 1) * 2 ^ h + (i - 2 ^ h)) with (lane * 2 ^ S h + i) by (rewrite P2; lia). auto.
Qed.
