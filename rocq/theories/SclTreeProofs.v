(** The list decoder, one tree at a time: what each traversal does to the arrays. *)
From Coq Require Import List Arith ZArith Lia Bool.
From Verif Require Import Base Loops GF2 PolarModel PolarSpec PolarProofs PolarSCProofs WLoops SclModel SclSpec.
Import ListNotations.

Definition slice {A} (o n : nat) (u : list A) : list A := firstn n (skipn o u).

Lemma slice_app : forall A o n (u w : list A), o + n <= length u -> slice o n (u ++ w) = slice o n u.
Proof.
  intros. unfold slice. rewrite skipn_app, firstn_app, skipn_length.
  replace (n - (length u - o)) with 0 by lia. cbn [firstn]. apply app_nil_r.
Qed.
Lemma length_slice : forall A o n (u : list A), o + n <= length u -> length (slice o n u) = n.
Proof. intros. unfold slice. rewrite firstn_length, skipn_length. lia. Qed.

Lemma skipn_skipn_add : forall A b a (u : list A), skipn a (skipn b u) = skipn (b + a) u.
Proof. induction b; intros; simpl; auto. destruct u; auto. rewrite skipn_nil. auto. Qed.
Lemma firstn_add : forall A n k (v : list A), firstn (n + k) v = firstn n v ++ firstn k (skipn n v).
Proof.
  induction n; intros; simpl; auto. destruct v; simpl. { rewrite firstn_nil. auto. } f_equal. apply IHn.
Qed.
Lemma slice_cut : forall A o n k (u : list A), slice o (n + k) u = slice o n u ++ slice (o + n) k u.
Proof. intros. unfold slice. rewrite firstn_add, skipn_skipn_add. auto. Qed.

Lemma put_eq : forall A (f : nat -> nat -> A) d j v, put f d j v d j = v.
Proof. intros. unfold put. rewrite !Nat.eqb_refl. auto. Qed.
Lemma put_neq : forall A (f : nat -> nat -> A) d j v d' j', d' <> d \/ j' <> j -> put f d j v d' j' = f d' j'.
Proof.
  intros. unfold put. destruct (Nat.eqb_spec d' d); destruct (Nat.eqb_spec j' j); auto. lia.
Qed.

Lemma odd_half : forall q, Nat.odd q = true -> q = 2 * (q / 2) + 1.
Proof.
  intros. apply Nat.odd_spec in H. destruct H as [k ->]. 
  replace (2 * k + 1) with (1 + k * 2) by lia. rewrite Nat.div_add by lia. simpl. lia.
Qed.
Lemma even_half : forall q, Nat.even q = true -> q = 2 * (q / 2).
Proof.
  intros. apply Nat.even_spec in H. destruct H as [k ->]. rewrite Nat.mul_comm, Nat.div_mul by lia. lia.
Qed.

Section T.
Variable F : Z -> Z -> Z.
Variable G : Z -> Z -> bool -> Z.
Variable m : nat.
Variable y : list Z.
Hypothesis Ly : length y = 2 ^ m.

Definition sz (d : nat) : nat := 2 ^ (m - d).
Definition anc (i d : nat) : nat := i / sz d.

Lemma sz_pos : forall d, 0 < sz d. Proof. intros. apply pow2_pos. Qed.
Lemma sz_S : forall d, d < m -> sz d = 2 * sz (S d).
Proof. intros. unfold sz. replace (m - d) with (S (m - S d)) by lia. apply Nat.pow_succ_r'. Qed.
Lemma sz_m : sz m = 1. Proof. unfold sz. rewrite Nat.sub_diag. auto. Qed.
Lemma sz_0 : sz 0 = 2 ^ m. Proof. unfold sz. rewrite Nat.sub_0_r. auto. Qed.
Lemma anc_m : forall i, anc i m = i. Proof. intros. unfold anc. rewrite sz_m. apply Nat.div_1_r. Qed.
Lemma anc_0 : forall i, i < 2 ^ m -> anc i 0 = 0.
Proof. intros. unfold anc. rewrite sz_0. apply Nat.div_small. auto. Qed.
Lemma anc_S : forall i d, d < m -> anc i (S d) / 2 = anc i d.
Proof. intros. unfold anc. rewrite Nat.div_div by (pose proof (sz_pos (S d)); lia). rewrite (sz_S d) by auto. f_equal. lia. Qed.
Lemma anc_le : forall i d, anc i d * sz d <= i.
Proof. intros. unfold anc. pose proof (sz_pos d). rewrite Nat.mul_comm. apply Nat.mul_div_le. lia. Qed.
Lemma anc_lt : forall i d, i < (anc i d + 1) * sz d.
Proof.
  intros. unfold anc. pose proof (sz_pos d). pose proof (Nat.mul_succ_div_gt i (sz d) ltac:(lia)). nia.
Qed.
Lemma anc_uniq : forall i d q, q * sz d <= i -> i < (q + 1) * sz d -> anc i d = q.
Proof.
  intros. unfold anc. pose proof (sz_pos d). symmetry. apply (Nat.div_unique i (sz d) q (i - q * sz d)); lia.
Qed.
Lemma anc_bound : forall i d, d <= m -> i < 2 ^ m -> anc i d < 2 ^ d.
Proof.
  intros. unfold anc. apply Nat.div_lt_upper_bound. { pose proof (sz_pos d). lia. }
  unfold sz. rewrite <- Nat.pow_add_r. replace (m - d + d) with m by lia. auto.
Qed.

(** LLRs of the node (d, q) after the decisions [u]. *)
Fixpoint lamS (d q : nat) (u : list bool) : list Z :=
  match d with
  | O => y
  | S d' =>
    let P := lamS d' (q / 2) u in
    let h := sz (S d') in
    if Nat.even q then tab h (fun i => F (nth i P 0%Z) (nth (h + i) P 0%Z))
    else tab h (fun i => G (nth i P 0%Z) (nth (h + i) P 0%Z)
                           (nth i (arikan h (slice ((q - 1) * h) h u)) false))
  end.

Lemma length_lamS : forall d q u, length (lamS d q u) = sz d.
Proof. destruct d; intros; simpl. { rewrite sz_0. auto. } destruct (Nat.even q); apply length_tab. Qed.

Lemma lamS_app : forall d q u w, d <= m -> q * sz d <= length u -> lamS d q (u ++ w) = lamS d q u.
Proof.
  induction d; intros q u w Hd Hq; auto. cbn [lamS].
  assert (E : lamS d (q / 2) (u ++ w) = lamS d (q / 2) u).
  { apply IHd; [lia|]. rewrite (sz_S d) in * by lia. pose proof (Nat.mul_div_le q 2 ltac:(lia)). nia. }
  rewrite E. destruct (Nat.even q) eqn:EV; auto.
  rewrite slice_app; auto.
  assert (Nat.odd q = true) by (rewrite <- Nat.negb_even, EV; auto). apply odd_half in H.
  assert (q = q - 1 + 1) by lia. nia.
Qed.

Definition sized (t : ptree) : Prop :=
  forall d j, d <= m -> j < 2 ^ d -> length (lamT t d j) = sz d /\ length (sT t d j) = sz d.
Definition rooty (t : ptree) : Prop := lamT t 0 0 = y.
Definition leafs (i : nat) (t : ptree) (u : list bool) : Prop :=
  forall k, k < i -> sT t m k = [nth k u false].
(** left siblings of the ancestors of the leaf i *)
Definition sibs (i : nat) (t : ptree) (u : list bool) : Prop :=
  forall d, d < m -> Nat.odd (anc i (S d)) = true ->
    sT t (S d) (anc i (S d) - 1) = arikan (sz (S d)) (slice ((anc i (S d) - 1) * sz (S d)) (sz (S d)) u).

Definition pre (i : nat) (t : ptree) (u : list bool) : Prop :=
  sized t /\ rooty t /\ leafs i t u /\
  (i < 2 ^ m -> sibs i t u /\
     forall d, d <= m -> anc i d * sz d < i -> lamT t d (anc i d) = lamS d (anc i d) u) /\
  (i = 2 ^ m -> sT t 0 0 = arikan (2 ^ m) u).
Definition mid (i : nat) (t : ptree) (u : list bool) : Prop :=
  sized t /\ rooty t /\ leafs i t u /\ sibs i t u /\
  forall d, d <= m -> lamT t d (anc i d) = lamS d (anc i d) u.
Definition post (i : nat) (t : ptree) (v : list bool) : Prop :=
  sized t /\ rooty t /\ leafs (S i) t v /\ sibs i t v /\
  (S i < 2 ^ m -> forall d, d <= m -> anc (S i) d * sz d <= i ->
     lamT t d (anc (S i) d) = lamS d (anc (S i) d) v).

Lemma sized_put_lam : forall t d j l, sized t -> (d <= m -> j < 2 ^ d -> length l = sz d) -> sized (put_lam t d j l).
Proof.
  intros t d j l H HL d' j' Hd Hj. destruct (H d' j' Hd Hj) as [A B]. cbn [lamT sT put_lam]. split; auto.
  unfold put. destruct (Nat.eqb_spec d' d); destruct (Nat.eqb_spec j' j); cbn [andb]; auto. subst. auto.
Qed.
Lemma sized_put_s : forall t d j l, sized t -> (d <= m -> j < 2 ^ d -> length l = sz d) -> sized (put_s t d j l).
Proof.
  intros t d j l H HL d' j' Hd Hj. destruct (H d' j' Hd Hj) as [A B]. cbn [lamT sT put_s]. split; auto.
  unfold put. destruct (Nat.eqb_spec d' d); destruct (Nat.eqb_spec j' j); cbn [andb]; auto. subst. auto.
Qed.

Lemma child_bound : forall d j, j < 2 ^ d -> 2 * j < 2 ^ S d /\ 2 * j + 1 < 2 ^ S d.
Proof. intros. rewrite Nat.pow_succ_r'. lia. Qed.

Lemma half_sz : forall d, d < m -> sz d / 2 = sz (S d).
Proof. intros. rewrite (sz_S d) by auto. rewrite Nat.mul_comm, Nat.div_mul; lia. Qed.

Lemma apply_f_ok : forall d j t, d < m -> j < 2 ^ d -> sized t ->
  apply_f F m d j t = Ret (put_lam t (S d) (2 * j)
    (tab (sz (S d)) (fun i => F (nth i (lamT t d j) 0%Z) (nth (sz (S d) + i) (lamT t d j) 0%Z)))).
Proof.
  intros d j t Hd Hj HS. unfold apply_f. destruct (Nat.ltb_spec d m); [|lia].
  destruct (HS d j ltac:(lia) Hj) as [L1 _]. destruct (child_bound d j Hj) as [B1 B2].
  destruct (HS (S d) (2 * j) ltac:(lia) B1) as [L2 _].
  rewrite L1, half_sz by auto.
  rewrite (for1_fill Z 0%Z (fun i => F (nth i (lamT t d j) 0%Z) (nth (sz (S d) + i) (lamT t d j) 0%Z)) (fun i => i)).
  - cbn [bind]. rewrite L2. auto.
  - intros i x Hi Hx. rewrite L2. split; auto. rewrite !(rd_ok _ 0%Z) by (rewrite L1, (sz_S d) by auto; lia). auto.
  - intros q Hq. exists q. split; auto. lia.
Qed.

Lemma apply_g_ok : forall d j t, d < m -> j < 2 ^ d -> sized t ->
  apply_g G m d j t = Ret (put_lam t (S d) (2 * j + 1)
    (tab (sz (S d)) (fun i => G (nth i (lamT t d j) 0%Z) (nth (sz (S d) + i) (lamT t d j) 0%Z)
                               (nth i (sT t (S d) (2 * j)) false)))).
Proof.
  intros d j t Hd Hj HS. unfold apply_g. destruct (Nat.ltb_spec d m); [|lia].
  destruct (HS d j ltac:(lia) Hj) as [L1 _]. destruct (child_bound d j Hj) as [B1 B2].
  destruct (HS (S d) (2 * j) ltac:(lia) B1) as [_ L2]. destruct (HS (S d) (2 * j + 1) ltac:(lia) B2) as [L3 _].
  rewrite L1, half_sz by auto.
  rewrite (for1_fill Z 0%Z (fun i => G (nth i (lamT t d j) 0%Z) (nth (sz (S d) + i) (lamT t d j) 0%Z)
                               (nth i (sT t (S d) (2 * j)) false)) (fun i => i)).
  - cbn [bind]. rewrite L3. auto.
  - intros i x Hi Hx. rewrite L3. split; auto. rewrite !(rd_ok _ 0%Z) by (rewrite L1, (sz_S d) by auto; lia).
    cbn [bind]. rewrite (rd_ok _ false) by lia. auto.
  - intros q Hq. exists q. split; auto. lia.
Qed.

Lemma compute_sums_ok : forall d j t, d < m -> j < 2 ^ d -> sized t ->
  compute_sums m d j t = Ret (put_s t d j (xorl (sT t (S d) (2 * j)) (sT t (S d) (2 * j + 1)) ++ sT t (S d) (2 * j + 1))).
Proof.
  intros d j t Hd Hj HS. unfold compute_sums. destruct (Nat.ltb_spec d m); [|lia].
  destruct (HS d j ltac:(lia) Hj) as [L1 L4]. destruct (child_bound d j Hj) as [B1 B2].
  destruct (HS (S d) (2 * j) ltac:(lia) B1) as [_ L2]. destruct (HS (S d) (2 * j + 1) ltac:(lia) B2) as [_ L3].
  rewrite L1, half_sz by auto. set (h := sz (S d)) in *.
  assert (E2 : sz d = 2 * h) by (apply sz_S; auto).
  set (A := sT t (S d) (2 * j)) in *. set (B := sT t (S d) (2 * j + 1)) in *.
  destruct (for_write1 bool false (fun i => xorb (nth i A false) (nth i B false)) (fun i => i) h
     (fun i s => a <- rd A i;; b <- rd B i;; wr s i (xorb a b)) (sT t d j)) as (s1 & E1 & M1 & I1).
  { intros i x Hi Hx. split; [lia|]. rewrite !(rd_ok _ false) by lia. auto. }
  rewrite E1. cbn [bind].
  destruct (for_write1 bool false (fun i => nth (i - h) B false) (fun i => h + i) h
     (fun i s => b <- rd B i;; wr s (h + i) b) s1) as (s2 & E3 & M2 & I2).
  { intros i x Hi Hx. split; [lia|]. rewrite (rd_ok _ false) by lia. cbn [bind]. replace (h + i - h) with i by lia. auto. }
  rewrite E3. cbn [bind]. do 2 f_equal. apply (list_eq_nth _ false).
  { rewrite app_length, length_xorl by lia. lia. }
  intros i Hi. destruct (I2 i ltac:(lia)) as [X1 X2]. destruct (Nat.lt_ge_cases i h).
  - rewrite X2 by (intros; lia). destruct (I1 i ltac:(lia)) as [Y1 _]. rewrite Y1 by (exists i; auto).
    rewrite app_nth1 by (rewrite length_xorl; lia). rewrite nth_xorl by lia. auto.
  - rewrite X1 by (exists (i - h); lia). rewrite app_nth2 by (rewrite length_xorl; lia).
    rewrite length_xorl by lia. f_equal. lia.
Qed.

(** ** LLRs *)
Lemma rec_llr_ok : forall i u, i < 2 ^ m -> forall d k t, k < d -> d <= m ->
  sized t -> sibs i t u -> lamT t (d - k - 1) (anc i (d - k - 1)) = lamS (d - k - 1) (anc i (d - k - 1)) u ->
  exists t', rec_llr F G m d (anc i d) (Z.of_nat k) t = Ret t' /\ sized t' /\
    (forall d' j', sT t' d' j' = sT t d' j') /\ met t' = met t /\
    (forall d', d - k - 1 <= d' <= d -> lamT t' d' (anc i d') = lamS d' (anc i d') u) /\
    (forall d' j', d' < d - k \/ d < d' -> lamT t' d' j' = lamT t d' j').
Proof.
  intros i u Hi. induction d; intros k t Hk Hd HS HB HT; [lia|]. cbn [rec_llr].
  rewrite anc_S by lia.
  assert (X : exists t', (if (Z.of_nat k =? 0)%Z then Ret t else rec_llr F G m d (anc i d) (Z.of_nat k - 1)%Z t) = Ret t' /\
     sized t' /\ (forall d' j', sT t' d' j' = sT t d' j') /\ met t' = met t /\
     (forall d', S d - k - 1 <= d' <= d -> lamT t' d' (anc i d') = lamS d' (anc i d') u) /\
     (forall d' j', d' < S d - k \/ d < d' -> lamT t' d' j' = lamT t d' j')).
  { destruct (Z.eqb_spec (Z.of_nat k) 0).
    - exists t. split; auto. split; auto. split; auto. split; auto. split.
      + intros d' Hd'. replace d' with (S d - k - 1) by lia. auto.
      + auto.
    - replace (Z.of_nat k - 1)%Z with (Z.of_nat (k - 1)) by lia.
      replace (S d - k - 1) with (d - (k - 1) - 1) in * by lia.
      destruct (IHd (k - 1) t) as (t' & E & S' & Es & Em & El & Eo); auto; try lia.
      exists t'. split; auto. split; auto. split; auto. split; auto. split; auto.
      intros d' j' Hd'. apply Eo. lia. }
  destruct X as (t' & E & S' & Es & Em & El & Eo). rewrite E. cbn [bind].
  assert (Bd := anc_bound i d ltac:(lia) Hi).
  assert (LP : lamT t' d (anc i d) = lamS d (anc i d) u) by (apply El; lia).
  destruct (Nat.even (anc i (S d))) eqn:EV.
  - rewrite apply_f_ok by (auto; lia). eexists. split; [reflexivity|].
    assert (EQ : anc i (S d) = 2 * anc i d) by (rewrite <- (anc_S i d) by lia; apply even_half; auto).
    split; [|split; [|split; [|split]]]; auto.
    + apply sized_put_lam; auto. intros. apply length_tab.
    + intros d' Hd'. cbn [lamT put_lam]. destruct (Nat.eq_dec d' (S d)).
      * subst d'. rewrite EQ at 1. rewrite put_eq. cbn [lamS]. rewrite EV, anc_S by lia. rewrite LP. auto.
      * rewrite put_neq by lia. apply El. lia.
    + intros d' j' Hd'. cbn [lamT put_lam]. rewrite put_neq by lia. apply Eo. lia.
  - rewrite apply_g_ok by (auto; lia). eexists. split; [reflexivity|].
    assert (OD : Nat.odd (anc i (S d)) = true) by (rewrite <- Nat.negb_even, EV; auto).
    assert (EQ : anc i (S d) = 2 * anc i d + 1) by (rewrite <- (anc_S i d) by lia; apply odd_half; auto).
    split; [|split; [|split; [|split]]]; auto.
    + apply sized_put_lam; auto. intros. apply length_tab.
    + intros d' Hd'. cbn [lamT put_lam]. destruct (Nat.eq_dec d' (S d)).
      * subst d'. rewrite EQ at 1. rewrite put_eq. cbn [lamS]. rewrite EV, anc_S by lia. rewrite LP.
        apply tab_ext. intros k' Hk'. f_equal. rewrite Es. specialize (HB d ltac:(lia) OD). rewrite <- HB.
        f_equal. f_equal. lia.
      * rewrite put_neq by lia. apply El. lia.
    + intros d' j' Hd'. cbn [lamT put_lam]. rewrite put_neq by lia. apply Eo. lia.
Qed.

Lemma depth_loop_spec : forall fuel i, 0 < i -> i < 2 ^ fuel ->
  exists q, i = (2 * q + 1) * 2 ^ depth_loop fuel i /\ depth_loop fuel i < fuel.
Proof.
  induction fuel; intros i H1 H2; [simpl in H2; lia|]. cbn [depth_loop].
  destruct (Nat.odd i) eqn:E.
  - apply odd_half in E. exists (i / 2). rewrite Nat.pow_0_r. lia.
  - assert (EV : Nat.even i = true) by (rewrite <- Nat.negb_odd, E; auto). apply even_half in EV.
    rewrite Nat.pow_succ_r' in H2.
    destruct (IHfuel (i / 2)) as (q & Eq & Lt); try lia. exists q. split; [|lia].
    rewrite Nat.pow_succ_r'. rewrite EV at 1. rewrite Eq at 1. ring.
Qed.

Lemma leaf_llr_ok : forall i t u, 0 < m -> i < 2 ^ m -> pre i t u ->
  exists t', rec_llr F G m m i (compute_depth i m) t = Ret t' /\ mid i t' u /\ met t' = met t.
Proof.
  intros i t u Hm Hi (HS & HR & HL & HP & _). destruct (HP Hi) as [HB HA].
  assert (X : exists k, compute_depth i m = Z.of_nat k /\ k < m /\
     forall d, d <= m - k - 1 -> lamT t d (anc i d) = lamS d (anc i d) u).
  { unfold compute_depth. destruct (Nat.eqb_spec i 0).
    - exists (m - 1). split; [lia|]. split; [lia|]. intros d Hd. assert (d = 0) by lia. subst.
      rewrite anc_0 by auto. exact HR.
    - destruct (depth_loop_spec m i) as (q & Eq & Lt); try lia.
      exists (depth_loop m i). split; auto. split; auto. remember (depth_loop m i) as k. clear Heqk.
      intros d Hd. apply HA; [lia|].
      assert (anc i d * sz d <= i) by apply anc_le.
      assert (anc i d * sz d <> i); [|lia]. intros X.
      assert (SZ : sz d = 2 * 2 ^ (m - d - k - 1) * 2 ^ k).
      { unfold sz. replace (m - d) with (S (m - d - k - 1) + k) at 1 by lia. rewrite Nat.pow_add_r, Nat.pow_succ_r'. auto. }
      rewrite SZ, Eq in X at 1. rewrite Eq in X at 1.
      assert (P := pow2_pos k).
      assert (X2 : anc ((2 * q + 1) * 2 ^ k) d * (2 * 2 ^ (m - d - k - 1)) = 2 * q + 1).
      { apply Nat.mul_cancel_r with (p := 2 ^ k); [lia|]. rewrite <- X at 2. ring. }
      lia. }
  destruct X as (k & Ek & Hk & HT). rewrite Ek.
  destruct (rec_llr_ok i u Hi m k t Hk ltac:(lia) HS HB) as (t' & E & S' & Es & Em & El & Eo).
  { apply HT. lia. }
  rewrite anc_m in E. exists t'. split; auto. split; auto.
  split; [auto|]. split; [|split; [|split]].
  - unfold rooty. destruct (Nat.eq_dec k (m - 1)).
    + specialize (El 0 ltac:(lia)). rewrite anc_0 in El by auto. exact El.
    + rewrite Eo by lia. exact HR.
  - intros j Hj. rewrite Es. apply HL. auto.
  - intros d Hd Ho. rewrite Es. apply HB; auto.
  - intros d Hd. destruct (Nat.lt_ge_cases d (m - k - 1)).
    + rewrite Eo by lia. apply HT. lia.
    + apply El. lia.
Qed.

(** ** Partial sums *)
Lemma arikan_cut : forall d o v, d < m ->  o + sz d <= length v ->
  arikan (sz d) (slice o (sz d) v) =
  xorl (arikan (sz (S d)) (slice o (sz (S d)) v)) (arikan (sz (S d)) (slice (o + sz (S d)) (sz (S d)) v)) ++
  arikan (sz (S d)) (slice (o + sz (S d)) (sz (S d)) v).
Proof.
  intros d o v Hd HL. rewrite (sz_S d) in * by auto. replace (2 * sz (S d)) with (sz (S d) + sz (S d)) by lia.
  rewrite slice_cut. replace (sz (S d) + sz (S d)) with (2 ^ S (m - S d)) by (rewrite Nat.pow_succ_r'; unfold sz; lia).
  rewrite arikan_app; try (apply length_slice; unfold sz in *; lia).
  rewrite arikan_xorl by (rewrite !length_slice; unfold sz in *; lia). auto.
Qed.

Lemma propagate_ok : forall i v, i < 2 ^ m -> length v = S i -> forall d t, d <= m ->
  (anc i d + 1) * sz d = S i -> sized t -> sibs i t v ->
  (if d =? m then sT t m i = arikan (sz m) (slice i 1 v)
   else sT t (S d) (anc i (S d)) = arikan (sz (S d)) (slice (anc i (S d) * sz (S d)) (sz (S d)) v)) ->
  exists t', propagate_sums m d (anc i d) t = Ret t' /\ sized t' /\
    (forall d' j', lamT t' d' j' = lamT t d' j') /\ met t' = met t /\
    (forall d', d' <= d -> (anc i d' + 1) * sz d' = S i ->
       sT t' d' (anc i d') = arikan (sz d') (slice (anc i d' * sz d') (sz d') v)) /\
    (forall d' j', d' = m \/ d < d' \/ j' <> anc i d' -> sT t' d' j' = sT t d' j').
Proof.
  intros i v Hi Lv. induction d as [d IHd] using (well_founded_induction lt_wf). intros t Hd HE HS HB HC.
  assert (Bd := anc_bound i d Hd Hi).
  (* the sums of this node *)
  assert (X : exists t', (if d =? m then Ret t else compute_sums m d (anc i d) t) = Ret t' /\ sized t' /\
     (forall d' j', lamT t' d' j' = lamT t d' j') /\ met t' = met t /\
     sT t' d (anc i d) = arikan (sz d) (slice (anc i d * sz d) (sz d) v) /\
     (forall d' j', d' = m \/ d' <> d \/ j' <> anc i d' -> sT t' d' j' = sT t d' j')).
  { destruct (Nat.eqb_spec d m).
    - subst. exists t. split; auto. split; auto. split; auto. split; auto. split; auto.
      rewrite anc_m, HC. rewrite sz_m, Nat.mul_1_r. auto.
    - rewrite compute_sums_ok by (auto; lia).
      assert (OD : anc i (S d) = 2 * anc i d + 1).
      { apply anc_uniq; rewrite (sz_S d) in HE by lia; lia. }
      assert (LL : length (xorl (sT t (S d) (2 * anc i d)) (sT t (S d) (2 * anc i d + 1)) ++ sT t (S d) (2 * anc i d + 1)) = sz d).
      { destruct (child_bound d _ Bd) as [B1 B2]. destruct (HS (S d) _ ltac:(lia) B1) as [_ L1]. destruct (HS (S d) _ ltac:(lia) B2) as [_ L2].
        rewrite app_length, length_xorl, (sz_S d) by lia. lia. }
      eexists. split; [reflexivity|]. split; [|split; [|split; [|split]]]; auto.
      + apply sized_put_s; auto.
      + cbn [sT put_s]. rewrite put_eq. rewrite arikan_cut by (rewrite ?Lv; lia).
        rewrite OD in HC. rewrite HC.
        assert (HB' := HB d ltac:(lia)). rewrite OD in HB'. 
        rewrite Nat.odd_add, Nat.odd_mul in HB'. specialize (HB' eq_refl). replace (2 * anc i d + 1 - 1) with (2 * anc i d) in HB' by lia.
        rewrite HB'. rewrite (sz_S d) by lia.
        replace (anc i d * (2 * sz (S d))) with (2 * anc i d * sz (S d)) by ring.
        replace ((2 * anc i d + 1) * sz (S d)) with (2 * anc i d * sz (S d) + sz (S d)) by ring. auto.
      + intros d' j' Hd'. cbn [sT put_s]. destruct (Nat.eq_dec d' d); [subst; rewrite put_neq by lia; auto|]. rewrite put_neq by lia. auto. }
  destruct X as (t1 & E1 & S1 & El1 & Em1 & Ec1 & Eo1).
  destruct d as [|d0].
  - cbn [propagate_sums]. rewrite E1. cbn [bind]. exists t1. split; auto. split; auto. split; auto. split; auto. split.
    + intros d' Hd' _. replace d' with 0 by lia. auto.
    + intros d' j' Hd'. apply Eo1. lia.
  - cbn [propagate_sums]. rewrite E1. cbn [bind]. destruct (Nat.odd (anc i (S d0))) eqn:OD.
    + rewrite anc_S by lia. pose proof (odd_half _ OD) as EQ. rewrite anc_S in EQ by lia.
      destruct (IHd d0 ltac:(lia) t1) as (t' & E & S' & El & Em & Ec & Eo); auto; try lia.
      * rewrite (sz_S d0) by lia. rewrite EQ in HE. nia.
      * intros d' Hd' Ho. rewrite Eo1. { apply HB; auto. }
        destruct (Nat.eq_dec d' d0); [|lia]. subst. right. right. pose proof (odd_half _ Ho). lia.
      * destruct (Nat.eqb_spec d0 m); [lia|]. auto.
      * exists t'. split; auto. split; auto. split; [intros; rewrite El; auto|]. split; [congruence|]. split.
        -- intros d' Hd' He. destruct (Nat.eq_dec d' (S d0)); [|apply Ec; auto; lia]. subst.
           rewrite Eo by lia. auto.
        -- intros d' j' Hd'. rewrite Eo by lia. apply Eo1. lia.
    + exists t1. split; auto. split; auto. split; auto. split; auto. split.
      * intros d' Hd' He. destruct (Nat.eq_dec d' (S d0)); [subst; auto|]. exfalso.
        (* the block of an ancestor ends at i+1 but this node is a left son *)
        assert (EV : Nat.even (anc i (S d0)) = true) by (rewrite <- Nat.negb_odd, OD; auto).
        apply even_half in EV. rewrite anc_S in EV by lia.
        assert (D : exists c, sz d' = c * (2 * sz (S d0))).
        { exists (2 ^ (S d0 - d' - 1)). unfold sz. rewrite <- Nat.pow_succ_r', <- Nat.pow_add_r. f_equal. lia. }
        destruct D as [c Ec]. rewrite Ec in He. rewrite EV in HE.
        assert (P := sz_pos (S d0)).
        assert ((anc i d' + 1) * c * 2 = 2 * anc i d0 + 1); [|lia].
        apply Nat.mul_cancel_r with (p := sz (S d0)); [lia|]. lia.
      * intros d' j' Hd'. apply Eo1. lia.
Qed.

Lemma slice_one : forall (v : list bool) i, i < length v -> slice i 1 v = [nth i v false].
Proof.
  intros v i Hi. unfold slice. replace i with (i + 0) at 2 by lia. rewrite <- skipn_nth.
  assert (length (skipn i v) = length v - i) by apply skipn_length. destruct (skipn i v); simpl in *; auto; lia.
Qed.
Lemma arikan_one : forall b, arikan 1 [b] = [b].
Proof. intros. unfold arikan, tab, arikan_bit. simpl. change (sub 0 0) with true. destruct b; auto. Qed.

Lemma post_pre : forall i t v, i < 2 ^ m -> length v = S i -> post i t v ->
  exists t', propagate_sums m m i t = Ret t' /\ pre (S i) t' v /\ met t' = met t.
Proof.
  intros i t v Hi Lv (HS & HR & HL & HB & HA).
  destruct (propagate_ok i v Hi Lv m t ltac:(lia)) as (t' & E & S' & El & Em & Ec & Eo); auto.
  { rewrite anc_m, sz_m. lia. }
  { rewrite Nat.eqb_refl. rewrite slice_one by lia. rewrite sz_m, arikan_one. apply HL. lia. }
  rewrite anc_m in E. exists t'. split; auto. split; auto.
  split; [auto|]. split; [|split; [|split]].
  - unfold rooty. rewrite El. exact HR.
  - intros k Hk. rewrite Eo by auto. apply HL. auto.
  - intros Hi'. split.
    + intros d Hd Ho. set (q := anc (S i) (S d)) in *.
      assert (Q1 := anc_le (S i) (S d)). assert (Q2 := anc_lt (S i) (S d)). fold q in Q1, Q2.
      assert (P := sz_pos (S d)). pose proof (odd_half _ Ho) as EQ.
      destruct (Nat.eq_dec (q * sz (S d)) (S i)).
      * assert (A : anc i (S d) = q - 1). { apply anc_uniq; nia. }
        rewrite <- A. apply Ec; [lia|]. rewrite A. replace (q - 1 + 1) with q by lia. auto.
      * assert (A : anc i (S d) = q). { apply anc_uniq; lia. }
        rewrite Eo by lia. rewrite <- A. apply HB; auto. rewrite A. auto.
    + intros d Hd He. rewrite El. apply HA; auto. lia.
  - intros Hi'. specialize (Ec 0 ltac:(lia)). rewrite anc_0 in Ec by auto. rewrite sz_0 in Ec.
    rewrite Ec by lia. f_equal. unfold slice. cbn [Nat.mul skipn]. apply firstn_all2. lia.
Qed.

(** ** Decisions *)
Lemma mid_post : forall i t u b x, i < 2 ^ m -> length u = i -> mid i t u ->
  post i (put_met (put_s t m i [b]) x) (u ++ [b]).
Proof.
  intros i t u b x Hi Lu (HS & HR & HL & HB & HA).
  split; [|split; [|split; [|split]]].
  - assert (X : sized (put_s t m i [b])) by (apply sized_put_s; auto; intros; rewrite sz_m; auto). exact X.
  - exact HR.
  - intros k Hk. cbn [sT put_met put_s]. destruct (Nat.eq_dec k i).
    + subst k. rewrite put_eq. rewrite app_nth2 by lia. rewrite Lu, Nat.sub_diag. auto.
    + rewrite put_neq by auto. rewrite HL by lia. rewrite app_nth1 by lia. auto.
  - intros d Hd Ho. cbn [sT put_met put_s]. pose proof (odd_half _ Ho) as EQ.
    assert (Q1 := anc_le i (S d)). assert (P := sz_pos (S d)).
    rewrite slice_app by nia. rewrite <- HB by auto.
    destruct (Nat.eq_dec (S d) m); [|rewrite put_neq by lia; auto].
    rewrite put_neq; auto. right. rewrite e, anc_m in *. lia.
  - intros Hi' d Hd He. cbn [lamT put_met put_s].
    assert (A : anc i d = anc (S i) d). { apply anc_uniq; auto. pose proof (anc_lt (S i) d). lia. }
    rewrite <- A in *. rewrite lamS_app by lia. apply HA. auto.
Qed.

Lemma mid_leaf : forall i t u, i < 2 ^ m -> mid i t u ->
  length (sT t m i) = 1 /\ lamT t m i = lamS m i u /\ length (lamT t m i) = 1.
Proof.
  intros i t u Hi (HS & HR & HL & HB & HA). destruct (HS m i ltac:(lia) Hi) as [A B]. rewrite sz_m in *.
  split; auto. split; auto. specialize (HA m ltac:(lia)). rewrite anc_m in HA. auto.
Qed.

Lemma wr_one : forall (s : list bool) b, length s = 1 -> wr s 0 b = Ret [b].
Proof. intros. destruct s as [|? [|? ?]]; try discriminate. reflexivity. Qed.

(** ** Duplication *)
Lemma dup_sums_ok : forall i a, i < 2 ^ m -> forall d caller b, d <= m ->
  (caller = (if d =? m then None else Some (anc i (S d)))) -> 
  exists b', dup_sums m d (anc i d) caller a b = Ret b' /\
    (forall d' j', lamT b' d' j' = lamT b d' j') /\ met b' = met b /\
    (forall d', d' <= d -> d' < m -> Nat.odd (anc i (S d')) = true ->
        sT b' (S d') (anc i (S d') - 1) = sT a (S d') (anc i (S d') - 1)) /\
    (forall d' j', (S d < d' \/ Nat.odd (anc i d') = false \/ j' <> anc i d' - 1) -> sT b' d' j' = sT b d' j') /\
    (sized a -> sized b -> sized b').
Proof.
  intros i a Hi. induction d; intros caller b Hd HC; cbn [dup_sums].
  - (* root *)
    set (b1 := if _ : bool then _ else _).
    assert (X : (forall d' j', lamT b1 d' j' = lamT b d' j') /\ met b1 = met b /\
       (0 < m -> Nat.odd (anc i 1) = true -> sT b1 1 (anc i 1 - 1) = sT a 1 (anc i 1 - 1)) /\
       (forall d' j', 1 < d' \/ Nat.odd (anc i d') = false \/ j' <> anc i d' - 1 -> sT b1 d' j' = sT b d' j') /\
       (sized a -> sized b -> sized b1)).
    { unfold b1. clear b1. subst caller. destruct (Nat.eqb_spec 0 m).
      - cbn [negb andb]. split; [auto|]. split; [auto|]. split; [lia|]. auto.
      - rewrite (anc_0 i) by auto.
        destruct (Nat.eqb_spec (anc i 1) (2 * 0)); cbn [negb andb].
        + split; [auto|]. split; [auto|]. split; [intros _ Ho; rewrite e in Ho; discriminate|]. auto.
        + assert (anc i 1 = 1). { pose proof (anc_bound i 1 ltac:(lia) Hi). simpl in H. lia. }
          rewrite H. split; [auto|]. split; [auto|]. split; [intros; cbn [sT put_s]; apply put_eq|]. split.
          * intros d' j' Hx. cbn [sT put_s]. destruct (Nat.eq_dec d' 1); [|apply put_neq; auto]. subst.
            rewrite H in Hx. apply put_neq. destruct Hx as [Hx|[Hx|Hx]]; try discriminate; lia.
          * intros Sa Sb. apply sized_put_s; auto. intros. apply Sa; auto. }
    destruct X as (X1 & X2 & X3 & X4 & X5). exists b1. split; auto. split; auto. split; auto. split; [|split]; auto.
    intros d' Hd' Hm Ho. assert (d' = 0) by lia. subst. auto.
  - set (b1 := if _ : bool then _ else _).
    assert (X : (forall d' j', lamT b1 d' j' = lamT b d' j') /\ met b1 = met b /\
       (S d < m -> Nat.odd (anc i (S (S d))) = true -> sT b1 (S (S d)) (anc i (S (S d)) - 1) = sT a (S (S d)) (anc i (S (S d)) - 1)) /\
       (forall d' j', d' <> S (S d) \/ Nat.odd (anc i d') = false \/ j' <> anc i d' - 1 -> sT b1 d' j' = sT b d' j') /\
       (sized a -> sized b -> sized b1)).
    { unfold b1. clear b1 IHd. subst caller. destruct (Nat.eqb_spec (S d) m).
      - cbn [negb andb]. split; [auto|]. split; [auto|]. split; [lia|]. auto.
      - assert (S d < m) by lia. pose proof (anc_S i (S d) H) as EA.
        destruct (Nat.eqb_spec (anc i (S (S d))) (2 * anc i (S d))); cbn [negb andb].
        + split; [auto|]. split; [auto|]. split; [|auto]. intros _ Ho. rewrite e, Nat.odd_mul in Ho. discriminate.
        + assert (OD : Nat.odd (anc i (S (S d))) = true).
          { destruct (Nat.odd (anc i (S (S d)))) eqn:OD; auto. exfalso.
            assert (EV : Nat.even (anc i (S (S d))) = true) by (rewrite <- Nat.negb_odd, OD; auto). apply even_half in EV. lia. }
          pose proof (odd_half _ OD) as EQ. rewrite EA in EQ. 
          assert (EQ' : anc i (S (S d)) - 1 = 2 * anc i (S d)) by lia.
          split; [auto|]. split; [auto|]. split; [intros; cbn [sT put_s]; rewrite EQ'; apply put_eq|]. split.
          * intros d' j' Hx. cbn [sT put_s]. destruct (Nat.eq_dec d' (S (S d))); [|apply put_neq; auto]. subst.
            rewrite OD in Hx. apply put_neq. destruct Hx as [Hx|[Hx|Hx]]; try discriminate; try lia. 
          * intros Sa Sb. apply sized_put_s; auto. intros. apply Sa; auto. }
    destruct X as (X1 & X2 & X3 & X4 & X5). rewrite anc_S by lia.
    destruct (IHd (Some (anc i (S d))) b1 ltac:(lia)) as (b' & E & Y1 & Y2 & Y3 & Y4 & Y5).
    { destruct (Nat.eqb_spec d m); [lia|]. auto. }
    exists b'. split; auto. split; [intros; rewrite Y1; auto|]. split; [congruence|]. split; [|split].
    + intros d' Hd' Hm Ho. destruct (Nat.eq_dec d' (S d)); [|apply Y3; auto; lia]. subst. rewrite Y4 by lia. auto.
    + intros d' j' Hx. rewrite Y4 by (destruct Hx as [?|[?|?]]; auto; lia). apply X4. destruct Hx as [?|[?|?]]; auto; lia.
    + auto.
Qed.

Lemma dup_llr_ok : forall i a, i < 2 ^ m -> forall d b, 0 < d -> d <= m ->
  exists b', dup_llr d (anc i d) a b = Ret b' /\
    (forall d' j', sT b' d' j' = sT b d' j') /\ met b' = met b /\
    (forall d', 0 < d' -> d' <= d -> lamT b' d' (anc i d') = lamT a d' (anc i d')) /\
    (forall d' j', d' = 0 \/ d < d' -> lamT b' d' j' = lamT b d' j') /\
    (sized a -> sized b -> sized b').
Proof.
  intros i a Hi. induction d; intros b Hd Hm; [lia|]. cbn [dup_llr].
  set (b1 := put_lam b (S d) (anc i (S d)) (lamT a (S d) (anc i (S d)))).
  assert (S1 : sized a -> sized b -> sized b1). { intros Sa Sb. apply sized_put_lam; auto. intros. apply Sa; auto. }
  destruct (Nat.eqb_spec d 0).
  - subst d. exists b1. split; auto. split; auto. split; auto. split; [|split]; auto.
    + intros d' H1 H2. replace d' with 1 by lia. cbn [lamT b1 put_lam]. apply put_eq.
    + intros d' j' H1. cbn [lamT b1 put_lam]. apply put_neq. lia.
  - rewrite anc_S by lia. destruct (IHd b1 ltac:(lia) ltac:(lia)) as (b' & E & Y1 & Y2 & Y3 & Y4 & Y5).
    exists b'. split; auto. split; [intros; rewrite Y1; auto|]. split; [rewrite Y2; auto|]. split; [|split]; auto.
    + intros d' H1 H2. destruct (Nat.eq_dec d' (S d)); [|apply Y3; lia]. subst. rewrite Y4 by lia.
      cbn [lamT b1 put_lam]. apply put_eq.
    + intros d' j' H1. rewrite Y4 by lia. cbn [lamT b1 put_lam]. apply put_neq. lia.
Qed.

Lemma copy_leaves_ok : forall n a b, exists b',
  for_ n (fun i b => Ret (put_s b m i (sT a m i))) b = Ret b' /\
  (forall d' j', lamT b' d' j' = lamT b d' j') /\ met b' = met b /\
  (forall k, k < n -> sT b' m k = sT a m k) /\
  (forall d' j', d' <> m \/ n <= j' -> sT b' d' j' = sT b d' j') /\
  (sized a -> sized b -> sized b').
Proof.
  induction n; intros a b.
  - exists b. split; auto. split; auto. split; auto. split; [intros; lia|]. auto.
  - rewrite for_S. destruct (IHn a b) as (b1 & E & Y1 & Y2 & Y3 & Y4 & Y5). rewrite E. cbn [bind].
    eexists. split; [reflexivity|]. cbn [lamT sT met put_s]. split; auto. split; auto. split; [|split].
    + intros k Hk. destruct (Nat.eq_dec k n); [subst; apply put_eq|]. rewrite put_neq by auto. apply Y3. lia.
    + intros d' j' H. rewrite put_neq by lia. apply Y4. lia.
    + intros Sa Sb. apply sized_put_s; auto. intros. apply Sa; auto.
Qed.

Lemma duplicate_tree_ok : forall i a b u, i < 2 ^ m -> length u = i -> mid i a u -> sized b -> rooty b ->
  exists b', bind (for_ i (fun k b => Ret (put_s b m k (sT a m k))) b) (fun b =>
               bind (dup_sums m m i None a b) (fun b =>
               if i <? 2 ^ m - 1 then dup_llr m (i + 1) a b else Ret b)) = Ret b' /\
    length (sT b' m i) = 1 /\
    forall x, post i (put_met (put_s b' m i [true]) x) (u ++ [true]).
Proof.
  intros i a b u Hi Lu (HS & HR & HL & HB & HA) Sb Rb.
  destruct (copy_leaves_ok i a b) as (b1 & E1 & P1 & P2 & P3 & P4 & P5). rewrite E1. cbn [bind].
  destruct (dup_sums_ok i a Hi m None b1 ltac:(lia)) as (b2 & E2 & Q1 & Q2 & Q3 & Q4 & Q5).
  { rewrite Nat.eqb_refl. auto. }
  rewrite anc_m in E2. rewrite E2. cbn [bind].
  assert (X : exists b3, (if i <? 2 ^ m - 1 then dup_llr m (i + 1) a b2 else Ret b2) = Ret b3 /\
     (forall d' j', sT b3 d' j' = sT b2 d' j') /\ lamT b3 0 0 = lamT b 0 0 /\
     (S i < 2 ^ m -> forall d, 0 < d -> d <= m -> lamT b3 d (anc (S i) d) = lamT a d (anc (S i) d)) /\
     sized b3).
  { destruct (Nat.ltb_spec i (2 ^ m - 1)).
    - assert (0 < m) by (destruct m; simpl in *; lia).
      destruct (dup_llr_ok (S i) a ltac:(lia) m b2) as (b3 & E3 & Y1 & Y2 & Y3 & Y4 & Y5); try lia.
      rewrite anc_m in E3. replace (i + 1) with (S i) by lia. exists b3. split; auto. split; auto. split; [|split]; auto.
      rewrite Y4 by auto. rewrite Q1, P1. auto.
    - exists b2. split; auto. split; auto. split; [rewrite Q1, P1; auto|]. split; [lia|]. auto. }
  destruct X as (b3 & E3 & Y1 & Y2 & Y3 & Y5). exists b3. split; auto.
  split. { destruct (Y5 m i ltac:(lia) Hi) as [_ A]. rewrite sz_m in A. auto. }
  intros x. split; [|split; [|split; [|split]]].
  - assert (X : sized (put_s b3 m i [true])) by (apply sized_put_s; auto; intros; rewrite sz_m; auto). exact X.
  - unfold rooty. cbn [lamT put_met put_s]. rewrite Y2. exact Rb.
  - intros k Hk. cbn [sT put_met put_s]. destruct (Nat.eq_dec k i).
    + subst k. rewrite put_eq. rewrite app_nth2 by lia. rewrite Lu, Nat.sub_diag. auto.
    + rewrite put_neq by auto. rewrite app_nth1 by lia. rewrite Y1. rewrite <- HL by lia.
      destruct (Nat.odd (anc i m)) eqn:OD.
      * destruct (Nat.eq_dec k (i - 1)).
        -- assert (Hm : m <> 0) by (intros Z0; rewrite Z0 in Hi; simpl in Hi; lia).
           specialize (Q3 (m - 1)). replace (S (m - 1)) with m in Q3 by lia.
           specialize (Q3 ltac:(lia) ltac:(lia) OD). rewrite anc_m in Q3. rewrite e. auto.
        -- rewrite Q4; [apply P3; lia|]. rewrite anc_m. auto.
      * rewrite Q4; [apply P3; lia|]. auto.
  - intros d Hd Ho. cbn [sT put_met put_s]. pose proof (odd_half _ Ho) as EQ.
    assert (Q := anc_le i (S d)). assert (P := sz_pos (S d)).
    rewrite slice_app by nia. rewrite <- HB by auto.
    assert (X : sT b3 (S d) (anc i (S d) - 1) = sT a (S d) (anc i (S d) - 1)). { rewrite Y1. apply Q3; auto. lia. }
    destruct (Nat.eq_dec (S d) m); [|rewrite put_neq by lia; auto].
    rewrite put_neq; auto. right. rewrite e, anc_m in *. lia.
  - intros Hi' d Hd He. cbn [lamT put_met put_s].
    assert (A : anc i d = anc (S i) d). { apply anc_uniq; auto. pose proof (anc_lt (S i) d). lia. }
    rewrite lamS_app by lia. destruct d as [|d].
    + rewrite anc_0 by auto. rewrite Y2. exact Rb.
    + rewrite Y3 by lia. rewrite <- A. apply HA. auto.
Qed.

(** The LLR of the leaf is the one of successive cancellation. *)
Lemma map2_tab : forall A B C (h : A -> B -> C) a b da db n, length a = n -> length b = n ->
  map2 h a b = tab n (fun i => h (nth i a da) (nth i b db)).
Proof.
  intros A B C h a. induction a; intros b da db n La Lb; destruct b; simpl in *; subst; try discriminate; auto.
  unfold tab. cbn [seq map nth]. f_equal. rewrite <- seq_shift, map_map. rewrite (IHa b0 da db (length a0)) by congruence. auto.
Qed.

Lemma lamS_sc : forall i u, i < 2 ^ m -> length u = i -> forall d, d <= m ->
  sc_llr F G (m - d) (lamS d (anc i d) u) (skipn (anc i d * sz d) u) = sc_llr F G m y u.
Proof.
  intros i u Hi Lu. induction d; intros Hd.
  - rewrite Nat.sub_0_r, anc_0 by auto. reflexivity.
  - rewrite <- IHd by lia. replace (m - d) with (S (m - S d)) by lia. cbn [sc_llr].
    change (2 ^ (m - S d)) with (sz (S d)). unfold lo, hi. change (2 ^ (m - S d)) with (sz (S d)).
    assert (L := length_lamS d (anc i d) u). rewrite (sz_S d) in L by lia.
    assert (Q1 := anc_le i (S d)). assert (Q2 := anc_lt i (S d)). assert (Q3 := anc_le i d).
    assert (EA := anc_S i d ltac:(lia)). rewrite skipn_length, Lu. cbn [lamS]. rewrite EA.
    set (P := lamS d (anc i d) u) in *. set (h := sz (S d)) in *.
    assert (Eh : sz d = 2 * h) by (apply sz_S; lia). rewrite Eh in *.
    destruct (Nat.even (anc i (S d))) eqn:EV.
    + apply even_half in EV. rewrite EA in EV. rewrite EV in Q2 |- *.
      destruct (Nat.ltb_spec (i - anc i d * (2 * h)) h); [|nia].
      replace (2 * anc i d * h) with (anc i d * (2 * h)) by ring. f_equal.
      rewrite (map2_tab _ _ _ F _ _ 0%Z 0%Z h) by (rewrite ?firstn_length, ?skipn_length; lia).
      apply tab_ext. intros k Hk. rewrite nth_firstn_lt by auto. rewrite skipn_nth. auto.
    + assert (OD : Nat.odd (anc i (S d)) = true) by (rewrite <- Nat.negb_even, EV; auto).
      apply odd_half in OD. rewrite EA in OD. rewrite OD in Q1 |- *.
      replace ((2 * anc i d + 1) * h) with (anc i d * (2 * h) + h) in Q1 by ring.
      destruct (Nat.ltb_spec (i - anc i d * (2 * h)) h); [lia|].
      rewrite skipn_skipn_add. replace ((2 * anc i d + 1) * h) with (anc i d * (2 * h) + h) by ring. f_equal.
      replace ((2 * anc i d + 1 - 1) * h) with (anc i d * (2 * h)) by nia.
      rewrite (map2_tab _ _ _ _ _ _ (0, 0)%Z false h); rewrite ?combine_length, ?firstn_length, ?skipn_length, ?length_arikan; try lia.
      apply tab_ext. intros k Hk. rewrite combine_nth by (rewrite firstn_length, skipn_length; lia). cbn [fst snd].
      rewrite nth_firstn_lt by auto. rewrite skipn_nth. auto.
Qed.

Lemma lamS_leaf : forall i u, i < 2 ^ m -> length u = i -> lamS m i u = [sc_llr F G m y u].
Proof.
  intros i u Hi Lu. assert (E := lamS_sc i u Hi Lu m ltac:(lia)). rewrite Nat.sub_diag, anc_m in E.
  assert (L := length_lamS m i u). rewrite sz_m in L. destruct (lamS m i u) as [|z [|? ?]]; try discriminate.
  cbn [sc_llr hd] in E. subst. auto.
Qed.
End T.
