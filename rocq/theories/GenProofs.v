(** Generation of G from H, and the encoders built on H. *)
From Coq Require Import List Arith Lia Bool ZArith Permutation.
From Verif Require Import Base Copy GaloisModel SparseModel SparseSpec SparseProofs FullModel FullSpec FullProofs LDPCModel LDPCSpec LDPCProofs LUProofs.
Import ListNotations.

(* ------------------------------------------------------------------ *)
(** * Orientation *)
Lemma turn_vertical : forall S n m f, given S n m f -> sp_ok (sp_turn S VERTICAL) n m f.
Proof.
  intros S n m f (L & [K|(LT & K)]); apply sp_is_ok in K; pose proof K as (R & C & _); unfold sp_turn; rewrite R, C.
  - rewrite (proj2 (Nat.ltb_ge n m)) by auto. auto.
  - rewrite (proj2 (Nat.ltb_lt m n)) by auto. apply transpose_ok in K. exact K.
Qed.
Lemma turn_horizontal : forall S n m f, given S n m f -> m < n -> sp_ok (sp_turn S HORIZONTAL) m n (fun i j => f j i).
Proof.
  intros S n m f (L & [K|(LT & K)]) Hl; apply sp_is_ok in K; pose proof K as (R & C & _); unfold sp_turn; rewrite R, C.
  - rewrite (proj2 (Nat.ltb_lt m n)) by auto. apply transpose_ok in K. exact K.
  - rewrite (proj2 (Nat.ltb_ge n m)) by lia. auto.
Qed.

(* ------------------------------------------------------------------ *)
(** * Systematic encoding *)

(** Parity bits obtained with the inverse of the parity part of H. *)
Lemma sys_in_code : forall K M h b x, solves M (fun i j => h (K + j) i) b ->
  (forall i, i < M -> x (K + i) = parity M (fun q => b i q && parity K (fun v => h v q && x v))) -> in_code (K + M) M h x.
Proof.
  intros K M h b x S H c Hc. rewrite par_add. apply xorb_eq_false. symmetry.
  apply (proj2 (S (fun j => x (K + j)) (fun q => parity K (fun v => h v q && x v)))); auto.
Qed.

(** G = [I | P^t]: entries of the generator matrix, K x N. *)
Definition gen_of (K M : nat) (h b : nat -> nat -> bool) (i j : nat) : bool :=
  if j <? K then i =? j else bit_prod M b (fun q i => h i q) (j - K) i.

Lemma H_to_G_LU_ok : forall nel F M K h, 0 < nel -> 0 < M -> 0 < K -> arr F M (K + M) (fun i j => b2z (h j i)) ->
  (exists G b, H_to_G_LU nel F = Ret (G, seq 0 K) /\ arr G K (K + M) (fun i j => b2z (gen_of K M h b i j)) /\ solves M (fun i j => h (K + j) i) b) \/
  (H_to_G_LU nel F = Throws /\ singular M (fun i j => h (K + j) i)).
Proof.
  intros nel F M K h HN HM HK A. pose proof A as (RF & CF & _). unfold H_to_G_LU. rewrite RF, CF. replace (K + M - M) with K by lia. unfold LU_full. rewrite RF, CF. rewrite (proj2 (Nat.leb_le M (K + M))) by lia. cbn [guard bind].
  destruct (fu_resize_ok _ _ _ _ M M TOP_RIGHT A) as (t1 & E1 & H1); [intros _; lia|]. rewrite E1. cbn [bind].
  match goal with |- context [LU_decomp ?P] => destruct (LU_decomp_ok P M (fun i j => h (K + j) i) HM) as [(Gp & b & E2 & A2 & SV)|(E2 & SG)] end.
  { split; [auto|]. split; [auto|]. cbn [fu_m]. revert H1. apply mat_ext; auto. intros i j Hi Hj. unfold resized. cbn [src_row src_col]. unfold src_first, src_last. rewrite (proj2 (Nat.ltb_lt i M)) by auto. rewrite (proj2 (Nat.leb_le M (j + (K + M)))) by lia. replace (j + (K + M) - M) with (K + j) by lia. auto. }
  2: { right. rewrite E2. auto. }
  left. rewrite E2. cbn [bind].
  destruct (fu_resize_ok _ _ _ _ M K TOP_LEFT A) as (t3 & E3 & H3); [discriminate|]. rewrite E3. cbn [bind].
  match goal with |- context [fu_transpose ?P] => destruct (fu_transpose_mat P M K _ eq_refl eq_refl H3) as (t4 & E4 & H4) end. rewrite E4. cbn [bind].
  match goal with |- context [fu_bgemmt nel Gp ?P] => destruct (fu_bgemmt_ok nel Gp P M M K _ _ HN A2 (conj eq_refl (conj eq_refl H4))) as (C & E5 & (R5 & C5 & H5)) end. rewrite E5. cbn [bind].
  destruct (fu_transpose_mat C M K _ R5 C5 H5) as (t6 & E6 & H6). rewrite E6. cbn [bind].
  match goal with |- context [fu_resize ?P K (K + M) TOP_RIGHT] => destruct (fu_resize_ok P K M _ K (K + M) TOP_RIGHT (conj eq_refl (conj eq_refl H6))) as (t7 & E7 & H7) end. { intros _. lia. } rewrite E7. cbn [bind fu_m fu_rows fu_cols fu_rmax fu_cmax fu_n fu_rd fu_cd].
  destruct (for_inv _ (fun k u => bm u K (K + M) (fun i j => if j <? K then (i <? k) && (i =? j) else bit_prod M b (fun q i => h i q) (j - K) i)) K (fun r t => set2 t r r 1%Z) t7) as (t8 & E8 & H8).
  { revert H7. apply mat_ext; auto. intros i j Hi Hj. unfold resized. cbn [src_row src_col]. unfold src_first, src_last. rewrite (proj2 (Nat.ltb_lt i K)) by auto.
    destruct (Nat.leb_spec (K + M) (j + M)), (Nat.ltb_spec j K); try lia; auto. replace (j + M - (K + M)) with (j - K) by lia. f_equal.
    unfold bit_prod. f_equal. apply map_ext_in. intros q Q. apply in_seq in Q. unfold nzf. rewrite nz_b2z. f_equal.
    rewrite (proj2 (Nat.ltb_lt q M)) by lia. rewrite (proj2 (Nat.ltb_lt i (K + M))) by lia. apply nz_b2z. }
  { intros k u Hk H. destruct (bm_set _ _ _ _ k k true H) as (u' & E & H'); [lia|lia|]. exists u'. split; auto. eapply bm_ext; [|exact H']. intros i j Hi Hj. cbn beta.
    destruct (Nat.eqb_spec i k), (Nat.eqb_spec j k), (Nat.ltb_spec j K), (Nat.ltb_spec i k), (Nat.ltb_spec i (S k)), (Nat.eqb_spec i j); cbn [andb]; auto; lia. }
  rewrite E8. cbn [bind]. eexists. exists b. split; [reflexivity|]. split; [|auto]. split; [auto|]. split; [auto|]. cbn [fu_m]. eapply bm_ext; [|exact H8]. intros i j Hi Hj. cbn beta. unfold gen_of. rewrite (proj2 (Nat.ltb_lt i K)) by auto. auto.
Qed.

Lemma H_to_G_LU_sparse_ok : forall nel S M K h, 0 < nel -> 0 < M -> 0 < K -> sp_ok S M (K + M) (fun i j => h j i) ->
  (exists G b, H_to_G_LU_sparse nel S = Ret (G, seq 0 K) /\ sp_ok G K (K + M) (gen_of K M h b) /\ solves M (fun i j => h (K + j) i) b) \/
  (H_to_G_LU_sparse nel S = Throws /\ singular M (fun i j => h (K + j) i)).
Proof.
  intros nel S M K h HN HM HK A. pose proof A as (R & C & _). unfold H_to_G_LU_sparse. rewrite R, C. rewrite (proj2 (Nat.leb_le M (K + M))) by lia. cbn [guard bind].
  destruct (to_full_ok _ _ _ _ A) as (F & E & KF). rewrite E. cbn [bind].
  destruct (H_to_G_LU_ok nel F M K h HN HM HK) as [(G & b & E1 & A1 & SV)|(E1 & SG)].
  - destruct KF as (X & Y & Z & _). split; [auto|]. split; auto.
  - left. rewrite E1. cbn [bind]. destruct (to_sparse_ok _ _ _ _ A1) as (S' & E2 & A2). rewrite E2. cbn [bind]. exists S', b. split; [auto|]. split; [|auto]. eapply sp_ok_ext; [|exact A2]. intros i j _ _. unfold nzf. apply nz_b2z.
  - right. rewrite E1. auto.
Qed.

(* ------------------------------------------------------------------ *)
(** * Encoders that accumulate on the checks *)
Lemma bit_b2z : forall U l, bits U -> nth l U 0%Z = b2z (bit U l).
Proof. intros U l B. unfold bit. destruct (Nat.lt_ge_cases l (length U)). 2: { rewrite nth_overflow by auto. auto. } destruct (B (nth l U 0%Z)) as [-> | ->]; [apply nth_In; auto|auto|auto]. Qed.

Lemma xacc_ok : forall op U K k, (forall a b, op (b2z a) (b2z b) = b2z (xorb a b)) -> bits U -> K <= length U -> forall links X x, k < length X -> nth k X 0%Z = b2z x ->
  each links (fun l X => if l <? K then x <- rd X k ;; u <- rd U l ;; wr X k (op x u) else Ret X) X =
  Ret (upd X k (b2z (xorb x (fold_right xorb false (map (fun l => (l <? K) && bit U l) links))))).
Proof.
  intros op U K k HO B LU. induction links as [|l links IH]; intros X x Hk Hx; cbn [each map fold_right].
  - rewrite xorb_false_r, <- Hx. f_equal. apply (list_eq_nth _ 0%Z). { rewrite length_upd. auto. } intros i Hi. destruct (Nat.eq_dec i k) as [->|N]. { rewrite nth_upd_eq by auto. auto. } rewrite nth_upd_neq by auto. auto.
  - destruct (Nat.ltb_spec l K); cbn [andb bind].
    + rewrite (rd_ok _ 0%Z) by auto. cbn [bind]. rewrite (rd_ok _ 0%Z) by lia. cbn [bind]. rewrite wr_ok by auto. cbn [bind]. rewrite Hx, (bit_b2z U l B), HO. rewrite (IH _ (xorb x (bit U l))).
      * rewrite xorb_assoc. f_equal. apply (list_eq_nth _ 0%Z). { rewrite !length_upd. auto. } intros i Hi. rewrite !length_upd in Hi. destruct (Nat.eq_dec i k) as [->|N]. { rewrite !nth_upd_eq by (rewrite ?length_upd; auto). auto. } rewrite !nth_upd_neq by auto. auto.
      * rewrite length_upd. auto.
      * rewrite nth_upd_eq by auto. auto.
    + rewrite (IH X x) by auto. rewrite xorb_false_l. auto.
Qed.

(** The information part of check c. *)
Lemma info_par : forall K N (h : nat -> nat -> bool) U c, K <= N -> parity N (fun v => h v c && ((v <? K) && bit U v)) = parity K (fun v => h v c && bit U v).
Proof.
  intros K N h U c L. replace N with (K + (N - K)) by lia. rewrite par_add, (par_false (N - K)), xorb_false_r.
  - apply par_ext. intros v Hv. rewrite (proj2 (Nat.ltb_lt v K)) by auto. auto.
  - intros i _. rewrite (proj2 (Nat.ltb_ge (K + i) K)) by lia. apply andb_false_r.
Qed.

Lemma ira_sum_ok : forall K N M h H U c k X x, sp_ok H N M h -> c < M -> K <= N -> bits U -> length U = K -> k < length X -> nth k X 0%Z = b2z x ->
  ira_sum K H U c k X = Ret (upd X k (b2z (xorb x (parity K (fun v => h v c && bit U v))))).
Proof.
  intros K N M h H U c k X x S Hc L B LU Hk Hx. unfold ira_sum. destruct (col_ok _ _ _ _ c S Hc) as (l & E & ND & HI). rewrite E. cbn [bind].
  rewrite (xacc_ok Z.lxor U K k lxor_b2z B ltac:(lia) l X x) by auto. rewrite (links_par N (fun v => h v c) (fun v => (v <? K) && bit U v) l ND HI). rewrite info_par by auto. auto.
Qed.

(** Accumulated parity. *)
Fixpoint accu (s : nat -> bool) (i : nat) : bool := match i with 0 => s 0 | S i' => xorb (accu s i') (s i) end.

Lemma ira_encode_ok : forall e K M h U X, le_K e = K -> le_N e = K + M -> sp_ok (le_H e) (K + M) M h -> 0 < M -> bits U -> length U = K -> length X = K + M ->
  ira_encode e U X = Ret (U ++ map (fun i => b2z (accu (fun c => parity K (fun v => h v c && bit U v)) i)) (seq 0 M)).
Proof.
  intros e K M h U X EK EN S HM B LU LX. unfold ira_encode. rewrite EK, EN. replace (K + M - K) with M by lia. set (s := fun c => parity K (fun v => h v c && bit U v)).
  destruct (copy_spec _ 0%Z U 0 K X 0) as (X1 & E1 & L1 & A1 & _); [lia|lia|]. rewrite E1. cbn [bind].
  destruct (fill_spec _ 0%Z M X1 K 0%Z) as (X2 & E2 & L2 & A2 & B2); [lia|]. rewrite E2. cbn [bind].
  rewrite (ira_sum_ok K (K + M) M h (le_H e) U 0 K X2 false S); auto; try lia.
  2: { rewrite <- (Nat.add_0_r K) at 1. rewrite A2 by lia. auto. }
  cbn [bind].
  match goal with |- context [for_from 1 ?c ?body ?s0] => destruct (for_from_inv _ (fun k Y => length Y = K + M /\ (forall i, i < K -> nth i Y 0%Z = nth i U 0%Z) /\ forall i, i < k -> nth (K + i) Y 0%Z = b2z (accu s i)) c 1 body s0) as (Y & E & LY & YA & YB) end.
  - rewrite length_upd. split; [lia|]. split. { intros i Hi. rewrite nth_upd_neq by lia. rewrite B2 by lia. apply (A1 i). auto. } intros i Hi. replace i with 0 by lia. rewrite Nat.add_0_r, nth_upd_eq by lia. rewrite xorb_false_l. auto.
  - intros k Y Hk (LY & YA & YB). rewrite (rd_ok _ 0%Z) by lia. cbn [bind]. rewrite wr_ok by lia. cbn [bind]. rewrite YB by lia.
    rewrite (ira_sum_ok K (K + M) M h (le_H e) U k (K + k) _ (accu s (k - 1)) S); auto; try lia.
    + eexists. split; [reflexivity|]. rewrite !length_upd. split; [auto|]. split. { intros i Hi. rewrite !nth_upd_neq by lia. auto. } intros i Hi. destruct (Nat.eq_dec i k) as [->|N].
      * rewrite nth_upd_eq by (rewrite length_upd; lia). destruct k; [lia|]. cbn [accu]. rewrite Nat.sub_succ, Nat.sub_0_r. auto.
      * rewrite !nth_upd_neq by lia. apply YB. lia.
    + rewrite length_upd. lia.
    + rewrite nth_upd_eq by lia. auto.
  - rewrite E. f_equal. apply (list_eq_nth _ 0%Z). { rewrite app_length, map_length, seq_length. lia. } intros i Hi. destruct (Nat.lt_ge_cases i K).
    + rewrite app_nth1 by lia. auto.
    + rewrite app_nth2 by lia. replace i with (K + (i - K)) at 1 by lia. rewrite YB by lia. rewrite LU. rewrite (nth_indep _ 0%Z (b2z (accu s 0))) by (rewrite map_length, seq_length; lia). rewrite (map_nth (fun i => b2z (accu s i))). rewrite seq_nth by lia. auto.
Qed.

Lemma bit_sys : forall U M p v, length U = v -> forall i, i < M -> bit (U ++ map (fun i => b2z (p i)) (seq 0 M)) (v + i) = p i.
Proof.
  intros U M p v LU i Hi. unfold bit. rewrite app_nth2 by lia. replace (v + i - length U) with i by lia. rewrite (nth_indep _ 0%Z (b2z (p 0))) by (rewrite map_length, seq_length; lia). rewrite (map_nth (fun i => b2z (p i))). rewrite seq_nth by lia. cbn [Nat.add]. apply (nz_b2z (p i)).
Qed.
Lemma bit_sys0 : forall U V i, i < length U -> bit (U ++ V) i = bit U i.
Proof. intros. unfold bit. rewrite app_nth1 by auto. auto. Qed.
Lemma bits_sys : forall U M p, bits U -> bits (U ++ map (fun i => b2z (p i)) (seq 0 M)).
Proof. intros U M p B z I. apply in_app_iff in I. destruct I as [I|I]; [apply B; auto|]. apply in_map_iff in I. destruct I as (i & <- & _). destruct (p i); auto. Qed.

Lemma ira_in_code : forall K M h U, dual_diagonal K M h -> length U = K ->
  in_code (K + M) M h (bit (U ++ map (fun i => b2z (accu (fun c => parity K (fun v => h v c && bit U v)) i)) (seq 0 M))).
Proof.
  intros K M h U DD LU c Hc. set (s := fun c => parity K (fun v => h v c && bit U v)). rewrite par_add.
  rewrite (par_ext K _ (fun v => h v c && bit U v)). 2: { intros v Hv. rewrite bit_sys0 by lia. auto. }
  change (parity K (fun v => h v c && bit U v)) with (s c).
  rewrite (par_ext M _ (fun i => ((i =? c) || (S i =? c)) && accu s i)). 2: { intros i Hi. rewrite (DD i c) by auto. rewrite (bit_sys U M (accu s) K LU i Hi). auto. }
  assert (X : parity M (fun i => ((i =? c) || (S i =? c)) && accu s i) = xorb (accu s c) (match c with 0 => false | S c' => accu s c' end)).
  { rewrite (par_ext M _ (fun i => xorb ((i =? c) && accu s i) ((S i =? c) && accu s i))). 2: { intros i _. destruct (Nat.eqb_spec i c), (Nat.eqb_spec (S i) c), (accu s i); auto; lia. }
    rewrite par_xor. f_equal.
    - rewrite (par_one M _ c); auto. { rewrite Nat.eqb_refl. auto. } intros j _ N. apply Nat.eqb_neq in N. rewrite N. auto.
    - destruct c. { apply par_false. auto. } rewrite (par_one M _ c); [|lia|]. { rewrite Nat.eqb_refl. auto. } intros j _ N. destruct (Nat.eqb_spec (S j) (S c)); [lia|auto]. }
  rewrite X. destruct c; cbn [accu]; [destruct (s 0)|destruct (accu s c), (s (S c))]; auto.
Qed.

(* ------------------------------------------------------------------ *)
(** * QC encoder *)
Lemma cast8_b2z : forall a b, cast 8 (Z.lxor (b2z a) (b2z b)) = b2z (xorb a b).
Proof. destruct a, b; reflexivity. Qed.
Lemma land_b2z : forall a b, Z.land (b2z a) (b2z b) = b2z (a && b).
Proof. destruct a, b; reflexivity. Qed.

Lemma qc_encode_ok : forall e K M h F b U X, le_K e = K -> le_N e = K + M -> sp_ok (le_H e) (K + M) M h -> arr F M M (fun i j => b2z (b i j)) -> bits U -> length U = K -> length X = K + M ->
  qc_encode e F U X = Ret (U ++ map (fun i => b2z (parity M (fun q => b i q && parity K (fun v => h v q && bit U v)))) (seq 0 M)).
Proof.
  intros e K M h F b U X EK EN S (_ & _ & HF) B LU LX. unfold qc_encode. rewrite EK, EN. replace (K + M - K) with M by lia. set (s := fun c => parity K (fun v => h v c && bit U v)).
  destruct (copy_spec _ 0%Z U 0 K X 0) as (X1 & E1 & L1 & A1 & _); [lia|lia|]. rewrite E1. cbn [bind].
  match goal with |- context [for_ M ?body (repeat 0%Z M)] => destruct (for_inv _ (fun k P => length P = M /\ forall i, i < M -> nth i P 0%Z = if i <? k then b2z (s i) else 0%Z) M body (repeat 0%Z M)) as (P & E & LP & HP) end.
  - rewrite repeat_length. split; auto. intros i Hi. rewrite nth_repeat_lt by auto. auto.
  - intros k P Hk (LP & HP). destruct (col_ok _ _ _ _ k S Hk) as (l & E & ND & HI). rewrite E. cbn [bind].
    rewrite (xacc_ok (fun x u => cast 8 (Z.lxor x u)) U K k cast8_b2z B ltac:(lia) l P false); [|lia|rewrite HP by auto; rewrite Nat.ltb_irrefl; auto].
    eexists. split; [reflexivity|]. rewrite length_upd. split; auto. rewrite xorb_false_l. rewrite (links_par (K + M) (fun v => h v k) (fun v => (v <? K) && bit U v) l ND HI). rewrite info_par by lia.
    intros i Hi. destruct (Nat.eq_dec i k) as [->|N]. { rewrite nth_upd_eq by lia. rewrite (proj2 (Nat.ltb_lt k (Datatypes.S k))) by lia. auto. } rewrite nth_upd_neq by auto. rewrite HP by auto. destruct (Nat.ltb_spec i k), (Nat.ltb_spec i (Datatypes.S k)); auto; lia.
  - rewrite E. cbn [bind].
    match goal with |- context [for_ M ?body X1] => destruct (for_inv _ (fun k Y => length Y = K + M /\ (forall i, i < K -> nth i Y 0%Z = nth i U 0%Z) /\ forall i, i < k -> nth (K + i) Y 0%Z = b2z (parity M (fun q => b i q && s q))) M body X1) as (Y & E3 & LY & YA & YB) end.
    + split; [lia|]. split; [|intros; lia]. intros i Hi. apply (A1 i). auto.
    + intros k Y Hk (LY & YA & YB). rewrite wr_ok by lia. cbn [bind].
      match goal with |- context [for_ M ?body ?s0] => destruct (for_inv _ (fun j V => V = upd Y (K + k) (b2z (parity j (fun q => b k q && s q)))) M body s0) as (V & E4 & ->) end.
      * auto.
      * intros j V Hj ->. rewrite (rd_ok _ 0%Z) by (rewrite length_upd; lia). cbn [bind]. rewrite nth_upd_eq by lia. rewrite (rd_ok _ 0%Z) by lia. cbn [bind]. rewrite HP, (proj2 (Nat.ltb_lt j M)) by auto. rewrite (bm_get _ _ _ b _ _ HF) by auto. cbn [bind]. rewrite wr_ok by (rewrite length_upd; lia).
        eexists. split; [reflexivity|]. rewrite land_b2z, lxor_b2z, par_S, (andb_comm (s j)). apply (list_eq_nth _ 0%Z). { rewrite !length_upd. auto. } intros i Hi. rewrite !length_upd in Hi. destruct (Nat.eq_dec i (K + k)) as [->|N]. { rewrite !nth_upd_eq by (rewrite ?length_upd; lia). auto. } rewrite !nth_upd_neq by auto. auto.
      * rewrite E4. eexists. split; [reflexivity|]. rewrite length_upd. split; [auto|]. split. { intros i Hi. rewrite nth_upd_neq by lia. auto. } intros i Hi. destruct (Nat.eq_dec i k) as [->|N]. { rewrite nth_upd_eq by lia. auto. } rewrite nth_upd_neq by lia. apply YB. lia.
    + rewrite E3. f_equal. apply (list_eq_nth _ 0%Z). { rewrite app_length, map_length, seq_length. lia. } intros i Hi. destruct (Nat.lt_ge_cases i K).
      * rewrite app_nth1 by lia. auto.
      * rewrite app_nth2 by lia. replace i with (K + (i - K)) at 1 by lia. rewrite YB by lia. rewrite LU. rewrite (nth_indep _ 0%Z (b2z (parity M (fun q => b 0 q && s q)))) by (rewrite map_length, seq_length; lia). rewrite (map_nth (fun i => b2z (parity M (fun q => b i q && s q)))). rewrite seq_nth by lia. auto.
Qed.

Lemma LU_sparse_ok : forall S K M h, given S (K + M) M h -> 0 < M -> 0 < K -> (Z.of_nat (K + M) < 2 ^ 31)%Z ->
  (exists F b, LU_sparse S = Ret F /\ arr F M M (fun i j => b2z (b i j)) /\ solves M (fun i j => h (K + j) i) b) \/ (LU_sparse S = Throws /\ singular M (fun i j => h (K + j) i)).
Proof.
  intros S K M h G HM HK BD. pose proof (turn_horizontal _ _ _ _ G ltac:(lia)) as T. unfold LU_sparse. pose proof T as (R & C & _). rewrite R.
  destruct (resize_ok _ _ _ _ M M TOP_RIGHT T) as (S' & E & K'); try lia. rewrite E. cbn [bind]. destruct (to_full_ok _ _ _ _ K') as (F & E2 & KF). rewrite E2. cbn [bind].
  apply LU_decomp_ok; auto. destruct KF as (X & Y & Z & _). split; [auto|]. split; [auto|]. revert Z. apply mat_ext; auto. intros i j Hi Hj. cbn [src_row src_col]. unfold src_first, src_last. rewrite (proj2 (Nat.ltb_lt i M)) by auto. rewrite (proj2 (Nat.leb_le M (j + (K + M)))) by lia. replace (j + (K + M) - M) with (K + j) by lia. auto.
Qed.
