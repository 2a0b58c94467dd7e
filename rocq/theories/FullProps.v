(** C37 and the dense half of C38. *)
From Coq Require Import List Arith Lia Bool ZArith Permutation.
From Verif Require Import Base SparseModel SparseSpec SparseProofs FullModel FullSpec FullProofs.
Import ListNotations.

Theorem C37_new : forall n m, fu_exact (fu_new n m) n m (fun _ _ => 0%Z).
Proof. intros. apply fu_exact_ok. apply fu_new_ok. Qed.

Theorem C37_identity : forall n m, exists M, fu_identity n m = Ret M /\ fu_exact M n m (fun i j => if i =? j then 1%Z else 0%Z).
Proof. intros. destruct (fu_identity_ok n m) as (M & E & K). exists M. split; auto. apply fu_exact_ok. auto. Qed.

(** One call: it throws exactly in the documented cases, and otherwise has the documented effect and leaves an
    object whose observers all agree. *)
Theorem C37_call : forall M n m g op, fu_exact M n m g -> fu_op_ok n m op ->
  (fu_error n m g op /\ fu_call M op = Throws) \/
  (~ fu_error n m g op /\ exists M' n' m' g', fu_call M op = Ret M' /\ fu_spec n m g op n' m' g' /\ fu_exact M' n' m' g').
Proof.
  intros M n m g op K OK. apply fu_exact_ok in K. pose proof K as (R & C & H & D1 & D2 & _). destruct op as [r c|r c| |w|o|]; cbn [fu_call fu_error fu_spec fu_op_ok] in *.
  - assert (A : fu_add M r c = if (c <? m) && (r <? n) then (_ <- guard (negb (nz (g r c))) ;; fu_add M r c) else Throws).
    { unfold fu_add at 1. rewrite (fu_at_ok M n m g) by auto. destruct ((c <? m) && (r <? n)) eqn:B; auto. cbn [bind]. unfold fu_add. rewrite (fu_at_ok M n m g) by auto. rewrite B. cbn [bind]. destruct (negb (nz (g r c))); auto. }
    rewrite A. destruct (Nat.ltb_spec c m); cbn [andb]; [|left; auto]. destruct (Nat.ltb_spec r n); [|left; auto]. unfold nz. destruct (Z.eqb_spec (g r c) 0) as [G|G]; cbn [negb guard bind]; [|left; auto].
    right. split; [lia|]. destruct (fu_add_ok _ _ _ _ r c K) as (M' & E & K'); auto. exists M', n, m, (upd2 g r c 1). split; auto. split; [|apply fu_exact_ok; auto]. repeat (split; auto).
  - destruct (le_lt_dec m c). { left. split; auto. unfold fu_rm. rewrite (fu_at_ok M n m g) by auto. rewrite (proj2 (Nat.ltb_ge c m)) by auto. auto. }
    destruct (le_lt_dec n r). { left. split; auto. unfold fu_rm. rewrite (fu_at_ok M n m g) by auto. rewrite (proj2 (Nat.ltb_ge r n)) by auto. rewrite andb_false_r. auto. }
    right. split; [lia|]. destruct (fu_rm_ok _ _ _ _ r c K) as (M' & E & K'); auto. exists M', n, m, (upd2 g r c 0). split; auto. split; [|apply fu_exact_ok; auto]. repeat (split; auto).
  - right. split; auto. destruct (fu_transpose_ok _ _ _ _ K) as (M' & E & K'). eexists M', m, n, _. split; [auto|]. split; [|apply fu_exact_ok; exact K']. repeat (split; auto).
  - right. split; auto. destruct (fu_transpose_ok _ _ _ _ K) as (M' & E & K'). unfold fu_turn. rewrite R, C. destruct w; [destruct (m <? n)|destruct (n <? m)].
    1,3: eexists M', m, n, _; split; [auto|]; split; [|apply fu_exact_ok; exact K']; repeat (split; auto).
    all: exists M, n, m, g; split; [auto|]; split; [|apply fu_exact_ok; auto]; repeat (split; auto).
  - right. split; auto. destruct (fu_sort_ok _ _ _ _ o K) as (M' & s & E & P & K' & S). eexists M', n, m, _. split; [exact E|]. split; [|apply fu_exact_ok; exact K']. split; auto. split; auto. exists s. split; auto.
  - right. split; auto. destruct OK. destruct (fu_parse_ok M n m g) as (M' & E & K'); auto; try apply D1; try apply D2. exists M', n, m, g. split; [auto|]. split; [|apply fu_exact_ok; auto]. repeat (split; auto).
Qed.

(** All histories of calls on a matrix with at least one row and one column. *)
Theorem C37_history : forall ops M n m g, fu_exact M n m g -> 0 < n -> 0 < m ->
  exists M' n' m' g', fu_calls M ops = Ret M' /\ fu_history n m g ops n' m' g' /\ fu_exact M' n' m' g'.
Proof.
  induction ops as [|op ops IH]; intros M n m g K Hn Hm; cbn [fu_calls].
  - exists M, n, m, g. split; auto. split; auto. constructor.
  - destruct (C37_call M n m g op K) as [[ER E]|[NE (M1 & n1 & m1 & g1 & E & SP & K1)]]; [destruct op; cbn; auto| |]; rewrite E.
    + destruct (IH M n m g K Hn Hm) as (M2 & n2 & m2 & g2 & E2 & H2 & K2). exists M2, n2, m2, g2. split; auto. split; auto. apply fh_error; auto.
    + assert (P : 0 < n1 /\ 0 < m1). { destruct op; cbn [fu_spec] in SP; try (destruct SP as (-> & -> & _); auto). destruct w; [destruct (m <? n)|destruct (n <? m)]; destruct SP as (-> & -> & _); auto. }
      destruct P as [P1 P2]. destruct (IH M1 n1 m1 g1 K1 P1 P2) as (M2 & n2 & m2 & g2 & E2 & H2 & K2). exists M2, n2, m2, g2. split; auto. split; auto. eapply fh_step; eauto.
Qed.

(** Resizing keeps the chosen corner, for every pair of sizes unless columns are removed on the left while rows are added. *)
Theorem C37_resize : forall M n m g n' m' o, fu_shape M n m g -> (o = TOP_RIGHT -> n' <= n \/ m <= m') ->
  exists M', fu_resize M n' m' o = Ret M' /\ fu_shape M' n' m' (resized o n m n' m' g).
Proof. intros M n m g n' m' o K T. apply arr_shape in K. destruct (fu_resize_ok _ _ _ _ n' m' o K T) as (t & E & H). eexists. split; [exact E|]. apply arr_shape. split; auto. Qed.

(** In that case the result, if there is one, is not even rectangular. *)
Theorem C37_resize_top_right_refuted : forall M n m g n' m' M', fu_shape M n m g -> n < n' -> m' < m -> fu_resize M n' m' TOP_RIGHT = Ret M' -> forall g', ~ fu_shape M' n' m' g'.
Proof. intros M n m g n' m' M' K Hn Hm E g' (_ & _ & _ & W & _). apply arr_shape in K. pose proof (fu_resize_bad _ _ _ _ _ _ _ K Hn Hm E) as B. rewrite W in B by auto. lia. Qed.

(** Resizing gives as many column degrees as rows. *)
Theorem C37_resize_counters_refuted : forall M n m g n' m' o M', fu_shape M n m g -> (o = TOP_RIGHT -> n' <= n \/ m <= m') -> m' <> n' -> fu_resize M n' m' o = Ret M' -> length (fu_cd M') = n' /\ forall g', ~ fu_exact M' n' m' g'.
Proof.
  intros M n m g n' m' o M' K T NE E. apply arr_shape in K. destruct (fu_resize_ok _ _ _ _ n' m' o K T) as (t & E' & H). rewrite E' in E. inversion E. cbn [fu_cd]. split. { apply vresize_length. }
  intros g' (_ & _ & _ & L & _). cbn [fu_cd] in L. rewrite vresize_length in L. lia.
Qed.

(** For a square result parse_connections makes all the counters exact again. *)
Theorem C37_resize_parse : forall M n m g k o, fu_shape M n m g -> (o = TOP_RIGHT -> k <= n \/ m <= k) -> 0 < k ->
  exists M' M'', fu_resize M k k o = Ret M' /\ fu_parse M' = Ret M'' /\ fu_exact M'' k k (resized o n m k k g).
Proof.
  intros M n m g k o K T Hk. apply arr_shape in K. destruct (fu_resize_ok _ _ _ _ k k o K T) as (t & E & H). eexists. destruct (fu_parse_ok (mkFull k k (fu_rmax M) (fu_cmax M) (fu_n M) (vresize (fu_rd M) k 0) (vresize (fu_cd M) k 0) t) k k (resized o n m k k g)) as (M'' & E' & K'); auto.
  - apply vresize_length.
  - apply vresize_length.
  - exists M''. split; [exact E|]. split; [exact E'|]. apply fu_exact_ok. auto.
Qed.

(** For a wide result it may write after the end of the column degrees. *)
Theorem C37_resize_parse_refuted : exists M M', fu_exact M 1 2 (fun _ j => if j =? 1 then 1%Z else 0%Z) /\ fu_resize M 1 2 TOP_LEFT = Ret M' /\ fu_parse M' = Undef.
Proof.
  destruct (fu_add_ok (fu_new 1 2) 1 2 (fun _ _ => 0%Z) 0 1) as (M & E & K); try lia. { apply fu_new_ok. } vm_compute in E. inversion E. subst M. eexists. eexists. split; [|split].
  - apply fu_exact_ok. eapply fu_ok_ext; [|exact K]. intros i j Hi Hj. assert (i = 0) by lia. subst. unfold upd2. cbn. auto.
  - vm_compute. reflexivity.
  - vm_compute. auto.
Qed.

(** Erasing rows or columns. *)
Theorem C37_erase : forall M n m g i k, fu_exact M n m g ->
  (i + k <= n -> exists M', fu_erase_row M i k = Ret M' /\ fu_shape M' (n - k) m (fun a j => g (if a <? i then a else a + k) j) /\ length (fu_rd M') = n - k /\ length (fu_cd M') = m) /\
  (i + k <= m -> exists M', fu_erase_col M i k = Ret M' /\ fu_shape M' n (m - k) (fun a j => g a (if j <? i then j else j + k)) /\ length (fu_rd M') = n /\ length (fu_cd M') = m - k).
Proof.
  intros M n m g i k K. apply fu_exact_ok in K. pose proof K as (R & C & H & [L1 _] & [L2 _] & _). assert (A : arr M n m g) by (split; auto). split; intros Hk.
  - destruct (fu_erase_row_ok _ _ _ _ i k A L1 Hk) as (t & E & KT). eexists. split; [exact E|]. split. { apply arr_shape. split; [auto|]. split; [auto|]. exact KT. } cbn [fu_rd fu_cd]. split; auto. rewrite erased_length; lia.
  - destruct (fu_erase_col_ok _ _ _ _ i k A L2 Hk) as (t & E & KT). eexists. split; [exact E|]. split. { apply arr_shape. split; [auto|]. split; [auto|]. exact KT. } cbn [fu_rd fu_cd]. split; auto. rewrite erased_length; lia.
Qed.

(** After which parse_connections makes all the counters exact. *)
Theorem C37_erase_parse : forall M n m g i k, fu_exact M n m g ->
  (i + k <= n -> k < n -> 0 < m -> exists M' M'', fu_erase_row M i k = Ret M' /\ fu_parse M' = Ret M'' /\ fu_exact M'' (n - k) m (fun a j => g (if a <? i then a else a + k) j)) /\
  (i + k <= m -> k < m -> 0 < n -> exists M' M'', fu_erase_col M i k = Ret M' /\ fu_parse M' = Ret M'' /\ fu_exact M'' n (m - k) (fun a j => g a (if j <? i then j else j + k))).
Proof.
  intros M n m g i k K. destruct (C37_erase M n m g i k K) as [A B]. split; intros H1 H2 H3.
  - destruct (A H1) as (M' & E & S & L1 & L2). apply arr_shape in S. destruct S as (R & C & H). destruct (fu_parse_ok _ _ _ _ R C H L1 L2) as (M'' & E' & K'); [lia|lia|]. exists M', M''. split; auto. split; auto. apply fu_exact_ok. auto.
  - destruct (B H1) as (M' & E & S & L1 & L2). apply arr_shape in S. destruct S as (R & C & H). destruct (fu_parse_ok _ _ _ _ R C H L1 L2) as (M'' & E' & K'); [lia|lia|]. exists M', M''. split; auto. split; auto. apply fu_exact_ok. auto.
Qed.

(** Without it they are those of the matrix before the erasure. *)
Theorem C37_erase_counters_refuted : forall M n m g i k M', fu_exact M n m g -> i + k <= n -> fu_erase_row M i k = Ret M' ->
  (exists a b, i <= a < i + k /\ b < m /\ g a b <> 0%Z) -> forall g', fu_shape M' (n - k) m g' -> ~ fu_exact M' (n - k) m g'.
Proof.
  intros M n m g i k M' K Hk E (a & b & Ha & Hb & NZ) g' S X. apply fu_exact_ok in K, X. pose proof K as (R & C & H & [L1 _] & [L2 D2] & _). assert (A : arr M n m g) by (split; auto).
  destruct (fu_erase_row_ok _ _ _ _ i k A L1 Hk) as (t & E' & KT). rewrite E' in E. inversion E. subst M'. clear E E'. destruct X as (_ & _ & _ & _ & [_ X2] & _). cbn [fu_cd] in X2.
  specialize (X2 b Hb). rewrite D2 in X2 by auto. destruct S as (_ & _ & LT & WT & GT). cbn [fu_m] in *. destruct KT as [_ KT].
  assert (EQ : forall x, x < n - k -> g' x b = g (over i k x) b). { intros x Hx. rewrite <- GT by auto. apply KT; auto. }
  rewrite !row_deg_sum in X2. unfold flip in X2. rewrite (sumf_ext (fun c => Nat.b2n (nzf g' c b)) (fun x => Nat.b2n (nzf g (over i k x) b)) (n - k)) in X2 by (intros; unfold nzf; rewrite EQ; auto).
  assert (F1 : nzf g a b = true) by (unfold nzf, nz; destruct (Z.eqb_spec (g a b) 0); [contradiction|auto]).
  assert (SPL : forall (h : nat -> nat) N p q, p + q <= N -> sumf h N = sumf (fun x => h (over p q x)) (N - q) + sumf (fun y => h (p + y)) q).
  { intros h N p q HN. induction N. { assert (p = 0) by lia. assert (q = 0) by lia. subst. auto. } destruct (Nat.eq_dec (p + q) (Datatypes.S N)) as [EN|NN].
    - clear IHN. assert (HS : forall c, sumf h (p + c) = sumf h p + sumf (fun y => h (p + y)) c). { induction c. { rewrite Nat.add_0_r. cbn. lia. } rewrite Nat.add_succ_r, !sumf_S, IHc. lia. } rewrite <- EN. rewrite HS. f_equal. replace (p + q - q) with p by lia. apply sumf_ext. intros x Hx. unfold over. rewrite (proj2 (Nat.ltb_lt x p)) by auto. auto.
    - replace (Datatypes.S N - q) with (Datatypes.S (N - q)) by lia. rewrite !sumf_S, IHN by lia. replace (over p q (N - q)) with N; [lia|]. unfold over. rewrite (proj2 (Nat.ltb_ge (N - q) p)) by lia. lia. }
  rewrite (SPL (fun c => Nat.b2n (nzf g c b)) n i k Hk) in X2. 
  pose proof (sumf_change (fun y => Nat.b2n (nzf g (i + y) b)) (fun y => if y =? a - i then 0 else Nat.b2n (nzf g (i + y) b)) k (a - i) ltac:(lia)) as Q. cbv beta in Q. rewrite Nat.eqb_refl in Q. replace (i + (a - i)) with a in Q by lia. rewrite F1 in Q. cbn [Nat.b2n] in Q.
  specialize (Q ltac:(intros y Hy NY; rewrite (proj2 (Nat.eqb_neq _ _)) by auto; auto)). lia.
Qed.

(* ------------------------------------------------------------------ *)
(** C38: the dense products (any number of elements per register) and the conversions. *)
Theorem C38_dense_product : forall A B L k N f g, fu_shape A L k f -> fu_shape B k N g ->
  exists C, fu_bgemm A B = Ret C /\ fu_shape C L N (fun i j => if bit_prod k (fun i q => nz (f i q)) (fun q j => nz (g q j)) i j then 1%Z else 0%Z).
Proof. intros A B L k N f g KA KB. apply arr_shape in KA, KB. destruct (fu_bgemm_ok _ _ _ _ _ _ _ KA KB) as (C & E & K). exists C. split; auto. apply arr_shape. exact K. Qed.

Theorem C38_dense_product_transposed : forall nel A tB L k N f g, 0 < nel -> fu_shape A L k f -> fu_shape tB N k g ->
  exists C, fu_bgemmt nel A tB = Ret C /\ fu_shape C L N (fun i j => if bit_prod k (fun i q => nz (f i q)) (fun q j => nz (g j q)) i j then 1%Z else 0%Z).
Proof. intros nel A B L k N f g Hn KA KB. apply arr_shape in KA, KB. destruct (fu_bgemmt_ok nel _ _ _ _ _ _ _ Hn KA KB) as (C & E & K). exists C. split; auto. apply arr_shape. exact K. Qed.

Theorem C38_dense_rejects : forall nel A B L k k' N f g, fu_shape A L k f -> fu_shape B k' N g -> (k <> k' -> fu_bgemm A B = Throws) /\ (k <> N -> fu_bgemmt nel A B = Throws).
Proof. intros nel A B L k k' N f g (_ & CA & _) (RB & CB & _). unfold fu_bgemm, fu_bgemmt. rewrite CA, RB, CB. split; intros H; rewrite (proj2 (Nat.eqb_neq _ _)) by auto; auto. Qed.

Theorem C38_dense_all_zeros : forall M n m g, fu_shape M n m g -> exists b, fu_all_zeros M = Ret b /\ (b = true <-> forall i j, i < n -> j < m -> g i j = 0%Z).
Proof. intros M n m g K. apply arr_shape in K. apply fu_all_zeros_ok; auto. Qed.

(** The counters of a product are left at zero. *)
Theorem C38_product_counters_refuted : forall A B C L k N f g, fu_shape A L k f -> fu_shape B k N g -> fu_bgemm A B = Ret C ->
  (exists i j, i < L /\ j < N /\ bit_prod k (fun i q => nz (f i q)) (fun q j => nz (g q j)) i j = true) -> fu_n C = 0 /\ forall h, ~ fu_exact C L N h.
Proof.
  intros A B C L k N f g KA KB E (i & j & Hi & Hj & P). destruct (C38_dense_product _ _ _ _ _ _ _ KA KB) as (C' & E' & SC). rewrite E in E'. inversion E'. subst C'. clear E'.
  unfold fu_bgemm in E. apply bind_inv in E. destruct E as (u & _ & E). cbv zeta in E. apply bind_inv in E. destruct E as (t & _ & E). inversion E. subst C. cbn [fu_n]. split; auto.
  intros h X. apply fu_exact_ok in X. destruct X as (_ & _ & H & D1 & _). cbn [fu_m fu_rd fu_new] in *. destruct KA as (RA & _). destruct KB as (_ & CB & _). rewrite RA, CB in *.
  destruct D1 as [_ D1]. specialize (D1 i Hi). rewrite nth_repeat_lt in D1 by auto. rewrite row_deg_sum in D1. destruct SC as (_ & _ & _ & _ & G). cbn [fu_m] in G. specialize (G i j Hi Hj). rewrite P in G. destruct H as [_ H]. destruct (H i Hi) as [_ H2]. rewrite H2 in G by auto.
  pose proof (sumf_change (fun c => Nat.b2n (nzf h i c)) (fun c => if c =? j then 0 else Nat.b2n (nzf h i c)) N j Hj) as Q. cbv beta in Q. rewrite Nat.eqb_refl in Q. assert (G1 : nzf h i j = true) by (unfold nzf; rewrite G; auto). rewrite G1 in Q. cbn [Nat.b2n] in Q. specialize (Q ltac:(intros y Hy NY; rewrite (proj2 (Nat.eqb_neq _ _)) by auto; auto)). lia.
Qed.

Theorem C38_sparse_to_full : forall S n m f, sp_is S n m f -> exists M, sparse_to_full S = Ret M /\ fu_exact M n m (fun i j => if f i j then 1%Z else 0%Z).
Proof. intros S n m f K. apply sp_is_ok in K. destruct (to_full_ok _ _ _ _ K) as (M & E & H). exists M. split; auto. apply fu_exact_ok. exact H. Qed.

Theorem C38_full_to_sparse : forall M n m g, fu_shape M n m g -> exists S, full_to_sparse M = Ret S /\ sp_is S n m (fun i j => nz (g i j)).
Proof. intros M n m g K. apply arr_shape in K. destruct (to_sparse_ok _ _ _ _ K) as (S & E & H). exists S. split; auto. apply sp_is_ok. exact H. Qed.

Example C37_example : exists M, fu_calls (fu_new 2 3) [FAdd 0 2; FAdd 0 2; FAdd 1 0; FAdd 0 0; FRm 1 0; FAdd 5 0; FTranspose; FSort DESCENDING; FTurn HORIZONTAL; FParse] = Ret M /\
  fu_m M = [[1; 0; 1]; [0; 0; 0]]%Z /\ fu_n M = 2 /\ fu_rd M = [2; 0] /\ fu_cmax M = 1.
Proof. eexists. split; [vm_compute; reflexivity|]. vm_compute. auto. Qed.

Example C38_example : exists A C, fu_calls (fu_new 2 3) [FAdd 0 0; FAdd 0 1; FAdd 1 1; FAdd 1 2] = Ret A /\ fu_bgemmt 2 A A = Ret C /\ fu_m C = [[0; 1]; [1; 0]]%Z.
Proof. eexists. eexists. split; [vm_compute; reflexivity|]. split; [vm_compute; reflexivity|]. auto. Qed.
