(** C36 and the sparse half of C38. *)
From Coq Require Import List Arith Lia Bool ZArith Permutation.
From Verif Require Import Base GaloisModel SparseModel SparseSpec SparseProofs.
Import ListNotations.

Theorem C36_new : forall n m, sp_is (sp_new n m) n m (fun _ _ => false).
Proof. intros. apply sp_is_ok. apply new_ok. Qed.

Theorem C36_identity : forall n m, exists M, sp_identity n m = Ret M /\ sp_is M n m (fun i j => i =? j).
Proof. intros. destruct (identity_ok n m) as (M & E & K). exists M. split; auto. apply sp_is_ok. auto. Qed.

(** One call: it throws exactly in the documented cases, and otherwise has the documented effect and
    leaves an object whose observers all agree. *)
Theorem C36_call : forall M n m f op res, sp_is M n m f -> op_ok n m op -> sp_call M op res ->
  (op_error n m f op /\ res = Throws) \/
  (~ op_error n m f op /\ exists M' n' m' f', res = Ret M' /\ op_spec n m f op n' m' f' /\ sp_is M' n' m' f').
Proof.
  intros M n m f op res K0 OK HC. apply sp_is_ok in K0. pose proof K0 as (R & C & V1 & V2 & _). destruct HC as [r c|r c| |w|n' m' o|o v HS]; cbn [op_error op_spec op_ok] in *.
  - destruct (le_lt_dec m c) as [Hc|Hc]. { left. split; auto. unfold sp_add, sp_check. rewrite C, (proj2 (Nat.ltb_ge c m)) by auto. auto. }
    destruct (le_lt_dec n r) as [Hr|Hr]. { left. split; auto. unfold sp_add, sp_check. rewrite C, R, (proj2 (Nat.ltb_lt c m)), (proj2 (Nat.ltb_ge r n)) by auto. auto. }
    destruct (f r c) eqn:F.
    + left. split; auto. unfold sp_add, sp_check. rewrite C, R, (proj2 (Nat.ltb_lt c m)), (proj2 (Nat.ltb_lt r n)) by auto. cbn [guard bind]. rewrite (at_ok _ _ _ _ _ _ K0) by auto. rewrite F. auto.
    + right. split. { intros [H|[H|H]]; [lia|lia|discriminate]. } destruct (add_ok _ _ _ _ r c K0) as (M' & E & K); auto. exists M', n, m, (setf f r c). split; auto. split; [|apply sp_is_ok; auto]. split; auto. split; auto.
      intros i j _ _. unfold setf. rewrite orb_true_iff, andb_true_iff, !Nat.eqb_eq. tauto.
  - destruct (le_lt_dec m c) as [Hc|Hc]. { left. split; auto. unfold sp_rm, sp_check. rewrite C, (proj2 (Nat.ltb_ge c m)) by auto. auto. }
    destruct (le_lt_dec n r) as [Hr|Hr]. { left. split; auto. unfold sp_rm, sp_check. rewrite C, R, (proj2 (Nat.ltb_lt c m)), (proj2 (Nat.ltb_ge r n)) by auto. auto. }
    right. split; [lia|]. destruct (rm_ok _ _ _ _ r c K0) as (M' & E & K); auto. exists M', n, m, (clrf f r c). split; auto. split; [|apply sp_is_ok; auto]. split; auto. split; auto.
    intros i j _ _. unfold clrf. rewrite andb_true_iff, negb_true_iff. rewrite <- not_true_iff_false, andb_true_iff, !Nat.eqb_eq. tauto.
  - right. split; auto. exists (sp_transpose M), m, n, (flip f). split; auto. split. { split; auto. } apply sp_is_ok. apply transpose_ok. auto.
  - right. split; auto. unfold sp_turn. rewrite R, C. destruct w; [destruct (Nat.ltb_spec m n)|destruct (Nat.ltb_spec n m)].
    1,3: exists (sp_transpose M), m, n, (flip f); split; auto; split; [split; auto|]; apply sp_is_ok; apply transpose_ok; auto.
    all: exists M, n, m, f; split; auto; split; [split; auto|]; apply sp_is_ok; auto.
  - right. split; auto. destruct OK as (Hn & Hm & B1 & B2 & B3 & B4). destruct (resize_ok _ _ _ _ n' m' o K0 Hn Hm B1 B2 B3 B4) as (M' & E & K). eexists M', n', m', _. split; [auto|]. split; [|apply sp_is_ok; exact K]. split; auto.
  - right. split; auto. destruct (sort_ok _ _ _ _ _ _ K0 HS) as (M' & s & E & PS & K & D). eexists M', n, m, _. split; [auto|]. split; [|apply sp_is_ok; exact K]. split; auto. split; auto. exists s. split; auto.
Qed.

(** All histories: no undefined behaviour, and the object is the mathematical matrix at the end. *)
Theorem C36_history : forall ops M n m f res, sp_is M n m f -> (Z.of_nat n < 2 ^ 31)%Z -> (Z.of_nat m < 2 ^ 31)%Z -> ops_ok ops -> sp_history M ops res ->
  exists M' n' m' f', res = Ret M' /\ bm_history n m f ops n' m' f' /\ sp_is M' n' m' f'.
Proof.
  intros ops M n m f res K Bn Bm OK H. revert n m f K Bn Bm OK. induction H as [M|M op ops M' res HC HH IH|M op ops res HC HH IH|M op ops HC]; intros n m f K Bn Bm OK.
  - exists M, n, m, f. split; auto. split; auto. constructor.
  - assert (OK1 : op_ok n m op). { destruct op; cbn; auto. specialize (OK n0 m0 o (or_introl eq_refl)). lia. } assert (OK2 : ops_ok ops) by (intros a b c I; apply (OK a b c); right; auto).
    destruct (C36_call _ _ _ _ _ _ K OK1 HC) as [[_ D]|[NE (M1 & n1 & m1 & f1 & E & SP & K1)]]; [discriminate|]. inversion E; subst M1.
    assert (B1 : (Z.of_nat n1 < 2 ^ 31)%Z /\ (Z.of_nat m1 < 2 ^ 31)%Z). { destruct op; cbn [op_spec] in SP; try (destruct SP as (-> & -> & _); auto). destruct w; [destruct (m <? n)|destruct (n <? m)]; destruct SP as (-> & -> & _); auto. specialize (OK n0 m0 o (or_introl eq_refl)). lia. }
    destruct (IH n1 m1 f1 K1 (proj1 B1) (proj2 B1) OK2) as (M2 & n2 & m2 & f2 & E2 & H2 & K2). exists M2, n2, m2, f2. split; auto. split; auto. econstructor; eauto.
  - assert (OK1 : op_ok n m op). { destruct op; cbn; auto. specialize (OK n0 m0 o (or_introl eq_refl)). lia. } assert (OK2 : ops_ok ops) by (intros a b c I; apply (OK a b c); right; auto).
    destruct (C36_call _ _ _ _ _ _ K OK1 HC) as [[NE _]|[_ (M1 & n1 & m1 & f1 & E & _)]]; [|discriminate].
    destruct (IH n m f K Bn Bm OK2) as (M2 & n2 & m2 & f2 & E2 & H2 & K2). exists M2, n2, m2, f2. split; auto. split; auto. apply bm_error; auto.
  - assert (OK1 : op_ok n m op). { destruct op; cbn; auto. specialize (OK n0 m0 o (or_introl eq_refl)). lia. }
    destruct (C36_call _ _ _ _ _ _ K OK1 HC) as [[_ D]|[_ (M1 & n1 & m1 & f1 & E & _)]]; discriminate.
Qed.

Theorem C36_transpose_twice : forall M, sp_transpose (sp_transpose M) = M.
Proof. intros []. auto. Qed.

(** Sorting is always possible and resizing to an empty matrix dereferences the end of a vector. *)
Theorem C36_resize_empty_refuted : forall M n m f n' m' o, sp_is M n m f -> n' = 0 \/ m' = 0 -> (Z.of_nat n < 2 ^ 31)%Z -> (Z.of_nat m < 2 ^ 31)%Z -> sp_call M (Resize n' m' o) Undef.
Proof. intros M n m f n' m' o K Hz B1 B2. apply sp_is_ok in K. rewrite <- (resize_zero _ _ _ _ n' m' o K Hz B1 B2). constructor. Qed.

(** C38: the sparse products. *)
Theorem C38_sparse_product : forall A B L k N f g, sp_is A L k f -> sp_is B k N g -> exists C, sp_bgemm A B = Ret C /\ sp_is C L N (bit_prod k f g).
Proof. intros A B L k N f g KA KB. apply sp_is_ok in KA. apply sp_is_ok in KB. destruct (bgemm_ok _ _ _ _ _ _ _ KA KB) as (C & E & K). exists C. split; auto. apply sp_is_ok. auto. Qed.

Theorem C38_sparse_product_transposed : forall A tB L k N f g, sp_is A L k f -> sp_is tB N k g -> exists C, sp_bgemmt A tB = Ret C /\ sp_is C L N (bit_prod k f (fun q j => g j q)).
Proof. intros A B L k N f g KA KB. apply sp_is_ok in KA. apply sp_is_ok in KB. destruct (bgemmt_ok _ _ _ _ _ _ _ KA KB) as (C & E & K). exists C. split; auto. apply sp_is_ok. auto. Qed.

Theorem C38_sparse_rejects : forall A B L k k' N f g, sp_is A L k f -> sp_is B k' N g -> (k <> k' -> sp_bgemm A B = Throws) /\ (k <> N -> sp_bgemmt A B = Throws).
Proof. intros A B L k k' N f g (_ & CA & _) (RB & CB & _). unfold sp_bgemm, sp_bgemmt. rewrite CA, RB, CB. split; intros H; rewrite (proj2 (Nat.eqb_neq _ _)) by auto; auto. Qed.

Theorem C38_sparse_all_zeros : forall M n m f, sp_is M n m f -> (sp_all_zeros M = true <-> forall i j, i < n -> j < m -> f i j = false).
Proof.
  intros M n m f (_ & _ & _ & _ & _ & _ & _ & N & _). unfold sp_all_zeros. rewrite N, Nat.eqb_eq. unfold ones. fold (sumf (row_deg f m) n). clear. induction n.
  - split; auto. intros. lia.
  - rewrite sumf_S. split.
    + intros H i j Hi Hj. destruct (Nat.eq_dec i n). 2: { apply IHn; lia. } subst i. assert (Z : row_deg f m n = 0) by lia. rewrite row_deg_sum in Z. clear - Z Hj. induction m; [lia|]. rewrite sumf_S in Z.
      destruct (Nat.eq_dec j m); [|apply IHm; lia]. subst. destruct (f n m); cbn in Z; auto; lia.
    + intros H. rewrite (proj2 IHn) by (intros; apply H; lia). rewrite row_deg_sum. cbn. clear IHn. induction m; auto. rewrite sumf_S, IHm by (intros; apply H; lia). rewrite H by lia. auto.
Qed.

(** A history with exceptions, a removal, a resize and a sort. *)
Example C36_example : exists res, sp_history (sp_new 2 3) [Add 0 2; Add 0 2; Add 1 0; Add 0 0; Rm 1 1; Add 5 0; Resize 3 2 BOTTOM_RIGHT; SortCols ASCENDING; Turn HORIZONTAL] (Ret res) /\
  sp_n res = 1 /\ sp_rows res = 2 /\ sp_at res 1 1 = Ret true.
Proof.
  eexists. split.
  - eapply hist_ret; [eapply eq_rect; [apply call_add|vm_compute; reflexivity]|].
    eapply hist_throw; [eapply eq_rect; [apply call_add|vm_compute; reflexivity]|].
    eapply hist_ret; [eapply eq_rect; [apply call_add|vm_compute; reflexivity]|].
    eapply hist_ret; [eapply eq_rect; [apply call_add|vm_compute; reflexivity]|].
    eapply hist_ret; [eapply eq_rect; [apply call_rm|vm_compute; reflexivity]|].
    eapply hist_throw; [eapply eq_rect; [apply call_add|vm_compute; reflexivity]|].
    eapply hist_ret; [eapply eq_rect; [apply call_resize|vm_compute; reflexivity]|].
    eapply hist_ret; [eapply eq_rect; [apply (call_sort _ ASCENDING [[]; [1]])|vm_compute; reflexivity]|].
    { split; auto. cbn. intros i j H. assert (i = 0) by lia. assert (j = 1) by lia. subst. cbn. lia. }
    eapply hist_ret; [eapply eq_rect; [apply call_turn|vm_compute; reflexivity]|]. apply hist_nil.
  - vm_compute. auto.
Qed.
