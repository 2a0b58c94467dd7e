(** Inversion of a square binary matrix by LU_decomp. *)
From Coq Require Import List Arith Lia Bool ZArith Permutation.
From Verif Require Import Base Copy GaloisModel SparseModel SparseSpec SparseProofs FullModel FullSpec FullProofs LDPCModel LDPCSpec LDPCProofs.
Import ListNotations.

(** A loop that either goes through, keeping an invariant, or throws for a reason. *)
Lemma for_from_or : forall S (Inv : nat -> S -> Prop) (P : Prop) cnt lo body (s : S), Inv lo s ->
  (forall i s, lo <= i < lo + cnt -> Inv i s -> (exists s', body i s = Ret s' /\ Inv (Datatypes.S i) s') \/ (body i s = Throws /\ P)) ->
  (exists s', for_from lo cnt body s = Ret s' /\ Inv (lo + cnt) s') \/ (for_from lo cnt body s = Throws /\ P).
Proof.
  intros S Inv P. induction cnt; intros lo body s I H; cbn [for_from].
  - left. exists s. rewrite Nat.add_0_r. auto.
  - destruct (H lo s) as [(s' & E & I')|(E & Q)]; auto; [lia| |].
    + rewrite E. cbn [bind]. destruct (IHcnt (Datatypes.S lo) body s' I') as [(s2 & E2 & I2)|(E2 & Q)].
      * intros. apply H; auto. lia.
      * left. exists s2. split; auto. replace (lo + Datatypes.S cnt) with (Datatypes.S lo + cnt) by lia. auto.
      * auto.
    + rewrite E. auto.
Qed.
Lemma for_or : forall S (Inv : nat -> S -> Prop) (P : Prop) n body (s : S), Inv 0 s ->
  (forall i s, i < n -> Inv i s -> (exists s', body i s = Ret s' /\ Inv (Datatypes.S i) s') \/ (body i s = Throws /\ P)) ->
  (exists s', for_ n body s = Ret s' /\ Inv n s') \/ (for_ n body s = Throws /\ P).
Proof. intros S Inv P n body s I H. apply (for_from_or S Inv P n 0 body s I). intros i u Hi. apply H. lia. Qed.

(** Ones on the first r elements of the diagonal, zeros below it in the first r columns. *)
Definition upper (f : nat -> nat -> bool) (r M : nat) : Prop := (forall i, i < r -> f i i = true) /\ (forall i j, j < r -> j < i < M -> f i j = false).

(** Elimination of column r below row r. *)
Lemma clear_below : forall M W (op : nat -> list (list Z) -> outcome (list (list Z))) r t f,
  (forall r2 u g, r < r2 < M -> bm u M W g -> (forall c, c < r -> g r c = false) -> exists u', op r2 u = Ret u' /\ bm u' M W (fun a c => if a =? r2 then xorb (g r2 c) (g r c) else g a c)) ->
  bm t M W f -> r < M -> r < W -> upper f r M -> f r r = true ->
  exists t' f', for_from (r + 1) (M - (r + 1)) (fun r2 t => v <- get2 t r2 r ;; if nz v then op r2 t else Ret t) t = Ret t' /\ bm t' M W f' /\ upper f' (S r) M /\ forall z, ker M W f' z <-> ker M W f z.
Proof.
  intros M W op r t f HO H Hr HW [U1 U2] D.
  match goal with |- context [for_from ?lo ?cnt ?body ?s0] => destruct (for_from_inv _ (fun k u => exists g, bm u M W g /\ upper g r M /\ g r r = true /\ (forall i, r < i < k -> g i r = false) /\ forall z, ker M W g z <-> ker M W f z) cnt lo body s0) as (u & E & g & K & [V1 V2] & G & Z & KE) end.
  - exists f. split; [auto|]. split; [split; auto|]. split; [auto|]. split; [intros; lia|]. tauto.
  - intros k u Hk (g & K & [V1 V2] & G & Z & KE). rewrite (bm_get _ _ _ _ _ _ K) by lia. cbn [bind]. rewrite nz_b2z. destruct (g k r) eqn:GK.
    + destruct (HO k u g) as (u' & E & K'); [lia|auto|intros c Hc; apply V2; lia|]. exists u'. split; auto. eexists. split; [exact K'|].
      split. { split; [intros i Hi|intros i j Hj Hi]; cbn beta; destruct (Nat.eqb_spec i k); try lia; auto. subst i. rewrite !V2 by lia. auto. }
      split. { cbn beta. destruct (Nat.eqb_spec r k); [lia|auto]. }
      split. { intros i Hi. destruct (Nat.eqb_spec i k). { subst i. rewrite GK, G. auto. } apply Z. lia. }
      intros z. rewrite ker_xor by lia. auto.
    + exists u. split; auto. exists g. split; [auto|]. split; [split; auto|]. split; [auto|]. split; [|auto]. intros i Hi. destruct (Nat.eq_dec i k); [subst; auto|apply Z; lia].
  - exists u, g. split; auto. split; [auto|]. split; [|auto]. split. { intros i Hi. destruct (Nat.eq_dec i r); [subst; auto|apply V1; lia]. } intros i j Hj Hi. destruct (Nat.eq_dec j r); [subst j; apply Z; lia|apply V2; lia].
Qed.

Lemma forward_ok : forall M r t f, bm t M (2 * M) f -> r < M -> upper f r M ->
  (exists t', lu_forward M r t = Ret t' /\ exists f', bm t' M (2 * M) f' /\ upper f' (S r) M /\ forall z, ker M (2 * M) f' z <-> ker M (2 * M) f z) \/
  (lu_forward M r t = Throws /\ forall i, r <= i < M -> f i r = false).
Proof.
  intros M r t f H Hr U. unfold lu_forward. rewrite (bm_get _ _ _ _ _ _ H) by lia. cbn [bind]. rewrite nz_b2z.
  assert (OP : forall r2 u g, r < r2 < M -> bm u M (2 * M) g -> (forall c, c < r -> g r c = false) -> exists u', xor_row (2 * M) r r2 u = Ret u' /\ bm u' M (2 * M) (fun a c => if a =? r2 then xorb (g r2 c) (g r c) else g a c)).
  { intros r2 u g Hr2 K _. apply bm_xor; auto; lia. }
  destruct (f r r) eqn:D; cbn [bind].
  - left. destruct (clear_below M (2 * M) (fun r2 t => xor_row (2 * M) r r2 t) r t f OP H) as (t' & f' & E & K & U' & KE); auto; [lia|]. exists t'. split; auto. exists f'. auto.
  - destruct (find_row_ok _ _ _ _ r H ltac:(lia) (M - (r + 1)) (r + 1)) as (o & E & P); [lia|]. rewrite E. cbn [bind]. destruct o as [r'|].
    + left. destruct P as [Hr' F]. destruct (bm_swap _ _ _ _ r r' H) as (t1 & E1 & K1); [lia|lia|]. rewrite E1. cbn [bind].
      destruct (clear_below M (2 * M) (fun r2 t => xor_row (2 * M) r r2 t) r t1 _ OP K1) as (t' & f' & E' & K' & U' & KE); auto; [lia| | |].
      * destruct U as [U1 U2]. split. { intros i Hi. unfold sw. destruct (Nat.eqb_spec i r), (Nat.eqb_spec i r'); try lia; auto. } intros i j Hj Hi. apply U2; auto. unfold sw. destruct (Nat.eqb_spec i r), (Nat.eqb_spec i r'); lia.
      * unfold sw. rewrite Nat.eqb_refl. auto.
      * exists t'. split; auto. exists f'. split; [auto|]. split; [auto|]. intros z. rewrite KE. apply ker_swap; lia.
    + right. split; auto. intros i Hi. destruct (Nat.eq_dec i r); [subst; auto|apply P; lia].
Qed.

(** Back substitution: a triangular block whose next column has no pivot has a nonzero kernel vector. *)
Lemma no_pivot : forall M W f r, r < M -> M <= W -> upper f r M -> (forall i, r <= i < M -> f i r = false) ->
  exists x, x r = true /\ (forall j, r < j -> x j = false) /\ ker M W f x.
Proof.
  intros M W f r Hr HW [U1 U2] NP.
  assert (G : forall k, k <= r -> exists x, x r = true /\ (forall j, r < j -> x j = false) /\ forall i, r - k <= i < M -> parity W (fun c => f i c && x c) = false).
  { induction k as [|k IH]; intros Hk.
    - exists (fun j => j =? r). split. { apply Nat.eqb_refl. } split. { intros j Hj. apply Nat.eqb_neq. lia. }
      intros i Hi. apply par_false. intros c Hc. destruct (Nat.eqb_spec c r). { subst. rewrite NP by lia. auto. } apply andb_false_r.
    - destruct IH as (x & A & B & C); [lia|]. set (q := r - S k). set (v := parity W (fun c => f q c && x c)).
      exists (fun j => if j =? q then xorb (x q) v else x j). split. { destruct (Nat.eqb_spec r q); [lia|auto]. } split. { intros j Hj. destruct (Nat.eqb_spec j q); [lia|auto]. }
      intros i Hi. assert (E : parity W (fun c => f i c && (if c =? q then xorb (x q) v else x c)) = xorb (parity W (fun c => f i c && x c)) (f i q && v)).
      { replace (f i q && v) with (parity W (fun c => if c =? q then f i q && v else false)). 2: { rewrite (par_one W _ q). { rewrite Nat.eqb_refl. auto. } { lia. } intros j _ N. apply Nat.eqb_neq in N. rewrite N. auto. }
        rewrite <- par_xor. apply par_ext. intros c _. destruct (Nat.eqb_spec c q). { subst c. destruct (f i q), (x q), v; auto. } rewrite xorb_false_r. auto. }
      rewrite E. destruct (Nat.eq_dec i q) as [->|N].
      + fold v. rewrite U1 by lia. destruct v; auto.
      + rewrite C by lia. rewrite U2 by lia. auto. }
  destruct (G r (le_n r)) as (x & A & B & C). exists x. split; [auto|]. split; [auto|]. intros i Hi. apply C. lia.
Qed.

(** Elimination above the diagonal. *)
Definition clean (f : nat -> nat -> bool) (R M : nat) : Prop := upper f M M /\ forall c i, R < c < M -> i < c -> f i c = false.

Lemma backward_gen : forall M W (op : nat -> list (list Z) -> outcome (list (list Z))) r t f,
  (forall i u g, i < r -> bm u M W g -> (forall c, c < r -> g r c = false) -> exists u', op i u = Ret u' /\ bm u' M W (fun a c => if a =? i then xorb (g i c) (g r c) else g a c)) ->
  bm t M W f -> 0 < r < M -> M <= W -> clean f r M ->
  exists t' f', for_ r (fun k t => let rm1 := r - k - 1 in v <- get2 t rm1 r ;; if nz v then op rm1 t else Ret t) t = Ret t' /\ bm t' M W f' /\ clean f' (r - 1) M /\ forall z, ker M W f' z <-> ker M W f z.
Proof.
  intros M W op r t f HO H Hr HW CL.
  match goal with |- context [for_ r ?body ?s0] => destruct (for_inv _ (fun k u => exists g, bm u M W g /\ clean g r M /\ (forall i, r - k <= i < r -> g i r = false) /\ forall z, ker M W g z <-> ker M W f z) r body s0) as (u & E & g & K & [U C] & Z & KE) end.
  - exists f. split; [auto|]. split; [auto|]. split; [intros; lia|]. tauto.
  - intros k u Hk (g & K & [[U1 U2] C] & Z & KE). cbv zeta. rewrite (bm_get _ _ _ _ _ _ K) by lia. cbn [bind]. rewrite nz_b2z. destruct (g (r - k - 1) r) eqn:GK.
    + destruct (HO (r - k - 1) u g) as (u' & E & K'); [lia|auto|intros c Hc; apply U2; lia|]. exists u'. split; auto. eexists. split; [exact K'|]. split; [split|split].
      * split. { intros i Hi. cbn beta. destruct (Nat.eqb_spec i (r - k - 1)); [|auto]. subst i. rewrite U1, U2 by lia. auto. } intros i j Hj Hi. cbn beta. destruct (Nat.eqb_spec i (r - k - 1)); [|auto]. subst i. rewrite !U2 by lia. auto.
      * intros c i Hc Hi. cbn beta. destruct (Nat.eqb_spec i (r - k - 1)); [|auto]. rewrite !C by lia. auto.
      * intros i Hi. cbn beta. destruct (Nat.eqb_spec i (r - k - 1)). { rewrite GK, U1 by lia. auto. } apply Z. lia.
      * intros z. rewrite ker_xor by lia. auto.
    + exists u. split; auto. exists g. split; [auto|]. split; [split; [split; auto|auto]|]. split; [|auto]. intros i Hi. destruct (Nat.eq_dec i (r - k - 1)); [subst i; auto|apply Z; lia].
  - exists u, g. split; auto. split; [auto|]. split; [|auto]. split; [auto|]. intros c i Hc Hi. destruct (Nat.eq_dec c r); [subst c; apply Z; lia|apply C; lia].
Qed.

Lemma clean_id : forall f M, clean f 0 M -> forall i j, i < M -> j < M -> f i j = (i =? j).
Proof.
  intros f M [[U1 U2] C] i j Hi Hj. destruct (Nat.eqb_spec i j); [subst; auto|]. destruct (Nat.lt_ge_cases i j); [apply C; lia|apply U2; lia].
Qed.

(** b is the inverse of a, seen as solving systems. *)
Definition solves (M : nat) (a b : nat -> nat -> bool) : Prop := forall x y,
  (forall r, r < M -> parity M (fun j => a r j && x j) = y r) <-> (forall r, r < M -> x r = parity M (fun j => b r j && y j)).

Lemma solves_inverse : forall M a b, solves M a b -> inverse M a b.
Proof.
  intros M a b S i j Hi Hj. split.
  - apply (proj2 (S (fun q => b q j) (fun q => q =? j))); auto. intros r Hr. symmetry. rewrite (par_one M _ j); auto. { rewrite Nat.eqb_refl. apply andb_true_r. } intros q _ N. apply Nat.eqb_neq in N. rewrite N. apply andb_false_r.
  - symmetry. apply (proj1 (S (fun q => q =? j) (fun q => a q j))); auto. intros r Hr. rewrite (par_one M _ j); auto. { rewrite Nat.eqb_refl. apply andb_true_r. } intros q _ N. apply Nat.eqb_neq in N. rewrite N. apply andb_false_r.
Qed.
Lemma solves_regular : forall M a b, solves M a b -> ~ singular M a.
Proof.
  intros M a b S (x & (k & Hk & X) & K). rewrite (proj1 (S x (fun _ => false)) K k Hk) in X. rewrite par_false in X; [discriminate|]. intros. apply andb_false_r.
Qed.

Definition pairv (M : nat) (x y : nat -> bool) (c : nat) : bool := if c <? M then x c else y (c - M).

Lemma par_pair : forall M (p : nat -> bool) x y, parity (2 * M) (fun c => p c && pairv M x y c) = xorb (parity M (fun c => p c && x c)) (parity M (fun c => p (M + c) && y c)).
Proof.
  intros M p x y. replace (2 * M) with (M + M) by lia. rewrite par_add. f_equal; apply par_ext; intros c Hc; unfold pairv.
  - rewrite (proj2 (Nat.ltb_lt c M)) by auto. auto.
  - rewrite (proj2 (Nat.ltb_ge (M + c) M)) by lia. replace (M + c - M) with c by lia. auto.
Qed.

Lemma xorb_eq_false : forall a b, xorb a b = false <-> a = b.
Proof. destruct a, b; split; auto; discriminate. Qed.

Lemma LU_decomp_ok : forall F M a, 0 < M -> arr F M M (fun i j => b2z (a i j)) ->
  (exists G b, LU_decomp F = Ret G /\ arr G M M (fun i j => b2z (b i j)) /\ solves M a b) \/ (LU_decomp F = Throws /\ singular M a).
Proof.
  intros F M a HM A. pose proof A as (RF & CF & _). unfold LU_decomp. rewrite RF, CF, Nat.leb_refl. cbn [guard bind].
  destruct (fu_resize_ok _ _ _ _ M (2 * M) TOP_LEFT A) as (t0 & E0 & H0); [discriminate|]. rewrite E0. cbn [bind fu_m fu_rows fu_cols fu_rmax fu_cmax fu_n fu_rd fu_cd].
  match goal with |- context [for_ M (fun i t => set2 t i (M + i) 1%Z) ?s0] => destruct (for_inv _ (fun k u => bm u M (2 * M) (fun i j => if j <? M then a i j else (i <? k) && (j - M =? i))) M (fun i t => set2 t i (M + i) 1%Z) s0) as (t1 & E1 & K1) end.
  { revert H0. apply mat_ext; auto. intros i j Hi Hj. unfold resized. cbn [src_row src_col]. unfold src_first. rewrite (proj2 (Nat.ltb_lt i M)) by auto. destruct (j <? M); auto. }
  { intros k u Hk K. destruct (bm_set _ _ _ _ k (M + k) true K) as (u' & E & K'); [lia|lia|]. exists u'. split; auto. eapply bm_ext; [|exact K']. intros i j Hi Hj. cbn beta.
    destruct (Nat.eqb_spec i k), (Nat.eqb_spec j (M + k)), (Nat.ltb_spec j M), (Nat.ltb_spec i k), (Nat.ltb_spec i (S k)), (Nat.eqb_spec (j - M) i); cbn [andb]; auto; lia. }
  rewrite E1. cbn [bind]. set (f0 := fun i j => if j <? M then a i j else (i <? M) && (j - M =? i)) in K1.
  assert (KER0 : forall x y, ker M (2 * M) f0 (pairv M x y) <-> forall r, r < M -> parity M (fun j => a r j && x j) = y r).
  { assert (ROW : forall x y r, r < M -> parity (2 * M) (fun c => f0 r c && pairv M x y c) = xorb (parity M (fun j => a r j && x j)) (y r)).
    { intros x y r Hr. rewrite par_pair. f_equal.
      - apply par_ext. intros c Hc. unfold f0. rewrite (proj2 (Nat.ltb_lt c M)) by auto. auto.
      - rewrite (par_one M _ r); auto. { unfold f0. rewrite (proj2 (Nat.ltb_ge (M + r) M)), (proj2 (Nat.ltb_lt r M)) by lia. replace (M + r - M) with r by lia. rewrite Nat.eqb_refl. auto. }
        intros q _ N. unfold f0. rewrite (proj2 (Nat.ltb_ge (M + q) M)) by lia. replace (M + q - M) with q by lia. apply Nat.eqb_neq in N. rewrite N, andb_false_r. auto. }
    intros x y. unfold ker. split; intros K r Hr; specialize (K r Hr).
    - rewrite ROW in K by auto. apply xorb_eq_false. auto.
    - rewrite ROW by auto. apply xorb_eq_false. auto. }
  destruct (for_or _ (fun r u => exists f, bm u M (2 * M) f /\ upper f r M /\ forall z, ker M (2 * M) f z <-> ker M (2 * M) f0 z) (singular M a) M (fun r t => lu_forward M r t) t1) as [(t2 & E2 & f2 & K2 & U2 & KE2)|(E2 & SG)].
  { exists f0. split; [auto|]. split; [|tauto]. split; intros; lia. }
  { intros r u Hr (f & K & U & KE). destruct (forward_ok M r u f K Hr U) as [(u' & E & f' & K' & U' & KE')|(E & NP)].
    - left. exists u'. split; auto. exists f'. split; [auto|]. split; [auto|]. intros z. rewrite KE'. auto.
    - right. split; auto. destruct (no_pivot M (2 * M) f r Hr ltac:(lia) U NP) as (x & X1 & X2 & X3). apply KE in X3. exists x. split; [exists r; auto|]. apply (proj1 (KER0 x (fun _ => false))). revert X3. unfold ker. intros X3 i Hi. etransitivity; [|exact (X3 i Hi)]. apply par_ext. intros c Hc. unfold pairv. destruct (Nat.ltb_spec c M); auto. rewrite X2 by lia. auto. }
  2: { rewrite E2. right. auto. }
  rewrite E2. cbn [bind]. destruct (Nat.eqb_spec M 0); [lia|].
  destruct (for_inv _ (fun k u => exists f, bm u M (2 * M) f /\ clean f (M - 1 - k) M /\ forall z, ker M (2 * M) f z <-> ker M (2 * M) f0 z) (M - 1) (fun k t => lu_backward M (M - 1 - k) t) t2) as (t3 & E3 & f3 & K3 & C3 & KE3).
  { exists f2. split; [auto|]. split; [|auto]. split; [auto|]. intros. lia. }
  { intros k u Hk (f & K & C & KE). unfold lu_backward. destruct (backward_gen M (2 * M) (fun i t => xor_row (2 * M) (M - 1 - k) i t) (M - 1 - k) u f) as (u' & f' & E & K' & C' & KE'); auto; try lia.
    - intros i v g Hi Kg _. apply bm_xor; auto; lia.
    - exists u'. split; auto. exists f'. split; [auto|]. split; [replace (M - 1 - S k) with (M - 1 - k - 1) by lia; auto|]. intros z. rewrite KE'. auto. }
  rewrite E3. cbn [bind]. rewrite Nat.sub_diag in C3. pose proof (clean_id _ _ C3) as ID.
  match goal with |- context [fu_resize ?G M M TOP_RIGHT] => destruct (fu_resize_ok G M (2 * M) _ M M TOP_RIGHT (conj eq_refl (conj eq_refl K3))) as (t4 & E4 & H4) end. { intros _. lia. }
  left. rewrite E4. eexists. exists (fun i j => f3 i (M + j)). split; [reflexivity|]. split.
  { split; [auto|]. split; [auto|]. cbn [fu_m]. revert H4. apply mat_ext; auto. intros i j Hi Hj. unfold resized. cbn [src_row src_col]. unfold src_first, src_last. rewrite (proj2 (Nat.ltb_lt i M)) by auto. rewrite (proj2 (Nat.leb_le M (j + 2 * M))) by lia. replace (j + 2 * M - M) with (M + j) by lia. auto. }
  intros x y. rewrite <- KER0, <- KE3. unfold ker. split; intros K r Hr.
  - specialize (K r Hr). rewrite par_pair in K. apply (proj1 (xorb_eq_false _ _)) in K. rewrite <- K. symmetry. rewrite (par_one M _ r); auto. { rewrite ID, Nat.eqb_refl by auto. auto. } intros q Hq N. rewrite ID by auto. destruct (Nat.eqb_spec r q); [lia|auto].
  - rewrite par_pair. apply xorb_eq_false. rewrite <- K by auto. rewrite (par_one M _ r); auto. { rewrite ID, Nat.eqb_refl by auto. auto. } intros q Hq N. rewrite ID by auto. destruct (Nat.eqb_spec r q); [lia|auto].
Qed.
