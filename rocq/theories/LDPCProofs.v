(** Proofs about the LDPC encoders. *)
From Coq Require Import List Arith Lia Bool ZArith Permutation.
From Verif Require Import Base Copy GaloisModel SparseModel SparseSpec SparseProofs FullModel FullSpec FullProofs LDPCModel LDPCSpec.
Import ListNotations.

(* ------------------------------------------------------------------ *)
(** * Sums modulo 2 *)
Lemma par_S : forall k p, parity (S k) p = xorb (parity k p) (p k).
Proof. intros. apply (xsum_S p k). Qed.
Lemma par_ext : forall k p q, (forall i, i < k -> p i = q i) -> parity k p = parity k q.
Proof. intros. apply (xsum_ext p q k). auto. Qed.
Lemma par_false : forall k p, (forall i, i < k -> p i = false) -> parity k p = false.
Proof. intros k p H. induction k; auto. rewrite par_S, IHk, H by auto. auto. Qed.
Lemma par_xor : forall k p q, parity k (fun i => xorb (p i) (q i)) = xorb (parity k p) (parity k q).
Proof. intros k p q. induction k; auto. rewrite !par_S, IHk. destruct (parity k p), (parity k q), (p k), (q k); auto. Qed.
Lemma par_and : forall k p b, parity k (fun i => p i && b) = parity k p && b.
Proof. intros k p b. induction k; auto. rewrite !par_S, IHk. destruct (parity k p), (p k), b; auto. Qed.
Lemma par_add : forall a b p, parity (a + b) p = xorb (parity a p) (parity b (fun i => p (a + i))).
Proof. intros a b p. induction b. { rewrite Nat.add_0_r. cbn. rewrite xorb_false_r. auto. } rewrite Nat.add_succ_r, !par_S, IHb, xorb_assoc. auto. Qed.
Lemma par_one : forall k p i, i < k -> (forall j, j < k -> j <> i -> p j = false) -> parity k p = p i.
Proof.
  intros k p i Hi H. induction k; [lia|]. rewrite par_S. destruct (Nat.eq_dec i k) as [->|N].
  - rewrite par_false by (intros; apply H; lia). apply xorb_false_l.
  - rewrite IHk by (try lia; intros; apply H; lia). rewrite (H k) by lia. apply xorb_false_r.
Qed.
Lemma par_swap : forall n m (p : nat -> nat -> bool), parity n (fun i => parity m (p i)) = parity m (fun j => parity n (fun i => p i j)).
Proof.
  intros n m p. induction n. { cbn. symmetry. apply par_false. auto. } rewrite par_S, IHn, <- par_xor. apply par_ext. intros j _. rewrite par_S. auto.
Qed.
Lemma par_perm : forall l l', Permutation l l' -> fold_right xorb false l = fold_right xorb false l'.
Proof. intros l l' P. induction P; cbn; try congruence. rewrite <- !xorb_assoc, (xorb_comm y x). auto. Qed.

Definition sw (i j r : nat) : nat := if r =? i then j else if r =? j then i else r.
Lemma sw_sw : forall i j r, sw i j (sw i j r) = r.
Proof. intros. unfold sw. destruct (Nat.eqb_spec r i). { subst r. destruct (Nat.eqb_spec j i); auto. rewrite Nat.eqb_refl. auto. } destruct (Nat.eqb_spec r j). { subst r. rewrite Nat.eqb_refl. auto. } destruct (Nat.eqb_spec r i); [lia|]. destruct (Nat.eqb_spec r j); [lia|]. auto. Qed.
Lemma sw_lt : forall i j r n, i < n -> j < n -> r < n -> sw i j r < n.
Proof. intros. unfold sw. destruct (Nat.eqb_spec r i), (Nat.eqb_spec r j); auto. Qed.
Lemma sw_perm : forall i j n, i < n -> j < n -> Permutation (map (sw i j) (seq 0 n)) (seq 0 n).
Proof.
  intros i j n Hi Hj. apply NoDup_Permutation.
  - apply FinFun.Injective_map_NoDup; [|apply seq_NoDup]. intros a b E. rewrite <- (sw_sw i j a), E, sw_sw. auto.
  - apply seq_NoDup.
  - intros x. rewrite in_map_iff, in_seq. split.
    + intros (r & <- & I). apply in_seq in I. split; [lia|]. apply sw_lt; lia.
    + intros I. exists (sw i j x). rewrite sw_sw. split; auto. apply in_seq. split; [lia|]. apply sw_lt; lia.
Qed.
Lemma par_sw : forall n p i j, i < n -> j < n -> parity n (fun c => p (sw i j c)) = parity n p.
Proof. intros n p i j Hi Hj. unfold parity. rewrite <- (map_map (sw i j) p). apply par_perm. apply Permutation_map. apply sw_perm; auto. Qed.

(** The sum over the neighbours of a node. *)
Lemma links_par : forall k (f h : nat -> bool) row, NoDup row -> (forall c, In c row <-> c < k /\ f c = true) -> fold_right xorb false (map h row) = parity k (fun q => f q && h q).
Proof.
  intros k f h row ND H. assert (P : Permutation row (filter f (seq 0 k))).
  { apply NoDup_Permutation; auto. { apply NoDup_filter. apply seq_NoDup. } intros c. rewrite H, filter_In, in_seq. split; intros [A B]; split; auto; lia. }
  rewrite (par_perm _ _ (Permutation_map h P)). unfold parity. generalize (seq 0 k). intros l. induction l as [|q l IH]; cbn [filter map fold_right]; auto.
  destruct (f q); cbn [andb map fold_right]; [|rewrite xorb_false_l; auto]. f_equal. auto.
Qed.

Lemma each_xor : forall row (h : nat -> bool) body s, (forall c s, In c row -> body c s = Ret (xorb s (h c))) -> each row body s = Ret (xorb s (fold_right xorb false (map h row))).
Proof.
  intros row h body. induction row as [|c row IH]; intros s H; cbn [each map fold_right]. { rewrite xorb_false_r. auto. } rewrite H by (left; auto). cbn [bind]. rewrite IH by (intros; apply H; right; auto). rewrite xorb_assoc. auto.
Qed.

Lemma col_ok : forall M n m f c, sp_ok M n m f -> c < m -> exists l, sp_col M c = Ret l /\ NoDup l /\ forall r, In r l <-> r < n /\ f r c = true.
Proof. intros M n m f c S. apply sp_is_ok in S. apply S. Qed.

(* ------------------------------------------------------------------ *)
(** * Syndromes *)
Lemma check_from_ok : forall R (d : R) neg Y H n m h, sp_ok H n m h -> n <= length Y -> forall cnt c, c + cnt <= m ->
  exists b, check_from neg Y H c cnt = Ret b /\ (b = true <-> forall k, c <= k < c + cnt -> parity n (fun v => h v k && neg (nth v Y d)) = false).
Proof.
  intros R d neg Y H n m h S L. induction cnt as [|cnt IH]; intros c Hc; cbn [check_from].
  - exists true. split; auto. split; auto. intros _ k Hk. lia.
  - destruct (col_ok _ _ _ _ c S) as (l & E & ND & HI); [lia|]. rewrite E. cbn [bind].
    rewrite (each_xor l (fun v => neg (nth v Y d))). 2: { intros v s I. apply HI in I. rewrite (rd_ok _ d) by lia. auto. }
    cbn [bind]. rewrite xorb_false_l. rewrite (links_par n (fun v => h v c) (fun v => neg (nth v Y d)) l ND HI).
    destruct (parity n (fun v => h v c && neg (nth v Y d))) eqn:P.
    + exists false. split; auto. split; [discriminate|]. intros Q. rewrite Q in P by lia. discriminate.
    + destruct (IH (Datatypes.S c)) as (b & E2 & B); [lia|]. exists b. split; auto. rewrite B. split; intros Q k Hk.
      * destruct (Nat.eq_dec k c); [subst; auto|apply Q; lia].
      * apply Q. lia.
Qed.

Lemma check_hard_ok : forall X H n m h, sp_ok H n m h -> n <= length X -> exists b, check_hard X H = Ret b /\ (b = true <-> in_code n m h (bit X)).
Proof.
  intros X H n m h S L. unfold check_hard. destruct (check_from_ok _ 0%Z nz X H n m h S L (sp_cols H) 0) as (b & E & B).
  - destruct S as (_ & C & _). lia.
  - exists b. split; auto. rewrite B. destruct S as (_ & C & _). rewrite C. unfold in_code. split; intros Q c Hc; apply Q; lia.
Qed.

(* ------------------------------------------------------------------ *)
(** * Encoding with G *)
Lemma odd_cast : forall w z, (1 <= w)%Z -> Z.odd (cast w z) = Z.odd z.
Proof.
  intros w z Hw. unfold cast. rewrite Z.odd_sub. rewrite <- (Z.bit0_odd ((z + 2 ^ (w - 1)) mod 2 ^ w)), Z.mod_pow2_bits_low by lia. rewrite Z.bit0_odd, Z.odd_add. destruct (Z.odd z), (Z.odd (2 ^ (w - 1))); auto.
Qed.
Lemma land1 : forall z, Z.land z 1 = b2z (Z.odd z).
Proof. intros z. change 1%Z with (Z.ones 1). rewrite Z.land_ones by lia. change (2 ^ 1)%Z with 2%Z. rewrite Zmod_odd. unfold b2z. destruct (Z.odd z); auto. Qed.

Lemma acc_ok : forall w U i, (1 <= w)%Z -> forall links X x, i < length X -> nth i X 0%Z = x -> (forall l, In l links -> l < length U) ->
  exists y, each links (fun l X => x <- rd X i ;; u <- rd U l ;; wr X i (cast w (x + u))) X = Ret (upd X i y) /\
    Z.odd y = xorb (Z.odd x) (fold_right xorb false (map (fun l => Z.odd (nth l U 0%Z)) links)).
Proof.
  intros w U i Hw. induction links as [|l links IH]; intros X x Hi Hx HL; cbn [each map fold_right].
  - exists x. split; [|rewrite xorb_false_r; auto]. f_equal. apply (list_eq_nth _ 0%Z). { rewrite length_upd. auto. } intros k Hk. destruct (Nat.eq_dec k i) as [->|N]. { rewrite nth_upd_eq by auto. auto. } rewrite nth_upd_neq by auto. auto.
  - rewrite (rd_ok _ 0%Z) by auto. cbn [bind]. rewrite (rd_ok _ 0%Z) by (apply HL; left; auto). cbn [bind]. rewrite wr_ok by auto. cbn [bind].
    destruct (IH (upd X i (cast w (nth i X 0%Z + nth l U 0%Z))) (cast w (x + nth l U 0%Z))) as (y & E & O).
    + rewrite length_upd. auto.
    + rewrite nth_upd_eq by auto. rewrite Hx. auto.
    + intros. apply HL. right. auto.
    + exists y. rewrite E. split. { f_equal. apply (list_eq_nth _ 0%Z). { rewrite !length_upd. auto. } intros k Hk. destruct (Nat.eq_dec k i) as [->|N]. { rewrite !nth_upd_eq by (rewrite ?length_upd; auto). auto. } rewrite !nth_upd_neq by auto. auto. }
      rewrite O, odd_cast, Z.odd_add by auto. rewrite xorb_assoc. auto.
Qed.

Lemma encode_ok : forall w e U X K N g, (1 <= w)%Z -> le_N e = N -> sp_ok (le_G e) N K g -> length U = K -> length X = N ->
  ldpc_encode w e U X = Ret (map (fun i => b2z (parity K (fun j => g i j && Z.odd (nth j U 0%Z)))) (seq 0 N)).
Proof.
  intros w e U X K N g Hw EN S LU LX. unfold ldpc_encode. rewrite EN.
  match goal with |- context [for_ N ?body ?s0] => destruct (for_inv _ (fun k Y => length Y = N /\ forall i, i < k -> nth i Y 0%Z = b2z (parity K (fun j => g i j && Z.odd (nth j U 0%Z)))) N body s0) as (Y & E & LY & HY) end.
  - split; auto. intros. lia.
  - intros k Y Hk [LY HY]. rewrite wr_ok by lia. cbn [bind]. destruct (row_ok _ _ _ _ k S Hk) as (l & E & ND & HI). rewrite E. cbn [bind].
    destruct (acc_ok w U k Hw l (upd Y k 0%Z) 0%Z) as (y & E2 & O).
    + rewrite length_upd. lia.
    + rewrite nth_upd_eq by lia. auto.
    + intros v I. apply HI in I. lia.
    + rewrite E2. cbn [bind]. rewrite (rd_ok _ 0%Z) by (rewrite !length_upd; lia). cbn [bind]. rewrite wr_ok by (rewrite !length_upd; lia). eexists. split; [reflexivity|]. rewrite !length_upd. split; auto. intros i Hi.
      destruct (Nat.eq_dec i k) as [->|NE].
      * rewrite nth_upd_eq by (rewrite !length_upd; lia). rewrite nth_upd_eq by (rewrite !length_upd; lia). rewrite land1, O. cbn [Z.odd]. rewrite xorb_false_l. f_equal. apply (links_par K (fun j => g k j) (fun j => Z.odd (nth j U 0%Z)) l ND HI).
      * rewrite !nth_upd_neq by auto. apply HY. lia.
  - rewrite E. f_equal. apply (list_eq_nth _ 0%Z). { rewrite map_length, seq_length. auto. } intros i Hi. rewrite HY by lia. rewrite (nth_indep _ 0%Z (b2z (parity K (fun j => g 0 j && Z.odd (nth j U 0%Z))))) by (rewrite map_length, seq_length; lia).
    rewrite (map_nth (fun i => b2z (parity K (fun j => g i j && Z.odd (nth j U 0%Z))))). rewrite seq_nth by lia. auto.
Qed.

(* ------------------------------------------------------------------ *)
(** * Row operations on arrays of bits *)
Definition bm (t : list (list Z)) (n w : nat) (f : nat -> nat -> bool) : Prop := mat t n (fun _ => w) (fun i j => b2z (f i j)).

Lemma bm_ext : forall t n w f f', (forall i j, i < n -> j < w -> f i j = f' i j) -> bm t n w f -> bm t n w f'.
Proof. intros t n w f f' H. apply mat_ext; auto. intros i j Hi Hj. rewrite H; auto. Qed.
Lemma bm_get : forall t n w f i j, bm t n w f -> i < n -> j < w -> get2 t i j = Ret (b2z (f i j)).
Proof. intros t n w f i j H Hi Hj. apply (get2_ok _ _ _ _ _ _ H); auto. Qed.
Lemma bm_set : forall t n w f i j b, bm t n w f -> i < n -> j < w -> exists t', set2 t i j (b2z b) = Ret t' /\ bm t' n w (fun r c => if (r =? i) && (c =? j) then b else f r c).
Proof. intros t n w f i j b H Hi Hj. destruct (set2_ok _ _ _ _ i j (b2z b) H) as (t' & E & K); auto. exists t'. split; auto. revert K. apply mat_ext; auto. intros a c Ha Hc. unfold upd2. destruct ((a =? i) && (c =? j)); auto. Qed.

Lemma swap_rows_nth : forall A (d : A) l i j, i < length l -> j < length l -> exists l', swap_rows l i j = Ret l' /\ length l' = length l /\ forall r, r < length l -> nth r l' d = nth (sw i j r) l d.
Proof.
  intros A d l i j Hi Hj. unfold swap_rows. rewrite (rd_ok _ d) by auto. cbn [bind]. rewrite (rd_ok _ d) by auto. cbn [bind]. rewrite wr_ok by auto. cbn [bind]. rewrite wr_ok by (rewrite length_upd; auto).
  eexists. split; [reflexivity|]. rewrite !length_upd. split; auto. intros r Hr. unfold sw. destruct (Nat.eqb_spec r j).
  - subst r. rewrite nth_upd_eq by (rewrite length_upd; auto). destruct (Nat.eqb_spec j i); subst; auto.
  - rewrite nth_upd_neq by auto. destruct (Nat.eqb_spec r i); [subst; rewrite nth_upd_eq by auto; auto|]. rewrite nth_upd_neq by auto. auto.
Qed.

Lemma bm_swap : forall t n w f i j, bm t n w f -> i < n -> j < n -> exists t', swap_rows t i j = Ret t' /\ bm t' n w (fun r c => f (sw i j r) c).
Proof.
  intros t n w f i j [L H] Hi Hj. destruct (swap_rows_nth _ [] t i j) as (t' & E & L' & H'); try lia. exists t'. split; auto. split; [lia|]. intros r Hr. rewrite H' by lia. apply H. apply sw_lt; auto.
Qed.

Lemma lxor_b2z : forall a b, Z.lxor (b2z a) (b2z b) = b2z (xorb a b).
Proof. destruct a, b; auto. Qed.
Lemma neq_b2z : forall a b, (if (b2z a =? b2z b)%Z then 0%Z else 1%Z) = b2z (xorb a b).
Proof. destruct a, b; auto. Qed.

Lemma bm_xor : forall t n w f src dst, bm t n w f -> src < n -> dst < n -> src <> dst ->
  exists t', xor_row w src dst t = Ret t' /\ bm t' n w (fun r c => if r =? dst then xorb (f dst c) (f src c) else f r c).
Proof.
  intros t n w f src dst H Hs Hd NE. unfold xor_row.
  match goal with |- context [for_ w ?body ?s0] => destruct (for_inv _ (fun k u => bm u n w (fun r c => if (r =? dst) && (c <? k) then xorb (f dst c) (f src c) else f r c)) w body s0) as (u & E & K) end.
  - eapply bm_ext; [|exact H]. intros i j Hi Hj. cbn. rewrite andb_false_r. auto.
  - intros k u Hk K. rewrite (bm_get _ _ _ _ _ _ K) by auto. cbn [bind]. rewrite (bm_get _ _ _ _ _ _ K) by auto. cbn [bind]. rewrite lxor_b2z. destruct (bm_set _ _ _ _ dst k (xorb (if (dst =? dst) && (k <? k) then xorb (f dst k) (f src k) else f dst k) (if (src =? dst) && (k <? k) then xorb (f dst k) (f src k) else f src k)) K) as (u' & E & K'); auto.
    exists u'. split; auto. eapply bm_ext; [|exact K']. intros i j Hi Hj. cbn beta. rewrite Nat.ltb_irrefl, !andb_false_r.
    destruct (Nat.eqb_spec i dst), (Nat.eqb_spec j k), (Nat.ltb_spec j k), (Nat.ltb_spec j (S k)); cbn [andb]; subst; auto; lia.
  - exists u. split; auto. eapply bm_ext; [|exact K]. intros i j Hi Hj. cbn beta. rewrite (proj2 (Nat.ltb_lt j w)) by auto. rewrite andb_true_r. auto.
Qed.

Lemma bm_neq : forall t n w f src dst from, bm t n w f -> src < n -> dst < n -> src <> dst -> from <= w -> (forall c, c < from -> f src c = false) ->
  exists t', neq_row from w src dst t = Ret t' /\ bm t' n w (fun r c => if r =? dst then xorb (f dst c) (f src c) else f r c).
Proof.
  intros t n w f src dst from H Hs Hd NE Hf HZ. unfold neq_row.
  match goal with |- context [for_from from ?cnt ?body ?s0] => destruct (for_from_inv _ (fun k u => bm u n w (fun r c => if (r =? dst) && (c <? k) then xorb (f dst c) (f src c) else f r c)) cnt from body s0) as (u & E & K) end.
  - eapply bm_ext; [|exact H]. intros i j Hi Hj. cbn beta. destruct (Nat.eqb_spec i dst), (Nat.ltb_spec j from); cbn [andb]; auto. subst. rewrite HZ by auto. rewrite xorb_false_r. auto.
  - intros k u Hk K. assert (Hk' : k < w) by lia. rewrite (bm_get _ _ _ _ _ _ K) by auto. cbn [bind]. rewrite (bm_get _ _ _ _ _ _ K) by auto. cbn [bind]. rewrite neq_b2z. destruct (bm_set _ _ _ _ dst k (xorb (if (src =? dst) && (k <? k) then xorb (f dst k) (f src k) else f src k) (if (dst =? dst) && (k <? k) then xorb (f dst k) (f src k) else f dst k)) K) as (u' & E & K'); auto.
    exists u'. split; auto. eapply bm_ext; [|exact K']. intros i j Hi Hj. cbn beta. rewrite Nat.ltb_irrefl, !andb_false_r.
    destruct (Nat.eqb_spec i dst), (Nat.eqb_spec j k), (Nat.ltb_spec j k), (Nat.ltb_spec j (S k)); cbn [andb]; subst; auto; try lia. apply xorb_comm.
  - exists u. split; auto. eapply bm_ext; [|exact K]. intros i j Hi Hj. cbn beta. rewrite (proj2 (Nat.ltb_lt j (from + (w - from)))) by lia. rewrite andb_true_r. auto.
Qed.

Lemma bm_swap_cols : forall t n w f i j, bm t n w f -> i < w -> j < w -> exists t', swap_columns n i j t = Ret t' /\ bm t' n w (fun r c => f r (sw i j c)).
Proof.
  intros t n w f i j H Hi Hj. unfold swap_columns.
  match goal with |- context [for_ n ?body ?s0] => destruct (for_inv _ (fun k u => bm u n w (fun r c => if r <? k then f r (sw i j c) else f r c)) n body s0) as (u & E & K) end.
  - eapply bm_ext; [|exact H]. auto.
  - intros k u Hk K. rewrite (bm_get _ _ _ _ _ _ K) by auto. cbn [bind]. rewrite (bm_get _ _ _ _ _ _ K) by auto. cbn [bind]. cbn beta. rewrite Nat.ltb_irrefl.
    destruct (bm_set _ _ _ _ k i (f k j) K) as (u1 & E1 & K1); auto. rewrite E1. cbn [bind].
    destruct (bm_set _ _ _ _ k j (f k i) K1) as (u2 & E2 & K2); auto. exists u2. split; auto. eapply bm_ext; [|exact K2]. intros r c Hr Hc. cbn beta. unfold sw.
    destruct (Nat.eqb_spec r k), (Nat.eqb_spec c j), (Nat.eqb_spec c i), (Nat.ltb_spec r k), (Nat.ltb_spec r (S k)); cbn [andb]; subst; auto; lia.
  - exists u. split; auto. eapply bm_ext; [|exact K]. intros r c Hr Hc. cbn beta. rewrite (proj2 (Nat.ltb_lt r n)) by auto. auto.
Qed.

Lemma find_row_ok : forall t n w f c, bm t n w f -> c < w -> forall cnt r2, r2 + cnt <= n ->
  exists o, find_row t c r2 cnt = Ret o /\ match o with Some r => r2 <= r < r2 + cnt /\ f r c = true | None => forall r, r2 <= r < r2 + cnt -> f r c = false end.
Proof.
  intros t n w f c H Hc. induction cnt as [|cnt IH]; intros r2 Hr; cbn [find_row].
  - exists None. split; auto. intros. lia.
  - rewrite (bm_get _ _ _ _ _ _ H) by lia. cbn [bind]. rewrite nz_b2z. destruct (f r2 c) eqn:F.
    + exists (Some r2). split; auto. split; [lia|auto].
    + destruct (IH (S r2)) as (o & E & P); [lia|]. exists o. split; auto. destruct o as [r|]. { split; [lia|apply P]. } intros r Hr'. destruct (Nat.eq_dec r r2); [subst; auto|apply P; lia].
Qed.
Lemma find_col_ok : forall t n w f i, bm t n w f -> i < n -> forall cnt j, j + cnt <= w ->
  exists o, find_col t i j cnt = Ret o /\ match o with Some c => j <= c < j + cnt /\ f i c = true | None => forall c, j <= c < j + cnt -> f i c = false end.
Proof.
  intros t n w f i H Hi. induction cnt as [|cnt IH]; intros j Hj; cbn [find_col].
  - exists None. split; auto. intros. lia.
  - rewrite (bm_get _ _ _ _ _ _ H) by lia. cbn [bind]. rewrite nz_b2z. destruct (f i j) eqn:F.
    + exists (Some j). split; auto. split; [lia|auto].
    + destruct (IH (S j)) as (o & E & P); [lia|]. exists o. split; auto. destruct o as [c|]. { split; [lia|apply P]. } intros c Hc'. destruct (Nat.eq_dec c j); [subst; auto|apply P; lia].
Qed.

(** The kernel, and what leaves it unchanged. *)
Definition ker (n w : nat) (f : nat -> nat -> bool) (z : nat -> bool) : Prop := forall r, r < n -> parity w (fun c => f r c && z c) = false.

Lemma ker_ext : forall n w f f' z, (forall i j, i < n -> j < w -> f i j = f' i j) -> ker n w f z <-> ker n w f' z.
Proof. intros n w f f' z H. unfold ker. split; intros K r Hr; rewrite <- (K r Hr); apply par_ext; intros c Hc; rewrite H; auto. Qed.
Lemma ker_swap : forall n w f i j z, i < n -> j < n -> ker n w (fun r c => f (sw i j r) c) z <-> ker n w f z.
Proof.
  intros n w f i j z Hi Hj. unfold ker. split; intros K r Hr.
  - specialize (K (sw i j r)). rewrite sw_sw in K. apply K. apply sw_lt; auto.
  - apply K. apply sw_lt; auto.
Qed.
Lemma ker_xor : forall n w f src dst z, src < n -> dst < n -> src <> dst -> ker n w (fun r c => if r =? dst then xorb (f dst c) (f src c) else f r c) z <-> ker n w f z.
Proof.
  intros n w f src dst z Hs Hd NE.
  assert (X : parity w (fun c => xorb (f dst c) (f src c) && z c) = xorb (parity w (fun c => f dst c && z c)) (parity w (fun c => f src c && z c))).
  { rewrite <- par_xor. apply par_ext. intros c _. destruct (f dst c), (f src c), (z c); auto. }
  unfold ker. split; intros K r Hr.
  - destruct (Nat.eq_dec r dst) as [->|N].
    + pose proof (K dst Hd) as A. pose proof (K src Hs) as B. cbn beta in A, B. rewrite Nat.eqb_refl in A. destruct (Nat.eqb_spec src dst); [lia|]. rewrite X, B, xorb_false_r in A. auto.
    + pose proof (K r Hr) as A. cbn beta in A. destruct (Nat.eqb_spec r dst); [lia|auto].
  - destruct (Nat.eqb_spec r dst) as [->|N]; [|auto]. rewrite X, !K by auto. auto.
Qed.
Lemma ker_cols : forall n w f i j z, i < w -> j < w -> ker n w (fun r c => f r (sw i j c)) z <-> ker n w f (fun c => z (sw i j c)).
Proof.
  intros n w f i j z Hi Hj. assert (E : forall r, parity w (fun c => f r (sw i j c) && z c) = parity w (fun c => f r c && z (sw i j c))).
  { intros r. rewrite <- (par_sw w (fun c => f r c && z (sw i j c)) i j) by auto. apply par_ext. intros c _. rewrite sw_sw. auto. }
  unfold ker. split; intros K r Hr. { rewrite <- E. auto. } rewrite E. auto.
Qed.
