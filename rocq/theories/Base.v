(** Common vocabulary of the model.

    [outcome A] is the result of running a piece of C++ code:
    - [Ret a]   : normal termination with result [a];
    - [Throws]  : a C++ exception leaves the function;
    - [Undef]   : the execution has undefined behaviour (access outside an
                  array, use of an uninitialised variable, ...).
    Arrays are lists; [rd]/[wr] are the checked accesses [a[i]] and
    [a[i] = x]. *)
From Coq Require Import List Arith Lia Bool Permutation ZArith.
Import ListNotations.

Inductive outcome (A : Type) : Type :=
| Ret (a : A)
| Throws
| Undef.
Arguments Ret {A} a.
Arguments Throws {A}.
Arguments Undef {A}.

Definition bind {A B} (x : outcome A) (f : A -> outcome B) : outcome B :=
  match x with
  | Ret a => f a
  | Throws => Throws
  | Undef => Undef
  end.

Notation "x <- e ;; k" := (bind e (fun x => k))
  (at level 61, e at next level, right associativity).
Notation "' p <- e ;; k" := (bind e (fun p => k))
  (at level 61, p pattern, e at next level, right associativity).

Definition guard (b : bool) : outcome unit := if b then Ret tt else Throws.

(** [upd l i x] is [l] with position [i] replaced (identity outside). *)
Fixpoint upd {A} (l : list A) (i : nat) (x : A) : list A :=
  match l, i with
  | [], _ => []
  | _ :: t, O => x :: t
  | h :: t, S i' => h :: upd t i' x
  end.

Definition rd {A} (l : list A) (i : nat) : outcome A :=
  match nth_error l i with Some a => Ret a | None => Undef end.

Definition wr {A} (l : list A) (i : nat) (x : A) : outcome (list A) :=
  if i <? length l then Ret (upd l i x) else Undef.

(** [for (i = lo; i < lo + cnt; i++) body] with the mutable state threaded. *)
Fixpoint for_from {S} (lo cnt : nat) (body : nat -> S -> outcome S) (s : S)
  : outcome S :=
  match cnt with
  | O => Ret s
  | Datatypes.S c => bind (body lo s) (for_from (Datatypes.S lo) c body)
  end.

Definition for_ {S} (n : nat) (body : nat -> S -> outcome S) (s : S) : outcome S :=
  for_from 0 n body s.

(** Array of size [n] whose entry [i] is [f i]. *)
Definition tab {A} (n : nat) (f : nat -> A) : list A := map f (seq 0 n).

(** [l] is a permutation of 0..n-1, as a look-up table. *)
Definition is_perm (n : nat) (l : list nat) : Prop :=
  length l = n /\ (forall i, i < n -> nth i l 0 < n) /\
  (forall i j, i < n -> j < n -> nth i l 0 = nth j l 0 -> i = j).

(* ------------------------------------------------------------------ *)
(** * Lemmas *)

Lemma length_upd : forall A (l : list A) i x, length (upd l i x) = length l.
Proof. induction l; destruct i; simpl; intros; auto. Qed.

Lemma nth_upd_eq : forall A (l : list A) i x d,
  i < length l -> nth i (upd l i x) d = x.
Proof. induction l; destruct i; simpl; intros; try lia; auto. apply IHl; lia. Qed.

Lemma nth_upd_neq : forall A (l : list A) i j x d,
  i <> j -> nth j (upd l i x) d = nth j l d.
Proof. induction l; destruct i, j; simpl; intros; try lia; auto. Qed.

Lemma nth_upd : forall A (l : list A) i j x d,
  i < length l ->
  nth j (upd l i x) d = if j =? i then x else nth j l d.
Proof.
  intros. destruct (Nat.eqb_spec j i).
  - subst; apply nth_upd_eq; auto.
  - apply nth_upd_neq; auto.
Qed.

Lemma upd_out : forall A (l : list A) i x, length l <= i -> upd l i x = l.
Proof. induction l; destruct i; simpl; intros; auto; try lia. f_equal; apply IHl; lia. Qed.

Lemma upd_same : forall A (l : list A) i d, upd l i (nth i l d) = l.
Proof. induction l; destruct i; simpl; intros; auto. f_equal; auto. Qed.

Lemma upd_upd_eq : forall A (l : list A) i x y, upd (upd l i x) i y = upd l i y.
Proof. induction l; destruct i; simpl; intros; auto. f_equal; auto. Qed.

Lemma upd_upd_comm : forall A (l : list A) i j x y, i <> j ->
  upd (upd l i x) j y = upd (upd l j y) i x.
Proof. induction l; destruct i, j; simpl; intros; auto; try lia. f_equal; apply IHl; lia. Qed.

Lemma map_upd : forall A B (f : A -> B) l i x, map f (upd l i x) = upd (map f l) i (f x).
Proof. induction l; destruct i; simpl; intros; auto. f_equal; auto. Qed.

Lemma rd_ok : forall A (d : A) l i, i < length l -> rd l i = Ret (nth i l d).
Proof.
  intros. unfold rd. rewrite (nth_error_nth' l d); auto.
Qed.

Lemma rd_out : forall A (l : list A) i, length l <= i -> rd l i = Undef.
Proof. intros. unfold rd. rewrite (proj2 (nth_error_None l i)); auto. Qed.

Lemma rd_Ret : forall A (d : A) l i x, rd l i = Ret x -> i < length l /\ nth i l d = x.
Proof.
  unfold rd; intros. destruct (nth_error l i) eqn:E; inversion H; subst. split.
  - apply nth_error_Some; congruence.
  - apply nth_error_nth; auto.
Qed.

Lemma wr_ok : forall A (l : list A) i x, i < length l -> wr l i x = Ret (upd l i x).
Proof. intros. unfold wr. destruct (Nat.ltb_spec i (length l)); auto; lia. Qed.

Lemma wr_out : forall A (l : list A) i x, length l <= i -> wr l i x = Undef.
Proof. intros. unfold wr. destruct (Nat.ltb_spec i (length l)); auto; lia. Qed.

Lemma bind_Ret : forall A B (a : A) (f : A -> outcome B), bind (Ret a) f = f a.
Proof. reflexivity. Qed.

Lemma bind_assoc : forall A B C (x : outcome A) (f : A -> outcome B) (g : B -> outcome C),
  bind (bind x f) g = bind x (fun a => bind (f a) g).
Proof. destruct x; reflexivity. Qed.

Lemma bind_Ret_r : forall A (x : outcome A), bind x (fun a => Ret a) = x.
Proof. destruct x; reflexivity. Qed.

Lemma bind_inv : forall A B (x : outcome A) (f : A -> outcome B) b,
  bind x f = Ret b -> exists a, x = Ret a /\ f a = Ret b.
Proof. destruct x; simpl; intros; try discriminate; eauto. Qed.

Lemma bind_ext : forall A B (x : outcome A) (f g : A -> outcome B),
  (forall a, x = Ret a -> f a = g a) -> bind x f = bind x g.
Proof. destruct x; simpl; intros; auto. Qed.

(** Loop rule: [Inv i s] holds before iteration [i]. *)
Lemma for_from_inv : forall S (Inv : nat -> S -> Prop) cnt lo body (s : S),
  Inv lo s ->
  (forall i s, lo <= i < lo + cnt -> Inv i s ->
     exists s', body i s = Ret s' /\ Inv (Datatypes.S i) s') ->
  exists s', for_from lo cnt body s = Ret s' /\ Inv (lo + cnt) s'.
Proof.
  induction cnt; simpl; intros lo body s H0 Hstep.
  - exists s. rewrite Nat.add_0_r. auto.
  - destruct (Hstep lo s) as (s1 & E1 & I1); [lia|auto|].
    rewrite E1; simpl.
    destruct (IHcnt (Datatypes.S lo) body s1) as (s2 & E2 & I2); auto.
    + intros; apply Hstep; auto; lia.
    + exists s2. split; auto. replace (lo + Datatypes.S cnt) with (Datatypes.S lo + cnt) by lia. auto.
Qed.

Lemma for_inv : forall S (Inv : nat -> S -> Prop) n body (s : S),
  Inv 0 s ->
  (forall i s, i < n -> Inv i s ->
     exists s', body i s = Ret s' /\ Inv (Datatypes.S i) s') ->
  exists s', for_ n body s = Ret s' /\ Inv n s'.
Proof.
  intros. unfold for_. apply (for_from_inv _ Inv n 0); auto.
  intros; apply H0; auto; lia.
Qed.

(** Loop rule for partial correctness (from a normal result). *)
Lemma for_from_part : forall S (Inv : nat -> S -> Prop) cnt lo body (s r : S),
  Inv lo s ->
  (forall i s s', lo <= i < lo + cnt -> Inv i s -> body i s = Ret s' -> Inv (Datatypes.S i) s') ->
  for_from lo cnt body s = Ret r -> Inv (lo + cnt) r.
Proof.
  induction cnt; simpl; intros lo body s r H0 Hstep E.
  - inversion E; subst. rewrite Nat.add_0_r; auto.
  - apply bind_inv in E. destruct E as (s1 & E1 & E2).
    replace (lo + Datatypes.S cnt) with (Datatypes.S lo + cnt) by lia.
    eapply IHcnt; [| |exact E2].
    + eapply Hstep; eauto; lia.
    + intros; eapply Hstep; eauto; lia.
Qed.

Lemma for_part : forall S (Inv : nat -> S -> Prop) n body (s r : S),
  Inv 0 s ->
  (forall i s s', i < n -> Inv i s -> body i s = Ret s' -> Inv (Datatypes.S i) s') ->
  for_ n body s = Ret r -> Inv n r.
Proof.
  intros. unfold for_ in *. eapply (for_from_part _ Inv n 0) in H1; eauto.
  intros; eapply H0; eauto; lia.
Qed.

Lemma for_from_ext : forall S cnt lo (b1 b2 : nat -> S -> outcome S) s,
  (forall i s, lo <= i < lo + cnt -> b1 i s = b2 i s) ->
  for_from lo cnt b1 s = for_from lo cnt b2 s.
Proof.
  induction cnt; simpl; intros; auto.
  rewrite H by lia. apply bind_ext. intros. apply IHcnt. intros; apply H; lia.
Qed.

Lemma for_ext : forall S n (b1 b2 : nat -> S -> outcome S) s,
  (forall i s, i < n -> b1 i s = b2 i s) -> for_ n b1 s = for_ n b2 s.
Proof. intros; apply for_from_ext; intros; apply H; lia. Qed.

Lemma for_from_app : forall S c1 c2 lo (b : nat -> S -> outcome S) s,
  for_from lo (c1 + c2) b s = bind (for_from lo c1 b s) (for_from (lo + c1) c2 b).
Proof.
  induction c1; simpl; intros.
  - rewrite Nat.add_0_r; auto.
  - rewrite bind_assoc. apply bind_ext. intros.
    rewrite IHc1. replace (lo + Datatypes.S c1) with (Datatypes.S lo + c1) by lia. auto.
Qed.

Lemma for_S : forall S n (b : nat -> S -> outcome S) s,
  for_ (Datatypes.S n) b s = bind (for_ n b s) (b n).
Proof.
  intros. unfold for_. replace (Datatypes.S n) with (n + 1) by lia.
  rewrite for_from_app. apply bind_ext. intros. simpl. destruct (b n a); auto.
Qed.

Lemma length_tab : forall A n (f : nat -> A), length (tab n f) = n.
Proof. intros; unfold tab; rewrite map_length, seq_length; auto. Qed.

Lemma nth_tab : forall A n (f : nat -> A) i d, i < n -> nth i (tab n f) d = f i.
Proof.
  intros. unfold tab. rewrite nth_indep with (d' := f 0).
  - rewrite map_nth. rewrite seq_nth; auto.
  - rewrite map_length, seq_length; auto.
Qed.

Lemma tab_S : forall A n (f : nat -> A), tab (Datatypes.S n) f = tab n f ++ [f n].
Proof. intros; unfold tab; rewrite seq_S, map_app; auto. Qed.

Lemma tab_ext : forall A n (f g : nat -> A), (forall i, i < n -> f i = g i) -> tab n f = tab n g.
Proof. intros. unfold tab. apply map_ext_in. intros. apply H. apply in_seq in H0; lia. Qed.

Lemma tab_nth : forall A (l : list A) d, tab (length l) (fun i => nth i l d) = l.
Proof.
  intros. apply nth_ext with (d := d) (d' := d).
  - apply length_tab.
  - intros i Hi. rewrite length_tab in Hi. rewrite nth_tab; auto.
Qed.

Lemma map_tab : forall A B (g : A -> B) n f, map g (tab n f) = tab n (fun i => g (f i)).
Proof. intros; unfold tab; rewrite map_map; auto. Qed.

(** Extensionality for arrays. *)
Lemma list_eq_nth : forall A (d : A) l1 l2,
  length l1 = length l2 ->
  (forall i, i < length l1 -> nth i l1 d = nth i l2 d) -> l1 = l2.
Proof. intros; apply nth_ext with (d := d) (d' := d); auto. Qed.

Lemma eq_tab : forall A (d : A) l n f,
  length l = n -> (forall i, i < n -> nth i l d = f i) -> l = tab n f.
Proof.
  intros. apply list_eq_nth with (d := d).
  - rewrite length_tab; auto.
  - intros. rewrite nth_tab by lia. apply H0; lia.
Qed.

(** Permutation tables and [Permutation]. *)
Lemma NoDup_nth_inj : forall A (l : list A) d,
  (forall i j, i < length l -> j < length l -> nth i l d = nth j l d -> i = j) -> NoDup l.
Proof. intros. apply (NoDup_nth l d). auto. Qed.

Lemma is_perm_NoDup : forall n l, is_perm n l -> NoDup l.
Proof.
  intros n l (H1 & H2 & H3). apply NoDup_nth_inj with (d := 0). intros; apply H3; lia.
Qed.

Lemma is_perm_iff : forall n l, is_perm n l <-> Permutation l (seq 0 n).
Proof.
  intros; split; intros H.
  - pose proof (is_perm_NoDup _ _ H) as ND. destruct H as (H1 & H2 & H3).
    apply NoDup_Permutation_bis; auto.
    + rewrite seq_length; lia.
    + intros x Hx. apply in_seq.
      destruct (In_nth l x 0 Hx) as (i & Hi & E). subst x. split; [lia|].
      apply H2. lia.
  - assert (L: length l = n) by (rewrite (Permutation_length H), seq_length; auto).
    assert (ND: NoDup l) by (eapply Permutation_NoDup; [apply Permutation_sym; eauto | apply seq_NoDup]).
    split; [auto|split].
    + intros i Hi. assert (In (nth i l 0) (seq 0 n)).
      { eapply Permutation_in; eauto. apply nth_In; lia. }
      apply in_seq in H0; lia.
    + intros i j Hi Hj E. eapply (proj1 (NoDup_nth l 0) ND); eauto; lia.
Qed.

Lemma is_perm_surj : forall n l k, is_perm n l -> k < n -> exists i, i < n /\ nth i l 0 = k.
Proof.
  intros n l k H Hk. pose proof (proj1 (is_perm_iff n l) H) as P.
  assert (In k l). { eapply Permutation_in; [apply Permutation_sym; eauto|]. apply in_seq; lia. }
  destruct (In_nth l k 0 H0) as (i & Hi & E). exists i. split; auto.
  destruct H; lia.
Qed.

Lemma is_perm_tab : forall n f,
  (forall i, i < n -> f i < n) ->
  (forall i j, i < n -> j < n -> f i = f j -> i = j) ->
  is_perm n (tab n f).
Proof.
  intros. split; [apply length_tab|]. split.
  - intros. rewrite nth_tab; auto.
  - intros i j Hi Hj. rewrite !nth_tab by auto. auto.
Qed.

Lemma skipn_nth : forall A (l : list A) k i d, nth i (skipn k l) d = nth (k + i) l d.
Proof.
  induction l; destruct k; simpl; intros; auto. destruct i; auto.
Qed.

Lemma firstn_nth : forall A (l : list A) k i d, i < k -> nth i (firstn k l) d = nth i l d.
Proof.
  induction l; destruct k; simpl; intros; auto; try lia. destruct i; auto. apply IHl; lia.
Qed.

Lemma nth_repeat_lt : forall A (x d : A) n i, i < n -> nth i (repeat x n) d = x.
Proof. induction n; destruct i; simpl; intros; try lia; auto. apply IHn; lia. Qed.

Lemma divmod_unique_lt : forall n a b c d, b < n -> d < n -> a * n + b = c * n + d -> a = c /\ b = d.
Proof.
  intros. assert (a = c).
  { apply Nat.le_antisymm.
    - destruct (le_lt_dec a c); auto. exfalso. nia.
    - destruct (le_lt_dec c a); auto. exfalso. nia. }
  split; auto. subst. lia.
Qed.

Lemma idx_lt : forall a b n m, a < m -> b < n -> a * n + b < m * n.
Proof. intros. nia. Qed.

Lemma divmod_idx : forall a b n, b < n -> (a * n + b) / n = a /\ (a * n + b) mod n = b.
Proof.
  intros. rewrite Nat.add_comm. split.
  - rewrite Nat.div_add by lia. rewrite Nat.div_small; auto.
  - rewrite Nat.mod_add by lia. apply Nat.mod_small; auto.
Qed.

Lemma div_mod_lt : forall i n m, i < m * n -> i / n < m /\ i mod n < n.
Proof.
  intros. destruct (Nat.eq_dec n 0). { subst; lia. }
  split.
  - apply Nat.div_lt_upper_bound; lia.
  - apply Nat.mod_upper_bound; auto.
Qed.

(** ** code that throws nothing *)

Lemma bind_nt : forall A B (x : outcome A) (f : A -> outcome B),
  x <> Throws -> (forall a, f a <> Throws) -> bind x f <> Throws.
Proof. intros. destruct x; simpl; auto; congruence. Qed.

Lemma rd_nt : forall A (l : list A) i, rd l i <> Throws.
Proof. intros. unfold rd. destruct (nth_error l i); congruence. Qed.

Lemma wr_nt : forall A (l : list A) i x, wr l i x <> Throws.
Proof. intros. unfold wr. destruct (i <? length l); congruence. Qed.

Lemma for_from_nt : forall S cnt lo (b : nat -> S -> outcome S) s,
  (forall i s, b i s <> Throws) -> for_from lo cnt b s <> Throws.
Proof.
  induction cnt; simpl; intros; try congruence. apply bind_nt; auto.
Qed.

Lemma for_nt : forall S n (b : nat -> S -> outcome S) s,
  (forall i s, b i s <> Throws) -> for_ n b s <> Throws.
Proof. intros. apply for_from_nt; auto. Qed.

(** An array of [n] entries whose entry [i] is computed by [f i], in order. *)
Fixpoint gen_from {A} (lo n : nat) (f : nat -> outcome A) : outcome (list A) :=
  match n with
  | O => Ret []
  | S n' => x <- f lo ;; r <- gen_from (S lo) n' f ;; Ret (x :: r)
  end.
Definition gen {A} (n : nat) (f : nat -> outcome A) : outcome (list A) := gen_from 0 n f.

Lemma gen_from_ok : forall A n lo (f : nat -> outcome A) g,
  (forall i, lo <= i < lo + n -> f i = Ret (g i)) ->
  gen_from lo n f = Ret (map g (seq lo n)).
Proof.
  induction n; simpl; intros; auto. rewrite H by lia. cbn [bind].
  rewrite (IHn (S lo) f g) by (intros; apply H; lia). auto.
Qed.

Lemma gen_ok : forall A n (f : nat -> outcome A) g,
  (forall i, i < n -> f i = Ret (g i)) -> gen n f = Ret (tab n g).
Proof. intros. apply gen_from_ok. intros; apply H; lia. Qed.

Lemma gen_from_part : forall A n lo (f : nat -> outcome A) l d,
  gen_from lo n f = Ret l ->
  length l = n /\ forall i, i < n -> f (lo + i) = Ret (nth i l d).
Proof.
  induction n; simpl; intros lo f l d H.
  - inversion H; subst; split; auto; intros; lia.
  - destruct (f lo) eqn:E; simpl in H; try discriminate.
    destruct (gen_from (S lo) n f) eqn:E2; simpl in H; try discriminate.
    inversion H; subst. destruct (IHn _ _ _ d E2) as [L Q]. split; [simpl; auto|].
    intros [|i] Hi; simpl. { rewrite Nat.add_0_r; auto. }
    rewrite <- Nat.add_succ_comm. apply Q; lia.
Qed.

Lemma gen_part : forall A n (f : nat -> outcome A) l d,
  gen n f = Ret l -> length l = n /\ forall i, i < n -> f i = Ret (nth i l d).
Proof. intros. apply (gen_from_part A n 0 f l d H). Qed.
