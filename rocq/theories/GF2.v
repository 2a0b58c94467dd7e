(** Sums over GF(2). *)
From Coq Require Import List Arith Lia Bool.
Import ListNotations.

(** [xsum n f] = f 0 + ... + f (n-1) modulo 2 *)
Fixpoint xsum (n : nat) (f : nat -> bool) : bool :=
  match n with
  | O => false
  | S n' => xorb (xsum n' f) (f n')
  end.

Lemma xsum_ext : forall n f g, (forall i, i < n -> f i = g i) -> xsum n f = xsum n g.
Proof. induction n; simpl; intros; auto. rewrite (IHn f g) by auto. rewrite H by lia. auto. Qed.

Lemma xsum_false : forall n f, (forall i, i < n -> f i = false) -> xsum n f = false.
Proof. induction n; simpl; intros; auto. rewrite IHn by auto. rewrite H by lia. auto. Qed.

Lemma xsum_xorb : forall n f g, xsum n (fun i => xorb (f i) (g i)) = xorb (xsum n f) (xsum n g).
Proof.
  induction n; simpl; intros; auto. rewrite IHn.
  destruct (xsum n f), (xsum n g), (f n), (g n); auto.
Qed.

Lemma xsum_andb_l : forall n c f, xsum n (fun i => c && f i) = c && xsum n f.
Proof.
  induction n; simpl; intros. { rewrite andb_false_r; auto. }
  rewrite IHn. destruct c, (xsum n f), (f n); auto.
Qed.

Lemma xsum_andb_r : forall n c f, xsum n (fun i => f i && c) = xsum n f && c.
Proof.
  induction n; simpl; intros; auto.
  rewrite IHn. destruct c, (xsum n f), (f n); auto.
Qed.

Lemma xsum_single : forall n f i, i < n -> (forall j, j < n -> j <> i -> f j = false) -> xsum n f = f i.
Proof.
  induction n; simpl; intros; try lia.
  destruct (Nat.eq_dec i n).
  - subst. rewrite xsum_false. { destruct (f n); auto. } intros; apply H0; lia.
  - rewrite (IHn f i); try lia. { rewrite (H0 n) by lia. apply xorb_false_r. }
    intros; apply H0; lia.
Qed.

Lemma xsum_app : forall n m f, xsum (n + m) f = xorb (xsum n f) (xsum m (fun i => f (n + i))).
Proof.
  induction m; simpl; intros.
  - rewrite Nat.add_0_r. rewrite xorb_false_r. auto.
  - rewrite Nat.add_succ_r. simpl. rewrite IHm. rewrite xorb_assoc. auto.
Qed.

Lemma xsum_S_l : forall n f, xsum (S n) f = xorb (f 0) (xsum n (fun i => f (S i))).
Proof.
  intros. change (S n) with (1 + n). rewrite xsum_app. simpl. destruct (f 0); auto.
Qed.

Lemma xsum_swap : forall n m f, xsum n (fun i => xsum m (fun j => f i j)) = xsum m (fun j => xsum n (fun i => f i j)).
Proof.
  induction n; simpl; intros.
  - symmetry. apply xsum_false. auto.
  - rewrite IHn. rewrite <- xsum_xorb. auto.
Qed.

Lemma xsum_mul : forall n m f, xsum (n * m) f = xsum n (fun i => xsum m (fun j => f (i * m + j))).
Proof.
  induction n; intros; auto.
  replace (S n * m) with (n * m + m) by lia. rewrite xsum_app, IHn. reflexivity.
Qed.

Lemma xorb_cancel : forall a b, xorb a (xorb a b) = b.
Proof. intros [] []; auto. Qed.

(** pointwise xor of words of the same length *)
Fixpoint xorl (a b : list bool) : list bool :=
  match a, b with
  | x :: a', y :: b' => xorb x y :: xorl a' b'
  | _, _ => []
  end.

Lemma length_xorl : forall a b, length a = length b -> length (xorl a b) = length a.
Proof. induction a; destruct b; simpl; intros; auto; try discriminate. Qed.

Lemma nth_xorl : forall a b i, length a = length b ->
  nth i (xorl a b) false = xorb (nth i a false) (nth i b false).
Proof.
  induction a; destruct b; simpl; intros; try discriminate.
  - destruct i; auto.
  - destruct i; auto.
Qed.
