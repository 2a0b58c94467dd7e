(** What the polar properties say. *)
From Coq Require Import List Arith Lia Bool.
From Verif Require Import Base GF2.
Import ListNotations.

(** the bits of [j] include the bits of [i] *)
Definition sub (i j : nat) : bool := Nat.land i j =? i.

(** Bit [i] of the Arikan transform of [u]: xor of the inputs that contain [i]. *)
Definition arikan_bit (N : nat) (u : list bool) (i : nat) : bool :=
  xsum N (fun j => nth j u false && sub i j).
Definition arikan (N : nat) (u : list bool) : list bool := tab N (arikan_bit N u).

(** Positions that are not frozen, in increasing order. *)
Definition info_positions (fb : list bool) : list nat :=
  filter (fun i => negb (nth i fb true)) (seq 0 (length fb)).

(** [v] carries the bits [u], in order, at the positions [pos]. *)
Definition carries (pos : list nat) (u v : list bool) : Prop :=
  map (fun p => nth p v false) pos = u.

(** [v] is zero at the frozen positions. *)
Definition frozen_zero (fb v : list bool) : Prop :=
  forall i, i < length fb -> nth i fb true = true -> nth i v false = false.

(** [v] is the input word of the transform for the message [u]. *)
Definition input_word (fb u v : list bool) : Prop :=
  length v = length fb /\ frozen_zero fb v /\ carries (info_positions fb) u v.

(** [x] is a word of the polar code of length [N] with frozen set [fb]. *)
Definition polar_codeword (N : nat) (fb x : list bool) : Prop :=
  exists u v, input_word fb u v /\ x = arikan N v.

(** The information set is closed under bitwise domination. *)
Definition domination_closed (fb : list bool) : Prop :=
  forall i j, i < length fb -> j < length fb ->
    nth i fb true = false -> sub i j = true -> nth j fb true = false.

(** Entry (q, p) of the Kronecker product of the kernels of the stages, first stage =
    least significant digit. *)
Fixpoint kron (ks : list (list (list bool))) (q p : nat) : bool :=
  match ks with
  | [] => true
  | k :: rest =>
    let s := length k in
    nth (p mod s) (nth (q mod s) k []) false && kron rest (q / s) (p / s)
  end.
Definition kron_size (ks : list (list (list bool))) : nat :=
  fold_right (fun k n => length k * n) 1 ks.
(** Word [u] times that matrix. *)
Definition kron_encode (ks : list (list (list bool))) (u : list bool) : list bool :=
  tab (kron_size ks) (fun p => xsum (kron_size ks) (fun q => nth q u false && kron ks q p)).

(** square matrix *)
Definition square (k : list (list bool)) : Prop := Forall (fun r => length r = length k) k.
(** [b] is an inverse of [a] over GF(2) (for row vectors: a then b). *)
Definition inverse_of (a b : list (list bool)) : Prop :=
  length b = length a /\ square a /\ square b /\
  forall i j, i < length a -> j < length a ->
    xsum (length a) (fun k => nth k (nth i a []) false && nth j (nth k b []) false) = (i =? j).
