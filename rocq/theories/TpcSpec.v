(** Product codes. *)
From Coq Require Import List Arith Bool.
From Verif Require Import Base.
Import ListNotations.

Fixpoint xor2 (u v : list bool) : list bool := match u, v with a :: u, b :: v => xorb a b :: xor2 u v | _, _ => [] end.
Definition parity (u : list bool) : bool := fold_right xorb false u.
(** An encoder from K to N bits, and a linear one. *)
Definition encoder (K N : nat) (e : list bool -> list bool) : Prop := forall u, length u = K -> length (e u) = N.
Definition linear (K : nat) (e : list bool -> list bool) : Prop := forall u v, length u = K -> length v = K -> e (xor2 u v) = xor2 (e u) (e v).
(** The code extended by a parity bit, when it is. *)
Definition extend (ext : bool) (e : list bool -> list bool) (u : list bool) : list bool := if ext then e u ++ [parity (e u)] else e u.

(** Line i and column j of a matrix of n columns kept line after line; k is the number of lines. *)
Definition line (n : nat) (x : list bool) (i : nat) : list bool := tab n (fun j => nth (i * n + j) x false).
Definition column (k n : nat) (x : list bool) (j : nat) : list bool := tab k (fun i => nth (i * n + j) x false).
(** The number of positions where two words differ. *)
Definition dist (n : nat) (x y : list bool) : nat := length (filter (fun i => xorb (nth i x false) (nth i y false)) (seq 0 n)).
(** Any two words of K bits have encodings of N bits that differ in d positions or more. *)
Definition distance (K N d : nat) (e : list bool -> list bool) : Prop :=
  forall u v, length u = K -> length v = K -> u <> v -> d <= dist N (e u) (e v).

(** The product encoding of Kc lines of Kr bits to Nc lines of Nr bits: every line of U is encoded by er, then every column by ec;
    or every column of U is encoded by ec, then every line by er. *)
Definition lines_first (Kr Nr Kc Nc : nat) (er ec : list bool -> list bool) (U : list bool) : list bool :=
  tab (Nc * Nr) (fun p => nth (p / Nr) (ec (tab Kc (fun i => nth (p mod Nr) (er (line Kr U i)) false))) false).
Definition columns_first (Kr Nr Kc Nc : nat) (er ec : list bool -> list bool) (U : list bool) : list bool :=
  tab (Nc * Nr) (fun p => nth (p mod Nr) (er (tab Kr (fun j => nth (p / Nr) (ec (column Kc Kr U j)) false))) false).
