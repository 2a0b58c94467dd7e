(** Specification vocabulary for the interleaver properties. It only uses lists. *)
From Coq Require Import List Arith.
Import ListNotations.

(** [t] is a bijection of {0,..,n-1} given as a table. *)
Definition permutation_table (n : nat) (t : list nat) : Prop :=
  length t = n /\ (forall i, i < n -> nth i t 0 < n) /\
  (forall i j, i < n -> j < n -> nth i t 0 = nth j t 0 -> i = j).

(** [q] undoes [p]. *)
Definition undoes (n : nat) (q p : list nat) : Prop :=
  forall i, i < n -> nth (nth i p 0) q 0 = i.

(** Sub-table of frame [f] in an array of consecutive tables of size [n]. *)
Definition frame (n f : nat) {A} (l : list A) : list A := firstn n (skipn (f * n) l).
