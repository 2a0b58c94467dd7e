(** What an extractor should give. *)
From Coq Require Import List Arith Bool ZArith.
Import ListNotations.

(** K different positions of a frame of N values. *)
Definition places (K N : nat) (pos : list nat) : Prop := length pos = K /\ NoDup pos /\ forall p, In p pos -> p < N.
(** The values at given positions. *)
Definition taken {R} (d : R) (pos : list nat) (y : list R) : list R := map (fun p => nth p y d) pos.
(** The positions that are not frozen, in increasing order. *)
Definition unfrozen (fb : list bool) : list nat := filter (fun i => negb (nth i fb true)) (seq 0 (length fb)).
(** The positions of a list, in increasing order, and the others. *)
Definition inside (N : nat) (pos : list nat) : list nat := filter (fun i => existsb (Nat.eqb i) pos) (seq 0 N).
Definition outside (N : nat) (pos : list nat) : list nat := filter (fun i => negb (existsb (Nat.eqb i) pos)) (seq 0 N).
