(** Erasure decoding, from the point of view of the user of the peeling decoder. *)
From Coq Require Import List Arith Lia Bool ZArith.
From Verif Require Import Base SparseModel SparseSpec LDPCSpec HardModel.
Import ListNotations.

(** Y is the codeword x with some positions replaced by the unknown symbol. *)
Definition received (UNK : Z) (N : nat) (x : nat -> bool) (Y : list Z) : Prop :=
  length Y = N /\ forall v, v < N -> nth v Y 0%Z = UNK \/ nth v Y 0%Z = bitz (x v).
Definition erased (UNK : Z) (Y : list Z) (v : nat) : bool := (nth v Y 0 =? UNK)%Z.
Definition n_erased (UNK : Z) (N : nat) (Y : list Z) : nat := length (filter (erased UNK Y) (seq 0 N)).

(** A stopping set: no check has exactly one variable in it. *)
Definition stopping (N M : nat) (h : nat -> nat -> bool) (S : nat -> bool) : Prop :=
  forall c, c < M -> length (filter (fun v => h v c && S v) (seq 0 N)) <> 1.

(** A position that no decoder working check by check can know. *)
Definition stuck (UNK : Z) (N M : nat) (h : nat -> nat -> bool) (Y : list Z) (v : nat) : Prop :=
  exists S, stopping N M h S /\ (forall u, u < N -> S u = true -> erased UNK Y u = true) /\ S v = true.
