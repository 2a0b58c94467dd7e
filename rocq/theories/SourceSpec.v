(** What binary files of bits mean. *)
From Coq Require Import List Arith Bool ZArith.
From Verif Require Import Base.
Import ListNotations.

(** Bit p of a file: the bits of a byte go from the least to the most significant one; zero after the end of the file. *)
Definition file_bit (file : list Z) (p : nat) : Z :=
  if Z.testbit (nth (p / 8) file 0%Z) (Z.of_nat (p mod 8)) then 1%Z else 0%Z.

(** The frame of K bits that starts at bit p of the sequence [bit]. *)
Definition frame_at (bit : nat -> Z) (K p : nat) : list Z := tab K (fun i => bit (p + i)).
