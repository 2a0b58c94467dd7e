(** The generator MT19937 of Matsumoto and Nishimura, as an infinite recurrence on 32-bit words. *)
From Coq Require Import List Arith Lia Bool ZArith.
Import ListNotations.
Local Open Scope Z_scope.

(** The matrix A: shift to the right, and the constant a when the lowest bit is set. *)
Definition timesA (y : Z) : Z := if Z.odd y then Z.lxor (y / 2) 0x9908b0df else y / 2.
(** The highest bit of u and the 31 lowest bits of v. *)
Definition join (u v : Z) : Z := u / 2 ^ 31 * 2 ^ 31 + v mod 2 ^ 31.

(** x is the sequence of the generator for this seed: the 624 first words are those of the initialisation. *)
Definition mt19937 (seed : Z) (x : nat -> Z) : Prop :=
  x 0%nat = seed /\
  (forall i, (0 < i < 624)%nat -> x i = (1812433253 * Z.lxor (x (i - 1)%nat) (x (i - 1)%nat / 2 ^ 30) + Z.of_nat i) mod 2 ^ 32) /\
  (forall k, x (k + 624)%nat = Z.lxor (x (k + 397)%nat) (timesA (join (x k) (x (k + 1)%nat)))).

(** Tempering, bit by bit: bit i of y, with the masks b and c. *)
Definition temper (y : Z) : Z :=
  let bit y i := Z.testbit y i in
  let word f := fold_right (fun i acc => acc + if f (Z.of_nat i) : bool then 2 ^ Z.of_nat i else 0) 0 (seq 0 32) in
  let y := word (fun i => xorb (bit y i) (bit y (i + 11))) in
  let y := word (fun i => xorb (bit y i) (bit y (i - 7) && Z.testbit 0x9d2c5680 i)) in
  let y := word (fun i => xorb (bit y i) (bit y (i - 15) && Z.testbit 0xefc60000 i)) in
  word (fun i => xorb (bit y i) (bit y (i + 18))).
