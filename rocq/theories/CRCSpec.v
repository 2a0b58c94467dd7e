(** Polynomials over GF(2) as words, highest degree first. *)
From Coq Require Import List Arith ZArith Bool.
From Verif Require Import GF2.
Import ListNotations.

(** k-th coefficient (from the highest degree) of the product of [q] and [g] *)
Definition prod_coef (q g : list bool) (k : nat) : bool :=
  xsum (length q) (fun i => nth i q false && (if i <=? k then nth (k - i) g false else false)).

(** the word [v] is, as a polynomial, a multiple of [g] *)
Definition multiple (g v : list bool) : Prop :=
  exists q, length v + 1 = length q + length g /\
            forall k, k < length v -> nth k v false = prod_coef q g k.

(** the generator polynomial given by a 32-bit key: x^size plus the [size] low bits
    of the key, highest degree first *)
Definition generator (packed : Z) (size : nat) : list bool :=
  true :: map (fun i => Z.testbit packed (Z.of_nat (size - 1 - i))) (seq 0 size).

(** bit [k] of a memory of bytes, least significant bit of a byte first *)
Definition mem_bit (mem : list Z) (k : nat) : bool :=
  Z.testbit (nth (k / 8) mem 0%Z) (Z.of_nat (k mod 8)).

(** frame [f] of a wave of [nf] interleaved frames of [n] elements *)
Definition interleaved_frame (nf f n : nat) (w : list Z) : list Z :=
  map (fun i => nth (i * nf + f) w 0%Z) (seq 0 n).
