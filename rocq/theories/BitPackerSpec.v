(** What packing means, independently of the loops. *)
From Coq Require Import List Arith ZArith Bool.
Import ListNotations.

(** The symbol [s], of [w] bits, holds the [n] bits [bit 0 .. bit (n-1)] in the
    requested order, and zeros elsewhere: least significant first means that bit
    [k] of [s] is [bit k]; most significant first that bit [w-1-k] of [s] is
    [bit k]. *)
Definition holds_bits (msb : bool) (w n : nat) (bit : nat -> bool) (s : Z) : Prop :=
  (0 <= s < 2 ^ Z.of_nat w)%Z /\
  forall k, k < w ->
    Z.testbit s (Z.of_nat (if msb then w - 1 - k else k)) = (k <? n) && bit k.

(** number of symbols needed for [n] bits *)
Definition symbols_for (n nbps : nat) : nat := (n + nbps - 1) / nbps.

(** the bits carried by a vector of elements: any non-zero element is a 1 *)
Definition bits_of (v : list Z) : list bool := map (fun x => negb (x =? 0)%Z) v.

(** the vector of 0/1 elements for given bits *)
Definition of_bits (v : list bool) : list Z := map (fun b : bool => if b then 1%Z else 0%Z) v.

(** memory seen as [n] little-endian elements of [sB] bytes *)
Definition le_value (l : list Z) : Z := fold_right (fun b a => b + 256 * a)%Z 0%Z l.
Definition elements (sB n : nat) (m : list Z) : list Z :=
  map (fun k => le_value (firstn sB (skipn (k * sB) m))) (seq 0 n).
