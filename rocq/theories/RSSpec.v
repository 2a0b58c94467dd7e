(** Reed-Solomon codes over GF(2)[x]/(P), P of degree m: words of m-bit symbols whose polynomial
    has the roots x, x^2, ..., x^(2t). *)
From Coq Require Import List Arith NArith ZArith.
From Verif Require Import GaloisSpec.
Import ListNotations.

Definition symbols_ok (m : nat) (w : list Z) : Prop := Forall (fun s => 0 <= s < 2 ^ Z.of_nat m)%Z w.
Definition rs_codeword (P : N) (m t : nat) (w : list Z) : Prop :=
  symbols_ok m w /\ forall i, 1 <= i <= 2 * t -> has_root P i (map Z.to_N w).

(** The symbols carried by a word of bits: m bits each, least significant first. *)
Definition sym_val (bs : list Z) : Z := fold_right (fun b a => b + 2 * a)%Z 0%Z bs.
Definition symbols (m N : nat) (bs : list Z) : list Z := map (fun k => sym_val (firstn m (skipn (k * m) bs))) (seq 0 N).
