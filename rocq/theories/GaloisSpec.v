(** Polynomials over GF(2) as binary numbers: bit i is the coefficient of x^i; addition is
    N.lxor. *)
From Coq Require Import List NArith ZArith Bool.
Import ListNotations.

(** Product of two polynomials. *)
Fixpoint clmul_pos (a : positive) (b : N) : N :=
  match a with
  | xH => b
  | xO a => N.double (clmul_pos a b)
  | xI a => N.lxor b (N.double (clmul_pos a b))
  end.
Definition clmul (a b : N) : N := match a with N0 => 0%N | Npos a => clmul_pos a b end.

(** [c] is the remainder of [a] in the division by the polynomial [P] of degree [m]. *)
Definition is_rem (m : nat) (P a c : N) : Prop := (c < 2 ^ N.of_nat m)%N /\ exists q, a = N.lxor (clmul q P) c.

(** The polynomial whose coefficient of x^i is "p[i] is non-zero". *)
Fixpoint poly_of (p : list Z) : N :=
  match p with
  | [] => 0%N
  | c :: p => N.lxor (if (c =? 0)%Z then 0%N else 1%N) (N.double (poly_of p))
  end.

(** Primitive polynomials of degree [m]: P does not divide x^k + 1 before k = 2^m - 1. *)
Definition primitive (m : nat) (P : N) : Prop :=
  N.log2 P = N.of_nat m /\ N.odd P = true /\
  forall k, 0 < k < 2 ^ m - 1 -> ~ exists q, N.lxor (2 ^ N.of_nat k) 1 = clmul q P.

(** The polynomial w (lowest coefficient first; its coefficients are themselves polynomials,
    i.e. elements of the field) evaluated at x^i, and the fact that the value is zero modulo P:
    x^i is a root of w in GF(2)[x]/(P). *)
Fixpoint at_pow (i : nat) (w : list N) : N :=
  match w with [] => 0%N | c :: w => N.lxor c (clmul (2 ^ N.of_nat i) (at_pow i w)) end.
Definition has_root (P : N) (i : nat) (w : list N) : Prop := exists q, at_pow i w = clmul q P.
