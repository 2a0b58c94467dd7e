(** BCH codes: the words whose polynomial has the roots x, x^2, ..., x^(2t) modulo P. *)
From Coq Require Import List Arith NArith ZArith.
From Verif Require Import GaloisSpec.
Import ListNotations.

Definition bits (w : list Z) : Prop := Forall (fun b => b = 0%Z \/ b = 1%Z) w.
Definition bch_codeword (P : N) (t : nat) (w : list Z) : Prop :=
  bits w /\ forall i, 1 <= i <= 2 * t -> has_root P i (map Z.to_N w).

(** Number of positions where two words differ. *)
Fixpoint hdist (a b : list Z) : nat :=
  match a, b with
  | x :: a, y :: b => (if (x =? y)%Z then 0 else 1) + hdist a b
  | _, _ => 0
  end.
(** Sum of two binary words. *)
Fixpoint xorw (a b : list Z) : list Z :=
  match a, b with
  | x :: a, y :: b => Z.lxor x y :: xorw a b
  | _, _ => []
  end.
