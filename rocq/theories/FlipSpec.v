(** Bit flipping on the graph of a parity-check matrix.  The matrix h has N rows, the variables, and M columns, the checks;
    checks_of and vars_of are those of LDPCBPSpec.v. *)
From Coq Require Import List Arith Bool ZArith QArith Qabs.
From Verif Require Import Base LDPCSpec LDPCBPSpec.
Import ListNotations.
Local Open Scope nat_scope.

Section Flipping.
Variables (N M : nat) (h : nat -> nat -> bool).

(** A check that the bits x do not satisfy. *)
Definition fails (x : nat -> bool) (c : nat) : bool := parity N (fun v => h v c && x v).

(** Weighted bit flipping: a check weighs the smallest magnitude of its variables (at most mx); the failed checks of a
    variable speak for its flip, the other ones and its own magnitude against it. *)
Section Weighted.
Variables (mx factor : Q) (Y : nat -> Q).
Definition weight (c : nat) : Q := smallest mx (map Y (vars_of N h c)).
Definition qtotal (l : list Q) : Q := fold_right Qplus 0%Q l.
Definition drive (x : nat -> bool) (v : nat) : Q :=
  (qtotal (map (fun c => if fails x c then weight c else - weight c) (checks_of M h v)) - factor * Qabs (Y v))%Q.
(** The first variable of largest drive. *)
Definition first_max (f : nat -> Q) (v : nat) : Prop :=
  v < N /\ (forall w, w < N -> (f w <= f v)%Q) /\ (forall w, w < v -> (f w < f v)%Q).
(** One iteration: nothing is flipped in a codeword. *)
Definition flipped (x x' : nat -> bool) : Prop :=
  (in_code N M h x /\ forall w, w < N -> x' w = x w) \/
  (~ in_code N M h x /\ exists v, first_max (drive x) v /\ forall w, w < N -> x' w = if w =? v then negb (x w) else x w).
Fixpoint flips (k : nat) (x x' : nat -> bool) : Prop :=
  match k with 0 => forall w, w < N -> x' w = x w | S j => exists m, flips j x m /\ flipped m x' end.
End Weighted.

(** Parallel bit flipping: every variable is flipped with a probability that depends on its number of failed checks, plus
    one when it differs from the received bit.  [draw e g] is the outcome for the number e and the new random engine. *)
Section Parallel.
Variables (G : Type) (draw : nat -> G -> bool * G) (y : nat -> bool).
Definition failures (x : nat -> bool) (v : nat) : nat := Nat.b2n (xorb (x v) (y v)) + length (filter (fails x) (checks_of M h v)).
(** The outcomes of the draws for the numbers of a list, in this order. *)
Fixpoint draws (l : list nat) (g : G) : list bool * G :=
  match l with [] => ([], g) | e :: l => let (o, g) := draw e g in let (os, g) := draws l g in (o :: os, g) end.
Definition pstep (s : (nat -> bool) * G) : (nat -> bool) * G :=
  let (x, g) := s in let (os, g) := draws (map (failures x) (seq 0 N)) g in (fun v => xorb (x v) (nth v os false), g).
Fixpoint parallel (k : nat) (g : G) : (nat -> bool) * G :=
  match k with 0 => (y, g) | S j => pstep (parallel j g) end.
End Parallel.
End Flipping.

(** A code of minimum distance three or more: no codeword but zero has all its ones in two positions. *)
Definition distance_3 (N M : nat) (h : nat -> nat -> bool) : Prop :=
  forall x a b, in_code N M h x -> (forall v, v < N -> v <> a -> v <> b -> x v = false) -> forall v, v < N -> x v = false.
