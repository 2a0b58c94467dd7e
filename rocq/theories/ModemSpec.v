(** Modulation and demodulation, as a textbook gives them, on rational points of the plane. *)
From Coq Require Import List Arith Bool ZArith QArith.
From Verif Require Import Base.
Import ListNotations.
Local Open Scope nat_scope.

Definition point := (Q * Q)%type.
Definition same_point (a b : point) : Prop := (fst a == fst b /\ snd a == snd b)%Q.
Definition dist2 (a b : point) : Q := ((fst a - fst b) * (fst a - fst b) + (snd a - snd b) * (snd a - snd b))%Q.
Definition times (a b : point) : point := (fst a * fst b - snd a * snd b, fst a * snd b + snd a * fst b)%Q.

(** The point k of a buffer: two numbers per point for a complex modulation, one number for a real one. *)
Definition point_of (cplx : bool) (Y : list Q) (k : nat) : point :=
  if cplx then (nth (2 * k) Y 0%Q, nth (2 * k + 1) Y 0%Q) else (nth k Y 0%Q, 0%Q).

(** The binary digits of the label of symbol k of a frame X with b bits per symbol, least significant first; the bits after
    the end of the frame are zero. *)
Definition carries (b : nat) (X : list bool) (k j : nat) : Prop :=
  j < 2 ^ b /\ forall l, l < b -> Nat.testbit j l = nth (k * b + l) X false.

(** The smallest value of f on the labels j < n that satisfy P. *)
Definition least (n : nat) (P : nat -> Prop) (f : nat -> Q) (m : Q) : Prop :=
  (exists j, j < n /\ P j /\ (f j == m)%Q) /\ forall j, j < n -> P j -> (m <= f j)%Q.

(** The sign of an LLR is that of the bit: positive for 0, negative for 1. *)
Definition tells (x : bool) (q : Q) : Prop := if x then (q < 0)%Q else (0 < q)%Q.

(** Roundings that keep signs: those of floating-point numbers, without underflow. *)
Definition keeps_signs (rnd : Q -> Q) : Prop :=
  (forall x y, (x == y)%Q -> (rnd x == rnd y)%Q) /\ (rnd 0 == 0)%Q /\
  (forall x, (0 < x)%Q -> (0 < rnd x)%Q) /\ (forall x, (x < 0)%Q -> (rnd x < 0)%Q).

(** What is expected from point s after a channel with an optional gain. *)
Definition through (cplx : bool) (H : option (list Q)) (k : nat) (s : point) : point :=
  match H with None => s | Some H => times (point_of cplx H k) s end.

(** The sum of the a priori values of the other bits of the symbol k that are 1 in label j. *)
Definition priors (b : nat) (La : list Q) (n k j : nat) : Q :=
  fold_right Qplus 0%Q (map (fun l => nth (k * b + l) La 0%Q)
    (filter (fun l => negb (k * b + l =? n) && Nat.testbit j l) (seq 0 b))).
