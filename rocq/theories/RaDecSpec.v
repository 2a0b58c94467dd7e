(** Decoding of repeat-accumulate codes: max-log estimation of the bits that enter the accumulator. *)
From Coq Require Import List Arith Bool ZArith QArith Qabs.
From Verif Require Import Base LDPCBPSpec FlipSpec.
Import ListNotations.
Local Open Scope nat_scope.

(** The accumulator: its output is the sum of the bits it received so far. *)
Fixpoint acc (u : nat -> bool) (i : nat) : bool := match i with 0 => u 0 | S j => xorb (acc u j) (u (S j)) end.
(** The metric of N input bits, given the LLRs a of the inputs and y of the outputs: the sum of the LLRs of the zeros (it is
    the log-likelihood, up to a constant). *)
Definition gain (b : bool) (q : Q) : Q := if b then 0%Q else q.
Definition metric (N : nat) (a y : nat -> Q) (u : nat -> bool) : Q :=
  qtotal (map (fun i => (gain (u i) (a i) + gain (acc u i) (y i))%Q) (seq 0 N)).
(** m is the largest metric of the inputs that satisfy P. *)
Definition best (N : nat) (a y : nat -> Q) (P : (nat -> bool) -> Prop) (m : Q) : Prop :=
  (exists u, P u /\ (metric N a y u == m)%Q) /\ forall u, P u -> (metric N a y u <= m)%Q.
(** e is the max-log LLR of input i, its own LLR being taken away. *)
Definition max_log (N : nat) (a y : nat -> Q) (i : nat) (e : Q) : Prop :=
  exists m0 m1, best N a y (fun u => u i = false) m0 /\ best N a y (fun u => u i = true) m1 /\ (e == m0 - m1 - a i)%Q.

(** The inputs of the accumulator that are copies of bit k of the message: input q is bit lut[q] of the repeated message. *)
Definition copies (N rep : nat) (lut : list nat) (k : nat) : list nat := filter (fun q => nth q lut 0 / rep =? k) (seq 0 N).
(** The iterations: [a t] are the LLRs of the inputs before iteration t (none at first, then the sum of what the other copies
    of the bit said) and [e t] what iteration t says. *)
Definition ra_run (N rep : nat) (lut : list nat) (y : nat -> Q) (a e : nat -> nat -> Q) : Prop :=
  (forall q, q < N -> (a 0%nat q == 0)%Q) /\
  (forall t i, i < N -> max_log N (a t) y i (e t i)) /\
  (forall t q, q < N -> (a (S t) q == qtotal (map (e t) (others q (copies N rep lut (nth q lut 0%nat / rep)%nat))))%Q).
(** The interleaver: lut is a permutation and inv its inverse. *)
Definition inverse (N : nat) (lut inv : list nat) : Prop := is_perm N lut /\ length inv = N /\ forall i, i < N -> nth (nth i lut 0) inv 0 = i.
