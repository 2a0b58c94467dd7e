(** Hard message passing on the graph of a parity-check matrix, as Gallager describes it.  The matrix h has N rows, the
    variables, and M columns, the checks; checks_of, vars_of and others are those of LDPCBPSpec.v. *)
From Coq Require Import List Arith Bool ZArith.
From Verif Require Import Base LDPCSpec LDPCBPSpec.
Import ListNotations.
Local Open Scope nat_scope.

Section Passing.
Variables (A : Type) (N M : nat) (h : nat -> nat -> bool) (Y : nat -> A).
(** In iteration k, from 0, a variable sends to a check [var k y own os], from its channel value y, the message [own] it
    received from this check and the messages [os] it received from its other checks; a check sends to a variable [chk] of
    the messages of its other variables; [dec] decides a bit from the channel value and all the messages received. *)
Variables (var : nat -> A -> A -> list A -> A) (chk : list A -> A) (dec : A -> list A -> bool).

Definition to_vars (nu : nat -> nat -> A) (c v : nat) : A := chk (map (fun w => nu w c) (others v (vars_of N h c))).
Definition to_checks (k : nat) (mu : nat -> nat -> A) (v c : nat) : A :=
  var k (Y v) (mu c v) (map (fun d => mu d v) (others c (checks_of M h v))).
Fixpoint sent (k : nat) : nat -> nat -> A :=
  match k with 0 => fun v _ => Y v | S j => to_checks (S j) (to_vars (sent j)) end.
(** The decision after t iterations. *)
Definition decision (t v : nat) : bool := dec (Y v) (map (fun c => to_vars (sent (t - 1)) c v) (checks_of M h v)).
End Passing.

(** Messages that differ from y, messages equal to y. *)
Definition against (y : bool) (l : list bool) : nat := length (filter (fun m => xorb m y) l).
Definition agree (y : bool) (l : list bool) : nat := length (filter (fun m => negb (xorb m y)) l).

(** Gallager A: the channel value, or its complement when there are other messages and all of them are against it. *)
Definition var_A (_ : nat) (y _ : bool) (os : list bool) : bool :=
  if (0 <? length os) && (against y os =? length os) then negb y else y.
(** Gallager B as aff3ct has it: the complement when the other messages against the channel value are more than the
    messages, that of this edge included, that agree with it. *)
Definition var_B (_ : nat) (y own : bool) (os : list bool) : bool := if agree y (own :: os) <? against y os then negb y else y.
(** Gallager B of the literature: the majority of the other messages, the channel value when there is none. *)
Definition majority (y : bool) (l : list bool) : bool := if agree y l <? against y l then negb y else y.
Definition sum2 (l : list bool) : bool := fold_right xorb false l.

(** Gallager E: messages -1, 0 (an erasure) and 1; the channel counts twice in iteration 1. *)
Definition sumz (l : list Z) : Z := fold_right Z.add 0%Z l.
Definition prodz (l : list Z) : Z := fold_right Z.mul 1%Z l.
Definition var_E (k : nat) (y _ : Z) (os : list Z) : Z := Z.sgn ((if k =? 1 then 2 else 1) * y + sumz os).
Definition dec_E (y : Z) (l : list Z) : bool := (if y + sumz l =? 0 then y <? 0 else y + sumz l <? 0)%Z.
(** The value of a bit on the channel: 0 is 1 and 1 is -1. *)
Definition sig (b : bool) : Z := if b then (-1)%Z else 1%Z.

(** The decisions of the three decoders after t iterations, from the bits y of the channel. *)
Inductive algorithm := A | B | E.
Definition decided (a : algorithm) (N M : nat) (h : nat -> nat -> bool) (y : nat -> bool) (t v : nat) : bool :=
  match a with
  | A => decision bool N M h y var_A sum2 majority t v
  | B => decision bool N M h y var_B sum2 majority t v
  | E => decision Z N M h (fun v => sig (y v)) var_E prodz dec_E t v
  end.

(** No two variables take part together in two checks: the graph has no cycle of length 4. *)
Definition no_4_cycle (N M : nat) (h : nat -> nat -> bool) : Prop :=
  forall v w c d, v < N -> w < N -> c < M -> d < M -> v <> w -> c <> d ->
    ~ (h v c = true /\ h w c = true /\ h v d = true /\ h w d = true).
