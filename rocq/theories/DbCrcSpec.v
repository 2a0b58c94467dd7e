(** Hard decisions on pairs of bits. *)
From Coq Require Import List Arith Bool ZArith.
Import ListNotations.

(** The a posteriori value of the pair of bits (a, b) at the position k. *)
Definition pair_value (sys ext : list Z) (k a b : nat) : Z :=
  Z.add (nth (4 * k + 2 * a + b) sys 0%Z) (nth (4 * k + 2 * a + b) ext 0%Z).
(** A bit is 1 when a pair with this bit at 1 is more likely than the two pairs with this bit at 0, and is 0 otherwise. *)
Definition is_decision (z : Z) (V : nat -> nat -> Z) : Prop :=
  (z = 1%Z /\ exists o, o < 2 /\ forall o', o' < 2 -> (V 0%nat o' < V 1%nat o)%Z) \/
  (z = 0%Z /\ forall o, o < 2 -> exists o', o' < 2 /\ (V 1%nat o <= V 0%nat o')%Z).
(** The frame s of the decisions on both bits of each pair. *)
Definition decided (sys ext s : list Z) : Prop := forall k, 2 * k < length s ->
  is_decision (nth (2 * k) s 0%Z) (fun x o => pair_value sys ext k x o) /\
  is_decision (nth (2 * k + 1) s 0%Z) (fun x o => pair_value sys ext k o x).
(** The pair (a, b) is strictly the most likely at the position k. *)
Definition winner (sys ext : list Z) (k a b : nat) : Prop := a < 2 /\ b < 2 /\
  forall a' b', a' < 2 -> b' < 2 -> (a', b') <> (a, b) -> (pair_value sys ext k a' b' < pair_value sys ext k a b)%Z.
