(** What a genius decoder gives. *)
From Coq Require Import List Arith Bool ZArith.
From Verif Require Import Base.
Import ListNotations.

(** The number of positions where two words of n bits differ. *)
Definition errors (n : nat) (x y : list Z) : nat := length (filter (fun i => negb (nth i x 0 =? nth i y 0)%Z) (seq 0 n)).
(** Hard decisions: 1 for a negative value. *)
Definition decisions {R} (lt0 : R -> bool) (y : list R) : list Z := map (fun v => if lt0 v then 1%Z else 0%Z) y.
(** The sent word when there are at most t errors, the received one otherwise. *)
Definition genius (t n : nat) (x y : list Z) : list Z := if errors n x y <=? t then x else y.
