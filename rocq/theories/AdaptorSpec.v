(** What the users of the adaptors see: the pushes and the pulls. *)
From Coq Require Import List Arith.
From Verif Require Import Base AdaptorModel.
Import ListNotations.

(** The data that went through the ring i. *)
Definition on {A} (i : nat) (h : list (nat * A)) : list A := map snd (filter (fun p => fst p =? i) h).
Definition prefix {A} (l m : list A) : Prop := exists r, m = l ++ r.

(** The ring of the k-th call of push_1 or pull_1: the rings of the clones in use, in turn. *)
Definition clones (n : nat) (used : nat -> bool) : list nat := filter used (seq 0 n).
Definition in_turn (n : nat) (used : nat -> bool) (k : nat) : nat := nth (k mod length (clones n used)) (clones n used) 0.

(** The states of all the executions, whatever the schedule, the calls, the cancellations and the spurious wake-ups. *)
Section Reach.
Variable D : Type.
Variable d0 : D.
Variables (one_to_n : bool) (n : nat) (used : nat -> bool) (size nsock : nat) (active : bool) (tgt : nat -> tid) (ncan : nat).
Definition reachable (s : st D) : Prop := exists b ls, execs D d0 one_to_n n used size nsock active tgt ncan ls (init D b) = Some s.

(** A thread at work makes a step other than a turn of the loop of the active waiting. *)
Definition works (a : actor) (s s' : st D) : Prop :=
  exec D d0 one_to_n n used size nsock active tgt ncan (LRun a) s = Some s' /\
  match a with T t => ~ (pcs s t = Wait /\ active = true /\ blocked one_to_n size s t = true) | C _ => True end.

(** No thread and no call of cancel_waiting has anything left to do (but to go on waiting). *)
Definition quiet (s : st D) : Prop := forall a s', ~ works a s s'.
(** A schedule of steps of the threads at work. *)
Inductive run : st D -> st D -> Prop :=
| run_nil : forall s, run s s
| run_step : forall a s s1 s2, works a s s1 -> run s1 s2 -> run s s2.
End Reach.

(** Where a thread is, seen from outside. *)
Definition in_call (p : pc) : bool := match p with Idle | Thrown => false | _ => true end.
Definition waiting (active : bool) (p : pc) : bool := match p with Sleep => true | Wait => active | _ => false end.
(** In the waiting part of push or pull. *)
Definition in_wait (p : pc) : bool := match p with Wait | Lock | Pred | Sleep | Unlock | Test => true | _ => false end.
