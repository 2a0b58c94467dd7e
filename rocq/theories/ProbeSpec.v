(** A queue of at most S elements. *)
From Coq Require Import List Arith Bool.
From Verif Require Import ProbeModel.
Import ListNotations.

Section Queue.
Variables (T : Type) (S : nat).
Definition q_step (o : op T) (q : list T) : res T * list T :=
  match o with
  | Push _ x => if length q <? S then (Pushed T true, q ++ [x]) else (Pushed T false, q)
  | Pull _ => (Pulled T (hd_error q), tl q)
  | Clear _ => (Done T, [])
  end.
Fixpoint q_run (l : list (op T)) (q : list T) : list (res T) * list T :=
  match l with
  | [] => ([], q)
  | o :: l => let '(a, q) := q_step o q in let '(b, q) := q_run l q in (a :: b, q)
  end.
(** The queue gets full only while nothing was taken since the creation or the last reset (p: something was taken). *)
Fixpoint calm (l : list (op T)) (q : list T) (p : bool) : Prop :=
  match l with
  | [] => True
  | o :: l =>
    let q' := snd (q_step o q) in
    let p' := match o with Push _ _ => p | Pull _ => true | Clear _ => false end in
    match o with Push _ _ => length q' < S \/ p = false | _ => True end /\ calm l q' p'
  end.
End Queue.
