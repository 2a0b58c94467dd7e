(** Specification of the small helpers. *)
From Coq Require Import List Arith Lia Bool ZArith QArith Qabs.
Import ListNotations.
Local Open Scope nat_scope.

(** In increasing order. *)
Definition sortedQ (l : list Q) : Prop := forall i j, i <= j < length l -> (nth i l 0 <= nth j l 0)%Q.
(** The distance to v of the element i. *)
Definition dist (l : list Q) (v : Q) (i : nat) : Q := Qabs (nth i l 0 - v)%Q.

(** The positions at which a new run of equal values begins. *)
Definition run_starts {A} (eqb : A -> A -> bool) (d : A) (l : list A) : list nat :=
  filter (fun i => (i =? 0) || negb (eqb (nth (i - 1) l d) (nth i l d))) (seq 0 (length l)).

(** Sum of f lo, ..., f (lo + n - 1). *)
Definition sumQ (f : nat -> Q) (lo n : nat) : Q := fold_right (fun i acc => f i + acc)%Q 0%Q (seq lo n).

(** The point of abscissa v of the segment between (x0,y0) and (x1,y1). *)
Definition on_segment (x0 y0 x1 y1 v r : Q) : Prop := ((r - y0) * (x1 - x0) == (y1 - y0) * (v - x0))%Q.
