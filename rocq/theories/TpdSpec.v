(** Iterative decoding of a product code: a matrix of nr lines and nc columns kept line after line. *)
From Coq Require Import List Arith Bool QArith.
From Verif Require Import Base.
Import ListNotations.
Local Open Scope nat_scope.

Definition row {A} (a : A) (nc : nat) (x : list A) (i : nat) : list A := tab nc (fun j => nth (i * nc + j) x a).
Definition col {A} (a : A) (nr nc : nat) (x : list A) (j : nat) : list A := tab nr (fun i => nth (i * nc + j) x a).
(** Every column (every line) goes through a component decoder; its output, scaled, is added to the channel values. *)
Definition columns_step (nr nc : nat) (f : list Q -> list Q) (alpha : Q) (cha Y : list Q) : list Q :=
  tab (nr * nc) (fun p => nth (p / nc) (f (col 0%Q nr nc Y (p mod nc))) 0 * alpha + nth p cha 0)%Q.
Definition rows_step (nr nc : nat) (f : list Q -> list Q) (alpha : Q) (cha Y : list Q) : list Q :=
  tab (nr * nc) (fun p => nth (p mod nc) (f (row 0%Q nc Y (p / nc))) 0 * alpha + nth p cha 0)%Q.
(** The beta used in step k: the k-th one of the list, or that of the component decoder without a list. *)
Definition beta_of (betas : list Q) (own : option Q) (k : nat) : option Q := match betas with [] => own | _ => Some (nth k betas 0%Q) end.
Section Iterations.
Variables (nr nc : nat) (sr sc : option Q -> list Q -> list Q) (alphas betas : list Q) (br bc : option Q) (cha : list Q).
Definition after_columns (i : nat) (Y : list Q) : list Q := columns_step nr nc (sc (beta_of betas bc (2 * i))) (nth (2 * i) alphas 0%Q) cha Y.
Definition after_rows (i : nat) (Y : list Q) : list Q := rows_step nr nc (sr (beta_of betas br (2 * i + 1))) (nth (2 * i + 1) alphas 0%Q) cha Y.
(** The values before iteration k. *)
Fixpoint values (k : nat) : list Q := match k with 0 => cha | S i => after_rows i (after_columns i (values i)) end.
End Iterations.

(** Values that agree with a word: positive for a bit 0 and negative for a bit 1; weakly when zero is accepted too. *)
Definition agrees (x : list bool) (v : list Q) : Prop := forall i, i < length x -> if nth i x false then (nth i v 0 < 0)%Q else (0 < nth i v 0)%Q.
Definition weakly (x : list bool) (v : list Q) : Prop := forall i, i < length x -> if nth i x false then (nth i v 0 <= 0)%Q else (0 <= nth i v 0)%Q.
(** A word of the product code: every line is in one code and every column in the other. *)
Definition in_product (nr nc : nat) (Cr Cc : list bool -> Prop) (x : list bool) : Prop :=
  length x = nr * nc /\ (forall i, i < nr -> Cr (row false nc x i)) /\ (forall j, j < nc -> Cc (col false nr nc x j)).
(** A component decoder that does not contradict values without error. *)
Definition trusts (C : list bool -> Prop) (n : nat) (f : option Q -> list Q -> list Q) : Prop :=
  forall b w u, C w -> length w = n -> length u = n -> agrees w u -> weakly w (f b u).
