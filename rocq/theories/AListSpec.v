(** What files of LDPC matrices contain. *)
From Coq Require Import List Arith Lia Bool ZArith Ascii.
From Verif Require Import Base SparseModel SparseSpec AListModel.
Import ListNotations.

(** The text made of the lines ls. *)
Definition lines (ls : list text) : text := flat_map (fun l => l ++ [nl]) ls.
Definition no_nl (l : text) : Prop := ~ In nl l.

(** The lines that are neither comments nor blank. *)
Definition comment (l : text) : bool := match l with c :: _ => Ascii.eqb c hash | [] => false end.
Definition blank (l : text) : bool := forallb is_space l.
Definition relevant (ls : list text) : list text := filter (fun l => negb (comment l || blank l)) ls.

(** The words of a line: separated by spaces. *)
Definition word (w : text) : Prop := w <> [] /\ forall c, In c w -> is_space c = false.
Inductive has_words : text -> list text -> Prop :=
| hw_nil : forall p, blank p = true -> has_words p []
| hw_last : forall p w, blank p = true -> word w -> has_words (p ++ w) [w]
| hw_cons : forall p w c t ws, blank p = true -> word w -> is_space c = true -> has_words t ws -> has_words (p ++ w ++ c :: t) (w :: ws).

(** A word that is a number in decimal notation. *)
Definition value (d : text) : Z := fold_left (fun a c => 10 * a + digit c)%Z d 0%Z.
Definition digits (d : text) : Prop := d <> [] /\ forall c, In c d -> is_digit c = true.
Definition decimal (w : text) (z : Z) : Prop :=
  (digits w /\ z = value w) \/ (exists d, w = minus :: d /\ digits d /\ z = (- value d)%Z).

Definition numbers (l : text) (zs : list Z) : Prop := exists ws, has_words l ws /\ Forall2 decimal ws zs.

(** The line lists the indexes idx, counted from one, then possibly zeros. *)
Definition index_line (l : text) (idx : list nat) : Prop :=
  exists pad, numbers l (map (fun x => Z.of_nat x + 1)%Z idx ++ repeat 0%Z pad).

(** t is an AList file of the n x m matrix f, followed by anything. *)
Definition alist_file (t : text) (n m : nat) (f : nat -> nat -> bool) : Prop :=
  exists ls rest l1 l2 l3 l4 rows cols ridx cidx,
    t = lines ls ++ rest /\ Forall no_nl ls /\ relevant ls = l1 :: l2 :: l3 :: l4 :: rows ++ cols /\
    numbers l1 [Z.of_nat n; Z.of_nat m] /\
    numbers l2 [Z.of_nat (list_max (map (row_deg f m) (seq 0 n))); Z.of_nat (list_max (map (col_deg f n) (seq 0 m)))] /\
    numbers l3 (map (fun r => Z.of_nat (row_deg f m r)) (seq 0 n)) /\
    numbers l4 (map (fun c => Z.of_nat (col_deg f n c)) (seq 0 m)) /\
    Forall2 index_line rows ridx /\ Forall2 index_line cols cidx /\
    length ridx = n /\ length cidx = m /\
    (forall r, r < n -> NoDup (nth r ridx []) /\ forall c, In c (nth r ridx []) <-> c < m /\ f r c = true) /\
    (forall c, c < m -> NoDup (nth c cidx []) /\ forall r, In r (nth c cidx []) <-> r < n /\ f r c = true).

(** t is a QC file: N_red M_red Z, then the M_red rows of the base matrix, followed by anything. *)
Definition qc_file (t : text) (n m z : nat) (base : list (list Z)) : Prop :=
  exists ls rest hd rows,
    t = lines ls ++ rest /\ Forall no_nl ls /\ relevant ls = hd :: rows /\
    numbers hd [Z.of_nat n; Z.of_nat m; Z.of_nat z] /\ length base = m /\
    Forall2 (fun l row => length row = n /\ numbers l row) rows base.

(** The expanded matrix: variable v, check c.  Entry -1 is the zero block, entry a the identity shifted by a. *)
Definition base_at (base : list (list Z)) (i j : nat) : Z := nth j (nth i base []) (-1)%Z.
Definition qc_expand (z : nat) (base : list (list Z)) (v c : nat) : bool :=
  let a := base_at base (c / z) (v / z) in
  negb (a =? -1)%Z && (v mod z =? (c mod z + Z.to_nat a) mod z).
