(** What a BCJR decoder computes: paths in the trellis and their weights. *)
From Coq Require Import List Arith ZArith Bool.
From Verif Require Import Base ConvSpec.
Import ListNotations.

(** The words of [n] bits. *)
Fixpoint words (n : nat) : list (list nat) :=
  match n with O => [[]] | S m => map (cons 0) (words m) ++ map (cons 1) (words m) end.
(** A path: an initial state and the input bits.  [run X s us] is its final state. *)
Fixpoint run (X : nat -> nat -> nat) (s : nat) (us : list nat) : nat :=
  match us with [] => s | b :: us' => run X (X b s) us' end.
Definition paths (NS L : nat) : list (nat * list nat) := list_prod (seq 0 NS) (words L).
(** The parity bit number [i] of a path. *)
Definition parity (X P : nat -> nat -> nat) (p : nat * list nat) (i : nat) : nat :=
  P (nth i (snd p) 0) (run X (fst p) (firstn i (snd p))).

Section Weights.
Variable T : Type.
Variables (zero : T) (add sub : T -> T -> T) (imul : Z -> T -> T) (mx : T -> T -> T) (half : T -> T).

(** The numbers form a commutative group, on which [mx] is associative, commutative and
    invariant by translation: the maximum of an ordered group, or
    log (exp a + exp b) on the reals. *)
Record laws : Prop := {
  l_comm : forall a b, add a b = add b a;
  l_assoc : forall a b c, add a (add b c) = add (add a b) c;
  l_zero : forall a, add a zero = a;
  l_sub : forall a b, add (sub a b) b = a;
  l_one : forall a, imul 1 a = a;
  l_mone : forall a, imul (-1) a = sub zero a;
  l_mxc : forall a b, mx a b = mx b a;
  l_mxa : forall a b c, mx a (mx b c) = mx (mx a b) c;
  l_mxt : forall a b c, mx (add a c) (add b c) = add (mx a b) c;
  l_half : forall a b, half (add a b) = add (half a) (half b) }.

(** The combination by [mx] of all the elements of a list. *)
Fixpoint big (l : list T) : option T :=
  match l with
  | [] => None
  | x :: l' => Some (match big l' with None => x | Some y => mx x y end)
  end.

Variables (X P : nat -> nat -> nat) (sys par : nat -> T) (a0 : nat -> T).
(** + x for the bit 0, - x for the bit 1. *)
Definition sg (b : nat) (x : T) : T := if b =? 0 then x else sub zero x.
(** The correlation of the bits of a path, from time [i] on, with the received values. *)
Fixpoint corr (i s : nat) (us : list nat) : T :=
  match us with
  | [] => zero
  | b :: us' => add (add (sg b (sys i)) (sg (P b s) (par i))) (corr (S i) (X b s) us')
  end.
(** The weight of a path: that of its initial state, half its correlation, that of its final
    state. *)
Definition weight (p : nat * list nat) : T :=
  add (add (a0 (fst p)) (half (corr 0 (fst p) (snd p)))) (a0 (run X (fst p) (snd p))).
End Weights.

(** ** Codewords and received frames of integers *)
(** The correlation of the word [x], mapped to +1 and -1, with the frame [Y]. *)
Definition correlation (Y : list Z) (x : list nat) : Z :=
  fold_right Z.add 0%Z (map (fun q => (1 - 2 * Z.of_nat (nth q x 0%nat)) * nth q Y 0)%Z (seq 0 (length Y))).
Definition magnitude (Y : list Z) : Z := fold_right Z.add 0%Z (map Z.abs Y).
(** [x] has the best correlation with [Y] among the words of [C] whose bit [q] is [b]. *)
Definition best_with (C : list nat -> Prop) (Y : list Z) (q b : nat) (x : list nat) : Prop :=
  C x /\ nth q x 0 = b /\ forall y, C y -> nth q y 0 = b -> (correlation Y y <= correlation Y x)%Z.
(** [x] is the only most likely word of [C]. *)
Definition only_best (C : list nat -> Prop) (Y : list Z) (x : list nat) : Prop :=
  C x /\ forall y, C y -> y <> x -> (correlation Y y < correlation Y x)%Z.
(** The values of the channel for the word [x] without noise. *)
Definition clean (a : Z) (x : list nat) : list Z := map (fun b => a * (1 - 2 * Z.of_nat b))%Z x.
