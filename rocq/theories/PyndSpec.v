(** Chase decoding and the soft output of Pyndiah. *)
From Coq Require Import List Arith Bool QArith Qabs Sorted.
From Verif Require Import Base TpcSpec.
Import ListNotations.
Local Open Scope nat_scope.

(** Position i is less reliable than position j: smaller magnitude, or the same one and i comes first. *)
Definition before (Y : nat -> Q) (i j : nat) : Prop := (Qabs (Y i) < Qabs (Y j))%Q \/ ((Qabs (Y i) == Qabs (Y j))%Q /\ i < j).
(** ps lists the n least reliable of the positions below N, the least reliable one first. *)
Definition least_reliable (n N : nat) (Y : nat -> Q) (ps : list nat) : Prop :=
  length ps = n /\ (forall p, In p ps -> p < N) /\ StronglySorted (before Y) ps /\
  forall i, i < N -> ~ In i ps -> forall p, In p ps -> before Y p i.

(** The hard decisions, and the word where the listed positions chosen by a pattern are flipped. *)
Definition decisions (N : nat) (Y : nat -> Q) : list bool := tab N (fun i => negb (Qle_bool 0 (Y i))).
Definition flipped_by (ps : list nat) (pat : list bool) (w : list bool) : list bool :=
  tab (length w) (fun v => xorb (nth v w false) (existsb (fun i => (nth i ps 0 =? v) && nth i pat false) (seq 0 (length ps)))).
(** A word with its parity bit, when the code has one. *)
Definition with_parity (ext : bool) (x : list bool) : list bool := if ext then x ++ [parity x] else x.
(** The analog weight of a word x: the magnitudes of the positions where x differs from the hard decisions, added up. *)
Fixpoint analog (Y : nat -> Q) (x : list bool) (n : nat) : Q :=
  match n with
  | 0 => 0%Q
  | S k => if xorb (negb (Qle_bool 0 (Y k))) (nth k x false) then (analog Y x k + Qabs (Y k))%Q else analog Y x k
  end.
Fixpoint magnitudes (Y : nat -> Q) (n : nat) : Q := match n with 0 => 0%Q | S k => (magnitudes Y k + Qabs (Y k))%Q end.

(** A hard decoder of words of n bits; it is right when its flag is set; it corrects t errors. *)
Definition hard_decoder (n : nat) (hd : list bool -> list bool * bool) : Prop := forall w, length w = n -> length (fst (hd w)) = n.
Definition truthful (n : nat) (code : list bool -> Prop) (hd : list bool -> list bool * bool) : Prop := forall w, length w = n -> snd (hd w) = true -> code (fst (hd w)).
Definition corrects (n t : nat) (code : list bool -> Prop) (hd : list bool -> list bool * bool) : Prop :=
  forall w x, length w = n -> code w -> length x = n -> dist n x w <= t -> hd x = (w, true).
(** A sort of pairs by their first component, with no promise on the order of equal ones. *)
Definition sorts (srt : list (Q * nat) -> list (Q * nat)) : Prop :=
  forall l, Permutation.Permutation (srt l) l /\ StronglySorted (fun a b => (fst a <= fst b)%Q) (srt l).
(** A candidate: the hard decoding of the hard decisions where a pattern flips some of the listed positions; its bits with the
    parity bit, and the flag. *)
Definition candidate (hd : list bool -> list bool * bool) (ext : bool) (np : nat) (Y : nat -> Q) (ps : list nat) (pat : list bool) : list bool * bool :=
  let r := hd (flipped_by ps pat (decisions np Y)) in (with_parity ext (fst r), snd r).
(** The number of positions outside the list where the hard decisions differ from w. *)
Definition errors_outside (np : nat) (Y : nat -> Q) (ps : list nat) (w : list bool) : nat :=
  length (filter (fun v => negb (existsb (Nat.eqb v) ps) && xorb (negb (Qle_bool 0 (Y v))) (nth v w false)) (seq 0 np)).
(** The sum of the magnitudes of listed positions. *)
Definition sum_of (Y : nat -> Q) (l : list nat) : Q := fold_right (fun p q => (Qabs (Y p) + q)%Q) 0%Q l.

Section Soft.
Variables (hd : list bool -> list bool * bool) (ext : bool) (N np : nat) (Y : nat -> Q) (ps : list nat) (pats : list (list bool)).
Let bits pat := fst (candidate hd ext np Y ps pat).
Let right pat := snd (candidate hd ext np Y ps pat).
Let weight pat := analog Y (bits pat) N.
(** A decided word D: when a candidate is right, D is right and none that is right has a smaller weight. *)
Definition decided (D : list bool) : Prop := In D pats /\ forall P, In P pats -> right P = true -> right D = true /\ (weight D <= weight P)%Q.
(** The nc candidates of smallest weight among those that are right (all of these when there are fewer), D being one of them. *)
Definition retained (nc : nat) (D : list bool) (Rs : list (list bool)) : Prop :=
  NoDup Rs /\ (forall R, In R Rs -> In R pats /\ right R = true) /\ length Rs = Nat.min (length (filter right pats)) nc /\
  (forall R P, In R Rs -> In P pats -> right P = true -> ~ In P Rs -> (weight R <= weight P)%Q) /\ (Rs <> [] -> In D Rs).
(** The reliability of bit i of D: b times the weight that the closest retained candidate with the other bit has more than D;
    beta without such a candidate, when it is set; else the least reliable magnitudes, minus c times the weight of D (mx / 2
    when D is not right), plus f times the magnitude of the bit, at least zero. *)
Definition reliability (mx b c f : Q) (n : nat) (beta : option Q) (D : list bool) (Rs : list (list bool)) (i : nat) (r : Q) : Prop :=
  let differs R := nth i (bits R) false <> nth i (bits D) false in
  (exists R, In R Rs /\ differs R /\ (forall R', In R' Rs -> differs R' -> (weight R <= weight R')%Q) /\ (r == (weight R - weight D) * b)%Q) \/
  ((forall R, In R Rs -> ~ differs R) /\
   match beta with
   | Some x => (r == x)%Q
   | None => let v := (sum_of Y (firstn n ps) - c * (if right D then weight D else mx / 2) + f * Qabs (Y i))%Q in
             ((0 <= v)%Q /\ (r == v)%Q) \/ ((v <= 0)%Q /\ (r == 0)%Q)
   end).
End Soft.
