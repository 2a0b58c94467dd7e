(** Repetition and repeat-accumulate codes: definitions. *)
From Coq Require Import List Arith ZArith Bool.
From Verif Require Import Base ConvSpec.
Import ListNotations.

(** Output [i] of the repeat-accumulate encoder is the parity of the first i + 1 bits of
    the interleaved repetition of [u]; every bit is repeated [rep] times. *)
Definition ra_out (rep : nat) (lut u : list nat) (i : nat) : nat :=
  sum (map (fun p => nth (p / rep) u 0) (firstn (S i) lut)) mod 2.

(** Position of copy [r] of bit [k], [n] copies of [K] bits. *)
Definition rep_pos (buffered : bool) (K n k r : nat) : nat := if buffered then r * K + k else k * n + r.
(** [x] is the repetition of [u]. *)
Definition rep_word (buffered : bool) (K n : nat) (u x : list nat) : Prop :=
  length x = n * K /\ length u = K /\ forall k r, k < K -> r < n -> nth (rep_pos buffered K n k r) x 0 = nth k u 0.

(** Correlation of a word with LLRs (an LLR is positive when 0 is more likely): the word of
    maximal correlation is the maximum-likelihood decision. *)
Definition correlation (x : list nat) (y : list Z) : Z :=
  fold_right Z.add 0%Z (map (fun p => if fst p =? 0 then snd p else (- snd p)%Z) (combine x y)).
Definition sumZ (l : list Z) : Z := fold_right Z.add 0%Z l.
(** The LLRs of bit [k]. *)
Definition rep_llrs {R} (d : R) (buffered : bool) (K n : nat) (y : list R) (k : nat) : list R :=
  map (fun r => nth (rep_pos buffered K n k r) y d) (seq 0 n).
(** Adding LLRs one after the other. *)
Definition add_up {R} (add : R -> R -> R) (d : R) (l : list R) : R :=
  match l with [] => d | a :: t => fold_left add t a end.
