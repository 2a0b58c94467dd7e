(** What a file of codewords says. *)
From Coq Require Import List Arith ZArith.
From Verif Require Import Base Copy GaloisModel UserEncModel.
Import ListNotations.
Local Open Scope nat_scope.

(** A file that announces n codewords of N bits for messages of K bits and has their symbols. *)
Definition complete (K N n : nat) (f : ufile) (sym : list Z) : Prop :=
  uf_ncw f = Z.of_nat n /\ uf_cw f = Z.of_nat N /\ uf_src f = Z.of_nat K /\ n * N <= length sym /\ firstn (length sym) (uf_sym f) = map Some sym.
(** Codeword number i of the file. *)
Definition word_of (w : Z) (N : nat) (sym : list Z) (i : nat) : list Z := tab N (fun j => cast w (nth (i * N + j) sym 0%Z)).
(** K different numbers. *)
Definition listed (K : nat) (f : ufile) (p : list Z) : Prop := uf_pos f = Some (Z.of_nat K, p) /\ length p = K /\ NoDup p /\ Forall (fun v => 0 <= v < 2 ^ 32)%Z p.
(** The positions of the file or, without a list, the first K. *)
Definition positions (K : nat) (f : ufile) (p : list Z) : Prop := listed K f p \/ uf_pos f = None /\ p = map Z.of_nat (seq 0 K).
