(** What puncturing by a set of kept positions means. *)
From Coq Require Import List Arith Bool.
From Verif Require Import Base PunctModel.
Import ListNotations.

(** [x2] consists of the values of [x1] at the kept positions [ps], in that order. *)
Definition punctured {A} (d : A) (ps : list nat) (x1 x2 : list A) : Prop :=
  x2 = map (fun q => nth q x1 d) ps.

(** [y2] has the values [y1] at the kept positions and 0 elsewhere. *)
Definition depunctured {A} (zero : A) (N_cw : nat) (ps : list nat) (y1 y2 : list A) : Prop :=
  length y2 = N_cw /\
  (forall k, k < length ps -> nth (nth k ps 0) y2 zero = nth k y1 zero) /\
  (forall q, q < N_cw -> ~ In q ps -> nth q y2 zero = zero).

(** Turbo codes: is code position [q] kept? Non-buffered layout: triplets (systematic,
    parity 1, parity 2), then the tail. Buffered layout, with a tail of 4 s bits: K
    systematic bits, s tail bits, K parity bits, s tail bits; then for the second
    constituent code s tail bits, K parity bits, s tail bits. Tail bits are always kept. *)
Definition selected (pattern : list (list bool)) (j i : nat) : bool :=
  nth (i mod length (nth 0 pattern [])) (nth j pattern []) false.
Definition turbo_keeps (buff : bool) (K s : nat) (pattern : list (list bool)) (q : nat) : bool :=
  if buff then
    if q <? K then selected pattern 0 q
    else if q <? K + s then true
    else if q <? K + s + K then selected pattern 1 (q - (K + s))
    else if q <? K + s + K + s + s then true
    else if q <? K + s + K + s + s + K then selected pattern 2 (q - (K + s + K + s + s))
    else true
  else
    if q <? 3 * K then selected pattern (q mod 3) (q / 3) else true.
Definition turbo_kept (buff : bool) (K tail : nat) (pattern : list (list bool)) : list nat :=
  filter (turbo_keeps buff K (tail / 4) pattern) (seq 0 (3 * K + tail)).

(** LDPC codes: block [q / Z] is kept. *)
Definition ldpc_kept (Z : nat) (pattern : list bool) : list nat :=
  filter (fun q => nth (q / Z) pattern false) (seq 0 (Z * length pattern)).

(** Double-binary codes: couples AB of K bits, then Y1Y2, then W1W2. The first [n] bits are
    kept, then the offsets [os] in each group of [step] bits. *)
Definition db_groups (n K step : nat) (os : list nat) : list nat :=
  seq 0 n ++ flat_map (fun t => map (fun o => n + t * step + o) os) (seq 0 ((K + step - 1) / step)).
Definition db_kept (r : coderate) (K : nat) : list nat :=
  match r with
  | R13 => seq 0 (3 * K)
  | R12 => seq 0 (2 * K)
  | R25 => db_groups (2 * K) K 4 [0; 1]
  | R23 => db_groups K K 4 [0; 1]
  | R34 => db_groups K K 12 [0; 1; 4; 5]
  | R45 => db_groups K K 8 [0; 1]
  | R56 => db_groups K K 40 [0; 1; 8; 9; 16; 17; 24; 25]
  end.
