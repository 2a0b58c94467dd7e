(** Convolutional codes: definitions by polynomial products over GF(2). *)
From Coq Require Import List Arith ZArith Bool.
From Verif Require Import Base.
Import ListNotations.

(** All elements are bits. *)
Definition bits (l : list nat) : Prop := Forall (fun b => b < 2) l.
(** Componentwise xor. *)
Definition xor_list (a b : list nat) : list nat := map (fun p => (fst p + snd p) mod 2) (combine a b).

Definition sum (l : list nat) : nat := fold_right Nat.add 0 l.
(** Coefficient of degree [t] of the product of [w] by the generator [g] of memory [n]:
    bit n - d of the integer [g] is its coefficient of degree d. *)
Definition conv (g n : nat) (w : list nat) (t : nat) : nat :=
  sum (map (fun d => if d <=? t then Nat.b2n (Nat.testbit g (n - d)) * nth (t - d) w 0 else 0) (seq 0 (S n))) mod 2.

(** Where the systematic and the parity bit of time [t] (0 <= t < K + n) are in a frame. *)
Definition sys_pos (buffered : bool) (t : nat) : nat := if buffered then t else 2 * t.
Definition par_pos (buffered : bool) (L t : nat) : nat := if buffered then L + t else 2 * t + 1.

(** The terminated code of generators (p0, p1): the pairs (w p0, w p1), w of degree < K. *)
Definition rsc_code (p0 p1 n : nat) (buffered : bool) (K : nat) (x : list nat) : Prop :=
  length x = 2 * K + 2 * n /\
  exists w, length w = K /\ bits w /\
    forall t, t < K + n ->
      nth (sys_pos buffered t) x 0 = conv p0 n w t /\
      nth (par_pos buffered (K + n) t) x 0 = conv p1 n w t.

(** [x] carries the message [u] at its systematic positions. *)
Definition carries (buffered : bool) (u x : list nat) : Prop :=
  forall k, k < length u -> nth (sys_pos buffered k) x 0 = nth k u 0.

(** The transitions of a shift register of [n] cells with generators (p0, p1): cell n - 1
    is the most recent; the new cell is the input plus the p0 taps. *)
Definition tapped (g n s : nat) : nat :=
  sum (map (fun i => Nat.b2n (Nat.testbit s i) * Nat.b2n (Nat.testbit g i)) (seq 0 n)) mod 2.
Definition new_cell (p0 n b s : nat) : nat := (b + tapped p0 n s) mod 2.
Definition next_spec (p0 n b s : nat) : nat := new_cell p0 n b s * 2 ^ (n - 1) + s / 2.
Definition par_spec (p0 p1 n b s : nat) : nat := (new_cell p0 n b s + tapped p1 n s) mod 2.

(** Columns 0-2 and 3-5 of a trellis describe the two transitions entering each state,
    6-7 and 8-9 the transitions leaving each state with bit 0 and 1. *)
Definition entry (t : list (list Z)) (r s : nat) : Z := nth s (nth r t []) 0%Z.
Definition sign_of (b : nat) : Z := if b =? 0 then 1%Z else (-1)%Z.
Definition trellis_ok (S : nat) (next par : nat -> nat -> nat) (t : list (list Z)) : Prop :=
  length t = 10 /\
  (forall s b, s < S -> b < 2 ->
     entry t (6 + 2 * b) s = Z.of_nat (next b s) /\
     entry t (7 + 2 * b) s = Z.of_nat (Nat.lxor b (par b s))) /\
  (forall s, s < S -> exists s1 b1 s2 b2, s1 < S /\ s2 < S /\ b1 < 2 /\ b2 < 2 /\
     (s1, b1) <> (s2, b2) /\
     (forall s' b, s' < S -> b < 2 -> (next b s' = s <-> (s', b) = (s1, b1) \/ (s', b) = (s2, b2))) /\
     entry t 0 s = Z.of_nat s1 /\ entry t 1 s = sign_of b1 /\ entry t 2 s = Z.of_nat (Nat.lxor b1 (par b1 s1)) /\
     entry t 3 s = Z.of_nat s2 /\ entry t 4 s = sign_of b2 /\ entry t 5 s = Z.of_nat (Nat.lxor b2 (par b2 s2))).

(** The turbo code of two constituent codes: the first Nn bits are a word of the first one;
    the interleaved message followed by the other bits is a word of the second one. *)
Definition turbo_code (Cn Ci : list nat -> Prop) (Nn : nat) (lut x : list nat) : Prop :=
  Cn (firstn Nn x) /\ Ci (map (fun p => nth p x 0) lut ++ skipn Nn x).

(** The layout of the legacy turbo encoder, with [m] tail bits per constituent: K triplets
    (systematic, parity, interleaved parity), then the two tails.  The two constituent words
    read from it: *)
Definition legacy_n (K m : nat) (x : list nat) : list nat :=
  tab (2 * K + m) (fun q => if q <? 2 * K then nth (3 * (q / 2) + q mod 2) x 0 else nth (K + q) x 0).
Definition legacy_i (K m : nat) (lut x : list nat) : list nat :=
  tab (2 * K + m) (fun q => if q <? 2 * K then
                              if q mod 2 =? 0 then nth (3 * nth (q / 2) lut 0) x 0 else nth (3 * (q / 2) + 2) x 0
                            else nth (K + m + q) x 0).
Definition legacy_code (C : list nat -> Prop) (K m : nat) (lut x : list nat) : Prop :=
  length x = 3 * K + 2 * m /\ C (legacy_n K m x) /\ C (legacy_i K m lut x).

(** A constituent encoder of the code [C], the message being at the positions of
    [sys_pos buffered]. *)
Definition constituent (encode : list nat -> list nat -> outcome (list nat)) (is_codeword : list nat -> outcome bool)
  (buffered : bool) (K N : nat) (C : list nat -> Prop) : Prop :=
  (forall u buf, bits u -> length u = K -> length buf = N ->
     exists o, encode u buf = Ret o /\ length o = N /\ C o /\ carries buffered u o) /\
  (forall x, length x = N -> bits (tab K (fun t => nth (sys_pos buffered t) x 0)) ->
     exists r, is_codeword x = Ret r /\ (r = true <-> C x)).

(* ------------------------------------------------------------------ *)
(** * Double-binary codes *)

(** The circuits of DVB-RCS (8 states) and DVB-RCS2 (16 states).  From the state
    (s1, s2, ...), s1 being the cell that receives the feedback, and the couple (a, b):
    next state, parity bits y and w. *)
Definition rcs1_step (a b : nat) (s : nat * nat * nat) : (nat * nat * nat) * nat * nat :=
  let '(s1, s2, s3) := s in
  let f := (a + b + s1 + s3) mod 2 in
  ((f, (s1 + b) mod 2, (s2 + b) mod 2), (f + s2 + s3) mod 2, (f + s3) mod 2).
Definition rcs2_step (a b : nat) (s : nat * nat * nat * nat) : (nat * nat * nat * nat) * nat * nat :=
  let '(s1, s2, s3, s4) := s in
  let f := (a + b + s3 + s4) mod 2 in
  ((f, (s1 + b) mod 2, s2, (s3 + b) mod 2), (f + s1 + s2 + s4) mod 2, (f + s2 + s3 + s4) mod 2).

(** Positions of the couple (a, b) and of the couple (y, w) of time [t]. *)
Definition db_sys (buffered : bool) (t : nat) : nat := if buffered then 2 * t else 4 * t.
Definition db_red (buffered : bool) (K t : nat) : nat := if buffered then K + 2 * t else 4 * t + 2.
(** Where bit [k] of the message is. *)
Definition db_pos (buffered : bool) (k : nat) : nat := db_sys buffered (k / 2) + k mod 2.

(** The tail-biting code of a circuit: the words labelling a closed walk. *)
Definition closed_walk {St} (step : nat -> nat -> St -> St * nat * nat) (valid : St -> Prop) (buffered : bool) (K : nat) (x : list nat) : Prop :=
  length x = 2 * K /\
  exists s : nat -> St, valid (s 0) /\ s (K / 2) = s 0 /\
    forall t, t < K / 2 ->
      step (nth (db_sys buffered t) x 0) (nth (db_sys buffered t + 1) x 0) (s t) =
      (s (S t), nth (db_red buffered K t) x 0, nth (db_red buffered K t + 1) x 0).
Definition valid3 (s : nat * nat * nat) : Prop := let '(s1, s2, s3) := s in s1 < 2 /\ s2 < 2 /\ s3 < 2.
Definition valid4 (s : nat * nat * nat * nat) : Prop := let '(s1, s2, s3, s4) := s in s1 < 2 /\ s2 < 2 /\ s3 < 2 /\ s4 < 2.

(** The message bits of a frame are bits / are those of [u]. *)
Definition db_bits (buffered : bool) (K : nat) (x : list nat) : Prop := forall k, k < K -> nth (db_pos buffered k) x 0 < 2.
Definition db_carries (buffered : bool) (u x : list nat) : Prop :=
  forall k, k < length u -> nth (db_pos buffered k) x 0 = nth k u 0.

(** The number of couples for which a circuit of [S] states has no circulation state. *)
Definition no_circulation (K S : nat) : Prop := exists q, K / 2 = q * (S - 1).

(** The trellis of a double-binary circuit: rows next state, previous state, y, w, indexed
    by 4 * state + 2 a + b. *)
Definition db_trellis_ok (S : nat) (next y w : nat -> nat -> nat) (t : list (list Z)) : Prop :=
  length t = 4 /\
  forall s i, s < S -> i < 4 ->
    entry t 0 (s * 4 + i) = Z.of_nat (next i s) /\
    (exists s', s' < S /\ entry t 1 (s * 4 + i) = Z.of_nat s' /\ next i s' = s) /\
    entry t 2 (s * 4 + i) = (1 - 2 * Z.of_nat (y i s))%Z /\
    entry t 3 (s * 4 + i) = (1 - 2 * Z.of_nat (w i s))%Z.
(** The numbering of the states: s1 is the most significant bit. *)
Definition num3 (s : nat * nat * nat) : nat := let '(s1, s2, s3) := s in 4 * s1 + 2 * s2 + s3.
Definition num4 (s : nat * nat * nat * nat) : nat := let '(s1, s2, s3, s4) := s in 8 * s1 + 4 * s2 + 2 * s3 + s4.
Definition cells3 (s : nat) : nat * nat * nat := (s / 4 mod 2, s / 2 mod 2, s mod 2).
Definition cells4 (s : nat) : nat * nat * nat * nat := (s / 8 mod 2, s / 4 mod 2, s / 2 mod 2, s mod 2).

(** The double-binary turbo code.  Couple number [t] of the interleaved message is the
    couple number lut[t] of the message, its two bits being exchanged when lut[t] is even.
    A frame is the message, the couples (y, y') and the couples (w, w') of the two
    constituent words; these words are: *)
Definition tdb_bit (lut x : list nat) (k : nat) : nat :=
  let l := nth (k / 2) lut 0 in
  if Nat.even l then nth (2 * l + (1 - k mod 2)) x 0 else nth (2 * l + k mod 2) x 0.
Definition tdb_n (K : nat) (x : list nat) : list nat :=
  tab (2 * K) (fun q => if q <? K then nth q x 0
                        else if (q - K) mod 2 =? 0 then nth (K + 2 * ((q - K) / 2)) x 0 else nth (2 * K + 2 * ((q - K) / 2)) x 0).
Definition tdb_i (K : nat) (lut x : list nat) : list nat :=
  tab (2 * K) (fun q => if q <? K then tdb_bit lut x q
                        else if (q - K) mod 2 =? 0 then nth (K + 2 * ((q - K) / 2) + 1) x 0 else nth (2 * K + 2 * ((q - K) / 2) + 1) x 0).
Definition tdb_code (Cn Ci : list nat -> Prop) (K : nat) (lut x : list nat) : Prop :=
  length x = 3 * K /\ Cn (tdb_n K x) /\ Ci (tdb_i K lut x).

(** The continuous-phase encoder: from the cells (c2, c1, c0) and the bit b, the next cells
    and the symbol emitted. *)
Definition cpe_step (b : nat) (c : nat * nat * nat) : (nat * nat * nat) * nat :=
  let '(c2, c1, c0) := c in ((b, c2, (c1 + c0) mod 2), 8 * b + 4 * c2 + 2 * c1 + c0).
Definition cpe_code (buffered : bool) (K : nat) (x : list nat) : Prop :=
  length x = 2 * K + 6 /\
  exists c : nat -> nat * nat * nat, c 0 = (0, 0, 0) /\ c (K + 3) = (0, 0, 0) /\
    forall t, t < K + 3 -> cpe_step (nth (sys_pos buffered t) x 0) (c t) = (c (S t), nth (par_pos buffered (K + 3) t) x 0).
