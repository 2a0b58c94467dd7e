(** Repetition and repeat-accumulate codes: src/Module/Encoder/{RA,Repetition} and
    src/Module/Decoder/Repetition.  Bits (type B) are the naturals 0 and 1. *)
From Coq Require Import List Arith ZArith Lia Bool.
From Verif Require Import Base Copy ConvModel.
Import ListNotations.

(* ------------------------------------------------------------------ *)
(** * Repeat-accumulate encoder *)

(** src/Module/Encoder/RA/Encoder_RA.cpp 12-40, checks and info_bits_pos. *)
Definition ra_ctor (K N size : nat) : outcome (list nat) :=
  _ <- guard (0 <? K) ;; _ <- guard (0 <? N) ;; _ <- guard (K <=? N) ;;
  _ <- guard (N mod K =? 0) ;; _ <- guard (size =? N) ;;
  Ret (tab K (fun k => N / K * k)).
(** src/Module/Encoder/RA/Encoder_RA.cpp 59-75 (_encode); [ub] and [tmp] are the members U
    and tmp_X_N. *)
Definition ra_encode (K N : nat) (lut ub tmp u x : list nat) : outcome (list nat) :=
  let rep_count := N / K in
  ub <- for_ K (fun i ub => for_ rep_count (fun j ub => v <- rd u i ;; wr ub (i * rep_count + j) v) ub) ub ;;
  tmp <- gather1 lut ub tmp ;;
  tmp <- for_ (N - 1) (fun i t => a <- rd t i ;; b <- rd t (S i) ;; wr t (S i) (Nat.lxor a b)) tmp ;;
  copy tmp 0 (length tmp) x 0.

(* ------------------------------------------------------------------ *)
(** * Repetition encoder *)

(** src/Module/Encoder/Repetition/Encoder_repetition_sys.cpp 11-29 and Encoder.hxx 88. *)
Definition rep_ctor (K N : nat) (buffered : bool) : outcome (list nat) :=
  _ <- guard (0 <? K) ;; _ <- guard (0 <? N) ;; _ <- guard (K <=? N) ;;
  _ <- guard (N mod K =? 0) ;;
  Ret (tab K (fun k => if buffered then k else (N / K - 1 + 1) * k)).
(** src/Module/Encoder/Repetition/Encoder_repetition_sys.cpp 40-70 (_encode). *)
Definition rep_encode (K N : nat) (buffered : bool) (u x : list nat) : outcome (list nat) :=
  let rep_count := N / K - 1 in
  if buffered then
    x <- copy u 0 K x 0 ;;
    for_ rep_count (fun i x => copy u 0 K x ((i + 1) * K)) x
  else
    for_ K (fun i x =>
      let off1 := i * (rep_count + 1) in
      let off2 := off1 + 1 in
      bit <- rd u i ;;
      x <- wr x off1 bit ;;
      for_ rep_count (fun j x => wr x (off2 + j) bit) x) x.
(** src/Module/Encoder/Repetition/Encoder_repetition_sys.cpp 72-104 (is_codeword).
    [scan n f] is "k = 0; while (k < n && f(k)) k++; valid = k == n": true when the loop
    reached n; a loop iteration after the exit does nothing. *)
Definition scan (n : nat) (f : nat -> outcome bool) : outcome bool :=
  for_ n (fun k valid => if valid : bool then f k else Ret false) true.
Definition rep_is_codeword (K N : nat) (buffered : bool) (x : list nat) : outcome bool :=
  let rep_count := N / K - 1 in
  if buffered then
    scan rep_count (fun r => scan K (fun k =>
      a <- rd x k ;; b <- rd x ((r + 1) * K + k) ;; Ret (a =? b)))
  else
    scan K (fun k => scan rep_count (fun r =>
      a <- rd x (k * (rep_count + 1)) ;; b <- rd x (k * (rep_count + 1) + r + 1) ;; Ret (a =? b))).

(* ------------------------------------------------------------------ *)
(** * Repetition decoders *)

Section Decoder.
(** The LLR type R: its addition and the test "negative" of hard_decide. *)
Context {R : Type} (add : R -> R -> R) (neg : R -> bool).

(** src/Module/Decoder/Repetition/Decoder_repetition.cpp 36-58 (_load). *)
Definition rep_load (K N : nat) (buffered : bool) (y sys par : list R) : outcome (list R * list R) :=
  let rep_count := N / K - 1 in
  if buffered then
    sys <- copy y 0 K sys 0 ;;
    par <- for_ rep_count (fun i par => copy y ((i + 1) * K) K par (i * K)) par ;;
    Ret (sys, par)
  else
    for_ K (fun i '(sys, par) =>
      let off1 := i * (rep_count + 1) in
      let off2 := off1 + 1 in
      v <- rd y off1 ;; sys <- wr sys i v ;;
      par <- for_ rep_count (fun j par => v <- rd y (off2 + j) ;; wr par (j * K + i) v) par ;;
      Ret (sys, par)) (sys, par).
(** src/Module/Decoder/Repetition/Decoder_repetition_std.cpp 26-39 (_decode_siso_alt). *)
Definition rep_siso_std (K N : nat) (sys par ext : list R) : outcome (list R) :=
  for_ K (fun i ext =>
    v <- rd sys i ;; ext <- wr ext i v ;;
    for_ (N / K - 1) (fun j ext => p <- rd par (j * K + i) ;; e <- rd ext i ;; wr ext i (add e p)) ext) ext.
(** src/Module/Decoder/Repetition/Decoder_repetition_fast.cpp 37-50 (_decode_siso_alt), with
    [nel] elements per register; the lanes of a register do not interact, so each lane is
    run in turn. *)
Definition rep_siso_fast (nel K N : nat) (sys par ext : list R) : outcome (list R) :=
  for_ (K / nel) (fun r ext => for_ nel (fun l ext =>
    let i := r * nel + l in
    v <- rd sys i ;;
    v <- for_ (N / K - 1) (fun j v => p <- rd par (j * K + i) ;; Ret (add v p)) v ;;
    wr ext i v) ext) ext.
(** src/Module/Decoder/Repetition/Decoder_repetition.cpp 60-81 (_decode_siho); hard_decide
    gives 1 for the negative values. *)
Definition rep_decode (siso : list R -> list R -> list R -> outcome (list R)) (K N : nat) (buffered : bool)
  (sys par ext y : list R) (v : list nat) : outcome (list nat) :=
  '(sys, par) <- rep_load K N buffered y sys par ;;
  ext <- siso sys par ext ;;
  for_ K (fun i v => e <- rd ext i ;; wr v i (if neg e then 1 else 0)) v.
(** Decoder_repetition.cpp 12-27 and Decoder_repetition_fast.cpp 18-26; [nel] = 1 for the
    standard decoder. *)
Definition rep_dec_ctor (nel K N : nat) : outcome unit :=
  _ <- guard (0 <? K) ;; _ <- guard (0 <? N) ;; _ <- guard (K <=? N) ;;
  _ <- guard (N mod K =? 0) ;; guard (K mod nel =? 0).
End Decoder.

(** LLR types.  int8_t/int16_t in the standard decoder: "ext += par" computes an int and
    converts it back to [w] bits (wrap around, as with gcc/clang); in the fast decoder the
    register addition saturates. *)
Definition wrap (w : Z) (z : Z) : Z := ((z + 2 ^ (w - 1)) mod 2 ^ w - 2 ^ (w - 1))%Z.
Definition add_wrap (w a b : Z) : Z := wrap w (a + b).
Definition add_sat (w a b : Z) : Z := Z.max (- 2 ^ (w - 1)) (Z.min (2 ^ (w - 1) - 1) (a + b)).
Definition negZ (z : Z) : bool := (z <? 0)%Z.
