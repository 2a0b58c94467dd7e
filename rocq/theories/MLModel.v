(** The exhaustive decoders (src/Module/Decoder/Generic/ML) and the Chase decoder (src/Module/Decoder/Generic/Chase).
    Simplifications: a bit is a boolean; the encoder given to the decoder is a function from K bits to N bits and a test of
    codewords, both without side effect (they do not throw); hard decisions are one test per LLR (the vector code is HardModel.v);
    floats are rationals, with the rounding of single precision after each operation (FloatQ.v: no bound on the exponents, which
    is the behaviour of the code as long as no result reaches FLT_MAX, and a distance that does is refused by the test on line 88). *)
From Coq Require Import List Arith Lia Bool ZArith QArith Qabs.
From Verif Require Import Base BitPackerModel BitPackerSpec FloatQ.
Import ListNotations.
Local Open Scope nat_scope.

Definition Qltb (x y : Q) : bool := negb (Qle_bool y x).

(** Decoder_maximum_likelihood_std.cpp 77-81, 122-126 (and _naive.cpp 86-90, 142-146): the buffer of K + 7 elements of sB bytes is
    cleared, the 64-bit counter is stored in its first 8 bytes, and Bit_packer::unpack (default arguments: one frame, least
    significant bit first, 8 bits per symbol) expands it in place (little-endian machine). *)
Definition candidate (sB K : nat) (u : Z) : outcome (list bool) :=
  mem <- for_ 8 (fun i m => wr m i (Z.land (Z.shiftr u (8 * Z.of_nat i)) 255)) (repeat 0%Z ((K + 7) * sB)) ;;
  mem <- unpack_inplace sB mem K 1 false 8 ;;
  Ret (bits_of (elements sB K mem)).

(** _std.cpp 26-37 (constructor): the largest counter; _naive.cpp 25-36 with N *)
Definition UINT64_MAX : Z := (2 ^ 64 - 1)%Z.
Definition u_max (K : nat) : outcome Z :=
  _ <- guard (K <=? 64) ;;
  Ret (if K =? 64 then UINT64_MAX else (2 ^ Z.of_nat K - 1)%Z).
(** _std.cpp 75, 95-97, 120, 140-142: the values of u in the loop are 0 .. u_max, only 0 with the break *)
Definition trials (umax : Z) : nat := if (umax =? UINT64_MAX)%Z then 1 else Z.to_nat (umax + 1).

(** include/Module/Decoder/Generic/ML/Decoder_maximum_likelihood.hxx 77-87 (compute_hamming_dist, uint32_t) *)
Definition hamming_dist (N : nat) (X : list bool) (Y : list Z) : outcome Z :=
  for_ N (fun n d => x <- rd X n ;; y <- rd Y n ;; Ret ((d + (if (b2z x =? y)%Z then 0 else 1)) mod 2 ^ 32)%Z) 0%Z.

(** Decoder_maximum_likelihood.hxx 58-75 (compute_euclidean_dist), single precision *)
Definition euclidean_dist (N : nat) (X : list bool) (Y : list Q) : outcome Q :=
  for_ N (fun n d => x <- rd X n ;; y <- rd Y n ;;
    let tmp := fl 24 ((if x then -1 else 1) - fl 24 y) in
    Ret (fl 24 (d + fl 24 (tmp * tmp))))%Q 0%Q.

Definition FLT_MAX : Q := (inject_Z (2 ^ 24 - 1) * 2 ^ 104)%Q.
Definition UINT32_MAX : Z := (2 ^ 32 - 1)%Z.

Section Search.
Variable D : Type.
Variable lt : D -> D -> bool.
Variable dmax : D.
Variable dist : list bool -> outcome D.
Variable sB : nat.

(** _std.cpp 72-98, 117-143: the word V and the information bits best_U are replaced when a strictly smaller distance is found.
    They are not cleared before the loop. *)
Definition std_search (K : nat) (enc : list bool -> list bool) (V best_U : list bool) : outcome (list bool * list bool) :=
  umax <- u_max K ;;
  r <- for_ (trials umax) (fun u (st : D * (list bool * list bool)) =>
         U <- candidate sB K (Z.of_nat u) ;;
         let X := enc U in
         cur <- dist X ;;
         Ret (if lt cur (fst st) then (cur, (X, U)) else st)) (dmax, (V, best_U)) ;;
  Ret (snd r).

(** _naive.cpp 81-107, 137-163 *)
Definition naive_search (N : nat) (is_codeword : list bool -> bool) (V : list bool) : outcome (list bool) :=
  xmax <- u_max N ;;
  r <- for_ (trials xmax) (fun x (st : D * list bool) =>
         X <- candidate sB N (Z.of_nat x) ;;
         if is_codeword X
         then cur <- dist X ;; Ret (if lt cur (fst st) then (cur, X) else st)
         else Ret st) (dmax, V) ;;
  Ret (snd r).
End Search.

Definition hard (Y : list Q) : list bool := map (fun y => Qltb y 0) Y.

(** _std.cpp 113-146 (_decode_hiho_cw): the codeword, and the content of best_U_K *)
Definition std_hiho_cw (sB K N : nat) (enc : list bool -> list bool) (Y : list Z) (V best_U : list bool) :=
  std_search Z Z.ltb UINT32_MAX (fun X => hamming_dist N X Y) sB K enc V best_U.
(** _std.cpp 59-102 (_decode_siho_cw) *)
Definition std_siho_cw (hamming : bool) (sB K N : nat) (enc : list bool -> list bool) (Y : list Q) (V best_U : list bool) :=
  if hamming then std_hiho_cw sB K N enc (of_bits (hard Y)) V best_U
  else std_search Q Qltb FLT_MAX (fun X => euclidean_dist N X Y) sB K enc V best_U.

(** _naive.cpp 133-166 (_decode_hiho_cw) *)
Definition naive_hiho_cw (sB N : nat) (is_codeword : list bool -> bool) (Y : list Z) (V : list bool) :=
  naive_search Z Z.ltb UINT32_MAX (fun X => hamming_dist N X Y) sB N is_codeword V.
(** _naive.cpp 68-111 (_decode_siho_cw) *)
Definition naive_siho_cw (hamming : bool) (sB N : nat) (is_codeword : list bool -> bool) (Y : list Q) (V : list bool) :=
  if hamming then naive_hiho_cw sB N is_codeword (of_bits (hard Y)) V
  else naive_search Q Qltb FLT_MAX (fun X => euclidean_dist N X Y) sB N is_codeword V.
(** _naive.cpp 48-66, 113-131 (_decode_siho, _decode_hiho): the information bits are read in the codeword *)
Definition naive_info (is_sys : bool) (K : nat) (info_bits_pos : list nat) (cw : outcome (list bool)) (V_K : list bool) : outcome (list bool) :=
  _ <- guard is_sys ;;
  X <- cw ;;
  for_ K (fun k V => p <- rd info_bits_pos k ;; x <- rd X p ;; wr V k x) V_K.

(** * The Chase decoder *)
(** Decoder_chase_std.cpp 91-97, 107-109, 112-114, 126-132, 142-144, 147-149: the test pattern t flips the b-th least reliable
    position when its bit b is set *)
Definition flip (less : list nat) (p : nat) (t : nat) (V : list bool) : outcome (list bool) :=
  for_ p (fun b V => if Nat.testbit t b then i <- rd less b ;; v <- rd V i ;; wr V i (negb v) else Ret V) V.
(** 90, 96: cur_euclidean_dist *)
Definition flip_euclidean (less : list nat) (Y : list Q) (p t : nat) : outcome Q :=
  for_ p (fun b d => if Nat.testbit t b then i <- rd less b ;; y <- rd Y i ;; Ret (fl 24 (d + fl 24 (Qabs y)))%Q else Ret d) 0%Q.
(** 125, 131: cur_hamming_dist *)
Definition flip_hamming (p t : nat) : outcome Z :=
  for_ p (fun b d => Ret (if Nat.testbit t b then d + 1 else d)%Z) 0%Z.

Section Chase.
Variable D : Type.
Variable lt : D -> D -> bool.
Variable dmax : D.
Variable dist : nat -> outcome D.
Variable is_codeword : list bool -> bool.
(** 82-115 (_decode_siho_cw_euclidean) and 117-150 (_decode_siho_cw_hamming); best_test is a member of the decoder: its value
    comes from the last frames and goes to the next ones.  (1 << 31, for 31 flips, is taken as 2^31.) *)
Definition chase_search (less : list nat) (p : nat) (V : list bool) (best_test : nat) : outcome (list bool * nat) :=
  r <- for_from 2 (2 ^ p - 2) (fun t (st : D * nat * list bool) =>
         let '(dmin, best, V) := st in
         V <- flip less p t V ;;
         cur <- dist t ;;
         let '(dmin, best) := if lt cur dmin && is_codeword V then (cur, t) else (dmin, best) in
         V <- flip less p t V ;;
         Ret (dmin, best, V)) (dmax, best_test, V) ;;
  let '(_, best, V) := r in
  V <- flip less p best V ;;
  Ret (V, best).
End Chase.

(** 29-42 (constructor) *)
Definition chase_new (N max_flips : nat) : outcome nat := _ <- guard (max_flips <=? N) ;; _ <- guard (max_flips <=? 31) ;; Ret 0.

(** 152-187 (_decode_siho_cw); psort is std::partial_sort: comparison, number of elements to sort, list *)
Definition chase_siho_cw (psort : (nat -> nat -> bool) -> nat -> list nat -> list nat) (hamming : bool) (N p : nat) (is_codeword : list bool -> bool)
    (Y : list Q) (best_test : nat) : outcome (list bool * nat) :=
  let V := hard Y in
  if (p =? 0) || is_codeword V then Ret (V, best_test) else
  let less := psort (fun i1 i2 => Qltb (Qabs (nth i1 Y 0%Q)) (Qabs (nth i2 Y 0%Q))) p (seq 0 N) in
  i0 <- rd less 0 ;;
  v <- rd V i0 ;; V <- wr V i0 (negb v) ;;
  if is_codeword V then Ret (V, best_test) else
  v <- rd V i0 ;; V <- wr V i0 (negb v) ;;
  if hamming then chase_search Z Z.ltb UINT32_MAX (flip_hamming p) is_codeword less p V best_test
  else chase_search Q Qltb FLT_MAX (flip_euclidean less Y p) is_codeword less p V best_test.
