(** Model of the CRC modules
    (src/Module/CRC/Polynomial/CRC_polynomial{,_fast,_inter}.cpp). No proofs. *)
From Coq Require Import List Arith ZArith Bool.
From Verif Require Import Base BitPackerModel.
Import ListNotations.

(** CRC_polynomial.cpp:40-42. [packed] is the 32-bit value of the key; a shift by
    32 or more ([size] > 32) is undefined. *)
Definition mk_poly (packed : Z) (size : nat) : outcome (list bool) :=
  for_ size (fun i p =>
    if size - 1 - i <? 32
    then Ret (p ++ [Z.testbit packed (Z.of_nat (size - 1 - i))])
    else Undef) [true].

(** CRC_polynomial.cpp:116-135 [_generate], up to the final copy; the result is the
    new content of [buff_crc]. *)
Definition generate (poly : list bool) (size : nat) (buff U_in : list Z) (off_in loop_size : nat)
  : outcome (list Z) :=
  buff <- for_ loop_size (fun i b => x <- rd U_in (off_in + i) ;; wr b i x) buff ;;
  buff <- for_ size (fun i b => wr b (loop_size + i) 0%Z) buff ;;
  for_ loop_size (fun i b =>
    x <- rd b i ;;
    if nz x then
      for_ (size + 1) (fun j b =>
        p <- rd poly j ;;
        if p : bool then y <- rd b (i + j) ;; wr b (i + j) (b2z (negb (nz y))) else Ret b) b
    else Ret b) buff.

(** std::copy(src + so, src + so + n, dst + d) *)
Definition copy_n (src : list Z) (so n : nat) (dst : list Z) (d : nat) : outcome (list Z) :=
  for_ n (fun i o => x <- rd src (so + i) ;; wr o (d + i) x) dst.

(** CRC_polynomial.cpp:108-114 [_build]: returns U_K2 and the internal buffer. *)
Definition build (poly : list bool) (size K : nat) (buff U_K1 U_K2 : list Z)
  : outcome (list Z * list Z) :=
  U_K2 <- copy_n U_K1 0 K U_K2 0 ;;
  buff <- generate poly size buff U_K1 0 K ;;
  U_K2 <- copy_n buff K size U_K2 K ;;
  Ret (U_K2, buff).

(** CRC_polynomial.cpp:137-142 [_extract] *)
Definition extract (K : nat) (V_K1 V_K2 : list Z) : outcome (list Z) := copy_n V_K1 0 K V_K2 0.

(** CRC_polynomial.cpp:150-158: the while loop of [_check], [n] = size - i. *)
Fixpoint check_loop (n i off : nat) (buff V : list Z) : outcome bool :=
  match n with
  | O => Ret true
  | S n' =>
      x <- rd buff (off + i) ;;
      y <- rd V (off + i) ;;
      if (nz x || negb (nz y)) && (negb (nz x) || nz y)
      then check_loop n' (S i) off buff V
      else Ret false
  end.

(** CRC_polynomial.cpp:144-159 [_check] *)
Definition check (poly : list bool) (size K : nat) (buff V : list Z) : outcome (bool * list Z) :=
  buff <- generate poly size buff V 0 K ;;
  b <- check_loop size 0 K buff V ;;
  Ret (b, buff).

(** CRC_polynomial.cpp:161-169 [_check_packed]. [V_mem] are the bytes of V_K; the
    vector has K + size elements of [sB] bytes; the second argument of
    Bit_packer::unpack is a number of frames. The elements that [_check] would read
    are decoded from the bytes. *)
Definition check_packed (sB : nat) (poly : list bool) (size K : nat) (buff V_mem : list Z)
  : outcome (bool * list Z) :=
  m <- for_ ((K + size) * sB) (fun i o => x <- rd V_mem i ;; wr o i x) (repeat 0%Z ((K + size) * sB)) ;;
  m <- unpack_inplace_vec sB m (K + size) false 8 ;;
  V <- for_ (K + size) (fun i acc => x <- get_elt sB m i ;; Ret (acc ++ [x])) [] ;;
  check poly size K buff V.

(** ** Fast version, CRC_polynomial_fast.cpp. [unsigned] values are integers in
    [0, 2^32). *)

(** CRC_polynomial_fast.cpp:27-32 *)
Definition poly_rev (packed : Z) (size : nat) : outcome Z :=
  r <- for_ 32 (fun i r =>
         Ret (Z.lor (wrap 32 (Z.shiftl r 1)) (Z.land (Z.shiftr packed (Z.of_nat i)) 1))) 0%Z ;;
  (* a shift of an unsigned by 32 (size = 0) is undefined *)
  if size =? 0 then Undef else Ret (Z.shiftr r (32 - Z.of_nat size)).

(** CRC_polynomial_fast.cpp:39, 137, 174, 187, 218 *)
Definition crc_step (rev crc : Z) : Z :=
  Z.lxor (Z.shiftr crc 1) (Z.land (- (Z.land crc 1)) rev).

(** [n] times *)
Definition crc_steps (rev : Z) (n : nat) (crc : Z) : outcome Z :=
  for_ n (fun _ c => Ret (crc_step rev c)) crc.

(** CRC_polynomial_fast.cpp:35-41 *)
Definition mk_lut (rev : Z) : outcome (list Z) :=
  for_ 256 (fun i lut => c <- crc_steps rev 8 (Z.of_nat i) ;; wr lut i c) (repeat 0%Z 256).

(** [cur <<= w - rest; cur >>= w - rest;] on a w-bit unsigned *)
Definition keep_low (w rest : nat) (cur : Z) : Z :=
  Z.shiftr (wrap w (Z.shiftl cur (Z.of_nat (w - rest)))) (Z.of_nat (w - rest)).

(** CRC_polynomial_fast.cpp:119-154 *)
Definition compute_crc_v1 (rev : Z) (data : list Z) (n_bits : nat) : outcome Z :=
  let length := n_bits / 8 in
  crc <- for_ length (fun i crc => d <- rd data i ;; crc_steps rev 8 (Z.lxor crc d)) 0%Z ;;
  let rest := n_bits mod 8 in
  if rest =? 0 then Ret crc
  else d <- rd data length ;; crc_steps rev rest (Z.lxor crc (keep_low 8 rest d)).

(** little-endian 32-bit load of word [i] *)
Definition load32 (data : list Z) (i : nat) : outcome Z := get_elt 4 data i.

(** CRC_polynomial_fast.cpp:156-191 *)
Definition compute_crc_v2 (rev : Z) (data : list Z) (n_bits : nat) : outcome Z :=
  let length := n_bits / 32 in
  crc <- for_ length (fun i crc => d <- load32 data i ;; crc_steps rev 32 (Z.lxor crc d)) 0%Z ;;
  let rest := n_bits mod 32 in
  if rest =? 0 then Ret crc
  else d <- load32 data length ;; crc_steps rev rest (Z.lxor crc (keep_low 32 rest d)).

(** CRC_polynomial_fast.cpp:193-222 *)
Definition compute_crc_v3 (rev : Z) (lut data : list Z) (n_bits : nat) : outcome Z :=
  let length := n_bits / 8 in
  crc <- for_ length (fun i crc =>
           d <- rd data i ;;
           l <- rd lut (Z.to_nat (Z.lxor (Z.land crc 255) d)) ;;
           Ret (Z.lxor (Z.shiftr crc 8) l)) 0%Z ;;
  let rest := n_bits mod 8 in
  if rest =? 0 then Ret crc
  else d <- rd data length ;; crc_steps rev rest (Z.lxor crc (keep_low 8 rest d)).

(** CRC_polynomial_fast.cpp:53-69 [_build]; [mem] are the bytes of buff_crc. *)
Definition fast_build (rev : Z) (lut : list Z) (size K : nat) (mem U_K1 U_K2 : list Z)
  : outcome (list Z * list Z) :=
  mem <- pack_ptr 8 U_K1 mem K 1 false 8 ;;
  crc <- compute_crc_v3 rev lut mem K ;;
  U_K2 <- copy_n U_K1 0 K U_K2 0 ;;
  U_K2 <- for_ size (fun i o => wr o (K + i) (Z.land (Z.shiftr crc (Z.of_nat i)) 1)) U_K2 ;;
  Ret (U_K2, mem).

(** CRC_polynomial_fast.cpp:103-105, 109-111: take bits [j..7] of a byte while bits of
    the CRC are missing; state (crc_ref, n_bits_crc). *)
Definition take_bits (crc_size : nat) (cur : Z) (from : nat) (st : Z * nat) : outcome (Z * nat) :=
  for_from from (8 - from) (fun j '(ref, n) =>
    if 0 <? n then
      Ret (Z.lor ref (Z.shiftl (Z.land (Z.shiftr cur (Z.of_nat j)) 1) (Z.of_nat (crc_size - n))), n - 1)
    else Ret (ref, n)) st.

(** CRC_polynomial_fast.cpp:107-112 [while (n_bits_crc)]; at most [fuel] bytes are
    needed, [fuel] = crc_size is always enough. *)
Fixpoint take_bytes (fuel crc_size : nat) (data : list Z) (pos : nat) (st : Z * nat) : outcome Z :=
  if snd st =? 0 then Ret (fst st) else
  match fuel with
  | O => Undef
  | S fuel' =>
      cur <- rd data pos ;;
      st <- take_bits crc_size cur 0 st ;;
      take_bytes fuel' crc_size data (S pos) st
  end.

(** CRC_polynomial_fast.cpp:79-117 [_check_packed] on the bytes of V_K *)
Definition fast_check_packed (rev : Z) (lut : list Z) (size K : nat) (mem : list Z) : outcome bool :=
  let rest := K mod 8 in
  crc <- compute_crc_v3 rev lut mem K ;;
  ref <- (if rest =? 0 then take_bytes size size mem (K / 8) (0%Z, size)
          else
            cur <- rd mem (K / 8) ;;
            st <- take_bits size cur rest (0%Z, size) ;;
            take_bytes size size mem (K / 8 + 1) st) ;;
  Ret (Z.lxor crc ref =? 0)%Z.

(** CRC_polynomial_fast.cpp:71-77 [_check] *)
Definition fast_check (rev : Z) (lut : list Z) (size K : nat) (mem V : list Z) : outcome (bool * list Z) :=
  mem <- pack_ptr 8 V mem (K + size) 1 false 8 ;;
  b <- fast_check_packed rev lut size K mem ;;
  Ret (b, mem).

(** ** SIMD version, CRC_polynomial_inter.cpp. A wave has [nf] = nElReg frames. *)

(** CRC_polynomial_inter.cpp:31-39 [_build] *)
Definition inter_build (poly : list bool) (size K nf : nat) (buff U_K1 U_K2 : list Z)
  : outcome (list Z * list Z) :=
  for_ nf (fun f '(U_K2, buff) =>
    (* CRC_polynomial::_build on pointers into the wave *)
    U_K2 <- copy_n U_K1 (f * K) K U_K2 (f * (K + size)) ;;
    buff <- generate poly size buff U_K1 (f * K) K ;;
    U_K2 <- copy_n buff K size U_K2 (f * (K + size) + K) ;;
    Ret (U_K2, buff)) (U_K2, buff).

(** CRC_polynomial_inter.cpp:77-108 [_generate_INTER] with off_in = 0; lane [f] of
    the registers is element [i + f]; the mask is computed before the inner loop. *)
Definition generate_inter (poly : list bool) (size K nf : nat) (buff V : list Z) : outcome (list Z) :=
  buff <- for_ (K * nf) (fun i b => x <- rd V i ;; wr b i x) buff ;;
  buff <- for_ (nf * size) (fun i b => wr b (length b - nf * size + i) 0%Z) buff ;;
  for_ K (fun k b =>
    let i := k * nf in
    mask <- for_ nf (fun f m => x <- rd b (i + f) ;; Ret (m ++ [nz x])) [] ;;
    for_ (size + 1) (fun j b =>
      p <- rd poly j ;;
      for_ nf (fun f b =>
        x <- rd b (i + nf * j + f) ;;
        m <- rd mask f ;;
        wr b (i + nf * j + f) (if m : bool then Z.lxor x (b2z p) else x)) b) b) buff.

(** CRC_polynomial_inter.cpp:41-58 [_check]; elements are compared with == *)
Fixpoint inter_loop (n i off : nat) (buff V : list Z) : outcome bool :=
  match n with
  | O => Ret true
  | S n' =>
      x <- rd buff (off + i) ;;
      y <- rd V (off + i) ;;
      if (x =? y)%Z then inter_loop n' (S i) off buff V else Ret false
  end.

Definition inter_check (poly : list bool) (size K nf : nat) (buff V : list Z) : outcome (bool * list Z) :=
  buff <- generate_inter poly size K nf buff V ;;
  b <- inter_loop (nf * size) 0 (K * nf) buff V ;;
  Ret (b, buff).

(** include/Module/CRC/Polynomial/CRC_polynomial.hxx:9-62 [known_polynomials], values and
    sizes in the order of the file (names dropped) *)
Definition known_polynomials : list (Z * nat) :=
  [(79764919%Z, 32) (* 32-GZIP 0x04C11DB7 *);
   (517762881%Z, 32) (* 32-CASTAGNOLI 0x1EDC6F41 *);
   (2168537515%Z, 32) (* 32-AIXM 0x814141AB *);
   (844641433%Z, 32) (* 32-KOOPMAN 0x32583499 *);
   (540064199%Z, 30) (* 30-CDMA 0x2030B9C7 *);
   (8801531%Z, 24) (* 24-LTEA 0x864CFB *);
   (8801531%Z, 24) (* 24-RADIX-64 0x864CFB *);
   (6122955%Z, 24) (* 24-FLEXRAY 0x5D6DCB *);
   (8801531%Z, 24) (* 24-5GA 0x864CFB *);
   (8388707%Z, 24) (* 24-5GB 0x800063 *);
   (11710743%Z, 24) (* 24-5GC 0xB2B117 *);
   (1058969%Z, 21) (* 21-CAN 0x102899 *);
   (92251%Z, 17) (* 17-CAN 0x1685B *);
   (32773%Z, 16) (* 16-IBM 0x8005 *);
   (4129%Z, 16) (* 16-CCITT 0x1021 *);
   (7631%Z, 16) (* 16-PROFIBUS 0x1DCF *);
   (30043%Z, 16) (* 16-OPENSAFETY-B 0x755B *);
   (22837%Z, 16) (* 16-OPENSAFETY-A 0x5935 *);
   (15717%Z, 16) (* 16-DNP 0x3D65 *);
   (35767%Z, 16) (* 16-T10-DIF 0x8BB7 *);
   (1417%Z, 16) (* 16-DECT 0x0589 *);
   (51303%Z, 16) (* 16-CDMA2000 0xC867 *);
   (41003%Z, 16) (* 16-ARINC 0xA02B *);
   (4131%Z, 16) (* 16-5G 0x1023 *);
   (12053%Z, 16) (* 16-CHAKRAVARTY 0x2F15 *);
   (26645%Z, 15) (* 15-MPT1327 0x6815 *);
   (17817%Z, 15) (* 15-CAN 0x4599 *);
   (2053%Z, 14) (* 14-DARC 0x0805 *);
   (7413%Z, 13) (* 13-BBC 0x1CF5 *);
   (3859%Z, 12) (* 12-CDMA2000 0xF13 *);
   (2063%Z, 12) (* 12-TELECOM 0x80F *);
   (901%Z, 11) (* 11-FLEXRAY 0x385 *);
   (1569%Z, 11) (* 11-5G 0x621 *);
   (985%Z, 10) (* 10-CDMA2000 0x3D9 *);
   (563%Z, 10) (* 10-ATM 0x233 *);
   (155%Z, 8) (* 8-WCDMA 0x9B *);
   (29%Z, 8) (* 8-SAE-J1850 0x1D *);
   (57%Z, 8) (* 8-DARC 0x39 *);
   (49%Z, 8) (* 8-DALLAS 0x31 *);
   (7%Z, 8) (* 8-CCITT 0x07 *);
   (47%Z, 8) (* 8-AUTOSAR 0x2F *);
   (213%Z, 8) (* 8-DVB-S2 0xD5 *);
   (101%Z, 7) (* 7-MVB 0x65 *);
   (9%Z, 7) (* 7-MMC 0x09 *);
   (39%Z, 6) (* 6-CDMA2000-A 0x27 *);
   (7%Z, 6) (* 6-CDMA2000-B 0x07 *);
   (25%Z, 6) (* 6-DARC 0x19 *);
   (3%Z, 6) (* 6-ITU 0x03 *);
   (21%Z, 5) (* 5-ITU 0x15 *);
   (9%Z, 5) (* 5-EPC 0x09 *);
   (5%Z, 5) (* 5-USB 0x05 *);
   (3%Z, 4) (* 4-ITU 0x3 *);
   (1%Z, 1) (* 1-PAR 0x1 *)].
