(** Reed-Solomon codes: src/Tools/Code/RS/RS_polynomial_generator.cpp, src/Module/Encoder/RS/Encoder_RS.cpp,
    src/Module/Decoder/RS/Decoder_RS.cpp and src/Module/Decoder/RS/Standard/Decoder_RS_std.cpp.
    Conventions as in BCHModel.  [w] is the width of the signed type B = S that holds bits and symbols. *)
From Coq Require Import List Arith ZArith Lia Bool.
From Verif Require Import Base Copy GaloisModel RepModel BitPackerModel BCHModel.
Import ListNotations.

(** An int expression whose value overflows is undefined. *)
Definition ck (z : Z) : outcome Z := if (2 ^ 31 <=? z)%Z then Undef else Ret z.

(* ------------------------------------------------------------------ *)
(** * Generator polynomial *)

(** RS_polynomial_generator.cpp 131-138: multiply by X + alpha^(init_root + i - 1). *)
Definition rs_mul_root (N : nat) (alpha index : list Z) (init_root i : nat) (g : list Z) : outcome (list Z) :=
  g <- wr g i 1%Z ;;
  g <- for_ (i - 1) (fun k g =>
    let j := i - 1 - k in
    gj <- rd g j ;; gm <- rd g (j - 1) ;;
    if (gj =? 0)%Z then wr g j gm
    else ix <- rdz index gj ;;
         a <- rdz alpha (Z.rem (ix + Z.of_nat init_root + Z.of_nat i - 1) (Z.of_nat N)) ;; wr g j (Z.lxor gm a)) g ;;
  g0 <- rd g 0 ;; ix <- rdz index g0 ;;
  a <- rdz alpha (Z.rem (ix + Z.of_nat init_root + Z.of_nat i - 1) (Z.of_nat N)) ;; wr g 0 a.
(** RS_polynomial_generator.cpp 8-20 and 47-144; the cycle sets and the zeros are computed as for
    BCH codes (the text is the same), but only zeros[1] is used.  The result is in index form. *)
Definition rs_poly (gf : galois) (t : nat) : outcome (list Z) :=
  _ <- guard (1 <=? t) ;;
  let d := 2 * t + 1 in
  zeros <- bch_zeros (gf_N gf) d ;;
  init_root <- rd zeros 1 ;;
  let g := repeat 0%Z d in
  a <- rdz (alpha_to gf) (Z.of_nat init_root) ;;
  g <- wr g 0 a ;;
  g <- wr g 1 1%Z ;;
  g <- for_from 2 (d - 2) (rs_mul_root (gf_N gf) (alpha_to gf) (index_of gf) init_root) g ;;
  for_ d (fun i g => gi <- rd g i ;; x <- rdz (index_of gf) gi ;; wr g i x) g.

(* ------------------------------------------------------------------ *)
(** * Encoder *)

(** Encoder_RS.cpp 14-51 and the checks of Encoder; sizes in symbols.  Returns info_bits_pos. *)
Definition rs_enc_ctor (w K N m : nat) (g : list Z) : outcome (list nat) :=
  _ <- guard (0 <? K * m) ;; _ <- guard (0 <? N * m) ;; _ <- guard (K * m <=? N * m) ;;
  _ <- guard (N - K =? length g - 1) ;;
  _ <- guard (negb (w <? m)) ;;
  Ret (tab (K * m) (fun k => length g - 1 + k)).

(** Encoder_RS.cpp 62-88 (__encode); the message is read from position [base] of [u]. *)
Definition rs_parity (w N : nat) (alpha index : list Z) (K : nat) (g u : list Z) (base : nat) (par : list Z) : outcome (list Z) :=
  let r := length g - 1 in
  par <- fill par 0 r 0%Z ;;
  for_ K (fun k par =>
    let i := K - 1 - k in
    ui <- rd u (base + i) ;; p <- rd par (r - 1) ;;
    feedback <- rdz index (Z.lxor ui p) ;;
    if (feedback =? -1)%Z then
      par <- for_ (r - 1) (fun k par => let j := r - 1 - k in pm <- rd par (j - 1) ;; wr par j pm) par ;;
      wr par 0 0%Z
    else
      par <- for_ (r - 1) (fun k par =>
        let j := r - 1 - k in
        gj <- rd g j ;; pm <- rd par (j - 1) ;;
        if (gj =? -1)%Z then wr par j pm
        else a <- rdz alpha (Z.rem (gj + feedback) (Z.of_nat N)) ;; wr par j (cast (Z.of_nat w) (Z.lxor pm a))) par ;;
      g0 <- rd g 0 ;;
      a <- rdz alpha (Z.rem (g0 + feedback) (Z.of_nat N)) ;; wr par 0 (cast (Z.of_nat w) a)) par.

(** Bit_packer::pack and unpack on one frame of symbols of the signed type S. *)
Definition rs_pack (w m : nat) (v out : list Z) (n_bits : nat) : outcome (list Z) :=
  o <- pack_ptr w v out n_bits 1 false m ;; Ret (map (cast (Z.of_nat w)) o).
Definition rs_unpack (w m : nat) (sy out : list Z) (n_bits : nat) : outcome (list Z) :=
  unpack_ptr w (map (wrap w) sy) out n_bits 1 false m.

(** Encoder_RS.cpp 90-103 (_encode); [pu], [bb] are the members packed_U_K and bb.  Returns X_N and the members. *)
Definition rs_encode (w m K N : nat) (alpha index g : list Z) (pu bb u x : list Z) : outcome (list Z * list Z * list Z) :=
  let r := length g - 1 in
  pu <- rs_pack w m u pu (K * m) ;;
  bb <- rs_parity w N alpha index K g pu 0 bb ;;
  x <- rs_unpack w m bb x (r * m) ;;
  x <- copy u 0 (K * m) x (r * m) ;;
  Ret (x, pu, bb).
(** Encoder_RS.cpp 105-117 (is_codeword); [px], [bb] are the members packed_X_N and bb. *)
Definition rs_is_codeword (w m K N : nat) (alpha index g : list Z) (px bb x : list Z) : outcome bool :=
  let r := length g - 1 in
  px <- rs_pack w m x px (N * m) ;;
  bb <- rs_parity w N alpha index K g px r bb ;;
  scan r (fun p => a <- rd px p ;; b <- rd bb p ;; Ret (a =? b)%Z).

(* ------------------------------------------------------------------ *)
(** * Standard decoder *)

(** Decoder_RS.cpp 13-39 and the checks of Decoder_SIHO; sizes in symbols.  Returns N_p2_1. *)
Definition rs_dec_ctor (K N m r : nat) : outcome nat :=
  _ <- guard (0 <? K * m) ;; _ <- guard (0 <? N * m) ;; _ <- guard (K * m <=? N * m) ;;
  _ <- guard (N - K =? r) ;;
  Ret (next_power_of_2 N - 1).

(** The members used as work space (Decoder_RS_std.cpp 14-24). *)
Record rs_mem := { r_elp : list (list Z); r_disc : list Z; r_l : list nat; r_ulu : list Z; r_s : list Z;
                   r_loc : list nat; r_root : list nat; r_reg : list Z; r_z : list Z; r_err : list Z }.

Section Decode.
(** t, N_rs, N_p2_1 and the tables. *)
Variables (w t N n : nat) (alpha index : list Z).
Let t2 := 2 * t.

(** Decoder_RS_std.cpp 46-61: the syndromes, in index form. *)
Definition rs_syndromes (y s : list Z) : outcome (list Z * bool) :=
  for_from 1 t2 (fun i '(s, syn_error) =>
    s <- wr s i 0%Z ;;
    s <- for_ N (fun j s =>
      b <- rd y j ;;
      y_idx <- rdz index b ;;
      if (y_idx =? -1)%Z then Ret s
      else e <- ck (y_idx + Z.of_nat i * Z.of_nat j) ;;
           a <- rdz alpha (Z.rem e (Z.of_nat n)) ;; si <- rd s i ;; wr s i (Z.lxor si a)) s ;;
    si <- rd s i ;;
    ix <- rdz index si ;;
    s <- wr s i ix ;;
    Ret (s, if (si =? 0)%Z then syn_error else true)) (s, false).

(** Decoder_RS_std.cpp 178-195: Chien search. *)
Definition rs_chien (lu : nat) (reg : list Z) (root loc : list nat) : outcome (list Z * list nat * list nat * nat) :=
  for_from 1 n (fun i '(reg, root, loc, count) =>
    '(reg, q) <- for_from 1 lu (fun j '(reg, q) =>
       r <- rd reg j ;;
       if (r =? -1)%Z then Ret (reg, q)
       else let r := Z.rem (r + Z.of_nat j) (Z.of_nat n) in
            reg <- wr reg j r ;; a <- rdz alpha r ;; Ret (reg, Z.lxor q a)) (reg, 1%Z) ;;
    if (q =? 0)%Z then
      root <- wr root count i ;;
      loc <- wr loc count (n - i) ;; Ret (reg, root, loc, S count)
    else Ret (reg, root, loc, count)) (reg, root, loc, 0).

(** Decoder_RS_std.cpp 202-219: the polynomial z(x), in index form. *)
Definition rs_z (lu : nat) (s e : list Z) (z : list Z) : outcome (list Z) :=
  for_from 1 lu (fun i z =>
    si <- rd s i ;; ei <- rd e i ;;
    v <- (if negb (si =? -1)%Z && negb (ei =? -1)%Z then a <- rdz alpha si ;; b <- rdz alpha ei ;; Ret (Z.lxor a b)
          else if negb (si =? -1)%Z && (ei =? -1)%Z then rdz alpha si
          else if (si =? -1)%Z && negb (ei =? -1)%Z then rdz alpha ei
          else Ret 0%Z) ;;
    z <- wr z i v ;;
    z <- for_from 1 (i - 1) (fun j z =>
      sj <- rd s j ;; ej <- rd e (i - j) ;;
      if negb (sj =? -1)%Z && negb (ej =? -1)%Z then
        a <- rdz alpha (Z.rem (ej + sj) (Z.of_nat n)) ;; zi <- rd z i ;; wr z i (Z.lxor zi a)
      else Ret z) z ;;
    zi <- rd z i ;; x <- rdz index zi ;; wr z i x) z.

(** Decoder_RS_std.cpp 224-244: the value of error [i] and the correction. *)
Definition rs_fix (lu : nat) (z : list Z) (root loc : list nat) (i : nat) (st : list Z * list Z) : outcome (list Z * list Z) :=
  let '(err, y) := st in
  p <- rd loc i ;; ri <- rd root i ;;
  err <- wr err p 1%Z ;;
  err <- for_from 1 lu (fun j err =>
    zj <- rd z j ;;
    if (zj =? -1)%Z then Ret err
    else e <- ck (zj + Z.of_nat j * Z.of_nat ri) ;;
         a <- rdz alpha (Z.rem e (Z.of_nat n)) ;; v <- rd err p ;; wr err p (Z.lxor v a)) err ;;
  v <- rd err p ;;
  if (v =? 0)%Z then Ret (err, y)
  else
    x <- rdz index v ;; err <- wr err p x ;;
    q <- for_ lu (fun j q =>
      if j =? i then Ret q
      else pj <- rd loc j ;; a <- rdz alpha (Z.rem (Z.of_nat pj + Z.of_nat ri) (Z.of_nat n)) ;;
           x <- rdz index (Z.lxor 1 a) ;; ck (q + x)) 0%Z ;;
    let q := Z.rem q (Z.of_nat n) in
    v <- rd err p ;;
    a <- rdz alpha (Z.rem (v - q + Z.of_nat n) (Z.of_nat n)) ;;
    err <- wr err p a ;;
    b <- rd y p ;; y <- wr y p (cast (Z.of_nat w) (Z.lxor b a)) ;;
    Ret (err, y).

(** Decoder_RS_std.cpp 39-254 (_decode); the Berlekamp iteration (66-164) is the one of
    Decoder_BCH_std.cpp.  Returns (status = SUCCESS, last_is_codeword, the word, the work space). *)
Definition rs_decode (y : list Z) (wk : rs_mem) : outcome (bool * bool * list Z * rs_mem) :=
  '(s, syn_error) <- rs_syndromes y (r_s wk) ;;
  if syn_error : bool then
    '(elp, disc, l, ulu) <- bm_init t s (r_elp wk) (r_disc wk) (r_l wk) (r_ulu wk) ;;
    '(u, (elp, disc, l, ulu)) <- bm_loop t n alpha index t2 0 s elp disc l ulu ;;
    let u := u + 1 in
    lu <- rd l u ;;
    if lu <=? t then
      elp <- for_ (S lu) (fun i elp => e <- rd2 elp u i ;; x <- rdz index e ;; wr2 elp u i x) elp ;;
      reg <- for_from 1 lu (fun i reg => e <- rd2 elp u i ;; wr reg i e) (r_reg wk) ;;
      '(reg, root, loc, count) <- rs_chien lu reg (r_root wk) (r_loc wk) ;;
      if count =? lu then
        eu <- rd elp u ;;
        z <- rs_z lu s eu (r_z wk) ;;
        err <- fill (r_err wk) 0 (length (r_err wk)) 0%Z ;;
        '(err, y) <- for_ lu (rs_fix lu z root loc) (err, y) ;;
        Ret (true, true, y, Build_rs_mem elp disc l ulu s loc root reg z err)
      else Ret (false, false, y, Build_rs_mem elp disc l ulu s loc root reg (r_z wk) (r_err wk))
    else Ret (false, false, y, Build_rs_mem elp disc l ulu s (r_loc wk) (r_root wk) (r_reg wk) (r_z wk) (r_err wk))
  else Ret (true, true, y, Build_rs_mem (r_elp wk) (r_disc wk) (r_l wk) (r_ulu wk) s (r_loc wk) (r_root wk) (r_reg wk) (r_z wk) (r_err wk)).

(** Decoder_RS.cpp 48-69 and 71-92 (_decode_hiho, _decode_hiho_cw): CWD, the message part and the whole
    word, in bits.  [yh] is the member YH_N. *)
Definition rs_decode_hiho (m K r : nat) (y yh : list Z) (wk : rs_mem) (v : list Z) : outcome (bool * bool * list Z * list Z * rs_mem) :=
  yh <- rs_pack w m y yh (N * m) ;;
  '(ok, cw, yh, wk) <- rs_decode yh wk ;;
  v <- rs_unpack w m (skipn r yh) v (K * m) ;;
  Ret (ok, cw, v, yh, wk).
Definition rs_decode_hiho_cw (m : nat) (y yh : list Z) (wk : rs_mem) (v : list Z) : outcome (bool * bool * list Z * list Z * rs_mem) :=
  yh <- rs_pack w m y yh (N * m) ;;
  '(ok, cw, yh, wk) <- rs_decode yh wk ;;
  v <- rs_unpack w m yh v (N * m) ;;
  Ret (ok, cw, v, yh, wk).
End Decode.

(** The work space built by the constructor (Decoder_RS_std.cpp 14-24). *)
Definition rs_mem_init (t n : nat) : rs_mem :=
  {| r_elp := repeat (repeat 0%Z n) (n + 2); r_disc := repeat 0%Z (n + 2); r_l := repeat 0 (n + 2); r_ulu := repeat 0%Z (n + 2);
     r_s := repeat 0%Z (2 * t + 1); r_loc := repeat 0 (t + 1); r_root := repeat 0 (t + 1); r_reg := repeat 0%Z (t + 1);
     r_z := repeat 0%Z (t + 1); r_err := repeat 0%Z n |}.
