(** BCH codes: src/Tools/Code/BCH/BCH_polynomial_generator.cpp, src/Module/Encoder/BCH/Encoder_BCH.cpp,
    src/Module/Decoder/BCH/Decoder_BCH.cpp and src/Module/Decoder/BCH/Standard/Decoder_BCH_std.cpp.
    Bits and field elements are Z; the int variables used as sizes, exponents and degrees are nat. *)
From Coq Require Import List Arith ZArith Lia Bool.
From Verif Require Import Base Copy GaloisModel RepModel.
Import ListNotations.

(* ------------------------------------------------------------------ *)
(** * Generator polynomial *)

(** BCH_polynomial_generator.cpp 68-74: complete the last cycle set.  Here and in the two loops
    below, [fuel] bounds the number of iterations of a do-while loop; running out of fuel (a
    loop that does not end) is Undef. *)
Fixpoint close_set (fuel N : nat) (cs : list nat) : outcome (list nat) :=
  match fuel with
  | O => Undef
  | S f => let cs := cs ++ [(last cs 0 * 2) mod N] in
           if (last cs 0 * 2) mod N =? hd 0 cs then Ret cs else close_set f N cs
  end.
(** BCH_polynomial_generator.cpp 77-87: next representative; the two search loops (over the
    sets from 1 on) are existsb. *)
Fixpoint find_rep (fuel N : nat) (sets : list (list nat)) (rep : nat) : outcome (nat * bool) :=
  match fuel with
  | O => Undef
  | S f => let rep := S rep in
           let test := existsb (existsb (Nat.eqb rep)) (tl sets) in
           if test && (rep <? N - 1) then find_rep f N sets rep else Ret (rep, test)
  end.
(** BCH_polynomial_generator.cpp 65-95. *)
Fixpoint gen_sets (fuel N : nat) (sets : list (list nat)) (rep : nat) : outcome (list (list nat)) :=
  match fuel with
  | O => Undef
  | S f => cs <- close_set (S N) N (last sets []) ;;
           let sets := removelast sets ++ [cs] in
           '(rep, test) <- find_rep (S N) N sets rep ;;
           let sets := if test : bool then sets else sets ++ [[rep]] in
           if rep <? N - 1 then gen_sets f N sets rep else Ret sets
  end.
(** BCH_polynomial_generator.cpp 58-126: zeros[1..rdncy] are the cycle sets (from set 1 on)
    that contain one of 1, ..., d - 1; the entry zeros[0] is not used. *)
Definition bch_zeros (N d : nat) : outcome (list nat) :=
  sets <- gen_sets (S N) N [[0]; [1]] 0 ;;
  Ret (0 :: concat (filter (existsb (fun z => existsb (Nat.eqb z) (seq 1 (d - 1)))) (tl sets))).
(** BCH_polynomial_generator.cpp 136-143: multiply by X + alpha^zeros[i]. *)
Definition bch_mul_root (N : nat) (alpha index : list Z) (zeros : list nat) (i : nat) (g : list Z) : outcome (list Z) :=
  g <- wr g i 1%Z ;;
  g <- for_ (i - 1) (fun k g =>
    let j := i - 1 - k in
    gj <- rd g j ;; gm <- rd g (j - 1) ;;
    if (gj =? 0)%Z then wr g j gm
    else ix <- rdz index gj ;; z <- rd zeros i ;;
         a <- rdz alpha (Z.rem (ix + Z.of_nat z) (Z.of_nat N)) ;; wr g j (Z.lxor gm a)) g ;;
  g0 <- rd g 0 ;; ix <- rdz index g0 ;; z <- rd zeros i ;;
  a <- rdz alpha (Z.rem (ix + Z.of_nat z) (Z.of_nat N)) ;; wr g 0 a.
(** BCH_polynomial_generator.cpp 10-21 and 129-144; the Galois base class is [gf]. *)
Definition bch_poly (gf : galois) (t : nat) : outcome (list Z) :=
  _ <- guard (1 <=? t) ;;
  zeros <- bch_zeros (gf_N gf) (2 * t + 1) ;;
  let rdncy := length zeros - 1 in
  let g := repeat 0%Z (rdncy + 1) in
  z1 <- rd zeros 1 ;; a <- rdz (alpha_to gf) (Z.of_nat z1) ;;
  g <- wr g 0 a ;;
  g <- wr g 1 1%Z ;;
  for_from 2 (rdncy - 1) (bch_mul_root (gf_N gf) (alpha_to gf) (index_of gf) zeros) g.

(* ------------------------------------------------------------------ *)
(** * Encoder *)

(** Encoder_BCH.cpp 11-30 and Encoder.hxx (sizes); returns info_bits_pos. *)
Definition bch_enc_ctor (K N : nat) (g : list Z) : outcome (list nat) :=
  _ <- guard (0 <? K) ;; _ <- guard (0 <? N) ;; _ <- guard (K <=? N) ;;
  _ <- guard (N - K =? length g - 1) ;;
  Ret (tab K (fun k => length g - 1 + k)).
(** Encoder_BCH.cpp 41-54 (__encode); the message is read from position [base] of [u]. *)
Definition bch_parity (K : nat) (g u : list Z) (base : nat) (par : list Z) : outcome (list Z) :=
  let r := length g - 1 in
  par <- fill par 0 r 0%Z ;;
  for_ K (fun k par =>
    let i := K - 1 - k in
    ui <- rd u (base + i) ;; p <- rd par (r - 1) ;;
    let feedback := Z.lxor ui p in
    par <- for_ (r - 1) (fun k par =>
      let j := r - 1 - k in
      pm <- rd par (j - 1) ;; gj <- rd g j ;; wr par j (Z.lxor pm (Z.land gj feedback))) par ;;
    g0 <- rd g 0 ;;
    wr par 0 (if (feedback =? 0)%Z then 0%Z else if (g0 =? 0)%Z then 0%Z else 1%Z)) par.
(** Encoder_BCH.cpp 56-65 (_encode). *)
Definition bch_encode (K : nat) (g u x : list Z) : outcome (list Z) :=
  x <- bch_parity K g u 0 x ;; copy u 0 K x (length g - 1).
(** Encoder_BCH.cpp 67-77 (is_codeword); [bb] is the member buffer. *)
Definition bch_is_codeword (K : nat) (g bb x : list Z) : outcome bool :=
  let r := length g - 1 in
  bb <- bch_parity K g x r bb ;;
  scan r (fun p => a <- rd x p ;; b <- rd bb p ;; Ret (a =? b)%Z).

(* ------------------------------------------------------------------ *)
(** * Standard decoder *)

(** include/Tools/Math/utils.hxx 93-102 (next_power_of_2). *)
Fixpoint next_pow2_loop (fuel n x : nat) : nat :=
  match fuel with O => n | S f => if n <=? x then next_pow2_loop f (2 * n) x else n end.
Definition next_power_of_2 (x : nat) : nat := next_pow2_loop (S x) 1 x.

(** Decoder_BCH.cpp 11-26, Decoder_BCH_std.cpp 12-37 and the size checks of Decoder_SIHO; [r] is
    the number of redundancy bits of the polynomial.  Returns N_p2_1. *)
Definition bch_dec_ctor (K N r : nat) : outcome nat :=
  _ <- guard (0 <? K) ;; _ <- guard (0 <? N) ;; _ <- guard (K <=? N) ;;
  _ <- guard (3 <? K) ;; _ <- guard (N - K =? r) ;;
  Ret (next_power_of_2 N - 1).

Definition rd2 {A} (t : list (list A)) (i j : nat) : outcome A := row <- rd t i ;; rd row j.
Definition wr2 {A} (t : list (list A)) (i j : nat) (x : A) : outcome (list (list A)) :=
  row <- rd t i ;; row <- wr row j x ;; wr t i row.

(** The members used as work space (Decoder_BCH_std.cpp 18-24). *)
Record bch_mem := { b_elp : list (list Z); b_disc : list Z; b_l : list nat; b_ulu : list Z;
                    b_s : list Z; b_loc : list nat; b_reg : list Z }.

Section Decode.
(** t, N, N_p2_1 and the tables. *)
Variables (t N n : nat) (alpha index : list Z).
Let t2 := 2 * t.

(** Decoder_BCH_std.cpp 55-65: the syndromes, in index form.  The product i * j is an int. *)
Definition bch_syndromes (y s : list Z) : outcome (list Z * bool) :=
  for_from 1 t2 (fun i '(s, syn_error) =>
    s <- wr s i 0%Z ;;
    s <- for_ N (fun j s =>
      b <- rd y j ;;
      if (b =? 0)%Z then Ret s
      else if (2 ^ 31 <=? Z.of_nat i * Z.of_nat j)%Z then Undef
      else a <- rdz alpha (Z.rem (Z.of_nat i * Z.of_nat j) (Z.of_nat n)) ;; si <- rd s i ;; wr s i (Z.lxor si a)) s ;;
    si <- rd s i ;;
    ix <- rdz index si ;;
    s <- wr s i ix ;;
    Ret (s, if (si =? 0)%Z then syn_error else true)) (s, false).

(** Decoder_BCH_std.cpp 81-93. *)
Definition bm_init (s : list Z) (elp : list (list Z)) (disc : list Z) (l : list nat) (ulu : list Z)
  : outcome (list (list Z) * list Z * list nat * list Z) :=
  disc <- wr disc 0 0%Z ;; s1 <- rd s 1 ;; disc <- wr disc 1 s1 ;;
  elp <- wr2 elp 0 0 0%Z ;; elp <- wr2 elp 1 0 1%Z ;;
  elp <- for_from 1 (t2 - 1) (fun i elp => elp <- wr2 elp 0 i (-1)%Z ;; wr2 elp 1 i 0%Z) elp ;;
  l <- wr l 0 0 ;; l <- wr l 1 0 ;; ulu <- wr ulu 0 (-1)%Z ;; ulu <- wr ulu 1 0%Z ;;
  Ret (elp, disc, l, ulu).

(** Decoder_BCH_std.cpp 111-113. *)
Fixpoint bm_first (disc : list Z) (q : nat) : outcome nat :=
  match q with
  | O => d <- rd disc 0 ;; Ret 0
  | S q' => d <- rd disc q ;; if (d =? -1)%Z then bm_first disc q' else Ret q
  end.
(** Decoder_BCH_std.cpp 115-125. *)
Definition bm_best (disc ulu : list Z) (q : nat) : outcome nat :=
  for_ q (fun k b =>
    let j := q - 1 - k in
    d <- rd disc j ;; ub <- rd ulu b ;; uj <- rd ulu j ;;
    Ret (if negb (d =? -1)%Z && (ub <? uj)%Z then j else b)) q.

(** Decoder_BCH_std.cpp 100-149: the next row of the table. *)
Definition bm_row (u : nat) (elp : list (list Z)) (disc : list Z) (l : list nat) (ulu : list Z)
  : outcome (list (list Z) * list nat) :=
  du <- rd disc u ;;
  lu <- rd l u ;;
  if (du =? -1)%Z then
    l <- wr l (u + 1) lu ;;
    elp <- for_ (S lu) (fun i elp =>
      e <- rd2 elp u i ;; elp <- wr2 elp (u + 1) i e ;;
      e <- rd2 elp u i ;; x <- rdz index e ;; wr2 elp u i x) elp ;;
    Ret (elp, l)
  else
    q <- bm_first disc (u - 1) ;;
    q <- (if 0 <? q then bm_best disc ulu q else Ret q) ;;
    lq <- rd l q ;; dq <- rd disc q ;;
    l <- wr l (u + 1) (if lq + u - q <? lu then lu else lq + u - q) ;;
    elp <- for_ t2 (fun i elp => wr2 elp (u + 1) i 0%Z) elp ;;
    elp <- for_ (S lq) (fun i elp =>
      e <- rd2 elp q i ;;
      if (e =? -1)%Z then Ret elp
      else a <- rdz alpha (Z.rem (du + Z.of_nat n - dq + e) (Z.of_nat n)) ;; wr2 elp (u + 1) (i + u - q) a) elp ;;
    elp <- for_ (S lu) (fun i elp =>
      a <- rd2 elp (u + 1) i ;; e <- rd2 elp u i ;; elp <- wr2 elp (u + 1) i (Z.lxor a e) ;;
      e <- rd2 elp u i ;; x <- rdz index e ;; wr2 elp u i x) elp ;;
    Ret (elp, l).

(** Decoder_BCH_std.cpp 153-166: the next discrepancy. *)
Definition bm_disc (u : nat) (s : list Z) (elp : list (list Z)) (disc : list Z) (l1 : nat) : outcome (list Z) :=
  if u <? t2 then
    su <- rd s (u + 1) ;;
    a <- (if (su =? -1)%Z then Ret 0%Z else rdz alpha su) ;;
    disc <- wr disc (u + 1) a ;;
    disc <- for_from 1 l1 (fun i disc =>
      si <- (if i <=? u + 1 then rd s (u + 1 - i) else Undef) ;;
      if (si =? -1)%Z then Ret disc else
      e <- rd2 elp (u + 1) i ;;
      if (e =? 0)%Z then Ret disc else
      x <- rdz index e ;; a <- rdz alpha (Z.rem (si + x) (Z.of_nat n)) ;;
      d <- rd disc (u + 1) ;; wr disc (u + 1) (Z.lxor d a)) disc ;;
    d <- rd disc (u + 1) ;; x <- rdz index d ;; wr disc (u + 1) x
  else Ret disc.

(** Decoder_BCH_std.cpp 95-168; [fuel] as above. *)
Fixpoint bm_loop (fuel u : nat) (s : list Z) (elp : list (list Z)) (disc : list Z) (l : list nat) (ulu : list Z)
  : outcome (nat * (list (list Z) * list Z * list nat * list Z)) :=
  match fuel with
  | O => Undef
  | S f =>
    let u := u + 1 in
    '(elp, l) <- bm_row u elp disc l ulu ;;
    l1 <- rd l (u + 1) ;;
    ulu <- wr ulu (u + 1) (Z.of_nat u - Z.of_nat l1)%Z ;;
    disc <- bm_disc u s elp disc l1 ;;
    if (u <? t2) && (l1 <=? t) then bm_loop f u s elp disc l ulu else Ret (u, (elp, disc, l, ulu))
  end.

(** Decoder_BCH_std.cpp 181-202: Chien search on the coefficients reg[1..lu]. *)
Definition bch_chien (lu : nat) (reg : list Z) (loc : list nat) : outcome (list Z * list nat * nat) :=
  for_from 1 n (fun i '(reg, loc, count) =>
    '(reg, q) <- for_from 1 lu (fun j '(reg, q) =>
       r <- rd reg j ;;
       if (r =? -1)%Z then Ret (reg, q)
       else let r := Z.rem (r + Z.of_nat j) (Z.of_nat n) in
            reg <- wr reg j r ;; a <- rdz alpha r ;; Ret (reg, Z.lxor q a)) (reg, 1%Z) ;;
    if (q =? 0)%Z then
      _ <- guard (count <? length loc) ;;
      loc <- wr loc count (n - i) ;; Ret (reg, loc, S count)
    else Ret (reg, loc, count)) (reg, loc, 0).

(** Decoder_BCH_std.cpp 48-223 (_decode).  Returns (status = SUCCESS, last_is_codeword, the word,
    the work space). *)
Definition bch_decode (y : list Z) (w : bch_mem) : outcome (bool * bool * list Z * bch_mem) :=
  '(s, syn_error) <- bch_syndromes y (b_s w) ;;
  if syn_error : bool then
    '(elp, disc, l, ulu) <- bm_init s (b_elp w) (b_disc w) (b_l w) (b_ulu w) ;;
    '(u, (elp, disc, l, ulu)) <- bm_loop t2 0 s elp disc l ulu ;;
    let u := u + 1 in
    lu <- rd l u ;;
    if lu <=? t then
      elp <- for_ (S lu) (fun i elp => e <- rd2 elp u i ;; x <- rdz index e ;; wr2 elp u i x) elp ;;
      reg <- for_from 1 lu (fun i reg => e <- rd2 elp u i ;; wr reg i e) (b_reg w) ;;
      '(reg, loc, count) <- bch_chien lu reg (b_loc w) ;;
      let w := Build_bch_mem elp disc l ulu s loc reg in
      if count =? lu then
        y <- for_ lu (fun i y => p <- rd loc i ;;
          if p <? N then b <- rd y p ;; wr y p (Z.lxor b 1) else Ret y) y ;;
        Ret (true, true, y, w)
      else Ret (false, false, y, w)
    else Ret (false, false, y, Build_bch_mem elp disc l ulu s (b_loc w) (b_reg w))
  else Ret (true, true, y, Build_bch_mem (b_elp w) (b_disc w) (b_l w) (b_ulu w) s (b_loc w) (b_reg w)).

(** Decoder_BCH_std.cpp 226-252 (_decode_hiho and _decode_hiho_cw): CWD, the message part and the
    whole word.  [yh] is the member YH_N. *)
Definition bch_decode_hiho (K : nat) (y yh : list Z) (w : bch_mem) (v : list Z) : outcome (bool * bool * list Z * list Z * bch_mem) :=
  yh <- copy y 0 N yh 0 ;;
  '(ok, cw, yh, w) <- bch_decode yh w ;;
  v <- copy yh (N - K) K v 0 ;;
  Ret (ok, cw, v, yh, w).
Definition bch_decode_hiho_cw (y yh : list Z) (w : bch_mem) (v : list Z) : outcome (bool * bool * list Z * list Z * bch_mem) :=
  yh <- copy y 0 N yh 0 ;;
  '(ok, cw, yh, w) <- bch_decode yh w ;;
  v <- copy yh 0 N v 0 ;;
  Ret (ok, cw, v, yh, w).
End Decode.

(** The work space built by the constructor (Decoder_BCH_std.cpp 18-24). *)
Definition bch_mem_init (t n : nat) : bch_mem :=
  {| b_elp := repeat (repeat 0%Z n) (n + 2); b_disc := repeat 0%Z (n + 2); b_l := repeat 0 (n + 2); b_ulu := repeat 0%Z (n + 2);
     b_s := repeat 0%Z (2 * t + 1); b_loc := repeat 0 (t + 1); b_reg := repeat 0%Z (t + 1) |}.
