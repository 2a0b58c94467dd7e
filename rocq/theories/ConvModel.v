(** Convolutional encoders: src/Module/Encoder/{RSC,RSC_DB,Turbo,Turbo_DB}.  Bits (type B)
    are the naturals 0 and 1, states are naturals; one frame is encoded (frame_id = 0). *)
From Coq Require Import List Arith ZArith Lia Bool.
From Verif Require Import Base Copy.
Import ListNotations.

(* ------------------------------------------------------------------ *)
(** * RSC encoders *)

(** The virtual methods of Encoder_RSC_sys: [inner b s] is inner_encode (the result and
    the new value of [state]), [tail_bit s] is tail_bit_sys. *)
Record rsc := { n_ff : nat; inner : nat -> nat -> outcome (nat * nat); tail_bit : nat -> outcome nat }.

(** src/Module/Encoder/RSC/Encoder_RSC_sys.cpp 112-150 (__encode); the pointers are offsets
    in [x] and are never null, as in _encode. *)
Definition rsc_encode_at (e : rsc) (K : nat) (u x : list nat)
  (sys tail_sys par tail_par stride stride_tail : nat) : outcome (list nat) :=
  x <- for_ K (fun i x => v <- rd u i ;; wr x (sys + i * stride) v) x ;;
  '(x, state) <- for_ K (fun i '(x, state) =>
      b <- rd u i ;; '(p, state) <- inner e b state ;;
      x <- wr x (par + i * stride) p ;; Ret (x, state)) (x, 0) ;;
  '(x, state) <- for_ (n_ff e) (fun i '(x, state) =>
      b <- tail_bit e state ;;
      x <- wr x (tail_sys + i * stride_tail) b ;;
      '(p, state) <- inner e b state ;;
      x <- wr x (tail_par + i * stride_tail) p ;; Ret (x, state)) (x, state) ;;
  if state =? 0 then Ret x else Throws.

(** src/Module/Encoder/RSC/Encoder_RSC_sys.cpp 52-70 (_encode). *)
Definition rsc_encode (e : rsc) (buffered : bool) (K : nat) (u x : list nat) : outcome (list nat) :=
  if buffered then
    rsc_encode_at e K u x 0 K (K + n_ff e) (2 * K + n_ff e) 1 1
  else
    rsc_encode_at e K u x 0 (2 * K) 1 (2 * K + 1) 2 2.

(** src/Module/Encoder/RSC/Encoder_RSC_sys.cpp 152-189 (_is_codeword): [None] records that
    "return false" has been executed. *)
Definition rsc_is_codeword_at (e : rsc) (K : nat) (x : list nat)
  (sys tail_sys par tail_par stride stride_tail : nat) : outcome bool :=
  st <- for_ K (fun i st =>
      match st with
      | None => Ret None
      | Some state =>
        q <- rd x (par + i * stride) ;; b <- rd x (sys + i * stride) ;;
        '(p, state) <- inner e b state ;;
        if q =? p then Ret (Some state) else Ret None
      end) (Some 0) ;;
  st <- for_ (n_ff e) (fun i st =>
      match st with
      | None => Ret None
      | Some state =>
        b <- tail_bit e state ;;
        a <- rd x (tail_sys + i * stride_tail) ;;
        if a =? b then
          '(p, state) <- inner e b state ;;
          q <- rd x (tail_par + i * stride_tail) ;;
          if q =? p then Ret (Some state) else Ret None
        else Ret None
      end) st ;;
  Ret (match st with Some _ => true | None => false end).
(** src/Module/Encoder/RSC/Encoder_RSC_sys.cpp 191-207 (is_codeword). *)
Definition rsc_is_codeword (e : rsc) (buffered : bool) (K : nat) (x : list nat) : outcome bool :=
  if buffered then
    rsc_is_codeword_at e K x 0 K (K + n_ff e) (2 * K + n_ff e) 1 1
  else
    rsc_is_codeword_at e K x 0 (2 * K) 1 (2 * K + 1) 2 2.

(** src/Module/Encoder/RSC/Encoder_RSC_sys.cpp 34-36 and include/Module/Encoder/Encoder.hxx
    88: info_bits_pos. *)
Definition rsc_info_pos (buffered : bool) (K : nat) : list nat :=
  tab K (fun k => if buffered then k else 2 * k).

(** trellis[r][c] = v *)
Definition wr2 (t : list (list Z)) (r c : nat) (v : Z) : outcome (list (list Z)) :=
  row <- rd t r ;; row <- wr row c v ;; wr t r row.
(** One half of the loop body of get_trellis, src/Module/Encoder/RSC/Encoder_RSC_sys.cpp
    82-94 (bit_sys = 0) and 96-106 (bit_sys = 1). *)
Definition trellis_step (e : rsc) (i bit_sys : nat) (st : list (list Z) * list bool)
  : outcome (list (list Z) * list bool) :=
  let (t, occ) := st in
  '(bit_par, state) <- inner e bit_sys i ;;
  o <- rd occ state ;;
  let r := if o : bool then 3 else 0 in
  let g := Z.of_nat (Nat.lxor bit_sys bit_par) in
  t <- wr2 t (0 + r) state (Z.of_nat i) ;;
  t <- wr2 t (1 + r) state (if bit_sys =? 0 then 1%Z else (-1)%Z) ;;
  t <- wr2 t (2 + r) state g ;;
  t <- wr2 t (if bit_sys =? 0 then 6 else 8) i (Z.of_nat state) ;;
  t <- wr2 t (if bit_sys =? 0 then 7 else 9) i g ;;
  occ <- wr occ state true ;;
  Ret (t, occ).
(** src/Module/Encoder/RSC/Encoder_RSC_sys.cpp 72-110 (get_trellis). *)
Definition get_trellis (e : rsc) : outcome (list (list Z)) :=
  let n_states := 2 ^ n_ff e in
  '(t, _) <- for_ n_states (fun i st => st <- trellis_step e i 0 st ;; trellis_step e i 1 st)
     (repeat (repeat 0%Z n_states) 10, repeat false n_states) ;;
  Ret t.

(** src/Module/Encoder/RSC/Encoder_RSC_generic_sys.cpp 37-45: temp_tail (with poly[0]) or
    temp_parity (with poly[1]) of state [s]. *)
Definition taps (poly n s : nat) : nat :=
  Nat.b2n (fold_left (fun t i => xorb t (Nat.testbit s i && Nat.testbit poly i)) (seq 0 n) false).
(** src/Module/Encoder/RSC/Encoder_RSC_generic_sys.cpp 37-54: (out_parity, next_state,
    sys_tail). *)
Definition rsc_tables (p0 p1 n : nat) : list nat * list nat * list nat :=
  fold_left (fun '(op, ns, st) s =>
    let t := taps p0 n s in
    let q := taps p1 n s in
    (op ++ [Nat.lxor t q; Nat.lxor (1 - t) q],
     ns ++ [Nat.lxor (Nat.div2 s) (Nat.shiftl t (n - 1)); Nat.lxor (Nat.div2 s) (Nat.shiftl (1 - t) (n - 1))],
     st ++ [t])) (seq 0 (2 ^ n)) ([], [], []).
(** src/Module/Encoder/RSC/Encoder_RSC_generic_sys.cpp 66-80. *)
Definition rsc_generic (p0 p1 n : nat) : rsc :=
  let '(op, ns, st) := rsc_tables p0 p1 n in
  {| n_ff := n;
     inner := fun b s => p <- rd op (2 * s + b) ;; s' <- rd ns (2 * s + b) ;; Ret (p, s');
     tail_bit := fun s => rd st s |}.
(** src/Module/Encoder/RSC/Encoder_RSC_generic_sys.cpp 12-35, Encoder_RSC_sys.cpp 11-32 and
    include/Module/Encoder/Encoder.hxx 42-62.  floor(log2(p)) is exact for an int p > 0; of
    0 it is -infinity, whose conversion to int is undefined.  Negative polynomials are not
    modelled. *)
Definition rsc_generic_ctor (K N : nat) (poly : list nat) : outcome rsc :=
  p0 <- rd poly 0 ;;
  if p0 =? 0 then Undef else
  let n := Nat.log2 p0 in
  _ <- guard (0 <? K) ;; _ <- guard (0 <? N) ;; _ <- guard (K <=? N) ;;
  _ <- guard (0 <? n) ;; _ <- guard (Z.of_nat N - 2 * Z.of_nat n =? 2 * Z.of_nat K)%Z ;;
  _ <- guard (2 <=? length poly) ;;
  let p1 := nth 1 poly 0 in
  _ <- guard (negb (p1 =? 0) && (n =? Nat.log2 p1)) ;;
  Ret (rsc_generic p0 p1 n).

(** src/Module/Encoder/RSC/Encoder_RSC3_CPE_sys.cpp 25-49. *)
Definition cpe_inner (b s : nat) : nat * nat :=
  let s2 := Nat.b2n (Nat.testbit s 2) in
  let s1 := Nat.b2n (Nat.testbit s 1) in
  let s0 := Nat.b2n (Nat.testbit s 0) in
  (Nat.lor (Nat.shiftl s0 0) (Nat.lor (Nat.shiftl s1 1) (Nat.lor (Nat.shiftl s2 2) (Nat.lor (Nat.shiftl b 3) 0))),
   Nat.lor (Nat.shiftl b 2) (Nat.lxor (Nat.div2 s) s0)).
Definition rsc_cpe : rsc :=
  {| n_ff := 3;
     inner := fun b s => Ret (cpe_inner b s);
     tail_bit := fun s => Ret (Nat.b2n (xorb (xorb (Nat.testbit s 0) (Nat.testbit s 1)) (Nat.testbit s 2))) |}.

(* ------------------------------------------------------------------ *)
(** * Turbo encoders *)

(** The sub-encoders as seen through Encoder: sizes, encode (second argument: the output
    buffer) and is_codeword. *)
Record encoder := { e_K : nat; e_N : nat; e_tail : nat;
                    e_encode : list nat -> list nat -> outcome (list nat);
                    e_is_codeword : list nat -> outcome bool }.
Definition rsc_encoder (e : rsc) (buffered : bool) (K : nat) : encoder :=
  {| e_K := K; e_N := 2 * K + 2 * n_ff e; e_tail := 2 * n_ff e;
     e_encode := rsc_encode e buffered K; e_is_codeword := rsc_is_codeword e buffered K |}.

(** Interleaver::interleave on one frame, see InterleaverModel: out[i] = in[lut[i]]. *)
Definition gather1 (lut x out : list nat) : outcome (list nat) :=
  for_ (length lut) (fun i o => p <- rd lut i ;; v <- rd x p ;; wr o i v) out.

(** src/Module/Encoder/Turbo/Encoder_turbo.cpp 13-45, the checks on sizes. *)
Definition turbo_enc_ctor (K N : nat) (en ei : encoder) (lut : list nat) : outcome unit :=
  _ <- guard (0 <? K) ;; _ <- guard (0 <? N) ;; _ <- guard (K <=? N) ;;
  _ <- guard (Z.of_nat N - (Z.of_nat (e_tail en) + Z.of_nat (e_tail ei)) =? 3 * Z.of_nat K)%Z ;;
  guard (length lut =? K).
(** src/Module/Encoder/Turbo/Encoder_turbo.cpp 90-107 (_encode).  [ui] and [tmp] are the
    members U_K_i and X_N_tmp; encode on [tmp] only sees its first N elements. *)
Definition sub_encode (e : encoder) (u tmp : list nat) : outcome (list nat) :=
  if e_N e <=? length tmp then
    y <- e_encode e u (firstn (e_N e) tmp) ;; Ret (y ++ skipn (e_N e) tmp)
  else Undef.
Definition turbo_encode (K : nat) (en ei : encoder) (lut ui tmp u x : list nat) : outcome (list nat) :=
  ui <- gather1 lut u ui ;;
  tmp <- sub_encode en u tmp ;;
  x <- copy tmp 0 (e_N en) x 0 ;;
  tmp <- sub_encode ei ui tmp ;;
  copy tmp (e_K ei) (e_N ei - e_K ei) x (e_N en).
(** src/Module/Encoder/Turbo/Encoder_turbo.cpp 109-130 (is_codeword). *)
Definition sub_is_codeword (e : encoder) (x : list nat) : outcome bool :=
  if e_N e <=? length x then e_is_codeword e (firstn (e_N e) x) else Undef.
Definition turbo_is_codeword (K N : nat) (en ei : encoder) (lut ui tmp x : list nat) : outcome bool :=
  b <- sub_is_codeword en x ;;
  if negb b then Ret false else
  ui <- gather1 lut x ui ;;
  tmp <- copy ui 0 (e_K ei) tmp 0 ;;
  tmp <- copy x (e_N en) (N - e_N en) tmp (e_K ei) ;;
  b <- sub_is_codeword ei tmp ;;
  Ret b.

(** src/Module/Encoder/Turbo/Encoder_turbo_legacy.cpp 69-101 (_encode); [xn], [xi] are the
    members X_N_n and X_N_i. *)
Definition legacy_encode (K : nat) (e : encoder) (lut ui xn xi u x : list nat) : outcome (list nat) :=
  ui <- gather1 lut u ui ;;
  xn <- sub_encode e u xn ;;
  xi <- sub_encode e ui xi ;;
  x <- for_ K (fun i x =>
      a <- rd xn (2 * i + 0) ;; x <- wr x (3 * i + 0) a ;;
      a <- rd xn (2 * i + 1) ;; x <- wr x (3 * i + 1) a ;;
      a <- rd xi (2 * i + 1) ;; wr x (3 * i + 2) a) x ;;
  x <- for_ (e_tail e / 2) (fun i x =>
      a <- rd xn (2 * K + 2 * i + 0) ;; x <- wr x (3 * K + 2 * i + 0) a ;;
      a <- rd xn (2 * K + 2 * i + 1) ;; wr x (3 * K + 2 * i + 1) a) x ;;
  for_ (e_tail e / 2) (fun i x =>
      a <- rd xi (2 * K + 2 * i + 0) ;; x <- wr x (3 * K + e_tail e + 2 * i + 0) a ;;
      a <- rd xi (2 * K + 2 * i + 1) ;; wr x (3 * K + e_tail e + 2 * i + 1) a) x.
(** src/Module/Encoder/Turbo/Encoder_turbo_legacy.cpp 103-144 (is_codeword); [un] is
    X_N_tmp of the base class. *)
Definition legacy_is_codeword (K : nat) (e : encoder) (lut un ui xn xi x : list nat) : outcome bool :=
  '(un, xn, xi) <- for_ K (fun i '(un, xn, xi) =>
      a <- rd x (3 * i + 0) ;; xn <- wr xn (2 * i + 0) a ;; un <- wr un i a ;;
      a <- rd x (3 * i + 1) ;; xn <- wr xn (2 * i + 1) a ;;
      a <- rd x (3 * i + 2) ;; xi <- wr xi (2 * i + 1) a ;; Ret (un, xn, xi)) (un, xn, xi) ;;
  xn <- for_ (e_tail e / 2) (fun i xn =>
      a <- rd x (3 * K + 2 * i + 0) ;; xn <- wr xn (2 * K + 2 * i + 0) a ;;
      a <- rd x (3 * K + 2 * i + 1) ;; wr xn (2 * K + 2 * i + 1) a) xn ;;
  xi <- for_ (e_tail e / 2) (fun i xi =>
      a <- rd x (3 * K + e_tail e + 2 * i + 0) ;; xi <- wr xi (2 * K + 2 * i + 0) a ;;
      a <- rd x (3 * K + e_tail e + 2 * i + 1) ;; wr xi (2 * K + 2 * i + 1) a) xi ;;
  b <- sub_is_codeword e xn ;;
  if negb b then Ret false else
  ui <- gather1 lut un ui ;;
  xi <- for_ K (fun i xi => a <- rd ui i ;; wr xi (2 * i + 0) a) xi ;;
  sub_is_codeword e xi.

(* ------------------------------------------------------------------ *)
(** * Double-binary RSC *)

Inductive db_std := RCS1 | RCS2.
Definition db_nff (s : db_std) : nat := match s with RCS1 => 3 | RCS2 => 4 end.
(** src/Module/Encoder/RSC_DB/Encoder_RSC_DB.cpp 31-35 and 46-50: A, B, Y, W, feedback. *)
Definition db_poly (s : db_std) : list (list nat) :=
  match s with
  | RCS1 => [[1;0;0]; [1;1;1]; [1;0;1;1]; [1;0;0;1]; [1;0;1]]
  | RCS2 => [[1;0;0;0]; [1;1;0;1]; [1;1;1;0;1]; [1;0;1;1;1]; [0;0;1;1]]
  end.
(** src/Module/Encoder/RSC_DB/Encoder_RSC_DB.cpp 36-41 and 52-65. *)
Definition circ_states (s : db_std) : list (list nat) :=
  match s with
  | RCS1 => [[0;6;4;2;7;1;3;5]; [0;3;7;4;5;6;2;1]; [0;5;3;6;2;7;1;4];
             [0;4;1;5;6;2;7;3]; [0;2;5;7;1;3;4;6]; [0;7;6;1;3;4;5;2]]
  | RCS2 => [[0;14;3;13;7;9;4;10;15;1;12;2;8;6;11;5];
             [0;11;13;6;10;1;7;12;5;14;8;3;15;4;2;9];
             [0;8;9;1;2;10;11;3;4;12;13;5;6;14;15;7];
             [0;3;4;7;8;11;12;15;1;2;5;6;9;10;13;14];
             [0;12;5;9;11;7;14;2;6;10;3;15;13;1;8;4];
             [0;4;12;8;9;13;5;1;2;6;14;10;11;15;7;3];
             [0;6;10;12;5;3;15;9;11;13;1;7;14;8;4;2];
             [0;7;8;15;1;6;9;14;3;4;11;12;2;5;10;13];
             [0;5;14;11;13;8;3;6;10;15;4;1;7;2;9;12];
             [0;13;7;10;15;2;8;5;14;3;9;4;1;12;6;11];
             [0;2;6;4;12;14;10;8;9;11;15;13;5;7;3;1];
             [0;9;11;2;6;15;13;4;12;5;7;14;10;3;1;8];
             [0;10;15;5;14;4;1;11;13;7;2;8;3;9;12;6];
             [0;15;1;14;3;12;2;13;7;8;6;9;4;11;5;10]]
  end.
Definition bitn (s i : nat) : nat := Nat.b2n (Nat.testbit s i).
Definition pol (ps : list (list nat)) (j i : nat) : nat := nth i (nth j ps []) 0.
(** src/Module/Encoder/RSC_DB/Encoder_RSC_DB.cpp 166-199 (calc_state_trans): (next state,
    parity).  The tables are read in bounds, by the size checks of the constructor. *)
Definition calc_state_trans (std : db_std) (s inp : nat) : nat * nat :=
  let n := db_nff std in
  let ps := db_poly std in
  let f0 := fold_left (fun f i => Nat.lxor f (bitn s i * pol ps 4 (n - 1 - i))) (seq 0 n) 0 in
  let f0 := Nat.lxor f0 (pol ps 0 0 * bitn inp 1) in
  let f0 := Nat.lxor f0 (pol ps 1 0 * bitn inp 0) in
  let ff := f0 :: map (fun i => Nat.lxor (Nat.lxor (bitn s (n - i)) (pol ps 0 i * bitn inp 1))
                                         (pol ps 1 i * bitn inp 0)) (seq 1 (n - 1)) in
  let py := fold_left (fun p i => Nat.lxor p (bitn s (n - i) * pol ps 2 i)) (seq 1 n) (f0 * pol ps 2 0) in
  let pw := fold_left (fun p i => Nat.lxor p (bitn s (n - i) * pol ps 3 i)) (seq 1 n) (f0 * pol ps 3 0) in
  (fold_left (fun a f => Nat.lor (Nat.shiftl a 1) f) ff 0, Nat.lor (Nat.shiftl py 1) pw).
(** src/Module/Encoder/RSC_DB/Encoder_RSC_DB.cpp 128-147: next_state[in][s], out_parity[in][s]. *)
Definition db_next (std : db_std) : list (list nat) :=
  tab 4 (fun i => tab (2 ^ db_nff std) (fun s => fst (calc_state_trans std s i))).
Definition db_par (std : db_std) : list (list nat) :=
  tab 4 (fun i => tab (2 ^ db_nff std) (fun s => snd (calc_state_trans std s i))).
(** src/Module/Encoder/RSC_DB/Encoder_RSC_DB.cpp 23-28, 68-126. *)
Definition db_enc_ctor (K N : nat) : outcome unit :=
  _ <- guard (0 <? K) ;; _ <- guard (0 <? N) ;; _ <- guard (K <=? N) ;;
  _ <- guard (N =? 2 * K) ;; guard (K mod 2 =? 0).
Definition rd2 (t : list (list nat)) (r c : nat) : outcome nat := row <- rd t r ;; rd row c.
(** src/Module/Encoder/RSC_DB/Encoder_RSC_DB.cpp 223-234 (__pre_encode). *)
Definition db_pre_encode (std : db_std) (K : nat) (u : list nat) : outcome nat :=
  for_ ((K + 1) / 2) (fun t state =>
    a <- rd u (2 * t) ;; b <- rd u (2 * t + 1) ;;
    rd2 (db_next std) (a * 2 + b) state) 0.
(** src/Module/Encoder/RSC_DB/Encoder_RSC_DB.cpp 201-221 (__encode_from_state); X_N is
    [x + o]. *)
Definition db_encode_from (std : db_std) (K : nat) (u x : list nat) (o : nat) (only_parity : bool) (init : nat)
  : outcome (list nat * nat) :=
  '(x, j, state) <- for_ ((K + 1) / 2) (fun t '(x, j, state) =>
    a <- rd u (2 * t) ;; b <- rd u (2 * t + 1) ;;
    parity <- rd2 (db_par std) (a * 2 + b) state ;;
    state <- rd2 (db_next std) (a * 2 + b) state ;;
    '(x, j) <- (if only_parity then Ret (x, j) else
                x <- wr x (o + j) a ;; x <- wr x (o + (j + 1)) b ;; Ret (x, j + 2)) ;;
    x <- wr x (o + j) (bitn parity 1) ;;
    x <- wr x (o + (j + 1)) (bitn parity 0) ;;
    Ret (x, j + 2, state)) (x, 0, init) ;;
  Ret (x, state).
(** circ_states[((K/2) % (n_states-1)) - 1][s]; the index -1 is out of bounds. *)
Definition circ_read (std : db_std) (K s : nat) : outcome nat :=
  let r := (K / 2) mod (2 ^ db_nff std - 1) in
  if r =? 0 then Undef else rd2 (circ_states std) (r - 1) s.
(** src/Module/Encoder/RSC_DB/Encoder_RSC_DB.cpp 236-258 (_encode). *)
Definition db_encode (std : db_std) (buffered : bool) (K : nat) (u x : list nat) : outcome (list nat) :=
  circ <- db_pre_encode std K u ;;
  init <- circ_read std K circ ;;
  '(x, e) <- (if buffered then x <- copy u 0 K x 0 ;; db_encode_from std K u x K true init
              else db_encode_from std K u x 0 false init) ;;
  if init =? e then Ret x else Throws.
(** src/Module/Encoder/RSC_DB/Encoder_RSC_DB.cpp 283-324 (is_codeword). *)
Definition db_is_codeword (std : db_std) (buffered : bool) (K : nat) (x : list nat) : outcome bool :=
  let so t := if buffered then 2 * t else 4 * t in
  let po t := if buffered then K + 2 * t else 4 * t + 2 in
  circ <- for_ ((K + 1) / 2) (fun t s =>
     a <- rd x (so t) ;; b <- rd x (so t + 1) ;; rd2 (db_next std) (a * 2 + b) s) 0 ;;
  init <- circ_read std K circ ;;
  st <- for_ ((K + 1) / 2) (fun t st =>
     match st with
     | None => Ret None
     | Some s =>
       a <- rd x (so t) ;; b <- rd x (so t + 1) ;;
       parity <- rd2 (db_par std) (a * 2 + b) s ;;
       s <- rd2 (db_next std) (a * 2 + b) s ;;
       y <- rd x (po t) ;;
       if negb (y =? bitn parity 1) then Ret None else
       w <- rd x (po t + 1) ;;
       if negb (w =? bitn parity 0) then Ret None else Ret (Some s)
     end) (Some init) ;;
  Ret (match st with Some s => init =? s | None => false end).
(** src/Module/Encoder/RSC_DB/Encoder_RSC_DB.cpp 150-154: info_bits_pos. *)
Definition db_info_pos (buffered : bool) (K : nat) : list nat :=
  tab K (fun k => if buffered then k else 2 * (k - k mod 2) + k mod 2).

(** src/Module/Encoder/RSC_DB/Encoder_RSC_DB.cpp 260-281 (get_trellis): next_state,
    rev_state, out_par_y, out_par_w. *)
Definition db_trellis (std : db_std) : outcome (list (list Z)) :=
  let n := 2 ^ db_nff std in
  for_ n (fun s t => for_ 4 (fun symb t =>
    let (s', par) := calc_state_trans std s symb in
    t <- wr2 t 0 (s * 4 + symb) (Z.of_nat s') ;;
    t <- wr2 t 1 (s' * 4 + symb) (Z.of_nat s) ;;
    t <- wr2 t 2 (s * 4 + symb) (- (Z.of_nat (bitn par 1) * 2) + 1)%Z ;;
    wr2 t 3 (s * 4 + symb) (- (Z.of_nat (bitn par 0) * 2) + 1)%Z) t)
  (repeat (repeat 0%Z (n * 4)) 4).

(* ------------------------------------------------------------------ *)
(** * Double-binary turbo *)

(** std::swap(l[i], l[j]) *)
Definition swap_at (l : list nat) (i j : nat) : outcome (list nat) :=
  a <- rd l i ;; b <- rd l j ;; l <- wr l i b ;; wr l j a.
(** src/Module/Encoder/Turbo_DB/Encoder_turbo_DB.cpp 105-113 and 162-171: swap one couple
    out of two and interleave the couples; [lut_inv] is the inverse table of the core. *)
Definition tdb_interleave (K : nat) (lut_inv cpy ui : list nat) : outcome (list nat * list nat) :=
  cpy <- for_ ((K + 3) / 4) (fun t c => swap_at c (4 * t) (4 * t + 1)) cpy ;;
  ui <- for_ ((K + 1) / 2) (fun t o =>
    l <- rd lut_inv t ;;
    a <- rd cpy (l * 2 + 0) ;; o <- wr o (2 * t + 0) a ;;
    a <- rd cpy (l * 2 + 1) ;; wr o (2 * t + 1) a) ui ;;
  Ret (cpy, ui).
(** src/Module/Encoder/Turbo_DB/Encoder_turbo_DB.cpp 97-140 (_encode), both constituent
    encoders buffered (checked by the constructor). *)
Definition tdb_encode (std_n std_i : db_std) (K : nat) (lut_inv cpy ui tmp par_n par_i u x : list nat)
  : outcome (list nat) :=
  cpy <- copy u 0 K cpy 0 ;;
  '(_, ui) <- tdb_interleave K lut_inv cpy ui ;;
  let sub std u tmp :=
    if 2 * K <=? length tmp then
      y <- db_encode std true K u (firstn (2 * K) tmp) ;; Ret (y ++ skipn (2 * K) tmp)
    else Undef in
  tmp <- sub std_n u tmp ;;
  par_n <- copy tmp K K par_n 0 ;;
  tmp <- sub std_i ui tmp ;;
  par_i <- copy tmp K K par_i 0 ;;
  x <- copy u 0 K x 0 ;;
  '(x, j) <- for_ ((K + 1) / 2) (fun t '(x, j) =>
     a <- rd par_n (2 * t) ;; x <- wr x j a ;;
     a <- rd par_i (2 * t) ;; x <- wr x (j + 1) a ;; Ret (x, j + 2)) (x, K) ;;
  '(x, j) <- for_ (K / 2) (fun t '(x, j) =>
     a <- rd par_n (2 * t + 1) ;; x <- wr x j a ;;
     a <- rd par_i (2 * t + 1) ;; x <- wr x (j + 1) a ;; Ret (x, j + 2)) (x, j) ;;
  Ret x.
(** src/Module/Encoder/Turbo_DB/Encoder_turbo_DB.cpp 142-181 (is_codeword). *)
Definition tdb_is_codeword (std_n std_i : db_std) (K : nat) (lut_inv ui tmp x : list nat) : outcome bool :=
  tmp <- copy x 0 K tmp 0 ;;
  tmp <- for_ ((K + 1) / 2) (fun t tmp =>
     a <- rd x (1 * K + 2 * t + 0) ;; tmp <- wr tmp (K + (2 * t + 0)) a ;;
     a <- rd x (2 * K + 2 * t + 0) ;; wr tmp (K + (2 * t + 1)) a) tmp ;;
  b <- (if 2 * K <=? length tmp then db_is_codeword std_n true K (firstn (2 * K) tmp) else Undef) ;;
  if negb b then Ret false else
  '(tmp, ui) <- tdb_interleave K lut_inv tmp ui ;;
  tmp <- copy ui 0 K tmp 0 ;;
  tmp <- for_ ((K + 1) / 2) (fun t tmp =>
     a <- rd x (1 * K + 2 * t + 1) ;; tmp <- wr tmp (K + (2 * t + 0)) a ;;
     a <- rd x (2 * K + 2 * t + 1) ;; wr tmp (K + (2 * t + 1)) a) tmp ;;
  if 2 * K <=? length tmp then db_is_codeword std_i true K (firstn (2 * K) tmp) else Undef.
