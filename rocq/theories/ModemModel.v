(** The constellations and the modems: include/Tools/Constellation/Constellation.hxx, PAM/Constellation_PAM.hxx,
    QAM/Constellation_QAM.hxx, include/Module/Modem/Modem.hxx, Generic/Modem_generic.hxx, Generic/Modem_generic_fast.hxx,
    src/Module/Modem/BPSK/Modem_BPSK.cpp, src/Module/Modem/OOK/Modem_OOK.cpp, Modem_OOK_BEC.cpp, Modem_OOK_BSC.cpp,
    Modem_OOK_AWGN.cpp.

    The numbers of the types R and Q are those of an arithmetic [arith]; the file gives the rationals with a rounding after
    every operation ([QA]); ModemReal.v gives the real numbers.
    Simplifications: the numbers of an arithmetic are finite (NaN and infinities only appear where said below); the channel
    parameter, a float in the code, is a number of the same arithmetic; a division by zero, an overflow or an underflow is
    that of the arithmetic; bits are booleans; a frame is a list and the buffers of the tasks are given with their content;
    sizes are natural numbers without overflow, except the size of the modulated frame, which the code computes with floats. *)
From Coq Require Import List Arith Bool ZArith QArith Qround Qreduction.
From Verif Require Import Base FloatQ Copy.
Import ListNotations.
Local Open Scope nat_scope.

Record arith := mkA {
  num : Type;
  ofZ : Z -> num;                      (* conversion of an integer constant *)
  add : num -> num -> num;
  sub : num -> num -> num;
  mul : num -> num -> num;
  dvd : num -> num -> num;
  opp : num -> num;
  neq : num -> num -> bool             (* a != b *)
}.
(** Rationals, rounded by rnd after each operation, in lowest terms. *)
Definition QA (rnd : Q -> Q) : arith :=
  mkA Q inject_Z (fun x y => Qred (rnd (x + y)%Q)) (fun x y => Qred (rnd (x - y)%Q)) (fun x y => Qred (rnd (x * y)%Q))
    (fun x y => Qred (rnd (x / y)%Q)) (fun x => Qred (- x)%Q) (fun x y => negb (Qeq_bool x y)).

Section WithArith.
Variable A : arith.
Notation T := (num A).
Notation C := (num A * num A)%type.                 (* std::complex: real part, imaginary part *)
Notation zero := (ofZ A 0%Z).
Notation one := (ofZ A 1%Z).
Notation two := (ofZ A 2%Z).

(** Complex difference, product and std::norm (the squared modulus). *)
Definition csub (x y : C) : C := (sub A (fst x) (fst y), sub A (snd x) (snd y)).
Definition cmul (x y : C) : C :=
  (sub A (mul A (fst x) (fst y)) (mul A (snd x) (snd y)), add A (mul A (fst x) (snd y)) (mul A (snd x) (fst y))).
Definition cnorm (x : C) : T := add A (mul A (fst x) (fst x)) (mul A (snd x) (snd x)).

(* ------------------------------------------------------------------ *)
(** * Constellations *)

(** Constellation.hpp 98-105: the number of bits per symbol, the symbols and is_complex(). *)
Record cstl := mkC { c_bps : nat; c_sym : list C; c_cplx : bool }.
Definition n_symbs (c : cstl) : nat := 2 ^ c_bps c.

(** Constellation(std::vector<S>&& symbols, ...), Constellation.hxx 28-45.  std::log2 of the size, truncated, is Nat.log2; of
    zero it is minus infinity, which an unsigned int does not hold. *)
Definition make_cstl (symbols : list C) : outcome cstl :=
  if length symbols =? 0 then Undef
  else let c := mkC (Nat.log2 (length symbols)) symbols true in
       _ <- guard (length symbols =? n_symbs c) ;; Ret c.

(** has_complex_symbols, Constellation.hxx 16-26. *)
Definition has_complex (l : list C) : bool := existsb (fun s => neq A (snd s) zero) l.

(** build, Constellation.hxx 125-147, with the bits_to_symbol of the derived class. *)
Definition build (b2s : list bool -> outcome C) (c : cstl) : outcome cstl :=
  sy <- for_ (n_symbs c) (fun j sy => s <- b2s (tab (c_bps c) (fun l => Nat.testbit j l)) ;; wr sy j s) (c_sym c) ;;
  Ret (mkC (c_bps c) sy (has_complex sy)).

(** The number 1 - (b + b) of a bit. *)
Definition pm (b : bool) : T := let r := if b then one else zero in sub A one (add A r r).

(** The loop of the three bits_to_symbol on n bits from position o: Constellation_PAM.hxx 26-28, Constellation_QAM.hxx
    28-35, Constellation_PSK.hxx 29-31. *)
Definition amplitude (bits : list bool) (o n : nat) : outcome T :=
  b0 <- rd bits o ;;
  for_from 1 (n - 1) (fun j s => b <- rd bits (o + j) ;; Ret (mul A (pm b) (sub A (ofZ A (2 ^ Z.of_nat j)) s))) (pm b0).

(** Constellation_PAM, Constellation_PAM.hxx 15-31, for a value sqrt_es of its attribute. *)
Definition pam (sqrt_es : T) (n_bps : nat) : outcome cstl :=
  c <- make_cstl (repeat (zero, zero) (2 ^ n_bps)) ;;
  build (fun bits => s <- amplitude bits 0 n_bps ;; Ret (dvd A s sqrt_es, zero)) c.

(** Constellation_QAM, Constellation_QAM.hxx 14-38.  The complex division by the real sqrt_es divides the two parts. *)
Definition qam (sqrt_es : T) (n_bps : nat) : outcome cstl :=
  c <- make_cstl (repeat (zero, zero) (2 ^ n_bps)) ;;
  build (fun bits =>
    i <- amplitude bits 0 (n_bps / 2) ;;
    q <- amplitude bits (n_bps / 2) (n_bps / 2) ;;
    Ret (dvd A i sqrt_es, dvd A q sqrt_es)) c.

(** Constellation_user, Constellation_user.hxx 15-66, from the numbers of the lines of the file: the mean of the squared
    moduli is given by its root sqrt_es; build() is not called. *)
Definition user_cstl (sqrt_es : T) (symbols : list C) : outcome cstl :=
  make_cstl (map (fun s => (dvd A (fst s) sqrt_es, dvd A (snd s) sqrt_es)) symbols).

(* ------------------------------------------------------------------ *)
(** * The generic modem *)

(** Modem_generic.hpp 22-27 and Modem.hpp: N, N_mod = N_fil, the constellation, disable_sig2, inv_sigma2 and
    last_channel_param (None: the initial value, the largest float, taken different from every channel parameter);
    m_types tells whether R = Q and Q is float or double. *)
Record modem := mkM {
  m_N : nat; m_Nmod : nat; m_c : cstl; m_dis : bool; m_types : bool; m_inv : T; m_last : option T }.
Definition set_inv (m : modem) (x : T) : modem := mkM (m_N m) (m_Nmod m) (m_c m) (m_dis m) (m_types m) x (m_last m).
Definition set_last (m : modem) (x : T) : modem := mkM (m_N m) (m_Nmod m) (m_c m) (m_dis m) (m_types m) (m_inv m) (Some x).

(** (int)(std::ceil((float)N / (float)bps) * (complex ? 2 : 1)), Modem_generic.hxx 24-25. *)
Definition n_mod (N bps : nat) (cplx : bool) : nat :=
  Z.to_nat (Qceiling (fl 24 (fl 24 (inject_Z (Z.of_nat N)) / fl 24 (inject_Z (Z.of_nat bps)))) * (if cplx then 2 else 1)).

(** Modem_generic, Modem_generic.hxx 21-34, and Modem(N, N_mod), Modem.hxx 107-136.  Without bits in a symbol the division
    gives an infinity, which an int does not hold. *)
Definition make_modem (N : nat) (c : cstl) (dis types : bool) : outcome modem :=
  if c_bps c =? 0 then Undef
  else let Nmod := n_mod N (c_bps c) (c_cplx c) in
       _ <- guard (0 <? N) ;; _ <- guard (0 <? Nmod) ;; Ret (mkM N Nmod c dis types one None).

(** The index of a symbol from cnt bits at position o, Modem_generic.hxx 161-163, 174-176, 419-421, 431-433. *)
Definition index (X : list bool) (o cnt : nat) : outcome nat :=
  for_ cnt (fun j idx => x <- rd X (o + j) ;; Ret (idx + (if x : bool then 2 ^ j else 0))) 0.

(** _modulate_complex, Modem_generic.hxx 152-182. *)
Definition modulate_complex (m : modem) (X : list bool) (X2 : list T) : outcome (list T) :=
  let bps := c_bps (m_c m) in
  let ls := m_N m / bps in
  X2 <- for_ ls (fun i X2 =>
    idx <- index X (i * bps) bps ;; s <- rd (c_sym (m_c m)) idx ;;
    X2 <- wr X2 (2 * i) (fst s) ;; wr X2 (2 * i + 1) (snd s)) X2 ;;
  if ls * bps <? m_N m then
    idx <- index X (ls * bps) (m_N m - ls * bps) ;; s <- rd (c_sym (m_c m)) idx ;;
    X2 <- wr X2 (m_Nmod m - 2) (fst s) ;; wr X2 (m_Nmod m - 1) (snd s)
  else Ret X2.

(** _modulate_real, Modem_generic.hxx 408-438. *)
Definition modulate_real (m : modem) (X : list bool) (X2 : list T) : outcome (list T) :=
  let bps := c_bps (m_c m) in
  let ls := m_N m / bps in
  X2 <- for_ ls (fun i X2 =>
    idx <- index X (i * bps) bps ;; s <- rd (c_sym (m_c m)) idx ;; wr X2 i (fst s)) X2 ;;
  if ls * bps <? m_N m then
    idx <- index X (ls * bps) (m_N m - ls * bps) ;; s <- rd (c_sym (m_c m)) idx ;; wr X2 (m_Nmod m - 1) (fst s)
  else Ret X2.

(** _modulate, Modem_generic.hxx 73-80. *)
Definition modulate (m : modem) (X : list bool) (X2 : list T) : outcome (list T) :=
  if c_cplx (m_c m) then modulate_complex m X X2 else modulate_real m X X2.

(** The maximum [MAX] of the template where minus infinity is None.  MAX of two minus infinities is minus infinity for
    tools::max and not a number for tools::max_star: undefined here. *)
Definition vmax (MAX : T -> T -> T) (a : option T) (b : option T) : outcome (option T) :=
  match a, b with
  | Some x, Some y => Ret (Some (MAX x y))
  | Some x, None => Ret (Some x)
  | None, Some y => Ret (Some y)
  | None, None => Undef
  end.

(** The loop on the symbols and the difference, for bit b of a symbol and the metric of each symbol (None: minus infinity):
    Modem_generic.hxx 199-213, 233-248, 275-297 and so on.  A difference that is not finite is undefined here. *)
Definition llr (MAX : T -> T -> T) (nsymb b : nat) (metric : nat -> outcome (option T)) : outcome T :=
  ' (L0, L1) <- for_ nsymb (fun j '(L0, L1) =>
    v <- metric j ;;
    if Nat.testbit j b then L1 <- vmax MAX L1 v ;; Ret (L0, L1)
    else L0 <- vmax MAX L0 v ;; Ret (L0, L1)) (None, None) ;;
  match L0, L1 with Some x, Some y => Ret (sub A x y) | _, _ => Undef end.

(** The loop on the LLRs with bit b and symbol k of each: Modem_generic.hxx 195-201 and so on. *)
Definition llrs (MAX : T -> T -> T) (m : modem) (metric : nat -> nat -> nat -> outcome (option T)) (Y2 : list T)
  : outcome (list T) :=
  let bps := c_bps (m_c m) in
  for_ (m_N m) (fun n Y2 =>
    let b := n mod bps in
    let k := n / bps in
    v <- llr MAX (n_symbs (m_c m)) b (metric b k) ;; wr Y2 n v) Y2.

(** The element k of an array of complex numbers stored as pairs. *)
Definition rdc (Y : list T) (k : nat) : outcome C := a <- rd Y (2 * k) ;; b <- rd Y (2 * k + 1) ;; Ret (a, b).

(** What the symbol j is expected to be at the receiver: the symbol itself or the symbol times the gain of its position. *)
Definition expect_c (m : modem) (H : option (list T)) (k j : nat) : outcome C :=
  s <- rd (c_sym (m_c m)) j ;;
  match H with None => Ret s | Some H => h <- rdc H k ;; Ret (cmul h s) end.
Definition expect_r (m : modem) (H : option (list T)) (k j : nat) : outcome T :=
  s <- rd (c_sym (m_c m)) j ;;
  match H with None => Ret (fst s) | Some H => h <- rd H k ;; Ret (mul A h (fst s)) end.

(** _demodulate_complex and _demodulate_wg_complex, Modem_generic.hxx 184-250; the gains H are those of the second. *)
Definition demodulate_complex (MAX : T -> T -> T) (m : modem) (H : option (list T)) (Y Y2 : list T) : outcome (list T) :=
  _ <- guard (m_types m) ;;
  llrs MAX m (fun b k j => y <- rdc Y k ;; e <- expect_c m H k j ;;
    Ret (Some (mul A (opp A (cnorm (csub y e))) (m_inv m)))) Y2.

(** _demodulate_real and _demodulate_wg_real, Modem_generic.hxx 440-500. *)
Definition demodulate_real (MAX : T -> T -> T) (m : modem) (H : option (list T)) (Y Y2 : list T) : outcome (list T) :=
  _ <- guard (m_types m) ;;
  llrs MAX m (fun b k j => y <- rd Y k ;; e <- expect_r m H k j ;;
    let d := sub A y e in Ret (Some (mul A (mul A (opp A d) d) (m_inv m)))) Y2.

(** The a priori part of tempL, Modem_generic.hxx 280-291: the bits of the symbol other than b; a position after the frame
    adds plus infinity (None here), to which nothing finite is added afterwards.  The test of NaN, line 292, is for infinite
    inputs, which are not modelled. *)
Definition a_priori (m : modem) (Ya : list T) (b k j : nat) (t : T) : outcome (option T) :=
  let bps := c_bps (m_c m) in
  for_ bps (fun l t =>
    if l =? b then Ret t
    else if Nat.testbit j l then
      if k * bps + l <? m_N m
      then x <- rd Ya (k * bps + l) ;; Ret (match t with Some t => Some (add A t x) | None => None end)
      else Ret None
    else Ret t) (Some t).
Definition minus (t : option T) : option T := match t with Some t => Some (opp A t) | None => None end.

(** _tdemodulate_complex and _tdemodulate_wg_complex, Modem_generic.hxx 253-356. *)
Definition tdemodulate_complex (MAX : T -> T -> T) (m : modem) (H : option (list T)) (Y Ya Y3 : list T) : outcome (list T) :=
  _ <- guard (m_types m) ;;
  llrs MAX m (fun b k j => y <- rdc Y k ;; e <- expect_c m H k j ;;
    t <- a_priori m Ya b k j (mul A (cnorm (csub y e)) (m_inv m)) ;; Ret (minus t)) Y3.

(** _tdemodulate_real and _tdemodulate_wg_real, Modem_generic.hxx 502-599. *)
Definition tdemodulate_real (MAX : T -> T -> T) (m : modem) (H : option (list T)) (Y Ya Y3 : list T) : outcome (list T) :=
  _ <- guard (m_types m) ;;
  llrs MAX m (fun b k j => y <- rd Y k ;; e <- expect_r m H k j ;;
    let d := sub A y e in
    t <- a_priori m Ya b k j (mul A (mul A d d) (m_inv m)) ;; Ret (minus t)) Y3.

(** *CP != last_channel_param *)
Definition cp_new (CP : T) (last : option T) : bool := match last with None => true | Some l => neq A CP l end.
(** Modem_generic.hxx 103-104, 116-117, 129-130, 142-143. *)
Definition set_cp (m : modem) (CP : T) : modem :=
  if cp_new CP (m_last m) && negb (m_dis m) then set_inv m (dvd A one (mul A (mul A two CP) CP)) else m.

(** The codelets of Modem.hxx 173-286 with the functions _demodulate, _demodulate_wg, _tdemodulate and _tdemodulate_wg of
    Modem_generic.hxx 99-149; the gains H are those of the wg tasks.  They end by recording the channel parameter. *)
Definition demodulate (MAX : T -> T -> T) (m : modem) (CP : T) (H : option (list T)) (Y Y2 : list T)
  : outcome (modem * list T) :=
  let m := set_cp m CP in
  Y2 <- (if c_cplx (m_c m) then demodulate_complex MAX m H Y Y2 else demodulate_real MAX m H Y Y2) ;;
  Ret (set_last m CP, Y2).
Definition tdemodulate (MAX : T -> T -> T) (m : modem) (CP : T) (H : option (list T)) (Y Ya Y3 : list T)
  : outcome (modem * list T) :=
  let m := set_cp m CP in
  Y3 <- (if c_cplx (m_c m) then tdemodulate_complex MAX m H Y Ya Y3 else tdemodulate_real MAX m H Y Ya Y3) ;;
  Ret (set_last m CP, Y3).
(** The codelet of filter, Modem.hxx 201-217, and _filter, Modem_generic.hxx 92-97 (N_fil = N_mod). *)
Definition filter_ (m : modem) (CP : T) (Y Y2 : list T) : outcome (modem * list T) :=
  Y2 <- copy Y 0 (m_Nmod m) Y2 0 ;; Ret (set_last m CP, Y2).

(** Calls of the tasks of a modem, with their buffers. *)
Inductive call :=
| Modulate (X : list bool) (X2 : list T)
| Filter (CP : T) (Y Y2 : list T)
| Demodulate (CP : T) (H : option (list T)) (Y Y2 : list T)
| Tdemodulate (CP : T) (H : option (list T)) (Y Ya Y3 : list T).
Definition exec (MAX : T -> T -> T) (m : modem) (c : call) : outcome (modem * list T) :=
  match c with
  | Modulate X X2 => X2 <- modulate m X X2 ;; Ret (m, X2)
  | Filter CP Y Y2 => filter_ m CP Y Y2
  | Demodulate CP H Y Y2 => demodulate MAX m CP H Y Y2
  | Tdemodulate CP H Y Ya Y3 => tdemodulate MAX m CP H Y Ya Y3
  end.
Fixpoint history (MAX : T -> T -> T) (m : modem) (cs : list call) : outcome modem :=
  match cs with [] => Ret m | c :: cs => ' (m, _) <- exec MAX m c ;; history MAX m cs end.

(* ------------------------------------------------------------------ *)
(** * The soft modulation *)

(** The probability p of symbol idx from cnt LLRs at position o, Modem_generic.hxx 374-379, 396-401, 617-622, 637-642, with
    std::exp given. *)
Definition p_symbol (ex : T -> T) (X : list T) (o cnt idx : nat) : outcome T :=
  for_ cnt (fun j p =>
    x <- rd X (o + j) ;;
    let p0 := dvd A one (add A one (ex (opp A x))) in
    Ret (mul A p (if Nat.testbit idx j then sub A one p0 else p0))) one.

(** _tmodulate_complex, Modem_generic.hxx 358-405. *)
Definition tmodulate_complex (ex : T -> T) (m : modem) (X X2 : list T) : outcome (list T) :=
  let bps := c_bps (m_c m) in
  let ls := m_N m / bps in
  let soft o cnt p0 p1 X2 :=
    X2 <- wr X2 p0 zero ;; X2 <- wr X2 p1 zero ;;
    for_ (2 ^ cnt) (fun idx X2 =>
      s <- rd (c_sym (m_c m)) idx ;; p <- p_symbol ex X o cnt idx ;;
      a <- rd X2 p0 ;; X2 <- wr X2 p0 (add A a (mul A p (fst s))) ;;
      b <- rd X2 p1 ;; wr X2 p1 (add A b (mul A p (snd s)))) X2 in
  X2 <- for_ ls (fun i X2 => soft (i * bps) bps (2 * i) (2 * i + 1) X2) X2 ;;
  if ls * bps <? m_N m then soft (ls * bps) (m_N m - ls * bps) (m_Nmod m - 2) (m_Nmod m - 1) X2
  else Ret X2.

(** _tmodulate_real, Modem_generic.hxx 601-644. *)
Definition tmodulate_real (ex : T -> T) (m : modem) (X X2 : list T) : outcome (list T) :=
  let bps := c_bps (m_c m) in
  let ls := m_N m / bps in
  let soft o cnt p0 X2 :=
    X2 <- wr X2 p0 zero ;;
    for_ (2 ^ cnt) (fun idx X2 =>
      s <- rd (c_sym (m_c m)) idx ;; p <- p_symbol ex X o cnt idx ;;
      a <- rd X2 p0 ;; wr X2 p0 (add A a (mul A p (fst s)))) X2 in
  X2 <- for_ ls (fun i X2 => soft (i * bps) bps i X2) X2 ;;
  if ls * bps <? m_N m then soft (ls * bps) (m_N m - ls * bps) (m_Nmod m - 1) X2
  else Ret X2.

(** _tmodulate, Modem_generic.hxx 82-90. *)
Definition tmodulate (ex : T -> T) (m : modem) (X X2 : list T) : outcome (list T) :=
  if c_cplx (m_c m) then tmodulate_complex ex m X X2 else tmodulate_real ex m X X2.

(* ------------------------------------------------------------------ *)
(** * The vectorised generic modem *)

(** The kernels kernel_demodulate_complex_SIMD, _wg_complex_SIMD, _real_SIMD and _wg_real_SIMD, Modem_generic_fast.hxx 60-122,
    215-288, 386-444, 534-596, on registers of W numbers: [ld k] loads the received value (and the gain) of symbol k, [res]
    is the metric.  The lanes of a register do the same operations: the loop on the symbols is done lane after lane, and the
    store writes the W results. *)
Definition kernel {V} (MAX : T -> T -> T) (W : nat) (m : modem) (ld : nat -> outcome V) (res : V -> C -> T) (Y2 : list T)
  : outcome (list T) :=
  let bps := c_bps (m_c m) in
  for_ (m_N m / W) (fun t Y2 =>
    let n := t * W in
    vs <- for_ W (fun i vs => v <- ld ((n + i) / bps) ;; Ret (vs ++ [v])) [] ;;
    for_ W (fun i Y2 =>
      v <- rd vs i ;;
      r <- llr MAX (n_symbs (m_c m)) ((n + i) mod bps) (fun j => s <- rd (c_sym (m_c m)) j ;; Ret (Some (res v s))) ;;
      wr Y2 (n + i) r) Y2) Y2.

(** The scalar loop on the LLRs that remain, Modem_generic_fast.hxx 194-211, 362-382, 515-530, 671-687. *)
Definition llrs_from (MAX : T -> T -> T) (lo : nat) (m : modem) (metric : nat -> nat -> nat -> outcome (option T)) (Y2 : list T)
  : outcome (list T) :=
  let bps := c_bps (m_c m) in
  for_from lo (m_N m - lo) (fun n Y2 =>
    let b := n mod bps in
    let k := n / bps in
    v <- llr MAX (n_symbs (m_c m)) b (metric b k) ;; wr Y2 n v) Y2.

(** _demodulate_complex and _demodulate_wg_complex of Modem_generic_fast, Modem_generic_fast.hxx 176-212, 343-383. *)
Definition fast_complex (MAX : T -> T -> T) (W : nat) (m : modem) (H : option (list T)) (Y Y2 : list T) : outcome (list T) :=
  _ <- guard (m_types m) ;;
  Y2 <- match H with
        | None => kernel MAX W m (rdc Y) (fun y s => mul A (sub A zero (cnorm (csub y s))) (m_inv m)) Y2
        | Some H => kernel MAX W m (fun k => y <- rdc Y k ;; h <- rdc H k ;; Ret (y, h))
                      (fun '(y, h) s => mul A (sub A zero (cnorm (csub y (cmul h s)))) (m_inv m)) Y2
        end ;;
  llrs_from MAX (m_N m / W * W) m (fun b k j => y <- rdc Y k ;; e <- expect_c m H k j ;;
    Ret (Some (mul A (opp A (cnorm (csub y e))) (m_inv m)))) Y2.

(** _demodulate_real and _demodulate_wg_real of Modem_generic_fast, Modem_generic_fast.hxx 497-531, 652-688: the kernels load
    the elements 2k of the buffers. *)
Definition fast_real (MAX : T -> T -> T) (W : nat) (m : modem) (H : option (list T)) (Y Y2 : list T) : outcome (list T) :=
  _ <- guard (m_types m) ;;
  Y2 <- match H with
        | None => kernel MAX W m (fun k => rd Y (2 * k))
                    (fun y s => let d := sub A y (fst s) in sub A zero (mul A (mul A d d) (m_inv m))) Y2
        | Some H => kernel MAX W m (fun k => y <- rd Y (2 * k) ;; h <- rd H (2 * k) ;; Ret (y, h))
                      (fun '(y, h) s => let d := sub A y (mul A h (fst s)) in sub A zero (mul A (mul A d d) (m_inv m))) Y2
        end ;;
  llrs_from MAX (m_N m / W * W) m (fun b k j => y <- rd Y k ;; e <- expect_r m H k j ;;
    let d := sub A y e in Ret (Some (mul A (mul A (opp A d) d) (m_inv m)))) Y2.

(** The demodulation of Modem_generic_fast: _demodulate and _demodulate_wg are inherited. *)
Definition fast_demodulate (MAX : T -> T -> T) (W : nat) (m : modem) (CP : T) (H : option (list T)) (Y Y2 : list T)
  : outcome (modem * list T) :=
  let m := set_cp m CP in
  Y2 <- (if c_cplx (m_c m) then fast_complex MAX W m H Y Y2 else fast_real MAX W m H Y Y2) ;;
  Ret (set_last m CP, Y2).

(* ------------------------------------------------------------------ *)
(** * BPSK *)

(** Modem_BPSK.hpp: N (= N_mod = N_fil), disable_sig2, two_on_square_sigma, last_channel_param; Modem_BPSK.cpp 12-24. *)
Record bpsk := mkB { b_N : nat; b_dis : bool; b_types : bool; b_fac : T; b_last : option T }.
Definition make_bpsk (N : nat) (dis types : bool) : outcome bpsk :=
  _ <- guard (0 <? N) ;; Ret (mkB N dis types one None).

(** _modulate, Modem_BPSK.cpp 36-42. *)
Definition bpsk_modulate (m : bpsk) (X : list bool) (X2 : list T) : outcome (list T) :=
  for_ (b_N m) (fun i X2 => x <- rd X i ;; wr X2 i (ofZ A (1 - ((if x : bool then 1 else 0) + (if x then 1 else 0))))) X2.

Definition bpsk_cp (m : bpsk) (CP : T) : bpsk :=
  if cp_new CP (b_last m) then mkB (b_N m) (b_dis m) (b_types m) (dvd A two (mul A CP CP)) (b_last m) else m.
Definition bpsk_last (m : bpsk) (CP : T) : bpsk := mkB (b_N m) (b_dis m) (b_types m) (b_fac m) (Some CP).

(** _demodulate, Modem_BPSK.cpp 51-73, with its codelet. *)
Definition bpsk_demodulate (m : bpsk) (CP : T) (Y Y2 : list T) : outcome (bpsk * list T) :=
  ' (m, Y2) <-
    (if b_dis m then Y2 <- copy Y 0 (b_N m) Y2 0 ;; Ret (m, Y2)
     else
       _ <- guard (b_types m) ;;
       let m := bpsk_cp m CP in
       Y2 <- for_ (b_N m) (fun i Y2 => y <- rd Y i ;; wr Y2 i (mul A y (b_fac m))) Y2 ;; Ret (m, Y2)) ;;
  Ret (bpsk_last m CP, Y2).

(** _demodulate_wg, Modem_BPSK.cpp 75-101, with its codelet. *)
Definition bpsk_demodulate_wg (m : bpsk) (CP : T) (H Y Y2 : list T) : outcome (bpsk * list T) :=
  _ <- guard (b_types m) ;;
  ' (m, Y2) <-
    (if b_dis m then
       Y2 <- for_ (b_N m) (fun i Y2 => y <- rd Y i ;; h <- rd H i ;; wr Y2 i (mul A y h)) Y2 ;; Ret (m, Y2)
     else
       let m := bpsk_cp m CP in
       Y2 <- for_ (b_N m) (fun i Y2 => y <- rd Y i ;; h <- rd H i ;; wr Y2 i (mul A (mul A y (b_fac m)) h)) Y2 ;;
       Ret (m, Y2)) ;;
  Ret (bpsk_last m CP, Y2).

(** The codelet of filter, Modem.hxx 201-217, with the _filter of Modem_BPSK.cpp 44-49: a copy. *)
Definition bpsk_filter (m : bpsk) (CP : T) (Y Y2 : list T) : outcome (bpsk * list T) :=
  Y2 <- copy Y 0 (b_N m) Y2 0 ;; Ret (bpsk_last m CP, Y2).

(** Calls of the tasks of a BPSK modem that use the channel parameter. *)
Inductive bcall :=
| BDemodulate (CP : T) (Y Y2 : list T)
| BDemodulate_wg (CP : T) (H Y Y2 : list T)
| BFilter (CP : T) (Y Y2 : list T).
Definition bexec (m : bpsk) (c : bcall) : outcome (bpsk * list T) :=
  match c with
  | BDemodulate CP Y Y2 => bpsk_demodulate m CP Y Y2
  | BDemodulate_wg CP H Y Y2 => bpsk_demodulate_wg m CP H Y Y2
  | BFilter CP Y Y2 => bpsk_filter m CP Y Y2
  end.
Fixpoint bhistory (m : bpsk) (cs : list bcall) : outcome bpsk :=
  match cs with [] => Ret m | c :: cs => ' (m, _) <- bexec m c ;; bhistory m cs end.

(* ------------------------------------------------------------------ *)
(** * On-off keying *)

(** _modulate, Modem_OOK.cpp 28-34 (the vectorised version, lines 36-66, computes the same). *)
Definition ook_modulate (N : nat) (X : list bool) (X2 : list T) : outcome (list T) :=
  for_ N (fun i X2 => x <- rd X i ;; wr X2 i (if x : bool then one else zero)) X2.

(** Modem_OOK_BEC::_demodulate, Modem_OOK_BEC.cpp 32-46; [unk] is the value of an erased symbol and [eps] the LLR of one. *)
Definition bec_demodulate (unk eps : T) (N : nat) (Y Y2 : list T) : outcome (list T) :=
  ' (Y2, _) <- for_ N (fun i '(Y2, sign) =>
    y <- rd Y i ;;
    if negb (neq A y unk) then Y2 <- wr Y2 i sign ;; Ret (Y2, mul A sign (ofZ A (-1)))
    else Y2 <- wr Y2 i (sub A one (mul A two y)) ;; Ret (Y2, sign)) (Y2, eps) ;;
  Ret Y2.

(** Modem_OOK_BSC::_demodulate, Modem_OOK_BSC.cpp 29-46, with its codelet: [lg p] is log(p / (1 - p)) and [tiny] is 1e-10; the
    state is log_pe_1_pe and last_channel_param. *)
Definition bsc_demodulate (lg : T -> T) (tiny : T) (st : T * option T) (N : nat) (CP : T) (Y Y2 : list T)
  : outcome ((T * option T) * list T) :=
  let l := if cp_new CP (snd st) then lg (if neq A CP zero then CP else tiny) else fst st in
  Y2 <- for_ N (fun i Y2 => y <- rd Y i ;; wr Y2 i (sub A (mul A (mul A two l) y) l)) Y2 ;;
  Ret ((l, Some CP), Y2).

(** Modem_OOK_AWGN::_demodulate, Modem_OOK_AWGN.cpp 30-50, with its codelet; the state is sigma_factor and
    last_channel_param; [half] is 0.5. *)
Definition awgn_demodulate (half : T) (st : T * option T) (dis types : bool) (N : nat) (CP : T) (Y Y2 : list T)
  : outcome ((T * option T) * list T) :=
  if dis then
    Y2 <- for_ N (fun i Y2 => y <- rd Y i ;; wr Y2 i (sub A half y)) Y2 ;; Ret ((fst st, Some CP), Y2)
  else
    _ <- guard types ;;
    let f := if cp_new CP (snd st) then mul A (mul A two CP) CP else fst st in
    Y2 <- for_ N (fun i Y2 => y <- rd Y i ;; wr Y2 i (mul A (opp A (sub A (mul A two y) one)) f)) Y2 ;;
    Ret ((f, Some CP), Y2).

End WithArith.

(** tools::max, max.hxx 14-18, on rationals. *)
Definition max_q (x y : Q) : Q := if Qlt_le_dec x y then y else x.
