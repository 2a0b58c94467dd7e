(** Puncturers: src/Module/Puncturer.  Bits and LLRs are elements of a type [A]; sizes are
    [nat] (the code uses int and unsigned: products are assumed not to overflow). *)
From Coq Require Import List Arith ZArith Lia Bool.
From Verif Require Import Base Copy Float32.
Import ListNotations.

(** include/Module/Puncturer/Puncturer.hxx 42-75: checks of the base constructor. *)
Definition base_ctor (K N N_cw : nat) : outcome unit :=
  _ <- guard (0 <? K) ;; _ <- guard (0 <? N) ;; _ <- guard (0 <? N_cw) ;;
  _ <- guard (K <=? N) ;; guard (N <=? N_cw).

(* ------------------------------------------------------------------ *)
(** * Turbo *)

(** src/Module/Puncturer/Turbo/Puncturer_turbo.cpp 177-185. *)
Definition get_period (pattern : list (list bool)) : nat :=
  match pattern with [] => 0 | p :: _ => length p end.
(** src/Module/Puncturer/Turbo/Puncturer_turbo.cpp 187-197. *)
Definition get_bit_count (pattern : list (list bool)) : nat :=
  fold_left (fun c r => fold_left (fun c (b : bool) => c + if b then 1 else 0) r c) pattern 0.
(** src/Module/Puncturer/Turbo/Puncturer_turbo.cpp 199-231. *)
Definition check_pattern (K : nat) (pattern : list (list bool)) : outcome unit :=
  _ <- guard (length pattern =? 3) ;;
  _ <- guard ((length (nth 0 pattern []) =? length (nth 1 pattern [])) &&
              (length (nth 0 pattern []) =? length (nth 2 pattern []))) ;;
  let period := get_period pattern in
  let allone := get_bit_count pattern =? period * length pattern in
  if allone then Ret tt
  else if period =? 0 then Undef else guard (K mod period =? 0).
(** src/Module/Puncturer/Turbo/Puncturer_turbo.cpp 233-246. *)
Definition compute_N (K tail : nat) (pattern : list (list bool)) : outcome nat :=
  _ <- check_pattern K pattern ;;
  let period := get_period pattern in
  if period =? 0 then Ret 0 else Ret (K * get_bit_count pattern / period + tail).
(** src/Module/Puncturer/Turbo/Puncturer_turbo.cpp 11-38 ([tail_bits] >= 0). *)
Definition turbo_ctor (K N tail : nat) (pattern : list (list bool)) : outcome unit :=
  _ <- base_ctor K N (K * 3 + tail) ;;
  n <- compute_N K tail pattern ;; guard (N =? n).

(** pattern_bits[j][p] *)
Definition pat (pattern : list (list bool)) (j p : nat) : outcome bool :=
  row <- rd pattern j ;; rd row p.

(** src/Module/Puncturer/Turbo/Puncturer_turbo.cpp 62-69: one pass over K positions; the
    state is (X_N2, k). *)
Definition t_part {A} (pattern : list (list bool)) (K j o period : nat) (x1 : list A)
  (st : list A * nat) : outcome (list A * nat) :=
  '(st, _) <- for_ K (fun i '(st, p) =>
      b <- pat pattern j p ;;
      st' <- (if b : bool then
                v <- rd x1 (o + i) ;; x2 <- wr (fst st) (snd st) v ;; Ret (x2, S (snd st))
              else Ret st) ;;
      Ret (st', (p + 1) mod period)) (st, 0) ;;
  Ret st.
(** src/Module/Puncturer/Turbo/Puncturer_turbo.cpp 71-85: the tail bits after a pass. *)
Definition t_tail {A} (x1 : list A) (so n : nat) (st : list A * nat) : outcome (list A * nat) :=
  x2 <- copy x1 so n (fst st) (snd st) ;; Ret (x2, snd st + n).

(** src/Module/Puncturer/Turbo/Puncturer_turbo.cpp 50-102 (_puncture). *)
Definition turbo_puncture {A} (buff : bool) (K tail : nat) (pattern : list (list bool))
  (x1 x2 : list A) : outcome (list A) :=
  let period := get_period pattern in
  let N_cw := K * 3 + tail in
  if buff then
    let o0 := 0 in let o1 := K + tail / 4 in let o2 := N_cw - (K + tail / 4) in
    st <- t_part pattern K 0 o0 period x1 (x2, 0) ;;
    st <- t_tail x1 (o0 + K) (tail / 4) st ;;
    st <- t_part pattern K 1 o1 period x1 st ;;
    st <- t_tail x1 (o1 + K) (tail / 2) st ;;
    st <- t_part pattern K 2 o2 period x1 st ;;
    st <- t_tail x1 (o2 + K) (tail / 4) st ;;
    Ret (fst st)
  else
    '(st, _) <- for_ K (fun i '(st, p) =>
       st' <- for_ 3 (fun j st =>
          b <- pat pattern j p ;;
          if b : bool then
            v <- rd x1 (i * 3 + j) ;; x2 <- wr (fst st) (snd st) v ;; Ret (x2, S (snd st))
          else Ret st) st ;;
       Ret (st', (p + 1) mod period)) ((x2, 0), 0) ;;
    copy x1 (3 * K) tail (fst st) (snd st).

(** src/Module/Puncturer/Turbo/Puncturer_turbo.cpp 116-122: state (Y_N2, k). *)
Definition d_part {A} (zero : A) (pattern : list (list bool)) (K j o period : nat) (y1 : list A)
  (st : list A * nat) : outcome (list A * nat) :=
  '(st, _) <- for_ K (fun i '(st, p) =>
      b <- pat pattern j p ;;
      st' <- (if b : bool then
                v <- rd y1 (snd st) ;; y2 <- wr (fst st) (o + i) v ;; Ret (y2, S (snd st))
              else y2 <- wr (fst st) (o + i) zero ;; Ret (y2, snd st)) ;;
      Ret (st', (p + 1) mod period)) (st, 0) ;;
  Ret st.
(** src/Module/Puncturer/Turbo/Puncturer_turbo.cpp 124-138. *)
Definition d_tail {A} (y1 : list A) (d n : nat) (st : list A * nat) : outcome (list A * nat) :=
  y2 <- copy y1 (snd st) n (fst st) d ;; Ret (y2, snd st + n).
(** src/Module/Puncturer/Turbo/Puncturer_turbo.cpp 104-155 (_depuncture). *)
Definition turbo_depuncture {A} (zero : A) (buff : bool) (K tail : nat) (pattern : list (list bool))
  (y1 y2 : list A) : outcome (list A) :=
  let period := get_period pattern in
  let N_cw := K * 3 + tail in
  if buff then
    let o0 := 0 in let o1 := K + tail / 4 in let o2 := N_cw - (K + tail / 4) in
    st <- d_part zero pattern K 0 o0 period y1 (y2, 0) ;;
    st <- d_tail y1 (o0 + K) (tail / 4) st ;;
    st <- d_part zero pattern K 1 o1 period y1 st ;;
    st <- d_tail y1 (o1 + K) (tail / 2) st ;;
    st <- d_part zero pattern K 2 o2 period y1 st ;;
    st <- d_tail y1 (o2 + K) (tail / 4) st ;;
    Ret (fst st)
  else
    '(st, _) <- for_ K (fun i '(st, p) =>
       st' <- for_ 3 (fun j st =>
          b <- pat pattern j p ;;
          if b : bool then
            v <- rd y1 (snd st) ;; y2 <- wr (fst st) (i * 3 + j) v ;; Ret (y2, S (snd st))
          else y2 <- wr (fst st) (i * 3 + j) zero ;; Ret (y2, snd st)) st ;;
       Ret (st', (p + 1) mod period)) ((y2, 0), 0) ;;
    copy y1 (snd st) tail (fst st) (3 * K).

(* ------------------------------------------------------------------ *)
(** * LDPC *)

(** src/Module/Puncturer/LDPC/Puncturer_LDPC.cpp 11-49: the result is Z. *)
Definition ldpc_ctor (K N N_cw : nat) (pattern : list bool) : outcome nat :=
  _ <- base_ctor K N N_cw ;;
  _ <- guard (negb (length pattern =? 0)) ;;
  let Z := N_cw / length pattern in
  _ <- guard (1 <=? Z) ;;
  let bit_count := fold_left (fun c (b : bool) => c + if b then 1 else 0) pattern 0 in
  _ <- guard (N =? Z * bit_count) ;;
  Ret Z.
(** src/Module/Puncturer/LDPC/Puncturer_LDPC.cpp 60-71 (_puncture). *)
Definition ldpc_puncture {A} (Z : nat) (pattern : list bool) (x1 x2 : list A) : outcome (list A) :=
  '(x2, _) <- for_ (length pattern) (fun i '(x2, k) =>
      b <- rd pattern i ;;
      if b : bool then x2 <- copy x1 (i * Z) Z x2 k ;; Ret (x2, k + Z)
      else Ret (x2, k)) (x2, 0) ;;
  Ret x2.
(** src/Module/Puncturer/LDPC/Puncturer_LDPC.cpp 73-86 (_depuncture). *)
Definition ldpc_depuncture {A} (zero : A) (Z : nat) (pattern : list bool) (y1 y2 : list A)
  : outcome (list A) :=
  '(y2, _) <- for_ (length pattern) (fun i '(y2, k) =>
      b <- rd pattern i ;;
      if b : bool then y2 <- copy y1 k Z y2 (i * Z) ;; Ret (y2, k + Z)
      else y2 <- fill y2 (i * Z) Z zero ;; Ret (y2, k)) (y2, 0) ;;
  Ret y2.

(* ------------------------------------------------------------------ *)
(** * No puncturing *)

(** src/Module/Puncturer/NO/Puncturer_NO.cpp 26-38: both directions. *)
Definition no_puncture {A} (N : nat) (x1 x2 : list A) : outcome (list A) := copy x1 0 N x2 0.

(* ------------------------------------------------------------------ *)
(** * Double-binary turbo *)

Inductive coderate := R25 | R13 | R12 | R23 | R34 | R45 | R56.

(** std::round of 100.0 * (m * 2^e), for m >= 0: the product of a single by 100 is exact
    in double precision, halves are rounded up. *)
Definition round100 (m e : Z) : Z :=
  (if e <? 0 then (2 * (100 * m) + 2 ^ (- e)) / (2 * 2 ^ (- e)) else 100 * m * 2 ^ e)%Z.
(** src/Module/Puncturer/Turbo_DB/Puncturer_turbo_DB.cpp 20-35: the rate is computed in
    single precision (K and N converted to single, then divided). The constants are
    round(40) = 40, round(33.3) = 33, 50, round(66.7) = 67, 75, 80, round(83.3) = 83. *)
Definition rate100 (K N : nat) : Z :=
  (let (mk, ek) := f32 (Z.of_nat K) 1 in
   let (mn, en) := f32 (Z.of_nat N) 1 in
   let (m, e) := f32 (mk * 2 ^ Z.max 0 (ek - en)) (mn * 2 ^ Z.max 0 (en - ek)) in
   round100 m e)%Z.
Definition db_rate (K N : nat) : outcome coderate :=
  let r := rate100 K N in
  if (r =? 40)%Z then Ret R25
  else if (r =? 33)%Z then Ret R13
  else if (r =? 50)%Z then Ret R12
  else if (r =? 67)%Z then Ret R23
  else if (r =? 75)%Z then Ret R34
  else if (r =? 80)%Z then Ret R45
  else if (r =? 83)%Z then Ret R56
  else Throws.
Definition db_ctor (K N : nat) : outcome coderate :=
  _ <- base_ctor K N (K * 3) ;; db_rate K N.

(** "for (i = 0; i < K; i += step)" with the statements X_N2[j++] = X_N1[base + i + o] for
    the offsets [os]. *)
Definition db_loop {A} (K base step : nat) (os : list nat) (x1 x2 : list A) (j : nat)
  : outcome (list A) :=
  '(x2, _) <- for_ ((K + step - 1) / step) (fun t st =>
      let i := t * step in
      run (fun o st => v <- rd x1 (base + i + o) ;; x2 <- wr (fst st) (snd st) v ;;
                       Ret (x2, S (snd st))) os st) (x2, j) ;;
  Ret x2.
(** src/Module/Puncturer/Turbo_DB/Puncturer_turbo_DB.cpp 47-117 (_puncture). *)
Definition db_puncture {A} (r : coderate) (K : nat) (x1 x2 : list A) : outcome (list A) :=
  match r with
  | R12 => copy x1 0 (2 * K) x2 0
  | R13 => copy x1 0 (3 * K) x2 0
  | R25 => x2 <- copy x1 0 (2 * K) x2 0 ;; db_loop K (2 * K) 4 [0; 1] x1 x2 (2 * K)
  | R23 => x2 <- copy x1 0 K x2 0 ;; db_loop K K 4 [0; 1] x1 x2 K
  | R34 => x2 <- copy x1 0 K x2 0 ;; db_loop K K 12 [0; 1; 4; 5] x1 x2 K
  | R45 => x2 <- copy x1 0 K x2 0 ;; db_loop K K 8 [0; 1] x1 x2 K
  | R56 => x2 <- copy x1 0 K x2 0 ;; db_loop K K 40 [0; 1; 8; 9; 16; 17; 24; 25] x1 x2 K
  end.
(** The same loops of _depuncture: Y_N2[base + i + o] = Y_N1[j++]. *)
Definition db_dloop {A} (K base step : nat) (os : list nat) (y1 y2 : list A) (j : nat)
  : outcome (list A) :=
  '(y2, _) <- for_ ((K + step - 1) / step) (fun t st =>
      let i := t * step in
      run (fun o st => v <- rd y1 (snd st) ;; y2 <- wr (fst st) (base + i + o) v ;;
                       Ret (y2, S (snd st))) os st) (y2, j) ;;
  Ret y2.
(** src/Module/Puncturer/Turbo_DB/Puncturer_turbo_DB.cpp 119-195 (_depuncture). *)
Definition db_depuncture {A} (zero : A) (r : coderate) (K : nat) (y1 y2 : list A)
  : outcome (list A) :=
  match r with
  | R12 => y2 <- copy y1 0 (2 * K) y2 0 ;; fill y2 (2 * K) (3 * K - 2 * K) zero
  | R13 => copy y1 0 (3 * K) y2 0
  | R25 => y2 <- copy y1 0 (2 * K) y2 0 ;; y2 <- fill y2 (2 * K) (3 * K - 2 * K) zero ;;
           db_dloop K (2 * K) 4 [0; 1] y1 y2 (2 * K)
  | R23 => y2 <- copy y1 0 K y2 0 ;; y2 <- fill y2 K (3 * K - K) zero ;;
           db_dloop K K 4 [0; 1] y1 y2 K
  | R34 => y2 <- copy y1 0 K y2 0 ;; y2 <- fill y2 K (3 * K - K) zero ;;
           db_dloop K K 12 [0; 1; 4; 5] y1 y2 K
  | R45 => y2 <- copy y1 0 K y2 0 ;; y2 <- fill y2 K (3 * K - K) zero ;;
           db_dloop K K 8 [0; 1] y1 y2 K
  | R56 => y2 <- copy y1 0 K y2 0 ;; y2 <- fill y2 K (3 * K - K) zero ;;
           db_dloop K K 40 [0; 1; 8; 9; 16; 17; 24; 25] y1 y2 K
  end.
