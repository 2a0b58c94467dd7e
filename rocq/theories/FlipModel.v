(** Bit-flipping decoders of LDPC codes: model of src/Module/Decoder/LDPC/BF/Decoder_LDPC_bit_flipping.cpp (BF below),
    BF/OMWBF/Decoder_LDPC_bit_flipping_OMWBF.cpp (OM), BF/Decoder_LDPC_bit_flipping_hard.cpp (HARD) and
    BF/PPBF/Decoder_LDPC_probabilistic_parallel_bit_flipping.cpp (PP).
    Simplifications: one frame; values of type R are rationals with exact arithmetic (no rounding, no overflow; [mx] is
    std::numeric_limits<R>::max()); values of type B are Z; the random engine is any function (see [pp_vn]); the messages
    C_to_V and V_to_C and the table transpose of BF, which nothing reads, are left out, and so are timers, names and the
    refusal of 8-bit LLRs. *)
From Coq Require Import List Arith Lia Bool ZArith QArith Qabs.
From Verif Require Import Base GaloisModel SparseModel FullModel LDPCModel LDPCBPModel.
Import ListNotations.
Local Open Scope nat_scope.

(* ------------------------------------------------------------------ *)
(** * OMWBF: the weighted decoder *)

(** BF 19-48: the parameters of the decoder. *)
Record bf := mkBF { bf_N : nat; bf_ite : nat; bf_H : sparse; bf_synd : bool; bf_pos : list nat; bf_factor : Q }.
(** The members Lp_N, Y_min, decis (BF) and synd, energy (OM). *)
Record bf_st := mkBS { bs_Lp : list Q; bs_min : list Q; bs_dec : list Z; bs_syn : list Z; bs_en : list Q }.

(** BF 17-109: the checks of the constructor; check_LUT is that of LDPCBPModel.v's constructor and n_ite is not checked. *)
Definition bf_new (N n_ite : nat) (H : sparse) (synd : bool) (depth : nat) (pos : list nat) (factor : Q) : outcome bf :=
  if depth =? 0 then Throws else if negb (N =? sp_rows H) then Throws else Ret (mkBF N n_ite H synd pos factor).
(** BF 35-39, OM 22-23: the initial values of the members. *)
Definition bf_start (d : bf) : bf_st :=
  mkBS (repeat (-(1))%Q (bf_N d)) (repeat 0%Q (sp_cols (bf_H d))) (repeat 0%Z (bf_N d)) (repeat 0%Z (sp_cols (bf_H d))) (repeat 0%Q (bf_N d)).

(** BF 101-107: the degrees, kept in an unsigned char. *)
Definition deg8 (l : list nat) : nat := length l mod 256.

(** BF 201-212: the smallest magnitude of every check. *)
Definition bf_mins (mx : Q) (H : sparse) (Y : list Q) (mins : list Q) : outcome (list Q) :=
  for_ (sp_cols H) (fun c mins =>
    col <- sp_col H c ;;
    m <- for_ (deg8 col) (fun j m => v <- rd col j ;; y <- rd Y v ;; let comp := Qabs y in Ret (if qltb comp m then comp else m)) mx ;;
    wr mins c m) mins.
(** BF 213-217: the first decisions. *)
Definition bf_decide (N : nat) (Y : list Q) (dec : list Z) : outcome (list Z) :=
  for_ N (fun i dec => y <- rd Y i ;; wr dec i (Z.b2z (qltb y 0%Q))) dec.

(** OM 49-59: the syndrome; the flag is set when a check fails. *)
Definition om_syndrome (H : sparse) (dec syn : list Z) : outcome (list Z * bool) :=
  for_ (sp_cols H) (fun c '(syn, flag) =>
    col <- sp_col H c ;;
    x <- for_ (deg8 col) (fun j x => v <- rd col j ;; b <- rd dec v ;; Ret (Z.lxor x b)) 0%Z ;;
    syn <- wr syn c x ;;
    Ret (syn, flag || nz x)) (syn, false).
(** OM 61-70: the energies. *)
Definition om_energy (d : bf) (Y mins : list Q) (syn : list Z) (en : list Q) : outcome (list Q) :=
  for_ (bf_N d) (fun i en =>
    row <- sp_row (bf_H d) i ;;
    e <- for_ (deg8 row) (fun j e => m <- rd row j ;; s <- rd syn m ;; w <- rd mins m ;; Ret (e + inject_Z (2 * s - 1) * w)%Q) 0%Q ;;
    y <- rd Y i ;;
    wr en i (e - bf_factor d * Qabs y)%Q) en.
(** OM 72-82: the variable of largest energy, the first one. *)
Definition om_max (N : nat) (en : list Q) : outcome nat :=
  e0 <- rd en 0 ;;
  ' (ind, _) <- for_ (N - 1) (fun k '(ind, val) => e <- rd en (S k) ;; Ret (if qltb val e then (S k, e) else (ind, val))) (0, e0) ;;
  Ret ind.
(** OM 44-87 (BF_process): the new state and whether the syndrome was null. *)
Definition om_process (d : bf) (Y : list Q) (s : bf_st) : outcome (bf_st * bool) :=
  ' (syn, flag) <- om_syndrome (bf_H d) (bs_dec s) (bs_syn s) ;;
  en <- om_energy d Y (bs_min s) syn (bs_en s) ;;
  ind <- om_max (bf_N d) en ;;
  dec <- (if flag : bool then b <- rd (bs_dec s) ind ;; wr (bs_dec s) ind (if (b =? 0)%Z then 1%Z else 0%Z) else Ret (bs_dec s)) ;;
  Ret (mkBS (bs_Lp s) (bs_min s) dec syn en, negb flag).

(** BF 219-229: the iterations, [cnt] of them being left. *)
Fixpoint bf_loop (d : bf) (Y : list Q) (cnt : nat) (s : bf_st) (syndrome : bool) : outcome (bf_st * bool) :=
  match cnt with
  | 0 => Ret (s, syndrome)
  | S n =>
      ' (s, syndrome) <- om_process d Y s ;;
      if bf_synd d && syndrome then Ret (s, syndrome) else bf_loop d Y n s syndrome
  end.
(** BF 197-239 (BF_decode). *)
Definition bf_decode (mx : Q) (d : bf) (Y : list Q) (s : bf_st) : outcome (bf_st * bool) :=
  mins <- bf_mins mx (bf_H d) Y (bs_min s) ;;
  dec <- bf_decide (bf_N d) Y (bs_dec s) ;;
  ' (s, syndrome) <- bf_loop d Y (bf_ite d) (mkBS (bs_Lp s) mins dec (bs_syn s) (bs_en s)) true ;;
  Lp <- for_ (bf_N d) (fun i Lp => b <- rd (bs_dec s) i ;; wr Lp i (if (b =? 0)%Z then 1%Q else (-(1))%Q)) (bs_Lp s) ;;
  Ret (mkBS Lp (bs_min s) (bs_dec s) (bs_syn s) (bs_en s), syndrome).

(** BF 126-141 (_decode_siso), 143-170 (_decode_siho) and 172-194 (_decode_siho_cw). *)
Definition bf_siso (mx : Q) (d : bf) (Y : list Q) (s : bf_st) : outcome (bf_st * bool * list Q) :=
  ' (s, synd) <- bf_decode mx d Y s ;;
  Y2 <- gen (bf_N d) (fun i => l <- rd (bs_Lp s) i ;; y <- rd Y i ;; Ret (l - y)%Q) ;;
  Ret (s, synd, Y2).
Definition bf_siho (mx : Q) (d : bf) (Y : list Q) (s : bf_st) : outcome (bf_st * bool * list Z) :=
  ' (s, synd) <- bf_decode mx d Y s ;;
  V <- gen (length (bf_pos d)) (fun i => k <- rd (bf_pos d) i ;; l <- rd (bs_Lp s) k ;; Ret (Z.b2z (negb (Qle_bool 0 l)))) ;;
  Ret (s, synd, V).
Definition bf_siho_cw (mx : Q) (d : bf) (Y : list Q) (s : bf_st) : outcome (bf_st * bool * list Z) :=
  ' (s, synd) <- bf_decode mx d Y s ;;
  V <- gen (bf_N d) (fun i => l <- rd (bs_Lp s) i ;; Ret (Z.b2z (qltb l 0%Q))) ;;
  Ret (s, synd, V).

(* ------------------------------------------------------------------ *)
(** * PPBF: the probabilistic parallel decoder *)

Section PP.
(** The random engine and std::bernoulli_distribution: [draw p g] is the outcome with probability p and the new engine. *)
Variables (G P : Type) (draw : P -> G -> bool * G).

(** HARD 17-58, PP 11-43: the parameters; the probabilities are those of the distributions. *)
Record pp := mkPP { pp_N : nat; pp_ite : nat; pp_H : sparse; pp_synd : bool; pp_depth : nat; pp_pos : list nat; pp_prob : list P }.
(** The members var_nodes, check_nodes and rd_engine; cur_syndrome_depth is set at the start of every frame. *)
Record pp_st := mkPS { ps_V : list Z; ps_C : list Z; ps_g : G }.

Definition pp_new (N n_ite : nat) (H : sparse) (synd : bool) (depth : nat) (pos : list nat) (prob : list P) : outcome pp :=
  if n_ite =? 0 then Throws else if depth =? 0 then Throws else if negb (N =? sp_rows H) then Throws
  else if negb (length prob =? sp_rmax H + 2) then Throws else Ret (mkPP N n_ite H synd depth pos prob).
Definition pp_start (d : pp) (g : G) : pp_st := mkPS (repeat 0%Z (pp_N d)) (repeat 0%Z (sp_cols (pp_H d))) g.

(** PP 56-71 (cn_process). *)
Definition pp_cn (H : sparse) (V C : list Z) : outcome (list Z) :=
  for_ (sp_cols H) (fun c C =>
    col <- sp_col H c ;;
    x <- for_ (length col) (fun j x => v <- rd col j ;; b <- rd V v ;; Ret (Z.lxor x b)) 0%Z ;;
    wr C c x) C.
(** PP 73-90 (vn_process); a negative index is out of the table. *)
Definition pp_vn (d : pp) (Y C : list Z) (V : list Z) (g : G) : outcome (list Z * G) :=
  for_ (sp_rows (pp_H d)) (fun v '(V, g) =>
    row <- sp_row (pp_H d) v ;;
    b <- rd V v ;;
    y <- rd Y v ;;
    e <- for_ (length row) (fun j e => c <- rd row j ;; x <- rd C c ;; Ret (e + x)%Z) (Z.lxor b y) ;;
    p <- (if (e <? 0)%Z then Undef else rd (pp_prob d) (Z.to_nat e)) ;;
    let (o, g) := draw p g in
    V <- wr V v (Z.lxor b (Z.b2z o)) ;;
    Ret (V, g)) (V, g).
(** HARD 211-219 (check_syndrome). *)
Definition pp_check (C : list Z) : bool := negb (existsb nz C).

(** HARD 188-204: the iterations, [cnt] of them being left; also the last value of synd. *)
Fixpoint pp_loop (d : pp) (Y : list Z) (cnt cur : nat) (s : pp_st) (synd : bool) : outcome (pp_st * bool) :=
  match cnt with
  | 0 => Ret (s, synd)
  | S n =>
      C <- pp_cn (pp_H d) (ps_V s) (ps_C s) ;;
      let synd := if pp_synd d then pp_check C else synd in
      let cur := if pp_synd d && synd then S cur else 0 in
      if pp_synd d && synd && (pp_depth d <=? cur) then Ret (mkPS (ps_V s) C (ps_g s), synd)
      else ' (V, g) <- pp_vn d Y C (ps_V s) (ps_g s) ;; pp_loop d Y n cur (mkPS V C g) synd
  end.
(** HARD 179-209 (decode). *)
Definition pp_decode (d : pp) (Y : list Z) (s : pp_st) : outcome (pp_st * bool) :=
  ' (s, synd) <- pp_loop d Y (pp_ite d) 0 s false ;;
  Ret (s, if negb (pp_synd d) || negb synd then pp_check (ps_C s) else synd).

(** HARD 164-177 (_store, _store_cw). *)
Definition pp_store (cw : bool) (d : pp) (V : list Z) : outcome (list Z) :=
  if cw then gen (pp_N d) (fun i => rd V i) else gen (length (pp_pos d)) (fun i => k <- rd (pp_pos d) i ;; rd V k).
(** HARD 68-112 (_decode_hiho, _decode_hiho_cw) and 114-162 (_decode_siho, _decode_siho_cw). *)
Definition pp_hiho (cw : bool) (d : pp) (Y : list Z) (s : pp_st) : outcome (pp_st * bool * list Z) :=
  V <- gen (pp_N d) (fun i => rd Y i) ;;
  ' (s, synd) <- pp_decode d Y (mkPS V (ps_C s) (ps_g s)) ;;
  V <- pp_store cw d (ps_V s) ;;
  Ret (s, synd, V).
Definition pp_siho {R} (neg : R -> bool) (cw : bool) (d : pp) (Y : list R) (s : pp_st) : outcome (pp_st * bool * list Z) :=
  HY <- gen (pp_N d) (fun i => y <- rd Y i ;; Ret (Z.b2z (neg y))) ;;
  ' (s, synd) <- pp_decode d HY (mkPS HY (ps_C s) (ps_g s)) ;;
  V <- pp_store cw d (ps_V s) ;;
  Ret (s, synd, V).
End PP.
