(** Model of the turbo decoders: src/Module/Decoder/Turbo/Decoder_turbo.cpp, Decoder_turbo_std.cpp
    and Decoder_turbo_fast.cpp, and of the post-processings of
    src/Tools/Code/Turbo/Post_processing_SISO.

    The number type is abstract; [add] is its addition.  [E] is mipp::nElReg<R>(), equal to
    mipp::nElReg<B>() for the types of the library.  The two SISO decoders are abstract
    objects: a state and the task decode_siso_alt. *)
From Coq Require Import List Arith ZArith Bool.
From Verif Require Import Base Copy HardModel.
From Verif Require InterleaverModel ReorderModel.
Import ListNotations.

Section TurboDec.
Variable T : Type.
Variables (zero : T) (add : T -> T -> T).
Variables (lt0 sgn : T -> bool).        (* x < 0, and the sign bit of x *)
Variable sgnz : T -> Z.                 (* tools::sgn: -1, 0 or 1 *)
Variables (absT : T -> T) (psort : list T -> list nat).
Variable E : nat.

(** ** Post-processings *)
(** The objects.  [PScale fn fi]: a scaling factor, which replaces every extrinsic x of
    iteration [ite] by [fn ite x] after the first SISO and by [fi ite x] after the second one.
    [PCrc start check]: CRC_checker; [check] is crc->check.
    [PFnc start check q its metric s_tmp]: Flip_and_check.
    [PSelf m M ext_nat ext_int osc_nat osc_int prev_nat prev_int]: Self_corrected. *)
Inductive pp :=
| PScale (fn fi : nat -> T -> T)
| PCrc (start : nat) (check : list Z -> bool)
| PFnc (start : nat) (check : list Z -> bool) (q : nat) (its : list nat) (metric : list T) (s_tmp : list Z)
| PSelf (m M : nat) (ext_nat ext_int : list (list T)) (osc_nat osc_int prev_nat prev_int : list bool).

(** CRC/CRC_checker.cpp 38-57: the hard decisions, by registers then one by one. *)
Definition crc_decide (sys ext : list T) (s : list Z) : outcome (list Z) :=
  let v := length s / E in
  s <- for_ v (fun b s => for_ E (fun j s =>
    x <- rd sys (b * E + j) ;; y <- rd ext (b * E + j) ;; wr s (b * E + j) (bitz (sgn (add x y)))) s) s ;;
  for_from (v * E) (length s - v * E) (fun i s =>
    x <- rd sys i ;; y <- rd ext i ;; wr s i (bitz (lt0 (add x y)))) s.
(** CRC/CRC_checker.cpp 31-61 (siso_n). *)
Definition crc_siso (start : nat) (check : list Z -> bool) (ite : nat) (sys ext : list T) (s : list Z) : outcome (bool * list Z) :=
  if start <=? ite then s <- crc_decide sys ext s ;; Ret (check s, s) else Ret (false, s).

(** Flip_and_check/Flip_and_check.cpp 12-31: tab_flips[pattern][depth]. *)
Definition tab_flip (pattern depth : nat) : bool := Nat.testbit (pattern + 1) depth.
(** Flip_and_check.cpp 33-40: the iterations of fnc_ite, for a step s > 0 and the last iteration [last]. *)
Fixpoint fnc_ites (fuel ite step last : nat) : list nat :=
  match fuel with
  | O => [ite]
  | S f => ite :: (if ite + step <=? last then fnc_ites f (ite + step) step last else [])
  end.
(** Flip_and_check.cpp 98-103: s_tmp of one pattern. *)
Definition flip (q : nat) (positions : list nat) (pattern : nat) (s s_tmp : list Z) : outcome (list Z) :=
  s_tmp <- copy s 0 (length s) s_tmp 0 ;;
  for_ q (fun depth s_tmp =>
    p <- rd positions depth ;; x <- rd s_tmp p ;;
    wr s_tmp p (Z.lxor x (bitz (tab_flip pattern depth)))) s_tmp.
(** Flip_and_check.cpp 95-107: the do-while loop over the 2^q - 1 patterns. *)
Fixpoint flip_loop (fuel pattern q : nat) (check : list Z -> bool) (positions : list nat) (s s_tmp : list Z) : outcome (bool * list Z) :=
  match fuel with
  | O => Undef
  | S f =>
    s_tmp <- flip q positions pattern s s_tmp ;;
    if (pattern + 1 <? 2 ^ q - 1) && negb (check s_tmp) then flip_loop f (pattern + 1) q check positions s s_tmp
    else Ret (check s_tmp, s_tmp)
  end.
(** Flip_and_check.cpp 64-114 (partial_sort_indexes, apply_flip_and_check).  std::partial_sort
    with begin() + 20 as its middle: undefined on fewer than 20 values; [psort] is its result. *)
Definition apply_fnc (q : nat) (check : list Z -> bool) (sys ext : list T) (s : list Z) (metric : list T) (s_tmp : list Z) : outcome (bool * list Z * list T * list Z) :=
  metric <- for_ (length metric) (fun i metric => x <- rd sys i ;; y <- rd ext i ;; wr metric i (absT (add x y))) metric ;;
  _ <- (if 20 <=? length metric then Ret tt else Undef) ;;
  '(ok, s_tmp) <- flip_loop (2 ^ q) 0 q check (psort metric) s s_tmp ;;
  s <- (if ok then copy s_tmp 0 (length s_tmp) s 0 else Ret s) ;;
  Ret (ok, s, metric, s_tmp).

(** Self_corrected/Self_corrected.cpp 73-104 (collect, calc_osc, correct). *)
Definition collect (ite : nat) (ext : list T) (hist : list (list T)) : outcome (list (list T)) := wr hist (ite - 1) ext.
Definition calc_osc (ite : nat) (hist : list (list T)) (osc : list bool) : outcome (list bool) :=
  for_ (length osc) (fun i osc =>
    h1 <- rd hist (ite - 1) ;; x <- rd h1 i ;; h2 <- rd hist (ite - 2) ;; y <- rd h2 i ;;
    wr osc i (negb (sgnz x =? sgnz y)%Z)) osc.
Definition correct (osc prev : list bool) (ext : list T) : outcome (list bool * list T) :=
  for_ (length ext) (fun i (st : list bool * list T) =>
    let (prev, ext) := st in
    o <- rd osc i ;; p <- rd prev i ;;
    if o && negb p then ext <- wr ext i zero ;; prev <- wr prev i true ;; Ret (prev, ext)
    else prev <- wr prev i false ;; Ret (prev, ext)) (prev, ext).
(** Self_corrected.cpp 35-53 (siso_n) and 55-71 (siso_i). *)
Definition self_siso (m M ite : nat) (ext : list T) (hist : list (list T)) (osc prev : list bool) : outcome (list T * list (list T) * list bool * list bool) :=
  if ite <=? M then
    hist <- collect ite ext hist ;;
    if 1 <? ite then
      osc <- calc_osc ite hist osc ;;
      if m <=? ite then '(prev, ext) <- correct osc prev ext ;; Ret (ext, hist, osc, prev)
      else Ret (ext, hist, osc, prev)
    else Ret (ext, hist, osc, prev)
  else Ret (ext, hist, osc, prev).

(** siso_n and siso_i of an object.  A scaling goes through the whole vector ext. *)
Definition pp_n (ite : nat) (sys ext : list T) (s : list Z) (p : pp) : outcome (bool * list T * list Z * pp) :=
  match p with
  | PScale fn fi => Ret (false, map (fn ite) ext, s, p)
  | PCrc start check => '(b, s) <- crc_siso start check ite sys ext s ;; Ret (b, ext, s, p)
  | PFnc start check q its metric s_tmp =>
    '(b, s) <- crc_siso start check ite sys ext s ;;
    if negb b && existsb (Nat.eqb ite) its then
      '(b, s, metric, s_tmp) <- apply_fnc q check sys ext s metric s_tmp ;;
      Ret (b, ext, s, PFnc start check q its metric s_tmp)
    else Ret (b, ext, s, p)
  | PSelf m M ext_nat ext_int osc_nat osc_int prev_nat prev_int =>
    '(ext, ext_nat, osc_nat, prev_nat) <- self_siso m M ite ext ext_nat osc_nat prev_nat ;;
    Ret (false, ext, s, PSelf m M ext_nat ext_int osc_nat osc_int prev_nat prev_int)
  end.
Definition pp_i (ite : nat) (sys ext : list T) (p : pp) : outcome (bool * list T * pp) :=
  match p with
  | PScale fn fi => Ret (false, map (fi ite) ext, p)
  | PCrc _ _ | PFnc _ _ _ _ _ _ => Ret (false, ext, p)
  | PSelf m M ext_nat ext_int osc_nat osc_int prev_nat prev_int =>
    '(ext, ext_int, osc_int, prev_int) <- self_siso m M ite ext ext_int osc_int prev_int ;;
    Ret (false, ext, PSelf m M ext_nat ext_int osc_nat osc_int prev_nat prev_int)
  end.
(** Decoder_turbo_std.cpp 62-66 and 88-92: in order, until one of them stops. *)
Fixpoint pps_n (ite : nat) (sys ext : list T) (s : list Z) (l : list pp) : outcome (bool * list T * list Z * list pp) :=
  match l with
  | [] => Ret (false, ext, s, [])
  | p :: l =>
    '(b, ext, s, p) <- pp_n ite sys ext s p ;;
    if b then Ret (true, ext, s, p :: l)
    else '(b, ext, s, l) <- pps_n ite sys ext s l ;; Ret (b, ext, s, p :: l)
  end.
Fixpoint pps_i (ite : nat) (sys ext : list T) (l : list pp) : outcome (bool * list T * list pp) :=
  match l with
  | [] => Ret (false, ext, [])
  | p :: l =>
    '(b, ext, p) <- pp_i ite sys ext p ;;
    if b then Ret (true, ext, p :: l)
    else '(b, ext, l) <- pps_i ite sys ext l ;; Ret (b, ext, p :: l)
  end.

(** ** The decoder *)
Variables (Sn Si : Type).
Variable alt_n : Sn -> list T -> list T -> list T -> outcome (Sn * list T).
Variable alt_i : Si -> list T -> list T -> list T -> outcome (Si * list T).
(** The interleaver (a clone) and its tables; K is its size, n_frames the frames per wave. *)
Variables (m : InterleaverModel.itl) (lut lut_inv : list nat).
(** N, the half of the tails (tail_length() / 2), n_ite, buffered_encoding; [fast] selects
    Decoder_turbo_fast. *)
Variables (N tn ti n_ite : nat) (buffered fast : bool).
Notation K := (InterleaverModel.size m).
Notation nf := (InterleaverModel.npw m).

Record tdec := { t_sn : list T; t_si : list T; t_sen : list T; t_sei : list T; t_pn : list T; t_pi : list T;
                 t_e1n : list T; t_e2n : list T; t_e1i : list T; t_e2i : list T; t_s : list Z;
                 t_n : Sn; t_i : Si; t_pps : list pp }.

(** Decoder_turbo.cpp 13-37 and 47-112: the checks (the numbers of frames of the arguments are
    taken equal) and the buffers. *)
Definition tdec_ctor (Kn Ki : nat) (sn : Sn) (si : Si) (pps : list pp) : outcome tdec :=
  _ <- guard (Kn =? K) ;; _ <- guard (Ki =? K) ;;
  _ <- guard (Z.of_nat N - (Z.of_nat (2 * tn) + Z.of_nat (2 * ti)) =? 3 * Z.of_nat K)%Z ;;
  _ <- guard (0 <? n_ite) ;;
  let bn := repeat zero ((K + tn) * nf + E) in
  let bi := repeat zero ((K + ti) * nf + E) in
  let b := repeat zero (K * nf + E) in
  Ret {| t_sn := bn; t_si := bi; t_sen := bn; t_sei := bi; t_pn := bn; t_pi := bi;
         t_e1n := b; t_e2n := b; t_e1i := b; t_e2i := b; t_s := repeat 0%Z (K * nf); t_n := sn; t_i := si; t_pps := pps |}.

(** pi->interleave or pi->interleave_reordering, e.g. Decoder_turbo_std.cpp 71-74. *)
Definition itl (table : list nat) (frame_id : nat) (x o : list T) : outcome (list T) :=
  if 1 <? nf then InterleaverModel.interleave_reordering m table frame_id x o
  else InterleaverModel.interleave m table frame_id x o.

(** Reorderer<R>::apply (Decoder_turbo.cpp 177-194) or Reorderer_static<R,n_frames>::apply
    (Decoder_turbo_fast.cpp 37-79) on the frames of Y starting at [off], to o + d; the constant
    n_frames of the fast decoder is E, or E / 8 if the wave has another number of frames. *)
Definition frames_of (n off : nat) (Y : list T) : list (list T) := tab n (fun f => skipn (f * N + off) Y).
Definition reorder (Y : list T) (off : nat) (o : list T) (d len : nat) : outcome (list T) :=
  if length o <? d then Undef else
  r <- (if fast then let n := if nf =? E then E else E / 8 in ReorderModel.static_apply T zero E n (frames_of n off Y) (skipn d o) len
        else ReorderModel.apply T zero E (frames_of nf off Y) (skipn d o) len) ;;
  Ret (firstn d o ++ r).

(** Decoder_turbo.cpp 159-199 (buffered_load) and Decoder_turbo_fast.cpp 27-88; get_K() = K and
    get_N() = 2 * (K + tail / 2) for the SISO decoders. *)
Definition buffered_load (Y : list T) (frame_id : nat) (d : tdec) : outcome (list T * list T * list T * list T * list T) :=
  let Nn := 2 * (K + tn) in
  '(sn, pn, si, p) <-
    (if nf =? 1 then
       sn <- copy Y 0 (K + tn) (t_sn d) 0 ;;
       pn <- copy Y (K + tn) (Nn - (K + tn)) (t_pn d) 0 ;;
       si <- copy Y Nn ti (t_si d) K ;;
       p <- copy Y (Nn + ti) (N - (Nn + ti)) (t_pi d) 0 ;;
       Ret (sn, pn, si, p)
     else
       sn <- reorder Y 0 (t_sn d) 0 (K + tn) ;;
       pn <- reorder Y (K + tn) (t_pn d) 0 (K + tn) ;;
       si <- reorder Y Nn (t_si d) (K * nf) ti ;;
       p <- reorder Y (Nn + ti) (t_pi d) 0 (K + ti) ;;
       Ret (sn, pn, si, p)) ;;
  si <- itl lut frame_id sn si ;;
  e1n <- fill (t_e1n d) 0 (length (t_e1n d)) zero ;;
  Ret (sn, pn, si, p, e1n).

(** Decoder_turbo.cpp 201-265 (standard_load). *)
Definition standard_load (Y : list T) (frame_id : nat) (d : tdec) : outcome (list T * list T * list T * list T * list T) :=
  let F := 3 * K + 2 * tn + 2 * ti in
  '(sn, pn, p) <- for_ K (fun i st => for_ nf (fun j (st : list T * list T * list T) =>
     let '(sn, pn, p) := st in
     a <- rd Y (j * F + i * 3 + 0) ;; sn <- wr sn (i * nf + j) a ;;
     a <- rd Y (j * F + i * 3 + 1) ;; pn <- wr pn (i * nf + j) a ;;
     a <- rd Y (j * F + i * 3 + 2) ;; p <- wr p (i * nf + j) a ;;
     Ret (sn, pn, p)) st) (t_sn d, t_pn d, t_pi d) ;;
  si <- itl lut frame_id sn (t_si d) ;;
  '(sn, pn) <- for_ tn (fun i st => for_ nf (fun j (st : list T * list T) =>
     let '(sn, pn) := st in
     a <- rd Y (j * F + K * 3 + 2 * i + 0) ;; sn <- wr sn ((K + i) * nf + j) a ;;
     a <- rd Y (j * F + K * 3 + 2 * i + 1) ;; pn <- wr pn ((K + i) * nf + j) a ;;
     Ret (sn, pn)) st) (sn, pn) ;;
  '(si, p) <- for_ ti (fun i st => for_ nf (fun j (st : list T * list T) =>
     let '(si, p) := st in
     a <- rd Y (j * F + K * 3 + 2 * tn + 2 * i + 0) ;; si <- wr si ((K + i) * nf + j) a ;;
     a <- rd Y (j * F + K * 3 + 2 * tn + 2 * i + 1) ;; p <- wr p ((K + i) * nf + j) a ;;
     Ret (si, p)) st) (si, p) ;;
  e1n <- fill (t_e1n d) 0 (length (t_e1n d)) zero ;;
  Ret (sn, pn, si, p, e1n).

(** sys + ext: Decoder_turbo_std.cpp 52-57, 77-82 and Decoder_turbo_fast.cpp 116-124, 144-152
    (whole registers, then the tail). *)
Definition vadd (a b o : list T) (n : nat) : outcome (list T) :=
  if fast then
    for_ ((n + E - 1) / E) (fun r o => for_ E (fun j o =>
      x <- rd a (r * E + j) ;; y <- rd b (r * E + j) ;; wr o (r * E + j) (add x y)) o) o
  else for_ n (fun i o => x <- rd a i ;; y <- rd b i ;; wr o i (add x y)) o.
Definition sys_ext (sys ext : list T) (tail : nat) (o : list T) : outcome (list T) :=
  o <- vadd sys ext o (K * nf) ;;
  if fast then copy sys (K * nf) ((K + tail) * nf - K * nf) o (K * nf)
  else for_from (K * nf) (tail * nf) (fun i o => x <- rd sys i ;; wr o i x) o.

(** Decoder_turbo_std.cpp 47-111, Decoder_turbo_fast.cpp 112-184: one iteration; the boolean is
    stop. *)
Definition iteration (frame_id ite : nat) (d : tdec) : outcome (bool * tdec) :=
  sen <- sys_ext (t_sn d) (t_e1n d) tn (t_sen d) ;;
  '(n', e2n) <- alt_n (t_n d) sen (t_pn d) (t_e2n d) ;;
  '(stop, e2n, s, pps) <- pps_n ite sen e2n (t_s d) (t_pps d) ;;
  if stop then
    Ret (true, {| t_sn := t_sn d; t_si := t_si d; t_sen := sen; t_sei := t_sei d; t_pn := t_pn d; t_pi := t_pi d;
                  t_e1n := t_e1n d; t_e2n := e2n; t_e1i := t_e1i d; t_e2i := t_e2i d; t_s := s; t_n := n'; t_i := t_i d; t_pps := pps |})
  else
    e1i <- itl lut frame_id e2n (t_e1i d) ;;
    sei <- sys_ext (t_si d) e1i ti (t_sei d) ;;
    '(i', e2i) <- alt_i (t_i d) sei (t_pi d) (t_e2i d) ;;
    '(stop, e2i, pps) <- pps_i ite sei e2i pps ;;
    e2i <- (if (ite =? n_ite) || stop then vadd e2i sei e2i (K * nf) else Ret e2i) ;;
    e1n <- itl lut_inv frame_id e2i (t_e1n d) ;;
    s <- (if (ite =? n_ite) || stop then hard_decide T lt0 sgn E e1n (K * nf) s else Ret s) ;;
    Ret (stop, {| t_sn := t_sn d; t_si := t_si d; t_sen := sen; t_sei := sei; t_pn := t_pn d; t_pi := t_pi d;
                  t_e1n := e1n; t_e2n := e2n; t_e1i := e1i; t_e2i := e2i; t_s := s; t_n := n'; t_i := i'; t_pps := pps |}).
(** The do-while loop. *)
Fixpoint iterations (fuel frame_id ite : nat) (d : tdec) : outcome tdec :=
  match fuel with
  | O => Undef
  | S f =>
    '(stop, d) <- iteration frame_id ite d ;;
    if (ite + 1 <=? n_ite) && negb stop then iterations f frame_id (ite + 1) d else Ret d
  end.

(** Decoder_turbo.cpp 267-284 and Decoder_turbo_fast.cpp 205-235 (_store); [V] holds the frames of
    the wave. *)
Definition tdec_store (s : list Z) (V : list (list Z)) : outcome (list (list Z)) :=
  if nf =? 1 then
    v <- rd V 0 ;; v <- copy s 0 K v 0 ;; wr V 0 v
  else if fast then
    let n := if nf =? E then E else E / 8 in
    r <- ReorderModel.static_rev Z 0%Z E n s (firstn n V) K ;; Ret (r ++ skipn n V)
  else ReorderModel.apply_rev Z 0%Z E s V K.

(** Decoder_turbo_std.cpp 31-128 and Decoder_turbo_fast.cpp 99-203 (_decode_siho).  end() of the
    modelled post-processings does nothing. *)
Definition decode (frame_id : nat) (d : tdec) (Y : list T) (V : list (list Z)) : outcome (tdec * list (list Z)) :=
  '(sn, pn, si, p, e1n) <- (if buffered then buffered_load Y frame_id d else standard_load Y frame_id d) ;;
  d <- iterations n_ite frame_id 1
    {| t_sn := sn; t_si := si; t_sen := t_sen d; t_sei := t_sei d; t_pn := pn; t_pi := p;
       t_e1n := e1n; t_e2n := t_e2n d; t_e1i := t_e1i d; t_e2i := t_e2i d; t_s := t_s d; t_n := t_n d; t_i := t_i d; t_pps := t_pps d |} ;;
  V <- tdec_store (t_s d) V ;;
  Ret (d, V).

(** A decoder after its constructor and any calls that return; the arrays of the calls are
    those of a wave. *)
Inductive reached (Kn Ki : nat) (sn : Sn) (si : Si) (pps : list pp) : tdec -> Prop :=
| reached_ctor : forall d, tdec_ctor Kn Ki sn si pps = Ret d -> reached Kn Ki sn si pps d
| reached_decode : forall d fid Y V d' V', reached Kn Ki sn si pps d -> length Y = nf * N -> length V = nf -> Forall (fun v => length v = K) V ->
    decode fid d Y V = Ret (d', V') -> reached Kn Ki sn si pps d'.
End TurboDec.

(** ** The scaling factors: fn and fi of PScale, from ite, for the number of iterations n_ite
    given to their constructors *)
Section Scalings.
Variable T : Type.
Variables (add : T -> T -> T) (div2 div4 : T -> T).
(** Scaling_factor_constant.cpp 14-56; [mul] is the product by (R)alpha. *)
Definition constant_n (mul : T -> T) (ite : nat) (x : T) : T := mul x.
Definition constant_i (mul : T -> T) (n_ite ite : nat) (x : T) : T := if (Z.of_nat ite <? Z.of_nat n_ite - 1)%Z then mul x else x.
(** Scaling_factor_seq.cpp 22-69, Scaling_factor_vec.cpp 25-107. *)
Definition seq_n (ite : nat) (x : T) : T := add (div2 x) (div4 x).
Definition seq_i (n_ite ite : nat) (x : T) : T := if (Z.of_nat ite <? Z.of_nat n_ite - 1)%Z then add (div2 x) (div4 x) else x.
(** Scaling_factor_adaptive.cpp 14-65; [mul85] is the product by (R)0.85. *)
Definition adaptive (mul85 : T -> T) (ite : nat) (x : T) : T := if (ite =? 1) || (ite =? 2) then div2 x else mul85 x.
(** Scaling_factor_array.cpp 14-59; [muls] are the products by the entries of a non-empty alpha_array. *)
Definition array_n (muls : list (T -> T)) (ite : nat) (x : T) : T :=
  nth (Nat.min (2 * (ite - 1)) (length muls - 1)) muls (fun x => x) x.
Definition array_i (muls : list (T -> T)) (ite : nat) (x : T) : T :=
  nth (Nat.min (2 * (ite - 1) + 1) (length muls - 1)) muls (fun x => x) x.
End Scalings.
