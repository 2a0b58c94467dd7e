(** Decoder of repeat-accumulate codes: model of src/Module/Decoder/RA/Decoder_RA.cpp.
    Simplifications: one frame; values of type R are rationals with exact arithmetic (no rounding, no overflow); bits are the
    naturals 0 and 1; the interleaver is its two tables lut and lut_inv, out[i] = in[lut[i]] (InterleaverModel.v). *)
From Coq Require Import List Arith Lia Bool ZArith QArith Qabs.
From Verif Require Import Base LDPCBPModel.
Import ListNotations.
Local Open Scope nat_scope.

(** The parameters, and the members Fw, Bw, Tu, Td, Wu, Wd and U. *)
Record rad := mkRD { rd_K : nat; rd_N : nat; rd_ite : nat; rd_lut : list nat; rd_inv : list nat }.
Record rad_st := mkRS { rs_Fw : list Q; rs_Bw : list Q; rs_Tu : list Q; rs_Td : list Q; rs_Wu : list Q; rs_Wd : list Q; rs_U : list Q }.

(** Lines 14-60 and the constructor of Decoder_SIHO: the checks, in a different order. *)
Definition rad_new (K N ite : nat) (lut inv : list nat) : outcome rad :=
  if (K =? 0) || (N =? 0) || (N <? K) then Throws else if ite =? 0 then Throws
  else if negb (N mod K =? 0) then Throws else if negb (length lut =? N) then Throws else Ret (mkRD K N ite lut inv).
(** Lines 18-24: the sizes of the members. *)
Definition rad_start (d : rad) : rad_st :=
  let z := repeat 0%Q (rd_N d) in mkRS z z z z z z (repeat 0%Q (rd_K d)).

(** Lines 168-173 (sign). *)
Definition ra_sign (x : Q) : Z := if qltb 0 x then 1%Z else (-1)%Z.
(** Lines 148-166 (check_node). *)
Definition check_node (a b : Q) : Q :=
  let mag1 := Qabs a in
  let mag2 := Qabs b in
  let resMag := if qltb mag2 mag1 then mag2 else mag1 in
  let resSign := if negb (ra_sign a =? ra_sign b)%Z then (-1)%Z else 1%Z in
  if (resSign =? 1)%Z then resMag else (- resMag)%Q.

(** Lines 100-103: the forward values. *)
Definition ra_forward (N : nat) (Y Td Fw : list Q) : outcome (list Q) :=
  t <- rd Td 0 ;; Fw <- wr Fw 0 t ;;
  for_ (N - 1) (fun k Fw =>
    let i := k + 1 in
    f <- rd Fw (i - 1) ;; y <- rd Y (i - 1) ;; t <- rd Td i ;;
    wr Fw i (check_node (f + y)%Q t)) Fw.
(** Lines 105-109: the backward values; Bw[N - 2] is before the array when N is 1. *)
Definition ra_backward (N : nat) (Y Td Bw : list Q) : outcome (list Q) :=
  if N <? 2 then Undef else
  y <- rd Y (N - 1) ;; t <- rd Td (N - 1) ;; Bw <- wr Bw (N - 2) (check_node y t) ;;
  for_ (N - 2) (fun k Bw =>
    let i := N - 3 - k in
    b <- rd Bw (i + 1) ;; y <- rd Y (i + 1) ;; t <- rd Td (i + 1) ;;
    wr Bw i (check_node (b + y)%Q t)) Bw.
(** Lines 111-115: the extrinsic values. *)
Definition ra_extrinsic (N : nat) (Y Fw Bw Tu : list Q) : outcome (list Q) :=
  b <- rd Bw 0 ;; y <- rd Y 0 ;; Tu <- wr Tu 0 (b + y)%Q ;;
  y1 <- rd Y (N - 1) ;; y2 <- rd Y (N - 2) ;; f <- rd Fw (N - 2) ;; Tu <- wr Tu (N - 1) (check_node y1 (y2 + f)%Q) ;;
  for_ (N - 2) (fun k Tu =>
    let i := k + 1 in
    f <- rd Fw (i - 1) ;; y1 <- rd Y (i - 1) ;; b <- rd Bw i ;; y2 <- rd Y i ;;
    wr Tu i (check_node (f + y1)%Q (b + y2)%Q)) Tu.

(** InterleaverModel.interleave on one frame: out[i] = in[lut[i]]. *)
Definition permute (lut : list nat) (x out : list Q) : outcome (list Q) :=
  for_ (length lut) (fun i o => p <- rd lut i ;; v <- rd x p ;; wr o i v) out.

(** Lines 120-130: the sums of the copies of the bits. *)
Definition ra_combine (K rep : nat) (Wu Wd U : list Q) : outcome (list Q * list Q) :=
  for_ K (fun i '(Wd, U) =>
    tmp <- for_ rep (fun j tmp => w <- rd Wu (i * rep + j) ;; Ret (tmp + w)%Q) 0%Q ;;
    Wd <- for_ rep (fun j Wd => w <- rd Wu (i * rep + j) ;; wr Wd (i * rep + j) (tmp - w)%Q) Wd ;;
    U <- wr U i tmp ;;
    Ret (Wd, U)) (Wd, U).

(** Lines 96-133: one iteration. *)
Definition ra_iter (d : rad) (Y : list Q) (s : rad_st) : outcome rad_st :=
  Fw <- ra_forward (rd_N d) Y (rs_Td s) (rs_Fw s) ;;
  Bw <- ra_backward (rd_N d) Y (rs_Td s) (rs_Bw s) ;;
  Tu <- ra_extrinsic (rd_N d) Y Fw Bw (rs_Tu s) ;;
  Wu <- permute (rd_inv d) Tu (rs_Wu s) ;;
  ' (Wd, U) <- ra_combine (rd_K d) (rd_N d / rd_K d) Wu (rs_Wd s) (rs_U s) ;;
  Td <- permute (rd_lut d) Wd (rs_Td s) ;;
  Ret (mkRS Fw Bw Tu Td Wu Wd U).
(** Lines 79-146 (_decode_siho); hard_decide gives 1 below zero. *)
Definition ra_decode (d : rad) (Y : list Q) (V : list nat) (s : rad_st) : outcome (rad_st * list nat) :=
  ' (Fw, Bw, Td) <- for_ (rd_N d) (fun i '(Fw, Bw, Td) =>
      Fw <- wr Fw i 0%Q ;; Bw <- wr Bw i 0%Q ;; Td <- wr Td i 0%Q ;; Ret (Fw, Bw, Td)) (rs_Fw s, rs_Bw s, rs_Td s) ;;
  s <- for_ (rd_ite d) (fun _ s => ra_iter d Y s) (mkRS Fw Bw (rs_Tu s) Td (rs_Wu s) (rs_Wd s) (rs_U s)) ;;
  V <- for_ (rd_K d) (fun i V => u <- rd (rs_U s) i ;; wr V i (if qltb u 0 then 1 else 0)) V ;;
  Ret (s, V).
