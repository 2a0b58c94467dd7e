(** The encoder of turbo product codes: src/Module/Encoder/Turbo_product/Encoder_turbo_product.cpp.

    Simplifications: bits are booleans. An encoder of the rows or of the columns is a function from the K bits it reads to the
    N bits it writes; [call] is Encoder::encode on one frame (the frame index moves both pointers by K and N bits). One frame of
    the interleaver, whose tables are given (modelled in InterleaverModel.v). *)
From Coq Require Import List Arith Bool.
From Verif Require Import Base.
Import ListNotations.

(** Lines 14-23: the sizes of the encoders of the rows and of the columns, whether a parity bit extends both, and the tables of
    the interleaver. *)
Record tpc := mkTP { tp_Kr : nat; tp_Nr : nat; tp_Kc : nat; tp_Nc : nat; tp_ext : bool; tp_lut : list nat; tp_inv : list nat }.
(** Lines 14-76, and the checks of Encoder (Encoder.hxx 42-62); [fr] and [fc] are the numbers of frames of the two encoders. *)
Definition tpc_new (Kr Nr Kc Nc fr fc : nat) (lut inv : list nat) : outcome tpc :=
  let K := Kr * Kc in
  let N := length lut in
  if (K =? 0) || (N =? 0) || (N <? K) then Throws else
  let ext := N =? (Nr + 1) * (Nc + 1) in
  if negb ext && negb (N =? Nr * Nc) then Throws else
  let par := if ext then 1 else 0 in
  if negb (Nr + par =? fc) then Throws else if negb (Nc + par =? fr) then Throws else Ret (mkTP Kr Nr Kc Nc ext lut inv).
Definition tp_cols (d : tpc) : nat := tp_Nr d + (if tp_ext d then 1 else 0).
Definition tp_rows (d : tpc) : nat := tp_Nc d + (if tp_ext d then 1 else 0).

(** One frame of an encoder: it reads K bits of src from position so on and writes N bits of dst from position d0 on. *)
Definition call (e : list bool -> list bool) (K N : nat) (src : list bool) (so : nat) (dst : list bool) (d0 : nat) : outcome (list bool) :=
  u <- gen K (fun i => rd src (so + i)) ;;
  let x := e u in
  for_ N (fun i dst => b <- rd x i ;; wr dst (d0 + i) b) dst.
(** src/Tools/Perf/compute_parity.h 10-17. *)
Definition tp_parity (x : list bool) (o n : nat) : outcome bool :=
  for_ n (fun i p => b <- rd x (o + i) ;; Ret (xorb p b)) false.
(** The interleaver on one frame: out[i] = in[lut[i]]. *)
Definition tp_permute (lut : list nat) (x out : list bool) : outcome (list bool) :=
  for_ (length lut) (fun i o => p <- rd lut i ;; v <- rd x p ;; wr o i v) out.

(** Lines 110-119 and 132-143: [n] frames of an encoder with a parity bit after each when the code is extended; frame j reads from
    position j * step and writes from position j * (N + par). The pointers move by the offsets X_row_par_off, U_col_M_off and
    X_col_par_off plus j * K and j * N. *)
Definition tp_pass (e : list bool -> list bool) (K N n step : nat) (ext : bool) (src dst : list bool) : outcome (list bool) :=
  let w := N + (if ext then 1 else 0) in
  for_ n (fun j dst =>
    dst <- call e K N src (j * K + j * (step - K)) dst (j * N + (if ext then j else 0)) ;;
    if ext : bool then p <- tp_parity dst (j * w) (w - 1) ;; wr dst ((j + 1) * w - 1) p else Ret dst) dst.
(** Lines 97-160 (_encode): X and the member X_N_i. *)
Definition tpc_encode (er ec : list bool -> list bool) (d : tpc) (U X Xi : list bool) : outcome (list bool * list bool) :=
  Xi <- tp_pass er (tp_Kr d) (tp_Nr d) (tp_Kc d) (tp_Kr d) (tp_ext d) U Xi ;;
  X <- tp_permute (tp_lut d) Xi X ;;
  Xi <- tp_pass ec (tp_Kc d) (tp_Nc d) (tp_cols d) (tp_rows d) (tp_ext d) X Xi ;;
  X <- tp_permute (tp_inv d) Xi X ;;
  Ret (X, Xi).
