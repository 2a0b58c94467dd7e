(** The decoder of turbo product codes: src/Module/Decoder/Turbo_product/Decoder_turbo_product.cpp.

    Simplifications: values of type R are rational numbers with no rounding and no overflow. A component decoder is a set of
    functions: decode_siso from beta (None when it is not set) and the values of a line to the soft output, decode_siho and
    decode_siho_cw from the values of a line to its K information bits or its N bits (the Chase-Pyndiah decoder is modelled in
    PyndModel.v). One frame; the component decoders have a frame for each line they decode (frame j moves the pointers by j * N or
    j * K). The tables of the interleaver are given (modelled in InterleaverModel.v). *)
From Coq Require Import List Arith Bool QArith.
From Verif Require Import Base LDPCBPModel.
Import ListNotations.
Local Open Scope nat_scope.

(** The sizes of the decoders of the lines (r) and of the columns (c), and the other members. *)
Record tpd := mkTD { td_Kr : nat; td_Nr : nat; td_Kc : nat; td_Nc : nat; td_ite : nat; td_alpha : list Q; td_beta : list Q;
  td_lut : list nat; td_inv : list nat; td_pos : list nat }.
(** Lines 11-110, with the checks of Decoder.hxx on K and N; pos is get_info_bits_pos of the decoder of the columns. *)
Definition tpd_new (n_ite : nat) (alpha beta : list Q) (Kr Nr Kc Nc : nat) (pos lut inv : list nat) : outcome tpd :=
  let K := Kr * Kc in
  let N := length lut in
  if (K =? 0) || (N =? 0) || (N <? K) then Throws
  else if n_ite =? 0 then Throws
  else if negb (n_ite * 2 =? length alpha) then Throws
  else if negb (n_ite * 2 =? length beta) && negb (length beta =? 0) then Throws
  else if negb (N =? Nr * Nc) then Throws
  else Ret (mkTD Kr Nr Kc Nc n_ite alpha beta lut inv pos).

(** The buffers Y_N_i, Y_N_pi, V_K_i, V_N_i and Y_N_cha_i, and the beta of the two component decoders. *)
Record tpd_st := mkTS { ts_Y : list Q; ts_P : list Q; ts_VK : list bool; ts_VN : list bool; ts_C : list Q; ts_br : option Q; ts_bc : option Q }.
(** After the constructor; br and bc are those of the decoders given to it, cleared in lines 103-107. *)
Definition tpd_start (d : tpd) (br bc : option Q) : tpd_st :=
  let N := length (td_lut d) in
  let b (x : option Q) := if length (td_beta d) =? 0 then x else None in
  mkTS (repeat 0%Q N) (repeat 0%Q N) (repeat false (td_Kr d * td_Kc d)) (repeat false N) (repeat 0%Q N) (b br) (b bc).

(** Interleaver: out[i] = in[lut[i]]. *)
Definition permute {A} (lut : list nat) (x out : list A) : outcome (list A) :=
  for_ (length lut) (fun i o => p <- rd lut i ;; v <- rd x p ;; wr o i v) out.
(** One line of n values from position o on through a component decoder, with m results written from position q on. *)
Definition through {A B} (f : list A -> list B) (n m : nat) (src : list A) (o : nat) (dst : list B) (q : nat) : outcome (list B) :=
  u <- gen n (fun i => rd src (o + i)) ;;
  let x := f u in
  for_ m (fun i dst => v <- rd x i ;; wr dst (q + i) v) dst.
(** Lines 226-238 and 246-258: cnt lines of n values are decoded in place, scaled by alpha, and the channel values are added. *)
Definition half (f : list Q -> list Q) (n cnt : nat) (alpha : Q) (cha buf : list Q) : outcome (list Q) :=
  for_ cnt (fun j buf =>
    buf <- through f n n buf (j * n) buf (j * n) ;;
    for_ n (fun i buf => x <- rd buf (j * n + i) ;; c <- rd cha (j * n + i) ;; wr buf (j * n + i) (x * alpha + c)%Q) buf) buf.
(** Lines 219-223: set_beta refuses a negative value. *)
Definition next_beta (l : list Q) (k : nat) (old : option Q) : outcome (option Q) :=
  if length l =? 0 then Ret old else b <- rd l k ;; if qltb b 0%Q then Throws else Ret (Some b).

Section Decode.
Variables (sr sc : option Q -> list Q -> list Q) (hr hw : list Q -> list bool).
(** What _decode gives: information bits, codeword or soft values (return_K_siso). *)
Inductive mode := ToK | ToN | Soft.
(** Lines 215-275: iteration i. *)
Definition tpd_iter (d : tpd) (m : mode) (cha : list Q) (i : nat) (s : tpd_st) : outcome tpd_st :=
  P <- permute (td_lut d) (ts_Y s) (ts_P s) ;;
  bc <- next_beta (td_beta d) (2 * i) (ts_bc s) ;;
  br <- next_beta (td_beta d) (2 * i + 1) (ts_br s) ;;
  ac <- rd (td_alpha d) (2 * i) ;;
  P <- half (sc bc) (td_Nc d) (td_Nr d) ac (ts_C s) P ;;
  Y <- permute (td_inv d) P (ts_Y s) ;;
  match (if i <? td_ite d - 1 then Soft else m) with
  | Soft =>
    ar <- rd (td_alpha d) (2 * i + 1) ;;
    Y <- half (sr br) (td_Nr d) (td_Nc d) ar cha Y ;;
    Ret (mkTS Y P (ts_VK s) (ts_VN s) (ts_C s) br bc)
  | ToK =>
    V <- for_ (td_Kc d) (fun j V => pos <- rd (td_pos d) j ;; through hr (td_Nr d) (td_Kr d) Y (pos * td_Nr d) V (j * td_Kr d)) (ts_VK s) ;;
    Ret (mkTS Y P V (ts_VN s) (ts_C s) br bc)
  | ToN =>
    V <- for_ (td_Nr d) (fun j V => through hw (td_Nr d) (td_Nr d) Y (j * td_Nr d) V (j * td_Nr d)) (ts_VN s) ;;
    Ret (mkTS Y P (ts_VK s) V (ts_C s) br bc)
  end.
(** Lines 133-211 and 278: the channel values are copied to Y_N_i and interleaved, then the iterations. *)
Definition tpd_decode (d : tpd) (m : mode) (cha : list Q) (s : tpd_st) : outcome tpd_st :=
  Y <- gen (length (td_lut d)) (fun i => rd cha i) ;;
  C <- permute (td_lut d) cha (ts_C s) ;;
  for_ (td_ite d) (tpd_iter d m cha) (mkTS Y (ts_P s) (ts_VK s) (ts_VN s) C (ts_br s) (ts_bc s)).
(** _decode_siso, _decode_siho and _decode_siho_cw. *)
Definition tpd_siso (d : tpd) (cha : list Q) (s : tpd_st) : outcome (tpd_st * list Q) := s <- tpd_decode d Soft cha s ;; Ret (s, ts_Y s).
Definition tpd_siho (d : tpd) (cha : list Q) (s : tpd_st) : outcome (tpd_st * list bool) := s <- tpd_decode d ToK cha s ;; Ret (s, ts_VK s).
Definition tpd_siho_cw (d : tpd) (cha : list Q) (s : tpd_st) : outcome (tpd_st * list bool) := s <- tpd_decode d ToN cha s ;; Ret (s, ts_VN s).
End Decode.
