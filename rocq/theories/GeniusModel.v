(** The genius decoders: they compare with the codeword that the encoder keeps.
    src/Module/Decoder/BCH/Genius/Decoder_BCH_genius.cpp, src/Module/Decoder/RS/Genius/Decoder_RS_genius.cpp, the memory of
    include/Module/Encoder/Encoder.hxx, and the dispatch of the tasks in Decoder_HIHO.hxx and Decoder_SIHO.hxx.

    One frame per wave. Hard decisions and Hamming distances are those of HardModel.v and DistModel.v. *)
From Coq Require Import List Arith Bool ZArith.
From Verif Require Import Base Copy GaloisModel DistModel HardModel RSModel.
Import ListNotations.
Local Open Scope nat_scope.

(** memorizing and X_N_mem (U_K_mem is not read by the decoders); the number of frames is the length of X_N_mem. *)
Record enc_mem := mkEM { em_on : bool; em_X : list (list Z) }.
(** After the constructor of an encoder: Encoder.hxx 29-39. *)
Definition em_new (n_frames : nat) : enc_mem := mkEM false (repeat [] n_frames).
(** Encoder.hxx set_memorizing. *)
Definition em_memorize (on : bool) (N : nat) (e : enc_mem) : outcome enc_mem :=
  if on then
    x0 <- rd (em_X e) 0 ;;
    Ret (mkEM true (if length x0 =? 0 then repeat (repeat 0%Z N) (length (em_X e)) else em_X e))
  else Ret (mkEM false (em_X e)).
(** Encoder.hxx, codelet of the task encode, frame f: enc is _encode. *)
Definition em_encode (enc : list Z -> list Z -> outcome (list Z)) (N f : nat) (u x : list Z) (e : enc_mem) : outcome (list Z * enc_mem) :=
  x <- enc u x ;;
  if em_on e then m <- rd (em_X e) f ;; m <- copy x 0 N m 0 ;; X <- wr (em_X e) f m ;; Ret (x, mkEM true X)
  else Ret (x, e).
(** Encoder.hxx get_X_N. *)
Definition em_get (f : nat) (e : enc_mem) : outcome (list Z) := rd (em_X e) (f mod length (em_X e)).

Section Genius.
Variables (R : Type) (lt0 sgn : R -> bool) (one : R) (mone : R).  (* the type of the values, 1 and -1 *)
Variables (E : nat) (w : Z) (lanes : option nat).                 (* registers of hard_decide; B has w bits; registers of distance *)

Record bg := mkBG { bg_K : nat; bg_N : nat; bg_t : nat }.
(** YH_N, last_is_codeword and the Y_N of Decoder_SIHO. *)
Record bg_st := mkBS { bs_yh : list Z; bs_last : list bool; bs_Y : list R }.
(** Decoder_BCH_genius.cpp 13-29, Decoder_BCH.cpp 11-26, Decoder.hxx (sizes). *)
Definition bg_new (K N t : nat) (e : enc_mem) : outcome (bg * bg_st) :=
  if (K =? 0) || (N =? 0) || (N <? K) then Throws
  else if K <=? 3 then Throws
  else if negb (em_on e) then Throws
  else Ret (mkBG K N t, mkBS (repeat 0%Z N) (repeat false (length (em_X e))) (repeat one N)).
(** Decoder_BCH_genius.cpp 38-54 (_decode_hiho: off = N - K, len = K) and 57-73 (_decode_hiho_cw: off = 0, len = N). *)
Definition bg_compare (d : bg) (e : enc_mem) (f off len : nat) (y v : list Z) (last : list bool) : outcome (list Z * list bool) :=
  X <- em_get f e ;;
  n <- hamming w lanes false X (Some y) (bg_N d) ;;
  let ok := (cast 32 n <=? Z.of_nat (bg_t d))%Z in
  v <- (if ok then copy X off len v 0 else copy y off len v 0) ;;
  last <- wr last f ok ;;
  Ret (v, last).
(** Decoder_BCH_genius.cpp 76-96 (_decode_siho, _decode_siho_cw) called by Decoder_SIHO.hxx 215-222, 231-238, which clear CWD. *)
Definition bg_soft (d : bg) (e : enc_mem) (f off len : nat) (y : list R) (cwd v : list Z) (s : bg_st) : outcome (list Z * list Z * bg_st) :=
  yh <- hard_decide R lt0 sgn E y (bg_N d) (bs_yh s) ;;
  '(v, last) <- bg_compare d e f off len yh v (bs_last s) ;;
  cwd <- fill cwd 0 1 0%Z ;;
  Ret (cwd, v, mkBS yh last (bs_Y s)).
(** Decoder_SIHO.hxx 247-263 (_decode_hiho and _decode_hiho_cw with CWD). *)
Definition bg_hard (d : bg) (e : enc_mem) (f off len : nat) (y : list Z) (cwd v : list Z) (s : bg_st) : outcome (list Z * list Z * bg_st) :=
  Y <- for_ (bg_N d) (fun i Y => b <- rd y i ;; wr Y i (if (b =? 0)%Z then one else mone)) (bs_Y s) ;;
  bg_soft d e f off len Y cwd v (mkBS (bs_yh s) (bs_last s) Y).
(** The four tasks. *)
Definition bg_siho (d : bg) e f y cwd v s := bg_soft d e f (bg_N d - bg_K d) (bg_K d) y cwd v s.
Definition bg_siho_cw (d : bg) e f y cwd v s := bg_soft d e f 0 (bg_N d) y cwd v s.
Definition bg_hiho (d : bg) e f y cwd v s := bg_hard d e f (bg_N d - bg_K d) (bg_K d) y cwd v s.
Definition bg_hiho_cw (d : bg) e f y cwd v s := bg_hard d e f 0 (bg_N d) y cwd v s.

(** Decoder_RS.cpp 42-148: the functions with CWD are not overridden by Decoder_RS_genius (its functions have no CWD), and they call
    _decode, which is Decoder_RS_genius.cpp 33-38. N is in symbols of m bits; yb and ys are YH_Nb and YH_N. *)
Definition rg_decode (ys : list Z) : outcome (list Z) := Throws.
Definition rg_hard (wn m N : nat) (y ys : list Z) : outcome (list Z) :=
  ys <- rs_pack wn m y ys (N * m) ;; rg_decode ys.
Definition rg_soft (wn m N : nat) (y : list R) (yb ys : list Z) : outcome (list Z) :=
  yb <- hard_decide R lt0 sgn E y (N * m) yb ;; ys <- rs_pack wn m yb ys (N * m) ;; rg_decode ys.
End Genius.
