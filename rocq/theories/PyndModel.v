(** The Chase-Pyndiah decoder of the component codes of turbo product codes:
    src/Module/Decoder/Turbo_product/Chase_pyndiah/Decoder_chase_pyndiah.cpp.

    Simplifications: bits are booleans; values of type R are rational numbers with no rounding and no overflow, [mx] is
    std::numeric_limits<R>::max(). The hard-input decoder is a function [hd] from the N_np bits it reads to the N_np bits it
    writes and the flag get_last_is_codeword. std::sort is any function [srt]: the order of equal metrics is not specified. The
    members that every call writes before reading them (hard_Y_N, least_reliable_pos, metrics, is_wrong, competitors and
    n_good_competitors) are values and not state. The shifts 1 << n are powers of two with no overflow. *)
From Coq Require Import List Arith Bool QArith Qabs Qround.
From Verif Require Import Base LDPCBPModel.
Import ListNotations.
Local Open Scope nat_scope.

(** Lines 486-552: the candidates, as numbers. *)
Definition cp_table : list nat := [0; 1; 2; 4; 8; 16; 3; 5; 9; 17; 7; 11; 19; 13; 21; 25].
(** Lines 520-548: [i] counts from 0 and candidate i + 1 is written. *)
Definition cp_grow (nl nt : nat) : outcome (list nat) :=
  ' (cand, _, _, _, _) <- for_ (nt - 1) (fun i '(cand, idx, start, mask, flip) =>
    cand <- wr cand (i + 1) (Nat.lor flip mask) ;;
    let idx := idx + 1 in
    let flip := Nat.shiftl flip 1 in
    if nl <=? idx then Ret (cand, start + 1, start + 1, Nat.shiftl mask 1 + 1, Nat.shiftl 1 (start + 1))
    else Ret (cand, idx, start, mask, flip)) (repeat 0 nt, 0, 0, 0, 1) ;;
  Ret cand.
Definition cp_cand (nl nt : nat) : outcome (list nat) :=
  if nt =? 2 ^ nl then Ret (tab nt (fun i => i))
  else if (nt =? 16) && (nl =? 5) then Ret cp_table
  else if nt <=? nl * (nl + 1) / 2 + 1 then cp_grow nl nt
  else Throws.
(** Lines 555-560. *)
Definition cp_patterns (nl nt : nat) : outcome (list (list bool)) :=
  cand <- cp_cand nl nt ;; gen nt (fun i => x <- rd cand i ;; gen nl (fun j => Ret (Nat.testbit x j))).

(** The members set by the constructor. *)
Record cp := mkCP { cp_K : nat; cp_N : nat; cp_np : nat; cp_nl : nat; cp_nt : nat; cp_nc : nat; cp_ext : bool; cp_coef : list Q;
  cp_pos : list nat; cp_pat : list (list bool) }.
(** Lines 23-102; [np] is the size of the hard decoder and [pos] is get_info_bits_pos of the encoder, whose sizes are those of the
    decoder. *)
Definition cp_new (K N np nl nt nc : nat) (coef : list Q) (pos : list nat) : outcome cp :=
  let nt := if nt =? 0 then 2 ^ nl else nt in
  let nc := if nc =? 0 then nt else nc in
  if (nl =? 0) || (np <=? nl) then Throws
  else if (nt =? 0) || (2 ^ nl <? nt) then Throws
  else if (nc =? 0) || (nt <? nc) then Throws
  else if negb (length coef =? 5) then Throws
  else pat <- cp_patterns nl nt ;; Ret (mkCP K N np nl nt nc (N =? np + 1) coef pos pat).

(** Members that calls keep: test_vect, and beta when it is set. *)
Record cp_st := mkCS { cs_tv : list bool; cs_beta : option Q }.
Definition cp_start (d : cp) : cp_st := mkCS (repeat false (cp_nt d * cp_N d)) None.
(** Lines 132-152. *)
Definition cp_set_beta (b : Q) (s : cp_st) : outcome cp_st := if qltb b 0%Q then Throws else Ret (mkCS (cs_tv s) (Some b)).
Definition cp_clear_beta (s : cp_st) : cp_st := mkCS (cs_tv s) None.

(** Lines 288-301: the first entry whose metric is larger, then pop_back and insert. (When this entry is the last one the code
    uses the iterator that pop_back invalidated; it is taken as the end of the vector.) *)
Fixpoint cp_place (v : Q) (l : list (Q * nat)) : option nat :=
  match l with [] => None | x :: r => if qltb v (fst x) then Some 0 else option_map S (cp_place v r) end.
Definition cp_save (v : Q) (i : nat) (l : list (Q * nat)) : list (Q * nat) :=
  match cp_place v l with None => l | Some k => let l := removelast l in firstn k l ++ (v, i) :: skipn k l end.
(** Lines 276-302. *)
Definition cp_find (mx : Q) (d : cp) (Y : list Q) : outcome (list (Q * nat)) :=
  for_ (cp_np d) (fun i l => y <- rd Y i ;; Ret (cp_save (Qabs y) i l)) (repeat (mx, cp_N d) (cp_nl d)).

(** Lines 476-482. *)
Definition cp_flip (d : cp) (lrp : list (Q * nat)) (c : nat) (h : list bool) : outcome (list bool) :=
  for_ (cp_nl d) (fun i h =>
    e <- rd lrp i ;; p <- rd (cp_pat d) c ;; b <- rd p i ;; x <- rd h (snd e) ;; wr h (snd e) (if b : bool then negb x else x)) h.
(** src/Tools/Perf/compute_parity.h 10-17. *)
Definition cp_parity (x : list bool) (o n : nat) : outcome bool := for_ n (fun i p => b <- rd x (o + i) ;; Ret (xorb p b)) false.
(** Lines 303-332: hard_Y_N, test_vect and is_wrong. *)
Definition cp_vectors (hd : list bool -> list bool * bool) (d : cp) (lrp : list (Q * nat)) (h tv : list bool) : outcome (list bool * list bool * list bool) :=
  for_ (cp_nt d) (fun c '(h, tv, wrong) =>
    h <- cp_flip d lrp c h ;;
    w <- gen (cp_np d) (fun i => rd h i) ;;
    let (x, ok) := hd w in
    tv <- for_ (cp_np d) (fun i tv => b <- rd x i ;; wr tv (c * cp_N d + i) b) tv ;;
    wrong <- wr wrong c (negb ok) ;;
    tv <- (if cp_ext d then p <- cp_parity tv (c * cp_N d) (cp_np d) ;; wr tv ((c + 1) * cp_N d - 1) p else Ret tv) ;;
    h <- cp_flip d lrp c h ;;
    Ret (h, tv, wrong)) (h, tv, repeat false (cp_nt d)).
(** Lines 334-366: the metrics and the number of good competitors. *)
Definition cp_metrics (mx : Q) (d : cp) (Y : list Q) (h tv wrong : list bool) : outcome (list Q * nat) :=
  for_ (cp_nt d) (fun c '(m, good) =>
    w <- rd wrong c ;;
    if w : bool then m <- wr m c (mx / 2)%Q ;; Ret (m, good) else
    m <- for_ (cp_N d) (fun i m =>
      a <- rd h i ;; b <- rd tv (c * cp_N d + i) ;;
      if xorb a b then y <- rd Y i ;; x <- rd m c ;; wr m c (x + Qabs y)%Q else Ret m) m ;;
    Ret (m, good + 1)) (repeat 0%Q (cp_nt d), 0).
(** Lines 201-273 and 358-365 (decode_chase): least_reliable_pos, test_vect, the competitors and the number of good ones. *)
Definition cp_chase (srt : list (Q * nat) -> list (Q * nat)) (hd : list bool -> list bool * bool) (mx : Q) (d : cp) (Y : list Q) (s : cp_st) :
    outcome (list (Q * nat) * list bool * list (Q * nat) * nat) :=
  h <- gen (cp_N d) (fun i => y <- rd Y i ;; Ret (neg y)) ;;
  lrp <- cp_find mx d Y ;;
  ' (h, tv, wrong) <- cp_vectors hd d lrp h (cs_tv s) ;;
  ' (m, good) <- cp_metrics mx d Y h tv wrong ;;
  comp <- gen (cp_nt d) (fun c => x <- rd m c ;; Ret (x, c * cp_N d)) ;;
  Ret (lrp, tv, srt comp, good).

(** Lines 154-167 and 169-180: _decode_siho and _decode_siho_cw. *)
Definition cp_siho srt hd (mx : Q) (d : cp) (Y : list Q) (s : cp_st) : outcome (cp_st * list bool) :=
  ' (_, tv, comp, _) <- cp_chase srt hd mx d Y s ;;
  dw <- rd comp 0 ;;
  V <- gen (cp_K d) (fun j => p <- rd (cp_pos d) j ;; rd tv (snd dw + p)) ;;
  Ret (mkCS tv (cs_beta s), V).
Definition cp_siho_cw srt hd (mx : Q) (d : cp) (Y : list Q) (s : cp_st) : outcome (cp_st * list bool) :=
  ' (_, tv, comp, _) <- cp_chase srt hd mx d Y s ;;
  dw <- rd comp 0 ;;
  V <- gen (cp_N d) (fun i => rd tv (snd dw + i)) ;;
  Ret (mkCS tv (cs_beta s), V).

(** Lines 439-443: the first competitor from j on whose bit i differs, or the number of competitors. *)
Fixpoint cp_other (cnt j : nat) (tv : list bool) (comp : list (Q * nat)) (i : nat) (db : bool) : outcome nat :=
  match cnt with
  | 0 => Ret j
  | S cnt => e <- rd comp j ;; b <- rd tv (snd e + i) ;; if xorb b db then Ret j else cp_other cnt (j + 1) tv comp i db
  end.
(** (int)cp_coef[4]: truncated towards zero; a negative sum bound gives an empty sum. *)
Definition cp_int (q : Q) : nat := Z.to_nat (Qfloor q).
(** Lines 404-472. *)
Definition cp_reliability (d : cp) (beta : option Q) (lrp : list (Q * nat)) (tv : list bool) (comp : list (Q * nat)) (good : nat) (Y : list Q) : outcome (list Q) :=
  dw <- rd comp 0 ;;
  ca <- rd (cp_coef d) 0 ;; cb <- rd (cp_coef d) 1 ;; cc <- rd (cp_coef d) 2 ;; cd <- rd (cp_coef d) 3 ;; ce <- rd (cp_coef d) 4 ;;
  ba <- match beta with
        | Some b => Ret b
        | None =>
          let n := if Qeq_bool ce 0%Q then cp_nl d else Nat.min (cp_int ce) (cp_nl d) in
          x <- for_ n (fun i x => e <- rd lrp i ;; Ret (x + fst e)%Q) 0%Q ;; Ret (x - cc * fst dw)%Q
        end ;;
  let good := Nat.min good (cp_nc d) in
  comp <- for_ (good - 1) (fun k comp => e <- rd comp (k + 1) ;; wr comp (k + 1) (((fst e - fst dw) * cb)%Q, snd e)) comp ;;
  gen (cp_N d) (fun i =>
    db <- rd tv (snd dw + i) ;;
    y <- rd Y i ;;
    j <- cp_other (good - 1) 1 tv comp i db ;;
    r <- (if j <? good then e <- rd comp j ;; Ret (fst e) else
          match beta with Some b => Ret b | None => let r := (ba + cd * Qabs y)%Q in Ret (if qltb r 0%Q then 0%Q else r) end) ;;
    Ret ((if db : bool then - r else r) - ca * y)%Q).
(** Lines 182-199. *)
Definition cp_siso srt hd (mx : Q) (d : cp) (Y : list Q) (s : cp_st) : outcome (cp_st * list Q) :=
  ' (lrp, tv, comp, good) <- cp_chase srt hd mx d Y s ;;
  Y2 <- cp_reliability d (cs_beta s) lrp tv comp good Y ;;
  Ret (mkCS tv (cs_beta s), Y2).
