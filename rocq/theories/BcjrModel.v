(** Model of the generic BCJR decoder of the recursive systematic convolutional codes:
    include/Module/Decoder/RSC/BCJR/Decoder_RSC_BCJR.hxx and
    include/Module/Decoder/RSC/BCJR/Seq_generic/Decoder_RSC_BCJR_seq_generic{,_std}.hxx, one
    frame per wave.

    The number type is abstract: [add], [sub] and [imul] (a number times an int) are its
    operations, exact: overflows and roundings are not modelled.  [mx] is the template
    parameters MAX1 and MAX2 (RD is taken equal to R).  [half] is
    RSC_BCJR_seq_generic_div_or_not, [post] is RSC_BCJR_seq_generic_post and [nrm] tells at
    which indexes RSC_BCJR_seq_generic_normalize subtracts the first metric; the saturations of
    the 8-bit specialisation are not modelled. *)
From Coq Require Import List Arith ZArith Bool.
From Verif Require Import Base Copy.
Import ListNotations.

(** m[r][c] and m[r][c] = x *)
Definition mrd {A} (m : list (list A)) (r c : nat) : outcome A := row <- rd m r ;; rd row c.
Definition mwr {A} (m : list (list A)) (r c : nat) (x : A) : outcome (list (list A)) :=
  row <- rd m r ;; row <- wr row c x ;; wr m r row.

Section Bcjr.
Variable T : Type.
Variables (zero neg : T) (add sub : T -> T -> T) (imul : Z -> T -> T) (mx : T -> T -> T).
Variables (half post : T -> T) (nrm : nat -> bool).

(** The members of Decoder_RSC_BCJR_seq_generic_std: alpha, beta, gamma, beta_prev, beta_cur. *)
Record bcjr := { b_alpha : list (list T); b_beta : list (list T); b_gamma : list (list T); b_prev : list T; b_cur : list T }.

(** Decoder_RSC_BCJR_seq_generic.hxx 83-99 (the constructor), 14-58 (the initial values; [neg]
    is -max() or -(1 << 14)) and Decoder_RSC_BCJR_seq_generic_std.hxx 15-25; [S] is n_states
    and [L] is K + n_ff. *)
Definition bcjr_init (S L : nat) : bcjr :=
  {| b_alpha := tab S (fun j => tab (L + 1) (fun i => if i =? L then neg else if i =? 0 then (if j =? 0 then zero else neg) else zero));
     b_beta := tab S (fun j => tab (L + 1) (fun i => if i =? 0 then neg else if i =? L then (if j =? 0 then zero else neg) else zero));
     b_gamma := repeat (repeat zero L) 2;
     b_prev := repeat zero S; b_cur := repeat zero S |}.

(** The trellis, see ConvModel.get_trellis; [idx] reads an entry used as an index. *)
Variable t : list (list Z).
Definition idx (r j : nat) : outcome nat := v <- mrd t r j ;; if (v <? 0)%Z then Undef else Ret (Z.to_nat v).
(** n_states, K and n_ff. *)
Variables (NS K n_ff : nat).

(** Decoder_RSC_BCJR_seq_generic_std.hxx 36-48 (compute_gamma). *)
Definition compute_gamma (sys par : list T) (gamma : list (list T)) : outcome (list (list T)) :=
  for_ (K + n_ff) (fun i gamma =>
    s <- rd sys i ;; p <- rd par i ;;
    gamma <- mwr gamma 0 i (half (add s p)) ;;
    mwr gamma 1 i (half (sub s p))) gamma.

(** Decoder_RSC_BCJR_seq_generic.hxx 157-196 (normalisation of a column of a matrix and of an
    array). *)
Definition normalize_col (m : list (list T)) (i : nat) : outcome (list (list T)) :=
  if nrm i then
    v <- mrd m 0 i ;;
    for_ NS (fun j m => x <- mrd m j i ;; mwr m j i (sub x v)) m
  else Ret m.
Definition normalize_arr (a : list T) (i : nat) : outcome (list T) :=
  if nrm i then
    v <- rd a 0 ;;
    for_ NS (fun j a => x <- rd a j ;; wr a j (sub x v)) a
  else Ret a.

(** Decoder_RSC_BCJR_seq_generic_std.hxx 50-64 (compute_alpha). *)
Definition compute_alpha (gamma alpha : list (list T)) : outcome (list (list T)) :=
  for_from 1 (K + n_ff - 1) (fun i alpha =>
    alpha <- for_ NS (fun j alpha =>
      s <- idx 0 j ;; a <- mrd alpha s (i - 1) ;; sg <- mrd t 1 j ;; k <- idx 2 j ;; g <- mrd gamma k (i - 1) ;;
      s' <- idx 3 j ;; a' <- mrd alpha s' (i - 1) ;; sg' <- mrd t 4 j ;; k' <- idx 5 j ;; g' <- mrd gamma k' (i - 1) ;;
      mwr alpha j i (mx (add a (imul sg g)) (add a' (imul sg' g')))) alpha ;;
    normalize_col alpha i) alpha.

(** The two branches leaving state [j] at time [i], given the backward metrics [b] of the next
    time: beta[trellis[6][j]] + gamma[trellis[7][j]][i] and
    beta[trellis[8][j]] - gamma[trellis[9][j]][i]. *)
Definition branch0 (gamma : list (list T)) (b : nat -> outcome T) (i j : nat) : outcome T :=
  s <- idx 6 j ;; b0 <- b s ;; k <- idx 7 j ;; g <- mrd gamma k i ;; Ret (add b0 g).
Definition branch1 (gamma : list (list T)) (b : nat -> outcome T) (i j : nat) : outcome T :=
  s <- idx 8 j ;; b1 <- b s ;; k <- idx 9 j ;; g <- mrd gamma k i ;; Ret (sub b1 g).

(** Decoder_RSC_BCJR_seq_generic_std.hxx 66-80 (compute_beta). *)
Definition compute_beta (gamma beta : list (list T)) : outcome (list (list T)) :=
  for_ (K + n_ff - 1) (fun k beta =>
    let i := K + n_ff - 1 - k in
    beta <- for_ NS (fun j beta =>
      x <- branch0 gamma (fun s => mrd beta s (i + 1)) i j ;;
      y <- branch1 gamma (fun s => mrd beta s (i + 1)) i j ;;
      mwr beta j i (mx x y)) beta ;;
    normalize_col beta i) beta.

(** alpha[j][i] + beta[...] + gamma[...][i] and alpha[j][i] + beta[...] - gamma[...][i], in the
    order of the additions of the code. *)
Definition through0 (alpha gamma : list (list T)) (b : nat -> outcome T) (i j : nat) : outcome T :=
  a <- mrd alpha j i ;; s <- idx 6 j ;; b0 <- b s ;; k <- idx 7 j ;; g <- mrd gamma k i ;; Ret (add (add a b0) g).
Definition through1 (alpha gamma : list (list T)) (b : nat -> outcome T) (i j : nat) : outcome T :=
  a <- mrd alpha j i ;; s <- idx 8 j ;; b1 <- b s ;; k <- idx 9 j ;; g <- mrd gamma k i ;; Ret (sub (add a b1) g).

(** One of the two loops over the states that update max0 and max1, lines 147-155 (r = 1) and
    157-165 (r = 4); also 92-100, 102-110, 192-200 and 202-210. *)
Definition ext_pass (r lo : nat) (alpha gamma : list (list T)) (b : nat -> outcome T) (i : nat) (m : T * T) : outcome (T * T) :=
  for_from lo (NS - lo) (fun j m =>
    sg <- mrd t r j ;;
    if (sg =? 1)%Z then x <- through0 alpha gamma b i j ;; Ret (mx (fst m) x, snd m)
    else x <- through1 alpha gamma b i j ;; Ret (fst m, mx (snd m) x)) m.

(** The update of the backward metrics, lines 125-133 and 170-178; the state is
    (beta_prev, beta_cur). *)
Definition beta_step (gamma : list (list T)) (i : nat) (st : list T * list T) : outcome (list T * list T) :=
  let (prev, cur) := st in
  cur <- for_ NS (fun j cur =>
    x <- branch0 gamma (rd prev) i j ;; y <- branch1 gamma (rd prev) i j ;; wr cur j (mx x y)) cur ;;
  cur <- normalize_arr cur i ;;
  prev <- for_ NS (fun j prev => x <- rd cur j ;; wr prev j x) prev ;;
  Ret (prev, cur).

(** Decoder_RSC_BCJR_seq_generic_std.hxx 116-180 (compute_beta_ext). *)
Definition compute_beta_ext (sys : list T) (alpha gamma : list (list T)) (prev cur ext : list T) : outcome (list T * list T * list T) :=
  prev <- for_ NS (fun j prev => x <- mrd alpha j 0 ;; wr prev j x) prev ;;
  st <- for_ n_ff (fun k st => beta_step gamma (K + n_ff - 1 - k) st) (prev, cur) ;;
  for_ K (fun k st =>
    let '(prev, cur, ext) := st in
    let i := K - 1 - k in
    m0 <- through0 alpha gamma (rd prev) i 0 ;;
    m1 <- through1 alpha gamma (rd prev) i 0 ;;
    m <- ext_pass 1 1 alpha gamma (rd prev) i (m0, m1) ;;
    m <- ext_pass 4 1 alpha gamma (rd prev) i m ;;
    s <- rd sys i ;;
    ext <- wr ext i (sub (post (sub (fst m) (snd m))) s) ;;
    '(prev, cur) <- beta_step gamma i (prev, cur) ;;
    Ret (prev, cur, ext)) (st, ext).

(** Decoder_RSC_BCJR_seq_generic_std.hxx 272-283 (_decode_siso_alt): the decoder afterwards and
    the array ext. *)
Definition decode_siso_alt (d : bcjr) (sys par ext : list T) : outcome (bcjr * list T) :=
  gamma <- compute_gamma sys par (b_gamma d) ;;
  alpha <- compute_alpha gamma (b_alpha d) ;;
  '(prev, cur, ext) <- compute_beta_ext sys alpha gamma (b_prev d) (b_cur d) ext ;;
  Ret ({| b_alpha := alpha; b_beta := b_beta d; b_gamma := gamma; b_prev := prev; b_cur := cur |}, ext).

(** Decoder_RSC_BCJR_seq_generic_std.hxx 182-214 (compute_ext_sys; [neg] is -max(); for the
    16-bit integers that is not the value of the constructor, so their decode_siso is modelled
    only up to its effect on the members). *)
Definition compute_ext_sys (sys : list T) (alpha beta gamma : list (list T)) (o : nat) (ext : list T) : outcome (list T) :=
  for_ (K + n_ff) (fun i ext =>
    m <- ext_pass 1 0 alpha gamma (fun s => mrd beta s (i + 1)) i (neg, neg) ;;
    m <- ext_pass 4 0 alpha gamma (fun s => mrd beta s (i + 1)) i m ;;
    s <- rd sys i ;; wr ext (o + i) (sub (post (sub (fst m) (snd m))) s)) ext.

(** Lines 226-245 (r = 1) and 247-266 (r = 4). *)
Definition par_pass (r : nat) (alpha gamma : list (list T)) (b : nat -> outcome T) (i : nat) (m : T * T) : outcome (T * T) :=
  for_ NS (fun j m =>
    sg <- mrd t r j ;; g0 <- mrd t 7 j ;; g1 <- mrd t 9 j ;;
    if (sg =? 1)%Z && (g0 =? 0)%Z then x <- through0 alpha gamma b i j ;; Ret (mx (fst m) x, snd m)
    else if (sg =? 1)%Z && (g0 =? 1)%Z then x <- through0 alpha gamma b i j ;; Ret (fst m, mx (snd m) x)
    else if (sg =? -1)%Z && (g1 =? 1)%Z then x <- through1 alpha gamma b i j ;; Ret (mx (fst m) x, snd m)
    else if (sg =? -1)%Z && (g1 =? 0)%Z then x <- through1 alpha gamma b i j ;; Ret (fst m, mx (snd m) x)
    else Ret m) m.
(** Decoder_RSC_BCJR_seq_generic_std.hxx 216-270 (compute_ext_par). *)
Definition compute_ext_par (par : list T) (alpha beta gamma : list (list T)) (o : nat) (ext : list T) : outcome (list T) :=
  for_ (K + n_ff) (fun i ext =>
    m <- par_pass 1 alpha gamma (fun s => mrd beta s (i + 1)) i (neg, neg) ;;
    m <- par_pass 4 alpha gamma (fun s => mrd beta s (i + 1)) i m ;;
    s <- rd par i ;; wr ext (o + i) (sub (post (sub (fst m) (snd m))) s)) ext.

(** Decoder_RSC_BCJR_seq_generic_std.hxx 285-304 (_decode_siso). *)
Definition decode_siso (buffered : bool) (d : bcjr) (Y1 Y2 : list T) : outcome (bcjr * list T) :=
  _ <- guard buffered ;;
  let sys := firstn (K + n_ff) Y1 in
  let par := skipn (K + n_ff) Y1 in
  gamma <- compute_gamma sys par (b_gamma d) ;;
  alpha <- compute_alpha gamma (b_alpha d) ;;
  beta <- compute_beta gamma (b_beta d) ;;
  Y2 <- compute_ext_sys sys alpha beta gamma 0 Y2 ;;
  Y2 <- compute_ext_par par alpha beta gamma (K + n_ff) Y2 ;;
  Ret ({| b_alpha := alpha; b_beta := beta; b_gamma := gamma; b_prev := b_prev d; b_cur := b_cur d |}, Y2).

(** Decoder_RSC_BCJR.hxx 74-116 (_load) for one frame per wave: the members sys and par (their
    padding is left out); tail / 2 = n_ff. *)
Definition load (buffered : bool) (Y sys par : list T) : outcome (list T * list T) :=
  if buffered then
    sys <- copy Y 0 (K + n_ff) sys 0 ;;
    par <- copy Y (K + n_ff) K par 0 ;;
    Ret (sys, par)
  else
    for_ (K + n_ff) (fun i (st : list T * list T) =>
      let (sys, par) := st in
      x <- rd Y (i * 2 + 0) ;; sys <- wr sys i x ;;
      y <- rd Y (i * 2 + 1) ;; par <- wr par i y ;;
      Ret (sys, par)) (sys, par).

(** Decoder_RSC_BCJR.hxx 118-151 (_decode_siho) and 153-160 (_store): [isneg] is the sign bit;
    [m] is (sys, par, ext, s), the members of Decoder_RSC_BCJR. *)
Variable isneg : T -> bool.
Definition decode_siho (buffered : bool) (d : bcjr) (m : list T * list T * list T * list nat) (Y : list T) (V : list nat)
  : outcome (bcjr * (list T * list T * list T * list nat) * list nat) :=
  let '(sys, par, ext, s) := m in
  '(sys, par) <- load buffered Y sys par ;;
  '(d, ext) <- decode_siso_alt d sys par ext ;;
  s <- for_ K (fun i (s : list nat) => e <- rd ext i ;; x <- rd sys i ;; wr s i (Nat.b2n (isneg (add e x)))) s ;;
  V <- copy s 0 K V 0 ;;
  Ret (d, (sys, par, ext, s), V).

(** The constructor of Decoder_RSC_BCJR, Decoder_RSC_BCJR.hxx 19-31, then any calls that
    return: the states of a decoder and of the members (sys, par, ext, s). *)
Inductive reached (buffered : bool) : bcjr -> list T * list T * list T * list nat -> Prop :=
| reached_init : reached buffered (bcjr_init NS (K + n_ff)) (repeat zero (K + n_ff), repeat zero (K + n_ff), repeat zero K, repeat 0 K)
| reached_alt : forall d m sys par ext d' ext', reached buffered d m ->
    K + n_ff <= length sys -> K + n_ff <= length par -> K <= length ext ->
    decode_siso_alt d sys par ext = Ret (d', ext') -> reached buffered d' m
| reached_siso : forall d m Y1 Y2 d' Y2', reached buffered d m ->
    2 * (K + n_ff) <= length Y1 -> 2 * (K + n_ff) <= length Y2 ->
    decode_siso buffered d Y1 Y2 = Ret (d', Y2') -> reached buffered d' m
| reached_siho : forall d m Y V d' m' V', reached buffered d m ->
    2 * (K + n_ff) <= length Y -> K <= length V ->
    decode_siho buffered d m Y V = Ret (d', m', V') -> reached buffered d' m'.
End Bcjr.

(** The decoder of 16-bit integers, without overflow: neg is -(1 << 14), gamma is not halved,
    the posterior is, every eighth column is normalised (Decoder_RSC_BCJR_seq_generic.hxx
    44-58, 110-120, 148-155, 177-196); Z.max is tools::max. *)
Definition short_nrm (i : nat) : bool := i mod 8 =? 0.
Definition short_alt := decode_siso_alt Z Z.add Z.sub Z.mul Z.max (fun x => x) (fun x => x / 2)%Z short_nrm.
Definition short_siho := decode_siho Z Z.add Z.sub Z.mul Z.max (fun x => x) (fun x => x / 2)%Z short_nrm.
Definition short_reached t NS K n_ff := reached Z 0%Z (-16384)%Z Z.add Z.sub Z.mul Z.max (fun x => x) (fun x => x / 2)%Z short_nrm t NS K n_ff (fun x => x <? 0)%Z.
