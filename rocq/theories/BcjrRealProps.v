(** C114: the BCJR decoders of floating-point numbers, on the real numbers: max-log-MAP with
    tools::max and log-MAP with tools::max_star. *)
From Coq Require Import List Arith ZArith Reals Lra Lia Bool.
From Verif Require Import Base Copy ConvModel ConvSpec ConvProofs ConvCodeProofs ConvTrellisProofs ConvProps ModemReal ModemSoftProps BcjrModel BcjrSpec BcjrProofs BcjrCodeProofs BcjrMaxProofs BcjrSetupProofs BcjrLogProofs BcjrProps.
Import ListNotations.
Open Scope R_scope.

(* ------------------------------------------------------------------ *)
(** * What is expected *)
Definition rcorrelation (Y : list R) (x : list nat) : R :=
  fold_right Rplus 0 (map (fun q => (1 - 2 * INR (nth q x 0%nat)) * nth q Y 0) (seq 0 (length Y))).
Definition rmagnitude (Y : list R) : R := fold_right Rplus 0 (map Rabs Y).
Definition rbest_with (C : list nat -> Prop) (Y : list R) (q b : nat) (x : list nat) : Prop :=
  C x /\ nth q x 0%nat = b /\ forall y, C y -> nth q y 0%nat = b -> rcorrelation Y y <= rcorrelation Y x.
(** The sum of the likelihoods exp(w) of the paths selected by [c]. *)
Definition likelihood (NS L : nat) (w : nat * list nat -> R) (c : nat * list nat -> bool) : R :=
  fold_right Rplus 0 (map (fun p => exp (w p)) (filter c (paths NS L))).

(* ------------------------------------------------------------------ *)
(** * The decoders *)
(** float and double, without rounding: tools::div2 halves gamma, the posterior is kept,
    nothing is normalised; [neg] is -std::numeric_limits<R>::max(). *)
Definition rhalf (x : R) : R := x / 2.
Definition rneg (x : R) : bool := if Rlt_dec x 0 then true else false.
Definition rimul (z : Z) (x : R) : R := IZR z * x.
Definition real_alt mx := decode_siso_alt R Rplus Rminus rimul mx rhalf (fun x => x) (fun _ => false).
Definition real_siho mx := decode_siho R Rplus Rminus rimul mx rhalf (fun x => x) (fun _ => false).
Definition real_reached neg mx t NS K n := reached R 0 neg Rplus Rminus rimul mx rhalf (fun x => x) (fun _ => false) t NS K n rneg.

Lemma max_laws : laws R 0 Rplus Rminus rimul Rmax rhalf.
Proof.
  constructor; intros; unfold rhalf, rimul; try lra.
  - apply Rmax_comm.
  - apply Rmax_assoc.
  - unfold Rmax. destruct (Rle_dec (a + c) (b + c)), (Rle_dec a b); lra.
Qed.
Lemma star_laws : laws R 0 Rplus Rminus rimul max_star rhalf.
Proof.
  assert (P2 : forall a b, 0 < exp a + exp b). { intros. pose proof (exp_pos a). pose proof (exp_pos b). lra. }
  constructor; intros; unfold rhalf, rimul; try lra; rewrite ?max_star_ln.
  - f_equal. lra.
  - rewrite !exp_ln by auto. f_equal. lra.
  - rewrite !exp_plus. rewrite <- Rmult_plus_distr_r. rewrite ln_mult; auto. { rewrite ln_exp. auto. } apply exp_pos.
Qed.
Lemma max_ordered : ordered R Rplus Rmax rhalf Rle.
Proof.
  constructor; intros; unfold rhalf; try lra.
  - apply Rmax_right. auto.
Qed.

(* ------------------------------------------------------------------ *)
(** * log-MAP *)
Lemma big_star : forall l m, big R max_star l = Some m -> m = ln (fold_right Rplus 0 (map exp l)) /\ 0 < fold_right Rplus 0 (map exp l).
Proof.
  induction l as [|a l IH]; intros m E; [discriminate|]. cbn in E. destruct (big R max_star l) as [y|] eqn:EY.
  - destruct (IH y eq_refl) as [-> P]. inversion E; subst. cbn [map fold_right]. rewrite max_star_ln, exp_ln by auto. split; auto. pose proof (exp_pos a). lra.
  - inversion E; subst. destruct l; [|cbn in EY; destruct (big R max_star l); discriminate]. cbn. rewrite Rplus_0_r, ln_exp. split; auto. apply exp_pos.
Qed.

Theorem C114_map : forall neg K N p0 p1 ps e t, rsc_generic_ctor K N (p0 :: p1 :: ps) = Ret e -> Nat.odd p0 = true -> get_trellis e = Ret t ->
  let n := n_ff e in
  forall b d m sys par ext, real_reached neg max_star t (2 ^ n) K n b d m ->
  length sys = (K + n)%nat -> length par = (K + n)%nat -> length ext = K ->
  let w := weight R 0 Rplus Rminus rhalf (next_spec p0 n) (par_spec p0 p1 n) (fun i => nth i sys 0) (fun i => nth i par 0) (fun j => if (j =? 0)%nat then 0 else neg) in
  let Pr := likelihood (2 ^ n) (K + n) w in
  exists d' ext', real_alt max_star t (2 ^ n) K n d sys par ext = Ret (d', ext') /\ length ext' = K /\
    forall i, (i < K)%nat -> nth i ext' 0 + nth i sys 0 = ln (Pr (fun p => (nth i (snd p) 0 =? 0)%nat) / Pr (fun p => (nth i (snd p) 0 =? 1)%nat)).
Proof.
  intros neg K N p0 p1 ps e t HC OD HT n b d m sys par ext R LS LP LE w Pr.
  destruct (C111_siso_alt _ 0 neg Rplus Rminus rimul max_star rhalf (fun x => x) (fun _ => false) rneg star_laws K N p0 p1 ps e t HC OD HT b d m sys par ext R) as (d' & ext' & E & LE' & V); fold n; try lia.
  exists d', ext'. split; auto. split; auto. intros i Hi. destruct (V i Hi) as (m0 & m1 & E0 & E1 & ->). clear V. fold n w in E0, E1.
  apply big_star in E0. apply big_star in E1. rewrite !map_map in E0, E1. destruct E0 as [-> P0]. destruct E1 as [-> P1].
  unfold Pr, likelihood, Rdiv. rewrite ln_mult, ln_Rinv; auto. { lra. } apply Rinv_0_lt_compat. auto.
Qed.

(** The hard decisions maximise the a posteriori probability of each bit (layout not
    buffered; the values of the frame are read at the positions of [sys_pos] and [par_pos]). *)
Theorem C114_hard : forall neg K N p0 p1 ps e t, rsc_generic_ctor K N (p0 :: p1 :: ps) = Ret e -> Nat.odd p0 = true -> get_trellis e = Ret t ->
  let n := n_ff e in
  forall d m Y V, real_reached neg max_star t (2 ^ n) K n false d m -> length Y = N -> length V = K ->
  let w := weight R 0 Rplus Rminus rhalf (next_spec p0 n) (par_spec p0 p1 n) (fun i => nth (2 * i) Y 0) (fun i => nth (2 * i + 1) Y 0) (fun j => if (j =? 0)%nat then 0 else neg) in
  let Pr := likelihood (2 ^ n) (K + n) w in
  exists d' m' V', real_siho max_star t (2 ^ n) K n rneg false d m Y V = Ret (d', m', V') /\ length V' = K /\
    forall i, (i < K)%nat ->
      (Pr (fun p => (nth i (snd p) 0 =? 0)%nat) < Pr (fun p => (nth i (snd p) 0 =? 1)%nat) -> nth i V' 0%nat = 1%nat) /\
      (Pr (fun p => (nth i (snd p) 0 =? 1)%nat) <= Pr (fun p => (nth i (snd p) 0 =? 0)%nat) -> nth i V' 0%nat = 0%nat).
Proof.
  intros neg K N p0 p1 ps e t HC OD HT n d m Y V R LY LV w Pr.
  destruct (setup _ _ _ _ _ _ _ HC OD HT) as (Hn & HK & HN & H0 & H1 & HX & HP & TO & SH & OP & H2). fold n in Hn, HN, H0, H1, HX, HP, TO, SH, OP, H2.
  destruct (reached_ok _ 0 neg Rplus Rminus rimul max_star rhalf (fun x => x) (fun _ => false) star_laws _ _ _ K n t HX HP TO SH OP H2 HK rneg false d m R) as [HD HM].
  destruct m as [[[sys par] ext] s].
  destruct (siho_ok _ 0 neg Rplus Rminus rimul max_star rhalf (fun x => x) (fun _ => false) star_laws _ _ _ K n t HX HP TO SH OP H2 HK rneg false d sys par ext s Y V HD HM ltac:(lia) ltac:(lia))
    as (d' & sys' & par' & ext' & s' & V' & E & _ & _ & LV' & V1 & V2 & _ & V4 & _).
  exists d', (sys', par', ext', s'), V'. split; auto. split; [lia|]. intros i Hi.
  destruct (V4 i Hi) as (z & (m0 & m1 & E0 & E1 & ->) & ->).
  change zero_bit with (if (0 =? 0)%nat then zero_bit else one_bit) in E0. change one_bit with (if (1 =? 0)%nat then zero_bit else one_bit) in E1.
  rewrite sel_sys in E0, E1 by lia.
  assert (ME : forall f, map (weight _ 0 Rplus Rminus rhalf (next_spec p0 n) (par_spec p0 p1 n) (fun i => nth i sys' 0) (fun i => nth i par' 0) (fun j => if (j =? 0)%nat then 0 else neg)) (filter f (paths (2 ^ n) (K + n))) = map w (filter f (paths (2 ^ n) (K + n)))).
  { intros f. apply map_ext_in. intros [s0 us] Hp. apply filter_In in Hp. destruct Hp as [Hp _]. apply paths_in in Hp. cbn [fst snd] in Hp. destruct Hp as (_ & LU & _).
    unfold w, weight. cbn [fst snd]. f_equal. f_equal. f_equal.
    assert (G : forall us j s, (j + length us <= K + n)%nat -> corr _ 0 Rplus Rminus (next_spec p0 n) (par_spec p0 p1 n) (fun i => nth i sys' 0) (fun i => nth i par' 0) j s us =
      corr _ 0 Rplus Rminus (next_spec p0 n) (par_spec p0 p1 n) (fun i => nth (2 * i) Y 0) (fun i => nth (2 * i + 1) Y 0) j s us).
    { induction us0 as [|c us0 IH]; intros j s1 Hj; auto. cbn [corr length] in *. rewrite IH by lia. rewrite V1 by lia. rewrite V2 by lia. auto. }
    apply G. lia. }
  rewrite ME in E0, E1. apply big_star in E0. apply big_star in E1. rewrite !map_map in E0, E1. destruct E0 as [-> P0]. destruct E1 as [-> P1].
  change (0 < Pr (fun p => (nth i (snd p) 0 =? 0)%nat)) in P0. change (0 < Pr (fun p => (nth i (snd p) 0 =? 1)%nat)) in P1.
  fold (likelihood (2 ^ n) (K + n) w (fun p => (nth i (snd p) 0 =? 0)%nat)). fold (likelihood (2 ^ n) (K + n) w (fun p => (nth i (snd p) 0 =? 1)%nat)).
  fold Pr. unfold rneg. match goal with |- context [Rlt_dec ?v 0] => destruct (Rlt_dec v 0) as [HL | HL] end; split; intros HH; auto; exfalso.
  - assert (ln (Pr (fun p => (nth i (snd p) 0 =? 1)%nat)) <= ln (Pr (fun p => (nth i (snd p) 0 =? 0)%nat))). { destruct HH as [HH | ->]; [left; apply ln_increasing; auto|right; auto]. } lra.
  - pose proof (ln_increasing _ _ P0 HH). lra.
Qed.

(* ------------------------------------------------------------------ *)
(** * max-log-MAP *)
Notation rsum := (tsum R 0 Rplus).
Lemma rsum_fold : forall m f, rsum m f = fold_right Rplus 0 (map f (seq 0 m)).
Proof.
  induction m; intros f; auto. cbn [tsum]. rewrite IHm, seq_S, map_app, fold_right_app. cbn [map fold_right]. clear IHm.
  rewrite Nat.add_0_l. generalize (seq 0 m). induction l; cbn [map fold_right]; lra.
Qed.
Lemma rsum_app : forall a b f, rsum (a + b) f = rsum a f + rsum b (fun i => f (a + i)%nat).
Proof. induction b; intros f; cbn [tsum]. { rewrite Nat.add_0_r. lra. } rewrite Nat.add_succ_r. cbn [tsum]. rewrite IHb. lra. Qed.
Lemma rsum_add : forall m f g, rsum m (fun i => f i + g i) = rsum m f + rsum m g.
Proof. induction m; intros f g; cbn [tsum]; [lra|]. rewrite IHm. lra. Qed.
Lemma rsum_ext : forall m f g, (forall i, (i < m)%nat -> f i = g i) -> rsum m f = rsum m g.
Proof. induction m; intros f g H; auto. cbn [tsum]. rewrite (IHm f g), H by auto. auto. Qed.
Lemma rsum_pos : forall (bf : bool) L f, rsum (2 * L) f = rsum L (fun t => f (sys_pos bf t) + f (par_pos bf L t)).
Proof.
  intros [|] L f; cbn [sys_pos par_pos].
  - replace (2 * L)%nat with (L + L)%nat by lia. rewrite rsum_app, rsum_add. auto.
  - induction L; auto. replace (2 * S L)%nat with (S (S (2 * L))) by lia. cbn [tsum] in *. rewrite IHL. unfold sys_pos, par_pos. replace (2 * L + 1)%nat with (S (2 * L)) by lia. lra.
Qed.
Lemma rcor : forall n K Y sys par bf x, length Y = (2 * (K + n))%nat -> (forall q, (nth q x 0 < 2)%nat) ->
  (forall t, (t < K + n)%nat -> sys t = nth (sys_pos bf t) Y 0 /\ par t = nth (par_pos bf (K + n) t) Y 0) ->
  cor R 0 Rplus Rminus n K sys par bf x = rcorrelation Y x.
Proof.
  intros n K Y sys par bf x LY BX HY. unfold cor, rcorrelation. rewrite LY, <- rsum_fold, (rsum_pos bf). apply rsum_ext. intros t Ht.
  destruct (HY t Ht) as [-> ->]. unfold sg.
  destruct (lt2 _ (BX (sys_pos bf t))) as [-> | ->]; destruct (lt2 _ (BX (par_pos bf (K + n) t))) as [-> | ->]; cbn [Nat.eqb INR]; lra.
Qed.
Lemma rmap_seq : forall (l : list R), map Rabs l = map (fun q => Rabs (nth q l 0)) (seq 0 (length l)).
Proof. induction l as [|a l IH]; auto. cbn [map length seq]. rewrite <- seq_shift, map_map. cbn [nth]. f_equal. auto. Qed.
Lemma rbound : forall n K Y sys par bf, length Y = (2 * (K + n))%nat ->
  (forall t, (t < K + n)%nat -> sys t = nth (sys_pos bf t) Y 0 /\ par t = nth (par_pos bf (K + n) t) Y 0) ->
  bound R 0 Rplus Rminus Rmax n K sys par = rmagnitude Y.
Proof.
  intros n K Y sys par bf LY HY. unfold bound, rmagnitude. rewrite rmap_seq, LY, <- rsum_fold, (rsum_pos bf). apply rsum_ext. intros t Ht. destruct (HY t Ht) as [-> ->].
  assert (A : forall a, abs R 0 Rminus Rmax a = Rabs a). { intros a. unfold abs, Rmax, Rabs. destruct (Rle_dec a (0 - a)), (Rcase_abs a); lra. }
  rewrite !A. auto.
Qed.
Lemma rbest : forall p0 p1 n K Y sys par bf q b x, length Y = (2 * (K + n))%nat ->
  (forall t, (t < K + n)%nat -> sys t = nth (sys_pos bf t) Y 0 /\ par t = nth (par_pos bf (K + n) t) Y 0) ->
  best R 0 Rplus Rminus Rle p0 p1 n K sys par bf q b x ->
  rbest_with (rsc_code p0 p1 n bf K) Y q b x /\ cor R 0 Rplus Rminus n K sys par bf x = rcorrelation Y x.
Proof.
  intros p0 p1 n K Y sys par bf q b x LY HY (CX & BX & UX). pose proof (code_bits _ _ _ _ _ _ CX) as BB.
  pose proof (rcor n K Y sys par bf x LY BB HY) as EX. split; auto. split; auto. split; auto. intros y CY BY.
  rewrite <- EX, <- (rcor n K Y sys par bf y LY (code_bits _ _ _ _ _ _ CY) HY). auto.
Qed.
Lemma real_val : forall neg p0 p1 n K Y sysl parl bf i s x, (0 < n)%nat -> Nat.testbit p0 n = true -> Nat.testbit p1 n = true ->
  length Y = (2 * (K + n))%nat -> rmagnitude Y <= - neg -> (i < K)%nat ->
  (forall t, (t < K + n)%nat -> nth t sysl 0 = nth (sys_pos bf t) Y 0 /\ nth t parl 0 = nth (par_pos bf (K + n) t) Y 0) ->
  ext_val R 0 Rplus Rminus Rmax rhalf (fun x => x) (next_spec p0 n) (par_spec p0 p1 n) (2 ^ n) K n sysl parl (fun j => if (j =? 0)%nat then 0 else neg) zero_bit one_bit i s x ->
  exists x0 x1, rbest_with (rsc_code p0 p1 n bf K) Y (sys_pos bf i) 0 x0 /\ rbest_with (rsc_code p0 p1 n bf K) Y (sys_pos bf i) 1 x1 /\
    x + s = (rcorrelation Y x0 - rcorrelation Y x1) / 2.
Proof.
  intros neg p0 p1 n K Y sysl parl bf i s x Hn H0 H1 LY MY Hi HY EV.
  destruct (maxlog R 0 neg Rplus Rminus rimul Rmax rhalf (fun x => x) max_laws Rle max_ordered p0 p1 n K Hn H0 H1 sysl parl) with (bf := bf) (i := i) (s := s) (x := x) as (x0 & x1 & B0 & B1 & E); auto.
  { rewrite (rbound n K Y _ _ bf LY HY). unfold rhalf. lra. }
  destruct (rbest _ _ _ _ Y _ _ _ _ _ _ LY HY B0) as [W0 C0]. destruct (rbest _ _ _ _ Y _ _ _ _ _ _ LY HY B1) as [W1 C1].
  rewrite C0, C1 in E. exists x0, x1. split; auto. split; auto. rewrite E. unfold rhalf. lra.
Qed.

Theorem C114_maxlog : forall neg K N p0 p1 ps e t, rsc_generic_ctor K N (p0 :: p1 :: ps) = Ret e -> Nat.odd p0 = true -> get_trellis e = Ret t ->
  let n := n_ff e in
  forall b d m Y sys par ext, real_reached neg Rmax t (2 ^ n) K n b d m ->
  length Y = N -> rmagnitude Y <= - neg ->
  sys = tab (K + n) (fun i => nth (sys_pos b i) Y 0) -> par = tab (K + n) (fun i => nth (par_pos b (K + n) i) Y 0) -> length ext = K ->
  exists d' ext', real_alt Rmax t (2 ^ n) K n d sys par ext = Ret (d', ext') /\ length ext' = K /\
    forall i, (i < K)%nat -> exists x0 x1,
      rbest_with (rsc_code p0 p1 n b K) Y (sys_pos b i) 0 x0 /\ rbest_with (rsc_code p0 p1 n b K) Y (sys_pos b i) 1 x1 /\
      nth i ext' 0 + nth (sys_pos b i) Y 0 = (rcorrelation Y x0 - rcorrelation Y x1) / 2.
Proof.
  intros neg K N p0 p1 ps e t HC OD HT n b d m Y sys par ext R LY MY ES EP LE.
  destruct (setup _ _ _ _ _ _ _ HC OD HT) as (Hn & HK & HN & H0 & H1 & HX & HP & TO & SH & OP & H2). fold n in Hn, HN, H0, H1, HX, HP, TO, SH, OP, H2.
  destruct (reached_ok _ 0 neg Rplus Rminus rimul Rmax rhalf (fun x => x) (fun _ => false) max_laws _ _ _ K n t HX HP TO SH OP H2 HK rneg b d m R) as [HD _].
  assert (LS : length sys = (K + n)%nat) by (subst sys; apply length_tab). assert (LP : length par = (K + n)%nat) by (subst par; apply length_tab).
  destruct (alt_ok _ 0 neg Rplus Rminus rimul Rmax rhalf (fun x => x) (fun _ => false) max_laws _ _ _ K n t HX HP TO SH OP H2 HK d sys par ext HD ltac:(lia) ltac:(lia) ltac:(lia)) as (d' & ext' & E & _ & LE' & V & _).
  exists d', ext'. split; auto. split; [lia|]. intros i Hi. specialize (V i Hi).
  assert (HY : forall q, (q < K + n)%nat -> nth q sys 0 = nth (sys_pos b q) Y 0 /\ nth q par 0 = nth (par_pos b (K + n) q) Y 0). { intros q Hq. subst sys par. rewrite !nth_tab by auto. auto. }
  rewrite <- (proj1 (HY i ltac:(lia))).
  apply (real_val neg p0 p1 n K Y sys par b i _ _ Hn H0 H1 ltac:(lia) MY Hi HY V).
Qed.

(** The hypotheses are met: a freshly built decoder of the code (7, 5). *)
Example bcjr_real : exists e t d m, rsc_generic_ctor 2 8 [7; 5]%nat = Ret e /\ Nat.odd 7 = true /\ get_trellis e = Ret t /\
  real_reached (-1000) max_star t (2 ^ n_ff e) 2 (n_ff e) false d m /\ rmagnitude [1; -2; 3; -1; 1; 1; 2; 0] <= - -1000.
Proof.
  do 4 eexists. split; [vm_compute; reflexivity|]. split; [reflexivity|]. split; [vm_compute; reflexivity|]. split; [apply reached_init|].
  unfold rmagnitude. cbn [map fold_right]. unfold Rabs. repeat destruct Rcase_abs; lra.
Qed.
