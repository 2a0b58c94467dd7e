(** The trellis of an encoder, the states of a decoder and its calls. *)
From Coq Require Import List Arith ZArith Lia Bool Permutation.
From Verif Require Import Base Copy ConvModel ConvSpec ConvProofs ConvCodeProofs ConvTrellisProofs ConvProps BcjrModel BcjrSpec BcjrProofs BcjrCodeProofs BcjrMaxProofs.
Import ListNotations.

(* ------------------------------------------------------------------ *)
(** * The trellis *)

Lemma tapped_odd : forall p0 n a, 0 < n -> Nat.odd p0 = true -> tapped p0 n (2 * a + 1) = (1 + tapped p0 n (2 * a + 0)) mod 2.
Proof.
  intros p0 n a Hn OD. unfold tapped. rewrite Nat.add_mod_idemp_r by lia. f_equal. destruct n as [|n]; [lia|]. cbn [seq map sum fold_right].
  rewrite <- Nat.bit0_odd in OD. rewrite OD. replace (2 * a + 0) with (2 * a) by lia. rewrite Nat.testbit_odd_0, Nat.testbit_even_0. cbn [Nat.b2n].
  replace (map (fun i => Nat.b2n (Nat.testbit (2 * a + 1) i) * Nat.b2n (Nat.testbit p0 i)) (seq 1 n))
    with (map (fun i => Nat.b2n (Nat.testbit (2 * a) i) * Nat.b2n (Nat.testbit p0 i)) (seq 1 n)).
  - unfold sum. lia.
  - apply map_ext_in. intros i Hi. apply in_seq in Hi. destruct i as [|i]; [lia|]. rewrite Nat.testbit_odd_succ, Nat.testbit_even_succ by lia. auto.
Qed.

Lemma trellis_full : forall K N p0 p1 ps e t, rsc_generic_ctor K N (p0 :: p1 :: ps) = Ret e -> Nat.odd p0 = true -> get_trellis e = Ret t ->
  trellis_ok (2 ^ n_ff e) (next_spec p0 (n_ff e)) (par_spec p0 p1 (n_ff e)) t /\ shaped (2 ^ n_ff e) t /\
  forall j, j < 2 ^ n_ff e -> entry t 4 j = (- entry t 1 j)%Z.
Proof.
  intros K N p0 p1 ps e t HC OD HT. destruct (C19_trellis _ _ _ _ _ _ HC) as (t' & E' & TO). rewrite HT in E'. inversion E'; subst t'. clear E'.
  split; auto.
  destruct (ctor_inv _ _ _ _ HC) as (q0 & q1 & n & <- & <- & Hn & H0 & H1 & _ & _ & HK & HN & ->). cbn [nth] in *.
  pose proof (machine_generic p0 p1 n Hn) as M. pose proof (gen_edges p0 n Hn) as G.
  destruct (get_trellis_inv (rsc_generic p0 p1 n) (par_spec p0 p1 n) (next_spec p0 n) (tapped p0 n)) with (E1 := gen_edge p0 n 0) (E2 := gen_edge p0 n 1) as (t' & occ & E & I).
  { rewrite generic_nff. auto. } { rewrite generic_nff. auto. }
  rewrite HT in E. inversion E; subst t'. clear E. rewrite generic_nff in *.
  destruct I as (SH & _ & _ & _ & I0 & I3). cbn [fst] in *. rewrite generic_nff in *. split; auto.
  intros j Hj. destruct (G j Hj) as (G1 & G2 & _). rewrite (proj1 (proj2 (I0 j Hj ltac:(lia)))), (proj1 (proj2 (I3 j Hj ltac:(lia)))).
  unfold gen_edge. set (H := 2 ^ (n - 1)). set (a := j mod H). set (h := j / H). rewrite tapped_odd by auto.
  pose proof (tapped_lt p0 n (2 * a + 0)) as TL. set (w := tapped p0 n (2 * a + 0)) in *.
  assert (HL : h < 2). { unfold h. apply Nat.div_lt_upper_bound. { apply Nat.pow_nonzero; lia. } rewrite Nat.mul_comm. unfold H. rewrite <- Nat.pow_succ_r'. replace (S (n - 1)) with n by lia. auto. }
  assert (MM : forall y b, b < 2 -> (2 * y + b) mod 2 = b). { intros y b Hb. rewrite Nat.add_comm, Nat.mul_comm, Nat.mod_add by lia. apply Nat.mod_small. auto. }
  rewrite !MM by (apply Nat.mod_upper_bound; lia).
  destruct (lt2 _ HL) as [-> | ->]; destruct (lt2 _ TL) as [-> | ->]; reflexivity.
Qed.

(* ------------------------------------------------------------------ *)
(** * The calls *)
Section Calls.
Variable T : Type.
Variables (zero neg : T) (add sub : T -> T -> T) (imul : Z -> T -> T) (mx : T -> T -> T) (half post : T -> T) (nrm : nat -> bool).
Hypothesis L : laws T zero add sub imul mx half.
Variables (X P : nat -> nat -> nat) (NS K n_ff : nat) (t : list (list Z)).
Hypothesis HX : forall b s, b < 2 -> s < NS -> X b s < NS.
Hypothesis HP : forall b s, b < 2 -> s < NS -> P b s < 2.
Hypothesis TOK : trellis_ok NS X P t.
Hypothesis SH : shaped NS t.
Hypothesis OPP : forall j, j < NS -> entry t 4 j = (- entry t 1 j)%Z.
Hypothesis HN : 0 < NS.
Hypothesis HK : 0 < K.
Let len := K + n_ff.
Let st0 (j : nat) : T := if j =? 0 then zero else neg.
Notation dec_ok := (dec_ok T zero NS K n_ff st0).
Variable isneg : T -> bool.
Notation alt := (decode_siso_alt T add sub imul mx half post nrm t NS K n_ff).
Notation siso := (decode_siso T neg add sub imul mx half post nrm t NS K n_ff).
Notation siho := (decode_siho T add sub imul mx half post nrm t NS K n_ff isneg).
Notation reached := (reached T zero neg add sub imul mx half post nrm t NS K n_ff isneg).

Definition mem_ok (m : list T * list T * list T * list nat) : Prop :=
  let '(sys, par, ext, s) := m in length sys = len /\ length par = len /\ length ext = K /\ length s = K.

Lemma init_ok : dec_ok (bcjr_init T zero neg NS len).
Proof.
  unfold BcjrCodeProofs.dec_ok, bcjr_init, mat, at_. cbn [b_alpha b_beta b_gamma b_prev b_cur]. fold len.
  split. { split. { apply length_tab. } intros j Hj. rewrite nth_tab by auto. apply length_tab. }
  split. { split. { apply length_tab. } intros j Hj. rewrite nth_tab by auto. apply length_tab. }
  split. { split; auto. intros j Hj. assert (J : j = 0 \/ j = 1) by lia. destruct J; subst; cbn; apply repeat_length. }
  split. { apply repeat_length. } split. { apply repeat_length. }
  assert (LP : 0 < len) by (unfold len; lia).
  split; intros j Hj; rewrite nth_tab by auto; rewrite nth_tab by lia.
  - destruct (Nat.eqb_spec 0 len); [lia|]. reflexivity.
  - destruct (Nat.eqb_spec len 0); [lia|]. rewrite Nat.eqb_refl. reflexivity.
Qed.

Lemma load_ok : forall b Y sys par, 2 * len <= length Y -> length sys = len -> length par = len ->
  exists sys' par', load T K n_ff b Y sys par = Ret (sys', par') /\ length sys' = len /\ length par' = len /\
    (forall i, i < len -> nth i sys' zero = nth (sys_pos b i) Y zero) /\
    (forall i, i < (if b then K else len) -> nth i par' zero = nth (par_pos b len i) Y zero) /\
    (b = true -> forall i, K <= i -> nth i par' zero = nth i par zero).
Proof.
  intros b Y sys par LY LS LP. unfold load. fold len. destruct b.
  - destruct (copy_spec _ zero Y 0 len sys 0) as (s' & E1 & L1 & V1 & W1); [lia|lia|]. rewrite E1. cbn [bind].
    destruct (copy_spec _ zero Y len K par 0) as (p' & E2 & L2 & V2 & W2); [unfold len in *; lia|unfold len in *; lia|]. rewrite E2. cbn [bind].
    exists s', p'. split; auto. split; [lia|]. split; [lia|]. split; [|split].
    + intros i Hi. apply (V1 i Hi).
    + intros i Hi. apply (V2 i Hi).
    + intros _ i Hi. apply W2. lia.
  - match goal with |- context [for_ len ?body ?s0] => destruct (for_inv _ (fun k (st : list T * list T) => length (fst st) = len /\ length (snd st) = len /\
      forall i, i < k -> nth i (fst st) zero = nth (2 * i) Y zero /\ nth i (snd st) zero = nth (2 * i + 1) Y zero) len body s0) as ([s' p'] & E & (L1 & L2 & V)) end.
    + split; auto. split; auto. intros. lia.
    + intros i [s' p'] Hi (L1 & L2 & V). cbn [fst snd] in *. rewrite (rd_ok _ zero) by lia. cbn [bind]. rewrite wr_ok by lia. cbn [bind].
      rewrite (rd_ok _ zero) by lia. cbn [bind]. rewrite wr_ok by lia. cbn [bind]. eexists. split; [reflexivity|]. cbn [fst snd]. rewrite !length_upd.
      split; auto. split; auto. intros q Hq. rewrite !nth_upd by lia. destruct (Nat.eqb_spec q i).
      * subst. split; f_equal; lia.
      * apply V. lia.
    + exists s', p'. cbn [fst snd] in *. split; auto. split; auto. split; auto. split; [|split]; [| |discriminate].
      * intros i Hi. apply V. auto.
      * intros i Hi. apply V. auto.
Qed.

Lemma siso_dec_ok : forall b d Y1 Y2 d' Y2', dec_ok d -> 2 * len <= length Y1 -> siso b d Y1 Y2 = Ret (d', Y2') -> dec_ok d'.
Proof.
  intros b d Y1 Y2 d' Y2' (MA & MB & MG & LV & LC & A0 & B0) LY E. unfold decode_siso in E. fold len in E.
  destruct b; [|discriminate]. cbn [guard bind] in E.
  assert (LS : len <= length (firstn len Y1)) by (rewrite firstn_length; lia).
  assert (LP : len <= length (skipn len Y1)) by (rewrite skipn_length; lia).
  destruct (compute_gamma_ok T zero add sub half NS K n_ff HN HK _ _ LS LP _ MG) as (g & EG & GO). rewrite EG in E. cbn [bind] in E.
  destruct (compute_alpha_ok T zero add sub imul mx half nrm L X P NS K n_ff t HX HP TOK SH HN HK _ _ LS LP st0 g _ GO MA A0) as (al & EA & MA' & A0' & FW). rewrite EA in E. cbn [bind] in E.
  destruct (compute_beta_ok T zero add sub imul mx half nrm L X P NS K n_ff t HX HP TOK SH HN HK _ _ LS LP st0 g _ GO MB B0) as (be & EB & MB' & B0' & BW). rewrite EB in E. cbn [bind] in E.
  destruct (compute_ext_sys T neg add sub mx post t NS K n_ff (firstn len Y1) al be g 0 Y2) as [Y2a| | ]; [|discriminate..]. cbn [bind] in E.
  destruct (compute_ext_par T neg add sub mx post t NS K n_ff (skipn len Y1) al be g len Y2a) as [Y2b| | ]; [|discriminate..]. cbn [bind] in E.
  inversion E; subst. unfold BcjrCodeProofs.dec_ok. cbn [b_alpha b_beta b_gamma b_prev b_cur].
  split; auto. split; auto. split. { apply (proj1 GO). } auto.
Qed.

Lemma siso_ok : forall d Y1 Y2, (forall i, nrm i = false) -> dec_ok d -> 2 * len <= length Y1 -> 2 * len <= length Y2 ->
  let sys := firstn len Y1 in let par := skipn len Y1 in
  exists d' Y2', siso true d Y1 Y2 = Ret (d', Y2') /\ length Y2' = length Y2 /\
    (forall i, i < len -> ext_neg T zero neg add sub mx half post X P NS K n_ff sys par st0 zero_bit one_bit i (nth i sys zero) (nth i Y2' zero)) /\
    (forall i, i < len -> ext_neg T zero neg add sub mx half post X P NS K n_ff sys par st0 (zero_par P) (one_par P) i (nth i par zero) (nth (len + i) Y2' zero)).
Proof.
  intros d Y1 Y2 NV (MA & MB & MG & LV & LC & A0 & B0) LY1 LY2 sys par. unfold decode_siso. cbn [guard bind]. fold len. fold sys par.
  assert (LS : len <= length sys) by (unfold sys; rewrite firstn_length; lia).
  assert (LP : len <= length par) by (unfold par; rewrite skipn_length; lia).
  destruct (compute_gamma_ok T zero add sub half NS K n_ff HN HK _ _ LS LP _ MG) as (g & EG & GO). rewrite EG. cbn [bind].
  destruct (compute_alpha_ok T zero add sub imul mx half nrm L X P NS K n_ff t HX HP TOK SH HN HK _ _ LS LP st0 g _ GO MA A0) as (al & EA & MA' & A0' & FW). rewrite EA. cbn [bind].
  destruct (compute_beta_ok T zero add sub imul mx half nrm L X P NS K n_ff t HX HP TOK SH HN HK _ _ LS LP st0 g _ GO MB B0) as (be & EB & MB' & B0' & BW). rewrite EB. cbn [bind].
  destruct (ext_sys_ok T zero neg add sub imul mx half post nrm L X P NS K n_ff t HX HP TOK SH OPP HN HK _ _ LS LP st0 g al be 0 Y2 NV GO MA' MB' FW BW) as (Y3 & E3 & L3 & V3 & _). { fold len. lia. }
  rewrite E3. cbn [bind].
  destruct (ext_par_ok T zero neg add sub imul mx half post nrm L X P NS K n_ff t HX HP TOK SH OPP HN HK _ _ LS LP st0 g al be len Y3 NV GO MA' MB' FW BW) as (Y4 & E4 & L4 & V4 & W4). { fold len. lia. }
  rewrite E4. cbn [bind]. eexists. exists Y4. split; [reflexivity|]. split; [lia|]. split; auto.
  intros i Hi. rewrite W4 by lia. apply V3. auto.
Qed.

Lemma alt_ok : forall d sys par ext, dec_ok d -> len <= length sys -> len <= length par -> K <= length ext ->
  exists d' ext', alt d sys par ext = Ret (d', ext') /\ dec_ok d' /\ length ext' = length ext /\
    (forall i, i < K -> ext_val T zero add sub mx half post X P NS K n_ff sys par st0 zero_bit one_bit i (nth i sys zero) (nth i ext' zero)) /\
    forall i, K <= i -> nth i ext' zero = nth i ext zero.
Proof. intros d sys par ext HD LS LP LE. apply (siso_alt_ok T zero add sub imul mx half post nrm L X P NS K n_ff t HX HP TOK SH OPP HN HK sys par LS LP st0 d ext HD LE). Qed.

Lemma siho_ok : forall b d sys par ext s Y V, dec_ok d -> mem_ok (sys, par, ext, s) -> 2 * len <= length Y -> K <= length V ->
  exists d' sys' par' ext' s' V', siho b d (sys, par, ext, s) Y V = Ret (d', (sys', par', ext', s'), V') /\ dec_ok d' /\ mem_ok (sys', par', ext', s') /\ length V' = length V /\
    (forall i, i < len -> nth i sys' zero = nth (sys_pos b i) Y zero) /\
    (forall i, i < (if b then K else len) -> nth i par' zero = nth (par_pos b len i) Y zero) /\
    (b = true -> forall i, K <= i -> nth i par' zero = nth i par zero) /\
    (forall i, i < K -> exists x, ext_val T zero add sub mx half post X P NS K n_ff sys' par' st0 zero_bit one_bit i (nth i sys' zero) x /\
       nth i V' 0 = Nat.b2n (isneg (add x (nth i sys' zero)))) /\
    (forall i, K <= i -> nth i V' 0 = nth i V 0).
Proof.
  intros b d sys par ext s Y V HD (LS & LP & LE & LSS) LY LV. unfold decode_siho.
  destruct (load_ok b Y sys par LY LS LP) as (sys' & par' & E1 & LS' & LP' & V1 & V2 & V3). rewrite E1. cbn [bind].
  destruct (alt_ok d sys' par' ext HD ltac:(lia) ltac:(lia) ltac:(lia)) as (d' & ext' & E2 & HD' & LE' & V4 & _). rewrite E2. cbn [bind].
  match goal with |- context [for_ K ?body s] => destruct (for_inv _ (fun k (s' : list nat) => length s' = K /\
    forall i, i < k -> nth i s' 0 = Nat.b2n (isneg (add (nth i ext' zero) (nth i sys' zero)))) K body s) as (s' & E3 & L3 & V5) end.
  - split; auto. intros. lia.
  - intros i s' Hi (L3 & V5). rewrite (rd_ok _ zero) by lia. cbn [bind]. rewrite (rd_ok _ zero) by (unfold len in *; lia). cbn [bind]. rewrite wr_ok by lia.
    eexists. split; [reflexivity|]. rewrite length_upd. split; auto. intros q Hq. rewrite nth_upd by lia. destruct (Nat.eqb_spec q i); [subst; auto|]. apply V5. lia.
  - rewrite E3. cbn [bind]. destruct (copy_spec _ 0 s' 0 K V 0) as (V' & E4 & L4 & V6 & W6); [lia|lia|]. rewrite E4. cbn [bind].
    exists d', sys', par', ext', s', V'. split; auto. split; auto. split. { cbn. lia. } split; [lia|]. split; auto. split; auto. split; auto. split.
    + intros i Hi. exists (nth i ext' zero). split; [apply V4; auto|]. pose proof (V6 i Hi) as V6i. cbn in V6i. rewrite V6i. apply V5. auto.
    + intros i Hi. apply W6. lia.
Qed.

Lemma reached_ok : forall b d m, reached b d m -> dec_ok d /\ mem_ok m.
Proof.
  induction 1 as [|d m sys par ext d' ext' R [HD HM] LS LP LE E|d m Y1 Y2 d' Y2' R [HD HM] L1 L2 E|d m Y V d' m' V' R [HD HM] LY LV E].
  - split. { apply init_ok. } cbn. rewrite !repeat_length. unfold len. auto.
  - split; auto. destruct (alt_ok d sys par ext HD LS LP LE) as (d1 & e1 & E1 & HD1 & _). rewrite E in E1. inversion E1; subst. auto.
  - split; auto. apply (siso_dec_ok b d Y1 Y2 d' Y2' HD L1 E).
  - destruct m as [[[sys par] ext] s]. destruct (siho_ok b d sys par ext s Y V HD HM LY LV) as (d1 & s1 & p1 & e1 & ss & V1 & E1 & HD1 & HM1 & _).
    rewrite E in E1. inversion E1; subst. auto.
Qed.
End Calls.

(* ------------------------------------------------------------------ *)
(** * The selected paths *)
Lemma sel_sys : forall X NS len i b, b < 2 -> sel X NS len (if b =? 0 then zero_bit else one_bit) i = filter (fun p => nth i (snd p) 0 =? b) (paths NS len).
Proof.
  intros X NS len i b Hb. unfold sel. apply filter_ext_in. intros [s us] Hp. apply paths_in in Hp. cbn [fst snd] in *. destruct Hp as (_ & _ & BU).
  assert (BI : nth i us 0 < 2). { destruct (Nat.lt_ge_cases i (length us)); [|rewrite nth_overflow; lia]. unfold bits in BU. rewrite Forall_forall in BU. apply BU. apply nth_In. auto. }
  destruct (lt2 _ Hb) as [-> | ->]; destruct (lt2 _ BI) as [-> | ->]; reflexivity.
Qed.
Lemma sel_par : forall X P NS len i b, (forall b s, b < 2 -> s < NS -> X b s < NS) -> (forall b s, b < 2 -> s < NS -> P b s < 2) -> i < len -> b < 2 ->
  sel X NS len (if b =? 0 then zero_par P else one_par P) i = filter (fun p => parity X P p i =? b) (paths NS len).
Proof.
  intros X P NS len i b HX HP Hi Hb. unfold sel. apply filter_ext_in. intros [s us] Hp. apply paths_in in Hp. cbn [fst snd] in *. destruct Hp as (S1 & LU & BU).
  assert (BI : nth i us 0 < 2). { unfold bits in BU. rewrite Forall_forall in BU. apply BU. apply nth_In. lia. }
  assert (RB : run X s (firstn i us) < NS). { apply run_bound; auto. apply bits_firstn. auto. }
  unfold parity. cbn [fst snd]. unfold zero_par, one_par. pose proof (HP _ _ BI RB) as PB.
  destruct (lt2 _ Hb) as [-> | ->]; destruct (lt2 _ PB) as [E | E]; cbn [Nat.eqb]; rewrite E; reflexivity.
Qed.
