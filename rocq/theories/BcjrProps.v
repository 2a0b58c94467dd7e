(** BCJR decoders of the recursive systematic convolutional codes (C111, C112, C113). *)
From Coq Require Import List Arith ZArith Lia Bool.
From Verif Require Import Base Copy ConvModel ConvSpec ConvProofs ConvCodeProofs ConvTrellisProofs ConvProps BcjrModel BcjrSpec BcjrProofs BcjrCodeProofs BcjrMaxProofs BcjrSetupProofs BcjrLogProofs.
Import ListNotations.

Lemma setup : forall K N p0 p1 ps e t, rsc_generic_ctor K N (p0 :: p1 :: ps) = Ret e -> Nat.odd p0 = true -> get_trellis e = Ret t ->
  let n := n_ff e in
  0 < n /\ 0 < K /\ N = 2 * (K + n) /\ Nat.testbit p0 n = true /\ Nat.testbit p1 n = true /\
  (forall b s, b < 2 -> s < 2 ^ n -> next_spec p0 n b s < 2 ^ n) /\ (forall b s, b < 2 -> s < 2 ^ n -> par_spec p0 p1 n b s < 2) /\
  trellis_ok (2 ^ n) (next_spec p0 n) (par_spec p0 p1 n) t /\ shaped (2 ^ n) t /\ (forall j, j < 2 ^ n -> entry t 4 j = (- entry t 1 j)%Z) /\ 0 < 2 ^ n.
Proof.
  intros K N p0 p1 ps e t HC OD HT n. destruct (trellis_full _ _ _ _ _ _ _ HC OD HT) as (TO & SH & OP). fold n in TO, SH, OP.
  destruct (ctor_inv _ _ _ _ HC) as (q0 & q1 & n' & E0 & E1 & Hn & H0 & H1 & _ & _ & HK & HN & EE). cbn [nth] in E0, E1. subst q0 q1.
  assert (n' = n) by (unfold n; rewrite EE; apply (eq_sym (generic_nff _ _ _))). subst n'.
  split; auto. split; auto. split; [lia|]. split; auto. split; auto.
  split. { intros. apply next_lt; auto. } split. { intros. unfold par_spec. apply Nat.mod_upper_bound. lia. }
  split; auto. split; auto. split; auto. apply Nat.neq_0_lt_0. apply Nat.pow_nonzero. lia.
Qed.

(* ------------------------------------------------------------------ *)
(** * C111: the outputs are combinations over all the paths of the trellis *)

Theorem C111_siso_alt : forall T (zero neg : T) add sub imul mx half post nrm isneg, laws T zero add sub imul mx half ->
  forall K N p0 p1 ps e t, rsc_generic_ctor K N (p0 :: p1 :: ps) = Ret e -> Nat.odd p0 = true -> get_trellis e = Ret t ->
  let n := n_ff e in
  forall b d m sys par ext, reached T zero neg add sub imul mx half post nrm t (2 ^ n) K n isneg b d m ->
  K + n <= length sys -> K + n <= length par -> length ext = K ->
  let a0 := fun j => if j =? 0 then zero else neg in
  let w := weight T zero add sub half (next_spec p0 n) (par_spec p0 p1 n) (fun i => nth i sys zero) (fun i => nth i par zero) a0 in
  exists d' ext', decode_siso_alt T add sub imul mx half post nrm t (2 ^ n) K n d sys par ext = Ret (d', ext') /\ length ext' = K /\
    forall i, i < K -> exists m0 m1,
      big T mx (map w (filter (fun p => nth i (snd p) 0 =? 0) (paths (2 ^ n) (K + n)))) = Some m0 /\
      big T mx (map w (filter (fun p => nth i (snd p) 0 =? 1) (paths (2 ^ n) (K + n)))) = Some m1 /\
      nth i ext' zero = sub (post (sub m0 m1)) (nth i sys zero).
Proof.
  intros T zero neg add sub imul mx half post nrm isneg L K N p0 p1 ps e t HC OD HT n b d m sys par ext R LS LP LE a0 w.
  destruct (setup _ _ _ _ _ _ _ HC OD HT) as (Hn & HK & HN & H0 & H1 & HX & HP & TO & SH & OP & H2). fold n in Hn, HN, H0, H1, HX, HP, TO, SH, OP, H2.
  destruct (reached_ok T zero neg add sub imul mx half post nrm L _ _ _ K n t HX HP TO SH OP H2 HK isneg b d m R) as [HD _].
  destruct (alt_ok T zero neg add sub imul mx half post nrm L _ _ _ K n t HX HP TO SH OP H2 HK d sys par ext HD LS LP ltac:(lia)) as (d' & ext' & E & _ & LE' & V & _).
  exists d', ext'. split; auto. split; [lia|]. intros i Hi. destruct (V i Hi) as (m0 & m1 & E0 & E1 & EX).
  exists m0, m1. rewrite <- (sel_sys (next_spec p0 n) (2 ^ n) (K + n) i 0), <- (sel_sys (next_spec p0 n) (2 ^ n) (K + n) i 1) by lia. auto.
Qed.

(** decode_siso; [mx] starts from [neg], and nothing is normalised (all types but the 16-bit
    and 8-bit integers). *)
Theorem C111_siso : forall T (zero neg : T) add sub imul mx half post isneg, laws T zero add sub imul mx half ->
  forall K N p0 p1 ps e t, rsc_generic_ctor K N (p0 :: p1 :: ps) = Ret e -> Nat.odd p0 = true -> get_trellis e = Ret t ->
  let n := n_ff e in
  forall d m Y1 Y2, reached T zero neg add sub imul mx half post (fun _ => false) t (2 ^ n) K n isneg true d m ->
  length Y1 = N -> length Y2 = N ->
  let a0 := fun j => if j =? 0 then zero else neg in
  let w := weight T zero add sub half (next_spec p0 n) (par_spec p0 p1 n) (fun i => nth i Y1 zero) (fun i => nth (K + n + i) Y1 zero) a0 in
  exists d' Y2', decode_siso T neg add sub imul mx half post (fun _ => false) t (2 ^ n) K n true d Y1 Y2 = Ret (d', Y2') /\ length Y2' = N /\
    forall i, i < K + n ->
      (exists m0 m1,
        big T mx (neg :: map w (filter (fun p => nth i (snd p) 0 =? 0) (paths (2 ^ n) (K + n)))) = Some m0 /\
        big T mx (neg :: map w (filter (fun p => nth i (snd p) 0 =? 1) (paths (2 ^ n) (K + n)))) = Some m1 /\
        nth i Y2' zero = sub (post (sub m0 m1)) (nth i Y1 zero)) /\
      (exists m0 m1,
        big T mx (neg :: map w (filter (fun p => parity (next_spec p0 n) (par_spec p0 p1 n) p i =? 0) (paths (2 ^ n) (K + n)))) = Some m0 /\
        big T mx (neg :: map w (filter (fun p => parity (next_spec p0 n) (par_spec p0 p1 n) p i =? 1) (paths (2 ^ n) (K + n)))) = Some m1 /\
        nth (K + n + i) Y2' zero = sub (post (sub m0 m1)) (nth (K + n + i) Y1 zero)).
Proof.
  intros T zero neg add sub imul mx half post isneg L K N p0 p1 ps e t HC OD HT n d m Y1 Y2 R LY1 LY2 a0 w.
  destruct (setup _ _ _ _ _ _ _ HC OD HT) as (Hn & HK & HN & H0 & H1 & HX & HP & TO & SH & OP & H2). fold n in Hn, HN, H0, H1, HX, HP, TO, SH, OP, H2.
  destruct (reached_ok T zero neg add sub imul mx half post _ L _ _ _ K n t HX HP TO SH OP H2 HK isneg true d m R) as [HD _].
  destruct (siso_ok T zero neg add sub imul mx half post (fun _ => false) L _ _ _ K n t HX HP TO SH OP H2 HK d Y1 Y2 ltac:(auto) HD ltac:(lia) ltac:(lia)) as (d' & Y2' & E & LE' & V1 & V2).
  exists d', Y2'. split; auto. split; [lia|].
  assert (NS1 : forall i, i < K + n -> nth i (firstn (K + n) Y1) zero = nth i Y1 zero). { intros i Hi. rewrite <- (firstn_skipn (K + n) Y1) at 2. rewrite app_nth1; auto. rewrite firstn_length. lia. }
  assert (NP1 : forall i, nth i (skipn (K + n) Y1) zero = nth (K + n + i) Y1 zero). { intros i. rewrite <- (firstn_skipn (K + n) Y1) at 2. rewrite app_nth2; rewrite firstn_length; [f_equal|]; lia. }
  assert (WE : forall p, In p (paths (2 ^ n) (K + n)) -> weight T zero add sub half (next_spec p0 n) (par_spec p0 p1 n) (fun i => nth i (firstn (K + n) Y1) zero) (fun i => nth i (skipn (K + n) Y1) zero) a0 p = w p).
  { intros [s us] Hp. apply paths_in in Hp. cbn [fst snd] in Hp. destruct Hp as (_ & LU & _). unfold w, weight. cbn [fst snd]. f_equal. f_equal. f_equal.
    assert (G : forall us j s, j + length us <= K + n -> corr T zero add sub (next_spec p0 n) (par_spec p0 p1 n) (fun i => nth i (firstn (K + n) Y1) zero) (fun i => nth i (skipn (K + n) Y1) zero) j s us =
      corr T zero add sub (next_spec p0 n) (par_spec p0 p1 n) (fun i => nth i Y1 zero) (fun i => nth (K + n + i) Y1 zero) j s us).
    { induction us0 as [|c us0 IH]; intros j s0 Hj; auto. cbn [corr length] in *. rewrite IH by lia. rewrite NS1 by lia. rewrite NP1. auto. }
    apply G. lia. }
  assert (ME : forall f, map (weight T zero add sub half (next_spec p0 n) (par_spec p0 p1 n) (fun i => nth i (firstn (K + n) Y1) zero) (fun i => nth i (skipn (K + n) Y1) zero) a0) (filter f (paths (2 ^ n) (K + n))) = map w (filter f (paths (2 ^ n) (K + n)))).
  { intros f. apply map_ext_in. intros p Hp. apply filter_In in Hp. apply WE. apply Hp. }
  intros i Hi. split.
  - destruct (V1 i Hi) as (m0 & m1 & E0 & E1 & EX). exists m0, m1. rewrite !(big_cons T mx), <- !ME.
    rewrite <- (sel_sys (next_spec p0 n) (2 ^ n) (K + n) i 0), <- (sel_sys (next_spec p0 n) (2 ^ n) (K + n) i 1) by lia. rewrite NS1 in EX by auto. auto.
  - destruct (V2 i Hi) as (m0 & m1 & E0 & E1 & EX). exists m0, m1. rewrite !(big_cons T mx), <- !ME.
    rewrite <- (sel_par (next_spec p0 n) (par_spec p0 p1 n) (2 ^ n) (K + n) i 0), <- (sel_par (next_spec p0 n) (par_spec p0 p1 n) (2 ^ n) (K + n) i 1) by (auto; lia).
    rewrite NP1 in EX. auto.
Qed.

(** The other layout is refused. *)
Theorem C111_layout : forall T (neg : T) add sub imul mx half post nrm t NS K n d Y1 Y2,
  decode_siso T neg add sub imul mx half post nrm t NS K n false d Y1 Y2 = Throws.
Proof. reflexivity. Qed.

(* ------------------------------------------------------------------ *)
(** * C112: the max-log decoder of integers compares the best codewords *)
Open Scope Z_scope.

Theorem C112_siso_alt : forall K N p0 p1 ps e t, rsc_generic_ctor K N (p0 :: p1 :: ps) = Ret e -> Nat.odd p0 = true -> get_trellis e = Ret t ->
  let n := n_ff e in
  forall b d m Y sys par ext, short_reached t (2 ^ n) K n b d m ->
  length Y = N -> 2 * magnitude Y <= 2 ^ 14 ->
  sys = tab (K + n) (fun i => nth (sys_pos b i) Y 0) -> par = tab (K + n) (fun i => nth (par_pos b (K + n) i) Y 0) -> length ext = K ->
  exists d' ext', short_alt t (2 ^ n) K n d sys par ext = Ret (d', ext') /\ length ext' = K /\
    forall i, (i < K)%nat -> exists x0 x1,
      best_with (rsc_code p0 p1 n b K) Y (sys_pos b i) 0 x0 /\ best_with (rsc_code p0 p1 n b K) Y (sys_pos b i) 1 x1 /\
      2 * (nth i ext' 0 + nth (sys_pos b i) Y 0) = correlation Y x0 - correlation Y x1.
Proof.
  intros K N p0 p1 ps e t HC OD HT n b d m Y sys par ext R LY MY ES EP LE. change (2 ^ 14) with 16384 in MY.
  destruct (setup _ _ _ _ _ _ _ HC OD HT) as (Hn & HK & HN & H0 & H1 & HX & HP & TO & SH & OP & H2). fold n in Hn, HN, H0, H1, HX, HP, TO, SH, OP, H2.
  destruct (reached_ok Z 0 (-16384) Z.add Z.sub Z.mul Z.max (fun x => x) (fun x => x / 2) short_nrm z_laws _ _ _ K n t HX HP TO SH OP H2 HK (fun x => x <? 0) b d m R) as [HD _].
  assert (LS : length sys = (K + n)%nat) by (subst sys; apply length_tab). assert (LP : length par = (K + n)%nat) by (subst par; apply length_tab).
  destruct (alt_ok Z 0 (-16384) Z.add Z.sub Z.mul Z.max (fun x => x) (fun x => x / 2) short_nrm z_laws _ _ _ K n t HX HP TO SH OP H2 HK d sys par ext HD ltac:(lia) ltac:(lia) ltac:(lia)) as (d' & ext' & E & _ & LE' & V & _).
  exists d', ext'. split; auto. split; [lia|]. intros i Hi. specialize (V i Hi).
  assert (HY : forall q, (q < K + n)%nat -> nth q sys 0 = nth (sys_pos b q) Y 0 /\ nth q par 0 = nth (par_pos b (K + n) q) Y 0). { intros q Hq. subst sys par. rewrite !nth_tab by auto. auto. }
  rewrite <- (proj1 (HY i ltac:(lia))).
  apply (short_val p0 p1 n K Y sys par b i _ _ Hn H0 H1 ltac:(lia) MY Hi HY V).
Qed.

(* ------------------------------------------------------------------ *)
(** * C113: hard decisions *)

(** With the parities of [par] in the frame. *)
Lemma siho_best : forall K N p0 p1 ps e t, rsc_generic_ctor K N (p0 :: p1 :: ps) = Ret e -> Nat.odd p0 = true -> get_trellis e = Ret t ->
  let n := n_ff e in
  forall b d m Y Y' V, short_reached t (2 ^ n) K n b d m -> (b = true -> forall i, (K <= i)%nat -> nth i (snd (fst (fst m))) 0 = 0) ->
  length Y = N -> length V = K -> length Y' = N -> 2 * magnitude Y' <= 16384 ->
  (forall q, (q < N)%nat -> nth q Y' 0 = if b && (2 * K + n <=? q)%nat then 0 else nth q Y 0) ->
  exists d' m' V', short_siho t (2 ^ n) K n (fun x => x <? 0) b d m Y V = Ret (d', m', V') /\ length V' = K /\
    forall x, only_best (rsc_code p0 p1 n b K) Y' x -> carries b V' x.
Proof.
  intros K N p0 p1 ps e t HC OD HT n b d m Y Y' V R HT0 LY LV LY' MY EY.
  destruct (setup _ _ _ _ _ _ _ HC OD HT) as (Hn & HK & HN & H0 & H1 & HX & HP & TO & SH & OP & H2). fold n in Hn, HN, H0, H1, HX, HP, TO, SH, OP, H2.
  destruct (reached_ok Z 0 (-16384) Z.add Z.sub Z.mul Z.max (fun x => x) (fun x => x / 2) short_nrm z_laws _ _ _ K n t HX HP TO SH OP H2 HK (fun x => x <? 0) b d m R) as [HD HM].
  destruct m as [[[sys par] ext] s]. cbn [fst snd] in HT0.
  destruct (siho_ok Z 0 (-16384) Z.add Z.sub Z.mul Z.max (fun x => x) (fun x => x / 2) short_nrm z_laws _ _ _ K n t HX HP TO SH OP H2 HK (fun x => x <? 0) b d sys par ext s Y V HD HM ltac:(lia) ltac:(lia))
    as (d' & sys' & par' & ext' & s' & V' & E & _ & _ & LV' & V1 & V2 & V3 & V4 & _).
  exists d', (sys', par', ext', s'), V'. split; auto. split; [lia|]. intros x BX i Hi.
  assert (HY : forall q, (q < K + n)%nat -> nth q sys' 0 = nth (sys_pos b q) Y' 0 /\ nth q par' 0 = nth (par_pos b (K + n) q) Y' 0).
  { intros q Hq. pose proof (sys_pos_lt b (K + n) q Hq). pose proof (par_pos_lt b (K + n) q Hq). rewrite !EY by lia. rewrite V1 by auto. destruct b; cbn [andb].
    - cbn [sys_pos par_pos]. destruct (Nat.leb_spec (2 * K + n) q); [lia|]. split; auto. destruct (Nat.leb_spec (2 * K + n) (K + n + q)).
      + rewrite V3 by (auto; lia). apply HT0; auto. lia.
      + apply V2. lia.
    - split; auto. }
  destruct (V4 i ltac:(lia)) as (z & EV & EH). rewrite EH.
  destruct (short_val p0 p1 n K Y' sys' par' b i _ _ Hn H0 H1 ltac:(lia) MY ltac:(lia) HY EV) as (x0 & x1 & B0 & B1 & EE).
  symmetry. apply (short_hard _ _ _ _ _ _ _ B0 B1 EE BX). apply (code_bits _ _ _ _ _ _ (proj1 BX)).
Qed.

(** Interleaved layout (not buffered): maximum likelihood. *)
Theorem C113_ml : forall K N p0 p1 ps e t, rsc_generic_ctor K N (p0 :: p1 :: ps) = Ret e -> Nat.odd p0 = true -> get_trellis e = Ret t ->
  let n := n_ff e in
  forall d m Y V, short_reached t (2 ^ n) K n false d m -> length Y = N -> 2 * magnitude Y <= 2 ^ 14 -> length V = K ->
  exists d' m' V', short_siho t (2 ^ n) K n (fun x => x <? 0) false d m Y V = Ret (d', m', V') /\ length V' = K /\
    forall x, only_best (rsc_code p0 p1 n false K) Y x -> carries false V' x.
Proof.
  intros. apply (siho_best K N p0 p1 ps e t H H0 H1 false d m Y Y V); auto. discriminate.
Qed.

Theorem C113_noiseless : forall K N p0 p1 ps e t, rsc_generic_ctor K N (p0 :: p1 :: ps) = Ret e -> Nat.odd p0 = true -> get_trellis e = Ret t ->
  let n := n_ff e in
  forall d m u buf x a V, short_reached t (2 ^ n) K n false d m -> bits u -> length u = K -> length buf = N -> rsc_encode e false K u buf = Ret x ->
  0 < a -> 2 * (a * Z.of_nat N) <= 2 ^ 14 -> length V = K ->
  exists d' m', short_siho t (2 ^ n) K n (fun x => x <? 0) false d m (clean a x) V = Ret (d', m', u).
Proof.
  intros K N p0 p1 ps e t HC OD HT n d m u buf x a V R BU LU LB EX HA MA LV.
  destruct (C19_encode _ _ _ _ _ _ false u buf HC BU LU LB) as (x' & E' & LX & CX & CA). rewrite EX in E'. inversion E'; subst x'.
  fold n in CX. pose proof (code_bits _ _ _ _ _ _ CX) as BX.
  destruct (setup _ _ _ _ _ _ _ HC OD HT) as (_ & _ & HN & _). fold n in HN.
  destruct (C113_ml K N p0 p1 ps e t HC OD HT d m (clean a x) V R) as (d' & m' & V' & E & LV' & HV); auto.
  { unfold clean. rewrite map_length. lia. } { rewrite clean_magnitude by (auto; lia). rewrite LX. auto. }
  fold n in E, HV. exists d', m'. rewrite E. do 2 f_equal. apply (list_eq_nth _ 0%nat); [lia|]. intros k Hk.
  assert (OB : only_best (rsc_code p0 p1 n false K) (clean a x) x).
  { apply (clean_best _ N); auto. intros y CY. split; [destruct CY as [-> _]; lia|apply (code_bits _ _ _ _ _ _ CY)]. }
  rewrite <- (HV x OB) by auto.
  apply CA. lia.
Qed.

(** Buffered layout: the parities of the tail are never loaded, the decision is that of the
    frame where they are erased. *)
Lemma par_tail : forall K N p0 p1 ps e t, rsc_generic_ctor K N (p0 :: p1 :: ps) = Ret e -> Nat.odd p0 = true -> get_trellis e = Ret t ->
  let n := n_ff e in
  forall d m, short_reached t (2 ^ n) K n true d m -> forall i, (K <= i)%nat -> nth i (snd (fst (fst m))) 0 = 0.
Proof.
  intros K N p0 p1 ps e t HC OD HT n d m R.
  destruct (setup _ _ _ _ _ _ _ HC OD HT) as (Hn & HK & HN & H0 & H1 & HX & HP & TO & SH & OP & H2). fold n in Hn, HN, H0, H1, HX, HP, TO, SH, OP, H2.
  unfold short_reached in R. induction R as [|d m sys par ext d' ext' R IH LS LP LE E|d m Y1 Y2 d' Y2' R IH L1 L2 E|d m Y V d' m' V' R IH LY LV E]; auto.
  - intros i Hi. cbn. apply nth_repeat.
  - destruct (reached_ok Z 0 (-16384) Z.add Z.sub Z.mul Z.max (fun x => x) (fun x => x / 2) short_nrm z_laws _ _ _ K n t HX HP TO SH OP H2 HK (fun x => x <? 0) true d m R) as [HD HM].
    destruct m as [[[sys par] ext] s]. cbn [fst snd] in IH.
    destruct (siho_ok Z 0 (-16384) Z.add Z.sub Z.mul Z.max (fun x => x) (fun x => x / 2) short_nrm z_laws _ _ _ K n t HX HP TO SH OP H2 HK (fun x => x <? 0) true d sys par ext s Y V HD HM LY LV)
      as (d1 & sys' & par' & ext' & s' & V1 & E1 & _ & _ & _ & _ & _ & V3 & _). rewrite E in E1. inversion E1; subst. cbn [fst snd]. intros i Hi. rewrite V3 by auto. auto.
Qed.
Theorem C113_buffered_partial : forall K N p0 p1 ps e t, rsc_generic_ctor K N (p0 :: p1 :: ps) = Ret e -> Nat.odd p0 = true -> get_trellis e = Ret t ->
  let n := n_ff e in
  forall d m Y V, short_reached t (2 ^ n) K n true d m -> length Y = N -> length V = K ->
  let Y' := firstn (N - n) Y ++ repeat 0 n in 2 * magnitude Y' <= 2 ^ 14 ->
  exists d' m' V', short_siho t (2 ^ n) K n (fun x => x <? 0) true d m Y V = Ret (d', m', V') /\ length V' = K /\
    forall x, only_best (rsc_code p0 p1 n true K) Y' x -> carries true V' x.
Proof.
  intros K N p0 p1 ps e t HC OD HT n d m Y V R LY LV Y' MY.
  destruct (setup _ _ _ _ _ _ _ HC OD HT) as (Hn & HK & HN & _). fold n in Hn, HN.
  apply (siho_best K N p0 p1 ps e t HC OD HT true d m Y Y' V); auto.
  - intros _. apply (par_tail K N p0 p1 ps e t HC OD HT d m R).
  - unfold Y'. rewrite app_length, firstn_length, repeat_length. lia.
  - intros q Hq. fold n. cbn [andb]. unfold Y'. destruct (Nat.leb_spec (2 * K + n) q).
    + rewrite app_nth2; rewrite firstn_length; [|lia]. apply nth_repeat.
    + rewrite app_nth1 by (rewrite firstn_length; lia). rewrite <- (firstn_skipn (N - n) Y) at 2. rewrite app_nth1 by (rewrite firstn_length; lia). auto.
Qed.

Definition init75 K := bcjr_init Z 0 (-16384) 4 (K + 2).
Definition mem75 K : list Z * list Z * list Z * list nat := (repeat 0 (K + 2)%nat, repeat 0 (K + 2)%nat, repeat 0 K, repeat 0%nat K).

Lemma code75 : forall y, rsc_code 7 5 2 true 1 y -> y = [0; 0; 0; 0; 0; 0]%nat \/ y = [1; 1; 1; 1; 0; 1]%nat.
Proof.
  intros y (LY & w & LW & BW & F). destruct w as [|c [|? ?]]; [discriminate| |discriminate]. inversion BW as [|? ? BC]; subst.
  destruct y as [|y0 [|y1 [|y2 [|y3 [|y4 [|y5 [|? ?]]]]]]]; try discriminate.
  pose proof (F 0%nat ltac:(lia)) as [F0 G0]. pose proof (F 1%nat ltac:(lia)) as [F1 G1]. pose proof (F 2%nat ltac:(lia)) as [F2 G2].
  destruct (lt2 _ BC); subst c; [left|right]; vm_compute in F0, G0, F1, G1, F2, G2; subst; reflexivity.
Qed.
Theorem C113_buffered_refuted : exists K N p0 p1 e t Y d' m' V' x,
  rsc_generic_ctor K N [p0; p1] = Ret e /\ Nat.odd p0 = true /\ get_trellis e = Ret t /\ n_ff e = 2%nat /\ length Y = N /\ 2 * magnitude Y <= 2 ^ 14 /\
  short_siho t 4 K 2 (fun x => x <? 0) true (init75 K) (mem75 K) Y (repeat 0%nat K) = Ret (d', m', V') /\
  only_best (rsc_code p0 p1 2 true K) Y x /\ ~ carries true V' x.
Proof.
  exists 1%nat, 6%nat, 7%nat, 5%nat. eexists. eexists. exists [0; 0; 0; 0; 0; -8]. eexists. eexists. exists [0%nat], [1; 1; 1; 1; 0; 1]%nat.
  split; [vm_compute; reflexivity|]. split; [reflexivity|]. split; [vm_compute; reflexivity|]. split; [reflexivity|]. split; [reflexivity|]. split; [cbv; discriminate|].
  split; [vm_compute; reflexivity|]. split.
  - split.
    + split; auto. exists [1%nat]. split; auto. split. { constructor; auto. } intros q Hq. do 3 (destruct q as [|q]; [split; reflexivity|]). lia.
    + intros y CY NE. destruct (code75 y CY) as [-> | ->]; [reflexivity|congruence].
  - intros CA. specialize (CA 0%nat ltac:(cbn; lia)). discriminate.
Qed.

(** An even feedback polynomial, which the encoder accepts: a noiseless frame is decoded
    wrongly, the two transitions entering a state have the same sign. *)
Theorem C113_even_refuted : exists K N p0 p1 e t u x d' m' V',
  rsc_generic_ctor K N [p0; p1] = Ret e /\ get_trellis e = Ret t /\ n_ff e = 2%nat /\ bits u /\ length u = K /\
  rsc_encode e false K u (repeat 0%nat N) = Ret x /\
  short_siho t 4 K 2 (fun x => x <? 0) false (init75 K) (mem75 K) (clean 1 x) (repeat 0%nat K) = Ret (d', m', V') /\ V' <> u.
Proof.
  exists 3%nat, 10%nat, 6%nat, 5%nat. eexists. eexists. exists [1; 0; 0]%nat. eexists. eexists. eexists. exists [1; 1; 0]%nat.
  split; [vm_compute; reflexivity|]. split; [vm_compute; reflexivity|]. split; [reflexivity|]. split. { repeat (constructor; auto). } split; [reflexivity|].
  split; [vm_compute; reflexivity|]. split; [vm_compute; reflexivity|]. discriminate.
Qed.

(* ------------------------------------------------------------------ *)
(** * Examples *)

(** Two frames in a row with the code (7, 5): a noisy one, then a clean one. *)
Example bcjr_history : exists e t d m d1 m1,
  rsc_generic_ctor 3 10 [7; 5]%nat = Ret e /\ get_trellis e = Ret t /\
  short_reached t 4 3 2 false (init75 3) (mem75 3) /\
  short_siho t 4 3 2 (fun x => x <? 0) false (init75 3) (mem75 3) [-2; -5; -1; -5; 3; -4; -2; -1; 4; 3] [7; 7; 7]%nat = Ret (d, m, [1; 0; 0]%nat) /\
  short_siho t 4 3 2 (fun x => x <? 0) false d m (clean 7 [0; 0; 1; 1; 1; 0; 1; 1; 0; 0]%nat) [7; 7; 7]%nat = Ret (d1, m1, [0; 1; 1]%nat) /\
  short_reached t 4 3 2 false d1 m1.
Proof.
  do 6 eexists. split; [vm_compute; reflexivity|]. split; [vm_compute; reflexivity|]. split; [apply reached_init|].
  split; [vm_compute; reflexivity|]. split; [vm_compute; reflexivity|].
  eapply (reached_siho Z) with (Y := clean 7 [0; 0; 1; 1; 1; 0; 1; 1; 0; 0]%nat) (V := [7; 7; 7]%nat).
  - eapply (reached_siho Z) with (Y := [-2; -5; -1; -5; 3; -4; -2; -1; 4; 3]) (V := [7; 7; 7]%nat); [apply reached_init|cbn; lia|cbn; lia|vm_compute; reflexivity].
  - cbn; lia.
  - cbn; lia.
  - vm_compute; reflexivity.
Qed.

(** A soft output and the best codeword with the bit 1. *)
Example bcjr_soft : exists e t d ext, rsc_generic_ctor 3 10 [7; 5]%nat = Ret e /\ get_trellis e = Ret t /\
  short_alt t 4 3 2 (init75 3) [-2; -1; 3; -2; 4] [-5; -5; -4; -1; 3] [0; 0; 0] = Ret (d, ext) /\
  best_with (rsc_code 7 5 2 false 3) [-2; -5; -1; -5; 3; -4; -2; -1; 4; 3] 0 1 [1; 1; 0; 1; 0; 1; 1; 1; 0; 0]%nat /\ nth 0 ext 0 < 0.
Proof.
  do 4 eexists. split; [vm_compute; reflexivity|]. split; [vm_compute; reflexivity|]. split; [vm_compute; reflexivity|]. split; [|reflexivity].
  split.
  - split; auto. exists [1; 1; 0]%nat. split; auto. split. { repeat (constructor; auto). } intros q Hq. do 5 (destruct q as [|q]; [split; reflexivity|]). lia.
  - split; auto. intros y (LY & w & LW & BW & F) B0.
    destruct w as [|a [|b [|c [|? ?]]]]; try discriminate. inversion BW as [|? ? B1 BW1]; subst. inversion BW1 as [|? ? B2 BW2]; subst. inversion BW2 as [|? ? B3 BW3]; subst.
    destruct y as [|y0 [|y1 [|y2 [|y3 [|y4 [|y5 [|y6 [|y7 [|y8 [|y9 [|? ?]]]]]]]]]]]; try discriminate.
    pose proof (F 0%nat ltac:(lia)) as [F0 G0]. pose proof (F 1%nat ltac:(lia)) as [F1 G1]. pose proof (F 2%nat ltac:(lia)) as [F2 G2].
    pose proof (F 3%nat ltac:(lia)) as [F3 G3]. pose proof (F 4%nat ltac:(lia)) as [F4 G4]. clear F.
    destruct (lt2 _ B1); destruct (lt2 _ B2); destruct (lt2 _ B3); subst; vm_compute in F0, G0, F1, G1, F2, G2, F3, G3, F4, G4; subst; try discriminate; vm_compute; discriminate.
Qed.
