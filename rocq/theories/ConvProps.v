From Coq Require Import List Arith ZArith Lia Bool.
From Verif Require Import Base Copy ConvModel ConvSpec ConvProofs ConvCodeProofs ConvTrellisProofs TurboProofs DbProofs.
Import ListNotations.

(* ------------------------------------------------------------------ *)
(** * C19: RSC encoders *)

Lemma generic_nff : forall p0 p1 n, n_ff (rsc_generic p0 p1 n) = n.
Proof. intros. unfold rsc_generic. destruct (rsc_tables p0 p1 n) as [[? ?] ?]. auto. Qed.

(** Encoding never throws; the frame is in the terminated code and carries the message. *)
Theorem C19_encode : forall K N p0 p1 ps e b u x,
  rsc_generic_ctor K N (p0 :: p1 :: ps) = Ret e -> bits u -> length u = K -> length x = N ->
  exists o, rsc_encode e b K u x = Ret o /\ length o = N /\ rsc_code p0 p1 (n_ff e) b K o /\ carries b u o.
Proof.
  intros K N p0 p1 ps e b u x HC BU LU LX. destruct (ctor_inv _ _ _ _ HC) as (q0 & q1 & n & <- & <- & Hn & H0 & H1 & _ & _ & HK & HN & ->). cbn [nth] in *.
  pose proof (machine_generic p0 p1 n Hn) as M. rewrite generic_nff.
  destruct (rsc_encode_ret _ _ _ _ _ M) with (b := b) (K := K) (u := u) (x := x) as (o & E & LO & I); auto; rewrite ?generic_nff in *; try lia.
  { apply generic_term; auto. }
  exists o. split; auto. split; [lia|]. split.
  - apply (follows_code p0 p1 n Hn H0 H1 b K u o); auto.
  - intros k Hk. rewrite (proj1 (I k ltac:(lia))). unfold in_at. destruct (Nat.ltb_spec k K); auto. lia.
Qed.

(** is_codeword decides membership in that code. *)
Theorem C19_is_codeword : forall K N p0 p1 ps e b x,
  rsc_generic_ctor K N (p0 :: p1 :: ps) = Ret e -> bits x -> length x = N ->
  exists r, rsc_is_codeword e b K x = Ret r /\ (r = true <-> rsc_code p0 p1 (n_ff e) b K x).
Proof.
  intros K N p0 p1 ps e b x HC BX LX. destruct (ctor_inv _ _ _ _ HC) as (q0 & q1 & n & <- & <- & Hn & H0 & H1 & _ & _ & HK & HN & ->). cbn [nth] in *.
  pose proof (machine_generic p0 p1 n Hn) as M. rewrite generic_nff.
  destruct (rsc_is_codeword_ok _ _ _ _ _ M b K x) as (r & E & I). { apply info_bits. auto. } { rewrite generic_nff. lia. }
  exists r. split; auto. rewrite I. rewrite generic_nff. split.
  - intros F. apply (follows_code p0 p1 n Hn H0 H1 b K (info b K x)); auto. { apply length_tab. } { apply info_bits. auto. } { lia. }
  - intros C. apply (code_follows p0 p1 n Hn H0 H1) in C. apply C.
Qed.

(** A codeword is determined by its message: encode is the only systematic encoder. *)
Theorem C19_unique : forall K N p0 p1 ps e b u x y,
  rsc_generic_ctor K N (p0 :: p1 :: ps) = Ret e -> length u = K ->
  rsc_code p0 p1 (n_ff e) b K x -> rsc_code p0 p1 (n_ff e) b K y -> carries b u x -> carries b u y -> x = y.
Proof.
  intros K N p0 p1 ps e b u x y HC LU CX CY AX AY. destruct (ctor_inv _ _ _ _ HC) as (q0 & q1 & n & <- & <- & Hn & H0 & H1 & _ & _ & HK & HN & ->). cbn [nth] in *.
  rewrite generic_nff in *. apply (code_unique p0 p1 n Hn H0 H1 b K); auto. apply tab_ext. intros k Hk. rewrite AX, AY by lia. auto.
Qed.

Theorem C19_linear : forall K N p0 p1 ps e b u v x y ou ov,
  rsc_generic_ctor K N (p0 :: p1 :: ps) = Ret e -> bits u -> bits v -> length u = K -> length v = K -> length x = N -> length y = N ->
  rsc_encode e b K u x = Ret ou -> rsc_encode e b K v y = Ret ov ->
  forall z, length z = N -> rsc_encode e b K (xor_list u v) z = Ret (xor_list ou ov).
Proof.
  intros K N p0 p1 ps e b u v x y ou ov HC BU BV LU LV LX LY EU EV z LZ.
  destruct (C19_encode _ _ _ _ _ _ b u x HC BU LU LX) as (o1 & E1 & L1 & C1 & A1). rewrite EU in E1. inversion E1; subst o1.
  destruct (C19_encode _ _ _ _ _ _ b v y HC BV LV LY) as (o2 & E2 & L2 & C2 & A2). rewrite EV in E2. inversion E2; subst o2.
  destruct (C19_encode _ _ _ _ _ _ b (xor_list u v) z HC) as (o3 & E3 & L3 & C3 & A3); auto. { apply bits_xor. } { rewrite length_xor; lia. }
  rewrite E3. f_equal. apply (C19_unique _ _ _ _ _ _ b (xor_list u v) _ _ HC); auto. { rewrite length_xor; lia. }
  { apply code_lin; auto. }
  intros k Hk. rewrite length_xor in Hk by lia. rewrite !nth_xor by lia. rewrite A1, A2 by lia. auto.
Qed.

(** The published positions are those of the message bits. *)
Theorem C19_info_pos : forall K N p0 p1 ps e b u x o,
  rsc_generic_ctor K N (p0 :: p1 :: ps) = Ret e -> bits u -> length u = K -> length x = N -> rsc_encode e b K u x = Ret o ->
  map (fun p => nth p o 0) (rsc_info_pos b K) = u.
Proof.
  intros K N p0 p1 ps e b u x o HC BU LU LX E. destruct (C19_encode _ _ _ _ _ _ b u x HC BU LU LX) as (o1 & E1 & L1 & C1 & A1).
  rewrite E in E1. inversion E1; subst o1. symmetry. unfold rsc_info_pos, tab. rewrite map_map. apply (eq_tab _ 0); auto.
  intros i Hi. symmetry. apply A1. lia.
Qed.

Theorem C19_trellis : forall K N p0 p1 ps e, rsc_generic_ctor K N (p0 :: p1 :: ps) = Ret e ->
  exists t, get_trellis e = Ret t /\ trellis_ok (2 ^ n_ff e) (next_spec p0 (n_ff e)) (par_spec p0 p1 (n_ff e)) t.
Proof.
  intros K N p0 p1 ps e HC. destruct (ctor_inv _ _ _ _ HC) as (q0 & q1 & n & <- & <- & Hn & H0 & H1 & _ & _ & HK & HN & ->). cbn [nth] in *.
  pose proof (machine_generic p0 p1 n Hn) as M. pose proof (gen_edges p0 n Hn) as G.
  destruct (get_trellis_ok (rsc_generic p0 p1 n) (par_spec p0 p1 n) (next_spec p0 n) (tapped p0 n)) with (E1 := gen_edge p0 n 0) (E2 := gen_edge p0 n 1) as (t & E & T).
  - rewrite generic_nff. auto.
  - rewrite generic_nff. auto.
  - rewrite generic_nff in *. exists t. split; [exact E|exact T].
Qed.

(** The CPE encoder. *)
Lemma cpe_step_ok : forall b s, b < 2 -> s < 8 -> cpe_step b (cells3 s) = (cells3 (cpe_next b s), cpe_par b s).
Proof. intros b s Hb Hs. do 8 (destruct s as [|s]; [destruct (lt2 _ Hb); subst; reflexivity|]). lia. Qed.
Lemma cells3_inj : forall s, s < 8 -> cells3 s = (0, 0, 0) -> s = 0.
Proof. intros s Hs. do 8 (destruct s as [|s]; [cbv; intros; congruence|]). lia. Qed.
Lemma cpe_forced : forall s a b c, s < 8 -> a < 2 -> b < 2 -> c < 2 -> cpe_next c (cpe_next b (cpe_next a s)) = 0 ->
  a = cpe_tail s /\ b = cpe_tail (cpe_next a s) /\ c = cpe_tail (cpe_next b (cpe_next a s)).
Proof.
  intros s a b c Hs Ha Hb Hc. do 8 (destruct s as [|s]; [destruct (lt2 _ Ha), (lt2 _ Hb), (lt2 _ Hc); subst; vm_compute; intros; try discriminate; auto|]). lia.
Qed.

Theorem C19_cpe_encode : forall K b u x, bits u -> length u = K -> length x = 2 * K + 6 ->
  exists o, rsc_encode rsc_cpe b K u x = Ret o /\ cpe_code b K o /\ carries b u o.
Proof.
  intros K b u x BU LU LX.
  destruct (rsc_encode_ret _ _ _ _ _ machine_cpe cpe_term b K u x) as (o & E & LO & I); auto. cbn [n_ff rsc_cpe] in *.
  exists o. split; auto. split.
  - split; [lia|]. exists (fun t => cells3 (st_at cpe_next cpe_tail K u t)). split; auto. split. { pose proof (cpe_term K u BU) as CT0. cbn [n_ff rsc_cpe] in CT0. rewrite CT0. auto. }
    intros t Ht. destruct (I t Ht) as [-> ->]. rewrite cpe_step_ok; auto.
    + apply (in_lt _ _ _ _ _ machine_cpe). auto. + apply (st_lt _ _ _ _ _ machine_cpe). auto.
  - intros k Hk. rewrite (proj1 (I k ltac:(lia))). unfold in_at. destruct (Nat.ltb_spec k K); auto. lia.
Qed.

Theorem C19_cpe_is_codeword : forall K b x, length x = 2 * K + 6 -> (forall t, t < K + 3 -> nth (sys_pos b t) x 0 < 2) ->
  exists r, rsc_is_codeword rsc_cpe b K x = Ret r /\ (r = true <-> cpe_code b K x).
Proof.
  intros K b x LX BX. assert (BI : bits (info b K x)). { apply bits_tab. intros. apply BX. lia. }
  destruct (rsc_is_codeword_ok _ _ _ _ _ machine_cpe b K x) as (r & E & I); auto. cbn [n_ff rsc_cpe] in *.
  exists r. split; auto. rewrite I. set (u := info b K x) in *. clear I E.
  pose proof (st_lt _ _ _ _ _ machine_cpe K u BI) as SL. pose proof (in_lt _ _ _ _ _ machine_cpe K u BI) as IL.
  split.
  - intros F. split; auto. exists (fun t => cells3 (st_at cpe_next cpe_tail K u t)). split; auto. split.
    { pose proof (cpe_term K u BI) as CT0. cbn [n_ff rsc_cpe] in CT0. rewrite CT0. auto. } intros t Ht. destruct (F t Ht) as [-> ->]. rewrite cpe_step_ok; auto.
  - intros (_ & c & C0 & CE & CS).
    assert (A1 : forall t, t <= K -> c t = cells3 (st_at cpe_next cpe_tail K u t)).
    { induction t; intros Ht; auto. specialize (CS t ltac:(lia)). rewrite IHt in CS by lia.
      assert (EI : nth (sys_pos b t) x 0 = in_at cpe_next cpe_tail K u t). { unfold in_at, u, info. destruct (Nat.ltb_spec t K); [|lia]. rewrite nth_tab; auto. }
      rewrite EI, cpe_step_ok in CS; auto. inversion CS. rewrite st_S. auto. }
    set (s := st_at cpe_next cpe_tail K u K). assert (HS : s < 8) by apply SL.
    set (a0 := nth (sys_pos b K) x 0). set (a1 := nth (sys_pos b (S K)) x 0). set (a2 := nth (sys_pos b (S (S K))) x 0).
    assert (B0 : a0 < 2) by (apply BX; lia). assert (B1 : a1 < 2) by (apply BX; lia). assert (B2 : a2 < 2) by (apply BX; lia).
    assert (NL : forall b s, b < 2 -> s < 8 -> cpe_next b s < 8). { intros. apply (m_next _ _ _ _ _ machine_cpe); auto. }
    pose proof (CS K ltac:(lia)) as S0. rewrite A1 in S0 by auto. fold s in S0. fold a0 in S0. rewrite cpe_step_ok in S0; auto. injection S0 as C1 P0.
    pose proof (CS (S K) ltac:(lia)) as S1. rewrite <- C1 in S1. fold a1 in S1. change (cells3 (cpe_next a0 s)) with (cells3 (cpe_next a0 s)) in S1.
    rewrite cpe_step_ok in S1; auto. injection S1 as C2 P1.
    pose proof (CS (S (S K)) ltac:(lia)) as S2. rewrite <- C2 in S2. fold a2 in S2. rewrite cpe_step_ok in S2; auto. injection S2 as C3 P2.
    replace (K + 3) with (S (S (S K))) in CE by lia. rewrite <- C3 in CE. apply cells3_inj in CE; auto.
    destruct (cpe_forced s a0 a1 a2) as (T0 & T1 & T2); auto.
    assert (I0 : in_at cpe_next cpe_tail K u K = a0). { unfold in_at. destruct (Nat.ltb_spec K K); [lia|]. auto. }
    assert (Q1 : st_at cpe_next cpe_tail K u (S K) = cpe_next a0 s). { rewrite st_S, I0. auto. }
    assert (I1 : in_at cpe_next cpe_tail K u (S K) = a1). { unfold in_at. destruct (Nat.ltb_spec (S K) K); [lia|]. rewrite Q1. auto. }
    assert (Q2 : st_at cpe_next cpe_tail K u (S (S K)) = cpe_next a1 (cpe_next a0 s)). { rewrite st_S, I1, Q1. auto. }
    assert (I2 : in_at cpe_next cpe_tail K u (S (S K)) = a2). { unfold in_at. destruct (Nat.ltb_spec (S (S K)) K); [lia|]. rewrite Q2. auto. }
    intros t Ht. destruct (Nat.lt_ge_cases t K) as [TK|TK].
    + assert (EI : nth (sys_pos b t) x 0 = in_at cpe_next cpe_tail K u t). { unfold in_at, u, info. destruct (Nat.ltb_spec t K); [|lia]. rewrite nth_tab; auto. }
      split; auto. specialize (CS t Ht). rewrite A1 in CS by lia. rewrite EI, cpe_step_ok in CS; auto. inversion CS. auto.
    + assert (TT : t = K \/ t = S K \/ t = S (S K)) by lia. destruct TT as [-> | [-> | ->]].
      * rewrite I0. split; auto.
      * rewrite I1, Q1. split; auto.
      * rewrite I2, Q2. split; auto.
Qed.

Theorem C19_cpe_trellis : exists t, get_trellis rsc_cpe = Ret t /\
  trellis_ok 8 (fun b s => num3 (fst (cpe_step b (cells3 s)))) (fun b s => snd (cpe_step b (cells3 s))) t.
Proof.
  destruct (get_trellis_ok rsc_cpe cpe_par cpe_next cpe_tail machine_cpe (fun s => fst (nth s cpe_edges (0, 0))) (fun s => snd (nth s cpe_edges (0, 0))) cpe_edges_ok) as (t & E & T1 & T2 & T3).
  exists t. split; auto. change (2 ^ n_ff rsc_cpe) with 8 in *.
  assert (HP : forall b s, b < 2 -> s < 8 -> snd (cpe_step b (cells3 s)) = cpe_par b s). { intros. rewrite cpe_step_ok; auto. }
  assert (HN : forall b s, b < 2 -> s < 8 -> num3 (fst (cpe_step b (cells3 s))) = cpe_next b s).
  { intros b s Hb Hs. rewrite cpe_step_ok by auto. cbn [fst]. pose proof (m_next _ _ _ _ _ machine_cpe b s Hb Hs) as XL. revert XL. generalize (cpe_next b s). intros q Hq.
    do 8 (destruct q as [|q]; [reflexivity|]). lia. }
  split; auto. split.
  - intros s b Hs Hb. cbn beta. rewrite HN, HP by auto. auto.
  - intros s Hs. destruct (T3 s Hs) as (s1 & b1 & s2 & b2 & H1 & H2 & H3 & H4 & H5 & H6 & H7). exists s1, b1, s2, b2.
    split; auto. split; auto. split; auto. split; auto. split; auto. split.
    + intros s' b Hs' Hb. cbn beta. rewrite HN by auto. auto.
    + cbn beta. rewrite !HP by auto. auto.
Qed.

Example C19_ctor_meets : exists e, rsc_generic_ctor 4 14 [11; 13] = Ret e /\ n_ff e = 3.
Proof. eexists. split; reflexivity. Qed.
Example C19_encode_example : exists e, rsc_generic_ctor 4 14 [11; 13] = Ret e /\
  rsc_encode e true 4 [1; 0; 1; 1] (repeat 0 14) = Ret [1; 0; 1; 1; 0; 0; 0; 1; 1; 0; 1; 0; 0; 0].
Proof. eexists. split; vm_compute; reflexivity. Qed.

(* ------------------------------------------------------------------ *)
(** * C20: turbo encoders *)

(** An RSC encoder is a constituent encoder of its code. *)
Theorem C20_rsc_constituent : forall K N p0 p1 ps e b, rsc_generic_ctor K N (p0 :: p1 :: ps) = Ret e ->
  constituent (rsc_encode e b K) (rsc_is_codeword e b K) b K N (rsc_code p0 p1 (n_ff e) b K).
Proof.
  intros K N p0 p1 ps e b HC. split.
  - intros u buf BU LU LB. destruct (C19_encode _ _ _ _ _ _ b u buf HC BU LU LB) as (o & E & L & C & A). eauto.
  - intros x LX BX. destruct (ctor_inv _ _ _ _ HC) as (q0 & q1 & n & <- & <- & Hn & H0 & H1 & _ & _ & HK & HN & ->). cbn [nth] in *.
    pose proof (machine_generic p0 p1 n Hn) as M. rewrite generic_nff.
    destruct (rsc_is_codeword_ok _ _ _ _ _ M b K x) as (r & E & I); auto. { rewrite generic_nff. lia. }
    exists r. split; auto. rewrite I. rewrite generic_nff. split.
    + intros F. apply (follows_code p0 p1 n Hn H0 H1 b K (info b K x)); auto. { apply length_tab. } { lia. }
    + intros C. apply (code_follows p0 p1 n Hn H0 H1) in C. apply C.
Qed.

(** Two buffered RSC constituents, possibly different; the interleaver reads inside the frame. *)
Definition turbo_pair (K N Nn Ni : nat) (pn qn pi qi : nat) (en ei : rsc) (lut : list nat) : Prop :=
  rsc_generic_ctor K Nn [pn; qn] = Ret en /\ rsc_generic_ctor K Ni [pi; qi] = Ret ei /\
  turbo_enc_ctor K N (rsc_encoder en true K) (rsc_encoder ei true K) lut = Ret tt /\ Forall (fun p => p < K) lut.

Lemma pair_dims : forall K N Nn Ni pn qn pi qi en ei lut, turbo_pair K N Nn Ni pn qn pi qi en ei lut ->
  Nn = e_N (rsc_encoder en true K) /\ Ni = e_N (rsc_encoder ei true K).
Proof.
  intros K N Nn Ni pn qn pi qi en ei lut (HCn & HCi & _ & _).
  destruct (ctor_inv _ _ _ _ HCn) as (a0 & a1 & n & _ & _ & Hn & _ & _ & _ & _ & _ & HN & ->).
  destruct (ctor_inv _ _ _ _ HCi) as (b0 & b1 & m & _ & _ & Hm & _ & _ & _ & _ & _ & HI & ->).
  cbn [e_N rsc_encoder]. rewrite !generic_nff. auto.
Qed.

Theorem C20_encode : forall K N Nn Ni pn qn pi qi en ei lut u x ui tmp,
  turbo_pair K N Nn Ni pn qn pi qi en ei lut -> bits u -> length u = K -> length x = N -> length ui = K -> length tmp = Nat.max Nn Ni ->
  exists o, turbo_encode K (rsc_encoder en true K) (rsc_encoder ei true K) lut ui tmp u x = Ret o /\ length o = N /\
    turbo_code (rsc_code pn qn (n_ff en) true K) (rsc_code pi qi (n_ff ei) true K) Nn lut o /\ firstn K o = u.
Proof.
  intros K N Nn Ni pn qn pi qi en ei lut u x ui tmp HP BU LU LX LUI LT. destruct (pair_dims _ _ _ _ _ _ _ _ _ _ _ HP) as [DN DI].
  destruct HP as (HCn & HCi & HT & HL). rewrite DN, DI in *.
  apply turbo_encode_ok with (K := K); auto.
  - apply (C20_rsc_constituent _ _ _ _ _ _ true HCn).
  - apply (C20_rsc_constituent _ _ _ _ _ _ true HCi).
Qed.

Theorem C20_is_codeword : forall K N Nn Ni pn qn pi qi en ei lut x ui tmp,
  turbo_pair K N Nn Ni pn qn pi qi en ei lut -> bits (firstn K x) -> length x = N -> length ui = K -> length tmp = Nat.max Nn Ni ->
  exists r, turbo_is_codeword K N (rsc_encoder en true K) (rsc_encoder ei true K) lut ui tmp x = Ret r /\
    (r = true <-> turbo_code (rsc_code pn qn (n_ff en) true K) (rsc_code pi qi (n_ff ei) true K) Nn lut x).
Proof.
  intros K N Nn Ni pn qn pi qi en ei lut x ui tmp HP BX LX LUI LT. destruct (pair_dims _ _ _ _ _ _ _ _ _ _ _ HP) as [DN DI].
  destruct HP as (HCn & HCi & HT & HL). rewrite DN, DI in *.
  apply turbo_is_codeword_ok; auto.
  - apply (C20_rsc_constituent _ _ _ _ _ _ true HCn).
  - apply (C20_rsc_constituent _ _ _ _ _ _ true HCi).
Qed.

(** A turbo codeword is determined by its message. *)
Theorem C20_unique : forall K N Nn Ni pn qn pi qi en ei lut x y,
  turbo_pair K N Nn Ni pn qn pi qi en ei lut ->
  length x = N -> length y = N -> firstn K x = firstn K y ->
  turbo_code (rsc_code pn qn (n_ff en) true K) (rsc_code pi qi (n_ff ei) true K) Nn lut x ->
  turbo_code (rsc_code pn qn (n_ff en) true K) (rsc_code pi qi (n_ff ei) true K) Nn lut y -> x = y.
Proof.
  intros K N Nn Ni pn qn pi qi en ei lut x y HP LX LY E [X1 X2] [Y1 Y2].
  destruct (pair_dims _ _ _ _ _ _ _ _ _ _ _ HP) as [DN DI]. destruct HP as (HCn & HCi & HT & HL).
  assert (NTH : forall i, i < K -> nth i x 0 = nth i y 0). { intros i Hi. rewrite <- (WLoops.nth_firstn_lt _ 0 K i x), <- (WLoops.nth_firstn_lt _ 0 K i y) by auto. rewrite E. auto. }
  assert (KN : K <= Nn). { rewrite DN. cbn [e_N rsc_encoder]. lia. }
  destruct (turbo_ctor K N (rsc_encoder en true K) (rsc_encoder ei true K) lut eq_refl eq_refl eq_refl eq_refl HT) as (HK & HN & LL).
  assert (LF : length (firstn K x) = K). { rewrite firstn_length, LX. cbn [e_tail rsc_encoder] in HN. lia. }
  assert (F : firstn Nn x = firstn Nn y).
  { apply (C19_unique _ _ _ _ _ _ true (firstn K x) _ _ HCn); auto.
    - intros k Hk. unfold sys_pos. rewrite !WLoops.nth_firstn_lt by lia. auto.
    - intros k Hk. unfold sys_pos. rewrite !WLoops.nth_firstn_lt by lia. symmetry. apply NTH. lia. }
  assert (MV : map (fun p => nth p x 0) lut = map (fun p => nth p y 0) lut).
  { apply map_ext_in. intros p Hp. rewrite Forall_forall in HL. apply NTH. auto. }
  assert (G : map (fun p => nth p x 0) lut ++ skipn Nn x = map (fun p => nth p y 0) lut ++ skipn Nn y).
  { apply (C19_unique _ _ _ _ _ _ true (map (fun p => nth p x 0) lut) _ _ HCi); auto.
    - rewrite map_length. auto.
    - intros k Hk. unfold sys_pos. rewrite app_nth1 by auto. auto.
    - intros k Hk. unfold sys_pos. rewrite MV in *. rewrite app_nth1 by auto. auto. }
  rewrite MV in G. apply app_inv_head in G. rewrite <- (firstn_skipn Nn x), <- (firstn_skipn Nn y), F, G. auto.
Qed.

(** Legacy layout: one interleaved (unbuffered) RSC constituent used twice. *)
Theorem C20_legacy_encode : forall K N1 p0 p1 e lut u x ui xn xi,
  rsc_generic_ctor K N1 [p0; p1] = Ret e -> length lut = K -> Forall (fun p => p < K) lut ->
  bits u -> length u = K -> length x = 3 * K + 4 * n_ff e -> length ui = K -> length xn = N1 -> length xi = N1 ->
  exists o, legacy_encode K (rsc_encoder e false K) lut ui xn xi u x = Ret o /\
    legacy_code (rsc_code p0 p1 (n_ff e) false K) K (2 * n_ff e) lut o /\ forall k, k < K -> nth (3 * k) o 0 = nth k u 0.
Proof.
  intros K N1 p0 p1 e lut u x ui xn xi HC LL HL BU LU LX LUI LN LI.
  assert (EN : N1 = e_N (rsc_encoder e false K)). { destruct (ctor_inv _ _ _ _ HC) as (a0 & a1 & n & _ & _ & Hn & _ & _ & _ & _ & _ & HN & ->). cbn [e_N rsc_encoder]. rewrite generic_nff. auto. }
  assert (HK : 0 < K). { destruct (ctor_inv _ _ _ _ HC) as (a0 & a1 & n & _ & _ & _ & _ & _ & _ & _ & HK & _). auto. }
  pose proof (C20_rsc_constituent _ _ _ _ _ _ false HC) as CS. rewrite EN in *.
  apply legacy_encode_ok; auto; cbn [e_N rsc_encoder] in *; try lia.
Qed.

Theorem C20_legacy_is_codeword : forall K N1 p0 p1 e lut x un ui xn xi,
  rsc_generic_ctor K N1 [p0; p1] = Ret e -> length lut = K -> Forall (fun p => p < K) lut ->
  (forall k, k < K -> nth (3 * k) x 0 < 2) -> length x = 3 * K + 4 * n_ff e -> length ui = K -> length un = N1 -> length xn = N1 -> length xi = N1 ->
  exists r, legacy_is_codeword K (rsc_encoder e false K) lut un ui xn xi x = Ret r /\
    (r = true <-> legacy_code (rsc_code p0 p1 (n_ff e) false K) K (2 * n_ff e) lut x).
Proof.
  intros K N1 p0 p1 e lut x un ui xn xi HC LL HL BX LX LUI LU LN LI.
  assert (EN : N1 = e_N (rsc_encoder e false K)). { destruct (ctor_inv _ _ _ _ HC) as (a0 & a1 & n & _ & _ & Hn & _ & _ & _ & _ & _ & HN & ->). cbn [e_N rsc_encoder]. rewrite generic_nff. auto. }
  assert (HK : 0 < K). { destruct (ctor_inv _ _ _ _ HC) as (a0 & a1 & n & _ & _ & _ & _ & _ & _ & _ & HK & _). auto. }
  pose proof (C20_rsc_constituent _ _ _ _ _ _ false HC) as CS. rewrite EN in *.
  apply legacy_is_codeword_ok; auto; cbn [e_N rsc_encoder] in *; try lia.
Qed.

(** Encoder_turbo does not check that its constituents are buffered.  With unbuffered ones it
    emits frames it rejects itself, and two messages may share a frame. *)
Theorem C20_unbuffered_refuted : exists e lut,
  rsc_generic_ctor 4 12 [7; 5] = Ret e /\ turbo_enc_ctor 4 20 (rsc_encoder e false 4) (rsc_encoder e false 4) lut = Ret tt /\
  (exists u o, turbo_encode 4 (rsc_encoder e false 4) (rsc_encoder e false 4) lut (repeat 0 4) (repeat 0 12) u (repeat 0 20) = Ret o /\
     firstn 4 o <> u /\
     turbo_is_codeword 4 20 (rsc_encoder e false 4) (rsc_encoder e false 4) lut (repeat 0 4) (repeat 0 12) o = Ret false).
Proof.
  exists (rsc_generic 7 5 2), [2; 0; 3; 1]. split; [reflexivity|]. split; [reflexivity|].
  exists [1; 1; 0; 1]. eexists. split; [vm_compute; reflexivity|]. split; [discriminate|]. vm_compute. reflexivity.
Qed.

Example C20_pair_meets : exists e, turbo_pair 4 20 12 12 7 5 7 5 e e [2; 0; 3; 1] /\
  exists o, turbo_encode 4 (rsc_encoder e true 4) (rsc_encoder e true 4) [2; 0; 3; 1] (repeat 0 4) (repeat 0 12) [1; 1; 0; 1] (repeat 0 20) = Ret o /\ firstn 6 o = [1; 1; 0; 1; 1; 0].
Proof.
  exists (rsc_generic 7 5 2). split.
  - split; [reflexivity|]. split; [reflexivity|]. split; [reflexivity|]. repeat constructor.
  - eexists. split; vm_compute; reflexivity.
Qed.

(* ------------------------------------------------------------------ *)
(** * C67: double-binary RSC encoder *)

Definition circuit_states (std : db_std) : nat := match std with RCS1 => 8 | RCS2 => 16 end.
Definition db_code (std : db_std) : bool -> nat -> list nat -> Prop :=
  match std with RCS1 => closed_walk rcs1_step valid3 | RCS2 => closed_walk rcs2_step valid4 end.

Lemma states_NS : forall std, circuit_states std = NS std.
Proof. destruct std; reflexivity. Qed.
Lemma circ_mod : forall K std, ~ no_circulation K (circuit_states std) <-> (K / 2) mod (NS std - 1) <> 0.
Proof.
  intros. rewrite states_NS. unfold no_circulation. assert (NZ : NS std - 1 <> 0) by (destruct std; discriminate). split.
  - intros H C. apply H. apply Nat.mod_divides in C; auto. destruct C as [q C]. exists q. lia.
  - intros H [q C]. apply H. rewrite C. apply Nat.mod_mul. auto.
Qed.
Lemma db_ctor_inv : forall K N, db_enc_ctor K N = Ret tt -> 0 < K /\ K mod 2 = 0 /\ N = 2 * K.
Proof.
  intros K N H. unfold db_enc_ctor, guard in H. destruct (Nat.ltb_spec 0 K); [|discriminate]. destruct (0 <? N); [|discriminate].
  destruct (K <=? N); [|discriminate]. cbn [bind] in H. destruct (Nat.eqb_spec N (2 * K)); [|discriminate]. cbn [bind] in H.
  destruct (Nat.eqb_spec (K mod 2) 0); [|discriminate]. auto.
Qed.

Theorem C67_encode : forall std K N b u x, db_enc_ctor K N = Ret tt -> ~ no_circulation K (circuit_states std) ->
  bits u -> length u = K -> length x = N ->
  exists o, db_encode std b K u x = Ret o /\ length o = N /\ db_code std b K o /\ db_carries b u o.
Proof.
  intros std K N b u x HC HL BU LU LX. apply db_ctor_inv in HC. destruct HC as (HK & EV & ->). apply circ_mod in HL.
  apply db_encode_cyclic; auto.
Qed.

Theorem C67_is_codeword : forall std K N b x, db_enc_ctor K N = Ret tt -> ~ no_circulation K (circuit_states std) ->
  length x = N -> db_bits b K x ->
  exists r, db_is_codeword std b K x = Ret r /\ (r = true <-> db_code std b K x).
Proof.
  intros std K N b x HC HL LX BX. apply db_ctor_inv in HC. destruct HC as (HK & EV & ->). apply circ_mod in HL. apply db_check_cyclic; auto.
Qed.

Theorem C67_unique : forall std K N b u x y, db_enc_ctor K N = Ret tt -> ~ no_circulation K (circuit_states std) ->
  bits u -> length u = K -> db_code std b K x -> db_code std b K y -> db_carries b u x -> db_carries b u y -> x = y.
Proof.
  intros std K N b u x y HC HL BU LU CX CY AX AY. apply db_ctor_inv in HC. destruct HC as (HK & EV & ->). apply circ_mod in HL.
  apply (cyclic_unique std K b); auto.
  - intros k Hk. rewrite AX by lia. apply bits_nth. auto.
  - intros k Hk. rewrite AX, AY by lia. auto.
Qed.

Theorem C67_info_pos : forall std K N b u x o, db_enc_ctor K N = Ret tt -> ~ no_circulation K (circuit_states std) ->
  bits u -> length u = K -> length x = N -> db_encode std b K u x = Ret o -> map (fun p => nth p o 0) (db_info_pos b K) = u.
Proof.
  intros std K N b u x o HC HL BU LU LX E. destruct (C67_encode std K N b u x HC HL BU LU LX) as (o1 & E1 & L1 & C1 & A1).
  rewrite E in E1. inversion E1; subst o1. symmetry. unfold db_info_pos, tab. rewrite map_map. apply (eq_tab _ 0); auto.
  intros i Hi. rewrite <- A1 by lia. f_equal. unfold db_pos, db_sys. pose proof (Nat.div_mod i 2 ltac:(lia)). destruct b; lia.
Qed.

Theorem C67_trellis_rcs1 : exists t, db_trellis RCS1 = Ret t /\
  db_trellis_ok 8 (fun i s => num3 (fst (fst (rcs1_step (i / 2) (i mod 2) (cells3 s)))))
                  (fun i s => snd (fst (rcs1_step (i / 2) (i mod 2) (cells3 s)))) (fun i s => snd (rcs1_step (i / 2) (i mod 2) (cells3 s))) t.
Proof. eexists. split; [vm_compute; reflexivity|]. apply dbt_check_ok. vm_compute. reflexivity. Qed.
Theorem C67_trellis_rcs2 : exists t, db_trellis RCS2 = Ret t /\
  db_trellis_ok 16 (fun i s => num4 (fst (fst (rcs2_step (i / 2) (i mod 2) (cells4 s)))))
                   (fun i s => snd (fst (rcs2_step (i / 2) (i mod 2) (cells4 s)))) (fun i s => snd (rcs2_step (i / 2) (i mod 2) (cells4 s))) t.
Proof. eexists. split; [vm_compute; reflexivity|]. apply dbt_check_ok. vm_compute. reflexivity. Qed.

(** When the number of couples is a multiple of 7 (15), which the constructor accepts, every
    call to encode or is_codeword reads outside of the table of circulation states. *)
Theorem C67_multiple_refuted : forall std K N b u x, db_enc_ctor K N = Ret tt -> no_circulation K (circuit_states std) ->
  bits u -> length u = K -> length x = N -> db_bits b K x ->
  db_encode std b K u x = Undef /\ db_is_codeword std b K x = Undef.
Proof.
  intros std K N b u x HC HL BU LU LX BX. apply db_ctor_inv in HC. destruct HC as (HK & EV & ->).
  assert (HM : (K / 2) mod (NS std - 1) = 0).
  { destruct HL as [q ->]. rewrite states_NS. apply Nat.mod_mul. destruct std; discriminate. }
  set (L := K / 2) in *. assert (EK : K = 2 * L) by (apply even_half; auto). clearbody L. symmetry in EK. destruct EK. split.
  - apply db_encode_undef; auto. - apply db_is_codeword_undef; auto.
Qed.

Example C67_meets : db_enc_ctor 8 16 = Ret tt /\ ~ no_circulation 8 (circuit_states RCS1) /\
  db_encode RCS1 true 8 [1; 0; 1; 1; 0; 1; 0; 0] (repeat 0 16) = Ret [1; 0; 1; 1; 0; 1; 0; 0; 1; 1; 0; 0; 0; 1; 1; 0].
Proof. split; [reflexivity|]. split. { intros [q Q]. change (8 / 2) with 4 in Q. cbn in Q. lia. } vm_compute. reflexivity. Qed.
Example C67_multiple_meets : db_enc_ctor 14 28 = Ret tt /\ no_circulation 14 (circuit_states RCS1).
Proof. split; [reflexivity|]. exists 1. reflexivity. Qed.

(* ------------------------------------------------------------------ *)
(** * C68: double-binary turbo encoder *)

Theorem C68_encode : forall sn si K lut u x cpy ui tmp pn pi,
  db_enc_ctor K (2 * K) = Ret tt -> ~ no_circulation K (circuit_states sn) -> ~ no_circulation K (circuit_states si) ->
  2 * length lut = K -> Forall (fun p => p < length lut) lut ->
  bits u -> length u = K -> length x = 3 * K -> length cpy = K -> length ui = K -> length tmp = 3 * K -> length pn = K -> length pi = K ->
  exists o, tdb_encode sn si K lut cpy ui tmp pn pi u x = Ret o /\ tdb_code (db_code sn true K) (db_code si true K) K lut o /\ firstn K o = u.
Proof.
  intros sn si K lut u x cpy ui tmp pn pi HC Hn Hi <- FL BU LU LX. intros. apply circ_mod in Hn. apply circ_mod in Hi.
  replace (2 * length lut / 2) with (length lut) in * by (rewrite Nat.mul_comm, Nat.div_mul; auto).
  apply tdb_encode_ok; auto.
Qed.

Theorem C68_is_codeword : forall sn si K lut x ui tmp,
  db_enc_ctor K (2 * K) = Ret tt -> ~ no_circulation K (circuit_states sn) -> ~ no_circulation K (circuit_states si) ->
  2 * length lut = K -> Forall (fun p => p < length lut) lut ->
  length x = 3 * K -> bits (firstn K x) -> length ui = K -> length tmp = 3 * K ->
  exists r, tdb_is_codeword sn si K lut ui tmp x = Ret r /\ (r = true <-> tdb_code (db_code sn true K) (db_code si true K) K lut x).
Proof.
  intros sn si K lut x ui tmp HC Hn Hi <- FL LX BX. intros. apply circ_mod in Hn. apply circ_mod in Hi.
  replace (2 * length lut / 2) with (length lut) in * by (rewrite Nat.mul_comm, Nat.div_mul; auto).
  apply tdb_is_codeword_ok; auto. intros i Hi'. rewrite <- (WLoops.nth_firstn_lt _ 0 (2 * length lut)) by auto. apply bits_nth. auto.
Qed.

Example C68_meets : exists o, tdb_encode RCS1 RCS1 8 [2; 0; 3; 1] (repeat 0 8) (repeat 0 8) (repeat 0 24) (repeat 0 8) (repeat 0 8) [1; 0; 1; 1; 0; 1; 0; 0] (repeat 0 24) = Ret o /\
  tdb_is_codeword RCS1 RCS1 8 [2; 0; 3; 1] (repeat 0 8) (repeat 0 24) o = Ret true.
Proof. eexists. split; [vm_compute; reflexivity|]. vm_compute. reflexivity. Qed.
