(** The turbo decoders with the max-log BCJR constituent decoders (C117). *)
From Coq Require Import List Arith ZArith Lia Bool.
From Verif Require Import Base Copy ConvModel ConvSpec ConvProofs ConvCodeProofs ConvTrellisProofs ConvProps BcjrModel BcjrSpec BcjrMaxProofs BcjrProps InterleaverSpec InterleaverProps TurboDecModel TurboDecSpec TurboDecProofs TurboDecProps TurboBcjrProofs.
From Verif Require InterleaverModel.
Import ListNotations.
Open Scope Z_scope.

(** The turbo decoder on integers, with the max-log BCJR decoders of the trellises [tn] and
    [ti] of [n1] and [n2] cells; one frame per wave. *)
Definition zsgn (x : Z) : bool := x <? 0.
Notation turbo_reached psort E m pi pi_inv N t1 n1 t2 n2 n_ite buffered fast :=
  (TurboDecModel.reached Z 0 Z.add zsgn zsgn Z.sgn Z.abs psort E (bcjr Z) (bcjr Z) (short_alt t1 (2 ^ n1) (InterleaverModel.size m) n1) (short_alt t2 (2 ^ n2) (InterleaverModel.size m) n2) m pi pi_inv N n1 n2 n_ite buffered fast).
Notation turbo_decode psort E m pi pi_inv N t1 n1 t2 n2 n_ite buffered fast :=
  (TurboDecModel.decode Z 0 Z.add zsgn zsgn Z.sgn Z.abs psort E (bcjr Z) (bcjr Z) (short_alt t1 (2 ^ n1) (InterleaverModel.size m) n1) (short_alt t2 (2 ^ n2) (InterleaverModel.size m) n2) m pi pi_inv N n1 n2 n_ite buffered fast).

(** Scaling factors that keep the signs, and do not make a zero signed. *)
Definition keeps_sign (f : nat -> Z -> Z) : Prop := forall k x, (0 <= x -> 0 <= f k x) /\ (x <= 0 -> f k x <= 0).
(** Scalings, and perhaps a CRC checker after them. *)
Definition scalings_crc (pps : list (pp Z)) : Prop :=
  exists scs, Forall (fun p => keeps_sign (fst p) /\ keeps_sign (snd p)) scs /\
    (pps = map (fun p => PScale Z (fst p) (snd p)) scs \/ exists start check, pps = map (fun p => PScale Z (fst p) (snd p)) scs ++ [PCrc Z start check]).
(** The values of the received frame have the signs of the bits of [x], or are zero. *)
Definition signs (N : nat) (x : list nat) (Y : list Z) : Prop := forall q, (q < N)%nat -> agrees (nth q x 0%nat) (nth q Y 0).

Lemma keeps_agrees : forall f, keeps_sign f -> forall k c x, agrees c x -> agrees c (f k x).
Proof. intros f HF k c x. unfold agrees. destruct (HF k x). destruct (c =? 0)%nat; auto. Qed.
Lemma keeps_fold : forall scs, Forall (fun p => keeps_sign (fst p) /\ keeps_sign (snd p)) scs -> forall k c x, agrees c x ->
  agrees c (fold_left (fun x (p : (nat -> Z -> Z) * (nat -> Z -> Z)) => fst p k x) scs x) /\ agrees c (fold_left (fun x (p : (nat -> Z -> Z) * (nat -> Z -> Z)) => snd p k x) scs x).
Proof.
  intros scs F k c. assert (A : forall x, agrees c x -> agrees c (fold_left (fun x (p : (nat -> Z -> Z) * (nat -> Z -> Z)) => fst p k x) scs x)).
  { induction F as [|p l [H1 H2] F IH]; intros x HX; cbn [fold_left]; [exact HX|]. apply IH. apply keeps_agrees; assumption. }
  assert (B : forall x, agrees c x -> agrees c (fold_left (fun x (p : (nat -> Z -> Z) * (nat -> Z -> Z)) => snd p k x) scs x)).
  { clear A. induction F as [|p l [H1 H2] F IH]; intros x HX; cbn [fold_left]; [exact HX|]. apply IH. apply keeps_agrees; assumption. }
  auto.
Qed.

(** The two constituent paths of a sent word. *)
Definition sent (b : bool) (K p0 p1 n1 q0 q1 n2 : nat) (lut x us ui : list nat) : Prop :=
  term p0 n1 K us /\ term q0 n2 K ui /\
  (forall t, (t < K + n1)%nat -> nth (pos_sn b K t) x 0%nat = nth t us 0%nat /\ nth (pos_pn b K n1 t) x 0%nat = lab p0 p1 n1 0 us t) /\
  (forall t, (t < K)%nat -> nth (pos_sn b K (nth t lut 0%nat)) x 0%nat = nth t ui 0%nat) /\
  (forall t, (t < n2)%nat -> nth (pos_ti b K n1 t) x 0%nat = nth (K + t) ui 0%nat) /\
  (forall t, (t < K + n2)%nat -> nth (pos_pi b K n1 n2 t) x 0%nat = lab q0 q1 n2 0 ui t).

Lemma core : forall psort v E m pi pi_inv N1 N2 p0 p1 ps q0 q1 qs e1 e2 t1 t2 n_ite buffered fast b1 b2 s1 s2 m1 m2 pps N d fid Y V x us ui,
  setting v E m pi pi_inv fast -> InterleaverModel.npw m = 1%nat ->
  let K := InterleaverModel.size m in let n1 := n_ff e1 in let n2 := n_ff e2 in
  rsc_generic_ctor K N1 (p0 :: p1 :: ps) = Ret e1 -> Nat.odd p0 = true -> get_trellis e1 = Ret t1 ->
  rsc_generic_ctor K N2 (q0 :: q1 :: qs) = Ret e2 -> Nat.odd q0 = true -> get_trellis e2 = Ret t2 ->
  short_reached t1 (2 ^ n1) K n1 b1 s1 m1 -> short_reached t2 (2 ^ n2) K n2 b2 s2 m2 -> scalings_crc pps ->
  turbo_reached psort E m pi pi_inv N t1 n1 t2 n2 n_ite buffered fast K K s1 s2 pps d ->
  sent buffered K p0 p1 n1 q0 q1 n2 (table m fid 0 pi) x us ui ->
  length Y = N -> signs N x Y -> (forall i, (i < K)%nat -> nth (pos_sn buffered K i) Y 0 <> 0) -> length V = 1%nat -> Forall (fun v => length v = K) V ->
  exists d', turbo_decode psort E m pi pi_inv N t1 n1 t2 n2 n_ite buffered fast fid d Y V = Ret (d', [tab K (fun i => Z.of_nat (nth i us 0%nat))]).
Proof.
  intros psort v E m pi pi_inv N1 N2 p0 p1 ps q0 q1 qs e1 e2 t1 t2 n_ite buffered fast b1 b2 s1 s2 m1 m2 pps N d fid Y V x us ui ST W1 K n1 n2 HC1 OD1 HT1 HC2 OD2 HT2 R1 R2 PS R SN LY SG NZ LV FV.
  pose proof (maxlog_computes _ _ _ _ _ _ _ HC1 OD1 HT1 b1) as CN. pose proof (maxlog_computes _ _ _ _ _ _ _ HC2 OD2 HT2 b2) as CI.
  pose proof (ctor_N Z 0 Z.add zsgn zsgn Z.sgn Z.abs psort (bcjr Z) (bcjr Z) _ _ _ _ _ _ _ _ _ _ _ _ _ _ _ _ _ _ R) as HN. fold K in HN.
  destruct (ctor_inv _ _ _ _ HC1) as (a1 & a2 & k1 & _ & _ & Hk1 & _ & _ & _ & _ & HK & _ & E1). assert (Hn1 : (0 < n1)%nat) by (unfold n1; rewrite E1, generic_nff; exact Hk1).
  destruct (ctor_inv _ _ _ _ HC2) as (c1 & c2 & k2 & _ & _ & Hk2 & _ & _ & _ & _ & _ & _ & E2). assert (Hn2 : (0 < n2)%nat) by (unfold n2; rewrite E2, generic_nff; exact Hk2).
  fold n1 in CN. fold n2 in CI. fold K in CN, CI. clear E1 E2.
  destruct SN as (TU & TI & A1 & A2 & A3 & A4).
  pose proof ST as (EV & Hnf & Hc & (LP & LPI & GT) & HU & HW & IO & HF).
  set (g := if InterleaverModel.uniform m then ((fid + 0) mod InterleaverModel.nf m)%nat else 0%nat).
  assert (Hg : (g < InterleaverModel.core_nf m)%nat). { unfold g. destruct (InterleaverModel.uniform m) eqn:EU; [|lia]. specialize (HU eq_refl). apply Nat.lt_le_trans with (InterleaverModel.nf m); [apply Nat.mod_upper_bound; lia|lia]. }
  destruct (GT g Hg) as ((L1 & L2 & _) & (I1 & I2 & _) & _ & UD). fold K in L1, L2, I1, I2, UD. change (frame K g pi) with (table m fid 0 pi) in *. change (frame K g pi_inv) with (table m fid 0 pi_inv) in *.
  assert (FY : frame N 0 Y = Y). { unfold frame. cbn [Nat.mul skipn]. apply firstn_all2. lia. }
  destruct PS as (scs & FS & PS).
  set (Gn := maxlog_ext p0 p1 n1 K) in *. set (Gi := maxlog_ext q0 q1 n2 K) in *.
  assert (bit : forall k, agrees k 0) by (intros k; unfold agrees; destruct (k =? 0)%nat; lia).
  assert (GN : forall s p, (forall t, (t < K + n1)%nat -> agrees (nth t us 0%nat) (nth t s 0) /\ agrees (lab p0 p1 n1 0 us t) (nth t p 0)) -> forall i, (i < K)%nat -> agrees (nth i us 0%nat) (nth i (Gn s p) 0)).
  { intros s p H i Hi. apply maxlog_sign; assumption. }
  assert (GI : forall s p, (forall t, (t < K + n2)%nat -> agrees (nth t ui 0%nat) (nth t s 0) /\ agrees (lab q0 q1 n2 0 ui t) (nth t p 0)) -> forall i, (i < K)%nat -> agrees (nth i ui 0%nat) (nth i (Gi s p) 0)).
  { intros s p H i Hi. apply maxlog_sign; assumption. }
  assert (LG : forall s p, length (Gn s p) = K) by (intros; apply length_tab). assert (LGI : forall s p, length (Gi s p) = K) by (intros; apply length_tab).
  assert (P1 : forall t, (t < K + n1)%nat -> (pos_sn buffered K t < N)%nat) by (intros t Ht; unfold pos_sn; destruct buffered; [lia|destruct (Nat.ltb_spec t K); lia]).
  assert (P2 : forall t, (t < K + n1)%nat -> (pos_pn buffered K n1 t < N)%nat) by (intros t Ht; unfold pos_pn; destruct buffered; [lia|destruct (Nat.ltb_spec t K); lia]).
  assert (P3 : forall t, (t < n2)%nat -> (pos_ti buffered K n1 t < N)%nat) by (intros t Ht; unfold pos_ti; destruct buffered; lia).
  assert (P4 : forall t, (t < K + n2)%nat -> (pos_pi buffered K n1 n2 t < N)%nat) by (intros t Ht; unfold pos_pi; destruct buffered; [lia|destruct (Nat.ltb_spec t K); lia]).
  assert (YS : forall i, (i < K)%nat -> strictly (nth i us 0%nat) (nth (pos_sn buffered K i) Y 0)).
  { intros i Hi. pose proof (SG _ (P1 i ltac:(lia))) as H. rewrite (proj1 (A1 i ltac:(lia))) in H. pose proof (NZ i Hi). unfold strictly, agrees in *. destruct (_ =? _)%nat; lia. }
  assert (FF : forall k c y, agrees c y -> agrees c (fold_left (fun x (p : (nat -> Z -> Z) * (nat -> Z -> Z)) => fst p k x) scs y)) by (intros k c y H; apply (keeps_fold scs FS k c y H)).
  assert (FG : forall k c y, agrees c y -> agrees c (fold_left (fun x (p : (nat -> Z -> Z) * (nat -> Z -> Z)) => snd p k x) scs y)) by (intros k c y H; apply (keeps_fold scs FS k c y H)).
  set (lut := table m fid 0 pi) in *. set (inv := table m fid 0 pi_inv) in *.
  assert (LINK : forall i, (i < K)%nat -> nth i ui 0%nat = nth (nth i lut 0%nat) us 0%nat). { intros i Hi. rewrite <- A2 by exact Hi. apply A1. pose proof (L2 i Hi). lia. }
  assert (YT : forall i, (i < n1)%nat -> agrees (nth (K + i) us 0%nat) (nth (pos_sn buffered K (K + i)) Y 0)) by (intros i Hi; rewrite <- (proj1 (A1 (K + i)%nat ltac:(lia))); apply SG, P1; lia).
  assert (YP : forall i, (i < K + n1)%nat -> agrees (lab p0 p1 n1 0 us i) (nth (pos_pn buffered K n1 i) Y 0)) by (intros i Hi; rewrite <- (proj2 (A1 i Hi)); apply SG, P2; exact Hi).
  assert (YI : forall i, (i < n2)%nat -> agrees (nth (K + i) ui 0%nat) (nth (pos_ti buffered K n1 i) Y 0)) by (intros i Hi; rewrite <- (A3 i Hi); apply SG, P3; exact Hi).
  assert (YQ : forall i, (i < K + n2)%nat -> agrees (lab q0 q1 n2 0 ui i) (nth (pos_pi buffered K n1 n2 i) Y 0)) by (intros i Hi; rewrite <- (A4 i Hi); apply SG, P4; exact Hi).
  assert (BT : forall i, (nth i us 0 < 2)%nat) by (intros i; apply bits_nth; apply TU).
  assert (DEC : forall i y, strictly (nth i us 0%nat) y -> hard zsgn y = Z.of_nat (nth i us 0%nat)). { intros i y H. pose proof (BT i). unfold hard, zsgn. unfold strictly in H. destruct (Nat.eqb_spec (nth i us 0%nat) 0) as [E0|E0]; destruct (Z.ltb_spec y 0); lia. }
  assert (DI : forall k, map (hard zsgn) (ideal_i Z 0 Z.add Gn Gi m pi pi_inv N n1 n2 buffered scs fid Y 0 k) = tab K (fun i => Z.of_nat (nth i us 0%nat))).
  { intros k. assert (LL : length (ideal_i Z 0 Z.add Gn Gi m pi pi_inv N n1 n2 buffered scs fid Y 0 k) = K) by (unfold ideal_i, post_i, gather; rewrite map_length; exact I1).
    apply (eq_tab _ (hard zsgn 0)). { rewrite map_length. exact LL. } intros i Hi. rewrite map_nth. apply DEC. unfold ideal_i. fold K lut inv. rewrite FY.
    apply (post_i_strict K n1 n2 buffered Gn Gi lut inv _ _ Y (fun t => nth t us 0%nat) (lab p0 p1 n1 0 us) (fun t => nth t ui 0%nat) (lab q0 q1 n2 0 ui)); assumption. }
  assert (DN : forall k, map (hard zsgn) (ideal_n Z 0 Z.add Gn Gi m pi pi_inv N n1 n2 buffered scs fid Y 0 k) = tab K (fun i => Z.of_nat (nth i us 0%nat))).
  { intros k. assert (LL : length (ideal_n Z 0 Z.add Gn Gi m pi pi_inv N n1 n2 buffered scs fid Y 0 k) = K) by (unfold ideal_n, post_n, plus; apply length_tab).
    apply (eq_tab _ (hard zsgn 0)). { rewrite map_length. exact LL. } intros i Hi. rewrite map_nth. apply DEC. unfold ideal_n. fold K lut inv. rewrite FY.
    apply (post_n_strict K n1 n2 buffered Gn Gi lut inv _ _ Y (fun t => nth t us 0%nat) (lab p0 p1 n1 0 us) (fun t => nth t ui 0%nat) (lab q0 q1 n2 0 ui)); assumption. }
  assert (CN' : computes 0 (InterleaverModel.npw m) (InterleaverModel.size m) n1 (short_alt t1 (2 ^ n1) (InterleaverModel.size m) n1) Gn (fun d => exists m, short_reached t1 (2 ^ n1) K n1 b1 d m)) by (rewrite W1; exact CN).
  assert (CI' : computes 0 (InterleaverModel.npw m) (InterleaverModel.size m) n2 (short_alt t2 (2 ^ n2) (InterleaverModel.size m) n2) Gi (fun d => exists m, short_reached t2 (2 ^ n2) K n2 b2 d m)) by (rewrite W1; exact CI).
  assert (LY' : length Y = (InterleaverModel.npw m * N)%nat) by (rewrite W1; lia). assert (LV' : length V = InterleaverModel.npw m) by (rewrite W1; exact LV).
  destruct PS as [->|(start & check & ->)].
  - destruct (C115_decode Z 0 Z.add zsgn zsgn Z.sgn Z.abs psort (bcjr Z) (bcjr Z) _ _ (fun x => eq_refl) v E m pi pi_inv N n1 n2 n_ite buffered fast Gn Gi _ _ scs K K s1 s2 d fid Y V ST CN' CI' (ex_intro _ _ R1) (ex_intro _ _ R2) R LY' LV' FV) as (d' & ED).
    exists d'. rewrite ED, W1. do 2 f_equal. cbn [tab List.seq map]. rewrite DI. reflexivity.
  - destruct (C116_crc Z 0 Z.add zsgn zsgn Z.sgn Z.abs psort (bcjr Z) (bcjr Z) _ _ (fun x => eq_refl) v E m pi pi_inv N n1 n2 n_ite buffered fast Gn Gi _ _ scs start check K K s1 s2 d fid Y V ST CN' CI' (ex_intro _ _ R1) (ex_intro _ _ R2) R LY' LV' FV) as (d' & V' & ED & CASE).
    exists d'. rewrite ED. do 2 f_equal. rewrite W1 in CASE. destruct CASE as [(k & _ & _ & ->)|(_ & ->)]; cbn [tab List.seq map]; [rewrite DN|rewrite DI]; reflexivity.
Qed.

Lemma sent_buffered : forall K p0 p1 n1 q0 q1 n2 lut x, (0 < n1)%nat -> (0 < n2)%nat ->
  Nat.testbit p0 n1 = true -> Nat.testbit p1 n1 = true -> Nat.testbit q0 n2 = true -> Nat.testbit q1 n2 = true -> length lut = K -> (forall i, (i < K)%nat -> (nth i lut 0 < K)%nat) ->
  turbo_code (rsc_code p0 p1 n1 true K) (rsc_code q0 q1 n2 true K) (2 * (K + n1)) lut x -> exists us ui, sent true K p0 p1 n1 q0 q1 n2 lut x us ui.
Proof.
  intros K p0 p1 n1 q0 q1 n2 lut x H1 H2 T0 T1 T2 T3 LL LB [CN CI].
  destruct (code_term p0 p1 n1 K H1 T0 T1 true _ CN) as (us & TU & WU). destruct (code_term q0 q1 n2 K H2 T2 T3 true _ CI) as (ui & TI & WI). exists us, ui.
  unfold path_word in WU, WI. cbn [sys_pos par_pos] in WU, WI.
  assert (LF : (2 * (K + n1) <= length x)%nat). { destruct CN as [L _]. rewrite firstn_length in L. lia. }
  split; [exact TU|]. split; [exact TI|]. unfold pos_sn, pos_pn, pos_ti, pos_pi.
  assert (FN : forall q, (q < 2 * (K + n1))%nat -> nth q (firstn (2 * (K + n1)) x) 0%nat = nth q x 0%nat) by (intros q Hq; apply WLoops.nth_firstn_lt; exact Hq).
  assert (BX : forall q, (K <= q)%nat -> nth q (map (fun p => nth p x 0%nat) lut ++ skipn (2 * (K + n1)) x) 0%nat = nth (2 * (K + n1) + (q - K)) x 0%nat).
  { intros q Hq. rewrite app_nth2 by (rewrite map_length; lia). rewrite map_length, LL. apply WLoops.nth_skipn_add. }
  split; [|split; [|split]].
  - intros t Ht. destruct (WU t Ht) as [A B]. rewrite FN in A, B by lia. auto.
  - intros t Ht. destruct (WI t ltac:(lia)) as [A _]. rewrite <- A. rewrite app_nth1 by (rewrite map_length; lia). rewrite (nth_indep (map _ lut) 0%nat ((fun p => nth p x 0%nat) 0%nat)) by (rewrite map_length; lia). rewrite (map_nth (fun p => nth p x 0%nat)). reflexivity.
  - intros t Ht. destruct (WI (K + t)%nat ltac:(lia)) as [A _]. rewrite <- A, BX by lia. f_equal. lia.
  - intros t Ht. destruct (WI t Ht) as [_ B]. rewrite <- B, BX by lia. f_equal. lia.
Qed.
Lemma sent_standard : forall K p0 p1 n lut x, (0 < n)%nat -> Nat.testbit p0 n = true -> Nat.testbit p1 n = true -> (forall i, (i < K)%nat -> (nth i lut 0 < K)%nat) ->
  legacy_code (rsc_code p0 p1 n false K) K (2 * n) lut x -> exists us ui, sent false K p0 p1 n p0 p1 n lut x us ui.
Proof.
  intros K p0 p1 n lut x H1 T0 T1 LB (LX & CN & CI).
  destruct (code_term p0 p1 n K H1 T0 T1 false _ CN) as (us & TU & WU). destruct (code_term p0 p1 n K H1 T0 T1 false _ CI) as (ui & TI & WI). exists us, ui.
  unfold path_word in WU, WI. cbn [sys_pos par_pos] in WU, WI. split; [exact TU|]. split; [exact TI|]. unfold pos_sn, pos_pn, pos_ti, pos_pi.
  assert (D0 : forall t, (2 * t / 2 = t /\ (2 * t) mod 2 = 0)%nat). { intros t. rewrite Nat.mul_comm, Nat.div_mul, Nat.mod_mul by lia. auto. }
  assert (D1 : forall t, ((2 * t + 1) / 2 = t /\ (2 * t + 1) mod 2 = 1)%nat). { intros t. rewrite Nat.add_comm, (Nat.mul_comm 2), Nat.div_add, Nat.mod_add by lia. auto. }
  split; [|split; [|split]].
  - intros t Ht. destruct (WU t Ht) as [A B]. rewrite <- A, <- B. unfold legacy_n. rewrite !nth_tab by lia. destruct (D0 t) as [-> ->]. destruct (D1 t) as [-> ->].
    destruct (Nat.ltb_spec t K); destruct (Nat.ltb_spec (2 * t) (2 * K)); destruct (Nat.ltb_spec (2 * t + 1) (2 * K)); try lia; split; f_equal; lia.
  - intros t Ht. destruct (WI t ltac:(lia)) as [A _]. rewrite <- A. unfold legacy_i. rewrite nth_tab by lia. destruct (D0 t) as [-> ->]. destruct (Nat.ltb_spec (2 * t) (2 * K)); [|lia]. cbn [Nat.eqb].
    pose proof (LB t Ht). destruct (Nat.ltb_spec (nth t lut 0%nat) K); [reflexivity|lia].
  - intros t Ht. destruct (WI (K + t)%nat ltac:(lia)) as [A _]. rewrite <- A. unfold legacy_i. rewrite nth_tab by lia. destruct (Nat.ltb_spec (2 * (K + t)) (2 * K)); [lia|]. f_equal. lia.
  - intros t Ht. destruct (WI t Ht) as [_ B]. rewrite <- B. unfold legacy_i. rewrite nth_tab by lia. destruct (D1 t) as [-> ->]. cbn [Nat.eqb].
    destruct (Nat.ltb_spec t K); destruct (Nat.ltb_spec (2 * t + 1) (2 * K)); try lia; f_equal; lia.
Qed.

(** ** C117 *)
(** After any calls, a frame whose values have the signs of a turbo codeword (or are zero, as
    punctured positions are), with no zero among the K systematic ones, decodes to the message
    of the codeword: for every interleaver and constituent codes, number of iterations, sign
    preserving scalings, with or without a CRC checker, and however many calls came before. *)
Theorem C117_buffered : forall psort v E m pi pi_inv N1 N2 p0 p1 ps q0 q1 qs e1 e2 t1 t2 n_ite fast b1 b2 s1 s2 m1 m2 pps N d fid Y V x,
  setting v E m pi pi_inv fast -> InterleaverModel.npw m = 1%nat ->
  let K := InterleaverModel.size m in let n1 := n_ff e1 in let n2 := n_ff e2 in
  rsc_generic_ctor K N1 (p0 :: p1 :: ps) = Ret e1 -> Nat.odd p0 = true -> get_trellis e1 = Ret t1 ->
  rsc_generic_ctor K N2 (q0 :: q1 :: qs) = Ret e2 -> Nat.odd q0 = true -> get_trellis e2 = Ret t2 ->
  short_reached t1 (2 ^ n1) K n1 b1 s1 m1 -> short_reached t2 (2 ^ n2) K n2 b2 s2 m2 -> scalings_crc pps ->
  turbo_reached psort E m pi pi_inv N t1 n1 t2 n2 n_ite true fast K K s1 s2 pps d ->
  turbo_code (rsc_code p0 p1 n1 true K) (rsc_code q0 q1 n2 true K) (2 * (K + n1)) (table m fid 0 pi) x ->
  length Y = N -> signs N x Y -> (forall i, (i < K)%nat -> nth i Y 0 <> 0) -> length V = 1%nat -> Forall (fun v => length v = K) V ->
  exists d', turbo_decode psort E m pi pi_inv N t1 n1 t2 n2 n_ite true fast fid d Y V = Ret (d', [tab K (fun i => Z.of_nat (nth i x 0%nat))]).
Proof.
  intros psort v E m pi pi_inv N1 N2 p0 p1 ps q0 q1 qs e1 e2 t1 t2 n_ite fast b1 b2 s1 s2 m1 m2 pps N d fid Y V x ST W1 K n1 n2 HC1 OD1 HT1 HC2 OD2 HT2 R1 R2 PS R CW LY SG NZ LV FV.
  destruct (setup _ _ _ _ _ _ _ HC1 OD1 HT1) as (Hn1 & HK & _ & T0 & T1 & _). destruct (setup _ _ _ _ _ _ _ HC2 OD2 HT2) as (Hn2 & _ & _ & T2 & T3 & _). fold n1 in Hn1, T0, T1. fold n2 in Hn2, T2, T3.
  assert (LT : length (table m fid 0 pi) = K /\ forall i, (i < K)%nat -> (nth i (table m fid 0 pi) 0 < K)%nat).
  { destruct ST as (_ & _ & Hc & (_ & _ & GT) & HU & _). unfold table. fold K.
    destruct (GT (if InterleaverModel.uniform m then ((fid + 0) mod InterleaverModel.nf m)%nat else 0%nat)) as ((L1 & L2 & _) & _).
    { destruct (InterleaverModel.uniform m) eqn:EU; [|lia]. specialize (HU eq_refl). apply Nat.lt_le_trans with (InterleaverModel.nf m); [apply Nat.mod_upper_bound; lia|lia]. } auto. }
  destruct (sent_buffered K p0 p1 n1 q0 q1 n2 (table m fid 0 pi) x Hn1 Hn2 T0 T1 T2 T3 (proj1 LT) (proj2 LT) CW) as (us & ui & SN).
  destruct (core psort v E m pi pi_inv N1 N2 p0 p1 ps q0 q1 qs e1 e2 t1 t2 n_ite true fast b1 b2 s1 s2 m1 m2 pps N d fid Y V x us ui ST W1 HC1 OD1 HT1 HC2 OD2 HT2 R1 R2 PS R SN LY SG NZ LV FV) as (d' & ED).
  exists d'. etransitivity; [exact ED|]. do 3 f_equal. apply tab_ext. intros i Hi. f_equal. symmetry. destruct SN as (_ & _ & A & _). apply (A i). fold K in Hi. lia.
Qed.

Theorem C117_standard : forall psort v E m pi pi_inv N1 p0 p1 ps e t n_ite fast b1 b2 s1 s2 m1 m2 pps N d fid Y V x,
  setting v E m pi pi_inv fast -> InterleaverModel.npw m = 1%nat ->
  let K := InterleaverModel.size m in let n := n_ff e in
  rsc_generic_ctor K N1 (p0 :: p1 :: ps) = Ret e -> Nat.odd p0 = true -> get_trellis e = Ret t ->
  short_reached t (2 ^ n) K n b1 s1 m1 -> short_reached t (2 ^ n) K n b2 s2 m2 -> scalings_crc pps ->
  turbo_reached psort E m pi pi_inv N t n t n n_ite false fast K K s1 s2 pps d ->
  legacy_code (rsc_code p0 p1 n false K) K (2 * n) (table m fid 0 pi) x ->
  length Y = N -> signs N x Y -> (forall i, (i < K)%nat -> nth (3 * i) Y 0 <> 0) -> length V = 1%nat -> Forall (fun v => length v = K) V ->
  exists d', turbo_decode psort E m pi pi_inv N t n t n n_ite false fast fid d Y V = Ret (d', [tab K (fun i => Z.of_nat (nth (3 * i) x 0%nat))]).
Proof.
  intros psort v E m pi pi_inv N1 p0 p1 ps e t n_ite fast b1 b2 s1 s2 m1 m2 pps N d fid Y V x ST W1 K n HC1 OD1 HT1 R1 R2 PS R CW LY SG NZ LV FV.
  destruct (setup _ _ _ _ _ _ _ HC1 OD1 HT1) as (Hn1 & HK & _ & T0 & T1 & _). fold n in Hn1, T0, T1.
  assert (LT : forall i, (i < K)%nat -> (nth i (table m fid 0 pi) 0 < K)%nat).
  { destruct ST as (_ & _ & Hc & (_ & _ & GT) & HU & _). unfold table. fold K.
    destruct (GT (if InterleaverModel.uniform m then ((fid + 0) mod InterleaverModel.nf m)%nat else 0%nat)) as ((L1 & L2 & _) & _).
    { destruct (InterleaverModel.uniform m) eqn:EU; [|lia]. specialize (HU eq_refl). apply Nat.lt_le_trans with (InterleaverModel.nf m); [apply Nat.mod_upper_bound; lia|lia]. } auto. }
  destruct (sent_standard K p0 p1 n (table m fid 0 pi) x Hn1 T0 T1 LT CW) as (us & ui & SN).
  assert (PS3 : forall i, (i < K)%nat -> pos_sn false K i = (3 * i)%nat) by (intros i Hi; unfold pos_sn; destruct (Nat.ltb_spec i K); [reflexivity|lia]).
  assert (NZ' : forall i, (i < K)%nat -> nth (pos_sn false K i) Y 0 <> 0) by (intros i Hi; rewrite PS3 by exact Hi; auto).
  destruct (core psort v E m pi pi_inv N1 N1 p0 p1 ps p0 p1 ps e e t t n_ite false fast b1 b2 s1 s2 m1 m2 pps N d fid Y V x us ui ST W1 HC1 OD1 HT1 HC1 OD1 HT1 R1 R2 PS R SN LY SG NZ' LV FV) as (d' & ED).
  exists d'. etransitivity; [exact ED|]. do 3 f_equal. apply tab_ext. intros i Hi. fold K in Hi. f_equal. symmetry. destruct SN as (_ & _ & A & _). rewrite <- PS3 by exact Hi. apply (A i). lia.
Qed.

(** From the encoder to the decoder: whatever the message, the word that the encoder writes is
    decoded to the message when the values received have its signs. *)
Theorem C117_round_trip : forall psort v E m pi pi_inv N N1 N2 p0 p1 q0 q1 e1 e2 t1 t2 n_ite fast b1 b2 s1 s2 m1 m2 pps d fid u xb ub tmp,
  setting v E m pi pi_inv fast -> InterleaverModel.npw m = 1%nat ->
  let K := InterleaverModel.size m in let n1 := n_ff e1 in let n2 := n_ff e2 in
  turbo_pair K N N1 N2 p0 p1 q0 q1 e1 e2 (table m fid 0 pi) ->
  Nat.odd p0 = true -> get_trellis e1 = Ret t1 -> Nat.odd q0 = true -> get_trellis e2 = Ret t2 ->
  short_reached t1 (2 ^ n1) K n1 b1 s1 m1 -> short_reached t2 (2 ^ n2) K n2 b2 s2 m2 -> scalings_crc pps ->
  turbo_reached psort E m pi pi_inv N t1 n1 t2 n2 n_ite true fast K K s1 s2 pps d ->
  bits u -> length u = K -> length xb = N -> length ub = K -> length tmp = Nat.max N1 N2 ->
  exists x, turbo_encode K (rsc_encoder e1 true K) (rsc_encoder e2 true K) (table m fid 0 pi) ub tmp u xb = Ret x /\ forall Y V, length Y = N -> signs N x Y -> (forall i, (i < K)%nat -> nth i Y 0 <> 0) -> length V = 1%nat -> Forall (fun v => length v = K) V ->
    exists d', turbo_decode psort E m pi pi_inv N t1 n1 t2 n2 n_ite true fast fid d Y V = Ret (d', [map Z.of_nat u]).
Proof.
  intros psort v E m pi pi_inv N N1 N2 p0 p1 q0 q1 e1 e2 t1 t2 n_ite fast b1 b2 s1 s2 m1 m2 pps d fid u xb ub tmp ST W1 K n1 n2 TP OD1 HT1 OD2 HT2 R1 R2 PS R BU LU LX LUB LT.
  destruct (C20_encode _ _ _ _ _ _ _ _ _ _ _ u xb ub tmp TP BU LU LX LUB LT) as (x & EX & LO & CW & FU). exists x. split; [exact EX|]. intros Y V LY SG NZ LV FV.
  pose proof TP as (HC1 & HC2 & _ & _). assert (N1 = (2 * (K + n1))%nat) as EN1. { destruct (setup _ _ _ _ _ _ _ HC1 OD1 HT1) as (_ & _ & EN & _). exact EN. } rewrite EN1 in CW.
  destruct (C117_buffered psort v E m pi pi_inv N1 N2 p0 p1 [] q0 q1 [] e1 e2 t1 t2 n_ite fast b1 b2 s1 s2 m1 m2 pps N d fid Y V x ST W1 HC1 OD1 HT1 HC2 OD2 HT2 R1 R2 PS R CW LY SG NZ LV FV) as (d' & ED).
  exists d'. etransitivity; [exact ED|]. do 3 f_equal. rewrite <- FU. symmetry. apply (eq_tab _ (Z.of_nat 0)). { rewrite map_length, FU. exact LU. } intros i Hi. rewrite map_nth. f_equal. apply WLoops.nth_firstn_lt. exact Hi.
Qed.

(** ** Example: the code (7, 5) twice, three bits interleaved by 2 0 1; a call on a noisy frame, then
    one on a frame with punctured parities. *)
Definition m3 : InterleaverModel.itl := {| InterleaverModel.size := 3; InterleaverModel.uniform := false; InterleaverModel.core_nf := 1; InterleaverModel.nf := 1; InterleaverModel.npw := 1; InterleaverModel.nel := 8 |}.
Lemma m3_setting : forall fast, setting 3 8 m3 [2; 0; 1]%nat [1; 2; 0]%nat fast.
Proof.
  intros fast. unfold setting. cbn [InterleaverModel.size InterleaverModel.uniform InterleaverModel.core_nf InterleaverModel.nf InterleaverModel.npw m3].
  split; [reflexivity|]. split; [lia|]. split; [lia|]. split.
  { split; [reflexivity|]. split; [reflexivity|]. intros f Hf. assert (f = 0%nat) as -> by lia.
    assert (E : forall (P : nat -> Prop), P 0%nat -> P 1%nat -> P 2%nat -> forall i, (i < 3)%nat -> P i). { intros P ? ? ? i Hi. destruct i as [|[|[|i]]]; auto; lia. }
    unfold permutation_table, undoes, frame. cbn [Nat.mul skipn firstn length].
    repeat split; try (apply E; cbn; lia); intros i j Hi Hj; destruct i as [|[|[|i]]]; destruct j as [|[|[|j]]]; cbn; lia. }
  split; [discriminate|]. split; [auto|]. split; [|auto]. intros k Hk E2. destruct k as [|k]; [lia|]. exfalso. cbn [Nat.pow] in E2. pose proof (Nat.pow_nonzero 2 k). lia.
Qed.
Definition pps3 : list (pp Z) := [PScale Z (fun _ x => Z.quot x 2) (fun _ x => x); PCrc Z 1 (fun _ => false)].
Lemma pps3_ok : scalings_crc pps3.
Proof.
  exists [(fun _ x => Z.quot x 2, fun _ x => x)]. split.
  - constructor; [|constructor]. cbn [fst snd]. split; intros k x; split; intros H; auto; [apply Z.quot_pos; lia|]. assert (Z.quot (- x) 2 = - Z.quot x 2) as E by (apply Z.quot_opp_l; lia). pose proof (Z.quot_pos (- x) 2). lia.
  - right. exists 1%nat, (fun _ => false). reflexivity.
Qed.
Example C117_example : exists e t d0 d1 V1 d2, let x := [1; 1; 0; 1; 1; 1; 0; 0; 0; 1; 1; 0; 0; 1; 0; 1; 0]%nat in
  rsc_generic_ctor 3 10 [7; 5]%nat = Ret e /\ get_trellis e = Ret t /\ turbo_pair 3 17 10 10 7 5 7 5 e e (table m3 0 0 [2; 0; 1]%nat) /\
  turbo_encode 3 (rsc_encoder e true 3) (rsc_encoder e true 3) (table m3 0 0 [2; 0; 1]%nat) [9; 9; 9]%nat (repeat 9%nat 10) [1; 1; 0]%nat (repeat 9%nat 17) = Ret x /\
  turbo_reached (fun _ => []) 8 m3 [2; 0; 1]%nat [1; 2; 0]%nat 17 t 2 t 2 2 true true 3 3 (init75 3) (init75 3) pps3 d0 /\
  turbo_decode (fun _ => []) 8 m3 [2; 0; 1]%nat [1; 2; 0]%nat 17 t 2 t 2 2 true true 0 d0 [3; -4; 1; 2; -5; 6; 2; -1; 1; 3; 4; 0; 1; 2; -7; 2; 1] [[7; 7; 7]] = Ret (d1, V1) /\
  turbo_reached (fun _ => []) 8 m3 [2; 0; 1]%nat [1; 2; 0]%nat 17 t 2 t 2 2 true true 3 3 (init75 3) (init75 3) pps3 d1 /\
  signs 17 x [-1; -9; 2; -3; -4; 0; 0; 0; 8; -2; 0; 0; 1; -1; 4; 0; 0] /\
  turbo_decode (fun _ => []) 8 m3 [2; 0; 1]%nat [1; 2; 0]%nat 17 t 2 t 2 2 true true 0 d1 [-1; -9; 2; -3; -4; 0; 0; 0; 8; -2; 0; 0; 1; -1; 4; 0; 0] [[7; 7; 7]] = Ret (d2, [[1; 1; 0]]).
Proof.
  do 6 eexists. cbv zeta. split; [vm_compute; reflexivity|]. split; [vm_compute; reflexivity|]. split.
  { unfold turbo_pair. split; [vm_compute; reflexivity|]. split; [vm_compute; reflexivity|]. split; [vm_compute; reflexivity|]. vm_compute. repeat constructor. }
  split; [vm_compute; reflexivity|]. split; [apply reached_ctor; vm_compute; reflexivity|]. split; [vm_compute; reflexivity|]. split.
  { eapply (reached_decode Z) with (Y := [3; -4; 1; 2; -5; 6; 2; -1; 1; 3; 4; 0; 1; 2; -7; 2; 1]) (V := [[7; 7; 7]]) (fid := 0%nat); [apply reached_ctor; vm_compute; reflexivity|reflexivity|reflexivity|repeat constructor|vm_compute; reflexivity]. }
  split.
  { intros q Hq. do 17 (destruct q as [|q]; [unfold agrees; cbn; lia|]). lia. }
  vm_compute; reflexivity.
Qed.
