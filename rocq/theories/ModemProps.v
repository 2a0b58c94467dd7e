(** C93 to C96: the generic modem.  Rational numbers, exact or rounded. *)
From Coq Require Import List Arith Lia Bool ZArith QArith Qround Qabs Qreduction Lqa.
From Verif Require Import Base FloatQ Copy WLoops ModemModel ModemSpec ModemProofs.
From Verif Require NoiseProps.
Import ListNotations.
Local Open Scope nat_scope.

(** No rounding. *)
Definition idq (x : Q) : Q := x.
Notation exact := (QA idq).
Notation QM rnd := (modem (QA rnd)).

(** The modem: constellations with at least two symbols; a constellation that is not complex has points on the real axis. *)
Definition points rnd (c : cstl (QA rnd)) : list point := c_sym (QA rnd) c.
Definition proper rnd (c : cstl (QA rnd)) : Prop :=
  1 <= c_bps (QA rnd) c <= 30 /\ length (points rnd c) = 2 ^ c_bps (QA rnd) c /\
  (c_cplx (QA rnd) c = false -> Forall (fun s => (snd s == 0)%Q) (points rnd c)).

(* ------------------------------------------------------------------ *)
(** * The maximum of a list *)

Lemma fold_max_in : forall r x, In (fold_left max_q r x) (x :: r).
Proof.
  induction r as [|y r IH]; intros x; cbn [fold_left]; [left; auto|]. destruct (IH (max_q x y)) as [H|H].
  - unfold max_q in *. destruct (Qlt_le_dec x y); rewrite <- H; [right; left|left]; auto.
  - right. right. auto.
Qed.
Lemma fold_max_ge : forall r x y, In y (x :: r) -> (y <= fold_left max_q r x)%Q.
Proof.
  assert (A : forall r x, (x <= fold_left max_q r x)%Q).
  { induction r as [|y r IH]; intros x; cbn [fold_left]; [apply Qle_refl|]. eapply Qle_trans; [|apply IH].
    unfold max_q. destruct (Qlt_le_dec x y); lra. }
  induction r as [|z r IH]; intros x y [H|H]; cbn [fold_left].
  - subst. apply Qle_refl.
  - destruct H.
  - subst. eapply Qle_trans; [|apply A]. unfold max_q. destruct (Qlt_le_dec y z); lra.
  - destruct H as [->|H]; [eapply Qle_trans; [|apply A]; unfold max_q; destruct (Qlt_le_dec x y); lra|]. apply IH. right. auto.
Qed.

(** The LLR of finite metrics: the difference of the largest values of the two classes. *)
Lemma llr_of_max : forall rnd ns b (v : nat -> option Q) r, llr_of (QA rnd) max_q ns b v r ->
  exists m0 m1, r = Qred (rnd (m0 - m1)%Q) /\
    (exists j, j < ns /\ Nat.testbit j b = false /\ v j = Some m0) /\
    (forall j x, j < ns -> Nat.testbit j b = false -> v j = Some x -> (x <= m0)%Q) /\
    (exists j, j < ns /\ Nat.testbit j b = true /\ v j = Some m1) /\
    (forall j x, j < ns -> Nat.testbit j b = true -> v j = Some x -> (x <= m1)%Q).
Proof.
  intros rnd ns b v r (x0 & r0 & x1 & r1 & G0 & G1 & ->). exists (fold_left max_q r0 x0), (fold_left max_q r1 x1).
  split; [reflexivity|].
  pose proof (fold_max_in r0 x0) as I0. pose proof (fold_max_in r1 x1) as I1. change (num (QA rnd)) with Q in *.
  rewrite <- G0 in I0. rewrite <- G1 in I1. apply (gather_In (QA rnd)) in I0. apply (gather_In (QA rnd)) in I1.
  destruct I0 as (j0 & J0 & P0 & E0). destruct I1 as (j1 & J1 & P1 & E1).
  split; [exists j0; split; auto; split; auto; destruct (Nat.testbit j0 b); auto; discriminate|].
  split; [|split; [exists j1; auto|]].
  - intros j x Hj Hb Hv. apply fold_max_ge. rewrite <- G0. apply (gather_In (QA rnd)). exists j. rewrite Hb. auto.
  - intros j x Hj Hb Hv. apply fold_max_ge. rewrite <- G1. apply (gather_In (QA rnd)). exists j. auto.
Qed.

Lemma proper_well : forall rnd N c dis types m, make_modem (QA rnd) N c dis types = Ret m -> proper rnd c -> (Z.of_nat N < 2 ^ 24)%Z ->
  well (QA rnd) m /\ m_N _ m = N /\ m_c _ m = c /\ m_dis _ m = dis /\ m_types _ m = types /\ m_inv _ m = 1%Q /\ m_last _ m = None.
Proof.
  intros rnd N c dis types m E (B & L & _) HN. apply (make_well (QA rnd) N c dis types m E); auto.
  lia.
Qed.

Lemma q_cp_law : forall rnd, (forall x y, (x == y)%Q -> (rnd x == rnd y)%Q) -> cp_law (QA rnd).
Proof.
  intros rnd HR x y E. cbn [neq QA] in E. apply negb_false_iff, Qeq_bool_iff in E. unfold factor. cbn [QA dvd mul ofZ].
  assert (E1 : Qred (rnd (inject_Z 2 * x)%Q) = Qred (rnd (inject_Z 2 * y)%Q)) by (apply Qred_complete, HR; rewrite E; reflexivity).
  rewrite E1. apply Qred_complete, HR. apply Qdiv_comp; [reflexivity|]. apply Qred_comp, HR. rewrite E. reflexivity.
Qed.

(** After any calls without filter the demodulator uses the factor of its channel parameter. *)
Lemma after_history : forall rnd MAX N c dis m0 cs m CP, (forall x y, (x == y)%Q -> (rnd x == rnd y)%Q) ->
  make_modem (QA rnd) N c dis true = Ret m0 -> proper rnd c -> (Z.of_nat N < 2 ^ 24)%Z ->
  Forall (no_filter (QA rnd)) cs -> history (QA rnd) MAX m0 cs = Ret m ->
  let m' := set_cp (QA rnd) m CP in
  well (QA rnd) m' /\ m_N _ m' = N /\ m_c _ m' = c /\ m_types _ m' = true /\ m_Nmod _ m' = m_Nmod _ m0 /\
  m_inv _ m' = factor (QA rnd) dis CP.
Proof.
  intros rnd MAX N c dis m0 cs m CP HR E P HN NF EH m'. destruct (proper_well _ _ _ _ _ _ E P HN) as (W & E1 & E2 & E3 & E4 & E5 & E6).
  assert (S0 : in_sync (QA rnd) m0) by (unfold in_sync; rewrite E6; intros _; exact E5).
  destruct (history_sync (QA rnd) (q_cp_law rnd HR) MAX cs m0 m S0 NF EH) as [S SB].
  pose proof (set_cp_same (QA rnd) m CP) as SB'. fold m' in SB'.
  assert (SB2 : same_but_cp (QA rnd) m0 m') by (eapply same_trans; eauto).
  pose proof (set_cp_inv (QA rnd) (q_cp_law rnd HR) m CP S) as SI. fold m' in SI.
  destruct SB as (_ & _ & _ & D & _). rewrite D, E3 in SI. split; [eapply same_well; eauto|].
  destruct SB2 as (Q1 & Q2 & Q3 & Q4 & Q5). rewrite Q1, Q2, Q3, Q5. auto 10.
Qed.

(* ------------------------------------------------------------------ *)
(** * C93: modulation *)

Lemma nth_carries : forall b X k j, carries b X k j -> j = lbl X (k * b) b.
Proof.
  intros b X k j [L H]. apply Nat.bits_inj. intros l. rewrite lbl_bits. destruct (Nat.ltb_spec l b); cbn [andb]; auto.
  apply (testbit_above j b); auto.
Qed.
Lemma lbl_carries : forall b X k, carries b X k (lbl X (k * b) b).
Proof. intros. split; [apply lbl_lt|]. intros l Hl. rewrite lbl_bits. destruct (Nat.ltb_spec l b); auto; lia. Qed.

Lemma modulate_ok : forall A m X X2, well A m -> length X = m_N A m -> length X2 = m_Nmod A m ->
  exists Z, modulate A m X X2 = Ret Z /\ length Z = m_Nmod A m /\
    forall k, k < msize (m_N A m) (c_bps A (m_c A m)) ->
      if c_cplx A (m_c A m) then nth (2 * k) Z (ofZ A 0) = fst (sym_of A (m_c A m) X k) /\ nth (2 * k + 1) Z (ofZ A 0) = snd (sym_of A (m_c A m) X k)
      else nth k Z (ofZ A 0) = fst (sym_of A (m_c A m) X k).
Proof.
  intros A m X X2 [Wb Ws WN Wm] LX L2. unfold modulate. destruct (c_cplx A (m_c A m)) eqn:EC.
  - rewrite modulate_complex_ok by auto. eexists. split; [reflexivity|]. rewrite length_tab. split; auto. intros k Hk.
    rewrite !nth_tab by lia. rewrite parts_even, parts_odd. auto.
  - rewrite Nat.mul_1_r in Wm. rewrite modulate_real_ok by auto. eexists. split; [reflexivity|]. rewrite length_tab. split; auto. intros k Hk.
    rewrite nth_tab by lia. reflexivity.
Qed.

(** modulate writes all of its output: the point k is the one whose label carries the bits of position k. *)
Theorem C93_modulate : forall rnd N c dis types m, proper rnd c -> (Z.of_nat N < 2 ^ 24)%Z ->
  make_modem (QA rnd) N c dis types = Ret m -> forall X X2, length X = N -> length X2 = m_Nmod _ m ->
  m_Nmod _ m = ((N + c_bps _ c - 1) / c_bps _ c) * (if c_cplx _ c then 2 else 1) /\
  exists Z, modulate (QA rnd) m X X2 = Ret Z /\ length Z = m_Nmod _ m /\
    forall k, k * c_bps _ c < N -> exists j, carries (c_bps _ c) X k j /\
      same_point (point_of (c_cplx _ c) Z k) (nth j (points rnd c) (0, 0)%Q).
Proof.
  intros rnd N c dis types m P HN E X X2 LX L2. destruct (proper_well _ _ _ _ _ _ E P HN) as (W & E1 & E2 & _).
  split; [rewrite (w_mod _ _ W), E1, E2; reflexivity|].
  destruct (modulate_ok (QA rnd) m X X2) as (Z & EZ & LZ & I); auto; try congruence. exists Z. split; auto. split; auto. intros k Hk.
  exists (lbl X (k * c_bps _ c) (c_bps _ c)). split; [apply lbl_carries|]. destruct P as ((Pb1 & Pb2) & PL & PR). specialize (I k). rewrite E1, E2 in I.
  assert (K : k < msize N (c_bps (QA rnd) c)) by (pose proof (msize_bounds N (c_bps (QA rnd) c) Pb1 ltac:(lia)); nia). specialize (I K).
  unfold same_point, point_of. change (num (QA rnd)) with Q in *. change (ofZ (QA rnd) 0) with 0%Q in *.
  destruct (c_cplx (QA rnd) c) eqn:EC; cbn [fst snd].
  - destruct I as [I1 I2]. rewrite I1, I2. split; reflexivity.
  - rewrite I. split; [reflexivity|]. symmetry.
    specialize (PR eq_refl). rewrite Forall_forall in PR. apply PR. apply nth_In. rewrite PL. apply lbl_lt.
Qed.

(** Above 2^24 bits the size computed with floats is too small: with one bit per symbol and 2^24 + 1 bits, the modulation of
    a real constellation writes after the end of its output, for all bits and all constellations. *)
Theorem C93_size_refuted : forall N, Z.of_nat N = (2 ^ 24 + 1)%Z ->
  (Z.of_nat (n_mod N 1 false) < Z.of_nat N)%Z /\
  forall rnd (c : cstl (QA rnd)) dis types m X X2 r, c_bps _ c = 1 -> c_cplx _ c = false ->
    make_modem (QA rnd) N c dis types = Ret m -> length X2 = m_Nmod _ m -> modulate (QA rnd) m X X2 <> Ret r.
Proof.
  intros N HN. assert (S : (Z.of_nat (n_mod N 1 false) < Z.of_nat N)%Z).
  { unfold n_mod. rewrite HN.
    assert (EC : (Qceiling (fl 24 (fl 24 (inject_Z (2 ^ 24 + 1)) / fl 24 (inject_Z (Z.of_nat 1)))) * 1 = 2 ^ 24)%Z) by (vm_compute; reflexivity).
    rewrite EC. rewrite Z2Nat.id by lia. lia. }
  split; auto. intros rnd c dis types m X X2 r B1 B2 E L2 F. unfold make_modem in E. rewrite B1 in E. cbn [Nat.eqb] in E. rewrite B2 in E.
  cbv zeta in E. destruct (guard (0 <? N)); try discriminate. cbn [bind] in E. destruct (guard (0 <? n_mod N 1 false)); try discriminate. cbn [bind] in E.
  inversion E; subst; clear E. unfold modulate in F. cbn [m_c m_N m_Nmod] in *. rewrite B2 in F. unfold modulate_real in F. cbn [m_c m_N m_Nmod] in F. rewrite B1 in F.
  rewrite Nat.div_1_r in F. apply bind_inv in F. destruct F as (Z & F & _).
  assert (K : n_mod N 1 false < N) by lia.
  assert (X0 : length Z = n_mod N 1 false /\ N <= n_mod N 1 false).
  { apply (for_part _ (fun t (Z : list Q) => length Z = n_mod N 1 false /\ t <= n_mod N 1 false)) in F; auto; [split; [auto|lia]|].
    intros i s s' Hi [I1 I2] Eb. apply bind_inv in Eb. destruct Eb as (idx & _ & Eb). apply bind_inv in Eb. destruct Eb as (sy & _ & Eb).
    destruct (Nat.lt_ge_cases i (length s)) as [Li|Li].
    - rewrite wr_ok in Eb by auto. inversion Eb; subst. rewrite length_upd. split; [auto|]. change (num (QA rnd)) with Q in *. lia.
    - rewrite wr_out in Eb by auto. discriminate. }
  lia.
Qed.

(* ------------------------------------------------------------------ *)
(** * C94: demodulation *)

Definition far rnd (c : cstl (QA rnd)) (H : option (list Q)) (Y : list Q) (k j : nat) : Q :=
  dist2 (point_of (c_cplx _ c) Y k) (through (c_cplx _ c) H k (nth j (points rnd c) (0, 0)%Q)).
(** 1 / (2 sigma^2), or 1 without sigma. *)
Definition scale (dis : bool) (CP : Q) : Q := if dis then 1%Q else (1 / (2 * CP * CP))%Q.

Ltac fixn := cbn [num QA] in *; change (inject_Z 0) with 0%Q in *; change (inject_Z 1) with 1%Q in *.
Ltac qred := repeat (unfold idq; rewrite Qred_correct); unfold idq.

Lemma scale_pos : forall dis CP, (dis = false -> (0 < CP)%Q) -> (0 < scale dis CP)%Q.
Proof.
  intros [] CP H; unfold scale; [reflexivity|]. specialize (H eq_refl).
  apply Qlt_shift_div_l; [|lra]. apply Qmult_lt_0_compat; auto. lra.
Qed.
Lemma factor_exact : forall dis CP, (factor exact dis CP == scale dis CP)%Q.
Proof. intros [] CP; unfold factor, scale; [reflexivity|]. cbn [QA dvd mul ofZ]. qred. reflexivity. Qed.

Lemma not_complex : forall rnd c, proper rnd c -> c_cplx _ c = false -> forall j, (snd (nth j (points rnd c) (0, 0)%Q) == 0)%Q.
Proof.
  intros rnd c (_ & _ & P) E j. specialize (P E). destruct (Nat.lt_ge_cases j (length (points rnd c))) as [L|L].
  - rewrite Forall_forall in P. apply P, nth_In, L.
  - rewrite nth_overflow by auto. reflexivity.
Qed.

Lemma metric_exact : forall m H Y k j, proper idq (m_c _ m) ->
  (metric_d exact m H Y k j == - far idq (m_c _ m) H Y k j)%Q /\ (metric_t exact m H Y k j == far idq (m_c _ m) H Y k j)%Q.
Proof.
  intros m H Y k j P. unfold metric_d, metric_t, far, dist2, through, point_of, exp_c, exp_r, at_c.
  change (nth j (points idq (m_c exact m)) (0, 0)%Q) with (sym exact m j). pose proof (not_complex _ _ P) as Z0.
  specialize (fun E => Z0 E j). change (nth j (points idq (m_c exact m)) (0, 0)%Q) with (sym exact m j) in Z0.
  generalize dependent (sym exact m j). intros s Z0. destruct (c_cplx exact (m_c exact m)) eqn:EC.
  - clear Z0. destruct H as [H|]; unfold cnorm, csub, cmul, times; cbn [QA add sub mul opp fst snd ofZ]; qred; fixn; split; ring.
  - specialize (Z0 eq_refl). destruct H as [H|]; unfold times; cbn [QA add sub mul opp fst snd ofZ]; qred; fixn; rewrite Z0; split; ring.
Qed.

Lemma red_mul : forall a b c d : Q, (a == b)%Q -> (c == d)%Q -> (Qred (idq (a * c)) == b * d)%Q.
Proof. intros a b c d E F. qred. rewrite E, F. reflexivity. Qed.
Lemma cancel_scale : forall a b s : Q, (0 < s)%Q -> (- (a * s) <= - (b * s))%Q -> (b <= a)%Q.
Proof. intros a b s S H. apply (Qmult_le_r _ _ s); auto. lra. Qed.
Lemma red_sub : forall a b c d : Q, (a == b)%Q -> (c == d)%Q -> (Qred (idq (a - c)) == b - d)%Q.
Proof. intros a b c d E F. qred. rewrite E, F. reflexivity. Qed.
Lemma exact_rnd : forall x y : Q, (x == y)%Q -> (idq x == idq y)%Q.
Proof. auto. Qed.

Theorem C94_max_log : forall N c dis m0 cs m CP H Y Y2, proper idq c -> (Z.of_nat N < 2 ^ 24)%Z ->
  make_modem exact N c dis true = Ret m0 -> Forall (no_filter exact) cs -> history exact max_q m0 cs = Ret m ->
  (dis = false -> (0 < CP)%Q) ->
  length Y = m_Nmod _ m0 -> gains_ok exact (m_Nmod _ m0) H -> length Y2 = N ->
  exists m' L, demodulate exact max_q m CP H Y Y2 = Ret (m', L) /\ length L = N /\
    forall n, n < N -> let b := n mod c_bps _ c in let k := n / c_bps _ c in
      exists d0 d1,
        least (2 ^ c_bps _ c) (fun j => Nat.testbit j b = false) (far idq c H Y k) d0 /\
        least (2 ^ c_bps _ c) (fun j => Nat.testbit j b = true) (far idq c H Y k) d1 /\
        (nth n L 0 == (d1 - d0) * scale dis CP)%Q.
Proof.
  intros N c dis m0 cs m CP H Y Y2 P HN E NF EH HC LY G L2.
  destruct (after_history _ _ _ _ _ _ _ _ CP exact_rnd E P HN NF EH) as (W & E1 & E2 & E3 & E4 & E5).
  set (m1 := set_cp exact m CP) in *.
  destruct (demodulate_ok exact max_q m1 H Y Y2) as (L & EL & LL & I); auto; try congruence.
  unfold demodulate. fold m1. rewrite EL. cbn [bind]. eexists _, L. split; [reflexivity|]. split; [congruence|].
  intros n Hn. set (b := n mod c_bps exact c). set (k := n / c_bps exact c). specialize (I n ltac:(congruence)). rewrite E2 in I. fold b k in I.
  apply llr_of_max in I. destruct I as (v0 & v1 & ER & (j0 & J0 & B0 & V0) & M0 & (j1 & J1 & B1 & V1) & M1).
  pose proof (scale_pos dis CP HC) as SP. pose proof (factor_exact dis CP) as FE. rewrite <- E5 in FE.
  assert (MV : forall j, (mul exact (metric_d exact m1 H Y k j) (m_inv exact m1) == - (far idq c H Y k j * scale dis CP))%Q).
  { intros j. destruct (metric_exact m1 H Y k j) as [M _]; [rewrite E2; auto|]. rewrite E2 in M. cbn [QA mul].
    etransitivity; [apply (red_mul _ _ _ _ M FE)|ring]. }
  unfold n_symbs in *. 
  assert (V0' : mul exact (metric_d exact m1 H Y k j0) (m_inv exact m1) = v0) by congruence.
  assert (V1' : mul exact (metric_d exact m1 H Y k j1) (m_inv exact m1) = v1) by congruence. clear V0 V1.
  exists (far idq c H Y k j0), (far idq c H Y k j1). split; [|split].
  - split; [exists j0; split; [exact J0|split; [exact B0|reflexivity]]|]. intros j Hj Hb. specialize (M0 j _ Hj Hb eq_refl). rewrite <- V0' in M0.
    apply (cancel_scale _ _ (scale dis CP)); auto. rewrite <- !MV. exact M0.
  - split; [exists j1; split; [exact J1|split; [exact B1|reflexivity]]|]. intros j Hj Hb. specialize (M1 j _ Hj Hb eq_refl). rewrite <- V1' in M1.
    apply (cancel_scale _ _ (scale dis CP)); auto. rewrite <- !MV. exact M1.
  - change (nth n L 0%Q) with (nth n L (ofZ exact 0)). rewrite ER.
    pose proof (MV j0) as M0'. pose proof (MV j1) as M1'. rewrite V0' in M0'. rewrite V1' in M1'.
    etransitivity; [apply (red_sub _ _ _ _ M0' M1')|ring].
Qed.

(** The sign of the LLR is the bit of every nearest symbol. *)
Theorem C94_decision : forall N c dis m0 cs m CP H Y Y2 m' L, proper idq c -> (Z.of_nat N < 2 ^ 24)%Z ->
  make_modem exact N c dis true = Ret m0 -> Forall (no_filter exact) cs -> history exact max_q m0 cs = Ret m ->
  (dis = false -> (0 < CP)%Q) ->
  length Y = m_Nmod _ m0 -> gains_ok exact (m_Nmod _ m0) H -> length Y2 = N ->
  demodulate exact max_q m CP H Y Y2 = Ret (m', L) ->
  forall n j, n < N -> j < 2 ^ c_bps _ c ->
    (forall i, i < 2 ^ c_bps _ c -> (far idq c H Y (n / c_bps _ c) j <= far idq c H Y (n / c_bps _ c) i)%Q) ->
    ~ (nth n L 0 == 0)%Q -> tells (Nat.testbit j (n mod c_bps _ c)) (nth n L 0%Q).
Proof.
  intros N c dis m0 cs m CP H Y Y2 m' L P HN E NF EH HC LY G L2 ED n j Hn Hj Near NZ.
  destruct (C94_max_log _ _ _ _ _ _ _ _ _ _ P HN E NF EH HC LY G L2) as (m1 & L1 & ED1 & _ & I). rewrite ED in ED1. inversion ED1; subst m1 L1; clear ED1.
  destruct (I n Hn) as (d0 & d1 & ((j0 & J0 & B0 & Q0) & M0) & ((j1 & J1 & B1 & Q1) & M1) & EL). clear I.
  pose proof (scale_pos dis CP HC) as SP. unfold tells. destruct (Nat.testbit j (n mod c_bps exact c)) eqn:Eb.
  - specialize (M1 j Hj Eb). pose proof (Near j0 J0) as X. rewrite Q0 in X.
    assert (D : (d1 <= d0)%Q) by lra. destruct (Qlt_le_dec (nth n L 0) 0)%Q as [|F]; auto. exfalso. apply NZ.
    assert (X1 : ((d1 - d0) * scale dis CP <= 0)%Q).
    { setoid_replace 0%Q with (0 * scale dis CP)%Q by ring. apply Qmult_le_compat_r; lra. }
    rewrite <- EL in X1. lra.
  - specialize (M0 j Hj Eb). pose proof (Near j1 J1) as X. rewrite Q1 in X.
    assert (D : (d0 <= d1)%Q) by lra. destruct (Qlt_le_dec 0 (nth n L 0))%Q as [|F]; auto. exfalso. apply NZ.
    assert (X1 : (0 <= (d1 - d0) * scale dis CP)%Q).
    { apply Qmult_le_0_compat; lra. }
    rewrite <- EL in X1. lra.
Qed.

(** ** Without noise *)
Section Signs.
Variable rnd : Q -> Q.
Hypothesis KS : keeps_signs rnd.

Lemma ks_zero : forall x, (x == 0)%Q -> (Qred (rnd x) == 0)%Q.
Proof. intros x E. rewrite Qred_correct. destruct KS as (A & B & _). rewrite (A _ _ E). exact B. Qed.
Lemma ks_pos : forall x, (0 < x)%Q -> (0 < Qred (rnd x))%Q.
Proof. intros x E. rewrite Qred_correct. apply KS, E. Qed.
Lemma ks_neg : forall x, (x < 0)%Q -> (Qred (rnd x) < 0)%Q.
Proof. intros x E. rewrite Qred_correct. apply KS, E. Qed.
Lemma ks_nonneg : forall x, (0 <= x)%Q -> (0 <= Qred (rnd x))%Q.
Proof.
  intros x E. destruct (Qlt_le_dec 0 x) as [H|H]; [apply Qlt_le_weak, ks_pos, H|]. rewrite ks_zero; [apply Qle_refl|]. lra.
Qed.
Lemma ks_nz : forall x, ~ (x == 0)%Q -> ~ (Qred (rnd x) == 0)%Q.
Proof.
  intros x E F. destruct (Qlt_le_dec 0 x) as [H|H]; [apply ks_pos in H; lra|].
  destruct (Qlt_le_dec x 0) as [H'|H']; [apply ks_neg in H'; lra|]. apply E. lra.
Qed.
Lemma sq_pos : forall x, ~ (x == 0)%Q -> (0 < x * x)%Q.
Proof.
  intros x E. destruct (Qlt_le_dec 0 x) as [H|H]; [apply Qmult_lt_0_compat; auto|].
  destruct (Qlt_le_dec x 0) as [H'|H']; [|exfalso; apply E; lra].
  setoid_replace (x * x)%Q with ((- x) * (- x))%Q by ring. apply Qmult_lt_0_compat; lra.
Qed.
Lemma sq_nonneg : forall x, (0 <= x * x)%Q.
Proof. intros x. destruct (Qeq_dec x 0) as [E|E]; [rewrite E; apply Qle_refl|apply Qlt_le_weak, sq_pos, E]. Qed.
Lemma neg_mul : forall x y, (x < 0)%Q -> (0 < y)%Q -> (x * y < 0)%Q.
Proof.
  intros x y Hx Hy. setoid_replace (x * y)%Q with (- ((- x) * y))%Q by ring.
  assert (0 < (- x) * y)%Q by (apply Qmult_lt_0_compat; lra). lra.
Qed.

Lemma ks_norm_zero : forall y s, same_point y s -> (cnorm (QA rnd) (csub (QA rnd) y s) == 0)%Q.
Proof.
  intros y s [E1 E2]. unfold cnorm, csub. cbn [QA num add sub mul fst snd].
  assert (D1 : (Qred (rnd (fst y - fst s)) == 0)%Q) by (apply ks_zero; rewrite E1; ring).
  assert (D2 : (Qred (rnd (snd y - snd s)) == 0)%Q) by (apply ks_zero; rewrite E2; ring).
  apply ks_zero. rewrite (ks_zero (_ * _)) by (rewrite D1; ring). rewrite (ks_zero (_ * _)) by (rewrite D2; ring). reflexivity.
Qed.
Lemma ks_norm_pos : forall y s, ~ same_point y s -> (0 < cnorm (QA rnd) (csub (QA rnd) y s))%Q.
Proof.
  intros y s D. unfold cnorm, csub. cbn [QA num add sub mul fst snd]. apply ks_pos.
  set (a := Qred (rnd (fst y - fst s))%Q). set (b := Qred (rnd (snd y - snd s))%Q).
  assert (NA : (0 <= Qred (rnd (a * a)))%Q) by (apply ks_nonneg, sq_nonneg).
  assert (NB : (0 <= Qred (rnd (b * b)))%Q) by (apply ks_nonneg, sq_nonneg).
  destruct (Qeq_dec (fst y) (fst s)) as [E1|E1].
  - assert (E2 : ~ (snd y == snd s)%Q) by (intros E2; apply D; split; auto).
    assert (PB : (0 < Qred (rnd (b * b)))%Q) by (apply ks_pos, sq_pos, ks_nz; intros F; apply E2; lra).
    generalize dependent (Qred (rnd (b * b)%Q)). generalize dependent (Qred (rnd (a * a)%Q)). intros; lra.
  - assert (PA : (0 < Qred (rnd (a * a)))%Q) by (apply ks_pos, sq_pos, ks_nz; intros F; apply E1; lra).
    generalize dependent (Qred (rnd (b * b)%Q)). generalize dependent (Qred (rnd (a * a)%Q)). intros; lra.
Qed.
End Signs.

Lemma factor_pos : forall rnd dis CP, keeps_signs rnd -> (dis = false -> (0 < CP)%Q) -> (0 < factor (QA rnd) dis CP)%Q.
Proof.
  intros rnd [] CP K H; unfold factor; cbn [QA dvd mul ofZ]; [reflexivity|]. specialize (H eq_refl).
  apply ks_pos; auto. assert (P1 : (0 < Qred (rnd (inject_Z 2 * CP)))%Q) by (apply ks_pos; auto; apply Qmult_lt_0_compat; [reflexivity|auto]).
  assert (P2 : (0 < Qred (rnd (Qred (rnd (inject_Z 2 * CP)) * CP)))%Q) by (apply ks_pos; auto; apply Qmult_lt_0_compat; auto).
  apply Qlt_shift_div_l; auto. rewrite Qmult_0_l. reflexivity.
Qed.

(** The metric of the symbol that was sent is zero, that of the others is negative. *)
Lemma metric_signs : forall rnd m Y k j (s : point), keeps_signs rnd -> proper rnd (m_c _ m) ->
  same_point (point_of (c_cplx _ (m_c _ m)) Y k) s ->
  (same_point s (nth j (points rnd (m_c _ m)) (0, 0)%Q) -> (metric_d (QA rnd) m None Y k j == 0)%Q) /\
  (~ same_point s (nth j (points rnd (m_c _ m)) (0, 0)%Q) -> (metric_d (QA rnd) m None Y k j < 0)%Q).
Proof.
  intros rnd m Y k j s K P S. pose proof (not_complex _ _ P) as Z0. specialize (fun E => Z0 E j). unfold metric_d, exp_c, exp_r, at_c, point_of in *.
  change (nth j (points rnd (m_c _ m)) (0, 0)%Q) with (sym (QA rnd) m j) in *.
  generalize dependent (sym (QA rnd) m j). intros t Z0. fixn. destruct (c_cplx (QA rnd) (m_c (QA rnd) m)) eqn:EC.
  - assert (X : same_point s t <-> same_point (nth (2 * k) Y 0%Q, nth (2 * k + 1) Y 0%Q) t).
    { destruct S as [S1 S2]. unfold same_point. rewrite S1, S2. reflexivity. }
    split; intros D; cbn [QA opp]; rewrite Qred_correct.
    + rewrite ks_norm_zero; auto; [reflexivity|]. apply X, D.
    + assert (Pn : (0 < cnorm (QA rnd) (csub (QA rnd) (nth (2 * k) Y 0%Q, nth (2 * k + 1) Y 0%Q) t))%Q) by (apply ks_norm_pos; auto; rewrite <- X; auto).
      change (- cnorm (QA rnd) (csub (QA rnd) (nth (2 * k) Y 0%Q, nth (2 * k + 1) Y 0%Q) t) < 0)%Q.
      generalize dependent (cnorm (QA rnd) (csub (QA rnd) (nth (2 * k) Y 0%Q, nth (2 * k + 1) Y 0%Q) t)). cbn [num QA]. intros q Hq. lra.
  - specialize (Z0 eq_refl). destruct S as [S1 S2]. cbn [fst snd] in *. cbn [QA sub mul opp ofZ]. set (d := Qred (rnd (nth k Y (inject_Z 0) - fst t)%Q)).
    split; intros D.
    + assert (D0 : (d == 0)%Q) by (apply ks_zero; auto; destruct D as [D1 _]; change (inject_Z 0) with 0%Q; rewrite S1, D1; ring).
      apply ks_zero; auto. rewrite D0. ring.
    + assert (D0 : ~ (d == 0)%Q).
      { apply ks_nz; auto. change (inject_Z 0) with 0%Q. intros F. apply D. split; [|rewrite <- S2, Z0; reflexivity]. rewrite <- S1. lra. }
      apply ks_neg; auto. rewrite Qred_correct. setoid_replace (- d * d)%Q with (- (d * d))%Q by ring. pose proof (sq_pos d D0). lra.
Qed.

Definition distinct rnd (c : cstl (QA rnd)) : Prop :=
  forall i j, i < 2 ^ c_bps _ c -> j < 2 ^ c_bps _ c -> same_point (nth i (points rnd c) (0, 0)%Q) (nth j (points rnd c) (0, 0)%Q) -> i = j.

Theorem C94_noiseless : forall rnd N c dis m0 cs m CP X X2 Y2, keeps_signs rnd -> proper rnd c -> distinct rnd c -> (Z.of_nat N < 2 ^ 24)%Z ->
  make_modem (QA rnd) N c dis true = Ret m0 -> Forall (no_filter (QA rnd)) cs -> history (QA rnd) max_q m0 cs = Ret m ->
  (dis = false -> (0 < CP)%Q) -> length X = N -> length X2 = m_Nmod _ m0 -> length Y2 = N ->
  exists Z m' L, modulate (QA rnd) m X X2 = Ret Z /\ demodulate (QA rnd) max_q m CP None Z Y2 = Ret (m', L) /\ length L = N /\
    forall n, n < N -> tells (nth n X false) (nth n L 0%Q).
Proof.
  intros rnd N c dis m0 cs m CP X X2 Y2 K P D HN E NF EH HC LX LX2 L2.
  destruct (after_history _ _ _ _ _ _ _ _ CP (proj1 K) E P HN NF EH) as (W & E1 & E2 & E3 & E4 & E5).
  destruct (set_cp_same (QA rnd) m CP) as (F1 & F2 & F3 & F4 & F5).
  set (m1 := set_cp (QA rnd) m CP) in *.
  assert (Wm : well (QA rnd) m) by (apply (same_well (QA rnd) m1); auto; unfold same_but_cp; auto 10).
  destruct (modulate_ok (QA rnd) m X X2) as (Z & EZ & LZ & IZ); auto; try congruence.
  destruct (demodulate_ok (QA rnd) max_q m1 None Z Y2) as (L & EL & LL & I); auto; try congruence; [exact Logic.I|].
  exists Z. unfold demodulate. fold m1. rewrite EL. cbn [bind]. eexists _, L. split; [exact EZ|]. split; [reflexivity|]. split; [congruence|].
  intros n Hn. specialize (I n ltac:(congruence)). rewrite E2 in I. set (b := n mod c_bps (QA rnd) c) in *. set (k := n / c_bps (QA rnd) c) in *.
  pose proof P as ((Pb1 & Pb2) & PL & _).
  pose proof (factor_pos rnd dis CP K HC) as FP. rewrite <- E5 in FP.
  assert (Hb : b < c_bps (QA rnd) c) by (apply Nat.mod_upper_bound; lia).
  assert (Nk : k * c_bps (QA rnd) c + b = n) by (unfold k, b; rewrite (Nat.div_mod n (c_bps (QA rnd) c)) at 3 by lia; lia).
  set (jx := lbl X (k * c_bps (QA rnd) c) (c_bps (QA rnd) c)).
  assert (Ej : jx < 2 ^ c_bps (QA rnd) c) by apply lbl_lt.
  assert (Bj : Nat.testbit jx b = nth n X false).
  { unfold jx. rewrite lbl_bits. destruct (Nat.ltb_spec b (c_bps (QA rnd) c)); [|lia]. cbn [andb]. rewrite Nk. reflexivity. }
  assert (SP : same_point (point_of (c_cplx (QA rnd) c) Z k) (nth jx (points rnd c) (0, 0)%Q)).
  { specialize (IZ k). rewrite <- F3, <- F1, E2, E1 in IZ. specialize (IZ (div_lt_msize N _ n Pb1 Hn)).
    unfold same_point, point_of. fixn. change (sym_of (QA rnd) c X k) with (nth jx (points rnd c) (0, 0)%Q) in IZ.
    destruct (c_cplx (QA rnd) c) eqn:EC; cbn [fst snd].
    - destruct IZ as [I1 I2]. cbn [QA ofZ] in *. change (inject_Z 0) with 0%Q in *. rewrite I1, I2. split; reflexivity.
    - cbn [QA ofZ] in *. change (inject_Z 0) with 0%Q in *. rewrite IZ. split; [reflexivity|]. symmetry. apply not_complex; auto. }
  assert (MS : forall j, j < 2 ^ c_bps (QA rnd) c ->
    if j =? jx then (mul (QA rnd) (metric_d (QA rnd) m1 None Z k j) (m_inv (QA rnd) m1) == 0)%Q
    else (mul (QA rnd) (metric_d (QA rnd) m1 None Z k j) (m_inv (QA rnd) m1) < 0)%Q).
  { intros j Hj. destruct (metric_signs rnd m1 Z k j (nth jx (points rnd c) (0, 0)%Q) K) as [M0 M1]; try (rewrite E2; auto).
    rewrite E2 in M0, M1. cbn [QA mul]. destruct (Nat.eqb_spec j jx) as [->|NE].
    - apply ks_zero; auto. rewrite M0 by (split; reflexivity). ring.
    - apply ks_neg; auto. apply neg_mul; auto. apply M1. intros F. apply NE. symmetry. apply D; auto. }
  apply llr_of_max in I. destruct I as (v0 & v1 & ER & (j0 & J0 & B0 & V0) & M0 & (j1 & J1 & B1 & V1) & M1).
  unfold n_symbs in *. pose proof (MS jx Ej) as MX. rewrite Nat.eqb_refl in MX.
  change (nth n L 0%Q) with (nth n L (ofZ (QA rnd) 0)). rewrite ER. unfold tells. rewrite <- Bj.
  destruct (Nat.testbit jx b) eqn:EB.
  - apply ks_neg; auto. specialize (M1 jx _ Ej EB eq_refl). rewrite MX in M1.
    pose proof (MS j0 J0) as M0'. destruct (Nat.eqb_spec j0 jx) as [->|]; [congruence|].
    assert (V0' : mul (QA rnd) (metric_d (QA rnd) m1 None Z k j0) (m_inv (QA rnd) m1) = v0) by congruence. rewrite V0' in M0'. lra.
  - apply ks_pos; auto. specialize (M0 jx _ Ej EB eq_refl). rewrite MX in M0.
    pose proof (MS j1 J1) as M1'. destruct (Nat.eqb_spec j1 jx) as [->|]; [congruence|].
    assert (V1' : mul (QA rnd) (metric_d (QA rnd) m1 None Z k j1) (m_inv (QA rnd) m1) = v1) by congruence. rewrite V1' in M1'. lra.
Qed.

(** The roundings of float and double numbers keep the signs. *)
Theorem C94_float_signs : forall prec, (0 < prec)%Z -> keeps_signs (fl prec).
Proof.
  intros prec H. assert (PP : forall x, (0 < x)%Q -> (0 < fl prec x)%Q).
  { intros x Hx. destruct (log_bounds x Hx) as [B _]. set (e := (Z.log2 (Qnum x) - Z.log2 (Zpos (Qden x)) - 1)%Z) in *.
    eapply Qlt_le_trans; [apply (pow_pos e)|]. apply fl_ge; auto; [apply holds_pow; auto|]. apply Qlt_le_weak, B. }
  split; [|split; [|split]]; auto.
  - intros x y E. apply Qle_antisym; apply fl_mono; auto; rewrite E; apply Qle_refl.
  - rewrite fl_zero; reflexivity.
  - intros x Hx. specialize (PP (- x)%Q ltac:(lra)). rewrite fl_opp in PP. lra.
Qed.
Lemma exact_signs : keeps_signs idq.
Proof. unfold keeps_signs, idq. repeat split; auto. Qed.

(** With gains: if the received points are the sent points times gains that are not zero, the LLRs tell the bits. *)
Lemma times_inj : forall h a b : point, ~ same_point h (0, 0)%Q -> same_point (times h a) (times h b) -> same_point a b.
Proof.
  intros [h1 h2] [a1 a2] [b1 b2] NZ [E1 E2]. unfold times, same_point in *. cbn [fst snd] in *.
  assert (HN : (0 < h1 * h1 + h2 * h2)%Q).
  { pose proof (sq_nonneg h1). pose proof (sq_nonneg h2). destruct (Qeq_dec h1 0) as [Z1|Z1].
    - destruct (Qeq_dec h2 0) as [Z2|Z2]; [exfalso; apply NZ; auto|]. pose proof (sq_pos h2 Z2). lra.
    - pose proof (sq_pos h1 Z1). lra. }
  set (n := (h1 * h1 + h2 * h2)%Q) in *.
  assert (R : forall u v, (n * u == n * v)%Q -> (u == v)%Q).
  { intros u v Euv. apply (Qmult_inj_l _ _ n); auto. intros F. rewrite F in HN. discriminate. }
  split; apply R; unfold n.
  - setoid_replace ((h1 * h1 + h2 * h2) * a1)%Q with (h1 * (h1 * a1 - h2 * a2) + h2 * (h1 * a2 + h2 * a1))%Q by ring.
    rewrite E1, E2. ring.
  - setoid_replace ((h1 * h1 + h2 * h2) * a2)%Q with (h1 * (h1 * a2 + h2 * a1) - h2 * (h1 * a1 - h2 * a2))%Q by ring.
    rewrite E1, E2. ring.
Qed.
Lemma dist2_zero : forall a b, same_point a b -> (dist2 a b == 0)%Q.
Proof. intros a b [E1 E2]. unfold dist2. rewrite E1, E2. ring. Qed.
Lemma dist2_pos : forall a b, ~ same_point a b -> (0 < dist2 a b)%Q.
Proof.
  intros a b D. unfold dist2. set (u := (fst a - fst b)%Q). set (v := (snd a - snd b)%Q). pose proof (sq_nonneg u). pose proof (sq_nonneg v).
  destruct (Qeq_dec u 0) as [E1|E1].
  - destruct (Qeq_dec v 0) as [E2|E2].
    + exfalso. apply D. split; unfold u, v in *; lra.
    + pose proof (sq_pos v E2). lra.
  - pose proof (sq_pos u E1). lra.
Qed.

Theorem C94_noiseless_gains : forall N c dis m0 cs m CP H Y Y2 X, proper idq c -> distinct idq c -> (Z.of_nat N < 2 ^ 24)%Z ->
  make_modem exact N c dis true = Ret m0 -> Forall (no_filter exact) cs -> history exact max_q m0 cs = Ret m ->
  (dis = false -> (0 < CP)%Q) -> length X = N -> length Y = m_Nmod _ m0 -> length H = m_Nmod _ m0 -> length Y2 = N ->
  (forall k, k * c_bps _ c < N -> ~ same_point (point_of (c_cplx _ c) H k) (0, 0)%Q) ->
  (forall k j, k * c_bps _ c < N -> carries (c_bps _ c) X k j ->
     same_point (point_of (c_cplx _ c) Y k) (times (point_of (c_cplx _ c) H k) (nth j (points idq c) (0, 0)%Q))) ->
  exists m' L, demodulate exact max_q m CP (Some H) Y Y2 = Ret (m', L) /\ length L = N /\
    forall n, n < N -> tells (nth n X false) (nth n L 0%Q).
Proof.
  intros N c dis m0 cs m CP H Y Y2 X P D HN E NF EH HC LX LY LH L2 NZ SX.
  destruct (C94_max_log _ _ _ _ _ _ _ (Some H) _ _ P HN E NF EH HC LY LH L2) as (m' & L & ED & LL & I).
  exists m', L. split; auto. split; auto. intros n Hn. specialize (I n Hn). cbv zeta in I.
  set (b := n mod c_bps exact c) in *. set (k := n / c_bps exact c) in *.
  pose proof P as ((Pb1 & Pb2) & PL & _).
  assert (Hb : b < c_bps exact c) by (apply Nat.mod_upper_bound; lia).
  assert (Nk : k * c_bps exact c + b = n) by (unfold k, b; rewrite (Nat.div_mod n (c_bps exact c)) at 3 by lia; lia).
  set (jx := lbl X (k * c_bps exact c) (c_bps exact c)).
  pose proof (lbl_carries (c_bps exact c) X k) as CX. fold jx in CX. destruct CX as [Ej Bj]. specialize (Bj b Hb) as Bb. rewrite Nk in Bb.
  specialize (SX k jx ltac:(lia) (conj Ej Bj)). specialize (NZ k ltac:(lia)).
  assert (F0 : (far idq c (Some H) Y k jx == 0)%Q) by (apply dist2_zero; exact SX).
  assert (F1 : forall j, j < 2 ^ c_bps exact c -> j <> jx -> (0 < far idq c (Some H) Y k j)%Q).
  { intros j Hj NE. apply dist2_pos. intros F. apply NE. apply D; auto. apply (times_inj _ _ _ NZ).
    destruct F as [F2 F3]. destruct SX as [S2 S3]. cbn [through] in *. split; [rewrite <- F2, <- S2|rewrite <- F3, <- S3]; reflexivity. }
  pose proof (scale_pos dis CP HC) as SP.
  destruct I as (d0 & d1 & ((j0 & J0 & B0 & Q0) & M0) & ((j1 & J1 & B1 & Q1) & M1) & EL). unfold tells. rewrite <- Bb.
  destruct (Nat.testbit jx b) eqn:EB.
  - specialize (M1 jx Ej EB). pose proof (F1 j0 J0 ltac:(congruence)) as Z0. rewrite EL. apply neg_mul; auto. rewrite Q0 in Z0. rewrite F0 in M1. lra.
  - specialize (M0 jx Ej EB). pose proof (F1 j1 J1 ltac:(congruence)) as Z1. rewrite EL. apply Qmult_lt_0_compat; auto. rewrite Q1 in Z1. rewrite F0 in M0. lra.
Qed.

(** Gains of one change nothing. *)
Lemma least_unique : forall n P f g a b, (forall j, j < n -> (f j == g j)%Q) -> least n P f a -> least n P g b -> (a == b)%Q.
Proof.
  intros n P f g a b E ((j & Hj & Pj & Ea) & Ma) ((i & Hi & Pi & Eb) & Mb).
  apply Qle_antisym.
  - rewrite <- Eb, <- E by auto. auto.
  - rewrite <- Ea, E by auto. auto.
Qed.

Theorem C94_unit_gains : forall N c dis m0 cs m CP H Y Y2, proper idq c -> (Z.of_nat N < 2 ^ 24)%Z ->
  make_modem exact N c dis true = Ret m0 -> Forall (no_filter exact) cs -> history exact max_q m0 cs = Ret m ->
  (dis = false -> (0 < CP)%Q) ->
  length Y = m_Nmod _ m0 -> length H = m_Nmod _ m0 -> length Y2 = N ->
  (forall k, k * c_bps _ c < N -> same_point (point_of (c_cplx _ c) H k) (1, 0)%Q) ->
  exists m' m'' L L', demodulate exact max_q m CP (Some H) Y Y2 = Ret (m', L) /\ demodulate exact max_q m CP None Y Y2 = Ret (m'', L') /\
    length L = N /\ length L' = N /\ forall n, n < N -> (nth n L 0 == nth n L' 0)%Q.
Proof.
  intros N c dis m0 cs m CP H Y Y2 P HN E NF EH HC LY LH L2 U.
  destruct (C94_max_log _ _ _ _ _ _ _ (Some H) _ _ P HN E NF EH HC LY LH L2) as (m' & L & ED & LL & I).
  destruct (C94_max_log _ _ _ _ _ _ _ None _ _ P HN E NF EH HC LY Logic.I L2) as (m'' & L' & ED' & LL' & I').
  exists m', m'', L, L'. repeat (split; auto). intros n Hn. specialize (I n Hn). specialize (I' n Hn). cbv zeta in I, I'.
  set (b := n mod c_bps exact c) in *. set (k := n / c_bps exact c) in *.
  assert (EQ : forall j, j < 2 ^ c_bps exact c -> (far idq c (Some H) Y k j == far idq c None Y k j)%Q).
  { intros j Hj. destruct (U k) as [U1 U2].
    { pose proof P as ((Pb1 & Pb2) & _ & _). unfold k. pose proof (Nat.mul_div_le n (c_bps exact c) ltac:(lia)). lia. }
    unfold far, through, dist2, times. cbn [fst snd] in *. rewrite U1, U2. ring. }
  destruct I as (d0 & d1 & A0 & A1 & EL). destruct I' as (e0 & e1 & B0 & B1 & EL').
  rewrite EL, EL'. rewrite (least_unique _ _ _ _ _ _ EQ A0 B0), (least_unique _ _ _ _ _ _ EQ A1 B1). reflexivity.
Qed.

(* ------------------------------------------------------------------ *)
(** * C95: the channel parameter *)

(** A constellation of two real points. *)
Definition two_points : cstl exact := mkC exact 1 [(1, 0)%Q; (-1, 0)%Q] false.

(** A demodulation, a call of filter with a new channel parameter, then a demodulation with this parameter: the LLR is the
    one of the old parameter. *)
Definition out {A B} (o : outcome (A * B)) : outcome B := ' (_, L) <- o ;; Ret L.
Theorem C95_filter_refuted :
  out (m0 <- make_modem exact 1 two_points false true ;;
       m <- history exact max_q m0 [Demodulate exact 1%Q None [1%Q] [0%Q]; Filter exact 2%Q [1%Q] [0%Q]] ;;
       demodulate exact max_q m 2%Q None [1%Q] [0%Q]) = Ret [2%Q] /\
  out (m0 <- make_modem exact 1 two_points false true ;; demodulate exact max_q m0 2%Q None [1%Q] [0%Q]) = Ret [(1 # 2)%Q].
Proof. split; vm_compute; reflexivity. Qed.

(** A call of filter with a parameter makes the next demodulation with this parameter use the factor of before, whatever it was. *)
Theorem C95_filter_general_refuted : forall rnd MAX m CP H Y Y1 Y2 Z m' m'' L, (forall x y, (x == y)%Q -> (rnd x == rnd y)%Q) ->
  filter_ (QA rnd) m CP Y1 Y2 = Ret (m', Z) -> demodulate (QA rnd) MAX m' CP H Y Y2 = Ret (m'', L) -> m_inv _ m'' = m_inv _ m.
Proof.
  intros rnd MAX m CP H Y Y1 Y2 Z m' m'' L HR E1 E2. unfold filter_ in E1. destruct (copy Y1 0 (m_Nmod _ m) Y2 0); inversion E1; subst.
  unfold demodulate in E2. assert (ES : set_cp (QA rnd) (set_last (QA rnd) m CP) CP = set_last (QA rnd) m CP).
  { unfold set_cp. cbn [set_last m_last cp_new]. cbn [QA neq]. rewrite Qeq_bool_refl. reflexivity. }
  rewrite ES in E2. match type of E2 with bind ?x _ = _ => destruct x; inversion E2; subst end. reflexivity.
Qed.

(** Without filter, a demodulation does what the one of a new modem does. *)
Lemma make_fresh : forall A N c dis types m, make_modem A N c dis types = Ret m ->
  m_inv A m = ofZ A 1 /\ m_last A m = None /\ in_sync A m.
Proof.
  intros A N c dis types m E. unfold make_modem in E. destruct (c_bps A c =? 0); [discriminate|].
  destruct (guard (0 <? N)); try discriminate. cbn [bind] in E. destruct (guard (0 <? n_mod N (c_bps A c) (c_cplx A c))); try discriminate.
  cbn [bind] in E. inversion E; subst. split; [reflexivity|]. split; [reflexivity|]. unfold in_sync. cbn [m_last]. auto.
Qed.
Lemma same_set_cp : forall A m0 m CP, same_but_cp A m0 m -> m_inv A (set_cp A m CP) = m_inv A (set_cp A m0 CP) ->
  exists l, set_cp A m CP = mkM A (m_N A m0) (m_Nmod A m0) (m_c A m0) (m_dis A m0) (m_types A m0) (m_inv A (set_cp A m0 CP)) l.
Proof.
  intros A m0 m CP S E. destruct (set_cp_same A m CP) as (F1 & F2 & F3 & F4 & F5). destruct S as (G1 & G2 & G3 & G4 & G5).
  exists (m_last A (set_cp A m CP)). rewrite <- E. rewrite <- G1, <- G2, <- G3, <- G4, <- G5, <- F1, <- F2, <- F3, <- F4, <- F5.
  destruct (set_cp A m CP). reflexivity.
Qed.
Theorem C95_history : forall rnd MAX N c dis types m0 cs m, (forall x y, (x == y)%Q -> (rnd x == rnd y)%Q) ->
  make_modem (QA rnd) N c dis types = Ret m0 -> Forall (no_filter (QA rnd)) cs -> history (QA rnd) MAX m0 cs = Ret m ->
  forall CP H Y Ya Y2,
    out (demodulate (QA rnd) MAX m CP H Y Y2) = out (demodulate (QA rnd) MAX m0 CP H Y Y2) /\
    out (tdemodulate (QA rnd) MAX m CP H Y Ya Y2) = out (tdemodulate (QA rnd) MAX m0 CP H Y Ya Y2).
Proof.
  intros rnd MAX N c dis types m0 cs m HR E NF EH CP H Y Ya Y2. set (A := QA rnd) in *.
  destruct (make_fresh _ _ _ _ _ _ E) as (_ & _ & S0).
  destruct (history_sync A (q_cp_law rnd HR) MAX cs m0 m S0 NF EH) as [S SB].
  assert (EI : m_inv A (set_cp A m CP) = m_inv A (set_cp A m0 CP)).
  { rewrite !set_cp_inv by (auto; exact (q_cp_law rnd HR)). f_equal. apply SB. }
  destruct (same_set_cp A m0 m CP SB EI) as [l El]. destruct (same_set_cp A m0 m0 CP (same_refl A m0) eq_refl) as [l0 El0].
  unfold demodulate, tdemodulate. rewrite El, El0. cbn [m_c].
  unfold out. destruct (c_cplx A (m_c A m0)); split;
    match goal with |- bind (bind ?x _) _ = bind (bind ?y _) _ => change y with x; destruct x; reflexivity end.
Qed.

(* ------------------------------------------------------------------ *)
(** * C96: demodulation with a priori values *)

(** The labels that agree with the zero bits after the frame. *)
Definition in_frame (b N k j : nat) : Prop := forall l, l < b -> Nat.testbit j l = true -> k * b + l < N.

Lemma sum_cons : forall f (l : nat) ls P, (fold_right Qplus 0 (map f (filter P (l :: ls))) ==
  (if P l then f l else 0) + fold_right Qplus 0 (map f (filter P ls)))%Q.
Proof. intros f l ls P. cbn [filter]. destruct (P l); cbn [map fold_right]; ring. Qed.

Lemma prior_value : forall m Ya n j t, let bps := c_bps exact (m_c exact m) in let k := n / bps in 0 < bps -> n < m_N exact m ->
  match prior exact m Ya (n mod bps) k j t with
  | Some r => in_frame bps (m_N exact m) k j /\ (r == t + priors bps Ya n k j)%Q
  | None => ~ in_frame bps (m_N exact m) k j
  end.
Proof.
  intros m Ya n j t bps k Hb Hn. unfold prior, priors, in_frame. fold bps.
  assert (Nk : k * bps + n mod bps = n) by (unfold k; rewrite (Nat.div_mod n bps) at 3 by lia; lia).
  set (f := fun l => nth (k * bps + l) Ya 0%Q). set (P := fun l => negb (k * bps + l =? n) && Nat.testbit j l).
  cbn [num QA] in *.
  assert (X : forall ls (s : option Q),
    match fold_left (fun t l => if l =? n mod bps then t else if Nat.testbit j l then
      if k * bps + l <? m_N exact m then match t with Some t => Some (add exact t (nth (k * bps + l) Ya (ofZ exact 0))) | None => None end else None
      else t) ls s with
    | Some r => (forall l, In l ls -> Nat.testbit j l = true -> k * bps + l < m_N exact m) /\
        exists u, s = Some u /\ (r == u + fold_right Qplus 0 (map f (filter P ls)))%Q
    | None => s = None \/ ~ (forall l, In l ls -> Nat.testbit j l = true -> k * bps + l < m_N exact m)
    end).
  { induction ls as [|l ls IH]; intros s; cbn [fold_left].
    - destruct s as [u|]; [|left; auto]. split; [intros l []|]. exists u. split; auto. cbn [filter map fold_right]. ring.
    - assert (EP : P l = negb (l =? n mod bps) && Nat.testbit j l).
      { unfold P. destruct (Nat.eqb_spec (k * bps + l) n), (Nat.eqb_spec l (n mod bps)); cbn [negb andb]; auto; lia. }
      destruct (Nat.eqb_spec l (n mod bps)) as [El|El]; cbn [negb andb] in EP.
      + specialize (IH s). match goal with H : match ?x with _ => _ end |- match ?x with _ => _ end => destruct x as [r|] end.
        * destruct IH as (I1 & u & I2 & I3). split; [intros l' [<-|Hl] Ht; [lia|auto]|]. exists u. split; auto. rewrite sum_cons, EP, I3. ring.
        * destruct IH as [I|I]; [left; auto|]. right. intros F. apply I. intros l' Hl. apply F. right. auto.
      + destruct (Nat.testbit j l) eqn:ET.
        * destruct (Nat.ltb_spec (k * bps + l) (m_N exact m)) as [Ll|Ll].
          -- match goal with |- match fold_left _ _ ?x with _ => _ end => set (s' := x) end.
             specialize (IH s'). match goal with H : match ?x with _ => _ end |- match ?x with _ => _ end => destruct x as [r|] end.
             ++ destruct IH as (I1 & u & I2 & I3). split; [intros l' [<-|Hl] Ht; auto|]. destruct s as [v|]; [|discriminate].
                exists v. split; auto. rewrite sum_cons, EP, I3. 
                assert (I2' : u = Qred (v + f l)%Q) by (change (Some (Qred (v + f l)%Q) = Some u) in I2; congruence).
                assert (U : (u == v + f l)%Q) by (rewrite I2'; apply Qred_correct). rewrite U. ring.
             ++ destruct IH as [I|I]; [left; destruct s; auto; discriminate|]. right. intros F. apply I. intros l' Hl. apply F. right. auto.
          -- specialize (IH (@None (num exact))). match goal with H : match ?x with _ => _ end |- match ?x with _ => _ end => destruct x as [r|] end.
             ++ destruct IH as (_ & u & I2 & _). discriminate.
             ++ right. intros F. specialize (F l (or_introl eq_refl) ET). lia.
        * specialize (IH s). match goal with H : match ?x with _ => _ end |- match ?x with _ => _ end => destruct x as [r|] end.
          -- destruct IH as (I1 & u & I2 & I3). split; [intros l' [<-|Hl] Ht; [congruence|auto]|]. exists u. split; auto. rewrite sum_cons, EP, I3. ring.
          -- destruct IH as [I|I]; [left; auto|]. right. intros F. apply I. intros l' Hl. apply F. right. auto. }
  specialize (X (seq 0 bps) (Some t)).
  match type of X with match ?x with _ => _ end => match goal with |- match ?y with _ => _ end => change y with x; destruct x as [r|] end end.
  - destruct X as (X1 & u & X2 & X3). injection X2 as <-. split; auto. intros l Hl Ht. apply X1; auto. apply in_seq. lia.
  - destruct X as [X|X]; [discriminate|]. intros F. apply X. intros l Hl Ht. apply F; auto. apply in_seq in Hl. lia.
Qed.

Theorem C96_max_log : forall N c dis m0 cs m CP H Y Ya Y3, proper idq c -> (Z.of_nat N < 2 ^ 24)%Z ->
  make_modem exact N c dis true = Ret m0 -> Forall (no_filter exact) cs -> history exact max_q m0 cs = Ret m ->
  (dis = false -> (0 < CP)%Q) ->
  length Y = m_Nmod _ m0 -> gains_ok exact (m_Nmod _ m0) H -> length Ya = N -> length Y3 = N ->
  exists m' L, tdemodulate exact max_q m CP H Y Ya Y3 = Ret (m', L) /\ length L = N /\
    forall n, n < N -> let b := n mod c_bps _ c in let k := n / c_bps _ c in
      let cost j := (far idq c H Y k j * scale dis CP + priors (c_bps _ c) Ya n k j)%Q in
      exists d0 d1,
        least (2 ^ c_bps _ c) (fun j => Nat.testbit j b = false /\ in_frame (c_bps _ c) N k j) cost d0 /\
        least (2 ^ c_bps _ c) (fun j => Nat.testbit j b = true /\ in_frame (c_bps _ c) N k j) cost d1 /\
        (nth n L 0 == d1 - d0)%Q.
Proof.
  intros N c dis m0 cs m CP H Y Ya Y3 P HN E NF EH HC LY G LA L2.
  destruct (after_history _ _ _ _ _ _ _ _ CP exact_rnd E P HN NF EH) as (W & E1 & E2 & E3 & E4 & E5).
  set (m1 := set_cp exact m CP) in *.
  destruct (tdemodulate_ok exact max_q m1 H Y Ya Y3) as (L & EL & LL & I); auto; try congruence.
  unfold tdemodulate. fold m1. rewrite EL. cbn [bind]. eexists _, L. split; [reflexivity|]. split; [congruence|].
  intros n Hn. specialize (I n ltac:(congruence)). cbv zeta. pose proof P as ((Pb1 & Pb2) & PL & _).
  pose proof (fun j t => prior_value m1 Ya n j t) as PV. cbv zeta in PV. rewrite E2, E1 in PV. specialize (fun j t => PV j t Pb1 Hn).
  rewrite E2 in I. set (b := n mod c_bps exact c) in *. set (k := n / c_bps exact c) in *.
  apply llr_of_max in I. destruct I as (v0 & v1 & ER & (j0 & J0 & B0 & V0) & M0 & (j1 & J1 & B1 & V1) & M1).
  pose proof (factor_exact dis CP) as FE. rewrite <- E5 in FE. unfold n_symbs in *.
  assert (MV : forall j, (mul exact (metric_t exact m1 H Y k j) (m_inv exact m1) == far idq c H Y k j * scale dis CP)%Q).
  { intros j. destruct (metric_exact m1 H Y k j) as [_ M]; [rewrite E2; auto|]. rewrite E2 in M. cbn [QA mul]. apply (red_mul _ _ _ _ M FE). }
  assert (MM : forall j x, minus exact (prior exact m1 Ya b k j (mul exact (metric_t exact m1 H Y k j) (m_inv exact m1))) = Some x ->
    in_frame (c_bps exact c) N k j /\ (x == - (far idq c H Y k j * scale dis CP + priors (c_bps exact c) Ya n k j))%Q).
  { intros j x Ex. specialize (PV j (mul exact (metric_t exact m1 H Y k j) (m_inv exact m1))).
    destruct (prior exact m1 Ya b k j (mul exact (metric_t exact m1 H Y k j) (m_inv exact m1))) as [r|]; [|discriminate].
    destruct PV as [I1 I2]. split; auto. cbn [minus] in Ex. assert (Ex' : x = opp exact r) by congruence. rewrite Ex'. cbn [QA opp].
    etransitivity; [apply Qred_correct|]. etransitivity; [apply Qopp_comp; exact I2|]. apply Qopp_comp. apply Qplus_comp; [apply MV|reflexivity]. }
  assert (MI : forall j, in_frame (c_bps exact c) N k j -> exists x,
    minus exact (prior exact m1 Ya b k j (mul exact (metric_t exact m1 H Y k j) (m_inv exact m1))) = Some x).
  { intros j Hj. specialize (PV j (mul exact (metric_t exact m1 H Y k j) (m_inv exact m1))).
    destruct (prior exact m1 Ya b k j (mul exact (metric_t exact m1 H Y k j) (m_inv exact m1))) as [r|]; [eexists; reflexivity|].
    contradiction. }
  destruct (MM j0 v0 V0) as [F0 Q0]. destruct (MM j1 v1 V1) as [F1 Q1].
  exists (far idq c H Y k j0 * scale dis CP + priors (c_bps exact c) Ya n k j0)%Q,
         (far idq c H Y k j1 * scale dis CP + priors (c_bps exact c) Ya n k j1)%Q. split; [|split].
  - split; [exists j0; split; [exact J0|split; [split; [exact B0|exact F0]|reflexivity]]|]. intros j Hj [Hb Hf].
    destruct (MI j Hf) as [x Ex]. specialize (M0 j x Hj Hb Ex). destruct (MM j x Ex) as [_ Qx]. rewrite Q0, Qx in M0. apply Qopp_le_compat in M0.
    rewrite !Qopp_involutive in M0. exact M0.
  - split; [exists j1; split; [exact J1|split; [split; [exact B1|exact F1]|reflexivity]]|]. intros j Hj [Hb Hf].
    destruct (MI j Hf) as [x Ex]. specialize (M1 j x Hj Hb Ex). destruct (MM j x Ex) as [_ Qx]. rewrite Q1, Qx in M1. apply Qopp_le_compat in M1.
    rewrite !Qopp_involutive in M1. exact M1.
  - change (nth n L 0%Q) with (nth n L (ofZ exact 0)). rewrite ER. etransitivity; [apply (red_sub _ _ _ _ Q0 Q1)|]. ring.
Qed.

(** With zero a priori values and whole symbols, tdemodulate is demodulate. *)
Theorem C96_no_prior : forall N c dis m0 cs m CP H Y Ya Y3, proper idq c -> (Z.of_nat N < 2 ^ 24)%Z -> N mod c_bps _ c = 0 ->
  make_modem exact N c dis true = Ret m0 -> Forall (no_filter exact) cs -> history exact max_q m0 cs = Ret m ->
  (dis = false -> (0 < CP)%Q) ->
  length Y = m_Nmod _ m0 -> gains_ok exact (m_Nmod _ m0) H -> length Ya = N -> length Y3 = N -> (forall n, (nth n Ya 0 == 0)%Q) ->
  exists m' m'' L L', tdemodulate exact max_q m CP H Y Ya Y3 = Ret (m', L) /\ demodulate exact max_q m CP H Y Y3 = Ret (m'', L') /\
    length L = N /\ length L' = N /\ forall n, n < N -> (nth n L 0 == nth n L' 0)%Q.
Proof.
  intros N c dis m0 cs m CP H Y Ya Y3 P HN DV E NF EH HC LY G LA L2 Z0.
  destruct (C96_max_log _ _ _ _ _ _ _ _ _ _ _ P HN E NF EH HC LY G LA L2) as (m' & L & ED & LL & I).
  destruct (C94_max_log _ _ _ _ _ _ _ _ _ _ P HN E NF EH HC LY G L2) as (m'' & L' & ED' & LL' & I').
  exists m', m'', L, L'. repeat (split; auto). intros n Hn. specialize (I n Hn). specialize (I' n Hn). cbv zeta in I, I'.
  pose proof P as ((Pb1 & Pb2) & _ & _).
  destruct I as (d0 & d1 & A0 & A1 & EL). destruct I' as (e0 & e1 & B0 & B1 & EL').
  set (b := n mod c_bps exact c) in *. set (k := n / c_bps exact c) in *.
  assert (FR : forall j, in_frame (c_bps exact c) N k j).
  { intros j l Hl _. assert (k < N / c_bps exact c).
    { pose proof (Nat.div_mod N (c_bps exact c) ltac:(lia)) as D. apply Nat.div_lt_upper_bound; nia. }
    pose proof (Nat.div_mod N (c_bps exact c) ltac:(lia)) as D. nia. }
  assert (PR : forall j, (priors (c_bps exact c) Ya n k j == 0)%Q).
  { intros j. unfold priors. induction (filter _ (seq 0 (c_bps exact c))) as [|l ls IH]; cbn [map fold_right]; [reflexivity|]. rewrite Z0, IH. reflexivity. }
  pose proof (scale_pos dis CP HC) as SP.
  assert (T : forall Q0 d e, least (2 ^ c_bps exact c) (fun j => Nat.testbit j b = Q0 /\ in_frame (c_bps exact c) N k j)
      (fun j => far idq c H Y k j * scale dis CP + priors (c_bps exact c) Ya n k j)%Q d ->
    least (2 ^ c_bps exact c) (fun j => Nat.testbit j b = Q0) (far idq c H Y k) e -> (d == e * scale dis CP)%Q).
  { intros Q0 d e L0 ((i & Hi & Pi & Ei) & Mi).
    apply (least_unique (2 ^ c_bps exact c) (fun j => Nat.testbit j b = Q0 /\ in_frame (c_bps exact c) N k j)
      (fun j => far idq c H Y k j * scale dis CP + priors (c_bps exact c) Ya n k j)%Q
      (fun j => far idq c H Y k j * scale dis CP)%Q); auto.
    - intros j _. rewrite PR. ring.
    - split; [exists i; split; auto; split; [split; [exact Pi|apply FR]|rewrite Ei; reflexivity]|].
      intros j Hj [Hb _]. apply Qmult_le_compat_r; [auto|lra]. }
  rewrite EL, EL'. rewrite (T _ _ _ A0 B0), (T _ _ _ A1 B1). ring.
Qed.

(** The extrinsic rule: the LLR of a bit does not depend on its own a priori value. *)
Lemma prior_ext : forall A m Ya Ya' n j t, let bps := c_bps A (m_c A m) in let k := n / bps in 0 < bps ->
  (forall i, i <> n -> nth i Ya (ofZ A 0) = nth i Ya' (ofZ A 0)) ->
  prior A m Ya (n mod bps) k j t = prior A m Ya' (n mod bps) k j t.
Proof.
  intros A m Ya Ya' n j t bps k Hb EQ. unfold prior. fold bps.
  assert (Nk : k * bps + n mod bps = n) by (unfold k; rewrite (Nat.div_mod n bps) at 3 by lia; lia).
  generalize (Some t). induction (seq 0 bps) as [|l ls IH]; intros s; cbn [fold_left]; auto.
  destruct (Nat.eqb_spec l (n mod bps)) as [El|El]; [apply IH|]. rewrite EQ by lia. apply IH.
Qed.

Theorem C96_extrinsic : forall rnd MAX N c dis m0 cs m CP H Y (Ya Ya' : list (num (QA rnd))) Y3 n, (forall x y, (x == y)%Q -> (rnd x == rnd y)%Q) ->
  proper rnd c -> (Z.of_nat N < 2 ^ 24)%Z ->
  make_modem (QA rnd) N c dis true = Ret m0 -> Forall (no_filter (QA rnd)) cs -> history (QA rnd) MAX m0 cs = Ret m ->
  length Y = m_Nmod _ m0 -> gains_ok (QA rnd) (m_Nmod _ m0) H -> length Ya = N -> length Ya' = N -> length Y3 = N ->
  n < N -> (forall i, i <> n -> nth i Ya 0%Q = nth i Ya' 0%Q) ->
  exists m' m'' L L', tdemodulate (QA rnd) MAX m CP H Y Ya Y3 = Ret (m', L) /\ tdemodulate (QA rnd) MAX m CP H Y Ya' Y3 = Ret (m'', L') /\
    length L = N /\ length L' = N /\ nth n L 0%Q = nth n L' 0%Q.
Proof.
  intros rnd MAX N c dis m0 cs m CP H Y Ya Ya' Y3 n HR P HN E NF EH LY G LA LA' L2 Hn EQ.
  destruct (after_history _ _ _ _ _ _ _ _ CP HR E P HN NF EH) as (W & E1 & E2 & E3 & E4 & E5).
  set (m1 := set_cp (QA rnd) m CP) in *.
  destruct (tdemodulate_ok (QA rnd) MAX m1 H Y Ya Y3) as (L & EL & LL & I); auto; try congruence.
  destruct (tdemodulate_ok (QA rnd) MAX m1 H Y Ya' Y3) as (L' & EL' & LL' & I'); auto; try congruence.
  unfold tdemodulate. fold m1. rewrite EL, EL'. cbn [bind]. eexists _, _, L, L'. split; [reflexivity|]. split; [reflexivity|]. split; [congruence|]. split; [congruence|].
  specialize (I n ltac:(congruence)). specialize (I' n ltac:(congruence)).
  apply (llr_of_unique _ _ _ _ _ _ _ I). eapply llr_of_ext; [|exact I']. intros j Hj. cbv beta. rewrite (prior_ext _ m1 Ya Ya'); auto. apply W.
Qed.

(** A frame that ends inside a symbol: tdemodulate knows that the missing bits are zero, demodulate does not.  With two bits
    per symbol and a frame of one bit the two LLRs differ although the a priori values are zero. *)
Definition four_points : cstl exact := mkC exact 2 [(0, 0)%Q; (3, 0)%Q; (5, 0)%Q; (1, 0)%Q] false.
Theorem C96_padding_refuted :
  out (m0 <- make_modem exact 1 four_points true true ;; tdemodulate exact max_q m0 1%Q None [1%Q] [0%Q] [0%Q]) = Ret [3%Q] /\
  out (m0 <- make_modem exact 1 four_points true true ;; demodulate exact max_q m0 1%Q None [1%Q] [0%Q]) = Ret [(-1)%Q].
Proof. split; vm_compute; reflexivity. Qed.

(** The hypotheses are met: 4 points, 5 bits in 3 symbols, an earlier demodulation with another channel parameter. *)
Example C94_example :
  proper idq four_points /\ distinct idq four_points /\
  out (m0 <- make_modem exact 5 four_points false true ;;
       m <- history exact max_q m0 [Demodulate exact (1 # 2)%Q None [0; 1; 2]%Q [0; 0; 0; 0; 0]%Q] ;;
       z <- modulate exact m [true; false; true; true; false] [0; 0; 0]%Q ;;
       demodulate exact max_q m 1%Q None z [0; 0; 0; 0; 0]%Q)
  = Ret [-2; 2; (-1 # 2); (-1 # 2); (1 # 2)]%Q.
Proof.
  split; [|split; [|vm_compute; reflexivity]].
  - split; [cbn; lia|]. split; [reflexivity|]. intros _. repeat constructor.
  - unfold distinct. cbn [four_points c_bps]. intros i j Hi Hj. change (2 ^ 2) with 4 in *.
    destruct i as [|[|[|[|]]]], j as [|[|[|[|]]]]; try lia; intros [H _]; vm_compute in H; discriminate.
Qed.
