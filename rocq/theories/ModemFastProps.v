(** C97 to C99: the vectorised generic modem, BPSK and on-off keying. *)
From Coq Require Import List Arith Lia Bool ZArith QArith Qround Qabs Qreduction Lqa.
From Verif Require Import Base FloatQ Copy WLoops ModemModel ModemSpec ModemProofs ModemProps.
Import ListNotations.
Local Open Scope nat_scope.

(* ------------------------------------------------------------------ *)
(** * C97: the vectorised demodulator *)

Section Fast.
Variable A : arith.
Notation T := (num A).
Notation zero := (ofZ A 0%Z).

Lemma load_ok : forall V (ld : nat -> outcome V) (v : nat -> V) (d : V) g W, (forall i, i < W -> ld (g i) = Ret (v i)) ->
  for_ W (fun i vs => x <- ld (g i) ;; Ret (vs ++ [x])) [] = Ret (map v (seq 0 W)).
Proof.
  intros V ld v d g W H.
  destruct (for_inv _ (fun t vs => vs = map v (seq 0 t)) W (fun i vs => x <- ld (g i) ;; Ret (vs ++ [x])) []) as (vs & E & I).
  - reflexivity.
  - intros i s Hi ->. rewrite H by auto. cbn [bind]. eexists. split; [reflexivity|]. rewrite seq_S, map_app. reflexivity.
  - rewrite E, I. reflexivity.
Qed.

Lemma kernel_ok : forall V MAX W m (ld : nat -> outcome V) (v : nat -> V) res Y2, 0 < W -> well A m -> length Y2 = m_N A m ->
  (forall n, n < m_N A m -> ld (n / c_bps A (m_c A m)) = Ret (v n)) ->
  exists Y, kernel A MAX W m ld res Y2 = Ret Y /\ length Y = m_N A m /\
    forall n, n < m_N A m / W * W ->
      llr_of A MAX (n_symbs A (m_c A m)) (n mod c_bps A (m_c A m)) (fun j => Some (res (v n) (sym A m j))) (nth n Y zero).
Proof.
  intros V MAX W m ld v res Y2 HW [Wb Ws WN Wm] L2 HV. unfold kernel. set (bps := c_bps A (m_c A m)) in *. set (N := m_N A m) in *.
  assert (HNW : N / W * W <= N) by (rewrite Nat.mul_comm; apply Nat.mul_div_le; lia).
  match goal with |- context [for_ (N / W) ?body _] =>
    destruct (for_inv _ (fun t Y => length Y = N /\ forall n, n < t * W -> llr_of A MAX (n_symbs A (m_c A m)) (n mod bps)
      (fun j => Some (res (v n) (sym A m j))) (nth n Y zero)) (N / W) body Y2) as (Y & E & L & I) end.
  - split; auto. intros; lia.
  - intros t Y Ht (L & I). cbv zeta. assert (B : t * W + W <= N) by nia.
    rewrite (load_ok _ ld (fun i => v (t * W + i)) (v 0)) by (intros i Hi; apply HV; lia). cbn [bind].
    match goal with |- context [for_ W ?body _] =>
      destruct (for_inv _ (fun i Z => length Z = N /\ forall n, n < t * W + i -> llr_of A MAX (n_symbs A (m_c A m)) (n mod bps)
        (fun j => Some (res (v n) (sym A m j))) (nth n Z zero)) W body Y) as (Z & E & LZ & IZ) end.
    + split; auto. intros n Hn. apply I. lia.
    + intros i Z Hi (LZ & IZ). rewrite (rd_ok _ (v (t * W + 0))) by (rewrite map_length, seq_length; auto). cbn [bind].
      rewrite (map_nth (fun i => v (t * W + i)) (seq 0 W) 0), seq_nth by auto. cbn [plus].
      destruct (llr_ok A MAX (n_symbs A (m_c A m)) ((t * W + i) mod bps)
        (fun j => s <- rd (c_sym A (m_c A m)) j ;; Ret (Some (res (v (t * W + i)) s)))
        (fun j => Some (res (v (t * W + i)) (sym A m j)))) as (x0 & r0 & x1 & r1 & G0 & G1 & El).
      * apply Nat.pow_lt_mono_r; [lia|]. apply Nat.mod_upper_bound. lia.
      * intros j Hj. unfold n_symbs in Hj. rewrite (rd_ok _ (zero, zero)) by (rewrite Ws; auto). reflexivity.
      * discriminate.
      * discriminate.
      * rewrite El. cbn [bind]. rewrite wr_ok by lia. eexists. split; [reflexivity|]. rewrite length_upd. split; auto.
        intros n Hn. rewrite nth_upd by lia. destruct (Nat.eqb_spec n (t * W + i)) as [->|D].
        -- exists x0, r0, x1, r1. auto.
        -- apply IZ. lia.
    + exists Z. split; [exact E|]. split; auto. intros n Hn. apply IZ. lia.
  - exists Y. split; auto.
Qed.

Lemma fast_complex_ok : (forall x, sub A zero (cnorm A x) = opp A (cnorm A x)) -> forall MAX W m H Y Y2, 0 < W -> well A m -> m_types A m = true ->
  c_cplx A (m_c A m) = true -> length Y = m_Nmod A m -> gains_ok A (m_Nmod A m) H -> length Y2 = m_N A m ->
  fast_complex A MAX W m H Y Y2 = demodulate_complex A MAX m H Y Y2.
Proof.
  intros SZ MAX W m H Y Y2 HW Wl Ht EC LY G L2.
  destruct (demodulate_ok A MAX m H Y Y2 Wl Ht LY G L2) as (R & ER & LR & IR). rewrite EC in ER. rewrite ER.
  pose proof Wl as [Wb Ws WN Wm]. rewrite EC in Wm.
  set (val := fun n j => Some (mul A (opp A (cnorm A (csub A (at_c A Y (n / c_bps A (m_c A m))) (exp_c A m H (n / c_bps A (m_c A m)) j)))) (m_inv A m))).
  assert (HNW : m_N A m / W * W <= m_N A m) by (rewrite Nat.mul_comm; apply Nat.mul_div_le; lia).
  unfold fast_complex. rewrite Ht. cbn [guard bind].
  assert (K : exists K, match H with
        | None => kernel A MAX W m (rdc A Y) (fun y s => mul A (sub A zero (cnorm A (csub A y s))) (m_inv A m)) Y2
        | Some H => kernel A MAX W m (fun k => y <- rdc A Y k ;; h <- rdc A H k ;; Ret (y, h))
                      (fun '(y, h) s => mul A (sub A zero (cnorm A (csub A y (cmul A h s)))) (m_inv A m)) Y2
        end = Ret K /\ length K = m_N A m /\ forall n, n < m_N A m / W * W ->
      llr_of A MAX (n_symbs A (m_c A m)) (n mod c_bps A (m_c A m)) (val n) (nth n K zero)).
  { destruct H as [H|].
    - cbn [gains_ok] in G.
      destruct (kernel_ok _ MAX W m (fun k => y <- rdc A Y k ;; h <- rdc A H k ;; Ret (y, h))
        (fun n => (at_c A Y (n / c_bps A (m_c A m)), at_c A H (n / c_bps A (m_c A m))))
        (fun '(y, h) s => mul A (sub A zero (cnorm A (csub A y (cmul A h s)))) (m_inv A m)) Y2) as (K & EK & LK & IK); auto.
      + intros n Hn. pose proof (div_lt_msize _ _ n Wb Hn). rewrite !rdc_ok by lia. reflexivity.
      + exists K. split; auto. split; auto. intros n Hn. eapply llr_of_ext; [|apply IK; auto]. intros j Hj. unfold val. cbv beta iota. rewrite SZ. reflexivity.
    - destruct (kernel_ok _ MAX W m (rdc A Y) (fun n => at_c A Y (n / c_bps A (m_c A m)))
        (fun y s => mul A (sub A zero (cnorm A (csub A y s))) (m_inv A m)) Y2) as (K & EK & LK & IK); auto.
      + intros n Hn. pose proof (div_lt_msize _ _ n Wb Hn). rewrite !rdc_ok by lia. reflexivity.
      + exists K. split; auto. split; auto. intros n Hn. eapply llr_of_ext; [|apply IK; auto]. intros j Hj. unfold val. cbv beta iota. rewrite SZ. reflexivity. }
  destruct K as (K & EK & LK & IK). rewrite EK. cbn [bind].
  destruct (llrs_from_ok A MAX (m_N A m / W * W) m (fun b k j => y <- rdc A Y k ;; e <- expect_c A m H k j ;;
    Ret (Some (mul A (opp A (cnorm A (csub A y e))) (m_inv A m)))) val K) as (F & EF & LF & IF1 & IF2); auto.
  - intros n j Hn Hj. unfold n_symbs in Hj. pose proof (div_lt_msize _ _ n Wb Hn).
    rewrite rdc_ok by lia. cbn [bind]. rewrite (expect_c_ok _ _ _ _ _ (m_Nmod A m)) by (auto; lia). reflexivity.
  - intros. split; discriminate.
  - rewrite EF. f_equal. apply (list_eq_nth _ zero); [congruence|]. intros n Hn. rewrite LF in Hn.
    assert (IF : llr_of A MAX (n_symbs A (m_c A m)) (n mod c_bps A (m_c A m)) (val n) (nth n F zero)).
    { destruct (Nat.lt_ge_cases n (m_N A m / W * W)) as [Lt|Ge]; [rewrite IF1 by auto; apply IK; auto|apply IF2; lia]. }
    eapply llr_of_unique; [exact IF|]. eapply llr_of_ext; [|apply IR; auto]. intros j Hj. unfold val, metric_d. rewrite EC. reflexivity.
Qed.
End Fast.

(** Calls keep the configuration of the modem. *)
Lemma exec_same : forall A MAX m c m' Y, exec A MAX m c = Ret (m', Y) -> same_but_cp A m m'.
Proof.
  intros A MAX m c m' Y E. destruct c as [X X2|CP Y1 Y2|CP H Y1 Y2|CP H Y1 Ya Y3]; cbn [exec] in E.
  - destruct (modulate A m X X2); inversion E; subst. apply same_refl.
  - unfold filter_ in E. destruct (copy Y1 0 (m_Nmod A m) Y2 0); inversion E; subst. apply set_last_same.
  - unfold demodulate in E. match type of E with bind ?x _ = _ => destruct x; inversion E; subst end.
    eapply same_trans; [apply set_cp_same|apply set_last_same].
  - unfold tdemodulate in E. match type of E with bind ?x _ = _ => destruct x; inversion E; subst end.
    eapply same_trans; [apply set_cp_same|apply set_last_same].
Qed.
Lemma history_same : forall A MAX cs m m', history A MAX m cs = Ret m' -> same_but_cp A m m'.
Proof.
  intros A MAX. induction cs as [|c cs IH]; cbn [history]; intros m m' E; [inversion E; apply same_refl|].
  destruct (exec A MAX m c) as [[m1 Y]| |] eqn:E1; cbn [bind] in E; try discriminate.
  eapply same_trans; [eapply exec_same; eauto|apply IH; auto].
Qed.

(** Roundings to the nearest: odd, and exact on what they return. *)
Definition symmetric (rnd : Q -> Q) : Prop :=
  (forall x y, (x == y)%Q -> (rnd x == rnd y)%Q) /\ (forall x, (rnd (- x) == - rnd x)%Q) /\ (forall x, (rnd (rnd x) == rnd x)%Q).
Lemma float_symmetric : forall prec, (0 < prec)%Z -> symmetric (fl prec).
Proof.
  intros prec H. split; [apply C94_float_signs; auto|]. split; [apply fl_opp|]. intros x. apply fl_exact; auto. apply fl_holds. auto.
Qed.
Lemma sub_zero_norm : forall rnd, symmetric rnd -> forall x, sub (QA rnd) (ofZ (QA rnd) 0) (cnorm (QA rnd) x) = opp (QA rnd) (cnorm (QA rnd) x).
Proof.
  intros rnd (R1 & R2 & R3) x. unfold cnorm. cbn [QA add sub mul opp ofZ num]. apply Qred_complete.
  match goal with |- context [Qred (rnd ?y)] => match y with (Qred _ + _)%Q => set (z := y) end end.
  rewrite (R1 (inject_Z 0 - Qred (rnd z))%Q (- rnd z)%Q) by (rewrite Qred_correct; change (inject_Z 0) with 0%Q; ring).
  rewrite R2, R3, Qred_correct. reflexivity.
Qed.

(** For a complex constellation the vectorised demodulator gives the results of the standard one, for all register sizes,
    roundings and histories. *)
Theorem C97_complex : forall rnd MAX W N c dis m0 cs m CP H Y Y2, symmetric rnd -> 0 < W -> proper rnd c -> c_cplx _ c = true ->
  (Z.of_nat N < 2 ^ 24)%Z -> make_modem (QA rnd) N c dis true = Ret m0 -> history (QA rnd) MAX m0 cs = Ret m ->
  length Y = m_Nmod _ m0 -> gains_ok (QA rnd) (m_Nmod _ m0) H -> length Y2 = N ->
  fast_demodulate (QA rnd) MAX W m CP H Y Y2 = demodulate (QA rnd) MAX m CP H Y Y2 /\
  exists m' L, demodulate (QA rnd) MAX m CP H Y Y2 = Ret (m', L).
Proof.
  intros rnd MAX W N c dis m0 cs m CP H Y Y2 SR HW P EC HN E EH LY G L2.
  destruct (proper_well _ _ _ _ _ _ E P HN) as (Wl & E1 & E2 & E3 & E4 & _).
  assert (S : same_but_cp (QA rnd) m0 (set_cp (QA rnd) m CP)) by (eapply same_trans; [eapply history_same; eauto|apply set_cp_same]).
  pose proof (same_well _ _ _ S Wl) as W1. destruct S as (S1 & S2 & S3 & S4 & S5).
  unfold fast_demodulate, demodulate. set (m1 := set_cp (QA rnd) m CP) in *. rewrite S3, E2, EC. split.
  - rewrite fast_complex_ok; auto; try congruence. apply sub_zero_norm. auto.
  - destruct (demodulate_ok (QA rnd) MAX m1 H Y Y2) as (L & EL & _); auto; try congruence. rewrite S3, E2, EC in EL. rewrite EL. cbn [bind]. eauto.
Qed.

(** For a real constellation it reads the received values at twice their positions: a frame of at least two symbols that
    the registers cut exactly is read out of bounds. *)
Lemma kernel_loads : forall A V MAX W m (ld : nat -> outcome V) res Y2 Y, 0 < W -> kernel A MAX W m ld res Y2 = Ret Y ->
  forall n, n < m_N A m / W * W -> exists v, ld (n / c_bps A (m_c A m)) = Ret v.
Proof.
  intros A V MAX W m ld res Y2 Y HW E. unfold kernel in E.
  refine (for_part _ (fun t (_ : list (num A)) => forall n, n < t * W -> exists v, ld (n / c_bps A (m_c A m)) = Ret v) _ _ _ _ _ _ E).
  - intros n Hn. lia.
  - intros t s s' Ht I Eb n Hn. cbv zeta in Eb. destruct (Nat.lt_ge_cases n (t * W)) as [L|L]; [auto|].
    apply bind_inv in Eb. destruct Eb as (vs & Ev & _).
    refine (for_part _ (fun i (_ : list V) => forall n, t * W <= n < t * W + i -> exists v, ld (n / c_bps A (m_c A m)) = Ret v) _ _ _ _ _ _ Ev n ltac:(lia)).
    + intros; lia.
    + intros i u u' Hi J Eb k Hk. apply bind_inv in Eb. destruct Eb as (v & Evv & _).
      destruct (Nat.eq_dec k (t * W + i)) as [->|]; [eauto|apply J; lia].
Qed.

Theorem C97_real_refuted : forall rnd MAX W N c dis m0 cs m CP H Y Y2 r, 0 < W -> proper rnd c -> c_cplx _ c = false ->
  (Z.of_nat N < 2 ^ 24)%Z -> make_modem (QA rnd) N c dis true = Ret m0 -> history (QA rnd) MAX m0 cs = Ret m ->
  length Y = m_Nmod _ m0 -> N mod W = 0 -> c_bps _ c < N ->
  fast_demodulate (QA rnd) MAX W m CP H Y Y2 <> Ret r.
Proof.
  intros rnd MAX W N c dis m0 cs m CP H Y Y2 r HW P EC HN E EH LY DV HB F.
  destruct (proper_well _ _ _ _ _ _ E P HN) as (Wl & E1 & E2 & E3 & E4 & _).
  assert (S : same_but_cp (QA rnd) m0 (set_cp (QA rnd) m CP)) by (eapply same_trans; [eapply history_same; eauto|apply set_cp_same]).
  destruct S as (S1 & S2 & S3 & S4 & S5). pose proof P as ((Pb1 & _) & _).
  unfold fast_demodulate in F. set (m1 := set_cp (QA rnd) m CP) in *. rewrite S3, E2, EC in F.
  apply bind_inv in F. destruct F as (Z & F & _). unfold fast_real in F. apply bind_inv in F. destruct F as (u & _ & F).
  apply bind_inv in F. destruct F as (K & EK & _).
  assert (LN : N - 1 < m_N (QA rnd) m1 / W * W).
  { rewrite S1, E1. pose proof (Nat.div_mod N W ltac:(lia)). lia. }
  assert (X : exists y, rd Y (2 * ((N - 1) / c_bps (QA rnd) c)) = Ret y).
  { destruct H as [H|]; apply kernel_loads with (n := N - 1) in EK; auto; destruct EK as [v Ev]; rewrite S3, E2 in Ev.
    - apply bind_inv in Ev. destruct Ev as (y & Ey & _). eauto.
    - eauto. }
  destruct X as [y Ey]. rewrite rd_out in Ey; [discriminate|]. rewrite LY.
  rewrite (w_mod _ _ Wl), E1, E2, EC, Nat.mul_1_r. unfold msize.
  pose proof (Nat.div_mod (N - 1) (c_bps (QA rnd) c) ltac:(lia)) as D. pose proof (Nat.mod_upper_bound (N - 1) (c_bps (QA rnd) c) ltac:(lia)) as B.
  assert (EQ : (N + c_bps (QA rnd) c - 1) / c_bps (QA rnd) c = (N - 1) / c_bps (QA rnd) c + 1).
  { symmetry. apply (Nat.div_unique _ _ _ ((N - 1) mod c_bps (QA rnd) c)); nia. }
  rewrite EQ. assert (1 <= (N - 1) / c_bps (QA rnd) c) by (apply Nat.div_le_lower_bound; lia). lia.
Qed.

(** The hypotheses are met, and shorter frames have wrong LLRs: 3 real symbols of one bit, registers of 2 numbers; the LLR 1
    is that of the received value 2. *)
Example C97_real_example :
  out (m <- make_modem exact 3 two_points true true ;; demodulate exact max_q m 1%Q None [1; 1; -1]%Q [0; 0; 0]%Q) = Ret [4; 4; -4]%Q /\
  out (m <- make_modem exact 3 two_points true true ;; fast_demodulate exact max_q 2 m 1%Q None [1; 1; -1]%Q [0; 0; 0]%Q) = Ret [4; -4; -4]%Q /\
  out (m <- make_modem exact 4 two_points true true ;; fast_demodulate exact max_q 2 m 1%Q None [1; 1; -1; 1]%Q [0; 0; 0; 0]%Q) = Undef.
Proof. repeat split; vm_compute; reflexivity. Qed.

(* ------------------------------------------------------------------ *)
(** * C98: BPSK *)

Theorem C98_modulate : forall rnd N dis types m X X2, make_bpsk (QA rnd) N dis types = Ret m -> length X = N -> length X2 = N ->
  exists Z, bpsk_modulate (QA rnd) m X X2 = Ret Z /\ length Z = N /\ forall i, i < N -> nth i Z 0%Q = if nth i X false then (-1)%Q else 1%Q.
Proof.
  intros rnd N dis types m X X2 E LX L2. unfold make_bpsk in E. destruct (Nat.ltb_spec 0 N); [|discriminate]. cbn [guard bind] in E. inversion E; subst m; clear E.
  unfold bpsk_modulate. cbn [b_N].
  rewrite (for1_fill Q 0%Q (fun i => if nth i X false then (-1)%Q else 1%Q) (fun i => i)).
  - eexists. split; [reflexivity|]. rewrite length_tab. split; auto. intros i Hi. rewrite nth_tab by (cbn [num QA] in *; lia). reflexivity.
  - intros i x Hi Lx. split; [cbn [num QA] in *; lia|]. rewrite (rd_ok _ false) by lia. cbn [bind]. destruct (nth i X false); reflexivity.
  - intros q Hq. exists q. cbn [num QA] in *. split; [lia|auto].
Qed.

Definition b_sync rnd (m : bpsk (QA rnd)) : Prop :=
  b_dis _ m = false -> match b_last _ m with Some l => b_fac _ m = dvd (QA rnd) (ofZ (QA rnd) 2) (mul (QA rnd) l l) | None => True end.
Lemma bpsk_cp_ok : forall rnd m CP, (forall x y, (x == y)%Q -> (rnd x == rnd y)%Q) -> b_sync rnd m -> b_dis _ m = false ->
  b_fac _ (bpsk_cp (QA rnd) m CP) = dvd (QA rnd) (ofZ (QA rnd) 2) (mul (QA rnd) CP CP).
Proof.
  intros rnd m CP HR S D. unfold bpsk_cp. specialize (S D). destruct (b_last (QA rnd) m) as [l|]; cbn [cp_new]; [|reflexivity].
  destruct (neq (QA rnd) CP l) eqn:EN; [reflexivity|]. rewrite S. cbn [QA neq] in EN. apply negb_false_iff, Qeq_bool_iff in EN.
  cbn [QA dvd mul ofZ]. apply Qred_complete, HR. apply Qdiv_comp; [reflexivity|]. apply Qred_comp, HR. rewrite EN. reflexivity.
Qed.
Lemma bpsk_cp_same : forall A m CP, b_N A (bpsk_cp A m CP) = b_N A m /\ b_dis A (bpsk_cp A m CP) = b_dis A m /\
  b_types A (bpsk_cp A m CP) = b_types A m /\ b_last A (bpsk_cp A m CP) = b_last A m.
Proof. intros. unfold bpsk_cp. destruct (cp_new A CP (b_last A m)); auto. Qed.

(** One call from a modem in order. *)
Lemma bpsk_demodulate_ok : forall rnd m CP Y Y2, (forall x y, (x == y)%Q -> (rnd x == rnd y)%Q) -> b_sync rnd m ->
  (b_dis _ m = false -> b_types _ m = true) -> length Y = b_N _ m -> length Y2 = b_N _ m ->
  exists m', bpsk_demodulate (QA rnd) m CP Y Y2 = Ret (m', tab (b_N _ m) (fun i => if b_dis _ m then nth i Y 0%Q
    else mul (QA rnd) (nth i Y 0%Q) (dvd (QA rnd) (ofZ (QA rnd) 2) (mul (QA rnd) CP CP)))).
Proof.
  intros rnd m CP Y Y2 HR S HT LY L2. unfold bpsk_demodulate. destruct (b_dis (QA rnd) m) eqn:D.
  - rewrite (copy_list _ 0%Q) by (cbn [num QA] in *; lia). cbn [bind firstn skipn app plus]. eexists. do 2 f_equal.
    apply (eq_tab _ 0%Q).
    + cbn [num QA] in *. rewrite app_length, firstn_length, skipn_length. lia.
    + intros i Hi. cbn [num QA] in *. rewrite app_nth1 by (rewrite firstn_length; lia). rewrite <- (firstn_skipn (b_N (QA rnd) m) Y) at 2.
      rewrite app_nth1 by (rewrite firstn_length; lia). reflexivity.
  - rewrite (HT eq_refl). cbn [guard bind]. cbv zeta. rewrite (bpsk_cp_ok rnd m CP HR S D).
    destruct (bpsk_cp_same (QA rnd) m CP) as (N1 & _). rewrite N1.
    rewrite (for1_fill Q 0%Q (fun i => mul (QA rnd) (nth i Y 0%Q) (dvd (QA rnd) (ofZ (QA rnd) 2) (mul (QA rnd) CP CP))) (fun i => i)).
    + cbn [bind]. eexists. do 2 f_equal. cbn [num QA] in *. rewrite L2. reflexivity.
    + intros i x Hi Lx. cbn [num QA] in *. split; [lia|]. rewrite (rd_ok _ 0%Q) by (cbn [num QA]; lia). reflexivity.
    + intros q Hq. exists q. cbn [num QA] in *. split; [lia|auto].
Qed.
Lemma bpsk_demodulate_wg_ok : forall rnd m CP H Y Y2, (forall x y, (x == y)%Q -> (rnd x == rnd y)%Q) -> b_sync rnd m ->
  b_types _ m = true -> length Y = b_N _ m -> length H = b_N _ m -> length Y2 = b_N _ m ->
  exists m', bpsk_demodulate_wg (QA rnd) m CP H Y Y2 = Ret (m', tab (b_N _ m) (fun i => if b_dis _ m then mul (QA rnd) (nth i Y 0%Q) (nth i H 0%Q)
    else mul (QA rnd) (mul (QA rnd) (nth i Y 0%Q) (dvd (QA rnd) (ofZ (QA rnd) 2) (mul (QA rnd) CP CP))) (nth i H 0%Q))).
Proof.
  intros rnd m CP H Y Y2 HR S HT LY LH L2. unfold bpsk_demodulate_wg. rewrite HT. cbn [guard bind]. destruct (b_dis (QA rnd) m) eqn:D.
  - rewrite (for1_fill Q 0%Q (fun i => mul (QA rnd) (nth i Y 0%Q) (nth i H 0%Q)) (fun i => i)).
    + cbn [bind]. eexists. do 2 f_equal. cbn [num QA] in *. rewrite L2. reflexivity.
    + intros i x Hi Lx. cbn [num QA] in *. split; [lia|]. rewrite (rd_ok _ 0%Q) by (cbn [num QA]; lia). cbn [bind]. rewrite (rd_ok _ 0%Q) by (cbn [num QA]; lia). reflexivity.
    + intros q Hq. exists q. cbn [num QA] in *. split; [lia|auto].
  - cbv zeta. rewrite (bpsk_cp_ok rnd m CP HR S D).
    destruct (bpsk_cp_same (QA rnd) m CP) as (N1 & _). rewrite N1.
    rewrite (for1_fill Q 0%Q (fun i => mul (QA rnd) (mul (QA rnd) (nth i Y 0%Q) (dvd (QA rnd) (ofZ (QA rnd) 2) (mul (QA rnd) CP CP))) (nth i H 0%Q)) (fun i => i)).
    + cbn [bind]. eexists. do 2 f_equal. cbn [num QA] in *. rewrite L2. reflexivity.
    + intros i x Hi Lx. cbn [num QA] in *. split; [lia|]. rewrite (rd_ok _ 0%Q) by (cbn [num QA]; lia). cbn [bind]. rewrite (rd_ok _ 0%Q) by (cbn [num QA]; lia). reflexivity.
    + intros q Hq. exists q. cbn [num QA] in *. split; [lia|auto].
Qed.

Definition b_no_filter {A} (c : bcall A) : Prop := match c with BFilter _ _ _ _ => False | _ => True end.
Lemma bhistory_sync : forall rnd cs m m', (forall x y, (x == y)%Q -> (rnd x == rnd y)%Q) -> b_sync rnd m -> Forall b_no_filter cs ->
  bhistory (QA rnd) m cs = Ret m' -> b_sync rnd m' /\ b_N _ m' = b_N _ m /\ b_dis _ m' = b_dis _ m /\ b_types _ m' = b_types _ m.
Proof.
  intros rnd cs. induction cs as [|c cs IH]; cbn [bhistory]; intros m m' HR S F E; [inversion E; subst; auto|].
  inversion F as [|? ? F1 F2]; subst. destruct (bexec (QA rnd) m c) as [[m1 Z]| |] eqn:E1; cbn [bind] in E; try discriminate.
  assert (X : b_sync rnd m1 /\ b_N _ m1 = b_N _ m /\ b_dis _ m1 = b_dis _ m /\ b_types _ m1 = b_types _ m).
  { assert (L1 : forall CP, b_sync rnd (bpsk_last (QA rnd) (bpsk_cp (QA rnd) m CP) CP) /\ b_N _ (bpsk_last (QA rnd) (bpsk_cp (QA rnd) m CP) CP) = b_N _ m /\
      b_dis _ (bpsk_last (QA rnd) (bpsk_cp (QA rnd) m CP) CP) = b_dis _ m /\ b_types _ (bpsk_last (QA rnd) (bpsk_cp (QA rnd) m CP) CP) = b_types _ m).
    { intros CP. destruct (bpsk_cp_same (QA rnd) m CP) as (N1 & N2 & N3 & N4). split; [|auto]. intros D. cbn [bpsk_last b_last b_fac b_dis] in *.
      apply bpsk_cp_ok; auto. congruence. }
    assert (L2 : forall CP, b_dis _ m = true -> b_sync rnd (bpsk_last (QA rnd) m CP)) by (intros CP D D'; cbn [bpsk_last b_dis] in D'; congruence).
    destruct c as [CP Y Y2|CP H Y Y2|CP Y Y2]; cbn [bexec b_no_filter] in *; [| |contradiction].
    - unfold bpsk_demodulate in E1. apply bind_inv in E1. destruct E1 as ([mm ZZ] & E1 & E2). inversion E2; subst; clear E2.
      destruct (b_dis (QA rnd) m) eqn:D.
      + apply bind_inv in E1. destruct E1 as (U & _ & E1). inversion E1; subst. split; [apply L2; auto|auto].
      + apply bind_inv in E1. destruct E1 as (U & _ & E1). cbv zeta in E1. apply bind_inv in E1. destruct E1 as (U2 & _ & E1). inversion E1; subst. apply L1.
    - unfold bpsk_demodulate_wg in E1. apply bind_inv in E1. destruct E1 as (U0 & _ & E1). apply bind_inv in E1. destruct E1 as ([mm ZZ] & E1 & E2). inversion E2; subst; clear E2.
      destruct (b_dis (QA rnd) m) eqn:D.
      + apply bind_inv in E1. destruct E1 as (U & _ & E1). inversion E1; subst. split; [apply L2; auto|auto].
      + cbv zeta in E1. apply bind_inv in E1. destruct E1 as (U2 & _ & E1). inversion E1; subst. apply L1. }
  destruct X as (X1 & X2 & X3 & X4). destruct (IH m1 m' HR X1 F2 E) as (Z1 & Z2 & Z3 & Z4). split; auto. split; [congruence|]. split; congruence.
Qed.
Lemma bpsk_fresh : forall rnd N dis types m, make_bpsk (QA rnd) N dis types = Ret m ->
  b_sync rnd m /\ b_N _ m = N /\ b_dis _ m = dis /\ b_types _ m = types.
Proof.
  intros rnd N dis types m E. unfold make_bpsk in E. destruct (guard (0 <? N)); try discriminate. inversion E; subst. split; [|auto]. intros _. exact I.
Qed.

(** The LLR is that of a transmission of +1 or -1 over a Gaussian channel of deviation CP with the gain h. *)
Definition bpsk_llr (CP h y : Q) : Q := (((y - h * -1) * (y - h * -1) - (y - h * 1) * (y - h * 1)) / (2 * CP * CP))%Q.
Theorem C98_demodulate : forall N m0 cs m CP H Y Y2, make_bpsk exact N false true = Ret m0 -> Forall b_no_filter cs -> bhistory exact m0 cs = Ret m ->
  (0 < CP)%Q -> length Y = N -> length H = N -> length Y2 = N ->
  exists m1 m2 L L', bpsk_demodulate exact m CP Y Y2 = Ret (m1, L) /\ bpsk_demodulate_wg exact m CP H Y Y2 = Ret (m2, L') /\
    length L = N /\ length L' = N /\ forall i, i < N ->
      (nth i L 0 == bpsk_llr CP 1 (nth i Y 0))%Q /\ (nth i L' 0 == bpsk_llr CP (nth i H 0) (nth i Y 0))%Q.
Proof.
  intros N m0 cs m CP H Y Y2 E NF EH HC LY LH L2. destruct (bpsk_fresh _ _ _ _ _ E) as (S0 & N0 & D0 & T0).
  destruct (bhistory_sync idq cs m0 m exact_rnd S0 NF EH) as (S & N1 & D1 & T1).
  destruct (bpsk_demodulate_ok idq m CP Y Y2 exact_rnd S) as (m1 & E1); try congruence.
  destruct (bpsk_demodulate_wg_ok idq m CP H Y Y2 exact_rnd S) as (m2 & E2); try congruence.
  rewrite D1, D0 in E1, E2. eexists m1, m2, _, _. split; [exact E1|]. split; [exact E2|]. rewrite !length_tab. split; [congruence|]. split; [congruence|].
  intros i Hi. rewrite N1, N0. rewrite !nth_tab by auto. unfold bpsk_llr. cbn [QA mul dvd ofZ num].
  assert (NZ : ~ (CP == 0)%Q) by lra. change (inject_Z 2) with 2%Q. split; qred; field; auto.
Qed.

(** With a rounding that keeps the signs, the LLR of a noiseless value tells the bit, with or without sigma. *)
Theorem C98_noiseless : forall rnd N dis m0 cs m CP X X2 Y2, keeps_signs rnd ->
  make_bpsk (QA rnd) N dis true = Ret m0 -> Forall b_no_filter cs -> bhistory (QA rnd) m0 cs = Ret m ->
  (dis = false -> (0 < CP)%Q) -> length X = N -> length X2 = N -> length Y2 = N ->
  exists Z m' L, bpsk_modulate (QA rnd) m0 X X2 = Ret Z /\ bpsk_demodulate (QA rnd) m CP Z Y2 = Ret (m', L) /\ length L = N /\
    forall i, i < N -> tells (nth i X false) (nth i L 0%Q).
Proof.
  intros rnd N dis m0 cs m CP X X2 Y2 K E NF EH HC LX LX2 L2. destruct (bpsk_fresh _ _ _ _ _ E) as (S0 & N0 & D0 & T0).
  destruct (C98_modulate _ _ _ _ _ X X2 E LX LX2) as (Z & EZ & LZ & IZ).
  destruct (bhistory_sync rnd cs m0 m (proj1 K) S0 NF EH) as (S & N1 & D1 & T1).
  destruct (bpsk_demodulate_ok rnd m CP Z Y2 (proj1 K) S) as (m1 & E1); try congruence.
  exists Z, m1. eexists. split; [exact EZ|]. split; [exact E1|]. rewrite length_tab. split; [congruence|]. intros i Hi. rewrite N1, N0, nth_tab by auto.
  rewrite D1, D0. rewrite IZ by auto. destruct dis; [destruct (nth i X false); reflexivity|]. specialize (HC eq_refl).
  assert (FP : (0 < dvd (QA rnd) (ofZ (QA rnd) 2) (mul (QA rnd) CP CP))%Q).
  { cbn [QA dvd mul ofZ]. apply ks_pos; auto. assert (0 < Qred (rnd (CP * CP)))%Q by (apply ks_pos; auto; apply Qmult_lt_0_compat; auto).
    apply Qlt_shift_div_l; auto. rewrite Qmult_0_l. reflexivity. }
  set (f := dvd (QA rnd) (ofZ (QA rnd) 2) (mul (QA rnd) CP CP)) in *. cbn [QA mul] in *. unfold tells. destruct (nth i X false).
  - apply ks_neg; auto. apply neg_mul; [reflexivity|exact FP].
  - apply ks_pos; auto. apply Qmult_lt_0_compat; [reflexivity|exact FP].
Qed.

(** The same LLRs as the generic modem with the points +1 and -1. *)
Theorem C98_generic : forall N m0 g0 CP Y Y2, (Z.of_nat N < 2 ^ 24)%Z -> (0 < CP)%Q -> length Y = N -> length Y2 = N ->
  make_bpsk exact N false true = Ret m0 -> make_modem exact N two_points false true = Ret g0 ->
  exists b g L L', bpsk_demodulate exact m0 CP Y Y2 = Ret (b, L) /\ demodulate exact max_q g0 CP None Y Y2 = Ret (g, L') /\
    length L = N /\ length L' = N /\ forall i, i < N -> (nth i L 0 == nth i L' 0)%Q.
Proof.
  intros N m0 g0 CP Y Y2 HN HC LY L2 E EG.
  assert (P : proper idq two_points) by (split; [cbn; lia|]; split; [reflexivity|]; intros _; repeat constructor).
  destruct (proper_well _ _ _ _ _ _ EG P HN) as (W & G1 & G2 & _).
  destruct (C98_demodulate N m0 [] m0 CP Y Y Y2) as (b & b' & L & L0 & E1 & _ & LL & _ & I); auto.
  destruct (C94_max_log N two_points false g0 [] g0 CP None Y Y2) as (g & L' & E2 & LL' & I'); auto; [|exact Logic.I|].
  { rewrite (w_mod _ _ W), G1, G2. unfold msize. change (c_bps exact two_points) with 1. change (c_cplx exact two_points) with false. rewrite Nat.mul_1_r, Nat.div_1_r. lia. }
  exists b, g, L, L'. repeat (split; auto). intros i Hi. destruct (I i Hi) as [EL _]. destruct (I' i Hi) as (d0 & d1 & A0 & A1 & EL').
  rewrite EL, EL'. change (c_bps exact two_points) with 1 in *. rewrite Nat.div_1_r, Nat.mod_1_r in *.
  destruct A0 as ((j0 & J0 & B0 & Q0) & _). destruct A1 as ((j1 & J1 & B1 & Q1) & _). change (2 ^ 1) with 2 in *.
  assert (j0 = 0) by (destruct j0 as [|[|]]; [auto|discriminate|lia]). assert (j1 = 1) by (destruct j1 as [|[|]]; [discriminate|auto|lia]). subst j0 j1.
  rewrite <- Q0, <- Q1. unfold far, dist2, through, point_of, points, scale, bpsk_llr, two_points. cbn [c_cplx c_sym nth fst snd num QA].
  generalize (nth i Y 0%Q). intros y. field. lra.
Qed.

(** The staleness after filter is also here. *)
Theorem C98_filter_refuted :
  out (m0 <- make_bpsk exact 1 false true ;; m <- bhistory exact m0 [BDemodulate exact 1%Q [1%Q] [0%Q]; BFilter exact 2%Q [1%Q] [0%Q]] ;;
       bpsk_demodulate exact m 2%Q [1%Q] [0%Q]) = Ret [2%Q] /\
  out (m0 <- make_bpsk exact 1 false true ;; bpsk_demodulate exact m0 2%Q [1%Q] [0%Q]) = Ret [(1 # 2)%Q].
Proof. split; vm_compute; reflexivity. Qed.

(* ------------------------------------------------------------------ *)
(** * C99: on-off keying *)

Lemma ook_ok : forall rnd N X X2, length X = N -> length X2 = N ->
  ook_modulate (QA rnd) N X X2 = Ret (tab N (fun i => if nth i X false then 1%Q else 0%Q)).
Proof.
  intros rnd N X X2 LX L2. unfold ook_modulate.
  rewrite (for1_fill Q 0%Q (fun i => if nth i X false then 1%Q else 0%Q) (fun i => i)).
  - cbn [num QA] in *. rewrite L2. reflexivity.
  - intros i x Hi Lx. cbn [num QA] in *. split; [lia|]. rewrite (rd_ok _ false) by lia. cbn [bind]. reflexivity.
  - intros q Hq. exists q. cbn [num QA] in *. split; [lia|auto].
Qed.
Theorem C99_modulate : forall rnd N X X2, length X = N -> length X2 = N ->
  exists Z, ook_modulate (QA rnd) N X X2 = Ret Z /\ length Z = N /\ forall i, i < N -> nth i Z 0%Q = if nth i X false then 1%Q else 0%Q.
Proof.
  intros. rewrite ook_ok by auto. eexists. split; [reflexivity|]. rewrite length_tab. split; auto. intros i Hi. rewrite nth_tab by auto. reflexivity.
Qed.

(** The erasure channel: a symbol that is not erased has the LLR +1 or -1 of its bit; the erased symbols have LLRs +eps and
    -eps in turn. *)
Definition erased_before (er : nat -> bool) (i : nat) : nat := length (filter er (seq 0 i)).
Theorem C99_erasure : forall unk eps N X er Y Y2, ~ (unk == 0)%Q -> ~ (unk == 1)%Q -> length Y = N -> length Y2 = N ->
  (forall i, i < N -> nth i Y 0%Q = if er i : bool then unk else if nth i X false then 1%Q else 0%Q) ->
  exists L, bec_demodulate exact unk eps N Y Y2 = Ret L /\ length L = N /\ forall i, i < N ->
    (nth i L 0 == if er i then (if Nat.even (erased_before er i) then eps else - eps) else (if nth i X false then -1 else 1))%Q.
Proof.
  intros unk eps N X er Y Y2 U0 U1 LY L2 HY. unfold bec_demodulate.
  match goal with |- context [for_ N ?body ?s0] =>
    destruct (for_inv _ (fun t '(L, s) => length L = N /\ (s == if Nat.even (erased_before er t) then eps else - eps)%Q /\ forall i, i < t ->
      (nth i L 0 == if er i then (if Nat.even (erased_before er i) then eps else - eps) else (if nth i X false then -1 else 1))%Q) N body s0) as ([L s] & E & LL & IS & IL) end.
  - cbn. split; auto. split; [reflexivity|]. intros; lia.
  - intros t [L s] Ht (LL & IS & IL). cbn [num QA] in *. rewrite (rd_ok _ 0%Q) by (cbn [num QA]; lia). cbn [bind].
    rewrite HY by auto. assert (ES : erased_before er (S t) = erased_before er t + (if er t then 1 else 0)).
    { unfold erased_before. rewrite seq_S, filter_app, app_length. cbn [plus filter]. destruct (er t); cbn [length]; lia. }
    destruct (er t) eqn:Er.
    + cbn [QA neq]. rewrite Qeq_bool_refl. cbn [negb]. rewrite wr_ok by lia. cbn [bind]. eexists. split; [reflexivity|]. cbv beta iota.
      rewrite length_upd. split; auto. split.
      * rewrite ES, Nat.add_1_r, Nat.even_succ, <- Nat.negb_even. cbn [QA mul ofZ num]. rewrite Qred_correct. unfold idq. change (inject_Z (-1)) with (-1)%Q. rewrite IS.
        destruct (Nat.even (erased_before er t)); cbn [negb]; ring.
      * intros i Hi. rewrite nth_upd by lia. destruct (Nat.eqb_spec i t) as [->|]; [rewrite Er; exact IS|apply IL; lia].
    + assert (NE : negb (neq exact (if nth t X false then 1%Q else 0%Q) unk) = false).
      { cbn [QA neq]. rewrite negb_involutive. destruct (Qeq_bool _ unk) eqn:EQ; auto. apply Qeq_bool_iff in EQ. exfalso. destruct (nth t X false); [apply U1|apply U0]; symmetry; auto. }
      match goal with |- context [if negb ?x then _ else _] => change (negb x) with (negb (neq exact (if nth t X false then 1%Q else 0%Q) unk)) end.
      rewrite NE. rewrite wr_ok by lia. cbn [bind]. eexists. split; [reflexivity|]. cbv beta iota. rewrite length_upd. split; auto. split.
      * rewrite ES, Nat.add_0_r. exact IS.
      * intros i Hi. rewrite nth_upd by lia. destruct (Nat.eqb_spec i t) as [->|]; [|apply IL; lia]. rewrite Er. destruct (nth t X false); reflexivity.
  - exists L. split; [|auto]. match goal with |- bind ?x _ = _ => change x with (Ret (L, s)) || (transitivity (bind (Ret (L, s)) (fun '(Y3, _) => Ret Y3)); [f_equal; exact E|reflexivity]) end.
Qed.

(** The Gaussian channel: the task computes (1 - 2 y) * (2 CP CP), whatever the earlier calls with other parameters. *)
Definition awgn_sync (st : Q * option Q) : Prop := match snd st with None => True | Some l => (fst st == 2 * l * l)%Q end.
Theorem C99_awgn_value : forall st N CP Y Y2, awgn_sync st -> length Y = N -> length Y2 = N ->
  exists st' L, awgn_demodulate exact (1 # 2)%Q st false true N CP Y Y2 = Ret (st', L) /\ awgn_sync st' /\ length L = N /\
    forall i, i < N -> (nth i L 0 == (1 - 2 * nth i Y 0) * (2 * CP * CP))%Q.
Proof.
  intros st N CP Y Y2 S LY L2. unfold awgn_demodulate. cbn [guard bind]. cbv zeta.
  set (f := if cp_new exact CP (snd st) then mul exact (mul exact (ofZ exact 2) CP) CP else fst st).
  assert (F : (f == 2 * CP * CP)%Q).
  { unfold f, awgn_sync in *. destruct (snd st) as [l|]; cbn [cp_new].
    - cbn [QA neq]. destruct (Qeq_bool CP l) eqn:EQ; cbn [negb].
      + apply Qeq_bool_iff in EQ. rewrite S, EQ. reflexivity.
      + cbn [QA mul ofZ]. qred. reflexivity.
    - cbn [QA mul ofZ]. qred. reflexivity. }
  rewrite (for1_fill Q 0%Q (fun i => mul exact (opp exact (sub exact (mul exact (ofZ exact 2) (nth i Y 0%Q)) (ofZ exact 1))) f) (fun i => i)).
  - cbn [bind]. eexists _, _. split; [reflexivity|]. split; [exact F|]. rewrite length_tab. split; auto. intros i Hi. rewrite nth_tab by (cbn [num QA] in *; lia).
    cbn [QA mul opp sub ofZ]. qred. change (inject_Z 2) with 2%Q. change (inject_Z 1) with 1%Q. rewrite F. ring.
  - intros i x Hi Lx. cbn [num QA] in *. split; [lia|]. rewrite (rd_ok _ 0%Q) by (cbn [num QA]; lia). reflexivity.
  - intros q Hq. exists q. cbn [num QA] in *. split; [lia|auto].
Qed.
(** Its sign is that of the nearest of the points 0 and 1. *)
Theorem C99_awgn_partial : forall st N CP Y Y2, awgn_sync st -> (0 < CP)%Q -> length Y = N -> length Y2 = N ->
  exists st' L, awgn_demodulate exact (1 # 2)%Q st false true N CP Y Y2 = Ret (st', L) /\ length L = N /\
    forall i, i < N -> (((nth i Y 0 - 0) * (nth i Y 0 - 0) < (nth i Y 0 - 1) * (nth i Y 0 - 1) -> tells false (nth i L 0)) /\
      ((nth i Y 0 - 1) * (nth i Y 0 - 1) < (nth i Y 0 - 0) * (nth i Y 0 - 0) -> tells true (nth i L 0)))%Q.
Proof.
  intros st N CP Y Y2 S HC LY L2. destruct (C99_awgn_value st N CP Y Y2 S LY L2) as (st' & L & E & _ & LL & I).
  exists st', L. split; auto. split; auto. intros i Hi. unfold tells. rewrite (I i Hi). set (y := nth i Y 0%Q).
  assert (P : (0 < 2 * CP * CP)%Q) by (apply Qmult_lt_0_compat; auto; lra).
  split; intros H; ring_simplify in H.
  - apply Qmult_lt_0_compat; auto. lra.
  - apply neg_mul; auto. lra.
Qed.
(** But it is not the LLR of the channel, (1 - 2 y) / (2 CP CP): they agree only if 4 CP^4 = 1 (or y = 1/2). *)
Theorem C99_awgn_refuted : forall st N CP Y Y2 i, awgn_sync st -> (0 < CP)%Q -> length Y = N -> length Y2 = N -> i < N -> ~ (nth i Y 0 == 1 # 2)%Q ->
  exists st' L, awgn_demodulate exact (1 # 2)%Q st false true N CP Y Y2 = Ret (st', L) /\
    ((nth i L 0 == (((nth i Y 0 - 1) * (nth i Y 0 - 1)) - ((nth i Y 0 - 0) * (nth i Y 0 - 0))) / (2 * CP * CP)) <-> (4 * CP * CP * CP * CP == 1))%Q.
Proof.
  intros st N CP Y Y2 i S HC LY L2 Hi NH. destruct (C99_awgn_value st N CP Y Y2 S LY L2) as (st' & L & E & _ & LL & I).
  exists st', L. split; auto. rewrite (I i Hi). cbn [num QA] in *. set (y := nth i Y 0%Q) in *. assert (NZ : ~ (CP == 0)%Q) by lra.
  assert (NY : ~ (1 - 2 * y == 0)%Q) by (intros F; apply NH; lra).
  split; intros H.
  - apply (Qmult_inj_l _ _ (1 - 2 * y)%Q); auto.
    setoid_replace ((1 - 2 * y) * (4 * CP * CP * CP * CP))%Q with ((1 - 2 * y) * (2 * CP * CP) * (2 * CP * CP))%Q by ring. rewrite H. field. auto.
  - apply (Qmult_inj_l _ _ (2 * CP * CP)%Q); [intros F; assert (0 < 2 * CP * CP)%Q by (apply Qmult_lt_0_compat; auto; lra); lra|].
    setoid_replace ((2 * CP * CP) * ((1 - 2 * y) * (2 * CP * CP)))%Q with ((1 - 2 * y) * (4 * CP * CP * CP * CP))%Q by ring. rewrite H. field. auto.
Qed.
Example C99_awgn_example : awgn_sync (0%Q, None) /\
  out (awgn_demodulate exact (1 # 2)%Q (0%Q, None) false true 1 2%Q [0%Q] [0%Q]) = Ret [8%Q] /\ ((((0 - 1) * (0 - 1)) - ((0 - 0) * (0 - 0))) / (2 * 2 * 2) == 1 # 8)%Q.
Proof. split; [exact I|]. split; vm_compute; reflexivity. Qed.
