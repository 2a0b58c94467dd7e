(** C56: conversions between Es/N0, Eb/N0 and sigma. *)
From Coq Require Import Reals ZArith QArith Qabs Lra Lqa Lia Psatz Bool.
From Verif Require Import Base FloatQ QuantProps NoiseProps SnrModel.
Local Open Scope R_scope.

Lemma ln10 : 0 < ln 10.
Proof. rewrite <- ln_1. apply ln_increasing; Lra.lra. Qed.
Lemma pow10_pos : forall x, 0 < pow10 x.
Proof. intros x. apply exp_pos. Qed.
Lemma pow10_log10 : forall x, 0 < x -> pow10 (log10 x) = x.
Proof. intros x H. unfold pow10, log10. replace (ln x / ln 10 * ln 10) with (ln x) by (field; pose proof ln10; Lra.lra). apply exp_ln. exact H. Qed.
Lemma log10_pow10 : forall x, log10 (pow10 x) = x.
Proof. intros x. unfold pow10, log10. rewrite ln_exp. field. pose proof ln10. Lra.lra. Qed.
Lemma pow10_plus : forall x y, pow10 (x + y) = pow10 x * pow10 y.
Proof. intros x y. unfold pow10. rewrite Rmult_plus_distr_r. apply exp_plus. Qed.
Lemma pow10_lt : forall x y, x < y -> pow10 x < pow10 y.
Proof. intros x y H. unfold pow10. apply exp_increasing. pose proof ln10. nra. Qed.
Lemma log10_mult : forall x y, 0 < x -> 0 < y -> log10 (x * y) = log10 x + log10 y.
Proof. intros x y Hx Hy. unfold log10. rewrite ln_mult by assumption. field. pose proof ln10. Lra.lra. Qed.
Lemma log10_pos : forall x, 1 < x -> 0 < log10 x.
Proof. intros x H. unfold log10. pose proof ln10. assert (0 < ln x) by (rewrite <- ln_1; apply ln_increasing; Lra.lra). apply Rdiv_lt_0_compat; assumption. Qed.

Definition valid (rate : R) (bps : Z) : Prop := 0 < rate <= 1 /\ (0 < bps)%Z.

Lemma bad_rate_false : forall r, 0 < r <= 1 -> bad_rate r = false.
Proof. intros r H. unfold bad_rate. destruct (Rle_dec r 0); [Lra.lra|]. destruct (Rlt_dec 1 r); [Lra.lra|reflexivity]. Qed.
Lemma bad_rate_true : forall r, bad_rate r = false -> 0 < r <= 1.
Proof. intros r H. unfold bad_rate in H. destruct (Rle_dec r 0); [discriminate|]. destruct (Rlt_dec 1 r); [discriminate|]. Lra.lra. Qed.

(** Es/N0 (as a ratio) is Eb/N0 times the number of information bits per symbol; invalid arguments throw. *)
Theorem C56_ebn0_meaning : forall es r b,
  (valid r b -> exists eb, esn0_to_ebn0 es r b = Ret eb /\ pow10 (es / 10) = pow10 (eb / 10) * (r * IZR b)) /\
  (~ valid r b -> esn0_to_ebn0 es r b = Throws).
Proof.
  intros es r b. split.
  - intros [Hr Hb]. unfold esn0_to_ebn0. rewrite bad_rate_false by exact Hr. rewrite (proj2 (Z.leb_gt _ _)) by lia. eexists. split; [reflexivity|].
    apply IZR_lt in Hb. assert (P : 0 < r * IZR b) by (apply Rmult_lt_0_compat; Lra.lra).
    rewrite <- (pow10_log10 (r * IZR b)) at 2 by exact P. rewrite <- pow10_plus. f_equal. field.
  - intros H. unfold esn0_to_ebn0. destruct (bad_rate r) eqn:E; [reflexivity|]. apply bad_rate_true in E. destruct (Z.leb_spec b 0); [reflexivity|]. exfalso. apply H. split; assumption.
Qed.
Theorem C56_esn0_meaning : forall eb r b,
  (valid r b -> exists es, ebn0_to_esn0 eb r b = Ret es /\ pow10 (es / 10) = pow10 (eb / 10) * (r * IZR b)) /\
  (~ valid r b -> ebn0_to_esn0 eb r b = Throws).
Proof.
  intros eb r b. split.
  - intros [Hr Hb]. unfold ebn0_to_esn0. rewrite bad_rate_false by exact Hr. rewrite (proj2 (Z.leb_gt _ _)) by lia. eexists. split; [reflexivity|].
    apply IZR_lt in Hb. assert (P : 0 < r * IZR b) by (apply Rmult_lt_0_compat; Lra.lra).
    rewrite <- (pow10_log10 (r * IZR b)) at 2 by exact P. rewrite <- pow10_plus. f_equal. field.
  - intros H. unfold ebn0_to_esn0. destruct (bad_rate r) eqn:E; [reflexivity|]. apply bad_rate_true in E. destruct (Z.leb_spec b 0); [reflexivity|]. exfalso. apply H. split; assumption.
Qed.

(** The part of the property that holds: Es/N0 and Eb/N0 convert back to the same value, both ways. *)
Theorem C56_partial : forall r b x, valid r b ->
  (exists y, esn0_to_ebn0 x r b = Ret y /\ ebn0_to_esn0 y r b = Ret x) /\
  (exists y, ebn0_to_esn0 x r b = Ret y /\ esn0_to_ebn0 y r b = Ret x).
Proof.
  intros r b x [Hr Hb]. unfold esn0_to_ebn0, ebn0_to_esn0. rewrite bad_rate_false by exact Hr. rewrite (proj2 (Z.leb_gt _ _)) by lia.
  split; eexists; (split; [reflexivity|]); f_equal; ring.
Qed.

(** With the rounding of float or double, and any std::log10, the value that comes back differs from x by at most half an ulp of
    x - c and half an ulp of x, where c is the computed offset; the offset is the same both ways. *)
Section Rounded.
Local Open Scope Q_scope.
Theorem C56_rounded_partial : forall prec flog10 r b x, (0 < prec)%Z -> 0 < r <= 1 -> (0 < b)%Z ->
  exists c y x', let u := 2 ^ (- prec) in
    esn0_to_ebn0_fl prec flog10 x r b = Ret y /\ ebn0_to_esn0_fl prec flog10 y r b = Ret x' /\
    Qabs (y - (x - c)) <= Qabs (x - c) * u /\ Qabs (x' - x) <= u * Qabs x + (1 + u) * u * Qabs (x - c).
Proof.
  intros prec flog10 r b x Hp [Hr1 Hr2] Hb. unfold esn0_to_ebn0_fl, ebn0_to_esn0_fl.
  assert (E1 : Qle_bool r 0 = false) by (destruct (Qle_bool r 0) eqn:E; [apply Qle_bool_iff in E; Lqa.lra|reflexivity]).
  assert (E2 : Qle_bool r 1 = true) by (apply Qle_bool_iff; exact Hr2).
  rewrite E1, E2. cbn [orb negb]. rewrite (proj2 (Z.leb_gt _ _)) by lia.
  set (c := fl prec (10 * _)). exists c, (fl prec (x - c)), (fl prec (fl prec (x - c) + c)). cbv zeta. set (u := 2 ^ (- prec)).
  assert (Pu : 0 < u) by apply pow_pos. pose proof (fl_err prec (x - c) Hp) as A. set (y := fl prec (x - c)) in *. pose proof (fl_err prec (y + c) Hp) as B. fold u in A, B.
  repeat split; [exact A|]. set (x' := fl prec (y + c)) in *.
  assert (T : Qabs (x' - x) <= Qabs (x' - (y + c)) + Qabs (y - (x - c))).
  { assert (E : x' - x == (x' - (y + c)) + (y - (x - c))) by ring. rewrite E. apply Qabs_triangle. }
  assert (T2 : Qabs (y + c) <= Qabs x + Qabs (y - (x - c))).
  { assert (E : y + c == x + (y - (x - c))) by ring. rewrite E. apply Qabs_triangle. }
  pose proof (Qabs_nonneg (x - c)). pose proof (Qabs_nonneg x). set (D := Qabs (y - (x - c))) in *. set (S := Qabs (x - c)) in *.
  assert (B' : Qabs (x' - (y + c)) <= (Qabs x + D) * u).
  { eapply Qle_trans; [exact B|]. apply Qmult_le_compat_r; Lqa.lra. }
  assert (B2 : D * u <= S * u * u) by (apply Qmult_le_compat_r; Lqa.lra). Lqa.lra.
Qed.
End Rounded.

(** sigma is the standard deviation per real dimension of a noise with that Es/N0: sigma^2 = up / (2 Es/N0). *)
Theorem C56_sigma_meaning : forall es up,
  ((0 < up)%Z -> exists s, esn0_to_sigma es up = Ret s /\ 0 < s /\ 2 * (s * s) * pow10 (es / 10) = IZR up) /\
  ((up <= 0)%Z -> esn0_to_sigma es up = Throws).
Proof.
  intros es up. split; intros H; unfold esn0_to_sigma.
  - rewrite (proj2 (Z.leb_gt _ _)) by lia. apply IZR_lt in H. pose proof (pow10_pos (es / 10)) as P.
    assert (Q : 0 < IZR up / (2 * pow10 (es / 10))) by (apply Rdiv_lt_0_compat; Lra.lra).
    eexists. split; [reflexivity|]. split; [apply sqrt_lt_R0; exact Q|]. rewrite sqrt_sqrt by Lra.lra. field. Lra.lra.
  - rewrite (proj2 (Z.leb_le _ _)) by lia. reflexivity.
Qed.
(** A larger Es/N0 gives a smaller sigma. *)
Theorem C56_sigma_decreasing : forall es es' up s s', es < es' -> esn0_to_sigma es up = Ret s -> esn0_to_sigma es' up = Ret s' -> s' < s.
Proof.
  intros es es' up s s' H H1 H2. destruct (Z.le_gt_cases up 0) as [C|C].
  - unfold esn0_to_sigma in H1. rewrite (proj2 (Z.leb_le _ _)) in H1 by lia. discriminate.
  - destruct (proj1 (C56_sigma_meaning es up) C) as (t & T1 & T2 & T3). destruct (proj1 (C56_sigma_meaning es' up) C) as (t' & T1' & T2' & T3').
    rewrite H1 in T1. rewrite H2 in T1'. injection T1 as <-. injection T1' as <-. apply IZR_lt in C.
    pose proof (pow10_lt (es / 10) (es' / 10) ltac:(Lra.lra)) as L. pose proof (pow10_pos (es / 10)) as P.
    destruct (Rlt_le_dec s' s) as [G|G]; [exact G|exfalso].
    assert (A : s * s <= s' * s') by (apply Rmult_le_compat; Lra.lra). assert (B : 0 < s' * s') by (apply Rmult_lt_0_compat; assumption).
    assert (s * s * pow10 (es / 10) <= s' * s' * pow10 (es / 10)) by (apply Rmult_le_compat_r; Lra.lra).
    assert (s' * s' * pow10 (es / 10) < s' * s' * pow10 (es' / 10)) by (apply Rmult_lt_compat_l; assumption). Lra.lra.
Qed.

(** What sigma_to_esn0 computes: up / sigma^2, without the factor 2 of esn0_to_sigma; +infinity for a zero sigma. *)
Theorem C56_sigma_back : forall s up,
  ((0 < up)%Z -> 0 < s -> exists es, sigma_to_esn0 s up = Ret (Some es) /\ (s * s) * pow10 (es / 10) = IZR up) /\
  ((0 < up)%Z -> sigma_to_esn0 0 up = Ret None) /\
  ((up <= 0)%Z \/ s < 0 -> sigma_to_esn0 s up = Throws).
Proof.
  intros s up. split; [|split].
  - intros H P. unfold sigma_to_esn0. rewrite (proj2 (Z.leb_gt _ _)) by lia. destruct (Rlt_dec s 0); [Lra.lra|]. destruct (Req_EM_T s 0); [Lra.lra|].
    eexists. split; [reflexivity|]. replace (10 * log10 (IZR up / (s * s)) / 10) with (log10 (IZR up / (s * s))) by field. apply IZR_lt in H. assert (0 < s * s) by (apply Rmult_lt_0_compat; assumption). rewrite pow10_log10 by (apply Rdiv_lt_0_compat; assumption). field. Lra.lra.
  - intros H. unfold sigma_to_esn0. rewrite (proj2 (Z.leb_gt _ _)) by lia. destruct (Rlt_dec 0 0); [Lra.lra|]. destruct (Req_EM_T 0 0); [reflexivity|Lra.lra].
  - intros [H|H]; unfold sigma_to_esn0; destruct (Z.leb_spec up 0); try reflexivity; [lia|]. destruct (Rlt_dec s 0); [reflexivity|Lra.lra].
Qed.

(** The other half of the property is false, for every value: the way back adds 10 log10 2 = 3.01... dB. *)
Theorem C56_refuted : forall es up, (0 < up)%Z ->
  exists s es', esn0_to_sigma es up = Ret s /\ sigma_to_esn0 s up = Ret (Some es') /\ es' = es + 10 * log10 2 /\ es < es'.
Proof.
  intros es up H. destruct (proj1 (C56_sigma_meaning es up) H) as (s & S1 & S2 & S3). destruct (proj1 (C56_sigma_back s up) H S2) as (es' & E1 & E2).
  assert (D : es' = es + 10 * log10 2).
  { apply IZR_lt in H. assert (Ps : 0 < s * s) by (apply Rmult_lt_0_compat; assumption).
    assert (E : pow10 (es' / 10) = 2 * pow10 (es / 10)) by (apply (Rmult_eq_reg_l (s * s)); Lra.lra).
    apply (f_equal log10) in E. rewrite log10_mult in E by (try apply pow10_pos; Lra.lra). rewrite !log10_pow10 in E. Lra.lra. }
  exists s, es'. repeat split; try assumption. assert (0 < log10 2) by (apply log10_pos; Lra.lra). Lra.lra.
Qed.

Example C56_hypotheses : valid (1/2) 2 /\ (exists y, esn0_to_ebn0 3 (1/2) 2 = Ret y /\ y = 3) /\ (exists s, esn0_to_sigma 0 2 = Ret s /\ s = 1).
Proof.
  assert (V : valid (1/2) 2) by (split; [Lra.lra|lia]). split; [exact V|]. destruct V as [Hr Hb]. split.
  - unfold esn0_to_ebn0. rewrite bad_rate_false by exact Hr. cbn [Z.leb Z.compare]. eexists. split; [reflexivity|]. replace (1 / 2 * 2) with 1 by field. unfold log10. rewrite ln_1. field. pose proof ln10. Lra.lra.
  - unfold esn0_to_sigma. cbn [Z.leb Z.compare]. eexists. split; [reflexivity|]. unfold pow10. replace (0 / 10 * ln 10) with 0 by field. rewrite exp_0. replace (2 / (2 * 1)) with 1 by field. apply sqrt_1.
Qed.
