(** The integer amplitudes of the labels of a pulse amplitude modulation: range, Gray labels, sums. *)
From Coq Require Import List Arith Lia Bool ZArith.
From Verif Require Import Base ModemModel ModemProofs.
Import ListNotations.
Local Open Scope nat_scope.

Definition sg (b : bool) : Z := if b then (-1)%Z else 1%Z.
Fixpoint amp (b : nat -> bool) (n : nat) : Z :=
  match n with 0 => 0%Z | S j => (sg (b j) * (2 ^ Z.of_nat j - amp b j))%Z end.

Lemma pow_S : forall n, (2 ^ Z.of_nat (S n) = 2 * 2 ^ Z.of_nat n)%Z.
Proof. intros. rewrite Nat2Z.inj_succ, Z.pow_succ_r by lia. reflexivity. Qed.
Lemma pow_posZ : forall n, (0 < 2 ^ Z.of_nat n)%Z.
Proof. intros. apply Z.pow_pos_nonneg; lia. Qed.

Lemma amp_range : forall b n, (Z.abs (amp b n) < 2 ^ Z.of_nat n)%Z.
Proof.
  intros b n. destruct n as [|n]; [reflexivity|]. induction n as [|n IH].
  - cbn. destruct (b 0); reflexivity.
  - change (amp b (S (S n))) with (sg (b (S n)) * (2 ^ Z.of_nat (S n) - amp b (S n)))%Z. rewrite (pow_S (S n)).
    set (P := (2 ^ Z.of_nat (S n))%Z) in *. destruct (b (S n)); cbn [sg]; lia.
Qed.
Lemma amp_odd : forall b n, 0 < n -> Z.odd (amp b n) = true.
Proof.
  intros b n Hn. destruct n as [|n]; [lia|]. clear Hn. induction n as [|n IH].
  - cbn. destruct (b 0); reflexivity.
  - change (amp b (S (S n))) with (sg (b (S n)) * (2 ^ Z.of_nat (S n) - amp b (S n)))%Z. rewrite Z.odd_mul, Z.odd_sub, IH.
    rewrite pow_S, Z.odd_mul. destruct (b (S n)); reflexivity.
Qed.
Lemma amp_ext : forall b b' n, (forall l, l < n -> b l = b' l) -> amp b n = amp b' n.
Proof. intros b b' n. induction n as [|n IH]; intros H; [auto|]. cbn [amp]. rewrite IH by (intros; apply H; lia). rewrite H by lia. reflexivity. Qed.

Lemma amp_pos : forall b n, (0 < 2 ^ Z.of_nat n - amp b n)%Z.
Proof. intros b n. pose proof (amp_range b n). lia. Qed.
Lemma amp_sign : forall b n, b n = (amp b (S n) <? 0)%Z.
Proof. intros b n. cbn [amp]. pose proof (amp_pos b n). destruct (b n); cbn [sg]; symmetry; [apply Z.ltb_lt|apply Z.ltb_ge]; lia. Qed.
Lemma amp_prev : forall b n, amp b n = (2 ^ Z.of_nat n - Z.abs (amp b (S n)))%Z.
Proof. intros b n. cbn [amp]. pose proof (amp_pos b n). destruct (b n); cbn [sg]; lia. Qed.

Lemma amp_inj : forall n b b', amp b n = amp b' n -> forall l, l < n -> b l = b' l.
Proof.
  induction n as [|n IH]; intros b b' E l Hl; [lia|]. destruct (Nat.eq_dec l n) as [->|].
  - rewrite (amp_sign b), (amp_sign b'), E. reflexivity.
  - apply IH; [|lia]. rewrite (amp_prev b), (amp_prev b'), E. reflexivity.
Qed.
Lemma amp_onto : forall n v, 0 < n -> Z.odd v = true -> (Z.abs v < 2 ^ Z.of_nat n)%Z -> exists b, amp b n = v.
Proof.
  intros n. destruct n as [|n]; [lia|]. induction n as [|n IH]; intros v _ Od R.
  - change (2 ^ Z.of_nat 1)%Z with 2%Z in R. assert (v = 1 \/ v = 0 \/ v = -1)%Z as Hv by lia. destruct Hv as [Hv|[Hv|Hv]]; subst v; [exists (fun _ => false); reflexivity|discriminate|exists (fun _ => true); reflexivity].
  - assert (NZ : v <> 0%Z) by (intros ->; discriminate). rewrite pow_S in R.
    destruct (IH (2 ^ Z.of_nat (S n) - Z.abs v)%Z) as [b Hb]; [lia| |set (P := (2 ^ Z.of_nat (S n))%Z) in *; lia|].
    { rewrite Z.odd_sub. rewrite pow_S, Z.odd_mul. cbn [Z.odd andb xorb]. rewrite <- Od. destruct (Z.abs_eq_or_opp v) as [W|W]; rewrite W, ?Z.odd_opp; destruct (Z.odd v); reflexivity. }
    exists (fun l => if (l =? S n)%nat then (v <? 0)%Z else b l).
    change (amp (fun l => if (l =? S n)%nat then (v <? 0)%Z else b l) (S (S n)))
      with (sg (if (S n =? S n)%nat then (v <? 0)%Z else b (S n)) * (2 ^ Z.of_nat (S n) - amp (fun l => if (l =? S n)%nat then (v <? 0)%Z else b l) (S n)))%Z.
    rewrite Nat.eqb_refl. rewrite (amp_ext _ b).
    + rewrite Hb. destruct (Z.ltb_spec v 0); cbn [sg]; lia.
    + intros l Hl. destruct (Nat.eqb_spec l (S n)); [lia|reflexivity].
Qed.

(** Neighbours differ in one bit. *)
Definition one_bit (n : nat) (b b' : nat -> bool) : Prop := exists l, l < n /\ b l <> b' l /\ forall l', l' < n -> l' <> l -> b l' = b' l'.
Lemma amp_gray : forall n b b', (Z.abs (amp b n - amp b' n) = 2)%Z -> one_bit n b b'.
Proof.
  induction n as [|n IH]; intros b b' E; [cbn in E; lia|].
  destruct (Bool.bool_dec (b n) (b' n)) as [Es|Es].
  - destruct (IH b b') as (l & L1 & L2 & L3).
    { cbn [amp] in E. rewrite Es in E. destruct (b' n); cbn [sg] in E; lia. }
    exists l. split; [lia|]. split; auto. intros l' H1 H2. destruct (Nat.eq_dec l' n) as [->|]; [auto|apply L3; lia].
  - exists n. split; [lia|]. split; auto. intros l' H1 H2. apply (amp_inj n); [|lia].
    pose proof (amp_prev b n) as P1. pose proof (amp_prev b' n) as P2. pose proof (amp_sign b n) as S1. pose proof (amp_sign b' n) as S2.
    destruct (b n), (b' n); try congruence; symmetry in S1, S2; rewrite ?Z.ltb_lt, ?Z.ltb_ge in *; try lia.
    + assert (O : (amp b' (S n) <> 0)%Z) by (intros F; pose proof (amp_odd b' (S n) ltac:(lia)) as X; rewrite F in X; discriminate). lia.
    + assert (O : (amp b (S n) <> 0)%Z) by (intros F; pose proof (amp_odd b (S n) ltac:(lia)) as X; rewrite F in X; discriminate). lia.
Qed.
(** The two ends too. *)
Lemma amp_gray_cyclic : forall n b b', 0 < n -> (Z.abs (amp b n - amp b' n) = 2 * 2 ^ Z.of_nat n - 2)%Z -> one_bit n b b'.
Proof.
  intros n b b' Hn E. destruct n as [|n]; [lia|]. exists n. split; [lia|].
  pose proof (amp_range b (S n)) as R1. pose proof (amp_range b' (S n)) as R2.
  pose proof (amp_prev b n) as P1. pose proof (amp_prev b' n) as P2. pose proof (amp_sign b n) as S1. pose proof (amp_sign b' n) as S2.
  assert (B : (2 <= 2 ^ Z.of_nat (S n))%Z) by (rewrite pow_S; pose proof (pow_posZ n); lia).
  split.
  - intros F. rewrite S1, S2 in F. destruct (Z.ltb_spec (amp b (S n)) 0), (Z.ltb_spec (amp b' (S n)) 0); try discriminate; lia.
  - intros l' H1 H2. apply (amp_inj n); [|lia]. lia.
Qed.

(** Sums on the labels. *)
Fixpoint sumZ (f : nat -> Z) (n : nat) : Z := match n with 0 => 0%Z | S m => (sumZ f m + f m)%Z end.
Lemma sumZ_ext : forall f g n, (forall i, i < n -> f i = g i) -> sumZ f n = sumZ g n.
Proof. intros f g. induction n as [|n IH]; intros H; [auto|]. cbn [sumZ]. rewrite IH, H by auto. reflexivity. Qed.
Lemma sumZ_app : forall f m n, sumZ f (m + n) = (sumZ f m + sumZ (fun i => f (m + i)%nat) n)%Z.
Proof. intros f m. induction n as [|n IH]; [rewrite Nat.add_0_r; cbn [sumZ]; lia|]. rewrite Nat.add_succ_r. cbn [sumZ]. rewrite IH. lia. Qed.
Lemma sumZ_lin : forall f g a b n, sumZ (fun i => a * f i + b * g i)%Z n = (a * sumZ f n + b * sumZ g n)%Z.
Proof. intros f g a b. induction n as [|n IH]; cbn [sumZ]; [lia|rewrite IH; lia]. Qed.
Lemma sumZ_const : forall c n, sumZ (fun _ => c) n = (Z.of_nat n * c)%Z.
Proof. intros c. induction n as [|n IH]; cbn [sumZ]; [lia|]. rewrite IH. lia. Qed.

Definition ampl (j n : nat) : Z := amp (Nat.testbit j) n.

Lemma ampl_low : forall n j, j < 2 ^ n -> ampl j (S n) = (2 ^ Z.of_nat n - ampl j n)%Z.
Proof. intros n j H. unfold ampl. cbn [amp]. rewrite (testbit_above j n n) by lia. cbn [sg]. lia. Qed.
Lemma ampl_high : forall n j, j < 2 ^ n -> ampl (2 ^ n + j) (S n) = (- (2 ^ Z.of_nat n - ampl j n))%Z.
Proof.
  intros n j H. unfold ampl. cbn [amp]. rewrite (Nat.add_comm (2 ^ n)). rewrite testbit_add_pow by auto. rewrite Nat.eqb_refl. cbn [sg].
  rewrite (amp_ext _ (Nat.testbit j)); [lia|]. intros l Hl. rewrite testbit_add_pow by auto. destruct (Nat.eqb_spec l n); [lia|auto].
Qed.
Lemma pow2_S : forall n, 2 ^ S n = 2 ^ n + 2 ^ n.
Proof. intros n. cbn [Nat.pow]. lia. Qed.

Lemma sum_amp : forall n, sumZ (fun j => ampl j n) (2 ^ n) = 0%Z.
Proof.
  intros [|n]; [reflexivity|]. rewrite pow2_S, sumZ_app.
  rewrite (sumZ_ext _ (fun j => 2 ^ Z.of_nat n - ampl j n)%Z) by (intros; apply ampl_low; auto).
  rewrite (sumZ_ext (fun i => ampl (2 ^ n + i) (S n)) (fun j => - (2 ^ Z.of_nat n - ampl j n))%Z) by (intros; apply ampl_high; auto).
  rewrite (sumZ_ext _ (fun j => 1 * (2 ^ Z.of_nat n) + (-1) * ampl j n)%Z) by (intros; lia).
  rewrite (sumZ_ext (fun j => - (2 ^ Z.of_nat n - ampl j n))%Z (fun j => (-1) * (2 ^ Z.of_nat n) + 1 * ampl j n)%Z) by (intros; lia).
  rewrite !(sumZ_lin (fun _ => 2 ^ Z.of_nat n)%Z). lia.
Qed.
Lemma pow_nat : forall n, Z.of_nat (2 ^ n) = (2 ^ Z.of_nat n)%Z.
Proof. intros n. rewrite Nat2Z.inj_pow. reflexivity. Qed.
Lemma sum_amp2 : forall n, (3 * sumZ (fun j => ampl j n * ampl j n) (2 ^ n) = 2 ^ Z.of_nat n * (2 ^ Z.of_nat n * 2 ^ Z.of_nat n - 1))%Z.
Proof.
  induction n as [|n IH]; [reflexivity|]. rewrite pow2_S, sumZ_app. pose proof (sum_amp n) as S1.
  set (P := (2 ^ Z.of_nat n)%Z) in *.
  assert (H : forall f, (forall j, j < 2 ^ n -> f j = ((P - ampl j n) * (P - ampl j n))%Z) ->
    sumZ f (2 ^ n) = (P * (P * P) + sumZ (fun j => ampl j n * ampl j n) (2 ^ n))%Z).
  { intros f Hf. rewrite (sumZ_ext f (fun j => 1 * ((P * P) * 1 + (- 2 * P) * ampl j n) + 1 * (ampl j n * ampl j n))%Z) by (intros; rewrite Hf by auto; lia).
    rewrite (sumZ_lin (fun j => (P * P) * 1 + (- 2 * P) * ampl j n)%Z). rewrite (sumZ_lin (fun _ => 1%Z)). rewrite S1, sumZ_const, pow_nat. fold P. lia. }
  rewrite (H (fun j => ampl j (S n) * ampl j (S n))%Z) by (intros j Hj; rewrite ampl_low by auto; fold P; lia).
  rewrite (H (fun i => ampl (2 ^ n + i) (S n) * ampl (2 ^ n + i) (S n))%Z) by (intros j Hj; rewrite ampl_high by auto; fold P; lia).
  rewrite pow_S. fold P. lia.
Qed.
