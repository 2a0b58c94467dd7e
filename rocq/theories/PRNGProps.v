(** C63: the generator is MT19937. C70: the real draws. *)
From Coq Require Import List Arith Lia Bool ZArith QArith Lqa.
From Verif Require Import Base FloatQ PRNGModel PRNGSpec PRNGProofs PRNGReal.
Import ListNotations.
Local Open Scope Z_scope.

Lemma new_ok : forall seed, exists s0, mt_new seed = Ret s0 /\ mt_ok (mt_seq seed) 0 s0 /\ length (mt_MT s0) = SIZE.
Proof. intros seed. unfold mt_new. apply (seed_ok seed (mt_seq seed) (mt_exists seed)). apply repeat_length. Qed.

(** For every seed there is one sequence of the generator, and any number of draws returns its tempered words in order. *)
Theorem C63_stream : forall seed, 0 <= seed < 2 ^ 32 -> exists x : nat -> Z, mt19937 seed x /\ (forall x', mt19937 seed x' -> forall k, x' k = x k) /\
  forall n, exists s0 s, mt_new seed = Ret s0 /\ draws n s0 = Ret (map (fun i => temper (x (624 + i)%nat)) (seq 0 n), s).
Proof.
  intros seed Hs. exists (mt_seq seed). pose proof (mt_exists seed) as X. split; [exact X|]. split; [intros x' X' k; apply (mt_unique seed); assumption|].
  intros n. destruct (new_ok seed) as (s0 & E0 & I0 & _).
  destruct (draws_ok seed (mt_seq seed) X Hs n 0 s0 I0) as (s & E & _). exists s0, s. split; [exact E0|]. rewrite E. do 2 f_equal. apply map_ext. intros i. apply temper_ok. apply (x_word seed); assumption.
Qed.

(** Whatever was drawn before, seeding again restarts the stream. *)
Theorem C63_restart : forall seed1 n1 s0 l s1 seed2 n2, 0 <= seed1 < 2 ^ 32 -> 0 <= seed2 < 2 ^ 32 ->
  mt_new seed1 = Ret s0 -> draws n1 s0 = Ret (l, s1) ->
  exists s2 s3 s4 s5 l', mt_seed seed2 s1 = Ret s2 /\ mt_new seed2 = Ret s3 /\ draws n2 s2 = Ret (l', s4) /\ draws n2 s3 = Ret (l', s5).
Proof.
  intros seed1 n1 s0 l s1 seed2 n2 H1 H2 E0 E1. pose proof (mt_exists seed1) as X1. pose proof (mt_exists seed2) as X2.
  destruct (new_ok seed1) as (s0' & E0' & I0 & _). rewrite E0' in E0. injection E0 as <-.
  destruct (draws_ok seed1 (mt_seq seed1) X1 H1 n1 0 s0' I0) as (s1' & E1' & I1). rewrite E1' in E1. injection E1 as _ <-. destruct I1 as (_ & b & (L1 & _) & _).
  destruct (seed_ok seed2 (mt_seq seed2) X2 s1' L1) as (s2 & E2 & I2 & _). destruct (new_ok seed2) as (s3 & E3 & I3 & _).
  destruct (draws_ok seed2 _ X2 H2 n2 0 s2 I2) as (s4 & E4 & _). destruct (draws_ok seed2 _ X2 H2 n2 0 s3 I3) as (s5 & E5 & _). exists s2, s3, s4, s5. eexists. split; [exact E2|]. split; [exact E3|]. split; [exact E4|exact E5].
Qed.

(** Draws are 32-bit words, and rand() gives their 31 lowest bits. *)
Theorem C63_rand : forall seed n s0 l s, 0 <= seed < 2 ^ 32 -> mt_new seed = Ret s0 -> draws n s0 = Ret (l, s) ->
  exists y s', rand_u32 s = Ret (y, s') /\ 0 <= y < 2 ^ 32 /\ rand31 s = Ret (y mod 2 ^ 31, s').
Proof.
  intros seed n s0 l s Hs E0 E1. pose proof (mt_exists seed) as X.
  destruct (new_ok seed) as (s0' & E0' & I0 & _). rewrite E0' in E0. injection E0 as <-.
  destruct (draws_ok seed (mt_seq seed) X Hs n 0 s0' I0) as (s1' & E1' & I1). rewrite E1' in E1. injection E1 as _ <-.
  destruct (rand_ok seed (mt_seq seed) X Hs _ s1' I1) as (s2 & E2 & _). exists (tempering (mt_seq seed (SIZE + (0 + n)))), s2. split; [exact E2|].
  destruct (temper_ok (mt_seq seed (SIZE + (0 + n)))) as [T1 T2]; [apply (x_word seed); assumption|]. split; [rewrite T1; exact T2|].
  unfold rand31. rewrite E2. cbn [bind]. rewrite Z.land_comm. change 2147483647 with (Z.ones 31). rewrite Z.land_ones by lia. reflexivity.
Qed.

(** The published first words of the generator for its default seed. *)
Example C63_first_words : match mt_new 5489 with Ret s => match draws 3 s with Ret (l, _) => l = [3499211612; 581869302; 3890346734] | _ => False end | _ => False end.
Proof. vm_compute. reflexivity. Qed.

(** The 64-bit draw is not determined by the seed alone: it depends on which half the compiler evaluates first. *)
Theorem C63_u64_refuted : exists s a b s1 s2, mt_new 5489 = Ret s /\ rand_u64 true s = Ret (a, s1) /\ rand_u64 false s = Ret (b, s2) /\ a <> b.
Proof.
  pose proof C63_first_words as H. destruct (mt_new 5489) as [s| |]; [|contradiction..]. cbn [draws] in H.
  destruct (rand_u32 s) as [[a s1]| |] eqn:E1; [|contradiction..]. cbn [bind] in H. destruct (rand_u32 s1) as [[b s2]| |] eqn:E2; [|contradiction..]. cbn [bind] in H. destruct (rand_u32 s2) as [[c s3]| |]; [|contradiction..]. cbn [bind] in H.
  exists s. do 4 eexists. split; [reflexivity|]. split; [unfold rand_u64; rewrite E1; cbn [bind]; rewrite E2; reflexivity|]. split; [unfold rand_u64; rewrite E1; cbn [bind]; rewrite E2; reflexivity|]. injection H as -> -> _. discriminate.
Qed.

(** C70 *)
Local Open Scope Q_scope.

(** The closed interval: [0,1] at both precisions. *)
Theorem C70_closed : forall y, (0 <= y < 2 ^ 32)%Z -> 0 <= rand_cc 24 y <= 1 /\ 0 <= rand_cc 53 y <= 1.
Proof.
  intros y Hy. pose proof (conv_range 24 y ltac:(lia) Hy) as [A1 A2]. unfold rand_cc. split.
  - assert (B : 0 <= fl 24 (inject_Z y) / fl 24 UINT32_MAX <= 1).
    { rewrite max24. split; [apply Qle_shift_div_l; [apply pow_pos|]; lra|apply Qle_shift_div_r; [apply pow_pos|]; lra]. }
    split; [apply fl_ge; [lia|apply holds_0; lia|lra]|apply fl_le; [lia|change 1 with (2 ^ 0); apply holds_pow; lia|lra]].
  - assert (E : fl 53 (inject_Z y) == inject_Z y) by (apply fl_exact; [lia|apply holds_Z; lia]).
    assert (R : 0 <= inject_Z y <= UINT32_MAX) by (unfold UINT32_MAX; change 0 with (inject_Z 0); rewrite <- !Zle_Qle; lia).
    assert (P : 0 < UINT32_MAX) by reflexivity.
    assert (B : 0 <= fl 53 (inject_Z y) / fl 53 UINT32_MAX <= 1).
    { rewrite max53, E. split; [apply Qle_shift_div_l; lra|apply Qle_shift_div_r; lra]. }
    split; [apply fl_ge; [lia|apply holds_0; lia|lra]|apply fl_le; [lia|change 1 with (2 ^ 0); apply holds_pow; lia|lra]].
Qed.

(** The double draws are exact, and stay inside their open ends. *)
Theorem C70_double : forall y, (0 <= y < 2 ^ 32)%Z ->
  rand_co 53 y == inject_Z y / 2 ^ 32 /\ 0 <= rand_co 53 y < 1 /\
  rand_oo 53 y == (inject_Z y + (1 # 2)) / 2 ^ 32 /\ 0 < rand_oo 53 y < 1.
Proof.
  intros y Hy. assert (E : fl 53 (inject_Z y) == inject_Z y) by (apply fl_exact; [lia|apply holds_Z; lia]).
  assert (R : 0 <= inject_Z y /\ inject_Z y + 1 <= 2 ^ 32).
  { rewrite p32. change 1 with (inject_Z 1). rewrite <- inject_Z_plus. change 0 with (inject_Z 0). rewrite <- !Zle_Qle. lia. }
  assert (H2 : holds 53 (inject_Z y + (1 # 2))).
  { exists (2 * y + 1)%Z, (-1)%Z. split; [lia|]. rewrite inject_Z_plus, inject_Z_mult. change (2 ^ (-1)) with (1 # 2). change (inject_Z 2) with 2. change (inject_Z 1) with 1. ring. }
  assert (C : rand_co 53 y == inject_Z y / 2 ^ 32).
  { unfold rand_co. apply fl_ext; [lia|rewrite max53_1, E; reflexivity|]. apply (holds_ext 53 (inject_Z y * 2 ^ (- (32)))); [symmetry; apply div32|]. apply holds_scale. apply holds_Z. lia. }
  assert (O : rand_oo 53 y == (inject_Z y + (1 # 2)) / 2 ^ 32).
  { unfold rand_oo. apply fl_ext; [lia| |apply (holds_ext 53 ((inject_Z y + (1 # 2)) * 2 ^ (- (32)))); [symmetry; apply div32|apply holds_scale; exact H2]].
    rewrite max53_1. rewrite (fl_ext 53 (fl 53 (inject_Z y) + (1 # 2)) (inject_Z y + (1 # 2))); [reflexivity|lia|rewrite E; reflexivity|exact H2]. }
  pose proof (pow_pos 32) as P. split; [exact C|]. split; [rewrite C; split; [apply Qle_shift_div_l|apply Qlt_shift_div_r]; lra|]. split; [exact O|]. rewrite O. split; [apply Qlt_shift_div_l|apply Qlt_shift_div_r]; lra.
Qed.

(** The float draws: 1 is an outcome of the intervals that should exclude it, for the 128 highest words and for them only. *)
Theorem C70_float_partial : forall y, (0 <= y < 2 ^ 32 - 128)%Z -> 0 <= rand_co 24 y < 1 /\ 0 < rand_oo 24 y < 1.
Proof.
  intros y Hy. pose proof (conv_range 24 y ltac:(lia) ltac:(unfold word32; lia)) as [A1 _].
  set (T := inject_Z (2 ^ 32 - 256)).
  assert (A2 : fl 24 (inject_Z y) <= T).
  { apply Qle_trans with (fl 24 (inject_Z (2 ^ 32 - 129))); [|vm_compute; discriminate]. apply fl_mono; [lia|]. rewrite <- Zle_Qle. lia. }
  assert (A4 : (1 # 2) <= fl 24 (fl 24 (inject_Z y) + (1 # 2))).
  { apply fl_ge; [lia|change (1 # 2) with (2 ^ (-1)); apply holds_pow; lia|lra]. }
  assert (A5 : fl 24 (fl 24 (inject_Z y) + (1 # 2)) <= T).
  { apply Qle_trans with (fl 24 (T + (1 # 2))); [|vm_compute; discriminate]. apply fl_mono; [lia|]. lra. }
  assert (D : forall z, 0 <= z <= T -> 0 <= fl 24 (z / fl 24 (fl 24 UINT32_MAX + 1)) < 1).
  { intros z [Z1 Z2]. assert (B : 0 <= z / fl 24 (fl 24 UINT32_MAX + 1) <= T / 2 ^ 32).
    { rewrite max24_1. split; [apply Qle_shift_div_l; [apply pow_pos|lra]|]. unfold Qdiv. apply (Qmult_le_r _ _ (/ 2 ^ 32)); [reflexivity|exact Z2]. }
    split; [apply fl_ge; [lia|apply holds_0; lia|lra]|]. apply Qle_lt_trans with (fl 24 (T / 2 ^ 32)); [apply fl_mono; [lia|lra]|vm_compute; reflexivity]. }
  unfold rand_co, rand_oo. split; [apply D; lra|]. pose proof (D (fl 24 (fl 24 (inject_Z y) + (1 # 2))) ltac:(lra)) as [D1 D2]. split; [|exact D2].
  apply Qlt_le_trans with (2 ^ (- (33))); [reflexivity|]. apply fl_ge; [lia|apply holds_pow; lia|]. rewrite max24_1. apply Qle_shift_div_l; [apply pow_pos|]. assert (E : 2 ^ (- (33)) * 2 ^ 32 == 1 # 2) by reflexivity. lra.
Qed.

Theorem C70_float_refuted : forall y, (2 ^ 32 - 128 <= y < 2 ^ 32)%Z -> rand_co 24 y == 1 /\ rand_oo 24 y == 1.
Proof.
  intros y Hy. pose proof (conv_range 24 y ltac:(lia) ltac:(unfold word32; lia)) as [_ A1].
  assert (A2 : 2 ^ 32 <= fl 24 (inject_Z y)).
  { apply Qle_trans with (fl 24 (inject_Z (2 ^ 32 - 128))); [vm_compute; discriminate|]. apply fl_mono; [lia|]. rewrite <- Zle_Qle. lia. }
  assert (A3 : fl 24 (inject_Z y) == 2 ^ 32) by lra. assert (H1 : holds 24 1) by (change 1 with (2 ^ 0); apply holds_pow; lia).
  assert (A4 : fl 24 (fl 24 (inject_Z y) + (1 # 2)) == 2 ^ 32).
  { apply Qle_antisym.
    - apply Qle_trans with (fl 24 (2 ^ 32 + (1 # 2))); [apply fl_mono; [lia|lra]|vm_compute; discriminate].
    - apply fl_ge; [lia|apply holds_pow; lia|lra]. }
  unfold rand_co, rand_oo. split; (apply fl_ext; [lia| |exact H1]); rewrite max24_1; [rewrite A3|rewrite A4]; reflexivity.
Qed.

(** Such a word is drawn: the real draws read the words of the stream. *)
Theorem C70_draw : forall (f : Z -> Q) s y s', rand_u32 s = Ret (y, s') -> rand_real f s = Ret (f y, s').
Proof. intros f s y s' H. unfold rand_real. rewrite H. reflexivity. Qed.

Example C70_examples : (rand_cc 24 0xFFFFFFFF == 1) /\ (rand_co 24 0x80000000 == 1 # 2) /\ (rand_oo 53 0 == 1 # 8589934592) /\ (rand_co 24 4294967167 < 1) /\ (rand_co 24 4294967168 == 1).
Proof. vm_compute. repeat split. Qed.
