(** IEEE single precision rounding (round to nearest, ties to even) of positive
    rationals, as used by the [std::ceil((float)a / b)] idiom of the code base
    (include/Tools/Algo/Bit_packer.hxx:79,122,197,240 ; src/Module/Module.cpp
    set_n_frames / set_n_frames_per_wave).
    Simplification: overflow and subnormals are ignored; the operands are
    integers between 1 and 2^31-1, so neither can happen. *)
From Coq Require Import ZArith Lia Bool.
Local Open Scope Z_scope.

(** nearest integer to [p/q], ties to even ([q > 0]) *)
Definition rne (p q : Z) : Z :=
  let d := p / q in
  let r := p mod q in
  match 2 * r ?= q with
  | Lt => d
  | Gt => d + 1
  | Eq => if Z.even d then d else d + 1
  end.

(** [scale_num p e / scale_den q e] is [p / q / 2^e] *)
Definition scale_num (p e : Z) : Z := if e <? 0 then p * 2 ^ (- e) else p.
Definition scale_den (q e : Z) : Z := if e <? 0 then q else q * 2 ^ e.

(** exponent such that [p / q / 2^e] lies in [2^23, 2^24) *)
Definition f32_exp (p q : Z) : Z :=
  let e := Z.log2 p - Z.log2 q - 23 in
  if scale_num p e <? 2 ^ 23 * scale_den q e then e - 1 else e.

(** [f32 p q] is the pair (mantissa, exponent) of the single nearest to [p/q];
    the value is [fst * 2 ^ snd] *)
Definition f32 (p q : Z) : Z * Z :=
  let e := f32_exp p q in
  (rne (scale_num p e) (scale_den q e), e).

(** [std::ceil] of [m * 2^e] *)
Definition ceil_me (m e : Z) : Z :=
  if e <? 0 then - ((- m) / 2 ^ (- e)) else m * 2 ^ e.

(** [static_cast<int>(std::ceil((float)a / b))] for integers a >= 0, b > 0: both
    operands are converted to single, and the quotient of two singles is the
    single nearest to the exact quotient. *)
Definition ceil_float_div (a b : Z) : Z :=
  if a <=? 0 then 0 else
  let (ma, ea) := f32 a 1 in
  let (mb, eb) := f32 b 1 in
  let p := ma * 2 ^ (Z.max 0 (ea - eb)) in
  let q := mb * 2 ^ (Z.max 0 (eb - ea)) in
  let (m, e) := f32 p q in ceil_me m e.

(** what the code wants: the smallest integer not below [a / b] *)
Definition ceil_div (a b : Z) : Z := - ((- a) / b).

(* ------------------------------------------------------------------ *)

Lemma rne_spec : forall p q, 0 < q -> - q <= 2 * (p - rne p q * q) <= q.
Proof.
  intros p q Hq. unfold rne.
  pose proof (Z.div_mod p q ltac:(lia)). pose proof (Z.mod_pos_bound p q Hq).
  destruct (Z.compare_spec (2 * (p mod q)) q); [destruct (Z.even (p / q))| |]; nia.
Qed.

Lemma f32_exp_spec : forall p q, 0 < p -> 0 < q -> let e := f32_exp p q in
  0 < scale_den q e /\
  2 ^ 23 * scale_den q e <= scale_num p e < 2 ^ 24 * scale_den q e.
Proof.
  intros p q Hp Hq.
  pose proof (Z.log2_spec p Hp) as [P1 P2]. pose proof (Z.log2_spec q Hq) as [Q1 Q2].
  pose proof (Z.log2_nonneg p). pose proof (Z.log2_nonneg q).
  set (lp := Z.log2 p) in *. set (lq := Z.log2 q) in *.
  rewrite Z.pow_succ_r in P2, Q2 by lia.
  assert (Hden : forall e, 0 < scale_den q e).
  { intros e. unfold scale_den. destruct (Z.ltb_spec e 0); auto.
    apply Z.mul_pos_pos; auto. apply Z.pow_pos_nonneg; lia. }
  (* doubling *)
  assert (Hstep : forall e, scale_num p (e - 1) * scale_den q e = 2 * scale_num p e * scale_den q (e - 1)).
  { intros e. unfold scale_num, scale_den.
    destruct (Z.ltb_spec (e - 1) 0); destruct (Z.ltb_spec e 0); try lia.
    - replace (- (e - 1)) with (Z.succ (- e)) by lia. rewrite Z.pow_succ_r by lia. nia.
    - assert (e = 0) by lia. subst e. change (2 ^ - (0 - 1)) with 2. change (2 ^ 0) with 1. ring.
    - assert (E : 2 ^ e = 2 * 2 ^ (e - 1)).
      { rewrite <- Z.pow_succ_r by lia. f_equal. lia. }
      rewrite E. ring. }
  assert (Hb : let e := lp - lq - 23 in
     2 ^ 22 * scale_den q e < scale_num p e < 2 ^ 24 * scale_den q e).
  { cbv zeta. unfold scale_num, scale_den. destruct (Z.ltb_spec (lp - lq - 23) 0).
    - assert (2 ^ lp * 2 ^ (- (lp - lq - 23)) = 2 ^ 23 * 2 ^ lq).
      { rewrite <- !Z.pow_add_r by lia. f_equal. lia. }
      set (s := 2 ^ (- (lp - lq - 23))) in *.
      assert (0 < s) by (apply Z.pow_pos_nonneg; lia).
      change (2 ^ 24) with (2 * 2 ^ 23). change (2 ^ 23) with (2 * 2 ^ 22) in *.
      split; nia.
    - assert (2 ^ lp = 2 ^ 23 * (2 ^ lq * 2 ^ (lp - lq - 23))).
      { rewrite <- !Z.pow_add_r by lia. f_equal. lia. }
      set (s := 2 ^ (lp - lq - 23)) in *.
      assert (0 < s) by (apply Z.pow_pos_nonneg; lia).
      change (2 ^ 24) with (2 * 2 ^ 23). change (2 ^ 23) with (2 * 2 ^ 22) in *.
      split; nia. }
  cbv zeta. unfold f32_exp. fold lp lq. set (e := lp - lq - 23) in *. cbv zeta in Hb.
  destruct (Z.ltb_spec (scale_num p e) (2 ^ 23 * scale_den q e)) as [h|h].
  - split; auto. specialize (Hstep e). pose proof (Hden e). pose proof (Hden (e - 1)).
    set (N := scale_num p (e - 1)) in *. set (D := scale_den q (e - 1)) in *.
    set (n := scale_num p e) in *. set (d := scale_den q e) in *.
    change (2 ^ 24) with (2 * 2 ^ 23) in *. change (2 ^ 23) with (2 * 2 ^ 22) in *.
    set (c := 2 ^ 22) in *. split.
    + assert (2 * c * D * d <= N * d) by nia. nia.
    + assert (N * d < 2 * (2 * c) * D * d) by nia. nia.
  - split; auto. split; [exact h | apply Hb].
Qed.

(** integers up to 2^24 are represented exactly *)
Lemma f32_int_exact : forall n, 0 < n <= 2 ^ 24 ->
  let (m, e) := f32 n 1 in
  0 < m /\ m * 2 ^ (Z.max 0 e) = n * 2 ^ (Z.max 0 (- e)).
Proof.
  intros n Hn. unfold f32. set (e := f32_exp n 1).
  pose proof (f32_exp_spec n 1 ltac:(lia) ltac:(lia)) as [D B]. fold e in D, B.
  pose proof (rne_spec (scale_num n e) (scale_den 1 e) D) as R.
  set (m := rne (scale_num n e) (scale_den 1 e)) in *.
  unfold scale_num, scale_den in *. destruct (Z.ltb_spec e 0).
  - rewrite (Z.max_l 0 e) by lia. rewrite (Z.max_r 0 (- e)) by lia.
    assert (m = n * 2 ^ (- e)) by lia. assert (0 < 2 ^ (- e)) by (apply Z.pow_pos_nonneg; lia).
    change (2 ^ 0) with 1. split; lia.
  - rewrite (Z.max_r 0 e) by lia. rewrite (Z.max_l 0 (- e)) by lia. change (2 ^ 0) with 1.
    (* n >= 2^23 * 2^e, so e <= 1 *)
    assert (e < 2).
    { destruct (Z_lt_ge_dec e 2); auto. exfalso.
      assert (2 ^ 2 <= 2 ^ e) by (apply Z.pow_le_mono_r; lia).
      change (2 ^ 2) with 4 in *. nia. }
    assert (E : e = 0 \/ e = 1) by lia. destruct E as [E|E]; rewrite E in *.
    + change (2 ^ 0) with 1 in *. lia.
    + change (2 ^ 1) with 2 in *. lia.
Qed.

Lemma ceil_unique : forall x s k, 0 < s -> (k - 1) * s < x <= k * s -> - ((- x) / s) = k.
Proof.
  intros. assert ((- x) / s = - k); [|lia].
  symmetry. apply Z.div_unique with (r := k * s - x); nia.
Qed.

Lemma round_core : forall a b p q s m k c, 0 < a <= 2 * c -> 0 < b -> 0 < q -> 0 < s -> 0 < c ->
  p * b = a * q -> c * q <= p * s -> - q <= 2 * (p * s - m * q) <= q ->
  (k - 1) * b < a <= k * b -> (k - 1) * s < m <= k * s.
Proof.
  intros a b p q s m k c Ha Hb Hq Hs Hc E Hl R Hk.
  assert (E1 : (p * s) * b = (a * s) * q).
  { replace (p * s * b) with (p * b * s) by ring. rewrite E. ring. }
  set (P := p * s) in *. clearbody P. clear E p.
  split.
  - destruct (Z_lt_le_dec ((k - 1) * s) m) as [|h]; auto. exfalso.
    assert (H1 : 2 * (P - (k - 1) * s * q) <= q).
    { assert (m * q <= (k - 1) * s * q) by (apply Z.mul_le_mono_nonneg_r; lia). lia. }
    assert (H2 : 2 * (P - (k - 1) * s * q) * b <= q * b) by (apply Z.mul_le_mono_nonneg_r; lia).
    assert (H3 : 2 * s * (a - (k - 1) * b) * q <= b * q).
    { replace (2 * s * (a - (k - 1) * b) * q) with (2 * (a * s * q - (k - 1) * s * q * b)) by ring.
      rewrite <- E1. replace (2 * (P * b - (k - 1) * s * q * b)) with (2 * (P - (k - 1) * s * q) * b) by ring.
      lia. }
    assert (H4 : 2 * s * (a - (k - 1) * b) <= b) by (apply (Z.mul_le_mono_pos_r _ _ q); lia).
    assert (H5 : 2 * s * 1 <= 2 * s * (a - (k - 1) * b)) by (apply Z.mul_le_mono_nonneg_l; lia).
    assert (H6 : c * q * b <= P * b) by (apply Z.mul_le_mono_nonneg_r; lia).
    assert (H7 : c * b <= a * s).
    { apply (Z.mul_le_mono_pos_r _ _ q); auto. rewrite <- E1.
      replace (c * b * q) with (c * q * b) by ring. auto. }
    assert (H8 : c * (2 * s) <= c * b) by (apply Z.mul_le_mono_nonneg_l; lia).
    assert (H9 : 2 * c * s <= a * s) by (replace (2 * c * s) with (c * (2 * s)) by ring; lia).
    assert (H10 : 2 * c <= a) by (apply (Z.mul_le_mono_pos_r _ _ s); lia).
    assert (a = 2 * c) by lia. subst a.
    assert (H11 : c * b <= c * (2 * s)) by (replace (c * (2 * s)) with (2 * c * s) by ring; lia).
    assert (b <= 2 * s) by (apply (Z.mul_le_mono_pos_l _ _ c); lia).
    assert (b = 2 * s) by lia. subst b.
    assert (E2 : P = c * q).
    { apply (Z.mul_reg_r _ _ (2 * s)); [lia|]. rewrite E1. ring. }
    subst P. assert (m = c).
    { assert (2 * (c - m) * q <= 1 * q) by lia. assert (-1 * q <= 2 * (c - m) * q) by lia.
      assert (2 * (c - m) <= 1) by (apply (Z.mul_le_mono_pos_r _ _ q); lia).
      assert (-1 <= 2 * (c - m)) by (apply (Z.mul_le_mono_pos_r _ _ q); lia). lia. }
    subst m. lia.
  - assert (H1 : P <= k * s * q).
    { apply (Z.mul_le_mono_pos_r _ _ b); auto. rewrite E1.
      replace (k * s * q * b) with (k * b * (s * q)) by ring.
      replace (a * s * q) with (a * (s * q)) by ring. apply Z.mul_le_mono_nonneg_r; lia. }
    destruct (Z_le_gt_dec m (k * s)); auto.
    assert ((k * s + 1) * q <= m * q) by (apply Z.mul_le_mono_nonneg_r; lia). lia.
Qed.

Lemma round_core_big : forall a b p q s m k c, 0 < a <= 2 * c -> 0 < b -> 0 < q -> 0 < s -> 0 < c ->
  p * b = a * q -> c * (q * s) <= p -> - (q * s) <= 2 * (p - m * (q * s)) <= q * s ->
  (k - 1) * b < a <= k * b -> m * s = k.
Proof.
  intros a b p q s m k c Ha Hb Hq Hs Hc E Hl R Hk.
  assert (H1 : c * (q * s) * b <= p * b) by (apply Z.mul_le_mono_nonneg_r; lia).
  assert (H2 : c * (s * b) <= 2 * c).
  { apply (Z.mul_le_mono_pos_r _ _ q); auto.
    replace (c * (s * b) * q) with (c * (q * s) * b) by ring.
    assert (a * q <= 2 * c * q) by (apply Z.mul_le_mono_nonneg_r; lia). lia. }
  assert (H3 : s * b <= 2).
  { apply (Z.mul_le_mono_pos_l _ _ c); lia. }
  assert (H4 : s = 1 /\ (b = 1 \/ b = 2) \/ s = 2 /\ b = 1).
  { assert (1 * b <= s * b) by (apply Z.mul_le_mono_nonneg_r; lia).
    assert (s * 1 <= s * b) by (apply Z.mul_le_mono_nonneg_l; lia).
    assert (s = 1 \/ s = 2) as [e|e] by lia; rewrite e in *; lia. }
  assert (U : forall z z', - q <= 2 * (z * q - z' * q) <= q -> z = z').
  { intros z z' Hz. assert (2 * (z - z') * q <= 1 * q) by lia.
    assert (-1 * q <= 2 * (z - z') * q) by lia.
    assert (2 * (z - z') <= 1) by (apply (Z.mul_le_mono_pos_r _ _ q); lia).
    assert (-1 <= 2 * (z - z')) by (apply (Z.mul_le_mono_pos_r _ _ q); lia). lia. }
  destruct H4 as [ [-> [-> | ->] ] | [-> ->] ].
  - assert (p = a * q) by lia. subst p. assert (a = m) by (apply U; lia). lia.
  - assert (c * 2 <= a).
    { apply (Z.mul_le_mono_pos_r _ _ q); auto. lia. }
    assert (a = 2 * c) by lia. subst a. assert (p = c * q) by lia. subst p.
    assert (c = m) by (apply U; lia). lia.
  - assert (2 * c <= a).
    { apply (Z.mul_le_mono_pos_r _ _ q); auto. lia. }
    assert (a = 2 * c) by lia. subst a. assert (p = 2 * c * q) by lia. subst p.
    assert (2 * c * q - m * (q * 2) = 2 * (c - m) * q) by ring.
    assert (4 * (c - m) * q <= 2 * q) by lia. assert (-2 * q <= 4 * (c - m) * q) by lia.
    assert (4 * (c - m) <= 2) by (apply (Z.mul_le_mono_pos_r _ _ q); lia).
    assert (-2 <= 4 * (c - m)) by (apply (Z.mul_le_mono_pos_r _ _ q); lia). lia.
Qed.

(** The float computation is exact when both operands are at most 2^24. *)
(** the operands of the division of two exactly converted integers *)
Lemma float_quotient : forall a b, 0 < a <= 2 ^ 24 -> 0 < b <= 2 ^ 24 ->
  let (ma, ea) := f32 a 1 in
  let (mb, eb) := f32 b 1 in
  let p := ma * 2 ^ Z.max 0 (ea - eb) in
  let q := mb * 2 ^ Z.max 0 (eb - ea) in
  0 < p /\ 0 < q /\ p * b = a * q.
Proof.
  intros a b Ha Hb.
  pose proof (f32_int_exact a ltac:(lia)) as Ea. pose proof (f32_int_exact b ltac:(lia)) as Eb.
  destruct (f32 a 1) as [ma ea]. destruct (f32 b 1) as [mb eb].
  destruct Ea as [Pa Ea]. destruct Eb as [Pb Eb].
  intros p q.
  assert (0 < p) by (unfold p; apply Z.mul_pos_pos; auto; apply Z.pow_pos_nonneg; lia).
  assert (0 < q) by (unfold q; apply Z.mul_pos_pos; auto; apply Z.pow_pos_nonneg; lia).
  split; auto. split; auto.
  unfold p, q.
    set (A := 2 ^ Z.max 0 ea) in *. set (A' := 2 ^ Z.max 0 (- ea)) in *.
    set (B := 2 ^ Z.max 0 eb) in *. set (B' := 2 ^ Z.max 0 (- eb)) in *.
    assert (X : 2 ^ Z.max 0 (ea - eb) * A' * B = 2 ^ Z.max 0 (eb - ea) * A * B').
    { unfold A, A', B, B'. rewrite <- !Z.pow_add_r by lia. f_equal. lia. }
    assert (0 < A) by (apply Z.pow_pos_nonneg; lia).
    assert (0 < A') by (apply Z.pow_pos_nonneg; lia).
    assert (0 < B) by (apply Z.pow_pos_nonneg; lia).
    assert (0 < B') by (apply Z.pow_pos_nonneg; lia).
    set (U := 2 ^ Z.max 0 (ea - eb)) in *. set (V := 2 ^ Z.max 0 (eb - ea)) in *.
    (* ma*A = a*A', mb*B = b*B' ; want ma*U*b = a*mb*V *)
    assert (0 < A * B') by (apply Z.mul_pos_pos; auto).
    apply (Z.mul_reg_r _ _ (A * B')); [lia|].
    replace (ma * U * b * (A * B')) with ((ma * A) * (b * B') * U) by ring.
    rewrite Ea, <- Eb.
    replace (a * A' * (mb * B) * U) with (a * mb * (U * A' * B)) by ring. rewrite X. ring.
Qed.

Lemma ceil_float_div_exact : forall a b, 0 <= a <= 2 ^ 24 -> 0 < b <= 2 ^ 24 ->
  ceil_float_div a b = ceil_div a b.
Proof.
  intros a b Ha Hb. unfold ceil_float_div. destruct (Z.leb_spec a 0) as [h|h].
  { assert (a = 0) by lia. subst. reflexivity. }
  pose proof (float_quotient a b ltac:(lia) ltac:(lia)) as Q.
  destruct (f32 a 1) as [ma ea]. destruct (f32 b 1) as [mb eb]. cbv zeta in Q.
  set (p := ma * 2 ^ Z.max 0 (ea - eb)) in *. set (q := mb * 2 ^ Z.max 0 (eb - ea)) in *.
  destruct Q as (Hp & Hq & Epq). clearbody p q. clear ma mb ea eb.
  unfold f32. set (e := f32_exp p q).
  pose proof (f32_exp_spec p q ltac:(auto) ltac:(auto)) as [D Bd]. fold e in D, Bd.
  pose proof (rne_spec (scale_num p e) (scale_den q e) D) as R.
  set (m := rne (scale_num p e) (scale_den q e)) in *. clearbody m.
  set (k := ceil_div a b).
  assert (Hk : (k - 1) * b < a <= k * b).
  { unfold k, ceil_div. pose proof (Z.div_mod (- a) b ltac:(lia)).
    pose proof (Z.mod_pos_bound (- a) b ltac:(lia)). nia. }
  clearbody k.
  unfold ceil_me. unfold scale_num, scale_den in *. clearbody e. destruct (Z.ltb_spec e 0) as [he|he].
  - set (s := 2 ^ (- e)) in *. assert (Hs : 0 < s) by (apply Z.pow_pos_nonneg; lia).
    apply ceil_unique; auto.
    change (2 ^ 24) with (2 * 2 ^ 23) in *. set (c23 := 2 ^ 23) in *.
    apply (round_core a b p q s m k c23); try tauto; lia.
  - (* exponent >= 0: the quotient is an integer *)
    set (s := 2 ^ e) in *. assert (Hs : 0 < s) by (apply Z.pow_pos_nonneg; lia).
    change (2 ^ 24) with (2 * 2 ^ 23) in *. set (c23 := 2 ^ 23) in *.
    assert (Hc : 0 < c23) by reflexivity. clearbody s c23.
    apply (round_core_big a b p q s m k c23); try tauto; lia.
Qed.

(** ... and wrong just above: 2^24 + 1 is rounded to 2^24. *)
Lemma ceil_float_div_wrong : ceil_float_div (2 ^ 24 + 1) 8 = 2 ^ 21 /\ ceil_div (2 ^ 24 + 1) 8 = 2 ^ 21 + 1.
Proof. split; vm_compute; reflexivity. Qed.
