(** IEEE binary rounding (to nearest, ties to even) of rationals, at any precision: 24 bits for float, 53 bits for double.
    Simplification: the exponent is not bounded (no overflow, no subnormal numbers). *)
From Coq Require Import ZArith QArith Qround Qpower Lqa Lia Bool.
Local Open Scope Q_scope.

(** The integer nearest to x, ties to even. *)
Definition rneQ (x : Q) : Z :=
  let d := Qfloor x in
  match Qcompare (x - inject_Z d) (1 # 2) with
  | Lt => d
  | Gt => (d + 1)%Z
  | Eq => if Z.even d then d else (d + 1)%Z
  end.
(** The exponent e such that x / 2^e is in [2^(prec-1), 2^prec), for x > 0. *)
Definition expQ (prec : Z) (x : Q) : Z :=
  let e := (Z.log2 (Qnum x) - Z.log2 (Zpos (Qden x)) - (prec - 1))%Z in
  if Qlt_le_dec (x * 2 ^ (- e)%Z) (2 ^ (prec - 1)%Z) then (e - 1)%Z else e.
Definition fl_pos (prec : Z) (x : Q) : Q := let e := expQ prec x in inject_Z (rneQ (x * 2 ^ (- e))) * 2 ^ e.
Definition fl (prec : Z) (x : Q) : Q :=
  match x ?= 0 with Eq => 0 | Gt => fl_pos prec x | Lt => - fl_pos prec (- x) end.

(* ------------------------------------------------------------------ *)

Lemma pow_pos : forall e, 0 < 2 ^ e.
Proof. intros e. apply Qpower_0_lt. reflexivity. Qed.
Lemma pow_add : forall a b, 2 ^ (a + b) == 2 ^ a * 2 ^ b.
Proof. intros. apply Qpower_plus. intros H. discriminate. Qed.
Lemma pow_opp : forall e, 2 ^ (- e) * 2 ^ e == 1.
Proof. intros e. rewrite <- pow_add. replace (- e + e)%Z with 0%Z by lia. reflexivity. Qed.
Lemma pow_Z : forall n, (0 <= n)%Z -> 2 ^ n == inject_Z (2 ^ n).
Proof. intros n Hn. change 2 with (inject_Z 2). rewrite <- Zpower_Qpower by exact Hn. reflexivity. Qed.

Lemma rneQ_near : forall x, - (1 # 2) <= x - inject_Z (rneQ x) <= 1 # 2.
Proof.
  intros x. unfold rneQ. pose proof (Qfloor_le x) as F1. pose proof (Qlt_floor x) as F2. rewrite inject_Z_plus in F2. change (inject_Z 1) with 1 in F2.
  destruct (Qcompare_spec (x - inject_Z (Qfloor x)) (1 # 2)) as [C|C|C].
  - destruct (Z.even (Qfloor x)); [lra|]. rewrite inject_Z_plus. change (inject_Z 1) with 1. lra.
  - lra.
  - rewrite inject_Z_plus. change (inject_Z 1) with 1. lra.
Qed.

Lemma inject_lt : forall a b, inject_Z a < inject_Z b -> (a < b)%Z.
Proof. intros a b H. rewrite <- Zlt_Qlt in H. exact H. Qed.

Lemma rneQ_le : forall x k, x <= inject_Z k -> (rneQ x <= k)%Z.
Proof.
  intros x k H. pose proof (rneQ_near x) as N. assert (L : inject_Z (rneQ x) < inject_Z (k + 1)) by (rewrite inject_Z_plus; change (inject_Z 1) with 1; lra). apply inject_lt in L. lia.
Qed.
Lemma rneQ_ge : forall x k, inject_Z k <= x -> (k <= rneQ x)%Z.
Proof.
  intros x k H. pose proof (rneQ_near x) as N. assert (L : inject_Z k < inject_Z (rneQ x + 1)) by (rewrite inject_Z_plus; change (inject_Z 1) with 1; lra). apply inject_lt in L. lia.
Qed.
Lemma rneQ_int : forall x k, x == inject_Z k -> rneQ x = k.
Proof. intros x k H. apply Z.le_antisymm; [apply rneQ_le|apply rneQ_ge]; lra. Qed.

Lemma log_bounds : forall x, 0 < x -> let l := (Z.log2 (Qnum x) - Z.log2 (Zpos (Qden x)))%Z in 2 ^ (l - 1) < x < 2 ^ (l + 1).
Proof.
  intros [n d] Hx l. unfold Qlt in Hx. cbn [Qnum Qden] in *. assert (Hn : (0 < n)%Z) by lia.
  pose proof (Z.log2_spec n Hn) as [N1 N2]. pose proof (Z.log2_spec (Zpos d) ltac:(lia)) as [D1 D2]. pose proof (Z.log2_nonneg n) as Ln. pose proof (Z.log2_nonneg (Zpos d)) as Ld.
  assert (E : n # d == inject_Z n * / inject_Z (Zpos d)) by (rewrite Qmake_Qdiv; reflexivity).
  assert (Pd : 0 < inject_Z (Zpos d)) by reflexivity.
  rewrite Zle_Qle in N1, D1. rewrite Zlt_Qlt in N2, D2. rewrite <- pow_Z in N1, D1, N2, D2 by lia. rewrite <- Z.add_1_r in N2, D2.
  set (ln := Z.log2 n) in *. set (ld := Z.log2 (Z.pos d)) in *.
  assert (Z1 : 2 ^ (l - 1) * 2 ^ (ld + 1) == 2 ^ ln) by (rewrite <- pow_add; unfold l; replace (ln - ld - 1 + (ld + 1))%Z with ln by lia; reflexivity).
  assert (Z2 : 2 ^ (l + 1) * 2 ^ ld == 2 ^ (ln + 1)) by (rewrite <- pow_add; unfold l; replace (ln - ld + 1 + ld)%Z with (ln + 1)%Z by lia; reflexivity).
  assert (I : (n # d) * inject_Z (Zpos d) == inject_Z n) by (rewrite E; field; lra).
  pose proof (pow_pos (l - 1)) as P1. pose proof (pow_pos (l + 1)) as P2. split.
  - apply (Qmult_lt_r _ _ (inject_Z (Zpos d)) Pd). rewrite I. apply Qlt_le_trans with (2 ^ (l - 1) * 2 ^ (ld + 1)); [|lra].
    setoid_rewrite Qmult_comm. apply (Qmult_lt_r _ _ (2 ^ (l - 1)) P1). exact D2.
  - apply (Qmult_lt_r _ _ (inject_Z (Zpos d)) Pd). rewrite I. apply Qlt_le_trans with (2 ^ (l + 1) * 2 ^ ld); [lra|].
    setoid_rewrite Qmult_comm. apply (Qmult_le_r _ _ (2 ^ (l + 1)) P2). exact D1.
Qed.

Lemma expQ_spec : forall prec x, 0 < x -> let e := expQ prec x in 2 ^ (prec - 1) <= x * 2 ^ (- e) < 2 ^ prec.
Proof.
  intros prec x Hx e. destruct (log_bounds x Hx) as [L1 L2]. set (l := (Z.log2 (Qnum x) - Z.log2 (Zpos (Qden x)))%Z) in *.
  unfold e, expQ. fold l. set (e0 := (l - (prec - 1))%Z).
  assert (S : forall k, 2 ^ k * 2 ^ (- e0) == 2 ^ (k - e0)) by (intros k; rewrite <- pow_add; reflexivity).
  pose proof (pow_pos (- e0)) as P.
  assert (B1 : 2 ^ (prec - 2) < x * 2 ^ (- e0)).
  { apply Qle_lt_trans with (2 ^ (l - 1) * 2 ^ (- e0)); [rewrite S; unfold e0; replace (l - 1 - (l - (prec - 1)))%Z with (prec - 2)%Z by lia; apply Qle_refl|]. apply (Qmult_lt_r _ _ _ P). exact L1. }
  assert (B2 : x * 2 ^ (- e0) < 2 ^ prec).
  { apply Qlt_le_trans with (2 ^ (l + 1) * 2 ^ (- e0)); [apply (Qmult_lt_r _ _ _ P); exact L2|]. rewrite S. unfold e0. replace (l + 1 - (l - (prec - 1)))%Z with prec by lia. apply Qle_refl. }
  destruct (Qlt_le_dec (x * 2 ^ (- e0)) (2 ^ (prec - 1))) as [C|C]; [|auto].
  assert (T : forall k, 2 ^ (k + 1) == 2 * 2 ^ k) by (intros k; rewrite pow_add; change (2 ^ 1) with 2; ring).
  assert (D : 2 ^ (- (e0 - 1)) == 2 * 2 ^ (- e0)) by (rewrite <- T; replace (- (e0 - 1))%Z with (- e0 + 1)%Z by lia; reflexivity).
  rewrite D. pose proof (T (prec - 2)%Z) as T1. replace (prec - 2 + 1)%Z with (prec - 1)%Z in T1 by lia. pose proof (T (prec - 1)%Z) as T2. replace (prec - 1 + 1)%Z with prec in T2 by lia. lra.
Qed.

(** The numbers that the format holds. *)
Definition holds (prec : Z) (y : Q) : Prop := exists m e, (Z.abs m <= 2 ^ prec)%Z /\ y == inject_Z m * 2 ^ e.

Lemma scale_back : forall x e, x == x * 2 ^ (- e) * 2 ^ e.
Proof. intros. rewrite <- Qmult_assoc, pow_opp. ring. Qed.

(** A number that is held and is not below x, on the grid of x. *)
Lemma grid_above : forall prec x y, (0 < prec)%Z -> 0 < x -> holds prec y -> x <= y ->
  exists k, x * 2 ^ (- expQ prec x) <= inject_Z k /\ inject_Z k * 2 ^ (expQ prec x) <= y.
Proof.
  intros prec x y Hp Hx (m & E & Hm & Hy) Hxy. destruct (expQ_spec prec x Hx) as [X1 X2]. set (e := expQ prec x) in *. pose proof (pow_pos e) as Pe. pose proof (pow_pos (- e)) as Pe'.
  assert (Y : y * 2 ^ (- e) == inject_Z m * 2 ^ (E - e)) by (rewrite Hy, <- Qmult_assoc, <- pow_add; reflexivity).
  assert (L : x * 2 ^ (- e) <= y * 2 ^ (- e)) by (apply (Qmult_le_r _ _ _ Pe'); exact Hxy).
  destruct (Z.le_gt_cases e E) as [C|C].
  - exists (m * 2 ^ (E - e))%Z. rewrite inject_Z_mult, <- pow_Z by lia. rewrite <- Y. split; [exact L|]. rewrite <- scale_back. apply Qle_refl.
  - exists (2 ^ (prec - 1))%Z. assert (M : y * 2 ^ (- e) <= 2 ^ (prec - 1)).
    { rewrite Y. apply Qle_trans with (2 ^ prec * 2 ^ (E - e)).
      - apply (Qmult_le_r _ _ _ (pow_pos (E - e))). rewrite pow_Z by lia. rewrite <- Zle_Qle. lia.
      - rewrite <- pow_add. apply Qpower_le_compat_l; [lia|discriminate]. }
    rewrite <- pow_Z by lia. split; [lra|]. rewrite (scale_back y e). apply (Qmult_le_r _ _ _ Pe). lra.
Qed.

Lemma grid_below : forall prec x y, (0 < prec)%Z -> 0 < x -> 0 <= y -> holds prec y -> y <= x ->
  exists k, inject_Z k <= x * 2 ^ (- expQ prec x) /\ y <= inject_Z k * 2 ^ (expQ prec x).
Proof.
  intros prec x y Hp Hx Py (m & E & Hm & Hy) Hxy. destruct (expQ_spec prec x Hx) as [X1 X2]. set (e := expQ prec x) in *. pose proof (pow_pos e) as Pe. pose proof (pow_pos (- e)) as Pe'.
  assert (Y : y * 2 ^ (- e) == inject_Z m * 2 ^ (E - e)) by (rewrite Hy, <- Qmult_assoc, <- pow_add; reflexivity).
  assert (L : y * 2 ^ (- e) <= x * 2 ^ (- e)) by (apply (Qmult_le_r _ _ _ Pe'); exact Hxy).
  destruct (Z.le_gt_cases e E) as [C|C].
  - exists (m * 2 ^ (E - e))%Z. rewrite inject_Z_mult, <- pow_Z by lia. rewrite <- Y. split; [exact L|]. rewrite <- scale_back. apply Qle_refl.
  - exists (2 ^ (prec - 1))%Z. assert (M : y * 2 ^ (- e) <= 2 ^ (prec - 1)).
    { rewrite Y. apply Qle_trans with (2 ^ prec * 2 ^ (E - e)).
      - apply (Qmult_le_r _ _ _ (pow_pos (E - e))). rewrite pow_Z by lia. rewrite <- Zle_Qle. lia.
      - rewrite <- pow_add. apply Qpower_le_compat_l; [lia|discriminate]. }
    rewrite <- pow_Z by lia. split; [lra|]. rewrite (scale_back y e). apply (Qmult_le_r _ _ _ Pe). exact M.
Qed.

Lemma fl_gt : forall prec x, 0 < x -> fl prec x = fl_pos prec x.
Proof. intros prec x H. unfold fl. rewrite (proj1 (Qgt_alt x 0)) by exact H. reflexivity. Qed.
Lemma fl_zero : forall prec x, x == 0 -> fl prec x = 0.
Proof. intros prec x H. unfold fl. rewrite (proj1 (Qeq_alt x 0)) by exact H. reflexivity. Qed.
Lemma fl_lt : forall prec x, x < 0 -> fl prec x = - fl_pos prec (- x).
Proof. intros prec x H. unfold fl. rewrite (proj1 (Qlt_alt x 0)) by exact H. reflexivity. Qed.

Lemma fl_pos_le : forall prec x y, (0 < prec)%Z -> 0 < x -> holds prec y -> x <= y -> fl_pos prec x <= y.
Proof.
  intros prec x y Hp Hx Hy Hxy. destruct (grid_above prec x y Hp Hx Hy Hxy) as (k & K1 & K2). unfold fl_pos. apply Qle_trans with (inject_Z k * 2 ^ expQ prec x); [|exact K2].
  apply (Qmult_le_r _ _ _ (pow_pos _)). rewrite <- Zle_Qle. apply rneQ_le. exact K1.
Qed.
Lemma fl_pos_ge : forall prec x y, (0 < prec)%Z -> 0 < x -> 0 <= y -> holds prec y -> y <= x -> y <= fl_pos prec x.
Proof.
  intros prec x y Hp Hx Py Hy Hxy. destruct (grid_below prec x y Hp Hx Py Hy Hxy) as (k & K1 & K2). unfold fl_pos. apply Qle_trans with (inject_Z k * 2 ^ expQ prec x); [exact K2|].
  apply (Qmult_le_r _ _ _ (pow_pos _)). rewrite <- Zle_Qle. apply rneQ_ge. exact K1.
Qed.
Lemma holds_0 : forall prec, (0 < prec)%Z -> holds prec 0.
Proof. intros prec Hp. exists 0%Z, 0%Z. split; [cbn [Z.abs]; apply Z.pow_nonneg; lia|reflexivity]. Qed.
Lemma holds_opp : forall prec y, holds prec y -> holds prec (- y).
Proof. intros prec y (m & e & Hm & Hy). exists (- m)%Z, e. split; [lia|]. rewrite Hy, inject_Z_opp. ring. Qed.
Lemma fl_pos_nonneg : forall prec x, (0 < prec)%Z -> 0 < x -> 0 <= fl_pos prec x.
Proof. intros prec x Hp Hx. apply fl_pos_ge; try assumption; [lra|apply holds_0; exact Hp|lra]. Qed.

(** Rounding does not step over a number of the format. *)
Lemma fl_le : forall prec x y, (0 < prec)%Z -> holds prec y -> x <= y -> fl prec x <= y.
Proof.
  intros prec x y Hp Hy Hxy. destruct (Q_dec x 0) as [[C|C]|C].
  - rewrite fl_lt by exact C. assert (P : 0 < - x) by lra. destruct (Qlt_le_dec y 0) as [N|N].
    + pose proof (fl_pos_ge prec (- x) (- y) Hp P ltac:(lra) (holds_opp _ _ Hy) ltac:(lra)). lra.
    + pose proof (fl_pos_nonneg prec (- x) Hp P). lra.
  - rewrite fl_gt by exact C. apply fl_pos_le; auto.
  - rewrite fl_zero by exact C. lra.
Qed.
Lemma fl_opp : forall prec x, fl prec (- x) == - fl prec x.
Proof.
  intros prec x. destruct (Q_dec x 0) as [[C|C]|C].
  - rewrite (fl_lt prec x C), (fl_gt prec (- x)) by lra. ring.
  - rewrite (fl_gt _ x) by exact C. rewrite (fl_lt _ (- x)) by lra. destruct x as [n d]. unfold Qopp at 2. cbn [Qnum Qden]. unfold Qopp at 2. cbn [Qnum Qden]. rewrite Z.opp_involutive. reflexivity.
  - rewrite !fl_zero by lra. reflexivity.
Qed.
Lemma fl_ge : forall prec x y, (0 < prec)%Z -> holds prec y -> y <= x -> y <= fl prec x.
Proof. intros prec x y Hp Hy Hxy. pose proof (fl_le prec (- x) (- y) Hp (holds_opp _ _ Hy) ltac:(lra)) as H. rewrite fl_opp in H. lra. Qed.
Lemma fl_exact : forall prec x, (0 < prec)%Z -> holds prec x -> fl prec x == x.
Proof. intros prec x Hp Hx. apply Qle_antisym; [apply fl_le|apply fl_ge]; try assumption; apply Qle_refl. Qed.

Lemma holds_ext : forall prec x y, x == y -> holds prec x -> holds prec y.
Proof. intros prec x y E (m & e & Hm & Hx). exists m, e. split; [exact Hm|]. rewrite <- E. exact Hx. Qed.
Lemma holds_Z : forall prec n, (Z.abs n <= 2 ^ prec)%Z -> holds prec (inject_Z n).
Proof. intros prec n H. exists n, 0%Z. split; [exact H|]. change (2 ^ 0) with 1. ring. Qed.
Lemma holds_pow : forall prec e, (0 < prec)%Z -> holds prec (2 ^ e).
Proof. intros prec e Hp. exists 1%Z, e. split; [cbn [Z.abs]; pose proof (Z.pow_pos_nonneg 2 prec ltac:(lia) ltac:(lia)); lia|]. change (inject_Z 1) with 1. ring. Qed.
Lemma holds_scale : forall prec x e, holds prec x -> holds prec (x * 2 ^ e).
Proof. intros prec x e (m & E & Hm & Hx). exists m, (E + e)%Z. split; [exact Hm|]. rewrite Hx, pow_add. ring. Qed.

(** A rounded number is in the format. *)
Lemma fl_holds : forall prec x, (0 < prec)%Z -> holds prec (fl prec x).
Proof.
  intros prec x Hp. assert (P : forall x, 0 < x -> holds prec (fl_pos prec x)).
  { intros z Hz. unfold fl_pos. destruct (expQ_spec prec z Hz) as [X1 X2]. exists (rneQ (z * 2 ^ (- expQ prec z))), (expQ prec z). split; [|reflexivity].
    assert (A : (0 <= rneQ (z * 2 ^ (- expQ prec z)))%Z) by (apply rneQ_ge; pose proof (pow_pos (prec - 1)); change (inject_Z 0) with 0; lra).
    rewrite Z.abs_eq by exact A. apply rneQ_le. rewrite <- pow_Z by lia. lra. }
  destruct (Q_dec x 0) as [[C|C]|C].
  - rewrite fl_lt by exact C. apply holds_opp. apply P. lra.
  - rewrite fl_gt by exact C. apply P. exact C.
  - rewrite fl_zero by exact C. apply holds_0. exact Hp.
Qed.

(** Rounding is monotone. *)
Lemma rneQ_mono : forall x y, x <= y -> (rneQ x <= rneQ y)%Z.
Proof.
  intros x y H. pose proof (Qfloor_resp_le x y H) as F. destruct (Z.eq_dec (Qfloor x) (Qfloor y)) as [E|E].
  - unfold rneQ. rewrite E. destruct (Qcompare_spec (x - inject_Z (Qfloor y)) (1 # 2)) as [C|C|C], (Qcompare_spec (y - inject_Z (Qfloor y)) (1 # 2)) as [D|D|D]; try destruct (Z.even (Qfloor y)); try lia; exfalso; lra.
  - assert (A : (rneQ x <= Qfloor x + 1)%Z) by (apply rneQ_le; pose proof (Qlt_floor x); lra). assert (B : (Qfloor y <= rneQ y)%Z) by (apply rneQ_ge; apply Qfloor_le). lia.
Qed.

Lemma fl_pos_mono : forall prec x y, (0 < prec)%Z -> 0 < x -> x <= y -> fl_pos prec x <= fl_pos prec y.
Proof.
  intros prec x y Hp Hx Hxy. assert (Hy : 0 < y) by lra. destruct (expQ_spec prec x Hx) as [X1 X2]. destruct (expQ_spec prec y Hy) as [Y1 Y2].
  set (ex := expQ prec x) in *. set (ey := expQ prec y) in *.
  assert (S : forall z e k, z * 2 ^ (- e) < 2 ^ k -> z < 2 ^ (k + e)).
  { intros z e k H. rewrite (scale_back z e), pow_add. apply (Qmult_lt_r _ _ _ (pow_pos e)). exact H. }
  assert (S' : forall z e k, 2 ^ k <= z * 2 ^ (- e) -> 2 ^ (k + e) <= z).
  { intros z e k H. rewrite (scale_back z e), pow_add. apply (Qmult_le_r _ _ _ (pow_pos e)). exact H. }
  destruct (Z.lt_trichotomy ex ey) as [C|[C|C]].
  - assert (B : 2 ^ (prec + ex) <= 2 ^ (prec - 1 + ey)) by (apply Qpower_le_compat_l; [lia|discriminate]).
    apply Qle_trans with (2 ^ (prec - 1 + ey)).
    + apply fl_pos_le; [exact Hp|exact Hx|apply holds_pow; exact Hp|]. pose proof (S _ _ _ X2). lra.
    + apply fl_pos_ge; [exact Hp|exact Hy|pose proof (pow_pos (prec - 1 + ey)); lra|apply holds_pow; exact Hp|apply S'; exact Y1].
  - unfold fl_pos. fold ex ey. rewrite C. apply (Qmult_le_r _ _ _ (pow_pos ey)). rewrite <- Zle_Qle. apply rneQ_mono. apply (Qmult_le_r _ _ _ (pow_pos (- ey))). exact Hxy.
  - exfalso. pose proof (S _ _ _ Y2). pose proof (S' _ _ _ X1). assert (B : 2 ^ (prec + ey) <= 2 ^ (prec - 1 + ex)) by (apply Qpower_le_compat_l; [lia|discriminate]). lra.
Qed.

Lemma fl_mono : forall prec x y, (0 < prec)%Z -> x <= y -> fl prec x <= fl prec y.
Proof.
  intros prec x y Hp H. destruct (Qlt_le_dec 0 x) as [A|A].
  - rewrite !fl_gt by lra. apply fl_pos_mono; assumption.
  - destruct (Qlt_le_dec y 0) as [B|B].
    + rewrite !fl_lt by lra. pose proof (fl_pos_mono prec (- y) (- x) Hp ltac:(lra) ltac:(lra)). lra.
    + apply Qle_trans with 0; [apply fl_le|apply fl_ge]; try assumption; apply holds_0; exact Hp.
Qed.
