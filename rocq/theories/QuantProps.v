(** C55 and C74: the quantizers. *)
From Coq Require Import List Arith Lia Bool ZArith QArith Qround Qabs Qpower Lqa Permutation Sorted.
From Verif Require Import Base FloatQ QuantModel.
Import ListNotations.
Local Open Scope Q_scope.

(** ** Specification *)
(** The levels [zs] of the inputs [ys] with [f] levels per unit: integers of at most [m], nearest to y * f unless saturated,
    monotone and odd *)
Definition nearest (f : Q) (m : Z) (ys : list Q) (zs : list Z) : Prop :=
  length zs = length ys /\
  forall i, (i < length ys)%nat -> let y := nth i ys 0 in let z := nth i zs 0%Z in
    (- m <= z <= m)%Z /\
    (Qabs (y * f) <= inject_Z m -> Qabs (inject_Z z - y * f) <= 1 # 2) /\
    (inject_Z m <= y * f -> z = m) /\ (y * f <= - inject_Z m -> z = (- m)%Z).
Definition monotone_odd (ys : list Q) (zs : list Z) : Prop :=
  forall i j, (i < length ys)%nat -> (j < length ys)%nat ->
    (nth i ys 0 <= nth j ys 0 -> (nth i zs 0 <= nth j zs 0)%Z) /\ (nth i ys 0 == - nth j ys 0 -> nth i zs 0%Z = (- nth j zs 0)%Z).

(** ** Rounding *)
Lemma rha_near : forall x, - (1 # 2) <= inject_Z (rha x) - x <= 1 # 2.
Proof.
  intros x. unfold rha. destruct (Qlt_le_dec x 0).
  - pose proof (Qfloor_le (- x + (1 # 2))). pose proof (Qlt_floor (- x + (1 # 2))) as L. rewrite inject_Z_plus in L. change (inject_Z 1) with 1 in L. rewrite inject_Z_opp. lra.
  - pose proof (Qfloor_le (x + (1 # 2))). pose proof (Qlt_floor (x + (1 # 2))) as L. rewrite inject_Z_plus in L. change (inject_Z 1) with 1 in L. lra.
Qed.
Lemma rha_mono : forall x y, x <= y -> (rha x <= rha y)%Z.
Proof.
  intros x y H. assert (P : forall a, 0 <= a -> (0 <= Qfloor (a + (1 # 2)))%Z) by (intros a Ha; change 0%Z with (Qfloor (1 # 2)); apply Qfloor_resp_le; lra).
  unfold rha. destruct (Qlt_le_dec x 0), (Qlt_le_dec y 0).
  - assert (Qfloor (- y + (1 # 2)) <= Qfloor (- x + (1 # 2)))%Z by (apply Qfloor_resp_le; lra). lia.
  - pose proof (P (- x) ltac:(lra)). pose proof (P y ltac:(lra)). lia.
  - exfalso. lra.
  - apply Qfloor_resp_le. lra.
Qed.
Lemma rha_ext : forall x y, x == y -> rha x = rha y.
Proof. intros x y H. apply Z.le_antisymm; apply rha_mono; lra. Qed.
Lemma rha_opp : forall x, rha (- x) = (- rha x)%Z.
Proof.
  intros x. destruct (Q_dec x 0) as [[C|C]|C].
  - unfold rha. destruct (Qlt_le_dec x 0); [|exfalso; lra]. destruct (Qlt_le_dec (- x) 0); [exfalso; lra|]. lia.
  - unfold rha. destruct (Qlt_le_dec x 0); [exfalso; lra|]. destruct (Qlt_le_dec (- x) 0); [|exfalso; lra]. f_equal. apply Qfloor_comp. ring.
  - rewrite (rha_ext x 0) by exact C. rewrite (rha_ext (- x) 0) by lra. reflexivity.
Qed.
Lemma rha_ge : forall x k, inject_Z k - (1 # 2) <= x -> (0 < k)%Z -> (k <= rha x)%Z.
Proof.
  intros x k H K. assert (K' : 1 <= inject_Z k) by (change 1 with (inject_Z 1); rewrite <- Zle_Qle; lia). unfold rha. destruct (Qlt_le_dec x 0) as [N|N]; [exfalso; lra|].
  rewrite <- (Qfloor_Z k). apply Qfloor_resp_le. lra.
Qed.

Definition clip (m z : Z) : Z := Z.max (- m) (Z.min m z).
Lemma clip_mono : forall m a b, (a <= b)%Z -> (clip m a <= clip m b)%Z.
Proof. intros. unfold clip. lia. Qed.
Lemma clip_opp : forall m a, (0 <= m)%Z -> clip m (- a) = (- clip m a)%Z.
Proof. intros. unfold clip. lia. Qed.

Lemma flt_Z : forall a b, flt (Fin (inject_Z a)) (Fin (inject_Z b)) = (a <? b)%Z.
Proof.
  intros a b. cbn [flt]. destruct (Qlt_le_dec (inject_Z a) (inject_Z b)) as [L|L].
  - rewrite <- Zlt_Qlt in L. symmetry. apply Z.ltb_lt. exact L.
  - rewrite <- Zle_Qle in L. symmetry. apply Z.ltb_ge. exact L.
Qed.
Lemma saturate_Z : forall m z, (0 <= m)%Z -> saturate (Fin (inject_Z z)) (Fin (inject_Z (- m))) (Fin (inject_Z m)) = Fin (inject_Z (clip m z)).
Proof.
  intros m z Hm. unfold saturate, fmax. rewrite flt_Z. destruct (Z.ltb_spec z (- m)); unfold fmin; rewrite flt_Z; match goal with |- context [(?a <? ?b)%Z] => destruct (Z.ltb_spec a b) end; f_equal; f_equal; unfold clip; lia.
Qed.
Lemma to_Q_Z : forall w z, (- 2 ^ (w - 1) <= z < 2 ^ (w - 1))%Z -> to_Q w (Fin (inject_Z z)) = Ret z.
Proof.
  intros w z H. unfold to_Q. assert (E : (if Qlt_le_dec (inject_Z z) 0 then - Qfloor (- inject_Z z) else Qfloor (inject_Z z))%Z = z).
  { destruct (Qlt_le_dec (inject_Z z) 0); [|apply Qfloor_Z]. rewrite <- inject_Z_opp, Qfloor_Z. lia. }
  rewrite E. rewrite (proj2 (Z.leb_le _ _)), (proj2 (Z.ltb_lt _ _)) by lia. reflexivity.
Qed.

(** The relative error of a rounding *)
Lemma fl_pos_rel : forall prec x, (0 < prec)%Z -> 0 < x -> Qabs (fl_pos prec x - x) <= x * 2 ^ (- prec).
Proof.
  intros prec x Hp Hx. destruct (expQ_spec prec x Hx) as [X1 X2]. unfold fl_pos. set (e := expQ prec x) in *. pose proof (rneQ_near (x * 2 ^ (- e))) as N. set (r := inject_Z (rneQ (x * 2 ^ (- e)))) in *. pose proof (pow_pos e) as Pe.
  assert (HB : (1 # 2) * 2 ^ e <= x * 2 ^ (- prec)).
  { assert (E1 : x * 2 ^ (- prec) == x * 2 ^ (- e) * 2 ^ (e - prec)) by (rewrite <- Qmult_assoc, <- pow_add; replace (- e + (e - prec))%Z with (- prec)%Z by lia; reflexivity).
    assert (E2 : (1 # 2) * 2 ^ e == 2 ^ (prec - 1) * 2 ^ (e - prec)) by (rewrite <- pow_add; replace (prec - 1 + (e - prec))%Z with (-1 + e)%Z by lia; rewrite pow_add; reflexivity).
    rewrite E1, E2. apply (Qmult_le_r _ _ _ (pow_pos (e - prec))). exact X1. }
  assert (E3 : r * 2 ^ e - x == (r - x * 2 ^ (- e)) * 2 ^ e) by (rewrite (scale_back x e) at 1; ring).
  apply Qabs_Qle_condition. rewrite E3. split.
  - assert (- (1 # 2) * 2 ^ e <= (r - x * 2 ^ (- e)) * 2 ^ e) by (apply (Qmult_le_r _ _ _ Pe); lra). lra.
  - assert ((r - x * 2 ^ (- e)) * 2 ^ e <= (1 # 2) * 2 ^ e) by (apply (Qmult_le_r _ _ _ Pe); lra). lra.
Qed.
Lemma fl_rel : forall prec x, (0 < prec)%Z -> 0 < x -> x * (1 - 2 ^ (- prec)) <= fl prec x <= x * (1 + 2 ^ (- prec)).
Proof. intros prec x Hp Hx. pose proof (fl_pos_rel prec x Hp Hx) as H. rewrite fl_gt by exact Hx. apply Qabs_Qle_condition in H. lra. Qed.

(** ** The power-of-two quantizer *)
Section Pow2.
Variables prec w : Z.
Hypothesis Hp : (0 < prec)%Z.
Hypothesis Hw : (2 <= w <= 32)%Z.

Lemma shl1_ok : forall e, (0 <= e <= 30)%Z -> shl1 e = Ret (2 ^ e)%Z.
Proof. intros e H. unfold shl1. rewrite (proj2 (Z.ltb_ge e 0)), (proj2 (Z.ltb_ge 30 e)) by lia. reflexivity. Qed.
Lemma full_ok : forall e, (0 <= e <= 30)%Z -> full e = Ret (2 ^ (e + 1) - 1)%Z.
Proof. intros e H. unfold full. rewrite shl1_ok by exact H. cbn [bind]. f_equal. rewrite Z.pow_add_r by lia. lia. Qed.
Lemma shl1_inv : forall e x, shl1 e = Ret x -> (0 <= e <= 30)%Z /\ x = (2 ^ e)%Z.
Proof. intros e x H. unfold shl1 in H. destruct (Z.ltb_spec e 0); [discriminate|]. destruct (Z.ltb_spec 30 e); [discriminate|]. injection H as <-. split; [lia|reflexivity]. Qed.
Lemma full_inv : forall e x, full e = Ret x -> (0 <= e <= 30)%Z /\ x = (2 ^ (e + 1) - 1)%Z.
Proof. intros e x H. unfold full in H. apply bind_inv in H. destruct H as (y & H & E). apply shl1_inv in H. destruct H as [R ->]. injection E as <-. split; [exact R|]. rewrite Z.pow_add_r by lia. lia. Qed.

Lemma one_ok : forall m f y, (0 <= m < 2 ^ (w - 1))%Z -> pow2_one prec w (mkPow2 m (- m) f) (Fin y) = Ret (clip m (rha (fl prec (inject_Z f * y)))).
Proof.
  intros m f y Hm. unfold pow2_one. cbn [p_max p_min p_factor fmul fround]. rewrite saturate_Z by lia. apply to_Q_Z. unfold clip. lia.
Qed.

Lemma pow2_levels : forall m k ys, (0 <= m < 2 ^ (w - 1))%Z -> (0 <= k)%Z -> Forall (holds prec) ys ->
  exists zs, pow2_process prec w (mkPow2 m (- m) (2 ^ k)) (length ys) (map Fin ys) = Ret zs /\ nearest (inject_Z (2 ^ k)) m ys zs /\ monotone_odd ys zs.
Proof.
  intros m k ys Hm Hk HY. set (lev := fun y => clip m (rha (fl prec (inject_Z (2 ^ k) * y)))).
  assert (FX : forall y, holds prec y -> fl prec (inject_Z (2 ^ k) * y) == y * inject_Z (2 ^ k)).
  { intros y H. rewrite fl_exact; [ring|exact Hp|]. apply (holds_ext prec (y * 2 ^ k)); [rewrite pow_Z by exact Hk; ring|apply holds_scale; exact H]. }
  exists (tab (length ys) (fun i => lev (nth i ys 0))).
  assert (HN : forall i, (i < length ys)%nat -> holds prec (nth i ys 0)) by (intros i Hi; rewrite Forall_forall in HY; apply HY, nth_In, Hi).
  split; [|split].
  - apply gen_ok. intros i Hi. rewrite (rd_ok _ (Fin 0)) by (rewrite map_length; exact Hi). cbn [bind]. rewrite map_nth. apply one_ok. exact Hm.
  - split; [apply length_tab|]. intros i Hi. cbv zeta. rewrite nth_tab by exact Hi. unfold lev. specialize (HN i Hi). set (y := nth i ys 0) in *. rewrite (rha_ext _ (y * inject_Z (2 ^ k))) by (apply FX, HN). set (x := y * inject_Z (2 ^ k)).
    pose proof (rha_near x) as RN. split; [unfold clip; lia|].
    assert (UP : x <= inject_Z m -> (rha x <= m)%Z). { intros L. destruct (Z.le_gt_cases (rha x) m) as [|G]; [assumption|]. pose proof (rha_mono x (inject_Z m) L) as Q. unfold rha in Q at 2. destruct (Qlt_le_dec (inject_Z m) 0) as [N|N]; [change 0 with (inject_Z 0) in N; rewrite <- Zlt_Qlt in N; lia|]. assert (Qfloor (inject_Z m + (1 # 2)) <= m)%Z; [|lia].
      pose proof (Qfloor_le (inject_Z m + (1 # 2))) as F. assert (inject_Z (Qfloor (inject_Z m + (1 # 2))) < inject_Z (m + 1)) as F2 by (rewrite inject_Z_plus; change (inject_Z 1) with 1; lra). rewrite <- Zlt_Qlt in F2. lia. }
    assert (GE : forall z, inject_Z m <= z -> (m <= rha z)%Z).
    { intros z L. destruct (Z.eq_dec m 0) as [->|NE]; [|apply rha_ge; [lra|lia]]. change 0%Z with (rha 0). apply rha_mono. exact L. }
    assert (DN : - inject_Z m <= x -> (- m <= rha x)%Z).
    { intros L. rewrite <- (Z.opp_involutive (rha x)), <- rha_opp. assert (rha (- x) <= m)%Z; [|lia]. pose proof (rha_near (- x)) as N2. assert (LT : inject_Z (rha (- x)) < inject_Z (m + 1)) by (rewrite inject_Z_plus; change (inject_Z 1) with 1; lra). rewrite <- Zlt_Qlt in LT. lia. }
    split; [|split].
    + intros A. apply Qabs_Qle_condition in A. specialize (UP ltac:(lra)). specialize (DN ltac:(lra)). replace (clip m (rha x)) with (rha x) by (unfold clip; lia). apply Qabs_Qle_condition. lra.
    + intros L. specialize (GE x L). unfold clip. lia.
    + intros L. assert (m <= rha (- x))%Z by (apply GE; lra). rewrite rha_opp in *. unfold clip. lia.
  - intros i j Hi Hj. rewrite !nth_tab by assumption. unfold lev. pose proof (HN i Hi) as Ai. pose proof (HN j Hj) as Aj. set (y := nth i ys 0) in *. set (y' := nth j ys 0) in *.
    assert (PK : 0 < inject_Z (2 ^ k)) by (change 0 with (inject_Z 0); rewrite <- Zlt_Qlt; apply Z.pow_pos_nonneg; lia). split.
    + intros L. apply clip_mono, rha_mono, fl_mono; [exact Hp|]. rewrite !(Qmult_comm (inject_Z (2 ^ k))). apply (Qmult_le_r _ _ _ PK). exact L.
    + intros L. rewrite <- clip_opp by lia. f_equal. rewrite <- rha_opp. apply rha_ext. rewrite !FX by assumption. rewrite L. ring.
Qed.
End Pow2.

(** The quantizers that the constructors give (Q of 8 or 16 bits) *)
Inductive pow2_of (w : Z) : Z -> Z -> pow2 -> Prop :=
| of_one : forall f q, new_pow2 w f = Ret q -> pow2_of w f w q
| of_two : forall f s q, new_pow2_sat w f s = Ret q -> pow2_of w f s q.

Lemma pow2_of_inv : forall w f s q, (w = 8 \/ w = 16)%Z -> pow2_of w f s q -> (2 <= s <= w)%Z /\ (0 <= f < w)%Z /\ q = mkPow2 (2 ^ (s - 1) - 1) (- (2 ^ (s - 1) - 1)) (2 ^ f).
Proof.
  intros w f s q Hw H. destruct H as [f q H|f s q H].
  - unfold new_pow2 in H. apply bind_inv in H. destruct H as (m & H1 & H). apply full_inv in H1. destruct H1 as [_ ->]. apply bind_inv in H. destruct H as (x & H1 & H). apply shl1_inv in H1. destruct H1 as [R ->].
    destruct (Z.leb_spec w f); cbn [negb guard bind] in H; [discriminate|]. injection H as <-. replace (w - 2 + 1)%Z with (w - 1)%Z by lia. split; [lia|]. split; [lia|reflexivity].
  - unfold new_pow2_sat in H. apply bind_inv in H. destruct H as (m & H1 & H). apply full_inv in H1. destruct H1 as [S ->]. apply bind_inv in H. destruct H as (x & H1 & H). apply shl1_inv in H1. destruct H1 as [R ->].
    destruct (Z.leb_spec f 0); cbn [negb guard bind] in H; [discriminate|]. destruct (Z.ltb_spec s 2); cbn [negb guard bind] in H; [discriminate|]. destruct (Z.ltb_spec s f); cbn [negb guard bind] in H; [discriminate|]. destruct (Z.leb_spec w f); cbn [negb guard bind] in H; [discriminate|].
    rewrite full_ok in H by lia. cbn [bind] in H. destruct (Z.ltb_spec (2 ^ (w - 2 + 1) - 1) (2 ^ (s - 2 + 1) - 1)) as [L|L]; cbn [negb guard bind] in H; [discriminate|].
    destruct (Z.ltb_spec (- (2 ^ (s - 2 + 1) - 1)) (- (2 ^ (w - 2 + 1) - 1))); cbn [negb guard bind] in H; [discriminate|]. injection H as <-. replace (s - 2 + 1)%Z with (s - 1)%Z by lia.
    assert (s <= w)%Z. { destruct (Z.le_gt_cases s w) as [|G]; [assumption|]. assert (2 ^ (w - 2 + 1) < 2 ^ (s - 2 + 1))%Z by (apply Z.pow_lt_mono_r; lia). lia. }
    split; [lia|]. split; [lia|reflexivity].
Qed.

(** C55: the parameters that are accepted. *)
Theorem C55_new : forall w f s, (w = 8 \/ w = 16)%Z -> (0 <= f <= 30)%Z -> (2 <= s <= 32)%Z ->
  ((0 <= f < w)%Z -> new_pow2 w f = Ret (mkPow2 (2 ^ (w - 1) - 1) (- (2 ^ (w - 1) - 1)) (2 ^ f))) /\
  (~ (f < w)%Z -> new_pow2 w f = Throws) /\
  ((0 < f <= s)%Z -> (f < w)%Z -> (s <= w)%Z -> new_pow2_sat w f s = Ret (mkPow2 (2 ^ (s - 1) - 1) (- (2 ^ (s - 1) - 1)) (2 ^ f))) /\
  (~ (0 < f <= s /\ f < w /\ s <= w)%Z -> new_pow2_sat w f s = Throws).
Proof.
  intros w f s Hw Hf Hs. unfold new_pow2, new_pow2_sat. rewrite !full_ok by lia. rewrite shl1_ok by lia. cbn [bind]. replace (w - 2 + 1)%Z with (w - 1)%Z by lia. replace (s - 2 + 1)%Z with (s - 1)%Z by lia.
  assert (SW : (w < s)%Z -> (2 ^ (w - 1) < 2 ^ (s - 1))%Z) by (intros; apply Z.pow_lt_mono_r; lia). assert (WS : (s <= w)%Z -> (2 ^ (s - 1) <= 2 ^ (w - 1))%Z) by (intros; apply Z.pow_le_mono_r; lia).
  repeat split.
  - intros H. rewrite (proj2 (Z.leb_gt w f)) by lia. reflexivity.
  - intros H. rewrite (proj2 (Z.leb_le w f)) by lia. reflexivity.
  - intros H1 H2 H3. specialize (WS H3). rewrite (proj2 (Z.leb_gt f 0)), (proj2 (Z.ltb_ge s 2)), (proj2 (Z.ltb_ge s f)), (proj2 (Z.leb_gt w f)) by lia. cbn [negb guard bind]. rewrite (proj2 (Z.ltb_ge (2 ^ (w - 1) - 1) (2 ^ (s - 1) - 1))) by lia. cbn [negb guard bind]. rewrite (proj2 (Z.ltb_ge (- (2 ^ (s - 1) - 1)) (- (2 ^ (w - 1) - 1)))) by lia. reflexivity.
  - intros H. destruct (Z.leb_spec f 0); [reflexivity|]. cbn [negb guard bind]. destruct (Z.ltb_spec s 2); [reflexivity|]. cbn [negb guard bind]. destruct (Z.ltb_spec s f); [reflexivity|]. cbn [negb guard bind]. destruct (Z.leb_spec w f); [reflexivity|]. cbn [negb guard bind].
    rewrite (proj2 (Z.ltb_lt (2 ^ (w - 1) - 1) (2 ^ (s - 1) - 1))); [reflexivity|]. assert (w < s)%Z by lia. specialize (SW ltac:(lia)). lia.
Qed.

(** C55: the outputs. prec is the precision of R, w the width of Q, s the saturation position, f the fixed-point position. *)
Theorem C55_levels : forall prec w f s q ys, (0 < prec)%Z -> (w = 8 \/ w = 16)%Z -> pow2_of w f s q -> Forall (holds prec) ys ->
  exists zs, pow2_process prec w q (length ys) (map Fin ys) = Ret zs /\ nearest (inject_Z (2 ^ f)) (2 ^ (s - 1) - 1) ys zs /\ monotone_odd ys zs.
Proof.
  intros prec w f s q ys Hp Hw H HY. destruct (pow2_of_inv w f s q Hw H) as (S & F & ->). apply pow2_levels; try assumption; try lia. assert (2 ^ (s - 1) <= 2 ^ (w - 1))%Z by (apply Z.pow_le_mono_r; lia). assert (0 < 2 ^ (s - 1))%Z by (apply Z.pow_pos_nonneg; lia). lia.
Qed.
(** Infinite inputs saturate; a NaN is undefined behaviour. *)
Theorem C55_infinite : forall prec w f s q, (w = 8 \/ w = 16)%Z -> pow2_of w f s q ->
  pow2_process prec w q 2 [PInf; NInf] = Ret [(2 ^ (s - 1) - 1)%Z; (- (2 ^ (s - 1) - 1))%Z] /\ pow2_process prec w q 1 [NaN] = Undef.
Proof.
  intros prec w f s q Hw H. destruct (pow2_of_inv w f s q Hw H) as (S & F & ->). split; [|reflexivity]. assert (P : (inject_Z (2 ^ f) ?= 0) = Gt) by (apply Qgt_alt; change 0 with (inject_Z 0); rewrite <- Zlt_Qlt; apply Z.pow_pos_nonneg; lia).
  assert (B : (2 ^ (s - 1) <= 2 ^ (w - 1))%Z) by (apply Z.pow_le_mono_r; lia). assert (B0 : (0 < 2 ^ (s - 1))%Z) by (apply Z.pow_pos_nonneg; lia).
  unfold pow2_process. rewrite (gen_ok _ 2 _ (fun i => if (i =? 0)%nat then (2 ^ (s - 1) - 1)%Z else (- (2 ^ (s - 1) - 1))%Z)); [reflexivity|].
  intros i Hi. destruct i as [|[|i]]; [| |lia]; cbn [rd nth_error bind]; unfold pow2_one; cbn [p_factor p_max p_min fmul]; unfold sgnQ; rewrite P; cbn [inf_by CompOpp fround].
  - unfold saturate, fmax, fmin. cbn [flt]. rewrite to_Q_Z by lia. reflexivity.
  - unfold saturate, fmax. cbn [flt]. unfold fmin. rewrite flt_Z. rewrite (proj2 (Z.ltb_ge _ _)) by lia. rewrite to_Q_Z by lia. reflexivity.
Qed.
(** The checks of negative positions come after the shifts by them. *)
Theorem C55_negative_refuted : new_pow2 8 (-1) = Undef /\ new_pow2_sat 8 3 1 = Undef.
Proof. split; reflexivity. Qed.

(** ** The custom quantizer *)
Section Custom.
Variables prec w : Z.
Hypothesis Hp : (20 <= prec)%Z.

Lemma u_bound : 0 < 2 ^ (- prec) <= 1 # 1048576.
Proof. split; [apply pow_pos|]. change (1 # 1048576) with (2 ^ (-20)). apply Qpower_le_compat_l; [lia|discriminate]. Qed.

Lemma fl_positive : forall x, 0 < x -> 0 < fl prec x.
Proof.
  intros x Hx. pose proof (fl_rel prec x ltac:(lia) Hx) as [L _]. pose proof u_bound. assert (0 < x * (1 - 2 ^ (- prec))) by (apply Qmult_lt_0_compat; lra). lra.
Qed.

Lemma inv_pos : forall x m, ~ x == 0 -> (0 < m)%Z -> exists d, custom_inv prec (Fin x) m = Fin d /\ 0 < d /\ d * (Qabs x * (1 + 2 ^ (- prec))) >= inject_Z m * (1 - 2 ^ (- prec)).
Proof.
  intros x m Hx Hm. assert (PM : 0 < inject_Z m) by (change 0 with (inject_Z 0); rewrite <- Zlt_Qlt; exact Hm). assert (AX : 0 < Qabs x). { destruct (Qlt_le_dec 0 (Qabs x)) as [|L]; [assumption|]. exfalso. apply Hx. pose proof (Qabs_nonneg x). apply Qabs_Qle_condition in L. lra. }
  unfold custom_inv. cbn [fabs fdiv_nonneg]. assert (E1 : Qeq_bool (inject_Z m) 0 = false) by (apply not_true_iff_false; intros C; apply Qeq_bool_eq in C; lra). rewrite E1. cbn [fdiv_nonneg].
  set (a := Qabs x / inject_Z m). assert (Ha : 0 < a) by (apply Qlt_shift_div_l; lra). pose proof (fl_positive a Ha) as PA. assert (E2 : Qeq_bool (fl prec a) 0 = false) by (apply not_true_iff_false; intros C; apply Qeq_bool_eq in C; lra). rewrite E2.
  assert (PB : 0 < 1 / fl prec a) by (apply Qlt_shift_div_l; lra). eexists. split; [reflexivity|]. split; [apply fl_positive; exact PB|].
  pose proof (fl_rel prec a ltac:(lia) Ha) as [_ UA]. pose proof (fl_rel prec _ ltac:(lia) PB) as [LB _]. pose proof u_bound as [U0 U1]. set (u := 2 ^ (- prec)) in *. set (A := fl prec a) in *. set (d := fl prec (1 / A)) in *.
  assert (AM : a * inject_Z m == Qabs x) by (unfold a; field; lra).
  (* d >= (1 - u) / A, A <= a * (1 + u) *)
  assert (DA : (1 - u) <= d * A). { assert (E : 1 / A * (1 - u) * A == 1 - u) by (field; lra). rewrite <- E. apply (Qmult_le_r _ _ _ PA). exact LB. }
  assert (D0 : 0 < d) by (apply fl_positive; exact PB).
  assert (DB : d * A <= d * (a * (1 + u))) by (apply Qmult_le_l; assumption).
  assert (FIN : (1 - u) * inject_Z m <= d * (a * (1 + u)) * inject_Z m) by (apply (Qmult_le_r _ _ _ PM); lra).
  assert (E3 : d * (a * (1 + u)) * inject_Z m == d * (Qabs x * (1 + u))) by (rewrite <- AM; ring). rewrite E3 in FIN. lra.
Qed.

Lemma custom_one_ok : forall m d y, (0 <= m < 2 ^ (w - 1))%Z -> custom_one prec w (mkCustom m (- m) (Fin d)) (Fin y) = Ret (clip m (rha (fl prec (y * d)))).
Proof. intros m d y Hm. unfold custom_one. cbn [c_max c_min c_inv fmul fround]. rewrite saturate_Z by lia. apply to_Q_Z. unfold clip. lia. Qed.

Lemma full_scale : forall m x d y, (0 < m <= 32767)%Z -> ~ x == 0 -> 0 < d -> d * (Qabs x * (1 + 2 ^ (- prec))) >= inject_Z m * (1 - 2 ^ (- prec)) -> Qabs x <= y -> (m <= rha (fl prec (y * d)))%Z.
Proof.
  intros m x d y Hm Hx Hd HD HY. pose proof (Qabs_nonneg x) as AX. assert (PM : 0 < inject_Z m) by (change 0 with (inject_Z 0); rewrite <- Zlt_Qlt; lia). assert (M32 : inject_Z m <= 32767) by (change 32767 with (inject_Z 32767); rewrite <- Zle_Qle; lia).
  assert (A0 : 0 < Qabs x). { destruct (Qlt_le_dec 0 (Qabs x)) as [|L]; [assumption|]. exfalso. apply Hx. apply Qabs_Qle_condition in L. lra. }
  pose proof u_bound as [U0 U1]. set (u := 2 ^ (- prec)) in *. set (X := Qabs x) in *.
  assert (P1 : 0 < y * d) by (apply Qmult_lt_0_compat; lra). pose proof (fl_rel prec (y * d) ltac:(lia) P1) as [LB _]. fold u in LB. apply rha_ge; [|lia].
  assert (P2 : X * d <= y * d) by (apply (Qmult_le_r _ _ _ Hd); exact HY).
  (* X d (1+u) >= m (1-u), so y d (1 - u) (1 + u) >= m (1 - u)^2 *)
  assert (P3 : y * d * (1 + u) >= inject_Z m * (1 - u)). { assert (X * d * (1 + u) <= y * d * (1 + u)) by (apply Qmult_le_r; [lra|exact P2]). assert (E : d * (X * (1 + u)) == X * d * (1 + u)) by ring. rewrite E in HD. lra. }
  assert (P4 : y * d * (1 + u) * (1 - u) >= inject_Z m * (1 - u) * (1 - u)) by (apply Qmult_le_r; [lra|exact P3]).
  assert (P5 : inject_Z m * (1 - u) * (1 - u) >= (inject_Z m - (1 # 2)) * (1 + u)).
  { assert (MU : inject_Z m * u <= 32767 * u) by (apply Qmult_le_r; assumption). assert (MU2 : 0 <= inject_Z m * (u * u)) by (apply Qmult_le_0_compat; [lra|]; apply Qmult_le_0_compat; lra).
    assert (E : inject_Z m * (1 - u) * (1 - u) == inject_Z m - 2 * (inject_Z m * u) + inject_Z m * (u * u)) by ring. assert (E' : (inject_Z m - (1 # 2)) * (1 + u) == inject_Z m - (1 # 2) + inject_Z m * u - (1 # 2) * u) by ring. rewrite E, E'. lra. }
  assert (P6 : (inject_Z m - (1 # 2)) * (1 + u) <= y * d * (1 - u) * (1 + u)) by (assert (E : y * d * (1 - u) * (1 + u) == y * d * (1 + u) * (1 - u)) by ring; lra).
  apply Qmult_le_r in P6; lra.
Qed.
End Custom.

(** What the custom quantizer guarantees: levels of at most m, monotone and odd; from the value [lim] on, the largest level *)
Definition saturates (lim : Q) (m : Z) (ys : list Q) (zs : list Z) : Prop :=
  length zs = length ys /\ forall i, (i < length ys)%nat -> (- m <= nth i zs 0 <= m)%Z /\ (lim <= nth i ys 0 -> nth i zs 0%Z = m) /\ (nth i ys 0 <= - lim -> nth i zs 0%Z = (- m)%Z) /\ (nth i ys 0 == 0 -> nth i zs 0%Z = 0%Z).

Lemma custom_levels : forall prec w m x d ys, (20 <= prec)%Z -> (0 < m <= 32767)%Z -> (m < 2 ^ (w - 1))%Z -> ~ x == 0 -> 0 < d -> d * (Qabs x * (1 + 2 ^ (- prec))) >= inject_Z m * (1 - 2 ^ (- prec)) ->
  exists zs, gen (length ys) (fun i => y <- rd (map Fin ys) i ;; custom_one prec w (mkCustom m (- m) (Fin d)) y) = Ret zs /\ saturates (Qabs x) m ys zs /\ monotone_odd ys zs.
Proof.
  intros prec w m x d ys Hp Hm Hw Hx Hd HD. set (lev := fun y => clip m (rha (fl prec (y * d)))). exists (tab (length ys) (fun i => lev (nth i ys 0))).
  assert (OPP : forall a b, a == - b -> rha (fl prec (a * d)) = (- rha (fl prec (b * d)))%Z).
  { intros a b E. rewrite <- rha_opp. apply rha_ext. rewrite <- fl_opp. apply Qle_antisym; apply fl_mono; try lia; rewrite E; lra. }
  split; [|split].
  - apply gen_ok. intros i Hi. rewrite (rd_ok _ (Fin 0)) by (rewrite map_length; exact Hi). cbn [bind]. rewrite map_nth. apply custom_one_ok. lia.
  - split; [apply length_tab|]. intros i Hi. rewrite nth_tab by exact Hi. unfold lev. set (y := nth i ys 0). split; [unfold clip; lia|]. split; [|split].
    + intros L. pose proof (full_scale prec Hp m x d y Hm Hx Hd HD L). unfold clip. lia.
    + intros L. pose proof (full_scale prec Hp m x d (- y) Hm Hx Hd HD ltac:(lra)) as F. rewrite (OPP (- y) y) in F by reflexivity. unfold clip. lia.
    + intros E. rewrite (rha_ext _ 0); [unfold clip; cbn; lia|]. rewrite fl_zero; [reflexivity|]. rewrite E. ring.
  - intros i j Hi Hj. rewrite !nth_tab by assumption. unfold lev. split.
    + intros L. apply clip_mono, rha_mono, fl_mono; [lia|]. apply (Qmult_le_r _ _ _ Hd). exact L.
    + intros E. rewrite (OPP _ _ E). apply clip_opp. lia.
Qed.

(** C74, with a given maximum. *)
Theorem C74_given : forall prec w sat mm c ys, (20 <= prec)%Z -> (w = 8 \/ w = 16)%Z -> ~ mm == 0 -> new_custom prec w (Some (Fin mm)) sat = Ret c ->
  exists zs, custom_process prec w c (length ys) (map Fin ys) = Ret (c, zs) /\ saturates (Qabs mm) (2 ^ (sat - 1) - 1) ys zs /\ monotone_odd ys zs.
Proof.
  intros prec w sat mm c ys Hp Hw Hx H. unfold new_custom in H. apply bind_inv in H. destruct H as (m & H1 & H). apply full_inv in H1. destruct H1 as [S ->]. destruct (Z.ltb_spec w sat); cbn [negb guard bind] in H; [discriminate|]. injection H as <-. replace (sat - 2 + 1)%Z with (sat - 1)%Z by lia.
  assert (B : (2 ^ (sat - 1) <= 2 ^ (w - 1))%Z) by (apply Z.pow_le_mono_r; lia). assert (B0 : (2 ^ 1 <= 2 ^ (sat - 1))%Z) by (apply Z.pow_le_mono_r; lia). assert (B1 : (2 ^ (w - 1) <= 32768)%Z) by (destruct Hw as [-> | ->]; cbn; lia). change (2 ^ 1)%Z with 2%Z in B0.
  destruct (inv_pos prec Hp mm (2 ^ (sat - 1) - 1) Hx ltac:(lia)) as (d & E & D0 & HD). rewrite E. unfold custom_process. cbn [c_inv is_zero]. assert (Z : Qeq_bool d 0 = false) by (apply not_true_iff_false; intros C; apply Qeq_bool_eq in C; lra). rewrite Z. cbn [bind].
  destruct (custom_levels prec w (2 ^ (sat - 1) - 1) mm d ys Hp ltac:(lia) ltac:(lia) Hx D0 HD) as (zs & EZ & X). rewrite EZ. cbn [bind]. exists zs. split; [reflexivity|exact X].
Qed.

(** ** The automatic maximum *)
(** The value that the first frame chooses: the element 8 * (N / 10) of the magnitudes in increasing order *)
Definition chosen (ys : list Q) (x : Q) : Prop :=
  exists l, Permutation (map Qabs ys) l /\ (forall i j, (i <= j < length l)%nat -> nth i l 0 <= nth j l 0) /\ nth (length ys / 10 * 8) l 0 = x.

Lemma insert_Fin : forall x l, exists l', insert (Fin x) (map Fin l) = map Fin l' /\ Permutation (x :: l) l' /\ (StronglySorted Qle l -> StronglySorted Qle l').
Proof.
  intros x. induction l as [|y l (l' & E & P & S)].
  - exists [x]. split; [reflexivity|]. split; [apply Permutation_refl|]. intros _. constructor; constructor.
  - cbn [map insert flt]. destruct (Qlt_le_dec y x) as [L|L].
    + exists (y :: l'). split; [cbn [map]; rewrite E; reflexivity|]. split; [apply (perm_trans (perm_swap y x l)); constructor; exact P|]. intros SS. inversion SS as [|? ? S1 F]; subst. constructor; [apply S, S1|]. apply (Permutation_Forall P). constructor; [lra|exact F].
    + exists (x :: y :: l). split; [reflexivity|]. split; [apply Permutation_refl|]. intros SS. constructor; [exact SS|]. inversion SS as [|? ? S1 F]; subst. constructor; [exact L|]. revert F. apply Forall_impl. intros a Ha. lra.
Qed.
Lemma sort_Fin : forall l, exists l', sort (map Fin l) = map Fin l' /\ Permutation l l' /\ StronglySorted Qle l'.
Proof.
  induction l as [|x l (l' & E & P & S)]; [exists []; repeat split; constructor|]. cbn [map sort fold_right]. unfold sort in E. rewrite E. destruct (insert_Fin x l') as (l2 & E2 & P2 & S2). exists l2. split; [exact E2|]. split; [|apply S2, S]. apply (perm_trans (perm_skip x P)). exact P2.
Qed.
Lemma sorted_nth : forall l i j, StronglySorted Qle l -> (i <= j < length l)%nat -> nth i l 0 <= nth j l 0.
Proof.
  induction l as [|x l IH]; intros i j S H; [cbn in H; lia|]. inversion S as [|? ? S1 F]; subst. destruct i as [|i], j as [|j]; cbn [nth]; try lra; try lia.
  - rewrite Forall_forall in F. apply F, nth_In. cbn in H. lia.
  - apply IH; [exact S1|]. cbn in H. lia.
Qed.

(** C74, automatic: the first frame sets the maximum, which every later frame uses. *)
Theorem C74_auto : forall prec w sat c ys, (20 <= prec)%Z -> (w = 8 \/ w = 16)%Z -> new_custom prec w None sat = Ret c -> ys <> [] -> (forall x, chosen ys x -> ~ x == 0) ->
  exists x c' zs, chosen ys x /\ custom_process prec w c (length ys) (map Fin ys) = Ret (c', zs) /\ saturates x (2 ^ (sat - 1) - 1) ys zs /\ monotone_odd ys zs /\
    forall ys', exists zs', custom_process prec w c' (length ys') (map Fin ys') = Ret (c', zs') /\ saturates x (2 ^ (sat - 1) - 1) ys' zs' /\ monotone_odd ys' zs'.
Proof.
  intros prec w sat c ys Hp Hw H NE HC. unfold new_custom in H. apply bind_inv in H. destruct H as (m & H1 & H). apply full_inv in H1. destruct H1 as [S ->]. destruct (Z.ltb_spec w sat); cbn [negb guard bind] in H; [discriminate|]. injection H as <-. replace (sat - 2 + 1)%Z with (sat - 1)%Z by lia.
  assert (B : (2 ^ (sat - 1) <= 2 ^ (w - 1))%Z) by (apply Z.pow_le_mono_r; lia). assert (B0 : (2 ^ 1 <= 2 ^ (sat - 1))%Z) by (apply Z.pow_le_mono_r; lia). assert (B1 : (2 ^ (w - 1) <= 32768)%Z) by (destruct Hw as [-> | ->]; cbn; lia). change (2 ^ 1)%Z with 2%Z in B0. set (mx := (2 ^ (sat - 1) - 1)%Z) in *.
  destruct (sort_Fin (map Qabs ys)) as (l & EL & PL & SL). assert (LL : length l = length ys) by (rewrite <- (Permutation_length PL), map_length; reflexivity).
  set (k := (length ys / 10 * 8)%nat). assert (LY : (0 < length ys)%nat) by (destruct ys; [contradiction|cbn; lia]). assert (HK : (k < length ys)%nat). { unfold k. pose proof (Nat.mul_div_le (length ys) 10 ltac:(lia)). destruct (Nat.eq_dec (length ys / 10) 0) as [E|E]; [rewrite E; lia|lia]. }
  set (x := nth k l 0). assert (CX : chosen ys x). { exists l. split; [exact PL|]. split; [intros i j Hij; apply sorted_nth; assumption|reflexivity]. }
  assert (X0 : 0 <= x). { assert (IN : In x l) by (apply nth_In; lia). apply (Permutation_in _ (Permutation_sym PL)) in IN. apply in_map_iff in IN. destruct IN as (y & <- & _). apply Qabs_nonneg. }
  pose proof (HC x CX) as XN. destruct (inv_pos prec Hp x mx XN ltac:(lia)) as (d & E & D0 & HD). assert (AX : Qabs x == x) by (apply Qabs_pos; exact X0).
  assert (Z : Qeq_bool d 0 = false) by (apply not_true_iff_false; intros C; apply Qeq_bool_eq in C; lra).
  assert (SAT : forall ys zs, saturates (Qabs x) mx ys zs -> saturates x mx ys zs). { intros a b (L1 & L2). split; [exact L1|]. intros i Hi. destruct (L2 i Hi) as (A1 & A2 & A3 & A4). split; [exact A1|]. split; [intros Q; apply A2; lra|]. split; [intros Q; apply A3; lra|exact A4]. }
  destruct (custom_levels prec w mx x d ys Hp ltac:(lia) ltac:(lia) XN D0 HD) as (zs & EZ & X1 & X2).
  exists x, (mkCustom mx (- mx) (Fin d)), zs. split; [exact CX|]. split.
  - unfold custom_process at 1. cbn [c_inv is_zero]. change (Qeq_bool 0 0) with true. cbv iota. cbn [c_max c_min].
    rewrite (gen_ok _ (length ys) _ (fun i => Fin (Qabs (nth i ys 0)))). 2:{ intros i Hi. rewrite (rd_ok _ (Fin 0)) by (rewrite map_length; exact Hi). cbn [bind]. rewrite map_nth. reflexivity. }
    cbn [bind]. assert (ET : tab (length ys) (fun i => Fin (Qabs (nth i ys 0))) = map Fin (map Qabs ys)). { symmetry. apply (eq_tab _ (Fin (Qabs 0))); [rewrite !map_length; reflexivity|]. intros i Hi. rewrite (map_nth Fin). f_equal. apply (map_nth Qabs). }
    rewrite ET, EL. rewrite (rd_ok _ (Fin 0)) by (rewrite map_length; lia). cbn [bind]. rewrite map_nth. fold k. fold x. rewrite E, EZ. reflexivity.
  - split; [apply SAT, X1|]. split; [exact X2|]. intros ys'. destruct (custom_levels prec w mx x d ys' Hp ltac:(lia) ltac:(lia) XN D0 HD) as (zs' & EZ' & Y1 & Y2). exists zs'. split; [|split; [apply SAT, Y1|exact Y2]].
    unfold custom_process. cbn [c_inv is_zero]. rewrite Z. cbn [bind]. rewrite EZ'. reflexivity.
Qed.

(** When the chosen magnitude is zero, the scale is infinite and a zero input is undefined behaviour: for instance a frame of
    less than ten elements one of which is zero. *)
Theorem C74_zero_refuted : exists c, new_custom 24 8 None 8 = Ret c /\ custom_process 24 8 c 3 [Fin 1; Fin 0; Fin (-2)] = Undef.
Proof. eexists. split; [reflexivity|]. vm_compute. reflexivity. Qed.

(** ** Examples *)
Example C55_example : exists q, new_pow2_sat 8 2 6 = Ret q /\ pow2_process 24 8 q 5 (map Fin [3 # 8; - (3 # 8); 100; - (31 # 4); 1 # 4]) = Ret [2; -2; 31; -31; 1]%Z.
Proof. eexists. split; [reflexivity|]. vm_compute. reflexivity. Qed.
Example C55_example_holds : Forall (holds 24) [3 # 8; 100].
Proof. repeat constructor; [exists 3%Z, (-3)%Z|exists 100%Z, 0%Z]; split; [vm_compute; discriminate|reflexivity|vm_compute; discriminate|reflexivity]. Qed.
Example C74_example : exists c c' zs, new_custom 24 8 None 6 = Ret c /\ custom_process 24 8 c 3 (map Fin [2; -4; 1 # 2]) = Ret (c', zs) /\ zs = [31; -31; 31]%Z.
Proof. eexists. eexists. eexists. split; [reflexivity|]. split; [vm_compute; reflexivity|reflexivity]. Qed.
