(** The interface between the Galois tables and an abstract field: polynomial form [pf] and
    index form [xf] of the elements. *)
From Coq Require Import List Arith NArith ZArith Lia Bool.
From Verif Require Import Base GField GaloisModel GaloisSpec GaloisTheory GaloisPrim GaloisProofs GaloisProps.
Import ListNotations.

Record tabs (F : field) (n : nat) (al : F) (pf xf : F -> Z) (alpha index : list Z) : Prop := {
  tb_n : 1 < n;
  tb_al0 : al <> f0 F;
  tb_per : pw F al n = f1 F;
  tb_inj : forall i j, i < n -> j < n -> pw F al i = pw F al j -> i = j;
  tb_surj : forall a, a <> f0 F -> exists k, k < n /\ pw F al k = a;
  tb_la : length alpha = n + 1;
  tb_li : length index = n + 1;
  tb_pf_range : forall a, (0 <= pf a <= Z.of_nat n)%Z;
  tb_pf_0 : pf (f0 F) = 0%Z;
  tb_pf_1 : pf (f1 F) = 1%Z;
  tb_pf_inj : forall a b, pf a = pf b -> a = b;
  tb_pf_surj : forall z, (0 <= z <= Z.of_nat n)%Z -> exists a, pf a = z;
  tb_pf_add : forall a b, Z.lxor (pf a) (pf b) = pf (fadd F a b);
  tb_alpha : forall k, k < n -> nth k alpha 0%Z = pf (pw F al k);
  tb_index : forall a, nth (Z.to_nat (pf a)) index 0%Z = xf a;
  tb_xf_0 : xf (f0 F) = (-1)%Z;
  tb_xf_pw : forall k, k < n -> xf (pw F al k) = Z.of_nat k }.

Lemma Zrem_nat : forall a b, b <> 0 -> Z.rem (Z.of_nat a) (Z.of_nat b) = Z.of_nat (a mod b).
Proof. intros. rewrite Nat2Z.inj_mod. apply Z.rem_mod_nonneg; lia. Qed.

Section Facts.
Variables (F : field) (n : nat) (al : F) (pf xf : F -> Z) (alpha index : list Z).
Hypothesis T : tabs F n al pf xf alpha index.
Notation "0" := (f0 F).
Notation "1" := (f1 F).
Infix "+" := (fadd F).
Infix "*" := (fmul F).
Notation "/ x" := (finv F x).

Lemma tb_mod : forall i, pw F al (i mod n) = pw F al i.
Proof.
  intros i. destruct T. rewrite (Nat.div_mod i n) at 2 by lia. rewrite pw_add, pw_mul, tb_per0, pw_1, fmul_1. auto.
Qed.
Lemma tb_pf_eq0 : forall a, pf a = 0%Z <-> a = 0.
Proof.
  intros a. pose proof (tb_pf_0 _ _ _ _ _ _ _ T) as Z0. split. { intros H. apply (tb_pf_inj _ _ _ _ _ _ _ T). congruence. } intros ->. auto.
Qed.
Lemma tb_xf_n0 : forall a, a <> 0 -> exists k, k < n /\ pw F al k = a /\ xf a = Z.of_nat k.
Proof. intros a Ha. destruct T. destruct (tb_surj0 a Ha) as (k & Hk & E). exists k. repeat split; auto. rewrite <- E. auto. Qed.
Lemma tb_xf_range : forall a, (-1 <= xf a < Z.of_nat n)%Z.
Proof.
  intros a. destruct (fdec F a 0) as [->|H]. { rewrite (tb_xf_0 _ _ _ _ _ _ _ T). pose proof (tb_n _ _ _ _ _ _ _ T). lia. }
  destruct (tb_xf_n0 a H) as (k & Hk & _ & ->). lia.
Qed.
Lemma tb_xf_eq : forall a, xf a = (-1)%Z <-> a = 0.
Proof.
  intros a. split. 2:{ intros ->. apply (tb_xf_0 _ _ _ _ _ _ _ T). } intros H. destruct (fdec F a 0); auto.
  destruct (tb_xf_n0 a n0) as (k & Hk & _ & E). lia.
Qed.
Lemma tb_rd_index : forall a, rdz index (pf a) = Ret (xf a).
Proof.
  intros a. destruct T. pose proof (tb_pf_range0 a). unfold rdz. destruct (Z.ltb_spec (pf a) 0); [lia|].
  rewrite (rd_ok _ 0%Z) by lia. rewrite tb_index0. auto.
Qed.
Lemma tb_rd_pw : forall k, k < n -> rdz alpha (Z.of_nat k) = Ret (pf (pw F al k)).
Proof. intros k Hk. destruct T. rewrite rdz_nat, (rd_ok _ 0%Z) by lia. rewrite tb_alpha0 by auto. auto. Qed.
Lemma tb_rd_mod : forall k, rdz alpha (Z.rem (Z.of_nat k) (Z.of_nat n)) = Ret (pf (pw F al k)).
Proof.
  intros k. pose proof (tb_n _ _ _ _ _ _ _ T). rewrite Zrem_nat by lia. rewrite tb_rd_pw, tb_mod; auto. apply Nat.mod_upper_bound. lia.
Qed.
Lemma tb_rd_xf : forall a, a <> 0 -> rdz alpha (xf a) = Ret (pf a).
Proof. intros a Ha. destruct (tb_xf_n0 a Ha) as (k & Hk & E & ->). rewrite tb_rd_pw, E; auto. Qed.
Lemma tb_rd_mul : forall a b, a <> 0 -> b <> 0 -> rdz alpha (Z.rem (xf a + xf b) (Z.of_nat n)) = Ret (pf (a * b)).
Proof.
  intros a b Ha Hb. destruct (tb_xf_n0 a Ha) as (k & Hk & <- & ->). destruct (tb_xf_n0 b Hb) as (j & Hj & <- & ->).
  rewrite <- Nat2Z.inj_add, tb_rd_mod, pw_add. auto.
Qed.
Lemma tb_rd_shift : forall a k, a <> 0 -> rdz alpha (Z.rem (xf a + Z.of_nat k) (Z.of_nat n)) = Ret (pf (a * pw F al k)).
Proof.
  intros a j Ha. destruct (tb_xf_n0 a Ha) as (k & Hk & <- & ->). rewrite <- Nat2Z.inj_add, tb_rd_mod, pw_add. auto.
Qed.
Lemma tb_xf_shift : forall a k, a <> 0 -> Z.rem (xf a + Z.of_nat k) (Z.of_nat n) = xf (a * pw F al k).
Proof.
  intros a j Ha. destruct (tb_xf_n0 a Ha) as (k & Hk & <- & ->). rewrite <- Nat2Z.inj_add. rewrite Zrem_nat by (pose proof (tb_n _ _ _ _ _ _ _ T); lia). pose proof (tb_n _ _ _ _ _ _ _ T).
  rewrite <- pw_add, <- tb_mod. rewrite (tb_xf_pw _ _ _ _ _ _ _ T); auto. apply Nat.mod_upper_bound. lia.
Qed.
Lemma tb_inv_pw : forall k, k <= n -> / (pw F al k) = pw F al (n - k).
Proof.
  intros k Hk. pose proof T as T'. destruct T'. assert (pw F al k <> 0) by (apply pw_n0; auto). apply (fmul_cancel F (pw F al k)); auto.
  rewrite finv_r by auto. rewrite <- pw_add. replace (k + (n - k))%nat with n by lia. auto.
Qed.
(** (xf b + n - xf a + xf c) mod n. *)
Lemma tb_rd_div : forall a b c, a <> 0 -> b <> 0 -> c <> 0 ->
  rdz alpha (Z.rem (xf b + Z.of_nat n - xf a + xf c) (Z.of_nat n)) = Ret (pf (b * / a * c)).
Proof.
  intros a b c Ha Hb Hc. destruct (tb_xf_n0 a Ha) as (i & Hi & <- & ->). destruct (tb_xf_n0 b Hb) as (j & Hj & <- & ->).
  destruct (tb_xf_n0 c Hc) as (k & Hk & <- & ->). rewrite tb_inv_pw by lia. rewrite <- !pw_add. rewrite <- tb_rd_mod. f_equal. f_equal. lia.
Qed.
End Facts.

(** ** The tables built by the constructor *)
Section Inst.
Variables (m : nat) (P : N) (g : galois).
Hypothesis Hm : 2 <= m.
Hypothesis HP : primitive m P.
Hypothesis HT : tables_of m P g.

Lemma gA : 1 <= m. Proof. lia. Qed.
Lemma gB : N.log2 P = N.of_nat m. Proof. destruct (primitive_inv m P gA HP) as (A1 & A2 & A3). assumption. Qed.
Lemma gC : N.odd P = true. Proof. destruct (primitive_inv m P gA HP) as (A1 & A2 & A3). assumption. Qed.
Lemma gD : period m P (2 ^ m - 1). Proof. destruct (primitive_inv m P gA HP) as (A1 & A2 & A3). assumption. Qed.
Definition GF : field := gf m P gA gB gC gD.
Definition gfv (a : GF) : N := vl m a.
Lemma gfv_lt : forall a, (gfv a < 2 ^ N.of_nat m)%N.
Proof. intros a. apply vl_lt. Qed.
Definition gmk (a : N) (H : (a < 2 ^ N.of_nat m)%N) : GF := mk m a H.
Lemma gal_lt : (xi m P 1 1 < 2 ^ N.of_nat m)%N.
Proof. apply xi_lt; auto using gA, gB, gC. apply (one_lt m P); auto using gA, gB, gC. Qed.
Definition gal : GF := gmk (xi m P 1 1) gal_lt.
Definition gpf (a : GF) : Z := Z.of_N (gfv a).
Definition gxf (a : GF) : Z := nth (N.to_nat (gfv a)) (index_of g) 0%Z.

Lemma gpw : forall k, gfv (pw GF gal k) = xi m P k 1.
Proof.
  induction k. { reflexivity. } cbn [pw]. 
  change (gfv (fmul GF gal (pw GF gal k))) with (fmulN m P (gfv gal) (gfv (pw GF gal k))). rewrite IHk.
  rewrite fmulN_xi; auto using gA, gB, gC, gD. 2:{ apply gal_lt. }
  change (gfv gal) with (xi m P 1 1). rewrite <- xi_add. f_equal. lia.
Qed.

Lemma n_Z : Z.of_nat (2 ^ m - 1) = (Z.of_N (2 ^ N.of_nat m) - 1)%Z.
Proof. rewrite Z_n, Zpow2_N. auto. Qed.

Lemma gtabs : tabs GF (2 ^ m - 1) gal gpf gxf (alpha_to g) (index_of g).
Proof.
  pose proof (tables_pwx m P g gA HP HT) as TP. destruct HT as (T1 & T2 & T3 & T4 & T5 & T6 & T7 & T8).
  pose proof (pow2_pos m) as Hpos. pose proof n_Z as HZ. pose proof (m_lt_n m Hm) as Hmn.
  assert (VI : forall a b, gfv a = gfv b -> a = b) by (intros a b; apply vl_inj).
  constructor.
  - lia.
  - intros C. apply (f_equal gfv) in C. revert C. change (gfv gal) with (xi m P 1 1). change (gfv (f0 GF)) with 0%N. apply xi1_n0; auto using gA, gB, gC.
  - apply VI. rewrite gpw. apply xi1_n; auto using gA, gB, gC, gD.
  - intros i j Hi Hj E. apply (f_equal gfv) in E. rewrite !gpw in E. apply (xi1_inj m P) in E; auto using gA, gB, gC, gD.
  - intros a Ha. assert (A0 : gfv a <> 0%N). { intros C. apply Ha. apply VI. auto. }
    assert (S : exists i, i < 2 ^ m - 1 /\ xi m P i 1 = gfv a) by (apply xi1_surj; auto using gA, gB, gC, gD; apply gfv_lt).
    destruct S as (i & Hi & E). exists i. split; auto. apply VI. rewrite gpw. auto.
  - lia.
  - lia.
  - intros a. unfold gpf. pose proof (gfv_lt a). lia.
  - reflexivity.
  - reflexivity.
  - intros a b E. apply VI. unfold gpf in E. lia.
  - intros z Hz. assert (H : (Z.to_N z < 2 ^ N.of_nat m)%N) by lia. exists (gmk (Z.to_N z) H). unfold gpf. change (gfv (gmk (Z.to_N z) H)) with (Z.to_N z). lia.
  - intros a b. unfold gpf. rewrite Zlxor_N. reflexivity.
  - intros k Hk. unfold gpf. rewrite gpw. apply TP. auto.
  - intros a. unfold gpf, gxf. f_equal. lia.
  - unfold gxf. change (gfv (f0 GF)) with 0%N. auto.
  - intros k Hk. unfold gxf. rewrite gpw. apply TP. auto.
Qed.

(** The specification in terms of polynomials modulo P is evaluation in the field. *)
Lemma clmul_cong_mul : forall a b : GF, cong P (clmul (gfv a) (gfv b)) (gfv (fmul GF a b)).
Proof.
  intros a b. change (gfv (fmul GF a b)) with (fmulN m P (gfv a) (gfv b)). unfold fmulN.
  destruct (N.eqb_spec (gfv a) 0) as [->|Ha]. { apply cong_refl. }
  destruct (N.eqb_spec (gfv b) 0) as [->|Hb]. { rewrite clmul_0r. apply cong_refl. }
  assert (La : lg m P (gfv a) < 2 ^ m - 1 /\ xi m P (lg m P (gfv a)) 1 = gfv a) by (apply lg_ok; auto using gA, gB, gC, gD, gfv_lt).
  assert (Lb : lg m P (gfv b) < 2 ^ m - 1 /\ xi m P (lg m P (gfv b)) 1 = gfv b) by (apply lg_ok; auto using gA, gB, gC, gD, gfv_lt).
  destruct La as [_ La]. destruct Lb as [_ Lb]. rewrite <- La at 1. rewrite <- Lb at 1.
  apply (cong_trans _ _ (2 ^ N.of_nat (lg m P (gfv a) + lg m P (gfv b)))%N).
  - rewrite <- clmul_pow2. apply cong_mul; apply xi1_cong; auto using gA, gB, gC.
  - apply cong_sym. apply xi1_cong; auto using gA, gB, gC.
Qed.

Lemma cong_lxor : forall a a' b b', cong P a a' -> cong P b b' -> cong P (N.lxor a b) (N.lxor a' b').
Proof. intros a a' b b' (q & H) (q' & H'). exists (N.lxor q q'). rewrite clmul_l, <- H, <- H'. apply lxor_swap. Qed.

Lemma at_pow_cong : forall i w, cong P (at_pow i (map gfv w)) (gfv (eval GF w (pw GF gal i))).
Proof.
  intros i w. induction w as [|c w IH]; cbn [map at_pow eval]. { apply cong_refl. }
  match goal with |- cong _ _ (gfv (fadd GF c ?x)) => change (gfv (fadd GF c x)) with (N.lxor (gfv c) (gfv x)) end.
  apply cong_lxor. apply cong_refl. eapply cong_trans. 2: apply clmul_cong_mul. apply cong_mul; auto.
  rewrite gpw. apply cong_sym. apply xi1_cong; auto using gA, gB, gC.
Qed.

Lemma has_root_eval : forall i w, has_root P i (map gfv w) <-> eval GF w (pw GF gal i) = f0 GF.
Proof.
  intros i w. pose proof (at_pow_cong i w) as C. unfold has_root. split.
  - intros (q & H). apply vl_inj. change (gfv (eval GF w (pw GF gal i)) = 0%N).
    apply (cong_eq m P); auto using gB, gfv_lt. { intros E. pose proof gC as X. rewrite E in X. discriminate. }
    { pose proof (gfv_lt (f0 GF)) as L. exact L. }
    apply cong_sym in C. apply (cong_trans _ _ (at_pow i (map gfv w))); auto. exists q. rewrite N.lxor_0_r. auto.
  - intros E. rewrite E in C. destruct C as (q & H). exists q. change (gfv (f0 GF)) with 0%N in H. rewrite N.lxor_0_r in H. auto.
Qed.
End Inst.
