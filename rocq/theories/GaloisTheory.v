(** Polynomials over GF(2) modulo a polynomial, and the field they form. *)
From Coq Require Import List Arith NArith ZArith Lia Bool.
From Verif Require Import GField GaloisSpec.
Import ListNotations.
Local Open Scope N_scope.

(* ------------------------------------------------------------------ *)
(** * Products *)

Lemma double_lxor : forall a b, N.double (N.lxor a b) = N.lxor (N.double a) (N.double b).
Proof. intros [|a] [|b]; auto. Qed.

Lemma lxor_swap : forall a b c d, N.lxor (N.lxor a b) (N.lxor c d) = N.lxor (N.lxor a c) (N.lxor b d).
Proof. intros. rewrite !N.lxor_assoc. f_equal. rewrite <- !N.lxor_assoc. f_equal. apply N.lxor_comm. Qed.

Lemma clmul_r : forall a b c, clmul a (N.lxor b c) = N.lxor (clmul a b) (clmul a c).
Proof.
  intros [|a] b c; auto. cbn [clmul]. induction a; cbn [clmul_pos]; auto.
  - rewrite IHa, double_lxor. apply lxor_swap.
  - rewrite IHa. apply double_lxor.
Qed.
Lemma clmul_0r : forall a, clmul a 0 = 0.
Proof. intros [|a]; auto. cbn [clmul]. induction a; cbn [clmul_pos]; auto; rewrite IHa; auto. Qed.
Lemma clmul_double : forall a b, clmul (N.double a) b = N.double (clmul a b).
Proof. intros [|a] b; auto. Qed.
Lemma clmul_sdouble : forall a b, clmul (N.lxor 1 (N.double a)) b = N.lxor b (N.double (clmul a b)).
Proof. intros [|a] b; cbn [clmul N.double N.lxor]; auto. rewrite N.lxor_0_r. auto. Qed.

Lemma N_bin : forall a, a = 0 \/ exists b, (a = N.double b /\ b <> 0 \/ a = N.lxor 1 (N.double b)).
Proof.
  intros [|[p|p|]]; auto; right.
  - exists (Npos p). right. auto.
  - exists (Npos p). left. split; [auto|discriminate].
  - exists 0. right. auto.
Qed.

Lemma clmul_l : forall a a' b, clmul (N.lxor a a') b = N.lxor (clmul a b) (clmul a' b).
Proof.
  intros a a' b. destruct a as [|a], a' as [|a']; auto. { cbn [clmul N.lxor]. rewrite N.lxor_0_r. auto. }
  revert a'. induction a as [a IH|a IH|]; intros [a'|a'|].
  - change (N.lxor (N.pos a~1) (N.pos a'~1)) with (N.double (N.lxor (N.pos a) (N.pos a'))). rewrite clmul_double, IH, double_lxor. cbn [clmul clmul_pos].
    rewrite lxor_swap, N.lxor_nilpotent. auto.
  - change (N.lxor (N.pos a~1) (N.pos a'~0)) with (N.succ_double (N.lxor (N.pos a) (N.pos a'))).
    replace (N.succ_double (N.lxor (N.pos a) (N.pos a'))) with (N.lxor 1 (N.double (N.lxor (N.pos a) (N.pos a')))) by (destruct (N.lxor (N.pos a) (N.pos a')); auto).
    rewrite clmul_sdouble, IH, double_lxor. cbn [clmul clmul_pos]. rewrite N.lxor_assoc. auto.
  - cbn [N.lxor Pos.lxor clmul clmul_pos]. rewrite (N.lxor_comm b), N.lxor_assoc, N.lxor_nilpotent, N.lxor_0_r. auto.
  - change (N.lxor (N.pos a~0) (N.pos a'~1)) with (N.succ_double (N.lxor (N.pos a) (N.pos a'))).
    replace (N.succ_double (N.lxor (N.pos a) (N.pos a'))) with (N.lxor 1 (N.double (N.lxor (N.pos a) (N.pos a')))) by (destruct (N.lxor (N.pos a) (N.pos a')); auto).
    rewrite clmul_sdouble, IH, double_lxor. cbn [clmul clmul_pos]. rewrite <- !N.lxor_assoc. f_equal. apply N.lxor_comm.
  - change (N.lxor (N.pos a~0) (N.pos a'~0)) with (N.double (N.lxor (N.pos a) (N.pos a'))). rewrite clmul_double, IH, double_lxor. auto.
  - cbn [N.lxor Pos.lxor clmul clmul_pos]. apply N.lxor_comm.
  - cbn [N.lxor Pos.lxor clmul clmul_pos]. rewrite <- N.lxor_assoc, N.lxor_nilpotent, N.lxor_0_l. auto.
  - cbn [N.lxor Pos.lxor clmul clmul_pos]. auto.
  - cbn [N.lxor Pos.lxor clmul clmul_pos]. rewrite N.lxor_nilpotent. auto.
Qed.

Lemma clmul_doubler : forall a b, clmul a (N.double b) = N.double (clmul a b).
Proof.
  intros [|a] b; auto. cbn [clmul]. induction a; cbn [clmul_pos]; auto; rewrite IHa; auto. rewrite double_lxor. auto.
Qed.
Lemma clmul_1r : forall a, clmul a 1 = a.
Proof.
  intros [|a]; auto. cbn [clmul]. induction a; cbn [clmul_pos]; auto; rewrite IHa; auto.
Qed.
Lemma clmul_comm : forall a b, clmul a b = clmul b a.
Proof.
  intros [|a] b. { rewrite clmul_0r. auto. } induction a as [a IH|a IH|].
  - change (N.pos a~1) with (N.lxor 1 (N.double (N.pos a))). rewrite clmul_sdouble, IH, clmul_r, clmul_1r, clmul_doubler. auto.
  - change (N.pos a~0) with (N.double (N.pos a)). rewrite clmul_double, IH, clmul_doubler. auto.
  - rewrite clmul_1r. auto.
Qed.
Lemma clmul_assoc : forall a b c, clmul (clmul a b) c = clmul a (clmul b c).
Proof.
  intros [|a] b c; auto. induction a as [a IH|a IH|]; auto.
  - change (N.pos a~1) with (N.lxor 1 (N.double (N.pos a))). rewrite !clmul_sdouble, clmul_l, clmul_double, IH. auto.
  - change (N.pos a~0) with (N.double (N.pos a)). rewrite !clmul_double, IH. auto.
Qed.

(* ------------------------------------------------------------------ *)
(** * Congruence *)

Definition cong (P a b : N) : Prop := exists q, N.lxor a b = clmul q P.

Lemma cong_refl : forall P a, cong P a a.
Proof. intros. exists 0. apply N.lxor_nilpotent. Qed.
Lemma cong_sym : forall P a b, cong P a b -> cong P b a.
Proof. intros P a b (q & H). exists q. rewrite N.lxor_comm. auto. Qed.
Lemma cong_trans : forall P a b c, cong P a b -> cong P b c -> cong P a c.
Proof.
  intros P a b c (q & H) (q' & H'). exists (N.lxor q q'). rewrite clmul_l, <- H, <- H'.
  rewrite N.lxor_assoc, <- (N.lxor_assoc b), N.lxor_nilpotent, N.lxor_0_l. auto.
Qed.
Lemma cong_double : forall P a b, cong P a b -> cong P (N.double a) (N.double b).
Proof. intros P a b (q & H). exists (N.double q). rewrite clmul_double, <- H, double_lxor. auto. Qed.
Lemma cong_mul : forall P a a' b b', cong P a a' -> cong P b b' -> cong P (clmul a b) (clmul a' b').
Proof.
  intros P a a' b b' (q & H) (q' & H'). apply (cong_trans P _ (clmul a' b)).
  - exists (clmul b q). rewrite <- clmul_l, H, (clmul_comm (clmul q P) b), <- clmul_assoc. auto.
  - exists (clmul a' q'). rewrite <- clmul_r, H', clmul_assoc. auto.
Qed.

Lemma clmul_pow2 : forall i j, clmul (2 ^ N.of_nat i) (2 ^ N.of_nat j) = 2 ^ N.of_nat (i + j).
Proof.
  assert (E : forall i, 2 ^ N.of_nat (S i) = N.double (2 ^ N.of_nat i)).
  { intros. rewrite Nat2N.inj_succ, N.pow_succ_r'. symmetry. apply N.double_spec. }
  induction i; intros j. { reflexivity. } cbn [Nat.add]. rewrite !E, clmul_double, IHi. auto.
Qed.
Lemma pow2_S : forall i, 2 ^ N.of_nat (S i) = N.double (2 ^ N.of_nat i).
Proof. intros. rewrite Nat2N.inj_succ, N.pow_succ_r'. symmetry. apply N.double_spec. Qed.

(* ------------------------------------------------------------------ *)
(** * Multiplication by x *)

Lemma lt_bits : forall a m, a < 2 ^ m <-> forall k, m <= k -> N.testbit a k = false.
Proof.
  intros a m. split.
  - intros H k Hk. destruct (N.eq_dec a 0) as [->|Ha]. { apply N.bits_0. } apply N.bits_above_log2. apply N.log2_lt_pow2 in H; lia.
  - intros H. destruct (N.eq_dec a 0) as [->|Ha]. { apply N.neq_0_lt_0. apply N.pow_nonzero. discriminate. }
    apply N.log2_lt_pow2; [lia|]. destruct (N.lt_ge_cases (N.log2 a) m) as [|C]; auto. apply H in C. rewrite N.bit_log2 in C by auto. discriminate.
Qed.

Section X.
Variables (m : nat) (P : N).
Hypothesis Hm : (1 <= m)%nat.
Hypothesis Pm : N.log2 P = N.of_nat m.
Hypothesis P0 : N.odd P = true.

Let M := N.of_nat m.

Lemma P_n0 : P <> 0.
Proof. intros E. rewrite E in P0. discriminate. Qed.
Lemma P_bit : N.testbit P M = true.
Proof. unfold M. rewrite <- Pm. apply N.bit_log2. apply P_n0. Qed.
Lemma P_above : forall k, M < k -> N.testbit P k = false.
Proof. intros. apply N.bits_above_log2. rewrite Pm. auto. Qed.

Definition xt (a : N) : N := if N.testbit (N.double a) M then N.lxor (N.double a) P else N.double a.

Lemma xt_lin : forall a b, xt (N.lxor a b) = N.lxor (xt a) (xt b).
Proof.
  intros. unfold xt. rewrite double_lxor, N.lxor_spec. destruct (N.testbit (N.double a) M), (N.testbit (N.double b) M); cbn [xorb]; auto.
  - rewrite lxor_swap, N.lxor_nilpotent, N.lxor_0_r. auto.
  - rewrite !N.lxor_assoc. f_equal. apply N.lxor_comm.
  - rewrite !N.lxor_assoc. auto.
Qed.
Lemma xt_0 : xt 0 = 0.
Proof. unfold xt. cbn [N.double]. rewrite N.bits_0. auto. Qed.
Lemma xt_lt : forall a, a < 2 ^ M -> xt a < 2 ^ M.
Proof.
  intros a Ha. rewrite lt_bits in *. intros k Hk.
  assert (D : M < k -> N.testbit (N.double a) k = false).
  { intros C. replace k with (N.succ (N.pred k)) by (apply N.succ_pred; lia).
    rewrite N.double_bits_succ. apply Ha. lia. }
  unfold xt. destruct (N.testbit (N.double a) M) eqn:E.
  - rewrite N.lxor_spec. destruct (N.eq_dec k M) as [->|]. { rewrite E, P_bit. auto. } rewrite D, P_above by lia. auto.
  - destruct (N.eq_dec k M) as [->|]; auto. apply D. lia.
Qed.
Lemma xt_ker : forall a, xt a = 0 -> a = 0.
Proof.
  intros a. unfold xt. destruct (N.testbit (N.double a) M); intros H.
  - apply N.lxor_eq in H. assert (N.odd (N.double a) = true) by (rewrite H; auto). destruct a; discriminate.
  - destruct a; auto. discriminate.
Qed.
Lemma xt_inj : forall a b, xt a = xt b -> a = b.
Proof. intros a b H. apply N.lxor_eq. apply xt_ker. rewrite xt_lin, H. apply N.lxor_nilpotent. Qed.
Lemma xt_cong : forall a, cong P (xt a) (N.double a).
Proof.
  intros a. unfold xt. destruct (N.testbit (N.double a) M); [|apply cong_refl]. exists 1. cbn [clmul clmul_pos].
  rewrite N.lxor_comm, <- N.lxor_assoc, N.lxor_nilpotent, N.lxor_0_l. auto.
Qed.

(** Powers of x. *)
Fixpoint xi (i : nat) (b : N) : N := match i with O => b | S i => xt (xi i b) end.

Lemma xi_lin : forall i a b, xi i (N.lxor a b) = N.lxor (xi i a) (xi i b).
Proof. induction i; intros; cbn [xi]; auto. rewrite IHi. apply xt_lin. Qed.
Lemma xi_0 : forall i, xi i 0 = 0.
Proof. induction i; cbn [xi]; auto. rewrite IHi. apply xt_0. Qed.
Lemma xi_lt : forall i a, a < 2 ^ M -> xi i a < 2 ^ M.
Proof. induction i; intros; cbn [xi]; auto. apply xt_lt. auto. Qed.
Lemma xi_inj : forall i a b, xi i a = xi i b -> a = b.
Proof. induction i; intros a b H; cbn [xi] in H; auto. apply IHi. apply xt_inj. auto. Qed.
Lemma xi_add : forall i j a, xi (i + j) a = xi i (xi j a).
Proof. induction i; intros; cbn [xi Nat.add]; auto. rewrite IHi. auto. Qed.
Lemma one_lt : 1 < 2 ^ M.
Proof. unfold M. replace 1 with (2 ^ 0) by reflexivity. apply N.pow_lt_mono_r; lia. Qed.
Lemma xi1_n0 : forall i, xi i 1 <> 0.
Proof. intros i H. rewrite <- (xi_0 i) in H. apply xi_inj in H. discriminate. Qed.
Lemma xi1_cong : forall i, cong P (xi i 1) (2 ^ N.of_nat i).
Proof.
  induction i. { apply cong_refl. } cbn [xi]. rewrite pow2_S. apply (cong_trans _ _ (N.double (xi i 1))). { apply xt_cong. } apply cong_double. auto.
Qed.
Lemma xt_small : forall a, N.double a < 2 ^ M -> xt a = N.double a.
Proof. intros a H. unfold xt. rewrite lt_bits in H. rewrite H; auto. lia. Qed.
Lemma xi1_small : forall i, (i < m)%nat -> xi i 1 = 2 ^ N.of_nat i.
Proof.
  induction i; intros Hi; auto. cbn [xi]. rewrite IHi by lia. rewrite xt_small, pow2_S; auto. rewrite <- pow2_S. apply N.pow_lt_mono_r; lia.
Qed.

Definition period (n : nat) : Prop := forall k, (0 < k < n)%nat -> xi k 1 <> 1.

Lemma primitive_period : forall n, (forall k, (0 < k < n)%nat -> ~ exists q, N.lxor (2 ^ N.of_nat k) 1 = clmul q P) -> period n.
Proof.
  intros n H k Hk E. apply (H k Hk). pose proof (xi1_cong k) as C. rewrite E in C. apply cong_sym in C. exact C.
Qed.

Section Prim.
Let n := (2 ^ m - 1)%nat.
Hypothesis Hper : period n.

Lemma n_pos : (0 < n)%nat.
Proof. unfold n. assert (2 ^ 1 <= 2 ^ m)%nat by (apply Nat.pow_le_mono_r; lia). cbn in H. lia. Qed.
Lemma pow2_n : 2 ^ M = N.of_nat (S n).
Proof.
  unfold M, n. pose proof n_pos as Hn. unfold n in Hn. replace (S (2 ^ m - 1))%nat with (2 ^ m)%nat by lia.
  clear. induction m; auto. rewrite pow2_S, IHn. cbn [Nat.pow]. rewrite N.double_spec. lia.
Qed.

Lemma xi1_inj : forall i j, (i < n)%nat -> (j < n)%nat -> xi i 1 = xi j 1 -> i = j.
Proof.
  assert (A : forall i j, (i < j)%nat -> (j < n)%nat -> xi i 1 <> xi j 1).
  { intros i j Hi Hj E. replace j with (i + (j - i))%nat in E by lia. rewrite xi_add in E. apply xi_inj in E.
    apply (Hper (j - i)%nat); [lia|auto]. }
  intros i j Hi Hj E. destruct (lt_eq_lt_dec i j) as [[C| ]|C]; auto; exfalso; [apply (A i j)|apply (A j i)]; auto.
Qed.

Lemma xi1_surj : forall a, a <> 0 -> a < 2 ^ M -> exists i, (i < n)%nat /\ xi i 1 = a.
Proof.
  intros a H0 Ha. set (l := map (fun i => xi i 1) (seq 0 n)). set (l' := map N.of_nat (seq 1 n)).
  assert (NoDup l).
  { unfold l.
    assert (G : forall k s, (s + k <= n)%nat -> NoDup (map (fun i => xi i 1) (seq s k))).
    { induction k; intros s Hs; cbn [seq map]; constructor.
      - rewrite in_map_iff. intros (j & E & Hj). apply in_seq in Hj. apply xi1_inj in E; lia.
      - apply IHk. lia. }
    apply (G n 0%nat). lia. }
  assert (I : incl l l').
  { intros b Hb. unfold l in Hb. apply in_map_iff in Hb. destruct Hb as (i & <- & Hi). unfold l'. apply in_map_iff.
    exists (N.to_nat (xi i 1)). split; [apply N2Nat.id|]. apply in_seq. pose proof (xi1_n0 i). pose proof (xi_lt i 1 one_lt) as HL. rewrite pow2_n in HL. lia. }
  assert (J : incl l' l). { apply NoDup_length_incl; auto. unfold l, l'. rewrite !map_length, !seq_length. auto. }
  assert (Ia : In a l'). { unfold l'. apply in_map_iff. exists (N.to_nat a). split; [apply N2Nat.id|]. apply in_seq. rewrite pow2_n in Ha. lia. }
  apply J in Ia. unfold l in Ia. apply in_map_iff in Ia. destruct Ia as (i & E & Hi). exists i. apply in_seq in Hi. split; auto. lia.
Qed.

Lemma xi1_n : xi n 1 = 1.
Proof.
  destruct (xi1_surj (xi n 1)) as (i & Hi & E). { apply xi1_n0. } { apply xi_lt. apply one_lt. }
  destruct i as [|i]. { cbn [xi] in E. auto. }
  exfalso. replace n with (S i + (n - S i))%nat in E by lia. rewrite xi_add in E. apply xi_inj in E. symmetry in E.
  revert E. apply Hper. lia.
Qed.
Lemma xi1_mod : forall i, xi (i mod n) 1 = xi i 1.
Proof.
  intros i. pose proof n_pos as Hn. rewrite (Nat.div_mod i n) at 2 by lia. rewrite Nat.add_comm, xi_add. f_equal.
  induction (i / n)%nat as [|k IH]. { rewrite Nat.mul_0_r. auto. } rewrite Nat.mul_succ_r, xi_add, xi1_n. auto.
Qed.

Definition lg (a : N) : nat := match find (fun i => N.eqb (xi i 1) a) (seq 0 n) with Some i => i | None => O end.
Lemma lg_ok : forall a, a <> 0 -> a < 2 ^ M -> (lg a < n)%nat /\ xi (lg a) 1 = a.
Proof.
  intros a H0 Ha. destruct (xi1_surj a H0 Ha) as (i & Hi & E). unfold lg.
  destruct (find (fun i => N.eqb (xi i 1) a) (seq 0 n)) as [j|] eqn:Ef.
  - apply find_some in Ef. destruct Ef as [Hj Ej]. apply in_seq in Hj. apply N.eqb_eq in Ej. split; auto. lia.
  - exfalso. assert (C : N.eqb (xi i 1) a = false). { apply (find_none _ _ Ef i). apply in_seq. lia. }
    rewrite E, N.eqb_refl in C. discriminate.
Qed.
Lemma lg_xi : forall i, (i < n)%nat -> lg (xi i 1) = i.
Proof.
  intros i Hi. destruct (lg_ok (xi i 1)) as [H1 H2]. { apply xi1_n0. } { apply xi_lt, one_lt. } apply xi1_inj in H2; auto.
Qed.

(** The field. *)
Definition fmulN (a b : N) : N := if N.eqb a 0 then 0 else if N.eqb b 0 then 0 else xi (lg a + lg b) 1.
Definition finvN (a : N) : N := xi (n - lg a) 1.

Lemma fmulN_xi : forall a k, a < 2 ^ M -> fmulN a (xi k 1) = xi k a.
Proof.
  intros a k Ha. unfold fmulN. destruct (N.eqb_spec a 0) as [->|H0]. { rewrite xi_0. auto. }
  destruct (N.eqb_spec (xi k 1) 0) as [C|_]. { apply xi1_n0 in C. contradiction. }
  destruct (lg_ok a H0 Ha) as [L1 L2]. pose proof n_pos as Hn.
  rewrite <- (xi1_mod k), lg_xi by (apply Nat.mod_upper_bound; lia).
  rewrite Nat.add_comm, xi_add, L2. rewrite <- L2 at 1 2. rewrite <- !xi_add. rewrite (Nat.add_comm _ (lg a)), (Nat.add_comm _ (lg a)), !xi_add. f_equal. apply xi1_mod.
Qed.
Lemma fmulN_lt : forall a b, fmulN a b < 2 ^ M.
Proof. intros. unfold fmulN. pose proof one_lt. destruct (N.eqb a 0); [lia|]. destruct (N.eqb b 0); [lia|]. apply xi_lt, one_lt. Qed.
Lemma fmulN_comm : forall a b, fmulN a b = fmulN b a.
Proof. intros. unfold fmulN. destruct (N.eqb a 0), (N.eqb b 0); auto. rewrite Nat.add_comm. auto. Qed.
Lemma fmulN_0r : forall a, fmulN a 0 = 0.
Proof. intros. unfold fmulN. cbn [N.eqb]. destruct (N.eqb a 0); auto. Qed.
Lemma fmulN_0l : forall a, fmulN 0 a = 0.
Proof. reflexivity. Qed.
Lemma fmulN_assoc : forall a b c, a < 2 ^ M -> b < 2 ^ M -> c < 2 ^ M -> fmulN a (fmulN b c) = fmulN (fmulN a b) c.
Proof.
  intros a b c Ha Hb Hc. destruct (N.eq_dec c 0) as [->|c0]. { rewrite !fmulN_0r. auto. }
  destruct (N.eq_dec b 0) as [->|b0]. { rewrite fmulN_0l, !fmulN_0r, fmulN_0l. auto. }
  destruct (lg_ok c c0 Hc) as [_ Ec]. destruct (lg_ok b b0 Hb) as [_ Eb]. 
  assert (E1 : fmulN b c = xi (lg b + lg c) 1). { unfold fmulN. destruct (N.eqb_spec b 0); [contradiction|]. destruct (N.eqb_spec c 0); [contradiction|]. auto. }
  rewrite E1, fmulN_xi by auto. rewrite <- Ec at 2. rewrite fmulN_xi by apply fmulN_lt. rewrite <- Eb at 2. rewrite fmulN_xi by auto.
  rewrite <- xi_add. f_equal. lia.
Qed.
Lemma fmulN_1 : forall a, a < 2 ^ M -> fmulN 1 a = a.
Proof. intros. rewrite fmulN_comm. exact (fmulN_xi a 0 H). Qed.
Lemma fmulN_add : forall a b c, a < 2 ^ M -> b < 2 ^ M -> c < 2 ^ M -> fmulN (N.lxor a b) c = N.lxor (fmulN a c) (fmulN b c).
Proof.
  intros a b c Ha Hb Hc. destruct (N.eq_dec c 0) as [->|c0]. { rewrite !fmulN_0r. auto. }
  destruct (lg_ok c c0 Hc) as [_ Ec]. rewrite <- Ec. rewrite !fmulN_xi; auto. apply xi_lin.
  rewrite lt_bits in *. intros k Hk. rewrite N.lxor_spec, Ha, Hb; auto.
Qed.
Lemma finvN_l : forall a, a <> 0 -> a < 2 ^ M -> fmulN (finvN a) a = 1.
Proof.
  intros a H0 Ha. destruct (lg_ok a H0 Ha) as [L1 L2]. rewrite fmulN_comm. unfold finvN. rewrite fmulN_xi by auto.
  rewrite <- L2 at 2. rewrite <- xi_add. replace (n - lg a + lg a)%nat with n by lia. apply xi1_n.
Qed.
Lemma lxor_lt : forall a b, a < 2 ^ M -> b < 2 ^ M -> N.lxor a b < 2 ^ M.
Proof. intros a b Ha Hb. rewrite lt_bits in *. intros k Hk. rewrite N.lxor_spec, Ha, Hb; auto. Qed.

Definition gfc : Type := { a : N | (a <? 2 ^ M) = true }.
Definition vl (a : gfc) : N := proj1_sig a.
Lemma vl_lt : forall a, vl a < 2 ^ M.
Proof. intros [a H]. cbn. apply N.ltb_lt. auto. Qed.
Definition mk (a : N) (H : a < 2 ^ M) : gfc := exist _ a (proj2 (N.ltb_lt _ _) H).
Lemma vl_inj : forall a b, vl a = vl b -> a = b.
Proof. intros [a Ha] [b Hb] E. cbn in E. subst. f_equal. apply (Eqdep_dec.UIP_dec bool_dec). Qed.
Lemma vl_mk : forall a H, vl (mk a H) = a.
Proof. reflexivity. Qed.
Lemma zero_lt : 0 < 2 ^ M.
Proof. pose proof one_lt. lia. Qed.
Definition gf : field.
Proof.
  refine {| car := gfc; f0 := mk 0 zero_lt; f1 := mk 1 one_lt;
            fadd := fun a b => mk (N.lxor (vl a) (vl b)) (lxor_lt _ _ (vl_lt a) (vl_lt b));
            fmul := fun a b => mk (fmulN (vl a) (vl b)) (fmulN_lt _ _);
            finv := fun a => mk (finvN (vl a)) (xi_lt _ _ one_lt) |}.
  - intros a b. destruct (N.eq_dec (vl a) (vl b)) as [E|E]. { left. apply vl_inj. auto. } right. congruence.
  - intros. apply vl_inj. rewrite !vl_mk. apply N.lxor_comm.
  - intros. apply vl_inj. rewrite !vl_mk. symmetry. apply N.lxor_assoc.
  - intros. apply vl_inj. rewrite !vl_mk. apply N.lxor_0_l.
  - intros. apply vl_inj. rewrite !vl_mk. apply N.lxor_nilpotent.
  - intros. apply vl_inj. rewrite !vl_mk. apply fmulN_comm.
  - intros. apply vl_inj. rewrite !vl_mk. apply fmulN_assoc; apply vl_lt.
  - intros. apply vl_inj. rewrite !vl_mk. apply fmulN_1. apply vl_lt.
  - intros. apply vl_inj. rewrite !vl_mk. apply fmulN_add; apply vl_lt.
  - intros a Ha. apply vl_inj. rewrite !vl_mk. apply finvN_l; [|apply vl_lt]. intros C. apply Ha. apply vl_inj. auto.
  - intros C. apply (f_equal vl) in C. discriminate.
Defined.
End Prim.
End X.
