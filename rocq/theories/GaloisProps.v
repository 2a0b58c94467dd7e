(** C23: the exponential and logarithm tables of the Galois field. *)
From Coq Require Import List Arith NArith ZArith Lia Bool.
From Verif Require Import Base GField GaloisModel GaloisSpec GaloisTheory GaloisPrim GaloisProofs.
Import ListNotations.

(** The tables of GF(2^m) for the polynomial P: alpha_to[i] is the remainder of x^i by P for
    i < 2^m - 1, and index_of inverts it on the non-zero elements. *)
Definition tables_of (m : nat) (P : N) (g : galois) : Prop :=
  gf_m g = m /\ gf_N g = 2 ^ m - 1 /\ length (alpha_to g) = 2 ^ m /\ length (index_of g) = 2 ^ m /\
  (forall i, i < 2 ^ m - 1 -> exists a, nth i (alpha_to g) 0%Z = Z.of_N a /\ is_rem m P (2 ^ N.of_nat i) a /\
     nth (N.to_nat a) (index_of g) 0%Z = Z.of_nat i) /\
  (forall a, (0 < a < 2 ^ N.of_nat m)%N -> exists i, i < 2 ^ m - 1 /\ nth (N.to_nat a) (index_of g) 0%Z = Z.of_nat i /\
     nth i (alpha_to g) 0%Z = Z.of_N a) /\
  nth (2 ^ m - 1) (alpha_to g) 0%Z = 0%Z /\ nth 0 (index_of g) 0%Z = (-1)%Z.

Lemma pow2_pos : forall m, 0 < 2 ^ m.
Proof. intros. apply Nat.neq_0_lt_0. apply Nat.pow_nonzero. lia. Qed.
Lemma Z_n : forall m, Z.of_nat (2 ^ m - 1) = (2 ^ Z.of_nat m - 1)%Z.
Proof. intros. pose proof (pow2_pos m). rewrite Nat2Z.inj_sub by lia. rewrite Nat2Z.inj_pow. auto. Qed.

Lemma nth_repeat0 : forall k i, nth i (repeat 0%Z k) 0%Z = 0%Z.
Proof. induction k; destruct i; cbn; auto. Qed.

Theorem C23_tables : forall w m p, 2 <= m <= 20 -> (Z.of_nat m < w)%Z ->
  p = [] \/ length p = m + 1 /\ primitive m (poly_of p) ->
  exists g, galois_ctor w (2 ^ m - 1) p = Ret g /\
    gf_p g = (match p with [] => select_polynomial m | _ => p end) /\ tables_of m (poly_of (gf_p g)) g.
Proof.
  intros w m p Hm Hw HP. unfold galois_ctor. pose proof (pow2_pos m) as Hpos. rewrite Z_n.
  assert (Z4 : (4 <= 2 ^ Z.of_nat m)%Z) by (change 4%Z with (2 ^ 2)%Z; apply Z.pow_le_mono_r; lia).
  assert (ZS : (2 ^ Z.of_nat m = 2 * 2 ^ (Z.of_nat m - 1))%Z) by (rewrite <- Z.pow_succ_r by lia; f_equal; lia).
  assert (E1 : Z.log2_up (2 ^ Z.of_nat m - 1) = Z.of_nat m).
  { apply Z.log2_up_unique; lia. }
  assert (E2 : Z.log2_up (2 ^ Z.of_nat m - 1 + 1) = Z.of_nat m).
  { replace (2 ^ Z.of_nat m - 1 + 1)%Z with (2 ^ Z.of_nat m)%Z by lia. apply Z.log2_up_pow2. lia. }
  rewrite E1, E2, Nat2Z.id, Nat.eqb_refl. 
  pose proof (Z_n m) as ZN.
  destruct (Nat.ltb_spec 0 (2 ^ m - 1)); [|lia]. destruct (Nat.ltb_spec 1 m); [|lia]. destruct (Nat.leb_spec m 20); [|lia].
  destruct (Z.leb_spec (Z.of_nat m) w); [|lia]. rewrite Z.shiftl_mul_pow2 by lia. rewrite Z.mul_1_l, Z.eqb_refl. cbn [guard bind].
  set (q := match p with [] => select_polynomial m | _ => p end).
  assert (Hq : length q = m + 1 /\ primitive m (poly_of q)).
  { unfold q. destruct HP as [->|[HL HP]]. { split. unfold select_polynomial. rewrite length_tab. lia. apply default_primitive. lia. }
    destruct p; auto. cbn in HL. lia. }
  assert (G : guard (match p with [] => true | _ => length p =? m + 1 end) = Ret tt).
  { destruct p; auto. destruct HP as [|[HL _]]; [discriminate|]. rewrite HL, Nat.eqb_refl. auto. }
  rewrite G. cbn [bind]. clear G. fold q. destruct Hq as [HL HQ].
  destruct (generate_ok w m (2 ^ m - 1) q ltac:(lia) Hw HL HQ eq_refl (repeat 0%Z (2 ^ m - 1 + 1)) (repeat 0%Z (2 ^ m - 1 + 1)))
    as (a & ix & E & L1 & L2 & J1 & J2 & J3 & J4); try apply repeat_length.
  rewrite E. cbn [bind]. eexists. split; [reflexivity|]. cbn [gf_p]. split; auto. unfold tables_of. cbn [gf_m gf_N alpha_to index_of].
  destruct (primitive_inv m (poly_of q)) as (A1 & A2 & A3); auto; [lia|].
  split; auto. split; auto. split; [lia|]. split; [lia|]. split; [|split; [|split]]; auto.
  - intros i Hi. exists (pwx m q i). split; auto. split; auto. unfold is_rem, pwx. split.
    + apply xi_lt; auto; try lia.
    + assert (C : cong (poly_of q) (xi m (poly_of q) i 1) (2 ^ N.of_nat i)) by (apply xi1_cong; auto; lia). destruct C as (x & Hx). exists x. rewrite <- Hx.
      rewrite N.lxor_comm, <- N.lxor_assoc, N.lxor_nilpotent. auto.
  - intros x [Hx1 Hx2]. assert (S : exists i, i < 2 ^ m - 1 /\ xi m (poly_of q) i 1 = x) by (apply xi1_surj; auto; lia). destruct S as (i & Hi & Ei).
    exists i. split; auto. rewrite J1 by auto. unfold pwx in *. rewrite <- Ei. split; auto.
  - rewrite J4. apply nth_repeat0.
Qed.

(** The polynomials used when none is given are primitive. *)
Theorem C23_default_primitive : forall m, 2 <= m <= 20 -> length (select_polynomial m) = m + 1 /\ primitive m (poly_of (select_polynomial m)).
Proof. intros. split; [unfold select_polynomial; rewrite length_tab; lia|]. apply default_primitive. auto. Qed.

Lemma tables_pwx : forall m P g, 1 <= m -> primitive m P -> tables_of m P g ->
  forall i, i < 2 ^ m - 1 -> nth i (alpha_to g) 0%Z = Z.of_N (xi m P i 1) /\ nth (N.to_nat (xi m P i 1)) (index_of g) 0%Z = Z.of_nat i.
Proof.
  intros m P g Hm HP (T1 & T2 & T3 & T4 & T5 & T6 & T7 & T8) i Hi. destruct (primitive_inv m P Hm HP) as (A1 & A2 & A3).
  assert (HP0 : P <> 0%N) by (intros E; rewrite E in A2; discriminate).
  destruct (T5 i Hi) as (a & Ea & [Ha (q & Hq)] & Ia). replace (xi m P i 1) with a; auto.
  apply (cong_eq m P); auto. { apply xi_lt; auto. apply (one_lt m P); auto. }
  apply (cong_trans _ _ (2 ^ N.of_nat i)%N). 2:{ apply cong_sym. apply xi1_cong; auto. }
  apply cong_sym. exists q. rewrite Hq, N.lxor_assoc, N.lxor_nilpotent, N.lxor_0_r. auto.
Qed.

(** Adding logarithms modulo N multiplies field elements. *)
Theorem C23_product : forall m P g, 1 <= m -> primitive m P -> tables_of m P g ->
  forall a b, (0 < a < 2 ^ N.of_nat m)%N -> (0 < b < 2 ^ N.of_nat m)%N ->
  exists c, nth (Z.to_nat ((nth (N.to_nat a) (index_of g) 0%Z + nth (N.to_nat b) (index_of g) 0%Z) mod Z.of_nat (gf_N g))) (alpha_to g) 0%Z = Z.of_N c /\
    is_rem m P (clmul a b) c.
Proof.
  intros m P g Hm HP HT a b Ha Hb. pose proof (tables_pwx m P g Hm HP HT) as TP. destruct HT as (T1 & T2 & T3 & T4 & T5 & T6 & T7 & T8). rewrite T2.
  destruct (primitive_inv m P Hm HP) as (A1 & A2 & A3). assert (Hn : 0 < 2 ^ m - 1) by (apply (n_pos m P); auto).
  destruct (T6 a Ha) as (i & Hi & Ia & Aa). destruct (T6 b Hb) as (j & Hj & Ib & Ab). rewrite Ia, Ib.
  rewrite <- Nat2Z.inj_add, <- Nat2Z.inj_mod, Nat2Z.id.
  assert (Hk : (i + j) mod (2 ^ m - 1) < 2 ^ m - 1) by (apply Nat.mod_upper_bound; lia).
  destruct (TP _ Hk) as [Ec _]. rewrite Ec. eexists. split; [reflexivity|]. rewrite xi1_mod by auto.
  destruct (TP i Hi) as [Ea _]. rewrite Aa in Ea. apply N2Z.inj in Ea. subst a.
  destruct (TP j Hj) as [Eb _]. rewrite Ab in Eb. apply N2Z.inj in Eb. subst b.
  split. { apply xi_lt; auto. apply (one_lt m P); auto. }
  assert (C1 : cong P (clmul (xi m P i 1) (xi m P j 1)) (xi m P (i + j) 1)).
  { apply (cong_trans _ _ (2 ^ N.of_nat (i + j))%N). rewrite <- clmul_pow2. apply cong_mul; apply xi1_cong; auto. apply cong_sym. apply xi1_cong; auto. }
  destruct C1 as (q & Hq). exists q. rewrite <- Hq, N.lxor_assoc, N.lxor_nilpotent, N.lxor_0_r. auto.
Qed.

(** Nothing else is accepted: N is 2^m - 1 with 2 <= m <= 20. *)
Theorem C23_accepts : forall w N p g, galois_ctor w N p = Ret g ->
  gf_N g = N /\ 2 <= gf_m g <= 20 /\ N = 2 ^ gf_m g - 1 /\ (Z.of_nat (gf_m g) <= w)%Z /\ length (gf_p g) = gf_m g + 1.
Proof.
  intros w N p g. unfold galois_ctor, guard. cbv zeta.
  destruct (Nat.ltb_spec 0 N); cbn [bind]; [|discriminate].
  destruct (Nat.eqb_spec (Z.to_nat (Z.log2_up (Z.of_nat N))) (Z.to_nat (Z.log2_up (Z.of_nat N + 1)))); cbn [bind]; [|discriminate].
  set (m := Z.to_nat (Z.log2_up (Z.of_nat N))) in *.
  destruct (Nat.ltb_spec 1 m); cbn [bind]; [|discriminate]. destruct (Nat.leb_spec m 20); cbn [bind]; [|discriminate].
  destruct (Z.leb_spec (Z.of_nat m) w); cbn [bind]; [|discriminate].
  destruct (Z.eqb_spec (Z.of_nat N) (Z.shiftl 1 (Z.of_nat m) - 1)) as [E|]; cbn [bind]; [|discriminate].
  destruct (match p with [] => true | _ => length p =? m + 1 end) eqn:EP; cbn [bind]; [|discriminate].
  destruct (generate_gf _ _ _ _ _ _) as [[al ix]| |]; cbn [bind]; try discriminate. intros H3. inversion H3. cbn [gf_N gf_m gf_p].
  rewrite Z.shiftl_mul_pow2 in E by lia. rewrite Z.mul_1_l, <- Z_n in E. repeat split; auto; try lia.
  destruct p. { unfold select_polynomial. rewrite length_tab. lia. } apply Nat.eqb_eq in EP. auto.
Qed.

(** With 8-bit elements and m = 8 the constructor is not refused, and indexes a table with a
    negative number. *)
Theorem C23_width_refuted : galois_ctor 8 (2 ^ 8 - 1) [] = Undef.
Proof. vm_compute. reflexivity. Qed.

(** A polynomial that is not primitive is accepted, and the tables are not inverse of each other. *)
Theorem C23_nonprimitive_refuted : exists g, galois_ctor 32 15 [1;1;1;1;1]%Z = Ret g /\
  nth 0 (alpha_to g) 0%Z = 1%Z /\ nth 1 (index_of g) 0%Z = 10%Z /\ nth 3 (index_of g) 0%Z = 0%Z.
Proof. eexists. split; [vm_compute; reflexivity|]. vm_compute. auto. Qed.

(** A user polynomial meets the hypothesis: x^4 + x^3 + 1. *)
Example C23_user_poly : primitive 4 (poly_of [1;0;0;1;1]%Z).
Proof.
  destruct (check_ok 4 (poly_of [1;0;0;1;1]%Z) [3;5]%Z) as (H1 & H2 & H3 & H4); [vm_compute; reflexivity|].
  apply period_primitive; auto.
Qed.
Example C23_example : exists g, galois_ctor 8 7 [] = Ret g /\ alpha_to g = [1;2;4;3;6;7;5;0]%Z /\ index_of g = [-1;0;1;3;2;6;4;5]%Z.
Proof. eexists. split; [vm_compute; reflexivity|]. vm_compute. auto. Qed.
