(** The default polynomials of the library are primitive. *)
From Coq Require Import List Arith NArith ZArith Znumtheory Lia Bool.
From Verif Require Import GField GaloisSpec GaloisTheory.
Import ListNotations.

(* ------------------------------------------------------------------ *)
(** * Fast powers of x *)

Section Pow.
Variables (m : nat) (P : N).
Hypothesis Hm : (1 <= m)%nat.
Hypothesis Pm : N.log2 P = N.of_nat m.
Hypothesis P0 : N.odd P = true.

Fixpoint mulxp (a : positive) (b : N) : N :=
  match a with
  | xH => b
  | xO a => mulxp a (xt m P b)
  | xI a => N.lxor b (mulxp a (xt m P b))
  end.
Definition mulx (a b : N) : N := match a with N0 => 0%N | Npos a => mulxp a b end.

Lemma mulx_ok : forall a j, (a < 2 ^ N.of_nat m)%N -> mulx a (xi m P j 1) = xi m P j a.
Proof.
  intros [|a] j Ha. { rewrite xi_0. auto. } cbn [mulx]. revert j Ha. induction a as [a IH|a IH|]; intros j Ha; cbn [mulxp].
  - assert (D : (N.double (Npos a) < 2 ^ N.of_nat m)%N) by (cbn [N.double]; lia).
    change (xt m P (xi m P j 1)) with (xi m P (S j) 1). rewrite IH by lia.
    change (Npos a~1) with (N.lxor 1 (N.double (Npos a))). rewrite xi_lin. f_equal. rewrite <- (xt_small m P) by auto.
    change (xt m P (Npos a)) with (xi m P 1 (Npos a)). rewrite <- xi_add. f_equal. lia.
  - assert (D : (N.double (Npos a) < 2 ^ N.of_nat m)%N) by (cbn [N.double]; lia).
    change (xt m P (xi m P j 1)) with (xi m P (S j) 1). rewrite IH by lia.
    change (Npos a~0) with (N.double (Npos a)). rewrite <- (xt_small m P) by auto.
    change (xt m P (Npos a)) with (xi m P 1 (Npos a)). rewrite <- xi_add. f_equal. lia.
  - auto.
Qed.

Fixpoint powx (e : positive) : N :=
  match e with
  | xH => xt m P 1
  | xO e => let y := powx e in mulx y y
  | xI e => let y := powx e in xt m P (mulx y y)
  end.

Lemma powx_ok : forall e, powx e = xi m P (Pos.to_nat e) 1.
Proof.
  assert (S : forall i, mulx (xi m P i 1) (xi m P i 1) = xi m P (i + i) 1).
  { intros. rewrite mulx_ok by (apply xi_lt; auto; apply (one_lt m P); auto). rewrite xi_add. auto. }
  induction e; cbn [powx].
  - rewrite IHe, S. rewrite Pos2Nat.inj_xI. change (xt m P ?a) with (xi m P 1 a). cbn [xi]. f_equal. f_equal. lia.
  - rewrite IHe, S. rewrite Pos2Nat.inj_xO. f_equal. lia.
  - reflexivity.
Qed.

Lemma xi1_gcd : forall a b, xi m P a 1 = 1%N -> xi m P b 1 = 1%N -> xi m P (Nat.gcd a b) 1 = 1%N.
Proof.
  induction a as [a IH] using lt_wf_ind. intros b Ha Hb. destruct a as [|a]; auto.
  change (Nat.gcd (S a) b) with (Nat.gcd (b mod S a) (S a)).
  apply IH; auto. { apply Nat.mod_upper_bound. lia. }
  rewrite (Nat.div_mod b (S a)) in Hb by lia. rewrite Nat.add_comm, xi_add in Hb.
  assert (K : forall k, xi m P (S a * k) 1 = 1%N).
  { induction k. { rewrite Nat.mul_0_r. auto. } rewrite Nat.mul_succ_r, xi_add, Ha. auto. }
  rewrite K in Hb. auto.
Qed.

Lemma period_check : forall n (qs : list nat), (0 < n)%nat -> xi m P n 1 = 1%N ->
  (forall e, (1 < e)%nat -> Nat.divide e n -> exists q, In q qs /\ Nat.divide q e) ->
  (forall q, In q qs -> (0 < q)%nat /\ xi m P (n / q) 1 <> 1%N) -> period m P n.
Proof.
  intros n qs Hn H1 HD HQ k Hk E. pose proof (xi1_gcd k n E H1) as G. set (d := Nat.gcd k n) in *.
  assert (Dn : Nat.divide d n) by apply Nat.gcd_divide_r. assert (Dk : Nat.divide d k) by apply Nat.gcd_divide_l.
  destruct Dn as [e He]. assert (d <= k)%nat by (apply Nat.divide_pos_le; [lia|auto]).
  assert (1 < e)%nat. { destruct e as [|[|e]]; lia. }
  destruct (HD e) as (q & Hq & (f & Hf)); auto. { exists d. lia. }
  destruct (HQ q Hq) as [q0 C]. apply C. rewrite He, Hf. replace (f * q * d)%nat with (f * d * q)%nat by lia. rewrite Nat.div_mul by lia.
  clear -G. induction f; cbn [Nat.mul]; auto. rewrite xi_add, IHf. auto.
Qed.
End Pow.

(* ------------------------------------------------------------------ *)
(** * Factorisations *)

Local Open Scope Z_scope.

Definition primeb (q : Z) : bool :=
  (1 <? q) && forallb (fun d => negb (q mod Z.of_nat d =? 0)) (seq 2 (Z.to_nat (Z.sqrt q) - 1)).

Lemma primeb_ok : forall q, primeb q = true -> prime q.
Proof.
  intros q H. unfold primeb in H. apply andb_prop in H. destruct H as [H1 H2]. apply Z.ltb_lt in H1. rewrite forallb_forall in H2.
  assert (A : forall d, 1 < d -> d * d <= q -> ~ (d | q)).
  { intros d Hd Hs C. assert (d <= Z.sqrt q) by (apply Z.sqrt_le_square; lia). specialize (H2 (Z.to_nat d)).
    rewrite Z2Nat.id in H2 by lia. apply negb_true_iff, Z.eqb_neq in H2.
    - apply H2. apply Z.mod_divide; [lia|auto].
    - apply in_seq. lia. }
  apply prime_alt. split; auto. intros d Hd (e & He). destruct (Z.le_gt_cases (d * d) q) as [C|C].
  - apply (A d); [lia|auto|]. exists e. auto.
  - assert (1 < e < d) by nia. apply (A e); [lia|nia|]. exists d. lia.
Qed.

Definition prodl (l : list Z) : Z := fold_right Z.mul 1 l.

Lemma prime_cover : forall fs, forallb primeb fs = true -> forall e, 1 < e -> (e | prodl fs) -> exists q, In q fs /\ (q | e).
Proof.
  induction fs as [|q fs IH]; intros H e He D.
  - cbn in D. apply Z.divide_1_r_nonneg in D; lia.
  - cbn [forallb] in H. apply andb_prop in H. destruct H as [Hq Hf]. apply primeb_ok in Hq.
    destruct (Zdivide_dec q e) as [|ND]. { exists q. split; auto. left. auto. }
    destruct (IH Hf e He) as (q' & Hq' & D'). 2:{ exists q'. split; auto. right. auto. }
    apply Gauss with (b := q). { exact D. } apply rel_prime_sym. apply prime_rel_prime; auto.
Qed.

(** [P] is primitive of degree [m], given the prime factors of 2^m - 1. *)
Definition check (m : nat) (P : N) (fs : list Z) : bool :=
  let n := 2 ^ Z.of_nat m - 1 in
  (N.log2 P =? N.of_nat m)%N && N.odd P && (1 <=? m)%nat && (0 <? n)
  && (prodl fs =? n) && forallb primeb fs
  && (powx m P (Z.to_pos n) =? 1)%N
  && forallb (fun q => (0 <? n / q) && negb (powx m P (Z.to_pos (n / q)) =? 1)%N) fs.

Lemma check_ok : forall m P fs, check m P fs = true -> (1 <= m)%nat /\ N.log2 P = N.of_nat m /\ N.odd P = true /\ period m P (2 ^ m - 1)%nat.
Proof.
  intros m P fs H. unfold check in H. rewrite !andb_true_iff in H. destruct H as (((((((H1 & H2) & H3) & H4) & H5) & H6) & H7) & H8).
  apply N.eqb_eq in H1. apply Nat.leb_le in H3. apply Z.ltb_lt in H4. apply Z.eqb_eq in H5. apply N.eqb_eq in H7. rewrite forallb_forall in H8.
  repeat split; auto. 
  assert (En : Z.of_nat (2 ^ m - 1) = 2 ^ Z.of_nat m - 1).
  { rewrite Nat2Z.inj_sub. { rewrite Nat2Z.inj_pow. auto. } apply Nat.neq_0_lt_0. apply Nat.pow_nonzero. lia. }
  set (n := (2 ^ m - 1)%nat) in *. rewrite <- En in *.
  apply (period_check m P) with (qs := map Z.to_nat fs); auto.
  - lia.
  - rewrite powx_ok in H7 by auto. replace n with (Pos.to_nat (Z.to_pos (Z.of_nat n))); auto. lia.
  - intros e He (c & D). destruct (prime_cover fs H6 (Z.of_nat e)) as (q & Hq & (f & Hf)); [lia| |].
    + rewrite H5. exists (Z.of_nat c). lia.
    + exists (Z.to_nat q). split; [apply in_map; auto|]. 
      assert (0 < q). { rewrite forallb_forall in H6. apply H6 in Hq. apply primeb_ok in Hq. apply prime_ge_2 in Hq. lia. }
      exists (Z.to_nat f). rewrite <- Z2Nat.inj_mul by nia. lia.
  - intros q Hq. apply in_map_iff in Hq. destruct Hq as (z & <- & Hz). pose proof (H8 z Hz) as C. apply andb_prop in C. destruct C as [C0 C].
    apply Z.ltb_lt in C0. apply negb_true_iff, N.eqb_neq in C.
    assert (0 < z). { rewrite forallb_forall in H6. apply H6 in Hz. apply primeb_ok in Hz. apply prime_ge_2 in Hz. lia. }
    split; [lia|]. rewrite powx_ok in C by auto. 
    replace (n / Z.to_nat z)%nat with (Pos.to_nat (Z.to_pos (Z.of_nat n / z))); auto.
    apply Nat2Z.inj. rewrite Nat2Z.inj_div, Z2Nat.id by lia. rewrite positive_nat_Z, Z2Pos.id by auto. auto.
Qed.
