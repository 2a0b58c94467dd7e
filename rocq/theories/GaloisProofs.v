From Coq Require Import List Arith NArith ZArith Lia Bool.
From Verif Require Import Base GField GaloisModel GaloisSpec GaloisTheory GaloisPrim.
Import ListNotations.

(* ------------------------------------------------------------------ *)
(** * Degrees *)

Lemma clmul_top : forall q P, q <> 0%N -> P <> 0%N -> N.testbit (clmul q P) (N.log2 q + N.log2 P) = true.
Proof.
  intros [|q] P Hq HP; [congruence|]. cbn [clmul]. clear Hq. induction q as [q IH|q IH|]; cbn [clmul_pos].
  - assert (E : N.log2 (N.pos q~1) = N.succ (N.log2 (N.pos q))) by (destruct q; reflexivity).
    rewrite E, N.lxor_spec. rewrite N.bits_above_log2 by lia. rewrite N.add_succ_l, N.double_bits_succ, IH. auto.
  - assert (E : N.log2 (N.pos q~0) = N.succ (N.log2 (N.pos q))) by (destruct q; reflexivity).
    rewrite E. rewrite N.add_succ_l, N.double_bits_succ, IH. auto.
  - cbn [N.log2 N.add]. apply N.bit_log2. auto.
Qed.

Lemma clmul_small : forall m q P, N.log2 P = N.of_nat m -> P <> 0%N -> (clmul q P < 2 ^ N.of_nat m)%N -> q = 0%N.
Proof.
  intros m q P Hm HP H. destruct (N.eq_dec q 0) as [|Hq]; auto. pose proof (clmul_top q P Hq HP) as T. rewrite lt_bits in H.
  rewrite H in T; [discriminate|]. lia.
Qed.

Lemma cong_eq : forall m P a b, N.log2 P = N.of_nat m -> P <> 0%N -> (a < 2 ^ N.of_nat m)%N -> (b < 2 ^ N.of_nat m)%N -> cong P a b -> a = b.
Proof.
  intros m P a b Hm HP Ha Hb (q & H). apply N.lxor_eq. rewrite H. rewrite (clmul_small m q P); auto. rewrite <- H.
  rewrite lt_bits in *. intros k Hk. rewrite N.lxor_spec, Ha, Hb; auto.
Qed.

Lemma period_primitive : forall m P, (1 <= m)%nat -> N.log2 P = N.of_nat m -> N.odd P = true -> period m P (2 ^ m - 1) -> primitive m P.
Proof.
  intros m P Hm HL HO HP. split; auto. split; auto. intros k Hk C. apply (HP k Hk).
  assert (HP0 : P <> 0%N) by (intros E; rewrite E in HO; discriminate).
  apply (cong_eq m P); auto. { apply xi_lt; auto. apply (one_lt m P); auto. } { apply (one_lt m P); auto. }
  apply (cong_trans _ _ (2 ^ N.of_nat k)%N); auto. apply xi1_cong; auto.
Qed.

Lemma primitive_inv : forall m P, (1 <= m)%nat -> primitive m P -> N.log2 P = N.of_nat m /\ N.odd P = true /\ period m P (2 ^ m - 1).
Proof. intros m P Hm (H1 & H2 & H3). repeat split; auto. apply primitive_period; auto. Qed.

(* ------------------------------------------------------------------ *)
(** * The default polynomials *)

Definition mersenne_factors (m : nat) : list Z :=
  nth (m - 2) ([[3]; [7]; [3;5]; [31]; [3;3;7]; [127]; [3;5;17]; [7;73]; [3;11;31]; [23;89]; [3;3;5;7;13]; [8191]; [3;43;127]; [7;31;151];
    [3;5;17;257]; [131071]; [3;3;3;7;19;73]; [524287]; [3;5;5;11;31;41]]%Z) [].

Lemma default_check : forallb (fun m => check m (poly_of (select_polynomial m)) (mersenne_factors m)) (seq 2 19) = true.
Proof. vm_compute. reflexivity. Qed.

Lemma default_primitive : forall m, 2 <= m <= 20 -> primitive m (poly_of (select_polynomial m)).
Proof.
  intros m Hm. pose proof default_check as H. rewrite forallb_forall in H.
  destruct (check_ok m (poly_of (select_polynomial m)) (mersenne_factors m)) as (H1 & H2 & H3 & H4). { apply H. apply in_seq. lia. }
  apply period_primitive; auto.
Qed.

(* ------------------------------------------------------------------ *)
(** * The tables *)

Lemma Zlxor_N : forall a b, Z.lxor (Z.of_N a) (Z.of_N b) = Z.of_N (N.lxor a b).
Proof. intros [|a] [|b]; auto. Qed.
Lemma Zshiftl_N : forall a, Z.shiftl (Z.of_N a) 1 = Z.of_N (N.double a).
Proof. intros [|a]; auto. Qed.
Lemma Zpow2_N : forall k, (2 ^ Z.of_nat k)%Z = Z.of_N (2 ^ N.of_nat k).
Proof. intros. rewrite N2Z.inj_pow, nat_N_Z. auto. Qed.
Lemma cast_small : forall w z, (0 < w)%Z -> (0 <= z < 2 ^ (w - 1))%Z -> cast w z = z.
Proof.
  intros w z Hw Hz. unfold cast. rewrite Z.mod_small; [lia|]. assert (E : (2 ^ w = 2 * 2 ^ (w - 1))%Z) by (rewrite <- Z.pow_succ_r by lia; f_equal; lia). lia.
Qed.
Lemma wrz_N : forall A (l : list A) a x, wrz l (Z.of_N a) x = wr l (N.to_nat a) x.
Proof. intros. unfold wrz. destruct (Z.ltb_spec (Z.of_N a) 0); [lia|]. f_equal. lia. Qed.
Lemma rdz_N : forall A (l : list A) a, rdz l (Z.of_N a) = rd l (N.to_nat a).
Proof. intros. unfold rdz. destruct (Z.ltb_spec (Z.of_N a) 0); [lia|]. f_equal. lia. Qed.
Lemma rdz_nat : forall A (l : list A) a, rdz l (Z.of_nat a) = rd l a.
Proof. intros. unfold rdz. destruct (Z.ltb_spec (Z.of_nat a) 0); [lia|]. f_equal. lia. Qed.
Lemma wrz_nat : forall A (l : list A) a x, wrz l (Z.of_nat a) x = wr l a x.
Proof. intros. unfold wrz. destruct (Z.ltb_spec (Z.of_nat a) 0); [lia|]. f_equal. lia. Qed.

Lemma poly_of_bit : forall p k, N.testbit (poly_of p) (N.of_nat k) = negb (nth k p 0%Z =? 0)%Z.
Proof.
  induction p as [|c p IH]; intros k. { cbn [poly_of]. rewrite N.bits_0. destruct k; auto. }
  cbn [poly_of]. rewrite N.lxor_spec. destruct k as [|k].
  - cbn [nth]. change (N.of_nat 0) with 0%N. replace (N.testbit (N.double (poly_of p)) 0) with false by (destruct (poly_of p); auto). destruct (c =? 0)%Z; auto.
  - rewrite Nat2N.inj_succ, N.double_bits_succ, IH. cbn [nth]. destruct (c =? 0)%Z; cbn [negb].
    + rewrite N.bits_0. destruct (nth k p 0 =? 0)%Z; auto.
    + replace (N.testbit 1 (N.succ (N.of_nat k))) with false by (destruct (N.of_nat k); auto). destruct (nth k p 0 =? 0)%Z; auto.
Qed.

Lemma bits_nat : forall a b, (forall k, N.testbit a (N.of_nat k) = N.testbit b (N.of_nat k)) -> a = b.
Proof. intros a b H. apply N.bits_inj. intros k. rewrite <- (N2Nat.id k). apply H. Qed.

Lemma testbit_pow2 : forall i k, N.testbit (2 ^ N.of_nat i) (N.of_nat k) = (k =? i).
Proof. intros. rewrite N.pow2_bits_eqb. destruct (Nat.eqb_spec k i); [apply N.eqb_eq|apply N.eqb_neq]; lia. Qed.

Lemma double_pow2 : forall i, N.double (2 ^ N.of_nat i) = (2 ^ N.of_nat (S i))%N.
Proof. intros. symmetry. apply pow2_S. Qed.

Section Tables.
Variables (w : Z) (m N : nat) (p : list Z).
Let P := poly_of p.
Let n := 2 ^ m - 1.
Hypothesis Hm : 2 <= m.
Hypothesis Hw : (Z.of_nat m < w)%Z.
Hypothesis Hp : length p = m + 1.
Hypothesis Hprim : primitive m P.
Hypothesis HN : N = n.

Definition pwx (i : nat) : BinNums.N := xi m P i 1.

Lemma Hm1 : 1 <= m.
Proof. lia. Qed.
Lemma per : period m P n.
Proof. destruct (primitive_inv m P ltac:(lia) Hprim) as (A & B & C). assumption. Qed.
Lemma Plog : N.log2 P = N.of_nat m.
Proof. destruct (primitive_inv m P ltac:(lia) Hprim) as (A & B & C). assumption. Qed.
Lemma Podd : N.odd P = true.
Proof. destruct (primitive_inv m P ltac:(lia) Hprim) as (A & B & C). assumption. Qed.

Lemma m_lt_n : m < n.
Proof.
  unfold n. clear -Hm. assert (forall k, 2 <= k -> k + 1 < 2 ^ k); [|specialize (H m Hm); lia].
  induction 1 as [|k Hk IH]. { cbn. lia. } rewrite Nat.pow_succ_r'. lia.
Qed.
Lemma pow_w : (2 ^ Z.of_nat m <= 2 ^ (w - 1))%Z.
Proof. apply Z.pow_le_mono_r; lia. Qed.
Lemma cast_N : forall a, (a < 2 ^ N.of_nat m)%N -> cast w (Z.of_N a) = Z.of_N a.
Proof. intros a Ha. pose proof pow_w as H. rewrite Zpow2_N in H. apply cast_small; lia. Qed.
Lemma pow2_nat : Z.of_nat n = (2 ^ Z.of_nat m - 1)%Z.
Proof.
  unfold n. rewrite Nat2Z.inj_sub. { rewrite Nat2Z.inj_pow. auto. } apply Nat.neq_0_lt_0. apply Nat.pow_nonzero. lia.
Qed.
Lemma cast_nat : forall i, i <= n -> cast w (Z.of_nat i) = Z.of_nat i.
Proof. intros i Hi. pose proof pow_w as H. pose proof pow2_nat. apply cast_small; lia. Qed.
Lemma pwx_lt : forall i, (pwx i < 2 ^ N.of_nat m)%N.
Proof. intros. apply xi_lt; auto using Plog, Podd, Hm1. apply (one_lt m P); auto using Plog, Podd, Hm1. Qed.
Lemma pwx_idx : forall i, 0 < N.to_nat (pwx i) <= n.
Proof.
  intros i. pose proof (pwx_lt i) as H. assert (pwx i <> 0%N) by (apply xi1_n0; auto using Plog, Podd, Hm1).
  pose proof pow2_nat. rewrite Zpow2_N in H1. lia.
Qed.
Lemma pwx_inj : forall i j, i < n -> j < n -> N.to_nat (pwx i) = N.to_nat (pwx j) -> i = j.
Proof. intros i j Hi Hj E. apply (xi1_inj m P); auto using per, Plog, Podd, Hm1. unfold pwx in E. lia. Qed.

(** The low part of p. *)
Definition low (i : nat) : BinNums.N := poly_of (firstn i p).
Lemma low_bit : forall i k, N.testbit (low i) (N.of_nat k) = (k <? i) && N.testbit P (N.of_nat k).
Proof.
  intros. unfold low, P. rewrite !poly_of_bit. destruct (Nat.ltb_spec k i); cbn [andb].
  - f_equal. f_equal. revert k i H. generalize p. clear. induction p as [|c l IH]; intros k i H. { rewrite firstn_nil. auto. }
    destruct i; [lia|]. destruct k; auto. cbn [firstn nth]. apply IH. lia.
  - rewrite nth_overflow; auto. rewrite firstn_length. lia.
Qed.
Lemma low_S : forall i, i < m -> low (S i) = if (nth i p 0 =? 0)%Z then low i else N.lxor (low i) (2 ^ N.of_nat i).
Proof.
  intros i Hi. apply bits_nat. intros k. pose proof (poly_of_bit p i) as B. fold P in B. destruct (nth i p 0 =? 0)%Z; cbn [negb] in B.
  - rewrite !low_bit. destruct (Nat.ltb_spec k (S i)), (Nat.ltb_spec k i); auto; try lia. replace k with i by lia. rewrite B. auto.
  - rewrite N.lxor_spec, testbit_pow2, !low_bit. destruct (Nat.ltb_spec k (S i)), (Nat.ltb_spec k i), (Nat.eqb_spec k i); try lia; cbn [andb xorb].
    + symmetry. apply xorb_false_r.
    + subst. rewrite B. auto.
    + auto.
Qed.
Lemma low_lt : forall i, i <= m -> (low i < 2 ^ N.of_nat m)%N.
Proof.
  intros i Hi. apply lt_bits. intros k Hk. rewrite <- (N2Nat.id k), low_bit. destruct (Nat.ltb_spec (N.to_nat k) i); auto. lia.
Qed.
Lemma low_m : low m = pwx m.
Proof.
  assert (E : pwx m = xt m P (xi m P (m - 1) 1)). { unfold pwx. replace (xi m P m 1) with (xi m P (S (m - 1)) 1) by (f_equal; lia). auto. }
  rewrite E, (xi1_small m P) by (auto using Plog, Podd, Hm1; lia). unfold xt.
  rewrite double_pow2. replace (S (m - 1)) with m by lia. rewrite testbit_pow2, Nat.eqb_refl. apply bits_nat. intros k.
  rewrite low_bit, N.lxor_spec, testbit_pow2. destruct (Nat.ltb_spec k m), (Nat.eqb_spec k m); try lia; cbn [andb].
  - destruct (N.testbit P (N.of_nat k)); auto.
  - subst k. pose proof (P_bit m P Plog Podd) as B. rewrite B. auto.
  - rewrite N.bits_above_log2; auto. rewrite Plog. lia.
Qed.

Definition loop1 := fun i '(alpha, index, mask) =>
     alpha <- wr alpha i (cast w mask) ;;
     v <- rd alpha i ;;
     index <- wrz index v (cast w (Z.of_nat i)) ;;
     pi <- rd p i ;;
     alpha <- (if (pi =? 0)%Z then Ret alpha else a <- rd alpha m ;; wr alpha m (cast w (Z.lxor a mask))) ;;
     Ret (alpha, index, Z.shiftl mask 1).

Lemma loop1_ok : forall alpha index, length alpha = N + 1 -> length index = N + 1 -> nth m alpha 0%Z = 0%Z ->
  exists alpha' index', for_ m loop1 (alpha, index, 1%Z) = Ret (alpha', index', (2 ^ Z.of_nat m)%Z) /\
    length alpha' = N + 1 /\ length index' = N + 1 /\
    (forall j, j <= m -> nth j alpha' 0%Z = Z.of_N (pwx j)) /\ (forall j, j < m -> nth (N.to_nat (pwx j)) index' 0%Z = Z.of_nat j) /\
    (nth N alpha' 0%Z = nth N alpha 0%Z).
Proof.
  intros alpha index HA HI H0. pose proof m_lt_n as Hmn.
  destruct (for_inv _ (fun i '(a, ix, mask) => length a = N + 1 /\ length ix = N + 1 /\ mask = (2 ^ Z.of_nat i)%Z /\
      (forall j, j < i -> nth j a 0%Z = Z.of_N (pwx j)) /\ nth m a 0%Z = Z.of_N (low i) /\ 
      (forall j, j < i -> nth (N.to_nat (pwx j)) ix 0%Z = Z.of_nat j) /\ nth N a 0%Z = nth N alpha 0%Z) m loop1 (alpha, index, 1%Z)) as (((a & ix) & mask) & E & L1 & L2 & -> & J1 & J2 & J3 & J4).
  - repeat split; auto; intros; lia.
  - intros i [[a ix] mask] Hi (L1 & L2 & -> & J1 & J2 & J3 & J4). unfold loop1.
    assert (Ci : cast w (2 ^ Z.of_nat i) = Z.of_N (pwx i)).
    { unfold pwx. rewrite (xi1_small m P) by (auto using Plog, Podd, Hm1). rewrite Zpow2_N. apply cast_N. apply N.pow_lt_mono_r; lia. }
    rewrite Ci. rewrite wr_ok by lia. cbn [bind]. rewrite (rd_ok _ 0%Z) by (rewrite length_upd; lia). cbn [bind].
    rewrite nth_upd_eq by lia. rewrite wrz_N. pose proof (pwx_idx i) as Xi. rewrite wr_ok by lia. cbn [bind].
    rewrite cast_nat by lia. rewrite (rd_ok _ 0%Z) by lia. cbn [bind].
    assert (Sh : Z.shiftl (2 ^ Z.of_nat i) 1 = (2 ^ Z.of_nat (S i))%Z).
    { rewrite Z.shiftl_mul_pow2 by lia. rewrite Nat2Z.inj_succ, Z.pow_succ_r by lia. lia. }
    set (a1 := upd a i (Z.of_N (pwx i))).
    assert (A : exists a2, (if (nth i p 0 =? 0)%Z then Ret a1 else x <- rd a1 m ;; wr a1 m (cast w (Z.lxor x (2 ^ Z.of_nat i)))) = Ret a2
        /\ length a2 = N + 1 /\ (forall j, j < m -> nth j a2 0%Z = nth j a1 0%Z) /\ nth m a2 0%Z = Z.of_N (low (S i)) /\ nth N a2 0%Z = nth N a1 0%Z).
    { assert (L3 : length a1 = N + 1) by (unfold a1; rewrite length_upd; auto).
      assert (B : nth m a1 0%Z = Z.of_N (low i)) by (unfold a1; rewrite nth_upd_neq by lia; auto).
      rewrite low_S by auto. destruct (nth i p 0 =? 0)%Z. { exists a1. auto. }
      rewrite (rd_ok _ 0%Z) by lia. cbn [bind]. rewrite B, Zpow2_N, Zlxor_N. rewrite cast_N.
      2:{ apply lt_bits. intros k Hk. rewrite N.lxor_spec. pose proof (low_lt i ltac:(lia)) as LL. rewrite lt_bits in LL. rewrite LL by auto.
          rewrite N.pow2_bits_false by lia. auto. }
      rewrite wr_ok by lia. eexists. split; [reflexivity|]. rewrite length_upd. split; auto. split; [|split].
      - intros. rewrite nth_upd_neq by lia. auto. - rewrite nth_upd_eq by lia. auto. - rewrite nth_upd_neq by lia. auto. }
    destruct A as (a2 & EA & L3 & K1 & K2 & K3). rewrite EA. cbn [bind]. rewrite Sh. eexists. split; [reflexivity|]. cbn beta iota.
    rewrite length_upd. repeat split; auto.
    + intros j Hj. rewrite K1 by lia. unfold a1. rewrite nth_upd by lia. destruct (Nat.eqb_spec j i); subst; auto. apply J1. lia.
    + intros j Hj. rewrite nth_upd by lia. destruct (Nat.eqb_spec (N.to_nat (pwx j)) (N.to_nat (pwx i))) as [C|C].
      * f_equal. symmetry. apply pwx_inj in C; lia.
      * apply J3. destruct (Nat.eq_dec j i); [congruence|lia].
    + rewrite K3. unfold a1. rewrite nth_upd_neq by lia. auto.
  - exists a, ix. repeat split; auto. intros j Hj. destruct (Nat.eq_dec j m) as [->|]. { rewrite J2, low_m. auto. } apply J1. lia.
Qed.

Definition loop2 (mask : Z) := fun i '(alpha, index) =>
     a <- rd alpha (i - 1) ;; am <- rd alpha m ;;
     alpha <- wr alpha i (cast w (if (mask <=? a)%Z then Z.lxor am (Z.shiftl (Z.lxor a mask) 1) else Z.shiftl a 1)) ;;
     idx <- rd alpha i ;;
     index <- wrz index idx (cast w (Z.of_nat i)) ;;
     Ret (alpha, index).

Lemma next_pwx : forall i, (if (2 ^ Z.of_nat (m - 1) <=? Z.of_N (pwx i))%Z then Z.lxor (Z.of_N (pwx m)) (Z.shiftl (Z.lxor (Z.of_N (pwx i)) (2 ^ Z.of_nat (m - 1))) 1)
    else Z.shiftl (Z.of_N (pwx i)) 1) = Z.of_N (pwx (S i)).
Proof.
  intros i. rewrite Zpow2_N, Zlxor_N, !Zshiftl_N, Zlxor_N. pose proof (pwx_lt i) as L.
  assert (T : N.testbit (N.double (pwx i)) (N.of_nat m) = (Z.of_N (2 ^ N.of_nat (m - 1)) <=? Z.of_N (pwx i))%Z).
  { replace (N.of_nat m) with (N.succ (N.of_nat (m - 1))) by lia. rewrite N.double_bits_succ. 
    destruct (Z.leb_spec (Z.of_N (2 ^ N.of_nat (m - 1))) (Z.of_N (pwx i))) as [C|C].
    - assert (N.log2 (pwx i) = N.of_nat (m - 1)).
      { apply N.log2_unique. lia. split; [lia|]. replace (N.succ (N.of_nat (m - 1))) with (N.of_nat m) by lia. auto. }
      rewrite <- H. apply N.bit_log2. intros E. rewrite E in C. assert (2 ^ N.of_nat (m - 1) <> 0)%N by (apply N.pow_nonzero; lia). lia.
    - assert (X : (pwx i < 2 ^ N.of_nat (m - 1))%N) by lia. rewrite lt_bits in X. apply X. lia. }
  change (pwx (S i)) with (xt m P (pwx i)). unfold xt. rewrite T. destruct (_ <=? _)%Z; auto. f_equal.
  rewrite double_lxor, double_pow2. replace (S (m - 1)) with m by lia.
  rewrite N.lxor_comm, N.lxor_assoc. f_equal. apply bits_nat. intros k. rewrite N.lxor_spec, testbit_pow2, <- low_m, low_bit.
  destruct (Nat.ltb_spec k m), (Nat.eqb_spec k m); try lia; cbn [andb xorb].
  - destruct (N.testbit P (N.of_nat k)); auto.
  - subst k. symmetry. apply (P_bit m P Plog Podd).
  - rewrite N.bits_above_log2; auto. rewrite Plog. lia.
Qed.

Lemma loop2_ok : forall alpha index, length alpha = N + 1 -> length index = N + 1 ->
  (forall j, j <= m -> nth j alpha 0%Z = Z.of_N (pwx j)) -> (forall j, j <= m -> nth (N.to_nat (pwx j)) index 0%Z = Z.of_nat j) ->
  exists alpha' index', for_from (m + 1) (N - (m + 1)) (loop2 (2 ^ Z.of_nat (m - 1))) (alpha, index) = Ret (alpha', index') /\
    length alpha' = N + 1 /\ length index' = N + 1 /\
    (forall j, j < N -> nth j alpha' 0%Z = Z.of_N (pwx j)) /\ (forall j, j < N -> nth (N.to_nat (pwx j)) index' 0%Z = Z.of_nat j) /\
    nth N alpha' 0%Z = nth N alpha 0%Z.
Proof.
  intros alpha index HA HI H1 H2. pose proof m_lt_n as Hmn.
  assert (G : forall c lo a ix, lo + c = N -> m < lo -> length a = N + 1 -> length ix = N + 1 ->
     (forall j, j < lo -> nth j a 0%Z = Z.of_N (pwx j)) -> (forall j, j < lo -> nth (N.to_nat (pwx j)) ix 0%Z = Z.of_nat j) ->
     exists a' ix', for_from lo c (loop2 (2 ^ Z.of_nat (m - 1))) (a, ix) = Ret (a', ix') /\ length a' = N + 1 /\ length ix' = N + 1 /\
    (forall j, j < N -> nth j a' 0%Z = Z.of_N (pwx j)) /\ (forall j, j < N -> nth (N.to_nat (pwx j)) ix' 0%Z = Z.of_nat j) /\ nth N a' 0%Z = nth N a 0%Z).
  { induction c; intros lo a ix Hc Hlo La Li Ha Hi. { exists a, ix. replace lo with N in * by lia. cbn [for_from]. auto 8. }
    cbn [for_from]. unfold loop2 at 1. rewrite !(rd_ok _ 0%Z) by lia. cbn [bind]. rewrite (Ha (lo - 1)), (Ha m) by lia. rewrite next_pwx.
    replace (S (lo - 1)) with lo by lia. rewrite cast_N by apply pwx_lt. rewrite wr_ok by lia. cbn [bind].
    rewrite (rd_ok _ 0%Z) by (rewrite length_upd; lia). cbn [bind]. rewrite nth_upd_eq by lia. rewrite wrz_N. pose proof (pwx_idx lo).
    rewrite wr_ok by lia. cbn [bind]. rewrite cast_nat by lia.
    destruct (IHc (S lo) (upd a lo (Z.of_N (pwx lo))) (upd ix (N.to_nat (pwx lo)) (Z.of_nat lo))) as (a' & ix' & E & R).
    - lia. - lia. - rewrite length_upd. auto. - rewrite length_upd. auto.
    - intros j Hj. rewrite nth_upd by lia. destruct (Nat.eqb_spec j lo); subst; auto. apply Ha. lia.
    - intros j Hj. rewrite nth_upd by lia. destruct (Nat.eqb_spec (N.to_nat (pwx j)) (N.to_nat (pwx lo))) as [C|C].
      + f_equal. symmetry. apply pwx_inj in C; lia.
      + apply Hi. destruct (Nat.eq_dec j lo); [congruence|lia].
    - exists a', ix'. split; auto. rewrite nth_upd_neq in R by lia. auto. }
  apply G; auto; try lia; intros; [apply H1|apply H2]; lia.
Qed.

Lemma generate_ok : forall alpha index, length alpha = N + 1 -> length index = N + 1 ->
  exists alpha' index', generate_gf w N m p alpha index = Ret (alpha', index') /\ length alpha' = N + 1 /\ length index' = N + 1 /\
    (forall j, j < N -> nth j alpha' 0%Z = Z.of_N (pwx j)) /\ (forall j, j < N -> nth (N.to_nat (pwx j)) index' 0%Z = Z.of_nat j) /\
    nth 0 index' 0%Z = (-1)%Z /\ nth N alpha' 0%Z = nth N alpha 0%Z.
Proof.
  intros alpha index HA HI. pose proof m_lt_n as Hmn. unfold generate_gf. rewrite wr_ok by lia. cbn [bind].
  destruct (loop1_ok (upd alpha m 0%Z) index) as (a1 & i1 & E1 & L1 & L2 & J1 & J2 & J3). { rewrite length_upd. auto. } { auto. } { apply nth_upd_eq. lia. }
  fold loop1. rewrite E1. cbn [bind]. rewrite (rd_ok _ 0%Z) by lia. cbn [bind]. rewrite J1 by lia. rewrite wrz_N. pose proof (pwx_idx m).
  rewrite wr_ok by lia. cbn [bind]. rewrite cast_nat by lia.
  assert (Sh : Z.shiftr (2 ^ Z.of_nat m) 1 = (2 ^ Z.of_nat (m - 1))%Z).
  { rewrite Z.shiftr_div_pow2 by lia. replace (Z.of_nat m) with (Z.succ (Z.of_nat (m - 1))) by lia. rewrite Z.pow_succ_r by lia.
    rewrite Z.mul_comm. apply Z.div_mul. lia. }
  rewrite Sh. fold (loop2 (2 ^ Z.of_nat (m - 1))).
  destruct (loop2_ok a1 (upd i1 (N.to_nat (pwx m)) (Z.of_nat m))) as (a2 & i2 & E2 & M1 & M2 & K1 & K2 & K3); auto.
  { rewrite length_upd. auto. }
  { intros j Hj. rewrite nth_upd by lia. destruct (Nat.eqb_spec (N.to_nat (pwx j)) (N.to_nat (pwx m))) as [C|C].
    - f_equal. symmetry. apply pwx_inj in C; lia.
    - apply J2. destruct (Nat.eq_dec j m); [congruence|lia]. }
  rewrite E2. cbn [bind]. rewrite wr_ok by lia. cbn [bind]. eexists _, _. split; [reflexivity|]. rewrite length_upd.
  split; [auto|]. split; [auto|]. split; [auto|]. split; [|split].
  - intros j Hj. pose proof (pwx_idx j). rewrite nth_upd_neq by lia. auto.
  - rewrite nth_upd_eq by lia. auto.
  - rewrite K3, J3, nth_upd_neq by lia. auto.
Qed.
End Tables.
