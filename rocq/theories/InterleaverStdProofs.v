(** Lemmas about the standardised interleavers. *)
From Coq Require Import List Arith Lia Bool ZArith Znumtheory.
From Verif Require Import Base Loops InterleaverModel InterleaverProofs InterleaverStdModel.
Import ListNotations.
Local Open Scope Z_scope.

Lemma int32_ok : forall z, - 2147483648 <= z <= 2147483647 -> int32 z = Ret z.
Proof.
  intros. unfold int32. destruct (Z.leb_spec (-2147483648) z); try lia.
  destruct (Z.leb_spec z 2147483647); try lia. reflexivity.
Qed.

Lemma imod_ok : forall a b, 0 <= a -> 0 < b -> imod a b = Ret (a mod b).
Proof.
  intros. unfold imod. destruct (Z.eqb_spec b 0); try lia.
  rewrite Z.rem_mod_nonneg by lia. reflexivity.
Qed.

(** Filling the table with an injective map of [0,n) gives a permutation. *)
Lemma fill_ok : forall w f g lut, (length lut <= 2 ^ w)%nat ->
  let n := Z.of_nat (length lut) in
  (forall i, 0 <= i < n -> f i = Ret (g i)) ->
  (forall i, 0 <= i < n -> 0 <= g i < n) ->
  (forall i j, 0 <= i < n -> 0 <= j < n -> g i = g j -> i = j) ->
  exists l, fill w f lut = Ret l /\ is_perm (length lut) l.
Proof.
  intros w f g lut Hw n Hf Hr Hi. unfold fill.
  rewrite for_ext with (b2 := fun i o => wr o i (Z.to_nat (g (Z.of_nat i)))).
  2:{ intros i s H. rewrite Hf by lia. cbn [bind]. rewrite wrap_small; auto.
      specialize (Hr (Z.of_nat i)). unfold n in *. lia. }
  destruct (scatter nat 0%nat (length lut) (fun i => i) (fun i => Z.to_nat (g (Z.of_nat i))) lut)
    as (o & E & L & I1 & I2); auto.
  exists o. split; auto. split; [auto|]. split.
  - intros i H. rewrite I1 by auto. specialize (Hr (Z.of_nat i)). unfold n in *. lia.
  - intros i j H H' e. rewrite !I1 in e by auto.
    pose proof (Hr (Z.of_nat i)). pose proof (Hr (Z.of_nat j)).
    assert (g (Z.of_nat i) = g (Z.of_nat j)) by (unfold n in *; lia).
    apply Hi in H2; unfold n; lia.
Qed.

(** ** Quadratic permutation polynomials *)

Lemma pow_cong : forall d a b n, (d | a - b) -> (d | a ^ Z.of_nat n - b ^ Z.of_nat n).
Proof.
  intros d a b n H. induction n.
  - simpl. exists 0. lia.
  - rewrite Nat2Z.inj_succ, !Z.pow_succ_r by lia.
    replace (a * a ^ Z.of_nat n - b * b ^ Z.of_nat n)
      with ((a - b) * a ^ Z.of_nat n + b * (a ^ Z.of_nat n - b ^ Z.of_nat n)) by ring.
    apply Z.divide_add_r; [apply Z.divide_mul_l | apply Z.divide_mul_r]; auto.
Qed.

Lemma rel_prime_pow : forall a b n, rel_prime a b -> rel_prime (a ^ Z.of_nat n) b.
Proof.
  intros a b n H. induction n.
  - simpl. apply rel_prime_1.
  - rewrite Nat2Z.inj_succ, Z.pow_succ_r by lia.
    apply rel_prime_sym. apply rel_prime_mult; apply rel_prime_sym; auto.
Qed.

(** f1 is a unit and f2 nilpotent modulo K, so f1 + f2 s is a unit. *)
Lemma unit_plus_nilpotent : forall f1 f2 K n s,
  rel_prime f1 K -> (K | f2 ^ Z.of_nat n) -> rel_prime (f1 + f2 * s) K.
Proof.
  intros f1 f2 K n s H1 H2. constructor; try apply Z.divide_1_l.
  intros d D1 D2.
  assert (R : rel_prime (f1 ^ Z.of_nat n) d).
  { apply rel_prime_pow. apply rel_prime_sym. apply rel_prime_div with (p := K); auto.
    apply rel_prime_sym; auto. }
  assert (D : (d | f1 ^ Z.of_nat n)).
  { replace (f1 ^ Z.of_nat n)
      with ((f1 ^ Z.of_nat n - (- (f2 * s)) ^ Z.of_nat n) + (- (f2 * s)) ^ Z.of_nat n) by ring.
    apply Z.divide_add_r.
    - apply pow_cong. replace (f1 - - (f2 * s)) with (f1 + f2 * s) by ring. auto.
    - replace (- (f2 * s)) with (f2 * - s) by ring. rewrite Z.pow_mul_l.
      apply Z.divide_mul_l. eapply Z.divide_trans; eauto. }
  destruct R as [_ _ R]. apply R; auto. apply Z.divide_refl.
Qed.

Lemma mod_eq_divide : forall a b n, 0 < n -> a mod n = b mod n -> (n | a - b).
Proof.
  intros. apply Z.mod_divide; [lia|]. rewrite Zminus_mod, H0, Z.sub_diag. apply Z.mod_0_l. lia.
Qed.

Lemma divide_small : forall n a, 0 < n -> - n < a < n -> (n | a) -> a = 0.
Proof. intros n a Hn Ha (k & ->). assert (-1 < k < 1) by nia. assert (k = 0) by lia. subst; lia. Qed.

Lemma qpp_inj : forall f1 f2 K n i j, 0 < K -> rel_prime f1 K -> (K | f2 ^ Z.of_nat n) ->
  0 <= i < K -> 0 <= j < K ->
  ((f1 + f2 * i) mod K * i) mod K = ((f1 + f2 * j) mod K * j) mod K -> i = j.
Proof.
  intros f1 f2 K n i j HK R D Hi Hj E.
  rewrite !Z.mul_mod_idemp_l in E by lia. apply mod_eq_divide in E; auto.
  replace ((f1 + f2 * i) * i - (f1 + f2 * j) * j) with ((f1 + f2 * (i + j)) * (i - j)) in E by ring.
  apply Gauss in E.
  - apply divide_small in E; auto; lia.
  - apply rel_prime_sym. eapply unit_plus_nilpotent; eauto.
Qed.

Definition LTE_check (r : Z * Z * Z) : bool :=
  let '(K, f1, f2) := r in
  (0 <? K) && (K <=? 6144) && (0 <=? f1) && (f1 <=? 2000) && (0 <=? f2) && (f2 <=? 2000) &&
  (Z.gcd f1 K =? 1) && (f2 ^ 13 mod K =? 0).

Lemma LTE_table_check : forallb LTE_check LTE_table = true.
Proof. vm_compute. reflexivity. Qed.

Lemma gen_LTE_ok : forall w sz, (exists f1 f2, In (Z.of_nat sz, f1, f2) LTE_table) ->
  (sz <= 2 ^ w)%nat -> gen_ok sz (gen_LTE w).
Proof.
  intros w sz (g1 & g2 & Hin) Hw f lut L. unfold gen_LTE. rewrite L.
  destruct (find (fun '(K, _, _) => K =? Z.of_nat sz) LTE_table) as [((K, f1), f2)|] eqn:F.
  2:{ exfalso. apply find_none with (x := (Z.of_nat sz, g1, g2)) in F; auto.
      rewrite Z.eqb_refl in F. discriminate. }
  apply find_some in F. destruct F as (F1 & F2). apply Z.eqb_eq in F2.
  pose proof (proj1 (forallb_forall _ _) LTE_table_check _ F1) as C. unfold LTE_check in C.
  repeat (apply andb_prop in C; destruct C as (C & ?)).
  assert (R : rel_prime f1 K). { apply Zgcd_1_rel_prime. apply Z.eqb_eq; auto. }
  assert (D : (K | f2 ^ Z.of_nat 13)).
  { apply Z.mod_divide; [lia|]. apply Z.eqb_eq; auto. }
  rewrite <- L. 
  destruct (fill_ok w (pi_LTE f1 f2 K) (fun i => ((f1 + f2 * i) mod K * i) mod K) lut) as (l & E & P).
  - lia.
  - intros i Hi. rewrite L, <- F2 in Hi. unfold pi_LTE.
    rewrite int32_ok by nia. cbn [bind]. rewrite int32_ok by nia. cbn [bind].
    rewrite imod_ok by nia. cbn [bind].
    pose proof (Z.mod_pos_bound (f1 + f2 * i) K).
    rewrite int32_ok by nia. cbn [bind]. rewrite imod_ok by nia. reflexivity.
  - intros i Hi. rewrite L, <- F2. apply Z.mod_pos_bound. lia.
  - intros i j Hi Hj. rewrite L, <- F2 in Hi, Hj. eapply qpp_inj; eauto. lia.
  - exists l. rewrite L in *. auto.
Qed.

(** ** Almost regular permutations: affine with an offset depending on i mod 4 *)

Lemma arp_inj : forall n p c (q : Z -> Z) i j, 0 < n -> (4 | n) -> rel_prime p n ->
  (forall a b, 0 <= a < 4 -> 0 <= b < 4 -> (p * a + q a) mod 4 = (p * b + q b) mod 4 -> a = b) ->
  0 <= i < n -> 0 <= j < n ->
  (p * i + q (i mod 4) + c) mod n = (p * j + q (j mod 4) + c) mod n -> i = j.
Proof.
  intros n p c q i j Hn H4 R Q Hi Hj E.
  apply mod_eq_divide in E; auto.
  assert (M : i mod 4 = j mod 4).
  { pose proof (Z.mod_pos_bound i 4). pose proof (Z.mod_pos_bound j 4). apply Q; try lia.
    assert (D4 : (4 | p * i + q (i mod 4) + c - (p * j + q (j mod 4) + c))) by (eapply Z.divide_trans; eauto).
    destruct D4 as (k & Hk).
    rewrite (Z.div_mod i 4) in Hk at 1 by lia. rewrite (Z.div_mod j 4) in Hk at 1 by lia.
    replace (p * (i mod 4) + q (i mod 4))
      with (p * (j mod 4) + q (j mod 4) + (k - p * (i / 4) + p * (j / 4)) * 4) by lia.
    apply Z_mod_plus_full. }
  rewrite M in E.
  replace (p * i + q (j mod 4) + c - (p * j + q (j mod 4) + c)) with (p * (i - j)) in E by ring.
  apply Gauss in E; [|apply rel_prime_sym; auto]. apply divide_small in E; auto; lia.
Qed.

Definition inj4 (f : Z -> Z) : bool :=
  let a := f 0 mod 4 in let b := f 1 mod 4 in let c := f 2 mod 4 in let d := f 3 mod 4 in
  negb (a =? b) && negb (a =? c) && negb (a =? d) && negb (b =? c) && negb (b =? d) && negb (c =? d).

Lemma inj4_ok : forall f, inj4 f = true ->
  forall a b, 0 <= a < 4 -> 0 <= b < 4 -> f a mod 4 = f b mod 4 -> a = b.
Proof.
  intros f H a b Ha Hb E. unfold inj4 in H.
  repeat (apply andb_prop in H; destruct H as (H & ?)).
  repeat match goal with h : negb _ = true |- _ => apply negb_true_iff in h; apply Z.eqb_neq in h end.
  assert (a = 0 \/ a = 1 \/ a = 2 \/ a = 3) as [->|[->|[->| ->]]] by lia;
  assert (b = 0 \/ b = 1 \/ b = 2 \/ b = 3) as [->|[->|[->| ->]]] by lia; congruence.
Qed.

Definition off1 (n p1 p2 p3 r : Z) : Z :=
  if r =? 0 then 0 else if r =? 1 then Z.quot n 2 + p1
  else if r =? 2 then p2 else Z.quot n 2 + p3.

Definition RCS1_check (r : Z * Z * Z * Z * Z) : bool :=
  let '(n, p0, p1, p2, p3) := r in
  (0 <? n) && (n <=? 1000) && (0 <=? p0) && (p0 <=? 100) && (0 <=? p1) && (p1 <=? 1000) &&
  (0 <=? p2) && (p2 <=? 1000) && (0 <=? p3) && (p3 <=? 1000) && (n mod 4 =? 0) &&
  (Z.gcd p0 n =? 1) && inj4 (fun a => p0 * a + off1 n p1 p2 p3 a).

Lemma RCS1_table_check : forallb RCS1_check RCS1_table = true.
Proof. vm_compute. reflexivity. Qed.

Lemma gen_RCS1_ok : forall w sz, (exists p0 p1 p2 p3, In (Z.of_nat sz, p0, p1, p2, p3) RCS1_table) ->
  (sz <= 2 ^ w)%nat -> gen_ok sz (gen_RCS1 w).
Proof.
  intros w sz (g0 & g1 & g2 & g3 & Hin) Hw f lut L. unfold gen_RCS1. rewrite L.
  destruct (find _ RCS1_table) as [((((n, p0), p1), p2), p3)|] eqn:F.
  2:{ exfalso. apply find_none with (x := (Z.of_nat sz, g0, g1, g2, g3)) in F; auto.
      rewrite Z.eqb_refl in F. discriminate. }
  apply find_some in F. destruct F as (F1 & F2). apply Z.eqb_eq in F2.
  pose proof (proj1 (forallb_forall _ _) RCS1_table_check _ F1) as C. unfold RCS1_check in C.
  repeat (apply andb_prop in C; destruct C as (C & ?)).
  assert (R : rel_prime p0 n). { apply Zgcd_1_rel_prime. apply Z.eqb_eq; auto. }
  assert (D : (4 | n)). { apply Z.mod_divide; [lia|]. apply Z.eqb_eq; auto. }
  assert (OB : forall r, 0 <= off1 n p1 p2 p3 r <= 2000).
  { intros. unfold off1. assert (0 <= Z.quot n 2 <= 1000).
    { rewrite Z.quot_div_nonneg by lia. split; [apply Z.div_pos; lia|]. apply Z.div_le_upper_bound; lia. }
    destruct (r =? 0), (r =? 1), (r =? 2); lia. }
  destruct (fill_ok w (pi_RCS1 n p0 p1 p2 p3) (fun i => (p0 * i + off1 n p1 p2 p3 (i mod 4) + 1) mod n) lut) as (l & E & P).
  - lia.
  - intros i Hi. rewrite L, <- F2 in Hi. unfold pi_RCS1.
    rewrite imod_ok by lia. cbn [bind].
    pose proof (OB (i mod 4)). rewrite int32_ok by nia. cbn [bind].
    fold (off1 n p1 p2 p3 (i mod 4)). rewrite int32_ok by nia. cbn [bind].
    rewrite imod_ok by nia. reflexivity.
  - intros i Hi. rewrite L, <- F2. apply Z.mod_pos_bound. lia.
  - intros i j Hi Hj. rewrite L, <- F2 in Hi, Hj. apply arp_inj; auto; try lia.
    apply (inj4_ok (fun a => p0 * a + off1 n p1 p2 p3 a)). auto.
  - exists l. rewrite L in *. auto.
Qed.

Definition off2 (p q0 q1 q2 q3 r : Z) : Z :=
  if r =? 0 then 0 else if r =? 1 then 4 * q1
  else if r =? 2 then 4 * q0 * p + 4 * q2 else 4 * q0 * p + 4 * q3.

Definition RCS2_check (r : Z * Z * Z * Z * Z * Z) : bool :=
  let '(n, p, q0, q1, q2, q3) := r in
  (0 <? n) && (n <=? 2000) && (0 <=? p) && (p <=? 200) && (0 <=? q0) && (q0 <=? 100) &&
  (0 <=? q1) && (q1 <=? 100) &&
  (0 <=? q2) && (q2 <=? 100) && (0 <=? q3) && (q3 <=? 100) && (n mod 4 =? 0) &&
  (Z.gcd p n =? 1) && inj4 (fun a => p * a + off2 p q0 q1 q2 q3 a).

Lemma RCS2_table_check :
  forallb (fun r => (fst (fst (fst (fst (fst r)))) =? 1777) || RCS2_check r) RCS2_table = true.
Proof. vm_compute. reflexivity. Qed.

Lemma gen_RCS2_ok : forall w sz, (exists p q0 q1 q2 q3, In (Z.of_nat sz, p, q0, q1, q2, q3) RCS2_table) ->
  Z.of_nat sz <> 1777 -> (sz <= 2 ^ w)%nat -> gen_ok sz (gen_RCS2 w).
Proof.
  intros w sz (g & g0 & g1 & g2 & g3 & Hin) Hne Hw f lut L. unfold gen_RCS2. rewrite L.
  destruct (find _ RCS2_table) as [(((((n, p), q0), q1), q2), q3)|] eqn:F.
  2:{ exfalso. apply find_none with (x := (Z.of_nat sz, g, g0, g1, g2, g3)) in F; auto.
      rewrite Z.eqb_refl in F. discriminate. }
  apply find_some in F. destruct F as (F1 & F2). apply Z.eqb_eq in F2.
  pose proof (proj1 (forallb_forall _ _) RCS2_table_check _ F1) as C. cbn [fst] in C.
  apply orb_prop in C. destruct C as [C|C]. { apply Z.eqb_eq in C. lia. }
  unfold RCS2_check in C.
  repeat (apply andb_prop in C; destruct C as (C & ?)).
  assert (R : rel_prime p n). { apply Zgcd_1_rel_prime. apply Z.eqb_eq; auto. }
  assert (D : (4 | n)). { apply Z.mod_divide; [lia|]. apply Z.eqb_eq; auto. }
  assert (OB : forall r, 0 <= off2 p q0 q1 q2 q3 r <= 100000).
  { intros. unfold off2. assert (0 <= q0 * p <= 20000) by nia.
    destruct (r =? 0), (r =? 1), (r =? 2); lia. }
  destruct (fill_ok w (pi_RCS2 n p q0 q1 q2 q3) (fun i => (p * i + off2 p q0 q1 q2 q3 (i mod 4) + 3) mod n) lut) as (l & E & P).
  - lia.
  - intros i Hi. rewrite L, <- F2 in Hi. unfold pi_RCS2.
    rewrite imod_ok by lia. cbn [bind].
    pose proof (OB (i mod 4)). rewrite int32_ok by nia. cbn [bind].
    fold (off2 p q0 q1 q2 q3 (i mod 4)). rewrite int32_ok by nia. cbn [bind].
    rewrite imod_ok by nia. reflexivity.
  - intros i Hi. rewrite L, <- F2. apply Z.mod_pos_bound. lia.
  - intros i j Hi Hj. rewrite L, <- F2 in Hi, Hj. apply arp_inj; auto; try lia.
    apply (inj4_ok (fun a => p * a + off2 p q0 q1 q2 q3 a)). auto.
  - exists l. rewrite L in *. auto.
Qed.

(** ** CCSDS *)

Definition pq (t : Z) : Z := if t =? 0 then 31 else if t =? 1 then 37 else if t =? 2 then 43 else 47.

Definition ccsds (k2 index : Z) : Z :=
  let m := index mod 2 in let i := index / (2 * k2) in let j := index / 2 - i * k2 in
  let t := (19 * i + 1) mod 4 in
  2 * (t + ((pq t * j + 21 * m) mod k2) * 4 + 1) - m - 1.

Lemma ccsds_decomp : forall k2 index, 0 < k2 -> 0 <= index < 8 * k2 ->
  0 <= index / (2 * k2) < 4 /\ 0 <= index / 2 - index / (2 * k2) * k2 < k2 /\ 0 <= index mod 2 < 2 /\
  index = 2 * (index / (2 * k2) * k2 + (index / 2 - index / (2 * k2) * k2)) + index mod 2.
Proof.
  intros k2 index Hk Hi.
  assert (E : index / (2 * k2) = index / 2 / k2) by (rewrite Z.div_div; lia).
  pose proof (Z.div_mod index 2). pose proof (Z.mod_pos_bound index 2).
  pose proof (Z.div_mod (index / 2) k2). pose proof (Z.mod_pos_bound (index / 2) k2).
  rewrite E. repeat split; try lia; try nia.
Qed.

Lemma ccsds_range : forall k2 x, 0 < k2 -> 0 <= x < 8 * k2 -> 0 <= ccsds k2 x < 8 * k2.
Proof.
  intros. destruct (ccsds_decomp k2 x) as (A & B & C & D); auto. unfold ccsds.
  pose proof (Z.mod_pos_bound (19 * (x / (2 * k2)) + 1) 4).
  pose proof (Z.mod_pos_bound (pq ((19 * (x / (2 * k2)) + 1) mod 4) * (x / 2 - x / (2 * k2) * k2) + 21 * (x mod 2)) k2).
  lia.
Qed.

Lemma ccsds_inj : forall k2 x y, 0 < k2 -> (forall t, 0 <= t < 4 -> rel_prime (pq t) k2) ->
  0 <= x < 8 * k2 -> 0 <= y < 8 * k2 -> ccsds k2 x = ccsds k2 y -> x = y.
Proof.
  intros k2 x y Hk R Hx Hy.
  destruct (ccsds_decomp k2 x) as (A & B & C & D); auto.
  destruct (ccsds_decomp k2 y) as (A' & B' & C' & D'); auto.
  unfold ccsds.
  set (i := x / (2 * k2)) in *. set (i' := y / (2 * k2)) in *.
  set (j := x / 2 - i * k2) in *. set (j' := y / 2 - i' * k2) in *.
  set (m := x mod 2) in *. set (m' := y mod 2) in *.
  set (t := (19 * i + 1) mod 4). set (t' := (19 * i' + 1) mod 4).
  assert (T : 0 <= t < 4) by (apply Z.mod_pos_bound; lia).
  assert (T' : 0 <= t' < 4) by (apply Z.mod_pos_bound; lia).
  set (c := (pq t * j + 21 * m) mod k2). set (c' := (pq t' * j' + 21 * m') mod k2).
  intros E. assert (m = m') by lia. assert (t + 4 * c = t' + 4 * c') by lia.
  assert (t = t') by lia. assert (c = c') by lia.
  assert (i = i').
  { subst t t'. clear - H1 A A'.
    assert (i = 0 \/ i = 1 \/ i = 2 \/ i = 3) as [e|[e|[e|e]]] by lia;
    assert (i' = 0 \/ i' = 1 \/ i' = 2 \/ i' = 3) as [e'|[e'|[e'|e']]] by lia;
    rewrite e, e' in *; try reflexivity; exfalso; vm_compute in H1; discriminate. }
  assert (j = j').
  { unfold c, c' in H2. rewrite <- H1, <- H in H2. apply mod_eq_divide in H2; auto.
    replace (pq t * j + 21 * m - (pq t * j' + 21 * m)) with (pq t * (j - j')) in H2 by ring.
    apply Gauss in H2; [|apply rel_prime_sym; auto]. apply divide_small in H2; auto; lia. }
  lia.
Qed.

Definition CCSDS_check (r : Z * Z * Z) : bool :=
  let '(n, k1, k2) := r in
  (n =? 8 * k2) && (k1 =? 8) && (0 <? k2) && (k2 <=? 2000) &&
  (Z.gcd 31 k2 =? 1) && (Z.gcd 37 k2 =? 1) && (Z.gcd 43 k2 =? 1) && (Z.gcd 47 k2 =? 1).

Lemma CCSDS_table_check : forallb CCSDS_check CCSDS_table = true.
Proof. vm_compute. reflexivity. Qed.

Lemma gen_CCSDS_ok : forall w sz, (exists k1 k2, In (Z.of_nat sz, k1, k2) CCSDS_table) ->
  (sz <= 2 ^ w)%nat -> gen_ok sz (gen_CCSDS w).
Proof.
  intros w sz (g1 & g2 & Hin) Hw f lut L. unfold gen_CCSDS. rewrite L.
  destruct (find _ CCSDS_table) as [((n, k1), k2)|] eqn:F.
  2:{ exfalso. apply find_none with (x := (Z.of_nat sz, g1, g2)) in F; auto.
      rewrite Z.eqb_refl in F. discriminate. }
  apply find_some in F. destruct F as (F1 & F2). apply Z.eqb_eq in F2.
  pose proof (proj1 (forallb_forall _ _) CCSDS_table_check _ F1) as C. unfold CCSDS_check in C.
  repeat (apply andb_prop in C; destruct C as (C & ?)).
  apply Z.eqb_eq in C, H, H0, H1, H2, H5. subst k1.
  apply Zgcd_1_rel_prime in H, H0, H1, H2.
  destruct (fill_ok w (pi_CCSDS 8 k2) (ccsds k2) lut) as (l & E & P).
  - lia.
  - intros i Hi. rewrite L, <- F2, C in Hi. unfold pi_CCSDS.
    destruct (ccsds_decomp k2 i) as (A & B & M & D); [lia|lia|].
    rewrite imod_ok by lia. cbn [bind]. rewrite !Z.quot_div_nonneg by lia.
    change (8 / 2) with 4.
    rewrite imod_ok by lia. cbn [bind].
    pose proof (Z.mod_pos_bound (19 * (i / (2 * k2)) + 1) 4).
    rewrite imod_ok by lia. cbn [bind].
    rewrite (Z.mod_small ((19 * (i / (2 * k2)) + 1) mod 4) 8) by lia.
    assert (p_CCSDS ((19 * (i / (2 * k2)) + 1) mod 4) = Ret (pq ((19 * (i / (2 * k2)) + 1) mod 4))) as ->.
    { set (t := (19 * (i / (2 * k2)) + 1) mod 4) in *. clearbody t.
      assert (t = 0 \/ t = 1 \/ t = 2 \/ t = 3) as [->|[->|[->| ->]]] by lia; reflexivity. }
    cbn [bind]. 
    assert (0 <= pq ((19 * (i / (2 * k2)) + 1) mod 4) <= 47).
    { unfold pq. repeat match goal with |- context [if ?b then _ else _] => destruct b end; lia. }
    rewrite int32_ok by nia. cbn [bind]. rewrite imod_ok by nia. cbn [bind].
    pose proof (ccsds_range k2 i). rewrite int32_ok; [reflexivity|]. unfold ccsds in H7. lia.
  - intros i Hi. rewrite L, <- F2, C in *. apply ccsds_range; lia.
  - intros i j Hi Hj. rewrite L, <- F2, C in Hi, Hj. apply ccsds_inj; auto; try lia.
    intros t Ht. unfold pq. destruct (t =? 0), (t =? 1), (t =? 2); auto.
  - exists l. rewrite L in *. auto.
Qed.
