(** Proofs about the tempering and the real draws of the Mersenne twister. *)
From Coq Require Import List Arith Lia Bool ZArith QArith Lqa.
From Verif Require Import Base FloatQ PRNGModel PRNGSpec PRNGProofs.
Import ListNotations.
Local Open Scope Z_scope.

Definition word (f : Z -> bool) : Z := fold_right (fun i acc => acc + if f (Z.of_nat i) then 2 ^ Z.of_nat i else 0) 0 (seq 0 32).

Lemma word_from : forall (f : Z -> bool) n lo, let z := fold_right (fun i acc => acc + if f (Z.of_nat i) then 2 ^ Z.of_nat i else 0) 0 (seq lo n) in
  exists q, z = q * 2 ^ Z.of_nat lo /\ 0 <= q < 2 ^ Z.of_nat n /\ forall i, 0 <= i -> Z.testbit q i = (i <? Z.of_nat n) && f (Z.of_nat lo + i).
Proof.
  intros f. induction n as [|n IH]; intros lo z.
  - exists 0. unfold z. cbn [seq fold_right]. split; [lia|]. split; [cbn; lia|]. intros i Hi. rewrite Z.testbit_0_l. destruct (Z.ltb_spec i (Z.of_nat 0)); [lia|reflexivity].
  - destruct (IH (S lo)) as (q & Eq & Rq & Tq). unfold z. cbn [seq fold_right]. rewrite Eq. exists (2 * q + Z.b2z (f (Z.of_nat lo))). rewrite !Nat2Z.inj_succ, !Z.pow_succ_r by lia. split; [destruct (f (Z.of_nat lo)); cbn [Z.b2z]; ring|].
    split; [destruct (f (Z.of_nat lo)); cbn [Z.b2z]; lia|]. intros i Hi. destruct (Z.eq_dec i 0) as [-> | Hne].
    + rewrite Z.add_0_r, Z.add_comm. rewrite Z.add_b2z_double_bit0. destruct (Z.ltb_spec 0 (Z.succ (Z.of_nat n))); [reflexivity|lia].
    + replace i with (Z.succ (Z.pred i)) at 1 by lia. rewrite Z.testbit_succ_r by lia. rewrite Tq by lia. rewrite Nat2Z.inj_succ. f_equal; [|f_equal; lia].
      destruct (Z.ltb_spec (Z.pred i) (Z.of_nat n)), (Z.ltb_spec i (Z.succ (Z.of_nat n))); try reflexivity; lia.
Qed.

Lemma word_bits : forall f, word32 (word f) /\ forall i, 0 <= i -> Z.testbit (word f) i = (i <? 32) && f i.
Proof.
  intros f. destruct (word_from f 32 0) as (q & Eq & Rq & Tq). assert (E : word f = q) by (unfold word; rewrite Eq; apply Z.mul_1_r). clear Eq. rewrite E. split; [exact Rq|]. exact Tq.
Qed.

Lemma word_of : forall f z, word32 z -> (forall i, 0 <= i < 32 -> Z.testbit z i = f i) -> z = word f.
Proof.
  intros f z W H. destruct (word_bits f) as [_ B]. apply Z.bits_inj'. intros i Hi. rewrite B by exact Hi. destruct (Z.ltb_spec i 32) as [L|L]; [apply H; lia|]. apply word_testbit; [exact W|lia].
Qed.

Lemma word_ext : forall f g, (forall i, 0 <= i < 32 -> f i = g i) -> word f = word g.
Proof. intros f g H. destruct (word_bits f) as [W B]. apply word_of; [exact W|]. intros i Hi. rewrite B by lia. destruct (Z.ltb_spec i 32); [apply H; lia|lia]. Qed.

Lemma word_shiftr : forall y k, 0 <= k -> word32 y -> word32 (Z.shiftr y k).
Proof. intros y k Hk W. apply word_of_bits; [apply Z.shiftr_nonneg; unfold word32 in W; lia|]. intros i Hi. rewrite Z.shiftr_spec by lia. apply word_testbit; [exact W|lia]. Qed.
Lemma word_land : forall a b, word32 a -> word32 b -> word32 (Z.land a b).
Proof. intros a b A B. apply word_of_bits; [apply Z.land_nonneg; unfold word32 in *; lia|]. intros i Hi. rewrite Z.land_spec, word_testbit by assumption. reflexivity. Qed.
Lemma word_mod : forall y, word32 (mod32 y).
Proof. intros y. unfold mod32, word32. apply Z.mod_pos_bound. lia. Qed.

Lemma stepr : forall y k, 0 <= k -> word32 y -> Z.lxor y (Z.shiftr y k) = word (fun i => xorb (Z.testbit y i) (Z.testbit y (i + k))).
Proof.
  intros y k Hk W. apply word_of; [apply word_lxor; [exact W|apply word_shiftr; assumption]|]. intros i Hi. rewrite Z.lxor_spec, Z.shiftr_spec by lia. reflexivity.
Qed.
Lemma stepl : forall y k m, 0 <= k -> word32 y -> word32 m -> Z.lxor y (Z.land (mod32 (Z.shiftl y k)) m) = word (fun i => xorb (Z.testbit y i) (Z.testbit y (i - k) && Z.testbit m i)).
Proof.
  intros y k m Hk W M. apply word_of; [apply word_lxor; [exact W|apply word_land; [apply word_mod|exact M]]|]. intros i Hi. rewrite Z.lxor_spec, Z.land_spec. unfold mod32. rewrite Z.mod_pow2_bits_low by lia. rewrite Z.shiftl_spec by lia. reflexivity.
Qed.

Lemma temper_word : forall y, temper y =
  (let y1 := word (fun i => xorb (Z.testbit y i) (Z.testbit y (i + 11))) in
   let y2 := word (fun i => xorb (Z.testbit y1 i) (Z.testbit y1 (i - 7) && Z.testbit 0x9d2c5680 i)) in
   let y3 := word (fun i => xorb (Z.testbit y2 i) (Z.testbit y2 (i - 15) && Z.testbit 0xefc60000 i)) in
   word (fun i => xorb (Z.testbit y3 i) (Z.testbit y3 (i + 18)))).
Proof. intros y. unfold temper, word. reflexivity. Qed.

Lemma temper_ok : forall y, word32 y -> tempering y = temper y /\ word32 (temper y).
Proof.
  intros y W. rewrite temper_word. unfold tempering.
  rewrite (stepr y 11) by (auto; lia). pose proof (proj1 (word_bits (fun i => xorb (Z.testbit y i) (Z.testbit y (i + 11))))) as W1. set (y1 := word _) in *. cbv beta zeta.
  rewrite (stepl y1 7) by (auto; unfold word32; lia). pose proof (proj1 (word_bits (fun i => xorb (Z.testbit y1 i) (Z.testbit y1 (i - 7) && Z.testbit 0x9d2c5680 i)))) as W2. set (y2 := word (fun i => xorb (Z.testbit y1 i) (Z.testbit y1 (i - 7) && Z.testbit 0x9d2c5680 i))) in *. cbv beta zeta.
  rewrite (stepl y2 15) by (auto; unfold word32; lia). pose proof (proj1 (word_bits (fun i => xorb (Z.testbit y2 i) (Z.testbit y2 (i - 15) && Z.testbit 0xefc60000 i)))) as W3. set (y3 := word (fun i => xorb (Z.testbit y2 i) (Z.testbit y2 (i - 15) && Z.testbit 0xefc60000 i))) in *.
  rewrite (stepr y3 18) by (auto; lia). split; [reflexivity|apply word_bits].
Qed.

(** Two sequences of the same seed are the same. *)
Lemma mt_unique : forall seed x x', mt19937 seed x -> mt19937 seed x' -> forall k, x' k = x k.
Proof.
  intros seed x x' (A0 & A1 & A2) (B0 & B1 & B2) k. induction k as [k IH] using lt_wf_ind. destruct (Nat.eq_dec k 0) as [-> | Hk]; [congruence|].
  destruct (Nat.lt_ge_cases k 624) as [L|L].
  - rewrite A1, B1 by lia. rewrite IH by lia. reflexivity.
  - replace k with (k - 624 + 624)%nat by lia. rewrite A2, B2. rewrite !IH by lia. reflexivity.
Qed.

(** Real draws *)
Local Open Scope Q_scope.
Lemma max24 : fl 24 UINT32_MAX == 2 ^ 32.
Proof. vm_compute. reflexivity. Qed.
Lemma max24_1 : fl 24 (fl 24 UINT32_MAX + 1) == 2 ^ 32.
Proof. vm_compute. reflexivity. Qed.
Lemma max53 : fl 53 UINT32_MAX == UINT32_MAX.
Proof. vm_compute. reflexivity. Qed.
Lemma max53_1 : fl 53 (fl 53 UINT32_MAX + 1) == 2 ^ 32.
Proof. vm_compute. reflexivity. Qed.

Lemma fl_ext : forall prec x y, (0 < prec)%Z -> x == y -> holds prec y -> fl prec x == y.
Proof. intros prec x y Hp E H. apply Qle_antisym; [apply fl_le|apply fl_ge]; auto; lra. Qed.

Lemma p32 : 2 ^ 32 == inject_Z 4294967296.
Proof. reflexivity. Qed.
Lemma div32 : forall x, x / 2 ^ 32 == x * 2 ^ (- (32)).
Proof. intros x. reflexivity. Qed.

(** The word, converted: within [0, 2^32]. *)
Lemma conv_range : forall prec y, (24 <= prec)%Z -> word32 y -> 0 <= fl prec (inject_Z y) <= 2 ^ 32.
Proof.
  intros prec y Hp [Y1 Y2]. change (2 ^ 32)%Z with 4294967296%Z in Y2. split.
  - apply fl_ge; [lia|apply holds_0; lia|]. change 0 with (inject_Z 0). rewrite <- Zle_Qle. lia.
  - apply fl_le; [lia|apply holds_pow; lia|]. rewrite p32. rewrite <- Zle_Qle. lia.
Qed.
