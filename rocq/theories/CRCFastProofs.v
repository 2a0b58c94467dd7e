From Coq Require Import List Arith ZArith Lia Bool.
From Verif Require Import Base Loops GF2 BitPackerModel BitPackerSpec BitPackerProofs CRCModel CRCSpec CRCProofs.
Import ListNotations.
Local Open Scope Z_scope.

Lemma bits_range : forall x j, 0 <= x -> (forall k, Z.of_nat j <= k -> Z.testbit x k = false) ->
  0 <= x < 2 ^ Z.of_nat j.
Proof. intros. split; auto. apply bits_bound; auto. Qed.

(** ** the register, one bit at a time *)

Fixpoint steps (rev : Z) (n : nat) (c : Z) : Z :=
  match n with O => c | S n' => steps rev n' (crc_step rev c) end.

Lemma crc_steps_steps : forall rev n c, crc_steps rev n c = Ret (steps rev n c).
Proof.
  intros rev n. unfold crc_steps, for_.
  assert (A : forall lo c, for_from lo n (fun _ c => Ret (crc_step rev c)) c = Ret (steps rev n c)).
  { induction n; intros; simpl; auto. }
  auto.
Qed.

Lemma testbit_neg1_land : forall c rev k, Z.testbit (Z.land (- (Z.land c 1)) rev) k = Z.testbit c 0 && Z.testbit rev k.
Proof.
  intros. destruct (Z_lt_le_dec k 0).
  { rewrite !(Z.testbit_neg_r _ k) by lia. rewrite andb_false_r. auto. }
  replace (Z.land c 1) with (c mod 2 ^ 1) by (rewrite <- Z.land_ones by lia; auto).
  change (2 ^ 1) with 2. rewrite Zmod_odd, Z.bit0_odd. destruct (Z.odd c).
  - change (- (1)) with (-1). rewrite Z.land_m1_l. auto.
  - change (- 0) with 0. rewrite Z.land_0_l, Z.bits_0. auto.
Qed.

Lemma testbit_step : forall rev c k, 0 <= k ->
  Z.testbit (crc_step rev c) k = xorb (Z.testbit c (k + 1)) (Z.testbit c 0 && Z.testbit rev k).
Proof.
  intros. unfold crc_step. rewrite Z.lxor_spec, testbit_neg1_land, Z.shiftr_spec by lia. auto.
Qed.

(** one message bit enters the register *)
Definition enter (rev c : Z) (b : bool) : Z := crc_step rev (Z.lxor c (b2z b)).

Definition serial (rev : Z) (n : nat) (bit : nat -> bool) (c : Z) : Z :=
  fold_left (fun c k => enter rev c (bit k)) (seq 0 n) c.

Lemma serial_S : forall rev n bit c, serial rev (S n) bit c = enter rev (serial rev n bit c) (bit n).
Proof. intros. unfold serial. rewrite seq_S, fold_left_app. auto. Qed.

Lemma serial_app : forall rev n m bit c, serial rev (n + m) bit c =
  serial rev m (fun k => bit (n + k)%nat) (serial rev n bit c).
Proof.
  intros. induction m.
  - rewrite Nat.add_0_r. auto.
  - rewrite <- plus_n_Sm, !serial_S, IHm. auto.
Qed.

Lemma serial_S_l : forall rev n bit c, serial rev (S n) bit c = serial rev n (fun k => bit (S k)) (enter rev c (bit 0%nat)).
Proof. intros. change (S n) with (1 + n)%nat. rewrite serial_app. auto. Qed.

Lemma serial_ext : forall rev n b1 b2 c, (forall k, (k < n)%nat -> b1 k = b2 k) -> serial rev n b1 c = serial rev n b2 c.
Proof.
  intros. induction n; auto. rewrite !serial_S, IHn, H by auto. auto.
Qed.

Lemma testbit_b2z_Z : forall b k, 0 <= k -> Z.testbit (b2z b) k = (k =? 0) && b.
Proof.
  intros. destruct b; simpl.
  - destruct (Z.eqb_spec k 0); [subst; auto|]. apply Z.bits_above_log2; simpl; lia.
  - rewrite Z.bits_0, andb_false_r. auto.
Qed.

Lemma testbit_enter : forall rev c b k, 0 <= k ->
  Z.testbit (enter rev c b) k = xorb (Z.testbit c (k + 1)) (xorb (Z.testbit c 0) b && Z.testbit rev k).
Proof.
  intros. unfold enter. rewrite testbit_step by auto. rewrite !Z.lxor_spec, !testbit_b2z_Z by lia.
  destruct (Z.eqb_spec (k + 1) 0); [lia|]. simpl. rewrite xorb_false_r. auto.
Qed.

Lemma step_xor : forall rev c m, crc_step rev (Z.lxor c m) =
  Z.lxor (enter rev c (Z.testbit m 0)) (Z.shiftr m 1).
Proof.
  intros. apply Z.bits_inj'. intros k Hk.
  rewrite Z.lxor_spec, testbit_step, testbit_enter, Z.shiftr_spec, !Z.lxor_spec by lia.
  destruct (Z.testbit c (k + 1)), (Z.testbit m (k + 1)), (xorb (Z.testbit c 0) (Z.testbit m 0) && Z.testbit rev k); auto.
Qed.

Lemma steps_serial : forall rev n c m, steps rev n (Z.lxor c m) =
  Z.lxor (serial rev n (fun k => Z.testbit m (Z.of_nat k)) c) (Z.shiftr m (Z.of_nat n)).
Proof.
  induction n; intros c m.
  - simpl. auto.
  - cbn [steps]. rewrite step_xor, IHn, serial_S_l, Z.shiftr_shiftr by lia. f_equal.
    + apply serial_ext. intros k Hk. rewrite Z.shiftr_spec by lia. f_equal. lia.
    + f_equal. lia.
Qed.

Lemma shiftr_small : forall m n, 0 <= m < 2 ^ Z.of_nat n -> Z.shiftr m (Z.of_nat n) = 0.
Proof. intros. rewrite Z.shiftr_div_pow2 by lia. apply Z.div_small. lia. Qed.

Lemma steps_small : forall rev n c m, 0 <= m < 2 ^ Z.of_nat n ->
  steps rev n (Z.lxor c m) = serial rev n (fun k => Z.testbit m (Z.of_nat k)) c.
Proof. intros. rewrite steps_serial, shiftr_small, Z.lxor_0_r by auto. auto. Qed.

(** bits above the [n] lowest only shift *)
Lemma steps_high : forall rev n x y, steps rev n (Z.lxor x (Z.shiftl y (Z.of_nat n))) = Z.lxor (steps rev n x) y.
Proof.
  intros. rewrite <- (Z.lxor_0_r x) at 2. rewrite !steps_serial.
  rewrite Z.shiftr_0_l, Z.lxor_0_r. f_equal.
  - apply serial_ext. intros. rewrite Z.shiftl_spec_low, Z.bits_0 by lia. auto.
  - rewrite Z.shiftr_shiftl_l by lia. rewrite Z.sub_diag. auto.
Qed.

Lemma enter_bound : forall rev c b w, 0 <= rev < 2 ^ Z.of_nat (S w) -> 0 <= c < 2 ^ Z.of_nat (S w) ->
  0 <= enter rev c b < 2 ^ Z.of_nat (S w).
Proof.
  intros. apply bits_range.
  - unfold enter, crc_step. apply Z.lxor_nonneg. split; intros _.
    + apply Z.land_nonneg. right. lia.
    + apply Z.shiftr_nonneg. apply Z.lxor_nonneg. destruct b; simpl; lia.
  - intros k Hk. rewrite testbit_enter by lia. rewrite (bound_bits c (S w)), (bound_bits rev (S w)) by (auto; lia).
    rewrite andb_false_r. auto.
Qed.

Lemma serial_bound : forall rev n bit c w, 0 <= rev < 2 ^ Z.of_nat (S w) -> 0 <= c < 2 ^ Z.of_nat (S w) ->
  0 <= serial rev n bit c < 2 ^ Z.of_nat (S w).
Proof. intros. induction n; auto. rewrite serial_S. apply enter_bound; auto. Qed.

(** ** the three implementations *)

(** bit [k] of a memory of bytes *)
Definition byte_bit (data : list Z) (k : nat) : bool := Z.testbit (nth (k / 8) data 0) (Z.of_nat (k mod 8)).

Definition is_byte (x : Z) : Prop := 0 <= x < 256.

Lemma byte_bit_at : forall data i j, (j < 8)%nat -> byte_bit data (i * 8 + j) = Z.testbit (nth i data 0) (Z.of_nat j).
Proof. intros. unfold byte_bit. destruct (divmod_idx i j 8) as [-> ->]; auto. Qed.

Lemma keep_low_mod : forall w rest d, (0 < rest <= w)%nat -> 0 <= d -> keep_low w rest d = d mod 2 ^ Z.of_nat rest.
Proof.
  intros w rest d Hr Hd. unfold keep_low, wrap. apply Z.bits_inj'. intros k Hk.
  rewrite Z.shiftr_spec by lia. destruct (Z_lt_le_dec k (Z.of_nat rest)).
  - rewrite !Z.mod_pow2_bits_low by lia. rewrite Z.shiftl_spec by lia. f_equal. lia.
  - rewrite !Z.mod_pow2_bits_high by lia. auto.
Qed.

Lemma tail_serial : forall rev w rest c d, (0 < rest <= w)%nat -> 0 <= d ->
  steps rev rest (Z.lxor c (keep_low w rest d)) = serial rev rest (fun k => Z.testbit d (Z.of_nat k)) c.
Proof.
  intros. rewrite keep_low_mod by auto. rewrite steps_small by (apply Z.mod_pos_bound; lia).
  apply serial_ext. intros. apply Z.mod_pow2_bits_low. lia.
Qed.

Lemma nth_byte : forall data i, Forall is_byte data -> is_byte (nth i data 0).
Proof.
  intros. destruct (le_lt_dec (length data) i).
  - rewrite nth_overflow by auto. unfold is_byte. lia.
  - rewrite Forall_forall in H. apply H. apply nth_In. auto.
Qed.

Lemma div8 : forall n, (n = n / 8 * 8 + n mod 8)%nat.
Proof. intros. pose proof (Nat.div_mod n 8 ltac:(lia)). lia. Qed.

Lemma v1_spec : forall rev data n, Forall is_byte data -> ((n + 7) / 8 <= length data)%nat ->
  compute_crc_v1 rev data n = Ret (serial rev n (byte_bit data) 0).
Proof.
  intros rev data n Hd Hn. unfold compute_crc_v1.
  assert (Hl : (n / 8 <= length data)%nat).
  { pose proof (Nat.div_le_mono n (n + 7) 8 ltac:(lia) ltac:(lia)). lia. }
  destruct (for_inv _ (fun i crc => crc = serial rev (i * 8) (byte_bit data) 0) (n / 8)
    (fun i crc => d <- rd data i ;; crc_steps rev 8 (Z.lxor crc d)) 0) as (c & E & I).
  - auto.
  - intros i c Hi I. rewrite (rd_ok _ 0) by lia. cbn [bind]. rewrite crc_steps_steps.
    eexists; split; [reflexivity|]. subst. rewrite steps_small by (apply (nth_byte data i Hd)).
    replace (S i * 8)%nat with (i * 8 + 8)%nat by lia. rewrite serial_app.
    apply serial_ext. intros. symmetry. apply byte_bit_at. auto.
  - rewrite E. cbn [bind]. subst c. pose proof (div8 n) as D.
    destruct (Nat.eqb_spec (n mod 8) 0).
    + rewrite D at 2. rewrite e, Nat.add_0_r. auto.
    + assert (n / 8 < length data)%nat.
      { assert (n / 8 < (n + 7) / 8)%nat; [|lia]. pose proof (Nat.mod_upper_bound n 8 ltac:(lia)).
        replace (n + 7)%nat with (n mod 8 - 1 + (n / 8 + 1) * 8)%nat by lia.
        rewrite Nat.div_add by lia. lia. }
      rewrite (rd_ok _ 0) by auto. cbn [bind]. rewrite crc_steps_steps.
      pose proof (Nat.mod_upper_bound n 8 ltac:(lia)). pose proof (nth_byte data (n / 8) Hd) as B. red in B.
      rewrite tail_serial by lia. replace (serial rev n (byte_bit data) 0) with (serial rev (n / 8 * 8 + n mod 8) (byte_bit data) 0) by (rewrite <- D; reflexivity). rewrite serial_app. f_equal.
      apply serial_ext. intros. symmetry. apply byte_bit_at. lia.
Qed.

Lemma le_value_nonneg : forall l, Forall is_byte l -> 0 <= le_value l.
Proof.
  induction 1 as [|x l Hx Hl IH].
  - simpl. lia.
  - change (le_value (x :: l)) with (x + 256 * le_value l). red in Hx. lia.
Qed.

Lemma le_value_bits : forall l k, Forall is_byte l -> (k < 8 * length l)%nat ->
  Z.testbit (le_value l) (Z.of_nat k) = byte_bit l k.
Proof.
  induction l; intros k Hl Hk; simpl length in Hk; [lia|].
  inversion Hl; subst. change (le_value (a :: l)) with (a + 256 * le_value l). red in H1.
  assert (L : 0 <= le_value l).
  { apply le_value_nonneg; auto. }
  replace (a + 256 * le_value l) with (a + le_value l * 2 ^ 8) by (change (2^8) with 256; lia).
  destruct (le_lt_dec 8 k).
  - replace (Z.of_nat k) with (Z.of_nat (k - 8) + 8) by lia.
    rewrite <- Z.div_pow2_bits by lia. rewrite Z.div_add by lia. rewrite Z.div_small by lia.
    rewrite Z.add_0_l. rewrite IHl by (auto; lia). unfold byte_bit.
    replace k with (k - 8 + 1 * 8)%nat at 3 4 by lia. rewrite Nat.div_add, Nat.mod_add by lia.
    rewrite Nat.add_1_r. auto.
  - rewrite <- (Z.mod_pow2_bits_low _ 8) by lia. rewrite Z.mod_add by lia. rewrite Z.mod_small by lia.
    unfold byte_bit. rewrite Nat.div_small, Nat.mod_small by auto. auto.
Qed.

Lemma Forall_firstn_skipn : forall A (P : A -> Prop) l a b, Forall P l -> Forall P (firstn a (skipn b l)).
Proof.
  intros. rewrite Forall_forall in *. intros x Hx. apply H.
  rewrite <- (firstn_skipn b l). apply in_or_app. right.
  rewrite <- (firstn_skipn a (skipn b l)). apply in_or_app. left. auto.
Qed.

Lemma load32_spec : forall data i, Forall is_byte data -> ((i + 1) * 4 <= length data)%nat ->
  exists x, load32 data i = Ret x /\ 0 <= x < 2 ^ 32 /\
    forall k, (k < 32)%nat -> Z.testbit x (Z.of_nat k) = byte_bit data (i * 32 + k).
Proof.
  intros data i Hd Hi. unfold load32. rewrite (get_elt_spec 4 (i + 1)) by lia.
  eexists; split; [reflexivity|]. rewrite elements_eq, nth_tab by lia.
  set (l := firstn 4 (skipn (i * 4) data)).
  assert (Ll : length l = 4%nat) by (unfold l; rewrite firstn_length, skipn_length; lia).
  assert (Hl : Forall is_byte l) by (apply Forall_firstn_skipn; auto).
  split.
  - clearbody l. destruct l as [|a [|b [|c [|d [|]]]]]; try discriminate.
    inversion Hl as [|? ? A1 H1]; subst. inversion H1 as [|? ? A2 H2]; subst. inversion H2 as [|? ? A3 H3]; subst.
    inversion H3 as [|? ? A4 H4]; subst. unfold is_byte in *. unfold le_value, fold_right. change (2 ^ 32) with 4294967296. lia.
  - intros k Hk. rewrite le_value_bits by (auto; lia). unfold byte_bit, l.
    assert (k / 8 < 4)%nat by (apply Nat.div_lt_upper_bound; lia).
    rewrite firstn_nth by auto. rewrite skipn_nth.
    replace (i * 32 + k)%nat with (k + (i * 4) * 8)%nat by lia.
    rewrite Nat.div_add, Nat.mod_add by lia. rewrite (Nat.add_comm (i * 4)). auto.
Qed.

Lemma v2_spec : forall rev data n, Forall is_byte data -> ((n + 31) / 32 * 4 <= length data)%nat ->
  compute_crc_v2 rev data n = Ret (serial rev n (byte_bit data) 0).
Proof.
  intros rev data n Hd Hn. unfold compute_crc_v2.
  assert (D : (n = n / 32 * 32 + n mod 32)%nat) by (pose proof (Nat.div_mod n 32 ltac:(lia)); lia).
  pose proof (Nat.mod_upper_bound n 32 ltac:(lia)) as HB.
  assert (Hl : (n / 32 * 4 <= length data)%nat).
  { pose proof (Nat.div_le_mono n (n + 31) 32 ltac:(lia) ltac:(lia)). lia. }
  destruct (for_inv _ (fun i crc => crc = serial rev (i * 32) (byte_bit data) 0) (n / 32)
    (fun i crc => d <- load32 data i ;; crc_steps rev 32 (Z.lxor crc d)) 0) as (c & E & I).
  - auto.
  - intros i c Hi I. destruct (load32_spec data i Hd) as (x & Ex & Bx & Tx); [lia|].
    rewrite Ex. cbn [bind]. rewrite crc_steps_steps.
    eexists; split; [reflexivity|]. subst. rewrite steps_small by auto.
    replace (S i * 32)%nat with (i * 32 + 32)%nat by lia. rewrite serial_app.
    apply serial_ext. auto.
  - rewrite E. cbn [bind]. subst c.
    destruct (Nat.eqb_spec (n mod 32) 0).
    + rewrite D at 2. rewrite e, Nat.add_0_r. auto.
    + assert (Hr : (n / 32 < (n + 31) / 32)%nat).
      { replace (n + 31)%nat with (n mod 32 - 1 + (n / 32 + 1) * 32)%nat by lia.
        rewrite Nat.div_add by lia. lia. }
      destruct (load32_spec data (n / 32) Hd) as (x & Ex & Bx & Tx); [lia|].
      rewrite Ex. cbn [bind]. rewrite crc_steps_steps.
      rewrite tail_serial by lia. replace (serial rev n (byte_bit data) 0) with (serial rev (n / 32 * 32 + n mod 32) (byte_bit data) 0) by (rewrite <- D; reflexivity). rewrite serial_app. f_equal.
      apply serial_ext. intros. apply Tx. lia.
Qed.

Lemma mk_lut_spec : forall rev, exists lut, mk_lut rev = Ret lut /\ length lut = 256%nat /\
  forall i, (i < 256)%nat -> nth i lut 0 = steps rev 8 (Z.of_nat i).
Proof.
  intros rev. unfold mk_lut.
  destruct (for_inv _ (fun n lut => length lut = 256%nat /\ forall i, (i < n)%nat -> nth i lut 0 = steps rev 8 (Z.of_nat i)) 256
    (fun i lut => c <- crc_steps rev 8 (Z.of_nat i) ;; wr lut i c) (repeat 0 256)) as (lut & E & L & I).
  - split; [apply repeat_length|]. intros; lia.
  - intros i lut Hi [L I]. rewrite crc_steps_steps. cbn [bind]. rewrite wr_ok by lia.
    eexists; split; [reflexivity|]. rewrite length_upd. split; auto. intros k Hk.
    rewrite nth_upd by lia. destruct (Nat.eqb_spec k i); [subst; auto|]. apply I; lia.
  - exists lut. auto.
Qed.

Lemma v3_spec : forall rev lut data n w, 0 <= rev < 2 ^ Z.of_nat (S w) -> mk_lut rev = Ret lut ->
  Forall is_byte data -> ((n + 7) / 8 <= length data)%nat ->
  compute_crc_v3 rev lut data n = Ret (serial rev n (byte_bit data) 0).
Proof.
  intros rev lut data n w Hrev Hlut Hd Hn. rewrite <- v1_spec by auto. unfold compute_crc_v3, compute_crc_v1.
  destruct (mk_lut_spec rev) as (lut' & E' & L & I). rewrite E' in Hlut. inversion Hlut; subst lut'.
  assert (Hl : (n / 8 <= length data)%nat).
  { pose proof (Nat.div_le_mono n (n + 7) 8 ltac:(lia) ltac:(lia)). lia. }
  assert (B : forall s, 0 <= s < 2 ^ Z.of_nat (S w) -> forall d, is_byte d ->
    l <- rd lut (Z.to_nat (Z.lxor (Z.land s 255) d)) ;; Ret (Z.lxor (Z.shiftr s 8) l) = crc_steps rev 8 (Z.lxor s d)).
  { intros s Hs d Bd. red in Bd.
    set (x := Z.lxor (Z.land s 255) d).
    assert (Bx : 0 <= x < 2 ^ Z.of_nat 8).
    { unfold x. change 255 with (Z.ones 8). rewrite Z.land_ones by lia. apply bits_range.
      - apply Z.lxor_nonneg. pose proof (Z.mod_pos_bound s (2^8) ltac:(lia)). lia.
      - intros k Hk. rewrite Z.lxor_spec. rewrite Z.mod_pow2_bits_high by lia.
        rewrite (bound_bits d 8) by (auto; lia). auto. }
    change (2 ^ Z.of_nat 8) with 256 in Bx.
    rewrite (rd_ok _ 0) by lia. cbn [bind]. rewrite I by lia. rewrite crc_steps_steps. f_equal.
    rewrite Z2Nat.id by lia. rewrite Z.lxor_comm. rewrite <- (steps_high rev 8 x). f_equal.
    unfold x. rewrite Z.lxor_assoc, (Z.lxor_comm d), <- Z.lxor_assoc. f_equal.
    apply Z.bits_inj'. intros k Hk. rewrite Z.lxor_spec. change 255 with (Z.ones 8).
    rewrite Z.land_ones by lia. change (Z.of_nat 8) with 8. rewrite Z.shiftl_spec by lia. destruct (Z_lt_le_dec k 8).
    - rewrite Z.mod_pow2_bits_low by lia. rewrite (Z.testbit_neg_r _ (k - 8)) by lia. apply xorb_false_r.
    - rewrite Z.mod_pow2_bits_high by lia. rewrite Z.shiftr_spec by lia. rewrite xorb_false_l. f_equal. lia. }
  replace (for_ (n / 8) (fun i crc =>
           d <- rd data i ;;
           l <- rd lut (Z.to_nat (Z.lxor (Z.land crc 255) d)) ;;
           Ret (Z.lxor (Z.shiftr crc 8) l)) 0) with
    (for_ (n / 8) (fun i crc => d <- rd data i ;; crc_steps rev 8 (Z.lxor crc d)) 0); auto.
  (* both loops follow the serial register *)
  destruct (for_inv _ (fun i crc => crc = serial rev (i * 8) (byte_bit data) 0) (n / 8)
    (fun i crc => d <- rd data i ;; crc_steps rev 8 (Z.lxor crc d)) 0) as (c & E & Ic); auto.
  { intros i c Hi Ic. rewrite (rd_ok _ 0) by lia. cbn [bind]. rewrite crc_steps_steps.
    eexists; split; [reflexivity|]. subst. rewrite steps_small by (apply (nth_byte data i Hd)).
    replace (S i * 8)%nat with (i * 8 + 8)%nat by lia. rewrite serial_app.
    apply serial_ext. intros. symmetry. apply byte_bit_at. auto. }
  destruct (for_inv _ (fun i crc => crc = serial rev (i * 8) (byte_bit data) 0) (n / 8)
    (fun i crc => d <- rd data i ;;
           l <- rd lut (Z.to_nat (Z.lxor (Z.land crc 255) d)) ;;
           Ret (Z.lxor (Z.shiftr crc 8) l)) 0) as (c' & E2 & Ic'); auto.
  { intros i s Hi Ic'. rewrite (rd_ok _ 0) by lia. cbn [bind]. rewrite B.
    2:{ subst. apply serial_bound; auto. split; [lia|apply Z.pow_pos_nonneg; lia]. }
    2:{ apply nth_byte; auto. }
    rewrite crc_steps_steps.
    eexists; split; [reflexivity|]. subst s. rewrite steps_small by (apply (nth_byte data i Hd)).
    replace (S i * 8)%nat with (i * 8 + 8)%nat by lia. rewrite serial_app.
    apply serial_ext. intros. symmetry. apply byte_bit_at. auto. }
  rewrite E, E2. subst. auto.
Qed.

(** ** the register is the remainder *)

Lemma poly_rev_spec : forall packed size, (1 <= size <= 32)%nat -> 0 <= packed < 2 ^ 32 ->
  exists rev, poly_rev packed size = Ret rev /\ 0 <= rev < 2 ^ Z.of_nat size /\
    forall i, (i < size)%nat -> Z.testbit rev (Z.of_nat i) = Z.testbit packed (Z.of_nat (size - 1 - i)).
Proof.
  intros packed size Hs Hp. unfold poly_rev.
  destruct (for_inv _ (fun n r => 0 <= r < 2 ^ Z.of_nat n /\
     forall i, (i < n)%nat -> Z.testbit r (Z.of_nat i) = Z.testbit packed (Z.of_nat (n - 1 - i))) 32
     (fun i r => Ret (Z.lor (wrap 32 (Z.shiftl r 1)) (Z.land (Z.shiftr packed (Z.of_nat i)) 1))) 0) as (r & E & B & T).
  - split; [simpl; lia|]. intros; lia.
  - intros n r Hn (B & T). eexists; split; [reflexivity|].
    assert (B' : 0 <= Z.shiftl r 1 < 2 ^ Z.of_nat (S n)).
    { rewrite Z.shiftl_mul_pow2 by lia. rewrite Nat2Z.inj_succ, Z.pow_succ_r by lia. lia. }
    rewrite wrap_small.
    2:{ pose proof (pow_mono_nat (S n) 32 ltac:(lia)). lia. }
    assert (T' : forall k, 0 <= k -> Z.testbit (Z.lor (Z.shiftl r 1) (Z.land (Z.shiftr packed (Z.of_nat n)) 1)) k =
       if k =? 0 then Z.testbit packed (Z.of_nat n) else Z.testbit r (k - 1)).
    { intros k Hk. rewrite Z.lor_spec, Z.land_spec, Z.shiftr_spec, Z.shiftl_spec by lia.
      change 1 with (b2z true) at 2. rewrite testbit_b2z_Z by lia. rewrite andb_true_r.
      destruct (Z.eqb_spec k 0).
      - subst. rewrite andb_true_r, Z.testbit_neg_r by lia. auto.
      - rewrite andb_false_r, orb_false_r. auto. }
    split.
    + apply bits_range.
      * apply Z.lor_nonneg. split; [lia|]. apply Z.land_nonneg. right; lia.
      * intros k Hk. rewrite T' by lia. destruct (Z.eqb_spec k 0); [lia|]. apply (bound_bits r n); auto; lia.
    + intros i Hi. rewrite T' by lia. destruct (Z.eqb_spec (Z.of_nat i) 0).
      * f_equal. lia.
      * replace (Z.of_nat i - 1) with (Z.of_nat (i - 1)) by lia. rewrite T by lia. f_equal. lia.
  - rewrite E. cbn [bind]. destruct (Nat.eqb_spec size 0); [lia|]. eexists; split; [reflexivity|].
    assert (T' : forall k, 0 <= k -> Z.testbit (Z.shiftr r (32 - Z.of_nat size)) k = Z.testbit r (k + (32 - Z.of_nat size))).
    { intros. apply Z.shiftr_spec; auto. }
    split.
    + apply bits_range. { apply Z.shiftr_nonneg; lia. }
      intros k Hk. rewrite T' by lia. apply (bound_bits r 32); auto; lia.
    + intros i Hi. rewrite T' by lia. replace (Z.of_nat i + (32 - Z.of_nat size)) with (Z.of_nat (i + (32 - size))) by lia.
      rewrite T by lia. f_equal. lia.
Qed.

Lemma serial_multiple : forall g size rev u n, good_poly g size -> (1 <= size)%nat ->
  0 <= rev < 2 ^ Z.of_nat size ->
  (forall i, (i < size)%nat -> Z.testbit rev (Z.of_nat i) = nth (S i) g false) ->
  exists q, length q = n /\ (forall k, (k < n)%nat -> prod_coef q g k = u k) /\
    (forall i, (i < size)%nat -> prod_coef q g (n + i)%nat = Z.testbit (serial rev n u 0) (Z.of_nat i)).
Proof.
  intros g size rev u n [Lg G0] Hs Hrev Hg.
  assert (B0 : 0 <= 0 < 2 ^ Z.of_nat size) by (split; [lia|apply Z.pow_pos_nonneg; lia]).
  induction n.
  - exists []. split; auto. split; [intros; lia|]. intros. rewrite prod_coef_nil. symmetry. apply Z.bits_0.
  - destruct IHn as (q & Lq & H1 & H2).
    assert (B : 0 <= serial rev n u 0 < 2 ^ Z.of_nat size).
    { destruct size as [|w]; [lia|]. apply serial_bound; auto. }
    set (R := serial rev n u 0) in *.
    exists (q ++ [xorb (Z.testbit R 0) (u n)]). split; [rewrite app_length; simpl; lia|]. split.
    + intros k Hk. rewrite prod_coef_snoc, Lq. destruct (Nat.leb_spec n k).
      * assert (k = n) by lia. subst k. rewrite Nat.sub_diag, G0, andb_true_r.
        pose proof (H2 0%nat ltac:(lia)) as H20. rewrite Nat.add_0_r in H20. rewrite H20. apply xorb_cancel.
      * rewrite andb_false_r, xorb_false_r. apply H1. lia.
    + intros i Hi. rewrite serial_S. fold R. rewrite testbit_enter by lia. rewrite Hg by auto.
      rewrite prod_coef_snoc, Lq. destruct (Nat.leb_spec n (S n + i)); [|lia].
      replace (S n + i - n)%nat with (S i) by lia. f_equal.
      replace (S n + i)%nat with (n + S i)%nat by lia.
      replace (Z.of_nat i + 1) with (Z.of_nat (S i)) by lia.
      destruct (Nat.eq_dec (S i) size).
      * rewrite (bound_bits R size) by (auto; lia). unfold prod_coef. apply xsum_false. intros j Hj.
        destruct (Nat.leb_spec j (n + S i)); [|apply andb_false_r].
        rewrite (nth_overflow g) by lia. apply andb_false_r.
      * apply H2. lia.
Qed.

(** the parameters of a CRC object: the polynomial of the standard version and the
    reversed polynomial and table of the fast one come from the same key *)
Definition crc_params (packed : Z) (size : nat) (g : list bool) (rev : Z) (lut : list Z) : Prop :=
  (1 <= size <= 32)%nat /\ 0 <= packed < 2 ^ 32 /\
  mk_poly packed size = Ret g /\ poly_rev packed size = Ret rev /\ mk_lut rev = Ret lut.

Lemma crc_params_facts : forall packed size g rev lut, crc_params packed size g rev lut ->
  good_poly g size /\ 0 <= rev < 2 ^ Z.of_nat size /\
  (forall i, (i < size)%nat -> Z.testbit rev (Z.of_nat i) = nth (S i) g false).
Proof.
  intros packed size g rev lut (Hs & Hp & Hg & Hr & Hl).
  destruct (mk_poly_spec packed size) as (g' & E1 & G & P); [lia|].
  destruct (poly_rev_spec packed size Hs Hp) as (r' & E2 & B & T).
  rewrite Hg in E1. inversion E1; subst g'. rewrite Hr in E2. inversion E2; subst r'.
  split; auto. split; auto. intros i Hi. rewrite T, P by auto. auto.
Qed.

Lemma serial_word : forall packed size g rev lut (v : list bool) K, crc_params packed size g rev lut ->
  length v = (K + size)%nat ->
  (multiple g v <-> forall i, (i < size)%nat ->
     nth (K + i) v false = Z.testbit (serial rev K (fun k => nth k v false) 0) (Z.of_nat i)).
Proof.
  intros packed size g rev lut v K Hc Lv.
  destruct (crc_params_facts _ _ _ _ _ Hc) as (G & B & T). destruct Hc as (Hs & _).
  destruct (serial_multiple g size rev (fun k => nth k v false) K G ltac:(lia) B T) as (q & Lq & H1 & H2).
  set (R := serial rev K (fun k => nth k v false) 0) in *.
  set (w := tab (K + size) (prod_coef q g)).
  assert (Mw : multiple g w).
  { destruct G as [Lg _]. exists q. unfold w. rewrite length_tab. split; [lia|]. intros. rewrite nth_tab by auto. auto. }
  split.
  - intros M. assert (v = w).
    { apply multiple_unique with (g := g) (K := K); auto; try apply G.
      - unfold w. rewrite length_tab. auto.
      - destruct G as [Lg _]. lia.
      - intros k Hk. unfold w. rewrite nth_tab by lia. symmetry. apply H1. auto. }
    intros i Hi. rewrite H. unfold w. rewrite nth_tab by lia. apply H2. auto.
  - intros H. replace v with w; auto. unfold w. symmetry. apply eq_tab with (d := false); auto.
    intros k Hk. destruct (le_lt_dec K k).
    + replace k with (K + (k - K))%nat by lia. rewrite H, H2 by lia. auto.
    + symmetry. apply H1. auto.
Qed.

(** ** reading the received CRC *)

Definition got (data : list Z) (K size : nat) (st : Z * nat) : Prop :=
  (snd st <= size)%nat /\ 0 <= fst st < 2 ^ Z.of_nat (size - snd st) /\
  forall i, (i < size - snd st)%nat -> Z.testbit (fst st) (Z.of_nat i) = byte_bit data (K + i).

Lemma land1_b2z : forall x, Z.land x 1 = b2z (Z.testbit x 0).
Proof.
  intros. change 1 with (Z.ones 1). rewrite Z.land_ones by lia. change (2 ^ 1) with 2.
  rewrite Zmod_odd, Z.bit0_odd. destruct (Z.odd x); auto.
Qed.

Lemma got_step : forall data K size ref n p j, got data K size (ref, S n) -> (j < 8)%nat ->
  (p * 8 + j = K + (size - S n))%nat ->
  got data K size (Z.lor ref (Z.shiftl (Z.land (Z.shiftr (nth p data 0) (Z.of_nat j)) 1) (Z.of_nat (size - S n))), n).
Proof.
  intros data K size ref n p j (Hn & B & T) Hj E. unfold got, fst, snd in *.
  rewrite land1_b2z, Z.shiftr_spec, Z.add_0_l by lia.
  rewrite <- (byte_bit_at data p j) by auto. rewrite E.
  set (b := byte_bit data (K + (size - S n))).
  assert (T' : forall k, 0 <= k -> Z.testbit (Z.lor ref (Z.shiftl (b2z b) (Z.of_nat (size - S n)))) k =
    if k =? Z.of_nat (size - S n) then b else Z.testbit ref k).
  { intros k Hk. rewrite Z.lor_spec, Z.shiftl_spec by lia. destruct (Z.eqb_spec k (Z.of_nat (size - S n))).
    - subst k. rewrite (bound_bits ref (size - S n)) by (auto; lia). rewrite Z.sub_diag, testbit_b2z_Z by lia. auto.
    - destruct (Z_lt_le_dec k (Z.of_nat (size - S n))).
      + rewrite (Z.testbit_neg_r _ (k - _)) by lia. apply orb_false_r.
      + rewrite testbit_b2z_Z by lia. destruct (Z.eqb_spec (k - Z.of_nat (size - S n)) 0); [lia|]. apply orb_false_r. }
  split; [lia|]. split.
  - apply bits_range.
    + apply Z.lor_nonneg. split; [lia|]. apply Z.shiftl_nonneg. destruct b; simpl; lia.
    + intros k Hk. rewrite T' by lia. destruct (Z.eqb_spec k (Z.of_nat (size - S n))); [lia|].
      apply (bound_bits ref (size - S n)); auto; lia.
  - intros i Hi. rewrite T' by lia. destruct (Z.eqb_spec (Z.of_nat i) (Z.of_nat (size - S n))).
    + unfold b. f_equal. lia.
    + apply T. lia.
Qed.

Lemma take_bits_spec : forall data K size p from st, got data K size st -> (from <= 8)%nat ->
  (snd st = 0 \/ p * 8 + from = K + (size - snd st))%nat ->
  exists st', take_bits size (nth p data 0) from st = Ret st' /\ got data K size st' /\
    (snd st' = 0 \/ (p + 1) * 8 = K + (size - snd st'))%nat /\ (snd st' = 0 \/ snd st' + (8 - from) <= snd st)%nat.
Proof.
  intros data K size p from st G Hf Hp. unfold take_bits.
  destruct (for_from_inv _ (fun j st' => got data K size st' /\
    (snd st' = 0 \/ p * 8 + j = K + (size - snd st'))%nat /\ (snd st' = 0 \/ snd st' + (j - from) <= snd st)%nat) (8 - from) from
    (fun j '(ref, n) => if (0 <? n)%nat then
      Ret (Z.lor ref (Z.shiftl (Z.land (Z.shiftr (nth p data 0) (Z.of_nat j)) 1) (Z.of_nat (size - n))), (n - 1)%nat)
      else Ret (ref, n)) st) as (st' & E & G' & P & Q).
  - split; auto. split; auto. right. lia.
  - intros j (ref, n) Hj (G' & P & Q). destruct (Nat.ltb_spec 0 n).
    + destruct n as [|n]; [lia|]. eexists; split; [reflexivity|]. replace (S n - 1)%nat with n by lia.
      cbn [snd] in *. destruct P as [P|P]; [lia|]. destruct Q as [Q|Q]; [lia|].
      destruct G' as (G1 & G2 & G3). cbn [fst snd] in *.
      split; [|split].
      * apply got_step; auto; try lia. split; [|split]; auto.
      * cbn [snd]. lia.
      * cbn [snd]. lia.
    + assert (n = 0%nat) by lia. subst. eexists; split; [reflexivity|]. cbn [snd] in *. auto.
  - exists st'. split; auto. replace (from + (8 - from))%nat with 8%nat in P by lia. split; auto. split; [lia|]. lia.
Qed.

Lemma take_bytes_spec : forall data K size fuel p st, got data K size st -> ((K + size + 7) / 8 <= length data)%nat ->
  (snd st = 0 \/ p * 8 = K + (size - snd st))%nat -> (snd st <= fuel)%nat ->
  exists ref, take_bytes fuel size data p st = Ret ref /\ got data K size (ref, 0%nat).
Proof.
  intros data K size. induction fuel; intros p st G Hd Hp Hf; simpl.
  - destruct (Nat.eqb_spec (snd st) 0); [|lia]. exists (fst st). split; auto. destruct st as (r, n). simpl in *. subst. auto.
  - destruct (Nat.eqb_spec (snd st) 0).
    + exists (fst st). split; auto. destruct st as (r, n). simpl in *. subst. auto.
    + destruct Hp as [|Hp]; [lia|]. pose proof G as (G1 & _).
      assert (p < length data)%nat.
      { apply Nat.lt_le_trans with ((K + size + 7) / 8)%nat; auto.
        apply Nat.div_le_lower_bound; lia. }
      rewrite (rd_ok _ 0) by auto. cbn [bind].
      destruct (take_bits_spec data K size p 0 st G) as (st' & E & G' & P & Q); [lia|lia|].
      rewrite E. cbn [bind]. apply IHfuel; auto; lia.
Qed.

Lemma lxor_zero_iff : forall a b w, 0 <= a < 2 ^ Z.of_nat w -> 0 <= b < 2 ^ Z.of_nat w ->
  ((Z.lxor a b =? 0) = true <-> forall i, (i < w)%nat -> Z.testbit a (Z.of_nat i) = Z.testbit b (Z.of_nat i)).
Proof.
  intros a b w Ha Hb. rewrite Z.eqb_eq, Z.lxor_eq_0_iff. split; [intros ->; auto|].
  intros H. apply Z.bits_inj'. intros k Hk. destruct (Z_lt_le_dec k (Z.of_nat w)).
  - replace k with (Z.of_nat (Z.to_nat k)) by lia. apply H. lia.
  - rewrite (bound_bits a w), (bound_bits b w) by auto. auto.
Qed.

Lemma fast_check_packed_spec : forall packed size g rev lut K mem, crc_params packed size g rev lut ->
  Forall is_byte mem -> ((K + size + 7) / 8 <= length mem)%nat ->
  exists r, fast_check_packed rev lut size K mem = Ret r /\
    (r = true <-> multiple g (tab (K + size) (byte_bit mem))).
Proof.
  intros packed size g rev lut K mem Hc Hm Hl. unfold fast_check_packed.
  destruct (crc_params_facts _ _ _ _ _ Hc) as (G & B & T). pose proof Hc as (Hs & _ & _ & _ & Hlut).
  assert (Hw : exists w, size = S w) by (exists (size - 1)%nat; lia). destruct Hw as (w & Hw).
  rewrite (v3_spec rev lut mem K w); auto; [|subst; auto|].
  2:{ apply Nat.le_trans with ((K + size + 7) / 8)%nat; auto. apply Nat.div_le_mono; lia. }
  cbn [bind]. pose proof (div8 K) as D. pose proof (Nat.mod_upper_bound K 8 ltac:(lia)) as HB.
  assert (G0 : got mem K size (0, size)).
  { split; [simpl; lia|]. unfold fst, snd. rewrite Nat.sub_diag. split; [simpl; lia|]. intros; lia. }
  assert (X : exists ref,
    (if (K mod 8 =? 0)%nat then take_bytes size size mem (K / 8) (0, size)
          else
            cur <- rd mem (K / 8) ;;
            st <- take_bits size cur (K mod 8) (0, size) ;;
            take_bytes size size mem (K / 8 + 1) st) = Ret ref /\ got mem K size (ref, 0%nat)).
  { destruct (Nat.eqb_spec (K mod 8) 0).
    - apply take_bytes_spec; auto. right. cbn [snd]. lia.
    - assert (K / 8 < length mem)%nat.
      { apply Nat.lt_le_trans with ((K + size + 7) / 8)%nat; auto. apply Nat.div_le_lower_bound; lia. }
      rewrite (rd_ok _ 0) by auto. cbn [bind].
      destruct (take_bits_spec mem K size (K / 8) (K mod 8) (0, size) G0) as (st' & E & G' & P & Q); [lia| |].
      { right. cbn [snd]. lia. }
      rewrite E. cbn [bind]. apply take_bytes_spec; auto. destruct G'. auto. }
  destruct X as (ref & -> & (_ & Br & Tr)). cbn [bind].
  unfold fst, snd in Br, Tr. rewrite Nat.sub_0_r in Br, Tr.
  eexists; split; [reflexivity|].
  rewrite (serial_word packed size g rev lut _ K) by (auto; rewrite length_tab; auto).
  replace (serial rev K (fun k => nth k (tab (K + size) (byte_bit mem)) false) 0)
    with (serial rev K (byte_bit mem) 0) by (apply serial_ext; intros; rewrite nth_tab by lia; auto).
  rewrite (lxor_zero_iff _ _ size); auto.
  - split; intros H i Hi; specialize (H i Hi).
    + rewrite nth_tab by lia. rewrite H. symmetry. auto.
    + rewrite nth_tab in H by lia. rewrite <- H. symmetry. auto.
  - rewrite Hw. apply serial_bound. { rewrite <- Hw. auto. } { split; [lia|]. apply Z.pow_pos_nonneg; lia. }
Qed.

Lemma holds_is_byte : forall n bit s, holds_bits false 8 n bit s -> is_byte s.
Proof. intros n bit s [B _]. exact B. Qed.

Lemma pack8_spec : forall v mem n, Forall is_byte mem -> ((n + 7) / 8 <= length mem)%nat -> (n <= length v)%nat ->
  exists mem', pack_ptr 8 v mem n 1 false 8 = Ret mem' /\ length mem' = length mem /\ Forall is_byte mem' /\
    forall k, (k < n)%nat -> byte_bit mem' k = nz (nth k v 0).
Proof.
  intros v mem n Hm Hl Hv.
  assert (S8 : symbols_for n 8 = ((n + 7) / 8)%nat) by (unfold symbols_for; f_equal; lia).
  destruct (pack_ptr_spec 8 v mem n 1 false 8) as (m & E & L & P & Q).
  - lia.
  - left. lia.
  - lia.
  - rewrite S8. lia.
  - exists m. split; auto. split; auto. rewrite Nat.mul_1_l in Q. split.
    + rewrite Forall_forall. intros x Hx. apply In_nth with (d := 0) in Hx. destruct Hx as (i & Hi & <-).
      destruct (le_lt_dec (symbols_for n 8) i).
      * rewrite Q by auto. apply nth_byte; auto.
      * specialize (P 0%nat i ltac:(lia) l). simpl in P. eapply holds_is_byte. exact P.
    + intros k Hk. unfold byte_bit.
      assert (Hi : (k / 8 < symbols_for n 8)%nat) by (apply symbols_for_div; lia).
      specialize (P 0%nat (k / 8)%nat ltac:(lia) Hi). cbn [Nat.mul Nat.add] in P. destruct P as [_ P].
      pose proof (Nat.mod_upper_bound k 8 ltac:(lia)) as HB. pose proof (div8 k) as D.
      specialize (P (k mod 8)%nat HB). cbv iota in P. rewrite P. rewrite <- D, nth_bits_of.
      destruct (Nat.ltb_spec (k mod 8) (Nat.min 8 (n - k / 8 * 8))); [auto|lia].
Qed.

Lemma fast_build_spec : forall packed size g rev lut K mem u out, crc_params packed size g rev lut ->
  Forall is_byte mem -> ((K + 7) / 8 <= length mem)%nat -> length u = K -> length out = (K + size)%nat ->
  exists v mem', fast_build rev lut size K mem u out = Ret (v, mem') /\ length mem' = length mem /\ Forall is_byte mem' /\
    length v = (K + size)%nat /\ firstn K v = u /\ multiple g (bits_of v) /\
    (forall k, (K <= k)%nat -> nth k v 0 = b2z (nz (nth k v 0))).
Proof.
  intros packed size g rev lut K mem u out Hc Hm Hl Hu Ho. unfold fast_build.
  destruct (crc_params_facts _ _ _ _ _ Hc) as (G & B & T). pose proof Hc as (Hs & _ & _ & _ & Hlut).
  assert (Hw : exists w, size = S w) by (exists (size - 1)%nat; lia). destruct Hw as (w & Hw).
  destruct (pack8_spec u mem K Hm Hl) as (m & E & Lm & Fm & P); [lia|]. rewrite E. cbn [bind].
  rewrite (v3_spec rev lut m K w); auto; [|subst; auto|lia]. cbn [bind].
  destruct (copy_n_spec u 0 K out 0) as (o1 & E1 & L1 & C1 & D1); try lia. rewrite E1. cbn [bind].
  set (R := serial rev K (byte_bit m) 0).
  destruct (for_inv _ (fun i o => length o = length out /\ (forall k, (k < K)%nat -> nth k o 0 = nth k u 0) /\
     (forall k, (k < i)%nat -> nth (K + k) o 0 = b2z (Z.testbit R (Z.of_nat k)))) size
     (fun i o => wr o (K + i) (Z.land (Z.shiftr R (Z.of_nat i)) 1)) o1) as (v & E2 & L2 & I1 & I2).
  - split; auto. split. { intros k Hk. apply (C1 k Hk). } intros; lia.
  - intros i o Hi (L & I1 & I2). rewrite wr_ok by lia. eexists; split; [reflexivity|].
    rewrite length_upd. split; auto. split.
    + intros k Hk. rewrite nth_upd_neq by lia. auto.
    + intros k Hk. rewrite nth_upd by lia. destruct (Nat.eqb_spec (K + k) (K + i)).
      * assert (k = i) by lia. subst k. rewrite land1_b2z, Z.shiftr_spec, Z.add_0_l by lia. auto.
      * apply I2. lia.
  - rewrite E2. cbn [bind]. exists v, m. split; auto. split; auto. split; auto. split; [lia|]. split; [|split].
    + apply list_eq_nth with (d := 0). { rewrite firstn_length. lia. }
      intros k Hk. rewrite firstn_length in Hk. rewrite firstn_nth by lia. apply I1. lia.
    + apply (serial_word packed size g rev lut _ K); auto.
      { unfold bits_of. rewrite map_length. lia. }
      intros i Hi. rewrite nth_bits_of, I2 by auto.
      replace (serial rev K (fun k => nth k (bits_of v) false) 0) with R.
      * destruct (Z.testbit R (Z.of_nat i)); auto.
      * apply serial_ext. intros k Hk. rewrite nth_bits_of, I1, P by auto. auto.
    + intros k Hk. destruct (le_lt_dec (length v) k). { rewrite nth_overflow by auto. auto. }
      replace k with (K + (k - K))%nat by lia. rewrite I2 by lia.
      destruct (Z.testbit R (Z.of_nat (k - K))); auto.
Qed.

Lemma fast_check_spec : forall packed size g rev lut K mem v, crc_params packed size g rev lut ->
  Forall is_byte mem -> ((K + size + 7) / 8 <= length mem)%nat -> length v = (K + size)%nat ->
  exists r mem', fast_check rev lut size K mem v = Ret (r, mem') /\ length mem' = length mem /\ Forall is_byte mem' /\
    (r = true <-> multiple g (bits_of v)).
Proof.
  intros packed size g rev lut K mem v Hc Hm Hl Hv. unfold fast_check.
  destruct (pack8_spec v mem (K + size) Hm Hl) as (m & E & Lm & Fm & P); [lia|]. rewrite E. cbn [bind].
  destruct (fast_check_packed_spec packed size g rev lut K m Hc Fm) as (r & Er & Hr); [lia|].
  rewrite Er. cbn [bind]. exists r, m. split; auto. split; auto. split; auto. rewrite Hr.
  replace (tab (K + size) (byte_bit m)) with (bits_of v); [tauto|].
  apply eq_tab with (d := false). { unfold bits_of. rewrite map_length. auto. }
  intros k Hk. rewrite nth_bits_of, P by auto. auto.
Qed.
