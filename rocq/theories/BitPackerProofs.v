From Coq Require Import List Arith ZArith Lia Bool.
From Verif Require Import Base Loops Float32 BitPackerModel BitPackerSpec.
Import ListNotations.

(** ** bits of integers *)

Lemma bits_bound : forall x j, (0 <= x)%Z -> (forall k, (Z.of_nat j <= k)%Z -> Z.testbit x k = false) ->
  (x < 2 ^ Z.of_nat j)%Z.
Proof.
  intros x j Hx H. destruct (Z_lt_ge_dec x (2 ^ Z.of_nat j)) as [|h]; auto. exfalso.
  assert (0 < x)%Z. { assert (0 < 2 ^ Z.of_nat j)%Z by (apply Z.pow_pos_nonneg; lia). lia. }
  assert (Z.of_nat j <= Z.log2 x)%Z.
  { apply Z.log2_le_pow2; lia. }
  pose proof (H _ H1) as F. rewrite Z.bit_log2 in F by auto. discriminate.
Qed.

Lemma bound_bits : forall x j k, (0 <= x < 2 ^ Z.of_nat j)%Z -> (Z.of_nat j <= k)%Z -> Z.testbit x k = false.
Proof.
  intros. destruct (Z.eq_dec x 0). { subst. apply Z.bits_0. }
  apply Z.bits_above_log2; [lia|]. assert (Z.log2 x < Z.of_nat j)%Z; [|lia].
  apply Z.log2_lt_pow2; lia.
Qed.

Lemma pow_mono_nat : forall a b, a <= b -> (2 ^ Z.of_nat a <= 2 ^ Z.of_nat b)%Z.
Proof. intros. apply Z.pow_le_mono_r; lia. Qed.

Lemma wrap_small : forall w x, (0 <= x < 2 ^ Z.of_nat w)%Z -> wrap w x = x.
Proof. intros. unfold wrap. apply Z.mod_small; auto. Qed.

Lemma testbit_b2z : forall b k, Z.testbit (b2z b) (Z.of_nat k) = (k =? 0) && b.
Proof.
  intros. destruct b; simpl.
  - destruct k; simpl; auto.
  - rewrite andb_false_r. apply Z.bits_0.
Qed.

Lemma pack_symb_lsb_spec : forall w n get bit, n <= w ->
  (forall j, j < n -> exists x, get j = Ret x /\ nz x = bit j) ->
  exists s, pack_symb_lsb w n get = Ret s /\ holds_bits false w n bit s.
Proof.
  intros w n get bit Hn Hg. unfold pack_symb_lsb.
  destruct (for_inv _ (fun j s => (0 <= s < 2 ^ Z.of_nat j)%Z /\
     forall k, Z.testbit s (Z.of_nat k) = (k <? j) && bit k) n
     (fun j symb => x <- get j ;;
            Ret (wrap w (Z.lor symb (Z.shiftl (b2z (nz x)) (Z.of_nat j))))) 0%Z) as (s & E & B & I).
  - split; [simpl; lia|]. intros. rewrite Z.bits_0. reflexivity.
  - intros j s Hj (B & I). destruct (Hg j Hj) as (x & E & Ex). rewrite E. simpl.
    eexists; split; [reflexivity|].
    assert (T : forall k, Z.testbit (Z.lor s (Z.shiftl (b2z (nz x)) (Z.of_nat j))) (Z.of_nat k) = (k <? S j) && bit k).
    { intros k. rewrite Z.lor_spec, I. destruct (le_lt_dec j k).
      - rewrite Z.shiftl_spec by lia. rewrite <- Nat2Z.inj_sub by lia. rewrite testbit_b2z.
        destruct (Nat.ltb_spec k j); [lia|]. simpl. destruct (Nat.ltb_spec k (S j)).
        + assert (k = j) by lia. subst. rewrite Nat.sub_diag, Ex. auto.
        + destruct (Nat.eqb_spec (k - j) 0); [lia|]. auto.
      - rewrite Z.shiftl_spec_low by lia. rewrite orb_false_r.
        destruct (Nat.ltb_spec k j); [|lia]. destruct (Nat.ltb_spec k (S j)); [|lia]. auto. }
    assert (P : (0 <= Z.lor s (Z.shiftl (b2z (nz x)) (Z.of_nat j)))%Z).
    { apply Z.lor_nonneg; split; [lia|]. apply Z.shiftl_nonneg. destruct (nz x); simpl; lia. }
    assert (Bd : (Z.lor s (Z.shiftl (b2z (nz x)) (Z.of_nat j)) < 2 ^ Z.of_nat (S j))%Z).
    { apply bits_bound; auto. intros k Hk. rewrite <- (Z2Nat.id k) by lia. rewrite T.
      destruct (Nat.ltb_spec (Z.to_nat k) (S j)); auto. lia. }
    pose proof (pow_mono_nat (S j) w ltac:(lia)).
    rewrite wrap_small by lia. auto.
  - exists s. split; auto. split; [|intros; apply I].
    pose proof (pow_mono_nat n w Hn). lia.
Qed.

Lemma pack_symb_msb_spec : forall w n get bit, n <= w ->
  (forall j, j < n -> exists x, get j = Ret x /\ nz x = bit j) ->
  exists s, pack_symb_msb w n get = Ret s /\ holds_bits true w n bit s.
Proof.
  intros w n get bit Hn Hg. unfold pack_symb_msb.
  destruct (for_inv _ (fun j s => (0 <= s < 2 ^ Z.of_nat j)%Z /\
     forall k, k < j -> Z.testbit s (Z.of_nat (j - 1 - k)) = bit k) n
     (fun j symb => x <- get j ;;
            Ret (wrap w (Z.lor (Z.shiftl symb 1) (b2z (nz x))))) 0%Z) as (s & E & B & I).
  - split; [simpl; lia|]. intros; lia.
  - intros j s Hj (B & I). destruct (Hg j Hj) as (x & E & Ex). rewrite E. cbn [bind guard].
    eexists; split; [reflexivity|].
    set (y := Z.lor (Z.shiftl s 1) (b2z (nz x))).
    assert (P : (0 <= y)%Z).
    { apply Z.lor_nonneg; split. apply Z.shiftl_nonneg; lia. destruct (nz x); simpl; lia. }
    assert (T0 : Z.testbit y 0 = bit j).
    { unfold y. rewrite Z.lor_spec. rewrite Z.shiftl_spec_low by lia.
      change 0%Z with (Z.of_nat 0). rewrite testbit_b2z. simpl. auto. }
    assert (T : forall k, Z.testbit y (Z.of_nat (S k)) = Z.testbit s (Z.of_nat k)).
    { intros k. unfold y. rewrite Z.lor_spec, testbit_b2z. simpl andb. rewrite orb_false_r.
      rewrite Z.shiftl_spec by lia. f_equal. lia. }
    assert (Bd : (y < 2 ^ Z.of_nat (S j))%Z).
    { apply bits_bound; auto. intros k Hk. replace k with (Z.of_nat (S (Z.to_nat k - 1))) by lia.
      rewrite T. apply bound_bits with (j := j); lia. }
    pose proof (pow_mono_nat (S j) w ltac:(lia)).
    rewrite wrap_small by lia. split; [lia|]. intros k Hk.
    destruct (Nat.eq_dec k j).
    + subst. replace (S j - 1 - j) with 0 by lia. auto.
    + replace (S j - 1 - k) with (S (j - 1 - k)) by lia. rewrite T. apply I. lia.
  - rewrite E. cbn [bind guard]. eexists; split; [reflexivity|].
    assert (P : (0 <= Z.shiftl s (Z.of_nat w - Z.of_nat n))%Z) by (apply Z.shiftl_nonneg; lia).
    assert (Bd : (Z.shiftl s (Z.of_nat w - Z.of_nat n) < 2 ^ Z.of_nat w)%Z).
    { rewrite Z.shiftl_mul_pow2 by lia.
      replace (Z.of_nat w) with (Z.of_nat n + (Z.of_nat w - Z.of_nat n))%Z at 2 by lia.
      rewrite Z.pow_add_r by lia. apply Z.mul_lt_mono_pos_r; [|lia].
      apply Z.pow_pos_nonneg; lia. }
    rewrite wrap_small by lia. split; [lia|]. intros k Hk.
    destruct (Nat.ltb_spec k n).
    + rewrite Z.shiftl_spec by lia. simpl. rewrite <- (I k H). f_equal. lia.
    + simpl. rewrite Z.shiftl_spec_low by lia. auto.
Qed.

Lemma pack_symb_spec : forall msb w n get bit, n <= w ->
  (forall j, j < n -> exists x, get j = Ret x /\ nz x = bit j) ->
  exists s, pack_symb msb w n get = Ret s /\ holds_bits msb w n bit s.
Proof.
  intros [] *; [apply pack_symb_msb_spec | apply pack_symb_lsb_spec].
Qed.

Lemma bit_of_holds : forall msb w n bit s j, holds_bits msb w n bit s -> n <= w -> j < n ->
  bit_of msb w j s = b2z (bit j).
Proof.
  intros msb w n bit s j [B H] Hn Hj. unfold bit_of.
  assert (L : forall a, Z.land (Z.shiftr s a) 1 = b2z (Z.testbit s a)).
  { intros a. apply Z.bits_inj'. intros k Hk. rewrite Z.land_spec.
    rewrite <- (Z2Nat.id k) by lia. rewrite testbit_b2z.
    change 1%Z with (b2z true). rewrite testbit_b2z.
    destruct (Nat.eqb_spec (Z.to_nat k) 0).
    - rewrite e. cbn [andb Nat.eqb]. rewrite andb_true_r. rewrite Z.shiftr_spec by lia. auto.
    - simpl. apply andb_false_r. }
  rewrite L. specialize (H j ltac:(lia)).
  replace ((if msb then (Z.of_nat w - 1 - Z.of_nat j)%Z else Z.of_nat j))
    with (Z.of_nat (if msb then w - 1 - j else j)) by (destruct msb; lia).
  rewrite H. destruct (Nat.ltb_spec j n); [|lia]. auto.
Qed.

(** ** frames *)

Lemma symbols_for_eq : forall n p, 0 < p -> symbols_for n p = n / p + (if n - n / p * p =? 0 then 0 else 1).
Proof.
  intros n p Hp. unfold symbols_for.
  pose proof (Nat.div_mod n p ltac:(lia)). pose proof (Nat.mod_upper_bound n p ltac:(lia)).
  destruct (Nat.eqb_spec (n - n / p * p) 0).
  - symmetry. apply Nat.div_unique with (r := p - 1); nia.
  - symmetry. apply Nat.div_unique with (r := n mod p - 1); nia.
Qed.

Lemma symbols_for_bound : forall n p i, 0 < p -> i < symbols_for n p -> i * p < n.
Proof.
  intros n p i Hp Hi. unfold symbols_for in Hi.
  pose proof (Nat.mul_div_le (n + p - 1) p ltac:(lia)). nia.
Qed.

Lemma symbols_for_le : forall n p, 0 < p -> symbols_for n p <= n.
Proof.
  intros. destruct (le_lt_dec (symbols_for n p) n); auto.
  pose proof (symbols_for_bound n p n H l). nia.
Qed.

Lemma symbols_for_div : forall n p k, 0 < p -> k < n -> k / p < symbols_for n p.
Proof.
  intros n p k Hp Hk. unfold symbols_for.
  pose proof (Nat.div_mod k p ltac:(lia)). pose proof (Nat.mod_upper_bound k p ltac:(lia)).
  apply Nat.div_le_lower_bound; nia.
Qed.

Lemma n_symbs_ok : forall n p, 0 < p <= 64 -> (Z.of_nat n <= 2 ^ 24)%Z ->
  n_symbs_per_frame n p = symbols_for n p.
Proof.
  intros n p Hp Hn. unfold n_symbs_per_frame.
  rewrite ceil_float_div_exact.
  2: lia.
  2: { split; [lia|]. apply Z.le_trans with 64%Z; [lia|]. discriminate. }
  unfold ceil_div.
  assert (- (- Z.of_nat n / Z.of_nat p) = Z.of_nat (symbols_for n p))%Z; [|lia].
  apply ceil_unique; [lia|].
  pose proof (symbols_for_bound n p (symbols_for n p - 1) ltac:(lia)).
  unfold symbols_for in *.
  pose proof (Nat.div_mod (n + p - 1) p ltac:(lia)).
  pose proof (Nat.mod_upper_bound (n + p - 1) p ltac:(lia)).
  set (q := (n + p - 1) / p) in *. nia.
Qed.

(** what a symbol of a frame holds *)
Definition symb_ok (msb : bool) (w nbps n_bits : nat) (bit : nat -> bool) (i : nat) (s : Z) : Prop :=
  holds_bits msb w (Nat.min nbps (n_bits - i * nbps)) (fun j => bit (i * nbps + j)) s.

Lemma _pack_spec : forall M (Inv : nat -> M -> Prop) get put w n_bits msb nbps bit m,
  0 < nbps <= w ->
  (forall i m k, Inv i m -> i * nbps <= k < n_bits -> exists x, get m k = Ret x /\ nz x = bit k) ->
  (forall i m s, i < symbols_for n_bits nbps -> Inv i m -> symb_ok msb w nbps n_bits bit i s ->
     exists m', put m i s = Ret m' /\ Inv (S i) m') ->
  Inv 0 m ->
  exists m', _pack get put w n_bits msb nbps m = Ret m' /\ Inv (symbols_for n_bits nbps) m'.
Proof.
  intros M Inv get put w n_bits msb nbps bit m Hn Hget Hput H0. unfold _pack.
  pose proof (Nat.mul_div_le n_bits nbps ltac:(lia)) as Q.
  rewrite symbols_for_eq in * by lia.
  set (q := n_bits / nbps) in *.
  destruct (for_inv _ Inv q (fun i m =>
         symb <- pack_symb msb w nbps (fun j => get m (i * nbps + j)) ;;
         put m i symb) m) as (m1 & E1 & I1); auto.
  - intros i s Hi I.
    destruct (pack_symb_spec msb w nbps (fun j => get s (i * nbps + j)) (fun j => bit (i * nbps + j)))
      as (y & Ey & Hy); [lia| |].
    { intros j Hj. apply (Hget i); auto. nia. }
    rewrite Ey. simpl. apply Hput; auto. { lia. }
    unfold symb_ok. replace (Nat.min nbps (n_bits - i * nbps)) with nbps by nia. auto.
  - rewrite E1. cbn [bind guard]. destruct (Nat.eqb_spec (n_bits - q * nbps) 0) as [z|z].
    + exists m1. split; auto. rewrite Nat.add_0_r. auto.
    + assert (n_bits - q * nbps < nbps).
      { pose proof (Nat.div_mod n_bits nbps ltac:(lia)) as D.
        pose proof (Nat.mod_upper_bound n_bits nbps ltac:(lia)). fold q in D. nia. }
      destruct (pack_symb_spec msb w (n_bits - q * nbps) (fun j => get m1 (q * nbps + j))
         (fun j => bit (q * nbps + j))) as (y & Ey & Hy); [lia| |].
      { intros j Hj. apply (Hget q); auto. lia. }
      rewrite Ey. cbn [bind guard]. replace (q + 1) with (S q) by lia. apply Hput; auto. { lia. }
      unfold symb_ok. replace (Nat.min nbps (n_bits - q * nbps)) with (n_bits - q * nbps) by lia. auto.
Qed.

Lemma _unpack_spec : forall M (Inv : nat -> M -> Prop) get put w n_bits msb nbps sy m,
  0 < nbps ->
  (forall i, i < symbols_for n_bits nbps -> get i = Ret (sy i)) ->
  (forall k m, k < n_bits -> Inv k m ->
     exists m', put m k (bit_of msb w (k mod nbps) (sy (k / nbps))) = Ret m' /\ Inv (S k) m') ->
  Inv 0 m ->
  exists m', _unpack get put w n_bits msb nbps m = Ret m' /\ Inv n_bits m'.
Proof.
  intros M Inv get put w n_bits msb nbps sy m Hn Hget Hput H0. unfold _unpack.
  pose proof (Nat.mul_div_le n_bits nbps ltac:(lia)) as Q.
  set (q := n_bits / nbps) in *.
  assert (Step : forall i j m, j < nbps -> i * nbps + j < n_bits -> Inv (i * nbps + j) m ->
     exists m', (s <- get i ;; put m (i * nbps + j) (bit_of msb w j s)) = Ret m' /\ Inv (i * nbps + S j) m').
  { intros i j m' Hj Hk I. rewrite Hget.
    - simpl. destruct (Hput _ _ Hk I) as (m'' & E & I'').
      destruct (divmod_idx i j nbps Hj) as [D1 D2]. rewrite D1, D2 in E.
      exists m''. split; auto. replace (i * nbps + S j) with (S (i * nbps + j)) by lia. auto.
    - destruct (divmod_idx i j nbps Hj) as [D1 D2]. rewrite <- D1. apply symbols_for_div; auto. }
  destruct (for_inv _ (fun i m => Inv (i * nbps) m) q (fun i m =>
         for_ nbps (fun j m =>
           s <- get i ;; put m (i * nbps + j) (bit_of msb w j s)) m) m) as (m1 & E1 & I1); auto.
  - intros i s Hi I.
    destruct (for_inv _ (fun j m => Inv (i * nbps + j) m) nbps
      (fun j m => s <- get i ;; put m (i * nbps + j) (bit_of msb w j s)) s) as (s' & E & I').
    + rewrite Nat.add_0_r. auto.
    + intros j s0 Hj I0. apply Step; auto. nia.
    + exists s'. split; auto. replace (S i * nbps) with (i * nbps + nbps) by lia. auto.
  - rewrite E1. cbn [bind guard].
    assert (n_bits - q * nbps < nbps).
    { pose proof (Nat.div_mod n_bits nbps ltac:(lia)) as D.
      pose proof (Nat.mod_upper_bound n_bits nbps ltac:(lia)). fold q in D. nia. }
    destruct (for_inv _ (fun j m => Inv (q * nbps + j) m) (n_bits - q * nbps)
      (fun j m => s <- get q ;; put m (q * nbps + j) (bit_of msb w j s)) m1) as (s' & E & I').
    + rewrite Nat.add_0_r. auto.
    + intros j s0 Hj I0. apply Step; auto; lia.
    + exists s'. split; auto. replace n_bits with (q * nbps + (n_bits - q * nbps)) by lia. auto.
Qed.

(** ** distinct buffers *)

Lemma nbps_ok_true : forall w p, 0 < p <= w -> nbps_ok w p = true.
Proof.
  intros. unfold nbps_ok. destruct (Nat.ltb_spec w p); [lia|]. destruct (Nat.eqb_spec p 0); [lia|]. auto.
Qed.

Lemma pack_frame_spec : forall w vin vout n_bits msb nbps ioff ooff,
  0 < nbps <= w -> ioff + n_bits <= length vin -> ooff + symbols_for n_bits nbps <= length vout ->
  exists out,
    _pack (fun (_ : list Z) k => rd vin (ioff + k)) (fun o i s => wr o (ooff + i) s) w n_bits msb nbps vout = Ret out /\
    length out = length vout /\
    (forall i, i < symbols_for n_bits nbps ->
       symb_ok msb w nbps n_bits (fun k => nth (ioff + k) (bits_of vin) false) i (nth (ooff + i) out 0%Z)) /\
    (forall k, k < ooff \/ ooff + symbols_for n_bits nbps <= k -> nth k out 0%Z = nth k vout 0%Z).
Proof.
  intros w vin vout n_bits msb nbps ioff ooff Hn Hi Ho.
  destruct (_pack_spec _ (fun i o => length o = length vout /\
      (forall i', i' < i -> symb_ok msb w nbps n_bits (fun k => nth (ioff + k) (bits_of vin) false) i' (nth (ooff + i') o 0%Z)) /\
      (forall k, k < ooff \/ ooff + i <= k -> nth k o 0%Z = nth k vout 0%Z))
      (fun (_ : list Z) k => rd vin (ioff + k)) (fun o i s => wr o (ooff + i) s) w n_bits msb nbps
      (fun k => nth (ioff + k) (bits_of vin) false) vout) as (out & E & L & I1 & I2); auto.
  - intros i o k _ Hk. exists (nth (ioff + k) vin 0%Z). rewrite (rd_ok _ 0%Z) by lia. split; auto.
    unfold bits_of. change false with ((fun x => negb (x =? 0)%Z) 0%Z). rewrite map_nth. auto.
  - intros i o s Hi' (L & I1 & I2) Hs. rewrite wr_ok by lia. eexists; split; [reflexivity|].
    rewrite length_upd. split; auto. split.
    + intros i' Hi''. rewrite nth_upd by lia. destruct (Nat.eqb_spec (ooff + i') (ooff + i)).
      * assert (i' = i) by lia. subst. auto.
      * apply I1. lia.
    + intros k Hk. rewrite nth_upd_neq by lia. apply I2. lia.
  - split; auto. split; intros; auto; lia.
  - exists out. auto.
Qed.

(** the stride between frames is right *)
Definition stride_ok (n_bits n_frames nbps : nat) : Prop :=
  n_frames <= 1 \/ nbps <= 64 /\ (Z.of_nat n_bits <= 2 ^ 24)%Z.

Lemma stride_eq : forall n_bits n_frames nbps f, 0 < nbps -> stride_ok n_bits n_frames nbps -> f < n_frames ->
  f * n_symbs_per_frame n_bits nbps = f * symbols_for n_bits nbps.
Proof.
  intros n_bits n_frames nbps f Hn [H|[H1 H2]] Hf.
  - assert (f = 0) by lia. subst. auto.
  - rewrite n_symbs_ok; auto.
Qed.

Lemma pack_ptr_spec : forall w vin vout n_bits n_frames msb nbps,
  0 < nbps <= w -> stride_ok n_bits n_frames nbps ->
  n_frames * n_bits <= length vin -> n_frames * symbols_for n_bits nbps <= length vout ->
  exists out, pack_ptr w vin vout n_bits n_frames msb nbps = Ret out /\
    length out = length vout /\
    (forall f i, f < n_frames -> i < symbols_for n_bits nbps ->
       symb_ok msb w nbps n_bits (fun k => nth (f * n_bits + k) (bits_of vin) false) i
               (nth (f * symbols_for n_bits nbps + i) out 0%Z)) /\
    (forall k, n_frames * symbols_for n_bits nbps <= k -> nth k out 0%Z = nth k vout 0%Z).
Proof.
  intros w vin vout n_bits n_frames msb nbps Hn Hst Hi Ho. unfold pack_ptr.
  rewrite nbps_ok_true by auto. cbn [bind guard]. cbv zeta.
  set (ns := symbols_for n_bits nbps) in *.
  destruct (for_inv _ (fun fr o => length o = length vout /\
      (forall f i, f < fr -> i < ns ->
        symb_ok msb w nbps n_bits (fun k => nth (f * n_bits + k) (bits_of vin) false) i (nth (f * ns + i) o 0%Z)) /\
      (forall k, fr * ns <= k -> nth k o 0%Z = nth k vout 0%Z)) n_frames
     (fun f vout => _pack (fun _ k => rd vin (f * n_bits + k))
          (fun o i s => wr o (f * n_symbs_per_frame n_bits nbps + i) s) w n_bits msb nbps vout) vout)
    as (out & E & I).
  - split; auto. split; intros; auto; lia.
  - intros f o Hf (L & I1 & I2).
    rewrite (stride_eq n_bits n_frames nbps f) by (auto; lia).
    fold ns.
    destruct (pack_frame_spec w vin o n_bits msb nbps (f * n_bits) (f * ns)) as (o' & E & L' & J1 & J2); auto.
    + nia.
    + fold ns. rewrite L. nia.
    + exists o'. split; auto. fold ns in J1, J2. split; [lia|]. split.
      * intros f' i Hf' Hi'. destruct (Nat.eq_dec f' f).
        { subst. apply J1; auto. }
        rewrite J2. { apply I1; auto; lia. } left. nia.
      * intros k Hk. rewrite J2 by nia. apply I2. nia.
  - exists out. split; auto.
Qed.

Lemma unpack_frame_spec : forall w vin vout n_bits msb nbps ioff ooff,
  0 < nbps <= w -> ooff + n_bits <= length vout -> ioff + symbols_for n_bits nbps <= length vin ->
  exists out,
    _unpack (fun i => rd vin (ioff + i)) (fun o k x => wr o (ooff + k) x) w n_bits msb nbps vout = Ret out /\
    length out = length vout /\
    (forall k, k < n_bits ->
       nth (ooff + k) out 0%Z = bit_of msb w (k mod nbps) (nth (ioff + k / nbps) vin 0%Z)) /\
    (forall k, k < ooff \/ ooff + n_bits <= k -> nth k out 0%Z = nth k vout 0%Z).
Proof.
  intros w vin vout n_bits msb nbps ioff ooff Hn Ho Hi.
  destruct (_unpack_spec _ (fun k o' => length o' = length vout /\
     (forall k', k' < k -> nth (ooff + k') o' 0%Z = bit_of msb w (k' mod nbps) (nth (ioff + k' / nbps) vin 0%Z)) /\
     (forall k', k' < ooff \/ ooff + k <= k' -> nth k' o' 0%Z = nth k' vout 0%Z))
     (fun i => rd vin (ioff + i)) (fun o k x => wr o (ooff + k) x) w n_bits msb nbps
     (fun i => nth (ioff + i) vin 0%Z) vout) as (o' & E & L' & J1 & J2); auto; try lia.
  - intros i Hi'. apply rd_ok. lia.
  - intros k o' Hk (L' & J1 & J2). rewrite wr_ok by lia. eexists; split; [reflexivity|].
    rewrite length_upd. split; auto. split.
    + intros k' Hk'. rewrite nth_upd by lia. destruct (Nat.eqb_spec (ooff + k') (ooff + k)).
      * assert (k' = k) by lia. subst. auto.
      * apply J1. lia.
    + intros k' Hk'. rewrite nth_upd_neq by lia. apply J2. lia.
  - split; auto. split; intros; auto; lia.
  - exists o'. auto.
Qed.

Lemma unpack_ptr_spec : forall w vin vout n_bits n_frames msb nbps,
  0 < nbps <= w -> stride_ok n_bits n_frames nbps ->
  n_frames * n_bits <= length vout -> n_frames * symbols_for n_bits nbps <= length vin ->
  exists out, unpack_ptr w vin vout n_bits n_frames msb nbps = Ret out /\
    length out = length vout /\
    (forall f k, f < n_frames -> k < n_bits ->
       nth (f * n_bits + k) out 0%Z =
       bit_of msb w (k mod nbps) (nth (f * symbols_for n_bits nbps + k / nbps) vin 0%Z)) /\
    (forall k, n_frames * n_bits <= k -> nth k out 0%Z = nth k vout 0%Z).
Proof.
  intros w vin vout n_bits n_frames msb nbps Hn Hst Hi Ho. unfold unpack_ptr.
  rewrite nbps_ok_true by auto. cbn [bind guard]. cbv zeta.
  set (ns := symbols_for n_bits nbps) in *.
  destruct (for_inv _ (fun fr o => length o = length vout /\
      (forall f k, f < fr -> k < n_bits ->
        nth (f * n_bits + k) o 0%Z = bit_of msb w (k mod nbps) (nth (f * ns + k / nbps) vin 0%Z)) /\
      (forall k, fr * n_bits <= k -> nth k o 0%Z = nth k vout 0%Z)) n_frames
     (fun f vout => _unpack (fun i => rd vin (f * n_symbs_per_frame n_bits nbps + i))
         (fun o k x => wr o (f * n_bits + k) x) w n_bits msb nbps vout) vout)
    as (out & E & I).
  - split; auto. split; intros; auto; lia.
  - intros f o Hf (L & I1 & I2).
    rewrite (stride_eq n_bits n_frames nbps f) by (auto; lia).
    fold ns.
    destruct (unpack_frame_spec w vin o n_bits msb nbps (f * ns) (f * n_bits)) as (o' & E & L' & J1 & J2); auto.
    + nia.
    + fold ns. nia.
    + exists o'. split; auto. split; [lia|]. split.
      * intros f' k Hf' Hk. destruct (Nat.eq_dec f' f).
        { subst. apply J1; auto. }
        rewrite J2. { apply I1; auto; lia. } left. nia.
      * intros k Hk. rewrite J2 by nia. apply I2. nia.
  - exists out. split; auto.
Qed.

Lemma nth_bits_of : forall v k, nth k (bits_of v) false = nz (nth k v 0%Z).
Proof. intros. unfold bits_of. change false with ((fun x => negb (x =? 0)%Z) 0%Z). rewrite map_nth. auto. Qed.

Lemma nth_of_bits : forall v k, nth k (of_bits v) 0%Z = b2z (nth k v false).
Proof. intros. unfold of_bits. change 0%Z with (b2z false). rewrite (map_nth b2z). auto. Qed.

Lemma roundtrip_ptr : forall w vin vout vback n_bits n_frames msb nbps,
  0 < nbps <= w -> stride_ok n_bits n_frames nbps ->
  n_frames * n_bits <= length vin -> n_frames * symbols_for n_bits nbps <= length vout ->
  n_frames * n_bits <= length vback ->
  exists out back,
    pack_ptr w vin vout n_bits n_frames msb nbps = Ret out /\
    unpack_ptr w out vback n_bits n_frames msb nbps = Ret back /\
    firstn (n_frames * n_bits) back = of_bits (bits_of (firstn (n_frames * n_bits) vin)) /\
    skipn (n_frames * n_bits) back = skipn (n_frames * n_bits) vback.
Proof.
  intros w vin vout vback n_bits n_frames msb nbps Hn Hst Hi Ho Hb.
  destruct (pack_ptr_spec w vin vout n_bits n_frames msb nbps) as (out & E & L & S1 & S2); auto.
  destruct (unpack_ptr_spec w out vback n_bits n_frames msb nbps) as (back & E' & L' & T1 & T2); auto.
  { lia. }
  exists out, back. split; auto. split; auto. split.
  - apply list_eq_nth with (d := 0%Z).
    + unfold of_bits, bits_of. rewrite !map_length, !firstn_length. lia.
    + intros p Hp. rewrite firstn_length in Hp. rewrite firstn_nth by lia.
      rewrite nth_of_bits, nth_bits_of. rewrite firstn_nth by lia.
      destruct (Nat.eq_dec n_bits 0). { subst. lia. }
      pose proof (Nat.div_mod p n_bits ltac:(lia)) as D.
      destruct (div_mod_lt p n_bits n_frames ltac:(lia)) as [D1 D2].
      set (f := p / n_bits) in *. set (k := p mod n_bits) in *.
      replace p with (f * n_bits + k) by lia. rewrite T1 by auto.
      assert (Hd : k / nbps < symbols_for n_bits nbps) by (apply symbols_for_div; lia).
      specialize (S1 f (k / nbps) D1 Hd). unfold symb_ok in S1.
      pose proof (Nat.div_mod k nbps ltac:(lia)) as D3.
      pose proof (Nat.mod_upper_bound k nbps ltac:(lia)).
      rewrite (bit_of_holds _ _ _ _ _ (k mod nbps) S1) by nia.
      rewrite nth_bits_of. f_equal. f_equal. f_equal. nia.
  - apply list_eq_nth with (d := 0%Z).
    + rewrite !skipn_length. lia.
    + intros p Hp. rewrite !skipn_nth. apply T2. lia.
Qed.

(** ** in place *)

Lemma elements_eq : forall sB n m,
  elements sB n m = tab n (fun k => le_value (firstn sB (skipn (k * sB) m))).
Proof. reflexivity. Qed.


Lemma le_value_S : forall l i, le_value (firstn (S i) l) =
  (le_value (firstn i l) + Z.shiftl (nth i l 0) (8 * Z.of_nat i))%Z.
Proof.
  induction l as [|a l IH]; intros i.
  - rewrite !firstn_nil. replace (nth i [] 0%Z) with 0%Z by (destruct i; auto). rewrite Z.shiftl_0_l. auto.
  - destruct i.
    + cbn [firstn le_value fold_right nth]. rewrite Z.shiftl_0_r. lia.
    + change (le_value (firstn (S (S i)) (a :: l))) with (a + 256 * le_value (firstn (S i) l))%Z.
      rewrite IH.
      change (le_value (firstn (S i) (a :: l))) with (a + 256 * le_value (firstn i l))%Z.
      cbn [nth]. rewrite !Z.shiftl_mul_pow2 by lia.
      replace (8 * Z.of_nat (S i))%Z with (8 + 8 * Z.of_nat i)%Z by lia.
      rewrite Z.pow_add_r by lia. change (2 ^ 8)%Z with 256%Z. ring.
Qed.

Lemma get_elt_spec : forall sB n m k, n * sB <= length m -> k < n ->
  get_elt sB m k = Ret (nth k (elements sB n m) 0%Z).
Proof.
  intros sB n m k Hm Hk. rewrite elements_eq, nth_tab by auto. unfold get_elt.
  destruct (for_inv _ (fun i acc => acc = le_value (firstn i (skipn (k * sB) m))) sB
    (fun i acc => b <- rd m (k * sB + i) ;; Ret (acc + Z.shiftl b (8 * Z.of_nat i))%Z) 0%Z)
    as (s & E & I).
  - reflexivity.
  - intros i s Hi I. rewrite (rd_ok _ 0%Z) by nia. cbn [bind]. eexists; split; [reflexivity|].
    subst. rewrite le_value_S, skipn_nth. auto.
  - rewrite E, I. auto.
Qed.

Lemma get_elt_ext : forall sB m m' k, length m = length m' ->
  (forall p, k * sB <= p -> nth p m 0%Z = nth p m' 0%Z) -> get_elt sB m k = get_elt sB m' k.
Proof.
  intros. unfold get_elt. apply for_ext. intros i s Hi.
  destruct (le_lt_dec (length m) (k * sB + i)).
  - rewrite !rd_out by lia. auto.
  - rewrite !(rd_ok _ 0%Z) by lia. rewrite H0 by lia. auto.
Qed.

Lemma pack_inplace_spec : forall sB mem n_bits n_frames msb nbps,
  0 < sB -> 0 < nbps <= 8 -> stride_ok n_bits n_frames nbps ->
  n_frames * n_bits * sB <= length mem ->
  exists out, pack_inplace sB mem n_bits n_frames msb nbps = Ret out /\
    length out = length mem /\
    (forall f i, f < n_frames -> i < symbols_for n_bits nbps ->
       symb_ok msb 8 nbps n_bits
         (fun k => nth (f * n_bits + k) (bits_of (elements sB (n_frames * n_bits) mem)) false) i
         (nth (f * symbols_for n_bits nbps + i) out 0%Z)) /\
    (forall k, n_frames * symbols_for n_bits nbps <= k -> nth k out 0%Z = nth k mem 0%Z).
Proof.
  intros sB mem n_bits n_frames msb nbps HsB Hn Hst Hm. unfold pack_inplace.
  rewrite nbps_ok_true by auto. cbn [bind guard]. cbv zeta.
  set (ns := symbols_for n_bits nbps) in *.
  set (bts := bits_of (elements sB (n_frames * n_bits) mem)).
  assert (Hle : ns <= n_bits) by (apply symbols_for_le; lia).
  destruct (for_inv _ (fun fr o => length o = length mem /\
      (forall f i, f < fr -> i < ns ->
        symb_ok msb 8 nbps n_bits (fun k => nth (f * n_bits + k) bts false) i (nth (f * ns + i) o 0%Z)) /\
      (forall k, fr * ns <= k -> nth k o 0%Z = nth k mem 0%Z)) n_frames
     (fun f mem => _pack (fun m k => get_elt sB m (f * n_bits + k))
          (fun m i s => wr m (f * n_symbs_per_frame n_bits nbps + i) s) 8 n_bits msb nbps mem) mem)
    as (out & E & I).
  - split; auto. split; intros; auto; lia.
  - intros f o Hf (L & I1 & I2).
    rewrite (stride_eq n_bits n_frames nbps f) by (auto; lia).
    fold ns.
    destruct (_pack_spec _ (fun i o => length o = length mem /\
      (forall f' i', f' < f -> i' < ns ->
        symb_ok msb 8 nbps n_bits (fun k => nth (f' * n_bits + k) bts false) i' (nth (f' * ns + i') o 0%Z)) /\
      (forall i', i' < i ->
        symb_ok msb 8 nbps n_bits (fun k => nth (f * n_bits + k) bts false) i' (nth (f * ns + i') o 0%Z)) /\
      (forall k, f * ns + i <= k -> nth k o 0%Z = nth k mem 0%Z))
      (fun m k => get_elt sB m (f * n_bits + k))
      (fun m i s => wr m (f * ns + i) s) 8 n_bits msb nbps (fun k => nth (f * n_bits + k) bts false) o)
      as (o' & E & L' & J0 & J1 & J2); auto.
    + intros i m k (Lm & _ & _ & Jm) Hk.
      assert (f * n_bits + k < n_frames * n_bits) by nia.
      exists (nth (f * n_bits + k) (elements sB (n_frames * n_bits) mem) 0%Z). split.
      * rewrite (get_elt_ext sB m mem); auto.
        { apply get_elt_spec; auto. }
        intros p Hp. apply Jm.
        assert (f * ns + i <= f * n_bits + k) by nia.
        assert (f * n_bits + k <= (f * n_bits + k) * sB) by nia. lia.
      * unfold bts. rewrite nth_bits_of. auto.
    + intros i m s Hi (Lm & Jm0 & Jm1 & Jm2) Hs. fold ns in Hi.
      assert (f * ns + i < length m).
      { assert (f * ns + i < n_frames * ns) by nia.
        assert (n_frames * ns <= n_frames * n_bits) by nia.
        assert (n_frames * n_bits <= n_frames * n_bits * sB) by nia. lia. }
      rewrite wr_ok by auto. eexists; split; [reflexivity|].
      rewrite length_upd. split; auto. split; [|split].
      * intros f' i' Hf' Hi'. rewrite nth_upd_neq by nia. apply Jm0; auto.
      * intros i' Hi'. rewrite nth_upd by auto. destruct (Nat.eqb_spec (f * ns + i') (f * ns + i)).
        { assert (i' = i) by lia. subst. auto. }
        apply Jm1. lia.
      * intros k Hk. rewrite nth_upd_neq by lia. apply Jm2. lia.
    + split; auto. split; auto. split; [intros; lia|]. intros. apply I2. lia.
    + exists o'. split; auto. split; auto. split.
      * intros f' i Hf' Hi'. destruct (Nat.eq_dec f' f).
        { subst. apply J1; auto. }
        apply J0; auto; lia.
      * intros k Hk. apply J2. fold ns. lia.
  - exists out. split; auto.
Qed.

(** storing 0 or 1 in an element *)
Lemma put_elt_spec : forall sB m k b, 0 < sB -> (k + 1) * sB <= length m ->
  exists m', put_elt sB m k (b2z b) = Ret m' /\ length m' = length m /\
    le_value (firstn sB (skipn (k * sB) m')) = b2z b /\
    (forall p, p < k * sB \/ (k + 1) * sB <= p -> nth p m' 0%Z = nth p m 0%Z).
Proof.
  intros sB m k b HsB Hm. unfold put_elt.
  destruct (for_inv _ (fun i m' => length m' = length m /\
     (le_value (firstn i (skipn (k * sB) m')) = if i =? 0 then 0%Z else b2z b) /\
     (forall p, p < k * sB \/ k * sB + i <= p -> nth p m' 0%Z = nth p m 0%Z)) sB
     (fun i m => wr m (k * sB + i) (Z.land (Z.shiftr (b2z b) (8 * Z.of_nat i)) 255)) m)
     as (m' & E & L & I1 & I2).
  - split; auto.
  - intros i s Hi (L & I1 & I2). rewrite wr_ok by nia. eexists; split; [reflexivity|].
    rewrite length_upd. split; auto. split.
    + rewrite le_value_S.
      assert (F : firstn i (skipn (k * sB) (upd s (k * sB + i) (Z.land (Z.shiftr (b2z b) (8 * Z.of_nat i)) 255)))
                  = firstn i (skipn (k * sB) s)).
      { apply list_eq_nth with (d := 0%Z).
        - rewrite !firstn_length, !skipn_length, length_upd. auto.
        - intros p Hp. rewrite firstn_length, skipn_length, length_upd in Hp.
          rewrite !firstn_nth by lia. rewrite !skipn_nth. apply nth_upd_neq. lia. }
      rewrite F, I1, skipn_nth, nth_upd_eq by nia.
      destruct i.
      * rewrite Z.shiftr_0_r, Z.shiftl_0_r. destruct b; reflexivity.
      * cbn [Nat.eqb].
        assert (Z.shiftr (b2z b) (8 * Z.of_nat (S i)) = 0)%Z as ->.
        { rewrite Z.shiftr_div_pow2 by lia. apply Z.div_small.
          assert (2 ^ 1 <= 2 ^ (8 * Z.of_nat (S i)))%Z by (apply Z.pow_le_mono_r; lia).
          change (2 ^ 1)%Z with 2%Z in *. destruct b; simpl b2z; lia. }
        rewrite Z.land_0_l, Z.shiftl_0_l. lia.
    + intros p Hp. rewrite nth_upd_neq by lia. apply I2. lia.
  - exists m'. split; auto. split; auto. split.
    + rewrite I1. destruct sB; [lia|]. auto.
    + intros p Hp. apply I2. lia.
Qed.

Lemma unpack_inplace_one : forall sB mem n_bits msb nbps bit,
  0 < sB -> 0 < nbps <= 8 -> (Z.of_nat n_bits <= 2 ^ 24)%Z -> n_bits * sB <= length mem ->
  (forall i, i < symbols_for n_bits nbps -> symb_ok msb 8 nbps n_bits bit i (nth i mem 0%Z)) ->
  exists out, unpack_inplace sB mem n_bits 1 msb nbps = Ret out /\
    length out = length mem /\
    (forall k, k < n_bits -> nth k (elements sB n_bits out) 0%Z = b2z (bit k)) /\
    (forall p, n_bits * sB <= p -> nth p out 0%Z = nth p mem 0%Z).
Proof.
  intros sB mem n_bits msb nbps bit HsB Hn Hb Hm Hs. unfold unpack_inplace.
  rewrite nbps_ok_true by auto. cbn [bind guard]. cbv zeta.
  rewrite n_symbs_ok by (auto; lia).
  set (ns := symbols_for n_bits nbps) in *.
  assert (Hle : ns <= n_bits) by (apply symbols_for_le; lia).
  unfold for_ at 1. cbn [for_from].
  destruct (for_inv _ (fun i c => length c = ns /\ forall i', i' < i -> nth i' c 0%Z = nth i' mem 0%Z) ns
    (fun i c => b <- rd mem (0 * ns + i) ;; wr c i b) (repeat 0%Z ns)) as (cpy & Ec & Lc & Ic).
  - split; [apply repeat_length|]. intros; lia.
  - intros i c Hi (Lc & Ic). rewrite (rd_ok _ 0%Z) by nia. cbn [bind]. rewrite wr_ok by lia.
    eexists; split; [reflexivity|]. rewrite length_upd. split; auto.
    intros i' Hi'. rewrite nth_upd by lia. destruct (Nat.eqb_spec i' i); auto.
    + subst; auto.
    + apply Ic; lia.
  - rewrite Ec. cbn [bind].
    destruct (_unpack_spec _ (fun k m => length m = length mem /\
        (forall k', k' < k -> le_value (firstn sB (skipn (k' * sB) m)) = b2z (bit k')) /\
        (forall p, k * sB <= p -> nth p m 0%Z = nth p mem 0%Z))
        (fun i => rd cpy (0 * ns + i)) (fun m k x => put_elt sB m (0 * n_bits + k) x) 8 n_bits msb nbps
        (fun i => nth i mem 0%Z) mem) as (o & E & L & I1 & I2); try lia.
    + intros i Hi. fold ns in Hi. rewrite (rd_ok _ 0%Z) by lia. rewrite Nat.add_0_l, Ic; auto.
    + intros k m Hk (L & I1 & I2).
      assert (Hd : k / nbps < ns) by (apply symbols_for_div; lia).
      pose proof (Nat.div_mod k nbps ltac:(lia)) as D3.
      pose proof (Nat.mod_upper_bound k nbps ltac:(lia)).
      rewrite (bit_of_holds _ _ _ _ _ (k mod nbps) (Hs (k / nbps) Hd)) by nia.
      replace (k / nbps * nbps + k mod nbps) with k by nia.
      replace (0 * n_bits + k) with k by lia.
      destruct (put_elt_spec sB m k (bit k)) as (m' & E & L' & J1 & J2); auto. { nia. }
      exists m'. split; auto. split; [lia|]. split.
      * intros k' Hk'. destruct (Nat.eq_dec k' k).
        { subst. auto. }
        rewrite <- (I1 k') by lia. f_equal.
        apply list_eq_nth with (d := 0%Z).
        { rewrite !firstn_length, !skipn_length. lia. }
        intros p Hp. rewrite firstn_length, skipn_length in Hp.
        rewrite !firstn_nth by lia. rewrite !skipn_nth. apply J2. left. nia.
      * intros p Hp. rewrite J2 by lia. apply I2. lia.
    + split; auto. split; intros; auto; lia.
    + exists o. rewrite E. cbn [bind]. split; auto. split; auto. split; auto.
      intros k Hk. rewrite elements_eq, nth_tab by auto. apply I1; auto.
Qed.

(** nothing throws past the argument checks *)
Lemma _unpack_nt : forall M (get : nat -> outcome Z) (put : M -> nat -> Z -> outcome M) w n_bits msb nbps m,
  (forall i, get i <> Throws) -> (forall m k x, put m k x <> Throws) ->
  _unpack get put w n_bits msb nbps m <> Throws.
Proof.
  intros. unfold _unpack. apply bind_nt.
  - apply for_nt. intros. apply for_nt. intros. apply bind_nt; auto.
  - intros. apply for_nt. intros. apply bind_nt; auto.
Qed.

(** With two frames or more every call is undefined. *)
Lemma unpack_inplace_multi : forall sB mem n_bits n_frames msb nbps,
  0 < nbps <= 8 -> 0 < n_bits -> (Z.of_nat n_bits <= 2 ^ 24)%Z -> 2 <= n_frames ->
  unpack_inplace sB mem n_bits n_frames msb nbps = Undef.
Proof.
  intros sB mem n_bits n_frames msb nbps Hn Hb Hb' Hf. unfold unpack_inplace.
  rewrite nbps_ok_true by auto. cbn [bind guard]. cbv zeta.
  rewrite n_symbs_ok by (auto; lia). set (ns := symbols_for n_bits nbps).
  assert (Hns : 0 < ns). { apply Nat.le_lt_trans with (0 / nbps). lia. apply symbols_for_div; lia. }
  unfold for_ at 1. destruct n_frames as [|[|n]]; [lia|lia|]. cbn [for_from].
  match goal with |- bind ?b _ = _ => assert (b <> Throws); [|destruct b as [m| |]; cbn [bind]; auto; try congruence] end.
  { apply bind_nt.
    - apply for_nt. intros. apply bind_nt; [apply rd_nt|intros; apply wr_nt].
    - intros c. apply _unpack_nt.
      + intros; apply rd_nt.
      + intros. unfold put_elt. apply for_nt. intros; apply wr_nt. }
  match goal with |- context [for_ ns ?b ?s] => assert (for_ ns b s <> Throws);
     [|destruct (for_ ns b s) as [c| |] eqn:Ec; cbn [bind]; auto; try congruence] end.
  { apply for_nt. intros. apply bind_nt; [apply rd_nt|intros; apply wr_nt]. }
  assert (Lc : length c = ns).
  { revert Ec. apply (for_part _ (fun _ c => length c = ns)).
    - apply repeat_length.
    - intros i s s' Hi L E. destruct (rd m (1 * ns + i)); try discriminate. cbn [bind] in E.
      unfold wr in E. destruct (i <? length s); inversion E. rewrite length_upd. auto. }
  assert (U : forall k j m', (s <- rd c (1 * ns + k);; put_elt sB m' (1 * n_bits + (k * nbps + j)) (bit_of msb 8 j s)) = Undef).
  { intros. rewrite rd_out by lia. auto. }
  unfold _unpack.
  destruct (n_bits / nbps) as [|q] eqn:Q.
  - unfold for_ at 1. cbn [for_from bind].
    replace (n_bits - 0 * nbps) with (S (n_bits - 1)) by lia.
    unfold for_. cbn [for_from]. rewrite U. auto.
  - unfold for_ at 1. cbn [for_from]. destruct nbps as [|nb]; [lia|].
    unfold for_ at 1. cbn [for_from].
    rewrite U. cbn [bind]. auto.
Qed.
