(** Bits and symbols for the Reed-Solomon codes. *)
From Coq Require Import List Arith ZArith Lia Bool.
From Verif Require Import Base BitPackerModel BitPackerSpec BitPackerProofs GaloisModel BCHSpec RSModel RSSpec.
Import ListNotations.

Lemma sym_val_spec : forall bs, bits bs -> (0 <= sym_val bs < 2 ^ Z.of_nat (length bs))%Z /\ forall k, Z.testbit (sym_val bs) (Z.of_nat k) = nz (nth k bs 0%Z).
Proof.
  induction bs as [|b bs IH]; intros H; cbn [sym_val fold_right length].
  - split; [cbn; lia|]. intros k. rewrite Z.testbit_0_l. destruct k; auto.
  - inversion H as [|? ? Hb Hbs]; subst. destruct (IH Hbs) as [R K]. fold (sym_val bs). rewrite Nat2Z.inj_succ, Z.pow_succ_r by lia. split; [destruct Hb; subst; lia|].
    intros k. destruct k; cbn [nth].
    + cbn [Z.of_nat]. rewrite Z.bit0_odd, Z.odd_add_mul_2. destruct Hb; subst; auto.
    + rewrite <- K. rewrite Nat2Z.inj_succ. replace (b + 2 * sym_val bs)%Z with (2 * sym_val bs + Z.b2z (nz b))%Z by (destruct Hb; subst; cbn [nz Z.eqb negb Z.b2z]; unfold nz; cbn [Z.eqb negb Z.b2z]; lia). rewrite Z.testbit_succ_r by lia. auto.
Qed.

Lemma sym_eq : forall a b m, (0 <= a < 2 ^ Z.of_nat m)%Z -> (0 <= b < 2 ^ Z.of_nat m)%Z -> (forall k, k < m -> Z.testbit a (Z.of_nat k) = Z.testbit b (Z.of_nat k)) -> a = b.
Proof.
  intros a b m Ha Hb H. apply Z.bits_inj'. intros k Hk. destruct (Z_lt_le_dec k (Z.of_nat m)).
  - rewrite <- (Z2Nat.id k) by lia. apply H. lia.
  - rewrite (bound_bits a m), (bound_bits b m); auto.
Qed.

Lemma bits_n : forall l, bits l <-> forall j, j < length l -> nth j l 0%Z = 0%Z \/ nth j l 0%Z = 1%Z.
Proof.
  intros l. unfold bits. rewrite Forall_forall. split.
  - intros H j Hj. apply H. apply nth_In. auto.
  - intros H x Hx. apply (In_nth _ _ 0%Z) in Hx. destruct Hx as (j & Hj & <-). auto.
Qed.
Lemma bits_d : forall l j, bits l -> nth j l 0%Z = 0%Z \/ nth j l 0%Z = 1%Z.
Proof. intros l j H. destruct (lt_dec j (length l)). { apply bits_n; auto. } left. apply nth_overflow. lia. Qed.
Lemma bits_fn : forall k l, bits l -> bits (firstn k l).
Proof. intros. apply bits_n. intros j Hj. rewrite firstn_length in Hj. rewrite firstn_nth by lia. apply bits_d. auto. Qed.
Lemma bits_sn : forall k l, bits l -> bits (skipn k l).
Proof. intros. apply bits_n. intros j Hj. rewrite skipn_nth. apply bits_d. auto. Qed.
Lemma symbols_len : forall m N v, length (symbols m N v) = N.
Proof. intros. unfold symbols. rewrite map_length. apply seq_length. Qed.

(** The symbol k holds the bits k*m ... *)
Lemma nth_symbols : forall m N v k, k < N -> N * m <= length v -> bits v ->
  (0 <= nth k (symbols m N v) 0 < 2 ^ Z.of_nat m)%Z /\ forall j, j < m -> Z.testbit (nth k (symbols m N v) 0%Z) (Z.of_nat j) = nz (nth (k * m + j) v 0%Z).
Proof.
  intros m N v k Hk Lv Bv.
  assert (E : nth k (symbols m N v) 0%Z = sym_val (firstn m (skipn (k * m) v))).
  { unfold symbols. set (f := fun k => sym_val (firstn m (skipn (k * m) v))). rewrite (nth_indep _ _ (f 0)) by (rewrite map_length, seq_length; auto). rewrite map_nth, seq_nth by auto. reflexivity. }
  rewrite E. assert (L : length (firstn m (skipn (k * m) v)) = m) by (rewrite firstn_length, skipn_length; nia).
  destruct (sym_val_spec (firstn m (skipn (k * m) v))) as [R K]. { apply bits_fn, bits_sn. auto. } rewrite L in R. split; auto.
  intros j Hj. rewrite K. rewrite firstn_nth, skipn_nth by auto. auto.
Qed.
Lemma symbols_sok : forall m N v, N * m <= length v -> bits v -> symbols_ok m (symbols m N v).
Proof. intros m N v L B. apply Forall_forall. intros s Hs. apply (In_nth _ _ 0%Z) in Hs. destruct Hs as (k & Hk & <-). rewrite symbols_len in Hk. apply nth_symbols; auto. Qed.

Lemma symbols_inj : forall m N v v', 0 < m -> length v = N * m -> length v' = N * m -> bits v -> bits v' -> symbols m N v = symbols m N v' -> v = v'.
Proof.
  intros m N v v' Hm L L' B B' E. apply (nth_ext _ _ 0%Z 0%Z); [lia|]. intros i Hi.
  assert (Hq : i / m < N) by (apply Nat.div_lt_upper_bound; nia). pose proof (Nat.div_mod i m ltac:(lia)) as D. pose proof (Nat.mod_upper_bound i m ltac:(lia)).
  destruct (nth_symbols m N v (i / m) Hq ltac:(lia) B) as [_ K]. destruct (nth_symbols m N v' (i / m) Hq ltac:(lia) B') as [_ K'].
  specialize (K (i mod m) ltac:(lia)). specialize (K' (i mod m) ltac:(lia)). rewrite E, K' in K. replace (i / m * m + i mod m) with i in K by lia.
  destruct (bits_d v i B) as [E1 | E1]; destruct (bits_d v' i B') as [E' | E']; rewrite E1, E' in *; auto; discriminate.
Qed.

Lemma symbols_for_mul : forall N m, 0 < m -> symbols_for (N * m) m = N.
Proof. intros N m Hm. unfold symbols_for. replace (N * m + m - 1) with (m - 1 + N * m) by lia. rewrite Nat.div_add by lia. rewrite Nat.div_small by lia. auto. Qed.

Lemma cast_small : forall w m z, (0 <= z < 2 ^ Z.of_nat m)%Z -> m < w -> cast (Z.of_nat w) z = z.
Proof.
  intros w m z Hz Hm. unfold cast. assert (P : (2 ^ Z.of_nat m <= 2 ^ (Z.of_nat w - 1))%Z) by (apply Z.pow_le_mono_r; lia).
  assert (W : (2 ^ Z.of_nat w = 2 * 2 ^ (Z.of_nat w - 1))%Z). { replace (Z.of_nat w) with (Z.succ (Z.of_nat w - 1)) at 1 by lia. apply Z.pow_succ_r. lia. }
  rewrite W, Z.mod_small by lia. lia.
Qed.

Lemma rs_pack_ok : forall w m N v out, 0 < m < w -> N * m <= length v -> bits v -> length out = N -> rs_pack w m v out (N * m) = Ret (symbols m N v).
Proof.
  intros w m N v out Hm Lv Bv Lo. unfold rs_pack. assert (SF := symbols_for_mul N m ltac:(lia)).
  destruct (pack_ptr_spec w v out (N * m) 1 false m) as (o & E & L & H & _); try lia. { left. lia. } rewrite E. cbn [bind]. f_equal.
  apply (nth_ext _ _ 0%Z 0%Z). { rewrite map_length, symbols_len. lia. } intros k Hk. rewrite map_length in Hk.
  rewrite (nth_indep _ _ (cast (Z.of_nat w) 0%Z)) by (rewrite map_length; auto). rewrite map_nth. rewrite SF in H. specialize (H 0 k ltac:(lia) ltac:(lia)).
  replace (0 * N + k) with k in H by lia. unfold symb_ok in H. replace (Nat.min m (N * m - k * m)) with m in H by nia. destruct H as [R H].
  destruct (nth_symbols m N v k ltac:(lia) Lv Bv) as [R' K].
  assert (EQ : nth k o 0%Z = nth k (symbols m N v) 0%Z).
  { apply (sym_eq _ _ w); auto. { pose proof (Z.pow_le_mono_r 2 (Z.of_nat m) (Z.of_nat w) ltac:(lia) ltac:(lia)). lia. }
    intros j Hj. rewrite H by auto. destruct (Nat.ltb_spec j m); cbn [andb].
    - rewrite K by auto. rewrite nth_bits_of. auto.
    - symmetry. apply (bound_bits _ m); auto. lia. }
  rewrite EQ. apply (cast_small w m); auto. lia.
Qed.

Lemma rs_unpack_ok : forall w m N sy out, 0 < m < w -> N <= length sy -> (forall k, k < N -> (0 <= nth k sy 0 < 2 ^ Z.of_nat m)%Z) -> N * m <= length out ->
  exists out', rs_unpack w m sy out (N * m) = Ret out' /\ length out' = length out /\ (forall k, N * m <= k -> nth k out' 0%Z = nth k out 0%Z) /\
    bits (firstn (N * m) out') /\ symbols m N (firstn (N * m) out') = firstn N sy.
Proof.
  intros w m N sy out Hm Ls HS Lo. unfold rs_unpack. assert (SF := symbols_for_mul N m ltac:(lia)).
  destruct (unpack_ptr_spec w (map (wrap w) sy) out (N * m) 1 false m) as (o & E & L & H & U); try lia. { left. lia. } { rewrite map_length. lia. }
  rewrite E. exists o. split; auto. split; auto. split. { intros k Hk. apply U. lia. }
  rewrite SF in H.
  assert (B : forall i, i < N * m -> nth i o 0%Z = b2z (Z.testbit (nth (i / m) sy 0%Z) (Z.of_nat (i mod m)))).
  { intros i Hi. assert (Hq : i / m < N) by (apply Nat.div_lt_upper_bound; nia). specialize (H 0 i ltac:(lia) Hi). replace (0 * (N * m) + i) with i in H by lia. replace (0 * N + i / m) with (i / m) in H by lia.
    rewrite H. change 0%Z with (wrap w 0%Z) at 1. rewrite map_nth. pose proof (HS _ Hq) as R. pose proof (Z.pow_le_mono_r 2 (Z.of_nat m) (Z.of_nat w) ltac:(lia) ltac:(lia)). rewrite wrap_small by lia.
    apply (bit_of_holds false w w (fun k => Z.testbit (nth (i / m) sy 0%Z) (Z.of_nat k))); auto. 2:{ pose proof (Nat.mod_upper_bound i m ltac:(lia)). lia. }
    split; [lia|]. intros k Hk. destruct (Nat.ltb_spec k w); [|lia]. auto. }
  assert (Lf : length (firstn (N * m) o) = N * m) by (rewrite firstn_length; lia).
  assert (BF : bits (firstn (N * m) o)). { apply bits_n. intros j Hj. rewrite Lf in Hj. rewrite firstn_nth by auto. rewrite B by auto. destruct (Z.testbit _ _); auto. }
  split; auto. apply (nth_ext _ _ 0%Z 0%Z). { rewrite symbols_len, firstn_length. lia. } intros k Hk. rewrite symbols_len in Hk.
  destruct (nth_symbols m N (firstn (N * m) o) k Hk ltac:(lia) BF) as [R K]. rewrite (firstn_nth _ _ _ k) by auto. apply (sym_eq _ _ m); auto.
  intros j Hj. rewrite K by auto. rewrite firstn_nth by nia. rewrite B by nia. rewrite (Nat.add_comm (k * m)), Nat.div_add, Nat.mod_add, Nat.div_small, Nat.mod_small by lia. cbn [Nat.add]. destruct (Z.testbit _ _); auto.
Qed.

Lemma symbols_app : forall m N1 N2 v, 0 < m -> symbols m (N1 + N2) v = symbols m N1 v ++ symbols m N2 (skipn (N1 * m) v).
Proof.
  intros m N1 N2 v Hm. unfold symbols. rewrite seq_app, map_app. f_equal. cbn [Nat.add].
  rewrite <- (Nat.add_0_r N1) at 1. assert (G : forall a b, map (fun k => sym_val (firstn m (skipn (k * m) v))) (seq (N1 + a) b) = map (fun k => sym_val (firstn m (skipn (k * m) (skipn (N1 * m) v)))) (seq a b)).
  { intros a b. revert a. induction b; intros a; cbn [seq map]; auto. f_equal.
    - f_equal. f_equal. assert (SS : forall (l : list Z) x y, skipn x (skipn y l) = skipn (y + x) l).
      { clear. intros l x y. revert l. induction y; intros l; cbn [skipn Nat.add]; auto. destruct l; auto. apply skipn_nil. }
      rewrite SS. f_equal. lia.
    - rewrite <- IHb. f_equal. f_equal. lia. }
  apply G.
Qed.
Lemma symbols_firstn : forall m N v, symbols m N (firstn (N * m) v) = symbols m N v.
Proof.
  intros m N v. unfold symbols. apply map_ext_in. intros k Hk. apply in_seq in Hk. f_equal. rewrite skipn_firstn_comm. rewrite firstn_firstn. f_equal. nia.
Qed.
