(** C16-C18: puncturers. *)
From Coq Require Import List Arith ZArith Lia Bool.
From Verif Require Import Base Copy Float32 PunctModel PunctSpec PunctProofs.
Import ListNotations.

(* ------------------------------------------------------------------ *)
(** * C16 *)

Definition cnt (r : list bool) : nat := length (filter (fun b => b) r).

Lemma fold_cnt : forall r c, fold_left (fun c (b : bool) => c + if b then 1 else 0) r c = c + cnt r.
Proof. unfold cnt. induction r as [|[] r IH]; simpl; intros; auto; rewrite IH; lia. Qed.

Lemma cnt_le : forall r, cnt r <= length r.
Proof. unfold cnt. induction r as [|[] r IH]; simpl; lia. Qed.

Lemma cnt_full : forall r, cnt r = length r -> forall i, i < length r -> nth i r false = true.
Proof.
  induction r as [|[] r IH]; simpl; intros H i Hi; try lia.
  - destruct i; auto. apply IH; [unfold cnt in *; simpl in H; lia|lia].
  - pose proof (cnt_le r). unfold cnt in *. simpl in H. lia.
Qed.

Lemma filter_nth_cnt : forall r, length (filter (fun i => nth i r false) (seq 0 (length r))) = cnt r.
Proof.
  intros r. induction r as [|b r IH] using rev_ind; auto.
  rewrite app_length. simpl (length [b]). rewrite seq_app, filter_app, app_length. unfold cnt in *.
  rewrite filter_app, app_length, <- IH. f_equal.
  - f_equal. apply filter_ext_in. intros i Hi. apply in_seq in Hi. rewrite app_nth1 by lia. auto.
  - cbn [seq filter]. rewrite app_nth2 by lia. replace (0 + length r - length r) with 0 by lia. cbn [nth]. destruct b; auto.
Qed.

Definition part (pattern : list (list bool)) (j K : nat) : nat := length (filter (selected pattern j) (seq 0 K)).

Lemma part_multiple : forall pattern P j c, good_pattern pattern P -> j < 3 ->
  part pattern j (c * P) = c * cnt (nth j pattern []).
Proof.
  intros pattern P j c (HP & L & H) Hj. unfold part. induction c; auto.
  simpl (S c * P). rewrite (Nat.add_comm P), seq_app, filter_app, app_length, IHc.
  rewrite (filter_seq_shift _ (fun i => nth i (nth j pattern []) false)).
  - rewrite map_length. rewrite <- (H j Hj) at 1. rewrite filter_nth_cnt. lia.
  - intros i Hi. unfold selected. rewrite (H 0) by lia. f_equal. simpl (0 + c * P).
    rewrite Nat.add_comm, Nat.mod_add by lia. apply Nat.mod_small. auto.
Qed.

Lemma part_full : forall pattern P j K, good_pattern pattern P -> j < 3 -> cnt (nth j pattern []) = P ->
  part pattern j K = K.
Proof.
  intros pattern P j K (HP & L & H) Hj HC. unfold part. rewrite filter_all, seq_length; auto.
  intros i Hi. unfold selected. rewrite (H 0) by lia. apply cnt_full; rewrite H; auto.
  apply Nat.mod_upper_bound. lia.
Qed.

Lemma length_kept : forall buff K tail pattern, (buff = true -> tail mod 4 = 0) ->
  length (turbo_kept buff K tail pattern) = part pattern 0 K + part pattern 1 K + part pattern 2 K + tail.
Proof.
  intros buff K tail pattern HT. destruct buff.
  - apply mod4 in HT; auto. destruct HT as [s ->]. rewrite kept_buff.
    rewrite !app_length, !map_length, !seq_length. unfold part. lia.
  - rewrite kept_trip, app_length, seq_length. f_equal. clear.
    unfold part. induction K; auto. rewrite !seq_S, flat_map_app, !filter_app, !app_length, IHK.
    simpl (0 + K). cbn [flat_map]. rewrite app_nil_r, map_length. cbn [filter].
    destruct (selected pattern 0 K), (selected pattern 1 K), (selected pattern 2 K); simpl; lia.
Qed.

Lemma ctor_good : forall K N tail pattern, turbo_ctor K N tail pattern = Ret tt ->
  0 < K /\ exists P, good_pattern pattern P /\
    forall buff, (buff = true -> tail mod 4 = 0) -> length (turbo_kept buff K tail pattern) = N.
Proof.
  intros K N tail pattern E. unfold turbo_ctor in E. apply bind_inv in E. destruct E as ([] & E0 & E).
  unfold base_ctor, guard in E0. destruct (Nat.ltb_spec 0 K); [|discriminate].
  destruct (Nat.ltb_spec 0 N); [|discriminate]. clear E0. split; auto.
  apply bind_inv in E. destruct E as (n & E1 & E2). unfold guard in E2.
  destruct (Nat.eqb_spec N n); [|discriminate]. subst n. clear E2.
  unfold compute_N in E1. apply bind_inv in E1. destruct E1 as ([] & E1 & E2).
  unfold check_pattern, guard in E1.
  destruct (Nat.eqb_spec (length pattern) 3) as [L|]; [|discriminate]. cbn [bind] in E1.
  destruct pattern as [|r0 [|r1 [|r2 [|]]]]; try discriminate. cbn [nth] in E1.
  destruct (Nat.eqb_spec (length r0) (length r1)) as [L1|]; [|discriminate].
  destruct (Nat.eqb_spec (length r0) (length r2)) as [L2|]; [|discriminate]. cbn [bind andb] in E1.
  unfold get_period in *. destruct (Nat.eqb_spec (length r0) 0) as [e|e]. { inversion E2. lia. }
  inversion E2 as [EN]. clear E2.
  assert (GB : get_bit_count [r0; r1; r2] = cnt r0 + cnt r1 + cnt r2).
  { unfold get_bit_count. cbn [fold_left]. rewrite !fold_cnt. lia. }
  rewrite GB in *. clear GB.
  assert (GP : good_pattern [r0; r1; r2] (length r0)).
  { split; [lia|]. split; auto. intros j Hj. destruct j as [|[|[|]]]; simpl; lia. }
  exists (length r0). split; auto. intros buff HT. rewrite length_kept by auto. rewrite EN, <- EN.
  pose proof (cnt_le r0). pose proof (cnt_le r1). pose proof (cnt_le r2).
  destruct (Nat.eqb_spec (cnt r0 + cnt r1 + cnt r2) (length r0 * 3)) as [A|A]; cbn [length] in E1.
  - rewrite (proj2 (Nat.eqb_eq _ _) A) in E1.
    rewrite !(part_full _ (length r0)) by (auto; cbn [nth]; lia).
    rewrite A, Nat.mul_assoc, (Nat.mul_comm K), <- Nat.mul_assoc, Nat.mul_comm, Nat.div_mul by auto. lia.
  - rewrite (proj2 (Nat.eqb_neq _ _) A) in E1.
    destruct (Nat.eqb_spec (K mod length r0) 0) as [M|]; [|discriminate].
    pose proof (Nat.div_mod K (length r0) e) as DM. rewrite M, Nat.add_0_r in DM. set (c := K / length r0) in *.
    rewrite Nat.mul_comm in DM. rewrite DM.
    rewrite !(part_multiple _ (length r0)) by (auto; lia). cbn [nth].
    replace (c * length r0 * (cnt r0 + cnt r1 + cnt r2)) with (c * (cnt r0 + cnt r1 + cnt r2) * length r0) by lia.
    rewrite Nat.div_mul by auto. lia.
Qed.

(** The announced N is the number of kept positions. *)
Theorem C16_N : forall K N tail pattern buff, turbo_ctor K N tail pattern = Ret tt ->
  (buff = true -> tail mod 4 = 0) -> length (turbo_kept buff K tail pattern) = N.
Proof. intros. destruct (ctor_good _ _ _ _ H) as (_ & P & _ & L). auto. Qed.

Lemma run_emit_all : forall A (d : A) ps x1 x2, Forall (fun p => p < length x1) ps -> length x2 = length ps ->
  (st <- run (emit x1) ps (x2, 0) ;; Ret (fst st)) = Ret (map (fun q => nth q x1 d) ps).
Proof.
  intros. rewrite (run_emit _ d) by (auto; lia). cbn [bind fst firstn app]. f_equal.
  rewrite skipn_all2 by lia. apply app_nil_r.
Qed.

Lemma kept_range : forall buff K tail pattern p, In p (turbo_kept buff K tail pattern) -> p < 3 * K + tail.
Proof. intros. unfold turbo_kept in H. apply filter_In in H. destruct H as [H _]. apply in_seq in H. lia. Qed.

Theorem C16_puncture : forall A (d : A) K N tail pattern buff x1 x2,
  turbo_ctor K N tail pattern = Ret tt -> (buff = true -> tail mod 4 = 0) ->
  length x1 = 3 * K + tail -> length x2 = N ->
  exists o, turbo_puncture buff K tail pattern x1 x2 = Ret o /\ length o = N /\
    punctured d (turbo_kept buff K tail pattern) x1 o.
Proof.
  intros A d K N tail pattern buff x1 x2 HC HT L1 L2. destruct (ctor_good _ _ _ _ HC) as (HK & P & GP & LN).
  specialize (LN buff HT). rewrite (turbo_puncture_run _ _ _ _ _ P) by auto. eexists. split.
  - apply (run_emit_all _ d); [|lia]. apply Forall_forall. intros p Hp. apply kept_range in Hp. lia.
  - split; [rewrite map_length; auto|reflexivity].
Qed.

Theorem C16_depuncture : forall A (zero : A) K N tail pattern buff y1 y2,
  turbo_ctor K N tail pattern = Ret tt -> (buff = true -> tail mod 4 = 0) ->
  length y1 = N -> length y2 = 3 * K + tail ->
  exists o, turbo_depuncture zero buff K tail pattern y1 y2 = Ret o /\
    depunctured zero (3 * K + tail) (turbo_kept buff K tail pattern) y1 o.
Proof.
  intros A zero K N tail pattern buff y1 y2 HC HT L1 L2. destruct (ctor_good _ _ _ _ HC) as (HK & P & GP & LN).
  specialize (LN buff HT). rewrite (turbo_depuncture_run _ _ _ _ _ _ P) by auto.
  destruct (run_dput _ zero (turbo_keeps buff K (tail / 4) pattern) y1 y2 (3 * K + tail)) as (o & E & L & I1 & I2 & I3).
  - fold (turbo_kept buff K tail pattern). lia.
  - lia.
  - rewrite E. cbn [bind fst]. exists o. split; auto. split; [lia|]. split; auto.
    intros q Hq NI. apply I2; auto. destruct (turbo_keeps buff K (tail / 4) pattern q) eqn:T; auto.
    exfalso. apply NI. unfold turbo_kept. apply filter_In. split; auto. apply in_seq. lia.
Qed.

Lemma punct_depunct : forall A (zero : A) N_cw ps y1 y2, depunctured zero N_cw ps y1 y2 -> length y1 = length ps ->
  map (fun q => nth q y2 zero) ps = y1.
Proof.
  intros A zero N_cw ps y1 y2 (L & I1 & I2) L1. apply list_eq_nth with (d := zero).
  - rewrite map_length. auto.
  - intros i Hi. rewrite map_length in Hi. rewrite (nth_indep _ zero (nth 0 y2 zero)) by (rewrite map_length; auto).
    rewrite (map_nth (fun q => nth q y2 zero)). auto.
Qed.

Lemma depunct_punct : forall A (zero : A) N_cw ps x1 y2, depunctured zero N_cw ps (map (fun q => nth q x1 zero) ps) y2 ->
  forall q, q < N_cw -> In q ps -> nth q y2 zero = nth q x1 zero.
Proof.
  intros A zero N_cw ps x1 y2 (L & I1 & I2) q Hq HI. apply (In_nth _ _ 0) in HI. destruct HI as (k & Hk & <-).
  rewrite I1 by auto. rewrite (nth_indep _ zero (nth 0 x1 zero)) by (rewrite map_length; auto).
  rewrite (map_nth (fun q => nth q x1 zero)). auto.
Qed.

(** puncture after depuncture is the identity. *)
Theorem C16_puncture_depuncture : forall A (zero : A) K N tail pattern buff y1 y2 x2,
  turbo_ctor K N tail pattern = Ret tt -> (buff = true -> tail mod 4 = 0) ->
  length y1 = N -> length y2 = 3 * K + tail -> length x2 = N ->
  (o <- turbo_depuncture zero buff K tail pattern y1 y2 ;; turbo_puncture buff K tail pattern o x2) = Ret y1.
Proof.
  intros A zero K N tail pattern buff y1 y2 x2 HC HT L1 L2 L3.
  destruct (C16_depuncture _ zero K N tail pattern buff y1 y2) as (o & -> & D); auto. cbn [bind].
  destruct (C16_puncture _ zero K N tail pattern buff o x2) as (o' & -> & _ & Q); auto. { apply D. }
  f_equal. rewrite Q. eapply punct_depunct; eauto. rewrite (C16_N K N); auto.
Qed.

(** depuncture after puncture: the word itself at the kept positions, 0 elsewhere. *)
Theorem C16_depuncture_puncture : forall A (zero : A) K N tail pattern buff x1 x2 y2,
  turbo_ctor K N tail pattern = Ret tt -> (buff = true -> tail mod 4 = 0) ->
  length x1 = 3 * K + tail -> length x2 = N -> length y2 = 3 * K + tail ->
  exists o, (x <- turbo_puncture buff K tail pattern x1 x2 ;; turbo_depuncture zero buff K tail pattern x y2) = Ret o /\
    length o = 3 * K + tail /\
    forall q, q < 3 * K + tail ->
      nth q o zero = if turbo_keeps buff K (tail / 4) pattern q then nth q x1 zero else zero.
Proof.
  intros A zero K N tail pattern buff x1 x2 y2 HC HT L1 L2 L3.
  destruct (C16_puncture _ zero K N tail pattern buff x1 x2) as (x & -> & LX & Q); auto. cbn [bind].
  destruct (C16_depuncture _ zero K N tail pattern buff x y2) as (o & -> & D); auto.
  exists o. split; auto. split; [apply D|]. intros q Hq. unfold punctured in Q. subst x.
  destruct (turbo_keeps buff K (tail / 4) pattern q) eqn:T.
  - eapply depunct_punct; eauto. unfold turbo_kept. apply filter_In. split; auto. apply in_seq. lia.
  - apply D; auto. intros C. unfold turbo_kept in C. apply filter_In in C. destruct C. congruence.
Qed.

(** Buffered layout with a tail that is not a multiple of 4: some output bits are never
    written (here, the result depends on the old contents of the output). *)
Theorem C16_buffered_tail_refuted :
  let p := [[true]; [true]; [true]] in
  turbo_ctor 2 8 2 p = Ret tt /\
  turbo_puncture true 2 2 p (repeat true 8) (repeat false 8) = Ret (repeat true 7 ++ [false]).
Proof. split; reflexivity. Qed.

Example C16_ex : let p := [[true; true]; [true; false]; [false; true]] in
  turbo_ctor 4 12 4 p = Ret tt /\
  turbo_kept false 4 4 p = [0; 1; 3; 5; 6; 7; 9; 11; 12; 13; 14; 15] /\
  turbo_kept true 4 4 p = [0; 1; 2; 3; 4; 5; 7; 9; 10; 12; 14; 15] /\
  turbo_puncture true 4 4 p (seq 100 16) (repeat 0 12) = Ret [100; 101; 102; 103; 104; 105; 107; 109; 110; 112; 114; 115].
Proof. repeat split. Qed.

(* ------------------------------------------------------------------ *)
(** * C17 *)

Lemma ldpc_length : forall Z pattern, length (ldpc_kept Z pattern) = Z * cnt pattern.
Proof.
  intros. unfold ldpc_kept. rewrite seq_blocks, filter_flat_map. unfold cnt.
  induction pattern as [|b p IH] using rev_ind. { simpl. lia. }
  rewrite app_length, filter_app, app_length. simpl (length [b]). rewrite seq_app, flat_map_app, app_length.
  rewrite Nat.mul_add_distr_l, <- IH. f_equal.
  - f_equal. apply flat_map_ext_in'. intros i Hi. apply in_seq in Hi. apply filter_ext_in.
    intros q Hq. apply in_seq in Hq. replace q with (i * Z + (q - i * Z)) by lia.
    destruct (divmod_idx i (q - i * Z) Z) as [-> _]; [lia|]. apply app_nth1. lia.
  - cbn [seq flat_map]. rewrite app_nil_r. simpl (0 + length p).
    assert (E : forall i, i < Z -> nth ((length p * Z + i) / Z) (p ++ [b]) false = b).
    { intros. rewrite block_mask by auto. rewrite app_nth2, Nat.sub_diag by lia. auto. }
    destruct b.
    + rewrite filter_all by auto. rewrite seq_length. simpl. lia.
    + rewrite filter_none by auto. simpl. lia.
Qed.

Lemma ldpc_ctor_inv : forall K N N_cw pattern Z, ldpc_ctor K N N_cw pattern = Ret Z ->
  pattern <> [] /\ Z = N_cw / length pattern /\ 0 < Z /\ N = Z * cnt pattern /\ Z * length pattern <= N_cw.
Proof.
  intros K N N_cw pattern Z E. unfold ldpc_ctor in E. apply bind_inv in E. destruct E as ([] & _ & E).
  unfold guard in E. destruct (Nat.eqb_spec (length pattern) 0) as [|e]; [discriminate|]. cbn [bind negb] in E.
  destruct (Nat.leb_spec 1 (N_cw / length pattern)); [|discriminate]. cbn [bind] in E. rewrite fold_cnt in E.
  destruct (Nat.eqb_spec N (N_cw / length pattern * (0 + cnt pattern))) as [EN|]; [|discriminate]. cbn [bind] in E.
  inversion E; subst Z. repeat split; auto.
  - intros ->. auto.
  - rewrite Nat.mul_comm. apply Nat.mul_div_le. auto.
Qed.

Theorem C17_N : forall K N N_cw pattern Z, ldpc_ctor K N N_cw pattern = Ret Z -> length (ldpc_kept Z pattern) = N.
Proof. intros. destruct (ldpc_ctor_inv _ _ _ _ _ H) as (_ & _ & _ & -> & _). apply ldpc_length. Qed.

Theorem C17_puncture : forall A (d : A) K N N_cw pattern Z x1 x2,
  ldpc_ctor K N N_cw pattern = Ret Z -> length x1 = N_cw -> length x2 = N ->
  exists o, ldpc_puncture Z pattern x1 x2 = Ret o /\ length o = N /\ punctured d (ldpc_kept Z pattern) x1 o.
Proof.
  intros A d K N N_cw pattern Z x1 x2 HC L1 L2. pose proof (C17_N _ _ _ _ _ HC) as LN.
  destruct (ldpc_ctor_inv _ _ _ _ _ HC) as (_ & _ & _ & _ & LE).
  rewrite ldpc_puncture_run. eexists. split.
  - apply (run_emit_all _ d); [|lia]. apply Forall_forall. intros p Hp. unfold ldpc_kept in Hp.
    apply filter_In in Hp. destruct Hp as [Hp _]. apply in_seq in Hp. lia.
  - split; [rewrite map_length; auto|reflexivity].
Qed.

(** Depuncturing: exact on the blocks of the pattern; what lies after the last block is
    left as it was. *)
Theorem C17_depuncture : forall A (zero : A) K N N_cw pattern Z y1 y2,
  ldpc_ctor K N N_cw pattern = Ret Z -> length y1 = N -> length y2 = N_cw ->
  exists o, ldpc_depuncture zero Z pattern y1 y2 = Ret o /\ length o = N_cw /\
    depunctured zero (Z * length pattern) (ldpc_kept Z pattern) y1 (firstn (Z * length pattern) o) /\
    skipn (Z * length pattern) o = skipn (Z * length pattern) y2.
Proof.
  intros A zero K N N_cw pattern Z y1 y2 HC L1 L2. pose proof (C17_N _ _ _ _ _ HC) as LN.
  destruct (ldpc_ctor_inv _ _ _ _ _ HC) as (_ & _ & _ & _ & LE).
  rewrite ldpc_depuncture_run.
  destruct (run_dput _ zero (fun q => nth (q / Z) pattern false) y1 y2 (Z * length pattern)) as (o & E & L & I1 & I2 & I3).
  - fold (ldpc_kept Z pattern). lia.
  - lia.
  - rewrite E. cbn [bind fst]. exists o. split; auto. split; [lia|]. fold (ldpc_kept Z pattern) in I1. split; [split; [|split]|].
    + rewrite firstn_length. lia.
    + intros k Hk. rewrite firstn_nth; auto. apply (nth_In _ 0) in Hk. unfold ldpc_kept in Hk at 2.
      apply filter_In in Hk. destruct Hk as [Hk _]. apply in_seq in Hk. lia.
    + intros q Hq NI. rewrite firstn_nth by auto. apply I2; auto. destruct (nth (q / Z) pattern false) eqn:T; auto.
      exfalso. apply NI. unfold ldpc_kept. apply filter_In. split; auto. apply in_seq. lia.
    + apply list_eq_nth with (d := zero). { rewrite !skipn_length. lia. }
      intros i Hi. rewrite !skipn_nth. apply I3. lia.
Qed.

Theorem C17_puncture_depuncture : forall A (zero : A) K N N_cw pattern Z y1 y2 x2,
  ldpc_ctor K N N_cw pattern = Ret Z -> length y1 = N -> length y2 = N_cw -> length x2 = N ->
  (o <- ldpc_depuncture zero Z pattern y1 y2 ;; ldpc_puncture Z pattern o x2) = Ret y1.
Proof.
  intros A zero K N N_cw pattern Z y1 y2 x2 HC L1 L2 L3.
  destruct (C17_depuncture _ zero K N N_cw pattern Z y1 y2) as (o & -> & L & D & _); auto. cbn [bind].
  destruct (C17_puncture _ zero K N N_cw pattern Z o x2) as (o' & -> & _ & Q); auto.
  f_equal. rewrite Q. rewrite <- (punct_depunct _ _ _ _ _ _ D) by (rewrite (C17_N _ _ _ _ _ HC); auto).
  apply map_ext_in. intros q Hq. rewrite firstn_nth; auto. unfold ldpc_kept in Hq. apply filter_In in Hq.
  destruct Hq as [Hq _]. apply in_seq in Hq. lia.
Qed.

(** When the codeword length is not a multiple of the pattern length the constructor
    accepts it and the last positions are not written by depuncture. *)
Theorem C17_remainder_refuted :
  ldpc_ctor 2 4 7 [true; true; false] = Ret 2 /\
  ldpc_depuncture 0 2 [true; true; false] [1; 2; 3; 4] (repeat 9 7) = Ret [1; 2; 3; 4; 0; 0; 9].
Proof. split; reflexivity. Qed.

Theorem C17_no_puncturing : forall A N (x1 x2 : list A), length x1 = N -> length x2 = N ->
  no_puncture N x1 x2 = Ret x1.
Proof.
  intros A N x1 x2 L1 L2. unfold no_puncture. destruct x1 as [|d x1'].
  - simpl in L1. subst N. destruct x2; [reflexivity|discriminate].
  - rewrite (copy_list _ d) by lia. f_equal. cbn [firstn app skipn].
    rewrite firstn_all2 by lia. rewrite skipn_all2 by lia. apply app_nil_r.
Qed.

Example C17_ex : ldpc_ctor 2 4 6 [true; false; true] = Ret 2 /\ ldpc_kept 2 [true; false; true] = [0; 1; 4; 5] /\
  ldpc_puncture 2 [true; false; true] [10; 11; 12; 13; 14; 15] [0; 0; 0; 0] = Ret [10; 11; 14; 15].
Proof. repeat split. Qed.

(* ------------------------------------------------------------------ *)
(** * C18 *)

(** What puncture does for every accepted pair: defined exactly when the kept positions
    exist in the codeword and fit in the output. *)
Theorem C18_puncture : forall A (d : A) K N r x1 x2, db_ctor K N = Ret r ->
  length x1 = 3 * K -> length x2 = N ->
  db_puncture r K x1 x2 =
    if forallb (fun p => p <? 3 * K) (db_kept r K) && (length (db_kept r K) <=? N)
    then Ret (map (fun q => nth q x1 d) (db_kept r K) ++ skipn (length (db_kept r K)) x2) else Undef.
Proof.
  intros A d K N r x1 x2 HC L1 L2. rewrite db_puncture_run.
  destruct (forallb _ _) eqn:F.
  - destruct (Nat.leb_spec (length (db_kept r K)) N) as [H|H]; cbn [andb].
    + rewrite (run_emit _ d); [reflexivity| |lia]. rewrite forallb_forall in F. apply Forall_forall. intros p Hp.
      apply F in Hp. apply Nat.ltb_lt in Hp. lia.
    + rewrite run_emit_bad; auto. right. split; [|lia]. intros C. rewrite C in H. simpl in H. lia.
  - cbn [andb]. rewrite run_emit_bad; auto. left. apply not_true_iff_false in F. rewrite forallb_forall in F.
    clear - F L1. induction (db_kept r K) as [|p l IH].
    + exfalso. apply F. intros x [].
    + destruct (Nat.lt_ge_cases p (3 * K)).
      * destruct IH as (q & Hq & Lq).
        { intros C. apply F. intros x [<-|Hx]; [apply Nat.ltb_lt; auto|auto]. }
        exists q. split; simpl; auto.
      * exists p. split; simpl; auto. lia.
Qed.

Lemma kept_nodup : forall r K, NoDup (db_kept r K).
Proof.
  intros. destruct r; simpl; try apply seq_NoDup; apply db_groups_nodup; try lia;
  (repeat constructor; simpl; lia).
Qed.

(** When the kept positions exist and N is their number, depuncture puts every value back
    where puncture takes it and 0 elsewhere. *)
Theorem C18_depuncture : forall A (zero : A) K N r y1 y2, db_ctor K N = Ret r ->
  Forall (fun p => p < 3 * K) (db_kept r K) -> length (db_kept r K) = N ->
  length y1 = N -> length y2 = 3 * K ->
  exists o, db_depuncture zero r K y1 y2 = Ret o /\ depunctured zero (3 * K) (db_kept r K) y1 o.
Proof.
  intros A zero K N r y1 y2 HC HF LN L1 L2.
  assert (GG : forall n step os, n + (3 * K - n) = 3 * K -> db_kept r K = db_groups n K step os ->
    exists o, (y2 <- copy y1 0 n y2 0 ;; y2 <- fill y2 n (3 * K - n) zero ;; db_dloop K n step os y1 y2 n) = Ret o /\
      depunctured zero (3 * K) (db_kept r K) y1 o).
  { intros n step os HN EK. pose proof (kept_nodup r K) as ND. rewrite EK in *.
    unfold db_groups in *. set (gs := flat_map _ _) in *. rewrite app_length, seq_length in LN.
    destruct (copy_spec A zero y1 0 n y2 0) as (o1 & E1 & M1 & C1 & D1); try lia. rewrite E1. cbn [bind].
    destruct (fill_spec A zero (3 * K - n) o1 n zero) as (o2 & E2 & M2 & C2 & D2); try lia. rewrite E2. cbn [bind].
    rewrite db_dloop_run. fold gs. apply Forall_app in HF. destruct HF as [_ HF].
    destruct (run_scat A zero y1 gs o2 n) as (o & E & M & I1 & I2).
    - clear - ND. revert ND. generalize (seq 0 n). induction l; simpl; intros; auto. inversion ND; auto.
    - rewrite Forall_forall in *. intros p Hp. apply HF in Hp. lia.
    - lia.
    - rewrite E. cbn [bind fst]. exists o. split; auto.
      assert (NG : forall q, q < n -> ~ In q gs).
      { intros q Hq C. clear - ND Hq C. assert (In q (seq 0 n)) by (apply in_seq; lia).
        revert ND H. generalize (seq 0 n). induction l; simpl; intros; auto. inversion ND; subst. destruct H; auto.
        subst. apply H2. apply in_or_app. auto. }
      split; [lia|]. split.
      + intros k Hk. rewrite app_length, seq_length in Hk. destruct (Nat.lt_ge_cases k n).
        * rewrite app_nth1, seq_nth by (rewrite ?seq_length; lia). simpl. rewrite I2 by auto.
          rewrite D2 by lia. apply (C1 k). auto.
        * rewrite app_nth2 by (rewrite seq_length; lia). rewrite seq_length. rewrite I1 by lia. f_equal. lia.
      + intros q Hq NI. assert (~ In q gs /\ n <= q).
        { split. - intros C. apply NI. apply in_or_app. auto.
          - destruct (Nat.lt_ge_cases q n); auto. exfalso. apply NI. apply in_or_app. left. apply in_seq. lia. }
        rewrite I2 by tauto. replace q with (n + (q - n)) by lia. apply C2. lia. }
  unfold db_depuncture. destruct r; try (apply GG; [lia|reflexivity]).
  - simpl in LN. rewrite seq_length in LN. destruct (copy_spec A zero y1 0 (3 * K) y2 0) as (o & E & M & C & D); try lia.
    rewrite E. exists o. split; auto. split; [lia|]. split.
    + intros k Hk. cbn [db_kept] in *. rewrite seq_length in Hk. rewrite seq_nth by lia. apply (C k). lia.
    + intros q Hq NI. exfalso. apply NI. cbn [db_kept]. apply in_seq. lia.
  - cbn [db_kept] in *. rewrite seq_length in LN. destruct (copy_spec A zero y1 0 (2 * K) y2 0) as (o & E & M & C & D); try lia.
    rewrite E. cbn [bind]. destruct (fill_spec A zero (3 * K - 2 * K) o (2 * K) zero) as (o2 & E2 & M2 & C2 & D2); try lia.
    exists o2. split; auto. split; [lia|]. split.
    + intros k Hk. rewrite seq_length in Hk. rewrite seq_nth by lia. simpl (0 + k). rewrite D2 by lia. apply (C k). lia.
    + intros q Hq NI. rewrite in_seq in NI. replace q with (2 * K + (q - 2 * K)) by lia. apply C2. lia.
Qed.

Theorem C18_puncture_depuncture : forall A (zero : A) K N r y1 y2 x2, db_ctor K N = Ret r ->
  Forall (fun p => p < 3 * K) (db_kept r K) -> length (db_kept r K) = N ->
  length y1 = N -> length y2 = 3 * K -> length x2 = N ->
  (o <- db_depuncture zero r K y1 y2 ;; db_puncture r K o x2) = Ret y1.
Proof.
  intros A zero K N r y1 y2 x2 HC HF LN L1 L2 L3.
  destruct (C18_depuncture _ zero K N r y1 y2) as (o & -> & D); auto. cbn [bind].
  rewrite (C18_puncture _ zero K N) by (auto; apply D).
  assert (F : forallb (fun p => p <? 3 * K) (db_kept r K) = true).
  { apply forallb_forall. rewrite Forall_forall in HF. intros p Hp. apply Nat.ltb_lt. auto. }
  rewrite F. rewrite (proj2 (Nat.leb_le _ _)) by lia. cbn [andb]. rewrite skipn_all2 by lia. rewrite app_nil_r.
  f_equal. eapply punct_depunct; eauto. lia.
Qed.

(** These conditions hold when the group size of the rate divides K and N is the exact
    K / rate. *)
Definition db_step (r : coderate) : nat :=
  match r with R13 | R12 => 1 | R25 | R23 => 4 | R34 => 12 | R45 => 8 | R56 => 40 end.
Definition db_ratio (r : coderate) : nat * nat :=
  match r with R13 => (1, 3) | R12 => (1, 2) | R25 => (2, 5) | R23 => (2, 3) | R34 => (3, 4) | R45 => (4, 5) | R56 => (5, 6) end.

Lemma length_groups : forall n K step os, length (db_groups n K step os) = n + (K + step - 1) / step * length os.
Proof.
  intros. unfold db_groups. rewrite app_length, seq_length. f_equal. generalize ((K + step - 1) / step). intros c.
  induction c; auto. rewrite seq_S, flat_map_app, app_length, IHc. cbn [flat_map]. rewrite app_nil_r, map_length. lia.
Qed.

Lemma groups_range : forall n c step os B, 0 < step -> Forall (fun o => o < step) os -> n + c * step <= B ->
  Forall (fun p => p < B) (db_groups n (c * step) step os).
Proof.
  intros n c step os B Hs HO HB. unfold db_groups.
  assert (E : (c * step + step - 1) / step = c).
  { replace (c * step + step - 1) with ((step - 1) + c * step) by lia. rewrite Nat.div_add by lia.
    rewrite Nat.div_small by lia. lia. }
  rewrite E. rewrite Forall_forall in *. intros p Hp. apply in_app_or in Hp. destruct Hp as [Hp|Hp].
  - apply in_seq in Hp. lia.
  - apply in_flat_map in Hp. destruct Hp as (t & Ht & Hp). apply in_seq in Ht. apply in_map_iff in Hp.
    destruct Hp as (o & <- & Ho). apply HO in Ho. nia.
Qed.

Theorem C18_standard_sizes : forall r K, K mod db_step r = 0 ->
  Forall (fun p => p < 3 * K) (db_kept r K) /\
  length (db_kept r K) * fst (db_ratio r) = K * snd (db_ratio r).
Proof.
  intros r K HM. assert (DS : db_step r <> 0) by (destruct r; simpl; lia).
  pose proof (Nat.div_mod K (db_step r) DS) as E. rewrite HM, Nat.add_0_r in E. set (c := K / db_step r) in *.
  rewrite Nat.mul_comm in E. clearbody c.
  assert (CE : forall step, 0 < step -> (c * step + step - 1) / step = c).
  { intros. replace (c * step + step - 1) with ((step - 1) + c * step) by lia. rewrite Nat.div_add by lia.
    rewrite Nat.div_small by lia. lia. }
  destruct r; cbn [db_step db_kept db_ratio fst snd] in *; rewrite E; clear E HM.
  1,4,5,6,7: split; [apply groups_range; [lia|repeat constructor; lia|lia]|
    rewrite length_groups, CE by lia; cbn [length]; lia].
  - split. { apply Forall_forall. intros p Hp. apply in_seq in Hp. lia. } rewrite seq_length. lia.
  - split. { apply Forall_forall. intros p Hp. apply in_seq in Hp. lia. } rewrite seq_length. lia.
Qed.

(** The rate computed in single precision. *)
Lemma rate100_spec : forall K N, 0 < K -> K <= N -> (Z.of_nat N <= 2 ^ 24)%Z ->
  exists m s, (0 < s /\ rate100 K N = (200 * m + s) / (2 * s) /\
    - Z.of_nat N <= 2 * (Z.of_nat K * s - m * Z.of_nat N) <= Z.of_nat N /\
    2 ^ 23 * Z.of_nat N <= Z.of_nat K * s)%Z.
Proof.
  intros K N HK HN HB. unfold rate100. set (a := Z.of_nat K) in *. set (b := Z.of_nat N) in *.
  assert (Ha : (0 < a <= b)%Z) by lia. clearbody a b. clear HK HN K N.
  pose proof (float_quotient a b ltac:(lia) ltac:(lia)) as Q.
  destruct (f32 a 1) as [ma ea]. destruct (f32 b 1) as [mb eb]. cbv zeta in Q.
  set (p := (ma * 2 ^ Z.max 0 (ea - eb))%Z) in *. set (q := (mb * 2 ^ Z.max 0 (eb - ea))%Z) in *.
  destruct Q as (Hp & Hq & Epq). clearbody p q. clear ma ea mb eb.
  unfold f32. set (e := f32_exp p q).
  pose proof (f32_exp_spec p q ltac:(auto) ltac:(auto)) as [D Bd]. fold e in D, Bd.
  pose proof (rne_spec (scale_num p e) (scale_den q e) D) as R.
  set (m := rne (scale_num p e) (scale_den q e)) in *. clearbody m.
  unfold round100, scale_num, scale_den in *. clearbody e. destruct (Z.ltb_spec e 0) as [he|he].
  - set (s := (2 ^ (- e))%Z) in *. assert (Hs : (0 < s)%Z) by (apply Z.pow_pos_nonneg; lia).
    exists m, s. split; auto. split. { f_equal. lia. }
    set (c23 := (2 ^ 23)%Z) in *. clearbody s c23.
    assert (E1 : (p * s * b = a * s * q)%Z).
    { replace (p * s * b)%Z with (p * b * s)%Z by ring. rewrite Epq. ring. }
    assert (E2 : ((p * s - m * q) * b = (a * s - m * b) * q)%Z).
    { rewrite !Z.mul_sub_distr_r, E1. ring. }
    split.
    + set (u := (p * s - m * q)%Z) in *. set (v := (a * s - m * b)%Z) in *. clearbody u v. nia.
    + assert (c23 * b * q <= a * s * q)%Z; [|nia]. rewrite <- E1. nia.
  - exfalso. assert (1 <= 2 ^ e)%Z by (pose proof (Z.pow_pos_nonneg 2 e); lia).
    set (s := (2 ^ e)%Z) in *. clearbody s. assert (p <= q)%Z by nia.
    change (2 ^ 23)%Z with 8388608%Z in *. nia.
Qed.

Lemma div_is : forall x s k, (0 < s -> k * (2 * s) <= x < (k + 1) * (2 * s) -> x / (2 * s) = k)%Z.
Proof. intros. symmetry. apply Z.div_unique with (r := (x - k * (2 * s))%Z); lia. Qed.

(** The exact rates are accepted and recognised, up to frames of 2^24 bits. *)
Theorem C18_rates : forall r c, 0 < c ->
  (Z.of_nat c * Z.of_nat (snd (db_ratio r)) <= 2 ^ 24)%Z ->
  db_ctor (c * fst (db_ratio r)) (c * snd (db_ratio r)) = Ret r.
Proof.
  intros r c Hc HB. unfold db_ctor, base_ctor, guard.
  destruct (rate100_spec (c * fst (db_ratio r)) (c * snd (db_ratio r))) as (m & s & Hs & E & R & L).
  { destruct r; simpl; lia. } { destruct r; simpl; lia. } { lia. }
  unfold db_rate. rewrite E. clear E. rewrite !Nat2Z.inj_mul in *. set (C := Z.of_nat c) in *.
  assert (HC : (0 < C)%Z) by lia.
  assert (G : forall a b : nat, (- (C * Z.of_nat b) <= 2 * (C * Z.of_nat a * s - m * (C * Z.of_nat b)) <= C * Z.of_nat b ->
    2 ^ 23 * (C * Z.of_nat b) <= C * Z.of_nat a * s ->
    - Z.of_nat b <= 2 * (Z.of_nat a * s - m * Z.of_nat b) <= Z.of_nat b /\ 2 ^ 23 * Z.of_nat b <= Z.of_nat a * s)%Z).
  { clear - HC. intros a b. generalize (Z.of_nat a) (Z.of_nat b). intros x y. set (c23 := (2 ^ 23)%Z). clearbody c23. intros H1 H2.
    replace (C * x * s - m * (C * y))%Z with (C * (x * s - m * y))%Z in H1 by ring.
    replace (C * x * s)%Z with (C * (x * s))%Z in H2 by ring. generalize dependent (x * s)%Z.
    intros z. generalize (m * y)%Z. intros w H1 H2. nia. }
  destruct (G _ _ R L) as [R' L']. clear G R L. change (2 ^ 23)%Z with 8388608%Z in L'.
  rewrite !(proj2 (Nat.ltb_lt _ _)) by (destruct r; cbn [fst snd db_ratio]; lia).
  rewrite !(proj2 (Nat.leb_le _ _)) by (destruct r; cbn [fst snd db_ratio]; lia). cbn [bind].
  destruct r; cbn [db_ratio fst snd] in R', L';
    [rewrite (div_is _ s 40) by lia|rewrite (div_is _ s 33) by lia|rewrite (div_is _ s 50) by lia|rewrite (div_is _ s 67) by lia
    |rewrite (div_is _ s 75) by lia|rewrite (div_is _ s 80) by lia|rewrite (div_is _ s 83) by lia]; reflexivity.
Qed.

(** The constructor only looks at the rate rounded to a percent: it accepts pairs for which
    puncture overruns its output, e.g. K = 112, N = 150 (rate 3/4). *)
Theorem C18_out_of_bounds_refuted : forall A (d : A) (x1 x2 : list A), length x1 = 336 -> length x2 = 150 ->
  db_ctor 112 150 = Ret R34 /\ db_puncture R34 112 x1 x2 = Undef.
Proof.
  intros A d x1 x2 L1 L2. assert (C : db_ctor 112 150 = Ret R34) by (vm_compute; reflexivity).
  split; auto. rewrite (C18_puncture _ d 112 150 R34) by auto. vm_compute. reflexivity.
Qed.

Example C18_ex : db_ctor 48 64 = Ret R34 /\ 48 mod db_step R34 = 0 /\ length (db_kept R34 48) = 64.
Proof. repeat split. Qed.
