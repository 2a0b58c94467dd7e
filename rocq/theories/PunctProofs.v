(** Proofs about the puncturers. *)
From Coq Require Import List Arith ZArith Lia Bool.
From Verif Require Import Base Copy PunctModel PunctSpec.
Import ListNotations.

Lemma run_S : forall S (f : nat -> S -> outcome S) n s,
  run f (seq 0 (Datatypes.S n)) s = bind (run f (seq 0 n) s) (f n).
Proof.
  intros. rewrite seq_S, run_app. apply bind_eq. intros. simpl. apply bind_Ret_r.
Qed.

Lemma filter_seq_shift : forall (m f : nat -> bool) a n, (forall i, i < n -> m (a + i) = f i) ->
  filter m (seq a n) = map (fun i => a + i) (filter f (seq 0 n)).
Proof.
  intros m f a n H. assert (E : seq a n = map (fun i => a + i) (seq 0 n)).
  { clear. induction n; auto. rewrite !seq_S, map_app, <- IHn. auto. }
  rewrite E. clear E. assert (G : forall l, (forall i, In i l -> i < n) ->
    filter m (map (fun i => a + i) l) = map (fun i => a + i) (filter f l)).
  { induction l; simpl; intros; auto. rewrite H by auto. destruct (f a0); simpl; rewrite IHl; auto. }
  apply G. intros i Hi. apply in_seq in Hi. lia.
Qed.

Lemma filter_all : forall (m : nat -> bool) a n, (forall i, i < n -> m (a + i) = true) ->
  filter m (seq a n) = seq a n.
Proof.
  intros m a n H. assert (G : forall l, (forall x, In x l -> m x = true) -> filter m l = l).
  { induction l; simpl; intros; auto. rewrite H0 by auto. f_equal. auto. }
  apply G. intros x Hx. apply in_seq in Hx. replace x with (a + (x - a)) by lia. apply H. lia.
Qed.

(** well-formed pattern *)
Definition good_pattern (pattern : list (list bool)) (P : nat) : Prop :=
  0 < P /\ length pattern = 3 /\ forall j, j < 3 -> length (nth j pattern []) = P.

Lemma good_period : forall pattern P, good_pattern pattern P -> get_period pattern = P.
Proof.
  intros pattern P (_ & L & H). specialize (H 0 ltac:(lia)). destruct pattern; simpl in *; [lia|auto].
Qed.

Lemma pat_ok : forall pattern P j i, good_pattern pattern P -> j < 3 ->
  pat pattern j (i mod P) = Ret (selected pattern j i).
Proof.
  intros pattern P j i (HP & L & H) Hj. unfold pat. rewrite (rd_ok _ []) by lia. cbn [bind].
  unfold selected. rewrite (H 0) by lia. pose proof (Nat.mod_upper_bound i P ltac:(lia)).
  rewrite (rd_ok _ false) by (rewrite H; auto). auto.
Qed.

Lemma succ_mod : forall i P, 0 < P -> (i mod P + 1) mod P = S i mod P.
Proof. intros. rewrite Nat.add_mod_idemp_l by lia. f_equal. lia. Qed.

Lemma t_part_run : forall A pattern P K j o (x1 : list A) st, good_pattern pattern P -> j < 3 ->
  t_part pattern K j o P x1 st = run (emit x1) (map (fun i => o + i) (filter (selected pattern j) (seq 0 K))) st.
Proof.
  intros A pattern P K j o x1 st GP Hj. unfold t_part. pose proof GP as (HP & _).
  match goal with |- bind (for_ _ ?body _) _ = _ =>
    assert (E : for_ K body (st, 0) = bind (run (emit x1) (map (fun i => o + i) (filter (selected pattern j) (seq 0 K))) st)
       (fun st => Ret (st, K mod P))) end.
  { induction K.
    - simpl. rewrite Nat.mod_0_l by lia. auto.
    - rewrite for_S, IHK, seq_S, filter_app, map_app, run_app, !bind_assoc. apply bind_eq. intros s.
      cbn [bind]. rewrite (pat_ok _ P) by auto. cbn [bind]. rewrite succ_mod by auto. simpl (0 + K).
      cbn [filter]. destruct (selected pattern j K); cbn [map run]; [|auto]. unfold emit.
      rewrite !bind_assoc. apply bind_eq. intros v. rewrite !bind_assoc. apply bind_eq. intros. auto. }
  rewrite E, bind_assoc. cbn [bind]. apply bind_Ret_r.
Qed.

Lemma t_tail_run : forall A (x1 : list A) so n st,
  t_tail x1 so n st = run (emit x1) (seq so n) st.
Proof. intros A x1 so n [x2 k]. unfold t_tail. cbn [fst snd]. apply copy_emit. Qed.

Lemma div4 : forall s, 4 * s / 4 = s /\ 4 * s / 2 = 2 * s.
Proof.
  intros. split.
  - rewrite Nat.mul_comm. apply Nat.div_mul. lia.
  - replace (4 * s) with (2 * s * 2) by lia. apply Nat.div_mul. lia.
Qed.

Lemma mod4 : forall t, t mod 4 = 0 -> exists s, t = 4 * s.
Proof. intros. exists (t / 4). pose proof (Nat.div_mod t 4 ltac:(lia)). lia. Qed.

Lemma seq_split : forall a n m, seq a (n + m) = seq a n ++ seq (a + n) m.
Proof. intros. apply seq_app. Qed.

(** The buffered layout as a list of segments. *)
Lemma buff_seq : forall K s, seq 0 (3 * K + 4 * s) =
  seq 0 K ++ seq K s ++ seq (K + s) K ++ seq (K + s + K) (2 * s) ++
  seq (K + s + K + s + s) K ++ seq (K + s + K + s + s + K) s.
Proof.
  intros. replace (3 * K + 4 * s) with (K + (s + (K + (2 * s + (K + s))))) by lia.
  remember (2 * s) as t eqn:Et. rewrite !seq_split. repeat (f_equal; try lia).
Qed.

Ltac ltbs := repeat match goal with
  | |- context [Nat.ltb ?a ?b] => destruct (Nat.ltb_spec a b); try lia
  end.

Lemma kept_buff : forall K s pattern, turbo_kept true K (4 * s) pattern =
  map (fun i => 0 + i) (filter (selected pattern 0) (seq 0 K)) ++ seq K s ++
  map (fun i => K + s + i) (filter (selected pattern 1) (seq 0 K)) ++ seq (K + s + K) (2 * s) ++
  map (fun i => K + s + K + s + s + i) (filter (selected pattern 2) (seq 0 K)) ++ seq (K + s + K + s + s + K) s.
Proof.
  intros. unfold turbo_kept. destruct (div4 s) as [-> _]. rewrite buff_seq. rewrite !filter_app. unfold turbo_keeps.
  f_equal. { apply filter_seq_shift. intros i Hi. ltbs; auto. }
  f_equal. { apply filter_all. intros i Hi. ltbs; auto. }
  f_equal. { apply filter_seq_shift. intros i Hi. ltbs. f_equal. lia. }
  f_equal. { apply filter_all. intros i Hi. ltbs; auto. }
  f_equal. { apply filter_seq_shift. intros i Hi. ltbs. f_equal. lia. }
  apply filter_all. intros i Hi. ltbs; auto.
Qed.

Lemma seq_triplets : forall K, seq 0 (3 * K) = flat_map (fun i => map (fun j => i * 3 + j) [0; 1; 2]) (seq 0 K).
Proof.
  induction K; auto. replace (3 * S K) with (3 * K + 3) by lia. rewrite seq_split, IHK, (seq_S K), flat_map_app.
  f_equal. cbn. repeat (f_equal; try lia).
Qed.

Lemma filter_flat_map : forall A B (m : B -> bool) (g : A -> list B) l,
  filter m (flat_map g l) = flat_map (fun a => filter m (g a)) l.
Proof. induction l; simpl; auto. rewrite filter_app, IHl. auto. Qed.

Lemma filter_map : forall A B (m : B -> bool) (g : A -> B) l,
  filter m (map g l) = map g (filter (fun a => m (g a)) l).
Proof. induction l; simpl; auto. destruct (m (g a)); simpl; rewrite IHl; auto. Qed.

Lemma flat_map_ext_in' : forall A B (f g : A -> list B) l, (forall a, In a l -> f a = g a) -> flat_map f l = flat_map g l.
Proof. induction l; simpl; intros; auto. rewrite H, IHl; auto. Qed.

Lemma trip : forall i j, j < 3 -> (i * 3 + j) mod 3 = j /\ (i * 3 + j) / 3 = i.
Proof. intros. destruct (divmod_idx i j 3 H). auto. Qed.

Lemma keeps_trip : forall K s pattern i j, i < K -> j < 3 ->
  turbo_keeps false K s pattern (i * 3 + j) = selected pattern j i.
Proof. intros. unfold turbo_keeps. ltbs. destruct (trip i j H0) as [-> ->]. auto. Qed.

Lemma kept_trip : forall K tail pattern, turbo_kept false K tail pattern =
  flat_map (fun i => map (fun j => i * 3 + j) (filter (fun j => selected pattern j i) [0; 1; 2])) (seq 0 K) ++
  seq (3 * K) tail.
Proof.
  intros. unfold turbo_kept. rewrite seq_split, filter_app. f_equal.
  - rewrite seq_triplets, filter_flat_map. apply flat_map_ext_in'. intros i Hi. apply in_seq in Hi.
    rewrite filter_map. f_equal. apply filter_ext_in. intros j Hj. apply keeps_trip; simpl in Hj; lia.
  - apply filter_all. intros. unfold turbo_keeps. ltbs; auto.
Qed.

Lemma fst_ret : forall A B (x : outcome (A * B)), (st <- x ;; Ret (fst st)) = ('(a, _) <- x ;; Ret a).
Proof. intros. apply bind_eq. intros []. auto. Qed.

Lemma turbo_puncture_run : forall A buff K tail pattern P (x1 x2 : list A), good_pattern pattern P ->
  (buff = true -> tail mod 4 = 0) ->
  turbo_puncture buff K tail pattern x1 x2 =
  (st <- run (emit x1) (turbo_kept buff K tail pattern) (x2, 0) ;; Ret (fst st)).
Proof.
  intros A buff K tail pattern P x1 x2 GP HT. unfold turbo_puncture. rewrite (good_period _ _ GP).
  destruct buff.
  - apply mod4 in HT; auto. destruct HT as [s ->].
    rewrite kept_buff. destruct (div4 s) as [-> ->]. replace (K * 3 + 4 * s - (K + s)) with (K + s + K + s + s) by lia.
    rewrite ?run_app, ?bind_assoc. rewrite (t_part_run _ _ P) by (auto; lia). apply bind_eq. intros s1.
    rewrite t_tail_run, ?run_app, ?bind_assoc. apply bind_eq. intros s2.
    rewrite (t_part_run _ _ P), ?run_app, ?bind_assoc by (auto; lia). apply bind_eq. intros s3.
    rewrite t_tail_run, ?run_app, ?bind_assoc. apply bind_eq. intros s4.
    rewrite (t_part_run _ _ P), ?run_app, ?bind_assoc by (auto; lia). apply bind_eq. intros s5.
    rewrite t_tail_run. auto.
  - pose proof GP as (HP & _).
    match goal with |- bind (for_ _ ?body _) _ = _ =>
      assert (E : for_ K body (x2, 0, 0) = bind (run (emit x1)
        (flat_map (fun i => map (fun j => i * 3 + j) (filter (fun j => selected pattern j i) [0; 1; 2])) (seq 0 K)) (x2, 0))
       (fun st => Ret (st, K mod P))) end.
    { clear - GP HP. induction K.
      - simpl. rewrite Nat.mod_0_l by lia. auto.
      - rewrite for_S, IHK, seq_S, flat_map_app, run_app, ?run_app, ?bind_assoc. apply bind_eq. intros st.
        cbn [bind]. rewrite succ_mod by auto. simpl (0 + K). cbn [flat_map]. rewrite app_nil_r.
        rewrite for_run, run_map. rewrite <- (run_filter _ _ (fun j => selected pattern j K)).
        f_equal. apply run_ext. intros j st' Hj. change (seq 0 3) with [0; 1; 2] in Hj.
        rewrite (pat_ok _ P) by (auto; simpl in Hj; lia). cbn [bind]. auto. }
    rewrite E, kept_trip, run_app, ?run_app, ?bind_assoc. cbn [bind]. apply bind_eq. intros [o k]. cbn [fst snd].
    rewrite <- copy_emit, bind_assoc. cbn [bind fst]. symmetry. apply bind_Ret_r.
Qed.

(** depuncturing: Y2[q] = m q ? Y1[k++] : 0 *)
Definition dput {A} (zero : A) (m : nat -> bool) (y1 : list A) (q : nat) (st : list A * nat) : outcome (list A * nat) :=
  if m q then v <- rd y1 (snd st) ;; o <- wr (fst st) q v ;; Ret (o, S (snd st))
  else o <- wr (fst st) q zero ;; Ret (o, snd st).

Lemma run_dput : forall A (zero : A) m y1 y2 n,
  length (filter m (seq 0 n)) <= length y1 -> n <= length y2 ->
  exists o, run (dput zero m y1) (seq 0 n) (y2, 0) = Ret (o, length (filter m (seq 0 n))) /\
    length o = length y2 /\
    (forall k, k < length (filter m (seq 0 n)) -> nth (nth k (filter m (seq 0 n)) 0) o zero = nth k y1 zero) /\
    (forall q, q < n -> m q = false -> nth q o zero = zero) /\
    (forall q, n <= q -> nth q o zero = nth q y2 zero).
Proof.
  intros A zero m y1 y2 n. induction n; intros H1 H2.
  - exists y2. simpl. repeat split; auto; intros; lia.
  - rewrite seq_S, filter_app, app_length in *. simpl (0 + n) in *. cbn [filter] in *.
    destruct IHn as (o & E & L & I1 & I2 & I3); try lia.
    rewrite run_app, E. cbn [bind run]. unfold dput. cbn [fst snd].
    set (l := filter m (seq 0 n)) in *.
    assert (LT : forall k, k < length l -> nth k l 0 < n).
    { intros k Hk. apply (nth_In l 0) in Hk. apply (proj1 (filter_In m _ (seq 0 n))) in Hk. destruct Hk as [Hk _].
      apply in_seq in Hk. lia. }
    destruct (m n) eqn:M; cbn [length] in *.
    + rewrite (rd_ok _ zero) by lia. cbn [bind]. rewrite wr_ok by lia. cbn [bind]. eexists. split.
      { f_equal. f_equal. lia. }
      rewrite length_upd. split; [auto|]. split; [|split].
      * intros k Hk. destruct (Nat.eq_dec k (length l)) as [->|e].
        -- rewrite app_nth2, Nat.sub_diag by lia. simpl. rewrite nth_upd_eq by lia. auto.
        -- rewrite app_nth1 by lia. specialize (LT k ltac:(lia)). rewrite nth_upd_neq by lia. apply I1. lia.
      * intros q Hq Mq. destruct (Nat.eq_dec q n); [congruence|]. rewrite nth_upd_neq by lia. apply I2; auto. lia.
      * intros q Hq. rewrite nth_upd_neq by lia. apply I3. lia.
    + rewrite wr_ok by lia. cbn [bind]. rewrite app_nil_r, Nat.add_0_r. eexists. split; [reflexivity|].
      rewrite length_upd. split; [auto|]. split; [|split].
      * intros k Hk. specialize (LT k Hk). rewrite nth_upd_neq by lia. apply I1. auto.
      * intros q Hq Mq. destruct (Nat.eq_dec q n) as [->|e]; [rewrite nth_upd_eq by lia; auto|].
        rewrite nth_upd_neq by lia. apply I2; auto. lia.
      * intros q Hq. rewrite nth_upd_neq by lia. apply I3. lia.
Qed.

Lemma d_part_run : forall A (zero : A) pattern P K j o m (y1 : list A) st, good_pattern pattern P -> j < 3 ->
  (forall i, i < K -> m (o + i) = selected pattern j i) ->
  d_part zero pattern K j o P y1 st = run (dput zero m y1) (seq o K) st.
Proof.
  intros A zero pattern P K j o m y1 st GP Hj HM. unfold d_part. pose proof GP as (HP & _).
  match goal with |- bind (for_ _ ?body _) _ = _ =>
    assert (E : for_ K body (st, 0) = bind (run (dput zero m y1) (seq o K) st) (fun st => Ret (st, K mod P))) end.
  { induction K.
    - simpl. rewrite Nat.mod_0_l by lia. auto.
    - rewrite for_S, IHK by auto. rewrite seq_S, run_app, !bind_assoc. apply bind_eq. intros s.
      cbn [bind]. rewrite (pat_ok _ P) by auto. cbn [bind]. rewrite succ_mod by auto.
      cbn [run]. unfold dput. rewrite HM by lia. destruct (selected pattern j K); rewrite !bind_assoc.
      + apply bind_eq. intros v. rewrite !bind_assoc. apply bind_eq. intros. auto.
      + apply bind_eq. intros. auto. }
  rewrite E, bind_assoc. cbn [bind]. apply bind_Ret_r.
Qed.

Lemma copy_dput : forall A (zero : A) m (y1 : list A) so d n y2, (forall i, i < n -> m (d + i) = true) ->
  bind (copy y1 so n y2 d) (fun o => Ret (o, so + n)) = run (dput zero m y1) (seq d n) (y2, so).
Proof.
  intros A zero m y1 so d n y2. unfold copy. induction n; intros HM.
  - simpl. rewrite Nat.add_0_r. auto.
  - rewrite seq_S, run_app, <- IHn by auto. rewrite for_S. rewrite !bind_assoc.
    apply bind_eq. intros o. cbn [bind run]. unfold dput. cbn [fst snd]. rewrite HM by lia.
    destruct (rd y1 (so + n)); simpl; auto. destruct (wr o (d + n) a); simpl; auto.
    rewrite Nat.add_succ_r. auto.
Qed.

Lemma fill_dput : forall A (zero : A) m (y1 : list A) k d n y2, (forall i, i < n -> m (d + i) = false) ->
  bind (fill y2 d n zero) (fun o => Ret (o, k)) = run (dput zero m y1) (seq d n) (y2, k).
Proof.
  intros A zero m y1 k d n y2. unfold fill. induction n; intros HM.
  - auto.
  - rewrite seq_S, run_app, <- IHn by auto. rewrite for_S. rewrite !bind_assoc.
    apply bind_eq. intros o. cbn [bind run]. unfold dput. cbn [fst snd]. rewrite HM by lia.
    destruct (wr o (d + n) zero); simpl; auto.
Qed.

Lemma d_tail_run : forall A (zero : A) m (y1 : list A) d n st, (forall i, i < n -> m (d + i) = true) ->
  d_tail y1 d n st = run (dput zero m y1) (seq d n) st.
Proof. intros A zero m y1 d n [y2 k] H. unfold d_tail. cbn [fst snd]. apply copy_dput. auto. Qed.

Lemma turbo_depuncture_run : forall A (zero : A) buff K tail pattern P (y1 y2 : list A), good_pattern pattern P ->
  (buff = true -> tail mod 4 = 0) ->
  turbo_depuncture zero buff K tail pattern y1 y2 =
  (st <- run (dput zero (turbo_keeps buff K (tail / 4) pattern) y1) (seq 0 (3 * K + tail)) (y2, 0) ;; Ret (fst st)).
Proof.
  intros A zero buff K tail pattern P y1 y2 GP HT. unfold turbo_depuncture. rewrite (good_period _ _ GP).
  destruct buff.
  - apply mod4 in HT; auto. destruct HT as [s ->]. destruct (div4 s) as [-> ->]. rewrite buff_seq. replace (K * 3 + 4 * s - (K + s)) with (K + s + K + s + s) by lia.
    set (m := turbo_keeps true K s pattern).
    rewrite ?run_app, ?bind_assoc. rewrite (d_part_run _ _ _ P _ _ _ m); auto; try lia.
    2:{ intros i Hi. unfold m, turbo_keeps. ltbs; auto. }
    apply bind_eq. intros s1.
    rewrite (d_tail_run _ zero m). 2:{ intros i Hi. unfold m, turbo_keeps. ltbs; auto. }
    rewrite ?run_app, ?bind_assoc. apply bind_eq. intros s2.
    rewrite (d_part_run _ _ _ P _ _ _ m); auto; try lia.
    2:{ intros i Hi. unfold m, turbo_keeps. ltbs. f_equal. lia. }
    rewrite ?run_app, ?bind_assoc. apply bind_eq. intros s3.
    rewrite (d_tail_run _ zero m). 2:{ intros i Hi. unfold m, turbo_keeps. ltbs; auto. }
    rewrite ?run_app, ?bind_assoc. apply bind_eq. intros s4.
    rewrite (d_part_run _ _ _ P _ _ _ m); auto; try lia.
    2:{ intros i Hi. unfold m, turbo_keeps. ltbs. f_equal. lia. }
    rewrite ?run_app, ?bind_assoc. apply bind_eq. intros s5.
    rewrite (d_tail_run _ zero m). 2:{ intros i Hi. unfold m, turbo_keeps. ltbs; auto. }
    auto.
  - pose proof GP as (HP & _). set (m := turbo_keeps false K (tail / 4) pattern).
    match goal with |- bind (for_ _ ?body _) _ = _ =>
      assert (E : forall n, n <= K -> for_ n body (y2, 0, 0) = bind (run (dput zero m y1) (seq 0 (3 * n)) (y2, 0))
       (fun st => Ret (st, n mod P))) end.
    { induction n; intros Hn.
      - simpl. rewrite Nat.mod_0_l by lia. auto.
      - rewrite for_S, IHn by lia. replace (3 * S n) with (3 * n + 3) by lia.
        rewrite seq_split, run_app, ?run_app, ?bind_assoc. apply bind_eq. intros st.
        cbn [bind]. rewrite succ_mod by auto.
        replace (seq (0 + 3 * n) 3) with (map (fun j => n * 3 + j) (seq 0 3)) by (cbn; repeat (f_equal; try lia)).
        rewrite for_run, run_map. f_equal. apply run_ext. intros j st' Hj. apply in_seq in Hj.
        rewrite (pat_ok _ P) by (auto; lia). cbn [bind]. unfold dput, m. rewrite keeps_trip by lia. auto. }
    rewrite E, seq_split, run_app, ?run_app, ?bind_assoc by lia. cbn [bind]. apply bind_eq. intros [o k]. cbn [fst snd].
    rewrite <- (copy_dput _ zero). 2:{ intros i Hi. unfold m, turbo_keeps. simpl (0 + 3 * K). ltbs; auto. }
    rewrite bind_assoc. cbn [bind fst]. symmetry. apply bind_Ret_r.
Qed.

(** LDPC *)
Lemma seq_blocks : forall Z n, seq 0 (Z * n) = flat_map (fun i => seq (i * Z) Z) (seq 0 n).
Proof.
  intros. induction n. { rewrite Nat.mul_0_r. auto. }
  rewrite Nat.mul_succ_r, seq_split, IHn, (seq_S n), flat_map_app. f_equal. cbn. rewrite app_nil_r. f_equal. lia.
Qed.

Lemma block_mask : forall Z (pattern : list bool) i j, j < Z -> nth ((i * Z + j) / Z) pattern false = nth i pattern false.
Proof. intros. destruct (divmod_idx i j Z H) as [-> _]. auto. Qed.

Lemma filter_none : forall (m : nat -> bool) a n, (forall i, i < n -> m (a + i) = false) ->
  filter m (seq a n) = [].
Proof.
  intros m a n H. assert (G : forall l, (forall x, In x l -> m x = false) -> filter m l = []).
  { induction l; simpl; intros; auto. rewrite H0 by auto. auto. }
  apply G. intros x Hx. apply in_seq in Hx. replace x with (a + (x - a)) by lia. apply H. lia.
Qed.

Lemma ldpc_puncture_run : forall A Z pattern (x1 x2 : list A),
  ldpc_puncture Z pattern x1 x2 = (st <- run (emit x1) (ldpc_kept Z pattern) (x2, 0) ;; Ret (fst st)).
Proof.
  intros. unfold ldpc_puncture, ldpc_kept. rewrite seq_blocks, filter_flat_map, <- run_flat, fst_ret.
  f_equal. rewrite for_run. apply run_ext. intros i [o k] Hi. apply in_seq in Hi.
  rewrite (rd_ok _ false) by lia. cbn [bind]. destruct (nth i pattern false) eqn:E.
  - rewrite filter_all by (intros; rewrite block_mask; auto). apply copy_emit.
  - rewrite filter_none by (intros; rewrite block_mask; auto). auto.
Qed.

Lemma ldpc_depuncture_run : forall A (zero : A) Z pattern (y1 y2 : list A),
  ldpc_depuncture zero Z pattern y1 y2 =
  (st <- run (dput zero (fun q => nth (q / Z) pattern false) y1) (seq 0 (Z * length pattern)) (y2, 0) ;; Ret (fst st)).
Proof.
  intros. unfold ldpc_depuncture. rewrite seq_blocks, <- run_flat, fst_ret.
  f_equal. rewrite for_run. apply run_ext. intros i [o k] Hi. apply in_seq in Hi.
  rewrite (rd_ok _ false) by lia. cbn [bind]. destruct (nth i pattern false) eqn:E.
  - apply copy_dput. intros. rewrite block_mask; auto.
  - apply fill_dput. intros. rewrite block_mask; auto.
Qed.

(** double binary *)
Lemma db_groups_run : forall A n K step os (x1 x2 : list A),
  (x2 <- copy x1 0 n x2 0 ;; db_loop K n step os x1 x2 n) =
  (st <- run (emit x1) (db_groups n K step os) (x2, 0) ;; Ret (fst st)).
Proof.
  intros. unfold db_groups, db_loop. rewrite run_app, <- copy_emit, !bind_assoc. apply bind_eq. intros o.
  cbn [bind]. rewrite Nat.add_0_l. rewrite fst_ret, <- run_flat. f_equal. rewrite for_run. apply run_ext. intros t st _.
  rewrite run_map. auto.
Qed.

Lemma copy_fst : forall A n (x1 x2 : list A),
  copy x1 0 n x2 0 = (st <- run (emit x1) (seq 0 n) (x2, 0) ;; Ret (fst st)).
Proof.
  intros. rewrite <- copy_emit, bind_assoc. cbn [bind fst]. symmetry. apply bind_Ret_r.
Qed.

Lemma db_puncture_run : forall A r K (x1 x2 : list A),
  db_puncture r K x1 x2 = (st <- run (emit x1) (db_kept r K) (x2, 0) ;; Ret (fst st)).
Proof.
  intros. unfold db_puncture, db_kept. destruct r; try apply db_groups_run; apply copy_fst.
Qed.

(** Y2[p] = Y1[k++] *)
Definition scat {A} (y1 : list A) (p : nat) (st : list A * nat) : outcome (list A * nat) :=
  v <- rd y1 (snd st) ;; o <- wr (fst st) p v ;; Ret (o, S (snd st)).

Lemma run_scat : forall A (d : A) (y1 : list A) ps y2 k, NoDup ps -> Forall (fun p => p < length y2) ps ->
  k + length ps <= length y1 ->
  exists o, run (scat y1) ps (y2, k) = Ret (o, k + length ps) /\ length o = length y2 /\
    (forall i, i < length ps -> nth (nth i ps 0) o d = nth (k + i) y1 d) /\
    (forall q, ~ In q ps -> nth q o d = nth q y2 d).
Proof.
  induction ps as [|p ps IH]; intros y2 k ND HF HL.
  - exists y2. simpl. rewrite Nat.add_0_r. repeat split; auto. intros; lia.
  - inversion ND; inversion HF; subst. simpl in HL. cbn [run]. unfold scat at 1. cbn [fst snd].
    rewrite (rd_ok _ d) by lia. cbn [bind]. rewrite wr_ok by lia. cbn [bind].
    destruct (IH (upd y2 p (nth k y1 d)) (S k)) as (o & E & L & I1 & I2); auto.
    { rewrite length_upd. auto. } { lia. }
    rewrite length_upd in L. exists o. rewrite E. split; [f_equal; f_equal; simpl; lia|]. split; auto. split.
    + intros [|i] Hi; cbn [nth].
      * rewrite I2 by auto. rewrite nth_upd_eq by lia. f_equal. lia.
      * rewrite I1 by (simpl in Hi; lia). f_equal. lia.
    + intros q Hq. rewrite I2 by (intros C; apply Hq; simpl; auto). apply nth_upd_neq. intros ->. apply Hq. simpl; auto.
Qed.

Lemma run_scat_bad : forall A (y1 : list A) ps (y2 : list A) k,
  (exists p, In p ps /\ length y2 <= p) \/ (ps <> [] /\ length y1 < k + length ps) ->
  run (scat y1) ps (y2, k) = Undef.
Proof.
  induction ps as [|p ps IH]; intros y2 k H.
  - destruct H as [(p & [] & _)|(H & _)]; congruence.
  - cbn [run]. unfold scat at 1. cbn [fst snd].
    destruct (Nat.lt_ge_cases k (length y1)) as [Hk|Hk]; [|rewrite rd_out by auto; auto].
    destruct y1 as [|d y1]; [simpl in Hk; lia|]. set (yy := d :: y1) in *.
    rewrite (rd_ok _ d) by auto. cbn [bind].
    destruct (Nat.lt_ge_cases p (length y2)) as [Hp|Hp]; [|rewrite wr_out by auto; auto].
    rewrite wr_ok by auto. cbn [bind]. apply IH. rewrite length_upd.
    destruct H as [(q & [->|Hq] & Lq)|(_ & H)].
    + lia.
    + left. eauto.
    + clearbody yy. cbn [length] in H. destruct ps as [|p' ps']; [cbn [length] in H; lia|]. right. split; [congruence|]. cbn [length] in *. lia.
Qed.

Lemma db_dloop_run : forall A K n step os (y1 y2 : list A) j,
  db_dloop K n step os y1 y2 j =
  (st <- run (scat y1) (flat_map (fun t => map (fun o => n + t * step + o) os) (seq 0 ((K + step - 1) / step))) (y2, j) ;;
   Ret (fst st)).
Proof.
  intros. unfold db_dloop. rewrite fst_ret, <- run_flat. f_equal. rewrite for_run. apply run_ext. intros t st _.
  rewrite run_map. auto.
Qed.

Lemma NoDup_app' : forall A (l1 l2 : list A), NoDup l1 -> NoDup l2 ->
  (forall x, In x l1 -> In x l2 -> False) -> NoDup (l1 ++ l2).
Proof.
  induction 1; simpl; intros; auto. constructor.
  - intros C. apply in_app_or in C. destruct C; auto. eapply H2; eauto.
  - apply IHNoDup; auto. intros y Hy1 Hy2. apply (H2 y); auto.
Qed.

Lemma db_groups_nodup : forall n K step os, 0 < step -> NoDup os -> Forall (fun o => o < step) os ->
  NoDup (db_groups n K step os).
Proof.
  intros n K step os Hs ND HO. unfold db_groups.
  assert (G : forall c, NoDup (seq 0 n ++ flat_map (fun t => map (fun o => n + t * step + o) os) (seq 0 c)) /\
     forall x, In x (seq 0 n ++ flat_map (fun t => map (fun o => n + t * step + o) os) (seq 0 c)) -> x < n + c * step).
  { induction c.
    - cbn. rewrite app_nil_r. split. { apply seq_NoDup. } intros x Hx. apply in_seq in Hx. lia.
    - destruct IHc as [N1 B1]. rewrite seq_S, flat_map_app, app_assoc. simpl (0 + c). cbn [flat_map]. rewrite app_nil_r.
      rewrite Forall_forall in HO. split.
      + apply NoDup_app'; auto.
        * apply FinFun.Injective_map_NoDup; auto. intros a b E. lia.
        * intros x H1 H2. apply B1 in H1. apply in_map_iff in H2. destruct H2 as (o & <- & Ho). lia.
      + intros x Hx. apply in_app_or in Hx. destruct Hx as [Hx|Hx]; [apply B1 in Hx; lia|].
        apply in_map_iff in Hx. destruct Hx as (o & <- & Ho). apply HO in Ho. lia. }
  apply G.
Qed.
