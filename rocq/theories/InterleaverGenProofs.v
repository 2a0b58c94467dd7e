(** Lemmas about the look-up table generators. *)
From Coq Require Import List Arith Lia Bool Permutation.
From Verif Require Import Base Loops InterleaverModel InterleaverProofs.
Import ListNotations.

Lemma iota_seq : forall w lut, length lut <= 2 ^ w -> iota w lut = seq 0 (length lut).
Proof.
  intros. unfold iota. rewrite <- (map_id (seq 0 (length lut))) at 2.
  apply map_ext_in. intros a Ha. apply in_seq in Ha. apply wrap_small. lia.
Qed.

Lemma gen_NO_ok : forall w sz, sz <= 2 ^ w -> gen_ok sz (gen_NO w).
Proof.
  intros w sz H f lut L. exists (iota w lut). split; [reflexivity|].
  rewrite iota_seq by lia. rewrite L. apply is_perm_iff. reflexivity.
Qed.

Lemma gen_random_ok : forall w sz sh, sz <= 2 ^ w ->
  (forall f l, Permutation (sh f l) l) -> gen_ok sz (gen_random w sh).
Proof.
  intros w sz sh H Hs f lut L. exists (sh f (iota w lut)). split; [reflexivity|].
  apply is_perm_iff. rewrite Hs, iota_seq by lia. rewrite L. reflexivity.
Qed.

Lemma gen_golden_ok : forall w sz srt, sz <= 2 ^ w ->
  (forall f l, Permutation (srt f l) l) -> gen_ok sz (gen_golden w srt).
Proof. exact gen_random_ok. Qed.

(** Loop that threads a wrapping counter. *)
Lemma count_loop : forall w n (B : nat -> nat -> list nat -> outcome (list nat)) i0 lut,
  for_ n (fun l '(lut, idx) => lut <- B l idx lut ;; Ret (lut, wrap w (idx + 1))) (lut, wrap w i0)
  = (o <- for_ n (fun l lut => B l (wrap w (i0 + l)) lut) lut ;; Ret (o, wrap w (i0 + n))).
Proof.
  intros. induction n.
  - simpl. rewrite Nat.add_0_r. reflexivity.
  - rewrite !for_S, IHn. rewrite !bind_assoc. apply bind_ext. intros a _. simpl.
    apply bind_ext. intros b _. f_equal. f_equal. unfold wrap.
    rewrite Nat.add_mod_idemp_l by (apply Nat.pow_nonzero; lia). f_equal. lia.
Qed.

Lemma count_loop2 : forall w n m (B : nat -> nat -> nat -> list nat -> outcome (list nat)) lut,
  n * m <= 2 ^ w ->
  (r <- for_ n (fun k '(lut, idx) =>
     for_ m (fun l '(lut, idx) => lut <- B k l idx lut ;; Ret (lut, wrap w (idx + 1))) (lut, idx)) (lut, 0) ;;
   Ret (fst r))
  = for_ n (fun k lut => for_ m (fun l lut => B k l (k * m + l) lut) lut) lut.
Proof.
  intros w n m B lut H.
  assert (E : for_ n (fun k '(lut, idx) =>
     for_ m (fun l '(lut, idx) => lut <- B k l idx lut ;; Ret (lut, wrap w (idx + 1))) (lut, idx)) (lut, 0)
   = (o <- for_ n (fun k lut => for_ m (fun l lut => B k l (wrap w (k * m + l)) lut) lut) lut ;;
      Ret (o, wrap w (n * m)))).
  { clear H. induction n.
    - cbn [for_ for_from bind Nat.mul]. unfold wrap. rewrite Nat.mod_0_l by (apply Nat.pow_nonzero; lia). reflexivity.
    - rewrite !for_S, IHn. rewrite !bind_assoc. apply bind_ext. intros a _. cbn [bind].
      rewrite count_loop. apply bind_ext. intros b _. f_equal. f_equal. f_equal. lia. }
  rewrite E, bind_assoc. cbn [bind fst].
  rewrite for_ext with (b2 := fun k lut => for_ m (fun l lut => B k l (k * m + l) lut) lut).
  - apply bind_Ret_r.
  - intros. apply for_ext. intros. rewrite wrap_small; auto. nia.
Qed.

Lemma col_at_lt : forall ro n k, k < n -> col_at ro n k < n.
Proof. destruct ro; simpl; intros; lia. Qed.
Lemma row_at_lt : forall ro n k, k < n -> row_at ro n k < n.
Proof. destruct ro; simpl; intros; lia. Qed.
Lemma col_at_inj : forall ro n k k', k < n -> k' < n -> col_at ro n k = col_at ro n k' -> k = k'.
Proof. destruct ro; simpl; intros; lia. Qed.
Lemma row_at_inj : forall ro n k k', k < n -> k' < n -> row_at ro n k = row_at ro n k' -> k = k'.
Proof. destruct ro; simpl; intros; lia. Qed.

Lemma gen_row_column_val : forall w nr nc ro f lut, nc * nr <= 2 ^ w -> length lut = nc * nr ->
  exists l, gen_row_column w nr nc ro f lut = Ret l /\ length l = nc * nr /\
   forall k r, k < nc -> r < nr -> nth (k * nr + r) l 0 = row_at ro nr r * nc + col_at ro nc k.
Proof.
  intros w nr nc ro f lut H L. unfold gen_row_column.
  rewrite (count_loop2 w nc nr (fun k l idx lut => wr lut idx (wrap w (row_at ro nr l * nc + col_at ro nc k)))) by auto.
  rewrite for_ext with (b2 := fun k lut => for_ nr (fun l lut => wr lut (k * nr + l) (row_at ro nr l * nc + col_at ro nc k)) lut).
  2:{ intros k s Hk. apply for_ext. intros l s' Hl. rewrite wrap_small; auto.
      pose proof (row_at_lt ro _ _ Hl). pose proof (col_at_lt ro _ _ Hk). nia. }
  destruct (scatter2 nat 0 nc nr (fun k l => k * nr + l) (fun k l => row_at ro nr l * nc + col_at ro nc k) lut)
    as (o & E & L' & I1 & I2).
  - intros; nia.
  - intros ? ? ? ? ? ? ? ? e; eapply divmod_unique_lt; eauto.
  - exists o. repeat split; auto. lia.
Qed.

Lemma gen_column_row_val : forall w nr nc ro f lut, nc * nr <= 2 ^ w -> length lut = nc * nr ->
  exists l, gen_column_row w nr nc ro f lut = Ret l /\ length l = nc * nr /\
   forall k r, k < nc -> r < nr -> nth (row_at ro nr r * nc + col_at ro nc k) l 0 = k * nr + r.
Proof.
  intros w nr nc ro f lut H L. unfold gen_column_row.
  rewrite (count_loop2 w nc nr (fun k l idx lut => wr lut (row_at ro nr l * nc + col_at ro nc k) idx)) by auto.
  destruct (scatter2 nat 0 nc nr (fun k l => row_at ro nr l * nc + col_at ro nc k) (fun k l => k * nr + l) lut)
    as (o & E & L' & I1 & I2).
  - intros k l Hk Hl. rewrite L. pose proof (row_at_lt ro _ _ Hl). pose proof (col_at_lt ro _ _ Hk). nia.
  - intros k l k' l' Hk Hl Hk' Hl' e. apply divmod_unique_lt in e; auto using col_at_lt.
    destruct e as (e1 & e2). apply row_at_inj in e1; auto. apply col_at_inj in e2; auto.
  - exists o. repeat split; auto. lia.
Qed.

Lemma split_idx : forall i n m, i < n * m -> exists a b, a < n /\ b < m /\ i = a * m + b.
Proof.
  intros. destruct (div_mod_lt i m n H). exists (i / m), (i mod m). repeat split; auto.
  rewrite (Nat.div_mod i m) at 1 by lia. lia.
Qed.

Lemma gen_row_column_ok : forall w nr nc ro, nc * nr <= 2 ^ w -> gen_ok (nc * nr) (gen_row_column w nr nc ro).
Proof.
  intros w nr nc ro H f lut L. destruct (gen_row_column_val w nr nc ro f lut H L) as (l & E & Ll & V).
  exists l. split; auto. split; [auto|]. split.
  - intros i Hi. destruct (split_idx _ _ _ Hi) as (a & b & Ha & Hb & ->). rewrite V by auto.
    pose proof (row_at_lt ro _ _ Hb). pose proof (col_at_lt ro _ _ Ha). nia.
  - intros i j Hi Hj. destruct (split_idx _ _ _ Hi) as (a & b & Ha & Hb & ->).
    destruct (split_idx _ _ _ Hj) as (a' & b' & Ha' & Hb' & ->). rewrite !V by auto.
    intros e. apply divmod_unique_lt in e; auto using col_at_lt.
    destruct e as (e1 & e2). apply row_at_inj in e1; auto. apply col_at_inj in e2; auto.
Qed.

Lemma row_column_inverse : forall w nr nc ro f lut f' lut' l l', nc * nr <= 2 ^ w ->
  length lut = nc * nr -> length lut' = nc * nr ->
  gen_row_column w nr nc ro f lut = Ret l -> gen_column_row w nr nc ro f' lut' = Ret l' ->
  inverse (nc * nr) l l'.
Proof.
  intros w nr nc ro f lut f' lut' l l' H L L' E E'.
  destruct (gen_row_column_val w nr nc ro f lut H L) as (l1 & E1 & _ & V).
  destruct (gen_column_row_val w nr nc ro f' lut' H L') as (l1' & E1' & _ & V').
  rewrite E in E1; inversion E1; subst l1. rewrite E' in E1'; inversion E1'; subst l1'.
  intros i Hi. destruct (split_idx _ _ _ Hi) as (a & b & Ha & Hb & ->).
  rewrite V, V' by auto. auto.
Qed.

Lemma gen_column_row_ok : forall w nr nc ro, nc * nr <= 2 ^ w -> gen_ok (nc * nr) (gen_column_row w nr nc ro).
Proof.
  intros w nr nc ro H f lut L. destruct (gen_column_row_val w nr nc ro f lut H L) as (l & E & Ll & V).
  exists l. split; auto.
  destruct (gen_row_column_ok w nr nc ro H f lut L) as (p & Ep & Pp).
  destruct (inverse_perm _ p l Pp Ll (row_column_inverse _ _ _ _ _ _ _ _ _ _ H L L Ep E)); auto.
Qed.

Lemma map_add_seq : forall n k s, map (fun c => c + k) (seq s n) = seq (s + k) n.
Proof. induction n; simpl; intros; auto. f_equal. rewrite IHn. reflexivity. Qed.

Lemma gen_random_column_ok : forall w nc cs sh, nc * cs <= 2 ^ w ->
  (forall f c l, Permutation (sh f c l) l) -> gen_ok (nc * cs) (gen_random_column w nc cs sh).
Proof.
  intros w nc cs sh H Hs f lut L. unfold gen_random_column.
  set (t := fun column => sh f column (seq (column * cs) cs)).
  assert (Ht : forall c, Permutation (t c) (seq (c * cs) cs)) by (intros; apply Hs).
  assert (Lt : forall c, length (t c) = cs) by (intros; rewrite (Permutation_length (Ht c)), seq_length; auto).
  rewrite for_ext with (b2 := fun k lut => for_ cs (fun c lut => wr lut (c + k * cs) (nth c (t k) 0)) lut).
  2:{ intros k s Hk. apply for_ext. intros c s' Hc.
      assert (map (fun c => wrap w (c + k * cs)) (seq 0 cs) = seq (k * cs) cs) as ->.
      { change (seq (k * cs) cs) with (seq (0 + k * cs) cs). rewrite <- map_add_seq.
        apply map_ext_in. intros a Ha. apply in_seq in Ha. rewrite wrap_small; [lia|nia]. }
      fold (t k). rewrite (rd_ok _ 0) by (rewrite Lt; auto). reflexivity. }
  destruct (scatter2 nat 0 nc cs (fun k c => c + k * cs) (fun k c => nth c (t k) 0) lut)
    as (o & E & L' & I1 & I2).
  - intros; nia.
  - intros a b a' b' ? ? ? ? e. rewrite (Nat.add_comm b), (Nat.add_comm b') in e. eapply divmod_unique_lt; eauto.
  - exists o. split; [auto|].
    assert (R: forall k c, k < nc -> c < cs -> exists c', c' < cs /\ nth c (t k) 0 = k * cs + c').
    { intros k c Hk Hc. assert (In (nth c (t k) 0) (seq (k * cs) cs)).
      { eapply Permutation_in; [apply Ht|]. apply nth_In. rewrite Lt; auto. }
      apply in_seq in H0. exists (nth c (t k) 0 - k * cs). lia. }
    split; [lia|]. split.
    + intros i Hi. destruct (split_idx _ _ _ Hi) as (a & b & Ha & Hb & ->).
      rewrite (Nat.add_comm (a * cs)), I1 by auto. destruct (R a b Ha Hb) as (c' & Hc' & ->). nia.
    + intros i j Hi Hj. destruct (split_idx _ _ _ Hi) as (a & b & Ha & Hb & ->).
      destruct (split_idx _ _ _ Hj) as (a' & b' & Ha' & Hb' & ->).
      rewrite (Nat.add_comm (a * cs)), (Nat.add_comm (a' * cs)), !I1 by auto.
      destruct (R a b Ha Hb) as (c & Hc & Ec). destruct (R a' b' Ha' Hb') as (c' & Hc' & Ec').
      intros e. rewrite Ec, Ec' in e. apply divmod_unique_lt in e; auto. destruct e as (-> & ->).
      rewrite <- Ec' in Ec. 
      assert (ND: NoDup (t a')) by (eapply Permutation_NoDup; [apply Permutation_sym; apply Ht|apply seq_NoDup]).
      pose proof (proj1 (NoDup_nth (t a') 0) ND b b') as Q. rewrite Lt in Q. rewrite Q; auto.
Qed.

(* ------------------------------------------------------------------ *)
(** * User files *)

Definition utbl_body (sz : nat) := fun i '(l, st, val) =>
    match extract st (Some val) with
    | (st, Some val) =>
        if val <? sz then
          if dup_before l i val then Throws else
          l <- wr l i val ;; Ret (l, st, val)
        else Throws
    | (_, None) => Undef
    end.

Lemma existsb_eqb : forall v l, existsb (Nat.eqb v) l = true <-> In v l.
Proof.
  intros. rewrite existsb_exists. split.
  - intros (x & H & E). apply Nat.eqb_eq in E. subst; auto.
  - intros. exists v. rewrite Nat.eqb_refl. auto.
Qed.

Lemma firstn_upd_S : forall (l : list nat) i v, i < length l ->
  firstn (S i) (upd l i v) = firstn i l ++ [v].
Proof. induction l; destruct i; simpl; intros; try lia; auto. f_equal. apply IHl. lia. Qed.

Lemma user_table_sound : forall sz st val l st' val',
  user_table sz st val = Ret (l, st', val') -> is_perm sz l.
Proof.
  intros sz st val l st' val' E. unfold user_table in E.
  eapply (for_part _ (fun i '(l, _, _) => length l = sz /\ NoDup (firstn i l) /\ Forall (fun x => x < sz) (firstn i l)))
    in E.
  - destruct E as (L & ND & F). rewrite <- L in ND, F at 1. rewrite firstn_all in ND, F.
    split; [auto|]. rewrite Forall_forall in F. split.
    + intros. apply F. apply nth_In. lia.
    + intros i j Hi Hj e. eapply (proj1 (NoDup_nth l 0) ND); eauto; lia.
  - split; [apply repeat_length|]. simpl. split; constructor.
  - intros i ((l0, st0), v0) ((l1, st1), v1) Hi (L & ND & F) E1. simpl in E1.
    destruct (extract st0 (Some v0)) as (st2, [v2|]); [|discriminate].
    destruct (Nat.ltb_spec v2 sz); [|discriminate].
    destruct (dup_before l0 i v2) eqn:D; [discriminate|].
    rewrite wr_ok in E1 by lia. simpl in E1. inversion E1; subst; clear E1.
    rewrite length_upd. split; [auto|]. rewrite firstn_upd_S by lia.
    assert (~ In v1 (firstn i l0)).
    { intros HI. apply existsb_eqb in HI. unfold dup_before in D. congruence. }
    split.
    + apply NoDup_Add with (a := v1) (l := firstn i l0).
      * rewrite <- (app_nil_r (firstn i l0)) at 1. apply Add_app.
      * auto.
    + apply Forall_app. auto.
Qed.

(** Reading one table from a well-formed stream. *)
Definition okP (sz : nat) (l : list nat) : Prop := NoDup l /\ Forall (fun x => x < sz) l.

Lemma firstn_S_nth : forall (l : list nat) i, i < length l -> firstn (S i) l = firstn i l ++ [nth i l 0].
Proof. induction l; destruct i; simpl; intros; try lia; auto. f_equal. apply IHl. lia. Qed.

Lemma skipn_nth_cons : forall (l : list nat) i, i < length l -> skipn i l = nth i l 0 :: skipn (S i) l.
Proof. induction l; destruct i; simpl; intros; try lia; auto. rewrite IHl by lia. reflexivity. Qed.

Lemma okP_snoc : forall sz l v, okP sz (l ++ [v]) <-> okP sz l /\ v < sz /\ ~ In v l.
Proof.
  intros. unfold okP. rewrite Forall_app.
  assert (A : Add v l (l ++ [v])) by (rewrite <- (app_nil_r l) at 1; apply Add_app).
  rewrite (NoDup_Add A). split.
  - intros ((? & ?) & ? & F). inversion F; subst. auto.
  - intros ((? & ?) & ? & ?). auto.
Qed.

Lemma upd_app_mid : forall (a : list nat) x b v, upd (a ++ x :: b) (length a) v = a ++ v :: b.
Proof. induction a; simpl; intros; auto. f_equal; auto. Qed.

Lemma user_table_run : forall sz t r val, length t = sz -> forall i, i <= sz ->
  let res := for_ i (utbl_body sz) (repeat 0 sz, Some (map Num t ++ r), val) in
  (okP sz (firstn i t) /\
   res = Ret (firstn i t ++ repeat 0 (sz - i), Some (map Num (skipn i t) ++ r), last (firstn i t) val)) \/
  (~ okP sz (firstn i t) /\ res = Throws).
Proof.
  intros sz t r val L i. induction i; intros Hi; cbn zeta.
  - left. simpl. rewrite Nat.sub_0_r. split; [split; constructor|reflexivity].
  - assert (Hi' : i <= sz) by lia. specialize (IHi Hi'). cbn zeta in IHi.
    rewrite for_S. rewrite firstn_S_nth by lia. rewrite okP_snoc.
    destruct IHi as [(O & E)|(O & E)]; rewrite E; [|right; split; [tauto|reflexivity]].
    rewrite bind_Ret. unfold utbl_body. rewrite (skipn_nth_cons t i) by lia. cbn [map app extract].
    assert (LF : length (firstn i t) = i) by (rewrite firstn_length; lia).
    destruct (Nat.ltb_spec (nth i t 0) sz) as [Hlt|Hge].
    2:{ right. split; [|reflexivity]. intros (? & ? & ?). lia. }
    unfold dup_before.
    assert (firstn i (firstn i t ++ repeat 0 (sz - i)) = firstn i t) as ->.
    { rewrite firstn_app, LF, Nat.sub_diag. simpl. rewrite app_nil_r, firstn_firstn, Nat.min_id. auto. }
    destruct (existsb (Nat.eqb (nth i t 0)) (firstn i t)) eqn:D.
    + right. split; [|reflexivity]. apply existsb_eqb in D. tauto.
    + left. split.
      * split; [auto|]. split; [auto|]. rewrite <- existsb_eqb. congruence.
      * rewrite wr_ok by (rewrite app_length, repeat_length, LF; lia). cbn [bind].
        replace (sz - i) with (S (sz - S i)) by lia. cbn [repeat].
        pose proof (upd_app_mid (firstn i t) 0 (repeat 0 (sz - S i)) (nth i t 0)) as U.
        rewrite LF in U. rewrite U. rewrite <- app_assoc. simpl app.
        rewrite last_last. reflexivity.
Qed.

Lemma okP_perm : forall sz l, length l = sz -> (okP sz l <-> is_perm sz l).
Proof.
  intros sz l L. split.
  - intros (ND & F). rewrite Forall_forall in F. split; [auto|]. split.
    + intros. apply F. apply nth_In. lia.
    + intros i j Hi Hj e. eapply (proj1 (NoDup_nth l 0) ND); eauto; lia.
  - intros H. split; [eapply is_perm_NoDup; eauto|]. destruct H as (H1 & H2 & H3).
    apply Forall_forall. intros x Hx. destruct (In_nth l x 0 Hx) as (k & Hk & <-). apply H2. lia.
Qed.

Lemma user_table_wf : forall sz t r val, length t = sz ->
  (is_perm sz t /\ user_table sz (Some (map Num t ++ r)) val = Ret (t, Some r, last t val)) \/
  (~ is_perm sz t /\ user_table sz (Some (map Num t ++ r)) val = Throws).
Proof.
  intros sz t r val L. destruct (user_table_run sz t r val L sz (le_n _)) as [(O & E)|(O & E)];
    rewrite <- L, firstn_all in O; rewrite L in O.
  - left. split. { apply okP_perm; auto. }
    unfold user_table. fold (utbl_body sz). rewrite E.
    clear E O. subst sz. rewrite firstn_all, skipn_all, Nat.sub_diag. simpl. rewrite app_nil_r. reflexivity.
  - right. split; auto. rewrite <- okP_perm; auto.
Qed.

Definition tables_body (sz : nat) := fun (_ : nat) '(acc, st, val) =>
                 '(l, st, val) <- user_table sz st val ;;
                 Ret (acc ++ [l], st, val).

Lemma tables_run : forall sz tables r acc val lo,
  Forall (fun t => length t = sz) tables ->
  let res := for_from lo (length tables) (tables_body sz) (acc, Some (map Num (concat tables) ++ r), val) in
  (Forall (is_perm sz) tables /\ exists v, res = Ret (acc ++ tables, Some r, v)) \/
  (~ Forall (is_perm sz) tables /\ res = Throws).
Proof.
  induction tables; intros r acc val lo F; cbn zeta.
  - left. split; [constructor|]. exists val. rewrite app_nil_r. reflexivity.
  - inversion F; subst. cbn [length for_from concat]. unfold tables_body at 1 3.
    rewrite map_app, <- app_assoc.
    destruct (user_table_wf (length a) a (map Num (concat tables) ++ r) val eq_refl) as [(P & E)|(P & E)]; rewrite E.
    + cbn [bind]. destruct (IHtables r (acc ++ [a]) (last a val) (S lo) H2) as [(Q & v & E2)|(Q & E2)].
      * left. split; [constructor; auto|]. exists v. rewrite E2, <- app_assoc. reflexivity.
      * right. split; [|rewrite E2; reflexivity]. intros G; inversion G; auto.
    + right. split; [|reflexivity]. intros G; inversion G; auto.
Qed.

Lemma user_read_wf : forall sz tables rest, 0 < length tables ->
  Forall (fun t => length t = sz) tables ->
  let res := user_read sz (Num (length tables) :: Num sz :: map Num (concat tables) ++ rest) in
  (Forall (is_perm sz) tables /\ res = Ret tables) \/
  (~ Forall (is_perm sz) tables /\ res = Throws).
Proof.
  intros sz tables rest H F. cbn zeta. unfold user_read. cbn [extract].
  destruct (Nat.eqb_spec (length tables) 0); [lia|]. rewrite Nat.eqb_refl. cbn [negb].
  fold (tables_body sz). unfold for_.
  destruct (tables_run sz tables rest [] sz 0 F) as [(P & v & E)|(P & E)]; rewrite E; [left|right]; auto.
Qed.

Lemma user_read_sound : forall sz file tables, user_read sz file = Ret tables ->
  tables <> [] /\ Forall (is_perm sz) tables.
Proof.
  unfold user_read. intros sz file tables H.
  destruct (extract (Some file) None) as (st & [n|]); [|discriminate].
  destruct (Nat.eqb_spec n 0); [discriminate|].
  destruct (extract st None) as (st' & [v|]); [|discriminate].
  destruct (negb (v =? sz)); [discriminate|].
  apply bind_inv in H. destruct H as (((l, st2), v2) & E & R). simpl in R. inversion R; subst l; clear R.
  eapply (for_part _ (fun k '(acc, _, _) => length acc = k /\ Forall (is_perm sz) acc)) in E.
  - destruct E as (L & F). split; auto. destruct tables; simpl in *; congruence.
  - auto.
  - intros i ((a, s1), v1) ((a', s1'), v1') Hi (L & F) B.
    apply bind_inv in B. destruct B as (((l, s3), v3) & E3 & R3). inversion R3; subst.
    rewrite app_length. simpl. split; [lia|]. apply Forall_app. split; auto. constructor; auto.
    eapply user_table_sound; eauto.
Qed.

Lemma gen_user_ok : forall sz tables k0, tables <> [] -> Forall (is_perm sz) tables ->
  gen_ok sz (gen_user tables k0).
Proof.
  intros sz tables k0 N F f lut L. unfold gen_user.
  assert (Hlt : (k0 + f) mod length tables < length tables).
  { apply Nat.mod_upper_bound. destruct tables; simpl; congruence. }
  rewrite (nth_error_nth' tables [] Hlt).
  set (t := nth ((k0 + f) mod length tables) tables []).
  assert (P : is_perm sz t). { rewrite Forall_forall in F. apply F. apply nth_In. auto. }
  destruct P as (P1 & P2 & P3) eqn:EP. clear EP.
  destruct (copy_at_ok t lut 0) as (d' & E & L' & I1 & I2); [lia|].
  exists d'. split; [auto|].
  assert (d' = t) as ->; [|repeat split; auto].
  apply list_eq_nth with (d := 0); [lia|]. intros i Hi. apply I1. lia.
Qed.
