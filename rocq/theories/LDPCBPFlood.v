(** The flooding schedule computes the messages of the textbook. *)
From Coq Require Import List Arith Lia Bool ZArith QArith Permutation.
From Verif Require Import Base WLoops SparseModel SparseSpec SparseProofs LDPCModel LDPCSpec LDPCProps LDPCBPModel LDPCBPSpec LDPCBPProofs LDPCBPGraph.
Import ListNotations.
Local Open Scope nat_scope.

(* ------------------------------------------------------------------ *)
(** * Streaks of valid syndromes *)

(** [cur] iterations up to [t], and no more, have a valid syndrome. *)
Definition streak (cd : nat -> Prop) (cur t : nat) : Prop :=
  cur <= t /\ (forall j, j < cur -> cd (t - j)) /\ (cur = t \/ ~ cd (t - cur)).

Lemma streak_step : forall cd d cur t (b : bool), 0 < d -> cur < d -> streak cd cur t -> (b = true <-> cd (S t)) ->
  let cur' := if b then (cur + 1) mod d else 0 in
  cur' < d /\ (b && (cur' =? 0) = true -> cur' = 0 /\ stop cd d (S t)) /\ (b && (cur' =? 0) = false -> ~ stop cd d (S t) /\ streak cd cur' (S t)).
Proof.
  intros cd d cur t b Hd Hc (LE & AL & LA) B cur'. destruct b; cbn [andb] in *; unfold cur'; clear cur'.
  - split; [apply Nat.mod_upper_bound; lia|]. destruct (Nat.eq_dec (cur + 1) d) as [E|E].
    + rewrite E, Nat.mod_same by lia. cbn [Nat.eqb]. split; [|discriminate]. intros _. split; auto. split; [lia|]. intros j Hj. destruct j; [rewrite Nat.sub_0_r; apply B; auto|].
      replace (S t - S j) with (t - j) by lia. apply AL. lia.
    + rewrite Nat.mod_small by lia. replace (cur + 1 =? 0) with false by (symmetry; apply Nat.eqb_neq; lia). split; [discriminate|]. intros _. split.
      * intros (L & A). destruct LA as [->|NA]; [lia|]. apply NA. specialize (A (S cur) ltac:(lia)). replace (S t - S cur) with (t - cur) in A by lia. auto.
      * split; [lia|]. split.
        { intros j Hj. destruct j; [rewrite Nat.sub_0_r; apply B; auto|]. replace (S t - S j) with (t - j) by lia. apply AL. lia. }
        { destruct LA as [->|NA]; [left; lia|right]. replace (S t - (cur + 1)) with (t - cur) by lia. auto. }
  - split; [lia|]. split; [discriminate|]. intros _. assert (NC : ~ cd (S t)) by (intros C; apply B in C; discriminate). split.
    + intros (L & A). apply NC. specialize (A 0 Hd). rewrite Nat.sub_0_r in A. auto.
    + split; [lia|]. split; [intros; lia|]. right. rewrite Nat.sub_0_r. auto.
Qed.

Lemma in_code_ext : forall N M h x y, (forall v, v < N -> x v = y v) -> (in_code N M h x <-> in_code N M h y).
Proof.
  intros N M h x y E. unfold in_code, parity. assert (K : forall c, map (fun v => h v c && x v) (seq 0 N) = map (fun v => h v c && y v) (seq 0 N)).
  { intros c. apply map_ext_in. intros v I. apply in_seq in I. rewrite E by lia. auto. }
  split; intros A c Hc; [rewrite <- K|rewrite K]; auto.
Qed.

Lemma check_step : forall b N M h Y cd cur t, sp_ok (bp_H b) N M h -> N <= length Y -> 0 < bp_depth b -> cur < bp_depth b -> bp_synd b = true -> streak cd cur t ->
  (cd (S t) <-> in_code N M h (fun v => neg (nth v Y 0%Q))) ->
  exists stopped cur', check_syndrome_soft b Y cur = Ret (stopped, cur') /\ cur' < bp_depth b /\
    (stopped = true -> cur' = 0 /\ stop cd (bp_depth b) (S t)) /\ (stopped = false -> ~ stop cd (bp_depth b) (S t) /\ streak cd cur' (S t)).
Proof.
  intros b N M h Y cd cur t OK LY Hd Hc SY ST CD. unfold check_syndrome_soft. rewrite SY.
  destruct (C34_soft Q 0%Q neg (bp_H b) N M h Y) as (syn & -> & B); [apply sp_is_ok; auto|auto|]. cbn [bind].
  assert (B' : syn = true <-> cd (S t)) by (rewrite CD; auto).
  destruct (streak_step cd (bp_depth b) cur t syn Hd Hc ST B') as (A1 & A2 & A3). eexists. eexists. split; [reflexivity|]. auto.
Qed.

(* ------------------------------------------------------------------ *)

Lemma removed_map : forall A B (f : A -> B) i l, removed i (map f l) = map f (removed i l).
Proof. intros. unfold removed. rewrite map_app, firstn_map, skipn_map. auto. Qed.

Lemma removed_others : forall j l l', NoDup l -> Permutation l l' -> j < length l -> Permutation (removed j l) (others (nth j l 0) l').
Proof.
  intros j l l' ND P Hj. assert (R := removed_perm _ 0 l j Hj). assert (ND' : NoDup (nth j l 0 :: removed j l)) by (eapply Permutation_NoDup; eauto).
  inversion ND'; subst. apply NoDup_Permutation; auto.
  - apply NoDup_filter. eapply Permutation_NoDup; eauto.
  - intros w. unfold others. rewrite filter_In, negb_true_iff, Nat.eqb_neq. split.
    + intros I. split; [|intros ->; auto]. apply (Permutation_in _ P). apply (Permutation_in _ (Permutation_sym R)). right. auto.
    + intros [I NE]. apply (Permutation_in _ (Permutation_sym P)) in I. apply (Permutation_in _ R) in I. destruct I as [E|I]; auto. congruence.
Qed.

Lemma Forall2_map2 : forall A (R : A -> A -> Prop) (B : Type) (f g : B -> A) l, (forall x, In x l -> R (f x) (g x)) -> Forall2 R (map f l) (map g l).
Proof. intros A R B f g l. induction l; intros F; cbn [map]; constructor; [apply F; left; auto|apply IHl; intros; apply F; right; auto]. Qed.

Section Flood.
Variables (H : sparse) (N M : nat) (h : nat -> nat -> bool) (rnd : Q -> Q) (chk : list Q -> Q) (r : rule) (T : list nat) (Yl : list Q).
Hypothesis OK : sp_ok H N M h.
Hypothesis RP : forall x y, (x == y)%Q -> (rnd x == rnd y)%Q.
Hypothesis SYM : symmetric chk.
Hypothesis RC : computes r chk.
Hypothesis TB : edges_of H M h T.
Hypothesis LY : N <= length Yl.

Let Y := fun v => nth v Yl 0%Q.
Let edge c v := c < M /\ v < N /\ h v c = true.

Definition holdsE (a : list Q) (mu : nat -> nat -> Q) : Prop :=
  length a = sp_n H /\ forall c v, c < M -> v < N -> h v c = true -> (nth (pos H h c v) a 0 == mu c v)%Q.

Lemma rsum_snoc : forall l x, rsum rnd (l ++ [x]) = rnd (rsum rnd l + x)%Q.
Proof. intros. unfold rsum. rewrite fold_left_app. reflexivity. Qed.

Lemma sum_ok : forall c2v mu v, holdsE c2v mu -> v < N ->
  exists s, for_ (rank (h v) M) (fun c s => x <- rd c2v (offr H v + c) ;; Ret (qadd rnd s x)) 0%Q = Ret s /\ (s == rsum rnd (map (fun c => mu c v) (checks_of M h v)))%Q.
Proof.
  intros c2v mu v (LC & HE) Hv. set (L := map (fun c => mu c v) (checks_of M h v)). assert (LL : length L = rank (h v) M) by (unfold L; rewrite map_length; auto).
  match goal with |- context [for_ ?n ?bb ?ss] => destruct (for_inv _ (fun k s => (s == rsum rnd (firstn k L))%Q) n bb ss) as (s' & E & I) end.
  - reflexivity.
  - intros k s Hk I. destruct (pos_row H N M h v k Hv Hk) as (A & B & C). rewrite C. rewrite (rd_ok _ 0%Q) by (rewrite LC; eapply pos_lt; eauto). cbn [bind]. eexists. split; [reflexivity|].
    rewrite (firstn_snoc _ 0%Q) by lia. rewrite rsum_snoc. unfold qadd. apply RP. rewrite I. rewrite HE by auto.
    unfold L. rewrite (nth_indep _ 0%Q ((fun c => mu c v) 0)) by (rewrite map_length; auto). rewrite (map_nth (fun c => mu c v)). reflexivity.
  - exists s'. split; auto. rewrite I, <- LL, firstn_all. reflexivity.
Qed.

Lemma init_ok : forall c2v v2c mu, holdsE c2v mu -> length v2c = sp_n H ->
  exists v2c', fl_init rnd H Yl c2v v2c = Ret v2c' /\ holdsE v2c' (fun c v => to_check M h rnd Y mu v c).
Proof.
  intros c2v v2c mu HC LV. assert (HC' := HC). destruct HC' as (LC & HE). unfold fl_init. rewrite (rows_N _ _ _ _ OK).
  match goal with |- context [for_ N ?bb ?ss] => destruct (for_inv _ (fun i '(p, v2c) => p = offr H i /\ length v2c = sp_n H /\
     forall c v, c < M -> v < i -> h v c = true -> (nth (pos H h c v) v2c 0 == to_check M h rnd Y mu v c)%Q) N bb ss) as ([p a] & E & I) end.
  - cbv beta iota. split; [reflexivity|]. split; [auto|]. intros; lia.
  - intros v [p a] Hv (-> & LA & I). rewrite (row_rd _ _ _ _ OK v Hv). cbn [bind]. rewrite (row_deg_rank _ _ _ _ OK v Hv).
    destruct (sum_ok c2v mu v HC Hv) as (s & -> & ES). cbn [bind]. rewrite (rd_ok _ 0%Q) by lia. cbn [bind].
    match goal with |- context [for_ ?n ?bb a] => destruct (for_inv _ (fun k b' => length b' = sp_n H /\
       (forall c w, c < M -> w < v -> h w c = true -> (nth (pos H h c w) b' 0 == to_check M h rnd Y mu w c)%Q) /\
       (forall c, c < M -> h v c = true -> rank (h v) c < k -> (nth (pos H h c v) b' 0 == to_check M h rnd Y mu v c)%Q)) n bb a) as (a' & E & LA' & I1 & I2) end.
    + split; auto. split; auto. intros; lia.
    + intros k b' Hk (LB & J1 & J2). destruct (pos_row H N M h v k Hv Hk) as (A & B & C). set (c0 := nth k (checks_of M h v) 0) in *.
      assert (PL := pos_lt H N M h OK c0 v A Hv B). rewrite C. rewrite (rd_ok _ 0%Q) by lia. cbn [bind]. rewrite wr_ok by lia. eexists. split; [reflexivity|]. rewrite length_upd. split; auto. split.
      * intros c w Hc Hw Hh. rewrite nth_upd by lia. destruct (Nat.eqb_spec (pos H h c w) (pos H h c0 v)) as [EQ|NE]; [|auto].
        apply (pos_inj H N M h OK) in EQ; auto; lia.
      * intros c Hc Hh Hr. rewrite nth_upd by lia. destruct (Nat.eqb_spec (pos H h c v) (pos H h c0 v)) as [EQ|NE].
        { apply (pos_inj H N M h OK) in EQ; auto. destruct EQ as [-> _]. unfold to_check, posterior, qsub, qadd. apply RP.
          assert (EP : (rnd (nth v Yl 0 + s) == rnd (Y v + rsum rnd (map (fun c => mu c v) (checks_of M h v))))%Q). { apply RP. rewrite ES. reflexivity. }
          rewrite EP. rewrite (HE c0 v) by auto. reflexivity. }
        { apply J2; auto. assert (rank (h v) c <> k). { intros EQ. apply NE. unfold pos. rewrite EQ. unfold pos in C. lia. } lia. }
    + rewrite E. cbn [bind]. eexists. split; [reflexivity|]. split; [rewrite (offr_S _ _ _ _ OK) by auto; auto|]. split; auto.
      intros c w Hc Hw Hh. destruct (Nat.eq_dec w v) as [->|]; [|apply I1; auto; lia]. apply I2; auto. apply rank_lt; auto.
  - rewrite E. cbn [bind]. destruct I as (_ & LA & I). exists a. split; auto. split; auto.
Qed.

Lemma post_ok : forall c2v post mu, holdsE c2v mu -> length post = N ->
  exists post', fl_compute_post rnd H Yl c2v post = Ret post' /\ length post' = N /\ forall v, v < N -> (nth v post' 0 == posterior M h rnd Y mu v)%Q.
Proof.
  intros c2v post mu HC LP. unfold fl_compute_post. rewrite (rows_N _ _ _ _ OK).
  match goal with |- context [for_ N ?bb ?ss] => destruct (for_inv _ (fun i '(p, a) => p = offr H i /\ length a = N /\
     forall v, v < i -> (nth v a 0 == posterior M h rnd Y mu v)%Q) N bb ss) as ([p a] & E & I) end.
  - cbv beta iota. split; [reflexivity|]. split; [auto|]. intros; lia.
  - intros v [p a] Hv (-> & LA & I). rewrite (row_rd _ _ _ _ OK v Hv). cbn [bind]. rewrite (row_deg_rank _ _ _ _ OK v Hv).
    destruct (sum_ok c2v mu v HC Hv) as (s & -> & ES). cbn [bind]. rewrite (rd_ok _ 0%Q) by lia. cbn [bind]. rewrite wr_ok by lia. cbn [bind]. eexists. split; [reflexivity|].
    split; [rewrite (offr_S _ _ _ _ OK) by auto; auto|]. rewrite length_upd. split; auto. intros w Hw. rewrite nth_upd by lia. destruct (Nat.eqb_spec w v) as [->|]; [|apply I; lia].
    unfold qadd, posterior. apply RP. rewrite ES. reflexivity.
  - rewrite E. cbn [bind]. destruct I as (_ & LA & I). exists a. auto.
Qed.

(** One check node: the messages it receives and what it sends. *)
Lemma check_node : forall c (val : nat -> Q) (nu : nat -> Q), c < M -> (forall v, v < N -> h v c = true -> (val v == nu v)%Q) ->
  exists u, node r (map val (col H c)) = Ret u /\ forall j, j < length (col H c) ->
    exists y, r_out r j (val (nth j (col H c) 0%nat)) u = Ret y /\ (y == chk (map nu (others (nth j (col H c) 0%nat) (vars_of N h c))))%Q.
Proof.
  intros c val nu Hc E. destruct (RC (map val (col H c))) as (u & Eu & O). exists u. split; auto. intros j Hj.
  destruct (O j) as (y & Ey & Q); [rewrite map_length; auto|]. exists y. split.
  - rewrite <- Ey. f_equal. rewrite (nth_indep _ 0%Q (val 0)) by (rewrite map_length; auto). rewrite (map_nth val). auto.
  - rewrite Q. rewrite removed_map. apply (SYM _ _ (map val (others (nth j (col H c) 0%nat) (vars_of N h c)))).
    + apply Permutation_map. apply removed_others; auto; [eapply col_nodup; eauto|eapply col_perm; eauto].
    + apply Forall2_map2. intros w I. unfold others, vars_of in I. rewrite !filter_In, in_seq in I. apply E; [lia|tauto].
Qed.

Lemma ite_ok : forall v2c c2v nu, holdsE v2c (fun c v => nu v c) -> length c2v = sp_n H ->
  exists c2v', fl_ite r H T v2c c2v = Ret c2v' /\ holdsE c2v' (to_var N h chk nu).
Proof.
  intros v2c c2v nu (LV & HE) LC. destruct TB as (LT & TE). unfold fl_ite. rewrite (cols_M _ _ _ _ OK).
  match goal with |- context [for_ M ?bb ?ss] => destruct (for_inv _ (fun i '(p, a) => p = offc H i /\ length a = sp_n H /\
     forall c v, c < i -> v < N -> h v c = true -> (nth (pos H h c v) a 0 == to_var N h chk nu c v)%Q) M bb ss) as ([p a] & E & I) end.
  - cbv beta iota. split; [reflexivity|]. split; [auto|]. intros; lia.
  - intros c [p a] Hc (-> & LA & I). rewrite (col_rd _ _ _ _ OK c Hc). cbn [bind].
    set (val := fun v => nth (pos H h c v) v2c 0%Q).
    destruct (check_node c val (fun v => nu v c) Hc) as (u & Eu & OU). { intros v Hv Hh. unfold val. apply HE; auto. }
    assert (RDT : forall j, j < length (col H c) -> rd T (offc H c + j) = Ret (pos H h c (nth j (col H c) 0%nat)) /\ rd v2c (pos H h c (nth j (col H c) 0%nat)) = Ret (val (nth j (col H c) 0%nat))).
    { intros j Hj. destruct (col_nth _ _ _ _ OK c j Hc Hj) as [Hv Hh]. split.
      - rewrite (rd_ok _ 0) by (rewrite LT; apply (cell_lt _ _ _ _ OK); auto). rewrite TE by auto. auto.
      - apply rd_ok. rewrite LV. eapply pos_lt; eauto. }
    assert (EN : for_ (length (col H c)) (fun v u => t <- rd T (offc H c + v) ;; x <- rd v2c t ;; r_in r v x u) (r_begin r (length (col H c))) =
                 for_ (length (map val (col H c))) (fun v u => r_in r v (nth v (map val (col H c)) 0%Q) u) (r_begin r (length (map val (col H c))))).
    { rewrite map_length. apply for_ext. intros j u' Hj. destruct (RDT j Hj) as [-> R2]. cbn [bind]. rewrite R2. cbn [bind].
      rewrite (nth_indep (map val _) 0%Q (val 0)) by (rewrite map_length; auto). rewrite (map_nth val). auto. }
    rewrite EN. unfold node in Eu. apply bind_inv in Eu. destruct Eu as (u0 & Eu0 & Eu). rewrite Eu0. cbn [bind]. rewrite Eu. cbn [bind].
    match goal with |- context [for_ ?n ?bb a] => destruct (for_inv _ (fun k b' => length b' = sp_n H /\
       (forall c' v, c' < c -> v < N -> h v c' = true -> (nth (pos H h c' v) b' 0 == to_var N h chk nu c' v)%Q) /\
       (forall j, j < k -> (nth (pos H h c (nth j (col H c) 0%nat)) b' 0 == to_var N h chk nu c (nth j (col H c) 0%nat))%Q)) n bb a) as (a' & E & LA' & I1 & I2) end.
    + split; auto. split; auto. intros; lia.
    + intros j b' Hj (LB & J1 & J2). destruct (RDT j Hj) as [-> R2]. cbn [bind]. rewrite R2. cbn [bind]. destruct (OU j Hj) as (y & -> & EY). cbn [bind].
      destruct (col_nth _ _ _ _ OK c j Hc Hj) as [Hv Hh]. set (v0 := nth j (col H c) 0%nat) in *. assert (PL := pos_lt H N M h OK c v0 Hc Hv Hh).
      rewrite wr_ok by lia. eexists. split; [reflexivity|]. rewrite length_upd. split; auto. split.
      * intros c' v Hc' Hv' Hh'. rewrite nth_upd by lia. destruct (Nat.eqb_spec (pos H h c' v) (pos H h c v0)) as [EQ|NE]; [|auto].
        apply (pos_inj H N M h OK) in EQ; auto; lia.
      * intros j' Hj'. rewrite nth_upd by lia. destruct (Nat.eqb_spec (pos H h c (nth j' (col H c) 0%nat)) (pos H h c v0)) as [EQ|NE].
        { assert (Hj'' : j' < length (col H c)) by lia. destruct (col_nth _ _ _ _ OK c j' Hc Hj'') as [Hv' Hh']. apply (pos_inj H N M h OK) in EQ; auto. destruct EQ as [_ ->]. auto. }
        { apply J2. assert (j' <> j); [|lia]. intros ->. apply NE. auto. }
    + rewrite E. cbn [bind]. eexists. split; [reflexivity|]. split; [rewrite (offc_S _ _ _ _ OK) by auto; auto|]. split; auto.
      intros c' v Hc' Hv Hh. destruct (Nat.eq_dec c' c) as [->|]; [|apply I1; auto; lia]. destruct (col_idx _ _ _ _ OK c v Hc Hv Hh) as (j & Hj & <-). auto.
  - rewrite E. cbn [bind]. destruct I as (_ & LA & I). exists a. split; auto. split; auto.
Qed.

Definition at_flood (t : nat) (s : fl_st) : Prop :=
  holdsE (fl_c2v s) (messages N M h rnd chk Y t) /\ length (fl_v2c s) = sp_n H /\ length (fl_post s) = N.
Definition code_flood (t : nat) : Prop := in_code N M h (fun v => negative (flooding N M h rnd chk Y t v)).

Lemma holdsE_ext : forall a mu mu', (forall c v, mu c v = mu' c v) -> holdsE a mu -> holdsE a mu'.
Proof. intros a mu mu' E (L & A). split; auto. intros. rewrite <- E. auto. Qed.

Lemma round_ok : forall t s, at_flood t s ->
  exists v2c c2v, fl_init rnd H Yl (fl_c2v s) (fl_v2c s) = Ret v2c /\ fl_ite r H T v2c (fl_c2v s) = Ret c2v /\
    holdsE c2v (messages N M h rnd chk Y (S t)) /\ length v2c = sp_n H.
Proof.
  intros t s (HE & LV & LP). destruct (init_ok _ _ _ HE LV) as (v2c & E1 & H1). assert (H1' := H1). destruct H1' as [L1 _].
  destruct (ite_ok v2c (fl_c2v s) (to_check M h rnd Y (messages N M h rnd chk Y t)) H1) as (c2v & E2 & H2). { apply HE. }
  exists v2c, c2v. auto.
Qed.

Variable b : bp.
Hypothesis BH : bp_H b = H.
Hypothesis BN : bp_N b = N.
Hypothesis BI : 0 < bp_ite b.
Hypothesis BD : 0 < bp_depth b.

Lemma loop_ok : forall cnt t s valid, at_flood t s -> t + cnt = bp_ite b -> fl_cur s < bp_depth b -> streak code_flood (fl_cur s) t ->
  exists s' valid' fin t', fl_loop rnd r b T Yl t cnt s valid = Ret (s', valid', fin) /\ at_flood t' s' /\ fl_cur s' < bp_depth b /\ t <= t' <= bp_ite b /\
    (fin = true -> t' = bp_ite b /\ valid' = (if bp_synd b && (t <? bp_ite b - 1) then false else valid) /\
                   (bp_synd b = true -> forall k, t < k < bp_ite b -> ~ stop code_flood (bp_depth b) k)) /\
    (fin = false -> t < t' < bp_ite b /\ valid' = true /\ bp_synd b = true /\ stop code_flood (bp_depth b) t' /\ fl_cur s' = 0 /\
                   (forall k, t < k < t' -> ~ stop code_flood (bp_depth b) k) /\
                   (forall v, v < N -> (nth v (fl_post s') 0 == flooding N M h rnd chk Y t' v)%Q)).
Proof.
  induction cnt; intros t s valid AT EQ CU ST.
  - cbn [fl_loop]. exists s, valid, true, t. split; auto. split; auto. split; auto. split; [lia|]. split; [|discriminate]. intros _. split; [lia|]. split.
    + replace (t <? bp_ite b - 1) with false by (symmetry; apply Nat.ltb_ge; lia). rewrite andb_false_r. auto.
    + intros. lia.
  - cbn [fl_loop]. rewrite BH. destruct (round_ok t s AT) as (v2c & c2v & E1 & E2 & HE & LV). rewrite E1. cbn [bind]. rewrite E2. cbn [bind].
    destruct AT as (_ & _ & LP).
    destruct (bp_synd b && negb (t =? bp_ite b - 1)) eqn:C.
    + apply andb_true_iff in C. destruct C as [SY NL]. apply negb_true_iff, Nat.eqb_neq in NL.
      destruct (post_ok c2v (fl_post s) _ HE LP) as (post & E3 & LP' & PO). rewrite E3. cbn [bind].
      destruct (check_step b N M h post code_flood (fl_cur s) t) as (stopped & cur' & E4 & CU' & S1 & S2); auto; try lia.
      { rewrite BH. auto. }
      { unfold code_flood. apply in_code_ext. intros v Hv. rewrite <- neg_spec. apply neg_ext. unfold flooding. symmetry. auto. }
      rewrite E4. cbn [bind]. destruct stopped.
      * destruct (S1 eq_refl) as [-> SP]. exists (mkFL c2v v2c post 0), true, false, (S t). split; auto. split; [split; auto|]. split; auto. split; [lia|]. split; [discriminate|].
        intros _. split; [lia|]. split; auto. split; auto. split; auto. split; auto. split; [intros; lia|]. intros v Hv. cbn [fl_post]. apply PO. auto.
      * destruct (S2 eq_refl) as [NS ST']. destruct (IHcnt (S t) (mkFL c2v v2c post cur') false) as (s' & valid' & fin & t' & EL & AT' & CUR & RG & F1 & F2); auto.
        { split; auto. } { lia. }
        exists s', valid', fin, t'. split; auto. split; auto. split; auto. split; [lia|]. split.
        { intros F. destruct (F1 F) as (A1 & A2 & A3). split; auto. split.
          - rewrite A2. rewrite SY. cbn [andb]. replace (t <? bp_ite b - 1) with true by (symmetry; apply Nat.ltb_lt; lia). destruct (S t <? bp_ite b - 1); auto.
          - intros _ k Hk. destruct (Nat.eq_dec k (S t)) as [->|]; auto. apply A3; auto. lia. }
        { intros F. destruct (F2 F) as (A1 & A2 & A3 & A4 & A5 & A6 & A7). split; [lia|]. split; auto. split; auto. split; auto. split; auto. split; auto.
          intros k Hk. destruct (Nat.eq_dec k (S t)) as [->|]; auto. apply A6. lia. }
    + destruct (bp_synd b) eqn:SY; cbn [andb] in C.
      * apply negb_false_iff, Nat.eqb_eq in C. assert (cnt = 0) by lia. subst cnt. cbn [fl_loop].
        exists (mkFL c2v v2c (fl_post s) (fl_cur s)), valid, true, (S t). split; auto. split; [split; auto|]. split; auto. split; [lia|]. split; [|discriminate]. intros _. split; [lia|]. split.
        { cbn [andb]. replace (t <? bp_ite b - 1) with false by (symmetry; apply Nat.ltb_ge; lia). auto. }
        { intros _ k Hk. lia. }
      * (* no syndrome: the streak is irrelevant *)
        clear ST. assert (G : forall cnt t s, at_flood t s -> t + cnt = bp_ite b -> fl_cur s < bp_depth b -> exists s', fl_loop rnd r b T Yl t cnt s valid = Ret (s', valid, true) /\ at_flood (bp_ite b) s' /\ fl_cur s' < bp_depth b).
        { clear IHcnt t s EQ CU E1 E2 HE LV LP v2c c2v C cnt. induction cnt; intros t s AT EQ CU.
          - cbn [fl_loop]. exists s. replace (bp_ite b) with t by lia. auto.
          - cbn [fl_loop]. rewrite BH, SY. destruct (round_ok t s AT) as (v2c & c2v & E1 & E2 & HE & LV). rewrite E1. cbn [bind]. rewrite E2. cbn [bind andb]. apply IHcnt; auto; [|lia]. split; auto. split; auto. apply AT. }
        destruct (G cnt (S t) (mkFL c2v v2c (fl_post s) (fl_cur s))) as (s' & EL & AT' & CUR); auto; [split; auto|lia|].
        exists s', valid, true, (bp_ite b). split; auto. split; auto. split; auto. split; [lia|]. split; [|discriminate]. intros _. split; auto. split; auto. discriminate.
Qed.

Lemma decode_ok : forall s, at_flood 0 s -> fl_cur s = 0 ->
  exists s' status t, fl_decode rnd r b T Yl s = Ret (s', status) /\ at_flood t s' /\ fl_cur s' < bp_depth b /\ 1 <= t <= bp_ite b /\
    (forall v, v < N -> (nth v (fl_post s') 0 == flooding N M h rnd chk Y t v)%Q) /\
    (bp_synd b = true -> forall k, 1 <= k < t -> ~ stop code_flood (bp_depth b) k) /\
    (t < bp_ite b -> bp_synd b = true /\ stop code_flood (bp_depth b) t /\ status = false) /\
    (t = bp_ite b -> status = bp_synd b && (1 <? bp_ite b)).
Proof.
  intros s AT CU. unfold fl_decode.
  destruct (loop_ok (bp_ite b) 0 s true AT eq_refl ltac:(lia)) as (s' & valid & fin & t & E & AT' & CU' & RG & F1 & F2). { rewrite CU. split; [lia|]. split; [intros; lia|left; auto]. }
  rewrite E. cbn [bind]. destruct fin.
  - destruct (F1 eq_refl) as (A1 & A2 & A3). rewrite BH. destruct AT' as (HE & LV & LP). destruct (post_ok (fl_c2v s') (fl_post s') _ HE LP) as (post & E3 & LP' & PO). rewrite E3. cbn [bind].
    exists (mkFL (fl_c2v s') (fl_v2c s') post (fl_cur s')), (negb valid), t. split; auto. split; [split; auto|]. split; auto. split; [lia|]. split; [apply PO|]. split; [intros SY k Hk; apply A3; auto; lia|]. split; [intros; lia|].
    intros _. rewrite A2. destruct (bp_synd b); cbn [andb]; auto. destruct (0 <? bp_ite b - 1) eqn:L; destruct (1 <? bp_ite b) eqn:L'; auto; rewrite ?Nat.ltb_lt, ?Nat.ltb_ge in *; lia.
  - destruct (F2 eq_refl) as (A1 & A2 & A3 & A4 & A5 & A6 & A7). subst valid. exists s', false, t. split; auto. split; auto. split; auto. split; [lia|]. split; auto. split; [intros _ k Hk; apply A6; lia|]. split; [auto|]. intros. lia.
Qed.

End Flood.
