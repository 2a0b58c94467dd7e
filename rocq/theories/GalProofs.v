(** The Gallager decoders compute the message passing of GalSpec.v. *)
From Coq Require Import List Arith Lia Bool ZArith Permutation.
From Verif Require Import Base WLoops SparseModel SparseSpec SparseProofs LDPCModel LDPCSpec LDPCProofs LDPCProps LDPCBPModel LDPCBPSpec LDPCBPProofs LDPCBPGraph LDPCBPFlood GalModel GalSpec.
Import ListNotations.
Local Open Scope nat_scope.

Lemma others_perm : forall x l, NoDup l -> In x l -> Permutation l (x :: others x l).
Proof.
  intros x l ND I. apply NoDup_Permutation; auto.
  - constructor; [|apply NoDup_filter; auto]. unfold others. rewrite filter_In, Nat.eqb_refl. intros [_ C]. discriminate.
  - intros y. unfold others. cbn [In]. rewrite filter_In, negb_true_iff, Nat.eqb_neq. split; [|intros [<-|[J _]]; auto].
    intros J. destruct (Nat.eq_dec x y); auto.
Qed.
Lemma sumz_perm : forall l l', Permutation l l' -> sumz l = sumz l'.
Proof. intros l l' P. unfold sumz. induction P; cbn [fold_right]; lia. Qed.
Lemma prodz_perm : forall l l', Permutation l l' -> prodz l = prodz l'.
Proof. intros l l' P. unfold prodz. induction P; cbn [fold_right]; try congruence. rewrite !Z.mul_assoc, (Z.mul_comm y x). auto. Qed.
Lemma sumz_snoc : forall l x, sumz (l ++ [x]) = (sumz l + x)%Z.
Proof. intros l x. unfold sumz. induction l; cbn [app fold_right] in *; lia. Qed.
Lemma prodz_snoc : forall l x, prodz (l ++ [x]) = (prodz l * x)%Z.
Proof. intros l x. unfold prodz. induction l; cbn [app fold_right]; [lia|]. rewrite IHl. lia. Qed.
Lemma sum2_snoc : forall l x, sum2 (l ++ [x]) = xorb (sum2 l) x.
Proof. intros l x. unfold sum2. induction l; cbn [app fold_right]; [destruct x; reflexivity|]. rewrite IHl, xorb_assoc. auto. Qed.
Lemma b2z_lxor : forall a b, Z.lxor (Z.b2z a) (Z.b2z b) = Z.b2z (xorb a b).
Proof. intros [] []; reflexivity. Qed.

Lemma check_step_hard : forall b N M h V cd cur t, sp_ok (bp_H b) N M h -> N <= length V -> 0 < bp_depth b -> cur < bp_depth b -> bp_synd b = true -> streak cd cur t ->
  (cd (S t) <-> in_code N M h (bit V)) ->
  exists stopped cur', check_syndrome_hard b V cur = Ret (stopped, cur') /\ cur' < bp_depth b /\
    (stopped = true -> cur' = 0 /\ stop cd (bp_depth b) (S t)) /\ (stopped = false -> ~ stop cd (bp_depth b) (S t) /\ streak cd cur' (S t)).
Proof.
  intros b N M h Y cd cur t OK LY Hd Hc SY ST CD. unfold check_syndrome_hard. rewrite SY.
  destruct (C34_hard (bp_H b) N M h Y) as (syn & -> & B); [apply sp_is_ok; auto|auto|]. cbn [bind].
  assert (B' : syn = true <-> cd (S t)) by (rewrite CD; auto).
  destruct (streak_step cd (bp_depth b) cur t syn Hd Hc ST B') as (A1 & A2 & A3). eexists. eexists. split; [reflexivity|]. auto.
Qed.

(* ------------------------------------------------------------------ *)
(** * Writing the messages of a variable, of a check *)
Section Writes.
Variables (H : sparse) (N M : nat) (h : nat -> nat -> bool).
Hypothesis OK : sp_ok H N M h.

Lemma checks_nodup : forall v, NoDup (checks_of M h v).
Proof. intros. apply NoDup_filter, seq_NoDup. Qed.
Lemma checks_in : forall v c, In c (checks_of M h v) <-> c < M /\ h v c = true.
Proof. intros. unfold checks_of. rewrite filter_In, in_seq. intuition lia. Qed.
Lemma vars_in : forall v c, In v (vars_of N h c) <-> v < N /\ h v c = true.
Proof. intros. unfold vars_of. rewrite filter_In, in_seq. intuition lia. Qed.
Lemma vars_nodup : forall c, NoDup (vars_of N h c).
Proof. intros. apply NoDup_filter, seq_NoDup. Qed.
Lemma checks_len : forall v, length (checks_of M h v) = rank (h v) M.
Proof. reflexivity. Qed.

Lemma row_writes : forall (nu : nat -> nat -> Z) v (body : nat -> list Z -> outcome (list Z)) a, v < N -> length a = sp_n H ->
  (forall k x, k < rank (h v) M -> length x = sp_n H -> body k x = wr x (offr H v + k) (nu v (nth k (checks_of M h v) 0))) ->
  exists a', for_ (rank (h v) M) body a = Ret a' /\ length a' = sp_n H /\
    (forall c, c < M -> h v c = true -> nth (pos H h c v) a' 0%Z = nu v c) /\
    (forall c w, c < M -> w < N -> h w c = true -> w <> v -> nth (pos H h c w) a' 0%Z = nth (pos H h c w) a 0%Z).
Proof.
  intros nu v body a Hv LA EB.
  destruct (for_inv _ (fun k b' => length b' = sp_n H /\
       (forall c w, c < M -> w < N -> h w c = true -> w <> v -> nth (pos H h c w) b' 0%Z = nth (pos H h c w) a 0%Z) /\
       (forall c, c < M -> h v c = true -> rank (h v) c < k -> nth (pos H h c v) b' 0%Z = nu v c)) (rank (h v) M) body a) as (a' & E & LA' & I1 & I2).
  - split; auto. split; auto. intros; lia.
  - intros k b' Hk (LB & J1 & J2). rewrite EB by auto. destruct (pos_row H N M h v k Hv Hk) as (A & B & C). set (c0 := nth k (checks_of M h v) 0) in *.
    assert (PL := pos_lt H N M h OK c0 v A Hv B). rewrite C. rewrite wr_ok by lia. eexists. split; [reflexivity|]. rewrite length_upd. split; auto. split.
    + intros c w Hc Hw Hh NW. rewrite nth_upd by lia. destruct (Nat.eqb_spec (pos H h c w) (pos H h c0 v)) as [EQ|NE]; [|auto].
      apply (pos_inj H N M h OK) in EQ; auto; lia.
    + intros c Hc Hh Hr. rewrite nth_upd by lia. destruct (Nat.eqb_spec (pos H h c v) (pos H h c0 v)) as [EQ|NE].
      { apply (pos_inj H N M h OK) in EQ; auto. destruct EQ as [-> _]. auto. }
      { apply J2; auto. assert (rank (h v) c <> k). { intros EQ. apply NE. unfold pos. rewrite EQ. unfold pos in C. lia. } lia. }
  - exists a'. split; auto. split; auto. split; auto. intros c Hc Hh. apply I2; auto. apply rank_lt; auto.
Qed.

Lemma col_writes : forall (mu : nat -> nat -> Z) c (body : nat -> list Z -> outcome (list Z)) a, c < M -> length a = sp_n H ->
  (forall j x, j < length (col H c) -> length x = sp_n H -> body j x = wr x (pos H h c (nth j (col H c) 0)) (mu c (nth j (col H c) 0))) ->
  exists a', for_ (length (col H c)) body a = Ret a' /\ length a' = sp_n H /\
    (forall v, v < N -> h v c = true -> nth (pos H h c v) a' 0%Z = mu c v) /\
    (forall d w, d < M -> w < N -> h w d = true -> d <> c -> nth (pos H h d w) a' 0%Z = nth (pos H h d w) a 0%Z).
Proof.
  intros mu c body a Hc LA EB.
  destruct (for_inv _ (fun k b' => length b' = sp_n H /\
       (forall d w, d < M -> w < N -> h w d = true -> d <> c -> nth (pos H h d w) b' 0%Z = nth (pos H h d w) a 0%Z) /\
       (forall j, j < k -> nth (pos H h c (nth j (col H c) 0)) b' 0%Z = mu c (nth j (col H c) 0))) (length (col H c)) body a) as (a' & E & LA' & I1 & I2).
  - split; auto. split; auto. intros; lia.
  - intros j b' Hj (LB & J1 & J2). rewrite EB by auto. destruct (col_nth _ _ _ _ OK c j Hc Hj) as [Hv Hh]. set (v0 := nth j (col H c) 0) in *.
    assert (PL := pos_lt H N M h OK c v0 Hc Hv Hh). rewrite wr_ok by lia. eexists. split; [reflexivity|]. rewrite length_upd. split; auto. split.
    + intros d w Hd Hw Hh' ND. rewrite nth_upd by lia. destruct (Nat.eqb_spec (pos H h d w) (pos H h c v0)) as [EQ|NE]; [|auto].
      apply (pos_inj H N M h OK) in EQ; auto; lia.
    + intros j' Hj'. rewrite nth_upd by lia. destruct (Nat.eqb_spec (pos H h c (nth j' (col H c) 0)) (pos H h c v0)) as [EQ|NE].
      { assert (Hj'' : j' < length (col H c)) by lia. destruct (col_nth _ _ _ _ OK c j' Hc Hj'') as [Hv' Hh']. apply (pos_inj H N M h OK) in EQ; auto. destruct EQ as [_ ->]. auto. }
      { apply J2. assert (j' <> j); [|lia]. intros ->. apply NE. auto. }
  - exists a'. split; auto. split; auto. split; auto. intros v Hv Hh. destruct (col_idx _ _ _ _ OK c v Hc Hv Hh) as (j & Hj & <-). auto.
Qed.
End Writes.

(* ------------------------------------------------------------------ *)
Section Gal.
Variables (H : sparse) (N M : nat) (h : nat -> nat -> bool) (T : list nat) (A : Type) (enc : A -> Z).
Hypothesis OK : sp_ok H N M h.
Hypothesis TB : edges_of H M h T.

Definition holdsZ (a : list Z) (mu : nat -> nat -> A) : Prop :=
  length a = sp_n H /\ forall c v, c < M -> v < N -> h v c = true -> nth (pos H h c v) a 0%Z = enc (mu c v).

Lemma RDT : forall v2c c j, length v2c = sp_n H -> c < M -> j < length (col H c) ->
  rd T (offc H c + j) = Ret (pos H h c (nth j (col H c) 0%nat)) /\ rd v2c (pos H h c (nth j (col H c) 0%nat)) = Ret (nth (pos H h c (nth j (col H c) 0)) v2c 0%Z).
Proof.
  intros v2c c j LV Hc Hj. destruct TB as (LT & TE). destruct (col_nth _ _ _ _ OK c j Hc Hj) as [Hv Hh]. split.
  - rewrite (rd_ok _ 0) by (rewrite LT; apply (cell_lt _ _ _ _ OK); auto). rewrite TE by auto. auto.
  - apply rd_ok. rewrite LV. eapply pos_lt; eauto.
Qed.

Lemma sum_row : forall c2v mu v, holdsZ c2v mu -> v < N ->
  accumulate c2v (offr H v) (rank (h v) M) = Ret (sumz (map enc (map (fun c => mu c v) (checks_of M h v)))).
Proof.
  intros c2v mu v (LC & HE) Hv. unfold accumulate. rewrite map_map. set (L := map (fun c => enc (mu c v)) (checks_of M h v)).
  assert (LL : length L = rank (h v) M) by (unfold L; rewrite map_length; auto).
  match goal with |- for_ ?n ?bb ?ss = _ => destruct (for_inv _ (fun k s => s = sumz (firstn k L)) n bb ss) as (s' & E & I) end.
  - reflexivity.
  - intros k s Hk ->. destruct (pos_row H N M h v k Hv Hk) as (A0 & B & C). rewrite C. rewrite (rd_ok _ 0%Z) by (rewrite LC; eapply pos_lt; eauto). cbn [bind]. eexists. split; [reflexivity|].
    rewrite (firstn_snoc _ 0%Z) by lia. rewrite sumz_snoc. f_equal. rewrite HE by auto.
    unfold L. rewrite (nth_indep _ 0%Z ((fun c => enc (mu c v)) 0)) by (rewrite map_length; auto). rewrite (map_nth (fun c => enc (mu c v))). reflexivity.
  - rewrite E, I, <- LL, firstn_all. reflexivity.
Qed.

(** A loop over the checks that writes the messages of one check after the other. *)
Lemma checks_loop : forall (mu : nat -> nat -> A) (body : nat -> nat * list Z -> outcome (nat * list Z)) a, length a = sp_n H ->
  (forall c a, c < M -> length a = sp_n H -> exists a', body c (offc H c, a) = Ret (offc H c + length (col H c), a') /\ length a' = sp_n H /\
     (forall v, v < N -> h v c = true -> nth (pos H h c v) a' 0%Z = enc (mu c v)) /\
     (forall d w, d < M -> w < N -> h w d = true -> d <> c -> nth (pos H h d w) a' 0%Z = nth (pos H h d w) a 0%Z)) ->
  exists p a', for_ M body (0, a) = Ret (p, a') /\ holdsZ a' mu.
Proof.
  intros mu body a LA HB.
  destruct (for_inv _ (fun i '(p, a) => p = offc H i /\ length a = sp_n H /\
     forall c v, c < i -> v < N -> h v c = true -> nth (pos H h c v) a 0%Z = enc (mu c v)) M body (0, a)) as ([p a'] & E & I).
  - cbv beta iota. split; [reflexivity|]. split; [auto|]. intros; lia.
  - intros c [p a0] Hc (-> & LA0 & I). destruct (HB c a0 Hc LA0) as (a' & E & LA' & W1 & W2). rewrite E. eexists. split; [reflexivity|].
    split; [rewrite (offc_S _ _ _ _ OK) by auto; auto|]. split; auto. intros d v Hd Hv Hh. destruct (Nat.eq_dec d c) as [->|]; [auto|]. rewrite W2 by (auto; lia). apply I; auto; lia.
  - destruct I as (_ & LA' & I). exists p, a'. split; auto. split; auto.
Qed.

(** Values of the variables of a check, in the order of the column, and their combination. *)
Lemma fold_col : forall (f : Z -> Z -> Z) (F : list Z -> Z) (val : nat -> Z) l, (forall l x, F (l ++ [x]) = f (F l) x) ->
  for_ (length l) (fun j acc => Ret (f acc (val (nth j l 0)))) (F []) = Ret (F (map val l)).
Proof.
  intros f F val l FS.
  destruct (for_inv _ (fun k s => s = F (map val (firstn k l))) (length l) (fun j acc => Ret (f acc (val (nth j l 0)))) (F [])) as (s & E & I).
  - reflexivity.
  - intros k s Hk ->. eexists. split; [reflexivity|]. rewrite (firstn_snoc _ 0) by auto. rewrite map_app. cbn [map]. rewrite FS. auto.
  - rewrite E, I, firstn_all. auto.
Qed.

Variables (g : gal) (Yl : list Z) (Y : nat -> A) (var : nat -> A -> A -> list A -> A) (chk : list A -> A) (dec : A -> list A -> bool).
Hypothesis LY : N <= length Yl.
Hypothesis YE : forall v, v < N -> nth v Yl 0%Z = enc (Y v).
Hypothesis OUT : forall k y own os, 1 <= k -> g_out g k (S (length os)) (enc y) (enc own + sumz (map enc os))%Z (enc own) = enc (var k y own os).
Hypothesis CHK : forall v2c c2v nu, holdsZ v2c (fun c v => nu v c) -> length c2v = sp_n H ->
  exists c2v', g_chk g H T v2c c2v = Ret c2v' /\ holdsZ c2v' (to_vars A N h chk nu).
Hypothesis VOTE : forall v l, v < N -> g_vote g (length l) (enc (Y v)) (sumz (map enc l)) = Z.b2z (dec (Y v) l).

Let nu := sent A N M h Y var chk.
Let mu k := to_vars A N h chk (nu k).
Let dd := decision A N M h Y var chk dec.

Lemma init_gal : forall k c2v v2c, length v2c = sp_n H -> (k = 0 \/ (0 < k /\ holdsZ c2v (mu (k - 1)))) ->
  exists v2c', gal_init g H Yl c2v v2c k = Ret v2c' /\ holdsZ v2c' (fun c v => nu k v c).
Proof.
  intros k c2v v2c LV HC. unfold gal_init. rewrite (rows_N _ _ _ _ OK).
  match goal with |- context [for_ N ?bb ?ss] => destruct (for_inv _ (fun i '(p, v2c) => p = offr H i /\ length v2c = sp_n H /\
     forall c v, c < M -> v < i -> h v c = true -> nth (pos H h c v) v2c 0%Z = enc (nu k v c)) N bb ss) as ([p a] & E & I) end.
  - cbv beta iota. split; [reflexivity|]. split; [auto|]. intros; lia.
  - intros v [p a] Hv (-> & LA & I). rewrite (row_rd _ _ _ _ OK v Hv). cbn [bind]. rewrite (row_deg_rank _ _ _ _ OK v Hv). rewrite (rd_ok _ 0%Z) by lia. cbn [bind]. rewrite YE by auto.
    assert (STEP : exists a', (if k =? 0 then for_ (rank (h v) M) (fun c v2c => wr v2c (offr H v + c) (enc (Y v))) a
            else sum <- accumulate c2v (offr H v) (rank (h v) M) ;;
                 for_ (rank (h v) M) (fun c v2c => m <- rd c2v (offr H v + c) ;; wr v2c (offr H v + c) (g_out g k (rank (h v) M) (enc (Y v)) sum m)) a) = Ret a' /\
       length a' = sp_n H /\ (forall c, c < M -> h v c = true -> nth (pos H h c v) a' 0%Z = enc (nu k v c)) /\
       (forall c w, c < M -> w < N -> h w c = true -> w <> v -> nth (pos H h c w) a' 0%Z = nth (pos H h c w) a 0%Z)).
    { destruct HC as [->|(Hk & HC)].
      - cbn [Nat.eqb]. apply (row_writes H N M h OK (fun v c => enc (nu 0 v c))); auto.
      - destruct k as [|k]; [lia|]. cbn [Nat.eqb]. rewrite Nat.sub_succ, Nat.sub_0_r in HC. rewrite (sum_row _ _ _ HC Hv). cbn [bind].
        apply (row_writes H N M h OK (fun v c => enc (nu (S k) v c))); auto.
        intros j x Hj LX. destruct (pos_row H N M h v j Hv Hj) as (A0 & B & C). set (c0 := nth j (checks_of M h v) 0) in *. destruct HC as (LC & HE).
        rewrite C at 1. rewrite (rd_ok _ 0%Z) by (rewrite LC; eapply pos_lt; eauto). cbn [bind]. f_equal. rewrite HE by auto. unfold nu at 1. cbn [sent]. unfold to_checks. fold (nu k). fold (mu k). rewrite <- OUT by lia. fold nu. fold (mu k).
        assert (P : Permutation (checks_of M h v) (c0 :: others c0 (checks_of M h v))). { apply others_perm; [apply checks_nodup|]. apply checks_in. auto. }
        f_equal.
        + rewrite map_length. apply Permutation_length in P. rewrite checks_len in P. auto.
        + apply (Permutation_map (fun c => mu k c v)) in P. apply (Permutation_map enc) in P. apply sumz_perm in P. exact P. }
    destruct STEP as (a' & E & LA' & W1 & W2). rewrite E. cbn [bind]. eexists. split; [reflexivity|].
    split; [rewrite (offr_S _ _ _ _ OK) by auto; auto|]. split; auto. intros c w Hc Hw Hh. destruct (Nat.eq_dec w v) as [->|]; [auto|]. rewrite W2 by (auto; lia). apply I; auto; lia.
  - rewrite E. cbn [bind]. destruct I as (_ & LA & I). exists a. split; auto. split; auto.
Qed.

Lemma votes_gal : forall k c2v V, holdsZ c2v (mu k) -> length V = N ->
  exists V', gal_votes g H Yl c2v V = Ret V' /\ V' = tab N (fun v => Z.b2z (dd (S k) v)).
Proof.
  intros k c2v V HC LV. unfold gal_votes. rewrite (rows_N _ _ _ _ OK).
  match goal with |- context [for_ N ?bb ?ss] => destruct (for_inv _ (fun i '(p, a) => p = offr H i /\ length a = N /\
     forall v, v < i -> nth v a 0%Z = Z.b2z (dd (S k) v)) N bb ss) as ([p a] & E & I) end.
  - cbv beta iota. split; [reflexivity|]. split; [auto|]. intros; lia.
  - intros v [p a] Hv (-> & LA & I). rewrite (row_rd _ _ _ _ OK v Hv). cbn [bind]. rewrite (row_deg_rank _ _ _ _ OK v Hv). rewrite (rd_ok _ 0%Z) by lia. cbn [bind]. rewrite YE by auto.
    rewrite (sum_row _ _ _ HC Hv). cbn [bind]. rewrite wr_ok by lia. cbn [bind]. eexists. split; [reflexivity|].
    split; [rewrite (offr_S _ _ _ _ OK) by auto; auto|]. rewrite length_upd. split; auto. intros w Hw. rewrite nth_upd by lia. destruct (Nat.eqb_spec w v) as [->|]; [|apply I; lia].
    replace (rank (h v) M) with (length (map (fun c => mu k c v) (checks_of M h v))) by (rewrite map_length; auto).
    rewrite VOTE by auto. unfold dd, decision. rewrite Nat.sub_succ, Nat.sub_0_r. reflexivity.
  - rewrite E. cbn [bind]. destruct I as (_ & LA & I). exists a. split; auto. apply (list_eq_nth _ 0%Z); [rewrite length_tab; auto|]. intros v Hv. rewrite nth_tab by lia. apply I. lia.
Qed.

Definition at_gal (t : nat) (s : gal_st) : Prop :=
  length (ga_c2v s) = sp_n H /\ length (ga_v2c s) = sp_n H /\ length (ga_V s) = N /\ (0 < t -> holdsZ (ga_c2v s) (mu (t - 1))).
Definition code_gal (t : nat) : Prop := in_code N M h (dd t).

Lemma round_gal : forall t s, at_gal t s ->
  exists v2c c2v, gal_init g H Yl (ga_c2v s) (ga_v2c s) t = Ret v2c /\ g_chk g H T v2c (ga_c2v s) = Ret c2v /\ holdsZ c2v (mu t) /\ length v2c = sp_n H.
Proof.
  intros t s (LC & LV & LP & HE). destruct (init_gal t (ga_c2v s) (ga_v2c s) LV) as (v2c & E1 & H1). { destruct t; [auto|right; split; [lia|apply HE; lia]]. }
  destruct (CHK v2c (ga_c2v s) (nu t) H1 LC) as (c2v & E2 & H2). exists v2c, c2v. split; auto. split; auto. split; auto. apply H1.
Qed.

Lemma bit_tab : forall n (f : nat -> bool) v, v < n -> bit (tab n (fun v => Z.b2z (f v))) v = f v.
Proof. intros n f v Hv. unfold bit. rewrite nth_tab by auto. destruct (f v); auto. Qed.

Variable b : bp.
Hypothesis BH : bp_H b = H.
Hypothesis BN : bp_N b = N.
Hypothesis BI : 0 < bp_ite b.
Hypothesis BD : 0 < bp_depth b.

Lemma at_step : forall t c2v v2c V HY cur, holdsZ c2v (mu t) -> length v2c = sp_n H -> length V = N -> at_gal (S t) (mkGA HY V c2v v2c cur).
Proof. intros t c2v v2c V HY cur HC LV LP. split; [apply HC|]. split; auto. split; auto. intros _. rewrite Nat.sub_succ, Nat.sub_0_r. exact HC. Qed.

Lemma loop_gal : forall cnt t s valid, at_gal t s -> t + cnt = bp_ite b -> ga_cur s < bp_depth b -> streak code_gal (ga_cur s) t ->
  exists s' valid' fin t', gal_loop g b T Yl t cnt s valid = Ret (s', valid', fin) /\ at_gal t' s' /\ ga_HY s' = ga_HY s /\ ga_cur s' < bp_depth b /\ t <= t' <= bp_ite b /\
    (fin = true -> t' = bp_ite b /\ valid' = (if bp_synd b && (t <? bp_ite b - 1) then false else valid) /\
                   (bp_synd b = true -> forall k, t < k < bp_ite b -> ~ stop code_gal (bp_depth b) k)) /\
    (fin = false -> t < t' < bp_ite b /\ valid' = true /\ bp_synd b = true /\ stop code_gal (bp_depth b) t' /\ ga_cur s' = 0 /\
                   (forall k, t < k < t' -> ~ stop code_gal (bp_depth b) k) /\
                   ga_V s' = tab N (fun v => Z.b2z (dd t' v))).
Proof.
  induction cnt; intros t s valid AT EQ CU ST.
  - cbn [gal_loop]. exists s, valid, true, t. split; auto. split; auto. split; auto. split; auto. split; [lia|]. split; [|discriminate]. intros _. split; [lia|]. split.
    + replace (t <? bp_ite b - 1) with false by (symmetry; apply Nat.ltb_ge; lia). rewrite andb_false_r. auto.
    + intros. lia.
  - cbn [gal_loop]. rewrite BH. destruct (round_gal t s AT) as (v2c & c2v & E1 & E2 & HE & LV). rewrite E1. cbn [bind]. rewrite E2. cbn [bind].
    destruct AT as (_ & _ & LP & _).
    destruct (bp_synd b && negb (t =? bp_ite b - 1)) eqn:C.
    + apply andb_true_iff in C. destruct C as [SY NL]. apply negb_true_iff, Nat.eqb_neq in NL.
      destruct (votes_gal t c2v (ga_V s) HE LP) as (V & E3 & EV). rewrite E3. cbn [bind]. assert (LV' : length V = N) by (rewrite EV; apply length_tab).
      destruct (check_step_hard b N M h V code_gal (ga_cur s) t) as (stopped & cur' & E4 & CU' & S1 & S2); auto; try lia.
      { rewrite BH. auto. }
      { unfold code_gal. apply in_code_ext. intros v Hv. rewrite EV. symmetry. apply bit_tab. auto. }
      rewrite E4. cbn [bind]. destruct stopped.
      * destruct (S1 eq_refl) as [-> SP]. exists (mkGA (ga_HY s) V c2v v2c 0), true, false, (S t). split; auto. split; [apply at_step; auto|]. split; auto. split; auto. split; [lia|]. split; [discriminate|].
        intros _. split; [lia|]. split; auto. split; auto. split; auto. split; auto. split; [intros; lia|]. auto.
      * destruct (S2 eq_refl) as [NS ST']. destruct (IHcnt (S t) (mkGA (ga_HY s) V c2v v2c cur') false) as (s' & valid' & fin & t' & EL & AT' & HY' & CUR & RG & F1 & F2); auto.
        { apply at_step; auto. } { lia. }
        exists s', valid', fin, t'. split; auto. split; auto. split; auto. split; auto. split; [lia|]. split.
        { intros F. destruct (F1 F) as (A1 & A2 & A3). split; auto. split.
          - rewrite A2. rewrite SY. cbn [andb]. replace (t <? bp_ite b - 1) with true by (symmetry; apply Nat.ltb_lt; lia). destruct (S t <? bp_ite b - 1); auto.
          - intros _ k Hk. destruct (Nat.eq_dec k (S t)) as [->|]; auto. apply A3; auto. lia. }
        { intros F. destruct (F2 F) as (A1 & A2 & A3 & A4 & A5 & A6 & A7). split; [lia|]. split; auto. split; auto. split; auto. split; auto. split; auto.
          intros k Hk. destruct (Nat.eq_dec k (S t)) as [->|]; auto. apply A6. lia. }
    + destruct (bp_synd b) eqn:SY; cbn [andb] in C.
      * apply negb_false_iff, Nat.eqb_eq in C. assert (cnt = 0) by lia. subst cnt. cbn [gal_loop].
        exists (mkGA (ga_HY s) (ga_V s) c2v v2c (ga_cur s)), valid, true, (S t). split; auto. split; [apply at_step; auto|]. split; auto. split; auto. split; [lia|]. split; [|discriminate]. intros _. split; [lia|]. split.
        { cbn [andb]. replace (t <? bp_ite b - 1) with false by (symmetry; apply Nat.ltb_ge; lia). auto. }
        { intros _ k Hk. lia. }
      * clear ST. assert (G : forall cnt t s, at_gal t s -> t + cnt = bp_ite b -> ga_cur s < bp_depth b -> exists s', gal_loop g b T Yl t cnt s valid = Ret (s', valid, true) /\ at_gal (bp_ite b) s' /\ ga_HY s' = ga_HY s /\ ga_cur s' < bp_depth b).
        { clear IHcnt t s EQ CU E1 E2 HE LV LP v2c c2v C cnt. induction cnt; intros t s AT EQ CU.
          - cbn [gal_loop]. exists s. replace (bp_ite b) with t by lia. auto.
          - cbn [gal_loop]. rewrite BH, SY. destruct (round_gal t s AT) as (v2c & c2v & E1 & E2 & HE & LV). rewrite E1. cbn [bind]. rewrite E2. cbn [bind andb].
            destruct (IHcnt (S t) (mkGA (ga_HY s) (ga_V s) c2v v2c (ga_cur s))) as (s' & B1 & B2 & B3 & B4); auto; [|lia|exists s'; auto]. apply at_step; auto. apply AT. }
        destruct (G cnt (S t) (mkGA (ga_HY s) (ga_V s) c2v v2c (ga_cur s))) as (s' & EL & AT' & HY' & CUR); auto; [apply at_step; auto|lia|].
        exists s', valid, true, (bp_ite b). split; auto. split; auto. split; auto. split; auto. split; [lia|]. split; [|discriminate]. intros _. split; auto. split; auto. discriminate.
Qed.

Lemma decode_gal : forall s, at_gal 0 s -> ga_cur s = 0 ->
  exists s' status t, gal_decode g b T Yl s = Ret (s', status) /\ at_gal t s' /\ ga_HY s' = ga_HY s /\ ga_cur s' < bp_depth b /\
    ga_V s' = tab N (fun v => Z.b2z (dd t v)) /\ halts code_gal (bp_synd b) (bp_depth b) (bp_ite b) t /\
    negb status = negb (bp_synd b) || (t <? bp_ite b) || (bp_ite b =? 1).
Proof.
  intros s AT CU. unfold gal_decode.
  destruct (loop_gal (bp_ite b) 0 s true AT eq_refl ltac:(lia)) as (s' & valid & fin & t & E & AT' & HY' & CU' & RG & F1 & F2). { rewrite CU. split; [lia|]. split; [intros; lia|left; auto]. }
  rewrite E. cbn [bind]. destruct fin.
  - destruct (F1 eq_refl) as (A1 & A2 & A3). rewrite BH. destruct AT' as (LC & LV & LP & HE).
    assert (HE' : holdsZ (ga_c2v s') (mu (t - 1))) by (apply HE; lia).
    destruct (votes_gal (t - 1) (ga_c2v s') (ga_V s') HE' LP) as (V & E3 & EV). replace (S (t - 1)) with t in EV by lia. rewrite E3. cbn [bind].
    exists (mkGA (ga_HY s') V (ga_c2v s') (ga_v2c s') (ga_cur s')), (negb valid), t. split; auto. split; [split; [auto|]; split; [auto|]; split; [rewrite EV; apply length_tab|auto]|]. split; auto. split; auto. split; auto. split.
    + split; [lia|]. split; [intros; lia|]. intros SY k Hk. apply A3; auto. lia.
    + rewrite negb_involutive, A2. replace (t <? bp_ite b) with false by (symmetry; apply Nat.ltb_ge; lia). destruct (bp_synd b); cbn [andb negb orb]; auto.
      destruct (Nat.ltb_spec 0 (bp_ite b - 1)), (Nat.eqb_spec (bp_ite b) 1); auto; lia.
  - destruct (F2 eq_refl) as (A1 & A2 & A3 & A4 & A5 & A6 & A7). subst valid. exists s', false, t. split; auto. split; auto. split; auto. split; auto. split; auto. split.
    + split; [lia|]. split; [auto|]. intros _ k Hk. apply A6. lia.
    + rewrite A3. replace (t <? bp_ite b) with true by (symmetry; apply Nat.ltb_lt; lia). auto.
Qed.

End Gal.
