(** Lemmas on the belief-propagation decoders: the update rules, and what one call computes, up to equality of rationals. *)
From Coq Require Import List Arith Lia Bool ZArith QArith Qabs Qminmax Qround Permutation Lqa.
From Verif Require Import Base WLoops SparseModel SparseSpec SparseProofs LDPCModel LDPCSpec LDPCBPModel LDPCBPSpec.
Import ListNotations.
Local Open Scope nat_scope.

(* ------------------------------------------------------------------ *)
(** * Comparisons *)

Lemma qltb_spec : forall a b, (qltb a b = true /\ (a < b)%Q) \/ (qltb a b = false /\ (b <= a)%Q).
Proof.
  intros a b. unfold qltb. destruct (Qle_bool b a) eqn:E.
  - right. split; auto. apply Qle_bool_iff. auto.
  - left. split; auto. apply Qnot_le_lt. intros C. apply Qle_bool_iff in C. congruence.
Qed.
Lemma qmin_spec : forall a b, ((b < a)%Q /\ qmin a b = b) \/ ((a <= b)%Q /\ qmin a b = a).
Proof. intros a b. unfold qmin. destruct (qltb_spec b a) as [[-> H]|[-> H]]; auto. Qed.
Lemma qmax_spec : forall a b, ((a < b)%Q /\ qmax a b = b) \/ ((b <= a)%Q /\ qmax a b = a).
Proof. intros a b. unfold qmax. destruct (qltb_spec a b) as [[-> H]|[-> H]]; auto. Qed.
Lemma neg_spec : forall a, neg a = negative a.
Proof. intros a. unfold neg, negative. destruct (qltb_spec a 0) as [[-> H]|[-> H]]; destruct (Qlt_le_dec a 0); auto; exfalso; lra. Qed.
Lemma neg_lt : forall a, neg a = true <-> (a < 0)%Q.
Proof. intros a. unfold neg. destruct (qltb_spec a 0) as [[-> H]|[-> H]]; split; intros; auto; try discriminate. exfalso; lra. Qed.
Lemma neg_ge : forall a, neg a = false <-> (0 <= a)%Q.
Proof. intros a. unfold neg. destruct (qltb_spec a 0) as [[-> H]|[-> H]]; split; intros; auto; try discriminate. exfalso; lra. Qed.
Lemma neg_ext : forall a b, (a == b)%Q -> neg a = neg b.
Proof. intros a b E. unfold neg. destruct (qltb_spec a 0) as [[-> H]|[-> H]]; destruct (qltb_spec b 0) as [[-> H']|[-> H']]; auto; exfalso; lra. Qed.
Lemma negative_ext : forall a b, (a == b)%Q -> negative a = negative b.
Proof. intros. rewrite <- !neg_spec. apply neg_ext. auto. Qed.

(* ------------------------------------------------------------------ *)
(** * The min-sum rule *)


Lemma removed_last : forall A (l : list A) x, removed (length l) (l ++ [x]) = l.
Proof. intros. unfold removed. rewrite firstn_app_exact by auto. rewrite skipn_all2 by (rewrite app_length; simpl; lia). rewrite app_nil_r. auto. Qed.
Lemma removed_before : forall A (l : list A) x i, i < length l -> removed i (l ++ [x]) = removed i l ++ [x].
Proof.
  intros. unfold removed. rewrite firstn_app. replace (i - length l) with 0 by lia. cbn [firstn]. rewrite app_nil_r.
  rewrite skipn_app. replace (S i - length l) with 0 by lia. cbn [skipn]. rewrite app_assoc. auto.
Qed.
Lemma removed_perm : forall A (d : A) (l : list A) i, i < length l -> Permutation l (nth i l d :: removed i l).
Proof.
  intros A d l. induction l; intros i Hi; [simpl in Hi; lia|]. destruct i.
  - unfold removed. simpl. auto.
  - unfold removed in *. cbn [firstn skipn nth app length] in *. eapply perm_trans; [apply perm_skip, (IHl i); lia|]. apply perm_swap.
Qed.

Lemma smallest_app : forall mx l x, (smallest mx (l ++ [x]) == Qmin (smallest mx l) (Qabs x))%Q.
Proof.
  intros mx l x. unfold smallest. induction l.
  - cbn. apply Q.min_comm.
  - cbn [app map fold_right]. rewrite IHl. apply Q.min_assoc.
Qed.
Lemma smallest_perm : forall mx l l', Permutation l l' -> (smallest mx l == smallest mx l')%Q.
Proof.
  intros mx l l' P. unfold smallest. induction P; cbn [map fold_right]; try reflexivity.
  - rewrite IHP. reflexivity.
  - rewrite !Q.min_assoc. rewrite (Q.min_comm (Qabs y)). reflexivity.
  - etransitivity; eauto.
Qed.
Lemma smallest_ext : forall mx l l', Forall2 Qeq l l' -> (smallest mx l == smallest mx l')%Q.
Proof. intros mx l l' F. unfold smallest. induction F; cbn [map fold_right]; [reflexivity|]. rewrite H, IHF. reflexivity. Qed.
Lemma smallest_le : forall mx l x, In x l -> (smallest mx l <= Qabs x)%Q.
Proof.
  intros mx l x. unfold smallest. induction l; cbn [In map fold_right]; [tauto|]. intros [->|I].
  - apply Q.le_min_l.
  - eapply Qle_trans; [apply Q.le_min_r|auto].
Qed.
Lemma smallest_mx : forall mx l, (smallest mx l <= mx)%Q.
Proof. intros mx l. unfold smallest. induction l; cbn [map fold_right]; [lra|]. eapply Qle_trans; [apply Q.le_min_r|auto]. Qed.
Lemma smallest_att : forall mx l, (smallest mx l == mx)%Q \/ exists x, In x l /\ (smallest mx l == Qabs x)%Q.
Proof.
  intros mx l. unfold smallest. induction l; cbn [map fold_right]; [left; reflexivity|]. destruct (Q.min_spec (Qabs a) (fold_right Qmin mx (map Qabs l))) as [[H E]|[H E]].
  - right. exists a. split; [left; auto|auto].
  - destruct IHl as [K|(x & I & K)]; [left; lra|]. right. exists x. split; [right; auto|]. lra.
Qed.

Lemma smallest_removed : forall mx l i, i < length l -> ~ (Qabs (nth i l 0) == smallest mx l)%Q -> (smallest mx (removed i l) == smallest mx l)%Q.
Proof.
  intros mx l i Hi H. rewrite (smallest_perm mx l _ (removed_perm _ 0%Q l i Hi)) in *. unfold smallest at 2. cbn [map fold_right]. fold (smallest mx (removed i l)).
  unfold smallest in H at 1. cbn [map fold_right] in H. fold (smallest mx (removed i l)) in H.
  destruct (Q.min_spec (Qabs (nth i l 0%Q)) (smallest mx (removed i l))) as [[K E]|[K E]]; rewrite E in *; [|reflexivity]. exfalso. apply H. reflexivity.
Qed.

Lemma odd_app : forall l x, odd_negative (l ++ [x]) = xorb (odd_negative l) (neg x).
Proof.
  intros. unfold odd_negative. rewrite filter_app, app_length. rewrite neg_spec. cbn [filter]. destruct (negative x); cbn [length].
  - rewrite Nat.add_1_r, Nat.odd_succ, <- Nat.negb_odd. rewrite xorb_true_r. auto.
  - rewrite Nat.add_0_r, xorb_false_r. auto.
Qed.
Lemma odd_cons : forall l x, odd_negative (x :: l) = xorb (neg x) (odd_negative l).
Proof.
  intros. unfold odd_negative. rewrite neg_spec. cbn [filter]. destruct (negative x); cbn [length].
  - rewrite Nat.odd_succ, <- Nat.negb_odd. auto.
  - rewrite xorb_false_l. auto.
Qed.
Lemma odd_perm : forall l l', Permutation l l' -> odd_negative l = odd_negative l'.
Proof.
  intros l l' P. induction P; rewrite ?odd_cons; auto.
  - rewrite IHP. auto.
  - rewrite <- !xorb_assoc. f_equal. apply xorb_comm.
  - congruence.
Qed.
Lemma odd_ext : forall l l', Forall2 Qeq l l' -> odd_negative l = odd_negative l'.
Proof. intros l l' F. induction F; auto. rewrite !odd_cons, IHF. f_equal. apply neg_ext. auto. Qed.

(** A rule that sends [chk] of the other values. *)
Definition node (r : rule) (xs : list Q) : outcome (r_st r) :=
  u <- for_ (length xs) (fun v u => r_in r v (nth v xs 0%Q) u) (r_begin r (length xs)) ;; r_end r u.
Definition computes (r : rule) (chk : list Q -> Q) : Prop :=
  forall xs, exists u, node r xs = Ret u /\
    forall i, i < length xs -> exists y, r_out r i (nth i xs 0%Q) u = Ret y /\ (y == chk (removed i xs))%Q.

Definition ms_inv (mx : Q) (l : list Q) (s : ms_st) : Prop :=
  ms_sign s = odd_negative l /\ (ms_min1 s == smallest mx l)%Q /\ (ms_min1 s <= ms_min2 s)%Q /\
  (forall i, i < length l -> (Qabs (nth i l 0) == ms_min1 s)%Q -> (ms_min2 s == smallest mx (removed i l))%Q).

Lemma firstn_snoc : forall A (d : A) l i, i < length l -> firstn (S i) l = firstn i l ++ [nth i l d].
Proof. intros A d l. induction l; intros i Hi; [simpl in Hi; lia|]. destruct i; auto. change (firstn (S (S i)) (a :: l)) with (a :: firstn (S i) l). rewrite (IHl i) by (simpl in Hi; lia). auto. Qed.

Lemma ms_step : forall mx l s x v, ms_inv mx l s -> exists s', ms_in v x s = Ret s' /\ ms_inv mx (l ++ [x]) s'.
Proof.
  intros mx l s x v (SG & M1 & LE & M2). eexists. split; [reflexivity|].
  assert (NN := Qabs_nonneg x). split; [|split; [|split]]; cbn [ms_sign ms_min1 ms_min2].
  - rewrite odd_app, SG. auto.
  - rewrite smallest_app. destruct (qmin_spec (ms_min1 s) (Qabs x)) as [[H ->]|[H ->]]; destruct (Q.min_spec (smallest mx l) (Qabs x)) as [[K ->]|[K ->]]; lra.
  - destruct (qmin_spec (ms_min1 s) (Qabs x)) as [[H ->]|[H ->]]; destruct (qmax_spec (Qabs x) (ms_min1 s)) as [[K ->]|[K ->]]; match goal with |- (_ <= qmin ?a ?b)%Q => destruct (qmin_spec a b) as [[J ->]|[J ->]] end; lra.
  - intros i Hi E. rewrite app_length in Hi. cbn [length] in Hi. destruct (Nat.eq_dec i (length l)) as [->|Hn].
    + rewrite removed_last. rewrite app_nth2, Nat.sub_diag in E by lia. cbn [nth] in E. rewrite <- M1.
      destruct (qmin_spec (ms_min1 s) (Qabs x)) as [[H EE]|[H EE]]; rewrite EE in E; destruct (qmax_spec (Qabs x) (ms_min1 s)) as [[K ->]|[K ->]]; match goal with |- (qmin ?a ?b == _)%Q => destruct (qmin_spec a b) as [[J ->]|[J ->]] end; lra.
    + rewrite removed_before by lia. rewrite app_nth1 in E by lia. rewrite smallest_app.
      assert (L1 : (ms_min1 s <= Qabs (nth i l 0))%Q). { rewrite M1. apply smallest_le. apply nth_In. lia. }
      assert (EQ : (Qabs (nth i l 0) == ms_min1 s)%Q). { destruct (qmin_spec (ms_min1 s) (Qabs x)) as [[H EE]|[H EE]]; rewrite EE in E; lra. }
      assert (GE : (ms_min1 s <= Qabs x)%Q). { destruct (qmin_spec (ms_min1 s) (Qabs x)) as [[H EE]|[H EE]]; rewrite EE in E; lra. }
      assert (M2' := M2 i ltac:(lia) EQ).
      destruct (qmax_spec (Qabs x) (ms_min1 s)) as [[K ->]|[K ->]]; match goal with |- (qmin ?a ?b == _)%Q => destruct (qmin_spec a b) as [[J ->]|[J ->]] end; destruct (Q.min_spec (smallest mx (removed i l)) (Qabs x)) as [[P ->]|[P ->]]; lra.
Qed.

Lemma qmax_Qmax : forall a b, (qmax a b == Qmax a b)%Q.
Proof. intros a b. destruct (qmax_spec a b) as [[H ->]|[H ->]]; destruct (Q.max_spec a b) as [[K ->]|[K ->]]; lra. Qed.

Lemma ms_computes : forall mx g (G : Q -> Q), (forall x, g x = Ret (G x)) -> (forall x y, (x == y)%Q -> (G x == G y)%Q) ->
  computes (mkRule ms_st (ms_begin mx) ms_in (ms_end g) ms_out) (min_sum mx G).
Proof.
  intros mx g G EG CG xs. unfold node. cbn [r_in r_begin r_end r_out r_st].
  destruct (for_inv _ (fun m s => ms_inv mx (firstn m xs) s) (length xs) (fun v u => ms_in v (nth v xs 0%Q) u) (ms_begin mx (length xs))) as (s & E & I).
  - split; [reflexivity|]. split; [reflexivity|]. split; [cbn; lra|]. intros i Hi. simpl in Hi. lia.
  - intros i s Hi I. destruct (ms_step mx _ s (nth i xs 0%Q) i I) as (s' & E & I'). exists s'. split; auto. rewrite (firstn_snoc _ 0%Q) by auto. auto.
  - rewrite firstn_all in I. destruct I as (SG & M1 & LE & M2). rewrite E. cbn [bind]. unfold ms_end. rewrite !EG. cbn [bind]. eexists. split; [reflexivity|].
    intros i Hi. eexists. split; [reflexivity|]. cbn [ms_sign ms_min1 ms_min2 ms_cst1 ms_cst2].
    assert (SGN : xorb (ms_sign s) (neg (nth i xs 0%Q)) = odd_negative (removed i xs)).
    { rewrite SG. rewrite (odd_perm _ _ (removed_perm _ 0%Q xs i Hi)), odd_cons. rewrite xorb_comm, <- xorb_assoc, xorb_nilpotent, xorb_false_l. auto. }
    rewrite SGN. unfold min_sum. assert (AB : ((if Qeq_bool (Qabs (nth i xs 0)) (ms_min1 s) then qmax 0 (G (ms_min2 s)) else qmax 0 (G (ms_min1 s))) == Qmax 0 (G (smallest mx (removed i xs))))%Q).
    { destruct (Qeq_bool (Qabs (nth i xs 0%Q)) (ms_min1 s)) eqn:EQ.
      - apply Qeq_bool_iff in EQ. rewrite qmax_Qmax. rewrite (CG _ _ (M2 i Hi EQ)). reflexivity.
      - rewrite qmax_Qmax. assert (NE : ~ (Qabs (nth i xs 0) == smallest mx xs)%Q). { intros C. rewrite <- M1 in C. apply Qeq_bool_iff in C. congruence. }
        assert (R := smallest_removed mx xs i Hi NE). rewrite (CG (smallest mx (removed i xs)) (ms_min1 s)); [reflexivity|]. rewrite R. symmetry. auto. }
    destruct (odd_negative (removed i xs)); unfold copysign; rewrite AB; reflexivity.
Qed.

Lemma min_sum_symmetric : forall mx G, (forall x y, (x == y)%Q -> (G x == G y)%Q) -> symmetric (min_sum mx G).
Proof.
  intros mx G CG l l' m P F. unfold min_sum. rewrite (odd_perm _ _ P), (odd_ext _ _ F).
  assert (E : (smallest mx l == smallest mx l')%Q) by (rewrite (smallest_perm _ _ _ P); apply smallest_ext; auto).
  assert (E' := CG _ _ E). cbv zeta. destruct (odd_negative l'); rewrite E'; reflexivity.
Qed.

(** A correction that is at most zero at zero and below: only a check without a zero speaks. *)
Lemma min_sum_sign : forall mx G, (forall x, (x <= 0)%Q -> (G x <= 0)%Q) -> sign_rule (min_sum mx G).
Proof.
  intros mx G G0 l. unfold min_sum.
  assert (K : (0 < Qmax 0 (G (smallest mx l)))%Q -> Forall (fun x => ~ (x == 0)%Q) l).
  { intros P. apply Forall_forall. intros x I E. assert (L := smallest_le mx l x I). rewrite E in L. change (Qabs 0) with 0%Q in L.
    assert (Z := G0 _ L). rewrite Q.max_l in P by auto. lra. }
  destruct (odd_negative l) eqn:O; split; intros P.
  - exfalso. assert (0 <= Qmax 0 (G (smallest mx l)))%Q by apply Q.le_max_l. lra.
  - split; auto. apply K. lra.
  - split; auto.
  - exfalso. assert (0 <= Qmax 0 (G (smallest mx l)))%Q by apply Q.le_max_l. lra.
Qed.

(** The approximate rule with the minimum is the min-sum rule. *)
Lemma ms_inv_ext : forall mx l s s', ms_inv mx l s -> ms_sign s' = ms_sign s -> (ms_min1 s' == ms_min1 s)%Q -> (ms_min2 s' == ms_min2 s)%Q -> ms_inv mx l s'.
Proof.
  intros mx l s s' (A & B & C & D) E1 E2 E3. split; [congruence|]. split; [lra|]. split; [lra|]. intros i Hi Q. rewrite E3. apply D; auto. lra.
Qed.
Lemma ams_computes : forall mx, computes (rule_AMS qmin mx) (min_sum mx (fun x => x)).
Proof.
  intros mx xs. unfold node. cbn [r_in r_begin r_end r_out r_st rule_AMS].
  destruct (for_inv _ (fun m s => ms_inv mx (firstn m xs) (mkMS (am_sign s) (am_min s) (am_dmin s) 0%Q 0%Q)) (length xs) (fun v u => ams_in qmin v (nth v xs 0%Q) u) (ams_begin mx (length xs))) as (s & E & I).
  - cbn [firstn ams_begin am_sign am_min am_dmin]. split; [reflexivity|]. split; [reflexivity|]. split; [cbn; lra|]. intros i Hi. simpl in Hi. lia.
  - intros i s Hi I. rewrite (firstn_snoc _ 0%Q) by auto. eexists. split; [reflexivity|]. cbn [am_sign am_min am_dmin].
    destruct (ms_step mx _ _ (nth i xs 0%Q) i I) as (s' & E & I'). injection E as <-. eapply ms_inv_ext; [exact I'| | |]; cbn [ms_sign ms_min1 ms_min2]; try reflexivity.
    set (va := Qabs (nth i xs 0%Q)). set (dm := am_dmin s). set (mi := am_min s).
    assert (K : ((if Qeq_bool va (qmin mi va) then mi else va) == qmax va mi)%Q).
    { destruct (Qeq_bool va (qmin mi va)) eqn:Q.
      - apply Qeq_bool_iff in Q. destruct (qmax_spec va mi) as [[H1 ->]|[H1 ->]]; [reflexivity|]. destruct (qmin_spec mi va) as [[H2 E2]|[H2 E2]]; rewrite E2 in Q; lra.
      - assert (Q' : ~ (va == qmin mi va)%Q) by (intros C; apply Qeq_bool_iff in C; congruence). destruct (qmin_spec mi va) as [[H2 E2]|[H2 E2]]; rewrite E2 in Q'; [exfalso; apply Q'; reflexivity|]. destruct (qmax_spec va mi) as [[H1 ->]|[H1 ->]]; [lra|reflexivity]. }
    destruct (qmin_spec dm (if Qeq_bool va (qmin mi va) then mi else va)) as [[H1 ->]|[H1 ->]]; destruct (qmin_spec dm (qmax va mi)) as [[H2 ->]|[H2 ->]]; lra.
  - rewrite E. cbn [bind]. rewrite firstn_all in I. eexists. split; [reflexivity|]. destruct I as (SG & M1 & LE & M2). cbn [ms_sign ms_min1 ms_min2] in *. intros i Hi.
    eexists. split; [reflexivity|]. unfold min_sum. cbn [am_sign am_min am_dmin am_delta]. cbv zeta.
    assert (OD : odd_negative (removed i xs) = xorb (am_sign s) (neg (nth i xs 0%Q))).
    { rewrite SG, (odd_perm _ _ (removed_perm _ 0%Q xs i Hi)), odd_cons. destruct (neg (nth i xs 0%Q)), (odd_negative (removed i xs)); auto. }
    rewrite OD. unfold copysign.
    assert (V : ((if Qeq_bool (Qabs (nth i xs 0)) (am_min s) then qmax 0 (am_dmin s) else qmax 0 (qmin (am_dmin s) (am_min s))) == Qmax 0 (smallest mx (removed i xs)))%Q).
    { destruct (Qeq_bool (Qabs (nth i xs 0%Q)) (am_min s)) eqn:Q.
      - apply Qeq_bool_iff in Q. rewrite qmax_Qmax, (M2 i Hi Q). reflexivity.
      - assert (Q' : ~ (Qabs (nth i xs 0) == smallest mx xs)%Q) by (intros C; rewrite <- M1 in C; apply Qeq_bool_iff in C; congruence).
        rewrite qmax_Qmax. assert (EM : (qmin (am_dmin s) (am_min s) == smallest mx (removed i xs))%Q).
        { rewrite (smallest_removed mx xs i Hi Q'). destruct (qmin_spec (am_dmin s) (am_min s)) as [[H2 ->]|[H2 ->]]; lra. }
        rewrite EM. reflexivity. }
    destruct (xorb (am_sign s) (neg (nth i xs 0%Q))); rewrite V; reflexivity.
Qed.
