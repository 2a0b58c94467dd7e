(** C59: the extraction of the information bits by the tree of simplified nodes. C81: the copies of the tree. *)
From Coq Require Import List Arith Lia Bool ZArith.
From Verif Require Import Base Copy PatternModel.
Import ListNotations.

(** ** Specification *)
(** the positions that are not frozen, in increasing order *)
Definition free_positions (fb : list bool) : list nat := filter (fun i => negb (nth i fb true)) (seq 0 (length fb)).
(** the [nf] values of position [i] *)
Definition values_at {A} (nf : nat) (V : list A) (i : nat) : list A := firstn nf (skipn (i * nf) V).
(** what the constructors of the patterns accept (Pattern_polar_i.hxx 33-54 and the constructors of each pattern; Pattern_polar_std takes no level) *)
Definition pattern_ok (p : pattern) : Prop :=
  (0 <= min_level p)%Z /\ (max_level p = -1 \/ min_level p <= max_level p)%Z /\
  match pt p with
  | STANDARD => min_level p = 0%Z /\ max_level p = (-1)%Z
  | RATE_0 | RATE_1 => True
  | REP_LEFT => (2 <= min_level p)%Z
  | RATE_0_LEFT | REP | SPC => (1 <= min_level p)%Z
  end.
(** Patterns with which every node gets a pattern that suits it: the standard node is among them, or the first one (taken when no pattern matches) is not terminal *)
Definition complete (pats : list pattern) : Prop :=
  (exists p, In p pats /\ pt p = STANDARD) \/ (exists p l, pats = p :: l /\ is_terminal (pt p) = false).

(** ** Lists *)
Lemma pick_add : forall A a b (l : list A), firstn (a + b) l = firstn a l ++ firstn b (skipn a l).
Proof. induction a as [|a IH]; intros b [|x l]; cbn [Nat.add firstn skipn app]; auto. - now rewrite firstn_nil. - now rewrite IH. Qed.
Lemma skipn_add : forall A a b (l : list A), skipn a (skipn b l) = skipn (b + a) l.
Proof. intros A a b. revert a. induction b as [|b IH]; intros a [|x l]; cbn [Nat.add skipn]; auto. - now rewrite skipn_nil. Qed.
Fixpoint frees (off : nat) (fb : list bool) : list nat :=
  match fb with [] => [] | b :: fb => if b then frees (S off) fb else off :: frees (S off) fb end.
Lemma frees_spec : forall fb pre, filter (fun i => negb (nth i (pre ++ fb) true)) (seq (length pre) (length fb)) = frees (length pre) fb.
Proof.
  induction fb as [|b fb IH]; intros pre; [reflexivity|]. cbn [length seq filter frees]. rewrite app_nth2 by lia. rewrite Nat.sub_diag. cbn [nth].
  specialize (IH (pre ++ [b])). rewrite <- app_assoc in IH. cbn [app] in IH. rewrite app_length in IH. cbn [length] in IH. rewrite Nat.add_1_r in IH. rewrite IH. destruct b; reflexivity.
Qed.
Lemma free_frees : forall fb, free_positions fb = frees 0 fb.
Proof. intros fb. exact (frees_spec fb []). Qed.
Lemma frees_app : forall s1 off s2, frees off (s1 ++ s2) = frees off s1 ++ frees (off + length s1) s2.
Proof.
  induction s1 as [|b s1 IH]; intros off s2; cbn [app frees length]. - now rewrite Nat.add_0_r.
  - rewrite IH. replace (S off + length s1) with (off + S (length s1)) by lia. destruct b; reflexivity.
Qed.
Lemma frees_true : forall k off, frees off (repeat true k) = [].
Proof. induction k; intros; cbn [repeat frees]; auto. Qed.
Lemma frees_false : forall k off, frees off (repeat false k) = seq off k.
Proof. induction k as [|k IH]; intros; cbn [repeat frees seq]; [|rewrite IH]; auto. Qed.
Lemma values_seq : forall A nf (V : list A) n off, flat_map (values_at nf V) (seq off n) = firstn (n * nf) (skipn (off * nf) V).
Proof.
  induction n as [|n IH]; intros off; [reflexivity|]. cbn [seq flat_map Nat.mul]. rewrite IH, pick_add, skipn_add. unfold values_at. do 3 f_equal. lia.
Qed.

(** ** Trees *)
Fixpoint fresh (n : bt) (k d lane : nat) : Prop :=
  match n, k with
  | Lf None d' lane', O => d' = d /\ lane' = lane
  | Bn None d' lane' l r, S k => d' = d /\ lane' = lane /\ fresh l k (S d) (2 * lane) /\ fresh r k (S d) (2 * lane + 1)
  | _, _ => False
  end.
Lemma create_fresh : forall k d lane lanes, d + k < length lanes -> (forall j, 1 <= j <= k -> nth (d + j) lanes 0 = lane * 2 ^ j) ->
  exists t lanes', create_nodes k d lane lanes = Ret (t, lanes') /\ fresh t k d lane /\ length lanes' = length lanes /\
    (forall j, 1 <= j <= k -> nth (d + j) lanes' 0 = (lane + 1) * 2 ^ j) /\ (forall i, i <= d -> nth i lanes' 0 = nth i lanes 0).
Proof.
  induction k as [|k IH]; intros d lane lanes L H.
  - exists (Lf None d lane), lanes. cbn. repeat split; auto. intros; lia.
  - cbn [create_nodes]. rewrite (rd_ok _ 0) by lia. cbn [bind]. rewrite wr_ok by lia. cbn [bind]. rewrite (rd_ok _ 0) by (rewrite length_upd; lia). cbn [bind].
    rewrite wr_ok by (rewrite length_upd; lia). cbn [bind]. assert (H1 : nth (S d) lanes 0 = 2 * lane) by (specialize (H 1 ltac:(lia)); rewrite Nat.add_1_r in H; rewrite H; cbn; lia).
    rewrite (nth_upd_eq _ lanes) by lia. rewrite H1. rewrite upd_upd_eq.
    assert (HP : forall j, 2 ^ S j = 2 * 2 ^ j) by (intros; cbn; lia).
    destruct (IH (S d) (2 * lane) (upd lanes (S d) (S (S (2 * lane))))) as (l & ls1 & E1 & F1 & L1 & N1 & O1).
    { rewrite length_upd. lia. } { intros j Hj. rewrite nth_upd_neq by lia. replace (S d + j) with (d + S j) by lia. rewrite H by lia. rewrite HP. lia. }
    rewrite E1. cbn [bind].
    destruct (IH (S d) (S (2 * lane)) ls1) as (r & ls2 & E2 & F2 & L2 & N2 & O2).
    { rewrite L1, length_upd. lia. } { intros j Hj. rewrite N1 by lia. lia. }
    rewrite E2. cbn [bind]. exists (Bn None d lane l r), ls2. split; [reflexivity|]. split; [|split; [|split]].
    + cbn [fresh]. rewrite Nat.add_1_r. auto.
    + rewrite L2, L1, length_upd. reflexivity.
    + intros j Hj. destruct (Nat.eq_dec j 1) as [->|Ne].
      * rewrite Nat.add_1_r. rewrite O2 by lia. rewrite O1 by lia. rewrite nth_upd_eq by lia. cbn; lia.
      * replace (d + j) with (S d + (j - 1)) by lia. rewrite N2 by lia. replace j with (S (j - 1)) at 2 by lia. rewrite HP. lia.
    + intros i Hi. rewrite O2 by lia. rewrite O1 by lia. rewrite nth_upd_neq by lia. reflexivity.
Qed.
Lemma tree_new_fresh : forall m, exists t, tree_new (m + 1) = Ret t /\ fresh t m 0 0.
Proof.
  intros m. unfold tree_new. rewrite Nat.add_sub. destruct (create_fresh m 0 0 (repeat 0 (m + 1 + 1))) as (t & ls & E & F & _).
  { rewrite repeat_length. lia. } { intros j Hj. rewrite nth_repeat_lt by lia. lia. }
  rewrite E. cbn [bind]. eauto.
Qed.

Definition good (t : ptype) (s : list bool) : Prop :=
  match t with
  | RATE_0 => s = repeat true (length s)
  | RATE_1 => s = repeat false (length s)
  | REP => exists k, s = repeat true k ++ [false]
  | SPC => exists k, s = true :: repeat false k
  | _ => False
  end.
Fixpoint wf (n : bt) (k : nat) (s : list bool) : Prop :=
  match n with
  | Lf (Some c) _ _ => length s = 2 ^ k /\ csize c = 2 ^ k /\ good (ctype c) s
  | Bn (Some c) _ _ l r => is_terminal (ctype c) = false /\ exists k' s1 s2, k = S k' /\ s = s1 ++ s2 /\ wf l k' s1 /\ wf r k' s2
  | _ => False
  end.
Lemma wf_length : forall n k s, wf n k s -> length s = 2 ^ k.
Proof.
  induction n as [[c|] d lane|[c|] d lane l IHl r IHr]; intros k s H; cbn [wf] in H; try contradiction; [apply H|].
  destruct H as (_ & k' & s1 & s2 & -> & -> & H1 & H2). rewrite app_length, (IHl _ _ H1), (IHr _ _ H2). cbn. lia.
Qed.
Lemma wf_type : forall n k s, wf n k s -> exists t, type_of n = Ret t /\ (is_terminal t = true -> good t s).
Proof.
  intros [[c|] d lane|[c|] d lane l r] k s H; cbn [wf] in H; try contradiction; exists (ctype c); split; try reflexivity; intros T.
  - apply H. - destruct H as (X & _). congruence.
Qed.
Lemma ptype_eqb_eq : forall a b, ptype_eqb a b = true -> a = b.
Proof. intros [] []; cbn; congruence. Qed.
Lemma good_app_all : forall (b : bool) s1 s2, s1 = repeat b (length s1) -> s2 = repeat b (length s2) -> s1 ++ s2 = repeat b (length (s1 ++ s2)).
Proof. intros b s1 s2 H1 H2. rewrite H1, H2 at 1. now rewrite <- repeat_app, <- app_length. Qed.

Lemma all_check_ok : forall t n k s, (t = RATE_0 \/ t = RATE_1) -> wf n k s -> exists b, all_check t n = Ret b /\ (b = true -> good t s).
Proof.
  intros t n. induction n as [[c|] d lane|[c|] d lane l IHl r IHr]; intros k s T H; cbn [wf] in H; try contradiction.
  - cbn [all_check type_of contents bind]. eexists; split; [reflexivity|]. intros E. apply ptype_eqb_eq in E. rewrite <- E. apply H.
  - destruct H as (_ & k' & s1 & s2 & -> & -> & H1 & H2). cbn [all_check].
    destruct (wf_type _ _ _ H1) as (tl & -> & G1), (wf_type _ _ _ H2) as (tr & -> & G2). cbn [bind].
    assert (TT : is_terminal t = true) by (destruct T as [-> | ->]; reflexivity).
    assert (A : good t s1 -> good t s2 -> good t (s1 ++ s2)) by (destruct T as [-> | ->]; cbn [good]; apply good_app_all).
    destruct (ptype_eqb tl t && ptype_eqb tr t) eqn:E.
    + apply andb_true_iff in E. destruct E as [E1 E2]. apply ptype_eqb_eq in E1, E2. subst. exists true. split; auto.
    + destruct (IHl _ _ T H1) as (b1 & -> & B1), (IHr _ _ T H2) as (b2 & -> & B2). cbn [bind]. destruct b1.
      * exists b2. split; auto. * exists false. split; [reflexivity|discriminate].
Qed.
Lemma one_true : forall (s : list bool) k, length s = 2 ^ k -> good RATE_0 s -> s = repeat true (2 ^ k).
Proof. intros s k L H. cbn in H. now rewrite L in H. Qed.
Lemma rep_check_ok : forall n k s, wf n k s -> exists b, rep_check (Z.of_nat k) n = Ret b /\ (b = true -> good REP s).
Proof.
  induction n as [[c|] d lane|[c|] d lane l IHl r IHr]; intros k s H; cbn [wf] in H; try contradiction.
  - exists false. split; [reflexivity|discriminate].
  - destruct H as (_ & k' & s1 & s2 & -> & -> & H1 & H2). cbn [rep_check].
    destruct (wf_type _ _ _ H1) as (tl & -> & G1), (wf_type _ _ _ H2) as (tr & -> & G2). cbn [bind].
    assert (HB : exists b, (if ptype_eqb tl RATE_0 then Ret true else all_check RATE_0 l) = Ret b /\ (b = true -> good RATE_0 s1)).
    { destruct (ptype_eqb tl RATE_0) eqn:E. - apply ptype_eqb_eq in E. subst. exists true. auto. - apply (all_check_ok RATE_0 _ _ _ (or_introl eq_refl) H1). }
    destruct HB as (b & -> & HB). cbn [bind]. destruct b; [|exists false; split; [reflexivity|discriminate]]. specialize (HB eq_refl). cbn [good] in HB.
    assert (A : good REP s2 -> good REP (s1 ++ s2)). { intros (q & ->). exists (length s1 + q). rewrite HB at 1. rewrite app_assoc, <- repeat_app. reflexivity. }
    destruct (ptype_eqb tr REP) eqn:E1. { apply ptype_eqb_eq in E1. subst. exists true. auto. }
    destruct (ptype_eqb tr RATE_1 && (Z.of_nat (S k') =? 1)%Z) eqn:E2.
    { apply andb_true_iff in E2. destruct E2 as [E2 E3]. apply ptype_eqb_eq in E2. apply Z.eqb_eq in E3. assert (k' = 0) by lia. subst.
      exists true. split; [reflexivity|]. intros _. apply A. specialize (G2 eq_refl). cbn [good] in G2. rewrite (wf_length _ _ _ H2) in G2. exists 0. exact G2. }
    replace (Z.of_nat (S k') - 1)%Z with (Z.of_nat k') by lia. destruct (IHr _ _ H2) as (b & -> & B). exists b. split; auto.
Qed.
Lemma spc_check_ok : forall n k s, wf n k s -> exists b, spc_check (Z.of_nat k) n = Ret b /\ (b = true -> good SPC s).
Proof.
  induction n as [[c|] d lane|[c|] d lane l IHl r IHr]; intros k s H; cbn [wf] in H; try contradiction.
  - exists false. split; [reflexivity|discriminate].
  - destruct H as (_ & k' & s1 & s2 & -> & -> & H1 & H2). cbn [spc_check].
    destruct (wf_type _ _ _ H1) as (tl & -> & G1), (wf_type _ _ _ H2) as (tr & -> & G2). cbn [bind].
    assert (HB : exists b, (if ptype_eqb tr RATE_1 then Ret true else all_check RATE_1 r) = Ret b /\ (b = true -> good RATE_1 s2)).
    { destruct (ptype_eqb tr RATE_1) eqn:E. - apply ptype_eqb_eq in E. subst. exists true. auto. - apply (all_check_ok RATE_1 _ _ _ (or_intror eq_refl) H2). }
    destruct HB as (b & -> & HB). cbn [bind]. destruct b; [|exists false; split; [reflexivity|discriminate]]. specialize (HB eq_refl). cbn [good] in HB.
    assert (A : good SPC s1 -> good SPC (s1 ++ s2)). { intros (q & ->). exists (q + length s2). rewrite HB at 1. cbn [app]. now rewrite repeat_app. }
    destruct (ptype_eqb tl SPC) eqn:E1. { apply ptype_eqb_eq in E1. subst. exists true. auto. }
    destruct (ptype_eqb tl REP && (Z.of_nat (S k') =? 2)%Z) eqn:E2.
    { apply andb_true_iff in E2. destruct E2 as [E2 E3]. apply ptype_eqb_eq in E2. apply Z.eqb_eq in E3. assert (k' = 1) by lia. subst.
      exists true. split; [reflexivity|]. intros _. apply A. destruct (G1 eq_refl) as (q & ->). apply wf_length in H1. rewrite app_length, repeat_length in H1. cbn in H1.
      assert (q = 1) by lia. subst. exists 1. reflexivity. }
    destruct (ptype_eqb tl RATE_0 && (Z.of_nat (S k') =? 1)%Z) eqn:E4.
    { apply andb_true_iff in E4. destruct E4 as [E4 E3]. apply ptype_eqb_eq in E4. apply Z.eqb_eq in E3. assert (k' = 0) by lia. subst.
      exists true. split; [reflexivity|]. intros _. apply A. specialize (G1 eq_refl). cbn [good] in G1. rewrite (wf_length _ _ _ H1) in G1. exists 0. exact G1. }
    replace (Z.of_nat (S k') - 1)%Z with (Z.of_nat k') by lia. destruct (IHl _ _ H1) as (b & -> & B). exists b. split; auto.
Qed.
Lemma pmatch_ok : forall p k s c d lane l r, wf l k (firstn (2 ^ k) s) -> wf r k (skipn (2 ^ k) s) -> pattern_ok p ->
  exists v, pmatch p (Z.of_nat (S k)) (Bn c d lane l r) = Ret v /\ (0 < v -> is_terminal (pt p) = true -> good (pt p) s) /\ (pt p = STANDARD -> 0 < v).
Proof.
  intros p k s c d lane l r Hl Hr Ok. unfold pmatch. replace (0 <? Z.of_nat (S k))%Z with true by (symmetry; apply Z.ltb_lt; lia). cbn [guard bind].
  assert (W : wf (Bn (Some (mkCont STANDARD 0)) d lane l r) (S k) s).
  { cbn [wf ctype is_terminal]. split; [reflexivity|]. exists k, (firstn (2 ^ k) s), (skipn (2 ^ k) s). rewrite firstn_skipn. auto. }
  destruct ((min_level p <=? Z.of_nat (S k)) && ((max_level p =? -1) || (Z.of_nat (S k) <=? max_level p)))%Z eqn:E.
  - destruct (wf_type _ _ _ Hl) as (tl & Tl & _). unfold type_of in Tl. destruct (pt p) eqn:P; cbn [match_value].
    + exists 1. repeat split; auto; cbn; discriminate.
    + cbn [left_type]. destruct (contents l); [|discriminate]. cbn [bind]. eexists. split; [reflexivity|]. split; [cbn; discriminate|discriminate].
    + change (all_check RATE_0 (Bn c d lane l r)) with (all_check RATE_0 (Bn (Some (mkCont STANDARD 0)) d lane l r)).
      destruct (all_check_ok RATE_0 _ _ _ (or_introl eq_refl) W) as (b & -> & B). cbn [bind]. eexists. split; [reflexivity|]. split; [|discriminate]. intros V _. destruct b; [auto|lia].
    + change (all_check RATE_1 (Bn c d lane l r)) with (all_check RATE_1 (Bn (Some (mkCont STANDARD 0)) d lane l r)).
      destruct (all_check_ok RATE_1 _ _ _ (or_intror eq_refl) W) as (b & -> & B). cbn [bind]. eexists. split; [reflexivity|]. split; [|discriminate]. intros V _. destruct b; [auto|lia].
    + cbn [left_type]. destruct (contents l); [|discriminate]. cbn [bind]. eexists. split; [reflexivity|]. split; [cbn; discriminate|discriminate].
    + change (rep_check (Z.of_nat (S k)) (Bn c d lane l r)) with (rep_check (Z.of_nat (S k)) (Bn (Some (mkCont STANDARD 0)) d lane l r)).
      destruct (rep_check_ok _ _ _ W) as (b & -> & B). cbn [bind]. eexists. split; [reflexivity|]. split; [|discriminate]. intros V _. destruct b; [auto|lia].
    + change (spc_check (Z.of_nat (S k)) (Bn c d lane l r)) with (spc_check (Z.of_nat (S k)) (Bn (Some (mkCont STANDARD 0)) d lane l r)).
      destruct (spc_check_ok _ _ _ W) as (b & -> & B). cbn [bind]. eexists. split; [reflexivity|]. split; [|discriminate]. intros V _. destruct b; [auto|lia].
  - exists 0. split; [reflexivity|]. split; [lia|]. intros P. destruct Ok as (_ & _ & Ok). rewrite P in Ok. destruct Ok as [O1 O2]. rewrite O1, O2 in E. rewrite Z.eqb_refl, orb_true_l, andb_true_r in E. apply Z.leb_gt in E. lia.
Qed.
Lemma biggest_ok : forall vals i b id,
  let x := biggest vals i b id in (exists j, j < length vals /\ x = i + j /\ b < nth j vals 0) \/ (x = id /\ forall j, j < length vals -> nth j vals 0 <= b).
Proof.
  induction vals as [|v vals IH]; intros i b id; cbn zeta; cbn [biggest].
  - right. split; auto. cbn. intros; lia.
  - destruct (Nat.ltb_spec b v) as [Lt|Ge].
    + destruct (IH (S i) v i) as [(j & J1 & J2 & J3)|(J1 & J2)]; left.
      * exists (S j). cbn [length nth]. repeat split; lia.
      * exists 0. cbn [length nth]. repeat split; lia.
    + destruct (IH (S i) b id) as [(j & J1 & J2 & J3)|(J1 & J2)].
      * left. exists (S j). cbn [length nth]. repeat split; lia.
      * right. split; auto. intros [|j] Hj; cbn [nth length] in *; [lia|apply J2; lia].
Qed.
Lemma gen_exists : forall A (d : A) n (f : nat -> outcome A) (P : nat -> A -> Prop), (forall i, i < n -> exists a, f i = Ret a /\ P i a) ->
  exists l, gen n f = Ret l /\ length l = n /\ forall i, i < n -> P i (nth i l d).
Proof.
  intros A d n f P. unfold gen. enough (G : forall n lo, (forall i, i < n -> exists a, f (lo + i) = Ret a /\ P (lo + i) a) ->
    exists l, gen_from lo n f = Ret l /\ length l = n /\ forall i, i < n -> P (lo + i) (nth i l d)) by (intros H; exact (G n 0 H)).
  clear n. induction n as [|n IH]; intros lo H.
  - exists []. repeat split; auto. intros; lia.
  - cbn [gen_from]. destruct (H 0 ltac:(lia)) as (a & E & Pa). rewrite Nat.add_0_r in E, Pa. rewrite E. cbn [bind].
    destruct (IH (S lo)) as (l & El & L & Pl). { intros i Hi. destruct (H (S i) ltac:(lia)) as (a' & E' & P'). exists a'. rewrite <- Nat.add_succ_comm in E', P'. auto. }
    rewrite El. cbn [bind]. exists (a :: l). split; [reflexivity|]. cbn [length]. split; [lia|]. intros [|i] Hi; cbn [nth].
    + now rewrite Nat.add_0_r. + rewrite <- Nat.add_succ_comm. apply Pl. lia.
Qed.

Lemma pow_pos : forall k, 0 < 2 ^ k.
Proof. induction k; cbn; lia. Qed.
Section Alloc.
Variables (m : nat) (fb : list bool) (pats : list pattern) (r0 r1 : nat).
Let pat0 := mkPat STANDARD 0 0.
Hypothesis HL : length fb = 2 ^ m.
Hypothesis Hpats : Forall pattern_ok pats.
Hypothesis Hc : complete pats.
Hypothesis H0 : r0 < length pats.
Hypothesis H1 : r1 < length pats.
Hypothesis T0 : pt (nth r0 pats pat0) = RATE_0.
Hypothesis T1 : pt (nth r1 pats pat0) = RATE_1.
Lemma palloc_ok : forall p k d, d + k = m -> palloc p (2 ^ m) d = Ret (mkCont (pt p) (2 ^ k)).
Proof.
  intros p k d E. unfold palloc. replace (0 <? 2 ^ m) with true by (symmetry; apply Nat.ltb_lt; apply pow_pos). cbn [guard bind]. do 2 f_equal.
  rewrite <- E, Nat.pow_add_r, Nat.mul_comm. apply Nat.div_mul. pose proof (pow_pos d). lia.
Qed.
Lemma allocate_ok : forall n k d lane, fresh n k d lane -> d + k = m -> (lane + 1) * 2 ^ k <= 2 ^ m ->
  exists n', allocate (2 ^ m) m fb pats r0 r1 n = Ret n' /\ wf n' k (firstn (2 ^ k) (skipn (lane * 2 ^ k) fb)).
Proof.
  induction n as [c d0 lane0|c d0 lane0 l IHl r IHr]; intros k d lane F E B.
  - destruct c; [contradiction|]. destruct k; [|contradiction]. destruct F as [-> ->]. cbn [allocate]. cbn [Nat.pow] in *. rewrite Nat.mul_1_r in *.
    rewrite (rd_ok _ true) by lia. cbn [bind]. rewrite (rd_ok _ pat0) by (destruct (nth lane fb true); assumption). cbn [bind]. rewrite (palloc_ok _ 0) by lia. cbn [bind].
    eexists. split; [reflexivity|]. cbn [wf ctype csize].
    assert (S1 : firstn 1 (skipn lane fb) = [nth lane fb true]). { apply (list_eq_nth _ true). - rewrite firstn_length, skipn_length. cbn [length]. lia. - rewrite firstn_length, skipn_length. intros i Hi. rewrite firstn_nth by lia. rewrite skipn_nth. replace i with 0 by lia. cbn. f_equal. lia. }
    rewrite S1. split; [reflexivity|]. split; [reflexivity|]. destruct (nth lane fb true); [rewrite T0|rewrite T1]; reflexivity.
  - destruct c; [contradiction|]. destruct k as [|k]; [contradiction|]. destruct F as (-> & -> & Fl & Fr). cbn [allocate].
    assert (HP : 2 ^ S k = 2 ^ k + 2 ^ k) by (cbn; lia). rewrite HP in *.
    destruct (IHl k (S d) (2 * lane) Fl) as (l' & -> & Wl); [lia|lia|]. destruct (IHr k (S d) (2 * lane + 1) Fr) as (r' & -> & Wr); [lia|lia|]. cbn [bind].
    set (s := firstn (2 ^ k + 2 ^ k) (skipn (lane * (2 ^ k + 2 ^ k)) fb)).
    assert (S12 : s = firstn (2 ^ k) (skipn (2 * lane * 2 ^ k) fb) ++ firstn (2 ^ k) (skipn ((2 * lane + 1) * 2 ^ k) fb)).
    { unfold s. rewrite pick_add, skipn_add. f_equal; do 2 f_equal; lia. }
    assert (L1 : length (firstn (2 ^ k) (skipn (2 * lane * 2 ^ k) fb)) = 2 ^ k) by (rewrite firstn_length, skipn_length; lia).
    assert (Wl' : wf l' k (firstn (2 ^ k) s)). { rewrite S12. rewrite firstn_app, L1, Nat.sub_diag, firstn_O, app_nil_r. rewrite firstn_all2 by lia. exact Wl. }
    assert (Wr' : wf r' k (skipn (2 ^ k) s)). { rewrite S12. rewrite skipn_app, L1, Nat.sub_diag, skipn_O. rewrite skipn_all2 by lia. exact Wr. }
    rewrite <- E. replace (Z.of_nat (d + S k) - Z.of_nat d)%Z with (Z.of_nat (S k)) by lia.
    match goal with |- context [gen ?n ?f] => destruct (gen_exists _ 0 n f (fun i v => (0 < v -> is_terminal (pt (nth i pats pat0)) = true -> good (pt (nth i pats pat0)) s) /\ (pt (nth i pats pat0) = STANDARD -> 0 < v))) as (vals & -> & Lv & V) end.
    { intros i Hi. rewrite (rd_ok _ pat0) by lia. cbn [bind]. apply pmatch_ok; auto. rewrite Forall_forall in Hpats. apply Hpats. apply nth_In. exact Hi. }
    cbn [bind]. set (id := biggest vals 0 0 0).
    assert (HI : id < length pats /\ (is_terminal (pt (nth id pats pat0)) = true -> good (pt (nth id pats pat0)) s)).
    { pose proof (biggest_ok vals 0 0 0) as BG. cbn zeta in BG. fold id in BG. destruct BG as [(j & J1 & J2 & J3)|(J1 & J2)].
      - cbn [Nat.add] in J2. rewrite J2. split; [lia|]. apply V; lia.
      - rewrite J1. split; [lia|]. clear J1 id. destruct Hc as [(p & Ip & Tp)|(p & q & -> & Tp)].
        + destruct (In_nth _ _ pat0 Ip) as (i & Hi & <-). specialize (J2 i ltac:(lia)). destruct (V i Hi) as [_ V2]. specialize (V2 Tp). lia.
        + cbn [nth]. congruence. }
    destruct HI as [HI HG]. rewrite (rd_ok _ pat0) by exact HI. cbn [bind]. rewrite E, (palloc_ok _ (S k)) by lia. cbn [bind]. eexists. split; [reflexivity|].
    assert (Ls : length s = 2 ^ k + 2 ^ k) by (unfold s; rewrite firstn_length, skipn_length; lia).
    destruct (is_terminal (pt (nth id pats pat0))) eqn:TT.
    + cbn [wf ctype csize]. rewrite HP. auto.
    + cbn [wf ctype csize]. split; [exact TT|]. exists k, (firstn (2 ^ k) s), (skipn (2 ^ k) s). rewrite firstn_skipn. auto.
Qed.
End Alloc.

(** ** Leaves and extraction *)
Inductive segs : list (ptype * nat) -> list bool -> Prop :=
| segs_nil : segs [] []
| segs_cons : forall t n l s1 s2, length s1 = n -> 0 < n -> good t s1 -> segs l s2 -> segs ((t, n) :: l) (s1 ++ s2).
Lemma segs_app : forall l1 s1 l2 s2, segs l1 s1 -> segs l2 s2 -> segs (l1 ++ l2) (s1 ++ s2).
Proof. intros l1 s1 l2 s2 H1 H2. induction H1 as [|t n l a b Ln P G H IH]; cbn [app]; auto. rewrite <- app_assoc. now constructor. Qed.
Lemma indexes_ok : forall n k s, wf n k s -> exists tys lvs, indexes n = Ret (tys, lvs) /\ segs lvs s.
Proof.
  induction n as [[c|] d lane|[c|] d lane l IHl r IHr]; intros k s H; cbn [wf] in H; try contradiction.
  - cbn [indexes contents]. do 2 eexists. split; [reflexivity|]. rewrite <- (app_nil_r s). destruct H as (L & C & G). constructor; [congruence|rewrite C; apply pow_pos|exact G|constructor].
  - destruct H as (_ & k' & s1 & s2 & -> & -> & H1 & H2). cbn [indexes contents].
    destruct (IHl _ _ H1) as (t1 & l1 & -> & S1), (IHr _ _ H2) as (t2 & l2 & -> & S2). cbn [bind]. do 2 eexists. split; [reflexivity|]. now apply segs_app.
Qed.
Lemma firstn_two : forall A (a b c : list A) na nb, length a = na -> length b = nb -> firstn (na + nb) (a ++ b ++ c) = a ++ b.
Proof. intros A a b c na nb <- <-. rewrite app_assoc, <- app_length, firstn_app, Nat.sub_diag, firstn_O, app_nil_r. apply firstn_all. Qed.
Lemma skipn_two : forall A (a b c : list A) na nb e, length a = na -> length b = nb -> skipn (na + nb + e) (a ++ b ++ c) = skipn e c.
Proof. intros A a b c na nb e <- <-. rewrite app_assoc, <- app_length, <- skipn_add. f_equal. rewrite skipn_app, Nat.sub_diag, skipn_all. reflexivity. Qed.
Section Extraction.
Context {A : Type}.
Variables (df : A) (nf : nat) (V_N : list A).
Lemma extract_ok : forall lvs s, segs lvs s -> forall off sk V_K, (off + length s) * nf <= length V_N -> sk + length (frees off s) * nf <= length V_K ->
  extract_loop nf V_N lvs off sk V_K = Ret (firstn sk V_K ++ flat_map (values_at nf V_N) (frees off s) ++ skipn (sk + length (frees off s) * nf) V_K).
Proof.
  intros lvs s H. induction H as [|t n l s1 s2 Ln P G H IH]; intros off sk V_K B1 B2.
  - cbn [extract_loop frees flat_map length Nat.mul app]. now rewrite Nat.add_0_r, firstn_skipn.
  - rewrite app_length in B1. rewrite frees_app in *. rewrite app_length in B2. cbn [extract_loop].
    (* one copy *)
    assert (Step : forall src cnt, frees off s1 = seq src cnt -> src + cnt <= off + n ->
      (o <- copy V_N (src * nf) (cnt * nf) V_K sk ;; extract_loop nf V_N l (off + n) (sk + cnt * nf) o) =
      Ret (firstn sk V_K ++ flat_map (values_at nf V_N) (frees off s1 ++ frees (off + length s1) s2) ++ skipn (sk + length (frees off s1 ++ frees (off + length s1) s2) * nf) V_K)).
    { intros src cnt F Hs. rewrite F in *. rewrite seq_length in B2. rewrite Ln in *. rewrite (copy_list _ df) by nia. cbn [bind].
      assert (L1 : length (firstn sk V_K) = sk) by (rewrite firstn_length; nia).
      assert (L2 : length (firstn (cnt * nf) (skipn (src * nf) V_N)) = cnt * nf) by (rewrite firstn_length, skipn_length; nia).
      rewrite IH; [|nia|]. 2:{ rewrite !app_length, L1, L2, skipn_length. nia. }
      f_equal. rewrite flat_map_app, values_seq, app_length, seq_length.
      rewrite (firstn_two _ _ _ _ _ _ L1 L2), (skipn_two _ _ _ _ _ _ _ L1 L2), skipn_add. rewrite <- !app_assoc. do 4 f_equal. lia. }
    destruct t; cbn [good] in G; try contradiction.
    + (* RATE_0 *) cbn [bind]. assert (F : frees off s1 = []) by (rewrite G; apply frees_true). rewrite F in *. cbn [app length] in *. rewrite Ln in *. apply IH; [nia|exact B2].
    + (* RATE_1 *) rewrite bind_assoc. cbn [bind]. rewrite <- Nat.mul_sub_distr_r. replace (off + n - off) with n by lia. apply Step; [|lia]. rewrite G, Ln. apply frees_false.
    + (* REP *) destruct G as (q & ->). rewrite app_length, repeat_length in Ln. cbn [length] in Ln. rewrite bind_assoc. cbn [bind]. rewrite <- Nat.mul_sub_distr_r. replace (off + n - (off + n - 1)) with 1 by lia.
      replace (sk + nf) with (sk + 1 * nf) by lia. apply Step; [|lia]. rewrite frees_app, frees_true, repeat_length. cbn [app frees seq]. f_equal; lia.
    + (* SPC *) destruct G as (q & ->). cbn [length] in Ln. rewrite repeat_length in Ln. rewrite bind_assoc. cbn [bind]. rewrite <- Nat.mul_sub_distr_r. replace (off + n - (off + 1)) with (n - 1) by lia.
      apply Step; [|lia]. cbn [frees]. rewrite frees_false. f_equal; lia.
Qed.
End Extraction.

(** ** C59 *)
Definition pat_std := mkPat STANDARD 0 (-1).
Section C59.
Variables (n : nat) (pats : list pattern) (r0 r1 : nat).
Hypothesis Hpats : Forall pattern_ok pats.
Hypothesis Hc : complete pats.
Hypothesis T0 : exists p, nth_error pats r0 = Some p /\ pt p = RATE_0.
Hypothesis T1 : exists p, nth_error pats r1 = Some p /\ pt p = RATE_1.
Lemma ids : r0 < length pats /\ r1 < length pats /\ pt (nth r0 pats (mkPat STANDARD 0 0)) = RATE_0 /\ pt (nth r1 pats (mkPat STANDARD 0 0)) = RATE_1 /\ r0 <> r1.
Proof.
  destruct T0 as (p0 & E0 & P0), T1 as (p1 & E1 & P1). assert (A : r0 < length pats) by (apply nth_error_Some; congruence). assert (B : r1 < length pats) by (apply nth_error_Some; congruence).
  rewrite (nth_error_nth _ _ _ E0), (nth_error_nth _ _ _ E1). repeat split; auto. intros ->. congruence.
Qed.
Lemma set_ok : forall fb p, length fb = 2 ^ n -> p_N p = 2 ^ n -> length (p_fb p) = 2 ^ n -> p_pats p = pats -> p_r0 p = r0 -> p_r1 p = r1 ->
  exists p', set_frozen_bits fb p = Ret p' /\ segs (p_leaves p') fb /\ p_fb p' = fb /\ p_N p' = 2 ^ n /\ p_pats p' = pats /\ p_r0 p' = r0 /\ p_r1 p' = r1.
Proof.
  intros fb p L E1 E2 E3 E4 E5. destruct ids as (A & B & C & D & _). unfold set_frozen_bits. rewrite E1, E2, E3, E4, E5, L.
  rewrite Nat.ltb_irrefl. replace (2 ^ n =? 0) with false by (symmetry; apply Nat.eqb_neq; pose proof (pow_pos n); lia).
  rewrite skipn_all2 by lia. rewrite app_nil_r. cbn zeta. rewrite Nat.log2_pow2 by lia. destruct (tree_new_fresh n) as (t & -> & F). cbn [bind].
  destruct (allocate_ok n fb pats r0 r1 L Hpats Hc A B C D t n 0 0 F) as (t' & -> & W); [lia|lia|]. cbn [bind]. rewrite Nat.mul_0_l, skipn_O, firstn_all2 in W by lia.
  destruct (indexes_ok _ _ _ W) as (tys & lvs & -> & S1). cbn [bind]. eexists. split; [reflexivity|]. cbn. auto 10.
Qed.
End C59.

Lemma last_change : forall A (h : list A) a b, last h a = last (a :: h) b.
Proof. intros A h. induction h as [|x [|y h] IH]; intros a b; try reflexivity. change (last (y :: h) a = last (y :: h) b). rewrite (IH a b). reflexivity. Qed.

(** The leaves found for the 2^n frozen bits [fb] make the extraction return the values of the free positions, in order, and keep what follows in the output; this
    also after other frozen bits are given to the parser. *)
Theorem C59 : forall n pats r0 r1 fb,
  Forall pattern_ok pats -> complete pats ->
  (exists p, nth_error pats r0 = Some p /\ pt p = RATE_0) -> (exists p, nth_error pats r1 = Some p /\ pt p = RATE_1) ->
  length fb = 2 ^ n ->
  exists p, parser_new fb pats r0 r1 = Ret p /\
    forall history, Forall (fun fb' => length fb' = 2 ^ n) history ->
    exists p', fold_left (fun x fb' => q <- x ;; set_frozen_bits fb' q) history (Ret p) = Ret p' /\
    forall A (df : A) nf (V_N V_K : list A), length V_N = 2 ^ n * nf ->
      let free := free_positions (last history fb) in length free * nf <= length V_K ->
      fb_extract nf V_N (p_leaves p') V_K = Ret (flat_map (values_at nf V_N) free ++ skipn (length free * nf) V_K).
Proof.
  intros n pats r0 r1 fb Hp Hc T0 T1 L. destruct (ids pats r0 r1 T0 T1) as (A & B & _ & _ & Ne).
  unfold parser_new. apply Nat.ltb_lt in A, B. apply Nat.eqb_neq in Ne. rewrite A, B, Ne. cbn [guard bind negb].
  destruct (set_ok n pats r0 r1 Hp Hc T0 T1 fb (mkParser (length fb) fb pats r0 r1 (Lf None 0 0) [] [])) as (p & -> & S0 & I); auto.
  exists p. split; [reflexivity|]. intros history. revert fb p L S0 I.
  induction history as [|fb' history IH]; intros fb p L S0 (I1 & I2 & I3 & I4 & I5) Hh.
  - exists p. split; [reflexivity|]. intros X df nf V_N V_K LV. cbn zeta. cbn [last]. rewrite free_frees. intros LK. unfold fb_extract. rewrite (extract_ok df nf V_N _ _ S0 0 0); [reflexivity|rewrite L; lia|exact LK].
  - pose proof (Forall_inv Hh) as L'. pose proof (Forall_inv_tail Hh) as Hh'. cbn beta in L'. cbn [fold_left bind].
    destruct (set_ok n pats r0 r1 Hp Hc T0 T1 fb' p) as (p' & E' & S1 & J); auto; [congruence|]. rewrite E'.
    rewrite <- (last_change _ history fb' fb). apply (IH fb' p' L' S1 J Hh').
Qed.

(** the patterns of the fast simplified decoders, with the limits of the list decoders *)
Definition pats_sc : list pattern := [pat_std; mkPat RATE_0_LEFT 1 (-1); mkPat RATE_0 0 (-1); mkPat RATE_1 0 (-1); mkPat REP_LEFT 2 (-1); mkPat REP 1 (-1); mkPat SPC 2 (-1)].
Definition pats_scl : list pattern := [pat_std; mkPat RATE_0 0 (-1); mkPat RATE_1 0 (-1); mkPat RATE_0_LEFT 1 (-1); mkPat REP_LEFT 2 (-1); mkPat REP 1 (-1); mkPat SPC 2 2].
(** Decoder_polar_SC_fast_sys.hxx 131-140 and Decoder_polar_SCL_fast_sys.hxx 66-76, Decoder_polar_SCL_MEM_fast_sys.hxx 37-47 *)
Theorem C59_decoders : forall n fb nf A (df : A) (V_N V_K : list A), length fb = 2 ^ n -> length V_N = 2 ^ n * nf -> length V_K = length (free_positions fb) * nf ->
  (exists p, parser_new fb pats_sc 2 3 = Ret p /\ fb_extract nf V_N (p_leaves p) V_K = Ret (flat_map (values_at nf V_N) (free_positions fb))) /\
  (exists p, parser_new fb pats_scl 1 2 = Ret p /\ fb_extract nf V_N (p_leaves p) V_K = Ret (flat_map (values_at nf V_N) (free_positions fb))).
Proof.
  intros n fb nf A df V_N V_K L LN LK. split.
  - destruct (C59 n pats_sc 2 3 fb) as (p & E & H); auto.
    + repeat constructor; cbn; lia. + left. exists pat_std. cbn. auto. + eexists; split; reflexivity. + eexists; split; reflexivity.
    + exists p. split; [exact E|]. destruct (H [] (Forall_nil _)) as (p' & E' & X). cbn in E'. injection E' as <-. cbn [last] in X. rewrite (X A df nf V_N V_K LN); [|rewrite LK; lia].
      rewrite skipn_all2 by (rewrite LK; lia). rewrite app_nil_r. reflexivity.
  - destruct (C59 n pats_scl 1 2 fb) as (p & E & H); auto.
    + repeat constructor; cbn; lia. + left. exists pat_std. cbn. auto. + eexists; split; reflexivity. + eexists; split; reflexivity.
    + exists p. split; [exact E|]. destruct (H [] (Forall_nil _)) as (p' & E' & X). cbn in E'. injection E' as <-. cbn [last] in X. rewrite (X A df nf V_N V_K LN); [|rewrite LK; lia].
      rewrite skipn_all2 by (rewrite LK; lia). rewrite app_nil_r. reflexivity.
Qed.
Definition T := true. Definition F := false.
(** 16 bits: a REP node, an SPC node, two leaves, a rate-1 node; two frames interleaved *)
Example C59_case :
  match parser_new [T; T; T; F; T; F; F; F; T; T; F; T; F; F; F; F] pats_sc 2 3 with
  | Ret p => p_leaves p = [(REP, 4); (SPC, 4); (RATE_0, 2); (RATE_1, 1); (RATE_0, 1); (RATE_1, 4)] /\
    p_types p = [STANDARD; REP_LEFT; REP; SPC; STANDARD; RATE_0_LEFT; RATE_0; STANDARD; RATE_1; RATE_0; RATE_1] /\
    fb_extract 2 (seq 100 32) (p_leaves p) (repeat 0 20) = Ret ([106; 107; 110; 111; 112; 113; 114; 115; 120; 121; 124; 125; 126; 127; 128; 129; 130; 131] ++ [0; 0])
  | _ => False end.
Proof. vm_compute. auto. Qed.
(** Without a standard node and with a terminal pattern first, a node that matches nothing is given that terminal pattern: its free positions are lost, without an exception. *)
Theorem C59_incomplete_refuted : match parser_new [T; F; F; T] [mkPat RATE_0 0 (-1); mkPat RATE_1 0 (-1)] 0 1 with
  | Ret p => p_leaves p = [(RATE_0, 4)] /\ fb_extract 1 [10; 11; 12; 13] (p_leaves p) [0; 0] = Ret [0; 0] /\ free_positions [T; F; F; T] = [1; 2] | _ => False end.
Proof. vm_compute. auto. Qed.
(** A length that is not a power of two: the tree is the one of the first positions, with wrong sizes. *)
Theorem C59_length_refuted : match parser_new [T; F; F] pats_sc 2 3 with
  | Ret p => fb_extract 1 [10; 11; 12] (p_leaves p) [0; 0] = Ret [12; 0] /\ free_positions [T; F; F] = [1; 2] | _ => False end.
Proof. vm_compute. auto. Qed.
(** More frozen bits than at the construction: written out of the vector. *)
Theorem C59_longer_refuted : forall p fb, length (p_fb p) < length fb -> set_frozen_bits fb p = Undef.
Proof. intros p fb H. unfold set_frozen_bits. apply Nat.ltb_lt in H. rewrite H. reflexivity. Qed.

(** ** C81: a copy of the parser *)
(** The copy has the same leaves and the same types in the same order, so that the same bits are extracted with it, *)
Theorem C81_partial : forall n pats r0 r1 fb p, length fb = 2 ^ n -> parser_new fb pats r0 r1 = Ret p ->
  exists q, parser_copy p = Ret q /\ p_leaves q = p_leaves p /\ p_types q = p_types p /\ p_fb q = p_fb p /\
    (forall A nf (V_N V_K : list A), fb_extract nf V_N (p_leaves q) V_K = fb_extract nf V_N (p_leaves p) V_K) /\
    (forall fb', set_frozen_bits fb' q = set_frozen_bits fb' p).
Proof.
  intros n pats r0 r1 fb p L E. unfold parser_copy. destruct (tree_new_fresh (Nat.log2 (p_N p))) as (t & -> & _). cbn [bind]. eexists. split; [reflexivity|]. cbn [p_leaves p_types p_fb].
  repeat split; auto.
Qed.
(** but not the same tree: its nodes have wrong sizes, and below its terminal nodes, that should be leaves, there are nodes without contents: rebuilding the list of
    the leaves from the tree of the copy dereferences a null pointer. *)
Theorem C81_refuted : match parser_new [T; T; F; F] pats_sc 2 3 with
  | Ret p => indexes (p_tree p) = Ret (p_types p, p_leaves p) /\ p_leaves p = [(RATE_0, 2); (RATE_1, 2)] /\
    match parser_copy p with
    | Ret q => indexes (p_tree q) = Undef /\ match p_tree q with Bn _ _ _ l _ => contents l = Some (mkCont RATE_0 1) | Lf _ _ _ => False end
    | _ => False end
  | _ => False end.
Proof. vm_compute. auto. Qed.
