(** Lemmas for C50. *)
From Coq Require Import List Arith Lia Bool ZArith.
From Verif Require Import Base WLoops SortModel.
Import ListNotations.

Lemma skipn_upd_lt : forall (l : list nat) k i x, i < k -> skipn k (upd l i x) = skipn k l.
Proof.
  induction l as [|y l IH]; intros k i x H; [destruct i; reflexivity|]. destruct k as [|k]; [lia|]. destruct i as [|i]; [reflexivity|]. cbn [upd skipn]. apply IH. lia.
Qed.

Section Tree.
Variables mxe dep : nat.       (* max_elmts, depth *)
Let n := 2 ^ dep.
Hypothesis Hdep : 1 <= dep.
Hypothesis Hmx : n <= mxe.

Definition off (i : nat) : nat := mxe + 2 ^ dep - 2 ^ (S dep - i).

Lemma pow2_pos : forall k, 0 < 2 ^ k.
Proof. intros k. apply Nat.neq_0_lt_0, Nat.pow_nonzero. lia. Qed.
Lemma off_1 : off 1 = mxe.
Proof. unfold off. replace (S dep - 1) with dep by lia. lia. Qed.
Lemma off_S : forall i, 1 <= i <= dep -> off (S i) = off i + 2 ^ (dep - i).
Proof.
  intros i Hi. unfold off. replace (S dep - i) with (S (dep - i)) by lia. replace (S dep - S i) with (dep - i) by lia. rewrite Nat.pow_succ_r'.
  assert (2 ^ S (dep - i) <= 2 ^ dep) by (apply Nat.pow_le_mono_r; lia). rewrite Nat.pow_succ_r' in H. lia.
Qed.
Lemma off_mono : forall i i', 1 <= i -> i <= i' -> i' <= S dep -> off i <= off i'.
Proof.
  intros i i' H1 H2 H3. unfold off. assert (2 ^ (S dep - i') <= 2 ^ (S dep - i)) by (apply Nat.pow_le_mono_r; lia). lia.
Qed.
Lemma off_top : off (S dep) = mxe + n - 1.
Proof. unfold off, n. rewrite Nat.sub_diag. reflexivity. Qed.
Lemma off_in : forall i j, 1 <= i <= dep -> j < 2 ^ (dep - i) -> mxe <= off i + j < mxe + n - 1.
Proof.
  intros i j Hi Hj. pose proof (off_mono 1 i). pose proof (off_mono (S i) (S dep)). rewrite off_top in *. rewrite off_1 in *. pose proof (off_S i Hi). lia.
Qed.
Lemma off_inj : forall i j i' j', 1 <= i <= dep -> 1 <= i' <= dep -> j < 2 ^ (dep - i) -> j' < 2 ^ (dep - i') -> off i + j = off i' + j' -> i = i' /\ j = j'.
Proof.
  intros i j i' j' Hi Hi' Hj Hj' E. destruct (lt_eq_lt_dec i i') as [[L|L]|L].
  - pose proof (off_S i Hi). pose proof (off_mono (S i) i'). lia.
  - subst i'. lia.
  - pose proof (off_S i' Hi'). pose proof (off_mono (S i') i). lia.
Qed.

Section Values.
Variable v : list Z.
Variable A : nat -> Prop.
Hypothesis Hv : n <= length v.
Let val x := nth x v 0%Z.

Definition node_ok (i j w : nat) : Prop := w < n /\ w / 2 ^ i = j /\ A w /\ forall x, x < n -> x / 2 ^ i = j -> A x -> (val w <= val x)%Z.

Lemma div_succ : forall x i, x / 2 ^ S i = x / 2 ^ i / 2.
Proof. intros x i. rewrite Nat.pow_succ_r', Nat.mul_comm, Nat.div_div; auto; try (apply Nat.pow_nonzero; lia). Qed.

Lemma parent : forall i j a b, node_ok i (2 * j) a -> node_ok i (2 * j + 1) b -> node_ok (S i) j (if (val a <? val b)%Z then a else b).
Proof.
  intros i j a b (A1 & A2 & A3 & A4) (B1 & B2 & B3 & B4). destruct (Z.ltb_spec (val a) (val b)).
  - split; [exact A1|]. split; [rewrite div_succ, A2, Nat.mul_comm; apply Nat.div_mul; lia|]. split; [exact A3|]. intros x Hx E HA. rewrite div_succ in E.
    pose proof (Nat.div_mod (x / 2 ^ i) 2 ltac:(lia)) as DM. pose proof (Nat.mod_upper_bound (x / 2 ^ i) 2 ltac:(lia)). destruct (Nat.eq_dec (x / 2 ^ i) (2 * j)) as [Q|Q]; [exact (A4 x Hx Q HA)|]. specialize (B4 x Hx ltac:(lia) HA). lia.
  - split; [exact B1|]. split; [rewrite div_succ, B2; replace (2 * j + 1) with (1 + j * 2) by lia; rewrite Nat.div_add by lia; reflexivity|]. split; [exact B3|]. intros x Hx E HA. rewrite div_succ in E.
    pose proof (Nat.div_mod (x / 2 ^ i) 2 ltac:(lia)) as DM. pose proof (Nat.mod_upper_bound (x / 2 ^ i) 2 ltac:(lia)). destruct (Nat.eq_dec (x / 2 ^ i) (2 * j + 1)) as [Q|Q]; [exact (B4 x Hx Q HA)|]. specialize (A4 x Hx ltac:(lia) HA). lia.
Qed.

(** The nodes of [ok] hold their winner. *)
Definition tree_ok (ok : nat -> nat -> Prop) (tree : list nat) : Prop :=
  mxe + n - 1 <= length tree /\ (forall j, j < mxe -> nth j tree 0 = j) /\ forall i j, 1 <= i <= dep -> j < 2 ^ (dep - i) -> ok i j -> node_ok i j (nth (off i + j) tree 0).

Lemma duel_ok : forall tree a b dst, a < length tree -> b < length tree -> dst < length tree -> nth a tree 0 < n -> nth b tree 0 < n ->
  duel v tree a b dst = Ret (upd tree dst (if (val (nth a tree 0%nat) <? val (nth b tree 0%nat))%Z then nth a tree 0 else nth b tree 0)).
Proof.
  intros tree a b dst Ha Hb Hd Na Nb. unfold duel. rewrite (rd_ok _ 0) by exact Ha. cbn [bind]. rewrite (rd_ok _ 0) by exact Hb. cbn [bind]. rewrite (rd_ok _ 0%Z) by lia. cbn [bind]. rewrite (rd_ok _ 0%Z) by lia. cbn [bind]. rewrite wr_ok by exact Hd. reflexivity.
Qed.

(** A duel at a node above the leaves *)
Lemma duel_up : forall (ok : nat -> nat -> Prop) tree i j, 1 <= i < dep -> j < 2 ^ (dep - S i) -> tree_ok ok tree -> ok i (2 * j) -> ok i (2 * j + 1) ->
  exists tree', duel v tree (off i + 2 * j) (off i + 2 * j + 1) (off i + 2 ^ (dep - i) + j) = Ret tree' /\ tree_ok (fun i' j' => ok i' j' \/ (i' = S i /\ j' = j)) tree' /\ length tree' = length tree.
Proof.
  intros ok tree i j Hi Hj (L & B & N) O1 O2. assert (P : 2 ^ (dep - i) = 2 * 2 ^ (dep - S i)) by (rewrite <- Nat.pow_succ_r'; f_equal; lia).
  pose proof (off_in i (2 * j) ltac:(lia) ltac:(lia)). pose proof (off_in i (2 * j + 1) ltac:(lia) ltac:(lia)). pose proof (off_in (S i) j ltac:(lia) Hj) as QI. rewrite (off_S i) in QI by lia.
  pose proof (N i (2 * j) ltac:(lia) ltac:(lia) O1) as NA. pose proof (N i (2 * j + 1) ltac:(lia) ltac:(lia) O2) as NB. rewrite Nat.add_assoc in NB.
  rewrite duel_ok; try lia; [|apply NA|apply NB]. eexists. split; [reflexivity|]. split; [|apply length_upd]. split; [rewrite length_upd; exact L|]. split.
  - intros x Hx. rewrite nth_upd_neq by lia. apply B, Hx.
  - intros i' j' Hi' Hj' O. rewrite nth_upd by lia. destruct (Nat.eqb_spec (off i' + j') (off i + 2 ^ (dep - i) + j)) as [E|E].
    + rewrite <- (off_S i) in E by lia. destruct (off_inj i' j' (S i) j ltac:(lia) ltac:(lia) Hj' Hj E) as [-> ->]. apply parent; assumption.
    + apply N; try assumption. destruct O as [O|[-> ->]]; [exact O|]. rewrite (off_S i) in E by lia. contradiction.
Qed.
(** A duel between two leaves *)
Lemma duel_leaf : forall (ok : nat -> nat -> Prop) tree j, j < 2 ^ (dep - 1) -> (A (2 * j) /\ A (2 * j + 1)) -> tree_ok ok tree ->
  exists tree', duel v tree (2 * j) (2 * j + 1) (mxe + j) = Ret tree' /\ tree_ok (fun i' j' => ok i' j' \/ (i' = 1 /\ j' = j)) tree' /\ length tree' = length tree.
Proof.
  intros ok tree j Hj HA (L & B & N). assert (P : n = 2 * 2 ^ (dep - 1)) by (unfold n; rewrite <- Nat.pow_succ_r'; f_equal; lia).
  pose proof (off_in 1 j ltac:(lia) Hj) as QI. rewrite off_1 in QI. assert (NL : forall x, x < n -> A x -> node_ok 0 x x).
  { intros x Hx Ax. split; [exact Hx|]. split; [apply Nat.div_1_r|]. split; [exact Ax|]. intros y Hy E _. cbn [Nat.pow] in E. rewrite Nat.div_1_r in E. subst y. lia. }
  rewrite duel_ok; rewrite ?B by lia; try lia. eexists. split; [reflexivity|]. split; [|apply length_upd]. split; [rewrite length_upd; exact L|]. split.
  - intros x Hx. rewrite nth_upd_neq by lia. apply B, Hx.
  - intros i' j' Hi' Hj' O. rewrite nth_upd by lia. destruct (Nat.eqb_spec (off i' + j') (mxe + j)) as [E|E].
    + rewrite <- off_1 in E. destruct (off_inj i' j' 1 j ltac:(lia) ltac:(lia) Hj' Hj E) as [-> ->]. apply parent; apply NL; try lia; apply HA.
    + apply N; try assumption. destruct O as [O|[-> ->]]; [exact O|]. rewrite off_1 in E. contradiction.
Qed.

Lemma tree_ok_weak : forall (ok ok' : nat -> nat -> Prop) tree, (forall i j, 1 <= i <= dep -> j < 2 ^ (dep - i) -> ok' i j -> ok i j) -> tree_ok ok tree -> tree_ok ok' tree.
Proof. intros ok ok' tree W (L & B & N). split; [exact L|]. split; [exact B|]. intros i j Hi Hj O. apply N; auto. Qed.

Definition all_to (I : nat) (i j : nat) : Prop := i <= I.

Lemma pow_half : forall i, i < dep -> 2 ^ (dep - i) / 2 = 2 ^ (dep - S i).
Proof. intros i H. replace (dep - i) with (S (dep - S i)) by lia. rewrite Nat.pow_succ_r', Nat.mul_comm. apply Nat.div_mul. lia. Qed.

Lemma levels_ok : forall r i fuel tree, i + r = dep -> 1 <= i -> r < fuel -> tree_ok (all_to i) tree ->
  exists tree', levels fuel v (2 ^ (dep - i)) (off i) tree = Ret (tree', off dep) /\ tree_ok (all_to dep) tree' /\ length tree' = length tree.
Proof.
  induction r as [|r IH]; intros i fuel tree Hi H1 Hf T; (destruct fuel as [|fuel]; [lia|]); cbn [levels].
  - assert (i = dep) by lia. subst i. rewrite Nat.sub_diag. cbn [Nat.pow Nat.ltb Nat.leb]. exists tree. auto.
  - rewrite (proj2 (Nat.ltb_lt _ _)) by (apply Nat.pow_gt_1; lia). rewrite pow_half by lia.
    match goal with |- context [for_ ?K ?body tree] => destruct (for_inv _ (fun x t => tree_ok (fun i' j' => all_to i i' j' \/ (i' = S i /\ j' < x)) t /\ length t = length tree) K body tree) as (t & E & T' & L') end.
    + split; [|reflexivity]. revert T. apply tree_ok_weak. intros i' j' Hi' Hj' [O|O]; [exact O|lia].
    + intros j t Hj (T' & L'). destruct (duel_up _ t i j ltac:(lia) Hj T') as (t' & E & T2 & L2); [left; unfold all_to; lia|left; unfold all_to; lia|]. exists t'. split; [exact E|]. split; [|congruence]. revert T2. apply tree_ok_weak. intros i' j' Hi' Hj' [O|[O1 O2]]; [left; left; exact O|]. destruct (Nat.eq_dec j' j) as [->|]; [right; auto|left; right; lia].
    + rewrite E. cbn [bind]. replace (off i + 2 ^ (dep - i)) with (off (S i)) by (apply off_S; lia). destruct (IH (S i) fuel t) as (t' & E' & T2 & L2); try lia.
      * revert T'. apply tree_ok_weak. unfold all_to. intros i' j' Hi' Hj' O. destruct (Nat.eq_dec i' (S i)) as [->|]; [right; auto|left; lia].
      * exists t'. split; [exact E'|]. split; [exact T2|congruence].
Qed.

Definition but (p I i j : nat) : Prop := i <= I \/ j <> p / 2 ^ i.
Lemma branch_ok : forall dv p, p < n -> (forall x, A x \/ ~ A x) ->
  forall r i k fuel tree, i + r = dep -> 1 <= i -> r < fuel -> (forall s, dv (k + s) = 2 ^ (S (i + s))) -> tree_ok (but p i) tree ->
  exists tree', branch fuel dv v p (2 ^ (dep - i)) k (off i) tree = Ret (tree', off dep) /\ tree_ok (all_to dep) tree' /\ length tree' = length tree.
Proof.
  intros dv p Hp _. induction r as [|r IH]; intros i k fuel tree Hi H1 Hf HD T; (destruct fuel as [|fuel]; [lia|]); cbn [branch].
  - assert (i = dep) by lia. subst i. rewrite Nat.sub_diag. cbn [Nat.pow Nat.ltb Nat.leb]. exists tree. split; [reflexivity|]. split; [|reflexivity]. revert T. apply tree_ok_weak. intros i' j' Hi' _ _. left. lia.
  - rewrite (proj2 (Nat.ltb_lt _ _)) by (apply Nat.pow_gt_1; lia). rewrite pow_half by lia. pose proof (HD 0) as D0. rewrite !Nat.add_0_r in D0. rewrite D0.
    assert (PB : p / 2 ^ S i < 2 ^ (dep - S i)). { apply Nat.div_lt_upper_bound; [apply Nat.pow_nonzero; lia|]. rewrite <- Nat.pow_add_r. replace (S i + (dep - S i)) with dep by lia. exact Hp. }
    destruct (duel_up _ tree i (p / 2 ^ S i) ltac:(lia) PB T) as (t' & E & T2 & L2); [left; lia|left; lia|]. rewrite E. cbn [bind]. replace (off i + 2 ^ (dep - i)) with (off (S i)) by (apply off_S; lia).
    destruct (IH (S i) (S k) fuel t') as (t2 & E' & T3 & L3); try lia.
    + intros s. replace (S k + s) with (k + S s) by lia. rewrite HD. f_equal. lia.
    + revert T2. apply tree_ok_weak. intros i' j' Hi' Hj' O. destruct (Nat.eq_dec i' (S i)) as [->|].
      * destruct (Nat.eq_dec j' (p / 2 ^ S i)) as [->|]; [right; auto|left; right; assumption].
      * left. destruct O as [O|O]; [left; lia|right; exact O].
    + exists t2. split; [exact E'|]. split; [exact T3|congruence].
Qed.

Lemma root : forall tree, tree_ok (all_to dep) tree -> off dep < length tree /\ nth (off dep) tree 0 < n /\ A (nth (off dep) tree 0) /\ forall x, x < n -> A x -> (val (nth (off dep) tree 0%nat) <= val x)%Z.
Proof.
  intros tree (L & B & N). pose proof (off_in dep 0) as OI. rewrite Nat.sub_diag in OI. cbn [Nat.pow] in OI. specialize (OI ltac:(lia) ltac:(lia)). specialize (N dep 0). rewrite Nat.sub_diag in N. cbn [Nat.pow] in N. specialize (N ltac:(lia) ltac:(lia) (le_n _)). rewrite Nat.add_0_r in *.
  destruct N as (N1 & N2 & N3 & N4). split; [lia|]. split; [exact N1|]. split; [exact N3|]. intros x Hx Ax. apply N4; auto. apply Nat.div_small. exact Hx.
Qed.
End Values.

(** The winners of the nodes without p do not depend on the value of p. *)
Lemma node_change : forall v v' (A A' : nat -> Prop) p i j w, j <> p / 2 ^ i -> (forall x, x <> p -> nth x v' 0%Z = nth x v 0%Z) -> (forall x, x <> p -> (A x <-> A' x)) -> node_ok v A i j w -> node_ok v' A' i j w.
Proof.
  intros v v' A A' p i j w Hj HV HA (N1 & N2 & N3 & N4). assert (HW : w <> p) by (intros ->; congruence). split; [exact N1|]. split; [exact N2|]. split; [apply HA; assumption|].
  intros x Hx E Ax. assert (x <> p) by (intros ->; congruence). rewrite !HV by assumption. apply N4; auto. apply HA; assumption.
Qed.

Definition base_ok (tree : list nat) : Prop := mxe + n - 1 <= length tree /\ forall j, j < mxe -> nth j tree 0 = j.
Definition any (x : nat) : Prop := True.

Lemma n_half : n / 2 = 2 ^ (dep - 1).
Proof. unfold n. replace dep with (S (dep - 1)) at 1 by lia. rewrite Nat.pow_succ_r', Nat.mul_comm. apply Nat.div_mul. lia. Qed.

Lemma step1_ok : forall v pos tree, n <= length v -> 1 <= length pos -> base_ok tree ->
  exists tree', step1 v pos n dep mxe tree = Ret (upd pos 0 (nth (off dep) tree' 0), tree') /\ tree_ok v any (all_to dep) tree' /\ length tree' = length tree.
Proof.
  intros v pos tree Hv Hp (BL & BI). unfold step1. rewrite n_half.
  match goal with |- context [for_ ?K ?body tree] => destruct (for_inv _ (fun x t => tree_ok v any (fun i' j' => i' = 1 /\ j' < x) t /\ length t = length tree) K body tree) as (t & E & T' & L') end.
  - split; [|reflexivity]. split; [exact BL|]. split; [exact BI|]. intros i' j' _ _ [_ O]. lia.
  - intros j t Hj (T' & L'). destruct (duel_leaf v any Hv _ t j Hj (conj I I) T') as (t' & E & T2 & L2). exists t'. split; [exact E|]. split; [|congruence]. revert T2. apply tree_ok_weak. intros i' j' Hi' Hj' [O1 O2]. destruct (Nat.eq_dec j' j) as [->|]; [right; auto|left; lia].
  - rewrite E. cbn [bind]. rewrite (proj2 (Nat.eqb_neq dep 0)) by lia. destruct (levels_ok v any Hv (dep - 1) 1 (S dep) t) as (t' & E' & T2 & L2); try lia.
    + revert T'. apply tree_ok_weak. unfold all_to. intros i' j' Hi' Hj' O. assert (i' = 1) by lia. subst i'. auto.
    + rewrite off_1 in E'. rewrite E'. cbn [bind]. destruct (root v any Hv t' T2) as (R1 & _). rewrite (rd_ok _ 0) by exact R1. cbn [bind]. rewrite wr_ok by lia. cbn [bind]. exists t'. split; [reflexivity|]. split; [exact T2|congruence].
Qed.

Definition sel (v : list Z) (pos : list nat) (i : nat) : Prop :=
  nth i pos 0 < n /\ ~ In (nth i pos 0) (firstn i pos) /\ forall x, x < n -> ~ In x (firstn i pos) -> (nth (nth i pos 0%nat) v 0 <= nth x v 0)%Z.

Lemma firstn_S_nth : forall (l : list nat) k, k < length l -> firstn (S k) l = firstn k l ++ [nth k l 0].
Proof.
  induction l as [|x l IH]; intros k H; [cbn in H; lia|]. destruct k as [|k]; [reflexivity|]. cbn [firstn nth app]. f_equal. apply IH. cbn in H. lia.
Qed.
Lemma firstn_upd_ge : forall (l : list nat) k i x, k <= i -> firstn k (upd l i x) = firstn k l.
Proof.
  induction l as [|y l IH]; intros k i x H; [destruct i; reflexivity|]. destruct k as [|k]; [reflexivity|]. destruct i as [|i]; [lia|]. cbn [upd firstn]. f_equal. apply IH. lia.
Qed.

(** Some value below mx is not chosen yet. *)
Lemma free_one : forall (v : list Z) (mx : Z) (pos : list nat) k, k <= length pos -> k < length (filter (fun x => (nth x v 0 <? mx)%Z) (seq 0 n)) ->
  exists y, y < n /\ ~ In y (firstn k pos) /\ (nth y v 0 < mx)%Z.
Proof.
  intros v mx pos k Hk HC. destruct (Exists_dec (fun y => ~ In y (firstn k pos)) (filter (fun x => (nth x v 0 <? mx)%Z) (seq 0 n))) as [E|NE].
  - intros y. destruct (in_dec Nat.eq_dec y (firstn k pos)); [right; tauto|left; assumption].
  - apply Exists_exists in E. destruct E as (y & IY & NY). apply filter_In in IY. destruct IY as [IS LT]. apply in_seq in IS. apply Z.ltb_lt in LT. exists y. repeat split; try assumption. lia.
  - exfalso. assert (INC : incl (filter (fun x => (nth x v 0 <? mx)%Z) (seq 0 n)) (firstn k pos)).
    { intros y IY. destruct (in_dec Nat.eq_dec y (firstn k pos)) as [|N]; [assumption|]. exfalso. apply NE. apply Exists_exists. exists y. auto. }
    apply NoDup_incl_length in INC; [|apply NoDup_filter, seq_NoDup]. rewrite firstn_length in INC. lia.
Qed.

Lemma step2_ok : forall mx v pos K tree, n <= length v -> K <= length pos -> 1 <= K -> K <= length (filter (fun x => (nth x v 0 <? mx)%Z) (seq 0 n)) ->
  tree_ok v any (all_to dep) tree -> nth 0 pos 0 = nth (off dep) tree 0 ->
  exists v' pos' tree', step2 mx v pos K dep mxe tree = Ret (v', pos', tree') /\ length v' = length v /\ length pos' = length pos /\ length tree' = length tree /\ base_ok tree' /\ (forall i, i < K -> sel v pos' i) /\ skipn K pos' = skipn K pos.
Proof.
  intros mx v pos K tree Hv HK H1 HC T0 P0. unfold step2.
  match goal with |- context [for_ ?c ?body (v, pos, tree)] => destruct (for_inv _ (fun k s => let '(v', pos', tree') := s in length v' = length v /\ length pos' = length pos /\ length tree' = length tree /\
     (forall x, x < length v -> nth x v' 0%Z = if in_dec Nat.eq_dec x (firstn k pos') then mx else nth x v 0%Z) /\ tree_ok v' any (all_to dep) tree' /\ (forall i, i <= k -> sel v pos' i) /\ skipn (S k) pos' = skipn (S k) pos) c body (v, pos, tree)) as ([[v' pos'] tree'] & E & I) end.
  - split; [reflexivity|]. split; [reflexivity|]. split; [reflexivity|]. split; [intros x Hx; reflexivity|]. split; [exact T0|]. split; [|reflexivity].
    intros i Hi. assert (i = 0) by lia. subst i. unfold sel. rewrite P0. destruct (root v any Hv tree T0) as (_ & R2 & _ & R4). split; [exact R2|]. split; [intros []|]. intros x Hx _. apply R4; [exact Hx|exact I].
  - intros k [[v' pos'] tree'] Hk (LV & LP & LT & EV & T & SE & SK). assert (PK : k < length pos') by lia. rewrite (rd_ok _ 0) by exact PK. cbn [bind]. destruct (SE k (le_n _)) as (S1 & S2 & S3). set (p := nth k pos' 0) in *.
    rewrite wr_ok by lia. cbn [bind]. set (v2 := upd v' p mx). assert (LV2 : length v2 = length v) by (unfold v2; rewrite length_upd; exact LV). assert (Hv2 : n <= length v2) by lia.
    assert (PH : p / 2 < 2 ^ (dep - 1)) by (apply Nat.div_lt_upper_bound; [lia|]; rewrite <- Nat.pow_succ_r'; replace (S (dep - 1)) with dep by lia; exact S1).
    assert (TB : tree_ok v2 any (but p 0) tree').
    { destruct T as (TL & TB & TN). split; [exact TL|]. split; [exact TB|]. intros i j Hi Hj [O|O]; [lia|]. apply (node_change v' v2 any any p); [exact O| |tauto|apply TN; auto; unfold all_to; lia]. intros x Hx. unfold v2. apply nth_upd_neq. auto. }
    destruct (duel_leaf v2 any Hv2 _ tree' (p / 2) PH (conj I I) TB) as (t1 & E1 & T1 & L1). rewrite E1. cbn [bind]. rewrite (proj2 (Nat.eqb_neq dep 0)) by lia.
    destruct (branch_ok v2 any Hv2 (fun i => 2 ^ i * 2) p S1 ltac:(intros; left; exact I) (dep - 1) 1 1 (S dep) t1) as (t2 & E2 & T2 & L2); try lia.
    { intros s. cbn [Nat.pow]. lia. }
    { revert T1. apply tree_ok_weak. intros i' j' Hi' Hj' O. destruct (Nat.eq_dec i' 1) as [->|].
      - destruct (Nat.eq_dec j' (p / 2)) as [->|NJ]; [right; auto|left; right; cbn [Nat.pow]; exact NJ].
      - left. destruct O as [O|O]; [lia|right; exact O]. }
    rewrite off_1 in E2. rewrite E2. cbn [bind]. destruct (root v2 any Hv2 t2 T2) as (R1 & R2 & R3 & R4). rewrite (rd_ok _ 0) by exact R1. cbn [bind]. rewrite wr_ok by lia. cbn [bind]. set (w := nth (off dep) t2 0) in *.
    assert (EV2 : forall x, x < length v -> nth x v2 0%Z = if in_dec Nat.eq_dec x (firstn (S k) pos') then mx else nth x v 0%Z).
    { intros x Hx. unfold v2. rewrite nth_upd by lia. rewrite firstn_S_nth by exact PK. fold p. destruct (Nat.eqb_spec x p) as [->|NE].
      - destruct (in_dec Nat.eq_dec p (firstn k pos' ++ [p])) as [|N]; [reflexivity|]. exfalso. apply N, in_or_app. right. left. reflexivity.
      - rewrite EV by exact Hx. destruct (in_dec Nat.eq_dec x (firstn k pos')) as [Y|N], (in_dec Nat.eq_dec x (firstn k pos' ++ [p])) as [Y'|N']; try reflexivity.
        + exfalso. apply N', in_or_app. left. exact Y.
        + exfalso. apply in_app_or in Y'. destruct Y' as [Y'|[Y'|[]]]; [contradiction|congruence]. }
    destruct (free_one v mx pos' (S k) ltac:(lia) ltac:(lia)) as (y & Y1 & Y2 & Y3).
    assert (WN : ~ In w (firstn (S k) pos')). { intros IW. pose proof (R4 y Y1 I) as Q. rewrite !EV2 in Q by lia. destruct (in_dec Nat.eq_dec w (firstn (S k) pos')); [|contradiction]. destruct (in_dec Nat.eq_dec y (firstn (S k) pos')); [contradiction|]. lia. }
    eexists. split; [reflexivity|]. split; [exact LV2|]. split; [rewrite length_upd; exact LP|]. split; [congruence|]. split; [intros x Hx; rewrite EV2 by exact Hx; rewrite firstn_upd_ge by lia; reflexivity|]. split; [exact T2|]. split.
    + intros i Hi. unfold sel. rewrite firstn_upd_ge by lia. destruct (Nat.eq_dec i (S k)) as [->|NI].
      * rewrite nth_upd_eq by lia. split; [exact R2|]. split; [exact WN|]. intros x Hx NX. pose proof (R4 x Hx I) as Q. rewrite !EV2 in Q by lia. destruct (in_dec Nat.eq_dec w (firstn (S k) pos')); [contradiction|]. destruct (in_dec Nat.eq_dec x (firstn (S k) pos')); [contradiction|]. exact Q.
      * rewrite nth_upd_neq by lia. apply SE. lia.
    + rewrite !(skipn_upd_lt); try lia.
      assert (X : forall (l : list nat) a, skipn (S a) l = skipn 1 (skipn a l)). { clear. induction l as [|y l IH]; intros a; [destruct a; reflexivity|]. destruct a as [|a]; [reflexivity|]. cbn [skipn]. apply IH. }
      rewrite (X pos'), (X pos), SK. reflexivity.
  - destruct I as (I1 & I2 & I3 & I4 & (T1 & T2 & _) & I6 & I7). exists v', pos', tree'. split; [exact E|]. repeat (split; [assumption|]). split; [split; assumption|]. split; [intros i Hi; apply I6; lia|]. replace K with (S (K - 1)) by lia. exact I7.
Qed.

Lemma step2_2_ok : forall v pos tree, n <= length v -> 2 <= length pos -> tree_ok v any (all_to dep) tree -> nth 0 pos 0 = nth (off dep) tree 0 ->
  exists pos' tree', step2_2 v pos dep mxe tree = Ret (pos', tree') /\ length pos' = length pos /\ length tree' = length tree /\ base_ok tree' /\ (forall i, i < 2 -> sel v pos' i) /\ skipn 2 pos' = skipn 2 pos.
Proof.
  intros v pos tree Hv HP T P0. unfold step2_2. rewrite (rd_ok _ 0) by lia. cbn [bind]. destruct (root v any Hv tree T) as (R1 & R2 & _ & R4). rewrite P0. set (p := nth (off dep) tree 0) in *.
  set (q := if p mod 2 =? 1 then p - 1 else p + 1). assert (N2 : n = 2 * 2 ^ (dep - 1)) by (unfold n; rewrite <- Nat.pow_succ_r'; f_equal; lia).
  assert (QQ : q < n /\ q / 2 = p / 2 /\ q <> p /\ forall x, x / 2 = p / 2 -> x <> p -> x = q).
  { unfold q. pose proof (Nat.div_mod p 2 ltac:(lia)) as DP. pose proof (Nat.mod_upper_bound p 2 ltac:(lia)) as MP. assert (X : forall x, x / 2 = p / 2 -> x <> p -> x = if p mod 2 =? 1 then p - 1 else p + 1).
    { intros x E NE. pose proof (Nat.div_mod x 2 ltac:(lia)) as DX. pose proof (Nat.mod_upper_bound x 2 ltac:(lia)). destruct (Nat.eqb_spec (p mod 2) 1); lia. }
    destruct (Nat.eqb_spec (p mod 2) 1) as [E|E]; (split; [lia|]; split; [|split; [lia|exact X]]).
    - replace (p - 1) with (0 + (p / 2) * 2) by lia. rewrite Nat.div_add by lia. reflexivity.
    - replace (p + 1) with (1 + (p / 2) * 2) by lia. rewrite Nat.div_add by lia. reflexivity. }
  destruct QQ as (Q1 & Q2 & Q3 & Q4). set (A := fun x => x <> p).
  assert (PH : p / 2 < 2 ^ (dep - 1)) by (apply Nat.div_lt_upper_bound; lia). pose proof (off_in 1 (p / 2) ltac:(lia) PH) as OI. rewrite off_1 in OI.
  destruct T as (TL & TB & TN). rewrite wr_ok by lia. cbn [bind]. rewrite (proj2 (Nat.eqb_neq dep 0)) by lia.
  assert (T1 : tree_ok v A (but p 1) (upd tree (mxe + p / 2) q)).
  { split; [rewrite length_upd; exact TL|]. split; [intros j Hj; rewrite nth_upd_neq by lia; apply TB, Hj|]. intros i j Hi Hj O. rewrite nth_upd by lia. destruct (Nat.eqb_spec (off i + j) (mxe + p / 2)) as [E|E].
    - rewrite <- off_1 in E. destruct (off_inj i j 1 (p / 2) Hi ltac:(lia) Hj PH E) as [-> ->]. split; [exact Q1|]. split; [exact Q2|]. split; [exact Q3|]. intros x Hx EX AX. rewrite (Q4 x EX AX). lia.
    - assert (NJ : j <> p / 2 ^ i). { destruct O as [O|O]; [|exact O]. assert (i = 1) by lia. subst i. rewrite off_1 in E. cbn [Nat.pow]. intros ->. apply E. reflexivity. }
      apply (node_change v v any A p); [exact NJ|reflexivity|unfold any, A; tauto|apply TN; auto; unfold all_to; lia]. }
  destruct (branch_ok v A Hv (fun i => 2 ^ i) p R2 ltac:(intros x; unfold A; destruct (Nat.eq_dec x p); [right; tauto|left; assumption]) (dep - 1) 1 2 (S dep) (upd tree (mxe + p / 2) q)) as (t2 & E2 & T2 & L2); try lia; [intros s; f_equal|exact T1|].
  rewrite off_1 in E2. rewrite E2. cbn [bind]. destruct (root v A Hv t2 T2) as (W1 & W2 & W3 & W4). rewrite (rd_ok _ 0) by exact W1. cbn [bind]. rewrite wr_ok by lia. cbn [bind].
  eexists. exists t2. split; [reflexivity|]. split; [apply length_upd|]. split; [rewrite L2; apply length_upd|]. destruct T2 as (U1 & U2 & _). split; [split; assumption|]. split; [|apply skipn_upd_lt; lia].
  intros i Hi. unfold sel. rewrite firstn_upd_ge by lia. destruct (Nat.eq_dec i 1) as [->|].
  - rewrite nth_upd_eq by lia. destruct pos as [|p0 pos]; [cbn in HP; lia|]. cbn [nth firstn] in *. subst p0. split; [exact W2|]. split; [intros [X|[]]; apply W3; auto|]. intros x Hx NX. apply W4; [exact Hx|]. intros ->. apply NX. left. reflexivity.
  - assert (i = 0) by lia. subst i. rewrite nth_upd_neq by lia. rewrite P0. split; [exact R2|]. split; [intros []|]. intros x Hx _. apply R4; [exact Hx|exact I].
Qed.
End Tree.

(** ** The sorter between calls *)
Definition sorter_ok (s : sorter) : Prop :=
  1 <= s_max s /\ length (s_tree s) = 2 * s_max s - 1 /\ (forall j, j < s_max s -> nth j (s_tree s) 0 = j) /\ s_max s <= length (s_vals s).

Lemma iota_ok : forall n l, n <= length l -> exists l', iota n l = Ret l' /\ length l' = length l /\ forall j, j < n -> nth j l' 0 = j.
Proof.
  intros n l L. unfold iota. match goal with |- context [for_ ?K ?body l] => destruct (for_inv _ (fun x t => length t = length l /\ forall j, j < x -> nth j t 0 = j) K body l) as (t & E & L' & I) end.
  - split; [reflexivity|]. intros j Hj. lia.
  - intros i t Hi (LT & I). rewrite wr_ok by lia. eexists. split; [reflexivity|]. split; [rewrite length_upd; exact LT|]. intros j Hj. rewrite nth_upd by lia. destruct (Nat.eqb_spec j i) as [->|]; [reflexivity|apply I; lia].
  - eauto.
Qed.
Lemma length_resize : forall A (d : A) n l, length (resize d n l) = n.
Proof. intros A d n l. unfold resize. rewrite app_length, firstn_length, repeat_length. lia. Qed.

Lemma new_sorter_ok : forall mxe, 1 <= mxe -> exists s, new_sorter mxe = Ret s /\ sorter_ok s /\ s_max s = mxe.
Proof.
  intros mxe H. unfold new_sorter. rewrite (proj2 (Nat.eqb_neq mxe 0)) by lia. destruct (iota_ok mxe (repeat 0 (2 * mxe - 1))) as (t & E & L & I); [rewrite repeat_length; lia|]. rewrite E. cbn [bind]. eexists. split; [reflexivity|]. split; [|reflexivity].
  split; [exact H|]. cbn [s_max s_tree s_vals]. rewrite !repeat_length in *. repeat split; try assumption; lia.
Qed.

Definition arg_K (pos : list nat) (K : Z) : nat := if (K <=? 0)%Z then length pos else Z.to_nat K.
Definition arg_n (s : sorter) (n_elmts : Z) : nat := if (n_elmts <=? 0)%Z then s_max s else Z.to_nat n_elmts.
Lemma prepare_ok : forall s pos n_elmts K, sorter_ok s -> exists s', prepare s pos n_elmts K = Ret (s', arg_n s n_elmts, arg_K pos K, Nat.log2 (arg_n s n_elmts)) /\ sorter_ok s' /\ s_max s' = Nat.max (s_max s) (arg_n s n_elmts).
Proof.
  intros s pos n_elmts K (S1 & S2 & S3 & S4). unfold prepare. fold (arg_K pos K). fold (arg_n s n_elmts). set (n := arg_n s n_elmts). assert (HN : 1 <= n). { unfold n, arg_n. destruct (Z.leb_spec n_elmts 0); lia. }
  rewrite (proj2 (Nat.eqb_neq n 0)) by lia. destruct (Nat.ltb_spec (s_max s) n).
  - destruct (iota_ok n (resize 0 (2 * n - 1) (s_tree s))) as (t & E & L & I); [rewrite length_resize; lia|]. rewrite E. cbn [bind]. eexists. split; [reflexivity|]. split; [|cbn [s_max]; lia]. split; [exact HN|]. cbn [s_max s_tree s_vals]. rewrite length_resize in *. auto.
  - exists s. split; [reflexivity|]. split; [repeat split; assumption|lia].
Qed.

(** What the calls may write in the tree *)
Definition keeps (mxe : nat) (t t' : list nat) : Prop := length t' = length t /\ forall j, j < mxe -> nth j t' 0 = nth j t 0.
Lemma keeps_refl : forall mxe t, keeps mxe t t.
Proof. intros. split; reflexivity. Qed.
Lemma keeps_trans : forall mxe a b c, keeps mxe a b -> keeps mxe b c -> keeps mxe a c.
Proof. intros mxe a b c (A1 & A2) (B1 & B2). split; [congruence|]. intros j Hj. rewrite B2, A2 by exact Hj. reflexivity. Qed.
Lemma wr_keeps : forall mxe t i x t', wr t i x = Ret t' -> mxe <= i -> keeps mxe t t'.
Proof.
  intros mxe t i x t' H Hi. destruct (Nat.lt_ge_cases i (length t)) as [L|L]; [|rewrite wr_out in H by exact L; discriminate]. rewrite wr_ok in H by exact L. injection H as <-. split; [apply length_upd|]. intros j Hj. apply nth_upd_neq. lia.
Qed.
Lemma duel_keeps : forall mxe v t a b dst t', duel v t a b dst = Ret t' -> mxe <= dst -> keeps mxe t t'.
Proof.
  intros mxe v t a b dst t' H Hd. unfold duel in H. apply bind_inv in H. destruct H as (ia & _ & H). apply bind_inv in H. destruct H as (ib & _ & H). apply bind_inv in H. destruct H as (va & _ & H). apply bind_inv in H. destruct H as (vb & _ & H). exact (wr_keeps _ _ _ _ _ H Hd).
Qed.
Lemma levels_keeps : forall mxe fuel v n o t t' o', levels fuel v n o t = Ret (t', o') -> mxe <= o -> keeps mxe t t'.
Proof.
  intros mxe. induction fuel as [|fuel IH]; intros v n o t t' o' H Ho; cbn [levels] in H; [discriminate|]. destruct (1 <? n); [|injection H as <- <-; apply keeps_refl].
  apply bind_inv in H. destruct H as (t1 & H1 & H2). apply IH in H2; [|lia]. apply (keeps_trans mxe t t1); [|exact H2]. revert H1. apply (for_part _ (fun _ u => keeps mxe t u)); [apply keeps_refl|].
  intros j u u' Hj KU HD. apply (keeps_trans mxe t u); [exact KU|]. apply (duel_keeps mxe) in HD; [exact HD|lia].
Qed.
Lemma branch_keeps : forall mxe fuel dv v p n i o t t' o', branch fuel dv v p n i o t = Ret (t', o') -> mxe <= o -> keeps mxe t t'.
Proof.
  intros mxe. induction fuel as [|fuel IH]; intros dv v p n i o t t' o' H Ho; cbn [branch] in H; [discriminate|]. destruct (1 <? n); [|injection H as <- <-; apply keeps_refl].
  apply bind_inv in H. destruct H as (t1 & H1 & H2). apply IH in H2; [|lia]. apply (keeps_trans mxe t t1); [|exact H2]. apply (duel_keeps mxe) in H1; [exact H1|lia].
Qed.
Lemma step1_keeps : forall v pos n dep mxe t pos' t', step1 v pos n dep mxe t = Ret (pos', t') -> keeps mxe t t'.
Proof.
  intros v pos n dep mxe t pos' t' H. unfold step1 in H. apply bind_inv in H. destruct H as (t1 & H1 & H). destruct (dep =? 0); [discriminate|]. apply bind_inv in H. destruct H as ([t2 o] & H2 & H). apply bind_inv in H. destruct H as (x & _ & H). apply bind_inv in H. destruct H as (q & _ & H). injection H as _ <-.
  apply (keeps_trans mxe t t1); [|exact (levels_keeps mxe _ _ _ _ _ _ _ H2 (le_n _))]. revert H1. apply (for_part _ (fun _ u => keeps mxe t u)); [apply keeps_refl|].
  intros j u u' Hj KU HD. apply (keeps_trans mxe t u); [exact KU|]. apply (duel_keeps mxe) in HD; [exact HD|lia].
Qed.
Lemma step2_2_keeps : forall v pos dep mxe t pos' t', step2_2 v pos dep mxe t = Ret (pos', t') -> keeps mxe t t'.
Proof.
  intros v pos dep mxe t pos' t' H. unfold step2_2 in H. apply bind_inv in H. destruct H as (p & _ & H). apply bind_inv in H. destruct H as (t1 & H1 & H). destruct (dep =? 0); [discriminate|]. apply bind_inv in H. destruct H as ([t2 o] & H2 & H). apply bind_inv in H. destruct H as (x & _ & H). apply bind_inv in H. destruct H as (q & _ & H). injection H as _ <-.
  apply (keeps_trans mxe t t1); [|exact (branch_keeps mxe _ _ _ _ _ _ _ _ _ _ H2 (le_n _))]. apply (wr_keeps mxe) in H1; [exact H1|lia].
Qed.
Lemma step2_keeps : forall mx v pos K dep mxe t v' pos' t', step2 mx v pos K dep mxe t = Ret (v', pos', t') -> keeps mxe t t' /\ length v' = length v.
Proof.
  intros mx v pos K dep mxe t v' pos' t' H. unfold step2 in H. change (let '(v', _, t') := (v', pos', t') in keeps mxe t t' /\ length v' = length v). revert H. apply (for_part _ (fun _ u => let '(v', _, t') := u in keeps mxe t t' /\ length v' = length v)); [split; [apply keeps_refl|reflexivity]|].
  intros k [[w pw] tw] [[w' pw'] tw'] Hk (KU & LW) H. apply bind_inv in H. destruct H as (p & _ & H). apply bind_inv in H. destruct H as (w1 & HW & H). apply bind_inv in H. destruct H as (t1 & H1 & H). destruct (dep =? 0); [discriminate|]. apply bind_inv in H. destruct H as ([t2 o] & H2 & H). apply bind_inv in H. destruct H as (x & _ & H). apply bind_inv in H. destruct H as (q & _ & H). injection H as <- _ <-.
  split.
  - apply (keeps_trans mxe t tw); [exact KU|]. apply (keeps_trans mxe tw t1); [|exact (branch_keeps mxe _ _ _ _ _ _ _ _ _ _ H2 (le_n _))]. apply (duel_keeps mxe) in H1; [exact H1|lia].
  - destruct (Nat.lt_ge_cases p (length w)) as [L|L]; [|rewrite wr_out in HW by exact L; discriminate]. rewrite wr_ok in HW by exact L. injection HW as <-. rewrite length_upd. exact LW.
Qed.

Lemma sorter_keeps : forall s t v, sorter_ok s -> keeps (s_max s) (s_tree s) t -> length v = length (s_vals s) -> sorter_ok (mkSorter (s_max s) t v).
Proof.
  intros s t v (S1 & S2 & S3 & S4) (K1 & K2) L. split; [exact S1|]. cbn [s_max s_tree s_vals]. split; [congruence|]. split; [intros j Hj; rewrite K2 by exact Hj; apply S3, Hj|lia].
Qed.

Lemma destructive_keeps : forall mx s v pos n K s' v' pos', sorter_ok s -> partial_sort_destructive mx s v pos n K = Ret (s', v', pos') -> sorter_ok s'.
Proof.
  intros mx s v pos n K s' v' pos' SO H. unfold partial_sort_destructive in H. destruct (prepare_ok s pos n K SO) as (s1 & E & SO1 & _). rewrite E in H. cbn [bind] in H. apply bind_inv in H. destruct H as ([p1 t1] & H1 & H). apply step1_keeps in H1. destruct (arg_K pos K =? 2).
  - apply bind_inv in H. destruct H as ([p2 t2] & H2 & H). injection H as <- _ _. apply step2_2_keeps in H2. apply sorter_keeps; [exact SO1|exact (keeps_trans _ _ _ _ H1 H2)|reflexivity].
  - apply bind_inv in H. destruct H as ([[v2 p2] t2] & H2 & H). injection H as <- _ _. apply step2_keeps in H2. apply sorter_keeps; [exact SO1|exact (keeps_trans _ _ _ _ H1 (proj1 H2))|reflexivity].
Qed.
Lemma sort_keeps : forall mx s v pos n K s' pos', sorter_ok s -> partial_sort mx s v pos n K = Ret (s', pos') -> sorter_ok s'.
Proof.
  intros mx s v pos n K s' pos' SO H. unfold partial_sort in H. destruct (prepare_ok s pos n K SO) as (s1 & E & SO1 & _). rewrite E in H. cbn [bind] in H. apply bind_inv in H. destruct H as ([p1 t1] & H1 & H). apply step1_keeps in H1. destruct (arg_K pos K =? 2).
  - apply bind_inv in H. destruct H as ([p2 t2] & H2 & H). injection H as <- _. apply step2_2_keeps in H2. apply sorter_keeps; [exact SO1|exact (keeps_trans _ _ _ _ H1 H2)|reflexivity].
  - apply bind_inv in H. destruct H as (w & HW & H). apply bind_inv in H. destruct H as ([[v2 p2] t2] & H2 & H). injection H as <- _. apply step2_keeps in H2. destruct H2 as [K2 LW]. apply sorter_keeps; [exact SO1|exact (keeps_trans _ _ _ _ H1 K2)|]. rewrite LW.
    revert HW. apply (for_part _ (fun _ u => length u = length (s_vals s1))); [reflexivity|]. intros i u u' Hi LU HB. apply bind_inv in HB. destruct HB as (x & _ & HB). destruct (Nat.lt_ge_cases i (length u)) as [L|L]; [|rewrite wr_out in HB by exact L; discriminate]. rewrite wr_ok in HB by exact L. injection HB as <-. rewrite length_upd. exact LU.
Qed.
