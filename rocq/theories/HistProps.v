(** Theorems about the histograms (C49, C76). *)
From Coq Require Import List Arith Lia Bool ZArith QArith Sorted.
From Verif Require Import Base FloatQ DistModel DistProps QuantModel HistModel.
Import ListNotations.
Local Open Scope Z_scope.

(** ** Maps *)
Definition keys (m : hmap) : list Z := map fst m.
Definition ordered (m : hmap) : Prop := StronglySorted Z.lt (keys m).
Definition total (m : hmap) : Z := zsum (map snd m).

Lemma find_put : forall m k c k', find k' (put k c m) = if k' =? k then Some c else find k' m.
Proof.
  induction m as [|[x y] m IH]; intros k c k'; cbn [put find]; [reflexivity|]. destruct (Z.ltb_spec k x); cbn [find]; [reflexivity|]. destruct (Z.eqb_spec k x) as [->|N]; cbn [find].
  - destruct (k' =? x); reflexivity.
  - rewrite IH. destruct (Z.eqb_spec k' x), (Z.eqb_spec k' k); try reflexivity; lia.
Qed.
Lemma in_put : forall m k c x, In x (keys (put k c m)) -> x = k \/ In x (keys m).
Proof.
  unfold keys. induction m as [|[x y] m IH]; intros k c z; cbn [put map fst In]; [intros [<-|[]]; left; reflexivity|]. destruct (k <? x); cbn [map fst In]; [intros [<-|H]; tauto|].
  destruct (Z.eqb_spec k x) as [->|N]; cbn [map fst In]; [tauto|]. intros [H|H]; [tauto|]. destruct (IH _ _ _ H); tauto.
Qed.
Lemma ordered_put : forall m k c, ordered m -> ordered (put k c m).
Proof.
  unfold ordered, keys. induction m as [|[x y] m IH]; intros k c H; cbn [put map fst]; [constructor; constructor|]. inversion H as [|? ? S F]; subst.
  destruct (Z.ltb_spec k x); cbn [map fst].
  - constructor; [exact H|]. constructor; [lia|]. eapply Forall_impl; [|exact F]. cbn beta. intros; lia.
  - destruct (Z.eqb_spec k x) as [->|N]; cbn [map fst]; [exact H|]. constructor; [apply IH; exact S|]. apply Forall_forall. intros z I. apply in_put in I. destruct I as [->|I]; [lia|]. exact (proj1 (Forall_forall _ _) F z I).
Qed.
Lemma find_None : forall m k, ~ In k (keys m) -> find k m = None.
Proof. unfold keys. induction m as [|[x y] m IH]; intros k H; cbn [find]; [reflexivity|]. cbn [map fst In] in H. destruct (Z.eqb_spec k x) as [->|N]; [tauto|]. apply IH. tauto. Qed.
Lemma find_In : forall m k c, find k m = Some c -> In (k, c) m.
Proof. induction m as [|[x y] m IH]; intros k c; cbn [find]; [discriminate|]. destruct (Z.eqb_spec k x) as [->|N]; [intros H; injection H as ->; left; reflexivity|]. intros H. right. apply IH. exact H. Qed.
Lemma In_find : forall m k c, ordered m -> In (k, c) m -> find k m = Some c.
Proof.
  unfold ordered, keys. induction m as [|[x y] m IH]; intros k c H I; [destruct I|]. inversion H as [|? ? S F]; subst. cbn [find]. destruct I as [E|I].
  - injection E as -> ->. rewrite Z.eqb_refl. reflexivity.
  - pose proof (proj1 (Forall_forall _ _) F k (in_map fst _ _ I)). destruct (Z.eqb_spec k x); [lia|]. apply IH; assumption.
Qed.
Lemma ordered_ext : forall a b, ordered a -> ordered b -> (forall k, find k a = find k b) -> a = b.
Proof.
  unfold ordered, keys. induction a as [|[x y] a IH]; intros [|[u v] b] A B H.
  - reflexivity.
  - specialize (H u). cbn [find] in H. rewrite Z.eqb_refl in H. discriminate.
  - specialize (H x). cbn [find] in H. rewrite Z.eqb_refl in H. discriminate.
  - inversion A as [|? ? SA FA]; inversion B as [|? ? SB FB]; subst. cbn [fst] in *.
    assert (E : x = u).
    { pose proof (H x) as Hx. pose proof (H u) as Hu. cbn [find] in Hx, Hu. rewrite Z.eqb_refl in Hx, Hu. destruct (Z.eqb_spec x u) as [E|E]; [exact E|]. destruct (Z.eqb_spec u x); [lia|].
      symmetry in Hx. apply find_In in Hx. apply find_In in Hu. pose proof (proj1 (Forall_forall _ _) FB x (in_map fst _ _ Hx)). pose proof (proj1 (Forall_forall _ _) FA u (in_map fst _ _ Hu)). lia. }
    subst u. pose proof (H x) as Hx. cbn [find] in Hx. rewrite Z.eqb_refl in Hx. injection Hx as ->. f_equal. apply IH; try assumption.
    intros k. specialize (H k). cbn [find] in H. destruct (Z.eqb_spec k x) as [E|N]; [|exact H]. subst k. clear H.
    rewrite !find_None; [reflexivity| |]; intros I; [pose proof (proj1 (Forall_forall _ _) FB x I)|pose proof (proj1 (Forall_forall _ _) FA x I)]; lia.
Qed.

(** the sum of the counts *)
Lemma total_put : forall m k c, ordered m -> total (put k c m) = total m - (match find k m with Some y => y | None => 0 end) + c.
Proof.
  unfold total. induction m as [|[x y] m IH]; intros k c H; [cbn; lia|]. inversion H as [|? ? S F]; subst. cbn [put find]. destruct (Z.ltb_spec k x).
  - cbn [map snd]. rewrite !zsum_cons. destruct (Z.eqb_spec k x); [lia|]. rewrite find_None; [lia|]. intros I. pose proof (proj1 (Forall_forall _ _) F k I). cbn [fst] in *. lia.
  - destruct (Z.eqb_spec k x) as [->|N]; cbn [map snd]; rewrite !zsum_cons; [lia|]. rewrite IH by exact S. lia.
Qed.

Lemma usize_add : forall a b, usize (usize a + b) = usize (a + b).
Proof. intros. unfold usize. apply Zplus_mod_idemp_l. Qed.
Lemma usize_add_r : forall a b, usize (a + usize b) = usize (a + b).
Proof. intros. unfold usize. apply Zplus_mod_idemp_r. Qed.
Lemma usize_small : forall a, 0 <= a < 2 ^ 64 -> usize a = a.
Proof. intros. apply Z.mod_small. lia. Qed.
Lemma usize_range : forall a, 0 <= usize a < 2 ^ 64.
Proof. intros. apply Z.mod_pos_bound. lia. Qed.
Lemma usize_cong : forall a b c, usize a = usize b -> usize (a + c) = usize (b + c).
Proof. intros a b c H. rewrite <- usize_add, H, usize_add. reflexivity. Qed.

Definition in_range (m : hmap) : Prop := forall k c, find k m = Some c -> 0 <= c < 2 ^ 64.

Lemma find_add : forall m k w k', 0 <= w < 2 ^ 64 -> find k' (add_key k w m) = if k' =? k then Some (usize ((match find k m with Some c => c | None => 0 end) + w)) else find k' m.
Proof.
  intros m k w k' Hw. unfold add_key. destruct (find k m) as [c|] eqn:E; rewrite find_put; destruct (k' =? k); try reflexivity. rewrite Z.add_0_l, usize_small by exact Hw. reflexivity.
Qed.
Lemma ordered_add : forall m k w, ordered m -> ordered (add_key k w m).
Proof. intros m k w H. unfold add_key. destruct (find k m); apply ordered_put; exact H. Qed.
Lemma range_add : forall m k w, 0 <= w < 2 ^ 64 -> in_range m -> in_range (add_key k w m).
Proof. intros m k w Hw H k' c. rewrite find_add by exact Hw. destruct (k' =? k); [intros E; injection E as <-; apply usize_range|apply H]. Qed.
Lemma total_add : forall m k w, ordered m -> usize (total (add_key k w m)) = usize (total m + w).
Proof.
  intros m k w H. unfold add_key. destruct (find k m) as [c|] eqn:E; rewrite total_put by exact H; rewrite E.
  - rewrite usize_add_r. f_equal. lia.
  - f_equal. lia.
Qed.

(** ** Specification: what each histogram has been given, with its weight *)
Section Spec.
Context {R : Type} (cal : nat -> R -> outcome Z).
Definition log := list (R * Z).
Definition lstep (l : list log) (c : @hcall R) : list log :=
  match c with
  | AddOne i v => upd l i (nth i l [] ++ [(v, 1)])
  | AddAll i vs => upd l i (nth i l [] ++ map (fun v => (v, 1)) vs)
  | AddWeight i v w => upd l i (nth i l [] ++ [(v, w)])
  | Merge i j => upd l i (nth i l [] ++ nth j l [])
  | Copy i j => upd l i (nth j l [])
  | Clear i => upd l i []
  end.
Definition logs (n : nat) (calls : list hcall) : list log := fold_left lstep calls (repeat [] n).
Definition has_key (prec : nat) (k : Z) (v : R) : bool := match cal prec v with Ret k' => k =? k' | _ => false end.
Definition weight (prec : nat) (k : Z) (l : log) : Z := zsum (map (fun e => if has_key prec k (fst e) then snd e else 0) l).
Definition occurs (prec : nat) (k : Z) (l : log) : bool := existsb (fun e => has_key prec k (fst e)) l.
Definition all_weights (l : log) : Z := zsum (map snd l).
(** the weights are size_t *)
Definition weights_ok (calls : list (@hcall R)) : Prop := forall i v w, In (AddWeight i v w) calls -> 0 <= w < 2 ^ 64.

Definition agrees (h : histogram) (l : log) : Prop :=
  ordered (h_map h) /\ h_n h = usize (all_weights l) /\ usize (total (h_map h)) = h_n h /\
  forall k, find k (h_map h) = if occurs (h_prec h) k l then Some (usize (weight (h_prec h) k l)) else None.

Lemma weight_app : forall p k a b, weight p k (a ++ b) = weight p k a + weight p k b.
Proof. intros. unfold weight. rewrite map_app, zsum_app. reflexivity. Qed.
Lemma occurs_app : forall p k a b, occurs p k (a ++ b) = occurs p k a || occurs p k b.
Proof. intros. apply existsb_app. Qed.
Lemma all_app : forall a b, all_weights (a ++ b) = all_weights a + all_weights b.
Proof. intros. unfold all_weights. rewrite map_app, zsum_app. reflexivity. Qed.
Lemma no_occ : forall p k l, occurs p k l = false -> weight p k l = 0.
Proof.
  intros p k l. unfold occurs, weight. induction l as [|e l IH]; cbn [existsb map]; [reflexivity|]. intros H. apply orb_false_iff in H. destruct H as [H1 H2]. rewrite H1, zsum_cons, IH by exact H2. reflexivity.
Qed.
Lemma agrees_range : forall h l, agrees h l -> in_range (h_map h).
Proof. intros h l (_ & _ & _ & F) k c. rewrite F. destruct (occurs _ _ _); [|discriminate]. intros E. injection E as <-. apply usize_range. Qed.

Lemma agrees_new : forall p, agrees (new_hist p) [].
Proof. intros p. split; [constructor|]. split; [reflexivity|]. split; [reflexivity|]. intros k. reflexivity. Qed.

(** one value on the map, whatever the counter *)
Lemma agrees_one : forall p n m l v k w, 0 <= w < 2 ^ 64 -> cal p v = Ret k -> agrees (mkHist p n m) l -> agrees (mkHist p (usize (n + w)) (add_key k w m)) (l ++ [(v, w)]).
Proof.
  intros p n m l v k w Hw Hk (O & N & T & F). cbn [h_map h_n h_prec] in *. split; [apply ordered_add; exact O|]. split; [cbn [h_n]; rewrite N, usize_add, all_app; unfold all_weights at 3; cbn [map snd]; rewrite zsum_cons; cbn [zsum fold_right]; f_equal; lia|].
  split; [cbn [h_map h_n]; rewrite total_add by exact O; rewrite <- T; rewrite usize_add; reflexivity|].
  intros k'. cbn [h_map h_prec]. rewrite find_add by exact Hw. rewrite occurs_app, weight_app. unfold weight at 2, occurs at 2. cbn [existsb map fst snd]. unfold has_key at 1 2. rewrite Hk, orb_false_r. rewrite (Z.eqb_sym k' k) at 1.
  destruct (Z.eqb_spec k k') as [<-|E].
  - rewrite Z.eqb_refl, orb_true_r, zsum_cons. cbn [zsum fold_right]. rewrite Z.add_0_r. f_equal. rewrite F. destruct (occurs p k l) eqn:C; [rewrite usize_add; reflexivity|]. rewrite (no_occ _ _ _ C). reflexivity.
  - replace (k' =? k) with false by (symmetry; apply Z.eqb_neq; lia). rewrite orb_false_r, zsum_cons. cbn [zsum fold_right]. rewrite F. rewrite !Z.add_0_r. reflexivity.
Qed.

Lemma agrees_values : forall h l vs h', agrees h l -> add_values cal h vs = Ret h' -> h_prec h' = h_prec h /\ agrees h' (l ++ map (fun v => (v, 1)) vs).
Proof.
  intros [p n m] l vs h' A E. unfold add_values in E. apply bind_inv in E. destruct E as (m' & E & H). injection H as <-. cbn [h_prec h_n h_map] in *. split; [reflexivity|].
  apply (for_part _ (fun i s => agrees (mkHist p (usize (n + Z.of_nat i)) s) (l ++ map (fun v => (v, 1)) (firstn i vs)))) in E.
  - cbn beta in E. rewrite firstn_all in E. exact E.
  - cbn [firstn map Z.of_nat]. rewrite app_nil_r, Z.add_0_r. pose proof A as (_ & N & _). cbn [h_n] in N. rewrite N. rewrite usize_small by apply usize_range. rewrite <- N. exact A.
  - intros i s s' Hi B X. apply bind_inv in X. destruct X as (v & X1 & X). apply bind_inv in X. destruct X as (k & X2 & X). injection X as <-.
    unfold rd in X1. destruct (nth_error vs i) as [v'|] eqn:NE; [|discriminate X1]. injection X1 as ->.
    replace (firstn (S i) vs) with (firstn i vs ++ [v]) by (clear - NE; revert i NE; induction vs as [|a vs IH]; intros [|i] NE; try discriminate NE; cbn [firstn app nth_error] in *; [congruence|f_equal; apply IH; exact NE]).
    rewrite map_app, app_assoc. cbn [map]. replace (usize (n + Z.of_nat (S i))) with (usize (usize (n + Z.of_nat i) + 1)) by (rewrite usize_add; f_equal; lia). apply agrees_one; [lia|exact X2|exact B].
Qed.

Lemma merge_fold : forall ks m, ordered ks -> in_range ks -> ordered m ->
  let r := fold_left (fun m o => add_key (fst o) (snd o) m) ks m in
  ordered r /\ usize (total r) = usize (total m + total ks) /\
  (forall k, find k r = match find k ks with None => find k m | Some w => Some (usize ((match find k m with Some c => c | None => 0 end) + w)) end).
Proof.
  induction ks as [|[x y] ks IH]; intros m HK HR HM r; subst r; cbn [fold_left fst snd].
  - split; [exact HM|]. split; [unfold total at 3; cbn [map zsum fold_right]; f_equal; lia|]. intros k. reflexivity.
  - inversion HK as [|? ? S F]; subst. assert (Y : 0 <= y < 2 ^ 64) by (apply (HR x y); cbn [find]; rewrite Z.eqb_refl; reflexivity).
    assert (HR' : in_range ks). { intros k c E. apply (HR k c). cbn [find]. destruct (Z.eqb_spec k x) as [->|N]; [|exact E]. apply find_In in E. pose proof (proj1 (Forall_forall _ _) F x (in_map fst _ _ E)). cbn [fst] in *. lia. }
    destruct (IH (add_key x y m) S HR' (ordered_add _ _ _ HM)) as (I1 & I2 & I3). split; [exact I1|]. split.
    + rewrite I2. rewrite (usize_cong _ (total m + y)) by (apply total_add; exact HM). f_equal. unfold total. cbn [map snd]. rewrite zsum_cons. lia.
    + intros k. rewrite I3, find_add by exact Y. cbn [find]. destruct (Z.eqb_spec k x) as [->|N]; [|reflexivity]. rewrite find_None; [reflexivity|]. intros I. pose proof (proj1 (Forall_forall _ _) F x I). cbn [fst] in *. lia.
Qed.

Lemma agrees_merge : forall h o l lo h', agrees h l -> agrees o lo -> add_hist h o = Ret h' -> h_prec h' = h_prec h /\ agrees h' (l ++ lo).
Proof.
  intros [p n m] [p' n' m'] l lo h' A B E. pose proof (agrees_range _ _ B) as HR. destruct A as (O & N & T & F), B as (O' & N' & T' & F'). unfold add_hist in E. cbn [h_prec h_n h_map] in *. destruct (Nat.eqb_spec p p') as [<-|NE]; [|discriminate E].
  cbn [guard bind] in E. injection E as <-. split; [reflexivity|]. destruct (merge_fold m' m O' HR O) as (M1 & M2 & M3). split; [exact M1|]. cbn [h_n h_map h_prec].
  split; [rewrite N, N', usize_add, usize_add_r, all_app; reflexivity|]. split; [rewrite M2, <- T, <- T', usize_add, usize_add_r; reflexivity|].
  intros k. rewrite M3, F, F', occurs_app, weight_app. destruct (occurs p k l) eqn:C, (occurs p k lo) eqn:C'; cbn [orb]; try reflexivity.
  - rewrite usize_add, usize_add_r. reflexivity.
  - rewrite (no_occ _ _ _ C'), Z.add_0_r. reflexivity.
  - rewrite (no_occ _ _ _ C), !Z.add_0_l. rewrite usize_small by apply usize_range. reflexivity.
Qed.

Definition family (s : list histogram) (l : list log) (precs : list nat) : Prop :=
  length s = length l /\ map h_prec s = precs /\ forall i, (i < length s)%nat -> agrees (nth i s (new_hist 0)) (nth i l []).

Lemma family_upd : forall s l precs i h x, family s l precs -> (i < length s)%nat -> h_prec h = h_prec (nth i s (new_hist 0)) -> agrees h x -> family (upd s i h) (upd l i x) precs.
Proof.
  intros s l precs i h x (L & P & A) Hi Hp Ha. split; [rewrite !length_upd; exact L|]. split.
  - rewrite map_upd, Hp. rewrite <- (map_nth h_prec). rewrite upd_same. exact P.
  - intros j Hj. rewrite length_upd in Hj. rewrite !nth_upd by lia. destruct (Nat.eqb_spec j i); [exact Ha|]. apply A. exact Hj.
Qed.

Lemma hstep_family : forall s l precs c s', (forall i v w, c = AddWeight i v w -> 0 <= w < 2 ^ 64) -> family s l precs -> hstep cal s c = Ret s' -> family s' (lstep l c) precs.
Proof.
  intros s l precs c s' Hw Fam E. assert (Fam' := Fam). destruct Fam' as (L & P & A).
  assert (RD : forall i h, rd s i = Ret h -> (i < length s)%nat /\ h = nth i s (new_hist 0)) by (intros i h X; destruct (rd_Ret _ (new_hist 0) _ _ _ X); split; [assumption|symmetry; assumption]).
  assert (WR : forall i h, wr s i h = Ret s' -> s' = upd s i h) by (intros i h X; unfold wr in X; destruct (_ <? _)%nat; [injection X as <-; reflexivity|discriminate X]).
  destruct c as [i v|i vs|i v w|i j|i j|i]; cbn [hstep lstep] in *; apply bind_inv in E; destruct E as (h & X1 & E); apply RD in X1; destruct X1 as [Hi ->].
  - apply bind_inv in E. destruct E as (h' & X & E). apply WR in E. subst s'. destruct (agrees_values _ _ _ _ (A i Hi) X). apply family_upd; assumption.
  - apply bind_inv in E. destruct E as (h' & X & E). apply WR in E. subst s'. destruct (agrees_values _ _ _ _ (A i Hi) X). apply family_upd; assumption.
  - apply bind_inv in E. destruct E as (h' & X & E). apply WR in E. subst s'. unfold add_weight in X. apply bind_inv in X. destruct X as (k & X1 & X). injection X as <-. specialize (A i Hi). destruct (nth i s (new_hist 0)) as [p n m] eqn:Eh.
    apply family_upd; [exact Fam|exact Hi|rewrite Eh; reflexivity|]. apply agrees_one; [eapply Hw; reflexivity|exact X1|exact A].
  - apply bind_inv in E. destruct E as (o & X2 & E). apply RD in X2. destruct X2 as [Hj ->]. apply bind_inv in E. destruct E as (h' & X & E). apply WR in E. subst s'. destruct (agrees_merge _ _ _ _ _ (A i Hi) (A j Hj) X). apply family_upd; assumption.
  - apply bind_inv in E. destruct E as (o & X2 & E). apply RD in X2. destruct X2 as [Hj ->]. apply bind_inv in E. destruct E as (h' & X & E). apply WR in E. subst s'. unfold assign in X.
    destruct (Nat.eqb_spec (h_prec (nth i s (new_hist 0))) (h_prec (nth j s (new_hist 0)))) as [Ep|]; [|discriminate X]. cbn [guard bind] in X. injection X as <-. apply family_upd; [exact Fam|exact Hi|reflexivity|].
    destruct (A j Hj) as (O & N & T & F). split; [exact O|]. split; [exact N|]. split; [exact T|]. cbn [h_prec h_map]. rewrite Ep. exact F.
  - apply WR in E. subst s'. apply family_upd; [exact Fam|exact Hi|reflexivity|]. apply agrees_new.
Qed.

Lemma hrun_family : forall calls s l precs s', (forall i v w, In (AddWeight i v w) calls -> 0 <= w < 2 ^ 64) -> family s l precs -> hrun cal s calls = Ret s' -> family s' (fold_left lstep calls l) precs.
Proof.
  induction calls as [|c calls IH]; intros s l precs s' Hw Fam E; cbn [hrun fold_left] in *; [injection E as <-; exact Fam|]. apply bind_inv in E. destruct E as (s1 & X & E).
  eapply IH; [|eapply hstep_family; [|exact Fam|exact X]|exact E]; [intros; eapply Hw; right; eassumption|intros i v w ->; eapply Hw; left; reflexivity].
Qed.

Lemma family_new : forall precs, family (map new_hist precs) (repeat [] (length precs)) precs.
Proof.
  intros precs. split; [rewrite map_length, repeat_length; reflexivity|]. split; [rewrite map_map; cbn [h_prec new_hist]; apply map_id|]. intros i Hi. rewrite map_length in Hi. rewrite nth_repeat.
  rewrite map_nth. apply agrees_new.
Qed.
End Spec.

(** C49: after any history of additions, weighted additions, merges, copies and resets of any number of histograms: the keys are those of the values given,
    once each and in order, the count of a key is the sum of the weights of its values, and the total is the sum of the weights, and of the counts (all
    modulo 2^64). *)
Theorem C49_counts : forall R (cal : nat -> R -> outcome Z) precs calls s, weights_ok calls -> hrun cal (map new_hist precs) calls = Ret s ->
  forall i, (i < length precs)%nat ->
  let h := nth i s (new_hist 0) in let l := nth i (logs (length precs) calls) [] in let p := nth i precs 0%nat in
  StronglySorted Z.lt (map fst (h_map h)) /\
  (forall k c, In (k, c) (h_map h) <-> (exists v w, In (v, w) l /\ cal p v = Ret k) /\ c = usize (zsum (map (fun e => if has_key cal p k (fst e) then snd e else 0) l))) /\
  h_n h = usize (zsum (map snd l)) /\ h_n h = usize (zsum (map snd (h_map h))).
Proof.
  intros R cal precs calls s Hw E i Hi h l p. destruct (hrun_family cal calls _ _ _ _ Hw (family_new cal precs) E) as (L & P & A).
  assert (Ls : length s = length precs) by (rewrite <- P, map_length; reflexivity). assert (Hs : (i < length s)%nat) by lia.
  destruct (A i Hs) as (O & N & T & F). fold h in O, N, T, F. fold (logs (length precs) calls) in F, N. fold l in F, N.
  assert (EP : h_prec h = p) by (unfold h, p; rewrite <- P; symmetry; rewrite (nth_indep _ 0%nat (h_prec (new_hist 0))) by (rewrite map_length; exact Hs); apply map_nth). rewrite EP in F.
  split; [exact O|]. split; [|split; [exact N|symmetry; exact T]]. intros k c.
  assert (OC : occurs cal p k l = true <-> exists v w, In (v, w) l /\ cal p v = Ret k).
  { unfold occurs. rewrite existsb_exists. split.
    - intros ([v w] & I & H). unfold has_key in H. cbn [fst] in H. destruct (cal p v) as [k'| |] eqn:C; try discriminate H. apply Z.eqb_eq in H. subst k'. eauto.
    - intros (v & w & I & H). exists (v, w). split; [exact I|]. unfold has_key. cbn [fst]. rewrite H. apply Z.eqb_refl. }
  fold (weight cal p k l). split.
  - intros I. pose proof (In_find _ _ _ O I) as X. rewrite F in X. destruct (occurs cal p k l) eqn:C; [|discriminate X]. injection X as <-. split; [apply OC; reflexivity|reflexivity].
  - intros [X ->]. apply OC in X. apply find_In. rewrite F, X. reflexivity.
Qed.

(** A call fails only for a value whose key is not an int, for two different precisions, or for a histogram that does not exist. *)
Definition fits {R} (cal : nat -> R -> outcome Z) (precs : list nat) (c : hcall) : Prop :=
  let P i := (i < length precs)%nat in
  match c with
  | AddOne i v | AddWeight i v _ => P i /\ exists k, cal (nth i precs 0%nat) v = Ret k
  | AddAll i l => P i /\ forall v, In v l -> exists k, cal (nth i precs 0%nat) v = Ret k
  | Merge i j | Copy i j => P i /\ P j /\ nth i precs 0%nat = nth j precs 0%nat
  | Clear i => P i
  end.
Theorem C49_total : forall R (cal : nat -> R -> outcome Z) precs calls, (forall c, In c calls -> fits cal precs c) -> exists s, hrun cal (map new_hist precs) calls = Ret s.
Proof.
  intros R cal precs calls.
  assert (G : forall calls s, map h_prec s = precs -> (forall c, In c calls -> fits cal precs c) -> exists s', hrun cal s calls = Ret s'); [|intros H; apply G; [rewrite map_map; apply map_id|exact H]].
  clear calls. induction calls as [|c calls IH]; intros s Hp H; cbn [hrun]; [eauto|].
  assert (X : exists s', hstep cal s c = Ret s' /\ map h_prec s' = precs).
  { specialize (H c (or_introl eq_refl)).
    assert (RD : forall i, (i < length precs)%nat -> exists h, rd s i = Ret h /\ h_prec h = nth i precs 0%nat /\ forall h', h_prec h' = h_prec h -> exists s', wr s i h' = Ret s' /\ map h_prec s' = precs).
    { intros i Hi. assert (Hs : (i < length s)%nat) by (rewrite <- Hp, map_length in Hi; exact Hi). exists (nth i s (new_hist 0)). split; [apply rd_ok; exact Hs|]. split.
      - rewrite <- Hp. symmetry. rewrite (nth_indep _ 0%nat (h_prec (new_hist 0))) by (rewrite map_length; exact Hs). apply map_nth.
      - intros h' E. rewrite wr_ok by exact Hs. eexists. split; [reflexivity|]. rewrite map_upd, E, <- (map_nth h_prec), upd_same. exact Hp. }
    assert (AV : forall h vs, (forall v, In v vs -> exists k, cal (h_prec h) v = Ret k) -> exists h', add_values cal h vs = Ret h' /\ h_prec h' = h_prec h).
    { intros h vs V. unfold add_values. destruct (for_inv _ (fun _ _ => True) (length vs) (fun i m => v <- rd vs i ;; k <- cal (h_prec h) v ;; Ret (add_key k 1 m)) (h_map h)) as (m & -> & _); [exact I| |cbn [bind]; eauto].
      intros i m Hi _. destruct (nth_error vs i) as [v|] eqn:NE; [|apply nth_error_None in NE; lia]. unfold rd. rewrite NE. cbn [bind]. destruct (V v (nth_error_In _ _ NE)) as (k & ->). cbn [bind]. eauto. }
    destruct c as [i v|i vs|i v w|i j|i j|i]; cbn [fits hstep] in *.
    - destruct H as [Hi (k & Hk)]. destruct (RD i Hi) as (h & -> & Ep & W). cbn [bind]. unfold add_value. destruct (AV h [v]) as (h' & -> & E'); [intros v' [<-|[]]; rewrite Ep; eauto|]. cbn [bind]. apply W. exact E'.
    - destruct H as [Hi Hv]. destruct (RD i Hi) as (h & -> & Ep & W). cbn [bind]. destruct (AV h vs) as (h' & -> & E'); [intros v' I; rewrite Ep; auto|]. cbn [bind]. apply W. exact E'.
    - destruct H as [Hi (k & Hk)]. destruct (RD i Hi) as (h & -> & Ep & W). cbn [bind]. unfold add_weight. rewrite Ep, Hk. cbn [bind]. apply W. cbn [h_prec]. symmetry. exact Ep.
    - destruct H as (Hi & Hj & Hij). destruct (RD i Hi) as (h & -> & Ep & W). destruct (RD j Hj) as (o & -> & Eo & _). cbn [bind]. unfold add_hist. rewrite Ep, Eo, Hij, Nat.eqb_refl. cbn [guard bind]. apply W. cbn [h_prec]. rewrite Ep, Hij. reflexivity.
    - destruct H as (Hi & Hj & Hij). destruct (RD i Hi) as (h & -> & Ep & W). destruct (RD j Hj) as (o & -> & Eo & _). cbn [bind]. unfold assign. rewrite Ep, Eo, Hij, Nat.eqb_refl. cbn [guard bind]. apply W. cbn [h_prec]. rewrite Ep, Hij. reflexivity.
    - destruct (RD i H) as (h & -> & Ep & W). cbn [bind]. apply W. reflexivity. }
  destruct X as (s' & -> & Hp'). cbn [bind]. apply IH; [exact Hp'|]. intros c' I. apply H. right. exact I.
Qed.

(** Merging is commutative and associative on the histograms of any history. *)
Lemma merge_find : forall R (cal : nat -> R -> outcome Z) a la b lb r, agrees cal a la -> agrees cal b lb -> add_hist a b = Ret r -> h_prec a = h_prec b /\ h_prec r = h_prec a /\ agrees cal r (la ++ lb).
Proof.
  intros R cal a la b lb r A B E. destruct (agrees_merge cal _ _ _ _ _ A B E) as [P G]. split; [|tauto]. unfold add_hist in E. destruct (Nat.eqb_spec (h_prec a) (h_prec b)); [assumption|discriminate E].
Qed.
Lemma agrees_eq : forall R (cal : nat -> R -> outcome Z) a la b lb, h_prec a = h_prec b -> agrees cal a la -> agrees cal b lb -> usize (all_weights la) = usize (all_weights lb) ->
  (forall k, occurs cal (h_prec a) k la = occurs cal (h_prec a) k lb /\ usize (weight cal (h_prec a) k la) = usize (weight cal (h_prec a) k lb)) -> a = b.
Proof.
  intros R cal [p n m] la [p' n' m'] lb P (O & N & T & F) (O' & N' & T' & F') HN HK. cbn [h_prec h_n h_map] in *. subst p'. f_equal; [congruence|]. apply ordered_ext; try assumption. intros k. rewrite F, F'. destruct (HK k) as [-> ->]. reflexivity.
Qed.
Theorem C49_merge : forall R (cal : nat -> R -> outcome Z) precs calls s i j k, weights_ok calls -> hrun cal (map new_hist precs) calls = Ret s ->
  (i < length precs)%nat -> (j < length precs)%nat -> (k < length precs)%nat ->
  let a := nth i s (new_hist 0) in let b := nth j s (new_hist 0) in let c := nth k s (new_hist 0) in
  add_hist a b = add_hist b a /\ (ab <- add_hist a b ;; add_hist ab c) = (bc <- add_hist b c ;; add_hist a bc).
Proof.
  intros R cal precs calls s i j k Hw E Hi Hj Hk a b c. destruct (hrun_family cal calls _ _ _ _ Hw (family_new cal precs) E) as (L & P & A).
  assert (Ls : length s = length precs) by (rewrite <- P, map_length; reflexivity).
  pose proof (A i ltac:(lia)) as Aa. pose proof (A j ltac:(lia)) as Ab. pose proof (A k ltac:(lia)) as Ac. fold a in Aa. fold b in Ab. fold c in Ac.
  set (la := nth i (fold_left lstep calls (repeat [] (length precs))) []) in *. set (lb := nth j (fold_left lstep calls (repeat [] (length precs))) []) in *. set (lc := nth k (fold_left lstep calls (repeat [] (length precs))) []) in *. clearbody la lb lc a b c. clear - Aa Ab Ac.
  assert (OK : forall x y, h_prec x = h_prec y -> exists r, add_hist x y = Ret r) by (intros x y Q; unfold add_hist; rewrite Q, Nat.eqb_refl; cbn [guard bind]; eauto).
  assert (KO : forall x y, h_prec x <> h_prec y -> add_hist x y = Throws) by (intros x y Q; unfold add_hist; apply Nat.eqb_neq in Q; rewrite Q; reflexivity).
  split.
  - destruct (Nat.eq_dec (h_prec a) (h_prec b)) as [Q|Q]; [|rewrite !KO by congruence; reflexivity]. destruct (OK a b Q) as (r & E1). destruct (OK b a (eq_sym Q)) as (r' & E2). rewrite E1, E2. f_equal.
    destruct (merge_find _ _ _ _ _ _ _ Aa Ab E1) as (_ & Pr & G1). destruct (merge_find _ _ _ _ _ _ _ Ab Aa E2) as (_ & Pr' & G2). eapply agrees_eq; [|exact G1|exact G2| |].
    + congruence.
    + rewrite !all_app. f_equal. lia.
    + intros q. rewrite !occurs_app, !weight_app. split; [apply orb_comm|f_equal; lia].
  - destruct (Nat.eq_dec (h_prec a) (h_prec b)) as [Q|Q].
    + destruct (OK a b Q) as (r & E1). rewrite E1. cbn [bind]. destruct (merge_find _ _ _ _ _ _ _ Aa Ab E1) as (_ & Pr & G1).
      destruct (Nat.eq_dec (h_prec b) (h_prec c)) as [Q2|Q2]; [|rewrite (KO b c Q2), (KO r c) by congruence; reflexivity].
      destruct (OK b c Q2) as (r2 & E2). rewrite E2. cbn [bind]. destruct (merge_find _ _ _ _ _ _ _ Ab Ac E2) as (_ & Pr2 & G2).
      destruct (OK r c ltac:(congruence)) as (r3 & E3). destruct (OK a r2 ltac:(congruence)) as (r4 & E4). rewrite E3, E4. f_equal.
      destruct (merge_find _ _ _ _ _ _ _ G1 Ac E3) as (_ & Pr3 & G3). destruct (merge_find _ _ _ _ _ _ _ Aa G2 E4) as (_ & Pr4 & G4). eapply agrees_eq; [|exact G3|exact G4| |]; try congruence; intros; rewrite ?app_assoc; try split; reflexivity.
    + rewrite (KO a b Q). cbn [bind]. destruct (Nat.eq_dec (h_prec b) (h_prec c)) as [Q2|Q2]; [|rewrite (KO b c Q2); reflexivity]. destruct (OK b c Q2) as (r2 & E2). rewrite E2. cbn [bind].
      destruct (merge_find _ _ _ _ _ _ _ Ab Ac E2) as (_ & Pr2 & _). rewrite (KO a r2) by congruence. reflexivity.
Qed.

(** The smallest and the greatest key. *)
Theorem C49_min_max : forall h, StronglySorted Z.lt (map fst (h_map h)) -> h_map h <> [] ->
  exists a b, min_key h = Ret a /\ max_key h = Ret b /\ In a (map fst (h_map h)) /\ In b (map fst (h_map h)) /\ forall k, In k (map fst (h_map h)) -> a <= k <= b.
Proof.
  intros [p n m] O NE. unfold min_key, max_key. cbn [h_map] in *. destruct m as [|[a c] m]; [congruence|]. destruct (rev ((a, c) :: m)) as [|[b d] t] eqn:ER; [apply (f_equal (@rev _)) in ER; rewrite rev_involutive in ER; discriminate ER|].
  assert (ES : (a, c) :: m = rev t ++ [(b, d)]) by (rewrite <- (rev_involutive ((a, c) :: m)), ER; reflexivity).
  exists a, b. split; [reflexivity|]. split; [reflexivity|]. split; [left; reflexivity|]. split; [rewrite ES, map_app; apply in_or_app; right; left; reflexivity|]. intros k I. split.
  - destruct I as [<-|I]; [cbn; lia|]. inversion O as [|? ? S F]; subst. pose proof (proj1 (Forall_forall _ _) F k I). cbn [fst] in *. lia.
  - rewrite ES, map_app in I, O. cbn [map fst] in *. apply in_app_or in I. destruct I as [I|[<-|[]]]; [|lia]. clear - I O. induction (map fst (rev t)) as [|x l IH]; [destruct I|]. cbn [app] in O. inversion O as [|? ? S F]; subst.
    destruct I as [<-|I]; [|apply IH; assumption]. pose proof (proj1 (Forall_forall _ _) F b ltac:(apply in_or_app; right; left; reflexivity)). lia.
Qed.

(** The keys of the histograms of int with precision 0 (the error monitor) are the values. *)
Theorem C49_int : forall v, - 2 ^ 31 <= v < 2 ^ 31 -> cal_int 0 v = Ret v.
Proof. intros v H. unfold cal_int, int_ok. cbn [Z.of_nat Z.pow Z.leb Z.ltb Z.opp Z.compare andb bind]. change (10 ^ 0) with 1. cbn. rewrite Z.mul_1_r. replace (_ <=? v) with true by (symmetry; apply Z.leb_le; lia). replace (v <? _) with true by (symmetry; apply Z.ltb_lt; lia). reflexivity. Qed.

Example C49_example : option_map (map h_map) (match hrun cal_int (map new_hist [0%nat; 0%nat]) [AddAll 0 [3; 1; 3]; AddWeight 1 2 5; AddOne 1 3; Merge 0 1; Merge 0 0] with Ret s => Some s | _ => None end)
  = Some [[(1, 2); (2, 10); (3, 6)]; [(2, 5); (3, 1)]].
Proof. reflexivity. Qed.
Example C49_example_float : cal_float 24 1 (1 # 2) = Ret 5 /\ cal_float 24 1 (3 # 4) = Ret 8.
Proof. split; vm_compute; reflexivity. Qed.

(** ** C76: the values written by a dump *)
Definition between (mn mx : Z) (m : hmap) : Prop := forall k c, In (k, c) m -> mn < k < mx.
Lemma dump_inner : forall b mn mx m lines cumul dumped, between mn mx m -> m <> [] ->
  fold_left (fun s o => dump_step false b mn mx o s) m (lines, cumul, dumped) = (lines ++ (if dumped then [] else [(mn, cumul)]) ++ m, snd (last m (0, 0)), true).
Proof.
  intros b mn mx m. induction m as [|[k c] m IH]; intros lines cumul dumped B NE; [congruence|]. cbn [fold_left]. unfold dump_step at 2. cbn [fst snd].
  pose proof (B k c (or_introl eq_refl)) as K. replace (mn <? k) with true by (symmetry; apply Z.ltb_lt; lia). replace (k <? mx) with true by (symmetry; apply Z.ltb_lt; lia). cbn [andb].
  destruct m as [|e m].
  - cbn [fold_left last snd]. f_equal. f_equal. destruct dumped; cbn [app]; [reflexivity|]. rewrite <- app_assoc. reflexivity.
  - rewrite IH; [|intros k' c' I; apply (B k' c'); right; exact I|discriminate]. f_equal. f_equal. destruct dumped; cbn [app]; rewrite <- !app_assoc; reflexivity.
Qed.

(** With the default options, from a value below the histogram up to its greatest value: the lines of the values in between are exact, the last line
    counts the greatest value and the one before it. *)
Theorem C76_inner_partial : forall p n m kx cx mn, between mn kx m -> m <> [] -> usize (snd (last m (0, 0)) + cx) <> 0 ->
  dump_all false false (mkHist p n (m ++ [(kx, cx)])) mn kx = Some ((mn, 0) :: m ++ [(kx, usize (snd (last m (0, 0)) + cx))]).
Proof.
  intros p n m kx cx mn B NE NZ. unfold dump_all. cbn [h_map]. destruct m as [|[k c] m']; [congruence|]. set (m := (k, c) :: m') in *. pose proof (B k c (or_introl eq_refl)) as K. replace (kx <=? mn) with false by (symmetry; apply Z.leb_gt; lia).
  rewrite fold_left_app, (dump_inner false mn kx m [] 0 false B NE). cbn [fold_left app]. unfold dump_step. cbn [fst snd]. replace (kx <? kx) with false by (symmetry; apply Z.ltb_ge; lia). rewrite andb_false_r, Z.eqb_refl, !orb_true_r.
  destruct (Z.eqb_spec (usize (snd (last m (0, 0)) + cx)) 0); [contradiction|]. reflexivity.
Qed.
Theorem C76_last_refuted : forall p n m kx cx mn, between mn kx m -> m <> [] -> 0 < snd (last m (0, 0)) -> 0 < cx -> snd (last m (0, 0)) + cx < 2 ^ 64 ->
  exists l c, dump_all false false (mkHist p n (m ++ [(kx, cx)])) mn kx = Some (l ++ [(kx, c)]) /\ c <> cx.
Proof.
  intros p n m kx cx mn B NE P1 P2 S. assert (U : usize (snd (last m (0, 0)) + cx) = snd (last m (0, 0)) + cx) by (apply usize_small; lia).
  exists ((mn, 0) :: m), (snd (last m (0, 0)) + cx). rewrite C76_inner_partial by (try assumption; rewrite U; lia). rewrite U. split; [reflexivity|lia].
Qed.

(** With cumul_vals: every line gives the number of values up to it. *)
Fixpoint prefix_sums (acc : Z) (m : hmap) : list (Z * Z) := match m with [] => [] | (k, c) :: m => (k, usize (acc + c)) :: prefix_sums (usize (acc + c)) m end.
Lemma dump_cumul : forall b mn mx m lines cumul dumped, between mn mx m -> 0 <= cumul < 2 ^ 64 -> m <> [] ->
  fold_left (fun s o => dump_step true b mn mx o s) m (lines, cumul, dumped) = (lines ++ (if dumped then [] else [(mn, cumul)]) ++ prefix_sums cumul m, usize (cumul + total m), true).
Proof.
  intros b mn mx m. induction m as [|[k c] m IH]; intros lines cumul dumped B HC NE; [congruence|]. cbn [fold_left prefix_sums]. unfold dump_step at 2. cbn [fst snd].
  pose proof (B k c (or_introl eq_refl)) as K. replace (mn <? k) with true by (symmetry; apply Z.ltb_lt; lia). replace (k <? mx) with true by (symmetry; apply Z.ltb_lt; lia). cbn [andb].
  destruct m as [|e m].
  - cbn [fold_left prefix_sums]. unfold total. cbn [map snd]. rewrite zsum_cons. cbn [zsum fold_right]. rewrite Z.add_0_r. f_equal. f_equal. destruct dumped; cbn [app]; [reflexivity|]. rewrite <- app_assoc. reflexivity.
  - rewrite IH; [|intros k' c' I; apply (B k' c'); right; exact I|apply usize_range|discriminate]. f_equal. f_equal; [|change (total ((k, c) :: e :: m)) with (c + total (e :: m)); rewrite usize_add; f_equal; lia]. destruct dumped; cbn [app]; rewrite <- !app_assoc; reflexivity.
Qed.
Lemma prefix_spec : forall m acc k v, In (k, v) (prefix_sums acc m) <-> exists a c b, m = a ++ (k, c) :: b /\ v = usize (acc + total a + c).
Proof.
  induction m as [|[x y] m IH]; intros acc k v; cbn [prefix_sums In].
  - split; [tauto|]. intros (a & c & b & E & _). destruct a; discriminate E.
  - rewrite IH. split.
    + intros [E|(a & c & b & -> & ->)]; [injection E as <- <-; exists [], y, m; split; [reflexivity|unfold total; cbn; f_equal; lia]|]. exists ((x, y) :: a), c, b. split; [reflexivity|]. unfold total. cbn [map snd]. rewrite zsum_cons. rewrite <- Z.add_assoc, usize_add. f_equal. lia.
    + intros (a & c & b & E & ->). destruct a as [|[x' y'] a]; cbn [app] in E; injection E as -> -> ->; [left; unfold total; cbn; do 2 f_equal; lia|]. right. exists a, c, b. split; [reflexivity|]. unfold total. cbn [map snd]. rewrite zsum_cons. rewrite <- (Z.add_assoc (usize _)), usize_add. f_equal. lia.
Qed.
Lemma prefix_below : forall a k c b, ordered (a ++ (k, c) :: b) -> total a + c = zsum (map (fun e => if fst e <=? k then snd e else 0) (a ++ (k, c) :: b)).
Proof.
  unfold ordered, keys, total. induction a as [|[x y] a IH]; intros k c b H; cbn [app map fst snd] in *; rewrite !zsum_cons; inversion H as [|? ? S F]; subst.
  - rewrite Z.leb_refl. cbn [zsum fold_right]. assert (Z0 : zsum (map (fun e => if fst e <=? k then snd e else 0) b) = 0); [|lia]. clear - F. induction b as [|[u v] b IH]; [reflexivity|]. cbn [map fst snd] in *. inversion F; subst. rewrite zsum_cons, IH by assumption. destruct (Z.leb_spec u k); lia.
  - rewrite <- IH by exact S. pose proof (proj1 (Forall_forall _ _) F k ltac:(rewrite map_app; apply in_or_app; right; left; reflexivity)). replace (x <=? k) with true by (symmetry; apply Z.leb_le; lia). lia.
Qed.
Theorem C76_cumul_partial : forall b p n m kx cx mn, between mn kx m -> m <> [] -> ordered m -> usize (total m + cx) <> 0 ->
  exists l, dump_all true b (mkHist p n (m ++ [(kx, cx)])) mn kx = Some ((mn, 0) :: l ++ [(kx, usize (total m + cx))]) /\ map fst l = map fst m /\
    forall k v, In (k, v) l -> v = usize (zsum (map (fun e => if fst e <=? k then snd e else 0) (m ++ [(kx, cx)]))).
Proof.
  intros b p n m kx cx mn B NE O NZ. exists (prefix_sums 0 m). unfold dump_all. cbn [h_map]. destruct m as [|[k c] m']; [congruence|]. set (m := (k, c) :: m') in *. pose proof (B k c (or_introl eq_refl)) as K. replace (kx <=? mn) with false by (symmetry; apply Z.leb_gt; lia).
  rewrite fold_left_app, (dump_cumul b mn kx m [] 0 false B ltac:(lia) NE). cbn [fold_left app]. unfold dump_step. cbn [fst snd]. replace (kx <? kx) with false by (symmetry; apply Z.ltb_ge; lia). rewrite andb_false_r, Z.eqb_refl, !orb_true_r, Z.add_0_l, usize_add.
  destruct (Z.eqb_spec (usize (total m + cx)) 0); [contradiction|]. split; [reflexivity|]. clear - B O. split; [generalize 0; induction m as [|[x y] m IH]; intros acc; cbn [prefix_sums map fst]; [reflexivity|]; f_equal; apply IH; [intros k' c' I; apply (B k' c'); right; exact I|inversion O; assumption]|].
  intros q v I. apply prefix_spec in I. destruct I as (a & d & e & E & ->). rewrite Z.add_0_l. f_equal. rewrite E in *. rewrite <- app_assoc. cbn [app]. apply prefix_below. unfold ordered, keys in *. rewrite map_app in *. cbn [map fst] in *. rewrite map_app. cbn [map fst].
  assert (LT : forall z, In z (map fst a ++ q :: map fst e) -> z < kx). { intros z I. assert (I' : In z (map fst (a ++ (q, d) :: e))) by (rewrite map_app; exact I). apply in_map_iff in I'. destruct I' as ([z' w] & <- & I'). specialize (B z' w I'). cbn [fst]. lia. }
  clear - O LT. change (map fst a ++ q :: map fst e ++ [kx]) with (map fst a ++ (q :: map fst e) ++ [kx]). rewrite app_assoc. induction (map fst a ++ q :: map fst e) as [|x l IH]; cbn [app]; [constructor; constructor|]. inversion O; subst. constructor; [apply IH; [assumption|intros; apply LT; right; assumption]|].
  apply Forall_forall. intros z I. apply in_app_or in I. destruct I as [I|[<-|[]]]; [|apply LT; left; reflexivity]. exact (proj1 (Forall_forall _ _) H2 z I).
Qed.
(** A histogram with one value above the lower bound: only the last line. *)
Theorem C76_single : forall b c p n kx cx mn, mn < kx -> 0 < cx < 2 ^ 64 -> dump_all c b (mkHist p n [(kx, cx)]) mn kx = Some [(kx, cx)].
Proof.
  intros b c p n kx cx mn H HC. unfold dump_all. cbn [h_map fold_left]. unfold dump_step. cbn [fst snd]. replace (kx <=? mn) with false by (symmetry; apply Z.leb_gt; lia). replace (kx <? kx) with false by (symmetry; apply Z.ltb_ge; lia).
  rewrite andb_false_r, Z.eqb_refl, !orb_true_r, Z.add_0_l, usize_small by lia. replace (cx =? 0) with false by (symmetry; apply Z.eqb_neq; lia). reflexivity.
Qed.

Example C76_example : dump_all false false (mkHist 0 6 [(1, 2); (2, 1); (5, 3)]) 0 5 = Some [(0, 0); (1, 2); (2, 1); (5, 4)] /\
  dump_all true false (mkHist 0 6 [(1, 2); (2, 1); (5, 3)]) 0 5 = Some [(0, 0); (1, 2); (2, 3); (5, 6)].
Proof. split; reflexivity. Qed.
