(** The list decoder: the active paths are the survivors of the specification. *)
From Coq Require Import List Arith ZArith Lia Bool Permutation Sorted.
From Verif Require Import Base Loops GF2 PolarModel PolarSpec PolarProofs PolarSCProofs WLoops SclModel SclSpec SclTreeProofs.
Import ListNotations.

(** ** Sets and hypotheses *)
Lemma NoDup_app_l : forall A (l1 l2 : list A), NoDup (l1 ++ l2) -> NoDup l1.
Proof.
  induction l1; intros l2 H; [constructor|]. inversion H; subst. constructor; [|eauto].
  intros X. apply H2. apply in_or_app. auto.
Qed.

Lemma set_mem_In : forall x l, set_mem x l = true <-> In x l.
Proof.
  intros. unfold set_mem. rewrite existsb_exists. split.
  - intros (z & H & E). apply Nat.eqb_eq in E. subst. auto.
  - intros. exists x. split; auto. apply Nat.eqb_refl.
Qed.

Lemma set_insert_perm : forall x l, ~ In x l -> Permutation (set_insert x l) (x :: l).
Proof.
  induction l; intros H; simpl; auto. destruct (x <? a); auto. destruct (Nat.eqb_spec x a).
  - subst. exfalso. apply H. left. auto.
  - etransitivity; [apply perm_skip, IHl; intros X; apply H; right; auto|]. apply perm_swap.
Qed.

Lemma set_erase_In : forall x y l, In y (set_erase x l) <-> In y l /\ y <> x.
Proof.
  intros. unfold set_erase. rewrite filter_In, negb_true_iff, Nat.eqb_neq. tauto.
Qed.
Lemma set_erase_NoDup : forall x l, NoDup l -> NoDup (set_erase x l).
Proof. intros. apply NoDup_filter. auto. Qed.

Lemma free_from_spec : forall fuel p act,
  (forall q, p <= q < free_from fuel p act -> In q act) /\ p <= free_from fuel p act <= p + fuel /\
  (free_from fuel p act < p + fuel -> ~ In (free_from fuel p act) act).
Proof.
  induction fuel; intros p act; cbn [free_from]. { split; [|split]; intros; lia. }
  destruct (set_mem p act) eqn:E.
  - destruct (IHfuel (S p) act) as (A & B & C). split; [|split]; try lia.
    + intros q Hq. destruct (Nat.eq_dec q p); [subst; apply set_mem_In; auto|]. apply A. lia.
    + intros. apply C. lia.
  - split; [|split]; try lia. intros _ H. apply set_mem_In in H. congruence.
Qed.

Lemma first_free_spec : forall act n, NoDup act -> length act < n ->
  first_free act < n /\ ~ In (first_free act) act.
Proof.
  intros act n ND HL. unfold first_free. destruct (free_from_spec (length act) 0 act) as (A & B & C).
  split; [lia|]. destruct (Nat.eq_dec (free_from (length act) 0 act) (length act)); [|apply C; lia].
  intros I. rewrite e in *.
  assert (X : length (seq 0 (S (length act))) <= length act).
  { apply NoDup_incl_length. { apply seq_NoDup. } intros q Hq. apply in_seq in Hq.
    destruct (Nat.eq_dec q (length act)); [subst; auto|]. apply A. lia. }
  rewrite seq_length in X. lia.
Qed.

Lemma has_path_In : forall p l, has_path p l = true <-> In p (map hyp_path l).
Proof.
  intros. unfold has_path. rewrite existsb_exists, in_map_iff. split.
  - intros (h & H & E). apply Nat.eqb_eq in E. exists h. auto.
  - intros (h & E & H). exists h. split; auto. apply Nat.eqb_eq. auto.
Qed.

Lemma drop_path_perm : forall p l, In p (map hyp_path l) ->
  exists h, hyp_path h = p /\ Permutation l (h :: drop_path p l).
Proof.
  induction l; intros H; [destruct H|]. cbn [drop_path]. destruct (Nat.eqb_spec (hyp_path a) p).
  - exists a. auto.
  - destruct H as [H|H]; [contradiction|]. destruct (IHl H) as (h & E & P). exists h. split; auto.
    rewrite P at 1. apply perm_swap.
Qed.

Lemma phi_penalty : forall mu l b, phi mu l b = (mu + penalty l b)%Z.
Proof.
  intros. unfold phi, penalty. destruct b; cbn [negb andb].
  - destruct (Z.ltb_spec 0 l); lia.
  - destruct (Z.ltb_spec l 0); lia.
Qed.

Lemma sumz_ext : forall n f g, (forall k, k < n -> f k = g k) -> sumz n f = sumz n g.
Proof. induction n; intros; simpl; auto. rewrite (IHn f g) by auto. rewrite H by lia. auto. Qed.

Lemma pm_snoc : forall F G m y u b, path_metric F G m y (u ++ [b]) = (path_metric F G m y u + penalty (sc_llr F G m y u) b)%Z.
Proof.
  intros. unfold path_metric. rewrite app_length. simpl length. rewrite Nat.add_1_r. cbn [sumz]. f_equal.
  - apply sumz_ext. intros k Hk. rewrite firstn_app. replace (k - length u) with 0 by lia. cbn [firstn]. rewrite app_nil_r.
    rewrite app_nth1 by auto. auto.
  - rewrite firstn_app, Nat.sub_diag, firstn_all. cbn [firstn]. rewrite app_nil_r. rewrite app_nth2, Nat.sub_diag by lia. auto.
Qed.

(** Frozen positions of the survivors are 0. *)
Lemma survivors_len : forall F G m fb L y i C, survivors F G m L fb y i C -> forall u, In u C -> length u = i.
Proof.
  induction 1; intros u Hu.
  - destruct Hu as [<-|[]]. auto.
  - rewrite H1 in Hu. apply in_map_iff in Hu. destruct Hu as (v & <- & Hv). rewrite app_length. simpl. rewrite IHsurvivors by auto. lia.
  - assert (Hx : In u (extend C)) by (rewrite <- H1; apply in_or_app; auto). apply in_flat_map in Hx. destruct Hx as (v & Hv & [<-|[<-|[]]]);
      rewrite app_length; simpl; rewrite IHsurvivors by auto; lia.
Qed.

Lemma survivors_frozen : forall F G m fb L y i C, survivors F G m L fb y i C -> forall u, In u C ->
  forall k, k < i -> nth k fb true = true -> nth k u false = false.
Proof.
  induction 1; intros u Hu k Hk Hf; [lia| |].
  - rewrite H1 in Hu. apply in_map_iff in Hu. destruct Hu as (v & <- & Hv). pose proof (survivors_len _ _ _ _ _ _ _ _ H _ Hv).
    destruct (Nat.eq_dec k i); [subst k; rewrite app_nth2 by lia; replace (i - length v) with 0 by lia; auto|].
    rewrite app_nth1 by lia. apply IHsurvivors; auto. lia.
  - assert (Hx : In u (extend C)) by (rewrite <- H1; apply in_or_app; auto). apply in_flat_map in Hx. destruct Hx as (v & Hv & Hx).
    pose proof (survivors_len _ _ _ _ _ _ _ _ H _ Hv). assert (k <> i) by (intros ->; congruence).
    destruct Hx as [<-|[<-|[]]]; rewrite app_nth1 by lia; apply IHsurvivors; auto; lia.
Qed.

Section P.
Variable F : Z -> Z -> Z.
Variable G : Z -> Z -> bool -> Z.
Variable m : nat.
Variable fb : list bool.
Variable L : nat.
Variable metric_init maxR : Z.
Variable sort : list hyp -> list hyp.
Variable y : list Z.
Hypothesis Hm : 0 < m.
Hypothesis Ly : length y = 2 ^ m.
Hypothesis Lf : length fb = 2 ^ m.

Notation pm := (path_metric F G m y).
Notation pre := (pre F G m y).
Notation mid := (mid F G m y).
Notation post := (post F G m y).
Notation d0 := (fresh_tree m 0).
Notation tr p trees := (nth p trees d0).

Definition all_ok (trees : list ptree) : Prop :=
  length trees = L /\ forall p, p < L -> sized m (tr p trees) /\ rooty y (tr p trees).

Lemma all_ok_upd : forall trees p t, all_ok trees -> sized m t -> rooty y t -> all_ok (upd trees p t).
Proof.
  intros trees p t [A B] S R. split; [rewrite length_upd; auto|]. intros q Hq.
  destruct (Nat.eq_dec q p); [subst; rewrite nth_upd_eq by lia; auto|]. rewrite nth_upd_neq by auto. auto.
Qed.

Lemma each_tree : forall (f : ptree -> outcome ptree) (R : nat -> ptree -> Prop) act trees, NoDup act ->
  (forall p, In p act -> p < length trees /\ exists t', f (tr p trees) = Ret t' /\ R p t') ->
  exists trees', for_each act (fun p trees => t <- rd trees p ;; t <- f t ;; wr trees p t) trees = Ret trees' /\
    length trees' = length trees /\ (forall p, In p act -> R p (tr p trees')) /\
    (forall p, ~ In p act -> tr p trees' = tr p trees).
Proof.
  intros f R. induction act; intros trees ND H; cbn [for_each].
  - exists trees. split; auto. split; auto. split; auto. intros p [].
  - inversion ND; subst. destruct (H a (or_introl eq_refl)) as (Ha & t' & Et & Rt).
    rewrite (rd_ok _ d0) by auto. cbn [bind]. rewrite Et. cbn [bind]. rewrite wr_ok by auto. cbn [bind].
    destruct (IHact (upd trees a t')) as (trees' & E & LL & R1 & R2); auto.
    + intros p Hp. rewrite length_upd. rewrite nth_upd_neq by (intros ->; auto). apply H. right. auto.
    + exists trees'. split; auto. rewrite length_upd in LL. split; auto. split.
      * intros p [->|Hp]; auto. rewrite R2 by auto. rewrite nth_upd_eq by auto. auto.
      * intros p Hp. rewrite R2 by (intros X; apply Hp; right; auto). apply nth_upd_neq. intros ->. apply Hp. left. auto.
Qed.

(** State between two leaves: [U p] are the decisions of the path [p]. *)
Definition Inv (i : nat) (trees : list ptree) (act : list nat) (U : nat -> list bool) (c : Z) : Prop :=
  all_ok trees /\ NoDup act /\
  forall p, In p act -> p < L /\ pre i (tr p trees) (U p) /\ length (U p) = i /\ met (tr p trees) = (pm (U p) + c)%Z.

Definition Mid (i : nat) (trees : list ptree) (act : list nat) (U : nat -> list bool) (c : Z) : Prop :=
  all_ok trees /\ NoDup act /\
  forall p, In p act -> p < L /\ mid i (tr p trees) (U p) /\ length (U p) = i /\ met (tr p trees) = (pm (U p) + c)%Z.

Definition Mix (i : nat) (trees : list ptree) (act rem done : list nat) (U V : nat -> list bool) (c : Z) : Prop :=
  all_ok trees /\ Permutation act (rem ++ done) /\ NoDup act /\
  (forall p, In p act -> p < L) /\
  (forall p, In p rem -> mid i (tr p trees) (U p) /\ length (U p) = i /\ met (tr p trees) = (pm (U p) + c)%Z) /\
  (forall p, In p done -> post i (tr p trees) (V p) /\ length (V p) = S i /\ met (tr p trees) = (pm (V p) + c)%Z).

Lemma leaf_llrs_ok : forall i trees act U c, i < 2 ^ m -> Inv i trees act U c ->
  exists trees', leaf_llrs F G m i (trees, act) = Ret (trees', act) /\ Mid i trees' act U c.
Proof.
  intros i trees act U c Hi ([A1 A2] & ND & H). unfold leaf_llrs.
  destruct (each_tree (rec_llr F G m m i (compute_depth i m))
     (fun p t => mid i t (U p) /\ met t = (pm (U p) + c)%Z) act trees ND) as (trees' & E & LL & R1 & R2).
  { intros p Hp. destruct (H p Hp) as (Hp' & Pp & Lp & Mp). split; [lia|].
    destruct (leaf_llr_ok F G m y Ly i (tr p trees) (U p) Hm Hi Pp) as (t' & Et & Mt & Em).
    exists t'. split; auto. split; auto. congruence. }
  rewrite E. cbn [bind]. exists trees'. split; auto. split; [|split; auto].
  - split; [lia|]. intros p Hp. destruct (in_dec Nat.eq_dec p act).
    + destruct (R1 p i0) as [(S1 & S2 & _) _]. auto.
    + rewrite R2 by auto. auto.
  - intros p Hp. destruct (H p Hp) as (Hp' & _ & Lp & _). destruct (R1 p Hp) as [X1 X2]. auto.
Qed.

Lemma leaf_lam : forall i t u, i < 2 ^ m -> length u = i -> mid i t u -> rd (lamT t m i) 0 = Ret (sc_llr F G m y u).
Proof.
  intros i t u Hi Lu M. destruct (mid_leaf F G m y Ly i t u Hi M) as (_ & E & _). rewrite E.
  rewrite (lamS_leaf F G m y Ly) by auto. auto.
Qed.

(** ** Duplication and choice *)
Lemma duplicate_ok : forall i trees act p rem done U V c, i < 2 ^ m ->
  Mix i trees act (p :: rem) done U V c -> length act < L ->
  exists trees' act' q, duplicate_path m p i (trees, act) = Ret (trees', act') /\ ~ In q act /\ q < L /\ incl act act' /\
    Mix i trees' act' rem (p :: q :: done) U
      (fun r => if r =? p then U p ++ [false] else if r =? q then U p ++ [true] else V r) c.
Proof.
  intros i trees act p rem done U V c Hi ([A1 A2] & PE & ND & HB & HR & HD) HL.
  destruct (first_free_spec act L ND HL) as [Q1 Q2]. unfold duplicate_path. set (q := first_free act) in *.
  assert (Ip : In p act) by (rewrite PE; left; auto). assert (Hp := HB p Ip).
  assert (NDp : NoDup ((p :: rem) ++ done)) by (rewrite <- PE; auto).
  assert (Npq : q <> p) by (intros X; apply Q2; rewrite X; auto).
  destruct (HR p (or_introl eq_refl)) as (Mp & Lp & Tp).
  rewrite !(rd_ok _ d0) by lia. cbn [bind].
  destruct (A2 q Q1) as [Sq Rq].
  destruct (duplicate_tree_ok F G m y Ly i (tr p trees) (tr q trees) (U p) Hi Lp Mp Sq Rq) as (b' & Eb & L1 & Pb).
  destruct (for_ i (fun i0 b => Ret (put_s b m i0 (sT (tr p trees) m i0))) (tr q trees)) as [b1| |] eqn:E1; try discriminate Eb.
  cbn [bind] in Eb |- *.
  destruct (dup_sums m m i None (tr p trees) b1) as [b2| |] eqn:E2; try discriminate Eb. cbn [bind] in Eb |- *.
  rewrite Eb. cbn [bind]. rewrite (leaf_lam i _ (U p)) by auto. cbn [bind].
  rewrite wr_one by auto. cbn [bind]. rewrite wr_ok by lia. cbn [bind].
  destruct (mid_leaf F G m y Ly i _ _ Hi Mp) as (L2 & _ & _).
  rewrite wr_one by auto. cbn [bind]. rewrite wr_ok by (rewrite length_upd; lia). cbn [bind].
  eexists _, _, q. split; [reflexivity|]. split; auto. split; auto.
  split. { intros r Hr. apply (Permutation_in _ (Permutation_sym (set_insert_perm q act Q2))). right. auto. }
  assert (PB := Pb (phi (met (tr p trees)) (sc_llr F G m y (U p)) true)).
  assert (PA := mid_post F G m y Ly i (tr p trees) (U p) false (phi (met (tr p trees)) (sc_llr F G m y (U p)) false) Hi Lp Mp).
  set (ta := put_met (put_s (tr p trees) m i [false]) _) in *. set (tb := put_met (put_s b' m i [true]) _) in *.
  assert (Np : forall r, In r rem \/ In r done -> r <> p).
  { intros r Hr X. subst. inversion NDp; subst. apply H1. apply in_or_app. auto. }
  assert (Nq : forall r, In r rem \/ In r done -> r <> q).
  { intros r Hr X. subst. apply Q2. rewrite PE. right. apply in_or_app. auto. }
  split; [|split; [|split; [|split; [|split]]]].
  - apply all_ok_upd; [apply all_ok_upd; [split; auto| |]|exact (proj1 PA)|exact (proj1 (proj2 PA))].
    + exact (proj1 PB).
    + exact (proj1 (proj2 PB)).
  - rewrite set_insert_perm by auto. rewrite PE. cbn [app].
    transitivity (p :: q :: rem ++ done). { apply perm_swap. }
    change (p :: q :: rem ++ done) with ([p; q] ++ (rem ++ done)). change (p :: q :: done) with ([p; q] ++ done).
    rewrite !app_assoc. apply Permutation_app_tail. apply Permutation_app_comm.
  - apply (Permutation_NoDup (l := q :: act)). { symmetry. apply set_insert_perm. auto. } constructor; auto.
  - intros r Hr. apply (Permutation_in _ (set_insert_perm q act Q2)) in Hr. destruct Hr as [<-|Hr]; auto.
  - intros r Hr. rewrite !nth_upd_neq by (apply not_eq_sym; auto). apply HR. right. auto.
  - intros r [<-|[<-|Hr]].
    + rewrite nth_upd_eq by (rewrite length_upd; lia). rewrite Nat.eqb_refl. split; auto.
      split. { rewrite app_length. simpl. lia. }
      unfold ta. cbn [met put_met]. rewrite phi_penalty, pm_snoc. lia.
    + rewrite nth_upd_neq by auto. rewrite nth_upd_eq by lia. destruct (Nat.eqb_spec q p); [contradiction|]. rewrite Nat.eqb_refl.
      split; auto. split. { rewrite app_length. simpl. lia. }
      unfold tb. cbn [met put_met]. rewrite phi_penalty, pm_snoc. lia.
    + rewrite !nth_upd_neq by (apply not_eq_sym; auto). destruct (Nat.eqb_spec r p); [exfalso; apply (Np r); auto|].
      destruct (Nat.eqb_spec r q); [exfalso; apply (Nq r); auto|]. apply HD. auto.
Qed.

Lemma choose_ok : forall i trees act h rem done U V c, i < 2 ^ m ->
  Mix i trees act (hyp_path h :: rem) done U V c ->
  hyp_met h = (pm (U (hyp_path h) ++ [hyp_bit h]) + c)%Z ->
  exists trees', choose_path m h i (trees, act) = Ret (trees', act) /\
    Mix i trees' act rem (hyp_path h :: done) U
      (fun r => if r =? hyp_path h then U (hyp_path h) ++ [hyp_bit h] else V r) c.
Proof.
  intros i trees act h rem done U V c Hi ([A1 A2] & PE & ND & HB & HR & HD) HM. unfold choose_path.
  set (p := hyp_path h) in *.
  assert (Ip : In p act) by (rewrite PE; left; auto). assert (Hp := HB p Ip).
  assert (NDp : NoDup ((p :: rem) ++ done)) by (rewrite <- PE; auto).
  destruct (HR p (or_introl eq_refl)) as (Mp & Lp & Tp).
  rewrite (rd_ok _ d0) by lia. cbn [bind].
  destruct (mid_leaf F G m y Ly i _ _ Hi Mp) as (L2 & _ & _).
  rewrite wr_one by auto. cbn [bind]. rewrite wr_ok by lia. cbn [bind].
  eexists. split; [reflexivity|].
  assert (PA := mid_post F G m y Ly i (tr p trees) (U p) (hyp_bit h) (hyp_met h) Hi Lp Mp).
  assert (Np : forall r, In r rem \/ In r done -> r <> p).
  { intros r Hr X. subst. inversion NDp; subst. apply H1. apply in_or_app. auto. }
  split; [|split; [|split; [|split; [|split]]]]; auto.
  - apply all_ok_upd; [split; auto|exact (proj1 PA)|exact (proj1 (proj2 PA))].
  - rewrite PE. cbn [app]. apply Permutation_middle.
  - intros r Hr. rewrite nth_upd_neq by (apply not_eq_sym; auto). apply HR. right. auto.
  - intros r [<-|Hr].
    + rewrite nth_upd_eq by lia. rewrite Nat.eqb_refl. split; auto. split. { rewrite app_length. simpl. lia. } auto.
    + rewrite nth_upd_neq by (apply not_eq_sym; auto). destruct (Nat.eqb_spec r p); [exfalso; apply (Np r); auto|]. apply HD. auto.
Qed.

Definition ext (U : nat -> list bool) (h : hyp) : list bool := U (hyp_path h) ++ [hyp_bit h].

Lemma hyp_eta : forall h : hyp, fst h = (hyp_path h, hyp_bit h).
Proof. intros [[p b] z]. auto. Qed.

Lemma keep_ok : forall i U c, i < 2 ^ m -> forall fuel mv rem done V trees act, length mv <= fuel ->
  Mix i trees act rem done U V c ->
  (forall p, In p rem <-> In p (map hyp_path mv)) ->
  length done + length mv <= L -> NoDup (map fst mv) ->
  (forall h, In h mv -> hyp_met h = (pm (ext U h) + c)%Z) ->
  exists trees' act' done' V', keep_paths m fuel mv i (trees, act) = Ret (trees', act') /\ incl act act' /\
    Mix i trees' act' [] done' U V' c /\
    Permutation (map V' done') (map (ext U) mv ++ map V done).
Proof.
  intros i U c Hi. induction fuel; intros mv rem done V trees act HF HM HR HL HN HH.
  { destruct mv; [|simpl in HF; lia]. cbn [keep_paths]. exists trees, act, done, V. split; auto. split; [apply incl_refl|]. split; auto.
    assert (rem = []). { destruct rem; auto. destruct (proj1 (HR n) (or_introl eq_refl)). } subst. auto. }
  destruct mv as [|h rest].
  { cbn [keep_paths]. exists trees, act, done, V. split; auto. split; [apply incl_refl|]. split; auto.
    assert (rem = []). { destruct rem; auto. destruct (proj1 (HR n) (or_introl eq_refl)). } subst. auto. }
  cbn [keep_paths]. set (p := hyp_path h) in *. simpl length in *.
  assert (Ip : In p rem) by (apply HR; left; auto).
  destruct (in_split _ _ Ip) as (l1 & l2 & Er).
  assert (PR : Permutation rem (p :: l1 ++ l2)) by (subst; symmetry; apply Permutation_middle). clear Er.
  assert (HM' : Mix i trees act (p :: l1 ++ l2) done U V c).
  { destruct HM as (B1 & B2 & B3 & B4 & B5 & B6). split; auto. split; [rewrite B2; apply Permutation_app_tail; auto|].
    split; auto. split; auto. split; auto. intros r Hr. apply B5. rewrite PR. auto. }
  assert (NDr : NoDup (p :: l1 ++ l2)).
  { rewrite <- PR. destruct HM as (_ & B2 & B3 & _). rewrite B2 in B3. apply NoDup_app_l in B3. auto. }
  inversion HN as [|? ? HN1 HN2]; subst.
  destruct (has_path p rest) eqn:EH.
  - apply has_path_In in EH. destruct (drop_path_perm p rest EH) as (h' & Eh' & Ph').
    assert (LD : length rest = S (length (drop_path p rest))) by (apply Permutation_length in Ph'; auto).
    destruct (duplicate_ok i trees act p (l1 ++ l2) done U V c Hi HM') as (trees' & act' & q & E & Nq & Hq & HI & HM2).
    { destruct HM as (_ & B2 & B3 & _). apply Permutation_length in B2. rewrite app_length in B2. rewrite B2.
      assert (length (p :: l1 ++ l2) <= length (map hyp_path rest)).
      { apply NoDup_incl_length; auto. intros r Hr. assert (X : In r (map hyp_path (h :: rest))) by (apply HR; rewrite PR; auto).
        destruct X as [<-|X]; auto. }
      apply Permutation_length in PR. rewrite map_length in H. lia. }
    rewrite E. cbn [bind].
    (* the two hypotheses of p have different bits *)
    assert (Hb : hyp_bit h' = negb (hyp_bit h)).
    { assert (In (fst h') (map fst rest)) by (apply in_map; rewrite Ph'; left; auto).
      rewrite !hyp_eta in *. fold p in HN1. rewrite Eh' in H.
      destruct (hyp_bit h), (hyp_bit h'); auto; contradiction. }
    assert (ND' : NoDup (map fst (h' :: drop_path p rest))).
    { apply (Permutation_NoDup (l := map fst rest)); auto. apply Permutation_map. auto. }
    inversion ND' as [|? ? N1 N2]; subst.
    assert (Nop : ~ In p (map hyp_path (drop_path p rest))).
    { intros X. apply in_map_iff in X. destruct X as (h2 & E2 & I2).
      assert (I3 : In (fst h2) (map fst (drop_path p rest))) by (apply in_map; auto).
      assert (I4 : In (fst h2) (map fst rest)) by (apply in_map; rewrite Ph'; right; auto).
      rewrite !hyp_eta in *. rewrite E2 in *. rewrite Eh' in N1. fold p in HN1. rewrite Hb in N1.
      destruct (hyp_bit h2), (hyp_bit h); cbn [negb] in *; contradiction. }
    set (V1 := fun r => if r =? p then U p ++ [false] else if r =? q then U p ++ [true] else V r) in *.
    destruct (IHfuel (drop_path p rest) (l1 ++ l2) (p :: q :: done) V1 trees' act') as (trees2 & act2 & done2 & V2 & E2 & HI2 & M2 & P2); auto; try lia.
    + intros r. split.
      * intros Hr. assert (X : In r (map hyp_path (h :: rest))) by (apply HR; rewrite PR; right; auto).
        assert (r <> p) by (intros ->; inversion NDr; contradiction).
        destruct X as [X|X]; [contradiction H; auto|].
        apply (Permutation_in _ (Permutation_map hyp_path Ph')) in X. destruct X as [X|X]; auto. exfalso. apply H. congruence.
      * intros Hr. assert (X : In r rem).
        { apply HR. right. apply (Permutation_in _ (Permutation_sym (Permutation_map hyp_path Ph'))). right. auto. }
        rewrite PR in X. destruct X as [<-|X]; auto. contradiction.
    + cbn [length]. lia.
    + intros h2 I2. apply HH. right. rewrite Ph'. right. auto.
    + exists trees2, act2, done2, V2. split; auto. split; [eapply incl_tran; eauto|]. split; auto. rewrite P2. cbn [map].
      assert (V1 p = U p ++ [false]) as -> by (unfold V1; rewrite Nat.eqb_refl; auto).
      assert (Nqp : q <> p). { intros ->. apply Nq. destruct HM' as (_ & B2 & _). rewrite B2. left. auto. }
      assert (V1 q = U p ++ [true]) as ->. { unfold V1. destruct (Nat.eqb_spec q p); [contradiction|]. rewrite Nat.eqb_refl. auto. }
      assert (map V1 done = map V done) as ->.
      { apply map_ext_in. intros r Hr. unfold V1. destruct HM' as (_ & B2 & B3 & _).
        assert (Ir : In r act) by (rewrite B2; apply in_or_app; auto).
        destruct (Nat.eqb_spec r p).
        - subst. rewrite B2 in B3. inversion B3; subst. exfalso. apply H1. apply in_or_app. auto.
        - destruct (Nat.eqb_spec r q); auto. subst. contradiction. }
      rewrite (Permutation_map (ext U) Ph'). cbn [map].
      assert (X : Permutation [ext U h; ext U h'] [U p ++ [false]; U p ++ [true]]).
      { unfold ext. rewrite Eh', Hb. fold p. destruct (hyp_bit h); cbn [negb]; auto. apply perm_swap. }
      change (ext U h :: ext U h' :: map (ext U) (drop_path p rest)) with ([ext U h; ext U h'] ++ map (ext U) (drop_path p rest)).
      rewrite X. rewrite <- app_assoc. cbn [app].
      rewrite <- Permutation_middle. apply perm_skip. rewrite <- Permutation_middle. auto.
  - assert (Nop : ~ In p (map hyp_path rest)) by (intros X; apply has_path_In in X; congruence).
    destruct (choose_ok i trees act h (l1 ++ l2) done U V c Hi HM') as (trees' & E & HM2).
    { apply HH. left. auto. }
    rewrite E. cbn [bind]. fold p in HM2. set (V1 := fun r => if r =? p then U p ++ [hyp_bit h] else V r) in *.
    destruct (IHfuel rest (l1 ++ l2) (p :: done) V1 trees' act) as (trees2 & act2 & done2 & V2 & E2 & HI2 & M2 & P2); auto; try lia.
    + intros r. split.
      * intros Hr. assert (X : In r (map hyp_path (h :: rest))) by (apply HR; rewrite PR; right; auto).
        assert (r <> p) by (intros ->; inversion NDr; contradiction).
        destruct X as [X|X]; auto. contradiction H. auto.
      * intros Hr. assert (X : In r rem) by (apply HR; right; auto). rewrite PR in X. destruct X as [<-|X]; auto. contradiction.
    + cbn [length]. lia.
    + intros h2 I2. apply HH. right. auto.
    + exists trees2, act2, done2, V2. split; auto. split; auto. split; auto. rewrite P2. cbn [map].
      assert (V1 p = ext U h) as ->. { unfold V1. rewrite Nat.eqb_refl. auto. }
      assert (map V1 done = map V done) as ->.
      { apply map_ext_in. intros r Hr. unfold V1. destruct HM' as (_ & B2 & B3 & _).
        destruct (Nat.eqb_spec r p); auto. subst. rewrite B2 in B3. inversion B3; subst. exfalso. apply H1. apply in_or_app. auto. }
      cbn [app]. rewrite <- Permutation_middle. auto.
Qed.

(** ** The worst half *)
Lemma erase_doubles_spec : forall worst act p,
  In p (erase_doubles worst act) <-> In p act /\ count_occ Nat.eq_dec (map hyp_path worst) p <= 1.
Proof.
  induction worst as [|h rest IH]; intros act p; cbn [erase_doubles map count_occ].
  { split; intros; [split; auto; lia|tauto]. }
  rewrite IH. destruct (has_path (hyp_path h) rest) eqn:E.
  - rewrite set_erase_In. apply has_path_In in E. destruct (Nat.eq_dec (hyp_path h) p).
    + subst p. apply (count_occ_In Nat.eq_dec) in E. split; [intros [[_ X] _]; contradiction X; auto|]. intros [_ X]. lia.
    + split; [intros [[A B] C]; auto|intros [A B]; auto].
  - destruct (Nat.eq_dec (hyp_path h) p); [|tauto]. subst.
    assert (~ In (hyp_path h) (map hyp_path rest)) by (intros X; apply has_path_In in X; congruence).
    apply (count_occ_not_In Nat.eq_dec) in H. rewrite H. split; intros [A B]; split; auto; lia.
Qed.
Lemma erase_doubles_NoDup : forall worst act, NoDup act -> NoDup (erase_doubles worst act).
Proof.
  induction worst; intros act ND; simpl; auto. apply IHworst. destruct (has_path _ _); auto. apply set_erase_NoDup. auto.
Qed.

Definition both (trees : list ptree) (i p : nat) : list hyp :=
  let t := tr p trees in let l := nth 0 (lamT t m i) 0%Z in
  [(p, false, phi (met t) l false); (p, true, phi (met t) l true)].

Lemma mv_ok : forall i trees act U c, i < 2 ^ m -> Mid i trees act U c -> forall l acc, incl l act ->
  for_each l (fun p mv => t <- rd trees p ;; lam <- rd (lamT t m i) 0 ;;
      Ret (mv ++ [(p, false, phi (met t) lam false); (p, true, phi (met t) lam true)])) acc =
  Ret (acc ++ flat_map (both trees i) l).
Proof.
  intros i trees act U c Hi ([A1 A2] & ND & H). induction l; intros acc HI; cbn [for_each flat_map].
  { rewrite app_nil_r. auto. }
  destruct (H a (HI a (or_introl eq_refl))) as (Ha & Ma & La & _).
  rewrite (rd_ok _ d0) by lia. cbn [bind]. assert (EL := leaf_lam i _ _ Hi La Ma). rewrite EL. cbn [bind].
  rewrite IHl by (intros r Hr; apply HI; right; auto). f_equal. unfold both at 2.
  assert (X : nth 0 (lamT (tr a trees) m i) 0%Z = sc_llr F G m y (U a)).
  { unfold rd in EL. destruct (lamT (tr a trees) m i); simpl in *; congruence. }
  rewrite X. rewrite <- app_assoc. auto.
Qed.

Lemma keep_pair : forall n p z1 z2 b1 b2 rest i st,
  keep_paths m (S n) ((p, b1, z1) :: (p, b2, z2) :: rest) i st =
  bind (duplicate_path m p i st) (fun st => keep_paths m n rest i st).
Proof.
  intros. cbn [keep_paths]. unfold has_path. cbn [existsb drop_path]. unfold hyp_path. cbn [fst].
  rewrite Nat.eqb_refl. auto.
Qed.

Lemma for_each_dup : forall i trees l st, NoDup l ->
  keep_paths m (length (flat_map (both trees i) l)) (flat_map (both trees i) l) i st =
  for_each l (fun p st => duplicate_path m p i st) st.
Proof.
  intros i trees. 
  assert (MO : forall n1 n2 mv st, length mv <= n1 -> length mv <= n2 -> keep_paths m n1 mv i st = keep_paths m n2 mv i st).
  { induction n1; intros n2 mv st H1 H2.
    - destruct mv; [|simpl in H1; lia]. destruct n2; auto.
    - destruct mv; [destruct n2; auto|]. destruct n2; [simpl in H2; lia|]. cbn [keep_paths]. simpl in *.
      destruct (has_path (hyp_path h) mv) eqn:EH.
      + destruct (duplicate_path m (hyp_path h) i st); auto. cbn [bind].
        apply has_path_In in EH. destruct (drop_path_perm _ _ EH) as (h' & _ & P). apply Permutation_length in P. simpl in P.
        apply IHn1; lia.
      + destruct (choose_path m h i st); auto. cbn [bind]. apply IHn1; lia. }
  induction l; intros st ND; auto. inversion ND; subst.
  cbn [flat_map app length both for_each]. rewrite keep_pair.
  destruct (duplicate_path m a i st); auto. cbn [bind].
  rewrite <- IHl by auto. apply MO; auto.
Qed.

Lemma both_facts : forall i trees act U c, i < 2 ^ m -> Mid i trees act U c -> forall l, incl l act -> NoDup l ->
  let mv := flat_map (both trees i) l in
  length mv = 2 * length l /\ NoDup (map fst mv) /\ (forall p, In p (map hyp_path mv) <-> In p l) /\
  (forall p, In p l -> count_occ Nat.eq_dec (map hyp_path mv) p = 2) /\
  (forall h, In h mv -> hyp_met h = (pm (ext U h) + c)%Z) /\
  map (ext U) mv = extend (map U l).
Proof.
  intros i trees act U c Hi HM. induction l; intros HI ND; cbv zeta.
  { cbn. split; auto. split; [constructor|]. split; [tauto|]. split; [tauto|]. split; [tauto|]. auto. }
  inversion ND as [|? ? N1 N2]; subst. destruct (IHl ltac:(intros r Hr; apply HI; right; auto) N2) as (B1 & B2 & B3 & B4 & B5 & B6).
  cbv zeta in *. cbn [flat_map]. set (mv := flat_map (both trees i) l) in *.
  destruct HM as (_ & _ & HP). destruct (HP a (HI a (or_introl eq_refl))) as (Ha & Ma & La & Ta).
  assert (X : nth 0 (lamT (tr a trees) m i) 0%Z = sc_llr F G m y (U a)).
  { assert (EL := leaf_lam i _ _ Hi La Ma). unfold rd in EL. destruct (lamT (tr a trees) m i); simpl in *; congruence. }
  unfold both. rewrite X. cbn [app map length]. split; [lia|]. split; [|split; [|split; [|split]]].
  - assert (NO : forall b, ~ In (a, b) (map fst mv)).
    { intros b I. apply in_map_iff in I. destruct I as (h & E & I). rewrite hyp_eta in E. inversion E.
      apply N1. apply B3. rewrite <- H0. apply in_map. auto. }
    cbn [fst]. constructor; [|constructor; auto]. intros [I|I]; [discriminate|]. apply (NO false). auto.
  - intros p. cbn [In]. unfold hyp_path at 1 2. cbn [fst]. rewrite B3. tauto.
  - intros p Hp. unfold hyp_path at 1 2. cbn [fst count_occ]. destruct (Nat.eq_dec a p).
    + subst. f_equal. f_equal. apply count_occ_not_In. rewrite B3. auto.
    + apply B4. destruct Hp; [contradiction|auto].
  - intros h [<-|[<-|I]]; auto; unfold ext; cbn [hyp_met hyp_path hyp_bit fst snd]; rewrite phi_penalty, pm_snoc; lia.
  - unfold ext at 1 2. cbn [hyp_path hyp_bit fst snd]. unfold extend. cbn [flat_map map app]. do 2 f_equal. exact B6.
Qed.

Lemma perm_firstn_skipn : forall A n (l : list A), Permutation (firstn n l ++ skipn n l) l.
Proof. intros. rewrite firstn_skipn. auto. Qed.

Definition sorts : Prop :=
  forall l, Permutation (sort l) l /\ StronglySorted (fun a b => (hyp_met a <= hyp_met b)%Z) (sort l).

Lemma sorted_halves : forall n l, StronglySorted (fun a b : hyp => (hyp_met a <= hyp_met b)%Z) l ->
  forall a b, In a (firstn n l) -> In b (skipn n l) -> (hyp_met a <= hyp_met b)%Z.
Proof.
  induction n; intros l H a b Ha Hb; [destruct Ha|]. destruct l; [destruct Ha|]. inversion H; subst.
  simpl in Ha, Hb. destruct Ha as [<-|Ha]; [|eapply IHn; eauto].
  rewrite Forall_forall in H3. apply H3. rewrite <- (firstn_skipn n l). apply in_or_app. auto.
Qed.

Lemma full_zero : forall act, NoDup act -> (forall p, In p act -> p < L) -> L <= length act -> 0 < L -> In 0 act.
Proof.
  intros act ND HB HL H0. assert (I : incl (seq 0 L) act); [|apply I, in_seq; lia].
  apply NoDup_length_incl; auto. { rewrite seq_length. auto. } intros p Hp. apply in_seq. specialize (HB p Hp). lia.
Qed.

Lemma info_leaf_ok : forall i trees act U c a k, i < 2 ^ m -> sorts -> L = 2 ^ a -> length act = 2 ^ k -> k <= a ->
  Mid i trees act U c ->
  exists trees' act' V, info_leaf m L sort i (trees, act) = Ret (trees', act') /\ (In 0 act -> In 0 act') /\
    Mix i trees' act' [] act' U V c /\ length act' = Nat.min L (2 * length act) /\
    exists D, Permutation (map V act' ++ D) (extend (map U act)) /\
      (forall x d, In x (map V act') -> In d D -> (pm x <= pm d)%Z).
Proof.
  intros i trees act U c a k Hi HS HL HA HK HM. unfold info_leaf.
  rewrite (mv_ok i trees act U c Hi HM act []) by apply incl_refl. cbn [bind app].
  assert (ND : NoDup act) by apply HM.
  destruct (both_facts i trees act U c Hi HM act (incl_refl _) ND) as (B1 & B2 & B3 & B4 & B5 & B6). cbv zeta in *.
  set (mv := flat_map (both trees i) act) in *.
  assert (FIN : forall trees' act' done' V' best D,
     Mix i trees' act' [] done' U V' c -> Permutation (map V' done') (map (ext U) best ++ []) ->
     Permutation (best ++ D) mv -> (forall h h', In h best -> In h' D -> (hyp_met h <= hyp_met h')%Z) ->
     length best = Nat.min L (2 * length act) ->
     Mix i trees' act' [] act' U V' c /\ length act' = Nat.min L (2 * length act) /\
     exists D, Permutation (map V' act' ++ D) (extend (map U act)) /\
      (forall x d, In x (map V' act') -> In d D -> (pm x <= pm d)%Z)).
  { intros trees' act' done' V' best D (C1 & C2 & C3 & C4 & C5 & C6) P1 P2 P3 P4. cbn [app] in C2. rewrite app_nil_r in P1.
    assert (P5 : Permutation (map V' act') (map (ext U) best)). { rewrite <- P1. apply Permutation_map. auto. }
    split; [|split].
    - split; auto. split; auto. split; auto. split; auto. split; auto. intros p Hp. apply C6. rewrite <- C2. auto.
    - apply Permutation_length in P5. rewrite !map_length in P5. lia.
    - exists (map (ext U) D). split.
      + rewrite P5, <- map_app. rewrite <- B6. apply Permutation_map. auto.
      + intros x d Hx Hd. apply (Permutation_in _ P5) in Hx. apply in_map_iff in Hx, Hd.
        destruct Hx as (h & <- & Ih). destruct Hd as (h' & <- & Ih').
        assert (In h mv) by (rewrite <- P2; apply in_or_app; auto). assert (In h' mv) by (rewrite <- P2; apply in_or_app; auto).
        specialize (P3 h h' Ih Ih'). rewrite (B5 h), (B5 h') in P3 by auto. lia. }
  destruct (Nat.leb_spec (length act) (L / 2)).
  - (* room for all *)
    assert (R : 2 * length act <= L). { pose proof (Nat.mul_div_le L 2 ltac:(lia)). lia. }
    rewrite <- (for_each_dup i trees) by auto. fold mv.
    destruct (keep_ok i U c Hi (length mv) mv act [] U trees act) as (trees' & act' & done' & V' & E & HI & M' & P'); auto.
    + destruct HM as (C1 & C2 & C3). split; auto. split; [rewrite app_nil_r; auto|]. split; auto. split; [intros p Hp; apply C3; auto|].
      split; [intros p Hp; apply C3; auto|]. intros p [].
    + intros p. rewrite B3. tauto.
    + cbn [length]. lia.
    + exists trees', act', V'. split; auto. split; [auto|]. apply (FIN trees' act' done' V' mv []); auto.
      * rewrite app_nil_r. auto.
      * intros ? ? ? [].
      * rewrite B1. lia.
  - (* full list *)
    assert (EL : length act = L).
    { assert (k = a); [|subst; lia]. destruct (Nat.eq_dec k a); auto. exfalso. assert (S k <= a) by lia.
      assert (2 ^ S k <= 2 ^ a) by (apply Nat.pow_le_mono_r; lia). rewrite Nat.pow_succ_r' in H1.
      assert (length act <= L / 2); [|lia]. apply Nat.div_le_lower_bound; lia. }
    destruct (HS mv) as [SP SS]. assert (LS : length (sort mv) = 2 * L) by (apply Permutation_length in SP; lia).
    rewrite LS. replace (2 * L / 2) with L by (rewrite Nat.mul_comm, Nat.div_mul; lia).
    set (best := firstn L (sort mv)). set (worst := skipn L (sort mv)).
    assert (PW : Permutation (best ++ worst) mv) by (unfold best, worst; rewrite firstn_skipn; auto).
    assert (LB : length best = L) by (unfold best; rewrite firstn_length; lia).
    assert (PF : NoDup (map fst (best ++ worst))). { apply (Permutation_NoDup (l := map fst mv)); auto. apply Permutation_map. symmetry. auto. }
    assert (CO : forall p, In p act -> count_occ Nat.eq_dec (map hyp_path best) p + count_occ Nat.eq_dec (map hyp_path worst) p = 2).
    { intros p Hp. rewrite <- count_occ_app, <- map_app, <- (B4 p Hp). apply Permutation_count_occ. apply Permutation_map. auto. }
    set (act1 := erase_doubles worst act).
    assert (IA : forall p, In p act1 <-> In p (map hyp_path best)).
    { intros p. unfold act1. rewrite erase_doubles_spec. rewrite (count_occ_In Nat.eq_dec (map hyp_path best) p). split.
      - intros [I C]. specialize (CO p I). lia.
      - intros C. assert (Ip : In p act).
        { apply B3. apply (Permutation_in _ (Permutation_map hyp_path PW)). rewrite map_app. apply in_or_app. left.
          apply (count_occ_In Nat.eq_dec). lia. }
        split; auto. specialize (CO p Ip). lia. }
    assert (IS : forall p, In p act1 -> In p act). { intros p Hp. unfold act1 in Hp. rewrite erase_doubles_spec in Hp. tauto. }
    destruct (keep_ok i U c Hi L best act1 [] U trees act1) as (trees' & act' & done' & V' & E & HI & M' & P'); auto; try lia.
    + destruct HM as (C1 & C2 & C3). split; auto. split; [rewrite app_nil_r; auto|].
      split; [apply erase_doubles_NoDup; auto|]. split; [intros p Hp; apply C3; auto|].
      split; [intros p Hp; apply C3; auto|]. intros p [].
    + cbn [length]. lia.
    + rewrite map_app in PF. apply NoDup_app_l in PF. auto.
    + intros h Hh. apply B5. rewrite <- PW. apply in_or_app. auto.
    + exists trees', act', V'. split; auto.
      assert (X : Mix i trees' act' [] act' U V' c /\ length act' = Nat.min L (2 * length act) /\
        exists D, Permutation (map V' act' ++ D) (extend (map U act)) /\
          (forall x d, In x (map V' act') -> In d D -> (pm x <= pm d)%Z)).
      { apply (FIN trees' act' done' V' best worst); auto; [apply sorted_halves; auto|lia]. }
      split; auto. intros _. destruct X as ((_ & _ & N0 & B0 & _) & L0 & _). apply full_zero; auto; [lia|rewrite HL; apply pow2_pos].
Qed.

(** ** Frozen leaf *)
Lemma frozen_loop : forall i U c, i < 2 ^ m -> forall act trees z, NoDup act -> all_ok trees ->
  (forall p, In p act -> p < L /\ mid i (tr p trees) (U p) /\ length (U p) = i /\ met (tr p trees) = (pm (U p) + c)%Z) ->
  exists trees' z', for_each act (fun p '(trees, min_phi) =>
      t <- rd trees p ;;
      s <- wr (sT t m i) 0 false ;;
      lam <- rd (lamT t m i) 0 ;;
      let phi_cur := phi (met t) lam false in
      trees <- wr trees p (put_met (put_s t m i s) phi_cur) ;;
      Ret (trees, Z.min min_phi phi_cur)) (trees, z) = Ret (trees', z') /\ all_ok trees' /\
    (forall p, In p act -> post i (tr p trees') (U p ++ [false]) /\ met (tr p trees') = (pm (U p ++ [false]) + c)%Z) /\
    (forall p, ~ In p act -> tr p trees' = tr p trees).
Proof.
  intros i U c Hi. induction act; intros trees z ND AO H; cbn [for_each].
  { exists trees, z. split; auto. split; auto. split; auto. intros p []. }
  inversion ND as [|? ? N1 N2]; subst. destruct (H a (or_introl eq_refl)) as (Ha & Ma & La & Ta).
  assert (LT : length trees = L) by apply AO.
  rewrite (rd_ok _ d0) by lia. cbn [bind]. destruct (mid_leaf F G m y Ly i _ _ Hi Ma) as (L1 & _ & _).
  rewrite wr_one by auto. cbn [bind]. rewrite (leaf_lam i _ (U a)) by auto. cbn [bind]. cbv zeta. rewrite wr_ok by lia. cbn [bind].
  set (ph := phi _ _ _). assert (PA := mid_post F G m y Ly i (tr a trees) (U a) false ph Hi La Ma).
  set (t1 := put_met (put_s (tr a trees) m i [false]) ph) in *.
  destruct (IHact (upd trees a t1) (Z.min z ph) N2) as (trees' & z' & E & A' & R1 & R2).
  { apply all_ok_upd; auto; [exact (proj1 PA)|exact (proj1 (proj2 PA))]. }
  { intros p Hp. rewrite nth_upd_neq by (intros ->; auto). apply H. right. auto. }
  exists trees', z'. split; auto. split; auto. split.
  - intros p [<-|Hp]; auto. rewrite R2 by auto. rewrite nth_upd_eq by lia. split; auto.
    unfold t1, ph. cbn [met put_met]. rewrite phi_penalty, pm_snoc. lia.
  - intros p Hp. rewrite R2 by (intros X; apply Hp; right; auto). apply nth_upd_neq. intros ->. apply Hp. left. auto.
Qed.

Lemma frozen_leaf_ok : forall i trees act U c, i < 2 ^ m -> Mid i trees act U c ->
  exists trees' c', frozen_leaf m maxR i (trees, act) = Ret (trees', act) /\
    Mix i trees' act [] act U (fun p => U p ++ [false]) c'.
Proof.
  intros i trees act U c Hi (A & ND & H). unfold frozen_leaf.
  destruct (frozen_loop i U c Hi act trees maxR ND A H) as (t1 & z & E & A1 & R1 & R2).
  cbv zeta in E. rewrite E. cbn [bind].
  destruct (each_tree (fun t => Ret (put_met t (met t - z)%Z))
    (fun p t => post i t (U p ++ [false]) /\ met t = (pm (U p ++ [false]) + (c - z))%Z) act t1 ND) as (t2 & E2 & L2 & S1 & S2).
  { intros p Hp. destruct A1 as [A1 _]. destruct (H p Hp) as (Hp' & _). split; [lia|]. eexists. split; [reflexivity|].
    destruct (R1 p Hp) as [P M]. split; [exact P|]. cbn [met put_met]. lia. }
  cbn [bind] in E2. rewrite E2. cbn [bind]. exists t2, (c - z)%Z. split; auto.
  split; [|split; [|split; [|split; [|split]]]]; auto.
  - destruct A1 as [A1 A2]. split; [lia|]. intros p Hp. destruct (in_dec Nat.eq_dec p act) as [I|I].
    + destruct (S1 p I) as [(X1 & X2 & _) _]. auto.
    + rewrite S2 by auto. auto.
  - intros p Hp. apply H. auto.
  - intros p [].
  - intros p Hp. destruct (S1 p Hp) as [X1 X2]. split; auto. split; auto. rewrite app_length. simpl. destruct (H p Hp) as (_ & _ & X & _). lia.
Qed.

(** ** One leaf *)
Lemma leaf_step_ok : forall i trees act U c a k, i < 2 ^ m -> sorts -> L = 2 ^ a -> length act = 2 ^ k -> k <= a ->
  Inv i trees act U c -> survivors F G m L fb y i (map U act) ->
  exists trees' act' V c' k', leaf_step F G m fb L maxR sort i (trees, act) = Ret (trees', act') /\
    Inv (S i) trees' act' V c' /\ length act' = 2 ^ k' /\ k' <= a /\ survivors F G m L fb y (S i) (map V act') /\
    (In 0 act -> In 0 act').
Proof.
  intros i trees act U c a k Hi HS HL HA HK HI SV. unfold leaf_step.
  destruct (leaf_llrs_ok i trees act U c Hi HI) as (t1 & E1 & M1). rewrite E1. cbn [bind].
  rewrite (rd_ok _ true) by lia. cbn [bind].
  assert (X : exists t2 act' V c' k', (if nth i fb true then frozen_leaf m maxR i (t1, act) else info_leaf m L sort i (t1, act)) = Ret (t2, act') /\
     Mix i t2 act' [] act' U V c' /\ length act' = 2 ^ k' /\ k' <= a /\ survivors F G m L fb y (S i) (map V act') /\
     (In 0 act -> In 0 act')).
  { destruct (nth i fb true) eqn:EF.
    - destruct (frozen_leaf_ok i t1 act U c Hi M1) as (t2 & c' & E2 & M2).
      exists t2, act, (fun p => U p ++ [false]), c', k. split; auto. split; auto. split; auto. split; auto. split; [|auto].
      eapply surv_frozen; eauto. rewrite map_map. auto.
    - destruct (info_leaf_ok i t1 act U c a k Hi HS HL HA HK M1) as (t2 & act' & V & E2 & HZ & M2 & LL & D & P1 & P2).
      exists t2, act', V, c, (Nat.min a (S k)). split; auto. split; auto. split; [|split; [lia|split; [|auto]]].
      + rewrite LL, HL, HA. destruct (Nat.le_gt_cases (S k) a).
        * rewrite (Nat.min_r a (S k)) by lia. rewrite Nat.pow_succ_r'. rewrite Nat.min_r; auto. rewrite <- Nat.pow_succ_r'. apply Nat.pow_le_mono_r; lia.
        * assert (k = a) by lia. subst k. rewrite (Nat.min_l a (S a)) by lia. apply Nat.min_l. lia.
      + eapply surv_info; eauto. rewrite !map_length. lia. }
  destruct X as (t2 & act' & V & c' & k' & E2 & (A2 & _ & ND2 & B2 & _ & D2) & L2 & K2 & S2 & HZ). rewrite E2. cbn [bind].
  destruct (each_tree (propagate_sums m m i) (fun p t => pre (S i) t (V p) /\ met t = (pm (V p) + c')%Z) act' t2 ND2) as (t3 & E3 & L3 & R1 & R2).
  { intros p Hp. destruct A2 as [A2 _]. split; [rewrite A2; auto|]. destruct (D2 p Hp) as (P & LV & MV).
    destruct (post_pre F G m y Ly i (tr p t2) (V p) Hi LV P) as (t' & Et & Pt & Mt). exists t'. split; auto. split; auto. congruence. }
  rewrite E3. cbn [bind]. exists t3, act', V, c', k'. split; auto. split; [|auto 6]. split; [|split; auto].
  - destruct A2 as [A2 A3]. split; [lia|]. intros p Hp. destruct (in_dec Nat.eq_dec p act') as [I|I].
    + destruct (R1 p I) as [(X1 & X2 & _) _]. auto.
    + rewrite R2 by auto. auto.
  - intros p Hp. destruct (R1 p Hp) as [X1 X2]. destruct (D2 p Hp) as (_ & LV & _). auto.
Qed.

Lemma load_ok : forall trees, 0 < L -> length trees = L -> (forall p, p < L -> sized m (tr p trees)) ->
  exists trees', load m L metric_init y trees = Ret (trees', [0]) /\ Inv 0 trees' [0] (fun _ => []) metric_init.
Proof.
  intros trees HL LT HS. unfold load.
  destruct (for_inv _ (fun n ts => length ts = L /\ (forall p, p < L -> sized m (tr p ts)) /\
     (forall p, p < n -> rooty y (tr p ts) /\ met (tr p ts) = metric_init)) L
     (fun p trees => t <- rd trees p;; l <- for_ (2 ^ m) (fun i l => v <- rd y i;; wr l i v) (lamT t 0 0);;
        wr trees p (put_met (put_lam t 0 0 l) metric_init)) trees) as (ts & E & LTs & S1 & R1).
  - split; auto. split; auto. intros; lia.
  - intros p ts Hp (LTs & S1 & R1). rewrite (rd_ok _ d0) by lia. cbn [bind].
    destruct (S1 p Hp 0 0 ltac:(lia) ltac:(simpl; lia)) as [X _]. unfold sz in X. rewrite Nat.sub_0_r in X.
    rewrite (for1_fill Z 0%Z (fun i => nth i y 0%Z) (fun i => i)).
    + cbn [bind]. rewrite wr_ok by lia. eexists. split; [reflexivity|]. rewrite length_upd. split; auto.
      rewrite X. assert (ET : tab (2 ^ m) (fun i => nth i y 0%Z) = y) by (rewrite <- Ly; apply tab_nth). rewrite ET.
      assert (SZ : sized m (put_lam (tr p ts) 0 0 y)). { apply sized_put_lam; auto. intros. unfold sz. rewrite Nat.sub_0_r. auto. }
      split.
      * intros q Hq. destruct (Nat.eq_dec q p); [subst; rewrite nth_upd_eq by lia; exact SZ|]. rewrite nth_upd_neq by auto. auto.
      * intros q Hq. destruct (Nat.eq_dec q p).
        -- subst. rewrite nth_upd_eq by lia. split; auto. unfold rooty. cbn [lamT put_met put_lam]. apply put_eq.
        -- rewrite nth_upd_neq by auto. apply R1. lia.
    + intros i x Hi Hx. rewrite X. split; auto. rewrite (rd_ok _ 0%Z) by lia. auto.
    + intros q Hq. exists q. split; auto. lia.
  - rewrite E. cbn [bind]. exists ts. split; auto. split; [|split].
    + split; auto. intros p Hp. split; [auto|]. apply R1. auto.
    + constructor; [intros []|constructor].
    + intros p [<-|[]]. destruct (R1 0 HL) as [R2 M2]. split; auto. split; [|split; auto].
      split; [auto|]. split; auto. split; [intros k Hk; lia|]. split.
      * intros _. split.
        -- intros d Hd Ho. unfold anc in Ho. rewrite Nat.div_0_l in Ho by (pose proof (sz_pos m (S d)); lia). discriminate.
        -- intros d Hd He. lia.
      * intros X. pose proof (pow2_pos m). lia.
Qed.

Lemma list_decode_ok : forall trees a, sorts -> L = 2 ^ a -> length trees = L -> (forall p, p < L -> sized m (tr p trees)) ->
  exists trees' act U c, list_decode F G m fb L metric_init maxR sort y trees = Ret (trees', act) /\
    In 0 act /\ Inv (2 ^ m) trees' act U c /\ survivors F G m L fb y (2 ^ m) (map U act).
Proof.
  intros trees a HS HL LT SZ. unfold list_decode.
  destruct (load_ok trees) as (t0 & E0 & I0); auto. { rewrite HL. apply pow2_pos. }
  rewrite E0. cbn [bind].
  destruct (for_inv _ (fun i st => exists U c k, In 0 (snd st) /\ Inv i (fst st) (snd st) U c /\ length (snd st) = 2 ^ k /\ k <= a /\
     survivors F G m L fb y i (map U (snd st))) (2 ^ m) (fun leaf st => leaf_step F G m fb L maxR sort leaf st) (t0, [0])) as (st & E & U & c & k & Z0 & I & LL & HK & SV).
  - exists (fun _ => []), metric_init, 0. cbn [fst snd]. split; [left; auto|]. split; auto. split; auto. split; [lia|]. simpl. constructor.
  - intros i [ts act] Hi (U & c & k & Z0 & I & LL & HK & SV). cbn [fst snd] in *.
    destruct (leaf_step_ok i ts act U c a k Hi HS HL LL HK I SV) as (t' & act' & V & c' & k' & E & I' & L' & K' & S' & Z').
    exists (t', act'). split; auto. exists V, c', k'. auto 6.
  - destruct st as [ts act]. cbn [fst snd] in *. exists ts, act, U, c. auto.
Qed.

(** ** Selection and store *)
Lemma select_loop : forall trees act best, best < length trees -> (forall p, In p act -> p < length trees) ->
  exists b, for_each act (fun p best => a <- rd trees p ;; b <- rd trees best ;;
      Ret (if (met a <? met b)%Z then p else best)) best = Ret b /\ (b = best \/ In b act) /\
    (met (tr b trees) <= met (tr best trees))%Z /\ forall q, In q act -> (met (tr b trees) <= met (tr q trees))%Z.
Proof.
  intros trees. induction act; intros best HB HP; cbn [for_each].
  { exists best. split; auto. split; auto. split; [lia|]. intros q []. }
  assert (Ha := HP a (or_introl eq_refl)). rewrite !(rd_ok _ d0) by auto. cbn [bind].
  set (b0 := if (met (tr a trees) <? met (tr best trees))%Z then a else best).
  assert (X : b0 < length trees /\ (b0 = a \/ b0 = best) /\ (met (tr b0 trees) <= met (tr a trees))%Z /\ (met (tr b0 trees) <= met (tr best trees))%Z).
  { unfold b0. destruct (Z.ltb_spec (met (tr a trees)) (met (tr best trees))); repeat split; auto; lia. }
  destruct X as (X1 & X2 & X3 & X4).
  destruct (IHact b0 X1) as (b & E & Ib & M1 & M2). { intros p Hp. apply HP. right. auto. }
  exists b. split; auto. split; [|split].
  - destruct Ib as [->|Ib]; [destruct X2 as [->| ->]; [right; left; auto|left; auto]|right; right; auto].
  - lia.
  - intros q [<-|Hq]; auto. lia.
Qed.

Lemma select_ok : forall trees act, act <> [] -> (forall p, In p act -> p < length trees) ->
  exists b, select_best_path (trees, act) = Ret b /\ In b act /\
    forall q, In q act -> (met (tr b trees) <= met (tr q trees))%Z.
Proof.
  intros trees act HN HP. unfold select_best_path. destruct act as [|a l]; [contradiction|]. cbn [hd].
  destruct (select_loop trees (a :: l) a) as (b & E & I & M1 & M2); auto. { apply HP. left. auto. }
  exists b. split; auto. split; auto. destruct I as [->|I]; auto. left. auto.
Qed.

Lemma rec_store_ok : forall t u, leafs m (2 ^ m) t u -> length u = 2 ^ m -> forall rem d j st, d + rem = m ->
  (j + 1) * 2 ^ rem <= 2 ^ m ->
  rec_store fb rem d j t st = store_list fb (j * 2 ^ rem) (slice (j * 2 ^ rem) (2 ^ rem) u) st.
Proof.
  intros t u HLf Lu. induction rem; intros d j st Hd Hj; cbn [rec_store].
  - simpl (2 ^ 0) in *. rewrite Nat.mul_1_r in *. rewrite (slice_one m y Ly) by lia. cbn [store_list].
    assert (d = m) by lia. subst d. rewrite (rd_ok _ true) by lia. cbn [bind].
    destruct (nth j fb true); auto. rewrite HLf by lia. cbn [rd nth_error bind].
    destruct (wr (fst st) (snd st) (nth j u false)); auto.
  - rewrite Nat.pow_succ_r' in *. assert (P := pow2_pos rem). rewrite (IHrem (S d) (2 * j)) by lia.
    replace (j * (2 * 2 ^ rem)) with (2 * j * 2 ^ rem) by ring.
    replace (slice (2 * j * 2 ^ rem) (2 * 2 ^ rem) u) with (slice (2 * j * 2 ^ rem) (2 ^ rem + 2 ^ rem) u) by (f_equal; lia).
    rewrite slice_cut, store_list_app. rewrite length_slice by lia.
    destruct (store_list fb (2 * j * 2 ^ rem) (slice (2 * j * 2 ^ rem) (2 ^ rem) u) st); cbn [bind]; auto.
    rewrite (IHrem (S d) (2 * j + 1)) by lia. 
    replace ((2 * j + 1) * 2 ^ rem) with (2 * j * 2 ^ rem + 2 ^ rem) by ring. auto.
Qed.

Lemma store_ok : forall t u vk, pre (2 ^ m) t u -> length u = 2 ^ m -> length vk = count_info fb ->
  frozen_zero fb u ->
  exists v k, rec_store fb m 0 0 t (vk, 0) = Ret (v, k) /\ input_word fb v u.
Proof.
  intros t u vk (HS & HR & HLf & _) Lu Lv FZ.
  rewrite (rec_store_ok t u HLf Lu) by lia. rewrite Nat.mul_0_l. unfold slice. cbn [skipn]. rewrite firstn_all2 by lia.
  destruct (store_list_ok fb u 0 vk 0) as (v' & E' & L' & F'); auto; try lia.
  rewrite E'. eexists _, _. split; [reflexivity|].
  simpl (0 + _) in F'. rewrite Lu, <- Lf, rank_full, <- Lv, <- L', firstn_all in F'.
  split; [lia|]. split; auto. unfold carries, info_positions. rewrite F', Lf. simpl. apply map_ext. intros. rewrite Nat.sub_0_r. auto.
Qed.

Lemma path_bits_ok : forall t u, pre (2 ^ m) t u -> length u = 2 ^ m ->
  path_bits m fb t = Ret (map (fun p => nth p u false) (info_positions fb)).
Proof.
  intros t u (HS & HR & HLf & _) Lu. unfold path_bits, info_positions. rewrite Lf.
  assert (X : forall n, n <= 2 ^ m -> for_ n (fun leaf acc => f <- rd fb leaf ;;
      if f : bool then Ret acc else b <- rd (sT t m leaf) 0 ;; Ret (acc ++ [b])) [] =
      Ret (map (fun p => nth p u false) (filter (fun i => negb (nth i fb true)) (seq 0 n)))).
  { induction n; intros Hn; auto. rewrite for_S, IHn by lia. cbn [bind]. rewrite (rd_ok _ true) by lia. cbn [bind].
    rewrite seq_S, filter_app, map_app. cbn [plus filter]. destruct (nth n fb true); cbn [negb map].
    - rewrite app_nil_r. auto.
    - rewrite HLf by lia. auto. }
  apply X. auto.
Qed.
End P.
