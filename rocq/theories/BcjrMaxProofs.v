(** Terminated paths are codewords, and the maximum over all the paths is that over the
    terminated ones. *)
From Coq Require Import List Arith ZArith Lia Bool Permutation.
From Verif Require Import Base Copy ConvModel ConvSpec ConvProofs ConvCodeProofs ConvTrellisProofs BcjrModel BcjrSpec BcjrProofs BcjrCodeProofs.
Import ListNotations.

(* ------------------------------------------------------------------ *)
(** * The shift register *)
Lemma next_bit : forall p0 n b s i, 0 < n -> s < 2 ^ n -> S i < n -> Nat.testbit (next_spec p0 n b s) i = Nat.testbit s (S i).
Proof.
  intros p0 n b s i Hn Hs Hi. unfold next_spec. pose proof (half_lt n s Hn Hs). pose proof (new_cell_lt p0 n b s).
  rewrite <- lxor_high by auto. rewrite Nat.lxor_spec, Nat.shiftl_spec_low by lia. rewrite xorb_false_r, Nat.div2_spec, Nat.shiftr_spec', Nat.add_1_r. auto.
Qed.
Lemma next_top : forall p0 n b s, 0 < n -> s < 2 ^ n -> new_cell p0 n b s = 1 -> Nat.testbit (next_spec p0 n b s) (n - 1) = true.
Proof.
  intros p0 n b s Hn Hs E. unfold next_spec. rewrite E. pose proof (half_lt n s Hn Hs).
  rewrite <- lxor_high by auto. rewrite Nat.lxor_spec, Nat.shiftl_spec_high' by auto. rewrite Nat.sub_diag.
  rewrite Nat.div2_div. rewrite (testbit_high _ (n - 1)) by auto. auto.
Qed.
Lemma next_lt : forall p0 n b s, 0 < n -> b < 2 -> s < 2 ^ n -> next_spec p0 n b s < 2 ^ n.
Proof. intros p0 n b s Hn Hb Hs. apply (m_next _ _ _ _ _ (machine_generic p0 0 n Hn)); auto. Qed.
Lemma run_bit : forall p0 n vs s k, 0 < n -> bits vs -> s < 2 ^ n -> k < n -> length vs <= k -> Nat.testbit s k = true ->
  Nat.testbit (run (next_spec p0 n) s vs) (k - length vs) = true.
Proof.
  induction vs as [|b vs IH]; intros s k Hn B Hs Hk Hl T; cbn [run length] in *.
  - rewrite Nat.sub_0_r. auto.
  - inversion B; subst. replace (k - S (length vs)) with (k - 1 - length vs) by lia. apply IH; auto; try lia.
    + apply next_lt; auto.
    + rewrite next_bit by lia. replace (S (k - 1)) with k by lia. auto.
Qed.
(** A path that reaches the state 0 in at most n steps shifts in zeros. *)
Lemma forced : forall p0 n b vs s, 0 < n -> b < 2 -> bits vs -> s < 2 ^ n -> length vs < n ->
  run (next_spec p0 n) s (b :: vs) = 0 -> b = tapped p0 n s.
Proof.
  intros p0 n b vs s Hn Hb B Hs Hl R. pose proof (new_cell_lt p0 n b s) as C. pose proof (tapped_lt p0 n s) as TL.
  destruct (lt2 _ C) as [E|E].
  - unfold new_cell in E. destruct (lt2 b Hb) as [-> | ->], (lt2 _ TL) as [ET|ET]; rewrite ET in *; auto; discriminate.
  - exfalso. cbn [run] in R. pose proof (run_bit p0 n vs _ (n - 1) Hn B (next_lt p0 n b s Hn Hb Hs) ltac:(lia) ltac:(lia) (next_top p0 n b s Hn Hs E)) as Q.
    rewrite R, Nat.bits_0 in Q. discriminate.
Qed.

Lemma firstn_S_nth : forall (us : list nat) t, t < length us -> firstn (S t) us = firstn t us ++ [nth t us 0].
Proof. induction us; intros [|t] H; simpl in *; try lia; auto. f_equal. apply IHus. lia. Qed.
Lemma skipn_nth : forall (us : list nat) t, t < length us -> skipn t us = nth t us 0 :: skipn (S t) us.
Proof. induction us; intros [|t] H; simpl in *; try lia; auto. apply IHus. lia. Qed.
Lemma nth_firstn_lo : forall (us : list nat) t k, t < k -> nth t (firstn k us) 0 = nth t us 0.
Proof. induction us; intros [|t] [|k] H; simpl; try lia; auto. apply IHus. lia. Qed.
Lemma bits_firstn : forall us k, bits us -> bits (firstn k us).
Proof. intros us k B. rewrite <- (firstn_skipn k us) in B. apply bits_app in B. tauto. Qed.
Lemma bits_skipn : forall us k, bits us -> bits (skipn k us).
Proof. intros us k B. rewrite <- (firstn_skipn k us) in B. apply bits_app in B. tauto. Qed.

Section Register.
Variables (p0 n K : nat).
Hypothesis Hn : 0 < n.
Let X := next_spec p0 n.
Let Tl := tapped p0 n.
Lemma terminated : forall us, length us = K + n -> bits us -> run X 0 us = 0 ->
  forall t, t <= K + n -> run X 0 (firstn t us) = st_at X Tl K (firstn K us) t /\ (t < K + n -> nth t us 0 = in_at X Tl K (firstn K us) t).
Proof.
  intros us LU BU R. set (u := firstn K us). assert (Bu : bits u) by (apply bits_firstn; auto).
  assert (A : forall t, t < K + n -> run X 0 (firstn t us) = st_at X Tl K u t -> nth t us 0 = in_at X Tl K u t).
  { intros t Ht E. unfold in_at. destruct (Nat.ltb_spec t K).
    - unfold u. rewrite nth_firstn_lo; auto.
    - rewrite <- E. apply (forced p0 n _ (skipn (S t) us)); auto.
      + apply bits_nth. auto.
      + apply bits_skipn. auto.
      + apply run_bound; auto. { intros. apply next_lt; auto. } { apply bits_firstn. auto. } { apply Nat.neq_0_lt_0. apply Nat.pow_nonzero. lia. }
      + rewrite skipn_length. lia.
      + rewrite <- skipn_nth by lia. fold X. rewrite <- run_app, firstn_skipn. auto. }
  induction t; intros Ht.
  - cbn [firstn run st_at]. split; auto.
  - destruct IHt as [I1 I2]; [lia|]. specialize (I2 ltac:(lia)).
    assert (E : run X 0 (firstn (S t) us) = st_at X Tl K u (S t)).
    { rewrite firstn_S_nth by lia. rewrite run_app, I1. cbn [run]. rewrite st_S, I2. auto. }
    split; auto.
Qed.
(** The path of a message. *)
Definition path_of (u : list nat) : list nat := tab (K + n) (in_at X Tl K u).
Lemma path_run : forall u, bits u -> forall t, t <= K + n -> run X 0 (firstn t (path_of u)) = st_at X Tl K u t.
Proof.
  intros u B. induction t; intros Ht; auto. assert (LP : length (path_of u) = K + n) by apply length_tab.
  rewrite firstn_S_nth by lia. rewrite run_app, IHt by lia. cbn [run]. rewrite st_S. unfold path_of. rewrite nth_tab by lia. auto.
Qed.
Lemma path_ok : forall u, bits u -> bits (path_of u) /\ length (path_of u) = K + n /\ run X 0 (path_of u) = 0.
Proof.
  intros u B. assert (LP : length (path_of u) = K + n) by apply length_tab. split; [|split]; auto.
  - apply bits_tab. intros. apply (in_lt _ _ _ _ _ (machine_generic p0 0 n Hn)). auto.
  - rewrite <- (firstn_all (path_of u)), LP, path_run by auto. apply generic_term; auto.
Qed.
End Register.

(* ------------------------------------------------------------------ *)
(** * Ordered groups *)
Section Order.
Variable T : Type.
Variables (zero neg : T) (add sub : T -> T -> T) (imul : Z -> T -> T) (mx : T -> T -> T) (half post : T -> T).
Hypothesis L : laws T zero add sub imul mx half.
Variable le : T -> T -> Prop.
Record ordered : Prop := {
  o_refl : forall a, le a a;
  o_trans : forall a b c, le a b -> le b c -> le a c;
  o_anti : forall a b, le a b -> le b a -> a = b;
  o_total : forall a b, le a b \/ le b a;
  o_add : forall a b c, le a b -> le (add a c) (add b c);
  o_mx : forall a b, le a b -> mx a b = b;
  o_half : forall a b, le (half a) (half b) <-> le a b }.
Hypothesis HO : ordered.
Notation opp := (sub zero).
Notation big := (BcjrSpec.big T mx).
Let comm := l_comm _ _ _ _ _ _ _ L.
Let assoc := l_assoc _ _ _ _ _ _ _ L.
Let zero_r := l_zero _ _ _ _ _ _ _ L.
Let lsub := l_sub _ _ _ _ _ _ _ L.
Let lhalf := l_half _ _ _ _ _ _ _ L.

Lemma mx_ub : forall a b, le a (mx a b) /\ le b (mx a b) /\ (mx a b = a \/ mx a b = b).
Proof.
  intros a b. destruct (o_total HO a b) as [H|H].
  - rewrite (o_mx HO _ _ H). split; auto. split; auto. apply (o_refl HO).
  - rewrite (l_mxc _ _ _ _ _ _ _ L), (o_mx HO _ _ H). split; auto. apply (o_refl HO).
Qed.
Lemma big_max : forall l v, big l = Some v -> In v l /\ forall x, In x l -> le x v.
Proof.
  induction l as [|a l IH]; intros v E; [discriminate|]. cbn in E. destruct (big l) as [y|] eqn:EY.
  - inversion E; subst. destruct (IH y eq_refl) as [I1 I2]. destruct (mx_ub a y) as (U1 & U2 & U3). split.
    + destruct U3 as [-> | ->]; simpl; auto.
    + intros x [<- | Hx]; auto. apply (o_trans HO _ y); auto.
  - inversion E; subst. destruct l; [|cbn in EY; destruct (big l); discriminate]. split; [simpl; auto|]. intros x [<- | []]. apply (o_refl HO).
Qed.
Lemma add2 : forall a b c d, le a b -> le c d -> le (add a c) (add b d).
Proof. intros. apply (o_trans HO _ (add b c)). apply (o_add HO); auto. rewrite (comm b c), (comm b d). apply (o_add HO); auto. Qed.
Lemma le_opp : forall a b, le a b -> le (opp b) (opp a).
Proof.
  intros a b H. apply (o_add HO _ _ (add (opp a) (opp b))) in H. rewrite assoc in H. rewrite (opp_r _ _ _ _ _ _ _ L), (comm zero), zero_r in H.
  rewrite (comm (opp a)), assoc, (opp_r _ _ _ _ _ _ _ L), (comm zero), zero_r in H. auto.
Qed.
Definition abs (a : T) : T := mx a (opp a).
Lemma sg_abs : forall b a, le (sg T zero sub b a) (abs a) /\ le (opp (abs a)) (sg T zero sub b a).
Proof.
  intros b a. unfold sg, abs. destruct (mx_ub a (opp a)) as (U1 & U2 & _). destruct (b =? 0).
  - split; auto. rewrite <- (opp_opp _ _ _ _ _ _ _ L a) at 3. apply le_opp. auto.
  - split; auto. apply le_opp. auto.
Qed.

(** Sums over the times. *)
Fixpoint tsum (m : nat) (f : nat -> T) : T := match m with O => zero | S m' => add (tsum m' f) (f m') end.
Lemma tsum_ext : forall m f g, (forall i, i < m -> f i = g i) -> tsum m f = tsum m g.
Proof. induction m; intros f g H; auto. cbn [tsum]. rewrite (IHm f g), H; auto. Qed.
Lemma tsum_le : forall m f g, (forall i, i < m -> le (f i) (g i)) -> le (tsum m f) (tsum m g).
Proof. induction m; intros f g H; cbn [tsum]. apply (o_refl HO). apply add2; auto. Qed.
Lemma tsum_opp : forall m f, opp (tsum m f) = tsum m (fun i => opp (f i)).
Proof.
  induction m; intros f; cbn [tsum]. { apply (cancel _ _ _ _ _ _ _ L _ _ zero). rewrite lsub. auto. }
  rewrite (opp_add _ _ _ _ _ _ _ L), IHm. auto.
Qed.
Lemma tsum_front : forall m f, tsum (S m) f = add (f 0) (tsum m (fun i => f (S i))).
Proof. induction m; intros f. { cbn [tsum]. apply comm. } cbn [tsum] in *. rewrite IHm, assoc. auto. Qed.

Lemma abs_pos : forall a, le zero (abs a).
Proof.
  intros a. unfold abs. destruct (mx_ub a (opp a)) as (U1 & U2 & _). destruct (o_total HO zero a) as [H|H].
  - apply (o_trans HO _ a); auto.
  - apply (o_trans HO _ (opp a)); auto. apply le_opp in H. replace (opp zero) with zero in H; auto.
    apply (cancel _ _ _ _ _ _ _ L _ _ zero). rewrite lsub. auto.
Qed.
Lemma tsum_pos : forall m f, (forall i, i < m -> le zero (f i)) -> le zero (tsum m f).
Proof.
  induction m; intros f H; cbn [tsum]. apply (o_refl HO). rewrite <- (zero_r zero). apply add2; auto.
Qed.

(* ------------------------------------------------------------------ *)
(** * Terminated paths *)
Variables (p0 p1 n K : nat).
Hypothesis Hn : 0 < n.
Hypothesis H0 : Nat.testbit p0 n = true.
Hypothesis H1 : Nat.testbit p1 n = true.
Notation X := (next_spec p0 n).
Notation P := (par_spec p0 p1 n).
Notation NS := (2 ^ n).
Let len := K + n.
Variables (sys par : nat -> T).
Definition a0 (j : nat) : T := if j =? 0 then zero else neg.
Notation corr := (BcjrSpec.corr T zero add sub X P sys par).
Notation weight := (BcjrSpec.weight T zero add sub half X P sys par a0).
Notation sg := (BcjrSpec.sg T zero sub).
Notation sel := (BcjrProofs.sel X NS len).

Definition term (us : list nat) : Prop := length us = len /\ bits us /\ run X 0 us = 0.
Definition lab (s : nat) (us : list nat) (t : nat) : nat := P (nth t us 0) (run X s (firstn t us)).
Lemma corr_sum : forall us i s, corr i s us = tsum (length us) (fun t => add (sg (nth t us 0) (sys (i + t))) (sg (lab s us t) (par (i + t)))).
Proof.
  induction us as [|b us IH]; intros i s; auto. cbn [BcjrSpec.corr length]. rewrite tsum_front. f_equal.
  - unfold lab. cbn [nth firstn run]. rewrite Nat.add_0_r. auto.
  - rewrite IH. apply tsum_ext. intros t Ht. unfold lab. cbn [nth firstn run]. rewrite <- plus_n_Sm. auto.
Qed.
Definition bound : T := tsum len (fun t => add (abs (sys t)) (abs (par t))).
Lemma corr_bound : forall us s, length us = len -> le (corr 0 s us) bound /\ le (opp bound) (corr 0 s us).
Proof.
  intros us s LU. rewrite corr_sum, LU. unfold bound. split.
  - apply tsum_le. intros i Hi. apply add2; apply sg_abs.
  - rewrite tsum_opp. apply tsum_le. intros i Hi. rewrite (opp_add _ _ _ _ _ _ _ L). apply add2; apply sg_abs.
Qed.
Hypothesis DOM : le (add (add neg (half bound)) (half bound)) zero.

Lemma half_bound_pos : le zero (half bound).
Proof.
  rewrite <- (half_zero _ _ _ _ _ _ _ L). apply (o_half HO). unfold bound. apply tsum_pos. intros i Hi.
  rewrite <- (zero_r zero). apply add2; apply abs_pos.
Qed.
Lemma neg_le : le neg zero.
Proof.
  pose proof half_bound_pos as HB. apply (o_trans HO _ (add (add neg (half bound)) (half bound))); auto.
  rewrite <- (zero_r neg) at 1. rewrite <- (zero_r (add neg zero)). apply add2; auto. apply add2; auto. apply (o_refl HO).
Qed.
Lemma weight_term : forall us, run X 0 us = 0 -> weight (0, us) = half (corr 0 0 us).
Proof. intros us R. unfold BcjrSpec.weight. cbn [fst snd]. rewrite R. unfold a0. cbn [Nat.eqb]. rewrite zero_r, comm, zero_r. auto. Qed.
Lemma weight_other : forall s us, length us = len -> s <> 0 \/ run X s us <> 0 -> forall s' us', length us' = len -> le (weight (s, us)) (half (corr 0 s' us')).
Proof.
  intros s us LU D s' us' LU'.
  assert (W : le (weight (s, us)) (add neg (half bound))).
  { assert (HC : le (half (corr 0 s us)) (half bound)) by (apply (o_half HO); apply corr_bound; auto).
    pose proof neg_le as NL. unfold BcjrSpec.weight. cbn [fst snd]. unfold a0. destruct (Nat.eqb_spec s 0), (Nat.eqb_spec (run X s us) 0).
    - tauto.
    - rewrite (comm zero), zero_r, (comm _ neg). apply add2; auto. apply (o_refl HO).
    - rewrite zero_r. apply add2; auto. apply (o_refl HO).
    - rewrite <- (zero_r (add neg (half bound))). apply add2; auto. apply add2; auto. apply (o_refl HO). }
  apply (o_trans HO _ _ _ W). apply (o_trans HO _ (half (opp bound))).
  - rewrite (half_opp _ _ _ _ _ _ _ L). rewrite <- (zero_r (opp (half bound))), comm.
    replace (add (half bound) neg) with (add (add (add neg (half bound)) (half bound)) (opp (half bound))).
    + rewrite (comm (opp (half bound))). apply (o_add HO). auto.
    + rewrite <- !assoc, (opp_r _ _ _ _ _ _ _ L), zero_r. apply comm.
  - apply (o_half HO). apply corr_bound. auto.
Qed.

Lemma sel_in : forall cd i p, In p (sel cd i) <-> fst p < NS /\ length (snd p) = len /\ bits (snd p) /\ cd (nth i (snd p) 0) (run X (fst p) (firstn i (snd p))) = true.
Proof. intros. unfold BcjrProofs.sel. rewrite filter_In, paths_in. tauto. Qed.
Lemma pow_pos : 0 < NS.
Proof. apply Nat.neq_0_lt_0. apply Nat.pow_nonzero. lia. Qed.

Lemma best_term : forall cd i m q, big (map weight (sel cd i)) = Some m ->
  term q -> cd (nth i q 0) (run X 0 (firstn i q)) = true ->
  exists us, term us /\ cd (nth i us 0) (run X 0 (firstn i us)) = true /\ m = half (corr 0 0 us) /\
    forall us', term us' -> cd (nth i us' 0) (run X 0 (firstn i us')) = true -> le (corr 0 0 us') (corr 0 0 us).
Proof.
  intros cd i m q HM TQ CQ. destruct (big_max _ _ HM) as [IM UM].
  assert (UT : forall us', term us' -> cd (nth i us' 0) (run X 0 (firstn i us')) = true -> le (half (corr 0 0 us')) m).
  { intros us' (LU & BU & RU) C. rewrite <- weight_term by auto. apply UM. apply in_map. apply sel_in. cbn [fst snd]. pose proof pow_pos. auto. }
  apply in_map_iff in IM. destruct IM as ([s us] & EM & IS). apply sel_in in IS. cbn [fst snd] in IS. destruct IS as (Hs & LU & BU & C).
  destruct (Nat.eq_dec s 0) as [->|NS0]; [destruct (Nat.eq_dec (run X 0 us) 0) as [R|R]|].
  - exists us. split. { split; auto. } split; auto. rewrite weight_term in EM by auto. split; auto.
    intros us' T' C'. apply (o_half HO). rewrite EM. auto.
  - assert (E : m = half (corr 0 0 q)).
    { apply (o_anti HO); auto. rewrite <- EM. apply weight_other; auto. apply TQ. }
    exists q. split; auto. split; auto. split; auto. intros us' T' C'. apply (o_half HO). rewrite <- E. auto.
  - assert (E : m = half (corr 0 0 q)).
    { apply (o_anti HO); auto. rewrite <- EM. apply weight_other; auto. apply TQ. }
    exists q. split; auto. split; auto. split; auto. intros us' T' C'. apply (o_half HO). rewrite <- E. auto.
Qed.

(** ** Codewords *)
Variable bf : bool.
Definition cor (x : list nat) : T := tsum len (fun t => add (sg (nth (sys_pos bf t) x 0) (sys t)) (sg (nth (par_pos bf len t) x 0) (par t))).
(** [us] is the path of the codeword [x]. *)
Definition path_word (us x : list nat) : Prop :=
  forall t, t < len -> nth (sys_pos bf t) x 0 = nth t us 0 /\ nth (par_pos bf len t) x 0 = lab 0 us t.
Lemma cor_corr : forall us x, length us = len -> path_word us x -> cor x = corr 0 0 us.
Proof. intros us x LU W. rewrite corr_sum, LU. unfold cor. apply tsum_ext. intros t Ht. destruct (W t Ht) as [-> ->]. auto. Qed.
Lemma term_code : forall us, term us -> exists x, rsc_code p0 p1 n bf K x /\ path_word us x.
Proof.
  intros us (LU & BU & R). pose proof (terminated p0 n K Hn us LU BU R) as TM. set (u := firstn K us) in *.
  assert (Bu : bits u) by (apply bits_firstn; auto).
  assert (Lu : length u = K) by (unfold u; rewrite firstn_length; unfold len in LU; lia).
  pose proof (machine_generic p0 p1 n Hn) as M.
  assert (NF : n_ff (rsc_generic p0 p1 n) = n) by (unfold rsc_generic; destruct (rsc_tables p0 p1 n) as [[? ?] ?]; auto).
  destruct (rsc_encode_ret _ _ _ _ _ M) with (b := bf) (K := K) (u := u) (x := repeat 0 (2 * K + 2 * n)) as (o & E & LO & I); auto; rewrite ?NF in *; rewrite ?repeat_length; auto.
  { apply generic_term; auto. }
  exists o. split.
  - apply (follows_code p0 p1 n Hn H0 H1 bf K u o); auto.
  - intros t Ht. destruct (I t Ht) as [I1 I2]. rewrite I1. unfold len in *. rewrite I2. destruct (TM t ltac:(lia)) as [T1 T2]. specialize (T2 Ht).
    split; auto. unfold lab. rewrite T1, T2. auto.
Qed.
Lemma code_term : forall x, rsc_code p0 p1 n bf K x -> exists us, term us /\ path_word us x.
Proof.
  intros x C. destruct (code_follows p0 p1 n Hn H0 H1 bf K x C) as [B F]. set (u := info bf K x) in *.
  destruct (path_ok p0 n K Hn u B) as (BP & LP & RP). exists (path_of p0 n K u). split. { split; auto. }
  intros t Ht. destruct (F t Ht) as [F1 F2]. unfold len. rewrite F1, F2. unfold lab. rewrite path_run by (auto; unfold len in *; lia).
  unfold path_of. rewrite nth_tab by auto. auto.
Qed.

(** The best codewords with a given bit. *)
Definition best (q b : nat) (x : list nat) : Prop :=
  rsc_code p0 p1 n bf K x /\ nth q x 0 = b /\ forall y, rsc_code p0 p1 n bf K y -> nth q y 0 = b -> le (cor y) (cor x).
Lemma best_code : forall cd i m q b y, q = sys_pos bf i \/ q = par_pos bf len i -> i < len ->
  (forall us, term us -> cd (nth i us 0) (run X 0 (firstn i us)) = ((if q =? sys_pos bf i then nth i us 0 else lab 0 us i) =? b)) ->
  big (map weight (sel cd i)) = Some m -> rsc_code p0 p1 n bf K y -> nth q y 0 = b ->
  exists x, best q b x /\ m = half (cor x).
Proof.
  intros cd i m q b y HQ Hi HC HM CY BY.
  assert (WQ : forall us x, path_word us x -> nth q x 0 = if q =? sys_pos bf i then nth i us 0 else lab 0 us i).
  { intros us x W. destruct (W i Hi) as [W1 W2]. destruct HQ as [-> | ->].
    - rewrite Nat.eqb_refl. auto.
    - destruct (Nat.eqb_spec (par_pos bf len i) (sys_pos bf i)); auto. exfalso. apply (sys_par bf len i i); auto. }
  destruct (code_term y CY) as (uy & TY & WY).
  destruct (best_term cd i m uy HM TY) as (us & TU & CU & EM & UM).
  { rewrite HC by auto. rewrite <- (WQ uy y WY). apply Nat.eqb_eq. auto. }
  destruct (term_code us TU) as (x & CX & WX). exists x. rewrite HC in CU by auto. rewrite <- (WQ us x WX) in CU. apply Nat.eqb_eq in CU.
  rewrite (cor_corr us x (proj1 TU) WX). split; auto. split; auto. split; auto.
  intros z CZ BZ. destruct (code_term z CZ) as (uz & TZ & WZ). rewrite (cor_corr us x (proj1 TU) WX), (cor_corr uz z (proj1 TZ) WZ).
  apply UM; auto. rewrite HC by auto. rewrite <- (WQ uz z WZ). apply Nat.eqb_eq. auto.
Qed.
End Order.
