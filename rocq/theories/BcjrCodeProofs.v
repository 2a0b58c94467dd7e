From Coq Require Import List Arith ZArith Lia Bool Permutation.
From Verif Require Import Base Copy ConvModel ConvSpec ConvProofs ConvTrellisProofs BcjrModel BcjrSpec BcjrProofs.
Import ListNotations.

Lemma perm_filter : forall A (f : A -> bool) l1 l2, Permutation l1 l2 -> Permutation (filter f l1) (filter f l2).
Proof.
  induction 1; cbn; auto.
  - destruct (f x); auto.
  - destruct (f x), (f y); auto. apply perm_swap.
  - eapply perm_trans; eauto.
Qed.

Section Code.
Variable T : Type.
Variables (zero neg : T) (add sub : T -> T -> T) (imul : Z -> T -> T) (mx : T -> T -> T) (half post : T -> T) (nrm : nat -> bool).
Hypothesis L : laws T zero add sub imul mx half.
Let comm := l_comm _ _ _ _ _ _ _ L.
Let assoc := l_assoc _ _ _ _ _ _ _ L.
Let zero_r := l_zero _ _ _ _ _ _ _ L.
Let lsub := l_sub _ _ _ _ _ _ _ L.
Let mxt := l_mxt _ _ _ _ _ _ _ L.
Let lhalf := l_half _ _ _ _ _ _ _ L.
Notation big := (BcjrSpec.big T mx).
Notation opp := (sub zero).
Notation omx := (omx T mx).

Variables (X P : nat -> nat -> nat) (NS K n_ff : nat) (t : list (list Z)).
Hypothesis HX : forall b s, b < 2 -> s < NS -> X b s < NS.
Hypothesis HP : forall b s, b < 2 -> s < NS -> P b s < 2.
Hypothesis TOK : trellis_ok NS X P t.
Hypothesis SH : shaped NS t.
Hypothesis OPP : forall j, j < NS -> entry t 4 j = (- entry t 1 j)%Z.
Hypothesis HN : 0 < NS.
Hypothesis HK : 0 < K.
Let len := K + n_ff.
Variables (sysl parl : list T).
Hypothesis LS : len <= length sysl.
Hypothesis LP : len <= length parl.
Let sys := fun i => nth i sysl zero.
Let par := fun i => nth i parl zero.
Notation met := (met T zero add sub half P sys par).
Notation at_ := (at_ zero).

Lemma trd : forall r j, r < 10 -> j < NS -> mrd t r j = Ret (entry t r j).
Proof.
  intros r j Hr Hj. destruct SH as [L1 R]. unfold mrd. rewrite (rd_ok _ []) by lia. cbn [bind].
  rewrite (rd_ok _ 0%Z) by (rewrite R; auto). reflexivity.
Qed.
Lemma idx_ok : forall r j v, r < 10 -> j < NS -> entry t r j = Z.of_nat v -> idx t r j = Ret v.
Proof.
  intros r j v Hr Hj E. unfold idx. rewrite trd by auto. cbn [bind]. rewrite E.
  destruct (Z.ltb_spec (Z.of_nat v) 0); [lia|]. rewrite Nat2Z.id. auto.
Qed.

(** ** gamma *)
Definition gamma_ok (g : list (list T)) : Prop := mat 2 len g /\
  forall i, i < len -> at_ g 0 i = half (add (sys i) (par i)) /\ at_ g 1 i = half (sub (sys i) (par i)).

Lemma compute_gamma_ok : forall g, mat 2 len g ->
  exists g', compute_gamma T add sub half K n_ff sysl parl g = Ret g' /\ gamma_ok g'.
Proof.
  intros g MG. unfold compute_gamma. fold len.
  match goal with |- context [for_ len ?body ?s0] => destruct (for_inv _ (fun i g' => mat 2 len g' /\ forall i', i' < i ->
    at_ g' 0 i' = half (add (sys i') (par i')) /\ at_ g' 1 i' = half (sub (sys i') (par i'))) len body s0) as (g' & E & M & V) end.
  - split; auto. intros; lia.
  - intros i h Hi (M & V). rewrite (rd_ok _ zero) by lia. cbn [bind]. rewrite (rd_ok _ zero) by lia. cbn [bind].
    destruct (mwr_ok _ zero 2 len h 0 i (half (add (nth i sysl zero) (nth i parl zero))) M ltac:(lia) Hi) as (h1 & E1 & M1 & V1).
    rewrite E1. cbn [bind].
    destruct (mwr_ok _ zero 2 len h1 1 i (half (sub (nth i sysl zero) (nth i parl zero))) M1 ltac:(lia) Hi) as (h2 & E2 & M2 & V2).
    rewrite E2. exists h2. split; auto. split; auto. intros i' Hi'. rewrite !V2, !V1. cbn [Nat.eqb andb].
    destruct (Nat.eqb_spec i' i); [subst; auto|]. apply V. lia.
  - exists g'. split; auto. split; auto.
Qed.

Lemma opp_half : forall a, opp (half a) = half (opp a).
Proof. intros. symmetry. eapply half_opp; eauto. Qed.
Lemma gsel : forall g b s i, gamma_ok g -> b < 2 -> s < NS -> i < len ->
  imul (sign_of b) (at_ g (Nat.lxor b (P b s)) i) = met b s i.
Proof.
  intros g b s i (MG & VG) Hb Hs Hi. destruct (VG i Hi) as [V0 V1]. unfold BcjrProofs.met, sg.
  pose proof (HP b s Hb Hs) as Q. destruct (lt2 b Hb) as [-> | ->]; destruct (lt2 _ Q) as [E|E]; rewrite E; cbn [Nat.lxor Nat.eqb sign_of].
  - change (Nat.lxor 0 0) with 0. rewrite V0, (l_one _ _ _ _ _ _ _ L). auto.
  - change (Nat.lxor 0 1) with 1. rewrite V1, (l_one _ _ _ _ _ _ _ L). f_equal. eapply sub_opp; eauto.
  - change (Nat.lxor 1 0) with 1. rewrite V1, (l_mone _ _ _ _ _ _ _ L). rewrite opp_half. f_equal.
    rewrite (sub_opp _ _ _ _ _ _ _ L (sys i)). rewrite (opp_add _ _ _ _ _ _ _ L). f_equal. apply (opp_opp _ _ _ _ _ _ _ L).
  - change (Nat.lxor 1 1) with 0. rewrite V0, (l_mone _ _ _ _ _ _ _ L). rewrite opp_half. f_equal.
    apply (opp_add _ _ _ _ _ _ _ L).
Qed.
Lemma lxor_lt2 : forall a b, a < 2 -> b < 2 -> Nat.lxor a b < 2.
Proof. intros. rewrite lxor2 by auto. apply Nat.mod_upper_bound. lia. Qed.
Lemma gsel0 : forall g s i, gamma_ok g -> s < NS -> i < len -> at_ g (Nat.lxor 0 (P 0 s)) i = met 0 s i.
Proof. intros. rewrite <- (gsel g 0 s i) by (auto; lia). cbn [sign_of Nat.eqb]. rewrite (l_one _ _ _ _ _ _ _ L). auto. Qed.
Lemma gsel1 : forall g s i x, gamma_ok g -> s < NS -> i < len -> sub x (at_ g (Nat.lxor 1 (P 1 s)) i) = add x (met 1 s i).
Proof.
  intros. rewrite <- (gsel g 1 s i) by (auto; lia). cbn [sign_of Nat.eqb]. rewrite (l_mone _ _ _ _ _ _ _ L). eapply sub_opp; eauto.
Qed.

(** ** Normalisation *)
Lemma normalize_col_ok : forall m c i, mat NS c m -> i < c ->
  exists m' v, normalize_col T sub nrm NS m i = Ret m' /\ (nrm i = false -> v = zero) /\ mat NS c m' /\
    (forall j i', i' <> i -> at_ m' j i' = at_ m j i') /\ forall j, j < NS -> add (at_ m' j i) v = at_ m j i.
Proof.
  intros m c i M Hi. unfold normalize_col. destruct (nrm i) eqn:EN.
  - rewrite (mrd_ok _ zero NS c) by auto. cbn [bind]. set (v := at_ m 0 i).
    match goal with |- context [for_ NS ?body ?s0] => destruct (for_inv _ (fun j m' => mat NS c m' /\
      forall j' i', at_ m' j' i' = if (j' <? j) && (i' =? i) then sub (at_ m j' i') v else at_ m j' i') NS body s0) as (m' & E & M' & V) end.
    + split; auto.
    + intros j h Hj (MH & VH). rewrite (mrd_ok _ zero NS c) by auto. cbn [bind].
      destruct (mwr_ok _ zero NS c h j i (sub (at_ h j i) v) MH Hj Hi) as (h1 & E1 & M1 & V1). rewrite E1. exists h1. split; auto. split; auto.
      intros j' i'. rewrite V1. rewrite !VH. destruct (Nat.eqb_spec j' j).
      * subst. cbn [andb]. rewrite Nat.ltb_irrefl. cbn [andb]. destruct (Nat.ltb_spec j (S j)); [|lia]. cbn [andb].
        destruct (Nat.eqb_spec i' i); subst; auto.
      * cbn [andb]. destruct (Nat.ltb_spec j' j), (Nat.ltb_spec j' (S j)); auto; lia.
    + exists m', v. split; auto. split; [discriminate|]. split; auto. split.
      * intros j i' Hi'. rewrite V. destruct (Nat.eqb_spec i' i); [lia|]. rewrite andb_false_r. auto.
      * intros j Hj. rewrite V. rewrite Nat.eqb_refl. destruct (Nat.ltb_spec j NS); [|lia]. cbn [andb]. apply lsub.
  - exists m, zero. auto 10.
Qed.
Lemma normalize_arr_ok : forall a i, length a = NS ->
  exists a' v, normalize_arr T sub nrm NS a i = Ret a' /\ (nrm i = false -> v = zero) /\ length a' = NS /\ forall j, j < NS -> add (nth j a' zero) v = nth j a zero.
Proof.
  intros a i LA. unfold normalize_arr. destruct (nrm i) eqn:EN.
  - rewrite (rd_ok _ zero) by lia. cbn [bind]. set (v := nth 0 a zero).
    match goal with |- context [for_ NS ?body ?s0] => destruct (for_inv _ (fun j a' => length a' = NS /\
      forall j', nth j' a' zero = if j' <? j then sub (nth j' a zero) v else nth j' a zero) NS body s0) as (a' & E & LA' & V) end.
    + split; auto.
    + intros j h Hj (LH & VH). rewrite (rd_ok _ zero) by lia. cbn [bind]. rewrite wr_ok by lia. eexists. split; [reflexivity|].
      split; [rewrite length_upd; auto|]. intros j'. rewrite nth_upd by lia. rewrite !VH. destruct (Nat.eqb_spec j' j).
      * subst. rewrite Nat.ltb_irrefl. destruct (Nat.ltb_spec j (S j)); [auto|lia].
      * destruct (Nat.ltb_spec j' j), (Nat.ltb_spec j' (S j)); auto; lia.
    + exists a', v. split; auto. split; [discriminate|]. split; auto. intros j Hj. rewrite V. destruct (Nat.ltb_spec j NS); [|lia]. apply lsub.
  - exists a, zero. auto 10.
Qed.

(** ** alpha *)
Variable a0 : nat -> T.
Notation fw := (fw T zero add sub half X P sys par a0 NS).
Notation bw := (bw T zero add sub half X P sys par a0).
(** [f] is the metrics [F], up to a constant (none without normalisation). *)
Definition never : Prop := forall i, nrm i = false.
Definition upto (F : nat -> option T) (f : nat -> T) : Prop := exists c, (never -> c = zero) /\ forall s, s < NS -> F s = Some (add (f s) c).

Lemma compute_alpha_ok : forall g al, gamma_ok g -> mat NS (len + 1) al -> (forall j, j < NS -> at_ al j 0 = a0 j) ->
  exists al', compute_alpha T add sub imul mx nrm t NS K n_ff g al = Ret al' /\ mat NS (len + 1) al' /\
    (forall j, j < NS -> at_ al' j 0 = a0 j) /\
    forall i, i < len -> upto (fun s => big (fw i s)) (fun s => at_ al' s i).
Proof.
  intros g al GO MA A0. unfold compute_alpha. fold len.
  match goal with |- context [for_from 1 (len - 1) ?body ?s0] => destruct (for_from_inv _ (fun i al' => mat NS (len + 1) al' /\
    (forall j, j < NS -> at_ al' j 0 = a0 j) /\ forall i', i' < i -> upto (fun s => big (fw i' s)) (fun s => at_ al' s i')) (len - 1) 1 body s0) as (al' & E & M & A & V) end.
  - split; auto. split; auto. intros i' Hi'. replace i' with 0 by lia. exists zero. split; auto. intros s Hs. rewrite (fw_0 _ _ _ _ _ _ _ L) by auto. rewrite zero_r, A0; auto.
  - intros i m Hi (M & A & V). replace (1 + (len - 1)) with len in Hi by lia.
    destruct (V (i - 1) ltac:(lia)) as (c & CZ & VC).
    match goal with |- context [bind (for_ NS ?body m) _] => destruct (for_inv _ (fun j m' => mat NS (len + 1) m' /\
      (forall j' i', i' <> i -> at_ m' j' i' = at_ m j' i') /\ forall j', j' < j -> big (fw i j') = Some (add (at_ m' j' i) c)) NS body m) as (m1 & E1 & M1 & O1 & V1) end.
    + split; auto. split; auto. intros; lia.
    + intros j m' Hj (M' & O' & V').
      destruct TOK as (_ & _ & TI). destruct (TI j Hj) as (s1 & b1 & s2 & b2 & H1 & H2 & B1 & B2 & D & HE & T0 & T1 & T2 & T3 & T4 & T5).
      rewrite (idx_ok 0 j s1) by (auto; lia). cbn [bind]. rewrite (mrd_ok _ zero NS (len + 1)) by (auto; lia). cbn [bind].
      rewrite trd by (auto; lia). cbn [bind]. rewrite (idx_ok 2 j _ ltac:(lia) Hj T2). cbn [bind].
      pose proof (proj1 GO) as MG.
      rewrite (mrd_ok _ zero 2 len) by (auto; try lia; apply lxor_lt2; auto). cbn [bind].
      rewrite (idx_ok 3 j s2) by (auto; lia). cbn [bind]. rewrite (mrd_ok _ zero NS (len + 1)) by (auto; lia). cbn [bind].
      rewrite trd by (auto; lia). cbn [bind]. rewrite (idx_ok 5 j _ ltac:(lia) Hj T5). cbn [bind].
      rewrite (mrd_ok _ zero 2 len) by (auto; try lia; apply lxor_lt2; auto). cbn [bind].
      rewrite T1, T4. rewrite !gsel by (auto; lia). rewrite !O' by lia.
      match goal with |- context [mwr m' j i ?x] => destruct (mwr_ok _ zero NS (len + 1) m' j i x M' Hj ltac:(lia)) as (m2 & E2 & M2 & V2) end.
      rewrite E2. exists m2. split; auto. split; auto. split.
      * intros j' i' Hi'. rewrite V2. destruct (Nat.eqb_spec i' i); [lia|]. rewrite andb_false_r. auto.
      * intros j' Hj'. rewrite V2, Nat.eqb_refl, andb_true_r. destruct (Nat.eqb_spec j' j).
        -- subst j'. pose proof (fw_S _ _ _ _ _ _ _ L X P sys par a0 NS HX (i - 1) j s1 b1 s2 b2 _ _ H1 H2 B1 B2 D HE (VC s1 H1) (VC s2 H2)) as Q.
           replace (S (i - 1)) with i in Q by lia. rewrite Q. f_equal. rewrite <- mxt. f_equal; rewrite <- !assoc; f_equal; apply comm.
        -- apply V'. lia.
    + rewrite E1. cbn [bind]. destruct (normalize_col_ok m1 (len + 1) i M1 ltac:(lia)) as (m2 & v & E2 & VZ & M2 & O2 & V2).
      rewrite E2. exists m2. split; auto. split; auto. split.
      * intros j Hj. rewrite O2, O1 by lia. auto.
      * intros i' Hi'. destruct (Nat.eq_dec i' i) as [->|NE].
        -- exists (add v c). split. { intros NV. rewrite (CZ NV), (VZ (NV i)). apply zero_r. } intros s Hs. rewrite (V1 s Hs). rewrite assoc, V2 by auto. auto.
        -- destruct (V i' ltac:(lia)) as (c' & CZ' & VC'). exists c'. split; auto. intros s Hs. rewrite O2, O1 by lia. auto.
  - replace (1 + (len - 1)) with len in V by (unfold len; lia). exists al'. auto.
Qed.

(** ** beta *)
Lemma branch0_ok : forall g i j (b : nat -> outcome T) f, gamma_ok g -> i < len -> j < NS -> (forall s, s < NS -> b s = Ret (f s)) ->
  branch0 T add t g b i j = Ret (add (f (X 0 j)) (met 0 j i)).
Proof.
  intros g i j b f GO Hi Hj HB. unfold branch0. destruct TOK as (_ & TO & _). destruct (TO j 0 Hj ltac:(lia)) as [T6 T7]. cbn [Nat.add Nat.mul] in *.
  rewrite (idx_ok 6 j _ ltac:(lia) Hj T6). cbn [bind]. rewrite HB by (apply HX; auto; lia). cbn [bind]. rewrite (idx_ok 7 j _ ltac:(lia) Hj T7). cbn [bind].
  pose proof (proj1 GO) as MG. rewrite (mrd_ok _ zero 2 len) by (auto; apply lxor_lt2; auto; apply HP; auto; lia). cbn [bind]. rewrite gsel0 by auto. auto.
Qed.
Lemma branch1_ok : forall g i j (b : nat -> outcome T) f, gamma_ok g -> i < len -> j < NS -> (forall s, s < NS -> b s = Ret (f s)) ->
  branch1 T sub t g b i j = Ret (add (f (X 1 j)) (met 1 j i)).
Proof.
  intros g i j b f GO Hi Hj HB. unfold branch1. destruct TOK as (_ & TO & _). destruct (TO j 1 Hj ltac:(lia)) as [T6 T7]. cbn [Nat.add Nat.mul] in *.
  rewrite (idx_ok 8 j _ ltac:(lia) Hj T6). cbn [bind]. rewrite HB by (apply HX; auto; lia). cbn [bind]. rewrite (idx_ok 9 j _ ltac:(lia) Hj T7). cbn [bind].
  pose proof (proj1 GO) as MG. rewrite (mrd_ok _ zero 2 len) by (auto; apply lxor_lt2; auto; apply HP; auto; lia). cbn [bind]. rewrite gsel1 by auto. auto.
Qed.
(** The value of the branch (b, j) at time i, given the metrics on both sides. *)
Definition tv (al be : nat -> T) (i : nat) (e : nat * nat) : T := add (add (al (snd e)) (be (X (fst e) (snd e)))) (met (fst e) (snd e) i).
Lemma through0_ok : forall al g i j (b : nat -> outcome T) f, mat NS (len + 1) al -> gamma_ok g -> i < len -> j < NS -> (forall s, s < NS -> b s = Ret (f s)) ->
  through0 T add t al g b i j = Ret (tv (fun s => at_ al s i) f i (0, j)).
Proof.
  intros al g i j b f MA GO Hi Hj HB. unfold through0. destruct TOK as (_ & TO & _). destruct (TO j 0 Hj ltac:(lia)) as [T6 T7]. cbn [Nat.add Nat.mul] in *.
  rewrite (mrd_ok _ zero NS (len + 1)) by (auto; lia). cbn [bind].
  rewrite (idx_ok 6 j _ ltac:(lia) Hj T6). cbn [bind]. rewrite HB by (apply HX; auto; lia). cbn [bind]. rewrite (idx_ok 7 j _ ltac:(lia) Hj T7). cbn [bind].
  pose proof (proj1 GO) as MG. rewrite (mrd_ok _ zero 2 len) by (auto; apply lxor_lt2; auto; apply HP; auto; lia). cbn [bind]. rewrite gsel0 by auto. auto.
Qed.
Lemma through1_ok : forall al g i j (b : nat -> outcome T) f, mat NS (len + 1) al -> gamma_ok g -> i < len -> j < NS -> (forall s, s < NS -> b s = Ret (f s)) ->
  through1 T add sub t al g b i j = Ret (tv (fun s => at_ al s i) f i (1, j)).
Proof.
  intros al g i j b f MA GO Hi Hj HB. unfold through1. destruct TOK as (_ & TO & _). destruct (TO j 1 Hj ltac:(lia)) as [T6 T7]. cbn [Nat.add Nat.mul] in *.
  rewrite (mrd_ok _ zero NS (len + 1)) by (auto; lia). cbn [bind].
  rewrite (idx_ok 8 j _ ltac:(lia) Hj T6). cbn [bind]. rewrite HB by (apply HX; auto; lia). cbn [bind]. rewrite (idx_ok 9 j _ ltac:(lia) Hj T7). cbn [bind].
  pose proof (proj1 GO) as MG. rewrite (mrd_ok _ zero 2 len) by (auto; apply lxor_lt2; auto; apply HP; auto; lia). cbn [bind]. rewrite gsel1 by auto. auto.
Qed.

(** The backward metrics of time [i] from those of time [i + 1]. *)
Lemma beta_up : forall i m (f f' : nat -> T) v, (nrm i = false -> v = zero) -> upto (fun s => big (bw (S i) m s)) f ->
  (forall j, j < NS -> add (f' j) v = mx (add (f (X 0 j)) (met 0 j i)) (add (f (X 1 j)) (met 1 j i))) ->
  upto (fun s => big (bw i (S m) s)) f'.
Proof.
  intros i m f f' v VZ (c & CZ & HC) HF. exists (add v c). split. { intros NV. rewrite (CZ NV), (VZ (NV i)). apply zero_r. } intros s Hs.
  rewrite (bw_S _ _ _ _ _ _ _ L X P sys par a0 i m s (add (f (X 0 s)) c) (add (f (X 1 s)) c)) by (apply HC; apply HX; auto; lia).
  f_equal. rewrite assoc, HF by auto. rewrite <- mxt. f_equal; rewrite <- !assoc; f_equal; apply comm.
Qed.
Lemma beta_step_ok : forall g i m prev cur, gamma_ok g -> i < len -> length prev = NS -> length cur = NS ->
  upto (fun s => big (bw (S i) m s)) (fun s => nth s prev zero) ->
  exists prev' cur', beta_step T add sub mx nrm t NS g i (prev, cur) = Ret (prev', cur') /\ length prev' = NS /\ length cur' = NS /\
    upto (fun s => big (bw i (S m) s)) (fun s => nth s prev' zero).
Proof.
  intros g i m prev cur GO Hi LV LC U. unfold beta_step.
  match goal with |- context [bind (for_ NS ?body cur) _] => destruct (for_inv _ (fun j cur' => length cur' = NS /\ forall j', j' < j ->
    nth j' cur' zero = mx (add (nth (X 0 j') prev zero) (met 0 j' i)) (add (nth (X 1 j') prev zero) (met 1 j' i))) NS body cur) as (cur1 & E1 & L1 & V1) end.
  - split; auto. intros; lia.
  - intros j h Hj (LH & VH).
    assert (HB : forall s, s < NS -> rd prev s = Ret (nth s prev zero)) by (intros; apply rd_ok; lia).
    rewrite (branch0_ok g i j _ (fun s => nth s prev zero)) by auto. cbn [bind]. rewrite (branch1_ok g i j _ (fun s => nth s prev zero)) by auto. cbn [bind].
    rewrite wr_ok by lia. eexists. split; [reflexivity|]. split; [rewrite length_upd; auto|]. intros j' Hj'. rewrite nth_upd by lia.
    destruct (Nat.eqb_spec j' j); [subst; auto|]. apply VH. lia.
  - rewrite E1. cbn [bind]. destruct (normalize_arr_ok cur1 i L1) as (cur2 & v & E2 & VZ & L2 & V2). rewrite E2. cbn [bind].
    match goal with |- context [bind (for_ NS ?body prev) _] => destruct (for_inv _ (fun j p' => length p' = NS /\ forall j', j' < j ->
      nth j' p' zero = nth j' cur2 zero) NS body prev) as (prev1 & E3 & L3 & V3) end.
    + split; auto. intros; lia.
    + intros j h Hj (LH & VH). rewrite (rd_ok _ zero) by lia. cbn [bind]. rewrite wr_ok by lia. eexists. split; [reflexivity|].
      split; [rewrite length_upd; auto|]. intros j' Hj'. rewrite nth_upd by lia. destruct (Nat.eqb_spec j' j); [subst; auto|]. apply VH. lia.
    + rewrite E3. cbn [bind]. exists prev1, cur2. split; auto. split; auto. split; auto.
      apply (beta_up i m (fun s => nth s prev zero) _ v VZ U). intros j Hj. rewrite V3 by auto. rewrite V2 by auto. apply V1. auto.
Qed.

(** ** The passes over the states *)
Lemma pass_ok : forall (c : nat -> nat -> bool) (br : nat -> nat) (val : nat * nat -> T) lo body m, lo <= NS ->
  (forall j m, lo <= j -> j < NS -> body j m =
     Ret (if c (br j) j then (mx (fst m) (val (br j, j)), snd m) else (fst m, mx (snd m) (val (br j, j))))) ->
  exists m', for_from lo (NS - lo) body m = Ret m' /\
    Some (fst m') = omx (Some (fst m)) (big (map val (filter (fun e => c (fst e) (snd e)) (map (fun j => (br j, j)) (seq lo (NS - lo)))))) /\
    Some (snd m') = omx (Some (snd m)) (big (map val (filter (fun e => negb (c (fst e) (snd e))) (map (fun j => (br j, j)) (seq lo (NS - lo)))))).
Proof.
  intros c br val lo body m Hlo HB.
  destruct (for_from_inv _ (fun i m' =>
    Some (fst m') = omx (Some (fst m)) (big (map val (filter (fun e => c (fst e) (snd e)) (map (fun j => (br j, j)) (seq lo (i - lo)))))) /\
    Some (snd m') = omx (Some (snd m)) (big (map val (filter (fun e => negb (c (fst e) (snd e))) (map (fun j => (br j, j)) (seq lo (i - lo))))))) (NS - lo) lo body m) as (m' & E & V1 & V2).
  - rewrite Nat.sub_diag. cbn. auto.
  - intros j m' Hj (V1 & V2). rewrite HB by lia. eexists. split; [reflexivity|].
    replace (S j - lo) with (S (j - lo)) by lia. rewrite seq_S, map_app, !filter_app, !map_app.
    rewrite !(big_app _ _ _ _ _ _ _ L). rewrite !(omxa _ _ _ _ _ _ _ L). rewrite <- V1, <- V2.
    replace (lo + (j - lo)) with j by lia. cbn [map filter fst snd]. destruct (c (br j) j); cbn [negb map BcjrSpec.big fst snd]; auto.
  - exists m'. replace (lo + (NS - lo) - lo) with (NS - lo) in * by lia. auto.
Qed.

(** The bits of the two transitions entering each state. *)
Definition b1 (j : nat) : nat := if (entry t 1 j =? 1)%Z then 0 else 1.
Definition b4 (j : nat) : nat := if (entry t 4 j =? 1)%Z then 0 else 1.
Lemma entry14 : forall j, j < NS -> (entry t 1 j = 1 /\ entry t 4 j = -1 \/ entry t 1 j = -1 /\ entry t 4 j = 1)%Z.
Proof.
  intros j Hj. pose proof (OPP j Hj) as O. destruct TOK as (_ & _ & TI).
  destruct (TI j Hj) as (s1 & c1 & s2 & c2 & H1 & H2 & B1 & B2 & D & HE & T0 & T1 & T2 & T3 & T4 & T5).
  rewrite T4, T1 in O. rewrite T1, T4. unfold sign_of in *. destruct (c1 =? 0), (c2 =? 0); lia.
Qed.
Lemma b14 : forall j, j < NS -> b1 j < 2 /\ b4 j = 1 - b1 j.
Proof. intros j Hj. unfold b1, b4. destruct (entry14 j Hj) as [[-> ->]|[-> ->]]; cbn; lia. Qed.

Lemma base_in : forall lo b j, lo <= NS ->
  In (b, j) (map (fun j => (b1 j, j)) (seq lo (NS - lo)) ++ map (fun j => (b4 j, j)) (seq lo (NS - lo))) <-> b < 2 /\ lo <= j < NS.
Proof.
  intros lo b j Hlo. rewrite in_app_iff, !in_map_iff. split.
  - intros [(k & E & Hk)|(k & E & Hk)]; apply in_seq in Hk; inversion E; subst; destruct (b14 j ltac:(lia)); lia.
  - intros [Hb Hj]. destruct (b14 j ltac:(lia)) as [A B]. destruct (Nat.eq_dec b (b1 j)) as [->|NE].
    + left. exists j. split; auto. apply in_seq. lia.
    + right. exists j. split; [f_equal; lia|]. apply in_seq. lia.
Qed.
Lemma base_nodup : forall lo, lo <= NS ->
  NoDup (map (fun j => (b1 j, j)) (seq lo (NS - lo)) ++ map (fun j => (b4 j, j)) (seq lo (NS - lo))).
Proof.
  intros lo Hlo. apply NoDup_app_d.
  - apply NoDup_map_i; [|apply seq_NoDup]. intros; congruence.
  - apply NoDup_map_i; [|apply seq_NoDup]. intros; congruence.
  - intros e H1 H2. apply in_map_iff in H1. apply in_map_iff in H2. destruct H1 as (j & <- & Hj). destruct H2 as (k & E & Hk).
    apply in_seq in Hj. inversion E; subst. destruct (b14 j ltac:(lia)). lia.
Qed.
Definition passes (c : nat -> nat -> bool) (lo : nat) : list (nat * nat) :=
  filter (fun e => c (fst e) (snd e)) (map (fun j => (b1 j, j)) (seq lo (NS - lo))) ++
  filter (fun e => c (fst e) (snd e)) (map (fun j => (b4 j, j)) (seq lo (NS - lo))).
Lemma passes_0 : forall c, Permutation (passes c 0) (edges NS c).
Proof.
  intros c. unfold passes. rewrite <- filter_app. apply NoDup_Permutation.
  - apply NoDup_filter. apply base_nodup. lia.
  - apply edges_nodup.
  - intros [b j]. rewrite filter_In, base_in, edges_in by lia. cbn [fst snd]. intuition lia.
Qed.
Lemma passes_1 : forall (cd : nat -> nat -> bool) b, b < 2 -> cd b 0 = true -> cd (1 - b) 0 = false -> Permutation ((b, 0) :: passes cd 1) (edges NS cd).
Proof.
  intros cd b Hb C1 C2. unfold passes. rewrite <- filter_app. apply NoDup_Permutation.
  - constructor. { rewrite filter_In, base_in by lia. lia. } apply NoDup_filter. apply base_nodup. lia.
  - apply edges_nodup.
  - intros [b' j]. cbn [In]. rewrite filter_In, base_in, edges_in by lia. cbn [fst snd]. split.
    + intros [E|[[A B] C]]; [inversion E; subst; auto|repeat split; auto; lia].
    + intros (A & B & C). destruct (Nat.eq_dec j 0) as [->|]; [left|right; split; auto; lia].
      f_equal. destruct (Nat.eq_dec b' b); auto. replace b' with (1 - b) in C by lia. congruence.
Qed.

(** The combination of all the paths through the selected branches, from the values of the
    branches. *)
Notation weight := (BcjrSpec.weight T zero add sub half X P sys par a0).
Notation sel := (BcjrProofs.sel X NS len).
Lemma total_upto : forall i (al be : nat -> T), i < len -> upto (fun s => big (fw i s)) al -> upto (fun s => big (bw (S i) (len - S i) s)) be ->
  exists c, (never -> c = zero) /\ forall cd, big (map weight (sel cd i)) = option_map (fun x => add x c) (big (map (tv al be i) (edges NS cd))).
Proof.
  intros i al be Hi (c1 & Z1 & H1) (c2 & Z2 & H2). exists (add c1 c2). split. { intros NV. rewrite (Z1 NV), (Z2 NV). apply zero_r. } intros cd.
  rewrite (total _ _ _ _ _ _ _ L X P sys par a0 NS HX len cd i (fun s => add (al s) c1) (fun s => add (be s) c2)) by auto.
  rewrite <- (big_shift _ _ _ _ _ _ _ L), map_map. f_equal. apply map_ext. intros [b j]. unfold tv. cbn [fst snd].
  set (a := al j). set (y := be (X b j)). set (g := met b j i).
  replace (add (add a c1) g) with (add (add a g) c1) by (rewrite <- !assoc; f_equal; apply comm).
  replace (add (add a y) g) with (add (add a g) y) by (rewrite <- !assoc; f_equal; apply comm).
  apply (ac4 _ _ _ _ _ _ _ L).
Qed.

Definition ext_val (cd0 cd1 : nat -> nat -> bool) (i : nat) (s x : T) : Prop := exists m0 m1,
  big (map weight (sel cd0 i)) = Some m0 /\ big (map weight (sel cd1 i)) = Some m1 /\ x = sub (post (sub m0 m1)) s.
Lemma ext_val_ok : forall cd0 cd1 i (al be : nat -> T) m0 m1 s, i < len -> upto (fun s => big (fw i s)) al ->
  upto (fun s => big (bw (S i) (len - S i) s)) be ->
  big (map (tv al be i) (edges NS cd0)) = Some m0 -> big (map (tv al be i) (edges NS cd1)) = Some m1 ->
  ext_val cd0 cd1 i s (sub (post (sub m0 m1)) s).
Proof.
  intros cd0 cd1 i al be m0 m1 s Hi HA HB E0 E1. destruct (total_upto i al be Hi HA HB) as (c & _ & HC).
  exists (add m0 c), (add m1 c). rewrite !HC, E0, E1. cbn [option_map]. split; auto. split; auto.
  rewrite (sub_shift _ _ _ _ _ _ _ L). auto.
Qed.

(** ** compute_beta_ext *)
Definition zero_bit (b j : nat) : bool := b =? 0.
Definition one_bit (b j : nat) : bool := negb (b =? 0).
Lemma ext_pass_ok : forall r br lo al g i (b : nat -> outcome T) f m, (r = 1 /\ br = b1 \/ r = 4 /\ br = b4) -> lo <= NS ->
  mat NS (len + 1) al -> gamma_ok g -> i < len -> (forall s, s < NS -> b s = Ret (f s)) ->
  exists m', ext_pass T add sub mx t NS r lo al g b i m = Ret m' /\
    Some (fst m') = omx (Some (fst m)) (big (map (tv (fun s => at_ al s i) f i) (filter (fun e => zero_bit (fst e) (snd e)) (map (fun j => (br j, j)) (seq lo (NS - lo)))))) /\
    Some (snd m') = omx (Some (snd m)) (big (map (tv (fun s => at_ al s i) f i) (filter (fun e => one_bit (fst e) (snd e)) (map (fun j => (br j, j)) (seq lo (NS - lo)))))).
Proof.
  intros r br lo al g i b f m HR Hlo MA GO Hi HB. unfold ext_pass.
  apply (pass_ok zero_bit br (tv (fun s => at_ al s i) f i) lo); auto.
  intros j m' Hj1 Hj2. rewrite trd by (auto; lia). cbn [bind].
  rewrite (through0_ok al g i j b f) by auto. rewrite (through1_ok al g i j b f) by auto. cbn [bind].
  destruct HR as [[-> ->]|[-> ->]]; unfold b1, b4, zero_bit; destruct (Z.eqb_spec (entry t 1 j) 1), (Z.eqb_spec (entry t 4 j) 1); cbn [Nat.eqb]; auto.
Qed.

Lemma omx_some : forall x y, exists z, omx (Some x) y = Some z.
Proof. intros x [y|]; cbn; eauto. Qed.

(** The values of max0 and max1 after both passes. *)
Lemma both_passes : forall cd (val : nat * nat -> T) x y z, Some y = omx (Some x) (big (map val (filter (fun e => cd (fst e) (snd e)) (map (fun j => (b1 j, j)) (seq 1 (NS - 1)))))) ->
  Some z = omx (Some y) (big (map val (filter (fun e => cd (fst e) (snd e)) (map (fun j => (b4 j, j)) (seq 1 (NS - 1)))))) ->
  forall b, b < 2 -> cd b 0 = true -> cd (1 - b) 0 = false -> x = val (b, 0) -> big (map val (edges NS cd)) = Some z.
Proof.
  intros cd val x y z E1 E2 b Hb C1 C2 ->. rewrite <- (big_perm _ _ _ _ _ _ _ L _ _ (Permutation_map val (passes_1 cd b Hb C1 C2))).
  cbn [map]. rewrite (big_cons T mx). unfold passes. rewrite map_app, (big_app _ _ _ _ _ _ _ L), (omxa _ _ _ _ _ _ _ L). rewrite <- E1. auto.
Qed.

Lemma beta_ext_ok : forall g al prev cur ext, gamma_ok g -> mat NS (len + 1) al -> (forall j, j < NS -> at_ al j 0 = a0 j) ->
  (forall i, i < len -> upto (fun s => big (fw i s)) (fun s => at_ al s i)) ->
  length prev = NS -> length cur = NS -> K <= length ext ->
  exists prev' cur' ext', compute_beta_ext T add sub mx post nrm t NS K n_ff sysl al g prev cur ext = Ret (prev', cur', ext') /\
    length prev' = NS /\ length cur' = NS /\ length ext' = length ext /\
    (forall i, i < K -> ext_val zero_bit one_bit i (sys i) (nth i ext' zero)) /\ forall i, K <= i -> nth i ext' zero = nth i ext zero.
Proof.
  intros g al prev cur ext GO MA A0 FW LV LC LE. unfold compute_beta_ext.
  match goal with |- context [bind (for_ NS ?body prev) _] => destruct (for_inv _ (fun j p' => length p' = NS /\ forall j', j' < j ->
    nth j' p' zero = a0 j') NS body prev) as (prev1 & E1 & L1 & V1) end.
  { split; auto. intros; lia. }
  { intros j h Hj (LH & VH). rewrite (mrd_ok _ zero NS (len + 1)) by (auto; lia). cbn [bind]. rewrite wr_ok by lia. eexists. split; [reflexivity|].
    split; [rewrite length_upd; auto|]. intros j' Hj'. rewrite nth_upd by lia. destruct (Nat.eqb_spec j' j); [subst; auto|]. apply VH. lia. }
  rewrite E1. cbn [bind].
  match goal with |- context [bind (for_ n_ff ?body (prev1, cur)) _] => destruct (for_inv _ (fun k st => length (fst st) = NS /\ length (snd st) = NS /\
    upto (fun s => big (bw (len - k) k s)) (fun s => nth s (fst st) zero)) n_ff body (prev1, cur)) as ([prev2 cur2] & E2 & L2 & L2' & U2) end.
  { cbn [fst snd]. split; auto. split; auto. exists zero. split; auto. intros s Hs. rewrite (bw_0 _ _ _ _ _ _ _ L), zero_r, V1; auto. }
  { intros k [p c] Hk (LP1 & LC1 & U). cbn [fst snd] in *. fold len.
    destruct (beta_step_ok g (len - 1 - k) k p c GO ltac:(unfold len in *; lia) LP1 LC1) as (p' & c' & E & LP' & LC' & U').
    { replace (S (len - 1 - k)) with (len - k) by (unfold len in *; lia). auto. }
    exists (p', c'). split; auto. cbn [fst snd]. replace (len - S k) with (len - 1 - k) by lia. auto. }
  rewrite E2. cbn [bind fst snd] in *.
  match goal with |- context [for_ K ?body ?s0] => destruct (for_inv _ (fun k (st : list T * list T * list T) => length (fst (fst st)) = NS /\ length (snd (fst st)) = NS /\ length (snd st) = length ext /\
    upto (fun s => big (bw (K - k) (n_ff + k) s)) (fun s => nth s (fst (fst st)) zero) /\
    (forall i, K - k <= i -> i < K -> ext_val zero_bit one_bit i (sys i) (nth i (snd st) zero)) /\ forall i, K <= i -> nth i (snd st) zero = nth i ext zero) K body s0)
    as ([[prev3 cur3] ext3] & E3 & L3 & L3' & L3'' & U3 & V3 & W3) end.
  { cbn [fst snd]. split; auto. split; auto. split; auto. split.
    - replace (K - 0) with (len - n_ff) by (unfold len; lia). rewrite Nat.add_0_r. auto.
    - split; auto. intros; lia. }
  { intros k [[p c] ex] Hk (LP1 & LC1 & LE1 & U & V & W). cbn [fst snd] in *. set (i := K - 1 - k).
    assert (Hi : i < len) by (unfold i, len; lia).
    assert (HB : forall s, s < NS -> rd p s = Ret (nth s p zero)) by (intros; apply rd_ok; lia).
    rewrite (through0_ok al g i 0 _ (fun s => nth s p zero)) by auto. cbn [bind]. rewrite (through1_ok al g i 0 _ (fun s => nth s p zero)) by auto. cbn [bind].
    match goal with |- context [ext_pass _ _ _ _ _ _ 1 1 _ _ _ _ ?m0] =>
      destruct (ext_pass_ok 1 b1 1 al g i _ (fun s => nth s p zero) m0 ltac:(auto) ltac:(lia) MA GO Hi HB) as (m1 & F1 & P1 & Q1) end.
    rewrite F1. cbn [bind].
    destruct (ext_pass_ok 4 b4 1 al g i _ (fun s => nth s p zero) m1 ltac:(auto) ltac:(lia) MA GO Hi HB) as (m2 & F2 & P2 & Q2).
    rewrite F2. cbn [bind fst snd] in *. rewrite (rd_ok _ zero) by (unfold len in *; lia). cbn [bind]. rewrite wr_ok by lia. cbn [bind].
    assert (SI : S i = K - k) by (unfold i; lia).
    assert (LI : len - S i = n_ff + k) by (unfold i, len; lia).
    destruct (beta_step_ok g i (n_ff + k) p c GO Hi LP1 LC1) as (p' & c' & E & LP' & LC' & U').
    { rewrite SI. auto. }
    rewrite E. cbn [bind]. eexists. split; [reflexivity|]. cbn [fst snd]. split; auto. split; auto. split; [rewrite length_upd; auto|]. split.
    - replace (K - S k) with i by (unfold i; lia). replace (n_ff + S k) with (S (n_ff + k)) by lia. auto.
    - split.
      + intros i' H1 H2. rewrite nth_upd by lia. destruct (Nat.eqb_spec i' i).
        * subst i'. apply (ext_val_ok zero_bit one_bit i (fun s => at_ al s i) (fun s => nth s p zero)); auto.
          { rewrite LI, SI. auto. }
          { apply (both_passes zero_bit _ _ _ _ P1 P2 0); auto. }
          { apply (both_passes one_bit _ _ _ _ Q1 Q2 1); auto. }
        * apply V; lia.
      + intros i' H1. rewrite nth_upd by lia. destruct (Nat.eqb_spec i' i); [unfold i in *; lia|]. auto. }
  exists prev3, cur3, ext3. split; auto. cbn [fst snd] in *. split; auto. split; auto. split; auto. split; auto. intros i Hi. apply V3; lia.
Qed.

(** The invariant of the members. *)
Definition dec_ok (d : bcjr T) : Prop :=
  mat NS (len + 1) (b_alpha T d) /\ mat NS (len + 1) (b_beta T d) /\ mat 2 len (b_gamma T d) /\ length (b_prev T d) = NS /\ length (b_cur T d) = NS /\
  (forall j, j < NS -> at_ (b_alpha T d) j 0 = a0 j) /\ (forall j, j < NS -> at_ (b_beta T d) j len = a0 j).

Lemma siso_alt_ok : forall d ext, dec_ok d -> K <= length ext ->
  exists d' ext', decode_siso_alt T add sub imul mx half post nrm t NS K n_ff d sysl parl ext = Ret (d', ext') /\ dec_ok d' /\ length ext' = length ext /\
    (forall i, i < K -> ext_val zero_bit one_bit i (sys i) (nth i ext' zero)) /\ forall i, K <= i -> nth i ext' zero = nth i ext zero.
Proof.
  intros d ext (MA & MB & MG & LV & LC & A0 & B0) LE. unfold decode_siso_alt.
  destruct (compute_gamma_ok _ MG) as (g & EG & GO). rewrite EG. cbn [bind].
  destruct (compute_alpha_ok g _ GO MA A0) as (al & EA & MA' & A0' & FW). rewrite EA. cbn [bind].
  destruct (beta_ext_ok g al (b_prev T d) (b_cur T d) ext GO MA' A0' FW LV LC LE) as (pv & cu & ext' & E & L1 & L2 & L3 & V & W).
  rewrite E. cbn [bind]. eexists. exists ext'. split; [reflexivity|]. split; [|auto].
  split; auto. split; auto. split. { apply (proj1 GO). } auto.
Qed.

(** ** decode_siso *)
Lemma compute_beta_ok : forall g be, gamma_ok g -> mat NS (len + 1) be -> (forall j, j < NS -> at_ be j len = a0 j) ->
  exists be', compute_beta T add sub mx nrm t NS K n_ff g be = Ret be' /\ mat NS (len + 1) be' /\
    (forall j, j < NS -> at_ be' j len = a0 j) /\
    forall i, 1 <= i <= len -> upto (fun s => big (bw i (len - i) s)) (fun s => at_ be' s i).
Proof.
  intros g be GO MB B0. unfold compute_beta. fold len.
  match goal with |- context [for_ (len - 1) ?body ?s0] => destruct (for_inv _ (fun k be' => mat NS (len + 1) be' /\
    (forall j, j < NS -> at_ be' j len = a0 j) /\ forall i', len - k <= i' <= len -> upto (fun s => big (bw i' (len - i') s)) (fun s => at_ be' s i')) (len - 1) body s0) as (be' & E & M & A & V) end.
  - split; auto. split; auto. intros i' Hi'. replace i' with len by lia. exists zero. split; auto. intros s Hs. rewrite Nat.sub_diag, (bw_0 _ _ _ _ _ _ _ L), zero_r, B0; auto.
  - intros k m Hk (M & A & V). set (i := len - 1 - k).
    assert (Hi : i < len) by (unfold i; lia).
    pose proof (V (i + 1) ltac:(unfold i; lia)) as U.
    match goal with |- context [bind (for_ NS ?body m) _] => destruct (for_inv _ (fun j m' => mat NS (len + 1) m' /\
      (forall j' i', i' <> i -> at_ m' j' i' = at_ m j' i') /\ forall j', j' < j -> at_ m' j' i = mx (add (at_ m (X 0 j') (i + 1)) (met 0 j' i)) (add (at_ m (X 1 j') (i + 1)) (met 1 j' i))) NS body m) as (m1 & E1 & M1 & O1 & V1) end.
    + split; auto. split; auto. intros; lia.
    + intros j m' Hj (M' & O' & V').
      assert (HB : forall s, s < NS -> mrd m' s (i + 1) = Ret (at_ m s (i + 1))).
      { intros s Hs. rewrite (mrd_ok _ zero NS (len + 1)) by (auto; lia). rewrite O' by lia. auto. }
      rewrite (branch0_ok g i j _ (fun s => at_ m s (i + 1))) by auto. cbn [bind]. rewrite (branch1_ok g i j _ (fun s => at_ m s (i + 1))) by auto. cbn [bind].
      match goal with |- context [mwr m' j i ?x] => destruct (mwr_ok _ zero NS (len + 1) m' j i x M' Hj ltac:(lia)) as (m2 & E2 & M2 & V2) end.
      rewrite E2. exists m2. split; auto. split; auto. split.
      * intros j' i' Hi'. rewrite V2. destruct (Nat.eqb_spec i' i); [lia|]. rewrite andb_false_r. auto.
      * intros j' Hj'. rewrite V2, Nat.eqb_refl, andb_true_r. destruct (Nat.eqb_spec j' j); [subst; auto|]. apply V'. lia.
    + rewrite E1. cbn [bind]. destruct (normalize_col_ok m1 (len + 1) i M1 ltac:(lia)) as (m2 & v & E2 & VZ & M2 & O2 & V2).
      rewrite E2. exists m2. split; auto. split; auto. split.
      * intros j Hj. rewrite O2, O1 by lia. auto.
      * intros i' Hi'. destruct (Nat.eq_dec i' i) as [->|NE].
        -- replace (len - i) with (S (len - (i + 1))) by lia.
           apply (beta_up i (len - (i + 1)) (fun s => at_ m s (i + 1)) (fun s => at_ m2 s i) v VZ).
           { replace (S i) with (i + 1) by lia. auto. }
           { intros j Hj. rewrite V2 by auto. apply V1. auto. }
        -- destruct (V i' ltac:(unfold i in *; lia)) as (c' & CZ' & VC'). exists c'. split; auto. intros s Hs. rewrite O2, O1 by lia. auto.
  - exists be'. split; auto. split; auto. split; auto. intros i Hi. apply V. lia.
Qed.

Definition ext_neg (cd0 cd1 : nat -> nat -> bool) (i : nat) (s x : T) : Prop := exists m0 m1,
  Some m0 = omx (Some neg) (big (map weight (sel cd0 i))) /\ Some m1 = omx (Some neg) (big (map weight (sel cd1 i))) /\ x = sub (post (sub m0 m1)) s.

Lemma ext_neg_ok : forall cd i (al be : nat -> T) (m0 m1 m2 : T), never -> i < len -> upto (fun s => big (fw i s)) al -> upto (fun s => big (bw (S i) (len - S i) s)) be ->
  m0 = neg ->
  Some m1 = omx (Some m0) (big (map (tv al be i) (filter (fun e => cd (fst e) (snd e)) (map (fun j => (b1 j, j)) (seq 0 (NS - 0)))))) ->
  Some m2 = omx (Some m1) (big (map (tv al be i) (filter (fun e => cd (fst e) (snd e)) (map (fun j => (b4 j, j)) (seq 0 (NS - 0)))))) ->
  Some m2 = omx (Some neg) (big (map weight (sel cd i))).
Proof.
  intros cd i al be m0 m1 m2 NV Hi HA HB -> E1 E2. destruct (total_upto i al be Hi HA HB) as (c & CZ & HC). rewrite HC, (CZ NV).
  rewrite E2, E1, <- (omxa _ _ _ _ _ _ _ L). f_equal. rewrite <- (big_app _ _ _ _ _ _ _ L), <- map_app.
  rewrite (big_perm _ _ _ _ _ _ _ L _ _ (Permutation_map _ (passes_0 cd))).
  destruct (big (map (tv al be i) (edges NS cd))) as [x|]; cbn; auto. rewrite zero_r. auto.
Qed.

Definition zero_par (b j : nat) : bool := P b j =? 0.
Definition one_par (b j : nat) : bool := negb (P b j =? 0).
Lemma par_pass_ok : forall r br al g i (b : nat -> outcome T) f m, (r = 1 /\ br = b1 \/ r = 4 /\ br = b4) ->
  mat NS (len + 1) al -> gamma_ok g -> i < len -> (forall s, s < NS -> b s = Ret (f s)) ->
  exists m', par_pass T add sub mx t NS r al g b i m = Ret m' /\
    Some (fst m') = omx (Some (fst m)) (big (map (tv (fun s => at_ al s i) f i) (filter (fun e => zero_par (fst e) (snd e)) (map (fun j => (br j, j)) (seq 0 (NS - 0)))))) /\
    Some (snd m') = omx (Some (snd m)) (big (map (tv (fun s => at_ al s i) f i) (filter (fun e => one_par (fst e) (snd e)) (map (fun j => (br j, j)) (seq 0 (NS - 0)))))).
Proof.
  intros r br al g i b f m HR MA GO Hi HB. unfold par_pass, for_.
  match goal with |- context [for_from 0 NS ?body m] => pose proof (pass_ok zero_par br (tv (fun s => at_ al s i) f i) 0 body m ltac:(lia)) as R end.
  rewrite Nat.sub_0_r in *. apply R. clear R.
  intros j m' Hj1 Hj2. rewrite !trd by (auto; lia). cbn [bind].
  rewrite (through0_ok al g i j b f) by auto. rewrite (through1_ok al g i j b f) by auto. cbn [bind].
  destruct TOK as (_ & TO & _). pose proof (proj2 (TO j 0 Hj2 ltac:(lia))) as T7. pose proof (proj2 (TO j 1 Hj2 ltac:(lia))) as T9.
  cbn [Nat.add Nat.mul] in T7, T9. rewrite T7, T9. unfold zero_par.
  pose proof (HP 0 j ltac:(lia) Hj2) as P0. pose proof (HP 1 j ltac:(lia) Hj2) as P1.
  assert (Q : forall r', r' = 1 \/ r' = 4 -> entry t r' j = 1%Z \/ entry t r' j = (-1)%Z).
  { intros r' [-> | ->]; destruct (entry14 j Hj2) as [[A B]|[A B]]; rewrite ?A, ?B; auto. }
  destruct HR as [[-> ->]|[-> ->]]; unfold b1, b4.
  - destruct (Q 1 (or_introl eq_refl)) as [-> | ->]; cbn [Z.eqb Pos.eqb andb].
    + destruct (lt2 _ P0) as [-> | ->]; reflexivity.
    + destruct (lt2 _ P1) as [-> | ->]; reflexivity.
  - destruct (Q 4 (or_intror eq_refl)) as [-> | ->]; cbn [Z.eqb Pos.eqb andb].
    + destruct (lt2 _ P0) as [-> | ->]; reflexivity.
    + destruct (lt2 _ P1) as [-> | ->]; reflexivity.
Qed.

(** Both loops over the times. *)
Lemma times_ok : forall (Q : nat -> T -> Prop) (body : nat -> list T -> outcome (list T)) o ext, o + len <= length ext ->
  (forall i e, i < len -> length e = length ext -> exists x, body i e = Ret (upd e (o + i) x) /\ Q i x) ->
  exists ext', for_ len body ext = Ret ext' /\ length ext' = length ext /\ (forall i, i < len -> Q i (nth (o + i) ext' zero)) /\
    forall q, q < o \/ o + len <= q -> nth q ext' zero = nth q ext zero.
Proof.
  intros Q body o ext LE HB.
  destruct (for_inv _ (fun i e => length e = length ext /\ (forall i', i' < i -> Q i' (nth (o + i') e zero)) /\ forall q, q < o \/ o + len <= q -> nth q e zero = nth q ext zero) len body ext) as (e & E & L1 & V & W).
  - split; auto. split; auto. intros; lia.
  - intros i e Hi (L1 & V & W). destruct (HB i e Hi L1) as (x & E & QX). rewrite E. eexists. split; [reflexivity|]. split; [rewrite length_upd; auto|]. split.
    + intros i' Hi'. rewrite nth_upd by lia. destruct (Nat.eqb_spec (o + i') (o + i)); [replace i' with i by lia; auto|]. apply V. lia.
    + intros q Hq. rewrite nth_upd by lia. destruct (Nat.eqb_spec q (o + i)); [lia|auto].
  - exists e. auto.
Qed.

Lemma ext_sys_ok : forall g al be o ext, never -> gamma_ok g -> mat NS (len + 1) al -> mat NS (len + 1) be ->
  (forall i, i < len -> upto (fun s => big (fw i s)) (fun s => at_ al s i)) ->
  (forall i, 1 <= i <= len -> upto (fun s => big (bw i (len - i) s)) (fun s => at_ be s i)) -> o + len <= length ext ->
  exists ext', compute_ext_sys T neg add sub mx post t NS K n_ff sysl al be g o ext = Ret ext' /\ length ext' = length ext /\
    (forall i, i < len -> ext_neg zero_bit one_bit i (sys i) (nth (o + i) ext' zero)) /\ forall q, q < o \/ o + len <= q -> nth q ext' zero = nth q ext zero.
Proof.
  intros g al be o ext NV GO MA MB FW BW LE. unfold compute_ext_sys. fold len.
  apply (times_ok (fun i x => ext_neg zero_bit one_bit i (sys i) x)); auto.
  intros i e Hi L1.
  assert (HB : forall s, s < NS -> mrd be s (i + 1) = Ret (at_ be s (i + 1))) by (intros; apply (mrd_ok _ zero NS (len + 1)); auto; lia).
  destruct (ext_pass_ok 1 b1 0 al g i _ (fun s => at_ be s (i + 1)) (neg, neg) ltac:(auto) ltac:(lia) MA GO Hi HB) as (m1 & F1 & P1 & Q1). rewrite F1. cbn [bind].
  destruct (ext_pass_ok 4 b4 0 al g i _ (fun s => at_ be s (i + 1)) m1 ltac:(auto) ltac:(lia) MA GO Hi HB) as (m2 & F2 & P2 & Q2). rewrite F2. cbn [bind].
  rewrite (rd_ok _ zero) by lia. cbn [bind]. rewrite wr_ok by lia. eexists. split; [reflexivity|].
  pose proof (BW (S i) ltac:(lia)) as U. replace (i + 1) with (S i) in * by lia.
  exists (fst m2), (snd m2). split; [|split; auto].
  - apply (ext_neg_ok zero_bit i _ _ _ _ _ NV Hi (FW i Hi) U eq_refl P1 P2).
  - apply (ext_neg_ok one_bit i _ _ _ _ _ NV Hi (FW i Hi) U eq_refl Q1 Q2).
Qed.
Lemma ext_par_ok : forall g al be o ext, never -> gamma_ok g -> mat NS (len + 1) al -> mat NS (len + 1) be ->
  (forall i, i < len -> upto (fun s => big (fw i s)) (fun s => at_ al s i)) ->
  (forall i, 1 <= i <= len -> upto (fun s => big (bw i (len - i) s)) (fun s => at_ be s i)) -> o + len <= length ext ->
  exists ext', compute_ext_par T neg add sub mx post t NS K n_ff parl al be g o ext = Ret ext' /\ length ext' = length ext /\
    (forall i, i < len -> ext_neg zero_par one_par i (par i) (nth (o + i) ext' zero)) /\ forall q, q < o \/ o + len <= q -> nth q ext' zero = nth q ext zero.
Proof.
  intros g al be o ext NV GO MA MB FW BW LE. unfold compute_ext_par. fold len.
  apply (times_ok (fun i x => ext_neg zero_par one_par i (par i) x)); auto.
  intros i e Hi L1.
  assert (HB : forall s, s < NS -> mrd be s (i + 1) = Ret (at_ be s (i + 1))) by (intros; apply (mrd_ok _ zero NS (len + 1)); auto; lia).
  destruct (par_pass_ok 1 b1 al g i _ (fun s => at_ be s (i + 1)) (neg, neg) ltac:(auto) MA GO Hi HB) as (m1 & F1 & P1 & Q1). rewrite F1. cbn [bind].
  destruct (par_pass_ok 4 b4 al g i _ (fun s => at_ be s (i + 1)) m1 ltac:(auto) MA GO Hi HB) as (m2 & F2 & P2 & Q2). rewrite F2. cbn [bind].
  rewrite (rd_ok _ zero) by lia. cbn [bind]. rewrite wr_ok by lia. eexists. split; [reflexivity|].
  pose proof (BW (S i) ltac:(lia)) as U. replace (i + 1) with (S i) in * by lia.
  exists (fst m2), (snd m2). split; [|split; auto].
  - apply (ext_neg_ok zero_par i _ _ _ _ _ NV Hi (FW i Hi) U eq_refl P1 P2).
  - apply (ext_neg_ok one_par i _ _ _ _ _ NV Hi (FW i Hi) U eq_refl Q1 Q2).
Qed.
End Code.
