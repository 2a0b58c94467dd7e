From Coq Require Import List Arith ZArith Lia Bool.
From Verif Require Import Base Loops GF2 PolarModel PolarSpec PolarProofs.
Import ListNotations.

Lemma parity_loop : forall n (body : nat -> nat -> outcome nat) (f : nat -> bool),
  (forall j s, j < n -> body j s = Ret (s + Nat.b2n (f j))) ->
  exists r, for_ n body 0 = Ret r /\ Nat.odd r = xsum n f.
Proof.
  intros n body f HB.
  destruct (for_inv _ (fun j s => Nat.odd s = xsum j f) n body 0) as (r & E & I); auto.
  - intros j s Hj I. rewrite HB by auto. eexists; split; [reflexivity|].
    rewrite Nat.odd_add, I. cbn [xsum]. f_equal. destruct (f j); auto.
  - exists r. auto.
Qed.

Lemma square_rd : forall A (k : list (list A)) i j d, Forall (fun r => length r = length k) k ->
  i < length k -> j < length k -> bind (rd k i) (fun row => rd row j) = Ret (nth j (nth i k []) d).
Proof.
  intros. rewrite (rd_ok _ []) by auto. cbn [bind]. apply rd_ok.
  rewrite Forall_forall in H. rewrite H; auto. apply nth_In; auto.
Qed.

Definition kent (k : list (list bool)) (i j : nat) : bool := nth j (nth i k []) false.

Lemma flat_kernel_ok : forall k, square k ->
  flat_kernel k = Ret (tab (length k * length k) (fun e => kent k (e mod length k) (e / length k))).
Proof.
  intros. unfold flat_kernel. apply gen_ok. intros e He. 
  destruct (div_mod_lt e (length k) (length k)) as [H1 H2]; auto.
  apply (square_rd bool k _ _ false); auto.
Qed.

Lemma apply_kernel_ok : forall u idx k x, square k -> length u = length k -> length idx = length k ->
  (forall i, i < length k -> nth i idx 0 < length x) ->
  (forall i j, i < length k -> j < length k -> nth i idx 0 = nth j idx 0 -> i = j) ->
  exists x', apply_polar_kernel u idx (tab (length k * length k) (fun e => kent k (e mod length k) (e / length k)))
      x (length k) = Ret x' /\
    length x' = length x /\
    (forall i, i < length k ->
       nth (nth i idx 0) x' false = xsum (length k) (fun j => nth j u false && kent k j i)) /\
    (forall p, (forall i, i < length k -> nth i idx 0 <> p) -> nth p x' false = nth p x false).
Proof.
  intros u idx k x Hsq Lu Li Hb Hinj. unfold apply_polar_kernel.
  destruct (scatter bool false (length k) (fun i => nth i idx 0)
     (fun i => xsum (length k) (fun j => nth j u false && kent k j i)) x) as (x' & E & L & I1 & I2); auto.
  exists x'. split; auto. erewrite for_ext; [exact E|]. intros i s Hi. cbv beta.
  destruct (parity_loop (length k) (fun j sum => a <- rd u j;;
       k0 <- rd (tab (length k * length k) (fun e => kent k (e mod length k) (e / length k))) (i * length k + j);;
       Ret (sum + Nat.b2n (a && k0))) (fun j => nth j u false && kent k j i)) as (r & Er & Or).
  - intros j s0 Hj. rewrite (rd_ok _ false) by lia. cbn [bind].
    rewrite (rd_ok _ false) by (rewrite length_tab; apply idx_lt; auto). cbn [bind].
    rewrite nth_tab by (apply idx_lt; auto). destruct (divmod_idx i j (length k) Hj) as [-> ->]. auto.
  - rewrite Er. cbn [bind]. rewrite (rd_ok _ 0) by lia. cbn [bind]. rewrite Or. auto.
Qed.

(** coordinates of a position: block b, kernel row i, offset r *)
Definition pos (nk ks b i r : nat) : nat := b * nk * ks + nk * i + r.

Lemma pos_eq : forall nk ks b i r, pos nk ks b i r = (b * ks + i) * nk + r.
Proof. intros. unfold pos. lia. Qed.

Lemma pos_dec : forall nk ks b i r, i < ks -> r < nk ->
  pos nk ks b i r / (nk * ks) = b /\ pos nk ks b i r mod nk = r /\ (pos nk ks b i r / nk) mod ks = i.
Proof.
  intros. rewrite pos_eq. destruct (divmod_idx (b * ks + i) r nk H0) as [D M].
  rewrite <- Nat.div_div by lia. rewrite D, M. destruct (divmod_idx b i ks H) as [-> ->]. auto.
Qed.

Lemma pos_comp : forall nk ks p, 0 < nk -> 0 < ks ->
  p = pos nk ks (p / (nk * ks)) ((p / nk) mod ks) (p mod nk).
Proof.
  intros. rewrite pos_eq. rewrite <- Nat.div_div by lia.
  replace (p / nk / ks * ks + (p / nk) mod ks) with (p / nk).
  - rewrite Nat.mul_comm. apply Nat.div_mod. lia.
  - rewrite (Nat.mul_comm _ ks). apply Nat.div_mod. lia.
Qed.

Lemma pos_lt : forall nk ks m b i r, b < m -> i < ks -> r < nk -> pos nk ks b i r < m * (nk * ks).
Proof.
  intros. rewrite pos_eq.
  replace (m * (nk * ks)) with ((m * ks) * nk) by lia. apply idx_lt; auto. apply idx_lt; auto.
Qed.

Definition mk_val (nk : nat) (k : list (list bool)) (x : list bool) (p : nat) : bool :=
  let ks := length k in
  xsum ks (fun j => nth (pos nk ks (p / (nk * ks)) j (p mod nk)) x false && kent k j ((p / nk) mod ks)).

Definition processed (nk ks b r p : nat) : bool :=
  (p / (nk * ks) <? b) || ((p / (nk * ks) =? b) && (p mod nk <? r)).

Lemma mk_stage_ok : forall m nk k x, square k -> 0 < nk -> 0 < length k -> length x = m * (nk * length k) ->
  mk_stage (m * (nk * length k)) nk k x = Ret (tab (m * (nk * length k)) (mk_val nk k x)).
Proof.
  intros m nk k x Hsq Hn Hk Lx. unfold mk_stage.
  destruct (Nat.eqb_spec (nk * length k) 0) as [e|_]. { lia. }
  rewrite flat_kernel_ok by auto. cbn [bind].
  rewrite Nat.div_mul by lia. set (ks := length k) in *.
  assert (Hdef : 0 < nk * ks) by nia.
  match goal with |- for_ _ ?body _ = _ =>
    destruct (for_inv _ (fun b s => length s = length x /\
      forall p, p < length x -> nth p s false = if processed nk ks b 0 p then mk_val nk k x p else nth p x false)
      m body x) as (o & E & L & I) end.
  - split; auto. intros p _. unfold processed.
    destruct (Nat.ltb_spec (p / (nk * ks)) 0); [lia|]. destruct (Nat.ltb_spec (p mod nk) 0); [lia|].
    rewrite andb_false_r. auto.
  - intros b s Hb (Ls & I).
    match goal with |- exists s', for_ _ ?body2 _ = _ /\ _ =>
    destruct (for_inv _ (fun r s => length s = length x /\
      forall p, p < length x -> nth p s false = if processed nk ks b r p then mk_val nk k x p else nth p x false)
      nk body2 s) as (o & E & L & J); [split; auto| |] end.
    + intros r t Hr (Lt & J). cbv beta.
      rewrite (gen_ok _ ks _ (fun i => pos nk ks b i r)) by auto. cbn [bind].
      rewrite (gen_ok _ ks _ (fun i => nth (pos nk ks b i r) t false)).
      2:{ intros i Hi. rewrite (rd_ok _ 0) by (rewrite length_tab; auto). cbn [bind].
          rewrite nth_tab by auto. apply rd_ok. rewrite Lt, Lx. apply pos_lt; auto. }
      cbn [bind].
      destruct (apply_kernel_ok (tab ks (fun i => nth (pos nk ks b i r) t false)) (tab ks (fun i => pos nk ks b i r)) k t)
        as (t' & Et & Lt' & V1 & V2); auto; fold ks.
      * apply length_tab.
      * apply length_tab.
      * intros i Hi. rewrite nth_tab by auto. rewrite Lt, Lx. apply pos_lt; auto.
      * intros i j Hi Hj. rewrite !nth_tab by auto. intros e.
        destruct (pos_dec nk ks b i r Hi Hr) as (_ & _ & <-). rewrite e. apply pos_dec; auto.
      * fold ks in V1, V2. exists t'. split; auto. split; [lia|]. intros p Hp.
        set (bp := p / (nk * ks)). set (ip := (p / nk) mod ks). set (rp := p mod nk).
        assert (Ep : p = pos nk ks bp ip rp) by (apply pos_comp; auto).
        assert (Hip : ip < ks) by (apply Nat.mod_upper_bound; lia).
        assert (Hrp : rp < nk) by (apply Nat.mod_upper_bound; lia).
        destruct (Nat.eq_dec bp b) as [Eb|Nb].
        { destruct (Nat.eq_dec rp r) as [Er|Nr].
          - specialize (V1 ip Hip). rewrite nth_tab in V1 by auto.
            rewrite <- Eb, <- Er, <- Ep in V1. rewrite V1.
            unfold processed. fold bp rp. rewrite Eb, Er, Nat.eqb_refl.
            rewrite (proj2 (Nat.ltb_lt r (S r))) by lia. rewrite orb_true_r. unfold mk_val. fold ks bp ip rp.
            apply xsum_ext. intros j Hj. rewrite nth_tab by auto. rewrite Eb, Er.
            rewrite J by (rewrite Lx; apply pos_lt; auto). unfold processed.
            destruct (pos_dec nk ks b j r Hj Hr) as (-> & -> & _).
            rewrite !Nat.ltb_irrefl. rewrite andb_false_r. auto.
          - rewrite V2.
            + rewrite J by auto. unfold processed. fold bp rp.
              replace (rp <? S r) with (rp <? r); auto.
              destruct (Nat.ltb_spec rp r), (Nat.ltb_spec rp (S r)); auto; lia.
            + intros i Hi e. rewrite nth_tab in e by auto. apply Nr. unfold rp. rewrite <- e.
              apply pos_dec; auto. }
        { rewrite V2.
          - rewrite J by auto. unfold processed. fold bp rp.
            rewrite (proj2 (Nat.eqb_neq bp b)) by auto. auto.
          - intros i Hi e. rewrite nth_tab in e by auto. apply Nb. unfold bp. rewrite <- e.
            apply pos_dec; auto. }
    + exists o. split; auto. split; auto. intros p Hp. rewrite J by auto.
      replace (processed nk ks (S b) 0 p) with (processed nk ks b nk p); auto.
      unfold processed. rewrite (proj2 (Nat.ltb_lt (p mod nk) nk)) by (apply Nat.mod_upper_bound; lia).
      rewrite andb_true_r. destruct (Nat.ltb_spec (p mod nk) 0); [lia|]. rewrite andb_false_r, orb_false_r.
      destruct (Nat.ltb_spec (p / (nk * ks)) b), (Nat.eqb_spec (p / (nk * ks)) b), (Nat.ltb_spec (p / (nk * ks)) (S b));
        auto; lia.
  - rewrite E. f_equal. apply eq_tab with (d := false); [lia|]. intros p Hp. rewrite I by lia.
    unfold processed. rewrite (proj2 (Nat.ltb_lt _ m)).
    + auto.
    + apply Nat.div_lt_upper_bound; lia.
Qed.

(* ------------------------------------------------------------------ *)
(** * Kronecker products *)

Lemma kron_size_app : forall a b, kron_size (a ++ b) = kron_size a * kron_size b.
Proof. unfold kron_size. induction a; simpl; intros; [lia|]. rewrite IHa. lia. Qed.

Lemma kron_size_pos : forall a, Forall (fun k => 0 < length k) a -> 0 < kron_size a.
Proof. unfold kron_size. induction 1; simpl; nia. Qed.

Lemma kron_app : forall a b q p, Forall (fun k => 0 < length k) a ->
  kron (a ++ b) q p = kron a q p && kron b (q / kron_size a) (p / kron_size a).
Proof.
  induction a; intros b q p HF.
  - cbn [app kron]. change (kron_size []) with 1. rewrite !Nat.div_1_r. auto.
  - inversion HF; subst. cbn [app kron]. rewrite IHa by auto.
    change (kron_size (a :: a0)) with (length a * kron_size a0).
    pose proof (kron_size_pos _ H2). rewrite <- !Nat.div_div by lia. rewrite andb_assoc. auto.
Qed.

(** the product only depends on the indices modulo its size *)
Lemma kron_mod : forall a q p q' p', Forall (fun k => 0 < length k) a ->
  q < kron_size a -> p < kron_size a ->
  kron a (q' * kron_size a + q) (p' * kron_size a + p) = kron a q p.
Proof.
  induction a; intros q p q' p' HF Hq Hp; auto.
  inversion HF; subst. change (kron_size (a :: a0)) with (length a * kron_size a0) in *.
  set (s := length a) in *. set (K := kron_size a0) in *. cbn [kron]. fold s.
  assert (A : forall q q', (q' * (s * K) + q) mod s = q mod s /\ (q' * (s * K) + q) / s = q' * K + q / s).
  { intros. replace (q'0 * (s * K) + q0) with (q0 + (q'0 * K) * s) by lia. split.
    - apply Nat.mod_add. lia.
    - rewrite Nat.div_add by lia. lia. }
  destruct (A q q') as [-> ->]. destruct (A p p') as [-> ->]. rewrite IHa; auto;
    apply Nat.div_lt_upper_bound; unfold K in *; lia.
Qed.

Definition pv (done : list (list (list bool))) (u : list bool) (p : nat) : bool :=
  let nk := kron_size done in
  xsum nk (fun q => nth ((p / nk) * nk + q) u false && kron done q (p mod nk)).

Lemma pv_nil : forall u p, pv [] u p = nth p u false.
Proof.
  intros. unfold pv. change (kron_size []) with 1. cbn [xsum kron]. rewrite Nat.div_1_r, Nat.mul_1_r, Nat.add_0_r.
  rewrite andb_true_r, xorb_false_l. auto.
Qed.

Lemma pv_step : forall done k u m p, Forall (fun k => 0 < length k) (done ++ [k]) ->
  p < m * (kron_size done * length k) ->
  mk_val (kron_size done) k (tab (m * (kron_size done * length k)) (pv done u)) p = pv (done ++ [k]) u p.
Proof.
  intros done k u m p HF Hp.
  apply Forall_app in HF. destruct HF as [HD HK]. inversion HK; subst. clear HK H2.
  pose proof (kron_size_pos _ HD) as PD.
  unfold mk_val, pv at 2. rewrite kron_size_app.
  replace (kron_size [k]) with (length k) by (unfold kron_size; simpl; lia).
  set (nk := kron_size done) in *. set (ks := length k) in *.
  match goal with |- _ = xsum (nk * ks) ?f =>
    replace (xsum (nk * ks) f) with (xsum (ks * nk) f) by (rewrite (Nat.mul_comm ks nk); auto) end.
  rewrite xsum_mul. apply xsum_ext. intros j Hj.
  set (b := p / (nk * ks)). set (r := p mod nk).
  assert (Hr : r < nk) by (apply Nat.mod_upper_bound; lia).
  rewrite nth_tab.
  2:{ apply pos_lt; auto. unfold b. apply Nat.div_lt_upper_bound; nia. }
  unfold pv. fold nk. rewrite pos_eq. destruct (divmod_idx (b * ks + j) r nk Hr) as [-> ->].
  rewrite <- xsum_andb_r. apply xsum_ext. intros q Hq.
  rewrite kron_app by auto. fold nk. rewrite <- !andb_assoc. f_equal.
  { f_equal. lia. }
  assert (Ep : p mod (nk * ks) = ((p / nk) mod ks) * nk + r).
  { unfold r. rewrite Nat.mod_mul_r by lia. lia. }
  rewrite Ep. rewrite (kron_mod done q r); auto. f_equal.
  destruct (divmod_idx j q nk Hq) as [-> _].
  destruct (divmod_idx ((p / nk) mod ks) r nk Hr) as [-> _].
  cbn [kron]. fold ks. rewrite andb_true_r. rewrite !Nat.mod_mod by lia. rewrite (Nat.mod_small j) by auto. auto.
Qed.

Definition stage_kernels (kernels : list (list (list bool))) (stages : list nat) : list (list (list bool)) :=
  map (fun s => nth s kernels []) stages.

Lemma mk_stages_ok : forall kernels stages done u,
  Forall (fun s => s < length kernels) stages -> Forall square kernels ->
  Forall (fun k => 0 < length k) (done ++ stage_kernels kernels stages) ->
  length u = kron_size (done ++ stage_kernels kernels stages) ->
  mk_stages (length u) (kron_size done) kernels stages (tab (length u) (pv done u)) =
    Ret (tab (length u) (pv (done ++ stage_kernels kernels stages) u)).
Proof.
  induction stages as [|s rest IH]; intros done u HS HQ HP Lu.
  - simpl. rewrite app_nil_r. auto.
  - inversion HS; subst. cbn [mk_stages]. rewrite (rd_ok _ []) by auto. cbn [bind].
    cbn [stage_kernels map] in *. fold (stage_kernels kernels rest) in *. set (k := nth s kernels []) in *.
    assert (Hsq : square k). { rewrite Forall_forall in HQ. apply HQ. apply nth_In. auto. }
    replace (done ++ k :: stage_kernels kernels rest) with ((done ++ [k]) ++ stage_kernels kernels rest) in *
      by (rewrite <- app_assoc; auto).
    assert (HP1 : Forall (fun k => 0 < length k) (done ++ [k])) by (apply Forall_app in HP; tauto).
    assert (Lu2 : length u = kron_size (stage_kernels kernels rest) * (kron_size done * length k)).
    { rewrite Lu, !kron_size_app. replace (kron_size [k]) with (length k) by (unfold kron_size; simpl; lia). lia. }
    assert (Hd : 0 < kron_size done) by (apply kron_size_pos; apply Forall_app in HP1; tauto).
    assert (Hk : 0 < length k) by (apply Forall_app in HP1; destruct HP1 as [_ X]; inversion X; auto).
    rewrite Lu2. rewrite mk_stage_ok; auto. 2:{ apply length_tab. }
    cbn [bind]. rewrite (tab_ext _ _ _ (pv (done ++ [k]) u)).
    + replace (kron_size done * length k) with (kron_size (done ++ [k]))
        by (rewrite kron_size_app; unfold kron_size; simpl; lia).
      replace (kron_size (stage_kernels kernels rest) * kron_size (done ++ [k])) with (length u)
        by (rewrite Lu, kron_size_app; lia).
      apply IH; auto.
    + intros p Hp. apply pv_step; auto.
Qed.

Lemma mk_light_encode_ok : forall kernels stages u,
  Forall (fun s => s < length kernels) stages -> Forall square kernels ->
  Forall (fun k => 0 < length k) (stage_kernels kernels stages) ->
  length u = kron_size (stage_kernels kernels stages) ->
  mk_light_encode (length u) kernels stages u = Ret (kron_encode (stage_kernels kernels stages) u).
Proof.
  intros kernels stages u HS HQ HP Lu. unfold mk_light_encode.
  pose proof (mk_stages_ok kernels stages [] u HS HQ HP Lu) as E.
  change (kron_size []) with 1 in E. simpl app in E.
  replace (tab (length u) (pv [] u)) with u in E.
  - rewrite E. f_equal. unfold kron_encode. rewrite <- Lu. apply tab_ext. intros p Hp.
    unfold pv. rewrite <- Lu. rewrite Nat.div_small, Nat.mod_small by auto. auto.
  - apply eq_tab with (d := false); auto. intros. rewrite pv_nil. auto.
Qed.

(** product of two Kronecker products *)
Lemma kron_mul : forall ks ks', Forall2 inverse_of ks ks' -> Forall (fun k => 0 < length k) ks ->
  forall l p, l < kron_size ks -> p < kron_size ks ->
  xsum (kron_size ks) (fun q => kron ks l q && kron ks' q p) = (l =? p).
Proof.
  induction 1 as [|k k' ks ks' HI HR IH]; intros HF l p Hl Hp.
  - change (kron_size []) with 1 in *. assert (l = 0) by lia. assert (p = 0) by lia. subst. auto.
  - inversion HF; subst. change (kron_size (k :: ks)) with (length k * kron_size ks) in *.
    destruct HI as (L & _ & _ & HI). set (s := length k) in *.
    rewrite Nat.mul_comm, xsum_mul. cbn [kron]. fold s. rewrite L.
    rewrite (xsum_ext _ _ (fun i => (l mod s =? p mod s) && (kron ks (l / s) i && kron ks' i (p / s)))).
    + rewrite xsum_andb_l, IH; auto; try (apply Nat.div_lt_upper_bound; lia).
      destruct (Nat.eqb_spec (l mod s) (p mod s)), (Nat.eqb_spec (l / s) (p / s)); simpl; symmetry;
        try (apply Nat.eqb_eq; rewrite (Nat.div_mod l s), (Nat.div_mod p s) by lia; congruence);
        apply Nat.eqb_neq; congruence.
    + intros i Hi. rewrite <- (HI (l mod s) (p mod s)) by (apply Nat.mod_upper_bound; lia).
      rewrite <- xsum_andb_r. apply xsum_ext. intros j Hj.
      destruct (divmod_idx i j s Hj) as [-> ->].
      destruct (nth j (nth (l mod s) k []) false), (nth (p mod s) (nth j k' []) false), (kron ks (l / s) i), (kron ks' i (p / s)); auto.
Qed.

Lemma kron_size_inverse : forall ks ks', Forall2 inverse_of ks ks' -> kron_size ks' = kron_size ks.
Proof. unfold kron_size. induction 1; simpl; auto. destruct H as (-> & _). auto. Qed.

Lemma kron_encode_inverse : forall ks ks' u, Forall2 inverse_of ks ks' -> Forall (fun k => 0 < length k) ks ->
  length u = kron_size ks -> kron_encode ks' (kron_encode ks u) = u.
Proof.
  intros ks ks' u HI HF Lu. unfold kron_encode at 1. rewrite (kron_size_inverse _ _ HI).
  symmetry. apply eq_tab with (d := false); auto. intros p Hp.
  rewrite (xsum_ext _ _ (fun q => xsum (kron_size ks) (fun l => nth l u false && (kron ks l q && kron ks' q p)))).
  - rewrite xsum_swap. rewrite (xsum_ext _ _ (fun l => nth l u false && (l =? p))).
    + rewrite (xsum_single _ _ p); auto.
      * rewrite Nat.eqb_refl, andb_true_r. auto.
      * intros j Hj Hn. rewrite (proj2 (Nat.eqb_neq j p)) by auto. apply andb_false_r.
    + intros l Hl. rewrite xsum_andb_l. rewrite kron_mul; auto.
  - intros q Hq. unfold kron_encode. rewrite nth_tab by auto. rewrite <- xsum_andb_r. apply xsum_ext. intros l Hl.
    rewrite andb_assoc. auto.
Qed.

(** the Arikan kernel *)
Definition F2 : list (list bool) := [[true; false]; [true; true]].

Lemma kron_F2 : forall n q p, q < 2 ^ n -> p < 2 ^ n -> kron (repeat F2 n) q p = sub p q.
Proof.
  induction n; intros q p Hq Hp.
  - simpl in *. assert (q = 0) by lia. assert (p = 0) by lia. subst. auto.
  - destruct (split2_lt _ _ Hq) as (a & c & -> & Ha). destruct (split2_lt _ _ Hp) as (b & d & -> & Hb).
    rewrite sub_double. cbn [repeat kron]. change (length F2) with 2.
    assert (A : forall a c, (2 * a + Nat.b2n c) mod 2 = Nat.b2n c /\ (2 * a + Nat.b2n c) / 2 = a).
    { intros. rewrite (Nat.mul_comm 2). destruct (divmod_idx a0 (Nat.b2n c0) 2) as [-> ->]; auto. destruct c0; simpl; lia. }
    destruct (A a c) as [-> ->]. destruct (A b d) as [-> ->]. rewrite IHn by auto. f_equal. destruct c, d; auto.
Qed.

Lemma kron_size_F2 : forall n, kron_size (repeat F2 n) = 2 ^ n.
Proof. unfold kron_size. induction n; auto. cbn [repeat fold_right]. rewrite IHn, Nat.pow_succ_r'. auto. Qed.

Lemma kron_encode_F2 : forall n u, kron_encode (repeat F2 n) u = arikan (2 ^ n) u.
Proof.
  intros. unfold kron_encode, arikan, arikan_bit. rewrite kron_size_F2. apply tab_ext. intros p Hp.
  apply xsum_ext. intros q Hq. rewrite kron_F2 by auto. auto.
Qed.

(* ------------------------------------------------------------------ *)
(** * can_be_systematic *)

Lemma kxk_ok : forall k i j, square k -> i < length k -> j < length k ->
  kxk k i j = Ret (xsum (length k) (fun l => kent k i l && kent k l j)).
Proof.
  intros k i j Hs Hi Hj. unfold kxk.
  destruct (parity_loop (length k) (fun k0 sum =>
     ri <- rd k i ;; a <- rd ri k0 ;; rk <- rd k k0 ;; b <- rd rk j ;; Ret (sum + Nat.b2n (a && b)))
     (fun l => kent k i l && kent k l j)) as (r & E & O).
  - intros l s Hl. 
    assert (LR : forall i, i < length k -> length (nth i k []) = length k).
    { intros. unfold square in Hs. rewrite Forall_forall in Hs. apply Hs. apply nth_In; auto. }
    rewrite (rd_ok _ []) by auto. cbn [bind]. rewrite (rd_ok _ false) by (rewrite LR; auto). cbn [bind].
    rewrite (rd_ok _ []) by auto. cbn [bind]. rewrite (rd_ok _ false) by (rewrite LR; auto). cbn [bind]. auto.
  - rewrite E. cbn [bind]. rewrite O. auto.
Qed.

Lemma for_all_ok : forall n (f : nat -> outcome bool) g,
  (forall i, i < n -> f i = Ret (g i)) ->
  forall b, for_ n (fun i ok => e <- f i ;; Ret (ok && e)) b = Ret (b && forallb g (seq 0 n)).
Proof.
  intros n f g H b.
  destruct (for_inv _ (fun i ok => ok = b && forallb g (seq 0 i)) n (fun i ok => e <- f i ;; Ret (ok && e)) b)
    as (r & E & I).
  - simpl. rewrite andb_true_r. auto.
  - intros i s Hi I. rewrite H by auto. cbn [bind]. eexists; split; [reflexivity|].
    rewrite seq_S, forallb_app. simpl. rewrite andb_true_r. subst s. rewrite andb_assoc. auto.
  - rewrite E, I. auto.
Qed.

Definition self_inv_b (k : list (list bool)) : bool :=
  forallb (fun i => forallb (fun j => Bool.eqb (xsum (length k) (fun l => kent k i l && kent k l j)) (i =? j))
     (seq 0 (length k))) (seq 0 (length k)).

Lemma self_inverse_ok : forall k, square k -> self_inverse k = Ret (self_inv_b k).
Proof.
  intros k Hs. unfold self_inverse.
  rewrite (for_ext _ _ _ (fun i ok => e <- Ret (forallb (fun j =>
     Bool.eqb (xsum (length k) (fun l => kent k i l && kent k l j)) (i =? j)) (seq 0 (length k))) ;; Ret (ok && e))).
  - rewrite (for_all_ok _ (fun i => Ret (forallb (fun j =>
     Bool.eqb (xsum (length k) (fun l => kent k i l && kent k l j)) (i =? j)) (seq 0 (length k)))) _ (fun i _ => eq_refl)). auto.
  - intros i ok Hi. cbn [bind].
    rewrite <- (for_all_ok (length k) (fun j => e <- kxk k i j ;; Ret (Bool.eqb e (i =? j)))
      (fun j => Bool.eqb (xsum (length k) (fun l => kent k i l && kent k l j)) (i =? j))).
    + apply for_ext. intros j s Hj. rewrite bind_assoc. auto.
    + intros j Hj. rewrite kxk_ok by auto. auto.
Qed.

Lemma self_inv_b_true : forall k, square k -> self_inv_b k = true -> inverse_of k k.
Proof.
  intros k Hs H. split; auto. split; auto. split; auto. intros i j Hi Hj.
  unfold self_inv_b in H. rewrite forallb_forall in H. specialize (H i). rewrite forallb_forall in H.
  specialize (H ltac:(apply in_seq; lia) j ltac:(apply in_seq; lia)). apply eqb_prop in H. exact H.
Qed.

Lemma can_be_systematic_true : forall kernels stages, Forall square kernels ->
  can_be_systematic kernels stages = Ret true -> Forall (fun k => inverse_of k k) kernels.
Proof.
  intros kernels stages HQ H. unfold can_be_systematic in H.
  apply bind_inv in H. destruct H as (mono & _ & H). apply bind_inv in H. destruct H as (pal & _ & H).
  destruct pal; [|discriminate].
  rewrite (for_ext _ _ _ (fun i ok => e <- Ret (self_inv_b (nth i kernels [])) ;; Ret (ok && e))) in H.
  - rewrite (for_all_ok _ (fun i => Ret (self_inv_b (nth i kernels []))) _ (fun i _ => eq_refl)) in H.
    inversion H. simpl in H1. rewrite forallb_forall in H1.
    rewrite Forall_forall in *. intros k Hk. apply In_nth with (d := []) in Hk. destruct Hk as (i & Hi & <-).
    apply self_inv_b_true. { apply HQ. apply nth_In; auto. } apply H1. apply in_seq. lia.
  - intros i s Hi. rewrite (rd_ok _ []) by auto. cbn [bind]. rewrite self_inverse_ok; auto.
    rewrite Forall_forall in HQ. apply HQ. apply nth_In. auto.
Qed.
