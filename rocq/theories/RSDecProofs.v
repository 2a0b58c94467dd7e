(** The standard Reed-Solomon decoder, on symbols. *)
From Coq Require Import List Arith NArith ZArith Lia Bool Permutation.
From Verif Require Import Base Copy GField BMTheory GaloisModel GFTab BCHModel BCHSpec BMProofs LocProofs BCHDecProofs RSModel RSEncProofs.
Import ListNotations.

Record rmem_ok (n t : nat) (k : rs_mem) : Prop := { rk_elp : shape n (r_elp k); rk_disc : length (r_disc k) = n + 2; rk_l : length (r_l k) = n + 2; rk_ulu : length (r_ulu k) = n + 2;
  rk_s : length (r_s k) = S (2 * t); rk_loc : length (r_loc k) = S t; rk_root : length (r_root k) = S t; rk_reg : length (r_reg k) = S t; rk_z : length (r_z k) = S t; rk_err : length (r_err k) = n }.

Lemma rmem_init_ok : forall n t, rmem_ok n t (rs_mem_init t n).
Proof.
  intros n t. unfold rs_mem_init. constructor; cbn; rewrite ?repeat_length; try lia. split. { apply repeat_length. }
  intros i Hi. rewrite (nth_indep _ _ (repeat 0%Z n)) by (rewrite repeat_length; auto). rewrite nth_repeat. apply repeat_length.
Qed.

Lemma ck_ok : forall z, (z < 2 ^ 31)%Z -> ck z = Ret z.
Proof. intros z H. unfold ck. destruct (Z.leb_spec (2 ^ 31) z); auto. lia. Qed.

Section Dif.
Variables (F : field) (n : nat) (al : F) (pf xf : F -> Z) (alpha index : list Z).
Hypothesis T : tabs F n al pf xf alpha index.
Notation "0" := (f0 F).
Infix "+" := (fadd F).
Infix "*" := (fmul F).
Add Ring Fring12 : (Frt F).
(** The difference of two words of field elements. *)
Definition fdif (y c : list F) (j : nat) : F := nth j y 0 + nth j c 0.
Lemma eval_dif : forall N y c x, length y = N -> length c = N -> eval F y x = eval F c x + gsum F N (fun j => fdif y c j * pw F x j).
Proof.
  intros N y c x Ly Lc. rewrite !eval_gsum. rewrite Ly, Lc, <- gsum_add. apply gsum_ext. intros j Hj. unfold fdif.
  transitivity (nth j y 0 * pw F x j + (nth j c 0 * pw F x j + nth j c 0 * pw F x j)); [|ring]. rewrite fadd_self. ring.
Qed.
Lemma fdif_n0 : forall y c j, fdif y c j <> 0 <-> nth j y 0 <> nth j c 0.
Proof. intros. unfold fdif. split; intros H C; apply H. { rewrite C. apply fadd_self. } apply fadd_cancel. auto. Qed.
Lemma rs_hdist_supp : forall N y c, length y = N -> length c = N -> hdist (map pf y) (map pf c) = length (supp F (fdif y c) N).
Proof.
  intros N y c Ly Lc. 
  assert (G : forall k (a b : list F) f, length a = length b -> (forall j, j < length a -> f (k + j)%nat = true <-> nth j a 0 <> nth j b 0) -> hdist (map pf a) (map pf b) = length (filter f (seq k (length a)))).
  { clear -T. intros k a. revert k. induction a as [|x a IH]; destruct b as [|z b]; cbn [length hdist map]; intros f HL Hf; try lia; auto. cbn [seq filter].
    pose proof (Hf 0%nat ltac:(lia)) as H0. rewrite Nat.add_0_r in H0. cbn [nth] in H0. specialize (IH (S k) b f). 
    assert (IH' : hdist (map pf a) (map pf b) = length (filter f (seq (S k) (length a)))). { apply IH. { lia. } intros j Hj. replace (S k + j)%nat with (k + S j)%nat by lia. rewrite Hf by lia. cbn [nth]. tauto. }
    destruct (Z.eqb_spec (pf x) (pf z)) as [E|E]; cbn [length Nat.add].
    - apply (tb_pf_inj _ _ _ _ _ _ _ T) in E. destruct (f k); auto. exfalso. apply (proj1 H0); auto.
    - destruct (f k). { cbn [length]. lia. } exfalso. assert (x <> z) by congruence. apply H0 in H. discriminate. }
  unfold supp. rewrite <- Ly. apply G; [lia|]. intros j Hj. cbn [Nat.add]. rewrite <- fdif_n0, negb_true_iff. pose proof (is0_spec F (fdif y c j)) as I. destruct (is0 F (fdif y c j)); split; auto; try discriminate.
  - intros H. exfalso. tauto.
  - intros _ C. apply I in C. discriminate.
Qed.

(** Two words at distance at most 2t with the same 2t values are equal. *)
Lemma rs_unique : forall t N y c, N <= n -> length y = N -> length c = N -> length (supp F (fdif y c) N) <= 2 * t ->
  (forall k, 1 <= k <= 2 * t -> eval F y (pw F al k) = eval F c (pw F al k)) -> y = c.
Proof.
  intros t N y c HN Ly Lc HL HS. apply (nth_ext _ _ 0 0); [lia|]. intros j Hj. destruct (fdec F (nth j y 0) (nth j c 0)) as [|C]; auto. exfalso.
  apply fdif_n0 in C. destruct (supp_facts F n al pf xf alpha index T (fdif y c) N HN) as (F1 & F2 & F3 & F4).
  assert (I : In j (supp F (fdif y c) N)) by (apply in_supp; split; auto; lia).
  apply (F3 (pw F al j)). { apply in_map. auto. }
  apply (vandermonde F (map (pw F al) (supp F (fdif y c) N)) (fun x => fdif y c (lg F xf x))); auto. 2:{ apply in_map. auto. }
  rewrite map_length. intros k Hk. specialize (HS k ltac:(lia)). rewrite (eval_dif N y c) in HS by auto.
  transitivity (gsum F N (fun j => fdif y c j * pw F (pw F al k) j)). { symmetry. apply (supp_psum F n al pf xf alpha index T). auto. }
  transitivity (eval F c (pw F al k) + (eval F c (pw F al k) + gsum F N (fun j => fdif y c j * pw F (pw F al k) j))). { rewrite fadd_assoc, fadd_self. ring. } rewrite HS. apply fadd_self.
Qed.
End Dif.

Section Dec.
Variables (F : field) (n : nat) (al : F) (pf xf : F -> Z) (alpha index : list Z).
Hypothesis T : tabs F n al pf xf alpha index.
Notation "0" := (f0 F).
Notation "1" := (f1 F).
Infix "+" := (fadd F).
Infix "*" := (fmul F).
Notation "/ x" := (finv F x).
Add Ring Fring13 : (Frt F).
Notation row_ok := (row_ok F). Notation minimal := (minimal F). Notation rt := (rt F). Notation psum := (psum F).
Notation locs := (locs F n al). Notation rts := (rts F al). Notation fdif := (fdif F).

Variables (t N : nat).
Hypothesis Ht : 1 <= t.
Hypothesis Htn : 2 * t < n.
Hypothesis HN : N <= n.
Hypothesis Hint : (Z.of_nat (2 * t) * Z.of_nat n + Z.of_nat n < 2 ^ 31)%Z.

Lemma al0 : forall i, pw F al i <> 0.
Proof. apply (al_n0 F n al pf xf alpha index T). Qed.

Lemma rs_syndromes_ok : forall y s, length y = N -> length s = Datatypes.S (2 * t) ->
  exists s' b, rs_syndromes t N n alpha index (map pf y) s = Ret (s', b) /\ length s' = Datatypes.S (2 * t) /\
    (forall k, 1 <= k <= 2 * t -> nth k s' 0%Z = xf (eval F y (pw F al k))) /\ (b = false <-> forall k, 1 <= k <= 2 * t -> eval F y (pw F al k) = 0).
Proof.
  intros y s Ly Ls. unfold rs_syndromes.
  match goal with |- context [for_from 1 ?c ?body ?s0] => destruct (for_from_inv _ (fun k (st : list Z * bool) => let '(s', b) := st in length s' = Datatypes.S (2 * t) /\
    (forall i, 1 <= i < k -> nth i s' 0%Z = xf (eval F y (pw F al i))) /\ (b = false <-> forall i, 1 <= i < k -> eval F y (pw F al i) = 0)) c 1 body s0) as ((s' & b) & E & A1 & A2 & A3) end.
  - split; auto. split. { intros; lia. } split; auto. intros; lia.
  - intros i (s1 & b1) Hi (A1 & A2 & A3). cbn beta iota. rewrite wr_ok by lia. cbn [bind].
    match goal with |- context [for_ N ?body ?s0] => destruct (for_inv _ (fun k s2 => length s2 = Datatypes.S (2 * t) /\ (forall q, q <> i -> nth q s2 0%Z = nth q s1 0%Z) /\
      nth i s2 0%Z = pf (gsum F k (fun j => nth j y 0 * pw F (pw F al i) j))) N body s0) as (s2 & E2 & B1 & B2 & B3) end.
    + rewrite length_upd. split; auto. split. { intros q Hq. rewrite nth_upd_neq by lia. auto. } rewrite nth_upd_eq by lia. symmetry. apply (tb_pf_0 _ _ _ _ _ _ _ T).
    + intros k s2 Hk (B1 & B2 & B3). cbn beta. rewrite (rd_ok _ 0%Z) by (rewrite map_length; lia). cbn [bind]. rewrite (nth_pf F n al pf xf alpha index T). rewrite (tb_rd_index _ _ _ _ _ _ _ T). cbn [bind gsum].
      destruct (Z.eqb_spec (xf (nth k y 0)) (-1)) as [E|E].
      * apply (tb_xf_eq _ _ _ _ _ _ _ T) in E. eexists. split; [reflexivity|]. split; auto. split; auto. rewrite B3. f_equal. rewrite E. ring.
      * assert (Nz : nth k y 0 <> 0) by (intros C; apply E; rewrite C; apply (tb_xf_0 _ _ _ _ _ _ _ T)).
        rewrite ck_ok. 2:{ pose proof (tb_xf_range _ _ _ _ _ _ _ T (nth k y 0)). nia. } cbn [bind]. rewrite <- Nat2Z.inj_mul, (tb_rd_shift _ _ _ _ _ _ _ T) by auto. cbn [bind]. rewrite (rd_ok _ 0%Z) by lia. cbn [bind]. rewrite wr_ok by lia.
        eexists. split; [reflexivity|]. rewrite length_upd. split; auto. split. { intros q Hq. rewrite nth_upd_neq by lia. auto. }
        rewrite nth_upd_eq by lia. rewrite B3, (tb_pf_add _ _ _ _ _ _ _ T). f_equal. rewrite pw_mul. ring.
    + rewrite E2. cbn [bind]. rewrite (rd_ok _ 0%Z) by lia. cbn [bind]. assert (W : nth i s2 0%Z = pf (eval F y (pw F al i))) by (rewrite eval_gsum, Ly; auto).
      rewrite W, (tb_rd_index _ _ _ _ _ _ _ T). cbn [bind]. rewrite wr_ok by lia. cbn [bind]. eexists. split; [reflexivity|]. cbn beta iota. rewrite length_upd. split; auto. split.
      * intros q Hq. rewrite nth_upd by lia. destruct (Nat.eqb_spec q i). { subst. auto. } rewrite B2 by auto. apply A2. lia.
      * pose proof (tb_pf_eq0 _ _ _ _ _ _ _ T (eval F y (pw F al i))). destruct (Z.eqb_spec (pf (eval F y (pw F al i))) 0%Z) as [E3|E3].
        { rewrite A3. split; intros HH q Hq. { destruct (Nat.eq_dec q i) as [->|]. { tauto. } apply HH. lia. } apply HH. lia. }
        { split; [discriminate|]. intros HH. exfalso. apply E3. apply H. apply HH. lia. }
  - rewrite E. exists s', b. split; auto. split; auto. split; [intros; apply A2; lia|]. rewrite A3. split; intros HH q Hq; apply HH; lia.
Qed.

Lemma rs_chien_ok : forall sg lu reg root loc, lu <= t -> length reg = Datatypes.S t -> length root = Datatypes.S t -> length loc = Datatypes.S t -> sg 0%nat = 1 -> (forall j, 1 <= j <= lu -> nth j reg 0%Z = xf (sg j)) ->
  exists reg' root' loc', rs_chien n alpha lu reg root loc = Ret (reg', root', loc', length (locs sg lu)) /\ length reg' = Datatypes.S t /\ length root' = Datatypes.S t /\ length loc' = Datatypes.S t /\
    forall i, i < length (locs sg lu) -> nth i loc' 0%nat = nth i (locs sg lu) 0%nat /\ (1 <= nth i root' 0 <= n /\ nth i loc' 0 = n - nth i root' 0)%nat.
Proof.
  intros sg lu reg root loc Hl Lr Lt Lc H0 HR. unfold rs_chien.
  match goal with |- context [for_from 1 ?c ?body ?s0] => destruct (for_from_inv _ (fun k (st : list Z * list nat * list nat * nat) => let '(r, ro, lc, ct) := st in length r = Datatypes.S t /\ length ro = Datatypes.S t /\ length lc = Datatypes.S t /\
    (forall j, 1 <= j <= lu -> nth j r 0%Z = xf (sg j * pw F al ((k - 1) * j))) /\ ct = length (rts sg lu 1 (k - 1)) /\
    forall i, i < ct -> nth i ro 0%nat = nth i (rts sg lu 1 (k - 1)) 0%nat /\ nth i lc 0%nat = nth i (map (fun i => n - i)%nat (rts sg lu 1 (k - 1))) 0%nat) c 1 body s0) as ((((reg' & root') & loc') & ct) & E & A1 & A0 & A2 & A3 & A4 & A5) end.
  - repeat split; auto. { intros j Hj. rewrite HR by auto. f_equal. cbn. ring. } { cbn in *. lia. } { cbn in *. lia. }
  - intros k (((r & ro) & lc) & ct) Hk (A1 & A0 & A2 & A3 & A4 & A5). cbn beta iota.
    destruct (chien_inner F n al pf xf alpha index T t N Ht Htn HN ltac:(nia) sg lu (k - 1) r) as (r' & EI & B1 & B2); auto.
    match goal with |- context [for_from 1 lu ?b ?s0] => replace (for_from 1 lu b s0) with (Ret (r', pf (rt sg lu (pw F al (Datatypes.S (k - 1)))))) by (symmetry; exact EI) end. cbn [bind]. replace (Datatypes.S (k - 1)) with k in * by lia.
    pose proof (rts_S F al sg lu 1 (k - 1)) as RS. replace (1 + (k - 1))%nat with k in RS by lia. replace (Datatypes.S (k - 1)) with k in RS by lia.
    replace (Datatypes.S k - 1)%nat with k by lia.
    pose proof (tb_pf_eq0 _ _ _ _ _ _ _ T (rt sg lu (pw F al k))) as PE. pose proof (is0_spec F (rt sg lu (pw F al k))) as IE.
    destruct (Z.eqb_spec (pf (rt sg lu (pw F al k))) 0%Z) as [Ez|Ez].
    + replace (is0 F (rt sg lu (pw F al k))) with true in RS by (symmetry; tauto).
      assert (LE : length (rts sg lu 1 k) <= lu) by (apply (rts_le F n al pf xf alpha index T); auto; lia). rewrite RS, app_length in LE. cbn [length] in LE.
      rewrite wr_ok by lia. cbn [bind]. rewrite ?wr_ok by lia. cbn [bind]. eexists. split; [reflexivity|]. cbn beta iota. rewrite !length_upd.
      split; auto. split; auto. split; auto. split; auto. split. { rewrite RS, app_length. cbn [length]. lia. }
      intros i Hi. rewrite !nth_upd by lia. rewrite RS, map_app. cbn [map]. destruct (Nat.eqb_spec i ct).
      * subst i. rewrite !app_nth2 by (rewrite ?map_length; lia). rewrite map_length, A4, Nat.sub_diag. auto.
      * rewrite !app_nth1 by (rewrite ?map_length; lia). apply A5. lia.
    + replace (is0 F (rt sg lu (pw F al k))) with false in RS by (symmetry; apply not_true_iff_false; tauto). rewrite app_nil_r in RS.
      eexists. split; [reflexivity|]. cbn beta iota. split; auto. split; auto. split; auto. split; auto. rewrite RS. auto.
  - replace (1 + n - 1)%nat with n in * by lia. exists reg', root', loc'. unfold LocProofs.locs at 1 2. rewrite map_length. split. { rewrite E, A4. auto. } split; auto. split; auto. split; auto.
    intros i Hi. destruct (A5 i ltac:(lia)) as [Q1 Q2]. split; auto. assert (I : In (nth i root' 0%nat) (rts sg lu 1 n)) by (rewrite Q1; apply nth_In; lia). apply in_rts in I. split; [lia|].
    rewrite Q2, Q1. rewrite (nth_indep _ _ (n - 0)%nat) by (rewrite map_length; lia). apply map_nth.
Qed.

(** ** The error values *)
Lemma rs_z_ok : forall (sg S : nat -> F) lu s e z, lu <= t -> length s = Datatypes.S (2 * t) -> lu < length e -> length z = Datatypes.S t ->
  (forall k, 1 <= k <= 2 * t -> nth k s 0%Z = xf (S k)) -> (forall k, k <= lu -> nth k e 0%Z = xf (sg k)) ->
  exists z', rs_z n alpha index lu s e z = Ret z' /\ length z' = Datatypes.S t /\ forall i, 1 <= i <= lu -> nth i z' 0%Z = xf (zpoly F sg S i).
Proof.
  intros sg S lu s e z Hl Ls Le Lz HS HE. unfold rs_z.
  assert (XN : forall a : F, xf a <> (-1)%Z -> a <> 0) by (intros a H C; apply H; rewrite C; apply (tb_xf_0 _ _ _ _ _ _ _ T)).
  match goal with |- context [for_from 1 ?c ?body ?s0] => destruct (for_from_inv _ (fun k z' => length z' = Datatypes.S t /\ forall i, 1 <= i < k -> nth i z' 0%Z = xf (zpoly F sg S i)) c 1 body s0) as (z' & E & A1 & A2) end.
  - split; auto. intros; lia.
  - intros i z1 Hi (A1 & A2). cbn beta. rewrite !(rd_ok _ 0%Z) by lia. cbn [bind]. rewrite HS, HE by lia.
    match goal with |- context [bind (if ?c then ?a else ?b) ?k] => assert (V : (if c then a else b) = Ret (pf (S i + sg i))) end.
    { destruct (Z.eqb_spec (xf (S i)) (-1)) as [E1|E1]; destruct (Z.eqb_spec (xf (sg i)) (-1)) as [E2|E2]; cbn [negb andb].
      - apply (tb_xf_eq _ _ _ _ _ _ _ T) in E1. apply (tb_xf_eq _ _ _ _ _ _ _ T) in E2. rewrite E1, E2. rewrite fadd_0, (tb_pf_0 _ _ _ _ _ _ _ T). auto.
      - apply (tb_xf_eq _ _ _ _ _ _ _ T) in E1. rewrite E1, fadd_0. apply (tb_rd_xf _ _ _ _ _ _ _ T). auto.
      - apply (tb_xf_eq _ _ _ _ _ _ _ T) in E2. rewrite E2, fadd_0r. apply (tb_rd_xf _ _ _ _ _ _ _ T). auto.
      - rewrite !(tb_rd_xf _ _ _ _ _ _ _ T) by auto. cbn [bind]. rewrite (tb_pf_add _ _ _ _ _ _ _ T). auto. }
    rewrite V. cbn [bind]. clear V. rewrite wr_ok by lia. cbn [bind].
    match goal with |- context [for_from 1 ?c ?body ?s0] => destruct (for_from_inv _ (fun k z2 => length z2 = Datatypes.S t /\ (forall j, j <> i -> nth j z2 0%Z = nth j z1 0%Z) /\
       nth i z2 0%Z = pf (S i + sg i + gsum F (k - 1) (fun j => sg (i - Datatypes.S j)%nat * S (Datatypes.S j)))) c 1 body s0) as (z2 & E2 & B1 & B2 & B3) end.
    + rewrite length_upd. split; auto. split. { intros j Hj. rewrite nth_upd_neq by lia. auto. } rewrite nth_upd_eq by lia. f_equal. cbn [gsum Nat.sub]. ring.
    + intros j z2 Hj (B1 & B2 & B3). cbn beta. rewrite !(rd_ok _ 0%Z) by lia. cbn [bind]. rewrite HS, HE by lia.
      replace (Datatypes.S j - 1)%nat with (Datatypes.S (j - 1)) by lia. cbn [gsum]. replace (Datatypes.S (j - 1)) with j by lia.
      destruct (Z.eqb_spec (xf (S j)) (-1)) as [E1|E1]; destruct (Z.eqb_spec (xf (sg (i - j)%nat)) (-1)) as [E2|E2]; cbn [negb andb].
      1-3: eexists; split; [reflexivity|]; split; auto; split; auto; rewrite B3; f_equal.
      1,2: apply (tb_xf_eq _ _ _ _ _ _ _ T) in E1; rewrite E1; ring.
      1: apply (tb_xf_eq _ _ _ _ _ _ _ T) in E2; rewrite E2; ring.
      rewrite (tb_rd_mul _ _ _ _ _ _ _ T) by auto. cbn [bind]. rewrite ?(rd_ok _ 0%Z) by lia. cbn [bind]. rewrite wr_ok by lia. eexists. split; [reflexivity|]. rewrite length_upd. split; auto. split.
      { intros q Hq. rewrite nth_upd_neq by lia. auto. } rewrite nth_upd_eq by lia. rewrite B3, (tb_pf_add _ _ _ _ _ _ _ T). f_equal. ring.
    + rewrite E2. cbn [bind]. rewrite (rd_ok _ 0%Z) by lia. cbn [bind]. rewrite B3, (tb_rd_index _ _ _ _ _ _ _ T). cbn [bind]. rewrite wr_ok by lia. eexists. split; [reflexivity|]. rewrite length_upd. split; auto.
      intros j Hj. rewrite nth_upd by lia. destruct (Nat.eqb_spec j i) as [->|]. { f_equal. destruct i; [lia|]. cbn [zpoly]. replace (1 + (Datatypes.S i - 1) - 1)%nat with (Datatypes.S i - 1)%nat by lia. auto. } rewrite B2 by auto. apply A2. lia.
  - exists z'. split; auto. split; auto. intros. apply A2. lia.
Qed.

Variable w : nat.
Hypothesis Hw : (Z.of_nat n < 2 ^ (Z.of_nat w - 1))%Z.

Lemma rm_skip : forall (X : F) k L, NoDup L -> k < length L -> nth k L 0 = X -> rm F X (firstn k L) = firstn k L.
Proof.
  intros X k L ND Hk E. apply rm_notin. intros C. apply (In_nth _ _ 0) in C. destruct C as (i & Hi & Ei). rewrite firstn_length in Hi. rewrite firstn_nth in Ei by lia.
  assert (i = k); [|lia]. apply (proj1 (NoDup_nth L 0) ND); try lia. congruence.
Qed.
Lemma lprod_app : forall L L' f, lprod F (L ++ L') f = lprod F L f * lprod F L' f.
Proof. induction L; intros; cbn [app lprod]. { ring. } rewrite IHL. ring. Qed.
Lemma rm_app : forall x L L', rm F x (L ++ L') = rm F x L ++ rm F x L'.
Proof. intros. unfold rm. apply filter_app. Qed.
Lemma firstn_snoc : forall A (L : list A) k d, k < length L -> firstn (S k) L = firstn k L ++ [nth k L d].
Proof. induction L; intros k d Hk; cbn [length] in Hk; [lia|]. destruct k; auto. cbn [firstn nth app]. f_equal. apply IHL. lia. Qed.

Lemma rs_fix_ok : forall lc root loc z (zp e : nat -> F) i err y, NoDup lc -> (forall p, In p lc -> p < N) -> length lc <= t -> length root = Datatypes.S t -> length loc = Datatypes.S t -> length z = Datatypes.S t ->
  (forall i, i < length lc -> nth i loc 0%nat = nth i lc 0%nat /\ (1 <= nth i root 0 <= n /\ nth i loc 0 = n - nth i root 0)%nat) ->
  zp 0%nat = 1 -> (forall i, 1 <= i <= length lc -> nth i z 0%Z = xf (zp i)) -> i < length lc -> length err = n -> length y = N -> e (nth i lc 0%nat) <> 0 ->
  rt zp (length lc) (/ pw F al (nth i lc 0%nat)) = e (nth i lc 0%nat) * lprod F (rm F (pw F al (nth i lc 0%nat)) (map (pw F al) lc)) (fun Y => 1 + Y * / pw F al (nth i lc 0%nat)) ->
  exists err', rs_fix w n alpha index (length lc) z root loc i (err, map pf y) = Ret (err', map pf (upd y (nth i lc 0%nat) (nth (nth i lc 0%nat) y 0 + e (nth i lc 0%nat)))) /\ length err' = n.
Proof.
  intros lc root loc z zp e i err y ND Hlc Hl Lr Lo Lz HL Z0 HZ Hi Le Ly En HF. set (p := nth i lc 0%nat) in *. set (X := pw F al p) in *.
  destruct (HL i Hi) as (L1 & L2 & L3). fold p in L1. assert (Hp : p < N) by (apply Hlc; apply nth_In; auto).
  assert (XI : / X = pw F al (nth i root 0%nat)). { unfold X. rewrite (tb_inv_pw _ _ _ _ _ _ _ T) by lia. f_equal. lia. }
  assert (X0 : X <> 0) by apply al0. assert (NDL : NoDup (map (pw F al) lc)) by (apply (NoDup_pw F n al pf xf alpha index T); auto; intros j Hj; apply Hlc in Hj; lia).
  assert (YX : forall q, In q lc -> q <> p -> 1 + pw F al q * / X <> 0).
  { intros q Hq Nq C. apply Nq. apply (tb_inj _ _ _ _ _ _ _ T); try lia. { apply Hlc in Hq. lia. } fold X. apply fadd_cancel in C. apply (fmul_cancel F (/ X)). { apply finv_n0. auto. } rewrite (fmul_comm _ (/ X) X), finv_r by auto. rewrite C. ring. }
  assert (PN : lprod F (rm F X (map (pw F al) lc)) (fun Y => 1 + Y * / X) <> 0).
  { apply lprod_n0. intros Y HY. apply in_rm in HY. destruct HY as [HY NY]. apply in_map_iff in HY. destruct HY as (q & <- & Hq). apply YX; auto. intros C. apply NY. rewrite C. auto. }
  unfold rs_fix. cbn beta iota. rewrite !(rd_ok _ 0%nat) by lia. cbn [bind]. rewrite L1. rewrite wr_ok by lia. cbn [bind].
  match goal with |- context [for_from 1 ?c ?body ?s0] => destruct (for_from_inv _ (fun k e1 => length e1 = n /\ nth p e1 0%Z = pf (gsum F k (fun j => zp j * pw F (/ X) j))) c 1 body s0) as (e1 & E1 & A1 & A2) end.
  { rewrite length_upd. split; auto. rewrite nth_upd_eq by lia. rewrite <- (tb_pf_1 _ _ _ _ _ _ _ T). f_equal. cbn [gsum pw]. rewrite Z0. ring. }
  { intros j e1 Hj (A1 & A2). cbn beta. rewrite (rd_ok _ 0%Z) by lia. cbn [bind]. rewrite HZ by lia. cbn [gsum]. destruct (Z.eqb_spec (xf (zp j)) (-1)) as [Ez|Ez].
    - apply (tb_xf_eq _ _ _ _ _ _ _ T) in Ez. eexists. split; [reflexivity|]. split; auto. rewrite A2. f_equal. rewrite Ez. ring.
    - assert (Nz : zp j <> 0) by (intros C; apply Ez; rewrite C; apply (tb_xf_0 _ _ _ _ _ _ _ T)).
      rewrite ck_ok. 2:{ pose proof (tb_xf_range _ _ _ _ _ _ _ T (zp j)). nia. } cbn [bind]. rewrite <- Nat2Z.inj_mul, (tb_rd_shift _ _ _ _ _ _ _ T) by auto. cbn [bind]. rewrite (rd_ok _ 0%Z) by lia. cbn [bind]. rewrite wr_ok by lia.
      eexists. split; [reflexivity|]. rewrite length_upd. split; auto. rewrite nth_upd_eq by lia. rewrite A2, (tb_pf_add _ _ _ _ _ _ _ T). f_equal. f_equal. f_equal. rewrite XI, <- pw_mul. f_equal. lia. }
  rewrite E1. cbn [bind]. clear E1. rewrite (rd_ok _ 0%Z) by lia. cbn [bind]. replace (gsum F (1 + length lc) (fun j => zp j * pw F (/ X) j)) with (rt zp (length lc) (/ X)) in A2 by reflexivity. rewrite HF in A2.
  set (v := e p * _) in A2. assert (Vn : v <> 0) by (apply fmul_n0; auto). rewrite A2.
  destruct (Z.eqb_spec (pf v) 0%Z) as [C|_]. { exfalso. apply (tb_pf_eq0 _ _ _ _ _ _ _ T) in C. auto. }
  rewrite (tb_rd_index _ _ _ _ _ _ _ T). cbn [bind]. rewrite wr_ok by lia. cbn [bind].
  match goal with |- context [for_ ?c ?body ?s0] => destruct (for_inv _ (fun k q => (0 <= q <= Z.of_nat k * Z.of_nat n)%Z /\ pw F al (Z.to_nat q) = lprod F (rm F X (firstn k (map (pw F al) lc))) (fun Y => 1 + Y * / X)) c body s0) as (q & Eq & B1 & B2) end.
  { split; [lia|]. reflexivity. }
  { intros j q Hj (B1 & B2). cbn beta. rewrite (firstn_snoc _ _ _ (pw F al 0)) by (rewrite map_length; lia). rewrite map_nth, rm_app, lprod_app. unfold rm at 2. cbn [filter].
    destruct (Nat.eqb_spec j i) as [->|Nj].
    - eexists. split; [reflexivity|]. split; [nia|]. fold p. fold X. destruct (fdec F X X); [|contradiction]. cbn [lprod]. rewrite B2. ring.
    - rewrite (rd_ok _ 0%nat) by lia. cbn [bind]. destruct (HL j ltac:(lia)) as (-> & _ & _). set (pj := nth j lc 0%nat). assert (Hpj : In pj lc) by (apply nth_In; lia).
      assert (Npj : pj <> p). { intros C. apply Nj. apply (proj1 (NoDup_nth lc 0%nat) ND); auto; lia. }
      rewrite <- Nat2Z.inj_add, (tb_rd_mod _ _ _ _ _ _ _ T). cbn [bind]. rewrite <- (tb_pf_1 _ _ _ _ _ _ _ T), (tb_pf_add _ _ _ _ _ _ _ T), (tb_rd_index _ _ _ _ _ _ _ T). cbn [bind].
      rewrite pw_add, <- XI. pose proof (YX pj Hpj Npj) as Y0. destruct (tb_xf_n0 _ _ _ _ _ _ _ T _ Y0) as (k & Hk & Ek & ->).
      rewrite ck_ok by nia. eexists. split; [reflexivity|]. split; [nia|].
      destruct (fdec F (pw F al pj) X) as [C|_]. { exfalso. apply Npj. apply (tb_inj _ _ _ _ _ _ _ T); auto; [|lia]. apply Hlc in Hpj. lia. }
      cbn [lprod]. rewrite Z2Nat.inj_add, Nat2Z.id by lia. rewrite pw_add, B2, Ek. ring. }
  rewrite Eq. cbn [bind]. clear Eq. rewrite firstn_all2 in B2 by (rewrite map_length; lia). set (pr := lprod F _ _) in *.
  rewrite (rd_ok _ 0%Z) by (rewrite length_upd; lia). cbn [bind]. rewrite nth_upd_eq by lia.
  assert (QX : Z.rem q (Z.of_nat n) = xf pr). { replace q with (Z.of_nat (Z.to_nat q)) by (apply Z2Nat.id; lia). rewrite Zrem_nat by lia. rewrite <- B2, <- (tb_mod _ _ _ _ _ _ _ T). symmetry. apply (tb_xf_pw _ _ _ _ _ _ _ T). apply Nat.mod_upper_bound. lia. }
  rewrite QX. replace (xf v - xf pr + Z.of_nat n)%Z with (xf v + Z.of_nat n - xf pr + xf (f1 F))%Z. 2:{ change (f1 F) with (pw F al 0). rewrite (tb_xf_pw _ _ _ _ _ _ _ T) by lia. lia. }
  rewrite (tb_rd_div _ _ _ _ _ _ _ T) by (auto using f10). cbn [bind].
  assert (VE : v * / pr * 1 = e p). { transitivity (e p * (pr * / pr)). { unfold v, pr. ring. } rewrite finv_r by auto. ring. }
  rewrite VE. rewrite wr_ok by (rewrite length_upd; lia). cbn [bind]. rewrite (rd_ok _ 0%Z) by (rewrite map_length; lia). cbn [bind]. rewrite (nth_pf F n al pf xf alpha index T), (tb_pf_add _ _ _ _ _ _ _ T), (cast_pf F n al pf xf alpha index T w Hw).
  rewrite wr_ok by (rewrite map_length; lia). cbn [bind]. match goal with |- exists err', Ret (?a, _) = _ /\ _ => exists a end. split. 2:{ rewrite !length_upd. auto. } f_equal. f_equal.
  apply (nth_ext _ _ 0%Z 0%Z). { rewrite length_upd, !map_length, length_upd. auto. } intros j Hj. rewrite length_upd, map_length in Hj.
  rewrite nth_upd by (rewrite map_length; lia). rewrite !(nth_pf F n al pf xf alpha index T). rewrite nth_upd by lia. destruct (Nat.eqb_spec j p); auto.
Qed.

Lemma rs_fixes_ok : forall lc root loc z (zp e : nat -> F) err y, NoDup lc -> (forall p, In p lc -> p < N) -> length lc <= t -> length root = Datatypes.S t -> length loc = Datatypes.S t -> length z = Datatypes.S t ->
  (forall i, i < length lc -> nth i loc 0%nat = nth i lc 0%nat /\ (1 <= nth i root 0 <= n /\ nth i loc 0 = n - nth i root 0)%nat) ->
  zp 0%nat = 1 -> (forall i, 1 <= i <= length lc -> nth i z 0%Z = xf (zp i)) -> length err = n -> length y = N -> (forall p, In p lc -> e p <> 0) ->
  (forall p, In p lc -> rt zp (length lc) (/ pw F al p) = e p * lprod F (rm F (pw F al p) (map (pw F al) lc)) (fun Y => 1 + Y * / pw F al p)) ->
  exists err' y', for_ (length lc) (rs_fix w n alpha index (length lc) z root loc) (err, map pf y) = Ret (err', map pf y') /\ length err' = n /\ length y' = N /\
    (forall p, In p lc -> nth p y' 0 = nth p y 0 + e p) /\ (forall p, ~ In p lc -> nth p y' 0 = nth p y 0).
Proof.
  intros lc root loc z zp e err y ND Hlc Hl Lr Lo Lz HL Z0 HZ Le Ly En HF.
  match goal with |- context [for_ ?c ?body ?s0] => destruct (for_inv _ (fun k st => exists err' y', st = (err', map pf y') /\ length err' = n /\ length y' = N /\
    (forall p, In p (firstn k lc) -> nth p y' 0 = nth p y 0 + e p) /\ (forall p, ~ In p (firstn k lc) -> nth p y' 0 = nth p y 0)) c body s0) as (st & E & err' & y' & -> & A1 & A2 & A3 & A4) end.
  - exists err, y. repeat split; auto. intros p [].
  - intros k st Hk (err1 & y1 & -> & A1 & A2 & A3 & A4). set (p := nth k lc 0%nat). assert (Hp : In p lc) by (apply nth_In; auto).
    destruct (rs_fix_ok lc root loc z zp e k err1 y1) as (err2 & E2 & B1); auto. fold p in E2. eexists. split; [exact E2|]. exists err2. eexists. split; [reflexivity|]. rewrite length_upd. split; auto. split; auto.
    rewrite (firstn_snoc _ _ _ 0%nat) by auto. fold p.
    assert (NI : ~ In p (firstn k lc)). { intros C. apply (In_nth _ _ 0%nat) in C. destruct C as (i & Hi & Ei). rewrite firstn_length in Hi. rewrite firstn_nth in Ei by lia. apply (proj1 (NoDup_nth lc 0%nat)) in Ei; auto; lia. }
    assert (PN : p < N) by auto.
    split; intros q Hq; rewrite in_app_iff in Hq; rewrite nth_upd by lia; destruct (Nat.eqb_spec q p) as [->|Nq].
    + rewrite A4 by auto. auto.
    + apply A3. destruct Hq as [|[|[]]]; auto. congruence.
    + exfalso. apply Hq. right. left. auto.
    + apply A4. tauto.
  - exists err', y'. rewrite firstn_all in *. auto.
Qed.

Lemma rs_decode_ok : forall y k, length y = N -> rmem_ok n t k ->
  N = n \/ (exists c, length c = N /\ (forall k, 1 <= k <= 2 * t -> eval F c (pw F al k) = 0) /\ hdist (map pf y) (map pf c) <= t) ->
  exists ok y' k', rs_decode w t N n alpha index (map pf y) k = Ret (ok, ok, map pf y', k') /\ rmem_ok n t k' /\ length y' = N /\
    (ok = false -> y' = y) /\
    (forall c, length c = N -> (forall k, 1 <= k <= 2 * t -> eval F c (pw F al k) = 0) -> hdist (map pf y) (map pf c) <= t -> ok = true /\ y' = c) /\
    (ok = true -> (forall k, 1 <= k <= 2 * t -> eval F y' (pw F al k) = 0) /\ hdist (map pf y) (map pf y') <= t).
Proof.
  intros y k Ly MK CASE. destruct MK. unfold rs_decode. destruct (rs_syndromes_ok y (r_s k) Ly rk_s0) as (s & b & E & Ls & HS & HB). rewrite E. cbn [bind].
  set (S := fun k => eval F y (pw F al k)) in *.
  assert (SD : forall c, length c = N -> (forall k, 1 <= k <= 2 * t -> eval F c (pw F al k) = 0) -> forall k, 1 <= k <= 2 * t -> S k = gsum F N (fun j => fdif y c j * pw F (pw F al k) j)).
  { intros c Lc Hc j Hj. unfold S. rewrite (eval_dif F N y c) by auto. rewrite Hc by auto. ring. }
  destruct b.
  2:{ assert (S0 : forall k, 1 <= k <= 2 * t -> eval F y (pw F al k) = 0) by (apply HB; auto). exists true, y. eexists. split; [reflexivity|]. split; [constructor; auto|]. split; auto. split; auto. split.
      - intros c Lc Hc HD. split; auto. rewrite (rs_hdist_supp F n al pf xf alpha index T N) in HD by auto. apply (rs_unique F n al pf xf alpha index T t N); auto; try lia. intros q Hq. rewrite S0, Hc by auto. auto.
      - intros _. split; auto. clear. induction y; cbn [hdist map]; try lia. rewrite Z.eqb_refl. auto. }
  destruct (bm_ok F n al pf xf alpha index T t s S Ht Htn Ls HS (r_elp k) (r_disc k) (r_l k) (r_ulu k)) as
    (e0 & d0 & l0 & u0 & v & elp & disc & l & ulu & lu & E1 & E2 & S2 & D2 & L2 & U2 & V2 & LU & OK & BAD); auto.
  rewrite E1. cbn [bind]. rewrite E2. cbn [bind]. rewrite (rd_ok _ 0%nat) by lia. cbn [bind]. rewrite LU. clear E1 E2.
  destruct (Nat.leb_spec lu t) as [Hlu|Hlu].
  2:{ exists false, y. eexists. split; [reflexivity|]. split; [constructor; auto|]. split; auto. split; auto. split; [|discriminate].
      intros c Lc Hc HD. exfalso. rewrite (rs_hdist_supp F n al pf xf alpha index T N) in HD by auto. pose proof (not_found F n al pf xf alpha index T t S lu (fdif y c) N (BAD Hlu) HN (SD c Lc Hc)). lia. }
  destruct (OK Hlu) as (sg & RK & MN & GE). pose proof RK as (R0 & R1 & _).
  match goal with |- context [for_ ?c ?body ?s0] => match s0 with elp => destruct (for_inv _ (fun k e => shape n e /\ (forall i, i < k -> get2 e (v + 1) i = xf (sg i)) /\ (forall i, k <= i -> get2 e (v + 1) i = get2 elp (v + 1) i)) c body s0) as (e1 & E1 & A1 & A2 & A3) end end.
  { split; auto. split; auto. intros; lia. }
  { intros j e Hk (A1 & A2 & A3). cbn beta. rewrite (rd2_ok n) by (auto; lia). cbn [bind]. rewrite A3, GE by lia. rewrite (tb_rd_index _ _ _ _ _ _ _ T). cbn [bind].
    destruct (wr2_ok n e (v + 1) j (xf (sg j)) A1 ltac:(lia) ltac:(lia)) as (e' & -> & S' & G'). eexists. split; [reflexivity|]. split; auto. split; intros i Hi; rewrite G', Nat.eqb_refl; cbn [andb].
    - destruct (Nat.eqb_spec i j); [subst; auto|]. apply A2. lia.
    - destruct (Nat.eqb_spec i j); [lia|]. apply A3. lia. }
  rewrite E1. cbn [bind].
  match goal with |- context [for_from 1 lu ?body ?s0] => destruct (for_from_inv _ (fun k r => length r = Datatypes.S t /\ forall i, 1 <= i < k -> nth i r 0%Z = xf (sg i)) lu 1 body s0) as (reg & E2 & B1 & B2) end.
  { split; auto. intros; lia. }
  { intros j r Hk (B1 & B2). cbn beta. rewrite (rd2_ok n) by (auto; lia). cbn [bind]. rewrite A2 by lia. rewrite wr_ok by lia. eexists. split; [reflexivity|]. rewrite length_upd. split; auto.
    intros i Hi. rewrite nth_upd by lia. destruct (Nat.eqb_spec i j); [subst; auto|]. apply B2. lia. }
  rewrite E2. cbn [bind].
  destruct (rs_chien_ok sg lu reg (r_root k) (r_loc k)) as (reg' & root & loc & E3 & C1 & C0 & C2 & C3); auto. { intros j Hj. apply B2. lia. }
  rewrite E3. cbn [bind].
  set (lc := locs sg lu) in *.
  assert (ND : NoDup lc) by (apply (locs_NoDup F n al)).
  assert (Hln : forall p, In p lc -> p < n) by (intros p Hp; apply (in_locs F n al pf xf alpha index T) in Hp; tauto).
  assert (LT : length lc <= t). { unfold lc, LocProofs.locs. rewrite map_length. apply (Nat.le_trans _ lu); auto. apply (rts_le F n al pf xf alpha index T); auto. }
  destruct (Nat.eqb_spec (length lc) lu) as [EL|EL].
  - assert (HlN : forall p, In p lc -> p < N).
    { destruct CASE as [->|(c & Lc & Hc & HD)]; auto. rewrite (rs_hdist_supp F n al pf xf alpha index T N) in HD by auto. destruct (found F n al pf xf alpha index T t S sg lu (fdif y c) N RK MN HN (SD c Lc Hc) HD) as (H1 & H2 & H3). fold lc in H2.
      intros p Hp. apply H2, in_supp in Hp. tauto. }
    destruct (pattern F n al pf xf alpha index T t S sg lu RK MN EL) as (e & P1 & P2). fold lc in P1, P2.
    rewrite (rd_ok _ []) by (destruct A1 as [-> _]; lia). cbn [bind].
    destruct (rs_z_ok sg S lu s (nth (v + 1) e1 []) (r_z k)) as (z & EZ & Lz & HZ); auto.
    { destruct A1 as [_ A1]. rewrite A1 by lia. lia. } { intros i Hi. apply A2. lia. }
    rewrite EZ. cbn [bind]. destruct (fill_spec _ 0%Z (length (r_err k)) (r_err k) 0 0%Z) as (er & EF & LF & _ & _). { lia. } rewrite EF. cbn [bind].
    destruct (rs_fixes_ok lc root loc z (zpoly F sg S) (fun p => e (pw F al p)) er y) as (err' & y' & E4 & G0 & G1 & G2 & G3); auto; try lia.
    { intros i Hi. apply HZ. lia. }
    { intros p Hp. rewrite EL. apply forney; auto.
      - rewrite map_length. auto.
      - apply (NoDup_pw F n al pf xf alpha index T); auto.
      - intros C. apply in_map_iff in C. destruct C as (j & Ej & _). revert Ej. apply al0.
      - intros x Hx. apply in_map_iff in Hx. destruct Hx as (j & <- & Hj). apply (in_locs F n al pf xf alpha index T) in Hj. tauto.
      - intros q Hq. apply P1. lia.
      - apply in_map. auto. }
    rewrite EL in E4. rewrite E4. cbn [bind].
    assert (DS : forall p, (fdif y y' p <> 0 <-> In p lc)).
    { intros p. rewrite fdif_n0. destruct (in_dec Nat.eq_dec p lc) as [I|I].
      - rewrite G2 by auto. split; auto. intros _ C. apply (P2 p I). assert (nth p y 0 + (nth p y 0 + e (pw F al p)) = 0). { rewrite <- C. apply fadd_self. } rewrite fadd_assoc, fadd_self, fadd_0 in H. auto.
      - rewrite G3 by auto. split; intros X; [exfalso; apply X; auto|contradiction]. }
    assert (HD' : length (supp F (fdif y y') N) <= t). { apply (Nat.le_trans _ (length lc)); auto. apply NoDup_incl_length. { apply supp_NoDup. } intros p Hp. apply in_supp in Hp. apply DS; tauto. }
    assert (CW : forall k, 1 <= k <= 2 * t -> eval F y' (pw F al k) = 0).
    { intros q Hq. pose proof (eval_dif F N y y' (pw F al q) Ly G1) as W. change (eval F y (pw F al q)) with (S q) in W. rewrite (P1 q Hq) in W.
      assert (GS : gsum F N (fun j => fdif y y' j * pw F (pw F al q) j) = psum (map (pw F al) lc) e q).
      { rewrite (supp_psum F n al pf xf alpha index T) by auto. unfold BMTheory.psum. rewrite !lsum_map.
        transitivity (lsum F (supp F (fdif y y') N) (fun p => e (pw F al p) * pw F (pw F al p) q)).
        - apply lsum_ext. intros p Hp. apply in_supp in Hp. destruct Hp as [Hp Dp]. rewrite (lg_pw F n al pf xf alpha index T) by lia. f_equal. apply DS in Dp. unfold RSDecProofs.fdif. rewrite G2 by auto.
          rewrite fadd_assoc, fadd_self. ring.
        - apply (lsum_perm F). apply NoDup_Permutation. { apply supp_NoDup. } { auto. } intros p. rewrite in_supp. split. { intros [Hp Dp]. apply DS; auto. } intros Hp. split; auto. apply DS; auto. }
      rewrite GS in W. symmetry in W. rewrite fadd_comm in W.
      assert (Q : psum (map (pw F al) lc) e q + (psum (map (pw F al) lc) e q + eval F y' (pw F al q)) = 0). { rewrite W. apply fadd_self. }
      rewrite fadd_assoc, fadd_self, fadd_0 in Q. auto. }
    exists true, y'. eexists. split; [reflexivity|]. split; [constructor; auto|]. split; auto. split; [discriminate|]. split.
    + intros c Lc Hc HD. split; auto. rewrite (rs_hdist_supp F n al pf xf alpha index T N) in HD by auto.
      apply (rs_unique F n al pf xf alpha index T t N); auto. 2:{ intros q Hq. rewrite CW, Hc by auto. auto. }
      apply (Nat.le_trans _ (length (supp F (fdif y y') N ++ supp F (fdif y c) N))). 2:{ rewrite app_length. lia. }
      apply NoDup_incl_length. { apply supp_NoDup. } intros p Hp. apply in_supp in Hp. destruct Hp as [Hp Dp]. apply fdif_n0 in Dp. apply in_app_iff. rewrite !in_supp, !fdif_n0.
      destruct (fdec F (nth p y 0) (nth p y' 0)) as [Ep|]; auto. right. split; auto. rewrite Ep. auto.
    + intros _. split; auto. rewrite (rs_hdist_supp F n al pf xf alpha index T N) by auto. auto.
  - exists false, y. eexists. split; [reflexivity|]. split; [constructor; auto|]. split; auto. split; auto. split; [|discriminate].
    intros c Lc Hc HD. exfalso. rewrite (rs_hdist_supp F n al pf xf alpha index T N) in HD by auto. destruct (found F n al pf xf alpha index T t S sg lu (fdif y c) N RK MN HN (SD c Lc Hc) HD) as (H1 & H2 & H3). contradiction.
Qed.
End Dec.
