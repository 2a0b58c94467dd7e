(** The standard BCH decoder. *)
From Coq Require Import List Arith NArith ZArith Lia Bool Permutation.
From Verif Require Import Base Copy GField BMTheory GaloisModel GFTab BCHModel BCHSpec BCHEncProofs BCHCode BMProofs LocProofs.
Import ListNotations.

Record mem_ok (n t : nat) (w : bch_mem) : Prop := { mk_elp : shape n (b_elp w); mk_disc : length (b_disc w) = n + 2; mk_l : length (b_l w) = n + 2; mk_ulu : length (b_ulu w) = n + 2;
  mk_s : length (b_s w) = S (2 * t); mk_loc : length (b_loc w) = S t; mk_reg : length (b_reg w) = S t }.

Lemma mem_init_ok : forall n t, mem_ok n t (bch_mem_init t n).
Proof.
  intros n t. unfold bch_mem_init. constructor; cbn; rewrite ?repeat_length; try lia. split. { apply repeat_length. }
  intros i Hi. rewrite (nth_indep _ _ (repeat 0%Z n)) by (rewrite repeat_length; auto). rewrite nth_repeat. apply repeat_length.
Qed.

Section Dif.
Variables (F : field) (N : nat).
Notation "0" := (f0 F).
Infix "+" := (fadd F).
Infix "*" := (fmul F).
Add Ring Fring10 : (Frt F).
Notation wv := (wv F). Notation bt := (bt F).
(** The difference of two words. *)
Definition dif (y c : list Z) (j : nat) : F := bt (nth j y 0%Z) + bt (nth j c 0%Z).
Lemma wv_dif : forall y c x, length y = N -> length c = N -> wv y x = wv c x + gsum F N (fun j => dif y c j * pw F x j).
Proof.
  intros y c x Ly Lc. unfold BCHEncProofs.wv. rewrite Ly, Lc, <- gsum_add. apply gsum_ext. intros j Hj. unfold dif.
  transitivity (bt (nth j y 0%Z) * pw F x j + (bt (nth j c 0%Z) * pw F x j + bt (nth j c 0%Z) * pw F x j)); [|ring]. rewrite fadd_self. ring.
Qed.
Lemma dif_n0 : forall y c j, length y = N -> length c = N -> bits y -> bits c -> j < N -> (dif y c j <> 0 <-> nth j y 0%Z <> nth j c 0%Z).
Proof.
  intros y c j Ly Lc By Bc Hj. unfold dif. destruct (proj1 (bits_nth y) By j ltac:(lia)) as [-> | ->]; destruct (proj1 (bits_nth c) Bc j ltac:(lia)) as [-> | ->]; unfold BCHEncProofs.bt; cbn;
    rewrite ?fadd_self, ?fadd_0, ?fadd_0r; split; intros; try congruence; try apply f10; auto; intros C; discriminate.
Qed.
Lemma hdist_supp : forall y c, length y = N -> length c = N -> bits y -> bits c -> hdist y c = length (supp F (dif y c) N).
Proof.
  intros y c Ly Lc By Bc. 
  assert (G : forall k (a b : list Z) f, length a = length b -> (forall j, j < length a -> f (k + j)%nat = if (nth j a 0 =? nth j b 0)%Z then false else true) -> hdist a b = length (filter f (seq k (length a)))).
  { clear. intros k a. revert k. induction a as [|x a IH]; destruct b as [|z b]; cbn [length hdist]; intros f HL Hf; try lia; auto. cbn [seq filter].
    pose proof (Hf 0%nat ltac:(lia)) as H0. rewrite Nat.add_0_r in H0. cbn [nth] in H0. rewrite H0. specialize (IH (Datatypes.S k) b f). destruct (Z.eqb_spec x z); cbn [length Nat.add].
    - apply IH. { lia. } intros j Hj. replace (Datatypes.S k + j)%nat with (k + Datatypes.S j)%nat by lia. rewrite Hf by lia. auto.
    - f_equal. apply IH. { lia. } intros j Hj. replace (Datatypes.S k + j)%nat with (k + Datatypes.S j)%nat by lia. rewrite Hf by lia. auto. }
  unfold supp. rewrite <- Ly. apply G; [lia|]. intros j Hj. cbn [Nat.add]. pose proof (dif_n0 y c j Ly Lc By Bc ltac:(lia)) as D. pose proof (is0_spec F (dif y c j)).
  destruct (Z.eqb_spec (nth j y 0%Z) (nth j c 0%Z)); destruct (is0 F (dif y c j)); cbn; auto.
  - exfalso. assert (dif y c j <> 0) by (intros C; apply H in C; discriminate). tauto.
  - exfalso. match goal with X : nth _ _ _ <> _ |- _ => apply D in X; apply X end. tauto.
Qed.

End Dif.

Section Dec.
Variables (F : field) (n : nat) (al : F) (pf xf : F -> Z) (alpha index : list Z).
Hypothesis T : tabs F n al pf xf alpha index.
Notation "0" := (f0 F).
Notation "1" := (f1 F).
Infix "+" := (fadd F).
Infix "*" := (fmul F).
Notation "/ x" := (finv F x).
Add Ring Fring9 : (Frt F).
Notation row_ok := (row_ok F). Notation minimal := (minimal F). Notation rt := (rt F). Notation psum := (psum F).
Notation wv := (wv F). Notation bt := (bt F). Notation locs := (locs F n al). Notation rts := (rts F al).
Notation dif := (dif F).

Variables (t N : nat).
Hypothesis Ht : 1 <= t.
Hypothesis Htn : 2 * t < n.
Hypothesis HN : N <= n.
Hypothesis Hint : (Z.of_nat (2 * t) * Z.of_nat N < 2 ^ 31)%Z.

(** ** Syndromes *)
Lemma syndromes_ok : forall y s, length y = N -> bits y -> length s = Datatypes.S (2 * t) ->
  exists s' b, bch_syndromes t N n alpha index y s = Ret (s', b) /\ length s' = Datatypes.S (2 * t) /\
    (forall k, 1 <= k <= 2 * t -> nth k s' 0%Z = xf (wv y (pw F al k))) /\ (b = false <-> forall k, 1 <= k <= 2 * t -> wv y (pw F al k) = 0).
Proof.
  intros y s Ly By Ls. unfold bch_syndromes.
  match goal with |- context [for_from 1 ?c ?body ?s0] => destruct (for_from_inv _ (fun k (st : list Z * bool) => let '(s', b) := st in length s' = Datatypes.S (2 * t) /\
    (forall i, 1 <= i < k -> nth i s' 0%Z = xf (wv y (pw F al i))) /\ (b = false <-> forall i, 1 <= i < k -> wv y (pw F al i) = 0)) c 1 body s0) as ((s' & b) & E & A1 & A2 & A3) end.
  - split; auto. split. { intros; lia. } split; auto. intros; lia.
  - intros i (s1 & b1) Hi (A1 & A2 & A3). cbn beta iota. rewrite wr_ok by lia. cbn [bind].
    match goal with |- context [for_ N ?body ?s0] => destruct (for_inv _ (fun k s2 => length s2 = Datatypes.S (2 * t) /\ (forall q, q <> i -> nth q s2 0%Z = nth q s1 0%Z) /\
      nth i s2 0%Z = pf (gsum F k (fun j => bt (nth j y 0%Z) * pw F (pw F al i) j))) N body s0) as (s2 & E2 & B1 & B2 & B3) end.
    + rewrite length_upd. split; auto. split. { intros q Hq. rewrite nth_upd_neq by lia. auto. } rewrite nth_upd_eq by lia. symmetry. apply (tb_pf_0 _ _ _ _ _ _ _ T).
    + intros k s2 Hk (B1 & B2 & B3). cbn beta. rewrite (rd_ok _ 0%Z) by lia. cbn [bind]. pose proof (proj1 (bits_nth y) By k ltac:(lia)) as Bk. cbn [gsum].
      destruct (Z.eqb_spec (nth k y 0%Z) 0%Z) as [E|E].
      * eexists. split; [reflexivity|]. split; auto. split; auto. rewrite B3. f_equal. rewrite E. unfold BCHEncProofs.bt. cbn. ring.
      * destruct Bk as [|E1]; [contradiction|]. rewrite E1. unfold BCHEncProofs.bt at 2. cbn [Z.eqb].
        destruct (Z.leb_spec (2 ^ 31) (Z.of_nat i * Z.of_nat k)). { exfalso. nia. }
        rewrite <- Nat2Z.inj_mul, (tb_rd_mod _ _ _ _ _ _ _ T). cbn [bind]. rewrite (rd_ok _ 0%Z) by lia. cbn [bind]. rewrite wr_ok by lia.
        eexists. split; [reflexivity|]. rewrite length_upd. split; auto. split. { intros q Hq. rewrite nth_upd_neq by lia. auto. }
        rewrite nth_upd_eq by lia. rewrite B3, (tb_pf_add _ _ _ _ _ _ _ T). f_equal. rewrite pw_mul. ring.
    + rewrite E2. cbn [bind]. rewrite (rd_ok _ 0%Z) by lia. cbn [bind]. assert (W : nth i s2 0%Z = pf (wv y (pw F al i))) by (unfold BCHEncProofs.wv; rewrite Ly; auto).
      rewrite W, (tb_rd_index _ _ _ _ _ _ _ T). cbn [bind]. rewrite wr_ok by lia. cbn [bind]. eexists. split; [reflexivity|]. cbn beta iota. rewrite length_upd. split; auto. split.
      * intros q Hq. rewrite nth_upd by lia. destruct (Nat.eqb_spec q i). { subst. auto. } rewrite B2 by auto. apply A2. lia.
      * pose proof (tb_pf_eq0 _ _ _ _ _ _ _ T (wv y (pw F al i))). destruct (Z.eqb_spec (pf (wv y (pw F al i))) 0%Z) as [E3|E3].
        { rewrite A3. split; intros HH q Hq. { destruct (Nat.eq_dec q i) as [->|]. { tauto. } apply HH. lia. } apply HH. lia. }
        { split; [discriminate|]. intros HH. exfalso. apply E3. apply H. apply HH. lia. }
  - rewrite E. exists s', b. split; auto. split; auto. split; [intros; apply A2; lia|]. rewrite A3. split; intros HH q Hq; apply HH; lia.
Qed.

(** ** Chien search *)
Lemma chien_inner : forall (sg : nat -> F) lu i reg, lu <= t -> length reg = Datatypes.S t -> sg 0%nat = 1 -> (forall j, 1 <= j <= lu -> nth j reg 0%Z = xf (sg j * pw F al (i * j))) ->
  exists reg', for_from 1 lu (fun j '(reg, q) =>
       r <- rd reg j ;;
       if (r =? -1)%Z then Ret (reg, q)
       else let r := Z.rem (r + Z.of_nat j) (Z.of_nat n) in
            reg <- wr reg j r ;; a <- rdz alpha r ;; Ret (reg, Z.lxor q a)) (reg, 1%Z) = Ret (reg', pf (rt sg lu (pw F al (Datatypes.S i)))) /\
    length reg' = Datatypes.S t /\ forall j, 1 <= j <= lu -> nth j reg' 0%Z = xf (sg j * pw F al (Datatypes.S i * j)).
Proof.
  intros sg lu i reg Hl Lr H0 HR.
  match goal with |- context [for_from 1 ?c ?body ?s0] => destruct (for_from_inv _ (fun k (st : list Z * Z) => let '(r, q) := st in length r = Datatypes.S t /\
    q = pf (gsum F k (fun j => sg j * pw F (pw F al (Datatypes.S i)) j)) /\
    forall j, 1 <= j <= lu -> nth j r 0%Z = xf (sg j * pw F al ((if j <? k then Datatypes.S i else i) * j))) c 1 body s0) as ((reg' & q) & E & A1 & A2 & A3) end.
  - split; auto. split. { cbn [gsum pw]. rewrite H0. rewrite <- (tb_pf_1 _ _ _ _ _ _ _ T). f_equal. ring. }
    intros j Hj. destruct (Nat.ltb_spec j 1); [lia|]. auto.
  - intros k (r & q) Hk (A1 & A2 & A3). cbn beta iota zeta. rewrite (rd_ok _ 0%Z) by lia. cbn [bind]. rewrite A3 by lia. rewrite Nat.ltb_irrefl.
    destruct (Z.eqb_spec (xf (sg k * pw F al (i * k))) (-1)) as [Ez|Ez].
    + apply (tb_xf_eq _ _ _ _ _ _ _ T) in Ez. assert (sg k = 0). { destruct (fmul_eq0 F _ _ Ez); auto. exfalso. revert H. apply (al_n0 F n al pf xf alpha index T). }
      eexists. split; [reflexivity|]. cbn beta iota. split; auto. split. { cbn [gsum]. rewrite H, A2. f_equal. ring. }
      intros j Hj. rewrite A3 by auto. destruct (Nat.eq_dec j k) as [->|]. { rewrite H. f_equal. ring. } f_equal. f_equal. f_equal. f_equal. destruct (Nat.ltb_spec j k); destruct (Nat.ltb_spec j (Datatypes.S k)); auto; lia.
    + assert (Nz : sg k * pw F al (i * k) <> 0) by (intros C; apply Ez; rewrite C; apply (tb_xf_0 _ _ _ _ _ _ _ T)).
      rewrite (tb_xf_shift _ _ _ _ _ _ _ T) by auto. rewrite wr_ok by lia. cbn [bind].
      assert (Nz2 : sg k * pw F al (i * k) * pw F al k <> 0) by (apply fmul_n0; auto; apply (al_n0 F n al pf xf alpha index T)).
      rewrite (tb_rd_xf _ _ _ _ _ _ _ T) by auto. cbn [bind]. eexists. split; [reflexivity|]. cbn beta iota. rewrite length_upd. split; auto.
      assert (EE : sg k * pw F al (i * k) * pw F al k = sg k * pw F al (Datatypes.S i * k)) by (cbn [Nat.mul]; rewrite pw_add; ring).
      split. { rewrite A2, (tb_pf_add _ _ _ _ _ _ _ T). f_equal. cbn [gsum]. f_equal. rewrite EE. f_equal. apply pw_mul. }
      intros j Hj. rewrite nth_upd by lia. destruct (Nat.eqb_spec j k). { subst. destruct (Nat.ltb_spec k (Datatypes.S k)); [|lia]. f_equal. exact EE. }
      rewrite A3 by auto. f_equal. f_equal. f_equal. f_equal. destruct (Nat.ltb_spec j k); destruct (Nat.ltb_spec j (Datatypes.S k)); auto; lia.
  - exists reg'. split. { rewrite E, A2. f_equal. }
    split; auto. intros j Hj. rewrite A3 by auto. destruct (Nat.ltb_spec j (1 + lu)%nat); auto. lia.
Qed.

Lemma chien_ok : forall sg lu reg loc, lu <= t -> length reg = Datatypes.S t -> length loc = Datatypes.S t -> sg 0%nat = 1 -> (forall j, 1 <= j <= lu -> nth j reg 0%Z = xf (sg j)) ->
  exists reg' loc', bch_chien n alpha lu reg loc = Ret (reg', loc', length (locs sg lu)) /\ length reg' = Datatypes.S t /\ length loc' = Datatypes.S t /\
    forall i, i < length (locs sg lu) -> nth i loc' 0%nat = nth i (locs sg lu) 0%nat.
Proof.
  intros sg lu reg loc Hl Lr Lc H0 HR. unfold bch_chien.
  match goal with |- context [for_from 1 ?c ?body ?s0] => destruct (for_from_inv _ (fun k (st : list Z * list nat * nat) => let '(r, lc, ct) := st in length r = Datatypes.S t /\ length lc = Datatypes.S t /\
    (forall j, 1 <= j <= lu -> nth j r 0%Z = xf (sg j * pw F al ((k - 1) * j))) /\ ct = length (rts sg lu 1 (k - 1)) /\
    forall i, i < ct -> nth i lc 0%nat = nth i (map (fun i => n - i)%nat (rts sg lu 1 (k - 1))) 0%nat) c 1 body s0) as (((reg' & loc') & ct) & E & A1 & A2 & A3 & A4 & A5) end.
  - repeat split; auto. { intros j Hj. rewrite HR by auto. f_equal. cbn. ring. } cbn. intros; lia.
  - intros k ((r & lc) & ct) Hk (A1 & A2 & A3 & A4 & A5). cbn beta iota.
    destruct (chien_inner sg lu (k - 1) r) as (r' & EI & B1 & B2); auto.
    match goal with |- context [for_from 1 lu ?b ?s0] => replace (for_from 1 lu b s0) with (Ret (r', pf (rt sg lu (pw F al (Datatypes.S (k - 1)))))) by (symmetry; exact EI) end. cbn [bind]. replace (Datatypes.S (k - 1)) with k in * by lia.
    pose proof (rts_S F al sg lu 1 (k - 1)) as RS. replace (1 + (k - 1))%nat with k in RS by lia. replace (Datatypes.S (k - 1)) with k in RS by lia.
    replace (Datatypes.S k - 1)%nat with k by lia.
    pose proof (tb_pf_eq0 _ _ _ _ _ _ _ T (rt sg lu (pw F al k))) as PE. pose proof (is0_spec F (rt sg lu (pw F al k))) as IE.
    destruct (Z.eqb_spec (pf (rt sg lu (pw F al k))) 0%Z) as [Ez|Ez].
    + replace (is0 F (rt sg lu (pw F al k))) with true in RS by (symmetry; tauto).
      assert (LE : length (rts sg lu 1 k) <= lu) by (apply (rts_le F n al pf xf alpha index T); auto; lia). rewrite RS, app_length in LE. cbn [length] in LE.
      rewrite A2. destruct (Nat.ltb_spec ct (Datatypes.S t)); [|lia]. cbn [guard bind]. rewrite wr_ok by lia. cbn [bind]. eexists. split; [reflexivity|]. cbn beta iota. rewrite length_upd.
      split; auto. split; auto. split; auto. split. { rewrite RS, app_length. cbn [length]. lia. }
      intros i Hi. rewrite nth_upd by lia. rewrite RS, map_app. cbn [map]. destruct (Nat.eqb_spec i ct).
      * subst i. rewrite app_nth2 by (rewrite map_length; lia). rewrite map_length, A4, Nat.sub_diag. auto.
      * rewrite app_nth1 by (rewrite map_length; lia). apply A5. lia.
    + replace (is0 F (rt sg lu (pw F al k))) with false in RS by (symmetry; apply not_true_iff_false; tauto). rewrite app_nil_r in RS.
      eexists. split; [reflexivity|]. cbn beta iota. split; auto. split; auto. split; auto. rewrite RS. auto.
  - replace (1 + n - 1)%nat with n in * by lia. exists reg', loc'. unfold LocProofs.locs at 1 2. rewrite map_length. split. { rewrite E, A4. auto. } split; auto. split; auto. intros i Hi. apply A5. lia.
Qed.

(** ** Correction *)
Lemma flip_ok : forall lc loc y, NoDup lc -> length lc <= length loc -> (forall i, i < length lc -> nth i loc 0%nat = nth i lc 0%nat) -> length y = N ->
  exists y', for_ (length lc) (fun i y => p <- rd loc i ;; if p <? N then b <- rd y p ;; wr y p (Z.lxor b 1) else Ret y) y = Ret y' /\ length y' = N /\
    (forall p, p < N -> In p lc -> nth p y' 0%Z = Z.lxor (nth p y 0%Z) 1) /\ (forall p, ~ In p lc -> nth p y' 0%Z = nth p y 0%Z).
Proof.
  intros lc loc y ND Ll HL Ly.
  match goal with |- context [for_ ?c ?body ?s0] => destruct (for_inv _ (fun k y' => length y' = N /\
    (forall p, p < N -> In p (firstn k lc) -> nth p y' 0%Z = Z.lxor (nth p y 0%Z) 1) /\ (forall p, ~ In p (firstn k lc) -> nth p y' 0%Z = nth p y 0%Z)) c body s0) as (y' & E & A1 & A2 & A3) end.
  - split; auto. split; auto. cbn. intros; contradiction.
  - intros k y1 Hk (A1 & A2 & A3). cbn beta. rewrite (rd_ok _ 0%nat) by lia. cbn [bind]. rewrite HL by auto.
    assert (FS : firstn (Datatypes.S k) lc = firstn k lc ++ [nth k lc 0%nat]).
    { clear -Hk. revert k Hk. induction lc; intros k Hk; cbn [length] in Hk; [lia|]. destruct k; auto. cbn [firstn nth]. rewrite <- app_comm_cons. f_equal. apply IHlc. lia. }
    assert (NI : ~ In (nth k lc 0%nat) (firstn k lc)).
    { intros C. apply (In_nth _ _ 0%nat) in C. destruct C as (i & Hi & Ei). rewrite firstn_length in Hi. rewrite firstn_nth in Ei by lia. apply (proj1 (NoDup_nth lc 0%nat)) in Ei; auto; lia. }
    destruct (Nat.ltb_spec (nth k lc 0%nat) N).
    + rewrite (rd_ok _ 0%Z) by lia. cbn [bind]. rewrite wr_ok by lia. eexists. split; [reflexivity|]. rewrite length_upd. split; auto. rewrite FS. split.
      * intros p Hp Hi. rewrite nth_upd by lia. destruct (Nat.eqb_spec p (nth k lc 0%nat)). { subst p. rewrite A3 by auto. auto. } apply A2; auto. apply in_app_iff in Hi. destruct Hi as [|[|[]]]; auto. congruence.
      * intros p Hi. rewrite in_app_iff in Hi. rewrite nth_upd_neq. { apply A3. tauto. } intros C. apply Hi. right. left. auto.
    + eexists. split; [reflexivity|]. split; auto. rewrite FS. split.
      * intros p Hp Hi. apply A2; auto. apply in_app_iff in Hi. destruct Hi as [|[|[]]]; auto. subst. lia.
      * intros p Hi. apply A3. intros C. apply Hi. apply in_app_iff. auto.
  - exists y'. rewrite firstn_all in *. auto.
Qed.

Lemma square_inj : forall a b : F, a * a = b * b -> a = b.
Proof. intros a b H. apply fadd_cancel. assert (E : (a + b) * (a + b) = 0). { rewrite fsq_add. apply fadd_eq0. auto. } destruct (fmul_eq0 F _ _ E); auto. Qed.
Lemma lsum_sq : forall A (l : list A) f, lsum F l f * lsum F l f = lsum F l (fun x => f x * f x).
Proof. induction l; intros; cbn [lsum]; [ring|]. rewrite fsq_add, IHl. auto. Qed.

Lemma lsum_perm : forall A (l l' : list A) f, Permutation l l' -> lsum F l f = lsum F l' f.
Proof. intros A l l' f P. induction P; cbn [lsum]; auto. - rewrite IHP. auto. - ring. - congruence. Qed.

(** The values of the errors are 1. *)
Lemma values_1 : forall y E (e : F -> F), NoDup E -> (forall p, In p E -> p < n) -> length E <= t -> (forall k, 1 <= k <= 2 * t -> wv y (pw F al k) = psum (map (pw F al) E) e k) ->
  (forall p, In p E -> e (pw F al p) <> 0) -> forall p, In p E -> e (pw F al p) = 1.
Proof.
  intros y E e ND HE HL HS Hn p Hp. set (L := map (pw F al) E) in *.
  set (sq := fun x : F => x * x). set (inv := fun z => match find (fun x => if fdec F (sq x) z then true else false) L with Some x => x | None => z end).
  assert (INV : forall x, In x L -> inv (sq x) = x).
  { intros x Hx. unfold inv. destruct (find _ L) as [w|] eqn:Ef.
    - apply find_some in Ef. destruct Ef as [_ Ef]. destruct (fdec F (sq w) (sq x)) as [E1|]; [|discriminate]. apply square_inj in E1. auto.
    - exfalso. pose proof (find_none _ _ Ef x Hx) as C. cbn beta in C. destruct (fdec F (sq x) (sq x)); [discriminate|contradiction]. }
  assert (NL : NoDup L) by (apply (NoDup_pw F n al pf xf alpha index T); auto).
  assert (SQI : forall l, NoDup l -> NoDup (map sq l)).
  { intros l N1. induction N1; cbn [map]; constructor; auto. intros C. apply in_map_iff in C. destruct C as (z & Ez & Hz). apply square_inj in Ez. subst. auto. }
  assert (L0 : forall x, In x L -> x <> 0). { intros x Hx. apply in_map_iff in Hx. destruct Hx as (j & <- & _). apply (al_n0 F n al pf xf alpha index T). }
  assert (Z : forall z, In z (map sq L) -> (fun z => e (inv z) + e (inv z) * e (inv z)) z = 0).
  { apply (vandermonde F).
    - apply SQI. auto.
    - intros C. apply in_map_iff in C. destruct C as (x & E0 & Hx). apply (fmul_n0 F x x); auto.
    - intros k Hk. rewrite map_length in Hk. assert (length L = length E) by (unfold L; apply map_length). rewrite lsum_map.
      transitivity (lsum F L (fun x => e x * pw F x (k + k)) + lsum F L (fun x => e x * pw F x k) * lsum F L (fun x => e x * pw F x k)).
      { rewrite lsum_sq, <- lsum_add. apply lsum_ext. intros x Hx. rewrite INV by auto. unfold sq. rewrite pw_mulb, pw_add. ring. }
      pose proof (HS k ltac:(lia)) as S1. pose proof (HS (k + k)%nat ltac:(lia)) as S2. unfold BMTheory.psum in S1, S2. fold L in S1, S2. rewrite <- S1, <- S2. apply fadd_eq0.
      unfold BCHEncProofs.wv. rewrite gsum_sq. apply gsum_ext. intros j Hj. rewrite (pw_swap F al j (k + k)), (pw_swap F al j k), pw_add.
      assert (bt (nth j y 0%Z) * bt (nth j y 0%Z) = bt (nth j y 0%Z)) as BB by (unfold BCHEncProofs.bt; destruct (_ =? _)%Z; ring). rewrite <- BB at 1. ring. }
  specialize (Z (sq (pw F al p))). cbn beta in Z. rewrite INV in Z by (apply in_map; auto). 
  assert (Q : e (pw F al p) * e (pw F al p) = e (pw F al p)). { symmetry. apply fadd_cancel. apply Z. apply in_map. apply in_map. auto. }
  destruct (sq_idem F _ Q) as [C|C]; auto. exfalso. apply (Hn p Hp). auto.
Qed.

Lemma decode_ok : forall y w, length y = N -> bits y -> mem_ok n t w ->
  exists ok y' w', bch_decode t N n alpha index y w = Ret (ok, ok, y', w') /\ mem_ok n t w' /\ length y' = N /\ bits y' /\
    (ok = false -> y' = y) /\
    (forall c, length c = N -> bits c -> (forall k, 1 <= k <= 2 * t -> wv c (pw F al k) = 0) -> hdist y c <= t -> ok = true /\ y' = c) /\
    (ok = true -> N = n -> (forall k, 1 <= k <= 2 * t -> wv y' (pw F al k) = 0) /\ hdist y y' <= t).
Proof.
  intros y w Ly By MK. destruct MK. unfold bch_decode. destruct (syndromes_ok y (b_s w) Ly By mk_s0) as (s & b & E & Ls & HS & HB). rewrite E. cbn [bind].
  set (S := fun k => wv y (pw F al k)) in *.
  assert (SD : forall c, length c = N -> (forall k, 1 <= k <= 2 * t -> wv c (pw F al k) = 0) -> forall k, 1 <= k <= 2 * t -> S k = gsum F N (fun j => dif y c j * pw F (pw F al k) j)).
  { intros c Lc Hc k Hk. unfold S. rewrite (wv_dif F N y c) by auto. rewrite Hc by auto. ring. }
  destruct b.
  2:{ assert (S0 : forall k, 1 <= k <= 2 * t -> wv y (pw F al k) = 0) by (apply HB; auto). exists true, y. eexists. split; [reflexivity|]. split; [constructor; auto|]. split; auto. split; auto. split; auto. split.
      - intros c Lc Bc Hc HD. split; auto. rewrite (hdist_supp F N) in HD by auto.
        assert (MN : forall j, j < N -> dif y c j = 0).
        { intros j Hj. destruct (fdec F (dif y c j) 0) as [|C]; auto. exfalso. destruct (supp_facts F n al pf xf alpha index T (dif y c) N HN) as (F1 & F2 & F3 & F4).
          assert (V : forall x, In x (map (pw F al) (supp F (dif y c) N)) -> (fun x => dif y c (lg F xf x)) x = 0).
          { apply (vandermonde F); auto. rewrite map_length. intros k Hk. rewrite <- (S0 k) by lia. symmetry. change (wv y (pw F al k)) with (S k). rewrite (SD c Lc Hc k) by lia. apply (supp_psum F n al pf xf alpha index T). auto. }
          apply (F3 (pw F al j)). { apply in_map. apply in_supp. auto. } apply V. apply in_map. apply in_supp. auto. }
        apply (nth_ext _ _ 0%Z 0%Z); [lia|]. intros j Hj. destruct (Z.eq_dec (nth j y 0%Z) (nth j c 0%Z)); auto. exfalso. apply (dif_n0 F N y c j Ly Lc By Bc ltac:(lia)); auto. apply MN. lia.
      - intros _ _. split; auto. clear. induction y; cbn [hdist]; try lia. rewrite Z.eqb_refl. auto. }
  destruct (bm_ok F n al pf xf alpha index T t s S Ht Htn Ls HS (b_elp w) (b_disc w) (b_l w) (b_ulu w)) as
    (e0 & d0 & l0 & u0 & v & elp & disc & l & ulu & lu & E1 & E2 & S2 & D2 & L2 & U2 & V2 & LU & OK & BAD); auto.
  rewrite E1. cbn [bind]. rewrite E2. cbn [bind]. rewrite (rd_ok _ 0%nat) by lia. cbn [bind]. rewrite LU. clear E1 E2.
  destruct (Nat.leb_spec lu t) as [Hlu|Hlu].
  2:{ exists false, y. eexists. split; [reflexivity|]. split; [constructor; auto|]. split; auto. split; auto. split; auto. split; [|intros; discriminate].
      intros c Lc Bc Hc HD. exfalso. rewrite (hdist_supp F N) in HD by auto. pose proof (not_found F n al pf xf alpha index T t S lu (dif y c) N (BAD Hlu) HN (SD c Lc Hc)). lia. }
  destruct (OK Hlu) as (sg & RK & MN & GE). pose proof RK as (R0 & R1 & _).
  match goal with |- context [for_ ?c ?body ?s0] => match s0 with elp => destruct (for_inv _ (fun k e => shape n e /\ (forall i, i < k -> get2 e (v + 1) i = xf (sg i)) /\ (forall i, k <= i -> get2 e (v + 1) i = get2 elp (v + 1) i)) c body s0) as (e1 & E1 & A1 & A2 & A3) end end.
  { split; auto. split; auto. intros; lia. }
  { intros k e Hk (A1 & A2 & A3). cbn beta. rewrite (rd2_ok n) by (auto; lia). cbn [bind]. rewrite A3, GE by lia. rewrite (tb_rd_index _ _ _ _ _ _ _ T). cbn [bind].
    destruct (wr2_ok n e (v + 1) k (xf (sg k)) A1 ltac:(lia) ltac:(lia)) as (e' & -> & S' & G'). eexists. split; [reflexivity|]. split; auto. split; intros i Hi; rewrite G', Nat.eqb_refl; cbn [andb].
    - destruct (Nat.eqb_spec i k); [subst; auto|]. apply A2. lia.
    - destruct (Nat.eqb_spec i k); [lia|]. apply A3. lia. }
  rewrite E1. cbn [bind].
  match goal with |- context [for_from 1 lu ?body ?s0] => destruct (for_from_inv _ (fun k r => length r = Datatypes.S t /\ forall i, 1 <= i < k -> nth i r 0%Z = xf (sg i)) lu 1 body s0) as (reg & E2 & B1 & B2) end.
  { split; auto. intros; lia. }
  { intros k r Hk (B1 & B2). cbn beta. rewrite (rd2_ok n) by (auto; lia). cbn [bind]. rewrite A2 by lia. rewrite wr_ok by lia. eexists. split; [reflexivity|]. rewrite length_upd. split; auto.
    intros i Hi. rewrite nth_upd by lia. destruct (Nat.eqb_spec i k); [subst; auto|]. apply B2. lia. }
  rewrite E2. cbn [bind].
  destruct (chien_ok sg lu reg (b_loc w)) as (reg' & loc & E3 & C1 & C2 & C3); auto. { intros j Hj. apply B2. lia. }
  rewrite E3. cbn [bind].
  set (lc := locs sg lu) in *.
  assert (ND : NoDup lc) by (apply (locs_NoDup F n al)).
  assert (Hln : forall p, In p lc -> p < n) by (intros p Hp; apply (in_locs F n al pf xf alpha index T) in Hp; tauto).
  assert (LT : length lc <= t). { unfold lc, LocProofs.locs. rewrite map_length. apply (Nat.le_trans _ lu); auto. apply (rts_le F n al pf xf alpha index T); auto. }
  destruct (Nat.eqb_spec (length lc) lu) as [EL|EL].
  - destruct (flip_ok lc loc y) as (y' & E4 & G1 & G2 & G3); auto; try lia. rewrite EL in E4. rewrite E4. cbn [bind].
    assert (By' : bits y'). { apply bits_nth. intros j Hj. pose proof (proj1 (bits_nth y) By j ltac:(lia)) as Bj. destruct (in_dec Nat.eq_dec j lc). { rewrite G2 by (auto; lia). destruct Bj as [-> | ->]; unfold bitZ; cbn; auto. } rewrite G3; auto. }
    exists true, y'. eexists. split; [reflexivity|]. split; [constructor; auto|]. split; auto. split; auto. split; [discriminate|]. split.
    + intros c Lc Bc Hc HD. split; auto. rewrite (hdist_supp F N) in HD by auto. destruct (found F n al pf xf alpha index T t S sg lu (dif y c) N RK MN HN (SD c Lc Hc) HD) as (H1 & H2 & H3). fold lc in H2.
      apply (nth_ext _ _ 0%Z 0%Z); [lia|]. intros j Hj. rewrite G1 in Hj. pose proof (dif_n0 F N y c j Ly Lc By Bc Hj) as Dj. pose proof (in_supp F (dif y c) N j) as SJ.
      destruct (in_dec Nat.eq_dec j lc) as [I|I].
      * rewrite G2 by auto. apply H2, SJ in I. destruct I as [_ I]. apply Dj in I. destruct (proj1 (bits_nth y) By j ltac:(lia)) as [Ea | Ea]; destruct (proj1 (bits_nth c) Bc j ltac:(lia)) as [Eb | Eb]; rewrite Ea, Eb in *; auto; exfalso; auto.
      * rewrite G3 by auto. destruct (Z.eq_dec (nth j y 0%Z) (nth j c 0%Z)); auto. exfalso. apply I. apply H2, SJ. split; auto. apply Dj. auto.
    + intros _ Nn. destruct (pattern F n al pf xf alpha index T t S sg lu RK MN EL) as (e & P1 & P2). fold lc in P1, P2.
      assert (ee1 : forall p, In p lc -> e (pw F al p) = 1) by (apply (values_1 y); auto).
      assert (DS : forall p, p < N -> (dif y y' p <> 0 <-> In p lc)).
      { intros p Hp. rewrite (dif_n0 F N y y' p) by auto. destruct (in_dec Nat.eq_dec p lc) as [I|I].
        - rewrite G2 by auto. split; auto. intros _. destruct (proj1 (bits_nth y) By p ltac:(lia)) as [-> | ->]; cbn; lia.
        - rewrite G3 by auto. split; intros X; [exfalso; apply X; auto|contradiction]. }
      split.
      * intros k Hk. pose proof (wv_dif F N y y' (pw F al k) Ly G1) as W. change (wv y (pw F al k)) with (S k) in W. rewrite (P1 k Hk) in W.
        assert (GS : gsum F N (fun j => dif y y' j * pw F (pw F al k) j) = psum (map (pw F al) lc) e k).
        { rewrite (supp_psum F n al pf xf alpha index T) by auto. unfold BMTheory.psum. rewrite !lsum_map.
          transitivity (lsum F (supp F (dif y y') N) (fun x => pw F (pw F al x) k)).
          - apply lsum_ext. intros p Hp. apply in_supp in Hp. destruct Hp as [Hp Dp]. rewrite (lg_pw F n al pf xf alpha index T) by lia.
            assert (D1 : dif y y' p = 1). { revert Dp. unfold dif. destruct (proj1 (bits_nth y) By p ltac:(lia)) as [-> | ->]; destruct (proj1 (bits_nth y') By' p ltac:(lia)) as [-> | ->]; unfold BCHEncProofs.bt; cbn; rewrite ?fadd_self, ?fadd_0, ?fadd_0r; tauto. }
            rewrite D1. ring.
          - transitivity (lsum F lc (fun x => pw F (pw F al x) k)). 2:{ apply lsum_ext. intros p Hp. rewrite ee1 by auto. ring. }
            apply lsum_perm. apply NoDup_Permutation. { apply supp_NoDup. } { auto. } intros p. rewrite in_supp. split. { intros [Hp Dp]. apply DS; auto. } intros Hp. assert (p < N) by (rewrite Nn; auto). split; auto. apply DS; auto. }
        rewrite GS in W. symmetry in W. rewrite fadd_comm in W.
        assert (Q : psum (map (pw F al) lc) e k + (psum (map (pw F al) lc) e k + wv y' (pw F al k)) = 0). { rewrite W. apply fadd_self. }
        rewrite fadd_assoc, fadd_self, fadd_0 in Q. auto.
      * rewrite (hdist_supp F N) by auto. apply (Nat.le_trans _ (length lc)); auto. apply NoDup_incl_length. { apply supp_NoDup. } intros p Hp. apply in_supp in Hp. apply DS; tauto.
  - exists false, y. eexists. split; [reflexivity|]. split; [constructor; auto|]. split; auto. split; auto. split; auto. split; [|intros; discriminate].
    intros c Lc Bc Hc HD. exfalso. rewrite (hdist_supp F N) in HD by auto. destruct (found F n al pf xf alpha index T t S sg lu (dif y c) N RK MN HN (SD c Lc Hc) HD) as (H1 & H2 & H3). contradiction.
Qed.
End Dec.
