(** The generator polynomial and the encoder of BCH codes. *)
From Coq Require Import List Arith NArith ZArith Lia Bool.
From Verif Require Import Base Copy GField BMTheory GaloisModel GaloisProofs GFTab RepModel BCHModel BCHSets.
Import ListNotations.

(* ------------------------------------------------------------------ *)
(** * Monic products *)
Section Mono.
Variable F : field.
Notation "0" := (f0 F).
Notation "1" := (f1 F).
Infix "+" := (fadd F).
Infix "*" := (fmul F).
Add Ring Fring3 : (Frt F).

(** Coefficient of x^j in the product of the (x + z). *)
Fixpoint mp (zs : list F) (j : nat) : F :=
  match zs with
  | [] => delta F j
  | z :: zs => (match j with O => 0 | S j => mp zs j end) + z * mp zs j
  end.
Lemma mp_deg : forall zs j, length zs < j -> mp zs j = 0.
Proof.
  induction zs as [|z zs IH]; intros j H; cbn [mp length] in *. { destruct j; [lia|auto]. }
  destruct j; [lia|]. rewrite !IH by lia. ring.
Qed.
Lemma mp_top : forall zs, mp zs (length zs) = 1.
Proof. induction zs as [|z zs IH]; cbn [mp length]; auto. rewrite IH, mp_deg by lia. ring. Qed.
Lemma mp_0 : forall zs, (forall z, In z zs -> z <> 0) -> mp zs 0%nat <> 0.
Proof.
  induction zs as [|z zs IH]; intros H; cbn [mp]. { apply f10. } rewrite fadd_0. apply fmul_n0. { apply H. cbn; auto. } apply IH. intros. apply H. cbn; auto.
Qed.
Lemma mp_val : forall zs x, rt F (mp zs) (length zs) x = lprod F zs (fun z => x + z).
Proof.
  induction zs as [|z zs IH]; intros x; cbn [lprod length]. { unfold rt. cbn. ring. }
  rewrite <- IH. unfold rt. rewrite gsum_S. cbn [mp pw].
  transitivity ((0 + z * mp zs 0%nat) * 1 + (gsum F (S (length zs)) (fun i => x * (mp zs i * pw F x i)) + gsum F (S (length zs)) (fun i => z * (mp zs (S i) * pw F x (S i))))).
  { f_equal. rewrite <- gsum_add. apply gsum_ext. intros. cbn [pw]. ring. }
  rewrite !gsum_mul.
  assert (E : gsum F (S (length zs)) (fun i => mp zs i * pw F x i) = mp zs 0%nat * 1 + gsum F (S (length zs)) (fun i => mp zs (S i) * pw F x (S i))).
  { rewrite gsum_S. cbn [pw]. f_equal. cbn [gsum]. rewrite (mp_deg zs (S (length zs))) by lia. ring. }
  rewrite E at 2. set (S1 := gsum F (S (length zs)) (fun i => mp zs i * pw F x i)). set (S2 := gsum F (S (length zs)) (fun i => mp zs (S i) * pw F x (S i))).
  ring_simplify. assert (E2 : S1 = mp zs 0%nat * 1 + S2) by exact E. rewrite E2. ring.
Qed.
Lemma mp_root : forall zs z, In z zs -> rt F (mp zs) (length zs) z = 0.
Proof. intros. rewrite mp_val. apply (lprod_0 F zs _ z); auto. apply fadd_self. Qed.

(** When squaring permutes the roots, the coefficients are 0 or 1. *)
Lemma gsum_nth_eval : forall (f : nat -> F) n x, eval F (map f (seq 0 n)) x = gsum F n (fun i => f i * pw F x i).
Proof.
  intros f n x. rewrite eval_gsum, map_length, seq_length. apply gsum_ext. intros i Hi. rewrite (nth_indep _ _ (f 0%nat)) by (rewrite map_length, seq_length; auto).
  rewrite map_nth, seq_nth by auto. auto.
Qed.
Lemma nth_map_seq : forall (f : nat -> F) n i d, i < n -> nth i (map f (seq 0 n)) d = f i.
Proof.
  intros. rewrite (nth_indep _ _ (f 0%nat)) by (rewrite map_length, seq_length; auto). rewrite map_nth, seq_nth by auto. auto.
Qed.
(** Two polynomials of degree < n that agree on n points are equal. *)
Lemma poly_unique : forall (f g : nat -> F) n L, length L = n -> NoDup L ->
  (forall x, In x L -> gsum F n (fun i => f i * pw F x i) = gsum F n (fun i => g i * pw F x i)) -> forall i, i < n -> f i = g i.
Proof.
  intros f g n L HL ND H i Hi. apply fadd_cancel.
  pose proof (roots_zero F n (map (fun i => f i + g i) (seq 0 n)) L) as R. rewrite map_length, seq_length in R.
  rewrite <- (nth_map_seq (fun i => f i + g i) n i 0) by auto. apply R; auto. intros x Hx. rewrite gsum_nth_eval.
  transitivity (gsum F n (fun i => f i * pw F x i) + gsum F n (fun i => g i * pw F x i)). { rewrite <- gsum_add. apply gsum_ext. intros. ring. }
  rewrite H by auto. apply fadd_self.
Qed.
Lemma pw_sq : forall x k, pw F (x * x) k = pw F x k * pw F x k.
Proof. intros. apply pw_mulb. Qed.
Lemma sq_idem : forall c : F, c * c = c -> c = 0 \/ c = 1.
Proof.
  intros c H. destruct (fmul_eq0 F c (c + 1)) as [C|C]; auto. { transitivity (c * c + c); [ring|]. rewrite H. apply fadd_self. }
  right. apply fadd_cancel. auto.
Qed.
Lemma mp_bin : forall zs, NoDup zs -> (forall z, In z zs -> In (z * z) zs) -> forall j, mp zs j = 0 \/ mp zs j = 1.
Proof.
  intros zs ND HS j. apply sq_idem. destruct (le_lt_dec j (length zs)) as [Hj|Hj]. 2:{ rewrite mp_deg by auto. ring. }
  destruct (Nat.eq_dec j (length zs)) as [->|]. { rewrite mp_top. ring. }
  apply (poly_unique (fun i => mp zs i * mp zs i) (mp zs) (length zs) (map (fun z => z * z) zs)); [| | |lia].
  - apply map_length.
  - clear - ND. induction ND; cbn [map]; constructor; auto. intros C. apply in_map_iff in C. destruct C as (y & E & Hy). apply H.
    replace x with y; auto. apply fadd_cancel. destruct (fmul_eq0 F (y + x) (y + x)) as [C|C]; auto.
    transitivity (y * y + x * x). { apply fsq_add. } rewrite E. apply fadd_self.
  - intros x Hx. apply in_map_iff in Hx. destruct Hx as (z & <- & Hz).
    pose proof (mp_root zs z Hz) as R1. pose proof (mp_root zs (z * z) (HS z Hz)) as R2. unfold rt in R1, R2.
    assert (R3 : gsum F (S (length zs)) (fun i => mp zs i * mp zs i * pw F (z * z) i) = 0).
    { transitivity (gsum F (S (length zs)) (fun i => (mp zs i * pw F z i) * (mp zs i * pw F z i))). { apply gsum_ext. intros. rewrite pw_sq. ring. }
      rewrite <- gsum_sq, R1. ring. }
    cbn [gsum] in R2, R3. rewrite mp_top in R2, R3. apply fadd_cancel in R2. apply fadd_cancel in R3. rewrite R2, R3. ring.
Qed.
End Mono.

(* ------------------------------------------------------------------ *)
(** * The generator polynomial *)

Section Gen.
Variables (F : field) (n : nat) (al : F) (pf xf : F -> Z) (alpha index : list Z).
Hypothesis T : tabs F n al pf xf alpha index.
Notation "0" := (f0 F).
Notation "1" := (f1 F).
Infix "+" := (fadd F).
Infix "*" := (fmul F).
Add Ring Fring4 : (Frt F).

Lemma mul_root_ok : forall zeros i R g, 2 <= i -> i < length zeros -> i < length g -> length R = (i - 1)%nat ->
  (forall z, In z R -> z <> 0) -> (forall j, j < i -> nth j g 0%Z = pf (mp F R j)) ->
  exists g', bch_mul_root n alpha index zeros i g = Ret g' /\ length g' = length g /\
    (forall j, j <= i -> nth j g' 0%Z = pf (mp F (pw F al (nth i zeros 0%nat) :: R) j)).
Proof.
  intros zeros i R g Hi Hz Hg HR HN HG. unfold bch_mul_root. rewrite wr_ok by auto. cbn [bind].
  set (z := nth i zeros 0%nat). set (R' := pw F al z :: R).
  assert (P1 : pf 1 = 1%Z) by apply (tb_pf_1 _ _ _ _ _ _ _ T).
  match goal with |- context [for_ (i - 1) ?body ?s0] => destruct (for_inv _ (fun k h => length h = length g /\ nth i h 0%Z = 1%Z /\
     (forall j, j <= i - 1 - k -> nth j h 0%Z = pf (mp F R j)) /\ (forall j, i - 1 - k < j < i -> nth j h 0%Z = pf (mp F R' j))) (i - 1) body s0) as (g1 & E1 & L1 & Ti & J1 & J2) end.
  - rewrite length_upd. split; auto. split. { rewrite nth_upd_eq; auto. } split; intros j Hj; [|lia]. rewrite nth_upd_neq by lia. apply HG. lia.
  - intros k h Hk (L & Ti & J1 & J2). set (j := (i - 1 - k)%nat). rewrite !(rd_ok _ 0%Z) by lia. cbn [bind].
    assert (Hj1 : j = S (j - 1)) by lia.
    assert (NEW : mp F R' j = mp F R (j - 1) + pw F al z * mp F R j). { unfold R'. rewrite Hj1 at 1. cbn [mp]. rewrite <- Hj1. auto. }
    rewrite (J1 j) by lia. rewrite (J1 (j - 1)%nat) by lia.
    assert (G : forall v, v = pf (mp F R' j) -> exists s', wr h j v = Ret s' /\ length s' = length g /\ nth i s' 0%Z = 1%Z /\
      (forall j0, j0 <= i - 1 - S k -> nth j0 s' 0%Z = pf (mp F R j0)) /\ (forall j0, i - 1 - S k < j0 < i -> nth j0 s' 0%Z = pf (mp F R' j0))).
    { intros v ->. rewrite wr_ok by lia. eexists. split; [reflexivity|]. rewrite length_upd. split; auto. split. { rewrite nth_upd_neq by lia. auto. }
      split; intros j0 Hj0. { rewrite nth_upd_neq by lia. apply J1. lia. }
      rewrite nth_upd by lia. destruct (Nat.eqb_spec j0 j) as [->|]; auto. apply J2. lia. }
    destruct (Z.eqb_spec (pf (mp F R j)) 0) as [E0|E0].
    + apply G. apply (tb_pf_eq0 _ _ _ _ _ _ _ T) in E0. rewrite NEW, E0. f_equal. ring.
    + assert (M0 : mp F R j <> 0). { intros C. apply E0. rewrite C. apply (tb_pf_0 _ _ _ _ _ _ _ T). }
      rewrite (tb_rd_index _ _ _ _ _ _ _ T). cbn [bind]. rewrite (rd_ok _ 0%nat) by lia. cbn [bind]. fold z.
      rewrite (tb_rd_shift _ _ _ _ _ _ _ T) by auto. cbn [bind]. rewrite (tb_pf_add _ _ _ _ _ _ _ T). apply G. rewrite NEW. f_equal. ring.
  - rewrite E1. cbn [bind]. rewrite (rd_ok _ 0%Z) by lia. cbn [bind]. rewrite (J1 0%nat) by lia. rewrite (tb_rd_index _ _ _ _ _ _ _ T). cbn [bind].
    rewrite (rd_ok _ 0%nat) by lia. cbn [bind]. fold z. rewrite (tb_rd_shift _ _ _ _ _ _ _ T) by (apply mp_0; auto). cbn [bind].
    rewrite wr_ok by lia. eexists. split; [reflexivity|]. rewrite length_upd. split; auto. intros j Hj. rewrite nth_upd by lia.
    destruct (Nat.eqb_spec j 0) as [->|]. { unfold R'. cbn [mp]. f_equal. ring. }
    destruct (Nat.eq_dec j i) as [->|]. { rewrite Ti, <- P1. f_equal. replace i with (length R') by (cbn; lia). symmetry. apply mp_top. }
    apply J2. lia.
Qed.

Lemma mul_roots_ok : forall zs, NoDup zs -> forall cnt i g, 2 <= i -> (i + cnt)%nat = S (length zs) -> length g = S (length zs) ->
  (forall j, j < i -> nth j g 0%Z = pf (mp F (rev (map (pw F al) (firstn (i - 1) zs))) j)) ->
  exists g', for_from i cnt (bch_mul_root n alpha index (0%nat :: zs)) g = Ret g' /\ length g' = length g /\
    (forall j, j <= length zs -> nth j g' 0%Z = pf (mp F (rev (map (pw F al) zs)) j)).
Proof.
  intros zs ND. induction cnt; intros i g Hi Hc Hg HG.
  - exists g. split; auto. split; auto. intros j Hj. rewrite HG by lia. rewrite firstn_all2 by lia. auto.
  - cbn [for_from]. destruct (mul_root_ok (0%nat :: zs) i (rev (map (pw F al) (firstn (i - 1) zs))) g) as (g1 & E1 & L1 & J1); auto.
    + cbn [length]. lia.
    + lia.
    + rewrite rev_length, map_length, firstn_length. lia.
    + intros z Hz. apply in_rev in Hz. apply in_map_iff in Hz. destruct Hz as (k & <- & _). apply pw_n0. apply (tb_al0 _ _ _ _ _ _ _ T).
    + rewrite E1. cbn [bind]. destruct (IHcnt (S i) g1) as (g2 & E2 & L2 & J2); try lia. 2:{ exists g2. split; auto. split; auto. lia. }
      intros j Hj. rewrite J1 by lia. f_equal. f_equal.
      assert (Ei : firstn (S i - 1) zs = firstn (i - 1) zs ++ [nth (i - 1) zs 0%nat]).
      { replace (S i - 1)%nat with (S (i - 1)) by lia. assert (Hl : i - 1 < length zs) by lia. revert Hl. generalize (i - 1)%nat. clear. 
        induction zs as [|a l IH]; intros k Hk; cbn [length] in Hk; [lia|]. destruct k; auto. rewrite !firstn_cons. cbn [nth app]. f_equal. apply IH. lia. }
      rewrite Ei, map_app, rev_app_distr. cbn [map rev app]. f_equal. f_equal. destruct i; [lia|]. cbn [nth]. f_equal. lia.
Qed.

Lemma poly_ok : forall gf t m, gf_N gf = n -> alpha_to gf = alpha -> index_of gf = index -> 1 <= t -> 2 <= m -> n = (2 ^ m - 1)%nat ->
  exists g zs, bch_poly gf t = Ret g /\ length g = S (length zs) /\ 1 <= length zs /\ NoDup zs /\
   (forall z, In z zs <-> 0 < z < n /\ exists root k, 1 <= root < 2 * t + 1 /\ root < n /\ z = dk n k root) /\
   (forall j, j <= length zs -> nth j g 0%Z = pf (mp F (rev (map (pw F al) zs)) j)).
Proof.
  intros gf t m H1 H2 H3 Ht Hm Hn. unfold bch_poly. destruct (Nat.leb_spec 1 t); [|lia]. cbn [guard bind]. rewrite H1, H2, H3.
  destruct (zeros_ok m n Hm Hn (2 * t + 1)) as (zs & E & ND & HZ); [lia|]. rewrite E. cbn [bind length]. rewrite Nat.sub_0_r || idtac.
  replace (S (length zs) - 1)%nat with (length zs) by lia.
  assert (N3 : 3 <= n) by (apply (n3 m n); auto).
  assert (I1 : In 1%nat zs). { apply HZ. split; [lia|]. exists 1%nat, 0%nat. cbn. lia. }
  assert (L1 : 1 <= length zs) by (destruct zs; [destruct I1|cbn; lia]).
  rewrite (rd_ok _ 0%nat) by (cbn; lia). cbn [bind nth].
  destruct zs as [|z1 zs'] eqn:EZ; [cbn in L1; lia|]. rewrite <- EZ in *. replace (nth 0 zs 0)%nat with z1 by (rewrite EZ; auto).
  assert (Z1 : 0 < z1 < n) by (apply HZ; rewrite EZ; cbn; auto).
  rewrite (tb_rd_pw _ _ _ _ _ _ _ T) by lia. cbn [bind]. rewrite !wr_ok by (rewrite ?length_upd, repeat_length; lia). cbn [bind].
  rewrite wr_ok by (rewrite ?length_upd, repeat_length; lia). cbn [bind].
  destruct (mul_roots_ok zs ND (length zs - 1) 2 (upd (upd (repeat 0%Z (length zs + 1)) 0 (pf (pw F al z1))) 1 1%Z)) as (g & Eg & Lg & J); try lia.
  - rewrite !length_upd, repeat_length. lia.
  - intros j Hj. rewrite EZ. cbn [Nat.sub firstn map rev app length]. destruct j as [|[|j]]; [| |lia].
    + rewrite nth_upd_neq by lia. rewrite nth_upd_eq by (rewrite repeat_length; lia). cbn [mp]. f_equal. unfold delta. ring.
    + rewrite nth_upd_eq by (rewrite length_upd, repeat_length; lia). rewrite <- (tb_pf_1 _ _ _ _ _ _ _ T). cbn [mp]. f_equal. unfold delta. ring.
  - exists g, zs. rewrite Eg. split; auto. split. { rewrite Lg, !length_upd, repeat_length. lia. } auto.
Qed.

(** Squaring maps the roots to roots. *)
Lemma pw_dk : forall m k r, 2 <= m -> n = (2 ^ m - 1)%nat -> r < n -> pw F al (dk n (S k) r) = pw F al (dk n k r) * pw F al (dk n k r).
Proof. intros m k r Hm Hn Hr. cbn [dk]. rewrite (tb_mod _ _ _ _ _ _ _ T). rewrite Nat.mul_comm. cbn [Nat.mul]. rewrite Nat.add_0_r, pw_add. auto. Qed.
End Gen.

(* ------------------------------------------------------------------ *)
(** * The encoder *)

Definition bitZ (z : Z) : Prop := z = 0%Z \/ z = 1%Z.
Lemma bitZ_lxor : forall a b, bitZ a -> bitZ b -> bitZ (Z.lxor a b).
Proof. intros a b [-> | ->] [-> | ->]; unfold bitZ; cbn; auto. Qed.
Lemma bitZ_land : forall a b, bitZ a -> bitZ b -> bitZ (Z.land a b).
Proof. intros a b [-> | ->] [-> | ->]; unfold bitZ; cbn; auto. Qed.

Section Enc.
Variable F : field.
Notation "0" := (f0 F).
Notation "1" := (f1 F).
Infix "+" := (fadd F).
Infix "*" := (fmul F).
Add Ring Fring5 : (Frt F).

Definition bt (z : Z) : F := if (z =? 0)%Z then 0 else 1.
Lemma bt_lxor : forall a b, bitZ a -> bitZ b -> bt (Z.lxor a b) = bt a + bt b.
Proof. intros a b [-> | ->] [-> | ->]; unfold bt; cbn; rewrite ?fadd_self, ?fadd_0, ?fadd_0r; auto. Qed.
Lemma bt_land : forall a b, bitZ a -> bitZ b -> bt (Z.land a b) = bt a * bt b.
Proof. intros a b [-> | ->] [-> | ->]; unfold bt; cbn; ring. Qed.
Lemma bt_inj : forall a b, bitZ a -> bitZ b -> bt a = bt b -> a = b.
Proof.
  intros a b [-> | ->] [-> | ->]; unfold bt; cbn; intros H; auto; exfalso; [symmetry in H|]; revert H; apply f10.
Qed.

Lemma parity_ok : forall K g u base par r, length g = S r -> 1 <= r -> r <= length par -> (base + K <= length u)%nat ->
  (forall j, j <= r -> bitZ (nth j g 0%Z)) -> nth 0 g 0%Z = 1%Z -> nth r g 0%Z = 1%Z -> (forall j, j < K -> bitZ (nth (base + j) u 0%Z)) ->
  exists par', bch_parity K g u base par = Ret par' /\ length par' = length par /\
    (forall j, r <= j -> nth j par' 0%Z = nth j par 0%Z) /\ (forall j, j < r -> bitZ (nth j par' 0%Z)) /\
    forall b, gsum F (S r) (fun j => bt (nth j g 0%Z) * pw F b j) = 0 ->
      gsum F r (fun j => bt (nth j par' 0%Z) * pw F b j) = gsum F K (fun j => bt (nth (base + j) u 0%Z) * pw F b (r + j)).
Proof.
  intros K g u base par r Lg Hr Lp Lu Bg G0 Gr Bu. unfold bch_parity. replace (length g - 1)%nat with r by lia.
  destruct (for_inv _ (fun k p => length p = length par /\ (forall j, r <= j -> nth j p 0%Z = nth j par 0%Z) /\ forall j, j < k -> nth j p 0%Z = 0%Z)
    r (fun i o => wr o (0 + i)%nat 0%Z) par) as (p0 & E0 & L0 & U0 & Z0).
  { repeat split; auto. intros. lia. }
  { intros k p Hk (A1 & A2 & A3). rewrite wr_ok by lia. eexists. split; [reflexivity|]. rewrite length_upd. repeat split; auto.
    - intros j Hj. rewrite nth_upd_neq by lia. auto.
    - intros j Hj. rewrite nth_upd by lia. destruct (Nat.eqb_spec j (0 + k)); auto. apply A3. lia. }
  unfold fill. rewrite E0. cbn [bind].
  match goal with |- context [for_ K ?body ?s0] => destruct (for_inv _ (fun k p => length p = length par /\ (forall j, r <= j -> nth j p 0%Z = nth j par 0%Z) /\ (forall j, j < r -> bitZ (nth j p 0%Z)) /\
     forall b, gsum F (S r) (fun j => bt (nth j g 0%Z) * pw F b j) = 0 ->
      gsum F r (fun j => bt (nth j p 0%Z) * pw F b j) = gsum F k (fun j => bt (nth (base + (K - k) + j) u 0%Z) * pw F b (r + j))) K body s0) as (p1 & E1 & A1 & A2 & A3 & A4) end.
  - repeat split; auto. { intros j Hj. left. auto. } intros b _. cbn [gsum]. apply gsum_0. intros j Hj. rewrite Z0 by auto. unfold bt. cbn. ring.
  - intros k p Hk (A1 & A2 & A3 & A4). set (i := (K - 1 - k)%nat). rewrite !(rd_ok _ 0%Z) by lia. cbn [bind].
    set (ui := nth (base + i) u 0%Z). set (fb := Z.lxor ui (nth (r - 1) p 0%Z)).
    assert (Bui : bitZ ui) by (apply Bu; lia). assert (Bt : bitZ (nth (r - 1) p 0%Z)) by (apply A3; lia).
    assert (Bf : bitZ fb) by (apply bitZ_lxor; auto).
    match goal with |- context [for_ (r - 1) ?body ?s0] => destruct (for_inv _ (fun k q => length q = length par /\ (forall j, j <= r - 1 - k -> nth j q 0%Z = nth j p 0%Z) /\ (forall j, r <= j -> nth j q 0%Z = nth j par 0%Z) /\
      (forall j, r - 1 - k < j < r -> nth j q 0%Z = Z.lxor (nth (j - 1) p 0%Z) (Z.land (nth j g 0%Z) fb))) (r - 1) body s0) as (q1 & E1 & C1 & C2 & C3 & C4) end.
    + repeat split; auto. intros. lia.
    + intros k' q Hk' (C1 & C2 & C3 & C4). rewrite !(rd_ok _ 0%Z) by lia. cbn [bind]. rewrite wr_ok by lia. eexists. split; [reflexivity|].
      rewrite length_upd. repeat split; auto.
      * intros j Hj. rewrite nth_upd_neq by lia. apply C2. lia.
      * intros j Hj. rewrite nth_upd_neq by lia. apply C3. lia.
      * intros j Hj. rewrite nth_upd by lia. destruct (Nat.eqb_spec j (r - 1 - k')) as [->|]. { rewrite C2 by lia. auto. } apply C4. lia.
    + rewrite E1. cbn [bind]. rewrite G0. cbn [Z.eqb].
      rewrite wr_ok by lia. eexists. split; [reflexivity|]. rewrite length_upd.
      set (p2 := upd q1 0 (if (fb =? 0)%Z then 0%Z else 1%Z)).
      assert (N0 : nth 0 p2 0%Z = fb). { unfold p2. rewrite nth_upd_eq by lia. destruct Bf as [-> | ->]; auto. }
      assert (NS : forall j, 1 <= j < r -> nth j p2 0%Z = Z.lxor (nth (j - 1) p 0%Z) (Z.land (nth j g 0%Z) fb)).
      { intros j Hj. unfold p2. rewrite nth_upd_neq by lia. apply C4. lia. }
      split; auto. split. { intros j Hj. unfold p2. rewrite nth_upd_neq by lia. auto. }
      split.
      { intros j Hj. destruct j. { rewrite N0. auto. } rewrite NS by lia. apply bitZ_lxor. { apply A3. lia. } apply bitZ_land; auto. apply Bg. lia. }
      intros b Hb. specialize (A4 b Hb).
      (* sum over the new register *)
      transitivity (gsum F r (fun j => match j with O => 0 | S k => bt (nth k p 0%Z) end * pw F b j) + bt fb * gsum F r (fun j => bt (nth j g 0%Z) * pw F b j)).
      { rewrite <- gsum_mul, <- gsum_add. apply gsum_ext. intros j Hj. destruct j.
        - rewrite N0, G0. unfold bt at 3. cbn [Z.eqb]. ring.
        - rewrite NS by lia. replace (S j - 1)%nat with j by lia. rewrite bt_lxor, bt_land; auto. { ring. } { apply Bg. lia. } { apply A3. lia. } { apply bitZ_land; auto. apply Bg. lia. } }
      assert (Hg : gsum F r (fun j => bt (nth j g 0%Z) * pw F b j) = pw F b r).
      { cbn [gsum] in Hb. apply fadd_cancel in Hb. rewrite Hb, Gr. unfold bt. cbn [Z.eqb]. ring. }
      rewrite Hg.
      assert (SH' : gsum F r (fun j => match j with O => 0 | S k => bt (nth k p 0%Z) end * pw F b j) + bt (nth (r - 1) p 0%Z) * pw F b r = b * gsum F r (fun j => bt (nth j p 0%Z) * pw F b j)).
      { clear - Hr. destruct r as [|r']; [lia|]. rewrite gsum_S. replace (S r' - 1)%nat with r' by lia. rewrite <- gsum_mul. cbn [gsum].
        transitivity (gsum F r' (fun i => bt (nth i p 0%Z) * pw F b (S i)) + bt (nth r' p 0%Z) * pw F b (S r')). { ring. }
        f_equal. { apply gsum_ext. intros. cbn [pw]. ring. } cbn [pw]. ring. }
      rewrite A4 in SH'. unfold fb. rewrite bt_lxor by auto.
      transitivity (gsum F r (fun j => match j with O => 0 | S k => bt (nth k p 0%Z) end * pw F b j) + bt (nth (r - 1) p 0%Z) * pw F b r + bt ui * pw F b r). { ring. }
      rewrite SH'. rewrite gsum_S, <- gsum_mul. rewrite fadd_comm. f_equal.
      * unfold ui. replace (base + (K - S k) + 0)%nat with (base + i)%nat by lia. rewrite Nat.add_0_r. auto.
      * apply gsum_ext. intros j Hj. replace (base + (K - S k) + S j)%nat with (base + (K - k) + j)%nat by lia. replace (r + S j)%nat with (S (r + j)) by lia. cbn [pw]. ring.
  - exists p1. rewrite E1. repeat split; auto. intros b Hb. rewrite A4 by auto. apply gsum_ext. intros j Hj. do 4 f_equal. lia.
Qed.

(** The parity is the only one: a word with the message [u] is a codeword when all the roots of
    g cancel it. *)
Lemma parity_unique : forall r L (p p' : nat -> Z), length L = r -> NoDup L -> (forall j, j < r -> bitZ (p j)) -> (forall j, j < r -> bitZ (p' j)) ->
  (forall b, In b L -> gsum F r (fun j => bt (p j) * pw F b j) = gsum F r (fun j => bt (p' j) * pw F b j)) -> forall j, j < r -> p j = p' j.
Proof.
  intros r L p p' HL ND B B' H j Hj. apply bt_inj; auto. apply (poly_unique F (fun j => bt (p j)) (fun j => bt (p' j)) r L); auto.
Qed.

(** Evaluation of a word. *)
Definition wv (x : list Z) (b : F) : F := gsum F (length x) (fun j => bt (nth j x 0%Z) * pw F b j).
Lemma wv_sq : forall x b, wv x b = 0 -> wv x (b * b) = 0.
Proof.
  intros x b H. unfold wv in *. transitivity (gsum F (length x) (fun j => (bt (nth j x 0%Z) * pw F b j) * (bt (nth j x 0%Z) * pw F b j))).
  - apply gsum_ext. intros j Hj. rewrite pw_sq. assert (bt (nth j x 0%Z) * bt (nth j x 0%Z) = bt (nth j x 0%Z)) by (unfold bt; destruct (_ =? _)%Z; ring).
    rewrite <- H0 at 1. ring.
  - rewrite <- gsum_sq, H. ring.
Qed.
Lemma wv_split : forall x r b, r <= length x -> wv x b = gsum F r (fun j => bt (nth j x 0%Z) * pw F b j) + gsum F (length x - r) (fun j => bt (nth (r + j) x 0%Z) * pw F b (r + j)).
Proof. intros x r b H. unfold wv. replace (length x) with (r + (length x - r))%nat at 1 by lia. apply gsum_plus. Qed.
End Enc.
