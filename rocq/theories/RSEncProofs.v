(** The generator polynomial and the encoder of Reed-Solomon codes, on symbols. *)
From Coq Require Import List Arith NArith ZArith Lia Bool.
From Verif Require Import Base Copy GField BMTheory GaloisModel GFTab RepModel BCHModel BCHSets BCHEncProofs RSModel.
Import ListNotations.

(** ** The first zero is 1 *)
Lemma close_hd : forall fuel N cs cs', close_set fuel N cs = Ret cs' -> cs <> [] -> hd 0 cs' = hd 0 cs /\ cs' <> [].
Proof.
  induction fuel; intros N cs cs' H Hc; cbn [close_set] in H; [discriminate|].
  assert (E : hd 0 (cs ++ [(last cs 0 * 2) mod N]) = hd 0 cs) by (destruct cs; [contradiction|auto]).
  destruct (_ =? _).
  - inversion H; subst. split; auto. intros C. apply app_eq_nil in C. destruct C; discriminate.
  - destruct (IHfuel _ _ _ H) as [A B]. { intros C. apply app_eq_nil in C. destruct C; discriminate. } split; auto. congruence.
Qed.

Lemma gen_hd : forall fuel N sets rep sets', gen_sets fuel N sets rep = Ret sets' -> 2 <= length sets -> hd 0 (nth 1 sets []) = 1 ->
  2 <= length sets' /\ hd 0 (nth 1 sets' []) = 1.
Proof.
  induction fuel; intros N sets rep sets' H L H1; cbn [gen_sets] in H; [discriminate|].
  destruct (close_set (S N) N (last sets [])) as [cs| |] eqn:Ec; cbn [bind] in H; try discriminate.
  set (s2 := removelast sets ++ [cs]) in *.
  assert (Q : 2 <= length s2 /\ hd 0 (nth 1 s2 []) = 1).
  { unfold s2. destruct sets as [|a [|b [|c sets]]]; cbn [length] in L; try lia.
    - cbn [removelast app length nth last] in *. split; [lia|]. destruct (close_hd _ _ _ _ Ec) as [A _]. { intros ->. discriminate. } congruence.
    - cbn [removelast app length nth] in *. split; [lia|]. auto. }
  destruct (find_rep (S N) N s2 rep) as [[rep' test]| |]; cbn [bind] in H; try discriminate.
  assert (Q2 : 2 <= length (if test then s2 else s2 ++ [[rep']]) /\ hd 0 (nth 1 (if test then s2 else s2 ++ [[rep']]) []) = 1).
  { destruct test; auto. rewrite app_length, app_nth1 by lia. split; [lia|]. apply Q. }
  destruct (rep' <? N - 1). { eapply IHfuel; eauto; tauto. } inversion H. auto.
Qed.

Lemma zeros_first : forall N d zs, 2 <= d -> bch_zeros N d = Ret (0 :: zs) -> exists zs', zs = 1 :: zs'.
Proof.
  intros N d zs Hd H. unfold bch_zeros in H. destruct (gen_sets (S N) N [[0]; [1]] 0) as [sets| |] eqn:E; cbn [bind] in H; try discriminate.
  destruct (gen_hd _ _ _ _ _ E) as [L H1]; auto. inversion H as [HZ]. clear H.
  destruct sets as [|a [|b sets]]; cbn [length] in L; try lia. cbn [tl nth filter] in *. destruct b as [|b0 b]; [discriminate|]. cbn [hd] in H1. subst b0.
  cbn [existsb]. replace (existsb (Nat.eqb 1) (seq 1 (d - 1))) with true. { cbn [orb concat app]. eauto. }
  symmetry. apply existsb_eqb. apply in_seq. lia.
Qed.

Section Gen.
Variables (F : field) (n : nat) (al : F) (pf xf : F -> Z) (alpha index : list Z).
Hypothesis T : tabs F n al pf xf alpha index.
Notation "0" := (f0 F).
Notation "1" := (f1 F).
Infix "+" := (fadd F).
Infix "*" := (fmul F).
Add Ring Fring11 : (Frt F).

(** The roots alpha, ..., alpha^2t. *)
Definition rs_roots (t : nat) : list F := rev (map (pw F al) (seq 1 (2 * t))).

Lemma rs_mul_root_eq : forall k i g, 1 <= i < S k -> rs_mul_root n alpha index 1 i g = bch_mul_root n alpha index (0%nat :: seq 1 k) i g.
Proof.
  intros k0 i g Hi. unfold rs_mul_root, bch_mul_root.
  assert (R : rd (0%nat :: seq 1 k0) i = Ret i). { rewrite (rd_ok _ 0%nat) by (cbn [length]; rewrite seq_length; lia). f_equal. change (0%nat :: seq 1 k0) with (seq 0 (S k0)). apply seq_nth. lia. }
  assert (EZ : forall ix, (ix + Z.of_nat 1 + Z.of_nat i - 1)%Z = (ix + Z.of_nat i)%Z) by (intros; lia).
  apply bind_ext; intros g1 _. 
  rewrite (for_ext _ _ _ (fun k g => let j := (i - 1 - k)%nat in gj <- rd g j ;; gm <- rd g (j - 1)%nat ;;
    if (gj =? 0)%Z then wr g j gm else ix <- rdz index gj ;; z <- rd (0%nat :: seq 1 k0) i ;;
         a <- rdz alpha (Z.rem (ix + Z.of_nat z) (Z.of_nat n)) ;; wr g j (Z.lxor gm a))).
  2:{ intros k' s Hk. apply bind_ext; intros gj _. apply bind_ext; intros gm _. destruct (gj =? 0)%Z; auto. apply bind_ext; intros ix _. rewrite R. cbn [bind]. rewrite EZ. auto. }
  apply bind_ext; intros g2 _. apply bind_ext; intros g0 _. apply bind_ext; intros ix _. rewrite R. cbn [bind]. rewrite EZ. auto.
Qed.

Lemma rs_poly_ok : forall gf t m, gf_N gf = n -> alpha_to gf = alpha -> index_of gf = index -> 1 <= t -> 2 <= m -> n = (2 ^ m - 1)%nat ->
  exists g, rs_poly gf t = Ret g /\ length g = S (2 * t) /\ forall j, j <= 2 * t -> nth j g 0%Z = xf (mp F (rs_roots t) j).
Proof.
  intros gf t m H1 H2 H3 Ht Hm Hn. unfold rs_poly. destruct (Nat.leb_spec 1 t); [|lia]. cbn [guard bind]. rewrite H1, H2, H3.
  destruct (zeros_ok m n Hm Hn (2 * t + 1)) as (zs & E & _ & _); [lia|]. rewrite E. cbn [bind]. destruct (zeros_first n (2 * t + 1) zs ltac:(lia) E) as (zs' & ->).
  rewrite (rd_ok _ 0%nat) by (cbn; lia). cbn [bind nth]. assert (N3 : 3 <= n) by (apply (n3 m n); auto).
  rewrite (tb_rd_pw _ _ _ _ _ _ _ T) by lia. cbn [bind]. rewrite wr_ok by (rewrite repeat_length; lia). cbn [bind]. rewrite wr_ok by (rewrite length_upd, repeat_length; lia). cbn [bind].
  replace (2 * t + 1 - 2)%nat with (2 * t - 1)%nat by lia.
  rewrite (for_from_ext _ _ _ _ (bch_mul_root n alpha index (0%nat :: seq 1 (2 * t)))). 2:{ intros i s Hi. apply rs_mul_root_eq. lia. }
  destruct (mul_roots_ok F n al pf xf alpha index T (seq 1 (2 * t)) (seq_NoDup _ _) (2 * t - 1) 2 (upd (upd (repeat 0%Z (2 * t + 1)) 0 (pf (pw F al 1))) 1 1%Z)) as (g & Eg & Lg & J).
  - lia.
  - rewrite seq_length. lia.
  - rewrite !length_upd, repeat_length, seq_length. lia.
  - intros j Hj. destruct (2 * t)%nat as [|q] eqn:Eq; [lia|]. cbn [Nat.sub seq firstn map rev app]. destruct j as [|[|j]]; [| |lia].
    + rewrite nth_upd_neq by lia. rewrite nth_upd_eq by (rewrite repeat_length; lia). f_equal. cbn [mp delta pw]. ring.
    + rewrite nth_upd_eq by (rewrite length_upd, repeat_length; lia). rewrite <- (tb_pf_1 _ _ _ _ _ _ _ T). f_equal. cbn [mp delta]. ring.
  - rewrite Eg. cbn [bind]. rewrite seq_length in J. rewrite !length_upd, repeat_length in Lg.
    match goal with |- context [for_ ?c ?body g] => destruct (for_inv _ (fun k h => length h = S (2 * t) /\ (forall j, j < k -> nth j h 0%Z = xf (mp F (rs_roots t) j)) /\ (forall j, k <= j -> nth j h 0%Z = nth j g 0%Z)) c body g) as (h & Eh & A1 & A2 & A3) end.
    + split; [lia|]. split; auto. intros; lia.
    + intros k h Hk (A1 & A2 & A3). cbn beta. rewrite (rd_ok _ 0%Z) by lia. cbn [bind]. rewrite A3 by lia. rewrite J by lia. rewrite (tb_rd_index _ _ _ _ _ _ _ T). cbn [bind]. rewrite wr_ok by lia.
      eexists. split; [reflexivity|]. rewrite length_upd. split; auto. split.
      * intros j Hj. rewrite nth_upd by lia. destruct (Nat.eqb_spec j k); [subst; auto|]. apply A2. lia.
      * intros j Hj. rewrite nth_upd_neq by lia. apply A3. lia.
    + exists h. split; auto. split; auto. intros j Hj. apply A2. lia.
Qed.

Lemma rs_roots_len : forall t, length (rs_roots t) = (2 * t)%nat.
Proof. intros. unfold rs_roots. rewrite rev_length, map_length, seq_length. auto. Qed.
Lemma in_rs_roots : forall t b, In b (rs_roots t) <-> exists i, 1 <= i <= 2 * t /\ b = pw F al i.
Proof.
  intros. unfold rs_roots. rewrite <- in_rev, in_map_iff. split.
  - intros (i & <- & Hi). apply in_seq in Hi. exists i. split; auto. lia.
  - intros (i & Hi & ->). exists i. split; auto. apply in_seq. lia.
Qed.
Lemma rs_roots_ND : forall t, 2 * t < n -> NoDup (rs_roots t).
Proof.
  intros t Ht. unfold rs_roots. apply NoDup_rev. assert (G : forall k lo, (lo + k <= n)%nat -> NoDup (map (pw F al) (seq lo k))).
  { induction k; intros lo H; cbn [seq map]; constructor. 2:{ apply IHk. lia. }
    intros C. apply in_map_iff in C. destruct C as (j & E & Hj). apply in_seq in Hj. apply (tb_inj _ _ _ _ _ _ _ T) in E; lia. }
  apply G. lia.
Qed.
Lemma rs_roots_n0 : forall t z, In z (rs_roots t) -> z <> 0.
Proof. intros t z Hz. apply in_rs_roots in Hz. destruct Hz as (i & _ & ->). apply pw_n0. apply (tb_al0 _ _ _ _ _ _ _ T). Qed.

(** ** Encoder *)
Variable w : nat.
Hypothesis Hw : (Z.of_nat n < 2 ^ (Z.of_nat w - 1))%Z.

Lemma cast_pf : forall a, cast (Z.of_nat w) (pf a) = pf a.
Proof.
  intros a. pose proof (tb_pf_range _ _ _ _ _ _ _ T a). unfold cast. set (h := (2 ^ (Z.of_nat w - 1))%Z) in *.
  assert (W : (2 ^ Z.of_nat w = 2 * h)%Z). { unfold h. replace (Z.of_nat w) with (Z.succ (Z.of_nat w - 1)) at 1 by lia. apply Z.pow_succ_r. destruct (Z_lt_le_dec (Z.of_nat w - 1) 0%Z); auto. exfalso. unfold h in Hw. rewrite Z.pow_neg_r in Hw by auto. lia. }
  rewrite W, Z.mod_small by lia. lia.
Qed.

Lemma rs_parity_ok : forall K g u base par r (gc uf : nat -> F), length g = S r -> 1 <= r -> r <= length par -> (base + K <= length u)%nat ->
  (forall j, j <= r -> nth j g 0%Z = xf (gc j)) -> gc 0%nat <> 0 -> gc r = 1 -> (forall j, j < K -> nth (base + j) u 0%Z = pf (uf j)) ->
  exists par' (pc : nat -> F), rs_parity w n alpha index K g u base par = Ret par' /\ length par' = length par /\
    (forall j, r <= j -> nth j par' 0%Z = nth j par 0%Z) /\ (forall j, j < r -> nth j par' 0%Z = pf (pc j)) /\
    forall b, gsum F (S r) (fun j => gc j * pw F b j) = 0 ->
      gsum F r (fun j => pc j * pw F b j) = gsum F K (fun j => uf j * pw F b (r + j)).
Proof.
  intros K g u base par r gc uf Lg Hr Lp Lu HG G0 Gr HU. unfold rs_parity. replace (length g - 1)%nat with r by lia.
  destruct (fill_spec _ 0%Z r par 0 0%Z) as (p0 & E0 & L0 & Z0 & U0). { lia. } rewrite E0. cbn [bind].
  assert (P0 : pf 0 = 0%Z) by apply (tb_pf_0 _ _ _ _ _ _ _ T).
  match goal with |- context [for_ K ?body ?s0] => destruct (for_inv _ (fun k p => length p = length par /\ (forall j, r <= j -> nth j p 0%Z = nth j par 0%Z) /\
     exists pc : nat -> F, (forall j, j < r -> nth j p 0%Z = pf (pc j)) /\
     forall b, gsum F (S r) (fun j => gc j * pw F b j) = 0 ->
      gsum F r (fun j => pc j * pw F b j) = gsum F k (fun j => uf (K - k + j)%nat * pw F b (r + j))) K body s0) as (p1 & E1 & A1 & A2 & pc & A3 & A4) end.
  - split; auto. split. { intros j Hj. apply U0. lia. } exists (fun _ => 0). split. { intros j Hj. rewrite P0. apply (Z0 j Hj). }
    intros b _. cbn [gsum]. apply gsum_0. intros j Hj. ring.
  - intros k p Hk (A1 & A2 & pc & A3 & A4). set (i := (K - 1 - k)%nat). rewrite !(rd_ok _ 0%Z) by lia. cbn [bind].
    rewrite HU by lia. rewrite A3 by lia. rewrite (tb_pf_add _ _ _ _ _ _ _ T). set (fb := uf i + pc (r - 1)%nat). rewrite (tb_rd_index _ _ _ _ _ _ _ T). cbn [bind].
    assert (STEP : forall q, length q = length par -> (forall j, r <= j -> nth j q 0%Z = nth j par 0%Z) -> nth 0 q 0%Z = pf (gc 0%nat * fb) ->
       (forall j, 1 <= j < r -> nth j q 0%Z = pf (pc (j - 1)%nat + gc j * fb)) ->
       length q = length par /\ (forall j, r <= j -> nth j q 0%Z = nth j par 0%Z) /\
       exists pc' : nat -> F, (forall j, j < r -> nth j q 0%Z = pf (pc' j)) /\
       forall b, gsum F (S r) (fun j => gc j * pw F b j) = 0 ->
        gsum F r (fun j => pc' j * pw F b j) = gsum F (S k) (fun j => uf (K - S k + j)%nat * pw F b (r + j))).
    { intros q B1 B2 B3 B4. split; auto. split; auto. exists (fun j => match j with O => 0 | S j' => pc j' end + gc j * fb). split.
      { intros j Hj. destruct j. { rewrite B3. f_equal. ring. } rewrite B4 by lia. replace (S j - 1)%nat with j by lia. auto. }
      intros b Hb. specialize (A4 b Hb).
      transitivity (gsum F r (fun j => match j with O => 0 | S k => pc k end * pw F b j) + fb * gsum F r (fun j => gc j * pw F b j)).
      { rewrite <- gsum_mul, <- gsum_add. apply gsum_ext. intros j Hj. ring. }
      assert (Hg : gsum F r (fun j => gc j * pw F b j) = pw F b r). { cbn [gsum] in Hb. apply fadd_cancel in Hb. rewrite Hb, Gr. ring. }
      rewrite Hg.
      assert (SH' : gsum F r (fun j => match j with O => 0 | S k => pc k end * pw F b j) + pc (r - 1)%nat * pw F b r = b * gsum F r (fun j => pc j * pw F b j)).
      { clear - Hr. destruct r as [|r']; [lia|]. rewrite gsum_S. replace (S r' - 1)%nat with r' by lia. rewrite <- gsum_mul. cbn [gsum].
        transitivity (gsum F r' (fun i => pc i * pw F b (S i)) + pc r' * pw F b (S r')). { ring. }
        f_equal. { apply gsum_ext. intros. cbn [pw]. ring. } cbn [pw]. ring. }
      rewrite A4 in SH'. unfold fb.
      transitivity (gsum F r (fun j => match j with O => 0 | S k => pc k end * pw F b j) + pc (r - 1)%nat * pw F b r + uf i * pw F b r). { ring. }
      rewrite SH'. rewrite gsum_S, <- gsum_mul. rewrite fadd_comm. f_equal.
      * replace (K - S k + 0)%nat with i by lia. rewrite Nat.add_0_r. auto.
      * apply gsum_ext. intros j Hj. replace (K - S k + S j)%nat with (K - k + j)%nat by lia. replace (r + S j)%nat with (S (r + j)) by lia. cbn [pw]. ring. }
    destruct (Z.eqb_spec (xf fb) (-1)) as [Ef|Ef].
    + apply (tb_xf_eq _ _ _ _ _ _ _ T) in Ef.
      match goal with |- context [for_ (r - 1) ?body ?s0] => destruct (for_inv _ (fun k q => length q = length par /\ (forall j, j <= r - 1 - k -> nth j q 0%Z = nth j p 0%Z) /\ (forall j, r <= j -> nth j q 0%Z = nth j par 0%Z) /\
        (forall j, r - 1 - k < j < r -> nth j q 0%Z = nth (j - 1) p 0%Z)) (r - 1) body s0) as (q1 & E1 & C1 & C2 & C3 & C4) end.
      * repeat split; auto. intros. lia.
      * intros k' q Hk' (C1 & C2 & C3 & C4). rewrite !(rd_ok _ 0%Z) by lia. cbn [bind]. rewrite wr_ok by lia. eexists. split; [reflexivity|].
        rewrite length_upd. repeat split; auto.
        { intros j Hj. rewrite nth_upd_neq by lia. apply C2. lia. }
        { intros j Hj. rewrite nth_upd_neq by lia. apply C3. lia. }
        { intros j Hj. rewrite nth_upd by lia. destruct (Nat.eqb_spec j (r - 1 - k')) as [->|]. { apply C2. lia. } apply C4. lia. }
      * rewrite E1. cbn [bind]. rewrite wr_ok by lia. eexists. split; [reflexivity|]. apply STEP.
        { rewrite length_upd. auto. } { intros j Hj. rewrite nth_upd_neq by lia. auto. }
        { rewrite nth_upd_eq by lia. rewrite Ef, <- P0. f_equal. ring. }
        { intros j Hj. rewrite nth_upd_neq by lia. rewrite C4 by lia. rewrite A3 by lia. f_equal. rewrite Ef. ring. }
    + assert (Fn : fb <> 0) by (intros C; apply Ef; rewrite C; apply (tb_xf_0 _ _ _ _ _ _ _ T)).
      match goal with |- context [for_ (r - 1) ?body ?s0] => destruct (for_inv _ (fun k q => length q = length par /\ (forall j, j <= r - 1 - k -> nth j q 0%Z = nth j p 0%Z) /\ (forall j, r <= j -> nth j q 0%Z = nth j par 0%Z) /\
        (forall j, r - 1 - k < j < r -> nth j q 0%Z = pf (pc (j - 1)%nat + gc j * fb))) (r - 1) body s0) as (q1 & E1 & C1 & C2 & C3 & C4) end.
      * repeat split; auto. intros. lia.
      * intros k' q Hk' (C1 & C2 & C3 & C4). rewrite !(rd_ok _ 0%Z) by lia. cbn [bind].
        rewrite HG by lia. rewrite C2 by lia. rewrite A3 by lia. set (j := (r - 1 - k')%nat).
        assert (G : forall v, v = pf (pc (j - 1)%nat + gc j * fb) -> exists s', wr q j v = Ret s' /\ length s' = length par /\ (forall j, j <= r - 1 - S k' -> nth j s' 0%Z = nth j p 0%Z) /\ (forall j, r <= j -> nth j s' 0%Z = nth j par 0%Z) /\
           (forall j, r - 1 - S k' < j < r -> nth j s' 0%Z = pf (pc (j - 1)%nat + gc j * fb))).
        { intros v ->. rewrite wr_ok by lia. eexists. split; [reflexivity|]. rewrite length_upd. split; auto. split. { intros j' Hj. rewrite nth_upd_neq by lia. apply C2. lia. }
          split. { intros j' Hj. rewrite nth_upd_neq by lia. apply C3. lia. }
          intros j' Hj. rewrite nth_upd by lia. destruct (Nat.eqb_spec j' j) as [->|]; auto. apply C4. lia. }
        destruct (Z.eqb_spec (xf (gc j)) (-1)) as [Eg|Eg].
        { apply G. apply (tb_xf_eq _ _ _ _ _ _ _ T) in Eg. rewrite Eg. f_equal. ring. }
        { assert (Gn : gc j <> 0) by (intros C; apply Eg; rewrite C; apply (tb_xf_0 _ _ _ _ _ _ _ T)).
          rewrite (tb_rd_mul _ _ _ _ _ _ _ T) by auto. cbn [bind]. rewrite (tb_pf_add _ _ _ _ _ _ _ T), cast_pf. apply G. auto. }
      * rewrite E1. cbn [bind]. rewrite HG by lia. rewrite (tb_rd_mul _ _ _ _ _ _ _ T) by auto. cbn [bind]. rewrite cast_pf. rewrite wr_ok by lia. eexists. split; [reflexivity|]. apply STEP.
        { rewrite length_upd. auto. } { intros j Hj. rewrite nth_upd_neq by lia. auto. }
        { rewrite nth_upd_eq by lia. auto. }
        { intros j Hj. rewrite nth_upd_neq by lia. apply C4. lia. }
  - exists p1, pc. rewrite E1. repeat split; auto. intros b Hb. rewrite A4 by auto. apply gsum_ext. intros j Hj. do 2 f_equal. lia.
Qed.

(** Words of symbols and their evaluation. *)
Lemma word_of : forall x, Forall (fun s => 0 <= s <= Z.of_nat n)%Z x -> exists xs, x = map pf xs.
Proof.
  induction x as [|a x IH]; intros H. { exists []. auto. } inversion H as [|? ? Ha Hx]; subst. destruct (IH Hx) as (xs & ->). destruct (tb_pf_surj _ _ _ _ _ _ _ T a Ha) as (b & <-). exists (b :: xs). auto.
Qed.
Lemma nth_pf : forall xs j, nth j (map pf xs) 0%Z = pf (nth j xs 0).
Proof. intros. rewrite <- (tb_pf_0 _ _ _ _ _ _ _ T). apply map_nth. Qed.
Lemma map_pf_inj : forall a b, map pf a = map pf b -> a = b.
Proof.
  induction a as [|x a IH]; destruct b as [|y b]; cbn [map]; intros H; try discriminate; auto. inversion H. f_equal; auto. apply (tb_pf_inj _ _ _ _ _ _ _ T). auto.
Qed.

Lemma eval_split : forall xs r b, r <= length xs -> eval F xs b = gsum F r (fun j => nth j xs 0 * pw F b j) + gsum F (length xs - r) (fun j => nth (r + j) xs 0 * pw F b (r + j)).
Proof. intros xs r b H. rewrite eval_gsum. replace (length xs) with (r + (length xs - r))%nat at 1 by lia. apply gsum_plus. Qed.

Variables (t : nat) (g : list Z).
Hypothesis Ht : 1 <= t.
Hypothesis H2 : 2 * t < n.
Hypothesis Lg : length g = S (2 * t).
Hypothesis HG : forall j, j <= 2 * t -> nth j g 0%Z = xf (mp F (rs_roots t) j).

Lemma rs_g_facts : mp F (rs_roots t) 0%nat <> 0 /\ mp F (rs_roots t) (2 * t)%nat = 1 /\ forall b, In b (rs_roots t) -> gsum F (S (2 * t)) (fun j => mp F (rs_roots t) j * pw F b j) = 0.
Proof.
  split; [|split].
  - apply mp_0. apply rs_roots_n0.
  - rewrite <- (rs_roots_len t). apply mp_top.
  - intros b Hb. pose proof (mp_root F _ b Hb) as R. unfold rt in R. rewrite rs_roots_len in R. auto.
Qed.

(** The parity of a message of symbols completes it to a codeword. *)
Lemma rs_parity_code : forall K us base pre post par, length us = K -> length pre = base -> 2 * t <= length par ->
  exists par' ps, rs_parity w n alpha index K g (map pf (pre ++ us ++ post)) base par = Ret par' /\ length par' = length par /\ length ps = (2 * t)%nat /\ firstn (2 * t) par' = map pf ps /\
    skipn (2 * t) par' = skipn (2 * t) par /\ forall i, 1 <= i <= 2 * t -> eval F (ps ++ us) (pw F al i) = 0.
Proof.
  intros K us base pre post par Lu Lb Lp. destruct rs_g_facts as (G0 & G1 & GR).
  destruct (rs_parity_ok K g (map pf (pre ++ us ++ post)) base par (2 * t) (mp F (rs_roots t)) (fun j => nth j us 0)) as (par' & pc & E & L & U & P & J); auto; try lia.
  { rewrite map_length, !app_length. lia. }
  { intros j Hj. rewrite nth_pf. f_equal. rewrite app_nth2 by lia. rewrite app_nth1 by lia. f_equal. lia. }
  exists par', (tab (2 * t) pc). split; auto. split; auto. split. { apply length_tab. } split; [|split].
  - apply (nth_ext _ _ 0%Z (pf 0)). { rewrite map_length, length_tab, firstn_length. lia. } intros j Hj. rewrite firstn_length in Hj. rewrite firstn_nth by lia. rewrite map_nth, nth_tab by lia. apply P. lia.
  - apply (nth_ext _ _ 0%Z 0%Z). { rewrite !skipn_length. lia. } intros j Hj. rewrite !skipn_nth. apply U. lia.
  - intros i Hi. rewrite (eval_split _ (2 * t)) by (rewrite app_length, length_tab; lia). apply fadd_eq0.
    transitivity (gsum F (2 * t) (fun j => pc j * pw F (pw F al i) j)). { apply gsum_ext. intros j Hj. rewrite app_nth1 by (rewrite length_tab; auto). rewrite nth_tab by auto. auto. }
    rewrite J by (apply GR; apply in_rs_roots; eauto). rewrite app_length, length_tab. replace (2 * t + length us - 2 * t)%nat with K by lia.
    apply gsum_ext. intros j Hj. rewrite app_nth2 by (rewrite length_tab; lia). rewrite length_tab. do 2 f_equal. lia.
Qed.

Lemma rs_parity_unique : forall (ps ps' us : list F), length ps = (2 * t)%nat -> length ps' = (2 * t)%nat ->
  (forall i, 1 <= i <= 2 * t -> eval F (ps ++ us) (pw F al i) = 0) -> (forall i, 1 <= i <= 2 * t -> eval F (ps' ++ us) (pw F al i) = 0) -> ps = ps'.
Proof.
  intros ps ps' us L L' H H'. apply (nth_ext _ _ 0 0); [lia|]. intros j Hj. rewrite L in Hj.
  apply (poly_unique F (fun j => nth j ps 0) (fun j => nth j ps' 0) (2 * t) (rs_roots t)); auto. { apply rs_roots_len. } { apply rs_roots_ND. auto. }
  intros b Hb. apply in_rs_roots in Hb. destruct Hb as (i & Hi & ->). specialize (H i Hi). specialize (H' i Hi).
  rewrite (eval_split _ (2 * t)) in H by (rewrite app_length; lia). rewrite (eval_split _ (2 * t)) in H' by (rewrite app_length; lia). apply fadd_cancel in H. apply fadd_cancel in H'.
  transitivity (gsum F (2 * t) (fun j => nth j (ps ++ us) 0 * pw F (pw F al i) j)). { apply gsum_ext. intros q Hq. rewrite app_nth1 by lia. auto. }
  rewrite H. transitivity (gsum F (2 * t) (fun j => nth j (ps' ++ us) 0 * pw F (pw F al i) j)). 2:{ apply gsum_ext. intros q Hq. rewrite app_nth1 by lia. auto. }
  rewrite H'. rewrite !app_length, L, L'. apply gsum_ext. intros q Hq. rewrite !app_nth2 by lia. rewrite L, L'. auto.
Qed.
End Gen.
