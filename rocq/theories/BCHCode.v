(** The code of the generator polynomial is the BCH code. *)
From Coq Require Import List Arith NArith ZArith Lia Bool.
From Verif Require Import Base Copy GField BMTheory GaloisModel GaloisSpec GaloisTheory GaloisPrim GaloisProofs GaloisProps GFTab RepModel RepProofs
  BCHModel BCHSpec BCHSets BCHEncProofs.
Import ListNotations.

Lemma bits_nth : forall w, bits w <-> forall j, j < length w -> bitZ (nth j w 0%Z).
Proof.
  intros w. unfold bits. rewrite Forall_forall. split.
  - intros H j Hj. apply H. apply nth_In. auto.
  - intros H x Hx. destruct (In_nth w x 0%Z Hx) as (j & Hj & <-). apply H. auto.
Qed.

Section Code.
Variables (F : field) (n : nat) (al : F) (pf xf : F -> Z) (alpha index : list Z).
Hypothesis T : tabs F n al pf xf alpha index.
Notation "0" := (f0 F).
Notation "1" := (f1 F).
Infix "+" := (fadd F).
Infix "*" := (fmul F).
Add Ring Fring6 : (Frt F).
Notation wv := (wv F). Notation bt := (bt F).

Lemma pf_bit : forall a, a = 0 \/ a = 1 -> bitZ (pf a) /\ bt (pf a) = a.
Proof.
  intros a [-> | ->]; unfold bitZ, BCHEncProofs.bt.
  - rewrite (tb_pf_0 _ _ _ _ _ _ _ T). auto.
  - rewrite (tb_pf_1 _ _ _ _ _ _ _ T). auto.
Qed.

(** What the encoder needs about g. *)
Record code (t r : nat) (g : list Z) (L : list F) : Prop := {
  cd_len : length g = S r; cd_r : 1 <= r; cd_bits : bits g; cd_0 : nth 0 g 0%Z = 1%Z; cd_top : nth r g 0%Z = 1%Z;
  cd_L : length L = r; cd_ND : NoDup L; cd_n0 : ~ In 0 L;
  cd_root : forall b, In b L -> gsum F (S r) (fun j => bt (nth j g 0%Z) * pw F b j) = 0;
  cd_L_bch : forall x, (forall i, 1 <= i <= 2 * t -> i < n -> wv x (pw F al i) = 0) <-> (forall b, In b L -> wv x b = 0) }.

Lemma code_ok : forall gf t m, gf_N gf = n -> alpha_to gf = alpha -> index_of gf = index -> 1 <= t -> 2 <= m -> n = (2 ^ m - 1)%nat ->
  exists g L r, bch_poly gf t = Ret g /\ code t r g L /\ (2 * t < n -> 2 * t <= r)%nat /\ (r <= n - 1)%nat.
Proof.
  intros gf t m H1 H2 H3 Ht Hm Hn. destruct (poly_ok F n al pf xf alpha index T gf t m) as (g & zs & E & Lg & Lz & ND & HZ & J); auto.
  set (L := rev (map (pw F al) zs)) in *. assert (N3 : 3 <= n) by (apply (n3 m n); auto).
  assert (LL : length L = length zs) by (unfold L; rewrite rev_length, map_length; auto).
  assert (NDL : NoDup L).
  { unfold L. apply NoDup_rev. assert (R : forall z, In z zs -> z < n) by (intros z Hz; apply HZ in Hz; lia). clear -ND R T. induction ND; cbn [map]; constructor.
    - intros C. apply in_map_iff in C. destruct C as (y & Ey & Hy). apply (tb_inj _ _ _ _ _ _ _ T) in Ey. { subst. auto. } { apply R. cbn; auto. } { apply R. cbn; auto. }
    - apply IHND. intros. apply R. cbn; auto. }
  assert (INL : forall b, In b L <-> exists z, In z zs /\ b = pw F al z).
  { intros b. unfold L. rewrite <- in_rev, in_map_iff. split; intros (z & A & B); exists z; auto. }
  assert (SQ : forall b, In b L -> In (b * b) L).
  { intros b Hb. apply INL in Hb. destruct Hb as (z & Hz & ->). apply INL. apply HZ in Hz. destruct Hz as (Rz & root & k & R1 & R2 & Ez).
    exists (dk n (S k) root). split.
    - apply HZ. split. 2:{ exists root, (S k). auto. } split. { pose proof (dk_n0 m n Hm Hn (S k) root ltac:(lia)). lia. } apply (dk_lt m n Hm Hn). lia.
    - rewrite (pw_dk F n al pf xf alpha index T m) by (auto; lia). rewrite Ez. auto. }
  assert (NZ : ~ In 0 L). { intros C. apply INL in C. destruct C as (z & _ & E0). symmetry in E0. revert E0. apply pw_n0. apply (tb_al0 _ _ _ _ _ _ _ T). }
  pose proof (mp_bin F L NDL SQ) as BIN.
  exists g, L, (length zs). split; auto.
  assert (GT : forall j, j <= length zs -> bitZ (nth j g 0%Z) /\ bt (nth j g 0%Z) = mp F L j). { intros j Hj. rewrite J by auto. apply pf_bit. auto. }
  split; [|split].
  - constructor; auto.
    + apply bits_nth. intros j Hj. apply GT. lia.
    + rewrite J by lia. destruct (BIN 0%nat) as [C|C]. { exfalso. revert C. apply mp_0. intros z Hz ->. auto. } rewrite C. apply (tb_pf_1 _ _ _ _ _ _ _ T).
    + rewrite J by lia. rewrite <- LL, mp_top. apply (tb_pf_1 _ _ _ _ _ _ _ T).
    + intros b Hb. rewrite <- (mp_root F L b Hb). unfold rt. rewrite LL. apply gsum_ext. intros j Hj. f_equal. apply GT. lia.
    + intros x. split.
      * intros HX b Hb. apply INL in Hb. destruct Hb as (z & Hz & ->). apply HZ in Hz. destruct Hz as (Rz & root & k & R1 & R2 & Ez). subst z. clear Rz.
        induction k; cbn [dk]. { apply HX; lia. } change ((dk n k root * 2) mod n) with (dk n (S k) root). rewrite (pw_dk F n al pf xf alpha index T m) by auto. apply wv_sq. auto.
      * intros HX i Hi Hin. apply HX. apply INL. exists i. split; auto. apply HZ. split; [lia|]. exists i, 0%nat. cbn. lia.
  - intros H2t. assert (I : incl (seq 1 (2 * t)) zs). { intros i Hi. apply in_seq in Hi. apply HZ. split; [lia|]. exists i, 0%nat. cbn. lia. }
    pose proof (NoDup_incl_length (seq_NoDup (2 * t) 1) I). rewrite seq_length in H. auto.
  - assert (I : incl zs (seq 1 (n - 1))). { intros i Hi. apply HZ in Hi. apply in_seq. lia. }
    pose proof (NoDup_incl_length ND I). rewrite seq_length in H. auto.
Qed.

Variables (t r : nat) (g : list Z) (L : list F).
Hypothesis C : code t r g L.
Lemma g_bit : forall j, j <= r -> bitZ (nth j g 0%Z).
Proof. intros j Hj. destruct C. apply bits_nth; auto. lia. Qed.

Lemma encode_ok : forall K u x, length u = K -> bits u -> length x = (r + K)%nat ->
  exists x', bch_encode K g u x = Ret x' /\ length x' = (r + K)%nat /\ bits x' /\ (forall k, k < K -> nth (r + k) x' 0%Z = nth k u 0%Z) /\
    forall b, In b L -> wv x' b = 0.
Proof.
  intros K u x Lu Bu Lx. pose proof C as C'. destruct C'. unfold bch_encode.
  destruct (parity_ok F K g u 0 x r) as (p & E & Lp & P1 & P2 & P3); auto using g_bit; try lia. { intros j Hj. cbn. apply bits_nth; auto. lia. }
  rewrite E. cbn [bind]. replace (length g - 1)%nat with r by lia.
  assert (CP : exists x', copy u 0 K p r = Ret x' /\ length x' = length p /\ (forall j, j < r -> nth j x' 0%Z = nth j p 0%Z) /\ forall k, k < K -> nth (r + k) x' 0%Z = nth k u 0%Z).
  { unfold copy. destruct (for_inv _ (fun k o => length o = length p /\ (forall j, j < r -> nth j o 0%Z = nth j p 0%Z) /\ forall i, i < k -> nth (r + i) o 0%Z = nth i u 0%Z)
      K (fun i o => x0 <- rd u (0 + i) ;; wr o (r + i) x0) p) as (x' & E' & Q); eauto.
    - repeat split; auto. intros; lia.
    - intros k o Hk (A1 & A2 & A3). rewrite (rd_ok _ 0%Z) by lia. cbn [bind]. rewrite wr_ok by lia. eexists. split; [reflexivity|]. rewrite length_upd. repeat split; auto.
      + intros j Hj. rewrite nth_upd_neq by lia. auto.
      + intros i Hi. rewrite nth_upd by lia. destruct (Nat.eqb_spec (r + i) (r + k)). { f_equal. lia. } apply A3. lia. }
  destruct CP as (x' & E' & Lx' & X1 & X2). exists x'. split; auto. split; [lia|]. split.
  { apply bits_nth. intros j Hj. destruct (lt_dec j r). { rewrite X1 by auto. apply P2. auto. } replace j with (r + (j - r))%nat by lia. rewrite X2 by lia. apply bits_nth; auto. lia. }
  split; auto. intros b Hb. rewrite (wv_split F x' r) by lia. replace (length x' - r)%nat with K by lia.
  rewrite (gsum_ext F r _ (fun j => bt (nth j p 0%Z) * pw F b j)) by (intros; rewrite X1; auto). rewrite P3 by auto. apply fadd_eq0.
  apply gsum_ext. intros j Hj. rewrite X2 by auto. auto.
Qed.

Lemma scan_ok : forall k (f : nat -> bool) body, (forall i, i < k -> body i = Ret (f i)) -> exists b, scan k body = Ret b /\ (b = true <-> forall i, i < k -> f i = true).
Proof.
  intros k f body H. unfold scan. destruct (for_inv _ (fun j b => b = true <-> forall i, i < j -> f i = true) k (fun i (valid : bool) => if valid then body i else Ret false) true) as (b & E & Hb); eauto.
  - split; auto. intros; lia.
  - intros j b Hj Hb. destruct b.
    + rewrite H by auto. eexists. split; [reflexivity|]. split.
      * intros Fj i Hi. destruct (Nat.eq_dec i j) as [->|]; auto. apply Hb; auto. lia.
      * intros HI. apply HI. lia.
    + eexists. split; [reflexivity|]. split; [discriminate|]. intros HI. apply Hb. intros. apply HI. lia.
Qed.

Lemma is_codeword_ok : forall K x bb, length x = (r + K)%nat -> bits x -> r <= length bb ->
  exists b, bch_is_codeword K g bb x = Ret b /\ (b = true <-> forall b, In b L -> wv x b = 0).
Proof.
  intros K x bb Lx Bx Lb. pose proof C as C'. destruct C'. unfold bch_is_codeword. replace (length g - 1)%nat with r by lia.
  destruct (parity_ok F K g x r bb r) as (p & E & Lp & P1 & P2 & P3); auto using g_bit; try lia. { intros j Hj. apply bits_nth; auto. lia. }
  rewrite E. cbn [bind].
  destruct (scan_ok r (fun j => (nth j x 0 =? nth j p 0)%Z) (fun j => a <- rd x j ;; b <- rd p j ;; Ret (a =? b)%Z)) as (b & Eb & Hb).
  { intros i Hi. rewrite !(rd_ok _ 0%Z) by lia. auto. }
  exists b. split; auto. rewrite Hb. split.
  - intros HE c Hc. rewrite (wv_split F x r) by lia. replace (length x - r)%nat with K by lia.
    rewrite (gsum_ext F r _ (fun j => bt (nth j p 0%Z) * pw F c j)). 2:{ intros j Hj. specialize (HE j Hj). apply Z.eqb_eq in HE. rewrite HE. auto. }
    rewrite P3 by auto. apply fadd_self.
  - intros HX j Hj. apply Z.eqb_eq. apply (parity_unique F r L (fun j => nth j x 0%Z) (fun j => nth j p 0%Z)); auto. { intros i Hi. apply bits_nth; auto. lia. }
    intros c Hc. rewrite P3 by auto. apply fadd_cancel. rewrite <- (HX c Hc). rewrite (wv_split F x r) by lia. replace (length x - r)%nat with K by lia. auto.
Qed.

Lemma codeword_unique : forall x x', length x = length x' -> r <= length x -> bits x -> bits x' -> (forall b, In b L -> wv x b = 0) -> (forall b, In b L -> wv x' b = 0) ->
  (forall j, r <= j < length x -> nth j x 0%Z = nth j x' 0%Z) -> x = x'.
Proof.
  intros x x' LE Lr B B' H H' HE. apply (nth_ext _ _ 0%Z 0%Z); auto. intros j Hj. destruct (le_lt_dec r j) as [|Hjr]. { apply HE. lia. }
  pose proof C as C'. destruct C'. apply (parity_unique F r L (fun j => nth j x 0%Z) (fun j => nth j x' 0%Z)); auto.
  - intros i Hi. apply bits_nth; auto. lia.
  - intros i Hi. apply bits_nth; auto. lia.
  - intros b Hb. specialize (H b Hb). specialize (H' b Hb). rewrite (wv_split F x r) in H by lia. rewrite (wv_split F x' r) in H' by lia.
    apply fadd_cancel in H. apply fadd_cancel in H'. rewrite H, H', LE. apply gsum_ext. intros i Hi. rewrite HE by lia. auto.
Qed.
End Code.

(** The specification and evaluation in the field. *)
Lemma has_root_wv : forall m P (Hm : 2 <= m) (HP : primitive m P) i x, bits x ->
  (has_root P i (map Z.to_N x) <-> wv (GF m P Hm HP) x (pw (GF m P Hm HP) (gal m P Hm HP) i) = f0 (GF m P Hm HP)).
Proof.
  intros m P Hm HP i x Bx. unfold wv. replace (map Z.to_N x) with (map (gfv m P Hm HP) (map (bt (GF m P Hm HP)) x)).
  2:{ rewrite map_map. apply map_ext_in. intros a Ha. unfold bits in Bx. rewrite Forall_forall in Bx. destruct (Bx a Ha) as [-> | ->]; reflexivity. }
  rewrite !(has_root_eval m P Hm HP). rewrite eval_gsum, map_length.
  assert (E : gsum (GF m P Hm HP) (length x) (fun i0 => fmul (GF m P Hm HP) (nth i0 (map (bt (GF m P Hm HP)) x) (f0 _)) (pw _ (pw _ (gal m P Hm HP) i) i0)) =
     gsum (GF m P Hm HP) (length x) (fun i0 => fmul (GF m P Hm HP) (bt _ (nth i0 x 0%Z)) (pw _ (pw _ (gal m P Hm HP) i) i0))).
  { apply gsum_ext. intros j Hj. f_equal. rewrite (nth_indep _ _ (bt (GF m P Hm HP) 0%Z)) by (rewrite map_length; auto). apply map_nth. }
  rewrite E. tauto.
Qed.
