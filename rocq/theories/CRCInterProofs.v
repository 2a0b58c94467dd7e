From Coq Require Import List Arith ZArith Lia Bool.
From Verif Require Import Base Loops GF2 BitPackerModel BitPackerSpec BitPackerProofs CRCModel CRCSpec CRCProofs.
Import ListNotations.

(** frame [f] of a wave of [nf] interleaved frames *)
Definition lane (nf f n : nat) (w : list Z) : list Z := tab n (fun i => nth (i * nf + f) w 0%Z).

Definition bin (x : Z) : Prop := x = 0%Z \/ x = 1%Z.

Lemma bin_b2z : forall x, bin x -> x = b2z (nz x).
Proof. intros x [->| ->]; auto. Qed.

Lemma b2z_bin : forall b, bin (b2z b).
Proof. intros []; [right|left]; auto. Qed.

Lemma lxor_b2z : forall a b, Z.lxor (b2z a) (b2z b) = b2z (xorb a b).
Proof. intros [] []; auto. Qed.

Lemma nz_b2z : forall b, nz (b2z b) = b.
Proof. intros []; auto. Qed.

(** one register operation: [nf] elements from position [p * nf] *)
Lemma inter_reg : forall nf p mask (pj : bool) b, p * nf + nf <= length b -> length mask = nf -> Forall bin b ->
  exists b', for_ nf (fun f b => x <- rd b (p * nf + f) ;; m <- rd mask f ;;
        wr b (p * nf + f) (if m : bool then Z.lxor x (b2z pj) else x)) b = Ret b' /\
    length b' = length b /\ Forall bin b' /\
    forall k f, f < nf -> nz (nth (k * nf + f) b' 0%Z) =
      xorb (nz (nth (k * nf + f) b 0%Z)) (if k =? p then nth f mask false && pj else false).
Proof.
  intros nf p mask pj b Hb Hm HF.
  destruct (for_inv _ (fun n b' => length b' = length b /\ Forall bin b' /\
    forall k f, f < nf -> nz (nth (k * nf + f) b' 0%Z) =
      xorb (nz (nth (k * nf + f) b 0%Z)) (if (k =? p) && (f <? n) then nth f mask false && pj else false)) nf
    (fun f b => x <- rd b (p * nf + f) ;; m <- rd mask f ;;
        wr b (p * nf + f) (if m : bool then Z.lxor x (b2z pj) else x)) b) as (b' & E & L & F & I).
  - split; auto. split; auto. intros k f Hf. destruct (k =? p); simpl; rewrite xorb_false_r; auto.
  - intros f s Hf (L & F & I). rewrite (rd_ok _ 0%Z) by lia. cbn [bind]. rewrite (rd_ok _ false) by lia. cbn [bind].
    rewrite wr_ok by lia. eexists; split; [reflexivity|]. rewrite length_upd. split; auto.
    set (x := nth (p * nf + f) s 0%Z).
    assert (Bx : bin x).
    { unfold x. rewrite Forall_forall in F. apply F. apply nth_In. lia. }
    assert (X : (if nth f mask false then Z.lxor x (b2z pj) else x) = b2z (xorb (nz x) (nth f mask false && pj))).
    { rewrite (bin_b2z x Bx). rewrite nz_b2z. destruct (nth f mask false); simpl.
      - apply lxor_b2z.
      - rewrite xorb_false_r. auto. }
    rewrite X. split.
    + rewrite Forall_forall. intros y Hy. apply In_nth with (d := 0%Z) in Hy. destruct Hy as (i & Hi & <-).
      rewrite length_upd in Hi. rewrite nth_upd by lia. destruct (Nat.eqb_spec i (p * nf + f)).
      * apply b2z_bin.
      * rewrite Forall_forall in F. apply F. apply nth_In. auto.
    + intros k f' Hf'. rewrite nth_upd by lia. destruct (Nat.eqb_spec (k * nf + f') (p * nf + f)).
      * destruct (divmod_unique_lt nf k f' p f) as [-> ->]; auto.
        rewrite nz_b2z, Nat.eqb_refl. destruct (Nat.ltb_spec f (S f)); [|lia]. simpl. f_equal.
        unfold x. rewrite I by auto. destruct (Nat.ltb_spec f f); [lia|]. rewrite andb_false_r, xorb_false_r. auto.
      * rewrite I by auto. f_equal. destruct (Nat.eqb_spec k p); simpl; auto. subst.
        destruct (Nat.ltb_spec f' f), (Nat.ltb_spec f' (S f)); auto; try lia.
  - exists b'. split; auto. split; auto. split; auto. intros k f Hf. rewrite I by auto. f_equal.
    destruct (k =? p); simpl; auto. destruct (Nat.ltb_spec f nf); auto; lia.
Qed.

Lemma inter_row : forall g size nf i mask b, good_poly g size -> (i + size + 1) * nf <= length b ->
  length mask = nf -> Forall bin b ->
  exists b', for_ (size + 1) (fun j b => p <- rd g j ;;
      for_ nf (fun f b => x <- rd b (i * nf + nf * j + f) ;; m <- rd mask f ;;
        wr b (i * nf + nf * j + f) (if m : bool then Z.lxor x (b2z p) else x)) b) b = Ret b' /\
    length b' = length b /\ Forall bin b' /\
    forall k f, f < nf -> nz (nth (k * nf + f) b' 0%Z) =
      xorb (nz (nth (k * nf + f) b 0%Z)) (nth f mask false && (if i <=? k then nth (k - i) g false else false)).
Proof.
  intros g size nf i mask b [Lg G0] Hb Hm HF.
  destruct (for_inv _ (fun j b' => length b' = length b /\ Forall bin b' /\
    forall k f, f < nf -> nz (nth (k * nf + f) b' 0%Z) =
      xorb (nz (nth (k * nf + f) b 0%Z)) (nth f mask false && (if (i <=? k) && (k <? i + j) then nth (k - i) g false else false)))
    (size + 1) (fun j b => p <- rd g j ;;
      for_ nf (fun f b => x <- rd b (i * nf + nf * j + f) ;; m <- rd mask f ;;
        wr b (i * nf + nf * j + f) (if m : bool then Z.lxor x (b2z p) else x)) b) b) as (b' & E & L & F & I).
  - split; auto. split; auto. intros k f Hf. destruct (Nat.leb_spec i k), (Nat.ltb_spec k (i + 0)); simpl; try lia;
      rewrite andb_false_r, xorb_false_r; auto.
  - intros j s Hj (L & F & I). rewrite (rd_ok _ false) by lia. cbn [bind].
    replace (i * nf + nf * j) with ((i + j) * nf) by lia.
    destruct (inter_reg nf (i + j) mask (nth j g false) s) as (s' & E' & L' & F' & I'); auto.
    { rewrite L. nia. }
    exists s'. split; auto. split; [lia|]. split; auto.
    intros k f Hf. rewrite I', I by auto. rewrite xorb_assoc. f_equal.
    destruct (Nat.eqb_spec k (i + j)).
    + subst k. destruct (Nat.leb_spec i (i + j)); [|lia]. destruct (Nat.ltb_spec (i + j) (i + j)); [lia|].
      destruct (Nat.ltb_spec (i + j) (i + S j)); [|lia]. replace (i + j - i) with j by lia. simpl.
      rewrite andb_false_r. apply xorb_false_l.
    + rewrite xorb_false_r. f_equal. destruct (Nat.leb_spec i k); simpl; auto.
      destruct (Nat.ltb_spec k (i + j)), (Nat.ltb_spec k (i + S j)); auto; lia.
  - exists b'. split; auto. split; auto. split; auto. intros k f Hf. rewrite I by auto. f_equal. f_equal.
    destruct (Nat.leb_spec i k); simpl; auto. destruct (Nat.ltb_spec k (i + (size + 1))); auto.
    symmetry. apply nth_overflow. lia.
Qed.

Lemma mask_spec : forall nf i b, i * nf + nf <= length b ->
  for_ nf (fun f m => x <- rd b (i * nf + f) ;; Ret (m ++ [nz x])) [] = Ret (tab nf (fun f => nz (nth (i * nf + f) b 0%Z))).
Proof.
  intros. destruct (for_inv _ (fun n m => m = tab n (fun f => nz (nth (i * nf + f) b 0%Z))) nf
    (fun f m => x <- rd b (i * nf + f) ;; Ret (m ++ [nz x])) []) as (m & E & I); auto.
  - intros f m Hf I. rewrite (rd_ok _ 0%Z) by lia. cbn [bind]. eexists; split; [reflexivity|]. subst. rewrite tab_S. auto.
  - rewrite E, I. auto.
Qed.

Lemma generate_inter_spec : forall g size K nf buff V, good_poly g size ->
  length buff = (K + size) * nf -> length V = (K + size) * nf -> Forall bin V -> Forall bin buff ->
  exists b, generate_inter g size K nf buff V = Ret b /\ length b = length buff /\ Forall bin b /\
   forall f, f < nf -> exists q, length q = K /\
    (forall k, k < K + size ->
       xorb (if k <? K then nz (nth (k * nf + f) V 0%Z) else false) (nz (nth (k * nf + f) b 0%Z)) = prod_coef q g k) /\
    (forall k, k < K -> nz (nth (k * nf + f) b 0%Z) = false).
Proof.
  intros g size K nf buff V Hg Lb LV FV FB. pose proof Hg as [Lg G0]. unfold generate_inter.
  assert (BV : forall i, bin (nth i V 0%Z)).
  { intros i. destruct (le_lt_dec (length V) i). { rewrite nth_overflow by auto. left; auto. }
    rewrite Forall_forall in FV. apply FV. apply nth_In. auto. }
  destruct (for_inv _ (fun i b => length b = length buff /\ Forall bin b /\
    (forall k, k < i -> nth k b 0%Z = nth k V 0%Z)) (K * nf)
    (fun i b => x <- rd V i ;; wr b i x) buff) as (b1 & E1 & L1 & F1 & I1).
  { split; auto. split; auto. intros; lia. }
  { intros i b Hi (L & F & I). rewrite (rd_ok _ 0%Z) by lia. cbn [bind]. rewrite wr_ok by lia.
    eexists; split; [reflexivity|]. rewrite length_upd. split; auto. split.
    - rewrite Forall_forall. intros y Hy. apply In_nth with (d := 0%Z) in Hy. destruct Hy as (k & Hk & <-).
      rewrite length_upd in Hk. rewrite nth_upd by lia. destruct (Nat.eqb_spec k i); auto.
      rewrite Forall_forall in F. apply F. apply nth_In. auto.
    - intros k Hk. rewrite nth_upd by lia.
      destruct (Nat.eqb_spec k i); [subst; auto|]. apply I; lia. }
  rewrite E1. cbn [bind].
  destruct (for_inv _ (fun i b => length b = length buff /\ Forall bin b /\
    (forall k, k < K * nf -> nth k b 0%Z = nth k V 0%Z) /\
    (forall k, K * nf <= k < K * nf + i -> nth k b 0%Z = 0%Z)) (nf * size)
    (fun i b => wr b (length b - nf * size + i) 0%Z) b1) as (b2 & E2 & L2 & F2 & I2 & I3).
  { split; auto. split; auto. split; auto. intros; lia. }
  { intros i b Hi (L & F & I & J). replace (length b - nf * size) with (K * nf) by lia. rewrite wr_ok by lia.
    eexists; split; [reflexivity|]. rewrite length_upd. split; auto. split; [|split].
    - rewrite Forall_forall. intros y Hy. apply In_nth with (d := 0%Z) in Hy. destruct Hy as (k & Hk & <-).
      rewrite length_upd in Hk. rewrite nth_upd by lia. destruct (Nat.eqb_spec k (K * nf + i)); [left; auto|].
      rewrite Forall_forall in F. apply F. apply nth_In. auto.
    - intros k Hk. rewrite nth_upd_neq by lia. auto.
    - intros k Hk. rewrite nth_upd by lia. destruct (Nat.eqb_spec k (K * nf + i)); auto. apply J; lia. }
  rewrite E2. cbn [bind].
  set (w := fun f k => if k <? K then nz (nth (k * nf + f) V 0%Z) else false).
  destruct (for_inv _ (fun i b => length b = length buff /\ Forall bin b /\ forall f, f < nf -> exists q, length q = i /\
    (forall k, k < K + size -> nz (nth (k * nf + f) b 0%Z) = xorb (w f k) (prod_coef q g k)) /\
    (forall k, k < i -> nz (nth (k * nf + f) b 0%Z) = false)) K
    (fun k b => let i := k * nf in
    mask <- for_ nf (fun f m => x <- rd b (i + f) ;; Ret (m ++ [nz x])) [] ;;
    for_ (size + 1) (fun j b => p <- rd g j ;;
      for_ nf (fun f b => x <- rd b (i + nf * j + f) ;; m <- rd mask f ;;
        wr b (i + nf * j + f) (if m : bool then Z.lxor x (b2z p) else x)) b) b) b2) as (b & E & L & F & J).
  { split; auto. split; auto. intros f Hf. exists []. split; auto. split.
    - intros k Hk. rewrite prod_coef_nil, xorb_false_r. unfold w. destruct (Nat.ltb_spec k K).
      + rewrite I2 by nia. auto.
      + rewrite I3 by nia. auto.
    - intros; lia. }
  { intros i b Hi (L & F & J). cbv zeta. rewrite mask_spec by nia. cbn [bind].
    destruct (inter_row g size nf i (tab nf (fun f => nz (nth (i * nf + f) b 0%Z))) b) as (b' & E & L' & F' & I'); auto.
    { nia. }
    { apply length_tab. }
    exists b'. split; auto. split; [lia|]. split; auto. intros f Hf. destruct (J f Hf) as (q & Lq & J1 & J2).
    exists (q ++ [nz (nth (i * nf + f) b 0%Z)]). split; [rewrite app_length; simpl; lia|]. split.
    - intros k Hk. rewrite I', J1, nth_tab by auto. rewrite prod_coef_snoc, Lq, xorb_assoc. auto.
    - intros k Hk. rewrite I', nth_tab by auto. destruct (Nat.eq_dec k i).
      + subst k. rewrite Nat.leb_refl, Nat.sub_diag, G0, andb_true_r. apply xorb_nilpotent.
      + rewrite J2 by lia. destruct (Nat.leb_spec i k); [lia|]. rewrite andb_false_r. auto. }
  exists b. split; auto. split; auto. split; auto. intros f Hf. destruct (J f Hf) as (q & Lq & J1 & J2).
  exists q. split; auto. split; auto. intros k Hk. rewrite J1 by auto. unfold w. apply xorb_cancel.
Qed.

Lemma inter_loop_spec : forall n i off buff V, off + i + n <= length buff -> off + i + n <= length V ->
  exists r, inter_loop n i off buff V = Ret r /\
    (r = true <-> forall k, i <= k < i + n -> nth (off + k) buff 0%Z = nth (off + k) V 0%Z).
Proof.
  induction n; intros i off buff V Hb HV; simpl.
  - exists true. split; auto. split; auto. intros; lia.
  - rewrite !(rd_ok _ 0%Z) by lia. cbn [bind]. destruct (Z.eqb_spec (nth (off + i) buff 0%Z) (nth (off + i) V 0%Z)).
    + destruct (IHn (S i) off buff V) as (r & Er & Hr); try lia. exists r. split; auto.
      rewrite Hr. split; intros.
      * destruct (Nat.eq_dec k i); [subst; auto|]. apply H; lia.
      * apply H; lia.
    + exists false. split; auto. split; [discriminate|]. intros H. elim n0. apply H. lia.
Qed.

Lemma inter_check_spec : forall g size K nf buff V, good_poly g size ->
  length buff = (K + size) * nf -> length V = (K + size) * nf -> Forall bin V -> Forall bin buff ->
  exists r buff', inter_check g size K nf buff V = Ret (r, buff') /\ length buff' = length buff /\ Forall bin buff' /\
    (r = true <-> forall f, f < nf -> multiple g (bits_of (lane nf f (K + size) V))).
Proof.
  intros g size K nf buff V Hg Lb LV FV FB. unfold inter_check.
  destruct (generate_inter_spec g size K nf buff V Hg Lb LV FV FB) as (b & E & L & F & J).
  rewrite E. cbn [bind].
  destruct (inter_loop_spec (nf * size) 0 (K * nf) b V) as (r & Er & Hr); try lia. rewrite Er. cbn [bind].
  exists r, b. split; auto. split; auto. split; auto. rewrite Hr. destruct Hg as [Lg G0].
  assert (Binb : forall i, bin (nth i b 0%Z)).
  { intros i. destruct (le_lt_dec (length b) i). { rewrite nth_overflow by auto. left; auto. }
    rewrite Forall_forall in F. apply F. apply nth_In. auto. }
  assert (BV : forall i, bin (nth i V 0%Z)).
  { intros i. destruct (le_lt_dec (length V) i). { rewrite nth_overflow by auto. left; auto. }
    rewrite Forall_forall in FV. apply FV. apply nth_In. auto. }
  assert (NL : forall f k, k < K + size -> nth k (bits_of (lane nf f (K + size) V)) false = nz (nth (k * nf + f) V 0%Z)).
  { intros. rewrite nth_bits_of. unfold lane. rewrite nth_tab by auto. auto. }
  assert (LL : forall f, length (bits_of (lane nf f (K + size) V)) = K + size).
  { intros. unfold bits_of, lane. rewrite map_length, length_tab. auto. }
  (* the word obtained by division *)
  assert (W : forall f, f < nf -> (multiple g (bits_of (lane nf f (K + size) V)) <->
     forall k, K <= k < K + size -> nz (nth (k * nf + f) b 0%Z) = nz (nth (k * nf + f) V 0%Z))).
  { intros f Hf. destruct (J f Hf) as (q & Lq & J1 & J2).
    set (w := tab (K + size) (prod_coef q g)).
    assert (Mw : multiple g w).
    { exists q. unfold w. rewrite length_tab. split; [lia|]. intros. rewrite nth_tab by auto. auto. }
    assert (Nw : forall k, k < K + size -> nth k w false = if k <? K then nz (nth (k * nf + f) V 0%Z) else nz (nth (k * nf + f) b 0%Z)).
    { intros k Hk. unfold w. rewrite nth_tab by auto. rewrite <- J1 by auto.
      destruct (Nat.ltb_spec k K); [rewrite J2 by auto; rewrite xorb_false_r | rewrite xorb_false_l]; auto. }
    split.
    - intros M k Hk. assert (Ew : bits_of (lane nf f (K + size) V) = w).
      { apply multiple_unique with (g := g) (K := K); auto.
        - unfold w. rewrite LL, length_tab. auto.
        - rewrite LL. lia.
        - intros j Hj. rewrite NL, Nw by lia. destruct (Nat.ltb_spec j K); auto; lia. }
      rewrite <- (NL f k) by lia. rewrite Ew, Nw by lia. destruct (Nat.ltb_spec k K); auto; lia.
    - intros H. replace (bits_of (lane nf f (K + size) V)) with w; auto.
      apply list_eq_nth with (d := false). { unfold w. rewrite LL, length_tab. auto. }
      intros k Hk. unfold w in Hk. rewrite length_tab in Hk. rewrite NL, Nw by auto.
      destruct (Nat.ltb_spec k K); auto. }
  split.
  - intros H f Hf. apply W; auto. intros k Hk. f_equal.
    replace (k * nf + f) with (K * nf + ((k - K) * nf + f)) by nia. apply H. nia.
  - intros H k Hk. assert (nf <> 0) by nia.
    set (p := K * nf + k). assert (Hp : p = p / nf * nf + p mod nf) by (pose proof (Nat.div_mod p nf ltac:(lia)); lia).
    pose proof (Nat.mod_upper_bound p nf ltac:(lia)).
    assert (K <= p / nf) by (apply Nat.div_le_lower_bound; unfold p; lia).
    assert (p / nf < K + size) by (apply Nat.div_lt_upper_bound; unfold p; lia).
    rewrite (bin_b2z (nth p b 0%Z)), (bin_b2z (nth p V 0%Z)) by auto. f_equal. rewrite Hp.
    apply W; auto.
Qed.
