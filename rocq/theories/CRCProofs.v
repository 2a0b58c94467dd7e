From Coq Require Import List Arith ZArith Lia Bool.
From Verif Require Import Base Loops GF2 BitPackerModel BitPackerSpec BitPackerProofs CRCModel CRCSpec.
Import ListNotations.

(** ** polynomials *)

Lemma prod_coef_snoc : forall q x g k, prod_coef (q ++ [x]) g k =
  xorb (prod_coef q g k) (x && (if length q <=? k then nth (k - length q) g false else false)).
Proof.
  intros. unfold prod_coef. rewrite app_length. simpl length. rewrite Nat.add_1_r. cbn [xsum]. f_equal.
  - apply xsum_ext. intros. rewrite app_nth1 by auto. auto.
  - rewrite app_nth2 by lia. rewrite Nat.sub_diag. auto.
Qed.

Lemma prod_coef_nil : forall g k, prod_coef [] g k = false.
Proof. reflexivity. Qed.

Lemma prod_coef_xorl : forall q q' g k, length q = length q' ->
  prod_coef (xorl q q') g k = xorb (prod_coef q g k) (prod_coef q' g k).
Proof.
  intros. unfold prod_coef. rewrite length_xorl, <- H by auto. rewrite <- xsum_xorb.
  apply xsum_ext. intros. rewrite nth_xorl by auto.
  destruct (nth i q false), (nth i q' false), (if i <=? k then nth (k - i) g false else false); auto.
Qed.

(** if the first [n] coefficients of a product vanish, so does the quotient *)
Lemma prod_zero : forall q g, nth 0 g false = true ->
  (forall k, k < length q -> prod_coef q g k = false) -> forall k, nth k q false = false.
Proof.
  intros q g Hg H.
  assert (A : forall k, k < length q -> nth k q false = false).
  { induction k using lt_wf_ind. intros Hk. pose proof (H k Hk) as E. unfold prod_coef in E.
    rewrite (xsum_single _ _ k) in E; auto.
    - rewrite Nat.leb_refl, Nat.sub_diag, Hg, andb_true_r in E. auto.
    - intros j Hj Hn. destruct (Nat.leb_spec j k).
      + rewrite (H0 j) by lia. auto.
      + apply andb_false_r. }
  intros k. destruct (le_lt_dec (length q) k); auto. apply nth_overflow; auto.
Qed.

Lemma prod_coef_zero : forall q g k, (forall i, nth i q false = false) -> prod_coef q g k = false.
Proof. intros. unfold prod_coef. apply xsum_false. intros. rewrite H. auto. Qed.

Lemma multiple_xorl : forall g v v', length v = length v' ->
  multiple g v -> multiple g v' -> multiple g (xorl v v').
Proof.
  intros g v v' L (q & Lq & Hq) (q' & Lq' & Hq'). exists (xorl q q').
  rewrite !length_xorl by lia. split; [lia|]. intros k Hk.
  rewrite nth_xorl by auto. rewrite prod_coef_xorl by lia. rewrite Hq, Hq' by lia. auto.
Qed.

(** a multiple is determined by its leading coefficients *)
Lemma multiple_unique : forall g v v' K, nth 0 g false = true ->
  length v = length v' -> length v + 1 = K + length g ->
  multiple g v -> multiple g v' ->
  (forall k, k < K -> nth k v false = nth k v' false) -> v = v'.
Proof.
  intros g v v' K Hg L LK Hv Hv' E.
  destruct (multiple_xorl g v v' L Hv Hv') as (q & Lq & Hq).
  rewrite length_xorl in * by auto.
  assert (length q = K) by lia.
  assert (Z : forall k, nth k q false = false).
  { apply prod_zero with (g := g); auto. intros k Hk.
    assert (1 <= length g). { destruct g; simpl in *; [discriminate|lia]. }
    rewrite <- Hq by lia. rewrite nth_xorl by auto. rewrite E by lia. apply xorb_nilpotent. }
  apply list_eq_nth with (d := false); auto. intros k Hk.
  specialize (Hq k Hk). rewrite prod_coef_zero in Hq by auto. rewrite nth_xorl in Hq by auto.
  destruct (nth k v false), (nth k v' false); auto; discriminate.
Qed.

(** ** the division loop *)

Lemma copy_n_spec : forall src so n dst d, so + n <= length src -> d + n <= length dst ->
  exists o, copy_n src so n dst d = Ret o /\ length o = length dst /\
    (forall i, i < n -> nth (d + i) o 0%Z = nth (so + i) src 0%Z) /\
    (forall k, k < d \/ d + n <= k -> nth k o 0%Z = nth k dst 0%Z).
Proof.
  intros src so n dst d Hs Hd. unfold copy_n.
  destruct (for_inv _ (fun i o => length o = length dst /\
    (forall i', i' < i -> nth (d + i') o 0%Z = nth (so + i') src 0%Z) /\
    (forall k, k < d \/ d + i <= k -> nth k o 0%Z = nth k dst 0%Z)) n
    (fun i o => x <- rd src (so + i) ;; wr o (d + i) x) dst) as (o & E & I).
  - split; auto. split; intros; auto; lia.
  - intros i o Hi (L & I1 & I2). rewrite (rd_ok _ 0%Z) by lia. cbn [bind].
    rewrite wr_ok by lia. eexists; split; [reflexivity|]. rewrite length_upd. split; auto. split.
    + intros i' Hi'. rewrite nth_upd by lia. destruct (Nat.eqb_spec (d + i') (d + i)).
      * f_equal. lia.
      * apply I1. lia.
    + intros k Hk. rewrite nth_upd_neq by lia. apply I2. lia.
  - exists o. auto.
Qed.

Definition good_poly (g : list bool) (size : nat) : Prop := length g = size + 1 /\ nth 0 g false = true.

Lemma xor_row_spec : forall g size b i, good_poly g size -> i + size < length b ->
  exists b', for_ (size + 1) (fun j b => p <- rd g j ;;
        if p : bool then y <- rd b (i + j) ;; wr b (i + j) (b2z (negb (nz y))) else Ret b) b = Ret b' /\
    length b' = length b /\
    (forall k, nz (nth k b' 0%Z) = xorb (nz (nth k b 0%Z)) (if i <=? k then nth (k - i) g false else false)) /\
    (forall k, nth k b' 0%Z = nth k b 0%Z \/ nth k b' 0%Z = b2z (nz (nth k b' 0%Z))).
Proof.
  intros g size b i [Lg _] Hb.
  destruct (for_inv _ (fun j b' => length b' = length b /\
    (forall k, nz (nth k b' 0%Z) = xorb (nz (nth k b 0%Z)) (if (i <=? k) && (k <? i + j) then nth (k - i) g false else false)) /\
    (forall k, nth k b' 0%Z = nth k b 0%Z \/ nth k b' 0%Z = b2z (nz (nth k b' 0%Z)))) (size + 1)
    (fun j b => p <- rd g j ;;
        if p : bool then y <- rd b (i + j) ;; wr b (i + j) (b2z (negb (nz y))) else Ret b) b) as (b' & E & L & I1 & I2).
  - split; auto. split; auto. intros k. destruct (Nat.leb_spec i k), (Nat.ltb_spec k (i + 0)); simpl; try lia;
      rewrite xorb_false_r; auto.
  - intros j s Hj (L & I1 & I2). rewrite (rd_ok _ false) by lia. cbn [bind].
    destruct (nth j g false) eqn:G.
    + rewrite (rd_ok _ 0%Z) by lia. cbn [bind]. rewrite wr_ok by lia. eexists; split; [reflexivity|].
      rewrite length_upd. split; auto. split.
      * intros k. rewrite nth_upd by lia. destruct (Nat.eqb_spec k (i + j)).
        { subst k. destruct (Nat.leb_spec i (i + j)); [|lia]. destruct (Nat.ltb_spec (i + j) (i + S j)); [|lia].
          simpl. replace (i + j - i) with j by lia. rewrite G. rewrite I1.
          destruct (Nat.leb_spec i (i + j)); [|lia]. destruct (Nat.ltb_spec (i + j) (i + j)); [lia|].
          simpl. destruct (nz (nth (i + j) b 0%Z)); reflexivity. }
        { rewrite I1. f_equal. destruct (Nat.leb_spec i k); simpl; auto.
          destruct (Nat.ltb_spec k (i + j)), (Nat.ltb_spec k (i + S j)); auto; lia. }
      * intros k. rewrite nth_upd by lia. destruct (Nat.eqb_spec k (i + j)); auto.
        right. destruct (negb (nz (nth (i + j) s 0%Z))); reflexivity.
    + eexists; split; [reflexivity|]. split; auto. split; auto.
      intros k. rewrite I1. f_equal. destruct (Nat.leb_spec i k); simpl; auto.
      destruct (Nat.ltb_spec k (i + j)), (Nat.ltb_spec k (i + S j)); auto; try lia.
      replace (k - i) with j by lia. auto.
  - exists b'. split; auto. split; auto. split; auto. intros k. rewrite I1. f_equal.
    destruct (Nat.leb_spec i k); simpl; auto. destruct (Nat.ltb_spec k (i + (size + 1))); auto.
    symmetry. apply nth_overflow. lia.
Qed.

Lemma generate_spec : forall g size buff U off n, good_poly g size ->
  n + size <= length buff -> off + n <= length U ->
  exists b q, generate g size buff U off n = Ret b /\ length b = length buff /\ length q = n /\
    (forall k, k < n + size ->
       xorb (if k <? n then nz (nth (off + k) U 0%Z) else false) (nz (nth k b 0%Z)) = prod_coef q g k) /\
    (forall k, k < n -> nz (nth k b 0%Z) = false) /\
    (forall k, n <= k < n + size -> nth k b 0%Z = b2z (nz (nth k b 0%Z))).
Proof.
  intros g size buff U off n Hg Hb HU. pose proof Hg as [Lg G0]. unfold generate.
  destruct (for_inv _ (fun i b => length b = length buff /\
    (forall k, k < i -> nth k b 0%Z = nth (off + k) U 0%Z)) n
    (fun i b => x <- rd U (off + i) ;; wr b i x) buff) as (b1 & E1 & L1 & I1).
  { split; auto. intros; lia. }
  { intros i b Hi (L & I). rewrite (rd_ok _ 0%Z) by lia. cbn [bind]. rewrite wr_ok by lia.
    eexists; split; [reflexivity|]. rewrite length_upd. split; auto. intros k Hk. rewrite nth_upd by lia.
    destruct (Nat.eqb_spec k i); [subst; auto|]. apply I; lia. }
  rewrite E1. cbn [bind].
  destruct (for_inv _ (fun i b => length b = length buff /\
    (forall k, k < n -> nth k b 0%Z = nth (off + k) U 0%Z) /\
    (forall k, n <= k < n + i -> nth k b 0%Z = 0%Z)) size
    (fun i b => wr b (n + i) 0%Z) b1) as (b2 & E2 & L2 & I2 & I3).
  { split; auto. split; auto. intros; lia. }
  { intros i b Hi (L & I & J). rewrite wr_ok by lia.
    eexists; split; [reflexivity|]. rewrite length_upd. split; auto. split.
    - intros k Hk. rewrite nth_upd_neq by lia. auto.
    - intros k Hk. rewrite nth_upd by lia. destruct (Nat.eqb_spec k (n + i)); auto. apply J; lia. }
  rewrite E2. cbn [bind].
  set (w := fun k => if k <? n then nz (nth (off + k) U 0%Z) else false).
  destruct (for_inv _ (fun i b => length b = length buff /\ exists q, length q = i /\
    (forall k, k < n + size -> nz (nth k b 0%Z) = xorb (w k) (prod_coef q g k)) /\
    (forall k, k < i -> nz (nth k b 0%Z) = false) /\
    (forall k, n <= k < n + size -> nth k b 0%Z = b2z (nz (nth k b 0%Z)))) n
    (fun i b => x <- rd b i ;; if nz x then
      for_ (size + 1) (fun j b => p <- rd g j ;;
        if p : bool then y <- rd b (i + j) ;; wr b (i + j) (b2z (negb (nz y))) else Ret b) b
    else Ret b) b2) as (b & E & L & q & Lq & J1 & J2 & J3).
  { split; auto. exists []. split; auto. split; [|split].
    - intros k Hk. rewrite prod_coef_nil, xorb_false_r. unfold w. destruct (Nat.ltb_spec k n).
      + rewrite I2; auto.
      + rewrite I3 by lia. auto.
    - intros; lia.
    - intros k Hk. rewrite I3 by lia. auto. }
  { intros i b Hi (L & q & Lq & J1 & J2 & J3). rewrite (rd_ok _ 0%Z) by lia. cbn [bind].
    destruct (nz (nth i b 0%Z)) eqn:Z.
    - destruct (xor_row_spec g size b i Hg) as (b' & E & L' & K1 & K2); [lia|].
      rewrite E. exists b'. split; auto. split; [lia|]. exists (q ++ [true]).
      split; [rewrite app_length; simpl; lia|]. split; [|split].
      + intros k Hk. rewrite K1, J1 by auto. rewrite prod_coef_snoc, Lq, xorb_assoc. auto.
      + intros k Hk. rewrite K1. destruct (Nat.eq_dec k i).
        * subst k. rewrite Z, Nat.leb_refl, Nat.sub_diag, G0. auto.
        * rewrite J2 by lia. destruct (Nat.leb_spec i k); auto; lia.
      + intros k Hk. destruct (K2 k) as [e|e]; auto. rewrite e. apply J3; auto.
    - exists b. split; auto. split; auto. exists (q ++ [false]).
      split; [rewrite app_length; simpl; lia|]. split; [|split]; auto.
      + intros k Hk. rewrite prod_coef_snoc. simpl. rewrite xorb_false_r. auto.
      + intros k Hk. destruct (Nat.eq_dec k i); [subst; auto|]. apply J2; lia. }
  exists b, q. split; auto. split; auto. split; auto. split; [|split]; auto.
  intros k Hk. rewrite J1 by auto. unfold w. apply xorb_cancel.
Qed.

Lemma check_loop_spec : forall n i off buff V, off + i + n <= length buff -> off + i + n <= length V ->
  exists r, check_loop n i off buff V = Ret r /\
    (r = true <-> forall k, i <= k < i + n -> nz (nth (off + k) buff 0%Z) = nz (nth (off + k) V 0%Z)).
Proof.
  induction n; intros i off buff V Hb HV; simpl.
  - exists true. split; auto. split; auto. intros; lia.
  - rewrite !(rd_ok _ 0%Z) by lia. cbn [bind].
    set (x := nz (nth (off + i) buff 0%Z)). set (y := nz (nth (off + i) V 0%Z)).
    destruct ((x || negb y) && (negb x || y)) eqn:E.
    + assert (x = y) by (destruct x, y; auto; discriminate).
      destruct (IHn (S i) off buff V) as (r & Er & Hr); try lia. exists r. split; auto.
      rewrite Hr. split; intros.
      * destruct (Nat.eq_dec k i); [subst; auto|]. apply H0; lia.
      * apply H0; lia.
    + exists false. split; auto. split; [discriminate|]. intros H.
      specialize (H i ltac:(lia)). fold x y in H. rewrite H in E. destruct y; discriminate.
Qed.

(** ** the generator polynomial *)

Lemma mk_poly_spec : forall packed size, size <= 32 ->
  exists g, mk_poly packed size = Ret g /\ good_poly g size /\
    (forall i, i < size -> nth (S i) g false = Z.testbit packed (Z.of_nat (size - 1 - i))).
Proof.
  intros packed size Hs. unfold mk_poly.
  destruct (for_inv _ (fun i p => length p = i + 1 /\ nth 0 p false = true /\
    (forall k, k < i -> nth (S k) p false = Z.testbit packed (Z.of_nat (size - 1 - k)))) size
    (fun i p => if size - 1 - i <? 32
       then Ret (p ++ [Z.testbit packed (Z.of_nat (size - 1 - i))]) else Undef) [true]) as (g & E & L & G0 & G).
  - split; auto. split; auto. intros; lia.
  - intros i p Hi (L & G0 & G). destruct (Nat.ltb_spec (size - 1 - i) 32); [|lia].
    eexists; split; [reflexivity|]. rewrite app_length. simpl length. split; [lia|]. split.
    + rewrite app_nth1 by lia. auto.
    + intros k Hk. destruct (Nat.eq_dec k i).
      * subst. rewrite app_nth2 by lia. replace (S i - length p) with 0 by lia. auto.
      * rewrite app_nth1 by lia. apply G. lia.
  - exists g. split; auto. split; auto. split; auto.
Qed.

(** ** build, check, extract *)

Lemma build_spec : forall g size K buff U out, good_poly g size ->
  K + size <= length buff -> length U = K -> length out = K + size ->
  exists v buff', build g size K buff U out = Ret (v, buff') /\ length buff' = length buff /\
    length v = K + size /\ firstn K v = U /\ multiple g (bits_of v) /\
    (forall k, K <= k -> nth k v 0%Z = b2z (nz (nth k v 0%Z))).
Proof.
  intros g size K buff U out Hg Hb HU Ho. unfold build.
  destruct (copy_n_spec U 0 K out 0) as (o1 & E1 & L1 & C1 & D1); try lia. rewrite E1. cbn [bind].
  destruct (generate_spec g size buff U 0 K Hg) as (b & q & E2 & L2 & Lq & J1 & J2 & J3); try lia.
  rewrite E2. cbn [bind].
  destruct (copy_n_spec b K size o1 K) as (o2 & E3 & L3 & C3 & D3); try lia. rewrite E3. cbn [bind].
  exists o2, b. split; auto. split; auto. split; [lia|]. split; [|split].
  - apply list_eq_nth with (d := 0%Z).
    + rewrite firstn_length. lia.
    + intros k Hk. rewrite firstn_length in Hk. rewrite firstn_nth by lia.
      rewrite D3 by lia. apply (C1 k). lia.
  - exists q. unfold bits_of. rewrite map_length. destruct Hg as [Lg G0].
    split; [lia|]. intros k Hk. rewrite <- J1 by lia. fold (bits_of o2). rewrite nth_bits_of.
    destruct (Nat.ltb_spec k K).
    + rewrite J2 by auto. rewrite xorb_false_r. f_equal. rewrite D3 by lia. apply (C1 k). auto.
    + rewrite xorb_false_l. f_equal. replace k with (K + (k - K)) by lia. apply C3. lia.
  - intros k Hk. destruct (le_lt_dec (length o2) k).
    + rewrite nth_overflow by auto. auto.
    + replace k with (K + (k - K)) by lia. rewrite C3 by lia. apply J3. lia.
Qed.

Lemma check_spec : forall g size K buff v, good_poly g size ->
  K + size <= length buff -> length v = K + size ->
  exists r buff', check g size K buff v = Ret (r, buff') /\ length buff' = length buff /\
    (r = true <-> multiple g (bits_of v)).
Proof.
  intros g size K buff v Hg Hb Hv. unfold check.
  destruct (generate_spec g size buff v 0 K Hg) as (b & q & E2 & L2 & Lq & J1 & J2 & J3); try lia.
  rewrite E2. cbn [bind].
  destruct (check_loop_spec size 0 K b v) as (r & Er & Hr); try lia. rewrite Er. cbn [bind].
  exists r, b. split; auto. split; auto. rewrite Hr. destruct Hg as [Lg G0].
  assert (Lv : length (bits_of v) = K + size) by (unfold bits_of; rewrite map_length; auto).
  (* the word obtained by division *)
  set (w := bits_of (firstn K v ++ firstn size (skipn K b))).
  assert (Lw : length w = K + size).
  { unfold w, bits_of. rewrite map_length, app_length, !firstn_length, skipn_length. lia. }
  assert (Nw : forall k, k < K + size -> nth k w false = if k <? K then nz (nth k v 0%Z) else nz (nth k b 0%Z)).
  { intros k Hk. unfold w. rewrite nth_bits_of. f_equal. destruct (Nat.ltb_spec k K).
    - rewrite app_nth1 by (rewrite firstn_length; lia). rewrite firstn_nth by lia. auto.
    - rewrite app_nth2 by (rewrite firstn_length; lia). rewrite firstn_length.
      replace (Nat.min K (length v)) with K by lia. rewrite firstn_nth by lia. rewrite skipn_nth.
      f_equal. f_equal. lia. }
  assert (Mw : multiple g w).
  { exists q. rewrite Lw. split; [lia|]. intros k Hk. rewrite Nw by auto. rewrite <- J1 by auto.
    destruct (Nat.ltb_spec k K); [rewrite J2 by auto; rewrite xorb_false_r | rewrite xorb_false_l]; auto. }
  split.
  - intros H. replace (bits_of v) with w; auto.
    apply list_eq_nth with (d := false); [lia|]. intros k Hk. rewrite Nw, nth_bits_of by lia.
    destruct (Nat.ltb_spec k K); auto. replace k with (K + (k - K)) by lia. apply H. lia.
  - intros H k Hk.
    assert (E : bits_of v = w).
    { apply multiple_unique with (g := g) (K := K); auto; try lia.
      intros j Hj. rewrite Nw, nth_bits_of by lia. destruct (Nat.ltb_spec j K); auto; lia. }
    rewrite <- (nth_bits_of v), E, Nw by lia. destruct (Nat.ltb_spec (K + k) K); auto; lia.
Qed.

Lemma extract_spec : forall K v out, K <= length v -> length out = K ->
  extract K v out = Ret (firstn K v).
Proof.
  intros K v out Hv Ho. unfold extract.
  destruct (copy_n_spec v 0 K out 0) as (o & E & L & C & D); try lia. rewrite E. f_equal.
  apply list_eq_nth with (d := 0%Z). { rewrite firstn_length. lia. }
  intros k Hk. rewrite firstn_nth by lia. apply (C k). lia.
Qed.
