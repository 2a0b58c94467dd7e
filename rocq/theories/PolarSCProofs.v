From Coq Require Import List Arith ZArith Lia Bool.
From Verif Require Import Base Loops GF2 PolarModel PolarSpec PolarProofs.
Import ListNotations.

(* ------------------------------------------------------------------ *)
(** * The tree *)

Fixpoint full (h lane : nat) : btree :=
  match h with
  | O => BLeaf lane
  | S h' => BNode (full h' (2 * lane)) (full h' (2 * lane + 1))
  end.

Lemma create_nodes_ok : forall rem d me lanes,
  d + rem <= length lanes ->
  (forall i, i < rem -> nth (d + i) lanes 0 = me * 2 ^ S i) ->
  exists lanes', create_nodes rem d me lanes = Ret (full rem me, lanes') /\
    length lanes' = length lanes /\
    (forall i, i < rem -> nth (d + i) lanes' 0 = (me + 1) * 2 ^ S i) /\
    (forall i, i < d -> nth i lanes' 0 = nth i lanes 0).
Proof.
  induction rem; intros d me lanes HL HI.
  - exists lanes. simpl. repeat split; auto. intros; lia.
  - cbn [create_nodes full].
    assert (E0 : nth d lanes 0 = me * 2).
    { specialize (HI 0 ltac:(lia)). rewrite Nat.add_0_r in HI. exact HI. }
    rewrite (rd_ok _ 0) by lia. cbn [bind]. rewrite wr_ok by lia. cbn [bind].
    rewrite (rd_ok _ 0) by (rewrite length_upd; lia). cbn [bind].
    rewrite wr_ok by (rewrite length_upd; lia). cbn [bind].
    rewrite upd_upd_eq, nth_upd_eq by lia. rewrite E0.
    destruct (IHrem (S d) (2 * me) (upd lanes d (S (S (me * 2))))) as (l1 & E1 & L1 & N1 & U1).
    { rewrite length_upd. lia. }
    { intros i Hi. rewrite nth_upd_neq by lia. replace (S d + i) with (d + S i) by lia.
      rewrite HI by lia. rewrite (Nat.pow_succ_r' 2 (S i)). lia. }
    replace (me * 2) with (2 * me) in * by lia. rewrite E1. cbn [bind].
    destruct (IHrem (S d) (S (2 * me)) l1) as (l2 & E2 & L2 & N2 & U2).
    { rewrite L1, length_upd. lia. }
    { intros i Hi. rewrite N1 by lia. f_equal. lia. }
    rewrite E2. cbn [bind]. replace (S (2 * me)) with (2 * me + 1) by lia.
    eexists; split; [reflexivity|]. split; [rewrite L2, L1, length_upd; auto|]. split.
    + intros [|i] Hi.
      * rewrite Nat.add_0_r, U2, U1 by lia. rewrite nth_upd_eq by lia. simpl. lia.
      * replace (d + S i) with (S d + i) by lia. rewrite N2 by lia.
        rewrite (Nat.pow_succ_r' 2 (S i)). lia.
    + intros i Hi. rewrite U2, U1 by lia. apply nth_upd_neq. lia.
Qed.

Lemma tree_init_ok : forall m, tree_init (m + 1) = Ret (full m 0).
Proof.
  intros. unfold tree_init. replace (m + 1 - 1) with m by lia.
  destruct (create_nodes_ok m 1 0 (repeat 0 (S (m + 1)))) as (l & E & _).
  - rewrite repeat_length. lia.
  - intros. rewrite nth_repeat_lt by lia. auto.
  - rewrite E. auto.
Qed.

(* ------------------------------------------------------------------ *)
(** * Decoding *)

Fixpoint leaves (t : stree) : list bool :=
  match t with SLeaf _ s => s | SNode l r _ => leaves l ++ leaves r end.

Fixpoint store_list (fb : list bool) (off : nat) (l : list bool) (st : list bool * nat)
  : outcome (list bool * nat) :=
  match l with
  | [] => Ret st
  | b :: l' =>
    f <- rd fb off ;;
    st' <- (if f : bool then Ret st else v <- wr (fst st) (snd st) b ;; Ret (v, S (snd st))) ;;
    store_list fb (S off) l' st'
  end.

Lemma store_list_app : forall fb l1 l2 off st,
  store_list fb off (l1 ++ l2) st =
  bind (store_list fb off l1 st) (store_list fb (off + length l1) l2).
Proof.
  induction l1; simpl; intros. { rewrite Nat.add_0_r. auto. }
  destruct (rd fb off); cbn [bind]; auto.
  destruct a0; cbn [bind].
  - rewrite IHl1. rewrite Nat.add_succ_r. auto.
  - destruct (wr (fst st) (snd st) a); cbn [bind]; auto. rewrite IHl1. rewrite Nat.add_succ_r. auto.
Qed.

(** [neg]/[ok] describe the sign of the LLRs that stand for a bit. *)
Definition good_kernels {R} (F : R -> R -> R) (G : R -> R -> bool -> R) (H : R -> bool)
  (ok : R -> Prop) (neg : R -> bool) : Prop :=
  (forall a b, ok a -> ok b -> ok (F a b) /\ neg (F a b) = xorb (neg a) (neg b)) /\
  (forall a b u, ok a -> ok b -> neg b = xorb (neg a) u -> ok (G a b u) /\ neg (G a b u) = neg b) /\
  (forall a, ok a -> H a = neg a).

Lemma half_pow : forall h, 2 ^ S h / 2 = 2 ^ h.
Proof. intros. rewrite Nat.pow_succ_r', Nat.mul_comm, Nat.div_mul; lia. Qed.

Section D.
Variable R : Type.
Variable F : R -> R -> R.
Variable G : R -> R -> bool -> R.
Variable H : R -> bool.

Lemma decode_ok : forall h lane fb lam, length lam = 2 ^ h -> (lane + 1) * 2 ^ h <= length fb ->
  exists d, recursive_decode F G H fb (full h lane) lam = Ret d /\
    length (leaves d) = 2 ^ h /\
    sums d = arikan (2 ^ h) (leaves d) /\
    (forall i, i < 2 ^ h -> nth (lane * 2 ^ h + i) fb true = true -> nth i (leaves d) false = false) /\
    (forall st, recursive_store fb d st = store_list fb (lane * 2 ^ h) (leaves d) st) /\
    (forall ok neg v, good_kernels F G H ok neg -> length v = 2 ^ h ->
       (forall i, i < 2 ^ h -> nth (lane * 2 ^ h + i) fb true = true -> nth i v false = false) ->
       (forall i y, nth_error lam i = Some y -> ok y /\ neg y = nth i (arikan (2 ^ h) v) false) ->
       leaves d = v).
Proof.
  induction h; intros lane fb lam L B.
  - destruct lam as [|y [|? ?]]; try discriminate.
    cbn [full recursive_decode]. simpl in B. rewrite (rd_ok _ true) by lia. cbn [bind].
    cbn [rd nth_error bind].
    eexists; split; [reflexivity|]. cbn [leaves sums]. split; [auto|]. split; [|split; [|split]].
    + unfold arikan, tab, arikan_bit. simpl. rewrite andb_true_r.
      change (sub 0 0) with true. rewrite ?andb_true_r.
      destruct (negb (nth lane fb true) && H y); auto.
    + intros i Hi Hf. simpl in Hi. assert (i = 0) by lia. subst. simpl in Hf.
      rewrite Nat.mul_1_r, Nat.add_0_r in Hf. simpl. rewrite Hf. auto.
    + intros st. cbn [recursive_store store_list]. simpl (2 ^ 0). rewrite Nat.mul_1_r.
      rewrite (rd_ok _ true) by lia. cbn [bind].
      destruct (nth lane fb true); cbn [bind]; auto. cbn [rd nth_error bind].
      destruct (wr (fst st) (snd st) (negb false && H y)); auto.
    + intros ok neg v (_ & _ & K3) Lv Z S. destruct v as [|b [|? ?]]; try discriminate. f_equal.
      destruct (S 0 y eq_refl) as [Oy Ny]. 
      unfold arikan, tab, arikan_bit in Ny. simpl in Ny. change (sub 0 0) with true in Ny.
      rewrite andb_true_r in Ny. rewrite K3 by auto.
      specialize (Z 0 ltac:(simpl; lia)). simpl in Z. rewrite Nat.mul_1_r, Nat.add_0_r in Z.
      destruct (nth lane fb true). { rewrite Z by auto. auto. }
      simpl. rewrite Ny. destruct b; auto.
  - cbn [full recursive_decode]. rewrite L, half_pow.
    assert (P2 : 2 ^ S h = 2 ^ h + 2 ^ h) by (rewrite Nat.pow_succ_r'; lia).
    assert (P := pow2_pos h).
    destruct lam as [|d0 lam0]; [simpl in L; pose proof (pow2_pos (S h)); lia|].
    remember (d0 :: lam0) as lam eqn:El. clear El.
    assert (RL : forall i, i < 2 ^ h -> rd lam i = Ret (nth i lam d0)) by (intros; apply rd_ok; lia).
    assert (RH : forall i, i < 2 ^ h -> rd lam (2 ^ h + i) = Ret (nth (2 ^ h + i) lam d0)) by (intros; apply rd_ok; lia).
    rewrite (gen_ok _ (2 ^ h) _ (fun i => F (nth i lam d0) (nth (2 ^ h + i) lam d0)))
      by (intros i Hi; rewrite RL, RH by auto; auto). cbn [bind].
    destruct (IHh (2 * lane) fb (tab (2 ^ h) (fun i => F (nth i lam d0) (nth (2 ^ h + i) lam d0))))
      as (dl & El & Ll & Sl & Zl & Stl & Nl).
    { apply length_tab. }
    { lia. }
    rewrite El. cbn [bind].
    assert (LSl : length (sums dl) = 2 ^ h) by (rewrite Sl; apply length_arikan).
    rewrite (gen_ok _ (2 ^ h) _ (fun i => G (nth i lam d0) (nth (2 ^ h + i) lam d0) (nth i (sums dl) false)))
      by (intros i Hi; rewrite RL, RH by auto; rewrite (rd_ok _ false) by lia; auto). cbn [bind].
    destruct (IHh (2 * lane + 1) fb
      (tab (2 ^ h) (fun i => G (nth i lam d0) (nth (2 ^ h + i) lam d0) (nth i (sums dl) false))))
      as (dr & Er & Lr & Sr & Zr & Str & Nr).
    { apply length_tab. }
    { lia. }
    rewrite Er. cbn [bind].
    assert (LSr : length (sums dr) = 2 ^ h) by (rewrite Sr; apply length_arikan).
    rewrite (gen_ok _ (2 ^ h) _ (fun i => xorb (nth i (sums dl) false) (nth i (sums dr) false)))
      by (intros i Hi; rewrite !(rd_ok _ false) by lia; auto). cbn [bind].
    rewrite (gen_ok _ (2 ^ h) _ (fun i => nth i (sums dr) false))
      by (intros i Hi; rewrite !(rd_ok _ false) by lia; auto). cbn [bind].
    eexists; split; [reflexivity|]. cbn [leaves sums].
    assert (O1 : 2 * lane * 2 ^ h = lane * 2 ^ S h) by lia.
    assert (O2 : (2 * lane + 1) * 2 ^ h = lane * 2 ^ S h + 2 ^ h) by lia.
    rewrite app_length. split; [lia|]. split; [|split; [|split]].
    + rewrite arikan_app by auto. rewrite arikan_xorl by lia. rewrite <- Sl, <- Sr. f_equal.
      * symmetry. apply eq_tab with (d := false). { rewrite length_xorl; lia. }
        intros. apply nth_xorl. lia.
      * rewrite <- LSr. apply tab_nth.
    + intros i Hi Hf. destruct (Nat.lt_ge_cases i (2 ^ h)).
      * rewrite app_nth1 by lia. apply Zl; auto. rewrite O1. auto.
      * rewrite app_nth2 by lia. rewrite Ll. apply Zr; [lia|]. rewrite O2.
        replace (lane * 2 ^ S h + 2 ^ h + (i - 2 ^ h)) with (lane * 2 ^ S h + i) by lia. auto.
    + intros st. cbn [recursive_store]. rewrite store_list_app. rewrite Stl, O1. apply bind_ext.
      intros st' _. rewrite Str, O2, Ll. auto.
    + intros ok neg v GK Lv Z Sg.
      set (a := firstn (2 ^ h) v). set (b := skipn (2 ^ h) v).
      assert (Ev : v = a ++ b) by (symmetry; apply firstn_skipn).
      assert (La : length a = 2 ^ h) by (unfold a; rewrite firstn_length; lia).
      assert (Lb : length b = 2 ^ h) by (unfold b; rewrite skipn_length; lia).
      clearbody a b. subst v.
      rewrite arikan_app in Sg by auto.
      assert (S1 : forall i, i < 2 ^ h -> ok (nth i lam d0) /\
        neg (nth i lam d0) = xorb (nth i (arikan (2 ^ h) a) false) (nth i (arikan (2 ^ h) b) false)).
      { intros i Hi. destruct (Sg i (nth i lam d0)) as [O Ng]. { apply nth_error_nth'. lia. }
        split; auto. rewrite Ng. rewrite app_nth1 by (rewrite length_arikan; auto).
        rewrite arikan_xorl by lia. apply nth_xorl. rewrite !length_arikan. auto. }
      assert (S2 : forall i, i < 2 ^ h -> ok (nth (2 ^ h + i) lam d0) /\
        neg (nth (2 ^ h + i) lam d0) = nth i (arikan (2 ^ h) b) false).
      { intros i Hi. destruct (Sg (2 ^ h + i) (nth (2 ^ h + i) lam d0)) as [O Ng]. { apply nth_error_nth'. lia. }
        split; auto. rewrite Ng. rewrite app_nth2 by (rewrite length_arikan; lia).
        rewrite length_arikan. f_equal. lia. }
      clear Sg. destruct GK as (K1 & K2 & K3).
      assert (EA : leaves dl = a).
      { apply (Nl ok neg); auto.
        - split; auto.
        - intros i Hi Hf. specialize (Z i ltac:(lia)). rewrite app_nth1 in Z by lia. apply Z.
          rewrite <- O1. auto.
        - intros i y Hy. assert (Hi : i < 2 ^ h).
          { rewrite <- (length_tab _ (2 ^ h) (fun i => F (nth i lam d0) (nth (2 ^ h + i) lam d0))).
            apply nth_error_Some. congruence. }
          apply nth_error_nth with (d := d0) in Hy. rewrite nth_tab in Hy by auto. subst y.
          destruct (S1 i Hi) as [Oa Na]. destruct (S2 i Hi) as [Ob Nb].
          destruct (K1 _ _ Oa Ob) as [Of Nf]. split; auto. rewrite Nf, Na, Nb.
          rewrite xorb_assoc, xorb_nilpotent, xorb_false_r. auto. }
      assert (EB : leaves dr = b).
      { apply (Nr ok neg); auto.
        - split; auto.
        - intros i Hi Hf. specialize (Z (2 ^ h + i) ltac:(lia)). rewrite app_nth2 in Z by lia.
          replace (2 ^ h + i - length a) with i in Z by lia. apply Z.
          rewrite O2 in Hf. rewrite Nat.add_assoc. exact Hf.
        - intros i y Hy. assert (Hi : i < 2 ^ h).
          { rewrite <- (length_tab _ (2 ^ h) (fun i => G (nth i lam d0) (nth (2 ^ h + i) lam d0) (nth i (sums dl) false))).
            apply nth_error_Some. congruence. }
          apply nth_error_nth with (d := d0) in Hy. rewrite nth_tab in Hy by auto. subst y.
          destruct (S1 i Hi) as [Oa Na]. destruct (S2 i Hi) as [Ob Nb].
          destruct (K2 _ _ (nth i (sums dl) false) Oa Ob) as [Og Ng].
          + rewrite Na, Nb, Sl, EA. destruct (nth i (arikan (2 ^ h) a) false), (nth i (arikan (2 ^ h) b) false); auto.
          + split; auto. rewrite Ng. auto. }
      rewrite EA, EB. auto.
Qed.

Lemma firstn_upd_snoc : forall A (v : list A) k x, k < length v ->
  firstn (S k) (upd v k x) = firstn k v ++ [x].
Proof.
  induction v; simpl; intros; [lia|]. destruct k; simpl; auto. f_equal. apply IHv. lia.
Qed.

Lemma store_list_ok : forall fb l off v k, off + length l <= length fb ->
  k = rank fb off -> length v = count_info fb ->
  exists v', store_list fb off l (v, k) = Ret (v', rank fb (off + length l)) /\ length v' = length v /\
    firstn (rank fb (off + length l)) v' =
      firstn k v ++ map (fun p => nth (p - off) l false)
                     (filter (fun i => negb (nth i fb true)) (seq off (length l))).
Proof.
  induction l; intros off v k B K L; simpl length in *.
  - rewrite Nat.add_0_r. exists v. simpl. subst k. rewrite app_nil_r. auto.
  - cbn [store_list]. rewrite (rd_ok _ true) by lia. cbn [bind].
    pose proof (rank_S fb off ltac:(lia)) as RS. cbn [seq filter].
    destruct (nth off fb true) eqn:Ef; cbn [bind negb].
    + destruct (IHl (S off) v k) as (v' & E & Lv & Fv); auto; try lia.
      rewrite E. replace (off + S (length l)) with (S off + length l) by lia.
      exists v'. split; auto. split; auto. rewrite Fv. f_equal. apply map_ext_in. intros p Hp.
      apply filter_In in Hp. destruct Hp as [Hp _]. apply in_seq in Hp.
      replace (p - off) with (S (p - S off)) by lia. auto.
    + pose proof (rank_lt fb off ltac:(lia) Ef). cbn [fst snd]. rewrite wr_ok by lia. cbn [bind].
      destruct (IHl (S off) (upd v k a) (S k)) as (v' & E & Lv & Fv); auto; try lia.
      { rewrite length_upd. auto. }
      rewrite E. replace (off + S (length l)) with (S off + length l) by lia.
      exists v'. split; auto. rewrite length_upd in Lv. split; auto. rewrite Fv.
      rewrite firstn_upd_snoc by lia. rewrite <- app_assoc. simpl. rewrite Nat.sub_diag. f_equal. f_equal.
      apply map_ext_in. intros p Hp.
      apply filter_In in Hp. destruct Hp as [Hp _]. apply in_seq in Hp.
      replace (p - off) with (S (p - S off)) by lia. auto.
Qed.

Lemma gen_rd : forall A (l : list A) n, length l = n -> gen n (rd l) = Ret l.
Proof.
  intros. subst. destruct l as [|d l]; auto. rewrite (gen_ok _ _ _ (fun i => nth i (d :: l) d)).
  - rewrite tab_nth. auto.
  - intros. apply rd_ok. auto.
Qed.

Lemma sc_ctor_ok : forall K n fb, length fb = 2 ^ n -> K = count_info fb ->
  sc_ctor K (2 ^ n) fb = Ret (full n 0).
Proof.
  intros K n fb L C. unfold sc_ctor. rewrite Nat.log2_pow2 by lia. rewrite Nat.eqb_refl, L, Nat.eqb_refl, C, Nat.eqb_refl.
  cbn [guard bind]. apply tree_init_ok.
Qed.

Lemma sc_spec : forall n fb y vk, length fb = 2 ^ n -> length y = 2 ^ n -> length vk = count_info fb ->
  exists u v, decode_siho F G H (count_info fb) (2 ^ n) fb y vk = Ret u /\
    decode_siho_cw F G H (count_info fb) (2 ^ n) fb y = Ret (arikan (2 ^ n) v) /\
    input_word fb u v /\
    (forall ok neg w, good_kernels F G H ok neg -> length w = 2 ^ n -> frozen_zero fb w ->
       (forall i y', nth_error y i = Some y' -> ok y' /\ neg y' = nth i (arikan (2 ^ n) w) false) -> v = w).
Proof.
  intros n fb y vk Lf Ly Lv. unfold decode_siho, decode_siho_cw.
  rewrite sc_ctor_ok by auto. cbn [bind]. rewrite (gen_rd _ y) by auto. cbn [bind].
  destruct (decode_ok n 0 fb y) as (d & E & Ld & Sd & Zd & Std & Nd); auto. { lia. }
  rewrite E. cbn [bind]. rewrite Std.
  destruct (store_list_ok fb (leaves d) 0 vk 0) as (v' & E' & L' & F'); auto; try lia.
  rewrite Nat.mul_0_l. rewrite E'. cbn [bind].
  exists v', (leaves d). split; auto. split.
  { rewrite Sd. apply gen_rd. apply length_arikan. }
  simpl (0 + _) in F'. rewrite Ld, <- Lf, rank_full, <- Lv, <- L', firstn_all in F'.
  split.
  - split; [lia|]. split.
    + intros i Hi Hf. apply Zd; auto. lia.
    + unfold carries, info_positions. rewrite F'. simpl. apply map_ext. intros. rewrite Nat.sub_0_r. auto.
  - intros ok neg w GK Lw Zw Hy. apply (Nd ok neg); auto.
    intros i Hi Hf. apply Zw; auto. lia.
Qed.
End D.

(* ------------------------------------------------------------------ *)
(** * Concrete kernels *)

Definition nonzero (z : Z) : Prop := z <> 0%Z.
Lemma good_exact : good_kernels f_LLR g_LLR h_LLR nonzero (fun z => (z <? 0)%Z).
Proof.
  unfold nonzero, f_LLR, g_LLR, h_LLR. split; [|split]; auto.
  - intros a b Ha Hb. rewrite Z.sgn_mul.
    destruct (Z.lt_total a 0) as [A|[A|A]]; try contradiction;
    destruct (Z.lt_total b 0) as [B|[B|B]]; try contradiction;
      rewrite ?(Z.sgn_neg a), ?(Z.sgn_neg b), ?(Z.sgn_pos a), ?(Z.sgn_pos b) by lia;
      split; try lia;
      destruct (Z.ltb_spec a 0), (Z.ltb_spec b 0); simpl xorb; try lia;
      try (apply Z.ltb_lt; lia); apply Z.ltb_ge; lia.
  - intros a b u Ha Hb E. destruct u; destruct (Z.ltb_spec a 0), (Z.ltb_spec b 0); simpl in E; try discriminate;
      split; try lia; try (apply Z.ltb_lt; lia); apply Z.ltb_ge; lia.
Qed.

Definition in_range (w z : Z) : Prop := (z <> 0 /\ - (2 ^ (w - 1)) < z < 2 ^ (w - 1))%Z.

Lemma to_signed_id : forall w z, (0 < w)%Z -> (- (2 ^ (w - 1)) <= z < 2 ^ (w - 1))%Z -> to_signed w z = z.
Proof.
  intros. unfold to_signed.
  assert (2 ^ w = 2 * 2 ^ (w - 1))%Z by (rewrite <- Z.pow_succ_r by lia; f_equal; lia).
  rewrite Z.mod_small by lia. lia.
Qed.

Lemma good_int : forall w, (w = 8 \/ w = 16)%Z ->
  good_kernels (f_LLR_int w) (g_LLR_int w) h_LLR (in_range w) (fun z => (z <? 0)%Z).
Proof.
  intros w Hw.
  assert (HP : (63 < 2 ^ (w - 1) /\ sat_val w < 2 ^ (w - 1) /\ 0 < sat_val w /\ 0 < w)%Z).
  { destruct Hw; subst; unfold sat_val; simpl; lia. }
  unfold in_range, h_LLR. split; [|split]; auto.
  - intros a b [Ha Ra] [Hb Rb]. unfold f_LLR_int.
    destruct (Z.lt_total a 0) as [A|[A|A]]; try contradiction;
    destruct (Z.lt_total b 0) as [B|[B|B]]; try contradiction;
      rewrite ?(Z.sgn_neg a), ?(Z.sgn_neg b), ?(Z.sgn_pos a), ?(Z.sgn_pos b) by lia;
      rewrite to_signed_id by lia;
      split; try lia;
      destruct (Z.ltb_spec a 0), (Z.ltb_spec b 0); simpl xorb; try lia;
      try (apply Z.ltb_lt; lia); apply Z.ltb_ge; lia.
  - intros a b u [Ha Ra] [Hb Rb] E. unfold g_LLR_int.
    destruct u; destruct (Z.ltb_spec a 0), (Z.ltb_spec b 0); simpl in E; try discriminate;
      split; try lia; try (apply Z.ltb_lt; lia); apply Z.ltb_ge; lia.
Qed.

(* ------------------------------------------------------------------ *)
(** * Shortening *)

Definition info_of (fb : list bool) (i : nat) : Prop := nth i fb true = false.

Lemma count_upd : forall fb c, c < length fb -> nth c fb true = true ->
  count_info (upd fb c false) = S (count_info fb).
Proof.
  unfold count_info. induction fb; simpl; intros; [lia|]. destruct c; simpl in *.
  - subst. auto.
  - destruct a; simpl; rewrite IHfb by (auto; lia); auto.
Qed.

Lemma count_repeat : forall n, count_info (repeat true n) = 0.
Proof. unfold count_info. induction n; simpl; auto. Qed.

Definition n_below (N : nat) (l : list nat) : nat := length (filter (fun c => c <? N) l).

Lemma place_info_ok : forall N rest todo fb,
  NoDup rest -> (forall c, In c rest -> c < N -> c < length fb /\ nth c fb true = true) ->
  todo <= n_below N rest ->
  exists fb', place_info N todo rest fb = Ret fb' /\ length fb' = length fb /\
    count_info fb' = count_info fb + todo /\
    (forall i, nth i fb' true = false <-> nth i fb true = false \/
        In i (firstn todo (filter (fun c => c <? N) rest))).
Proof.
  induction rest as [|c rest IH]; intros todo fb ND HF HT; unfold n_below in *; simpl in *.
  - assert (todo = 0) by lia. subst. simpl. exists fb. repeat split; auto; try lia. tauto.
  - inversion ND; subst. destruct (Nat.eqb_spec todo 0).
    + subst. exists fb. simpl. repeat split; auto; try lia. tauto.
    + destruct (Nat.ltb_spec c N).
      * destruct (HF c) as [H3 H4]; auto. rewrite wr_ok by auto. cbn [bind]. simpl in HT.
        destruct (IH (todo - 1) (upd fb c false)) as (fb' & E & L & C & I); auto; try lia.
        { intros c' Hc Hn. rewrite length_upd. rewrite nth_upd_neq by (intros ->; contradiction). auto. }
        exists fb'. rewrite length_upd in L. split; auto. split; auto. split.
        { rewrite C, count_upd by auto. lia. }
        intros i. rewrite I. rewrite nth_upd by auto. destruct todo; [lia|]. simpl. rewrite Nat.sub_0_r.
        destruct (Nat.eqb_spec i c).
        { subst. split; auto. }
        { intuition congruence. }
      * destruct (IH todo fb) as (fb' & E & L & C & I); eauto.
Qed.

Lemma short_puncture_ok : forall A (x1 x2 : list A) N, N <= length x1 -> length x2 = N ->
  short_puncture N x1 x2 = Ret (firstn N x1).
Proof.
  intros A x1 x2 N H1 H2. unfold short_puncture. destruct x1 as [|d x1'].
  { simpl in H1. destruct x2; simpl in H2; [subst; auto|lia]. }
  remember (d :: x1') as x1 eqn:E0. clear E0.
  destruct (scatter A d N (fun i => i) (fun i => nth i x1 d) x2) as (o & E & L & I1 & I2).
  { intros; lia. }
  { auto. }
  rewrite (for_ext _ N _ (fun i o => wr o i (nth i x1 d))).
  - rewrite E. f_equal. apply list_eq_nth with (d := d).
    + rewrite firstn_length. lia.
    + intros. rewrite I1 by lia. rewrite firstn_nth by lia. auto.
  - intros. rewrite (rd_ok _ d) by lia. auto.
Qed.

Lemma short_depuncture_ok : forall A (y1 y2 : list A) sat N Ncw, length y1 = N -> N <= Ncw -> length y2 = Ncw ->
  short_depuncture N Ncw sat y1 y2 = Ret (y1 ++ repeat sat (Ncw - N)).
Proof.
  intros A y1 y2 sat N Ncw H1 H2 H3. unfold short_depuncture.
  assert (HA : exists o, for_ N (fun i o => v <- rd y1 i;; wr o i v) y2 = Ret o /\ length o = Ncw /\
     forall i, i < N -> nth i o sat = nth i y1 sat).
  { destruct (scatter A sat N (fun i => i) (fun i => nth i y1 sat) y2) as (o & E & L & I1 & I2).
    { intros; lia. }
    { auto. }
    exists o. rewrite (for_ext _ N _ (fun i o => wr o i (nth i y1 sat))).
    - repeat split; auto. lia.
    - intros. rewrite (rd_ok _ sat) by lia. auto. }
  destruct HA as (o & E & L & I). rewrite E. cbn [bind].
  destruct (for_from_inv _ (fun k o' => length o' = Ncw /\
      (forall i, i < N -> nth i o' sat = nth i y1 sat) /\
      (forall i, N <= i < k -> nth i o' sat = sat)) (Ncw - N) N (fun i o => wr o i sat) o) as (o' & E' & L' & J1 & J2).
  - repeat split; auto. intros; lia.
  - intros i s Hi (Ls & Q1 & Q2). rewrite wr_ok by lia. eexists; split; [reflexivity|].
    rewrite length_upd. repeat split; auto.
    + intros j Hj. rewrite nth_upd_neq by lia. auto.
    + intros j Hj. rewrite nth_upd by lia. destruct (Nat.eqb_spec j i); auto. apply Q2. lia.
  - rewrite E'. f_equal. apply list_eq_nth with (d := sat).
    + rewrite app_length, repeat_length. lia.
    + intros i Hi. destruct (Nat.lt_ge_cases i N).
      * rewrite app_nth1 by lia. auto.
      * rewrite app_nth2 by lia. rewrite nth_repeat_lt by lia. apply J2. lia.
Qed.
