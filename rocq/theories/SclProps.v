(** Properties of the successive-cancellation list decoder. *)
From Coq Require Import List Arith ZArith Lia Bool Permutation Sorted.
From Verif Require Import Base Loops GF2 PolarModel PolarSpec PolarProofs PolarSCProofs PolarProps
  SclModel SclSpec SclTreeProofs SclListProofs SclSpecProofs.
Import ListNotations.

(** The memory of the decoder: L trees whose node arrays have their allocated lengths. Their
    contents are arbitrary: they are what the previous frames left. *)
Definition decoder_memory (m L : nat) (trees : list ptree) : Prop :=
  length trees = L /\
  forall t d j, In t trees -> d <= m -> j < 2 ^ d ->
    length (lamT t d j) = 2 ^ (m - d) /\ length (sT t d j) = 2 ^ (m - d).

(** std::sort by metric: any function that permutes and sorts. *)
Definition sorts_by_metric (sort : list hyp -> list hyp) : Prop :=
  forall l, Permutation (sort l) l /\ StronglySorted (fun a b => (hyp_met a <= hyp_met b)%Z) (sort l).

Lemma memory_sized : forall m L trees, decoder_memory m L trees ->
  forall p, p < L -> sized m (nth p trees (fresh_tree m 0)).
Proof.
  intros m L trees [A B] p Hp d j Hd Hj. unfold sz. apply B; auto. apply nth_In. lia.
Qed.
Lemma sized_memory : forall m L trees, length trees = L ->
  (forall p, p < L -> sized m (nth p trees (fresh_tree m 0))) -> decoder_memory m L trees.
Proof.
  intros m L trees A B. split; auto. intros t d j It Hd Hj. destruct (In_nth _ _ (fresh_tree m 0) It) as (p & Hp & <-).
  apply B; auto. lia.
Qed.

Section D.
Variable F : Z -> Z -> Z.
Variable G : Z -> Z -> bool -> Z.
Variable m a : nat.
Variable fb : list bool.
Variable metric_init maxR : Z.
Variable sort : list hyp -> list hyp.
Variable y : list Z.
Hypothesis Hm : 1 <= m.
Hypothesis Lf : length fb = 2 ^ m.
Hypothesis Ly : length y = 2 ^ m.
Hypothesis HS : sorts_by_metric sort.
Notation pm := (path_metric F G m y).
Notation L := (2 ^ a).

Lemma with_sel : forall (sel : state -> outcome nat) (P : list (list bool) -> list bool -> Prop) trees vk,
  decoder_memory m L trees -> length vk = length (info_positions fb) ->
  (forall ts act U c, In 0 act -> Inv F G m L y (2 ^ m) ts act U c -> (forall p, In p act -> frozen_zero fb (U p)) ->
     exists b, sel (ts, act) = Ret b /\ In b act /\ P (map U act) (U b)) ->
  exists C v u trees', survivors F G m L fb y (2 ^ m) C /\ In v C /\ P C v /\
    decode_with F G m fb L metric_init maxR sort sel y vk trees = Ret (u, trees') /\
    decode_cw_with F G m fb L metric_init maxR sort sel y trees = Ret (arikan (2 ^ m) v, trees') /\
    input_word fb u v /\ decoder_memory m L trees'.
Proof.
  intros sel P trees vk HM Lv HP. rewrite length_info_positions in Lv.
  destruct (list_decode_ok F G m fb L metric_init maxR sort y Hm Ly Lf trees a HS eq_refl (proj1 HM) (memory_sized _ _ _ HM))
    as (ts & act & U & c & E & Z0 & I & SV).
  assert (FZ : forall p, In p act -> frozen_zero fb (U p)).
  { intros p Hp k Hk Hf. eapply (survivors_frozen F G m fb L y); eauto; [apply in_map; auto|lia]. }
  destruct (HP ts act U c Z0 I FZ) as (b & Eb & Ib & Pb).
  destruct I as ([A1 A2] & ND & IH). destruct (IH b Ib) as (Hb & PR & LU & MU).
  destruct (store_ok F G m fb y Hm Ly Lf (nth b ts (fresh_tree m 0)) (U b) vk PR LU Lv (FZ b Ib)) as (v & k & Es & IW).
  exists (map U act), (U b), v, ts. split; auto. split; [apply in_map; auto|]. split; auto.
  unfold decode_with, decode_cw_with. rewrite E. cbn [bind]. rewrite Eb. cbn [bind fst].
  rewrite (rd_ok _ (fresh_tree m 0)) by lia. cbn [bind]. rewrite Es. cbn [bind]. split; auto.
  destruct PR as (_ & _ & _ & _ & SR). rewrite (SR eq_refl). rewrite gen_rd by apply length_arikan. split; auto. split; auto.
  apply sized_memory; auto. intros p Hp. apply A2. auto.
Qed.

Definition best_of (C : list (list bool)) (v : list bool) : Prop := forall w, In w C -> (pm v <= pm w)%Z.

Lemma plain_sel : forall ts act U c, In 0 act -> Inv F G m L y (2 ^ m) ts act U c ->
  exists b, select_best_path (ts, act) = Ret b /\ In b act /\ best_of (map U act) (U b).
Proof.
  intros ts act U c Z0 ([A1 A2] & ND & IH).
  destruct (select_ok m fb y Hm Ly Lf ts act) as (b & E & Ib & Mb).
  { intros ->. destruct Z0. } { intros p Hp. rewrite A1. apply IH. auto. }
  exists b. split; auto. split; auto. intros w Hw. apply in_map_iff in Hw. destruct Hw as (q & <- & Hq).
  specialize (Mb q Hq). destruct (IH b Ib) as (_ & _ & _ & M1). destruct (IH q Hq) as (_ & _ & _ & M2). lia.
Qed.

Lemma crc_filter : forall (check : list bool -> bool) ts act U c, Inv F G m L y (2 ^ m) ts act U c ->
  forall l act0, incl l act ->
  for_each l (fun p act => t <- rd ts p ;; u <- path_bits m fb t ;;
      Ret (if check u then act else set_erase p act)) act0 =
  Ret (filter (fun q => negb (set_mem q l) || check (map (fun i => nth i (U q) false) (info_positions fb))) act0).
Proof.
  intros check ts act U c ([A1 A2] & ND & IH). induction l; intros act0 HI; cbn [for_each].
  { f_equal. symmetry. rewrite <- (app_nil_r act0) at 2. clear. induction act0; simpl; auto. f_equal. auto. }
  destruct (IH a0 (HI a0 (or_introl eq_refl))) as (Ha & PR & LU & _).
  rewrite (rd_ok _ (fresh_tree m 0)) by lia. cbn [bind]. rewrite (path_bits_ok F G m fb y Hm Ly Lf _ (U a0)) by auto. cbn [bind].
  rewrite IHl by (intros r Hr; apply HI; right; auto). f_equal.
  set (ck := fun q => check (map (fun i => nth i (U q) false) (info_positions fb))).
  change (check (map (fun i => nth i (U a0) false) (info_positions fb))) with (ck a0).
  change (filter (fun q => negb (set_mem q l) || ck q) (if ck a0 then act0 else set_erase a0 act0) =
          filter (fun q => negb (set_mem q (a0 :: l)) || ck q) act0).
  assert (X : forall q, set_mem q (a0 :: l) = (q =? a0) || set_mem q l) by auto.
  destruct (ck a0) eqn:E.
  - apply filter_ext. intros q. rewrite X. destruct (Nat.eqb_spec q a0); auto. subst. rewrite E, !orb_true_r. auto.
  - unfold set_erase. induction act0 as [|b act0 IHa]; auto. cbn [filter]. rewrite X. destruct (Nat.eqb_spec b a0); cbn [negb orb].
    + subst. rewrite E. cbn [orb]. auto.
    + cbn [filter]. destruct (negb (set_mem b l) || ck b); auto. f_equal. auto.
Qed.

(** The selection with a CRC. *)
Definition crc_choice (check : list bool -> bool) (C : list (list bool)) (v : list bool) : Prop :=
  let passes w := check (map (fun i => nth i w false) (info_positions fb)) = true in
  (exists w, In w C /\ passes w) ->
  passes v /\ forall w, In w C -> passes w -> (pm v <= pm w)%Z.

Lemma ca_sel : forall check ts act U c, In 0 act -> Inv F G m L y (2 ^ m) ts act U c ->
  exists b, select_best_path_ca m fb check (ts, act) = Ret b /\ In b act /\ crc_choice check (map U act) (U b).
Proof.
  intros check ts act U c Z0 HI. unfold select_best_path_ca. rewrite (crc_filter check ts act U c HI act act) by apply incl_refl. cbn [bind].
  set (ck := fun q => check (map (fun i => nth i (U q) false) (info_positions fb))).
  assert (EF : filter (fun q => negb (set_mem q act) || check (map (fun i => nth i (U q) false) (info_positions fb))) act = filter ck act).
  { apply filter_ext_in. intros q Hq. apply set_mem_In in Hq. rewrite Hq. auto. }
  rewrite EF. destruct HI as ([A1 A2] & ND & IH).
  destruct (filter ck act) as [|p l] eqn:E.
  - exists 0. split; [reflexivity|]. split; auto. intros (w & Hw & Pw). exfalso. apply in_map_iff in Hw. destruct Hw as (q & <- & Hq).
    assert (In q (filter ck act)) by (apply filter_In; auto). rewrite E in H. destruct H.
  - destruct (select_ok m fb y Hm Ly Lf ts (p :: l)) as (b & Eb & Ib & Mb).
    { discriminate. } { intros r Hr. rewrite A1. apply IH. rewrite <- E in Hr. apply filter_In in Hr. tauto. }
    rewrite <- E in *. apply filter_In in Ib. destruct Ib as [Ib Cb]. exists b. split; auto. split; auto. intros _. split; auto.
    intros w Hw Pw. apply in_map_iff in Hw. destruct Hw as (q & <- & Hq). specialize (Mb q ltac:(apply filter_In; auto)).
    destruct (IH b Ib) as (_ & _ & _ & M1). destruct (IH q Hq) as (_ & _ & _ & M2). lia.
Qed.
End D.

(* ------------------------------------------------------------------ *)
(** * C121: the decoder is the abstract list decoder *)

Theorem C121_list_decoder : forall F G m a fb metric_init maxR sort y vk trees,
  1 <= m -> length fb = 2 ^ m -> length y = 2 ^ m -> length vk = length (info_positions fb) ->
  sorts_by_metric sort -> decoder_memory m (2 ^ a) trees ->
  exists C v u trees', survivors F G m (2 ^ a) fb y (2 ^ m) C /\ In v C /\
    (forall w, In w C -> (path_metric F G m y v <= path_metric F G m y w)%Z) /\
    scl_decode F G m fb (2 ^ a) metric_init maxR sort y vk trees = Ret (u, trees') /\
    scl_decode_cw F G m fb (2 ^ a) metric_init maxR sort y trees = Ret (arikan (2 ^ m) v, trees') /\
    input_word fb u v /\ decoder_memory m (2 ^ a) trees'.
Proof.
  intros F G m a fb mi mx sort y vk trees Hm Lf Ly Lv HS HM.
  apply (with_sel F G m a fb mi mx sort y Hm Lf Ly HS select_best_path (best_of F G m y) trees vk HM Lv).
  intros ts act U c Z0 I _. eapply (plain_sel F G m a fb y); eauto.
Qed.

(** The constructor gives such a memory and accepts exactly the powers of two. *)
Theorem C121_ctor : forall K N L fb mi m trees,
  scl_ctor K N L fb mi = Ret (m, trees) ->
  N = 2 ^ m /\ length fb = 2 ^ m /\ K = length (info_positions fb) /\ (exists a, L = 2 ^ a) /\ decoder_memory m L trees.
Proof.
  intros K N L fb mi m trees E. unfold scl_ctor in E.
  destruct (Nat.eqb_spec (2 ^ Nat.log2 N) N) as [EN|]; [|discriminate]. cbn [guard bind] in E.
  destruct (Nat.eqb_spec N (length fb)) as [EF|]; [|discriminate]. cbn [guard bind] in E.
  destruct ((0 <? L) && (2 ^ Nat.log2 L =? L)) eqn:EL; [|discriminate]. cbn [guard bind] in E.
  destruct (Nat.eqb_spec K (count_info fb)) as [EK|]; [|discriminate]. cbn [guard bind] in E.
  injection E as <- <-. apply andb_true_iff in EL. destruct EL as [_ EL]. apply Nat.eqb_eq in EL.
  split; auto. split; [lia|]. split; [rewrite length_info_positions; auto|]. split; [exists (Nat.log2 L); auto|].
  split; [apply repeat_length|]. intros t d j It Hd Hj. apply repeat_spec in It. subst t. cbn [fresh_tree lamT sT]. rewrite !repeat_length. auto.
Qed.

(** A code of length 1 passes the constructor but its only leaf is the root, which has no
    father: the decoder dereferences a null pointer. *)
Theorem C121_length_one_refuted :
  exists trees, scl_ctor 1 1 1 [false] 0 = Ret (0, trees) /\
  forall F G sort maxR, scl_decode F G 0 [false] 1 0 maxR sort [1%Z] [false] trees = Undef.
Proof. eexists. split; [reflexivity|]. intros. reflexivity. Qed.

(* ------------------------------------------------------------------ *)
(** * C122: with the exact kernels the metric is the discrepancy; a list of 2^K entries is
    maximum-likelihood *)

Theorem C122_metric : forall m y u, length y = 2 ^ m -> length u = 2 ^ m ->
  path_metric f_LLR g_LLR m y u = discrepancy y (arikan (2 ^ m) u).
Proof. exact metric_discrepancy. Qed.

Theorem C122_best_codeword : forall m a fb metric_init maxR sort y trees,
  1 <= m -> length fb = 2 ^ m -> length y = 2 ^ m -> sorts_by_metric sort -> decoder_memory m (2 ^ a) trees ->
  exists C x trees', survivors f_LLR g_LLR m (2 ^ a) fb y (2 ^ m) C /\
    scl_decode_cw f_LLR g_LLR m fb (2 ^ a) metric_init maxR sort y trees = Ret (x, trees') /\
    In x (map (arikan (2 ^ m)) C) /\ polar_codeword (2 ^ m) fb x /\
    forall x', In x' (map (arikan (2 ^ m)) C) -> (correlation y x' <= correlation y x)%Z.
Proof.
  intros m a fb mi mx sort y trees Hm Lf Ly HS HM.
  destruct (C121_list_decoder f_LLR g_LLR m a fb mi mx sort y (repeat false (length (info_positions fb))) trees)
    as (C & v & u & trees' & SV & Iv & BV & _ & E & IW & _); auto using repeat_length.
  exists C, (arikan (2 ^ m) v), trees'. split; auto. split; auto. split; [apply in_map; auto|]. split; [exists u, v; auto|].
  intros x' Hx. apply in_map_iff in Hx. destruct Hx as (w & <- & Iw).
  assert (LL : forall w, In w C -> length w = 2 ^ m) by (intros; eapply survivors_len; eauto).
  specialize (BV w Iw). rewrite !C122_metric in BV by auto. rewrite !correlation_discrepancy. lia.
Qed.

Theorem C122_maximum_likelihood : forall m a fb metric_init maxR sort y trees,
  1 <= m -> length fb = 2 ^ m -> length y = 2 ^ m -> sorts_by_metric sort -> decoder_memory m (2 ^ a) trees ->
  2 ^ length (info_positions fb) <= 2 ^ a ->
  exists x trees', scl_decode_cw f_LLR g_LLR m fb (2 ^ a) metric_init maxR sort y trees = Ret (x, trees') /\
    polar_codeword (2 ^ m) fb x /\
    forall x', polar_codeword (2 ^ m) fb x' -> (correlation y x' <= correlation y x)%Z.
Proof.
  intros m a fb mi mx sort y trees Hm Lf Ly HS HM HK.
  destruct (C122_best_codeword m a fb mi mx sort y trees) as (C & x & trees' & SV & E & Ix & PX & BX); auto.
  exists x, trees'. split; auto. split; auto. intros x' (u' & v' & (L' & FZ' & _) & ->). apply BX. apply in_map.
  destruct (survivors_all f_LLR g_LLR m (2 ^ a) fb y Lf HK (2 ^ m) C SV ltac:(lia)) as [_ X]. apply X; [lia|].
  intros k Hk Hf. apply FZ'; auto. lia.
Qed.

(* ------------------------------------------------------------------ *)
(** * C123: round trip *)

Theorem C123_noiseless : forall m a fb metric_init maxR sort u x0 x y vk trees,
  1 <= m -> length fb = 2 ^ m -> length u = length (info_positions fb) -> length x0 = 2 ^ m ->
  length vk = length (info_positions fb) -> sorts_by_metric sort -> decoder_memory m (2 ^ a) trees ->
  polar_encode (2 ^ m) fb u x0 = Ret x -> Forall2 llr_of y x ->
  exists trees', scl_decode f_LLR g_LLR m fb (2 ^ a) metric_init maxR sort y vk trees = Ret (u, trees') /\
    scl_decode_cw f_LLR g_LLR m fb (2 ^ a) metric_init maxR sort y trees = Ret (x, trees').
Proof.
  intros m a fb mi mx sort u x0 x y vk trees Hm Lf Lu Lx Lv HS HM E HF.
  assert (L0 : length u = count_info fb) by (rewrite <- length_info_positions; auto).
  unfold polar_encode in E. rewrite convert_ok in E by lia. cbn [bind] in E.
  set (v0 := inserted fb u) in *. assert (IW0 : input_word fb u v0) by (apply inserted_input; auto).
  rewrite light_encode_ok in E by (destruct IW0; lia). injection E as Ex.
  assert (Lv0 : length v0 = 2 ^ m) by (destruct IW0; lia).
  assert (Lyx : length y = length x) by (clear - HF; induction HF; simpl; auto).
  assert (Ly : length y = 2 ^ m) by (rewrite Lyx, <- Ex; apply length_arikan).
  destruct (C121_list_decoder f_LLR g_LLR m a fb mi mx sort y vk trees)
    as (C & v & u' & trees' & SV & Iv & BV & E1 & E2 & IW & _); auto.
  destruct (agreeing_survives f_LLR g_LLR m (2 ^ a) fb y v0 (pow2_pos a) Lv0 Lf (proj1 (proj2 IW0))) as (UQ & Z0 & IN).
  { apply noiseless_llr; auto. intros j Hj. rewrite Ex.
    assert (X : llr_of (nth j y 0%Z) (nth j x false)).
    { rewrite <- Ly in Hj. clear - HF Hj. revert j Hj. induction HF; intros j Hj; simpl in Hj; [lia|]. destruct j; auto. simpl. apply IHHF. lia. }
    exact X. }
  assert (I0 : In v0 C). { rewrite <- (firstn_all v0). rewrite Lv0. apply IN; auto. }
  assert (LV : length v = 2 ^ m) by (eapply survivors_len; eauto).
  assert (EV : v = v0).
  { rewrite (UQ v); [rewrite LV, <- Lv0; apply firstn_all|lia|]. specialize (BV v0 I0).
    assert (X := Z0 (2 ^ m) (le_n _)). rewrite <- Lv0, firstn_all in X. pose proof (pm_nonneg f_LLR g_LLR m y v). lia. }
  subst v. exists trees'. split.
  - rewrite E1. do 2 f_equal. destruct IW as (_ & _ & C1). destruct IW0 as (_ & _ & C2). unfold carries in *. congruence.
  - rewrite E2, Ex. auto.
Qed.

(* ------------------------------------------------------------------ *)
(** * C124: CRC-aided selection *)

Theorem C124_crc_aided : forall F G m a fb metric_init maxR sort check y vk trees,
  1 <= m -> length fb = 2 ^ m -> length y = 2 ^ m -> length vk = length (info_positions fb) ->
  sorts_by_metric sort -> decoder_memory m (2 ^ a) trees ->
  exists C v u trees', survivors F G m (2 ^ a) fb y (2 ^ m) C /\ In v C /\ input_word fb u v /\
    ca_decode F G m fb (2 ^ a) metric_init maxR sort check y vk trees = Ret (u, trees') /\
    ca_decode_cw F G m fb (2 ^ a) metric_init maxR sort check y trees = Ret (arikan (2 ^ m) v, trees') /\
    ((exists u' w, In w C /\ input_word fb u' w /\ check u' = true) ->
       check u = true /\
       forall u' w, In w C -> input_word fb u' w -> check u' = true ->
         (path_metric F G m y v <= path_metric F G m y w)%Z) /\
    decoder_memory m (2 ^ a) trees'.
Proof.
  intros F G m a fb mi mx sort check y vk trees Hm Lf Ly Lv HS HM.
  destruct (with_sel F G m a fb mi mx sort y Hm Lf Ly HS (select_best_path_ca m fb check) (crc_choice F G m fb y check) trees vk HM Lv)
    as (C & v & u & trees' & SV & Iv & CV & E1 & E2 & IW & HM').
  { intros ts act U c Z0 I _. eapply (ca_sel F G m a fb y); eauto. }
  exists C, v, u, trees'. split; auto. split; auto. split; auto. split; auto. split; auto. split; auto.
  intros (u0 & w0 & I0 & (_ & _ & C0) & K0). unfold carries in C0.
  destruct CV as [P1 P2]. { exists w0. split; auto. rewrite C0. auto. }
  destruct IW as (_ & _ & CU). unfold carries in CU. split; [rewrite <- CU; auto|].
  intros u' w Iw (_ & _ & CW) Kw. apply P2; auto. unfold carries in CW. rewrite CW. auto.
Qed.

(** Insertion sort, for the examples. *)
Fixpoint hins (h : hyp) (l : list hyp) : list hyp :=
  match l with [] => [h] | k :: l' => if (hyp_met h <=? hyp_met k)%Z then h :: l else k :: hins h l' end.
Definition hsort (l : list hyp) : list hyp := fold_right hins [] l.
Lemma hins_perm : forall h l, Permutation (hins h l) (h :: l).
Proof. induction l; simpl; auto. destruct (_ <=? _)%Z; auto. rewrite IHl. apply perm_swap. Qed.
Lemma hins_sorted : forall h l, StronglySorted (fun a b => (hyp_met a <= hyp_met b)%Z) l ->
  StronglySorted (fun a b => (hyp_met a <= hyp_met b)%Z) (hins h l).
Proof.
  induction l; intros H; simpl. { repeat constructor. } inversion H; subst.
  destruct (Z.leb_spec (hyp_met h) (hyp_met a)).
  - constructor; auto. constructor; auto. rewrite Forall_forall in *. intros x Hx. specialize (H3 x Hx). lia.
  - constructor; auto. rewrite Forall_forall in *. intros x Hx. apply (Permutation_in _ (hins_perm h l)) in Hx.
    destruct Hx as [<-|Hx]; auto. lia.
Qed.
Lemma hsort_sorts : sorts_by_metric hsort.
Proof.
  intros l. unfold hsort. induction l; simpl. { split; auto. constructor. } destruct IHl as [A B]. split.
  - rewrite hins_perm. auto.
  - apply hins_sorted. auto.
Qed.

(** When no candidate passes the CRC the decoder does not fall back on the best candidate:
    it returns the path number 0, here the message 00 although 11 has a smaller metric. *)
Theorem C124_fallback_refuted :
  exists trees u1 t1 u2 t2, scl_ctor 2 2 2 [false; false] 0 = Ret (1, trees) /\
    ca_decode f_LLR g_LLR 1 [false; false] 2 0 1000 hsort (fun _ => false) [4; -3]%Z [false; false] trees = Ret (u1, t1) /\
    scl_decode f_LLR g_LLR 1 [false; false] 2 0 1000 hsort [4; -3]%Z [false; false] trees = Ret (u2, t2) /\
    (path_metric f_LLR g_LLR 1 [4; -3] u2 < path_metric f_LLR g_LLR 1 [4; -3] u1)%Z.
Proof. do 5 eexists. split; [reflexivity|]. split; [reflexivity|]. split; [reflexivity|]. reflexivity. Qed.

(** set_frozen_bits checks the pattern it is about to replace, not its argument: a pattern
    with a wrong number of information bits is accepted and the next frame writes beyond the
    end of the decoded word. *)
Theorem C124_set_frozen_bits_refuted :
  exists trees, scl_ctor 1 2 1 [true; false] 0 = Ret (1, trees) /\
    scl_set_frozen_bits 1 2 [true; false] [false; false] = Ret [false; false] /\
    length (info_positions [false; false]) <> 1 /\
    scl_decode f_LLR g_LLR 1 [false; false] 1 0 1000 hsort [4; -3]%Z [false] trees = Undef.
Proof. eexists. split; [reflexivity|]. split; [reflexivity|]. split; [discriminate|reflexivity]. Qed.

(* ------------------------------------------------------------------ *)
(** * C125: the SC decoder decides bit by bit; a list of one path is the SC decoder *)

Theorem C125_successive_cancellation : forall F G H m fb y vk,
  length fb = 2 ^ m -> length y = 2 ^ m -> length vk = length (info_positions fb) ->
  let K := length (info_positions fb) in
  exists u v, decode_siho F G H K (2 ^ m) fb y vk = Ret u /\
    decode_siho_cw F G H K (2 ^ m) fb y = Ret (arikan (2 ^ m) v) /\ input_word fb u v /\
    forall i, i < 2 ^ m -> nth i fb true = false -> nth i v false = H (sc_llr F G m y (firstn i v)).
Proof.
  intros F G H m fb y vk Lf Ly Lv K. unfold K. rewrite length_info_positions in *.
  unfold decode_siho, decode_siho_cw.
  rewrite sc_ctor_ok by auto. cbn [bind]. rewrite (gen_rd _ y) by auto. cbn [bind].
  destruct (decode_ok _ F G H m 0 fb y) as (d & E & Ld & Sd & Zd & Std & _); auto. { lia. }
  assert (SD := sc_decisions F G H m 0 fb y d Ly ltac:(lia) E).
  rewrite E. cbn [bind]. rewrite Std.
  destruct (store_list_ok fb (leaves d) 0 vk 0) as (v' & E' & L' & F'); auto; try lia.
  rewrite Nat.mul_0_l. rewrite E'. cbn [bind].
  exists v', (leaves d). split; auto. split.
  { rewrite Sd. apply gen_rd. apply length_arikan. }
  simpl (0 + _) in F'. rewrite Ld, <- Lf, rank_full, <- Lv, <- L', firstn_all in F'.
  split.
  - split; [lia|]. split.
    + intros i Hi Hf. apply Zd; auto. lia.
    + unfold carries, info_positions. rewrite F'. simpl. apply map_ext. intros. rewrite Nat.sub_0_r. auto.
  - intros i Hi Hf. rewrite SD by auto. simpl (0 * _ + _). rewrite Hf. auto.
Qed.

Lemma firstn_snoc : forall (l : list bool) k, k < length l -> firstn (S k) l = firstn k l ++ [nth k l false].
Proof. induction l; intros j Hj; simpl in Hj; [lia|]. destruct j; auto. simpl. f_equal. apply IHl. lia. Qed.

Theorem C125_list_of_one : forall F G m fb metric_init maxR sort y vk trees,
  1 <= m -> length fb = 2 ^ m -> length y = 2 ^ m -> length vk = length (info_positions fb) ->
  sorts_by_metric sort -> decoder_memory m 1 trees ->
  (forall w, length w < 2 ^ m -> sc_llr F G m y w <> 0%Z) ->
  exists u x trees', scl_decode F G m fb 1 metric_init maxR sort y vk trees = Ret (u, trees') /\
    scl_decode_cw F G m fb 1 metric_init maxR sort y trees = Ret (x, trees') /\
    decode_siho F G h_LLR (length (info_positions fb)) (2 ^ m) fb y vk = Ret u /\
    decode_siho_cw F G h_LLR (length (info_positions fb)) (2 ^ m) fb y = Ret x.
Proof.
  intros F G m fb mi mx sort y vk trees Hm Lf Ly Lv HS HM NZ.
  destruct (C121_list_decoder F G m 0 fb mi mx sort y vk trees) as (C & v & u & trees' & SV & Iv & _ & E1 & E2 & IW & _); auto.
  destruct (C125_successive_cancellation F G h_LLR m fb y vk) as (u0 & v0 & D1 & D2 & IW0 & DV); auto.
  assert (L0 : length v0 = 2 ^ m) by (destruct IW0; lia).
  assert (X : forall i C, survivors F G m 1 fb y i C -> i <= 2 ^ m -> C = [firstn i v0]).
  { clear - DV NZ L0 IW0 Lf. induction 1; intros Hi; auto.
    - rewrite IHsurvivors in H1 by lia. cbn [map] in H1. apply Permutation_sym, Permutation_length_1_inv in H1. subst C'.
      rewrite firstn_snoc by lia. destruct IW0 as (_ & FZ & _). rewrite FZ by (auto; lia). auto.
    - rewrite IHsurvivors in * by lia. cbn [extend flat_map app length] in *. destruct C' as [|c [|? ?]]; try (simpl in H2; lia).
      rewrite firstn_snoc by lia. specialize (DV i ltac:(lia) H0). rewrite DV. specialize (NZ (firstn i v0) ltac:(rewrite firstn_length; lia)).
      cbn [app] in H1. assert (Ic : In c [firstn i v0 ++ [false]; firstn i v0 ++ [true]]) by (rewrite <- H1; left; auto).
      f_equal. unfold h_LLR. destruct Ic as [<-|[<-|[]]].
      + apply Permutation_cons_inv in H1. apply Permutation_sym, Permutation_length_1_inv in H1. subst D.
        specialize (H3 _ _ (or_introl eq_refl) (or_introl eq_refl)). rewrite !pm_snoc in H3. unfold penalty in H3.
        destruct (Z.ltb_spec (sc_llr F G m y (firstn i v0)) 0); auto. destruct (Z.ltb_spec 0 (sc_llr F G m y (firstn i v0))); lia.
      + assert (H4 : Permutation ((firstn i v0 ++ [true]) :: D) [firstn i v0 ++ [true]; firstn i v0 ++ [false]]) by (rewrite H1; apply perm_swap).
        apply Permutation_cons_inv in H4. apply Permutation_sym, Permutation_length_1_inv in H4. subst D.
        specialize (H3 _ _ (or_introl eq_refl) (or_introl eq_refl)). rewrite !pm_snoc in H3. unfold penalty in H3.
        destruct (Z.ltb_spec (sc_llr F G m y (firstn i v0)) 0); auto. destruct (Z.ltb_spec 0 (sc_llr F G m y (firstn i v0))); lia. }
  rewrite (X _ _ SV (le_n _)) in Iv. destruct Iv as [<-|[]]. rewrite <- L0, firstn_all in *. rewrite L0 in *.
  exists u, (arikan (2 ^ m) v0), trees'. split; auto. split; auto. split; auto.
  rewrite D1. f_equal. destruct IW as (_ & _ & C1). destruct IW0 as (_ & _ & C2). unfold carries in *. congruence.
Qed.

(* ------------------------------------------------------------------ *)
(** * Examples *)

(** The decoded word, whatever the memory becomes. *)
Definition word_of {A} (r : outcome (list bool * A)) : option (list bool) :=
  match r with Ret (u, _) => Some u | _ => None end.

(** N = 4, K = 2: a list of 2 paths finds a better codeword than the SC decoder. *)
Example C121_ex :
  let fb := [true; false; false; true] in
  let y := [-3; -3; -2; 1]%Z in
  let vk := [false; false] in
  scl_ctor 2 4 1 fb 0 = Ret (2, repeat (fresh_tree 2 0) 1) /\
  scl_ctor 2 4 2 fb 0 = Ret (2, repeat (fresh_tree 2 0) 2) /\
  word_of (scl_decode f_LLR g_LLR 2 fb 1 0 1000 hsort y vk (repeat (fresh_tree 2 0) 1)) = Some [false; false] /\
  decode_siho f_LLR g_LLR h_LLR 2 4 fb y vk = Ret [false; false] /\
  word_of (scl_decode f_LLR g_LLR 2 fb 2 0 1000 hsort y vk (repeat (fresh_tree 2 0) 2)) = Some [true; false] /\
  (path_metric f_LLR g_LLR 2 y [false; true; false; false] < path_metric f_LLR g_LLR 2 y [false; false; false; false])%Z.
Proof.
  cbv zeta. split; [reflexivity|]. split; [reflexivity|]. split; [lazy; reflexivity|]. split; [reflexivity|].
  split; [lazy; reflexivity|]. reflexivity.
Qed.

(** The hypotheses of C121 to C125 hold for that decoder and insertion sort. *)
Example C121_hypotheses :
  sorts_by_metric hsort /\ decoder_memory 2 (2 ^ 1) (repeat (fresh_tree 2 0) 2) /\
  length (info_positions [true; false; false; true]) = 2.
Proof.
  split; [exact hsort_sorts|]. split; [|reflexivity].
  destruct (C121_ctor 2 4 2 [true; false; false; true] 0 2 (repeat (fresh_tree 2 0) 2) eq_refl) as (_ & _ & _ & _ & X).
  exact X.
Qed.

(** A parity check makes the decoder prefer a worse path. *)
Example C124_ex :
  let fb := [false; false] in
  word_of (scl_decode f_LLR g_LLR 1 fb 4 0 1000 hsort [4; 3]%Z [false; false] (repeat (fresh_tree 1 0) 4)) = Some [false; false] /\
  word_of (ca_decode f_LLR g_LLR 1 fb 4 0 1000 hsort (fun u => xorb (nth 0 u false) (nth 1 u false)) [4; 3]%Z [false; false]
    (repeat (fresh_tree 1 0) 4)) = Some [true; false].
Proof. cbv zeta. split; lazy; reflexivity. Qed.
