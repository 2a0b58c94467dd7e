(** C146 and C147: the genius decoders. *)
From Coq Require Import List Arith Lia Bool ZArith.
From Verif Require FlipProofs TpcProofs GaloisProofs GaloisSpec.
From Verif Require Import Base Copy GaloisModel DistModel DistProps HardModel HardProps RSModel RSBits BCHSpec BCHModel BCHEncProps GeniusModel GeniusSpec.
Import ListNotations.
Local Open Scope nat_scope.

(** A memory of n frames of N bits. *)
Definition shaped (n N : nat) (e : enc_mem) : Prop := em_on e = true /\ length (em_X e) = n /\ Forall (fun x => length x = N) (em_X e).

(** * C146: the memory of the encoder *)

Theorem C146_memory : forall n N, 0 < n -> (exists e, em_memorize true N (em_new n) = Ret e /\ shaped n N e) /\
  forall enc f u x0 x e, shaped n N e -> f < n -> enc u x0 = Ret x -> length x = N ->
  exists e', em_encode enc N f u x0 e = Ret (x, e') /\ shaped n N e' /\ em_get f e' = Ret x /\ forall f', f' < n -> f' <> f -> em_get f' e' = em_get f' e.
Proof.
  intros n N Hn. split.
  - unfold em_memorize, em_new. cbn [em_X]. destruct n as [|n]; [lia|]. cbn [repeat]. change (rd ([] :: repeat [] n) 0) with (Ret ([] : list Z)). cbn [bind length Nat.eqb]. eexists. split; [reflexivity|]. split; [reflexivity|]. cbn [em_X]. rewrite (repeat_length (repeat 0%Z N)). cbn [length]. rewrite repeat_length. split; [reflexivity|].
    apply Forall_forall. intros x Hx. apply repeat_spec in Hx. subst. apply repeat_length.
  - intros enc f u x0 x e (ON & LX & SH) Hf HE Lx. unfold em_encode. rewrite HE. cbn [bind]. rewrite ON. rewrite (rd_ok _ []) by lia. cbn [bind].
    assert (LM : length (nth f (em_X e) []) = N) by (rewrite Forall_forall in SH; apply SH, nth_In; lia).
    destruct (copy_spec _ 0%Z x 0 N (nth f (em_X e) []) 0) as (o & EO & LO & VO & _); [lia|lia|]. rewrite EO. cbn [bind]. rewrite wr_ok by lia. cbn [bind].
    assert (EX : o = x). { apply (list_eq_nth _ 0%Z); [lia|]. intros i Hi. apply (VO i). lia. } subst o.
    eexists. split; [reflexivity|]. unfold shaped, em_get. cbn [em_X em_on]. rewrite length_upd, LX. split; [|split].
    + split; auto. split; auto. apply Forall_forall. intros v Hv. destruct (In_nth _ _ [] Hv) as (i & Hi & <-). rewrite length_upd in Hi. rewrite nth_upd by lia. destruct (i =? f); auto. rewrite Forall_forall in SH. apply SH, nth_In. auto.
    + rewrite Nat.mod_small by auto. rewrite (rd_ok _ []) by (rewrite length_upd; lia). rewrite nth_upd, Nat.eqb_refl by lia. reflexivity.
    + intros f' Hf' NE. rewrite Nat.mod_small by auto. rewrite !(rd_ok _ []) by (rewrite ?length_upd; lia). rewrite nth_upd by lia. destruct (Nat.eqb_spec f' f); [contradiction|reflexivity].
Qed.

(** * C146: the BCH genius decoder *)

Lemma count_errors : forall w x y n c, bits x -> bits y -> n <= length x -> n <= length y -> counts (fun i => differ w false (nth i x 0%Z) (nth i y 0%Z)) n c -> c = Z.of_nat (errors n x y).
Proof.
  intros w x y n c Bx By. revert c. induction n as [|n IH]; intros c Lx Ly H; [inversion H; reflexivity|].
  assert (BX : nth n x 0%Z = 0%Z \/ nth n x 0%Z = 1%Z) by (unfold bits in Bx; rewrite Forall_forall in Bx; apply Bx, nth_In; lia).
  assert (BY : nth n y 0%Z = 0%Z \/ nth n y 0%Z = 1%Z) by (unfold bits in By; rewrite Forall_forall in By; apply By, nth_In; lia).
  unfold errors in *. rewrite seq_S, filter_app, app_length. cbn [Nat.add filter]. assert (CS : exists c', counts (fun i => differ w false (nth i x 0%Z) (nth i y 0%Z)) n c' /\ ((c = c' + 1)%Z /\ differ w false (nth n x 0%Z) (nth n y 0%Z) \/ c = c' /\ ~ differ w false (nth n x 0%Z) (nth n y 0%Z))) by (inversion H; subst; eauto). destruct CS as (c' & H1 & [[-> H2]|[-> H2]]); specialize (IH c' ltac:(lia) ltac:(lia) H1); unfold differ in H2.
  - destruct (Z.eqb_spec (nth n x 0%Z) (nth n y 0%Z)) as [EQ|NE]; cbn [negb length]; [|lia]. exfalso. rewrite EQ in H2. destruct H2 as [H2|[H2 _]]; [|discriminate]. destruct BY as [E|E]; rewrite E in H2; destruct H2 as [A B]; [apply B; auto|specialize (A ltac:(discriminate)); discriminate].
  - destruct (Z.eqb_spec (nth n x 0%Z) (nth n y 0%Z)) as [EQ|NE]; cbn [negb length]; [lia|]. exfalso. apply H2. left. destruct BX as [E|E], BY as [F|F]; rewrite E, F in *; split; intros; try congruence; try discriminate.
Qed.
Lemma errors_le : forall n x y, errors n x y <= n.
Proof. intros. unfold errors. rewrite <- (seq_length n 0) at 2. induction (seq 0 n) as [|a l IH]; [auto|]. cbn [filter length]. destruct (negb _); cbn [length]; lia. Qed.

Section Bch.
Variables (R : Type) (dflt : R) (lt0 sgn : R -> bool) (one mone : R) (E : nat) (w : Z) (lanes : option nat).
Hypothesis E0 : 0 < E.
Hypothesis WB : (w = 8 \/ w = 16 \/ w = 32 \/ w = 64)%Z.
Hypothesis LN : lanes_of w lanes.
Hypothesis ONE : lt0 one = false /\ sgn one = false.
Hypothesis MONE : lt0 mone = true /\ sgn mone = true.

(** A decoder and its buffers, for n frames. *)
Definition sized (n : nat) (d : bg) (s : bg_st R) : Prop :=
  bg_K d <= bg_N d /\ (Z.of_nat (bg_N d) < 2 ^ 31)%Z /\ length (bs_yh R s) = bg_N d /\ length (bs_last R s) = n /\ length (bs_Y R s) = bg_N d.

Theorem C146_constructor : forall n N K t e, shaped n N e \/ em_on e = false ->
  (em_on e = false -> bg_new R one K N t e = Throws) /\ (K <= 3 \/ N < K -> bg_new R one K N t e = Throws) /\
  (shaped n N e -> 3 < K <= N -> (Z.of_nat N < 2 ^ 31)%Z -> exists s, bg_new R one K N t e = Ret (mkBG K N t, s) /\ sized n (mkBG K N t) s).
Proof.
  clear E0 WB LN ONE MONE. intros n N K t e _. unfold bg_new. split; [|split].
  - intros ->. destruct (_ || _); [reflexivity|]. destruct (K <=? 3); reflexivity.
  - intros [H|H]; [destruct (_ || _); [reflexivity|]; destruct (Nat.leb_spec K 3); [reflexivity|lia]|]. destruct (Nat.ltb_spec N K); [|lia]. rewrite orb_true_r. reflexivity.
  - intros (ON & LX & _) HK HN. destruct (Nat.eqb_spec K 0); [lia|]. destruct (Nat.eqb_spec N 0); [lia|]. destruct (Nat.ltb_spec N K); [lia|]. destruct (Nat.leb_spec K 3); [lia|]. rewrite ON. cbn [orb negb]. eexists. split; [reflexivity|]. unfold sized. cbn. rewrite !repeat_length. repeat split; auto; lia.
Qed.

Lemma compare_ok : forall n d e f off len x y v last, em_get f e = Ret x -> length x = bg_N d -> length y = bg_N d -> bits x -> bits y -> (Z.of_nat (bg_N d) < 2 ^ 31)%Z -> off + len = bg_N d -> length v = len -> length last = n -> f < n ->
  bg_compare w lanes d e f off len y v last = Ret (skipn off (genius (bg_t d) (bg_N d) x y), upd last f (errors (bg_N d) x y <=? bg_t d)).
Proof.
  intros n d e f off len x y v last HX Lx Ly Bx By HN OL Lv Ll Hf. unfold bg_compare. rewrite HX. cbn [bind].
  destruct (C75_two w lanes false x y (bg_N d) WB LN ltac:(lia) ltac:(lia) HN) as (c & EC & CC). rewrite EC. cbn [bind]. assert (EE := count_errors w x y (bg_N d) c Bx By ltac:(lia) ltac:(lia) CC). assert (LE := errors_le (bg_N d) x y).
  rewrite (GaloisProofs.cast_small 32) by (subst c; cbn; lia). subst c.
  assert (EB : (Z.of_nat (errors (bg_N d) x y) <=? Z.of_nat (bg_t d))%Z = (errors (bg_N d) x y <=? bg_t d)) by (destruct (Z.leb_spec (Z.of_nat (errors (bg_N d) x y)) (Z.of_nat (bg_t d))), (Nat.leb_spec (errors (bg_N d) x y) (bg_t d)); auto; lia). rewrite EB.
  unfold genius.
  assert (CP : forall z, length z = bg_N d -> copy z off len v 0 = Ret (skipn off z)).
  { intros z Lz. destruct (copy_spec _ 0%Z z off len v 0) as (o & EO & LO & VO & _); [lia|lia|]. rewrite EO. f_equal. apply (list_eq_nth _ 0%Z); [rewrite skipn_length; lia|]. intros i Hi. rewrite Base.skipn_nth. apply (VO i). lia. }
  destruct (errors (bg_N d) x y <=? bg_t d); rewrite CP by auto; cbn [bind]; rewrite wr_ok by lia; reflexivity.
Qed.
Lemma soft_ok : forall n d e f off len x y cwd v s, em_get f e = Ret x -> length x = bg_N d -> length y = bg_N d -> bits x -> (forall z, In z y -> sgn z = lt0 z) -> sized n d s -> off + len = bg_N d -> length v = len -> length cwd = 1 -> f < n ->
  exists s', bg_soft R lt0 sgn E w lanes d e f off len y cwd v s = Ret ([0%Z], skipn off (genius (bg_t d) (bg_N d) x (decisions lt0 y)), s') /\ sized n d s' /\
  nth f (bs_last R s') false = (errors (bg_N d) x (decisions lt0 y) <=? bg_t d) /\ forall f', f' <> f -> nth f' (bs_last R s') false = nth f' (bs_last R s) false.
Proof.
  intros n d e f off len x y cwd v s HX Lx Ly Bx SG (S1 & S2 & S3 & S4 & S5) OL Lv Lc Hf. unfold bg_soft. assert (HD : hard_decide R lt0 sgn E y (bg_N d) (bs_yh R s) = Ret (decisions lt0 y)) by (rewrite <- Ly; apply (C54_hard R dflt); auto; lia). rewrite HD. cbn [bind].
  assert (LD : length (decisions lt0 y) = bg_N d) by (unfold decisions; rewrite map_length; auto).
  assert (BD : bits (decisions lt0 y)). { apply Forall_forall. intros z Hz. apply in_map_iff in Hz. destruct Hz as (a & <- & _). destruct (lt0 a); auto. }
  rewrite (compare_ok n d e f off len x) by auto. cbn [bind]. destruct cwd as [|c [|c1 r]]; try discriminate. change (fill [c] 0 1 0%Z) with (Ret [0%Z]). cbn [bind]. eexists. split; [reflexivity|].
  unfold sized. cbn [bs_yh bs_last bs_Y]. rewrite length_upd. split; [auto|]. split; [rewrite nth_upd, Nat.eqb_refl by lia; reflexivity|]. intros f' NE. rewrite nth_upd by lia. destruct (Nat.eqb_spec f' f); [contradiction|reflexivity].
Qed.

(** Soft and hard inputs: the word kept by the encoder when there are at most t errors, otherwise the hard decisions. *)
Theorem C146_soft : forall n d e f x y cwd v v1 s, em_get f e = Ret x -> length x = bg_N d -> length y = bg_N d -> bits x -> (forall z, In z y -> sgn z = lt0 z) -> sized n d s -> length cwd = 1 -> f < n -> length v = bg_K d -> length v1 = bg_N d ->
  (exists s', bg_siho R lt0 sgn E w lanes d e f y cwd v s = Ret ([0%Z], skipn (bg_N d - bg_K d) (genius (bg_t d) (bg_N d) x (decisions lt0 y)), s') /\ sized n d s' /\
    nth f (bs_last R s') false = (errors (bg_N d) x (decisions lt0 y) <=? bg_t d) /\ forall f', f' <> f -> nth f' (bs_last R s') false = nth f' (bs_last R s) false) /\
  (exists s', bg_siho_cw R lt0 sgn E w lanes d e f y cwd v1 s = Ret ([0%Z], genius (bg_t d) (bg_N d) x (decisions lt0 y), s') /\ sized n d s' /\
    nth f (bs_last R s') false = (errors (bg_N d) x (decisions lt0 y) <=? bg_t d) /\ forall f', f' <> f -> nth f' (bs_last R s') false = nth f' (bs_last R s) false).
Proof.
  intros n d e f x y cwd v v1 s HX Lx Ly Bx SG HS Lc Hf Lv Lv1. assert (HS' := HS). destruct HS' as (S1 & _). split.
  - apply soft_ok; auto. lia.
  - apply (soft_ok n d e f 0 (bg_N d)); auto.
Qed.
Theorem C146_hard : forall n d e f x y cwd v v1 s, em_get f e = Ret x -> length x = bg_N d -> length y = bg_N d -> bits x -> bits y -> sized n d s -> length cwd = 1 -> f < n -> length v = bg_K d -> length v1 = bg_N d ->
  (exists s', bg_hiho R lt0 sgn one mone E w lanes d e f y cwd v s = Ret ([0%Z], skipn (bg_N d - bg_K d) (genius (bg_t d) (bg_N d) x y), s') /\ sized n d s' /\
    nth f (bs_last R s') false = (errors (bg_N d) x y <=? bg_t d) /\ forall f', f' <> f -> nth f' (bs_last R s') false = nth f' (bs_last R s) false) /\
  (exists s', bg_hiho_cw R lt0 sgn one mone E w lanes d e f y cwd v1 s = Ret ([0%Z], genius (bg_t d) (bg_N d) x y, s') /\ sized n d s' /\
    nth f (bs_last R s') false = (errors (bg_N d) x y <=? bg_t d) /\ forall f', f' <> f -> nth f' (bs_last R s') false = nth f' (bs_last R s) false).
Proof.
  intros n d e f x y cwd v v1 s HX Lx Ly Bx By HS Lc Hf Lv Lv1. assert (HS' := HS). destruct HS' as (S1 & S2 & S3 & S4 & S5).
  set (Y := map (fun b => if (b =? 0)%Z then one else mone) y).
  assert (EY : for_ (bg_N d) (fun i Y => b <- rd y i ;; wr Y i (if (b =? 0)%Z then one else mone)) (bs_Y R s) = Ret Y).
  { rewrite (FlipProofs.fill R dflt (fun i => if (nth i y 0 =? 0)%Z then one else mone)); auto.
    - f_equal. symmetry. apply (TpcProofs.tab_is _ one); [unfold Y; rewrite map_length; auto|]. intros i Hi. unfold Y. rewrite (nth_indep _ one (if (0 =? 0)%Z then one else mone)) by (rewrite map_length; lia). rewrite (map_nth (fun b => if (b =? 0)%Z then one else mone)). reflexivity.
    - intros i o Hi Lo. rewrite (rd_ok _ 0%Z) by lia. reflexivity. }
  assert (LY : length Y = bg_N d) by (unfold Y; rewrite map_length; auto).
  assert (DY : decisions lt0 Y = y). { unfold decisions, Y. rewrite map_map. rewrite <- (map_id y) at 2. apply map_ext_in. intros b Hb. unfold bits in By. rewrite Forall_forall in By. destruct (By b Hb) as [-> | ->]; cbn [Z.eqb]; [rewrite (proj1 ONE)|rewrite (proj1 MONE)]; reflexivity. }
  assert (SG : forall z, In z Y -> sgn z = lt0 z). { intros z Hz. apply in_map_iff in Hz. destruct Hz as (b & <- & _). destruct (b =? 0)%Z; [rewrite (proj1 ONE), (proj2 ONE)|rewrite (proj1 MONE), (proj2 MONE)]; reflexivity. }
  assert (HS2 : sized n d (mkBS R (bs_yh R s) (bs_last R s) Y)) by (unfold sized; cbn [bs_yh bs_last bs_Y]; auto).
  unfold bg_hiho, bg_hiho_cw, bg_hard. rewrite EY. cbn [bind]. destruct (C146_soft n d e f x Y cwd v v1 _ HX Lx LY Bx SG HS2 Lc Hf Lv Lv1) as [A B]. rewrite DY in A, B. split; [exact A|exact B].
Qed.
(** With a BCH encoder: encode, then decode values with at most t errors. *)
Theorem C146_message : forall wg m p t gf g K N pos n d s e u x0 f, bch_setup wg m p t gf g -> 2 * t < 2 ^ m - 1 -> bch_enc_ctor K N g = Ret pos -> length u = K -> bits u -> length x0 = N -> shaped n N e -> f < n -> d = mkBG K N t -> sized n d s ->
  exists x e', em_encode (bch_encode K g) N f u x0 e = Ret (x, e') /\ bch_codeword (GaloisSpec.poly_of (gf_p gf)) t x /\
  forall y cwd v v1, length y = N -> (forall z, In z y -> sgn z = lt0 z) -> errors N x (decisions lt0 y) <= t -> length cwd = 1 -> length v = K -> length v1 = N ->
  exists c1 c2 s1 s2, bg_siho R lt0 sgn E w lanes d e' f y cwd v s = Ret (c1, u, s1) /\ bg_siho_cw R lt0 sgn E w lanes d e' f y cwd v1 s = Ret (c2, x, s2) /\ nth f (bs_last R s1) false = true.
Proof.
  intros wg m p t gf g K N pos n d s e u x0 f SU T2 EC Lu Bu L0 SH Hf -> HS. destruct (C24_encode wg m p t gf g SU T2 K N pos EC u x0 Lu Bu L0) as (x & EX & Lx & CW & PP & PU).
  destruct (proj2 (C146_memory n N ltac:(lia)) (bch_encode K g) f u x0 x e SH Hf EX Lx) as (e' & EE & _ & GE & _). exists x, e'. split; auto. split; auto. intros y cwd v v1 Ly SG ER Lc Lv Lv1. assert (Bx : bits x) by apply CW.
  destruct (C146_soft n (mkBG K N t) e' f x y cwd v v1 s GE Lx Ly Bx SG HS Lc Hf Lv Lv1) as [(s1 & A & _ & LA & _) (s2 & B & _)]. cbn [bg_N bg_K bg_t] in *. unfold genius in *. destruct (Nat.leb_spec (errors N x (decisions lt0 y)) t); [|lia].
  exists [0%Z], [0%Z], s1, s2. split; [|split; [exact B|exact LA]]. rewrite A. do 2 f_equal. f_equal. destruct HS as (S1 & _). cbn [bg_N bg_K] in S1.
  apply (list_eq_nth _ 0%Z); [rewrite skipn_length; lia|]. intros i Hi. rewrite skipn_length in Hi. rewrite Base.skipn_nth. rewrite <- PU by lia. rewrite PP by lia. reflexivity.
Qed.
(** The flag CWD of the tasks never tells a success, even when the word was corrected. *)
Theorem C146_flag_refuted : forall n d e f x y cwd v s c V s', em_get f e = Ret x -> length x = bg_N d -> length y = bg_N d -> bits x -> (forall z, In z y -> sgn z = lt0 z) -> sized n d s -> length cwd = 1 -> f < n -> length v = bg_K d ->
  bg_siho R lt0 sgn E w lanes d e f y cwd v s = Ret (c, V, s') -> c = [0%Z] /\ (errors (bg_N d) x (decisions lt0 y) <= bg_t d -> V = skipn (bg_N d - bg_K d) x).
Proof.
  intros n d e f x y cwd v s c V s' HX Lx Ly Bx SG HS Lc Hf Lv EV. destruct (C146_soft n d e f x y cwd v (repeat 0%Z (bg_N d)) s HX Lx Ly Bx SG HS Lc Hf Lv (repeat_length _ _)) as [(s1 & A & _) _]. rewrite A in EV. inversion EV. subst. split; auto. intros H. unfold genius. destruct (Nat.leb_spec (errors (bg_N d) x (decisions lt0 y)) (bg_t d)); [reflexivity|lia].
Qed.

(** * C147: the Reed-Solomon genius decoder throws for every frame, in every task *)
Theorem C147_hard_refuted : forall wn m N y ys, 0 < m < wn -> length y = N * m -> bits y -> length ys = N -> rg_hard wn m N y ys = Throws.
Proof. clear E0 WB LN ONE MONE. intros wn m N y ys Hm Ly By Ls. unfold rg_hard. rewrite rs_pack_ok by (auto; lia). reflexivity. Qed.
Theorem C147_soft_refuted : forall wn m N y yb ys, 0 < m < wn -> length y = N * m -> (forall z, In z y -> sgn z = lt0 z) -> length yb = N * m -> length ys = N -> rg_soft R lt0 sgn E wn m N y yb ys = Throws.
Proof.
  clear WB LN ONE MONE. intros wn m N y yb ys Hm Ly SG Lb Ls. unfold rg_soft. assert (HD : hard_decide R lt0 sgn E y (N * m) yb = Ret (decisions lt0 y)) by (rewrite <- Ly; apply (C54_hard R dflt); auto; lia). rewrite HD. cbn [bind]. rewrite rs_pack_ok; [reflexivity|auto|unfold decisions; rewrite map_length; lia| |auto].
  apply Forall_forall. intros z Hz. apply in_map_iff in Hz. destruct Hz as (a & <- & _). destruct (lt0 a); auto.
Qed.
End Bch.

(** * The hypotheses are met: the code of length 15 that corrects 2 errors, frame 1 of 2, fixed-point values with 2 errors *)
Example C146_meets : exists e s d x e' c s1, em_memorize true 15 (em_new 2) = Ret e /\ shaped 2 15 e /\ bg_new Z 1%Z 7 15 2 e = Ret (d, s) /\ sized Z 2 d s /\
  em_encode (bch_encode 7 ex_g) 15 1 [1;0;0;1;1;0;1]%Z (repeat 0%Z 15) e = Ret (x, e') /\
  let y := [5;-3;-1;2;-1;4;4;4;-9;1;1;-1;3;2;-7]%Z in
  errors 15 x (decisions int_lt0 y) = 2 /\ bg_siho Z int_lt0 int_lt0 4 32 (Some 8) d e' 1 y [7%Z] (repeat 0%Z 7) s = Ret (c, [1;0;0;1;1;0;1]%Z, s1).
Proof.
  destruct (proj1 (C146_memory 2 15 ltac:(lia))) as (e & EM & SH). destruct (C146_constructor Z 1%Z 2 15 7 2 e (or_introl SH)) as (_ & _ & NEW). destruct (NEW SH ltac:(lia) ltac:(reflexivity)) as (s & EN & SZ).
  destruct C24_example as (SU & _ & CT & EX). assert (BU : bits [1;0;0;1;1;0;1]%Z) by (unfold bits; repeat apply Forall_cons; auto).
  destruct (C146_message Z 0%Z int_lt0 int_lt0 4 32 (Some 8) ltac:(lia) ltac:(auto) ltac:(exists 8; split; [lia|reflexivity]) 32 4 [] 2 ex_gf ex_g 7 15 _ 2 (mkBG 7 15 2) s e [1;0;0;1;1;0;1]%Z (repeat 0%Z 15) 1 SU ltac:(cbn; lia) CT eq_refl BU eq_refl SH ltac:(lia) eq_refl SZ) as (x & e' & EE & CW & D).
  assert (XE : x = [0;1;1;1;1;0;0;0;1;0;0;1;1;0;1]%Z). { destruct (proj2 (C146_memory 2 15 ltac:(lia)) (bch_encode 7 ex_g) 1 _ _ _ e SH ltac:(lia) EX eq_refl) as (e2 & E2 & _). rewrite E2 in EE. injection EE as EQ _. symmetry. exact EQ. }
  assert (ER : errors 15 x (decisions int_lt0 [5;-3;-1;2;-1;4;4;4;-9;1;1;-1;3;2;-7]%Z) = 2) by (rewrite XE; reflexivity).
  destruct (D [5;-3;-1;2;-1;4;4;4;-9;1;1;-1;3;2;-7]%Z [7%Z] (repeat 0%Z 7) (repeat 0%Z 15) eq_refl (fun _ _ => eq_refl) ltac:(lia) eq_refl eq_refl eq_refl) as (c1 & c2 & s1 & s2 & A & _ & _).
  exists e, s, (mkBG 7 15 2), x, e', c1, s1. split; [exact EM|]. split; [exact SH|]. split; [exact EN|]. split; [exact SZ|]. split; [exact EE|]. cbv zeta. split; [exact ER|exact A].
Qed.
Example C147_meets : rg_hard 32 2 3 [1;0;1;1;0;0]%Z [0;0;0]%Z = Throws /\ rg_soft Z int_lt0 int_lt0 4 32 2 3 [1;-2;1;1;3;4]%Z (repeat 0%Z 6) [0;0;0]%Z = Throws.
Proof. split; [apply C147_hard_refuted|apply (C147_soft_refuted Z 0%Z)]; auto; try lia. unfold bits. repeat apply Forall_cons; auto. Qed.
