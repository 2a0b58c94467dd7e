From Coq Require Import List Arith ZArith Lia Bool.
From Verif Require Import Base Copy ConvModel ConvSpec ConvProofs ConvCodeProofs RepModel RepSpec RepProofs.
Import ListNotations.

(* ------------------------------------------------------------------ *)
(** * C21: repeat-accumulate encoder *)

Theorem C21_encode : forall K N lut pos ub tmp u x, ra_ctor K N (length lut) = Ret pos -> Forall (fun p => p < N) lut ->
  length ub = N -> length tmp = N -> bits u -> length u = K -> length x = N ->
  ra_encode K N lut ub tmp u x = Ret (tab N (ra_out (N / K) lut u)).
Proof.
  intros K N lut pos ub tmp u x HC HL LB LT BU LU LX. destruct (ra_ctor_inv _ _ _ _ HC) as (HK & HR & HN & LL & _). apply ra_encode_ok; auto.
Qed.

Theorem C21_linear : forall K N lut pos ub tmp ub' tmp' u v x y ou ov, ra_ctor K N (length lut) = Ret pos -> Forall (fun p => p < N) lut ->
  length ub = N -> length tmp = N -> length ub' = N -> length tmp' = N -> bits u -> bits v -> length u = K -> length v = K -> length x = N -> length y = N ->
  ra_encode K N lut ub tmp u x = Ret ou -> ra_encode K N lut ub tmp v x = Ret ov ->
  ra_encode K N lut ub' tmp' (xor_list u v) y = Ret (xor_list ou ov).
Proof.
  intros K N lut pos ub tmp ub' tmp' u v x y ou ov HC HL LB LT LB' LT' BU BV LU LV LX LY EU EV.
  rewrite (C21_encode _ _ _ _ _ _ _ _ HC) in EU by auto. rewrite (C21_encode _ _ _ _ _ _ _ _ HC) in EV by auto.
  rewrite (C21_encode _ _ _ _ _ _ _ _ HC); auto; [| apply bits_xor | rewrite length_xor; lia]. f_equal. inversion EU. inversion EV.
  symmetry. apply (eq_tab _ 0). { rewrite length_xor; rewrite !length_tab; auto. } intros i Hi.
  rewrite nth_xor by (rewrite !length_tab; auto). rewrite !nth_tab by auto. unfold ra_out. symmetry. apply (sum_xor_lin (fun p => p / (N / K))). lia.
Qed.

Theorem C21_injective : forall K N lut pos ub tmp u v x o, ra_ctor K N (length lut) = Ret pos -> is_perm N lut ->
  length ub = N -> length tmp = N -> bits u -> bits v -> length u = K -> length v = K -> length x = N ->
  ra_encode K N lut ub tmp u x = Ret o -> ra_encode K N lut ub tmp v x = Ret o -> u = v.
Proof.
  intros K N lut pos ub tmp u v x o HC HP LB LT BU BV LU LV LX EU EV. destruct (ra_ctor_inv _ _ _ _ HC) as (HK & HR & HN & LL & _).
  assert (HL : Forall (fun p => p < N) lut). { apply Forall_forall. intros p Hp. destruct (In_nth _ _ 0 Hp) as (i & Hi & <-). apply HP. lia. }
  rewrite (C21_encode _ _ _ _ _ _ _ _ HC) in EU by auto. rewrite (C21_encode _ _ _ _ _ _ _ _ HC) in EV by auto.
  inversion EU as [E1]. inversion EV as [E2]. rewrite HN in HP. apply (ra_inj K (N / K) lut); auto. rewrite <- HN. congruence.
Qed.

Example C21_meets : ra_ctor 2 6 6 = Ret [0; 3] /\ is_perm 6 [2; 0; 5; 3; 1; 4] /\
  ra_encode 2 6 [2; 0; 5; 3; 1; 4] (repeat 0 6) (repeat 0 6) [1; 0] (repeat 0 6) = Ret [1; 0; 0; 0; 1; 1].
Proof.
  split; [reflexivity|]. split; [|reflexivity]. apply is_perm_iff. apply Permutation.NoDup_Permutation.
  - repeat constructor; cbn; intuition discriminate.
  - apply seq_NoDup.
  - intros x. cbn. intuition.
Qed.

(* ------------------------------------------------------------------ *)
(** * C22: repetition code *)

Theorem C22_encode : forall K N b pos u x, rep_ctor K N b = Ret pos -> length u = K -> length x = N ->
  exists o, rep_encode K N b u x = Ret o /\ rep_word b K (N / K) u o /\ map (fun p => nth p o 0) pos = u.
Proof.
  intros K N b pos u x HC LU LX. destruct (rep_ctor_inv _ _ _ _ HC) as (HK & Hn & HN & EP). set (n := N / K) in *. clearbody n. symmetry in HN. destruct HN.
  rewrite rep_encode_ok by auto. eexists. split; [reflexivity|].
  assert (W : rep_word b K n u (tab (n * K) (rep_F b K n u))).
  { split; [apply length_tab|]. split; auto. intros k r Hk Hr. rewrite nth_tab by (apply rep_pos_lt; auto). apply rep_F_pos; auto. }
  split; auto. subst pos. rewrite map_tab. symmetry. apply (eq_tab _ 0); auto. intros k Hk. symmetry. apply W; auto.
Qed.

Theorem C22_is_codeword : forall K N b pos x, rep_ctor K N b = Ret pos -> length x = N ->
  exists r, rep_is_codeword K N b x = Ret r /\ (r = true <-> exists u, rep_word b K (N / K) u x).
Proof.
  intros K N b pos x HC LX. destruct (rep_ctor_inv _ _ _ _ HC) as (HK & Hn & HN & _). set (n := N / K) in *. clearbody n. symmetry in HN. destruct HN.
  apply rep_is_codeword_ok; auto.
Qed.

(** The message determines the word. *)
Theorem C22_unique : forall b K n u x y, rep_word b K n u x -> rep_word b K n u y -> x = y.
Proof.
  intros b K n u x y (LX & _ & HX) (LY & _ & HY). apply (list_eq_nth _ 0); [lia|]. intros q Hq. rewrite LX in Hq.
  destruct (rep_pos_surj b _ _ _ Hq) as (k & r & Hk & Hr & ->). rewrite HX, HY; auto.
Qed.

Lemma dec_ctor_inv : forall nel K N, rep_dec_ctor nel K N = Ret tt -> 0 < K /\ 0 < N / K /\ N = N / K * K /\ K mod nel = 0.
Proof.
  intros nel K N H. unfold rep_dec_ctor, guard in H. destruct (Nat.ltb_spec 0 K); [|discriminate]. destruct (Nat.ltb_spec 0 N); [|discriminate].
  destruct (Nat.leb_spec K N); [|discriminate]. cbn [bind] in H. destruct (Nat.eqb_spec (N mod K) 0); [|discriminate]. cbn [bind] in H.
  destruct (Nat.eqb_spec (K mod nel) 0); [|discriminate]. split; auto. split. { apply Nat.div_str_pos. lia. } split; auto. apply div_fill; auto.
Qed.

(** For every type of LLR, the decision on a bit is the sign of the sum (in that type) of
    its LLRs; the two decoders differ by the addition only. *)
Theorem C22_decode_std : forall R (add : R -> R -> R) (neg : R -> bool) d K N b sys par ext y v,
  rep_dec_ctor 1 K N = Ret tt -> length y = N -> length sys = K -> length par = (N / K - 1) * K -> length ext = K -> length v = K ->
  rep_decode neg (rep_siso_std add K N) K N b sys par ext y v =
    Ret (tab K (fun k => if neg (add_up add d (rep_llrs d b K (N / K) y k)) then 1 else 0)).
Proof.
  intros R add neg d K N b sys par ext y v HC LY LS LP LE LV. destruct (dec_ctor_inv _ _ _ HC) as (HK & Hn & HN & _).
  set (n := N / K) in *. clearbody n. symmetry in HN. destruct HN. apply rep_decode_ok; auto. intros. apply siso_std_ok; auto.
Qed.
Theorem C22_decode_fast : forall R (add : R -> R -> R) (neg : R -> bool) d nel K N b sys par ext y v,
  rep_dec_ctor nel K N = Ret tt -> length y = N -> length sys = K -> length par = (N / K - 1) * K -> length ext = K -> length v = K ->
  rep_decode neg (rep_siso_fast add nel K N) K N b sys par ext y v =
    Ret (tab K (fun k => if neg (add_up add d (rep_llrs d b K (N / K) y k)) then 1 else 0)).
Proof.
  intros R add neg d nel K N b sys par ext y v HC LY LS LP LE LV. destruct (dec_ctor_inv _ _ _ HC) as (HK & Hn & HN & HM).
  set (n := N / K) in *. clearbody n. symmetry in HN. destruct HN. apply rep_decode_ok; auto. intros. apply siso_fast_ok; auto.
Qed.

(** [decision] is what both decoders return. *)
Definition decision {R} (add : R -> R -> R) (neg : R -> bool) (d : R) (b : bool) (K n : nat) (y : list R) : list nat :=
  tab K (fun k => if neg (add_up add d (rep_llrs d b K n y k)) then 1 else 0).

(** Without overflow the decision is the maximum-likelihood one. *)
Theorem C22_maximum_likelihood : forall add M b K n y u xu xv,
  (forall a c, (Z.abs (a + c) <= M)%Z -> add a c = (a + c)%Z) ->
  length y = n * K -> (forall k, k < K -> (sumZ (map Z.abs (rep_llrs 0%Z b K n y k)) <= M)%Z) ->
  rep_word b K n (decision add negZ 0%Z b K n y) xv -> bits u -> rep_word b K n u xu ->
  (correlation xu y <= correlation xv y)%Z.
Proof.
  intros add M b K n y u xu xv HA LY HM WV BU WU. rewrite (corr_rep _ _ _ _ _ _ WU LY), (corr_rep _ _ _ _ _ _ WV LY). apply sumf_le. intros k Hk.
  unfold decision. rewrite nth_tab by auto. rewrite (add_up_bounded add M HA) by auto. set (s := sumZ (rep_llrs 0%Z b K n y k)). unfold negZ.
  destruct (Z.ltb_spec s 0); cbn [Nat.eqb]; destruct (nth k u 0 =? 0); lia.
Qed.
(** Its first hypothesis holds for unbounded integers, and for w bits while the sums fit. *)
Theorem C22_fixed_point_exact : forall w a c, (0 < w)%Z -> (Z.abs (a + c) <= 2 ^ (w - 1) - 1)%Z ->
  add_wrap w a c = (a + c)%Z /\ add_sat w a c = (a + c)%Z.
Proof.
  intros w a c Hw H. split.
  - unfold add_wrap. apply wrap_small; auto. lia.
  - unfold add_sat. lia.
Qed.

(** Noiseless LLRs: the message is returned, whatever the magnitudes, if adding LLRs of one
    sign keeps the sign. *)
Theorem C22_noiseless : forall R (add : R -> R -> R) neg d b K n u x y,
  (forall a c s, neg a = s -> neg c = s -> neg (add a c) = s) -> 0 < n ->
  bits u -> rep_word b K n u x -> length y = n * K -> (forall q, q < n * K -> neg (nth q y d) = (nth q x 0 =? 1)) ->
  decision add neg d b K n y = u.
Proof.
  intros R add neg d b K n u x y HA Hn BU (LX & LU & HW) LY HY. symmetry. apply (eq_tab _ 0); auto. intros k Hk.
  rewrite (add_up_sign add neg d (nth k u 0 =? 1)).
  - pose proof (bits_nth u k BU). destruct (nth k u 0) as [|[|m]]; auto. lia.
  - intros; apply HA; auto.
  - unfold rep_llrs. destruct n; [lia|]. discriminate.
  - intros a Ha. apply in_map_iff in Ha. destruct Ha as (r & <- & Hr). apply in_seq in Hr. rewrite HY by (apply rep_pos_lt; lia). rewrite HW by lia. auto.
Qed.
Theorem C22_noiseless_types : forall w, (0 < w)%Z ->
  (forall a c s, negZ a = s -> negZ c = s -> negZ (a + c) = s) /\ (forall a c s, negZ a = s -> negZ c = s -> negZ (add_sat w a c) = s).
Proof.
  intros w Hw. unfold negZ, add_sat. assert (0 < 2 ^ (w - 1))%Z by (apply Z.pow_pos_nonneg; lia). split; intros a c s HA HC.
  - destruct (Z.ltb_spec a 0), (Z.ltb_spec c 0), (Z.ltb_spec (a + c) 0); subst; auto; try congruence; lia.
  - destruct (Z.ltb_spec a 0), (Z.ltb_spec c 0); subst; try congruence.
    + apply Z.ltb_lt. lia. + apply Z.ltb_ge. lia.
Qed.

(** On 8 bits the standard decoder wraps: two maximal LLRs for bit 0 give bit 1. *)
Theorem C22_wrap_refuted : exists sys par ext v, rep_dec_ctor 1 1 2 = Ret tt /\
  rep_decode negZ (rep_siso_std (add_wrap 8) 1 2) 1 2 true sys par ext [127; 127]%Z v = Ret [1].
Proof. exists [0%Z], [0%Z], [0%Z], [0]. split; reflexivity. Qed.
(** The saturating decoder does not wrap but is not maximum likelihood either. *)
Theorem C22_saturation_refuted : exists y x, rep_word true 1 4 [0] x /\ length y = 4 /\
  decision (add_sat 8) negZ 0%Z true 1 4 y = [1] /\ forall x', rep_word true 1 4 [1] x' -> (correlation x' y < correlation x y)%Z.
Proof.
  exists [127; 127; -127; -100]%Z, [0; 0; 0; 0]. split.
  { split; auto. split; auto. intros k r Hk Hr. unfold rep_pos. assert (k = 0) by lia. subst. do 4 (destruct r as [|r]; [reflexivity|]). lia. }
  split; auto. split; [reflexivity|]. intros x' W.
  assert (E : x' = [1; 1; 1; 1]). { apply (C22_unique _ _ _ _ _ _ W). split; auto. split; auto. intros k r Hk Hr. unfold rep_pos. assert (k = 0) by lia. subst. do 4 (destruct r as [|r]; [reflexivity|]). lia. }
  subst. reflexivity.
Qed.

Example C22_meets : rep_ctor 2 6 false = Ret [0; 3] /\ rep_encode 2 6 false [1; 0] (repeat 0 6) = Ret [1; 1; 1; 0; 0; 0] /\
  rep_is_codeword 2 6 false [1; 1; 1; 0; 0; 0] = Ret true /\ rep_is_codeword 2 6 true [1; 1; 1; 0; 0; 0] = Ret false /\
  rep_decode negZ (rep_siso_fast (add_sat 8) 2 2 6) 2 6 false (repeat 0%Z 2) (repeat 0%Z 4) (repeat 0%Z 2) [-3; 5; -4; 1; -2; 9]%Z [0; 0] = Ret [1; 0].
Proof. repeat split; reflexivity. Qed.
(** The sums of the two decoders stay in the LLR type. *)
Theorem C22_in_range : forall w a b, (1 <= w)%Z ->
  (- 2 ^ (w - 1) <= add_sat w a b < 2 ^ (w - 1))%Z /\ (- 2 ^ (w - 1) <= add_wrap w a b < 2 ^ (w - 1))%Z.
Proof.
  intros w a b Hw. assert (P : (0 < 2 ^ (w - 1))%Z) by (apply Z.pow_pos_nonneg; lia). unfold add_sat, add_wrap, wrap.
  assert (E : (2 ^ w = 2 * 2 ^ (w - 1))%Z) by (rewrite <- Z.pow_succ_r by lia; f_equal; lia).
  pose proof (Z.mod_pos_bound (a + b + 2 ^ (w - 1)) (2 ^ w) ltac:(lia)). lia.
Qed.
