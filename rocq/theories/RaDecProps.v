(** C135 to C137: the decoder of repeat-accumulate codes. *)
From Coq Require Import List Arith Lia Bool ZArith QArith Qabs Qminmax Lqa Permutation.
From Verif Require Import Base ConvSpec RepModel RepSpec RepProofs RepProps LDPCBPModel LDPCBPSpec LDPCBPProofs FlipSpec FlipProofs RaDecModel RaDecSpec RaDecProofs.
Import ListNotations.
Local Open Scope nat_scope.

(** The states of a decoder: as built, or after any calls. *)
Inductive rad_reach (d : rad) : rad_st -> Prop :=
| rad_built : rad_reach d (rad_start d)
| rad_called : forall s Y V s' V', rad_reach d s -> rd_N d <= length Y -> length V = rd_K d -> ra_decode d Y V s = Ret (s', V') -> rad_reach d s'.

Lemma new_inv : forall K N ite lut inv d, rad_new K N ite lut inv = Ret d -> d = mkRD K N ite lut inv /\ 0 < ite /\ 0 < K /\ 0 < N / K /\ N = K * (N / K).
Proof.
  intros K N ite lut inv d. unfold rad_new. destruct (Nat.eqb_spec K 0); cbn [orb]; [discriminate|]. destruct (Nat.eqb_spec N 0); cbn [orb]; [discriminate|]. destruct (Nat.ltb_spec N K); [discriminate|]. destruct (Nat.eqb_spec ite 0); [discriminate|]. destruct (Nat.eqb_spec (N mod K) 0) as [M|]; [|discriminate]. cbn [negb]. destruct (Nat.eqb_spec (length lut) N); [|discriminate]. cbn [negb]. intros H0. inversion H0. subst d.
  split; auto. split; [lia|]. split; [lia|]. assert (D := Nat.div_mod N K ltac:(lia)). split; [apply Nat.div_str_pos; lia|lia].
Qed.
Lemma reach_shaped : forall K N ite lut inv d s, rad_new K N ite lut inv = Ret d -> 2 <= N -> inverse N lut inv -> rad_reach d s -> shaped K (N / K) s.
Proof.
  intros K N ite lut inv d s HN N2 HI HR. destruct (new_inv _ _ _ _ _ _ HN) as (ED & I0 & K0 & R & EN). remember (N / K) as rep. induction HR as [|s Y V s' V' HR IH LY LV E].
  - unfold shaped, rad_start. rewrite ED. cbn [rd_K rd_N rs_Fw rs_Bw rs_Tu rs_Td rs_Wu rs_Wd rs_U]. rewrite !repeat_length. auto 10.
  - rewrite ED in *. cbn [rd_N rd_K] in *. subst N. destruct (decode_ok K rep lut inv (fun i => nth i Y 0%Q) R N2 HI Y ite LY (fun _ _ => eq_refl) s V I0 IH LV) as (s2 & E2 & HS). rewrite E2 in E. inversion E. subst. auto.
Qed.
Lemma decoded : forall K N ite lut inv d s Y V, rad_new K N ite lut inv = Ret d -> 2 <= N -> inverse N lut inv -> rad_reach d s -> N <= length Y -> length V = K ->
  exists s', ra_decode d Y V s = Ret (s', tab K (fun k => if qltb (UT K (N / K) lut inv (fun i => nth i Y 0%Q) (ite - 1) k) 0 then 1 else 0)).
Proof.
  intros K N ite lut inv d s Y V HN N2 HI HR LY LV. assert (HS := reach_shaped _ _ _ _ _ _ _ HN N2 HI HR). destruct (new_inv _ _ _ _ _ _ HN) as (-> & I0 & K0 & R & EN). remember (N / K) as rep. subst N.
  destruct (decode_ok K rep lut inv (fun i => nth i Y 0%Q) R N2 HI Y ite LY (fun _ _ => eq_refl) s V I0 HS LV) as (s2 & E2 & _). exists s2. auto.
Qed.

(* ------------------------------------------------------------------ *)
(** * C135 *)

Lemma metric_ext : forall N a a' y u, (forall q, q < N -> (a q == a' q)%Q) -> (metric N a y u == metric N a' y u)%Q.
Proof.
  intros N a a' y u E. unfold metric, qtotal. assert (G : forall l, (forall q, In q l -> q < N) -> (fold_right Qplus 0 (map (fun i => gain (u i) (a i) + gain (acc u i) (y i)) l) == fold_right Qplus 0 (map (fun i => gain (u i) (a' i) + gain (acc u i) (y i)) l))%Q).
  { induction l as [|q l IH]; intros H; cbn [map fold_right]; [reflexivity|]. rewrite IH by (intros; apply H; right; auto). destruct (u q); cbn [gain]; [reflexivity|]. rewrite (E q) by (apply H; left; auto). reflexivity. }
  apply G. intros q I. apply in_seq in I. lia.
Qed.
Lemma best_le : forall N a a' y P m m', (forall q, q < N -> (a q == a' q)%Q) -> best N a y P m -> best N a' y P m' -> (m <= m')%Q.
Proof. intros N a a' y P m m' E ((u & HP & EM) & _) (_ & UB). rewrite <- EM. rewrite (metric_ext N a a' y u E). auto. Qed.
Lemma best_unique : forall N a a' y P m m', (forall q, q < N -> (a q == a' q)%Q) -> best N a y P m -> best N a' y P m' -> (m == m')%Q.
Proof. intros N a a' y P m m' E A B. apply Qle_antisym; [apply (best_le N a a' y P); auto|apply (best_le N a' a y P); auto]. intros q Hq. symmetry. auto. Qed.
Lemma total_ext : forall (e e' : nat -> Q) l, (forall p, In p l -> (e p == e' p)%Q) -> (qtotal (map e l) == qtotal (map e' l))%Q.
Proof. intros e e' l. unfold qtotal. induction l as [|x l IH]; intros H; cbn [map fold_right]; [reflexivity|]. rewrite IH by (intros; apply H; right; auto). rewrite (H x) by (left; auto). reflexivity. Qed.

(** The iterations are determined by the LLRs received. *)
Theorem C135_determined : forall N rep lut y a e a' e', ra_run N rep lut y a e -> ra_run N rep lut y a' e' ->
  forall t i, i < N -> (a t i == a' t i)%Q /\ (e t i == e' t i)%Q.
Proof.
  intros N rep lut y a e a' e' (A0 & AE & AS) (A0' & AE' & AS').
  assert (G : forall t, (forall q, q < N -> (a t q == a' t q)%Q) -> forall i, i < N -> (e t i == e' t i)%Q).
  { intros t H i Hi. destruct (AE t i Hi) as (m0 & m1 & B0 & B1 & E). destruct (AE' t i Hi) as (m0' & m1' & B0' & B1' & E'). rewrite E, E', (best_unique _ _ _ _ _ _ _ H B0 B0'), (best_unique _ _ _ _ _ _ _ H B1 B1'), (H i Hi). reflexivity. }
  assert (GA : forall t q, q < N -> (a t q == a' t q)%Q).
  { induction t; intros q Hq; [rewrite A0, A0' by auto; reflexivity|]. rewrite AS, AS' by auto. apply total_ext. intros p I. apply G; auto. apply filter_In in I. destruct I as [I _]. apply filter_In in I. destruct I as [I _]. apply in_seq in I. lia. }
  intros t i Hi. split; [apply GA; auto|apply G; auto].
Qed.

(** After any calls, decoding runs the max-log iterations and decides each bit by the sum of what the last one says of its copies. *)
Theorem C135_max_log : forall K N ite lut inv d s Y V, rad_new K N ite lut inv = Ret d -> 2 <= N -> inverse N lut inv -> rad_reach d s -> N <= length Y -> length V = K ->
  exists s' V', ra_decode d Y V s = Ret (s', V') /\ length V' = K /\
  (exists a e, ra_run N (N / K) lut (fun i => nth i Y 0%Q) a e) /\
  forall a e, ra_run N (N / K) lut (fun i => nth i Y 0%Q) a e -> forall k, k < K ->
    let total := qtotal (map (e (ite - 1)) (copies N (N / K) lut k)) in
    (nth k V' 2 = 1 /\ (total < 0)%Q) \/ (nth k V' 2 = 0 /\ (0 <= total)%Q).
Proof.
  intros K N ite lut inv d s Y V HN N2 HI HR LY LV. destruct (decoded _ _ _ _ _ _ _ _ _ HN N2 HI HR LY LV) as (s' & E). destruct (new_inv _ _ _ _ _ _ HN) as (ED & I0 & K0 & R & EN). remember (N / K) as rep. subst N.
  exists s'. eexists. split; [exact E|]. rewrite length_tab. split; auto. assert (RO := run_ok K rep lut inv (fun i => nth i Y 0%Q) R N2 HI). split; [eexists; eexists; exact RO|].
  intros a e RA k Hk. cbv zeta. rewrite nth_tab by auto.
  assert (ET : (UT K rep lut inv (fun i => nth i Y 0%Q) (ite - 1) k == qtotal (map (e (ite - 1)%nat) (copies (K * rep) rep lut k)))%Q).
  { rewrite (UT_total K rep lut inv _ R HI _ _ Hk). apply total_ext. intros p I. apply filter_In in I. destruct I as [I _]. apply in_seq in I. apply (C135_determined _ _ _ _ _ _ _ _ RO RA). lia. }
  destruct (qltb_spec (UT K rep lut inv (fun i => nth i Y 0%Q) (ite - 1) k) 0) as [[-> L]|[-> L]]; rewrite ET in L; auto.
Qed.

(** Refuted for one bit repeated once: the constructor accepts it, and decoding writes before the array of the backward values. *)
Theorem C135_single_refuted : forall ite Y V, 0 < ite -> 1 <= length Y ->
  exists d, rad_new 1 1 ite [0] [0] = Ret d /\ ra_decode d Y V (rad_start d) = Undef.
Proof.
  intros ite Y V HT LY. destruct ite as [|ite]; [lia|]. exists (mkRD 1 1 (S ite) [0] [0]). split; [reflexivity|].
  unfold ra_decode, rad_start. cbn [rd_K rd_N rd_ite rs_Fw rs_Bw rs_Td rs_Tu rs_Wu rs_Wd rs_U repeat].
  assert (E1 : forall A (b : nat -> A -> outcome A) s, for_ 1 b s = b 0 s) by (intros; unfold for_; cbn [for_from]; destruct (b 0 s); reflexivity).
  rewrite E1. cbn [wr upd nth_error bind Nat.ltb Nat.leb length]. change (wr [0%Q] 0 0%Q) with (Ret [0%Q]). cbn [bind].
  unfold for_. cbn [for_from]. unfold ra_iter at 1. cbn [rd_N]. unfold ra_forward. change (rd [0%Q] 0) with (Ret 0%Q). reflexivity.
Qed.

(** K = 2, N = 4 and two iterations: after decoding [1; 1; -2; -3], the decoder decodes [-1; -2; 3; 2] to [1; 0]. *)
Example C135_meets : exists d s s1 s', rad_new 2 4 2 [0; 2; 1; 3] [0; 2; 1; 3] = Ret d /\ inverse 4 [0; 2; 1; 3] [0; 2; 1; 3] /\
  ra_decode d [1%Q; 1%Q; (-2)%Q; (-3)%Q] [0; 0] (rad_start d) = Ret (s, s1) /\ ra_decode d [(-1)%Q; (-2)%Q; 3%Q; 2%Q] [0; 0] s = Ret (s', [1; 0]).
Proof.
  exists (mkRD 2 4 2 [0; 2; 1; 3] [0; 2; 1; 3]).
  let r := eval vm_compute in (ra_decode (mkRD 2 4 2 [0; 2; 1; 3] [0; 2; 1; 3]) [1%Q; 1%Q; (-2)%Q; (-3)%Q] [0; 0] (rad_start (mkRD 2 4 2 [0; 2; 1; 3] [0; 2; 1; 3]))) in
  match r with Ret (?s, ?v) => exists s, v;
    let q := eval vm_compute in (ra_decode (mkRD 2 4 2 [0; 2; 1; 3] [0; 2; 1; 3]) [(-1)%Q; (-2)%Q; 3%Q; 2%Q] [0; 0] s) in match q with Ret (?s', _) => exists s' end end.
  split; [reflexivity|]. split.
  - split; [|split; [reflexivity|]].
    + split; [reflexivity|]. split; [intros [|[|[|[|i]]]] Hi; cbn; lia|]. intros [|[|[|[|i]]]] [|[|[|[|j]]]] Hi Hj; cbn; lia.
    + intros [|[|[|[|i]]]] Hi; cbn; lia.
  - split; vm_compute; reflexivity.
Qed.

(* ------------------------------------------------------------------ *)
(** * C136 *)

Lemma sum_snoc : forall l x, sum (l ++ [x]) = sum l + x.
Proof. induction l as [|z l IH]; intros x; cbn [app]; [cbn; lia|]. unfold sum in *. cbn [fold_right]. rewrite IH. lia. Qed.
Lemma ra_out_acc : forall rep lut u i, bits u -> i < length lut ->
  ra_out rep lut u i = if acc (fun q => nth (nth q lut 0 / rep) u 0 =? 1) i then 1 else 0.
Proof.
  intros rep lut u i BU. unfold ra_out. assert (BB : forall k, nth k u 0 = 0 \/ nth k u 0 = 1).
  { intros k. destruct (Nat.lt_ge_cases k (length u)); [|rewrite nth_overflow by auto; auto]. assert (B := proj1 (Forall_forall _ _) BU (nth k u 0) (nth_In _ _ H)). cbv beta in B. lia. }
  induction i; intros Hi.
  - destruct lut as [|p lut]; [cbn in Hi; lia|]. cbn [firstn map acc nth]. unfold sum. cbn [fold_right]. rewrite Nat.add_0_r. destruct (BB (p / rep)) as [-> | ->]; reflexivity.
  - rewrite (firstn_snoc _ 0 lut (S i)) by auto. rewrite map_app. cbn [map acc]. rewrite sum_snoc. rewrite Nat.add_mod by lia. rewrite IHi by lia. cbv beta. destruct (acc _ i), (BB (nth (S i) lut 0 / rep)) as [-> | ->]; reflexivity.
Qed.
Lemma acc_cong : forall f g i, (forall j, j <= i -> f j = g j) -> acc f i = acc g i.
Proof. intros f g i E. induction i; cbn [acc]; [apply E; lia|]. rewrite IHi, E by auto. auto. Qed.
Lemma bit_back : forall u k, bits u -> k < length u -> (if nth k u 0 =? 1 then 1 else 0) = nth k u 0.
Proof. intros u k BU Hk. assert (B := proj1 (Forall_forall _ _) BU (nth k u 0) (nth_In _ _ Hk)). cbv beta in B. destruct (Nat.eqb_spec (nth k u 0) 1); lia. Qed.

(** If the LLRs received have the signs of the bits of the encoder, the message is recovered, whatever the magnitudes and the
    number of iterations, after any calls. *)
Theorem C136_noiseless : forall K N ite lut inv pos d s ub tmp u x X Y V, ra_ctor K N (length lut) = Ret pos -> rad_new K N ite lut inv = Ret d -> 2 <= N -> inverse N lut inv ->
  length ub = N -> length tmp = N -> bits u -> length u = K -> length x = N -> ra_encode K N lut ub tmp u x = Ret X ->
  rad_reach d s -> N <= length Y -> length V = K ->
  (forall i, i < N -> (nth i X 0 = 0 /\ (0 < nth i Y 0)%Q) \/ (nth i X 0 = 1 /\ (nth i Y 0 < 0)%Q)) ->
  exists s', ra_decode d Y V s = Ret (s', u).
Proof.
  intros K N ite lut inv pos d s ub tmp u x X Y V HC HN N2 HI LB LT BU LU LX EX HR LY LV HY. assert (LL := proj1 (proj1 HI)).
  rewrite (C21_encode _ _ _ _ _ _ _ _ HC) in EX; auto; [|apply Forall_forall; intros p I; destruct (In_nth _ _ 0 I) as (q & Hq & <-); apply HI; lia]. inversion EX. subst X. clear EX.
  destruct (decoded _ _ _ _ _ _ _ _ _ HN N2 HI HR LY LV) as (s' & E). exists s'. rewrite E. destruct (new_inv _ _ _ _ _ _ HN) as (ED & I0 & K0 & R & EN). remember (N / K) as rep. clear LB LT LX HC LL. subst N. assert (LL := proj1 (proj1 HI)). f_equal. f_equal. symmetry. apply (is_tab _ 0); auto.
  intros k Hk. assert (ST : stell (nth k u 0 =? 1) (UT K rep lut inv (fun i => nth i Y 0%Q) (ite - 1) k)).
  { apply (UT_tells K rep lut inv (fun i => nth i Y 0%Q) (fun k => nth k u 0 =? 1) R N2 HI); auto. intros i Hi. specialize (HY i Hi). rewrite nth_tab in HY by auto. rewrite ra_out_acc in HY by (auto; lia). destruct (acc _ i); cbn [stell]; destruct HY as [[? ?]|[? ?]]; auto; discriminate. }
  rewrite <- (bit_back u k BU) by lia. destruct (nth k u 0 =? 1); cbn [stell] in ST; destruct (qltb_spec (UT K rep lut inv (fun i => nth i Y 0%Q) (ite - 1) k) 0) as [[-> L]|[-> L]]; auto; lra.
Qed.
Example C136_meets : exists pos X, ra_ctor 2 4 4 = Ret pos /\ ra_encode 2 4 [0; 2; 1; 3] (repeat 0 4) (repeat 0 4) [1; 0] (repeat 0 4) = Ret X /\ X = [1; 1; 0; 0].
Proof. eexists. eexists. split; [reflexivity|]. split; reflexivity. Qed.

(* ------------------------------------------------------------------ *)
(** * C137 *)

(** Changing the signs of the LLRs by the encoding of u changes the decoded bits by u, except those whose copies sum to zero,
    which are decoded to 0 both times. *)
Theorem C137_symmetric : forall K N ite lut inv pos d s s1 ub tmp u x X Y Y' V V1, ra_ctor K N (length lut) = Ret pos -> rad_new K N ite lut inv = Ret d -> 2 <= N -> inverse N lut inv ->
  length ub = N -> length tmp = N -> bits u -> length u = K -> length x = N -> ra_encode K N lut ub tmp u x = Ret X ->
  rad_reach d s -> rad_reach d s1 -> N <= length Y -> N <= length Y' -> length V = K -> length V1 = K ->
  (forall i, i < N -> (nth i Y' 0 == if nth i X 0%nat =? 1 then - nth i Y 0 else nth i Y 0)%Q) ->
  exists s' D s1' D', ra_decode d Y V s = Ret (s', D) /\ ra_decode d Y' V1 s1 = Ret (s1', D') /\
  forall a e, ra_run N (N / K) lut (fun i => nth i Y 0%Q) a e -> forall k, k < K ->
    nth k D' 2 = (nth k D 2 + nth k u 0) mod 2 \/
    ((qtotal (map (e (ite - 1)%nat) (copies N (N / K) lut k)) == 0)%Q /\ nth k D 2 = 0 /\ nth k D' 2 = 0).
Proof.
  intros K N ite lut inv pos d s s1 ub tmp u x X Y Y' V V1 HC HN N2 HI LB LT BU LU LX EX HR HR1 LY LY' LV LV1 HY. assert (LL := proj1 (proj1 HI)).
  rewrite (C21_encode _ _ _ _ _ _ _ _ HC) in EX; auto; [|apply Forall_forall; intros p I; destruct (In_nth _ _ 0 I) as (q & Hq & <-); apply HI; lia]. inversion EX. subst X. clear EX.
  destruct (decoded _ _ _ _ _ _ _ _ _ HN N2 HI HR LY LV) as (s' & E). destruct (decoded _ _ _ _ _ _ _ _ _ HN N2 HI HR1 LY' LV1) as (s1' & E1). exists s'. eexists. exists s1'. eexists. split; [exact E|]. split; [exact E1|].
  destruct (new_inv _ _ _ _ _ _ HN) as (ED & I0 & K0 & R & EN). remember (N / K) as rep. clear LB LT LX HC LL. subst N. assert (LL := proj1 (proj1 HI)). intros a e RA k Hk. rewrite !nth_tab by auto.
  assert (RO := run_ok K rep lut inv (fun i => nth i Y 0%Q) R N2 HI).
  assert (ET : (UT K rep lut inv (fun i => nth i Y 0%Q) (ite - 1) k == qtotal (map (e (ite - 1)%nat) (copies (K * rep) rep lut k)))%Q).
  { rewrite (UT_total K rep lut inv _ R HI _ _ Hk). apply total_ext. intros p I. apply filter_In in I. destruct I as [I _]. apply in_seq in I. apply (C135_determined _ _ _ _ _ _ _ _ RO RA). lia. }
  assert (SG : (UT K rep lut inv (fun i => nth i Y' 0%Q) (ite - 1) k == sg (nth k u 0%nat =? 1) (UT K rep lut inv (fun i => nth i Y 0%Q) (ite - 1) k))%Q).
  { apply (UT_sg K rep lut inv (fun i => nth i Y 0%Q) (fun i => nth i Y' 0%Q) (fun k => nth k u 0 =? 1) R N2 HI); auto. intros i Hi. rewrite (HY i Hi), nth_tab by auto. rewrite ra_out_acc by (auto; lia). destruct (acc _ i); reflexivity. }
  rewrite <- ET. rewrite <- (bit_back u k BU) by lia.
  destruct (nth k u 0 =? 1); cbn [sg] in SG; destruct (qltb_spec (UT K rep lut inv (fun i => nth i Y 0%Q) (ite - 1) k) 0) as [[-> L]|[-> L]], (qltb_spec (UT K rep lut inv (fun i => nth i Y' 0%Q) (ite - 1) k) 0) as [[-> L']|[-> L']]; auto; try (exfalso; lra).
  right. split; [lra|auto].
Qed.
(** A tie: all LLRs are 0, and the bits of [1; 0] are decoded to 0 although 1 is no less likely. *)
Example C137_meets : exists d s1 s2 s3, rad_new 2 4 2 [0; 2; 1; 3] [0; 2; 1; 3] = Ret d /\ ra_decode d [0%Q; 0%Q; 0%Q; 0%Q] [1; 1] (rad_start d) = Ret (s1, [0; 0]) /\
  ra_decode d [1%Q; 2%Q; 3%Q; 2%Q] [1; 1] (rad_start d) = Ret (s2, [0; 0]) /\ ra_decode d [(-1)%Q; (-2)%Q; 3%Q; 2%Q] [1; 1] (rad_start d) = Ret (s3, [1; 0]).
Proof.
  exists (mkRD 2 4 2 [0; 2; 1; 3] [0; 2; 1; 3]).
  let f Y := (let r := eval vm_compute in (ra_decode (mkRD 2 4 2 [0; 2; 1; 3] [0; 2; 1; 3]) Y [1; 1] (rad_start (mkRD 2 4 2 [0; 2; 1; 3] [0; 2; 1; 3]))) in match r with Ret (?s, _) => exists s end) in
  f [0%Q; 0%Q; 0%Q; 0%Q]; f [1%Q; 2%Q; 3%Q; 2%Q]; f [(-1)%Q; (-2)%Q; 3%Q; 2%Q].
  split; [reflexivity|]. split; [|split]; vm_compute; reflexivity.
Qed.
