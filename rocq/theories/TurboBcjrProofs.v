(** The max-log BCJR decoder as a constituent of the turbo decoder, on frames whose values have
    the right signs. *)
From Coq Require Import List Arith ZArith Lia Bool.
From Verif Require Import Base Copy ConvModel ConvSpec ConvProofs ConvCodeProofs ConvTrellisProofs ConvProps BcjrModel BcjrSpec BcjrProofs BcjrCodeProofs BcjrMaxProofs BcjrSetupProofs BcjrLogProofs BcjrProps TurboDecSpec TurboDecProofs.
Import ListNotations.
Open Scope Z_scope.

(** [x] has the sign of the bit [c], or is zero; has the sign of [c]. *)
Definition agrees (c : nat) (x : Z) : Prop := if (c =? 0)%nat then 0 <= x else x <= 0.
Definition strictly (c : nat) (x : Z) : Prop := if (c =? 0)%nat then 0 < x else x < 0.
Notation sg := (BcjrSpec.sg Z 0 Z.sub).
Lemma agrees_sg : forall c x, agrees c x <-> 0 <= sg c x.
Proof. intros c x. unfold agrees, BcjrSpec.sg. destruct (c =? 0)%nat; lia. Qed.

Section B.
Variables (X P : nat -> nat -> nat) (sys par : nat -> Z).
Notation corr := (BcjrSpec.corr Z 0 Z.add Z.sub X P sys par).
Fixpoint tot (j len : nat) : Z := match len with O => 0 | S l => Z.abs (sys j) + Z.abs (par j) + tot (S j) l end.
Lemma sg_le : forall c x, sg c x <= Z.abs x.
Proof. intros c x. unfold BcjrSpec.sg. destruct (c =? 0)%nat; lia. Qed.
Lemma corr_tot : forall us j s, corr j s us <= tot j (length us).
Proof.
  induction us as [|b us IH]; intros j s; cbn [BcjrSpec.corr length tot]; [lia|]. specialize (IH (S j) (X b s)). pose proof (sg_le b (sys j)). pose proof (sg_le (P b s) (par j)). lia.
Qed.
Lemma corr_minus : forall us j s i, (i < length us)%nat -> sg (nth i us 0%nat) (sys (j + i)%nat) <= 0 -> corr j s us <= tot j (length us) - 2 * Z.abs (sys (j + i)%nat).
Proof.
  induction us as [|b us IH]; intros j s i Hi HS; cbn [length] in *; [lia|]. cbn [BcjrSpec.corr tot]. destruct i as [|i].
  - cbn [nth] in HS. rewrite Nat.add_0_r in *. pose proof (corr_tot us (S j) (X b s)). pose proof (sg_le (P b s) (par j)). assert (sg b (sys j) = - Z.abs (sys j)) by (unfold BcjrSpec.sg in *; destruct (b =? 0)%nat; lia). lia.
  - cbn [nth] in HS. specialize (IH (S j) (X b s) i ltac:(lia)). replace (S j + i)%nat with (j + S i)%nat in IH by lia. specialize (IH HS). pose proof (sg_le b (sys j)). pose proof (sg_le (P b s) (par j)). lia.
Qed.
Lemma corr_true : forall us j s, (forall t, (t < length us)%nat -> 0 <= sg (nth t us 0%nat) (sys (j + t)%nat) /\ 0 <= sg (P (nth t us 0%nat) (run X s (firstn t us))) (par (j + t)%nat)) -> corr j s us = tot j (length us).
Proof.
  induction us as [|b us IH]; intros j s H; cbn [BcjrSpec.corr length tot]; [reflexivity|].
  destruct (H 0%nat ltac:(cbn [length]; lia)) as [A B]. cbn [nth firstn run] in A, B. rewrite Nat.add_0_r in A, B.
  rewrite IH.
  - assert (sg b (sys j) = Z.abs (sys j)) by (unfold BcjrSpec.sg in *; destruct (b =? 0)%nat; lia). assert (sg (P b s) (par j) = Z.abs (par j)) by (unfold BcjrSpec.sg in *; destruct (P b s =? 0)%nat; lia). lia.
  - intros t Ht. specialize (H (S t) ltac:(cbn [length]; lia)). cbn [nth firstn run] in H. rewrite <- plus_n_Sm in H. exact H.
Qed.
End B.

(** The extrinsic values of the max-log decoder: C111. *)
Definition alpha0 (j : nat) : Z := if (j =? 0)%nat then 0 else -16384.
Definition maxlog_ext (p0 p1 n K : nat) (sys par : list Z) : list Z :=
  let w := weight Z 0 Z.add Z.sub (fun x => x) (next_spec p0 n) (par_spec p0 p1 n) (fun i => nth i sys 0) (fun i => nth i par 0) alpha0 in
  tab K (fun i =>
    match big Z Z.max (map w (filter (fun p => nth i (snd p) 0 =? 0)%nat (paths (2 ^ n) (K + n)))), big Z Z.max (map w (filter (fun p => nth i (snd p) 0 =? 1)%nat (paths (2 ^ n) (K + n)))) with
    | Some m0, Some m1 => (m0 - m1) / 2 - nth i sys 0
    | _, _ => 0
    end).

Lemma corr_ext : forall X P sys par sys' par' L us j s, (forall t, (t < L)%nat -> sys t = sys' t /\ par t = par' t) -> (j + length us <= L)%nat ->
  BcjrSpec.corr Z 0 Z.add Z.sub X P sys par j s us = BcjrSpec.corr Z 0 Z.add Z.sub X P sys' par' j s us.
Proof.
  induction us as [|b us IH]; intros j s H Hj; cbn [BcjrSpec.corr length] in *; [reflexivity|]. rewrite IH by (auto; lia). destruct (H j ltac:(lia)) as [-> ->]. reflexivity.
Qed.

Lemma maxlog_computes : forall K N p0 p1 ps e t, rsc_generic_ctor K N (p0 :: p1 :: ps) = Ret e -> Nat.odd p0 = true -> get_trellis e = Ret t ->
  let n := n_ff e in
  forall b, computes 0 1 K n (short_alt t (2 ^ n) K n) (maxlog_ext p0 p1 n K) (fun d => exists m, short_reached t (2 ^ n) K n b d m).
Proof.
  intros K N p0 p1 ps e t HC OD HT n b. destruct (setup _ _ _ _ _ _ _ HC OD HT) as (Hn & HK & HN & H0 & H1 & HX & HP & TO & SH & OP & H2). fold n in Hn, HN, H0, H1, HX, HP, TO, SH, OP, H2.
  split; [intros; apply length_tab|]. intros d sys par ext (m & R) LS LP LE. rewrite !Nat.mul_1_r in *.
  destruct (reached_ok Z 0 (-16384) Z.add Z.sub Z.mul Z.max (fun x => x) (fun x => x / 2) short_nrm z_laws _ _ _ K n t HX HP TO SH OP H2 HK (fun x => x <? 0) b d m R) as [HD _].
  destruct (alt_ok Z 0 (-16384) Z.add Z.sub Z.mul Z.max (fun x => x) (fun x => x / 2) short_nrm z_laws _ _ _ K n t HX HP TO SH OP H2 HK d sys par ext HD LS LP LE) as (d' & ext' & E & _ & LE' & V & _).
  exists d', ext'. split; [exact E|]. split; [exists m; refine (reached_alt _ _ _ _ _ _ _ _ _ _ _ _ _ _ _ _ d m sys par ext d' ext' R LS LP LE E)|]. split; [exact LE'|]. intros f Hf. assert (f = 0%nat) as -> by lia.
  apply (eq_tab _ 0); [apply length_deal|]. intros i Hi. rewrite nth_deal by exact Hi. rewrite Nat.mul_1_r, Nat.add_0_r. destruct (V i Hi) as (m0 & m1 & E0 & E1 & EX).
  assert (NS : forall l i, (i < K + n)%nat -> nth i (deal 0 1 0 (K + n) l) 0 = nth i l 0). { intros l j Hj. rewrite nth_deal by exact Hj. rewrite Nat.mul_1_r, Nat.add_0_r. reflexivity. }
  assert (WE : forall f, map (weight Z 0 Z.add Z.sub (fun x => x) (next_spec p0 n) (par_spec p0 p1 n) (fun i => nth i (deal 0 1 0 (K + n) sys) 0) (fun i => nth i (deal 0 1 0 (K + n) par) 0) alpha0) (filter f (paths (2 ^ n) (K + n))) =
     map (weight Z 0 Z.add Z.sub (fun x => x) (next_spec p0 n) (par_spec p0 p1 n) (fun i => nth i sys 0) (fun i => nth i par 0) alpha0) (filter f (paths (2 ^ n) (K + n)))).
  { intros f. apply map_ext_in. intros [s us] Hp. apply filter_In in Hp. destruct Hp as [Hp _]. apply paths_in in Hp. cbn [fst snd] in Hp. unfold weight. cbn [fst snd]. f_equal. f_equal. apply (corr_ext _ _ _ _ _ _ (K + n)); [|cbn; lia]. intros q Hq. rewrite !NS by exact Hq. auto. }
  pose proof (sel_sys (next_spec p0 n) (2 ^ n) (K + n) i 0 ltac:(lia)) as S0. pose proof (sel_sys (next_spec p0 n) (2 ^ n) (K + n) i 1 ltac:(lia)) as S1. cbn [Nat.eqb] in S0, S1.
  rewrite !WE. rewrite <- S0, <- S1. unfold alpha0. rewrite E0, E1. rewrite NS by lia. exact EX.
Qed.

(** Right signs in, right signs out. *)
Lemma maxlog_sign : forall p0 p1 n K us sys par, (0 < n)%nat -> term p0 n K us ->
  (forall t, (t < K + n)%nat -> agrees (nth t us 0%nat) (nth t sys 0) /\ agrees (lab p0 p1 n 0 us t) (nth t par 0)) ->
  forall i, (i < K)%nat -> agrees (nth i us 0%nat) (nth i (maxlog_ext p0 p1 n K sys par) 0).
Proof.
  intros p0 p1 n K us sys par Hn (LU & BU & RU) AG i Hi. unfold maxlog_ext. rewrite nth_tab by exact Hi.
  set (w := weight Z 0 Z.add Z.sub (fun x => x) (next_spec p0 n) (par_spec p0 p1 n) (fun i => nth i sys 0) (fun i => nth i par 0) alpha0).
  set (TT := tot (fun i => nth i sys 0) (fun i => nth i par 0) 0 (K + n)).
  assert (PP : (0 < 2 ^ n)%nat) by (apply Nat.neq_0_lt_0, Nat.pow_nonzero; lia).
  assert (W1 : w (0%nat, us) = TT).
  { unfold w, weight. cbn [fst snd]. rewrite RU. unfold alpha0. cbn [Nat.eqb]. rewrite (corr_true (next_spec p0 n) (par_spec p0 p1 n)); [unfold TT; rewrite LU; lia|].
    intros t Ht. rewrite LU in Ht. destruct (AG t Ht) as [A1 A2]. apply agrees_sg in A1, A2. auto. }
  assert (W2 : forall p, In p (paths (2 ^ n) (K + n)) -> (nth i (snd p) 0 <> nth i us 0)%nat -> w p <= TT - 2 * Z.abs (nth i sys 0)).
  { intros [s us'] Hp NE. apply paths_in in Hp. cbn [fst snd] in *. destruct Hp as (Hs & LU' & BU'). destruct (AG i ltac:(lia)) as [A1 _]. apply agrees_sg in A1.
    assert (HS : sg (nth i us' 0%nat) (nth i sys 0) <= 0). { pose proof (bits_nth us' i BU'). pose proof (bits_nth us i BU). unfold BcjrSpec.sg in *. destruct (Nat.eqb_spec (nth i us' 0%nat) 0), (Nat.eqb_spec (nth i us 0%nat) 0); lia. }
    pose proof (corr_minus (next_spec p0 n) (par_spec p0 p1 n) (fun i => nth i sys 0) (fun i => nth i par 0) us' 0 s i ltac:(lia) HS) as C. cbn [Nat.add] in C. rewrite LU' in C.
    unfold w, weight. cbn [fst snd]. unfold alpha0. unfold TT. destruct (s =? 0)%nat, (run (next_spec p0 n) s us' =? 0)%nat; lia. }
  assert (BM := fun l v => big_max Z 0 Z.add Z.sub Z.mul Z.max (fun x => x) z_laws Z.le z_ordered l v).
  destruct (AG i ltac:(lia)) as [A1 _]. pose proof (bits_nth us i BU) as BI.
  assert (IN : forall b, b = nth i us 0%nat -> In (w (0%nat, us)) (map w (filter (fun p => (nth i (snd p) 0 =? b)%nat) (paths (2 ^ n) (K + n))))).
  { intros b ->. apply in_map. apply filter_In. split; [apply paths_in; cbn [fst snd]; auto|]. apply Nat.eqb_refl. }
  assert (UB : forall b m, b <> nth i us 0%nat -> big Z Z.max (map w (filter (fun p => (nth i (snd p) 0 =? b)%nat) (paths (2 ^ n) (K + n)))) = Some m -> m <= TT - 2 * Z.abs (nth i sys 0)).
  { intros b m NE EM. destruct (BM _ _ EM) as [IM _]. apply in_map_iff in IM. destruct IM as (p & <- & Hp). apply filter_In in Hp. destruct Hp as [Hp EB]. apply Nat.eqb_eq in EB. apply W2; [exact Hp|]. congruence. }
  assert (LB : forall b m, b = nth i us 0%nat -> big Z Z.max (map w (filter (fun p => (nth i (snd p) 0 =? b)%nat) (paths (2 ^ n) (K + n)))) = Some m -> TT <= m).
  { intros b m EB EM. destruct (BM _ _ EM) as [_ UM]. rewrite <- W1. apply UM. apply IN. exact EB. }
  destruct (big Z Z.max (map w (filter (fun p => nth i (snd p) 0 =? 0)%nat _))) as [m0|] eqn:E0; [|unfold agrees; destruct (_ =? _)%nat; lia].
  destruct (big Z Z.max (map w (filter (fun p => nth i (snd p) 0 =? 1)%nat _))) as [m1|] eqn:E1; [|unfold agrees; destruct (_ =? _)%nat; lia].
  unfold agrees in *. destruct (Nat.eqb_spec (nth i us 0%nat) 0) as [C|C].
  - pose proof (LB 0%nat m0 ltac:(lia) E0). pose proof (UB 1%nat m1 ltac:(lia) E1). assert (Z.abs (nth i sys 0) <= (m0 - m1) / 2) by (apply Z.div_le_lower_bound; lia). lia.
  - pose proof (LB 1%nat m1 ltac:(lia) E1). pose proof (UB 0%nat m0 ltac:(lia) E0). assert ((m0 - m1) / 2 <= - Z.abs (nth i sys 0)) by (apply Z.div_le_upper_bound; lia). lia.
Qed.

(** The ideal turbo decoding of a frame whose values have the right signs. *)
Section Sign.
Variables (K tn ti : nat) (buffered : bool) (Gn Gi : list Z -> list Z -> list Z) (lut inv : list nat) (fn fi : nat -> Z -> Z) (Y : list Z).
Variables (bsn bpn bsi bpi : nat -> nat).
Hypothesis LGn : forall s p, length (Gn s p) = K.
Hypothesis LGi : forall s p, length (Gi s p) = K.
Hypothesis GN : forall s p, (forall t, (t < K + tn)%nat -> agrees (bsn t) (nth t s 0) /\ agrees (bpn t) (nth t p 0)) -> forall i, (i < K)%nat -> agrees (bsn i) (nth i (Gn s p) 0).
Hypothesis GI : forall s p, (forall t, (t < K + ti)%nat -> agrees (bsi t) (nth t s 0) /\ agrees (bpi t) (nth t p 0)) -> forall i, (i < K)%nat -> agrees (bsi i) (nth i (Gi s p) 0).
Hypothesis LK : length lut = K.
Hypothesis IK : length inv = K.
Hypothesis Lb : forall i, (i < K)%nat -> (nth i lut 0 < K)%nat.
Hypothesis Ib : forall i, (i < K)%nat -> (nth i inv 0 < K)%nat.
Hypothesis INV : forall i, (i < K)%nat -> nth (nth i inv 0%nat) lut 0%nat = i.
Hypothesis LINK : forall i, (i < K)%nat -> bsi i = bsn (nth i lut 0%nat).
Hypothesis YS : forall i, (i < K)%nat -> strictly (bsn i) (nth (pos_sn buffered K i) Y 0).
Hypothesis YT : forall i, (i < tn)%nat -> agrees (bsn (K + i)) (nth (pos_sn buffered K (K + i)) Y 0).
Hypothesis YP : forall i, (i < K + tn)%nat -> agrees (bpn i) (nth (pos_pn buffered K tn i) Y 0).
Hypothesis YI : forall i, (i < ti)%nat -> agrees (bsi (K + i)) (nth (pos_ti buffered K tn i) Y 0).
Hypothesis YQ : forall i, (i < K + ti)%nat -> agrees (bpi i) (nth (pos_pi buffered K tn ti i) Y 0).
Hypothesis FN : forall k c x, agrees c x -> agrees c (fn k x).
Hypothesis FI : forall k c x, agrees c x -> agrees c (fi k x).

Notation Ap := (apriori Z 0 Z.add Gn Gi K tn ti buffered lut inv fn fi Y).
Notation An := (after_n Z 0 Z.add Gn K tn buffered fn Y).
Notation Ai := (after_i Z 0 Z.add Gi K tn ti buffered lut fi Y).
Notation In_ := (input_i Z 0 Z.add K buffered lut Y).

Lemma strict_agrees : forall c x, strictly c x -> agrees c x.
Proof. intros c x. unfold strictly, agrees. destruct (c =? 0)%nat; lia. Qed.
Lemma agrees_plus : forall c x y, agrees c x -> agrees c y -> agrees c (x + y).
Proof. intros c x y. unfold agrees. destruct (c =? 0)%nat; lia. Qed.
Lemma strict_plus : forall c x y, strictly c x -> agrees c y -> strictly c (x + y).
Proof. intros c x y. unfold strictly, agrees. destruct (c =? 0)%nat; lia. Qed.
Lemma map0 : forall (f : Z -> Z) l i, (i < length l)%nat -> nth i (map f l) 0 = f (nth i l 0).
Proof. intros f l i Hi. rewrite (nth_indep (map f l) 0 (f 0)) by (rewrite map_length; exact Hi). apply map_nth. Qed.
Lemma gath : forall t x i, length t = K -> (i < K)%nat -> nth i (gather Z 0 t x) 0 = nth (nth i t 0%nat) x 0.
Proof. intros t x i LT Hi. unfold gather. rewrite (nth_indep _ 0 ((fun p => nth p x 0) 0%nat)) by (rewrite map_length, LT; exact Hi). rewrite (map_nth (fun p => nth p x 0) t 0%nat i). reflexivity. Qed.
Lemma sysn : forall i, (i < K)%nat -> nth i (sys_n Z 0 K buffered Y) 0 = nth (pos_sn buffered K i) Y 0.
Proof. intros i Hi. unfold sys_n, at_. rewrite nth_tab by exact Hi. reflexivity. Qed.

Definition fine (e : list Z) : Prop := forall i, (i < K)%nat -> agrees (bsn i) (nth i e 0).
Definition fine_i (e : list Z) : Prop := forall i, (i < K)%nat -> agrees (bsi i) (nth i e 0).

Lemma an_fine : forall k e, fine e -> fine (An k e).
Proof.
  intros k e HE i Hi. unfold after_n. rewrite map0 by (rewrite LGn; exact Hi). apply FN. apply GN; [|exact Hi]. intros t Ht. split.
  - destruct (Nat.lt_ge_cases t K) as [A|A].
    + rewrite app_nth1 by (unfold plus; rewrite length_tab; exact A). unfold plus. rewrite nth_tab by exact A. rewrite sysn by exact A. apply agrees_plus; [apply strict_agrees, YS; exact A|apply HE; exact A].
    + rewrite app_nth2 by (unfold plus; rewrite length_tab; exact A). unfold plus at 1. rewrite length_tab. unfold tail_n, at_. rewrite nth_tab by lia. replace t with (K + (t - K))%nat at 1 by lia. apply YT. lia.
  - unfold par_n, at_. rewrite nth_tab by exact Ht. apply YP. exact Ht.
Qed.
Lemma in_strict : forall a, fine a -> forall i, (i < K)%nat -> strictly (bsi i) (nth i (In_ a) 0).
Proof.
  intros a HA i Hi. unfold input_i, plus. rewrite nth_tab by exact Hi. rewrite !gath by assumption. rewrite LINK by exact Hi. rewrite sysn by (apply Lb; exact Hi). apply strict_plus; [apply YS, Lb; exact Hi|apply HA, Lb; exact Hi].
Qed.
Lemma ai_fine : forall k a, fine a -> fine_i (Ai k a).
Proof.
  intros k a HA i Hi. unfold after_i. rewrite map0 by (rewrite LGi; exact Hi). apply FI. apply GI; [|exact Hi]. intros t Ht. split.
  - assert (LI : length (In_ a) = K) by (unfold input_i, plus; apply length_tab). destruct (Nat.lt_ge_cases t K) as [A|A].
    + rewrite app_nth1 by lia. apply strict_agrees, in_strict; [exact HA|exact A].
    + rewrite app_nth2 by lia. rewrite LI. unfold tail_i, at_. rewrite nth_tab by lia. replace t with (K + (t - K))%nat at 1 by lia. apply YI. lia.
  - unfold par_i, at_. rewrite nth_tab by exact Ht. apply YQ. exact Ht.
Qed.
Lemma inv_bit : forall i, (i < K)%nat -> bsi (nth i inv 0%nat) = bsn i.
Proof. intros i Hi. rewrite LINK by (apply Ib; exact Hi). rewrite INV by exact Hi. reflexivity. Qed.
Lemma ap_fine : forall k, fine (Ap k).
Proof.
  induction k as [|k IH]; intros i Hi.
  - cbn [apriori]. rewrite nth_repeat. unfold agrees. destruct (_ =? _)%nat; lia.
  - cbn [apriori]. rewrite gath by assumption. rewrite <- inv_bit by exact Hi. apply ai_fine; [apply an_fine; exact IH|apply Ib; exact Hi].
Qed.
Lemma post_n_strict : forall k i, (i < K)%nat -> strictly (bsn i) (nth i (post_n Z 0 Z.add Gn Gi K tn ti buffered lut inv fn fi Y k) 0).
Proof.
  intros k i Hi. unfold post_n, plus. rewrite !nth_tab by exact Hi. apply strict_plus; [apply strict_plus|].
  - rewrite sysn by exact Hi. apply YS; exact Hi.
  - apply ap_fine; exact Hi.
  - apply an_fine; [apply ap_fine|exact Hi].
Qed.
Lemma post_i_strict : forall k i, (i < K)%nat -> strictly (bsn i) (nth i (post_i Z 0 Z.add Gn Gi K tn ti buffered lut inv fn fi Y k) 0).
Proof.
  intros k i Hi. unfold post_i. rewrite gath by assumption. pose proof (Ib i Hi). unfold plus at 1. rewrite nth_tab by assumption. rewrite Z.add_comm. rewrite <- inv_bit by exact Hi.
  apply strict_plus; [apply in_strict; [apply an_fine, ap_fine|assumption]|apply ai_fine; [apply an_fine, ap_fine|assumption]].
Qed.
End Sign.
