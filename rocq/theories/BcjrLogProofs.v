(** The values of a max-log decoder as differences of correlations of codewords; the integers. *)
From Coq Require Import List Arith ZArith Lia Bool.
From Verif Require Import Base Copy ConvModel ConvSpec ConvProofs ConvCodeProofs ConvTrellisProofs ConvProps BcjrModel BcjrSpec BcjrProofs BcjrCodeProofs BcjrMaxProofs BcjrSetupProofs.
Import ListNotations.

Lemma code_bit : forall p0 p1 n bf K i b, 0 < n -> Nat.testbit p0 n = true -> Nat.testbit p1 n = true -> i < K -> b < 2 ->
  exists y, rsc_code p0 p1 n bf K y /\ nth (sys_pos bf i) y 0 = b.
Proof.
  intros p0 p1 n bf K i b Hn H0 H1 Hi Hb. assert (B : bits (repeat b K)). { apply Forall_forall. intros z Hz. apply repeat_spec in Hz. lia. }
  destruct (path_ok p0 n K Hn _ B) as (BP & LP & RP).
  destruct (term_code p0 p1 n K Hn H0 H1 bf (path_of p0 n K (repeat b K))) as (y & CY & WY). { split; auto. }
  exists y. split; auto. rewrite (proj1 (WY i ltac:(lia))). unfold path_of. rewrite nth_tab by lia. unfold in_at.
  destruct (Nat.ltb_spec i K); [|lia]. apply nth_repeat_lt. auto.
Qed.

Lemma maxlog : forall T (zero neg : T) add sub imul mx half post, laws T zero add sub imul mx half -> forall le, ordered T add mx half le ->
  forall p0 p1 n K, 0 < n -> Nat.testbit p0 n = true -> Nat.testbit p1 n = true -> forall sysl parl,
  let sys := fun i => nth i sysl zero in let par := fun i => nth i parl zero in
  le (add (add neg (half (bound T zero add sub mx n K sys par))) (half (bound T zero add sub mx n K sys par))) zero ->
  forall bf i s x, i < K ->
  ext_val T zero add sub mx half post (next_spec p0 n) (par_spec p0 p1 n) (2 ^ n) K n sysl parl (fun j => if j =? 0 then zero else neg) zero_bit one_bit i s x ->
  exists x0 x1, best T zero add sub le p0 p1 n K sys par bf (sys_pos bf i) 0 x0 /\ best T zero add sub le p0 p1 n K sys par bf (sys_pos bf i) 1 x1 /\
    x = sub (post (sub (half (cor T zero add sub n K sys par bf x0)) (half (cor T zero add sub n K sys par bf x1)))) s.
Proof.
  intros T zero neg add sub imul mx half post L le HO p0 p1 n K Hn H0 H1 sysl parl sys par DOM bf i s x Hi (m0 & m1 & E0 & E1 & ->).
  destruct (code_bit p0 p1 n bf K i 0 Hn H0 H1 Hi ltac:(lia)) as (y0 & CY0 & BY0).
  destruct (code_bit p0 p1 n bf K i 1 Hn H0 H1 Hi ltac:(lia)) as (y1 & CY1 & BY1).
  assert (BT : forall us, term p0 n K us -> nth i us 0 < 2). { intros us (LU & BU & _). unfold bits in BU. rewrite Forall_forall in BU. apply BU. apply nth_In. lia. }
  destruct (best_code T zero neg add sub imul mx half post L le HO p0 p1 n K Hn H0 H1 sys par DOM bf zero_bit i m0 (sys_pos bf i) 0 y0) as (x0 & B0 & ->); auto; [lia| |].
  { intros us TU. rewrite Nat.eqb_refl. reflexivity. }
  destruct (best_code T zero neg add sub imul mx half post L le HO p0 p1 n K Hn H0 H1 sys par DOM bf one_bit i m1 (sys_pos bf i) 1 y1) as (x1 & B1 & ->); auto; [lia| |].
  { intros us TU. rewrite Nat.eqb_refl. unfold one_bit. destruct (lt2 _ (BT us TU)) as [-> | ->]; reflexivity. }
  exists x0, x1. auto.
Qed.

Lemma code_bits : forall p0 p1 n bf K x, rsc_code p0 p1 n bf K x -> forall q, nth q x 0 < 2.
Proof.
  intros p0 p1 n bf K x (LX & w & LW & BW & F) q. destruct (Nat.lt_ge_cases q (2 * (K + n))).
  - destruct (pos_cover bf (K + n) q H) as (t & Ht & [-> | ->]); destruct (F t Ht) as [F1 F2]; [rewrite F1|rewrite F2]; apply Nat.mod_upper_bound; lia.
  - rewrite nth_overflow by lia. lia.
Qed.

(** ** The integers *)
Section Integers.
Open Scope Z_scope.
Lemma z_laws : laws Z 0 Z.add Z.sub Z.mul Z.max (fun x => x).
Proof. constructor; intros; lia. Qed.
Lemma z_ordered : ordered Z Z.add Z.max (fun x => x) Z.le.
Proof. constructor; intros; lia. Qed.

Notation zsum := (tsum Z 0 Z.add).
Lemma zsum_fold : forall m f, zsum m f = fold_right Z.add 0 (map f (seq 0 m)).
Proof.
  induction m; intros f; auto. cbn [tsum]. rewrite IHm, seq_S, map_app, fold_right_app. cbn [map fold_right]. clear IHm.
  rewrite Nat.add_0_l. generalize (seq 0 m). induction l; cbn [map fold_right]; lia.
Qed.
Lemma zsum_app : forall a b f, zsum (a + b) f = zsum a f + zsum b (fun i => f (a + i)%nat).
Proof. induction b; intros f; cbn [tsum]. { rewrite Nat.add_0_r. lia. } rewrite Nat.add_succ_r. cbn [tsum]. rewrite IHb. lia. Qed.
Lemma zsum_add : forall m f g, zsum m (fun i => f i + g i) = zsum m f + zsum m g.
Proof. induction m; intros f g; cbn [tsum]; auto. rewrite IHm. lia. Qed.
Lemma zsum_ext : forall m f g, (forall i, (i < m)%nat -> f i = g i) -> zsum m f = zsum m g.
Proof. induction m; intros f g H; auto. cbn [tsum]. rewrite (IHm f g), H by auto. auto. Qed.
Lemma zsum_pos : forall (bf : bool) L f, zsum (2 * L) f = zsum L (fun t => f (sys_pos bf t) + f (par_pos bf L t)).
Proof.
  intros [|] L f; cbn [sys_pos par_pos].
  - replace (2 * L)%nat with (L + L)%nat by lia. rewrite zsum_app, zsum_add. auto.
  - induction L; auto. replace (2 * S L)%nat with (S (S (2 * L))) by lia. cbn [tsum] in *. rewrite IHL. unfold sys_pos, par_pos. replace (2 * L + 1)%nat with (S (2 * L)) by lia. lia.
Qed.

Lemma cor_z : forall n K Y sys par bf x, length Y = (2 * (K + n))%nat -> (forall q, (nth q x 0 < 2)%nat) ->
  (forall t, (t < K + n)%nat -> sys t = nth (sys_pos bf t) Y 0 /\ par t = nth (par_pos bf (K + n) t) Y 0) ->
  cor Z 0 Z.add Z.sub n K sys par bf x = correlation Y x.
Proof.
  intros n K Y sys par bf x LY BX HY. unfold cor, correlation. rewrite LY, <- zsum_fold, (zsum_pos bf). apply zsum_ext. intros t Ht.
  destruct (HY t Ht) as [-> ->]. unfold sg.
  destruct (lt2 _ (BX (sys_pos bf t))) as [-> | ->]; destruct (lt2 _ (BX (par_pos bf (K + n) t))) as [-> | ->]; cbn [Nat.eqb Z.of_nat]; lia.
Qed.
Lemma map_seq : forall (l : list Z), map Z.abs l = map (fun q => Z.abs (nth q l 0)) (seq 0 (length l)).
Proof. induction l as [|a l IH]; auto. cbn [map length seq]. rewrite <- seq_shift, map_map. cbn [nth]. f_equal. auto. Qed.
Lemma bound_z : forall n K Y sys par bf, length Y = (2 * (K + n))%nat ->
  (forall t, (t < K + n)%nat -> sys t = nth (sys_pos bf t) Y 0 /\ par t = nth (par_pos bf (K + n) t) Y 0) ->
  bound Z 0 Z.add Z.sub Z.max n K sys par = magnitude Y.
Proof.
  intros n K Y sys par bf LY HY. unfold bound, magnitude.
  replace (map Z.abs Y) with (map (fun q => Z.abs (nth q Y 0)) (seq 0 (2 * (K + n)))).
  - rewrite <- zsum_fold, (zsum_pos bf). apply zsum_ext. intros t Ht. destruct (HY t Ht) as [-> ->]. unfold abs. lia.
  - rewrite <- LY. symmetry. apply map_seq.
Qed.
Lemma corr_parity : forall Y x, exists k, correlation Y x = zsum (length Y) (fun q => nth q Y 0) + 2 * k.
Proof.
  intros Y x. unfold correlation. rewrite <- zsum_fold. generalize (length Y). induction n as [|n [k IH]]; [exists 0; reflexivity|]. cbn [tsum].
  exists (k - Z.of_nat (nth n x 0%nat) * nth n Y 0). rewrite IH. lia.
Qed.
Lemma diff_even : forall Y x0 x1, 2 * ((correlation Y x0 - correlation Y x1) / 2) = correlation Y x0 - correlation Y x1.
Proof.
  intros Y x0 x1. destruct (corr_parity Y x0) as [a ->]. destruct (corr_parity Y x1) as [b ->]. set (z := zsum _ _).
  replace (z + 2 * a - (z + 2 * b)) with ((a - b) * 2) by lia. rewrite Z.div_mul by lia. lia.
Qed.

Lemma best_z : forall p0 p1 n K Y sys par bf q b x, length Y = (2 * (K + n))%nat ->
  (forall t, (t < K + n)%nat -> sys t = nth (sys_pos bf t) Y 0 /\ par t = nth (par_pos bf (K + n) t) Y 0) ->
  best Z 0 Z.add Z.sub Z.le p0 p1 n K sys par bf q b x ->
  best_with (rsc_code p0 p1 n bf K) Y q b x /\ cor Z 0 Z.add Z.sub n K sys par bf x = correlation Y x.
Proof.
  intros p0 p1 n K Y sys par bf q b x LY HY (CX & BX & UX). pose proof (code_bits _ _ _ _ _ _ CX) as BB.
  pose proof (cor_z n K Y sys par bf x LY BB HY) as EX. split; auto. split; auto. split; auto. intros y CY BY.
  rewrite <- EX, <- (cor_z n K Y sys par bf y LY (code_bits _ _ _ _ _ _ CY) HY). auto.
Qed.

(** The value computed for bit [i], as an integer. *)
Lemma short_val : forall p0 p1 n K Y sysl parl bf i s x, (0 < n)%nat -> Nat.testbit p0 n = true -> Nat.testbit p1 n = true ->
  length Y = (2 * (K + n))%nat -> 2 * magnitude Y <= 16384 -> (i < K)%nat ->
  (forall t, (t < K + n)%nat -> nth t sysl 0 = nth (sys_pos bf t) Y 0 /\ nth t parl 0 = nth (par_pos bf (K + n) t) Y 0) ->
  ext_val Z 0 Z.add Z.sub Z.max (fun x => x) (fun x => x / 2) (next_spec p0 n) (par_spec p0 p1 n) (2 ^ n) K n sysl parl (fun j => if (j =? 0)%nat then 0 else -16384) zero_bit one_bit i s x ->
  exists x0 x1, best_with (rsc_code p0 p1 n bf K) Y (sys_pos bf i) 0 x0 /\ best_with (rsc_code p0 p1 n bf K) Y (sys_pos bf i) 1 x1 /\
    2 * (x + s) = correlation Y x0 - correlation Y x1.
Proof.
  intros p0 p1 n K Y sysl parl bf i s x Hn H0 H1 LY MY Hi HY EV.
  destruct (maxlog Z 0 (-16384) Z.add Z.sub Z.mul Z.max (fun x => x) (fun x => x / 2) z_laws Z.le z_ordered p0 p1 n K Hn H0 H1 sysl parl) with (bf := bf) (i := i) (s := s) (x := x) as (x0 & x1 & B0 & B1 & E); auto.
  { rewrite (bound_z n K Y _ _ bf LY HY). lia. }
  destruct (best_z _ _ _ _ Y _ _ _ _ _ _ LY HY B0) as [W0 C0]. destruct (best_z _ _ _ _ Y _ _ _ _ _ _ LY HY B1) as [W1 C1].
  rewrite C0, C1 in E. exists x0, x1. split; auto. split; auto. rewrite E. replace ((correlation Y x0 - correlation Y x1) / 2 - s + s) with ((correlation Y x0 - correlation Y x1) / 2) by lia. apply diff_even.
Qed.

(** The hard decision. *)
Lemma short_hard : forall (C : list nat -> Prop) Y q x0 x1 v x, best_with C Y q 0 x0 -> best_with C Y q 1 x1 ->
  2 * v = correlation Y x0 - correlation Y x1 -> only_best C Y x -> (nth q x 0 < 2)%nat -> Nat.b2n (v <? 0) = nth q x 0%nat.
Proof.
  intros C Y q x0 x1 v x (C0 & B0 & U0) (C1 & B1 & U1) E [CX UX] HB.
  destruct (lt2 _ HB) as [Q | Q]; rewrite Q.
  - assert (N1 : x1 <> x) by (intros ->; lia). pose proof (UX x1 C1 N1). pose proof (U0 x CX Q). destruct (Z.ltb_spec v 0); auto. lia.
  - assert (N0 : x0 <> x) by (intros ->; lia). pose proof (UX x0 C0 N0). pose proof (U1 x CX Q). destruct (Z.ltb_spec v 0); auto. lia.
Qed.

(** Without noise the word sent is the only best one. *)
Lemma zsum_le : forall m f g, (forall i, (i < m)%nat -> f i <= g i) -> zsum m f <= zsum m g.
Proof. induction m; intros f g H; cbn [tsum]; [lia|]. pose proof (IHm f g ltac:(auto)). pose proof (H m ltac:(lia)). lia. Qed.
Lemma zsum_lt : forall m f g k, (forall i, (i < m)%nat -> f i <= g i) -> (k < m)%nat -> f k < g k -> zsum m f < zsum m g.
Proof.
  induction m; intros f g k H Hk HL; [lia|]. cbn [tsum]. pose proof (H m ltac:(lia)). destruct (Nat.eq_dec k m).
  - subst. pose proof (zsum_le m f g ltac:(auto)). lia.
  - pose proof (IHm f g k ltac:(auto) ltac:(lia) HL). lia.
Qed.
Lemma list_neq_nth : forall (x y : list nat), length x = length y -> x <> y -> exists k, (k < length x)%nat /\ nth k x 0%nat <> nth k y 0%nat.
Proof.
  induction x as [|a x IH]; intros [|b y] LE NE; try discriminate; [congruence|]. destruct (Nat.eq_dec a b).
  - subst. destruct (IH y) as (k & Hk & N). { simpl in LE. lia. } { congruence. } exists (S k). simpl. split; auto. lia.
  - exists 0%nat. simpl. split; auto. lia.
Qed.
Lemma clean_best : forall (C : list nat -> Prop) N a x, (forall y, C y -> length y = N /\ forall q, (nth q y 0 < 2)%nat) -> C x -> 0 < a -> only_best C (clean a x) x.
Proof.
  intros C N a x HC CX HA. split; auto. intros y CY NE. destruct (HC x CX) as [LX BX]. destruct (HC y CY) as [LY BY].
  assert (LC : length (clean a x) = N) by (unfold clean; rewrite map_length; auto).
  assert (NC : forall q, (q < N)%nat -> nth q (clean a x) 0 = a * (1 - 2 * Z.of_nat (nth q x 0%nat))).
  { intros q Hq. unfold clean. rewrite (nth_indep _ 0 (a * (1 - 2 * Z.of_nat 0))) by (rewrite map_length; lia).
    rewrite (map_nth (fun b => a * (1 - 2 * Z.of_nat b))). reflexivity. }
  unfold correlation. rewrite LC, <- !zsum_fold.
  destruct (list_neq_nth y x ltac:(lia) NE) as (k & Hk & NK).
  apply (zsum_lt _ _ _ k); [|lia|].
  - intros i Hi. rewrite NC by auto. destruct (lt2 _ (BX i)) as [-> | ->]; destruct (lt2 _ (BY i)) as [-> | ->]; lia.
  - rewrite NC by lia. destruct (lt2 _ (BX k)) as [E1 | E1]; destruct (lt2 _ (BY k)) as [E2 | E2]; rewrite E1, E2 in *; try lia.
Qed.
Lemma clean_magnitude : forall a x, 0 <= a -> (forall q, (nth q x 0 < 2)%nat) -> magnitude (clean a x) = a * Z.of_nat (length x).
Proof.
  intros a x HA. unfold magnitude, clean. induction x as [|b x IH]; intros B; [cbn; lia|]. cbn [map fold_right length].
  rewrite IH by (intros q; apply (B (S q))). pose proof (B 0%nat) as B0. cbn in B0. destruct (lt2 _ B0); subst; cbn [Z.of_nat]; lia.
Qed.
End Integers.
