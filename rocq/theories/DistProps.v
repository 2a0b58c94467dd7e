(** Theorems about the Hamming distances (C75). *)
From Coq Require Import List Arith Lia Bool ZArith.
From Verif Require Import Base GaloisModel GaloisProofs DistModel.
Import ListNotations.
Local Open Scope Z_scope.

(** ** Sums *)
Definition zsum (l : list Z) : Z := fold_right Z.add 0 l.
Definition sumr (g : nat -> Z) (lo k : nat) : Z := zsum (map g (seq lo k)).
Lemma zsum_cons : forall x l, zsum (x :: l) = x + zsum l.
Proof. reflexivity. Qed.
Lemma zsum_app : forall a b, zsum (a ++ b) = zsum a + zsum b.
Proof. induction a as [|x a IH]; intros b; [reflexivity|]. cbn [app]. rewrite !zsum_cons, IH. lia. Qed.
Lemma zsum_repeat0 : forall n, zsum (repeat 0 n) = 0.
Proof. induction n; [reflexivity|]. cbn [repeat]. rewrite zsum_cons. lia. Qed.
Lemma zsum_nonneg : forall l, Forall (fun x => 0 <= x) l -> 0 <= zsum l.
Proof. induction 1; [reflexivity|]. rewrite zsum_cons. lia. Qed.
Lemma zsum_le_all : forall l, Forall (fun x => 0 <= x) l -> Forall (fun x => 0 <= x <= zsum l) l.
Proof.
  induction 1 as [|x l Hx Hl IH]; [constructor|]. pose proof (zsum_nonneg _ Hl) as N. rewrite zsum_cons. constructor; [lia|].
  eapply Forall_impl; [|exact IH]. cbn beta. intros; lia.
Qed.
Lemma sumr_app : forall g lo a b, sumr g lo (a + b) = sumr g lo a + sumr g (lo + a) b.
Proof. intros. unfold sumr. rewrite seq_app, map_app, zsum_app. reflexivity. Qed.
Lemma sumr_S : forall g lo k, sumr g lo (S k) = sumr g lo k + g (lo + k)%nat.
Proof. intros. replace (S k) with (k + 1)%nat by lia. rewrite sumr_app. unfold sumr at 2. cbn [seq map]. rewrite zsum_cons. cbn. lia. Qed.
Lemma sumr_range : forall g lo k, (forall i, (lo <= i < lo + k)%nat -> 0 <= g i <= 1) -> 0 <= sumr g lo k <= Z.of_nat k.
Proof.
  intros g lo k. induction k; intros H; [unfold sumr; cbn; lia|]. rewrite sumr_S. specialize (IHk (fun i Hi => H i ltac:(lia))). pose proof (H (lo + k)%nat ltac:(lia)). lia.
Qed.

(** ** Lanes *)
Lemma vadd_sum : forall w a b, 0 < w -> length a = length b -> Forall (fun x => 0 <= x) a -> Forall (fun x => 0 <= x) b ->
  (forall x y, In (x, y) (combine a b) -> x + y < 2 ^ (w - 1)) ->
  length (vadd w a b) = length a /\ Forall (fun x => 0 <= x) (vadd w a b) /\ zsum (vadd w a b) = zsum a + zsum b /\
  (forall m k, Forall (fun x => x <= m) a -> Forall (fun x => x <= k) b -> Forall (fun x => x <= m + k) (vadd w a b)).
Proof.
  intros w a. induction a as [|x a IH]; intros [|y b] Hw L A B S; try discriminate L.
  { cbn. split; [reflexivity|]. split; [constructor|]. split; [reflexivity|]. intros; constructor. }
  change (vadd w (x :: a) (y :: b)) with (cast w (x + y) :: vadd w a b). rewrite !zsum_cons. cbn [length].
  inversion A; inversion B; subst. injection L as L.
  destruct (IH b Hw L ltac:(assumption) ltac:(assumption) (fun u v I => S u v (or_intror I))) as (I1 & I2 & I3 & I4).
  rewrite cast_small by (try assumption; specialize (S x y (or_introl eq_refl)); lia). split; [lia|]. split; [constructor; [lia|exact I2]|]. split; [lia|].
  intros m k F G. inversion F; inversion G; subst. constructor; [lia|]. apply I4; assumption.
Qed.

Lemma vadd_sum32 : forall w a b, 0 < w -> length a = length b -> Forall (fun x => 0 <= x) a -> Forall (fun x => 0 <= x) b -> zsum a + zsum b < 2 ^ (w - 1) ->
  length (vadd w a b) = length a /\ Forall (fun x => 0 <= x) (vadd w a b) /\ zsum (vadd w a b) = zsum a + zsum b.
Proof.
  intros w a b Hw L A B S. destruct (vadd_sum w a b Hw L A B) as (I1 & I2 & I3 & _); [|tauto].
  intros x y I. pose proof (in_combine_l _ _ _ _ I) as Ia. pose proof (in_combine_r _ _ _ _ I) as Ib.
  pose proof (proj1 (Forall_forall _ _) (zsum_le_all _ A) x Ia). pose proof (proj1 (Forall_forall _ _) (zsum_le_all _ B) y Ib). cbn beta in *. lia.
Qed.

Lemma hadd_sum_from : forall w l s, 0 < w -> Forall (fun x => 0 <= x) l -> 0 <= s -> s + zsum l < 2 ^ (w - 1) -> fold_left (fun s x => cast w (s + x)) l s = s + zsum l.
Proof.
  intros w l. induction l as [|x l IH]; intros s Hw F Hs B; [cbn; lia|]. rewrite zsum_cons in *. cbn [fold_left]. inversion F; subst. pose proof (zsum_nonneg l ltac:(assumption)).
  rewrite cast_small by lia. rewrite IH by (try assumption; lia). lia.
Qed.
Lemma hadd_sum : forall w l, 0 < w -> Forall (fun x => 0 <= x) l -> zsum l < 2 ^ (w - 1) -> hadd w l = zsum l.
Proof. intros w l Hw F B. unfold hadd. rewrite hadd_sum_from by (try assumption; lia). lia. Qed.

Lemma low_high : forall l, zsum (low l) + zsum (high l) = zsum l /\ length (low l) = (length l / 2)%nat /\ length (high l) = (length l - length l / 2)%nat.
Proof.
  intros l. unfold low, high. split; [rewrite <- zsum_app, firstn_skipn; reflexivity|]. rewrite firstn_length, skipn_length. split; [|reflexivity].
  apply Nat.min_l. apply Nat.div_le_upper_bound; lia.
Qed.
Lemma low_nonneg : forall l, Forall (fun x => 0 <= x) l -> Forall (fun x => 0 <= x) (low l).
Proof. intros l F. rewrite Forall_forall in *. intros x I. apply F. unfold low in I. rewrite <- (firstn_skipn (length l / 2) l). apply in_or_app. auto. Qed.
Lemma high_nonneg : forall l, Forall (fun x => 0 <= x) l -> Forall (fun x => 0 <= x) (high l).
Proof. intros l F. rewrite Forall_forall in *. intros x I. apply F. unfold high in I. rewrite <- (firstn_skipn (length l / 2) l). apply in_or_app. auto. Qed.
Lemma half_half : forall n, (n / 2 / 2 = n / 4)%nat.
Proof. intros n. rewrite Nat.div_div by lia. reflexivity. Qed.

Section Dist.
Variables (d : nat -> outcome Z) (g : nat -> Z) (size : nat).
Hypothesis Hd : forall i, (i < size)%nat -> d i = Ret (g i) /\ 0 <= g i <= 1.
Hypothesis Hsize : Z.of_nat size < 2 ^ 31.

Lemma sumr_le : forall lo k, (lo + k <= size)%nat -> 0 <= sumr g lo k <= Z.of_nat k.
Proof. intros lo k H. apply sumr_range. intros i Hi. apply Hd. lia. Qed.

Lemma seq_sum : forall off k, (off + k <= size)%nat -> distance_seq d off k = Ret (sumr g off k).
Proof.
  intros off k H. unfold distance_seq. destruct (for_inv _ (fun i s => s = sumr g off i) k (fun i dist => x <- d (off + i)%nat ;; Ret (usize (dist + usize x))) 0) as (s & E & ->); [reflexivity| |exact E].
  intros i s Hi ->. destruct (Hd (off + i)%nat ltac:(lia)) as [-> G]. cbn [bind]. eexists. split; [reflexivity|]. rewrite sumr_S. pose proof (sumr_le off i ltac:(lia)).
  unfold usize. rewrite (Z.mod_small (g (off + i)%nat)) by lia. apply Z.mod_small. lia.
Qed.

Lemma lanes_ok : forall n i, (i + n <= size)%nat -> lanes d i n = Ret (map g (seq i n)).
Proof.
  induction n as [|n IH]; intros i H; cbn [lanes seq map]; [reflexivity|]. destruct (Hd i ltac:(lia)) as [-> _]. cbn [bind]. rewrite IH by lia. reflexivity.
Qed.
Lemma lanes_range : forall n i, (i + n <= size)%nat -> Forall (fun x => 0 <= x) (map g (seq i n)) /\ Forall (fun x => x <= 1) (map g (seq i n)).
Proof. intros n i H. split; apply Forall_forall; intros x I; apply in_map_iff in I; destruct I as (j & <- & J); apply in_seq in J; apply Hd; lia. Qed.

Lemma accumulate : forall w n lo k, 0 < w -> Z.of_nat k < 2 ^ (w - 1) -> (lo + k * n <= size)%nat ->
  exists c, for_ k (fun t c => r <- lanes d (lo + t * n)%nat n ;; Ret (vadd w c r)) (repeat 0 n) = Ret c /\
    length c = n /\ Forall (fun x => 0 <= x) c /\ Forall (fun x => x <= Z.of_nat k) c /\ zsum c = sumr g lo (k * n).
Proof.
  intros w n lo k Hw Hk H.
  apply (for_inv _ (fun t c => length c = n /\ Forall (fun x => 0 <= x) c /\ Forall (fun x => x <= Z.of_nat t) c /\ zsum c = sumr g lo (t * n))).
  - split; [apply repeat_length|]. split; [apply Forall_forall; intros x I; apply repeat_spec in I; lia|]. split; [apply Forall_forall; intros x I; apply repeat_spec in I; lia|]. rewrite zsum_repeat0. reflexivity.
  - intros t c Ht (L & A & B & Sc). assert (I : (lo + t * n + n <= size)%nat) by nia. rewrite lanes_ok by exact I. cbn [bind]. eexists. split; [reflexivity|].
    destruct (lanes_range n _ I) as [G0 G1]. destruct (vadd_sum w c (map g (seq (lo + t * n) n)) Hw) as (V1 & V2 & V3 & V4); try assumption.
    + rewrite map_length, seq_length. exact L.
    + intros x y J. pose proof (proj1 (Forall_forall _ _) B x (in_combine_l _ _ _ _ J)). pose proof (proj1 (Forall_forall _ _) G1 y (in_combine_r _ _ _ _ J)). cbn beta in *. lia.
    + split; [lia|]. split; [exact V2|]. split; [specialize (V4 _ _ B G1); replace (Z.of_nat (S t)) with (Z.of_nat t + 1) by lia; exact V4|].
      rewrite V3, Sc. replace (S t * n)%nat with (t * n + n)%nat by lia. rewrite sumr_app. reflexivity.
Qed.

Lemma steps_exact : forall n q lo, (0 < n)%nat -> ((lo + q * n - lo + n - 1) / n = q)%nat.
Proof. intros n q lo Hn. replace (lo + q * n - lo + n - 1)%nat with ((n - 1) + q * n)%nat by lia. rewrite Nat.div_add by lia. rewrite Nat.div_small by lia. reflexivity. Qed.

Lemma std_sum : forall w n, 32 <= w -> (0 < n)%nat -> distance_std w n d size = Ret (sumr g 0 size).
Proof.
  intros w n Hw Hn. unfold distance_std, for_step. set (q := (size / n)%nat). assert (Q : (q * n <= size)%nat) by (unfold q; rewrite Nat.mul_comm; apply Nat.mul_div_le; lia).
  replace ((q * n - 0 + n - 1) / n)%nat with q by (symmetry; exact (steps_exact n q 0 Hn)).
  assert (P : 2 ^ 31 <= 2 ^ (w - 1)) by (apply Z.pow_le_mono_r; lia).
  assert (Q1 : (q <= size)%nat) by nia. destruct (accumulate w n 0 q ltac:(lia) ltac:(lia) ltac:(lia)) as (c & -> & L & A & _ & S). cbn [bind].
  pose proof (sumr_le 0 (q * n) ltac:(lia)) as R1. rewrite hadd_sum by (try assumption; lia). rewrite seq_sum by lia. cbn [bind]. rewrite S.
  pose proof (sumr_le (q * n) (size - q * n) ltac:(lia)) as R2. pose proof (sumr_app g 0 (q * n) (size - q * n)) as T. replace (q * n + (size - q * n))%nat with size in T by lia. rewrite Nat.add_0_l in T.
  unfold usize. rewrite (Z.mod_small (sumr g 0 (q * n))) by lia. rewrite Z.mod_small by lia. rewrite T. reflexivity.
Qed.

(** The narrow counters: [cap] steps, then a flush. *)
Lemma narrow_sum : forall w n m cap (flush : list Z -> list Z -> list Z) vec, 0 < w -> (0 < n)%nat -> (0 < cap)%nat -> Z.of_nat cap < 2 ^ (w - 1) -> (vec <= size)%nat -> (exists q, vec = q * n)%nat ->
  (forall c32 c, length c32 = m -> length c = n -> Forall (fun x => 0 <= x) c32 -> Forall (fun x => 0 <= x) c -> zsum c32 + zsum c < 2 ^ 31 ->
     length (flush c32 c) = m /\ Forall (fun x => 0 <= x) (flush c32 c) /\ zsum (flush c32 c) = zsum c32 + zsum c) ->
  (counter <- for_step 0 vec (cap * n) (fun ii c32 =>
     c <- for_step ii (Nat.min vec (ii + cap * n)) n (fun i c => r <- lanes d i n ;; Ret (vadd w c r)) (repeat 0 n) ;;
     Ret (flush c32 c)) (repeat 0 m) ;;
   rest <- distance_seq d vec (size - vec) ;;
   Ret (usize (usize (hadd 32 counter) + rest))) = Ret (sumr g 0 size).
Proof.
  intros w n m cap flush vec Hw Hn Hc Hcap Hv [q Q] HF. set (stride := (cap * n)%nat) in *. assert (Hs : (0 < stride)%nat) by (unfold stride; nia). unfold for_step at 1. rewrite Nat.sub_0_r.
  set (K := ((vec + stride - 1) / stride)%nat).
  assert (HK : forall k, (k < K)%nat -> (k * stride < vec)%nat).
  { intros k Hk. unfold K in Hk. pose proof (Nat.mul_div_le (vec + stride - 1) stride ltac:(lia)). nia. }
  assert (HK2 : (vec <= K * stride)%nat).
  { unfold K. pose proof (Nat.div_mod (vec + stride - 1) stride ltac:(lia)). pose proof (Nat.mod_upper_bound (vec + stride - 1) stride ltac:(lia)). nia. }
  destruct (for_inv _ (fun k c32 => length c32 = m /\ Forall (fun x => 0 <= x) c32 /\ zsum c32 = sumr g 0 (Nat.min vec (k * stride))) K
    (fun k c32 => c <- for_step (0 + k * stride) (Nat.min vec (0 + k * stride + stride)) n (fun i c => r <- lanes d i n ;; Ret (vadd w c r)) (repeat 0 n) ;; Ret (flush c32 c)) (repeat 0 m)) as (c & E & L & A & S).
  - split; [apply repeat_length|]. split; [apply Forall_forall; intros x I; apply repeat_spec in I; lia|]. rewrite zsum_repeat0. rewrite Nat.min_r by lia. reflexivity.
  - intros k c32 Hk (L & A & S). rewrite Nat.add_0_l. pose proof (HK k Hk) as Hlo.
    (* the inner loop has q' <= cap steps *)
    assert (M : exists q', (q' <= cap /\ Nat.min vec (k * stride + stride) = k * stride + q' * n)%nat).
    { destruct (Nat.le_gt_cases vec (k * stride + stride)) as [C|C].
      - exists (q - k * cap)%nat. rewrite Nat.min_l by lia. subst vec. unfold stride in *. split; nia.
      - exists cap. rewrite Nat.min_r by lia. unfold stride. lia. }
    destruct M as (q' & Q1 & Q2). unfold for_step. rewrite Q2. rewrite (steps_exact n q' (k * stride) Hn).
    assert (U : (k * stride + q' * n <= size)%nat) by lia.
    destruct (accumulate w n (k * stride) q' Hw ltac:(lia) U) as (c & -> & L' & A' & _ & S'). cbn [bind]. eexists. split; [reflexivity|].
    assert (T : sumr g 0 (k * stride) + sumr g (k * stride) (q' * n) = sumr g 0 (k * stride + q' * n)) by (rewrite sumr_app; reflexivity). rewrite Nat.min_r in S by lia.
    pose proof (sumr_le 0 (k * stride + q' * n) ltac:(lia)) as R.
    destruct (HF c32 c L L' A A' ltac:(lia)) as (F1 & F2 & F3). split; [exact F1|]. split; [exact F2|]. rewrite F3, S, S', T. f_equal. replace (Datatypes.S k * stride)%nat with (k * stride + stride)%nat by lia. lia.
  - rewrite E. cbn [bind]. rewrite Nat.min_l in S by lia. pose proof (sumr_le 0 vec ltac:(lia)) as R1. rewrite hadd_sum by (try assumption; lia). rewrite seq_sum by lia. cbn [bind]. rewrite S.
    pose proof (sumr_le vec (size - vec) ltac:(lia)) as R2. pose proof (sumr_app g 0 vec (size - vec)) as T. replace (vec + (size - vec))%nat with size in T by lia. rewrite Nat.add_0_l in T.
    unfold usize. rewrite (Z.mod_small (sumr g 0 vec)) by lia. rewrite Z.mod_small by lia. rewrite T. reflexivity.
Qed.

Lemma vec_mult : forall (b : bool) n, (0 < n)%nat -> let vec := if b then O else (size / n * n)%nat in (vec <= size)%nat /\ (exists q, vec = q * n)%nat.
Proof. intros b n Hn vec. subst vec. destruct b; [split; [lia|exists O; reflexivity]|]. split; [rewrite Nat.mul_comm; apply Nat.mul_div_le; lia|eauto]. Qed.

Lemma d16_sum : forall n h, (n = 2 * h)%nat -> (0 < h)%nat -> distance_16 n d size = Ret (sumr g 0 size).
Proof.
  intros n h Hn Hh. unfold distance_16. destruct (vec_mult (n <? 2)%nat n ltac:(lia)) as [V1 V2].
  apply (narrow_sum 16 n (n / 2) (Z.to_nat 32767) (fun c32 c16 => vadd 32 (vadd 32 c32 (low c16)) (high c16))); try assumption; try lia.
  intros c32 c L1 L2 A1 A2 B. destruct (low_high c) as (T & Ll & Lh). rewrite L2 in *. assert (E : (n - n / 2 = n / 2)%nat) by (subst n; rewrite (Nat.mul_comm 2 h), Nat.div_mul by lia; lia).
  pose proof (low_nonneg _ A2) as N1. pose proof (high_nonneg _ A2) as N2. pose proof (zsum_nonneg _ N1). pose proof (zsum_nonneg _ N2).
  destruct (vadd_sum32 32 c32 (low c) ltac:(lia) ltac:(lia) A1 N1 ltac:(change (2 ^ (32 - 1)) with (2 ^ 31); lia)) as (P1 & P2 & P3).
  destruct (vadd_sum32 32 (vadd 32 c32 (low c)) (high c) ltac:(lia) ltac:(lia) P2 N2 ltac:(change (2 ^ (32 - 1)) with (2 ^ 31); lia)) as (Q1 & Q2 & Q3).
  split; [lia|]. split; [exact Q2|lia].
Qed.

Lemma d8_sum : forall n h, (n = 4 * h)%nat -> (0 < h)%nat -> distance_8 n d size = Ret (sumr g 0 size).
Proof.
  intros n h Hn Hh. unfold distance_8. destruct (vec_mult (n <? 4)%nat n ltac:(lia)) as [V1 V2].
  apply (narrow_sum 8 n (n / 4) 127 (fun c32 c8 => vadd 32 (vadd 32 (vadd 32 (vadd 32 c32 (low (low c8))) (high (low c8))) (low (high c8))) (high (high c8)))); try assumption; try lia; try reflexivity.
  intros c32 c L1 L2 A1 A2 B. destruct (low_high c) as (T & Ll & Lh). destruct (low_high (low c)) as (Tl & Lll & Llh). destruct (low_high (high c)) as (Th & Lhl & Lhh). rewrite L2 in *.
  assert (E2 : (n / 2 = 2 * h)%nat) by (subst n; replace (4 * h)%nat with (2 * h * 2)%nat by lia; apply Nat.div_mul; lia).
  assert (E4 : (n / 4 = h)%nat) by (subst n; rewrite Nat.mul_comm; apply Nat.div_mul; lia).
  assert (E3 : (2 * h / 2 = h)%nat) by (rewrite Nat.mul_comm; apply Nat.div_mul; lia).
  assert (Llow : length (low c) = (2 * h)%nat) by lia. assert (Lhigh : length (high c) = (2 * h)%nat) by lia. rewrite Llow, E3 in *. rewrite Lhigh, E3 in *.
  pose proof (low_nonneg _ A2) as N1. pose proof (high_nonneg _ A2) as N2.
  pose proof (low_nonneg _ N1) as N11. pose proof (high_nonneg _ N1) as N12. pose proof (low_nonneg _ N2) as N21. pose proof (high_nonneg _ N2) as N22.
  pose proof (zsum_nonneg _ N11). pose proof (zsum_nonneg _ N12). pose proof (zsum_nonneg _ N21). pose proof (zsum_nonneg _ N22).
  assert (P31 : 2 ^ (32 - 1) = 2 ^ 31) by reflexivity.
  destruct (vadd_sum32 32 c32 (low (low c)) ltac:(lia) ltac:(lia) A1 N11 ltac:(lia)) as (P1 & P2 & P3).
  destruct (vadd_sum32 32 (vadd 32 c32 (low (low c))) (high (low c)) ltac:(lia) ltac:(lia) P2 N12 ltac:(lia)) as (Q1 & Q2 & Q3).
  destruct (vadd_sum32 32 (vadd 32 (vadd 32 c32 (low (low c))) (high (low c))) (low (high c)) ltac:(lia) ltac:(lia) Q2 N21 ltac:(lia)) as (R1 & R2 & R3).
  destruct (vadd_sum32 32 (vadd 32 (vadd 32 (vadd 32 c32 (low (low c))) (high (low c))) (low (high c))) (high (high c)) ltac:(lia) ltac:(lia) R2 N22 ltac:(lia)) as (S1 & S2 & S3).
  split; [lia|]. split; [exact S2|lia].
Qed.
End Dist.

(** ** Specification: the number of positions below [size] where exactly one of the two words is not zero, or, when [unk] is set, where one of them
    is the unknown symbol. *)
Definition differ (w : Z) (unk : bool) (x y : Z) : Prop := ((x <> 0) <-> (y = 0)) \/ (unk = true /\ (x = unknown_symbol w \/ y = unknown_symbol w)).
Inductive counts (P : nat -> Prop) : nat -> Z -> Prop :=
| counts_0 : counts P 0 0
| counts_in : forall n c, counts P n c -> P n -> counts P (S n) (c + 1)
| counts_out : forall n c, counts P n c -> ~ P n -> counts P (S n) c.
(** the registers of the usual machines: the number of lanes of w bits *)
Definition lanes_of (w : Z) (n : option nat) : Prop :=
  match n with None => True | Some n => exists h, (0 < h)%nat /\ (n = (if (w =? 8)%Z then 4 else if (w =? 16)%Z then 2 else 1) * h)%nat end.

Lemma diff_01 : forall w unk x y, 0 <= bool_diff w unk x y <= 1.
Proof. intros. unfold bool_diff. destruct (_ || _); lia. Qed.
Lemma diff_spec : forall w unk x y, (bool_diff w unk x y = 1 /\ differ w unk x y) \/ (bool_diff w unk x y = 0 /\ ~ differ w unk x y).
Proof.
  intros w unk x y. unfold bool_diff, differ, is_unknown. destruct (Z.eqb_spec x 0), (Z.eqb_spec y 0), unk, (Z.eqb_spec x (unknown_symbol w)), (Z.eqb_spec y (unknown_symbol w)); cbn [negb xorb orb andb];
    try (left; split; [reflexivity|]; (left; tauto) || (right; tauto)); try (right; split; [reflexivity|]; intros [H|[H1 H2]]; try discriminate; tauto); left; split; try reflexivity; tauto.
Qed.
Lemma diff0_eq : forall w unk x, bool_diff0 w unk x = bool_diff w (unk && negb (unknown_symbol w =? 0)) x 0 \/ unknown_symbol w = 0.
Proof.
  intros w unk x. destruct (Z.eqb_spec (unknown_symbol w) 0) as [E|E]; [right; exact E|left]. unfold bool_diff0, bool_diff, is_unknown. rewrite andb_true_r.
  replace (0 =? unknown_symbol w) with false by (symmetry; apply Z.eqb_neq; lia). rewrite orb_false_r. cbn [Z.eqb negb]. rewrite xorb_false_r. reflexivity.
Qed.

Lemma counts_sum : forall P g n, (forall i, (i < n)%nat -> (g i = 1 /\ P i) \/ (g i = 0 /\ ~ P i)) -> counts P n (sumr g 0 n).
Proof.
  intros P g n. induction n as [|n IH]; intros H; [constructor|]. rewrite sumr_S, Nat.add_0_l. destruct (H n ltac:(lia)) as [[-> HP]|[-> HP]].
  - apply counts_in; [apply IH; intros; apply H; lia|exact HP].
  - rewrite Z.add_0_r. apply counts_out; [apply IH; intros; apply H; lia|exact HP].
Qed.

Lemma dispatch : forall w n d g size, (w = 8 \/ w = 16 \/ w = 32 \/ w = 64) -> lanes_of w n -> (forall i, (i < size)%nat -> d i = Ret (g i) /\ 0 <= g i <= 1) -> Z.of_nat size < 2 ^ 31 ->
  distance w n d size = Ret (sumr g 0 size).
Proof.
  intros w n d g size Hw Hn Hd Hs. unfold distance, lanes_of in *. destruct n as [n|]; [|apply (seq_sum d g size); (assumption || lia)]. destruct Hn as (h & Hh & ->).
  destruct Hw as [-> | [-> | [-> | ->]]]; cbn [Z.eqb Pos.eqb].
  - eapply d8_sum; eauto.
  - eapply d16_sum; eauto.
  - apply std_sum; try assumption; lia.
  - apply std_sum; try assumption; lia.
Qed.

(** C75: the Hamming distance, with or without vector registers of any width, is the number of positions where the two words differ. *)
Theorem C75_two : forall w n unk in1 in2 size,
  (w = 8 \/ w = 16 \/ w = 32 \/ w = 64) -> lanes_of w n -> (size <= length in1)%nat -> (size <= length in2)%nat -> Z.of_nat size < 2 ^ 31 ->
  exists c, hamming w n unk in1 (Some in2) size = Ret c /\ counts (fun i => differ w unk (nth i in1 0) (nth i in2 0)) size c.
Proof.
  intros w n unk in1 in2 size Hw Hn L1 L2 Hs. set (g := fun i => bool_diff w unk (nth i in1 0) (nth i in2 0)). exists (sumr g 0 size). split.
  - apply dispatch; try assumption. intros i Hi. unfold diff_at. rewrite (rd_ok _ 0 in1), (rd_ok _ 0 in2) by lia. cbn [bind]. split; [reflexivity|apply diff_01].
  - apply counts_sum. intros i Hi. apply diff_spec.
Qed.

(** With one word: the number of non-zero positions; on 64 bits, where there is no unknown symbol, it must be without the unknown symbols. *)
Theorem C75_one : forall w n unk in1 size,
  (w = 8 \/ w = 16 \/ w = 32 \/ w = 64) -> lanes_of w n -> (size <= length in1)%nat -> Z.of_nat size < 2 ^ 31 -> (w = 64 -> unk = false) ->
  exists c, hamming w n unk in1 None size = Ret c /\ counts (fun i => nth i in1 0 <> 0) size c.
Proof.
  intros w n unk in1 size Hw Hn L1 Hs H64. set (g := fun i => bool_diff0 w unk (nth i in1 0)). exists (sumr g 0 size). split.
  - apply dispatch; try assumption. intros i Hi. unfold diff_at. rewrite (rd_ok _ 0 in1) by lia. cbn [bind]. split; [reflexivity|]. unfold g, bool_diff0. destruct (_ || _); lia.
  - apply counts_sum. intros i Hi. unfold g, bool_diff0, is_unknown. destruct (Z.eqb_spec (nth i in1 0) 0) as [E|E]; cbn [negb orb]; [|left; tauto].
    right. split; [|tauto]. rewrite E. destruct Hw as [-> | [-> | [-> | ->]]]; cbn; try (rewrite andb_false_r; reflexivity). rewrite H64 by reflexivity. reflexivity.
Qed.

(** Counting the unknown symbols on 64 bits: the symbol is 0, so that two equal all-zero words are at distance size. *)
Theorem C75_unknown64_refuted : forall n size, lanes_of 64 n -> Z.of_nat size < 2 ^ 31 ->
  hamming 64 n true (repeat 0 size) (Some (repeat 0 size)) size = Ret (Z.of_nat size).
Proof.
  intros n size Hn Hs. unfold hamming. rewrite (dispatch 64 n _ (fun _ => 1) size); try assumption; try tauto.
  - f_equal. clear. unfold sumr. generalize 0%nat. induction size; intros k; cbn [seq map]; [reflexivity|]. rewrite zsum_cons. specialize (IHsize (S k)). lia.
  - intros i Hi. unfold diff_at. rewrite (rd_ok _ 0) by (rewrite repeat_length; lia). rewrite nth_repeat. split; [reflexivity|lia].
Qed.

Example C75_example : hamming 8 (Some 4%nat) false [1;0;2;0;1;1] (Some [0;0;1;1;1;0]) 6 = Ret 3 /\ hamming 8 None false [1;0;2;0;1;1] (Some [0;0;1;1;1;0]) 6 = Ret 3 /\
  hamming 32 (Some 2%nat) true [1;0;1073741823] (Some [1;0;1]) 3 = Ret 1 /\ hamming 8 (Some 4%nat) false [1;0;2;0;1;1] None 6 = Ret 4.
Proof. repeat split; reflexivity. Qed.
(** the unknown values of the four types *)
Example C75_unknown_values : map unknown_symbol [8; 16; 32; 64] = [63; 16382; 1073741823; 0].
Proof. reflexivity. Qed.
