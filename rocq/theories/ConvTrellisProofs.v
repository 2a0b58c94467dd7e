From Coq Require Import List Arith ZArith Lia Bool.
From Verif Require Import Base Copy ConvModel ConvSpec ConvProofs.
Import ListNotations.

Definition shaped (S : nat) (t : list (list Z)) : Prop :=
  length t = 10 /\ forall r, r < 10 -> length (nth r t []) = S.

Lemma wr2_spec : forall S t r c v, shaped S t -> r < 10 -> c < S ->
  exists t', wr2 t r c v = Ret t' /\ shaped S t' /\
    forall r' c', r' < 10 -> c' < S -> entry t' r' c' = if (r' =? r) && (c' =? c) then v else entry t r' c'.
Proof.
  intros S t r c v (L & R) Hr Hc. unfold wr2. rewrite (rd_ok _ []) by lia. cbn [bind].
  rewrite wr_ok by (rewrite R; auto). cbn [bind]. rewrite wr_ok by lia. eexists. split; [reflexivity|]. split.
  - split; [rewrite length_upd; auto|]. intros r' Hr'. rewrite nth_upd by lia. destruct (Nat.eqb_spec r' r).
    + subst. rewrite length_upd. auto.
    + auto.
  - intros r' c' Hr' Hc'. unfold entry. rewrite nth_upd by lia. destruct (Nat.eqb_spec r' r); cbn [andb]; auto.
    subst. rewrite nth_upd by (rewrite R; auto). auto.
Qed.

Section Trellis.
Variables (e : rsc) (P X : nat -> nat -> nat) (T : nat -> nat).
Let NS := 2 ^ n_ff e.
Hypothesis M : machine e NS P X T.
(** The two edges entering each state; edge 2 s + b leaves s with bit b. *)
Variables (E1 E2 : nat -> nat).
Definition dest (k : nat) : nat := X (k mod 2) (k / 2).
Hypothesis HE : forall s, s < NS -> E1 s < E2 s /\ E2 s < 2 * NS /\
  forall k, k < 2 * NS -> (dest k = s <-> k = E1 s \/ k = E2 s).

Definition gam (k : nat) : Z := Z.of_nat (Nat.lxor (k mod 2) (P (k mod 2) (k / 2))).
Definition Inv (m : nat) (st : list (list Z) * list bool) : Prop :=
  shaped NS (fst st) /\ length (snd st) = NS /\
  (forall s, s < NS -> (nth s (snd st) false = true <-> E1 s < m)) /\
  (forall k, k < m -> entry (fst st) (6 + 2 * (k mod 2)) (k / 2) = Z.of_nat (dest k) /\
                      entry (fst st) (7 + 2 * (k mod 2)) (k / 2) = gam k) /\
  (forall s, s < NS -> E1 s < m -> entry (fst st) 0 s = Z.of_nat (E1 s / 2) /\
      entry (fst st) 1 s = sign_of (E1 s mod 2) /\ entry (fst st) 2 s = gam (E1 s)) /\
  (forall s, s < NS -> E2 s < m -> entry (fst st) 3 s = Z.of_nat (E2 s / 2) /\
      entry (fst st) 4 s = sign_of (E2 s mod 2) /\ entry (fst st) 5 s = gam (E2 s)).

Lemma eqb_f : forall a b : nat, a <> b -> (a =? b) = false.
Proof. intros. apply Nat.eqb_neq. auto. Qed.

Lemma trellis_step_ok : forall i b st, i < NS -> b < 2 -> Inv (2 * i + b) st ->
  exists st', trellis_step e i b st = Ret st' /\ Inv (S (2 * i + b)) st'.
Proof.
  intros i b [t occ] Hi Hb (SH & LO & IO & I6 & I0 & I3). cbn [fst snd] in *. set (m := 2 * i + b) in *.
  assert (DM : m / 2 = i /\ m mod 2 = b). { unfold m. rewrite Nat.mul_comm. apply divmod_idx. auto. }
  destruct DM as [DI DB].
  assert (HD : dest m = X b i). { unfold dest. rewrite DI, DB. auto. }
  pose proof (m_next _ _ _ _ _ M b i Hb Hi) as XL. rewrite <- HD in XL. set (s := dest m) in *.
  unfold trellis_step. rewrite (m_inner _ _ _ _ _ M) by auto. cbn [bind]. rewrite <- HD.
  rewrite (rd_ok _ false) by lia. cbn [bind]. fold s.
  destruct (HE s XL) as (H12 & H2S & HK).
  assert (Hm : m < 2 * NS) by (unfold m; lia).
  assert (ME : m = E1 s \/ m = E2 s). { apply HK; auto. }
  set (o := nth s occ false).
  assert (HO : (if o then m = E2 s else m = E1 s)).
  { unfold o. pose proof (IO s XL) as IOS. destruct (nth s occ false).
    - destruct IOS as [IOS _]. specialize (IOS eq_refl). lia.
    - destruct ME as [ME|ME]; auto. exfalso. destruct IOS as [_ IOS]. assert (false = true) by (apply IOS; lia). discriminate. }
  assert (OTH : forall s', s' < NS -> s' <> s -> E1 s' <> m /\ E2 s' <> m).
  { intros s' Hs' NE. destruct (HE s' Hs') as (_ & _ & HK').
    split; intros C; apply NE; symmetry; apply HK'; auto. }
  clearbody o. set (r := if o then 3 else 0).
  assert (RR : r = 0 \/ r = 3) by (unfold r; destruct o; auto).
  destruct (wr2_spec NS t (0 + r) s (Z.of_nat i)) as (t1 & W1 & S1 & G1); auto; [lia|]. rewrite W1. cbn [bind].
  destruct (wr2_spec NS t1 (1 + r) s (if b =? 0 then 1%Z else (-1)%Z)) as (t2 & W2 & S2 & G2); auto; [lia|]. rewrite W2. cbn [bind].
  destruct (wr2_spec NS t2 (2 + r) s (Z.of_nat (Nat.lxor b (P b i)))) as (t3 & W3 & S3 & G3); auto; [lia|]. rewrite W3. cbn [bind].
  destruct (wr2_spec NS t3 (if b =? 0 then 6 else 8) i (Z.of_nat s)) as (t4 & W4 & S4 & G4); auto.
  { destruct (b =? 0); lia. } rewrite W4. cbn [bind].
  destruct (wr2_spec NS t4 (if b =? 0 then 7 else 9) i (Z.of_nat (Nat.lxor b (P b i)))) as (t5 & W5 & S5 & G5); auto.
  { destruct (b =? 0); lia. } rewrite W5. cbn [bind]. clear W1 W2 W3 W4 W5.
  rewrite wr_ok by lia. cbn [bind]. eexists. split; [reflexivity|].
  assert (B6 : (if b =? 0 then 6 else 8) = 6 + 2 * b) by (destruct (lt2 b Hb) as [Q|Q]; rewrite Q; auto).
  assert (B7 : (if b =? 0 then 7 else 9) = 7 + 2 * b) by (destruct (lt2 b Hb) as [Q|Q]; rewrite Q; auto).
  rewrite B6 in G4. rewrite B7 in G5.
  assert (GM : gam m = Z.of_nat (Nat.lxor b (P b i))). { unfold gam. rewrite DI, DB. auto. }
  (* the rows of the result *)
  assert (LO6 : forall r' c', r' < 6 -> c' < NS -> entry t5 r' c' = entry t3 r' c').
  { intros r' c' Hr' Hc'. rewrite G5, G4 by lia. rewrite (eqb_f r' (7 + 2 * b)), (eqb_f r' (6 + 2 * b)) by lia. auto. }
  assert (HI6 : forall r' c', 6 <= r' < 10 -> c' < NS -> entry t3 r' c' = entry t r' c').
  { intros r' c' Hr' Hc'. rewrite G3, G2, G1 by lia. rewrite (eqb_f r' (2 + r)), (eqb_f r' (1 + r)), (eqb_f r' (0 + r)) by lia. auto. }
  split; [exact S5|]. cbn [fst snd]. split; [rewrite length_upd; auto|]. split; [|split; [|split]].
  - intros s' Hs'. rewrite nth_upd by lia. destruct (Nat.eqb_spec s' s) as [->|NE].
    + split; auto. intros _. destruct o; lia.
    + rewrite IO by auto. destruct (OTH s' Hs' NE). lia.
  - intros k Hk. assert (KL : k / 2 < NS) by (apply Nat.div_lt_upper_bound; lia). pose proof (mod2_lt k) as KB.
    rewrite !G5, !G4 by lia. rewrite !HI6 by lia.
    destruct (Nat.eq_dec k m) as [->|NE].
    + rewrite DI, DB, !Nat.eqb_refl. cbn [andb]. rewrite (eqb_f (6 + 2 * b) (7 + 2 * b)) by lia.
      cbn [andb]. split; auto.
    + assert (KK : k / 2 <> i \/ k mod 2 <> b).
      { destruct (Nat.eq_dec (k / 2) i); auto. right. intros C. apply NE. pose proof (Nat.div_mod k 2 ltac:(lia)). unfold m. lia. }
      assert (F1 : ((6 + 2 * (k mod 2) =? 7 + 2 * b) = false)) by (apply eqb_f; lia).
      assert (F2 : ((7 + 2 * (k mod 2) =? 6 + 2 * b) = false)) by (apply eqb_f; lia).
      assert (F3 : ((6 + 2 * (k mod 2) =? 6 + 2 * b) && (k / 2 =? i) = false)).
      { apply andb_false_iff. destruct KK; [right|left]; apply eqb_f; lia. }
      assert (F4 : ((7 + 2 * (k mod 2) =? 7 + 2 * b) && (k / 2 =? i) = false)).
      { apply andb_false_iff. destruct KK; [right|left]; apply eqb_f; lia. }
      rewrite F1, F2, F3, F4. cbn [andb]. apply I6. lia.
  - intros s' Hs' HM. rewrite !LO6 by lia. rewrite !G3, !G2, !G1 by lia.
    destruct (Nat.eqb_spec s' s) as [->|NE].
    + destruct o; unfold r; cbn [Nat.add Nat.eqb andb].
      * apply I0; auto. lia.
      * rewrite <- HO, DI, DB, GM. auto.
    + rewrite !andb_false_r. destruct (OTH s' Hs' NE). apply I0; auto. lia.
  - intros s' Hs' HM. rewrite !LO6 by lia. rewrite !G3, !G2, !G1 by lia.
    destruct (Nat.eqb_spec s' s) as [->|NE].
    + destruct o; unfold r; cbn [Nat.add Nat.eqb andb].
      * rewrite <- HO, DI, DB, GM. auto.
      * exfalso. lia.
    + rewrite !andb_false_r. destruct (OTH s' Hs' NE). apply I3; auto. lia.
Qed.

Lemma get_trellis_inv : exists t occ, get_trellis e = Ret t /\ Inv (2 * NS) (t, occ).
Proof.
  unfold get_trellis. fold NS.
  match goal with |- context [for_ NS ?body ?s0] => destruct (for_inv _ (fun i st => Inv (2 * i) st) NS body s0) as ([t occ] & E & I) end.
  - split; [split|].
    + apply repeat_length.
    + intros r Hr. cbn [fst]. rewrite nth_repeat_lt by auto. apply repeat_length.
    + cbn [fst snd]. split; [apply repeat_length|]. split; [|split; [|split]]; try (intros; lia).
      intros s Hs. rewrite nth_repeat_lt by auto. split; [discriminate|lia].
  - intros i st Hi I. replace (2 * i) with (2 * i + 0) in I by lia.
    destruct (trellis_step_ok i 0 st Hi ltac:(lia) I) as (st1 & E1' & I1). rewrite E1'. cbn [bind].
    replace (S (2 * i + 0)) with (2 * i + 1) in I1 by lia.
    destruct (trellis_step_ok i 1 st1 Hi ltac:(lia) I1) as (st2 & E2' & I2). rewrite E2'.
    exists st2. split; auto. replace (2 * S i) with (S (2 * i + 1)) by lia. auto.
  - rewrite E. cbn [bind]. exists t, occ. auto.
Qed.
Lemma get_trellis_ok : exists t, get_trellis e = Ret t /\ trellis_ok NS X P t.
Proof.
  destruct get_trellis_inv as (t & occ & E & I). rewrite E.
  - exists t. split; auto. destruct I as ((SH & _) & LO & IO & I6 & I0 & I3). cbn [fst snd] in *.
    split; auto. split.
    + intros s b Hs Hb. destruct (divmod_idx s b 2 Hb) as [A B]. destruct (I6 (s * 2 + b)) as [J1 J2]; [lia|].
      unfold dest, gam in *. rewrite A, B in *. auto.
    + intros s Hs. destruct (HE s Hs) as (H12 & H2 & HK).
      exists (E1 s / 2), (E1 s mod 2), (E2 s / 2), (E2 s mod 2).
      pose proof (Nat.div_mod (E1 s) 2 ltac:(lia)) as D1. pose proof (Nat.div_mod (E2 s) 2 ltac:(lia)) as D2.
      pose proof (mod2_lt (E1 s)). pose proof (mod2_lt (E2 s)).
      split; [apply Nat.div_lt_upper_bound; lia|]. split; [apply Nat.div_lt_upper_bound; lia|]. split; auto. split; auto. split.
      { intros C. pose proof (f_equal fst C) as C1. pose proof (f_equal snd C) as C2. cbn [fst snd] in *. lia. }
      split.
      { intros s' b Hs' Hb. destruct (divmod_idx s' b 2 Hb) as [A B]. specialize (HK (s' * 2 + b) ltac:(lia)).
        unfold dest in HK. rewrite A, B in HK. rewrite HK. split; intros [C|C]; [left|right|left|right].
        - rewrite <- C, A, B. auto. - rewrite <- C, A, B. auto.
        - pose proof (f_equal fst C) as C1. pose proof (f_equal snd C) as C2. cbn [fst snd] in *. lia.
        - pose proof (f_equal fst C) as C1. pose proof (f_equal snd C) as C2. cbn [fst snd] in *. lia. }
      destruct (I0 s Hs ltac:(lia)) as (J1 & J2 & J3). destruct (I3 s Hs ltac:(lia)) as (J4 & J5 & J6).
      unfold gam in *. auto 10.
Qed.
End Trellis.

Lemma mod2_move : forall x y z, x < 2 -> y < 2 -> z < 2 -> ((x + y) mod 2 = z <-> x = (z + y) mod 2).
Proof.
  intros x y z Hx Hy Hz. destruct (lt2 x Hx), (lt2 y Hy), (lt2 z Hz); subst; simpl; split; intros; try discriminate; auto.
Qed.
Lemma pair_unique : forall H a b c d, b < H -> d < H -> a * H + b = c * H + d -> a = c /\ b = d.
Proof.
  intros H a b c d Hb Hd E. destruct (divmod_idx a b H Hb) as [A1 A2]. destruct (divmod_idx c d H Hd) as [B1 B2].
  rewrite E in *. split; congruence.
Qed.

(** The edges entering a state of the shift register. *)
Definition gen_edge (p0 n c s : nat) : nat :=
  let s' := 2 * (s mod 2 ^ (n - 1)) + c in 2 * s' + (s / 2 ^ (n - 1) + tapped p0 n s') mod 2.

Lemma gen_edges : forall p0 n, 0 < n -> forall s, s < 2 ^ n ->
  gen_edge p0 n 0 s < gen_edge p0 n 1 s /\ gen_edge p0 n 1 s < 2 * 2 ^ n /\
  forall k, k < 2 * 2 ^ n -> (dest (next_spec p0 n) k = s <-> k = gen_edge p0 n 0 s \/ k = gen_edge p0 n 1 s).
Proof.
  intros p0 n Hn s Hs. assert (PN : 2 ^ n = 2 * 2 ^ (n - 1)). { rewrite <- Nat.pow_succ_r'. f_equal. lia. }
  set (H := 2 ^ (n - 1)) in *. assert (HH : H <> 0) by (apply Nat.pow_nonzero; lia).
  pose proof (Nat.div_mod s H HH) as DM. pose proof (Nat.mod_upper_bound s H HH) as ML.
  assert (TL : s / H < 2) by (apply Nat.div_lt_upper_bound; lia).
  unfold gen_edge. fold H. set (a := s mod H) in *. set (h := s / H) in *.
  pose proof (mod2_lt (h + tapped p0 n (2 * a + 0))) as A0. pose proof (mod2_lt (h + tapped p0 n (2 * a + 1))) as A1.
  split; [lia|]. split; [lia|]. intros k Hk. unfold dest.
  pose proof (Nat.div_mod k 2 ltac:(lia)) as DK. pose proof (mod2_lt k) as KB.
  set (s' := k / 2) in *. set (b := k mod 2) in *. unfold next_spec. fold H.
  pose proof (new_cell_lt p0 n b s') as CL. pose proof (Nat.div_mod s' 2 ltac:(lia)) as DS. pose proof (mod2_lt s') as SB.
  assert (SH : s' / 2 < H) by (apply Nat.div_lt_upper_bound; lia).
  assert (CE : new_cell p0 n b s' * H + s' / 2 = s <-> new_cell p0 n b s' = h /\ s' / 2 = a).
  { rewrite DM. rewrite (Nat.mul_comm H h). split; [|intros [-> ->]; auto]. intros E. apply pair_unique in E; auto. }
  rewrite CE. unfold new_cell. rewrite (mod2_move b _ h KB (tapped_lt _ _ _) TL).
  split.
  - intros [E1 E2]. destruct (lt2 _ SB) as [Z|Z].
    + left. rewrite DK. assert (ES : s' = 2 * a + 0) by lia. rewrite <- ES. lia.
    + right. rewrite DK. assert (ES : s' = 2 * a + 1) by lia. rewrite <- ES. lia.
  - intros [E|E].
    + assert (ES : s' = 2 * a + 0) by lia. rewrite ES in *. lia.
    + assert (ES : s' = 2 * a + 1) by lia. rewrite ES in *. lia.
Qed.

(* ------------------------------------------------------------------ *)
(** * The CPE encoder *)

Definition cpe_tail (s : nat) : nat := Nat.b2n (xorb (xorb (Nat.testbit s 0) (Nat.testbit s 1)) (Nat.testbit s 2)).
Definition cpe_next (b s : nat) : nat := snd (cpe_inner b s).
Definition cpe_par (b s : nat) : nat := fst (cpe_inner b s).

Ltac cases8 s H := do 8 (destruct s as [|s]; [| try lia]); try lia.

Lemma machine_cpe : machine rsc_cpe 8 cpe_par cpe_next cpe_tail.
Proof.
  constructor.
  - lia.
  - intros. reflexivity.
  - intros b s Hb Hs. do 8 (destruct s as [|s]; [destruct b as [|[|b]]; [vm_compute; lia|vm_compute; lia|lia]|]). lia.
  - intros. reflexivity.
  - intros s Hs. unfold cpe_tail. destruct (xorb _ _); simpl; lia.
Qed.

Lemma cpe_term : forall K u, bits u -> st_at cpe_next cpe_tail K u (K + n_ff rsc_cpe) = 0.
Proof.
  intros K u BU. cbn [n_ff rsc_cpe].
  pose proof (st_lt _ _ _ _ _ machine_cpe K u BU K) as HK.
  assert (G : forall t, K <= t -> st_at cpe_next cpe_tail K u (S t) = cpe_next (cpe_tail (st_at cpe_next cpe_tail K u t)) (st_at cpe_next cpe_tail K u t)).
  { intros t Ht. rewrite st_S. unfold in_at. destruct (Nat.ltb_spec t K); auto. lia. }
  replace (K + 3) with (S (S (S K))) by lia. rewrite !G by lia. set (s := st_at _ _ _ _ K) in *. clearbody s.
  do 8 (destruct s as [|s]; [reflexivity|]). lia.
Qed.

Definition cpe_edges : list (nat * nat) :=
  map (fun s => let l := filter (fun k => dest cpe_next k =? s) (seq 0 16) in (nth 0 l 0, nth 1 l 0)) (seq 0 8).

Lemma cpe_edges_ok : forall s, s < 8 ->
  fst (nth s cpe_edges (0, 0)) < snd (nth s cpe_edges (0, 0)) /\ snd (nth s cpe_edges (0, 0)) < 2 * 8 /\
  forall k, k < 2 * 8 -> (dest cpe_next k = s <-> k = fst (nth s cpe_edges (0, 0)) \/ k = snd (nth s cpe_edges (0, 0))).
Proof.
  assert (B : forallb (fun s => (fst (nth s cpe_edges (0, 0)) <? snd (nth s cpe_edges (0, 0))) && (snd (nth s cpe_edges (0, 0)) <? 16) &&
     forallb (fun k => Bool.eqb (dest cpe_next k =? s) ((k =? fst (nth s cpe_edges (0, 0))) || (k =? snd (nth s cpe_edges (0, 0))))) (seq 0 16)) (seq 0 8) = true)
    by (vm_compute; reflexivity).
  intros s Hs. rewrite forallb_forall in B. specialize (B s (proj2 (in_seq 8 0 s) ltac:(lia))).
  apply andb_prop in B. destruct B as [B B3]. apply andb_prop in B. destruct B as [B1 B2].
  apply Nat.ltb_lt in B1. apply Nat.ltb_lt in B2. split; auto. split; auto. intros k Hk. rewrite forallb_forall in B3.
  specialize (B3 k (proj2 (in_seq 16 0 k) ltac:(lia))). apply eqb_prop in B3. rewrite <- !Nat.eqb_eq, B3, orb_true_iff. tauto.
Qed.
