(** C92: the constellations. *)
From Coq Require Import List Arith Bool ZArith Reals Lra Lia.
From Verif Require Import Base WLoops ModemModel ModemProofs ModemReal ModemGray.
Import ListNotations.
Local Open Scope nat_scope.

(* ------------------------------------------------------------------ *)
(** * What is expected from a constellation *)

Notation point := (R * R)%type.
Definition dist2 (p q : point) : R := ((fst p - fst q) * (fst p - fst q) + (snd p - snd q) * (snd p - snd q))%R.
Definition energy (l : list point) : R := fold_right Rplus 0%R (map (fun p => dist2 p (0, 0)%R) l).
(** The mean of the squared moduli is one. *)
Definition unit_energy (l : list point) : Prop := (energy l / INR (length l) = 1)%R.
(** The labels i and j of n bits differ in one bit. *)
Definition differ_in_one (n i j : nat) : Prop :=
  exists l, l < n /\ Nat.testbit i l <> Nat.testbit j l /\ forall l', l' < n -> l' <> l -> Nat.testbit i l' = Nat.testbit j l'.
(** Symbols at the smallest distance of the constellation have labels that differ in one bit. *)
Definition gray (n : nat) (l : list point) : Prop :=
  let p i := nth i l (0, 0)%R in
  forall i j, i < 2 ^ n -> j < 2 ^ n -> i <> j ->
    (forall i' j', i' < 2 ^ n -> j' < 2 ^ n -> i' <> j' -> (dist2 (p i) (p j) <= dist2 (p i') (p j'))%R) -> differ_in_one n i j.
(** The k-th of m equally spaced numbers, step 2 d, centred on zero. *)
Definition level (m k : nat) (d : R) : R := ((2 * INR k - (INR m - 1)) * d)%R.

(* ------------------------------------------------------------------ *)
(** * Helpers *)

Notation CR := (cstl RA).
Lemma amplitude_ok : forall bits o n, 0 < n -> o + n <= length bits ->
  amplitude RA bits o n = Ret (IZR (amp (fun l => nth (o + l) bits false) n)).
Proof.
  intros bits o n Hn L. unfold amplitude. rewrite (rd_ok _ false) by lia. cbn [bind].
  assert (PM : forall b, pm RA b = IZR (sg b)) by (intros [|]; unfold pm, sg; cbn [RA sub add ofZ]; lra).
  match goal with |- for_from 1 _ ?body ?s0 = _ =>
    destruct (for_from_inv _ (fun t s => s = IZR (amp (fun l => nth (o + l) bits false) t)) (n - 1) 1 body s0) as (r & E & I) end.
  - rewrite PM. cbn [amp Z.of_nat Z.pow]. rewrite Nat.add_0_r. f_equal. lia.
  - intros t s Ht I. cbv beta in I. subst s. rewrite (rd_ok _ false) by lia. cbn [bind]. eexists. split; [reflexivity|].
    rewrite PM. cbn [RA mul sub ofZ]. cbn [amp]. rewrite mult_IZR, minus_IZR. reflexivity.
  - etransitivity; [exact E|]. f_equal. cbv beta in I. rewrite I. f_equal. f_equal. lia.
Qed.
Lemma make_ok : forall (x : point) n, make_cstl RA (repeat x (2 ^ n)) = Ret (mkC RA n (repeat x (2 ^ n)) true).
Proof.
  intros x n. unfold make_cstl. rewrite repeat_length. pose proof (Nat.pow_nonzero 2 n ltac:(lia)).
  destruct (Nat.eqb_spec (2 ^ n) 0); [lia|]. cbv zeta. unfold n_symbs. cbn [c_bps]. rewrite Nat.log2_pow2 by lia. rewrite Nat.eqb_refl. reflexivity.
Qed.
Lemma build_ok : forall b2s n (sy : list point) cp (F : nat -> point), length sy = 2 ^ n ->
  (forall j, j < 2 ^ n -> b2s (tab n (fun l => Nat.testbit j l)) = Ret (F j)) ->
  build RA b2s (mkC RA n sy cp) = Ret (mkC RA n (tab (2 ^ n) F) (has_complex RA (tab (2 ^ n) F))).
Proof.
  intros b2s n sy cp F L HF. unfold build, n_symbs. cbn [c_bps c_sym].
  rewrite (for1_fill point (0, 0)%R F (fun j => j)).
  - cbn [bind]. rewrite L. reflexivity.
  - intros i x Hi Lx. split; [lia|]. rewrite HF by auto. reflexivity.
  - intros q Hq. exists q. split; [lia|auto].
Qed.
Lemma bits_tab : forall n j o m, o + m <= n -> amp (fun l => nth (o + l) (tab n (fun l => Nat.testbit j l)) false) m = amp (fun l => Nat.testbit j (o + l)) m.
Proof. intros n j o m H. apply amp_ext. intros l Hl. rewrite nth_tab by lia. reflexivity. Qed.

Lemma label_of : forall n (b : nat -> bool), exists j, j < 2 ^ n /\ forall l, l < n -> Nat.testbit j l = b l.
Proof.
  intros n b. exists (lbl (tab n b) 0 n). split; [apply lbl_lt|]. intros l Hl. rewrite lbl_bits.
  destruct (Nat.ltb_spec l n); [|lia]. cbn [andb Nat.add]. apply nth_tab. auto.
Qed.
Lemma same_label : forall n i j, i < 2 ^ n -> j < 2 ^ n -> (forall l, l < n -> Nat.testbit i l = Nat.testbit j l) -> i = j.
Proof.
  intros n i j Hi Hj H. apply Nat.bits_inj. intros l. destruct (Nat.lt_ge_cases l n); [auto|].
  rewrite (testbit_above i n l), (testbit_above j n l); auto.
Qed.
Lemma ampl_inj : forall n i j, i < 2 ^ n -> j < 2 ^ n -> ampl i n = ampl j n -> i = j.
Proof. intros n i j Hi Hj E. apply (same_label n); auto. apply amp_inj. exact E. Qed.
Lemma ampl_onto : forall n v, 0 < n -> Z.odd v = true -> (Z.abs v < 2 ^ Z.of_nat n)%Z -> exists j, j < 2 ^ n /\ ampl j n = v.
Proof.
  intros n v Hn O R. destruct (amp_onto n v Hn O R) as [b Hb]. destruct (label_of n b) as (j & Hj & Bj). exists j. split; auto.
  unfold ampl. rewrite <- Hb. apply amp_ext. auto.
Qed.
Lemma INR_pow : forall n, INR (2 ^ n) = IZR (2 ^ Z.of_nat n).
Proof. intros n. rewrite INR_IZR_INZ, pow_nat. reflexivity. Qed.
Lemma pow_ge2 : forall n, 0 < n -> (2 <= 2 ^ Z.of_nat n)%Z.
Proof. intros [|n] H; [lia|]. rewrite pow_S. pose proof (pow_posZ n). lia. Qed.

(** The integers behind the levels. *)
Lemma levels : forall n x d, 0 < n -> (exists j, j < 2 ^ n /\ x = (IZR (ampl j n) * d)%R) <-> exists k, k < 2 ^ n /\ x = level (2 ^ n) k d.
Proof.
  intros n x d Hn. unfold level. split.
  - intros (j & Hj & ->). pose proof (amp_odd (Nat.testbit j) n Hn) as O. pose proof (amp_range (Nat.testbit j) n) as R. fold (ampl j n) in O, R.
    apply Z.odd_spec in O. destruct O as [t Et]. pose proof (pow_ge2 n Hn) as P2.
    assert (EP : exists q, (2 ^ Z.of_nat n = 2 * q)%Z) by (destruct n; [lia|]; rewrite pow_S; eexists; reflexivity). destruct EP as [q Eq].
    exists (Z.to_nat (t + q)). assert (B : (0 <= t + q < 2 ^ Z.of_nat n)%Z) by lia. split.
    + apply Nat2Z.inj_lt. rewrite Z2Nat.id, pow_nat by lia. lia.
    + rewrite INR_pow, INR_IZR_INZ, Z2Nat.id by lia. f_equal. rewrite Et, Eq. rewrite !plus_IZR, !mult_IZR. lra.
  - intros (k & Hk & ->). pose proof (pow_ge2 n Hn) as P2. apply Nat2Z.inj_lt in Hk. rewrite pow_nat in Hk.
    destruct (ampl_onto n (2 * Z.of_nat k - (2 ^ Z.of_nat n - 1)) Hn) as (j & Hj & Ej).
    + destruct n; [lia|]. rewrite pow_S. replace (2 * Z.of_nat k - (2 * 2 ^ Z.of_nat n - 1))%Z with (1 + 2 * (Z.of_nat k - 2 ^ Z.of_nat n))%Z by lia.
      rewrite Z.odd_add_mul_2. reflexivity.
    + lia.
    + exists j. split; auto. rewrite Ej, INR_pow, INR_IZR_INZ, !minus_IZR, mult_IZR. reflexivity.
Qed.

Lemma energy_tab : forall N (a b : nat -> Z) d,
  energy (tab N (fun j => (IZR (a j) * d, IZR (b j) * d))%R) = (IZR (sumZ (fun j => a j * a j + b j * b j)%Z N) * (d * d))%R.
Proof.
  intros N a b d. unfold energy, tab. rewrite map_map. induction N as [|N IH]; [cbn; lra|].
  rewrite seq_S, map_app. cbn [map Nat.add].
  assert (X : forall l x, fold_right Rplus 0%R (l ++ [x]) = (fold_right Rplus 0%R l + x)%R) by (induction l as [|y l IHl]; intros x; cbn; [lra|rewrite IHl; lra]).
  rewrite X, IH. cbn [sumZ]. rewrite plus_IZR, plus_IZR, !mult_IZR. unfold dist2. cbn [fst snd]. lra.
Qed.
Lemma dist2_grid : forall a b a' b' d, dist2 (IZR a * d, IZR b * d)%R (IZR a' * d, IZR b' * d)%R =
  (IZR ((a - a') * (a - a') + (b - b') * (b - b'))%Z * (d * d))%R.
Proof. intros. unfold dist2. cbn [fst snd]. rewrite plus_IZR, !mult_IZR, !minus_IZR. ring. Qed.
Lemma nodup_tab : forall N (F : nat -> point), (forall i j, i < N -> j < N -> F i = F j -> i = j) -> NoDup (tab N F).
Proof.
  intros N F H. apply (NoDup_nth _ (0, 0)%R). rewrite length_tab. intros i j Hi Hj E. rewrite !nth_tab in E by auto. auto.
Qed.
Lemma in_tab : forall N (F : nat -> point) p, In p (tab N F) <-> exists j, j < N /\ p = F j.
Proof.
  intros N F p. unfold tab. rewrite in_map_iff. split.
  - intros (j & E & Hj). apply in_seq in Hj. exists j. split; [lia|auto].
  - intros (j & Hj & E). exists j. split; auto. apply in_seq. lia.
Qed.

(* ------------------------------------------------------------------ *)
(** * PAM *)

Lemma pam_value : forall es n, 0 < n -> es <> 0%R ->
  pam RA es n = Ret (mkC RA n (tab (2 ^ n) (fun j => (IZR (ampl j n) * / es, IZR 0 * / es)%R)) false).
Proof.
  intros es n Hn He. unfold pam. cbn [RA ofZ]. rewrite make_ok. cbn [bind].
  rewrite (build_ok _ n _ _ (fun j => (IZR (ampl j n) * / es, IZR 0 * / es)%R)).
  - f_equal. f_equal. unfold has_complex. match goal with |- ?e = false => destruct e eqn:E; [|reflexivity] end.
    apply existsb_exists in E. destruct E as (p & Hp & Ep). apply in_tab in Hp. destruct Hp as (j & _ & ->). cbn [RA snd neq ofZ] in Ep.
    destruct (Req_EM_T (0 * / es) 0) as [|F]; [discriminate|]. exfalso. apply F. lra.
  - apply repeat_length.
  - intros j Hj. rewrite amplitude_ok by (rewrite ?length_tab; lia). rewrite bits_tab by lia. cbn [bind RA dvd ofZ]. f_equal. f_equal. lra.
Qed.

Lemma pam_root : forall n, 1 <= n <= 15 ->
  exists es, (0 < es)%R /\ (es * es = (IZR (2 ^ Z.of_nat n) * IZR (2 ^ Z.of_nat n) - 1) / 3)%R /\ pam_new n = pam RA es n.
Proof.
  intros n Hn. unfold pam_new, umul, root. rewrite pow_nat. pose proof (pow_ge2 n ltac:(lia)) as P2.
  assert (PL : (2 ^ Z.of_nat n <= 2 ^ 15)%Z) by (apply Z.pow_le_mono_r; lia).
  rewrite Z.mod_small by (change (2 ^ 32)%Z with (2 ^ 16 * 2 ^ 16)%Z; change (2 ^ 16)%Z with (2 * 2 ^ 15)%Z; set (P := (2 ^ Z.of_nat n)%Z) in *; set (B := (2 ^ 15)%Z) in *; nia).
  rewrite mult_IZR. apply IZR_le in P2. set (P := IZR (2 ^ Z.of_nat n)) in *.
  assert (G : (0 < (P * P - 1) / 3)%R) by nra.
  destruct (Rlt_dec ((P * P - 1) / 3) 0) as [F|F]; [exfalso; clear - F G; lra|]. cbn [bind]. exists (sqrt ((P * P - 1) / 3)). split; [apply sqrt_lt_R0; auto|].
  split; auto. apply sqrt_sqrt. clear - G. lra.
Qed.

(** For 1 to 15 bits per symbol: 2^n different equally spaced real symbols centred on zero, of unit mean energy, with Gray
    labels. *)
Theorem C92_pam : forall n, 1 <= n <= 15 ->
  exists c d, pam_new n = Ret c /\ c_bps RA c = n /\ c_cplx RA c = false /\ length (c_sym RA c) = 2 ^ n /\ (0 < d)%R /\
    (forall p, In p (c_sym RA c) <-> exists k, k < 2 ^ n /\ p = (level (2 ^ n) k d, 0%R)) /\
    NoDup (c_sym RA c) /\ unit_energy (c_sym RA c) /\ gray n (c_sym RA c).
Proof.
  intros n Hn. destruct (pam_root n Hn) as (es & He & Ee & Ec). pose proof (pow_ge2 n ltac:(lia)) as P2.
  exists (mkC RA n (tab (2 ^ n) (fun j => (IZR (ampl j n) * / es, IZR 0 * / es)%R)) false), (/ es)%R.
  assert (Hd : (0 < / es)%R) by (apply Rinv_0_lt_compat; auto).
  assert (Inj : forall i j, i < 2 ^ n -> j < 2 ^ n -> (IZR (ampl i n) * / es, IZR 0 * / es)%R = (IZR (ampl j n) * / es, IZR 0 * / es)%R -> i = j).
  { intros i j Hi Hj E. apply (ampl_inj n); auto. assert (E1 : (IZR (ampl i n) * / es = IZR (ampl j n) * / es)%R) by congruence.
    apply Rmult_eq_reg_r in E1; [apply eq_IZR; auto|lra]. }
  split; [rewrite Ec; apply pam_value; [lia|lra]|]. cbn [c_bps c_cplx c_sym]. split; auto. split; auto.
  split; [apply length_tab|]. split; auto. split; [|split; [|split]].
  - intros p. rewrite in_tab. split.
    + intros (j & Hj & ->). destruct (proj1 (levels n (IZR (ampl j n) * / es) (/ es) ltac:(lia))) as (k & Hk & Ek); [eauto|].
      exists k. split; auto. rewrite Ek. f_equal. lra.
    + intros (k & Hk & ->). destruct (proj2 (levels n (level (2 ^ n) k (/ es)) (/ es) ltac:(lia))) as (j & Hj & Ej); [eauto|].
      exists j. split; auto. rewrite Ej. f_equal. lra.
  - apply nodup_tab. auto.
  - unfold unit_energy. rewrite energy_tab, length_tab. rewrite (sumZ_ext _ (fun j => ampl j n * ampl j n)%Z) by (intros; lia).
    pose proof (sum_amp2 n) as S2. apply (f_equal IZR) in S2. rewrite !mult_IZR, minus_IZR, mult_IZR in S2.
    rewrite INR_pow. apply IZR_le in P2. set (P := IZR (2 ^ Z.of_nat n)) in *. set (S := IZR (sumZ _ _)) in *.
    assert (ES : S = (P * (P * P - 1) / 3)%R) by lra. rewrite ES. rewrite <- Rinv_mult, Ee. assert (PP : (0 < P * P - 1)%R) by nra. field. split; apply Rgt_not_eq; lra.
  - unfold gray. cbv zeta. intros i j Hi Hj Dij Near.
    destruct (ampl_onto n 1 ltac:(lia) eq_refl ltac:(lia)) as (i0 & Hi0 & E0). destruct (ampl_onto n (-1) ltac:(lia) eq_refl ltac:(lia)) as (j0 & Hj0 & F0).
    assert (D0 : i0 <> j0) by (intros ->; lia).
    specialize (Near i0 j0 Hi0 Hj0 D0). rewrite !nth_tab in Near by auto. rewrite !dist2_grid, E0, F0 in Near.
    apply Rmult_le_reg_r in Near; [|nra]. apply le_IZR in Near.
    apply amp_gray. fold (ampl i n) (ampl j n).
    pose proof (amp_odd (Nat.testbit i) n ltac:(lia)) as O1. pose proof (amp_odd (Nat.testbit j) n ltac:(lia)) as O2. fold (ampl i n) in O1. fold (ampl j n) in O2.
    assert (NE : ampl i n <> ampl j n) by (intros F; apply Dij; apply (ampl_inj n); auto).
    apply Z.odd_spec in O1. apply Z.odd_spec in O2. destruct O1 as [u Hu], O2 as [v Hv]. rewrite Hu, Hv in *.
    replace (2 * u + 1 - (2 * v + 1))%Z with (2 * (u - v))%Z in * by lia. set (w := (u - v)%Z) in *.
    assert (w <> 0)%Z by (unfold w; lia). assert (-1 <= w <= 1)%Z by nia. lia.
Qed.

(** With 16 bits per symbol the square of the number of symbols overflows and the symbols are not numbers; without bits the
    constructor reads outside of its buffer. *)
Theorem C92_pam_refuted : pam_new 16 = Undef /\ pam_new 0 = Undef.
Proof.
  split.
  - unfold pam_new, umul, root. rewrite pow_nat. replace ((2 ^ Z.of_nat 16 * 2 ^ Z.of_nat 16) mod 2 ^ 32)%Z with 0%Z by reflexivity.
    destruct (Rlt_dec ((0 - 1) / 3) 0) as [|F]; [reflexivity|]. exfalso. apply F. lra.
  - unfold pam_new, umul, root. rewrite pow_nat. replace ((2 ^ Z.of_nat 0 * 2 ^ Z.of_nat 0) mod 2 ^ 32)%Z with 1%Z by reflexivity.
    destruct (Rlt_dec ((1 - 1) / 3) 0) as [|F]; reflexivity.
Qed.

(* ------------------------------------------------------------------ *)
(** * QAM *)

Definition qamp (j h : nat) : Z := amp (fun l => Nat.testbit j (h + l)) h.
Lemma qam_value : forall es h, 0 < h -> (0 < es)%R ->
  qam RA es (2 * h) = Ret (mkC RA (2 * h) (tab (2 ^ (2 * h)) (fun j => (IZR (ampl j h) * / es, IZR (qamp j h) * / es)%R)) true).
Proof.
  intros es h Hh He. unfold qam. cbn [RA ofZ]. rewrite make_ok. cbn [bind].
  rewrite (build_ok _ (2 * h) _ _ (fun j => (IZR (ampl j h) * / es, IZR (qamp j h) * / es)%R)).
  - f_equal. f_equal. unfold has_complex. apply existsb_exists. eexists. split.
    + apply in_tab. exists 0. split; [|reflexivity]. pose proof (Nat.pow_nonzero 2 (2 * h) ltac:(lia)). lia.
    + cbn [RA snd neq ofZ]. destruct (Req_EM_T (IZR (qamp 0 h) * / es) 0) as [F|]; [|reflexivity]. exfalso.
      apply Rmult_integral in F. destruct F as [F|F]; [|pose proof (Rinv_0_lt_compat es He); lra].
      apply eq_IZR in F. pose proof (amp_odd (fun l => Nat.testbit 0 (h + l)) h Hh) as O. fold (qamp 0 h) in O. rewrite F in O. discriminate.
  - apply repeat_length.
  - intros j Hj. replace (2 * h / 2) with h by (symmetry; apply div2_even).
    rewrite !amplitude_ok by (rewrite ?length_tab; lia). rewrite !bits_tab by lia. reflexivity.
Qed.

Lemma sumZ_prod : forall f m n, sumZ f (n * m) = sumZ (fun hi => sumZ (fun lo => f (hi * m + lo)%nat) m) n.
Proof.
  intros f m. induction n as [|n IH]; [reflexivity|]. cbn [sumZ]. rewrite <- IH. rewrite Nat.mul_succ_l, sumZ_app. reflexivity.
Qed.
Lemma digits : forall h hi lo, lo < 2 ^ h -> ampl (hi * 2 ^ h + lo) h = ampl lo h /\ qamp (hi * 2 ^ h + lo) h = ampl hi h.
Proof.
  intros h hi lo H. pose proof (Nat.pow_nonzero 2 h ltac:(lia)) as NZ.
  split; apply amp_ext; intros l Hl.
  - rewrite <- (Nat.mod_pow2_bits_low _ h) by auto. rewrite Nat.add_comm, Nat.mod_add, Nat.mod_small by auto. reflexivity.
  - rewrite (Nat.add_comm h l). rewrite <- Nat.div_pow2_bits. rewrite Nat.div_add_l, Nat.div_small, Nat.add_0_r by auto. reflexivity.
Qed.
Lemma qam_sum : forall h, (3 * sumZ (fun j => ampl j h * ampl j h + qamp j h * qamp j h) (2 ^ (2 * h)) =
  2 ^ Z.of_nat (2 * h) * (2 * (2 ^ Z.of_nat (2 * h) - 1)))%Z.
Proof.
  intros h. replace (2 ^ (2 * h)) with (2 ^ h * 2 ^ h) by (rewrite <- Nat.pow_add_r; f_equal; lia).
  rewrite sumZ_prod. set (S2 := sumZ (fun j => ampl j h * ampl j h)%Z (2 ^ h)).
  rewrite (sumZ_ext _ (fun hi => 1 * S2 + 2 ^ Z.of_nat h * (ampl hi h * ampl hi h))%Z).
  - rewrite (sumZ_lin (fun _ => S2) (fun hi => ampl hi h * ampl hi h)%Z). fold S2. rewrite sumZ_const, pow_nat.
    pose proof (sum_amp2 h) as E. fold S2 in E. replace (Z.of_nat (2 * h)) with (Z.of_nat h + Z.of_nat h)%Z by lia. rewrite Z.pow_add_r by lia.
    set (P := (2 ^ Z.of_nat h)%Z) in *. nia.
  - intros hi Hhi. rewrite (sumZ_ext _ (fun lo => 1 * (ampl lo h * ampl lo h) + (ampl hi h * ampl hi h) * 1)%Z).
    + rewrite (sumZ_lin (fun lo => ampl lo h * ampl lo h)%Z (fun _ => 1%Z)). fold S2. rewrite sumZ_const, pow_nat. lia.
    + intros lo Hlo. destruct (digits h hi lo Hlo) as [-> ->]. lia.
Qed.
Lemma qam_inj : forall h i j, i < 2 ^ (2 * h) -> j < 2 ^ (2 * h) -> ampl i h = ampl j h -> qamp i h = qamp j h -> i = j.
Proof.
  intros h i j Hi Hj E1 E2. apply (same_label (2 * h)); auto. intros l Hl. destruct (Nat.lt_ge_cases l h).
  - apply (amp_inj h); auto.
  - pose proof (amp_inj h _ _ E2 (l - h) ltac:(lia)) as X. cbv beta in X. replace (h + (l - h)) with l in X by lia. exact X.
Qed.
Lemma qam_onto : forall h a b, 0 < h -> Z.odd a = true -> Z.odd b = true -> (Z.abs a < 2 ^ Z.of_nat h)%Z -> (Z.abs b < 2 ^ Z.of_nat h)%Z ->
  exists j, j < 2 ^ (2 * h) /\ ampl j h = a /\ qamp j h = b.
Proof.
  intros h a b Hh Oa Ob Ra Rb. destruct (ampl_onto h a Hh Oa Ra) as (i & Hi & Ei). destruct (ampl_onto h b Hh Ob Rb) as (k & Hk & Ek).
  exists (k * 2 ^ h + i). split.
  - replace (2 ^ (2 * h)) with (2 ^ h * 2 ^ h) by (rewrite <- Nat.pow_add_r; f_equal; lia). nia.
  - destruct (digits h k i Hi) as [-> ->]. auto.
Qed.

(** For an even number n = 2 h of bits per symbol: the symbols are the 2^n points of a square grid of 2^h by 2^h equally spaced
    levels centred on zero, all different, of unit mean energy, with Gray labels. *)
Theorem C92_qam : forall h, 0 < h -> let n := 2 * h in
  exists c d, qam_new n = Ret c /\ c_bps RA c = n /\ c_cplx RA c = true /\ length (c_sym RA c) = 2 ^ n /\ (0 < d)%R /\
    (forall p, In p (c_sym RA c) <-> exists k l, k < 2 ^ h /\ l < 2 ^ h /\ p = (level (2 ^ h) k d, level (2 ^ h) l d)) /\
    NoDup (c_sym RA c) /\ unit_energy (c_sym RA c) /\ gray n (c_sym RA c).
Proof.
  intros h Hh n. pose proof (pow_ge2 n ltac:(unfold n; lia)) as P2. pose proof (pow_ge2 h Hh) as P2h.
  assert (G : (0 < 2 * (INR (2 ^ n) - 1) / 3)%R) by (rewrite INR_pow; apply IZR_le in P2; set (P := IZR (2 ^ Z.of_nat n)) in *; lra).
  set (es := sqrt (2 * (INR (2 ^ n) - 1) / 3)). assert (He : (0 < es)%R) by (apply sqrt_lt_R0; auto).
  assert (Ee : (es * es = 2 * (IZR (2 ^ Z.of_nat n) - 1) / 3)%R) by (rewrite <- INR_pow; apply sqrt_sqrt; lra).
  exists (mkC RA n (tab (2 ^ n) (fun j => (IZR (ampl j h) * / es, IZR (qamp j h) * / es)%R)) true), (/ es)%R.
  assert (Hd : (0 < / es)%R) by (apply Rinv_0_lt_compat; auto).
  split. { unfold qam_new, root. destruct (Rlt_dec (2 * (INR (2 ^ n) - 1) / 3) 0) as [F|F]; [exfalso; lra|]. cbn [bind]. apply qam_value; auto. }
  cbn [c_bps c_cplx c_sym]. split; auto. split; auto. split; [apply length_tab|]. split; auto. split; [|split; [|split]].
  - intros p. rewrite in_tab. split.
    + intros (j & Hj & ->). destruct (proj1 (levels h (IZR (ampl j h) * / es) (/ es) Hh)) as (k & Hk & Ek).
      { pose proof (Nat.pow_nonzero 2 h ltac:(lia)) as NZ. exists (j mod 2 ^ h). split; [apply Nat.mod_upper_bound; auto|]. f_equal. f_equal.
        apply amp_ext. intros l Hl. rewrite Nat.mod_pow2_bits_low by auto. reflexivity. }
      destruct (proj1 (levels h (IZR (qamp j h) * / es) (/ es) Hh)) as (l & Hl & El).
      { exists (j / 2 ^ h). split.
        - apply Nat.div_lt_upper_bound; [apply Nat.pow_nonzero; lia|]. rewrite <- Nat.pow_add_r. replace (h + h) with n by (unfold n; lia). auto.
        - f_equal. f_equal. apply amp_ext. intros l Hl. rewrite Nat.div_pow2_bits, Nat.add_comm. reflexivity. }
      exists k, l. split; auto. split; auto. rewrite Ek, El. reflexivity.
    + intros (k & l & Hk & Hl & ->).
      destruct (proj2 (levels h (level (2 ^ h) k (/ es)) (/ es) Hh)) as (i & Hi & Ei); [eauto|].
      destruct (proj2 (levels h (level (2 ^ h) l (/ es)) (/ es) Hh)) as (q & Hq & Eq); [eauto|].
      exists (q * 2 ^ h + i). destruct (digits h q i Hi) as [D1 D2]. rewrite D1, D2, Ei, Eq. split; auto.
      unfold n. replace (2 ^ (2 * h)) with (2 ^ h * 2 ^ h) by (rewrite <- Nat.pow_add_r; f_equal; lia). nia.
  - apply nodup_tab. intros i j Hi Hj E. apply (qam_inj h); auto; apply eq_IZR; apply (Rmult_eq_reg_r (/ es)); try lra; congruence.
  - unfold unit_energy. rewrite energy_tab, length_tab.
    pose proof (qam_sum h) as S2. apply (f_equal IZR) in S2. rewrite !mult_IZR, minus_IZR in S2. fold n in S2.
    rewrite INR_pow. apply IZR_le in P2. set (P := IZR (2 ^ Z.of_nat n)) in *. set (S := IZR (sumZ _ _)) in *.
    assert (ES : S = (P * (2 * (P - 1)) / 3)%R) by lra. rewrite ES. rewrite <- Rinv_mult, Ee. field. split; apply Rgt_not_eq; lra.
  - unfold gray. cbv zeta. intros i j Hi Hj Dij Near.
    destruct (qam_onto h 1 1 Hh eq_refl eq_refl ltac:(lia) ltac:(lia)) as (i0 & Hi0 & E0 & E1).
    destruct (qam_onto h (-1) 1 Hh eq_refl eq_refl ltac:(lia) ltac:(lia)) as (j0 & Hj0 & F0 & F1).
    fold n in Hi0, Hj0. assert (D0 : i0 <> j0) by (intros ->; lia).
    specialize (Near i0 j0 Hi0 Hj0 D0). rewrite !nth_tab in Near by auto. rewrite !dist2_grid, E0, F0, E1, F1 in Near.
    apply Rmult_le_reg_r in Near; [|nra]. apply le_IZR in Near.
    assert (OD : forall b b', Z.odd (amp b h) = true /\ Z.odd (amp b' h) = true -> exists w, (amp b h - amp b' h = 2 * w)%Z).
    { intros b b' [O1 O2]. apply Z.odd_spec in O1. apply Z.odd_spec in O2. destruct O1 as [u Hu], O2 as [v Hv]. exists (u - v)%Z. lia. }
    destruct (OD (Nat.testbit i) (Nat.testbit j)) as [u Hu]; [split; apply amp_odd; auto|].
    destruct (OD (fun l => Nat.testbit i (h + l)) (fun l => Nat.testbit j (h + l))) as [v Hv]; [split; apply amp_odd; auto|].
    fold (ampl i h) (ampl j h) in Hu. fold (qamp i h) (qamp j h) in Hv. rewrite Hu, Hv in Near.
    assert (NE : ~ (u = 0 /\ v = 0)%Z) by (intros [-> ->]; apply Dij; apply (qam_inj h); auto; lia).
    assert (UV : (Z.abs u = 1 /\ v = 0 \/ u = 0 /\ Z.abs v = 1)%Z) by (assert (-1 <= u <= 1)%Z by nia; assert (-1 <= v <= 1)%Z by nia; nia).
    destruct UV as [[U V]|[U V]].
    + destruct (amp_gray h (Nat.testbit i) (Nat.testbit j)) as (l & L1 & L2 & L3); [fold (ampl i h) (ampl j h); lia|].
      exists l. split; [unfold n; lia|]. split; auto. intros l' H1 H2. destruct (Nat.lt_ge_cases l' h); [apply L3; auto|].
      pose proof (amp_inj h (fun l => Nat.testbit i (h + l)) (fun l => Nat.testbit j (h + l)) ltac:(fold (qamp i h) (qamp j h); lia) (l' - h) ltac:(unfold n in *; lia)) as X.
      cbv beta in X. replace (h + (l' - h)) with l' in X by lia. exact X.
    + destruct (amp_gray h (fun l => Nat.testbit i (h + l)) (fun l => Nat.testbit j (h + l))) as (l & L1 & L2 & L3); [fold (qamp i h) (qamp j h); lia|].
      cbv beta in L2. exists (h + l). split; [unfold n; lia|]. split; auto. intros l' H1 H2. destruct (Nat.lt_ge_cases l' h).
      * apply (amp_inj h); auto. fold (ampl i h) (ampl j h). lia.
      * specialize (L3 (l' - h) ltac:(unfold n in *; lia) ltac:(lia)). cbv beta in L3. replace (h + (l' - h)) with l' in L3 by lia. exact L3.
Qed.

(** For an odd number of bits per symbol, the last bit does not change the symbol: labels 0 and 2^(n-1) have the same symbol.
    With one bit, the mean energy is 3. *)
Theorem C92_qam_odd_refuted : forall h, 0 < h -> let n := 2 * h + 1 in
  exists c, qam_new n = Ret c /\ nth 0 (c_sym RA c) (0, 0)%R = nth (2 ^ (2 * h)) (c_sym RA c) (0, 0)%R /\ 0 < 2 ^ (2 * h) < 2 ^ n.
Proof.
  intros h Hh n. unfold qam_new, root. pose proof (pow_ge2 n ltac:(unfold n; lia)) as P2. apply IZR_le in P2.
  destruct (Rlt_dec (2 * (INR (2 ^ n) - 1) / 3) 0) as [F|F]; [exfalso; rewrite INR_pow in F; lra|]. cbn [bind].
  set (es := sqrt _). unfold qam. cbn [RA ofZ]. rewrite make_ok. cbn [bind].
  rewrite (build_ok _ n _ _ (fun j => (IZR (ampl j h) / es, IZR (qamp j h) / es)%R)).
  - eexists. split; [reflexivity|]. cbn [c_sym].
    assert (LT : 2 ^ (2 * h) < 2 ^ n) by (apply Nat.pow_lt_mono_r; unfold n; lia). pose proof (Nat.pow_nonzero 2 (2 * h) ltac:(lia)).
    rewrite !nth_tab by lia. split; [|lia].
    assert (X : forall l, l < 2 * h -> Nat.testbit 0 l = Nat.testbit (2 ^ (2 * h)) l) by (intros l Hl; rewrite Nat.bits_0, testbit_pow2; destruct (Nat.eqb_spec l (2 * h)); [lia|auto]).
    f_equal; f_equal; f_equal; apply amp_ext; intros l Hl; apply X; lia.
  - apply repeat_length.
  - intros j Hj. replace (n / 2) with h by (unfold n; symmetry; apply div2_odd).
    rewrite !amplitude_ok by (rewrite ?length_tab; unfold n; lia). rewrite !bits_tab by (unfold n; lia). reflexivity.
Qed.
Theorem C92_qam_one_refuted : exists c, qam_new 1 = Ret c /\ (energy (c_sym RA c) / INR (length (c_sym RA c)) = 3)%R.
Proof.
  unfold qam_new, root. change (2 ^ 1) with 2. destruct (Rlt_dec (2 * (INR 2 - 1) / 3) 0) as [F|F]; [exfalso; cbn in F; lra|]. cbn [bind].
  set (es := sqrt _). assert (Ee : (es * es = 2 / 3)%R) by (unfold es; cbn [INR]; rewrite sqrt_sqrt; lra).
  assert (He : (es <> 0)%R) by (intros Z; rewrite Z in Ee; lra).
  unfold qam. cbn [RA ofZ]. rewrite make_ok. cbn [bind].
  rewrite (build_ok _ 1 _ _ (fun j => (IZR (ampl j 1) * / es, IZR (ampl j 1) * / es)%R)).
  - eexists. split; [reflexivity|]. cbn [c_sym]. rewrite energy_tab, length_tab.
    replace (sumZ (fun j => ampl j 1 * ampl j 1 + ampl j 1 * ampl j 1)%Z (2 ^ 1)) with 4%Z by reflexivity. change (2 ^ 1) with 2. cbn [INR].
    rewrite <- Rinv_mult, Ee. field.
  - reflexivity.
  - intros j Hj. change (2 ^ 1) with 2 in Hj. destruct j as [|[|j]]; [| |lia]; cbn; f_equal; f_equal; unfold Rdiv; f_equal; lra.
Qed.

(* ------------------------------------------------------------------ *)
(** * PSK *)

(** The angle of amplitude a. *)
Definition angle (n : nat) (a : Z) : R := ((IZR a + 1) * PI / INR (2 ^ n))%R.
Definition circle (x : R) : point := (cos x, sin x).
Lemma psk_value : forall n, 0 < n ->
  psk_new n = Ret (mkC RA n (tab (2 ^ n) (fun j => circle (angle n (ampl j n)))) (has_complex RA (tab (2 ^ n) (fun j => circle (angle n (ampl j n)))))).
Proof.
  intros n Hn. unfold psk_new. rewrite make_ok. cbn [bind]. apply build_ok; [apply repeat_length|].
  intros j Hj. rewrite amplitude_ok by (rewrite ?length_tab; lia). rewrite bits_tab by lia. reflexivity.
Qed.
Lemma circle_turn : forall x, circle (x + 2 * PI) = circle x.
Proof. intros x. unfold circle. rewrite cos_plus, sin_plus, cos_2PI, sin_2PI. f_equal; lra. Qed.
Lemma dist2_circle : forall x y, dist2 (circle x) (circle y) = (4 * (sin ((x - y) / 2) * sin ((x - y) / 2)))%R.
Proof.
  intros x y. unfold dist2, circle. cbn [fst snd].
  assert (E : cos (x - y) = (1 - 2 * sin ((x - y) / 2) * sin ((x - y) / 2))%R).
  { rewrite <- cos_2a_sin. f_equal. lra. }
  rewrite cos_minus in E. pose proof (sin2_cos2 x) as X. pose proof (sin2_cos2 y) as Y. unfold Rsqr in X, Y.
  set (s := sin ((x - y) / 2)) in *. set (cx := cos x) in *. set (cy := cos y) in *. set (sx := sin x) in *. set (sy := sin y) in *. nra.
Qed.
Lemma energy_circle : forall N (f : nat -> R), energy (tab N (fun j => circle (f j))) = INR N.
Proof.
  intros N f. unfold energy, tab. rewrite map_map. induction N as [|N IH]; [reflexivity|].
  rewrite seq_S, map_app. cbn [map Nat.add].
  assert (X : forall l x, fold_right Rplus 0%R (l ++ [x]) = (fold_right Rplus 0%R l + x)%R) by (induction l as [|y l IHl]; intros x; cbn; [lra|rewrite IHl; lra]).
  rewrite X, IH, S_INR. unfold dist2, circle. cbn [fst snd]. pose proof (sin2_cos2 (f N)) as Y. unfold Rsqr in Y. lra.
Qed.

(** The chord of a d-th of m turns. *)
Definition chord (m d : Z) : R := sin (PI * IZR d / IZR m).
Lemma chord_pos : forall m d, (0 < d < m)%Z -> (0 < chord m d)%R.
Proof.
  intros m d H. unfold chord. pose proof PI_RGT_0 as P. destruct H as [H1 H2]. apply IZR_lt in H1, H2.
  apply sin_gt_0.
  - apply Rdiv_lt_0_compat; [apply Rmult_lt_0_compat|]; lra.
  - apply (Rmult_lt_reg_r (IZR m)); [lra|]. unfold Rdiv. rewrite Rmult_assoc, Rinv_l by lra. nra.
Qed.
Lemma chord_sym : forall m d, (0 < m)%Z -> chord m (m - d) = chord m d.
Proof.
  intros m d H. unfold chord. apply IZR_lt in H. rewrite minus_IZR. rewrite <- (sin_PI_x (PI * IZR d / IZR m)). f_equal. field. lra.
Qed.
Lemma chord_grows : forall m d, (1 < d)%Z -> (2 * d <= m)%Z -> (chord m 1 < chord m d)%R.
Proof.
  intros m d H1 H2. unfold chord. pose proof PI_RGT_0 as P. assert (H0 : (2 < m)%Z) by lia. apply IZR_lt in H1, H0. apply IZR_le in H2. rewrite mult_IZR in H2.
  assert (L : forall x, (0 <= x)%R -> (2 * x <= IZR m)%R -> (- (PI / 2) <= PI * x / IZR m <= PI / 2)%R).
  { intros x X1 X2. split.
    - apply Rle_trans with 0%R; [lra|]. apply Rmult_le_pos; [apply Rmult_le_pos; lra|]. apply Rlt_le. apply Rinv_0_lt_compat. lra.
    - apply (Rmult_le_reg_r (IZR m)); [lra|]. replace (PI * x / IZR m * IZR m)%R with (PI * x)%R by (field; lra). nra. }
  destruct (L 1%R ltac:(lra) ltac:(lra)) as [A1 A2]. destruct (L (IZR d) ltac:(lra) ltac:(lra)) as [B1 B2].
  apply sin_increasing_1; auto. apply (Rmult_lt_reg_r (IZR m)); [lra|].
  replace (PI * 1 / IZR m * IZR m)%R with PI by (field; lra). replace (PI * IZR d / IZR m * IZR m)%R with (PI * IZR d)%R by (field; lra). nra.
Qed.
Lemma chord_least : forall m d, (0 < d < m)%Z -> (chord m d <= chord m 1)%R -> (d = 1 \/ d = m - 1)%Z.
Proof.
  intros m d H L. destruct (Z.eq_dec d 1) as [|D1]; [auto|]. destruct (Z.eq_dec d (m - 1)) as [|D2]; [auto|]. exfalso.
  destruct (Z.le_gt_cases (2 * d) m) as [A|A].
  - pose proof (chord_grows m d ltac:(lia) A). lra.
  - pose proof (chord_grows m (m - d) ltac:(lia) ltac:(lia)) as X. rewrite chord_sym in X by lia. lra.
Qed.

Lemma angle_half : forall n a b d, (a - b = 2 * d)%Z -> ((angle n a - angle n b) / 2 = PI * IZR d / IZR (2 ^ Z.of_nat n))%R.
Proof.
  intros n a b d E. unfold angle. rewrite INR_pow. pose proof (pow_posZ n) as P. apply IZR_lt in P. apply (f_equal IZR) in E. rewrite minus_IZR, mult_IZR in E.
  replace (IZR a) with (IZR b + 2 * IZR d)%R by lra. field. lra.
Qed.
Lemma chord_opp : forall m d, (chord m (- d) * chord m (- d) = chord m d * chord m d)%R.
Proof. intros m d. unfold chord. rewrite opp_IZR. replace (PI * - IZR d / IZR m)%R with (- (PI * IZR d / IZR m))%R by (unfold Rdiv; ring). rewrite sin_neg. ring. Qed.
Lemma dist2_psk : forall n i j, 0 < n -> exists d,
  (ampl i n - ampl j n = 2 * d)%Z /\ dist2 (circle (angle n (ampl i n))) (circle (angle n (ampl j n))) =
    (4 * (chord (2 ^ Z.of_nat n) (Z.abs d) * chord (2 ^ Z.of_nat n) (Z.abs d)))%R.
Proof.
  intros n i j Hn. pose proof (amp_odd (Nat.testbit i) n Hn) as O1. pose proof (amp_odd (Nat.testbit j) n Hn) as O2.
  fold (ampl i n) in O1. fold (ampl j n) in O2. apply Z.odd_spec in O1. apply Z.odd_spec in O2. destruct O1 as [u Hu], O2 as [v Hv].
  exists (u - v)%Z. assert (E : (ampl i n - ampl j n = 2 * (u - v))%Z) by lia. split; auto.
  rewrite dist2_circle, (angle_half n _ _ _ E). fold (chord (2 ^ Z.of_nat n) (u - v)).
  destruct (Z.abs_eq_or_opp (u - v)) as [W|W]; rewrite W; [reflexivity|]. rewrite chord_opp. reflexivity.
Qed.

(** The symbols are the 2^n points of the unit circle at the multiples of a 2^n-th of a turn, all different, of unit energy,
    with Gray labels (the circle included); the constellation is complex from two bits on. *)
Theorem C92_psk : forall n, 0 < n ->
  exists c, psk_new n = Ret c /\ c_bps RA c = n /\ (2 <= n -> c_cplx RA c = true) /\ length (c_sym RA c) = 2 ^ n /\
    (forall p, In p (c_sym RA c) <-> exists k, k < 2 ^ n /\ p = (cos (2 * PI * INR k / INR (2 ^ n)), sin (2 * PI * INR k / INR (2 ^ n)))%R) /\
    NoDup (c_sym RA c) /\ unit_energy (c_sym RA c) /\ gray n (c_sym RA c).
Proof.
  intros n Hn. rewrite psk_value by auto. eexists. split; [reflexivity|]. cbn [c_bps c_cplx c_sym]. split; auto.
  pose proof (pow_ge2 n Hn) as P2. pose proof PI_RGT_0 as PI0.
  assert (EP : exists q, (2 ^ Z.of_nat n = 2 * q)%Z) by (destruct n; [lia|]; rewrite pow_S; eexists; reflexivity). destruct EP as [q Eq].
  assert (Inj : forall i j, i < 2 ^ n -> j < 2 ^ n -> i <> j -> exists d,
    (ampl i n - ampl j n = 2 * d)%Z /\ (0 < Z.abs d < 2 ^ Z.of_nat n)%Z /\
    dist2 (circle (angle n (ampl i n))) (circle (angle n (ampl j n))) = (4 * (chord (2 ^ Z.of_nat n) (Z.abs d) * chord (2 ^ Z.of_nat n) (Z.abs d)))%R).
  { intros i j Hi Hj D. destruct (dist2_psk n i j Hn) as (d & Ed & DD). exists d. split; auto. split; auto.
    pose proof (amp_range (Nat.testbit i) n) as R1. pose proof (amp_range (Nat.testbit j) n) as R2. fold (ampl i n) in R1. fold (ampl j n) in R2.
    assert (d <> 0%Z) by (intros ->; apply D; apply (ampl_inj n); auto; lia). lia. }
  split; [|split; [apply length_tab|split; [|split; [|split]]]].
  - intros Hn2. unfold has_complex. apply existsb_exists. exists (circle (angle n 1)). split.
    + apply in_tab. destruct (ampl_onto n 1 Hn eq_refl ltac:(lia)) as (j & Hj & Ej). exists j. rewrite Ej. auto.
    + cbn [RA neq circle snd ofZ]. destruct (Req_EM_T (sin (angle n 1)) 0) as [F|]; [|reflexivity]. exfalso.
      pose proof (chord_pos (2 ^ Z.of_nat n) 2) as C. unfold chord in C. unfold angle in F. rewrite INR_pow in F.
      replace ((1 + 1) * PI / IZR (2 ^ Z.of_nat n))%R with (PI * 2 / IZR (2 ^ Z.of_nat n))%R in F by (unfold Rdiv; ring).
      rewrite F in C. assert (2 < 2 ^ Z.of_nat n)%Z; [|specialize (C ltac:(lia)); lra].
      destruct n as [|[|n]]; [lia|lia|]. rewrite !pow_S. pose proof (pow_posZ n). lia.
  - intros p. rewrite in_tab. fold (circle 0). split.
    + intros (j & Hj & ->). pose proof (amp_odd (Nat.testbit j) n Hn) as O. pose proof (amp_range (Nat.testbit j) n) as R. fold (ampl j n) in O, R.
      apply Z.odd_spec in O. destruct O as [t Et].
      assert (B : exists k, (0 <= k < 2 ^ Z.of_nat n)%Z /\ circle (angle n (ampl j n)) = circle (2 * PI * IZR k / INR (2 ^ n))).
      { destruct (Z.le_gt_cases 0 (t + 1)) as [A|A].
        - exists (t + 1)%Z. split; [lia|]. f_equal. unfold angle. rewrite Et, !plus_IZR, mult_IZR. unfold Rdiv. ring.
        - exists (t + 1 + 2 ^ Z.of_nat n)%Z. split; [lia|]. rewrite <- circle_turn. f_equal. unfold angle. rewrite Et, !plus_IZR, mult_IZR, INR_pow.
          apply IZR_le in P2. field. lra. }
      destruct B as (k & Bk & Ek). exists (Z.to_nat k). split.
      * apply Nat2Z.inj_lt. rewrite Z2Nat.id, pow_nat by lia. lia.
      * rewrite INR_IZR_INZ, Z2Nat.id by lia. exact Ek.
    + intros (k & Hk & ->). apply Nat2Z.inj_lt in Hk. rewrite pow_nat in Hk. rewrite (INR_IZR_INZ k).
      assert (B : exists t, (- q < t <= q)%Z /\ circle (2 * PI * IZR (Z.of_nat k) / INR (2 ^ n)) = circle (2 * PI * IZR t / INR (2 ^ n))).
      { destruct (Z.le_gt_cases (Z.of_nat k) q) as [A|A].
        - exists (Z.of_nat k). split; [lia|auto].
        - exists (Z.of_nat k - 2 ^ Z.of_nat n)%Z. split; [lia|]. rewrite <- (circle_turn (2 * PI * IZR (Z.of_nat k - 2 ^ Z.of_nat n) / INR (2 ^ n))). f_equal.
          rewrite minus_IZR, INR_pow. apply IZR_le in P2. field. lra. }
      destruct B as (t & Bt & Et). unfold circle in Et. cbv delta [circle] in *. 
      destruct (ampl_onto n (2 * t - 1) Hn) as (j & Hj & Ej).
      * replace (2 * t - 1)%Z with (1 + 2 * (t - 1))%Z by lia. rewrite Z.odd_add_mul_2. reflexivity.
      * lia.
      * exists j. split; auto. rewrite Et, Ej. cbv beta. f_equal; f_equal; unfold angle; rewrite minus_IZR, mult_IZR; unfold Rdiv; ring.
  - apply nodup_tab. intros i j Hi Hj E. destruct (Nat.eq_dec i j) as [|D]; auto. exfalso.
    destruct (Inj i j Hi Hj D) as (d & _ & Bd & DD). rewrite E in DD. pose proof (chord_pos _ _ Bd) as C.
    unfold dist2 in DD. nra.
  - unfold unit_energy. rewrite energy_circle, length_tab. apply Rinv_r. apply not_0_INR. apply Nat.pow_nonzero. lia.
  - unfold gray. cbv zeta. intros i j Hi Hj D Near.
    destruct (ampl_onto n 1 Hn eq_refl ltac:(lia)) as (i0 & Hi0 & E0). destruct (ampl_onto n (-1) Hn eq_refl ltac:(lia)) as (j0 & Hj0 & F0).
    assert (D0 : i0 <> j0) by (intros ->; lia). specialize (Near i0 j0 Hi0 Hj0 D0). rewrite !nth_tab in Near by auto.
    destruct (Inj i j Hi Hj D) as (d & Ed & Bd & DD). destruct (Inj i0 j0 Hi0 Hj0 D0) as (d0 & Ed0 & Bd0 & DD0). rewrite DD, DD0 in Near.
    assert (d0 = 1%Z) by lia. subst d0. change (Z.abs 1) with 1%Z in *. pose proof (chord_pos _ _ Bd) as C. pose proof (chord_pos _ _ Bd0) as C0.
    assert (L : (chord (2 ^ Z.of_nat n) (Z.abs d) <= chord (2 ^ Z.of_nat n) 1)%R) by nra.
    destruct (chord_least _ _ Bd L) as [X|X].
    + apply amp_gray. fold (ampl i n) (ampl j n). lia.
    + apply amp_gray_cyclic; auto. fold (ampl i n) (ampl j n). lia.
Qed.

(** A file of real points gives a constellation that says it is complex. *)
Theorem C92_user_refuted : exists c, user_cstl RA 1%R [(1, 0); (-1, 0)]%R = Ret c /\
  c_cplx RA c = true /\ forall p, In p (c_sym RA c) -> snd p = 0%R.
Proof.
  eexists. split; [reflexivity|]. cbn [c_cplx c_sym]. split; auto. intros p Hp. cbn in Hp. destruct Hp as [<-|[<-|[]]]; cbn; lra.
Qed.
