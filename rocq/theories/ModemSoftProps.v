(** C100, C101 and the BSC part of C99: log-likelihood ratios and soft symbols on real numbers. *)
From Coq Require Import List Arith Bool ZArith Reals Lra Lia.
From Verif Require Import Base Copy WLoops ModemModel ModemProofs ModemReal ModemCstlProps.
Import ListNotations.
Local Open Scope nat_scope.

(* ------------------------------------------------------------------ *)
(** * What is expected *)

Definition sum_over (n : nat) (P : nat -> bool) (f : nat -> R) : R := fold_right Rplus 0%R (map f (filter P (seq 0 n))).
Definition prod_over (n : nat) (P : nat -> bool) (f : nat -> R) : R := fold_right Rmult 1%R (map f (filter P (seq 0 n))).

(** The points of a buffer and the product of the plane. *)
Definition pt (cplx : bool) (Y : list R) (k : nat) : point :=
  if cplx then (nth (2 * k) Y 0%R, nth (2 * k + 1) Y 0%R) else (nth k Y 0%R, 0%R).
Definition times (a b : point) : point := (fst a * fst b - snd a * snd b, fst a * snd b + snd a * fst b)%R.
Definition after_gain (cplx : bool) (H : option (list R)) (k : nat) (s : point) : point :=
  match H with None => s | Some H => times (pt cplx H k) s end.

(** The likelihood of the point y when s was sent, up to a constant: a Gaussian noise of variance sigma^2 on each dimension;
    with disable_sig2, 2 sigma^2 = 1. *)
Definition likelihood (dis : bool) (sigma : R) (y s : point) : R := exp (- (dist2 y s / (if dis then 1 else 2 * (sigma * sigma)))).

(** The probability of a bit whose LLR is L = ln (P(0) / P(1)). *)
Definition proba (L : R) (b : bool) : R := if b then (exp (- L) / (1 + exp (- L)))%R else (1 / (1 + exp (- L)))%R.
Lemma proba_check : forall L, (proba L false + proba L true = 1)%R /\ (ln (proba L false / proba L true) = L)%R.
Proof.
  intros L. unfold proba. pose proof (exp_pos (- L)) as E. split; [field; lra|].
  replace (1 / (1 + exp (- L)) / (exp (- L) / (1 + exp (- L))))%R with (/ exp (- L))%R by (field; lra).
  rewrite <- exp_Ropp, Ropp_involutive. apply ln_exp.
Qed.

Definition good (c : cstl RA) : Prop :=
  1 <= c_bps RA c <= 30 /\ length (c_sym RA c) = 2 ^ c_bps RA c /\
  (c_cplx RA c = false -> Forall (fun s => snd s = 0%R) (c_sym RA c)).
(** The label j has no one after the end of the frame. *)
Definition inside (b N k j : nat) : bool := forallb (fun l => negb (Nat.testbit j l) || (k * b + l <? N)) (seq 0 b).

(* ------------------------------------------------------------------ *)
(** * max_star *)

Lemma max_star_ln : forall a b, max_star a b = ln (exp a + exp b).
Proof.
  intros a b. unfold max_star. pose proof (exp_pos a) as Ea. pose proof (exp_pos b) as Eb. pose proof (exp_pos (- Rabs (a - b))) as Ed.
  apply exp_inv. rewrite exp_ln by lra. rewrite exp_plus, exp_ln by lra. unfold Rmax, Rabs.
  destruct (Rle_dec a b); destruct (Rcase_abs (a - b)); try lra.
  - rewrite Rmult_plus_distr_l, <- exp_plus. replace (b + - - (a - b))%R with a by lra. lra.
  - assert (a = b) by lra. subst. rewrite Rmult_plus_distr_l, <- exp_plus. replace (b + - (b - b))%R with b by lra. lra.
  - rewrite Rmult_plus_distr_l, <- exp_plus. replace (a + - (a - b))%R with b by lra. lra.
Qed.
Lemma fold_star : forall r x, fold_left max_star r x = ln (exp x + fold_right Rplus 0%R (map exp r)).
Proof.
  induction r as [|y r IH]; intros x; cbn [fold_left map fold_right].
  - rewrite Rplus_0_r. symmetry. apply ln_exp.
  - rewrite IH. f_equal. rewrite max_star_ln, exp_ln; [lra|]. pose proof (exp_pos x). pose proof (exp_pos y). lra.
Qed.
Lemma sum_exp_pos : forall l, (0 <= fold_right Rplus 0 (map exp l))%R.
Proof. induction l as [|x l IH]; cbn [map fold_right]; [lra|]. pose proof (exp_pos x). lra. Qed.

Lemma llr_star : forall ns b v r, llr_of RA max_star ns b v r ->
  r = ln (fold_right Rplus 0%R (map exp (gather RA (fun j => negb (Nat.testbit j b)) v ns)) /
          fold_right Rplus 0%R (map exp (gather RA (fun j => Nat.testbit j b) v ns))).
Proof.
  intros ns b v r (x0 & r0 & x1 & r1 & G0 & G1 & ->). rewrite G0, G1. cbn [RA sub num] in *. cbn [map fold_right]. rewrite !fold_star.
  pose proof (exp_pos x0). pose proof (exp_pos x1). pose proof (sum_exp_pos r0). pose proof (sum_exp_pos r1).
  symmetry. unfold Rdiv. rewrite ln_mult, ln_Rinv; try lra. apply Rinv_0_lt_compat. lra.
Qed.
Lemma gather_map : forall P (v : nat -> option R) (g : nat -> R) Q n, (forall j, j < n -> match v j with Some x => Q j = true /\ exp x = g j | None => Q j = false end) ->
  fold_right Rplus 0%R (map exp (gather RA P v n)) = sum_over n (fun j => P j && Q j) g.
Proof.
  intros P v g Q n H. unfold sum_over.
  assert (X : forall l, (forall j, In j l -> j < n) -> fold_right Rplus 0%R (map exp (flat_map (fun j => if P j then match v j with Some x => [x] | None => [] end else []) l)) =
    fold_right Rplus 0%R (map g (filter (fun j => P j && Q j) l))).
  { induction l as [|j l IH]; intros Hl; [reflexivity|]. cbn [flat_map filter]. rewrite map_app. specialize (H j (Hl j (or_introl eq_refl))).
    specialize (IH (fun i Hi => Hl i (or_intror Hi))). destruct (P j); cbn [andb]; [|exact IH].
    destruct (v j) as [x|].
    - destruct H as [-> Hg]. cbn [map app fold_right]. rewrite Hg. f_equal. exact IH.
    - rewrite H. exact IH. }
  apply X. intros j Hj. apply in_seq in Hj. lia.
Qed.

Lemma after_history_R : forall MAX N c dis m0 cs m CP, make_modem RA N c dis true = Ret m0 -> good c -> (Z.of_nat N < 2 ^ 24)%Z ->
  Forall (no_filter RA) cs -> history RA MAX m0 cs = Ret m ->
  let m' := set_cp RA m CP in
  well RA m' /\ m_N _ m' = N /\ m_c _ m' = c /\ m_types _ m' = true /\ m_Nmod _ m' = m_Nmod _ m0 /\ m_inv _ m' = factor RA dis CP.
Proof.
  intros MAX N c dis m0 cs m CP E ((P1 & P2) & P3 & _) HN NF EH m'.
  destruct (make_well RA N c dis true m0 E P3 HN) as (W & E1 & E2 & E3 & E4 & E5 & E6).
  { apply Z.le_trans with 30%Z; [lia|]. reflexivity || (vm_compute; discriminate). }
  assert (L : cp_law RA). { intros x y Hxy. cbn [RA neq] in Hxy. destruct (Req_EM_T x y) as [->|]; [reflexivity|discriminate]. }
  assert (S0 : in_sync RA m0) by (unfold in_sync; rewrite E6; intros _; exact E5).
  destruct (history_sync RA L MAX cs m0 m S0 NF EH) as [S SB].
  pose proof (set_cp_same RA m CP) as SB'. fold m' in SB'.
  assert (SB2 : same_but_cp RA m0 m') by (eapply same_trans; eauto).
  pose proof (set_cp_inv RA L m CP S) as SI. fold m' in SI.
  destruct SB as (_ & _ & _ & D & _). rewrite D, E3 in SI. split; [eapply same_well; eauto|].
  destruct SB2 as (Q1 & Q2 & Q3 & Q4 & Q5). rewrite Q1, Q2, Q3, Q5. auto 10.
Qed.

(** The squared distance of the code is that of the plane. *)
Lemma metric_dist : forall m (H : option (list R)) (Y : list R) k j, good (m_c RA m) -> j < 2 ^ c_bps RA (m_c RA m) ->
  metric_t RA m H Y k j = dist2 (pt (c_cplx RA (m_c RA m)) Y k) (after_gain (c_cplx RA (m_c RA m)) H k (nth j (c_sym RA (m_c RA m)) (0, 0)%R)) /\
  metric_d RA m H Y k j = (- metric_t RA m H Y k j)%R.
Proof.
  intros m H Y k j (_ & L & Z) Hj. unfold metric_t, metric_d, exp_c, exp_r, sym, at_c, after_gain, pt, cnorm, csub, cmul, dist2, times.
  assert (R0 : c_cplx RA (m_c RA m) = false -> snd (nth j (c_sym RA (m_c RA m)) (0, 0)%R) = 0%R).
  { intros E. specialize (Z E). rewrite Forall_forall in Z. apply Z. apply nth_In. rewrite L. exact Hj. }
  cbn [RA num ofZ add sub mul opp] in *. destruct (c_cplx RA (m_c RA m)); destruct H as [H|]; cbn [fst snd].
  - split; ring.
  - split; ring.
  - rewrite R0 by reflexivity. split; ring.
  - rewrite R0 by reflexivity. split; ring.
Qed.

Lemma weight : forall dis CP d, (dis = false -> CP <> 0)%R -> (- (d / (if dis then 1 else 2 * (CP * CP))) = - d * factor RA dis CP)%R.
Proof.
  intros dis CP d H. unfold factor. cbn [RA ofZ dvd mul]. destruct dis; [field|]. specialize (H eq_refl). field. auto.
Qed.

(** With max_star, the LLRs are the exact ones: the logarithm of the ratio of the sums of the likelihoods of the symbols whose
    bit is 0 and of those whose bit is 1. *)
Theorem C100_exact : forall N c dis m0 cs m CP H (Y Y2 : list R), good c -> (Z.of_nat N < 2 ^ 24)%Z ->
  make_modem RA N c dis true = Ret m0 -> Forall (no_filter RA) cs -> history RA max_star m0 cs = Ret m ->
  (dis = false -> CP <> 0%R) -> length Y = m_Nmod _ m0 -> gains_ok RA (m_Nmod _ m0) H -> length Y2 = N ->
  exists m' L, demodulate RA max_star m CP H Y Y2 = Ret (m', L) /\ length L = N /\
    forall n, n < N -> let b := n mod c_bps _ c in let k := n / c_bps _ c in
      let w j := likelihood dis CP (pt (c_cplx _ c) Y k) (after_gain (c_cplx _ c) H k (nth j (c_sym _ c) (0, 0)%R)) in
      nth n L 0%R = ln (sum_over (2 ^ c_bps _ c) (fun j => negb (Nat.testbit j b)) w / sum_over (2 ^ c_bps _ c) (fun j => Nat.testbit j b) w).
Proof.
  intros N c dis m0 cs m CP H Y Y2 P HN E NF EH HC LY G L2.
  destruct (after_history_R _ _ _ _ _ _ _ CP E P HN NF EH) as (W & E1 & E2 & E3 & E4 & E5). set (m1 := set_cp RA m CP) in *.
  destruct (demodulate_ok RA max_star m1 H Y Y2) as (L & EL & LL & I); auto; try (cbn [num RA]; congruence).
  unfold demodulate. fold m1. rewrite EL. cbn [bind]. eexists _, L. split; [reflexivity|]. split; [congruence|].
  intros n Hn. cbv zeta. specialize (I n ltac:(congruence)). apply llr_star in I. etransitivity; [exact I|]. clear I.
  unfold n_symbs. rewrite E2.
  assert (X : forall Q, fold_right Rplus 0%R (map exp (gather RA Q (fun j => Some (mul RA (metric_d RA m1 H Y (n / c_bps RA c) j) (m_inv RA m1))) (2 ^ c_bps RA c))) =
    sum_over (2 ^ c_bps RA c) Q (fun j => likelihood dis CP (pt (c_cplx RA c) Y (n / c_bps RA c)) (after_gain (c_cplx RA c) H (n / c_bps RA c) (nth j (c_sym RA c) (0, 0)%R)))).
  { intros Q. rewrite (gather_map Q _ (fun j => likelihood dis CP (pt (c_cplx RA c) Y (n / c_bps RA c)) (after_gain (c_cplx RA c) H (n / c_bps RA c) (nth j (c_sym RA c) (0, 0)%R))) (fun _ => true)).
    - unfold sum_over. f_equal. f_equal. apply filter_ext. intros j. apply andb_true_r.
    - intros j Hj. split; auto. destruct (metric_dist m1 H Y (n / c_bps RA c) j) as [D1 D2]; [rewrite E2; auto|rewrite E2; auto|].
      unfold likelihood. rewrite weight by auto. f_equal. rewrite D2, D1, E5, E2. reflexivity. }
  rewrite !X. reflexivity.
Qed.

(** The a priori part. *)
Lemma prior_R : forall m Ya n j t, let bps := c_bps RA (m_c RA m) in let k := n / bps in 0 < bps -> n < m_N RA m ->
  match prior RA m Ya (n mod bps) k j t with
  | Some r => inside bps (m_N RA m) k j = true /\
      r = (t + fold_right Rplus 0 (map (fun l => nth (k * bps + l) Ya 0) (filter (fun l => negb (l =? n mod bps)%nat && Nat.testbit j l) (seq 0 bps))))%R
  | None => inside bps (m_N RA m) k j = false
  end.
Proof.
  intros m Ya n j t bps k Hb Hn. unfold prior, inside. fold bps.
  assert (Nk : k * bps + n mod bps = n) by (unfold k; rewrite (Nat.div_mod n bps) at 3 by lia; lia).
  set (P := fun l => negb (l =? n mod bps) && Nat.testbit j l). cbn [RA num ofZ add] in *.
  assert (X : forall ls (s : option R),
    match fold_left (fun t l => if l =? n mod bps then t else if Nat.testbit j l then
      if k * bps + l <? m_N RA m then match t with Some t => Some (t + nth (k * bps + l) Ya 0)%R | None => None end else None
      else t) ls s with
    | Some r => forallb (fun l => negb (Nat.testbit j l) || (k * bps + l <? m_N RA m)) ls = true /\
        exists u, s = Some u /\ (r = u + fold_right Rplus 0 (map (fun l => nth (k * bps + l) Ya 0) (filter P ls)))%R
    | None => s = None \/ forallb (fun l => negb (Nat.testbit j l) || (k * bps + l <? m_N RA m)) ls = false
    end).
  { induction ls as [|l ls IH]; intros s; cbn [fold_left].
    - destruct s as [u|]; [|left; auto]. split; [reflexivity|]. exists u. split; auto. cbn [filter map fold_right]. ring.
    - cbn [forallb filter].
      assert (EP : P l = negb (l =? n mod bps) && Nat.testbit j l) by reflexivity. rewrite EP. destruct (Nat.eqb_spec l (n mod bps)) as [El|El]; cbn [negb andb].
      + specialize (IH s). assert (IN : (k * bps + l <? m_N RA m) = true) by (apply Nat.ltb_lt; lia). rewrite IN, orb_true_r. cbn [andb]. exact IH.
      + destruct (Nat.testbit j l); cbn [negb orb]; [|exact (IH s)].
        destruct (k * bps + l <? m_N RA m) eqn:IN; cbn [andb].
        * specialize (IH (match s with Some t => Some (t + nth (k * bps + l) Ya 0)%R | None => None end)).
          match goal with |- match ?f with _ => _ end => destruct f as [r|] end.
          -- destruct IH as (I1 & u & I2 & I3). split; auto. destruct s as [t0|]; [|discriminate]. exists t0. split; auto. cbn [map fold_right]. inversion I2; subst u. rewrite I3. ring.
          -- destruct IH as [I|I]; auto. destruct s; [discriminate|auto].
        * specialize (IH None). match goal with |- match ?f with _ => _ end => destruct f as [r|] end; [|right; reflexivity].
          destruct IH as (_ & u & I2 & _). discriminate. }
  specialize (X (seq 0 bps) (Some t)).
  match goal with |- match ?f with _ => _ end => change (f) with (fold_left (fun t l => if l =? n mod bps then t else if Nat.testbit j l then
      if k * bps + l <? m_N RA m then match t with Some t => Some (t + nth (k * bps + l) Ya 0)%R | None => None end else None
      else t) (seq 0 bps) (Some t)) end.
  match goal with |- match ?f with _ => _ end => destruct f as [r|] end.
  - destruct X as (X1 & u & X2 & X3). split; auto. inversion X2; subst u. exact X3.
  - destruct X as [X|X]; [discriminate|exact X].
Qed.

Lemma prod_split : forall (L : nat -> R) (bit : nat -> bool) ls,
  (fold_right Rmult 1 (map (fun l => proba (L l) (bit l)) ls) =
   fold_right Rmult 1 (map (fun l => proba (L l) false) ls) * exp (- fold_right Rplus 0 (map L (filter bit ls))))%R.
Proof.
  intros L bit. induction ls as [|l ls IH]; cbn [map filter fold_right].
  - rewrite Ropp_0, exp_0. lra.
  - rewrite IH. destruct (bit l); cbn [map fold_right]; [|ring]. rewrite Ropp_plus_distr, exp_plus. unfold proba. pose proof (exp_pos (- L l)). field. lra.
Qed.
Lemma sum_scale : forall n P f g a, (forall j, j < n -> P j = true -> f j = (a * g j)%R) -> sum_over n P f = (a * sum_over n P g)%R.
Proof.
  intros n P f g a H. unfold sum_over.
  assert (X : forall l, (forall j, In j l -> j < n) -> fold_right Rplus 0%R (map f (filter P l)) = (a * fold_right Rplus 0 (map g (filter P l)))%R).
  { induction l as [|j l IH]; intros Hl; cbn [filter map fold_right]; [ring|]. specialize (IH (fun i Hi => Hl i (or_intror Hi))). destruct (P j) eqn:EP; [|exact IH].
    cbn [map fold_right]. rewrite IH, H by (auto; apply Hl; left; reflexivity). ring. }
  apply X. intros j Hj. apply in_seq in Hj. lia.
Qed.

(** With max_star and a priori LLRs, the values are the exact extrinsic LLRs: each symbol is weighted by its likelihood and by
    the probabilities of the bits of its label other than the one at hand; the bits after the end of the frame are zero. *)
Theorem C100_extrinsic : forall N c dis m0 cs m CP H (Y Ya Y3 : list R), good c -> (Z.of_nat N < 2 ^ 24)%Z ->
  make_modem RA N c dis true = Ret m0 -> Forall (no_filter RA) cs -> history RA max_star m0 cs = Ret m ->
  (dis = false -> CP <> 0%R) -> length Y = m_Nmod _ m0 -> gains_ok RA (m_Nmod _ m0) H -> length Ya = N -> length Y3 = N ->
  exists m' L, tdemodulate RA max_star m CP H Y Ya Y3 = Ret (m', L) /\ length L = N /\
    forall n, n < N -> let b := n mod c_bps _ c in let k := n / c_bps _ c in
      let w j := (likelihood dis CP (pt (c_cplx _ c) Y k) (after_gain (c_cplx _ c) H k (nth j (c_sym _ c) (0, 0)%R)) *
                  prod_over (c_bps _ c) (fun l => negb (l =? b)%nat) (fun l => proba (nth (k * c_bps _ c + l)%nat Ya 0) (Nat.testbit j l)))%R in
      nth n L 0%R = ln (sum_over (2 ^ c_bps _ c) (fun j => negb (Nat.testbit j b) && inside (c_bps _ c) N k j) w /
                        sum_over (2 ^ c_bps _ c) (fun j => Nat.testbit j b && inside (c_bps _ c) N k j) w).
Proof.
  intros N c dis m0 cs m CP H Y Ya Y3 P HN E NF EH HC LY G LA L2.
  destruct (after_history_R _ _ _ _ _ _ _ CP E P HN NF EH) as (W & E1 & E2 & E3 & E4 & E5). set (m1 := set_cp RA m CP) in *.
  destruct (tdemodulate_ok RA max_star m1 H Y Ya Y3) as (L & EL & LL & I); auto; try (cbn [num RA]; congruence).
  unfold tdemodulate. fold m1. rewrite EL. cbn [bind]. eexists _, L. split; [reflexivity|]. split; [congruence|].
  intros n Hn. specialize (I n ltac:(congruence)). pose proof I as I'. apply llr_star in I. etransitivity; [exact I|]. clear I.
  unfold n_symbs in *. rewrite E2 in *. set (bps := c_bps RA c) in *. set (b := n mod bps) in *. set (k := n / bps) in *.
  set (w := fun j => (likelihood dis CP (pt (c_cplx RA c) Y k) (after_gain (c_cplx RA c) H k (nth j (c_sym RA c) (0, 0)%R)) *
    prod_over bps (fun l => negb (l =? b)%nat) (fun l => proba (nth (k * bps + l)%nat Ya 0) (Nat.testbit j l)))%R).
  set (Q0 := prod_over bps (fun l => negb (l =? b)) (fun l => proba (nth (k * bps + l) Ya 0%R) false)).
  set (g := fun j => (likelihood dis CP (pt (c_cplx RA c) Y k) (after_gain (c_cplx RA c) H k (nth j (c_sym RA c) (0, 0))) *
    exp (- fold_right Rplus 0 (map (fun l => nth (k * bps + l) Ya 0) (filter (fun l => negb (l =? b)%nat && Nat.testbit j l) (seq 0 bps)))))%R).
  assert (X : forall Q, fold_right Rplus 0%R (map exp (gather RA Q (fun j => minus RA (prior RA m1 Ya b k j (mul RA (metric_t RA m1 H Y k j) (m_inv RA m1)))) (2 ^ bps))) =
    sum_over (2 ^ bps) (fun j => Q j && inside bps N k j) g).
  { intros Q. apply gather_map. intros j Hj. destruct P as ((Pb1 & Pb2) & PL & PR).
    pose proof (prior_R m1 Ya n j (mul RA (metric_t RA m1 H Y k j) (m_inv RA m1))) as PV. cbv zeta in PV. rewrite E2, E1 in PV. fold bps in PV. fold k b in PV. specialize (PV Pb1 Hn).
    destruct (prior RA m1 Ya b k j (mul RA (metric_t RA m1 H Y k j) (m_inv RA m1))) as [r|]; cbn [minus]; [|exact PV].
    destruct PV as [PV1 PV2]. split; auto. unfold g. rewrite PV2. cbn [RA opp mul]. rewrite Ropp_plus_distr, exp_plus. f_equal.
    destruct (metric_dist m1 H Y k j) as [D1 _]; [rewrite E2; unfold good; auto|rewrite E2; auto|]. rewrite D1, E2, E5. unfold likelihood. rewrite weight by auto. f_equal. ring. }
  rewrite !X.
  assert (Q0pos : (0 < Q0)%R).
  { unfold Q0, prod_over. generalize (filter (fun l => negb (l =? b)) (seq 0 bps)) as ls. induction ls as [|l ls IH]; cbn [map fold_right]; [lra|].
    apply Rmult_lt_0_compat; auto. unfold proba. pose proof (exp_pos (- nth (k * bps + l) Ya 0%R)). apply Rdiv_lt_0_compat; lra. }
  assert (WG : forall j, w j = (Q0 * g j)%R).
  { intros j. unfold w, g, prod_over. rewrite (prod_split (fun l => nth (k * bps + l) Ya 0%R) (Nat.testbit j)).
    assert (FF : filter (Nat.testbit j) (filter (fun l => negb (l =? b)) (seq 0 bps)) = filter (fun l => negb (l =? b) && Nat.testbit j l) (seq 0 bps)).
    { generalize (seq 0 bps) as ls. induction ls as [|l ls IH]; cbn [filter]; auto. destruct (negb (l =? b)); cbn [filter andb]; [|exact IH]. destruct (Nat.testbit j l); rewrite IH; auto. }
    rewrite FF. fold (prod_over bps (fun l => negb (l =? b)) (fun l => proba (nth (k * bps + l) Ya 0%R) false)). fold Q0. ring. }
  rewrite !(sum_scale (2 ^ bps) _ w g Q0) by auto.
  (* the two sums are positive *)
  destruct I' as (x0 & r0 & x1 & r1 & G0 & G1 & _).
  assert (S1 : (0 < sum_over (2 ^ bps) (fun j => Nat.testbit j b && inside bps N k j) g)%R).
  { rewrite <- X. match goal with |- context [gather ?a ?p ?v ?n] => replace (gather a p v n) with (x1 :: r1) by (symmetry; exact G1) end. cbn [map fold_right]. pose proof (exp_pos x1). pose proof (sum_exp_pos r1). lra. }
  f_equal. set (S := sum_over _ (fun j => Nat.testbit j b && _) g) in *. field. split; apply Rgt_not_eq; lra.
Qed.

(** max_star_safe, the default for floating-point numbers, is within exp(-18) of max_star. *)
Theorem C100_safe : forall a b, (max_star a b <= max_star_safe a b + exp (-18) /\ max_star_safe a b <= max_star a b + exp (-18))%R.
Proof.
  intros a b. unfold max_star, max_star_safe. cbv zeta. set (d := Rabs (a - b)). set (M := Rmax a b).
  pose proof (exp_pos (- d)) as X0. set (x := exp (- d)) in *. pose proof (exp_pos (-18)) as E18.
  assert (UP : (0 <= ln (1 + x) <= x)%R).
  { split; [rewrite <- ln_1; apply Rlt_le, ln_increasing; lra|].
    destruct (Rle_dec (ln (1 + x)) x) as [|F]; [auto|]. exfalso. apply Rnot_le_lt in F. apply exp_increasing in F. rewrite exp_ln in F by lra.
    pose proof (exp_ineq1 x ltac:(lra)). lra. }
  destruct (Rle_dec 37 d) as [H|H].
  - assert (XS : (x <= exp (-18))%R) by (destruct (Rle_lt_or_eq_dec 37 d H); [|]; unfold x; apply Rlt_le, exp_increasing; lra). lra.
  - destruct (Rle_dec 9 d) as [H9|H9]; [|lra].
    assert (XS : (x * x <= exp (-18))%R).
    { unfold x. rewrite <- exp_plus. destruct (Req_dec d 9) as [->|D]; [right; f_equal; lra|]. apply Rlt_le, exp_increasing. lra. }
    assert (LO : (x - x * x <= ln (1 + x))%R).
    { assert (Y : (1 - / (1 + x) <= ln (1 + x))%R).
      { assert (I : (0 < / (1 + x))%R) by (apply Rinv_0_lt_compat; lra).
        destruct (Rle_dec (1 - / (1 + x)) (ln (1 + x))) as [|F]; [auto|]. exfalso. apply Rnot_le_lt in F.
        assert (F2 : (/ (1 + x) - 1 < - ln (1 + x))%R) by lra. apply exp_increasing in F2. rewrite exp_Ropp, exp_ln in F2 by lra.
        assert (NZ : (/ (1 + x) - 1 <> 0)%R).
        { intros Z. assert (Z1 : (/ (1 + x) = 1)%R) by lra. apply (f_equal Rinv) in Z1. rewrite Rinv_inv, Rinv_1 in Z1. lra. }
        pose proof (exp_ineq1 _ NZ). lra. }
      assert (Q : (1 - / (1 + x) = x * / (1 + x))%R) by (field; lra).
      assert (I : (1 - x <= / (1 + x))%R). { apply (Rmult_le_reg_r (1 + x)); [lra|]. rewrite Rinv_l by lra. nra. }
      nra. }
    lra.
Qed.

(* ------------------------------------------------------------------ *)
(** * Soft modulation *)

(** The number of bits of the frame in symbol k, the probability of a label and the mean symbol. *)
Definition width (b N k : nat) : nat := Nat.min b (N - k * b).
Definition label_proba (b : nat) (X : list R) (k r j : nat) : R :=
  prod_over r (fun _ => true) (fun l => proba (nth (k * b + l)%nat X 0%R) (Nat.testbit j l)).
Definition mean (b N : nat) (X : list R) (k : nat) (part : nat -> R) : R :=
  let r := width b N k in sum_over (2 ^ r) (fun _ => true) (fun j => label_proba b X k r j * part j)%R.

Lemma fold_app1 : forall (op : R -> R -> R) e l x, (forall a b c, op a (op b c) = op (op a b) c) -> (forall a, op e a = a /\ op a e = a) ->
  fold_right op e (l ++ [x]) = op (fold_right op e l) x.
Proof.
  intros op e l x As Ne. induction l as [|y l IH]; cbn [app fold_right].
  - destruct (Ne x) as [-> ->]. reflexivity.
  - rewrite IH, As. reflexivity.
Qed.
Lemma all_true : forall (l : list nat), filter (fun _ => true) l = l.
Proof. induction l as [|x l IH]; cbn [filter]; [auto|rewrite IH; auto]. Qed.
Lemma sum_S : forall n f, sum_over (S n) (fun _ => true) f = (sum_over n (fun _ => true) f + f n)%R.
Proof.
  intros n f. unfold sum_over. rewrite !all_true, seq_S, map_app. cbn [map Nat.add]. apply fold_app1; intros; try split; ring.
Qed.
Lemma prod_S : forall n f, prod_over (S n) (fun _ => true) f = (prod_over n (fun _ => true) f * f n)%R.
Proof.
  intros n f. unfold prod_over. rewrite !all_true, seq_S, map_app. cbn [map Nat.add]. apply fold_app1; intros; try split; ring.
Qed.

Lemma p_symbol_ok : forall (X : list R) o cnt idx, o + cnt <= length X ->
  p_symbol RA exp X o cnt idx = Ret (prod_over cnt (fun _ => true) (fun l => proba (nth (o + l) X 0%R) (Nat.testbit idx l))).
Proof.
  intros X o cnt idx L. unfold p_symbol. cbn [RA num ofZ add sub mul dvd opp].
  match goal with |- for_ _ ?body ?s0 = _ =>
    destruct (for_inv _ (fun t p => p = prod_over t (fun _ => true) (fun l => proba (nth (o + l) X 0%R) (Nat.testbit idx l))) cnt body s0) as (r & E & I) end.
  - reflexivity.
  - intros t p Ht I. cbv beta in I. subst p. rewrite (rd_ok _ 0%R) by lia. cbn [bind]. eexists. split; [reflexivity|].
    rewrite prod_S. f_equal. unfold proba. pose proof (exp_pos (- nth (o + t) X 0%R)). destruct (Nat.testbit idx t); [field; lra|reflexivity].
  - etransitivity; [exact E|]. cbv beta in I. rewrite I. reflexivity.
Qed.

Lemma soft_c : forall (X : list R) (sy : list point) o cnt p0 p1 (X2 : list R), o + cnt <= length X -> 2 ^ cnt <= length sy ->
  p0 < length X2 -> p1 < length X2 -> p0 <> p1 ->
  exists Z, (X2 <- wr X2 p0 0%R ;; X2 <- wr X2 p1 0%R ;;
    for_ (2 ^ cnt) (fun idx X2 =>
      s <- rd sy idx ;; p <- p_symbol RA exp X o cnt idx ;;
      a <- rd X2 p0 ;; X2 <- wr X2 p0 (a + p * fst s)%R ;;
      b <- rd X2 p1 ;; wr X2 p1 (b + p * snd s)%R) X2) = Ret Z /\ length Z = length X2 /\
    (forall q, q <> p0 -> q <> p1 -> nth q Z 0%R = nth q X2 0%R) /\
    let w j := prod_over cnt (fun _ => true) (fun l => proba (nth (o + l) X 0%R) (Nat.testbit j l)) in
    nth p0 Z 0%R = sum_over (2 ^ cnt) (fun _ => true) (fun j => w j * fst (nth j sy (0, 0)))%R /\
    nth p1 Z 0%R = sum_over (2 ^ cnt) (fun _ => true) (fun j => w j * snd (nth j sy (0, 0)))%R.
Proof.
  intros X sy o cnt p0 p1 X2 LX LS H0 H1 D. rewrite wr_ok by auto. cbn [bind]. rewrite wr_ok by (rewrite length_upd; auto). cbn [bind]. cbv zeta.
  set (w := fun j => prod_over cnt (fun _ => true) (fun l => proba (nth (o + l) X 0%R) (Nat.testbit j l))).
  match goal with |- context [for_ (2 ^ cnt) ?body ?s0] =>
    destruct (for_inv _ (fun t Z => length Z = length X2 /\ (forall q, q <> p0 -> q <> p1 -> nth q Z 0%R = nth q X2 0%R) /\
      nth p0 Z 0%R = sum_over t (fun _ => true) (fun j => w j * fst (nth j sy (0, 0)))%R /\
      nth p1 Z 0%R = sum_over t (fun _ => true) (fun j => w j * snd (nth j sy (0, 0)))%R) (2 ^ cnt) body s0) as (Z & E & I) end.
  - split; [rewrite !length_upd; auto|]. split; [|split].
    + intros q Q0 Q1. rewrite !nth_upd_neq by auto. reflexivity.
    + rewrite nth_upd_neq by auto. rewrite nth_upd_eq by auto. reflexivity.
    + rewrite nth_upd_eq by (rewrite length_upd; auto). reflexivity.
  - intros t Z Ht (L & I1 & I2 & I3). rewrite (rd_ok _ (0, 0)%R) by lia. cbn [bind]. rewrite p_symbol_ok by auto. cbn [bind].
    rewrite (rd_ok _ 0%R) by lia. cbn [bind]. rewrite wr_ok by lia. cbn [bind]. rewrite (rd_ok _ 0%R) by (rewrite length_upd; lia). cbn [bind].
    rewrite wr_ok by (rewrite length_upd; lia). eexists. split; [reflexivity|]. rewrite !length_upd. split; auto. split; [|split].
    + intros q Q0 Q1. rewrite !nth_upd_neq by auto. auto.
    + rewrite nth_upd_neq by auto. rewrite nth_upd_eq by lia. rewrite sum_S, I2. reflexivity.
    + rewrite nth_upd_eq by (rewrite length_upd; lia). rewrite nth_upd_neq by auto. rewrite sum_S, I3. reflexivity.
  - exists Z. split; [exact E|]. exact I.
Qed.
Lemma soft_r : forall (X : list R) (sy : list point) o cnt p0 (X2 : list R), o + cnt <= length X -> 2 ^ cnt <= length sy ->
  p0 < length X2 ->
  exists Z, (X2 <- wr X2 p0 0%R ;;
    for_ (2 ^ cnt) (fun idx X2 =>
      s <- rd sy idx ;; p <- p_symbol RA exp X o cnt idx ;;
      a <- rd X2 p0 ;; wr X2 p0 (a + p * fst s)%R) X2) = Ret Z /\ length Z = length X2 /\
    (forall q, q <> p0 -> nth q Z 0%R = nth q X2 0%R) /\
    nth p0 Z 0%R = sum_over (2 ^ cnt) (fun _ => true) (fun j => prod_over cnt (fun _ => true) (fun l => proba (nth (o + l) X 0%R) (Nat.testbit j l)) * fst (nth j sy (0, 0)))%R.
Proof.
  intros X sy o cnt p0 X2 LX LS H0. rewrite wr_ok by auto. cbn [bind].
  set (w := fun j => prod_over cnt (fun _ => true) (fun l => proba (nth (o + l) X 0%R) (Nat.testbit j l))).
  match goal with |- context [for_ (2 ^ cnt) ?body ?s0] =>
    destruct (for_inv _ (fun t Z => length Z = length X2 /\ (forall q, q <> p0 -> nth q Z 0%R = nth q X2 0%R) /\
      nth p0 Z 0%R = sum_over t (fun _ => true) (fun j => w j * fst (nth j sy (0, 0)))%R) (2 ^ cnt) body s0) as (Z & E & I) end.
  - split; [rewrite !length_upd; auto|]. split.
    + intros q Q0. rewrite !nth_upd_neq by auto. reflexivity.
    + rewrite nth_upd_eq by auto. reflexivity.
  - intros t Z Ht (L & I1 & I2). rewrite (rd_ok _ (0, 0)%R) by lia. cbn [bind]. rewrite p_symbol_ok by auto. cbn [bind].
    rewrite (rd_ok _ 0%R) by lia. cbn [bind]. rewrite wr_ok by lia. eexists. split; [reflexivity|]. rewrite !length_upd. split; auto. split.
    + intros q Q0. rewrite !nth_upd_neq by auto. auto.
    + rewrite nth_upd_eq by lia. rewrite sum_S, I2. reflexivity.
  - exists Z. split; [exact E|]. exact I.
Qed.

Lemma width_full : forall b N k, k < N / b -> 0 < b -> width b N k = b.
Proof. intros b N k H Hb. unfold width. apply Nat.min_l. pose proof (Nat.mul_div_le N b ltac:(lia)). nia. Qed.
Lemma width_last : forall b N, 0 < b -> width b N (N / b) = N - N / b * b.
Proof.
  intros b N Hb. unfold width. apply Nat.min_r. pose proof (Nat.mod_upper_bound N b ltac:(lia)). pose proof (Nat.div_mod N b ltac:(lia)). nia.
Qed.

(** Soft modulation: each symbol is the mean of the symbols of the constellation, weighted by the probabilities of their labels
    given the LLRs of the frame; the bits after the end of the frame are zero. *)
Theorem C101_mean : forall N c dis types m (X X2 : list R), good c -> (Z.of_nat N < 2 ^ 24)%Z ->
  make_modem RA N c dis types = Ret m -> length X = N -> length X2 = m_Nmod _ m ->
  exists Z, tmodulate RA exp m X X2 = Ret Z /\ length Z = m_Nmod _ m /\
    forall k, k * c_bps _ c < N ->
      pt (c_cplx _ c) Z k = (mean (c_bps _ c) N X k (fun j => fst (nth j (c_sym _ c) (0, 0)%R)), mean (c_bps _ c) N X k (fun j => snd (nth j (c_sym _ c) (0, 0)%R))).
Proof.
  intros N c dis types m X X2 ((P1 & P2) & P3 & P4) HN E LX L2.
  destruct (make_well RA N c dis types m E P3 HN) as ([W1 W2 W3 W4] & E1 & E2 & E3 & E4 & E5 & E6).
  { apply Z.le_trans with 30%Z; [lia|]. vm_compute; discriminate. }
  unfold tmodulate, tmodulate_complex, tmodulate_real. rewrite E1, E2 in *. cbv zeta. set (b := c_bps RA c) in *. set (sy := c_sym RA c) in *.
  cbn [RA num ofZ add mul] in *. pose proof (msize_eq N b P1) as MS. set (ls := N / b) in *.
  pose proof (Nat.mul_div_le N b ltac:(lia)) as ML. fold ls in ML.
  pose proof (Nat.mod_upper_bound N b ltac:(lia)) as MU. pose proof (Nat.div_mod N b ltac:(lia)) as DM. fold ls in DM.
  assert (KL : forall k, k * b < N -> k < ls \/ (k = ls /\ ls * b < N)) by (intros k Hk; destruct (Nat.lt_ge_cases k ls); [auto|]; right; assert (k = ls) by nia; subst; auto).
  assert (WL : width b N ls = N - ls * b) by (apply width_last; auto).
  destruct (c_cplx RA c) eqn:EC.
  - match goal with |- context [for_ ls ?body X2] =>
      destruct (for_inv _ (fun t Z => length Z = m_Nmod RA m /\ forall k, k < t ->
        pt true Z k = (mean b N X k (fun j => fst (nth j sy (0, 0)%R)), mean b N X k (fun j => snd (nth j sy (0, 0)%R)))) ls body X2) as (Z1 & F1 & L1 & I1) end.
    + split; auto. intros; lia.
    + intros t Z Ht (L & I). destruct (soft_c X sy (t * b) b (2 * t) (2 * t + 1) Z) as (Z' & F & L' & I2 & I3 & I4); try lia; [nia|].
      exists Z'. split; [exact F|]. split; [lia|]. intros k Hk. destruct (Nat.eq_dec k t) as [->|].
      * unfold pt, mean, label_proba. rewrite width_full by (auto; lia). rewrite I3, I4. reflexivity.
      * specialize (I k ltac:(lia)). unfold pt in *. rewrite !I2 by lia. exact I.
    + cbn [RA num] in *. match goal with |- context [bind (for_ ls ?body X2) ?k] => replace (for_ ls body X2) with (Ret Z1) by (symmetry; exact F1) end. cbn [bind].
      destruct (Nat.ltb_spec (ls * b) N) as [LT|GE].
      * destruct (soft_c X sy (ls * b) (N - ls * b) (m_Nmod RA m - 2) (m_Nmod RA m - 1) Z1) as (Z' & F & L' & I2 & I3 & I4); try lia.
        { assert (2 ^ (N - ls * b) <= 2 ^ b) by (apply Nat.pow_le_mono_r; lia). lia. }
        exists Z'. split; [exact F|]. split; [lia|]. intros k Hk. destruct (KL k Hk) as [K|[-> K]].
        -- specialize (I1 k K). unfold pt in *. rewrite !I2 by lia. exact I1.
        -- unfold pt, mean, label_proba. rewrite !WL.
           replace (2 * ls) with (m_Nmod RA m - 2) by lia. replace (m_Nmod RA m - 2 + 1) with (m_Nmod RA m - 1) by lia. rewrite I3, I4. reflexivity.
      * exists Z1. split; auto. split; auto. intros k Hk. destruct (KL k Hk) as [K|[-> K]]; [auto|lia].
  - assert (Z0 : forall k, mean b N X k (fun j => snd (nth j sy (0, 0)%R)) = 0%R).
    { intros k. unfold mean, sum_over. cbv zeta. rewrite all_true. specialize (P4 eq_refl). rewrite Forall_forall in P4.
      assert (S0 : forall j, snd (nth j sy (0, 0)%R) = 0%R).
      { intros j. destruct (Nat.lt_ge_cases j (length sy)) as [Hj|Hj]; [apply P4; apply nth_In; exact Hj|rewrite nth_overflow by exact Hj; reflexivity]. }
      generalize (seq 0 (2 ^ width b N k)) as l. induction l as [|j l IH]; cbn [map fold_right]; [reflexivity|]. rewrite IH, S0. ring. }
    match goal with |- context [for_ ls ?body X2] =>
      destruct (for_inv _ (fun t Z => length Z = m_Nmod RA m /\ forall k, k < t -> nth k Z 0%R = mean b N X k (fun j => fst (nth j sy (0, 0)%R))) ls body X2) as (Z1 & F1 & L1 & I1) end.
    + split; auto. intros; lia.
    + intros t Z Ht (L & I). destruct (soft_r X sy (t * b) b t Z) as (Z' & F & L' & I2 & I3); try lia; [nia|].
      exists Z'. split; [exact F|]. split; [lia|]. intros k Hk. destruct (Nat.eq_dec k t) as [->|].
      * unfold mean, label_proba. rewrite width_full by (auto; lia). exact I3.
      * rewrite I2 by lia. apply I. lia.
    + cbn [RA num] in *. match goal with |- context [bind (for_ ls ?body X2) ?k] => replace (for_ ls body X2) with (Ret Z1) by (symmetry; exact F1) end. cbn [bind].
      unfold pt. destruct (Nat.ltb_spec (ls * b) N) as [LT|GE].
      * destruct (soft_r X sy (ls * b) (N - ls * b) (m_Nmod RA m - 1) Z1) as (Z' & F & L' & I2 & I3); try lia.
        { assert (2 ^ (N - ls * b) <= 2 ^ b) by (apply Nat.pow_le_mono_r; lia). lia. }
        exists Z'. split; [exact F|]. split; [lia|]. intros k Hk. rewrite Z0. f_equal. destruct (KL k Hk) as [K|[-> K]].
        -- rewrite !I2 by lia. apply I1. exact K.
        -- unfold mean, label_proba. rewrite !WL.
           replace ls with (m_Nmod RA m - 1) at 1 by lia. exact I3.
      * exists Z1. split; auto. split; auto. intros k Hk. rewrite Z0. f_equal. destruct (KL k Hk) as [K|[-> K]]; [auto|lia].
Qed.

(** The weights of a symbol add to one. *)
Theorem C101_weights : forall b X k r, sum_over (2 ^ r) (fun _ => true) (label_proba b X k r) = 1%R.
Proof.
  intros b X k r. induction r as [|r IH].
  - unfold sum_over, label_proba, prod_over. cbn. ring.
  - assert (A : forall f m n, sum_over (m + n) (fun _ => true) f = (sum_over m (fun _ => true) f + sum_over n (fun _ => true) (fun i => f (m + i)%nat))%R).
    { intros f m. induction n as [|n IHn]; [rewrite Nat.add_0_r; unfold sum_over; cbn; ring|]. rewrite Nat.add_succ_r, !sum_S, IHn. ring. }
    replace (2 ^ S r) with (2 ^ r + 2 ^ r) by (cbn [Nat.pow]; lia). rewrite A.
    set (L := nth (k * b + r) X 0%R).
    rewrite (sum_scale _ _ (label_proba b X k (S r)) (label_proba b X k r) (proba L false)).
    + rewrite (sum_scale _ _ (fun i => label_proba b X k (S r) (2 ^ r + i)) (label_proba b X k r) (proba L true)).
      * rewrite IH. pose proof (proj1 (proba_check L)). lra.
      * intros j Hj _. unfold label_proba. rewrite prod_S. rewrite (Nat.add_comm (2 ^ r)). rewrite testbit_add_pow by auto. rewrite Nat.eqb_refl. fold L.
        rewrite Rmult_comm. f_equal. unfold prod_over. rewrite !all_true. f_equal. apply map_ext_in. intros l Hl. apply in_seq in Hl.
        rewrite testbit_add_pow by auto. destruct (Nat.eqb_spec l r); [lia|reflexivity].
    + intros j Hj _. unfold label_proba. rewrite prod_S. rewrite (testbit_above j r r) by auto. fold L. ring.
Qed.

(** Instance: one bit, the points 1 and -1: the soft symbol is (1 - e^-L) / (1 + e^-L), the hyperbolic tangent of L / 2. *)
Example C101_example : forall L, mean 1 1 [L] 0 (fun j => fst (nth j [(1, 0); (-1, 0)] (0, 0)))%R = ((1 - exp (- L)) / (1 + exp (- L)))%R.
Proof. intros L. unfold mean, width, sum_over, label_proba, prod_over, proba. cbn. pose proof (exp_pos (- L)). field. lra. Qed.

(* ------------------------------------------------------------------ *)
(** * OOK on a binary symmetric channel *)

(** The states of the modem after any sequence of demodulations. *)
Inductive bsc_reached (N : nat) : R * option R -> Prop :=
| Bsc_new : forall x, bsc_reached N (x, None)
| Bsc_call : forall st CP Y Y2 st' L, bsc_reached N st -> bsc_demodulate RA logit (1 / 10 ^ 10)%R st N CP Y Y2 = Ret (st', L) -> bsc_reached N st'.

(** The LLR of a received bit y is ln((1-p)/p) if y = 0 and the opposite if y = 1, for an error probability p between 0 and 1;
    that of 10^-10 if p = 0. *)
Theorem C99_bsc : forall N st p (X : list bool) (Y Y2 : list R), bsc_reached N st -> (0 <= p < 1)%R -> length Y = N -> length Y2 = N ->
  (forall i, i < N -> nth i Y 0%R = if nth i X false then 1%R else 0%R) ->
  exists st' L, bsc_demodulate RA logit (1 / 10 ^ 10)%R st N p Y Y2 = Ret (st', L) /\ length L = N /\
    let q := if Req_EM_T p 0 then (1 / 10 ^ 10)%R else p in
    forall i, i < N -> nth i L 0%R = if nth i X false then (- ln ((1 - q) / q))%R else ln ((1 - q) / q).
Proof.
  intros N st p X Y Y2 HR Hp LY L2 HY. set (tiny := (1 / 10 ^ 10)%R).
  assert (TP : (0 < tiny < 1)%R) by (unfold tiny; lra).
  assert (S : match snd st with None => True | Some cp => fst st = logit (if Req_EM_T cp 0 then tiny else cp) end).
  { clear - HR. induction HR as [x|st CP Y Y2 st' L HR IH E]; [exact I|]. unfold bsc_demodulate in E.
    match type of E with bind ?x _ = _ => destruct x; [|discriminate|discriminate] end. cbn [bind] in E. inversion E; subst; clear E. cbn [fst snd].
    unfold cp_new. destruct (snd st) as [l|]; cbn [RA neq ofZ] in *.
    - destruct (Req_EM_T CP l) as [->|]; [exact IH|]. destruct (Req_EM_T CP 0); reflexivity.
    - destruct (Req_EM_T CP 0); reflexivity. }
  set (q := if Req_EM_T p 0 then tiny else p). assert (HQ : (0 < q < 1)%R) by (unfold q; destruct (Req_EM_T p 0); lra).
  unfold bsc_demodulate. fold tiny.
  match goal with |- context [for_ N (fun i Y2 => y <- rd Y i ;; wr Y2 i (sub RA (mul RA (mul RA _ ?l) y) ?l))] => assert (EL : l = logit q) end.
  { unfold q, cp_new. clear HR. destruct st as [st1 [l|]]; cbn [fst snd RA neq ofZ] in *.
    - destruct (Req_EM_T p l) as [->|]; [exact S|]. destruct (Req_EM_T p 0); reflexivity.
    - destruct (Req_EM_T p 0); reflexivity. }
  rewrite EL. cbn [RA num sub mul ofZ].
  rewrite (for1_fill R 0%R (fun i => 2 * logit q * nth i Y 0 - logit q)%R (fun i => i)).
  - cbn [bind]. eexists _, _. split; [reflexivity|]. split; [rewrite length_tab; auto|]. intros i Hi. rewrite nth_tab by (cbn [RA num]; lia). rewrite HY by auto.
    assert (LQ : ln ((1 - q) / q) = (- logit q)%R).
    { unfold logit. rewrite <- ln_Rinv by (apply Rdiv_lt_0_compat; lra). f_equal. field. lra. }
    rewrite LQ. destruct (nth i X false); ring.
  - intros i x Hi Lx. cbn [RA num] in *. split; [lia|]. rewrite (rd_ok _ 0%R) by lia. reflexivity.
  - intros i Hi. exists i. cbn [RA num] in *. split; [lia|auto].
Qed.
