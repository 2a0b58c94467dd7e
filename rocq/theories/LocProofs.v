(** Error locations from the roots of the locator polynomial (shared by the BCH and
    Reed-Solomon decoders). *)
From Coq Require Import List Arith NArith ZArith Lia Bool.
From Verif Require Import Base Copy GField BMTheory GaloisModel GFTab BCHModel BMProofs.
Import ListNotations.

Section Loc.
Variables (F : field) (n : nat) (al : F) (pf xf : F -> Z) (alpha index : list Z).
Hypothesis T : tabs F n al pf xf alpha index.
Notation "0" := (f0 F).
Notation "1" := (f1 F).
Infix "+" := (fadd F).
Infix "*" := (fmul F).
Notation "/ x" := (finv F x).
Add Ring Fring8 : (Frt F).
Notation row_ok := (row_ok F). Notation minimal := (minimal F). Notation rt := (rt F). Notation psum := (psum F).

Definition is0 (a : F) : bool := if fdec F a 0 then true else false.
Lemma is0_spec : forall a, is0 a = true <-> a = 0.
Proof. intros a. unfold is0. destruct (fdec F a 0); split; auto; discriminate. Qed.

(** The i in lo..lo+k-1 whose alpha^i is a root, and the locations n - i. *)
Definition rts (sg : nat -> F) (l lo k : nat) : list nat := filter (fun i => is0 (rt sg l (pw F al i))) (seq lo k).
Definition locs (sg : nat -> F) (l : nat) : list nat := map (fun i => n - i)%nat (rts sg l 1 n).

Lemma al_n0 : forall i, pw F al i <> 0.
Proof. intros. apply pw_n0. apply (tb_al0 _ _ _ _ _ _ _ T). Qed.
Lemma pw_al_inj1 : forall i j, 1 <= i <= n -> 1 <= j <= n -> pw F al i = pw F al j -> i = j.
Proof.
  intros i j Hi Hj E. rewrite <- (tb_mod _ _ _ _ _ _ _ T i), <- (tb_mod _ _ _ _ _ _ _ T j) in E. pose proof (tb_n _ _ _ _ _ _ _ T).
  apply (tb_inj _ _ _ _ _ _ _ T) in E; try (apply Nat.mod_upper_bound; lia).
  destruct (Nat.eq_dec i n) as [->|]; destruct (Nat.eq_dec j n) as [->|]; auto.
  - rewrite Nat.mod_same, Nat.mod_small in E by lia. lia.
  - rewrite Nat.mod_same, Nat.mod_small in E by lia. lia.
  - rewrite !Nat.mod_small in E by lia. auto.
Qed.
Lemma NoDup_pw : forall E, NoDup E -> (forall j, In j E -> j < n) -> NoDup (map (pw F al) E).
Proof.
  intros E ND H. induction ND as [|a E Ha ND IH]; cbn [map]; constructor.
  - intros C. apply in_map_iff in C. destruct C as (y & Ey & Hy). apply (tb_inj _ _ _ _ _ _ _ T) in Ey. { subst. auto. } { apply H. cbn; auto. } { apply H. cbn; auto. }
  - apply IH. intros. apply H. cbn; auto.
Qed.
Lemma NoDup_pw1 : forall E, NoDup E -> (forall j, In j E -> 1 <= j <= n) -> NoDup (map (pw F al) E).
Proof.
  intros E ND H. induction ND as [|a E Ha ND IH]; cbn [map]; constructor.
  - intros C. apply in_map_iff in C. destruct C as (y & Ey & Hy). apply pw_al_inj1 in Ey. { subst. auto. } { apply H. cbn; auto. } { apply H. cbn; auto. }
  - apply IH. intros. apply H. cbn; auto.
Qed.
Lemma in_rts : forall sg l lo k i, In i (rts sg l lo k) <-> lo <= i < lo + k /\ rt sg l (pw F al i) = 0.
Proof. intros. unfold rts. rewrite filter_In, in_seq, is0_spec. tauto. Qed.
Lemma rts_NoDup : forall sg l lo k, NoDup (rts sg l lo k).
Proof. intros. apply NoDup_filter, seq_NoDup. Qed.
Lemma rts_le : forall sg l k, sg 0%nat = 1 -> k <= n -> length (rts sg l 1 k) <= l.
Proof.
  intros sg l k H0 Hk. rewrite <- (map_length (pw F al)). apply (rt_roots F sg l); auto.
  - apply NoDup_pw1. { apply rts_NoDup. } intros j Hj. apply in_rts in Hj. lia.
  - intros y Hy. apply in_map_iff in Hy. destruct Hy as (i & <- & Hi). apply in_rts in Hi. tauto.
Qed.
Lemma rts_S : forall sg l lo k, rts sg l lo (S k) = rts sg l lo k ++ (if is0 (rt sg l (pw F al (lo + k))) then [(lo + k)%nat] else []).
Proof. intros. unfold rts. rewrite seq_S, filter_app. cbn [filter]. auto. Qed.

Lemma in_locs : forall sg l p, In p (locs sg l) <-> p < n /\ rt sg l (/ pw F al p) = 0.
Proof.
  intros sg l p. unfold locs. rewrite in_map_iff. split.
  - intros (i & <- & Hi). apply in_rts in Hi. destruct Hi as [Hi Hr]. split; [lia|]. rewrite (tb_inv_pw _ _ _ _ _ _ _ T) by lia. replace (n - (n - i))%nat with i by lia. auto.
  - intros [Hp Hr]. exists (n - p)%nat. split; [lia|]. apply in_rts. split; [lia|]. rewrite <- (tb_inv_pw _ _ _ _ _ _ _ T) by lia. auto.
Qed.
Lemma locs_NoDup : forall sg l, NoDup (locs sg l).
Proof.
  intros. unfold locs. assert (R : forall i, In i (rts sg l 1 n) -> i <= n) by (intros i Hi; apply in_rts in Hi; lia).
  pose proof (rts_NoDup sg l 1 n) as ND. induction ND as [|a E Ha ND IH]; cbn [map]; constructor.
  - intros C. apply in_map_iff in C. destruct C as (y & Ey & Hy). assert (y = a). { pose proof (R a ltac:(cbn; auto)). pose proof (R y ltac:(cbn; auto)). lia. } subst. auto.
  - apply IH. intros. apply R. cbn; auto.
Qed.

(** An error pattern: the value [d j] at position [j]. *)
Definition supp (d : nat -> F) (N : nat) : list nat := filter (fun j => negb (is0 (d j))) (seq 0 N).
Lemma in_supp : forall d N j, In j (supp d N) <-> j < N /\ d j <> 0.
Proof. intros. unfold supp. rewrite filter_In, in_seq, negb_true_iff. pose proof (is0_spec (d j)). destruct (is0 (d j)); split; intros [A B]; split; auto; try lia; try discriminate; intuition. Qed.
Lemma supp_NoDup : forall d N, NoDup (supp d N).
Proof. intros. apply NoDup_filter, seq_NoDup. Qed.
Definition lg (x : F) : nat := Z.to_nat (xf x).
Lemma lg_pw : forall j, j < n -> lg (pw F al j) = j.
Proof. intros. unfold lg. rewrite (tb_xf_pw _ _ _ _ _ _ _ T) by auto. apply Nat2Z.id. Qed.
Lemma pw_swap : forall j k, pw F (pw F al k) j = pw F (pw F al j) k.
Proof. intros. rewrite <- !pw_mul. f_equal. apply Nat.mul_comm. Qed.
Lemma supp_psum : forall d N k, N <= n -> gsum F N (fun j => d j * pw F (pw F al k) j) = psum (map (pw F al) (supp d N)) (fun x => d (lg x)) k.
Proof.
  intros d N k HN. unfold BMTheory.psum. rewrite lsum_map. unfold supp. rewrite lsum_filter, lsum_seq. apply gsum_ext. intros j Hj. rewrite lg_pw, pw_swap by lia.
  pose proof (is0_spec (d j)). destruct (is0 (d j)); cbn [negb]; auto. replace (d j) with 0 by (symmetry; tauto). ring.
Qed.

Lemma supp_facts : forall d N, N <= n -> NoDup (map (pw F al) (supp d N)) /\ ~ In 0 (map (pw F al) (supp d N)) /\
  (forall x, In x (map (pw F al) (supp d N)) -> d (lg x) <> 0) /\ (forall p, p < n -> In (pw F al p) (map (pw F al) (supp d N)) -> In p (supp d N)).
Proof.
  intros d N HN. split; [|split; [|split]].
  - apply NoDup_pw. { apply supp_NoDup. } intros j Hj. apply in_supp in Hj. lia.
  - intros C. apply in_map_iff in C. destruct C as (j & E & _). revert E. apply al_n0.
  - intros x Hx. apply in_map_iff in Hx. destruct Hx as (j & <- & Hj). apply in_supp in Hj. rewrite lg_pw by lia. tauto.
  - intros p Hp Hi. apply in_map_iff in Hi. destruct Hi as (j & E & Hj). apply (tb_inj _ _ _ _ _ _ _ T) in E; auto. { subst. auto. } apply in_supp in Hj. lia.
Qed.

Variables (t : nat) (S : nat -> F).

Lemma found : forall sg lu d N, row_ok S (2 * t + 1) sg lu -> minimal S (2 * t) lu -> N <= n ->
  (forall k, 1 <= k <= 2 * t -> S k = gsum F N (fun j => d j * pw F (pw F al k) j)) -> length (supp d N) <= t ->
  lu = length (supp d N) /\ (forall p, In p (locs sg lu) <-> In p (supp d N)) /\ length (locs sg lu) = lu.
Proof.
  intros sg lu d N RK MN HN HS HL. destruct (supp_facts d N HN) as (F1 & F2 & F3 & F4).
  destruct (located F S t sg lu (map (pw F al) (supp d N)) (fun x => d (lg x)) RK MN) as [E1 E2]; auto.
  { rewrite map_length. auto. } { intros k Hk. rewrite HS by auto. apply supp_psum. auto. }
  rewrite map_length in E1. split; auto.
  assert (IN : forall p, In p (locs sg lu) <-> In p (supp d N)).
  { intros p. rewrite in_locs. split.
    - intros [Hp Hr]. apply F4; auto. apply E2 in Hr. { rewrite finv_inv in Hr; auto. apply al_n0. } apply finv_n0, al_n0.
    - intros Hp. assert (p < n) by (apply in_supp in Hp; lia). split; auto. apply E2. { apply finv_n0, al_n0. } rewrite finv_inv by apply al_n0. apply in_map. auto. }
  split; auto. apply Nat.le_antisymm.
  - apply (Nat.le_trans _ (length (supp d N))); [|lia]. apply NoDup_incl_length. { apply locs_NoDup. } intros p. apply IN.
  - apply (Nat.le_trans _ (length (supp d N))); [lia|]. apply NoDup_incl_length. { apply supp_NoDup. } intros p. apply IN.
Qed.

Lemma not_found : forall lu d N, minimal S (2 * t) lu -> N <= n ->
  (forall k, 1 <= k <= 2 * t -> S k = gsum F N (fun j => d j * pw F (pw F al k) j)) -> lu <= length (supp d N).
Proof.
  intros lu d N MN HN HS. rewrite <- (map_length (pw F al)). apply (MN (locp F (map (pw F al) (supp d N)))). { apply locp_0. }
  apply (locp_gen F _ (fun x => d (lg x))). intros k Hk. rewrite HS by auto. apply supp_psum. auto.
Qed.

(** Conversely, enough roots give an error pattern. *)
Lemma inv_locs : forall sg l, map (finv F) (map (pw F al) (rts sg l 1 n)) = map (pw F al) (locs sg l).
Proof. intros. unfold locs. rewrite !map_map. apply map_ext_in. intros i Hi. apply in_rts in Hi. apply (tb_inv_pw _ _ _ _ _ _ _ T). lia. Qed.

Lemma pattern : forall sg lu, row_ok S (2 * t + 1) sg lu -> minimal S (2 * t) lu -> length (locs sg lu) = lu ->
  exists e : F -> F, (forall k, 1 <= k <= 2 * t -> S k = psum (map (pw F al) (locs sg lu)) e k) /\ forall p, In p (locs sg lu) -> e (pw F al p) <> 0.
Proof.
  intros sg lu RK MN HL. destruct (decoded F S t sg lu (map (pw F al) (rts sg lu 1 n)) RK MN) as (e & E1 & E2).
  - rewrite map_length. unfold locs in HL. rewrite map_length in HL. auto.
  - apply NoDup_pw1. { apply rts_NoDup. } intros j Hj. apply in_rts in Hj. lia.
  - intros C. apply in_map_iff in C. destruct C as (j & E & _). revert E. apply al_n0.
  - intros y Hy. apply in_map_iff in Hy. destruct Hy as (i & <- & Hi). apply in_rts in Hi. tauto.
  - exists e. rewrite inv_locs in *. split; auto. intros p Hp. apply E2. apply in_map. auto.
Qed.
End Loc.
