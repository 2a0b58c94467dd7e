(** Cyclotomic cosets modulo 2^m - 1. *)
From Coq Require Import List Arith ZArith Lia Bool.
From Verif Require Import Base Copy GaloisModel RepModel BCHModel.
Import ListNotations.

Lemma last_tab : forall (f : nat -> nat) k, last (tab (S k) f) 0 = f k.
Proof. intros. unfold tab. rewrite seq_S, map_app. cbn [map]. rewrite last_last. auto. Qed.
Lemma NoDup_inv_app : forall A (l1 l2 : list A), NoDup (l1 ++ l2) -> NoDup l1 /\ NoDup l2.
Proof.
  induction l1; cbn; intros l2 H. { split; auto. constructor. } inversion H; subst. destruct (IHl1 l2 H3) as [A1 A2]. split; auto.
  constructor; auto. intros C. apply H2. apply in_app_iff. auto.
Qed.
Lemma in_tab : forall A (f : nat -> A) k z, In z (tab k f) <-> exists i, i < k /\ z = f i.
Proof.
  intros. unfold tab. rewrite in_map_iff. split; intros (i & H1 & H2).
  - exists i. apply in_seq in H2. split; auto. lia.
  - exists i. split; auto. apply in_seq. lia.
Qed.
Lemma NoDup_tab : forall A (f : nat -> A) k, (forall i j, i < k -> j < k -> f i = f j -> i = j) -> NoDup (tab k f).
Proof.
  intros A f k. induction k; intros H. { constructor. } rewrite tab_S.
  apply (Permutation.Permutation_NoDup (l := f k :: tab k f)). { apply Permutation.Permutation_cons_append. }
  constructor. { rewrite in_tab. intros (i & Hi & E). apply H in E; lia. } apply IHk. intros. apply H; auto; lia.
Qed.

Section Cosets.
Variables (m n : nat).
Hypothesis Hm : 2 <= m.
Hypothesis Hn : n = 2 ^ m - 1.

Fixpoint dk (k r : nat) : nat := match k with O => r | S k => (dk k r * 2) mod n end.

Lemma n3 : 3 <= n.
Proof. assert (2 ^ 2 <= 2 ^ m) by (apply Nat.pow_le_mono_r; lia). cbn in H. lia. Qed.
Lemma pow_mod : (2 ^ m) mod n = 1.
Proof. pose proof n3. replace (2 ^ m) with (1 + 1 * n) by lia. rewrite Nat.mod_add by lia. apply Nat.mod_small. lia. Qed.
Lemma dk_pow : forall k r, r < n -> dk k r = (r * 2 ^ k) mod n.
Proof.
  intros k r Hr. pose proof n3. induction k; cbn [dk]. { rewrite Nat.mul_1_r, Nat.mod_small; auto. }
  rewrite IHk, Nat.mul_mod_idemp_l by lia. f_equal. rewrite Nat.pow_succ_r'. lia.
Qed.
Lemma dk_lt : forall k r, r < n -> dk k r < n.
Proof. intros. pose proof n3. destruct k; auto. cbn [dk]. apply Nat.mod_upper_bound. lia. Qed.
Lemma dk_m : forall r, r < n -> dk m r = r.
Proof.
  intros. pose proof n3. rewrite dk_pow by auto. rewrite <- Nat.mul_mod_idemp_r by lia. rewrite pow_mod, Nat.mul_1_r. apply Nat.mod_small. auto.
Qed.
Lemma dk_add : forall i j r, dk (i + j) r = dk i (dk j r).
Proof. induction i; intros; cbn [Nat.add dk]; [auto|rewrite IHi; auto]. Qed.
Lemma dk_mk : forall k r, r < n -> dk (k * m) r = r.
Proof. induction k; intros; auto. cbn [Nat.mul]. rewrite dk_add, IHk; auto using dk_m. Qed.
(** k more doublings undo k doublings. *)
Lemma dk_back : forall k r, r < n -> dk (k * m - k) (dk k r) = r.
Proof. intros. rewrite <- dk_add. replace (k * m - k + k) with (k * m) by nia. apply dk_mk. auto. Qed.
Lemma dk_inj : forall k a b, a < n -> b < n -> dk k a = dk k b -> a = b.
Proof. intros k a b Ha Hb E. rewrite <- (dk_back k a), <- (dk_back k b), E by auto. auto. Qed.
Lemma dk_0 : forall k, dk k 0 = 0.
Proof. pose proof n3. induction k; cbn [dk]; auto. rewrite IHk. apply Nat.mod_0_l. lia. Qed.
Lemma dk_n0 : forall k r, 0 < r < n -> dk k r <> 0.
Proof. intros k r Hr E. rewrite <- (dk_0 k) in E. pose proof n3. apply dk_inj in E; lia. Qed.
Lemma dk_1 : forall r, 0 < r < n -> dk 1 r <> r.
Proof.
  intros r Hr E. cbn [dk] in E. pose proof (Nat.div_mod (r * 2) n ltac:(lia)) as D. rewrite E in D.
  assert (r * 2 / n = 0 \/ 1 <= r * 2 / n) by lia. destruct H as [H|H]; [rewrite H in D; lia|]. nia.
Qed.

(** The orbit of r. *)
Definition orbit (r : nat) (s : list nat) : Prop := 0 < r < n /\ NoDup s /\ forall z, In z s <-> exists k, z = dk k r.

Lemma orbit_of : forall r c, 0 < r < n -> 1 <= c -> dk c r = r -> (forall i, 1 <= i < c -> dk i r <> r) -> orbit r (tab c (fun i => dk i r)).
Proof.
  intros r c Hr Hc E HI. split; auto. split.
  - apply NoDup_tab. assert (G : forall i j, i < j -> j < c -> dk i r = dk j r -> False).
    { intros i j Hij Hj Eq. apply (HI (j - i)); [lia|]. symmetry. apply (dk_inj i); try lia. { apply dk_lt. lia. }
      rewrite <- dk_add. replace (i + (j - i)) with j by lia. auto. }
    intros i j Hi Hj Eq. destruct (lt_eq_lt_dec i j) as [[H|H]|H]; auto; exfalso; eapply G; eauto.
  - intros z. rewrite in_tab. split. { intros (i & _ & ->). eauto. } intros (k & ->). exists (k mod c). split. { apply Nat.mod_upper_bound. lia. }
    rewrite (Nat.div_mod k c) at 1 by lia. rewrite Nat.add_comm, dk_add. f_equal. rewrite Nat.mul_comm. generalize (k / c). induction n0; auto.
    cbn [Nat.mul]. rewrite dk_add, IHn0. auto.
Qed.

Lemma close_ok : forall fuel k r, 0 < r < n -> 1 <= k -> (forall i, 1 <= i <= k -> dk i r <> r) -> m - k <= fuel ->
  exists s, close_set fuel n (tab k (fun i => dk i r)) = Ret s /\ orbit r s.
Proof.
  induction fuel; intros k r Hr Hk HI Hf. { exfalso. apply (HI m); [lia|]. apply dk_m. lia. }
  cbn [close_set]. destruct k as [|k]; [lia|]. rewrite last_tab.
  change ((dk k r * 2) mod n) with (dk (S k) r). rewrite <- (tab_S _ (S k) (fun i => dk i r)). rewrite last_tab.
  change ((dk (S k) r * 2) mod n) with (dk (S (S k)) r). replace (hd 0 (tab (S (S k)) (fun i => dk i r))) with r by reflexivity.
  destruct (Nat.eqb_spec (dk (S (S k)) r) r) as [E|E].
  - eexists. split; [reflexivity|]. apply orbit_of; auto; try lia. intros i Hi. apply HI. lia.
  - destruct (IHfuel (S (S k)) r) as (s & Es & O); auto; try lia. 2:{ eauto. }
    intros i Hi. destruct (Nat.eq_dec i (S (S k))) as [->|]; auto. apply HI. lia.
Qed.

Lemma close_one : forall r, 0 < r < n -> exists s, close_set (S n) n [r] = Ret s /\ orbit r s.
Proof.
  intros r Hr. change [r] with (tab 1 (fun i => dk i r)). apply close_ok; auto.
  - intros i Hi. replace i with 1 by lia. apply dk_1. auto.
  - assert (forall k, k < 2 ^ k) by (induction k; cbn; lia). specialize (H m). lia.
Qed.

Lemma existsb_eqb : forall r s, existsb (Nat.eqb r) s = true <-> In r s.
Proof.
  intros. rewrite existsb_exists. split. { intros (x & H & E). apply Nat.eqb_eq in E. subst. auto. } intros. exists r. rewrite Nat.eqb_refl. auto.
Qed.
Lemma existsb_sets : forall r ss, existsb (existsb (Nat.eqb r)) ss = true <-> In r (concat ss).
Proof.
  intros. rewrite existsb_exists, in_concat. split; intros (x & H & E); exists x; split; auto; apply existsb_eqb; auto.
Qed.

Lemma find_ok : forall fuel rep s0 ss, rep < n - 1 -> (forall z, 1 <= z <= rep -> In z (concat ss)) -> n - rep <= fuel ->
  exists rep' test, find_rep fuel n (s0 :: ss) rep = Ret (rep', test) /\ rep < rep' <= n - 1 /\
    (forall z, 1 <= z < rep' -> In z (concat ss)) /\ (test = true -> rep' = n - 1 /\ In rep' (concat ss)) /\ (test = false -> ~ In rep' (concat ss)).
Proof.
  induction fuel; intros rep s0 ss Hr HC Hf. { lia. } cbn [find_rep tl].
  pose proof (existsb_sets (S rep) ss) as X. destruct (existsb (existsb (Nat.eqb (S rep))) ss) eqn:E; cbn [andb].
  - destruct (Nat.ltb_spec (S rep) (n - 1)) as [L|L].
    + destruct (IHfuel (S rep) s0 ss) as (rep' & test & E2 & R & H1 & H2 & H3); auto; try lia.
      { intros z Hz. destruct (Nat.eq_dec z (S rep)) as [->|]. { apply X. auto. } apply HC. lia. }
      exists rep', test. repeat split; auto; try lia; try apply H2; auto.
    + exists (S rep), true. split; auto. split; [lia|]. split. { intros. apply HC. lia. } split. { intros _. split. lia. apply X. auto. } discriminate.
  - exists (S rep), false. split; auto. split; [lia|]. split. { intros. apply HC. lia. } split; [discriminate|]. intros _ C. apply X in C. discriminate.
Qed.

Definition good (ss : list (list nat)) : Prop := NoDup (concat ss) /\ forall s, In s ss -> exists r, orbit r s.

Lemma NoDup_app : forall A (l1 l2 : list A), NoDup l1 -> NoDup l2 -> (forall x, In x l1 -> ~ In x l2) -> NoDup (l1 ++ l2).
Proof.
  intros A l1 l2 H1 H2 H. induction H1; cbn; auto. constructor. { rewrite in_app_iff. intros [C|C]; auto. apply (H x); cbn; auto. }
  apply IHNoDup. intros y Hy. apply H. cbn; auto.
Qed.

Lemma orbit_dk : forall r s z k, orbit r s -> z < n -> (In (dk k z) s <-> In z s).
Proof.
  intros r s z k (Hr & ND & O) Hz. rewrite !O. split; intros (j & E).
  - exists (k * m - k + j). rewrite dk_add, <- E, dk_back; auto.
  - exists (k + j). rewrite dk_add, E. auto.
Qed.
Lemma orbit_range : forall r s z, orbit r s -> In z s -> 0 < z < n.
Proof.
  intros r s z (Hr & ND & O) H. apply O in H. destruct H as (k & ->). pose proof (dk_lt k r ltac:(lia)). pose proof (dk_n0 k r Hr). lia.
Qed.
Lemma good_dk : forall ss z k, good ss -> z < n -> (In (dk k z) (concat ss) <-> In z (concat ss)).
Proof.
  intros ss z k (ND & G) Hz. rewrite !in_concat. split; intros (s & Hs & H); exists s; split; auto; destruct (G s Hs) as (r & O);
  apply (orbit_dk r s z k O Hz); auto.
Qed.

Lemma good_add : forall ss r s, good ss -> orbit r s -> ~ In r (concat ss) -> good (ss ++ [s]).
Proof.
  intros ss r s G O H. pose proof G as (ND & GS). split.
  - rewrite concat_app. cbn [concat]. rewrite app_nil_r. apply NoDup_app; auto. { apply O. } intros z Hz C. apply H.
    destruct O as (Hr & NDs & O). apply O in C. destruct C as (k & ->). apply (good_dk ss r k); auto. lia.
  - intros x Hx. apply in_app_iff in Hx. destruct Hx as [Hx|[<-|[]]]; auto. exists r. auto.
Qed.

Lemma gen_ok : forall fuel rep r ss, good ss -> 0 < r < n -> ~ In r (concat ss) -> rep < n - 1 ->
  (forall s, orbit r s -> forall z, 1 <= z <= rep -> In z (concat (ss ++ [s]))) -> n - rep <= fuel ->
  exists ss', gen_sets fuel n (([0] :: ss) ++ [[r]]) rep = Ret ([0] :: ss') /\ good ss' /\ (forall z, 0 < z < n -> In z (concat ss')).
Proof.
  induction fuel; intros rep r ss G Hr Hnr Hrep HC Hf. { lia. } cbn [gen_sets]. pose proof n3 as N3.
  rewrite last_last, removelast_last. destruct (close_one r Hr) as (s & Es & O). rewrite Es. cbn [bind].
  pose proof (good_add ss r s G O Hnr) as G2. cbn [app].
  destruct (find_ok (S n) rep [0] (ss ++ [s])) as (rep' & test & Ef & R & F1 & F2 & F3); auto; [lia|].
  rewrite Ef. cbn [bind]. destruct test.
  - destruct (F2 eq_refl) as [-> FI]. destruct (Nat.ltb_spec (n - 1) (n - 1)); [lia|]. eexists. split; [reflexivity|]. split; auto.
    intros z Hz. destruct (Nat.eq_dec z (n - 1)) as [->|]; auto. apply F1. lia.
  - specialize (F3 eq_refl). destruct (Nat.ltb_spec rep' (n - 1)) as [L|L].
    + change ([0] :: (ss ++ [s]) ++ [[rep']]) with (([0] :: ss ++ [s]) ++ [[rep']]).
      destruct (IHfuel rep' rep' (ss ++ [s])) as (ss' & E & H1); auto; try lia. 2:{ exists ss'. split; auto. }
      intros s2 O2 z Hz. rewrite concat_app, in_app_iff. destruct (Nat.eq_dec z rep') as [->|]. { right. cbn. rewrite app_nil_r. apply O2. exists 0. auto. }
      left. apply F1. lia.
    + exfalso. apply F3. replace rep' with (n - 1) by lia. 
      assert (E : n - 1 = dk 1 (2 ^ (m - 1) - 1)).
      { cbn [dk]. replace (2 ^ (m - 1) - 1) with ((n - 1) / 2).
        - assert (E : n - 1 = 2 * (2 ^ (m - 1) - 1)). { rewrite Hn. replace m with (S (m - 1)) at 1 by lia. rewrite Nat.pow_succ_r'. lia. }
          rewrite E at 2. rewrite (Nat.mul_comm 2), Nat.div_mul by lia. rewrite Nat.mul_comm, <- E. rewrite Nat.mod_small; lia.
        - rewrite Hn. replace m with (S (m - 1)) at 1 by lia. rewrite Nat.pow_succ_r'. replace (2 * 2 ^ (m - 1) - 1 - 1) with ((2 ^ (m - 1) - 1) * 2) by lia. apply Nat.div_mul. lia. }
      assert (E2 : 2 ^ (m - 1) <= n). { rewrite Hn. replace m with (S (m - 1)) at 2 by lia. rewrite Nat.pow_succ_r'. assert (2 ^ 1 <= 2 ^ (m - 1)) by (apply Nat.pow_le_mono_r; lia). cbn in H. lia. }
      assert (E3 : 2 ^ 1 <= 2 ^ (m - 1)) by (apply Nat.pow_le_mono_r; lia). cbn in E3.
      rewrite E. apply good_dk; auto; [lia|]. apply F1. replace rep' with (n - 1) by lia.
      rewrite Hn. replace m with (S (m - 1)) at 3 by lia. rewrite Nat.pow_succ_r'. lia.
Qed.

Lemma NoDup_filter_concat : forall A (p : list A -> bool) ss, NoDup (concat ss) -> NoDup (concat (filter p ss)).
Proof.
  intros A p ss. induction ss as [|s ss IH]; cbn; auto. intros H. assert (H2 : NoDup (concat ss)) by (eapply NoDup_inv_app; eauto).
  destruct (p s); auto. cbn. apply NoDup_app; auto.
  - apply (NoDup_inv_app _ s (concat ss)). auto.
  - intros x Hx C. apply in_concat in C. destruct C as (s' & Hs & Hx'). apply filter_In in Hs.
    clear -H Hx Hs Hx'. induction s as [|a s IHs]; [destruct Hx|]. cbn in H. inversion H; subst. destruct Hx as [->|Hx]; auto.
    apply H2. rewrite in_app_iff. right. apply in_concat. exists s'. tauto.
Qed.

(** The zeros: the union of the cosets of 1, ..., d - 1. *)
Lemma zeros_ok : forall d, 2 <= d -> exists zs, bch_zeros n d = Ret (0 :: zs) /\ NoDup zs /\
  (forall z, In z zs <-> 0 < z < n /\ exists root k, 1 <= root < d /\ root < n /\ z = dk k root).
Proof.
  intros d Hd. pose proof n3 as N3. unfold bch_zeros.
  destruct (gen_ok (S n) 0 1 []) as (ss & E & G & C); try lia; auto.
  { split; cbn; [constructor|]. intros s []. }
  change [[0]; [1]] with (([0] :: []) ++ [[1]]). rewrite E. cbn [bind tl]. eexists. split; [reflexivity|]. destruct G as (ND & G).
  split. { apply NoDup_filter_concat. auto. }
  intros z. rewrite in_concat. split.
  - intros (s & Hs & Hz). apply filter_In in Hs. destruct Hs as [Hs Hp]. destruct (G s Hs) as (r & O). split. { eapply orbit_range; eauto. }
    apply existsb_exists in Hp. destruct Hp as (root & Hroot & HI). apply existsb_eqb in HI. apply in_seq in HI.
    pose proof (orbit_range r s root O Hroot). destruct O as (Hr & NDs & O). apply O in Hroot. destruct Hroot as (k & Ek). apply O in Hz. destruct Hz as (j & Ej).
    exists root, (j + (k * m - k)). split; [lia|]. split; [lia|]. rewrite dk_add, Ek, dk_back; auto. lia.
  - intros (Hz & root & k & Hroot & Hrn & Ez). pose proof (C root ltac:(lia)) as CR. apply in_concat in CR. destruct CR as (s & Hs & HI).
    exists s. split. { apply filter_In. split; auto. apply existsb_exists. exists root. split; auto. apply existsb_eqb. apply in_seq. lia. }
    destruct (G s Hs) as (r & O). rewrite Ez. apply (orbit_dk r s root k O); auto.
Qed.
End Cosets.
