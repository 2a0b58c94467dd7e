(** C58: the choice of the frozen bits. C82: the values of the channels of the erasure channel. *)
From Coq Require Import List Arith Lia Bool ZArith Permutation Sorted QArith Lqa.
From Verif Require Import Base FrozenModel.
Import ListNotations.
Open Scope nat_scope.

(** ** Specification *)
(** what std::sort guarantees for a strict weak order (irreflexive, transitive, with a transitive incomparability): the same elements, none of them before a better one *)
Definition strict_weak {A} (lt : A -> A -> bool) : Prop :=
  (forall a, lt a a = false) /\ (forall a b c, lt a b = true -> lt b c = true -> lt a c = true) /\
  (forall a b c, lt a b = false -> lt b a = false -> lt b c = false -> lt c b = false -> lt a c = false /\ lt c a = false).
Definition sorts (sort : (nat -> nat -> bool) -> list nat -> list nat) : Prop :=
  forall lt l, strict_weak lt -> Permutation l (sort lt l) /\ StronglySorted (fun a b => lt b a = false) (sort lt l).
(** the free positions of [r]: the value false *)
Definition is_free (r : list bool) (i : nat) : Prop := i < length r /\ nth i r true = false.
Definition n_frozen (r : list bool) : nat := length (filter (fun b => b) r).
(** Arikan's recursion: the value of the channel [i] among 2^l *)
Fixpoint channel {R} (minus plus : R -> R) (l : nat) (z0 : R) (i : nat) : R :=
  match l with O => z0 | S l => if Nat.even i then minus (channel minus plus l z0 (i / 2)) else plus (channel minus plus l z0 (i / 2)) end.

(** ** Selection *)
Lemma filter_split : forall (r : list bool), length (filter negb r) + n_frozen r = length r.
Proof. unfold n_frozen. induction r as [|b r IH]; [reflexivity|]. cbn. destruct b; cbn; lia. Qed.
Lemma count_free : forall r (l : list nat), NoDup l -> (forall i, is_free r i <-> In i l) -> length (filter negb r) = length l.
Proof.
  intros r l ND H.
  assert (E : length (filter negb r) = length (filter (fun i => negb (nth i r true)) (seq 0 (length r)))).
  { clear. assert (G : forall q pre, length (filter negb q) = length (filter (fun i => negb (nth i (pre ++ q) true)) (seq (length pre) (length q)))).
    { induction q as [|b q IH]; intros pre; [reflexivity|]. cbn [length seq filter]. rewrite app_nth2 by lia. rewrite Nat.sub_diag. cbn [nth].
      specialize (IH (pre ++ [b])). rewrite app_length in IH. cbn [length] in IH. rewrite Nat.add_1_r, <- app_assoc in IH. cbn [app] in IH. destruct b; cbn [negb length]; rewrite IH; reflexivity. }
    exact (G r []). }
  rewrite E. apply Permutation_length. apply NoDup_Permutation; [apply NoDup_filter, seq_NoDup|exact ND|].
  intros i. rewrite <- H, filter_In, in_seq. unfold is_free. destruct (nth i r true); cbn; intuition lia || congruence.
Qed.
Lemma select_loop : forall N K order, (forall c, In c order -> c < N) -> K <= length order ->
  exists r, for_ K (fun i fb => c <- rd order i ;; wr fb c false) (repeat true N) = Ret r /\ length r = N /\ forall i, is_free r i <-> In i (firstn K order).
Proof.
  intros N K order B HK.
  destruct (for_inv _ (fun t (fb : list bool) => length fb = N /\ forall i, is_free fb i <-> In i (firstn t order)) K (fun i fb => c <- rd order i ;; wr fb c false) (repeat true N)) as (r & E & I).
  - split; [apply repeat_length|]. intros i. unfold is_free. rewrite repeat_length. cbn [firstn In]. split; [|contradiction]. intros [Hi X]. rewrite nth_repeat_lt in X by exact Hi. discriminate.
  - intros t fb Ht (L & I). rewrite (rd_ok _ 0) by lia. cbn [bind]. assert (Hc : nth t order 0 < N) by (apply B, nth_In; lia). rewrite wr_ok by lia. eexists; split; [reflexivity|].
    rewrite length_upd. split; [exact L|]. intros i.
    assert (S1 : firstn (S t) order = firstn t order ++ [nth t order 0]). { clear - Ht HK. assert (t < length order) by lia. clear - H. revert t H. induction order as [|a l IH]; intros [|t] H; cbn [length] in H; try lia; cbn [firstn nth app]; [reflexivity|]. f_equal. apply IH. lia. }
    rewrite S1, in_app_iff. unfold is_free in *. rewrite length_upd. cbn [In]. destruct (Nat.eq_dec i (nth t order 0)) as [->|Ne].
    + rewrite nth_upd_eq by lia. split; auto. intros _. split; [lia|reflexivity].
    + rewrite nth_upd_neq by auto. rewrite I. intuition congruence.
  - eauto.
Qed.
(** With any order of the N channels, K of them are free, the first ones; the N - K others are frozen. *)
Theorem C58_selection : forall N K order fb, Permutation order (seq 0 N) -> K <= N -> length fb = N ->
  exists r, generate (Ret order) K N fb = Ret (order, r) /\ length r = N /\ (forall i, is_free r i <-> In i (firstn K order)) /\ n_frozen r = N - K /\ fb_assert r K N = Ret tt.
Proof.
  intros N K order fb P HK L. unfold generate. rewrite L, Nat.eqb_refl. cbn [guard bind].
  assert (LO : length order = N) by (rewrite (Permutation_length P), seq_length; reflexivity).
  destruct (select_loop N K order) as (r & -> & LR & I); [|lia|].
  { intros c Hc. apply (Permutation_in _ P) in Hc. apply in_seq in Hc. lia. }
  cbn [bind]. exists r. split; [reflexivity|]. split; [exact LR|]. split; [exact I|].
  assert (C : length (filter negb r) = K).
  { rewrite (count_free r (firstn K order)); [rewrite firstn_length; lia| |exact I]. assert (ND : NoDup order) by (eapply Permutation_NoDup; [symmetry; exact P|apply seq_NoDup]).
    rewrite <- (firstn_skipn K order) in ND. clear - ND. induction (firstn K order) as [|a l IH]; [constructor|]. cbn in ND. inversion ND; subst. constructor; [|auto]. intros X. apply H1. apply in_or_app. auto. }
  pose proof (filter_split r). split; [lia|]. unfold fb_assert. rewrite LR, Nat.eqb_refl, C, Nat.eqb_refl. reflexivity.
Qed.
(** fb_assert accepts the patterns with N bits, K of them free, and no other. *)
Theorem C58_assert : forall fb K N, fb_assert fb K N = Ret tt <-> length fb = N /\ n_frozen fb + K = N.
Proof.
  intros fb K N. unfold fb_assert. pose proof (filter_split fb) as F. destruct (Nat.eqb_spec (length fb) N) as [E|E]; cbn [guard bind].
  - destruct (Nat.eqb_spec K (length (filter negb fb))) as [E2|E2]; cbn [guard]; split; intros H; try discriminate; try (split; lia); try reflexivity. lia.
  - split; [discriminate|]. intros [X _]. congruence.
Qed.
(** the size is checked first *)
Theorem C58_size : forall ev K N fb, length fb <> N -> generate ev K N fb = Throws.
Proof. intros ev K N fb H. unfold generate. apply Nat.eqb_neq in H. rewrite H. reflexivity. Qed.

(** ** Orders in a file *)
Lemma read_all : forall words best i pre, length pre = i -> length best = i + length words -> firstn i best = pre ->
  read_channels i (length words) (map Some words) best = pre ++ words.
Proof.
  induction words as [|c words IH]; intros best i pre L LB F; cbn [length map read_channels].
  - rewrite app_nil_r, <- F. symmetry. apply firstn_all2. cbn in LB. lia.
  - cbn [length] in LB. rewrite (IH _ _ (pre ++ [c])).
    + rewrite <- app_assoc. reflexivity. + rewrite app_length. cbn. lia. + rewrite length_upd. lia.
    + subst i. apply (list_eq_nth _ 0).
      * rewrite firstn_length, length_upd, app_length. cbn [length]. lia.
      * rewrite firstn_length, length_upd. intros j Hj. rewrite firstn_nth by lia. destruct (Nat.eq_dec j (length pre)) as [->|Ne].
        -- rewrite nth_upd_eq by lia. rewrite app_nth2, Nat.sub_diag by lia. reflexivity.
        -- rewrite nth_upd_neq by lia. rewrite app_nth1 by lia. rewrite <- F. rewrite firstn_nth by lia. reflexivity.
Qed.
Lemma load_all : forall words best, length best = length words ->
  load_channels_file (Some (mkFile (Some (Z.of_nat (length words))) (map Some words))) best = Ret (Some words).
Proof.
  intros words best L. unfold load_channels_file. cbn [f_N f_channels]. rewrite L, Z.eqb_refl. cbn [guard bind]. rewrite (read_all words best 0 []); [reflexivity|reflexivity|exact L|reflexivity].
Qed.
(** A file made for this N that lists all the channels: whatever the order kept from another call *)
Theorem C58_file : forall N K order fb before, Permutation order (seq 0 N) -> K <= N -> length fb = N -> length before = N ->
  exists r, generate (evaluate_file (Some (mkFile (Some (Z.of_nat N)) (map Some order))) before) K N fb = Ret (order, r) /\
    length r = N /\ (forall i, is_free r i <-> In i (firstn K order)) /\ n_frozen r = N - K.
Proof.
  intros N K order fb before P HK L LB. assert (LO : length order = N) by (rewrite (Permutation_length P), seq_length; reflexivity).
  unfold evaluate_file. replace (Z.of_nat N) with (Z.of_nat (length order)) by (rewrite LO; reflexivity). rewrite load_all by congruence. cbn [bind]. destruct (C58_selection N K order fb P HK L) as (r & E & A & B & C & _). exists r. auto.
Qed.
Lemma filter_seq : forall M N, N <= M -> filter (fun c => c <? N) (seq 0 M) = seq 0 N.
Proof.
  intros M N H. replace M with (N + (M - N)) by lia. rewrite seq_app, filter_app. cbn [Nat.add].
  assert (A : filter (fun c => c <? N) (seq 0 N) = seq 0 N).
  { assert (G : forall l, (forall x, In x l -> x < N) -> filter (fun c => c <? N) l = l). { induction l as [|x l IH]; intros Hl; [reflexivity|]. cbn [filter]. replace (x <? N) with true by (symmetry; apply Nat.ltb_lt, Hl; left; reflexivity). f_equal. apply IH. intros; apply Hl; right; auto. }
    apply G. intros x Hx. apply in_seq in Hx. lia. }
  assert (B : filter (fun c => c <? N) (seq N (M - N)) = []).
  { assert (G : forall l, (forall x, In x l -> N <= x) -> filter (fun c => c <? N) l = []). { induction l as [|x l IH]; intros Hl; [reflexivity|]. cbn [filter]. replace (x <? N) with false by (symmetry; apply Nat.ltb_ge, Hl; left; reflexivity). apply IH. intros; apply Hl; right; auto. }
    apply G. intros x Hx. apply in_seq in Hx. lia. }
  rewrite A, B, app_nil_r. reflexivity.
Qed.
Lemma filter_perm : forall A (f : A -> bool) l l', Permutation l l' -> Permutation (filter f l) (filter f l').
Proof.
  intros A f l l' H. induction H; cbn [filter]; auto.
  - destruct (f x); auto. - destruct (f x), (f y); auto. apply perm_swap. - eapply perm_trans; eauto.
Qed.
Lemma firstn_S_nth : forall A (d : A) l i, i < length l -> firstn (S i) l = firstn i l ++ [nth i l d].
Proof. intros A d l. induction l as [|a l IH]; intros [|i] H; cbn [length] in H; try lia; cbn [firstn nth app]; [reflexivity|]. f_equal. apply IH. lia. Qed.
Lemma filter_firstn_le : forall A (f : A -> bool) l i, length (filter f (firstn i l)) <= length (filter f l).
Proof. intros A f l i. rewrite <- (firstn_skipn i l) at 2. rewrite filter_app, app_length. lia. Qed.
Lemma sub_order : forall (mother best : list nat) N, length (filter (fun c => c <? N) mother) = N -> length best = N ->
  exists best', for_ (length mother) (fun i st => let '(j, best) := st in c <- rd mother i ;; if c <? N then best <- wr best j c ;; Ret (S j, best) else Ret (j, best)) (0, best) = Ret (N, best') /\
    best' = filter (fun c => c <? N) mother.
Proof.
  intros mother best N LF LB. set (fl := fun i => filter (fun c => c <? N) (firstn i mother)).
  assert (Step : forall i, i < length mother -> fl (S i) = fl i ++ (if nth i mother 0 <? N then [nth i mother 0] else [])).
  { intros i Hi. unfold fl. rewrite (firstn_S_nth _ 0) by exact Hi. rewrite filter_app. cbn [filter]. reflexivity. }
  match goal with |- context [for_ ?n ?body ?s] => destruct (for_inv _ (fun i (st : nat * list nat) => fst st = length (fl i) /\ length (snd st) = N /\ firstn (fst st) (snd st) = fl i) n body s) as ((j & b) & E & I1 & I2 & I3) end.
  - cbn. auto.
  - intros i [j b] Hi (I1 & I2 & I3). cbn [fst snd] in *. rewrite (rd_ok _ 0) by exact Hi. cbn [bind]. rewrite (Step i Hi). pose proof (filter_firstn_le _ (fun c => c <? N) mother (S i)) as LE. fold (fl (S i)) in LE. rewrite (Step i Hi) in LE.
    destruct (nth i mother 0 <? N) eqn:C.
    + rewrite app_length in LE. cbn [length] in LE. rewrite wr_ok by lia. cbn [bind]. eexists. split; [reflexivity|]. cbn [fst snd]. rewrite length_upd, app_length. cbn [length]. split; [lia|]. split; [exact I2|].
      rewrite (firstn_S_nth _ 0) by (rewrite length_upd; lia). rewrite nth_upd_eq by lia. f_equal. rewrite <- I3. apply (list_eq_nth _ 0); rewrite !firstn_length, ?length_upd; [reflexivity|].
      intros q Hq. rewrite !firstn_nth by lia. rewrite nth_upd_neq by lia. reflexivity.
    + eexists. split; [reflexivity|]. cbn [fst snd]. rewrite app_nil_r. auto.
  - cbn [fst snd] in *. unfold fl in I1, I3. rewrite firstn_all in I1, I3. rewrite LF in I1. subst j. exists b. split; [exact E|]. rewrite <- I3. symmetry. apply firstn_all2. lia.
Qed.
(** The 5G order: that of the file of the longest code, restricted to the channels of this one *)
Theorem C58_5G : forall N K mother fb before, Permutation mother (seq 0 N_max) -> N <= N_max -> K <= N -> length fb = N -> length before = N ->
  exists r, generate (evaluate_5G (Some (mkFile (Some (Z.of_nat N_max)) (map Some mother))) N before) K N fb = Ret (filter (fun c => c <? N) mother, r) /\
    length r = N /\ (forall i, is_free r i <-> In i (firstn K (filter (fun c => c <? N) mother))) /\ n_frozen r = N - K.
Proof.
  intros N K mother fb before P HN HK L LB. assert (LM : length mother = N_max) by (rewrite (Permutation_length P); apply seq_length).
  unfold evaluate_5G. replace (Z.of_nat N_max) with (Z.of_nat (length mother)) by (rewrite LM; reflexivity). rewrite load_all by (rewrite repeat_length; congruence). cbn [bind].
  pose proof (filter_perm _ (fun c => c <? N) _ _ P) as PF. rewrite filter_seq in PF by exact HN.
  destruct (sub_order mother before N) as (b & E & ->); [rewrite (Permutation_length PF); apply seq_length|exact LB|]. rewrite E. cbn [bind]. rewrite Nat.eqb_refl. cbn [guard bind].
  destruct (C58_selection N K _ fb PF HK L) as (r & E' & A & B & C & _). exists r. auto.
Qed.

(** ** Orders computed from values *)
Section Values.
Context {R : Type}.
Variables (better : R -> R -> bool) (sort : (nat -> nat -> bool) -> list nat -> list nat) (d : R).
Hypothesis HB : strict_weak better.
Hypothesis HS : sorts sort.
Lemma sort_channels_ok : forall z N, N <= length z -> exists order, sort_channels better sort d z N = Ret order /\ Permutation order (seq 0 N) /\
  StronglySorted (fun a b => better (nth b z d) (nth a z d) = false) order.
Proof.
  intros z N H. unfold sort_channels. replace (length z <? N) with false by (symmetry; apply Nat.ltb_ge; exact H). eexists. split; [reflexivity|].
  destruct (HS (fun i1 i2 => better (nth i1 z d) (nth i2 z d)) (seq 0 N)) as [P Q].
  - destruct HB as (H1 & H2 & H3). repeat split; intros; eauto; eapply H3; eauto.
  - split; [symmetry; exact P|exact Q].
Qed.
Lemma sorted_split : forall (P : nat -> nat -> Prop) l k, StronglySorted P l -> forall a b, In a (firstn k l) -> In b (skipn k l) -> P a b.
Proof.
  intros P l k H. revert k. induction H as [|x l H IH F]; intros [|k] a b Ia Ib; cbn in Ia, Ib; try contradiction.
  destruct Ia as [->|Ia]; [|eauto]. rewrite Forall_forall in F. apply F. rewrite <- (firstn_skipn k l). apply in_or_app. auto.
Qed.
(** No frozen channel is better than a free one. *)
Lemma best_free : forall z N K fb, length fb = N -> N <= length z -> K <= N ->
  exists order r, generate (sort_channels better sort d z N) K N fb = Ret (order, r) /\ Permutation order (seq 0 N) /\ length r = N /\ n_frozen r = N - K /\
    (forall i, is_free r i <-> In i (firstn K order)) /\
    forall i j, i < N -> j < N -> nth i r true = false -> nth j r true = true -> better (nth j z d) (nth i z d) = false.
Proof.
  intros z N K fb L LZ HK. destruct (sort_channels_ok z N LZ) as (order & E & P & S1). destruct (C58_selection N K order fb P HK L) as (r & E' & LR & I & C & _).
  exists order, r. unfold generate in *. rewrite E. rewrite L in *. rewrite Nat.eqb_refl in *. cbn [guard bind] in *. split; [exact E'|]. split; [exact P|]. split; [exact LR|]. split; [exact C|]. split; [exact I|].
  intros i j Hi Hj Fi Fj. apply (sorted_split _ _ K S1).
  - apply I. split; [lia|exact Fi].
  - assert (X : In j order) by (eapply Permutation_in; [symmetry; exact P|apply in_seq; lia]). rewrite <- (firstn_skipn K order) in X. apply in_app_or in X. destruct X as [X|X]; [|exact X].
    apply I in X. destruct X as [_ X]. congruence.
Qed.
Variables minus plus : R -> R.
Lemma even_odd_idx : forall j, Nat.even (2 * j) = true /\ (2 * j) / 2 = j /\ Nat.even (2 * j + 1) = false /\ (2 * j + 1) / 2 = j.
Proof.
  intros j. repeat split.
  - rewrite Nat.even_mul. reflexivity.
  - rewrite Nat.mul_comm. apply Nat.div_mul. lia.
  - rewrite Nat.add_1_r, Nat.even_succ. rewrite Nat.odd_mul. reflexivity.
  - rewrite Nat.add_comm, Nat.mul_comm, Nat.div_add by lia. reflexivity.
Qed.
Lemma pow_pos2 : forall k, 0 < 2 ^ k.
Proof. induction k; cbn; lia. Qed.
Lemma polarize_ok : forall m z z0, length z = 2 ^ m -> nth 0 z d = z0 -> polarize minus plus m z = Ret (tab (2 ^ m) (channel minus plus m z0)).
Proof.
  intros m z z0 L H0. unfold polarize. set (W := channel minus plus).
  match goal with |- context [for_ m ?body z] => destruct (for_inv _ (fun l (z : list R) => length z = 2 ^ m /\ forall j, j < 2 ^ l -> nth (j * 2 ^ (m - l)) z d = W l z0 j) m body z) as (r & E & LR & I) end.
  - split; [exact L|]. intros j Hj. cbn in Hj. replace j with 0 by lia. cbn. exact H0.
  - intros l y Hl (LY & I). set (s := 2 ^ (m - 1 - l)). assert (Hs : 0 < s) by apply pow_pos2.
    assert (E1 : 2 ^ (m - l) = 2 * s) by (unfold s; replace (m - l) with (S (m - 1 - l)) by lia; cbn; lia).
    assert (E2 : 2 ^ m = 2 ^ l * (2 * s)) by (rewrite <- E1, <- Nat.pow_add_r; f_equal; lia).
    cbn zeta. fold s.
    match goal with |- context [for_ (2 ^ l) ?body y] => destruct (for_inv _ (fun t (z : list R) => length z = 2 ^ m /\ (forall j, j < t -> nth (j * 2 * s) z d = W (S l) z0 (2 * j) /\ nth (j * 2 * s + s) z d = W (S l) z0 (2 * j + 1)) /\
       (forall j, t <= j -> j < 2 ^ l -> nth (j * 2 * s) z d = W l z0 j)) (2 ^ l) body y) as (r & E & LR & A & B) end.
    + split; [exact LY|]. split; [intros; lia|]. intros j _ Hj. rewrite <- (I j Hj), E1. f_equal. lia.
    + intros t x Ht (LX & A & B). assert (Bd : t * 2 * s + s < 2 ^ m) by (rewrite E2; nia). rewrite (rd_ok _ d) by lia. cbn [bind]. rewrite wr_ok by lia. cbn [bind]. rewrite wr_ok by (rewrite length_upd; lia).
      eexists. split; [reflexivity|]. rewrite !length_upd. split; [exact LX|]. destruct (even_odd_idx t) as (V1 & V2 & V3 & V4). split.
      * intros j Hj. destruct (Nat.eq_dec j t) as [->|Ne].
        -- split.
           ++ rewrite nth_upd_neq by lia. rewrite nth_upd_eq by lia. unfold W. cbn [channel]. rewrite V1, V2. f_equal. apply B; lia.
           ++ rewrite nth_upd_eq by (rewrite length_upd; lia). unfold W. cbn [channel]. rewrite V3, V4. f_equal. apply B; lia.
        -- destruct (A j ltac:(lia)) as [A1 A2]. split; (rewrite nth_upd_neq by nia; rewrite nth_upd_neq by nia; assumption).
      * intros j Hj Hj2. rewrite nth_upd_neq by nia. rewrite nth_upd_neq by nia. apply B; lia.
    + exists r. split; [exact E|]. split; [exact LR|]. intros j Hj. replace (m - S l) with (m - 1 - l) by lia. fold s.
      assert (E3 : 2 ^ S l = 2 * 2 ^ l) by (cbn; lia). rewrite E3 in Hj. destruct (Nat.Even_or_Odd j) as [(q & ->)|(q & ->)].
      * destruct (A q ltac:(lia)) as [A1 _]. rewrite <- A1. f_equal. lia.
      * destruct (A q ltac:(lia)) as [_ A2]. rewrite <- A2. f_equal. lia.
  - rewrite E. f_equal. apply (eq_tab _ d); [exact LR|]. intros i Hi. rewrite <- (I i Hi). f_equal. rewrite Nat.sub_diag. cbn. lia.
Qed.
(** BEC: for a code of 2^m bits, whatever was computed before *)
Theorem C58_BEC : forall m K noise fb before, length fb = 2 ^ m -> length before = 2 ^ m -> K <= 2 ^ m ->
  let z := channel minus plus m noise in
  exists order r, evaluate_BEC better sort d minus plus (2 ^ m) noise before = Ret (tab (2 ^ m) z, order) /\
    generate (Ret order) K (2 ^ m) fb = Ret (order, r) /\ length r = 2 ^ m /\ n_frozen r = 2 ^ m - K /\
    (forall i j, i < 2 ^ m -> j < 2 ^ m -> nth i r true = false -> nth j r true = true -> better (z j) (z i) = false).
Proof.
  intros m K noise fb before L LB HK. cbn zeta. unfold evaluate_BEC. pose proof (pow_pos2 m). rewrite wr_ok by lia. cbn [bind]. rewrite Nat.log2_pow2 by lia.
  rewrite (polarize_ok m _ noise) by (rewrite ?length_upd, ?nth_upd_eq; lia || auto). cbn [bind]. set (z := tab (2 ^ m) (channel minus plus m noise)).
  assert (LZ : length z = 2 ^ m) by apply length_tab.
  destruct (best_free z (2 ^ m) K fb L ltac:(lia) HK) as (order & r & E & P & LR & C & I & Q). destruct (sort_channels_ok z (2 ^ m) ltac:(lia)) as (o2 & E2 & _).
  rewrite E2 in *. cbn [bind]. unfold generate in *. rewrite L, Nat.eqb_refl in *. cbn [guard bind] in *.
  exists order, r. destruct (for_ K _ _) as [x| |] eqn:Ef in E; cbn [bind] in E; try discriminate. injection E as -> ->. split; [reflexivity|]. split; [rewrite Ef; reflexivity|]. split; [exact LR|]. split; [exact C|].
  intros i j Hi Hj Fi Fj. specialize (Q i j Hi Hj Fi Fj). unfold z in Q. rewrite !nth_tab in Q by assumption. exact Q.
Qed.
(** GA_Arikan *)
Theorem C58_GA : forall m K noise fb before, length fb = 2 ^ m -> length before = 2 ^ m -> K <= 2 ^ m ->
  let z := channel minus plus m noise in
  exists order r, evaluate_GA better sort d minus plus (2 ^ m) noise before = Ret (tab (2 ^ m) z, order) /\
    generate (Ret order) K (2 ^ m) fb = Ret (order, r) /\ length r = 2 ^ m /\ n_frozen r = 2 ^ m - K /\
    (forall i j, i < 2 ^ m -> j < 2 ^ m -> nth i r true = false -> nth j r true = true -> better (z j) (z i) = false).
Proof.
  intros m K noise fb before L LB HK. cbn zeta. unfold evaluate_GA. pose proof (pow_pos2 m). rewrite Nat.log2_pow2 by lia.
  destruct (for_inv _ (fun t (z : list R) => length z = 2 ^ m /\ forall i, i < t -> nth i z d = noise) (2 ^ m) (fun i z => wr z i noise) before) as (y & EY & LY & IY).
  { split; [exact LB|]. intros; lia. }
  { intros t y Ht (LY & I). rewrite wr_ok by lia. eexists; split; [reflexivity|]. rewrite length_upd. split; [exact LY|]. intros i Hi. destruct (Nat.eq_dec i t) as [->|Ne]; [apply nth_upd_eq; lia|]. rewrite nth_upd_neq by lia. apply I. lia. }
  rewrite EY. cbn [bind]. rewrite (polarize_ok m y noise LY) by (apply IY; lia). cbn [bind]. set (z := tab (2 ^ m) (channel minus plus m noise)).
  assert (LZ : length z = 2 ^ m) by apply length_tab.
  destruct (best_free z (2 ^ m) K fb L ltac:(lia) HK) as (order & r & E & P & LR & C & I & Q). destruct (sort_channels_ok z (2 ^ m) ltac:(lia)) as (o2 & E2 & _).
  rewrite E2 in *. cbn [bind]. unfold generate in *. rewrite L, Nat.eqb_refl in *. cbn [guard bind] in *.
  exists order, r. destruct (for_ K _ _) as [x| |] eqn:Ef in E; cbn [bind] in E; try discriminate. injection E as -> ->. split; [reflexivity|]. split; [rewrite Ef; reflexivity|]. split; [exact LR|]. split; [exact C|].
  intros i j Hi Hj Fi Fj. specialize (Q i j Hi Hj Fi Fj). unfold z in Q. rewrite !nth_tab in Q by assumption. exact Q.
Qed.
End Values.

(** ** The hypothesis on std::sort is met by the insertion sort *)
Fixpoint insert (lt : nat -> nat -> bool) (x : nat) (l : list nat) : list nat :=
  match l with [] => [x] | y :: l => if lt y x then y :: insert lt x l else x :: y :: l end.
Definition isort (lt : nat -> nat -> bool) (l : list nat) : list nat := fold_right (insert lt) [] l.
Lemma le_trans' : forall (lt : nat -> nat -> bool), strict_weak lt -> forall a b c, lt b a = false -> lt c b = false -> lt c a = false.
Proof.
  intros lt (I & T & W) a b c H1 H2. destruct (lt c a) eqn:E; [|reflexivity]. destruct (lt a b) eqn:E1; [rewrite (T c a b E E1) in H2; discriminate|].
  destruct (lt b c) eqn:E2; [rewrite (T b c a E2 E) in H1; discriminate|]. destruct (W a b c E1 H1 E2 H2) as [_ X]. congruence.
Qed.
Lemma insert_perm : forall lt x l, Permutation (x :: l) (insert lt x l).
Proof. intros lt x l. induction l as [|y l IH]; cbn [insert]; [auto|]. destruct (lt y x); [|auto]. eapply perm_trans; [apply perm_swap|]. constructor. exact IH. Qed.
Lemma insert_sorted : forall lt, strict_weak lt -> forall x l, StronglySorted (fun a b => lt b a = false) l -> StronglySorted (fun a b => lt b a = false) (insert lt x l).
Proof.
  intros lt HW x l H. induction H as [|y l H IH F]; cbn [insert]; [repeat constructor|]. destruct (lt y x) eqn:E.
  - constructor; [exact IH|]. rewrite Forall_forall in *. intros z Hz. apply (Permutation_in _ (Permutation_sym (insert_perm lt x l))) in Hz. destruct Hz as [<-|Hz]; [|auto].
    destruct (lt x y) eqn:E2; [|reflexivity]. destruct HW as (I & T & _). rewrite <- (I x). symmetry. apply (T x y x E2 E).
  - constructor; [constructor; assumption|]. rewrite Forall_forall in *. intros z [<-|Hz]; [exact E|]. eapply le_trans'; eauto.
Qed.
Lemma isort_sorts : sorts isort.
Proof.
  intros lt l HW. induction l as [|x l [P S1]]; cbn [isort fold_right]; [split; constructor|]. split.
  - eapply perm_trans; [constructor; exact P|]. apply insert_perm. - apply insert_sorted; assumption.
Qed.

(** ** What is not checked *)
(** A file with a channel listed twice: fewer free bits than K, without an exception, *)
Theorem C58_duplicate_refuted : match generate (evaluate_file (Some (mkFile (Some 4%Z) [Some 3; Some 3; Some 2; Some 1])) [0; 1; 2; 3]) 2 4 [false; false; false; false] with
  | Ret (_, r) => n_frozen r = 3 /\ fb_assert r 2 4 = Throws | _ => False end.
Proof. vm_compute. auto. Qed.
(** a file that ends too early: the order of the last call (here the natural one) is kept, *)
Theorem C58_truncated_refuted : match generate (evaluate_file (Some (mkFile (Some 4%Z) [Some 3])) [0; 1; 2; 3]) 2 4 [false; false; false; false] with
  | Ret (order, r) => order = [3; 1; 2; 3] /\ r = [true; false; true; false] | _ => False end.
Proof. vm_compute. auto. Qed.
(** a channel out of the code: written out of the vector; *)
Theorem C58_range_refuted : forall N c fb, length fb = S N -> S N <= c -> generate (evaluate_file (Some (mkFile (Some (Z.of_nat (S N))) [Some c])) (seq 0 (S N))) 1 (S N) fb = Undef.
Proof.
  intros N c fb L H. unfold generate, evaluate_file, load_channels_file. cbn [f_N f_channels]. rewrite L, Nat.eqb_refl, seq_length, Z.eqb_refl. cbn [guard bind]. cbn [seq read_channels upd].
  assert (E : forall k i best, read_channels i k [] best = best) by (intros [|k]; reflexivity). rewrite E. cbn [bind]. unfold for_. cbn [for_from]. rewrite (rd_ok _ 0) by (cbn; lia). cbn [bind nth].
  rewrite wr_out by (rewrite repeat_length; lia). reflexivity.
Qed.
(** more free bits than channels: read out of the order; *)
Theorem C58_K_refuted : forall N K order fb, Permutation order (seq 0 N) -> length fb = N -> N < K -> generate (Ret order) K N fb = Undef.
Proof.
  intros N K order fb P L H. unfold generate. rewrite L, Nat.eqb_refl. cbn [guard bind]. assert (LO : length order = N) by (rewrite (Permutation_length P), seq_length; reflexivity).
  replace K with (N + S (K - N - 1)) by lia. unfold for_. rewrite for_from_app.
  destruct (select_loop N N order) as (r & E & _); [intros c Hc; apply (Permutation_in _ P) in Hc; apply in_seq in Hc; lia|lia|]. unfold for_ in E. rewrite E. cbn [bind for_from Nat.add]. rewrite rd_out by lia. reflexivity.
Qed.
(** a length that is not a power of two: no value for the last channels. *)
Theorem C58_length_refuted : forall R (better : R -> R -> bool) sort d minus plus N noise before, 0 < N -> length before = 2 ^ Nat.log2 N -> N <> 2 ^ Nat.log2 N ->
  evaluate_BEC better sort d minus plus N noise before = Undef.
Proof.
  intros R better sort d minus plus N noise before HN L NE. unfold evaluate_BEC. pose proof (pow_pos2 (Nat.log2 N)). rewrite wr_ok by lia. cbn [bind].
  rewrite (polarize_ok d minus plus _ _ noise) by (rewrite ?length_upd, ?nth_upd_eq; lia || auto). cbn [bind]. unfold sort_channels. rewrite length_tab.
  destruct (Nat.log2_spec N HN) as [A _]. replace (2 ^ Nat.log2 N <? N) with true by (symmetry; apply Nat.ltb_lt; lia). reflexivity.
Qed.

(** ** C82: the erasure channel, in exact arithmetic (the code computes with the logarithms of these values) *)
Definition bec_minus (z : Q) : Q := (2 * z - z * z)%Q.
Definition bec_plus (z : Q) : Q := (z * z)%Q.
Definition bec := channel bec_minus bec_plus.
Lemma bec_range : forall l z0 i, (0 <= z0 <= 1)%Q -> (0 <= bec l z0 i <= 1)%Q.
Proof.
  induction l as [|l IH]; intros z0 i H; [exact H|]. unfold bec in *. cbn [channel]. specialize (IH z0 (i / 2)%nat H). set (t := channel bec_minus bec_plus l z0 (i / 2)) in *. clearbody t.
  destruct (Nat.even i); unfold bec_minus, bec_plus; split; nra.
Qed.
(** A channel with more ones in its index is at least as reliable *)
Theorem C82_order : forall m z0 i j, (0 <= z0 <= 1)%Q -> (forall k, Nat.testbit i k = true -> Nat.testbit j k = true) -> (bec m z0 j <= bec m z0 i)%Q.
Proof.
  induction m as [|m IH]; intros z0 i j H B; [apply Qle_refl|]. unfold bec in *. cbn [channel].
  assert (B2 : forall k, Nat.testbit (i / 2) k = true -> Nat.testbit (j / 2) k = true) by (intros k; change 2 with (2 ^ 1); rewrite !Nat.div_pow2_bits; apply B).
  specialize (IH z0 (i / 2)%nat (j / 2)%nat H B2). pose proof (bec_range m z0 (i / 2)%nat H) as Ri. pose proof (bec_range m z0 (j / 2)%nat H) as Rj. unfold bec in Ri, Rj.
  specialize (B 0). rewrite !Nat.bit0_odd in B. rewrite <- !Nat.negb_even in B.
  set (a := channel bec_minus bec_plus m z0 (i / 2)) in *. set (b := channel bec_minus bec_plus m z0 (j / 2)) in *. clearbody a b.
  destruct (Nat.even i), (Nat.even j); cbn [negb] in B; try (specialize (B eq_refl); discriminate); unfold bec_minus, bec_plus; nra.
Qed.
Fixpoint sumQ (n : nat) (f : nat -> Q) : Q := match n with O => 0%Q | S n => (sumQ n f + f n)%Q end.
Lemma sumQ_pairs : forall n f, (sumQ (2 * n) f == sumQ n (fun j => f (2 * j)%nat + f (2 * j + 1)%nat))%Q.
Proof.
  induction n as [|n IH]; intros f; [reflexivity|]. replace (2 * S n)%nat with (S (S (2 * n))) by lia. cbn [sumQ]. rewrite IH. replace (2 * n + 1)%nat with (S (2 * n)) by lia. ring.
Qed.
Lemma sumQ_ext : forall n f g, (forall i, (i < n)%nat -> f i == g i)%Q -> (sumQ n f == sumQ n g)%Q.
Proof. induction n as [|n IH]; intros f g H; [reflexivity|]. cbn [sumQ]. rewrite (IH f g) by (intros; apply H; lia). rewrite (H n) by lia. reflexivity. Qed.
Lemma sumQ_scale : forall n f c, (sumQ n (fun i => c * f i) == c * sumQ n f)%Q.
Proof. induction n as [|n IH]; intros f c; cbn [sumQ]; [ring|]. rewrite IH. ring. Qed.
(** The polarization keeps the mean *)
Theorem C82_mean : forall m z0, (sumQ (2 ^ m) (bec m z0) == inject_Z (2 ^ Z.of_nat m) * z0)%Q.
Proof.
  induction m as [|m IH]; intros z0.
  - cbn [sumQ Nat.pow]. unfold bec. cbn [channel]. change (2 ^ Z.of_nat 0)%Z with 1%Z. ring.
  - replace (2 ^ S m)%nat with (2 * 2 ^ m)%nat by (cbn; lia). rewrite sumQ_pairs. rewrite (sumQ_ext _ _ (fun j => 2 * bec m z0 j)%Q).
    + rewrite sumQ_scale, IH. rewrite Nat2Z.inj_succ, Z.pow_succ_r by lia. rewrite inject_Z_mult. change (inject_Z 2) with 2%Q. ring.
    + intros j _. unfold bec. cbn [channel]. destruct (even_odd_idx j) as (V1 & V2 & V3 & V4). rewrite V1, V2, V3, V4. unfold bec_minus, bec_plus. ring.
Qed.
(** The values of the loop of the code, with these two functions *)
Theorem C82_values : forall m z0 before, length before = 2 ^ m -> (0 <= z0 <= 1)%Q ->
  exists z, polarize bec_minus bec_plus m (upd before 0 z0) = Ret z /\ length z = 2 ^ m /\
    (sumQ (2 ^ m) (fun i => nth i z 0) == inject_Z (2 ^ Z.of_nat m) * z0)%Q /\
    forall i j, i < 2 ^ m -> j < 2 ^ m -> (forall k, Nat.testbit i k = true -> Nat.testbit j k = true) -> (0 <= nth j z 0 <= nth i z 0)%Q /\ (nth i z 0 <= 1)%Q.
Proof.
  intros m z0 before L H. pose proof (pow_pos2 m). rewrite (polarize_ok 0%Q bec_minus bec_plus m _ z0) by (rewrite ?length_upd, ?nth_upd_eq; lia || auto).
  eexists. split; [reflexivity|]. rewrite length_tab. split; [reflexivity|]. fold bec. split.
  - rewrite <- C82_mean. apply sumQ_ext. intros i Hi. rewrite nth_tab by exact Hi. reflexivity.
  - intros i j Hi Hj B. rewrite !nth_tab by assumption. pose proof (bec_range m z0 i H). pose proof (bec_range m z0 j H). pose proof (C82_order m z0 i j H B). lra.
Qed.
Definition Qlt_b (a b : Q) : bool := negb (Qle_bool b a).
(** N = 8, erasure probability 1/2: the free channels are 3, 5, 6 and 7 *)
Example C58_case : match evaluate_BEC Qlt_b isort 0%Q (fun z => Qred (bec_minus z)) (fun z => Qred (bec_plus z)) 8 (1 # 2)%Q (repeat 0%Q 8) with
  | Ret (z, order) => order = [7; 6; 5; 3; 4; 2; 1; 0] /\ nth 3 z 0%Q = (81 # 256)%Q /\ nth 4 z 0%Q = (175 # 256)%Q /\
    match generate (Ret order) 4 8 (repeat false 8) with Ret (_, r) => r = [true; true; true; false; true; false; false; false] | _ => False end
  | _ => False end.
Proof. vm_compute. auto. Qed.
Lemma Qlt_b_weak : strict_weak Qlt_b.
Proof.
  assert (E : forall a b, Qlt_b a b = true <-> (a < b)%Q). { intros a b. unfold Qlt_b. rewrite negb_true_iff. destruct (Qle_bool b a) eqn:X; split; intros Y; try discriminate; try reflexivity. - apply Qle_bool_iff in X. lra. - apply Qnot_le_lt. intros Z. apply Qle_bool_iff in Z. congruence. }
  assert (F : forall a b, Qlt_b a b = false <-> (b <= a)%Q). { intros a b. unfold Qlt_b. rewrite negb_false_iff. apply Qle_bool_iff. }
  split; [intros a; rewrite F; lra|]. split; [intros a b c; rewrite !E; lra|]. intros a b c; rewrite !F; lra.
Qed.
Example C58_hypotheses : strict_weak Qlt_b /\ sorts isort /\ Permutation [3; 0; 2; 1] (seq 0 4).
Proof. split; [apply Qlt_b_weak|]. split; [apply isort_sorts|]. apply NoDup_Permutation; [repeat constructor; cbn; intuition lia|apply seq_NoDup|]. intros x. rewrite in_seq. cbn. lia. Qed.
