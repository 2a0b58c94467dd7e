(** C43, C44 and C45: the adaptors between the stages of a pipeline. *)
From Coq Require Import List Arith Lia Bool.
From Verif Require Import Base AdaptorModel AdaptorSpec AdaptorProofs.
Import ListNotations.

Section Props.
Variable D : Type.
Variable d0 : D.
Variables (one_to_n : bool) (n : nat) (used : nat -> bool) (size nsock : nat) (active : bool) (tgt : nat -> tid) (ncan : nat).
Hypothesis Hn : 0 < n.
Hypothesis H0 : used 0 = true.
Hypothesis Hsize : 0 < size.
Local Notation exec := (exec D d0 one_to_n n used size nsock active tgt ncan).
Local Notation execs := (execs D d0 one_to_n n used size nsock active tgt ncan).
Local Notation reachable := (reachable D d0 one_to_n n used size nsock active tgt ncan).
Local Notation works := (works D d0 one_to_n n used size nsock active tgt ncan).
Local Notation quiet := (quiet D d0 one_to_n n used size nsock active tgt ncan).
Local Notation run := (run D d0 one_to_n n used size nsock active tgt ncan).
Local Notation pushes := (pushes one_to_n).
Local Notation inv s := (reachable_inv D d0 one_to_n n used size nsock active tgt ncan Hn H0 Hsize s).

(** C43: on each queue, what was pulled is the beginning of what was pushed (nothing lost, repeated, changed or out of
    order), and there are never more items in the queue than its size. *)
Theorem C43_fifo : forall s, reachable s -> forall i,
  prefix (on i (hpull s)) (on i (hpush s)) /\ length (on i (hpush s)) <= length (on i (hpull s)) + size.
Proof.
  intros s R i. destruct (inv s R) as (_ & _ & (Q & _) & (A1 & A2 & A3 & _) & _). split.
  - exists (skipn (first s i) (on i (hpush s))). rewrite A3. symmetry. apply firstn_skipn.
  - rewrite <- A1, <- A2. apply Q.
Qed.

(** Each item has the data of all the sockets. *)
Theorem C43_whole_items : forall s, reachable s -> forall i d, In (i, d) (hpush s) \/ In (i, d) (hpull s) -> length d = nsock.
Proof.
  intros s R i d H. destruct (inv s R) as (_ & _ & _ & (A1 & A2 & A3 & A4 & _) & _).
  assert (X : In d (on i (hpush s))).
  { destruct H as [H|H].
    - unfold on. apply in_map_iff. exists (i, d). split; [reflexivity|]. apply filter_In. split; [exact H|apply Nat.eqb_refl].
    - rewrite <- (firstn_skipn (first s i)). apply in_or_app. left. rewrite <- A3. unfold on. apply in_map_iff. exists (i, d). split; [reflexivity|]. apply filter_In. split; [exact H|apply Nat.eqb_refl]. }
  apply (In_nth _ _ []) in X. destruct X as (k & K1 & K2). rewrite <- A1 in K1. specialize (A4 i k K1). unfold datum in A4. rewrite K2 in A4. exact A4.
Qed.

(** The single side visits the queues of the clones in use in turn. *)
Theorem C43_round_robin : forall s, reachable s ->
  let h := if one_to_n then hpush s else hpull s in map fst h = map (in_turn n used) (seq 0 (length h)).
Proof.
  intros s R h. destruct (inv s R) as (_ & _ & _ & _ & (A & _) & _). unfold mine in A. fold h in A. rewrite A. apply map_ext. intros k. eapply turn_clone; eassumption.
Qed.

(** While a thread copies to a slot of a queue, no other thread reads or writes that slot. *)
Theorem C43_no_race : forall s, reachable s -> forall t u k k', t <> u -> pcs s t = Copy k -> pcs s u = Copy k' -> ring s t = ring s u ->
  pushes t <> pushes u /\ last s (ring s t) mod size <> first s (ring s t) mod size.
Proof.
  intros s R t u k k' N T U E. destruct (inv s R) as ((I1 & _) & _ & (Q & RM) & _).
  assert (P : pushes t <> pushes u) by (intros P; apply N; eapply (one_side _ one_to_n n used s); [apply I1; congruence|apply I1; congruence|exact P|exact E]).
  split; [exact P|]. pose proof (RM t) as RT. pose proof (RM u) as RU. rewrite T in RT. rewrite U in RU. unfold room in *. rewrite <- E in *.
  apply not_eq_sym. eapply mod_inj; try eassumption; destruct (pushes t), (pushes u); congruence || lia.
Qed.

(** C44: when nobody can go on, a thread in push waits for a full queue, a thread in pull waits for an empty one, and
    neither was cancelled. *)
Theorem C44_blocked_means_full_or_empty : forall s, reachable s -> quiet s -> forall t, in_call (pcs s t) = true ->
  waiting active (pcs s t) = true /\ canc s t = false /\
  length (on (ring s t) (hpush s)) = length (on (ring s t) (hpull s)) + (if pushes t then size else 0).
Proof.
  intros s R Q t C. pose proof (inv s R) as I. destruct (quiet_waiting _ _ _ _ _ _ _ _ _ _ s I Q t) as [X|(W & CA & ST)]; [congruence|].
  split; [exact W|]. split; [exact CA|]. destruct I as (_ & _ & _ & (A1 & A2 & _) & _). rewrite <- A1, <- A2. unfold stuck, is_full, is_empty in ST. destruct (pushes t); apply Nat.eqb_eq in ST; lia.
Qed.

(** The thread of the single side and the thread of the clone whose turn it is are never both blocked. *)
Theorem C44_no_deadlock : forall s, reachable s -> in_call (pcs s One) = true -> in_call (pcs s (Many (cur s))) = true -> exists a s', works a s s'.
Proof.
  intros s R A B. pose proof (inv s R) as I. assert (QD : quiet s \/ exists a s', works a s s') by exact (quiet_dec _ _ _ _ _ _ _ _ _ _ Hn Hsize s I). destruct QD as [Q|Q]; [|exact Q]. exfalso. exact (quiet_pair _ _ _ _ _ _ _ _ _ _ Hn Hsize s I Q A B).
Qed.

(** The threads at work do not work for ever: every schedule of their steps comes to an end (within a bound that
    depends on the state only), where nobody can go on. *)
Theorem C44_work_ends : forall s, reachable s -> exists m, forall ls s', execs (map LRun ls) s = Some s' ->
  (forall k s1 s2, k < length ls -> execs (map LRun (firstn k ls)) s = Some s1 -> exec (LRun (nth k ls (C 0))) s1 = Some s2 -> works (nth k ls (C 0)) s1 s2) -> length ls <= m.
Proof.
  intros s R. exists (work D n nsock ncan s). intros ls. revert s R. induction ls as [|a ls IH]; intros s R s' H W; [cbn; lia|].
  cbn [map AdaptorModel.execs] in H. destruct (exec (LRun a) s) as [s1|] eqn:E; [|discriminate].
  assert (WA : works a s s1) by (apply (W 0 s s1); [cbn; lia|reflexivity|exact E]).
  assert (DEC : work D n nsock ncan s1 < work D n nsock ncan s) by exact (work_step _ _ _ _ _ _ _ _ _ _ Hn Hsize a s s1 (inv s R) WA).
  specialize (IH s1 ltac:(eapply reachable_step; eassumption) s' H). cbn [length].
  assert (length ls <= work D n nsock ncan s1); [|lia]. apply IH. intros k s2 s3 K X Y. apply (W (S k) s2 s3); [cbn [length]; lia| |exact Y]. cbn [firstn map AdaptorModel.execs]. rewrite E. exact X.
Qed.

Theorem C44_settles : forall s, reachable s -> exists s', run s s' /\ quiet s'.
Proof.
  intros s. remember (work D n nsock ncan s) as m eqn:M. revert s M. induction m as [m IH] using lt_wf_ind. intros s M R.
  pose proof (inv s R) as I. assert (QD : quiet s \/ exists a s', works a s s') by exact (quiet_dec _ _ _ _ _ _ _ _ _ _ Hn Hsize s I). destruct QD as [Q|(a & s1 & W)]; [exists s; split; [constructor|exact Q]|].
  assert (work D n nsock ncan s1 < work D n nsock ncan s) by exact (work_step _ _ _ _ _ _ _ _ _ _ Hn Hsize a s s1 I W). destruct (IH (work D n nsock ncan s1) ltac:(lia) s1 eq_refl) as (s' & A & B).
  - eapply reachable_step; [exact R|apply W].
  - exists s'. split; [eapply run_step; eassumption|exact B].
Qed.

(** No wake-up is lost: when the queue of a sleeping thread is no longer full (empty), a thread is about to notify it. *)
Theorem C44_no_lost_wakeup : forall s, reachable s -> forall t, pcs s t = Sleep ->
  length (on (ring s t) (hpush s)) = length (on (ring s t) (hpull s)) + (if pushes t then size else 0) \/
  exists u, mate s u = t /\ ring s u = ring s t /\ pushes u <> pushes t /\ (pcs s u = NCheck \/ pcs s u = NLock \/ pcs s u = Notify).
Proof.
  intros s R t P. destruct (inv s R) as (_ & _ & _ & (A1 & A2 & _) & _ & J6 & _). destruct (J6 t P) as [ST|(u & AU & MU & RU & PU)].
  - left. rewrite <- A1, <- A2. unfold stuck, is_full, is_empty in ST. destruct (pushes t); apply Nat.eqb_eq in ST; lia.
  - right. exists u. split; [exact MU|]. split; [exact RU|]. split; [exact PU|]. destruct (pcs s u); try discriminate AU; auto.
Qed.

(** C45: once cancel_waiting was called on its clone, a thread in the waiting part of push or pull stays there or leaves
    with waiting_canceled, whatever happens; it does not go on to the data. *)
Theorem C45_only_throws : forall s ls s' t, canc s t = true -> in_wait (pcs s t) = true -> execs ls s = Some s' -> in_wait (pcs s' t) = true \/ pcs s' t = Thrown.
Proof.
  intros s ls s' t CA W H. assert (W' : in_wait (pcs s t) || match pcs s t with Thrown => true | _ => false end = true) by (rewrite W; reflexivity). clear W.
  assert (X : in_wait (pcs s' t) || match pcs s' t with Thrown => true | _ => false end = true).
  { revert s CA W' H. induction ls as [|l ls IH]; intros s CA W' H; cbn [AdaptorModel.execs] in H; [injection H as <-; exact W'|].
    destruct (exec l s) as [s1|] eqn:E; [|discriminate]. destruct (cancelled_step _ _ _ _ _ _ _ _ _ _ l s s1 t CA W' E). apply (IH s1); assumption. }
  apply orb_true_iff in X. destruct X as [X|X]; [left; exact X|]. right. destruct (pcs s' t); try discriminate X; reflexivity.
Qed.

(** ... and it does leave: when nobody can go on (C44_work_ends, C44_settles) no cancelled thread is left in a call. *)
Theorem C45_released : forall s, reachable s -> quiet s -> forall t, canc s t = true -> in_call (pcs s t) = false.
Proof.
  intros s R Q t CA. destruct (quiet_waiting _ _ _ _ _ _ _ _ _ _ s (inv s R) Q t) as [X|(_ & X & _)]; [exact X|congruence].
Qed.

(** When a call of cancel_waiting on its clone has returned, a thread is not asleep, and it never sleeps again. *)
Theorem C45_awake : forall s k, reachable s -> cpcs s k = CDone -> canc s (tgt k) = true /\ forall ls s', execs ls s = Some s' -> pcs s' (tgt k) <> Sleep.
Proof.
  intros s k R K. pose proof (inv s R) as (_ & _ & _ & _ & _ & _ & (_ & A2 & _) & _). split; [apply A2; congruence|].
  intros ls. revert s R K A2. induction ls as [|l ls IH]; intros s R K A2 s' H; cbn [AdaptorModel.execs] in H.
  - injection H as <-. pose proof (inv s R) as (_ & _ & _ & _ & _ & _ & (_ & _ & A3) & _). apply A3. rewrite K. exact Logic.I.
  - destruct (exec l s) as [s1|] eqn:E; [|discriminate]. assert (R1 : reachable s1) by (eapply reachable_step; eassumption).
    pose proof (inv s1 R1) as (_ & _ & _ & _ & _ & _ & (_ & A2' & _) & _). apply (IH s1); try assumption.
    eapply done_step; eassumption.
Qed.
End Props.

(** C43: splitting with an Adaptor_1_to_n and merging with an Adaptor_n_to_1 keeps the global order: if each clone pushes in
    the second adaptor, in order, the results g of what it pulled from the first one, what comes out is the beginning of
    the results of what came in, in the same order. The sizes and the waiting modes of the adaptors are any. *)
Theorem C43_split_merge_order : forall D E (d0 : D) (e0 : E) n used size size' nsock nsock' active active' tgt tgt' ncan ncan' (g : list D -> list E) s s',
  0 < n -> used 0 = true -> 0 < size -> 0 < size' ->
  reachable D d0 true n used size nsock active tgt ncan s -> reachable E e0 false n used size' nsock' active' tgt' ncan' s' ->
  (forall i, prefix (on i (hpush s')) (map g (on i (hpull s)))) ->
  prefix (map snd (hpull s')) (map g (map snd (hpush s))).
Proof.
  intros D E d0 e0 n used size size' nsock nsock' active active' tgt tgt' ncan ncan' g s s' Hn H0 Hs Hs' R R' W.
  apply (merge_order _ _ g (in_turn n used) (hpull s') (hpush s) 0).
  - exact (C43_round_robin D d0 true n used size nsock active tgt ncan Hn H0 Hs s R).
  - exact (C43_round_robin E e0 false n used size' nsock' active' tgt' ncan' Hn H0 Hs' s' R').
  - intros i. destruct (C43_fifo D d0 true n used size nsock active tgt ncan Hn H0 Hs s R i) as [[r P] _]. destruct (C43_fifo E e0 false n used size' nsock' active' tgt' ncan' Hn H0 Hs' s' R' i) as [[r' P'] _].
    destruct (W i) as [w X]. exists (r' ++ w ++ map g r). rewrite P, map_app, X, P', <- !app_assoc. reflexivity.
Qed.

(** C45: after reset on each clone the adaptor is as at first (the buffers hold old data, which init allows). *)
Theorem C45_reset : forall D n (s : st D), let s' := fold_left (fun s t => reset D t s) (One :: map Many (seq 0 n)) s in
  (forall i, first s' i = 0 /\ last s' i = 0) /\ cur s' = 0 /\ canc s' One = false /\ (forall i, i < n -> canc s' (Many i) = false) /\ buf s' = buf s.
Proof.
  intros D n s s'. unfold s'. cbn [fold_left].
  assert (X : forall m a s, (forall i, first s i = 0 /\ last s i = 0) -> cur s = 0 -> canc s One = false -> (forall i, i < a -> canc s (Many i) = false) ->
    let s' := fold_left (fun s t => reset D t s) (map Many (seq a m)) s in (forall i, first s' i = 0 /\ last s' i = 0) /\ cur s' = 0 /\ canc s' One = false /\ (forall i, i < a + m -> canc s' (Many i) = false) /\ buf s' = buf s).
  { induction m as [|m IH]; intros a s0 F C1 C2 C3; cbn [seq map fold_left].
    - cbv zeta. rewrite Nat.add_0_r. auto.
    - destruct (IH (S a) (reset D (Many a) s0)) as (B1 & B2 & B3 & B4 & B5).
      + intros i. split; reflexivity.
      + exact C1.
      + exact C2.
      + intros i Hi. cbn [reset canc]. unfold tset. destruct (tid_dec (Many i) (Many a)); [reflexivity|]. apply C3. destruct (Nat.eq_dec i a); [congruence|lia].
      + split; [exact B1|]. split; [exact B2|]. split; [exact B3|]. split; [intros i Hi; apply B4; lia|exact B5]. }
  destruct (X n 0 (reset D One s)) as (B1 & B2 & B3 & B4 & B5); try reflexivity; [intros i; split; reflexivity|intros; lia|].
  split; [exact B1|]. split; [exact B2|]. split; [exact B3|]. split; [exact B4|exact B5].
Qed.

(** ** Concrete runs: two clones, one slot, one socket, passive waiting, Adaptor_1_to_n *)
Definition steps (t : tid) (k : nat) : list (label nat) := repeat (LRun (T t)) k.
Definition go (n ncan : nat) (tgt : nat -> tid) (ls : list (label nat)) := execs nat 0 true n (fun _ => true) 1 1 false tgt ncan ls (init nat (fun _ _ _ => 0)).

(* The second clone sleeps on its empty queue; the producer pushes 7 on the first queue and 8 on the second one; the
   second clone is notified, and takes 8. *)
Definition ls1 : list (label nat) :=
  LBegin (Many 1) [] :: steps (Many 1) 3 ++ LBegin One [7] :: steps One 10 ++ LBegin One [8] :: steps One 10 ++ LBegin (Many 0) [] :: steps (Many 1) 5.
Lemma seen : forall A (f : st nat -> A) o v, option_map f o = Some v -> exists s, o = Some s /\ f s = v.
Proof. intros A f [s|] v H; [|discriminate]. exists s. split; [reflexivity|]. injection H as H. exact H. Qed.
Example C43_run : exists s, go 2 0 (fun _ => One) ls1 = Some s /\ (hpush s, hpull s, pcs s (Many 1), item s (Many 1), pcs s (Many 0), cur s) = ([(0, [7]); (1, [8])], [], Copy 1, [8], Wait, 0).
Proof. destruct (seen _ (fun s => (hpush s, hpull s, pcs s (Many 1), item s (Many 1), pcs s (Many 0), cur s)) (go 2 0 (fun _ => One) ls1) ([(0, [7]); (1, [8])], [], Copy 1, [8], Wait, 0)) as (s & A & B); [vm_compute; reflexivity|]. exists s. split; [exact A|exact B]. Qed.
Example C44_run_asleep : exists s, go 2 0 (fun _ => One) (firstn 4 ls1) = Some s /\ pcs s (Many 1) = Sleep.
Proof. destruct (seen _ (fun s => pcs s (Many 1)) (go 2 0 (fun _ => One) (firstn 4 ls1)) Sleep) as (s & A & B); [vm_compute; reflexivity|]. exists s. split; [exact A|exact B]. Qed.

(* The producer sleeps on a full queue; cancel_waiting on its clone releases it. *)
Definition ls2 : list (label nat) := LBegin One [7] :: steps One 10 ++ LBegin One [8] :: steps One 3.
Example C45_run : exists s, go 1 1 (fun _ => One) (ls2 ++ LCancel 0 :: repeat (LRun (C 0)) 6 ++ steps One 4) = Some s /\ (cpcs s 0, pcs s One, hpush s) = (CDone, Thrown, [(0, [7])]).
Proof. destruct (seen _ (fun s => (cpcs s 0, pcs s One, hpush s)) (go 1 1 (fun _ => One) (ls2 ++ LCancel 0 :: repeat (LRun (C 0)) 6 ++ steps One 4)) (CDone, Thrown, [(0, [7])])) as (s & A & B); [vm_compute; reflexivity|]. exists s. split; [exact A|exact B]. Qed.

(** The cancellation is per clone: cancel_waiting on the clone of the consumer only leaves the producer asleep for ever, in
    spite of the notification. *)
Lemma quiet_state : forall ls s, go 1 1 (fun _ => Many 0) ls = Some s -> cpcs s 0 = CDone -> pcs s One = Sleep -> pcs s (Many 0) = Idle ->
  quiet nat 0 true 1 (fun _ => true) 1 1 false (fun _ => Many 0) 1 s.
Proof.
  intros ls s G F1 F3 F4.
  assert (I : inv nat 0 true 1 (fun _ => true) 1 1 false (fun _ => Many 0) 1 s).
  { apply reachable_inv; [lia|reflexivity|lia|]. exists (fun _ _ _ => 0), ls. exact G. }
  destruct I as ((I1 & _) & _ & _ & _ & _ & _ & _ & I8).
  intros [t|k] s' [H _]; cbn [exec] in H.
  - unfold run_thread in H. assert (P : pcs s t = Sleep \/ pcs s t = Idle).
    { destruct t as [|[|i]]; auto. right. specialize (I1 (Many (S i))). destruct (pcs s (Many (S i))); try reflexivity; discriminate (I1 ltac:(discriminate)). }
    destruct P as [P|P]; rewrite P in H; discriminate H.
  - unfold run_cancel in H. destruct k as [|k]; [rewrite F1 in H; discriminate H|]. specialize (I8 (S k)). destruct (cpcs s (S k)); try discriminate H; assert (S k < 1) by (apply I8; discriminate); lia.
Qed.
Definition ls3 : list (label nat) := ls2 ++ LCancel 0 :: repeat (LRun (C 0)) 6 ++ steps One 2.
Theorem C45_other_clones_refuted : exists s, go 1 1 (fun _ => Many 0) ls3 = Some s /\
  cpcs s 0 = CDone /\ canc s (Many 0) = true /\ pcs s One = Sleep /\ quiet nat 0 true 1 (fun _ => true) 1 1 false (fun _ => Many 0) 1 s.
Proof.
  destruct (seen _ (fun s => (cpcs s 0, canc s (Many 0), pcs s One, pcs s (Many 0))) (go 1 1 (fun _ => Many 0) ls3) (CDone, true, Sleep, Idle)) as (s & G & F); [vm_compute; reflexivity|].
  injection F as F1 F2 F3 F4. exists s. split; [exact G|]. split; [exact F1|]. split; [exact F2|]. split; [exact F3|]. exact (quiet_state _ _ G F1 F3 F4).
Qed.
