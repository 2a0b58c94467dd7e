(** Theorems about the execution of a sequence by several threads (C61, C80). *)
From Coq Require Import List Arith Lia Bool ZArith.
From Verif Require Import Base SeqModel.
Import ListNotations.

(** ** Specification *)
(** the iterations of the thread i *)
Definition its (i : nat) (r : list (nat * nat)) : list nat := map snd (filter (fun p => fst p =? i) r).
Definition fails (iter : nat -> nat -> iteration) (p : nat * nat) : Prop := exists sig text, iter (fst p) (snd p) = Failed sig text.
(** a sequence between two calls *)
Definition idle (q : sequence) : Prop := q_exit q = false /\ (q_display q = [] -> q_prev q = []).

Lemma its_app : forall i a b, its i (a ++ b) = its i a ++ its i b.
Proof. intros. unfold its. rewrite filter_app, map_app. reflexivity. Qed.
Lemma its_one : forall i j k, its i [(j, k)] = if j =? i then [k] else [].
Proof. intros. unfold its. cbn [filter fst]. destruct (j =? i); reflexivity. Qed.

Section Run.
Variable iter : nat -> nat -> iteration.
Variable q : sequence.
Variable n : nat.

Definition thread_ok (s : sstate) (i : nat) : Prop :=
  exists m, its i (ran s) = seq 0 m /\ (forall k, S k < m -> iter i k = Done false) /\
    match nth i (pcs s) Ended with
    | Running k => k = m /\ (forall j, j < m -> iter i j = Done false)
    | Caught sig text => exists k, m = S k /\ iter i k = Failed sig text
    | Ended => exists k, m = S k /\ (iter i k = Done true \/ iter i k = Canceled \/ (iter i k = Done false /\ force_exit s = true) \/ (fails iter (i, k) /\ prev_display s <> []))
    end.
Definition Inv (s : sstate) : Prop :=
  length (pcs s) = n /\ (forall p, In p (ran s) -> fst p < n) /\ (forall i, i < n -> thread_ok s i) /\
  (force_exit s = true <-> exists p, In p (ran s) /\ fails iter p) /\
  (prev_display s = [] -> prev s = []) /\ (q_display q <> [] -> prev_display s <> []) /\
  (forall m, In m (prev_display s) -> In m (q_display q) \/ exists i k sig, In (i, k) (ran s) /\ iter i k = Failed sig m) /\
  ((forall p, In p (ran s) -> ~ fails iter p) -> prev s = q_prev q /\ prev_display s = q_display q).

Lemma nth_pc : forall s i p j, i < length (pcs s) -> nth j (upd (pcs s) i p) Ended = if j =? i then p else nth j (pcs s) Ended.
Proof. intros s i p j Hi. destruct (Nat.eqb_spec j i) as [->|NE]; [apply nth_upd_eq; exact Hi|apply nth_upd_neq; congruence]. Qed.
Lemma log_ok : forall s sig text, (prev_display s = [] -> prev s = []) -> exists s', log_exception sig text s = Ret s' /\ force_exit s' = force_exit s /\ pcs s' = pcs s /\ ran s' = ran s /\ prev_display s' <> [] /\ (forall m, In m (prev_display s') -> In m (prev_display s) \/ m = text).
Proof.
  intros s sig text H. unfold log_exception. destruct (existsb (eqb_text sig) (prev s)) eqn:E.
  - destruct (prev_display s) as [|d ds] eqn:D; [rewrite (H eq_refl) in E; discriminate E|]. destruct (length (last (d :: ds) []) <? length text).
    + eexists. split; [reflexivity|]. cbn [force_exit pcs ran prev_display]. do 3 (split; [reflexivity|]). split; [intros X; apply app_eq_nil in X; destruct X as [_ X]; discriminate X|]. intros m I. apply in_app_or in I. destruct I as [I|[<-|[]]]; [left|right; reflexivity]. rewrite (app_removelast_last [] (l := d :: ds)) by discriminate. apply in_or_app. left. exact I.
    + exists s. split; [reflexivity|]. rewrite D. do 3 (split; [reflexivity|]). split; [discriminate|auto].
  - eexists. split; [reflexivity|]. cbn [force_exit pcs ran prev_display]. do 3 (split; [reflexivity|]). split; [intros X; apply app_eq_nil in X; destruct X as [_ X]; discriminate X|]. intros m I. apply in_app_or in I. destruct I as [I|[<-|[]]]; auto.
Qed.

Lemma step_ok : forall i s, i < n -> Inv s -> exists s', step iter i s = Ret s' /\ Inv s'.
Proof.
  intros i s Hi (i1 & i2 & i3 & i4 & i5 & i6 & i7 & i8). unfold step. destruct (i3 i Hi) as (m & T1 & T2 & T3). destruct (nth i (pcs s) Ended) as [k|sig text|] eqn:P.
  - destruct T3 as [-> T3].
    assert (RA : forall j, its j (ran s ++ [(i, m)]) = if j =? i then seq 0 (S m) else its j (ran s)).
    { intros j. rewrite its_app, its_one. rewrite Nat.eqb_sym. destruct (Nat.eqb_spec j i) as [->|]; [rewrite T1, seq_S; reflexivity|apply app_nil_r]. }
    assert (R2 : forall p, In p (ran s ++ [(i, m)]) -> fst p < n) by (intros p I; apply in_app_or in I; destruct I as [I|[<-|[]]]; [apply i2; exact I|exact Hi]).
    assert (D2 : forall k, S k < S m -> iter i k = Done false) by (intros k Hk; apply T3; lia).
    assert (E2 : (exists p, In p (ran s ++ [(i, m)]) /\ fails iter p) <-> ((exists p, In p (ran s) /\ fails iter p) \/ fails iter (i, m))).
    { split; [intros (p & I & X); apply in_app_or in I; destruct I as [I|[<-|[]]]; [left; exists p; auto|right; exact X]|]. intros [(p & I & X)|X]; [exists p; split; [apply in_or_app; left; exact I|exact X]|exists (i, m); split; [apply in_or_app; right; left; reflexivity|exact X]]. }
    assert (NF : (forall p, In p (ran s ++ [(i, m)]) -> ~ fails iter p) -> forall p, In p (ran s) -> ~ fails iter p) by (intros H p I; apply H; apply in_or_app; left; exact I).
    destruct (iter i m) as [stop| |sig text] eqn:EI.
    + eexists. split; [reflexivity|]. assert (NFm : ~ fails iter (i, m)) by (intros (a & b & X); cbn [fst snd] in X; congruence). unfold set_pc. cbn [force_exit prev prev_display pcs ran]. split; [cbn [pcs]; rewrite length_upd; exact i1|]. split; [exact R2|]. split; [|split; [cbn [force_exit ran]; rewrite E2, i4; tauto|split; [exact i5|split; [exact i6|split; [|intros H; apply i8; apply NF; exact H]]]]].
      * intros j Hj. unfold thread_ok. cbn [ran pcs force_exit prev_display]. rewrite RA, nth_pc by lia. destruct (Nat.eqb_spec j i) as [->|NE]; [|exact (i3 j Hj)]. exists (S m). split; [reflexivity|]. split; [exact D2|]. destruct (force_exit s) eqn:FE; cbn [orb].
        { exists m. split; [reflexivity|]. rewrite EI. destruct stop; auto. } destruct stop; [exists m; rewrite EI; auto|]. split; [reflexivity|]. intros k Hk. destruct (Nat.eq_dec k m) as [->|]; [exact EI|apply T3; lia].
      * intros x I. destruct (i7 x I) as [|(a & b & c & d & e)]; [left; assumption|right]. exists a, b, c. split; [apply in_or_app; left; exact d|exact e].
    + eexists. split; [reflexivity|]. assert (NFm : ~ fails iter (i, m)) by (intros (a & b & X); cbn [fst snd] in X; congruence). unfold set_pc. cbn [force_exit prev prev_display pcs ran]. split; [cbn [pcs]; rewrite length_upd; exact i1|]. split; [exact R2|]. split; [|split; [cbn [force_exit ran]; rewrite E2, i4; tauto|split; [exact i5|split; [exact i6|split; [|intros H; apply i8; apply NF; exact H]]]]].
      * intros j Hj. unfold thread_ok. cbn [ran pcs force_exit prev_display]. rewrite RA, nth_pc by lia. destruct (Nat.eqb_spec j i) as [->|NE]; [|exact (i3 j Hj)]. exists (S m). split; [reflexivity|]. split; [exact D2|]. exists m. auto.
      * intros x I. destruct (i7 x I) as [|(a & b & c & d & e)]; [left; assumption|right]. exists a, b, c. split; [apply in_or_app; left; exact d|exact e].
    + eexists. split; [reflexivity|]. assert (NFm : fails iter (i, m)) by (exists sig, text; exact EI). unfold set_pc. cbn [force_exit prev prev_display pcs ran]. split; [cbn [pcs]; rewrite length_upd; exact i1|]. split; [exact R2|]. split; [|split; [cbn [force_exit ran]; rewrite E2; tauto|split; [exact i5|split; [exact i6|split; [|intros H; exfalso; apply (H (i, m)); [apply in_or_app; right; left; reflexivity|exact NFm]]]]]].
      * intros j Hj. unfold thread_ok. cbn [ran pcs force_exit prev_display]. rewrite RA, nth_pc by lia. destruct (Nat.eqb_spec j i) as [->|NE].
        { exists (S m). split; [reflexivity|]. split; [exact D2|]. exists m. auto. }
        destruct (i3 j Hj) as (mj & a & b & c). exists mj. split; [exact a|]. split; [exact b|]. destruct (nth j (pcs s) Ended); try exact c. destruct c as (k & d & e). exists k. split; [exact d|]. tauto.
      * intros x I. destruct (i7 x I) as [|(a & b & c & d & e)]; [left; assumption|right]. exists a, b, c. split; [apply in_or_app; left; exact d|exact e].
  - destruct T3 as (k & -> & EI). destruct (log_ok s sig text i5) as (s1 & -> & a1 & a2 & a3 & a4 & a5). cbn [bind]. eexists. split; [reflexivity|].
    assert (Iik : In (i, k) (ran s)). { assert (X : In k (its i (ran s))) by (rewrite T1; apply in_seq; lia). unfold its in X. apply in_map_iff in X. destruct X as ([j k'] & Y & Z). cbn [snd] in Y. subst k'. apply filter_In in Z. destruct Z as [Z W]. cbn [fst] in W. apply Nat.eqb_eq in W. subst j. exact Z. }
    unfold Inv, set_pc. cbn [force_exit prev prev_display pcs ran]. rewrite a1, a2, a3. split; [rewrite length_upd; exact i1|]. split; [exact i2|]. split; [|split; [exact i4|split; [intros X; contradiction|split; [intros _; exact a4|split]]]].
    + intros j Hj. unfold thread_ok. cbn [ran pcs force_exit prev_display]. rewrite ?a1, ?a2, ?a3. rewrite nth_pc by lia. destruct (Nat.eqb_spec j i) as [->|NE].
      * exists (S k). split; [exact T1|]. split; [exact T2|]. exists k. split; [reflexivity|]. right. right. right. split; [exists sig, text; exact EI|exact a4].
      * destruct (i3 j Hj) as (mj & b1 & b2 & b3). exists mj. split; [exact b1|]. split; [exact b2|]. destruct (nth j (pcs s) Ended); try exact b3. destruct b3 as (kj & d & e). exists kj. split; [exact d|]. tauto.
    + intros x I. destruct (a5 x I) as [J | ->]; [apply i7; exact J|right; exists i, k, sig; auto].
    + intros H. exfalso. apply (H (i, k) Iik). exists sig, text. exact EI.
  - exists s. split; [reflexivity|]. repeat (split; [assumption|]). assumption.
Qed.
Lemma run_ok : forall sched s, Forall (fun i => i < n) sched -> Inv s -> exists s', run iter sched s = Ret s' /\ Inv s'.
Proof.
  induction sched as [|i l IH]; intros s F I; cbn [run]; [eauto|]. inversion F; subst. destruct (step_ok i s) as (s1 & -> & I1); [assumption|exact I|]. cbn [bind]. apply IH; assumption.
Qed.
Lemma init_ok : idle q -> Inv (mkSeq (q_exit q) (q_prev q) (q_display q) (repeat (Running 0) n) []).
Proof.
  intros [Q1 Q2]. unfold Inv. cbn [force_exit prev prev_display pcs ran]. split; [apply repeat_length|]. split; [intros p []|]. split.
  - intros i Hi. exists 0. cbn [ran pcs]. split; [reflexivity|]. split; [intros; lia|]. assert (nth i (repeat (Running 0) n) Ended = Running 0) as ->; [|split; [reflexivity|intros; lia]]. rewrite (nth_indep _ Ended (Running 0)) by (rewrite repeat_length; exact Hi). apply nth_repeat.
  - rewrite Q1. split; [split; [discriminate|intros (p & [] & _)]|]. split; [exact Q2|]. split; [auto|]. split; [auto|auto].
Qed.
End Run.

Definition failed (iter : nat -> nat -> iteration) (r : list (nat * nat)) : Prop := exists p, In p r /\ fails iter p.
Lemma failed_dec : forall iter r, failed iter r \/ (forall p, In p r -> ~ fails iter p).
Proof.
  intros iter r. induction r as [|p r [IH|IH]]; [right; intros p []|left; destruct IH as (x & I & F); exists x; split; [right; exact I|exact F]|].
  destruct (iter (fst p) (snd p)) as [b| |sig text] eqn:E; [| |left; exists p; split; [left; reflexivity|exists sig, text; exact E]];
    right; intros x [<-|I]; try (apply IH; exact I); intros (a & b' & X); congruence.
Qed.

(** ** C80: an execution by several threads *)
Theorem C80_exec : forall n iter sched q, idle q -> Forall (fun i => i < n) sched ->
  exec n iter sched q = Ret None \/
  exists q' msg r, exec n iter sched q = Ret (Some (q', msg, r)) /\ idle q' /\
    (** each thread runs its iterations in order, as long as its condition is false, and ends on the condition, a cancellation, an exception, or after the exception of another *)
    (forall p, In p r -> fst p < n) /\
    (forall i, i < n -> exists k, its i r = seq 0 (S k) /\ (forall j, j < k -> iter i j = Done false) /\ (iter i k = Done true \/ iter i k = Canceled \/ fails iter (i, k) \/ (iter i k = Done false /\ failed iter r))) /\
    (** for the first failure: an exception is thrown if and only if an iteration threw one, with the message of one of them *)
    (q_display q = [] -> (msg = None <-> ~ failed iter r) /\ forall m, msg = Some m -> exists i k sig, In (i, k) r /\ iter i k = Failed sig m).
Proof.
  intros n iter sched q Q F. unfold exec. destruct (run_ok iter q n sched _ F (init_ok iter q n Q)) as (s & -> & I). cbn [bind]. destruct (all_ended s) eqn:AE; [right|left; reflexivity].
  destruct I as (i1 & i2 & i3 & i4 & i5 & i6 & i7 & i8).
  assert (EN : forall i, i < n -> nth i (pcs s) Ended = Ended). { intros i Hi. unfold all_ended in AE. rewrite forallb_forall in AE. assert (HL : i < length (pcs s)) by lia. specialize (AE (nth i (pcs s) Ended) (nth_In (pcs s) Ended HL)). destruct (nth i (pcs s) Ended); try discriminate AE. reflexivity. }
  assert (TH : forall i, i < n -> exists k, its i (ran s) = seq 0 (S k) /\ (forall j, j < k -> iter i j = Done false) /\ (iter i k = Done true \/ iter i k = Canceled \/ fails iter (i, k) \/ (iter i k = Done false /\ failed iter (ran s)))).
  { intros i Hi. destruct (i3 i Hi) as (m & a & b & c). rewrite EN in c by exact Hi. destruct c as (k & -> & c). exists k. split; [exact a|]. split; [intros j Hj; apply b; lia|]. destruct c as [c|[c|[[c d]|[c d]]]]; auto. right. right. right. split; [exact c|]. apply i4. exact d. }
  assert (LG : failed iter (ran s) -> prev_display s <> []).
  { intros ((i & k) & Ip & X). pose proof (i2 _ Ip) as Hi. cbn [fst] in Hi. destruct (i3 i Hi) as (m & a & b & c). rewrite EN in c by exact Hi. destruct c as (k' & -> & c).
    assert (Ik : In k (seq 0 (S k'))). { rewrite <- a. unfold its. apply in_map_iff. exists (i, k). split; [reflexivity|]. apply filter_In. split; [exact Ip|]. cbn [fst]. apply Nat.eqb_refl. }
    apply in_seq in Ik. destruct X as (sig & text & X). cbn [fst snd] in X. destruct (Nat.eq_dec k k') as [->|NE]; [|rewrite b in X by lia; discriminate X]. destruct c as [c|[c|[[c _]|[_ c]]]]; congruence. }
  destruct (prev_display s) as [|d0 d] eqn:D.
  - exists (mkSq (force_exit s) (prev s) []), None, (ran s). split; [reflexivity|]. assert (NFA : ~ failed iter (ran s)) by (intros X; exact (LG X eq_refl)). split.
    + split; [|intros _; cbn [q_prev]; apply i5; reflexivity]. cbn [q_exit]. destruct (force_exit s) eqn:FE; [|reflexivity]. exfalso. apply NFA. apply i4. reflexivity.
    + split; [exact i2|]. split; [exact TH|]. intros _. split; [tauto|]. discriminate.
  - exists (mkSq false (prev s) (d0 :: d)), (Some (last (d0 :: d) [])), (ran s). split; [reflexivity|]. split; [split; [reflexivity|discriminate]|]. split; [exact i2|]. split; [exact TH|]. intros QD.
    assert (EX : exists i k sig, In (i, k) (ran s) /\ iter i k = Failed sig (last (d0 :: d) [])).
    { destruct (i7 (last (d0 :: d) [])) as [X|X]; [|rewrite QD in X; destruct X|exact X]. rewrite (app_removelast_last [] (l := d0 :: d)) at 2 by discriminate. apply in_or_app. right. left. reflexivity. }
    split; [|intros m [= <-]; exact EX]. split; [discriminate|]. intros X. exfalso. apply X. destruct EX as (i & k & sig & A & B). exists (i, k). split; [exact A|]. exists sig, (last (d0 :: d) []). exact B.
Qed.

(** after an exception, each other thread runs at most the end of one iteration, and the thread that threw none *)
Definition quiet (s : sstate) (i : nat) : Prop := match nth i (pcs s) Ended with Running _ => False | _ => True end.
Lemma step_after : forall iter i s s', i < length (pcs s) -> force_exit s = true -> step iter i s = Ret s' -> force_exit s' = true /\ length (pcs s') = length (pcs s) /\ quiet s' i /\ (forall j, j <> i -> nth j (pcs s') Ended = nth j (pcs s) Ended) /\
  (ran s' = ran s \/ exists k, ran s' = ran s ++ [(i, k)] /\ ~ quiet s i).
Proof.
  intros iter i s s' Hi FE E. unfold step in E. unfold quiet. destruct (nth i (pcs s) Ended) as [k|sig text|] eqn:P.
  - cbn [force_exit] in E. rewrite FE in E. cbn [orb] in E. destruct (iter i k) as [stop| |sig text]; injection E as <-; unfold set_pc; cbn [force_exit pcs ran]; rewrite length_upd, nth_upd_eq by exact Hi; repeat split; try assumption; try (intros j Hj; apply nth_upd_neq; congruence); right; exists k; auto.
  - destruct (log_exception sig text s) as [s1| |] eqn:L; cbn [bind] in E; try discriminate E. injection E as <-.
    assert (X : force_exit s1 = force_exit s /\ pcs s1 = pcs s /\ ran s1 = ran s). { unfold log_exception in L. destruct (existsb _ _); [destruct (prev_display s); [discriminate L|]; destruct (_ <? _)|]; injection L as <-; auto. }
    destruct X as (a & b & c). unfold set_pc. cbn [force_exit pcs ran]. rewrite a, b, c. rewrite length_upd, nth_upd_eq by exact Hi. repeat split; try assumption; [intros j Hj; apply nth_upd_neq; congruence|left; reflexivity].
  - injection E as <-. rewrite P. auto 10.
Qed.
Theorem C80_stop : forall iter sched s s', Forall (fun i => i < length (pcs s)) sched -> force_exit s = true -> run iter sched s = Ret s' ->
  exists r, ran s' = ran s ++ r /\ NoDup (map fst r) /\ forall p, In p r -> ~ quiet s (fst p).
Proof.
  induction sched as [|i l IH]; intros s s' F FE E; cbn [run] in E; [injection E as <-; exists []; rewrite app_nil_r; split; [reflexivity|]; split; [constructor|intros p []]|].
  inversion F as [|? ? Hi Fl]; subst. destruct (step iter i s) as [s1| |] eqn:ES; cbn [bind] in E; try discriminate E. destruct (step_after iter i s s1 Hi FE ES) as (a1 & a2 & a3 & a4 & a5).
  destruct (IH s1 s') as (r & E1 & N1 & Q1); [rewrite a2; exact Fl|exact a1|exact E|].
  assert (Q2 : forall p, In p r -> fst p <> i /\ ~ quiet s (fst p)). { intros p I. specialize (Q1 p I). assert (fst p <> i) by (intros X; rewrite X in Q1; contradiction). split; [assumption|]. unfold quiet in *. rewrite a4 in Q1 by assumption. exact Q1. }
  destruct a5 as [a5|(k & a5 & a6)]; rewrite a5 in E1.
  - exists r. split; [exact E1|]. split; [exact N1|]. intros p I. apply Q2. exact I.
  - exists ((i, k) :: r). split; [rewrite E1, <- app_assoc; reflexivity|]. split; [cbn [map fst]; constructor; [|exact N1]; intros X; apply in_map_iff in X; destruct X as (p & Ep & Ip); destruct (Q2 p Ip); contradiction|]. intros p [<-|I]; [exact a6|apply Q2; exact I].
Qed.
(** a thread can always go on until all have ended, once the flag is set: two steps of each *)
Theorem C80_ends : forall n iter q s, Inv iter q n s -> force_exit s = true -> exists s', run iter (seq 0 n ++ seq 0 n) s = Ret s' /\ all_ended s' = true.
Proof.
  intros n iter q s I FE. assert (FS : Forall (fun i => i < n) (seq 0 n)) by (apply Forall_forall; intros x Hx; apply in_seq in Hx; lia).
  assert (RA : forall a b s, run iter (a ++ b) s = s <- run iter a s ;; run iter b s). { induction a as [|x a IHa]; intros b s0; cbn [app run bind]; [reflexivity|]. destruct (step iter x s0); cbn [bind]; try reflexivity. apply IHa. }
  (* the first round leaves no running thread; the second ends the caught ones *)
  assert (ONE : forall l s, Inv iter q n s -> force_exit s = true -> Forall (fun i => i < n) l -> NoDup l -> exists s', run iter l s = Ret s' /\ Inv iter q n s' /\ force_exit s' = true /\
    forall i, (~ In i l -> nth i (pcs s') Ended = nth i (pcs s) Ended) /\ (In i l -> match nth i (pcs s) Ended with Running _ => quiet s' i | _ => nth i (pcs s') Ended = Ended end)).
  { clear s I FE. induction l as [|i l IH]; intros s I FE F N; cbn [run]; [exists s; split; [reflexivity|]; split; [exact I|]; split; [exact FE|]; intros i; split; [reflexivity|intros []]|]. inversion F as [|? ? Hi Fl]; inversion N as [|? ? Ni Nl]; subst. destruct (step_ok iter q n i s Hi I) as (s1 & E1 & I1). rewrite E1. cbn [bind]. destruct (step_after iter i s s1 ltac:(destruct I as [-> _]; exact Hi) FE E1) as (a1 & a2 & a3 & a4 & a5).
    destruct (IH s1 I1 a1 Fl Nl) as (s2 & E2 & I2 & F2 & P2). exists s2. split; [exact E2|]. split; [exact I2|]. split; [exact F2|]. intros j. destruct (P2 j) as [P3 P4]. split.
    - intros NJ. assert (j <> i) by (intros ->; apply NJ; left; reflexivity). rewrite P3 by (intros X; apply NJ; right; exact X). apply a4. assumption.
    - intros [->|J]; [|assert (j <> i) by (intros ->; contradiction); rewrite <- (a4 j) by assumption; apply P4; exact J]. specialize (P3 Ni). unfold quiet in *. rewrite P3. destruct (nth j (pcs s) Ended) eqn:Ei.
      + exact a3.
      + unfold step in E1. rewrite Ei in E1. destruct (log_exception _ _ _) as [s3| |] eqn:L; cbn [bind] in E1; try discriminate E1. injection E1 as <-. cbn [set_pc pcs] in *. apply nth_upd_eq. rewrite length_upd in a2. rewrite a2. destruct I as [-> _]. exact Hi.
      + unfold step in E1. rewrite Ei in E1. injection E1 as <-. exact Ei. }
  rewrite RA. destruct (ONE (seq 0 n) s I FE FS (seq_NoDup _ _)) as (s1 & -> & I1 & F1 & P1). cbn [bind]. destruct (ONE (seq 0 n) s1 I1 F1 FS (seq_NoDup _ _)) as (s2 & -> & I2 & F2 & P2). exists s2. split; [reflexivity|].
  unfold all_ended. apply forallb_forall. intros x Hx. apply (In_nth _ _ Ended) in Hx. destruct Hx as (i & Hi & <-). destruct I2 as [L2 _]. rewrite L2 in Hi. destruct (P1 i) as [_ A]. destruct (P2 i) as [_ B]. assert (J : In i (seq 0 n)) by (apply in_seq; lia). specialize (A J). specialize (B J).
  unfold quiet in A. destruct (nth i (pcs s1) Ended) eqn:E1; [destruct (nth i (pcs s) Ended); [contradiction|discriminate A|discriminate A]| |]; rewrite B; reflexivity.
Qed.

(** ** C61 *)
(** refuted: once an exception has been reported, every execution throws it again, even if all its tasks succeed *)
Theorem C61_refuted : forall n iter sched q q' msg r, idle q -> q_display q <> [] -> Forall (fun i => i < n) sched -> (forall i k, ~ fails iter (i, k)) -> exec n iter sched q = Ret (Some (q', msg, r)) ->
  msg = Some (last (q_display q) []) /\ q' = q.
Proof.
  intros n iter sched q q' msg r Q D F NF E. unfold exec in E. destruct (run_ok iter q n sched _ F (init_ok iter q n Q)) as (s & R & I). rewrite R in E. cbn [bind] in E. destruct (all_ended s); [|discriminate E]. destruct I as (_ & _ & _ & _ & _ & _ & _ & i8). destruct i8 as [P1 P2]; [intros [i k] _; apply NF|].
  rewrite P2 in E. destruct q as [qe qp qd]. cbn [q_display q_prev q_exit] in *. destruct Q as [Q1 _]. cbn [q_exit] in Q1. subst qe. destruct qd as [|d0 d]; [contradiction|]. injection E as <- <- <-. split; [reflexivity|]. rewrite P1. reflexivity.
Qed.
(** an execution without exception, with no exception before, returns and leaves the sequence as it was *)
Theorem C61_partial : forall n iter sched q q' msg r, idle q -> q_display q = [] -> Forall (fun i => i < n) sched -> (forall i k, ~ fails iter (i, k)) -> exec n iter sched q = Ret (Some (q', msg, r)) -> msg = None /\ q' = q.
Proof.
  intros n iter sched q q' msg r Q D F NF E. unfold exec in E. destruct (run_ok iter q n sched _ F (init_ok iter q n Q)) as (s & R & I). rewrite R in E. cbn [bind] in E. destruct (all_ended s); [|discriminate E]. destruct I as (_ & _ & _ & i4 & _ & _ & _ & i8). destruct i8 as [P1 P2]; [intros [i k] _; apply NF|].
  rewrite P2 in E. destruct q as [qe qp qd]. cbn [q_display q_prev q_exit] in *. subst qd. destruct Q as [Q1 _]. cbn [q_exit] in Q1. subst qe. injection E as <- <- <-. split; [reflexivity|]. rewrite P1. f_equal. destruct (force_exit s) eqn:FE; [|reflexivity]. exfalso. destruct (proj1 i4 eq_refl) as ([i k] & _ & X). exact (NF i k X).
Qed.
Theorem C61_new : idle new_sequence /\ q_display new_sequence = []. Proof. repeat split. Qed.

(** ** Example: two threads of two iterations; the second iteration of the thread 1 fails, then all succeed *)
Definition ex_iter (bad : bool) (i k : nat) : iteration := if bad && (i =? 1) && (k =? 1) then Failed [7]%Z [7; 7]%Z else Done (k =? 1).
Example C80_example : exec 2 (ex_iter true) [0; 1; 1; 1; 0] new_sequence = Ret (Some (mkSq false [[7]]%Z [[7; 7]]%Z, Some [7; 7]%Z, [(0, 0); (1, 0); (1, 1); (0, 1)])).
Proof. reflexivity. Qed.
Example C61_example : exec 2 (ex_iter false) [0; 1; 1; 0] (mkSq false [[7]]%Z [[7; 7]]%Z) = Ret (Some (mkSq false [[7]]%Z [[7; 7]]%Z, Some [7; 7]%Z, [(0, 0); (1, 0); (1, 1); (0, 1)])).
Proof. reflexivity. Qed.
