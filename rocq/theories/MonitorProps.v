(** Theorems about the error monitor (C48), the callbacks (C77) and the averages of the mutual information (C78). *)
From Coq Require Import List Arith Lia Bool ZArith QArith Qabs Lqa Permutation.
From Verif Require Import Base GaloisModel GaloisProofs FloatQ QuantModel QuantProps DistModel DistProps HistModel HistProps MonitorModel.
Import ListNotations.
Local Open Scope Z_scope.

(** ** Counting *)
Lemma counts_range : forall P n c, counts P n c -> 0 <= c <= Z.of_nat n.
Proof. induction 1; lia. Qed.
Lemma counts_fun : forall P n a b, counts P n a -> counts P n b -> a = b.
Proof.
  intros P n. induction n as [|n IH]; intros a b A B; inversion A; inversion B; subst; try reflexivity; try contradiction.
  - f_equal. apply IH; assumption.
  - apply IH; assumption.
Qed.
Lemma counts_ext : forall P Q n c, (forall i, (i < n)%nat -> (P i <-> Q i)) -> counts P n c -> counts Q n c.
Proof.
  intros P Q n c H C. induction C; [constructor| |].
  - apply counts_in; [apply IHC; intros; apply H; lia|apply H; [lia|assumption]].
  - apply counts_out; [apply IHC; intros; apply H; lia|rewrite <- H by lia; assumption].
Qed.

Lemma nth_skipn : forall A (l : list A) k i d, nth i (skipn k l) d = nth (k + i) l d.
Proof. induction l as [|x l IH]; intros [|k] i d; cbn [skipn Nat.add nth]; try reflexivity; [destruct i; reflexivity|apply IH]. Qed.

Section Mon.
Variables (w : Z) (lanes : option nat).
Hypothesis Hw : w = 8 \/ w = 16 \/ w = 32 \/ w = 64.
Hypothesis Hl : lanes_of w lanes.

(** ** Specification: the number of wrong bits of the frame f of a call *)
Definition frame_errors (K : nat) (unk : bool) (U V : list Z) (f : nat) (e : Z) : Prop :=
  counts (fun i => differ w unk (nth (f * K + i) U 0) (nth (f * K + i) V 0)) K e.
Definition errors_of (K : nat) (unk : bool) (U V : list Z) (errs : list Z) : Prop :=
  forall f, (f < length errs)%nat -> frame_errors K unk U V f (nth f errs 0).
Definition wrong (errs : list Z) : Z := Z.of_nat (length (filter (fun e => negb (e =? 0)) errs)).
(** the notifications of the frames: one for each wrong frame, in order *)
Definition fe_events (errs : list Z) : list event := flat_map (fun p => if snd p =? 0 then [] else [OnFe (snd p) (fst p)]) (combine (seq 0 (length errs)) errs).
(** what a monitor has seen: for each frame the number of errors, and if the histogram was on *)
Definition recorded (p : Z * bool) : bool := snd p && negb (fst p =? 0).
Definition saw (m : monitor) (log : list (Z * bool)) : Prop :=
  m_vals m = mkAttrs (usize (Z.of_nat (length log))) (usize (zsum (map fst log))) (usize (wrong (map fst log))) /\
  h_prec (m_hist m) = 0%nat /\ agrees cal_int (m_hist m) (map (fun p => (fst p, 1)) (filter recorded log)).
Definition config (m : monitor) := (m_K m, m_max_fe m, m_max_fra m, m_unk m, m_hist_on m).

Lemma wrong_app : forall a b, wrong (a ++ b) = wrong a + wrong b.
Proof. intros. unfold wrong. rewrite filter_app, app_length. lia. Qed.
Lemma zsum_one : forall e, zsum [e] = e.
Proof. intros. rewrite zsum_cons. cbn. lia. Qed.
Lemma wrong_one : forall e, wrong [e] = if e =? 0 then 0 else 1.
Proof. intros. unfold wrong. cbn [filter]. destruct (e =? 0); reflexivity. Qed.
Lemma fe_events_app : forall errs e, fe_events (errs ++ [e]) = fe_events errs ++ (if e =? 0 then [] else [OnFe e (length errs)]).
Proof.
  intros errs e. unfold fe_events. rewrite app_length. cbn [length]. rewrite Nat.add_1_r, seq_S. cbn [Nat.add].
  assert (C : forall (a : list nat) (b : list Z) x y, length a = length b -> combine (a ++ [x]) (b ++ [y]) = combine a b ++ [(x, y)]). { induction a as [|u a IH]; intros [|v b] x y L; try discriminate L; cbn [app combine]; [reflexivity|]. f_equal. apply IH. injection L; auto. }
  rewrite C by apply seq_length. rewrite flat_map_app. cbn [flat_map fst snd]. rewrite app_nil_r. reflexivity.
Qed.

Lemma check_frame_saw : forall m log U V f, saw m log -> (f * m_K m + m_K m <= length U)%nat -> (f * m_K m + m_K m <= length V)%nat -> Z.of_nat (m_K m) < 2 ^ 31 ->
  exists m' e, check_frame w lanes m U V f = Ret (m', e, if e =? 0 then [] else [OnFe e f]) /\ frame_errors (m_K m) (m_unk m) U V f e /\ saw m' (log ++ [(e, m_hist_on m)]) /\ config m' = config m.
Proof.
  intros m log U V f (A & P0 & G) LU LV HK. unfold check_frame.
  destruct (C75_two w lanes (m_unk m) (skipn (f * m_K m) U) (skipn (f * m_K m) V) (m_K m) Hw Hl ltac:(rewrite skipn_length; lia) ltac:(rewrite skipn_length; lia) HK) as (e & -> & C). cbn [bind].
  pose proof (counts_range _ _ _ C) as Re. rewrite (cast_small 32 e) by (change (2 ^ (32 - 1)) with (2 ^ 31); lia).
  assert (FE : frame_errors (m_K m) (m_unk m) U V f e). { eapply counts_ext; [|exact C]. intros i Hi. cbn beta. rewrite !nth_skipn. reflexivity. }
  destruct (Z.eqb_spec e 0) as [->|NE].
  - eexists _, 0. split; [reflexivity|]. split; [exact FE|]. split; [|reflexivity]. split; [|split; [exact P0|]].
    + cbn [m_vals]. rewrite A. cbn [n_fra n_be n_fe]. rewrite usize_add, !map_app, app_length, zsum_app, wrong_app. cbn [length map fst]. rewrite zsum_one, wrong_one. cbn [Z.eqb]. f_equal; f_equal; lia.
    + cbn [m_hist]. rewrite filter_app. cbn [filter]. unfold recorded at 2. cbn [fst snd Z.eqb negb]. rewrite andb_false_r, app_nil_r. exact G.
  - assert (H : exists h', (if m_hist_on m then add_value cal_int (m_hist m) e else Ret (m_hist m)) = Ret h' /\ h_prec h' = 0%nat /\ agrees cal_int h' (map (fun p => (fst p, 1)) (filter recorded (log ++ [(e, m_hist_on m)])))).
    { rewrite filter_app. cbn [filter]. unfold recorded at 2. cbn [fst snd]. replace (e =? 0) with false by (symmetry; apply Z.eqb_neq; exact NE). cbn [negb]. rewrite andb_true_r. destruct (m_hist_on m).
      - assert (X : exists h', add_value cal_int (m_hist m) e = Ret h').
        { unfold add_value, add_values. cbn [length]. unfold for_. cbn [for_from]. rewrite (rd_ok _ 0) by (cbn; lia). cbn [nth bind]. rewrite P0, C49_int by lia. cbn [bind]. eauto. }
        destruct X as (h' & X). exists h'. split; [exact X|]. unfold add_value in X. destruct (agrees_values cal_int _ _ _ _ G X) as [Q1 Q2]. split; [congruence|]. rewrite map_app. cbn [map fst]. exact Q2.
      - exists (m_hist m). split; [reflexivity|]. split; [exact P0|]. rewrite app_nil_r. exact G. }
    destruct H as (h' & -> & HP & HG). cbn [bind]. eexists _, e. replace (e =? 0) with false by (symmetry; apply Z.eqb_neq; exact NE). split; [reflexivity|]. split; [exact FE|]. split; [|reflexivity]. split; [|split; [exact HP|exact HG]].
    cbn [m_vals]. rewrite A. cbn [n_fra n_be n_fe]. rewrite !usize_add, !map_app, app_length, zsum_app, wrong_app. cbn [length map fst]. rewrite zsum_one, wrong_one. replace (e =? 0) with false by (symmetry; apply Z.eqb_neq; exact NE). f_equal; f_equal; lia.
Qed.

Lemma zsum_le : forall l b, Forall (fun x => 0 <= x <= b) l -> 0 <= zsum l <= Z.of_nat (length l) * b.
Proof. intros l b. induction 1 as [|x l H F IH]; [cbn; lia|]. rewrite zsum_cons. cbn [length]. nia. Qed.
Lemma errors_sum : forall K unk U V errs, errors_of K unk U V errs -> 0 <= zsum errs <= Z.of_nat (length errs) * Z.of_nat K.
Proof.
  intros K unk U V errs H. apply zsum_le. apply Forall_forall. intros x I. apply (In_nth _ _ 0) in I. destruct I as (f & Hf & <-). exact (counts_range _ _ _ (H f Hf)).
Qed.

(** C48, one call: with any number of frames, the counters move by the number of frames, of wrong frames and of wrong bits, the returned value is the
    number of wrong bits of the call, and the callbacks are called for the wrong frames, then once for the call, then once if the limit is reached. *)
Theorem C48_call : forall m log U V n_frames, saw m log -> (n_frames * m_K m <= length U)%nat -> (n_frames * m_K m <= length V)%nat -> (0 < m_K m)%nat -> Z.of_nat (m_K m) < 2 ^ 31 -> Z.of_nat n_frames * Z.of_nat (m_K m) < 2 ^ 31 ->
  exists m' errs, check_errors w lanes m U V n_frames = Ret (m', zsum errs, fe_events errs ++ OnCheck :: (if fe_limit m' then [OnLimit] else [])) /\
    length errs = n_frames /\ errors_of (m_K m) (m_unk m) U V errs /\ saw m' (log ++ map (fun e => (e, m_hist_on m)) errs) /\ config m' = config m.
Proof.
  intros m log U V n_frames S LU LV K0 HK HB. unfold check_errors.
  destruct (for_inv _ (fun f (s : monitor * Z * list event) => let '(m', tot, ev) := s in exists errs, length errs = f /\ errors_of (m_K m) (m_unk m) U V errs /\ saw m' (log ++ map (fun e => (e, m_hist_on m)) errs) /\ config m' = config m /\ tot = zsum errs /\ ev = fe_events errs) n_frames
    (fun f s => let '(m, tot, ev) := s in ' (m, be, e) <- check_frame w lanes m U V f ;; tot <- int_ok (tot + be) ;; Ret (m, tot, ev ++ e)) (m, 0, [])) as ([[m' tot] ev] & -> & errs & L & E & G & CF & -> & ->).
  - exists []. split; [reflexivity|]. split; [intros f Hf; cbn in Hf; lia|]. split; [rewrite app_nil_r; exact S|]. split; [reflexivity|]. split; reflexivity.
  - intros f [[m1 tot] ev] Hf (errs & L & E & G & CF & -> & ->). unfold config in CF. assert (EK : m_K m1 = m_K m) by congruence. assert (EU : m_unk m1 = m_unk m) by congruence. assert (EH : m_hist_on m1 = m_hist_on m) by congruence.
    destruct (check_frame_saw m1 _ U V f G ltac:(rewrite EK; nia) ltac:(rewrite EK; nia) ltac:(rewrite EK; lia)) as (m2 & e & -> & FE & G2 & CF2). cbn [bind]. rewrite EK, EU in FE.
    assert (E2 : errors_of (m_K m) (m_unk m) U V (errs ++ [e])).
    { intros g Hg. rewrite app_length in Hg. cbn [length] in Hg. destruct (Nat.eq_dec g f) as [->|N]; [rewrite app_nth2 by lia; rewrite L, Nat.sub_diag; exact FE|]. rewrite app_nth1 by lia. apply E. lia. }
    pose proof (errors_sum _ _ _ _ _ E2) as R. rewrite zsum_app, zsum_one, app_length in R. cbn [length] in R. unfold int_ok.
    assert (R2 : 0 <= zsum errs + e < 2 ^ 31) by nia. replace (- 2 ^ 31 <=? zsum errs + e) with true by (symmetry; apply Z.leb_le; lia). replace (zsum errs + e <? 2 ^ 31) with true by (symmetry; apply Z.ltb_lt; lia). cbn [andb bind]. eexists. split; [reflexivity|].
    exists (errs ++ [e]). split; [rewrite app_length; cbn [length]; lia|]. split; [exact E2|]. split; [rewrite map_app, app_assoc; cbn [map]; rewrite EH in G2; exact G2|]. split; [rewrite CF2; exact CF|]. split; [rewrite zsum_app, zsum_one; lia|]. rewrite fe_events_app, L. reflexivity.
  - cbn [bind]. exists m', errs. split; [unfold after_check; reflexivity|]. tauto.
Qed.

(** The outputs of check_errors2: the number of frames so far, the errors of the frame, and the rates. *)
Theorem C48_call2 : forall m log U V n_frames FRA BE FE BER FER, saw m log -> (n_frames * m_K m <= length U)%nat -> (n_frames * m_K m <= length V)%nat -> (0 < m_K m)%nat -> Z.of_nat (m_K m) < 2 ^ 31 -> Z.of_nat n_frames * Z.of_nat (m_K m) < 2 ^ 31 ->
  length FRA = n_frames -> length BE = n_frames -> length FE = n_frames -> length BER = n_frames -> length FER = n_frames -> Z.of_nat (length log + n_frames) < 2 ^ 63 ->
  exists m' errs BER' FER', check_errors2 w lanes m U V n_frames FRA BE FE BER FER =
      Ret (m', zsum errs, fe_events errs ++ OnCheck :: (if fe_limit m' then [OnLimit] else []),
           (tab n_frames (fun f => Z.of_nat (length log + f + 1)), errs, map (fun e => if e =? 0 then 0 else 1) errs, BER', FER')) /\
    length errs = n_frames /\ errors_of (m_K m) (m_unk m) U V errs /\ saw m' (log ++ map (fun e => (e, m_hist_on m)) errs) /\ config m' = config m /\
    (forall f, (f < n_frames)%nat -> exists mf, saw mf (log ++ map (fun e => (e, m_hist_on m)) (firstn (f + 1) errs)) /\ config mf = config m /\ nth f BER' None = get_ber mf /\ nth f FER' None = get_fer mf).
Proof.
  intros m log U V n_frames FRA BE FE BER FER S LU LV K0 HK HB L1 L2 L3 L4 L5 H63. unfold check_errors2.
  set (tr := fun (f : nat) (errs : list Z) (out : list Z * list Z * list Z * list (option Q) * list (option Q)) => let '(FRA, BE, FE, BER, FER) := out in
    length FRA = n_frames /\ length BE = n_frames /\ length FE = n_frames /\ length BER = n_frames /\ length FER = n_frames /\
    forall g, (g < f)%nat -> nth g FRA 0 = Z.of_nat (length log + g + 1) /\ nth g BE 0 = nth g errs 0 /\ nth g FE 0 = (if nth g errs 0 =? 0 then 0 else 1) /\
      exists mf, saw mf (log ++ map (fun e => (e, m_hist_on m)) (firstn (g + 1) errs)) /\ config mf = config m /\ nth g BER None = get_ber mf /\ nth g FER None = get_fer mf).
  match goal with |- exists m' errs BER' FER', (bind (for_ _ ?b ?st0) _ = _) /\ _ => destruct (for_inv _ (fun f (s : monitor * Z * list event * (list Z * list Z * list Z * list (option Q) * list (option Q))) => let '(m', tot, ev, out) := s in exists errs, length errs = f /\ errors_of (m_K m) (m_unk m) U V errs /\ saw m' (log ++ map (fun e => (e, m_hist_on m)) errs) /\ config m' = config m /\ tot = zsum errs /\ ev = fe_events errs /\ tr f errs out) n_frames b st0) as ([[[m' tot] ev] out] & -> & errs & L & E & G & CF & -> & -> & T) end.
  - exists []. split; [reflexivity|]. split; [intros f Hf; cbn in Hf; lia|]. split; [rewrite app_nil_r; exact S|]. split; [reflexivity|]. split; [reflexivity|]. split; [reflexivity|]. unfold tr. do 5 (split; [assumption|]). intros g Hg. lia.
  - intros f [[[m1 tot] ev] [[[[fra be] fe] ber] fer]] Hf (errs & L & E & G & CF & -> & -> & T). unfold config in CF. assert (EK : m_K m1 = m_K m) by congruence. assert (EU : m_unk m1 = m_unk m) by congruence. assert (EH : m_hist_on m1 = m_hist_on m) by congruence.
    destruct (check_frame_saw m1 _ U V f G ltac:(rewrite EK; nia) ltac:(rewrite EK; nia) ltac:(rewrite EK; lia)) as (m2 & e & -> & FEr & G2 & CF2). cbn [bind]. rewrite EK, EU in FEr.
    assert (E2 : errors_of (m_K m) (m_unk m) U V (errs ++ [e])).
    { intros g Hg. rewrite app_length in Hg. cbn [length] in Hg. destruct (Nat.eq_dec g f) as [->|N]; [rewrite app_nth2 by lia; rewrite L, Nat.sub_diag; exact FEr|]. rewrite app_nth1 by lia. apply E. lia. }
    pose proof (errors_sum _ _ _ _ _ E2) as R. rewrite zsum_app, zsum_one, app_length in R. cbn [length] in R. unfold int_ok.
    assert (R2 : 0 <= zsum errs + e < 2 ^ 31) by nia. replace (- 2 ^ 31 <=? zsum errs + e) with true by (symmetry; apply Z.leb_le; lia). replace (zsum errs + e <? 2 ^ 31) with true by (symmetry; apply Z.ltb_lt; lia). cbn [andb bind].
    destruct T as (T1 & T2 & T3 & T4 & T5 & T6). rewrite !wr_ok by lia. cbn [bind]. eexists. split; [reflexivity|].
    assert (G2' : saw m2 (log ++ map (fun e => (e, m_hist_on m)) (errs ++ [e]))) by (rewrite map_app, app_assoc; cbn [map]; rewrite EH in G2; exact G2).
    exists (errs ++ [e]). split; [rewrite app_length; cbn [length]; lia|]. split; [exact E2|]. split; [exact G2'|]. split; [rewrite CF2; exact CF|]. split; [rewrite zsum_app, zsum_one; lia|]. split; [rewrite fe_events_app, L; reflexivity|].
    unfold tr. rewrite !length_upd. do 5 (split; [assumption|]). intros g Hg. rewrite !nth_upd by lia. destruct (Nat.eqb_spec g f) as [->|N].
    + rewrite app_nth2 by lia. rewrite L, Nat.sub_diag. cbn [nth]. split; [|split; [reflexivity|split; [reflexivity|]]].
      * destruct G2' as (A & _). rewrite A. cbn [n_fra]. rewrite app_length, map_length, app_length, L. cbn [length]. rewrite usize_small by lia. rewrite cast_small by (try lia; change (2 ^ (64 - 1)) with (2 ^ 63); lia). lia.
      * exists m2. rewrite firstn_all2 by (rewrite app_length; cbn [length]; lia). split; [exact G2'|]. split; [rewrite CF2; exact CF|]. split; reflexivity.
    + rewrite app_nth1 by lia. rewrite firstn_app. replace (g + 1 - length errs)%nat with 0%nat by lia. cbn [firstn]. rewrite app_nil_r. apply T6. lia.
  - cbn [bind]. destruct out as [[[[fra be] fe] ber] fer]. destruct T as (T1 & T2 & T3 & T4 & T5 & T6). exists m', errs, ber, fer. split.
    + unfold after_check. do 2 f_equal. f_equal. f_equal. f_equal; [f_equal|].
      * apply (eq_tab _ 0); [exact T1|]. intros i Hi. apply T6. exact Hi.
      * apply (list_eq_nth _ 0); [lia|]. intros i Hi. apply T6. lia.
      * apply (list_eq_nth _ 0); [rewrite map_length; lia|]. intros i Hi. pose proof (map_nth (fun e => if e =? 0 then 0 else 1) errs 0 i) as MN. cbn beta in MN. cbn [Z.eqb] in MN. etransitivity; [|symmetry; exact MN]. apply T6. lia.
    + split; [exact L|]. split; [exact E|]. split; [exact G|]. split; [exact CF|]. intros f Hf. apply T6. exact Hf.
Qed.

(** ** Histories *)
(** the errors of the frames since the last reset, and if the histogram is on *)
Inductive observed (K : nat) (unk : bool) : list mcall -> list (Z * bool) -> bool -> Prop :=
| ob_new : observed K unk [] [] false
| ob_check : forall cs log on U V n errs, observed K unk cs log on -> length errs = n -> errors_of K unk U V errs -> observed K unk (cs ++ [Check U V n]) (log ++ map (fun e => (e, on)) errs) on
| ob_reset : forall cs log on, observed K unk cs log on -> observed K unk (cs ++ [ResetMonitor]) [] on
| ob_active : forall cs log on b, observed K unk cs log on -> observed K unk (cs ++ [Activate b]) log b.
(** the arrays hold the frames and the number of bits of a call is an int *)
Definition valid_call (K : nat) (c : mcall) : Prop :=
  match c with Check U V n => (n * K <= length U)%nat /\ (n * K <= length V)%nat /\ Z.of_nat n * Z.of_nat K < 2 ^ 31 | _ => True end.

Lemma mrun_app : forall cs c m, mrun w lanes m (cs ++ [c]) = (m <- mrun w lanes m cs ;; mstep w lanes m c).
Proof. induction cs as [|d cs IH]; intros c m; cbn [app mrun]; [rewrite bind_Ret_r; reflexivity|]. rewrite bind_assoc. destruct (mstep w lanes m d); cbn [bind]; [apply IH|reflexivity|reflexivity]. Qed.

Lemma saw_new : forall K max_fe max_fra unk on, saw (mkMon K max_fe max_fra unk attrs0 (new_hist 0) on) [].
Proof. intros. split; [reflexivity|]. split; [reflexivity|]. apply agrees_new. Qed.

(** C48: after any history of calls, the counters are the number of frames, of wrong bits and of wrong frames since the last reset (modulo 2^64), and
    the histogram holds the numbers of errors of the wrong frames seen while it was on. *)
Theorem C48_history : forall K max_fe max_fra unk m0 calls, 0 < K < 2 ^ 31 -> new_monitor K max_fe max_fra unk = Ret m0 -> (forall c, In c calls -> valid_call (Z.to_nat K) c) ->
  exists m log, mrun w lanes m0 calls = Ret m /\ observed (Z.to_nat K) unk calls log (m_hist_on m) /\
    n_fra (m_vals m) = usize (Z.of_nat (length log)) /\ n_be (m_vals m) = usize (zsum (map fst log)) /\ n_fe (m_vals m) = usize (Z.of_nat (length (filter (fun e => negb (e =? 0)) (map fst log)))) /\
    (forall e c, In (e, c) (h_map (m_hist m)) <-> e <> 0 /\ In (e, true) log /\ c = usize (Z.of_nat (length (filter (fun p => snd p && (e =? fst p)) log)))) /\
    saw m log /\ m_max_fe m = max_fe /\ m_max_fra m = max_fra /\ m_K m = Z.to_nat K /\ m_unk m = unk.
Proof.
  intros K max_fe max_fra unk m0 calls HK E0 V. unfold new_monitor in E0. replace (0 <? K) with true in E0 by (symmetry; apply Z.ltb_lt; lia). cbn [guard bind] in E0. injection E0 as <-. set (m0 := mkMon _ _ _ _ _ _ _).
  assert (X : exists m log, mrun w lanes m0 calls = Ret m /\ observed (Z.to_nat K) unk calls log (m_hist_on m) /\ saw m log /\ m_K m = Z.to_nat K /\ m_unk m = unk /\ m_max_fe m = max_fe /\ m_max_fra m = max_fra /\ (forall p, In p log -> 0 <= fst p < 2 ^ 31)).
  { induction calls as [|c calls IH] using rev_ind.
    - exists m0, []. split; [reflexivity|]. split; [constructor|]. split; [apply saw_new|]. repeat split; try reflexivity; cbn in *; contradiction.
    - destruct IH as (m & log & Er & Ob & S & EK & EU & EF & EN & RG); [intros c' I; apply V; apply in_or_app; left; exact I|]. rewrite mrun_app, Er. cbn [bind]. specialize (V c ltac:(apply in_or_app; right; left; reflexivity)). destruct c as [U V' n| |b]; cbn [mstep valid_call] in *.
      + destruct V as (V1 & V2 & V3). destruct (C48_call m log U V' n S ltac:(rewrite EK; lia) ltac:(rewrite EK; lia) ltac:(lia) ltac:(lia) ltac:(rewrite EK; lia)) as (m' & errs & -> & L & E & S' & CF). cbn [bind]. unfold config in CF. rewrite EK, EU in E.
        exists m', (log ++ map (fun e => (e, m_hist_on m)) errs). split; [reflexivity|]. replace (m_hist_on m') with (m_hist_on m) by congruence. split; [apply ob_check; assumption|]. split; [exact S'|]. do 4 (split; [congruence|]).
        intros p I. apply in_app_or in I. destruct I as [I|I]; [apply RG; exact I|]. apply in_map_iff in I. destruct I as (e & <- & I). cbn [fst]. apply (In_nth _ _ 0) in I. destruct I as (f & Hf & <-). pose proof (counts_range _ _ _ (E f Hf)). lia.
      + exists (reset_monitor m), []. split; [reflexivity|]. split; [eapply ob_reset; exact Ob|]. split; [|do 4 (split; [assumption|]); intros p []]. split; [reflexivity|]. destruct S as (_ & P0 & _). split; [exact P0|]. unfold reset_monitor, clear. cbn [m_hist]. rewrite P0. apply agrees_new.
      + exists (activate m b), log. split; [reflexivity|]. split; [eapply ob_active; exact Ob|]. split; [exact S|]. do 4 (split; [assumption|]). exact RG. }
  destruct X as (m & log & Er & Ob & S & EK & EU & EF & EN & RG). exists m, log. split; [exact Er|]. split; [exact Ob|]. assert (S' := S). destruct S' as (A & P0 & (O & N & T & F)). rewrite A. cbn [n_fra n_be n_fe]. do 3 (split; [reflexivity|]). split; [|tauto].
  rewrite P0 in F. set (l := filter recorded log) in *.
  assert (KEY : forall e p, In p log -> has_key cal_int 0 e (fst p) = (e =? fst p)) by (intros e p I; unfold has_key; rewrite C49_int by (specialize (RG p I); lia); reflexivity).
  assert (OC : forall e, occurs cal_int 0 e (map (fun p => (fst p, 1)) l) = true <-> e <> 0 /\ In (e, true) log).
  { intros e. unfold occurs. rewrite existsb_exists. split.
    - intros ([v u] & I & H). apply in_map_iff in I. destruct I as ([v' on] & E1 & I). cbn [fst] in E1. injection E1 as -> <-. unfold l in I. apply filter_In in I. destruct I as [I R]. unfold recorded in R. cbn [fst snd] in *. apply andb_true_iff in R. destruct R as [-> R]. pose proof (KEY e (v, true) I) as HK'. cbn [fst] in HK'. rewrite HK' in H. apply Z.eqb_eq in H. subst e. apply negb_true_iff, Z.eqb_neq in R. tauto.
    - intros [NE I]. exists (e, 1). split; [apply in_map_iff; exists (e, true); split; [reflexivity|]; apply filter_In; split; [exact I|]; unfold recorded; cbn [fst snd]; replace (e =? 0) with false by (symmetry; apply Z.eqb_neq; exact NE); reflexivity|]. cbn [fst]. pose proof (KEY e (e, true) I) as HK'. cbn [fst] in HK'. rewrite HK'. apply Z.eqb_refl. }
  assert (WE : forall e, e <> 0 -> weight cal_int 0 e (map (fun p => (fst p, 1)) l) = Z.of_nat (length (filter (fun p => snd p && (e =? fst p)) log))).
  { intros e NE. unfold weight. rewrite map_map. cbn [fst snd]. unfold l. clear - KEY NE. induction log as [|[v on] log IH]; [reflexivity|]. assert (IH' := IH (fun e p I => KEY e p (or_intror I))). clear IH. cbn [filter]. unfold recorded at 1. cbn [fst snd]. pose proof (KEY e (v, on) (or_introl eq_refl)) as HK. cbn [fst] in HK.
    destruct on; cbn [andb]; [|exact IH']. destruct (Z.eqb_spec v 0) as [->|NV]; cbn [negb].
    - replace (e =? 0) with false by (symmetry; apply Z.eqb_neq; exact NE). exact IH'.
    - cbn [map fst snd]. rewrite zsum_cons, IH', HK. destruct (e =? v); cbn [length]; lia. }
  intros e c. split.
  - intros I. pose proof (In_find _ _ _ O I) as X. rewrite F in X. destruct (occurs cal_int 0 e _) eqn:C; [|discriminate X]. apply OC in C. destruct C as [NE C]. injection X as <-. rewrite WE by exact NE. tauto.
  - intros (NE & I & ->). apply find_In. rewrite F. replace (occurs cal_int 0 e _) with true by (symmetry; apply OC; tauto). rewrite WE by exact NE. reflexivity.
Qed.

(** The limits: once reached, they stay reached until a reset, as long as the counters do not wrap. *)
Theorem C48_limits : forall m log m' log', saw m log -> saw m' (log ++ log') -> config m' = config m -> Z.of_nat (length (log ++ log')) < 2 ^ 64 ->
  (fe_limit m = true <-> m_max_fe m <> 0 /\ m_max_fe m <= wrong (map fst log)) /\ (frame_limit m = true <-> m_max_fra m <> 0 /\ m_max_fra m <= Z.of_nat (length log)) /\
  (fe_limit m = true -> fe_limit m' = true) /\ (frame_limit m = true -> frame_limit m' = true) /\ (is_done m = true -> is_done m' = true).
Proof.
  intros m log m' log' (A & _) (A' & _) CF B. unfold config in CF. rewrite app_length in B.
  assert (W : forall l, 0 <= wrong l <= Z.of_nat (length l)). { intros l. unfold wrong. assert (X : (length (filter (fun e => negb (e =? 0)%Z) l) <= length l)%nat); [|lia]. induction l as [|x l IH]; cbn [filter length]; [lia|]. destruct (negb _); cbn [length]; lia. }
  pose proof (W (map fst log)) as W1. pose proof (W (map fst (log ++ log'))) as W2. rewrite map_length in W1, W2. rewrite app_length in W2. pose proof (W (map fst log')) as W3. rewrite map_length in W3.
  assert (F : fe_limit m = true <-> m_max_fe m <> 0 /\ m_max_fe m <= wrong (map fst log)).
  { unfold fe_limit. rewrite A. cbn [n_fe]. rewrite usize_small by lia. rewrite andb_true_iff, negb_true_iff, Z.eqb_neq, Z.leb_le. reflexivity. }
  assert (F' : fe_limit m' = true <-> m_max_fe m <> 0 /\ m_max_fe m <= wrong (map fst (log ++ log'))).
  { unfold fe_limit. rewrite A'. cbn [n_fe]. replace (m_max_fe m') with (m_max_fe m) by congruence. rewrite usize_small by lia. rewrite andb_true_iff, negb_true_iff, Z.eqb_neq, Z.leb_le. reflexivity. }
  assert (N : frame_limit m = true <-> m_max_fra m <> 0 /\ m_max_fra m <= Z.of_nat (length log)).
  { unfold frame_limit. rewrite A. cbn [n_fra]. rewrite usize_small by lia. rewrite andb_true_iff, negb_true_iff, Z.eqb_neq, Z.leb_le. reflexivity. }
  assert (N' : frame_limit m' = true <-> m_max_fra m <> 0 /\ m_max_fra m <= Z.of_nat (length (log ++ log'))).
  { unfold frame_limit. rewrite A'. cbn [n_fra]. replace (m_max_fra m') with (m_max_fra m) by congruence. rewrite usize_small by (rewrite app_length; lia). rewrite andb_true_iff, negb_true_iff, Z.eqb_neq, Z.leb_le. reflexivity. }
  assert (I1 : fe_limit m = true -> fe_limit m' = true). { rewrite F, F'. rewrite map_app, wrong_app. lia. }
  assert (I2 : frame_limit m = true -> frame_limit m' = true). { rewrite N, N'. rewrite app_length. lia. }
  split; [exact F|]. split; [exact N|]. split; [exact I1|]. split; [exact I2|]. unfold is_done. rewrite !orb_true_iff. tauto.
Qed.

(** ** Reduction *)
Lemma saw_ext : forall a b l l', saw a l -> saw b l' -> Permutation l l' -> m_vals a = m_vals b /\ m_hist a = m_hist b.
Proof.
  intros a b l l' (A & P & G) (B & P' & G') H. split.
  - rewrite A, B. rewrite (Permutation_length H). f_equal; f_equal.
    + clear - H. induction H; cbn [map]; rewrite ?zsum_cons; lia.
    + unfold wrong. f_equal. clear - H. induction H; cbn [map filter]; repeat match goal with |- context [negb (?x =? 0)] => destruct (negb (x =? 0)) end; cbn [length]; lia.
  - assert (H' : Permutation (map (fun p : Z * bool => (fst p, 1)) (filter recorded l)) (map (fun p => (fst p, 1)) (filter recorded l'))).
    { apply Permutation_map. clear - H. induction H; cbn [filter]; [constructor| | |econstructor; eassumption].
      - destruct (recorded x); [constructor|]; assumption.
      - destruct (recorded x), (recorded y); try reflexivity. constructor. }
    eapply agrees_eq; [congruence|exact G|exact G'| |].
    + f_equal. unfold all_weights. clear - H'. induction H'; cbn [map]; rewrite ?zsum_cons; lia.
    + intros k. split; [|f_equal; unfold weight; clear - H'; induction H'; cbn [map]; rewrite ?zsum_cons; lia].
      unfold occurs. clear - H'. induction H'; cbn [existsb]; [reflexivity|congruence|rewrite !orb_assoc; f_equal; apply orb_comm|congruence].
Qed.

Lemma collect_saw : forall c o l l', saw c l -> saw o l' -> exists c', collect c o true = Ret c' /\ saw c' (l ++ l') /\ config c' = config c.
Proof.
  intros c o l l' (A & P & G) (B & P' & G'). unfold collect, add_hist. rewrite P, P'. cbn [Nat.eqb guard bind]. eexists. split; [reflexivity|]. split; [|reflexivity]. split; [|split; [reflexivity|]].
  - cbn [m_vals]. rewrite A, B. unfold attrs_add. cbn [n_fra n_be n_fe]. rewrite !usize_add, !usize_add_r, app_length, !map_app, zsum_app, wrong_app. f_equal; f_equal; lia.
  - cbn [m_hist]. rewrite filter_app, map_app. eapply agrees_merge; [exact G|exact G'|]. unfold add_hist. rewrite P, P'. reflexivity.
Qed.
Lemma collect_all_saw : forall ms ls c l, Forall2 saw ms ls -> saw c l -> exists c', collect_all c ms true = Ret c' /\ saw c' (l ++ concat ls) /\ config c' = config c.
Proof.
  induction ms as [|m ms IH]; intros ls c l F S; inversion F as [|? l1 ? ls' S1 F']; subst; cbn [collect_all concat].
  - exists c. rewrite app_nil_r. auto.
  - destruct (collect_saw c m l l1 S S1) as (c1 & -> & S2 & CF). cbn [bind]. destruct (IH ls' c1 _ F' S2) as (c2 & -> & S3 & CF2). exists c2. split; [reflexivity|]. rewrite app_assoc. split; [exact S3|congruence].
Qed.

(** C48: the reduction of any number of monitors has the counters and the histogram of a single monitor that has seen all their frames, in any order. *)
Theorem C48_reduce : forall self collecter ms logs, Forall2 saw ms logs -> h_prec (m_hist self) = 0%nat -> h_prec (m_hist collecter) = 0%nat ->
  exists self' c, reduce self collecter ms true = Ret (self', c) /\ saw self' (concat logs) /\ config self' = config self /\
    forall single log, saw single log -> Permutation log (concat logs) -> m_vals self' = m_vals single /\ m_hist self' = m_hist single.
Proof.
  intros self collecter ms logs F P P'. unfold reduce.
  assert (S0 : saw (reset_monitor collecter) []) by (split; [reflexivity|]; split; [exact P'|]; unfold reset_monitor, clear; cbn [m_hist]; rewrite P'; apply agrees_new).
  destruct (collect_all_saw ms logs _ _ F S0) as (c & -> & S & CF). cbn [bind app] in *. unfold copy, assign. pose proof S as (A & PC & G). rewrite P, PC. cbn [Nat.eqb guard bind].
  eexists _, c. split; [reflexivity|].
  assert (S' : saw (mkMon (m_K self) (m_max_fe self) (m_max_fra self) (m_unk self) (m_vals c) (mkHist 0 (h_n (m_hist c)) (h_map (m_hist c))) (m_hist_on self)) (concat logs)).
  { split; [exact A|]. split; [reflexivity|]. cbn [m_hist]. destruct (m_hist c) as [p n mm]. cbn [h_prec h_n h_map] in *. subst p. exact G. }
  split; [exact S'|]. split; [reflexivity|]. intros single log SS H. eapply saw_ext; [exact S'|exact SS|]. apply Permutation_sym. exact H.
Qed.
(** The cheap reduction: the counters only. *)
Theorem C48_reduce_counters : forall self collecter ms logs, Forall2 saw ms logs ->
  exists self' c, reduce self collecter ms false = Ret (self', c) /\ m_hist self' = m_hist self /\ config self' = config self /\
    m_vals self' = mkAttrs (usize (Z.of_nat (length (concat logs)))) (usize (zsum (map fst (concat logs)))) (usize (wrong (map fst (concat logs)))).
Proof.
  intros self collecter ms logs F. unfold reduce.
  assert (G : forall ms ls c l, Forall2 saw ms ls -> m_vals c = mkAttrs (usize (Z.of_nat (length l))) (usize (zsum (map fst l))) (usize (wrong (map fst l))) ->
    exists c', collect_all c ms false = Ret c' /\ m_vals c' = mkAttrs (usize (Z.of_nat (length (l ++ concat ls)))) (usize (zsum (map fst (l ++ concat ls)))) (usize (wrong (map fst (l ++ concat ls))))).
  { clear. induction ms as [|m ms IH]; intros ls c l F V; inversion F as [|? l1 ? ls' S1 F']; subst; cbn [collect_all concat].
    - exists c. rewrite app_nil_r. auto.
    - unfold collect. cbn [bind]. destruct (IH ls' (mkMon (m_K c) (m_max_fe c) (m_max_fra c) (m_unk c) (attrs_add (m_vals c) (m_vals m)) (m_hist c) (m_hist_on c)) (l ++ l1) F') as (c' & -> & V').
      + cbn [m_vals]. destruct S1 as (B & _). rewrite V, B. unfold attrs_add. cbn [n_fra n_be n_fe]. rewrite !usize_add, !usize_add_r, app_length, !map_app, zsum_app, wrong_app. f_equal; f_equal; lia.
      + exists c'. split; [reflexivity|]. rewrite V', !app_assoc. reflexivity. }
  destruct (G ms logs (reset_monitor collecter) [] F eq_refl) as (c & -> & V). cbn [bind app] in *. unfold copy. cbn [bind]. eexists _, c. split; [reflexivity|]. split; [reflexivity|]. split; [reflexivity|]. exact V.
Qed.
End Mon.

(** ** The rates: a relative error below 2^-21; with no error the rates are those of one error. *)
Local Open Scope Q_scope.
Definition near (x y : Q) : Prop := y * (1 - 2 ^ (- 21)) <= x <= y * (1 + 2 ^ (- 21)).
Lemma fl24_pos : forall x, 0 < x -> 0 < fl 24 x /\ x * (1 - (1 # 16777216)) <= fl 24 x <= x * (1 + (1 # 16777216)).
Proof.
  intros x Hx. pose proof (fl_rel 24 x ltac:(lia) Hx) as [L U]. assert (E : 2 ^ (- (24)) == 1 # 16777216) by reflexivity. rewrite E in L, U. split; [|split; assumption]. assert (0 < x * (1 - (1 # 16777216))) by (apply Qmult_lt_0_compat; lra). lra.
Qed.
Lemma tofl_pos : forall z, (0 < z)%Z -> exists x, tofl z = Some x /\ 0 < x /\ inject_Z z * (1 - (1 # 16777216)) <= x <= inject_Z z * (1 + (1 # 16777216)).
Proof. intros z Hz. assert (P : 0 < inject_Z z) by (change 0 with (inject_Z 0); rewrite <- Zlt_Qlt; exact Hz). destruct (fl24_pos _ P) as [A B]. eexists. split; [reflexivity|]. split; assumption. Qed.
Lemma fdiv_pos : forall a b, 0 < a -> 0 < b -> exists q, fdiv (Some a) (Some b) = Some q /\ 0 < q /\ a * (1 - (1 # 16777216)) <= q * b <= a * (1 + (1 # 16777216)).
Proof.
  intros a b Ha Hb. cbn [fdiv]. destruct (Qeq_bool b 0) eqn:E; [apply Qeq_bool_eq in E; lra|]. assert (P : 0 < a / b) by (apply Qlt_shift_div_l; lra). destruct (fl24_pos _ P) as [A [B C]]. eexists. split; [reflexivity|]. split; [exact A|].
  assert (D : a / b * b == a) by (field; lra). split.
  - apply Qle_trans with (a / b * (1 - (1 # 16777216)) * b); [rewrite <- Qmult_assoc, (Qmult_comm (1 - _) b), Qmult_assoc, D; lra|]. apply Qmult_le_compat_r; lra.
  - apply Qle_trans with (a / b * (1 + (1 # 16777216)) * b); [apply Qmult_le_compat_r; lra|]. rewrite <- Qmult_assoc, (Qmult_comm (1 + _) b), Qmult_assoc, D. lra.
Qed.
(** with u = 2^-24: q * b within u of a, a within u of A and b within u of B give q within 4u of A / B *)
Lemma near_div : forall k A B a b q u, 0 < A -> 0 < B -> 0 < u -> u <= 1 # 1000 -> 0 <= k -> k <= 4 -> A * (1 - k * u) <= a <= A * (1 + k * u) -> B * (1 - u) <= b <= B * (1 + u) -> a * (1 - u) <= q * b <= a * (1 + u) -> 0 < q ->
  A * (1 - (k + 3) * u) <= q * B <= A * (1 + (k + 3) * u).
Proof.
  intros k A B a b q u HA HB Hu Hu2 Hk Hk4 [a1 a2] [b1 b2] [q1 q2] Hq.
  (* q B (1-u) <= q b <= a (1+u) <= A (1+ku)(1+u) ; A (1-ku)(1-u) <= a (1-u) <= q b <= q B (1+u) *)
  assert (U1 : q * B * (1 - u) <= A * ((1 + k * u) * (1 + u))).
  { apply Qle_trans with (q * b); [rewrite <- Qmult_assoc; rewrite !(Qmult_comm q); apply Qmult_le_compat_r; lra|]. apply Qle_trans with (a * (1 + u)); [exact q2|]. rewrite Qmult_assoc. apply Qmult_le_compat_r; lra. }
  assert (U2 : A * ((1 - k * u) * (1 - u)) <= q * B * (1 + u)).
  { apply Qle_trans with (q * b); [|rewrite <- Qmult_assoc; rewrite !(Qmult_comm q); apply Qmult_le_compat_r; lra]. apply Qle_trans with (a * (1 - u)); [|exact q1]. rewrite Qmult_assoc. apply Qmult_le_compat_r; lra. }
  set (X := q * B) in *. assert (K1 : 0 <= k * u) by (apply Qmult_le_0_compat; lra). assert (K2 : k * u <= 4 * u) by (apply Qmult_le_compat_r; lra).
  assert (UU : 0 <= u * u) by (apply Qmult_le_0_compat; lra). assert (UU2 : u * u <= (1 # 1000) * u) by (apply Qmult_le_compat_r; lra). assert (KU : 0 <= k * u * u) by (apply Qmult_le_0_compat; lra). assert (KU2 : k * u * u <= 4 * u * u) by (apply Qmult_le_compat_r; lra).
  assert (E4 : 4 * u * u == 4 * (u * u)) by ring. rewrite E4 in KU2.
  split.
  - (* (1-ku)(1-u) >= (1-(k+3)u)(1+u) *)
    apply Qle_trans with (A * ((1 - k * u) * (1 - u)) / (1 + u)).
    + apply Qle_shift_div_l; [lra|]. rewrite <- Qmult_assoc. rewrite !(Qmult_comm A). apply Qmult_le_compat_r; [|lra].
      assert (Z1 : (1 - (k + 3) * u) * (1 + u) == 1 - (k + 2) * u - (k + 3) * (u * u)) by ring. assert (Z2 : (1 - k * u) * (1 - u) == 1 - (k + 1) * u + k * (u * u)) by ring. rewrite Z1, Z2.
      assert (0 <= k * (u * u)) by (apply Qmult_le_0_compat; lra). assert (Z3 : (k + 2) * u == k * u + 2 * u) by ring. assert (Z4 : (k + 1) * u == k * u + u) by ring. assert (Z5 : (k + 3) * (u * u) == k * (u * u) + 3 * (u * u)) by ring. rewrite Z3, Z4, Z5. lra.
    + apply Qle_shift_div_r; [lra|]. exact U2.
  - apply Qle_trans with (A * ((1 + k * u) * (1 + u)) / (1 - u)).
    + apply Qle_shift_div_l; [lra|]. exact U1.
    + apply Qle_shift_div_r; [lra|]. rewrite <- Qmult_assoc. rewrite !(Qmult_comm A). apply Qmult_le_compat_r; [|lra].
      assert (Z1 : (1 + (k + 3) * u) * (1 - u) == 1 + (k * u + 2 * u) - (k * (u * u) + 3 * (u * u))) by ring. assert (Z2 : (1 + k * u) * (1 + u) == 1 + (k * u + u) + k * (u * u)) by ring. rewrite Z1, Z2.
      assert (Z3 : k * (u * u) <= 4 * (u * u)) by (apply Qmult_le_compat_r; lra). lra.
Qed.

Lemma near_from : forall X Y B k, 0 < B -> 0 < Y -> k <= 8 -> Y * (1 - k * (1 # 16777216)) <= X * B <= Y * (1 + k * (1 # 16777216)) -> near X (Y / B).
Proof.
  intros X Y B k HB HY Hk [L U]. unfold near. assert (E : 2 ^ (- 21) == 8 * (1 # 16777216)) by reflexivity. rewrite E.
  assert (D : forall c, Y / B * c == Y * c / B) by (intros c; field; lra). rewrite !D. split; [apply Qle_shift_div_r; [exact HB|]|apply Qle_shift_div_l; [exact HB|]].
  - apply Qle_trans with (Y * (1 - k * (1 # 16777216))); [|exact L]. rewrite !(Qmult_comm Y). apply Qmult_le_compat_r; lra.
  - apply Qle_trans with (Y * (1 + k * (1 # 16777216))); [exact U|]. rewrite !(Qmult_comm Y). apply Qmult_le_compat_r; lra.
Qed.

Theorem C48_rates : forall m, (0 < n_fra (m_vals m))%Z -> (0 <= n_fe (m_vals m))%Z -> (0 <= n_be (m_vals m))%Z -> (0 < m_K m)%nat ->
  exists fer ber, get_fer m = Some fer /\ get_ber m = Some ber /\
    near fer (inject_Z (Z.max 1 (n_fe (m_vals m))) / inject_Z (n_fra (m_vals m))) /\
    near ber (inject_Z (Z.max 1 (n_be (m_vals m))) / (inject_Z (n_fra (m_vals m)) * inject_Z (Z.of_nat (m_K m)))).
Proof.
  intros m HF HE HB HK. set (F := n_fra (m_vals m)) in *. set (K := Z.of_nat (m_K m)). assert (HK' : (0 < K)%Z) by (unfold K; lia).
  assert (PZ : forall z, (0 < z)%Z -> 0 < inject_Z z) by (intros z Hz; change 0 with (inject_Z 0); rewrite <- Zlt_Qlt; exact Hz).
  destruct (tofl_pos F HF) as (f & Ef & Pf & Bf). destruct (tofl_pos K HK') as (k & Ek & Pk & Bk).
  assert (NUM : forall z, (0 <= z)%Z -> exists a, (if (z =? 0)%Z then Some 1 else tofl z) = Some a /\ 0 < a /\ inject_Z (Z.max 1 z) * (1 - 1 * (1 # 16777216)) <= a <= inject_Z (Z.max 1 z) * (1 + 1 * (1 # 16777216))).
  { intros z Hz. destruct (Z.eqb_spec z 0) as [->|N]; [exists 1; split; [reflexivity|]; split; [lra|]; change (inject_Z (Z.max 1 0)) with 1; lra|]. destruct (tofl_pos z ltac:(lia)) as (a & Ea & Pa & Ba). exists a. split; [exact Ea|]. split; [exact Pa|]. rewrite Z.max_r by lia. lra. }
  destruct (NUM (n_fe (m_vals m)) HE) as (a & Ea & Pa & Ba). destruct (NUM (n_be (m_vals m)) HB) as (b & Eb & Pb & Bb).
  assert (SWF : get_fer m = fdiv (if (n_fe (m_vals m) =? 0)%Z then Some 1 else tofl (n_fe (m_vals m))) (tofl F)) by (unfold get_fer; fold F; destruct (n_fe (m_vals m) =? 0)%Z; reflexivity).
  assert (SWB : get_ber m = fdiv (fdiv (if (n_be (m_vals m) =? 0)%Z then Some 1 else tofl (n_be (m_vals m))) (tofl F)) (tofl K)) by (unfold get_ber; fold F K; destruct (n_be (m_vals m) =? 0)%Z; reflexivity).
  rewrite SWF, SWB, Ea, Eb, Ef, Ek. destruct (fdiv_pos a f Pa Pf) as (q & -> & Pq & Bq). destruct (fdiv_pos b f Pb Pf) as (r & -> & Pr & Br). destruct (fdiv_pos r k Pr Pk) as (s & -> & Ps & Bs).
  exists q, s. split; [reflexivity|]. split; [reflexivity|].
  assert (PM : forall z, 0 < inject_Z (Z.max 1 z)) by (intros z; apply PZ; lia). assert (US : (1 # 16777216) <= 1 # 1000) by (unfold Qle; cbn; lia).
  pose proof (near_div 1 (inject_Z (Z.max 1 (n_fe (m_vals m)))) (inject_Z F) a f q (1 # 16777216) (PM _) (PZ _ HF) ltac:(lra) US ltac:(lra) ltac:(lra) Ba Bf Bq Pq) as D1.
  pose proof (near_div 1 (inject_Z (Z.max 1 (n_be (m_vals m)))) (inject_Z F) b f r (1 # 16777216) (PM _) (PZ _ HF) ltac:(lra) US ltac:(lra) ltac:(lra) Bb Bf Br Pr) as D2.
  split; [apply (near_from _ _ _ (1 + 3)); [apply PZ; exact HF|apply PZ; lia|lra|exact D1]|].
  set (N := inject_Z (Z.max 1 (n_be (m_vals m)))) in *. set (FQ := inject_Z F) in *. set (KQ := inject_Z K) in *. assert (PN : 0 < N) by (apply PZ; lia). assert (PF : 0 < FQ) by (apply PZ; exact HF). assert (PK : 0 < KQ) by (apply PZ; exact HK').
  (* r is within 4u of N / F *)
  assert (D2' : N / FQ * (1 - (1 + 3) * (1 # 16777216)) <= r <= N / FQ * (1 + (1 + 3) * (1 # 16777216))).
  { assert (D : forall c, N / FQ * c == N * c / FQ) by (intros c; field; lra). rewrite !D. destruct D2 as [L U]. split; [apply Qle_shift_div_r; [exact PF|exact L]|apply Qle_shift_div_l; [exact PF|exact U]]. }
  assert (PNF : 0 < N / FQ) by (apply Qlt_shift_div_l; lra).
  pose proof (near_div (1 + 3) (N / FQ) KQ r k s (1 # 16777216) PNF PK ltac:(lra) US ltac:(lra) ltac:(lra) D2' Bk Bs Ps) as D3.
  assert (E : N / (FQ * KQ) == (N / FQ) / KQ) by (field; lra). pose proof (near_from s (N / FQ) KQ (1 + 3 + 3) PK PNF ltac:(lra) D3) as R. unfold near in *. rewrite E. exact R.
Qed.
Local Close Scope Q_scope.

(** ** C77: callbacks *)
Inductive cbcall {F : Type} := Rec (f : F) | Unrec (id : Z) | ClearAll.
Definition cbstep {F} (c : @callback F) (x : cbcall) : callback := match x with Rec f => fst (record c f) | Unrec id => fst (unrecord c id) | ClearAll => clear_all c end.
Definition cbrun {F} (l : list (@cbcall F)) : callback := fold_left cbstep l [].

Lemma unrecord_spec : forall F (c : @callback F) id, NoDup (map snd c) -> snd (unrecord c id) = existsb (fun p => snd p =? id) c /\ fst (unrecord c id) = filter (fun p => negb (snd p =? id)) c.
Proof.
  induction c as [|[f i] c IH]; intros id N; cbn [unrecord existsb filter snd]; [split; reflexivity|]. inversion N as [|? ? N1 N2]; subst. destruct (Z.eqb_spec i id) as [->|NE]; cbn [orb negb].
  - split; [reflexivity|]. cbn [fst]. symmetry. clear - N1. induction c as [|[g j] c IH]; [reflexivity|]. cbn [filter snd map] in *. destruct (Z.eqb_spec j id) as [->|]; [exfalso; apply N1; left; reflexivity|]. cbn [negb]. f_equal. apply IH. intros I. apply N1. right. exact I.
  - destruct (IH id N2) as [I1 I2]. destruct (unrecord c id) as [t b]. cbn [fst snd] in *. split; [exact I1|]. f_equal. exact I2.
Qed.
(** the number of callbacks recorded in a row is below 2^32 *)
Definition cb_inv {F} (c : @callback F) (n : nat) : Prop := (exists ids, map snd c = ids /\ Sorted.StronglySorted Z.lt ids) /\ forall i, In i (map snd c) -> 0 <= i < Z.of_nat n.

Lemma cb_sorted_nodup : forall l, Sorted.StronglySorted Z.lt l -> NoDup l.
Proof. induction 1 as [|x l S IH F]; constructor; [|exact IH]. intros I. pose proof (proj1 (Forall_forall _ _) F x I). lia. Qed.

Lemma record_inv : forall F (c : @callback F) f n, cb_inv c n -> Z.of_nat n < 2 ^ 32 - 1 -> let '(c', id) := record c f in c' = c ++ [(f, id)] /\ cb_inv c' (S n) /\ ~ In id (map snd c) /\ 0 <= id <= Z.of_nat n.
Proof.
  intros F c f n [(ids & E & S) B] Hn. unfold record. set (id := match rev c with [] => 0 | (_, i) :: _ => (i + 1) mod 2 ^ 32 end).
  assert (X : (forall i, In i (map snd c) -> i < id) /\ 0 <= id <= Z.of_nat n).
  { subst id. destruct (rev c) as [|[g i] t] eqn:ER.
    - apply (f_equal (@rev _)) in ER. rewrite rev_involutive in ER. cbn [rev] in ER. subst c. split; [intros i []|lia].
    - assert (EC : c = rev t ++ [(g, i)]) by (rewrite <- (rev_involutive c), ER; reflexivity). assert (Bi : 0 <= i < Z.of_nat n) by (apply B; rewrite EC, map_app; apply in_or_app; right; left; reflexivity). rewrite Z.mod_small by lia. split; [|lia].
      intros j I. rewrite EC, map_app in I, E. cbn [map snd] in *. apply in_app_or in I. destruct I as [I|[<-|[]]]; [|lia]. subst ids. clear - I S. induction (map snd (rev t)) as [|x l IH]; [destruct I|]. cbn [app] in S. inversion S as [|? ? S1 F1]; subst. destruct I as [<-|I]; [|apply IH; assumption]. pose proof (proj1 (Forall_forall _ _) F1 i ltac:(apply in_or_app; right; left; reflexivity)). lia. }
  destruct X as [X1 X2]. clearbody id. split; [reflexivity|]. split; [|split; [intros I; specialize (X1 id I); lia|exact X2]]. split.
  - exists (ids ++ [id]). split; [rewrite map_app, E; reflexivity|]. subst ids. clear - S X1. induction (map snd c) as [|x l IH]; cbn [app]; [constructor; constructor|]. inversion S as [|? ? S1 F1]; subst. constructor; [apply IH; [exact S1|intros i I; apply X1; right; exact I]|]. apply Forall_forall. intros z I. apply in_app_or in I. destruct I as [I|[<-|[]]]; [exact (proj1 (Forall_forall _ _) F1 z I)|apply X1; left; reflexivity].
  - intros i I. rewrite map_app in I. cbn [map snd] in I. apply in_app_or in I. destruct I as [I|[<-|[]]]; [specialize (B i I); lia|lia].
Qed.
Lemma cbrun_inv : forall F (l : list (@cbcall F)), Z.of_nat (length l) < 2 ^ 32 -> cb_inv (cbrun l) (length l).
Proof.
  intros F l. induction l as [|x l IH] using rev_ind; intros H; [split; [exists []; split; [reflexivity|constructor]|intros i []]|]. rewrite app_length in *. cbn [length] in *. specialize (IH ltac:(lia)). unfold cbrun in *. rewrite fold_left_app. cbn [fold_left]. set (c := fold_left cbstep l []) in *.
  rewrite Nat.add_1_r. destruct x as [f|id|]; cbn [cbstep].
  - pose proof (record_inv F c f _ IH ltac:(lia)) as R. destruct (record c f) as [c' i]. cbn [fst]. tauto.
  - destruct IH as [(ids & E & SS) B]. subst ids. rewrite (proj2 (unrecord_spec F c id (cb_sorted_nodup _ SS))). split.
    + exists (map snd (filter (fun p => negb (snd p =? id)) c)). split; [reflexivity|]. clear - SS. clearbody c. induction c as [|[g j] c IH]; cbn [filter map snd]; [constructor|]. cbn [map snd] in SS. inversion SS as [|? ? S1 F1]; subst. destruct (negb (j =? id)); [|apply IH; exact S1]. cbn [map snd]. constructor; [apply IH; exact S1|].
      apply Forall_forall. intros z I. apply in_map_iff in I. destruct I as (p & <- & I). apply filter_In in I. exact (proj1 (Forall_forall _ _) F1 (snd p) (in_map snd _ _ (proj1 I))).
    + intros i I. apply in_map_iff in I. destruct I as (p & <- & I). apply filter_In in I. specialize (B (snd p) (in_map snd _ _ (proj1 I))). lia.
  - unfold clear_all. split; [exists []; split; [reflexivity|constructor]|intros i []].
Qed.

(** C77: after any history of fewer than 2^32 - 1 calls, recording a function gives an identifier that no recorded function has, and adds the function at
    the end of the calls of notify; removing an identifier removes exactly its function, or nothing and returns false. *)
Theorem C77_record : forall F (l : list (@cbcall F)) f, Z.of_nat (length l) < 2 ^ 32 - 1 ->
  let c := cbrun l in let '(c', id) := record c f in ~ In id (map snd c) /\ NoDup (map snd c') /\ notify c' = notify c ++ [f] /\ 0 <= id < 2 ^ 32.
Proof.
  intros F l f H c. pose proof (cbrun_inv F l ltac:(lia)) as I. pose proof (record_inv F c f _ I H) as R. destruct (record c f) as [c' id]. destruct R as (-> & [(ids & E & S) _] & NI & B). split; [exact NI|]. split; [rewrite E; apply cb_sorted_nodup; exact S|]. split; [unfold notify; rewrite map_app; reflexivity|lia].
Qed.
Theorem C77_unrecord : forall F (l : list (@cbcall F)) id, Z.of_nat (length l) < 2 ^ 32 ->
  let c := cbrun l in let '(c', b) := unrecord c id in
  (b = true <-> In id (map snd c)) /\ (b = false -> c' = c) /\ forall f i, In (f, i) c' <-> In (f, i) c /\ i <> id.
Proof.
  intros F l id H c. destruct (cbrun_inv F l H) as [(ids & E & S) _]. fold c in E. destruct (unrecord_spec F c id ltac:(rewrite E; apply cb_sorted_nodup; exact S)) as [U1 U2]. destruct (unrecord c id) as [c' b]. cbn [fst snd] in *. subst b c'. split; [|split].
  - rewrite existsb_exists, in_map_iff. split; intros (p & X & Y); exists p; [apply Z.eqb_eq in Y; tauto|split; [exact Y|apply Z.eqb_eq; exact X]].
  - intros X. clear - X. induction c as [|[g j] c IH]; [reflexivity|]. cbn [existsb filter snd] in *. apply orb_false_iff in X. destruct X as [-> X]. cbn [negb]. f_equal. apply IH. exact X.
  - intros f i. rewrite filter_In. cbn [snd]. rewrite negb_true_iff, Z.eqb_neq. reflexivity.
Qed.
Example C77_example : notify (cbrun [Rec 7; Rec 8; Unrec 0; Rec 9; Unrec 5]) = [8; 9] /\ snd (record (cbrun [Rec 7; Rec 8; Unrec 0]) 9) = 2.
Proof. split; reflexivity. Qed.

(** ** C78: averages *)
Local Open Scope Q_scope.
Definition qsum (l : list Q) : Q := fold_right Qplus 0 l.
Definition mi_of (a : mi_attrs) (l : list Q) : Prop :=
  n_trials a = Z.of_nat (length l) /\ MI a * inject_Z (Z.of_nat (length l)) == qsum l /\ (l = [] -> MI a == 0) /\
  (forall x, In x l -> MI_min a <= x <= MI_max a) /\ (MI_max a == 0 \/ exists x, In x l /\ MI_max a == x) /\ (MI_min a == 1 \/ exists x, In x l /\ MI_min a == x) /\ 0 <= MI_max a /\ MI_min a <= 1.
Lemma qsum_app : forall a b, qsum (a ++ b) == qsum a + qsum b.
Proof. induction a as [|x a IH]; intros b; [change (qsum b == 0 + qsum b); ring|]. change (x + qsum (a ++ b) == x + qsum a + qsum b). rewrite IH. ring. Qed.
Lemma qsum_one : forall x, qsum [x] == x.
Proof. intros. unfold qsum. cbn [fold_right]. ring. Qed.
Lemma qmax_spec : forall a b, a <= qmax a b /\ b <= qmax a b /\ (qmax a b == a \/ qmax a b == b).
Proof. intros. unfold qmax. destruct (Qlt_le_dec a b); (split; [lra|]; split; [lra|]); [right|left]; reflexivity. Qed.
Lemma qmin_spec : forall a b, qmin a b <= a /\ qmin a b <= b /\ (qmin a b == a \/ qmin a b == b).
Proof. intros. unfold qmin. destruct (Qlt_le_dec b a); (split; [lra|]; split; [lra|]); [right|left]; reflexivity. Qed.

Lemma mi0_of : mi_of mi0 [].
Proof. split; [reflexivity|]. split; [reflexivity|]. split; [reflexivity|]. split; [intros x []|]. split; [left; reflexivity|]. split; [left; reflexivity|]. cbn. lra. Qed.

(** C78: adding values keeps the average, the greatest and the smallest of the values (in exact arithmetic) *)
Theorem C78_add : forall a l x, mi_of a l -> (Z.of_nat (length l) + 1 < 2 ^ 64)%Z -> mi_of (mi_add a x) (l ++ [x]).
Proof.
  intros a l x (N & A & E & R & MX & MN & P0 & P1) B. unfold mi_add. rewrite N. rewrite usize_small by lia. set (n := Z.of_nat (length l)) in *.
  assert (L : Z.of_nat (length (l ++ [x])) = (n + 1)%Z) by (rewrite app_length; cbn [length]; lia). assert (PN : 0 < inject_Z (n + 1)) by (change 0 with (inject_Z 0); rewrite <- Zlt_Qlt; lia).
  destruct (qmax_spec (MI_max a) x) as (X1 & X2 & X3). destruct (qmin_spec (MI_min a) x) as (Y1 & Y2 & Y3).
  split; [cbn [n_trials]; lia|]. cbn [MI MI_max MI_min]. split; [rewrite L, qsum_app, qsum_one, <- A; rewrite inject_Z_plus in *; change (inject_Z 1) with 1 in *; field; lra|]. split; [intros H; destruct l; discriminate H|].
  split; [intros y I; apply in_app_or in I; destruct I as [I|[<-|[]]]; [specialize (R y I)|]; lra|]. split.
  { destruct X3 as [X3|X3]; [destruct MX as [M|(y & I & M)]; [left; rewrite X3; exact M|right; exists y; split; [apply in_or_app; left; exact I|rewrite X3; exact M]]|right; exists x; split; [apply in_or_app; right; left; reflexivity|exact X3]]. }
  split; [|lra].
  destruct Y3 as [X4|X4]; [destruct MN as [M|(y & I & M)]; [left; rewrite X4; exact M|right; exists y; split; [apply in_or_app; left; exact I|rewrite X4; exact M]]|right; exists x; split; [apply in_or_app; right; left; reflexivity|exact X4]].
Qed.
(** ... and so does merging two monitors, whatever the number of values of each *)
Theorem C78_merge : forall a b l l', mi_of a l -> mi_of b l' -> (Z.of_nat (length l + length l') < 2 ^ 64)%Z -> mi_of (mi_merge a b) (l ++ l').
Proof.
  intros a b l l' (N & A & E & R & MX & MN & P0 & P1) (N' & A' & E' & R' & MX' & MN' & P0' & P1') B. unfold mi_merge. rewrite N, N'. rewrite usize_small by lia. set (n := Z.of_nat (length l)) in *. set (n' := Z.of_nat (length l')) in *.
  assert (L : Z.of_nat (length (l ++ l')) = (n + n')%Z) by (rewrite app_length; lia).
  destruct (qmax_spec (MI_max a) (MI_max b)) as (X1 & X2 & X3). destruct (qmin_spec (MI_min a) (MI_min b)) as (Y1 & Y2 & Y3).
  split; [cbn [n_trials]; lia|]. cbn [MI MI_max MI_min]. split; [|split].
  - rewrite L, qsum_app. destruct (Z.eqb_spec (n + n') 0) as [Z0|Z0].
    + assert (l = []) by (destruct l; [reflexivity|cbn [length] in *; lia]). assert (l' = []) by (destruct l'; [reflexivity|cbn [length] in *; lia]). subst l l'. cbn [qsum fold_right]. ring.
    + assert (PN : 0 < inject_Z (n + n')) by (change 0 with (inject_Z 0); rewrite <- Zlt_Qlt; lia). rewrite <- A, <- A'. rewrite inject_Z_plus in *. field. lra.
  - intros H. apply app_eq_nil in H. destruct H as [-> ->]. cbn [length] in *. replace (n + n' =? 0)%Z with true by (symmetry; apply Z.eqb_eq; lia). reflexivity.
  - split; [intros y I; apply in_app_or in I; destruct I as [I|I]; [specialize (R y I)|specialize (R' y I)]; lra|]. split.
    { destruct X3 as [X3|X3]; [destruct MX as [M|(y & I & M)]|destruct MX' as [M|(y & I & M)]]; [left; rewrite X3; exact M| |left; rewrite X3; exact M|]; right; exists y; (split; [apply in_or_app; tauto|rewrite X3; exact M]). }
    split; [|lra].
    destruct Y3 as [X4|X4]; [destruct MN as [M|(y & I & M)]|destruct MN' as [M|(y & I & M)]]; [left; rewrite X4; exact M| |left; rewrite X4; exact M|]; right; exists y; (split; [apply in_or_app; tauto|rewrite X4; exact M]).
Qed.
Example C78_example : mi_of (mi_merge (mi_add mi0 (1 # 2)) (mi_add (mi_add mi0 (1 # 4)) (3 # 4))) [1 # 2; 1 # 4; 3 # 4].
Proof. apply (C78_merge _ _ [1 # 2] [1 # 4; 3 # 4]); [apply (C78_add _ [])|apply (C78_add _ [1 # 4]); [apply (C78_add _ [])|]|]; try exact mi0_of; reflexivity. Qed.
Local Close Scope Q_scope.

Example C48_example : option_map (fun m => (m_vals m, h_map (m_hist m), is_done m))
  (match m <- new_monitor 2 2 0 false ;; mrun 8 (Some 4%nat) m [Activate true; Check [1;0;1;1;0;0] [1;1;0;0;0;0] 3; Check [1;1] [0;1] 1] with Ret m => Some m | _ => None end)
  = Some (mkAttrs 4 4 3, [(1, 2); (2, 1)], true).
Proof. reflexivity. Qed.
Example C48_reduce_example : exists m1 m2 r, new_monitor 2 2 0 false = Ret m1 /\ mrun 8 None m1 [Check [1;0] [1;1] 1] = Ret m2 /\ new_reduction [m2; m1; m2] = Ret r /\ m_vals (fst r) = mkAttrs 2 2 2.
Proof. eexists _, _, _. repeat split. Qed.
(** A reduction of no monitor, or of monitors with different parameters, is refused. *)
Theorem C48_reduction_refused : new_reduction [] = Throws /\
  forall m0 ms m, In m ms -> (m_K m, m_max_fe m, m_max_fra m, m_unk m) <> (m_K m0, m_max_fe m0, m_max_fra m0, m_unk m0) -> new_reduction (m0 :: ms) = Throws.
Proof.
  split; [reflexivity|]. intros m0 ms m I N. unfold new_reduction. replace (forallb (equivalent m0) (m0 :: ms)) with false; [reflexivity|]. symmetry. destruct (forallb (equivalent m0) (m0 :: ms)) eqn:E; [|reflexivity]. exfalso.
  rewrite forallb_forall in E. specialize (E m (or_intror I)). unfold equivalent in E. rewrite !andb_true_iff in E. destruct E as [[[E1 E2] E3] E4]. apply Nat.eqb_eq in E1. apply Z.eqb_eq in E2, E3. apply eqb_prop in E4. apply N. congruence.
Qed.
