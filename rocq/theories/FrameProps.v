(** Theorems about the number of frames of a module (C42). *)
From Coq Require Import List Arith Lia Bool ZArith.
From Verif Require Import Base Float32 TaskModel.
Import ListNotations.
Local Open Scope Z_scope.

(** ** Specification: the sizes of a task for n frames in w(aves of) frames *)
Definition task_ok (n w waves : Z) (t : mtask) : Prop :=
  Forall2 (fun s b => ms_bytes s = b * n) (mt_socks t) (mt_bpf t) /\ ms_bytes (mt_status t) = 4 * waves /\ mt_nstatus t = waves /\
  mt_data t = map (fun b => if 1 <? w then b * w else 0) (mt_bpf t).
Definition module_ok (m : module) : Prop :=
  0 < m_n m <= 2 ^ 24 /\ 0 < m_w m <= 2 ^ 24 /\ m_waves m = ceil_div (m_n m) (m_w m) /\ m_rest m = m_n m mod m_w m /\ (m_single m = true -> m_w m = m_n m) /\
  Forall (task_ok (m_n m) (m_w m) (m_waves m)) (m_tasks m).

Lemma set_bytes_ok : forall s b s', set_bytes s b = (s', true) -> ms_bytes s' = b.
Proof. intros s b s'. unfold set_bytes. destruct (Z.eqb_spec b (ms_bytes s)) as [->|]; [intros E; injection E as <-; reflexivity|]. destruct (ms_bound s); intros E; [discriminate E|]. injection E as <-. reflexivity. Qed.
Lemma resize_ok : forall l bpf old new l', 0 < old -> Forall2 (fun s b => ms_bytes s = b * old) l bpf -> resize_socks l old new = (l', true) -> Forall2 (fun s b => ms_bytes s = b * new) l' bpf.
Proof.
  induction l as [|s l IH]; intros bpf old new l' Ho F E; cbn [resize_socks] in E.
  - injection E as <-. inversion F. constructor.
  - inversion F as [|? b ? bpf' B F']; subst. destruct (set_bytes s _) as [s' ok] eqn:ES. destruct ok; [|discriminate E]. destruct (resize_socks l old new) as [l2 ok2] eqn:ER. injection E as <- ->. constructor; [|eapply IH; eassumption]. rewrite (set_bytes_ok _ _ _ ES), B, Z.div_mul by lia. reflexivity.
Qed.
Lemma status_ok : forall t waves t', resize_status t waves = (t', true) -> (ms_bytes (mt_status t) = 4 * mt_nstatus t) -> mt_socks t' = mt_socks t /\ mt_bpf t' = mt_bpf t /\ mt_data t' = mt_data t /\ ms_bytes (mt_status t') = 4 * waves /\ mt_nstatus t' = waves.
Proof.
  intros t waves t' E H. unfold resize_status in E. destruct (Z.eqb_spec (waves * 4) (ms_bytes (mt_status t))) as [Q|Q].
  - injection E as <-. repeat split; lia.
  - destruct (set_bytes _ _) as [s ok] eqn:ES. destruct ok; [|discriminate E]. injection E as <-. cbn [mt_socks mt_bpf mt_data mt_status mt_nstatus]. pose proof (set_bytes_ok _ _ _ ES). repeat split; lia.
Qed.
Lemma tasks_ok : forall f (P Q : mtask -> Prop) l l', (forall t t', P t -> f t = (t', true) -> Q t') -> Forall P l -> update_tasks f l = (l', true) -> Forall Q l'.
Proof.
  intros f P Q l. induction l as [|t l IH]; intros l' H F E; cbn [update_tasks] in E; [injection E as <-; constructor|]. inversion F; subst. destruct (f t) as [t' ok] eqn:ET. destruct ok; [|discriminate E]. destruct (update_tasks f l) as [l2 ok2] eqn:EL. injection E as <- ->. constructor; [eapply H; eassumption|apply IH; auto].
Qed.

(** what a successful call of the private functions gives; [single] is not yet restored *)
Definition weak_ok (m : module) : Prop :=
  0 < m_n m <= 2 ^ 24 /\ 0 < m_w m <= 2 ^ 24 /\ m_waves m = ceil_div (m_n m) (m_w m) /\ m_rest m = m_n m mod m_w m /\ Forall (task_ok (m_n m) (m_w m) (m_waves m)) (m_tasks m).
Lemma frames_ok_ : forall m n m', weak_ok m -> 0 <= n <= 2 ^ 24 -> set_n_frames_ m n = (m', true) -> weak_ok m' /\ m_n m' = n /\ m_w m' = m_w m /\ m_single m' = m_single m.
Proof.
  intros m n m' (A & B & C & D & F) Hn E. unfold set_n_frames_ in E. destruct (Z.eqb_spec n 0) as [|N]; [discriminate E|]. destruct (update_tasks _ _) as [ts ok] eqn:EU. injection E as <- ->. cbn [m_n m_w m_single]. split; [|repeat split]. unfold weak_ok. cbn [m_n m_w m_waves m_rest m_tasks]. rewrite ceil_float_div_exact in * by lia. do 4 (split; [first [lia|reflexivity]|]).
  eapply tasks_ok; [|exact F|exact EU]. intros t t' (T1 & T2 & T3 & T4) ET. unfold update_n_frames in ET. destruct (resize_socks _ _ _) as [l ok] eqn:ER. destruct ok; [|discriminate ET]. destruct (status_ok _ _ _ ET) as (X1 & X2 & X3 & X4 & X5); [cbn [mt_status mt_nstatus]; lia|]. cbn [mt_socks mt_bpf mt_data] in *. unfold task_ok. rewrite X1, X2, X3. split; [eapply resize_ok; [|exact T1|exact ER]; lia|]. auto.
Qed.
Lemma wave_ok_ : forall m w m', weak_ok m -> 0 <= w <= 2 ^ 24 -> set_n_frames_per_wave_ m w = (m', true) -> weak_ok m' /\ m_n m' = m_n m /\ m_w m' = w /\ m_single m' = m_single m.
Proof.
  intros m n m' (A & B & C & D & F) Hn E. unfold set_n_frames_per_wave_ in E. destruct (Z.eqb_spec n 0) as [|N]; [discriminate E|]. destruct (update_tasks _ _) as [ts ok] eqn:EU. injection E as <- ->. cbn [m_n m_w m_single]. split; [|repeat split]. unfold weak_ok. cbn [m_n m_w m_waves m_rest m_tasks]. rewrite ceil_float_div_exact in * by lia. do 4 (split; [first [lia|reflexivity]|]).
  eapply tasks_ok; [|exact F|exact EU]. intros t t' (T1 & T2 & T3 & T4) ET. unfold update_n_frames_per_wave in ET. destruct (status_ok _ _ _ ET) as (X1 & X2 & X3 & X4 & X5); [cbn [mt_status mt_nstatus]; lia|]. cbn [mt_socks mt_bpf mt_data] in *. unfold task_ok. rewrite X1, X2, X3. auto.
Qed.

Definition lvl (per_wave : bool) (n : Z) (m : module) : module * bool :=
  if (if per_wave then m_w m else m_n m) =? n then (m, true) else if per_wave then set_n_frames_per_wave_ m n else set_n_frames_ m n.
Lemma set_frames_S : forall fuel per_wave n m, set_frames (S fuel) per_wave n m =
  let '(m1, ok) := lvl per_wave n m in
  if ok then if m_single m1 && negb ((if per_wave then m_n m1 else m_w m1) =? n) then set_frames fuel (negb per_wave) n m1 else Some (m1, true) else Some (m1, false).
Proof. reflexivity. Qed.

(** one level: what is set, and the rest is kept *)
Lemma level : forall per_wave n m m1, weak_ok m -> 0 <= n <= 2 ^ 24 ->
  lvl per_wave n m = (m1, true) ->
  weak_ok m1 /\ (if per_wave then m_w m1 else m_n m1) = n /\ (if per_wave then m_n m1 else m_w m1) = (if per_wave then m_n m else m_w m) /\ m_single m1 = m_single m.
Proof.
  intros per_wave n m m1 W Hn E. unfold lvl in E. destruct (Z.eqb_spec (if per_wave then m_w m else m_n m) n) as [Q|Q]; [injection E as <-; destruct per_wave; auto|].
  destruct per_wave; [destruct (wave_ok_ _ _ _ W Hn E) as (a & b & c & d)|destruct (frames_ok_ _ _ _ W Hn E) as (a & b & c & d)]; auto.
Qed.
(** the mutual calls stop, and after a success the module is consistent *)
Lemma set_frames_ok : forall fuel per_wave n m, (2 < fuel)%nat -> weak_ok m -> 0 <= n <= 2 ^ 24 ->
  exists m' ok, set_frames fuel per_wave n m = Some (m', ok) /\ (ok = true -> module_ok m' /\ m_single m' = m_single m /\ (if per_wave then m_w m' else m_n m') = n /\ (m_single m = false -> (if per_wave then m_n m' else m_w m') = (if per_wave then m_n m else m_w m))).
Proof.
  intros fuel per_wave n m Hf W Hn. destruct fuel as [|[|[|fuel]]]; try lia. rewrite set_frames_S.
  destruct (lvl per_wave n m) as [m1 ok] eqn:E1. destruct ok; [|exists m1, false; split; [reflexivity|discriminate]]. destruct (level _ _ _ _ W Hn E1) as (W1 & N1 & O1 & S1).
  destruct (m_single m1 && negb _) eqn:C.
  - apply andb_true_iff in C. destruct C as [C1 C2]. rewrite set_frames_S. destruct (lvl (negb per_wave) n m1) as [m2 ok] eqn:E2. destruct ok; [|exists m2, false; split; [reflexivity|discriminate]]. destruct (level _ _ _ _ W1 Hn E2) as (W2 & N2 & O2 & S2).
    assert (EQ : m_w m2 = n /\ m_n m2 = n) by (destruct per_wave; cbn [negb] in *; split; congruence). destruct EQ as [EW EN].
    replace ((if negb per_wave then m_n m2 else m_w m2) =? n) with true by (symmetry; destruct per_wave; cbn [negb]; apply Z.eqb_eq; assumption). rewrite andb_false_r. exists m2, true. split; [reflexivity|]. intros _. split; [destruct W2 as (a & b & c & d & e); unfold module_ok; repeat split; try assumption; try lia; congruence|]. split; [congruence|]. split; [destruct per_wave; assumption|]. intros X. congruence.
  - exists m1, true. split; [reflexivity|]. intros _. apply andb_false_iff in C. split; [|split; [exact S1|]; split; [exact N1|intros _; exact O1]]. destruct W1 as (a & b & c & d & e). unfold module_ok. repeat split; try assumption; try lia. intros X. destruct C as [C|C]; [congruence|]. apply negb_false_iff, Z.eqb_eq in C. destruct per_wave; congruence.
Qed.

Lemma weak_of : forall m, module_ok m -> weak_ok m.
Proof. intros m (a & b & c & d & e & f). unfold weak_ok. auto. Qed.

Definition small_call (c : fcall) : Prop := match c with SetFrames n | SetWave n => 0 <= n <= 2 ^ 24 | _ => True end.
Lemma bind_task_ok : forall n w waves i b t, task_ok n w waves t -> task_ok n w waves (bind_task i b t).
Proof.
  intros n w waves i b t (A & B & C & D). unfold bind_task. destruct (Nat.ltb_spec i (length (mt_socks t))); unfold task_ok; cbn; repeat split; try assumption.
  clear - A. revert i. induction A as [|s c l bpf H A IH]; intros [|i]; cbn [upd nth]; constructor; try assumption; auto.
Qed.
Lemma Forall_upd : forall A (P : A -> Prop) l i x, Forall P l -> P x -> Forall P (upd l i x).
Proof. intros A P l i x F X. revert i. induction F; intros [|i]; cbn [upd]; constructor; auto. Qed.

(** C42: after any history of successful calls (and of sockets bound and unbound in between), the bookkeeping of the module is exact: number of waves,
    frames of the last wave, sizes of the sockets, of the status and of the internal buffers. Numbers of frames up to 2^24. *)
Theorem C42_history : forall fuel calls m, (2 < fuel)%nat -> module_ok m -> (forall c, In c calls -> small_call c) ->
  forall m', (fix run m l := match l with [] => Some m | c :: l => match fstep fuel m c with Some (m1, true) => run m1 l | _ => None end end) m calls = Some m' -> module_ok m'.
Proof.
  intros fuel calls m Hf. revert m. induction calls as [|c calls IH]; intros m W V m' E; [injection E as <-; exact W|].
  destruct (fstep fuel m c) as [[m1 ok]|] eqn:ES; [|discriminate E]. destruct ok; [|discriminate E]. apply (IH m1); [|intros; apply V; right; assumption|exact E].
  specialize (V c (or_introl eq_refl)). destruct c as [n|n|b|t s b]; cbn [fstep small_call] in *.
  - destruct (set_frames_ok fuel false n m Hf (weak_of _ W) V) as (m2 & ok & Q & R). rewrite Q in ES. injection ES as <- ->. apply R. reflexivity.
  - destruct (set_frames_ok fuel true n m Hf (weak_of _ W) V) as (m2 & ok & Q & R). rewrite Q in ES. injection ES as <- ->. apply R. reflexivity.
  - unfold set_single_wave in ES. set (m0 := mkMod _ _ _ _ _ _) in ES. assert (W0 : weak_ok m0) by exact (weak_of _ W). assert (B0 : 0 <= m_n m0 <= 2 ^ 24) by (destruct W0; lia).
    destruct (set_frames_ok fuel false (m_n m0) m0 Hf W0 B0) as (m2 & ok & Q & R). rewrite Q in ES. destruct ok; [|injection ES as <-; discriminate]. destruct (R eq_refl) as (W2 & _ & N2 & _).
    assert (B2 : 0 <= m_n m2 <= 2 ^ 24) by lia. destruct (set_frames_ok fuel true (m_n m2) m2 Hf (weak_of _ W2) B2) as (m3 & ok & Q' & R'). rewrite Q' in ES. injection ES as <- ->. apply R'. reflexivity.
  - injection ES as <-. destruct W as (a & p & q & d & e & f). unfold module_ok. cbn. repeat split; try assumption; try lia. destruct (nth_error (m_tasks m) t) as [k|] eqn:EN; [|exact f]. apply Forall_upd; [exact f|]. apply bind_task_ok. rewrite Forall_forall in f. apply f. eapply nth_error_In. exact EN.
Qed.
(** a new module is consistent, and with no bound socket the calls succeed *)
Theorem C42_new : forall tasks, module_ok (new_module tasks).
Proof.
  intros tasks. unfold module_ok, new_module. cbn. repeat split; try lia. apply Forall_forall. intros t I. apply in_map_iff in I. destruct I as (l & <- & _). unfold task_ok, new_task. cbn. repeat split; try lia; try reflexivity. clear. induction l as [|b l IH]; cbn [map]; constructor; [cbn; lia|exact IH].
Qed.
Definition free_task (t : mtask) : Prop := Forall (fun s => ms_bound s = false) (mt_socks t) /\ ms_bound (mt_status t) = false.
Definition free (m : module) : Prop := Forall free_task (m_tasks m).
Lemma free_resize : forall l old new, Forall (fun s => ms_bound s = false) l -> exists l', resize_socks l old new = (l', true) /\ Forall (fun s => ms_bound s = false) l'.
Proof.
  induction l as [|s l IH]; intros old new F; cbn [resize_socks]; [exists []; auto|]. inversion F as [|? ? B F']; subst. unfold set_bytes. destruct (_ =? _); [|rewrite B]; destruct (IH old new F') as (l' & -> & G); eexists; (split; [reflexivity|]); constructor; auto.
Qed.
Lemma free_status : forall t waves, free_task t -> exists t', resize_status t waves = (t', true) /\ free_task t'.
Proof. intros t waves [A B]. unfold resize_status, set_bytes. destruct (waves * 4 =? ms_bytes (mt_status t)); [exists t; split; [reflexivity|split; assumption]|]. rewrite B. eexists. split; [reflexivity|]. split; [exact A|]; cbn; assumption || reflexivity. Qed.
Lemma free_tasks : forall f l, (forall t, free_task t -> exists t', f t = (t', true) /\ free_task t') -> Forall free_task l -> exists l', update_tasks f l = (l', true) /\ Forall free_task l'.
Proof. intros f l H. induction 1 as [|t l F1 F IH]; cbn [update_tasks]; [exists []; auto|]. destruct (H t F1) as (t' & -> & G). destruct IH as (l' & -> & G'). eexists. split; [reflexivity|]. constructor; auto. Qed.
Lemma free_frames_ : forall m n, free m -> n <> 0 -> exists m', set_n_frames_ m n = (m', true) /\ free m'.
Proof.
  intros m n F N. unfold set_n_frames_. replace (n =? 0) with false by (symmetry; apply Z.eqb_neq; exact N). edestruct (free_tasks (fun t => update_n_frames t (ceil_float_div n (m_w m)) (m_n m) n) (m_tasks m)) as (l' & -> & G); [|exact F|eexists; split; [reflexivity|exact G]].
  intros t [A B]. unfold update_n_frames. destruct (free_resize (mt_socks t) (m_n m) n A) as (l' & -> & G). apply free_status. split; assumption.
Qed.
Lemma free_wave_ : forall m n, free m -> n <> 0 -> exists m', set_n_frames_per_wave_ m n = (m', true) /\ free m'.
Proof.
  intros m n F N. unfold set_n_frames_per_wave_. replace (n =? 0) with false by (symmetry; apply Z.eqb_neq; exact N). edestruct (free_tasks (fun t => update_n_frames_per_wave t (ceil_float_div (m_n m) n) n) (m_tasks m)) as (l' & -> & G); [|exact F|eexists; split; [reflexivity|exact G]].
  intros t [A B]. unfold update_n_frames_per_wave. apply free_status. split; assumption.
Qed.
Lemma free_lvl : forall p n m, free m -> n <> 0 -> exists m1, lvl p n m = (m1, true) /\ free m1.
Proof. intros p n m F N. unfold lvl. destruct ((if p then m_w m else m_n m) =? n); [exists m; auto|]. destruct p; [apply free_wave_|apply free_frames_]; auto. Qed.
(** C42: with unbound sockets, setting a positive number of frames (per wave) succeeds and sets that number, and the other one too in the single wave mode *)
Theorem C42_set : forall fuel per_wave n m, (2 < fuel)%nat -> module_ok m -> free m -> 0 < n <= 2 ^ 24 ->
  exists m', set_frames fuel per_wave n m = Some (m', true) /\ module_ok m' /\ (if per_wave : bool then m_w m' else m_n m') = n /\ m_single m' = m_single m /\
    (m_single m = false -> (if per_wave then m_n m' else m_w m') = (if per_wave then m_n m else m_w m)).
Proof.
  intros fuel per_wave n m Hf W F Hn. assert (Hn' : 0 <= n <= 2 ^ 24) by lia. destruct (set_frames_ok fuel per_wave n m Hf (weak_of _ W) Hn') as (m' & ok & Q & R).
  assert (ok = true); [|subst ok; exists m'; split; [exact Q|]; destruct (R eq_refl) as (a & b & c & d); auto].
  clear R. revert per_wave m F W Q. clear Hf. induction fuel as [|fuel IH]; intros per_wave m F W Q; [discriminate Q|]. rewrite set_frames_S in Q.
  destruct (free_lvl per_wave n m F ltac:(lia)) as (m1 & E & F1). rewrite E in Q. destruct (m_single m1 && negb _) eqn:C; [|injection Q as _ <-; reflexivity].
  destruct (level _ _ _ _ (weak_of _ W) Hn' E) as (W1 & N1 & O1 & S1). clear IH. apply andb_true_iff in C. destruct C as [C1 C2].
  destruct fuel as [|fuel]; [discriminate Q|]. rewrite set_frames_S in Q.
  destruct (free_lvl (negb per_wave) n m1 F1 ltac:(lia)) as (m2 & E2 & F2). rewrite E2 in Q. destruct (level _ _ _ _ W1 Hn' E2) as (W2 & N2 & O2 & S2).
  replace ((if negb per_wave then m_n m2 else m_w m2) =? n) with true in Q; [rewrite andb_false_r in Q; injection Q as _ <-; reflexivity|]. symmetry. destruct per_wave; cbn [negb] in *; apply Z.eqb_eq; congruence.
Qed.

(** Refuted: a call that fails because a socket is bound leaves the module with the new number of frames and the old sizes: the same call then succeeds and
    does nothing, even once the socket is unbound. *)
Theorem C42_failure_refuted : forall fuel m s l t ts n, (2 < fuel)%nat -> module_ok m -> m_single m = false -> m_tasks m = t :: ts -> mt_socks t = s :: l -> ms_bound s = true -> 0 < ms_bytes s -> 0 < n <= 2 ^ 24 -> n <> m_n m ->
  exists m', set_frames fuel false n m = Some (m', false) /\ m_n m' = n /\ m_tasks m' = m_tasks m /\ ~ module_ok m' /\
    forall b, let m2 := mkMod (m_n m') (m_w m') (m_waves m') (m_rest m') (m_single m') (bind_task 0 b t :: ts) in set_frames fuel false n m2 = Some (m2, true) /\ ~ module_ok m2.
Proof.
  intros fuel m s l t ts n Hf W SG ET ES B P Hn NE. destruct fuel as [|fuel]; [lia|].
  destruct W as (A1 & A2 & A3 & A4 & A5 & A6). rewrite ET in A6. inversion A6 as [|? ? TO _]; subst. destruct TO as (T1 & T2 & T3 & T4). rewrite ES in T1. inversion T1 as [|? b ? bpf EB T1' E1 E2]; subst.
  assert (Pb : 0 < b) by nia. assert (NB : b * n <> ms_bytes s) by (rewrite EB; intros X; apply Z.mul_reg_l in X; lia).
  set (m' := mkMod n (m_w m) (ceil_float_div n (m_w m)) (n mod m_w m) (m_single m) (m_tasks m)).
  assert (Q : set_n_frames_ m n = (m', false)).
  { unfold set_n_frames_. replace (n =? 0) with false by (symmetry; apply Z.eqb_neq; lia). rewrite ET. cbn [update_tasks]. unfold update_n_frames at 1. rewrite ES. cbn [resize_socks]. rewrite EB at 1. rewrite Z.div_mul by lia. unfold set_bytes. replace (b * n =? ms_bytes s) with false by (symmetry; apply Z.eqb_neq; exact NB). rewrite B. cbn. unfold m'. rewrite ET. do 3 f_equal. rewrite <- ES. destruct t; reflexivity. }
  exists m'. split; [rewrite set_frames_S; unfold lvl; replace (m_n m =? n) with false by (symmetry; apply Z.eqb_neq; lia); rewrite Q; reflexivity|]. split; [reflexivity|]. split; [reflexivity|].
  assert (X : forall t', mt_bpf t' = mt_bpf t -> (exists s' l', mt_socks t' = s' :: l' /\ ms_bytes s' = ms_bytes s) -> ~ Forall (task_ok n (m_w m) (m_waves m')) (t' :: ts)).
  { intros t' E' (s' & l' & F' & G') H. inversion H as [|? ? (U & _) _]; subst. rewrite F' in U. rewrite E', <- E2 in U. inversion U as [|? ? ? ? V _]; subst. lia. }
  split.
  - intros (_ & _ & _ & _ & _ & H). cbn [m_n m_w m_tasks m'] in H. rewrite ET in H. apply (X t eq_refl); [exists s, l; auto|exact H].
  - intros c m2. split.
    + rewrite set_frames_S. unfold lvl, m2, m'. cbn [m_n m_w m_single]. rewrite Z.eqb_refl, SG. reflexivity.
    + intros (_ & _ & _ & _ & _ & H). unfold m2 in H. cbn [m_n m_w m_tasks m'] in H. apply (X (bind_task 0 c t)); [unfold bind_task; destruct (_ <? _)%nat; reflexivity| |exact H]. unfold bind_task. rewrite ES. cbn [length Nat.ltb Nat.leb]. cbn. eauto.
Qed.
(** Refuted: beyond 2^24 frames, one frame may be left out of the waves; and nothing bounds the frames of a wave by the frames. *)
Theorem C42_large_refuted : let n := 2 ^ 24 + 1 in
  exists m, set_frames 3 true 8 (new_module []) = Some (m, true) /\ exists m', set_frames 3 false n m = Some (m', true) /\ m_n m' = n /\ m_waves m' * m_w m' < n.
Proof.
  cbv zeta. eexists. split; [vm_compute; reflexivity|]. eexists. split.
  - rewrite set_frames_S. unfold lvl, set_n_frames_. cbn [m_n m_w m_tasks update_tasks]. rewrite (proj1 ceil_float_div_wrong). cbn [Z.eqb Z.pow Z.pow_pos Pos.iter Z.mul Z.add Pos.mul Pos.add Pos.eqb m_single andb]. reflexivity.
  - cbn. split; reflexivity.
Qed.
Theorem C42_wave_bound_refuted : forall w, 1 < w <= 2 ^ 24 -> exists m, set_frames 3 true w (new_module []) = Some (m, true) /\ m_n m < m_w m.
Proof.
  intros w Hw. destruct (C42_set 3 true w (new_module []) ltac:(lia) (C42_new []) ltac:(constructor) ltac:(lia)) as (m & E & _ & N & S & O). exists m. split; [exact E|]. rewrite (O eq_refl), N. cbn. lia.
Qed.
Example C42_example : option_map (fun r => (m_waves (fst r), m_rest (fst r), map ms_bytes (concat (map mt_socks (m_tasks (fst r)))))) (match set_frames 3 true 2 (new_module [[4; 8]; [1]]) with Some (m, true) => set_frames 3 false 7 m | x => x end) = Some (4, 1, [28; 56; 7]).
Proof. reflexivity. Qed.
