(** std::copy / std::fill on arrays, and monadic runs over a list of indices. *)
From Coq Require Import List Arith Lia Bool.
From Verif Require Import Base.
Import ListNotations.

(** std::copy(src + so, src + so + n, dst + d), distinct arrays *)
Definition copy {A} (src : list A) (so n : nat) (dst : list A) (d : nat) : outcome (list A) :=
  for_ n (fun i o => x <- rd src (so + i) ;; wr o (d + i) x) dst.
(** std::fill(dst + d, dst + d + n, x) *)
Definition fill {A} (dst : list A) (d n : nat) (x : A) : outcome (list A) :=
  for_ n (fun i o => wr o (d + i) x) dst.

Lemma copy_spec : forall A (df : A) (src : list A) so n (dst : list A) d, so + n <= length src -> d + n <= length dst ->
  exists o, copy src so n dst d = Ret o /\ length o = length dst /\
    (forall i, i < n -> nth (d + i) o df = nth (so + i) src df) /\
    (forall i, i < d \/ d + n <= i -> nth i o df = nth i dst df).
Proof.
  intros A df src so n dst d Hs Hd. unfold copy.
  match goal with |- context [for_ _ ?body _] =>
    destruct (for_inv _ (fun t (o : list A) => length o = length dst /\
      (forall i, i < t -> nth (d + i) o df = nth (so + i) src df) /\
      (forall i, i < d \/ d + t <= i -> nth i o df = nth i dst df)) n body dst) as (o & E & I) end.
  - split; auto. split; auto. intros; lia.
  - intros t o Ht (L & I1 & I2). rewrite (rd_ok _ df) by lia. cbn [bind]. rewrite wr_ok by lia.
    eexists; split; [reflexivity|]. rewrite length_upd. split; auto. split.
    + intros i Hi. destruct (Nat.eq_dec t i) as [e|e].
      * subst. rewrite nth_upd_eq by lia. auto.
      * rewrite nth_upd_neq by lia. apply I1. lia.
    + intros i Hi. rewrite nth_upd_neq by lia. apply I2. lia.
  - exists o. auto.
Qed.

Lemma fill_spec : forall A (df : A) n dst d x, d + n <= length dst ->
  exists o, fill dst d n x = Ret o /\ length o = length dst /\
    (forall i, i < n -> nth (d + i) o df = x) /\
    (forall i, i < d \/ d + n <= i -> nth i o df = nth i dst df).
Proof.
  intros A df n dst d x Hd. unfold fill.
  match goal with |- context [for_ _ ?body _] =>
    destruct (for_inv _ (fun t (o : list A) => length o = length dst /\
      (forall i, i < t -> nth (d + i) o df = x) /\
      (forall i, i < d \/ d + t <= i -> nth i o df = nth i dst df)) n body dst) as (o & E & I) end.
  - split; auto. split; auto. intros; lia.
  - intros t o Ht (L & I1 & I2). rewrite wr_ok by lia.
    eexists; split; [reflexivity|]. rewrite length_upd. split; auto. split.
    + intros i Hi. destruct (Nat.eq_dec t i) as [e|e].
      * subst. rewrite nth_upd_eq by lia. auto.
      * rewrite nth_upd_neq by lia. apply I1. lia.
    + intros i Hi. rewrite nth_upd_neq by lia. apply I2. lia.
  - exists o. auto.
Qed.

(** whole-list forms *)
Lemma copy_list : forall A (df : A) (src : list A) so n (dst : list A) d, so + n <= length src -> d + n <= length dst ->
  copy src so n dst d = Ret (firstn d dst ++ firstn n (skipn so src) ++ skipn (d + n) dst).
Proof.
  intros A df src so n dst d Hs Hd. destruct (copy_spec A df src so n dst d Hs Hd) as (o & E & L & C & D).
  rewrite E. f_equal.
  assert (L1 : length (firstn d dst) = d) by (rewrite firstn_length; lia).
  assert (L2 : length (firstn n (skipn so src)) = n) by (rewrite firstn_length, skipn_length; lia).
  apply list_eq_nth with (d := df).
  - rewrite !app_length, L1, L2, skipn_length. lia.
  - intros i Hi. destruct (Nat.lt_ge_cases i d).
    + rewrite app_nth1 by lia. rewrite firstn_nth by lia. apply D. lia.
    + rewrite app_nth2 by lia. rewrite L1. destruct (Nat.lt_ge_cases i (d + n)).
      * rewrite app_nth1 by lia. rewrite firstn_nth by lia. rewrite skipn_nth.
        replace (so + (i - d)) with (so + (i - d)) by auto. rewrite <- C by lia. f_equal. lia.
      * rewrite app_nth2 by lia. rewrite L2, skipn_nth. rewrite D by lia. f_equal. lia.
Qed.

Lemma bind_eq : forall A B (x : outcome A) (f g : A -> outcome B),
  (forall a, f a = g a) -> bind x f = bind x g.
Proof. intros. destruct x; simpl; auto. Qed.

Fixpoint run {B S} (f : B -> S -> outcome S) (l : list B) (s : S) : outcome S :=
  match l with
  | [] => Ret s
  | x :: t => s' <- f x s ;; run f t s'
  end.

Lemma run_app : forall B S (f : B -> S -> outcome S) l1 l2 s,
  run f (l1 ++ l2) s = bind (run f l1 s) (run f l2).
Proof.
  induction l1; simpl; intros; auto. destruct (f a s); simpl; auto.
Qed.

Lemma for_from_run : forall S (f : nat -> S -> outcome S) n lo s, for_from lo n f s = run f (seq lo n) s.
Proof. induction n; simpl; intros; auto. apply bind_ext. intros. apply IHn. Qed.

Lemma for_run : forall S (f : nat -> S -> outcome S) n s, for_ n f s = run f (seq 0 n) s.
Proof. intros. apply for_from_run. Qed.

Lemma run_flat : forall B C S (f : B -> S -> outcome S) (g : C -> list B) l s,
  run (fun c => run f (g c)) l s = run f (flat_map g l) s.
Proof.
  induction l; simpl; intros; auto. rewrite run_app. apply bind_ext. intros. apply IHl.
Qed.

Lemma run_map : forall B C S (f : B -> S -> outcome S) (g : C -> B) l s,
  run f (map g l) s = run (fun c => f (g c)) l s.
Proof. induction l; simpl; intros; auto. apply bind_ext. intros. apply IHl. Qed.

Lemma run_ext : forall B S (f g : B -> S -> outcome S) l s,
  (forall b s, In b l -> f b s = g b s) -> run f l s = run g l s.
Proof.
  induction l; simpl; intros; auto. rewrite H by auto. apply bind_ext. intros. apply IHl. auto.
Qed.

Lemma run_filter : forall B S (m : B -> bool) (f : B -> S -> outcome S) l s,
  run (fun b s => if m b then f b s else Ret s) l s = run f (filter m l) s.
Proof.
  induction l; simpl; intros; auto. destruct (m a); simpl; auto. apply bind_ext. intros. apply IHl.
Qed.

(** X2[k++] = X1[p] *)
Definition emit {A} (x1 : list A) (p : nat) (st : list A * nat) : outcome (list A * nat) :=
  v <- rd x1 p ;; o <- wr (fst st) (snd st) v ;; Ret (o, S (snd st)).

Lemma run_emit : forall A (d : A) (x1 : list A) ps (x2 : list A) k,
  Forall (fun p => p < length x1) ps -> k + length ps <= length x2 ->
  run (emit x1) ps (x2, k) =
    Ret (firstn k x2 ++ map (fun p => nth p x1 d) ps ++ skipn (k + length ps) x2, k + length ps).
Proof.
  induction ps as [|p ps IH]; intros x2 k HF HL.
  - simpl. rewrite Nat.add_0_r, firstn_skipn. auto.
  - inversion HF; subst. cbn [run]. unfold emit at 1. cbn [fst snd]. rewrite (rd_ok _ d) by auto. cbn [bind].
    simpl in HL. rewrite wr_ok by lia. cbn [bind]. rewrite IH by (auto; rewrite length_upd; lia).
    f_equal. f_equal.
    + apply list_eq_nth with (d := d).
      * rewrite !app_length, !map_length, !firstn_length, !skipn_length, !length_upd. cbn [length]. lia.
      * intros i Hi. rewrite !app_length, map_length, firstn_length, skipn_length, length_upd in Hi.
        assert (L1 : length (firstn (S k) (upd x2 k (nth p x1 d))) = S k) by (rewrite firstn_length, length_upd; lia).
        assert (L2 : length (firstn k x2) = k) by (rewrite firstn_length; lia).
        destruct (Nat.lt_trichotomy i k) as [C|[C|C]].
        -- rewrite !app_nth1 by lia. rewrite !firstn_nth by lia. rewrite nth_upd_neq by lia. auto.
        -- subst. rewrite app_nth1 by lia. rewrite firstn_nth by lia. rewrite nth_upd_eq by lia.
           rewrite app_nth2 by lia. rewrite L2, Nat.sub_diag. auto.
        -- rewrite (app_nth2 (firstn (S k) _)) by lia. rewrite (app_nth2 (firstn k x2)) by lia. rewrite L1, L2.
           replace (i - k) with (S (i - S k)) by lia. cbn [map app nth].
           destruct (Nat.lt_ge_cases (i - S k) (length ps)).
           ++ rewrite !app_nth1 by (rewrite map_length; lia). auto.
           ++ rewrite !app_nth2 by (rewrite map_length; lia). rewrite map_length, !skipn_nth.
              rewrite nth_upd_neq by lia. simpl. f_equal. lia.
    + simpl. lia.
Qed.

Lemma run_emit_bad : forall A x1 ps (x2 : list A) k,
  (exists p, In p ps /\ length x1 <= p) \/ (ps <> [] /\ length x2 < k + length ps) ->
  run (emit x1) ps (x2, k) = Undef.
Proof.
  induction ps as [|p ps IH]; intros x2 k H.
  - destruct H as [(p & [] & _)|(H & _)]; congruence.
  - cbn [run]. unfold emit at 1. cbn [fst snd].
    destruct (Nat.lt_ge_cases p (length x1)) as [Hp|Hp]; [|rewrite rd_out by auto; auto].
    destruct x1 as [|d x1]; [simpl in Hp; lia|]. set (xx := d :: x1) in *.
    rewrite (rd_ok _ d) by auto. cbn [bind].
    destruct (Nat.lt_ge_cases k (length x2)) as [Hk|Hk]; [|rewrite wr_out by auto; auto].
    rewrite wr_ok by auto. cbn [bind]. apply IH. rewrite length_upd.
    destruct H as [(q & [->|Hq] & Lq)|(_ & H)].
    + lia.
    + left. eauto.
    + simpl in H. destruct ps as [|p' ps']; [simpl in H; lia|]. right. split; [congruence|]. simpl in *. lia.
Qed.

Lemma copy_emit : forall A (x1 : list A) so n x2 k,
  bind (copy x1 so n x2 k) (fun o => Ret (o, k + n)) = run (emit x1) (seq so n) (x2, k).
Proof.
  intros A x1 so n. unfold copy. revert so.
  induction n; intros so x2 k.
  - simpl. rewrite Nat.add_0_r. auto.
  - rewrite seq_S, run_app, <- IHn. rewrite for_S. rewrite !bind_assoc.
    apply bind_ext. intros o. cbn [bind run emit fst snd]. unfold emit. cbn [fst snd].
    destruct (rd x1 (so + n)); simpl; auto. destruct (wr o (k + n) a); simpl; auto. 
    rewrite Nat.add_succ_r. auto.
Qed.
