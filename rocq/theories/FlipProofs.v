(** The bit-flipping decoders: their loops compute what FlipSpec.v says. *)
From Coq Require Import List Arith Lia Bool ZArith QArith Qabs Qminmax Permutation Lqa.
From Verif Require Import Base WLoops SparseModel SparseSpec SparseProofs FullModel LDPCModel LDPCSpec LDPCProofs LDPCProps LDPCBPModel LDPCBPSpec LDPCBPProofs LDPCBPGraph LDPCBPFlood GalProofs FlipModel FlipSpec.
Import ListNotations.
Local Open Scope nat_scope.

Lemma for_list : forall S (l : list nat) (f : S -> nat -> S) (body : nat -> S -> outcome S) s0,
  (forall j s, j < length l -> body j s = Ret (f s (nth j l 0))) -> for_ (length l) body s0 = Ret (fold_left f l s0).
Proof.
  intros S l f body s0 B. destruct (for_inv _ (fun k s => s = fold_left f (firstn k l) s0) (length l) body s0) as (s & E & I); auto.
  - intros i s Hi ->. rewrite B by auto. eexists. split; [reflexivity|]. rewrite (firstn_snoc _ 0) by auto. rewrite fold_left_app. reflexivity.
  - rewrite E, I, firstn_all. auto.
Qed.
Lemma for_list_in : forall S (l : list nat) (f : S -> nat -> S) (body : nat -> S -> outcome S) s0,
  (forall j s, j < length l -> body j s = Ret (f s (nth j l 0))) -> forall g, (forall s x, In x l -> f s x = g s x) -> for_ (length l) body s0 = Ret (fold_left g l s0).
Proof.
  intros S l f body s0 B g E. rewrite (for_list S l g); auto. intros j s Hj. rewrite B by auto. rewrite E by (apply nth_In; auto). auto.
Qed.

Section Graph.
Variables (H : sparse) (N M : nat) (h : nat -> nat -> bool).
Hypothesis OK : sp_ok H N M h.

Definition row (v : nat) : list nat := nth v (sp_r2c H) [].
Lemma row_perm : forall v, v < N -> Permutation (row v) (checks_of M h v).
Proof.
  intros v Hv. destruct OK as (_ & _ & (_ & V) & _). destruct (V v Hv) as [ND HI]. apply NoDup_Permutation; [exact ND|apply NoDup_filter, seq_NoDup|].
  intros c. unfold row. rewrite HI. unfold checks_of. rewrite filter_In, in_seq. intuition lia.
Qed.
Lemma row_in : forall v c, v < N -> (In c (row v) <-> c < M /\ h v c = true).
Proof. intros v c Hv. destruct OK as (_ & _ & (_ & V) & _). apply V. auto. Qed.
Lemma row_get : forall v, v < N -> sp_row H v = Ret (row v).
Proof. apply (row_rd _ _ _ _ OK). Qed.

(** The sum of the bits of a column. *)
Lemma col_sum : forall x c, c < M -> fold_left (fun s v => Z.lxor s (Z.b2z (x v))) (col H c) 0%Z = Z.b2z (fails N h x c).
Proof.
  intros x c Hc. unfold fails. rewrite <- (links_par N (fun v => h v c) x (col H c)); [|eapply col_nodup; eauto|intros; eapply col_in; eauto].
  assert (G : forall l b, fold_left (fun s v => Z.lxor s (Z.b2z (x v))) l (Z.b2z b) = Z.b2z (xorb b (fold_right xorb false (map x l)))).
  { induction l; intros b; cbn [fold_left map fold_right]; [rewrite xorb_false_r; auto|]. rewrite b2z_lxor, IHl, xorb_assoc. auto. }
  change 0%Z with (Z.b2z false). rewrite G, xorb_false_l. auto.
Qed.
Lemma fails_code : forall x, in_code N M h x <-> existsb (fails N h x) (seq 0 M) = false.
Proof.
  intros x. split.
  - intros C. destruct (existsb _ _) eqn:X; auto. apply existsb_exists in X. destruct X as (c & I & F). apply in_seq in I. unfold fails in F. rewrite C in F by lia. discriminate.
  - intros E c Hc. destruct (parity N (fun v => h v c && x v)) eqn:X; auto. rewrite <- E. symmetry. apply existsb_exists. exists c. split; [apply in_seq; lia|exact X].
Qed.
Lemma fails_ext : forall x x' c, (forall v, v < N -> x v = x' v) -> fails N h x c = fails N h x' c.
Proof. intros x x' c E. unfold fails. apply par_ext. intros v Hv. rewrite E; auto. Qed.

Lemma rd_bits : forall x v, v < N -> rd (tab N (fun v => Z.b2z (x v))) v = Ret (Z.b2z (x v)).
Proof. intros x v Hv. rewrite (rd_ok _ 0%Z) by (rewrite length_tab; auto). rewrite nth_tab by auto. auto. Qed.

Lemma fill : forall A (d : A) (F : nat -> A) n (body : nat -> list A -> outcome (list A)) x0, length x0 = n ->
  (forall i x, i < n -> length x = n -> body i x = wr x i (F i)) -> for_ n body x0 = Ret (tab n F).
Proof.
  intros A d F n body x0 L B. rewrite <- L. rewrite <- L in B. apply (for1_fill A d F (fun i => i)).
  - intros i x Hi Lx. split; [lia|]. apply B; lia.
  - intros q Hq. exists q. split; auto.
Qed.
End Graph.

(* ------------------------------------------------------------------ *)
(** * Weighted bit flipping *)

Lemma first_max_ext : forall N f g v, (forall w, w < N -> (f w == g w)%Q) -> first_max N f v -> first_max N g v.
Proof.
  intros N f g v E (A & B & C). split; auto. split; intros w Hw; rewrite <- (E v) by auto; rewrite <- (E w) by lia; auto.
Qed.

Section Weighted.
Variables (H : sparse) (N M : nat) (h : nat -> nat -> bool) (mx : Q) (d : bf) (Yl : list Q).
Hypothesis OK : sp_ok H N M h.
Hypothesis DR : forall v, v < N -> row_deg h M v <= 255.
Hypothesis DC : forall c, c < M -> col_deg h N c <= 255.
Hypothesis BH : bf_H d = H.
Hypothesis BN : bf_N d = N.
Hypothesis N1 : 0 < N.
Hypothesis LY : N <= length Yl.
Let Y (v : nat) : Q := nth v Yl 0%Q.
Let factor := bf_factor d.

Lemma deg8_row : forall v, v < N -> deg8 (row H v) = length (row H v).
Proof.
  intros v Hv. unfold deg8. apply Nat.mod_small. assert (K := DR v Hv). change (length (row H v) < 256). unfold row. rewrite (row_deg_rank _ _ _ _ OK v Hv). change (rank (h v) M) with (row_deg h M v). lia.
Qed.
Lemma deg8_col : forall c, c < M -> deg8 (col H c) = length (col H c).
Proof.
  intros c Hc. unfold deg8. apply Nat.mod_small. assert (K := DC c Hc). destruct OK as (_ & _ & _ & V & _). unfold col. rewrite (view_len _ _ _ _ _ V Hc). apply (Nat.le_lt_trans _ 255); [exact K|]. lia.
Qed.

Definition W (c : nat) : Q := fold_left (fun m v => if qltb (Qabs (Y v)) m then Qabs (Y v) else m) (col H c) mx.
Lemma W_weight : forall c, c < M -> (W c == weight N h mx Y c)%Q.
Proof.
  intros c Hc. unfold weight. rewrite <- (smallest_perm mx _ _ (Permutation_map Y (col_perm _ _ _ _ OK c Hc))). unfold W. generalize (col H c). intros l. induction l using rev_ind; [reflexivity|].
  rewrite fold_left_app, map_app. cbn [fold_left map]. rewrite smallest_app. destruct (qltb_spec (Qabs (Y x)) (fold_left (fun m v => if qltb (Qabs (Y v)) m then Qabs (Y v) else m) l mx)) as [[-> K]|[-> K]]; rewrite IHl in K.
  - rewrite Q.min_r by lra. reflexivity.
  - rewrite Q.min_l by lra. exact IHl.
Qed.
Lemma mins_ok : forall mins, length mins = M -> bf_mins mx H Yl mins = Ret (tab M W).
Proof.
  intros mins L. unfold bf_mins. rewrite (cols_M _ _ _ _ OK). apply (fill Q 0%Q); auto. intros c x Hc Lx. rewrite (col_rd _ _ _ _ OK c Hc). cbn [bind]. rewrite deg8_col by auto.
  rewrite (for_list _ _ (fun m v => if qltb (Qabs (Y v)) m then Qabs (Y v) else m)); [reflexivity|]. intros j s Hj. rewrite (rd_ok _ 0) by auto. cbn [bind]. destruct (col_nth _ _ _ _ OK c j Hc Hj) as [Hv _]. rewrite (rd_ok _ 0%Q) by lia. reflexivity.
Qed.
Lemma decide_ok : forall dec, length dec = N -> bf_decide N Yl dec = Ret (tab N (fun v => Z.b2z (negative (Y v)))).
Proof. intros dec L. unfold bf_decide. apply (fill Z 0%Z); auto. intros i x Hi Lx. rewrite (rd_ok _ 0%Q) by lia. cbn [bind]. rewrite <- neg_spec. reflexivity. Qed.

Lemma syndrome_ok : forall x syn, length syn = M -> om_syndrome H (tab N (fun v => Z.b2z (x v))) syn = Ret (tab M (fun c => Z.b2z (fails N h x c)), existsb (fails N h x) (seq 0 M)).
Proof.
  intros x syn L. unfold om_syndrome. rewrite (cols_M _ _ _ _ OK).
  match goal with |- for_ M ?bb ?ss = _ => destruct (for_inv _ (fun k '(sy, fl) => length sy = M /\ (forall c, c < k -> nth c sy 0%Z = Z.b2z (fails N h x c)) /\ fl = existsb (fails N h x) (seq 0 k)) M bb ss) as ((sy & fl) & E & LS & V & F) end.
  - split; auto. split; auto. intros. lia.
  - intros c [sy fl] Hc (LS & V & F). rewrite (col_rd _ _ _ _ OK c Hc). cbn [bind]. rewrite deg8_col by auto.
    rewrite (for_list _ _ (fun s v => Z.lxor s (Z.b2z (x v)))).
    + cbn [bind]. rewrite (col_sum H N M h OK x c Hc). rewrite wr_ok by lia. cbn [bind]. eexists. split; [reflexivity|]. cbv beta iota. rewrite length_upd. split; auto. split.
      * intros c' Hc'. rewrite nth_upd by lia. destruct (Nat.eqb_spec c' c); subst; auto. apply V. lia.
      * rewrite seq_S, existsb_app. cbn [existsb Nat.add]. rewrite orb_false_r, F. f_equal. destruct (fails N h x c); auto.
    + intros j s Hj. rewrite (rd_ok _ 0) by auto. cbn [bind]. destruct (col_nth _ _ _ _ OK c j Hc Hj) as [Hv _]. rewrite rd_bits by auto. reflexivity.
  - rewrite E. f_equal. rewrite F. f_equal. apply (list_eq_nth _ 0%Z); [rewrite length_tab; auto|]. intros i Hi. rewrite nth_tab by lia. apply V. lia.
Qed.

Definition En (x : nat -> bool) (v : nat) : Q :=
  (fold_left (fun e c => e + inject_Z (2 * Z.b2z (fails N h x c) - 1) * W c) (row H v) 0 - factor * Qabs (Y v))%Q.
Lemma qtotal_perm : forall l l', Permutation l l' -> (qtotal l == qtotal l')%Q.
Proof. intros l l' P. unfold qtotal. induction P; cbn [fold_right]; try lra. Qed.
Lemma En_drive : forall x v, v < N -> (En x v == drive N M h mx factor Y x v)%Q.
Proof.
  intros x v Hv. unfold En, drive.
  assert (G : forall l a, (forall c, In c l -> c < M) -> (fold_left (fun e c => e + inject_Z (2 * Z.b2z (fails N h x c) - 1) * W c) l a == a + qtotal (map (fun c => if fails N h x c then weight N h mx Y c else - weight N h mx Y c) l))%Q).
  { induction l; intros b F; cbn [fold_left map]; [unfold qtotal; cbn; lra|]. rewrite IHl by (intros; apply F; right; auto). unfold qtotal at 2. cbn [fold_right]. fold (qtotal (map (fun c => if fails N h x c then weight N h mx Y c else - weight N h mx Y c) l)%Q).
    assert (K := W_weight a (F a (or_introl eq_refl))). destruct (fails N h x a); cbn [Z.b2z]; [change (inject_Z (2 * 1 - 1)) with 1%Q|change (inject_Z (2 * 0 - 1)) with (-1 # 1)%Q]; lra. }
  rewrite G by (intros c I; apply (row_in H N M h OK) in I; tauto). rewrite (qtotal_perm _ _ (Permutation_map _ (row_perm H N M h OK v Hv))). lra.
Qed.
Lemma energy_ok : forall x en, length en = N -> om_energy d Yl (tab M W) (tab M (fun c => Z.b2z (fails N h x c))) en = Ret (tab N (En x)).
Proof.
  intros x en L. unfold om_energy. rewrite BN, BH. apply (fill Q 0%Q); auto. intros v z Hv Lz. rewrite (row_get H N M h OK v Hv). cbn [bind]. rewrite deg8_row by auto.
  rewrite (for_list _ _ (fun e c => e + inject_Z (2 * Z.b2z (fails N h x c) - 1) * W c)%Q).
  - cbn [bind]. rewrite (rd_ok _ 0%Q) by lia. reflexivity.
  - intros j s Hj. rewrite (rd_ok _ 0) by auto. cbn [bind]. assert (I := proj1 (row_in H N M h OK v _ Hv) (nth_In (row H v) 0 Hj)). destruct I as [I _].
    rewrite (rd_ok _ 0%Z) by (rewrite length_tab; auto). cbn [bind]. rewrite (rd_ok _ 0%Q) by (rewrite length_tab; auto). cbn [bind]. rewrite !nth_tab by auto. reflexivity.
Qed.

Lemma max_ok : forall e, exists v, om_max N (tab N e) = Ret v /\ first_max N e v.
Proof.
  intros e. unfold om_max. rewrite (rd_ok _ 0%Q) by (rewrite length_tab; auto). cbn [bind]. rewrite nth_tab by auto.
  match goal with |- context [for_ (N - 1) ?bb ?ss] => destruct (for_inv _ (fun k '(i, m) => i <= k /\ m = e i /\ (forall w, w <= k -> (e w <= e i)%Q) /\ (forall w, w < i -> (e w < e i)%Q)) (N - 1) bb ss) as ((i & m) & E & I) end.
  - split; auto. split; auto. split; intros w Hw; [|lia]. replace w with 0 by lia. lra.
  - intros k [i m] Hk (A & B & C & D). rewrite (rd_ok _ 0%Q) by (rewrite length_tab; lia). cbn [bind]. rewrite nth_tab by lia. eexists. split; [reflexivity|].
    destruct (qltb_spec m (e (S k))) as [[-> K]|[-> K]]; subst m.
    + split; auto. split; auto. split; intros w Hw.
      * destruct (Nat.eq_dec w (S k)) as [->|]; [lra|]. assert (L := C w ltac:(lia)). lra.
      * assert (L := C w ltac:(lia)). lra.
    + split; [lia|]. split; auto. split; intros w Hw; auto. destruct (Nat.eq_dec w (S k)) as [->|]; [lra|]. apply C. lia.
  - rewrite E. cbn [bind]. exists i. split; auto. destruct I as (A & _ & C & D). split; [lia|]. split; auto. intros w Hw. apply C. lia.
Qed.

(** The state during the iterations. *)
Definition at_bits (x : nat -> bool) (s : bf_st) : Prop :=
  bs_dec s = tab N (fun v => Z.b2z (x v)) /\ bs_min s = tab M W /\ length (bs_Lp s) = N /\ length (bs_syn s) = M /\ length (bs_en s) = N.

Lemma process_ok : forall x s, at_bits x s -> exists s' x' c, om_process d Yl s = Ret (s', c) /\ at_bits x' s' /\ flipped N M h mx factor Y x x' /\ (c = true <-> in_code N M h x).
Proof.
  intros x s (A1 & A2 & A3 & A4 & A5). unfold om_process. rewrite BH, A1. rewrite syndrome_ok by auto. cbn [bind]. rewrite A2, energy_ok by auto. cbn [bind]. rewrite BN. destruct (max_ok (En x)) as (v & E & FM). rewrite E. cbn [bind].
  assert (FM' : first_max N (drive N M h mx factor Y x) v) by (apply (first_max_ext N (En x)); auto; intros; apply En_drive; auto).
  destruct (existsb (fails N h x) (seq 0 M)) eqn:X.
  - assert (Hv := proj1 FM). rewrite rd_bits by auto. cbn [bind]. rewrite wr_ok by (rewrite length_tab; auto). cbn [bind].
    exists (mkBS (bs_Lp s) (tab M W) (upd (tab N (fun v => Z.b2z (x v))) v (if (Z.b2z (x v) =? 0)%Z then 1%Z else 0%Z)) (tab M (fun c => Z.b2z (fails N h x c))) (tab N (En x))), (fun w => if w =? v then negb (x w) else x w), false.
    split; auto. split; [|split].
    + split; [|cbn; rewrite !length_tab; auto]. cbn [bs_dec]. apply (list_eq_nth _ 0%Z); [rewrite length_upd, !length_tab; auto|]. rewrite length_upd, length_tab. intros i Hi. rewrite nth_upd by (rewrite length_tab; auto). rewrite !nth_tab by auto.
      destruct (Nat.eqb_spec i v); [subst; destruct (x v); auto|auto].
    + right. split; [rewrite (fails_code N M h); congruence|]. exists v. split; auto.
    + rewrite (fails_code N M h). split; intros; congruence.
  - cbn [bind]. exists (mkBS (bs_Lp s) (tab M W) (tab N (fun v => Z.b2z (x v))) (tab M (fun c => Z.b2z (fails N h x c))) (tab N (En x))), x, true. split; auto. split; [|split].
    + split; auto. cbn. rewrite !length_tab. auto.
    + left. split; auto. apply (fails_code N M h). auto.
    + rewrite (fails_code N M h). tauto.
Qed.

Lemma flipped_ext : forall x m x', (forall w, w < N -> m w = x w) -> flipped N M h mx factor Y m x' -> flipped N M h mx factor Y x x'.
Proof.
  intros x m x' E [[C F]|[C (v & FM & F)]].
  - left. split; [apply (in_code_ext N M h m x); auto|]. intros w Hw. rewrite F, E; auto.
  - right. split; [rewrite (in_code_ext N M h x m); auto; intros; symmetry; auto|]. exists v. split.
    + eapply first_max_ext; [|exact FM]. intros w Hw. unfold drive. replace (map (fun c => if fails N h x c then weight N h mx Y c else (- weight N h mx Y c)%Q) (checks_of M h w)) with (map (fun c => if fails N h m c then weight N h mx Y c else (- weight N h mx Y c)%Q) (checks_of M h w)); [reflexivity|].
      apply map_ext. intros c. rewrite (fails_ext N h m x c E). auto.
    + intros w Hw. rewrite F, E; auto.
Qed.
Lemma flips_left : forall k x m x', flipped N M h mx factor Y x m -> flips N M h mx factor Y k m x' -> flips N M h mx factor Y (S k) x x'.
Proof.
  induction k; intros x m x' F FS; cbn [flips] in *.
  - exists x. split; auto. destruct F as [[C F]|[C (v & FM & F)]]; [left|right]; (split; auto); [intros; rewrite FS, F; auto|]. exists v. split; auto. intros. rewrite FS, F; auto.
  - destruct FS as (z & FS & FZ). exists z. split; auto. apply (IHk x m z); auto.
Qed.
Lemma flips_stay : forall k x, in_code N M h x -> flips N M h mx factor Y k x x.
Proof. induction k; intros x C; cbn [flips]; auto. exists x. split; auto. left. auto. Qed.

Lemma loop_ok : forall n x s b, at_bits x s ->
  exists s' m x' c, bf_loop d Yl (S n) s b = Ret (s', c) /\ at_bits x' s' /\ flips N M h mx factor Y n x m /\ flipped N M h mx factor Y m x' /\ (c = true <-> in_code N M h m).
Proof.
  induction n; intros x s b AT; cbn [bf_loop]; destruct (process_ok x s AT) as (s1 & x1 & c1 & E & AT1 & F1 & C1); rewrite E; cbn [bind].
  - exists s1, x, x1, c1. split; [destruct (bf_synd d && c1); auto|]. split; auto. split; [cbn; auto|]. split; auto.
  - destruct (bf_synd d && c1) eqn:X.
    + apply andb_true_iff in X. destruct X as [_ ->]. assert (CX := proj1 C1 eq_refl). exists s1, x, x1, true. split; auto. split; auto. split; [apply flips_stay; auto|]. split; auto.
    + destruct (IHn x1 s1 c1 AT1) as (s' & m & x' & c & E' & AT' & FS & F & C). cbn [bf_loop] in E'. rewrite E'. exists s', m, x', c. split; auto. split; auto. split; [eapply flips_left; eauto|]. split; auto.
Qed.

Definition bf_keeps (s : bf_st) : Prop := length (bs_Lp s) = N /\ length (bs_min s) = M /\ length (bs_dec s) = N /\ length (bs_syn s) = M /\ length (bs_en s) = N.

Lemma bf_decode_ok : forall s, bf_keeps s ->
  exists s' x' c, bf_decode mx d Yl s = Ret (s', c) /\ bf_keeps s' /\ bs_Lp s' = tab N (fun v => if x' v : bool then (-(1))%Q else 1%Q) /\
    flips N M h mx factor Y (bf_ite d) (fun v => negative (Y v)) x' /\
    (bf_ite d = 0 -> c = true) /\ (forall n, bf_ite d = S n -> exists m, flips N M h mx factor Y n (fun v => negative (Y v)) m /\ flipped N M h mx factor Y m x' /\ (c = true <-> in_code N M h m)).
Proof.
  intros s (K1 & K2 & K3 & K4 & K5). unfold bf_decode. rewrite BH, BN. rewrite mins_ok by auto. cbn [bind]. rewrite decide_ok by auto. cbn [bind].
  set (s0 := mkBS (bs_Lp s) (tab M W) (tab N (fun v => Z.b2z (negative (Y v)))) (bs_syn s) (bs_en s)).
  assert (AT : at_bits (fun v => negative (Y v)) s0) by (split; auto).
  assert (G : exists s1 x' c, bf_loop d Yl (bf_ite d) s0 true = Ret (s1, c) /\ at_bits x' s1 /\ flips N M h mx factor Y (bf_ite d) (fun v => negative (Y v)) x' /\
    (bf_ite d = 0 -> c = true) /\ (forall n, bf_ite d = S n -> exists m, flips N M h mx factor Y n (fun v => negative (Y v)) m /\ flipped N M h mx factor Y m x' /\ (c = true <-> in_code N M h m))).
  { destruct (bf_ite d) as [|n].
    - exists s0, (fun v => negative (Y v)), true. split; auto. split; auto. split; [cbn; auto|]. split; auto. intros; lia.
    - destruct (loop_ok n _ s0 true AT) as (s' & m & x' & c & E & AT' & FS & F & C). exists s', x', c. split; auto. split; auto. split; [cbn; eauto|]. split; [intros; lia|]. intros n' En. injection En as <-. eauto. }
  destruct G as (s1 & x' & c & E & (A1 & A2 & A3 & A4 & A5) & FS & C0 & C1). rewrite E. cbn [bind].
  rewrite (fill Q 0%Q (fun v => if x' v then (-(1))%Q else 1%Q) N _ (bs_Lp s1)); auto.
  - cbn [bind]. eexists. exists x', c. split; [reflexivity|]. split; [|split; auto]. unfold bf_keeps. cbn. rewrite A1, A2, !length_tab. auto.
  - intros i z Hi Lz. rewrite A1, rd_bits by auto. cbn [bind]. destruct (x' i); auto.
Qed.
End Weighted.

(* ------------------------------------------------------------------ *)
(** * Parallel bit flipping *)

Section Parallel.
Variables (G P : Type) (draw : P -> G -> bool * G) (H : sparse) (N M : nat) (h : nat -> nat -> bool) (d : pp P) (pr : nat -> P) (Yl : list Z) (y : nat -> bool) (g0 : G).
Hypothesis OK : sp_ok H N M h.
Hypothesis PH : pp_H P d = H.
Hypothesis LP : length (pp_prob P d) = sp_rmax H + 2.
Hypothesis PR : forall e, e < length (pp_prob P d) -> rd (pp_prob P d) e = Ret (pr e).
Hypothesis LY : N <= length Yl.
Hypothesis VY : forall v, v < N -> nth v Yl 0%Z = Z.b2z (y v).
Let dr (e : nat) : G -> bool * G := draw (pr e).
Let run (t : nat) := parallel N M h G dr y t g0.
Let X (t : nat) := fst (run t).

Lemma pp_cn_ok : forall x C, length C = M -> pp_cn H (tab N (fun v => Z.b2z (x v))) C = Ret (tab M (fun c => Z.b2z (fails N h x c))).
Proof.
  intros x C L. unfold pp_cn. rewrite (cols_M _ _ _ _ OK). apply (fill Z 0%Z); auto. intros c z Hc Lz. rewrite (col_rd _ _ _ _ OK c Hc). cbn [bind].
  rewrite (for_list _ _ (fun s v => Z.lxor s (Z.b2z (x v)))).
  - cbn [bind]. rewrite (col_sum H N M h OK x c Hc). auto.
  - intros j s Hj. rewrite (rd_ok _ 0) by auto. cbn [bind]. destruct (col_nth _ _ _ _ OK c j Hc Hj) as [Hv _]. rewrite rd_bits by auto. reflexivity.
Qed.

Lemma draws_snoc : forall l e g, draws G dr (l ++ [e]) g = let (os, g1) := draws G dr l g in let (o, g2) := dr e g1 in (os ++ [o], g2).
Proof.
  induction l; intros e g; cbn [app draws].
  - destruct (dr e g). auto.
  - destruct (dr a g) as [o g1]. rewrite IHl. destruct (draws G dr l g1) as [os g2]. destruct (dr e g2). auto.
Qed.
Lemma draws_len : forall l g, length (fst (draws G dr l g)) = length l.
Proof. induction l; intros g; cbn [draws]; auto. destruct (dr a g) as [o g1]. specialize (IHl g1). destruct (draws G dr l g1). cbn in *. lia. Qed.

Lemma energy_count : forall x v, v < N -> for_ (length (row H v)) (fun j e => c <- rd (row H v) j ;; z <- rd (tab M (fun c => Z.b2z (fails N h x c))) c ;; Ret (e + z)%Z) (Z.lxor (Z.b2z (x v)) (Z.b2z (y v))) = Ret (Z.of_nat (failures N M h y x v)).
Proof.
  intros x v Hv. rewrite (for_list _ _ (fun e c => (e + Z.b2z (fails N h x c))%Z)).
  - f_equal. assert (G1 : forall l a, fold_left (fun e c => (e + Z.b2z (fails N h x c))%Z) l a = (a + Z.of_nat (length (filter (fails N h x) l)))%Z).
    { induction l as [|c l IH]; intros a; cbn [fold_left filter]; [cbn; lia|]. rewrite IH. destruct (fails N h x c); cbn [length Z.b2z]; lia. }
    rewrite G1. unfold failures.
    assert (PL : length (filter (fails N h x) (row H v)) = length (filter (fails N h x) (checks_of M h v))).
    { assert (PP := row_perm H N M h OK v Hv). clear G1. induction PP; cbn [filter]; auto; try congruence.
      - destruct (fails N h x x0); cbn [length]; lia.
      - destruct (fails N h x x0), (fails N h x y0); auto. }
    rewrite PL, b2z_lxor. destruct (xorb (x v) (y v)); cbn [Z.b2z Nat.b2n]; lia.
  - intros j s Hj. rewrite (rd_ok _ 0) by auto. cbn [bind]. assert (I := proj1 (row_in H N M h OK v _ Hv) (nth_In (row H v) 0 Hj)). destruct I as [I _].
    rewrite (rd_ok _ 0%Z) by (rewrite length_tab; auto). cbn [bind]. rewrite nth_tab by auto. reflexivity.
Qed.
Lemma failures_le : forall x v, v < N -> failures N M h y x v < length (pp_prob P d).
Proof.
  intros x v Hv. rewrite LP. unfold failures. assert (K : length (filter (fails N h x) (checks_of M h v)) <= row_deg h M v).
  { change (row_deg h M v) with (length (checks_of M h v)). generalize (checks_of M h v) as l. intros l. induction l as [|a l IH]; cbn [filter length]; auto. destruct (fails N h x a); cbn [length]; lia. }
  destruct OK as (_ & _ & _ & _ & _ & MR & _). rewrite MR. assert (L := maxf_ge (row_deg h M) N v Hv). destruct (xorb (x v) (y v)); cbn [Nat.b2n]; lia.
Qed.

Lemma pp_vn_ok : forall x g, pp_vn G P draw d Yl (tab M (fun c => Z.b2z (fails N h x c))) (tab N (fun v => Z.b2z (x v))) g =
  Ret (tab N (fun v => Z.b2z (fst (pstep N M h G dr y (x, g)) v)), snd (pstep N M h G dr y (x, g))).
Proof.
  intros x g. unfold pp_vn. rewrite PH. rewrite (rows_N _ _ _ _ OK).
  match goal with |- for_ N ?bb ?ss = _ => destruct (for_inv _ (fun k '(V, g') => length V = N /\ g' = snd (draws G dr (map (failures N M h y x) (seq 0 k)) g) /\
     (forall v, v < N -> nth v V 0%Z = Z.b2z (xorb (x v) (nth v (fst (draws G dr (map (failures N M h y x) (seq 0 k)) g)) false)))) N bb ss) as ((V & g') & E & LV & EG & EV) end.
  - split; [apply length_tab|]. split; auto. intros v Hv. rewrite nth_tab by auto. cbn. destruct v; rewrite xorb_false_r; auto.
  - intros k [V g'] Hk (LV & EG & EV). rewrite (row_get H N M h OK k Hk). cbn [bind]. rewrite (rd_ok _ 0%Z V) by lia. cbn [bind]. rewrite (rd_ok _ 0%Z Yl) by lia. cbn [bind].
    assert (DL := draws_len (map (failures N M h y x) (seq 0 k)) g). rewrite map_length, seq_length in DL.
    assert (XK : nth k V 0%Z = Z.b2z (x k)). { rewrite EV by auto. rewrite nth_overflow by lia. rewrite xorb_false_r. auto. }
    rewrite XK, VY by auto. rewrite energy_count by auto. cbn [bind]. destruct (Z.ltb_spec (Z.of_nat (failures N M h y x k)) 0); [lia|]. rewrite Nat2Z.id. rewrite PR by (apply failures_le; auto). cbn [bind].
    fold (dr (failures N M h y x k)). rewrite seq_S, map_app. cbn [map Nat.add]. rewrite draws_snoc. destruct (draws G dr (map (failures N M h y x) (seq 0 k)) g) as [os g1]. cbn [fst snd] in *. subst g'.
    destruct (dr (failures N M h y x k) g1) as [o g2] eqn:ED. rewrite wr_ok by lia. cbn [bind]. eexists. split; [reflexivity|]. cbv beta iota. rewrite length_upd. split; auto. split; auto.
    intros v Hv. cbn [fst]. rewrite nth_upd by lia. destruct (Nat.eqb_spec v k) as [->|NE].
    + rewrite app_nth2 by lia. rewrite DL, Nat.sub_diag. cbn [nth]. rewrite b2z_lxor. auto.
    + rewrite EV by auto. destruct (Nat.lt_ge_cases v k); [rewrite app_nth1 by lia; auto|]. rewrite !nth_overflow; auto; try rewrite app_length; cbn [length]; lia.
  - rewrite E. unfold pstep. destruct (draws G dr (map (failures N M h y x) (seq 0 N)) g) as [os g1]. cbn [fst snd] in *. subst g'. f_equal. f_equal.
    apply (list_eq_nth _ 0%Z); [rewrite length_tab; auto|]. intros i Hi. rewrite nth_tab by lia. apply EV. lia.
Qed.

Lemma pp_check_ok : forall x, pp_check (tab M (fun c => Z.b2z (fails N h x c))) = negb (existsb (fails N h x) (seq 0 M)).
Proof.
  intros x. unfold pp_check. f_equal. apply eq_true_iff_eq. rewrite !existsb_exists. split.
  - intros (z & I & NZ). apply (In_nth _ _ 0%Z) in I. rewrite length_tab in I. destruct I as (c & Hc & <-). rewrite nth_tab in NZ by auto. exists c. split; [apply in_seq; lia|]. destruct (fails N h x c); [auto|discriminate].
  - intros (c & I & F). apply in_seq in I. exists (Z.b2z (fails N h x c)). split; [|rewrite F; auto]. replace (Z.b2z (fails N h x c)) with (nth c (tab M (fun c => Z.b2z (fails N h x c))) 0%Z) by (rewrite nth_tab; auto; lia). apply nth_In. rewrite length_tab. lia.
Qed.
Lemma pp_check_code : forall x, pp_check (tab M (fun c => Z.b2z (fails N h x c))) = true <-> in_code N M h x.
Proof. intros x. rewrite pp_check_ok, (fails_code N M h), negb_true_iff. tauto. Qed.

Definition at_step (t : nat) (s : pp_st G) : Prop := ps_V G s = tab N (fun v => Z.b2z (X t v)) /\ length (ps_C G s) = M /\ ps_g G s = snd (run t).
Let cd (k : nat) : Prop := in_code N M h (X (k - 1)).
Hypothesis ND : 0 < pp_depth P d.

Lemma pp_loop_ok : forall cnt t cur s sy, t + cnt = pp_ite P d -> at_step t s ->
  (0 < t -> ps_C G s = tab M (fun c => Z.b2z (fails N h (X (t - 1)) c)) /\ (pp_synd P d = true -> sy = pp_check (ps_C G s))) ->
  (pp_synd P d = true -> cur <= t /\ cur < pp_depth P d /\ (forall j, j < cur -> in_code N M h (X (t - 1 - j))) /\ (cur = t \/ ~ in_code N M h (X (t - 1 - cur))) /\ forall k, 1 <= k <= t -> ~ stop cd (pp_depth P d) k) ->
  exists s' sy' u, pp_loop G P draw d Yl cnt cur s sy = Ret (s', sy') /\ at_step u s' /\ halts cd (pp_synd P d) (pp_depth P d) (pp_ite P d + 1) (S u) /\
    (0 < pp_ite P d -> ps_C G s' = tab M (fun c => Z.b2z (fails N h (X (Nat.min u (pp_ite P d - 1))) c)) /\ (pp_synd P d = true -> sy' = pp_check (ps_C G s'))).
Proof.
  induction cnt; intros t cur s sy ET AT CT IC; cbn [pp_loop].
  - exists s, sy, t. split; auto. split; auto. split.
    + split; [lia|]. split; [lia|]. intros SY k Hk. destruct (IC SY) as (_ & _ & _ & _ & NS). apply NS. lia.
    + intros NI. replace (Nat.min t (pp_ite P d - 1)) with (t - 1) by lia. apply CT. lia.
  - destruct AT as (A1 & A2 & A3). rewrite PH, A1, pp_cn_ok by auto. cbn [bind]. set (C := tab M (fun c => Z.b2z (fails N h (X t) c))). set (sy1 := if pp_synd P d then pp_check C else sy).
    assert (CK : pp_check C = true <-> in_code N M h (X t)) by apply pp_check_code.
    destruct (pp_synd P d && sy1 && (pp_depth P d <=? (if pp_synd P d && sy1 then S cur else 0))) eqn:ST.
    + apply andb_true_iff in ST. destruct ST as [ST DP]. rewrite ST in DP. apply andb_true_iff in ST. destruct ST as [SY SC]. unfold sy1 in SC. rewrite SY in SC. apply Nat.leb_le in DP. destruct (IC SY) as (I1 & I2 & I3 & I4 & I5).
      exists (mkPS G (tab N (fun v => Z.b2z (X t v))) C (ps_g G s)), sy1, t. split; auto. split; [split; auto; split; auto; apply length_tab|]. split.
      * split; [lia|]. split; [|intros _ k Hk; apply I5; lia]. intros _. split; auto. split; [lia|]. intros j Hj. unfold cd. destruct j as [|j].
        { replace (S t - 0 - 1) with t by lia. apply CK. auto. }
        replace (S t - S j - 1) with (t - 1 - j) by lia. apply I3. lia.
      * intros _. replace (Nat.min t (pp_ite P d - 1)) with t by lia. split; auto. intros _. unfold sy1. rewrite SY. auto.
    + assert (EV := pp_vn_ok (X t) (snd (run t))). fold C in EV. rewrite A3, EV. cbn [bind].
      assert (ES : pstep N M h G dr y (X t, snd (run t)) = run (S t)) by (unfold X; rewrite <- surjective_pairing; reflexivity). rewrite ES. fold (X (S t)).
      apply (IHcnt (S t)); [lia| | |].
      * split; auto. split; auto. apply length_tab.
      * intros _. cbn [ps_C]. replace (S t - 1) with t by lia. split; auto. intros SY. unfold sy1. rewrite SY. auto.
      * intros SY. destruct (IC SY) as (I1 & I2 & I3 & I4 & I5). unfold sy1 in *. rewrite SY in *. cbn [andb] in *. destruct (pp_check C) eqn:CC; cbn [andb] in ST.
        { apply Nat.leb_gt in ST. assert (XT : in_code N M h (X t)) by (apply CK; auto). split; [lia|]. split; auto. split; [|split].
          - intros j Hj. destruct j as [|j]; [replace (S t - 1 - 0) with t by lia; auto|]. replace (S t - 1 - S j) with (t - 1 - j) by lia. apply I3. lia.
          - destruct I4 as [->|I4]; [left; auto|right]. replace (S t - 1 - S cur) with (t - 1 - cur) by lia. auto.
          - intros k Hk [S1 S2]. destruct (Nat.eq_dec k (S t)) as [->|NE]; [|apply (I5 k); [lia|split; auto]]. destruct I4 as [->|I4]; [lia|]. apply I4. specialize (S2 (S cur) ST). unfold cd in S2. replace (S t - S cur - 1) with (t - 1 - cur) in S2 by lia. auto. }
        { assert (XT : ~ in_code N M h (X t)) by (rewrite <- CK; discriminate). split; [lia|]. split; auto. split; [intros; lia|]. split.
          - right. replace (S t - 1 - 0) with t by lia. auto.
          - intros k Hk [S1 S2]. destruct (Nat.eq_dec k (S t)) as [->|NE]; [|apply (I5 k); [lia|split; auto]]. specialize (S2 0 ND). unfold cd in S2. replace (S t - 0 - 1) with t in S2 by lia. auto. }
Qed.

Lemma pp_decode_ok : forall s, 0 < pp_ite P d -> at_step 0 s ->
  exists s' u, pp_decode G P draw d Yl s = Ret (s', pp_check (ps_C G s')) /\ at_step u s' /\ halts cd (pp_synd P d) (pp_depth P d) (pp_ite P d + 1) (S u) /\
    (pp_check (ps_C G s') = true <-> in_code N M h (X (Nat.min u (pp_ite P d - 1)))).
Proof.
  intros s NI AT. unfold pp_decode. destruct (pp_loop_ok (pp_ite P d) 0 0 s false) as (s' & sy & u & E & AT' & HT & CC); auto; try lia.
  { intros _. split; auto. split; auto. split; [intros; lia|]. split; auto. intros; lia. }
  destruct (CC NI) as [C1 C2]. rewrite E. cbn [bind]. exists s', u. split; [|split; [auto|split; [auto|rewrite C1; apply pp_check_code]]].
  destruct (pp_synd P d); cbn [negb orb]; auto. rewrite C2 by auto. destruct (pp_check (ps_C G s')); auto.
Qed.
End Parallel.
