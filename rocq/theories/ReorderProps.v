(** C53: frame reordering. V = 2 ^ v is the number of elements of a SIMD register. *)
From Coq Require Import List Arith Lia Bool ZArith.
From Verif Require Import Base UtilModel UtilProps ReorderModel ReorderProofs.
Import ListNotations.

(** ** Specification *)
(** [out] holds the first [len] elements of the frames, element i of frame f at i * n + f; the rest is as in [old] *)
Definition mixes {T} (d : T) (frames : list (list T)) (len : nat) (old out : list T) : Prop :=
  length out = length old /\
  (forall i f, i < len -> f < length frames -> nth (i * length frames + f) out d = nth i (nth f frames []) d) /\
  (forall q, len * length frames <= q < length old -> nth q out d = nth q old d).
(** [outs] holds in its frame f the elements i * n + f of [inp]; the rest is as in [old] *)
Definition splits {T} (d : T) (inp : list T) (len : nat) (old outs : list (list T)) : Prop :=
  length outs = length old /\
  forall f, f < length old -> length (nth f outs []) = length (nth f old []) /\
    (forall i, i < len -> nth i (nth f outs []) d = nth (i * length old + f) inp d) /\
    (forall i, len <= i < length (nth f old []) -> nth i (nth f outs []) d = nth i (nth f old []) d).

Lemma mixes_ok : forall T (d : T) frames len out out', (forall f, f < length frames -> len <= length (nth f frames [])) -> length frames * len <= length out ->
  length out' = length out -> (forall q, q < length out -> nth q out' d = if q <? len * length frames then out_at T d frames q else nth q out d) -> mixes d frames len out out'.
Proof.
  intros T d frames len out out' LF LO L I. split; [exact L|]. split.
  - intros i f Hi Hf. rewrite I by nia. rewrite (proj2 (Nat.ltb_lt _ _)) by nia. unfold out_at. destruct (divmod_idx i f (length frames) Hf) as [-> ->]. reflexivity.
  - intros q Hq. rewrite I by lia. destruct (Nat.ltb_spec q (len * length frames)); [lia|reflexivity].
Qed.

(** ** apply: every number of frames and every length *)
Theorem C53_apply : forall T (d : T) v frames len out, (forall f, f < length frames -> len <= length (nth f frames [])) -> length frames * len <= length out ->
  exists out', apply T d (2 ^ v) frames out len = Ret out' /\ mixes d frames len out out'.
Proof.
  intros T d v frames len out LF LO. destruct (apply_ok T d (2 ^ v) v eq_refl (fun n regs => stages T d (2 ^ v) (S n) n 1 1 (n / 2) regs)) with (ins := frames) (len := len) (out := out) as (out' & E & L & I); try assumption.
  - intros m regs Hm R. apply (dyn_reorder T d (2 ^ v) v m regs eq_refl Hm R).
  - exists out'. split; [exact E|]. apply mixes_ok; assumption.
Qed.
Theorem C53_apply_static : forall T (d : T) v N frames len out, (forall f, f < length frames -> len <= length (nth f frames [])) -> length frames * len <= length out ->
  (length frames <> N -> static_apply T d (2 ^ v) N frames out len = Throws) /\
  (length frames = N -> exists out', static_apply T d (2 ^ v) N frames out len = Ret out' /\ mixes d frames len out out').
Proof.
  intros T d v N frames len out LF LO. unfold static_apply. split.
  - intros NE. rewrite (proj2 (Nat.eqb_neq _ _) NE). reflexivity.
  - intros EQ. rewrite (proj2 (Nat.eqb_eq _ _) EQ). cbn [guard bind].
    destruct (apply_ok T d (2 ^ v) v eq_refl (fun n regs => static_core T d (2 ^ v) (S n) n 1 regs)) with (ins := frames) (len := len) (out := out) as (out' & E & L & I); try assumption.
    + intros m regs Hm R. apply (static_reorder T d (2 ^ v) v m regs eq_refl Hm R).
    + exists out'. split; [exact E|]. apply mixes_ok; assumption.
Qed.

(** ** apply_rev *)
(** The widths for which the vectorized loop ends with the frames in order: n is not vectorized (not a power of two
    between 2 and V), or log2 V is 0 or 1 modulo log2 n. *)
Definition in_order (v n : nat) : Prop := (forall m, 1 <= m <= v -> n = 2 ^ m -> v mod m <= 1).

Lemma perm_id : forall m v f, 1 <= m <= v -> v mod m <= 1 -> f < 2 ^ m -> perm_of m ((v - 1) mod m + 1) f = f.
Proof.
  intros m v f Hm HM Hf. unfold perm_of. pose proof (Nat.div_mod v m ltac:(lia)) as DM. pose proof (Nat.div_mod f 2 ltac:(lia)) as D2. pose proof (Nat.mod_upper_bound f 2 ltac:(lia)).
  assert (J : (v - 1) mod m + 1 = 1 \/ (v - 1) mod m + 1 = m).
  { destruct (Nat.eq_dec (v mod m) 0) as [E|E].
    - right. assert (0 < v / m) by (apply Nat.div_str_pos; lia). replace (v - 1) with ((m - 1) + (v / m - 1) * m) by nia. rewrite Nat.mod_add, Nat.mod_small by lia. lia.
    - left. replace (v - 1) with (0 + (v / m) * m) by nia. rewrite Nat.mod_add, Nat.mod_small by lia. reflexivity. }
  destruct J as [-> | ->].
  - change (2 ^ (1 - 1)) with 1. assert (HB : f / 2 < 2 ^ (m - 1)). { apply Nat.div_lt_upper_bound; [lia|]. rewrite <- Nat.pow_succ_r'. replace (S (m - 1)) with m by lia. exact Hf. }
    rewrite (Nat.mod_small (f / 2)), (Nat.div_small (f / 2)) by exact HB. lia.
  - rewrite Nat.sub_diag. change (2 ^ 0) with 1. rewrite Nat.mod_1_r, Nat.div_1_r. lia.
Qed.

Lemma rev_at_ok : forall T (d : T) v len inp n f q, in_order v n -> f < n -> rev_at T d (2 ^ v) v len inp n f q = nth (q * n + f) inp d.
Proof.
  intros T d v len inp n f q IO Hf. unfold rev_at. destruct (vectorized (2 ^ v) n) eqn:VE; [|reflexivity]. destruct (q <? len / 2 ^ v * 2 ^ v); cbn [andb]; [|reflexivity].
  destruct (vectorized_pow (2 ^ v) n v eq_refl VE) as (m & N & Hm). rewrite N at 2 3. rewrite Nat.log2_pow2 by lia. rewrite perm_id; [reflexivity|exact Hm|apply IO; assumption|lia].
Qed.

Lemma splits_ok : forall T (d : T) v inp len old outs, in_order v (length old) -> (forall f, f < length old -> len <= length (nth f old [])) ->
  frames T d (rev_at T d (2 ^ v) v len inp (length old)) old len outs -> splits d inp len old outs.
Proof.
  intros T d v inp len old outs IO LO (L & F). split; [exact L|]. intros f Hf. destruct (F f Hf) as [L1 L2]. specialize (LO f Hf). split; [exact L1|]. split.
  - intros i Hi. rewrite L2 by lia. rewrite (proj2 (Nat.ltb_lt _ _)) by lia. apply rev_at_ok; assumption.
  - intros i Hi. rewrite L2 by lia. destruct (Nat.ltb_spec i len); [lia|reflexivity].
Qed.

Lemma rev_dyn_gen : forall T (d : T) v inp old len, length old * len <= length inp -> (forall f, f < length old -> len <= length (nth f old [])) ->
  exists outs, apply_rev T d (2 ^ v) inp old len = Ret outs /\ frames T d (rev_at T d (2 ^ v) v len inp (length old)) old len outs.
Proof.
  intros T d v inp old len LI LO. unfold apply_rev. apply (rev_ok T d (2 ^ v) v eq_refl); try assumption. intros m D regs Hm R E. apply rev_dyn; auto.
Qed.
Lemma rev_static_gen : forall T (d : T) v inp old len, length old * len <= length inp -> (forall f, f < length old -> len <= length (nth f old [])) ->
  exists outs, static_rev T d (2 ^ v) (length old) inp old len = Ret outs /\ frames T d (rev_at T d (2 ^ v) v len inp (length old)) old len outs.
Proof.
  intros T d v inp old len LI LO. unfold static_rev. rewrite Nat.eqb_refl. cbn [guard bind]. apply (rev_ok T d (2 ^ v) v eq_refl); try assumption. intros m D regs Hm R E. apply rev_static; auto.
Qed.

(** Full statement: without [in_order]. It is false (C53_rev_refuted). *)
Theorem C53_rev_partial : forall T (d : T) v inp old len, in_order v (length old) -> length old * len <= length inp -> (forall f, f < length old -> len <= length (nth f old [])) ->
  exists outs, apply_rev T d (2 ^ v) inp old len = Ret outs /\ splits d inp len old outs.
Proof.
  intros T d v inp old len IO LI LO. destruct (rev_dyn_gen T d v inp old len LI LO) as (outs & E & F). exists outs. split; [exact E|]. apply (splits_ok T d v); assumption.
Qed.
Theorem C53_rev_static_partial : forall T (d : T) v N inp old len, in_order v (length old) -> length old * len <= length inp -> (forall f, f < length old -> len <= length (nth f old [])) ->
  (length old <> N -> static_rev T d (2 ^ v) N inp old len = Throws) /\
  (length old = N -> exists outs, static_rev T d (2 ^ v) N inp old len = Ret outs /\ splits d inp len old outs).
Proof.
  intros T d v N inp old len IO LI LO. split.
  - intros NE. unfold static_rev. rewrite (proj2 (Nat.eqb_neq _ _) NE). reflexivity.
  - intros <-. destruct (rev_static_gen T d v inp old len LI LO) as (outs & E & F). exists outs. split; [exact E|]. apply (splits_ok T d v); assumption.
Qed.

(** The frames mixed by apply come back from apply_rev. *)
Theorem C53_round_trip_partial : forall T (d : T) v frames len buf old, in_order v (length frames) -> (forall f, f < length frames -> length (nth f frames []) = len) -> length frames * len <= length buf ->
  length old = length frames -> (forall f, f < length frames -> length (nth f old []) = len) ->
  (' mixed <- apply T d (2 ^ v) frames buf len ;; apply_rev T d (2 ^ v) mixed old len) = Ret frames.
Proof.
  intros T d v fr len buf old IO LF LB LO LL. destruct (C53_apply T d v fr len buf) as (mixed & E & L & M & _); [intros f Hf; rewrite LF by exact Hf; lia|exact LB|]. rewrite E. cbn [bind].
  destruct (C53_rev_partial T d v mixed old len) as (outs & E' & L' & S); [rewrite LO; exact IO|rewrite LO, L; exact LB|rewrite LO; intros f Hf; rewrite LL by exact Hf; lia|].
  rewrite E'. f_equal. apply (list_eq_nth _ []); [congruence|]. intros f Hf. rewrite L', LO in Hf. destruct (S f ltac:(lia)) as (L1 & S1 & _). apply (list_eq_nth _ d); [rewrite L1, LL, LF by exact Hf; reflexivity|].
  intros i Hi. rewrite L1, LL in Hi by exact Hf. rewrite S1 by exact Hi. rewrite LO. apply M; assumption.
Qed.

(** When log2 V mod log2 n is 2 or more, frame 2 receives the elements of frame 2 ^ (log2 V mod log2 n). *)
Theorem C53_rev_refuted : forall T (d : T) v m inp old len, 1 <= m <= v -> 2 <= v mod m -> length old = 2 ^ m -> 2 ^ m * len <= length inp -> (forall f, f < length old -> len <= length (nth f old [])) ->
  exists outs, apply_rev T d (2 ^ v) inp old len = Ret outs /\ static_rev T d (2 ^ v) (2 ^ m) inp old len = Ret outs /\
    forall i, i < len / 2 ^ v * 2 ^ v -> nth i (nth 2 outs []) d = nth (i * 2 ^ m + 2 ^ (v mod m)) inp d.
Proof.
  intros T d v m inp old len Hm HM LN LI LO. rewrite <- LN in LI. destruct (rev_dyn_gen T d v inp old len LI LO) as (outs & E & L & F). destruct (rev_static_gen T d v inp old len LI LO) as (outs' & E' & L' & F').
  exists outs. split; [exact E|]. rewrite <- LN at 1. split.
  - rewrite E'. f_equal. apply (list_eq_nth _ []); [congruence|]. intros f Hf. rewrite L' in Hf. destruct (F f Hf) as [A1 A2], (F' f Hf) as [B1 B2]. apply (list_eq_nth _ d); [congruence|]. intros q Hq. rewrite B1 in Hq. rewrite A2, B2 by exact Hq. reflexivity.
  - intros i Hi. pose proof (Nat.mod_upper_bound v m ltac:(lia)) as MU. assert (H2 : 2 ^ 2 <= 2 ^ m) by (apply Nat.pow_le_mono_r; lia). change (2 ^ 2) with 4 in H2. assert (P : 2 ^ v <> 0) by (apply Nat.pow_nonzero; lia). pose proof (Nat.mul_div_le len (2 ^ v) P) as LV.
    destruct (F 2 ltac:(lia)) as [A1 A2]. specialize (LO 2 ltac:(lia)). rewrite A2 by lia. rewrite (proj2 (Nat.ltb_lt i len)) by lia. unfold rev_at.
    assert (VE : vectorized (2 ^ v) (length old) = true).
    { unfold vectorized. rewrite LN. rewrite (proj2 (C73_power _)). 2:{ exists (Z.of_nat m). split; [lia|]. rewrite Nat2Z.inj_pow. reflexivity. }
      rewrite (proj2 (Nat.leb_le 2 _)) by lia. apply Nat.leb_le, Nat.pow_le_mono_r; lia. }
    rewrite VE. rewrite (proj2 (Nat.ltb_lt i (len / 2 ^ v * 2 ^ v))) by exact Hi. cbn [andb]. rewrite LN, Nat.log2_pow2 by lia. f_equal. f_equal.
    pose proof (Nat.div_mod v m ltac:(lia)) as DM. assert (J : (v - 1) mod m + 1 = v mod m). { replace (v - 1) with ((v mod m - 1) + (v / m) * m) by nia. rewrite Nat.mod_add, Nat.mod_small by lia. lia. }
    rewrite J. unfold perm_of. change (2 / 2) with 1. change (2 mod 2) with 0. assert (H1 : 1 < 2 ^ (m - v mod m)) by (apply Nat.pow_gt_1; lia). rewrite (Nat.mod_small 1), (Nat.div_small 1) by exact H1.
    rewrite Nat.mul_1_l, !Nat.add_0_r, <- Nat.pow_succ_r'. f_equal. lia.
Qed.

(** ** Examples *)
(* 4 frames of 5 elements, registers of 4: one vectorized step and one sequential element *)
Definition ex_frames : list (list nat) := tab 4 (fun f => tab 5 (fun i => 10 * f + i)).
Example C53_apply_example : apply nat 0 (2 ^ 2) ex_frames (repeat 99 21) 5 = Ret [0; 10; 20; 30; 1; 11; 21; 31; 2; 12; 22; 32; 3; 13; 23; 33; 4; 14; 24; 34; 99].
Proof. vm_compute. reflexivity. Qed.
Example C53_order_example : in_order 2 4 /\ in_order 3 4 /\ in_order 5 7 /\ ~ in_order 5 8.
Proof.
  repeat split.
  - intros m Hm E. destruct m as [|[|[|m]]]; [lia|cbn in E; lia|cbn; lia|lia].
  - intros m Hm E. destruct m as [|[|[|[|m]]]]; [lia|cbn in E; lia|cbn; lia|cbn in E; lia|lia].
  - intros m Hm E. destruct m as [|[|[|[|[|[|m]]]]]]; cbn in E; lia.
  - intros H. specialize (H 3 ltac:(lia) eq_refl). cbn in H. lia.
Qed.
(* 8 frames, registers of 32 elements (8-bit data, AVX2): frames 2 and 4 are exchanged *)
Example C53_rev_refuted_example :
  (' mixed <- apply nat 0 32 (tab 8 (fun f => repeat f 32)) (repeat 99 256) 32 ;; apply_rev nat 0 32 mixed (repeat (repeat 99 32) 8) 32)
  = Ret (map (fun f => repeat f 32) [0; 1; 4; 5; 2; 3; 6; 7]).
Proof. vm_compute. reflexivity. Qed.
