(** Theorems about the execution of a task (C41, C79). *)
From Coq Require Import List Arith Lia Bool ZArith.
From Verif Require Import Base TaskModel.
Import ListNotations.

(** ** Specification: frames of b bytes *)
Definition frame (b k : nat) (v : list Z) : list Z := firstn b (skipn (k * b) v).
(** the frame k of the inputs *)
Definition in_frames (shape : list (bool * nat)) (vs : list (list Z)) (k : nat) : list (list Z) :=
  flat_map (fun p : (bool * nat) * list Z => if fst (fst p) then [frame (snd (fst p)) k (snd p)] else []) (combine shape vs).
Definition shape_of (l : list tsock) : list (bool * nat) := map (fun s => (s_in s, s_bpf s)) l.
(** a codelet works frame by frame: the frame k of the output i is a function [G i] of the frames k of the inputs, whatever the state of the module and the
    rest of the memory; it returns a status *)
Definition framewise {M} (npw : nat) (shape : list (bool * nat)) (codelet : M -> nat -> list (list Z) -> M * list (list Z) * option Z) (G : nat -> list (list Z) -> list Z) : Prop :=
  forall m fid vs, length vs = length shape -> (forall i, i < length shape -> length (nth i vs []) = npw * snd (nth i shape (true, 0))) ->
  exists m' vs' st, codelet m fid vs = (m', vs', Some st) /\ length vs' = length vs /\
    forall i, i < length shape -> length (nth i vs' []) = length (nth i vs []) /\
      (fst (nth i shape (true, 0)) = false -> forall k, k < npw -> frame (snd (nth i shape (true, 0))) k (nth i vs' []) = G i (in_frames shape vs k)).

(** ** Slices *)
Lemma nth_skipn' : forall A (l : list A) k i d, nth i (skipn k l) d = nth (k + i) l d.
Proof. induction l as [|x l IH]; intros [|k] i d; cbn [skipn Nat.add nth]; try reflexivity; [destruct i; reflexivity|apply IH]. Qed.
Lemma nth_firstn' : forall A (l : list A) k i d, i < k -> nth i (firstn k l) d = nth i l d.
Proof. induction l as [|x l IH]; intros [|k] i d H; try lia; cbn [firstn]; [destruct i; reflexivity|]. destruct i; cbn [nth]; [reflexivity|]. apply IH. lia. Qed.
Lemma length_slice : forall off len l, off + len <= length l -> length (slice off len l) = len.
Proof. intros. unfold slice. rewrite firstn_length, skipn_length. lia. Qed.
Lemma nth_slice : forall off len l i, i < len -> nth i (slice off len l) 0%Z = nth (off + i) l 0%Z.
Proof. intros. unfold slice. rewrite nth_firstn' by lia. apply nth_skipn'. Qed.
Lemma length_splice : forall off v l, off + length v <= length l -> length (splice off v l) = length l.
Proof. intros. unfold splice. rewrite !app_length, firstn_length, skipn_length. lia. Qed.
Lemma nth_splice : forall off v l i, off + length v <= length l -> nth i (splice off v l) 0%Z = if (off <=? i) && (i <? off + length v) then nth (i - off) v 0%Z else nth i l 0%Z.
Proof.
  intros off v l i H. unfold splice. destruct (Nat.leb_spec off i); cbn [andb].
  - rewrite app_nth2 by (rewrite firstn_length; lia). rewrite firstn_length, Nat.min_l by lia. destruct (Nat.ltb_spec i (off + length v)); [rewrite app_nth1 by lia; reflexivity|]. rewrite app_nth2 by lia. rewrite nth_skipn'. f_equal. lia.
  - rewrite app_nth1 by (rewrite firstn_length; lia). apply nth_firstn'. lia.
Qed.
Lemma length_frame : forall b k v, (k + 1) * b <= length v -> length (frame b k v) = b.
Proof. intros. unfold frame. rewrite firstn_length, skipn_length. nia. Qed.
Lemma nth_frame : forall b k v i, i < b -> nth i (frame b k v) 0%Z = nth (k * b + i) v 0%Z.
Proof. intros. unfold frame. rewrite nth_firstn' by lia. apply nth_skipn'. Qed.
Lemma frame_eq : forall b k v k' v', (k + 1) * b <= length v -> (k' + 1) * b <= length v' -> (forall i, i < b -> nth (k * b + i) v 0%Z = nth (k' * b + i) v' 0%Z) -> frame b k v = frame b k' v'.
Proof. intros b k v k' v' L L' H. apply (list_eq_nth _ 0%Z); [rewrite !length_frame by assumption; reflexivity|]. intros i Hi. rewrite length_frame in Hi by exact L. rewrite !nth_frame by exact Hi. apply H. exact Hi. Qed.
Lemma frame_splice : forall b f w c v l, length v = c * b -> (w + c) * b <= length l -> (f + 1) * b <= length l ->
  frame b f (splice (w * b) v l) = if (w <=? f) && (f <? w + c) then frame b (f - w) v else frame b f l.
Proof.
  intros b f w c v l Lv Lw Lf. assert (LS : length (splice (w * b) v l) = length l) by (apply length_splice; nia).
  destruct (Nat.leb_spec w f); cbn [andb]; [destruct (Nat.ltb_spec f (w + c))|].
  - apply frame_eq; [rewrite LS; exact Lf|rewrite Lv; apply Nat.mul_le_mono_r; lia|]. intros i Hi. rewrite nth_splice by nia.
    replace (w * b <=? f * b + i) with true by (symmetry; apply Nat.leb_le; nia). replace (f * b + i <? w * b + length v) with true by (symmetry; apply Nat.ltb_lt; rewrite Lv; nia). cbn [andb]. f_equal. rewrite Nat.mul_sub_distr_r. assert (w * b <= f * b) by (apply Nat.mul_le_mono_r; lia). lia.
  - apply frame_eq; [rewrite LS; exact Lf|exact Lf|]. intros i Hi. rewrite nth_splice by nia. replace (f * b + i <? w * b + length v) with false; [rewrite andb_false_r; reflexivity|]. symmetry. apply Nat.ltb_ge. rewrite Lv. nia.
  - apply frame_eq; [rewrite LS; exact Lf|exact Lf|]. intros i Hi. rewrite nth_splice by nia. replace (w * b <=? f * b + i) with false; [reflexivity|]. symmetry. apply Nat.leb_gt. nia.
Qed.
Lemma frame_slice : forall b k w c l, k < c -> (w + c) * b <= length l -> frame b k (slice (w * b) (c * b) l) = frame b (w + k) l.
Proof.
  intros b k w c l Hk L. apply frame_eq; [rewrite length_slice by nia; nia|nia|]. intros i Hi. rewrite nth_slice by nia. f_equal. nia.
Qed.

(** ** Lists *)
Lemma nth_map2 : forall A B C (f : A -> B -> C) a b i da db dc, i < length a -> length b = length a -> nth i (map2 f a b) dc = f (nth i a da) (nth i b db).
Proof. induction a as [|x a IH]; intros [|y b] i da db dc H L; cbn [length] in *; try lia. destruct i; cbn [map2 nth]; [reflexivity|]. apply IH; lia. Qed.
Lemma length_map2 : forall A B C (f : A -> B -> C) a b, length b = length a -> length (map2 f a b) = length a.
Proof. induction a as [|x a IH]; intros [|y b] L; cbn [length map2] in *; try lia. rewrite IH; lia. Qed.
Lemma forallb_map2 : forall A B (f : A -> B -> bool) a b da db, length b = length a -> (forall i, i < length a -> f (nth i a da) (nth i b db) = true) -> forallb (fun b => b) (map2 f a b) = true.
Proof.
  induction a as [|x a IH]; intros [|y b] da db L H; cbn [length map2 forallb] in *; try lia. rewrite (H 0 ltac:(lia) : f x y = true). cbn [andb]. apply (IH b da db); [lia|]. intros i Hi. apply (H (S i)). lia.
Qed.
Lemma map_out_ok : forall A B (f : A -> outcome B) l dx dy, (forall i, i < length l -> exists y, f (nth i l dx) = Ret y) -> exists r, map_out f l = Ret r /\ length r = length l /\ forall i, i < length l -> f (nth i l dx) = Ret (nth i r dy).
Proof.
  induction l as [|x l IH]; intros dx dy H; cbn [map_out length]; [exists []; split; [reflexivity|]; split; [reflexivity|]; intros i Hi; cbn in Hi; lia|].
  destruct (H 0 ltac:(cbn; lia)) as (y & E). cbn [nth] in E. rewrite E. cbn [bind]. destruct (IH dx dy) as (r & -> & L & R); [intros i Hi; apply (H (S i)); cbn [length]; lia|]. cbn [bind]. exists (y :: r). split; [reflexivity|]. split; [cbn [length]; lia|]. intros [|i] Hi; cbn [nth]; [exact E|]. apply R. lia.
Qed.
Lemma combine_nth' : forall A B (a : list A) (b : list B) i da db, length a = length b -> nth i (combine a b) (da, db) = (nth i a da, nth i b db).
Proof. intros. apply combine_nth. assumption. Qed.
Lemma forallb_nth : forall A (f : A -> bool) l d, (forall i, i < length l -> f (nth i l d) = true) -> forallb f l = true.
Proof. intros A f l d H. apply forallb_forall. intros x I. apply (In_nth _ _ d) in I. destruct I as (i & Hi & <-). apply H. exact Hi. Qed.

Lemma in_frames_eq : forall shape vs vs' k k', length vs = length shape -> length vs' = length shape ->
  (forall i, i < length shape -> fst (nth i shape (true, 0)) = true -> frame (snd (nth i shape (true, 0))) k (nth i vs []) = frame (snd (nth i shape (true, 0))) k' (nth i vs' [])) -> in_frames shape vs k = in_frames shape vs' k'.
Proof.
  unfold in_frames. induction shape as [|[b n] shape IH]; intros [|v vs] [|v' vs'] k k' L L' H; cbn [length] in *; try lia; [reflexivity|]. cbn [combine flat_map fst snd]. f_equal; [|apply IH; try lia; intros i Hi; exact (H (S i) ltac:(lia))]. destruct b; [|reflexivity]. f_equal. exact (H 0 ltac:(lia) eq_refl).
Qed.

Definition sock0 : tsock := mkSock true 0 [] [] (Ext 0).

Section Exec.
Context {M : Type}.
Variables n_frames npw n_waves rest : nat.
Variable codelet : M -> nat -> list (list Z) -> M * list (list Z) * option Z.
Variable G : nat -> list (list Z) -> list Z.
Variable socks0 : list tsock.
Let shape := shape_of socks0.
Let N := length socks0.
Hypothesis HF : framewise npw shape codelet G.
Let b (i : nat) : nat := s_bpf (nth i socks0 sock0).
Let mem0 (i : nat) : list Z := s_mem (nth i socks0 sock0).
Let mems0 : list (list Z) := map s_mem socks0.

Lemma nth_shape : forall i, nth i shape (true, 0) = (s_in (nth i socks0 sock0), b i).
Proof. intros i. unfold shape, shape_of, b. exact (map_nth (fun s => (s_in s, s_bpf s)) socks0 sock0 i). Qed.
Lemma length_shape : length shape = N. Proof. unfold shape, shape_of. apply map_length. Qed.
Lemma nth_mems0 : forall i, nth i mems0 [] = mem0 i.
Proof. intros i. exact (map_nth s_mem socks0 sock0 i). Qed.

(** the socket s, when the outputs of the frames of D are done *)
Definition rel (D : nat -> bool) (i : nat) (s : tsock) : Prop :=
  s_in s = s_in (nth i socks0 sock0) /\ s_bpf s = b i /\ length (s_mem s) = length (mem0 i) /\ length (s_buf s) = length (s_buf (nth i socks0 sock0)) /\
  (s_in s = true -> s_mem s = mem0 i) /\
  (s_in s = false -> forall f, (f + 1) * b i <= length (mem0 i) -> frame (b i) f (s_mem s) = if D f then G i (in_frames shape mems0 f) else frame (b i) f (mem0 i)).
Definition Inv (D : nat -> bool) (socks : list tsock) : Prop := length socks = N /\ forall i, i < N -> rel D i (nth i socks sock0).

Lemma rel_ext : forall D D' i s, (forall f, (f + 1) * b i <= length (mem0 i) -> D f = D' f) -> rel D i s -> rel D' i s.
Proof. intros D D' i s H (a1 & a2 & a3 & a4 & a5 & a6). repeat split; try assumption. intros Hi f Hf. rewrite (a6 Hi f Hf), (H f Hf). reflexivity. Qed.

(** the status st is one that the codelet gives for the frame fid *)
Definition gives (fid : nat) (st : Z) : Prop := exists m vs, snd (codelet m fid vs) = Some st.

(** the codelet on the memory, at the frame a *)
Lemma call_ext : forall D (t : tstate M) w fid a, Inv D (t_socks t) -> (forall i, i < N -> s_ptr (nth i (t_socks t) sock0) = Ext (a * b i) /\ (a + npw) * b i <= length (mem0 i)) -> w < length (t_status t) ->
  exists t' st, call_codelet npw codelet t w fid = Ret (t', true) /\ Inv (fun f => D f || ((a <=? f) && (f <? a + npw))) (t_socks t') /\ map s_ptr (t_socks t') = map s_ptr (t_socks t) /\ t_status t' = upd (t_status t) w st /\ t_calls t' = t_calls t ++ [fid] /\ gives fid st.
Proof.
  intros D t w fid a [L I] P Hw. unfold call_codelet.
  assert (V : forall i, i < N -> nth i (map (view npw) (t_socks t)) [] = slice (a * b i) (npw * b i) (s_mem (nth i (t_socks t) sock0))).
  { intros i Hi. rewrite (nth_indep _ [] (view npw sock0)) by (rewrite map_length; lia). rewrite map_nth. unfold view. destruct (P i Hi) as [-> _]. destruct (I i Hi) as (_ & -> & _). reflexivity. }
  replace (forallb (fits npw) (t_socks t)) with true; [|symmetry; apply (forallb_nth _ _ _ sock0); intros i Hi; rewrite L in Hi; unfold fits; destruct (P i Hi) as [-> X]; destruct (I i Hi) as (_ & -> & -> & _); apply Nat.leb_le; nia].
  set (vs := map (view npw) (t_socks t)) in *. assert (Lvs : length vs = length shape) by (unfold vs; rewrite map_length, length_shape; exact L).
  assert (Lv : forall i, i < N -> length (nth i vs []) = npw * b i) by (intros i Hi; rewrite V by exact Hi; apply length_slice; destruct (I i Hi) as (_ & _ & -> & _); destruct (P i Hi) as [_ X]; nia).
  destruct (HF (t_mod t) fid vs Lvs) as (m' & vs' & st & EC & Lvs' & H); [intros i Hi; rewrite length_shape in Hi; rewrite nth_shape; exact (Lv i Hi)|]. rewrite length_shape in H. rewrite EC.
  rewrite Lvs', Nat.eqb_refl. cbn [andb]. rewrite (forallb_map2 _ _ _ _ _ [] []); [|exact Lvs'|intros i Hi; unfold same_size; apply Nat.eqb_eq; symmetry; apply (H i); rewrite Lvs, length_shape in Hi; exact Hi].
  rewrite wr_ok by exact Hw. cbn [bind]. eexists _, st. split; [reflexivity|]. cbn [t_socks t_status t_calls].
  assert (Lm : length vs' = length (t_socks t)) by (rewrite Lvs', Lvs, length_shape; symmetry; exact L). split; [|split; [|split; [reflexivity|split; [reflexivity|exists (t_mod t), vs; rewrite EC; reflexivity]]]].
  - split; [rewrite length_map2; assumption|]. intros i Hi. rewrite (nth_map2 _ _ _ _ _ _ _ sock0 []) by lia. destruct (P i Hi) as [Pi Bi]. destruct (H i Hi) as [H1 H2]. pose proof (I i Hi) as Ii. set (s := nth i (t_socks t) sock0) in *. destruct Ii as (a1 & a2 & a3 & a4 & a5 & a6). rewrite Lv in H1 by exact Hi. unfold store. destruct (s_in s) eqn:Es.
    + unfold rel. rewrite Es. repeat split; try assumption. intros X. discriminate X.
    + rewrite Pi. unfold rel. cbn [s_in s_bpf s_mem s_buf]. split; [exact a1|]. split; [exact a2|]. split; [rewrite length_splice by (rewrite H1, a3; nia); exact a3|]. split; [exact a4|]. split; [intros X; discriminate X|]. intros _ f Hf.
      rewrite (frame_splice _ _ _ npw) by (rewrite ?H1, ?a3; try reflexivity; assumption). destruct ((a <=? f) && (f <? a + npw)) eqn:C.
      * rewrite orb_true_r. apply andb_true_iff in C. destruct C as [C1 C2]. apply Nat.leb_le in C1. apply Nat.ltb_lt in C2. rewrite nth_shape in H2. cbn [fst snd] in H2. rewrite <- a1 in H2. rewrite (H2 eq_refl (f - a) ltac:(lia)). f_equal. apply in_frames_eq; [exact Lvs|unfold mems0; rewrite map_length, length_shape; reflexivity|]. intros j Hj Ij. rewrite length_shape in Hj. rewrite nth_shape in *. cbn [fst snd] in *. rewrite V by exact Hj. rewrite nth_mems0.
        rewrite frame_slice; [|lia|]. { rewrite (Nat.add_comm a), Nat.sub_add by exact C1. destruct (I j Hj) as (c1 & _ & _ & _ & c5 & _). rewrite (c5 ltac:(rewrite c1; exact Ij)). reflexivity. } { destruct (P j Hj) as [_ X]. destruct (I j Hj) as (_ & _ & -> & _). exact X. }
      * rewrite orb_false_r. apply a6; [reflexivity|exact Hf].
  - apply (nth_ext _ _ (Ext 0) (Ext 0)); [rewrite !map_length, length_map2 by assumption; reflexivity|]. intros i Hi. rewrite map_length, length_map2 in Hi by assumption. change (Ext 0) with (s_ptr sock0). rewrite !map_nth. rewrite (nth_map2 _ _ _ _ _ _ _ sock0 []) by lia. unfold store. destruct (s_in _); [reflexivity|]. destruct (s_ptr (nth i (t_socks t) sock0)) eqn:E; reflexivity.
Qed.

(** the codelet on the internal buffers *)
Lemma call_buf : forall D (t : tstate M) w fid, Inv D (t_socks t) -> (forall i, i < N -> s_ptr (nth i (t_socks t) sock0) = Buf /\ npw * b i <= length (s_buf (nth i socks0 sock0))) -> w < length (t_status t) ->
  exists t' st, call_codelet npw codelet t w fid = Ret (t', true) /\ Inv D (t_socks t') /\ t_status t' = upd (t_status t) w st /\ t_calls t' = t_calls t ++ [fid] /\ gives fid st /\
    forall i, i < N -> s_in (nth i socks0 sock0) = false -> forall k, k < npw -> frame (b i) k (s_buf (nth i (t_socks t') sock0)) = G i (in_frames shape (map s_buf (t_socks t)) k).
Proof.
  intros D t w fid [L I] P Hw. unfold call_codelet.
  assert (V : forall i, i < N -> nth i (map (view npw) (t_socks t)) [] = slice 0 (npw * b i) (s_buf (nth i (t_socks t) sock0))).
  { intros i Hi. rewrite (nth_indep _ [] (view npw sock0)) by (rewrite map_length; lia). rewrite map_nth. unfold view. destruct (P i Hi) as [-> _]. destruct (I i Hi) as (_ & -> & _). reflexivity. }
  replace (forallb (fits npw) (t_socks t)) with true; [|symmetry; apply (forallb_nth _ _ _ sock0); intros i Hi; rewrite L in Hi; unfold fits; destruct (P i Hi) as [-> X]; destruct (I i Hi) as (_ & -> & _ & -> & _); apply Nat.leb_le; exact X].
  set (vs := map (view npw) (t_socks t)) in *. assert (Lvs : length vs = length shape) by (unfold vs; rewrite map_length, length_shape; exact L).
  assert (Lv : forall i, i < N -> length (nth i vs []) = npw * b i) by (intros i Hi; rewrite V by exact Hi; apply length_slice; destruct (I i Hi) as (_ & _ & _ & -> & _); destruct (P i Hi) as [_ X]; exact X).
  destruct (HF (t_mod t) fid vs Lvs) as (m' & vs' & st & EC & Lvs' & H); [intros i Hi; rewrite length_shape in Hi; rewrite nth_shape; exact (Lv i Hi)|]. rewrite length_shape in H. rewrite EC.
  rewrite Lvs', Nat.eqb_refl. cbn [andb]. rewrite (forallb_map2 _ _ _ _ _ [] []); [|exact Lvs'|intros i Hi; unfold same_size; apply Nat.eqb_eq; symmetry; apply (H i); rewrite Lvs, length_shape in Hi; exact Hi].
  rewrite wr_ok by exact Hw. cbn [bind]. eexists _, st. split; [reflexivity|]. cbn [t_socks t_status t_calls].
  assert (Lm : length vs' = length (t_socks t)) by (rewrite Lvs', Lvs, length_shape; symmetry; exact L). split; [|split; [reflexivity|split; [reflexivity|split; [exists (t_mod t), vs; rewrite EC; reflexivity|]]]].
  - split; [rewrite length_map2; assumption|]. intros i Hi. rewrite (nth_map2 _ _ _ _ _ _ _ sock0 []) by lia. destruct (P i Hi) as [Pi Bi]. destruct (H i Hi) as [H1 H2]. pose proof (I i Hi) as Ii. set (s := nth i (t_socks t) sock0) in *. destruct Ii as (a1 & a2 & a3 & a4 & a5 & a6). rewrite Lv in H1 by exact Hi. unfold store. destruct (s_in s) eqn:Es.
    + unfold rel. rewrite Es. repeat split; try assumption.
    + rewrite Pi. unfold rel. cbn [s_in s_bpf s_mem s_buf]. repeat split; try assumption. rewrite length_splice by (rewrite H1, a4; exact Bi). exact a4.
  - intros i Hi Oi k Hk. rewrite (nth_map2 _ _ _ _ _ _ _ sock0 []) by lia. destruct (P i Hi) as [Pi Bi]. destruct (H i Hi) as [H1 H2]. pose proof (I i Hi) as (a1 & a2 & a3 & a4 & a5 & a6). rewrite Lv in H1 by exact Hi. unfold store. rewrite a1, Oi, Pi. cbn [s_buf].
    assert (Bk : (k + 1) * b i <= npw * b i) by (apply Nat.mul_le_mono_r; lia).
    change 0 with (0 * b i). rewrite (frame_splice _ _ 0 npw) by (rewrite ?a4; cbn [Nat.add]; try exact H1; lia). cbn [Nat.leb Nat.add]. replace (k <? npw) with true by (symmetry; apply Nat.ltb_lt; exact Hk). cbn [andb]. rewrite Nat.sub_0_r. rewrite nth_shape in H2. cbn [fst snd] in H2. rewrite (H2 Oi k Hk). f_equal.
    apply in_frames_eq; [exact Lvs|rewrite map_length, length_shape; exact L|]. intros j Hj Ij. rewrite length_shape in Hj. rewrite nth_shape in *. cbn [fst snd] in *. rewrite V by exact Hj. change (nth j (map s_buf (t_socks t)) []) with (nth j (map s_buf (t_socks t)) (s_buf sock0)). rewrite map_nth.
    change (slice 0 (npw * b j)) with (slice (0 * b j) (npw * b j)). rewrite frame_slice; [reflexivity|exact Hk|]. destruct (I j Hj) as (_ & _ & _ & -> & _). apply P. exact Hj.
Qed.

(** the loops over the sockets, from the initial pointers *)
Hypothesis Hptr : forall i, i < N -> s_ptr (nth i socks0 sock0) = Ext 0.
Lemma map_socks_ok : forall f (Q : nat -> tsock -> Prop) (t : tstate M), length (t_socks t) = N -> (forall i, i < N -> exists s, f (Ext 0, nth i (t_socks t) sock0) = Ret s /\ Q i s) ->
  exists t', map_socks_out f (map s_ptr socks0) t = Ret t' /\ length (t_socks t') = N /\ (forall i, i < N -> Q i (nth i (t_socks t') sock0)) /\ t_status t' = t_status t /\ t_mod t' = t_mod t /\ t_calls t' = t_calls t.
Proof.
  intros f Q t L H. unfold map_socks_out. assert (LC : length (map s_ptr socks0) = length (t_socks t)) by (rewrite map_length; symmetry; exact L).
  assert (NC : forall i, i < N -> nth i (combine (map s_ptr socks0) (t_socks t)) (Ext 0, sock0) = (Ext 0, nth i (t_socks t) sock0)).
  { intros i Hi. rewrite combine_nth by exact LC. f_equal. change (Ext 0) with (s_ptr sock0) at 1. rewrite map_nth. apply Hptr. exact Hi. }
  assert (LN : length (combine (map s_ptr socks0) (t_socks t)) = N) by (rewrite combine_length, map_length, L; apply Nat.min_id).
  destruct (map_out_ok _ _ f (combine (map s_ptr socks0) (t_socks t)) (Ext 0, sock0) sock0) as (r & -> & Lr & R).
  - intros i Hi. rewrite LN in Hi. rewrite NC by exact Hi. destruct (H i Hi) as (s & E & _). eauto.
  - cbn [bind]. eexists. split; [reflexivity|]. cbn [t_socks t_status t_mod t_calls]. rewrite LN in *. split; [exact Lr|]. split; [|auto]. intros i Hi. specialize (R i Hi). rewrite NC in R by exact Hi. destruct (H i Hi) as (s & E & Qs). rewrite E in R. injection R as <-. exact Qs.
Qed.
Lemma to_wave_ok : forall D (t : tstate M) w, Inv D (t_socks t) -> exists t', map_socks_out (to_wave npw w) (map s_ptr socks0) t = Ret t' /\ Inv D (t_socks t') /\ (forall i, i < N -> s_ptr (nth i (t_socks t') sock0) = Ext (w * npw * b i)) /\ t_status t' = t_status t /\ t_mod t' = t_mod t /\ t_calls t' = t_calls t.
Proof.
  intros D t w [L I]. destruct (map_socks_ok (to_wave npw w) (fun i s => rel D i s /\ s_ptr s = Ext (w * npw * b i)) t L) as (t' & E & L' & Q & R).
  - intros i Hi. unfold to_wave. cbn [fst snd shifted bind Nat.add]. eexists. split; [reflexivity|]. destruct (I i Hi) as (a1 & a2 & a3 & a4 & a5 & a6). split; [|cbn [set_ptr s_ptr]; rewrite a2; reflexivity]. unfold rel, set_ptr. cbn [s_in s_bpf s_mem s_buf]. auto 9.
  - exists t'. split; [exact E|]. split; [split; [exact L'|]; intros i Hi; apply Q; exact Hi|]. split; [intros i Hi; apply Q; exact Hi|exact R].
Qed.
Lemma restore_ok : forall D (t : tstate M), Inv D (t_socks t) -> exists t', map_socks_out (fun p => Ret (set_ptr (fst p) (snd p))) (map s_ptr socks0) t = Ret t' /\ Inv D (t_socks t') /\ (forall i, i < N -> s_ptr (nth i (t_socks t') sock0) = Ext 0) /\ t_status t' = t_status t /\ t_mod t' = t_mod t /\ t_calls t' = t_calls t.
Proof.
  intros D t [L I]. destruct (map_socks_ok (fun p => Ret (set_ptr (fst p) (snd p))) (fun i s => rel D i s /\ s_ptr s = Ext 0) t L) as (t' & E & L' & Q & R).
  - intros i Hi. eexists. split; [reflexivity|]. cbn [fst snd]. split; [|reflexivity]. destruct (I i Hi) as (a1 & a2 & a3 & a4 & a5 & a6). unfold rel, set_ptr. cbn [s_in s_bpf s_mem s_buf]. auto 9.
  - exists t'. split; [exact E|]. split; [split; [exact L'|]; intros i Hi; apply Q; exact Hi|]. split; [intros i Hi; apply Q; exact Hi|exact R].
Qed.
Lemma copy_in_ok : forall D (t : tstate M) from len at_, Inv D (t_socks t) -> (forall i, i < N -> (from + len) * b i <= length (mem0 i) /\ (at_ + len) * b i <= length (s_buf (nth i socks0 sock0))) ->
  exists t', map_socks_out (copy_in from len at_) (map s_ptr socks0) t = Ret t' /\ Inv D (t_socks t') /\ (forall i, i < N -> s_ptr (nth i (t_socks t') sock0) = Buf) /\ t_status t' = t_status t /\ t_mod t' = t_mod t /\ t_calls t' = t_calls t /\
    forall i, i < N -> s_in (nth i socks0 sock0) = true -> forall k, k < len -> frame (b i) (at_ + k) (s_buf (nth i (t_socks t') sock0)) = frame (b i) (from + k) (mem0 i).
Proof.
  intros D t from len at_ [L I] B. destruct (map_socks_ok (copy_in from len at_) (fun i s => rel D i s /\ s_ptr s = Buf /\ (s_in (nth i socks0 sock0) = true -> forall k, k < len -> frame (b i) (at_ + k) (s_buf s) = frame (b i) (from + k) (mem0 i))) t L) as (t' & E & L' & Q & R1 & R2 & R3).
  - intros i Hi. unfold copy_in. cbn [fst snd]. destruct (I i Hi) as (a1 & a2 & a3 & a4 & a5 & a6). destruct (B i Hi) as [B1 B2]. set (s := nth i (t_socks t) sock0) in *. destruct (s_in s) eqn:Es.
    + rewrite a2, a3, a4. cbn [Nat.add]. replace ((from + len) * b i <=? length (mem0 i)) with true by (symmetry; apply Nat.leb_le; exact B1). replace ((at_ + len) * b i <=? _) with true by (symmetry; apply Nat.leb_le; exact B2). cbn [andb]. eexists. split; [reflexivity|].
      assert (LS : length (slice (from * b i) (len * b i) (s_mem s)) = len * b i) by (apply length_slice; rewrite a3; nia). split; [|split; [reflexivity|]].
      * unfold rel. cbn [s_in s_bpf s_mem s_buf]. repeat split; try assumption; try reflexivity; try (intros X; discriminate X). rewrite length_splice by (rewrite LS, a4; nia). exact a4.
      * intros _ k Hk. cbn [s_buf]. rewrite (frame_splice _ _ at_ len) by (rewrite ?LS, ?a4; try reflexivity; nia). replace (at_ <=? at_ + k) with true by (symmetry; apply Nat.leb_le; lia). replace (at_ + k <? at_ + len) with true by (symmetry; apply Nat.ltb_lt; lia). cbn [andb]. replace (at_ + k - at_) with k by lia. rewrite frame_slice by (rewrite ?a3; assumption). rewrite a5 by reflexivity. reflexivity.
    + eexists. split; [reflexivity|]. split; [|split; [reflexivity|intros X; congruence]]. unfold rel, set_ptr. cbn [s_in s_bpf s_mem s_buf]. rewrite Es. auto 9.
  - exists t'. split; [exact E|]. split; [split; [exact L'|]; intros i Hi; apply Q; exact Hi|]. split; [intros i Hi; apply Q; exact Hi|]. do 3 (split; [assumption|]). intros i Hi. apply Q. exact Hi.
Qed.
Lemma copy_out_ok : forall D (t : tstate M) from len at_, Inv D (t_socks t) -> (forall i, i < N -> (at_ + len) * b i <= length (mem0 i) /\ (from + len) * b i <= length (s_buf (nth i socks0 sock0))) ->
  (forall i, i < N -> s_in (nth i socks0 sock0) = false -> forall k, k < len -> frame (b i) (from + k) (s_buf (nth i (t_socks t) sock0)) = G i (in_frames shape mems0 (at_ + k))) ->
  exists t', map_socks_out (copy_out from len at_) (map s_ptr socks0) t = Ret t' /\ Inv (fun f => D f || ((at_ <=? f) && (f <? at_ + len))) (t_socks t') /\ t_status t' = t_status t /\ t_mod t' = t_mod t /\ t_calls t' = t_calls t.
Proof.
  intros D t from len at_ [L I] B H. destruct (map_socks_ok (copy_out from len at_) (fun i s => rel (fun f => D f || ((at_ <=? f) && (f <? at_ + len))) i s) t L) as (t' & E & L' & Q & R).
  - intros i Hi. unfold copy_out. cbn [fst snd]. destruct (I i Hi) as (a1 & a2 & a3 & a4 & a5 & a6). destruct (B i Hi) as [B1 B2]. specialize (H i Hi). set (s := nth i (t_socks t) sock0) in *. destruct (s_in s) eqn:Es.
    + eexists. split; [reflexivity|]. unfold rel. rewrite Es. do 5 (split; [assumption|]). intros X. discriminate X.
    + rewrite a2, a3, a4. cbn [Nat.add]. replace ((from + len) * b i <=? _) with true by (symmetry; apply Nat.leb_le; exact B2). replace ((at_ + len) * b i <=? length (mem0 i)) with true by (symmetry; apply Nat.leb_le; exact B1). cbn [andb]. eexists. split; [reflexivity|].
      assert (LS : length (slice (from * b i) (len * b i) (s_buf s)) = len * b i) by (apply length_slice; rewrite a4; nia). unfold rel. cbn [s_in s_bpf s_mem s_buf]. split; [exact a1|]. split; [reflexivity|]. split; [rewrite length_splice by (rewrite LS, a3; nia); exact a3|]. split; [exact a4|]. split; [intros X; discriminate X|]. intros _ f Hf.
      rewrite (frame_splice _ _ at_ len) by (rewrite ?LS, ?a3; try reflexivity; assumption). destruct ((at_ <=? f) && (f <? at_ + len)) eqn:C.
      * rewrite orb_true_r. apply andb_true_iff in C. destruct C as [C1 C2]. apply Nat.leb_le in C1. apply Nat.ltb_lt in C2. rewrite frame_slice by (rewrite ?a4; lia). rewrite (H (eq_sym a1) (f - at_)) by lia. f_equal. f_equal. lia.
      * rewrite orb_false_r. apply a6; [reflexivity|exact Hf].
  - exists t'. split; [exact E|]. split; [split; [exact L'|exact Q]|exact R].
Qed.

(** a part of the frames through the buffers *)
Lemma through_buf : forall D (t : tstate M) w fid from len at_, Inv D (t_socks t) -> (forall i, i < N -> (from + len) * b i <= length (mem0 i) /\ npw * b i <= length (s_buf (nth i socks0 sock0))) -> at_ + len <= npw -> w < length (t_status t) ->
  exists t' st, (t <- map_socks_out (copy_in from len at_) (map s_ptr socks0) t ;; ' (t, ok) <- call_codelet npw codelet t w fid ;; if ok then t <- map_socks_out (copy_out at_ len from) (map s_ptr socks0) t ;; Ret (t, true) else Ret (t, false)) = Ret (t', true) /\
    Inv (fun f => D f || ((from <=? f) && (f <? from + len))) (t_socks t') /\ t_status t' = upd (t_status t) w st /\ t_calls t' = t_calls t ++ [fid] /\ gives fid st.
Proof.
  intros D t w fid from len at_ I B Hl Hw.
  destruct (copy_in_ok D t from len at_ I) as (t1 & -> & I1 & P1 & S1 & M1 & C1 & F1). { intros i Hi. destruct (B i Hi). split; [assumption|]. assert ((at_ + len) * b i <= npw * b i) by (apply Nat.mul_le_mono_r; lia). lia. }
  cbn [bind]. destruct (call_buf D t1 w fid I1) as (t2 & st & -> & I2 & S2 & C2 & Gv & F2). { intros i Hi. split; [apply P1; exact Hi|apply B; exact Hi]. } { rewrite S1. exact Hw. }
  cbn [bind]. destruct (copy_out_ok D t2 at_ len from I2) as (t3 & -> & I3 & S3 & M3 & C3).
  - intros i Hi. destruct (B i Hi). split; [assumption|]. assert ((at_ + len) * b i <= npw * b i) by (apply Nat.mul_le_mono_r; lia). lia.
  - intros i Hi Oi k Hk. rewrite (F2 i Hi Oi (at_ + k)) by lia. f_equal. apply in_frames_eq; [rewrite map_length, length_shape; apply I1|unfold mems0; rewrite map_length, length_shape; reflexivity|]. intros j Hj Ij. rewrite length_shape in Hj. rewrite nth_shape in *. cbn [fst snd] in *. rewrite nth_mems0. change (nth j (map s_buf (t_socks t1)) []) with (nth j (map s_buf (t_socks t1)) (s_buf sock0)). rewrite map_nth. apply F1; assumption.
  - cbn [bind]. exists t3, st. split; [reflexivity|]. split; [exact I3|]. split; [congruence|]. split; [congruence|exact Gv].
Qed.

(** the first waves *)
Lemma waves_ok : forall k w (t : tstate M) last, Inv (fun f => f <? w * npw) (t_socks t) -> (forall i, i < N -> (w + k) * npw * b i <= length (mem0 i)) -> w + k <= length (t_status t) ->
  exists t' w' last', waves npw codelet k w (map s_ptr socks0) t last = Ret (t', w', last', true) /\ w <= w' <= w + k /\ Inv (fun f => f <? w' * npw) (t_socks t') /\ (w' < w + k -> last' = STOP) /\ (w' = w -> last' = last) /\
    t_calls t' = t_calls t ++ map (fun v => v * npw) (seq w (w' - w)) /\ length (t_status t') = length (t_status t) /\
    (forall v, v < w \/ w' <= v -> nth v (t_status t') 0%Z = nth v (t_status t) 0%Z) /\ (w < w' -> nth (w' - 1) (t_status t') 0%Z = last') /\
    (forall v, w <= v -> v < w' -> gives (v * npw) (nth v (t_status t') 0%Z)) /\ (forall v, w <= v -> v + 1 < w' -> nth v (t_status t') 0%Z <> STOP) /\ (w < w' -> last <> STOP).
Proof.
  induction k as [|k IH]; intros w t last I B S; cbn [waves].
  - exists t, w, last. split; [reflexivity|]. split; [lia|]. split; [exact I|]. rewrite Nat.sub_diag. cbn [seq map]. rewrite app_nil_r. repeat split; intros; lia.
  - destruct (Z.eqb_spec last STOP) as [->|NS].
    + exists t, w, STOP. split; [reflexivity|]. split; [lia|]. split; [exact I|]. rewrite Nat.sub_diag. cbn [seq map]. rewrite app_nil_r. repeat split; intros; try lia.
    + destruct (to_wave_ok _ t w I) as (t1 & -> & I1 & P1 & S1 & M1 & C1). cbn [bind].
      destruct (call_ext _ t1 w (w * npw) (w * npw) I1) as (t2 & st & -> & I2 & P2 & S2 & C2 & Gv). { intros i Hi. split; [apply P1; exact Hi|]. specialize (B i Hi). nia. } { rewrite S1. lia. }
      cbn [bind]. assert (L2 : length (t_status t2) = length (t_status t)) by (rewrite S2, length_upd, S1; reflexivity). assert (NT : nth w (t_status t2) 0%Z = st) by (rewrite S2; apply nth_upd_eq; rewrite S1; lia). rewrite (rd_ok _ 0%Z) by lia. rewrite NT. cbn [bind].
      destruct (IH (Datatypes.S w) t2 st) as (t' & w' & last' & -> & R & I' & A1 & A2 & A3 & A4 & A5 & A6 & A7 & A8 & A9).
      { destruct I2 as [L2' I2]. split; [exact L2'|]. intros i Hi. eapply rel_ext; [|apply I2; exact Hi]. intros f _. cbn beta. destruct (Nat.ltb_spec f (w * npw)); destruct (Nat.leb_spec (w * npw) f); destruct (Nat.ltb_spec f (w * npw + npw)); destruct (Nat.ltb_spec f (Datatypes.S w * npw)); cbn [orb andb]; try reflexivity; nia. }
      { intros i Hi. specialize (B i Hi). replace (Datatypes.S w + k) with (w + Datatypes.S k) by lia. exact B. } { lia. }
      exists t', w', last'. split; [reflexivity|]. split; [lia|]. split; [exact I'|]. split; [intros X; apply A1; lia|]. split; [intros X; lia|].
      split; [rewrite A3, C2, C1, <- app_assoc; f_equal; replace (w' - w) with (Datatypes.S (w' - Datatypes.S w)) by lia; reflexivity|]. split; [lia|].
      split; [intros v Hv; rewrite A5 by lia; rewrite S2, S1; apply nth_upd_neq; lia|]. split; [intros _; destruct (Nat.eq_dec w' (Datatypes.S w)) as [->|NE]; [rewrite (A2 eq_refl); replace (Datatypes.S w - 1) with w by lia; rewrite A5 by lia; exact NT|apply A6; lia]|].
      split; [intros v Hv Hv'; destruct (Nat.eq_dec v w) as [->|NE]; [rewrite A5 by lia; rewrite NT; exact Gv|apply A7; lia]|].
      split; [intros v Hv Hv'; destruct (Nat.eq_dec v w) as [->|NE]; [rewrite A5 by lia; rewrite NT; apply A9; lia|apply A8; lia]|]. intros _. exact NS.
Qed.
End Exec.

(** ** Specification: a task whose sockets are bound, and what an execution does *)
Definition ready {M} (n_frames npw n_waves : nat) (t : tstate M) : Prop :=
  n_waves <= length (t_status t) /\
  forall i, i < length (t_socks t) -> let s := nth i (t_socks t) sock0 in s_ptr s = Ext 0 /\ n_frames * s_bpf s <= length (s_mem s) /\ (1 < npw -> npw * s_bpf s <= length (s_buf s)).
(** the outputs of the frames of [done] are computed, nothing else is written, and the pointers are the initial ones *)
Definition computed {M} (G : nat -> list (list Z) -> list Z) (n_frames : nat) (done : nat -> bool) (t t' : tstate M) : Prop :=
  length (t_socks t') = length (t_socks t) /\
  forall i, i < length (t_socks t) -> let s := nth i (t_socks t) sock0 in let s' := nth i (t_socks t') sock0 in
    s_in s' = s_in s /\ s_bpf s' = s_bpf s /\ s_ptr s' = s_ptr s /\ length (s_mem s') = length (s_mem s) /\ length (s_buf s') = length (s_buf s) /\
    (s_in s = true -> s_mem s' = s_mem s) /\
    (s_in s = false -> forall f, (f + 1) * s_bpf s <= length (s_mem s) ->
       frame (s_bpf s) f (s_mem s') = if done f then G i (in_frames (shape_of (t_socks t)) (map s_mem (t_socks t)) f) else frame (s_bpf s) f (s_mem s)).

Section Final.
Context {M : Type}.
Variables n_frames npw n_waves rest : nat.
Variable codelet : M -> nat -> list (list Z) -> M * list (list Z) * option Z.
Variable G : nat -> list (list Z) -> list Z.
Hypothesis Hn : 0 < n_frames.
Hypothesis Hw : 0 < npw.
Hypothesis Hnw : n_waves = (n_frames + npw - 1) / npw.
Hypothesis Hrest : rest = n_frames mod npw.

Lemma inv_computed : forall D (t t' : tstate M), Inv G (t_socks t) D (t_socks t') -> (forall i, i < length (t_socks t) -> s_ptr (nth i (t_socks t') sock0) = s_ptr (nth i (t_socks t) sock0)) -> computed G n_frames D t t'.
Proof.
  intros D t t' [L I] P. split; [exact L|]. intros i Hi. cbv zeta. destruct (I i Hi) as (a1 & a2 & a3 & a4 & a5 & a6). rewrite a1 in a5, a6. split; [exact a1|]. split; [exact a2|]. split; [apply P; exact Hi|]. auto.
Qed.
Lemma inv_none : forall (socks : list tsock), Inv G socks (fun _ => false) socks.
Proof. intros socks. split; [reflexivity|]. intros i Hi. repeat split; auto. Qed.
Lemma n_waves_bounds : 1 <= n_waves /\ n_waves * npw < n_frames + npw /\ n_frames <= n_waves * npw /\ (rest = 0 -> n_waves * npw = n_frames) /\ (rest <> 0 -> rest = n_frames - (n_waves - 1) * npw /\ 1 < npw).
Proof.
  pose proof (Nat.div_mod (n_frames + npw - 1) npw ltac:(lia)) as D. pose proof (Nat.mod_upper_bound (n_frames + npw - 1) npw ltac:(lia)) as U. rewrite <- Hnw in D.
  pose proof (Nat.div_mod n_frames npw ltac:(lia)) as E. pose proof (Nat.mod_upper_bound n_frames npw ltac:(lia)) as V. rewrite <- Hrest in E, V. clear Hnw Hrest.
  set (q := n_frames / npw) in *. clearbody q. set (r := (n_frames + npw - 1) mod npw) in *. clearbody r.
  assert (B1 : n_waves * npw < n_frames + npw) by nia. assert (B2 : n_frames <= n_waves * npw) by nia. split; [nia|]. split; [exact B1|]. split; [exact B2|]. split.
  - intros ->. assert (q = n_waves) by nia. nia.
  - intros R. assert (q + 1 = n_waves) by nia. split; [nia|]. destruct (Nat.eq_dec npw 1); lia.
Qed.

(** *** C41: all the frames *)
Theorem C41_all : forall (t : tstate M) managed, framewise npw (shape_of (t_socks t)) codelet G -> ready n_frames npw n_waves t ->
  exists t' e, exec n_frames npw n_waves rest codelet t (-1) managed = Ret (t', true) /\ 1 <= e <= n_waves /\
    computed G n_frames (fun f => (f <? e * npw) && (f <? n_frames)) t t' /\
    t_calls t' = t_calls t ++ map (fun v => v * npw) (seq 0 e) /\
    (forall v, v < e -> gives codelet (v * npw) (nth v (t_status t') 0%Z)) /\ (forall v, e <= v -> v < n_waves -> nth v (t_status t') 0%Z = UNKNOWN) /\
    (forall v, v + 1 < e -> nth v (t_status t') 0%Z <> STOP) /\ (e < n_waves -> nth (e - 1) (t_status t') 0%Z = STOP).
Proof.
  intros t managed HF [RS R]. destruct n_waves_bounds as (W1 & W2 & W3 & W4 & W5).
  unfold exec. replace (negb (-1 =? -1)%Z) with false by reflexivity. cbn [andb negb guard bind]. unfold exec_. replace (length (t_status t) <? n_waves) with false by (symmetry; apply Nat.ltb_ge; exact RS). cbv zeta. cbn [t_socks].
  set (t1 := mkTask _ (t_socks t) (tab n_waves (fun _ => UNKNOWN) ++ skipn n_waves (t_status t)) (t_mod t) (t_calls t)).
  assert (L1 : length (t_status t1) = length (t_status t)) by (cbn [t1 t_status]; rewrite app_length, length_tab, skipn_length; lia).
  assert (U1 : forall v, v < n_waves -> nth v (t_status t1) 0%Z = UNKNOWN) by (intros v Hv; cbn [t1 t_status]; rewrite app_nth1 by (rewrite length_tab; exact Hv); apply nth_tab; exact Hv).
  assert (I1 : Inv G (t_socks t) (fun _ => false) (t_socks t1)) by apply inv_none.
  assert (P0 : forall i, i < length (t_socks t) -> s_ptr (nth i (t_socks t) sock0) = Ext 0) by (intros i Hi; apply R; exact Hi).
  unfold direct. cbn [Z.leb Z.compare]. rewrite andb_false_r. replace (-1 =? -1)%Z with true by reflexivity. replace (-1 =? 0)%Z with false by reflexivity. cbn [andb orb]. rewrite !orb_false_r. destruct (Nat.eqb_spec npw n_frames) as [En|En].
  - assert (NW : n_waves = 1) by nia. change (Z.to_nat 0) with 0. rewrite Nat.mod_0_l, Nat.div_0_l by lia.
    destruct (call_ext npw codelet G (t_socks t) HF _ t1 0 0 0 I1) as (t2 & st & E & I2 & P2 & S2 & C2 & Gv). { intros i Hi. cbn [t1 t_socks]. rewrite (P0 i Hi). split; [reflexivity|]. destruct (R i Hi) as (_ & B & _). cbn [Nat.add]. rewrite En. exact B. } { lia. }
    exists t2, 1. split; [exact E|]. split; [lia|]. split; [|split; [exact C2|]].
    + apply inv_computed; [|intros i Hi; rewrite <- !(map_nth s_ptr); rewrite P2; reflexivity]. destruct I2 as [L2 I2]. split; [exact L2|]. intros i Hi. eapply rel_ext; [|apply I2; exact Hi]. intros f _. cbn beta. cbn [Nat.leb Nat.add andb orb]. rewrite En, Nat.mul_1_l, andb_diag. reflexivity.
    + rewrite NW in *. split; [intros v Hv; assert (v = 0) as -> by lia; rewrite S2, nth_upd_eq by lia; exact Gv|]. repeat split; intros; lia.
  - cbn [Z.ltb Z.compare andb]. assert (BB : forall i, i < length (t_socks t) -> (0 + (n_waves - 1 - 0)) * npw * s_bpf (nth i (t_socks t) sock0) <= length (s_mem (nth i (t_socks t) sock0))).
    { intros i Hi. destruct (R i Hi) as (_ & B & _). cbv zeta in B. assert ((0 + (n_waves - 1 - 0)) * npw <= n_frames) by nia. eapply Nat.le_trans; [|exact B]. apply Nat.mul_le_mono_r. assumption. }
    destruct (waves_ok npw codelet G (t_socks t) HF P0 (n_waves - 1 - 0) 0 t1 0%Z) as (t2 & w' & last' & -> & R2 & I2 & A1 & A2 & A3 & A4 & A5 & A6 & A7 & A8 & A9); [exact I1|exact BB|lia|]. cbn [bind]. rewrite Nat.sub_0_r in A3.
    destruct (Z.eqb_spec last' STOP) as [Es|Es].
    + destruct (restore_ok G (t_socks t) P0 _ t2 I2) as (t3 & E3 & I3 & P3 & S3 & M3 & C3). cbn [bind]. cbn [t1 t_socks]. rewrite E3. cbn [bind]. exists t3, w'. split; [reflexivity|].
      assert (0 < w') by (destruct (Nat.eq_dec w' 0) as [->|]; [rewrite (A2 eq_refl) in Es; discriminate Es|lia]).
      split; [lia|]. split; [apply inv_computed; [|intros i Hi; rewrite P3, P0 by exact Hi; reflexivity]; destruct I3 as [L3 I3]; split; [exact L3|]; intros i Hi; eapply rel_ext; [|apply I3; exact Hi]; intros f _; cbn beta; destruct (Nat.ltb_spec f (w' * npw)); destruct (Nat.ltb_spec f n_frames); cbn [andb]; try reflexivity; nia|].
      split; [rewrite C3; exact A3|]. rewrite S3. split; [intros v Hv; apply A7; lia|]. split; [intros v Hv Hv'; rewrite A5 by lia; apply U1; exact Hv'|]. split; [intros v Hv; apply A8; lia|]. intros _. rewrite A6 by lia. exact Es.
    + assert (w' = n_waves - 1) as ->. { destruct (Nat.eq_dec w' (n_waves - 1)); [assumption|]. exfalso. apply Es. apply A1. lia. }
      assert (NS : forall v, v + 1 < n_waves -> nth v (t_status t2) 0%Z <> STOP). { intros v Hv. destruct (Nat.eq_dec (v + 2) n_waves) as [E|NE]; [|apply A8; lia]. replace v with (n_waves - 1 - 1) by lia. rewrite A6 by lia. exact Es. }
      assert (FIN : forall t3 st, Inv G (t_socks t) (fun f => (f <? n_waves * npw) && (f <? n_frames)) (t_socks t3) -> t_status t3 = upd (t_status t2) (n_waves - 1) st -> t_calls t3 = t_calls t2 ++ [(n_waves - 1) * npw] -> gives codelet ((n_waves - 1) * npw) st ->
        exists t' e, (t <- map_socks_out (fun p : ptr * tsock => Ret (set_ptr (fst p) (snd p))) (map s_ptr (t_socks t)) t3 ;; Ret (t, true)) = Ret (t', true) /\ 1 <= e <= n_waves /\
          computed G n_frames (fun f => (f <? e * npw) && (f <? n_frames)) t t' /\ t_calls t' = t_calls t ++ map (fun v => v * npw) (seq 0 e) /\
          (forall v, v < e -> gives codelet (v * npw) (nth v (t_status t') 0%Z)) /\ (forall v, e <= v -> v < n_waves -> nth v (t_status t') 0%Z = UNKNOWN) /\
          (forall v, v + 1 < e -> nth v (t_status t') 0%Z <> STOP) /\ (e < n_waves -> nth (e - 1) (t_status t') 0%Z = STOP)).
      { intros t3 st I3 S3 C3 Gv. destruct (restore_ok G (t_socks t) P0 _ t3 I3) as (t4 & E4 & I4 & P4 & S4 & M4 & C4). rewrite E4. cbn [bind]. exists t4, n_waves. split; [reflexivity|]. split; [lia|].
        split; [apply inv_computed; [exact I4|intros i Hi; rewrite P4, P0 by exact Hi; reflexivity]|].
        split; [rewrite C4, C3, A3, <- app_assoc; f_equal; replace n_waves with (n_waves - 1 + 1) at 3 by lia; rewrite seq_app, map_app; reflexivity|].
        rewrite S4, S3. split; [intros v Hv; destruct (Nat.eq_dec v (n_waves - 1)) as [->|NE]; [rewrite nth_upd_eq by lia; exact Gv|rewrite nth_upd_neq by lia; apply A7; lia]|].
        split; [intros; lia|]. split; [intros v Hv; rewrite nth_upd_neq by lia; apply NS; exact Hv|intros; lia]. }
      destruct (Nat.eqb_spec rest 0) as [E0|E0].
      * destruct (to_wave_ok npw G (t_socks t) P0 _ t2 (n_waves - 1) I2) as (t3 & E3 & I3 & P3 & S3 & M3 & C3). cbn [t1 t_socks]. rewrite E3. cbn [bind].
        destruct (call_ext npw codelet G (t_socks t) HF _ t3 (n_waves - 1) ((n_waves - 1) * npw) ((n_waves - 1) * npw) I3) as (t4 & st & E4 & I4 & P4 & S4 & C4 & Gv).
        { intros i Hi. split; [apply P3; exact Hi|]. destruct (R i Hi) as (_ & B & _). cbv zeta in B. replace ((n_waves - 1) * npw + npw) with n_frames by (rewrite <- W4 by exact E0; nia). exact B. } { rewrite S3. lia. }
        rewrite E4. cbn [bind]. apply (FIN t4 st); [|rewrite S4, S3; reflexivity|rewrite C4, C3; reflexivity|exact Gv].
        destruct I4 as [L4 I4]. split; [exact L4|]. intros i Hi. eapply rel_ext; [|apply I4; exact Hi]. intros f _. cbn beta. specialize (W4 E0). replace ((n_waves - 1) * npw + npw) with n_frames by nia. rewrite W4, andb_diag. destruct (Nat.ltb_spec f ((n_waves - 1) * npw)); destruct (Nat.leb_spec ((n_waves - 1) * npw) f); destruct (Nat.ltb_spec f n_frames); cbn [orb andb]; try reflexivity; nia.
      * destruct (W5 E0) as [Er Np]. destruct (through_buf npw codelet G (t_socks t) HF P0 _ t2 (n_waves - 1) ((n_waves - 1) * npw) ((n_waves - 1) * npw) rest 0 I2) as (t3 & st & E3 & I3 & S3 & C3 & Gv).
        { intros i Hi. destruct (R i Hi) as (_ & B1 & B2). split; [|apply B2; exact Np]. cbv zeta in B1. replace ((n_waves - 1) * npw + rest) with n_frames by nia. exact B1. } { nia. } { lia. }
        rewrite <- Er. cbn [t1 t_socks]. rewrite E3. cbn [bind]. apply (FIN t3 st); [|exact S3|exact C3|exact Gv].
        destruct I3 as [L3 I3]. split; [exact L3|]. intros i Hi. eapply rel_ext; [|apply I3; exact Hi]. intros f _. cbn beta. replace ((n_waves - 1) * npw + rest) with n_frames by nia. destruct (Nat.ltb_spec f ((n_waves - 1) * npw)); destruct (Nat.leb_spec ((n_waves - 1) * npw) f); destruct (Nat.ltb_spec f n_frames); destruct (Nat.ltb_spec f (n_waves * npw)); cbn [orb andb]; try reflexivity; nia.
Qed.

(** a codelet that never stops: every frame is computed *)
Theorem C41_every_frame : forall (t : tstate M) managed, framewise npw (shape_of (t_socks t)) codelet G -> (forall m fid vs, snd (codelet m fid vs) <> Some STOP) -> ready n_frames npw n_waves t ->
  exists t', exec n_frames npw n_waves rest codelet t (-1) managed = Ret (t', true) /\ computed G n_frames (fun f => f <? n_frames) t t' /\ t_calls t' = t_calls t ++ map (fun v => v * npw) (seq 0 n_waves).
Proof.
  intros t managed HF NS R. destruct (C41_all t managed HF R) as (t' & e & E & He & C & K & Gv & _ & _ & S). assert (e = n_waves) as ->.
  { destruct (Nat.eq_dec e n_waves); [assumption|]. exfalso. specialize (S ltac:(lia)). destruct (Gv (e - 1) ltac:(lia)) as (m & vs & X). rewrite S in X. exact (NS _ _ _ X). }
  exists t'. split; [exact E|]. split; [|exact K]. destruct C as [L C]. split; [exact L|]. intros i Hi. specialize (C i Hi). cbv zeta in *. destruct C as (c1 & c2 & c3 & c4 & c5 & c6 & c7). do 6 (split; [assumption|]). intros O f Hf. rewrite (c7 O f Hf).
  destruct n_waves_bounds as (_ & _ & W3 & _). destruct (Nat.ltb_spec f n_frames); [|rewrite andb_false_r; reflexivity]. replace (f <? n_waves * npw) with true by (symmetry; apply Nat.ltb_lt; lia). reflexivity.
Qed.

(** *** C41: one frame, with the memory of the task *)
Theorem C41_one : forall (t : tstate M) f, framewise npw (shape_of (t_socks t)) codelet G -> ready n_frames npw n_waves t -> (Z.of_nat n_frames < 2 ^ 31)%Z -> 0 < f < n_frames ->
  exists t' st, exec n_frames npw n_waves rest codelet t (Z.of_nat f) true = Ret (t', true) /\ computed G n_frames (fun g => g =? f) t t' /\ t_calls t' = t_calls t ++ [f / npw * npw] /\ gives codelet (f / npw * npw) st /\
    nth (f / npw) (t_status t') 0%Z = st /\ (forall v, v < n_waves -> v <> f / npw -> nth v (t_status t') 0%Z = UNKNOWN).
Proof.
  intros t f HF [RS R] N31 Hf. destruct n_waves_bounds as (W1 & W2 & W3 & W4 & W5).
  assert (FW : f / npw < n_waves) by (apply Nat.div_lt_upper_bound; lia). pose proof (Nat.div_mod f npw ltac:(lia)) as DM. pose proof (Nat.mod_upper_bound f npw ltac:(lia)) as MU.
  unfold exec. rewrite Z.mod_small by lia. replace (Z.of_nat n_frames <=? Z.of_nat f)%Z with false by (symmetry; apply Z.leb_gt; lia). rewrite andb_false_r. cbn [negb guard bind]. unfold exec_. replace (length (t_status t) <? n_waves) with false by (symmetry; apply Nat.ltb_ge; exact RS). cbv zeta. cbn [t_socks].
  set (t1 := mkTask _ (t_socks t) (tab n_waves (fun _ => UNKNOWN) ++ skipn n_waves (t_status t)) (t_mod t) (t_calls t)).
  assert (L1 : length (t_status t1) = length (t_status t)) by (cbn [t1 t_status]; rewrite app_length, length_tab, skipn_length; lia).
  assert (U1 : forall v, v < n_waves -> nth v (t_status t1) 0%Z = UNKNOWN) by (intros v Hv; cbn [t1 t_status]; rewrite app_nth1 by (rewrite length_tab; exact Hv); apply nth_tab; exact Hv).
  assert (I1 : Inv G (t_socks t) (fun _ => false) (t_socks t1)) by apply inv_none.
  assert (P0 : forall i, i < length (t_socks t) -> s_ptr (nth i (t_socks t) sock0) = Ext 0) by (intros i Hi; apply R; exact Hi).
  unfold direct. cbn [negb]. rewrite andb_false_l. replace (Z.of_nat f =? -1)%Z with false by (symmetry; apply Z.eqb_neq; lia). replace (Z.of_nat f =? 0)%Z with false by (symmetry; apply Z.eqb_neq; lia). cbn [andb orb]. replace (0 <? Z.of_nat f)%Z with true by (symmetry; apply Z.ltb_lt; lia). cbn [andb]. rewrite Nat2Z.id.
  assert (FIN : forall t3 st, Inv G (t_socks t) (fun g => g =? f) (t_socks t3) -> t_status t3 = upd (t_status t1) (f / npw) st -> t_calls t3 = t_calls t1 ++ [f / npw * npw] -> gives codelet (f / npw * npw) st ->
    exists t' st, (t <- map_socks_out (fun p : ptr * tsock => Ret (set_ptr (fst p) (snd p))) (map s_ptr (t_socks t)) t3 ;; Ret (t, true)) = Ret (t', true) /\ computed G n_frames (fun g => g =? f) t t' /\ t_calls t' = t_calls t ++ [f / npw * npw] /\ gives codelet (f / npw * npw) st /\
      nth (f / npw) (t_status t') 0%Z = st /\ (forall v, v < n_waves -> v <> f / npw -> nth v (t_status t') 0%Z = UNKNOWN)).
  { intros t3 st I3 S3 C3 Gv. destruct (restore_ok G (t_socks t) P0 _ t3 I3) as (t4 & E4 & I4 & P4 & S4 & M4 & C4). rewrite E4. cbn [bind]. exists t4, st. split; [reflexivity|].
    split; [apply inv_computed; [exact I4|intros i Hi; rewrite P4, P0 by exact Hi; reflexivity]|]. split; [rewrite C4, C3; reflexivity|]. split; [exact Gv|]. rewrite S4, S3. split; [apply nth_upd_eq; lia|]. intros v Hv NE. rewrite nth_upd_neq by lia. apply U1. exact Hv. }
  destruct (Nat.ltb_spec 1 npw) as [Np|Np].
  - rewrite (Nat.mod_small f n_frames) by lia. destruct (through_buf npw codelet G (t_socks t) HF P0 _ t1 (f / npw) (f / npw * npw) f 1 (f mod npw) I1) as (t3 & st & E3 & I3 & S3 & C3 & Gv).
    { intros i Hi. destruct (R i Hi) as (_ & B1 & B2). split; [|apply B2; exact Np]. cbv zeta in B1. eapply Nat.le_trans; [|exact B1]. apply Nat.mul_le_mono_r. lia. } { lia. } { lia. }
    rewrite E3. cbn [bind]. apply (FIN t3 st); [|exact S3|exact C3|exact Gv]. destruct I3 as [L3 I3]. split; [exact L3|]. intros i Hi. eapply rel_ext; [|apply I3; exact Hi]. intros g _. cbn beta. destruct (Nat.leb_spec f g); destruct (Nat.ltb_spec g (f + 1)); destruct (Nat.eqb_spec g f); cbn [orb andb]; try reflexivity; lia.
  - assert (npw = 1) as E1 by lia. assert (n_waves = n_frames) by nia. replace (Z.of_nat f <? 0)%Z with false by (symmetry; apply Z.ltb_ge; lia). rewrite (Nat.mod_small f n_waves) by lia. replace (S f - 1 - f) with 0 by lia. cbn [waves bind]. replace (0 =? STOP)%Z with false by reflexivity.
    assert (R0 : rest = 0) by (rewrite Hrest, E1; apply Nat.mod_1_r). rewrite R0. cbn [Nat.eqb].
    destruct (to_wave_ok npw G (t_socks t) P0 _ t1 f I1) as (t3 & E3 & I3 & P3 & S3 & M3 & C3). rewrite E3. cbn [bind].
    destruct (call_ext npw codelet G (t_socks t) HF _ t3 f (f * npw) (f * npw) I3) as (t4 & st & E4 & I4 & P4 & S4 & C4 & Gv).
    { intros i Hi. split; [apply P3; exact Hi|]. destruct (R i Hi) as (_ & B & _). cbv zeta in B. eapply Nat.le_trans; [|exact B]. apply Nat.mul_le_mono_r. nia. } { rewrite S3. lia. }
    rewrite E4. cbn [bind]. assert (FD : f / npw = f) by (rewrite E1; apply Nat.div_1_r). apply (FIN t4 st); [|rewrite FD, S4, S3; reflexivity|rewrite FD, C4, C3; reflexivity|rewrite FD; exact Gv].
    destruct I4 as [L4 I4]. split; [exact L4|]. intros i Hi. eapply rel_ext; [|apply I4; exact Hi]. intros g _. cbn beta. rewrite E1. rewrite Nat.mul_1_r. destruct (Nat.leb_spec f g); destruct (Nat.ltb_spec g (f + 1)); destruct (Nat.eqb_spec g f); cbn [orb andb]; try reflexivity; lia.
Qed.

(** *** C41, refuted for the frame 0: the whole first wave is computed *)
Theorem C41_zero_refuted : forall (t : tstate M) managed, framewise npw (shape_of (t_socks t)) codelet G -> ready n_frames npw n_waves t -> managed = true \/ npw <= n_frames ->
  exists t', exec n_frames npw n_waves rest codelet t 0 managed = Ret (t', true) /\ computed G n_frames (fun f => (f <? npw) && (f <? n_frames)) t t'.
Proof.
  intros t managed HF [RS R] HM. destruct n_waves_bounds as (W1 & W2 & W3 & W4 & W5).
  unfold exec. rewrite Z.mod_0_l by lia. replace (Z.of_nat n_frames <=? 0)%Z with false by (symmetry; apply Z.leb_gt; lia). rewrite andb_false_r. cbn [negb guard bind]. unfold exec_. replace (length (t_status t) <? n_waves) with false by (symmetry; apply Nat.ltb_ge; exact RS). cbv zeta. cbn [t_socks].
  set (t1 := mkTask _ (t_socks t) (tab n_waves (fun _ => UNKNOWN) ++ skipn n_waves (t_status t)) (t_mod t) (t_calls t)).
  assert (L1 : length (t_status t1) = length (t_status t)) by (cbn [t1 t_status]; rewrite app_length, length_tab, skipn_length; lia).
  assert (I1 : Inv G (t_socks t) (fun _ => false) (t_socks t1)) by apply inv_none.
  assert (P0 : forall i, i < length (t_socks t) -> s_ptr (nth i (t_socks t) sock0) = Ext 0) by (intros i Hi; apply R; exact Hi).
  destruct (direct n_frames npw n_waves rest 0 managed) eqn:ED.
  - assert (NP : npw <= n_frames). { destruct HM as [->|]; [|assumption]. unfold direct in ED. cbn [negb andb orb Z.eqb] in ED. destruct (Nat.eqb_spec npw 1); [lia|]. destruct (Nat.ltb_spec 1 n_waves); [nia|]. destruct (Nat.eqb_spec rest 0); [|discriminate ED]. specialize (W4 e). nia. }
    replace (0 =? -1)%Z with false by reflexivity. change (Z.to_nat 0) with 0. rewrite Nat.mod_0_l, Nat.div_0_l by lia.
    destruct (call_ext npw codelet G (t_socks t) HF _ t1 0 0 0 I1) as (t2 & st & E & I2 & P2 & S2 & C2 & Gv). { intros i Hi. cbn [t1 t_socks]. rewrite (P0 i Hi). split; [reflexivity|]. destruct (R i Hi) as (_ & B & _). cbn [Nat.add]. cbv zeta in B. eapply Nat.le_trans; [|exact B]. apply Nat.mul_le_mono_r. exact NP. } { lia. }
    exists t2. split; [exact E|]. apply inv_computed; [|intros i Hi; rewrite <- !(map_nth s_ptr); rewrite P2; reflexivity]. destruct I2 as [L2 I2]. split; [exact L2|]. intros i Hi. eapply rel_ext; [|apply I2; exact Hi]. intros f _. cbn beta. cbn [Nat.leb Nat.add andb orb]. destruct (Nat.ltb_spec f npw); destruct (Nat.ltb_spec f n_frames); cbn [andb]; try reflexivity; lia.
  - assert (NW : n_waves = 1 /\ rest <> 0). { unfold direct in ED. replace (0 =? -1)%Z with false in ED by reflexivity. replace (0 =? 0)%Z with true in ED by reflexivity. cbn [andb] in ED. apply orb_false_iff in ED. destruct ED as [ED E4]. apply orb_false_iff in ED. destruct ED as [ED E3]. apply Nat.eqb_neq in E4. apply Nat.ltb_ge in E3. split; [lia|exact E4]. }
    destruct NW as [NW E0]. destruct (W5 E0) as [Er Np]. cbn [Z.ltb Z.compare andb]. rewrite NW. change (Z.to_nat 0) with 0. rewrite Nat.mod_1_r. cbn [Nat.sub waves bind]. replace (0 =? STOP)%Z with false by reflexivity. replace (rest =? 0) with false by (symmetry; apply Nat.eqb_neq; exact E0). rewrite NW in Er. cbn [Nat.sub Nat.mul] in *. 
    destruct (through_buf npw codelet G (t_socks t) HF P0 _ t1 0 0 0 rest 0 I1) as (t3 & st & E3 & I3 & S3 & C3 & Gv).
    { intros i Hi. destruct (R i Hi) as (_ & B1 & B2). split; [|apply B2; exact Np]. cbv zeta in B1. rewrite Er, Nat.sub_0_r. exact B1. } { nia. } { lia. }
    rewrite <- Er. rewrite E3. cbn [bind]. destruct (restore_ok G (t_socks t) P0 _ t3 I3) as (t4 & E4 & I4 & P4 & S4 & M4 & C4). rewrite E4. cbn [bind]. exists t4. split; [reflexivity|]. apply inv_computed; [|intros i Hi; rewrite P4, P0 by exact Hi; reflexivity].
    destruct I4 as [L4 I4]. split; [exact L4|]. intros i Hi. eapply rel_ext; [|apply I4; exact Hi]. intros f _. cbn beta. cbn [Nat.leb Nat.add andb orb]. rewrite Er, Nat.sub_0_r. destruct (Nat.ltb_spec f npw); destruct (Nat.ltb_spec f n_frames); cbn [andb]; try reflexivity; lia.
Qed.

(** a frame outside of the range is refused *)
Theorem C41_range : forall (t : tstate M) f managed, (f < -1 \/ Z.of_nat n_frames <= f)%Z -> (- 2 ^ 31 <= f < 2 ^ 31)%Z -> (Z.of_nat n_frames < 2 ^ 31)%Z -> exec n_frames npw n_waves rest codelet t f managed = Throws.
Proof.
  intros t f managed H B N31. unfold exec. replace (f =? -1)%Z with false by (symmetry; apply Z.eqb_neq; lia). replace (Z.of_nat n_frames <=? f mod 2 ^ 64)%Z with true; [reflexivity|]. symmetry. apply Z.leb_le. destruct (Z.ltb_spec f 0).
  - replace (f mod 2 ^ 64)%Z with (f + 2 ^ 64)%Z; [lia|]. rewrite <- (Z.mod_small (f + 2 ^ 64) (2 ^ 64)) by lia. rewrite <- (Z_mod_plus_full f 1 (2 ^ 64)). f_equal.
  - rewrite Z.mod_small by lia. lia.
Qed.
End Final.

(** ** C79: exceptions *)
(** the codelet that throws at the frame a *)
Definition throwing {M} (a : nat) (codelet : M -> nat -> list (list Z) -> M * list (list Z) * option Z) : M -> nat -> list (list Z) -> M * list (list Z) * option Z :=
  fun m fid vs => if fid =? a then (m, vs, None) else codelet m fid vs.

Lemma waves_app : forall M npw (codelet : M -> nat -> list (list Z) -> M * list (list Z) * option Z) init k1 k2 v (t : tstate M) last,
  waves npw codelet (k1 + k2) v init t last = ' (t, w, last, ok) <- waves npw codelet k1 v init t last ;; if ok then waves npw codelet k2 w init t last else Ret (t, w, last, false).
Proof.
  induction k1 as [|k1 IH]; intros k2 v t last; cbn [Nat.add waves bind]; [reflexivity|]. destruct (last =? STOP)%Z eqn:E; [cbn [bind]; destruct k2; cbn [waves]; rewrite ?E; reflexivity|].
  destruct (map_socks_out (to_wave npw v) init t) as [t1| |]; cbn [bind]; try reflexivity. destruct (call_codelet npw codelet t1 v (v * npw)) as [[t2 ok]| |]; cbn [bind]; try reflexivity. destruct ok; [|reflexivity]. destruct (rd (t_status t2) v) as [st| |]; cbn [bind]; try reflexivity. apply IH.
Qed.
Lemma call_throwing : forall M npw (codelet : M -> nat -> list (list Z) -> M * list (list Z) * option Z) a (t : tstate M) w fid, fid <> a -> call_codelet npw (throwing a codelet) t w fid = call_codelet npw codelet t w fid.
Proof. intros. unfold call_codelet, throwing. replace (fid =? a) with false by (symmetry; apply Nat.eqb_neq; assumption). reflexivity. Qed.
Lemma waves_throwing : forall M npw (codelet : M -> nat -> list (list Z) -> M * list (list Z) * option Z) init a k v (t : tstate M) last, 0 < npw -> v + k <= a -> waves npw (throwing (a * npw) codelet) k v init t last = waves npw codelet k v init t last.
Proof.
  induction k as [|k IH]; intros v t last Hn H; cbn [waves]; [reflexivity|]. destruct (last =? STOP)%Z; [reflexivity|]. destruct (map_socks_out (to_wave npw v) init t) as [t1| |]; cbn [bind]; try reflexivity. rewrite call_throwing by nia. destruct (call_codelet npw codelet t1 v (v * npw)) as [[t2 ok]| |]; cbn [bind]; try reflexivity. destruct ok; [|reflexivity]. destruct (rd (t_status t2) v) as [st| |]; cbn [bind]; try reflexivity. apply IH; [exact Hn|lia].
Qed.
Lemma map2_id : forall A B C (f : A -> B -> C) (g : A -> B) (h : A -> C) l, map2 f l (map g l) = map (fun x => f x (g x)) l.
Proof. induction l as [|x l IH]; cbn [map map2]; [reflexivity|]. rewrite IH. reflexivity. Qed.
Lemma same_sizes : forall vs, forallb (fun b => b) (map2 same_size vs vs) = true.
Proof. induction vs as [|v vs IH]; cbn [map2 forallb]; [reflexivity|]. unfold same_size at 1. rewrite Nat.eqb_refl. exact IH. Qed.
Lemma store_ptr : forall s v, s_ptr (store s v) = s_ptr s.
Proof. intros s v. unfold store. destruct (s_in s); [reflexivity|]. destruct (s_ptr s) eqn:E; cbn [s_ptr]; congruence. Qed.
Lemma call_thrown : forall M npw (codelet : M -> nat -> list (list Z) -> M * list (list Z) * option Z) a (t : tstate M) w, forallb (fits npw) (t_socks t) = true ->
  exists t', call_codelet npw (throwing a codelet) t w a = Ret (t', false) /\ length (t_socks t') = length (t_socks t) /\ map s_ptr (t_socks t') = map s_ptr (t_socks t) /\ t_status t' = t_status t.
Proof.
  intros M npw codelet a t w F. unfold call_codelet, throwing. rewrite F, Nat.eqb_refl, Nat.eqb_refl, same_sizes. cbn [andb]. eexists. split; [reflexivity|]. cbn [t_socks t_status]. split; [rewrite length_map2; rewrite ?map_length; reflexivity|]. split; [|reflexivity].
  rewrite (map2_id _ _ _ _ _ (fun s => s)). rewrite map_map. apply map_ext. intros s. apply store_ptr.
Qed.

(** refuted: an exception in the wave w >= 1 leaves every pointer on this wave, so that the task is no more ready *)
Theorem C79_refuted : forall M n_frames npw n_waves rest (codelet : M -> nat -> list (list Z) -> M * list (list Z) * option Z) G (t : tstate M) managed w,
  0 < npw -> npw < n_frames -> n_waves = (n_frames + npw - 1) / npw -> rest = n_frames mod npw ->
  framewise npw (shape_of (t_socks t)) codelet G -> (forall m fid vs, snd (codelet m fid vs) <> Some STOP) -> ready n_frames npw n_waves t -> 1 <= w -> (w + 1) * npw <= n_frames ->
  exists t', exec n_frames npw n_waves rest (throwing (w * npw) codelet) t (-1) managed = Ret (t', false) /\ length (t_socks t') = length (t_socks t) /\
    forall i, i < length (t_socks t) -> s_ptr (nth i (t_socks t') sock0) = Ext (w * npw * s_bpf (nth i (t_socks t) sock0)).
Proof.
  intros M n_frames npw n_waves rest codelet G t managed w Hp Hlt Hnw Hrest HF NS [RS R] Hw1 Hw2.
  destruct (n_waves_bounds n_frames npw n_waves rest ltac:(lia) Hp Hnw Hrest) as (W1 & W2 & W3 & W4 & W5).
  assert (WN : w < n_waves) by nia.
  unfold exec. replace (negb (-1 =? -1)%Z) with false by reflexivity. cbn [andb negb guard bind]. unfold exec_. replace (length (t_status t) <? n_waves) with false by (symmetry; apply Nat.ltb_ge; exact RS). cbv zeta. cbn [t_socks].
  set (t1 := mkTask _ (t_socks t) (tab n_waves (fun _ => UNKNOWN) ++ skipn n_waves (t_status t)) (t_mod t) (t_calls t)).
  assert (L1 : length (t_status t1) = length (t_status t)) by (cbn [t1 t_status]; rewrite app_length, length_tab, skipn_length; lia).
  assert (I1 : Inv G (t_socks t) (fun f => f <? 0 * npw) (t_socks t1)) by apply inv_none.
  assert (P0 : forall i, i < length (t_socks t) -> s_ptr (nth i (t_socks t) sock0) = Ext 0) by (intros i Hi; apply R; exact Hi).
  unfold direct. cbn [Z.leb Z.compare]. rewrite andb_false_r. replace (-1 =? -1)%Z with true by reflexivity. replace (-1 =? 0)%Z with false by reflexivity. replace (npw =? n_frames) with false by (symmetry; apply Nat.eqb_neq; lia). cbn [andb orb Z.ltb Z.compare].
  destruct (waves_ok npw codelet G (t_socks t) HF P0 w 0 t1 0%Z) as (t2 & w' & last' & E2 & R2 & I2 & A1 & A2 & A3 & A4 & A5 & A6 & A7 & A8 & A9); [exact I1| |lia|].
  { intros i Hi. cbn beta. destruct (R i Hi) as (_ & B & _). cbv zeta in B. eapply Nat.le_trans; [|exact B]. apply Nat.mul_le_mono_r. nia. }
  assert (NL : last' <> STOP). { intros ->. destruct (Nat.eq_dec w' 0) as [->|NE]; [specialize (A2 eq_refl); discriminate A2|]. destruct (A7 (w' - 1)) as (m & vs & X); [lia|lia|]. rewrite A6 in X by lia. exact (NS _ _ _ X). }
  assert (w' = w) as ->. { destruct (Nat.eq_dec w' w); [assumption|]. exfalso. apply NL. apply A1. lia. }
  destruct (to_wave_ok npw G (t_socks t) P0 _ t2 w I2) as (t3 & E3 & I3 & P3 & S3 & M3 & C3).
  assert (F3 : forallb (fits npw) (t_socks t3) = true). { destruct I3 as [L3 I3]. apply (forallb_nth _ _ _ sock0). intros i Hi. rewrite L3 in Hi. unfold fits. rewrite P3 by exact Hi. destruct (I3 i Hi) as (_ & -> & -> & _). apply Nat.leb_le. destruct (R i Hi) as (_ & B & _). cbv zeta in B. nia. }
  destruct (call_thrown M npw codelet (w * npw) t3 w F3) as (t4 & E4 & L4 & P4 & S4).
  assert (FIN : length (t_socks t4) = length (t_socks t) /\ forall i, i < length (t_socks t) -> s_ptr (nth i (t_socks t4) sock0) = Ext (w * npw * s_bpf (nth i (t_socks t) sock0))).
  { destruct I3 as [L3 _]. split; [lia|]. intros i Hi. rewrite <- (map_nth s_ptr), P4, map_nth. apply P3. exact Hi. }
  destruct (Nat.eq_dec w (n_waves - 1)) as [Ew|Ew].
  - replace (n_waves - 1 - 0) with w by lia. rewrite waves_throwing by lia. rewrite E2. cbn [bind]. replace (last' =? STOP)%Z with false by (symmetry; apply Z.eqb_neq; exact NL).
    assert (R0 : rest = 0). { destruct (Nat.eq_dec rest 0) as [|NE]; [assumption|]. destruct (W5 NE) as [X _]. pose proof (Nat.mod_upper_bound n_frames npw ltac:(lia)). nia. }
    rewrite R0. cbn [Nat.eqb]. cbn [t1 t_socks]. rewrite E3. cbn [bind]. rewrite E4. cbn [bind]. exists t4. split; [reflexivity|exact FIN].
  - replace (n_waves - 1 - 0) with (w + (1 + (n_waves - 2 - w))) by lia. rewrite waves_app. rewrite waves_throwing by lia. rewrite E2. cbn [bind]. cbn [Nat.add waves]. replace (last' =? STOP)%Z with false by (symmetry; apply Z.eqb_neq; exact NL). cbn [t1 t_socks]. rewrite E3. cbn [bind]. rewrite E4. cbn [bind]. exists t4. split; [reflexivity|exact FIN].
Qed.

(** a single wave: the exception leaves the sockets ready, so that the next execution computes every frame *)
Theorem C79_partial : forall M n_frames (codelet : M -> nat -> list (list Z) -> M * list (list Z) * option Z) G (t : tstate M) managed,
  0 < n_frames -> framewise n_frames (shape_of (t_socks t)) codelet G -> (forall m fid vs, snd (codelet m fid vs) <> Some STOP) -> ready n_frames n_frames 1 t ->
  exists t' t'', exec n_frames n_frames 1 0 (throwing 0 codelet) t (-1) managed = Ret (t', false) /\ exec n_frames n_frames 1 0 codelet t' (-1) managed = Ret (t'', true) /\ computed G n_frames (fun f => f <? n_frames) t' t''.
Proof.
  intros M n_frames codelet G t managed Hn HF NS [RS R].
  assert (E1 : exists t', exec n_frames n_frames 1 0 (throwing 0 codelet) t (-1) managed = Ret (t', false) /\ length (t_status t') = length (t_status t) /\ length (t_socks t') = length (t_socks t) /\ forall i, i < length (t_socks t) -> let s := nth i (t_socks t) sock0 in let s' := nth i (t_socks t') sock0 in s_in s' = s_in s /\ s_bpf s' = s_bpf s /\ s_ptr s' = s_ptr s /\ length (s_mem s') = length (s_mem s) /\ length (s_buf s') = length (s_buf s)).
  { unfold exec. replace (negb (-1 =? -1)%Z) with false by reflexivity. cbn [andb negb guard bind]. unfold exec_. replace (length (t_status t) <? 1) with false by (symmetry; apply Nat.ltb_ge; exact RS). cbv zeta. cbn [t_socks].
    unfold direct. cbn [Z.leb Z.compare]. rewrite andb_false_r. replace (-1 =? -1)%Z with true by reflexivity. replace (-1 =? 0)%Z with false by reflexivity. rewrite Nat.eqb_refl. cbn [andb orb]. change (Z.to_nat 0) with 0. rewrite Nat.mod_0_l, Nat.div_0_l by lia.
    unfold call_codelet, throwing. cbn [t_socks]. replace (forallb (fits n_frames) (t_socks t)) with true by (symmetry; apply (forallb_nth _ _ _ sock0); intros i Hi; unfold fits; destruct (R i Hi) as (-> & B & _); apply Nat.leb_le; exact B).
    rewrite !Nat.eqb_refl, same_sizes. cbn [andb]. eexists. split; [reflexivity|]. cbn [t_socks t_status]. split; [rewrite app_length, length_tab, skipn_length; lia|]. split; [rewrite length_map2; rewrite ?map_length; reflexivity|].
    intros i Hi. cbv zeta. rewrite (map2_id _ _ _ _ _ (fun s => s)). rewrite (nth_indep _ sock0 (store sock0 (view n_frames sock0))) by (rewrite map_length; exact Hi). rewrite (map_nth (fun x => store x (view n_frames x))). set (s := nth i (t_socks t) sock0).
    destruct (R i Hi) as (Ps & B & _). fold s in Ps, B. unfold store, view. rewrite Ps. destruct (s_in s) eqn:Es; [rewrite Es, Ps; auto|]. cbn [s_in s_bpf s_ptr s_mem s_buf]. repeat split; try congruence. rewrite length_splice; [reflexivity|]. rewrite length_slice by exact B. exact B. }
  destruct E1 as (t' & E1 & L1 & N1 & Q). assert (SH : shape_of (t_socks t') = shape_of (t_socks t)).
  { apply (list_eq_nth _ (true, 0)); [unfold shape_of; rewrite !map_length; exact N1|]. intros i Hi. unfold shape_of in Hi. rewrite map_length, N1 in Hi. rewrite !nth_shape. cbn beta. destruct (Q i Hi) as (-> & -> & _). reflexivity. }
  assert (D1 : 1 = (n_frames + n_frames - 1) / n_frames) by (symmetry; replace (n_frames + n_frames - 1) with (1 * n_frames + (n_frames - 1)) by lia; rewrite Nat.div_add_l by lia; rewrite Nat.div_small by lia; reflexivity).
  destruct (C41_every_frame n_frames n_frames 1 0 codelet G Hn Hn D1 ltac:(symmetry; apply Nat.mod_same; lia) t' managed) as (t'' & E2 & C2 & _).
  - rewrite SH. exact HF.
  - exact NS.
  - split; [lia|]. rewrite N1. intros i Hi. destruct (Q i Hi) as (q1 & q2 & q3 & q4 & q5). cbv zeta in *. rewrite q2, q3, q4, q5. apply R. exact Hi.
  - exists t', t''. auto.
Qed.

(** ** Example: two bytes of input and one of output per frame, five frames by waves of two *)
Fixpoint xors (l : list Z) : list Z := match l with a :: b :: l => Z.lxor a b :: xors l | _ => [] end.
Definition ex_codelet (m : nat) (fid : nat) (vs : list (list Z)) : nat * list (list Z) * option Z := match vs with [a; b] => (S m, [a; xors a], Some 0%Z) | _ => (m, vs, Some 0%Z) end.
Definition ex_G (i : nat) (vs : list (list Z)) : list Z := match vs with [a] => xors a | _ => [] end.
Definition ex_task : tstate nat := mkTask _ [mkSock true 2 [1; 2; 3; 4; 5; 6; 7; 8; 9; 10]%Z [0; 0; 0; 0]%Z (Ext 0); mkSock false 1 [0; 0; 0; 0; 0]%Z [0; 0]%Z (Ext 0)] [0; 0; 0]%Z 0 [].
Lemma ex_framewise : framewise 2 (shape_of (t_socks ex_task)) ex_codelet ex_G.
Proof.
  intros m fid vs L H. cbn [length shape_of t_socks ex_task map] in *. destruct vs as [|a [|c [|? ?]]]; try discriminate L. pose proof (H 0 ltac:(lia)) as H0. pose proof (H 1 ltac:(lia)) as H1. cbn [nth snd s_in s_bpf Nat.mul Nat.add] in H0, H1. destruct a as [|a0 [|a1 [|a2 [|a3 [|? ?]]]]]; try discriminate H0. destruct c as [|c0 [|c1 [|? ?]]]; try discriminate H1.
  exists (S m), [[a0; a1; a2; a3]; [Z.lxor a0 a1; Z.lxor a2 a3]], 0%Z. split; [reflexivity|]. split; [reflexivity|]. intros [|[|i]] Hi; try lia.
  - split; [reflexivity|]. cbn. discriminate.
  - split; [reflexivity|]. intros _ [|[|k]] Hk; try lia; reflexivity.
Qed.
Lemma ex_ready : ready 5 2 3 ex_task.
Proof. split; [apply Nat.le_refl|]. intros [|[|i]] Hi; cbn in Hi; try lia; cbn; repeat split; lia. Qed.
Example C41_example : match exec 5 2 3 1 ex_codelet ex_task (-1) true with Ret (t', ok) => ok = true /\ map s_mem (t_socks t') = [[1; 2; 3; 4; 5; 6; 7; 8; 9; 10]; [3; 7; 3; 15; 3]]%Z /\ t_calls t' = [0; 2; 4] | _ => False end.
Proof. vm_compute. auto. Qed.
Example C41_one_example : match exec 5 2 3 1 ex_codelet ex_task 3 true with Ret (t', ok) => ok = true /\ map s_mem (t_socks t') = [[1; 2; 3; 4; 5; 6; 7; 8; 9; 10]; [0; 0; 0; 15; 0]]%Z | _ => False end.
Proof. vm_compute. auto. Qed.
(** exec(0) computes the frame 1 too *)
Example C41_zero_example : match exec 5 2 3 1 ex_codelet ex_task 0 true with Ret (t', ok) => ok = true /\ map s_mem (t_socks t') = [[1; 2; 3; 4; 5; 6; 7; 8; 9; 10]; [3; 7; 0; 0; 0]]%Z | _ => False end.
Proof. vm_compute. auto. Qed.
(** after the exception, the same task reads out of its memory *)
Example C79_example : match exec 5 2 3 1 (throwing 2 ex_codelet) ex_task (-1) true with Ret (t', ok) => ok = false /\ map s_ptr (t_socks t') = [Ext 4; Ext 2] /\ exec 5 2 3 1 ex_codelet t' (-1) true = Undef | _ => False end.
Proof. vm_compute. auto. Qed.
