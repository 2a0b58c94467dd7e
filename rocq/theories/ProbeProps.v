(** C152 and C153: the reporter of probes. *)
From Coq Require Import List Arith Lia Bool.
From Verif Require Import Base ProbeModel ProbeSpec.
Import ListNotations.

Section P.
Variables (T : Type) (d : T) (S : nat).
Hypothesis S0 : 0 < S.

(** The ring r holds the queue q. *)
Definition place (t i : nat) : nat := if t + i <? S then t + i else t + i - S.
Definition holds (r : ring T) (q : list T) : Prop :=
  length (rb T r) = S /\ rh T r <= S /\ rt T r <= S /\ length q <= S /\ r_size T r = length q /\ forall i, i < length q -> nth (place (rt T r) i) (rb T r) d = nth i q d.

Lemma push_ok : forall x r q, holds r q -> length q < S -> S <> length q + 1 \/ rt T r = 0 -> exists r', r_push T x r = Ret (true, r') /\ holds r' (q ++ [x]) /\ rt T r' = rt T r.
Proof.
  intros x [b h t] q (LB & HH & HT & LQ & SZ & V) L C. unfold r_push. cbn [rb rh rt] in *. unfold holds, r_size in *. cbn [rb rh rt] in *. rewrite LB in *. rewrite SZ. destruct (Nat.leb_spec S (length q)); [lia|].
  set (w := if h =? S then 0 else h). assert (W : w < S /\ w = place t (length q)). { unfold w, place. destruct (Nat.eqb_spec h S), (Nat.leb_spec t h), (Nat.ltb_spec (t + length q) S); lia. }
  destruct W as [W1 W2]. rewrite wr_ok by lia. cbn [bind]. eexists. split; [reflexivity|]. cbn [rb rh rt]. split; [|reflexivity]. rewrite length_upd, app_length, LB. cbn [length]. split; auto.
  split; [destruct (Nat.eqb_spec h S); lia|]. split; auto. split; [lia|]. split.
  - destruct (Nat.eqb_spec h S), (Nat.leb_spec t h); match goal with |- context [?a <=? ?c] => destruct (Nat.leb_spec a c) end; lia.
  - intros i Hi. destruct (Nat.eq_dec i (length q)) as [->|NE].
    + rewrite <- W2, nth_upd_eq by lia. rewrite app_nth2, Nat.sub_diag by lia. reflexivity.
    + rewrite nth_upd_neq; [rewrite app_nth1 by lia; apply V; lia|]. rewrite W2. unfold place. destruct (Nat.ltb_spec (t + length q) S), (Nat.ltb_spec (t + i) S); lia.
Qed.
Lemma push_full : forall x r q, holds r q -> length q = S -> r_push T x r = Ret (false, r).
Proof. intros x r q (LB & _ & _ & _ & SZ & _) L. unfold r_push. rewrite LB, SZ, L, Nat.leb_refl. reflexivity. Qed.
Lemma pull_ok : forall r x q, holds r (x :: q) -> exists r', r_pull T r = Ret (Some x, r') /\ holds r' q /\ rt T r' <> 0.
Proof.
  intros [b h t] x q (LB & HH & HT & LQ & SZ & V). unfold r_pull. unfold holds, r_size in *. cbn [rb rh rt length] in *. rewrite LB in *. rewrite SZ. cbn [Nat.eqb]. assert (V0 := V 0 ltac:(lia)). cbn [nth] in V0. unfold place in V0. rewrite Nat.add_0_r in V0.
  assert (W : (if t =? S then 0 else t) = if t <? S then t else t - S) by (destruct (Nat.eqb_spec t S), (Nat.ltb_spec t S); lia). rewrite W. rewrite (rd_ok _ d) by (rewrite LB; destruct (Nat.ltb_spec t S); lia). rewrite V0. cbn [bind]. eexists. split; [reflexivity|]. cbn [rb rh rt]. split; [|destruct (Nat.eqb_spec t S); lia].
  split; auto. split; auto. split; [destruct (Nat.eqb_spec t S); lia|]. split; [lia|]. rewrite LB. split.
  - destruct (Nat.eqb_spec t S), (Nat.leb_spec t h); match goal with |- context [?a <=? ?c] => destruct (Nat.leb_spec a c) end; lia.
  - intros i Hi. specialize (V (Datatypes.S i) ltac:(lia)). cbn [nth] in V. rewrite <- V. f_equal. unfold place. destruct (Nat.eqb_spec t S), (Nat.ltb_spec (t + Datatypes.S i) S); match goal with |- context [?a <? ?c] => destruct (Nat.ltb_spec a c) end; lia.
Qed.
Lemma pull_empty : forall r, holds r [] -> r_pull T r = Ret (None, r).
Proof. intros r (_ & _ & _ & _ & SZ & _). unfold r_pull. rewrite SZ. reflexivity. Qed.
Lemma reset_ok : forall r q, holds r q -> holds (r_reset T r) [].
Proof. intros r q (LB & _). split; auto. split; [cbn; lia|]. split; [cbn; lia|]. split; [cbn; lia|]. split; [reflexivity|]. cbn [length]. intros; lia. Qed.
Lemma new_ok : forall b, length b = S -> holds (mkRing T b 0 0) [].
Proof. intros b L. split; auto. split; [cbn; lia|]. split; [cbn; lia|]. split; [cbn; lia|]. split; [reflexivity|]. cbn [length]. intros; lia. Qed.
Lemma run_ok : forall l r q p, holds r q -> (p = false -> rt T r = 0) -> calm T S l q p -> exists r', r_run T l r = Ret (fst (q_run T S l q), r') /\ holds r' (snd (q_run T S l q)) /\ ((forall x, In x l -> x <> Pull T) -> rt T r = 0 -> rt T r' = 0).
Proof.
  induction l as [|o l IH]; intros r q p H P C; [exists r; cbn; auto|]. cbn [calm] in C. destruct C as [C1 C2]. cbn [r_run q_run]. destruct o as [x| |]; cbn [r_step q_step] in *.
  - destruct (Nat.ltb_spec (length q) S) as [L|L].
    + cbn [snd] in *. rewrite app_length in C1. cbn [length] in C1. destruct (push_ok x r q H L) as (r1 & E & H1 & T1); [destruct C1; [left; lia|right; auto]|]. rewrite E. cbn [bind]. destruct (IH r1 (q ++ [x]) p H1) as (r' & E' & H' & T'); [rewrite T1; auto|auto|]. rewrite E'. destruct (q_run T S l (q ++ [x])) as [a q']. cbn [bind fst snd] in *. exists r'. split; auto. split; auto. intros NI Z. apply T'; [intros y Hy; apply NI; right; auto|lia].
    + assert (LQ : length q = S) by (destruct H as (_ & _ & _ & LQ & _); lia). rewrite (push_full x r q H LQ). cbn [bind snd] in *. destruct (IH r q p H P C2) as (r' & E' & H' & T'). rewrite E'. destruct (q_run T S l q) as [a q']. cbn [bind fst snd] in *. exists r'. split; auto. split; auto. intros NI Z. apply T'; auto. intros y Hy. apply NI. right. auto.
  - destruct q as [|x q]; cbn [hd_error tl snd] in *.
    + rewrite (pull_empty r H). cbn [bind]. destruct (IH r [] true H) as (r' & E' & H' & T'); [discriminate|auto|]. rewrite E'. destruct (q_run T S l []) as [a q']. cbn [bind fst snd] in *. exists r'. split; auto. split; auto. intros NI Z. apply T'; auto. intros y Hy. apply NI. right. auto.
    + destruct (pull_ok r x q H) as (r1 & E & H1 & _). rewrite E. cbn [bind]. destruct (IH r1 q true H1) as (r' & E' & H' & T'); [discriminate|auto|]. rewrite E'. destruct (q_run T S l q) as [a q']. cbn [bind fst snd] in *. exists r'. split; auto. split; auto. intros NI Z. exfalso. apply (NI (Pull T)); [left; auto|auto].
  - cbn [bind]. destruct (IH (r_reset T r) [] false (reset_ok r q H)) as (r' & E' & H' & T'); [reflexivity|auto|]. rewrite E'. cbn [snd]. destruct (q_run T S l []) as [a q']. cbn [bind fst snd] in *. exists r'. split; auto. split; auto. intros NI Z. apply T'; [|reflexivity]. intros y Hy. apply NI. right. auto.
Qed.

(** Every history that does not fill a column after something was taken: the column is a queue. *)
Theorem C152_queue : forall l b, length b = S -> calm T S l [] false -> exists r, r_run T l (mkRing T b 0 0) = Ret (fst (q_run T S l []), r).
Proof. intros l b L C. destruct (run_ok l (mkRing T b 0 0) [] false (new_ok b L)) as (r & E & _); auto. exists r. auto. Qed.
(** In particular a history where fewer than S values are ever unread. *)
Fixpoint below (l : list (op T)) (q : list T) : Prop := match l with [] => True | o :: l => length (snd (q_step T S o q)) < S /\ below l (snd (q_step T S o q)) end.
Theorem C152_below : forall l b, length b = S -> below l [] -> exists r, r_run T l (mkRing T b 0 0) = Ret (fst (q_run T S l []), r).
Proof.
  intros l b L B. apply C152_queue; auto. assert (G : forall l q p, below l q -> calm T S l q p). { clear. induction l as [|o l IH]; intros q p H; cbn [calm]; [exact I|]. destruct H as [H1 H2]. split; [destruct o; auto|apply IH; auto]. } apply G. auto.
Qed.
Lemma fill_calm : forall xs q, calm T S (map (Push T) xs) q false.
Proof. induction xs as [|x xs IH]; intros q; cbn [map calm]; auto. Qed.
Lemma fill_run : forall xs q, length q + length xs <= S -> q_run T S (map (Push T) xs) q = (map (fun _ => Pushed T true) xs, q ++ xs).
Proof.
  induction xs as [|x xs IH]; intros q L; cbn [map q_run q_step]; [rewrite app_nil_r; reflexivity|]. cbn [length] in L. destruct (Nat.ltb_spec (length q) S); [|lia]. rewrite IH by (rewrite app_length; cbn; lia). rewrite <- app_assoc. reflexivity.
Qed.
(** Refuted for the others: when a full column is read once and written once, all its S values are lost. *)
Theorem C152_full_refuted : forall x xs y b, length b = S -> length (x :: xs) = S ->
  exists r1 r2 r3, r_run T (map (Push T) (x :: xs)) (mkRing T b 0 0) = Ret (map (fun _ => Pushed T true) (x :: xs), r1) /\ r_pull T r1 = Ret (Some x, r2) /\ r_push T y r2 = Ret (true, r3) /\ r_pull T r3 = Ret (None, r3) /\
  fst (q_run T S [Push T y; Pull T] xs) = [Pushed T true; Pulled T (hd_error (xs ++ [y]))].
Proof.
  intros x xs y b LB LX. destruct (run_ok (map (Push T) (x :: xs)) (mkRing T b 0 0) [] false (new_ok b LB)) as (r1 & E1 & H1 & T1); [auto|apply fill_calm|]. rewrite fill_run in E1, H1 by (cbn [length] in *; lia). cbn [fst snd app] in E1, H1.
  assert (Z1 : rt T r1 = 0). { apply T1; auto. intros o Ho ->. apply in_map_iff in Ho. destruct Ho as (? & ? & _). discriminate. }
  destruct (pull_ok r1 x xs H1) as (r2 & E2 & H2 & N2). exists r1, r2.
  assert (SS : rh T r1 = S). { destruct H1 as (_ & HH & _ & _ & SZ & _). unfold r_size in SZ. rewrite Z1 in SZ. cbn [Nat.leb] in SZ. lia. }
  assert (SH : rh T r2 = S /\ rt T r2 = 1 /\ length (rb T r2) = S). { unfold r_pull in E2. destruct (r_size T r1 =? 0); [discriminate|]. destruct (rd _ _) eqn:ER; cbn [bind] in E2; try discriminate. inversion E2. subst r2. cbn [rb rh rt]. split; auto. destruct H1 as (L1 & _). rewrite L1, Z1. split; auto. destruct (Nat.eqb_spec 0 S); lia. }
  destruct SH as (A1 & A2 & A3). unfold r_push, r_size. rewrite A1, A2, A3. destruct (Nat.leb_spec 1 S); [|lia]. destruct (Nat.leb_spec S (S - 1)); [lia|]. rewrite Nat.eqb_refl. rewrite wr_ok by lia. cbn [bind].
  eexists. split; [exact E1|]. split; [exact E2|]. split; [reflexivity|]. split; [reflexivity|].
  cbn [q_run q_step]. cbn [length] in LX. destruct (Nat.ltb_spec (length xs) S); [|lia]. reflexivity.
Qed.
End P.

(** * C153: names and columns *)
Section N.
Variables (T : Type) (d : T).
(** After creating probes with different names (at most 101). *)
Fixpoint create_all (n_frames : nat) (names : list nat) (p : reporter T) : outcome (reporter T) :=
  match names with [] => Ret p | n :: names => p <- rp_create T d n_frames n p ;; create_all n_frames names p end.
Definition made (n_frames : nat) (names : list nat) : reporter T := mkRep T (combine names (seq 0 (length names))) (repeat (mkRing T (repeat d (n_frames * 100)) 0 0) (length names)).
Lemma find_none : forall names lo n, ~ In n names -> find (fun p => fst p =? n) (combine names (seq lo (length names))) = None.
Proof. induction names as [|a names IH]; intros lo n H; cbn [length seq combine find]; auto. cbn [fst]. destruct (Nat.eqb_spec a n) as [->|NE]; [exfalso; apply H; left; auto|]. apply IH. intros X. apply H. right. auto. Qed.
Lemma find_some : forall names lo c, NoDup names -> c < length names -> find (fun p => fst p =? nth c names 0) (combine names (seq lo (length names))) = Some (nth c names 0, lo + c).
Proof.
  induction names as [|a names IH]; intros lo c ND H; cbn [length] in H; [lia|]. inversion ND as [|? ? NI ND']. subst. cbn [length seq combine find]. cbn [fst]. destruct c as [|c]; cbn [nth]; [rewrite Nat.eqb_refl; do 2 f_equal; lia|]. destruct (Nat.eqb_spec a (nth c names 0)) as [E|NE]; [exfalso; apply NI; rewrite E; apply nth_In; lia|]. rewrite IH by (auto; lia). do 2 f_equal. lia.
Qed.
Lemma combine_snoc : forall (names : list nat) n lo, combine (names ++ [n]) (seq lo (length (names ++ [n]))) = combine names (seq lo (length names)) ++ [(n, lo + length names)].
Proof. induction names as [|a names IH]; intros n lo; cbn [app length seq combine]; [do 2 f_equal; lia|]. rewrite IH. do 4 f_equal. lia. Qed.
Theorem C153_create : forall n_frames names, NoDup names -> length names <= 101 -> create_all n_frames names (made n_frames []) = Ret (made n_frames names).
Proof.
  intros nf names ND L. assert (G : forall rest done, NoDup (done ++ rest) -> length (done ++ rest) <= 101 -> create_all nf rest (made nf done) = Ret (made nf (done ++ rest))).
  { induction rest as [|n rest IH]; intros done N LE; cbn [create_all]; [rewrite app_nil_r; reflexivity|]. unfold rp_create. cbn [made rp_map rp_cols]. unfold col_of. assert (NI : ~ In n done) by (apply NoDup_remove_2 in N; intros X; apply N, in_or_app; auto). rewrite find_none by auto. cbn [option_map]. rewrite repeat_length. rewrite app_length in LE. cbn [length] in LE. destruct (Nat.ltb_spec 100 (length done)); [lia|]. cbn [bind].
    assert (E : mkRep T (combine done (seq 0 (length done)) ++ [(n, length done)]) (repeat (mkRing T (repeat d (nf * 100)) 0 0) (length done) ++ [mkRing T (repeat d (nf * 100)) 0 0]) = made nf (done ++ [n])). { unfold made. rewrite combine_snoc. rewrite app_length. cbn [length]. rewrite repeat_app. reflexivity. }
    rewrite E. replace (done ++ n :: rest) with ((done ++ [n]) ++ rest) by (rewrite <- app_assoc; reflexivity). apply IH; rewrite <- app_assoc; cbn [app]; auto. rewrite app_length. cbn [length]. lia. }
  apply (G names []); auto.
Qed.
(** Up to 100 probes, a value is pushed in the column of its name and no other column changes. *)
Theorem C153_probe : forall (p : reporter T) names c x r r' b, NoDup names -> rp_map T p = combine names (seq 0 (length names)) -> length (rp_cols T p) = length names -> c < length names -> c < 100 ->
  nth c (rp_cols T p) r = r -> r_push T x r = Ret (b, r') -> rp_probe T (nth c names 0) x p = Ret (mkRep T (rp_map T p) (upd (rp_cols T p) c r')).
Proof.
  intros p names c x r r' b ND EM LC Hc H100 ER EP. unfold rp_probe, col_of. rewrite EM. rewrite find_some by auto. cbn [option_map snd Nat.add]. rewrite (rd_ok _ r) by lia. rewrite ER. cbn [bind]. rewrite (rd_ok _ tt) by (rewrite repeat_length; auto). cbn [bind]. rewrite EP. cbn [bind]. rewrite wr_ok by lia. reflexivity.
Qed.
(** A name is not used twice. *)
Theorem C153_twice : forall n_frames names c (p : reporter T), NoDup names -> rp_map T p = combine names (seq 0 (length names)) -> c < length names -> rp_create T d n_frames (nth c names 0) p = Throws.
Proof. intros nf names c p ND EM Hc. unfold rp_create, col_of. rewrite EM, find_some by auto. reflexivity. Qed.
(** Refuted: 101 probes are accepted, but using the last one reads after the mutexes. *)
Theorem C153_last_refuted : forall n_frames names x, NoDup names -> length names = 101 -> create_all n_frames names (made n_frames []) = Ret (made n_frames names) /\ rp_probe T (nth 100 names 0) x (made n_frames names) = Undef.
Proof.
  intros nf names x ND L. split; [apply C153_create; auto; lia|]. unfold rp_probe, col_of, made. cbn [rp_map rp_cols]. rewrite find_some by (auto; lia). cbn [option_map snd Nat.add]. rewrite (rd_ok _ (mkRing T [] 0 0)) by (rewrite repeat_length; lia). cbn [bind]. rewrite (rd_out _ (repeat tt 100)) by (rewrite repeat_length; lia). reflexivity.
Qed.
(** Refuted: a value with an unknown name is pushed in the first column, and the name can then not be created. *)
Theorem C153_unknown_refuted : forall n_frames (p : reporter T) names n x r r' b rest, rp_map T p = combine names (seq 0 (length names)) -> ~ In n names -> rp_cols T p = r :: rest -> r_push T x r = Ret (b, r') ->
  exists p', rp_probe T n x p = Ret p' /\ rp_cols T p' = r' :: rest /\ rp_create T d n_frames n p' = Throws.
Proof.
  intros nf p names n x r r' b rest EM NI EC EP. unfold rp_probe, col_of. rewrite EM, find_none by auto. cbn [option_map]. rewrite EC. change (rd (r :: rest) 0) with (Ret r). cbn [bind]. rewrite (rd_ok _ tt) by (rewrite repeat_length; lia). cbn [bind]. rewrite EP. cbn [bind]. eexists. split; [reflexivity|]. split; [reflexivity|].
  unfold rp_create, col_of. cbn [rp_map]. assert (F : forall l, find (fun q => fst q =? n) (l ++ [(n, 0)]) <> None). { induction l as [|a l IH]; cbn [app find fst]; [rewrite Nat.eqb_refl; discriminate|]. destruct (fst a =? n); [discriminate|auto]. }
  specialize (F (combine names (seq 0 (length names)))). destruct (find _ _); [reflexivity|contradiction].
Qed.
End N.

(** * The hypotheses are met *)
Example C152_meets : let l := [Push nat 4; Push nat 5; Pull nat; Push nat 6; Pull nat; Push nat 7; Pull nat; Pull nat; Pull nat] in calm nat 3 l [] false /\ below nat 3 l [] /\
  (' (a, _) <- r_run nat l (mkRing nat [0;0;0] 0 0) ;; Ret a) = Ret [Pushed nat true; Pushed nat true; Pulled nat (Some 4); Pushed nat true; Pulled nat (Some 5); Pushed nat true; Pulled nat (Some 6); Pulled nat (Some 7); Pulled nat None].
Proof. cbv zeta. split; [cbn; intuition lia|]. split; [cbn; intuition lia|]. vm_compute. reflexivity. Qed.
Example C153_meets : create_all nat 0 1 [8;3] (made nat 0 1 []) = Ret (made nat 0 1 [8;3]) /\ (p <- rp_probe nat 3 7 (made nat 0 1 [8;3]) ;; Ret (map (r_size nat) (rp_cols nat p))) = Ret [0;1].
Proof. split; vm_compute; reflexivity. Qed.
