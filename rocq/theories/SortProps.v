(** C50: the tournament sorter returns the K smallest values. *)
From Coq Require Import List Arith Lia Bool ZArith.
From Verif Require Import Base WLoops SortModel SortProofs.
Import ListNotations.

(** ** Specification *)
(** The first K elements of [pos] are K different indices below n, in non-decreasing order of their values, and the
    values of the other indices are not below them. *)
Definition k_smallest (values : list Z) (n : nat) (pos : list nat) (K : nat) : Prop :=
  (forall i, i < K -> nth i pos 0 < n) /\
  (forall i j, i < j < K -> nth i pos 0 <> nth j pos 0 /\ (nth (nth i pos 0%nat) values 0 <= nth (nth j pos 0%nat) values 0)%Z) /\
  (forall x, x < n -> (forall i, i < K -> nth i pos 0 <> x) -> forall i, i < K -> (nth (nth i pos 0%nat) values 0 <= nth x values 0)%Z).

(** The number of values, among the first n, below the largest value of the type *)
Definition below (mx : Z) (values : list Z) (n : nat) : nat := length (filter (fun x => (x <? mx)%Z) (firstn n values)).

(** The sorters of a program: new ones, and those left by any calls (whatever the arguments) *)
Inductive sorter_of (mx : Z) : sorter -> Prop :=
| of_new : forall m s, new_sorter m = Ret s -> sorter_of mx s
| of_sort : forall s values pos n K s' pos', sorter_of mx s -> partial_sort mx s values pos n K = Ret (s', pos') -> sorter_of mx s'
| of_destr : forall s values pos n K s' v' pos', sorter_of mx s -> partial_sort_destructive mx s values pos n K = Ret (s', v', pos') -> sorter_of mx s'.

(** The arguments that are used: the whole of pos when K <= 0, max_elmts when n_elmts <= 0 *)
Definition real_K (pos : list nat) (K : Z) : nat := if (K <=? 0)%Z then length pos else Z.to_nat K.
Definition real_n (s : sorter) (n : Z) : nat := if (n <=? 0)%Z then s_max s else Z.to_nat n.

Lemma sorter_of_ok : forall mx s, sorter_of mx s -> sorter_ok s.
Proof.
  intros mx s H. induction H as [m s H|s v pos n K s' pos' _ IH H|s v pos n K s' v' pos' _ IH H].
  - destruct m as [|m]; [discriminate|]. destruct (new_sorter_ok (S m) ltac:(lia)) as (s' & E & O & _). rewrite E in H. injection H as <-. exact O.
  - exact (sort_keeps _ _ _ _ _ _ _ _ IH H).
  - exact (destructive_keeps _ _ _ _ _ _ _ _ _ IH H).
Qed.

Lemma in_firstn : forall (l : list nat) k x, k <= length l -> (In x (firstn k l) <-> exists i, i < k /\ nth i l 0 = x).
Proof.
  intros l k x L. split.
  - intros H. apply (In_nth _ _ 0) in H. destruct H as (i & Hi & E). rewrite firstn_length in Hi. exists i. split; [lia|]. rewrite firstn_nth in E by lia. exact E.
  - intros (i & Hi & <-). rewrite <- (firstn_nth _ l k i 0) by exact Hi. apply nth_In. rewrite firstn_length. lia.
Qed.

Lemma sel_k_smallest : forall dep v pos K, K <= length pos -> (forall i, i < K -> sel dep v pos i) -> k_smallest v (2 ^ dep) pos K.
Proof.
  intros dep v pos K LP S. split; [intros i Hi; apply (S i Hi)|]. split.
  - intros i j Hij. destruct (S i ltac:(lia)) as (A1 & A2 & A3), (S j ltac:(lia)) as (B1 & B2 & B3). split.
    + intros E. apply B2. apply in_firstn; [lia|]. exists i. split; [lia|exact E].
    + apply A3; [exact B1|]. intros H. apply B2. apply in_firstn in H; [|lia]. destruct H as (t & Ht & E). apply in_firstn; [lia|]. exists t. split; [lia|exact E].
  - intros x Hx NX i Hi. destruct (S i Hi) as (A1 & A2 & A3). apply A3; [exact Hx|]. intros H. apply in_firstn in H; [|lia]. destruct H as (t & Ht & E). apply (NX t); [lia|exact E].
Qed.

Lemma below_seq : forall mx v n, n <= length v -> below mx v n = length (filter (fun x => (nth x v 0 <? mx)%Z) (seq 0 n)).
Proof.
  intros mx v n L. unfold below. assert (E : firstn n v = map (fun x => nth x v 0%Z) (seq 0 n)).
  { apply (list_eq_nth _ 0%Z); [rewrite firstn_length, map_length, seq_length; lia|]. intros i Hi. rewrite firstn_length in Hi. rewrite firstn_nth by lia.
    rewrite (nth_indep (map (fun x => nth x v 0%Z) (seq 0 n)) 0%Z (nth 0 v 0%Z)) by (rewrite map_length, seq_length; lia). rewrite (map_nth (fun x => nth x v 0%Z)), seq_nth by lia. reflexivity. }
  rewrite E. generalize (seq 0 n) as l. induction l as [|x l IH]; [reflexivity|]. cbn [map filter]. destruct (nth x v 0 <? mx)%Z; cbn [length]; rewrite IH; reflexivity.
Qed.

(** ** Theorems *)
(** n is a power of two, at least 2. When K is not 2, at least K values are below the largest value of the type. *)
Theorem C50_destructive : forall mx s values pos n K dep, sorter_of mx s -> 1 <= dep -> real_n s n = 2 ^ dep -> 1 <= real_K pos K -> real_K pos K <= 2 ^ dep -> real_K pos K <= length pos -> 2 ^ dep <= length values ->
  (real_K pos K = 2 \/ real_K pos K <= below mx values (2 ^ dep)) ->
  exists s' values' pos', partial_sort_destructive mx s values pos n K = Ret (s', values', pos') /\ length pos' = length pos /\
    k_smallest values (2 ^ dep) pos' (real_K pos K) /\ skipn (real_K pos K) pos' = skipn (real_K pos K) pos.
Proof.
  intros mx s values pos n K dep SO HD HN K1 KN KP LV HB. apply sorter_of_ok in SO. unfold partial_sort_destructive. destruct (prepare_ok s pos n K SO) as (s1 & E & (S1 & S2 & S3 & S4) & SM). rewrite E. cbn [bind].
  fold (real_n s n) in SM. change (arg_n s n) with (real_n s n) in *. change (arg_K pos K) with (real_K pos K). rewrite HN in *. rewrite Nat.log2_pow2 by lia. set (k := real_K pos K) in *.
  assert (MX : 2 ^ dep <= s_max s1) by lia. destruct (step1_ok (s_max s1) dep HD MX values pos (s_tree s1) LV ltac:(lia)) as (t1 & E1 & T1 & L1). { split; [lia|exact S3]. }
  rewrite E1. cbn [bind]. destruct (Nat.eqb_spec k 2) as [K2|K2].
  - destruct (step2_2_ok (s_max s1) dep HD MX values (upd pos 0 (nth (off (s_max s1) dep dep) t1 0)) t1 LV) as (pos' & t2 & E2 & LP & LT & B & SL & SK); [rewrite length_upd; lia|exact T1|rewrite nth_upd_eq by lia; reflexivity|].
    rewrite E2. cbn [bind]. eexists. exists values, pos'. split; [reflexivity|]. rewrite length_upd in LP. split; [exact LP|]. rewrite K2 in *. split; [apply sel_k_smallest; [lia|exact SL]|]. rewrite SK. apply skipn_upd_lt. lia.
  - destruct HB as [HB|HB]; [contradiction|]. rewrite below_seq in HB by lia.
    destruct (step2_ok (s_max s1) dep HD MX mx values (upd pos 0 (nth (off (s_max s1) dep dep) t1 0)) k t1 LV) as (v' & pos' & t2 & E2 & LV' & LP & LT & B & SL & SK); [rewrite length_upd; lia|lia|exact HB|exact T1|rewrite nth_upd_eq by lia; reflexivity|].
    rewrite E2. cbn [bind]. eexists. exists v', pos'. split; [reflexivity|]. rewrite length_upd in LP. split; [exact LP|]. split; [apply sel_k_smallest; [lia|exact SL]|]. rewrite SK. apply skipn_upd_lt. lia.
Qed.

Theorem C50_sort : forall mx s values pos n K dep, sorter_of mx s -> 1 <= dep -> real_n s n = 2 ^ dep -> 1 <= real_K pos K -> real_K pos K <= 2 ^ dep -> real_K pos K <= length pos -> 2 ^ dep <= length values ->
  (real_K pos K = 2 \/ real_K pos K <= below mx values (2 ^ dep)) ->
  exists s' pos', partial_sort mx s values pos n K = Ret (s', pos') /\ length pos' = length pos /\
    k_smallest values (2 ^ dep) pos' (real_K pos K) /\ skipn (real_K pos K) pos' = skipn (real_K pos K) pos.
Proof.
  intros mx s values pos n K dep SO HD HN K1 KN KP LV HB. apply sorter_of_ok in SO. unfold partial_sort. destruct (prepare_ok s pos n K SO) as (s1 & E & (S1 & S2 & S3 & S4) & SM). rewrite E. cbn [bind].
  change (arg_n s n) with (real_n s n) in *. change (arg_K pos K) with (real_K pos K). rewrite HN in *. rewrite Nat.log2_pow2 by lia. set (k := real_K pos K) in *.
  assert (MX : 2 ^ dep <= s_max s1) by lia. destruct (step1_ok (s_max s1) dep HD MX values pos (s_tree s1) LV ltac:(lia)) as (t1 & E1 & T1 & L1). { split; [lia|exact S3]. }
  rewrite E1. cbn [bind]. destruct (Nat.eqb_spec k 2) as [K2|K2].
  - destruct (step2_2_ok (s_max s1) dep HD MX values (upd pos 0 (nth (off (s_max s1) dep dep) t1 0)) t1 LV) as (pos' & t2 & E2 & LP & LT & B & SL & SK); [rewrite length_upd; lia|exact T1|rewrite nth_upd_eq by lia; reflexivity|].
    rewrite E2. cbn [bind]. eexists. exists pos'. split; [reflexivity|]. rewrite length_upd in LP. split; [exact LP|]. rewrite K2 in *. split; [apply sel_k_smallest; [lia|exact SL]|]. rewrite SK. apply skipn_upd_lt. lia.
  - destruct HB as [HB|HB]; [contradiction|]. rewrite below_seq in HB by lia.
    match goal with |- context [for_ ?c ?body (s_vals s1)] => destruct (for_inv _ (fun x w => length w = length (s_vals s1) /\ forall i, i < x -> nth i w 0%Z = nth i values 0%Z) c body (s_vals s1)) as (w & EW & LW & IW) end.
    + split; [reflexivity|]. intros i Hi. lia.
    + intros i w Hi (LW & IW). rewrite (rd_ok _ 0%Z) by lia. cbn [bind]. rewrite wr_ok by lia. eexists. split; [reflexivity|]. split; [rewrite length_upd; exact LW|]. intros j Hj. rewrite nth_upd by lia. destruct (Nat.eqb_spec j i) as [->|]; [reflexivity|apply IW; lia].
    + rewrite EW. cbn [bind]. assert (T1' : tree_ok (s_max s1) dep w any (all_to dep) t1).
      { destruct T1 as (TL & TB & TN). split; [exact TL|]. split; [exact TB|]. intros i j Hi Hj O. destruct (TN i j Hi Hj O) as (N1 & N2 & N3 & N4). split; [exact N1|]. split; [exact N2|]. split; [exact N3|]. intros x Hx EX AX. rewrite !IW by assumption. apply N4; assumption. }
      destruct (step2_ok (s_max s1) dep HD MX mx w (upd pos 0 (nth (off (s_max s1) dep dep) t1 0)) k t1 ltac:(lia)) as (v' & pos' & t2 & E2 & LV' & LP & LT & B & SL & SK); [rewrite length_upd; lia|lia| |exact T1'|rewrite nth_upd_eq by lia; reflexivity|].
      { erewrite filter_ext_in; [exact HB|]. intros x Hx. apply in_seq in Hx. rewrite IW by lia. reflexivity. }
      rewrite E2. cbn [bind]. eexists. exists pos'. split; [reflexivity|]. rewrite length_upd in LP. split; [exact LP|]. split.
      * apply sel_k_smallest; [lia|]. intros i Hi. destruct (SL i Hi) as (A1 & A2 & A3). split; [exact A1|]. split; [exact A2|]. intros x Hx NX. specialize (A3 x Hx NX). rewrite !IW in A3 by assumption. exact A3.
      * rewrite SK. apply skipn_upd_lt. lia.
Qed.

(** A sorter may be made for every size. *)
Theorem C50_new : forall mx m, 1 <= m -> exists s, new_sorter m = Ret s /\ sorter_of mx s /\ s_max s = m.
Proof. intros mx m H. destruct (new_sorter_ok m H) as (s & E & _ & M). exists s. split; [exact E|]. split; [exact (of_new mx m s E)|exact M]. Qed.

(** With fewer than K values below the largest one, the same index comes out twice, even if its value is the smallest. *)
Theorem C50_max_refuted : exists s pos', new_sorter 4 = Ret s /\ below 127 [127; 127; 127; 5]%Z 4 = 1 /\ (' (_, pos) <- partial_sort 127 s [127; 127; 127; 5]%Z [0; 0; 0] 4 3 ;; Ret pos) = Ret pos' /\ pos' = [3; 3; 3].
Proof. eexists. eexists. repeat split; vm_compute; reflexivity. Qed.
(** When n is not a power of two, the last values are not looked at. *)
Theorem C50_size_refuted : exists s pos', new_sorter 3 = Ret s /\ (' (_, pos) <- partial_sort 127 s [5; 4; 1]%Z [0] 3 1 ;; Ret pos) = Ret pos' /\ pos' = [1].
Proof. eexists. eexists. repeat split; vm_compute; reflexivity. Qed.

(** ** Examples *)
Example C50_example : (s <- new_sorter 8 ;; ' (s, _, p1) <- partial_sort_destructive 127 s [9; 3; 7; 3; 1; 8; 2; 6]%Z [0; 0; 0; 0; 55] 0 4 ;; ' (_, p2) <- partial_sort 127 s [4; 4; 127; 2]%Z [0; 0; 0] 4 3 ;; Ret (p1, p2)) = Ret ([4; 6; 3; 1; 55], [3; 1; 0]).
Proof. vm_compute. reflexivity. Qed.
Example C50_example_2 : (s <- new_sorter 2 ;; ' (_, p) <- partial_sort 127 s [127; 127; 127; 127]%Z [0; 0] 4 2 ;; Ret p) = Ret [3; 2].
Proof. vm_compute. reflexivity. Qed.
