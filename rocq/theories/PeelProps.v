(** C35: the peeling decoder. *)
From Coq Require Import List Arith Lia Bool ZArith.
From Verif Require Import Base SparseModel SparseSpec SparseProofs LDPCSpec LDPCProofs HardModel HardProofs HardProps PeelModel PeelSpec PeelProofs.
Import ListNotations.

Definition proper (UNK : Z) : Prop := UNK <> 0%Z /\ UNK <> 1%Z.

Lemma known_erased : forall UNK Y v, known UNK Y v = negb (erased UNK Y v).
Proof. reflexivity. Qed.

Lemma n_unknown_erased : forall UNK N Y, n_unknown N UNK Y = n_erased UNK N Y.
Proof. intros. unfold n_unknown, n_erased. f_equal. apply filter_ext. intros v. rewrite known_erased. apply negb_involutive. Qed.

Lemma val : forall UNK N x V v, proper UNK -> received UNK N x V -> v < N -> (known UNK V v = true <-> nth v V 0%Z = bitz (x v)) /\ (known UNK V v = false <-> nth v V 0%Z = UNK).
Proof.
  intros UNK N x V v [U0 U1] R Hv. pose proof (known_val N x UNK V v R Hv) as K. unfold known in *. destruct (Z.eqb_spec (nth v V 0%Z) UNK) as [E|E]; cbn [negb] in *.
  - split; split; intros; try congruence. rewrite E in H. destruct (x v); cbn in H; congruence.
  - split; split; intros; try congruence.
Qed.

(** The decoded word: received positions are kept, the others are the transmitted bits or still unknown; success implies that
    every variable of a check is known; the status is the negation of the success flag. *)
Theorem C35_sound : forall (UNK : Z) (N M : nat) (h : nat -> nat -> bool) (H : sparse) (x : nat -> bool) (Y : list Z) (n_ite : nat) (synd : bool) (md : nat), proper UNK -> sp_is H N M h -> in_code N M h x -> received UNK N x Y -> 0 < n_ite ->
  exists (V : list Z) (d : bool), peel_hiho_cw UNK false N H n_ite synd md Y = Ret (V, d, if d then 0%Z else 1%Z) /\ length V = N /\
    (forall v, v < N -> nth v V 0%Z = UNK \/ nth v V 0%Z = bitz (x v)) /\
    (forall v, v < N -> nth v Y 0%Z = bitz (x v) -> nth v V 0%Z = bitz (x v)) /\
    (d = true -> forall v c, v < N -> c < M -> h v c = true -> nth v V 0%Z = bitz (x v)).
Proof.
  intros UNK N M h H x Y n_ite synd md U S C R Hi. apply sp_is_ok in S. destruct (decode_ok N M h x UNK U C Y R H n_ite synd md S Hi) as (V & d & E & (RV & Mono & _) & Hd & _).
  exists V, d. unfold peel_hiho_cw. pose proof (proj1 R) as L. rewrite <- L, Nat.leb_refl. cbn [bind]. rewrite firstn_all, E. cbn [bind]. rewrite L. split; [destruct d; reflexivity|].
  split; [apply RV|]. split; [apply RV|]. split.
  - intros v Hv E1. apply (val UNK N x V v U RV Hv). apply Mono; [exact Hv|]. apply (val UNK N x Y v U R Hv). exact E1.
  - intros D v c Hv Hc Hh. apply (val UNK N x V v U RV Hv). apply (Hd D v c Hv Hc Hh).
Qed.

(** With more iterations than erasures: what stays unknown is exactly what belongs to a stopping set of erased positions (whatever
    the transmitted codeword), and the decoder succeeds exactly when every variable of a check is known. *)
Theorem C35_complete : forall (UNK : Z) (N M : nat) (h : nat -> nat -> bool) (H : sparse) (x : nat -> bool) (Y : list Z) (n_ite : nat) (synd : bool) (md : nat), proper UNK -> sp_is H N M h -> in_code N M h x -> received UNK N x Y -> n_erased UNK N Y < n_ite ->
  exists (V : list Z) (d : bool), peel_hiho_cw UNK false N H n_ite synd md Y = Ret (V, d, if d then 0%Z else 1%Z) /\
    (forall v, v < N -> (nth v V 0%Z = UNK <-> stuck UNK N M h Y v)) /\
    (d = true <-> forall v c, v < N -> c < M -> h v c = true -> ~ stuck UNK N M h Y v).
Proof.
  intros UNK N M h H x Y n_ite synd md U S C R Hi. apply sp_is_ok in S. destruct (decode_ok N M h x UNK U C Y R H n_ite synd md S) as (V & d & E & (RV & Mono & Stop) & Hd & B); [lia|].
  rewrite n_unknown_erased in B. destruct (B Hi) as [B1 B2].
  assert (Q : forall v, v < N -> (known UNK V v = false <-> stuck UNK N M h Y v)).
  { intros v Hv. split.
    - intros K. exists (fun v => negb (known UNK V v)). split; [exact B1|]. split; [|rewrite K; reflexivity]. intros u Hu Hk. apply negb_true_iff in Hk.
      destruct (erased UNK Y u) eqn:Er; [reflexivity|]. assert (K2 : known UNK Y u = true) by (rewrite known_erased, Er; reflexivity). rewrite (Mono u Hu K2) in Hk. discriminate.
    - intros (St & HS & Sub & Sv). apply (Stop St v HS); [|exact Hv|exact Sv]. intros u Hu Su. rewrite known_erased, (Sub u Hu Su). reflexivity. }
  exists V, d. unfold peel_hiho_cw. pose proof (proj1 R) as L. rewrite <- L, Nat.leb_refl. cbn [bind]. rewrite firstn_all, E. cbn [bind]. rewrite L. split; [destruct d; reflexivity|].
  split; [intros v Hv; rewrite <- (Q v Hv); symmetry; apply (val UNK N x V v U RV Hv)|]. split.
  - intros D v c Hv Hc Hh St. apply Q in St; [|exact Hv]. rewrite (Hd D v c Hv Hc Hh) in St. discriminate.
  - intros D. apply B2. intros v c Hv Hc Hh. destruct (known UNK V v) eqn:K; [reflexivity|]. apply Q in K; [|exact Hv]. destruct (D v c Hv Hc Hh K).
Qed.

(** The information bits are those of the decoded word. *)
Theorem C35_info : forall (UNK : Z) (N M : nat) (h : nat -> nat -> bool) (H : sparse) (x : nat -> bool) (Y : list Z) (n_ite : nat) (synd : bool) (md : nat) (K : nat) (pos : list nat), proper UNK -> sp_is H N M h -> in_code N M h x -> received UNK N x Y -> 0 < n_ite ->
  length pos = K -> (forall p, In p pos -> p < N) ->
  exists (V : list Z) (d : bool), peel_hiho_cw UNK false N H n_ite synd md Y = Ret (V, d, if d then 0%Z else 1%Z) /\
    peel_hiho UNK false K N pos H n_ite synd md Y = Ret (map (fun p => nth p V 0%Z) pos, d, if d then 0%Z else 1%Z).
Proof.
  intros UNK N M h H x Y n_ite synd md K pos U S C R Hi LK HP. destruct (C35_sound UNK N M h H x Y n_ite synd md U S C R Hi) as (V & d & E & LV & _).
  exists V, d. split; [exact E|]. unfold peel_hiho. rewrite E. cbn [bind].
  match goal with |- context [for_ K ?body ?s0] => destruct (for_inv _ (fun i o => length o = K /\ forall k, k < i -> nth k o 0%Z = nth (nth k pos 0) V 0%Z) K body s0) as (o & Eo & Lo & Ho) end.
  - split; [apply repeat_length|]. intros; lia.
  - intros i o Hi' (Lo & Ho). rewrite (rd_ok _ 0) by lia. cbn [bind]. rewrite (rd_ok _ 0%Z) by (rewrite LV; apply HP, nth_In; lia). cbn [bind]. rewrite wr_ok by lia.
    eexists. split; [reflexivity|]. rewrite length_upd. split; [exact Lo|]. intros k Hk. destruct (Nat.eq_dec k i) as [-> | Hne]; [apply nth_upd_eq; lia|]. rewrite nth_upd_neq by auto. apply Ho. lia.
  - rewrite Eo. cbn [bind]. f_equal. f_equal. f_equal. apply (list_eq_nth _ 0%Z); [rewrite map_length; lia|]. intros k Hk. rewrite Ho by lia.
    rewrite (nth_indep (map _ pos) 0%Z (nth 0 V 0%Z)) by (rewrite map_length; lia). rewrite (map_nth (fun p => nth p V 0%Z)). reflexivity.
Qed.

(** Soft inputs, when the length is a multiple of the width of the registers: null LLRs are erasures. *)
Theorem C35_soft : forall (R : Type) (d0 : R) (lt0 sgn unk : R -> bool) UNK E N H n_ite synd md Y, 0 < E -> length Y = N -> N mod E = 0 ->
  (forall y, In y Y -> unk y = true \/ sgn y = lt0 y) ->
  peel_siho_cw UNK false R lt0 sgn unk E N H n_ite synd md Y = peel_hiho_cw UNK false N H n_ite synd md (map (fun y => if unk y then UNK else if lt0 y then 1%Z else 0%Z) Y).
Proof.
  intros R d0 lt0 sgn unk UNK E N H n_ite synd md Y HE L HM S. unfold peel_siho_cw, peel_hiho_cw. subst N. rewrite (C54_unknown_whole R d0) by (try assumption; apply repeat_length).
  rewrite map_length, Nat.leb_refl. cbn [bind]. rewrite <- (map_length (fun y => if unk y then UNK else if lt0 y then 1%Z else 0%Z) Y), firstn_all. reflexivity.
Qed.

(** Parity is not verified: a word without erasure is returned as it is, with success, codeword or not. *)
Definition one_check : sparse := mkSparse 2 1 1 2 2 [[0]; [0]] [[0; 1]].
Theorem C35_parity_not_checked : peel_hiho_cw 63 false 2 one_check 1 true 1 [1; 0]%Z = Ret ([1; 0]%Z, true, 0%Z).
Proof. reflexivity. Qed.

(** By the C++ standard the first erasure that is resolved reads a reference to an erased element. *)
Theorem C35_dangling_refuted : peel_hiho_cw 63 true 2 one_check 1 true 1 [1; 63]%Z = Undef /\ peel_hiho_cw 63 false 2 one_check 1 true 1 [1; 63]%Z = Ret ([1; 1]%Z, true, 0%Z).
Proof. split; reflexivity. Qed.

(** On 64 bits the unknown symbol is 0: the all-zero codeword, fully received, is reported as a failure. *)
Theorem C35_64_bits_refuted : peel_hiho_cw (unknown_symbol 64) false 2 one_check 10 true 1 [0; 0]%Z = Ret ([0; 0]%Z, false, 1%Z).
Proof. reflexivity. Qed.

Lemma one_check_is : sp_is one_check 2 1 (fun _ _ => true).
Proof.
  apply sp_is_ok. destruct (add_ok (sp_new 2 1) 2 1 (fun _ _ => false) 0 0 (new_ok 2 1)) as (M1 & E1 & O1); [lia|lia|reflexivity|].
  destruct (add_ok M1 2 1 _ 1 0 O1) as (M2 & E2 & O2); [lia|lia|reflexivity|].
  vm_compute in E1. injection E1 as <-. vm_compute in E2. injection E2 as <-. refine (sp_ok_ext _ _ _ _ _ _ O2). intros [|[|i]] [|j] Hi Hj; try lia; reflexivity.
Qed.

Example C35_example : sp_is one_check 2 1 (fun _ _ => true) /\ in_code 2 1 (fun _ _ => true) (fun _ => true) /\ received 63 2 (fun _ => true) [1; 63]%Z /\
  ~ stuck 63 2 1 (fun _ _ => true) [1; 63]%Z 1 /\ stuck 63 2 1 (fun _ _ => true) [63; 63]%Z 1.
Proof.
  split; [exact one_check_is|]. split; [intros [|c] Hc; [reflexivity|lia]|]. split; [split; [reflexivity|]; intros [|[|v]] Hv; cbn; auto; lia|]. split.
  - intros (S & HS & Sub & S1). apply (HS 0); [lia|]. cbn [filter seq]. assert (S0 : S 0 = false) by (destruct (S 0) eqn:E; [specialize (Sub 0 ltac:(lia) E); discriminate|reflexivity]). rewrite S0, S1. reflexivity.
  - exists (fun _ => true). split; [intros [|c] Hc; [discriminate|lia]|]. split; [|reflexivity]. intros [|[|u]] Hu _; [reflexivity|reflexivity|lia].
Qed.
