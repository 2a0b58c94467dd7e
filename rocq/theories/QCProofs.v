(** Proofs about the QC files. *)
From Coq Require Import List Arith Lia Bool ZArith Ascii.
From Verif Require Import Base Copy GaloisModel SparseModel SparseSpec SparseProofs DVBS2Proofs AListModel AListSpec TextProofs AListProofs AListFile.
Import ListNotations.

Lemma pairs_add_ok : forall ps M n m f, sp_ok M n m f -> NoDup ps -> (forall i j, In (i, j) ps -> i < n /\ j < m /\ f i j = false) ->
  exists M', each ps (fun p M => sp_add M (fst p) (snd p)) M = Ret M' /\ sp_ok M' n m (fun i j => f i j || memp ps i j).
Proof.
  induction ps as [|[a b] ps IH]; intros M n m f Ok ND H; cbn [each].
  - exists M. split; [reflexivity|]. apply (sp_ok_ext M n m f); [|exact Ok]. intros. cbn. rewrite orb_false_r. reflexivity.
  - destruct (H a b (or_introl eq_refl)) as (Ha & Hb & Hf). destruct (add_ok M n m f a b Ok Ha Hb Hf) as (M1 & E1 & Ok1). cbn [fst snd]. rewrite E1. cbn [bind].
    inversion ND as [|? ? NI ND']; subst. destruct (IH M1 n m (setf f a b) Ok1 ND') as (M2 & E2 & Ok2).
    { intros i j Hij. destruct (H i j (or_intror Hij)) as (Hi & Hj & Hfij). repeat split; try assumption. unfold setf. rewrite Hfij.
      destruct (Nat.eqb_spec i a) as [-> | _]; [|reflexivity]. destruct (Nat.eqb_spec j b) as [-> | _]; [|reflexivity]. contradiction. }
    exists M2. split; [exact E2|]. apply (sp_ok_ext M2 n m (fun i j => setf f a b i j || memp ps i j)); [|exact Ok2]. intros. apply setf_or.
Qed.

Lemma at_3 : forall l a b c, numbers l [a; b; c] -> (- 2 ^ 31 <= a < 2 ^ 31)%Z -> (- 2 ^ 31 <= b < 2 ^ 31)%Z -> (- 2 ^ 31 <= c < 2 ^ 31)%Z ->
  @length text (split l) = 3 /\ at_i (split l) 0 = Ret a /\ at_i (split l) 1 = Ret b /\ at_i (split l) 2 = Ret c.
Proof.
  intros l a b c H Ha Hb Hc. destruct (numbers_split _ _ H) as [L _]. split; [exact L|]. repeat split.
  - rewrite (at_i_ok l _ 0 H); [reflexivity|cbn [length]; lia|exact Ha].
  - rewrite (at_i_ok l _ 1 H); [reflexivity|cbn [length]; lia|exact Hb].
  - rewrite (at_i_ok l _ 2 H); [reflexivity|cbn [length]; lia|exact Hc].
Qed.

Section QC.
Variables (n m z : nat) (base : list (list Z)).
Hypothesis Hn : 0 < n.
Hypothesis Hm : 0 < m.
Hypothesis Hz : 0 < z.
Hypothesis Hbn : (Z.of_nat n * Z.of_nat z < 2 ^ 32)%Z.
Hypothesis Hbm : (Z.of_nat m * Z.of_nat z < 2 ^ 32)%Z.
Hypothesis Hz31 : (Z.of_nat z < 2 ^ 31)%Z.
Hypothesis Hrange : forall i j, i < m -> j < n -> (-1 <= base_at base i j < 2 ^ 15)%Z.

Definition block (i j : nat) : list (nat * nat) :=
  let a := base_at base i j in
  if (a =? -1)%Z then [] else map (fun k => (i * z + k, j * z + (k + Z.to_nat a) mod z)) (seq 0 z).
Definition blocks : list (nat * nat) := flat_map (fun i => flat_map (fun j => block i j) (seq 0 n)) (seq 0 m).

Lemma block_in : forall i j r c, In (r, c) (block i j) <-> base_at base i j <> (-1)%Z /\ exists k, k < z /\ r = i * z + k /\ c = j * z + (k + Z.to_nat (base_at base i j)) mod z.
Proof.
  intros i j r c. unfold block. destruct (Z.eqb_spec (base_at base i j) (-1)) as [E|E].
  - split; [intros []|intros [H _]; contradiction].
  - rewrite in_map_iff. split.
    + intros (k & Ek & Hk). apply in_seq in Hk. injection Ek as <- <-. split; [exact E|]. exists k. repeat split; lia.
    + intros (_ & k & Hk & -> & ->). exists k. split; [reflexivity|]. apply in_seq. lia.
Qed.

Lemma divz : forall q k, k < z -> (q * z + k) / z = q /\ (q * z + k) mod z = k.
Proof. intros q k Hk. split; [rewrite Nat.div_add_l by lia; rewrite Nat.div_small by lia; lia|]. rewrite Nat.add_comm, Nat.mod_add by lia. apply Nat.mod_small. exact Hk. Qed.

Lemma block_pos : forall i j r c, In (r, c) (block i j) -> i = r / z /\ j = c / z.
Proof.
  intros i j r c H. apply block_in in H. destruct H as (_ & k & Hk & -> & ->). split; symmetry; apply divz; [exact Hk|]. apply Nat.mod_upper_bound. lia.
Qed.

Lemma blocks_in : forall r c, r < m * z -> c < n * z -> (In (r, c) blocks <-> qc_expand z base c r = true).
Proof.
  intros r c Hr Hc. unfold blocks, qc_expand. rewrite in_flat_map. rewrite andb_true_iff, negb_true_iff, Z.eqb_neq, Nat.eqb_eq.
  assert (D1 : r / z < m) by (apply Nat.div_lt_upper_bound; lia). assert (D2 : c / z < n) by (apply Nat.div_lt_upper_bound; lia).
  split.
  - intros (i & Hi & H). apply in_flat_map in H. destruct H as (j & Hj & H). pose proof (block_pos i j r c H) as [Ei Ej]. apply block_in in H.
    destruct H as (Ha & k & Hk & Er & Ec). rewrite <- Ei, <- Ej. split; [exact Ha|].
    pose proof (Nat.mod_upper_bound (k + Z.to_nat (base_at base i j)) z ltac:(lia)) as Hu. pose proof (proj2 (divz i k Hk)) as D3. pose proof (proj2 (divz j _ Hu)) as D4.
    rewrite <- Er in D3. rewrite <- Ec in D4. rewrite D3, D4. reflexivity.
  - intros (Ha & Hk). exists (r / z). split; [apply in_seq; lia|]. apply in_flat_map. exists (c / z). split; [apply in_seq; lia|]. apply block_in. split; [exact Ha|].
    exists (r mod z). split; [apply Nat.mod_upper_bound; lia|]. split; [rewrite (Nat.div_mod r z) at 1 by lia; lia|]. rewrite <- Hk. rewrite (Nat.div_mod c z) at 1 by lia. lia.
Qed.

Lemma block_bound : forall i j r c, i < m -> j < n -> In (r, c) (block i j) -> r < m * z /\ c < n * z.
Proof.
  intros i j r c Hi Hj H. apply block_in in H. destruct H as (_ & k & Hk & -> & ->).
  assert ((k + Z.to_nat (base_at base i j)) mod z < z) by (apply Nat.mod_upper_bound; lia). nia.
Qed.

Lemma blocks_nodup : NoDup blocks.
Proof.
  unfold blocks. apply nodup_flat; [apply seq_NoDup| |].
  - intros i Hi. apply nodup_flat; [apply seq_NoDup| |].
    + intros j Hj. unfold block. destruct (base_at base i j =? -1)%Z; [constructor|]. apply (NoDup_map_inv (fun p => fst p - i * z)). rewrite map_map.
      rewrite (map_ext _ (fun k => k)) by (intros; cbn [fst]; lia). rewrite map_id. apply seq_NoDup.
    + intros j j' [r c] _ _ H H'. apply block_pos in H. apply block_pos in H'. destruct H, H'. congruence.
  - intros i i' [r c] _ _ H H'. apply in_flat_map in H. apply in_flat_map in H'. destruct H as (j & _ & H). destruct H' as (j' & _ & H').
    apply block_pos in H. apply block_pos in H'. destruct H, H'. congruence.
Qed.

Lemma expand_ok : forall H_red, length H_red = m -> (forall i, i < m -> length (nth i H_red []) = n) -> (forall i j, i < m -> j < n -> nth j (nth i H_red []) (-1)%Z = base_at base i j) ->
  exists H, for_ m (fun i H => for_ n (fun j H =>
      row <- rd H_red i ;; v <- rd row j ;;
      let l := u32 (Z.of_nat i * Z.of_nat z) in let co := u32 (Z.of_nat j * Z.of_nat z) in
      if (v =? -1)%Z then Ret H
      else if (v =? 0)%Z then for_ (Z.to_nat (Z.of_nat z)) (fun k H => sp_add H (Z.to_nat (u32 (l + Z.of_nat k))) (Z.to_nat (u32 (co + Z.of_nat k)))) H
      else for_ (Z.to_nat (Z.of_nat z)) (fun k H => sp_add H (Z.to_nat (u32 (l + Z.of_nat k))) (Z.to_nat (u32 (co + u32 (Z.of_nat k + v) mod Z.of_nat z)))) H) H)
    (sp_new (m * z) (n * z)) = Ret H /\ sp_ok H (m * z) (n * z) (fun r c => qc_expand z base c r).
Proof.
  intros H_red L1 L2 Hv.
  destruct (pairs_add_ok blocks (sp_new (m * z) (n * z)) (m * z) (n * z) (fun _ _ => false) (new_ok _ _) blocks_nodup) as (H & E & Ok).
  { intros r c Hin. unfold blocks in Hin. apply in_flat_map in Hin. destruct Hin as (i & Hi & Hin). apply in_flat_map in Hin. destruct Hin as (j & Hj & Hin).
    apply in_seq in Hi. apply in_seq in Hj. destruct (block_bound i j r c ltac:(lia) ltac:(lia) Hin). auto. }
  exists H. split.
  - rewrite <- E. unfold blocks. rewrite each_flat. unfold for_. rewrite for_from_each. apply each_ext. intros i s Hi. apply in_seq in Hi.
    rewrite each_flat. rewrite for_from_each. apply each_ext. intros j s' Hj. apply in_seq in Hj.
    rewrite (rd_ok _ [] H_red i) by lia. cbn [bind]. rewrite (rd_ok _ (-1)%Z) by (rewrite L2; lia). cbn [bind]. rewrite Hv by lia. cbv zeta.
    pose proof (Hrange i j ltac:(lia) ltac:(lia)) as Ra. unfold block. set (a := base_at base i j) in *. rewrite Nat2Z.id.
    assert (Bi : (0 <= Z.of_nat i * Z.of_nat z <= Z.of_nat m * Z.of_nat z - Z.of_nat z)%Z) by nia.
    assert (Bj : (0 <= Z.of_nat j * Z.of_nat z <= Z.of_nat n * Z.of_nat z - Z.of_nat z)%Z) by nia.
    rewrite (u32_id (Z.of_nat i * Z.of_nat z)), (u32_id (Z.of_nat j * Z.of_nat z)) by lia.
    destruct (Z.eqb_spec a (-1)) as [_|Ha]; [reflexivity|].
    rewrite <- (each_map _ _ _ (fun k => (i * z + k, j * z + (k + Z.to_nat a) mod z)) (seq 0 z) (fun p M => sp_add M (fst p) (snd p))).
    assert (X : forall k, In k (seq 0 z) -> Z.to_nat (u32 (Z.of_nat i * Z.of_nat z + Z.of_nat k)) = i * z + k).
    { intros k Hk. apply in_seq in Hk. rewrite u32_id by lia. lia. }
    assert (Y : forall k, In k (seq 0 z) -> Z.to_nat (u32 (Z.of_nat j * Z.of_nat z + u32 (Z.of_nat k + a) mod Z.of_nat z)) = j * z + (k + Z.to_nat a) mod z).
    { intros k Hk. apply in_seq in Hk. rewrite (u32_id (Z.of_nat k + a)) by lia. replace (Z.of_nat k + a)%Z with (Z.of_nat (k + Z.to_nat a)) by lia.
      rewrite <- Nat2Z.inj_mod. assert ((k + Z.to_nat a) mod z < z) by (apply Nat.mod_upper_bound; lia). rewrite u32_id by lia. lia. }
    destruct (Z.eqb_spec a 0) as [Ea|_].
    + rewrite for_from_each. apply each_ext. intros k s2 Hk. cbn [fst snd]. rewrite (X k Hk). f_equal.
      rewrite <- (Y k Hk). rewrite Ea. f_equal. f_equal. f_equal. apply in_seq in Hk. rewrite Z.add_0_r, u32_id by lia. rewrite Z.mod_small by lia. reflexivity.
    + rewrite for_from_each. apply each_ext. intros k s2 Hk. cbn [fst snd]. rewrite (X k Hk), (Y k Hk). reflexivity.
  - apply (sp_ok_ext H (m * z) (n * z) (fun i j => false || memp blocks i j)); [|exact Ok]. intros r c Hr Hc. cbn [orb].
    pose proof (blocks_in r c Hr Hc) as B. rewrite <- memp_in in B. destruct (memp blocks r c), (qc_expand z base c r); try reflexivity; destruct B as [B1 B2]; [symmetry; apply B1; reflexivity|apply B2; reflexivity].
Qed.

Lemma cast16 : forall v, (- 2 ^ 15 <= v < 2 ^ 15)%Z -> cast 16 v = v.
Proof.
  intros v H. unfold cast. change (2 ^ (16 - 1))%Z with (2 ^ 15)%Z. rewrite Z.mod_small; lia.
Qed.

Lemma qc_read_ok : forall ls rest hd rows more, Forall no_nl ls -> relevant ls = hd :: rows ++ more -> numbers hd [Z.of_nat n; Z.of_nat m; Z.of_nat z] ->
  length base = m -> Forall2 (fun l row => length row = n /\ numbers l row) rows base -> (Z.of_nat n < 2 ^ 31)%Z -> (Z.of_nat m < 2 ^ 31)%Z ->
  exists M ls', qc_read (open (lines ls ++ rest)) = Ret (M, open (lines ls' ++ rest)) /\ sp_ok M (n * z) (m * z) (qc_expand z base) /\ Forall no_nl ls' /\ relevant ls' = more.
Proof.
  intros ls rest hd rows more Hnl Hrel Hhd Lb Hrows Hn31 Hm31. unfold qc_read, qc_read_.
  destruct (getline_split_ok ls rest hd _ Hnl Hrel) as (p1 & ls1 & E1 & Hn1 & Hr1 & G1). rewrite G1. cbn [bind].
  destruct (at_3 hd _ _ _ Hhd) as (L1 & A1 & A2 & A3); [lia|lia|lia|]. rewrite L1, A1, A2, A3. cbn [Nat.leb guard bind]. cbv zeta.
  rewrite (u32_id (Z.of_nat n)), (u32_id (Z.of_nat m)), (u32_id (Z.of_nat z)) by lia.
  destruct (Z.eqb_spec (Z.of_nat n) 0); [lia|]. destruct (Z.eqb_spec (Z.of_nat m) 0); [lia|]. destruct (Z.eqb_spec (Z.of_nat z) 0); [lia|]. cbn [orb negb guard bind].
  rewrite !(Nat2Z.id n), !(Nat2Z.id m).
  assert (Lrows : length rows = m) by (rewrite (Forall2_len _ _ _ _ _ Hrows); exact Lb).
  match goal with |- context [for_ m ?body (repeat (repeat (-1)%Z n) m, ?s0)] =>
    destruct (for_inv _ (fun i '(Hr, s) => length Hr = m /\ (forall k, k < m -> length (nth k Hr []) = n) /\ (forall k j, k < i -> j < n -> nth j (nth k Hr []) (-1)%Z = base_at base k j) /\
       exists ls', s = open (lines ls' ++ rest) /\ Forall no_nl ls' /\ relevant ls' = skipn i rows ++ more) m body (repeat (repeat (-1)%Z n) m, s0)) as ([Hr s'] & E & LH & LR & HV & ls' & Es & Hnl' & Hrel') end.
  { split; [apply repeat_length|]. split; [intros k Hk; rewrite nth_repeat_lt by lia; apply repeat_length|]. split; [intros; lia|]. exists ls1. auto. }
  { intros i [Hr s] Hi (LH & LR & HV & ls' & -> & Hnl' & Hrel').
    destruct (skipn i rows) as [|l rows'] eqn:Esk.
    { exfalso. apply (f_equal (@length _)) in Esk. rewrite skipn_length in Esk. cbn [length] in Esk. unfold text in *. lia. }
    assert (El : l = nth i rows []) by (rewrite <- (Nat.add_0_r i), <- (skipn_nth _ rows i 0), Esk; reflexivity).
    assert (Esk' : skipn (S i) rows = rows') by (rewrite <- (skipn_1 _ i rows), Esk; reflexivity).
    cbn [app] in Hrel'.
    destruct (getline_split_ok ls' rest l _ Hnl' Hrel') as (pr & lsn & El2 & Hnn & Hrn & G). rewrite G. cbn [bind].
    assert (RL : length (nth i base []) = n /\ numbers l (nth i base [])).
    { rewrite El. apply (Forall2_nth_l _ _ _ _ _ i [] [] Hrows). lia. }
    destruct RL as [RL1 RL2]. destruct (numbers_split _ _ RL2) as [LL _]. rewrite RL1 in LL. unfold text in *. rewrite LL.
    destruct (Z.leb_spec (Z.of_nat n) (Z.of_nat n)); [|lia]. cbn [guard bind]. rewrite (rd_ok _ [] Hr i) by lia. cbn [bind].
    match goal with |- context [for_ n ?body (nth i Hr [])] =>
      destruct (for_inv _ (fun j row => length row = n /\ forall k, k < j -> nth k row (-1)%Z = base_at base i k) n body (nth i Hr [])) as (row & Erow & Lrow & Hrow) end.
    { split; [apply LR, Hi|intros; lia]. }
    { intros j row Hj (Lrow & Hrow). destruct (Nat.ltb_spec j n); [|lia].
      pose proof (Hrange i j Hi Hj) as Ra. unfold base_at in Ra. rewrite (nth_indep (nth i base []) (-1)%Z 0%Z) in Ra by lia.
      rewrite (at_i_ok l _ j RL2) by lia. cbn [bind]. rewrite cast16 by lia. rewrite wr_ok by lia. eexists. split; [reflexivity|]. rewrite length_upd. split; [exact Lrow|].
      intros k Hk. destruct (Nat.eq_dec k j) as [-> | Hne]; [rewrite nth_upd_eq by lia; unfold base_at; apply nth_indep; lia|]. rewrite nth_upd_neq by lia. apply Hrow. lia. }
    rewrite Erow. cbn [bind]. rewrite wr_ok by lia. cbn [bind]. eexists. split; [reflexivity|]. cbv beta iota. rewrite length_upd. split; [exact LH|]. split; [|split].
    - intros k Hk. destruct (Nat.eq_dec k i) as [-> | Hne]; [rewrite nth_upd_eq by lia; exact Lrow|]. rewrite nth_upd_neq by lia. apply LR, Hk.
    - intros k j Hk Hj. destruct (Nat.eq_dec k i) as [-> | Hne]; [rewrite nth_upd_eq by lia; apply Hrow, Hj|]. rewrite nth_upd_neq by lia. apply HV; lia.
    - exists lsn. rewrite Esk'. auto. }
  rewrite E. cbn [bind]. subst s'. rewrite (u32_id (Z.of_nat m * Z.of_nat z)), (u32_id (Z.of_nat n * Z.of_nat z)) by lia.
  replace (Z.to_nat (Z.of_nat m * Z.of_nat z)) with (m * z) by lia. replace (Z.to_nat (Z.of_nat n * Z.of_nat z)) with (n * z) by lia.
  destruct (expand_ok Hr LH LR) as (H & EH & OkH); [intros; apply HV; assumption|]. cbv zeta in EH. rewrite EH. cbn [bind].
  exists (sp_transpose H), ls'. split; [reflexivity|]. split.
  - apply (sp_ok_ext _ _ _ (flip (fun r c => qc_expand z base c r))); [reflexivity|]. apply transpose_ok. exact OkH.
  - split; [exact Hnl'|]. rewrite skipn_all2 in Hrel' by (unfold text in *; lia). exact Hrel'.
Qed.
End QC.
