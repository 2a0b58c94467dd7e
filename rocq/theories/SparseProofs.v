(** Proofs about the sparse matrices. *)
From Coq Require Import List Arith Lia Bool ZArith Permutation.
From Verif Require Import Base GaloisModel SparseModel SparseSpec.
Import ListNotations.

(* ------------------------------------------------------------------ *)
(** * Sums and maxima *)
Definition sumf (g : nat -> nat) (n : nat) : nat := list_sum (map g (seq 0 n)).
Definition maxf (g : nat -> nat) (n : nat) : nat := list_max (map g (seq 0 n)).

Lemma sumf_S : forall g n, sumf g (S n) = sumf g n + g n.
Proof. intros. unfold sumf. rewrite seq_S, map_app, list_sum_app. cbn. lia. Qed.

Lemma maxf_S : forall g n, maxf g (S n) = Nat.max (maxf g n) (g n).
Proof. intros. unfold maxf. rewrite seq_S, map_app, list_max_app. cbn. lia. Qed.

Lemma sumf_ext : forall g h n, (forall i, i < n -> g i = h i) -> sumf g n = sumf h n.
Proof. intros g h n H. induction n; [auto|]. rewrite !sumf_S, IHn, H by auto. auto. Qed.

Lemma maxf_ext : forall g h n, (forall i, i < n -> g i = h i) -> maxf g n = maxf h n.
Proof. intros g h n H. induction n; [auto|]. rewrite !maxf_S, IHn, H by auto. auto. Qed.

Lemma sumf_change : forall g h n r, r < n -> (forall i, i < n -> i <> r -> h i = g i) -> sumf h n + g r = sumf g n + h r.
Proof.
  intros g h n r Hr H. induction n; [lia|]. rewrite !sumf_S. destruct (Nat.eq_dec r n).
  - subst r. rewrite (sumf_ext h g n) by (intros; apply H; lia). lia.
  - rewrite (H n) by lia. specialize (IHn ltac:(lia) ltac:(intros; apply H; lia)). lia.
Qed.

Lemma maxf_ge : forall g n i, i < n -> g i <= maxf g n.
Proof. intros g n i H. induction n; [lia|]. rewrite maxf_S. destruct (Nat.eq_dec i n); [subst; lia|]. specialize (IHn ltac:(lia)). lia. Qed.

Lemma maxf_le : forall g n v, (forall i, i < n -> g i <= v) -> maxf g n <= v.
Proof. intros g n v H. induction n; [cbn; lia|]. rewrite maxf_S. specialize (IHn ltac:(intros; apply H; lia)). specialize (H n ltac:(lia)). lia. Qed.

Lemma maxf_att : forall g n, 0 < n -> exists i, i < n /\ g i = maxf g n.
Proof.
  intros g n H. induction n; [lia|]. rewrite maxf_S. destruct (le_lt_dec (maxf g n) (g n)) as [L|L].
  - exists n. split; lia.
  - destruct n; [cbn in L; lia|]. destruct (IHn ltac:(lia)) as (i & Hi & E). exists i. split; lia.
Qed.

Lemma maxf_eq : forall g n v, (forall i, i < n -> g i <= v) -> (exists i, i < n /\ g i = v) -> maxf g n = v.
Proof. intros g n v H (i & Hi & E). pose proof (maxf_le g n v H). pose proof (maxf_ge g n i Hi). lia. Qed.

Lemma sumf_swap : forall h n m, sumf (fun i => sumf (fun j => h i j) m) n = sumf (fun j => sumf (fun i => h i j) n) m.
Proof.
  intros h n m. induction n.
  - rewrite (sumf_ext _ (fun _ => 0) m) by auto. induction m; [auto|]. rewrite sumf_S. cbn in *. lia.
  - rewrite sumf_S, IHn. rewrite (sumf_ext (fun j => sumf (fun i => h i j) (S n)) (fun j => sumf (fun i => h i j) n + h n j)) by (intros; rewrite sumf_S; auto).
    clear IHn. induction m; [auto|]. rewrite !sumf_S. lia.
Qed.

Lemma map_len_maxf : forall v, list_max (map (@length nat) v) = maxf (fun i => length (nth i v [])) (length v).
Proof.
  intros v. unfold maxf. f_equal. apply (nth_ext _ _ 0 0). { rewrite !map_length, seq_length. auto. } intros i Hi. rewrite map_length in Hi.
  rewrite (nth_indep _ _ (length (@nil nat))) by (rewrite map_length; auto). rewrite map_nth.
  rewrite (nth_indep (map _ (seq _ _)) _ (length (nth 0 v []))) by (rewrite map_length, seq_length; auto). rewrite (map_nth (fun i => length (nth i v []))), seq_nth by auto. auto.
Qed.

Lemma map_len_sumf : forall v, list_sum (map (@length nat) v) = sumf (fun i => length (nth i v [])) (length v).
Proof.
  intros v. unfold sumf. f_equal. apply (nth_ext _ _ 0 0). { rewrite !map_length, seq_length. auto. } intros i Hi. rewrite map_length in Hi.
  rewrite (nth_indep _ _ (length (@nil nat))) by (rewrite map_length; auto). rewrite map_nth.
  rewrite (nth_indep (map _ (seq _ _)) _ (length (nth 0 v []))) by (rewrite map_length, seq_length; auto). rewrite (map_nth (fun i => length (nth i v []))), seq_nth by auto. auto.
Qed.

(* ------------------------------------------------------------------ *)
(** * Degrees *)
Definition flip (f : nat -> nat -> bool) (i j : nat) : bool := f j i.

Lemma col_row : forall f n c, col_deg f n c = row_deg (flip f) n c.
Proof. auto. Qed.

Lemma row_deg_sum : forall f m r, row_deg f m r = sumf (fun c => Nat.b2n (f r c)) m.
Proof.
  intros f m r. unfold row_deg. induction m; [auto|]. rewrite seq_S, filter_app, app_length, IHm, sumf_S. cbn [filter Nat.add]. destruct (f r m); cbn; lia.
Qed.

Lemma row_deg_ext : forall f g m r, (forall c, c < m -> f r c = g r c) -> row_deg f m r = row_deg g m r.
Proof. intros f g m r H. rewrite !row_deg_sum. apply sumf_ext. intros i Hi. rewrite H by auto. auto. Qed.

Lemma ones_flip : forall f n m, ones f n m = ones (flip f) m n.
Proof.
  intros f n m. unfold ones. fold (sumf (row_deg f m) n). fold (sumf (row_deg (flip f) n) m).
  rewrite (sumf_ext _ (fun i => sumf (fun j => Nat.b2n (f i j)) m)) by (intros; apply row_deg_sum). rewrite sumf_swap. apply sumf_ext. intros. rewrite row_deg_sum. auto.
Qed.

Lemma deg_len : forall f m r l, NoDup l -> (forall c, In c l <-> c < m /\ f r c = true) -> length l = row_deg f m r.
Proof.
  intros f m r l ND H. unfold row_deg. apply Permutation_length. apply NoDup_Permutation; auto. { apply NoDup_filter. apply seq_NoDup. }
  intros c. rewrite H, filter_In, in_seq. split; intros [A B]; split; auto; lia.
Qed.

(* ------------------------------------------------------------------ *)
(** * One view *)
Definition view_ok (v : list (list nat)) (n m : nat) (f : nat -> nat -> bool) : Prop :=
  length v = n /\ forall r, r < n -> NoDup (nth r v []) /\ forall c, In c (nth r v []) <-> c < m /\ f r c = true.

Definition setf (f : nat -> nat -> bool) (r c i j : nat) : bool := f i j || ((i =? r) && (j =? c)).
Definition clrf (f : nat -> nat -> bool) (r c i j : nat) : bool := f i j && negb ((i =? r) && (j =? c)).

Lemma view_ext : forall v n m f g, (forall i j, i < n -> j < m -> f i j = g i j) -> view_ok v n m f -> view_ok v n m g.
Proof.
  intros v n m f g H [L V]. split; auto. intros r Hr. destruct (V r Hr) as [ND HI]. split; auto. intros c. rewrite HI. split; intros [A B]; split; auto; rewrite <- B; [symmetry|]; apply H; auto.
Qed.

Lemma view_len : forall v n m f r, view_ok v n m f -> r < n -> length (nth r v []) = row_deg f m r.
Proof. intros v n m f r [L V] Hr. destruct (V r Hr) as [ND HI]. apply deg_len; auto. Qed.

Lemma mem_in : forall c l, existsb (Nat.eqb c) l = true <-> In c l.
Proof. intros c l. rewrite existsb_exists. split. { intros (x & I & E). apply Nat.eqb_eq in E. subst. auto. } intros I. exists c. split; auto. apply Nat.eqb_refl. Qed.

Lemma view_mem : forall v n m f r c, view_ok v n m f -> r < n -> c < m -> existsb (Nat.eqb c) (nth r v []) = f r c.
Proof. intros v n m f r c [L V] Hr Hc. destruct (V r Hr) as [ND HI]. apply eq_true_iff_eq. rewrite mem_in, HI. tauto. Qed.

Lemma view_empty : forall n m, view_ok (repeat [] n) n m (fun _ _ => false).
Proof. intros n m. split. { apply repeat_length. } intros r Hr. rewrite nth_repeat_lt by auto. split. constructor. intros c. cbn. split; [tauto|]. intros [_ H]. discriminate. Qed.

Lemma view_push : forall v n m f r c, view_ok v n m f -> r < n -> c < m -> f r c = false ->
  exists v', push_at v r c = Ret v' /\ view_ok v' n m (setf f r c) /\ nth r v' [] = nth r v [] ++ [c].
Proof.
  intros v n m f r c [L V] Hr Hc F. unfold push_at. rewrite (rd_ok _ []) by lia. cbn [bind]. rewrite wr_ok by lia. eexists. split; [reflexivity|].
  split; [|apply nth_upd_eq; lia]. split. { rewrite length_upd. auto. }
  intros i Hi. destruct (V i Hi) as [ND HI]. unfold setf. destruct (Nat.eq_dec i r).
  - subst i. rewrite nth_upd_eq by lia. rewrite Nat.eqb_refl. split.
    + apply (Permutation_NoDup (l := c :: nth r v [])). { apply Permutation_cons_append. } constructor; auto. rewrite HI. intros [_ H]. congruence.
    + intros j. rewrite in_app_iff, HI. cbn [In]. rewrite orb_true_iff, andb_true_l, Nat.eqb_eq. split. { intros [A|[A|[]]]; [tauto|]. subst. auto. } intros [A [B|B]]; auto.
  - rewrite nth_upd_neq by auto. split; auto. intros j. rewrite HI. rewrite (proj2 (Nat.eqb_neq i r)) by auto. rewrite andb_false_l, orb_false_r. tauto.
Qed.

Lemma erase1_in : forall x l y, NoDup l -> (In y (erase1 x l) <-> In y l /\ y <> x).
Proof.
  intros x l y ND. induction ND as [|a l NI ND IH]; cbn [erase1 In]; [tauto|]. destruct (Nat.eqb_spec a x).
  - subst. split. { intros H. split; auto. intros ->. contradiction. } intros [[->|H] N]; [contradiction|auto].
  - cbn [In]. rewrite IH. split. { intros [->|[A B]]; auto. } intros [[->|A] B]; auto.
Qed.

Lemma erase1_nodup : forall x l, NoDup l -> NoDup (erase1 x l).
Proof.
  intros x l ND. induction ND as [|a l NI ND IH]; cbn [erase1]. constructor. destruct (a =? x); auto. constructor; auto. rewrite erase1_in by auto. tauto.
Qed.

Lemma view_erase : forall v n m f r c, view_ok v n m f -> r < n -> c < m ->
  exists v', wr v r (erase1 c (nth r v [])) = Ret v' /\ view_ok v' n m (clrf f r c) /\ nth r v' [] = erase1 c (nth r v []).
Proof.
  intros v n m f r c [L V] Hr Hc. rewrite wr_ok by lia. eexists. split; [reflexivity|]. split; [|apply nth_upd_eq; lia]. split. { rewrite length_upd. auto. }
  intros i Hi. destruct (V i Hi) as [ND HI]. unfold clrf. destruct (Nat.eq_dec i r).
  - subst i. rewrite nth_upd_eq by lia. rewrite Nat.eqb_refl. split. { apply erase1_nodup. auto. }
    intros j. rewrite erase1_in by auto. rewrite HI, andb_true_l, andb_true_iff, negb_true_iff, Nat.eqb_neq. tauto.
  - rewrite nth_upd_neq by auto. split; auto. intros j. rewrite HI. rewrite (proj2 (Nat.eqb_neq i r)) by auto. rewrite andb_false_l. cbn [negb]. rewrite andb_true_r. tauto.
Qed.

(* ------------------------------------------------------------------ *)
(** * The whole matrix *)
Definition sp_ok (M : sparse) (n m : nat) (f : nat -> nat -> bool) : Prop :=
  sp_rows M = n /\ sp_cols M = m /\ view_ok (sp_r2c M) n m f /\ view_ok (sp_c2r M) m n (flip f) /\
  sp_n M = ones f n m /\ sp_rmax M = maxf (row_deg f m) n /\ sp_cmax M = maxf (row_deg (flip f) n) m.

Lemma sp_is_ok : forall M n m f, sp_is M n m f <-> sp_ok M n m f.
Proof.
  intros M n m f. unfold sp_is, sp_ok. split.
  - intros (R & C & L1 & L2 & AT & RW & CL & N & MR & MC). split; [auto|]. split; [auto|]. split; [|split; [|split; [auto|split; auto]]].
    + split; auto. intros r H. destruct (RW r H) as (l & E & ND & HI). unfold sp_row in E. rewrite (rd_ok _ []) in E by lia. inversion E. subst l. auto.
    + split; auto. intros r H. destruct (CL r H) as (l & E & ND & HI). unfold sp_col in E. rewrite (rd_ok _ []) in E by lia. inversion E. subst l. auto.
  - intros (R & C & V1 & V2 & N & MR & MC). split; [auto|]. split; [auto|]. split; [apply V1|]. split; [apply V2|]. split; [|split; [|split; [|split; [auto|split; auto]]]].
    + intros r c Hr Hc. unfold sp_at. rewrite (rd_ok _ []) by (destruct V1; lia). cbn [bind]. rewrite (view_mem _ _ _ _ _ _ V1) by auto. auto.
    + intros r Hr. unfold sp_row. rewrite (rd_ok _ []) by (destruct V1; lia). eexists. split; [reflexivity|]. apply V1. auto.
    + intros c Hc. unfold sp_col. rewrite (rd_ok _ []) by (destruct V2; lia). eexists. split; [reflexivity|]. apply V2. auto.
Qed.

Lemma ones_ext : forall f g n m, (forall i j, i < n -> j < m -> f i j = g i j) -> ones f n m = ones g n m.
Proof. intros f g n m H. apply (sumf_ext (row_deg f m) (row_deg g m)). intros i Hi. apply row_deg_ext. auto. Qed.

Lemma sp_ok_ext : forall M n m f g, (forall i j, i < n -> j < m -> f i j = g i j) -> sp_ok M n m f -> sp_ok M n m g.
Proof.
  intros M n m f g H (R & C & V1 & V2 & N & MR & MC). unfold sp_ok. split; [auto|]. split; [auto|]. split; [|split; [|split; [|split]]].
  - apply (view_ext _ _ _ f g); auto.
  - apply (view_ext _ _ _ (flip f)); auto. unfold flip. auto.
  - rewrite N. apply ones_ext. auto.
  - rewrite MR. apply maxf_ext. intros. apply row_deg_ext. auto.
  - rewrite MC. apply maxf_ext. intros. apply row_deg_ext. unfold flip. auto.
Qed.

Lemma new_ok : forall n m, sp_ok (sp_new n m) n m (fun _ _ => false).
Proof.
  assert (D : forall m r, row_deg (fun _ _ => false) m r = 0). { intros. rewrite row_deg_sum. induction m; auto. rewrite sumf_S, IHm. auto. }
  assert (MX : forall n m, maxf (row_deg (fun _ _ => false) m) n = 0). { intros. induction n; auto. rewrite maxf_S, IHn, D. auto. }
  intros n m. unfold sp_ok, sp_new. cbn [sp_rows sp_cols sp_r2c sp_c2r sp_n sp_rmax sp_cmax]. split; [auto|]. split; [auto|]. split; [apply view_empty|]. split; [apply view_empty|]. split.
  - unfold ones. fold (sumf (row_deg (fun _ _ => false) m) n). induction n; auto. rewrite sumf_S, <- IHn, D. auto.
  - split; symmetry; apply MX.
Qed.

Lemma deg_set : forall f m r c, c < m -> f r c = false -> row_deg (setf f r c) m r = S (row_deg f m r) /\ forall i, i <> r -> row_deg (setf f r c) m i = row_deg f m i.
Proof.
  intros f m r c Hc F. split.
  - rewrite !row_deg_sum. pose proof (sumf_change (fun j => Nat.b2n (f r j)) (fun j => Nat.b2n (setf f r c r j)) m c Hc) as E. cbv beta in E. rewrite F in E. unfold setf in *. rewrite F, !Nat.eqb_refl in E. cbn in E.
    specialize (E ltac:(intros j _ Hj; rewrite (proj2 (Nat.eqb_neq j c)) by auto; rewrite orb_false_r; auto)). rewrite Nat.eqb_refl. cbn [andb]. lia.
  - intros i Hi. apply row_deg_ext. intros j _. unfold setf. rewrite (proj2 (Nat.eqb_neq i r)) by auto. rewrite andb_false_l, orb_false_r. auto.
Qed.

Lemma deg_clr : forall f m r c, c < m -> f r c = true -> S (row_deg (clrf f r c) m r) = row_deg f m r /\ forall i, i <> r -> row_deg (clrf f r c) m i = row_deg f m i.
Proof.
  intros f m r c Hc F. split.
  - rewrite !row_deg_sum. pose proof (sumf_change (fun j => Nat.b2n (f r j)) (fun j => Nat.b2n (clrf f r c r j)) m c Hc) as E. cbv beta in E. rewrite F in E. unfold clrf in *. rewrite F, !Nat.eqb_refl in E. cbn in E.
    specialize (E ltac:(intros j _ Hj; rewrite (proj2 (Nat.eqb_neq j c)) by auto; cbn [negb]; rewrite andb_true_r; auto)). rewrite Nat.eqb_refl. cbn [andb]. lia.
  - intros i Hi. apply row_deg_ext. intros j _. unfold clrf. rewrite (proj2 (Nat.eqb_neq i r)) by auto. rewrite andb_false_l. cbn [negb]. rewrite andb_true_r. auto.
Qed.

Lemma flip_set : forall f r c i j, setf (flip f) c r i j = flip (setf f r c) i j.
Proof. intros. unfold setf, flip. rewrite (andb_comm (i =? c)). auto. Qed.
Lemma flip_clr : forall f r c i j, clrf (flip f) c r i j = flip (clrf f r c) i j.
Proof. intros. unfold clrf, flip. rewrite (andb_comm (i =? c)). auto. Qed.

Lemma maxf_inc : forall g h n r, r < n -> (forall i, i < n -> i <> r -> h i = g i) -> g r <= h r -> maxf h n = Nat.max (maxf g n) (h r).
Proof.
  intros g h n r Hr H LE. apply maxf_eq.
  - intros i Hi. destruct (Nat.eq_dec i r); [subst; lia|]. rewrite H by auto. pose proof (maxf_ge g n i Hi). lia.
  - destruct (maxf_att g n ltac:(lia)) as (k & Hk & E). destruct (le_lt_dec (maxf g n) (h r)). { exists r. split; lia. }
    exists k. split; auto. assert (k <> r) by (intros ->; lia). rewrite H by auto. lia.
Qed.

Lemma add_ok : forall M n m f r c, sp_ok M n m f -> r < n -> c < m -> f r c = false -> exists M', sp_add M r c = Ret M' /\ sp_ok M' n m (setf f r c).
Proof.
  intros M n m f r c (R & C & V1 & V2 & N & MR & MC) Hr Hc F. unfold sp_add, sp_check. rewrite C, R.
  rewrite (proj2 (Nat.ltb_lt c m)) by auto. rewrite (proj2 (Nat.ltb_lt r n)) by auto. cbn [guard bind]. unfold sp_at. rewrite (rd_ok _ []) by (destruct V1; lia). cbn [bind].
  rewrite (view_mem _ _ _ _ _ _ V1) by auto. rewrite F. cbn [negb guard bind].
  destruct (view_push _ _ _ _ r c V1) as (v1 & E1 & W1 & N1); auto. destruct (view_push _ _ _ _ c r V2) as (v2 & E2 & W2 & N2); auto. rewrite E1, E2. cbn [bind].
  rewrite !(rd_ok _ []) by (destruct W1, W2; lia). cbn [bind]. eexists. split; [reflexivity|]. unfold sp_ok. cbn [sp_rows sp_cols sp_r2c sp_c2r sp_n sp_rmax sp_cmax].
  assert (W2' : view_ok v2 m n (flip (setf f r c))) by (apply (view_ext _ _ _ (setf (flip f) c r)); auto; intros; apply flip_set).
  destruct (deg_set f m r c Hc F) as [D1 D2]. destruct (deg_set (flip f) n c r Hr F) as [D3 D4].
  split; [auto|]. split; [auto|]. split; [auto|]. split; [auto|]. split; [|split].
  - unfold ones in *. pose proof (sumf_change (row_deg f m) (row_deg (setf f r c) m) n r Hr ltac:(auto)) as E. unfold sumf in E. lia.
  - rewrite (view_len _ _ _ _ _ W1 Hr), MR. symmetry. apply maxf_inc; auto. lia.
  - rewrite (view_len _ _ _ _ _ W2 Hc), MC. symmetry. rewrite (maxf_ext _ (row_deg (setf (flip f) c r) n)) by (intros; apply row_deg_ext; intros; symmetry; apply flip_set). apply maxf_inc; auto. lia.
Qed.

Lemma unlink_ok : forall v n m f r c, view_ok v n m f -> r < n -> c < m -> f r c = true -> 
  exists v', sp_unlink v r c (maxf (row_deg f m) n) = Ret (v', maxf (row_deg (clrf f r c) m) n, true) /\ view_ok v' n m (clrf f r c).
Proof.
  intros v n m f r c V Hr Hc F. unfold sp_unlink. rewrite (rd_ok _ []) by (destruct V; lia). cbn [bind]. rewrite (view_mem _ _ _ _ _ _ V) by auto. rewrite F.
  destruct (view_erase _ _ _ _ r c V) as (v' & E & W & NV); auto. rewrite E. cbn [bind]. rewrite (rd_ok _ []) by (destruct W; lia). cbn [bind]. exists v'. split; auto. f_equal. f_equal. f_equal.
  rewrite (view_len _ _ _ _ _ W Hr). destruct (deg_clr f m r c Hc F) as [D1 D2]. rewrite D1. set (g := row_deg f m) in *. set (h := row_deg (clrf f r c) m) in *.
  assert (LE : forall i, i < n -> h i <= g i). { intros i Hi. destruct (Nat.eq_dec i r); [subst; lia|]. rewrite D2; auto. }
  destruct (Nat.eqb_spec (g r) (maxf g n)) as [EQ|NE].
  - destruct (existsb (fun w => length w =? maxf g n) v') eqn:X.
    + apply existsb_exists in X. destruct X as (w & I & E1). apply Nat.eqb_eq in E1. destruct (In_nth _ _ [] I) as (i & Hi & Ei). destruct W as [LW W]. rewrite LW in Hi. symmetry. apply maxf_eq.
      * intros k Hk. pose proof (LE k Hk). pose proof (maxf_ge g n k Hk). lia.
      * exists i. split; auto. rewrite <- E1, <- Ei. symmetry. apply (view_len _ _ _ _ _ (conj LW W)). auto.
    + symmetry. apply maxf_eq.
      * intros i Hi. pose proof (LE i Hi). pose proof (maxf_ge g n i Hi). destruct (Nat.eq_dec (h i) (maxf g n)); [|lia]. exfalso.
        assert (existsb (fun w => length w =? maxf g n) v' = true); [|congruence]. apply existsb_exists. exists (nth i v' []). split. { apply nth_In. destruct W; lia. } apply Nat.eqb_eq. rewrite (view_len _ _ _ _ _ W Hi). auto.
      * exists r. split; auto. lia.
  - symmetry. apply maxf_eq. { intros i Hi. pose proof (LE i Hi). pose proof (maxf_ge g n i Hi). lia. }
    destruct (maxf_att g n ltac:(lia)) as (k & Hk & E1). exists k. split; auto. rewrite D2; auto. intros ->. contradiction.
Qed.

Lemma rm_ok : forall M n m f r c, sp_ok M n m f -> r < n -> c < m -> exists M', sp_rm M r c = Ret M' /\ sp_ok M' n m (clrf f r c).
Proof.
  intros M n m f r c S Hr Hc. pose proof S as (R & C & V1 & V2 & N & MR & MC). unfold sp_rm, sp_check. rewrite C, R.
  rewrite (proj2 (Nat.ltb_lt c m)) by auto. rewrite (proj2 (Nat.ltb_lt r n)) by auto. cbn [guard bind]. destruct (f r c) eqn:F.
  - rewrite MR, MC. destruct (unlink_ok _ _ _ _ r c V1) as (v1 & E1 & W1); auto. destruct (unlink_ok _ _ _ _ c r V2) as (v2 & E2 & W2); auto. rewrite E1, E2. cbn [bind Bool.eqb guard]. eexists. split; [reflexivity|].
    assert (W2' : view_ok v2 m n (flip (clrf f r c))) by (apply (view_ext _ _ _ (clrf (flip f) c r)); auto; intros; apply flip_clr).
    unfold sp_ok. cbn [sp_rows sp_cols sp_r2c sp_c2r sp_n sp_rmax sp_cmax]. split; [auto|]. split; [auto|]. split; [auto|]. split; [auto|]. split; [|split; [auto|]].
    + unfold ones in *. destruct (deg_clr f m r c Hc F) as [D1 D2]. pose proof (sumf_change (row_deg f m) (row_deg (clrf f r c) m) n r Hr ltac:(auto)) as E. unfold sumf in E. lia.
    + apply maxf_ext. intros. apply row_deg_ext. intros. apply flip_clr.
  - unfold sp_unlink. rewrite !(rd_ok _ []) by (destruct V1, V2; lia). cbn [bind]. rewrite (view_mem _ _ _ _ _ _ V1), (view_mem _ _ _ _ _ _ V2) by auto. unfold flip at 1. rewrite F. cbn [bind Bool.eqb guard]. eexists. split; [reflexivity|].
    apply (sp_ok_ext _ _ _ f). { intros i j _ _. unfold clrf. destruct (Nat.eqb_spec i r); [destruct (Nat.eqb_spec j c)|]; subst; cbn; rewrite ?F, ?andb_true_r; auto. }
    unfold sp_ok. cbn [sp_rows sp_cols sp_r2c sp_c2r sp_n sp_rmax sp_cmax]. auto 10.
Qed.

Lemma transpose_ok : forall M n m f, sp_ok M n m f -> sp_ok (sp_transpose M) m n (flip f).
Proof.
  intros M n m f (R & C & V1 & V2 & N & MR & MC). unfold sp_ok, sp_transpose. cbn [sp_rows sp_cols sp_r2c sp_c2r sp_n sp_rmax sp_cmax]. split; [auto|]. split; [auto|]. split; [auto|]. split; [auto|]. split. { rewrite N. apply ones_flip. } split; auto.
Qed.

(* ------------------------------------------------------------------ *)
(** * Loops over lists *)
Lemma each_ext : forall A S (l : list A) (b b' : A -> S -> outcome S) s, (forall x s, In x l -> b x s = b' x s) -> each l b s = each l b' s.
Proof. intros A S l b b'. induction l as [|x l IH]; intros s H; cbn [each]; auto. rewrite H by (left; auto). apply bind_ext. intros a _. apply IH. intros. apply H. right. auto. Qed.

Lemma for_from_each : forall S lo cnt (body : nat -> S -> outcome S) s, for_from lo cnt body s = each (seq lo cnt) body s.
Proof. intros S lo cnt. revert lo. induction cnt; intros lo body s; cbn [for_from seq each]; auto. apply bind_ext. intros a _. apply IHcnt. Qed.

Lemma for_rd_each : forall A S (l : list A) (body : A -> S -> outcome S) s, for_ (length l) (fun i s => x <- rd l i ;; body x s) s = each l body s.
Proof.
  intros A S l body s. unfold for_. rewrite for_from_each. assert (H : forall pre s, each (seq (length pre) (length l)) (fun i s => x <- rd (pre ++ l) i ;; body x s) s = each l body s).
  { induction l as [|x l IH]; intros pre s0; cbn [length seq each]; auto. replace (rd (pre ++ x :: l) (length pre)) with (Ret x).
    - cbn [bind]. apply bind_ext. intros a _. specialize (IH (pre ++ [x]) a). rewrite app_length in IH. cbn [length] in IH. rewrite Nat.add_1_r in IH. rewrite <- IH. rewrite <- app_assoc. auto.
    - unfold rd. rewrite nth_error_app2, Nat.sub_diag by lia. auto. }
  apply (H []).
Qed.

Lemma each_app : forall A S (a b : list A) (body : A -> S -> outcome S) s, each (a ++ b) body s = (s <- each a body s ;; each b body s).
Proof. intros A S a b body. induction a as [|x a IH]; intros s; cbn [app each bind]; auto. destruct (body x s); cbn [bind]; auto. Qed.

Lemma each_flat : forall A B S (l : list A) (h : A -> list B) (body : B -> S -> outcome S) s, each (flat_map h l) body s = each l (fun x s => each (h x) body s) s.
Proof. intros A B S l h body. induction l as [|x l IH]; intros s; cbn [flat_map each]; auto. rewrite each_app. apply bind_ext. intros a _. apply IH. Qed.

Lemma nodup_app : forall A (a b : list A), NoDup a -> NoDup b -> (forall x, In x a -> ~ In x b) -> NoDup (a ++ b).
Proof.
  intros A a b Ha Hb D. induction Ha as [|x a NI Ha IH]; cbn [app]; auto. constructor. { rewrite in_app_iff. intros [H|H]; [auto|]. apply (D x); auto. left. auto. } apply IH. intros y Hy. apply D. right. auto.
Qed.

Lemma nodup_flat : forall A B (l : list A) (h : A -> list B), NoDup l -> (forall x, In x l -> NoDup (h x)) -> (forall x y z, In x l -> In y l -> In z (h x) -> In z (h y) -> x = y) -> NoDup (flat_map h l).
Proof.
  intros A B l h Hl. induction Hl as [|x l NI Hl IH]; intros H1 H2; cbn [flat_map]. constructor. apply nodup_app.
  - apply H1. left. auto.
  - apply IH. { intros. apply H1. right. auto. } intros. apply (H2 x0 y z); auto; right; auto.
  - intros z Hz. rewrite in_flat_map. intros (y & Iy & Hy). apply NI. rewrite (H2 x y z); auto. left. auto. right. auto.
Qed.

(* ------------------------------------------------------------------ *)
(** * Pushing a list of entries *)
Definition memp (ps : list (nat * nat)) (i j : nat) : bool := existsb (fun p => (fst p =? i) && (snd p =? j)) ps.

Lemma memp_in : forall ps i j, memp ps i j = true <-> In (i, j) ps.
Proof.
  intros ps i j. unfold memp. rewrite existsb_exists. split.
  - intros ([a b] & I & E). cbn in E. apply andb_true_iff in E. rewrite !Nat.eqb_eq in E. destruct E. subst. auto.
  - intros I. exists (i, j). split; auto. cbn. rewrite !Nat.eqb_refl. auto.
Qed.

Definition push2 (p : nat * nat) (s : list (list nat) * list (list nat)) := sp_push (Z.of_nat (fst p)) (Z.of_nat (snd p)) s.

Lemma setf_or : forall f r c ps i j, setf f r c i j || memp ps i j = f i j || memp ((r, c) :: ps) i j.
Proof. intros. unfold setf, memp. cbn [existsb fst snd]. rewrite (Nat.eqb_sym r), (Nat.eqb_sym c), orb_assoc. auto. Qed.

Lemma pushes_ok : forall n m ps f v1 v2, NoDup ps -> (forall i j, In (i, j) ps -> i < n /\ j < m /\ f i j = false) -> view_ok v1 n m f -> view_ok v2 m n (flip f) ->
  exists w1 w2, each ps push2 (v1, v2) = Ret (w1, w2) /\ view_ok w1 n m (fun i j => f i j || memp ps i j) /\ view_ok w2 m n (flip (fun i j => f i j || memp ps i j)).
Proof.
  intros n m ps. induction ps as [|[r c] ps IH]; intros f v1 v2 ND H V1 V2; cbn [each].
  - exists v1, v2. split; auto. split; [apply (view_ext _ _ _ f)|apply (view_ext _ _ _ (flip f))]; auto; intros; unfold flip; cbn [memp existsb]; rewrite orb_false_r; auto.
  - destruct (H r c) as (Hr & Hc & F). { left. auto. } unfold push2 at 1. cbn [fst snd]. unfold sp_push. rewrite (proj2 (Z.ltb_ge _ _)) by lia. rewrite (proj2 (Z.ltb_ge _ _)) by lia. cbn [orb]. rewrite !Nat2Z.id.
    destruct (view_push _ _ _ _ r c V1) as (w1 & E1 & W1 & _); auto. destruct (view_push _ _ _ _ c r V2) as (w2 & E2 & W2 & _); auto. rewrite E1, E2. cbn [bind]. inversion ND; subst.
    destruct (IH (setf f r c) w1 w2) as (u1 & u2 & E & U1 & U2); auto.
    + intros i j I. destruct (H i j) as (A & B & D). { right. auto. } split; auto. split; auto. unfold setf. rewrite D. cbn. apply not_true_is_false. rewrite andb_true_iff, !Nat.eqb_eq. intros [-> ->]. contradiction.
    + apply (view_ext _ _ _ (setf (flip f) c r)); auto. intros. apply flip_set.
    + exists u1, u2. split; auto. split; [eapply view_ext; [|exact U1]|eapply view_ext; [|exact U2]]; intros; cbv beta; unfold flip; apply setf_or.
Qed.

(** One view only (the sort). *)
Lemma pushes1_ok : forall n m ps f v1, NoDup ps -> (forall i j, In (i, j) ps -> i < n /\ j < m /\ f i j = false) -> view_ok v1 n m f ->
  exists w1, each ps (fun p v => push_at v (fst p) (snd p)) v1 = Ret w1 /\ view_ok w1 n m (fun i j => f i j || memp ps i j).
Proof.
  intros n m ps. induction ps as [|[r c] ps IH]; intros f v1 ND H V1; cbn [each].
  - exists v1. split; auto. apply (view_ext _ _ _ f); auto; intros; cbn [memp existsb]; rewrite orb_false_r; auto.
  - destruct (H r c) as (Hr & Hc & F). { left. auto. } cbn [fst snd].
    destruct (view_push _ _ _ _ r c V1) as (w1 & E1 & W1 & _); auto. rewrite E1. cbn [bind]. inversion ND; subst.
    destruct (IH (setf f r c) w1) as (u1 & E & U1); auto.
    + intros i j I. destruct (H i j) as (A & B & D). { right. auto. } split; auto. split; auto. unfold setf. rewrite D. cbn. apply not_true_is_false. rewrite andb_true_iff, !Nat.eqb_eq. intros [-> ->]. contradiction.
    + exists u1. split; auto. eapply view_ext; [|exact U1]; intros; cbv beta; apply setf_or.
Qed.

Lemma parse_ok : forall n m r2c c2r f a b c, 0 < n -> 0 < m -> view_ok r2c n m f -> view_ok c2r m n (flip f) -> exists M, sp_parse (mkSparse n m a b c r2c c2r) = Ret M /\ sp_ok M n m f.
Proof.
  intros n m r2c c2r f a b c Hn Hm V1 V2. unfold sp_parse. cbn [sp_r2c sp_c2r sp_rows sp_cols]. unfold max_size. pose proof V1 as [L1 _]. pose proof V2 as [L2 _]. destruct r2c as [|x1 r2c'] eqn:E1; [cbn in L1; lia|]. destruct c2r as [|x2 c2r'] eqn:E2; [cbn in L2; lia|]. rewrite <- E1, <- E2 in *. cbn [bind].
  eexists. split; [reflexivity|]. unfold sp_ok. cbn [sp_rows sp_cols sp_r2c sp_c2r sp_n sp_rmax sp_cmax]. rewrite !map_len_maxf, map_len_sumf, L1, L2. split; [auto|]. split; [auto|]. split; [auto|]. split; [auto|]. split; [|split].
  - apply sumf_ext. intros. eapply view_len; eauto.
  - apply maxf_ext. intros. eapply view_len; eauto.
  - apply maxf_ext. intros. eapply view_len; eauto.
Qed.

(* ------------------------------------------------------------------ *)
(** * Resizing *)
Definition dst_first (n n' x : nat) : option nat := if x <? n' then Some x else None.
Definition dst_last (n n' x : nat) : option nat := if n <=? x + n' then Some (x + n' - n) else None.
Definition dst_row (o : origin) := match o with TOP_LEFT | TOP_RIGHT => dst_first | _ => dst_last end.
Definition dst_col (o : origin) := match o with TOP_LEFT | BOTTOM_LEFT => dst_first | _ => dst_last end.

Lemma dst_src_first : forall n n' x i, x < n -> i < n' -> (dst_first n n' x = Some i <-> src_first n n' i = Some x).
Proof. intros n n' x i Hx Hi. unfold dst_first, src_first. destruct (Nat.ltb_spec x n'); destruct (Nat.ltb_spec i n); split; intros H1; inversion H1; subst; auto; lia. Qed.
Lemma dst_src_last : forall n n' x i, x < n -> i < n' -> (dst_last n n' x = Some i <-> src_last n n' i = Some x).
Proof. intros n n' x i Hx Hi. unfold dst_last, src_last. destruct (Nat.leb_spec n (x + n')); destruct (Nat.leb_spec n' (i + n)); split; intros H1; inversion H1; subst; try (f_equal; lia); lia. Qed.
Lemma dst_row_src : forall o n n' x i, x < n -> i < n' -> (dst_row o n n' x = Some i <-> src_row o n n' i = Some x).
Proof. intros o n n' x i. destruct o; cbn; apply dst_src_first || apply dst_src_last. Qed.
Lemma dst_col_src : forall o n n' x i, x < n -> i < n' -> (dst_col o n n' x = Some i <-> src_col o n n' i = Some x).
Proof. intros o n n' x i. destruct o; cbn; apply dst_src_first || apply dst_src_last. Qed.
Lemma src_row_lt : forall o n n' i x, i < n' -> src_row o n n' i = Some x -> x < n.
Proof. intros o n n' i x Hi. destruct o; cbn; unfold src_first, src_last; [destruct (Nat.ltb_spec i n)|destruct (Nat.ltb_spec i n)|destruct (Nat.leb_spec n' (i + n))|destruct (Nat.leb_spec n' (i + n))]; intros E; inversion E; lia. Qed.
Lemma src_col_lt : forall o n n' i x, i < n' -> src_col o n n' i = Some x -> x < n.
Proof. intros o n n' i x Hi. destruct o; cbn; unfold src_first, src_last; [destruct (Nat.ltb_spec i n)|destruct (Nat.leb_spec n' (i + n))|destruct (Nat.ltb_spec i n)|destruct (Nat.leb_spec n' (i + n))]; intros E; inversion E; lia. Qed.
Lemma dst_row_lt : forall o n n' x i, x < n -> dst_row o n n' x = Some i -> i < n'.
Proof. intros o n n' x i Hx. destruct o; cbn; unfold dst_first, dst_last; [destruct (Nat.ltb_spec x n')|destruct (Nat.ltb_spec x n')|destruct (Nat.leb_spec n (x + n'))|destruct (Nat.leb_spec n (x + n'))]; intros E; inversion E; lia. Qed.
Lemma dst_col_lt : forall o n n' x i, x < n -> dst_col o n n' x = Some i -> i < n'.
Proof. intros o n n' x i Hx. destruct o; cbn; unfold dst_first, dst_last; [destruct (Nat.ltb_spec x n')|destruct (Nat.leb_spec n (x + n'))|destruct (Nat.ltb_spec x n')|destruct (Nat.leb_spec n (x + n'))]; intros E; inversion E; lia. Qed.

Definition moved (o : origin) (n m n' m' : nat) (c2r : list (list nat)) (cs : list nat) : list (nat * nat) :=
  flat_map (fun c => flat_map (fun x => match dst_row o n n' x, dst_col o m m' c with Some i, Some j => [(i, j)] | _, _ => [] end) (nth c c2r [])) cs.

Lemma moved_in : forall o n m n' m' c2r cs i j, In (i, j) (moved o n m n' m' c2r cs) <-> exists c x, In c cs /\ In x (nth c c2r []) /\ dst_row o n n' x = Some i /\ dst_col o m m' c = Some j.
Proof.
  intros. unfold moved. rewrite in_flat_map. split.
  - intros (c & Ic & H). rewrite in_flat_map in H. destruct H as (x & Ix & H). exists c, x. destruct (dst_row o n n' x), (dst_col o m m' c); cbn in H; try contradiction. destruct H as [H|[]]. inversion H. auto.
  - intros (c & x & Ic & Ix & E1 & E2). exists c. split; auto. rewrite in_flat_map. exists x. split; auto. rewrite E1, E2. left. auto.
Qed.

Lemma moved_nodup : forall o n m n' m' c2r cs f, view_ok c2r m n (flip f) -> NoDup cs -> (forall c, In c cs -> c < m) -> NoDup (moved o n m n' m' c2r cs).
Proof.
  intros o n m n' m' c2r cs f V ND H. apply nodup_flat; auto.
  - intros c Ic. destruct V as [L V]. destruct (V c (H c Ic)) as [NC HC]. apply nodup_flat; auto.
    + intros x _. destruct (dst_row o n n' x), (dst_col o m m' c); repeat constructor; auto.
    + intros x y z Ix Iy Hx Hy. apply HC in Ix. apply HC in Iy. destruct (dst_row o n n' x) eqn:E1, (dst_row o n n' y) eqn:E2, (dst_col o m m' c) eqn:E3; cbn in Hx, Hy; try contradiction.
      destruct Hx as [<- |[]]. destruct Hy as [Hy|[]]. inversion Hy. subst. pose proof (dst_row_lt _ _ _ _ _ (proj1 Ix) E1). rewrite dst_row_src in E1 by tauto. rewrite dst_row_src in E2 by tauto. congruence.
  - intros c d [i j] Ic Id H1 H2. rewrite in_flat_map in H1, H2. destruct H1 as (x & _ & H1). destruct H2 as (y & _ & H2).
    destruct (dst_row o n n' x) eqn:E1, (dst_row o n n' y) eqn:E2, (dst_col o m m' c) eqn:E3, (dst_col o m m' d) eqn:E4; cbn in H1, H2; try contradiction. destruct H1 as [H1|[]]. destruct H2 as [H2|[]]. inversion H1. inversion H2. subst.
    pose proof (dst_col_lt _ _ _ _ _ (H c Ic) E3). rewrite dst_col_src in E3 by auto. rewrite dst_col_src in E4 by auto. congruence.
Qed.

Lemma cast_id : forall z, (0 <= z < 2 ^ 31)%Z -> cast 32 z = z.
Proof. intros z H. unfold cast. rewrite Z.mod_small by lia. lia. Qed.

Lemma resize_ok : forall M n m f n' m' o, sp_ok M n m f -> 0 < n' -> 0 < m' -> (Z.of_nat n < 2 ^ 31)%Z -> (Z.of_nat m < 2 ^ 31)%Z -> (Z.of_nat n' < 2 ^ 31)%Z -> (Z.of_nat m' < 2 ^ 31)%Z ->
  exists M', sp_resize M n' m' o = Ret M' /\ sp_ok M' n' m' (fun i j => match src_row o n n' i, src_col o m m' j with Some a, Some b => f a b | _, _ => false end).
Proof.
  intros M n m f n' m' o (R & C & V1 & V2 & _) Hn Hm B1 B2 B3 B4. unfold sp_resize. rewrite R, C. cbv zeta.
  set (cs := match o with TOP_LEFT | BOTTOM_LEFT => seq 0 (Nat.min m' m) | _ => seq (m - Nat.min m' m) (m - (m - Nat.min m' m)) end).
  assert (CS : forall c, In c cs <-> c < m /\ exists j, dst_col o m m' c = Some j).
  { intros c. unfold cs. destruct o; rewrite in_seq; cbn; unfold dst_first, dst_last; (split; [intros H; split; [lia|]|intros [H (j & E)]]).
    1,5: destruct (Nat.ltb_spec c m'); [eexists; reflexivity|lia]. 1,4: destruct (Nat.ltb_spec c m'); [lia|discriminate].
    1,3: destruct (Nat.leb_spec m (c + m')); [eexists; reflexivity|lia]. all: destruct (Nat.leb_spec m (c + m')); [lia|discriminate]. }
  assert (NC : NoDup cs) by (unfold cs; destruct o; apply seq_NoDup).
  assert (LOOP : forall s, match o with
    | TOP_LEFT | BOTTOM_LEFT => for_ (Nat.min m' m) (fun c s => col <- rd (sp_c2r M) c ;;
        for_ (length col) (fun i s => x <- rd col i ;;
          match o with
          | TOP_LEFT | TOP_RIGHT => if x <? n' then sp_push (Z.of_nat x) match o with TOP_LEFT | BOTTOM_LEFT => Z.of_nat c | _ => ((cast 32 (Z.of_nat m') - cast 32 (Z.of_nat m) + Z.of_nat c) mod 2 ^ 64)%Z end s else Ret s
          | _ => if (0 <=? cast 32 (Z.of_nat n') - cast 32 (Z.of_nat n) + cast 32 (Z.of_nat x))%Z then sp_push (cast 32 (Z.of_nat n') - cast 32 (Z.of_nat n) + cast 32 (Z.of_nat x))%Z match o with TOP_LEFT | BOTTOM_LEFT => Z.of_nat c | _ => ((cast 32 (Z.of_nat m') - cast 32 (Z.of_nat m) + Z.of_nat c) mod 2 ^ 64)%Z end s else Ret s
          end) s) s
    | _ => for_from (m - Nat.min m' m) (m - (m - Nat.min m' m)) (fun c s => col <- rd (sp_c2r M) c ;;
        for_ (length col) (fun i s => x <- rd col i ;;
          match o with
          | TOP_LEFT | TOP_RIGHT => if x <? n' then sp_push (Z.of_nat x) match o with TOP_LEFT | BOTTOM_LEFT => Z.of_nat c | _ => ((cast 32 (Z.of_nat m') - cast 32 (Z.of_nat m) + Z.of_nat c) mod 2 ^ 64)%Z end s else Ret s
          | _ => if (0 <=? cast 32 (Z.of_nat n') - cast 32 (Z.of_nat n) + cast 32 (Z.of_nat x))%Z then sp_push (cast 32 (Z.of_nat n') - cast 32 (Z.of_nat n) + cast 32 (Z.of_nat x))%Z match o with TOP_LEFT | BOTTOM_LEFT => Z.of_nat c | _ => ((cast 32 (Z.of_nat m') - cast 32 (Z.of_nat m) + Z.of_nat c) mod 2 ^ 64)%Z end s else Ret s
          end) s) s
    end = each (moved o n m n' m' (sp_c2r M) cs) push2 s).
  { intros s. unfold moved. rewrite each_flat. transitivity (each cs (fun c s => col <- rd (sp_c2r M) c ;;
        for_ (length col) (fun i s => x <- rd col i ;;
          match o with
          | TOP_LEFT | TOP_RIGHT => if x <? n' then sp_push (Z.of_nat x) match o with TOP_LEFT | BOTTOM_LEFT => Z.of_nat c | _ => ((cast 32 (Z.of_nat m') - cast 32 (Z.of_nat m) + Z.of_nat c) mod 2 ^ 64)%Z end s else Ret s
          | _ => if (0 <=? cast 32 (Z.of_nat n') - cast 32 (Z.of_nat n) + cast 32 (Z.of_nat x))%Z then sp_push (cast 32 (Z.of_nat n') - cast 32 (Z.of_nat n) + cast 32 (Z.of_nat x))%Z match o with TOP_LEFT | BOTTOM_LEFT => Z.of_nat c | _ => ((cast 32 (Z.of_nat m') - cast 32 (Z.of_nat m) + Z.of_nat c) mod 2 ^ 64)%Z end s else Ret s
          end) s) s).
    { unfold cs, for_ at 1. destruct o; apply for_from_each. }
    apply each_ext. intros c s0 Ic. apply CS in Ic. destruct Ic as (Hc & j & Ej). rewrite (rd_ok _ []) by (destruct V2; lia). cbn [bind]. rewrite for_rd_each. rewrite each_flat. apply each_ext. intros x s1 Ix.
    destruct V2 as [LV V2]. apply (V2 c Hc) in Ix. destruct Ix as [Hx _]. rewrite Ej. rewrite !cast_id by lia.
    assert (CI : match o with TOP_LEFT | BOTTOM_LEFT => Z.of_nat c | _ => ((Z.of_nat m' - Z.of_nat m + Z.of_nat c) mod 2 ^ 64)%Z end = Z.of_nat j).
    { destruct o; cbn in Ej; unfold dst_first, dst_last in Ej; [destruct (c <? m')|destruct (Nat.leb_spec m (c + m'))|destruct (c <? m')|destruct (Nat.leb_spec m (c + m'))]; inversion Ej; auto; rewrite Z.mod_small by lia; lia. }
    rewrite CI. destruct o; cbn [dst_row]; unfold dst_first, dst_last; [destruct (Nat.ltb_spec x n')|destruct (Nat.ltb_spec x n')|destruct (Nat.leb_spec n (x + n'))|destruct (Nat.leb_spec n (x + n'))]; cbn [each]; auto.
    1,2: unfold push2; cbn [fst snd]; destruct (sp_push _ _ _); auto.
    all: [> rewrite (proj2 (Z.leb_le _ _)) by lia | rewrite (proj2 (Z.leb_gt _ _)) by lia | rewrite (proj2 (Z.leb_le _ _)) by lia | rewrite (proj2 (Z.leb_gt _ _)) by lia]; auto.
    all: unfold push2; cbn [fst snd]; replace (Z.of_nat n' - Z.of_nat n + Z.of_nat x)%Z with (Z.of_nat (x + n' - n)) by lia; destruct (sp_push _ _ _); auto. }
  rewrite LOOP. clear LOOP.
  destruct (pushes_ok n' m' (moved o n m n' m' (sp_c2r M) cs) (fun _ _ => false) (repeat [] n') (repeat [] m')) as (w1 & w2 & E & W1 & W2); try apply view_empty.
  { apply (moved_nodup _ _ _ _ _ _ _ f); auto. intros. apply CS. auto. }
  { intros i j I. apply moved_in in I. destruct I as (c & x & Ic & Ix & E1 & E2). apply CS in Ic. destruct V2 as [LV V2]. apply (V2 c (proj1 Ic)) in Ix. split. { apply (dst_row_lt _ _ _ _ _ (proj1 Ix) E1). } split; auto. apply (dst_col_lt _ _ _ _ _ (proj1 Ic) E2). }
  rewrite E. cbn [bind]. cbn [orb] in W1, W2. destruct (parse_ok n' m' w1 w2 _ 0 0 0 Hn Hm W1 W2) as (M' & E' & K). exists M'. split; auto.
  eapply sp_ok_ext; [|exact K]. intros i j Hi Hj. apply eq_true_iff_eq. cbn beta. rewrite memp_in, moved_in. split.
  - intros (c & x & Ic & Ix & E1 & E2). apply CS in Ic. destruct V2 as [LV V2]. apply (V2 c (proj1 Ic)) in Ix. rewrite dst_row_src in E1 by tauto. rewrite dst_col_src in E2 by tauto. rewrite E1, E2. tauto.
  - intros H. destruct (src_row o n n' i) as [x|] eqn:E1; [|discriminate]. destruct (src_col o m m' j) as [c|] eqn:E2; [|discriminate]. pose proof (src_row_lt _ _ _ _ _ Hi E1). pose proof (src_col_lt _ _ _ _ _ Hj E2).
    rewrite <- dst_row_src in E1 by auto. rewrite <- dst_col_src in E2 by auto. exists c, x. split. { apply CS. eauto. } split; auto. destruct V2 as [LV V2]. apply V2; auto.
Qed.

(* ------------------------------------------------------------------ *)
(** * Sorting the columns *)
Lemma perm_split : forall m s (g : nat -> nat), is_perm m s -> Permutation (map (fun j => g (nth j s 0)) (seq 0 m)) (map g (seq 0 m)).
Proof.
  intros m s g P. assert (E : map (fun j => g (nth j s 0)) (seq 0 m) = map g s).
  { destruct P as [L _]. apply (nth_ext _ _ 0 0). { rewrite !map_length, seq_length. auto. } intros i Hi. rewrite map_length, seq_length in Hi.
    rewrite (nth_indep _ _ (g (nth 0 s 0))) by (rewrite map_length, seq_length; auto). rewrite (map_nth (fun j => g (nth j s 0))), seq_nth by auto.
    rewrite (nth_indep (map g s) _ (g 0)) by (rewrite map_length; lia). rewrite map_nth. auto. }
  rewrite E. apply Permutation_map. apply is_perm_iff. auto.
Qed.

Lemma list_max_perm : forall a b, Permutation a b -> list_max a = list_max b.
Proof. intros a b P. induction P; unfold list_max in *; cbn [fold_right] in *; lia. Qed.

Lemma list_sum_perm : forall a b, Permutation a b -> list_sum a = list_sum b.
Proof. intros a b P. induction P; unfold list_sum in *; cbn [fold_right] in *; lia. Qed.

Lemma row_deg_perm : forall f m s r, is_perm m s -> row_deg (fun i j => f i (nth j s 0)) m r = row_deg f m r.
Proof. intros f m s r P. rewrite !row_deg_sum. unfold sumf. apply list_sum_perm. apply (perm_split m s (fun c => Nat.b2n (f r c))). auto. Qed.

Lemma sort_ok : forall M n m f o v, sp_ok M n m f -> std_sorted o (sp_c2r M) v ->
  exists M' s, sp_sort_with M v = Ret M' /\ is_perm m s /\ sp_ok M' n m (fun i j => f i (nth j s 0)) /\
    forall a b, a < b < m -> match o with ASCENDING => col_deg (fun i j => f i (nth j s 0)) n a <= col_deg (fun i j => f i (nth j s 0)) n b | DESCENDING => col_deg (fun i j => f i (nth j s 0)) n b <= col_deg (fun i j => f i (nth j s 0)) n a end.
Proof.
  intros M n m f o v (R & C & V1 & V2 & N & MR & MC) [P SO]. pose proof V2 as [L2 H2]. pose proof V1 as [L1 _].
  destruct (proj1 (Permutation_nth _ _ []) P) as (Lv & sg & BF & BI & HS). rewrite L2 in *.
  set (s := map sg (seq 0 m)). assert (NS : forall j, j < m -> nth j s 0 = sg j). { intros j Hj. unfold s. rewrite (nth_indep _ _ (sg 0)) by (rewrite map_length, seq_length; auto). rewrite map_nth, seq_nth; auto. }
  assert (PS : is_perm m s). { split. { unfold s. rewrite map_length, seq_length. auto. } split. { intros j Hj. rewrite NS by auto. apply BF. auto. } intros i j Hi Hj E. rewrite !NS in E by auto. apply BI; auto. }
  set (f' := fun i j => f i (nth j s 0)).
  assert (W2 : view_ok v m n (flip f')). { split; auto. intros j Hj. rewrite HS by auto. destruct (H2 (sg j) (BF j Hj)) as [ND HI]. split; auto. intros i. rewrite HI. unfold flip, f'. rewrite NS by auto. tauto. }
  unfold sp_sort_with. set (ps := flat_map (fun j => map (fun r => (r, j)) (nth j v [])) (seq 0 m)).
  destruct (pushes1_ok n m ps (fun _ _ => false) (repeat [] n)) as (w1 & E & W1).
  - apply nodup_flat. { apply seq_NoDup. } { intros j Hj. apply in_seq in Hj. destruct W2 as [_ W2]. destruct (W2 j ltac:(lia)) as [ND _]. apply FinFun.Injective_map_NoDup; auto. intros a b H. inversion H. auto. }
    intros x y z _ _ H1 H3. apply in_map_iff in H1. apply in_map_iff in H3. destruct H1 as (a & <- & _). destruct H3 as (b & E & _). inversion E. auto.
  - intros i j I. unfold ps in I. apply in_flat_map in I. destruct I as (j' & Ij & I). apply in_map_iff in I. destruct I as (i' & E & I). inversion E; subst. apply in_seq in Ij. destruct W2 as [_ W2]. apply (W2 j ltac:(lia)) in I. split; [tauto|]. split; [lia|auto].
  - apply view_empty.
  - replace (map (fun _ : list nat => []) (sp_r2c M)) with (repeat (@nil nat) n). 2: { rewrite <- L1. clear. induction (sp_r2c M); cbn; auto. f_equal. auto. }
    assert (LOOP : for_ (length v) (fun i r2c => col <- rd v i ;; for_ (length col) (fun j r2c => r <- rd col j ;; push_at r2c r i) r2c) (repeat [] n) = Ret w1).
    { rewrite <- E. unfold ps. rewrite each_flat. rewrite Lv. unfold for_ at 1. rewrite for_from_each. apply each_ext. intros j s0 Ij. apply in_seq in Ij. rewrite (rd_ok _ []) by lia. cbn [bind]. rewrite for_rd_each.
      clear. revert s0. induction (nth j v []) as [|x l IH]; intros s0; cbn [map each]; auto. cbn [fst snd]. apply bind_ext. intros a _. apply IH. }
    rewrite LOOP. cbn [bind]. eexists. exists s. split; [reflexivity|]. split; [auto|]. fold f'. split.
    + unfold sp_ok. cbn [sp_rows sp_cols sp_r2c sp_c2r sp_n sp_rmax sp_cmax]. split; [auto|]. split; [auto|]. split; [|split; [auto|split; [|split]]].
      * eapply view_ext; [|exact W1]. intros i j Hi Hj. cbn [orb]. apply eq_true_iff_eq. rewrite memp_in. unfold ps. rewrite in_flat_map. destruct W2 as [_ W2]. split.
        -- intros (j' & Ij & I). apply in_map_iff in I. destruct I as (i' & E1 & I). inversion E1; subst. apply (W2 j Hj) in I. apply I.
        -- intros H. exists j. split. { apply in_seq. lia. } apply in_map_iff. exists i. split; auto. apply (W2 j Hj). auto.
      * rewrite N. apply sumf_ext. intros. symmetry. apply row_deg_perm. auto.
      * rewrite MR. apply maxf_ext. intros. symmetry. apply row_deg_perm. auto.
      * rewrite MC. symmetry. apply (list_max_perm (map (row_deg (flip f') n) (seq 0 m)) (map (row_deg (flip f) n) (seq 0 m))). apply (perm_split m s (row_deg (flip f) n)). auto.
    + intros a b Hab. specialize (SO a b ltac:(lia)). rewrite !col_row. unfold size_le in SO. rewrite !(view_len _ _ _ _ _ W2) in SO by lia. auto.
Qed.

Lemma identity_ok : forall n m, exists M, sp_identity n m = Ret M /\ sp_ok M n m (fun i j => i =? j).
Proof.
  intros n m. unfold sp_identity. destruct (for_inv _ (fun k M => sp_ok M n m (fun i j => (i =? j) && (i <? k))) (Nat.min n m) (fun i M => sp_add M i i) (sp_new n m)) as (M & E & K).
  - eapply sp_ok_ext; [|apply new_ok]. intros. cbn. rewrite andb_false_r. auto.
  - intros i M Hi K. destruct (add_ok M n m _ i i K) as (M' & E & K'); try lia. { rewrite Nat.ltb_irrefl, andb_false_r. auto. } exists M'. split; auto. eapply sp_ok_ext; [|exact K']. intros a b Ha Hb. unfold setf.
    destruct (Nat.eqb_spec a b), (Nat.ltb_spec a i), (Nat.ltb_spec a (S i)), (Nat.eqb_spec a i), (Nat.eqb_spec b i); cbn; auto; lia.
  - exists M. split; auto. eapply sp_ok_ext; [|exact K]. intros i j Hi Hj. cbn beta. destruct (Nat.eqb_spec i j); cbn; auto. apply Nat.ltb_lt. lia.
Qed.

(* ------------------------------------------------------------------ *)
(** * Products *)
Lemma each_sum : forall row (h : nat -> bool) body s, (forall c s, In c row -> body c s = Ret (s + Nat.b2n (h c))) -> each row body s = Ret (s + list_sum (map (fun c => Nat.b2n (h c)) row)).
Proof.
  intros row h body. induction row as [|c row IH]; intros s H; cbn [each map list_sum fold_right]. { f_equal. lia. } rewrite H by (left; auto). cbn [bind]. rewrite IH by (intros; apply H; right; auto). f_equal. unfold list_sum. cbn. lia.
Qed.

Lemma odd_prod : forall k (f : nat -> nat -> bool) i (h : nat -> bool) row, NoDup row -> (forall c, In c row <-> c < k /\ f i c = true) ->
  Nat.odd (list_sum (map (fun c => Nat.b2n (h c)) row)) = fold_right xorb false (map (fun q => f i q && h q) (seq 0 k)).
Proof.
  intros k f i h row ND H. assert (P : Permutation row (filter (fun c => f i c) (seq 0 k))).
  { apply NoDup_Permutation; auto. { apply NoDup_filter. apply seq_NoDup. } intros c. rewrite H, filter_In, in_seq. split; intros [A B]; split; auto; lia. }
  rewrite (list_sum_perm _ _ (Permutation_map _ P)). generalize (seq 0 k). intros l. induction l as [|q l IH]; cbn [filter map fold_right]; auto.
  destruct (f i q); cbn [andb]; [|rewrite xorb_false_l; auto]. cbn [map]. unfold list_sum in *. cbn [fold_right]. rewrite Nat.odd_add, IH. f_equal. destruct (h q); auto.
Qed.

Lemma prod_loop : forall L N (p : nat -> nat -> bool) body, (forall C l n, l < L -> n < N -> body l n C = (if p l n then sp_add C l n else Ret C)) ->
  exists C, for_ L (fun l C => for_ N (fun n C => body l n C) C) (sp_new L N) = Ret C /\ sp_ok C L N p.
Proof.
  intros L N p body H. destruct (for_inv _ (fun l C => sp_ok C L N (fun i j => (i <? l) && p i j)) L (fun l C => for_ N (fun n C => body l n C) C) (sp_new L N)) as (C & E & K).
  - eapply sp_ok_ext; [|apply new_ok]. auto.
  - intros l C Hl K. destruct (for_inv _ (fun n C => sp_ok C L N (fun i j => ((i <? l) || (i =? l) && (j <? n)) && p i j)) N (fun n C => body l n C) C) as (C' & E' & K').
    + eapply sp_ok_ext; [|exact K]. intros i j _ _. cbn. rewrite andb_false_r, orb_false_r. auto.
    + intros n C1 Hn K1. rewrite H by auto. destruct (p l n) eqn:PL.
      * destruct (add_ok C1 L N _ l n K1) as (C2 & E2 & K2); auto. { rewrite Nat.ltb_irrefl, Nat.ltb_irrefl, andb_false_r. auto. } exists C2. split; auto. eapply sp_ok_ext; [|exact K2]. intros i j Hi Hj. unfold setf.
        destruct (Nat.ltb_spec i l), (Nat.eqb_spec i l), (Nat.ltb_spec j n), (Nat.ltb_spec j (S n)), (Nat.eqb_spec j n); cbn; subst; rewrite ?PL, ?orb_false_r; auto; lia.
      * exists C1. split; auto. eapply sp_ok_ext; [|exact K1]. intros i j Hi Hj. cbn beta.
        destruct (Nat.ltb_spec i l), (Nat.eqb_spec i l), (Nat.ltb_spec j n), (Nat.ltb_spec j (S n)); cbn; auto; try lia. assert (j = n) by lia. subst. rewrite PL. auto.
    + exists C'. split; auto. eapply sp_ok_ext; [|exact K']. intros i j Hi Hj. cbn beta. destruct (Nat.ltb_spec i l), (Nat.eqb_spec i l), (Nat.ltb_spec j N), (Nat.ltb_spec i (S l)); cbn; auto; lia.
  - exists C. split; auto. eapply sp_ok_ext; [|exact K]. intros i j Hi Hj. cbn beta. rewrite (proj2 (Nat.ltb_lt i L)) by auto. auto.
Qed.

Lemma at_ok : forall M n m f r c, sp_ok M n m f -> r < n -> c < m -> sp_at M r c = Ret (f r c).
Proof. intros M n m f r c S. apply sp_is_ok in S. apply S. Qed.

Lemma row_ok : forall M n m f r, sp_ok M n m f -> r < n -> exists l, sp_row M r = Ret l /\ NoDup l /\ forall c, In c l <-> c < m /\ f r c = true.
Proof. intros M n m f r S. apply sp_is_ok in S. apply S. Qed.

Lemma bgemm_ok : forall A B L k N f g, sp_ok A L k f -> sp_ok B k N g -> exists C, sp_bgemm A B = Ret C /\ sp_ok C L N (bit_prod k f g).
Proof.
  intros A B L k N f g SA SB. pose proof SA as (RA & CA & _). pose proof SB as (RB & CB & _). unfold sp_bgemm. rewrite RA, CA, RB, CB, Nat.eqb_refl. cbn [guard bind].
  apply (prod_loop L N (bit_prod k f g)). intros C l n Hl Hn. destruct (row_ok _ _ _ _ _ SA Hl) as (row & E & ND & HI). rewrite E. cbn [bind].
  rewrite (each_sum row (fun c => g c n)). 2: { intros c s Ic. apply HI in Ic. rewrite (at_ok _ _ _ _ _ _ SB) by tauto. auto. }
  cbn [bind Nat.add]. rewrite (odd_prod k f l (fun q => g q n) row) by auto. reflexivity.
Qed.

Lemma bgemmt_ok : forall A B L k N f g, sp_ok A L k f -> sp_ok B N k g -> exists C, sp_bgemmt A B = Ret C /\ sp_ok C L N (bit_prod k f (fun q j => g j q)).
Proof.
  intros A B L k N f g SA SB. pose proof SA as (RA & CA & _). pose proof SB as (RB & CB & _). unfold sp_bgemmt. rewrite RA, CA, RB, CB, Nat.eqb_refl. cbn [guard bind].
  apply (prod_loop L N (bit_prod k f (fun q j => g j q))). intros C l n Hl Hn. destruct (row_ok _ _ _ _ _ SA Hl) as (row & E & ND & HI). rewrite E. cbn [bind].
  rewrite (each_sum row (fun c => g n c)). 2: { intros c s Ic. apply HI in Ic. rewrite (at_ok _ _ _ _ _ _ SB) by tauto. auto. }
  cbn [bind Nat.add]. rewrite (odd_prod k f l (fun q => g n q) row) by auto. reflexivity.
Qed.

Lemma each_nop : forall A S (l : list A) (b : A -> S -> outcome S) s, (forall x s, In x l -> b x s = Ret s) -> each l b s = Ret s.
Proof. intros A S l b. induction l as [|x l IH]; intros s H; cbn [each]; auto. rewrite H by (left; auto). cbn [bind]. apply IH. intros. apply H. right. auto. Qed.

Lemma resize_zero : forall M n m f n' m' o, sp_ok M n m f -> n' = 0 \/ m' = 0 -> (Z.of_nat n < 2 ^ 31)%Z -> (Z.of_nat m < 2 ^ 31)%Z -> sp_resize M n' m' o = Undef.
Proof.
  intros M n m f n' m' o (R & C & V1 & V2 & _) Hz B1 B2. unfold sp_resize. rewrite R, C. cbv zeta.
  assert (PARSE : forall r2c c2r, length r2c = n' -> length c2r = m' -> sp_parse (mkSparse n' m' 0 0 0 r2c c2r) = Undef).
  { intros r2c c2r E1 E2. unfold sp_parse. cbn [sp_r2c sp_c2r]. unfold max_size. destruct r2c; cbn [bind]; auto. destruct c2r; cbn [bind]; auto. cbn in E1, E2. lia. }
  assert (COL : forall c x, c < m -> In x (nth c (sp_c2r M) []) -> x < n). { intros c x Hc Ix. destruct V2 as [_ V2]. apply (V2 c Hc) in Ix. tauto. }
  destruct (Nat.eq_dec n' 0) as [Hn|Hn].
  - subst n'. destruct o; [unfold for_ at 1| |unfold for_ at 1|]; rewrite for_from_each; (rewrite each_nop; [cbn [bind]; apply PARSE; [auto|apply repeat_length]|]); intros c s0 Ic; apply in_seq in Ic; (rewrite (rd_ok _ []) by (destruct V2; lia)); cbn [bind]; rewrite for_rd_each; apply each_nop; intros x s1 Ix; apply COL in Ix; try lia; auto.
    all: rewrite !cast_id by lia; rewrite (proj2 (Z.leb_gt _ _)) by lia; auto.
  - assert (m' = 0) by lia. subst m'. replace (Nat.min 0 m) with 0 by lia. rewrite Nat.sub_0_r, Nat.sub_diag. destruct o; cbn [for_ for_from bind]; apply PARSE; auto; apply repeat_length.
Qed.
