(** Proofs about the dense matrices. *)
From Coq Require Import List Arith Lia Bool ZArith Permutation.
From Verif Require Import Base SparseModel SparseSpec SparseProofs FullModel FullSpec.
Import ListNotations.

(* ------------------------------------------------------------------ *)
(** * Arrays with rows of given widths *)
Definition mat (t : list (list Z)) (n : nat) (w : nat -> nat) (g : nat -> nat -> Z) : Prop :=
  length t = n /\ forall i, i < n -> length (nth i t []) = w i /\ forall j, j < w i -> nth j (nth i t []) 0%Z = g i j.

Lemma mat_ext : forall t n w w' g g', (forall i, i < n -> w i = w' i) -> (forall i j, i < n -> j < w i -> g i j = g' i j) -> mat t n w g -> mat t n w' g'.
Proof. intros t n w w' g g' W G [L H]. split; auto. intros i Hi. destruct (H i Hi) as [A B]. rewrite <- W by auto. split; auto. intros j Hj. rewrite B, G; auto. Qed.

Lemma get2_ok : forall t n w g i j, mat t n w g -> i < n -> j < w i -> get2 t i j = Ret (g i j).
Proof. intros t n w g i j [L H] Hi Hj. destruct (H i Hi) as [A B]. unfold get2. rewrite (rd_ok _ []) by lia. cbn [bind]. rewrite (rd_ok _ 0%Z) by lia. rewrite B; auto. Qed.

Definition upd2 (g : nat -> nat -> Z) (r c : nat) (x : Z) (i j : nat) : Z := if (i =? r) && (j =? c) then x else g i j.

Lemma set2_ok : forall t n w g r c x, mat t n w g -> r < n -> c < w r -> exists t', set2 t r c x = Ret t' /\ mat t' n w (upd2 g r c x).
Proof.
  intros t n w g r c x [L H] Hr Hc. destruct (H r Hr) as [A B]. unfold set2. rewrite (rd_ok _ []) by lia. cbn [bind]. rewrite wr_ok by lia. cbn [bind]. rewrite wr_ok by lia. eexists. split; [reflexivity|].
  split. { rewrite length_upd. auto. } intros i Hi. unfold upd2. destruct (Nat.eqb_spec i r).
  - subst i. rewrite nth_upd_eq by lia. rewrite length_upd. split; auto. intros j Hj. destruct (Nat.eqb_spec j c). { subst. rewrite nth_upd_eq by lia. auto. } rewrite nth_upd_neq by auto. apply B; auto.
  - rewrite nth_upd_neq by auto. destruct (H i Hi) as [C D]. split; auto.
Qed.

(* ------------------------------------------------------------------ *)
(** * The invariant of the class *)
Definition nzf (g : nat -> nat -> Z) (i j : nat) : bool := nz (g i j).
Definition degs (l : list nat) (n m : nat) (f : nat -> nat -> bool) : Prop := length l = n /\ forall i, i < n -> nth i l 0 = row_deg f m i.

Definition fu_ok (M : full) (n m : nat) (g : nat -> nat -> Z) : Prop :=
  fu_rows M = n /\ fu_cols M = m /\ mat (fu_m M) n (fun _ => m) g /\
  degs (fu_rd M) n m (nzf g) /\ degs (fu_cd M) m n (flip (nzf g)) /\
  fu_n M = ones (nzf g) n m /\ fu_rmax M = maxf (row_deg (nzf g) m) n /\ fu_cmax M = maxf (row_deg (flip (nzf g)) n) m.

Lemma fu_at_ok : forall M n m g r c, fu_rows M = n -> fu_cols M = m -> mat (fu_m M) n (fun _ => m) g -> fu_at M r c = if (c <? m) && (r <? n) then Ret (nz (g r c)) else Throws.
Proof.
  intros M n m g r c R C H. unfold fu_at. rewrite R, C. destruct (Nat.ltb_spec c m); cbn [guard bind andb]; auto. destruct (Nat.ltb_spec r n); cbn [guard bind]; auto. rewrite (get2_ok _ _ _ _ _ _ H) by auto. auto.
Qed.

Lemma fu_exact_ok : forall M n m g, fu_exact M n m g <-> fu_ok M n m g.
Proof.
  intros M n m g. unfold fu_exact, fu_ok, fu_shape. split.
  - intros ((R & C & L & W & G) & A & L1 & L2 & D1 & D2 & N & X & Y). repeat (split; auto).
  - intros (R & C & H & [L1 D1] & [L2 D2] & N & X & Y). pose proof (fun r c => fu_at_ok M n m g r c R C H) as A. destruct H as [L H]. split. { split; [auto|]. split; [auto|]. split; [auto|]. split; intros; apply H; auto. } repeat (split; auto).
Qed.

Lemma degs_ext : forall l n m f f', (forall i j, i < n -> j < m -> f i j = f' i j) -> degs l n m f -> degs l n m f'.
Proof. intros l n m f f' E [L D]. split; auto. intros i Hi. rewrite D by auto. apply row_deg_ext. intros. apply E; auto. Qed.

Lemma fu_ok_ext : forall M n m g g', (forall i j, i < n -> j < m -> g i j = g' i j) -> fu_ok M n m g -> fu_ok M n m g'.
Proof.
  intros M n m g g' E (R & C & H & D1 & D2 & N & X & Y). assert (E' : forall i j, i < n -> j < m -> nzf g i j = nzf g' i j) by (intros; unfold nzf; rewrite E; auto).
  split; [auto|]. split; [auto|]. split. { eapply mat_ext; [| |exact H]; auto. } split. { eapply degs_ext; [|exact D1]. auto. } split. { eapply degs_ext; [|exact D2]. unfold flip. auto. }
  split. { rewrite N. apply ones_ext. auto. } split. { rewrite X. apply maxf_ext. intros. apply row_deg_ext. auto. } rewrite Y. apply maxf_ext. intros. apply row_deg_ext. unfold flip. auto.
Qed.

Lemma degs_new : forall n m, degs (repeat 0 n) n m (fun _ _ => false).
Proof. intros n m. split. { apply repeat_length. } intros i Hi. rewrite nth_repeat_lt by auto. rewrite row_deg_sum. induction m; auto. rewrite sumf_S, <- IHm. auto. Qed.

Lemma mat_zeros : forall n m, mat (repeat (repeat 0%Z m) n) n (fun _ => m) (fun _ _ => 0%Z).
Proof. intros n m. split. { apply repeat_length. } intros i Hi. rewrite nth_repeat_lt by auto. split. { apply repeat_length. } intros j Hj. rewrite nth_repeat_lt by auto. auto. Qed.

Lemma zero_deg : forall m i, row_deg (fun _ _ => false) m i = 0.
Proof. intros. rewrite row_deg_sum. induction m; auto. rewrite sumf_S, IHm. auto. Qed.
Lemma zero_max : forall n g, (forall i, i < n -> g i = 0) -> maxf g n = 0.
Proof. intros n g H. induction n; auto. rewrite maxf_S, IHn, H by auto. auto. Qed.

Lemma fu_new_ok : forall n m, fu_ok (fu_new n m) n m (fun _ _ => 0%Z).
Proof.
  intros n m. unfold fu_ok, fu_new. cbn [fu_rows fu_cols fu_m fu_rd fu_cd fu_n fu_rmax fu_cmax]. split; [auto|]. split; [auto|]. split. { apply mat_zeros. }
  split. { eapply degs_ext; [|apply degs_new]. auto. } split. { eapply degs_ext; [|apply degs_new]. auto. }
  split. { rewrite (ones_ext _ (fun _ _ => false)) by auto. unfold ones. fold (sumf (row_deg (fun _ _ => false) m) n). symmetry. induction n; auto. rewrite sumf_S, IHn, zero_deg. auto. }
  split; symmetry; apply zero_max; intros; apply zero_deg.
Qed.

Lemma nz_set : forall g r c i j, nzf (upd2 g r c 1) i j = setf (nzf g) r c i j.
Proof. intros. unfold nzf, upd2, setf. destruct ((i =? r) && (j =? c)); [rewrite orb_true_r|rewrite orb_false_r]; auto. Qed.
Lemma nz_clr : forall g r c i j, nzf (upd2 g r c 0) i j = clrf (nzf g) r c i j.
Proof. intros. unfold nzf, upd2, clrf. destruct ((i =? r) && (j =? c)); [rewrite andb_false_r|rewrite andb_true_r]; auto. Qed.

Lemma degs_set : forall l n m f r c, degs l n m f -> r < n -> c < m -> f r c = false -> degs (upd l r (S (nth r l 0))) n m (setf f r c).
Proof.
  intros l n m f r c [L D] Hr Hc F. destruct (deg_set f m r c Hc F) as [A B]. split. { rewrite length_upd. auto. } intros i Hi. destruct (Nat.eq_dec i r). { subst. rewrite nth_upd_eq by lia. rewrite A, D by auto. auto. } rewrite nth_upd_neq, B, D by auto. auto.
Qed.
Lemma degs_clr : forall l n m f r c, degs l n m f -> r < n -> c < m -> f r c = true -> degs (upd l r (nth r l 0 - 1)) n m (clrf f r c).
Proof.
  intros l n m f r c [L D] Hr Hc F. destruct (deg_clr f m r c Hc F) as [A B]. split. { rewrite length_upd. auto. } intros i Hi. destruct (Nat.eq_dec i r). { subst. rewrite nth_upd_eq by lia. rewrite D by auto. lia. } rewrite nth_upd_neq, B, D by auto. auto.
Qed.
Lemma max_set : forall n m f r c, r < n -> c < m -> f r c = false -> maxf (row_deg (setf f r c) m) n = Nat.max (maxf (row_deg f m) n) (S (row_deg f m r)).
Proof. intros n m f r c Hr Hc F. destruct (deg_set f m r c Hc F) as [A B]. rewrite (maxf_inc (row_deg f m) _ n r) by (auto; lia). rewrite A. auto. Qed.
Lemma ones_set : forall n m f r c, r < n -> c < m -> f r c = false -> ones (setf f r c) n m = S (ones f n m).
Proof. intros n m f r c Hr Hc F. destruct (deg_set f m r c Hc F) as [A B]. pose proof (sumf_change (row_deg f m) (row_deg (setf f r c) m) n r Hr ltac:(intros; apply B; auto)) as E. unfold ones. unfold sumf in E. lia. Qed.
Lemma ones_clr : forall n m f r c, r < n -> c < m -> f r c = true -> S (ones (clrf f r c) n m) = ones f n m.
Proof. intros n m f r c Hr Hc F. destruct (deg_clr f m r c Hc F) as [A B]. pose proof (sumf_change (row_deg f m) (row_deg (clrf f r c) m) n r Hr ltac:(intros; apply B; auto)) as E. unfold ones. unfold sumf in E. lia. Qed.

Lemma list_max_maxf : forall l, list_max l = maxf (fun i => nth i l 0) (length l).
Proof. intros l. unfold maxf. f_equal. apply (nth_ext _ _ 0 0). { rewrite map_length, seq_length. auto. } intros i Hi. rewrite (nth_indep (map _ _) _ (nth 0 l 0)) by (rewrite map_length, seq_length; auto). rewrite (map_nth (fun i => nth i l 0)), seq_nth by auto. auto. Qed.

Lemma degs_max : forall l n m f, degs l n m f -> 0 < n -> max_of l = Ret (maxf (row_deg f m) n).
Proof. intros l n m f [L D] Hn. unfold max_of. destruct l; [cbn in L; lia|]. rewrite list_max_maxf, L. f_equal. apply maxf_ext. auto. Qed.

Lemma max_clr : forall l n m f r c, degs l n m f -> r < n -> c < m -> f r c = true ->
  (if nth r l 0 - 1 + 1 =? maxf (row_deg f m) n then max_of (upd l r (nth r l 0 - 1)) else Ret (maxf (row_deg f m) n)) = Ret (maxf (row_deg (clrf f r c) m) n).
Proof.
  intros l n m f r c D Hr Hc F. pose proof (degs_clr _ _ _ _ _ _ D Hr Hc F) as D'. destruct (deg_clr f m r c Hc F) as [A B]. destruct D as [L D]. rewrite D by auto. destruct (Nat.eqb_spec (row_deg f m r - 1 + 1) (maxf (row_deg f m) n)).
  - rewrite <- D by auto. apply (degs_max _ n m); auto. lia.
  - f_equal. symmetry. apply maxf_eq.
    + intros i Hi. destruct (Nat.eq_dec i r). { subst i. pose proof (maxf_ge (row_deg f m) n r Hr). lia. } rewrite B by auto. apply maxf_ge; auto.
    + destruct (maxf_att (row_deg f m) n) as (k & Hk & E); [lia|]. exists k. split; auto. destruct (Nat.eq_dec k r); [subst; lia|]. rewrite B; auto.
Qed.

Lemma degs_rd : forall l n m f i, degs l n m f -> i < n -> rd l i = Ret (nth i l 0).
Proof. intros l n m f i [L D] Hi. apply rd_ok. lia. Qed.
Lemma degs_wr : forall l n m f i x, degs l n m f -> i < n -> wr l i x = Ret (upd l i x).
Proof. intros l n m f i x [L D] Hi. apply wr_ok. lia. Qed.

Lemma fu_add_ok : forall M n m g r c, fu_ok M n m g -> r < n -> c < m -> g r c = 0%Z -> exists M', fu_add M r c = Ret M' /\ fu_ok M' n m (upd2 g r c 1).
Proof.
  intros M n m g r c (R & C & H & D1 & D2 & N & X & Y) Hr Hc G0. unfold fu_add. rewrite (fu_at_ok M n m g) by auto. rewrite (proj2 (Nat.ltb_lt c m)), (proj2 (Nat.ltb_lt r n)) by auto. rewrite G0. cbn [andb bind nz Z.eqb negb guard].
  destruct (set2_ok _ _ _ _ r c 1%Z H) as (t' & E & H'); auto. rewrite E. cbn [bind]. rewrite (degs_rd _ _ _ _ _ D1), (degs_rd _ _ _ _ _ D2) by auto. cbn [bind]. rewrite (degs_wr _ _ _ _ _ _ D1) by auto. cbn [bind]. rewrite (degs_wr _ _ _ _ _ _ D2) by auto. cbn [bind].
  assert (F : nzf g r c = false) by (unfold nzf; rewrite G0; auto). assert (FF : flip (nzf g) c r = false) by auto.
  eexists. split; [reflexivity|]. unfold fu_ok. cbn [fu_rows fu_cols fu_m fu_rd fu_cd fu_n fu_rmax fu_cmax]. split; [auto|]. split; [auto|]. split; [auto|].
  assert (S1 : forall i j, setf (nzf g) r c i j = nzf (upd2 g r c 1) i j) by (intros; rewrite nz_set; auto). assert (S2 : forall i j, setf (flip (nzf g)) c r i j = flip (nzf (upd2 g r c 1)) i j). { intros. rewrite flip_set. unfold flip. auto. }
  split. { eapply degs_ext; [|apply degs_set; eauto]. auto. } split. { eapply degs_ext; [|apply degs_set; eauto]. auto. }
  split. { rewrite N, <- (ones_set n m (nzf g) r c) by auto. apply ones_ext. auto. }
  split. { rewrite X. rewrite (proj2 D1) by auto. rewrite <- (max_set n m _ r c) by auto. apply maxf_ext. intros. apply row_deg_ext. auto. }
  rewrite Y. rewrite (proj2 D2) by auto. rewrite <- (max_set m n _ c r) by auto. apply maxf_ext. intros. apply row_deg_ext. auto.
Qed.

Lemma fu_rm_ok : forall M n m g r c, fu_ok M n m g -> r < n -> c < m -> exists M', fu_rm M r c = Ret M' /\ fu_ok M' n m (upd2 g r c 0).
Proof.
  intros M n m g r c K0 Hr Hc. pose proof K0 as (R & C & H & D1 & D2 & N & X & Y). unfold fu_rm. rewrite (fu_at_ok M n m g) by auto. rewrite (proj2 (Nat.ltb_lt c m)), (proj2 (Nat.ltb_lt r n)) by auto. cbn [andb bind].
  destruct (nz (g r c)) eqn:F; cbn [negb].
  2: { exists M. split; auto. eapply fu_ok_ext; [|exact K0]. intros i j Hi Hj. unfold upd2. destruct (Nat.eqb_spec i r); auto. destruct (Nat.eqb_spec j c); auto. subst. cbn. unfold nz in F. apply negb_false_iff in F. apply Z.eqb_eq in F. auto. }
  destruct (set2_ok _ _ _ _ r c 0%Z H) as (t' & E & H'); auto. rewrite E. cbn [bind]. rewrite (degs_rd _ _ _ _ _ D1), (degs_rd _ _ _ _ _ D2) by auto. cbn [bind]. rewrite (degs_wr _ _ _ _ _ _ D1) by auto. cbn [bind]. rewrite (degs_wr _ _ _ _ _ _ D2) by auto. cbn [bind].
  rewrite X, Y. rewrite (max_clr _ n m (nzf g) r c) by auto. cbn [bind]. rewrite (max_clr _ m n (flip (nzf g)) c r) by auto. cbn [bind].
  eexists. split; [reflexivity|]. unfold fu_ok. cbn [fu_rows fu_cols fu_m fu_rd fu_cd fu_n fu_rmax fu_cmax]. split; [auto|]. split; [auto|]. split; [auto|].
  assert (S1 : forall i j, clrf (nzf g) r c i j = nzf (upd2 g r c 0) i j) by (intros; rewrite nz_clr; auto). assert (S2 : forall i j, clrf (flip (nzf g)) c r i j = flip (nzf (upd2 g r c 0)) i j). { intros. rewrite flip_clr. unfold flip. auto. }
  split. { eapply degs_ext; [|apply degs_clr; eauto]. auto. } split. { eapply degs_ext; [|apply degs_clr; eauto]. auto. }
  split. { rewrite N. pose proof (ones_clr n m (nzf g) r c Hr Hc F). rewrite <- (ones_ext (clrf (nzf g) r c) (nzf (upd2 g r c 0))) by (intros; apply S1). lia. }
  split; apply maxf_ext; intros; apply row_deg_ext; auto.
Qed.

(* ------------------------------------------------------------------ *)
(** * parse_connections *)
Definition part (f : nat -> nat -> bool) (r c i j : nat) : bool := f i j && ((i <? r) || ((i =? r) && (j <? c))).

Lemma part_next : forall f r c i j, part f r (S c) i j = if f r c then setf (part f r c) r c i j else part f r c i j.
Proof.
  intros f r c i j. unfold part, setf. destruct (Nat.eqb_spec i r).
  - subst i. rewrite Nat.ltb_irrefl. cbn [orb andb]. destruct (Nat.ltb_spec j (S c)), (Nat.ltb_spec j c), (Nat.eqb_spec j c); try lia; try subst j; destruct (f r c); cbn; rewrite ?andb_true_r, ?andb_false_r, ?orb_false_r; auto.
  - cbn [andb]. destruct (f r c); rewrite ?orb_false_r; auto.
Qed.
Lemma part_at : forall f r c, part f r c r c = false.
Proof. intros. unfold part. rewrite Nat.ltb_irrefl, Nat.eqb_refl, Nat.ltb_irrefl. apply andb_false_r. Qed.
Lemma part_row : forall f m r i j, j < m -> part f r m i j = part f (S r) 0 i j.
Proof. intros f m r i j Hj. unfold part. destruct (Nat.ltb_spec j m); [|lia]. change (j <? 0) with false. rewrite andb_true_r, andb_false_r, orb_false_r. f_equal. destruct (Nat.ltb_spec i r), (Nat.eqb_spec i r), (Nat.ltb_spec i (S r)); try lia; auto. Qed.

Definition counted (n m : nat) (f : nat -> nat -> bool) (st : list nat * list nat * nat) : Prop :=
  let '(rdg, cdg, k) := st in degs rdg n m f /\ degs cdg m n (flip f) /\ k = ones f n m.
Lemma counted_ext : forall n m f f' st, (forall i j, i < n -> j < m -> f i j = f' i j) -> counted n m f st -> counted n m f' st.
Proof. intros n m f f' [[a b] k] E (A & B & C). split. { eapply degs_ext; [|exact A]; auto. } split. { eapply degs_ext; [|exact B]. unfold flip. auto. } rewrite C. apply ones_ext. auto. Qed.

Lemma ones_none : forall n m f, (forall i j, i < n -> j < m -> f i j = false) -> ones f n m = 0.
Proof. intros n m f H. rewrite (ones_ext f (fun _ _ => false)) by auto. unfold ones. fold (sumf (row_deg (fun _ _ => false) m) n). clear. induction n; auto. rewrite sumf_S, IHn, zero_deg. auto. Qed.

Lemma fu_parse_ok : forall M n m g, fu_rows M = n -> fu_cols M = m -> mat (fu_m M) n (fun _ => m) g -> length (fu_rd M) = n -> length (fu_cd M) = m -> 0 < n -> 0 < m ->
  exists M', fu_parse M = Ret M' /\ fu_ok M' n m g.
Proof.
  intros M n m g R C H L1 L2 Hn Hm. unfold fu_parse. rewrite R, C.
  match goal with |- context [for_ n ?body ?s0] => destruct (for_inv _ (fun r st => counted n m (part (nzf g) r 0) st) n body s0) as (st & E & K) end.
  - cbn [counted]. assert (Z : forall A (l : list A) k d, length l = k -> map (fun _ => d) l = repeat (d : nat) k). { intros A l k d <-. induction l; cbn; f_equal; auto. }
    rewrite (Z _ _ n), (Z _ _ m) by auto. assert (P0 : forall i j, part (nzf g) 0 0 i j = false). { intros. unfold part. cbn. rewrite andb_false_r. apply andb_false_r. }
    split. { eapply degs_ext; [|apply degs_new]. auto. } split. { eapply degs_ext; [|apply degs_new]. unfold flip. auto. } symmetry. apply ones_none. auto.
  - intros r st Hr K. match goal with |- context [for_ m ?body ?s0] => destruct (for_inv _ (fun c st => counted n m (part (nzf g) r c) st) m body s0) as (st' & E & K') end.
    + auto.
    + intros c [[rdg cdg] k] Hc (A & B & Q). rewrite (get2_ok _ _ _ _ _ _ H) by auto. cbn [bind]. change (nz (g r c)) with (nzf g r c). destruct (nzf g r c) eqn:F.
      * rewrite (degs_rd _ _ _ _ _ A) by auto. cbn [bind]. rewrite (degs_wr _ _ _ _ _ _ A) by auto. cbn [bind]. rewrite (degs_rd _ _ _ _ _ B) by auto. cbn [bind]. rewrite (degs_wr _ _ _ _ _ _ B) by auto. cbn [bind].
        eexists. split; [reflexivity|]. apply (counted_ext _ _ (setf (part (nzf g) r c) r c)). { intros. rewrite part_next, F. auto. }
        split. { apply degs_set; auto. apply part_at. } split. 2: { rewrite Q. symmetry. apply ones_set; auto. apply part_at. }
        eapply degs_ext; [|apply (degs_set _ _ _ _ c r B); auto; apply part_at]. intros. apply flip_set.
      * eexists. split; [reflexivity|]. apply (counted_ext _ _ (part (nzf g) r c)). { intros. rewrite part_next, F. auto. } split; auto.
    + exists st'. split; auto. eapply counted_ext; [|exact K']. intros. apply part_row. auto.
  - rewrite E. destruct st as [[rdg cdg] k]. cbn [bind]. assert (K1 : counted n m (nzf g) (rdg, cdg, k)). { eapply counted_ext; [|exact K]. intros i j Hi Hj. unfold part. rewrite (proj2 (Nat.ltb_lt i n)) by auto. apply andb_true_r. }
    destruct K1 as (A & B & Q). rewrite (degs_max _ _ _ _ A), (degs_max _ _ _ _ B) by auto. cbn [bind]. eexists. split; [reflexivity|]. unfold fu_ok. cbn [fu_rows fu_cols fu_m fu_rd fu_cd fu_n fu_rmax fu_cmax]. repeat (split; [auto|]). auto.
Qed.

(* ------------------------------------------------------------------ *)
(** * mutual_sort *)
Definition exch (s : list nat) (j : nat) : list nat := upd (upd s j (nth (j - 1) s 0)) (j - 1) (nth j s 0).
Definition pick {A} (d : A) (l : list A) (s : list nat) : list A := map (fun i => nth i l d) s.

Lemma exch_nth : forall s j a, 0 < j < length s -> nth a (exch s j) 0 = if a =? j then nth (j - 1) s 0 else if a =? j - 1 then nth j s 0 else nth a s 0.
Proof.
  intros s j a Hj. unfold exch. destruct (Nat.eqb_spec a j).
  - subst. rewrite nth_upd_neq by lia. apply nth_upd_eq. lia.
  - destruct (Nat.eqb_spec a (j - 1)). { subst a. apply nth_upd_eq. rewrite length_upd. lia. } rewrite !nth_upd_neq by auto. auto.
Qed.
Lemma exch_length : forall s j, length (exch s j) = length s.
Proof. intros. unfold exch. rewrite !length_upd. auto. Qed.

Lemma nth_pick : forall A (d : A) l s i, i < length s -> nth i (pick d l s) d = nth (nth i s 0) l d.
Proof. intros A d l s i Hi. unfold pick. rewrite (nth_indep _ _ (nth 0 l d)) by (rewrite map_length; auto). rewrite (map_nth (fun i => nth i l d)). auto. Qed.
Lemma pick_length : forall A (d : A) l s, length (pick d l s) = length s.
Proof. intros. unfold pick. apply map_length. Qed.

Lemma pick_exch : forall A (d : A) l s j, 0 < j < length s -> upd (upd (pick d l s) j (nth (j - 1) (pick d l s) d)) (j - 1) (nth j (pick d l s) d) = pick d l (exch s j).
Proof.
  intros A d l s j Hj. unfold exch, pick. rewrite !map_upd. f_equal; [f_equal|].
  - apply (nth_pick A d l s (j - 1)). lia.
  - apply (nth_pick A d l s j). lia.
Qed.

Lemma exch_perm : forall m s j, is_perm m s -> 0 < j < m -> is_perm m (exch s j).
Proof.
  intros m s j P Hj. assert (L : length s = m) by exact (proj1 P). split; [rewrite exch_length; auto|]. split.
  - intros i Hi. rewrite exch_nth by lia. destruct (Nat.eqb_spec i j); [|destruct (Nat.eqb_spec i (j - 1))]; apply P; lia.
  - intros a b Ha Hb. rewrite !exch_nth by lia. intros E.
    destruct (Nat.eqb_spec a j), (Nat.eqb_spec a (j - 1)), (Nat.eqb_spec b j), (Nat.eqb_spec b (j - 1)); try lia; apply P in E; lia.
Qed.

Section MSort.
Context {A O : Type} (d : A) (comp : A -> A -> bool) (swp : nat -> O -> outcome O) (xs0 : list A) (R : O -> list nat -> Prop).
Let m := length xs0.
Hypothesis asym : forall a b, comp a b = true -> comp b a = false.
Hypothesis trans : forall a b c, comp b a = false -> comp c b = false -> comp c a = false.
Hypothesis swp_ok : forall ys s j, R ys s -> is_perm m s -> 0 < j < m -> exists ys', swp j ys = Ret ys' /\ R ys' (exch s j).

(** p comes before q in the stable order. *)
Definition before (p q : nat) : Prop := comp (nth q xs0 d) (nth p xs0 d) = false /\ (comp (nth p xs0 d) (nth q xs0 d) = false -> p < q).

Lemma before_trans : forall p q r, before p q -> before q r -> before p r.
Proof. intros p q r [A1 A2] [B1 B2]. split. { eapply trans; eauto. } intros H. specialize (B2 (trans _ _ _ H A1)). specialize (A2 (trans _ _ _ B1 H)). lia. Qed.

Definition sinv (i j : nat) (st : list A * O) (s : list nat) : Prop :=
  is_perm m s /\ fst st = pick d xs0 s /\ R (snd st) s /\ nth j s 0 = i /\ (forall a, a <= i -> a <> j -> nth a s 0 < i) /\ (forall a, i < a < m -> nth a s 0 = a) /\
  (forall a b, a < b <= i -> b <> j -> before (nth a s 0) (nth b s 0)).
Definition oinv (i : nat) (st : list A * O) (s : list nat) : Prop :=
  is_perm m s /\ fst st = pick d xs0 s /\ R (snd st) s /\ (forall a, a < i -> nth a s 0 < i) /\ (forall a, i <= a < m -> nth a s 0 = a) /\ (forall a b, a < b < i -> before (nth a s 0) (nth b s 0)).

Lemma sift_inv : forall i j st s, j <= i < m -> sinv i j st s -> exists st' s', sift comp swp j st = Ret st' /\ oinv (S i) st' s'.
Proof.
  intros i. induction j; intros [xs ys] s Hj (P & X & Y & B & S1 & S2 & S3); cbn [fst snd] in *; assert (L : length s = m) by exact (proj1 P); cbn [sift].
  - exists (xs, ys), s. split; auto. unfold oinv. cbn [fst snd]. repeat (split; [auto; fail|]). split; [|split].
    + intros a Ha. destruct (Nat.eq_dec a 0); [subst; lia|]. specialize (S1 a). lia.
    + intros a Ha. apply S2. lia.
    + intros a b Hab. apply S3; lia.
  - assert (LX : length xs = m) by (rewrite X, pick_length; auto). rewrite (rd_ok _ d xs (S j)), (rd_ok _ d xs j) by lia. cbn [bind].
    assert (NX : forall a, a < m -> nth a xs d = nth (nth a s 0) xs0 d). { intros a Ha. rewrite X, nth_pick by lia. auto. } rewrite !NX by lia. rewrite B.
    destruct (comp (nth i xs0 d) (nth (nth j s 0) xs0 d)) eqn:CP.
    + rewrite wr_ok by lia. cbn [bind]. rewrite wr_ok by (rewrite length_upd; lia). cbn [bind]. destruct (swp_ok ys s (S j) Y P) as (ys' & E & Y'); [lia|]. rewrite E. cbn [bind]. apply (IHj _ (exch s (S j))); [lia|].
      assert (NE : forall a, nth a (exch s (S j)) 0 = if a =? S j then nth j s 0 else if a =? j then i else nth a s 0). { intros a. rewrite exch_nth by lia. replace (S j - 1) with j by lia. rewrite B. auto. }
      unfold sinv. cbn [fst snd]. split. { apply exch_perm; auto. lia. } split.
      { rewrite <- (pick_exch A d xs0 s (S j)) by lia. rewrite <- X. replace (S j - 1) with j by lia. rewrite !NX by lia. rewrite B. auto. }
      split; [auto|]. split. { rewrite NE. destruct (Nat.eqb_spec j (S j)); [lia|]. rewrite Nat.eqb_refl. auto. }
      split. { intros a Ha Na. rewrite NE. destruct (Nat.eqb_spec a (S j)). { apply S1; lia. } destruct (Nat.eqb_spec a j); [lia|]. apply S1; lia. }
      split. { intros a Ha. rewrite NE. destruct (Nat.eqb_spec a (S j)); [lia|]. destruct (Nat.eqb_spec a j); [lia|]. apply S2. lia. }
      intros a b Hab Nb. rewrite !NE. destruct (Nat.eqb_spec b j); [lia|]. destruct (Nat.eqb_spec b (S j)).
      * subst b. destruct (Nat.eqb_spec a (S j)); [lia|]. destruct (Nat.eqb_spec a j). { split; [apply asym; auto|]. congruence. } apply S3; lia.
      * destruct (Nat.eqb_spec a (S j)). { apply S3; lia. } destruct (Nat.eqb_spec a j). { rewrite <- B. apply S3; lia. } apply S3; lia.
    + exists (xs, ys), s. split; auto. assert (BJ : before (nth j s 0) i). { split; auto. intros _. apply S1; lia. }
      unfold oinv. cbn [fst snd]. repeat (split; [auto; fail|]). split; [|split].
      * intros a Ha. destruct (Nat.eq_dec a (S j)); [subst; lia|]. specialize (S1 a). lia.
      * intros a Ha. apply S2. lia.
      * intros a b Hab. destruct (Nat.eq_dec b (S j)); [|apply S3; lia]. subst b. rewrite B. destruct (Nat.eq_dec a j); [subst; auto|]. apply (before_trans _ (nth j s 0)); auto. apply S3; lia.
Qed.

Lemma mutual_sort_ok : forall ys, R ys (seq 0 m) -> exists s xs' ys', mutual_sort comp swp xs0 ys = Ret (xs', ys') /\ is_perm m s /\ xs' = pick d xs0 s /\ R ys' s /\ forall a b, a < b < m -> before (nth a s 0) (nth b s 0).
Proof.
  intros ys R0. assert (X0 : xs0 = pick d xs0 (seq 0 m)). { apply (list_eq_nth _ d). { rewrite pick_length, seq_length. auto. } intros i Hi. rewrite nth_pick by (rewrite seq_length; auto). rewrite seq_nth by auto. auto. }
  assert (P0 : is_perm m (seq 0 m)) by (apply is_perm_iff; auto).
  unfold mutual_sort. fold m. match goal with |- context [for_from 1 ?c ?body ?s0] => destruct (for_from_inv _ (fun i st => exists s, oinv (Nat.min i m) st s) c 1 body s0) as (st & E & s & K) end.
  - exists (seq 0 m). split; [auto|]. split; [auto|]. split; [auto|]. split. { intros a Ha. rewrite seq_nth by lia. lia. } split. { intros a Ha. rewrite seq_nth by lia. lia. } intros a b Hab. lia.
  - intros i st Hi (s & K). rewrite (Nat.min_l i m) in K by lia. destruct (sift_inv i i st s) as (st' & s' & E & K'); [lia| |].
    + destruct K as (P & X & Y & A1 & A2 & A3). split; [auto|]. split; [auto|]. split; [auto|]. split. { apply A2. lia. } split. { intros a Ha Na. apply A1. lia. } split. { intros a Ha. apply A2. lia. } intros a b Hab Nb. apply A3. lia.
    + exists st'. split; [exact E|]. exists s'. rewrite Nat.min_l by lia. auto.
  - rewrite E. destruct st as [xs' ys']. destruct K as (P & X & Y & A1 & A2 & A3). cbn [fst snd] in *. exists s, xs', ys'. repeat (split; [auto; fail|]). intros a b Hab. apply A3. lia.
Qed.
End MSort.

Lemma swap_vec_ok : forall A (d : A) l s j, 0 < j < length s -> swap_vec j (pick d l s) = Ret (pick d l (exch s j)).
Proof.
  intros A d l s j Hj. unfold swap_vec. rewrite (rd_ok _ d) by (rewrite pick_length; lia). cbn [bind]. rewrite (rd_ok _ d) by (rewrite pick_length; lia). cbn [bind]. rewrite wr_ok by (rewrite pick_length; lia). cbn [bind]. rewrite wr_ok by (rewrite length_upd, pick_length; lia).
  f_equal. apply pick_exch. auto.
Qed.

Definition rows_at (t0 : list (list Z)) (ys : list (list Z)) (s : list nat) : Prop := length ys = length t0 /\ forall i, i < length t0 -> nth i ys [] = pick 0%Z (nth i t0 []) s.

Lemma swap_vecs_ok : forall t0 ys s j m, rows_at t0 ys s -> is_perm m s -> 0 < j < m -> exists ys', swap_vecs j ys = Ret ys' /\ rows_at t0 ys' (exch s j).
Proof.
  intros t0 ys s j m [L H] P Hj. unfold swap_vecs. rewrite L. set (n := length t0) in *.
  match goal with |- context [for_ n ?body ?s0] => destruct (for_inv _ (fun k zs => length zs = n /\ forall i, i < n -> nth i zs [] = pick 0%Z (nth i t0 []) (if i <? k then exch s j else s)) n body s0) as (zs & E & L' & H') end.
  - split; auto.
  - intros k zs Hk [L' H']. rewrite (rd_ok _ []) by lia. cbn [bind]. rewrite H' by auto. rewrite Nat.ltb_irrefl. rewrite swap_vec_ok by (rewrite (proj1 P); auto). cbn [bind]. rewrite wr_ok by lia. eexists. split; [reflexivity|]. split. { rewrite length_upd. auto. }
    intros i Hi. destruct (Nat.eq_dec i k). { subst i. rewrite nth_upd_eq by lia. rewrite (proj2 (Nat.ltb_lt k (S k))) by lia. auto. } rewrite nth_upd_neq by auto. rewrite H' by auto. destruct (Nat.ltb_spec i k), (Nat.ltb_spec i (S k)); try lia; auto.
  - exists zs. split; auto. split; auto. intros i Hi. rewrite H' by auto. rewrite (proj2 (Nat.ltb_lt i n)) by auto. auto.
Qed.

Lemma fu_sort_ok : forall M n m g o, fu_ok M n m g -> exists M' s, fu_sort M o = Ret M' /\ is_perm m s /\ fu_ok M' n m (fun i j => g i (nth j s 0)) /\
  forall a b, a < b < m -> match o with ASCENDING => row_deg (flip (nzf g)) n (nth a s 0) <= row_deg (flip (nzf g)) n (nth b s 0) | DESCENDING => row_deg (flip (nzf g)) n (nth b s 0) <= row_deg (flip (nzf g)) n (nth a s 0) end.
Proof.
  intros M n m g o (R & C & [LM H] & D1 & D2 & N & X & Y). unfold fu_sort. set (cmp := match o with ASCENDING => Nat.ltb | DESCENDING => fun a b => Nat.ltb b a end).
  destruct (mutual_sort_ok 0 cmp swap_vecs (fu_cd M) (rows_at (fu_m M))) with (ys := fu_m M) as (s & xs' & ys' & E & P & EX & [LY HY] & B).
  - unfold cmp. destruct o; intros a b; rewrite Nat.ltb_lt, Nat.ltb_ge; lia.
  - unfold cmp. destruct o; intros a b c; rewrite !Nat.ltb_ge; lia.
  - intros. eapply swap_vecs_ok; eauto.
  - split; auto. intros i Hi. destruct (H i) as [W _]; [lia|]. apply (list_eq_nth _ 0%Z). { rewrite pick_length, seq_length, W, (proj1 D2). auto. } intros k Hk. rewrite nth_pick by (rewrite seq_length, (proj1 D2); lia). rewrite seq_nth by (rewrite (proj1 D2); lia). auto.
  - rewrite E. cbn [bind]. rewrite (proj1 D2) in P, B. exists (mkFull (fu_rows M) (fu_cols M) (fu_rmax M) (fu_cmax M) (fu_n M) (fu_rd M) xs' ys'), s. split; [auto|]. split; [auto|]. assert (LS : length s = m) by exact (proj1 P).
    assert (PS : forall j, j < m -> nth j s 0 < m) by (intros; apply P; auto).
    split.
    + unfold fu_ok. cbn [fu_rows fu_cols fu_m fu_rd fu_cd fu_n fu_rmax fu_cmax]. split; [auto|]. split; [auto|]. split.
      { split; [lia|]. intros i Hi. rewrite HY by lia. rewrite pick_length. split; [auto|]. intros j Hj. rewrite nth_pick by lia. apply H; auto. }
      assert (RD : forall i, row_deg (nzf (fun i j => g i (nth j s 0))) m i = row_deg (nzf g) m i). { intros i. apply (row_deg_perm (nzf g)). auto. }
      split. { split. apply D1. intros i Hi. rewrite RD. apply D1. auto. }
      assert (CDe : forall j, row_deg (flip (nzf (fun i j => g i (nth j s 0)))) n j = row_deg (flip (nzf g)) n (nth j s 0)). { intros j. rewrite !row_deg_sum. auto. }
      split. { subst xs'. split. { rewrite pick_length. auto. } intros j Hj. rewrite nth_pick by lia. rewrite CDe. apply D2. auto. }
      split. { rewrite N. unfold ones. f_equal. apply map_ext. intros. rewrite RD. auto. } split. { rewrite X. apply maxf_ext. intros. rewrite RD. auto. }
      rewrite Y. unfold maxf. symmetry. apply list_max_perm. rewrite (map_ext _ (fun j => row_deg (flip (nzf g)) n (nth j s 0))) by auto. apply perm_split. auto.
    + intros a b Hab. destruct (B a b Hab) as [B1 _]. unfold cmp in B1. destruct D2 as [_ D2]. destruct o; apply Nat.ltb_ge in B1; rewrite !D2 in B1 by (apply PS; lia); auto.
Qed.

(* ------------------------------------------------------------------ *)
(** * Operations on the rows *)
Lemma rows_do_ok : forall lo hi f t n w g, length t = n -> lo <= hi <= n ->
  (forall i, i < n -> if (lo <=? i) && (i <? hi) then exists row, f (nth i t []) = Ret row /\ length row = w i /\ forall j, j < w i -> nth j row 0%Z = g i j
                      else length (nth i t []) = w i /\ forall j, j < w i -> nth j (nth i t []) 0%Z = g i j) ->
  exists t', rows_do lo hi f t = Ret t' /\ mat t' n w g.
Proof.
  intros lo hi f t n w g L Hh H. unfold rows_do.
  match goal with |- context [for_from lo ?c ?body ?s0] => destruct (for_from_inv _ (fun k u => length u = n /\ forall i, i < n -> if (lo <=? i) && (i <? k) then length (nth i u []) = w i /\ forall j, j < w i -> nth j (nth i u []) 0%Z = g i j else nth i u [] = nth i t []) c lo body s0) as (u & E & L' & H') end.
  - split; auto. intros i Hi. destruct (Nat.leb_spec lo i), (Nat.ltb_spec i lo); cbn; try lia; auto.
  - intros k u Hk [L' H']. rewrite (rd_ok _ []) by lia. cbn [bind]. pose proof (H' k ltac:(lia)) as HK. rewrite Nat.ltb_irrefl, andb_false_r in HK. rewrite HK. pose proof (H k ltac:(lia)) as HF. rewrite (proj2 (Nat.leb_le lo k)), (proj2 (Nat.ltb_lt k hi)) in HF by lia. destruct HF as (row & E & LR & HR). rewrite E. cbn [bind]. rewrite wr_ok by lia.
    eexists. split; [reflexivity|]. split. { rewrite length_upd. auto. } intros i Hi. destruct (Nat.eq_dec i k).
    + subst i. rewrite nth_upd_eq by lia. rewrite (proj2 (Nat.leb_le lo k)), (proj2 (Nat.ltb_lt k (S k))) by lia. cbn. auto.
    + rewrite nth_upd_neq by auto. specialize (H' i Hi). replace (i <? S k) with (i <? k); auto. destruct (Nat.ltb_spec i k), (Nat.ltb_spec i (S k)); auto; lia.
  - exists u. split; auto. split; auto. intros i Hi. specialize (H' i Hi). specialize (H i Hi). replace (lo + (hi - lo)) with hi in H' by lia. destruct ((lo <=? i) && (i <? hi)); auto. rewrite H'. auto.
Qed.

Lemma vresize_length : forall A (l : list A) n x, length (vresize l n x) = n.
Proof. intros. unfold vresize. rewrite app_length, firstn_length, repeat_length. lia. Qed.
Lemma nth_vresize : forall A (l : list A) n x i d, i < n -> nth i (vresize l n x) d = if i <? length l then nth i l d else x.
Proof.
  intros A l n x i d Hi. unfold vresize. destruct (Nat.ltb_spec i (length l)).
  - rewrite app_nth1 by (rewrite firstn_length; lia). apply firstn_nth. auto.
  - rewrite app_nth2 by (rewrite firstn_length; lia). rewrite nth_repeat_lt; auto. rewrite firstn_length. lia.
Qed.
Lemma vinsert_length : forall A (l : list A) k x, length (vinsert l k x) = k + length l.
Proof. intros. unfold vinsert. rewrite app_length, repeat_length. lia. Qed.
Lemma nth_vinsert : forall A (l : list A) k x i d, nth i (vinsert l k x) d = if i <? k then x else nth (i - k) l d.
Proof.
  intros A l k x i d. unfold vinsert. destruct (Nat.ltb_spec i k).
  - rewrite app_nth1 by (rewrite repeat_length; lia). apply nth_repeat_lt. auto.
  - rewrite app_nth2 by (rewrite repeat_length; lia). rewrite repeat_length. auto.
Qed.

(* ------------------------------------------------------------------ *)
(** * Transposition *)
Lemma swap2_ok : forall t n w g r c, mat t n w g -> r < n -> c < n -> c < w r -> r < w c -> r <> c -> exists t', swap2 t r c = Ret t' /\ mat t' n w (upd2 (upd2 g r c (g c r)) c r (g r c)).
Proof.
  intros t n w g r c H Hr Hc W1 W2 NE. unfold swap2. rewrite (get2_ok _ _ _ _ _ _ H) by auto. cbn [bind]. rewrite (get2_ok _ _ _ _ _ _ H) by auto. cbn [bind].
  destruct (set2_ok _ _ _ _ r c (g c r) H) as (t1 & E1 & H1); auto. rewrite E1. cbn [bind]. apply (set2_ok _ _ _ _ c r (g r c) H1); auto.
Qed.

(** The square part is transposed up to (r, c). *)
Definition done (r c i j : nat) : bool := (Nat.min i j <? r) || ((Nat.min i j =? r) && (Nat.max i j <? c)).
Definition half (k : nat) (g : nat -> nat -> Z) (r c i j : nat) : Z := if (i <? k) && (j <? k) && done r c i j then g j i else g i j.

Lemma half_step : forall k g r c i j, r < c < k -> upd2 (upd2 (half k g r c) r c (half k g r c c r)) c r (half k g r c r c) i j = half k g r (S c) i j.
Proof.
  intros k g r c i j H. assert (D : forall a b, done r c a b = true -> done r (S c) a b = true). { intros a b. unfold done. rewrite !orb_true_iff, !andb_true_iff, !Nat.ltb_lt, !Nat.eqb_eq. lia. }
  assert (D0 : done r c r c = false /\ done r c c r = false). { unfold done. rewrite Nat.min_l, Nat.max_r, Nat.min_r, Nat.max_l by lia. rewrite !Nat.ltb_irrefl. rewrite andb_false_r. auto. }
  assert (D1 : done r (S c) r c = true /\ done r (S c) c r = true). { unfold done. rewrite Nat.min_l, Nat.max_r, Nat.min_r, Nat.max_l by lia. rewrite Nat.eqb_refl. rewrite (proj2 (Nat.ltb_lt c (S c))) by lia. rewrite orb_true_r. auto. }
  unfold upd2, half. rewrite (proj1 D0), (proj2 D0), !andb_false_r.
  destruct (Nat.eqb_spec i c), (Nat.eqb_spec j r); cbn [andb]; try subst i; try subst j.
  - rewrite (proj2 D1). rewrite (proj2 (Nat.ltb_lt c k)), (proj2 (Nat.ltb_lt r k)) by lia. auto.
  - destruct (Nat.eqb_spec c r); [lia|]. cbn [andb]. replace (done r (S c) c j) with (done r c c j); auto. unfold done. apply eq_true_iff_eq. rewrite !orb_true_iff, !andb_true_iff, !Nat.ltb_lt, !Nat.eqb_eq. lia.
  - destruct (Nat.eqb_spec r c); [lia|]. rewrite andb_false_r. replace (done r (S c) i r) with (done r c i r); auto. unfold done. apply eq_true_iff_eq. rewrite !orb_true_iff, !andb_true_iff, !Nat.ltb_lt, !Nat.eqb_eq. lia.
  - destruct (Nat.eqb_spec i r), (Nat.eqb_spec j c); cbn [andb]; try subst i; try subst j.
    + rewrite (proj1 D1). rewrite (proj2 (Nat.ltb_lt c k)), (proj2 (Nat.ltb_lt r k)) by lia. auto.
    + replace (done r (S c) r j) with (done r c r j); auto. unfold done. apply eq_true_iff_eq. rewrite !orb_true_iff, !andb_true_iff, !Nat.ltb_lt, !Nat.eqb_eq. lia.
    + replace (done r (S c) i c) with (done r c i c); auto. unfold done. apply eq_true_iff_eq. rewrite !orb_true_iff, !andb_true_iff, !Nat.ltb_lt, !Nat.eqb_eq. lia.
    + replace (done r (S c) i j) with (done r c i j); auto. unfold done. apply eq_true_iff_eq. rewrite !orb_true_iff, !andb_true_iff, !Nat.ltb_lt, !Nat.eqb_eq. lia.
Qed.

Lemma square_ok : forall t n w g k, mat t n w g -> k <= n -> (forall i, i < k -> k <= w i) ->
  exists t', for_ k (fun r t => for_from (r + 1) (k - (r + 1)) (fun c t => swap2 t r c) t) t = Ret t' /\ mat t' n w (fun i j => if (i <? k) && (j <? k) then g j i else g i j).
Proof.
  intros t n w g k H Hk W.
  match goal with |- context [for_ k ?body ?s0] => destruct (for_inv _ (fun r u => mat u n w (half k g r (r + 1))) k body s0) as (u & E & H') end.
  - eapply mat_ext; [| |exact H]; auto. intros i j _ _. unfold half. destruct ((i <? k) && (j <? k)); auto. cbn [andb]. destruct (done 0 (0 + 1) i j) eqn:D; auto. unfold done in D. rewrite orb_true_iff, andb_true_iff, !Nat.ltb_lt, !Nat.eqb_eq in D. assert (i = j) by lia. subst. auto.
  - intros r u Hr H'. match goal with |- context [for_from (r + 1) ?cnt ?body ?s0] => destruct (for_from_inv _ (fun c v => mat v n w (half k g r c)) cnt (r + 1) body s0) as (v & E & H2) end.
    + auto.
    + intros c v Hc H2. destruct (swap2_ok _ _ _ _ r c H2) as (v' & E & H3); try lia. { specialize (W r). lia. } { specialize (W c). lia. }
      exists v'. split; auto. eapply mat_ext; [| |exact H3]; auto. intros i j _ _. apply half_step. lia.
    + exists v. split; auto. eapply mat_ext; [| |exact H2]; auto. intros i j _ _. unfold half. destruct (Nat.ltb_spec i k); auto. destruct (Nat.ltb_spec j k); auto. cbn [andb].
      destruct (done r (r + 1 + (k - (r + 1))) i j) eqn:D1, (done (S r) (S r + 1) i j) eqn:D2; auto; unfold done in *; rewrite ?orb_true_iff, ?andb_true_iff, ?orb_false_iff, ?andb_false_iff, ?Nat.ltb_lt, ?Nat.eqb_eq, ?Nat.ltb_ge, ?Nat.eqb_neq in *.
      * lia.
      * assert (i = j) by lia. subst. auto.
  - exists u. split; auto. eapply mat_ext; [| |exact H']; auto. intros i j _ _. unfold half. destruct (Nat.ltb_spec i k); auto. destruct (Nat.ltb_spec j k); auto. cbn [andb]. unfold done. rewrite (proj2 (Nat.ltb_lt (Nat.min i j) k)) by lia. auto.
Qed.

(** Copies of a rectangle to its transposed place. *)
Lemma rect_ok : forall t n w g lo cnt k (p : nat -> nat -> nat * nat) (q : nat -> nat -> nat * nat) body, mat t n w g ->
  (forall r c u h, lo <= r < lo + cnt -> c < k -> mat u n w h -> exists u', body r c u = Ret u' /\ mat u' n w (upd2 h (fst (p r c)) (snd (p r c)) (h (fst (q r c)) (snd (q r c))))) ->
  (forall r c r' c', lo <= r < lo + cnt -> c < k -> lo <= r' < lo + cnt -> c' < k -> p r c <> q r' c') ->
  forall g', (forall r c, lo <= r < lo + cnt -> c < k -> g' (fst (p r c)) (snd (p r c)) = g (fst (q r c)) (snd (q r c))) ->
  (forall i j, i < n -> j < w i -> (forall r c, lo <= r < lo + cnt -> c < k -> p r c <> (i, j)) -> g' i j = g i j) ->
  exists t', for_from lo cnt (fun r t => for_ k (fun c t => body r c t) t) t = Ret t' /\ mat t' n w g'.
Proof.
  intros t n w g lo cnt k p q body H HB DIS g' G1 G2.
  set (P := fun r c i j => exists r' c', lo <= r' < lo + cnt /\ c' < k /\ p r' c' = (i, j) /\ (r' < r \/ (r' = r /\ c' < c))).
  set (I := fun r c u => exists h, mat u n w h /\ (forall i j, P r c i j -> h i j = g' i j) /\ (forall i j, ~ P r c i j -> h i j = g i j)).
  destruct (for_from_inv _ (fun r u => I r 0 u) cnt lo (fun r t => for_ k (fun c t => body r c t) t) t) as (u & E & h & Hh & A & B).
  - exists g. split; auto. split; auto. intros i j (r' & c' & Hr & Hc & _ & [?|[? ?]]); lia.
  - intros r u Hr HI. destruct (for_inv _ (fun c u => I r c u) k (body r) u) as (v & E & h & Hh & A & B).
    + auto.
    + intros c v Hc (h & Hh & A & B). destruct (HB r c v h Hr Hc Hh) as (v' & E & H'). exists v'. split; auto. exists (upd2 h (fst (p r c)) (snd (p r c)) (h (fst (q r c)) (snd (q r c)))). split; auto.
      assert (Q : h (fst (q r c)) (snd (q r c)) = g (fst (q r c)) (snd (q r c))). { apply B. intros (r' & c' & Hr' & Hc' & EE & _). apply (DIS r' c' r c Hr' Hc' Hr Hc). rewrite EE. destruct (q r c); auto. }
      split.
      * intros i j (r' & c' & Hr' & Hc' & EP & CMP). unfold upd2. destruct ((i =? fst (p r c)) && (j =? snd (p r c))) eqn:EQ.
        -- apply andb_true_iff in EQ. rewrite !Nat.eqb_eq in EQ. destruct EQ as [-> ->]. rewrite Q, G1; auto.
        -- apply A. exists r', c'. repeat (split; [auto; fail|]). destruct CMP as [?|[? ?]]; auto. right. split; auto. destruct (Nat.eq_dec c' c); [|lia]. subst. rewrite EP in EQ. cbn [fst snd] in EQ. rewrite !Nat.eqb_refl in EQ. discriminate.
      * intros i j NP. unfold upd2. destruct ((i =? fst (p r c)) && (j =? snd (p r c))) eqn:EQ.
        -- exfalso. apply NP. apply andb_true_iff in EQ. rewrite !Nat.eqb_eq in EQ. destruct EQ as [-> ->]. exists r, c. repeat (split; [auto; fail|]). split. { destruct (p r c); auto. } right. lia.
        -- apply B. intros (r' & c' & Hr' & Hc' & EP & CMP). apply NP. exists r', c'. repeat (split; [auto; fail|]). lia.
    + exists v. split; auto. exists h. split; auto. split.
      * intros i j (r' & c' & Hr' & Hc' & EP & CMP). apply A. exists r', c'. repeat (split; [auto; fail|]). lia.
      * intros i j NP. apply B. intros (r' & c' & Hr' & Hc' & EP & CMP). apply NP. exists r', c'. repeat (split; [auto; fail|]). lia.
  - exists u. split; auto. assert (DEC : forall i j, P (lo + cnt) 0 i j \/ ~ P (lo + cnt) 0 i j).
    { intros i j. assert (EX : forall K (Q : nat -> Prop), (forall x, Q x \/ ~ Q x) -> (exists x, x < K /\ Q x) \/ ~ (exists x, x < K /\ Q x)).
      { intros K Q D. induction K. { right. intros (x & Hx & _). lia. } destruct IHK as [(x & Hx & q')|NE]. { left. exists x. split; auto. } destruct (D K). { left. exists K. split; auto. } right. intros (x & Hx & q'). destruct (Nat.eq_dec x K). { subst. auto. } apply NE. exists x. split; auto. lia. }
      destruct (EX (lo + cnt) (fun r => lo <= r /\ exists c, c < k /\ p r c = (i, j))) as [(r & Hr & Hl & c & Hc & EP)|NE].
      - intros r. destruct (le_dec lo r); [|right; tauto]. destruct (EX k (fun c => p r c = (i, j))) as [Y|N]; [|left; auto|right; tauto]. intros c. destruct (p r c) as [x y]. destruct (Nat.eq_dec x i), (Nat.eq_dec y j); [left; congruence|right; congruence|right; congruence|right; congruence].
      - left. exists r, c. split; [lia|]. split; [auto|]. split; [auto|]. lia.
      - right. intros (r & c & Hr & Hc & EP & _). apply NE. exists r. split; [lia|]. split; [lia|]. exists c. auto. }
    eapply mat_ext; [| |exact Hh]; auto. intros i j Hi Hj. destruct (DEC i j) as [Y|N]. { apply A. auto. } rewrite B by auto. symmetry. apply G2; auto. intros r c Hr Hc EP. apply N. exists r, c. split; [auto|]. split; [auto|]. split; [auto|]. lia.
Qed.

Lemma fu_transpose_mat : forall M n m g, fu_rows M = n -> fu_cols M = m -> mat (fu_m M) n (fun _ => m) g ->
  exists t, fu_transpose M = Ret (mkFull m n (fu_cmax M) (fu_rmax M) (fu_n M) (fu_cd M) (fu_rd M) t) /\ mat t m (fun _ => n) (fun i j => g j i).
Proof.
  intros M n m g R C HM.
  assert (T : exists t, (if n <=? m then
      let t := vresize (fu_m M) m (repeat 0%Z n) in
      t <- for_ n (fun r t => for_from (r + 1) (n - (r + 1)) (fun c t => swap2 t r c) t) t ;;
      t <- for_from n (m - n) (fun r t => for_ n (fun c t => v <- get2 t c r ;; set2 t r c v) t) t ;;
      rows_do 0 n (fun row => Ret (vresize row n 0%Z)) t
    else
      t <- rows_do 0 m (fun row => Ret (vresize row n 0%Z)) (fu_m M) ;;
      t <- for_ m (fun r t => for_from (r + 1) (m - (r + 1)) (fun c t => swap2 t r c) t) t ;;
      t <- for_from m (n - m) (fun r t => for_ m (fun c t => v <- get2 t r c ;; set2 t c r v) t) t ;;
      Ret (vresize t m [])) = Ret t /\ mat t m (fun _ => n) (fun i j => g j i)).
  { destruct HM as [L H]. destruct (Nat.leb_spec n m) as [LE|LT]; cbv zeta.
    - assert (H0 : mat (vresize (fu_m M) m (repeat 0%Z n)) m (fun i => if i <? n then m else n) (fun i j => if i <? n then g i j else 0%Z)).
      { split. { apply vresize_length. } intros i Hi. rewrite nth_vresize by auto. rewrite L. destruct (Nat.ltb_spec i n). { apply H. auto. } split. { apply repeat_length. } intros j Hj. rewrite nth_repeat_lt by auto. auto. }
      destruct (square_ok _ _ _ _ n H0) as (t1 & E1 & H1); [lia| |]. { intros i Hi. rewrite (proj2 (Nat.ltb_lt i n)) by auto. auto. } rewrite E1. cbn [bind].
      destruct (rect_ok t1 m _ _ n (m - n) n (fun r c => (r, c)) (fun r c => (c, r)) (fun r c t => v <- get2 t c r ;; set2 t r c v) H1) with (g' := fun i j => if (i <? n) && (n <=? j) then g i j else g j i) as (t2 & E2 & H2).
      { intros r c u h Hr Hc Hu. cbn [fst snd]. rewrite (get2_ok _ _ _ _ _ _ Hu) by (try rewrite (proj2 (Nat.ltb_lt c n)); lia). cbn [bind]. apply set2_ok; [auto|lia|]. rewrite (proj2 (Nat.ltb_ge r n)) by lia. auto. }
      { intros r c r' c' Hr Hc Hr' Hc' EE. inversion EE. lia. }
      { intros r c Hr Hc. cbn [fst snd]. destruct (Nat.ltb_spec r n); [lia|]. destruct (Nat.ltb_spec c n); [|lia]. auto. }
      { intros i j Hi Hj NP. destruct (Nat.ltb_spec i n). { destruct (Nat.ltb_spec j n), (Nat.leb_spec n j); try lia; auto. } cbn [andb]. exfalso. apply (NP i j); auto. lia. }
      rewrite E2. cbn [bind]. apply rows_do_ok; [apply H2|lia|]. intros i Hi. cbn [Nat.leb andb]. destruct H2 as [_ H2]. specialize (H2 i Hi). destruct (Nat.ltb_spec i n).
      { eexists. split; [reflexivity|]. split. { apply vresize_length. } intros j Hj. destruct H2 as [A B]. rewrite nth_vresize by auto. rewrite A. rewrite (proj2 (Nat.ltb_lt j m)) by lia. rewrite B by lia. rewrite (proj2 (Nat.leb_gt n j)) by lia. auto. }
      destruct H2 as [A B]. split; auto.
    - destruct (rows_do_ok 0 m (fun row => Ret (vresize row n 0%Z)) (fu_m M) n (fun i => if i <? m then n else m) (fun i j => if j <? m then g i j else 0%Z)) as (t0 & E0 & H0); [auto|lia| |].
      { intros i Hi. cbn [Nat.leb andb]. destruct (H i Hi) as [A B]. destruct (Nat.ltb_spec i m).
        - eexists. split; [reflexivity|]. split. { apply vresize_length. } intros j Hj. rewrite nth_vresize by auto. rewrite A. destruct (Nat.ltb_spec j m); auto.
        - split; auto. intros j Hj. rewrite (proj2 (Nat.ltb_lt j m)) by auto. auto. }
      rewrite E0. cbn [bind]. destruct (square_ok _ _ _ _ m H0) as (t1 & E1 & H1); [lia| |]. { intros i Hi. rewrite (proj2 (Nat.ltb_lt i m)) by auto. lia. } rewrite E1. cbn [bind].
      destruct (rect_ok t1 n _ _ m (n - m) m (fun r c => (c, r)) (fun r c => (r, c)) (fun r c t => v <- get2 t r c ;; set2 t c r v) H1) with (g' := fun i j => if (m <=? i) && (j <? m) then g i j else g j i) as (t2 & E2 & H2).
      { intros r c u h Hr Hc Hu. cbn [fst snd]. rewrite (get2_ok _ _ _ _ _ _ Hu) by (try rewrite (proj2 (Nat.ltb_ge r m)); lia). cbn [bind]. apply set2_ok; [auto|lia|]. rewrite (proj2 (Nat.ltb_lt c m)) by lia. lia. }
      { intros r c r' c' Hr Hc Hr' Hc' EE. inversion EE. lia. }
      { intros r c Hr Hc. cbn [fst snd]. destruct (Nat.leb_spec m c); [lia|]. destruct (Nat.ltb_spec r m); [lia|]. destruct (Nat.ltb_spec c m); [|lia]. auto. }
      { intros i j Hi Hj NP. destruct (Nat.ltb_spec i m), (Nat.leb_spec m i); try lia; cbn [andb]; destruct (Nat.ltb_spec j m); auto; try lia. exfalso. apply (NP j i); auto. lia. }
      rewrite E2. cbn [bind]. eexists. split; [reflexivity|]. destruct H2 as [L2 H2]. split. { apply vresize_length. } intros i Hi. rewrite nth_vresize by auto. rewrite L2, (proj2 (Nat.ltb_lt i n)) by lia. destruct (H2 i ltac:(lia)) as [A B]. rewrite (proj2 (Nat.ltb_lt i m)) in A, B by auto. split; auto. intros j Hj. rewrite B by auto. rewrite (proj2 (Nat.leb_gt m i)) by lia. auto. }
  destruct T as (t & E & HT). unfold fu_transpose. rewrite R, C. cbv zeta in E |- *. rewrite E. cbn [bind]. eauto.
Qed.

Lemma fu_transpose_ok : forall M n m g, fu_ok M n m g -> exists M', fu_transpose M = Ret M' /\ fu_ok M' m n (fun i j => g j i).
Proof.
  intros M n m g (R & C & HM & D1 & D2 & N & X & Y). destruct (fu_transpose_mat _ _ _ _ R C HM) as (t & E & HT). rewrite E. eexists. split; [reflexivity|].
  unfold fu_ok. cbn [fu_rows fu_cols fu_m fu_rd fu_cd fu_n fu_rmax fu_cmax]. split; [auto|]. split; [auto|]. split; [auto|]. split; [exact D2|]. split; [exact D1|]. split. { rewrite N. apply (ones_flip (nzf g)). } split; auto.
Qed.

(* ------------------------------------------------------------------ *)
(** * Resizing *)
Definition arr (M : full) (n m : nat) (g : nat -> nat -> Z) : Prop := fu_rows M = n /\ fu_cols M = m /\ mat (fu_m M) n (fun _ => m) g.

Lemma arr_shape : forall M n m g, arr M n m g <-> fu_shape M n m g.
Proof.
  intros M n m g. unfold arr, fu_shape, mat. split.
  - intros (R & C & L & H). split; [auto|]. split; [auto|]. split; [auto|]. split; intros; apply H; auto.
  - intros (R & C & L & H & G). split; [auto|]. split; [auto|]. split; [auto|]. intros i Hi. split; auto.
Qed.

Lemma verase_ok : forall A (l : list A) k, k <= length l -> verase l k = Ret (skipn k l).
Proof. intros. unfold verase. rewrite (proj2 (Nat.leb_le _ _)) by auto. auto. Qed.

Lemma fu_resize_ok : forall M n m g n' m' o, arr M n m g -> (o = TOP_RIGHT -> n' <= n \/ m <= m') ->
  exists t, fu_resize M n' m' o = Ret (mkFull n' m' (fu_rmax M) (fu_cmax M) (fu_n M) (vresize (fu_rd M) n' 0) (vresize (fu_cd M) n' 0) t) /\ mat t n' (fun _ => m') (resized o n m n' m' g).
Proof.
  intros M n m g n' m' o (R & C & L & H) TR. unfold fu_resize. rewrite R, C. cbv zeta.
  assert (HR : forall i, i < n -> length (nth i (fu_m M) []) = m) by (intros; apply H; auto). assert (HG : forall i j, i < n -> j < m -> nth j (nth i (fu_m M) []) 0%Z = g i j) by (intros; apply H; auto). clear H.
  match goal with |- context [bind ?e _] => assert (T : exists t, e = Ret t /\ mat t n' (fun _ => m') (resized o n m n' m' g)) end.
  2: { destruct T as (t & E & K). rewrite E. cbn [bind]. eauto. }
  unfold resized. destruct o; cbn [src_row src_col].
  - apply rows_do_ok. { apply vresize_length. } { lia. } intros i Hi. cbn [Nat.leb andb]. rewrite nth_vresize by auto. rewrite L. unfold src_first. destruct (Nat.ltb_spec i n).
    + rewrite (proj2 (Nat.ltb_lt i (Nat.min n' n))) by lia. eexists. split; [reflexivity|]. split. { apply vresize_length. } intros j Hj. rewrite nth_vresize by auto. rewrite HR by auto. destruct (Nat.ltb_spec j m); auto.
    + rewrite (proj2 (Nat.ltb_ge i (Nat.min n' n))) by lia. split. { apply repeat_length. } intros j Hj. rewrite nth_repeat_lt by auto. auto.
  - unfold src_first, src_last. destruct (Nat.ltb_spec m' m).
    + destruct TR as [Hn|]; [auto| |lia]. apply rows_do_ok. { apply vresize_length. } { lia. } intros i Hi. cbn [Nat.leb andb]. rewrite nth_vresize by auto. rewrite L. rewrite (proj2 (Nat.ltb_lt i n')) by auto. rewrite (proj2 (Nat.ltb_lt i n)) by lia.
      rewrite verase_ok by (rewrite HR; lia). eexists. split; [reflexivity|]. split. { rewrite skipn_length, HR; lia. } intros j Hj. rewrite skipn_nth. rewrite (proj2 (Nat.leb_le m' (j + m))) by lia. rewrite HG by lia. f_equal. lia.
    + apply rows_do_ok. { apply vresize_length. } { lia. } intros i Hi. cbn [Nat.leb andb]. rewrite nth_vresize by auto. rewrite L. destruct (Nat.ltb_spec i n).
      * rewrite (proj2 (Nat.ltb_lt i (Nat.min n' n))) by lia. eexists. split; [reflexivity|]. split. { rewrite vinsert_length, HR; lia. } intros j Hj. rewrite nth_vinsert. destruct (Nat.ltb_spec j (m' - m)), (Nat.leb_spec m' (j + m)); try lia; auto. rewrite HG by lia. f_equal. lia.
      * rewrite (proj2 (Nat.ltb_ge i (Nat.min n' n))) by lia. split. { apply repeat_length. } intros j Hj. rewrite nth_repeat_lt by auto. auto.
  - unfold src_first, src_last. destruct (Nat.ltb_spec n' n).
    + rewrite verase_ok by lia. cbn [bind]. apply rows_do_ok. { rewrite skipn_length. lia. } { lia. } intros i Hi. cbn [Nat.leb andb]. rewrite skipn_nth. rewrite (proj2 (Nat.ltb_lt i (Nat.min n' n))) by lia. rewrite (proj2 (Nat.leb_le n' (i + n))) by lia.
      eexists. split; [reflexivity|]. split. { apply vresize_length. } intros j Hj. rewrite nth_vresize by auto. rewrite HR by lia. destruct (Nat.ltb_spec j m); auto. rewrite HG by lia. f_equal. lia.
    + apply rows_do_ok. { rewrite vinsert_length. lia. } { lia. } intros i Hi. rewrite (proj2 (Nat.ltb_lt i n')) by lia. rewrite andb_true_r. rewrite nth_vinsert. destruct (Nat.leb_spec (n' - n) i), (Nat.leb_spec n' (i + n)), (Nat.ltb_spec i (n' - n)); try lia.
      * eexists. split; [reflexivity|]. split. { apply vresize_length. } intros j Hj. rewrite nth_vresize by auto. rewrite HR by lia. destruct (Nat.ltb_spec j m); auto. rewrite HG by lia. f_equal. lia.
      * split. { apply repeat_length. } intros j Hj. rewrite nth_repeat_lt by auto. auto.
  - unfold src_first, src_last. destruct (Nat.ltb_spec n' n).
    + rewrite verase_ok by lia. cbn [bind]. destruct (Nat.ltb_spec m' m); apply rows_do_ok; try (rewrite skipn_length; lia); try lia; intros i Hi; cbn [Nat.leb andb]; rewrite skipn_nth; rewrite (proj2 (Nat.ltb_lt i n')) by lia; rewrite (proj2 (Nat.leb_le n' (i + n))) by lia.
      * rewrite verase_ok by (rewrite HR; lia). eexists. split; [reflexivity|]. split. { rewrite skipn_length, HR; lia. } intros j Hj. rewrite skipn_nth. rewrite (proj2 (Nat.leb_le m' (j + m))) by lia. rewrite HG by lia. f_equal; lia.
      * eexists. split; [reflexivity|]. split. { rewrite vinsert_length, HR; lia. } intros j Hj. rewrite nth_vinsert. destruct (Nat.ltb_spec j (m' - m)), (Nat.leb_spec m' (j + m)); try lia; auto. rewrite HG by lia. f_equal; lia.
    + destruct (Nat.ltb_spec m' m); apply rows_do_ok; try (rewrite vinsert_length; lia); try lia; intros i Hi; rewrite (proj2 (Nat.ltb_lt i n')) by lia; rewrite andb_true_r; rewrite nth_vinsert; destruct (Nat.leb_spec (n' - n) i), (Nat.leb_spec n' (i + n)), (Nat.ltb_spec i (n' - n)); try lia.
      * rewrite verase_ok by (rewrite HR; lia). eexists. split; [reflexivity|]. split. { rewrite skipn_length, HR; lia. } intros j Hj. rewrite skipn_nth. rewrite (proj2 (Nat.leb_le m' (j + m))) by lia. rewrite HG by lia. f_equal; lia.
      * split. { apply repeat_length. } intros j Hj. rewrite nth_repeat_lt by auto. auto.
      * eexists. split; [reflexivity|]. split. { rewrite vinsert_length, HR; lia. } intros j Hj. rewrite nth_vinsert. destruct (Nat.ltb_spec j (m' - m)), (Nat.leb_spec m' (j + m)); try lia; auto. rewrite HG by lia. f_equal; lia.
      * split. { apply repeat_length. } intros j Hj. rewrite nth_repeat_lt by auto. auto.
Qed.

Lemma fu_resize_bad_at : forall M n m g n' m' M' i, arr M n m g -> n <= i < n' -> m' < m -> fu_resize M n' m' TOP_RIGHT = Ret M' -> length (nth i (fu_m M') []) < m'.
Proof.
  intros M n m g n' m' M' i (R & C & L & H) Hn Hm E. unfold fu_resize in E. rewrite R, C, (proj2 (Nat.ltb_lt m' m)) in E by auto. cbv zeta in E.
  apply bind_inv in E. destruct E as (t & E & E2). inversion E2. subst M'. cbn [fu_m]. clear E2. unfold rows_do in E. rewrite Nat.sub_0_r in E.
  apply (for_from_part _ (fun k u => length u = n' /\ (k <= i -> nth i u [] = repeat 0%Z m') /\ (i < k -> length (nth i u []) = m' - (m - m') /\ m - m' <= m'))) in E.
  - destruct E as (_ & _ & E). destruct E; lia.
  - split. { apply vresize_length. } split; [|lia]. intros _. rewrite nth_vresize by lia. rewrite L, (proj2 (Nat.ltb_ge i n)) by lia. auto.
  - intros k u u' Hk (A & B & D) E1. apply bind_inv in E1. destruct E1 as (row & E1 & E3). apply bind_inv in E3. destruct E3 as (row' & E3 & E4). apply (rd_Ret _ []) in E1. destruct E1 as [_ E1]. rewrite wr_ok in E4 by lia. inversion E4. subst u'. rewrite length_upd. split; auto.
    unfold verase in E3. destruct (Nat.leb_spec (m - m') (length row)); [|discriminate]. inversion E3. subst row'. split.
    + intros Hk'. rewrite nth_upd_neq by lia. apply B. lia.
    + intros Hk'. destruct (Nat.eq_dec k i).
      * subst k. rewrite nth_upd_eq by lia. rewrite skipn_length. rewrite <- E1, B, repeat_length in * by lia. lia.
      * rewrite nth_upd_neq by lia. apply D. lia.
Qed.
Lemma fu_resize_bad : forall M n m g n' m' M', arr M n m g -> n < n' -> m' < m -> fu_resize M n' m' TOP_RIGHT = Ret M' -> length (nth n (fu_m M') []) < m'.
Proof. intros. apply (fu_resize_bad_at M n m g n' m' M' n); auto. Qed.

(* ------------------------------------------------------------------ *)
(** * Erasure of rows and columns *)
Lemma verase_at_ok : forall A (l : list A) i k, i + k <= length l -> verase_at l i k = Ret (firstn i l ++ skipn (i + k) l).
Proof. intros. unfold verase_at. rewrite (proj2 (Nat.leb_le _ _)) by auto. auto. Qed.
Definition over (i k a : nat) : nat := if a <? i then a else a + k.
Lemma nth_erased : forall A (l : list A) i k a d, i + k <= length l -> nth a (firstn i l ++ skipn (i + k) l) d = nth (over i k a) l d.
Proof.
  intros A l i k a d H. unfold over. destruct (Nat.ltb_spec a i).
  - rewrite app_nth1 by (rewrite firstn_length; lia). apply firstn_nth. auto.
  - rewrite app_nth2 by (rewrite firstn_length; lia). rewrite firstn_length, skipn_nth. f_equal. lia.
Qed.
Lemma erased_length : forall A (l : list A) i k, i + k <= length l -> length (firstn i l ++ skipn (i + k) l) = length l - k.
Proof. intros. rewrite app_length, firstn_length, skipn_length. lia. Qed.

Lemma fu_erase_row_ok : forall M n m g i k, arr M n m g -> length (fu_rd M) = n -> i + k <= n -> exists t, fu_erase_row M i k = Ret (mkFull (n - k) m (fu_rmax M) (fu_cmax M) (fu_n M) (firstn i (fu_rd M) ++ skipn (i + k) (fu_rd M)) (fu_cd M) t) /\
  mat t (n - k) (fun _ => m) (fun a j => g (over i k a) j).
Proof.
  intros M n m g i k (R & C & L & H) LR Hi. unfold fu_erase_row. rewrite !verase_at_ok by lia. cbn [bind]. rewrite R, C. eexists. split; [reflexivity|]. split. { rewrite erased_length; lia. }
  intros a Ha. rewrite nth_erased by lia. apply H. unfold over. destruct (Nat.ltb_spec a i); lia.
Qed.
Lemma fu_erase_col_ok : forall M n m g i k, arr M n m g -> length (fu_cd M) = m -> i + k <= m -> exists t, fu_erase_col M i k = Ret (mkFull n (m - k) (fu_rmax M) (fu_cmax M) (fu_n M) (fu_rd M) (firstn i (fu_cd M) ++ skipn (i + k) (fu_cd M)) t) /\
  mat t n (fun _ => m - k) (fun a j => g a (over i k j)).
Proof.
  intros M n m g i k (R & C & L & H) LC Hi. unfold fu_erase_col. rewrite R, C. destruct (rows_do_ok 0 n (fun row => verase_at row i k) (fu_m M) n (fun _ => m - k) (fun a j => g a (over i k j))) as (t & E & K); [auto|lia| |].
  - intros a Ha. cbn [Nat.leb andb]. rewrite (proj2 (Nat.ltb_lt a n)) by auto. destruct (H a Ha) as [A B]. rewrite verase_at_ok by lia. eexists. split; [reflexivity|]. split. { rewrite erased_length; lia. } intros j Hj. rewrite nth_erased by lia. apply B. unfold over. destruct (Nat.ltb_spec j i); lia.
  - rewrite E. cbn [bind]. rewrite verase_at_ok by lia. cbn [bind]. eauto.
Qed.

(* ------------------------------------------------------------------ *)
(** * Products *)
Definition xsum (p : nat -> bool) (k : nat) : bool := fold_right xorb false (map p (seq 0 k)).
Lemma fold_xor : forall l b, fold_right xorb b l = xorb (fold_right xorb false l) b.
Proof. induction l; intros b; cbn. { destruct b; auto. } rewrite IHl. destruct a, (fold_right xorb false l), b; auto. Qed.
Lemma xsum_S : forall p k, xsum p (S k) = xorb (xsum p k) (p k).
Proof. intros. unfold xsum. rewrite seq_S, map_app, fold_right_app, fold_xor. cbn. rewrite xorb_false_r. auto. Qed.
Lemma xsum_ext : forall p q k, (forall i, i < k -> p i = q i) -> xsum p k = xsum q k.
Proof. intros p q k H. induction k; auto. rewrite !xsum_S, IHk, H by auto. auto. Qed.

Definition b2z (b : bool) : Z := if b then 1%Z else 0%Z.
Lemma nz_b2z : forall b, nz (b2z b) = b.
Proof. destruct b; auto. Qed.

Lemma fill2_ok : forall L N (e : nat -> nat -> outcome bool) (p : nat -> nat -> bool) t g, mat t L (fun _ => N) g -> (forall l n, l < L -> n < N -> e l n = Ret (p l n)) ->
  exists t', for_ L (fun l t => for_ N (fun n t => res <- e l n ;; set2 t l n (if res : bool then 1%Z else 0%Z)) t) t = Ret t' /\ mat t' L (fun _ => N) (fun i j => b2z (p i j)).
Proof.
  intros L N e p t g H HE.
  match goal with |- context [for_ L ?body ?s0] => destruct (for_inv _ (fun l u => exists h, mat u L (fun _ => N) h /\ forall i j, i < l -> j < N -> h i j = b2z (p i j)) L body s0) as (u & E & h & K & HH) end.
  - exists g. split; auto. intros. lia.
  - intros l u Hl (h & K & HH). match goal with |- context [for_ N ?body ?s0] => destruct (for_inv _ (fun n u => exists h, mat u L (fun _ => N) h /\ (forall i j, i < l -> j < N -> h i j = b2z (p i j)) /\ forall j, j < n -> h l j = b2z (p l j)) N body s0) as (v & E & h' & K' & HA & HB) end.
    + exists h. split; auto. split; auto. intros. lia.
    + intros n v Hn (h' & K' & HA & HB). rewrite HE by auto. cbn [bind]. destruct (set2_ok _ _ _ _ l n (b2z (p l n)) K') as (v' & E & K2); auto. exists v'. split; [exact E|]. eexists. split; [exact K2|]. unfold upd2. split.
      * intros i j Hi Hj. rewrite (proj2 (Nat.eqb_neq i l)) by lia. cbn. auto.
      * intros j Hj. rewrite Nat.eqb_refl. cbn [andb]. destruct (Nat.eqb_spec j n); [subst; auto|]. apply HB. lia.
    + exists v. split; auto. exists h'. split; auto. intros i j Hi Hj. destruct (Nat.eq_dec i l); [subst; auto|]. apply HA; auto. lia.
  - exists u. split; auto. eapply mat_ext; [| |exact K]; auto.
Qed.

Lemma fu_bgemm_ok : forall A B L k N f g, arr A L k f -> arr B k N g -> exists C, fu_bgemm A B = Ret C /\ arr C L N (fun i j => b2z (bit_prod k (nzf f) (nzf g) i j)).
Proof.
  intros A B L k N f g (RA & CA & HA) (RB & CB & HB). unfold fu_bgemm. rewrite RA, CA, RB, CB. rewrite Nat.eqb_refl. cbn [guard bind]. cbv zeta.
  destruct (fill2_ok L N (fun l n => for_ k (fun m res => a <- get2 (fu_m A) l m ;; b <- get2 (fu_m B) m n ;; Ret (xorb res (nz a && nz b))) false) (bit_prod k (nzf f) (nzf g)) (fu_m (fu_new L N)) (fun _ _ => 0%Z)) as (t & E & K).
  - apply mat_zeros.
  - intros l n Hl Hn. match goal with |- context [for_ k ?body ?s0] => destruct (for_inv _ (fun m res => res = xsum (fun q => nzf f l q && nzf g q n) m) k body s0) as (res & E & ->) end; auto.
    intros m res Hm ->. rewrite (get2_ok _ _ _ _ _ _ HA) by auto. cbn [bind]. rewrite (get2_ok _ _ _ _ _ _ HB) by auto. cbn [bind]. eexists. split; [reflexivity|]. rewrite xsum_S. auto.
  - rewrite E. cbn [bind]. eexists. split; [reflexivity|]. split; [auto|]. split; [auto|]. exact K.
Qed.

Lemma odd_upd : forall l e x, e < length l -> Nat.odd (list_sum (map Nat.b2n (upd l e (xorb (nth e l false) x)))) = xorb (Nat.odd (list_sum (map Nat.b2n l))) x.
Proof.
  induction l; intros e x He; [cbn in He; lia|]. destruct e; cbn [upd nth map list_sum fold_right].
  - fold (list_sum (map Nat.b2n l)). rewrite !Nat.odd_add. destruct a, x; cbn; destruct (Nat.odd (list_sum (map Nat.b2n l))); auto.
  - fold (list_sum (map Nat.b2n l)). fold (list_sum (map Nat.b2n (upd l e (xorb (nth e l false) x)))). rewrite !Nat.odd_add, IHl by (cbn in He; lia). rewrite xorb_assoc. auto.
Qed.

Lemma fu_bgemmt_ok : forall nel A B L k N f g, 0 < nel -> arr A L k f -> arr B N k g -> exists C, fu_bgemmt nel A B = Ret C /\ arr C L N (fun i j => b2z (bit_prod k (nzf f) (fun q j => nzf g j q) i j)).
Proof.
  intros nel A B L k N f g Hnel (RA & CA & HA) (RB & CB & HB). unfold fu_bgemmt. rewrite RA, CA, RB, CB. rewrite Nat.eqb_refl. cbn [guard bind]. cbv zeta.
  assert (KL : k / nel * nel <= k) by (rewrite Nat.mul_comm; apply Nat.mul_div_le; lia).
  destruct (fill2_ok L N (fun l n => lanes <- for_ (k / nel) (fun q lanes => for_ nel (fun e lanes =>
        a <- get2 (fu_m A) l (q * nel + e) ;; b <- get2 (fu_m B) n (q * nel + e) ;;
        v <- rd lanes e ;; wr lanes e (xorb v (nz a && nz b))) lanes) (repeat false nel) ;;
        for_from (k / nel * nel) (k - k / nel * nel) (fun m res => a <- get2 (fu_m A) l m ;; b <- get2 (fu_m B) n m ;; Ret (xorb res (nz a && nz b))) (Nat.odd (list_sum (map Nat.b2n lanes))))
    (bit_prod k (nzf f) (fun q j => nzf g j q)) (fu_m (fu_new L N)) (fun _ _ => 0%Z)) as (t & E & K).
  - apply mat_zeros.
  - intros l n Hl Hn. set (p := fun q => nzf f l q && nzf g n q).
    match goal with |- context [for_ (k / nel) ?body ?s0] => destruct (for_inv _ (fun q lanes => length lanes = nel /\ Nat.odd (list_sum (map Nat.b2n lanes)) = xsum p (q * nel)) (k / nel) body s0) as (lanes & E & LL & O) end.
    + split. { apply repeat_length. } clear. induction nel; auto.
    + intros q lanes Hq [LL O]. assert (QB : q * nel + nel <= k) by nia.
      match goal with |- context [for_ nel ?body ?s0] => destruct (for_inv _ (fun e lanes => length lanes = nel /\ Nat.odd (list_sum (map Nat.b2n lanes)) = xsum p (q * nel + e)) nel body s0) as (lanes' & E & LL' & O') end.
      * rewrite Nat.add_0_r. auto.
      * intros e ln He [L1 O1]. rewrite (get2_ok _ _ _ _ _ _ HA) by lia. cbn [bind]. rewrite (get2_ok _ _ _ _ _ _ HB) by lia. cbn [bind]. rewrite (rd_ok _ false) by lia. cbn [bind]. rewrite wr_ok by lia. eexists. split; [reflexivity|]. rewrite length_upd. split; auto. rewrite odd_upd by lia. rewrite O1, Nat.add_succ_r, xsum_S. auto.
      * exists lanes'. split; auto. split; auto. rewrite O'. f_equal. lia.
    + rewrite E. cbn [bind]. rewrite O. match goal with |- context [for_from ?a ?c ?body ?s0] => destruct (for_from_inv _ (fun m res => res = xsum p m) c a body s0) as (res & E2 & ->) end; auto.
      * intros m res Hm ->. rewrite (get2_ok _ _ _ _ _ _ HA) by lia. cbn [bind]. rewrite (get2_ok _ _ _ _ _ _ HB) by lia. cbn [bind]. eexists. split; [reflexivity|]. rewrite xsum_S. auto.
      * rewrite E2. f_equal. unfold bit_prod. fold (xsum p k). replace (k / nel * nel + (k - k / nel * nel)) with k by lia. auto.
  - match goal with |- context [bind ?e _] => replace e with (Ret t) end.
    + cbn [bind]. eexists. split; [reflexivity|]. split; [auto|]. split; [auto|]. exact K.
    + rewrite <- E. apply for_ext. intros l s Hl. apply for_ext. intros n s' Hn. rewrite bind_assoc. auto.
Qed.

Lemma fu_all_zeros_ok : forall M n m g, arr M n m g -> exists b, fu_all_zeros M = Ret b /\ (b = true <-> forall i j, i < n -> j < m -> g i j = 0%Z).
Proof.
  intros M n m g (R & C & H). unfold fu_all_zeros. rewrite R, C.
  match goal with |- context [for_ n ?body ?s0] => destruct (for_inv _ (fun r b => b = true <-> forall i j, i < r -> j < m -> g i j = 0%Z) n body s0) as (b & E & K) end.
  - split; auto. intros. lia.
  - intros r b Hr K. match goal with |- context [for_ m ?body ?s0] => destruct (for_inv _ (fun c b => b = true <-> (forall i j, i < r -> j < m -> g i j = 0%Z) /\ forall j, j < c -> g r j = 0%Z) m body s0) as (b' & E & K') end.
    + rewrite K. split; [|tauto]. intros Q. split; auto. intros. lia.
    + intros c b' Hc K'. rewrite (get2_ok _ _ _ _ _ _ H) by auto. cbn [bind]. eexists. split; [reflexivity|]. rewrite andb_true_iff, K', Z.eqb_eq. split.
      * intros [[A B] D]. split; auto. intros j Hj. destruct (Nat.eq_dec j c); [subst; auto|]. apply B. lia.
      * intros [A B]. split; [split; auto|]. apply B. lia.
    + exists b'. split; auto. rewrite K'. split.
      * intros [A B] i j Hi Hj. destruct (Nat.eq_dec i r); [subst; auto|]. apply A; auto. lia.
      * intros A. split; intros; apply A; auto.
  - exists b. split; auto.
Qed.

(* ------------------------------------------------------------------ *)
(** * Conversions *)
Lemma adds_ok : forall M n m g i l, fu_ok M n m g -> i < n -> NoDup l -> (forall c, In c l -> c < m /\ g i c = 0%Z) ->
  exists M', each l (fun c M => fu_add M i c) M = Ret M' /\ fu_ok M' n m (fun a b => if (a =? i) && existsb (Nat.eqb b) l then 1%Z else g a b).
Proof.
  intros M n m g i l K Hi ND. revert M g K. induction ND as [|c l NI ND IH]; intros M g K H; cbn [each].
  - exists M. split; auto. eapply fu_ok_ext; [|exact K]. intros. cbn. rewrite andb_false_r. auto.
  - destruct (H c) as [Hc G]; [left; auto|]. destruct (fu_add_ok _ _ _ _ i c K) as (M1 & E & K1); auto. rewrite E. cbn [bind]. destruct (IH M1 _ K1) as (M2 & E2 & K2).
    + intros d Hd. destruct (H d) as [A B]; [right; auto|]. split; auto. unfold upd2. destruct (Nat.eqb_spec d c); [subst; contradiction|]. rewrite andb_false_r. auto.
    + exists M2. split; auto. eapply fu_ok_ext; [|exact K2]. intros a b Ha Hb. unfold upd2. cbn [existsb]. destruct (Nat.eqb_spec a i); cbn [andb]; auto. destruct (Nat.eqb_spec b c); cbn [orb]; auto. destruct (existsb (Nat.eqb b) l); auto.
Qed.

Lemma to_full_ok : forall S n m f, sp_ok S n m f -> exists M, sparse_to_full S = Ret M /\ fu_ok M n m (fun i j => b2z (f i j)).
Proof.
  intros S n m f K. pose proof K as (R & C & _). unfold sparse_to_full. rewrite R, C.
  match goal with |- context [for_ n ?body ?s0] => destruct (for_inv _ (fun r M => fu_ok M n m (fun i j => if i <? r then b2z (f i j) else 0%Z)) n body s0) as (M & E & KM) end.
  - eapply fu_ok_ext; [|apply fu_new_ok]. auto.
  - intros r M Hr KM. destruct (row_ok _ _ _ _ r K Hr) as (l & E & ND & HI). rewrite E. cbn [bind]. destruct (adds_ok _ _ _ _ r l KM Hr ND) as (M' & E' & K').
    + intros c I. apply HI in I. split; [apply I|]. rewrite Nat.ltb_irrefl. auto.
    + exists M'. split; auto. eapply fu_ok_ext; [|exact K']. intros i j Hi Hj. cbv beta. destruct (Nat.eqb_spec i r).
      * subst i. rewrite Nat.ltb_irrefl. rewrite (proj2 (Nat.ltb_lt r (Datatypes.S r))) by lia. cbn [andb]. replace (existsb (Nat.eqb j) l) with (f r j). destruct (f r j); auto. apply eq_true_iff_eq. rewrite mem_in, HI. tauto.
      * cbn [andb]. destruct (Nat.ltb_spec i r), (Nat.ltb_spec i (Datatypes.S r)); auto; lia.
  - exists M. split; auto. eapply fu_ok_ext; [|exact KM]. intros i j Hi Hj. cbv beta. rewrite (proj2 (Nat.ltb_lt i n)) by auto. auto.
Qed.

Lemma to_sparse_ok : forall M n m g, arr M n m g -> exists S, full_to_sparse M = Ret S /\ sp_ok S n m (nzf g).
Proof.
  intros M n m g (R & C & H). unfold full_to_sparse. rewrite R, C. 
  match goal with |- context [for_ n ?body ?s0] => destruct (for_inv _ (fun r S => sp_ok S n m (part (nzf g) r 0)) n body s0) as (S & E & K) end.
  - eapply sp_ok_ext; [|apply new_ok]. intros. unfold part. cbn. rewrite andb_false_r. symmetry. apply andb_false_r.
  - intros r S Hr K. match goal with |- context [for_ m ?body ?s0] => destruct (for_inv _ (fun c S => sp_ok S n m (part (nzf g) r c)) m body s0) as (S' & E & K') end.
    + auto.
    + intros c S' Hc K'. rewrite (get2_ok _ _ _ _ _ _ H) by auto. cbn [bind]. change (nz (g r c)) with (nzf g r c). destruct (nzf g r c) eqn:F.
      * destruct (add_ok _ _ _ _ r c K') as (S2 & E & K2); auto. { apply part_at. } exists S2. split; auto. eapply sp_ok_ext; [|exact K2]. intros. rewrite part_next, F. auto.
      * exists S'. split; auto. eapply sp_ok_ext; [|exact K']. intros. rewrite part_next, F. auto.
    + exists S'. split; auto. eapply sp_ok_ext; [|exact K']. intros. apply part_row. auto.
  - exists S. split; auto. eapply sp_ok_ext; [|exact K]. intros i j Hi Hj. unfold part. rewrite (proj2 (Nat.ltb_lt i n)) by auto. apply andb_true_r.
Qed.

Lemma fu_identity_ok : forall n m, exists M, fu_identity n m = Ret M /\ fu_ok M n m (fun i j => b2z (i =? j)).
Proof.
  intros n m. unfold fu_identity. match goal with |- context [for_ ?k ?body ?s0] => destruct (for_inv _ (fun r M => fu_ok M n m (fun i j => if i <? r then b2z (i =? j) else 0%Z)) k body s0) as (M & E & K) end.
  - eapply fu_ok_ext; [|apply fu_new_ok]. auto.
  - intros r M Hr K. destruct (fu_add_ok _ _ _ _ r r K) as (M' & E & K'); try lia. { rewrite Nat.ltb_irrefl. auto. } exists M'. split; auto. eapply fu_ok_ext; [|exact K']. intros i j Hi Hj. unfold upd2.
    destruct (Nat.eqb_spec i r). { subst i. rewrite Nat.ltb_irrefl, (proj2 (Nat.ltb_lt r (S r))) by lia. cbn [andb]. rewrite (Nat.eqb_sym r j). destruct (j =? r); auto. }
    cbn [andb]. destruct (Nat.ltb_spec i r), (Nat.ltb_spec i (S r)); auto; lia.
  - exists M. split; auto. eapply fu_ok_ext; [|exact K]. intros i j Hi Hj. cbv beta. destruct (Nat.ltb_spec i (Nat.min n m)); auto. destruct (Nat.eqb_spec i j); auto. lia.
Qed.
