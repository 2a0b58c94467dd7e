(** The arrays of messages of the belief-propagation decoders: which edge of the graph each cell holds. *)
From Coq Require Import List Arith Lia Bool ZArith QArith Permutation.
From Verif Require Import Base WLoops SparseModel SparseSpec SparseProofs LDPCModel LDPCSpec LDPCBPModel LDPCBPSpec LDPCBPProofs.
Import ListNotations.
Local Open Scope nat_scope.

(* ------------------------------------------------------------------ *)
(** * Flattened lists of lists *)

Lemma nodup_firstn : forall A (l : list A) k, NoDup l -> NoDup (firstn k l).
Proof.
  intros A l. induction l; intros k ND; destruct k; try constructor; inversion ND; subst; auto.
  intros C. apply H1. rewrite <- (firstn_skipn k l). apply in_or_app. auto.
Qed.

Definition off (l : list (list nat)) (k : nat) : nat := list_sum (map (@length nat) (firstn k l)).

Lemma off_S : forall l k, k < length l -> off l (S k) = off l k + length (nth k l []).
Proof. intros l k H. unfold off. rewrite (firstn_snoc _ [] l k H), map_app, list_sum_app. cbn. lia. Qed.
Lemma off_mono : forall l a b, a <= b -> b <= length l -> off l a <= off l b.
Proof. intros l a b H L. induction H; auto. rewrite off_S by lia. specialize (IHle ltac:(lia)). lia. Qed.
Lemma off_lt : forall l k j, k < length l -> j < length (nth k l []) -> off l k + j < off l (length l).
Proof. intros l k j H J. assert (E := off_S l k H). assert (O := off_mono l (S k) (length l) ltac:(lia) ltac:(lia)). lia. Qed.
Lemma off_inj : forall l k j k' j', k < length l -> k' < length l -> j < length (nth k l []) -> j' < length (nth k' l []) ->
  off l k + j = off l k' + j' -> k = k' /\ j = j'.
Proof.
  intros l k j k' j' H H' J J' E. destruct (lt_eq_lt_dec k k') as [[L|L]|L].
  - assert (A := off_S l k H). assert (B := off_mono l (S k) k' ltac:(lia) ltac:(lia)). lia.
  - subst. split; auto. lia.
  - assert (A := off_S l k' H'). assert (B := off_mono l (S k') k ltac:(lia) ltac:(lia)). lia.
Qed.
Lemma off_onto : forall l p, p < off l (length l) -> exists k j, k < length l /\ j < length (nth k l []) /\ p = off l k + j.
Proof.
  intros l p H. assert (K : forall m, m <= length l -> p < off l m -> exists k j, k < m /\ j < length (nth k l []) /\ p = off l k + j).
  { induction m; intros Hm Hp; [cbn in Hp; lia|]. destruct (lt_dec p (off l m)) as [L|L].
    - destruct (IHm ltac:(lia) L) as (k & j & A & B & C). exists k, j. auto.
    - rewrite off_S in Hp by lia. exists m, (p - off l m). repeat split; lia. }
  destruct (K (length l) (le_n _) H) as (k & j & A & B & C). exists k, j. auto.
Qed.
Lemma off_all : forall l, off l (length l) = list_sum (map (@length nat) l).
Proof. intros. unfold off. rewrite firstn_all. auto. Qed.

(* ------------------------------------------------------------------ *)
(** * Ranks *)

Definition rank (f : nat -> bool) (m : nat) : nat := length (filter f (seq 0 m)).

Lemma rank_S : forall f m, rank f (S m) = rank f m + Nat.b2n (f m).
Proof. intros. unfold rank. rewrite seq_S, filter_app, app_length. cbn [filter Nat.add]. destruct (f m); auto. Qed.
Lemma rank_mono : forall f a b, a <= b -> rank f a <= rank f b.
Proof. intros f a b H. induction H; auto. rewrite rank_S. lia. Qed.
Lemma rank_lt : forall f c m, c < m -> f c = true -> rank f c < rank f m.
Proof. intros f c m H F. assert (A := rank_mono f (S c) m H). rewrite rank_S, F in A. cbn in A. lia. Qed.
Lemma rank_inj : forall f c c', f c = true -> f c' = true -> rank f c = rank f c' -> c = c'.
Proof. intros f c c' F F' E. destruct (lt_eq_lt_dec c c') as [[L|L]|L]; auto; [assert (A := rank_lt f c c' L F)|assert (A := rank_lt f c' c L F')]; lia. Qed.
Lemma rank_nth : forall f m k, k < rank f m -> let c := nth k (filter f (seq 0 m)) 0 in c < m /\ f c = true /\ rank f c = k.
Proof.
  intros f m. induction m; intros k H; [cbn in H; lia|]. rewrite rank_S in H. cbv zeta. rewrite seq_S, filter_app. cbn [filter Nat.add].
  destruct (lt_dec k (rank f m)) as [L|L].
  - destruct (IHm k L) as (A & B & C). rewrite app_nth1 by auto. auto.
  - destruct (f m) eqn:F; cbn [Nat.b2n] in H; [|lia]. fold (rank f m) in *. rewrite app_nth2 by (fold (rank f m); lia). fold (rank f m).
    replace (k - rank f m) with 0 by lia. cbn [nth]. split; [lia|]. split; auto. lia.
Qed.

(* ------------------------------------------------------------------ *)
(** * The graph of a matrix *)

Section Graph.
Variables (H : sparse) (N M : nat) (h : nat -> nat -> bool).
Hypothesis OK : sp_ok H N M h.

Definition col (c : nat) : list nat := nth c (sp_c2r H) [].
Definition offr (v : nat) : nat := off (sp_r2c H) v.
Definition offc (c : nat) : nat := off (sp_c2r H) c.
Definition pos (c v : nat) : nat := offr v + rank (h v) c.

Lemma rows_N : sp_rows H = N. Proof. destruct OK as (E & _). auto. Qed.
Lemma cols_M : sp_cols H = M. Proof. destruct OK as (_ & E & _). auto. Qed.
Lemma len_r : length (sp_r2c H) = N. Proof. destruct OK as (_ & _ & V & _). destruct V. auto. Qed.
Lemma len_c : length (sp_c2r H) = M. Proof. destruct OK as (_ & _ & _ & V & _). destruct V. auto. Qed.

Lemma row_rd : forall v, v < N -> sp_row H v = Ret (nth v (sp_r2c H) []).
Proof. intros v Hv. unfold sp_row. apply rd_ok. rewrite len_r. auto. Qed.
Lemma col_rd : forall c, c < M -> sp_col H c = Ret (col c).
Proof. intros c Hc. unfold sp_col. apply rd_ok. rewrite len_c. auto. Qed.
Lemma row_deg_rank : forall v, v < N -> length (nth v (sp_r2c H) []) = rank (h v) M.
Proof. intros v Hv. destruct OK as (_ & _ & V & _). rewrite (view_len _ _ _ _ _ V Hv). reflexivity. Qed.
Lemma col_nodup : forall c, c < M -> NoDup (col c).
Proof. intros c Hc. destruct OK as (_ & _ & _ & V & _). apply V. auto. Qed.
Lemma col_in : forall c v, c < M -> (In v (col c) <-> v < N /\ h v c = true).
Proof. intros c v Hc. destruct OK as (_ & _ & _ & V & _). apply V. auto. Qed.
Lemma col_perm : forall c, c < M -> Permutation (col c) (vars_of N h c).
Proof.
  intros c Hc. apply NoDup_Permutation; [apply col_nodup; auto|apply NoDup_filter, seq_NoDup|]. intros v. rewrite col_in by auto. unfold vars_of. rewrite filter_In, in_seq. intuition lia.
Qed.
Lemma col_nth : forall c j, c < M -> j < length (col c) -> nth j (col c) 0 < N /\ h (nth j (col c) 0) c = true.
Proof. intros c j Hc Hj. apply col_in; auto. apply nth_In. auto. Qed.
Lemma col_idx : forall c v, c < M -> v < N -> h v c = true -> exists j, j < length (col c) /\ nth j (col c) 0 = v.
Proof. intros c v Hc Hv Hh. apply (In_nth (col c) v 0). apply col_in; auto. Qed.
Lemma col_le_max : forall c, c < M -> length (col c) <= sp_cmax H.
Proof.
  intros c Hc. destruct OK as (_ & _ & _ & V & _ & _ & ->). unfold col. rewrite (view_len _ _ _ _ _ V Hc). apply (maxf_ge (row_deg (flip h) N) M). auto.
Qed.

Lemma offr_S : forall v, v < N -> offr (S v) = offr v + rank (h v) M.
Proof. intros v Hv. unfold offr. rewrite off_S by (rewrite len_r; auto). rewrite row_deg_rank by auto. auto. Qed.
Lemma offc_S : forall c, c < M -> offc (S c) = offc c + length (col c).
Proof. intros c Hc. unfold offc. rewrite off_S by (rewrite len_c; auto). auto. Qed.

Lemma total_r : offr N = sp_n H.
Proof.
  destruct OK as (_ & _ & V & _ & E & _). unfold offr. rewrite <- len_r, off_all, map_len_sumf, len_r, E. unfold ones. apply sumf_ext. intros i Hi. apply (view_len _ _ _ _ _ V Hi).
Qed.
Lemma total_c : offc M = sp_n H.
Proof.
  destruct OK as (_ & _ & _ & V & E & _). unfold offc. rewrite <- len_c, off_all, map_len_sumf, len_c, E, ones_flip. unfold ones. apply sumf_ext. intros i Hi. apply (view_len _ _ _ _ _ V Hi).
Qed.

Lemma pos_lt : forall c v, c < M -> v < N -> h v c = true -> pos c v < sp_n H.
Proof.
  intros c v Hc Hv Hh. unfold pos. rewrite <- total_r. unfold offr. rewrite <- len_r. apply off_lt; rewrite ?len_r; auto. rewrite row_deg_rank by auto. apply rank_lt; auto.
Qed.
Lemma pos_inj : forall c v c' v', c < M -> v < N -> h v c = true -> c' < M -> v' < N -> h v' c' = true -> pos c v = pos c' v' -> c = c' /\ v = v'.
Proof.
  intros c v c' v' Hc Hv Hh Hc' Hv' Hh' E. unfold pos, offr in E. apply off_inj in E; rewrite ?len_r, ?row_deg_rank by auto; auto; try (apply rank_lt; auto).
  destruct E as [-> E]. split; auto. eapply rank_inj; eauto.
Qed.
Lemma pos_row : forall v k, v < N -> k < rank (h v) M -> let c := nth k (checks_of M h v) 0 in c < M /\ h v c = true /\ offr v + k = pos c v.
Proof. intros v k Hv Hk. cbv zeta. unfold checks_of, pos. destruct (rank_nth (h v) M k Hk) as (A & B & C). cbv zeta in *. change (fun c : nat => h v c) with (h v). rewrite C. auto. Qed.
Lemma pos_onto : forall p, p < sp_n H -> exists c v, c < M /\ v < N /\ h v c = true /\ p = pos c v.
Proof.
  intros p Hp. rewrite <- total_r in Hp. unfold offr in Hp. rewrite <- len_r in Hp. destruct (off_onto _ p Hp) as (v & k & Hv & Hk & ->). rewrite len_r in Hv. rewrite row_deg_rank in Hk by auto.
  destruct (pos_row v k Hv Hk) as (A & B & C). exists (nth k (checks_of M h v) 0), v. auto.
Qed.
Lemma cell_lt : forall c j, c < M -> j < length (col c) -> offc c + j < sp_n H.
Proof. intros c j Hc Hj. rewrite <- total_c. unfold offc. rewrite <- len_c. apply off_lt; rewrite ?len_c; auto. Qed.
Lemma cell_inj : forall c j c' j', c < M -> j < length (col c) -> c' < M -> j' < length (col c') -> offc c + j = offc c' + j' -> c = c' /\ j = j'.
Proof. intros c j c' j' Hc Hj Hc' Hj' E. apply (off_inj (sp_c2r H)); rewrite ?len_c; auto. Qed.

(* ------------------------------------------------------------------ *)
(** * The table [transpose] *)

Definition edges_of (T : list nat) : Prop :=
  length T = sp_n H /\ forall c j, c < M -> j < length (col c) -> nth (offc c + j) T 0 = pos c (nth j (col c) 0).

Lemma transpose_is : (forall v, v < N -> rank (h v) M <= 256) -> exists T, fl_transpose H = Ret T /\ edges_of T.
Proof.
  intros DEG. unfold fl_transpose. rewrite len_c.
  match goal with |- context [for_ M ?b ?s] => destruct (for_inv _ (fun i '(conn, T, k) => length conn = N /\ length T = sp_n H /\ k = offc i /\
     (forall v, v < N -> nth v conn 0 = rank (h v) i mod 256) /\ (forall c j, c < i -> j < length (col c) -> nth (offc c + j) T 0 = pos c (nth j (col c) 0))) M b s) as ([[conn T] k] & E & I) end.
  - rewrite !repeat_length, rows_N. split; [auto|]. split; [auto|]. split; [auto|]. split; [|intros; lia]. intros v Hv. rewrite nth_repeat_lt by auto. auto.
  - intros i [[conn T] k] Hi (LC & LT & EK & CN & TB). rewrite col_rd by auto. cbn [bind].
    match goal with |- exists s', for_ _ ?b ?s = _ /\ _ => destruct (for_inv _ (fun j '(conn, T, k) => length conn = N /\ length T = sp_n H /\ k = offc i + j /\
       (forall v, v < N -> nth v conn 0 = (rank (h v) i + count_occ Nat.eq_dec (firstn j (col i)) v) mod 256) /\
       (forall c j', c < i \/ (c = i /\ j' < j) -> j' < length (col c) -> nth (offc c + j') T 0 = pos c (nth j' (col c) 0))) (length (col i)) b s) as ([[conn' T'] k'] & E & I) end.
    + split; [auto|]. split; [auto|]. split; [lia|]. split.
      * intros v Hv. rewrite CN by auto. cbn [firstn count_occ]. rewrite Nat.add_0_r. auto.
      * intros c j' [C|[_ C]] Hj; [auto|lia].
    + clear conn T k LC LT EK CN TB. intros j [[conn T] k] Hj (LC & LT & EK & CN & TB).
      destruct (col_nth i j Hi Hj) as [Hv Hh]. set (v := nth j (col i) 0) in *.
      rewrite (rd_ok _ 0) by auto. cbn [bind]. fold v.
      assert (BR : for_ v (fun ii br => row <- sp_row H ii ;; Ret (br + length row)) 0 = Ret (offr v)).
      { destruct (for_inv _ (fun ii br => br = offr ii) v (fun ii br => row <- sp_row H ii ;; Ret (br + length row)) 0) as (br & EB & IB); [reflexivity| |rewrite EB, IB; auto].
        intros ii br Hii ->. rewrite row_rd by lia. cbn [bind]. eexists. split; [reflexivity|]. rewrite offr_S by lia. rewrite row_deg_rank by lia. auto. }
      rewrite BR. cbn [bind]. rewrite (rd_ok _ 0) by lia. cbn [bind]. rewrite wr_ok by lia. cbn [bind]. rewrite row_rd by auto. cbn [bind].
      assert (ND : NoDup (firstn (S j) (col i))) by (apply nodup_firstn, col_nodup; auto).
      assert (CZ : count_occ Nat.eq_dec (firstn j (col i)) v = 0).
      { apply count_occ_not_In. rewrite (firstn_snoc _ 0 (col i) j Hj) in ND. fold v in ND. apply NoDup_remove_2 in ND. rewrite app_nil_r in ND. auto. }
      rewrite CN by auto. rewrite CZ, Nat.add_0_r.
      assert (RL := rank_lt (h v) i M Hi Hh). assert (DV := DEG v Hv). rewrite (Nat.mod_small (rank (h v) i) 256) by lia.
      rewrite row_deg_rank by auto.
      assert (G : ((rank (h v) i + 1) mod 256 <=? rank (h v) M) = true). { apply Nat.leb_le. eapply Nat.le_trans; [apply Nat.mod_le; lia|lia]. }
      rewrite G. cbn [guard bind]. rewrite wr_ok by (rewrite EK, LT; apply cell_lt; auto). cbn [bind]. eexists. split; [reflexivity|].
      cbv beta iota. rewrite !length_upd. split; [auto|]. split; [auto|]. split; [lia|]. split.
      * intros w Hw. rewrite (firstn_snoc _ 0 (col i) j Hj), count_occ_app. fold v. cbn [count_occ].
        rewrite nth_upd by lia. destruct (Nat.eqb_spec w v) as [->|NE].
        { rewrite CZ. destruct (Nat.eq_dec v v); [|congruence]. rewrite Nat.add_0_l. auto. }
        { rewrite CN by auto. destruct (Nat.eq_dec v w); [congruence|]. rewrite Nat.add_0_r. auto. }
      * intros c j' C Hj'. assert (Hc : c < M) by lia. rewrite nth_upd by (rewrite EK, LT; apply cell_lt; auto). rewrite EK. destruct (Nat.eqb_spec (offc c + j') (offc i + j)) as [EQ|NE].
        { apply cell_inj in EQ; auto. destruct EQ as [-> ->]. reflexivity. }
        { apply TB; auto. destruct C as [C|[-> C]]; [left; auto|]. right. split; auto. assert (j' <> j) by (intros ->; auto). lia. }
    + exists (conn', T', k'). split; auto. destruct I as (LC' & LT' & EK' & CN' & TB'). split; [auto|]. split; [auto|]. split; [rewrite offc_S by auto; auto|]. split.
      * intros v Hv. rewrite CN' by auto. rewrite firstn_all, rank_S. f_equal. f_equal. pose proof (col_nodup i Hi) as ND. rewrite (NoDup_count_occ' Nat.eq_dec) in ND.
        destruct (h v i) eqn:Hh; cbn [Nat.b2n].
        { apply ND. apply col_in; auto. }
        { apply count_occ_not_In. rewrite col_in by auto. intros [_ C]. congruence. }
      * intros c j Hc Hj. apply TB'; auto. destruct (Nat.eq_dec c i) as [->|]; [right; auto|left; lia].
  - rewrite E. cbn [bind]. destruct I as (LC & LT & EK & CN & TB). exists T. split; auto. split; auto.
Qed.

End Graph.
