(** The three Gallager decoders: their messages, votes and check nodes are those of GalSpec.v. *)
From Coq Require Import List Arith Lia Bool ZArith Permutation.
From Verif Require Import Base WLoops SparseModel SparseSpec SparseProofs FullModel LDPCModel LDPCSpec LDPCProofs LDPCProps LDPCBPModel LDPCBPSpec LDPCBPProofs LDPCBPGraph LDPCBPFlood GalModel GalSpec GalProofs GalSpecProofs.
Import ListNotations.
Local Open Scope nat_scope.

Lemma sum_ones : forall l, sumz (map Z.b2z l) = Z.of_nat (against false l).
Proof. intros l. unfold sumz, against. induction l as [|m l IH]; auto. cbn [map fold_right filter]. rewrite IH, xorb_false_r. destruct m; cbn [length Z.b2z]; lia. Qed.
Lemma against_agree : forall l, against true l = agree false l /\ agree true l = against false l.
Proof. intros l. unfold against, agree. induction l as [|m l [I1 I2]]; auto. cbn [filter]. destruct m; cbn [xorb negb length]; split; lia. Qed.

Lemma out_A_ok : forall k y own os, out_A k (S (length os)) (Z.b2z y) (Z.b2z own + sumz (map Z.b2z os))%Z (Z.b2z own) = Z.b2z (var_A k y own os).
Proof.
  intros k y own os. unfold out_A, var_A. rewrite sum_ones. assert (P := against_len false os). destruct (against_agree os) as [E1 E2].
  assert (Q : (S (length os) =? 1) = negb (0 <? length os)) by (destruct os; auto). rewrite Q, negb_involutive.
  destruct y, own; cbn [Z.b2z nz Z.eqb negb Pos.eqb]; rewrite ?E1;
    match goal with |- context [(?a =? ?b)%Z && _] => destruct (Z.eqb_spec a b) end;
    match goal with |- context [(0 <? length os) && (?a =? ?b)] => destruct (Nat.eqb_spec a b) end; rewrite ?andb_true_r, ?andb_false_r; cbn [andb]; try lia; destruct (0 <? length os); auto.
Qed.
Lemma out_B_ok : forall k y own os, out_B k (S (length os)) (Z.b2z y) (Z.b2z own + sumz (map Z.b2z os))%Z (Z.b2z own) = Z.b2z (var_B k y own os).
Proof.
  intros k y own os. unfold out_B, var_B. rewrite agree_cons, sum_ones. assert (P := against_len false os). destruct (against_agree os) as [E1 E2].
  destruct y, own; cbn [Z.b2z xorb]; rewrite ?E1, ?E2;
    match goal with |- context [if (?a =? ?b)%Z then _ else _] => destruct (Z.eqb_spec a b) end;
    match goal with |- context [?a <? ?b] => destruct (Nat.ltb_spec a b) end; cbn [negb Z.b2z]; try lia;
    match goal with |- context [(?a <? ?b)%Z] => destruct (Z.ltb_spec a b) end; cbn [Z.b2z]; lia.
Qed.
Lemma vote_A_ok : forall y l, vote_A (length l) (Z.b2z y) (sumz (map Z.b2z l)) = Z.b2z (majority y l).
Proof.
  intros y l. unfold vote_A, majority. rewrite sum_ones. assert (P := against_len false l). destruct (against_agree l) as [E1 E2].
  destruct y; cbn [Z.b2z]; rewrite ?E1, ?E2;
    match goal with |- context [if (?a =? ?b)%Z then _ else _] => destruct (Z.eqb_spec a b) end;
    match goal with |- context [?a <? ?b] => destruct (Nat.ltb_spec a b) end; cbn [negb Z.b2z]; try lia;
    match goal with |- context [(?a <? ?b)%Z] => destruct (Z.ltb_spec a b) end; cbn [Z.b2z]; lia.
Qed.
Lemma out_E_ok : forall k y own os, 1 <= k -> out_E k (S (length os)) y (own + sumz (map (fun z => z) os))%Z own = var_E k y own os.
Proof.
  intros k y own os Hk. unfold out_E, var_E. rewrite map_id. f_equal. replace (k <? 2) with (k =? 1); [destruct (k =? 1); lia|]. destruct (Nat.eqb_spec k 1), (Nat.ltb_spec k 2); auto; lia.
Qed.
Lemma vote_E_ok : forall n y l, vote_E false n (sig y) (sumz (map (fun z => z) l)) = Z.b2z (dec_E (sig y) l).
Proof.
  intros n y l. unfold vote_E, dec_E. rewrite map_id. rewrite (Z.add_comm (sig y)). destruct (Z.eqb_spec (sumz l + sig y) 0) as [E|E]; [destruct y; reflexivity|].
  destruct (Z.ltb_spec (sumz l + sig y) 0); [rewrite (Z.sgn_neg (sumz l + sig y)) by lia|rewrite (Z.sgn_pos (sumz l + sig y)) by lia]; reflexivity.
Qed.

Lemma others_nth : forall l j, NoDup l -> j < length l -> others (nth j l 0) l = map (fun i => nth i l 0) (others j (seq 0 (length l))).
Proof.
  intros l j ND Hj. assert (G : forall s, (forall i, In i s -> i < length l) -> others (nth j l 0) (map (fun i => nth i l 0) s) = map (fun i => nth i l 0) (others j s)).
  { induction s as [|i s IH]; intros B; auto. cbn [map others filter]. unfold others in *. rewrite IH by (intros; apply B; right; auto). assert (Hi := B i (or_introl eq_refl)).
    destruct (Nat.eqb_spec (nth i l 0) (nth j l 0)) as [E|E], (Nat.eqb_spec i j) as [E'|E']; cbn [negb map]; auto; [|subst; congruence].
    exfalso. apply E'. apply (proj1 (NoDup_nth l 0) ND); auto. }
  rewrite <- G by (intros i I; apply in_seq in I; lia). f_equal. clear. induction l using rev_ind; auto. rewrite app_length, Nat.add_1_r, seq_S, map_app. cbn [map Nat.add]. rewrite app_nth2, Nat.sub_diag by lia. cbn [nth]. f_equal.
  rewrite IHl at 1. apply map_ext_in. intros i I. apply in_seq in I. rewrite app_nth1 by lia. auto.
Qed.

Section Checks.
Variables (H : sparse) (N M : nat) (h : nat -> nat -> bool) (T : list nat).
Hypothesis OK : sp_ok H N M h.
Hypothesis TB : edges_of H M h T.

Lemma col_others : forall c v, c < M -> Permutation (others v (col H c)) (others v (vars_of N h c)).
Proof.
  intros c v Hc. apply NoDup_Permutation; [apply NoDup_filter; eapply col_nodup; eauto|apply NoDup_filter, vars_nodup|].
  intros w. rewrite !others_in. rewrite (col_in _ _ _ _ OK) by auto. rewrite vars_in. tauto.
Qed.

Lemma chk_A_ok : forall v2c c2v nu, holdsZ H N M h bool Z.b2z v2c (fun c v => nu v c) -> length c2v = sp_n H ->
  exists c2v', chk_A H T v2c c2v = Ret c2v' /\ holdsZ H N M h bool Z.b2z c2v' (to_vars bool N h sum2 nu).
Proof.
  intros v2c c2v nu (LV & HE) LC. unfold chk_A. rewrite (cols_M _ _ _ _ OK).
  match goal with |- context [for_ M ?bb ?ss] => destruct (checks_loop H N M h bool Z.b2z OK (to_vars bool N h sum2 nu) bb c2v LC) as (p & a & E & HA) end.
  - intros c a Hc LA. rewrite (col_rd _ _ _ _ OK c Hc). cbn [bind].
    assert (EA : for_ (length (col H c)) (fun v acc => t <- rd T (offc H c + v) ;; x <- rd v2c t ;; Ret (Z.lxor acc x)) 0%Z = Ret (Z.b2z (sum2 (map (fun v => nu v c) (col H c))))).
    { destruct (for_inv _ (fun k s => s = Z.b2z (sum2 (map (fun v => nu v c) (firstn k (col H c))))) (length (col H c)) (fun v acc => t <- rd T (offc H c + v) ;; x <- rd v2c t ;; Ret (Z.lxor acc x)) 0%Z) as (s & Es & I).
      - reflexivity.
      - intros k s Hk ->. destruct (RDT H N M h T OK TB v2c c k LV Hc Hk) as [-> R2]. cbn [bind]. rewrite R2. cbn [bind]. eexists. split; [reflexivity|]. destruct (col_nth _ _ _ _ OK c k Hc Hk) as [Hv Hh].
        rewrite HE by auto. rewrite (firstn_snoc _ 0) by auto. rewrite map_app. cbn [map]. rewrite sum2_snoc, b2z_lxor. auto.
      - rewrite Es, I, firstn_all. auto. }
    rewrite EA. cbn [bind].
    destruct (col_writes H N M h OK (fun c v => Z.b2z (to_vars bool N h sum2 nu c v)) c (fun v c2v => t <- rd T (offc H c + v) ;; x <- rd v2c t ;; wr c2v t (Z.lxor (Z.b2z (sum2 (map (fun v => nu v c) (col H c)))) x)) a Hc LA) as (a' & E & LA' & W1 & W2).
    + intros j x Hj LX. destruct (RDT H N M h T OK TB v2c c j LV Hc Hj) as [-> R2]. cbn [bind]. rewrite R2. cbn [bind]. destruct (col_nth _ _ _ _ OK c j Hc Hj) as [Hv Hh]. rewrite HE by auto. rewrite b2z_lxor. f_equal. f_equal.
      set (v := nth j (col H c) 0) in *. unfold to_vars. assert (P : Permutation (col H c) (v :: others v (vars_of N h c))).
      { eapply perm_trans; [apply (others_perm v); [eapply col_nodup; eauto|apply nth_In; auto]|]. apply perm_skip. apply col_others. auto. }
      unfold sum2. rewrite (par_perm _ _ (Permutation_map (fun v => nu v c) P)). cbn [map fold_right]. destruct (nu v c), (fold_right xorb false (map (fun w => nu w c) (others v (vars_of N h c)))); auto.
    + rewrite E. cbn [bind]. exists a'. auto.
  - rewrite E. cbn [bind]. exists a. auto.
Qed.

Lemma chk_E_ok : forall v2c c2v nu, holdsZ H N M h Z (fun z => z) v2c (fun c v => nu v c) -> length c2v = sp_n H ->
  exists c2v', chk_E H T v2c c2v = Ret c2v' /\ holdsZ H N M h Z (fun z => z) c2v' (to_vars Z N h prodz nu).
Proof.
  intros v2c c2v nu (LV & HE) LC. unfold chk_E. rewrite (cols_M _ _ _ _ OK).
  match goal with |- context [for_ M ?bb ?ss] => destruct (checks_loop H N M h Z (fun z => z) OK (to_vars Z N h prodz nu) bb c2v LC) as (p & a & E & HA) end.
  - intros c a Hc LA. rewrite (col_rd _ _ _ _ OK c Hc). cbn [bind].
    match goal with |- context [for_ (length (col H c)) ?bb a] => destruct (col_writes H N M h OK (fun c v => to_vars Z N h prodz nu c v) c bb a Hc LA) as (a' & E & LA' & W1 & W2) end.
    + intros j x Hj LX. set (n := length (col H c)) in *.
      match goal with |- context [for_ n ?bb 1%Z] => destruct (for_inv _ (fun k s => s = prodz (map (fun i => if i =? j then 1%Z else nu (nth i (col H c) 0) c) (seq 0 k))) n bb 1%Z) as (s & Es & I) end.
      * reflexivity.
      * intros k s Hk ->. rewrite seq_S, map_app. cbn [map Nat.add]. rewrite prodz_snoc. rewrite (Nat.eqb_sym j k). destruct (Nat.eqb_spec k j) as [Ekj|Ekj]; cbn [negb]; [eexists; split; [reflexivity|lia]|].
        destruct (RDT H N M h T OK TB v2c c k LV Hc Hk) as [-> R2]. cbn [bind]. rewrite R2. cbn [bind]. eexists. split; [reflexivity|]. destruct (col_nth _ _ _ _ OK c k Hc Hk) as [Hv Hh]. rewrite HE by auto. auto.
      * rewrite Es. cbn [bind]. destruct (RDT H N M h T OK TB v2c c j LV Hc Hj) as [-> _]. cbn [bind]. f_equal. rewrite I. unfold to_vars.
        assert (P : Permutation (seq 0 n) (j :: others j (seq 0 n))) by (apply others_perm; [apply seq_NoDup|apply in_seq; lia]).
        rewrite (prodz_perm _ _ (Permutation_map _ P)). cbn [map]. rewrite Nat.eqb_refl. unfold prodz at 1. cbn [fold_right]. rewrite Z.mul_1_l.
        change (prodz (map (fun i => if i =? j then 1%Z else nu (nth i (col H c) 0) c) (others j (seq 0 n))) = prodz (map (fun w => nu w c) (others (nth j (col H c) 0) (vars_of N h c)))).
        rewrite <- (prodz_perm _ _ (Permutation_map (fun w => nu w c) (col_others c (nth j (col H c) 0) Hc))). rewrite others_nth by (auto; eapply col_nodup; eauto). rewrite map_map. f_equal. apply map_ext_in.
        intros i Ii. apply others_in in Ii. destruct Ii as [_ NE]. destruct (Nat.eqb_spec i j); [congruence|]. auto.
    + rewrite E. cbn [bind]. exists a'. auto.
  - rewrite E. cbn [bind]. exists a. auto.
Qed.

End Checks.
