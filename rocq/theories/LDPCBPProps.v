(** Belief-propagation decoding of LDPC codes: the properties. *)
From Coq Require Import List Arith Lia Bool ZArith QArith Qabs Qminmax Qround Permutation Lqa.
From Verif Require Import Base WLoops FloatQ SparseModel SparseSpec SparseProofs LDPCModel LDPCSpec LDPCProps LDPCBPModel LDPCBPSpec LDPCBPProofs LDPCBPGraph LDPCBPFlood LDPCBPLayer LDPCBPLoop.
Import ListNotations.
Local Open Scope nat_scope.

Definition compatible (f : Q -> Q) : Prop := forall x y, (x == y)%Q -> (f x == f y)%Q.

(* ------------------------------------------------------------------ *)
(** * C88: the update rules *)

Theorem C88_MS : forall mx, computes (rule_MS mx) (min_sum mx (fun x => x)).
Proof. intros. apply ms_computes; auto. Qed.
Theorem C88_OMS : forall rnd offset mx, compatible rnd -> computes (rule_OMS rnd offset mx) (min_sum mx (fun x => rnd (x - offset)%Q)).
Proof. intros rnd offset mx C. apply ms_computes; auto. intros x y E. apply C. rewrite E. reflexivity. Qed.
Theorem C88_NMS : forall rnd factor mx, compatible rnd -> computes (rule_NMS rnd factor mx) (min_sum mx (fun x => rnd (x * factor)%Q)).
Proof. intros rnd factor mx C. apply ms_computes; auto. intros x y E. apply C. rewrite E. reflexivity. Qed.
Theorem C88_AMS : forall mx, computes (rule_AMS qmin mx) (min_sum mx (fun x => x)).
Proof. exact ams_computes. Qed.

Lemma eighths_compat : forall k, compatible (eighths k).
Proof.
  intros k x y E. unfold eighths. destruct (k =? 8); auto.
  assert (F : forall d, (inject_Z (Qfloor (x / d)) == inject_Z (Qfloor (y / d)))%Q) by (intros d; rewrite (Qfloor_comp (x / d) (y / d)); [reflexivity|rewrite E; reflexivity]).
  destruct (Nat.testbit k 2), (Nat.testbit k 1), (Nat.testbit k 0); rewrite ?F; reflexivity.
Qed.
Lemma computes_ext : forall r f g, computes r f -> (forall l, (f l == g l)%Q) -> computes r g.
Proof. intros r f g C E xs. destruct (C xs) as (u & Eu & O). exists u. split; auto. intros i Hi. destruct (O i Hi) as (y & Ey & Q). exists y. split; auto. rewrite Q. apply E. Qed.

Lemma normalize_eighths : forall k, 1 <= k <= 8 -> exists G, (forall x, normalize_int (inject_Z (Z.of_nat k) / 8) x = Ret (G x)) /\ forall x, (G x == eighths k x)%Q.
Proof.
  intros k Hk. assert (K : k = 1 \/ k = 2 \/ k = 3 \/ k = 4 \/ k = 5 \/ k = 6 \/ k = 7 \/ k = 8) by lia.
  repeat (destruct K as [->|K]); try subst k; eexists; (split; [intros x; unfold normalize_int; cbn -[qshift Qfloor]; reflexivity|]); intros x; unfold eighths; cbn -[qshift Qfloor Qdiv]; unfold qshift; cbn -[Qfloor Qdiv]; change (inject_Z 2) with 2%Q; change (inject_Z 4) with 4%Q; change (inject_Z 8) with 8%Q; lra.
Qed.

Theorem C88_NMS_integers : forall k mx, 1 <= k <= 8 -> computes (rule_NMS_int (inject_Z (Z.of_nat k) / 8) mx) (min_sum mx (eighths k)).
Proof.
  intros k mx Hk. destruct (normalize_eighths k Hk) as (G & EG & QG).
  assert (CG : compatible G) by (intros x y E; rewrite !QG; apply eighths_compat; auto).
  apply (computes_ext _ (min_sum mx G)); [apply ms_computes; auto|]. intros l. unfold min_sum. cbv zeta. destruct (odd_negative l); rewrite QG; reflexivity.
Qed.

Theorem C88_NMS_integers_refused : forall factor mx xs, (forall k, 1 <= k <= 8 -> ~ (factor == inject_Z (Z.of_nat k) / 8)%Q) -> node (rule_NMS_int factor mx) xs = Throws.
Proof.
  intros factor mx xs NF. unfold node. cbn [r_in r_begin r_end r_st rule_NMS_int].
  destruct (for_inv _ (fun _ _ => True) (length xs) (fun v u => ms_in v (nth v xs 0%Q) u) (ms_begin mx (length xs))) as (u & E & _); auto. { intros. eexists. split; [reflexivity|auto]. }
  rewrite E. cbn [bind]. unfold ms_end.
  assert (T : forall x, normalize_int factor x = Throws).
  { intros x. unfold normalize_int.
    assert (N : forall k q, 1 <= k <= 8 -> (q == inject_Z (Z.of_nat k) / 8)%Q -> Qeq_bool factor q = false).
    { intros k q Hk Q. destruct (Qeq_bool factor q) eqn:E'; auto. apply Qeq_bool_iff in E'. exfalso. apply (NF k Hk). rewrite E'. auto. }
    rewrite (N 1), (N 2), (N 3), (N 4), (N 5), (N 6), (N 7), (N 8); auto; try lia; reflexivity. }
  rewrite T. reflexivity.
Qed.

Example C88_node : match node (rule_OMS (fun x => x) (1 # 2) 1000) [3; -1; 2; -5]%Q with
  | Ret u => gen 4 (fun i => m <- r_out (rule_OMS (fun x => x) (1 # 2) 1000) i (nth i [3; -1; 2; -5]%Q 0%Q) u ;; Ret (Qred m)) = Ret [1 # 2; -(3 # 2); 1 # 2; -(1 # 2)]%Q
  | _ => False end.
Proof. vm_compute. reflexivity. Qed.

(** What the noiseless theorems need of the rules. *)
Definition keeps (rnd : Q -> Q) (chk : list Q -> Q) : Prop := forall l, Forall (fun x => rnd x == x)%Q l -> (rnd (chk l) == chk l)%Q.

Theorem C88_MS_rules : forall rnd mx, rounding rnd -> (forall x, (rnd (- x) == - rnd x)%Q) -> (rnd mx == mx)%Q ->
  let ok chk := symmetric chk /\ sign_rule chk /\ keeps rnd chk in
  ok (min_sum mx (fun x => x)) /\ (forall offset, (0 <= offset)%Q -> ok (min_sum mx (fun x => rnd (x - offset)%Q))) /\
  (forall factor, (0 <= factor)%Q -> ok (min_sum mx (fun x => rnd (x * factor)%Q))).
Proof.
  intros rnd mx RN OD RM ok. assert (RN' := RN). destruct RN' as (RP & MO & R0 & RI).
  assert (K : forall G, compatible G -> (forall x, (x <= 0)%Q -> (G x <= 0)%Q) -> (forall x, rep rnd x -> rep rnd (G x)) -> ok (min_sum mx G)).
  { intros G C S R. split; [apply min_sum_symmetric; auto|]. split; [apply min_sum_sign; auto|]. intros l F. apply rnd_min_sum; auto. }
  split; [|split].
  - apply K; auto. intros x y E. auto.
  - intros offset O. apply K.
    + intros x y E. apply RP. rewrite E. reflexivity.
    + intros x Hx. rewrite <- R0. apply MO. lra.
    + intros. apply RI.
  - intros factor O. apply K.
    + intros x y E. apply RP. rewrite E. reflexivity.
    + intros x Hx. rewrite <- R0. apply MO. nra.
    + intros. apply RI.
Qed.

(* ------------------------------------------------------------------ *)
(** * C87: the flooding schedule *)

Lemma decide_N_ok : forall b x F, bp_N b <= length x -> (forall v, v < bp_N b -> (nth v x 0 == F v)%Q) -> decide_N b x = Ret (tab (bp_N b) (fun v => negative (F v))).
Proof.
  intros b x F L E. unfold decide_N. apply gen_ok. intros i Hi. rewrite (rd_ok _ 0%Q) by lia. cbn [bind]. f_equal. rewrite <- neg_spec. apply neg_ext. auto.
Qed.
Lemma decide_K_ok : forall b x F, bp_N b <= length x -> (forall v, v < bp_N b -> (nth v x 0 == F v)%Q) -> Forall (fun p => p < bp_N b) (bp_pos b) -> decide_K b x = Ret (map (fun p => negative (F p)) (bp_pos b)).
Proof.
  intros b x F L E FP. unfold decide_K. rewrite (gen_ok _ _ _ (fun i => negative (F (nth i (bp_pos b) 0)))).
  - f_equal. apply (list_eq_nth _ false); [rewrite length_tab, map_length; auto|]. rewrite length_tab. intros i Hi. rewrite nth_tab by auto.
    rewrite (nth_indep (map _ _) false ((fun p => negative (F p)) 0)) by (rewrite map_length; auto). rewrite (map_nth (fun p => negative (F p))). auto.
  - intros i Hi. rewrite (rd_ok _ 0) by auto. cbn [bind]. assert (P : nth i (bp_pos b) 0 < bp_N b) by (rewrite Forall_forall in FP; apply FP, nth_In; auto).
    rewrite (rd_ok _ 0%Q) by lia. cbn [bind]. f_equal. rewrite <- neg_spec. rewrite <- (neg_ext _ _ (E _ P)). unfold neg, qltb. reflexivity.
Qed.

Lemma bp_new_is : forall N n_ite H synd depth pos b, bp_new N n_ite H synd depth pos = Ret b -> b = mkBP N n_ite H synd depth pos /\ 0 < n_ite /\ 0 < depth.
Proof.
  intros N n_ite H synd depth pos b E. unfold bp_new in E. apply bind_inv in E. destruct E as (u1 & E1 & E). apply bind_inv in E. destruct E as (u2 & E2 & E). apply bind_inv in E. destruct E as (u3 & E3 & E).
  unfold guard in *. destruct (n_ite =? 0) eqn:A; [discriminate|]. destruct (depth =? 0) eqn:B; [discriminate|]. apply Nat.eqb_neq in A, B. injection E as <-. split; auto. lia.
Qed.

Theorem C87_constructor : forall N n_ite H synd depth pos,
  (0 < n_ite /\ 0 < depth /\ N = sp_rows H -> exists b, bp_new N n_ite H synd depth pos = Ret b) /\
  (~ (0 < n_ite /\ 0 < depth /\ N = sp_rows H) -> bp_new N n_ite H synd depth pos = Throws).
Proof.
  intros. unfold bp_new. destruct (Nat.eqb_spec n_ite 0), (Nat.eqb_spec depth 0), (Nat.eqb_spec N (sp_rows H)); cbn; (split; [intros|intros C]); eauto; try lia; try reflexivity; exfalso; apply C; lia.
Qed.

Section FloodingProps.
Variables (H : sparse) (N M : nat) (h : nat -> nat -> bool) (rnd : Q -> Q) (r : rule) (chk : list Q -> Q) (n_ite : nat) (synd : bool) (depth : nat) (pos : list nat) (b : bp) (T : list nat).
Hypothesis HH : sp_is H N M h.
Hypothesis RP : compatible rnd.
Hypothesis RC : computes r chk.
Hypothesis SY : symmetric chk.
Hypothesis EB : bp_new N n_ite H synd depth pos = Ret b.
Hypothesis FP : Forall (fun p => p < N) pos.
Hypothesis DG : forall v, v < N -> row_deg h M v <= 256.
Hypothesis ET : fl_transpose H = Ret T.

(** The values after t iterations, whether their signs are a codeword. *)
Definition fl_values (Y : list Q) (t v : nat) : Q := flooding N M h rnd chk (fun v => nth v Y 0%Q) t v.
Definition fl_code (Y : list Q) (t : nat) : Prop := in_code N M h (fun v => negative (fl_values Y t v)).

(** A state from which a frame is decoded as by a new decoder. *)
Definition fl_fresh (s : fl_st) : Prop :=
  fl_c2v s = repeat 0%Q (sp_n H) /\ length (fl_v2c s) = sp_n H /\ length (fl_post s) = N /\ fl_cur s = 0.

Lemma fl_results : forall s Y, fl_fresh s -> N <= length Y ->
  exists t, halts (fl_code Y) synd depth n_ite t /\
    let cwd := negb synd || (t <? n_ite) || (n_ite =? 1) in
    let keeps s' := length (fl_c2v s') = sp_n H /\ length (fl_v2c s') = sp_n H /\ length (fl_post s') = N /\ fl_cur s' < depth in
    (exists s', fl_siho_cw rnd r b T Y s = Ret (s', cwd, tab N (fun v => negative (fl_values Y t v))) /\ keeps s') /\
    (exists s', fl_siho rnd r b T Y s = Ret (s', cwd, map (fun p => negative (fl_values Y t p)) pos) /\ keeps s') /\
    (exists s' E, fl_siso rnd r b T Y s = Ret (s', cwd, E) /\ length E = N /\ (forall v, v < N -> (nth v E 0 == rnd (fl_values Y t v - nth v Y 0))%Q) /\ keeps s').
Proof.
  intros s Y (F1 & F2 & F3 & F4) LY. destruct (bp_new_is _ _ _ _ _ _ _ EB) as (-> & NI & ND). set (b := mkBP N n_ite H synd depth pos) in *.
  assert (OK : sp_ok H N M h) by (apply sp_is_ok; auto).
  destruct (transpose_is H N M h OK DG) as (T' & ET' & TB). rewrite ET in ET'. injection ET' as <-.
  destruct (decode_ok H N M h rnd chk r T Y OK RP SY RC TB LY b eq_refl eq_refl NI ND s) as (s' & status & t & E & (AT1 & AT2 & AT3) & CU & RG & PO & NS & LT & EQ); auto.
  { split; [|split; auto]. rewrite F1. split; [apply repeat_length|]. intros. rewrite nth_repeat. reflexivity. }
  exists t. split.
  { split; [exact RG|]. split; [intros L; destruct (LT L) as (A & B & _); split; [exact A|exact B]|exact NS]. }
  assert (SC : negb status = negb synd || (t <? n_ite) || (n_ite =? 1)).
  { change (bp_ite b) with n_ite in *. change (bp_synd b) with synd in *. destruct (Nat.lt_ge_cases t n_ite) as [L|L].
    - destruct (LT L) as (-> & _ & ->). replace (t <? n_ite) with true by (symmetry; apply Nat.ltb_lt; auto). auto.
    - rewrite EQ by lia. replace (t <? n_ite) with false by (symmetry; apply Nat.ltb_ge; lia). destruct synd; cbn [negb orb andb]; auto.
      destruct (Nat.ltb_spec 1 n_ite), (Nat.eqb_spec n_ite 1); auto; lia. }
  assert (KE : length (fl_c2v s') = sp_n H /\ length (fl_v2c s') = sp_n H /\ length (fl_post s') = N /\ fl_cur s' < depth) by (split; [apply AT1|auto]).
  split; [|split].
  - exists s'. unfold fl_siho_cw. rewrite E. cbn [bind]. rewrite (decide_N_ok b _ (fl_values Y t)); [|cbn; lia|exact PO]. cbn [bind]. rewrite SC. auto.
  - exists s'. unfold fl_siho. rewrite E. cbn [bind]. rewrite (decide_K_ok b _ (fl_values Y t)); [|cbn; lia|exact PO|exact FP]. cbn [bind]. rewrite SC. auto.
  - exists s', (tab N (fun v => qsub rnd (nth v (fl_post s') 0%Q) (nth v Y 0%Q))). unfold fl_siso. rewrite E. cbn [bind]. rewrite (gen_ok _ _ _ (fun v => qsub rnd (nth v (fl_post s') 0%Q) (nth v Y 0%Q))).
    + cbn [bind]. rewrite SC. split; auto. rewrite length_tab. split; auto. split; auto. intros v Hv. rewrite nth_tab by auto. unfold qsub. apply RP. rewrite PO by auto. reflexivity.
    + cbn [b bp_N]. intros v Hv. rewrite (rd_ok _ 0%Q) by lia. cbn [bind]. rewrite (rd_ok _ 0%Q) by lia. auto.
Qed.

Lemma fl_start_fresh : fl_fresh (fl_start b).
Proof. destruct (bp_new_is _ _ _ _ _ _ _ EB) as (-> & _ & _). unfold fl_fresh, fl_start. cbn. rewrite !repeat_length. auto. Qed.
End FloodingProps.

Theorem C87_flooding : forall H N M h rnd r chk n_ite synd depth pos b Y,
  sp_is H N M h -> compatible rnd -> computes r chk -> symmetric chk -> (forall v, v < N -> row_deg h M v <= 256) ->
  bp_new N n_ite H synd depth pos = Ret b -> Forall (fun p => p < N) pos -> N <= length Y ->
  let F t v := flooding N M h rnd chk (fun v => nth v Y 0%Q) t v in
  exists T t, fl_transpose H = Ret T /\ halts (fun t => in_code N M h (fun v => negative (F t v))) synd depth n_ite t /\
    let cwd := negb synd || (t <? n_ite) || (n_ite =? 1) in
    (exists s, fl_siho_cw rnd r b T Y (fl_start b) = Ret (s, cwd, tab N (fun v => negative (F t v)))) /\
    (exists s, fl_siho rnd r b T Y (fl_start b) = Ret (s, cwd, map (fun p => negative (F t p)) pos)) /\
    (exists s E, fl_siso rnd r b T Y (fl_start b) = Ret (s, cwd, E) /\ length E = N /\ forall v, v < N -> (nth v E 0 == rnd (F t v - nth v Y 0))%Q).
Proof.
  intros H N M h rnd r chk n_ite synd depth pos b Y HH RP RC SY DG EB FP LY F.
  assert (OK : sp_ok H N M h) by (apply sp_is_ok; auto). destruct (transpose_is H N M h OK DG) as (T & ET & _).
  destruct (fl_results H N M h rnd r chk n_ite synd depth pos b T HH RP RC SY EB FP DG ET (fl_start b) Y) as (t & HT & (s1 & A & _) & (s2 & B & _) & (s3 & E & C & L & V & _)); auto.
  { eapply fl_start_fresh; eauto. }
  exists T, t. split; auto. split; [exact HT|]. cbv zeta. split; [exists s1; exact A|]. split; [exists s2; exact B|]. exists s3, E. split; [exact C|]. split; [exact L|exact V].
Qed.

(** With the syndrome computed and more than one iteration, CWD tells that the bits are a codeword. *)
Theorem C87_cwd : forall H N M h rnd r chk n_ite depth pos b T Y s V,
  sp_is H N M h -> compatible rnd -> computes r chk -> symmetric chk -> (forall v, v < N -> row_deg h M v <= 256) ->
  bp_new N n_ite H true depth pos = Ret b -> Forall (fun p => p < N) pos -> N <= length Y -> 1 < n_ite -> fl_transpose H = Ret T ->
  fl_siho_cw rnd r b T Y (fl_start b) = Ret (s, true, V) -> in_code N M h (fun v => nth v V false).
Proof.
  intros H N M h rnd r chk n_ite depth pos b T Y s V HH RP RC SY DG EB FP LY NI ET E.
  destruct (C87_flooding H N M h rnd r chk n_ite true depth pos b Y HH RP RC SY DG EB FP LY) as (T' & t & ET' & (RG & LT & _) & (s1 & A) & _). rewrite ET in ET'. injection ET' as <-.
  rewrite E in A. injection A as -> CW ->. cbn [negb orb] in CW. destruct (bp_new_is _ _ _ _ _ _ _ EB) as (_ & _ & ND).
  replace (n_ite =? 1) with false in CW by (symmetry; apply Nat.eqb_neq; lia). rewrite orb_false_r in CW. symmetry in CW. apply Nat.ltb_lt in CW. destruct (LT CW) as (_ & (_ & S)). specialize (S 0 ND). rewrite Nat.sub_0_r in S.
  eapply in_code_ext; [|exact S]. intros v Hv. rewrite nth_tab by auto. auto.
Qed.

(* ------------------------------------------------------------------ *)
(** * C89: the layered schedules *)

Lemma in_code_dec : forall N M h x, in_code N M h x \/ ~ in_code N M h x.
Proof.
  intros N M h x. unfold in_code. induction M as [|m IH]; [left; intros; lia|]. destruct IH as [IH|IH].
  - destruct (parity N (fun v => h v m && x v)) eqn:P; [right|left].
    + intros C. rewrite C in P by lia. discriminate.
    + intros c Hc. destruct (Nat.eq_dec c m) as [->|]; auto. apply IH. lia.
  - right. intros C. apply IH. intros c Hc. apply C. lia.
Qed.

Section LayeredProps.
Variables (H : sparse) (N M : nat) (h : nat -> nat -> bool) (rnd : Q -> Q) (r : rule) (chk : list Q -> Q) (n_ite : nat) (synd : bool) (depth : nat) (pos : list nat) (b : bp).
Hypothesis HH : sp_is H N M h.
Hypothesis RP : compatible rnd.
Hypothesis RC : computes r chk.
Hypothesis SY : symmetric chk.
Hypothesis EB : bp_new N n_ite H synd depth pos = Ret b.
Hypothesis FP : Forall (fun p => p < N) pos.

Definition ly_fresh (s : ly_st) : Prop := ly_var s = repeat 0%Q N /\ ly_msg s = repeat 0%Q (sp_n H) /\ ly_cur s = 0.
Definition ly_keeps (s : ly_st) : Prop := length (ly_var s) = N /\ length (ly_msg s) = sp_n H /\ ly_cur s < depth.

(** The three tasks, from the values [f t v] after t iterations. *)
Lemma ly_results : forall dec s Y f (cwd : nat -> bool -> Prop), N <= length Y -> (forall v, v < N -> (rnd (nth v Y 0) == nth v Y 0)%Q) -> ly_fresh s ->
  (forall s, at_ly H N M (fun v => nth v Y 0%Q, fun _ _ => 0%Q) (ly_var s) (ly_msg s) -> ly_cur s = 0 ->
     exists s' status t, dec s = Ret (s', status) /\ length (ly_var s') = N /\ length (ly_msg s') = sp_n H /\ ly_cur s' < depth /\ (forall v, v < N -> (nth v (ly_var s') 0 == f t v)%Q) /\
        halts (fun t => in_code N M h (fun v => negative (f t v))) synd depth n_ite t /\ cwd t (negb status)) ->
  exists t c, halts (fun t => in_code N M h (fun v => negative (f t v))) synd depth n_ite t /\ cwd t c /\
    (exists s', ly_siho_cw rnd dec b Y s = Ret (s', c, tab N (fun v => negative (f t v))) /\ ly_keeps s') /\
    (exists s', ly_siho rnd dec b Y s = Ret (s', c, map (fun p => negative (f t p)) pos) /\ ly_keeps s') /\
    (exists s' E, ly_siso rnd dec b Y s = Ret (s', c, E) /\ length E = N /\ (forall v, v < N -> (nth v E 0 == rnd (f t v - nth v Y 0))%Q) /\ ly_keeps s').
Proof.
  intros dec s Y f cwd LY YR (F1 & F2 & F3) D. destruct (bp_new_is _ _ _ _ _ _ _ EB) as (-> & NI & ND). set (b := mkBP N n_ite H synd depth pos) in *.
  destruct (load_ok rnd Y N LY) as (var & EL & LV & VV).
  destruct (D (mkLY var (ly_msg s) (ly_cur s))) as (s' & status & t & E & L1 & L2 & CU & FV & HT & CW); [|exact F3|].
  { cbn [ly_var ly_msg]. split; auto. rewrite F2. split; [apply repeat_length|]. split.
    - intros v Hv. cbn [fst]. rewrite VV by auto. rewrite <- (YR v Hv) at 2. apply RP. lra.
    - intros. cbn [snd]. rewrite nth_repeat. reflexivity. }
  exists t, (negb status). split; auto. split; auto. unfold ly_siho_cw, ly_siho, ly_siso. rewrite F1, EL. cbn [bind]. rewrite E. cbn [bind]. split; [|split].
  - exists s'. rewrite (decide_N_ok b _ (f t)); [|cbn; lia|exact FV]. cbn [bind]. split; auto. split; auto.
  - exists s'. rewrite (decide_K_ok b _ (f t)); [|cbn; lia|exact FV|exact FP]. cbn [bind]. split; auto. split; auto.
  - rewrite (gen_ok _ _ _ (fun v => qsub rnd (nth v (ly_var s') 0%Q) (nth v Y 0%Q))).
    + cbn [bind]. eexists. eexists. split; [reflexivity|]. rewrite length_tab. split; auto. split.
      * intros v Hv. rewrite nth_tab by auto. unfold qsub. apply RP. rewrite FV by auto. reflexivity.
      * split; [cbn [ly_var]; apply length_tab|auto].
    + cbn [b bp_N]. intros v Hv. rewrite (rd_ok _ 0%Q) by lia. cbn [bind]. rewrite (rd_ok _ 0%Q) by lia. auto.
Qed.

Definition hl_values (Y : list Q) (t v : nat) : Q := fst (horizontal N M h rnd chk t (fun v => nth v Y 0%Q, fun _ _ => 0%Q)) v.
Definition vl_values (Y : list Q) (t v : nat) : Q := fst (vertical N M h rnd chk t (fun v => nth v Y 0%Q, fun _ _ => 0%Q)) v.

Lemma hl_results : forall s Y, ly_fresh s -> N <= length Y -> (forall v, v < N -> (rnd (nth v Y 0) == nth v Y 0)%Q) ->
  exists t c, halts (fun t => in_code N M h (fun v => negative (hl_values Y t v))) synd depth n_ite t /\
    (c = true <-> synd = false \/ stop (fun t => in_code N M h (fun v => negative (hl_values Y t v))) depth t) /\
    (exists s', ly_siho_cw rnd (hl_decode rnd r b) b Y s = Ret (s', c, tab N (fun v => negative (hl_values Y t v))) /\ ly_keeps s') /\
    (exists s', ly_siho rnd (hl_decode rnd r b) b Y s = Ret (s', c, map (fun p => negative (hl_values Y t p)) pos) /\ ly_keeps s') /\
    (exists s' E, ly_siso rnd (hl_decode rnd r b) b Y s = Ret (s', c, E) /\ length E = N /\ (forall v, v < N -> (nth v E 0 == rnd (hl_values Y t v - nth v Y 0))%Q) /\ ly_keeps s').
Proof.
  intros s Y FR LY YR. assert (OK : sp_ok H N M h) by (apply sp_is_ok; auto). destruct (bp_new_is _ _ _ _ _ _ _ EB) as (EB' & NI & ND).
  apply (ly_results (hl_decode rnd r b) s Y (hl_values Y) (fun t c => c = true <-> synd = false \/ stop (fun t => in_code N M h (fun v => negative (hl_values Y t v))) depth t)); auto.
  intros s1 AT CU. assert (BI : 0 < bp_ite b) by (rewrite EB'; auto). assert (BD : 0 < bp_depth b) by (rewrite EB'; auto).
  destruct (hl_decode_ok H N M h rnd chk r OK RP SY RC b) with (s0 := (fun v : nat => nth v Y 0%Q, fun _ _ : nat => 0%Q)) (s := s1) as (s' & status & t & E & (A1 & A2 & A3 & A4) & CU' & RG & NS & LT & ST); auto; try (rewrite EB'; auto).
  exists s', status, t. rewrite EB' in E. rewrite EB' in CU', RG, NS, LT, ST. cbn [bp_depth bp_ite bp_synd] in *. split; auto. split; auto. split; auto. split; auto. split; [exact A3|]. split.
  - split; auto.
  - unfold code_at in ST. fold (hl_values Y) in ST. destruct status; cbn [negb].
    + destruct (proj1 ST eq_refl) as [SS NST]. split; [discriminate|]. intros [C|C]; [congruence|]. exfalso. apply NST. exact C.
    + split; [intros _|auto]. destruct synd eqn:SS; [|auto]. right. destruct ST as [_ ST].
      assert (DN : forall P : Prop, P \/ ~ P -> ~ ~ P -> P) by tauto. apply DN.
      * destruct (Nat.le_gt_cases depth t) as [LE|GT]; [|right; intros (C & _); lia].
        assert (DEC : forall d, d <= t -> (forall j, j < d -> in_code N M h (fun v => negative (hl_values Y (t - j) v))) \/ ~ (forall j, j < d -> in_code N M h (fun v => negative (hl_values Y (t - j) v)))).
        { assert (DC : forall x, in_code N M h x \/ ~ in_code N M h x).
          { intros x. apply in_code_dec. }
          induction d; intros Hd; [left; intros; lia|]. destruct (IHd ltac:(lia)) as [I|I].
          - destruct (DC (fun v => negative (hl_values Y (t - d) v))) as [J|J]; [left|right; intros C; apply J; apply C; lia]. intros j Hj. destruct (Nat.eq_dec j d) as [->|]; auto. apply I. lia.
          - right. intros C. apply I. intros j Hj. apply C. lia. }
        destruct (DEC depth LE) as [I|I]; [left; split; auto|right; intros (_ & C); auto].
      * intros C. assert (false = true) by (apply ST; split; auto). discriminate.
Qed.

Lemma vl_results : forall o s Y, (forall x, (rnd x == x)%Q) -> vl_offsets H = Ret o -> ly_fresh s -> N <= length Y ->
  exists t c, halts (fun t => in_code N M h (fun v => negative (vl_values Y t v))) synd depth n_ite t /\ c = true /\
    (exists s', ly_siho_cw rnd (vl_decode rnd r b o) b Y s = Ret (s', c, tab N (fun v => negative (vl_values Y t v))) /\ ly_keeps s') /\
    (exists s', ly_siho rnd (vl_decode rnd r b o) b Y s = Ret (s', c, map (fun p => negative (vl_values Y t p)) pos) /\ ly_keeps s') /\
    (exists s' E, ly_siso rnd (vl_decode rnd r b o) b Y s = Ret (s', c, E) /\ length E = N /\ (forall v, v < N -> (nth v E 0 == rnd (vl_values Y t v - nth v Y 0))%Q) /\ ly_keeps s').
Proof.
  intros o s Y EX EO FR LY. assert (OK : sp_ok H N M h) by (apply sp_is_ok; auto). destruct (bp_new_is _ _ _ _ _ _ _ EB) as (EB' & NI & ND).
  apply (ly_results (vl_decode rnd r b o) s Y (vl_values Y) (fun t c => c = true)); auto.
  intros s1 AT CU. assert (BI : 0 < bp_ite b) by (rewrite EB'; auto). assert (BD : 0 < bp_depth b) by (rewrite EB'; auto).
  destruct (vl_decode_ok H N M h rnd chk r OK RP SY RC b) with (s0 := (fun v : nat => nth v Y 0%Q, fun _ _ : nat => 0%Q)) (s := s1) (o := o) as (s' & t & E & (A1 & A2 & A3 & A4) & CU' & RG & NS & LT); auto; try (rewrite EB'; auto).
  exists s', false, t. rewrite EB' in E. rewrite EB' in CU', RG, NS, LT. cbn [bp_depth bp_ite bp_synd] in *. split; auto. split; auto. split; auto. split; auto. split; [exact A3|]. split; auto. split; auto.
Qed.

Lemma ly_start_fresh : ly_fresh (ly_start b).
Proof. destruct (bp_new_is _ _ _ _ _ _ _ EB) as (-> & _ & _). split; auto. Qed.
End LayeredProps.

Theorem C89_horizontal : forall H N M h rnd r chk n_ite synd depth pos b Y,
  sp_is H N M h -> compatible rnd -> computes r chk -> symmetric chk ->
  bp_new N n_ite H synd depth pos = Ret b -> Forall (fun p => p < N) pos -> N <= length Y -> (forall v, v < N -> (rnd (nth v Y 0) == nth v Y 0)%Q) ->
  let F t v := fst (horizontal N M h rnd chk t (fun v => nth v Y 0%Q, fun _ _ => 0%Q)) v in
  let cd t := in_code N M h (fun v => negative (F t v)) in
  exists t cwd, halts cd synd depth n_ite t /\ (cwd = true <-> synd = false \/ stop cd depth t) /\
    (exists s, ly_siho_cw rnd (hl_decode rnd r b) b Y (ly_start b) = Ret (s, cwd, tab N (fun v => negative (F t v)))) /\
    (exists s, ly_siho rnd (hl_decode rnd r b) b Y (ly_start b) = Ret (s, cwd, map (fun p => negative (F t p)) pos)) /\
    (exists s E, ly_siso rnd (hl_decode rnd r b) b Y (ly_start b) = Ret (s, cwd, E) /\ length E = N /\ forall v, v < N -> (nth v E 0 == rnd (F t v - nth v Y 0))%Q).
Proof.
  intros H N M h rnd r chk n_ite synd depth pos b Y HH RP RC SY EB FP LY YR F cd.
  destruct (hl_results H N M h rnd r chk n_ite synd depth pos b HH RP RC SY EB FP (ly_start b) Y) as (t & c & HT & CW & (s1 & A & _) & (s2 & B & _) & (s3 & E & C & L & V & _)); auto. { eapply ly_start_fresh; eauto. }
  exists t, c. split; [exact HT|]. split; [exact CW|]. split; [exists s1; exact A|]. split; [exists s2; exact B|]. exists s3, E. split; [exact C|]. split; [exact L|exact V].
Qed.

(** CWD tells whether the bits are a codeword, whatever the number of iterations, when the depth is 1. *)
Theorem C89_horizontal_cwd : forall H N M h rnd r chk n_ite pos b Y s cwd V,
  sp_is H N M h -> compatible rnd -> computes r chk -> symmetric chk ->
  bp_new N n_ite H true 1 pos = Ret b -> Forall (fun p => p < N) pos -> N <= length Y -> (forall v, v < N -> (rnd (nth v Y 0) == nth v Y 0)%Q) ->
  ly_siho_cw rnd (hl_decode rnd r b) b Y (ly_start b) = Ret (s, cwd, V) -> (cwd = true <-> in_code N M h (fun v => nth v V false)).
Proof.
  intros H N M h rnd r chk n_ite pos b Y s cwd V HH RP RC SY EB FP LY YR E.
  destruct (C89_horizontal H N M h rnd r chk n_ite true 1 pos b Y HH RP RC SY EB FP LY YR) as (t & c & HT & CW & (s1 & A) & _). rewrite E in A. injection A as -> -> ->. rewrite CW.
  transitivity (in_code N M h (fun v => negative (fst (horizontal N M h rnd chk t (fun v => nth v Y 0%Q, fun _ _ => 0%Q)) v))).
  - split; [intros [C|(_ & C)]; [discriminate|]|intros C; right].
    + specialize (C 0 ltac:(lia)). rewrite Nat.sub_0_r in C. auto.
    + destruct HT as [RG _]. split; [lia|]. intros j Hj. replace (t - j) with t by lia. auto.
  - apply in_code_ext. intros v Hv. rewrite nth_tab by auto. auto.
Qed.

Theorem C89_vertical : forall H N M h rnd r chk n_ite synd depth pos b Y,
  sp_is H N M h -> (forall x, (rnd x == x)%Q) -> computes r chk -> symmetric chk ->
  bp_new N n_ite H synd depth pos = Ret b -> Forall (fun p => p < N) pos -> N <= length Y ->
  let F t v := fst (vertical N M h rnd chk t (fun v => nth v Y 0%Q, fun _ _ => 0%Q)) v in
  let cd t := in_code N M h (fun v => negative (F t v)) in
  exists o t, vl_offsets H = Ret o /\ halts cd synd depth n_ite t /\
    (exists s, ly_siho_cw rnd (vl_decode rnd r b o) b Y (ly_start b) = Ret (s, true, tab N (fun v => negative (F t v)))) /\
    (exists s, ly_siho rnd (vl_decode rnd r b o) b Y (ly_start b) = Ret (s, true, map (fun p => negative (F t p)) pos)) /\
    (exists s E, ly_siso rnd (vl_decode rnd r b o) b Y (ly_start b) = Ret (s, true, E) /\ length E = N /\ forall v, v < N -> (nth v E 0 == rnd (F t v - nth v Y 0))%Q).
Proof.
  intros H N M h rnd r chk n_ite synd depth pos b Y HH EX RC SY EB FP LY F cd. assert (RP : compatible rnd) by (intros x y E; rewrite !EX; auto).
  assert (OK : sp_ok H N M h) by (apply sp_is_ok; auto). destruct (offsets_ok H N M h OK) as (o & EO & _).
  destruct (vl_results H N M h rnd r chk n_ite synd depth pos b HH RP RC SY EB FP o (ly_start b) Y) as (t & c & HT & -> & (s1 & A & _) & (s2 & B & _) & (s3 & E & C & L & V & _)); auto. { eapply ly_start_fresh; eauto. }
  exists o, t. split; auto. split; [exact HT|]. split; [exists s1; exact A|]. split; [exists s2; exact B|]. exists s3, E. split; [exact C|]. split; [exact L|exact V].
Qed.

(* ------------------------------------------------------------------ *)
(** * C90: no noise *)

Lemma in_code_self : forall N M h x y, in_code N M h x -> (forall v, v < N -> y v = x v) -> in_code N M h y.
Proof. intros N M h x y C E. apply (in_code_ext N M h y x); auto. Qed.

Theorem C90_flooding : forall H N M h rnd r chk n_ite synd depth pos b Y x,
  sp_is H N M h -> (forall v, v < N -> row_deg h M v <= 256) -> rounding rnd -> computes r chk -> symmetric chk -> sign_rule chk -> keeps rnd chk ->
  bp_new N n_ite H synd depth pos = Ret b -> Forall (fun p => p < N) pos -> N <= length Y ->
  in_code N M h x -> (forall v, v < N -> tells (x v) (nth v Y 0%Q) /\ (rnd (nth v Y 0) == nth v Y 0)%Q) ->
  let cwd := negb synd || (depth <? n_ite) || (n_ite =? 1) in
  exists T, fl_transpose H = Ret T /\ (exists s, fl_siho_cw rnd r b T Y (fl_start b) = Ret (s, cwd, tab N x)) /\ (exists s, fl_siho rnd r b T Y (fl_start b) = Ret (s, cwd, map x pos)).
Proof.
  intros H N M h rnd r chk n_ite synd depth pos b Y x HH DG RN RC SY SG KE EB FP LY CX YT cwd.
  destruct (C87_flooding H N M h rnd r chk n_ite synd depth pos b Y HH) as (T & t & ET & HT & (s1 & A) & (s2 & B) & _); auto. { exact (proj1 RN). }
  assert (TL : forall t v, v < N -> negative (flooding N M h rnd chk (fun v => nth v Y 0%Q) t v) = x v).
  { intros t' v Hv. apply tells_neg. apply flooding_noiseless with (M := M) (h := h); auto; intros; apply YT; auto. }
  assert (CD : forall t, in_code N M h (fun v => negative (flooding N M h rnd chk (fun v => nth v Y 0%Q) t v))) by (intros t'; eapply in_code_self; [exact CX|]; auto).
  destruct (bp_new_is _ _ _ _ _ _ _ EB) as (_ & NI & ND).
  assert (EC : negb synd || (t <? n_ite) || (n_ite =? 1) = cwd).
  { unfold cwd. destruct synd; cbn [negb orb]; auto. destruct HT as (RG & LT & NS). specialize (NS eq_refl). destruct (Nat.ltb_spec depth n_ite) as [L|L].
    - destruct (Nat.ltb_spec t n_ite); auto. exfalso. apply (NS depth); [lia|]. split; [lia|]. intros. apply CD.
    - destruct (Nat.ltb_spec t n_ite) as [L'|L']; auto. destruct (LT L') as (_ & C & _). lia. }
  rewrite EC in A, B. exists T. split; auto. split.
  - exists s1. rewrite A. f_equal. f_equal. apply tab_ext. auto.
  - exists s2. rewrite B. f_equal. f_equal. apply map_ext_in. intros p I. apply TL. rewrite Forall_forall in FP. auto.
Qed.

Theorem C90_horizontal : forall H N M h rnd r chk n_ite synd depth pos b Y x,
  sp_is H N M h -> (forall q, (rnd q == q)%Q) -> computes r chk -> symmetric chk -> sign_rule chk ->
  bp_new N n_ite H synd depth pos = Ret b -> Forall (fun p => p < N) pos -> N <= length Y ->
  in_code N M h x -> (forall v, v < N -> tells (x v) (nth v Y 0%Q)) ->
  let cwd := negb synd || (depth <=? n_ite) in
  (exists s, ly_siho_cw rnd (hl_decode rnd r b) b Y (ly_start b) = Ret (s, cwd, tab N x)) /\ (exists s, ly_siho rnd (hl_decode rnd r b) b Y (ly_start b) = Ret (s, cwd, map x pos)).
Proof.
  intros H N M h rnd r chk n_ite synd depth pos b Y x HH EX RC SY SG EB FP LY CX YT cwd. assert (RP : compatible rnd) by (intros q q' E; rewrite !EX; auto).
  destruct (C89_horizontal H N M h rnd r chk n_ite synd depth pos b Y HH) as (t & c & HT & CW & (s1 & A) & (s2 & B) & _); auto.
  assert (TL : forall t v, v < N -> negative (fst (horizontal N M h rnd chk t (fun v => nth v Y 0%Q, fun _ _ => 0%Q)) v) = x v).
  { intros t' v Hv. apply tells_neg. apply (horizontal_noiseless N M h rnd chk x SG CX EX); auto. }
  assert (CD : forall t, in_code N M h (fun v => negative (fst (horizontal N M h rnd chk t (fun v => nth v Y 0%Q, fun _ _ => 0%Q)) v))) by (intros t'; eapply in_code_self; [exact CX|]; auto).
  destruct (bp_new_is _ _ _ _ _ _ _ EB) as (_ & NI & ND).
  assert (EC : c = cwd).
  { unfold cwd. destruct synd; cbn [negb orb]; [|apply CW; auto]. destruct HT as (RG & LT & NS). specialize (NS eq_refl). destruct (Nat.leb_spec depth n_ite) as [L|L].
    - apply CW. right. split; [|intros; apply CD]. destruct (Nat.le_gt_cases depth t); auto. destruct (Nat.lt_ge_cases t n_ite) as [L'|L']; [apply LT in L'; destruct L' as (_ & C & _); lia|lia].
    - destruct c; auto. destruct (proj1 CW eq_refl) as [C|(C & _)]; [discriminate|lia]. }
  subst c. split.
  - exists s1. rewrite A. f_equal. f_equal. apply tab_ext. auto.
  - exists s2. rewrite B. f_equal. f_equal. apply map_ext_in. intros p I. apply TL. rewrite Forall_forall in FP. auto.
Qed.

Theorem C90_vertical : forall H N M h rnd r chk n_ite synd depth pos b Y x,
  sp_is H N M h -> (forall q, (rnd q == q)%Q) -> computes r chk -> symmetric chk -> sign_rule chk ->
  bp_new N n_ite H synd depth pos = Ret b -> Forall (fun p => p < N) pos -> N <= length Y ->
  in_code N M h x -> (forall v, v < N -> tells (x v) (nth v Y 0%Q)) ->
  exists o, vl_offsets H = Ret o /\
    (exists s, ly_siho_cw rnd (vl_decode rnd r b o) b Y (ly_start b) = Ret (s, true, tab N x)) /\ (exists s, ly_siho rnd (vl_decode rnd r b o) b Y (ly_start b) = Ret (s, true, map x pos)).
Proof.
  intros H N M h rnd r chk n_ite synd depth pos b Y x HH EX RC SY SG EB FP LY CX YT.
  destruct (C89_vertical H N M h rnd r chk n_ite synd depth pos b Y HH) as (o & t & EO & HT & (s1 & A) & (s2 & B) & _); auto.
  assert (TL : forall t v, v < N -> negative (fst (vertical N M h rnd chk t (fun v => nth v Y 0%Q, fun _ _ => 0%Q)) v) = x v).
  { intros t' v Hv. apply tells_neg. apply (vertical_noiseless N M h rnd chk x SG CX EX); auto. }
  exists o. split; auto. split.
  - exists s1. rewrite A. f_equal. f_equal. apply tab_ext. auto.
  - exists s2. rewrite B. f_equal. f_equal. apply map_ext_in. intros p I. apply TL. rewrite Forall_forall in FP. auto.
Qed.

(* ------------------------------------------------------------------ *)
(** * C91: frames do not influence one another *)

(** Decoding of a frame by one of the three tasks, with the reset after it. *)
Inductive task := Siso | Siho | SihoCw.
Definition fl_frame (rnd : Q -> Q) (r : rule) (b : bp) (T : list nat) (f : task * list Q) (s : fl_st) : outcome fl_st :=
  let '(k, Y) := f in
  match k with
  | Siso => ' (s, _, _) <- bp_call fl_reset true (fl_siso rnd r b T Y) s ;; Ret s
  | Siho => ' (s, _, _) <- bp_call fl_reset true (fl_siho rnd r b T Y) s ;; Ret s
  | SihoCw => ' (s, _, _) <- bp_call fl_reset true (fl_siho_cw rnd r b T Y) s ;; Ret s
  end.
Definition ly_frame (rnd : Q -> Q) (dec : ly_st -> outcome (ly_st * bool)) (b : bp) (f : task * list Q) (s : ly_st) : outcome ly_st :=
  let '(k, Y) := f in
  match k with
  | Siso => ' (s, _, _) <- bp_call ly_reset true (ly_siso rnd dec b Y) s ;; Ret s
  | Siho => ' (s, _, _) <- bp_call ly_reset true (ly_siho rnd dec b Y) s ;; Ret s
  | SihoCw => ' (s, _, _) <- bp_call ly_reset true (ly_siho_cw rnd dec b Y) s ;; Ret s
  end.
Definition frames {S F} (step : F -> S -> outcome S) (l : list F) (s : S) : outcome S := fold_left (fun a f => s <- a ;; step f s) l (Ret s).

Lemma frames_inv : forall S F (I : S -> Prop) (step : F -> S -> outcome S) (ok : F -> Prop) l s, (forall f s, ok f -> I s -> exists s', step f s = Ret s' /\ I s') -> Forall ok l -> I s -> exists s', frames step l s = Ret s' /\ I s'.
Proof.
  intros S F I step ok l s ST FA. revert s. unfold frames. induction FA; intros s IS; cbn [fold_left]; [eauto|]. destruct (ST x s H IS) as (s' & E & IS'). cbn [bind]. rewrite E. apply IHFA. auto.
Qed.

Lemma halts_unique : forall cd e d n t t', halts cd e d n t -> halts cd e d n t' -> t = t'.
Proof.
  intros cd e d n t t' (A & B & C) (A' & B' & C'). destruct (Nat.lt_trichotomy t t') as [L|[L|L]]; auto; exfalso.
  - destruct (B ltac:(lia)) as [E S]. apply (C' E t); auto. lia.
  - destruct (B' ltac:(lia)) as [E S]. apply (C E t'); auto. lia.
Qed.

Lemma Forall2_Qeq : forall (f : nat -> Q) l l' n, length l = n -> length l' = n -> (forall v, v < n -> (nth v l 0 == f v)%Q) -> (forall v, v < n -> (nth v l' 0 == f v)%Q) -> Forall2 Qeq l l'.
Proof. intros f l l' n L L' E E'. apply (Forall2_nth _ _ 0%Q); [congruence|]. intros i Hi. rewrite E, E' by lia. reflexivity. Qed.

Theorem C91_flooding : forall H N M h rnd r chk n_ite synd pos b T history Y,
  sp_is H N M h -> compatible rnd -> computes r chk -> symmetric chk -> (forall v, v < N -> row_deg h M v <= 256) ->
  bp_new N n_ite H synd 1 pos = Ret b -> Forall (fun p => p < N) pos -> fl_transpose H = Ret T ->
  Forall (fun f => N <= length (snd f)) history -> N <= length Y ->
  exists s, frames (fl_frame rnd r b T) history (fl_start b) = Ret s /\
    (exists s1 s2 cwd V, fl_siho_cw rnd r b T Y s = Ret (s1, cwd, V) /\ fl_siho_cw rnd r b T Y (fl_start b) = Ret (s2, cwd, V)) /\
    (exists s1 s2 cwd V, fl_siho rnd r b T Y s = Ret (s1, cwd, V) /\ fl_siho rnd r b T Y (fl_start b) = Ret (s2, cwd, V)) /\
    (exists s1 s2 cwd E1 E2, fl_siso rnd r b T Y s = Ret (s1, cwd, E1) /\ fl_siso rnd r b T Y (fl_start b) = Ret (s2, cwd, E2) /\ Forall2 Qeq E1 E2).
Proof.
  intros H N M h rnd r chk n_ite synd pos b T history Y HH RP RC SY DG EB FP ET FH LY.
  assert (RES := fl_results H N M h rnd r chk n_ite synd 1 pos b T HH RP RC SY EB FP DG ET).
  assert (RST : forall s', length (fl_c2v s') = sp_n H /\ length (fl_v2c s') = sp_n H /\ length (fl_post s') = N /\ fl_cur s' < 1 -> fl_fresh H N (fl_reset s')).
  { intros s' (A & B & C & D). unfold fl_fresh, fl_reset. cbn. rewrite A. split; auto. split; auto. split; auto. lia. }
  destruct (frames_inv _ _ (fl_fresh H N) (fl_frame rnd r b T) (fun f => N <= length (snd f)) history (fl_start b)) as (s & E & FR); auto.
  { intros [k Y'] s LY' FR. cbn [snd] in LY'. destruct (RES s Y' FR LY') as (t & _ & (s1 & A & KA) & (s2 & B & KB) & (s3 & E & C & _ & _ & KC)). unfold fl_frame, bp_call.
    destruct k; [rewrite C|rewrite B|rewrite A]; cbn [bind]; eexists; (split; [reflexivity|]); apply RST; auto. }
  { eapply fl_start_fresh; eauto. }
  exists s. split; auto. destruct (RES s Y FR LY) as (t & HT & (s1 & A & _) & (s2 & B & _) & (s3 & E3 & C & L & V & _)).
  destruct (RES (fl_start b) Y) as (t' & HT' & (s1' & A' & _) & (s2' & B' & _) & (s3' & E3' & C' & L' & V' & _)); auto. { eapply fl_start_fresh; eauto. }
  assert (t' = t) by (eapply halts_unique; eauto). subst t'. split; [|split].
  - eexists. eexists. eexists. eexists. split; [exact A|exact A'].
  - eexists. eexists. eexists. eexists. split; [exact B|exact B'].
  - eexists. eexists. eexists. eexists. eexists. split; [exact C|]. split; [exact C'|]. eapply Forall2_Qeq; [exact L|exact L'|exact V|exact V'].
Qed.

Theorem C91_horizontal : forall H N M h rnd r chk n_ite synd pos b history Y,
  sp_is H N M h -> compatible rnd -> computes r chk -> symmetric chk ->
  bp_new N n_ite H synd 1 pos = Ret b -> Forall (fun p => p < N) pos ->
  let dec := hl_decode rnd r b in let good Y := N <= length Y /\ forall v, v < N -> (rnd (nth v Y 0) == nth v Y 0)%Q in
  Forall (fun f => good (snd f)) history -> good Y ->
  exists s, frames (ly_frame rnd dec b) history (ly_start b) = Ret s /\
    (exists s1 s2 cwd V, ly_siho_cw rnd dec b Y s = Ret (s1, cwd, V) /\ ly_siho_cw rnd dec b Y (ly_start b) = Ret (s2, cwd, V)) /\
    (exists s1 s2 cwd V, ly_siho rnd dec b Y s = Ret (s1, cwd, V) /\ ly_siho rnd dec b Y (ly_start b) = Ret (s2, cwd, V)) /\
    (exists s1 s2 cwd E1 E2, ly_siso rnd dec b Y s = Ret (s1, cwd, E1) /\ ly_siso rnd dec b Y (ly_start b) = Ret (s2, cwd, E2) /\ Forall2 Qeq E1 E2).
Proof.
  intros H N M h rnd r chk n_ite synd pos b history Y HH RP RC SY EB FP dec good FH (LY & YR).
  assert (RES := hl_results H N M h rnd r chk n_ite synd 1 pos b HH RP RC SY EB FP).
  assert (RST : forall s', ly_keeps H N 1 s' -> ly_fresh H N (ly_reset s')).
  { intros s' (A & B & C). unfold ly_fresh, ly_reset. cbn. rewrite A, B. split; auto. split; auto. lia. }
  destruct (frames_inv _ _ (ly_fresh H N) (ly_frame rnd dec b) (fun f => good (snd f)) history (ly_start b)) as (s & E & FR); auto.
  { intros [k Y'] s (LY' & YR') FR. cbn [snd] in LY', YR'. destruct (RES s Y' FR LY' YR') as (t & c & _ & _ & (s1 & A & KA) & (s2 & B & KB) & (s3 & E & C & _ & _ & KC)). unfold ly_frame, bp_call.
    fold dec in A, B, C. destruct k; [rewrite C|rewrite B|rewrite A]; cbn [bind]; eexists; (split; [reflexivity|]); apply RST; auto. }
  { eapply ly_start_fresh; eauto. }
  exists s. split; auto. destruct (RES s Y FR LY YR) as (t & c & HT & CW & (s1 & A & _) & (s2 & B & _) & (s3 & E3 & C & L & V & _)).
  destruct (RES (ly_start b) Y) as (t' & c' & HT' & CW' & (s1' & A' & _) & (s2' & B' & _) & (s3' & E3' & C' & L' & V' & _)); auto. { eapply ly_start_fresh; eauto. }
  assert (t' = t) by (eapply halts_unique; eauto). subst t'. assert (c' = c). { apply eq_true_iff_eq. rewrite CW, CW'. reflexivity. } subst c'. split; [|split].
  - eexists. eexists. eexists. eexists. split; [exact A|exact A'].
  - eexists. eexists. eexists. eexists. split; [exact B|exact B'].
  - eexists. eexists. eexists. eexists. eexists. split; [exact C|]. split; [exact C'|]. eapply Forall2_Qeq; [exact L|exact L'|exact V|exact V'].
Qed.

Theorem C91_vertical : forall H N M h rnd r chk n_ite synd pos b o history Y,
  sp_is H N M h -> (forall x, (rnd x == x)%Q) -> computes r chk -> symmetric chk ->
  bp_new N n_ite H synd 1 pos = Ret b -> Forall (fun p => p < N) pos -> vl_offsets H = Ret o ->
  let dec := vl_decode rnd r b o in
  Forall (fun f => N <= length (snd f)) history -> N <= length Y ->
  exists s, frames (ly_frame rnd dec b) history (ly_start b) = Ret s /\
    (exists s1 s2 cwd V, ly_siho_cw rnd dec b Y s = Ret (s1, cwd, V) /\ ly_siho_cw rnd dec b Y (ly_start b) = Ret (s2, cwd, V)) /\
    (exists s1 s2 cwd V, ly_siho rnd dec b Y s = Ret (s1, cwd, V) /\ ly_siho rnd dec b Y (ly_start b) = Ret (s2, cwd, V)) /\
    (exists s1 s2 cwd E1 E2, ly_siso rnd dec b Y s = Ret (s1, cwd, E1) /\ ly_siso rnd dec b Y (ly_start b) = Ret (s2, cwd, E2) /\ Forall2 Qeq E1 E2).
Proof.
  intros H N M h rnd r chk n_ite synd pos b o history Y HH EX RC SY EB FP EO dec FH LY. assert (RP : compatible rnd) by (intros q q' E; rewrite !EX; auto).
  assert (RES := fun s Y => vl_results H N M h rnd r chk n_ite synd 1 pos b HH RP RC SY EB FP o s Y EX EO).
  assert (RST : forall s', ly_keeps H N 1 s' -> ly_fresh H N (ly_reset s')).
  { intros s' (A & B & C). unfold ly_fresh, ly_reset. cbn. rewrite A, B. split; auto. split; auto. lia. }
  destruct (frames_inv _ _ (ly_fresh H N) (ly_frame rnd dec b) (fun f => N <= length (snd f)) history (ly_start b)) as (s & E & FR); auto.
  { intros [k Y'] s LY' FR. cbn [snd] in LY'. destruct (RES s Y' FR LY') as (t & c & _ & _ & (s1 & A & KA) & (s2 & B & KB) & (s3 & E & C & _ & _ & KC)). unfold ly_frame, bp_call.
    fold dec in A, B, C. destruct k; [rewrite C|rewrite B|rewrite A]; cbn [bind]; eexists; (split; [reflexivity|]); apply RST; auto. }
  { eapply ly_start_fresh; eauto. }
  exists s. split; auto. destruct (RES s Y FR LY) as (t & c & HT & CW & (s1 & A & _) & (s2 & B & _) & (s3 & E3 & C & L & V & _)).
  destruct (RES (ly_start b) Y) as (t' & c' & HT' & CW' & (s1' & A' & _) & (s2' & B' & _) & (s3' & E3' & C' & L' & V' & _)); auto. { eapply ly_start_fresh; eauto. }
  assert (t' = t) by (eapply halts_unique; eauto). subst t' c c'. split; [|split].
  - eexists. eexists. eexists. eexists. split; [exact A|exact A'].
  - eexists. eexists. eexists. eexists. split; [exact B|exact B'].
  - eexists. eexists. eexists. eexists. eexists. split; [exact C|]. split; [exact C'|]. eapply Forall2_Qeq; [exact L|exact L'|exact V|exact V'].
Qed.

(* ------------------------------------------------------------------ *)
(** * A decoder of the Hamming code of LDPCProps.v *)

Definition hb (n_ite depth : nat) : bp := mkBP 7 n_ite ham true depth [0; 1; 2; 3].
Definition same (x : Q) : Q := x.
Definition hrule : rule := rule_MS 1000.
Definition hT : list nat := match fl_transpose ham with Ret T => T | _ => [] end.
Definition ho : list nat := match vl_offsets ham with Ret o => o | _ => [] end.
Lemma ham_is : sp_is ham 7 3 ham_h.
Proof. apply sp_is_ok. unfold ham, build. destruct (build_is [(0, 0); (0, 1); (1, 0); (1, 2); (2, 1); (2, 2); (3, 0); (3, 1); (3, 2); (4, 0); (5, 1); (6, 2)] 7 3) as (H & E & K).
  - repeat (apply NoDup_cons; [cbn; intuition discriminate|]). apply NoDup_nil.
  - intros p I. cbn in I. repeat destruct I as [<-|I]; cbn; try lia; destruct I.
  - rewrite E. exact K.
Qed.
Lemma ham_in_code : forall x, in_code 7 3 ham_h x <-> xorb (x 0) (xorb (x 1) (xorb (x 3) (x 4))) = false /\ xorb (x 0) (xorb (x 2) (xorb (x 3) (x 5))) = false /\ xorb (x 1) (xorb (x 2) (xorb (x 3) (x 6))) = false.
Proof.
  intros x. unfold in_code, parity. split.
  - intros C. assert (C0 := C 0 ltac:(lia)). assert (C1 := C 1 ltac:(lia)). assert (C2 := C 2 ltac:(lia)). cbn in C0, C1, C2. destruct (x 0), (x 1), (x 2), (x 3), (x 4), (x 5), (x 6); cbn in *; auto.
  - intros (A & B & C) c Hc. destruct c as [|[|[|c]]]; [| | |lia]; cbn; destruct (x 0), (x 1), (x 2), (x 3), (x 4), (x 5), (x 6); cbn in *; auto.
Qed.

(** An error on the third bit of the codeword 1011010 is corrected: the hypotheses of C87, C88 and C89 hold for it. *)
Example C87_ham : sp_is ham 7 3 ham_h /\ compatible same /\ computes hrule (min_sum 1000 (fun x => x)) /\ symmetric (min_sum 1000 (fun x => x)) /\
  (forall v, v < 7 -> row_deg ham_h 3 v <= 256) /\ bp_new 7 5 ham true 1 [0; 1; 2; 3] = Ret (hb 5 1) /\ fl_transpose ham = Ret hT /\
  exists s, fl_siho_cw same hrule (hb 5 1) hT [-(3); 2; 2; -(9); 4; -(2); 3]%Q (fl_start (hb 5 1)) = Ret (s, true, [true; false; true; true; false; true; false]).
Proof.
  split; [exact ham_is|]. split; [intros x y E; exact E|]. split; [apply C88_MS|]. split; [apply min_sum_symmetric; auto|]. split.
  - intros v Hv. do 7 (destruct v; [vm_compute; lia|]). lia.
  - split; [reflexivity|]. split; [reflexivity|]. eexists. vm_compute. reflexivity.
Qed.
Example C89_ham : vl_offsets ham = Ret ho /\
  (exists s, ly_siho_cw same (hl_decode same hrule (hb 5 1)) (hb 5 1) [-(3); 2; 2; -(9); 4; -(2); 3]%Q (ly_start (hb 5 1)) = Ret (s, true, [true; false; true; true; false; true; false])) /\
  (exists s, ly_siho_cw same (vl_decode same hrule (hb 5 1) ho) (hb 5 1) [-(3); 2; 2; -(9); 4; -(2); 3]%Q (ly_start (hb 5 1)) = Ret (s, true, [true; false; true; true; false; true; false])).
Proof. split; [reflexivity|]. split; eexists; vm_compute; reflexivity. Qed.
Example C90_ham : in_code 7 3 ham_h (fun v => nth v [true; false; true; true; false; true; false] false) /\
  (forall v, v < 7 -> tells (nth v [true; false; true; true; false; true; false] false) (nth v [-(3); 2; -(1#5); -(9); 4; -(2); 3]%Q 0%Q)) /\ rounding same /\ sign_rule (min_sum 1000 (fun x => x)) /\ keeps same (min_sum 1000 (fun x => x)).
Proof.
  split; [apply ham_in_code; cbn; auto|]. split; [intros v Hv; do 7 (destruct v; [cbn; reflexivity|]); lia|]. split; [split; [auto|split; [auto|split; [reflexivity|reflexivity]]]|].
  split; [apply min_sum_sign; auto|]. intros l _. reflexivity.
Qed.
Example C91_ham : exists s, frames (fl_frame same hrule (hb 5 1) hT) [(SihoCw, [-(3); 2; 2; -(9); 4; -(2); 3]%Q); (Siso, [1; 1; -(4); 1; 0; 0; 3]%Q)] (fl_start (hb 5 1)) = Ret s.
Proof. eexists. vm_compute. reflexivity. Qed.

(** With one iteration the flooding decoder never computes the syndrome: CWD is 1 on bits that are not a codeword. *)
Theorem C87_cwd_refuted : exists s V, fl_siho_cw same hrule (hb 1 1) hT [-(3); 2; 2; -(9); 4; -(2); 3]%Q (fl_start (hb 1 1)) = Ret (s, true, V) /\ ~ in_code 7 3 ham_h (fun v => nth v V false).
Proof. eexists. eexists. split; [vm_compute; reflexivity|]. rewrite ham_in_code. cbn. intuition discriminate. Qed.

(** The syndrome of its last iteration is not computed either: CWD is 0 on a codeword. *)
Theorem C87_last_iteration_refuted : exists s V, fl_siho_cw same hrule (hb 2 1) hT [-(3); 2; 2; -(9); 4; -(2); 3]%Q (fl_start (hb 2 1)) = Ret (s, false, V) /\ in_code 7 3 ham_h (fun v => nth v V false).
Proof. eexists. eexists. split; [vm_compute; reflexivity|]. rewrite ham_in_code. cbn. auto. Qed.

(** The vertical layered decoder always gives 1. *)
Theorem C89_vertical_cwd_refuted : exists s V, ly_siho_cw same (vl_decode same hrule (hb 5 1) ho) (hb 5 1) [-(3); 0; 0; 0; 0; 0; 0]%Q (ly_start (hb 5 1)) = Ret (s, true, V) /\ ~ in_code 7 3 ham_h (fun v => nth v V false).
Proof. eexists. eexists. split; [vm_compute; reflexivity|]. rewrite ham_in_code. cbn. intuition discriminate. Qed.

(** With a syndrome depth of 2 the count of valid syndromes goes on from a frame to the next one. *)
Theorem C91_depth_refuted : let Y := [-(3); 2; -(1); -(9); 4; -(2); 3]%Q in
  exists s s1 s2 V, frames (fl_frame same hrule (hb 2 2) hT) [(SihoCw, Y)] (fl_start (hb 2 2)) = Ret s /\
    fl_siho_cw same hrule (hb 2 2) hT Y s = Ret (s1, true, V) /\ fl_siho_cw same hrule (hb 2 2) hT Y (fl_start (hb 2 2)) = Ret (s2, false, V).
Proof. do 4 eexists. split; [vm_compute; reflexivity|]. split; vm_compute; reflexivity. Qed.

(* ------------------------------------------------------------------ *)
(** * A variable of degree 257 *)

(** Two variables and m checks of both of them. *)
Definition hub (m : nat) : sparse := mkSparse 2 m m 2 (2 * m) [seq 0 m; seq 0 m] (repeat [0; 1] m).
Lemma hub_is : forall m, 0 < m -> sp_is (hub m) 2 m (fun _ _ => true).
Proof.
  intros m Hm. apply sp_is_ok. split; auto. split; auto. cbn [hub sp_r2c sp_c2r sp_n sp_rmax sp_cmax].
  assert (RD : forall n, length (filter (fun _ : nat => true) (seq 0 n)) = n). { intros n. transitivity (length (seq 0 n)); [|apply seq_length]. f_equal. induction (seq 0 n); cbn; congruence. }
  split; [|split; [|split; [|split]]].
  - split; auto. intros r Hr. assert (E : nth r [seq 0 m; seq 0 m] [] = seq 0 m) by (destruct r as [|[|r]]; auto; lia). rewrite E. split; [apply seq_NoDup|]. intros c. rewrite in_seq. intuition lia.
  - split; [apply repeat_length|]. intros c Hc. rewrite nth_repeat_lt by auto. split; [repeat constructor; cbn; intuition discriminate|]. intros v. cbn. unfold flip. intuition lia.
  - unfold ones. cbn [seq map list_sum fold_right]. unfold row_deg. rewrite RD. lia.
  - unfold maxf. cbn [seq map list_max fold_right]. unfold row_deg. rewrite RD. lia.
  - unfold maxf. assert (E : map (row_deg (flip (fun _ _ : nat => true)) 2) (seq 0 m) = repeat 2 m). { apply (list_eq_nth _ 0); [rewrite map_length, seq_length, repeat_length; auto|]. rewrite map_length, seq_length. intros i Hi. rewrite nth_repeat_lt by auto. rewrite (nth_indep _ 0 (row_deg (flip (fun _ _ : nat => true)) 2 0)) by (rewrite map_length, seq_length; auto). rewrite map_nth. reflexivity. }
    rewrite E. clear - Hm. destruct m; [lia|]. cbn [repeat list_max fold_right]. fold (list_max (repeat 2 m)). assert (K : list_max (repeat 2 m) <= 2) by (apply list_max_le, Forall_forall; intros x I; apply repeat_spec in I; lia). lia.
Qed.

(** One iteration of min-sum on two variables: each gets the m copies of the other one. *)
Theorem C87_degree_refuted : let b := mkBP 2 1 (hub 257) true 1 [0] in let Y := [-(513 # 2); 1]%Q in
  sp_is (hub 257) 2 257 (fun _ _ => true) /\ bp_new 2 1 (hub 257) true 1 [0] = Ret b /\
  (flooding 2 257 (fun _ _ => true) same (min_sum 1000 (fun x => x)) (fun v => nth v Y 0%Q) 1 0 == 1 # 2)%Q /\
  exists T s cwd V, fl_transpose (hub 257) = Ret T /\ fl_siho_cw same hrule b T Y (fl_start b) = Ret (s, cwd, V) /\ nth 0 V false = true.
Proof.
  cbv zeta. split; [apply hub_is; lia|]. split; [reflexivity|]. split; [vm_compute; reflexivity|]. do 4 eexists. split; [vm_compute; reflexivity|]. split; vm_compute; reflexivity.
Qed.
