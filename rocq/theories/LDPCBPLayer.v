(** The layered schedules compute the messages of the textbook. *)
From Coq Require Import List Arith Lia Bool ZArith QArith Permutation Lqa.
From Verif Require Import Base WLoops SparseModel SparseSpec SparseProofs LDPCModel LDPCSpec LDPCProps LDPCBPModel LDPCBPSpec LDPCBPProofs LDPCBPGraph LDPCBPFlood.
Import ListNotations.
Local Open Scope nat_scope.

Lemma for_prefix : forall S n j (bd : nat -> S -> outcome S) s u, for_ n bd s = Ret u -> j <= n -> exists u', for_ j bd s = Ret u'.
Proof.
  intros S n j bd s u E L. unfold for_ in *. replace n with (j + (n - j)) in E by lia. rewrite for_from_app in E. apply bind_inv in E. destruct E as (u' & E & _). eauto.
Qed.

Lemma Forall2_nth : forall A (R : A -> A -> Prop) (d : A) l l', length l = length l' -> (forall i, i < length l -> R (nth i l d) (nth i l' d)) -> Forall2 R l l'.
Proof.
  intros A R d l. induction l; intros l' L F; destruct l'; try discriminate; constructor; [apply (F 0); simpl; lia|]. apply IHl; [simpl in L; lia|]. intros i Hi. apply (F (S i)). simpl. lia.
Qed.

Lemma Forall2_firstn : forall A (R : A -> A -> Prop) l l' k, Forall2 R l l' -> Forall2 R (firstn k l) (firstn k l').
Proof. intros A R l l' k F. revert k. induction F; intros k; destruct k; cbn [firstn]; constructor; auto. Qed.
Lemma Forall2_skipn : forall A (R : A -> A -> Prop) l l' k, Forall2 R l l' -> Forall2 R (skipn k l) (skipn k l').
Proof. intros A R l l' k F. revert k. induction F; intros k; destruct k; cbn [skipn]; auto. Qed.
Lemma Forall2_removed : forall A (R : A -> A -> Prop) l l' k, Forall2 R l l' -> Forall2 R (removed k l) (removed k l').
Proof. intros. unfold removed. apply Forall2_app; [apply Forall2_firstn|apply Forall2_skipn]; auto. Qed.
Lemma Forall2_refl_Q : forall l, Forall2 Qeq l l.
Proof. induction l; constructor; auto. reflexivity. Qed.

Section Layers.
Variables (H : sparse) (N M : nat) (h : nat -> nat -> bool) (rnd : Q -> Q) (chk : list Q -> Q) (r : rule).
Hypothesis OK : sp_ok H N M h.
Hypothesis RP : forall x y, (x == y)%Q -> (rnd x == rnd y)%Q.
Hypothesis SYM : symmetric chk.
Hypothesis RC : computes r chk.

Notation cl := (col H).
Notation vid c j := (nth j (col H c) 0%nat).

Lemma check_node2 : forall c (xs : list Q) (nu : nat -> Q), c < M -> length xs = length (cl c) -> (forall j, j < length (cl c) -> (nth j xs 0 == nu (vid c j))%Q) ->
  exists u, node r xs = Ret u /\ forall j, j < length (cl c) -> exists y, r_out r j (nth j xs 0%Q) u = Ret y /\ (y == chk (map nu (others (vid c j) (vars_of N h c))))%Q.
Proof.
  intros c xs nu Hc L E. destruct (RC xs) as (u & Eu & O). exists u. split; auto. intros j Hj. destruct (O j) as (y & Ey & Q); [lia|]. exists y. split; auto. rewrite Q.
  transitivity (chk (map nu (removed j (cl c)))).
  - apply (SYM _ _ (removed j xs)); auto. rewrite <- removed_map. apply Forall2_removed. apply (Forall2_nth _ _ 0%Q); [rewrite map_length; auto|]. intros i Hi.
    rewrite (nth_indep (map nu _) 0%Q (nu 0)) by (rewrite map_length; lia). rewrite (map_nth nu). apply E. lia.
  - apply (SYM _ _ (map nu (others (vid c j) (vars_of N h c)))); [|apply Forall2_refl_Q]. apply Permutation_map. apply removed_others; auto; [eapply col_nodup; eauto|eapply col_perm; eauto].
Qed.

Definition at_ly (s : (nat -> Q) * (nat -> nat -> Q)) (var msg : list Q) : Prop :=
  length var = N /\ length msg = sp_n H /\ (forall v, v < N -> (nth v var 0 == fst s v)%Q) /\
  (forall c j, c < M -> j < length (cl c) -> (nth (offc H c + j) msg 0 == snd s c (vid c j))%Q).

(** The values a check node receives. *)
Definition con_of (c : nat) (var msg : list Q) : list Q := tab (length (cl c)) (fun j => qsub rnd (nth (vid c j) var 0%Q) (nth (offc H c + j) msg 0%Q)).

Lemma in_loop : forall c var msg u0, c < M -> length var = N -> length msg = sp_n H ->
  for_ (length (con_of c var msg)) (fun v u => r_in r v (nth v (con_of c var msg) 0%Q) u) (r_begin r (length (con_of c var msg))) = Ret u0 ->
  exists con, for_ (length (cl c)) (fun v '(con, u) =>
      id <- rd (cl c) v ;; x <- rd var id ;; m <- rd msg (offc H c + v) ;;
      con <- wr con v (qsub rnd x m) ;;
      u <- r_in r v (qsub rnd x m) u ;; Ret (con, u)) (repeat 0%Q (sp_cmax H), r_begin r (length (cl c))) = Ret (con, u0) /\
    length con = sp_cmax H /\ forall j, j < length (cl c) -> nth j con 0%Q = nth j (con_of c var msg) 0%Q.
Proof.
  intros c var msg u0 Hc LV LM E. set (xs := con_of c var msg) in *. assert (LX : length xs = length (cl c)) by apply length_tab. rewrite LX in E.
  assert (CM := col_le_max _ _ _ _ OK c Hc).
  match goal with |- context [for_ ?n ?bb ?ss] => destruct (for_inv _ (fun j '(con, u) => length con = sp_cmax H /\ (forall j', j' < j -> nth j' con 0%Q = nth j' xs 0%Q) /\
      for_ j (fun v u => r_in r v (nth v xs 0%Q) u) (r_begin r (length (cl c))) = Ret u) n bb ss) as ([con u] & EL & LC & I1 & I2) end.
  - cbv beta iota. rewrite repeat_length. split; auto. split; [intros; lia|reflexivity].
  - intros j [con u] Hj (LC & I1 & I2). destruct (col_nth _ _ _ _ OK c j Hc Hj) as [Hv Hh].
    rewrite (rd_ok _ 0) by auto. cbn [bind]. rewrite (rd_ok _ 0%Q) by lia. cbn [bind]. rewrite (rd_ok _ 0%Q) by (rewrite LM; apply (cell_lt _ _ _ _ OK); auto). cbn [bind].
    rewrite wr_ok by lia. cbn [bind].
    assert (EX : nth j xs 0%Q = qsub rnd (nth (vid c j) var 0%Q) (nth (offc H c + j) msg 0%Q)). { unfold xs, con_of. rewrite nth_tab by auto. auto. }
    destruct (for_prefix _ _ (S j) _ _ _ E ltac:(lia)) as (u' & E'). assert (E2 := E'). rewrite for_S, I2 in E2. cbn [bind] in E2. rewrite EX in E2. rewrite E2. cbn [bind].
    eexists. split; [reflexivity|]. cbv beta iota. rewrite length_upd. split; auto. split; auto. intros j' Hj'. rewrite nth_upd by lia. destruct (Nat.eqb_spec j' j) as [->|]; [auto|apply I1; lia].
  - exists con. assert (u = u0) by congruence. subst. auto.
Qed.

Lemma layer_ok : forall c s var msg, at_ly s var msg -> c < M ->
  exists var' msg', (fun c '(k, var, msg) =>
    col <- sp_col H c ;;
    ' (con, u) <- for_ (length col) (fun v '(con, u) =>
      id <- rd col v ;; x <- rd var id ;; m <- rd msg (k + v) ;;
      con <- wr con v (qsub rnd x m) ;;
      u <- r_in r v (qsub rnd x m) u ;; Ret (con, u)) (repeat 0%Q (sp_cmax H), r_begin r (length col)) ;;
    u <- r_end r u ;;
    ' (var, msg) <- for_ (length col) (fun v '(var, msg) =>
      x <- rd con v ;; m <- r_out r v x u ;;
      msg <- wr msg (k + v) m ;;
      id <- rd col v ;; var <- wr var id (qadd rnd x m) ;; Ret (var, msg)) (var, msg) ;;
    Ret (k + length col, var, msg)) c (offc H c, var, msg) = Ret (offc H (S c), var', msg') /\ at_ly (layer N h rnd chk c s) var' msg'.
Proof.
  intros c [sv sm] var msg (LV & LM & AV & AM) Hc. cbn [fst snd] in *. cbv beta iota. rewrite (col_rd _ _ _ _ OK c Hc). cbn [bind].
  set (con v := rnd (sv v - sm c v)%Q). set (m v := chk (map con (others v (vars_of N h c)))).
  set (xs := con_of c var msg). assert (LX : length xs = length (cl c)) by apply length_tab.
  assert (EX : forall j, j < length (cl c) -> (nth j xs 0 == con (vid c j))%Q).
  { intros j Hj. unfold xs, con_of. rewrite nth_tab by auto. unfold qsub, con. apply RP. destruct (col_nth _ _ _ _ OK c j Hc Hj) as [Hv Hh]. rewrite AV, AM by auto. reflexivity. }
  destruct (check_node2 c xs con Hc LX EX) as (u & Eu & OU). unfold node in Eu. apply bind_inv in Eu. destruct Eu as (u0 & Eu0 & Eu).
  destruct (in_loop c var msg u0 Hc LV LM Eu0) as (cn & EL & LC & CN). rewrite EL. cbn [bind]. rewrite Eu. cbn [bind]. clear EL Eu Eu0.
  match goal with |- context [for_ ?n ?bb (var, msg)] => destruct (for_inv _ (fun j '(var', msg') => length var' = N /\ length msg' = sp_n H /\
     (forall j', j' < j -> (nth (vid c j') var' 0 == rnd (con (vid c j') + m (vid c j')))%Q /\ (nth (offc H c + j') msg' 0 == m (vid c j'))%Q) /\
     (forall v, v < N -> (forall j', j' < j -> v <> vid c j') -> nth v var' 0%Q = nth v var 0%Q) /\
     (forall p, (forall j', j' < j -> p <> offc H c + j') -> nth p msg' 0%Q = nth p msg 0%Q)) n bb (var, msg)) as ([var' msg'] & EL & LV' & LM' & I1 & I2 & I3) end.
  - cbv beta iota. split; auto. split; auto. split; [intros; lia|]. split; auto.
  - intros j [var' msg'] Hj (LV' & LM' & I1 & I2 & I3). rewrite (rd_ok _ 0%Q) by (assert (A := col_le_max _ _ _ _ OK c Hc); lia). cbn [bind]. rewrite CN by auto. fold xs.
    destruct (OU j Hj) as (y & -> & EY). cbn [bind]. assert (CL := cell_lt _ _ _ _ OK c j Hc Hj). rewrite wr_ok by lia. cbn [bind]. rewrite (rd_ok _ 0) by auto. cbn [bind].
    destruct (col_nth _ _ _ _ OK c j Hc Hj) as [Hv Hh]. rewrite wr_ok by lia. cbn [bind]. eexists. split; [reflexivity|]. cbv beta iota. rewrite !length_upd. split; auto. split; auto.
    assert (NDI : forall j', j' < length (cl c) -> vid c j' = vid c j -> j' = j). { intros j' Hj' E. apply (proj1 (NoDup_nth (cl c) 0) (col_nodup _ _ _ _ OK c Hc)); auto. }
    split; [|split].
    + intros j' Hj'. rewrite !nth_upd by lia. destruct (Nat.eq_dec j' j) as [->|NE].
      * rewrite !Nat.eqb_refl. split; [|exact EY]. unfold qadd. apply RP. rewrite (EX j Hj), EY. reflexivity.
      * destruct (Nat.eqb_spec (vid c j') (vid c j)) as [C|_]; [apply NDI in C; lia|]. destruct (Nat.eqb_spec (offc H c + j') (offc H c + j)); [lia|]. apply I1. lia.
    + intros v Hv' NI. rewrite nth_upd by lia. destruct (Nat.eqb_spec v (vid c j)) as [->|_]; [exfalso; apply (NI j); lia|]. apply I2; auto.
    + intros p NI. rewrite nth_upd by lia. destruct (Nat.eqb_spec p (offc H c + j)) as [->|_]; [exfalso; apply (NI j); lia|]. apply I3; auto.
  - rewrite EL. cbn [bind]. exists var', msg'. split; [rewrite (offc_S _ _ _ _ OK) by auto; auto|]. split; auto. split; auto. unfold layer. cbn [fst snd]. fold con. split.
    + intros v Hv. destruct (h v c) eqn:Hh.
      * destruct (col_idx _ _ _ _ OK c v Hc Hv Hh) as (j & Hj & <-). apply I1. auto.
      * rewrite I2; auto. intros j Hj ->. destruct (col_nth _ _ _ _ OK c j Hc Hj) as [_ C]. congruence.
    + intros c' j Hc' Hj. destruct (Nat.eqb_spec c' c) as [->|NE].
      * apply I1. auto.
      * rewrite I3; auto. intros j' Hj' C. apply (cell_inj _ _ _ _ OK) in C; auto. tauto.
Qed.

Lemma hl_ite_ok : forall s var msg, at_ly s var msg -> exists var' msg', hl_ite rnd r H var msg = Ret (var', msg') /\ at_ly (sweep N M h rnd chk s) var' msg'.
Proof.
  intros s var msg AT. unfold hl_ite. rewrite (cols_M _ _ _ _ OK).
  match goal with |- context [for_ M ?bb ?ss] => destruct (for_inv _ (fun c '(k, var, msg) => k = offc H c /\ at_ly (fold_left (fun s c => layer N h rnd chk c s) (seq 0 c) s) var msg) M bb ss) as ([[k var'] msg'] & E & _ & I) end.
  - split; auto.
  - intros c [[k var'] msg'] Hc (-> & A). destruct (layer_ok c _ _ _ A Hc) as (v2 & m2 & E & A2). cbv beta in E. eexists. split; [exact E|]. split; auto. rewrite seq_S, fold_left_app. exact A2.
  - rewrite E. cbn [bind]. eauto.
Qed.

(** messages_offsets *)
Lemma offsets_ok : exists o, vl_offsets H = Ret o /\ length o = M /\ forall c, c < M -> nth c o 0 = offc H c.
Proof.
  unfold vl_offsets. rewrite (cols_M _ _ _ _ OK).
  match goal with |- context [for_ M ?bb ?ss] => destruct (for_inv _ (fun i '(o, cur) => length o = M /\ cur = offc H i /\ forall c, c < i -> nth c o 0 = offc H c) M bb ss) as ([o cur] & E & L & _ & I) end.
  - cbv beta iota. rewrite repeat_length. split; auto. split; [reflexivity|]. intros; lia.
  - intros i [o cur] Hi (L & -> & I). rewrite wr_ok by lia. cbn [bind]. rewrite (col_rd _ _ _ _ OK i Hi). cbn [bind]. eexists. split; [reflexivity|]. cbv beta iota. rewrite length_upd. split; auto. split; [rewrite (offc_S _ _ _ _ OK) by auto; auto|].
    intros c Hc. rewrite nth_upd by lia. destruct (Nat.eqb_spec c i) as [->|]; auto. apply I. lia.
  - rewrite E. cbn [bind]. eauto.
Qed.

Lemma in_loop_v : forall vv j0 c var msg u0, c < M -> length var = N -> length msg = sp_n H -> j0 < length (cl c) -> vid c j0 = vv ->
  for_ (length (con_of c var msg)) (fun v u => r_in r v (nth v (con_of c var msg) 0%Q) u) (r_begin r (length (con_of c var msg))) = Ret u0 ->
  exists con, for_ (length (cl c)) (fun v '(con, u, v_out) =>
        id <- rd (cl c) v ;;
        let v_out := if id =? vv then Some v else v_out in
        x <- rd var id ;; m <- rd msg (offc H c + v) ;;
        con <- wr con v (qsub rnd x m) ;;
        u <- r_in r v (qsub rnd x m) u ;; Ret (con, u, v_out)) (repeat 0%Q (sp_cmax H), r_begin r (length (cl c)), None) = Ret (con, u0, Some j0) /\
    length con = sp_cmax H /\ forall j, j < length (cl c) -> nth j con 0%Q = nth j (con_of c var msg) 0%Q.
Proof.
  intros vv j0 c var msg u0 Hc LV LM Hj0 EV E. set (xs := con_of c var msg) in *. assert (LX : length xs = length (cl c)) by apply length_tab. rewrite LX in E.
  assert (CM := col_le_max _ _ _ _ OK c Hc).
  match goal with |- context [for_ ?n ?bb ?ss] => destruct (for_inv _ (fun j '(con, u, vo) => length con = sp_cmax H /\ (forall j', j' < j -> nth j' con 0%Q = nth j' xs 0%Q) /\
      for_ j (fun v u => r_in r v (nth v xs 0%Q) u) (r_begin r (length (cl c))) = Ret u /\ vo = if j0 <? j then Some j0 else None) n bb ss) as ([[con u] vo] & EL & LC & I1 & I2 & I3) end.
  - cbv beta iota. rewrite repeat_length. split; auto. split; [intros; lia|]. split; reflexivity.
  - intros j [[con u] vo] Hj (LC & I1 & I2 & I3). destruct (col_nth _ _ _ _ OK c j Hc Hj) as [Hv Hh].
    rewrite (rd_ok _ 0) by auto. cbn [bind]. rewrite (rd_ok _ 0%Q) by lia. cbn [bind]. rewrite (rd_ok _ 0%Q) by (rewrite LM; apply (cell_lt _ _ _ _ OK); auto). cbn [bind].
    rewrite wr_ok by lia. cbn [bind].
    assert (EX : nth j xs 0%Q = qsub rnd (nth (vid c j) var 0%Q) (nth (offc H c + j) msg 0%Q)). { unfold xs, con_of. rewrite nth_tab by auto. auto. }
    destruct (for_prefix _ _ (S j) _ _ _ E ltac:(lia)) as (u' & E'). assert (E2 := E'). rewrite for_S, I2 in E2. cbn [bind] in E2. rewrite EX in E2. rewrite E2. cbn [bind].
    eexists. split; [reflexivity|]. cbv beta iota. rewrite length_upd. split; auto. split; [|split; auto].
    + intros j' Hj'. rewrite nth_upd by lia. destruct (Nat.eqb_spec j' j) as [->|]; [auto|apply I1; lia].
    + destruct (Nat.eqb_spec (vid c j) vv) as [EQ|NE].
      * assert (j = j0). { apply (proj1 (NoDup_nth (cl c) 0) (col_nodup _ _ _ _ OK c Hc)); auto. congruence. } subst j. replace (j0 <? S j0) with true by (symmetry; apply Nat.ltb_lt; lia). auto.
      * rewrite I3. assert (j <> j0) by congruence. destruct (Nat.ltb_spec j0 j), (Nat.ltb_spec j0 (S j)); auto; lia.
  - exists con. assert (u = u0) by congruence. subst. replace (j0 <? length (cl c)) with true in EL by (symmetry; apply Nat.ltb_lt; lia). auto.
Qed.

Hypothesis EXACT : forall x, (rnd x == x)%Q.

(** Sum of the changes of the messages to a variable. *)
Definition qsum (l : list Q) : Q := fold_right Qplus 0%Q l.
Lemma qsum_app : forall a b, (qsum (a ++ b) == qsum a + qsum b)%Q.
Proof. induction a; intros; cbn [app qsum fold_right]; [unfold qsum; lra|]. fold (qsum (a0 ++ b)). fold (qsum a0). rewrite IHa. lra. Qed.
Lemma qsum_perm : forall a b, Permutation a b -> (qsum a == qsum b)%Q.
Proof. intros a b P. induction P; cbn [qsum fold_right] in *; try reflexivity; fold qsum in *; try (unfold qsum in *; lra). Qed.
Lemma acc_sum : forall (f g : nat -> Q) l a, (fold_left (fun acc c => rnd (rnd (acc - f c) + g c)) l a == a + qsum (map (fun c => g c - f c) l))%Q.
Proof.
  intros f g l. induction l; intros x; cbn [fold_left map qsum fold_right]; [lra|]. rewrite IHl. fold (qsum (map (fun c => g c - f c)%Q l)).
  rewrite (EXACT (rnd (x - f a) + g a)), (EXACT (x - f a)). lra.
Qed.

Lemma row_perm : forall v, v < N -> Permutation (nth v (sp_r2c H) []) (checks_of M h v).
Proof.
  intros v Hv. destruct OK as (_ & _ & V & _). destruct V as [LV V]. destruct (V v Hv) as [ND I]. apply NoDup_Permutation; auto; [apply NoDup_filter, seq_NoDup|].
  intros c. rewrite I. unfold checks_of. rewrite filter_In, in_seq. intuition lia.
Qed.

Lemma vl_ite_ok : forall o s var msg, length o = M -> (forall c, c < M -> nth c o 0 = offc H c) -> at_ly s var msg ->
  exists var' msg', vl_ite rnd r H o var msg = Ret (var', msg') /\ at_ly (vsweep N M h rnd chk s) var' msg'.
Proof.
  intros o s var msg LO EO AT. unfold vl_ite. rewrite (rows_N _ _ _ _ OK).
  match goal with |- context [for_ N ?bb ?ss] => destruct (for_inv _ (fun v '(var, msg) => at_ly (fold_left (fun s v => column N M h rnd chk v s) (seq 0 v) s) var msg) N bb ss) as ([var' msg'] & E & I) end; auto.
  2:{ rewrite E. eauto. }
  clear var msg AT. intros vv [var msg] Hvv AT. rewrite seq_S, fold_left_app. cbn [fold_left Nat.add]. destruct (fold_left (fun s v => column N M h rnd chk v s) (seq 0 vv) s) as [sv sm]. clear s.
  destruct AT as (LV & LM & AV & AM). cbn [fst snd] in *. rewrite (row_rd _ _ _ _ OK vv Hvv). cbn [bind]. set (row := nth vv (sp_r2c H) []).
  assert (RPM : Permutation row (checks_of M h vv)) by (apply row_perm; auto).
  assert (RND : NoDup row) by (destruct OK as (_ & _ & V & _); apply V; auto).
  assert (RIN : forall c, In c row <-> c < M /\ h vv c = true) by (destruct OK as (_ & _ & V & _); apply V; auto).
  set (m c := chk (map (fun w => rnd (sv w - sm c w)%Q) (others vv (vars_of N h c)))).
  match goal with |- context [for_ ?n ?bb (0%Q, msg)] => destruct (for_inv _ (fun k '(acc, msg') => length msg' = sp_n H /\ (acc == qsum (map (fun c => m c - sm c vv) (firstn k row)))%Q /\
      (forall c j, c < M -> j < length (cl c) -> (In c (firstn k row) /\ vid c j = vv -> (nth (offc H c + j) msg' 0 == m c)%Q) /\
          (~ (In c (firstn k row) /\ vid c j = vv) -> nth (offc H c + j) msg' 0%Q = nth (offc H c + j) msg 0%Q))) n bb (0%Q, msg)) as ([acc msg'] & E & LM' & EA & I) end.
  - cbv beta iota. split; auto. split; [reflexivity|]. intros c j Hc Hj. split; auto. cbn [firstn In]. tauto.
  - intros k [acc msg'] Hk (LM' & EA & I). rewrite (rd_ok _ 0) by auto. cbn [bind]. set (cc := nth k row 0).
    assert (IC : In cc row) by (apply nth_In; auto). destruct (proj1 (RIN cc) IC) as [Hc Hh]. rewrite (rd_ok _ 0) by lia. cbn [bind]. rewrite (col_rd _ _ _ _ OK cc Hc). cbn [bind]. rewrite EO by auto.
    destruct (col_idx _ _ _ _ OK cc vv Hc Hvv Hh) as (j0 & Hj0 & EV).
    assert (NI : ~ In cc (firstn k row)). { assert (ND := nodup_firstn _ row (S k) RND). rewrite (firstn_snoc _ 0 row k Hk) in ND. fold cc in ND. apply NoDup_remove_2 in ND. rewrite app_nil_r in ND. auto. }
    set (con w := rnd (sv w - sm cc w)%Q). set (xs := con_of cc var msg'). assert (LX : length xs = length (cl cc)) by apply length_tab.
    assert (SAME : forall j, j < length (cl cc) -> (nth (offc H cc + j) msg' 0 == sm cc (vid cc j))%Q).
    { intros j Hj. destruct (I cc j Hc Hj) as [_ K]. rewrite K by tauto. apply AM; auto. }
    assert (EX : forall j, j < length (cl cc) -> (nth j xs 0 == con (vid cc j))%Q).
    { intros j Hj. unfold xs, con_of. rewrite nth_tab by auto. unfold qsub, con. apply RP. destruct (col_nth _ _ _ _ OK cc j Hc Hj) as [Hv _]. rewrite AV, SAME by auto. reflexivity. }
    destruct (check_node2 cc xs con Hc LX EX) as (u & Eu & OU). unfold node in Eu. apply bind_inv in Eu. destruct Eu as (u0 & Eu0 & Eu).
    destruct (in_loop_v vv j0 cc var msg' u0 Hc LV LM' Hj0 EV Eu0) as (cn & EL & LC & CN). cbv zeta in EL. rewrite EL. cbn [bind]. rewrite Eu. cbn [bind]. clear EL Eu Eu0.
    assert (CL := cell_lt _ _ _ _ OK cc j0 Hc Hj0). rewrite (rd_ok _ 0%Q) by lia. cbn [bind]. rewrite (rd_ok _ 0%Q) by (assert (A := col_le_max _ _ _ _ OK cc Hc); lia). cbn [bind]. rewrite CN by auto. fold xs.
    destruct (OU j0 Hj0) as (y & -> & EY). cbn [bind]. rewrite wr_ok by lia. cbn [bind]. eexists. split; [reflexivity|]. cbv beta iota. rewrite length_upd. split; auto. rewrite EV in EY. fold (m cc) in EY. split.
    + rewrite (firstn_snoc _ 0 row k Hk). fold cc. rewrite map_app, qsum_app. cbn [map qsum fold_right]. unfold qadd, qsub. rewrite !EXACT. rewrite EA, EY, (SAME j0 Hj0), EV. unfold con in *. fold (m cc). unfold qsum. cbn. lra.
    + intros c j Hc' Hj. rewrite (firstn_snoc _ 0 row k Hk). fold cc. rewrite in_app_iff. cbn [In]. rewrite nth_upd by lia. destruct (Nat.eqb_spec (offc H c + j) (offc H cc + j0)) as [EQ|NE].
      * apply (cell_inj _ _ _ _ OK) in EQ; auto. destruct EQ as [-> ->]. split; [intros _; exact EY|]. intros C. exfalso. apply C. split; auto.
      * destruct (I c j Hc' Hj) as [K1 K2]. split.
        { intros [[IN|[<-|[]]] EV']; [auto|]. exfalso. apply NE. f_equal. apply (proj1 (NoDup_nth (cl cc) 0) (col_nodup _ _ _ _ OK cc Hc)); auto. congruence. }
        { intros C. apply K2. intros [A B]. apply C. auto. }
  - rewrite E. cbn [bind]. rewrite (rd_ok _ 0%Q) by lia. cbn [bind]. rewrite wr_ok by lia. cbn [bind]. rewrite firstn_all in *. eexists. split; [reflexivity|]. split; [rewrite length_upd; auto|]. split; auto. unfold column. cbn [fst snd]. split.
    + intros w Hw. rewrite nth_upd by lia. destruct (Nat.eqb_spec w vv) as [->|]; [|auto]. unfold qadd. apply RP. rewrite AV by auto. rewrite EA.
      apply Qplus_comp; [reflexivity|]. etransitivity; [|symmetry; exact (acc_sum (fun c => sm c vv) m (checks_of M h vv) 0%Q)]. rewrite (qsum_perm _ _ (Permutation_map (fun c => (m c - sm c vv)%Q) RPM)). lra.
    + intros c j Hc Hj. destruct (I c j Hc Hj) as [K1 K2]. fold (m c). destruct (Nat.eqb_spec (vid c j) vv) as [EV|NE]; cbn [andb].
      * destruct (h vv c) eqn:Hh.
        { apply K1. split; auto. apply RIN. auto. }
        { rewrite K2; [apply AM; auto|]. intros [C _]. apply RIN in C. destruct C. congruence. }
      * rewrite K2; [apply AM; auto|]. tauto.
Qed.

End Layers.
