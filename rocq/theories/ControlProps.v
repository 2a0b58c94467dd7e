(** C46 and C47: the loops and the controllers. *)
From Coq Require Import List Arith Lia Bool ZArith.
From Verif Require Import Base ControlModel.
Import ListNotations.
Local Open Scope Z_scope.

Lemma int8_small : forall x, -128 <= x < 128 -> int8 x = x.
Proof. intros x H. unfold int8. rewrite Z.mod_small by lia. lia. Qed.
Lemma sz_small : forall x, 0 <= x < 2 ^ 64 -> sz x = x.
Proof. intros x H. unfold sz. apply Z.mod_small. exact H. Qed.

(** ** C47: n successive calls of a controller *)
Fixpoint calls {C} (control : C -> outcome (C * Z)) (n : nat) (c : C) : outcome (list Z) :=
  match n with O => Ret [] | S n' => ' (c1, o) <- control c ;; l <- calls control n' c1 ;; Ret (o :: l) end.

(** The static controller always emits its path. *)
Theorem C47_static : forall n init p, 0 <= init < 128 -> 0 <= p < 128 ->
  calls (fun c => Ret (static_control c)) n (new_static init) = Ret (repeat init n) /\
  calls (fun c => Ret (static_control c)) n (base_set_path (new_static init) p) = Ret (repeat p n) /\
  calls (fun c => Ret (static_control c)) n (base_reset (base_set_path (new_static init) p)) = Ret (repeat init n).
Proof.
  assert (G : forall n a b, 0 <= b < 128 -> calls (fun c => Ret (static_control c)) n (mkCtr a b) = Ret (repeat b n)).
  { induction n as [|n IH]; intros a b Hb; [reflexivity|]. cbn [calls repeat]. unfold static_control at 1. cbn [bind path]. rewrite IH by exact Hb. cbn [bind]. rewrite int8_small by lia. reflexivity. }
  intros n init p H1 H2. split; [|split]; apply G; assumption.
Qed.

Lemma tab_S_shift : forall A n (f : nat -> A), tab (S n) f = f O :: tab n (fun i => f (S i)).
Proof. intros. unfold tab. cbn [seq map]. f_equal. rewrite <- seq_shift, map_map. reflexivity. Qed.

(** The limit controller emits its initial path [limit] times, then the other path. *)
Theorem C47_limit : forall n c, 0 <= l_limit c < 2 ^ 64 -> 0 <= init_path (l_ctr c) < 128 ->
  calls (fun c => Ret (limit_control c)) n (limit_reset c) =
  Ret (tab n (fun k => if Z.of_nat k <? l_limit c then init_path (l_ctr c) else if init_path (l_ctr c) =? 0 then 1 else 0)).
Proof.
  intros n c HL HI. destruct c as [[i p0] lim cnt0]. cbn [l_limit l_ctr init_path] in *. unfold limit_reset. cbn [l_limit l_ctr base_reset init_path]. set (oth := if i =? 0 then 1 else 0). assert (HO : 0 <= oth < 128) by (unfold oth; destruct (i =? 0); lia).
  (* once the other path is taken it stays *)
  assert (AFT : forall n cnt, calls (fun c => Ret (limit_control c)) n (mkLim (mkCtr i oth) lim cnt) = Ret (repeat oth n)).
  { induction n0 as [|n0 IH]; intros cnt; [reflexivity|]. cbn [calls repeat]. unfold limit_control at 1. cbn [l_limit l_counter l_ctr init_path path]. fold oth. replace (if lim <=? cnt then oth else oth) with oth by (destruct (lim <=? cnt); reflexivity). cbn [bind]. rewrite IH. cbn [bind]. rewrite int8_small by lia. reflexivity. }
  assert (REP : forall n m (f : nat -> Z), (forall k, f k = if Z.of_nat (m + k) <? lim then i else oth) -> lim <= Z.of_nat m -> repeat oth n = tab n f).
  { intros n0 m f Hf Hm. apply (eq_tab _ oth); [apply repeat_length|]. intros k Hk. rewrite Hf, (proj2 (Z.ltb_ge _ _)) by lia. rewrite nth_repeat. reflexivity. }
  assert (G : forall n m, Z.of_nat m <= lim -> calls (fun c => Ret (limit_control c)) n (mkLim (mkCtr i i) lim (Z.of_nat m)) = Ret (tab n (fun k => if Z.of_nat (m + k) <? lim then i else oth))).
  { induction n0 as [|n0 IH]; intros m Hm; [reflexivity|]. cbn [calls]. unfold limit_control at 1. cbn [l_limit l_counter l_ctr init_path path]. fold oth. rewrite tab_S_shift. destruct (Z.leb_spec lim (Z.of_nat m)).
    - cbn [bind]. rewrite AFT. cbn [bind]. rewrite int8_small by lia. rewrite (proj2 (Z.ltb_ge _ _)) by lia. f_equal. f_equal. apply (REP n0 (S m)); [intros k; replace (m + S k)%nat with (S m + k)%nat by lia; reflexivity|lia].
    - cbn [bind]. rewrite sz_small by lia. replace (Z.of_nat m + 1) with (Z.of_nat (S m)) by lia. rewrite IH by lia. cbn [bind]. rewrite int8_small by lia. rewrite (proj2 (Z.ltb_lt _ _)) by lia. f_equal. f_equal. apply map_ext. intros k. replace (m + S k)%nat with (S m + k)%nat by lia. reflexivity. }
  exact (G n O ltac:(lia)).
Qed.
(** A new limit controller is as after a reset. *)
Theorem C47_limit_new : forall limit init, limit_reset (new_limit limit init) = new_limit limit init.
Proof. reflexivity. Qed.

(** The cyclic controller emits the paths in turn from the initial path, or from the path that was set. *)
Theorem C47_cyclic : forall n paths init, 0 < paths <= 128 -> 0 <= init < 2 ^ 64 ->
  exists c, new_cyclic paths init = Ret c /\
  calls cyclic_control n c = Ret (tab n (fun k => (init + Z.of_nat k) mod paths)) /\
  (forall c', y_paths c' = paths -> init_path (y_ctr c') = init mod paths -> exists c2, cyclic_reset c' = Ret c2 /\ calls cyclic_control n c2 = Ret (tab n (fun k => (init + Z.of_nat k) mod paths))) /\
  (forall c' p, y_paths c' = paths -> 0 <= p < 2 ^ 64 -> exists c2, cyclic_set_path c' p = Ret c2 /\ calls cyclic_control n c2 = Ret (tab n (fun k => (p + Z.of_nat k) mod paths))).
Proof.
  intros n paths init HP HI. assert (UM : forall a, umod a paths = Ret (a mod paths)) by (intros a; unfold umod; rewrite (proj2 (Z.eqb_neq paths 0)) by lia; reflexivity).
  assert (G : forall n i0 p, 0 <= p <= paths -> calls cyclic_control n (mkCyc (mkCtr i0 p) paths) = Ret (tab n (fun k => (p + Z.of_nat k) mod paths))).
  { induction n0 as [|n0 IH]; intros i0 p Hp; [reflexivity|]. cbn [calls]. unfold cyclic_control at 1. cbn [y_ctr y_paths path init_path]. rewrite UM. cbn [bind]. pose proof (Z.mod_pos_bound p paths ltac:(lia)). rewrite sz_small by lia. rewrite IH by lia. cbn [bind]. rewrite int8_small by lia. rewrite tab_S_shift. f_equal. f_equal; [f_equal; lia|]. apply map_ext. intros k. rewrite <- Z.add_assoc, Zplus_mod_idemp_l. f_equal. lia. }
  assert (G2 : forall i0 p, calls cyclic_control n (mkCyc (mkCtr i0 (p mod paths)) paths) = Ret (tab n (fun k => (p + Z.of_nat k) mod paths))).
  { intros i0 p. pose proof (Z.mod_pos_bound p paths ltac:(lia)). rewrite G by lia. f_equal. apply map_ext. intros k. apply Zplus_mod_idemp_l. }
  eexists. split; [unfold new_cyclic; rewrite UM; reflexivity|]. split; [apply G2|]. split.
  - intros c' E1 E2. unfold cyclic_reset. rewrite E1, E2, UM. cbn [bind]. eexists. split; [reflexivity|]. rewrite Z.mod_mod by lia. apply G2.
  - intros c' p E1 Hp. unfold cyclic_set_path. rewrite E1, UM. cbn [bind]. eexists. split; [reflexivity|]. apply G2.
Qed.
(** The output is an int8: with more than 128 paths, the switcher takes another path. *)
Theorem C47_int8_refuted : exists c, new_cyclic 200 150 = Ret c /\ calls cyclic_control 1 c = Ret [-106] /\
  match commute (mkSwi 200 1 1 1 199) (-106) [7] (repeat [0] 200) with Ret (_, _, p) => p = 110 | _ => False end.
Proof. eexists. split; [reflexivity|]. split; [vm_compute; reflexivity|]. vm_compute. reflexivity. Qed.

(** ** C46: the switcher *)
Definition swi_ok (w : switcher) (n : nat) : Prop := w_n w = Z.of_nat n /\ (0 < n)%nat /\ 0 <= w_path w < Z.of_nat n.

Lemma copy_ok : forall len src dst, length src = len -> length dst = len -> copy_bytes len src dst = Ret src.
Proof. intros len src dst H1 H2. unfold copy_bytes. rewrite (proj2 (Nat.ltb_ge _ _)), (proj2 (Nat.ltb_ge _ _)) by lia. cbn [orb]. rewrite firstn_all2, skipn_all2, app_nil_r by lia. reflexivity. Qed.

(** commute copies the data to the selected output only. *)
Theorem C46_commute : forall w n c data outs, swi_ok w n -> Z.of_nat n <= 2 ^ 64 -> length outs = n -> length data = (w_frames w * w_bytes_commute w)%nat -> (forall i, (i < n)%nat -> length (nth i outs []) = length data) ->
  let p := Z.to_nat ((c mod 2 ^ 64) mod Z.of_nat n) in
  exists w', commute w c data outs = Ret (w', upd outs p data, Z.of_nat p) /\ (p < n)%nat /\ swi_ok w' n /\ w_path w' = Z.of_nat p /\ (0 <= c < Z.of_nat n -> p = Z.to_nat c) /\
    w_frames w' = w_frames w /\ w_bytes_commute w' = w_bytes_commute w /\ w_bytes_select w' = w_bytes_select w.
Proof.
  intros w n c data outs (W1 & W2 & W3) HN HO HD HS p. pose proof (Z.mod_pos_bound (c mod 2 ^ 64) (Z.of_nat n) ltac:(lia)) as B. assert (Hp : (p < n)%nat) by (unfold p; lia). unfold commute, umod, sz. rewrite W1, (proj2 (Z.eqb_neq (Z.of_nat n) 0)) by lia. cbn [bind]. fold p.
  rewrite (rd_ok _ []) by lia. cbn [bind]. rewrite copy_ok by (rewrite ?HS; lia). cbn [bind]. rewrite wr_ok by lia. cbn [bind]. assert (EP : (c mod 2 ^ 64) mod Z.of_nat n = Z.of_nat p) by (unfold p; lia). rewrite EP. eexists. split; [reflexivity|]. split; [exact Hp|]. split; [split; [reflexivity|split; [exact W2|cbn [w_path]; lia]]|]. split; [reflexivity|]. split; [|auto].
  intros Hc. unfold p. rewrite (Z.mod_small c (2 ^ 64)), (Z.mod_small c (Z.of_nat n)) by lia. reflexivity.
Qed.
(** select gives the data of the current path: the last commuted one, or the last input after a reset. *)
Theorem C46_select : forall w n ins out, swi_ok w n -> length ins = n -> length out = (w_frames w * w_bytes_select w)%nat -> (forall i, (i < n)%nat -> length (nth i ins []) = length out) ->
  select w ins out = Ret (nth (Z.to_nat (w_path w)) ins []) /\ swi_ok (swi_reset w) n /\ w_path (swi_reset w) = Z.of_nat (n - 1).
Proof.
  intros w n ins out (W1 & W2 & W3) HI HO HS. unfold select. rewrite (rd_ok _ []) by lia. cbn [bind]. rewrite copy_ok by (rewrite ?HS; lia). split; [reflexivity|]. split; [split; [exact W1|split; [exact W2|cbn; lia]]|cbn; lia].
Qed.

(** ** The loop *)
Section LoopProof.
Variable body : list Z -> list Z.
Variable L : nat.
Hypothesis body_len : forall x, length x = L -> length (body x) = L.
Variable limit : nat.
Hypothesis Hlim : Z.of_nat limit < 2 ^ 64 - 1.

Definition wsw (p : Z) : switcher := mkSwi 2 L L 1 p.
Definition st (inp outp : list (list Z)) (cnt : nat) (p ct : Z) (eo so c0 c1 bo : list Z) : loop_state :=
  mkLoop inp outp (mkIte (Z.of_nat limit) (Z.of_nat cnt)) (wsw p) ct eo so [c0; c1] bo.

Lemma iterate_ok : forall c, (c <= limit)%nat -> iterate (mkIte (Z.of_nat limit) (Z.of_nat c)) = Ret (mkIte (Z.of_nat limit) (Z.of_nat (if (c <? limit)%nat then S c else 0)), if (c <? limit)%nat then 0 else 1).
Proof.
  intros c Hc. unfold iterate, umod. cbn [i_counter i_limit]. rewrite !sz_small by lia. rewrite (proj2 (Z.eqb_neq (Z.of_nat limit + 1) 0)) by lia. cbn [bind]. destruct (Nat.ltb_spec c limit).
  - rewrite (proj2 (Z.ltb_lt _ _)) by lia. rewrite Z.mod_small by lia. replace (Z.of_nat c + 1) with (Z.of_nat (S c)) by lia. reflexivity.
  - assert (c = limit) by lia. subst c. rewrite Z.ltb_irrefl, Z.mod_same by lia. reflexivity.
Qed.

Fixpoint iter (n : nat) (x : list Z) : list Z := match n with O => x | S n' => iter n' (body x) end.
Definition turns (n : nat) : list loop_task := concat (repeat [TSelect; TIterate; TCommute; TBody] n) ++ [TSelect; TIterate; TCommute; TExit].

Lemma select_step : forall inp outp cnt p ct eo so c0 c1 bo, (p = 0 \/ p = 1) -> length eo = L -> length so = L -> length bo = L ->
  loop_step body TSelect (st inp outp cnt p ct eo so c0 c1 bo) = Ret (st inp outp cnt p ct eo (if p =? 0 then bo else eo) c0 c1 bo, 0).
Proof.
  intros inp outp cnt p ct eo so c0 c1 bo Hp H1 H2 H3. unfold loop_step, st. destruct (C46_select (wsw p) 2 [bo; eo] so) as [E _].
  - split; [reflexivity|]. split; [lia|cbn; lia].
  - reflexivity.
  - cbn. lia.
  - intros i Hi. destruct i as [|[|i]]; cbn; lia.
  - rewrite E. cbn [bind w_path wsw]. destruct Hp as [-> | ->]; reflexivity.
Qed.
Lemma commute_step : forall inp outp cnt p ct eo so c0 c1 bo, (p = 0 \/ p = 1) -> (ct = 0 \/ ct = 1) -> length so = L -> length c0 = L -> length c1 = L ->
  loop_step body TCommute (st inp outp cnt p ct eo so c0 c1 bo) = Ret (st inp outp cnt ct ct eo so (if ct =? 0 then so else c0) (if ct =? 0 then c1 else so) bo, ct).
Proof.
  intros inp outp cnt p ct eo so c0 c1 bo Hp Hc H1 H2 H3. unfold loop_step, st, commute, umod. cbn [wsw w_n w_frames w_bytes_commute w_bytes_select]. change (2 =? 0) with false. cbv iota. cbn [bind].
  destruct Hc as [-> | ->].
  - change (sz 0 mod 2) with 0. change (Z.to_nat 0) with 0%nat. cbn [rd nth_error bind]. rewrite copy_ok by lia. reflexivity.
  - change (sz 1 mod 2) with 1. change (Z.to_nat 1) with 1%nat. cbn [rd nth_error bind]. rewrite copy_ok by lia. reflexivity.
Qed.

Lemma exec_plain : forall T S (step : T -> S -> outcome (S * Z)) f g i s t c s1 z, nth i g (mkNode false [] []) = mkNode false [t] [c] -> step t s = Ret (s1, z) ->
  exec_sequence step (Datatypes.S f) g i s = match exec_sequence step f g c s1 with Some (Ret (s2, tr2)) => Some (Ret (s2, t :: tr2)) | x => x end.
Proof. intros T S step f g i s t c s1 z E1 E2. cbn [exec_sequence]. rewrite E1. cbn [n_commute n_tasks n_children run_tasks]. rewrite E2. cbn [bind]. destruct (exec_sequence step f g c s1) as [[[s2 tr2]| |]|]; reflexivity. Qed.
Lemma exec_leaf : forall T S (step : T -> S -> outcome (S * Z)) f g i s t s1 z, nth i g (mkNode false [] []) = mkNode false [t] [] -> step t s = Ret (s1, z) ->
  exec_sequence step (Datatypes.S f) g i s = Some (Ret (s1, [t])).
Proof. intros T S step f g i s t s1 z E1 E2. cbn [exec_sequence]. rewrite E1. cbn [n_commute n_tasks n_children run_tasks]. rewrite E2. reflexivity. Qed.
Lemma exec_commute : forall T S (step : T -> S -> outcome (S * Z)) f g i s t c0 c1 s1 p, nth i g (mkNode false [] []) = mkNode true [t] [c0; c1] -> step t s = Ret (s1, p) -> (p = 0 \/ p = 1) ->
  exec_sequence step (Datatypes.S f) g i s = match exec_sequence step f g (if p =? 0 then c0 else c1) s1 with Some (Ret (s2, tr2)) => Some (Ret (s2, t :: tr2)) | x => x end.
Proof. intros T S step f g i s t c0 c1 s1 p E1 E2 [-> | ->]; cbn [exec_sequence]; rewrite E1; cbn [n_commute n_tasks n_children]; rewrite E2; reflexivity. Qed.

(** from the select node, [r] iterations before the end *)
Lemma loop_from_select : forall r fuel inp outp cnt p ct eo so c0 c1 bo, (cnt + r = limit)%nat -> (4 * r + 4 <= fuel)%nat -> (p = 0 \/ p = 1) ->
  length eo = L -> length so = L -> length c0 = L -> length c1 = L -> length bo = L ->
  exists so' c0' bo', length so' = L /\ length c0' = L /\ length bo' = L /\
  exec_sequence (loop_step body) fuel loop_graph 1 (st inp outp cnt p ct eo so c0 c1 bo) =
  Some (Ret (st inp (outp ++ [iter r (if p =? 0 then bo else eo)]) 0 1 1 eo so' c0' (iter r (if p =? 0 then bo else eo)) bo', turns r)).
Proof.
  induction r as [|r IH]; intros fuel inp outp cnt p ct eo so c0 c1 bo HC HF Hp LE LS L0 L1 LB; (destruct fuel as [|[|[|[|fuel]]]]; [lia..|]); set (v := if p =? 0 then bo else eo); assert (LV : length v = L) by (unfold v; destruct (p =? 0); assumption).
  - exists v, c0, bo. split; [exact LV|]. split; [exact L0|]. split; [exact LB|].
    rewrite (exec_plain _ _ (loop_step body) _ loop_graph 1 _ TSelect 2 _ 0 eq_refl (select_step inp outp cnt p ct eo so c0 c1 bo Hp LE LS LB)). fold v.
    assert (EI : loop_step body TIterate (st inp outp cnt p ct eo v c0 c1 bo) = Ret (st inp outp 0 p 1 eo v c0 c1 bo, 0)). { unfold loop_step, st. rewrite iterate_ok by lia. rewrite (proj2 (Nat.ltb_ge cnt limit)) by lia. reflexivity. }
    rewrite (exec_plain _ _ (loop_step body) _ loop_graph 2 _ TIterate 3 _ 0 eq_refl EI).
    rewrite (exec_commute _ _ (loop_step body) _ loop_graph 3 _ TCommute 4 5 _ 1 eq_refl (commute_step inp outp 0 p 1 eo v c0 c1 bo Hp (or_intror eq_refl) LV L0 L1) (or_intror eq_refl)). change (1 =? 0) with false. cbv iota.
    rewrite (exec_leaf _ _ (loop_step body) _ loop_graph 5 _ TExit (st inp (outp ++ [v]) 0 1 1 eo v c0 v bo) 0 eq_refl) by reflexivity. reflexivity.
  - rewrite (exec_plain _ _ (loop_step body) _ loop_graph 1 _ TSelect 2 _ 0 eq_refl (select_step inp outp cnt p ct eo so c0 c1 bo Hp LE LS LB)). fold v.
    assert (EI : loop_step body TIterate (st inp outp cnt p ct eo v c0 c1 bo) = Ret (st inp outp (S cnt) p 0 eo v c0 c1 bo, 0)). { unfold loop_step, st. rewrite iterate_ok by lia. rewrite (proj2 (Nat.ltb_lt cnt limit)) by lia. reflexivity. }
    rewrite (exec_plain _ _ (loop_step body) _ loop_graph 2 _ TIterate 3 _ 0 eq_refl EI).
    rewrite (exec_commute _ _ (loop_step body) _ loop_graph 3 _ TCommute 4 5 _ 0 eq_refl (commute_step inp outp (S cnt) p 0 eo v c0 c1 bo Hp (or_introl eq_refl) LV L0 L1) (or_introl eq_refl)). change (0 =? 0) with true. cbv iota.
    assert (EB : loop_step body TBody (st inp outp (S cnt) 0 0 eo v v c1 bo) = Ret (st inp outp (S cnt) 0 0 eo v v c1 (body v), 0)) by reflexivity.
    rewrite (exec_plain _ _ (loop_step body) _ loop_graph 4 _ TBody 1 _ 0 eq_refl EB).
    destruct (IH fuel inp outp (S cnt) 0 0 eo v v c1 (body v) ltac:(lia) ltac:(lia) (or_introl eq_refl) LE LV LV L1 (body_len v LV)) as (so' & c0' & bo' & A1 & A2 & A3 & E). change (0 =? 0) with true in E. cbv iota in E. rewrite E. exists so', c0', bo'. repeat split; try assumption.
Qed.

Lemma iter_len : forall n x, length x = L -> length (iter n x) = L.
Proof. induction n as [|n IH]; intros x H; [exact H|]. cbn [iter]. apply IH, body_len, H. Qed.

(** One execution of the graph, whether or not the switcher was reset: after the loop its path is the last input again *)
Lemma loop_round : forall fuel x inp outp ct eo so c0 c1 bo, (4 * limit + 5 <= fuel)%nat -> length x = L -> length so = L -> length c0 = L -> length c1 = L -> length bo = L ->
  exists so' c0' bo', length so' = L /\ length c0' = L /\ length bo' = L /\
  exec_sequence (loop_step body) fuel loop_graph 0 (st (x :: inp) outp 0 1 ct eo so c0 c1 bo) = Some (Ret (st inp (outp ++ [iter limit x]) 0 1 1 x so' c0' (iter limit x) bo', TEntry :: turns limit)).
Proof.
  intros fuel x inp outp ct eo so c0 c1 bo HF LX LS L0 L1 LB. destruct fuel as [|fuel]; [lia|].
  destruct (loop_from_select limit fuel inp outp 0 1 ct x so c0 c1 bo ltac:(lia) ltac:(lia) (or_intror eq_refl) LX LS L0 L1 LB) as (so' & c0' & bo' & A1 & A2 & A3 & E). exists so', c0', bo'. split; [exact A1|]. split; [exact A2|]. split; [exact A3|].
  rewrite (exec_plain _ _ (loop_step body) _ loop_graph 0 (st (x :: inp) outp 0 1 ct eo so c0 c1 bo) TEntry 1 (st inp outp 0 1 ct x so c0 c1 bo) 0 eq_refl eq_refl). rewrite E. reflexivity.
Qed.

Lemma loop_rounds : forall xs fuel outp p ct eo so c0 c1 bo, (4 * limit + 5 <= fuel)%nat -> Forall (fun x => length x = L) xs -> length so = L -> length c0 = L -> length c1 = L -> length bo = L ->
  exists s', rounds body (length xs) fuel (st xs outp 0 p ct eo so c0 c1 bo) = Some (Ret (s', concat (repeat (TEntry :: turns limit) (length xs)))) /\ outputs s' = outp ++ map (iter limit) xs.
Proof.
  induction xs as [|x xs IH]; intros fuel outp p ct eo so c0 c1 bo HF HX LS L0 L1 LB.
  - eexists. split; [reflexivity|]. cbn. rewrite app_nil_r. reflexivity.
  - inversion HX as [|? ? LX HX']; subst. cbn [length rounds]. change (reset_switchers (st (x :: xs) outp 0 p ct eo so c0 c1 bo)) with (st (x :: xs) outp 0 1 ct eo so c0 c1 bo).
    destruct (loop_round fuel x xs outp ct eo so c0 c1 bo HF LX LS L0 L1 LB) as (so' & c0' & bo' & A1 & A2 & A3 & E). rewrite E.
    destruct (IH fuel (outp ++ [iter limit x]) 1 1 x so' c0' (iter limit x) bo' HF HX' A1 A2 (iter_len limit x LX) A3) as (s' & E2 & O). rewrite E2. exists s'. split; [reflexivity|]. rewrite O, <- app_assoc. reflexivity.
Qed.
End LoopProof.

(** C46: each round executes the body exactly [limit] times and sends the result to the exit, whatever the number of rounds.
    [fresh] is the state of new modules with memory of L bytes for each socket. *)
Definition fresh_loop (limit L : nat) (xs : list (list Z)) (w : switcher) : loop_state :=
  mkLoop xs [] (new_iterator (Z.of_nat limit)) w 0 (repeat 0 L) (repeat 0 L) [repeat 0 L; repeat 0 L] (repeat 0 L).
Theorem C46_loop : forall (body : list Z -> list Z) L limit w xs, (0 < L)%nat -> Z.of_nat limit < 2 ^ 64 - 1 -> (forall x, length x = L -> length (body x) = L) -> new_switcher 2 L 1 L 1 = Ret w -> Forall (fun x => length x = L) xs ->
  exists fuel0, forall fuel, (fuel0 <= fuel)%nat ->
  exists s, rounds body (length xs) fuel (fresh_loop limit L xs w) =
    Some (Ret (s, concat (map (fun _ => [TEntry] ++ concat (repeat [TSelect; TIterate; TCommute; TBody] limit) ++ [TSelect; TIterate; TCommute; TExit]) xs))) /\
  outputs s = map (fun x => Nat.iter limit body x) xs.
Proof.
  intros body L limit w xs HL Hlim HB HW HX. unfold new_switcher in HW. cbn [Nat.eqb negb guard bind] in HW. rewrite (proj2 (Nat.eqb_neq L 0)) in HW by lia. cbn [negb guard bind] in HW. injection HW as <-. rewrite Nat.mul_1_r. exists (4 * limit + 5)%nat. intros fuel HF.
  destruct (loop_rounds body L HB limit Hlim xs fuel [] 1 0 (repeat 0 L) (repeat 0 L) (repeat 0 L) (repeat 0 L) (repeat 0 L) HF HX (repeat_length _ _) (repeat_length _ _) (repeat_length _ _) (repeat_length _ _)) as (s' & E & O).
  exists s'. split.
  - unfold fresh_loop, new_iterator. unfold st, wsw in E. change (Z.of_nat 0) with 0 in E. change (Z.of_nat 2 - 1) with 1. rewrite E. do 3 f_equal. clear. induction xs as [|x xs IH]; [reflexivity|]. cbn [length repeat concat map]. f_equal. exact IH.
  - rewrite O. cbn [app]. apply map_ext. intros x. clear. revert x. induction limit as [|n IH]; intros x; [reflexivity|]. cbn [iter]. rewrite IH. clear. induction n as [|n IH]; [reflexivity|]. change (body (Nat.iter n body (body x)) = body (Nat.iter (S n) body x)). rewrite IH. reflexivity.
Qed.

(** The iterator alone: 0 [limit] times then 1, again and again. *)
Theorem C46_iterate : forall n limit, 0 <= limit < 2 ^ 64 - 1 ->
  calls iterate n (new_iterator limit) = Ret (tab n (fun k => if Z.of_nat k mod (limit + 1) <? limit then 0 else 1)).
Proof.
  intros n limit HL. assert (G : forall n m c, c = Z.of_nat m mod (limit + 1) -> calls iterate n (mkIte limit c) = Ret (tab n (fun k => if Z.of_nat (m + k) mod (limit + 1) <? limit then 0 else 1))).
  { induction n0 as [|n0 IH]; intros m c Hc; [reflexivity|]. cbn [calls]. unfold iterate at 1, umod. cbn [i_counter i_limit]. pose proof (Z.mod_pos_bound (Z.of_nat m) (limit + 1) ltac:(lia)). rewrite !sz_small by lia. rewrite (proj2 (Z.eqb_neq (limit + 1) 0)) by lia. cbn [bind].
    rewrite (IH (S m)). 2:{ rewrite Hc, Zplus_mod_idemp_l. f_equal. lia. } cbn [bind]. rewrite tab_S_shift. rewrite Nat.add_0_r, <- Hc. f_equal. f_equal. apply map_ext. intros k. replace (m + S k)%nat with (S m + k)%nat by lia. reflexivity. }
  apply (G n O 0). rewrite Z.mod_0_l by lia. reflexivity.
Qed.
(** The largest limit overflows: the modulo is by zero. *)
Theorem C46_iterate_refuted : iterate (new_iterator (2 ^ 64 - 1)) = Undef.
Proof. reflexivity. Qed.

(** ** Examples *)
Example C46_example : option_map (fun o => match o with Ret (s, tr) => (outputs s, length tr) | _ => ([], O) end)
  (rounds (map (Z.add 1)) 2 30 (fresh_loop 3 2 [[5; 6]; [10; 20]] (mkSwi 2 2 2 1 1))) = Some ([[8; 9]; [13; 23]], 34%nat).
Proof. vm_compute. reflexivity. Qed.
Example C47_example : calls (fun c => Ret (limit_control c)) 5 (new_limit 3 0) = Ret [0; 0; 0; 1; 1] /\ bind (new_cyclic 3 7) (calls cyclic_control 5) = Ret [1; 2; 0; 1; 2].
Proof. split; reflexivity. Qed.
