(** The iterations of the layered decoders, and decoding without noise. *)
From Coq Require Import List Arith Lia Bool ZArith QArith Qabs Qminmax Permutation Lqa.
From Verif Require Import Base WLoops SparseModel SparseSpec SparseProofs LDPCModel LDPCSpec LDPCProps LDPCBPModel LDPCBPSpec LDPCBPProofs LDPCBPGraph LDPCBPFlood LDPCBPLayer.
Import ListNotations.
Local Open Scope nat_scope.

Lemma horizontal_S : forall N M h rnd chk t s, horizontal N M h rnd chk (S t) s = sweep N M h rnd chk (horizontal N M h rnd chk t s).
Proof. intros N M h rnd chk t. induction t; intros s; [reflexivity|]. change (horizontal N M h rnd chk (S (S t)) s) with (horizontal N M h rnd chk (S t) (sweep N M h rnd chk s)). rewrite IHt. reflexivity. Qed.
Lemma vertical_S : forall N M h rnd chk t s, vertical N M h rnd chk (S t) s = vsweep N M h rnd chk (vertical N M h rnd chk t s).
Proof. intros N M h rnd chk t. induction t; intros s; [reflexivity|]. change (vertical N M h rnd chk (S (S t)) s) with (vertical N M h rnd chk (S t) (vsweep N M h rnd chk s)). rewrite IHt. reflexivity. Qed.

Section Load.
Variables (rnd : Q -> Q).
Lemma load_ok : forall Y n, n <= length Y -> exists var, ly_load rnd Y (repeat 0%Q n) = Ret var /\ length var = n /\ forall v, v < n -> nth v var 0%Q = rnd (0 + nth v Y 0)%Q.
Proof.
  intros Y n L. unfold ly_load. rewrite repeat_length.
  match goal with |- context [for_ n ?bb ?ss] => destruct (for_inv _ (fun i var => length var = n /\ (forall v, v < i -> nth v var 0%Q = rnd (0 + nth v Y 0)%Q) /\ (forall v, i <= v < n -> nth v var 0%Q = 0%Q)) n bb ss) as (var & E & LV & I & _) end.
  - rewrite repeat_length. split; auto. split; [intros; lia|]. intros. apply nth_repeat.
  - intros i var Hi (LV & I1 & I2). rewrite (rd_ok _ 0%Q) by lia. cbn [bind]. rewrite (rd_ok _ 0%Q) by lia. cbn [bind]. rewrite wr_ok by lia. eexists. split; [reflexivity|]. rewrite length_upd. split; auto. split.
    + intros v Hv. rewrite nth_upd by lia. destruct (Nat.eqb_spec v i) as [->|]; [|apply I1; lia]. rewrite I2 by lia. reflexivity.
    + intros v Hv. rewrite nth_upd by lia. destruct (Nat.eqb_spec v i); [lia|]. apply I2. lia.
  - eauto.
Qed.
End Load.

Section Loops.
Variables (H : sparse) (N M : nat) (h : nat -> nat -> bool) (rnd : Q -> Q) (chk : list Q -> Q) (r : rule).
Hypothesis OK : sp_ok H N M h.
Hypothesis RP : forall x y, (x == y)%Q -> (rnd x == rnd y)%Q.
Hypothesis SYM : symmetric chk.
Hypothesis RC : computes r chk.
Variable b : bp.
Hypothesis BH : bp_H b = H.
Hypothesis BN : bp_N b = N.
Hypothesis BI : 0 < bp_ite b.
Hypothesis BD : 0 < bp_depth b.
Variable s0 : (nat -> Q) * (nat -> nat -> Q).

Definition code_at (f : nat -> nat -> Q) (t : nat) : Prop := in_code N M h (fun v => negative (f t v)).
Let hz t := horizontal N M h rnd chk t s0.
Let vt t := vertical N M h rnd chk t s0.

Lemma code_neg : forall f var t, (forall v, v < N -> (nth v var 0 == f t v)%Q) -> code_at f t <-> in_code N M h (fun v => neg (nth v var 0%Q)).
Proof. intros f var t E. unfold code_at. apply in_code_ext. intros v Hv. rewrite <- neg_spec. apply neg_ext. symmetry. auto. Qed.

Lemma hl_loop_ok : forall cnt t s valid, at_ly H N M (hz t) (ly_var s) (ly_msg s) -> t + cnt = bp_ite b -> ly_cur s < bp_depth b -> streak (code_at (fun t => fst (hz t))) (ly_cur s) t ->
  exists s' valid' t', hl_loop rnd r b cnt s valid = Ret (s', valid') /\ at_ly H N M (hz t') (ly_var s') (ly_msg s') /\ ly_cur s' < bp_depth b /\ t <= t' <= bp_ite b /\ (0 < cnt -> t < t') /\
    (bp_synd b = true -> forall k, t < k < t' -> ~ stop (code_at (fun t => fst (hz t))) (bp_depth b) k) /\
    (0 < cnt -> (valid' = true <-> bp_synd b = true /\ stop (code_at (fun t => fst (hz t))) (bp_depth b) t')) /\
    (valid' = false -> t' = bp_ite b).
Proof.
  induction cnt; intros t s valid AT EQ CU ST.
  - cbn [hl_loop]. exists s, valid, t. split; auto. split; auto. split; auto. split; [lia|]. split; [lia|]. split; [intros; lia|]. split; [lia|]. intros. lia.
  - cbn [hl_loop]. rewrite BH. destruct (hl_ite_ok H N M h rnd chk r OK RP SYM RC _ _ _ AT) as (var & msg & E & AT'). rewrite E. cbn [bind].
    assert (AT2 : at_ly H N M (hz (S t)) var msg). { unfold hz. rewrite horizontal_S. exact AT'. }
    destruct (bp_synd b) eqn:SY.
    + destruct (check_step b N M h var (code_at (fun t => fst (hz t))) (ly_cur s) t) as (stopped & cur' & E4 & CU' & S1 & S2); auto.
      { rewrite BH. auto. } { destruct AT2; lia. } { apply (code_neg (fun t => fst (hz t))). apply AT2. }
      rewrite E4. cbn [bind]. destruct stopped.
      * destruct (S1 eq_refl) as [-> SP]. exists (mkLY var msg 0), true, (S t). split; auto. split; auto. split; auto. split; [lia|]. split; [lia|]. split; [intros; lia|]. split; [|discriminate]. intros _. tauto.
      * destruct (S2 eq_refl) as [NS ST']. destruct (IHcnt (S t) (mkLY var msg cur') false) as (s' & valid' & t' & EL & A1 & A2 & A3 & A4 & A5 & A6 & A7); auto. { lia. }
        exists s', valid', t'. split; auto. split; auto. split; auto. split; [lia|]. split; [intros; lia|]. split.
        { intros _ k Hk. destruct (Nat.eq_dec k (S t)) as [->|]; auto. apply A5; auto. lia. }
        split; [|auto]. intros _. destruct cnt.
        { cbn [hl_loop] in EL. injection EL as <- <-. assert (t' = S t) by lia. subst t'. split; [discriminate|tauto]. }
        { apply A6. lia. }
    + unfold check_syndrome_soft. rewrite SY. cbn [bind].
      assert (G : forall cnt t s, at_ly H N M (hz t) (ly_var s) (ly_msg s) -> t + cnt = bp_ite b -> ly_cur s < bp_depth b -> exists s', hl_loop rnd r b cnt s false = Ret (s', false) /\ at_ly H N M (hz (bp_ite b)) (ly_var s') (ly_msg s') /\ ly_cur s' < bp_depth b).
      { clear IHcnt t s EQ CU ST AT E AT' AT2 cnt var msg. induction cnt; intros t s AT EQ CU.
        - cbn [hl_loop]. exists s. replace (bp_ite b) with t by lia. auto.
        - cbn [hl_loop]. rewrite BH. destruct (hl_ite_ok H N M h rnd chk r OK RP SYM RC _ _ _ AT) as (var & msg & E & AT'). rewrite E. cbn [bind]. unfold check_syndrome_soft. rewrite SY. cbn [bind].
          apply (IHcnt (S t)); auto; [|lia]. unfold hz. rewrite horizontal_S. exact AT'. }
      destruct (G cnt (S t) (mkLY var msg (ly_cur s))) as (s' & EL & A1 & A2); auto; [lia|]. exists s', false, (bp_ite b). split; auto. split; auto. split; auto. split; [lia|]. split; [lia|]. split; [discriminate|].
      split; auto. intros _. split; intros C; [discriminate|destruct C; discriminate].
Qed.

Lemma hl_decode_ok : forall s, at_ly H N M s0 (ly_var s) (ly_msg s) -> ly_cur s = 0 ->
  exists s' status t, hl_decode rnd r b s = Ret (s', status) /\ at_ly H N M (hz t) (ly_var s') (ly_msg s') /\ ly_cur s' < bp_depth b /\ 1 <= t <= bp_ite b /\
    (bp_synd b = true -> forall k, 1 <= k < t -> ~ stop (code_at (fun t => fst (hz t))) (bp_depth b) k) /\
    (t < bp_ite b -> bp_synd b = true /\ stop (code_at (fun t => fst (hz t))) (bp_depth b) t) /\
    (status = true <-> bp_synd b = true /\ ~ stop (code_at (fun t => fst (hz t))) (bp_depth b) t).
Proof.
  intros s AT CU. unfold hl_decode. destruct (hl_loop_ok (bp_ite b) 0 s true) as (s' & valid & t & E & A1 & A2 & A3 & A4 & A5 & A6 & A7); auto; try lia.
  { rewrite CU. split; [lia|]. split; [intros; lia|left; auto]. }
  rewrite E. cbn [bind]. exists s', (negb valid && bp_synd b), t. split; auto. split; auto. split; auto. split; [lia|]. split; [intros SY k Hk; apply A5; auto; lia|]. specialize (A6 BI). destruct valid.
  - destruct (proj1 A6 eq_refl) as [SY SP]. rewrite SY. cbn [negb andb]. split; auto. split; [discriminate|]. tauto.
  - specialize (A7 eq_refl). split; [lia|]. cbn [negb andb]. split; [intros SY|tauto]. split; auto. intros SP. destruct A6 as [_ A6]. discriminate A6. auto.
Qed.

Hypothesis EXACT : forall x, (rnd x == x)%Q.

Lemma vl_loop_ok : forall o cnt t s, length o = M -> (forall c, c < M -> nth c o 0 = offc H c) ->
  at_ly H N M (vt t) (ly_var s) (ly_msg s) -> t + cnt = bp_ite b -> ly_cur s < bp_depth b -> streak (code_at (fun t => fst (vt t))) (ly_cur s) t ->
  exists s' t', vl_loop rnd r b o cnt s = Ret s' /\ at_ly H N M (vt t') (ly_var s') (ly_msg s') /\ ly_cur s' < bp_depth b /\ t <= t' <= bp_ite b /\ (0 < cnt -> t < t') /\
    (bp_synd b = true -> forall k, t < k < t' -> ~ stop (code_at (fun t => fst (vt t))) (bp_depth b) k) /\
    (t' < bp_ite b -> bp_synd b = true /\ stop (code_at (fun t => fst (vt t))) (bp_depth b) t').
Proof.
  intros o cnt t s LO EO. revert t s. induction cnt; intros t s AT EQ CU ST.
  - cbn [vl_loop]. exists s, t. split; auto. split; auto. split; auto. split; [lia|]. split; [lia|]. split; [intros; lia|]. lia.
  - cbn [vl_loop]. rewrite BH. destruct (vl_ite_ok H N M h rnd chk r OK RP SYM RC EXACT o _ _ _ LO EO AT) as (var & msg & E & AT'). rewrite E. cbn [bind].
    assert (AT2 : at_ly H N M (vt (S t)) var msg). { unfold vt. rewrite vertical_S. exact AT'. }
    destruct (bp_synd b) eqn:SY.
    + destruct (check_step b N M h var (code_at (fun t => fst (vt t))) (ly_cur s) t) as (stopped & cur' & E4 & CU' & S1 & S2); auto.
      { rewrite BH. auto. } { destruct AT2; lia. } { apply (code_neg (fun t => fst (vt t))). apply AT2. }
      rewrite E4. cbn [bind]. destruct stopped.
      * destruct (S1 eq_refl) as [-> SP]. exists (mkLY var msg 0), (S t). split; auto. split; auto. split; auto. split; [lia|]. split; [lia|]. split; [intros; lia|]. auto.
      * destruct (S2 eq_refl) as [NS ST']. destruct (IHcnt (S t) (mkLY var msg cur')) as (s' & t' & EL & A1 & A2 & A3 & A4 & A5 & A6); auto. { lia. }
        exists s', t'. split; auto. split; auto. split; auto. split; [lia|]. split; [intros; lia|]. split; auto.
        intros _ k Hk. destruct (Nat.eq_dec k (S t)) as [->|]; auto. apply A5; auto. lia.
    + unfold check_syndrome_soft. rewrite SY. cbn [bind].
      assert (G : forall cnt t s, at_ly H N M (vt t) (ly_var s) (ly_msg s) -> t + cnt = bp_ite b -> ly_cur s < bp_depth b -> exists s', vl_loop rnd r b o cnt s = Ret s' /\ at_ly H N M (vt (bp_ite b)) (ly_var s') (ly_msg s') /\ ly_cur s' < bp_depth b).
      { clear IHcnt t s EQ CU ST AT E AT' AT2 cnt var msg. induction cnt; intros t s AT EQ CU.
        - cbn [vl_loop]. exists s. replace (bp_ite b) with t by lia. auto.
        - cbn [vl_loop]. rewrite BH. destruct (vl_ite_ok H N M h rnd chk r OK RP SYM RC EXACT o _ _ _ LO EO AT) as (var & msg & E & AT'). rewrite E. cbn [bind]. unfold check_syndrome_soft. rewrite SY. cbn [bind].
          apply (IHcnt (S t)); auto; [|lia]. unfold vt. rewrite vertical_S. exact AT'. }
      destruct (G cnt (S t) (mkLY var msg (ly_cur s))) as (s' & EL & A1 & A2); auto; [lia|]. exists s', (bp_ite b). split; auto. split; auto. split; auto. split; [lia|]. split; [lia|]. split; [discriminate|]. lia.
Qed.

Lemma vl_decode_ok : forall o s, vl_offsets H = Ret o -> at_ly H N M s0 (ly_var s) (ly_msg s) -> ly_cur s = 0 ->
  exists s' t, vl_decode rnd r b o s = Ret (s', false) /\ at_ly H N M (vt t) (ly_var s') (ly_msg s') /\ ly_cur s' < bp_depth b /\ 1 <= t <= bp_ite b /\
    (bp_synd b = true -> forall k, 1 <= k < t -> ~ stop (code_at (fun t => fst (vt t))) (bp_depth b) k) /\
    (t < bp_ite b -> bp_synd b = true /\ stop (code_at (fun t => fst (vt t))) (bp_depth b) t).
Proof.
  intros o s EO AT CU. destruct (offsets_ok H N M h OK) as (o' & EO' & LO & IO). rewrite EO in EO'. injection EO' as <-.
  unfold vl_decode. destruct (vl_loop_ok o (bp_ite b) 0 s) as (s' & t & E & A1 & A2 & A3 & A4 & A5 & A6); auto; try lia.
  { rewrite CU. split; [lia|]. split; [intros; lia|left; auto]. }
  rewrite E. cbn [bind]. exists s', t. split; auto. split; auto. split; auto. split; [lia|]. split; auto.
Qed.

End Loops.

(* ------------------------------------------------------------------ *)
(** * Without noise *)

(** A value that tells the bit or tells nothing. *)
Definition weakly (x : bool) (q : Q) : Prop := if x then (q <= 0)%Q else (0 <= q)%Q.

Lemma tells_weakly : forall x q, tells x q -> weakly x q.
Proof. intros [] q; cbn; apply Qlt_le_weak. Qed.
Lemma weakly_tells : forall x q, weakly x q -> ~ (q == 0)%Q -> tells x q.
Proof. intros [] q; cbn; intros; lra. Qed.
Lemma tells_neg : forall x q, tells x q -> negative q = x.
Proof. intros [] q; cbn; unfold negative; destruct (Qlt_le_dec q 0); intros; auto; lra. Qed.
Lemma weakly_sum : forall x l, Forall (weakly x) l -> weakly x (qsum l).
Proof. intros x l F. induction F; [destruct x; cbn; lra|]. cbn [qsum fold_right]. change (weakly x (x0 + qsum l)%Q). destruct x; cbn in *; lra. Qed.


Section Noiseless.
Variables (N M : nat) (h : nat -> nat -> bool) (rnd : Q -> Q) (chk : list Q -> Q) (x : nat -> bool).
Hypothesis SG : sign_rule chk.
Hypothesis CW : in_code N M h x.

Lemma odd_map : forall (f : nat -> Q) l, (forall w, In w l -> negative (f w) = x w) -> odd_negative (map f l) = fold_right xorb false (map x l).
Proof.
  intros f l. induction l; intros E; [reflexivity|]. unfold odd_negative in *. cbn [map filter fold_right]. rewrite (E a) by (left; auto). rewrite <- IHl by (intros; apply E; right; auto).
  destruct (x a); cbn [length]; [rewrite Nat.odd_succ, <- Nat.negb_odd|]; destruct (Nat.odd _); reflexivity.
Qed.

Lemma xor_perm : forall l l', Permutation l l' -> fold_right xorb false l = fold_right xorb false l'.
Proof. intros l l' P. induction P; cbn [fold_right]; try congruence. rewrite <- !xorb_assoc, (xorb_comm x0 y). auto. Qed.

(** The other bits of a check add up to the bit. *)
Lemma xor_filter : forall (p : nat -> bool) l, fold_right xorb false (map x (filter p l)) = fold_right xorb false (map (fun v => p v && x v) l).
Proof. intros p l. induction l; [reflexivity|]. cbn [filter map fold_right]. destruct (p a); cbn [map fold_right andb]; rewrite IHl, ?xorb_false_l; auto. Qed.
Lemma others_xor : forall v c, v < N -> c < M -> h v c = true -> fold_right xorb false (map x (others v (vars_of N h c))) = x v.
Proof.
  intros v c Hv Hc Hh. assert (P : Permutation (vars_of N h c) (v :: others v (vars_of N h c))).
  { apply NoDup_Permutation.
    - apply NoDup_filter, seq_NoDup.
    - constructor; [unfold others; rewrite filter_In, negb_true_iff, Nat.eqb_neq; tauto|]. apply NoDup_filter, NoDup_filter, seq_NoDup.
    - intros w. unfold others, vars_of. cbn [In]. rewrite !filter_In, in_seq, negb_true_iff, Nat.eqb_neq. destruct (Nat.eq_dec v w) as [->|]; intuition; lia. }
  assert (E := xor_perm _ _ (Permutation_map x P)). cbn [map fold_right] in E. unfold vars_of at 1 in E. rewrite xor_filter in E. specialize (CW c Hc). unfold parity in CW.
  rewrite CW in E. symmetry in E. apply xorb_eq in E. auto.
Qed.

Lemma to_var_weakly : forall (f : nat -> Q) v c, v < N -> c < M -> h v c = true -> (forall w, w < N -> h w c = true -> weakly (x w) (f w)) -> weakly (x v) (chk (map f (others v (vars_of N h c)))).
Proof.
  intros f v c Hv Hc Hh W. set (l := map f (others v (vars_of N h c))). destruct (SG l) as [S1 S2].
  assert (K : Forall (fun q => ~ (q == 0)%Q) l -> odd_negative l = x v).
  { intros F. unfold l. rewrite odd_map; [apply others_xor; auto|]. intros w I. apply tells_neg. unfold l in F. rewrite Forall_map, Forall_forall in F. apply weakly_tells; [|apply F; auto].
    unfold others, vars_of in I. rewrite !filter_In, in_seq in I. apply W; [lia|tauto]. }
  destruct (x v) eqn:X; cbn [weakly].
  - destruct (Qlt_le_dec 0 (chk l)) as [C|C]; auto. destruct (S1 C) as [F O]. rewrite K in O; auto. discriminate.
  - destruct (Qlt_le_dec (chk l) 0) as [C|C]; auto. destruct (S2 C) as [F O]. rewrite K in O; auto. discriminate.
Qed.

Section Flooding.
Hypothesis RN : rounding rnd.
Definition rep (q : Q) : Prop := (rnd q == q)%Q.
Hypothesis CL : forall l, Forall rep l -> rep (chk l).
Variable Y : nat -> Q.
Hypothesis YT : forall v, v < N -> tells (x v) (Y v).
Hypothesis YR : forall v, v < N -> rep (Y v).

Lemma rnd_weakly : forall a q, weakly a q -> weakly a (rnd q).
Proof. destruct RN as (RP & RM & R0 & RI). intros [] q; cbn; intros W; apply RM in W; lra. Qed.

(** A sum is at least each of its terms. *)
Lemma rsum_weakly : forall a l, Forall (weakly a) l -> weakly a (rsum rnd l).
Proof.
  intros a l F. unfold rsum. assert (G : forall l s, Forall (weakly a) l -> weakly a s -> weakly a (fold_left (fun s x => rnd (s + x)%Q) l s)).
  { induction l0; intros s F' W; cbn [fold_left]; auto. inversion F'; subst. apply IHl0; auto. apply rnd_weakly. destruct a; cbn in *; lra. }
  apply G; auto. destruct a; cbn; lra.
Qed.
Lemma rsum_covers : forall a l q, Forall (weakly a) l -> Forall rep l -> In q l -> weakly a (rsum rnd l - q)%Q.
Proof.
  destruct RN as (RP & RM & R0 & RI). intros a l q F. unfold rsum.
  assert (G : forall l s, Forall (weakly a) l -> Forall rep l -> rep s -> weakly a s -> weakly a (fold_left (fun s x => rnd (s + x)%Q) l s - s)%Q /\ forall q, In q l -> weakly a (fold_left (fun s x => rnd (s + x)%Q) l s - q)%Q).
  { clear F l q. induction l; intros s F FR RS W; cbn [fold_left].
    - split; [destruct a; cbn; lra|]. intros q [].
    - inversion F; inversion FR; subst. assert (WS : weakly a (rnd (s + a0))) by (apply rnd_weakly; destruct a; cbn in *; lra).
      destruct (IHl (rnd (s + a0)%Q)) as [G1 G2]; auto; [apply RI|].
      assert (B : weakly a (rnd (s + a0) - s)%Q /\ weakly a (rnd (s + a0) - a0)%Q).
      { unfold rep in *. destruct a; cbn in *.
        - assert (A1 := RM (s + a0)%Q s ltac:(lra)). assert (A2 := RM (s + a0)%Q a0 ltac:(lra)). lra.
        - assert (A1 := RM s (s + a0)%Q ltac:(lra)). assert (A2 := RM a0 (s + a0)%Q ltac:(lra)). lra. }
      split; [destruct a; cbn in *; lra|]. intros q [<-|I]; [destruct a; cbn in *; lra|]. apply G2. auto. }
  intros FR I. apply (G l 0%Q); auto. destruct a; cbn; lra.
Qed.

Definition good (mu : nat -> nat -> Q) : Prop := forall c v, c < M -> v < N -> h v c = true -> weakly (x v) (mu c v) /\ rep (mu c v).

Lemma good_list : forall mu v, good mu -> v < N -> Forall (weakly (x v)) (map (fun c => mu c v) (checks_of M h v)) /\ Forall rep (map (fun c => mu c v) (checks_of M h v)).
Proof. intros mu v G Hv. rewrite !Forall_map, !Forall_forall. unfold checks_of. split; intros c I; rewrite filter_In, in_seq in I; apply G; auto; lia || tauto. Qed.

Lemma posterior_tells : forall mu v, good mu -> v < N -> tells (x v) (posterior M h rnd Y mu v).
Proof.
  destruct RN as (RP & RM & R0 & RI). intros mu v G Hv. destruct (good_list mu v G Hv) as [F1 F2]. assert (W := rsum_weakly _ _ F1). unfold posterior. specialize (YT v Hv). specialize (YR v Hv). unfold rep in YR.
  set (s := rsum rnd _) in *. destruct (x v); cbn in *.
  - assert (A := RM (Y v + s)%Q (Y v) ltac:(lra)). lra.
  - assert (A := RM (Y v) (Y v + s)%Q ltac:(lra)). lra.
Qed.

Lemma to_check_weakly : forall mu v c, good mu -> v < N -> c < M -> h v c = true -> weakly (x v) (to_check M h rnd Y mu v c).
Proof.
  destruct RN as (RP & RM & R0 & RI). intros mu v c G Hv Hc Hh. destruct (good_list mu v G Hv) as [F1 F2]. unfold to_check. apply rnd_weakly. unfold posterior.
  assert (I : In (mu c v) (map (fun c => mu c v) (checks_of M h v))). { apply (in_map (fun c => mu c v)). unfold checks_of. rewrite filter_In, in_seq. split; [lia|auto]. }
  assert (W := rsum_covers _ _ _ F1 F2 I). specialize (YT v Hv). assert (R := proj2 (G c v Hc Hv Hh)). unfold rep in R. set (s := rsum rnd _) in *. destruct (x v); cbn in *.
  - assert (A := RM (Y v + s)%Q (mu c v) ltac:(lra)). lra.
  - assert (A := RM (mu c v) (Y v + s)%Q ltac:(lra)). lra.
Qed.

Lemma messages_good : forall t, good (messages N M h rnd chk Y t).
Proof.
  induction t.
  - intros c v _ _ _. cbn. split; [destruct (x v); cbn; lra|]. apply RN.
  - intros c v Hc Hv Hh. cbn [messages]. unfold to_var. split.
    + apply (to_var_weakly (fun w => to_check M h rnd Y (messages N M h rnd chk Y t) w c)); auto. intros w Hw Hhw. apply to_check_weakly; auto.
    + apply CL. rewrite Forall_map, Forall_forall. intros w _. unfold rep, to_check. apply RN.
Qed.

Theorem flooding_noiseless : forall t v, v < N -> tells (x v) (flooding N M h rnd chk Y t v).
Proof. intros t v Hv. unfold flooding. apply posterior_tells; auto. apply messages_good. Qed.
End Flooding.

Section Layered.
Hypothesis EXACT : forall q, (rnd q == q)%Q.
Variable Y : nat -> Q.
Hypothesis YT : forall v, v < N -> tells (x v) (Y v).

(** The messages weakly tell the bits, and a variable is the sum of its channel value and of its messages. *)
Definition sane (s : (nat -> Q) * (nat -> nat -> Q)) : Prop :=
  (forall c v, c < M -> v < N -> h v c = true -> weakly (x v) (snd s c v)) /\
  (forall v, v < N -> (fst s v == Y v + qsum (map (fun c => snd s c v) (checks_of M h v)))%Q).

Lemma sum_list : forall (mu : nat -> nat -> Q) v, (forall c, c < M -> h v c = true -> weakly (x v) (mu c v)) -> Forall (weakly (x v)) (map (fun c => mu c v) (checks_of M h v)).
Proof. intros mu v F. rewrite Forall_map, Forall_forall. intros c I. unfold checks_of in I. rewrite filter_In, in_seq in I. apply F; [lia|tauto]. Qed.

Lemma sane_tells : forall s v, sane s -> v < N -> tells (x v) (fst s v).
Proof.
  intros s v (W & V) Hv. assert (S := weakly_sum _ _ (sum_list (snd s) v (fun c Hc Hh => W c v Hc Hv Hh))). specialize (V v Hv). specialize (YT v Hv). destruct (x v); cbn in *; lra.
Qed.

Lemma sum_others : forall (f : nat -> Q) c l, NoDup l -> In c l -> (qsum (map f l) == f c + qsum (map f (others c l)))%Q.
Proof.
  intros f c l ND I. assert (P : Permutation l (c :: others c l)).
  { apply NoDup_Permutation; auto.
    - constructor; [unfold others; rewrite filter_In, negb_true_iff, Nat.eqb_neq; tauto|]. apply NoDup_filter; auto.
    - intros w. unfold others. cbn [In]. rewrite filter_In, negb_true_iff, Nat.eqb_neq. destruct (Nat.eq_dec c w) as [->|]; intuition; lia. }
  rewrite (qsum_perm _ _ (Permutation_map f P)). reflexivity.
Qed.

(** What a variable tells a check. *)
Lemma con_tells : forall s c v, sane s -> c < M -> v < N -> h v c = true -> tells (x v) (rnd (fst s v - snd s c v)%Q).
Proof.
  intros s c v (W & V) Hc Hv Hh. assert (I : In c (checks_of M h v)) by (unfold checks_of; rewrite filter_In, in_seq; split; [lia|auto]).
  assert (ND : NoDup (checks_of M h v)) by (apply NoDup_filter, seq_NoDup). assert (E := sum_others (fun c => snd s c v) c _ ND I). cbv beta in E.
  assert (F : Forall (weakly (x v)) (map (fun c => snd s c v) (others c (checks_of M h v)))).
  { rewrite Forall_map, Forall_forall. intros c' I'. unfold others, checks_of in I'. rewrite !filter_In, in_seq in I'. apply W; tauto || lia. }
  apply weakly_sum in F. specialize (V v Hv). specialize (YT v Hv). rewrite E in V. assert (X := EXACT (fst s v - snd s c v)%Q). set (rr := rnd _) in *. set (A := qsum (map (fun c => snd s c v) (others c _))) in *. clearbody rr A. destruct (x v); cbn in *; lra.
Qed.

Lemma qsum_ext : forall (f g : nat -> Q) l, (forall c, In c l -> (f c == g c)%Q) -> (qsum (map f l) == qsum (map g l))%Q.
Proof. intros f g l. induction l; intros E; [reflexivity|]. cbn [map qsum fold_right]. fold (qsum (map f l)). fold (qsum (map g l)). rewrite (E a) by (left; auto). rewrite IHl by (intros; apply E; right; auto). reflexivity. Qed.

Lemma layer_sane : forall c s, c < M -> sane s -> sane (layer N h rnd chk c s).
Proof.
  intros c s Hc SA. assert (SA' := SA). destruct SA' as (W & V). destruct s as [var mu]. unfold layer. cbn [fst snd] in *. set (con v := rnd (var v - mu c v)%Q). set (m v := chk (map con (others v (vars_of N h c)))).
  assert (MW : forall v, v < N -> h v c = true -> weakly (x v) (m v)).
  { intros v Hv Hh. unfold m. apply (to_var_weakly con v c); auto. intros w Hw Hhw. apply tells_weakly. apply (con_tells (var, mu)); auto. }
  split; cbn [fst snd].
  - intros c' v Hc' Hv Hh. destruct (Nat.eqb_spec c' c) as [->|]; [apply MW; auto|apply W; auto].
  - intros v Hv. destruct (h v c) eqn:Hh.
    + assert (I : In c (checks_of M h v)) by (unfold checks_of; rewrite filter_In, in_seq; split; [lia|auto]). assert (ND : NoDup (checks_of M h v)) by (apply NoDup_filter, seq_NoDup).
      rewrite (sum_others _ c _ ND I). rewrite Nat.eqb_refl. assert (QE : (qsum (map (fun c0 => if c0 =? c then m v else mu c0 v) (others c (checks_of M h v))) == qsum (map (fun c => mu c v) (others c (checks_of M h v))))%Q).
      { apply qsum_ext. intros c' I'. unfold others in I'. rewrite filter_In, negb_true_iff in I'. destruct I' as [_ ->]. reflexivity. }
      assert (V' := V v Hv). rewrite (sum_others (fun c => mu c v) c _ ND I) in V'. rewrite EXACT. change (con v + m v == Y v + (m v + qsum (map (fun c0 => if c0 =? c then m v else mu c0 v) (others c (checks_of M h v)))))%Q. rewrite QE.
      assert (EC : (con v == var v - mu c v)%Q) by apply EXACT. rewrite EC, V'. lra.
    + rewrite (V v Hv). apply Qplus_comp; [reflexivity|]. apply qsum_ext. intros c' I'. unfold checks_of in I'. rewrite filter_In in I'. destruct (Nat.eqb_spec c' c) as [->|]; [destruct I'; congruence|reflexivity].
Qed.

Lemma column_sane : forall v s, v < N -> sane s -> sane (column N M h rnd chk v s).
Proof.
  intros v s Hv SA. assert (SA' := SA). destruct SA' as (W & V). destruct s as [var mu]. unfold column. cbn [fst snd] in *. set (m c := chk (map (fun w => rnd (var w - mu c w)%Q) (others v (vars_of N h c)))).
  assert (MW : forall c, c < M -> h v c = true -> weakly (x v) (m c)).
  { intros c Hc Hh. unfold m. apply (to_var_weakly (fun w => rnd (var w - mu c w)%Q) v c); auto. intros w Hw Hhw. apply tells_weakly. apply (con_tells (var, mu)); auto. }
  split; cbn [fst snd].
  - intros c w Hc Hw Hh. destruct (Nat.eqb_spec w v) as [->|]; cbn [andb]; [rewrite Hh; apply MW; auto|apply W; auto].
  - intros w Hw. destruct (Nat.eqb_spec w v) as [->|]; cbn [andb].
    + rewrite EXACT. assert (AS := acc_sum rnd EXACT (fun c => mu c v) m (checks_of M h v) 0%Q). cbv beta in AS. assert (V' := V v Hv).
      assert (QE : (qsum (map (fun c => if h v c then m c else mu c v) (checks_of M h v)) == qsum (map m (checks_of M h v)))%Q).
      { apply qsum_ext. intros c I. unfold checks_of in I. rewrite filter_In in I. destruct I as [_ ->]. reflexivity. }
      change (var v + fold_left (fun acc c => rnd (rnd (acc - mu c v) + m c)) (checks_of M h v) 0 == Y v + qsum (map (fun c => if h v c then m c else mu c v) (checks_of M h v)))%Q. rewrite AS, QE, V'.
      assert (G : forall l, (qsum (map (fun c => m c - mu c v) l) == qsum (map m l) - qsum (map (fun c => mu c v) l))%Q).
      { induction l; cbn [map qsum fold_right]; [lra|]. fold (qsum (map (fun c => m c - mu c v)%Q l)). fold (qsum (map m l)). fold (qsum (map (fun c => mu c v) l)). rewrite IHl. lra. }
      rewrite G. lra.
    + apply V. auto.
Qed.

Lemma sweep_sane : forall s, sane s -> sane (sweep N M h rnd chk s).
Proof.
  intros s SA. unfold sweep. assert (G : forall l s, (forall c, In c l -> c < M) -> sane s -> sane (fold_left (fun s c => layer N h rnd chk c s) l s)).
  { induction l; intros s' I S'; cbn [fold_left]; auto. apply IHl; [intros; apply I; right; auto|]. apply layer_sane; auto. apply I. left. auto. }
  apply G; auto. intros c I. apply in_seq in I. lia.
Qed.
Lemma vsweep_sane : forall s, sane s -> sane (vsweep N M h rnd chk s).
Proof.
  intros s SA. unfold vsweep. assert (G : forall l s, (forall c, In c l -> c < N) -> sane s -> sane (fold_left (fun s v => column N M h rnd chk v s) l s)).
  { induction l; intros s' I S'; cbn [fold_left]; auto. apply IHl; [intros; apply I; right; auto|]. apply column_sane; auto. apply I. left. auto. }
  apply G; auto. intros c I. apply in_seq in I. lia.
Qed.

Lemma start_sane : sane (Y, fun _ _ => 0%Q).
Proof.
  split; cbn [fst snd].
  - intros. destruct (x v); cbn; lra.
  - intros v Hv. assert (G : forall l : list nat, (qsum (map (fun _ => 0%Q) l) == 0)%Q) by (induction l; cbn [map qsum fold_right]; [lra|]; fold (qsum (map (fun _ : nat => 0%Q) l)); rewrite IHl; lra). rewrite G. lra.
Qed.

Theorem horizontal_noiseless : forall t v, v < N -> tells (x v) (fst (horizontal N M h rnd chk t (Y, fun _ _ => 0%Q)) v).
Proof. intros t v Hv. apply sane_tells; auto. clear v Hv. induction t; [apply start_sane|]. rewrite horizontal_S. apply sweep_sane. auto. Qed.
Theorem vertical_noiseless : forall t v, v < N -> tells (x v) (fst (vertical N M h rnd chk t (Y, fun _ _ => 0%Q)) v).
Proof. intros t v Hv. apply sane_tells; auto. clear v Hv. induction t; [apply start_sane|]. rewrite vertical_S. apply vsweep_sane. auto. Qed.
End Layered.
End Noiseless.

(** The min-sum rules send representable values. *)
Lemma rnd_min_sum : forall rnd mx g, rounding rnd -> (forall q, (rnd (- q) == - rnd q)%Q) -> rep rnd mx -> (forall q, rep rnd q -> rep rnd (g q)) -> forall l, Forall (rep rnd) l -> rep rnd (min_sum mx g l).
Proof.
  intros rnd mx g (RP & RM & R0 & RI) OD RX RG l F. unfold rep in *.
  assert (S : (rnd (smallest mx l) == smallest mx l)%Q).
  { unfold smallest. induction F; cbn [map fold_right]; auto. destruct (Q.min_spec (Qabs x) (fold_right Qmin mx (map Qabs l))) as [[_ E]|[_ E]].
    - rewrite (RP _ _ E), E. destruct (Qlt_le_dec x 0) as [L|L]; [rewrite (RP _ _ (Qabs_neg x ltac:(lra))), (Qabs_neg x) by lra; rewrite OD, H; reflexivity|rewrite (RP _ _ (Qabs_pos x L)), (Qabs_pos x L); auto].
    - rewrite (RP _ _ E), E. auto. }
  apply RG in S. unfold min_sum. cbv zeta. assert (K : (rnd (Qmax 0 (g (smallest mx l))) == Qmax 0 (g (smallest mx l)))%Q).
  { destruct (Q.max_spec 0 (g (smallest mx l))) as [[_ E]|[_ E]]; rewrite (RP _ _ E), E; auto. }
  destruct (odd_negative l); auto. rewrite OD, K. reflexivity.
Qed.
