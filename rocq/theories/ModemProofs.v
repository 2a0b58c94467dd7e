(** The loops of the modems (ModemModel.v) for any arithmetic. *)
From Coq Require Import List Arith Lia Bool ZArith QArith Qround Qabs Lqa.
From Verif Require Import Base FloatQ Copy WLoops ModemModel.
From Verif Require NoiseProps.
Import ListNotations.
Local Open Scope nat_scope.

(* ------------------------------------------------------------------ *)
(** * Labels *)

(** The number whose binary digits are cnt bits of X from position o (false outside X). *)
Fixpoint lbl (X : list bool) (o cnt : nat) : nat :=
  match cnt with 0 => 0 | S c => lbl X o c + (if nth (o + c) X false then 2 ^ c else 0) end.

Lemma lbl_lt : forall X o cnt, lbl X o cnt < 2 ^ cnt.
Proof.
  induction cnt as [|c IH]; cbn [lbl]; [cbn; lia|]. rewrite Nat.pow_succ_r'. pose proof (Nat.pow_nonzero 2 c ltac:(lia)).
  destruct (nth (o + c) X false); lia.
Qed.

Lemma testbit_add_pow : forall a c l, a < 2 ^ c -> Nat.testbit (a + 2 ^ c) l = if l =? c then true else Nat.testbit a l.
Proof.
  intros a c l Ha. assert (P : forall n, 2 ^ n <> 0) by (intros; apply Nat.pow_nonzero; lia).
  destruct (Nat.eqb_spec l c) as [->|D].
  - rewrite Nat.testbit_eqb. rewrite <- (Nat.mul_1_l (2 ^ c)) at 1. rewrite Nat.div_add by apply P. rewrite Nat.div_small by auto. reflexivity.
  - destruct (Nat.lt_ge_cases l c) as [L|L].
    + rewrite !Nat.testbit_eqb. replace (2 ^ c) with (2 ^ (c - l) * 2 ^ l) by (rewrite <- Nat.pow_add_r; f_equal; lia).
      rewrite Nat.div_add by apply P. replace (c - l) with (S (c - l - 1)) by lia. rewrite Nat.pow_succ_r'.
      rewrite (Nat.mul_comm 2), Nat.mod_add by lia. reflexivity.
    + assert (B : 2 ^ S c <= 2 ^ l) by (apply Nat.pow_le_mono_r; lia). rewrite Nat.pow_succ_r' in B.
      rewrite !Nat.testbit_eqb. rewrite !Nat.div_small by lia. reflexivity.
Qed.
Lemma testbit_above : forall a c l, a < 2 ^ c -> c <= l -> Nat.testbit a l = false.
Proof.
  intros a c l Ha L. assert (B : 2 ^ c <= 2 ^ l) by (apply Nat.pow_le_mono_r; lia).
  rewrite Nat.testbit_eqb, Nat.div_small by lia. reflexivity.
Qed.

Lemma lbl_bits : forall X o cnt l, Nat.testbit (lbl X o cnt) l = (l <? cnt) && nth (o + l) X false.
Proof.
  induction cnt as [|c IH]; intros l; cbn [lbl]; [apply Nat.bits_0|].
  pose proof (lbl_lt X o c) as B. destruct (nth (o + c) X false) eqn:E.
  - rewrite testbit_add_pow by auto. rewrite IH. destruct (Nat.eqb_spec l c) as [->|D].
    + rewrite E. destruct (Nat.ltb_spec c (S c)); [auto|lia].
    + destruct (Nat.ltb_spec l c), (Nat.ltb_spec l (S c)); auto; lia.
  - rewrite Nat.add_0_r, IH. destruct (Nat.ltb_spec l c), (Nat.ltb_spec l (S c)); auto; try lia.
    replace l with c by lia. rewrite E. auto.
Qed.
Lemma lbl_pad : forall X o r cnt, length X <= o + r -> r <= cnt -> lbl X o cnt = lbl X o r.
Proof.
  intros X o r cnt L H. induction cnt as [|c IH]; [replace r with 0 by lia; auto|].
  destruct (Nat.eq_dec r (S c)) as [->|D]; auto. cbn [lbl]. rewrite nth_overflow by lia. rewrite Nat.add_0_r. apply IH. lia.
Qed.

Lemma index_ok : forall X o cnt, o + cnt <= length X -> index X o cnt = Ret (lbl X o cnt).
Proof.
  intros X o cnt H. unfold index.
  destruct (for_inv _ (fun t s => s = lbl X o t) cnt
    (fun j idx => x <- rd X (o + j) ;; Ret (idx + (if x : bool then 2 ^ j else 0))) 0) as (s & E & I).
  - reflexivity.
  - intros i s Hi ->. rewrite (rd_ok _ false) by lia. cbn [bind]. eexists. split; reflexivity.
  - rewrite E, I. reflexivity.
Qed.

(* ------------------------------------------------------------------ *)
(** * Sizes *)

(** The number of symbols for N bits. *)
Definition msize (N bps : nat) : nat := (N + bps - 1) / bps.

Lemma msize_eq : forall N bps, 0 < bps -> msize N bps = N / bps + (if N / bps * bps <? N then 1 else 0).
Proof.
  intros N bps H. unfold msize. pose proof (Nat.div_mod N bps ltac:(lia)) as D. pose proof (Nat.mod_upper_bound N bps ltac:(lia)) as B.
  set (q := N / bps) in *. set (r := N mod bps) in *. destruct (Nat.ltb_spec (q * bps) N) as [L|L].
  - symmetry. apply (Nat.div_unique _ _ _ (r - 1)); nia.
  - symmetry. apply (Nat.div_unique _ _ _ (bps - 1)); nia.
Qed.
Lemma msize_pos : forall N bps, 0 < bps -> 0 < N -> 0 < msize N bps.
Proof. intros N bps H HN. unfold msize. apply Nat.div_str_pos. lia. Qed.
Lemma msize_bounds : forall N bps, 0 < bps -> 0 < N -> (msize N bps - 1) * bps < N <= msize N bps * bps.
Proof.
  intros N bps H HN. unfold msize. pose proof (Nat.div_mod (N + bps - 1) bps ltac:(lia)) as D.
  pose proof (Nat.mod_upper_bound (N + bps - 1) bps ltac:(lia)) as B. assert (0 < (N + bps - 1) / bps) by (apply Nat.div_str_pos; lia).
  set (q := (N + bps - 1) / bps) in *. set (r := (N + bps - 1) mod bps) in *. nia.
Qed.
Lemma div_lt_msize : forall N bps n, 0 < bps -> n < N -> n / bps < msize N bps.
Proof.
  intros N bps n H HN. apply Nat.div_lt_upper_bound; [lia|]. pose proof (msize_bounds N bps H ltac:(lia)). nia.
Qed.

Lemma ceiling_between : forall x z, (inject_Z z - 1 < x <= inject_Z z)%Q -> Qceiling x = z.
Proof.
  intros x z [H1 H2]. pose proof (Qle_ceiling x) as C1. pose proof (Qceiling_lt x) as C2.
  apply Z.le_antisymm.
  - assert (L : (inject_Z (Qceiling x - 1) < inject_Z z)%Q) by (eapply Qlt_le_trans; eassumption). apply inject_lt in L. lia.
  - assert (L : (inject_Z (z - 1) < inject_Z (Qceiling x))%Q).
    { unfold Z.sub. rewrite inject_Z_plus, inject_Z_opp. change (inject_Z 1) with 1%Q. lra. }
    apply inject_lt in L. lia.
Qed.

Lemma n_mod_ok : forall N bps cplx, 0 < bps -> 0 < N -> (Z.of_nat N < 2 ^ 24)%Z -> (Z.of_nat bps <= 2 ^ 24)%Z ->
  n_mod N bps cplx = msize N bps * (if cplx then 2 else 1).
Proof.
  intros N bps cplx Hb HN HL HB. unfold n_mod.
  assert (F1 : (fl 24 (inject_Z (Z.of_nat N)) == inject_Z (Z.of_nat N))%Q) by (apply fl_exact; [reflexivity|apply holds_Z; lia]).
  assert (F2 : (fl 24 (inject_Z (Z.of_nat bps)) == inject_Z (Z.of_nat bps))%Q) by (apply fl_exact; [reflexivity|apply holds_Z; lia]).
  set (q := (fl 24 (inject_Z (Z.of_nat N)) / fl 24 (inject_Z (Z.of_nat bps)))%Q).
  set (NN := inject_Z (Z.of_nat N)) in *. set (BB := inject_Z (Z.of_nat bps)) in *.
  assert (Bp : (0 < BB)%Q) by (unfold BB; change 0%Q with (inject_Z 0); rewrite <- Zlt_Qlt; lia).
  assert (Np : (0 < NN)%Q) by (unfold NN; change 0%Q with (inject_Z 0); rewrite <- Zlt_Qlt; lia).
  assert (Eq : (q * BB == NN)%Q) by (unfold q; rewrite F1, F2; field; lra).
  assert (qp : (0 < q)%Q) by (unfold q; rewrite F1, F2; apply Qlt_shift_div_l; lra).
  pose proof (msize_bounds N bps Hb HN) as [M1 M2]. pose proof (msize_pos N bps Hb HN) as M0. set (c := msize N bps) in *.
  assert (NL : (NN < inject_Z (2 ^ 24))%Q) by (unfold NN; rewrite <- Zlt_Qlt; exact HL).
  pose proof (NoiseProps.fl_err 24 q ltac:(reflexivity)) as FE. rewrite (Qabs_pos q) in FE by lra.
  assert (P24 : (2 ^ (-24) == / inject_Z (2 ^ 24))%Q) by reflexivity. rewrite P24 in FE.
  assert (SM : (q * / inject_Z (2 ^ 24) * BB < 1)%Q).
  { setoid_replace (q * / inject_Z (2 ^ 24) * BB)%Q with (NN / inject_Z (2 ^ 24))%Q.
    - apply Qlt_shift_div_r; [reflexivity|]. lra.
    - rewrite <- Eq. field. intros E. discriminate E. }
  apply Qabs_Qle_condition in FE. destruct FE as [FE1 FE2].
  set (e := (q * / inject_Z (2 ^ 24))%Q) in *.
  assert (Cc : Qceiling (fl 24 q) = Z.of_nat c).
  { apply ceiling_between. assert (C1 : ((inject_Z (Z.of_nat c) - 1) * BB + 1 <= NN)%Q).
    { unfold BB, NN. change 1%Q with (inject_Z 1) at 1 2. unfold Qminus. rewrite <- inject_Z_opp, <- inject_Z_plus, <- inject_Z_mult, <- inject_Z_plus, <- Zle_Qle. nia. }
    assert (C2 : (NN == inject_Z (Z.of_nat c) * BB \/ NN + 1 <= inject_Z (Z.of_nat c) * BB)%Q).
    { unfold BB, NN. change 1%Q with (inject_Z 1). rewrite <- inject_Z_mult, <- inject_Z_plus, <- Zle_Qle.
      destruct (Nat.eq_dec N (c * bps)) as [EN|D]; [left; rewrite EN, Nat2Z.inj_mul; reflexivity|right; nia]. }
    split.
    - assert (L : ((inject_Z (Z.of_nat c) - 1) * BB < fl 24 q * BB)%Q) by nra. apply Qmult_lt_r in L; auto.
    - destruct C2 as [C2|C2].
      + assert (Ec : (q == inject_Z (Z.of_nat c))%Q).
        { apply (Qmult_inj_r _ _ BB); [lra|]. rewrite Eq, C2. reflexivity. }
        apply fl_le; [reflexivity| |rewrite Ec; apply Qle_refl]. apply holds_Z. assert (c <= N) by nia. lia.
      + assert (L : (fl 24 q * BB <= inject_Z (Z.of_nat c) * BB)%Q) by nra. apply Qmult_le_r in L; auto. }
  rewrite Cc. destruct cplx; lia.
Qed.

Section WithArith.
Variable A : arith.
Notation T := (num A).
Notation C := (num A * num A)%type.
Notation zero := (ofZ A 0%Z).

(* ------------------------------------------------------------------ *)
(** * Modulation *)

(** The symbol k of a frame. *)
Definition sym_of (c : cstl A) (X : list bool) (k : nat) : C := nth (lbl X (k * c_bps A c) (c_bps A c)) (c_sym A c) (zero, zero).

Lemma modulate_real_ok : forall m X X2, 0 < c_bps A (m_c A m) -> length (c_sym A (m_c A m)) = 2 ^ c_bps A (m_c A m) ->
  0 < m_N A m -> length X = m_N A m -> m_Nmod A m = msize (m_N A m) (c_bps A (m_c A m)) -> length X2 = m_Nmod A m ->
  modulate_real A m X X2 = Ret (tab (m_Nmod A m) (fun k => fst (sym_of (m_c A m) X k))).
Proof.
  intros m X X2 Hb Hs HN HX Hm H2. unfold modulate_real, sym_of. set (c := m_c A m) in *. set (bps := c_bps A c) in *.
  set (N := m_N A m) in *. set (ls := N / bps).
  pose proof (Nat.div_mod N bps ltac:(lia)) as D. pose proof (Nat.mod_upper_bound N bps ltac:(lia)) as B. fold ls in D.
  rewrite msize_eq in Hm by auto. fold ls in Hm.
  destruct (for_write1 T zero (fun k => fst (nth (lbl X (k * bps) bps) (c_sym A c) (zero, zero))) (fun i => i) ls
    (fun i X2 => idx <- index X (i * bps) bps ;; s <- rd (c_sym A c) idx ;; wr X2 i (fst s)) X2) as (x & E & L & I).
  { intros i x Hi Hx. split; [destruct (ls * bps <? N); lia|]. rewrite index_ok by nia. cbn [bind].
    rewrite (rd_ok _ (zero, zero)) by (rewrite Hs; apply lbl_lt). reflexivity. }
  rewrite E. cbn [bind]. destruct (Nat.ltb_spec (ls * bps) N) as [LT|GE].
  - rewrite index_ok by nia. cbn [bind].
    rewrite (rd_ok _ (zero, zero)). 2:{ rewrite Hs. eapply Nat.lt_le_trans; [apply lbl_lt|]. apply Nat.pow_le_mono_r; nia. }
    cbn [bind]. rewrite wr_ok by lia. f_equal. apply (eq_tab _ zero); [rewrite length_upd; lia|]. intros q Hq.
    rewrite nth_upd by lia. destruct (Nat.eqb_spec q (m_Nmod A m - 1)) as [->|Dq].
    + replace (m_Nmod A m - 1) with ls by lia. do 2 f_equal. symmetry. apply lbl_pad; nia.
    + apply I; [lia|]. exists q. split; auto; lia.
  - f_equal. apply (eq_tab _ zero); [lia|]. intros q Hq. apply I; [lia|]. exists q. split; auto; lia.
Qed.

Lemma div2_odd : forall i, (2 * i + 1) / 2 = i.
Proof. intros. symmetry. apply (Nat.div_unique _ _ _ 1); lia. Qed.
Lemma div2_even : forall i, 2 * i / 2 = i.
Proof. intros. symmetry. apply (Nat.div_unique _ _ _ 0); lia. Qed.
Lemma even_2 : forall i, Nat.even (2 * i) = true.
Proof. intros. apply Nat.even_spec. exists i. lia. Qed.
Lemma even_21 : forall i, Nat.even (2 * i + 1) = false.
Proof. intros. rewrite Nat.add_1_r, Nat.even_succ, <- Nat.negb_even, even_2. reflexivity. Qed.
Lemma half_cases : forall q, q = 2 * (q / 2) \/ q = 2 * (q / 2) + 1.
Proof. intros q. pose proof (Nat.div_mod q 2 ltac:(lia)). pose proof (Nat.mod_upper_bound q 2 ltac:(lia)). lia. Qed.

(** The two parts of complex numbers in an array. *)
Definition parts (f : nat -> C) (q : nat) : T := if Nat.even q then fst (f (q / 2)) else snd (f (q / 2)).
Lemma parts_even : forall f i, parts f (2 * i) = fst (f i).
Proof. intros. unfold parts. rewrite even_2, div2_even. reflexivity. Qed.
Lemma parts_odd : forall f i, parts f (2 * i + 1) = snd (f i).
Proof. intros. unfold parts. rewrite even_21, div2_odd. reflexivity. Qed.

Lemma modulate_complex_ok : forall m X X2, 0 < c_bps A (m_c A m) -> length (c_sym A (m_c A m)) = 2 ^ c_bps A (m_c A m) ->
  0 < m_N A m -> length X = m_N A m -> m_Nmod A m = msize (m_N A m) (c_bps A (m_c A m)) * 2 -> length X2 = m_Nmod A m ->
  modulate_complex A m X X2 = Ret (tab (m_Nmod A m) (parts (sym_of (m_c A m) X))).
Proof.
  intros m X X2 Hb Hs HN HX Hm H2. unfold modulate_complex. set (f := sym_of (m_c A m) X).
  assert (Ef : forall k, f k = nth (lbl X (k * c_bps A (m_c A m)) (c_bps A (m_c A m))) (c_sym A (m_c A m)) (zero, zero)) by reflexivity.
  clearbody f. set (c := m_c A m) in *. set (bps := c_bps A c) in *.
  set (N := m_N A m) in *. set (ls := N / bps).
  pose proof (Nat.div_mod N bps ltac:(lia)) as D. pose proof (Nat.mod_upper_bound N bps ltac:(lia)) as B. fold ls in D.
  rewrite msize_eq in Hm by auto. fold ls in Hm.
  destruct (for_write2 T zero (parts f) (fun i => 2 * i) (fun i => 2 * i + 1) ls
    (fun i X2 => idx <- index X (i * bps) bps ;; s <- rd (c_sym A c) idx ;;
       X2 <- wr X2 (2 * i) (fst s) ;; wr X2 (2 * i + 1) (snd s)) X2) as (x & E & L & I).
  { intros i x Hi Hx. split; [destruct (ls * bps <? N); lia|]. split; [destruct (ls * bps <? N); lia|]. rewrite index_ok by nia. cbn [bind].
    rewrite (rd_ok _ (zero, zero)) by (rewrite Hs; apply lbl_lt). rewrite parts_even, parts_odd, !Ef. reflexivity. }
  rewrite E. cbn [bind]. destruct (Nat.ltb_spec (ls * bps) N) as [LT|GE].
  - rewrite index_ok by nia. cbn [bind].
    rewrite (rd_ok _ (zero, zero)). 2:{ rewrite Hs. eapply Nat.lt_le_trans; [apply lbl_lt|]. apply Nat.pow_le_mono_r; nia. }
    cbn [bind]. rewrite wr_ok by lia. cbn [bind]. rewrite wr_ok by (rewrite length_upd; lia). f_equal.
    assert (EL : lbl X (ls * bps) (N - ls * bps) = lbl X (ls * bps) bps) by (symmetry; apply lbl_pad; nia).
    apply (eq_tab _ zero); [rewrite !length_upd; lia|]. intros q Hq.
    rewrite nth_upd by (rewrite length_upd; lia). destruct (Nat.eqb_spec q (m_Nmod A m - 1)) as [->|Dq].
    + replace (m_Nmod A m - 1) with (2 * ls + 1) by lia. rewrite parts_odd, Ef, EL. reflexivity.
    + rewrite nth_upd by lia. destruct (Nat.eqb_spec q (m_Nmod A m - 2)) as [->|Dq2].
      * replace (m_Nmod A m - 2) with (2 * ls) by lia. rewrite parts_even, Ef, EL. reflexivity.
      * apply I; [lia|]. exists (q / 2). pose proof (half_cases q). split; lia.
  - f_equal. apply (eq_tab _ zero); [lia|]. intros q Hq. apply I; [lia|]. exists (q / 2). pose proof (half_cases q). split; lia.
Qed.

(* ------------------------------------------------------------------ *)
(** * LLRs *)

(** The finite values of the symbols with property P. *)
Definition gather (P : nat -> bool) (v : nat -> option T) (n : nat) : list T :=
  flat_map (fun j => if P j then match v j with Some x => [x] | None => [] end else []) (seq 0 n).
Definition fold1 (MAX : T -> T -> T) (l : list T) : option T :=
  match l with [] => None | x :: r => Some (fold_left MAX r x) end.

Lemma gather_S : forall P v n, gather P v (S n) = gather P v n ++ (if P n then match v n with Some x => [x] | None => [] end else []).
Proof. intros. unfold gather. rewrite seq_S, flat_map_app. cbn [flat_map Nat.add]. rewrite app_nil_r. reflexivity. Qed.
Lemma fold1_snoc : forall MAX l x, fold1 MAX (l ++ [x]) = match fold1 MAX l with Some y => Some (MAX y x) | None => Some x end.
Proof. intros MAX [|y l] x; cbn [fold1 app]; auto. rewrite fold_left_app. reflexivity. Qed.
Lemma gather_In : forall P v n x, In x (gather P v n) <-> exists j, j < n /\ P j = true /\ v j = Some x.
Proof.
  intros. unfold gather. rewrite in_flat_map. split.
  - intros (j & Hj & H). apply in_seq in Hj. exists j. destruct (P j); [|destruct H]. destruct (v j); [|destruct H].
    destruct H as [->|[]]. split; [lia|]. auto.
  - intros (j & Hj & HP & E). exists j. split; [apply in_seq; lia|]. rewrite HP, E. left. reflexivity.
Qed.
Lemma gather_some : forall MAX P v n j, j < n -> P j = true -> v j <> None -> fold1 MAX (gather P v n) <> None.
Proof.
  intros MAX P v n j Hj HP Hv. destruct (v j) as [x|] eqn:E; [|congruence].
  assert (I : In x (gather P v n)) by (apply gather_In; exists j; auto). destruct (gather P v n); [destruct I|discriminate].
Qed.

Lemma testbit_first : forall j b, Nat.testbit j b = true -> 2 ^ b <= j.
Proof.
  intros j b H. destruct (Nat.lt_ge_cases j (2 ^ b)) as [L|L]; auto. rewrite (testbit_above j b b) in H by lia. discriminate.
Qed.
Lemma testbit_pow2 : forall b l, Nat.testbit (2 ^ b) l = (l =? b).
Proof. intros. rewrite Nat.pow2_bits_eqb. apply Nat.eqb_sym. Qed.

Lemma llr_ok : forall MAX n b metric v, 2 ^ b < n -> (forall j, j < n -> metric j = Ret (v j)) -> v 0 <> None -> v (2 ^ b) <> None ->
  exists x0 r0 x1 r1,
    gather (fun j => negb (Nat.testbit j b)) v n = x0 :: r0 /\ gather (fun j => Nat.testbit j b) v n = x1 :: r1 /\
    llr A MAX n b metric = Ret (sub A (fold_left MAX r0 x0) (fold_left MAX r1 x1)).
Proof.
  intros MAX n b metric v Hb Hm H0 H1. unfold llr.
  pose proof (Nat.pow_nonzero 2 b ltac:(lia)) as PB.
  match goal with |- context [for_ n ?body _] =>
    destruct (for_inv _ (fun t '(L0, L1) => L0 = fold1 MAX (gather (fun j => negb (Nat.testbit j b)) v t) /\
      L1 = fold1 MAX (gather (fun j => Nat.testbit j b) v t)) n body (None, None)) as ([L0 L1] & E & I0 & I1) end.
  - split; reflexivity.
  - intros t [L0 L1] Ht [I0 I1]. rewrite Hm by auto. cbn [bind]. rewrite !gather_S. destruct (Nat.testbit t b) eqn:EB; cbn [negb].
    + assert (X : exists r, vmax A MAX L1 (v t) = Ret r /\ r = fold1 MAX (gather (fun j => Nat.testbit j b) v t ++ match v t with Some x => [x] | None => [] end)).
      { destruct (v t) as [x|] eqn:EV.
        - rewrite fold1_snoc, <- I1. destruct L1; eexists; split; reflexivity.
        - rewrite app_nil_r, <- I1. destruct L1 as [y|]; [eexists; split; reflexivity|]. exfalso.
          apply (gather_some MAX (fun j => Nat.testbit j b) v t (2 ^ b)); auto.
          + apply testbit_first in EB. destruct (Nat.eq_dec t (2 ^ b)); [subst; congruence|lia].
          + rewrite testbit_pow2. apply Nat.eqb_refl. }
      destruct X as (r & -> & ->). cbn [bind]. eexists. split; [reflexivity|]. rewrite app_nil_r. auto.
    + assert (X : exists r, vmax A MAX L0 (v t) = Ret r /\ r = fold1 MAX (gather (fun j => negb (Nat.testbit j b)) v t ++ match v t with Some x => [x] | None => [] end)).
      { destruct (v t) as [x|] eqn:EV.
        - rewrite fold1_snoc, <- I0. destruct L0; eexists; split; reflexivity.
        - rewrite app_nil_r, <- I0. destruct L0 as [y|]; [eexists; split; reflexivity|]. exfalso.
          apply (gather_some MAX (fun j => negb (Nat.testbit j b)) v t 0); auto.
          + destruct (Nat.eq_dec t 0); [subst; congruence|lia].
          + rewrite Nat.bits_0. reflexivity. }
      destruct X as (r & -> & ->). cbn [bind]. eexists. split; [reflexivity|]. rewrite app_nil_r. auto.
  - rewrite E. cbn [bind].
    assert (N0 : L0 <> None) by (subst; apply (gather_some MAX _ v n 0); auto; [lia|rewrite Nat.bits_0; reflexivity]).
    assert (N1 : L1 <> None) by (subst; apply (gather_some MAX _ v n (2 ^ b)); auto; rewrite testbit_pow2; apply Nat.eqb_refl).
    destruct (gather (fun j => negb (Nat.testbit j b)) v n) as [|x0 r0]; [exfalso; apply N0; exact I0|].
    destruct (gather (fun j => Nat.testbit j b) v n) as [|x1 r1]; [exfalso; apply N1; exact I1|].
    exists x0, r0, x1, r1. split; auto. split; auto. rewrite I0, I1. reflexivity.
Qed.

(** What the demodulator writes at position n when the symbols have the metrics v. *)
Definition llr_of (MAX : T -> T -> T) (nsymb b : nat) (v : nat -> option T) (r : T) : Prop :=
  exists x0 r0 x1 r1,
    gather (fun j => negb (Nat.testbit j b)) v nsymb = x0 :: r0 /\ gather (fun j => Nat.testbit j b) v nsymb = x1 :: r1 /\
    r = sub A (fold_left MAX r0 x0) (fold_left MAX r1 x1).

Lemma llrs_from_ok : forall MAX lo m metric v Y2, lo <= m_N A m -> 0 < c_bps A (m_c A m) -> length Y2 = m_N A m ->
  (forall n j, n < m_N A m -> j < n_symbs A (m_c A m) ->
     metric (n mod c_bps A (m_c A m)) (n / c_bps A (m_c A m)) j = Ret (v n j)) ->
  (forall n, n < m_N A m -> v n 0 <> None /\ v n (2 ^ (n mod c_bps A (m_c A m))) <> None) ->
  exists Y, llrs_from A MAX lo m metric Y2 = Ret Y /\ length Y = m_N A m /\
    (forall n, n < lo -> nth n Y zero = nth n Y2 zero) /\
    forall n, lo <= n < m_N A m -> llr_of MAX (n_symbs A (m_c A m)) (n mod c_bps A (m_c A m)) (v n) (nth n Y zero).
Proof.
  intros MAX lo m metric v Y2 Hlo Hb L2 Hm HV. unfold llrs_from. set (bps := c_bps A (m_c A m)) in *. set (N := m_N A m) in *.
  match goal with |- context [for_from lo _ ?body _] =>
    destruct (for_from_inv _ (fun t Y => length Y = N /\ (forall n, n < lo -> nth n Y zero = nth n Y2 zero) /\
      forall n, lo <= n < t -> llr_of MAX (n_symbs A (m_c A m)) (n mod bps) (v n) (nth n Y zero)) (N - lo) lo body Y2) as (Y & E & L & I1 & I2) end.
  - split; auto. split; auto. intros; lia.
  - intros t Y Ht (L & I1 & I2). cbv zeta.
    destruct (HV t ltac:(lia)) as [V0 V1].
    destruct (llr_ok MAX (n_symbs A (m_c A m)) (t mod bps) (metric (t mod bps) (t / bps)) (v t)) as (x0 & r0 & x1 & r1 & G0 & G1 & El); auto.
    { apply Nat.pow_lt_mono_r; [lia|]. apply Nat.mod_upper_bound. lia. }
    { intros j Hj. apply Hm; auto; lia. }
    rewrite El. cbn [bind]. rewrite wr_ok by lia. eexists. split; [reflexivity|]. rewrite length_upd. split; auto. split.
    + intros n Hn. rewrite nth_upd_neq by lia. auto.
    + intros n Hn. rewrite nth_upd by lia. destruct (Nat.eqb_spec n t) as [->|D].
      * exists x0, r0, x1, r1. auto.
      * apply I2. lia.
  - exists Y. split; auto. split; auto. split; auto. intros n Hn. apply I2. lia.
Qed.

Lemma llrs_ok : forall MAX m metric v Y2, 0 < c_bps A (m_c A m) -> length Y2 = m_N A m ->
  (forall n j, n < m_N A m -> j < n_symbs A (m_c A m) ->
     metric (n mod c_bps A (m_c A m)) (n / c_bps A (m_c A m)) j = Ret (v n j)) ->
  (forall n, n < m_N A m -> v n 0 <> None /\ v n (2 ^ (n mod c_bps A (m_c A m))) <> None) ->
  exists Y, llrs A MAX m metric Y2 = Ret Y /\ length Y = m_N A m /\
    forall n, n < m_N A m -> llr_of MAX (n_symbs A (m_c A m)) (n mod c_bps A (m_c A m)) (v n) (nth n Y zero).
Proof.
  intros MAX m metric v Y2 Hb L2 Hm HV.
  destruct (llrs_from_ok MAX 0 m metric v Y2) as (Y & E & L & _ & I); auto; try lia.
  exists Y. split; [|split; auto; intros; apply I; lia].
  rewrite <- E. unfold llrs, llrs_from, for_. rewrite Nat.sub_0_r. reflexivity.
Qed.

Lemma llr_of_unique : forall MAX ns b v r r', llr_of MAX ns b v r -> llr_of MAX ns b v r' -> r = r'.
Proof.
  intros MAX ns b v r r' (x0 & r0 & x1 & r1 & G0 & G1 & ->) (y0 & s0 & y1 & s1 & H0 & H1 & ->). congruence.
Qed.
Lemma llr_of_ext : forall MAX ns b v v' r, (forall j, j < ns -> v j = v' j) -> llr_of MAX ns b v r -> llr_of MAX ns b v' r.
Proof.
  intros MAX ns b v v' r H (x0 & r0 & x1 & r1 & G0 & G1 & ->).
  assert (X : forall P, gather P v ns = gather P v' ns).
  { intros P. unfold gather. rewrite !flat_map_concat_map. f_equal. apply map_ext_in. intros j Hj. apply in_seq in Hj. rewrite H by lia. reflexivity. }
  exists x0, r0, x1, r1. rewrite <- !X. auto.
Qed.

(* ------------------------------------------------------------------ *)
(** * The metrics *)

(** The values received for a symbol, its gain and the value expected for symbol j. *)
Definition at_c (Y : list T) (k : nat) : C := (nth (2 * k) Y zero, nth (2 * k + 1) Y zero).
Definition sym (m : modem A) (j : nat) : C := nth j (c_sym A (m_c A m)) (zero, zero).
Definition exp_c (m : modem A) (H : option (list T)) (k j : nat) : C :=
  match H with None => sym m j | Some H => cmul A (at_c H k) (sym m j) end.
Definition exp_r (m : modem A) (H : option (list T)) (k j : nat) : T :=
  match H with None => fst (sym m j) | Some H => mul A (nth k H zero) (fst (sym m j)) end.
Definition gains_ok (n : nat) (H : option (list T)) : Prop := match H with None => True | Some H => length H = n end.

Lemma rdc_ok : forall Y k, 2 * k + 1 < length Y -> rdc A Y k = Ret (at_c Y k).
Proof. intros Y k H. unfold rdc. rewrite !(rd_ok _ zero) by lia. reflexivity. Qed.
Lemma expect_c_ok : forall m H k j n, j < length (c_sym A (m_c A m)) -> 2 * k + 1 < n -> gains_ok n H ->
  expect_c A m H k j = Ret (exp_c m H k j).
Proof.
  intros m [H|] k j n Hj Hk G; unfold expect_c, exp_c; rewrite (rd_ok _ (zero, zero)) by auto; cbn [bind]; auto.
  cbn [gains_ok] in G. rewrite rdc_ok by lia. reflexivity.
Qed.
Lemma expect_r_ok : forall m H k j n, j < length (c_sym A (m_c A m)) -> k < n -> gains_ok n H ->
  expect_r A m H k j = Ret (exp_r m H k j).
Proof.
  intros m [H|] k j n Hj Hk G; unfold expect_r, exp_r; rewrite (rd_ok _ (zero, zero)) by auto; cbn [bind]; auto.
  cbn [gains_ok] in G. rewrite (rd_ok _ zero) by lia. reflexivity.
Qed.

(** The squared distance between what is received and what symbol j gives, in the two cases. *)
Definition metric_d (m : modem A) (H : option (list T)) (Y : list T) (k j : nat) : T :=
  if c_cplx A (m_c A m) then opp A (cnorm A (csub A (at_c Y k) (exp_c m H k j)))
  else let d := sub A (nth k Y zero) (exp_r m H k j) in mul A (opp A d) d.
Definition metric_t (m : modem A) (H : option (list T)) (Y : list T) (k j : nat) : T :=
  if c_cplx A (m_c A m) then cnorm A (csub A (at_c Y k) (exp_c m H k j))
  else let d := sub A (nth k Y zero) (exp_r m H k j) in mul A d d.

(** The modem of the constructor. *)
Record well (m : modem A) : Prop := {
  w_bps : 0 < c_bps A (m_c A m);
  w_sym : length (c_sym A (m_c A m)) = 2 ^ c_bps A (m_c A m);
  w_N : 0 < m_N A m;
  w_mod : m_Nmod A m = msize (m_N A m) (c_bps A (m_c A m)) * (if c_cplx A (m_c A m) then 2 else 1) }.

Lemma make_well : forall N c dis types m, make_modem A N c dis types = Ret m -> length (c_sym A c) = 2 ^ c_bps A c ->
  (Z.of_nat N < 2 ^ 24)%Z -> (Z.of_nat (c_bps A c) <= 2 ^ 24)%Z ->
  well m /\ m_N A m = N /\ m_c A m = c /\ m_dis A m = dis /\ m_types A m = types /\ m_inv A m = ofZ A 1 /\ m_last A m = None.
Proof.
  intros N c dis types m E Hs HN HB. unfold make_modem in E. destruct (Nat.eqb_spec (c_bps A c) 0) as [|Db]; [discriminate|].
  destruct (Nat.ltb_spec 0 N) as [L|]; [|discriminate]. cbn [guard bind] in E.
  destruct (0 <? n_mod N (c_bps A c) (c_cplx A c)) eqn:EM; [|discriminate]. cbn [guard bind] in E. inversion E; subst; clear E.
  split; [|cbn; auto 10]. constructor; cbn; auto; try lia. apply n_mod_ok; auto; lia.
Qed.

Lemma make_ok : forall N c dis types, 0 < c_bps A c -> 0 < N -> (Z.of_nat N < 2 ^ 24)%Z -> (Z.of_nat (c_bps A c) <= 2 ^ 24)%Z ->
  exists m, make_modem A N c dis types = Ret m.
Proof.
  intros N c dis types Hb HN HL HB. unfold make_modem. destruct (Nat.eqb_spec (c_bps A c) 0); [lia|].
  destruct (Nat.ltb_spec 0 N); [|lia]. cbn [guard bind]. rewrite n_mod_ok by auto.
  pose proof (msize_pos N (c_bps A c) Hb HN). destruct (Nat.ltb_spec 0 (msize N (c_bps A c) * (if c_cplx A c then 2 else 1))) as [|F].
  - cbn [guard bind]. eauto.
  - destruct (c_cplx A c); lia.
Qed.

Lemma demodulate_ok : forall MAX m H Y Y2, well m -> m_types A m = true -> length Y = m_Nmod A m -> gains_ok (m_Nmod A m) H ->
  length Y2 = m_N A m ->
  exists Y', (if c_cplx A (m_c A m) then demodulate_complex A MAX m H Y Y2 else demodulate_real A MAX m H Y Y2) = Ret Y' /\
    length Y' = m_N A m /\ forall n, n < m_N A m ->
      llr_of MAX (n_symbs A (m_c A m)) (n mod c_bps A (m_c A m))
        (fun j => Some (mul A (metric_d m H Y (n / c_bps A (m_c A m)) j) (m_inv A m))) (nth n Y' zero).
Proof.
  intros MAX m H Y Y2 [Wb Ws WN Wm] Ht LY G L2. unfold metric_d, n_symbs in *.
  destruct (c_cplx A (m_c A m)) eqn:EC; unfold demodulate_complex, demodulate_real; rewrite Ht; cbn [guard bind].
  - apply (llrs_ok MAX m _ (fun n j => Some (mul A (opp A (cnorm A (csub A (at_c Y (n / c_bps A (m_c A m))) (exp_c m H (n / c_bps A (m_c A m)) j)))) (m_inv A m)))); auto.
    + intros n j Hn Hj. unfold n_symbs in Hj. pose proof (div_lt_msize _ _ n Wb Hn).
      rewrite rdc_ok by lia. cbn [bind]. rewrite (expect_c_ok _ _ _ _ (m_Nmod A m)) by (auto; lia). reflexivity.
    + intros. split; discriminate.
  - apply (llrs_ok MAX m _ (fun n j => Some (let d := sub A (nth (n / c_bps A (m_c A m)) Y zero) (exp_r m H (n / c_bps A (m_c A m)) j) in mul A (mul A (opp A d) d) (m_inv A m)))); auto.
    + intros n j Hn Hj. unfold n_symbs in Hj. pose proof (div_lt_msize _ _ n Wb Hn).
      rewrite (rd_ok _ zero) by lia. cbn [bind]. rewrite (expect_r_ok _ _ _ _ (m_Nmod A m)) by (auto; lia). reflexivity.
    + intros. split; discriminate.
Qed.

(** The a priori values. *)
Definition prior (m : modem A) (Ya : list T) (b k j : nat) (t : T) : option T :=
  let bps := c_bps A (m_c A m) in
  fold_left (fun t l => if l =? b then t else if Nat.testbit j l then
    if k * bps + l <? m_N A m then match t with Some t => Some (add A t (nth (k * bps + l) Ya zero)) | None => None end else None
    else t) (seq 0 bps) (Some t).

Lemma a_priori_ok : forall m Ya b k j t, length Ya = m_N A m -> a_priori A m Ya b k j t = Ret (prior m Ya b k j t).
Proof.
  intros m Ya b k j t L. unfold a_priori, prior. set (bps := c_bps A (m_c A m)). rewrite for_run.
  generalize (Some t) as s. generalize (seq 0 bps) as l. induction l as [|l ls IH]; intros s; cbn [run fold_left]; auto.
  destruct (l =? b); cbn [bind]; [apply IH|]. destruct (Nat.testbit j l); cbn [bind]; [|apply IH].
  destruct (Nat.ltb_spec (k * bps + l) (m_N A m)); cbn [bind]; [|apply IH]. rewrite (rd_ok _ zero) by lia. cbn [bind]. apply IH.
Qed.

(** No position after the frame counts for a symbol of the frame whose other bits are zero. *)
Lemma prior_some : forall m Ya b k j t, (forall l, l < c_bps A (m_c A m) -> Nat.testbit j l = true -> l <> b -> k * c_bps A (m_c A m) + l < m_N A m) ->
  prior m Ya b k j t <> None.
Proof.
  intros m Ya b k j t. unfold prior. set (bps := c_bps A (m_c A m)). intros H.
  assert (X : forall ls s, (forall l, In l ls -> l < bps) -> s <> None ->
    fold_left (fun t l => if l =? b then t else if Nat.testbit j l then
      if k * bps + l <? m_N A m then match t with Some t => Some (add A t (nth (k * bps + l) Ya zero)) | None => None end else None
      else t) ls s <> None).
  { induction ls as [|l ls IH]; intros s HI Hs; cbn [fold_left]; auto. apply IH; [intros; apply HI; right; auto|].
    destruct (Nat.eqb_spec l b); auto. destruct (Nat.testbit j l) eqn:ET; auto.
    destruct (Nat.ltb_spec (k * bps + l) (m_N A m)) as [|F].
    - destruct s; [discriminate|congruence].
    - specialize (H l (HI l (or_introl eq_refl)) ET n). lia. }
  apply X; [|discriminate]. intros l Hl. apply in_seq in Hl. lia.
Qed.

Lemma tdemodulate_ok : forall MAX m H Y Ya Y3, well m -> m_types A m = true -> length Y = m_Nmod A m -> gains_ok (m_Nmod A m) H ->
  length Ya = m_N A m -> length Y3 = m_N A m ->
  exists Y', (if c_cplx A (m_c A m) then tdemodulate_complex A MAX m H Y Ya Y3 else tdemodulate_real A MAX m H Y Ya Y3) = Ret Y' /\
    length Y' = m_N A m /\ forall n, n < m_N A m ->
      llr_of MAX (n_symbs A (m_c A m)) (n mod c_bps A (m_c A m))
        (fun j => minus A (prior m Ya (n mod c_bps A (m_c A m)) (n / c_bps A (m_c A m)) j
                             (mul A (metric_t m H Y (n / c_bps A (m_c A m)) j) (m_inv A m)))) (nth n Y' zero).
Proof.
  intros MAX m H Y Ya Y3 [Wb Ws WN Wm] Ht LY G La L3. unfold metric_t, n_symbs in *.
  assert (PS : forall n j t, n < m_N A m -> j = 0 \/ j = 2 ^ (n mod c_bps A (m_c A m)) ->
    minus A (prior m Ya (n mod c_bps A (m_c A m)) (n / c_bps A (m_c A m)) j t) <> None).
  { intros n j t Hn Hj. pose proof (prior_some m Ya (n mod c_bps A (m_c A m)) (n / c_bps A (m_c A m)) j t) as P.
    destruct (prior m Ya (n mod c_bps A (m_c A m)) (n / c_bps A (m_c A m)) j t); [discriminate|]. exfalso. apply P; auto.
    intros l Hl Et Dl. destruct Hj as [->| ->]; [rewrite Nat.bits_0 in Et; discriminate|].
    rewrite testbit_pow2 in Et. apply Nat.eqb_eq in Et. congruence. }
  destruct (c_cplx A (m_c A m)) eqn:EC; unfold tdemodulate_complex, tdemodulate_real; rewrite Ht; cbn [guard bind].
  - apply (llrs_ok MAX m _ (fun n j => minus A (prior m Ya (n mod c_bps A (m_c A m)) (n / c_bps A (m_c A m)) j
      (mul A (cnorm A (csub A (at_c Y (n / c_bps A (m_c A m))) (exp_c m H (n / c_bps A (m_c A m)) j))) (m_inv A m))))); auto.
    intros n j Hn Hj. unfold n_symbs in Hj. pose proof (div_lt_msize _ _ n Wb Hn).
    rewrite rdc_ok by lia. cbn [bind]. rewrite (expect_c_ok _ _ _ _ (m_Nmod A m)) by (auto; lia). cbn [bind].
    rewrite a_priori_ok by auto. reflexivity.
  - apply (llrs_ok MAX m _ (fun n j => minus A (prior m Ya (n mod c_bps A (m_c A m)) (n / c_bps A (m_c A m)) j
      (let d := sub A (nth (n / c_bps A (m_c A m)) Y zero) (exp_r m H (n / c_bps A (m_c A m)) j) in mul A (mul A d d) (m_inv A m))))); auto.
    intros n j Hn Hj. unfold n_symbs in Hj. pose proof (div_lt_msize _ _ n Wb Hn).
    rewrite (rd_ok _ zero) by lia. cbn [bind]. rewrite (expect_r_ok _ _ _ _ (m_Nmod A m)) by (auto; lia). cbn [bind].
    rewrite a_priori_ok by auto. reflexivity.
Qed.

(* ------------------------------------------------------------------ *)
(** * The channel parameter *)

(** The factor for a channel parameter. *)
Definition factor (dis : bool) (CP : T) : T := if dis then ofZ A 1 else dvd A (ofZ A 1) (mul A (mul A (ofZ A 2) CP) CP).

Definition same_but_cp (m m' : modem A) : Prop :=
  m_N A m' = m_N A m /\ m_Nmod A m' = m_Nmod A m /\ m_c A m' = m_c A m /\ m_dis A m' = m_dis A m /\ m_types A m' = m_types A m.
Lemma same_refl : forall m, same_but_cp m m.
Proof. intros. repeat split. Qed.
Lemma same_trans : forall a b c, same_but_cp a b -> same_but_cp b c -> same_but_cp a c.
Proof. unfold same_but_cp. intuition congruence. Qed.
Lemma same_well : forall m m', same_but_cp m m' -> well m -> well m'.
Proof. intros m m' (E1 & E2 & E3 & E4 & E5) [W1 W2 W3 W4]. constructor; rewrite ?E1, ?E2, ?E3; auto. Qed.
Lemma set_cp_same : forall m CP, same_but_cp m (set_cp A m CP).
Proof. intros m CP. unfold set_cp. destruct (cp_new A CP (m_last A m) && negb (m_dis A m)); repeat split. Qed.
Lemma set_last_same : forall m CP, same_but_cp m (set_last A m CP).
Proof. intros. repeat split. Qed.

(** The factor is that of the last channel parameter. *)
Definition in_sync (m : modem A) : Prop :=
  match m_last A m with None => m_dis A m = true -> m_inv A m = ofZ A 1 | Some l => m_inv A m = factor (m_dis A m) l end.
Definition cp_law : Prop := forall x y, neq A x y = false -> factor false x = factor false y.

Lemma set_cp_inv : cp_law -> forall m CP, in_sync m -> m_inv A (set_cp A m CP) = factor (m_dis A m) CP.
Proof.
  intros NL m CP S. unfold set_cp, in_sync, factor in *. destruct (m_dis A m) eqn:ED; cbn [negb].
  - rewrite andb_false_r. destruct (m_last A m); auto.
  - rewrite andb_true_r. destruct (m_last A m) as [l|] eqn:EL; cbn [cp_new].
    + destruct (neq A CP l) eqn:E; [reflexivity|]. rewrite S. symmetry. exact (NL CP l E).
    + reflexivity.
Qed.
Lemma set_last_sync : cp_law -> forall m CP, in_sync m -> in_sync (set_last A (set_cp A m CP) CP).
Proof.
  intros NL m CP S. unfold in_sync. cbn [set_last m_last m_inv m_dis]. rewrite set_cp_inv by auto.
  f_equal. symmetry. apply (set_cp_same m CP).
Qed.

Definition no_filter (c : call A) : Prop := match c with Filter _ _ _ _ => False | _ => True end.

Lemma exec_sync : cp_law -> forall MAX m c m' Y, in_sync m -> no_filter c -> exec A MAX m c = Ret (m', Y) ->
  in_sync m' /\ same_but_cp m m'.
Proof.
  intros NL MAX m c m' Y S NF E. destruct c as [X X2|CP Y1 Y2|CP H Y1 Y2|CP H Y1 Ya Y3]; cbn [exec no_filter] in *; [| contradiction | |].
  - destruct (modulate A m X X2); inversion E; subst. split; auto. apply same_refl.
  - unfold demodulate in E. match type of E with bind ?x _ = _ => destruct x; inversion E; subst end. split.
    + apply set_last_sync; auto.
    + eapply same_trans; [apply set_cp_same|apply set_last_same].
  - unfold tdemodulate in E. match type of E with bind ?x _ = _ => destruct x; inversion E; subst end. split.
    + apply set_last_sync; auto.
    + eapply same_trans; [apply set_cp_same|apply set_last_same].
Qed.
Lemma history_sync : cp_law -> forall MAX cs m m', in_sync m -> Forall no_filter cs -> history A MAX m cs = Ret m' ->
  in_sync m' /\ same_but_cp m m'.
Proof.
  intros NL MAX cs. induction cs as [|c cs IH]; cbn [history]; intros m m' S F E.
  - inversion E; subst. split; auto. apply same_refl.
  - inversion F; subst. destruct (exec A MAX m c) as [[m1 Y]| |] eqn:E1; cbn [bind] in E; try discriminate.
    destruct (exec_sync NL MAX m c m1 Y S H1 E1) as [S1 Q1]. destruct (IH m1 m' S1 H2 E) as [S2 Q2].
    split; auto. eapply same_trans; eauto.
Qed.

End WithArith.
