From Coq Require Import List Arith Lia Bool.
From Verif Require Import Base Loops GF2 PolarModel PolarSpec.
Import ListNotations.

(* ------------------------------------------------------------------ *)
(** * Bits *)

Lemma land_double : forall a b c d,
  Nat.land (2 * a + Nat.b2n c) (2 * b + Nat.b2n d) = 2 * Nat.land a b + Nat.b2n (c && d).
Proof.
  intros. apply Nat.bits_inj. intros k. rewrite Nat.land_spec. destruct k as [|k].
  - rewrite !Nat.testbit_0_r. auto.
  - rewrite !Nat.testbit_succ_r. rewrite Nat.land_spec. auto.
Qed.

Lemma sub_double : forall a b c d,
  sub (2 * a + Nat.b2n c) (2 * b + Nat.b2n d) = implb c d && sub a b.
Proof.
  intros. unfold sub. rewrite land_double.
  destruct (Nat.eqb_spec (Nat.land a b) a) as [e|e].
  - rewrite e, andb_true_r. destruct c, d; simpl Nat.b2n; simpl andb; simpl implb;
      rewrite ?Nat.eqb_refl; auto. apply Nat.eqb_neq. lia.
  - rewrite andb_false_r. apply Nat.eqb_neq. destruct c, d; simpl Nat.b2n; lia.
Qed.

Lemma sub_refl : forall i, sub i i = true.
Proof. intros. unfold sub. rewrite Nat.land_diag. apply Nat.eqb_refl. Qed.

Lemma sub_le : forall i j, sub i j = true -> i <= j.
Proof.
  unfold sub. intros. apply Nat.eqb_eq in H. rewrite <- H. 
  assert (Nat.ldiff (Nat.land i j) j = 0).
  { apply Nat.bits_inj. intros k. rewrite Nat.ldiff_spec, Nat.land_spec, Nat.bits_0.
    destruct (Nat.testbit i k), (Nat.testbit j k); auto. }
  apply Nat.ldiff_le; auto.
Qed.

Lemma sub_trans : forall i j k, sub i j = true -> sub j k = true -> sub i k = true.
Proof.
  unfold sub. intros i j k H H0. apply Nat.eqb_eq in H. apply Nat.eqb_eq in H0. apply Nat.eqb_eq.
  rewrite <- H. rewrite <- Nat.land_assoc, H0. auto.
Qed.

Lemma split2 : forall p, exists a c, p = 2 * a + Nat.b2n c.
Proof.
  intros. exists (Nat.div2 p), (Nat.odd p). apply Nat.div2_odd.
Qed.

Lemma split2_lt : forall n p, p < 2 ^ S n -> exists a c, p = 2 * a + Nat.b2n c /\ a < 2 ^ n.
Proof.
  intros. destruct (split2 p) as (a & c & E). exists a, c. split; auto.
  rewrite Nat.pow_succ_r' in H. destruct c; simpl in E; lia.
Qed.

(** number of sets between p and l, mod 2 *)
Lemma sub_interval : forall n p l, p < 2 ^ n -> l < 2 ^ n ->
  xsum (2 ^ n) (fun j => sub p j && sub j l) = (p =? l).
Proof.
  induction n; intros p l Hp Hl.
  - simpl in *. assert (p = 0) by lia. assert (l = 0) by lia. subst. auto.
  - destruct (split2_lt _ _ Hp) as (a & c & -> & Ha). destruct (split2_lt _ _ Hl) as (b & d & -> & Hb).
    rewrite Nat.pow_succ_r', Nat.mul_comm, xsum_mul.
    rewrite (xsum_ext _ _ (fun i => eqb c d && (sub a i && sub i b))).
    + rewrite xsum_andb_l, IHn by auto.
      destruct (Nat.eqb_spec a b); destruct c, d; simpl eqb; simpl andb; simpl Nat.b2n; symmetry;
        try (apply Nat.eqb_eq; lia); apply Nat.eqb_neq; lia.
    + intros i _. cbn [xsum].
      replace (i * 2 + 0) with (2 * i + Nat.b2n false) by (simpl; lia).
      replace (i * 2 + 1) with (2 * i + Nat.b2n true) by (simpl; lia).
      rewrite !sub_double. destruct c, d, (sub a i), (sub i b); auto.
Qed.

(* ------------------------------------------------------------------ *)
(** * The transform *)

Lemma length_arikan : forall N u, length (arikan N u) = N.
Proof. intros. apply length_tab. Qed.

Lemma nth_arikan : forall N u i, i < N -> nth i (arikan N u) false = arikan_bit N u i.
Proof. intros. apply nth_tab; auto. Qed.

Lemma arikan_involution : forall n u, length u = 2 ^ n -> arikan (2 ^ n) (arikan (2 ^ n) u) = u.
Proof.
  intros n u L. symmetry. apply eq_tab with (d := false); auto. intros i Hi.
  unfold arikan_bit.
  rewrite (xsum_ext _ _ (fun j => xsum (2 ^ n) (fun l => nth l u false && (sub i j && sub j l)))).
  - rewrite xsum_swap.
    rewrite (xsum_ext _ _ (fun l => nth l u false && (i =? l))).
    + rewrite (xsum_single _ _ i); auto.
      * rewrite Nat.eqb_refl, andb_true_r. auto.
      * intros j Hj Hne. rewrite (proj2 (Nat.eqb_neq i j)) by auto. apply andb_false_r.
    + intros l Hl. rewrite xsum_andb_l. rewrite sub_interval by auto. auto.
  - intros j Hj. rewrite nth_arikan by auto. unfold arikan_bit. rewrite <- xsum_andb_r.
    apply xsum_ext. intros l _. destruct (nth l u false), (sub i j), (sub j l); auto.
Qed.

Lemma arikan_xorl : forall N a b, length a = length b ->
  arikan N (xorl a b) = xorl (arikan N a) (arikan N b).
Proof.
  intros. apply list_eq_nth with (d := false).
  - rewrite length_xorl; rewrite ?length_arikan; auto.
  - intros i Hi. rewrite length_arikan in Hi. rewrite nth_xorl by (rewrite !length_arikan; auto).
    rewrite !nth_arikan by auto. unfold arikan_bit. rewrite <- xsum_xorb. apply xsum_ext. intros j _.
    rewrite nth_xorl by auto. destruct (nth j a false), (nth j b false), (sub i j); auto.
Qed.

(** even half / upper half recursion used by the decoder: T(a ++ b) = T(a+b) ++ T(b) *)
Lemma sub_high : forall n i j, i < 2 ^ n -> j < 2 ^ n ->
  sub i (2 ^ n + j) = sub i j /\ sub (2 ^ n + i) j = false /\ sub (2 ^ n + i) (2 ^ n + j) = sub i j.
Proof.
  induction n; intros i j Hi Hj.
  - simpl in *. assert (i = 0) by lia. assert (j = 0) by lia. subst. auto.
  - destruct (split2_lt _ _ Hi) as (a & c & -> & Ha). destruct (split2_lt _ _ Hj) as (b & d & -> & Hb).
    destruct (IHn a b Ha Hb) as (I1 & I2 & I3).
    rewrite Nat.pow_succ_r'.
    replace (2 * 2 ^ n + (2 * b + Nat.b2n d)) with (2 * (2 ^ n + b) + Nat.b2n d) by lia.
    replace (2 * 2 ^ n + (2 * a + Nat.b2n c)) with (2 * (2 ^ n + a) + Nat.b2n c) by lia.
    rewrite !sub_double, I1, I2, I3. rewrite andb_false_r. auto.
Qed.

Lemma arikan_app : forall n a b, length a = 2 ^ n -> length b = 2 ^ n ->
  arikan (2 ^ S n) (a ++ b) = arikan (2 ^ n) (xorl a b) ++ arikan (2 ^ n) b.
Proof.
  intros n a b La Lb.
  apply list_eq_nth with (d := false).
  { rewrite app_length, !length_arikan, Nat.pow_succ_r'. lia. }
  intros i Hi. rewrite length_arikan in Hi. rewrite nth_arikan by auto. unfold arikan_bit.
  replace (2 ^ S n) with (2 ^ n + 2 ^ n) in * by (rewrite Nat.pow_succ_r'; lia).
  rewrite xsum_app.
  destruct (Nat.lt_ge_cases i (2 ^ n)) as [H|H].
  - rewrite app_nth1 by (rewrite length_arikan; auto). rewrite nth_arikan by auto. unfold arikan_bit.
    rewrite <- xsum_xorb. apply xsum_ext. intros j Hj.
    rewrite app_nth1 by lia. rewrite app_nth2 by lia. replace (2 ^ n + j - length a) with j by lia.
    destruct (sub_high n i j H Hj) as (-> & _ & _).
    rewrite nth_xorl by lia. destruct (nth j a false), (nth j b false), (sub i j); auto.
  - rewrite app_nth2 by (rewrite length_arikan; auto). rewrite length_arikan.
    rewrite nth_arikan by lia. unfold arikan_bit.
    replace i with (2 ^ n + (i - 2 ^ n)) by lia. remember (i - 2 ^ n) as k. assert (k < 2 ^ n) by lia.
    replace (2 ^ n + k - 2 ^ n) with k by lia.
    rewrite (xsum_false (2 ^ n)).
    + rewrite xorb_false_l. apply xsum_ext. intros j Hj. rewrite app_nth2 by lia.
      replace (2 ^ n + j - length a) with j by lia.
      destruct (sub_high n k j) as (_ & _ & ->); auto.
    + intros j Hj. destruct (sub_high n k j) as (_ & -> & _); auto. apply andb_false_r.
Qed.

(* ------------------------------------------------------------------ *)
(** * The loops of light_encode *)

Definition stage_val (k : nat) (b : list bool) (p : nat) : bool :=
  if Nat.odd (p / k) then nth p b false else xorb (nth p b false) (nth (p + k) b false).

Lemma odd_2 : forall a c, Nat.odd (2 * a + c) = Nat.odd c.
Proof. intros. rewrite Nat.odd_add, Nat.odd_mul. simpl. destruct (Nat.odd c); auto. Qed.

(** position j + i of block t, stride k *)
Lemma stage_pos_lo : forall k t i, i < k -> Nat.odd ((t * (2 * k) + i) / k) = false.
Proof.
  intros. replace (t * (2 * k) + i) with (2 * t * k + i) by lia.
  destruct (divmod_idx (2 * t) i k H) as [-> _]. 
  replace (2 * t) with (2 * t + 0) by lia. rewrite odd_2. auto.
Qed.
Lemma stage_pos_hi : forall k t i, i < k -> Nat.odd ((t * (2 * k) + k + i) / k) = true.
Proof.
  intros. replace (t * (2 * k) + k + i) with ((2 * t + 1) * k + i) by lia.
  destruct (divmod_idx (2 * t + 1) i k H) as [-> _]. rewrite odd_2. auto.
Qed.

Lemma block_ok : forall k t b, 0 < k -> (t + 1) * (2 * k) <= length b ->
  exists b', for_ k (fun i bits =>
      x <- rd bits (t * (2 * k) + i) ;;
      y <- rd bits (k + t * (2 * k) + i) ;;
      wr bits (t * (2 * k) + i) (xorb x y)) b = Ret b' /\
    length b' = length b /\
    forall p, nth p b' false =
      if (t * (2 * k) <=? p) && (p <? (t + 1) * (2 * k)) then stage_val k b p else nth p b false.
Proof.
  intros k t b Hk Hb.
  destruct (for_inv _ (fun i b' => length b' = length b /\
     forall p, nth p b' false =
       if (t * (2 * k) <=? p) && (p <? t * (2 * k) + i)
       then xorb (nth p b false) (nth (p + k) b false) else nth p b false)
     k (fun i bits =>
      x <- rd bits (t * (2 * k) + i) ;;
      y <- rd bits (k + t * (2 * k) + i) ;;
      wr bits (t * (2 * k) + i) (xorb x y)) b) as (b' & E & L & I).
  - split; auto. intros p. destruct (Nat.leb_spec (t * (2 * k)) p), (Nat.ltb_spec p (t * (2 * k) + 0)); auto; lia.
  - intros i s Hi (L & I).
    assert (t * (2 * k) + i < length s) by lia.
    assert (k + t * (2 * k) + i < length s) by lia.
    rewrite (rd_ok _ false) by auto. cbn [bind]. rewrite (rd_ok _ false) by auto. cbn [bind].
    rewrite wr_ok by auto. eexists; split; [reflexivity|]. cbv iota beta. rewrite length_upd. split; auto.
    intros p. rewrite nth_upd by auto. rewrite !I.
    destruct (Nat.eqb_spec p (t * (2 * k) + i)) as [->|Hp].
    + destruct (Nat.leb_spec (t * (2 * k)) (t * (2 * k) + i)); [|lia].
      destruct (Nat.ltb_spec (t * (2 * k) + i) (t * (2 * k) + i)); [lia|].
      destruct (Nat.ltb_spec (t * (2 * k) + i) (t * (2 * k) + S i)); [|lia]. cbn [andb].
      destruct (Nat.ltb_spec (k + t * (2 * k) + i) (t * (2 * k) + i)); [lia|]. rewrite andb_false_r.
      replace (k + t * (2 * k) + i) with (t * (2 * k) + i + k) by lia. auto.
    + destruct (Nat.leb_spec (t * (2 * k)) p); auto.
      destruct (Nat.ltb_spec p (t * (2 * k) + i)), (Nat.ltb_spec p (t * (2 * k) + S i)); auto; lia.
  - exists b'. split; [exact E|]. split; auto. intros p. rewrite I.
    destruct (Nat.leb_spec (t * (2 * k)) p); cbn [andb]; auto.
    destruct (Nat.ltb_spec p (t * (2 * k) + k)), (Nat.ltb_spec p ((t + 1) * (2 * k))); auto; try lia.
    + unfold stage_val. replace p with (t * (2 * k) + (p - t * (2 * k))) at 3 by lia.
      rewrite stage_pos_lo by lia. auto.
    + unfold stage_val. replace p with (t * (2 * k) + k + (p - t * (2 * k) - k)) at 2 by lia.
      rewrite stage_pos_hi by lia. auto.
Qed.

Lemma stage_turns : forall m k, 0 < k -> (m * (2 * k) + 2 * k - 1) / (2 * k) = m.
Proof.
  intros. replace (m * (2 * k) + 2 * k - 1) with (m * (2 * k) + (2 * k - 1)) by lia.
  apply (divmod_idx m (2 * k - 1) (2 * k)). lia.
Qed.

(** Blocks 0..t-1 processed. *)
Definition after_blocks (k t : nat) (b b' : list bool) : Prop :=
  length b' = length b /\
  forall p, nth p b' false = if p <? t * (2 * k) then stage_val k b p else nth p b false.

Lemma after_blocks_step : forall m k t b s, 0 < k -> length b = m * (2 * k) -> t < m ->
  after_blocks k t b s ->
  exists s', for_ k (fun i bits =>
      x <- rd bits (t * (2 * k) + i) ;;
      y <- rd bits (k + t * (2 * k) + i) ;;
      wr bits (t * (2 * k) + i) (xorb x y)) s = Ret s' /\ after_blocks k (S t) b s'.
Proof.
  intros m k t b s Hk Lb Ht (L & I).
  assert (B : (t + 1) * (2 * k) <= length s).
  { rewrite L, Lb. apply Nat.mul_le_mono_r. lia. }
  destruct (block_ok k t s Hk B) as (s' & E & L' & I').
  exists s'. split; auto. split; [lia|]. intros p. rewrite I'.
  replace (S t) with (t + 1) by lia.
  destruct (Nat.leb_spec (t * (2 * k)) p) as [H|H], (Nat.ltb_spec p ((t + 1) * (2 * k))) as [H1|H1];
    cbn [andb]; try lia.
  - unfold stage_val. rewrite !I.
    destruct (Nat.ltb_spec p (t * (2 * k))); [lia|].
    destruct (Nat.ltb_spec (p + k) (t * (2 * k))); [lia|]. auto.
  - rewrite I. destruct (Nat.ltb_spec p (t * (2 * k))); auto. lia.
  - rewrite I. destruct (Nat.ltb_spec p (t * (2 * k))); auto. lia.
Qed.

Lemma stage_ok : forall m k b, 0 < k -> length b = m * (2 * k) ->
  light_stage (m * (2 * k)) k b = Ret (tab (m * (2 * k)) (stage_val k b)).
Proof.
  intros m k b Hk Lb. unfold light_stage. rewrite stage_turns by auto.
  match goal with |- for_ _ ?body _ = _ =>
    destruct (for_inv _ (fun t s => after_blocks k t b s) m body b) as (b' & E & L & I)
  end.
  - split; auto. 
  - intros t s Ht A. cbv zeta. eapply after_blocks_step; eauto.
  - rewrite E. f_equal. apply eq_tab with (d := false). { lia. }
    intros p Hp. rewrite I. destruct (Nat.ltb_spec p (m * (2 * k))); auto. lia.
Qed.

(** Value after the stages with strides 2^(n-1) .. 2^t. *)
Definition part (n t : nat) (u : list bool) (p : nat) : bool :=
  xsum (2 ^ (n - t)) (fun b => nth (b * 2 ^ t + p mod 2 ^ t) u false && sub (p / 2 ^ t) b).

Lemma pow2_pos : forall n, 0 < 2 ^ n.
Proof. intros. apply Nat.neq_0_lt_0. apply Nat.pow_nonzero. lia. Qed.

Lemma part_top : forall n u p, p < 2 ^ n -> part n n u p = nth p u false.
Proof.
  intros. unfold part. rewrite Nat.sub_diag. change (2 ^ 0) with 1. cbn [xsum].
  rewrite Nat.mod_small, Nat.div_small by auto. rewrite Nat.mul_0_l, Nat.add_0_l, xorb_false_l.
  change (sub 0 0) with true. apply andb_true_r.
Qed.

Lemma part_bot : forall n u p, part n 0 u p = arikan_bit (2 ^ n) u p.
Proof.
  intros. unfold part, arikan_bit. rewrite Nat.sub_0_r. simpl (2 ^ 0). apply xsum_ext. intros.
  rewrite Nat.mod_1_r, Nat.div_1_r. rewrite Nat.mul_1_r, Nat.add_0_r. auto.
Qed.

Lemma part_step : forall n t u p, t < n -> p < 2 ^ n ->
  part n t u p = if Nat.odd (p / 2 ^ t) then part n (S t) u p
                 else xorb (part n (S t) u p) (part n (S t) u (p + 2 ^ t)).
Proof.
  intros n t u p Ht Hp. pose proof (pow2_pos t) as P.
  set (r := p mod 2 ^ t). assert (Hr : r < 2 ^ t) by (apply Nat.mod_upper_bound; lia).
  destruct (split2 (p / 2 ^ t)) as (a & c & Eac).
  assert (Ep : p = (2 * a + Nat.b2n c) * 2 ^ t + r).
  { rewrite <- Eac. unfold r. rewrite Nat.mul_comm. apply Nat.div_mod. lia. }
  assert (Er : p mod 2 ^ t = r) by reflexivity. clearbody r.
  assert (PS : 2 ^ S t = 2 ^ t * 2) by (rewrite Nat.pow_succ_r'; lia).
  assert (HS : forall d, ((2 * a + Nat.b2n d) * 2 ^ t + r) mod 2 ^ S t = Nat.b2n d * 2 ^ t + r /\
                      ((2 * a + Nat.b2n d) * 2 ^ t + r) / 2 ^ S t = a).
  { intros d. replace ((2 * a + Nat.b2n d) * 2 ^ t + r) with (a * 2 ^ S t + (Nat.b2n d * 2 ^ t + r)).
    - destruct (divmod_idx a (Nat.b2n d * 2 ^ t + r) (2 ^ S t)) as [-> ->].
      + rewrite PS. destruct d; simpl Nat.b2n; lia.
      + auto.
    - rewrite PS. lia. }
  rewrite Eac. rewrite odd_2. replace (Nat.odd (Nat.b2n c)) with c by (destruct c; auto).
  unfold part. rewrite Er, Eac.
  replace (n - t) with (S (n - S t)) by lia. rewrite Nat.pow_succ_r', (Nat.mul_comm 2), xsum_mul.
  destruct (HS c) as [Hm Hd]. rewrite <- Ep in Hm, Hd. rewrite Hm, Hd.
  assert (B : forall i d, nth ((i * 2 + d) * 2 ^ t + r) u false = nth (i * 2 ^ S t + (d * 2 ^ t + r)) u false).
  { intros. f_equal. rewrite PS. lia. }
  destruct c.
  - apply xsum_ext. intros i _. cbn [xsum]. rewrite !B.
    replace (i * 2 + 0) with (2 * i + Nat.b2n false) by (simpl; lia).
    replace (i * 2 + 1) with (2 * i + Nat.b2n true) by (simpl; lia).
    rewrite !sub_double. simpl implb. simpl (Nat.b2n true). rewrite andb_false_r. rewrite xorb_false_l.
    simpl. auto.
  - replace (p + 2 ^ t) with ((2 * a + Nat.b2n true) * 2 ^ t + r) by (rewrite Ep; simpl Nat.b2n; lia).
    destruct (HS true) as [-> ->]. rewrite <- xsum_xorb. apply xsum_ext. intros i _. cbn [xsum]. rewrite !B.
    replace (i * 2 + 0) with (2 * i + Nat.b2n false) by (simpl; lia).
    replace (i * 2 + 1) with (2 * i + Nat.b2n true) by (simpl; lia).
    rewrite !sub_double. simpl Nat.b2n. simpl implb. rewrite !andb_true_l, xorb_false_l. auto.
Qed.

Lemma stage_part : forall n t u, t < n -> length u = 2 ^ n ->
  light_stage (2 ^ n) (2 ^ t) (tab (2 ^ n) (part n (S t) u)) = Ret (tab (2 ^ n) (part n t u)).
Proof.
  intros n t u Ht Lu.
  assert (E : 2 ^ n = 2 ^ (n - S t) * (2 * 2 ^ t)).
  { rewrite <- Nat.pow_succ_r', <- Nat.pow_add_r. f_equal. lia. }
  rewrite E at 1. rewrite stage_ok.
  - f_equal. rewrite <- E. apply tab_ext. intros p Hp. rewrite part_step by auto.
    unfold stage_val. rewrite nth_tab by auto. destruct (Nat.odd (p / 2 ^ t)) eqn:O; auto.
    f_equal. apply nth_tab.
    (* p + 2^t < 2^n *)
    rewrite E in Hp |- *. pose proof (pow2_pos t).
    assert (p / (2 ^ t) < 2 ^ (n - S t) * 2).
    { apply Nat.div_lt_upper_bound; lia. }
    assert (p / 2 ^ t + 1 < 2 ^ (n - S t) * 2).
    { destruct (split2 (p / 2 ^ t)) as (a & c & Eac). rewrite Eac in *. rewrite odd_2 in O.
      destruct c; [discriminate|]. simpl Nat.b2n in *. lia. }
    pose proof (Nat.div_mod p (2 ^ t)). pose proof (Nat.mod_upper_bound p (2 ^ t)). nia.
  - apply pow2_pos.
  - rewrite length_tab. auto.
Qed.

Lemma light_loop_ok : forall n t u fuel, t <= n -> length u = 2 ^ n -> t < fuel ->
  light_loop fuel (2 ^ n) (2 ^ t / 2) (tab (2 ^ n) (part n t u)) = Ret (arikan (2 ^ n) u).
Proof.
  induction t; intros u fuel Ht Lu Hf.
  - destruct fuel; [lia|]. simpl. f_equal. apply tab_ext. intros. apply part_bot.
  - destruct fuel; [lia|]. cbn [light_loop].
    replace (2 ^ S t / 2) with (2 ^ t) by (rewrite Nat.pow_succ_r', Nat.mul_comm, Nat.div_mul; lia).
    destruct (Nat.eqb_spec (2 ^ t) 0) as [e|_]. { pose proof (pow2_pos t); lia. }
    rewrite stage_part by auto. cbn [bind]. apply IHt; auto; lia.
Qed.

Lemma pow2_gt : forall n, n < 2 ^ n.
Proof. intros. apply Nat.pow_gt_lin_r. lia. Qed.

Lemma light_encode_ok : forall n u, length u = 2 ^ n ->
  light_encode (2 ^ n) u = Ret (arikan (2 ^ n) u).
Proof.
  intros. unfold light_encode.
  replace u with (tab (2 ^ n) (part n n u)) at 1.
  - apply light_loop_ok; auto. apply pow2_gt.
  - symmetry. apply eq_tab with (d := false); auto. intros. symmetry. apply part_top; auto.
Qed.

(* ------------------------------------------------------------------ *)
(** * convert *)

Definition rank (fb : list bool) (i : nat) : nat := length (filter negb (firstn i fb)).

Lemma rank_S : forall fb i, i < length fb ->
  rank fb (S i) = rank fb i + (if nth i fb true then 0 else 1).
Proof.
  unfold rank. induction fb; simpl; intros; [lia|]. destruct i; simpl.
  - destruct a; auto.
  - specialize (IHfb i ltac:(lia)). simpl in IHfb. destruct a; simpl; rewrite IHfb; auto.
Qed.

Lemma rank_full : forall fb, rank fb (length fb) = count_info fb.
Proof. intros. unfold rank, count_info. rewrite firstn_all. auto. Qed.

Lemma rank_mono : forall fb i j, i <= j -> j <= length fb -> rank fb i <= rank fb j.
Proof.
  intros fb i j H. induction H; intros; auto. rewrite rank_S by lia. specialize (IHle ltac:(lia)). lia.
Qed.

Lemma rank_lt : forall fb i, i < length fb -> nth i fb true = false -> rank fb i < count_info fb.
Proof.
  intros. rewrite <- rank_full. pose proof (rank_S fb i H). rewrite H0 in H1.
  pose proof (rank_mono fb (S i) (length fb)). lia.
Qed.

Definition inserted (fb u : list bool) : list bool :=
  tab (length fb) (fun i => negb (nth i fb true) && nth (rank fb i) u false).

Lemma convert_ok : forall fb u x, length u = count_info fb -> length x = length fb ->
  convert fb u x = Ret (inserted fb u).
Proof.
  intros fb u x Lu Lx. unfold convert, convert_from.
  match goal with |- bind (for_ _ ?body _) _ = _ =>
    destruct (for_inv _ (fun i (st : list bool * nat) => let '(o, j) := st in
       j = rank fb i /\ length o = length fb /\
       forall p, p < i -> nth p o false = negb (nth p fb true) && nth (rank fb p) u false)
      (length fb) body (x, 0)) as ([o j] & E & Ej & Lo & I)
  end.
  - split; auto. split; auto. intros; lia.
  - intros i [o j] Hi (Ej & Lo & I). rewrite (rd_ok _ true) by auto. cbn [bind].
    pose proof (rank_S fb i Hi) as RS.
    destruct (nth i fb true) eqn:F.
    + rewrite wr_ok by lia. cbn [bind]. eexists; split; [reflexivity|].
      cbv iota beta. rewrite length_upd. repeat split; auto; try lia.
      intros p Hp. rewrite nth_upd by lia. destruct (Nat.eqb_spec p i).
      * subst p. rewrite F. auto.
      * apply I; lia.
    + pose proof (rank_lt fb i Hi F).
      rewrite (rd_ok _ false) by lia. cbn [bind]. rewrite wr_ok by lia. cbn [bind].
      eexists; split; [reflexivity|]. cbv iota beta. rewrite length_upd. repeat split; auto; try lia.
      intros p Hp. rewrite nth_upd by lia. destruct (Nat.eqb_spec p i).
      * subst p. rewrite F, <- Ej. auto.
      * apply I; lia.
  - rewrite E. cbn [bind]. f_equal. apply eq_tab with (d := false); auto.
Qed.

Lemma convert_inplace_ok : forall K fb buf, K = count_info fb -> length buf = length fb ->
  convert_inplace K fb buf = Ret (inserted fb (firstn K buf)).
Proof.
  intros. unfold convert_inplace.
  assert (K <= length buf).
  { rewrite H, H0. unfold count_info. rewrite <- (firstn_all fb) at 2. 
    clear. induction fb as [|[] fb IH]; simpl; auto; lia. }
  rewrite (proj2 (Nat.leb_le _ _)) by auto. apply convert_ok; auto. rewrite firstn_length. lia.
Qed.

Lemma filter_seq_S : forall f n, filter f (seq 0 (S n)) = filter f (seq 0 n) ++ (if f n then [n] else []).
Proof. intros. rewrite seq_S, filter_app. simpl. destruct (f n); auto. Qed.

Lemma info_positions_len_upto : forall fb i, i <= length fb ->
  length (filter (fun i => negb (nth i fb true)) (seq 0 i)) = rank fb i.
Proof.
  induction i; intros; auto. rewrite filter_seq_S, app_length, IHi by lia. rewrite rank_S by lia.
  destruct (nth i fb true); auto.
Qed.

Lemma length_info_positions : forall fb, length (info_positions fb) = count_info fb.
Proof. intros. unfold info_positions. rewrite info_positions_len_upto by auto. apply rank_full. Qed.

Lemma carries_upto : forall fb u v i, i <= length fb ->
  (forall p, p < i -> nth p v false = negb (nth p fb true) && nth (rank fb p) u false) ->
  rank fb i <= length u ->
  map (fun p => nth p v false) (filter (fun i => negb (nth i fb true)) (seq 0 i)) = firstn (rank fb i) u.
Proof.
  induction i; intros Hi I L; auto. rewrite filter_seq_S, map_app.
  pose proof (rank_S fb i Hi) as RS. rewrite RS in L |- *.
  rewrite IHi by (auto; lia).
  destruct (nth i fb true) eqn:F; simpl.
  - rewrite app_nil_r, Nat.add_0_r. auto.
  - rewrite I by lia. rewrite F. simpl.
    apply list_eq_nth with (d := false).
    + rewrite app_length, !firstn_length. simpl. lia.
    + rewrite app_length, firstn_length. simpl. intros k Hk.
      destruct (Nat.lt_ge_cases k (rank fb i)).
      * rewrite app_nth1 by (rewrite firstn_length; lia). rewrite !firstn_nth by lia. auto.
      * rewrite app_nth2 by (rewrite firstn_length; lia). rewrite firstn_length. rewrite firstn_nth by lia.
        replace (k - Nat.min (rank fb i) (length u)) with 0 by lia. simpl. f_equal; lia.
Qed.

Lemma inserted_input : forall fb u, length u = count_info fb -> input_word fb u (inserted fb u).
Proof.
  intros. split; [apply length_tab|]. split.
  - intros i Hi F. unfold inserted. rewrite nth_tab by auto. rewrite F. auto.
  - unfold carries, info_positions. rewrite (carries_upto fb u); auto.
    + rewrite rank_full. rewrite <- H. apply firstn_all.
    + intros. unfold inserted. apply nth_tab; auto.
    + rewrite rank_full. lia.
Qed.

Lemma info_positions_nth : forall fb i, i < length fb -> nth i fb true = false ->
  nth (rank fb i) (info_positions fb) 0 = i.
Proof.
  intros fb i Hi F. unfold info_positions.
  replace (length fb) with (S i + (length fb - S i)) by lia. rewrite seq_app, filter_app.
  assert (L : length (filter (fun i0 => negb (nth i0 fb true)) (seq 0 (S i))) = S (rank fb i)).
  { rewrite info_positions_len_upto by lia. rewrite rank_S by auto. rewrite F. lia. }
  rewrite app_nth1 by lia. rewrite filter_seq_S. rewrite F. simpl negb. cbv iota.
  rewrite app_nth2; rewrite info_positions_len_upto by lia; auto.
  rewrite Nat.sub_diag. auto.
Qed.

(** The message word of a given input word is unique, and the input word of a message too. *)
Lemma input_word_unique : forall fb u v, input_word fb u v -> v = inserted fb u /\ length u = count_info fb.
Proof.
  intros fb u v (L & Z & C). unfold carries in C.
  assert (Lu : length u = count_info fb).
  { rewrite <- C, map_length. apply length_info_positions. }
  split; auto. apply eq_tab with (d := false); auto. intros i Hi.
  destruct (nth i fb true) eqn:F; simpl. { apply Z; auto. }
  rewrite <- C. pose proof (rank_lt fb i Hi F).
  rewrite (nth_indep (map (fun p => nth p v false) (info_positions fb)) false ((fun p => nth p v false) 0))
    by (rewrite map_length, length_info_positions; auto).
  rewrite (map_nth (fun p => nth p v false)). rewrite info_positions_nth by auto. auto.
Qed.

Lemma input_word_extract : forall fb v, length v = length fb -> frozen_zero fb v ->
  input_word fb (map (fun p => nth p v false) (info_positions fb)) v.
Proof. intros. split; auto. split; auto. reflexivity. Qed.

(** set_frozen *)
Lemma set_frozen_ok : forall K N fb pos, length pos = K ->
  set_frozen K N fb pos =
    if (length fb =? N) && (K =? count_info fb) then Ret (fb, info_positions fb) else Throws.
Proof.
  intros K N fb pos LK. unfold set_frozen, fb_assert, guard.
  destruct (Nat.eqb_spec (length fb) N) as [LN|]; cbn [bind andb]; auto.
  destruct (Nat.eqb_spec K (count_info fb)) as [CK|]; cbn [bind]; auto.
  match goal with |- bind (for_ _ ?body _) _ = _ =>
    destruct (for_inv _ (fun n (st : list nat * nat) => let '(o, k) := st in
       k = rank fb n /\ length o = K /\
       firstn k o = filter (fun i => negb (nth i fb true)) (seq 0 n))
      N body (pos, 0)) as ([o j] & E & Ej & Lo & I)
  end.
  - repeat split; auto.
  - intros n [o k] Hn (Ek & Lo & I). rewrite (rd_ok _ true) by lia. cbn [bind].
    pose proof (rank_S fb n ltac:(lia)) as RS. rewrite filter_seq_S.
    destruct (nth n fb true) eqn:F; simpl negb; cbv iota.
    + eexists; split; [reflexivity|]. rewrite app_nil_r. repeat split; auto; lia.
    + pose proof (rank_lt fb n ltac:(lia) F). rewrite wr_ok by lia. cbn [bind].
      eexists; split; [reflexivity|]. cbv iota beta. rewrite length_upd. repeat split; auto; try lia.
      rewrite <- I. clear - H Ek Lo CK.
      assert (k < length o) by lia. clear - H0. revert k H0.
      induction o; simpl; intros; [lia|]. destruct k; simpl; auto. f_equal. apply IHo. lia.
  - rewrite E. cbn [bind]. f_equal. f_equal. unfold info_positions. rewrite LN, <- I, Ej.
    rewrite <- LN, rank_full, <- CK, <- Lo. symmetry. apply firstn_all.
Qed.

(* ------------------------------------------------------------------ *)
(** * mask and systematic encoder *)

Lemma mask_ok : forall fb x, length x = length fb ->
  mask_frozen (length fb) fb x = Ret (tab (length fb) (fun i => negb (nth i fb true) && nth i x false)).
Proof.
  intros fb x L. unfold mask_frozen.
  destruct (for_inv _ (fun i o => length o = length fb /\ forall p, nth p o false =
     if p <? i then negb (nth p fb true) && nth p x false else nth p x false)
    (length fb) (fun i x => f <- rd fb i ;; v <- rd x i ;; wr x i (negb f && v)) x) as (o & E & Lo & I).
  - split; auto.
  - intros i s Hi (Ls & I). rewrite (rd_ok _ true), (rd_ok _ false) by lia. cbn [bind].
    rewrite wr_ok by lia. eexists; split; [reflexivity|]. cbv iota beta. rewrite length_upd. split; auto.
    intros p. rewrite nth_upd by lia. rewrite !I. destruct (Nat.eqb_spec p i).
    + subst. rewrite Nat.ltb_irrefl. destruct (Nat.ltb_spec i (S i)); auto; lia.
    + destruct (Nat.ltb_spec p i), (Nat.ltb_spec p (S i)); auto; lia.
  - rewrite E. f_equal. apply eq_tab with (d := false); auto. intros p Hp. rewrite I.
    destruct (Nat.ltb_spec p (length fb)); auto; lia.
Qed.

(* ------------------------------------------------------------------ *)
(** * is_codeword *)

Definition low_ones (t b : nat) : nat := b * (2 * 2 ^ t) + 2 ^ t - 1.

(** what the positions checked so far say *)
Definition checked (n t b : nat) (fb x : list bool) : Prop :=
  forall t' b', t' < n -> low_ones t' b' < 2 ^ n -> (t < t' \/ (t' = t /\ b' < b)) ->
    nth (low_ones t' b') fb true = true -> arikan_bit (2 ^ n) x (low_ones t' b') = false.

(** from stride 2^t down, a position with its t low bits set is final *)
Lemma part_final : forall n u p t, t <= n -> p < 2 ^ n ->
  (forall s, s < t -> Nat.odd (p / 2 ^ s) = true) -> part n t u p = arikan_bit (2 ^ n) u p.
Proof.
  induction t; intros. { apply part_bot. }
  rewrite <- IHt by (auto; lia). rewrite (part_step n t) by (auto; lia). rewrite H1 by lia. auto.
Qed.

Lemma low_ones_odd : forall t b s, s < t -> Nat.odd (low_ones t b / 2 ^ s) = true.
Proof.
  intros t b s Hs. unfold low_ones. pose proof (pow2_pos s).
  assert (E : 2 ^ t = 2 ^ (t - S s) * (2 * 2 ^ s)).
  { rewrite <- Nat.pow_succ_r', <- Nat.pow_add_r. f_equal. lia. }
  pose proof (pow2_pos (t - S s)).
  set (q := 2 ^ (t - S s)) in *. set (w := 2 ^ s) in *.
  replace (b * (2 * 2 ^ t) + 2 ^ t - 1) with ((2 * (b * 2 * q + q - 1) + 1) * w + (w - 1)).
  - destruct (divmod_idx (2 * (b * 2 * q + q - 1) + 1) (w - 1) w ltac:(lia)) as [-> _]. rewrite odd_2. auto.
  - rewrite E. nia.
Qed.

Lemma low_ones_even : forall t b, Nat.odd (low_ones t b / 2 ^ t) = false.
Proof.
  intros. unfold low_ones. pose proof (pow2_pos t).
  replace (b * (2 * 2 ^ t) + 2 ^ t - 1) with (2 * b * 2 ^ t + (2 ^ t - 1)) by lia.
  destruct (divmod_idx (2 * b) (2 ^ t - 1) (2 ^ t) ltac:(lia)) as [-> _].
  replace (2 * b) with (2 * b + 0) by lia. rewrite odd_2. auto.
Qed.

Definition cw_inv (n t b : nat) (fb x : list bool) (st : option (list bool)) : Prop :=
  match st with
  | Some s => after_blocks (2 ^ t) b (tab (2 ^ n) (part n (S t) x)) s /\ checked n t b fb x
  | None => exists i, i < 2 ^ n - 1 /\ nth i fb true = true /\ arikan_bit (2 ^ n) x i = true
  end.

Lemma pow_split : forall n t, t < n -> 2 ^ n = 2 ^ (n - S t) * (2 * 2 ^ t).
Proof. intros. rewrite <- Nat.pow_succ_r', <- Nat.pow_add_r. f_equal. lia. Qed.

Lemma low_ones_lt : forall n t b, t < n -> b < 2 ^ (n - S t) -> low_ones t b < 2 ^ n - 1.
Proof.
  intros. unfold low_ones. pose proof (pow2_pos t). rewrite (pow_split n t) by auto.
  set (q := 2 ^ (n - S t)) in *. set (w := 2 ^ t) in *. nia.
Qed.

Lemma cw_stage_ok : forall n t fb x st, t < n -> length fb = 2 ^ n -> length x = 2 ^ n ->
  cw_inv n t 0 fb x st ->
  exists st', cw_stage (2 ^ n) (2 ^ t) fb st = Ret st' /\ cw_inv n t (2 ^ (n - S t)) fb x st'.
Proof.
  intros n t fb x st Ht Lf Lx I0. unfold cw_stage.
  assert (T : (2 ^ n + 2 * 2 ^ t - 1) / (2 * 2 ^ t) = 2 ^ (n - S t)).
  { rewrite (pow_split n t Ht). apply stage_turns. apply pow2_pos. }
  rewrite T.
  apply for_inv with (Inv := fun b st => cw_inv n t b fb x st); auto.
  intros b [s|] Hb I.
  2:{ eexists; split; [reflexivity|]. exact I. }
  destruct I as [A C]. cbv zeta.
  destruct (after_blocks_step (2 ^ (n - S t)) (2 ^ t) b (tab (2 ^ n) (part n (S t) x)) s) as (s' & E & A'); auto.
  { apply pow2_pos. }
  { rewrite length_tab. apply pow_split; auto. }
  rewrite E. cbn [bind]. 
  assert (Hp : low_ones t b < 2 ^ n - 1) by (apply low_ones_lt; auto).
  change (b * (2 * 2 ^ t) + 2 ^ t - 1) with (low_ones t b).
  rewrite (rd_ok _ true) by lia. cbn [bind].
  assert (V : nth (low_ones t b) s' false = arikan_bit (2 ^ n) x (low_ones t b)).
  { destruct A' as [L' I']. rewrite I'.
    assert (low_ones t b < S b * (2 * 2 ^ t)).
    { unfold low_ones. pose proof (pow2_pos t). lia. }
    rewrite (proj2 (Nat.ltb_lt _ _)) by auto.
    rewrite <- (part_final n x (low_ones t b) t) by (try lia; apply low_ones_odd).
    rewrite part_step by (auto; lia). unfold stage_val. rewrite low_ones_even.
    rewrite !nth_tab; auto; try lia.
    unfold low_ones. pose proof (pow2_pos t). rewrite (pow_split n t) by auto.
    set (q := 2 ^ (n - S t)) in *. set (w := 2 ^ t) in *. nia. }
  assert (L' : length s' = 2 ^ n). { destruct A' as [-> _]. apply length_tab. }
  destruct (nth (low_ones t b) fb true) eqn:F.
  - rewrite (rd_ok _ false) by lia. cbn [bind]. rewrite V.
    destruct (arikan_bit (2 ^ n) x (low_ones t b)) eqn:W.
    + eexists; split; [reflexivity|]. exists (low_ones t b). auto.
    + eexists; split; [reflexivity|]. split; auto. intros t' b' H1 H2 [H3|[H3 H4]] H5.
      * apply C; auto.
      * subst t'. destruct (Nat.eq_dec b' b); [subst; auto|]. apply C; auto. right; lia.
  - eexists; split; [reflexivity|]. split; auto. intros t' b' H1 H2 [H3|[H3 H4]] H5.
    + apply C; auto.
    + subst t'. destruct (Nat.eq_dec b' b); [subst; congruence|]. apply C; auto. right; lia.
Qed.

(** every position but the last one is checked *)
Lemma low_ones_cover : forall n i, i < 2 ^ n - 1 -> exists t b, t < n /\ i = low_ones t b.
Proof.
  induction n; intros. { simpl in H. lia. }
  rewrite Nat.pow_succ_r' in H.
  destruct (split2 i) as (a & c & E). destruct c; simpl Nat.b2n in E.
  - destruct (IHn a) as (t & b & Ht & Ea). { lia. }
    exists (S t), b. split; [lia|]. unfold low_ones in *. rewrite Nat.pow_succ_r'. pose proof (pow2_pos t). lia.
  - exists 0, a. split; [lia|]. unfold low_ones. simpl. lia.
Qed.

Lemma cw_loop_ok : forall n t fb x st fuel, t <= n -> length fb = 2 ^ n -> length x = 2 ^ n -> t < fuel ->
  match st with
  | Some s => s = tab (2 ^ n) (part n t x) /\
      (forall t' b', t <= t' -> t' < n -> low_ones t' b' < 2 ^ n ->
        nth (low_ones t' b') fb true = true -> arikan_bit (2 ^ n) x (low_ones t' b') = false)
  | None => exists i, i < 2 ^ n - 1 /\ nth i fb true = true /\ arikan_bit (2 ^ n) x i = true
  end ->
  exists st', cw_loop fuel (2 ^ n) (2 ^ t / 2) fb st = Ret st' /\
    match st' with
    | Some _ => forall i, i < 2 ^ n - 1 -> nth i fb true = true -> arikan_bit (2 ^ n) x i = false
    | None => exists i, i < 2 ^ n - 1 /\ nth i fb true = true /\ arikan_bit (2 ^ n) x i = true
    end.
Proof.
  induction t; intros fb x st fuel Ht Lf Lx Hf I.
  - destruct fuel; [lia|]. simpl. exists st. split; auto. destruct st; auto.
    intros i Hi F. destruct I as [_ I]. destruct (low_ones_cover n i Hi) as (t & b & H1 & ->).
    apply I; auto; lia.
  - destruct fuel; [lia|]. cbn [cw_loop].
    replace (2 ^ S t / 2) with (2 ^ t) by (rewrite Nat.pow_succ_r', Nat.mul_comm, Nat.div_mul; lia).
    destruct (Nat.eqb_spec (2 ^ t) 0) as [e|_]. { pose proof (pow2_pos t); lia. }
    destruct (cw_stage_ok n t fb x st) as (st' & E & I'); auto.
    + destruct st as [s|]; auto. destruct I as [-> I]. split.
      * split; auto. 
      * intros t' b' H1 H2 [H3|[H3 H4]]; [|lia]. apply I; auto; lia.
    + rewrite E. cbn [bind]. apply IHt; auto; try lia. destruct st' as [s|]; auto.
      destruct I' as [[L A] C]. split.
      * rewrite length_tab in L. apply eq_tab with (d := false); auto. intros p Hp. rewrite A.
        rewrite <- pow_split by auto. rewrite (proj2 (Nat.ltb_lt _ _)) by auto.
        unfold stage_val. rewrite part_step by auto. rewrite nth_tab by auto.
        destruct (Nat.odd (p / 2 ^ t)) eqn:O; auto. f_equal. apply nth_tab.
        assert (E2 := pow_split n t Ht). rewrite E2 in Hp |- *. pose proof (pow2_pos t).
        assert (p / (2 ^ t) < 2 ^ (n - S t) * 2). { apply Nat.div_lt_upper_bound; lia. }
        assert (p / 2 ^ t + 1 < 2 ^ (n - S t) * 2).
        { destruct (split2 (p / 2 ^ t)) as (a & c & Eac). rewrite Eac in *. rewrite odd_2 in O.
          destruct c; [discriminate|]. simpl Nat.b2n in *. lia. }
        pose proof (Nat.div_mod p (2 ^ t)). pose proof (Nat.mod_upper_bound p (2 ^ t)).
        set (q := 2 ^ (n - S t)) in *. set (w := 2 ^ t) in *. nia.
      * intros t' b' H1 H2 H3 F. apply C; auto.
        destruct (Nat.eq_dec t' t); [|lia]. right. split; auto.
        destruct (Nat.lt_ge_cases b' (2 ^ (n - S t))); auto. exfalso. subst t'.
        unfold low_ones in H3. pose proof (pow2_pos t). rewrite (pow_split n t) in H3 by auto.
        set (q := 2 ^ (n - S t)) in *. set (w := 2 ^ t) in *. nia.
Qed.

Lemma is_codeword_spec : forall n fb x, length fb = 2 ^ n -> length x = 2 ^ n ->
  exists r, is_codeword (2 ^ n) fb x = Ret r /\
    (r = true <-> forall i, i < 2 ^ n - 1 -> nth i fb true = true -> arikan_bit (2 ^ n) x i = false).
Proof.
  intros n fb x Lf Lx. unfold is_codeword. rewrite Lx, Nat.leb_refl.
  rewrite (firstn_all2 x) by lia.
  destruct (cw_loop_ok n n fb x (Some x) (2 ^ n)) as (st & E & I); auto.
  - apply pow2_gt.
  - split.
    + apply eq_tab with (d := false); auto. intros. symmetry. apply part_top; auto.
    + intros; lia.
  - rewrite E. cbn [bind]. eexists; split; [reflexivity|]. destruct st as [s|]; split; auto; try discriminate.
    intros H. destruct I as (i & H1 & H2 & H3). rewrite H in H3; auto.
Qed.
