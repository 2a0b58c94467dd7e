From Coq Require Import List Arith ZArith Lia Bool.
From Verif Require Import Base Copy ConvModel ConvSpec.
Import ListNotations.

(* ------------------------------------------------------------------ *)
(** * A machine: total transition functions under the outcomes *)

Record machine (e : rsc) (S : nat) (P X : nat -> nat -> nat) (T : nat -> nat) : Prop := {
  m_pos : 0 < S;
  m_inner : forall b s, b < 2 -> s < S -> inner e b s = Ret (P b s, X b s);
  m_next : forall b s, b < 2 -> s < S -> X b s < S;
  m_tail : forall s, s < S -> tail_bit e s = Ret (T s);
  m_tailb : forall s, s < S -> T s < 2 }.

(** State and systematic bit at time [t] for the message [u]. *)
Fixpoint st_at (X : nat -> nat -> nat) (T : nat -> nat) (K : nat) (u : list nat) (t : nat) : nat :=
  match t with
  | O => 0
  | S t' => let s := st_at X T K u t' in X (if t' <? K then nth t' u 0 else T s) s
  end.
Definition in_at (X : nat -> nat -> nat) (T : nat -> nat) (K : nat) (u : list nat) (t : nat) : nat :=
  if t <? K then nth t u 0 else T (st_at X T K u t).

Lemma bits_nth : forall u k, bits u -> nth k u 0 < 2.
Proof.
  intros. destruct (Nat.lt_ge_cases k (length u)).
  - unfold bits in H. rewrite Forall_forall in H. apply H. apply nth_In. auto.
  - rewrite nth_overflow; auto.
Qed.

Definition pos (K a b st1 st2 t : nat) : nat := if t <? K then a + t * st1 else b + (t - K) * st2.
Lemma pos_lo : forall K a b st1 st2 i, i < K -> a + i * st1 = pos K a b st1 st2 i.
Proof. intros. unfold pos. destruct (Nat.ltb_spec i K); lia. Qed.
Lemma pos_hi : forall K a b st1 st2 i, b + i * st2 = pos K a b st1 st2 (K + i).
Proof. intros. unfold pos. replace (K + i - K) with i by lia. destruct (Nat.ltb_spec (K + i) K); lia. Qed.

Section Machine.
Variables (e : rsc) (S : nat) (P X : nat -> nat -> nat) (T : nat -> nat).
Hypothesis M : machine e S P X T.
Variables (K N : nat) (u : list nat).
Hypothesis BU : bits u.

Lemma st_lt : forall t, st_at X T K u t < S.
Proof.
  induction t. { simpl. apply (m_pos _ _ _ _ _ M). }
  cbn [st_at]. apply (m_next _ _ _ _ _ M); auto. destruct (t <? K).
  - apply bits_nth; auto.
  - apply (m_tailb _ _ _ _ _ M); auto.
Qed.

Lemma in_lt : forall t, in_at X T K u t < 2.
Proof.
  intros. unfold in_at. destruct (t <? K).
  - apply bits_nth; auto.
  - apply (m_tailb _ _ _ _ _ M). apply st_lt.
Qed.

Lemma st_S : forall t, st_at X T K u (Datatypes.S t) = X (in_at X T K u t) (st_at X T K u t).
Proof. reflexivity. Qed.

Lemma inner_at : forall t, inner e (in_at X T K u t) (st_at X T K u t) =
  Ret (P (in_at X T K u t) (st_at X T K u t), st_at X T K u (Datatypes.S t)).
Proof. intros. rewrite st_S. apply (m_inner _ _ _ _ _ M). apply in_lt. apply st_lt. Qed.

Variables (sys tsys par tpar stride st : nat).
Let sp := pos K sys tsys stride st.
Let pp := pos K par tpar stride st.
Let L := K + n_ff e.
Hypothesis Hs : forall t, t < L -> sp t < N.
Hypothesis Hp : forall t, t < L -> pp t < N.
Hypothesis Is : forall t t', t < L -> t' < L -> sp t = sp t' -> t = t'.
Hypothesis Ip : forall t t', t < L -> t' < L -> pp t = pp t' -> t = t'.
Hypothesis D : forall t t', t < L -> t' < L -> sp t <> pp t'.

Lemma encode_at : forall x, length x = N -> K <= length u ->
  exists o, length o = N /\
    (forall t, t < L -> nth (sp t) o 0 = in_at X T K u t /\
                        nth (pp t) o 0 = P (in_at X T K u t) (st_at X T K u t)) /\
    rsc_encode_at e K u x sys tsys par tpar stride st = if st_at X T K u L =? 0 then Ret o else Throws.
Proof.
  intros x LX LU. unfold rsc_encode_at.
  match goal with |- context [for_ K ?body x] =>
    destruct (for_inv _ (fun i o => length o = N /\ forall t, t < i -> nth (sp t) o 0 = nth t u 0) K body x) as (x1 & E1 & L1 & I1) end.
  { split; auto. intros; lia. }
  { intros i o Hi [Lo I]. rewrite (rd_ok _ 0) by lia. cbn [bind]. rewrite (pos_lo K sys tsys stride st) by auto. fold sp.
    rewrite wr_ok by (rewrite Lo; apply Hs; unfold L; lia). eexists. split; [reflexivity|]. split; [rewrite length_upd; auto|].
    intros t Ht. rewrite nth_upd by (rewrite Lo; apply Hs; unfold L; lia).
    destruct (Nat.eqb_spec (sp t) (sp i)) as [E|E].
    - apply Is in E; subst; auto; unfold L; lia.
    - apply I. assert (t <> i) by (intros ->; auto). lia. }
  rewrite E1. cbn [bind].
  match goal with |- context [for_ K ?body (x1, 0)] =>
    destruct (for_inv _ (fun i (os : list nat * nat) => length (fst os) = N /\ snd os = st_at X T K u i /\
        (forall t, t < K -> nth (sp t) (fst os) 0 = nth t u 0) /\
        forall t, t < i -> nth (pp t) (fst os) 0 = P (in_at X T K u t) (st_at X T K u t)) K body (x1, 0)) as ([x2 s2] & E2 & L2 & S2 & I2 & J2) end.
  { cbn [fst snd]. repeat split; auto. intros; lia. }
  { intros i [o s] Hi (Lo & Es & I & J). cbn [fst snd] in *. subst s.
    rewrite (rd_ok _ 0) by lia. cbn [bind].
    assert (EI : in_at X T K u i = nth i u 0). { unfold in_at. destruct (Nat.ltb_spec i K); auto; lia. }
    rewrite <- EI. rewrite inner_at. cbn [bind]. rewrite (pos_lo K par tpar stride st) by auto. fold pp.
    assert (pp i < length o) by (rewrite Lo; apply Hp; unfold L; lia).
    rewrite wr_ok by auto. cbn [bind]. eexists. split; [reflexivity|]. cbn [fst snd]. split; [rewrite length_upd; auto|].
    split; auto. split.
    - intros t Ht. rewrite nth_upd by auto. destruct (Nat.eqb_spec (sp t) (pp i)) as [E|E]; auto.
      exfalso. revert E. apply D; unfold L; lia.
    - intros t Ht. rewrite nth_upd by auto. destruct (Nat.eqb_spec (pp t) (pp i)) as [E|E].
      + apply Ip in E; [subst; auto| unfold L; lia| unfold L; lia].
      + apply J. assert (t <> i) by (intros ->; auto). lia. }
  rewrite E2. cbn [bind fst snd] in *. subst s2.
  match goal with |- context [for_ (n_ff e) ?body (x2, ?s)] =>
    destruct (for_inv _ (fun i (os : list nat * nat) => length (fst os) = N /\ snd os = st_at X T K u (K + i) /\
        forall t, t < K + i -> nth (sp t) (fst os) 0 = in_at X T K u t /\
           nth (pp t) (fst os) 0 = P (in_at X T K u t) (st_at X T K u t)) (n_ff e) body (x2, s)) as ([x3 s3] & E3 & L3 & S3 & I3) end.
  { cbn [fst snd]. rewrite Nat.add_0_r. repeat split; auto. intros. rewrite I2 by auto. unfold in_at.
    destruct (Nat.ltb_spec t K); auto; lia. }
  { intros i [o s] Hi (Lo & Es & I). cbn [fst snd] in *. subst s.
    rewrite (m_tail _ _ _ _ _ M) by apply st_lt. cbn [bind].
    assert (EI : T (st_at X T K u (K + i)) = in_at X T K u (K + i)). { unfold in_at. destruct (Nat.ltb_spec (K + i) K); auto; lia. }
    rewrite EI. rewrite (pos_hi K sys tsys stride st). fold sp.
    assert (A1 : sp (K + i) < length o) by (rewrite Lo; apply Hs; unfold L; lia).
    assert (A2 : pp (K + i) < length o) by (rewrite Lo; apply Hp; unfold L; lia).
    rewrite wr_ok by auto. cbn [bind]. rewrite inner_at. cbn [bind]. rewrite (pos_hi K par tpar stride st). fold pp. rewrite wr_ok by (rewrite length_upd; auto).
    cbn [bind]. eexists. split; [reflexivity|]. cbn [fst snd]. rewrite !length_upd. split; auto. rewrite <- plus_n_Sm. split; auto.
    intros t Ht. rewrite !nth_upd by (rewrite ?length_upd; auto).
    destruct (Nat.eq_dec t (K + i)) as [->|n].
    - rewrite !Nat.eqb_refl. destruct (Nat.eqb_spec (sp (K + i)) (pp (K + i))) as [E|E]; auto.
      exfalso. revert E. apply D; unfold L; lia.
    - destruct (Nat.eqb_spec (sp t) (pp (K + i))) as [E|_].
      { exfalso. revert E. apply D; unfold L; lia. }
      destruct (Nat.eqb_spec (sp t) (sp (K + i))) as [E|_].
      { apply Is in E; unfold L; lia. }
      destruct (Nat.eqb_spec (pp t) (pp (K + i))) as [E|_].
      { apply Ip in E; unfold L; lia. }
      destruct (Nat.eqb_spec (pp t) (sp (K + i))) as [E|_].
      { exfalso. symmetry in E. revert E. apply D; unfold L; lia. }
      apply I. lia. }
  rewrite E3. cbn [bind fst snd] in *. subst s3. fold L in I3 |- *. exists x3. auto.
Qed.
End Machine.

Section MachineCheck.
Variables (e : rsc) (S : nat) (P X : nat -> nat -> nat) (T : nat -> nat).
Hypothesis M : machine e S P X T.
Variables (K N : nat) (x : list nat).
Hypothesis LX : length x = N.
Variables (sys tsys par tpar stride st : nat).
Let sp := pos K sys tsys stride st.
Let pp := pos K par tpar stride st.
Let L := K + n_ff e.
Hypothesis Hs : forall t, t < L -> sp t < N.
Hypothesis Hp : forall t, t < L -> pp t < N.
Let u := tab K (fun t => nth (sp t) x 0).
Hypothesis u_bits : bits u.

Definition matches (x : list nat) t := nth (sp t) x 0 = in_at X T K u t /\
                      nth (pp t) x 0 = P (in_at X T K u t) (st_at X T K u t).

Lemma in_lo : forall t, t < K -> in_at X T K u t = nth (sp t) x 0.
Proof. intros. unfold in_at. destruct (Nat.ltb_spec t K); [|lia]. unfold u. rewrite nth_tab; auto. Qed.

Lemma is_codeword_at : exists b, rsc_is_codeword_at e K x sys tsys par tpar stride st = Ret b /\
  (b = true <-> forall t, t < L -> matches x t).
Proof.
  unfold rsc_is_codeword_at.
  set (Inv := fun i (o : option nat) => match o with
     | Some s => s = st_at X T K u i /\ forall t, t < i -> matches x t
     | None => exists t, t < L /\ ~ matches x t end).
  match goal with |- context [for_ K ?body ?s0] => destruct (for_inv _ Inv K body s0) as (o & E & I) end.
  { simpl. split; auto. intros; lia. }
  { intros i [s|] Hi HI; cbn beta iota.
    - destruct HI as [-> HI].
      rewrite (pos_lo K sys tsys stride st) by auto. rewrite (pos_lo K par tpar stride st) by auto.
      fold sp. fold pp.
      rewrite !(rd_ok _ 0) by (rewrite LX; first [apply Hp|apply Hs]; unfold L; lia). cbn [bind].
      rewrite <- in_lo by auto. rewrite (inner_at _ _ _ _ _ M) by apply u_bits. cbn [bind].
      destruct (Nat.eqb_spec (nth (pp i) x 0) (P (in_at X T K u i) (st_at X T K u i))) as [Q|Q].
      + eexists. split; [reflexivity|]. split; auto. intros t Ht. destruct (Nat.eq_dec t i) as [->|].
        * split; auto. symmetry. apply in_lo. auto.
        * apply HI. lia.
      + eexists. split; [reflexivity|]. exists i. split; [unfold L; lia|]. intros [_ C]. auto.
    - eexists. split; [reflexivity|]. auto. }
  rewrite E. cbn [bind]. clear E.
  match goal with |- context [for_ (n_ff e) ?body o] => destruct (for_inv _ (fun i o => Inv (K + i) o) (n_ff e) body o) as (o2 & E & I2) end.
  { rewrite Nat.add_0_r. auto. }
  { intros i [s|] Hi HI; cbn beta iota.
    - destruct HI as [-> HI]. rewrite (m_tail _ _ _ _ _ M) by (apply (st_lt _ _ _ _ _ M); apply u_bits). cbn [bind].
      assert (EI : T (st_at X T K u (K + i)) = in_at X T K u (K + i)). { unfold in_at. destruct (Nat.ltb_spec (K + i) K); auto; lia. }
      rewrite EI. rewrite (pos_hi K sys tsys stride st). rewrite (pos_hi K par tpar stride st). fold sp. fold pp.
      rewrite (rd_ok _ 0) by (rewrite LX; apply Hs; unfold L; lia). cbn [bind].
      destruct (Nat.eqb_spec (nth (sp (K + i)) x 0) (in_at X T K u (K + i))) as [Q1|Q1].
      + rewrite (inner_at _ _ _ _ _ M) by apply u_bits. cbn [bind].
        rewrite (rd_ok _ 0) by (rewrite LX; apply Hp; unfold L; lia). cbn [bind].
        destruct (Nat.eqb_spec (nth (pp (K + i)) x 0) (P (in_at X T K u (K + i)) (st_at X T K u (K + i)))) as [Q|Q].
        * eexists. split; [reflexivity|]. rewrite <- plus_n_Sm. split; auto. intros t Ht. destruct (Nat.eq_dec t (K + i)) as [->|].
          { split; auto. } { apply HI. lia. }
        * eexists. split; [reflexivity|]. exists (K + i). split; [unfold L; lia|]. intros [_ C]. auto.
      + eexists. split; [reflexivity|]. exists (K + i). split; [unfold L; lia|]. intros [C _]. auto.
    - eexists. split; [reflexivity|]. auto. }
  rewrite E. cbn [bind]. eexists. split; [reflexivity|]. destruct o2 as [s|].
  - destruct I2 as [_ I2]. split; auto.
  - destruct I2 as (t & Ht & NM). split; [discriminate|]. intros H. exfalso. auto.
Qed.
End MachineCheck.

(* ------------------------------------------------------------------ *)
(** * Layouts *)

Lemma pos_sys : forall (b : bool) K t, pos K 0 (if b then K else 2 * K) (if b then 1 else 2) (if b then 1 else 2) t = sys_pos b t.
Proof. intros. unfold pos, sys_pos. destruct b; destruct (Nat.ltb_spec t K); lia. Qed.
Lemma pos_par : forall (b : bool) K n t, pos K (if b then K + n else 1) (if b then 2 * K + n else 2 * K + 1) (if b then 1 else 2) (if b then 1 else 2) t
  = par_pos b (K + n) t.
Proof. intros. unfold pos, par_pos. destruct b; destruct (Nat.ltb_spec t K); lia. Qed.
Lemma sys_pos_lt : forall b L t, t < L -> sys_pos b t < 2 * L.
Proof. intros. unfold sys_pos. destruct b; lia. Qed.
Lemma par_pos_lt : forall b L t, t < L -> par_pos b L t < 2 * L.
Proof. intros. unfold par_pos. destruct b; lia. Qed.
Lemma sys_pos_inj : forall b t t', sys_pos b t = sys_pos b t' -> t = t'.
Proof. unfold sys_pos. intros. destruct b; lia. Qed.
Lemma par_pos_inj : forall b L t t', par_pos b L t = par_pos b L t' -> t = t'.
Proof. unfold par_pos. intros. destruct b; lia. Qed.
Lemma sys_par : forall b L t t', t < L -> sys_pos b t <> par_pos b L t'.
Proof. unfold par_pos, sys_pos. intros. destruct b; lia. Qed.
Lemma pos_cover : forall b L q, q < 2 * L -> exists t, t < L /\ (q = sys_pos b t \/ q = par_pos b L t).
Proof.
  intros. unfold sys_pos, par_pos. destruct b.
  - destruct (Nat.lt_ge_cases q L); [exists q|exists (q - L)]; lia.
  - pose proof (Nat.div_mod q 2 ltac:(lia)). pose proof (Nat.mod_upper_bound q 2 ltac:(lia)). exists (q / 2). lia.
Qed.

(** The systematic bits of a frame. *)
Definition info (b : bool) (K : nat) (x : list nat) : list nat := tab K (fun t => nth (sys_pos b t) x 0).

Section Enc.
Variables (e : rsc) (S : nat) (P X : nat -> nat -> nat) (T : nat -> nat).
Hypothesis M : machine e S P X T.

Lemma rsc_encode_ok : forall b K u x, bits u -> length u = K -> length x = 2 * K + 2 * n_ff e ->
  exists o, length o = 2 * K + 2 * n_ff e /\
    (forall t, t < K + n_ff e -> nth (sys_pos b t) o 0 = in_at X T K u t /\
       nth (par_pos b (K + n_ff e) t) o 0 = P (in_at X T K u t) (st_at X T K u t)) /\
    rsc_encode e b K u x = if st_at X T K u (K + n_ff e) =? 0 then Ret o else Throws.
Proof.
  intros b K u x BU LU LX. set (L := K + n_ff e).
  destruct (encode_at e S P X T M K (2 * L) u BU 0 (if b then K else 2 * K) (if b then K + n_ff e else 1)
    (if b then 2 * K + n_ff e else 2 * K + 1) (if b then 1 else 2) (if b then 1 else 2)) with (x := x) as (o & Lo & I & E).
  - intros. rewrite pos_sys. apply sys_pos_lt. auto.
  - intros. rewrite pos_par. apply par_pos_lt. auto.
  - intros t t' _ _. rewrite !pos_sys. apply sys_pos_inj.
  - intros t t' _ _. rewrite !pos_par. apply par_pos_inj.
  - intros t t' H _. rewrite pos_sys, pos_par. apply sys_par. auto.
  - unfold L. lia.
  - lia.
  - exists o. split; [unfold L in Lo; lia|]. split.
    + intros t Ht. specialize (I t Ht). rewrite pos_sys, pos_par in I. auto.
    + unfold L. rewrite <- E. unfold rsc_encode. destruct b; auto.
Qed.

Lemma rsc_is_codeword_ok : forall b K x, bits (info b K x) -> length x = 2 * K + 2 * n_ff e ->
  exists r, rsc_is_codeword e b K x = Ret r /\
   (r = true <-> forall t, t < K + n_ff e -> nth (sys_pos b t) x 0 = in_at X T K (info b K x) t /\
       nth (par_pos b (K + n_ff e) t) x 0 = P (in_at X T K (info b K x) t) (st_at X T K (info b K x) t)).
Proof.
  intros b K x BX LX. set (L := K + n_ff e).
  destruct (is_codeword_at e S P X T M K (2 * L) x ltac:(unfold L; lia) 0 (if b then K else 2 * K) (if b then K + n_ff e else 1)
    (if b then 2 * K + n_ff e else 2 * K + 1) (if b then 1 else 2) (if b then 1 else 2)) as (r & E & I).
  - intros. rewrite pos_sys. apply sys_pos_lt. auto.
  - intros. rewrite pos_par. apply par_pos_lt. auto.
  - replace (tab _ _) with (info b K x); auto. apply tab_ext. intros. rewrite pos_sys. auto.
  - exists r. split. { rewrite <- E. unfold rsc_is_codeword. destruct b; auto. }
    rewrite I. unfold matches. assert (EI : tab K (fun t => nth (pos K 0 (if b then K else 2 * K) (if b then 1 else 2) (if b then 1 else 2) t) x 0) = info b K x).
    { apply tab_ext. intros. rewrite pos_sys. auto. }
    rewrite EI. split; intros H t Ht; specialize (H t Ht); rewrite pos_sys, pos_par in *; auto.
Qed.

(** When the tail always returns to 0, is_codeword accepts exactly the encodings. *)
Hypothesis Term : forall K u, bits u -> st_at X T K u (K + n_ff e) = 0.

Lemma rsc_encode_ret : forall b K u x, bits u -> length u = K -> length x = 2 * K + 2 * n_ff e ->
  exists o, rsc_encode e b K u x = Ret o /\ length o = 2 * K + 2 * n_ff e /\
    (forall t, t < K + n_ff e -> nth (sys_pos b t) o 0 = in_at X T K u t /\
       nth (par_pos b (K + n_ff e) t) o 0 = P (in_at X T K u t) (st_at X T K u t)).
Proof.
  intros. destruct (rsc_encode_ok b K u x) as (o & L & I & E); auto. rewrite Term in E by auto. exists o. auto.
Qed.

Lemma info_bits : forall b K x, bits x -> bits (info b K x).
Proof.
  intros. apply Forall_forall. intros c Hc. unfold info, tab in Hc. apply in_map_iff in Hc. destruct Hc as (t & <- & _).
  apply bits_nth. auto.
Qed.

Lemma info_carries : forall b K n u o, length u = K -> (forall t, t < K + n -> nth (sys_pos b t) o 0 = in_at X T K u t) -> info b K o = u.
Proof.
  intros. symmetry. apply (eq_tab _ 0); auto. intros i Hi. rewrite H0 by lia. unfold in_at. destruct (Nat.ltb_spec i K); auto; lia.
Qed.

Lemma rsc_is_codeword_encode : forall b K x buf, bits (info b K x) -> length x = 2 * K + 2 * n_ff e -> length buf = length x ->
  exists r, rsc_is_codeword e b K x = Ret r /\ (r = true <-> rsc_encode e b K (info b K x) buf = Ret x).
Proof.
  intros b K x buf BX LX LB. destruct (rsc_is_codeword_ok b K x BX LX) as (r & E & I). exists r. split; auto. rewrite I.
  destruct (rsc_encode_ret b K (info b K x) buf) as (o & Eo & Lo & Io).
  { auto. } { apply length_tab. } { lia. }
  rewrite Eo. split.
  - intros H. f_equal. apply list_eq_nth with (d := 0). { lia. }
    intros q Hq. destruct (pos_cover b (K + n_ff e) q) as (t & Ht & [-> | ->]); [lia| |].
    + rewrite (proj1 (Io t Ht)), (proj1 (H t Ht)). auto.
    + rewrite (proj2 (Io t Ht)), (proj2 (H t Ht)). auto.
  - intros H. inversion H; subst o. auto.
Qed.
End Enc.

(* ------------------------------------------------------------------ *)
(** * The generic encoder is the shift register *)

Lemma mod2_lt : forall a, a mod 2 < 2.
Proof. intros. apply Nat.mod_upper_bound. lia. Qed.

Lemma sum_cons : forall a l, sum (a :: l) = a + sum l.
Proof. reflexivity. Qed.

Lemma sum_map_xor : forall (f : nat -> bool) l b,
  Nat.b2n (fold_left (fun t i => xorb t (f i)) l b) = (Nat.b2n b + sum (map (fun i => Nat.b2n (f i)) l)) mod 2.
Proof.
  induction l; intros. { destruct b; auto. }
  cbn [fold_left map]. rewrite IHl, sum_cons. rewrite (Nat.add_assoc (Nat.b2n b)). rewrite <- (Nat.add_mod_idemp_l (Nat.b2n b + Nat.b2n (f a))) by lia.
  f_equal. destruct b, (f a); auto.
Qed.

Lemma taps_tapped : forall g n s, taps g n s = tapped g n s.
Proof.
  intros. unfold taps, tapped. rewrite sum_map_xor. cbn [Nat.b2n]. rewrite Nat.add_0_l. do 2 f_equal. apply map_ext. intros.
  destruct (Nat.testbit s a), (Nat.testbit g a); auto.
Qed.

Lemma tapped_lt : forall g n s, tapped g n s < 2.
Proof. intros. apply mod2_lt. Qed.

Lemma lt2 : forall a, a < 2 -> a = 0 \/ a = 1.
Proof. lia. Qed.

Lemma testbit_high : forall a k i, a < 2 ^ k -> k <= i -> Nat.testbit a i = false.
Proof.
  intros. rewrite Nat.testbit_odd, Nat.shiftr_div_pow2, Nat.div_small; auto.
  eapply Nat.lt_le_trans; eauto. apply Nat.pow_le_mono_r; lia.
Qed.

Lemma half_lt : forall n s, 0 < n -> s < 2 ^ n -> s / 2 < 2 ^ (n - 1).
Proof.
  intros n s Hn Hs. apply Nat.div_lt_upper_bound; [lia|]. replace n with (S (n - 1)) in Hs by lia. rewrite Nat.pow_succ_r' in Hs. auto.
Qed.

Lemma lxor_high : forall n s w, 0 < n -> s < 2 ^ n -> w < 2 ->
  Nat.lxor (Nat.div2 s) (Nat.shiftl w (n - 1)) = w * 2 ^ (n - 1) + s / 2.
Proof.
  intros n s w Hn Hs Hw. rewrite Nat.div2_div, Nat.shiftl_mul_pow2. rewrite (Nat.add_comm (w * _)).
  symmetry. apply Nat.add_nocarry_lxor. apply Nat.bits_inj. intros i. rewrite Nat.land_spec, Nat.bits_0.
  destruct (Nat.lt_ge_cases i (n - 1)).
  - rewrite Nat.mul_pow2_bits_low by auto. apply andb_false_r.
  - rewrite (testbit_high _ (n - 1)); auto. apply half_lt; auto.
Qed.

Lemma lxor2 : forall a b, a < 2 -> b < 2 -> Nat.lxor a b = (a + b) mod 2.
Proof. intros a b Ha Hb. destruct (lt2 a Ha), (lt2 b Hb); subst; auto. Qed.

Lemma nth_pairs : forall (f0 f1 : nat -> nat) M s b, s < M -> b < 2 ->
  nth (2 * s + b) (flat_map (fun s => [f0 s; f1 s]) (seq 0 M)) 0 = if b =? 0 then f0 s else f1 s.
Proof.
  intros f0 f1 M. induction M; intros s b Hs Hb; [lia|]. rewrite seq_S, flat_map_app. cbn [flat_map]. rewrite app_nil_r. simpl (0 + M).
  assert (LF : length (flat_map (fun s => [f0 s; f1 s]) (seq 0 M)) = 2 * M).
  { clear. induction M; auto. rewrite seq_S, flat_map_app, app_length, IHM. simpl. lia. }
  destruct (Nat.eq_dec s M) as [->|].
  - rewrite app_nth2 by lia. rewrite LF. replace (2 * M + b - 2 * M) with b by lia. destruct (lt2 b Hb); subst; auto.
  - rewrite app_nth1 by lia. apply IHM; auto. lia.
Qed.
Lemma length_pairs : forall (f0 f1 : nat -> nat) M, length (flat_map (fun s => [f0 s; f1 s]) (seq 0 M)) = 2 * M.
Proof. induction M; auto. rewrite seq_S, flat_map_app, app_length, IHM. simpl. lia. Qed.

Lemma tables_eq : forall p0 p1 n, rsc_tables p0 p1 n =
  (flat_map (fun s => [Nat.lxor (taps p0 n s) (taps p1 n s); Nat.lxor (1 - taps p0 n s) (taps p1 n s)]) (seq 0 (2 ^ n)),
   flat_map (fun s => [Nat.lxor (Nat.div2 s) (Nat.shiftl (taps p0 n s) (n - 1)); Nat.lxor (Nat.div2 s) (Nat.shiftl (1 - taps p0 n s) (n - 1))]) (seq 0 (2 ^ n)),
   map (taps p0 n) (seq 0 (2 ^ n))).
Proof.
  intros. unfold rsc_tables.
  assert (G : forall l a b c, fold_left (fun '(op, ns, st) s =>
    let t := taps p0 n s in let q := taps p1 n s in
    (op ++ [Nat.lxor t q; Nat.lxor (1 - t) q],
     ns ++ [Nat.lxor (Nat.div2 s) (Nat.shiftl t (n - 1)); Nat.lxor (Nat.div2 s) (Nat.shiftl (1 - t) (n - 1))], st ++ [t])) l (a, b, c) =
   (a ++ flat_map (fun s => [Nat.lxor (taps p0 n s) (taps p1 n s); Nat.lxor (1 - taps p0 n s) (taps p1 n s)]) l,
    b ++ flat_map (fun s => [Nat.lxor (Nat.div2 s) (Nat.shiftl (taps p0 n s) (n - 1)); Nat.lxor (Nat.div2 s) (Nat.shiftl (1 - taps p0 n s) (n - 1))]) l,
    c ++ map (taps p0 n) l)).
  { induction l; intros. { cbn [fold_left flat_map map]. rewrite !app_nil_r. auto. }
    cbn [fold_left flat_map map]. cbv zeta. rewrite IHl. rewrite <- !app_assoc. auto. }
  rewrite G. auto.
Qed.

Lemma new_cell_lt : forall p0 n b s, new_cell p0 n b s < 2.
Proof. intros. apply mod2_lt. Qed.

Lemma new_cell_if : forall p0 n b s, b < 2 -> new_cell p0 n b s = if b =? 0 then tapped p0 n s else 1 - tapped p0 n s.
Proof.
  intros. unfold new_cell. pose proof (tapped_lt p0 n s) as T. destruct (lt2 b H); subst; cbn [Nat.eqb].
  - simpl. destruct (lt2 _ T) as [-> | ->]; auto.
  - destruct (lt2 _ T) as [-> | ->]; auto.
Qed.

Lemma machine_generic : forall p0 p1 n, 0 < n ->
  machine (rsc_generic p0 p1 n) (2 ^ n) (par_spec p0 p1 n) (next_spec p0 n) (tapped p0 n).
Proof.
  intros p0 p1 n Hn. unfold rsc_generic. rewrite tables_eq.
  assert (PN : 2 ^ n = 2 * 2 ^ (n - 1)). { rewrite <- Nat.pow_succ_r'. f_equal. lia. }
  assert (XN : forall b s, b < 2 -> s < 2 ^ n -> next_spec p0 n b s < 2 ^ n).
  { intros b s Hb Hs. unfold next_spec. pose proof (half_lt n s Hn Hs). pose proof (new_cell_lt p0 n b s). rewrite PN. nia. }
  constructor; auto; cbn [inner tail_bit].
  - pose proof (Nat.pow_nonzero 2 n). lia.
  - intros b s Hb Hs. rewrite !(rd_ok _ 0) by (rewrite length_pairs; lia). cbn [bind].
    rewrite !nth_pairs by auto. rewrite !taps_tapped. do 2 f_equal.
    + unfold par_spec. rewrite new_cell_if by auto. pose proof (tapped_lt p0 n s). pose proof (tapped_lt p1 n s).
      destruct (lt2 b Hb); subst; cbn [Nat.eqb]; apply lxor2; lia.
    + unfold next_spec. rewrite new_cell_if by auto. pose proof (tapped_lt p0 n s).
      destruct (lt2 b Hb); subst; cbn [Nat.eqb]; apply lxor_high; auto; lia.
  - intros s Hs. rewrite (rd_ok _ 0) by (rewrite map_length, seq_length; auto). f_equal.
    change (map (taps p0 n) (seq 0 (2 ^ n))) with (tab (2 ^ n) (taps p0 n)). rewrite nth_tab by auto. apply taps_tapped.
  - intros. apply tapped_lt.
Qed.

(** The tail empties the register. *)
Lemma new_cell_tail : forall p0 n s, new_cell p0 n (tapped p0 n s) s = 0.
Proof. intros. unfold new_cell. destruct (lt2 _ (tapped_lt p0 n s)) as [-> | ->]; auto. Qed.

Lemma tail_zero : forall p0 n K u j, 0 < n -> bits u -> j <= n ->
  st_at (next_spec p0 n) (tapped p0 n) K u (K + j) < 2 ^ (n - j).
Proof.
  intros p0 n K u j Hn BU. induction j; intros Hj.
  - rewrite Nat.add_0_r, Nat.sub_0_r. apply (st_lt _ _ _ _ _ (machine_generic p0 0 n Hn)). auto.
  - rewrite <- plus_n_Sm, st_S. unfold in_at. destruct (Nat.ltb_spec (K + j) K); [lia|].
    unfold next_spec at 1. rewrite new_cell_tail. rewrite Nat.mul_0_l, Nat.add_0_l.
    replace (n - S j) with (n - j - 1) by lia. apply half_lt; [lia|]. apply IHj. lia.
Qed.

Lemma generic_term : forall p0 n, 0 < n -> forall K u, bits u ->
  st_at (next_spec p0 n) (tapped p0 n) K u (K + n) = 0.
Proof. intros. pose proof (tail_zero p0 n K u n H H0 ltac:(lia)). rewrite Nat.sub_diag in H1. simpl in H1. lia. Qed.

(* ------------------------------------------------------------------ *)
(** * Polynomial products *)

Lemma sum_app : forall a b, sum (a ++ b) = sum a + sum b.
Proof. induction a; simpl; intros; auto. rewrite IHa. lia. Qed.
Lemma sum_rev : forall a, sum (rev a) = sum a.
Proof. induction a; simpl; auto. rewrite sum_app, IHa. simpl. lia. Qed.

Lemma nth_map_seq : forall (f : nat -> nat) a n i d, i < n -> nth i (map f (seq a n)) d = f (a + i).
Proof.
  intros. rewrite (nth_indep _ d (f 0)) by (rewrite map_length, seq_length; auto). rewrite map_nth, seq_nth; auto.
Qed.

Definition reg_ok (n : nat) (w : list nat) (t s : nat) : Prop :=
  forall i, i < n -> Nat.b2n (Nat.testbit s i) = if n - i <=? t then nth (t - (n - i)) w 0 else 0.

Lemma conv_state : forall g n w t s, Nat.testbit g n = true -> reg_ok n w t s ->
  conv g n w t = (nth t w 0 + tapped g n s) mod 2.
Proof.
  intros g n w t s HG HR. unfold conv, tapped. rewrite Nat.add_mod_idemp_r by lia. f_equal.
  cbn [seq map]. rewrite sum_cons. cbn [Nat.leb]. rewrite !Nat.sub_0_r, HG. cbn [Nat.b2n].
  rewrite Nat.mul_1_l. f_equal. rewrite <- sum_rev. f_equal. apply list_eq_nth with (d := 0).
  { rewrite rev_length, !map_length, !seq_length. auto. }
  intros i Hi. rewrite rev_length, map_length, seq_length in Hi. rewrite rev_nth by (rewrite map_length, seq_length; auto).
  rewrite map_length, seq_length.
  rewrite !nth_map_seq by lia.
  replace (1 + (n - S i)) with (n - i) by lia. rewrite Nat.add_0_l. rewrite HR by auto. replace (n - (n - i)) with i by lia.
  destruct (n - i <=? t); lia.
Qed.

Lemma reg_ok_step : forall p0 n w t s b, 0 < n -> reg_ok n w t s -> s < 2 ^ n -> new_cell p0 n b s = nth t w 0 ->
  reg_ok n w (S t) (next_spec p0 n b s).
Proof.
  intros p0 n w t s b Hn HR Hs E i Hi. unfold next_spec. rewrite E. pose proof (half_lt n s Hn Hs).
  rewrite <- lxor_high; auto. 2: { rewrite <- E. apply new_cell_lt. }
  rewrite Nat.lxor_spec. rewrite Nat.div2_div.
  destruct (Nat.eq_dec i (n - 1)) as [->|].
  - rewrite (testbit_high _ (n - 1)) by auto. rewrite Nat.shiftl_spec_high' by auto. rewrite Nat.sub_diag.
    replace (n - (n - 1)) with 1 by lia. cbn [Nat.leb]. rewrite Nat.sub_succ, Nat.sub_0_r.
    pose proof (new_cell_lt p0 n b s) as C. rewrite E in C. destruct (lt2 _ C) as [-> | ->]; auto.
  - rewrite Nat.shiftl_spec_low by lia. rewrite xorb_false_r. rewrite <- Nat.div2_div, Nat.div2_spec, Nat.shiftr_spec'.
    rewrite Nat.add_1_r. rewrite HR by lia. replace (n - i) with (S (n - S i)) by lia. cbn [Nat.leb]. auto.
Qed.

Section Code.
Variables (p0 n : nat).
Hypothesis Hn : 0 < n.
Hypothesis H0 : Nat.testbit p0 n = true.
Let X := next_spec p0 n.
Let T := tapped p0 n.

Lemma generic_st_lt : forall K u t, bits u -> st_at X T K u t < 2 ^ n.
Proof. intros. apply (st_lt _ _ _ _ _ (machine_generic p0 0 n Hn)). auto. Qed.

Lemma reg_of : forall K u w, bits u -> bits w -> length w = K ->
  (forall t, t < K -> nth t u 0 = conv p0 n w t \/ nth t w 0 = new_cell p0 n (in_at X T K u t) (st_at X T K u t)) ->
  forall t, reg_ok n w t (st_at X T K u t) /\ new_cell p0 n (in_at X T K u t) (st_at X T K u t) = nth t w 0.
Proof.
  intros K u w BU BW LW H.
  assert (C : forall t, reg_ok n w t (st_at X T K u t) -> new_cell p0 n (in_at X T K u t) (st_at X T K u t) = nth t w 0).
  { intros t HR. destruct (Nat.lt_ge_cases t K) as [h|h].
    - destruct (H t h) as [E|E]; auto. unfold in_at. destruct (Nat.ltb_spec t K); [|lia]. rewrite E.
      rewrite (conv_state _ _ _ _ _ H0 HR). unfold new_cell.
      pose proof (bits_nth w t BW) as A. pose proof (tapped_lt p0 n (st_at X T K u t)) as B.
      destruct (lt2 _ A) as [-> | ->], (lt2 _ B) as [-> | ->]; auto.
    - unfold in_at. destruct (Nat.ltb_spec t K); [lia|]. unfold T. rewrite new_cell_tail. rewrite nth_overflow; auto. lia. }
  intros t. assert (HR : reg_ok n w t (st_at X T K u t)); [|auto].
  induction t.
  - intros i Hi. destruct (Nat.leb_spec (n - i) 0); [lia|]. cbn [st_at]. rewrite Nat.bits_0. auto.
  - rewrite st_S. apply reg_ok_step; auto. apply generic_st_lt. auto.
Qed.

Lemma in_conv : forall K u w t, bits u -> bits w -> reg_ok n w t (st_at X T K u t) ->
  new_cell p0 n (in_at X T K u t) (st_at X T K u t) = nth t w 0 -> in_at X T K u t = conv p0 n w t.
Proof.
  intros K u w t BU BW HR E. rewrite (conv_state _ _ _ _ _ H0 HR). rewrite <- E. unfold new_cell.
  pose proof (in_lt _ _ _ _ _ (machine_generic p0 0 n Hn) K u BU t) as A. fold X T in A.
  pose proof (tapped_lt p0 n (st_at X T K u t)) as B.
  destruct (lt2 _ A) as [-> | ->], (lt2 _ B) as [-> | ->]; auto.
Qed.

Lemma par_conv : forall p1 K u w t, Nat.testbit p1 n = true -> reg_ok n w t (st_at X T K u t) ->
  new_cell p0 n (in_at X T K u t) (st_at X T K u t) = nth t w 0 ->
  par_spec p0 p1 n (in_at X T K u t) (st_at X T K u t) = conv p1 n w t.
Proof. intros p1 K u w t H HR E. rewrite (conv_state _ _ _ _ _ H HR). unfold par_spec. rewrite E. auto. Qed.
End Code.
