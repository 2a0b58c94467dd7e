(** The table of the Berlekamp iteration (shared by the BCH and the Reed-Solomon decoders) is
    the one of BMTheory. *)
From Coq Require Import List Arith NArith ZArith Lia Bool.
From Verif Require Import Base Copy GField BMTheory GaloisModel GFTab BCHModel.
Import ListNotations.

Definition get2 (e : list (list Z)) (i j : nat) : Z := nth j (nth i e []) 0%Z.
Definition shape (n : nat) (e : list (list Z)) : Prop := length e = n + 2 /\ forall i, i < n + 2 -> length (nth i e []) = n.

Lemma rd2_ok : forall n e i j, shape n e -> i < n + 2 -> j < n -> rd2 e i j = Ret (get2 e i j).
Proof.
  intros n e i j [H1 H2] Hi Hj. unfold rd2. rewrite (rd_ok _ []) by lia. cbn [bind]. rewrite (rd_ok _ 0%Z) by (rewrite H2; auto). auto.
Qed.
Lemma wr2_ok : forall n e i j x, shape n e -> i < n + 2 -> j < n ->
  exists e', wr2 e i j x = Ret e' /\ shape n e' /\ forall i' j', get2 e' i' j' = if (i' =? i) && (j' =? j) then x else get2 e i' j'.
Proof.
  intros n e i j x [H1 H2] Hi Hj. unfold wr2. rewrite (rd_ok _ []) by lia. cbn [bind]. rewrite wr_ok by (rewrite H2; auto). cbn [bind]. rewrite wr_ok by lia.
  eexists. split; [reflexivity|]. split.
  - split. { rewrite length_upd. auto. } intros k Hk. rewrite nth_upd by lia. destruct (Nat.eqb_spec k i). { rewrite length_upd. apply H2. auto. } auto.
  - intros i' j'. unfold get2. rewrite nth_upd by lia. destruct (Nat.eqb_spec i' i); cbn [andb]; auto. subst. rewrite nth_upd by (rewrite H2; auto). auto.
Qed.

Section BM.
Variables (F : field) (n : nat) (al : F) (pf xf : F -> Z) (alpha index : list Z).
Hypothesis T : tabs F n al pf xf alpha index.
Notation "0" := (f0 F).
Notation "1" := (f1 F).
Infix "+" := (fadd F).
Infix "*" := (fmul F).
Notation "/ x" := (finv F x).
Add Ring Fring7 : (Frt F).
Notation conv := (conv F). Notation row_ok := (row_ok F). Notation minimal := (minimal F).

Variables (t : nat) (s : list Z) (S : nat -> F).
Hypothesis Ht : 1 <= t.
Hypothesis Htn : 2 * t < n.
Hypothesis Ls : length s = Datatypes.S (2 * t).
Hypothesis HS : forall k, 1 <= k <= 2 * t -> nth k s 0%Z = xf (S k).

Definition dd (sg : nat -> nat -> F) (ls : nat -> nat) (q : nat) : F := match q with O => 1 | _ => conv (sg q) S (ls q) q end.

Record bmst (u : nat) (elp : list (list Z)) (disc : list Z) (l : list nat) (ulu : list Z) (sg : nat -> nat -> F) (ls : nat -> nat) : Prop := {
  i_shape : shape n elp; i_ld : length disc = (n + 2)%nat; i_ll : length l = (n + 2)%nat; i_lu : length ulu = (n + 2)%nat;
  i_l : forall q, q <= u -> nth q l 0%nat = ls q;
  i_ulu : forall q, q <= u -> nth q ulu 0%Z = (Z.of_nat q - 1 - Z.of_nat (ls q))%Z;
  i_row : forall q, q < u -> forall i, i <= ls q -> get2 elp q i = xf (sg q i);
  i_cur : forall i, i <= ls u -> i < 2 * t -> get2 elp u i = pf (sg u i);
  i_d : forall q, q <= u -> q <= 2 * t -> nth q disc 0%Z = xf (dd sg ls q);
  i_ok : forall q, q <= u -> row_ok S q (sg q) (ls q);
  i_min : minimal S (u - 1) (ls u);
  i_le : forall q, q < u -> dd sg ls q <> 0 -> q <= ls u + ls q;
  i_ex : exists q, q < u /\ dd sg ls q <> 0 /\ q = (ls u + ls q)%nat }.

(** ** Choice of the earlier row *)
Lemma first_ok : forall disc (d : nat -> F) q, q < length disc -> (forall j, j <= q -> nth j disc 0%Z = xf (d j)) -> d 0%nat <> 0 ->
  exists q', bm_first disc q = Ret q' /\ q' <= q /\ d q' <> 0 /\ forall j, q' < j <= q -> d j = 0.
Proof.
  induction q; intros Hl Hd H0; cbn [bm_first].
  - rewrite (rd_ok _ 0%Z) by auto. cbn [bind]. exists 0%nat. repeat split; auto. intros; lia.
  - rewrite (rd_ok _ 0%Z) by auto. cbn [bind]. rewrite Hd by auto. destruct (Z.eqb_spec (xf (d (Datatypes.S q))) (-1)) as [E|E].
    + apply (tb_xf_eq _ _ _ _ _ _ _ T) in E. destruct IHq as (q' & E' & A & B & C); auto; try lia. exists q'. repeat split; auto. intros j Hj.
      destruct (Nat.eq_dec j (Datatypes.S q)) as [->|]; auto. apply C. lia.
    + exists (Datatypes.S q). repeat split; auto. { intros C. apply E. rewrite C. apply (tb_xf_0 _ _ _ _ _ _ _ T). } intros; lia.
Qed.
Lemma best_ok : forall disc ulu (d : nat -> F) q, q < length disc -> q < length ulu -> (forall j, j <= q -> nth j disc 0%Z = xf (d j)) -> d q <> 0 ->
  exists b, bm_best disc ulu q = Ret b /\ b <= q /\ d b <> 0 /\ forall j, j <= q -> d j <> 0 -> (nth j ulu 0 <= nth b ulu 0)%Z.
Proof.
  intros disc ulu d q Hl Hlu Hd Hq. unfold bm_best.
  destruct (for_inv _ (fun k b => b <= q /\ d b <> 0 /\ forall j, q - k <= j <= q -> d j <> 0 -> (nth j ulu 0 <= nth b ulu 0)%Z) q
    (fun k b => d <- rd disc (q - 1 - k) ;; ub <- rd ulu b ;; uj <- rd ulu (q - 1 - k) ;; Ret (if negb (d =? -1)%Z && (ub <? uj)%Z then q - 1 - k else b)) q) as (b & E & A & B & C).
  - repeat split; auto. intros j Hj _. replace j with q by lia. lia.
  - intros k b Hk (A & B & C). rewrite !(rd_ok _ 0%Z) by lia. cbn [bind]. eexists. split; [reflexivity|]. rewrite Hd by lia.
    assert (E : xf (d (q - 1 - k)) = (-1)%Z <-> d (q - 1 - k) = 0) by apply (tb_xf_eq _ _ _ _ _ _ _ T).
    destruct (Z.eqb_spec (xf (d (q - 1 - k))) (-1)); cbn [negb andb].
    + split; auto. split; auto. intros j Hj Dj. destruct (Nat.eq_dec j (q - 1 - k)) as [->|]. { tauto. } apply C; auto. lia.
    + destruct (Z.ltb_spec (nth b ulu 0%Z) (nth (q - 1 - k) ulu 0%Z)).
      * split; [lia|]. split; [tauto|]. intros j Hj Dj. destruct (Nat.eq_dec j (q - 1 - k)) as [->|]. { lia. } specialize (C j ltac:(lia) Dj). lia.
      * split; auto. split; auto. intros j Hj Dj. destruct (Nat.eq_dec j (q - 1 - k)) as [->|]. { lia. } apply C; auto. lia.
  - exists b. repeat split; auto. intros j Hj. apply C. lia.
Qed.

Lemma chosen : forall u elp disc l ulu sg ls, bmst u elp disc l ulu sg ls -> 1 <= u <= 2 * t ->
  exists q, (q <- bm_first disc (u - 1) ;; (if 0 <? q then bm_best disc ulu q else Ret q)) = Ret q /\ q < u /\ dd sg ls q <> 0 /\ q = (ls u + ls q)%nat.
Proof.
  intros u elp disc l ulu sg ls I Hu. destruct I. assert (D0 : dd sg ls 0 <> 0) by (cbn; apply f10).
  destruct (first_ok disc (dd sg ls) (u - 1)) as (q1 & E1 & A1 & B1 & C1); auto; try lia. { intros j Hj. apply i_d0; lia. }
  rewrite E1. cbn [bind].
  assert (X : exists q, (if 0 <? q1 then bm_best disc ulu q1 else Ret q1) = Ret q /\ q <= q1 /\ dd sg ls q <> 0 /\ forall j, j <= q1 -> dd sg ls j <> 0 -> (nth j ulu 0 <= nth q ulu 0)%Z).
  { destruct (Nat.ltb_spec 0 q1).
    - apply best_ok; auto; try lia. intros j Hj. apply i_d0; lia.
    - exists q1. repeat split; auto. intros j Hj _. replace j with q1 by lia. lia. }
  destruct X as (q & E & A & B & C). exists q. split; auto. split; [lia|]. split; auto.
  destruct i_ex0 as (q0 & Hq0 & D & Q0). pose proof (i_le0 q ltac:(lia) B).
  assert (q0 <= q1). { destruct (le_lt_dec q0 q1); auto. exfalso. apply D. apply C1. lia. }
  specialize (C q0 ltac:(lia) D). rewrite !i_ulu0 in C by lia. lia.
Qed.

(** ** Next row *)
Lemma row_same : forall u elp disc l ulu sg ls, bmst u elp disc l ulu sg ls -> 1 <= u <= 2 * t -> ls u <= t -> dd sg ls u = 0 ->
  exists elp', bm_row t n alpha index u elp disc l ulu = Ret (elp', upd l (u + 1) (ls u)) /\ shape n elp' /\
    (forall i j, i <> u -> i <> (u + 1)%nat -> get2 elp' i j = get2 elp i j) /\ (forall i, i <= ls u -> get2 elp' u i = xf (sg u i)) /\
    forall i, i <= ls u -> get2 elp' (u + 1) i = pf (sg u i).
Proof.
  intros u elp disc l ulu sg ls I Hu Hl Hd. destruct I. unfold bm_row. rewrite (rd_ok _ 0%Z) by lia. rewrite (rd_ok _ 0%nat) by lia. cbn [bind].
  rewrite i_d0, i_l0, Hd, (tb_xf_0 _ _ _ _ _ _ _ T), Z.eqb_refl by lia. rewrite wr_ok by lia. cbn [bind].
  match goal with |- context [for_ ?K ?body ?s0] => destruct (for_inv _ (fun k e => shape n e /\
    (forall i j, i <> u -> i <> (u + 1)%nat -> get2 e i j = get2 elp i j) /\ (forall i, i < k -> get2 e u i = xf (sg u i)) /\
    (forall i, k <= i -> get2 e u i = get2 elp u i) /\ forall i, i < k -> get2 e (u + 1) i = pf (sg u i)) K body s0) as (e & E & A1 & A2 & A3 & A4 & A5) end.
  - repeat split; try (destruct i_shape0; auto; fail); intros; try lia; auto.
  - intros k e Hk (A1 & A2 & A3 & A4 & A5). cbn beta.
    rewrite (rd2_ok n) by (auto; lia). cbn [bind]. rewrite A4, i_cur0 by lia.
    destruct (wr2_ok n e (u + 1) k (pf (sg u k)) A1 ltac:(lia) ltac:(lia)) as (e1 & -> & S1 & G1). cbn [bind].
    rewrite (rd2_ok n) by (auto; lia). cbn [bind]. rewrite G1. destruct (Nat.eqb_spec u (u + 1)); [lia|]. cbn [andb]. rewrite A4, i_cur0 by lia.
    rewrite (tb_rd_index _ _ _ _ _ _ _ T). cbn [bind]. destruct (wr2_ok n e1 u k (xf (sg u k)) S1 ltac:(lia) ltac:(lia)) as (e2 & -> & S2 & G2).
    eexists. split; [reflexivity|]. split; auto. repeat split.
    + intros i j H1 H2. rewrite G2, G1. destruct (Nat.eqb_spec i u); [lia|]. destruct (Nat.eqb_spec i (u + 1)); [lia|]. cbn [andb]. auto.
    + intros i Hi. rewrite G2, G1, Nat.eqb_refl. cbn [andb]. destruct (Nat.eqb_spec i k) as [->|]; auto. destruct (Nat.eqb_spec u (u + 1)); [lia|]. cbn [andb]. apply A3. lia.
    + intros i Hi. rewrite G2, G1. destruct (Nat.eqb_spec i k); [lia|]. rewrite !andb_false_r. apply A4. lia.
    + intros i Hi. rewrite G2, G1. destruct (Nat.eqb_spec (u + 1) u); [lia|]. cbn [andb]. rewrite Nat.eqb_refl. cbn [andb]. destruct (Nat.eqb_spec i k) as [->|]; auto. apply A5. lia.
  - rewrite E. cbn [bind]. exists e. split; auto. split; auto. split; auto. split; intros; [apply A3|apply A5]; lia.
Qed.

Lemma row_new : forall u elp disc l ulu sg ls, bmst u elp disc l ulu sg ls -> 1 <= u <= 2 * t -> ls u <= t -> dd sg ls u <> 0 ->
  exists q, q < u /\ dd sg ls q <> 0 /\ q = (ls u + ls q)%nat /\ exists elp',
    bm_row t n alpha index u elp disc l ulu = Ret (elp', upd l (u + 1) (Nat.max (ls u) (ls q + (u - q)))) /\ shape n elp' /\
    (forall i j, i <> u -> i <> (u + 1)%nat -> get2 elp' i j = get2 elp i j) /\ (forall i, i <= ls u -> get2 elp' u i = xf (sg u i)) /\
    forall i, i < 2 * t -> get2 elp' (u + 1) i = pf (newsg F (sg u) (sg q) (dd sg ls u * / dd sg ls q) (u - q) i).
Proof.
  intros u elp disc l ulu sg ls I Hu Hl Hd. destruct (chosen _ _ _ _ _ _ _ I Hu) as (q & Eq & Q1 & Q2 & Q3).
  exists q. split; auto. split; auto. split; auto.
  destruct I. unfold bm_row. rewrite (rd_ok _ 0%Z disc u) by lia. rewrite (rd_ok _ 0%nat l u) by lia. cbn [bind].
  rewrite (i_d0 u), (i_l0 u) by lia. destruct (Z.eqb_spec (xf (dd sg ls u)) (-1)) as [C|_]. { apply (tb_xf_eq _ _ _ _ _ _ _ T) in C. contradiction. }
  rewrite <- bind_assoc, Eq. cbn [bind]. rewrite (rd_ok _ 0%Z disc q) by lia. rewrite (rd_ok _ 0%nat l q) by lia. cbn [bind]. rewrite (i_d0 q), (i_l0 q) by lia.
  rewrite wr_ok by lia. cbn [bind].
  replace (if (ls q + u - q <? ls u)%nat then ls u else (ls q + u - q)%nat) with (Nat.max (ls u) (ls q + (u - q))) by (destruct (Nat.ltb_spec (ls q + u - q) (ls u)); lia).
  pose proof (i_ok0 q ltac:(lia)) as (RQ0 & RQs & RQl & _). pose proof (i_ok0 u ltac:(lia)) as (RU0 & RUs & RUl & _).
  set (c := dd sg ls u * / dd sg ls q). set (z := (u - q)%nat).
  match goal with |- context [for_ (2 * t) ?body ?s0] => destruct (for_inv _ (fun k e => shape n e /\
    (forall i j, i <> (u + 1)%nat -> get2 e i j = get2 elp i j) /\ forall j, j < k -> get2 e (u + 1) j = 0%Z) (2 * t) body s0) as (e1 & E1 & A1 & A2 & A3) end.
  { split; auto. split; auto. intros; lia. }
  { intros k e Hk (A1 & A2 & A3). cbn beta. destruct (wr2_ok n e (u + 1) k 0%Z A1 ltac:(lia) ltac:(lia)) as (e' & -> & S' & G'). eexists. split; [reflexivity|].
    split; auto. split.
    - intros i j Hi. rewrite G'. destruct (Nat.eqb_spec i (u + 1)); [lia|]. cbn [andb]. auto.
    - intros j Hj. rewrite G', Nat.eqb_refl. cbn [andb]. destruct (Nat.eqb_spec j k); auto. apply A3. lia. }
  rewrite E1. cbn [bind].
  match goal with |- context [for_ (Datatypes.S (ls q)) ?body ?s0] => destruct (for_inv _ (fun k e => shape n e /\
    (forall i j, i <> (u + 1)%nat -> get2 e i j = get2 elp i j) /\
    forall j, j < 2 * t -> get2 e (u + 1) j = pf (if j <? z then 0 else if j - z <? k then c * sg q (j - z)%nat else 0)) (Datatypes.S (ls q)) body s0) as (e2 & E2 & B1 & B2 & B3) end.
  { split; auto. split; auto. intros j Hj. rewrite A3 by auto. rewrite Nat.ltb_irrefl || idtac. replace (if j <? z then 0 else if (j - z <? 0)%nat then c * sg q (j - z)%nat else 0) with 0 by (destruct (j <? z); auto). symmetry. apply (tb_pf_0 _ _ _ _ _ _ _ T). }
  { intros k e Hk (B1 & B2 & B3). cbn beta. rewrite (rd2_ok n) by (auto; lia). cbn [bind]. rewrite B2, i_row0 by lia.
    destruct (Z.eqb_spec (xf (sg q k)) (-1)) as [Ez|Ez].
    - apply (tb_xf_eq _ _ _ _ _ _ _ T) in Ez. eexists. split; [reflexivity|]. split; auto. split; auto. intros j Hj. rewrite B3 by auto. f_equal.
      destruct (Nat.ltb_spec j z); auto. destruct (Nat.ltb_spec (j - z) k); destruct (Nat.ltb_spec (j - z) (Datatypes.S k)); auto; try lia. replace (j - z)%nat with k by lia. rewrite Ez. ring.
    - assert (Nz : sg q k <> 0) by (intros C; apply Ez; rewrite C; apply (tb_xf_0 _ _ _ _ _ _ _ T)).
      rewrite (tb_rd_div _ _ _ _ _ _ _ T) by auto. cbn [bind]. fold c. replace (k + u - q)%nat with (k + z)%nat by (unfold z; lia).
      destruct (wr2_ok n e (u + 1) (k + z) (pf (c * sg q k)) B1 ltac:(lia) ltac:(unfold z; lia)) as (e' & -> & S' & G'). eexists. split; [reflexivity|].
      split; auto. split.
      + intros i j Hi. rewrite G'. destruct (Nat.eqb_spec i (u + 1)); [lia|]. cbn [andb]. auto.
      + intros j Hj. rewrite G', Nat.eqb_refl. cbn [andb]. destruct (Nat.eqb_spec j (k + z)).
        * subst j. destruct (Nat.ltb_spec (k + z) z); [lia|]. replace (k + z - z)%nat with k by lia. destruct (Nat.ltb_spec k (Datatypes.S k)); [auto|lia].
        * rewrite B3 by auto. f_equal. destruct (Nat.ltb_spec j z); auto. destruct (Nat.ltb_spec (j - z) k); destruct (Nat.ltb_spec (j - z) (Datatypes.S k)); auto; lia. }
  rewrite E2. cbn [bind].
  match goal with |- context [for_ (Datatypes.S (ls u)) ?body ?s0] => destruct (for_inv _ (fun k e => shape n e /\
    (forall i j, i <> u -> i <> (u + 1)%nat -> get2 e i j = get2 elp i j) /\ (forall i, i < k -> get2 e u i = xf (sg u i)) /\
    (forall i, k <= i -> get2 e u i = get2 elp u i) /\
    forall j, j < 2 * t -> get2 e (u + 1) j = pf ((if j <? k then sg u j else 0) + (if j <? z then 0 else if j - z <? Datatypes.S (ls q) then c * sg q (j - z)%nat else 0)))
    (Datatypes.S (ls u)) body s0) as (e3 & E3 & C1 & C2 & C3 & C4 & C5) end.
  { split; auto. split. { intros. apply B2; auto. } split. { intros; lia. } split. { intros. apply B2. lia. }
    intros j Hj. rewrite B3 by auto. f_equal. destruct (Nat.ltb_spec j 0); [lia|]. rewrite fadd_0. auto. }
  { intros k e Hk (C1 & C2 & C3 & C4 & C5). cbn beta. rewrite !(rd2_ok n e) by (auto; lia). cbn [bind]. rewrite C4, i_cur0, C5 by lia. rewrite (tb_pf_add _ _ _ _ _ _ _ T).
    match goal with |- context [wr2 e (u + 1) k ?x] => destruct (wr2_ok n e (u + 1) k x C1 ltac:(lia) ltac:(lia)) as (e' & -> & S' & G') end. cbn [bind].
    rewrite (rd2_ok n) by (auto; lia). cbn [bind]. rewrite G'. destruct (Nat.eqb_spec u (u + 1)); [lia|]. cbn [andb]. rewrite C4, i_cur0 by lia.
    rewrite (tb_rd_index _ _ _ _ _ _ _ T). cbn [bind]. destruct (wr2_ok n e' u k (xf (sg u k)) S' ltac:(lia) ltac:(lia)) as (e'' & -> & S2 & G2).
    eexists. split; [reflexivity|]. split; auto. repeat split.
    - intros i j H1 H2. rewrite G2, G'. destruct (Nat.eqb_spec i u); [lia|]. destruct (Nat.eqb_spec i (u + 1)); [lia|]. cbn [andb]. auto.
    - intros i Hi. rewrite G2, G', Nat.eqb_refl. cbn [andb]. destruct (Nat.eqb_spec i k) as [->|]; auto. destruct (Nat.eqb_spec u (u + 1)); [lia|]. cbn [andb]. apply C3. lia.
    - intros i Hi. rewrite G2, G'. destruct (Nat.eqb_spec i k); [lia|]. rewrite !andb_false_r. apply C4. lia.
    - intros j Hj. rewrite G2, G'. destruct (Nat.eqb_spec (u + 1) u); [lia|]. cbn [andb]. rewrite Nat.eqb_refl. cbn [andb]. destruct (Nat.eqb_spec j k) as [->|].
      + f_equal. destruct (Nat.ltb_spec k k); [lia|]. destruct (Nat.ltb_spec k (Datatypes.S k)); [|lia]. ring.
      + rewrite C5 by auto. f_equal. f_equal. destruct (Nat.ltb_spec j k); destruct (Nat.ltb_spec j (Datatypes.S k)); auto; lia. }
  rewrite E3. cbn [bind]. exists e3. split; auto. split; auto. split; auto. split. { intros. apply C3. lia. }
  intros i Hi. rewrite C5 by auto. f_equal. unfold newsg. f_equal.
  - destruct (Nat.ltb_spec i (Datatypes.S (ls u))); auto. symmetry. apply RUs. lia.
  - destruct (Nat.ltb_spec i z); auto. destruct (Nat.ltb_spec (i - z) (Datatypes.S (ls q))); auto. rewrite RQs by lia. ring.
Qed.

(** ** Next discrepancy *)
Lemma disc_ok : forall u elp disc sg1 l1, u < 2 * t -> 1 <= u -> shape n elp -> length disc = (n + 2)%nat -> l1 <= u -> sg1 0%nat = 1 ->
  (forall i, i <= l1 -> get2 elp (u + 1) i = pf (sg1 i)) ->
  exists disc', bm_disc t n alpha index u s elp disc l1 = Ret disc' /\ length disc' = (n + 2)%nat /\ nth (u + 1) disc' 0%Z = xf (conv sg1 S l1 (u + 1)) /\ forall q, q <> (u + 1)%nat -> nth q disc' 0%Z = nth q disc 0%Z.
Proof.
  intros u elp disc sg1 l1 Hu Hu1 HSh Ld Hl Hs0 He. unfold bm_disc. destruct (Nat.ltb_spec u (2 * t)); [|lia].
  rewrite (rd_ok _ 0%Z s) by lia. cbn [bind]. rewrite HS by lia.
  assert (E0 : (if (xf (S (u + 1)%nat) =? -1)%Z then Ret 0%Z else rdz alpha (xf (S (u + 1)%nat))) = Ret (pf (S (u + 1)%nat))).
  { destruct (Z.eqb_spec (xf (S (u + 1)%nat)) (-1)) as [E|E].
    - apply (tb_xf_eq _ _ _ _ _ _ _ T) in E. rewrite E, (tb_pf_0 _ _ _ _ _ _ _ T). auto.
    - apply (tb_rd_xf _ _ _ _ _ _ _ T). intros C. apply E. rewrite C. apply (tb_xf_0 _ _ _ _ _ _ _ T). }
  rewrite E0. cbn [bind]. rewrite wr_ok by lia. cbn [bind].
  match goal with |- context [for_from 1 l1 ?body ?s0] => destruct (for_from_inv _ (fun k d => length d = (n + 2)%nat /\
    nth (u + 1) d 0%Z = pf (gsum F k (fun i => sg1 i * S (u + 1 - i)%nat)) /\ forall q, q <> (u + 1)%nat -> nth q d 0%Z = nth q disc 0%Z) l1 1 body s0) as (d & E & D1 & D2 & D3) end.
  - rewrite length_upd. split; auto. split. { rewrite nth_upd_eq by lia. cbn [gsum]. rewrite Hs0, Nat.sub_0_r. f_equal. ring. } intros q Hq. rewrite nth_upd_neq by lia. auto.
  - intros k d Hk (D1 & D2 & D3). cbn beta. destruct (Nat.leb_spec k (u + 1)); [|lia]. rewrite (rd_ok _ 0%Z s) by lia. cbn [bind]. rewrite HS by lia.
    assert (G : forall x, x = sg1 k * S (u + 1 - k)%nat -> gsum F (Datatypes.S k) (fun i => sg1 i * S (u + 1 - i)%nat) = gsum F k (fun i => sg1 i * S (u + 1 - i)%nat) + x).
    { intros x ->. reflexivity. }
    destruct (Z.eqb_spec (xf (S (u + 1 - k)%nat)) (-1)) as [E|E].
    { apply (tb_xf_eq _ _ _ _ _ _ _ T) in E. eexists. split; [reflexivity|]. split; auto. split; auto. rewrite D2. f_equal. rewrite (G 0) by (rewrite E; ring). ring. }
    rewrite (rd2_ok n) by (auto; lia). cbn [bind]. rewrite He by lia. destruct (Z.eqb_spec (pf (sg1 k)) 0%Z) as [E1|E1].
    { apply (tb_pf_eq0 _ _ _ _ _ _ _ T) in E1. eexists. split; [reflexivity|]. split; auto. split; auto. rewrite D2. f_equal. rewrite (G 0) by (rewrite E1; ring). ring. }
    rewrite (tb_rd_index _ _ _ _ _ _ _ T). cbn [bind]. rewrite (tb_rd_mul _ _ _ _ _ _ _ T).
    2:{ intros C. apply E. rewrite C. apply (tb_xf_0 _ _ _ _ _ _ _ T). } 2:{ intros C. apply E1. rewrite C. apply (tb_pf_0 _ _ _ _ _ _ _ T). }
    cbn [bind]. rewrite (rd_ok _ 0%Z d) by lia. cbn [bind]. rewrite wr_ok by lia. eexists. split; [reflexivity|]. rewrite length_upd. split; auto. split.
    + rewrite nth_upd_eq by lia. rewrite D2, (tb_pf_add _ _ _ _ _ _ _ T). f_equal. symmetry. apply G. ring.
    + intros q Hq. rewrite nth_upd_neq by lia. auto.
  - rewrite E. cbn [bind]. rewrite (rd_ok _ 0%Z d) by lia. cbn [bind]. rewrite D2, (tb_rd_index _ _ _ _ _ _ _ T). cbn [bind]. rewrite wr_ok by lia.
    eexists. split; [reflexivity|]. rewrite length_upd. split; auto. split. { rewrite nth_upd_eq by lia. auto. } intros q Hq. rewrite nth_upd_neq by lia. auto.
Qed.

(** ** The whole table *)
Definition ext {A} (f : nat -> A) (k : nat) (x : A) (q : nat) : A := if q =? k then x else f q.
Lemma ext_eq : forall A (f : nat -> A) k x, ext f k x k = x.
Proof. intros. unfold ext. rewrite Nat.eqb_refl. auto. Qed.
Lemma ext_neq : forall A (f : nat -> A) k x q, q <> k -> ext f k x q = f q.
Proof. intros. unfold ext. destruct (Nat.eqb_spec q k); auto. lia. Qed.

(** One iteration, from the results of the row. *)
Lemma step_ok : forall u elp disc l ulu sg ls elp' sg1 l1, bmst u elp disc l ulu sg ls -> 1 <= u <= 2 * t ->
  shape n elp' -> (forall i j, i <> u -> i <> (u + 1)%nat -> get2 elp' i j = get2 elp i j) -> (forall i, i <= ls u -> get2 elp' u i = xf (sg u i)) ->
  (forall i, i <= l1 -> i < 2 * t -> get2 elp' (u + 1) i = pf (sg1 i)) -> row_ok S (Datatypes.S u) sg1 l1 -> minimal S u l1 ->
  (forall q, q < Datatypes.S u -> dd sg ls q <> 0 -> q <= l1 + ls q) -> (exists q, q < Datatypes.S u /\ dd sg ls q <> 0 /\ q = (l1 + ls q)%nat) ->
  exists disc', bm_disc t n alpha index u s elp' disc l1 = Ret disc' /\
    bmst (Datatypes.S u) elp' disc' (upd l (u + 1) l1) (upd ulu (u + 1) (Z.of_nat u - Z.of_nat l1)%Z) (ext sg (Datatypes.S u) sg1) (ext ls (Datatypes.S u) l1).
Proof.
  intros u elp disc l ulu sg ls elp' sg1 l1 I Hu S1 G1 G2 G3 RK MN LE EX. destruct I.
  assert (DX : forall q, q <= u -> dd (ext sg (Datatypes.S u) sg1) (ext ls (Datatypes.S u) l1) q = dd sg ls q).
  { intros q Hq. unfold dd. destruct q; auto. rewrite !ext_neq by lia. auto. }
  assert (D : exists disc', bm_disc t n alpha index u s elp' disc l1 = Ret disc' /\ length disc' = (n + 2)%nat /\
    (u < 2 * t -> nth (u + 1) disc' 0%Z = xf (conv sg1 S l1 (u + 1))) /\ forall q, q <> (u + 1)%nat -> nth q disc' 0%Z = nth q disc 0%Z).
  { pose proof RK as (R0 & _ & R2 & _). destruct (le_lt_dec (2 * t) u).
    - exists disc. unfold bm_disc. destruct (Nat.ltb_spec u (2 * t)); [lia|]. split; auto. split; auto. split; auto. intros; lia.
    - destruct (disc_ok u elp' disc sg1 l1) as (d & E & D1 & D2 & D3); auto; try lia. { intros. apply G3; auto. lia. } exists d. auto. }
  destruct D as (disc' & E & D1 & D2 & D3). exists disc'. split; auto. constructor; auto; try (rewrite length_upd; auto; fail).
  - intros q Hq. rewrite nth_upd by lia. destruct (Nat.eqb_spec q (u + 1)). { subst. replace (u + 1)%nat with (Datatypes.S u) by lia. rewrite ext_eq. auto. } rewrite ext_neq by lia. apply i_l0. lia.
  - intros q Hq. rewrite nth_upd by lia. destruct (Nat.eqb_spec q (u + 1)). { subst. replace (u + 1)%nat with (Datatypes.S u) by lia. rewrite ext_eq. lia. } rewrite ext_neq by lia. apply i_ulu0. lia.
  - intros q Hq i. rewrite !ext_neq by lia. intros Hi. destruct (Nat.eq_dec q u). { subst. apply G2. auto. } rewrite G1 by lia. apply i_row0; auto. lia.
  - intros i. rewrite !ext_eq. replace (Datatypes.S u) with (u + 1)%nat by lia. apply G3.
  - intros q Hq Hq2. destruct (Nat.eq_dec q (u + 1)).
    + subst. rewrite D2 by lia. f_equal. replace (u + 1)%nat with (Datatypes.S u) by lia. cbn [dd]. rewrite !ext_eq. auto.
    + rewrite D3, DX by lia. apply i_d0; lia.
  - intros q Hq. destruct (Nat.eq_dec q (Datatypes.S u)). { subst. rewrite !ext_eq. auto. } rewrite !ext_neq by lia. apply i_ok0. lia.
  - rewrite ext_eq. cbn [Nat.sub]. rewrite Nat.sub_0_r. auto.
  - intros q Hq. rewrite DX, ext_eq, ext_neq by lia. apply LE. auto.
  - destruct EX as (q & A & B & C). exists q. rewrite DX, ext_eq, ext_neq by lia. auto.
Qed.

Lemma iter_ok : forall u elp disc l ulu sg ls, bmst u elp disc l ulu sg ls -> 1 <= u <= 2 * t -> ls u <= t ->
  exists elp' l1 sg1 disc', bm_row t n alpha index u elp disc l ulu = Ret (elp', upd l (u + 1) l1) /\
    bm_disc t n alpha index u s elp' disc l1 = Ret disc' /\
    bmst (Datatypes.S u) elp' disc' (upd l (u + 1) l1) (upd ulu (u + 1) (Z.of_nat u - Z.of_nat l1)%Z) (ext sg (Datatypes.S u) sg1) (ext ls (Datatypes.S u) l1).
Proof.
  intros u elp disc l ulu sg ls I Hu Hl. pose proof (i_ok _ _ _ _ _ _ _ I u (Nat.le_refl _)) as RK. pose proof (i_min _ _ _ _ _ _ _ I) as MN.
  assert (DU : dd sg ls u = conv (sg u) S (ls u) u) by (destruct u; auto; lia).
  destruct (fdec F (dd sg ls u) 0) as [D|D].
  - destruct (row_same _ _ _ _ _ _ _ I Hu Hl D) as (elp' & E & S1 & G1 & G2 & G3).
    destruct (step_ok u elp disc l ulu sg ls elp' (sg u) (ls u)) as (disc' & E' & I'); auto.
    + apply row_keep; auto; [lia|]. rewrite <- DU. auto.
    + apply minimal_keep; auto. lia.
    + intros q Hq Dq. destruct (Nat.eq_dec q u). { subst. contradiction. } apply (i_le _ _ _ _ _ _ _ I); auto. lia.
    + destruct (i_ex _ _ _ _ _ _ _ I) as (q & A & B & C). exists q. auto.
    + exists elp', (ls u), (sg u), disc'. auto.
  - destruct (row_new _ _ _ _ _ _ _ I Hu Hl D) as (q & Q1 & Q2 & Q3 & elp' & E & S1 & G1 & G2 & G3).
    assert (EM : Nat.max (ls u) (ls q + (u - q)) = Nat.max (ls u) (u - ls u)) by lia.
    destruct (step_ok u elp disc l ulu sg ls elp' (newsg F (sg u) (sg q) (dd sg ls u * / dd sg ls q) (u - q)) (Nat.max (ls u) (ls q + (u - q)))) as (disc' & E' & I'); auto.
    + rewrite DU. apply row_change; auto. { apply (i_ok _ _ _ _ _ _ _ I). lia. } intros Hq. destruct q; [lia|]. auto.
    + rewrite EM. apply (minimal_change F S u (sg u)); auto; [lia|]. rewrite <- DU. auto.
    + intros q' Hq' Dq'. destruct (Nat.eq_dec q' u). { subst. lia. } pose proof (i_le _ _ _ _ _ _ _ I q' ltac:(lia) Dq'). lia.
    + destruct (le_lt_dec (ls q + (u - q)) (ls u)). { exists q. repeat split; auto; lia. } exists u. split; [lia|]. split; auto. pose proof RK as (_ & _ & R2 & _). lia.
    + eexists _, _, _, _. split; [exact E|]. split; [exact E'|]. exact I'.
Qed.

Lemma loop_ok : forall fuel u elp disc l ulu sg ls, bmst (Datatypes.S u) elp disc l ulu sg ls -> Datatypes.S u <= 2 * t -> ls (Datatypes.S u) <= t -> 2 * t <= fuel + u ->
  exists v elp' disc' l' ulu' sg' ls', bm_loop t n alpha index fuel u s elp disc l ulu = Ret (v, (elp', disc', l', ulu')) /\
    bmst (Datatypes.S v) elp' disc' l' ulu' sg' ls' /\ 1 <= v <= 2 * t /\ (v = (2 * t)%nat \/ t < ls' (Datatypes.S v)).
Proof.
  induction fuel; intros u elp disc l ulu sg ls I Hu Hl Hf; [lia|]. cbn [bm_loop]. replace (u + 1)%nat with (Datatypes.S u) by lia.
  destruct (iter_ok _ _ _ _ _ _ _ I ltac:(lia) Hl) as (elp' & l1 & sg1 & disc' & E & E' & I'). rewrite E. cbn [bind].
  pose proof (i_ll _ _ _ _ _ _ _ I). pose proof (i_lu _ _ _ _ _ _ _ I).
  rewrite (rd_ok _ 0%nat) by (rewrite length_upd; lia). cbn [bind]. rewrite nth_upd_eq by lia. rewrite wr_ok by lia. cbn [bind]. rewrite E'. cbn [bind].
  destruct (Nat.ltb_spec (Datatypes.S u) (2 * t)); cbn [andb].
  - destruct (Nat.leb_spec l1 t).
    + eapply IHfuel; eauto; try lia. rewrite ext_eq. auto.
    + exists (Datatypes.S u). do 6 eexists. split; [reflexivity|]. split; [exact I'|]. split; [lia|]. right. rewrite ext_eq. auto.
  - exists (Datatypes.S u). do 6 eexists. split; [reflexivity|]. split; [exact I'|]. split; [lia|]. left. lia.
Qed.

Lemma init_ok : forall elp disc l ulu, shape n elp -> length disc = (n + 2)%nat -> length l = (n + 2)%nat -> length ulu = (n + 2)%nat ->
  exists elp' disc' l' ulu', bm_init t s elp disc l ulu = Ret (elp', disc', l', ulu') /\ bmst 1 elp' disc' l' ulu' (fun _ => delta F) (fun _ => 0%nat).
Proof.
  intros elp disc l ulu Sh Ld Ll Lu. unfold bm_init. rewrite wr_ok by lia. cbn [bind]. rewrite (rd_ok _ 0%Z s) by lia. cbn [bind]. rewrite HS by lia. rewrite wr_ok by (rewrite length_upd; lia). cbn [bind].
  destruct (wr2_ok n elp 0 0 0%Z Sh ltac:(lia) ltac:(lia)) as (e1 & -> & S1 & G1). cbn [bind].
  destruct (wr2_ok n e1 1 0 1%Z S1 ltac:(lia) ltac:(lia)) as (e2 & -> & S2 & G2). cbn [bind].
  match goal with |- context [for_from 1 ?c ?body ?s0] => destruct (for_from_inv _ (fun k e => shape n e /\ get2 e 0 0 = 0%Z /\ forall i, i < k -> get2 e 1 i = pf (delta F i)) c 1 body s0) as (e & E & A1 & A2 & A3) end.
  - split; auto. split. { rewrite G2, G1. auto. } intros i Hi. replace i with 0%nat by lia. rewrite G2. cbn. symmetry. apply (tb_pf_1 _ _ _ _ _ _ _ T).
  - intros k e Hk (A1 & A2 & A3). cbn beta. destruct (wr2_ok n e 0 k (-1)%Z A1 ltac:(lia) ltac:(lia)) as (e3 & -> & S3 & G3). cbn [bind].
    destruct (wr2_ok n e3 1 k 0%Z S3 ltac:(lia) ltac:(lia)) as (e4 & -> & S4 & G4). eexists. split; [reflexivity|]. split; auto. split.
    + rewrite G4, G3. cbn [Nat.eqb andb]. destruct k; [lia|]. cbn. auto.
    + intros i Hi. rewrite G4, G3. cbn [Nat.eqb andb]. destruct (Nat.eqb_spec i k). { subst. destruct k; [lia|]. symmetry. apply (tb_pf_0 _ _ _ _ _ _ _ T). } apply A3. lia.
  - rewrite E. cbn [bind]. repeat (rewrite !wr_ok by (rewrite ?length_upd; lia); cbn [bind]).
    do 4 eexists. split; [reflexivity|]. assert (X1 : xf 1 = 0%Z) by (apply (tb_xf_pw _ _ _ _ _ _ _ T 0%nat); lia).
    constructor; auto; try (rewrite ?length_upd; auto; fail).
    + intros q Hq. rewrite !nth_upd by (rewrite ?length_upd; lia). destruct q as [|[|q]]; auto. lia.
    + intros q Hq. rewrite !nth_upd by (rewrite ?length_upd; lia). destruct q as [|[|q]]; auto. lia.
    + intros q Hq i Hi. replace q with 0%nat by lia. replace i with 0%nat by lia. rewrite A2. cbn. auto.
    + intros i Hi Hi2. apply A3. lia.
    + intros q Hq Hq2. rewrite !nth_upd by (rewrite ?length_upd; lia). destruct q as [|[|q]]; cbn [Nat.eqb]; auto; [|lia].
      f_equal. unfold dd, GField.conv. cbn [gsum delta]. rewrite Nat.sub_0_r. ring.
    + intros q Hq. destruct q as [|[|q]]; [apply row_0|apply row_1|lia].
    + apply minimal_1.
    + intros q Hq _. lia.
    + exists 0%nat. split; auto. split; auto. cbn. apply f10.
Qed.

(** The result of the iteration. *)
Lemma bm_ok : forall elp disc l ulu, shape n elp -> length disc = (n + 2)%nat -> length l = (n + 2)%nat -> length ulu = (n + 2)%nat ->
  exists elp0 disc0 l0 ulu0 v elp' disc' l' ulu' lu,
    bm_init t s elp disc l ulu = Ret (elp0, disc0, l0, ulu0) /\ bm_loop t n alpha index (2 * t) 0 s elp0 disc0 l0 ulu0 = Ret (v, (elp', disc', l', ulu')) /\
    shape n elp' /\ length disc' = (n + 2)%nat /\ length l' = (n + 2)%nat /\ length ulu' = (n + 2)%nat /\ (v + 1 < n + 2)%nat /\
    nth (v + 1) l' 0%nat = lu /\
    (lu <= t -> exists sg, row_ok S (2 * t + 1) sg lu /\ minimal S (2 * t) lu /\ forall i, i <= lu -> get2 elp' (v + 1) i = pf (sg i)) /\
    (t < lu -> minimal S (2 * t) lu).
Proof.
  intros elp disc l ulu Sh Ld Ll Lu. destruct (init_ok elp disc l ulu Sh Ld Ll Lu) as (e1 & d1 & l1 & u1 & E1 & I1).
  destruct (loop_ok (2 * t) 0 e1 d1 l1 u1 _ _ I1) as (v & e2 & d2 & l2 & u2 & sg & ls & E2 & I2 & Hv & Hx); try lia.
  destruct I2. replace (Datatypes.S v) with (v + 1)%nat in * by lia. replace (v + 1 - 1)%nat with v in * by lia.
  exists e1, d1, l1, u1, v, e2, d2, l2, u2, (ls (v + 1)%nat). split; auto. split; auto. split; auto. split; auto. split; auto. split; auto. split; [lia|]. split; auto. split.
  - intros Hlu. destruct Hx as [->|]; [|lia]. exists (sg (2 * t + 1)%nat). split; auto. split; auto. intros i Hi. apply i_cur0; auto. lia.
  - intros _. intros la w H0 G. apply (i_min0 la w); auto. apply (gen_weaken F la S w (2 * t)); auto. lia.
Qed.
End BM.
