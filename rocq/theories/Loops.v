(** Generic facts about loops that fill arrays. *)
From Coq Require Import List Arith Lia Bool.
From Verif Require Import Base.
Import ListNotations.

Lemma scatter : forall A (d : A) n g h (out : list A),
  (forall i, i < n -> g i < length out) ->
  (forall i j, i < n -> j < n -> g i = g j -> i = j) ->
  exists out', for_ n (fun i o => wr o (g i) (h i)) out = Ret out' /\
    length out' = length out /\
    (forall i, i < n -> nth (g i) out' d = h i) /\
    (forall j, (forall i, i < n -> g i <> j) -> nth j out' d = nth j out d).
Proof.
  intros A d n g h out Hb Hi.
  destruct (for_inv _ (fun k o => length o = length out /\
     (forall i, i < k -> nth (g i) o d = h i) /\
     (forall j, (forall i, i < k -> g i <> j) -> nth j o d = nth j out d)) n
     (fun i o => wr o (g i) (h i)) out) as (o & E & I).
  - repeat split; intros; auto; lia.
  - intros i s Hi' (L & I1 & I2). exists (upd s (g i) (h i)).
    assert (g i < length s) by (rewrite L; auto).
    rewrite wr_ok by auto. split; auto. rewrite length_upd. repeat split; auto.
    + intros k Hk. rewrite nth_upd by auto. destruct (Nat.eqb_spec (g k) (g i)) as [e|e].
      * apply Hi in e; subst; auto; lia.
      * apply I1. assert (k <> i) by congruence. lia.
    + intros j Hj. rewrite nth_upd by auto. destruct (Nat.eqb_spec j (g i)).
      * subst. exfalso. apply (Hj i); auto.
      * apply I2. intros; apply Hj; lia.
  - exists o. split; auto.
Qed.

Lemma scatter2 : forall A (d : A) n m g h (out : list A),
  (forall f i, f < n -> i < m -> g f i < length out) ->
  (forall f i f' i', f < n -> i < m -> f' < n -> i' < m -> g f i = g f' i' -> f = f' /\ i = i') ->
  exists out', for_ n (fun f o => for_ m (fun i o => wr o (g f i) (h f i)) o) out = Ret out' /\
    length out' = length out /\
    (forall f i, f < n -> i < m -> nth (g f i) out' d = h f i) /\
    (forall j, (forall f i, f < n -> i < m -> g f i <> j) -> nth j out' d = nth j out d).
Proof.
  intros A d n m g h out Hb Hi.
  destruct (for_inv _ (fun k o => length o = length out /\
     (forall f i, f < k -> i < m -> nth (g f i) o d = h f i) /\
     (forall j, (forall f i, f < k -> i < m -> g f i <> j) -> nth j o d = nth j out d)) n
     (fun f o => for_ m (fun i o => wr o (g f i) (h f i)) o) out) as (o & E & I).
  - repeat split; intros; auto; lia.
  - intros f s Hf (L & I1 & I2).
    destruct (scatter A d m (g f) (h f) s) as (s' & E' & L' & J1 & J2).
    + intros; rewrite L; auto.
    + intros i j H1 H2 e. apply Hi in e; auto. lia.
    + exists s'. split; [exact E'|]. split; [lia|]. split.
      * intros f' i Hf' Hi'. destruct (Nat.eq_dec f' f).
        { subst; auto. }
        rewrite J2. { apply I1; lia. }
        intros k Hk e. apply Hi in e; auto; lia.
      * intros j Hj. rewrite J2. { apply I2. intros; apply Hj; lia. }
        intros; apply Hj; lia.
  - exists o. split; auto.
Qed.
