(** Proofs about the hard decisions. *)
From Coq Require Import List Arith Lia Bool ZArith.
From Verif Require Import Base HardModel.
Import ListNotations.

Section H.
Variables (R : Type) (d : R).

(** Writing f(in[i]) to out[i], for i in a range. *)
Lemma range_ok : forall (f : R -> Z) inp off size out, off + size <= length inp -> off + size <= length out ->
  exists out', for_ size (fun i out => x <- rd inp (off + i) ;; wr out (off + i) (f x)) out = Ret out' /\ length out' = length out /\
    forall k, nth k out' 0%Z = if (off <=? k) && (k <? off + size) then f (nth k inp d) else nth k out 0%Z.
Proof.
  intros f inp off size out Li Lo.
  destruct (for_inv _ (fun i o => length o = length out /\ forall k, nth k o 0%Z = if (off <=? k) && (k <? off + i) then f (nth k inp d) else nth k out 0%Z) size
    (fun i out => x <- rd inp (off + i) ;; wr out (off + i) (f x)) out) as (o & E & L & H).
  - split; [reflexivity|]. intros k. destruct (Nat.leb_spec off k), (Nat.ltb_spec k (off + 0)); try reflexivity; lia.
  - intros i o Hi (L & H). rewrite (rd_ok _ d) by lia. cbn [bind]. rewrite wr_ok by lia. eexists. split; [reflexivity|]. rewrite length_upd. split; [exact L|]. intros k.
    destruct (Nat.eq_dec k (off + i)) as [-> | Hne].
    + rewrite nth_upd_eq by lia. destruct (Nat.leb_spec off (off + i)), (Nat.ltb_spec (off + i) (off + S i)); try lia. reflexivity.
    + rewrite nth_upd_neq by auto. rewrite H. destruct (Nat.leb_spec off k), (Nat.ltb_spec k (off + i)), (Nat.ltb_spec k (off + S i)); try lia; reflexivity.
  - exists o. auto.
Qed.

Lemma store_ok : forall E (f : R -> Z) inp out b, b + E <= length inp -> b + E <= length out ->
  exists out', (q <- load R E inp b ;; store E out b (map f q)) = Ret out' /\ length out' = length out /\
    forall k, nth k out' 0%Z = if (b <=? k) && (k <? b + E) then f (nth k inp d) else nth k out 0%Z.
Proof.
  intros E f inp out b Li Lo. unfold load. destruct (Nat.leb_spec (b + E) (length inp)); [|lia]. cbn [bind]. unfold store.
  destruct (range_ok f inp b E out Li Lo) as (o & Eo & L & Ho). exists o. split; [|auto]. rewrite <- Eo. apply for_ext. intros i s Hi.
  rewrite (rd_ok _ (f d)) by (rewrite map_length, firstn_length, skipn_length; lia). rewrite map_nth. rewrite firstn_nth by exact Hi. rewrite skipn_nth. rewrite (rd_ok _ d) by lia. reflexivity.
Qed.

(** The registers then the end of the vector. *)
Lemma vec_ok : forall E (f g : R -> Z) inp size out, 0 < E -> length inp = size -> length out = size ->
  exists out', (out <- for_ (size / E) (fun b out => q <- load R E inp (b * E) ;; store E out (b * E) (map f q)) out ;;
      for_ (size - (size / E) * E) (fun i out => x <- rd inp ((size / E) * E + i) ;; wr out ((size / E) * E + i) (g x)) out) = Ret out' /\
    out' = map f (firstn ((size / E) * E) inp) ++ map g (skipn ((size / E) * E) inp).
Proof.
  intros E f g inp size out HE Li Lo. set (n := size / E). assert (Hn : n * E <= size) by (unfold n; rewrite Nat.mul_comm; apply Nat.mul_div_le; lia).
  destruct (for_inv _ (fun b o => length o = size /\ forall k, k < b * E -> nth k o 0%Z = f (nth k inp d)) n (fun b out => q <- load R E inp (b * E) ;; store E out (b * E) (map f q)) out) as (o & Eo & L & H).
  - split; [exact Lo|]. intros. lia.
  - intros b o Hb (L & H). assert (b * E + E <= n * E) by nia. destruct (store_ok E f inp o (b * E)) as (o' & E' & L' & H'); [lia|lia|]. exists o'. split; [exact E'|]. split; [lia|]. intros k Hk. rewrite H'.
    destruct (Nat.leb_spec (b * E) k), (Nat.ltb_spec k (b * E + E)); cbn [andb]; try reflexivity; try (cbn in Hk; lia). apply H. lia.
  - rewrite Eo. cbn [bind]. destruct (range_ok g inp (n * E) (size - n * E) o) as (o' & E' & L' & H'); [lia|lia|]. exists o'. split; [exact E'|].
    apply (list_eq_nth _ 0%Z). { rewrite app_length, !map_length, firstn_length, skipn_length. lia. }
    intros k Hk. rewrite H'. destruct (Nat.leb_spec (n * E) k) as [Q|Q].
    + destruct (Nat.ltb_spec k (n * E + (size - n * E))); [|lia]. cbn [andb]. rewrite app_nth2 by (rewrite map_length, firstn_length; lia). rewrite map_length, firstn_length.
      rewrite (nth_indep _ 0%Z (g d)) by (rewrite map_length, skipn_length; lia). rewrite map_nth, skipn_nth. f_equal. f_equal. lia.
    + cbn [andb]. rewrite H by exact Q. rewrite app_nth1 by (rewrite map_length, firstn_length; lia). rewrite (nth_indep _ 0%Z (f d)) by (rewrite map_length, firstn_length; lia).
      rewrite map_nth, firstn_nth by exact Q. reflexivity.
Qed.
End H.
