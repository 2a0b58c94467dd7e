(** The loops of the channels (ChannelModel.v). *)
From Coq Require Import List Arith Bool ZArith Lia.
From Verif Require Import Base Copy ModemModel ChannelModel.
Import ListNotations.
Local Open Scope nat_scope.

(** A loop that updates the elements o, o + 1, ... of a list. *)
Lemma update_frame : forall T (d : T) (U : nat -> T -> T) N o (body : nat -> list T -> outcome (list T)) (Y : list T), o + N <= length Y ->
  (forall i Y', i < N -> length Y' = length Y -> body i Y' = wr Y' (o + i) (U i (nth (o + i) Y' d))) ->
  exists Y', for_ N body Y = Ret Y' /\ length Y' = length Y /\ (forall i, i < N -> nth (o + i) Y' d = U i (nth (o + i) Y d)) /\
    (forall q, q < o \/ o + N <= q -> nth q Y' d = nth q Y d).
Proof.
  intros T d U N o body Y HN HB.
  destruct (for_inv _ (fun t (y : list T) => length y = length Y /\ (forall i, i < t -> nth (o + i) y d = U i (nth (o + i) Y d)) /\
    (forall q, q < o \/ o + t <= q -> nth q y d = nth q Y d)) N body Y) as (Y' & E & L & B & C).
  - repeat split; auto. intros; lia.
  - intros i y Hi (L & B & C). rewrite HB by auto. rewrite wr_ok by lia. eexists. split; [reflexivity|]. rewrite length_upd. split; [auto|]. split.
    + intros k Hk. destruct (Nat.eq_dec k i) as [->|e].
      * rewrite nth_upd_eq by lia. rewrite C by lia. reflexivity.
      * rewrite nth_upd_neq by lia. apply B. lia.
    + intros q Hq. rewrite nth_upd_neq by lia. apply C. lia.
  - exists Y'. auto.
Qed.

(** A loop on the frames. *)
Lemma frames_loop : forall T (d : T) S (Inv : nat -> S -> Prop) (out : nat -> nat -> T) N nf (body : nat -> S * list T -> outcome (S * list T)) s Y,
  0 < N -> length Y = nf * N -> Inv 0 s ->
  (forall f s Y, f < nf -> Inv f s -> length Y = nf * N -> exists s' Y', body f (s, Y) = Ret (s', Y') /\ Inv (Datatypes.S f) s' /\ length Y' = nf * N /\
     (forall i, i < N -> nth (f * N + i) Y' d = out f i) /\ (forall q, q < f * N -> nth q Y' d = nth q Y d)) ->
  exists s', for_ nf body (s, Y) = Ret (s', tab (nf * N) (fun q => out (q / N) (q mod N))) /\ Inv nf s'.
Proof.
  intros T d S Inv out N nf body s Y HN HY H0 HB.
  destruct (for_inv _ (fun f (st : S * list T) => Inv f (fst st) /\ length (snd st) = nf * N /\
    forall q, q < f * N -> nth q (snd st) d = out (q / N) (q mod N)) nf body (s, Y)) as ((s' & Y') & E & I & L & A).
  - cbn [fst snd]. repeat split; auto. intros; lia.
  - intros f (s1 & Y1) Hf (I & L & A). cbn [fst snd] in *. destruct (HB f s1 Y1 Hf I L) as (s2 & Y2 & E & I2 & L2 & A2 & B2).
    exists (s2, Y2). split; [exact E|]. cbn [fst snd]. split; [exact I2|]. split; [exact L2|]. intros q Hq.
    destruct (Nat.lt_ge_cases q (f * N)) as [H|H].
    + rewrite B2 by exact H. apply A. exact H.
    + replace q with (f * N + (q - f * N)) at 1 by lia. rewrite A2 by lia.
      assert (q / N = f) as ->. { symmetry. apply Nat.div_unique with (r := q - f * N); lia. }
      assert (q mod N = q - f * N) as ->. { symmetry. apply Nat.mod_unique with (q := f); lia. }
      reflexivity.
  - cbn [fst snd] in *. exists s'. split; [|exact I]. rewrite E. f_equal. f_equal. apply (eq_tab _ d); auto.
Qed.

(** A loop that writes a list and updates another, w elements at a time. *)
Lemma pair_loop : forall T (d : T) (hv : nat -> T) (U : nat -> T -> T) w n oh oy (body : nat -> list T * list T -> outcome (list T * list T)) (H Y : list T),
  0 < w ->
  (forall k H' Y', k < n -> length H' = length H -> length Y' = length Y -> exists H2 Y2, body k (H', Y') = Ret (H2, Y2) /\
     length H2 = length H /\ length Y2 = length Y /\
     (forall q, nth q H2 d = if (oh + w * k <=? q) && (q <? oh + w * k + w) then hv (q - oh) else nth q H' d) /\
     (forall q, nth q Y2 d = if (oy + w * k <=? q) && (q <? oy + w * k + w) then U (q - oy) (nth q Y' d) else nth q Y' d)) ->
  exists H' Y', for_ n body (H, Y) = Ret (H', Y') /\ length H' = length H /\ length Y' = length Y /\
     (forall i, i < w * n -> nth (oh + i) H' d = hv i) /\ (forall q, q < oh \/ oh + w * n <= q -> nth q H' d = nth q H d) /\
     (forall i, i < w * n -> nth (oy + i) Y' d = U i (nth (oy + i) Y d)) /\ (forall q, q < oy \/ oy + w * n <= q -> nth q Y' d = nth q Y d).
Proof.
  intros T d hv U w n oh oy body H Y Hw HB.
  destruct (for_inv _ (fun t (st : list T * list T) => length (fst st) = length H /\ length (snd st) = length Y /\
     (forall i, i < w * t -> nth (oh + i) (fst st) d = hv i) /\ (forall q, q < oh \/ oh + w * t <= q -> nth q (fst st) d = nth q H d) /\
     (forall i, i < w * t -> nth (oy + i) (snd st) d = U i (nth (oy + i) Y d)) /\ (forall q, q < oy \/ oy + w * t <= q -> nth q (snd st) d = nth q Y d))
     n body (H, Y)) as ((H' & Y') & E & I).
  - cbn [fst snd]. rewrite Nat.mul_0_r. repeat split; auto; intros; lia.
  - intros k (H1 & Y1) Hk (L1 & L2 & A1 & A2 & A3 & A4). cbn [fst snd] in *.
    destruct (HB k H1 Y1 Hk L1 L2) as (H2 & Y2 & E & M1 & M2 & B1 & B2).
    exists (H2, Y2). split; [exact E|]. cbn [fst snd]. split; [auto|]. split; [auto|]. rewrite Nat.mul_succ_r.
    split; [|split; [|split]].
    + intros i Hi. rewrite B1. destruct (Nat.leb_spec (oh + w * k) (oh + i)); destruct (Nat.ltb_spec (oh + i) (oh + w * k + w)); cbn [andb]; try lia.
      * f_equal. lia.
      * apply A1. lia.
    + intros q Hq. rewrite B1. destruct (Nat.leb_spec (oh + w * k) q); destruct (Nat.ltb_spec q (oh + w * k + w)); cbn [andb]; try lia; apply A2; lia.
    + intros i Hi. rewrite B2. destruct (Nat.leb_spec (oy + w * k) (oy + i)); destruct (Nat.ltb_spec (oy + i) (oy + w * k + w)); cbn [andb]; try lia.
      * rewrite A4 by lia. f_equal. lia.
      * apply A3. lia.
    + intros q Hq. rewrite B2. destruct (Nat.leb_spec (oy + w * k) q); destruct (Nat.ltb_spec q (oy + w * k + w)); cbn [andb]; try lia; apply A4; lia.
  - exists H', Y'. split; [exact E|]. exact I.
Qed.

Section Ch.
Variable A : arith.
Notation T := (num A).
Notation zero := (ofZ A 0%Z).
Variable G : Type.
Variable generate : G -> nat -> T -> list T * G.
Hypothesis gen_ok : forall g n s, length (fst (generate g n s)) = n.

Lemma draw_ok : forall g n s data off, off + n <= length data ->
  exists data', draw A G generate g n s data off = Ret (data', snd (generate g n s)) /\ length data' = length data /\
    (forall i, i < n -> nth (off + i) data' zero = nth i (fst (generate g n s)) zero).
Proof.
  intros g n s data off H. unfold draw. pose proof (gen_ok g n s) as L. destruct (generate g n s) as [w g'].
  cbn [fst snd] in *. destruct (copy_spec T zero w 0 n data off ltac:(lia) H) as (o & E & LO & C & _). rewrite E. cbn [bind].
  exists o. split; [reflexivity|]. split; [exact LO|]. exact C.
Qed.

Lemma length_resize : forall l n, length (resize A l n) = n.
Proof. intros. unfold resize. rewrite app_length, firstn_length, repeat_length. lia. Qed.

Lemma div_mul_size : forall a b n, b <> 0 -> b * a / b * n = n * a.
Proof. intros. rewrite (Nat.mul_comm b a), Nat.div_mul by auto. lia. Qed.

(** The sum of the frames. *)
Definition usum (N nf : nat) (X : list T) (i : nat) : T := fold_left (fun s f => add A s (nth (f * N + i) X zero)) (seq 0 nf) zero.

Lemma usum_S : forall N nf X i, usum N (S nf) X i = add A (usum N nf X i) (nth (nf * N + i) X zero).
Proof. intros. unfold usum. rewrite seq_S, fold_left_app. reflexivity. Qed.

Lemma sum_users_ok : forall N nf X Y, length X = nf * N -> N <= length Y ->
  exists Y', sum_users A N nf X Y = Ret Y' /\ length Y' = length Y /\ (forall i, i < N -> nth i Y' zero = usum N nf X i) /\
    (forall q, N <= q -> nth q Y' zero = nth q Y zero).
Proof.
  intros N nf X Y HX HY. unfold sum_users. destruct (fill_spec T zero N Y 0 zero ltac:(lia)) as (Y0 & E & L & F & R). rewrite E. cbn [bind].
  match goal with |- context [for_ nf ?body _] =>
    destruct (for_inv _ (fun f (y : list T) => length y = length Y /\ (forall i, i < N -> nth i y zero = usum N f X i) /\
      (forall q, N <= q -> nth q y zero = nth q Y zero)) nf body Y0) as (Y' & E' & L' & F' & R') end.
  - split; [exact L|]. split; [intros i Hi; apply (F i Hi)|]. intros q Hq. apply R. lia.
  - intros f y Hf (Ly & Fy & Ry).
    match goal with |- context [for_ N ?body y] => destruct (update_frame T zero (fun i s => add A s (nth (f * N + i) X zero)) N 0 body y) as (y' & Ey & Lw & Fw & Rw) end.
    + lia.
    + intros i y' Hi Hy'. cbn [Nat.add]. rewrite (rd_ok _ zero) by lia. cbn [bind]. rewrite (rd_ok _ zero) by (rewrite HX; nia). reflexivity.
    + exists y'. split; [exact Ey|]. split; [congruence|]. split.
      * intros i Hi. rewrite usum_S, <- Fy by auto. apply (Fw i Hi).
      * intros q Hq. rewrite Rw by lia. apply Ry. exact Hq.
  - exists Y'. auto.
Qed.
End Ch.
