(** Proofs about the sources and the sinks. *)
From Coq Require Import List Arith Bool ZArith Lia.
From Verif Require Import Base Copy WLoops BitPackerModel BitPackerSpec BitPackerProofs AListModel SourceModel SourceSpec.
Import ListNotations.

Lemma bit_of_test : forall j x, bit_of false 8 j x = if Z.testbit x (Z.of_nat j) then 1%Z else 0%Z.
Proof.
  intros j x. unfold bit_of. change (if Z.testbit x (Z.of_nat j) then 1%Z else 0%Z) with (b2z (Z.testbit x (Z.of_nat j))).
  apply Z.bits_inj'. intros k Hk. rewrite Z.land_spec.
  rewrite <- (Z2Nat.id k) by lia. rewrite testbit_b2z.
  rewrite Z.shiftr_spec by lia. destruct (Z.to_nat k) as [|k'] eqn:E.
  - cbn [Z.of_nat Nat.eqb andb]. rewrite Z.add_0_l. change (Z.testbit 1 0) with true. apply andb_true_r.
  - cbn [Nat.eqb andb]. replace (Z.testbit 1 (Z.of_nat (S k'))) with false; [apply andb_false_r|].
    symmetry. change 1%Z with (b2z true). rewrite testbit_b2z. reflexivity.
Qed.

Lemma file_bit_shift : forall blk i k, file_bit blk (8 * i + k) =
  if Z.testbit (nth (i + k / 8) blk 0%Z) (Z.of_nat (k mod 8)) then 1%Z else 0%Z.
Proof.
  intros. unfold file_bit. replace (8 * i + k) with (k + i * 8) by lia. rewrite Nat.div_add, Nat.mod_add by lia.
  rewrite (Nat.add_comm i). reflexivity.
Qed.

Lemma file_bit_out : forall f p, 8 * length f <= p -> file_bit f p = 0%Z.
Proof.
  intros f p H. unfold file_bit. rewrite nth_overflow.
  - rewrite Z.bits_0. reflexivity.
  - apply Nat.div_le_lower_bound; lia.
Qed.

Lemma symbols_8 : forall n, symbols_for n 8 = (n + 7) / 8.
Proof. intros. unfold symbols_for. f_equal. lia. Qed.

Lemma unpack_at_ok : forall blk i U o n, o + n <= length U -> i + (n + 7) / 8 <= length blk ->
  exists out, unpack_at blk i U o n = Ret out /\ length out = length U /\
    (forall k, k < n -> nth (o + k) out 0%Z = file_bit blk (8 * i + k)) /\
    (forall k, k < o \/ o + n <= k -> nth k out 0%Z = nth k U 0%Z).
Proof.
  intros blk i U o n Ho Hi. rewrite <- symbols_8 in Hi.
  destruct (unpack_frame_spec 8 blk U n false 8 i o ltac:(lia) Ho Hi) as (out & E & L & A & B).
  exists out. repeat split; auto. intros k Hk. rewrite (A k Hk), bit_of_test, file_bit_shift. reflexivity.
Qed.

(* ------------------------------------------------------------------ *)
(** * Source_user_binary *)

(** The invariant of a source that is not done: position [pos] in the file, [l] bits left. *)
Record inv (K : nat) (file : list Z) (auto : bool) (pos l : nat) (s : bsrc) : Prop := {
  i_K : b_K s = K; i_file : b_file s = file; i_auto : b_auto s = auto; i_pos : b_pos s = pos; i_left : b_left s = l;
  i_done : b_done s = false; i_eof : b_eof s = false; i_blk : length (b_blk s) = K; i_bits : length (b_bits s) = 8;
  i_le : pos <= length file; i_l7 : l <= 7; i_l8 : l <= 8 * pos; i_lK : l <= K;
  i_val : forall i, i < l -> nth i (b_bits s) 0%Z = file_bit file (8 * pos - l + i) }.

Lemma left_loop : forall bits U l, length bits = 8 -> l <= 7 -> l <= length U ->
  exists V, for_ l (fun i U => b <- rd bits i ;; wr U i b) U = Ret V /\ length V = length U /\
    (forall i, i < l -> nth i V 0%Z = nth i bits 0%Z).
Proof.
  intros bits U l Hb Hl HU.
  match goal with |- context [for_ _ ?body _] =>
    destruct (for_inv _ (fun t (V : list Z) => length V = length U /\ forall i, i < t -> nth i V 0%Z = nth i bits 0%Z) l body U) as (V & E & I) end.
  - split; auto. intros; lia.
  - intros i V Hi (L & I). rewrite (rd_ok _ 0%Z) by lia. cbn [bind]. rewrite wr_ok by lia.
    eexists. split; [reflexivity|]. rewrite length_upd. split; auto. intros q Hq.
    destruct (Nat.eq_dec q i) as [->|e]; [rewrite nth_upd_eq by lia; auto|rewrite nth_upd_neq by lia; apply I; lia].
  - exists V. tauto.
Qed.

(** The shift of the left bits, 111-112. *)
Lemma shift_loop : forall bits l, length bits = 8 -> l <= 7 ->
  exists V, for_ l (fun i bits => b <- rd bits (i + 8 - l) ;; wr bits i b) bits = Ret V /\ length V = 8 /\
    (forall i, i < l -> nth i V 0%Z = nth (i + 8 - l) bits 0%Z).
Proof.
  intros bits l Hb Hl.
  match goal with |- context [for_ _ ?body _] =>
    destruct (for_inv _ (fun t (V : list Z) => length V = 8 /\ (forall i, i < t -> nth i V 0%Z = nth (i + 8 - l) bits 0%Z) /\
      (forall i, t <= i -> nth i V 0%Z = nth i bits 0%Z)) l body bits) as (V & E & I) end.
  - repeat split; auto. intros; lia.
  - intros i V Hi (L & I & J). rewrite (rd_ok _ 0%Z) by lia. cbn [bind]. rewrite wr_ok by lia.
    eexists. split; [reflexivity|]. rewrite length_upd. split; auto. split.
    + intros q Hq. destruct (Nat.eq_dec q i) as [->|e].
      * rewrite nth_upd_eq by lia. apply J. lia.
      * rewrite nth_upd_neq by lia. apply I; lia.
    + intros q Hq. rewrite nth_upd_neq by lia. apply J. lia.
  - exists V. tauto.
Qed.

(** The loop that reads, when the bytes are there. *)
Lemma read_full : forall fuel needed s, 2 <= fuel -> needed <= length (b_blk s) -> b_pos s + needed <= length (b_file s) ->
  exists blk, read_loop fuel needed s 0 =
    Ret (mkS (b_K s) (b_file s) (b_pos s + needed) (b_eof s) (b_auto s) (b_done s) (b_left s) blk (b_bits s), needed) /\
    length blk = length (b_blk s) /\ forall i, i < needed -> nth i blk 0%Z = nth (b_pos s + i) (b_file s) 0%Z.
Proof.
  intros fuel needed s Hf Hb Hp. destruct fuel as [|[|fuel]]; [lia|lia|]. cbn [read_loop].
  destruct (Nat.ltb_spec 0 needed) as [Hn|Hn].
  - rewrite Nat.min_l by lia. rewrite Nat.sub_0_r.
    destruct (copy_spec Z 0%Z (b_file s) (b_pos s) needed (b_blk s) 0 ltac:(lia) ltac:(lia)) as (blk & E & L & A & _).
    rewrite E. cbn [bind]. rewrite Nat.ltb_irrefl. cbn [b_auto].
    rewrite orb_false_r. cbn [Nat.add]. rewrite Nat.ltb_irrefl. exists blk. split; [reflexivity|]. split; auto.
  - assert (needed = 0) by lia. subst. exists (b_blk s). rewrite Nat.add_0_r. destruct s; cbn. split; [reflexivity|]. split; auto. intros; lia.
Qed.

(** The loop that reads, when the file ends and auto_reset is not set. *)
Lemma read_short : forall fuel needed s, 1 <= fuel -> needed <= length (b_blk s) -> b_pos s <= length (b_file s) ->
  length (b_file s) < b_pos s + needed -> b_auto s = false ->
  let n := length (b_file s) - b_pos s in
  exists blk, read_loop fuel needed s 0 =
    Ret (mkS (b_K s) (b_file s) (length (b_file s)) true (b_auto s) (b_done s) (b_left s) blk (b_bits s), n) /\
    length blk = length (b_blk s) /\ forall i, i < n -> nth i blk 0%Z = nth (b_pos s + i) (b_file s) 0%Z.
Proof.
  intros fuel needed s Hf Hb Hp Hs Ha n. destruct fuel as [|fuel]; [lia|]. cbn [read_loop].
  destruct (Nat.ltb_spec 0 needed) as [Hn|Hn]; [|lia].
  rewrite Nat.min_r by lia. fold n.
  destruct (copy_spec Z 0%Z (b_file s) (b_pos s) n (b_blk s) 0 ltac:(lia) ltac:(lia)) as (blk & E & L & A & _).
  rewrite E. cbn [bind]. destruct (Nat.ltb_spec n (needed - 0)); [|lia]. cbn [b_auto]. rewrite Ha.
  rewrite orb_true_r. cbn [Nat.add]. exists blk. split; [|split; auto]. repeat f_equal. lia.
Qed.

Lemma mod_eq_add : forall a b c L, L <> 0 -> a mod L = b mod L -> (a + c) mod L = (b + c) mod L.
Proof. intros. rewrite (Nat.add_mod a), (Nat.add_mod b) by lia. congruence. Qed.

(** The loop that reads, with auto_reset. *)
Lemma read_auto : forall fuel needed s n L, L = length (b_file s) -> 0 < L -> b_auto s = true -> b_pos s <= L -> n <= needed ->
  needed <= length (b_blk s) -> b_eof s = false -> b_done s = false ->
  2 * (needed - n) + (if b_pos s =? L then 1 else 0) < fuel ->
  exists s', read_loop fuel needed s n = Ret (s', needed) /\
    b_K s' = b_K s /\ b_file s' = b_file s /\ b_auto s' = true /\ b_eof s' = false /\ b_done s' = false /\ b_bits s' = b_bits s /\
    length (b_blk s') = length (b_blk s) /\
    (forall i, i < n -> nth i (b_blk s') 0%Z = nth i (b_blk s) 0%Z) /\
    (forall i, n <= i < needed -> nth i (b_blk s') 0%Z = nth ((b_pos s + (i - n)) mod L) (b_file s) 0%Z) /\
    b_pos s' <= L /\ b_pos s' mod L = (b_pos s + (needed - n)) mod L /\ (n < needed -> 0 < b_pos s') /\
    (b_pos s + (needed - n) <= L -> b_pos s' = b_pos s + (needed - n) /\ b_left s' = b_left s) /\
    (b_left s = 0 -> b_left s' = 0).
Proof.
  induction fuel as [|fuel IH]; intros needed s n L HL L0 Ha Hp Hn Hb He Hd Hf; [lia|]. cbn [read_loop].
  destruct (Nat.ltb_spec n needed) as [Hlt|Hge].
  2:{ assert (n = needed) by lia. subst n. exists s. rewrite Nat.sub_diag, Nat.add_0_r. repeat split; auto; lia. }
  set (count := Nat.min (needed - n) (length (b_file s) - b_pos s)).
  assert (Hc : count <= needed - n /\ count <= L - b_pos s) by (unfold count; lia).
  destruct (copy_spec Z 0%Z (b_file s) (b_pos s) count (b_blk s) n ltac:(lia) ltac:(lia)) as (blk & E & EL & A & B).
  rewrite E. cbn [bind b_auto]. rewrite Ha.
  assert (Bsm : forall i, n <= i < n + count -> nth i blk 0%Z = nth ((b_pos s + (i - n)) mod L) (b_file s) 0%Z).
  { intros i Hi. replace i with (n + (i - n)) at 1 by lia. rewrite A by lia. rewrite Nat.mod_small by lia. reflexivity. }
  destruct (Nat.ltb_spec count (needed - n)) as [Hs|Hs].
  - assert (Hcl : count = L - b_pos s) by (unfold count in *; lia).
    edestruct (IH needed (bsrc_reset (mkS (b_K s) (b_file s) (b_pos s + count) (b_eof s || true) true (b_done s) (b_left s) blk (b_bits s))) (n + count) L)
      as (s' & E' & P1 & P2 & P3 & P4 & P5 & P6 & P7 & P8 & P9 & P10 & P11 & P12 & P13 & P14); cbn [bsrc_reset b_K b_file b_pos b_eof b_auto b_done b_left b_blk b_bits]; auto; try lia.
    { destruct (Nat.eqb_spec 0 L); [lia|]. destruct (Nat.eqb_spec (b_pos s) L); lia. }
    cbn [bsrc_reset b_K b_file b_pos b_eof b_auto b_done b_left b_blk b_bits] in *.
    exists s'. split; [exact E'|]. repeat split; auto; try lia.
    + intros i Hi. rewrite P8 by lia. apply B. lia.
    + intros i Hi. destruct (Nat.lt_ge_cases i (n + count)) as [H|H].
      * rewrite P8 by lia. apply Bsm. lia.
      * rewrite P9 by lia. f_equal. replace (b_pos s + (i - n)) with (0 + (i - (n + count)) + 1 * L) by lia. rewrite Nat.mod_add by lia. reflexivity.
    + rewrite P11. replace (b_pos s + (needed - n)) with (0 + (needed - (n + count)) + 1 * L) by lia. rewrite Nat.mod_add by lia. reflexivity.
  - assert (count = needed - n) by lia.
    edestruct (IH needed (mkS (b_K s) (b_file s) (b_pos s + count) (b_eof s || false) true (b_done s) (b_left s) blk (b_bits s)) (n + count) L)
      as (s' & E' & P1 & P2 & P3 & P4 & P5 & P6 & P7 & P8 & P9 & P10 & P11 & P12 & P13 & P14); cbn [b_K b_file b_pos b_eof b_auto b_done b_left b_blk b_bits]; auto; try lia.
    { rewrite He. reflexivity. }
    { destruct (Nat.eqb_spec (b_pos s + count) L); destruct (Nat.eqb_spec (b_pos s) L); lia. }
    cbn [bsrc_reset b_K b_file b_pos b_eof b_auto b_done b_left b_blk b_bits] in *.
    destruct P13 as [Q1 Q2]; [lia|].
    exists s'. split; [exact E'|]. repeat split; auto; try lia.
    + intros i Hi. rewrite P8 by lia. apply B. lia.
    + intros i Hi. rewrite P8 by lia. apply Bsm. lia.
    + rewrite P11. f_equal. lia.
Qed.

Lemma ceil8 : forall a, a <= 8 * ((a + 7) / 8) < a + 8.
Proof.
  intros. pose proof (Nat.div_mod (a + 7) 8 ltac:(lia)). pose proof (Nat.mod_upper_bound (a + 7) 8 ltac:(lia)). lia.
Qed.

(** The end of _generate when all the bytes needed were read. *)
Lemma finish_full : forall s U K l needed, b_K s = K -> b_left s = l -> l <= K -> l <= 7 -> needed = (K - l + 7) / 8 ->
  length (b_blk s) = K -> length (b_bits s) = 8 -> length U = K -> b_eof s = false ->
  exists bits, bsrc_finish needed s needed U =
    Ret (mkS K (b_file s) (b_pos s) (b_eof s) (b_auto s) (b_done s) (8 * needed + l - K) (b_blk s) bits,
         tab K (fun i => if i <? l then nth i U 0%Z else file_bit (b_blk s) (i - l))) /\
    length bits = 8 /\ 8 * needed + l - K <= 7 /\
    forall i, i < 8 * needed + l - K -> nth i bits 0%Z = file_bit (b_blk s) (K - l + i).
Proof.
  intros s U K l needed HK Hl HlK Hl7 Hnd Hblk Hbits HU He. pose proof (ceil8 (K - l)) as C. rewrite <- Hnd in C.
  unfold bsrc_finish. rewrite HK, Hl. destruct (Nat.leb_spec (l + needed * 8) K) as [H|H].
  - assert (Hq : needed * 8 = K - l) by lia.
    destruct (unpack_at_ok (b_blk s) 0 U l (needed * 8)) as (V & E & L & A & B); [lia| |].
    { rewrite Hq, <- Hnd. lia. }
    rewrite E. cbn [bind]. destruct (fill_spec Z 0%Z (K - (l + needed * 8)) V (l + needed * 8) 0%Z ltac:(lia)) as (W & F & LW & _ & FW).
    rewrite F. cbn [bind]. rewrite He, andb_false_r, orb_false_r.
    exists (b_bits s). split; [|split; [auto|split; [lia|intros; lia]]]. f_equal. f_equal.
    + f_equal. lia.
    + apply (list_eq_nth _ 0%Z); [rewrite length_tab; lia|]. intros i Hi. rewrite nth_tab by lia.
      rewrite FW by lia. destruct (Nat.ltb_spec i l); [apply B; lia|].
      replace i with (l + (i - l)) at 1 by lia. rewrite A by lia. reflexivity.
  - destruct (Nat.ltb_spec K l); [lia|].
    destruct (unpack_at_ok (b_blk s) 0 U l (K - l)) as (V & E & L & A & B); [lia| |].
    { rewrite <- Hnd. lia. }
    rewrite E. cbn [bind]. set (l' := needed * 8 - (K - l)).
    assert (Hl' : l' = 8 * needed + l - K) by (unfold l'; lia). destruct (Nat.eqb_spec l' 0); [lia|].
    destruct (unpack_at_ok (b_blk s) (needed - 1) (b_bits s) 0 8) as (bb & E2 & L2 & A2 & _); [lia| |].
    { change ((8 + 7) / 8) with 1. lia. }
    rewrite E2. cbn [bind].
    destruct (shift_loop bb l' ltac:(lia) ltac:(lia)) as (bits & E3 & L3 & A3). rewrite E3. cbn [bind].
    exists bits. split; [|split; [auto|split; [lia|]]].
    + f_equal. f_equal. { rewrite Hl'. reflexivity. }
      apply (list_eq_nth _ 0%Z); [rewrite length_tab; lia|]. intros i Hi. rewrite nth_tab by lia.
      destruct (Nat.ltb_spec i l); [apply B; lia|].
      replace i with (l + (i - l)) at 1 by lia. rewrite A by lia. reflexivity.
    + intros i Hi. rewrite A3 by lia. change (i + 8 - l') with (0 + (i + 8 - l')). rewrite A2 by lia. f_equal. lia.
Qed.

(** The end of _generate when the file ended before. *)
Lemma finish_short : forall s U K l needed n, b_K s = K -> b_left s = l -> l <= K -> l <= 7 -> needed = (K - l + 7) / 8 -> n < needed ->
  length (b_blk s) = K -> length U = K -> b_eof s = true -> b_auto s = false ->
  bsrc_finish needed s n U =
    Ret (mkS K (b_file s) (b_pos s) true false true 0 (b_blk s) (b_bits s),
         tab K (fun i => if i <? l then nth i U 0%Z else if i - l <? 8 * n then file_bit (b_blk s) (i - l) else 0%Z)).
Proof.
  intros s U K l needed n HK Hl HlK Hl7 Hnd Hn Hblk HU He Ha. pose proof (ceil8 (K - l)) as C. rewrite <- Hnd in C.
  unfold bsrc_finish. rewrite HK, Hl. destruct (Nat.leb_spec (l + n * 8) K) as [H|H]; [|lia].
  destruct (unpack_at_ok (b_blk s) 0 U l (n * 8)) as (V & E & L & A & B); [lia| |].
  { assert ((n * 8 + 7) / 8 <= needed); [|lia]. rewrite Hnd. apply Nat.div_le_mono; lia. }
  rewrite E. cbn [bind]. destruct (fill_spec Z 0%Z (K - (l + n * 8)) V (l + n * 8) 0%Z ltac:(lia)) as (W & F & LW & FV & FW).
  rewrite F. cbn [bind]. rewrite He, Ha, orb_true_r. f_equal. f_equal.
  - f_equal. lia.
  - apply (list_eq_nth _ 0%Z); [rewrite length_tab; lia|]. intros i Hi. rewrite nth_tab by lia.
    destruct (Nat.ltb_spec i l); [rewrite FW by lia; apply B; lia|].
    destruct (Nat.ltb_spec (i - l) (8 * n)).
    + rewrite FW by lia. replace i with (l + (i - l)) at 1 by lia. rewrite A by lia. reflexivity.
    + replace i with (l + n * 8 + (i - (l + n * 8))) by lia. apply FV. lia.
Qed.

Lemma needed_eq : forall K l, l <= K -> (K + 8 - 1 - l) / 8 = (K - l + 7) / 8.
Proof. intros. f_equal. lia. Qed.

Lemma file_bit_blk : forall blk file pos n j, (forall i, i < n -> nth i blk 0%Z = nth (pos + i) file 0%Z) -> j < 8 * n ->
  file_bit blk j = file_bit file (8 * pos + j).
Proof.
  intros blk file pos n j H Hj. rewrite file_bit_shift. unfold file_bit. rewrite H by (apply Nat.div_lt_upper_bound; lia). reflexivity.
Qed.

(** A call that finds its bytes in the file. *)
Lemma gen_full : forall fuel K file auto pos l s U, inv K file auto pos l s -> length U = K -> 2 <= fuel ->
  pos + (K - l + 7) / 8 <= length file -> 8 * ((K - l + 7) / 8) + l - K <= K ->
  exists s', bsrc_generate fuel s U = Ret (s', tab K (fun i => file_bit file (8 * pos - l + i))) /\
    inv K file auto (pos + (K - l + 7) / 8) (8 * ((K - l + 7) / 8) + l - K) s'.
Proof.
  intros fuel K file auto pos l s U [] HU Hf Hp Hk. unfold bsrc_generate. rewrite i_done0.
  rewrite i_K0, i_left0. rewrite (needed_eq K l i_lK0).
  destruct (left_loop (b_bits s) U l) as (V & EV & LV & AV); auto; [lia|]. rewrite EV. cbn [bind].
  set (needed := (K - l + 7) / 8) in *. pose proof (ceil8 (K - l)) as C. fold needed in C.
  destruct (read_full fuel needed s) as (blk & E & LB & AB); auto; [lia|rewrite i_pos0, i_file0; auto|].
  rewrite E. cbn [bind]. clear E. rewrite i_pos0, i_file0 in *.
  match goal with |- context [bsrc_finish _ ?st _ _] => set (s1 := st) end.
  destruct (finish_full s1 V K l needed) as (bits & E & LBt & Hl7 & AB2); auto; try (unfold s1; cbn [b_K b_left b_blk b_bits b_eof]; congruence).
  rewrite E. eexists. split.
  - f_equal. f_equal. apply tab_ext. intros i Hi. destruct (Nat.ltb_spec i l).
    + rewrite AV by auto. apply i_val0. auto.
    + unfold s1. cbn [b_blk]. rewrite (file_bit_blk blk file pos needed); auto; [f_equal; lia|lia].
  - constructor; cbn [b_K b_file b_auto b_pos b_left b_done b_eof b_blk b_bits]; auto; try lia; try (unfold s1; cbn; congruence).
    intros i Hi. rewrite AB2 by auto. unfold s1. cbn [b_blk]. rewrite (file_bit_blk blk file pos needed); auto; [f_equal; lia|lia].
Qed.

(** A call during which the file ends, without auto_reset. *)
Lemma gen_short : forall fuel K file pos l s U, inv K file false pos l s -> length U = K -> 1 <= fuel ->
  length file < pos + (K - l + 7) / 8 ->
  exists s', bsrc_generate fuel s U = Ret (s', tab K (fun i => file_bit file (8 * pos - l + i))) /\
    b_K s' = K /\ b_file s' = file /\ b_auto s' = false /\ b_done s' = true /\ length (b_blk s') = K /\ length (b_bits s') = 8.
Proof.
  intros fuel K file pos l s U [] HU Hf Hp. unfold bsrc_generate. rewrite i_done0.
  rewrite i_K0, i_left0. rewrite (needed_eq K l i_lK0).
  destruct (left_loop (b_bits s) U l) as (V & EV & LV & AV); auto; [lia|]. rewrite EV. cbn [bind].
  set (needed := (K - l + 7) / 8) in *. pose proof (ceil8 (K - l)) as C. fold needed in C.
  destruct (read_short fuel needed s) as (blk & E & LB & AB); auto; try lia; try (rewrite i_pos0, i_file0; auto).
  rewrite E. cbn [bind]. clear E. rewrite i_pos0, i_file0 in *. set (n := length file - pos) in *.
  match goal with |- context [bsrc_finish _ ?st _ _] => set (s1 := st) end.
  rewrite (finish_short s1 V K l needed n); auto; try (unfold s1; cbn [b_K b_left b_blk b_bits b_eof b_auto]; congruence); try (unfold n; lia).
  eexists. split; [f_equal; f_equal|unfold s1; cbn [b_K b_file b_auto b_done b_blk b_bits]; repeat split; auto; congruence].
  apply tab_ext. intros i Hi. destruct (Nat.ltb_spec i l).
  - rewrite AV by auto. apply i_val0. auto.
  - unfold s1. cbn [b_blk]. destruct (Nat.ltb_spec (i - l) (8 * n)).
    + rewrite (file_bit_blk blk file pos n); auto. f_equal. lia.
    + symmetry. apply file_bit_out. unfold n in *. lia.
Qed.

Lemma mod_mul8 : forall p j L, L <> 0 -> j < 8 -> (8 * p + j) mod (8 * L) = 8 * (p mod L) + j.
Proof.
  intros p j L HL Hj. pose proof (Nat.div_mod p L HL). pose proof (Nat.mod_upper_bound p L HL).
  symmetry. apply Nat.mod_unique with (q := p / L); nia.
Qed.

Lemma file_bit_cyc : forall blk file pos n L j, L <> 0 -> (forall i, i < n -> nth i blk 0%Z = nth ((pos + i) mod L) file 0%Z) -> j < 8 * n ->
  file_bit blk j = file_bit file ((8 * pos + j) mod (8 * L)).
Proof.
  intros blk file pos n L j HL H Hj. unfold file_bit at 1. rewrite H by (apply Nat.div_lt_upper_bound; lia).
  pose proof (Nat.div_mod j 8 ltac:(lia)) as D. pose proof (Nat.mod_upper_bound j 8 ltac:(lia)).
  replace (8 * pos + j) with (8 * (pos + j / 8) + j mod 8) by lia. rewrite mod_mul8 by auto. rewrite file_bit_shift.
  rewrite (Nat.div_small (j mod 8)), (Nat.mod_small (j mod 8)), Nat.add_0_r by lia. reflexivity.
Qed.

(** A call with auto_reset; the file may end during the call when no bit was left. *)
Lemma gen_auto : forall fuel K file pos l s U, inv K file true pos l s -> length U = K -> 2 * K + 2 <= fuel -> 0 < length file -> 0 < K ->
  l = 0 \/ pos + (K - l + 7) / 8 <= length file -> 8 * ((K - l + 7) / 8) + l - K <= K ->
  exists s' pos', bsrc_generate fuel s U = Ret (s', tab K (fun i => file_bit file ((8 * pos - l + i) mod (8 * length file)))) /\
    inv K file true pos' (8 * ((K - l + 7) / 8) + l - K) s' /\
    pos' mod length file = (pos + (K - l + 7) / 8) mod length file /\ (l < K -> 0 < pos') /\
    (pos + (K - l + 7) / 8 <= length file -> pos' = pos + (K - l + 7) / 8).
Proof.
  intros fuel K file pos l s U I HU Hf HL HK Hc Hk.
  destruct (Nat.le_gt_cases (pos + (K - l + 7) / 8) (length file)) as [Hp|Hp].
  - destruct (gen_full fuel K file true pos l s U I HU ltac:(lia) Hp Hk) as (s' & E & I').
    exists s', (pos + (K - l + 7) / 8). split; [|split; [exact I'|]]; [|split; [reflexivity|split; [|reflexivity]]].
    2:{ intros. pose proof (ceil8 (K - l)). lia. }
    rewrite E. f_equal. f_equal. apply tab_ext. intros i Hi. f_equal. pose proof (ceil8 (K - l)). rewrite Nat.mod_small; [reflexivity|]. destruct I. lia.
  - destruct Hc as [->|]; [|lia]. destruct I. unfold bsrc_generate. rewrite i_done0.
    rewrite i_K0, i_left0. rewrite (needed_eq K 0 i_lK0). cbn [for_ for_from bind].
    set (needed := (K - 0 + 7) / 8) in *. pose proof (ceil8 (K - 0)) as C. fold needed in C.
    destruct (read_auto fuel needed s 0 (length file)) as (s1 & E & P1 & P2 & P3 & P4 & P5 & P6 & P7 & _ & P9 & P10 & P11 & P12 & _ & P14);
      auto; try lia; try (rewrite i_file0; auto).
    { destruct (b_pos s =? length file); lia. }
    rewrite E. cbn [bind]. clear E.
    destruct (finish_full s1 U K 0 needed) as (bits & E & LBt & Hl7 & AB2); auto; try congruence; try lia.
    assert (AB : forall i, i < needed -> nth i (b_blk s1) 0%Z = nth ((pos + i) mod length file) file 0%Z).
    { intros i Hi. rewrite P9 by lia. rewrite i_file0, i_pos0, Nat.sub_0_r. reflexivity. }
    rewrite E. exists (mkS K (b_file s1) (b_pos s1) (b_eof s1) (b_auto s1) (b_done s1) (8 * needed + 0 - K) (b_blk s1) bits), (b_pos s1).
    split; [|split; [|split; [|split; [lia|lia]]]].
    + f_equal. f_equal. apply tab_ext. intros i Hi. cbn [Nat.ltb Nat.leb]. rewrite Nat.sub_0_r.
      rewrite (file_bit_cyc (b_blk s1) file pos needed (length file)); auto; try lia. f_equal. f_equal. lia.
    + assert (0 < b_pos s1) by (apply P12; lia).
      constructor; cbn [b_K b_file b_auto b_pos b_left b_done b_eof b_blk b_bits]; auto; try lia; try congruence.
      intros i Hi. rewrite AB2 by auto. rewrite Nat.sub_0_r.
      rewrite (file_bit_cyc (b_blk s1) file pos needed (length file)); auto; try lia.
      f_equal. rewrite i_pos0, Nat.sub_0_r in P11.
      assert (X : (8 * pos + (K + i)) mod (8 * length file) = (8 * (b_pos s1 - 1) + (8 - (8 * needed + 0 - K) + i)) mod (8 * length file)).
      { replace (8 * pos + (K + i)) with (8 * (pos + (needed - 1)) + (8 - (8 * needed + 0 - K) + i)) by lia.
        rewrite !mod_mul8 by lia. f_equal. f_equal.
        destruct (Nat.eq_dec (length file) 1) as [e|e]; [rewrite e, !Nat.mod_1_r; reflexivity|].
        assert (Y : (b_pos s1 - 1 + 1) mod length file = (pos + (needed - 1) + 1) mod length file).
        { replace (b_pos s1 - 1 + 1) with (b_pos s1) by lia. replace (pos + (needed - 1) + 1) with (pos + needed) by lia. exact P11. }
        apply (mod_eq_add _ _ (length file - 1)) in Y; [|lia].
        replace (b_pos s1 - 1 + 1 + (length file - 1)) with (b_pos s1 - 1 + 1 * length file) in Y by lia.
        replace (pos + (needed - 1) + 1 + (length file - 1)) with (pos + (needed - 1) + 1 * length file) in Y by lia.
        rewrite !Nat.mod_add in Y by lia. symmetry. exact Y. }
      rewrite X. rewrite Nat.mod_small; lia.
    + rewrite P11, i_pos0. f_equal. lia.
Qed.
