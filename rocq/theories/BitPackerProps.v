(** C05, C06: packing and unpacking of bits. *)
From Coq Require Import List Arith ZArith Lia Bool.
From Verif Require Import Base Loops Float32 BitPackerModel BitPackerSpec BitPackerProofs.
Import ListNotations.

(** A frame of up to 2^24 bits, or any frame if there is only one, is packed where
    it should be: symbol [i] of frame [f] is at [f * symbols + i] and holds bits
    [i*nbps ..] of the frame; the rest of the output is untouched. *)
Theorem C05_pack_layout : forall w vin vout n_bits n_frames msb nbps,
  0 < nbps <= w ->
  (n_frames <= 1 \/ nbps <= 64 /\ (Z.of_nat n_bits <= 2 ^ 24)%Z) ->
  n_frames * n_bits <= length vin -> n_frames * symbols_for n_bits nbps <= length vout ->
  exists out, pack_ptr w vin vout n_bits n_frames msb nbps = Ret out /\
    length out = length vout /\
    (forall f i, f < n_frames -> i < symbols_for n_bits nbps ->
       holds_bits msb w (Nat.min nbps (n_bits - i * nbps))
         (fun j => nth (f * n_bits + (i * nbps + j)) (bits_of vin) false)
         (nth (f * symbols_for n_bits nbps + i) out 0%Z)) /\
    skipn (n_frames * symbols_for n_bits nbps) out = skipn (n_frames * symbols_for n_bits nbps) vout.
Proof.
  intros. destruct (pack_ptr_spec w vin vout n_bits n_frames msb nbps) as (out & E & L & I1 & I2); auto.
  exists out. split; auto. split; auto. split; auto.
  apply list_eq_nth with (d := 0%Z). { rewrite !skipn_length. lia. }
  intros. rewrite !skipn_nth. apply I2. lia.
Qed.

(** least-significant-first symbols are below 2^nbps *)
Theorem C05_symbols_small : forall w n bit s, n <= w ->
  holds_bits false w n bit s -> (0 <= s < 2 ^ Z.of_nat n)%Z.
Proof.
  intros w n bit s Hn [B H]. split; [lia|]. apply bits_bound; [lia|].
  intros k Hk. destruct (Z_lt_ge_dec k (Z.of_nat w)).
  - specialize (H (Z.to_nat k) ltac:(lia)). cbv iota in H. rewrite Z2Nat.id in H by lia. rewrite H.
    destruct (Nat.ltb_spec (Z.to_nat k) n); auto. lia.
  - apply bound_bits with (j := w); lia.
Qed.

(** Round trip, any layout, any number of frames. *)
Theorem C05_roundtrip : forall w vin vout vback n_bits n_frames msb nbps,
  0 < nbps <= w ->
  (n_frames <= 1 \/ nbps <= 64 /\ (Z.of_nat n_bits <= 2 ^ 24)%Z) ->
  n_frames * n_bits <= length vin -> n_frames * symbols_for n_bits nbps <= length vout ->
  n_frames * n_bits <= length vback ->
  exists out back,
    pack_ptr w vin vout n_bits n_frames msb nbps = Ret out /\
    unpack_ptr w out vback n_bits n_frames msb nbps = Ret back /\
    firstn (n_frames * n_bits) back = of_bits (bits_of (firstn (n_frames * n_bits) vin)) /\
    skipn (n_frames * n_bits) back = skipn (n_frames * n_bits) vback.
Proof. exact roundtrip_ptr. Qed.

(** An invalid number of bits per symbol is rejected. *)
Theorem C05_invalid_nbps : forall w vin vout n_bits n_frames msb nbps,
  nbps = 0 \/ w < nbps -> pack_ptr w vin vout n_bits n_frames msb nbps = Throws /\
                          unpack_ptr w vin vout n_bits n_frames msb nbps = Throws.
Proof.
  intros. assert (nbps_ok w nbps = false).
  { unfold nbps_ok. destruct (Nat.ltb_spec w nbps); simpl; auto. destruct (Nat.eqb_spec nbps 0); simpl; auto. lia. }
  unfold pack_ptr, unpack_ptr. rewrite H0. auto.
Qed.

(** Vector interface: round trip when the symbol vector has room for the partial
    last symbol of every frame. *)
Theorem C05_vector_roundtrip : forall w vin vout vback n_frames n_bits msb nbps,
  0 < nbps <= w -> 0 < n_frames -> length vin = n_frames * n_bits -> length vback = length vin ->
  (n_frames = 1 \/ nbps <= 64 /\ (Z.of_nat n_bits <= 2 ^ 24)%Z) ->
  n_frames * symbols_for n_bits nbps <= length vout ->
  exists out back,
    pack_vec w vin vout n_frames msb nbps = Ret out /\
    unpack_vec w out vback n_frames msb nbps = Ret back /\
    back = of_bits (bits_of vin).
Proof.
  intros w vin vout vback n_frames n_bits msb nbps Hn Hf Hl Hlb Hs Ho.
  assert (Hs' : n_frames <= 1 \/ nbps <= 64 /\ (Z.of_nat n_bits <= 2 ^ 24)%Z) by (destruct Hs; [left; lia|auto]).
  destruct (C05_roundtrip w vin vout vback n_bits n_frames msb nbps) as (out & back & E1 & E2 & E3 & E4); auto; try lia.
  destruct (C05_pack_layout w vin vout n_bits n_frames msb nbps) as (out' & E1' & L' & _); auto; try lia.
  assert (out' = out) by congruence. subst out'.
  exists out, back. unfold pack_vec, unpack_vec.
  destruct (Nat.eqb_spec n_frames 0); [lia|]. cbn [negb guard bind].
  assert (D : (n_frames * n_bits) mod n_frames = 0) by (rewrite Nat.mul_comm; apply Nat.mod_mul; lia).
  assert (Q : (n_frames * n_bits) / n_frames = n_bits) by (rewrite Nat.mul_comm; apply Nat.div_mul; lia).
  rewrite Hlb, Hl, D, Q. cbn [Nat.eqb guard bind].
  assert (n_bits <= symbols_for n_bits nbps * nbps).
  { unfold symbols_for. pose proof (Nat.div_mod (n_bits + nbps - 1) nbps ltac:(lia)).
    pose proof (Nat.mod_upper_bound (n_bits + nbps - 1) nbps ltac:(lia)). nia. }
  destruct (Nat.ltb_spec (length vout * nbps) (n_frames * n_bits)); [nia|].
  cbn [negb guard bind]. split; auto.
  rewrite L'. destruct (Nat.ltb_spec (length vout * nbps) (n_frames * n_bits)); [nia|].
  cbn [negb guard bind]. split; auto.
  rewrite <- Hl in E3. rewrite firstn_all in E3. rewrite <- E3.
  symmetry. apply firstn_all2.
  destruct (unpack_ptr_spec w out vback n_bits n_frames msb nbps) as (b' & E' & Lb & _); auto; try lia.
  assert (b' = back) by congruence. subst. lia.
Qed.

(** Non-vacuity: 3 frames of 11 bits, 4 bits per symbol, both orders. *)
Example C05_example :
  let vin := map Z.of_nat (seq 0 33) in
  match pack_vec 8 vin (repeat 7%Z 10) 3 true 4 with
  | Ret out => unpack_vec 8 out (repeat 9%Z 33) 3 true 4 = Ret (0%Z :: repeat 1%Z 32)
  | _ => False
  end.
Proof. vm_compute. reflexivity. Qed.

(** The size check of the vector interface does not count the partial symbols: two
    frames of 9 bits need 4 symbols, 3 pass the check, and the packing writes
    outside the vector. Likewise for unpacking. *)
Theorem C05_vector_check_refuted :
  exists vin vout, length vin = 18 /\ length vout * 8 >= length vin /\
    pack_vec 8 vin vout 2 false 8 = Undef /\ unpack_vec 8 vout vin 2 false 8 = Undef.
Proof.
  exists (repeat 1%Z 18), (repeat 0%Z 3). split; [reflexivity|]. split; [simpl; lia|].
  split; vm_compute; reflexivity.
Qed.

(** The per-byte unpacking multiplies by sizeof(B) instead of sizeof(S): with
    1-byte symbols and 4-byte elements, one symbol is accepted for 32 bits. *)
Theorem C05_unpack_per_byte_check_refuted :
  exists vin vout, length vin = 1 /\ length vout = 32 /\
    unpack_vec_bytes 1 4 vin vout 1 false 8 = Undef.
Proof. exists [0%Z], (repeat 0%Z 32). repeat split; vm_compute; auto. Qed.

(** Above 2^24 bits per frame the single-precision symbol count is one too small:
    the first symbol of frame 1 overwrites the last symbol of frame 0. *)
Theorem C05_long_frames_refuted : forall n, Z.of_nat n = (2 ^ 24 + 1)%Z ->
  exists vin vout out, length vin = 2 * n /\ length vout = 2 * symbols_for n 8 /\
    pack_ptr 8 vin vout n 2 false 8 = Ret out /\
    forall vback, length vback = 2 * n ->
      exists back, unpack_ptr 8 out vback n 2 false 8 = Ret back /\ back <> of_bits (bits_of vin).
Proof.
  intros n Hn. set (st := n_symbs_per_frame n 8).
  assert (Hst : Z.of_nat st = (2 ^ 21)%Z).
  { unfold st, n_symbs_per_frame. rewrite Hn. change (Z.of_nat 8) with 8%Z.
    rewrite (proj1 ceil_float_div_wrong). rewrite Z2Nat.id; auto. discriminate. }
  assert (Hns : symbols_for n 8 = st + 1).
  { unfold symbols_for. symmetry. apply Nat.div_unique with (r := 0). lia.
    change (2 ^ 24)%Z with (8 * 2 ^ 21)%Z in Hn. lia. }
  assert (Hn8 : n = 8 * st + 1) by (change (2 ^ 24)%Z with (8 * 2 ^ 21)%Z in Hn; lia).
  set (vin := repeat 0%Z n ++ repeat 1%Z n).
  set (vout := repeat 0%Z (2 * (st + 1))).
  assert (Lin : length vin = 2 * n) by (unfold vin; rewrite app_length, !repeat_length; lia).
  assert (Lout : length vout = 2 * (st + 1)) by (unfold vout; rewrite repeat_length; auto).
  destruct (pack_frame_spec 8 vin vout n false 8 (0 * n) (0 * st)) as (o1 & E1 & L1 & I1 & J1); try lia.
  destruct (pack_frame_spec 8 vin o1 n false 8 (1 * n) (1 * st)) as (o2 & E2 & L2 & I2 & J2); try lia.
  exists vin, vout, o2. split; auto. split; [rewrite Hns; lia|]. split.
  - unfold pack_ptr. rewrite nbps_ok_true by lia. cbn [bind guard]. fold st.
    unfold for_ at 1. cbn [for_from]. rewrite E1. cbn [bind]. rewrite E2. auto.
  - intros vback Lb.
    destruct (unpack_frame_spec 8 o2 vback n false 8 (0 * st) (0 * n)) as (b1 & F1 & M1 & K1 & N1); try lia.
    destruct (unpack_frame_spec 8 o2 b1 n false 8 (1 * st) (1 * n)) as (b2 & F2 & M2 & K2 & N2); try lia.
    exists b2. split.
    + unfold unpack_ptr. rewrite nbps_ok_true by lia. cbn [bind guard]. fold st.
      unfold for_ at 1. cbn [for_from]. rewrite F1. cbn [bind]. rewrite F2. auto.
    + intros C.
      assert (C1 : nth (8 * st) b2 0%Z = nth (8 * st) (of_bits (bits_of vin)) 0%Z) by congruence.
      rewrite nth_of_bits, nth_bits_of in C1.
      unfold vin in C1 at 1. rewrite app_nth1 in C1 by (rewrite repeat_length; lia).
      rewrite nth_repeat_lt in C1 by lia. cbn [nz b2z Z.eqb negb] in C1.
      rewrite N2 in C1 by lia.
      replace (8 * st) with (0 * n + 8 * st) in C1 at 1 by lia.
      rewrite K1 in C1 by lia.
      assert (Dv : 8 * st / 8 = st) by (rewrite Nat.mul_comm; apply Nat.div_mul; lia).
      assert (Dm : (8 * st) mod 8 = 0) by (rewrite Nat.mul_comm; apply Nat.mod_mul; lia).
      rewrite Dv, Dm in C1.
      assert (Q : 0 < symbols_for n 8) by lia.
      specialize (I2 0 Q). unfold symb_ok in I2.
      replace (1 * st + 0) with (0 * st + st) in I2 by lia.
      replace (Nat.min 8 (n - 0 * 8)) with 8 in I2 by lia.
      rewrite (bit_of_holds _ _ _ _ _ 0 I2) in C1 by lia.
      rewrite nth_bits_of in C1. unfold vin in C1. rewrite app_nth2 in C1 by (rewrite repeat_length; lia).
      rewrite repeat_length in C1. rewrite nth_repeat_lt in C1 by lia. discriminate.
Qed.

(** The in-place packing is safe although it writes over its input: symbols hold the
    original bits, for any number of frames. *)
Theorem C05_pack_in_place : forall sB mem n_bits n_frames msb nbps,
  0 < sB -> 0 < nbps <= 8 -> (Z.of_nat n_bits <= 2 ^ 24)%Z -> n_frames * n_bits * sB <= length mem ->
  exists out, pack_inplace sB mem n_bits n_frames msb nbps = Ret out /\
    length out = length mem /\
    (forall f i, f < n_frames -> i < symbols_for n_bits nbps ->
       holds_bits msb 8 (Nat.min nbps (n_bits - i * nbps))
         (fun j => nth (f * n_bits + (i * nbps + j)) (bits_of (elements sB (n_frames * n_bits) mem)) false)
         (nth (f * symbols_for n_bits nbps + i) out 0%Z)) /\
    skipn (n_frames * symbols_for n_bits nbps) out = skipn (n_frames * symbols_for n_bits nbps) mem.
Proof.
  intros. destruct (pack_inplace_spec sB mem n_bits n_frames msb nbps) as (out & E & L & I1 & I2); auto.
  { right. split; auto. lia. }
  exists out. split; auto. split; auto. split; auto.
  apply list_eq_nth with (d := 0%Z). { rewrite !skipn_length. lia. }
  intros. rewrite !skipn_nth. apply I2. lia.
Qed.

(** C06, the part that holds: one frame. *)
Theorem C06_single_frame_partial : forall sB mem n_bits msb nbps,
  0 < sB -> 0 < nbps <= 8 -> (Z.of_nat n_bits <= 2 ^ 24)%Z -> n_bits * sB <= length mem ->
  exists packed back,
    pack_inplace sB mem n_bits 1 msb nbps = Ret packed /\
    unpack_inplace sB packed n_bits 1 msb nbps = Ret back /\
    elements sB n_bits back = of_bits (bits_of (elements sB n_bits mem)).
Proof.
  intros sB mem n_bits msb nbps HsB Hn Hb Hm.
  destruct (pack_inplace_spec sB mem n_bits 1 msb nbps) as (out & E & L & I1 & I2); auto.
  { left. lia. } { lia. }
  destruct (unpack_inplace_one sB out n_bits msb nbps
     (fun k => nth k (bits_of (elements sB n_bits mem)) false)) as (back & F & M & K & N); auto.
  { lia. }
  { intros i Hi. specialize (I1 0 i ltac:(lia) Hi). rewrite !Nat.mul_1_l in I1. exact I1. }
  exists out, back. split; auto. split; auto.
  apply list_eq_nth with (d := 0%Z).
  - unfold of_bits, bits_of. rewrite !map_length. unfold elements. rewrite !map_length, !seq_length. auto.
  - intros k Hk. unfold elements in Hk. rewrite map_length, seq_length in Hk.
    rewrite K by auto. rewrite nth_of_bits. auto.
Qed.

Example C06_single_frame_example :
  let mem := flat_map (fun k => [Z.of_nat (k mod 3); 0%Z]) (seq 0 11) in
  match pack_inplace 2 mem 11 1 false 8 with
  | Ret p => match unpack_inplace 2 p 11 1 false 8 with
             | Ret b => elements 2 11 b = [0;1;1;0;1;1;0;1;1;0;1]%Z
             | _ => False end
  | _ => False end.
Proof. vm_compute. reflexivity. Qed.

(** C06 is false for two frames or more: every such call, on every buffer, reads
    outside the temporary copy. *)
Theorem C06_multi_frame_refuted : forall sB mem n_bits n_frames msb nbps,
  0 < nbps <= 8 -> 0 < n_bits -> (Z.of_nat n_bits <= 2 ^ 24)%Z -> 2 <= n_frames ->
  unpack_inplace sB mem n_bits n_frames msb nbps = Undef.
Proof. exact unpack_inplace_multi. Qed.
