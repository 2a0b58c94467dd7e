(** C154: the extractor gives back the message of a systematic encoder. *)
From Coq Require Import List Arith Lia Bool ZArith.
From Verif Require Import Base Copy PolarModel PolarSpec PolarProps ConvModel ConvSpec ConvProofs ConvCodeProofs ConvProps ExtractModel ExtractSpec ExtractProps.
Import ListNotations.

(** A received frame y whose hard decisions are the bits of x. *)
Definition no_sign_error {R} (d : R) (neg : R -> bool) (x : list bool) (y : list R) : Prop :=
  length y = length x /\ forall j, j < length x -> neg (nth j y d) = nth j x false.
Definition as_bits (u : list bool) : list Z := map (fun b : bool => if b then 1%Z else 0%Z) u.

Lemma taken_bits : forall R (d : R) neg x y pos, no_sign_error d neg x y -> (forall p, In p pos -> p < length x) ->
  map (fun v => if neg v then 1%Z else 0%Z) (taken d pos y) = as_bits (map (fun p => nth p x false) pos).
Proof.
  intros R d neg x y pos [Ly V] B. unfold taken, as_bits. rewrite !map_map. apply map_ext_in. intros p Hp. rewrite V by auto. reflexivity.
Qed.

(** Polar codes: the extractor built with the frozen bits of the encoder returns the message. *)
Theorem C154_polar : forall R (d : R) neg n fb u x0 vk,
  length fb = 2 ^ n -> domination_closed fb -> 0 < length u -> length u = length (info_positions fb) -> length x0 = 2 ^ n -> length vk = length u ->
  exists x pos, polar_sys_encode (2 ^ n) fb u x0 = Ret x /\ length x = 2 ^ n /\ pol_new (length u) (2 ^ n) fb = Ret (fb, pos) /\
    forall y, no_sign_error d neg x y -> ext_bit R neg (length u) pos y vk = Ret (as_bits u).
Proof.
  intros R d neg n fb u x0 vk Lf DC Pu Lu Lx Lv. destruct (C12_systematic n fb u x0 Lf DC Lu Lx) as (x & E & CW & CA).
  destruct (C149_polar (length u) fb [] [] Pu (eq_sym Lu)) as (PL & PN & _). rewrite Lf in PN, PL.
  assert (LX : length x = 2 ^ n) by (destruct CW as (v & w & _ & ->); apply length_tab).
  exists x, (unfrozen fb). repeat split; auto. intros y NE.
  destruct (C149_values R d neg (length u) (2 ^ n) (unfrozen fb) y (repeat d (length u)) vk PL) as [_ ->]; auto; [destruct NE; congruence|apply repeat_length|].
  rewrite (taken_bits _ d neg x) by (auto; intros p Hp; rewrite LX; apply PL; auto). f_equal. f_equal. exact CA.
Qed.

(** Recursive systematic codes, in the two orders of the bits. *)
Theorem C154_rsc : forall R (d : R) neg K N p0 p1 ps e b u x0 vk,
  rsc_generic_ctor K N (p0 :: p1 :: ps) = Ret e -> bits u -> length u = K -> length x0 = N -> length vk = K ->
  exists x, rsc_encode e b K u x0 = Ret x /\ length x = N /\
    forall y, no_sign_error d neg (map (Nat.eqb 1) x) y -> rsc_bit R neg b K y vk = Ret (map Z.of_nat u).
Proof.
  intros R d neg K N p0 p1 ps e b u x0 vk HC BU LU LX LV. destruct (C19_encode _ _ _ _ _ _ b u x0 HC BU LU LX) as (x & E & Lx & _ & _).
  assert (IP := C19_info_pos _ _ _ _ _ _ b _ _ _ HC BU LU LX E).
  destruct (ctor_inv _ _ _ _ HC) as (q0 & q1 & n & _ & _ & Hn & _ & _ & HA & HB & HK & HN & _).
  exists x. repeat split; auto. intros y NE. assert (Ly : length y = N) by (destruct NE as [H _]; rewrite map_length in H; congruence).
  assert (TN : 2 * n / 2 = n) by (rewrite Nat.mul_comm; apply Nat.div_mul; lia).
  destruct (C149_rsc_positions R d neg b K N (2 * n) y (repeat d K) vk) as (PL & _ & ->); auto; try lia; [apply repeat_length|].
  rewrite (taken_bits _ d neg (map (Nat.eqb 1) x)) by (auto; intros p Hp; rewrite map_length, Lx; apply PL; auto).
  f_equal. rewrite <- IP. unfold as_bits. rewrite !map_map. apply map_ext_in. intros p Hp.
  assert (PB : p < length x) by (rewrite Lx; apply PL; auto).
  assert (VB : nth p x 0 < 2). { assert (I : In (nth p x 0) u) by (rewrite <- IP; apply (in_map (fun p => nth p x 0)); exact Hp). unfold bits in BU. rewrite Forall_forall in BU. apply BU in I. lia. }
  rewrite (nth_indep _ false (Nat.eqb 1 0)) by (rewrite map_length; auto). rewrite (map_nth (Nat.eqb 1)). destruct (nth p x 0) as [|[|v]]; try reflexivity. lia.
Qed.

Example C154_ex : polar_sys_encode 4 [true; true; false; false] [true; false] [false; false; false; false] = Ret [true; false; true; false] /\
  no_sign_error 0%Z (fun v => Z.ltb v 0) [true; false; true; false] [-3; 5; -1; 2]%Z /\
  ext_bit Z (fun v => Z.ltb v 0) 2 [2; 3] [-3; 5; -1; 2]%Z [7; 7]%Z = Ret [1; 0]%Z.
Proof.
  split; [reflexivity|]. split; [|reflexivity]. split; [reflexivity|]. intros j Hj. cbn in Hj. do 4 (destruct j; [reflexivity|]). lia.
Qed.
Example C154_rsc_ex : exists e, rsc_generic_ctor 2 8 [7; 5] = Ret e.
Proof. eexists. cbv [rsc_generic_ctor]. vm_compute. reflexivity. Qed.
