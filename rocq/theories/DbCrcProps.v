(** C155: the CRC stopping rule of double binary turbo decoding. *)
From Coq Require Import List Arith Lia Bool ZArith.
From Verif Require Import Base Copy FlipProofs DbCrcModel DbCrcSpec.
Import ListNotations.

Definition maxdec (a0 a1 b0 b1 : Z) : Z := if (0 <? Z.max b0 b1 - Z.max a0 a1)%Z then 1%Z else 0%Z.
Lemma maxdec_ok : forall (V : nat -> nat -> Z) , is_decision (maxdec (V 0 0) (V 0 1) (V 1 0) (V 1 1)) V.
Proof.
  intros V. unfold maxdec, is_decision. destruct (Z.ltb_spec 0 (Z.max (V 1%nat 0%nat) (V 1%nat 1%nat) - Z.max (V 0%nat 0%nat) (V 0%nat 1%nat))%Z); [left|right]; (split; [reflexivity|]).
  - destruct (Z.le_ge_cases (V 1 0) (V 1 1)); [exists 1|exists 0]; (split; [lia|]); intros [|[|o]] Ho; lia.
  - intros o Ho. destruct (Z.le_ge_cases (V 0 0) (V 0 1)); [exists 1|exists 0]; (split; [lia|]); destruct o as [|[|o]]; lia.
Qed.

Lemma db_apost_ok : forall sys ext apost, length apost <= length sys -> length apost <= length ext ->
  db_apost sys ext apost = Ret (tab (length apost) (fun i => (nth i sys 0 + nth i ext 0)%Z)).
Proof.
  intros sys ext apost LS LE. unfold db_apost. apply (fill _ 0%Z (fun i => (nth i sys 0 + nth i ext 0)%Z)); auto.
  intros i x Hi Lx. rewrite (rd_ok _ 0%Z) by lia. cbn [bind]. rewrite (rd_ok _ 0%Z) by lia. reflexivity.
Qed.

Lemma db_hard_ok : forall m apost s, length s = 2 * m -> length apost = 4 * m ->
  exists s', db_hard apost s = Ret s' /\ length s' = 2 * m /\ forall k, k < m ->
    let a j := nth (4 * k + j) apost 0%Z in
    nth (2 * k) s' 0%Z = maxdec (a 0) (a 1) (a 2) (a 3) /\ nth (2 * k + 1) s' 0%Z = maxdec (a 0) (a 2) (a 1) (a 3).
Proof.
  intros m apost s Ls La. unfold db_hard. replace ((length s + 1) / 2) with m by (rewrite Ls, Nat.add_comm, Nat.mul_comm, Nat.div_add by lia; reflexivity).
  apply (for_inv _ (fun t s' => length s' = 2 * m /\ forall k, k < t -> let a j := nth (4 * k + j) apost 0%Z in
    nth (2 * k) s' 0%Z = maxdec (a 0) (a 1) (a 2) (a 3) /\ nth (2 * k + 1) s' 0%Z = maxdec (a 0) (a 2) (a 1) (a 3))).
  - split; auto. intros; lia.
  - intros t s' Ht [L V]. cbv zeta. do 4 (rewrite (rd_ok _ 0%Z) by lia; cbn [bind]). rewrite wr_ok by lia. cbn [bind]. rewrite wr_ok by (rewrite length_upd; lia).
    eexists. split; [reflexivity|]. rewrite !length_upd. split; auto. intros k Hk. destruct (Nat.eq_dec k t) as [->|NE].
    + rewrite nth_upd_neq by lia. rewrite nth_upd_eq by lia. rewrite nth_upd_eq by (rewrite length_upd; lia).
      replace (2 * (2 * t)) with (4 * t) by lia. rewrite Nat.add_0_r. split; reflexivity.
    + rewrite !nth_upd_neq by lia. apply V. lia.
Qed.

(** From the first iteration that checks, the answer is the one of the CRC on the decisions of all the pairs. *)
Theorem C155_check : forall chk start ite m sys ext apost s, start <= ite -> length s = 2 * m -> length apost = 4 * m -> 4 * m <= length sys -> 4 * m <= length ext ->
  exists a s', db_siso_n chk start ite sys ext apost s = Ret (chk s', a, s') /\ length a = length apost /\ length s' = length s /\ decided sys ext s'.
Proof.
  intros chk start ite m sys ext apost s ST Ls La LS LE. unfold db_siso_n. destruct (Nat.leb_spec start ite); [|lia].
  rewrite db_apost_ok by lia. cbn [bind]. set (A := tab (length apost) (fun i => (nth i sys 0 + nth i ext 0)%Z)).
  assert (LA : length A = 4 * m) by (unfold A; rewrite length_tab; auto).
  destruct (db_hard_ok m A s Ls LA) as (s' & E & L' & V). rewrite E. cbn [bind]. exists A, s'. repeat (split; [try reflexivity; lia|]).
  intros k Hk. rewrite L' in Hk. assert (KM : k < m) by lia. destruct (V k KM) as [V1 V2].
  assert (N : forall j, j < 4 -> nth (4 * k + j) A 0%Z = Z.add (nth (4 * k + j) sys 0%Z) (nth (4 * k + j) ext 0%Z)) by (intros j Hj; unfold A; rewrite nth_tab by lia; reflexivity).
  rewrite V1, V2, !N by lia. split.
  - pose proof (maxdec_ok (fun x o => pair_value sys ext k x o)) as M. unfold pair_value in M at 1 2 3 4. rewrite <- !Nat.add_assoc in M. exact M.
  - pose proof (maxdec_ok (fun x o => pair_value sys ext k o x)) as M. unfold pair_value in M at 1 2 3 4. rewrite <- !Nat.add_assoc in M. exact M.
Qed.

(** Where one pair is strictly the most likely, the decisions are this pair. *)
Theorem C155_winner : forall sys ext s k a b, decided sys ext s -> 2 * k < length s -> winner sys ext k a b ->
  nth (2 * k) s 0%Z = Z.of_nat a /\ nth (2 * k + 1) s 0%Z = Z.of_nat b.
Proof.
  intros sys ext s k a b D Hk (Ha & Hb & W). destruct (D k Hk) as [D1 D2]. split.
  - destruct D1 as [(-> & o & Ho & H)|(-> & H)]; destruct a as [|[|a]]; try lia; try reflexivity.
    + pose proof (H b Hb). pose proof (W 1 o ltac:(lia) Ho ltac:(congruence)). lia.
    + destruct (H b Hb) as (o' & Ho' & L). pose proof (W 0 o' ltac:(lia) Ho' ltac:(congruence)). lia.
  - destruct D2 as [(-> & o & Ho & H)|(-> & H)]; destruct b as [|[|b]]; try lia; try reflexivity.
    + pose proof (H a Ha). pose proof (W o 1 Ho ltac:(lia) ltac:(congruence)). lia.
    + destruct (H a Ha) as (o' & Ho' & L). pose proof (W o' 0 Ho' ltac:(lia) ltac:(congruence)). lia.
Qed.

(** Before, the decoder is not stopped and no buffer changes. *)
Theorem C155_before : forall chk start ite sys ext apost s, ite < start -> db_siso_n chk start ite sys ext apost s = Ret (false, apost, s).
Proof. intros. unfold db_siso_n. destruct (Nat.leb_spec start ite); [lia|reflexivity]. Qed.

Example C155_ex : db_siso_n (fun s => Z.eqb (nth 0 s 0%Z) 1) 1 2 [0; 1; 5; 2; 4; 9; 3; 3]%Z [0; 0; 1; 0; 0; 0; 0; 1]%Z [9; 9; 9; 9; 9; 9; 9; 9]%Z [7; 7; 7; 7]%Z =
    Ret (true, [0; 1; 6; 2; 4; 9; 3; 4]%Z, [1; 0; 0; 1]%Z) /\
  winner [0; 1; 5; 2; 4; 9; 3; 3]%Z [0; 0; 1; 0; 0; 0; 0; 1]%Z 0 1 0.
Proof.
  split; [reflexivity|]. split; [lia|]. split; [lia|]. intros [|[|a]] [|[|b]] Ha Hb NE; try lia; try congruence; reflexivity.
Qed.
