(** C54: hard decisions. *)
From Coq Require Import List Arith Lia Bool ZArith SpecFloat.
From Verif Require Import Base HardModel HardProofs.
Import ListNotations.

(** Each value becomes its sign, whatever the length and the width of the registers, when the sign bit is the comparison with zero. *)
Theorem C54_hard : forall (R : Type) (d : R) (lt0 sgn : R -> bool) E inp out, 0 < E -> length out = length inp -> (forall x, In x inp -> sgn x = lt0 x) ->
  hard_decide R lt0 sgn E inp (length inp) out = Ret (map (fun x => if lt0 x then 1%Z else 0%Z) inp).
Proof.
  intros R d lt0 sgn E inp out HE L S. unfold hard_decide, hard_seq.
  destruct (vec_ok R d E (fun x => bitz (sgn x)) (fun x => bitz (lt0 x)) inp (length inp) out HE eq_refl L) as (o & Eo & ->). rewrite Eo. f_equal.
  rewrite <- (firstn_skipn (length inp / E * E) inp) at 5. rewrite map_app. f_equal. apply map_ext_in. intros x Hx. unfold bitz. rewrite S; [reflexivity|].
  rewrite <- (firstn_skipn (length inp / E * E) inp). apply in_or_app. left. exact Hx.
Qed.

(** Fixed-point LLRs: all values. *)
Theorem C54_fixed : forall E inp out, 0 < E -> length out = length inp ->
  hard_decide Z int_lt0 int_lt0 E inp (length inp) out = Ret (map (fun x => if (x <? 0)%Z then 1%Z else 0%Z) inp).
Proof. intros. apply (C54_hard Z 0%Z); auto. Qed.

(** Floating-point LLRs: all values but the negative zero and NaN. *)
Theorem C54_float : forall E inp out, 0 < E -> length out = length inp -> (forall x, In x inp -> x <> S754_zero true /\ x <> S754_nan) ->
  hard_decide spec_float f32_lt0 f32_sgn E inp (length inp) out = Ret (map (fun x => if SFltb x (S754_zero false) then 1%Z else 0%Z) inp).
Proof.
  intros E inp out HE L H. apply (C54_hard spec_float S754_nan); auto. intros x Hx. destruct (H x Hx) as [H1 H2]. destruct x as [[]|[]| |[] m e]; try reflexivity; congruence.
Qed.

(** The negative zero is decided 1 within a register and 0 after the last full register: five equal values, registers of four. *)
Theorem C54_negative_zero_refuted : hard_decide spec_float f32_lt0 f32_sgn 4 (repeat (S754_zero true) 5) 5 (repeat 0%Z 5) = Ret [1; 1; 1; 1; 0]%Z.
Proof. reflexivity. Qed.

(** The variant with unknown marks, exactly: marks are given within full registers only. *)
Theorem C54_unknown : forall (R : Type) (d : R) (lt0 sgn unk : R -> bool) UNK E inp out, 0 < E -> length out = length inp ->
  let n := length inp / E * E in
  hard_decide_unk R lt0 sgn unk UNK E inp (length inp) out =
    Ret (map (fun x => if unk x then UNK else if sgn x then 1%Z else 0%Z) (firstn n inp) ++ map (fun x => if lt0 x then 1%Z else 0%Z) (skipn n inp)).
Proof.
  intros R d lt0 sgn unk UNK E inp out HE L n. unfold hard_decide_unk, hard_seq.
  destruct (vec_ok R d E (fun x => if unk x then UNK else bitz (sgn x)) (fun x => bitz (lt0 x)) inp (length inp) out HE eq_refl L) as (o & Eo & ->). rewrite Eo. reflexivity.
Qed.

(** So it is the scalar variant when the length is a multiple of the width of the registers. *)
Theorem C54_unknown_whole : forall (R : Type) (d : R) (lt0 sgn unk : R -> bool) UNK E inp out, 0 < E -> length out = length inp -> length inp mod E = 0 ->
  (forall x, In x inp -> unk x = true \/ sgn x = lt0 x) ->
  hard_decide_unk R lt0 sgn unk UNK E inp (length inp) out = Ret (map (fun x => if unk x then UNK else if lt0 x then 1%Z else 0%Z) inp).
Proof.
  intros R d lt0 sgn unk UNK E inp out HE L HM S. rewrite (C54_unknown R d) by assumption. cbv zeta.
  assert (X : length inp / E * E = length inp) by (pose proof (Nat.div_mod (length inp) E ltac:(lia)); lia). rewrite X, firstn_all, skipn_all. cbn [map]. rewrite app_nil_r.
  f_equal. apply map_ext_in. intros x Hx. destruct (S x Hx) as [-> | ->]; reflexivity.
Qed.

Theorem C54_unknown_seq : forall (R : Type) (d : R) (lt0 unk : R -> bool) UNK inp out, length out = length inp ->
  hard_unk_seq R lt0 unk UNK inp (length inp) out = Ret (map (fun x => if unk x then UNK else if lt0 x then 1%Z else 0%Z) inp).
Proof.
  intros R d lt0 unk UNK inp out L. unfold hard_unk_seq.
  destruct (range_ok R d (fun x => if unk x then UNK else bitz (lt0 x)) inp 0 (length inp) out) as (o & Eo & Lo & Ho); [lia|lia|]. cbn [Nat.add] in Eo. rewrite Eo. f_equal.
  apply (list_eq_nth _ 0%Z); [rewrite map_length; lia|]. intros k Hk. rewrite Ho. cbn [Nat.leb andb Nat.add]. destruct (Nat.ltb_spec k (length inp)); [|lia].
  rewrite (nth_indep _ 0%Z (if unk d then UNK else if lt0 d then 1%Z else 0%Z)) by (rewrite map_length; lia). rewrite (map_nth (fun x => if unk x then UNK else if lt0 x then 1%Z else 0%Z)). reflexivity.
Qed.

(** After the last full register a null LLR is decided 0, not unknown. *)
Theorem C54_unknown_tail_refuted : forall UNK E inp out, 0 < E -> length out = length inp -> length inp mod E <> 0 -> nth (length inp - 1) inp 1%Z = 0%Z ->
  exists V, hard_decide_unk Z int_lt0 int_lt0 int_unk UNK E inp (length inp) out = Ret V /\ nth (length inp - 1) V 1%Z = 0%Z.
Proof.
  intros UNK E inp out HE L HM H0. rewrite (C54_unknown Z 0%Z) by assumption. cbv zeta. eexists. split; [reflexivity|].
  pose proof (Nat.div_mod (length inp) E ltac:(lia)) as D. pose proof (Nat.mod_upper_bound (length inp) E ltac:(lia)).
  set (n := length inp / E * E). assert (Hn : n < length inp) by (unfold n; lia).
  rewrite app_nth2 by (rewrite map_length, firstn_length; lia). rewrite map_length, firstn_length.
  rewrite (nth_indep _ 1%Z (if int_lt0 1 then 1%Z else 0%Z)) by (rewrite map_length, skipn_length; lia). rewrite (map_nth (fun x => if int_lt0 x then 1%Z else 0%Z)), skipn_nth.
  replace (n + (length inp - 1 - Nat.min n (length inp))) with (length inp - 1) by lia. rewrite H0. reflexivity.
Qed.

(** On 64 bits the unknown symbol is the bit 0. *)
Theorem C54_unknown_64_refuted : unknown_symbol 64 = 0%Z /\ unknown_symbol 8 = 63%Z /\ unknown_symbol 16 = 16382%Z /\ unknown_symbol 32 = 1073741823%Z.
Proof. repeat split. Qed.

Example C54_example : hard_decide Z int_lt0 int_lt0 4 [3; -1; 0; -7; -2; 5]%Z 6 (repeat 9%Z 6) = Ret [0; 1; 0; 1; 1; 0]%Z /\
  hard_decide_unk Z int_lt0 int_lt0 int_unk 63 2 [3; 0; -1; -7]%Z 4 (repeat 9%Z 4) = Ret [0; 63; 1; 1]%Z.
Proof. split; reflexivity. Qed.
