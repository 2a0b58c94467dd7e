From Coq Require Import List Arith ZArith Lia Bool.
From Verif Require Import Base Copy ConvModel ConvSpec ConvProofs.
Import ListNotations.

Lemma bits_tab : forall K f, (forall i, i < K -> f i < 2) -> bits (tab K f).
Proof.
  intros. apply Forall_forall. intros c Hc. unfold tab in Hc. apply in_map_iff in Hc. destruct Hc as (t & <- & Ht).
  apply in_seq in Ht. apply H. lia.
Qed.

Lemma conv_lt : forall g m w t, conv g m w t < 2.
Proof. intros. apply mod2_lt. Qed.

Section Code2.
Variables (p0 p1 n : nat).
Hypothesis Hn : 0 < n.
Hypothesis H0 : Nat.testbit p0 n = true.
Hypothesis H1 : Nat.testbit p1 n = true.
Let X := next_spec p0 n.
Let T := tapped p0 n.
Let P := par_spec p0 p1 n.

Definition follows (b : bool) (K : nat) (u x : list nat) : Prop :=
  forall t, t < K + n -> nth (sys_pos b t) x 0 = in_at X T K u t /\
       nth (par_pos b (K + n) t) x 0 = P (in_at X T K u t) (st_at X T K u t).

Lemma follows_code : forall b K u x, length u = K -> bits u -> length x = 2 * K + 2 * n -> follows b K u x -> rsc_code p0 p1 n b K x.
Proof.
  intros b K u x LU BU LX F. split; auto.
  exists (tab K (fun t => new_cell p0 n (in_at X T K u t) (st_at X T K u t))).
  set (w := tab K _). assert (LW : length w = K) by apply length_tab.
  assert (BW : bits w). { apply bits_tab. intros. apply new_cell_lt. }
  split; auto. split; auto. intros t Ht. destruct (F t Ht) as [F1 F2]. rewrite F1, F2.
  destruct (reg_of p0 n Hn H0 K u w BU BW LW) with (t := t) as [R E].
  { intros t' Ht'. right. unfold w. rewrite nth_tab by auto. auto. }
  split.
  - apply (in_conv p0 n Hn H0); auto.
  - apply (par_conv p0 n p1); auto.
Qed.

Lemma code_follows : forall b K x, rsc_code p0 p1 n b K x -> bits (info b K x) /\ follows b K (info b K x) x.
Proof.
  intros b K x (LX & w & LW & BW & F).
  assert (BU : bits (info b K x)). { apply bits_tab. intros i Hi. rewrite (proj1 (F i ltac:(lia))). apply conv_lt. }
  split; auto. intros t Ht. set (u := info b K x) in *.
  destruct (reg_of p0 n Hn H0 K u w BU BW LW) with (t := t) as [R E].
  { intros t' Ht'. left. unfold u, info. rewrite nth_tab by auto. apply F. lia. }
  destruct (F t Ht) as [-> ->]. split.
  - symmetry. apply (in_conv p0 n Hn H0); auto.
  - symmetry. apply (par_conv p0 n p1); auto.
Qed.

Lemma follows_unique : forall b K u x y, length x = 2 * K + 2 * n -> length y = 2 * K + 2 * n ->
  follows b K u x -> follows b K u y -> x = y.
Proof.
  intros b K u x y LX LY FX FY. apply list_eq_nth with (d := 0); [lia|].
  intros q Hq. destruct (pos_cover b (K + n) q) as (t & Ht & [-> | ->]); [lia| |].
  - rewrite (proj1 (FX t Ht)), (proj1 (FY t Ht)). auto.
  - rewrite (proj2 (FX t Ht)), (proj2 (FY t Ht)). auto.
Qed.

Lemma code_unique : forall b K x y, rsc_code p0 p1 n b K x -> rsc_code p0 p1 n b K y ->
  info b K x = info b K y -> x = y.
Proof.
  intros b K x y CX CY E. destruct (code_follows b K x CX) as [_ FX]. destruct (code_follows b K y CY) as [_ FY].
  rewrite <- E in FY. apply (follows_unique b K (info b K x)); auto; [apply CX|apply CY].
Qed.
End Code2.

(** ** Linearity *)
Lemma length_xor : forall a b, length a = length b -> length (xor_list a b) = length a.
Proof. intros. unfold xor_list. rewrite map_length, combine_length. lia. Qed.
Lemma nth_xor : forall a b i, length a = length b -> nth i (xor_list a b) 0 = (nth i a 0 + nth i b 0) mod 2.
Proof.
  induction a; destruct b; intros i L; try discriminate; [destruct i; auto|].
  destruct i; auto. cbn [xor_list combine map nth]. apply IHa. cbn [length] in L. lia.
Qed.
Lemma bits_xor : forall a b, bits (xor_list a b).
Proof. intros. apply Forall_forall. intros x Hx. unfold xor_list in Hx. apply in_map_iff in Hx. destruct Hx as (p & <- & _). apply mod2_lt. Qed.

Lemma add_mod2 : forall a b c d, (a mod 2 = (b + c) mod 2) -> (a + d) mod 2 = (b + c + d) mod 2.
Proof. intros. rewrite <- Nat.add_mod_idemp_l, H, Nat.add_mod_idemp_l; lia. Qed.

Lemma sum_lin : forall (l : list nat) (f g h : nat -> nat), (forall i, f i mod 2 = (g i + h i) mod 2) ->
  sum (map f l) mod 2 = (sum (map g l) + sum (map h l)) mod 2.
Proof.
  induction l; intros f g h E; auto. cbn [map]. rewrite !sum_cons.
  rewrite <- Nat.add_mod_idemp_l, E by lia. rewrite <- Nat.add_mod_idemp_r, (IHl f g h E) by lia.
  rewrite Nat.add_mod_idemp_l, Nat.add_mod_idemp_r by lia. f_equal. lia.
Qed.

Lemma conv_lin : forall g n a b t, length a = length b -> conv g n (xor_list a b) t = (conv g n a t + conv g n b t) mod 2.
Proof.
  intros. unfold conv. rewrite Nat.add_mod_idemp_l, Nat.add_mod_idemp_r by lia. apply sum_lin. intros d.
  destruct (d <=? t); auto. rewrite nth_xor by auto. rewrite Nat.mul_mod_idemp_r by lia. f_equal. lia.
Qed.

Lemma code_lin : forall p0 p1 n b K x y, rsc_code p0 p1 n b K x -> rsc_code p0 p1 n b K y -> rsc_code p0 p1 n b K (xor_list x y).
Proof.
  intros p0 p1 n b K x y (LX & w & LW & BW & F) (LY & w' & LW' & BW' & F').
  split. { rewrite length_xor; lia. }
  exists (xor_list w w'). split. { rewrite length_xor; lia. } split. { apply bits_xor. }
  intros t Ht. rewrite !nth_xor by lia. rewrite !conv_lin by lia. destruct (F t Ht) as [-> ->]. destruct (F' t Ht) as [-> ->]. auto.
Qed.

Lemma info_xor : forall b K x y, length x = length y -> info b K (xor_list x y) = xor_list (info b K x) (info b K y).
Proof.
  intros. symmetry. apply (eq_tab _ 0). { rewrite length_xor; unfold info; rewrite !length_tab; auto. }
  intros i Hi. rewrite !nth_xor by (unfold info; rewrite ?length_tab; auto). unfold info. rewrite !nth_tab; auto.
Qed.

(** ** The constructor *)
Lemma ctor_inv : forall K N poly e, rsc_generic_ctor K N poly = Ret e ->
  exists p0 p1 n, nth 0 poly 0 = p0 /\ nth 1 poly 0 = p1 /\ 0 < n /\ Nat.testbit p0 n = true /\ Nat.testbit p1 n = true /\
    p0 < 2 ^ S n /\ p1 < 2 ^ S n /\ 0 < K /\ N = 2 * K + 2 * n /\ e = rsc_generic p0 p1 n.
Proof.
  intros K N poly e H. unfold rsc_generic_ctor in H. destruct poly as [|p0 poly]; [discriminate|]. cbn [rd nth_error bind] in H.
  destruct (Nat.eqb_spec p0 0); [discriminate|].
  unfold guard in H.
  destruct (Nat.ltb_spec 0 K); [|discriminate]. destruct (Nat.ltb_spec 0 N); [|discriminate]. destruct (Nat.leb_spec K N); [|discriminate].
  destruct (Nat.ltb_spec 0 (Nat.log2 p0)); [|discriminate]. destruct (Z.eqb_spec (Z.of_nat N - 2 * Z.of_nat (Nat.log2 p0)) (2 * Z.of_nat K)); [|discriminate].
  destruct (2 <=? length (p0 :: poly)) eqn:L2; [|discriminate]. cbn [bind] in H.
  destruct (Nat.eqb_spec (nth 1 (p0 :: poly) 0) 0); [discriminate|]. cbn [negb andb] in H.
  destruct (Nat.eqb_spec (Nat.log2 p0) (Nat.log2 (nth 1 (p0 :: poly) 0))) as [EL|]; [|discriminate]. cbn [bind] in H.
  set (p1 := nth 1 (p0 :: poly) 0) in *.
  exists p0, p1, (Nat.log2 p0). repeat split; auto.
  - apply Nat.bit_log2. auto.
  - rewrite EL. apply Nat.bit_log2. auto.
  - apply Nat.log2_spec. lia.
  - rewrite EL. apply Nat.log2_spec. lia.
  - lia.
  - congruence.
Qed.
