(** C24: the BCH generator polynomial and the BCH encoder. *)
From Coq Require Import List Arith NArith ZArith Lia Bool.
From Verif Require Import Base Copy GField BMTheory GaloisModel GaloisSpec GaloisTheory GaloisPrim GaloisProofs GaloisProps GFTab
  BCHModel BCHSpec BCHSets BCHEncProofs BCHCode.
Import ListNotations.

(** The field and the polynomial that a user builds: [gf] over 2^m elements, and [g] for t errors. *)
Definition bch_setup (w : Z) (m : nat) (p : list Z) (t : nat) (gf : galois) (g : list Z) : Prop :=
  2 <= m <= 20 /\ (Z.of_nat m < w)%Z /\ (p = [] \/ length p = m + 1 /\ primitive m (poly_of p)) /\ 1 <= t /\
  galois_ctor w (2 ^ m - 1) p = Ret gf /\ bch_poly gf t = Ret g.

Lemma setup_code : forall w m p t gf g, bch_setup w m p t gf g ->
  exists P (Hm : 2 <= m) (HP : primitive m P) L, P = poly_of (gf_p gf) /\
    tabs (GF m P Hm HP) (2 ^ m - 1) (gal m P Hm HP) (gpf m P Hm HP) (gxf m P gf Hm HP) (alpha_to gf) (index_of gf) /\
    code (GF m P Hm HP) (2 ^ m - 1) (gal m P Hm HP) t (length g - 1) g L /\ (2 * t < 2 ^ m - 1 -> 2 * t <= length g - 1) /\ gf_N gf = 2 ^ m - 1.
Proof.
  intros w m p t gf g (Hm & Hw & Hp & Ht & Egf & Eg). destruct (C23_tables w m p Hm Hw Hp) as (gf' & E' & Ep & HT). rewrite Egf in E'. inversion E'; subst gf'. clear E'.
  assert (HP : primitive m (poly_of (gf_p gf))). { rewrite Ep. destruct Hp as [-> | [HL HP]]. apply C23_default_primitive; auto. destruct p; auto. cbn in HL. lia. }
  assert (Hm2 : 2 <= m) by lia.
  pose proof (gtabs m (poly_of (gf_p gf)) gf Hm2 HP HT) as TB.
  destruct HT as (T1 & T2 & _).
  destruct (code_ok _ _ _ _ _ _ _ TB gf t m) as (g' & L & r & E & C & R1 & R2); auto. rewrite Eg in E. inversion E; subst g'. clear E.
  exists (poly_of (gf_p gf)), Hm2, HP, L. replace (length g - 1) with r by (rewrite (cd_len _ _ _ _ _ _ _ C); lia). auto.
Qed.

Lemma codeword_L : forall m P (Hm : 2 <= m) (HP : primitive m P) t r g L, code (GF m P Hm HP) (2 ^ m - 1) (gal m P Hm HP) t r g L -> 2 * t < 2 ^ m - 1 ->
  forall x, bits x -> (bch_codeword P t x <-> forall b, In b L -> wv (GF m P Hm HP) x b = f0 (GF m P Hm HP)).
Proof.
  intros m P Hm HP t r g L C H2 x Bx. rewrite <- (cd_L_bch _ _ _ _ _ _ _ C). unfold bch_codeword. split.
  - intros [_ H] i Hi _. apply has_root_wv; auto.
  - intros H. split; auto. intros i Hi. apply (has_root_wv m P Hm HP); auto. apply H; auto. lia.
Qed.

(** The generator polynomial is built, is binary with first and last coefficient 1, has at least 2t redundancy bits, and has
    the roots x, ..., x^2t. *)
Theorem C24_generator : forall w m p t, 2 <= m <= 20 -> (Z.of_nat m < w)%Z -> p = [] \/ length p = m + 1 /\ primitive m (poly_of p) -> 1 <= t -> 2 * t < 2 ^ m - 1 ->
  exists gf g, galois_ctor w (2 ^ m - 1) p = Ret gf /\ bch_poly gf t = Ret g /\
    2 * t <= length g - 1 < 2 ^ m - 1 /\ hd 0%Z g = 1%Z /\ last g 0%Z = 1%Z /\ bch_codeword (poly_of (gf_p gf)) t g /\
    (** and no shorter non-zero word has these roots: *)
    forall x, bch_codeword (poly_of (gf_p gf)) t x -> length x < length g -> x = repeat 0%Z (length x).
Proof.
  intros w m p t Hm Hw Hp Ht H2. destruct (C23_tables w m p Hm Hw Hp) as (gf & Egf & Ep & HT).
  assert (HP : primitive m (poly_of (gf_p gf))). { rewrite Ep. destruct Hp as [-> | [HL HP]]. apply C23_default_primitive; auto. destruct p; auto. cbn in HL. lia. }
  assert (Hm2 : 2 <= m) by lia. pose proof (gtabs m (poly_of (gf_p gf)) gf Hm2 HP HT) as TB.
  destruct HT as (T1 & T2 & _).
  destruct (code_ok _ _ _ _ _ _ _ TB gf t m) as (g & L & r & E & C & R1 & R2); auto.
  exists gf, g. split; auto. split; auto. pose proof C as C'. destruct C'. split; [|split; [|split; [|split]]].
  - lia.
  - destruct g; auto.
  - rewrite <- cd_top. replace r with (length g - 1) by lia. clear. induction g as [|a [|b g] IH]; auto. cbn [last]. replace (length (a :: b :: g) - 1) with (S (length (b :: g) - 1)) by (cbn [length]; lia). cbn [nth]. exact IH.
  - apply (codeword_L m _ Hm2 HP t r g L); auto. intros b Hb. unfold wv. rewrite cd_len. apply cd_root. auto.
  - intros x Hx Lx. pose proof Hx as [Bx _]. pose proof (codeword_L m _ Hm2 HP t r g L C H2 x Bx) as HL. destruct HL as [HL _]. specialize (HL Hx).
    apply (nth_ext _ _ 0%Z 0%Z). { rewrite repeat_length. auto. } intros j Hj. rewrite nth_repeat0.
    apply (parity_unique (GF m _ Hm2 HP) r L (fun j => nth j x 0%Z) (fun _ => 0%Z)); auto; try lia.
    + intros i Hi. destruct (lt_dec i (length x)). { apply bits_nth; auto. } rewrite nth_overflow by lia. unfold bitZ. auto.
    + intros i Hi. unfold bitZ. auto.
    + intros b Hb. rewrite (gsum_0 _ r (fun j0 => fmul _ (bt _ 0%Z) _)). 2:{ intros i Hi. apply fmul_0. }
      rewrite <- (HL b Hb). unfold wv. apply gsum_more; [lia|]. intros i Hi. rewrite nth_overflow by lia. apply fmul_0.
Qed.

Section Use.
Variables (w : Z) (m : nat) (p : list Z) (t : nat) (gf : galois) (g : list Z).
Hypothesis S : bch_setup w m p t gf g.
Hypothesis H2 : 2 * t < 2 ^ m - 1.

Lemma ctor_inv : forall K N pos, bch_enc_ctor K N g = Ret pos -> 0 < K /\ N = length g - 1 + K /\ length pos = K /\ forall k, k < K -> nth k pos 0 = length g - 1 + k.
Proof.
  intros K N pos. unfold bch_enc_ctor, guard. destruct (Nat.ltb_spec 0 K); cbn [bind]; [|discriminate]. destruct (Nat.ltb_spec 0 N); cbn [bind]; [|discriminate].
  destruct (Nat.leb_spec K N); cbn [bind]; [|discriminate]. destruct (Nat.eqb_spec (N - K) (length g - 1)); cbn [bind]; [|discriminate].
  intros E. inversion E. rewrite length_tab. repeat split; auto; try lia. intros. rewrite nth_tab; auto.
Qed.

Theorem C24_encode : forall K N pos, bch_enc_ctor K N g = Ret pos -> forall u x, length u = K -> bits u -> length x = N ->
  exists x', bch_encode K g u x = Ret x' /\ length x' = N /\ bch_codeword (poly_of (gf_p gf)) t x' /\
    (forall k, k < K -> nth k pos 0 = N - K + k) /\ forall k, k < K -> nth (nth k pos 0) x' 0%Z = nth k u 0%Z.
Proof.
  intros K N pos Ec u x Lu Bu Lx. destruct (ctor_inv _ _ _ Ec) as (K0 & EN & Lp & Hp). destruct (setup_code _ _ _ _ _ _ S) as (P & Hm & HP & L & EP & TB & C & _). rewrite <- EP.
  destruct (encode_ok _ _ _ t (length g - 1) g L C K u x) as (x' & E & Lx' & Bx & HU & HR); auto; try lia.
  exists x'. split; auto. split; [lia|]. split; [|split].
  - apply (codeword_L m P Hm HP t _ g L C); auto.
  - intros k Hk. rewrite Hp by auto. lia.
  - intros k Hk. rewrite Hp by auto. auto.
Qed.

Theorem C24_is_codeword : forall K N pos, bch_enc_ctor K N g = Ret pos -> forall x bb, length x = N -> bits x -> N - K <= length bb ->
  exists b, bch_is_codeword K g bb x = Ret b /\ (b = true <-> bch_codeword (poly_of (gf_p gf)) t x).
Proof.
  intros K N pos Ec x bb Lx Bx Lb. destruct (ctor_inv _ _ _ Ec) as (K0 & EN & Lp & Hp). destruct (setup_code _ _ _ _ _ _ S) as (P & Hm & HP & L & EP & TB & C & _). rewrite <- EP.
  destruct (is_codeword_ok _ _ _ t (length g - 1) g L C K x bb) as (b & E & HB); auto; try lia. exists b. split; auto. rewrite HB. symmetry. apply (codeword_L m P Hm HP t _ g L C); auto.
Qed.

Theorem C24_unique : forall K N pos, bch_enc_ctor K N g = Ret pos -> forall x x', length x = N -> length x' = N ->
  bch_codeword (poly_of (gf_p gf)) t x -> bch_codeword (poly_of (gf_p gf)) t x' -> (forall k, k < K -> nth (nth k pos 0) x 0%Z = nth (nth k pos 0) x' 0%Z) -> x = x'.
Proof.
  intros K N pos Ec x x' Lx Lx' Cx Cx' HE. destruct (ctor_inv _ _ _ Ec) as (K0 & EN & Lp & Hp). destruct (setup_code _ _ _ _ _ _ S) as (P & Hm & HP & L & EP & TB & C & _). rewrite <- EP in *.
  pose proof Cx as [Bx _]. pose proof Cx' as [Bx' _].
  apply (codeword_unique _ _ _ t (length g - 1) g L C); auto; try lia.
  - apply (codeword_L m P Hm HP t _ g L C); auto.
  - apply (codeword_L m P Hm HP t _ g L C); auto.
  - intros j Hj. replace j with (nth (j - (length g - 1)) pos 0) by (rewrite Hp; lia). apply HE. lia.
Qed.

Lemma xorw_len : forall a b, length a = length b -> length (xorw a b) = length a.
Proof. induction a; destruct b; cbn [length xorw]; intros; try lia. rewrite IHa; lia. Qed.
Lemma xorw_nth : forall a b, length a = length b -> forall i, nth i (xorw a b) 0%Z = Z.lxor (nth i a 0%Z) (nth i b 0%Z).
Proof. induction a; destruct b; cbn [xorw length]; intros; try lia. { destruct i; auto. } destruct i; cbn [nth]; auto. Qed.
Lemma xorw_bits : forall a b, length a = length b -> bits a -> bits b -> bits (xorw a b).
Proof.
  intros a b HL Ha Hb. apply bits_nth. intros j Hj. rewrite xorw_len in Hj by auto. rewrite xorw_nth by auto.
  destruct (proj1 (bits_nth a) Ha j Hj) as [-> | ->]; destruct (proj1 (bits_nth b) Hb j ltac:(lia)) as [-> | ->]; unfold bitZ; cbn; auto.
Qed.

Theorem C24_linear : forall K N pos, bch_enc_ctor K N g = Ret pos -> forall u v x x1 x2 x3 x' y, length u = K -> length v = K -> bits u -> bits v -> length x = N -> length x1 = N -> length x2 = N ->
  bch_encode K g u x = Ret x' -> bch_encode K g v x1 = Ret y -> bch_encode K g (xorw u v) x2 = Ret x3 -> x3 = xorw x' y.
Proof.
  intros K N pos Ec u v x x1 x2 x3 x' y Lu Lv Bu Bv Lx Lx1 Lx2 E E1 E2.
  assert (Luv : length (xorw u v) = K) by (rewrite xorw_len; lia).
  destruct (C24_encode K N pos Ec u x) as (a & Ea & La & Ca & Pa & Ua); auto. rewrite Ea in E. inversion E; subst a. clear E Ea.
  destruct (C24_encode K N pos Ec v x1) as (a & Ea & La1 & Ca1 & Pa1 & Ua1); auto. rewrite Ea in E1. inversion E1; subst a. clear E1 Ea.
  destruct (C24_encode K N pos Ec (xorw u v) x2) as (a & Ea & La2 & Ca2 & Pa2 & Ua2); auto. { apply xorw_bits; auto; lia. } rewrite Ea in E2. inversion E2; subst a. clear E2 Ea.
  assert (LL : length x' = length y) by lia. assert (LU : length u = length v) by lia.
  apply (C24_unique K N pos Ec); auto. { rewrite xorw_len; lia. }
  2:{ intros k Hk. rewrite Ua2, xorw_nth, xorw_nth, Ua, Ua1 by auto. auto. }
  destruct (setup_code _ _ _ _ _ _ S) as (P & Hm & HP & L & EP & TB & C & _). rewrite <- EP in *.
  pose proof Ca as [Bx _]. pose proof Ca1 as [By _]. assert (BX : bits (xorw x' y)) by (apply xorw_bits; auto).
  apply (codeword_L m P Hm HP t _ g L C); auto. intros b Hb.
  assert (R1 := proj1 (codeword_L m P Hm HP t _ g L C H2 x' Bx) Ca b Hb). assert (R2 := proj1 (codeword_L m P Hm HP t _ g L C H2 y By) Ca1 b Hb).
  unfold wv in *. rewrite xorw_len by auto. rewrite (gsum_ext _ _ _ (fun j => fadd _ (fmul _ (bt _ (nth j x' 0%Z)) (pw _ b j)) (fmul _ (bt _ (nth j y 0%Z)) (pw _ b j)))).
  { rewrite gsum_add, R1, LL, R2. apply fadd_self. }
  intros j Hj. rewrite xorw_nth by auto. rewrite bt_lxor by (apply bits_nth; auto; lia). apply fmul_add.
Qed.
End Use.

(** The (15, 7) code for two errors. *)
Definition ex_gf : galois := match galois_ctor 32 15 [] with Ret g => g | _ => Build_galois 0 0 [] [] [] end.
Definition ex_g : list Z := match bch_poly ex_gf 2 with Ret g => g | _ => [] end.
Example C24_example : bch_setup 32 4 [] 2 ex_gf ex_g /\ ex_g = [1;0;0;0;1;0;1;1;1]%Z /\ bch_enc_ctor 7 15 ex_g = Ret [8;9;10;11;12;13;14] /\
  bch_encode 7 ex_g [1;0;0;1;1;0;1]%Z (repeat 0%Z 15) = Ret [0;1;1;1;1;0;0;0;1;0;0;1;1;0;1]%Z.
Proof.
  split; [|vm_compute; auto 10]. unfold bch_setup. split; [lia|]. split; [lia|]. split; [auto|]. split; [lia|]. split; vm_compute; reflexivity.
Qed.
