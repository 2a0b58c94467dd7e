(** C07-C10, C64: cyclic redundancy checks. *)
From Coq Require Import List Arith ZArith Lia Bool.
From Verif Require Import Base Loops GF2 BitPackerModel BitPackerSpec BitPackerProofs
  CRCModel CRCSpec CRCProofs CRCFastProofs CRCInterProofs.
Import ListNotations.

Lemma generator_good : forall packed size, good_poly (generator packed size) size.
Proof. intros. split; auto. unfold generator. simpl. rewrite map_length, seq_length. lia. Qed.

Lemma nth_generator : forall packed size i, i < size ->
  nth (S i) (generator packed size) false = Z.testbit packed (Z.of_nat (size - 1 - i)).
Proof. intros. unfold generator. cbn [nth]. apply (nth_tab _ size (fun i => Z.testbit packed (Z.of_nat (size - 1 - i)))). auto. Qed.

(** The constructor stores the generator of the key (up to 32 bits; for a larger size
    it shifts a 32-bit value by 32 or more, which is undefined). *)
Theorem C07_generator : forall packed size, size <= 32 ->
  mk_poly packed size = Ret (generator packed size).
Proof.
  intros. destruct (mk_poly_spec packed size H) as (g & E & [Lg G0] & G). rewrite E. f_equal.
  destruct (generator_good packed size) as [L' _].
  apply list_eq_nth with (d := false); [lia|]. intros [|k] Hk; auto.
  rewrite G, nth_generator by lia. auto.
Qed.

Theorem C07_size_over_32_refuted : forall packed size, 32 < size -> mk_poly packed size = Undef.
Proof.
  intros packed size H. unfold mk_poly, for_. destruct size as [|n]; [lia|]. cbn [for_from].
  replace (S n - 1 - 0) with n by lia. destruct (Nat.ltb_spec n 32); [lia|]. auto.
Qed.

(** build gives the message followed by [size] bits such that the whole is a multiple
    of the generator; check accepts it and extract gives the message back, whatever the
    contents of the internal and output buffers. *)
Theorem C07_build_check_extract : forall packed size K u out out2 buff buff2,
  K + size <= length buff -> K + size <= length buff2 ->
  length u = K -> length out = K + size -> length out2 = K ->
  exists v buff',
    build (generator packed size) size K buff u out = Ret (v, buff') /\
    length v = K + size /\ firstn K v = u /\
    Forall (fun x => x = 0%Z \/ x = 1%Z) (skipn K v) /\
    multiple (generator packed size) (bits_of v) /\
    (exists buff2', check (generator packed size) size K buff2 v = Ret (true, buff2')) /\
    extract K v out2 = Ret u.
Proof.
  intros packed size K u out out2 buff buff2 Hb Hb2 Hu Ho Ho2.
  pose proof (generator_good packed size) as G.
  destruct (build_spec _ size K buff u out G Hb Hu Ho) as (v & b' & E & Lb & Lv & F & M & B).
  exists v, b'. split; auto. split; auto. split; auto. split; [|split; [|split]]; auto.
  - rewrite Forall_forall. intros x Hx. apply In_nth with (d := 0%Z) in Hx. destruct Hx as (k & Hk & <-).
    rewrite skipn_nth. rewrite (B (K + k)) by lia. destruct (nz (nth (K + k) v 0%Z)); auto.
  - destruct (check_spec _ size K buff2 v G Hb2 Lv) as (r & b2 & E2 & _ & R).
    exists b2. rewrite E2. apply R in M. subst. auto.
  - rewrite extract_spec by lia. f_equal. auto.
Qed.

(** check accepts exactly the multiples of the generator, and only one CRC per message
    is accepted. *)
Theorem C07_check_exact : forall packed size K v buff,
  K + size <= length buff -> length v = K + size ->
  exists r buff', check (generator packed size) size K buff v = Ret (r, buff') /\
    (r = true <-> multiple (generator packed size) (bits_of v)).
Proof.
  intros. destruct (check_spec _ size K buff v (generator_good packed size)) as (r & b & E & _ & R); auto.
  exists r, b. auto.
Qed.

Theorem C07_unique : forall packed size K v1 v2,
  length v1 = K + size -> length v2 = K + size ->
  multiple (generator packed size) v1 -> multiple (generator packed size) v2 ->
  firstn K v1 = firstn K v2 -> v1 = v2.
Proof.
  intros packed size K v1 v2 L1 L2 M1 M2 E. destruct (generator_good packed size) as [Lg G0].
  apply multiple_unique with (g := generator packed size) (K := K); auto; try lia.
  intros k Hk. rewrite <- (firstn_nth _ v1 K k), <- (firstn_nth _ v2 K k) by auto. congruence.
Qed.

(** the CRC is linear *)
Theorem C07_linear : forall packed size K u1 u2 u3 o1 o2 o3 b1 b2 b3 v1 v2 v3 b1' b2' b3',
  K + size <= length b1 -> K + size <= length b2 -> K + size <= length b3 ->
  length u1 = K -> length u2 = K -> length u3 = K ->
  length o1 = K + size -> length o2 = K + size -> length o3 = K + size ->
  build (generator packed size) size K b1 u1 o1 = Ret (v1, b1') ->
  build (generator packed size) size K b2 u2 o2 = Ret (v2, b2') ->
  build (generator packed size) size K b3 u3 o3 = Ret (v3, b3') ->
  bits_of u3 = xorl (bits_of u1) (bits_of u2) ->
  bits_of v3 = xorl (bits_of v1) (bits_of v2).
Proof.
  intros packed size K u1 u2 u3 o1 o2 o3 b1 b2 b3 v1 v2 v3 b1' b2' b3' Lb1 Lb2 Lb3 Lu1 Lu2 Lu3 Lo1 Lo2 Lo3 E1 E2 E3 X.
  pose proof (generator_good packed size) as G.
  destruct (build_spec _ size K b1 u1 o1 G Lb1 Lu1 Lo1) as (w1 & c1 & F1 & _ & Lv1 & P1 & M1 & _).
  destruct (build_spec _ size K b2 u2 o2 G Lb2 Lu2 Lo2) as (w2 & c2 & F2 & _ & Lv2 & P2 & M2 & _).
  destruct (build_spec _ size K b3 u3 o3 G Lb3 Lu3 Lo3) as (w3 & c3 & F3 & _ & Lv3 & P3 & M3 & _).
  rewrite E1 in F1. inversion F1; subst w1 c1. rewrite E2 in F2. inversion F2; subst w2 c2.
  rewrite E3 in F3. inversion F3; subst w3 c3.
  assert (LB : forall v, length (bits_of v) = length v) by (intros; unfold bits_of; apply map_length).
  destruct G as [Lg G0].
  apply multiple_unique with (g := generator packed size) (K := K); auto.
  - rewrite length_xorl; rewrite !LB; lia.
  - rewrite LB. lia.
  - apply multiple_xorl; auto. rewrite !LB. lia.
  - intros k Hk. rewrite nth_xorl by (rewrite !LB; lia). rewrite !nth_bits_of.
    assert (A : forall v u, firstn K v = u -> nth k v 0%Z = nth k u 0%Z).
    { intros v u <-. rewrite firstn_nth; auto. }
    rewrite (A v1 u1), (A v2 u2), (A v3 u3) by auto. rewrite <- !nth_bits_of, X.
    rewrite nth_xorl by (rewrite !LB; lia). auto.
Qed.

Example C07_ex : exists b, build (generator 3 4) 4 5 (repeat 9%Z 9) [1;0;1;1;0]%Z (repeat 7%Z 9) = Ret ([1;0;1;1;0;1;1;1;1]%Z, b).
Proof. eexists. vm_compute. reflexivity. Qed.
Example C07_ex_reject : exists b, check (generator 3 4) 4 5 (repeat 9%Z 9) [1;0;1;1;0;1;1;1;0]%Z = Ret (false, b).
Proof. eexists. vm_compute. reflexivity. Qed.

(** ** C08 *)

(** The three implementations compute the same value on the same bytes, for every
    number of bits. *)
Theorem C08_versions_agree : forall packed size rev lut mem n,
  1 <= size <= 32 -> (0 <= packed < 2 ^ 32)%Z ->
  poly_rev packed size = Ret rev -> mk_lut rev = Ret lut ->
  Forall (fun x => 0 <= x < 256)%Z mem ->
  (n + 31) / 32 * 4 <= length mem ->
  exists c, compute_crc_v1 rev mem n = Ret c /\ compute_crc_v2 rev mem n = Ret c /\
            compute_crc_v3 rev lut mem n = Ret c.
Proof.
  intros packed size rev lut mem n Hs Hp Hr Hl Hm Hn.
  destruct (poly_rev_spec packed size Hs Hp) as (r & Er & Br & _). rewrite Hr in Er. inversion Er; subst r.
  assert (Hn' : (n + 7) / 8 <= length mem).
  { apply Nat.le_trans with ((n + 31) / 32 * 4); auto.
    pose proof (Nat.div_mod (n + 31) 32 ltac:(lia)). pose proof (Nat.mod_upper_bound (n + 31) 32 ltac:(lia)).
    apply Nat.lt_succ_r. apply Nat.div_lt_upper_bound; lia. }
  assert (Hw : exists w, size = S w) by (exists (size - 1); lia). destruct Hw as (w & ->).
  eexists. split; [|split]; [apply v1_spec|apply v2_spec|apply (v3_spec rev lut mem n w)]; auto.
Qed.

(** build of the fast module is build of the standard module *)
Theorem C08_fast_build : forall packed size rev lut K u out out' buff mem,
  1 <= size <= 32 -> (0 <= packed < 2 ^ 32)%Z ->
  poly_rev packed size = Ret rev -> mk_lut rev = Ret lut ->
  Forall (fun x => 0 <= x < 256)%Z mem -> (K + size + 7) / 8 <= length mem ->
  K + size <= length buff -> length u = K -> length out = K + size -> length out' = K + size ->
  exists v buff' mem',
    build (generator packed size) size K buff u out = Ret (v, buff') /\
    fast_build rev lut size K mem u out' = Ret (v, mem').
Proof.
  intros packed size rev lut K u out out' buff mem Hs Hp Hr Hl Hm Lm Lb Hu Ho Ho'.
  assert (C : crc_params packed size (generator packed size) rev lut).
  { split; [|split; [|split; [|split]]]; auto. apply C07_generator. lia. }
  pose proof (generator_good packed size) as G.
  destruct (build_spec _ size K buff u out G Lb Hu Ho) as (v & b' & E & _ & Lv & F & M & B).
  destruct (fast_build_spec _ _ _ _ _ K mem u out' C Hm) as (v' & m' & E' & _ & _ & Lv' & F' & M' & B'); auto.
  { apply Nat.le_trans with ((K + size + 7) / 8); auto. apply Nat.div_le_mono; lia. }
  exists v, b', m'. split; auto. rewrite E'. f_equal. f_equal.
  assert (X : bits_of v' = bits_of v).
  { destruct G as [Lg G0]. apply multiple_unique with (g := generator packed size) (K := K); auto.
    - unfold bits_of. rewrite !map_length. lia.
    - unfold bits_of. rewrite !map_length. lia.
    - intros k Hk. rewrite !nth_bits_of. rewrite <- (firstn_nth _ v K k), <- (firstn_nth _ v' K k) by auto. congruence. }
  apply list_eq_nth with (d := 0%Z); [lia|]. intros k Hk. destruct (le_lt_dec K k).
  - rewrite B, B' by auto. rewrite <- !nth_bits_of. congruence.
  - rewrite <- (firstn_nth _ v K k), <- (firstn_nth _ v' K k) by auto. congruence.
Qed.

Theorem C08_fast_check : forall packed size rev lut K v buff mem,
  1 <= size <= 32 -> (0 <= packed < 2 ^ 32)%Z ->
  poly_rev packed size = Ret rev -> mk_lut rev = Ret lut ->
  Forall (fun x => 0 <= x < 256)%Z mem -> (K + size + 7) / 8 <= length mem ->
  K + size <= length buff -> length v = K + size ->
  exists r buff' mem',
    check (generator packed size) size K buff v = Ret (r, buff') /\
    fast_check rev lut size K mem v = Ret (r, mem').
Proof.
  intros packed size rev lut K v buff mem Hs Hp Hr Hl Hm Lm Lb Hv.
  assert (C : crc_params packed size (generator packed size) rev lut).
  { split; [|split; [|split; [|split]]]; auto. apply C07_generator. lia. }
  destruct (check_spec _ size K buff v (generator_good packed size) Lb Hv) as (r & b & E & _ & R).
  destruct (fast_check_spec _ _ _ _ _ K mem v C Hm Lm Hv) as (r' & m & E' & _ & _ & R').
  exists r, b, m. split; auto. rewrite E'. f_equal. f_equal. destruct r, r'; intuition congruence.
Qed.

Lemma bytes_zero : forall n, Forall (fun x => 0 <= x < 256)%Z (repeat 0%Z n).
Proof. induction n; simpl; constructor; auto; lia. Qed.

(* the hypotheses hold for CRC-16-CCITT and an 11-bit message *)
Example C08_ex :
  (rev <- poly_rev 4129 16 ;; lut <- mk_lut rev ;;
   r <- fast_build rev lut 16 11 (repeat 0%Z 27) [1;0;1;1;0;1;1;0;0;0;1]%Z (repeat 7%Z 27) ;; Ret (fst r))
  = Ret [1;0;1;1;0;1;1;0;0;0;1; 0;1;0;0;1;0;0;0;0;0;0;0;1;1;1;1]%Z.
Proof. vm_compute. reflexivity. Qed.

(** ** C09 *)

(** An error pattern is undetected exactly when it is a multiple of the generator. *)
Theorem C09_undetected_iff_multiple : forall packed size K u out buff buff2 v buff' v',
  K + size <= length buff -> K + size <= length buff2 ->
  length u = K -> length out = K + size -> length v' = K + size ->
  build (generator packed size) size K buff u out = Ret (v, buff') ->
  exists r buff2', check (generator packed size) size K buff2 v' = Ret (r, buff2') /\
    (r = true <-> multiple (generator packed size) (xorl (bits_of v) (bits_of v'))).
Proof.
  intros packed size K u out buff buff2 v buff' v' Lb Lb2 Hu Ho Hv' E.
  pose proof (generator_good packed size) as G.
  destruct (build_spec _ size K buff u out G Lb Hu Ho) as (w & c & F & _ & Lv & P & M & _).
  rewrite E in F. inversion F; subst w c.
  destruct (check_spec _ size K buff2 v' G Lb2 Hv') as (r & b & E2 & _ & R).
  exists r, b. split; auto. rewrite R.
  assert (L : length (bits_of v) = length (bits_of v')) by (unfold bits_of; rewrite !map_length; lia).
  split; intros H.
  - apply multiple_xorl; auto.
  - replace (bits_of v') with (xorl (bits_of v) (xorl (bits_of v) (bits_of v'))).
    + apply multiple_xorl; auto. rewrite length_xorl; auto.
    + apply list_eq_nth with (d := false). { rewrite !length_xorl; auto. rewrite length_xorl; auto. }
      intros k Hk. rewrite !nth_xorl; auto; [|rewrite length_xorl; auto]. apply xorb_cancel.
Qed.

Lemma first_true : forall q, (exists i, nth i q false = true) ->
  exists i, nth i q false = true /\ forall j, j < i -> nth j q false = false.
Proof.
  intros q (i & Hi). revert Hi. induction i using lt_wf_ind. intros Hi.
  assert (D : (exists j, j < i /\ nth j q false = true) \/ forall j, j < i -> nth j q false = false).
  { clear. induction i. { right. intros; lia. }
    destruct IHi as [(j & Hj & E)|A]. { left. exists j. split; auto. }
    destruct (nth i q false) eqn:E. { left. exists i. auto. }
    right. intros j Hj. destruct (Nat.eq_dec j i); [subst; auto|]. apply A; lia. }
  destruct D as [(j & Hj & E)|A]; eauto.
Qed.

Lemma last_true : forall q, (exists i, nth i q false = true) ->
  exists i, nth i q false = true /\ forall j, i < j -> nth j q false = false.
Proof.
  intros q (i & Hi). remember (length q - i) as n eqn:Hn. revert i Hi Hn.
  induction n using lt_wf_ind. intros i Hi Hn.
  assert (i < length q). { destruct (le_lt_dec (length q) i); auto. rewrite nth_overflow in Hi by auto. discriminate. }
  assert (D : forall m, (exists j, i < j < i + m /\ nth j q false = true) \/ forall j, i < j < i + m -> nth j q false = false).
  { clear. induction m. { right. intros; lia. }
    destruct IHm as [(j & Hj & E)|A]. { left. exists j. split; auto. lia. }
    destruct m. { right. intros; lia. }
    destruct (nth (i + S m) q false) eqn:E. { left. exists (i + S m). split; auto. lia. }
    right. intros j Hj. destruct (Nat.eq_dec j (i + S m)); [subst; auto|]. apply A; lia. }
  destruct (D (length q - i)) as [(j & Hj & E)|A].
  - apply (H (length q - j)) with (i := j); auto. lia.
  - exists i. split; auto. intros j Hj. destruct (le_lt_dec (length q) j). { apply nth_overflow; auto. } apply A. lia.
Qed.

(** bursts are not multiples *)
Lemma burst_not_multiple : forall g size e a, good_poly g size -> nth size g false = true ->
  (exists k, nth k e false = true) ->
  (forall k, nth k e false = true -> a <= k < a + size) -> ~ multiple g e.
Proof.
  intros g size e a [Lg G0] Gs (k0 & Hk0) W (q & Lq & Hq).
  assert (Q : exists i, nth i q false = true).
  { assert (k0 < length e). { destruct (le_lt_dec (length e) k0); auto. rewrite nth_overflow in Hk0 by auto. discriminate. }
    rewrite Hq in Hk0 by auto. clear - Hk0.
    assert (A : forall n, xsum n (fun i => nth i q false && (if i <=? k0 then nth (k0 - i) g false else false)) = true ->
      exists i, nth i q false = true).
    { induction n; simpl; intros H; [discriminate|].
      destruct (nth n q false) eqn:E; eauto. simpl in H. rewrite xorb_false_r in H. auto. }
    eapply A. exact Hk0. }
  destruct (first_true q Q) as (i & Hi & Fi). destruct (last_true q Q) as (j & Hj & Fj).
  assert (Bi : i < length q). { destruct (le_lt_dec (length q) i); auto. rewrite nth_overflow in Hi by auto. discriminate. }
  assert (Bj : j < length q). { destruct (le_lt_dec (length q) j); auto. rewrite nth_overflow in Hj by auto. discriminate. }
  assert (Ei : nth i e false = true).
  { rewrite Hq by lia. unfold prod_coef. rewrite (xsum_single _ _ i); auto.
    - rewrite Hi, Nat.leb_refl, Nat.sub_diag. auto.
    - intros l Hl Hn. destruct (Nat.leb_spec l i); [|apply andb_false_r]. rewrite Fi by lia. auto. }
  assert (Ej : nth (j + size) e false = true).
  { rewrite Hq by lia. unfold prod_coef. rewrite (xsum_single _ _ j); auto.
    - rewrite Hj. destruct (Nat.leb_spec j (j + size)); [|lia]. replace (j + size - j) with size by lia. auto.
    - intros l Hl Hn. destruct (Nat.leb_spec l (j + size)); [|apply andb_false_r].
      destruct (le_lt_dec l j). { rewrite (nth_overflow g) by lia. apply andb_false_r. } rewrite Fj by lia. auto. }
  apply W in Ei. apply W in Ej.
  assert (i <= j). { destruct (le_lt_dec i j); auto. rewrite Fj in Hi by auto. discriminate. }
  lia.
Qed.

(** A word that differs from a built frame, and only inside a window of [size] bits, is
    rejected, if the constant term of the generator is 1. *)
Theorem C09_bursts_detected : forall packed size K u out buff buff2 v buff' v' a,
  1 <= size -> Z.testbit packed 0 = true ->
  K + size <= length buff -> K + size <= length buff2 ->
  length u = K -> length out = K + size -> length v' = K + size ->
  build (generator packed size) size K buff u out = Ret (v, buff') ->
  bits_of v <> bits_of v' ->
  (forall k, nth k (bits_of v) false <> nth k (bits_of v') false -> a <= k < a + size) ->
  exists buff2', check (generator packed size) size K buff2 v' = Ret (false, buff2').
Proof.
  intros packed size K u out buff buff2 v buff' v' a Hs H0 Lb Lb2 Hu Ho Hv' E D W.
  destruct (C09_undetected_iff_multiple packed size K u out buff buff2 v buff' v') as (r & b & E2 & R); auto.
  exists b. rewrite E2. f_equal. f_equal. destruct r; auto. exfalso.
  assert (L : length (bits_of v) = length (bits_of v')).
  { destruct (build_spec _ size K buff u out (generator_good packed size) Lb Hu Ho) as (w & c & F & _ & Lv & _).
    rewrite E in F. inversion F; subst. unfold bits_of. rewrite !map_length. lia. }
  apply (burst_not_multiple (generator packed size) size (xorl (bits_of v) (bits_of v')) a).
  - apply generator_good.
  - destruct size; [lia|]. rewrite nth_generator by lia. replace (S size - 1 - size) with 0 by lia. auto.
  - destruct (list_eq_dec bool_dec (bits_of v) (bits_of v')); [contradiction|].
    assert (X : forall a b : list bool, length a = length b -> a <> b -> exists k, nth k a false <> nth k b false).
    { clear. induction a; intros [|b0 b] Hl Hn; simpl in *; try discriminate; [congruence|].
      destruct (bool_dec a b0).
      - destruct (IHa b) as (k & Hk); [lia|congruence|]. exists (S k). auto.
      - exists 0. auto. }
    destruct (X _ _ L D) as (k & Hk). exists k. rewrite nth_xorl by auto.
    destruct (nth k (bits_of v) false), (nth k (bits_of v') false); auto; congruence.
  - intros k Hk. apply W. rewrite nth_xorl in Hk by auto. intros X. rewrite X, xorb_nilpotent in Hk. discriminate.
  - apply R. auto.
Qed.

(** every polynomial of the database qualifies *)
Theorem C09_known_polynomials : forall packed size, In (packed, size) known_polynomials ->
  1 <= size <= 32 /\ (0 < packed < 2 ^ Z.of_nat size)%Z /\ Z.testbit packed 0 = true.
Proof.
  assert (A : forallb (fun '(p, s) => (1 <=? s) && (s <=? 32) && (0 <? p)%Z && (p <? 2 ^ Z.of_nat s)%Z && Z.testbit p 0)
    known_polynomials = true) by (vm_compute; reflexivity).
  intros p s H. rewrite forallb_forall in A. specialize (A _ H). cbv beta iota in A.
  rewrite !andb_true_iff, !Nat.leb_le, !Z.ltb_lt in A. intuition.
Qed.

Example C09_ex : In (4129%Z, 16) known_polynomials.
Proof. vm_compute. tauto. Qed.

(** ** C10 *)

(** check_packed of the fast module answers whether the packed bits are a multiple of the
    generator, that is what check answers on the unpacked bits, and needs only the bytes
    that hold the [K + size] bits. *)
Theorem C10_fast_check_packed_partial : forall packed size rev lut K v mem buff,
  1 <= size <= 32 -> (0 <= packed < 2 ^ 32)%Z ->
  poly_rev packed size = Ret rev -> mk_lut rev = Ret lut ->
  Forall (fun x => 0 <= x < 256)%Z mem -> (K + size + 7) / 8 <= length mem ->
  K + size <= length buff -> length v = K + size ->
  (forall k, k < K + size -> mem_bit mem k = nth k (bits_of v) false) ->
  exists r buff', check (generator packed size) size K buff v = Ret (r, buff') /\
    fast_check_packed rev lut size K mem = Ret r.
Proof.
  intros packed size rev lut K v mem buff Hs Hp Hr Hl Hm Lm Lb Hv Hbits.
  assert (C : crc_params packed size (generator packed size) rev lut).
  { split; [|split; [|split; [|split]]]; auto. apply C07_generator. lia. }
  destruct (check_spec _ size K buff v (generator_good packed size) Lb Hv) as (r & b & E & _ & R).
  destruct (fast_check_packed_spec _ _ _ _ _ K mem C Hm Lm) as (r' & E' & R').
  exists r, b. split; auto. rewrite E'. f_equal.
  replace (tab (K + size) (byte_bit mem)) with (bits_of v) in R'.
  - destruct r, r'; intuition congruence.
  - apply eq_tab with (d := false). { unfold bits_of. rewrite map_length. auto. }
    intros k Hk. symmetry. apply Hbits. auto.
Qed.

(** check_packed of the standard module is undefined behaviour for every input: it
    unpacks the buffer as [K + size] frames of one bit. *)
Theorem C10_standard_check_packed_refuted : forall sB poly size K buff mem,
  1 <= sB -> 2 <= K + size -> check_packed sB poly size K buff mem = Undef.
Proof.
  intros sB poly size K buff mem HsB HK. unfold check_packed.
  assert (A : forall n, length (repeat 0%Z n) = n) by (intros; apply repeat_length).
  match goal with |- bind ?b _ = _ => assert (N : b <> Throws); [|destruct b as [m| |] eqn:Em; cbn [bind]; auto; try congruence] end.
  { apply for_nt. intros. apply bind_nt; [apply rd_nt|intros; apply wr_nt]. }
  assert (Lm : length m = (K + size) * sB).
  { revert Em. apply (for_part _ (fun _ c => length c = (K + size) * sB)); auto.
    intros i s s' Hi L E. destruct (rd mem i); try discriminate. cbn [bind] in E.
    unfold wr in E. destruct (i <? length s); inversion E. rewrite length_upd. auto. }
  unfold unpack_inplace_vec. destruct (Nat.eqb_spec (K + size) 0); [lia|]. cbn [guard negb bind].
  rewrite Lm, Nat.div_mul by lia. rewrite Nat.mod_same by lia. cbn [Nat.eqb guard bind]. rewrite Nat.div_same by lia.
  rewrite unpack_inplace_multi; auto; try lia.
Qed.

(** ** C64: the SIMD version *)

(** check on a wave of interleaved frames accepts exactly when every frame is a multiple
    of the generator *)
Theorem C64_interleaved_check_partial : forall packed size K nf buff V,
  length buff = (K + size) * nf -> length V = (K + size) * nf ->
  Forall (fun x => x = 0%Z \/ x = 1%Z) V -> Forall (fun x => x = 0%Z \/ x = 1%Z) buff ->
  exists r buff', inter_check (generator packed size) size K nf buff V = Ret (r, buff') /\
    (r = true <-> forall f, f < nf ->
       multiple (generator packed size) (bits_of (interleaved_frame nf f (K + size) V))).
Proof.
  intros. destruct (inter_check_spec (generator packed size) size K nf buff V) as (r & b & E & _ & _ & R); auto.
  { apply generator_good. }
  exists r, b. auto.
Qed.

(** but build lays the frames out one after the other, so check rejects what build built *)
Theorem C64_check_rejects_build_refuted : exists packed size K nf buff u out v buff' buff2',
  In (packed, size) known_polynomials /\
  length u = K * nf /\ Forall (fun x => x = 0%Z \/ x = 1%Z) u /\
  inter_build (generator packed size) size K nf buff u out = Ret (v, buff') /\
  inter_check (generator packed size) size K nf (repeat 0%Z ((K + size) * nf)) v = Ret (false, buff2').
Proof.
  exists 3%Z, 4, 2, 4, (repeat 0%Z 24), [1;0;0;0;0;0;0;0]%Z, (repeat 0%Z 24). do 3 eexists.
  split; [vm_compute; tauto|]. split; auto. split; [repeat (apply Forall_cons; [auto|]); apply Forall_nil|]. split; vm_compute; reflexivity.
Qed.
