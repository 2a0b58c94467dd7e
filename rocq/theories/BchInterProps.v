(** C151: the BCH encoder over several frames at once. *)
From Coq Require Import List Arith Lia Bool ZArith.
From Verif Require Import Base Copy GaloisModel GaloisSpec BCHModel BCHSpec BCHEncProofs BCHCode BCHEncProps ReorderModel ReorderProofs ReorderProps BchInterModel.
Import ListNotations.
Local Open Scope nat_scope.

(** One step of the register of the code, and the first k steps, as functions of the position. *)
Definition stp (g : list Z) (r : nat) (u : Z) (s : nat -> Z) (j : nat) : Z :=
  let fb := Z.lxor u (s (r - 1)) in
  if j =? 0 then (if (fb =? 0)%Z then 0%Z else if (nth 0 g 0 =? 0)%Z then 0%Z else 1%Z) else Z.lxor (s (j - 1)) (Z.land (nth j g 0%Z) fb).
Fixpoint st (g : list Z) (r K : nat) (u : list Z) (k : nat) : nat -> Z :=
  match k with 0 => fun _ => 0%Z | S k => stp g r (nth (K - 1 - k) u 0%Z) (st g r K u k) end.

Lemma lxor_bit : forall a b, bitZ a -> bitZ b -> bitZ (Z.lxor a b).
Proof. intros a b [-> | ->] [-> | ->]; cbn; unfold bitZ; auto. Qed.
Lemma land_bit : forall a b, bitZ a -> bitZ b -> bitZ (Z.land a b).
Proof. intros a b [-> | ->] [-> | ->]; cbn; unfold bitZ; auto. Qed.
Lemma st_bit : forall g r K u k j, 0 < r -> length g = S r -> (forall j, bitZ (nth j g 0%Z)) -> (forall j, bitZ (nth j u 0%Z)) -> bitZ (st g r K u k j).
Proof.
  intros g r K u k. induction k as [|k IH]; intros j Hr Lg Bg Bu; cbn [st]; [left; auto|]. unfold stp. cbv zeta. destruct (j =? 0).
  - destruct (_ =? 0)%Z; [left; auto|]. destruct (_ =? 0)%Z; [left|right]; auto.
  - apply lxor_bit; [apply IH; auto|]. apply land_bit; auto. apply lxor_bit; auto.
Qed.

(** The scalar encoder. *)
Lemma scalar_parity : forall K g u par r, length g = S r -> 0 < r -> r <= length par -> K <= length u ->
  exists par', bch_parity K g u 0 par = Ret par' /\ length par' = length par /\ forall j, j < r -> nth j par' 0%Z = st g r K u K j.
Proof.
  intros K g u par r Lg Hr Lp Lu. unfold bch_parity. replace (length g - 1) with r by lia. cbv zeta. destruct (fill_spec _ 0%Z r par 0 0%Z) as (p0 & E0 & L0 & V0 & _); [lia|]. rewrite E0. cbn [bind].
  match goal with |- context [for_ K ?body p0] => destruct (for_inv _ (fun k (p : list Z) => length p = length par /\ forall j, j < r -> nth j p 0%Z = st g r K u k j) K body p0) as (p' & E & L & I) end.
  - split; [lia|]. intros j Hj. apply (V0 j). auto.
  - intros k p Hk (L & I). cbn [Nat.add]. rewrite (rd_ok _ 0%Z) by lia. cbn [bind]. rewrite (rd_ok _ 0%Z) by lia. cbn [bind]. rewrite (I (r - 1)) by lia. set (fb := Z.lxor (nth (K - 1 - k) u 0%Z) (st g r K u k (r - 1))).
    match goal with |- context [for_ (r - 1) ?body p] => destruct (for_inv _ (fun t (q : list Z) => length q = length par /\ forall j, j < r -> nth j q 0%Z = if r - t <=? j then stp g r (nth (K - 1 - k) u 0%Z) (st g r K u k) j else st g r K u k j) (r - 1) body p) as (q & EQ & LQ & IQ) end.
    + split; auto. intros j Hj. destruct (Nat.leb_spec (r - 0) j); [lia|]. auto.
    + intros t q Ht (LQ & IQ). rewrite (rd_ok _ 0%Z) by lia. cbn [bind]. rewrite (rd_ok _ 0%Z) by lia. cbn [bind]. rewrite wr_ok by lia. eexists. split; [reflexivity|]. rewrite length_upd. split; auto. intros j Hj. destruct (Nat.eq_dec j (r - 1 - t)) as [->|NE].
      * rewrite nth_upd_eq by lia. rewrite IQ by lia. destruct (Nat.leb_spec (r - t) (r - 1 - t - 1)); [lia|]. destruct (Nat.leb_spec (r - S t) (r - 1 - t)); [|lia]. unfold stp. cbv zeta. destruct (Nat.eqb_spec (r - 1 - t) 0); [lia|]. reflexivity.
      * rewrite nth_upd_neq by lia. rewrite IQ by auto. destruct (Nat.leb_spec (r - t) j), (Nat.leb_spec (r - S t) j); auto; lia.
    + rewrite EQ. cbn [bind]. rewrite (rd_ok _ 0%Z) by lia. cbn [bind]. rewrite wr_ok by lia. eexists. split; [reflexivity|]. rewrite length_upd. split; auto. intros j Hj. cbn [st]. destruct (Nat.eq_dec j 0) as [->|NE].
      * rewrite nth_upd_eq by lia. reflexivity.
      * rewrite nth_upd_neq by lia. rewrite IQ by auto. destruct (Nat.leb_spec (r - (r - 1)) j); [reflexivity|lia].
  - exists p'. auto.
Qed.

Section V.
Variables (v : nat).
Let V := 2 ^ v.

Lemma store_nth : forall x j r m, length r = V -> j < m -> length x = m * V -> exists y, store Z V x (j * V) r = Ret y /\ length y = m * V /\
  forall i f, i < m -> f < V -> nth (i * V + f) y 0%Z = if i =? j then nth f r 0%Z else nth (i * V + f) x 0%Z.
Proof.
  intros x j r m Lr Hj Lx. assert (B : j * V + V <= m * V) by (replace (j * V + V) with (S j * V) by lia; apply Nat.mul_le_mono_r; lia). rewrite (store_ok Z 0%Z V) by lia. eexists. split; [reflexivity|]. unfold newfr. rewrite length_tab. split; auto.
  intros i f Hi Hf. rewrite nth_tab by (assert (X := idx_lt i f V m Hi Hf); lia). destruct (Nat.eqb_spec i j) as [->|NE].
  - destruct (Nat.leb_spec (j * V) (j * V + f)); [|lia]. destruct (Nat.ltb_spec (j * V + f) (j * V + V)); [|lia]. cbn [andb]. f_equal. lia.
  - destruct (Nat.leb_spec (j * V) (i * V + f)); cbn [andb]; auto. destruct (Nat.ltb_spec (i * V + f) (j * V + V)); auto. exfalso. apply NE. assert (X : i * V + f = j * V + (i * V + f - j * V)) by lia. apply (divmod_unique_lt V) in X; lia.
Qed.
Lemma load_nth : forall x j m, j < m -> length x = m * V -> load Z V x (j * V) = Ret (tab V (fun f => nth (j * V + f) x 0%Z)).
Proof. intros x j m Hj Lx. apply load_ok. assert (S j * V <= m * V) by (apply Nat.mul_le_mono_r; lia). cbn [Nat.mul] in *. lia. Qed.

(** Every lane does what the scalar encoder does. *)
Lemma lanes_loop : forall K g us ur par r, length g = S r -> 0 < r -> (forall j, bitZ (nth j g 0%Z)) -> (forall f j, bitZ (nth j (nth f us []) 0%Z)) -> length ur = K * V -> length par = r * V -> (forall i f, i < K -> f < V -> nth (i * V + f) ur 0%Z = nth i (nth f us []) 0%Z) -> (forall q, nth q par 0%Z = 0%Z) ->
  exists p, inter_loop V K g ur par = Ret p /\ length p = r * V /\ forall j f, j < r -> f < V -> nth (j * V + f) p 0%Z = st g r K (nth f us []) K j.
Proof.
  intros K g us ur par r Lg Hr Bg Bu Lu Lp IU Z0. unfold inter_loop. replace (length g - 1) with r by lia. cbv zeta.
  match goal with |- context [for_ K ?body par] => destruct (for_inv _ (fun k (p : list Z) => length p = r * V /\ forall j f, j < r -> f < V -> nth (j * V + f) p 0%Z = st g r K (nth f us []) k j) K body par) as (p' & E & L & I) end.
  - split; auto.
  - intros k p Hk (L & I). rewrite (load_nth p (r - 1) r) by (auto; lia). cbn [bind]. rewrite (load_nth ur (K - 1 - k) K) by (auto; lia). cbn [bind].
    set (fb := lanes2 V Z.lxor _ _). assert (FB : forall f, f < V -> nth f fb 0%Z = Z.lxor (nth (K - 1 - k) (nth f us []) 0%Z) (st g r K (nth f us []) k (r - 1))). { intros f Hf. unfold fb, lanes2. rewrite !nth_tab by auto. rewrite I, IU by (auto; lia). apply Z.lxor_comm. }
    assert (FZ : forall f, f < V -> bitZ (nth f fb 0%Z)) by (intros f Hf; rewrite FB by auto; apply lxor_bit; [apply Bu|apply st_bit; auto]).
    match goal with |- context [for_ (r - 1) ?body p] => destruct (for_inv _ (fun t (q : list Z) => length q = r * V /\ forall j f, j < r -> f < V -> nth (j * V + f) q 0%Z = if r - t <=? j then stp g r (nth (K - 1 - k) (nth f us []) 0%Z) (st g r K (nth f us []) k) j else st g r K (nth f us []) k j) (r - 1) body p) as (q & EQ & LQ & IQ) end.
    + split; auto. intros j f Hj Hf. destruct (Nat.leb_spec (r - 0) j); [lia|]. auto.
    + intros t q Ht (LQ & IQ). rewrite (load_nth q (r - 1 - t - 1) r) by (auto; lia). cbn [bind]. rewrite (rd_ok _ 0%Z) by lia. cbn [bind].
      set (reg := if (nth (r - 1 - t) g 0 =? 0)%Z then _ else _). assert (LR : length reg = V) by (unfold reg; destruct (_ =? 0)%Z; apply length_tab).
      destruct (store_nth q (r - 1 - t) reg r LR ltac:(lia) LQ) as (y & EY & LY & IY). rewrite EY. exists y. split; auto. split; auto. intros j f Hj Hf. rewrite IY by auto. destruct (Nat.eqb_spec j (r - 1 - t)) as [->|NE].
      * destruct (Nat.leb_spec (r - S t) (r - 1 - t)); [|lia]. unfold stp. cbv zeta. destruct (Nat.eqb_spec (r - 1 - t) 0); [lia|]. rewrite <- FB by auto.
        assert (PM : nth ((r - 1 - t - 1) * V + f) q 0%Z = st g r K (nth f us []) k (r - 1 - t - 1)) by (rewrite IQ by (auto; lia); destruct (Nat.leb_spec (r - t) (r - 1 - t - 1)); [lia|reflexivity]).
        unfold reg. destruct (Bg (r - 1 - t)) as [G|G]; rewrite G; cbn [Z.eqb].
        -- rewrite nth_tab by auto. rewrite PM. rewrite Z.land_0_l, Z.lxor_0_r. reflexivity.
        -- unfold lanes2. rewrite !nth_tab by auto. rewrite PM. destruct (FZ f Hf) as [X|X]; rewrite X; reflexivity.
      * rewrite IQ by auto. destruct (Nat.leb_spec (r - t) j), (Nat.leb_spec (r - S t) j); auto; lia.
    + rewrite EQ. cbn [bind]. rewrite (rd_ok _ 0%Z) by lia. cbn [bind]. match goal with |- context [store Z V q 0 ?reg] => destruct (store_nth q 0 reg r ltac:(apply length_tab) Hr LQ) as (y & EY & LY & IY) end. cbn [Nat.mul] in EY. rewrite EY. exists y. split; auto. split; auto. intros j f Hj Hf. rewrite IY by auto. cbn [st]. destruct (Nat.eqb_spec j 0) as [->|NE].
      * unfold lanes1. rewrite nth_tab by auto. unfold stp. cbv zeta. rewrite <- FB by auto. cbn [Nat.eqb]. destruct (FZ f Hf) as [X|X]; rewrite X; cbn [Z.eqb]; [reflexivity|]. destruct (Bg 0) as [G|G]; rewrite G; reflexivity.
      * rewrite IQ by auto. destruct (Nat.leb_spec (r - (r - 1)) j); [reflexivity|lia].
  - exists p'. auto.
Qed.

Lemma own_order : in_order v V.
Proof. intros m Hm E. apply Nat.pow_inj_r in E; [|lia]. subst m. rewrite Nat.mod_same by lia. lia. Qed.

(** Frame by frame, the result is that of the encoder of one frame, whatever the buffers held. *)
Theorem C151_frames : forall K N g us xs ubuf pbuf r, length g = S r -> 0 < r -> (forall j, bitZ (nth j g 0%Z)) -> N = r + K ->
  length us = V -> (forall f, f < V -> length (nth f us []) = K /\ bits (nth f us [])) -> length xs = V -> (forall f, f < V -> length (nth f xs []) = N) -> length ubuf = K * V -> length pbuf = r * V ->
  exists out, inter_encode V K g us xs ubuf pbuf = Ret out /\ length out = V /\
  forall f x, f < V -> length x = N -> bch_encode K g (nth f us []) x = Ret (nth f out []).
Proof.
  intros K N g us xs ubuf pbuf r Lg Hr Bg HN LU HU LX HX LB LP. unfold inter_encode, inter_parity. replace (length g - 1) with r by lia. cbv zeta.
  assert (Bu : forall f j, bitZ (nth j (nth f us []) 0%Z)). { intros f j. destruct (Nat.lt_ge_cases f V) as [Hf|Hf]; [|rewrite (nth_overflow us) by lia; destruct j; left; auto]. destruct (HU f Hf) as [L B]. destruct (Nat.lt_ge_cases j K) as [Hj|Hj]; [|rewrite nth_overflow by lia; left; auto]. apply (proj1 (bits_nth _) B). lia. }
  destruct (C53_apply_static Z 0%Z v V us K ubuf) as [_ AP]; [intros f Hf; rewrite LU in Hf; destruct (HU f Hf) as [-> _]; auto|rewrite LU; lia|]. destruct (AP LU) as (ur & EU & LUR & IU & _). fold V in EU. rewrite EU. cbn [bind]. rewrite LU in IU.
  destruct (fill_spec _ 0%Z (length pbuf) pbuf 0 0%Z) as (p0 & E0 & L0 & V0 & _); [lia|]. rewrite E0. cbn [bind].
  destruct (lanes_loop K g us ur p0 r Lg Hr Bg Bu) as (p & EP & LPP & IP); [lia|lia|auto| |]. { intros q. destruct (Nat.lt_ge_cases q (length pbuf)); [apply (V0 q); auto|apply nth_overflow; lia]. }
  rewrite EP. cbn [bind]. destruct (C53_rev_static_partial Z 0%Z v V p xs r) as [_ RV]; [rewrite LX; apply own_order|rewrite LX; lia|intros f Hf; rewrite LX in Hf; rewrite HX by auto; lia|]. destruct (RV LX) as (ys & EY & LY & IY). fold V in EY. rewrite EY. cbn [bind]. rewrite LX in IY, LY.
  assert (FR : forall f x, f < V -> length x = N -> length (nth f ys []) = N /\ bch_encode K g (nth f us []) x = Ret (firstn r (nth f ys []) ++ nth f us [])).
  { intros f x Hf Lx. destruct (IY f Hf) as (L1 & I1 & _). rewrite HX in L1 by auto. split; auto. destruct (HU f Hf) as [LF _]. unfold bch_encode. destruct (scalar_parity K g (nth f us []) x r Lg Hr) as (x' & EX & LX' & IX); [lia|lia|]. rewrite EX. cbn [bind]. replace (length g - 1) with r by lia. rewrite (copy_list _ 0%Z) by lia. cbn [skipn]. rewrite (firstn_all2 (n := K)) by lia. rewrite skipn_all2 by lia. rewrite app_nil_r. f_equal. f_equal.
    apply (list_eq_nth _ 0%Z); [rewrite !firstn_length; lia|]. intros j Hj. rewrite firstn_length in Hj. rewrite !firstn_nth by lia. rewrite IX, I1 by lia. symmetry. apply IP; auto. lia. }
  match goal with |- context [for_ V ?body ys] => destruct (for_inv _ (fun t (zs : list (list Z)) => length zs = V /\ forall f, f < V -> nth f zs [] = if f <? t then firstn r (nth f ys []) ++ nth f us [] else nth f ys []) V body ys) as (zs & EZ & LZ & IZ) end.
  - split; auto.
  - intros t zs Ht (LZ & IZ). rewrite (rd_ok _ []) by lia. cbn [bind]. rewrite (rd_ok _ []) by lia. cbn [bind]. rewrite IZ by auto. destruct (Nat.ltb_spec t t); [lia|]. destruct (FR t (repeat 0%Z N) Ht (repeat_length _ _)) as [LT _]. destruct (HU t Ht) as [LF _]. rewrite (copy_list _ 0%Z) by lia. cbn [bind skipn]. rewrite (firstn_all2 (n := K)) by lia. rewrite skipn_all2 by lia. rewrite app_nil_r. rewrite wr_ok by lia. eexists. split; [reflexivity|]. rewrite length_upd. split; auto.
    intros f Hf. destruct (Nat.eq_dec f t) as [->|NE]; [rewrite nth_upd_eq by lia; destruct (Nat.ltb_spec t (S t)); [reflexivity|lia]|]. rewrite nth_upd_neq by lia. rewrite IZ by auto. destruct (Nat.ltb_spec f t), (Nat.ltb_spec f (S t)); auto; lia.
  - exists zs. split; auto. split; auto. intros f x Hf Lx. rewrite IZ by auto. destruct (Nat.ltb_spec f V); [|lia]. apply FR; auto.
Qed.
(** With the generator of a BCH code, every frame is the codeword of its message. *)
Theorem C151_codewords : forall w m p t gf g K N pos us xs ubuf pbuf, bch_setup w m p t gf g -> 2 * t < 2 ^ m - 1 -> bch_enc_ctor K N g = Ret pos ->
  length us = V -> (forall f, f < V -> length (nth f us []) = K /\ bits (nth f us [])) -> length xs = V -> (forall f, f < V -> length (nth f xs []) = N) -> length ubuf = K * V -> length pbuf = (N - K) * V ->
  exists out, inter_encode V K g us xs ubuf pbuf = Ret out /\ length out = V /\
  forall f, f < V -> length (nth f out []) = N /\ bch_codeword (poly_of (gf_p gf)) t (nth f out []) /\ forall k, k < K -> nth (nth k pos 0) (nth f out []) 0%Z = nth k (nth f us []) 0%Z.
Proof.
  intros w m p t gf g K N pos us xs ubuf pbuf SU T2 EC LU HU LX HX LB LP. destruct (ctor_inv m t g T2 K N pos EC) as (K0 & EN & _). 
  destruct (setup_code _ _ _ _ _ _ SU) as (P & Hm & HP & L & EP & TB & C & RT & _). assert (T0 : 0 < t) by (destruct SU as (_ & _ & _ & T0 & _); lia). specialize (RT T2).
  assert (Lg : length g = S (length g - 1)) by lia.
  assert (Bg : forall j, bitZ (nth j g 0%Z)). { intros j. destruct (Nat.lt_ge_cases j (length g)) as [Hj|Hj]; [|rewrite nth_overflow by lia; left; auto]. apply (proj1 (bits_nth g) (BCHCode.cd_bits _ _ _ _ _ _ _ C)). lia. }
  assert (LP2 : length pbuf = (length g - 1) * V) by (rewrite LP; f_equal; lia). assert (R0 : 0 < length g - 1) by lia. destruct (C151_frames K N g us xs ubuf pbuf (length g - 1) Lg R0 Bg EN LU HU LX HX LB LP2) as (out & EO & LO & FO).
  exists out. split; auto. split; auto. intros f Hf. destruct (HU f Hf) as [L1 B1]. destruct (C24_encode w m p t gf g SU T2 K N pos EC (nth f us []) (repeat 0%Z N) L1 B1 (repeat_length _ _)) as (x' & EX & LX' & CW & _ & PU). rewrite (FO f _ Hf (repeat_length _ _)) in EX. inversion EX. subst x'. auto.
Qed.
End V.

(** * The hypotheses are met *)
Example C151_meets : bch_setup 32 4 [] 2 ex_gf ex_g /\ bch_enc_ctor 7 15 ex_g = Ret [8;9;10;11;12;13;14] /\
  inter_encode (2 ^ 1) 7 ex_g [[1;0;0;1;1;0;1]; [0;0;0;0;0;0;0]]%Z [repeat 5%Z 15; repeat 6%Z 15] (repeat 3%Z 14) (repeat 4%Z 16) = Ret [[0;1;1;1;1;0;0;0;1;0;0;1;1;0;1]; repeat 0 15]%Z.
Proof. split; [apply C24_example|]. split; vm_compute; reflexivity. Qed.
