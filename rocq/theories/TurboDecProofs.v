(** Proofs about the turbo decoder. *)
From Coq Require Import List Arith Lia Bool ZArith.
From Verif Require Import Base Copy HardModel ReorderProps WLoops TurboDecModel TurboDecSpec.
From Verif Require InterleaverModel InterleaverProofs ReorderModel.
Import ListNotations.

(** ** Loops *)
Lemma for_from_shift : forall S n lo k (body : nat -> S -> outcome S) s,
  for_from (lo + k) n body s = for_from lo n (fun i => body (i + k)) s.
Proof.
  induction n; intros lo k body s; [reflexivity|]. cbn [for_from]. apply bind_ext. intros a _.
  replace (Datatypes.S (lo + k)) with (Datatypes.S lo + k) by lia. apply IHn.
Qed.
Lemma for_blocks : forall S v E (body : nat -> S -> outcome S) s,
  for_ v (fun r s => for_ E (fun j s => body (r * E + j) s) s) s = for_ (v * E) body s.
Proof.
  intros S v E body. unfold for_. induction v; intros s; [reflexivity|].
  replace (Datatypes.S v) with (v + 1) by lia. rewrite for_from_app. replace ((v + 1) * E) with (v * E + E) by lia. rewrite for_from_app.
  rewrite IHv. apply bind_ext. intros a _. cbn [for_from Nat.add]. rewrite <- (Nat.add_0_l (v * E)), for_from_shift. 
  transitivity (Base.bind (for_from 0 E (fun i => body (i + v * E)) a) Ret).
  - f_equal. apply for_from_ext. intros. f_equal. lia.
  - destruct (for_from 0 E _ a); reflexivity.
Qed.
Lemma from_fill : forall A (d : A) (F : nat -> A) n lo (body : nat -> list A -> outcome (list A)) x0, lo + n <= length x0 ->
  (forall q x, lo <= q < lo + n -> length x = length x0 -> (forall k, q <= k -> nth k x d = nth k x0 d) -> body q x = wr x q (F q)) ->
  exists x', for_from lo n body x0 = Ret x' /\ length x' = length x0 /\ forall q, nth q x' d = if (lo <=? q) && (q <? lo + n) then F q else nth q x0 d.
Proof.
  intros A d F n lo body x0 HL HB.
  destruct (for_from_inv _ (fun i x => length x = length x0 /\ forall q, nth q x d = if (lo <=? q) && (q <? i) then F q else nth q x0 d) n lo body x0) as (x' & E & L & I).
  - split; [reflexivity|]. intros q. destruct (Nat.leb_spec lo q), (Nat.ltb_spec q lo); try lia; reflexivity.
  - intros i x Hi (L & I). rewrite HB; [|exact Hi|exact L|]. 2:{ intros k Hk. rewrite I. destruct (Nat.ltb_spec k i); [lia|]. rewrite andb_false_r. reflexivity. }
    rewrite wr_ok by lia. eexists. split; [reflexivity|]. rewrite length_upd. split; [exact L|].
    intros q. destruct (Nat.eq_dec q i) as [->|NE].
    + rewrite nth_upd_eq by lia. destruct (Nat.leb_spec lo i), (Nat.ltb_spec i (Datatypes.S i)); try lia. reflexivity.
    + rewrite nth_upd_neq by lia. rewrite I. destruct (Nat.leb_spec lo q), (Nat.ltb_spec q i), (Nat.ltb_spec q (Datatypes.S i)); try lia; reflexivity.
  - exists x'. auto.
Qed.
Lemma for_fill : forall A (d : A) (F : nat -> A) n (body : nat -> list A -> outcome (list A)) x0, n <= length x0 ->
  (forall q x, q < n -> length x = length x0 -> (forall k, q <= k -> nth k x d = nth k x0 d) -> body q x = wr x q (F q)) ->
  exists x', for_ n body x0 = Ret x' /\ length x' = length x0 /\ forall q, nth q x' d = if q <? n then F q else nth q x0 d.
Proof.
  intros A d F n body x0 HL HB. unfold for_. destruct (from_fill A d F n 0 body x0) as (x' & E & L & I); [lia|intros; apply HB; auto; lia|].
  exists x'. split; [exact E|]. split; [exact L|]. intros q. rewrite I. cbn [Nat.leb andb Nat.add]. reflexivity.
Qed.

Lemma for_blocks2 : forall S n w (b : nat -> nat -> S -> outcome S) s, 0 < w ->
  for_ n (fun i s => for_ w (fun j s => b i j s) s) s = for_ (n * w) (fun q s => b (q / w) (q mod w) s) s.
Proof.
  intros S n w b s Hw. rewrite <- for_blocks. apply for_ext. intros i s1 Hi. apply for_ext. intros j s2 Hj.
  replace ((i * w + j) / w) with i by (rewrite Nat.div_add_l, Nat.div_small by lia; lia).
  replace ((i * w + j) mod w) with j by (rewrite Nat.add_comm, Nat.mod_add, Nat.mod_small by lia; reflexivity). reflexivity.
Qed.
Lemma fill2 : forall A (d : A) (F G : nat -> A) n o (body : nat -> list A * list A -> outcome (list A * list A)) a0 b0,
  o + n <= length a0 -> o + n <= length b0 ->
  (forall q a b, q < n -> length a = length a0 -> length b = length b0 -> body q (a, b) = Ret (upd a (o + q) (F q), upd b (o + q) (G q))) ->
  exists a b, for_ n body (a0, b0) = Ret (a, b) /\ length a = length a0 /\ length b = length b0 /\
    (forall q, q < n -> nth (o + q) a d = F q /\ nth (o + q) b d = G q) /\
    (forall q, q < o \/ o + n <= q -> nth q a d = nth q a0 d /\ nth q b d = nth q b0 d).
Proof.
  intros A d F G n o body a0 b0 La Lb HB.
  destruct (for_inv _ (fun k (st : list A * list A) => length (fst st) = length a0 /\ length (snd st) = length b0 /\
    (forall q, q < k -> nth (o + q) (fst st) d = F q /\ nth (o + q) (snd st) d = G q) /\
    (forall q, q < o \/ o + k <= q -> nth q (fst st) d = nth q a0 d /\ nth q (snd st) d = nth q b0 d)) n body (a0, b0)) as ([a b] & E & I).
  - split; [auto|]. split; [auto|]. split; [intros; lia|auto].
  - intros k [a b] Hk (L1 & L2 & I1 & I2). cbn [fst snd] in *. rewrite HB by assumption. eexists. split; [reflexivity|]. cbn [fst snd]. rewrite !length_upd. split; [auto|]. split; [auto|]. split.
    + intros q Hq. destruct (Nat.eq_dec q k) as [->|NE]; [rewrite !nth_upd_eq by lia; auto|]. rewrite !nth_upd_neq by lia. apply I1. lia.
    + intros q Hq. rewrite !nth_upd_neq by lia. apply I2. lia.
  - cbn [fst snd] in I. exists a, b. tauto.
Qed.
Lemma fill3 : forall A (d : A) (F G H : nat -> A) n (body : nat -> list A * list A * list A -> outcome (list A * list A * list A)) a0 b0 c0,
  n <= length a0 -> n <= length b0 -> n <= length c0 ->
  (forall q a b c, q < n -> length a = length a0 -> length b = length b0 -> length c = length c0 -> body q (a, b, c) = Ret (upd a q (F q), upd b q (G q), upd c q (H q))) ->
  exists a b c, for_ n body (a0, b0, c0) = Ret (a, b, c) /\ length a = length a0 /\ length b = length b0 /\ length c = length c0 /\
    (forall q, q < n -> nth q a d = F q /\ nth q b d = G q /\ nth q c d = H q).
Proof.
  intros A d F G H n body a0 b0 c0 La Lb Lc HB.
  destruct (for_inv _ (fun k (st : list A * list A * list A) => let '(a, b, c) := st in length a = length a0 /\ length b = length b0 /\ length c = length c0 /\
    (forall q, q < k -> nth q a d = F q /\ nth q b d = G q /\ nth q c d = H q)) n body (a0, b0, c0)) as ([[a b] c] & E & I).
  - do 3 (split; [auto|]). intros; lia.
  - intros k [[a b] c] Hk (L1 & L2 & L3 & I1). rewrite HB by assumption. eexists. split; [reflexivity|]. cbv beta iota. rewrite !length_upd. do 3 (split; [auto|]).
    intros q Hq. destruct (Nat.eq_dec q k) as [->|NE]; [rewrite !nth_upd_eq by lia; auto|]. rewrite !nth_upd_neq by lia. apply I1. lia.
  - exists a, b, c. tauto.
Qed.

(** ** Frames side by side *)
Lemma nth_deal : forall A (d : A) nf f n b i, i < n -> nth i (deal d nf f n b) d = nth (i * nf + f) b d.
Proof. intros. unfold deal. rewrite nth_tab by assumption. reflexivity. Qed.
Lemma length_deal : forall A (d : A) nf f n b, length (deal d nf f n b) = n.
Proof. intros. apply length_tab. Qed.
Lemma deal_idx : forall n nf i f, f < nf -> i < n -> i * nf + f < n * nf.
Proof. intros. nia. Qed.
Lemma idx_dm : forall nf i f, f < nf -> (i * nf + f) / nf = i /\ (i * nf + f) mod nf = f.
Proof. intros. split; [rewrite Nat.div_add_l, Nat.div_small by lia; lia|]. rewrite Nat.add_comm, Nat.mod_add, Nat.mod_small by lia. reflexivity. Qed.
Lemma length_mix : forall A (d : A) nf n fr, length (mix d nf n fr) = n * nf.
Proof. intros. apply length_tab. Qed.
Lemma deal_mix : forall A (d : A) nf n fr f, f < nf -> length (fr f) = n -> deal d nf f n (mix d nf n fr) = fr f.
Proof.
  intros A d nf n fr f Hf L. symmetry. apply (eq_tab _ d); [exact L|]. intros i Hi. unfold mix. rewrite nth_tab by (apply deal_idx; assumption).
  destruct (idx_dm nf i f Hf) as [-> ->]. reflexivity.
Qed.
Lemma mix_deal : forall A (d : A) nf n b, 0 < nf -> length b = n * nf -> b = mix d nf n (fun f => deal d nf f n b).
Proof.
  intros A d nf n b Hn L. apply (eq_tab _ d); [exact L|]. intros q Hq. rewrite nth_deal by (apply Nat.div_lt_upper_bound; lia).
  f_equal. rewrite Nat.mul_comm. apply Nat.div_mod. lia.
Qed.
Lemma mix_ext : forall A (d : A) nf n fr fr', 0 < nf -> (forall f, f < nf -> fr f = fr' f) -> mix d nf n fr = mix d nf n fr'.
Proof. intros A d nf n fr fr' Hn H. apply tab_ext. intros q Hq. rewrite H by (apply Nat.mod_upper_bound; lia). reflexivity. Qed.
Lemma nth_gather : forall T (zero : T) t x i, i < length t -> nth i (gather T zero t x) zero = nth (nth i t 0) x zero.
Proof.
  intros T zero t x i Hi. unfold gather. transitivity (nth i (map (fun p => nth p x zero) t) (nth 0 x zero)).
  - apply nth_indep. rewrite map_length. exact Hi.
  - apply (map_nth (fun p => nth p x zero)).
Qed.

Section P.
Variable T : Type.
Variables (zero : T) (add : T -> T -> T) (lt0 sgn : T -> bool) (sgnz : T -> Z) (absT : T -> T) (psort : list T -> list nat).
Variables (E : nat) (Sn Si : Type).
Variable alt_n : Sn -> list T -> list T -> list T -> outcome (Sn * list T).
Variable alt_i : Si -> list T -> list T -> list T -> outcome (Si * list T).
Variables (m : InterleaverModel.itl) (lut lut_inv : list nat) (N tn ti n_ite : nat) (buffered fast : bool).
Notation K := (InterleaverModel.size m).
Notation nf := (InterleaverModel.npw m).
Notation tb fid f := (InterleaverProofs.block K (InterleaverProofs.lut_base m fid f) lut).
Notation tbi fid f := (InterleaverProofs.block K (InterleaverProofs.lut_base m fid f) lut_inv).
Notation deal := (deal zero nf).

Hypothesis Hnf : 0 < nf.
Hypothesis HW : nf = 1 \/ InterleaverModel.nf m = nf.
Hypothesis LU : InterleaverProofs.luts_ok m lut.
Hypothesis LI : InterleaverProofs.luts_ok m lut_inv.
Hypothesis HE : 0 < E.

Lemma itl_ok : forall table fid x o, InterleaverProofs.luts_ok m table -> K * nf <= length x -> K * nf <= length o ->
  exists o', itl T m table fid x o = Ret o' /\ length o' = length o /\
    (forall f, f < nf -> deal f K o' = gather T zero (InterleaverProofs.block K (InterleaverProofs.lut_base m fid f) table) (deal f K x)) /\
    (forall j, K * nf <= j -> nth j o' zero = nth j o zero).
Proof.
  intros table fid x o LT Lx Lo.
  assert (G : forall o', (forall f i, f < nf -> i < K -> nth (i * nf + f) o' zero = nth (nth i (InterleaverProofs.block K (InterleaverProofs.lut_base m fid f) table) 0 * nf + f) x zero) ->
     forall f, f < nf -> deal f K o' = gather T zero (InterleaverProofs.block K (InterleaverProofs.lut_base m fid f) table) (deal f K x)).
  { intros o' H f Hf. destruct LT as (Ll & Hc & HP). destruct (HP _ (InterleaverProofs.lut_base_lt m fid f Hc)) as (P1 & P2 & P3).
    apply (list_eq_nth _ zero). { rewrite length_deal. unfold gather. rewrite map_length. symmetry. exact P1. }
    intros i Hi. rewrite length_deal in Hi. rewrite nth_deal by exact Hi. rewrite H by assumption. rewrite nth_gather by (rewrite P1; exact Hi). rewrite nth_deal by (apply P2; exact Hi). reflexivity. }
  unfold itl. destruct (Nat.ltb_spec 1 nf) as [H1|H1].
  - destruct (InterleaverProofs.interleave_reordering_gather T zero m table fid x o LT) as (o' & Eo & L & V & R); [destruct HW; lia|lia|lia|].
    exists o'. split; [exact Eo|]. split; [exact L|]. split; [apply G; exact V|]. intros j Hj. apply R. lia.
  - destruct (InterleaverProofs.interleave_gather T zero m table fid x o LT) as (o' & Eo & L & V & R); [lia|lia|].
    exists o'. split; [exact Eo|]. split; [exact L|]. assert (nf = 1) as N1 by lia. split.
    + apply G. intros f i Hf Hi. assert (f = 0) as -> by lia. specialize (V 0 i Hf Hi). rewrite N1. cbn [Nat.mul Nat.add] in V. rewrite !Nat.mul_1_r, !Nat.add_0_r. exact V.
    + intros j Hj. apply R. lia.
Qed.

Lemma ceil_bound : forall n, n <= (n + E - 1) / E * E /\ (n + E - 1) / E * E <= n + E - 1.
Proof. intros n. pose proof (Nat.div_mod (n + E - 1) E ltac:(lia)) as D. pose proof (Nat.mod_upper_bound (n + E - 1) E ltac:(lia)). split; nia. Qed.

Lemma vadd_ok : forall a b o, K * nf + E <= length a -> K * nf + E <= length b -> K * nf + E <= length o ->
  exists o', vadd T add E fast a b o (K * nf) = Ret o' /\ length o' = length o /\
    (forall q, q < K * nf -> nth q o' zero = add (nth q a zero) (nth q b zero)).
Proof.
  intros a b o La Lb Lo. unfold vadd. destruct fast.
  - rewrite (for_blocks _ ((K * nf + E - 1) / E) E (fun q o => x <- rd a q;; y <- rd b q;; wr o q (add x y))).
    destruct (ceil_bound (K * nf)) as [C1 C2].
    destruct (for_fill T zero (fun q => add (nth q a zero) (nth q b zero)) ((K * nf + E - 1) / E * E) (fun q o => x <- rd a q;; y <- rd b q;; wr o q (add x y)) o) as (o' & Eo & L & I).
    + lia.
    + intros q x Hq Lx _. rewrite (rd_ok _ zero) by lia. cbn [bind]. rewrite (rd_ok _ zero) by lia. reflexivity.
    + exists o'. split; [exact Eo|]. split; [exact L|]. intros q Hq. rewrite I. destruct (Nat.ltb_spec q ((K * nf + E - 1) / E * E)); [reflexivity|lia].
  - destruct (for_fill T zero (fun q => add (nth q a zero) (nth q b zero)) (K * nf) (fun q o => x <- rd a q;; y <- rd b q;; wr o q (add x y)) o) as (o' & Eo & L & I).
    + lia.
    + intros q x Hq Lx _. rewrite (rd_ok _ zero) by lia. cbn [bind]. rewrite (rd_ok _ zero) by lia. reflexivity.
    + exists o'. split; [exact Eo|]. split; [exact L|]. intros q Hq. rewrite I. destruct (Nat.ltb_spec q (K * nf)); [reflexivity|lia].
Qed.
(** the values after the first K of each frame *)
Definition dtail (f t : nat) (b : list T) : list T := tab t (fun i => nth ((K + i) * nf + f) b zero).
Lemma deal_split : forall f t b, deal f (K + t) b = deal f K b ++ dtail f t b.
Proof.
  intros f t b. apply (list_eq_nth _ zero). { rewrite app_length, !length_deal. unfold dtail. rewrite length_tab. reflexivity. }
  intros i Hi. rewrite length_deal in Hi. rewrite nth_deal by exact Hi. destruct (Nat.lt_ge_cases i K).
  - rewrite app_nth1 by (rewrite length_deal; assumption). rewrite nth_deal by assumption. reflexivity.
  - rewrite app_nth2 by (rewrite length_deal; assumption). rewrite length_deal. unfold dtail. rewrite nth_tab by lia. do 3 f_equal. lia.
Qed.
Lemma deal_plus : forall f a b o, f < nf -> (forall q, q < K * nf -> nth q o zero = add (nth q a zero) (nth q b zero)) ->
  deal f K o = plus T zero add K (deal f K a) (deal f K b).
Proof.
  intros f a b o Hf H. apply tab_ext. intros i Hi. rewrite H by (apply deal_idx; assumption). rewrite !nth_deal by exact Hi. reflexivity.
Qed.
Lemma sys_ext_ok : forall sys ext t o, (K + t) * nf + E <= length sys -> K * nf + E <= length ext -> (K + t) * nf + E <= length o ->
  exists o', sys_ext T add E m fast sys ext t o = Ret o' /\ length o' = length o /\
    (forall f, f < nf -> deal f K o' = plus T zero add K (deal f K sys) (deal f K ext) /\ dtail f t o' = dtail f t sys).
Proof.
  intros sys ext t o Ls Le Lo. unfold sys_ext. destruct (vadd_ok sys ext o) as (o1 & E1 & L1 & I1); [nia|exact Le|nia|]. rewrite E1. cbn [bind].
  assert (X : exists o', (if fast then copy sys (K * nf) ((K + t) * nf - K * nf) o1 (K * nf) else for_from (K * nf) (t * nf) (fun i o => x <- rd sys i;; wr o i x) o1) = Ret o' /\ length o' = length o1 /\
     (forall q, q < K * nf -> nth q o' zero = nth q o1 zero) /\ (forall q, K * nf <= q < (K + t) * nf -> nth q o' zero = nth q sys zero)).
  { clear E1. destruct fast.
    - destruct (copy_spec T zero sys (K * nf) ((K + t) * nf - K * nf) o1 (K * nf)) as (o' & Eo & L & C & D); [lia|lia|]. exists o'. split; [exact Eo|]. split; [exact L|]. split.
      + intros q Hq. apply D. lia.
      + intros q Hq. replace q with (K * nf + (q - K * nf)) by lia. apply C. lia.
    - destruct (from_fill T zero (fun q => nth q sys zero) (t * nf) (K * nf) (fun i o => x <- rd sys i;; wr o i x) o1) as (o' & Eo & L & I); [lia| |].
      + intros q x Hq Lx _. rewrite (rd_ok _ zero) by lia. reflexivity.
      + exists o'. split; [exact Eo|]. split; [exact L|]. split; intros q Hq; rewrite I.
        * destruct (Nat.leb_spec (K * nf) q); [lia|reflexivity].
        * destruct (Nat.leb_spec (K * nf) q), (Nat.ltb_spec q (K * nf + t * nf)); try lia; reflexivity. }
  destruct X as (o' & Eo & L' & A & B). exists o'. split; [exact Eo|]. split; [congruence|]. intros f Hf. split.
  - apply deal_plus; [exact Hf|]. intros q Hq. rewrite A by exact Hq. apply I1. exact Hq.
  - apply tab_ext. intros i Hi. apply B. split; [nia|]. nia.
Qed.

(** The decisions *)
Hypothesis SG : forall x, sgn x = lt0 x.
Lemma hard_ok : forall inp s, K * nf <= length inp -> length s = K * nf ->
  hard_decide T lt0 sgn E inp (K * nf) s = Ret (tab (K * nf) (fun q => bitz (lt0 (nth q inp zero)))).
Proof.
  intros inp s Li Ls. unfold hard_decide. set (n := K * nf) in *. set (w := n / E). assert (Hw : w * E <= n) by (unfold w; rewrite Nat.mul_comm; apply Nat.mul_div_le; lia).
  assert (EQ : forall s, length s = n -> for_ w (fun b out => q <- load T E inp (b * E) ;; store E out (b * E) (map (fun x => bitz (sgn x)) q)) s = for_ (w * E) (fun q out => x <- rd inp q ;; wr out q (bitz (lt0 x))) s).
  { intros s0 L0. rewrite <- for_blocks. apply for_ext. intros b s1 Hb. assert (b * E + E <= w * E) by nia. unfold load. destruct (Nat.leb_spec (b * E + E) (length inp)); [|lia]. cbn [bind]. unfold store. apply for_ext.
    intros j s2 Hj. rewrite (rd_ok _ (bitz (sgn zero))) by (rewrite map_length, firstn_length, skipn_length; lia). cbn [bind]. rewrite (map_nth (fun x => bitz (sgn x))). rewrite firstn_nth by exact Hj. rewrite skipn_nth. rewrite (rd_ok _ zero) by lia. cbn [bind]. rewrite SG. reflexivity. }
  rewrite EQ by exact Ls.
  destruct (for_fill Z 0%Z (fun q => bitz (lt0 (nth q inp zero))) (w * E) (fun q out => x <- rd inp q ;; wr out q (bitz (lt0 x))) s) as (s1 & E1 & L1 & I1); [lia| |].
  { intros q x Hq Lx _. rewrite (rd_ok _ zero) by lia. reflexivity. }
  rewrite E1. cbn [bind]. unfold hard_seq.
  assert (SH : for_ (n - w * E) (fun i out => x <- rd inp (w * E + i);; wr out (w * E + i) (bitz (lt0 x))) s1 = for_from (w * E) (n - w * E) (fun q out => x <- rd inp q;; wr out q (bitz (lt0 x))) s1).
  { unfold for_. etransitivity; [|symmetry; apply (for_from_shift (list Z) (n - w * E) 0 (w * E))]. apply for_from_ext. intros i s2 _. rewrite (Nat.add_comm i). reflexivity. }
  fold w. rewrite SH.
  destruct (from_fill Z 0%Z (fun q => bitz (lt0 (nth q inp zero))) (n - w * E) (w * E) (fun q out => x <- rd inp q ;; wr out q (bitz (lt0 x))) s1) as (s2 & E2 & L2 & I2); [lia| |].
  { intros q x Hq Lx _. rewrite (rd_ok _ zero) by lia. reflexivity. }
  rewrite E2. f_equal. apply (eq_tab _ 0%Z); [lia|]. intros q Hq. rewrite I2, I1. destruct (Nat.leb_spec (w * E) q), (Nat.ltb_spec q (w * E + (n - w * E))), (Nat.ltb_spec q (w * E)); try lia; reflexivity.
Qed.
Lemma crc_decide_ok : forall sys ext s, K * nf <= length sys -> K * nf <= length ext -> length s = K * nf ->
  crc_decide T add lt0 sgn E sys ext s = Ret (tab (K * nf) (fun q => bitz (lt0 (add (nth q sys zero) (nth q ext zero))))).
Proof.
  intros sys ext s Lx Le Ls. unfold crc_decide. rewrite Ls. set (n := K * nf) in *. set (w := n / E). assert (Hw : w * E <= n) by (unfold w; rewrite Nat.mul_comm; apply Nat.mul_div_le; lia).
  rewrite (for_blocks _ w E (fun q s => x <- rd sys q ;; y <- rd ext q ;; wr s q (bitz (sgn (add x y))))).
  set (F := fun q => bitz (lt0 (add (nth q sys zero) (nth q ext zero)))).
  destruct (for_fill Z 0%Z F (w * E) (fun q s => x <- rd sys q ;; y <- rd ext q ;; wr s q (bitz (sgn (add x y)))) s) as (s1 & E1 & L1 & I1); [lia| |].
  { intros q x Hq Lq _. rewrite (rd_ok _ zero) by lia. cbn [bind]. rewrite (rd_ok _ zero) by lia. cbn [bind]. rewrite SG. reflexivity. }
  rewrite E1. cbn [bind]. rewrite L1, Ls.
  destruct (from_fill Z 0%Z F (n - w * E) (w * E) (fun i s => x <- rd sys i ;; y <- rd ext i ;; wr s i (bitz (lt0 (add x y)))) s1) as (s2 & E2 & L2 & I2); [lia| |].
  { intros q x Hq Lq _. rewrite (rd_ok _ zero) by lia. cbn [bind]. rewrite (rd_ok _ zero) by lia. reflexivity. }
  fold w. rewrite E2. f_equal. apply (eq_tab _ 0%Z); [lia|]. intros q Hq. rewrite I2, I1. unfold F. destruct (Nat.leb_spec (w * E) q), (Nat.ltb_spec q (w * E + (n - w * E))), (Nat.ltb_spec q (w * E)); try lia; reflexivity.
Qed.

(** ** Loading a wave *)
Hypothesis HN : N = 3 * K + 2 * tn + 2 * ti.
Variable v : nat.
Hypothesis EV : E = 2 ^ v.
Hypothesis HF : fast = true -> nf = 1 \/ nf = E \/ nf = E / 8.

Definition fr (Y : list T) (f : nat) : list T := firstn N (skipn (f * N) Y).
Lemma nth_fr : forall Y f i, i < N -> nth i (fr Y f) zero = nth (f * N + i) Y zero.
Proof. intros. unfold fr. rewrite firstn_nth by assumption. rewrite skipn_nth. reflexivity. Qed.

Lemma reorder_ok : forall Y off o d len, nf <> 1 -> length Y = nf * N -> off + len <= N -> d + len * nf <= length o ->
  exists o', reorder T zero E m N fast Y off o d len = Ret o' /\ length o' = length o /\
    (forall i f, i < len -> f < nf -> nth (d + (i * nf + f)) o' zero = nth (off + i) (fr Y f) zero) /\
    (forall q, q < d -> nth q o' zero = nth q o zero).
Proof.
  intros Y off o d len H1 LY HO HD. unfold reorder. destruct (Nat.ltb_spec (length o) d); [lia|].
  assert (LF : length (frames_of T N nf off Y) = nf) by apply length_tab.
  assert (Lf : forall f, f < length (frames_of T N nf off Y) -> len <= length (nth f (frames_of T N nf off Y) [])).
  { rewrite LF. intros f Hf. unfold frames_of. rewrite nth_tab by exact Hf. rewrite skipn_length, LY. nia. }
  assert (Lo : length (frames_of T N nf off Y) * len <= length (skipn d o)) by (rewrite LF, skipn_length; nia).
  assert (X : exists r, (if fast then let n := if nf =? E then E else E / 8 in ReorderModel.static_apply T zero E n (frames_of T N n off Y) (skipn d o) len
        else ReorderModel.apply T zero E (frames_of T N nf off Y) (skipn d o) len) = Ret r /\ mixes zero (frames_of T N nf off Y) len (skipn d o) r).
  { destruct fast.
    - assert (EN : (if nf =? E then E else E / 8) = nf). { destruct (Nat.eqb_spec nf E); [congruence|]. destruct (HF eq_refl) as [?|[?|?]]; congruence. }
      cbv zeta. rewrite EN. rewrite EV. apply (C53_apply_static T zero v nf _ len _ Lf Lo). exact LF.
    - rewrite EV. apply (C53_apply T zero v); assumption. }
  destruct X as (r & Er & LR & MX & _). cbv zeta in Er. rewrite Er. cbn [bind]. eexists. split; [reflexivity|]. rewrite skipn_length in LR.
  assert (L1 : length (firstn d o) = d) by (rewrite firstn_length; lia). split; [rewrite app_length; lia|]. rewrite LF in MX. split.
  - intros i f Hi Hf. rewrite app_nth2 by lia. rewrite L1. replace (d + (i * nf + f) - d) with (i * nf + f) by lia. rewrite MX by assumption. unfold frames_of. rewrite nth_tab by exact Hf. rewrite skipn_nth. rewrite nth_fr by lia. f_equal. lia.
  - intros q Hq. rewrite app_nth1 by lia. apply firstn_nth. exact Hq.
Qed.

(** The five arrays of a loaded wave *)
Definition loaded (fid : nat) (Y sn pn si p : list T) : Prop := forall f, f < nf ->
  deal f K sn = sys_n T zero K buffered (fr Y f) /\ dtail f tn sn = tail_n T zero K tn buffered (fr Y f) /\
  deal f (K + tn) pn = par_n T zero K tn buffered (fr Y f) /\
  deal f K si = gather T zero (tb fid f) (sys_n T zero K buffered (fr Y f)) /\ dtail f ti si = tail_i T zero K tn ti buffered (fr Y f) /\
  deal f (K + ti) p = par_i T zero K tn ti buffered (fr Y f).

Record sized (d : tdec T Sn Si) : Prop := {
  z_sn : length (t_sn _ _ _ d) = (K + tn) * nf + E; z_si : length (t_si _ _ _ d) = (K + ti) * nf + E;
  z_sen : length (t_sen _ _ _ d) = (K + tn) * nf + E; z_sei : length (t_sei _ _ _ d) = (K + ti) * nf + E;
  z_pn : length (t_pn _ _ _ d) = (K + tn) * nf + E; z_pi : length (t_pi _ _ _ d) = (K + ti) * nf + E;
  z_e1n : length (t_e1n _ _ _ d) = K * nf + E; z_e2n : length (t_e2n _ _ _ d) = K * nf + E;
  z_e1i : length (t_e1i _ _ _ d) = K * nf + E; z_e2i : length (t_e2i _ _ _ d) = K * nf + E; z_s : length (t_s _ _ _ d) = K * nf }.

Lemma deal_tab : forall f n b g, (forall i, i < n -> nth (i * nf + f) b zero = g i) -> deal f n b = tab n g.
Proof. intros f n b g H. apply tab_ext. exact H. Qed.
Lemma deal_eq : forall f n b b', (forall i, i < n -> nth (i * nf + f) b zero = nth (i * nf + f) b' zero) -> deal f n b = deal f n b'.
Proof. intros. apply tab_ext. assumption. Qed.

Lemma buffered_ok : forall Y fid d, buffered = true -> sized d -> length Y = nf * N ->
  exists sn pn si p e1n, buffered_load T zero E Sn Si m lut N tn ti fast Y fid d = Ret (sn, pn, si, p, e1n) /\ loaded fid Y sn pn si p /\
    length sn = (K + tn) * nf + E /\ length pn = (K + tn) * nf + E /\ length si = (K + ti) * nf + E /\ length p = (K + ti) * nf + E /\
    length e1n = K * nf + E /\ (forall q, nth q e1n zero = zero).
Proof.
  intros Y fid d HB Z LY. destruct Z. unfold buffered_load. set (Nn := 2 * (K + tn)).
  assert (X : exists sn pn si p, (if nf =? 1 then
       sn <- copy Y 0 (K + tn) (t_sn _ _ _ d) 0 ;;
       pn <- copy Y (K + tn) (Nn - (K + tn)) (t_pn _ _ _ d) 0 ;;
       si <- copy Y Nn ti (t_si _ _ _ d) K ;;
       p <- copy Y (Nn + ti) (N - (Nn + ti)) (t_pi _ _ _ d) 0 ;;
       Ret (sn, pn, si, p)
     else
       sn <- reorder T zero E m N fast Y 0 (t_sn _ _ _ d) 0 (K + tn) ;;
       pn <- reorder T zero E m N fast Y (K + tn) (t_pn _ _ _ d) 0 (K + tn) ;;
       si <- reorder T zero E m N fast Y Nn (t_si _ _ _ d) (K * nf) ti ;;
       p <- reorder T zero E m N fast Y (Nn + ti) (t_pi _ _ _ d) 0 (K + ti) ;;
       Ret (sn, pn, si, p)) = Ret (sn, pn, si, p) /\
      length sn = (K + tn) * nf + E /\ length pn = (K + tn) * nf + E /\ length si = (K + ti) * nf + E /\ length p = (K + ti) * nf + E /\
      forall f, f < nf -> (forall i, i < K + tn -> nth (i * nf + f) sn zero = nth i (fr Y f) zero) /\ (forall i, i < K + tn -> nth (i * nf + f) pn zero = nth (K + tn + i) (fr Y f) zero) /\
        (forall i, i < ti -> nth ((K + i) * nf + f) si zero = nth (Nn + i) (fr Y f) zero) /\ (forall i, i < K + ti -> nth (i * nf + f) p zero = nth (Nn + ti + i) (fr Y f) zero)).
  { destruct (Nat.eqb_spec nf 1) as [N1|N1].
    - rewrite N1 in *. 
      destruct (copy_spec T zero Y 0 (K + tn) (t_sn _ _ _ d) 0) as (sn & -> & L1 & C1 & _); [lia|lia|]. cbn [bind].
      destruct (copy_spec T zero Y (K + tn) (Nn - (K + tn)) (t_pn _ _ _ d) 0) as (pn & -> & L2 & C2 & _); [lia|lia|]. cbn [bind].
      destruct (copy_spec T zero Y Nn ti (t_si _ _ _ d) K) as (si & -> & L3 & C3 & _); [lia|lia|]. cbn [bind].
      destruct (copy_spec T zero Y (Nn + ti) (N - (Nn + ti)) (t_pi _ _ _ d) 0) as (p & -> & L4 & C4 & _); [lia|lia|]. cbn [bind].
      exists sn, pn, si, p. split; [reflexivity|]. repeat (split; [lia|]). intros f Hf. assert (f = 0) as -> by lia.
      repeat split; intros i Hi; rewrite Nat.mul_1_r, Nat.add_0_r, nth_fr by lia; cbn [Nat.mul Nat.add].
      + apply (C1 i); lia. + apply (C2 i); lia. + apply (C3 i); lia. + apply (C4 i); lia.
    - destruct (reorder_ok Y 0 (t_sn _ _ _ d) 0 (K + tn) N1 LY) as (sn & -> & L1 & C1 & _); [lia|lia|]. cbn [bind].
      destruct (reorder_ok Y (K + tn) (t_pn _ _ _ d) 0 (K + tn) N1 LY) as (pn & -> & L2 & C2 & _); [lia|lia|]. cbn [bind].
      destruct (reorder_ok Y Nn (t_si _ _ _ d) (K * nf) ti N1 LY) as (si & -> & L3 & C3 & _); [lia|lia|]. cbn [bind].
      destruct (reorder_ok Y (Nn + ti) (t_pi _ _ _ d) 0 (K + ti) N1 LY) as (p & -> & L4 & C4 & _); [lia|lia|]. cbn [bind].
      exists sn, pn, si, p. split; [reflexivity|]. repeat (split; [lia|]). intros f Hf.
      repeat split; intros i Hi.
      + apply (C1 i f); lia. + apply (C2 i f); lia. + rewrite <- (C3 i f) by lia. f_equal. lia. + apply (C4 i f); lia. }
  destruct X as (sn & pn & si & p & -> & L1 & L2 & L3 & L4 & V). cbn [bind].
  destruct (itl_ok lut fid sn si LU) as (si' & -> & Ls & Vs & Us); [nia|nia|]. cbn [bind].
  destruct (fill_spec T zero (length (t_e1n _ _ _ d)) (t_e1n _ _ _ d) 0 zero) as (e1n & -> & Le & Ve & Ue); [lia|]. cbn [bind].
  exists sn, pn, si', p, e1n. split; [reflexivity|]. split; [|do 5 (split; [lia|])].
  - intros f Hf. destruct (V f Hf) as (V1 & V2 & V3 & V4). rewrite (Vs f Hf).
    assert (D1 : deal f K sn = sys_n T zero K buffered (fr Y f)). { apply deal_tab. intros i Hi. rewrite V1 by lia. rewrite HB. reflexivity. }
    split; [exact D1|]. split; [|split; [|split; [rewrite D1; reflexivity|split]]].
    + apply tab_ext. intros i Hi. rewrite V1 by lia. rewrite HB. reflexivity.
    + apply deal_tab. intros i Hi. rewrite V2 by lia. rewrite HB. reflexivity.
    + apply tab_ext. intros i Hi. rewrite Us by nia. rewrite V3 by lia. rewrite HB. reflexivity.
    + apply deal_tab. intros i Hi. rewrite V4 by lia. rewrite HB. reflexivity.
  - intros q. destruct (Nat.lt_ge_cases q (length (t_e1n _ _ _ d))) as [Hq|Hq]; [exact (Ve q Hq)|]. rewrite nth_overflow by lia. reflexivity.
Qed.

Lemma standard_ok : forall Y fid d, buffered = false -> sized d -> length Y = nf * N ->
  exists sn pn si p e1n, standard_load T zero Sn Si m lut tn ti Y fid d = Ret (sn, pn, si, p, e1n) /\ loaded fid Y sn pn si p /\
    length sn = (K + tn) * nf + E /\ length pn = (K + tn) * nf + E /\ length si = (K + ti) * nf + E /\ length p = (K + ti) * nf + E /\
    length e1n = K * nf + E /\ (forall q, nth q e1n zero = zero).
Proof.
  intros Y fid d HB Z LY. destruct Z. unfold standard_load. rewrite <- HN.
  rewrite (for_blocks2 _ K nf (fun i j (st : list T * list T * list T) =>
     let '(sn, pn, p) := st in
     a <- rd Y (j * N + i * 3 + 0) ;; sn <- wr sn (i * nf + j) a ;;
     a <- rd Y (j * N + i * 3 + 1) ;; pn <- wr pn (i * nf + j) a ;;
     a <- rd Y (j * N + i * 3 + 2) ;; p <- wr p (i * nf + j) a ;;
     Ret (sn, pn, p))) by exact Hnf.
  destruct (fill3 T zero (fun q => nth (q mod nf * N + q / nf * 3 + 0) Y zero) (fun q => nth (q mod nf * N + q / nf * 3 + 1) Y zero) (fun q => nth (q mod nf * N + q / nf * 3 + 2) Y zero) (K * nf)
    (fun q (st : list T * list T * list T) => let '(sn, pn, p) := st in
     a <- rd Y (q mod nf * N + q / nf * 3 + 0) ;; sn <- wr sn (q / nf * nf + q mod nf) a ;;
     a <- rd Y (q mod nf * N + q / nf * 3 + 1) ;; pn <- wr pn (q / nf * nf + q mod nf) a ;;
     a <- rd Y (q mod nf * N + q / nf * 3 + 2) ;; p <- wr p (q / nf * nf + q mod nf) a ;;
     Ret (sn, pn, p)) (t_sn _ _ _ d) (t_pn _ _ _ d) (t_pi _ _ _ d)) as (sn & pn & p & -> & L1 & L2 & L3 & V); [nia|nia|nia| |].
  { intros q a b c Hq La Lb Lc. pose proof (Nat.div_mod q nf ltac:(lia)) as DM. pose proof (Nat.mod_upper_bound q nf ltac:(lia)) as MU. assert (q / nf < K) by (apply Nat.div_lt_upper_bound; lia).
    assert (Q : q / nf * nf + q mod nf = q) by lia. assert (q mod nf * N + N <= nf * N) by nia. rewrite Q. assert (q < length a /\ q < length b /\ q < length c) as (? & ? & ?) by nia.
    rewrite (rd_ok _ zero) by lia. cbn [bind]. rewrite wr_ok by lia. cbn [bind]. rewrite (rd_ok _ zero) by lia. cbn [bind]. rewrite wr_ok by lia. cbn [bind]. rewrite (rd_ok _ zero) by lia. cbn [bind]. rewrite wr_ok by lia. cbn [bind]. reflexivity. }
  cbn [bind]. destruct (itl_ok lut fid sn (t_si _ _ _ d) LU) as (si & -> & Ls & Vs & Us); [nia|nia|]. cbn [bind].
  rewrite (for_blocks2 _ tn nf (fun i j (st : list T * list T) =>
     let '(sn, pn) := st in
     a <- rd Y (j * N + K * 3 + 2 * i + 0) ;; sn <- wr sn ((K + i) * nf + j) a ;;
     a <- rd Y (j * N + K * 3 + 2 * i + 1) ;; pn <- wr pn ((K + i) * nf + j) a ;;
     Ret (sn, pn))) by exact Hnf.
  match goal with |- context [for_ (tn * nf) ?b _] => destruct (fill2 T zero (fun q => nth (q mod nf * N + K * 3 + 2 * (q / nf) + 0) Y zero) (fun q => nth (q mod nf * N + K * 3 + 2 * (q / nf) + 1) Y zero) (tn * nf) (K * nf) b sn pn) as (sn' & pn' & E2 & L1' & L2' & V' & U'); [nia|nia| |] end.
  { intros q a b Hq La Lb. pose proof (Nat.div_mod q nf ltac:(lia)) as DM. pose proof (Nat.mod_upper_bound q nf ltac:(lia)) as MU. assert (q / nf < tn) by (apply Nat.div_lt_upper_bound; lia).
    assert (Q : (K + q / nf) * nf + q mod nf = K * nf + q) by lia. assert (q mod nf * N + N <= nf * N) by nia. rewrite Q. assert (K * nf + q < length a /\ K * nf + q < length b) as (? & ?) by nia.
    rewrite (rd_ok _ zero) by lia. cbn [bind]. rewrite wr_ok by lia. cbn [bind]. rewrite (rd_ok _ zero) by lia. cbn [bind]. rewrite wr_ok by lia. cbn [bind]. reflexivity. }
  rewrite E2. clear E2. cbn [bind].
  rewrite (for_blocks2 _ ti nf (fun i j (st : list T * list T) =>
     let '(si, p) := st in
     a <- rd Y (j * N + K * 3 + 2 * tn + 2 * i + 0) ;; si <- wr si ((K + i) * nf + j) a ;;
     a <- rd Y (j * N + K * 3 + 2 * tn + 2 * i + 1) ;; p <- wr p ((K + i) * nf + j) a ;;
     Ret (si, p))) by exact Hnf.
  match goal with |- context [for_ (ti * nf) ?b _] => destruct (fill2 T zero (fun q => nth (q mod nf * N + K * 3 + 2 * tn + 2 * (q / nf) + 0) Y zero) (fun q => nth (q mod nf * N + K * 3 + 2 * tn + 2 * (q / nf) + 1) Y zero) (ti * nf) (K * nf) b si p) as (si' & p' & E3 & L3' & L4' & V'' & U''); [nia|nia| |] end.
  { intros q a b Hq La Lb. pose proof (Nat.div_mod q nf ltac:(lia)) as DM. pose proof (Nat.mod_upper_bound q nf ltac:(lia)) as MU. assert (q / nf < ti) by (apply Nat.div_lt_upper_bound; lia).
    assert (Q : (K + q / nf) * nf + q mod nf = K * nf + q) by lia. assert (q mod nf * N + N <= nf * N) by nia. rewrite Q. assert (K * nf + q < length a /\ K * nf + q < length b) as (? & ?) by nia.
    rewrite (rd_ok _ zero) by lia. cbn [bind]. rewrite wr_ok by lia. cbn [bind]. rewrite (rd_ok _ zero) by lia. cbn [bind]. rewrite wr_ok by lia. cbn [bind]. reflexivity. }
  rewrite E3. clear E3. cbn [bind].
  destruct (fill_spec T zero (length (t_e1n _ _ _ d)) (t_e1n _ _ _ d) 0 zero) as (e1n & -> & Le & Ve & Ue); [lia|]. cbn [bind].
  exists sn', pn', si', p', e1n. split; [reflexivity|]. split; [|do 5 (split; [lia|])].
  - intros f Hf.
    assert (A1 : forall i, i < K -> nth (i * nf + f) sn' zero = nth (3 * i) (fr Y f) zero /\ nth (i * nf + f) sn' zero = nth (i * nf + f) sn zero /\ nth (i * nf + f) pn' zero = nth (3 * i + 1) (fr Y f) zero /\ nth (i * nf + f) p' zero = nth (3 * i + 2) (fr Y f) zero /\ nth (i * nf + f) si' zero = nth (i * nf + f) si zero).
    { intros i Hi. pose proof (deal_idx K nf i f Hf Hi) as Q. destruct (U' (i * nf + f)) as [X1 X2]; [lia|]. destruct (U'' (i * nf + f)) as [X3 X4]; [lia|]. rewrite X1, X2, X3, X4. destruct (V (i * nf + f) Q) as (Y1 & Y2 & Y3). rewrite Y1, Y2, Y3. destruct (idx_dm nf i f Hf) as [-> ->].
      rewrite !nth_fr by lia. repeat split; f_equal; lia. }
    assert (A2 : forall i, i < tn -> nth ((K + i) * nf + f) sn' zero = nth (3 * K + 2 * i) (fr Y f) zero /\ nth ((K + i) * nf + f) pn' zero = nth (3 * K + 2 * i + 1) (fr Y f) zero).
    { intros i Hi. destruct (V' (i * nf + f) (deal_idx tn nf i f Hf Hi)) as [Y1 Y2]. destruct (idx_dm nf i f Hf) as [D1 D2]. rewrite D1, D2 in Y1, Y2. replace ((K + i) * nf + f) with (K * nf + (i * nf + f)) by lia. rewrite Y1, Y2.
      rewrite !nth_fr by lia. split; f_equal; lia. }
    assert (A3 : forall i, i < ti -> nth ((K + i) * nf + f) si' zero = nth (3 * K + 2 * tn + 2 * i) (fr Y f) zero /\ nth ((K + i) * nf + f) p' zero = nth (3 * K + 2 * tn + 2 * i + 1) (fr Y f) zero).
    { intros i Hi. destruct (V'' (i * nf + f) (deal_idx ti nf i f Hf Hi)) as [Y1 Y2]. destruct (idx_dm nf i f Hf) as [D1 D2]. rewrite D1, D2 in Y1, Y2. replace ((K + i) * nf + f) with (K * nf + (i * nf + f)) by lia. rewrite Y1, Y2.
      rewrite !nth_fr by lia. split; f_equal; lia. }
    assert (D1 : deal f K sn' = sys_n T zero K buffered (fr Y f)). { apply deal_tab. intros i Hi. destruct (A1 i Hi) as (-> & _). unfold pos_sn. rewrite HB. destruct (Nat.ltb_spec i K); [reflexivity|lia]. }
    assert (D2 : deal f K sn = deal f K sn'). { apply deal_eq. intros i Hi. symmetry. apply A1. exact Hi. }
    split; [exact D1|]. split; [|split; [|split; [|split]]].
    + apply tab_ext. intros i Hi. destruct (A2 i Hi) as (-> & _). unfold pos_sn. rewrite HB. destruct (Nat.ltb_spec (K + i) K); [lia|]. do 3 f_equal. lia.
    + apply deal_tab. intros i Hi. unfold pos_pn. rewrite HB. destruct (Nat.ltb_spec i K) as [C|C]; [apply A1; exact C|]. replace (i * nf + f) with ((K + (i - K)) * nf + f) by (f_equal; f_equal; lia). apply A2. lia.
    + transitivity (deal f K si); [apply deal_eq; intros i Hi; apply A1; exact Hi|]. rewrite (Vs f Hf), D2, D1. reflexivity.
    + apply tab_ext. intros i Hi. destruct (A3 i Hi) as (-> & _). unfold pos_ti. rewrite HB. reflexivity.
    + apply deal_tab. intros i Hi. unfold pos_pi. rewrite HB. destruct (Nat.ltb_spec i K) as [C|C]; [apply A1; exact C|]. replace (i * nf + f) with ((K + (i - K)) * nf + f) by (f_equal; f_equal; lia). apply A3. lia.
  - intros q. destruct (Nat.lt_ge_cases q (length (t_e1n _ _ _ d))) as [Hq|Hq]; [exact (Ve q Hq)|]. rewrite nth_overflow by lia. reflexivity.
Qed.

(** ** Post-processings *)
Definition scales (scs : list ((nat -> T -> T) * (nat -> T -> T))) : list (pp T) := map (fun p => PScale T (fst p) (snd p)) scs.
Definition comp_n (scs : list ((nat -> T -> T) * (nat -> T -> T))) (k : nat) (x : T) : T := fold_left (fun x p => fst p k x) scs x.
Definition comp_i (scs : list ((nat -> T -> T) * (nat -> T -> T))) (k : nat) (x : T) : T := fold_left (fun x p => snd p k x) scs x.
Notation Pn := (pps_n T zero add lt0 sgn sgnz absT psort E).
Notation Pi := (pps_i T zero sgnz).
Lemma pps_n_scales : forall scs ite sys ext s l, Pn ite sys ext s (scales scs ++ l) =
  ('(b, e, s', l') <- Pn ite sys (map (comp_n scs ite) ext) s l ;; Ret (b, e, s', scales scs ++ l')).
Proof.
  induction scs as [|[fn fi] scs IH]; intros ite sys ext s l.
  - cbn [scales map app comp_n fold_left]. rewrite (map_ext (comp_n [] ite) (fun x => x)) by reflexivity. rewrite map_id. destruct (Pn ite sys ext s l) as [[[[b e] s'] l']| |]; reflexivity.
  - cbn [scales map app fst snd pps_n pp_n bind]. fold (scales scs). rewrite IH. rewrite map_map. change (fun x => comp_n scs ite (fn ite x)) with (comp_n ((fn, fi) :: scs) ite).
    destruct (Pn ite sys (map (comp_n ((fn, fi) :: scs) ite) ext) s l) as [[[[b e] s'] l']| |]; reflexivity.
Qed.
Lemma pps_i_scales : forall scs ite sys ext l, Pi ite sys ext (scales scs ++ l) =
  ('(b, e, l') <- Pi ite sys (map (comp_i scs ite) ext) l ;; Ret (b, e, scales scs ++ l')).
Proof.
  induction scs as [|[fn fi] scs IH]; intros ite sys ext l.
  - cbn [scales map app comp_i fold_left]. rewrite (map_ext (comp_i [] ite) (fun x => x)) by reflexivity. rewrite map_id. destruct (Pi ite sys ext l) as [[[b e] l']| |]; reflexivity.
  - cbn [scales map app fst snd pps_i pp_i bind]. fold (scales scs). rewrite IH. rewrite map_map. change (fun x => comp_i scs ite (fi ite x)) with (comp_i ((fn, fi) :: scs) ite).
    destruct (Pi ite sys (map (comp_i ((fn, fi) :: scs) ite) ext) l) as [[[b e] l']| |]; reflexivity.
Qed.
Definition quiet (p : pp T) : Prop := match p with PCrc _ _ _ | PFnc _ _ _ _ _ _ _ => True | _ => False end.
Lemma pps_i_quiet : forall l ite sys ext, Forall quiet l -> Pi ite sys ext l = Ret (false, ext, l).
Proof.
  induction l as [|p l IH]; intros ite sys ext Q; [reflexivity|]. inversion Q; subst. cbn [pps_i]. destruct p; try contradiction; cbn [pp_i bind]; rewrite IH by assumption; reflexivity.
Qed.
Lemma deal_map : forall f n g b, f < nf -> n * nf <= length b -> deal f n (map g b) = map g (deal f n b).
Proof.
  intros f n g b Hf L. unfold TurboDecSpec.deal, tab. rewrite map_map. apply map_ext_in. intros i Hi. apply in_seq in Hi. 
  rewrite (nth_indep _ zero (g zero)) by (rewrite map_length; nia). apply map_nth.
Qed.

(** ** One iteration *)
Variables (Gn Gi : list T -> list T -> list T) (okn : Sn -> Prop) (oki : Si -> Prop).
Hypothesis CN : computes zero nf K tn alt_n Gn okn.
Hypothesis CI : computes zero nf K ti alt_i Gi oki.
Variable scs : list ((nat -> T -> T) * (nat -> T -> T)).
Notation AP fid Y f k := (apriori T zero add Gn Gi K tn ti buffered (tb fid f) (tbi fid f) (comp_n scs) (comp_i scs) (fr Y f) k).
Notation AN fid Y f k := (after_n T zero add Gn K tn buffered (comp_n scs) (fr Y f) k (AP fid Y f (k - 1))).
Notation PN fid Y f k := (post_n T zero add Gn Gi K tn ti buffered (tb fid f) (tbi fid f) (comp_n scs) (comp_i scs) (fr Y f) k).
Notation PI fid Y f k := (post_i T zero add Gn Gi K tn ti buffered (tb fid f) (tbi fid f) (comp_n scs) (comp_i scs) (fr Y f) k).
Notation sysn Y f := (sys_n T zero K buffered (fr Y f)).
Notation HD l := (map (hard lt0) l).

Record ready (fid : nat) (Y : list T) (d : tdec T Sn Si) : Prop := {
  r_sized : sized d; r_load : loaded fid Y (t_sn _ _ _ d) (t_pn _ _ _ d) (t_si _ _ _ d) (t_pi _ _ _ d); r_n : okn (t_n _ _ _ d); r_i : oki (t_i _ _ _ d) }.

Lemma mix_hard : forall b fr', (forall f, f < nf -> deal f K b = fr' f) -> tab (K * nf) (fun q => bitz (lt0 (nth q b zero))) = mix 0%Z nf K (fun f => HD (fr' f)).
Proof.
  intros b fr' H. unfold mix. apply tab_ext. intros q Hq. pose proof (Nat.mod_upper_bound q nf ltac:(lia)) as MU. assert (QK : q / nf < K) by (apply Nat.div_lt_upper_bound; lia).
  rewrite <- (H (q mod nf) MU). rewrite (nth_indep _ 0%Z (hard lt0 zero)) by (rewrite map_length, length_deal; exact QK). rewrite (map_nth (hard lt0)). rewrite nth_deal by exact QK.
  replace (q / nf * nf + q mod nf) with q; [reflexivity|]. rewrite Nat.mul_comm. apply Nat.div_mod. lia.
Qed.

Lemma iteration_ok : forall fid Y ite d chk (Q : bool -> list Z -> list (pp T) -> Prop), 1 <= ite -> ready fid Y d -> t_pps _ _ _ d = scales scs ++ chk ->
  (forall f, f < nf -> deal f K (t_e1n _ _ _ d) = AP fid Y f (ite - 1)) ->
  (forall sen e2n, K * nf <= length sen -> length e2n = K * nf + E -> (forall f, f < nf -> deal f K sen = plus T zero add K (sysn Y f) (AP fid Y f (ite - 1))) ->
     (forall f, f < nf -> deal f K e2n = AN fid Y f ite) ->
     exists stop s' chk', Pn ite sen e2n (t_s _ _ _ d) chk = Ret (stop, e2n, s', chk') /\ length s' = K * nf /\ Forall quiet chk' /\ Q stop s' chk') ->
  exists stop d' s' chk', iteration T zero add lt0 sgn sgnz absT psort E Sn Si alt_n alt_i m lut lut_inv tn ti n_ite fast fid ite d = Ret (stop, d') /\
    ready fid Y d' /\ t_pps _ _ _ d' = scales scs ++ chk' /\ Q stop s' chk' /\
    (stop = true -> t_s _ _ _ d' = s') /\
    (stop = false -> (forall f, f < nf -> deal f K (t_e1n _ _ _ d') = if ite =? n_ite then PI fid Y f ite else AP fid Y f ite) /\
       t_s _ _ _ d' = if ite =? n_ite then mix 0%Z nf K (fun f => HD (PI fid Y f ite)) else s').
Proof.
  intros fid Y ite d chk Q H1 R EP HA HC. destruct R as [Z LD RN RI]. unfold iteration. pose proof Z as Z0. destruct Z0.
  destruct (sys_ext_ok (t_sn _ _ _ d) (t_e1n _ _ _ d) tn (t_sen _ _ _ d)) as (sen & -> & Lsen & Vsen); [lia|lia|lia|]. cbn [bind].
  destruct CN as [GN CN']. destruct (CN' (t_n _ _ _ d) sen (t_pn _ _ _ d) (t_e2n _ _ _ d) RN) as (n' & e2n & -> & RN' & Le2n & Ve2n); [lia|lia|lia|]. cbn [bind].
  rewrite EP, pps_n_scales. set (e2n' := map (comp_n scs ite) e2n).
  assert (Le : length e2n' = K * nf + E) by (unfold e2n'; rewrite map_length; lia).
  assert (VA : forall f, f < nf -> deal f K sen = plus T zero add K (sysn Y f) (AP fid Y f (ite - 1))).
  { intros f Hf. destruct (Vsen f Hf) as [-> _]. rewrite (HA f Hf). destruct (LD f Hf) as (-> & _). reflexivity. }
  assert (VB : forall f, f < nf -> deal f K e2n' = AN fid Y f ite).
  { intros f Hf. unfold e2n'. rewrite deal_map by lia. rewrite (Ve2n f Hf). rewrite (deal_split f tn sen), (VA f Hf). destruct (Vsen f Hf) as [_ ->]. destruct (LD f Hf) as (_ & -> & -> & _). reflexivity. }
  destruct (HC sen e2n' ltac:(lia) Le VA VB) as (stop & s' & chk' & -> & Ls' & QT & HQ). cbn [bind].
  destruct stop.
  - exists true. eexists. exists s', chk'. split; [reflexivity|]. split; [|split; [reflexivity|]; split; [exact HQ|]; split; [reflexivity|discriminate]].
    constructor; cbn; [constructor; cbn; lia|exact LD|exact RN'|exact RI].
  - destruct (itl_ok lut fid e2n' (t_e1i _ _ _ d) LU) as (e1i & -> & Le1i & Ve1i & _); [lia|lia|]. cbn [bind].
    destruct (sys_ext_ok (t_si _ _ _ d) e1i ti (t_sei _ _ _ d)) as (sei & -> & Lsei & Vsei); [lia|lia|lia|]. cbn [bind].
    destruct CI as [GI CI']. destruct (CI' (t_i _ _ _ d) sei (t_pi _ _ _ d) (t_e2i _ _ _ d) RI) as (i' & e2i & -> & RI' & Le2i & Ve2i); [lia|lia|lia|]. cbn [bind].
    rewrite pps_i_scales, pps_i_quiet by exact QT. cbn [bind]. rewrite orb_false_r. set (e2i' := map (comp_i scs ite) e2i).
    assert (Lei : length e2i' = K * nf + E) by (unfold e2i'; rewrite map_length; lia).
    assert (VC : forall f, f < nf -> deal f K sei = input_i T zero add K buffered (tb fid f) (fr Y f) (AN fid Y f ite)).
    { intros f Hf. destruct (Vsei f Hf) as [-> _]. rewrite (Ve1i f Hf), (VB f Hf). destruct (LD f Hf) as (_ & _ & _ & -> & _). reflexivity. }
    assert (VD : forall f, f < nf -> deal f K e2i' = after_i T zero add Gi K tn ti buffered (tb fid f) (comp_i scs) (fr Y f) ite (AN fid Y f ite)).
    { intros f Hf. unfold e2i'. rewrite deal_map by lia. rewrite (Ve2i f Hf). rewrite (deal_split f ti sei), (VC f Hf). destruct (Vsei f Hf) as [_ ->]. destruct (LD f Hf) as (_ & _ & _ & _ & -> & ->). reflexivity. }
    assert (KK : forall f k, f < nf -> k = ite -> AP fid Y f k = gather T zero (tbi fid f) (after_i T zero add Gi K tn ti buffered (tb fid f) (comp_i scs) (fr Y f) ite (AN fid Y f ite))).
    { intros f k Hf ->. destruct ite as [|j]; [lia|]. cbn [apriori]. replace (Datatypes.S j - 1) with j by lia. reflexivity. }
    destruct (Nat.eqb_spec ite n_ite) as [LAST|NL].
    + destruct (vadd_ok e2i' sei e2i') as (e3 & -> & Le3 & Ve3); [lia|lia|lia|]. cbn [bind].
      destruct (itl_ok lut_inv fid e3 (t_e1n _ _ _ d) LI) as (e1n & -> & Le1n & Ve1n & _); [lia|lia|]. cbn [bind].
      assert (VE : forall f, f < nf -> deal f K e1n = PI fid Y f ite).
      { intros f Hf. rewrite (Ve1n f Hf). rewrite (deal_plus f e2i' sei e3 Hf Ve3). rewrite (VC f Hf), (VD f Hf). reflexivity. }
      rewrite hard_ok by lia. cbn [bind]. exists false. eexists. exists s', chk'. split; [reflexivity|]. cbn. split; [|split; [reflexivity|]; split; [exact HQ|]; split; [discriminate|intros _; split; [exact VE|]]].
      * constructor; cbn; [constructor; cbn; try lia; apply length_tab|exact LD|exact RN'|exact RI'].
      * apply mix_hard. exact VE.
    + cbn [bind]. destruct (itl_ok lut_inv fid e2i' (t_e1n _ _ _ d) LI) as (e1n & -> & Le1n & Ve1n & _); [lia|lia|]. cbn [bind].
      exists false. eexists. exists s', chk'. split; [reflexivity|]. cbn. split; [|split; [reflexivity|]; split; [exact HQ|]; split; [discriminate|intros _; split; [|reflexivity]]].
      * constructor; cbn; [constructor; cbn; lia|exact LD|exact RN'|exact RI'].
      * intros f Hf. rewrite (Ve1n f Hf), (VD f Hf). symmetry. apply KK; auto.
Qed.

(** ** The whole loop without checks *)
Lemma iterations_plain : forall fuel fid Y ite d, 1 <= ite <= n_ite -> n_ite < fuel + ite -> ready fid Y d -> t_pps _ _ _ d = scales scs ->
  (forall f, f < nf -> deal f K (t_e1n _ _ _ d) = AP fid Y f (ite - 1)) ->
  exists d', iterations T zero add lt0 sgn sgnz absT psort E Sn Si alt_n alt_i m lut lut_inv tn ti n_ite fast fuel fid ite d = Ret d' /\
    ready fid Y d' /\ t_pps _ _ _ d' = scales scs /\ t_s _ _ _ d' = mix 0%Z nf K (fun f => HD (PI fid Y f n_ite)).
Proof.
  induction fuel as [|fuel IH]; intros fid Y ite d H1 HF' R EP HA; [lia|]. cbn [iterations].
  destruct (iteration_ok fid Y ite d [] (fun stop s' chk' => stop = false /\ chk' = []) ltac:(lia) R) as (stop & d' & s' & chk' & -> & R' & EP' & [-> ->] & _ & HS).
  - rewrite app_nil_r. exact EP.
  - exact HA.
  - intros sen e2n _ _ _ _. exists false, (t_s _ _ _ d), []. split; [reflexivity|]. split; [apply R|]. auto.
  - cbn [bind negb]. rewrite andb_true_r. destruct (HS eq_refl) as [HE1 HE2]. rewrite app_nil_r in EP'. destruct (Nat.eqb_spec ite n_ite) as [->|NL].
    + destruct (Nat.leb_spec (n_ite + 1) n_ite); [lia|]. exists d'. auto.
    + destruct (Nat.leb_spec (ite + 1) n_ite); [|lia]. apply (IH fid Y (ite + 1) d'); [lia|lia|exact R'|exact EP'|].
      intros f Hf. rewrite (HE1 f Hf). f_equal. lia.
Qed.

(** ** With a CRC: the first iteration from [start] on whose decisions pass *)
Variables (start : nat) (check : list Z -> bool).
Definition dec_n (fid : nat) (Y : list T) (k : nat) : list Z := mix 0%Z nf K (fun f => HD (PN fid Y f k)).
Lemma crc_n_ok : forall fid Y ite sen e2n s, 1 <= ite -> length s = K * nf -> K * nf <= length sen -> length e2n = K * nf + E ->
  (forall f, f < nf -> deal f K sen = plus T zero add K (sysn Y f) (AP fid Y f (ite - 1))) -> (forall f, f < nf -> deal f K e2n = AN fid Y f ite) ->
  crc_decide T add lt0 sgn E sen e2n s = Ret (dec_n fid Y ite).
Proof.
  intros fid Y ite sen e2n s H1 Ls L1 L2 VA VB. rewrite crc_decide_ok by lia. f_equal.
  set (b := tab (K * nf) (fun q => add (nth q sen zero) (nth q e2n zero))).
  transitivity (tab (K * nf) (fun q => bitz (lt0 (nth q b zero)))). { apply tab_ext. intros q Hq. unfold b. rewrite nth_tab by exact Hq. reflexivity. }
  apply mix_hard. intros f Hf. rewrite (deal_plus f sen e2n b Hf). { rewrite (VA f Hf), (VB f Hf). reflexivity. }
  intros q Hq. unfold b. rewrite nth_tab by exact Hq. reflexivity.
Qed.
Fixpoint first_pass (fid : nat) (Y : list T) (fuel k : nat) : option nat :=
  match fuel with
  | O => None
  | Datatypes.S fuel => if (start <=? k) && check (dec_n fid Y k) then Some k else first_pass fid Y fuel (Datatypes.S k)
  end.
Lemma iterations_crc : forall fuel fid Y ite d, 1 <= ite <= n_ite -> fuel = n_ite + 1 - ite -> ready fid Y d -> t_pps _ _ _ d = scales scs ++ [PCrc T start check] ->
  (forall f, f < nf -> deal f K (t_e1n _ _ _ d) = AP fid Y f (ite - 1)) ->
  exists d', iterations T zero add lt0 sgn sgnz absT psort E Sn Si alt_n alt_i m lut lut_inv tn ti n_ite fast fuel fid ite d = Ret d' /\
    ready fid Y d' /\ t_pps _ _ _ d' = scales scs ++ [PCrc T start check] /\
    t_s _ _ _ d' = match first_pass fid Y fuel ite with Some k => dec_n fid Y k | None => mix 0%Z nf K (fun f => HD (PI fid Y f n_ite)) end.
Proof.
  induction fuel as [|fuel IH]; intros fid Y ite d H1 HF' R EP HA; [lia|]. cbn [iterations first_pass].
  destruct (iteration_ok fid Y ite d [PCrc T start check] (fun stop s' chk' => stop = (start <=? ite) && check (dec_n fid Y ite) /\ (stop = true -> s' = dec_n fid Y ite) /\ chk' = [PCrc T start check]) ltac:(lia) R) as (stop & d' & s' & chk' & -> & R' & EP' & (-> & HT & ->) & HST & HS).
  - exact EP.
  - exact HA.
  - intros sen e2n L1 L2 VA VB. pose proof (z_s _ (r_sized _ _ _ R)) as Ls. cbn [pps_n pp_n]. unfold crc_siso. destruct (start <=? ite).
    + rewrite (crc_n_ok fid Y ite sen e2n) by (auto; lia). cbn [bind andb]. destruct (check (dec_n fid Y ite)).
      * exists true, (dec_n fid Y ite), [PCrc T start check]. split; [reflexivity|]. split; [apply length_mix|]. split; [repeat constructor|auto].
      * exists false, (dec_n fid Y ite), [PCrc T start check]. split; [reflexivity|]. split; [apply length_mix|]. split; [repeat constructor|auto].
    + cbn [bind andb]. exists false, (t_s _ _ _ d), [PCrc T start check]. split; [reflexivity|]. split; [exact Ls|]. split; [repeat constructor|]. split; [reflexivity|]. split; [discriminate|reflexivity].
  - cbn [bind]. destruct ((start <=? ite) && check (dec_n fid Y ite)).
    + cbn [negb]. rewrite andb_false_r. exists d'. split; [reflexivity|]. split; [exact R'|]. split; [exact EP'|]. rewrite HST by reflexivity. apply HT. reflexivity.
    + cbn [negb]. rewrite andb_true_r. destruct (HS eq_refl) as [HE1 HE2]. destruct (Nat.eqb_spec ite n_ite) as [->|NL].
      * destruct (Nat.leb_spec (n_ite + 1) n_ite); [lia|]. assert (fuel = 0) as -> by lia. exists d'. auto.
      * destruct (Nat.leb_spec (ite + 1) n_ite); [|lia]. replace (Datatypes.S ite) with (ite + 1) by lia. apply (IH fid Y (ite + 1) d'); [lia|lia|exact R'|exact EP'|].
        intros f Hf. rewrite (HE1 f Hf). f_equal. lia.
Qed.

(** ** The whole call *)
Lemma store_ok : forall (vf : nat -> list Z) V, in_order v nf -> length V = nf -> Forall (fun x => length x = K) V -> (forall f, f < nf -> length (vf f) = K) ->
  tdec_store E m fast (mix 0%Z nf K vf) V = Ret (tab nf vf).
Proof.
  intros vf V IO LV FV Lf. assert (LL : forall f, f < nf -> length (nth f V []) = K). { intros f Hf. rewrite Forall_forall in FV. apply FV. apply nth_In. lia. }
  unfold tdec_store. destruct (Nat.eqb_spec nf 1) as [N1|N1].
  - rewrite (rd_ok _ []) by lia. cbn [bind]. destruct (copy_spec Z 0%Z (mix 0%Z nf K vf) 0 K (nth 0 V []) 0) as (w & -> & Lw & Cw & _); [rewrite length_mix; lia|rewrite LL by lia; lia|]. cbn [bind]. rewrite wr_ok by lia. f_equal.
    apply (eq_tab _ []); [rewrite length_upd; exact LV|]. intros f Hf. assert (f = 0) as -> by lia. rewrite nth_upd_eq by lia.
    rewrite LL in Lw by lia. apply (list_eq_nth _ 0%Z); [rewrite Lf by lia; exact Lw|]. intros i Hi. rewrite Lw in Hi. transitivity (nth i (mix 0%Z nf K vf) 0%Z); [exact (Cw i Hi)|]. rewrite <- (deal_mix Z 0%Z nf K vf 0) by auto. rewrite nth_deal by exact Hi. rewrite N1, Nat.mul_1_r, Nat.add_0_r. reflexivity.
  - assert (X : exists outs, (if fast then let n := if nf =? E then E else E / 8 in r <- ReorderModel.static_rev Z 0%Z E n (mix 0%Z nf K vf) (firstn n V) K ;; Ret (r ++ skipn n V)
        else ReorderModel.apply_rev Z 0%Z E (mix 0%Z nf K vf) V K) = Ret outs /\ splits 0%Z (mix 0%Z nf K vf) K V outs).
    { assert (A1 : length V * K <= length (mix 0%Z nf K vf)) by (rewrite length_mix; lia). assert (A2 : forall f, f < length V -> K <= length (nth f V [])) by (intros f Hf; rewrite LL; lia).
      assert (A3 : in_order v (length V)) by (rewrite LV; exact IO). rewrite EV in *. destruct fast.
      - assert (EN : (if nf =? 2 ^ v then 2 ^ v else 2 ^ v / 8) = nf). { destruct (Nat.eqb_spec nf (2 ^ v)); [congruence|]. destruct (HF eq_refl) as [?|[?|?]]; congruence. }
        cbv zeta. rewrite EN. rewrite firstn_all2, skipn_all2 by lia. destruct (C53_rev_static_partial Z 0%Z v nf (mix 0%Z nf K vf) V K A3 A1 A2) as [_ RV]. destruct (RV LV) as (outs & -> & SP). exists outs. cbn [bind]. rewrite app_nil_r. auto.
      - apply C53_rev_partial; assumption. }
    destruct X as (outs & EO & SL & SF). cbv zeta in EO. rewrite EO. f_equal. apply (eq_tab _ []); [lia|]. intros f Hf. destruct (SF f ltac:(lia)) as (L1 & V1 & _). rewrite LL in L1 by exact Hf.
    apply (list_eq_nth _ 0%Z); [rewrite Lf by exact Hf; exact L1|]. intros i Hi. rewrite L1 in Hi. rewrite V1 by exact Hi. rewrite LV. rewrite <- (deal_mix Z 0%Z nf K vf f Hf (Lf f Hf)). rewrite nth_deal by exact Hi. reflexivity.
Qed.

Record kept (pps : list (pp T)) (d : tdec T Sn Si) : Prop := { k_sized : sized d; k_n : okn (t_n _ _ _ d); k_i : oki (t_i _ _ _ d); k_pps : t_pps _ _ _ d = pps }.

Lemma load_ok : forall Y fid d, sized d -> length Y = nf * N ->
  exists sn pn si p e1n, (if buffered then buffered_load T zero E Sn Si m lut N tn ti fast Y fid d else standard_load T zero Sn Si m lut tn ti Y fid d) = Ret (sn, pn, si, p, e1n) /\ loaded fid Y sn pn si p /\
    length sn = (K + tn) * nf + E /\ length pn = (K + tn) * nf + E /\ length si = (K + ti) * nf + E /\ length p = (K + ti) * nf + E /\
    length e1n = K * nf + E /\ (forall q, nth q e1n zero = zero).
Proof.
  intros Y fid d Z LY. destruct (bool_dec buffered true) as [HB|HB].
  - destruct (buffered_ok Y fid d HB Z LY) as (sn & pn & si & p & e1n & EL & X). exists sn, pn, si, p, e1n. split; [|exact X]. rewrite <- EL, HB. reflexivity.
  - apply not_true_is_false in HB. destruct (standard_ok Y fid d HB Z LY) as (sn & pn & si & p & e1n & EL & X). exists sn, pn, si, p, e1n. split; [|exact X]. rewrite <- EL, HB. reflexivity.
Qed.

Lemma load_ready : forall Y fid d sn pn si p e1n, sized d -> okn (t_n _ _ _ d) -> oki (t_i _ _ _ d) -> loaded fid Y sn pn si p ->
    length sn = (K + tn) * nf + E -> length pn = (K + tn) * nf + E -> length si = (K + ti) * nf + E -> length p = (K + ti) * nf + E ->
    length e1n = K * nf + E -> (forall q, nth q e1n zero = zero) ->
  let d1 := {| t_sn := sn; t_si := si; t_sen := t_sen _ _ _ d; t_sei := t_sei _ _ _ d; t_pn := pn; t_pi := p;
       t_e1n := e1n; t_e2n := t_e2n _ _ _ d; t_e1i := t_e1i _ _ _ d; t_e2i := t_e2i _ _ _ d; t_s := t_s _ _ _ d; t_n := t_n _ _ _ d; t_i := t_i _ _ _ d; t_pps := t_pps _ _ _ d |} in
  ready fid Y d1 /\ forall f, f < nf -> deal f K (t_e1n _ _ _ d1) = AP fid Y f (1 - 1).
Proof.
  intros Y fid d sn pn si p e1n Z RN RI LD L1 L2 L3 L4 L5 ZE d1. split.
  - destruct Z. constructor; cbn; [constructor; cbn; assumption|assumption|assumption|assumption].
  - intros f Hf. cbn [Nat.sub apriori t_e1n d1]. symmetry. apply (eq_tab _ zero); [apply repeat_length|]. intros i Hi. rewrite ZE. apply nth_repeat.
Qed.
Lemma length_gather : forall t (x : list T), length (gather T zero t x) = length t.
Proof. intros. apply map_length. Qed.
Lemma length_tbi : forall fid f, length (tbi fid f) = K.
Proof. intros fid f. destruct LI as (Ll & Hc & HP). destruct (HP _ (InterleaverProofs.lut_base_lt m fid f Hc)) as (P1 & _). exact P1. Qed.

Lemma decode_plain : forall fid d Y V, 0 < n_ite -> in_order v nf -> kept (scales scs) d -> length Y = nf * N -> length V = nf -> Forall (fun x => length x = K) V ->
  exists d', decode T zero add lt0 sgn sgnz absT psort E Sn Si alt_n alt_i m lut lut_inv N tn ti n_ite buffered fast fid d Y V = Ret (d', tab nf (fun f => HD (PI fid Y f n_ite))) /\ kept (scales scs) d'.
Proof.
  intros fid d Y V HI IO [Z RN RI EP] LY LV FV. unfold decode. destruct (load_ok Y fid d Z LY) as (sn & pn & si & p & e1n & EL & LD & L1 & L2 & L3 & L4 & L5 & ZE). rewrite EL. cbn [bind].
  destruct (load_ready Y fid d sn pn si p e1n Z RN RI LD L1 L2 L3 L4 L5 ZE) as [R0 A0].
  destruct (iterations_plain n_ite fid Y 1 _ ltac:(lia) ltac:(lia) R0 EP A0) as (d' & -> & R' & EP' & ES). cbn [bind]. rewrite ES.
  rewrite store_ok; try assumption. 2:{ intros f Hf. rewrite map_length. unfold post_i. rewrite length_gather. apply length_tbi. }
  cbn [bind]. exists d'. split; [reflexivity|]. destruct R'. constructor; assumption.
Qed.
Lemma decode_crc : forall fid d Y V, 0 < n_ite -> in_order v nf -> kept (scales scs ++ [PCrc T start check]) d -> length Y = nf * N -> length V = nf -> Forall (fun x => length x = K) V ->
  exists d', decode T zero add lt0 sgn sgnz absT psort E Sn Si alt_n alt_i m lut lut_inv N tn ti n_ite buffered fast fid d Y V =
      Ret (d', tab nf (fun f => match first_pass fid Y n_ite 1 with Some k => HD (PN fid Y f k) | None => HD (PI fid Y f n_ite) end)) /\ kept (scales scs ++ [PCrc T start check]) d'.
Proof.
  intros fid d Y V HI IO [Z RN RI EP] LY LV FV. unfold decode. destruct (load_ok Y fid d Z LY) as (sn & pn & si & p & e1n & EL & LD & L1 & L2 & L3 & L4 & L5 & ZE). rewrite EL. cbn [bind].
  destruct (load_ready Y fid d sn pn si p e1n Z RN RI LD L1 L2 L3 L4 L5 ZE) as [R0 A0].
  destruct (iterations_crc n_ite fid Y 1 _ ltac:(lia) ltac:(lia) R0 EP A0) as (d' & -> & R' & EP' & ES). cbn [bind]. rewrite ES.
  assert (EM : match first_pass fid Y n_ite 1 with Some k => dec_n fid Y k | None => mix 0%Z nf K (fun f => HD (PI fid Y f n_ite)) end = mix 0%Z nf K (fun f => match first_pass fid Y n_ite 1 with Some k => HD (PN fid Y f k) | None => HD (PI fid Y f n_ite) end)) by (destruct (first_pass fid Y n_ite 1); reflexivity).
  rewrite EM. rewrite store_ok; try assumption. 2:{ intros f Hf. destruct (first_pass fid Y n_ite 1); rewrite map_length; [apply length_tab|]. unfold post_i. rewrite length_gather. apply length_tbi. }
  cbn [bind]. exists d'. split; [reflexivity|]. destruct R'. constructor; assumption.
Qed.

Lemma ctor_kept : forall Kn Ki sn si pps d, okn sn -> oki si -> tdec_ctor T zero E Sn Si m N tn ti n_ite Kn Ki sn si pps = Ret d -> kept pps d /\ 0 < n_ite.
Proof.
  intros Kn Ki sn si pps d ON OI EC. unfold tdec_ctor in EC. destruct (Kn =? K); [|discriminate]. destruct (Ki =? K); [|discriminate]. cbn [guard bind] in EC. destruct (_ =? _)%Z; [|discriminate]. cbn [guard bind] in EC.
  destruct (Nat.ltb_spec 0 n_ite); [|discriminate]. cbn [guard bind] in EC. injection EC as <-. split; [|assumption]. constructor; cbn; try assumption; try reflexivity. constructor; cbn; rewrite repeat_length; reflexivity.
Qed.
Lemma reached_plain : forall Kn Ki sn si d, okn sn -> oki si -> in_order v nf ->
  reached T zero add lt0 sgn sgnz absT psort E Sn Si alt_n alt_i m lut lut_inv N tn ti n_ite buffered fast Kn Ki sn si (scales scs) d -> kept (scales scs) d /\ 0 < n_ite.
Proof.
  intros Kn Ki sn si d ON OI IO R. induction R as [d EC|d fid Y V d' V' R IH LY LV FV ED]; [apply (ctor_kept _ _ _ _ _ _ ON OI EC)|].
  destruct IH as [KP HI]. split; [|exact HI]. destruct (decode_plain fid d Y V HI IO KP LY LV FV) as (d2 & E2 & K2). rewrite E2 in ED. injection ED as <- _. exact K2.
Qed.
Lemma reached_crc : forall Kn Ki sn si d, okn sn -> oki si -> in_order v nf ->
  reached T zero add lt0 sgn sgnz absT psort E Sn Si alt_n alt_i m lut lut_inv N tn ti n_ite buffered fast Kn Ki sn si (scales scs ++ [PCrc T start check]) d -> kept (scales scs ++ [PCrc T start check]) d /\ 0 < n_ite.
Proof.
  intros Kn Ki sn si d ON OI IO R. induction R as [d EC|d fid Y V d' V' R IH LY LV FV ED]; [apply (ctor_kept _ _ _ _ _ _ ON OI EC)|].
  destruct IH as [KP HI]. split; [|exact HI]. destruct (decode_crc fid d Y V HI IO KP LY LV FV) as (d2 & E2 & K2). rewrite E2 in ED. injection ED as <- _. exact K2.
Qed.
End P.
