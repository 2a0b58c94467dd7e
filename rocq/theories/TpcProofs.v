(** The encoder of turbo product codes: its loops, and product codes. *)
From Coq Require Import List Arith Lia Bool Permutation.
From Verif Require Import Base WLoops FlipProofs TpcModel TpcSpec.
Import ListNotations.

Lemma tab_is : forall A (d : A) (l : list A) n f, length l = n -> (forall i, i < n -> nth i l d = f i) -> l = tab n f.
Proof. intros A d l n f L E. apply (list_eq_nth _ d); [rewrite length_tab; auto|]. intros i Hi. rewrite nth_tab by lia. apply E. lia. Qed.
Lemma cell : forall n i j, j < n -> (i * n + j) / n = i /\ (i * n + j) mod n = j.
Proof. intros n i j H. split; [rewrite Nat.div_add_l by lia; rewrite Nat.div_small by auto; lia|]. rewrite Nat.add_comm, Nat.mod_add by lia. apply Nat.mod_small. auto. Qed.
Lemma cell_below : forall m n i j, i < m -> j < n -> i * n + j < m * n.
Proof. intros m n i j A B. assert (S i * n <= m * n) by (apply Nat.mul_le_mono_r; lia). cbn [Nat.mul] in *. lia. Qed.

(* ------------------------------------------------------------------ *)
(** * The loops *)

Lemma call_ok : forall e K N src so dst d0, encoder K N e -> so + K <= length src -> d0 + N <= length dst ->
  exists dst', call e K N src so dst d0 = Ret dst' /\ length dst' = length dst /\
  (forall i, i < N -> nth (d0 + i) dst' false = nth i (e (tab K (fun i => nth (so + i) src false))) false) /\
  forall p, p < d0 \/ d0 + N <= p -> nth p dst' false = nth p dst false.
Proof.
  intros e K N src so dst d0 HE LS LD. unfold call. set (u := tab K (fun i => nth (so + i) src false)).
  rewrite (gen_ok _ K _ (fun i => nth (so + i) src false)) by (intros i Hi; apply rd_ok; lia). cbn [bind]. fold u.
  assert (LE : length (e u) = N) by (apply HE; unfold u; apply length_tab).
  match goal with |- context [for_ N ?bb ?ss] => destruct (for_inv _ (fun k x => length x = length dst /\ (forall i, i < k -> nth (d0 + i) x false = nth i (e u) false) /\ forall p, p < d0 \/ d0 + k <= p -> nth p x false = nth p dst false) N bb ss) as (x & E & L & V & R) end.
  - split; auto. split; auto. intros; lia.
  - intros k x Hk (L & V & R). rewrite (rd_ok _ false) by lia. cbn [bind]. rewrite wr_ok by lia. eexists. split; [reflexivity|]. rewrite length_upd. split; auto. split.
    + intros i Hi. rewrite nth_upd by lia. destruct (Nat.eqb_spec (d0 + i) (d0 + k)) as [EK|NE]; [f_equal; lia|]. apply V. lia.
    + intros p Hp. rewrite nth_upd by lia. destruct (Nat.eqb_spec p (d0 + k)); [lia|]. apply R. lia.
  - exists x. auto.
Qed.
Lemma fold_xor : forall l a, fold_left xorb l a = xorb a (parity l).
Proof. induction l as [|b l IH]; intros a; cbn [fold_left parity fold_right]; [rewrite xorb_false_r; auto|]. rewrite IH. unfold parity. rewrite xorb_assoc. auto. Qed.
Lemma parity_ok : forall x o n, o + n <= length x -> tp_parity x o n = Ret (parity (tab n (fun i => nth (o + i) x false))).
Proof.
  intros x o n L. unfold tp_parity. assert (FL := for_list bool (seq 0 n) (fun p i => xorb p (nth (o + i) x false)) (fun i p => b <- rd x (o + i) ;; Ret (xorb p b)) false). rewrite seq_length in FL. rewrite FL.
  - f_equal. unfold tab. rewrite <- (xorb_false_l (parity _)), <- fold_xor. generalize false at 2 4. generalize (seq 0 n). induction l as [|i l IH]; intros b; cbn [map fold_left]; auto.
  - intros j s Hj. rewrite (rd_ok _ false) by lia. rewrite seq_nth by auto. reflexivity.
Qed.
Lemma length_extend : forall ext e K N u, encoder K N e -> length u = K -> length (extend ext e u) = N + (if ext then 1 else 0).
Proof. intros [] e K N u HE L; unfold extend; rewrite ?app_length, HE; cbn; auto. Qed.

Lemma pass_ok : forall e K N n step ext src dst, encoder K N e -> K <= step -> (forall j, j < n -> j * step + K <= length src) -> n * (N + (if ext : bool then 1 else 0)) <= length dst ->
  exists dst', tp_pass e K N n step ext src dst = Ret dst' /\ length dst' = length dst /\
  (forall j i, j < n -> i < N + (if ext then 1 else 0) -> nth (j * (N + (if ext then 1 else 0)) + i) dst' false = nth i (extend ext e (tab K (fun i => nth (j * step + i) src false))) false).
Proof.
  intros e K N n step ext src dst HE HK LS LD. unfold tp_pass. cbv zeta. set (w := N + (if ext then 1 else 0)) in *.
  match goal with |- context [for_ n ?bb ?ss] => destruct (for_inv _ (fun k x => length x = length dst /\ (forall j i, j < k -> i < w -> nth (j * w + i) x false = nth i (extend ext e (tab K (fun i => nth (j * step + i) src false))) false)) n bb ss) as (x & E & L & V) end.
  - split; auto. intros; lia.
  - intros k x Hk (L & V). replace (k * K + k * (step - K)) with (k * step) by (rewrite <- Nat.mul_add_distr_l; f_equal; lia). replace (k * N + (if ext then k else 0)) with (k * w) by (unfold w; destruct ext; lia).
    assert (HW : k * w + w <= length dst). { assert (S k * w <= n * w) by (apply Nat.mul_le_mono_r; lia). cbn [Nat.mul] in *. lia. }
    assert (HN : N <= w) by (unfold w; lia).
    destruct (call_ok e K N src (k * step) x (k * w) HE) as (x1 & E1 & L1 & V1 & R1); [apply LS; auto|lia|]. rewrite E1. cbn [bind]. set (u := tab K (fun i => nth (k * step + i) src false)) in *.
    assert (LE : length (e u) = N) by (apply HE; unfold u; apply length_tab).
    assert (OLD : forall j i, j < k -> i < w -> j * w + i < k * w) by (intros; apply cell_below; auto).
    destruct ext.
    + assert (EW : w = N + 1) by reflexivity. rewrite parity_ok by lia. cbn [bind]. assert (EP : tab (w - 1) (fun i => nth (k * w + i) x1 false) = e u). { symmetry. apply (tab_is _ false); [lia|]. intros i Hi. rewrite V1 by lia. auto. }
      rewrite EP. rewrite wr_ok by lia. eexists. split; [reflexivity|]. rewrite length_upd. split; [lia|]. intros j i Hj Hi. rewrite nth_upd by lia. replace ((k + 1) * w - 1) with (k * w + N) by lia. destruct (Nat.eq_dec j k) as [->|NE].
      * fold u. unfold extend. destruct (Nat.eqb_spec (k * w + i) (k * w + N)) as [EI|NI].
        -- replace i with N by lia. rewrite app_nth2 by lia. rewrite LE, Nat.sub_diag. auto.
        -- rewrite app_nth1 by lia. apply V1. lia.
      * assert (B := OLD j i ltac:(lia) Hi). destruct (Nat.eqb_spec (j * w + i) (k * w + N)); [lia|]. rewrite R1 by lia. apply V; auto. lia.
    + eexists. split; [reflexivity|]. split; [lia|]. intros j i Hj Hi. destruct (Nat.eq_dec j k) as [->|NE].
      * fold u. unfold extend. apply V1. unfold w in Hi. lia.
      * assert (B := OLD j i ltac:(lia) Hi). rewrite R1 by lia. apply V; auto. lia.
  - exists x. auto.
Qed.
Lemma tp_permute_ok : forall lut x out, length out = length lut -> (forall i, i < length lut -> nth i lut 0 < length x) -> tp_permute lut x out = Ret (tab (length lut) (fun i => nth (nth i lut 0) x false)).
Proof.
  intros lut x out L B. unfold tp_permute. apply (fill bool false); auto. intros i o Hi Lo. rewrite (rd_ok _ 0) by auto. cbn [bind]. rewrite (rd_ok _ false) by auto. auto.
Qed.

(** The interleaver writes the columns one after the other, in the order cp, and reads them back. *)
Definition by_columns (nr nc : nat) (cp : nat -> nat) (lut inv : list nat) : Prop :=
  length lut = nr * nc /\ length inv = nr * nc /\ (forall k, k < nc -> cp k < nc) /\ (forall k, k < nc -> cp (cp k) = k) /\
  (forall r k, r < nr -> k < nc -> nth (k * nr + r) lut 0 = r * nc + cp k) /\ (forall r k, r < nr -> k < nc -> nth (r * nc + cp k) inv 0 = k * nr + r).

Lemma split_cell : forall m n p, p < m * n -> 0 < n /\ p / n < m /\ p mod n < n /\ p = p / n * n + p mod n.
Proof.
  intros m n p H. assert (0 < n) by (destruct n; lia). split; auto. split; [apply Nat.div_lt_upper_bound; [lia|]; rewrite Nat.mul_comm; auto|]. split; [apply Nat.mod_upper_bound; lia|]. rewrite Nat.mul_comm. apply Nat.div_mod. lia.
Qed.
Lemma encode_ok : forall er ec Kr Nr Kc Nc ext lut inv cp U X Xi, encoder Kr Nr er -> encoder Kc Nc ec -> Kc <= Nc ->
  let nc := Nr + (if ext : bool then 1 else 0) in let nr := Nc + (if ext : bool then 1 else 0) in
  by_columns nr nc cp lut inv -> length U = Kr * Kc -> length X = nr * nc -> length Xi = nr * nc ->
  exists Xi', tpc_encode er ec (mkTP Kr Nr Kc Nc ext lut inv) U X Xi = Ret (lines_first Kr nc Kc nr (extend ext er) (extend ext ec) U, Xi') /\ length Xi' = nr * nc.
Proof.
  intros er ec Kr Nr Kc Nc ext lut inv cp U X Xi HR HC LK nc nr (LL & LI & CB & CC & VL & VI) LU LX LXi. unfold tpc_encode, tp_cols, tp_rows. cbn [tp_Kr tp_Nr tp_Kc tp_Nc tp_ext tp_lut tp_inv]. fold nc nr.
  assert (KN : Kc <= nr) by (unfold nr; lia).
  destruct (pass_ok er Kr Nr Kc Kr ext U Xi HR) as (X1 & E1 & L1 & V1); auto; [| |]. { intros j Hj. rewrite LU. assert (S j * Kr <= Kc * Kr) by (apply Nat.mul_le_mono_r; lia). cbn [Nat.mul] in *. lia. } { fold nc. rewrite LXi. apply Nat.mul_le_mono_r. auto. }
  fold nc in V1. rewrite E1. cbn [bind]. rewrite tp_permute_ok; [|lia|].
  2:{ intros p Hp. rewrite LL in Hp. rewrite L1, LXi. rewrite (Nat.mul_comm nr) in Hp. destruct (split_cell nc nr p Hp) as (A & B & C & D). rewrite D, VL by auto. apply cell_below; auto. }
  cbn [bind]. set (X2 := tab (length lut) (fun i => nth (nth i lut 0) X1 false)).
  assert (VX2 : forall k r, k < nc -> r < nr -> nth (k * nr + r) X2 false = nth (r * nc + cp k) X1 false). { intros k r Hk Hr. unfold X2. rewrite nth_tab by (rewrite LL, (Nat.mul_comm nr nc); apply cell_below; auto). rewrite VL by auto. auto. }
  assert (LX2 : length X2 = nr * nc) by (unfold X2; rewrite length_tab; auto).
  destruct (pass_ok ec Kc Nc nc nr ext X2 X1 HC KN) as (X3 & E3 & L3 & V3). { intros j Hj. rewrite LX2. assert (S j * nr <= nc * nr) by (apply Nat.mul_le_mono_r; lia). cbn [Nat.mul] in *. lia. } { fold nr. rewrite L1, LXi. rewrite Nat.mul_comm. auto. }
  fold nr in V3. rewrite E3. cbn [bind]. rewrite tp_permute_ok; [|lia|].
  2:{ intros p Hp. rewrite LI in Hp. rewrite L3, L1, LXi. destruct (split_cell nr nc p Hp) as (A & B & C & D). rewrite D, <- (CC (p mod nc)) by auto. rewrite VI by auto. rewrite (Nat.mul_comm nr). apply cell_below; auto. }
  cbn [bind]. exists X3. split; [|lia]. f_equal. f_equal. rewrite LI. unfold lines_first. apply tab_ext. intros p Hp. destruct (split_cell nr nc p Hp) as (A & B & C & D). set (r := p / nc) in *. set (c := p mod nc) in *. rewrite D at 1. rewrite <- (CC c) at 1 by auto. rewrite VI by auto. rewrite V3 by auto. f_equal. f_equal.
  apply tab_ext. intros i Hi. rewrite VX2 by (auto; lia). rewrite CC by auto. rewrite V1 by auto. f_equal.
Qed.

(* ------------------------------------------------------------------ *)
(** * Linear maps *)

Fixpoint xsum (n : nat) (f : nat -> bool) : bool := match n with 0 => false | S n => xorb (xsum n f) (f n) end.
Lemma xsum_ext : forall n f g, (forall i, i < n -> f i = g i) -> xsum n f = xsum n g.
Proof. induction n; intros f g E; cbn [xsum]; auto. rewrite (IHn f g), E; auto. Qed.
Lemma xsum_xor : forall n f g, xsum n (fun i => xorb (f i) (g i)) = xorb (xsum n f) (xsum n g).
Proof. induction n; intros f g; cbn [xsum]; auto. rewrite IHn. destruct (xsum n f), (xsum n g), (f n), (g n); auto. Qed.
Lemma xsum_and : forall n f b, xsum n (fun i => f i && b) = xsum n f && b.
Proof. induction n; intros f b; cbn [xsum]; auto. rewrite IHn. destruct (xsum n f), (f n), b; auto. Qed.
Lemma xsum_zero : forall n, xsum n (fun _ => false) = false.
Proof. induction n; cbn [xsum]; auto. rewrite IHn. auto. Qed.
Lemma xsum_swap : forall n m f, xsum n (fun i => xsum m (fun j => f i j)) = xsum m (fun j => xsum n (fun i => f i j)).
Proof. induction n; intros m f; cbn [xsum]; [rewrite xsum_zero; auto|]. rewrite IHn, xsum_xor. auto. Qed.

Lemma length_xor2 : forall u v, length u = length v -> length (xor2 u v) = length u.
Proof. induction u as [|a u IH]; intros [|b v] L; cbn in *; auto; try discriminate. Qed.
Lemma nth_xor2 : forall u v i, length u = length v -> nth i (xor2 u v) false = xorb (nth i u false) (nth i v false).
Proof. induction u as [|a u IH]; intros [|b v] i L; cbn in *; try discriminate; [destruct i; auto|]. destruct i; auto. Qed.
Definition unit (K k : nat) : list bool := tab K (fun i => i =? k).
Lemma tab_xor : forall n f g, xor2 (tab n f) (tab n g) = tab n (fun i => xorb (f i) (g i)).
Proof. intros n f g. apply (tab_is _ false); [rewrite length_xor2; rewrite !length_tab; auto|]. intros i Hi. rewrite nth_xor2 by (rewrite !length_tab; auto). rewrite !nth_tab by auto. auto. Qed.

Lemma expand : forall K N e u i, encoder K N e -> linear K e -> length u = K -> nth i (e u) false = xsum K (fun k => nth k u false && nth i (e (unit K k)) false).
Proof.
  intros K N e u i HE HL LU.
  assert (Z : nth i (e (tab K (fun _ => false))) false = false).
  { assert (E : e (tab K (fun _ => false)) = xor2 (e (tab K (fun _ => false))) (e (tab K (fun _ => false)))). { rewrite <- HL by apply length_tab. f_equal. rewrite tab_xor. auto. }
    assert (E2 := f_equal (fun l => nth i l false) E). cbv beta in E2. rewrite nth_xor2 in E2 by auto. rewrite xorb_nilpotent in E2. auto. }
  assert (G : forall m, m <= K -> nth i (e (tab K (fun k => (k <? m) && nth k u false))) false = xsum m (fun k => nth k u false && nth i (e (unit K k)) false)).
  { induction m; intros Hm; cbn [xsum]; [exact Z|]. rewrite <- IHm by lia.
    replace (tab K (fun k => (k <? S m) && nth k u false)) with (xor2 (tab K (fun k => (k <? m) && nth k u false)) (tab K (fun k => (k =? m) && nth m u false))).
    - rewrite HL by apply length_tab. rewrite nth_xor2 by (rewrite !HE by apply length_tab; auto). f_equal. destruct (nth m u false); cbn [andb].
      + f_equal. f_equal. apply tab_ext. intros k Hk. apply andb_true_r.
      + transitivity (nth i (e (tab K (fun _ => false))) false); [|exact Z]. f_equal. f_equal. apply tab_ext. intros k Hk. rewrite andb_false_r. auto.
    - rewrite tab_xor. apply tab_ext. intros k Hk. destruct (Nat.ltb_spec k m), (Nat.ltb_spec k (S m)), (Nat.eqb_spec k m); try lia; cbn [andb]; subst; rewrite ?xorb_false_r, ?xorb_false_l; auto. }
  rewrite <- (G K (le_n K)). f_equal. f_equal. apply (tab_is _ false); auto. intros k Hk. destruct (Nat.ltb_spec k K); [auto|lia].
Qed.
Lemma parity_xor : forall u v, length u = length v -> parity (xor2 u v) = xorb (parity u) (parity v).
Proof. induction u as [|a u IH]; intros [|b v] L; cbn in *; auto; try discriminate. unfold parity in *. rewrite IH by lia. destruct a, b, (fold_right xorb false u), (fold_right xorb false v); auto. Qed.
Lemma xor2_app : forall u v a b, length u = length v -> xor2 (u ++ [a]) (v ++ [b]) = xor2 u v ++ [xorb a b].
Proof. induction u as [|x u IH]; intros [|z v] a b L; cbn in *; auto; try discriminate. rewrite IH by lia. auto. Qed.
Lemma extend_linear : forall ext K N e, encoder K N e -> linear K e -> linear K (extend ext e).
Proof.
  intros [] K N e HE HL; unfold extend; auto. intros u v LU LV. rewrite HL by auto. rewrite parity_xor, xor2_app by (rewrite !HE; auto). auto.
Qed.
Lemma extend_encoder : forall (ext : bool) K N e, encoder K N e -> encoder K (N + (if ext then 1 else 0)) (extend ext e).
Proof. intros ext K N e HE u L. apply (length_extend ext e K N u HE L). Qed.

Lemma orders_agree : forall Kr Nr Kc Nc er ec U, encoder Kr Nr er -> linear Kr er -> encoder Kc Nc ec -> linear Kc ec ->
  lines_first Kr Nr Kc Nc er ec U = columns_first Kr Nr Kc Nc er ec U.
Proof.
  intros Kr Nr Kc Nc er ec U HR LR HC LC. unfold lines_first, columns_first. apply tab_ext. intros p Hp. set (i := p / Nr). set (j := p mod Nr).
  rewrite (expand Kc Nc ec _ i HC LC) by apply length_tab. rewrite (expand Kr Nr er _ j HR LR) by apply length_tab.
  rewrite (xsum_ext Kc _ (fun k => xsum Kr (fun l => nth (k * Kr + l) U false && nth j (er (unit Kr l)) false && nth i (ec (unit Kc k)) false))).
  2:{ intros k Hk. rewrite nth_tab by auto. rewrite (expand Kr Nr er _ j HR LR) by apply length_tab. rewrite <- xsum_and. apply xsum_ext. intros l Hl. unfold line. rewrite nth_tab by auto. auto. }
  rewrite xsum_swap. apply xsum_ext. intros l Hl. rewrite nth_tab by auto. rewrite (expand Kc Nc ec _ i HC LC) by apply length_tab. rewrite <- xsum_and. apply xsum_ext. intros k Hk. unfold column. rewrite nth_tab by auto. destruct (nth (k * Kr + l) U false), (nth j (er (unit Kr l)) false), (nth i (ec (unit Kc k)) false); auto.
Qed.

(* ------------------------------------------------------------------ *)
(** * Distances *)

Definition b2n (b : bool) : nat := if b then 1 else 0.
Fixpoint nsum (n : nat) (f : nat -> nat) : nat := match n with 0 => 0 | S n => nsum n f + f n end.
Lemma nsum_ext : forall n f g, (forall i, i < n -> f i = g i) -> nsum n f = nsum n g.
Proof. induction n; intros f g E; cbn [nsum]; auto. rewrite (IHn f g), E; auto. Qed.
Lemma nsum_le : forall n f g, (forall i, i < n -> f i <= g i) -> nsum n f <= nsum n g.
Proof. induction n; intros f g E; cbn [nsum]; auto. apply Nat.add_le_mono; [apply IHn; auto|apply E; auto]. Qed.
Lemma nsum_plus : forall n f g, nsum n (fun i => f i + g i) = nsum n f + nsum n g.
Proof. induction n; intros f g; cbn [nsum]; auto. rewrite IHn. lia. Qed.
Lemma nsum_zero : forall n, nsum n (fun _ => 0) = 0.
Proof. induction n; cbn [nsum]; auto. rewrite IHn. auto. Qed.
Lemma nsum_swap : forall n m f, nsum n (fun i => nsum m (fun j => f i j)) = nsum m (fun j => nsum n (fun i => f i j)).
Proof. induction n; intros m f; cbn [nsum]; [rewrite nsum_zero; auto|]. rewrite IHn, nsum_plus. auto. Qed.
Lemma nsum_mul : forall n f c, nsum n (fun i => f i * c) = nsum n f * c.
Proof. induction n; intros f c; cbn [nsum]; auto. rewrite IHn. lia. Qed.
Lemma nsum_app : forall n m f, nsum (n + m) f = nsum n f + nsum m (fun i => f (n + i)).
Proof. intros n m f. induction m; cbn [nsum]; [rewrite Nat.add_0_r; auto|]. rewrite Nat.add_succ_r. cbn [nsum]. rewrite IHm. lia. Qed.
Lemma nsum_cells : forall m n f, nsum (m * n) f = nsum m (fun i => nsum n (fun j => f (i * n + j))).
Proof. induction m; intros n f; cbn [nsum Nat.mul]; auto. rewrite Nat.add_comm, nsum_app, IHm. auto. Qed.
Lemma dist_sum : forall n x y, dist n x y = nsum n (fun i => b2n (xorb (nth i x false) (nth i y false))).
Proof.
  intros n x y. unfold dist. induction n; auto. rewrite seq_S, filter_app, app_length. cbn [nsum]. rewrite IHn. f_equal. cbn [Nat.add filter]. destruct (xorb _ _); auto.
Qed.

Lemma differ : forall (u v : list bool) n, length u = n -> length v = n -> u <> v -> exists i, i < n /\ nth i u false <> nth i v false.
Proof.
  intros u v n LU LV NE. destruct (forallb (fun i => Bool.eqb (nth i u false) (nth i v false)) (seq 0 n)) eqn:E.
  - exfalso. apply NE. apply (list_eq_nth _ false); [lia|]. intros i Hi. rewrite forallb_forall in E. apply eqb_prop, E, in_seq. lia.
  - assert (H : exists i, In i (seq 0 n) /\ Bool.eqb (nth i u false) (nth i v false) = false).
    { clear -E. induction (seq 0 n) as [|x l IH]; cbn in E; [discriminate|]. destruct (Bool.eqb (nth x u false) (nth x v false)) eqn:EX; [destruct (IH E) as (i & I & H); exists i; split; [right; auto|auto]|exists x; split; [left; auto|auto]]. }
    destruct H as (i & I & H). apply in_seq in I. exists i. split; [lia|]. intros EQ. rewrite EQ, eqb_reflx in H. discriminate.
Qed.
Lemma product_distance : forall Kr Nr Kc Nc er ec dr dc U U', encoder Kr Nr er -> encoder Kc Nc ec -> distance Kr Nr dr er -> distance Kc Nc dc ec ->
  length U = Kr * Kc -> length U' = Kr * Kc -> U <> U' -> dr * dc <= dist (Nc * Nr) (lines_first Kr Nr Kc Nc er ec U) (lines_first Kr Nr Kc Nc er ec U').
Proof.
  intros Kr Nr Kc Nc er ec dr dc U U' HR HC DR DC LU LU' NE. destruct (differ U U' (Kr * Kc) LU LU' NE) as (p & Hp & DP). rewrite Nat.mul_comm in Hp. destruct (split_cell Kc Kr p Hp) as (A & B & C & D). set (i0 := p / Kr) in *. set (j0 := p mod Kr) in *.
  assert (DL : line Kr U i0 <> line Kr U' i0). { intros E. apply DP. rewrite D. apply (f_equal (fun l => nth j0 l false)) in E. unfold line in E. rewrite !nth_tab in E by auto. auto. }
  assert (D1 := DR _ _ (length_tab _ Kr _) (length_tab _ Kr _) DL). fold (line Kr U i0) (line Kr U' i0) in D1. rewrite dist_sum in D1.
  rewrite dist_sum, nsum_cells, nsum_swap. eapply Nat.le_trans; [apply Nat.mul_le_mono_r, D1|]. rewrite <- nsum_mul. apply nsum_le. intros j Hj.
  destruct (xorb (nth j (er (line Kr U i0)) false) (nth j (er (line Kr U' i0)) false)) eqn:EX; cbn [b2n]; [|lia]. rewrite Nat.mul_1_l.
  set (cu := tab Kc (fun i => nth j (er (line Kr U i)) false)). set (cv := tab Kc (fun i => nth j (er (line Kr U' i)) false)).
  assert (NC : cu <> cv). { intros E. apply (f_equal (fun l => nth i0 l false)) in E. unfold cu, cv in E. rewrite !nth_tab in E by auto. rewrite E, xorb_nilpotent in EX. discriminate. }
  assert (D2 := DC cu cv (length_tab _ Kc _) (length_tab _ Kc _) NC). rewrite dist_sum in D2. eapply Nat.le_trans; [exact D2|]. apply Nat.eq_le_incl. apply nsum_ext. intros i Hi. unfold lines_first. assert (CB := cell_below Nc Nr i j Hi Hj). rewrite !nth_tab by auto. destruct (cell Nr i j Hj) as [-> ->]. auto.
Qed.
