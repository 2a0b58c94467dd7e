From Coq Require Import List Arith ZArith Lia Bool.
From Verif Require Import Base Copy WLoops ConvModel ConvSpec ConvProofs ConvCodeProofs TurboProofs RepModel RepSpec.
Import ListNotations.

(* ------------------------------------------------------------------ *)
(** * RA *)

Lemma lxor_bits : forall a b, a < 2 -> b < 2 -> Nat.lxor a b = (a + b) mod 2.
Proof. intros a b Ha Hb. destruct a as [|[|a]]; [| |lia]; destruct b as [|[|b]]; try lia; reflexivity. Qed.

Lemma sum_app : forall a b, sum (a ++ b) = sum a + sum b.
Proof. induction a; intros; cbn [sum app fold_right]; auto. unfold sum in *. rewrite IHa. lia. Qed.

Lemma firstn_S_nth : forall A (d : A) n (l : list A), n < length l -> firstn (S n) l = firstn n l ++ [nth n l d].
Proof.
  induction n; intros l Hl; destruct l; cbn [length] in Hl; try lia; auto.
  cbn [firstn nth app]. f_equal. rewrite <- (IHn l) by lia. auto.
Qed.

Lemma div_fill : forall N K, 0 < K -> N mod K = 0 -> N = N / K * K.
Proof. intros N K HK HM. pose proof (Nat.div_mod N K ltac:(lia)). lia. Qed.

Lemma ra_ctor_inv : forall K N size pos, ra_ctor K N size = Ret pos ->
  0 < K /\ 0 < N / K /\ N = N / K * K /\ size = N /\ pos = tab K (fun k => N / K * k).
Proof.
  intros K N size pos H. unfold ra_ctor, guard in H. destruct (Nat.ltb_spec 0 K); [|discriminate]. destruct (Nat.ltb_spec 0 N); [|discriminate].
  destruct (Nat.leb_spec K N); [|discriminate]. cbn [bind] in H. destruct (Nat.eqb_spec (N mod K) 0); [|discriminate]. cbn [bind] in H.
  destruct (Nat.eqb_spec size N); [|discriminate]. cbn [bind] in H. inversion H.
  split; auto. split. { apply Nat.div_str_pos. lia. } split; auto. apply div_fill; auto.
Qed.

Definition ra_in (rep : nat) (lut u : list nat) : list nat := map (fun p => nth (p / rep) u 0) lut.

Lemma accumulate : forall w N, length w = N -> bits w ->
  exists t, for_ (N - 1) (fun i t => a <- rd t i ;; b <- rd t (S i) ;; wr t (S i) (Nat.lxor a b)) w = Ret t /\
    length t = N /\ forall i, i < N -> nth i t 0 = sum (firstn (S i) w) mod 2.
Proof.
  intros w N LW BW. destruct N as [|N].
  { exists w. split; auto. split; auto. intros; lia. }
  replace (S N - 1) with N by lia.
  match goal with |- context [for_ N ?body ?s0] => destruct (for_inv _ (fun i t => length t = S N /\
     (forall q, q <= i -> nth q t 0 = sum (firstn (S q) w) mod 2) /\ (forall q, i < q -> nth q t 0 = nth q w 0)) N body s0) as (t & E & L & I1 & I2) end.
  - split; auto. split; auto. intros q Hq. replace q with 0 by lia. destruct w as [|a w]; [discriminate|]. cbn [firstn nth sum fold_right].
    inversion BW. subst. rewrite Nat.add_0_r, Nat.mod_small; auto.
  - intros i t Hi (L & I1 & I2). rewrite (rd_ok _ 0) by lia. cbn [bind]. rewrite (rd_ok _ 0) by lia. cbn [bind]. rewrite wr_ok by lia.
    eexists. split; [reflexivity|]. rewrite length_upd. split; auto. split.
    + intros q Hq. rewrite nth_upd by lia. destruct (Nat.eqb_spec q (S i)).
      * subst q. rewrite I1, I2 by lia. rewrite lxor_bits; [| apply Nat.mod_upper_bound; lia | apply bits_nth; auto].
        rewrite (firstn_S_nth _ 0 (S i)) by lia. rewrite sum_app. cbn [sum fold_right]. rewrite Nat.add_0_r.
        rewrite Nat.add_mod_idemp_l by lia. auto.
      * apply I1. lia.
    + intros q Hq. rewrite nth_upd by lia. destruct (Nat.eqb_spec q (S i)); [lia|]. apply I2. lia.
  - exists t. split; auto. split; auto. intros i Hi. apply I1. lia.
Qed.

Lemma firstn_map' : forall A B (f : A -> B) n l, firstn n (map f l) = map f (firstn n l).
Proof. intros. apply firstn_map. Qed.

Lemma ra_encode_ok : forall K N lut ub tmp u x, 0 < K -> 0 < N / K -> N = N / K * K -> length lut = N -> Forall (fun p => p < N) lut ->
  length ub = N -> length tmp = N -> length u = K -> bits u -> length x = N ->
  ra_encode K N lut ub tmp u x = Ret (tab N (ra_out (N / K) lut u)).
Proof.
  intros K N lut ub tmp u x HK HR HN LL HL LB LT LU BU LX. unfold ra_encode. set (rep := N / K) in *. clearbody rep.
  rewrite (for2_fill _ 0 (fun q => nth (q / rep) u 0) (fun i j => i * rep + j)).
  - cbn [bind]. rewrite gather1_ok; [| lia | rewrite length_tab, LB; auto]. cbn [bind].
    assert (EW : map (fun p => nth p (tab (length ub) (fun q => nth (q / rep) u 0)) 0) lut = ra_in rep lut u).
    { apply map_ext_in. intros p Hp. rewrite Forall_forall in HL. rewrite nth_tab; auto. rewrite LB. auto. }
    rewrite EW. destruct (accumulate (ra_in rep lut u) N) as (t & E & L & I).
    { unfold ra_in. rewrite map_length. auto. }
    { apply Forall_forall. intros b Hb. apply in_map_iff in Hb. destruct Hb as (p & <- & _). apply bits_nth. auto. }
    rewrite E. cbn [bind]. rewrite (copy_list _ 0) by lia. f_equal. cbn [Nat.add firstn skipn app]. rewrite firstn_all, skipn_all2, app_nil_r by lia.
    apply (eq_tab _ 0); auto. intros i Hi. rewrite I by auto. unfold ra_in, ra_out. rewrite firstn_map. auto.
  - intros i j y Hi Hj Hy. assert (i * rep + j < N) by (rewrite HN, (Nat.mul_comm rep); apply idx_lt; auto). split; [lia|].
    rewrite (rd_ok _ 0) by lia. cbn [bind]. rewrite (proj1 (divmod_idx i j rep Hj)). auto.
  - intros q Hq. exists (q / rep), (q mod rep). rewrite LB, HN, (Nat.mul_comm rep) in Hq. destruct (div_mod_lt _ _ _ Hq). split; auto. split; auto.
    rewrite Nat.mul_comm. apply Nat.div_mod. lia.
Qed.

Lemma sum_xor_lin : forall (f : nat -> nat) u v, length u = length v ->
  forall l, sum (map (fun p => nth (f p) (xor_list u v) 0) l) mod 2 =
    (sum (map (fun p => nth (f p) u 0) l) mod 2 + sum (map (fun p => nth (f p) v 0) l) mod 2) mod 2.
Proof.
  intros f u v LUV l. rewrite <- Nat.add_mod by lia. induction l; cbn [map sum fold_right]; auto.
  fold (sum (map (fun p => nth (f p) (xor_list u v) 0) l)). fold (sum (map (fun p => nth (f p) u 0) l)). fold (sum (map (fun p => nth (f p) v 0) l)).
  rewrite Nat.add_mod, IHl by lia. destruct (Nat.lt_ge_cases (f a) (length u)).
  - rewrite nth_xor by auto. rewrite Nat.mod_mod, <- Nat.add_mod by lia. f_equal. lia.
  - rewrite !(nth_overflow) by (rewrite ?length_xor; lia). rewrite Nat.mod_0_l, Nat.add_0_l, Nat.mod_mod by lia. auto.
Qed.

Lemma ra_out_S : forall rep lut u i, S i < length lut ->
  ra_out rep lut u (S i) = (ra_out rep lut u i + nth (nth (S i) lut 0 / rep) u 0) mod 2.
Proof.
  intros. unfold ra_out. rewrite (firstn_S_nth _ 0 (S i)) by auto. rewrite map_app, sum_app. cbn [map sum fold_right].
  rewrite Nat.add_0_r, Nat.add_mod_idemp_l by lia. auto.
Qed.

Lemma parity_cancel : forall a b c, b < 2 -> c < 2 -> (a + b) mod 2 = (a + c) mod 2 -> b = c.
Proof.
  intros a b c Hb Hc H. assert (H2 : 2 <> 0) by lia. rewrite (Nat.add_mod a b), (Nat.add_mod a c) in H by auto.
  rewrite (Nat.mod_small b), (Nat.mod_small c) in H by auto. pose proof (Nat.mod_upper_bound a 2 H2). revert H. generalize (a mod 2), H0.
  intros m Hm. destruct m as [|[|m]]; [| |lia]; destruct b as [|[|b]]; try lia; destruct c as [|[|c]]; try lia; cbn; auto; discriminate.
Qed.

Lemma ra_inj : forall K rep lut u v, 0 < rep -> is_perm (rep * K) lut -> length u = K -> length v = K -> bits u -> bits v ->
  tab (rep * K) (ra_out rep lut u) = tab (rep * K) (ra_out rep lut v) -> u = v.
Proof.
  intros K rep lut u v HR HP LU LV BU BV E.
  assert (Q : forall i, i < rep * K -> ra_out rep lut u i = ra_out rep lut v i).
  { intros i Hi. rewrite <- (nth_tab _ (rep * K) (ra_out rep lut u) i 0), <- (nth_tab _ (rep * K) (ra_out rep lut v) i 0) by auto. rewrite E. auto. }
  assert (LL : length lut = rep * K) by exact (proj1 HP).
  assert (W : forall i, i < rep * K -> nth (nth i lut 0 / rep) u 0 = nth (nth i lut 0 / rep) v 0).
  { intros i Hi. destruct i.
    - specialize (Q 0 Hi). unfold ra_out in Q. destruct lut as [|p lut]; [cbn [length] in LL; lia|]. cbn [firstn map sum fold_right nth] in *.
      rewrite !Nat.add_0_r in Q. rewrite !Nat.mod_small in Q by (apply bits_nth; auto). auto.
    - pose proof (Q (S i) Hi) as Q1. rewrite !ra_out_S in Q1 by lia. rewrite (Q i) in Q1 by lia.
      apply parity_cancel in Q1; auto; apply bits_nth; auto. }
  apply (list_eq_nth _ 0); [lia|]. intros k Hk. destruct (is_perm_surj _ _ (k * rep) HP) as (i & Hi & Ei). { nia. }
  specialize (W i Hi). rewrite Ei, Nat.div_mul in W by lia. auto.
Qed.

(* ------------------------------------------------------------------ *)
(** * Repetition encoder *)

Lemma rep_ctor_inv : forall K N b pos, rep_ctor K N b = Ret pos ->
  0 < K /\ 0 < N / K /\ N = N / K * K /\ pos = tab K (fun k => rep_pos b K (N / K) k 0).
Proof.
  intros K N b pos H. unfold rep_ctor, guard in H. destruct (Nat.ltb_spec 0 K); [|discriminate]. destruct (Nat.ltb_spec 0 N); [|discriminate].
  destruct (Nat.leb_spec K N); [|discriminate]. cbn [bind] in H. destruct (Nat.eqb_spec (N mod K) 0); [|discriminate]. cbn [bind] in H.
  inversion H. assert (0 < N / K) by (apply Nat.div_str_pos; lia). split; auto. split; auto. split. { apply div_fill; auto. }
  apply tab_ext. intros k Hk. unfold rep_pos. destruct b; [lia|]. replace (N / K - 1 + 1) with (N / K) by lia. lia.
Qed.

(** The target word. *)
Definition rep_F (b : bool) (K n : nat) (u : list nat) (q : nat) : nat := if b then nth (q mod K) u 0 else nth (q / n) u 0.

Lemma rep_F_pos : forall b K n u k r, k < K -> r < n -> rep_F b K n u (rep_pos b K n k r) = nth k u 0.
Proof.
  intros. unfold rep_F, rep_pos. destruct b.
  - rewrite (proj2 (divmod_idx r k K H)). auto.
  - rewrite (proj1 (divmod_idx k r n H0)). auto.
Qed.
Lemma rep_pos_lt : forall b K n k r, k < K -> r < n -> rep_pos b K n k r < n * K.
Proof. intros. unfold rep_pos. destruct b; nia. Qed.
Lemma rep_pos_surj : forall b K n q, q < n * K -> exists k r, k < K /\ r < n /\ q = rep_pos b K n k r.
Proof.
  intros b K n q Hq. unfold rep_pos. destruct b.
  - destruct (div_mod_lt _ _ _ Hq). exists (q mod K), (q / K). split; auto. split; auto. rewrite Nat.mul_comm. apply Nat.div_mod. lia.
  - rewrite Nat.mul_comm in Hq. destruct (div_mod_lt _ _ _ Hq). exists (q / n), (q mod n). split; auto. split; auto. rewrite Nat.mul_comm. apply Nat.div_mod. lia.
Qed.
Lemma rep_pos_inj : forall b K n k r k' r', k < K -> r < n -> k' < K -> r' < n -> rep_pos b K n k r = rep_pos b K n k' r' -> k = k' /\ r = r'.
Proof.
  intros b K n k r k' r' Hk Hr Hk' Hr' E. unfold rep_pos in E. destruct b.
  - apply divmod_unique_lt in E; tauto.
  - apply divmod_unique_lt in E; tauto.
Qed.

Lemma rep_encode_ok : forall K n b u x, 0 < K -> 0 < n -> length u = K -> length x = n * K ->
  rep_encode K (n * K) b u x = Ret (tab (n * K) (rep_F b K n u)).
Proof.
  intros K n b u x HK Hn LU LX. unfold rep_encode. rewrite Nat.div_mul by lia. destruct b.
  - rewrite (copy_list _ 0) by nia. cbn [bind Nat.add firstn skipn app]. set (x1 := firstn K u ++ skipn K x).
    assert (L1 : length x1 = n * K). { unfold x1. rewrite app_length, firstn_length, skipn_length. nia. }
    destruct (for_target_b _ 0 (rep_F true K n u) (fun i q => existsb (fun j => q =? (i + 1) * K + j) (seq 0 K)) (n - 1)
      (fun i x => copy u 0 K x ((i + 1) * K)) x1) as (x' & E & L & I).
    { intros i y Hi Hy. unfold copy. rewrite <- Hy. apply (for_target_b _ 0 (rep_F true K n u) (fun j q => q =? (i + 1) * K + j)).
      intros j z Hj Hz. assert ((i + 1) * K + j < n * K) by nia. rewrite (rd_ok _ 0) by lia. cbn [bind].
      change (nth (0 + j) u 0) with (nth j u 0).
      replace (nth j u 0) with (rep_F true K n u ((i + 1) * K + j)) by (unfold rep_F; rewrite (proj2 (divmod_idx (i + 1) j K Hj)); auto).
      rewrite <- Hz. apply wr_target_b. lia. }
    rewrite E. f_equal. apply (eq_tab _ 0). { lia. } intros q Hq. rewrite I by lia.
    destruct (existsb _ _) eqn:EX; auto. destruct (Nat.lt_ge_cases q K) as [C|C].
    + unfold x1. rewrite app_nth1 by (rewrite firstn_length; lia). rewrite firstn_nth by auto. unfold rep_F. rewrite Nat.mod_small; auto.
    + exfalso. assert (X : existsb (fun i => existsb (fun j => q =? (i + 1) * K + j) (seq 0 K)) (seq 0 (n - 1)) = true); [|congruence].
      destruct (div_mod_lt _ _ _ Hq) as [D1 D2]. pose proof (Nat.div_mod q K ltac:(lia)) as DM.
      assert (0 < q / K) by (apply Nat.div_str_pos; lia).
      apply existsb_exists. exists (q / K - 1). split; [apply in_seq; lia|]. apply existsb_exists. exists (q mod K). split; [apply in_seq; lia|].
      apply Nat.eqb_eq. replace (q / K - 1 + 1) with (q / K) by lia. lia.
  - replace (n - 1 + 1) with n by lia.
    destruct (for_target_b _ 0 (rep_F false K n u) (fun i q => q / n =? i) K
       (fun i x => bit <- rd u i ;; x <- wr x (i * n) bit ;; for_ (n - 1) (fun j x => wr x (i * n + 1 + j) bit) x) x) as (x' & E & L & I).
    { intros i y Hi Hy. rewrite (rd_ok _ 0) by lia. cbn [bind]. assert (i * n < n * K) by nia. rewrite wr_ok by lia. cbn [bind].
      set (y1 := upd y (i * n) (nth i u 0)).
      assert (Ly1 : length y1 = length y) by (unfold y1; apply length_upd).
      destruct (for_target_b _ 0 (rep_F false K n u) (fun j q => q =? i * n + 1 + j) (n - 1) (fun j x => wr x (i * n + 1 + j) (nth i u 0)) y1) as (z & EZ & LZ & IZ).
      { intros j z Hj Hz. assert (i * n + 1 + j < n * K) by nia.
        replace (nth i u 0) with (rep_F false K n u (i * n + 1 + j)).
        - rewrite <- Hz. apply wr_target_b. lia.
        - unfold rep_F. replace (i * n + 1 + j) with (i * n + (1 + j)) by lia. rewrite (proj1 (divmod_idx i (1 + j) n ltac:(lia))). auto. }
      exists z. split; auto. split; [lia|]. intros q Hq. rewrite IZ by lia. pose proof (Nat.div_mod q n ltac:(lia)) as DM. pose proof (Nat.mod_upper_bound q n ltac:(lia)) as MB.
      destruct (existsb _ _) eqn:EX.
      - apply existsb_exists in EX. destruct EX as (j & Hj & EJ). apply in_seq in Hj. apply Nat.eqb_eq in EJ.
        destruct (Nat.eqb_spec (q / n) i); auto. exfalso. apply n0. subst q. replace (i * n + 1 + j) with (i * n + (1 + j)) by lia.
        apply (divmod_idx i (1 + j) n). lia.
      - unfold y1. rewrite nth_upd by lia. destruct (Nat.eqb_spec q (i * n)) as [Q|Q].
        + subst q. rewrite Nat.div_mul by lia. rewrite Nat.eqb_refl. unfold rep_F. rewrite Nat.div_mul by lia. auto.
        + destruct (Nat.eqb_spec (q / n) i) as [D|D]; auto. exfalso.
          assert (X : existsb (fun j => q =? i * n + 1 + j) (seq 0 (n - 1)) = true); [|congruence].
          apply existsb_exists. exists (q mod n - 1). rewrite D in DM. assert (q mod n <> 0). { intros Z0. apply Q. lia. }
          split; [apply in_seq; lia|]. apply Nat.eqb_eq. lia. }
    rewrite E. f_equal. apply (eq_tab _ 0). { lia. } intros q Hq. rewrite I by lia.
    destruct (existsb _ _) eqn:EX; auto. exfalso. assert (X : existsb (fun i => q / n =? i) (seq 0 K) = true); [|congruence].
    rewrite Nat.mul_comm in Hq. apply existsb_exists. exists (q / n). split; [|apply Nat.eqb_refl]. apply in_seq. destruct (div_mod_lt _ _ _ Hq). lia.
Qed.

Lemma scan_ok : forall n f (P : nat -> Prop), (forall k, k < n -> exists r, f k = Ret r /\ (r = true <-> P k)) ->
  exists r, scan n f = Ret r /\ (r = true <-> forall k, k < n -> P k).
Proof.
  intros n f P HF. unfold scan.
  destruct (for_inv _ (fun i (v : bool) => v = true <-> forall k, k < i -> P k) n (fun k valid => if valid : bool then f k else Ret false) true) as (r & E & I).
  - split; auto. intros; lia.
  - intros i v Hi IV. destruct v.
    + destruct (HF i Hi) as (r & E & IR). exists r. split; auto. rewrite IR. split.
      * intros HP k Hk. destruct (Nat.eq_dec k i); [subst; auto|]. apply IV; auto. lia.
      * intros H. apply H. lia.
    + exists false. split; auto. split; [discriminate|]. intros H. apply IV. intros. apply H. lia.
  - exists r. auto.
Qed.

Lemma rep_is_codeword_ok : forall K n b x, 0 < K -> 0 < n -> length x = n * K ->
  exists r, rep_is_codeword K (n * K) b x = Ret r /\ (r = true <-> exists u, rep_word b K n u x).
Proof.
  intros K n b x HK Hn LX. unfold rep_is_codeword. rewrite Nat.div_mul by lia.
  assert (EQ : (exists u, rep_word b K n u x) <-> forall k r, k < K -> S r < n -> nth (rep_pos b K n k 0) x 0 = nth (rep_pos b K n k (S r)) x 0).
  { split.
    - intros (u & _ & _ & H) k r Hk Hr. rewrite !H by lia. auto.
    - intros H. exists (tab K (fun k => nth (rep_pos b K n k 0) x 0)). split; auto. split; [apply length_tab|].
      intros k r Hk Hr. rewrite nth_tab by auto. destruct r; auto. symmetry. auto. }
  destruct b.
  - destruct (scan_ok (n - 1) (fun r => scan K (fun k => a <- rd x k ;; b <- rd x ((r + 1) * K + k) ;; Ret (a =? b)))
      (fun r => forall k, k < K -> nth k x 0 = nth ((r + 1) * K + k) x 0)) as (r & E & I).
    { intros r Hr. apply (scan_ok K _ (fun k => nth k x 0 = nth ((r + 1) * K + k) x 0)). intros k Hk. rewrite (rd_ok _ 0) by nia. cbn [bind]. rewrite (rd_ok _ 0) by nia. cbn [bind].
      eexists. split; [reflexivity|]. apply Nat.eqb_eq. }
    exists r. split; auto. rewrite I, EQ. unfold rep_pos. split.
    + intros H k r0 Hk Hr. cbn [Nat.mul Nat.add]. rewrite (H r0) by lia. f_equal. lia.
    + intros H r0 Hr k Hk. specialize (H k r0 Hk ltac:(lia)). cbn [Nat.mul Nat.add] in H. rewrite H. f_equal. lia.
  - replace (n - 1 + 1) with n by lia.
    destruct (scan_ok K (fun k => scan (n - 1) (fun r => a <- rd x (k * n) ;; b <- rd x (k * n + r + 1) ;; Ret (a =? b)))
      (fun k => forall r, r < n - 1 -> nth (k * n) x 0 = nth (k * n + r + 1) x 0)) as (r & E & I).
    { intros k Hk. apply (scan_ok (n - 1) _ (fun r => nth (k * n) x 0 = nth (k * n + r + 1) x 0)). intros r Hr.
      rewrite (rd_ok _ 0) by nia. cbn [bind]. rewrite (rd_ok _ 0) by nia. cbn [bind].
      eexists. split; [reflexivity|]. apply Nat.eqb_eq. }
    exists r. split; auto. rewrite I, EQ. unfold rep_pos. split.
    + intros H k r0 Hk Hr. rewrite Nat.add_0_r. rewrite (H k Hk r0) by lia. f_equal. lia.
    + intros H k Hk r0 Hr. specialize (H k r0 Hk ltac:(lia)). rewrite Nat.add_0_r in H. rewrite H. f_equal. lia.
Qed.

(* ------------------------------------------------------------------ *)
(** * Repetition decoders *)

Section Dec.
Context {R : Type} (add : R -> R -> R) (neg : R -> bool) (d : R).

Lemma rep_load_ok : forall K n b y sys par, 0 < K -> 0 < n -> length y = n * K -> length sys = K -> length par = (n - 1) * K ->
  rep_load K (n * K) b y sys par =
    Ret (tab K (fun k => nth (rep_pos b K n k 0) y d), tab ((n - 1) * K) (fun q => nth (rep_pos b K n (q mod K) (S (q / K))) y d)).
Proof.
  intros K n b y sys par HK Hn LY LS LP. unfold rep_load. rewrite Nat.div_mul by lia. destruct b.
  - rewrite (copy_list _ d) by nia. cbn [bind Nat.add firstn skipn app]. rewrite (skipn_all2 sys), app_nil_r by lia.
    unfold copy. rewrite (for2_fill _ d (fun q => nth (rep_pos true K n (q mod K) (S (q / K))) y d) (fun i j => i * K + j)).
    + cbn [bind]. f_equal. f_equal.
      * apply (eq_tab _ d). { rewrite firstn_length. nia. } intros k Hk. rewrite firstn_nth by auto. unfold rep_pos. f_equal.
      * rewrite LP. auto.
    + intros i j x Hi Hj Hx. assert (i * K + j < (n - 1) * K) by nia. split; [lia|]. rewrite (rd_ok _ d) by nia. cbn [bind].
      destruct (divmod_idx i j K Hj) as [-> ->]. unfold rep_pos. replace (S i * K + j) with ((i + 1) * K + j) by lia. auto.
    + intros q Hq. rewrite LP in Hq. destruct (div_mod_lt _ _ _ Hq). exists (q / K), (q mod K). split; auto. split; auto. rewrite Nat.mul_comm. apply Nat.div_mod. lia.
  - replace (n - 1 + 1) with n by lia.
    match goal with |- context [for_ K ?body ?s0] => destruct (for_inv _ (fun i '(sy, pa) => length sy = K /\ length pa = (n - 1) * K /\
      (forall k, k < i -> nth k sy d = nth (rep_pos false K n k 0) y d) /\
      (forall k j, k < i -> j < n - 1 -> nth (j * K + k) pa d = nth (rep_pos false K n k (S j)) y d)) K body s0) as ([sy pa] & E & L1 & L2 & I1 & I2) end.
    + repeat split; auto; intros; lia.
    + intros i [sy pa] Hi (L1 & L2 & I1 & I2). rewrite (rd_ok _ d) by nia. cbn [bind]. rewrite wr_ok by lia. cbn [bind].
      destruct (for_write1 _ d (fun q => nth (i * n + 1 + q / K) y d) (fun j => j * K + i) (n - 1)
        (fun j par => v <- rd y (i * n + 1 + j) ;; wr par (j * K + i) v) pa) as (pa' & E & L & I).
      { intros j x Hj Hx. split; [nia|]. rewrite (rd_ok _ d) by nia. cbn [bind]. destruct (divmod_idx j i K Hi) as [-> _]. auto. }
      rewrite E. cbn [bind]. eexists. split; [reflexivity|]. cbn beta iota. rewrite length_upd. split; auto. split; [lia|]. split.
      * intros k Hk. rewrite nth_upd by lia. destruct (Nat.eqb_spec k i).
        -- subst. unfold rep_pos. f_equal. lia.
        -- apply I1. lia.
      * intros k j Hk Hj. assert (j * K + k < (n - 1) * K) by nia. destruct (I (j * K + k) ltac:(lia)) as [J1 J2]. destruct (Nat.eq_dec k i).
        -- subst k. rewrite J1 by eauto. destruct (divmod_idx j i K Hi) as [-> _]. unfold rep_pos. f_equal. lia.
        -- rewrite J2. { apply I2; lia. } intros j' Hj' EE. apply divmod_unique_lt in EE; lia.
    + rewrite E. f_equal. f_equal.
      * apply (eq_tab _ d); auto.
      * apply (eq_tab _ d); auto. intros q Hq. destruct (div_mod_lt _ _ _ Hq). pose proof (Nat.div_mod q K ltac:(lia)) as DM.
        replace q with (q / K * K + q mod K) at 1 by lia. auto.
Qed.

Definition tot (K n : nat) (sys par : list R) (i : nat) : R :=
  fold_left add (map (fun j => nth (j * K + i) par d) (seq 0 (n - 1))) (nth i sys d).

Lemma fold_seq_S : forall (f : nat -> R) m (a : R), fold_left add (map f (seq 0 (S m))) a = add (fold_left add (map f (seq 0 m)) a) (f m).
Proof. intros. rewrite seq_S, map_app, fold_left_app. auto. Qed.

Lemma siso_std_ok : forall K n sys par ext, 0 < K -> 0 < n -> length sys = K -> length par = (n - 1) * K -> length ext = K ->
  rep_siso_std add K (n * K) sys par ext = Ret (tab K (tot K n sys par)).
Proof.
  intros K n sys par ext HK Hn LS LP LE. unfold rep_siso_std. rewrite Nat.div_mul by lia.
  rewrite (for1_fill _ d (tot K n sys par) (fun i => i) K). { rewrite LE. auto. }
  - intros i x Hi Hx. split; [lia|]. rewrite (rd_ok _ d) by lia. cbn [bind]. rewrite wr_ok by lia. cbn [bind].
    assert (P : forall m, m <= n - 1 -> for_ m (fun j ext => p <- rd par (j * K + i) ;; e <- rd ext i ;; wr ext i (add e p)) (upd x i (nth i sys d)) =
       Ret (upd x i (fold_left add (map (fun j => nth (j * K + i) par d) (seq 0 m)) (nth i sys d)))).
    { induction m; intros Hm; auto. rewrite for_S, IHm by lia. cbn [bind]. rewrite (rd_ok _ d) by nia. cbn [bind].
      rewrite (rd_ok _ d) by (rewrite length_upd; lia). cbn [bind]. rewrite wr_ok by (rewrite length_upd; lia).
      rewrite upd_upd_eq, nth_upd_eq by lia. rewrite fold_seq_S. auto. }
    rewrite P by lia. rewrite wr_ok by lia. auto.
  - intros q Hq. exists q. split; auto. lia.
Qed.

Lemma siso_fast_ok : forall nel K n sys par ext, K mod nel = 0 -> 0 < K -> 0 < n -> length sys = K -> length par = (n - 1) * K -> length ext = K ->
  rep_siso_fast add nel K (n * K) sys par ext = Ret (tab K (tot K n sys par)).
Proof.
  intros nel K n sys par ext HM HK Hn LS LP LE. unfold rep_siso_fast. rewrite Nat.div_mul by lia.
  assert (Hnel : 0 < nel). { destruct nel; [cbn in HM; lia|lia]. } pose proof (div_fill K nel Hnel HM) as KE.
  assert (LT : forall i j, i < K / nel -> j < nel -> i * nel + j < K) by (intros; rewrite KE; apply idx_lt; auto).
  rewrite (for2_fill _ d (tot K n sys par) (fun i j => i * nel + j) (K / nel) nel). { rewrite LE. auto. }
  - intros r l x Hr Hl Hx. specialize (LT r l Hr Hl). split; [lia|]. set (i := r * nel + l) in *. rewrite (rd_ok _ d) by lia. cbn [bind].
    assert (P : forall m, m <= n - 1 -> for_ m (fun j v => p <- rd par (j * K + i) ;; Ret (add v p)) (nth i sys d) =
       Ret (fold_left add (map (fun j => nth (j * K + i) par d) (seq 0 m)) (nth i sys d))).
    { induction m; intros Hm; auto. rewrite for_S, IHm by lia. cbn [bind]. rewrite (rd_ok _ d) by nia. cbn [bind]. rewrite fold_seq_S. auto. }
    rewrite P by lia. cbn [bind]. auto.
  - intros q Hq. rewrite LE, KE in Hq. destruct (div_mod_lt _ _ _ Hq). exists (q / nel), (q mod nel). split; auto. split; auto. rewrite Nat.mul_comm. apply Nat.div_mod. lia.
Qed.

Lemma rep_decode_ok : forall siso K n b sys par ext y v,
  0 < K -> 0 < n ->
  (forall s p e, length s = K -> length p = (n - 1) * K -> length e = K -> siso s p e = Ret (tab K (tot K n s p))) ->
  length y = n * K -> length sys = K -> length par = (n - 1) * K -> length ext = K -> length v = K ->
  rep_decode neg siso K (n * K) b sys par ext y v = Ret (tab K (fun k => if neg (add_up add d (rep_llrs d b K n y k)) then 1 else 0)).
Proof.
  intros siso K n b sys par ext y v HK Hn HS LY LS LP LE LV. unfold rep_decode. rewrite rep_load_ok by auto. cbn [bind].
  rewrite HS by (auto using length_tab). cbn [bind].
  rewrite (for1_fill _ 0 (fun k => if neg (add_up add d (rep_llrs d b K n y k)) then 1 else 0) (fun i => i) K). { rewrite LV. auto. }
  - intros i x Hi Hx. split; [lia|]. rewrite (rd_ok _ d) by (rewrite length_tab; auto). cbn [bind]. rewrite nth_tab by auto. f_equal.
    replace (tot K n (tab K (fun k => nth (rep_pos b K n k 0) y d)) (tab ((n - 1) * K) (fun q => nth (rep_pos b K n (q mod K) (S (q / K))) y d)) i)
      with (add_up add d (rep_llrs d b K n y i)); auto.
    unfold tot, rep_llrs. rewrite nth_tab by auto. destruct n as [|n]; [lia|]. replace (S n - 1) with n in * by lia. cbn [seq map add_up]. f_equal.
    rewrite <- seq_shift, map_map. apply map_ext_in. intros j Hj. apply in_seq in Hj. rewrite nth_tab by nia. destruct (divmod_idx j i K Hi) as [-> ->]. auto.
  - intros q Hq. exists q. split; auto. lia.
Qed.

(** Sums of LLRs of one sign. *)
Lemma add_up_sign : forall s l, (forall a b, neg a = s -> neg b = s -> neg (add a b) = s) -> l <> [] -> (forall a, In a l -> neg a = s) -> neg (add_up add d l) = s.
Proof.
  intros s l HA HN HL. destruct l as [|a l]; [congruence|]. cbn [add_up]. clear HN. revert a HL. induction l; intros a0 HL; cbn [fold_left].
  - apply HL. left. auto.
  - apply IHl. intros c [<- | Hc]; [apply HA; apply HL; cbn; auto|]. apply HL. cbn. auto.
Qed.
End Dec.

(* ------------------------------------------------------------------ *)
(** * Exact arithmetic: maximum likelihood *)

Definition sumf (n : nat) (f : nat -> Z) : Z := sumZ (map f (seq 0 n)).
Lemma sumZ_app : forall a b, sumZ (a ++ b) = (sumZ a + sumZ b)%Z.
Proof. unfold sumZ. induction a; intros; cbn [app fold_right]; [lia|]. rewrite IHa. lia. Qed.
Lemma sumf_S : forall n f, sumf (S n) f = (sumf n f + f n)%Z.
Proof. intros. unfold sumf. rewrite seq_S, map_app, sumZ_app. unfold sumZ at 2. cbn. lia. Qed.
Lemma sumf_ext : forall n f g, (forall i, i < n -> f i = g i) -> sumf n f = sumf n g.
Proof. intros. unfold sumf. f_equal. apply map_ext_in. intros i Hi. apply in_seq in Hi. apply H. lia. Qed.
Lemma sumf_le : forall n f g, (forall i, i < n -> (f i <= g i)%Z) -> (sumf n f <= sumf n g)%Z.
Proof. induction n; intros; [unfold sumf; cbn; lia|]. rewrite !sumf_S. specialize (IHn f g ltac:(intros; apply H; lia)). specialize (H n ltac:(lia)). lia. Qed.
Lemma sumf_add : forall n f g, sumf n (fun i => (f i + g i)%Z) = (sumf n f + sumf n g)%Z.
Proof. induction n; intros; [reflexivity|]. rewrite !sumf_S, IHn. lia. Qed.
Lemma sumf_app : forall n m f, sumf (n + m) f = (sumf n f + sumf m (fun i => f (n + i)%nat))%Z.
Proof.
  induction m; intros; [rewrite Nat.add_0_r; unfold sumf at 3; cbn; lia|]. rewrite Nat.add_succ_r, !sumf_S, IHm. lia.
Qed.
Lemma sumf_block : forall n K f, sumf (n * K) f = sumf n (fun r => sumf K (fun k => f (r * K + k))).
Proof. induction n; intros; [reflexivity|]. rewrite sumf_S. replace (S n * K) with (n * K + K) by lia. rewrite sumf_app, IHn. auto. Qed.
Lemma sumf_swap : forall n K f, sumf n (fun r => sumf K (fun k => f r k)) = sumf K (fun k => sumf n (fun r => f r k)).
Proof.
  induction n; intros.
  - induction K; [reflexivity|]. rewrite sumf_S. rewrite <- IHK. unfold sumf. reflexivity.
  - rewrite sumf_S, IHn. rewrite <- sumf_add. apply sumf_ext. intros. rewrite sumf_S. auto.
Qed.
Lemma sumf_rep : forall b K n f, sumf (n * K) f = sumf K (fun k => sumf n (fun r => f (rep_pos b K n k r))).
Proof.
  intros b K n f. unfold rep_pos. destruct b.
  - rewrite sumf_block, sumf_swap. auto.
  - rewrite Nat.mul_comm, sumf_block. auto.
Qed.

Lemma corr_sumf : forall x y N, length x = N -> length y = N ->
  correlation x y = sumf N (fun q => if nth q x 0 =? 0 then nth q y 0%Z else (- nth q y 0)%Z).
Proof.
  induction x; intros y N LX LY; destruct y; cbn [length] in *; subst N; try discriminate; [reflexivity|].
  unfold correlation, sumf, sumZ. cbn [combine map fst snd seq fold_right nth]. f_equal. injection LY as LY.
  specialize (IHx y (length x) eq_refl LY). unfold correlation, sumf, sumZ in IHx. rewrite IHx. rewrite <- seq_shift, map_map. auto.
Qed.

Lemma sumf_sign : forall n (f : nat -> Z) c, sumf n (fun r => if c : bool then f r else (- f r)%Z) = if c then sumf n f else (- sumf n f)%Z.
Proof. intros. destruct c; auto. induction n; [reflexivity|]. rewrite !sumf_S, IHn. lia. Qed.

Lemma corr_rep : forall b K n u x y, rep_word b K n u x -> length y = n * K ->
  correlation x y = sumf K (fun k => if nth k u 0 =? 0 then sumZ (rep_llrs 0%Z b K n y k) else (- sumZ (rep_llrs 0%Z b K n y k))%Z).
Proof.
  intros b K n u x y (LX & LU & H) LY. rewrite (corr_sumf x y (n * K)) by auto. rewrite (sumf_rep b). apply sumf_ext. intros k Hk.
  change (sumZ (rep_llrs 0%Z b K n y k)) with (sumf n (fun r => nth (rep_pos b K n k r) y 0%Z)). rewrite <- sumf_sign. apply sumf_ext. intros r Hr.
  rewrite H by auto. auto.
Qed.

Lemma fold_add_sum : forall l a, fold_left Z.add l a = (a + sumZ l)%Z.
Proof. unfold sumZ. induction l; intros; cbn [fold_left fold_right]; [lia|]. rewrite IHl. lia. Qed.
Lemma add_up_exact : forall l, add_up Z.add 0%Z l = sumZ l.
Proof. destruct l; auto. cbn [add_up]. rewrite fold_add_sum. unfold sumZ. cbn [fold_right]. auto. Qed.

Lemma sum_abs : forall l, (Z.abs (sumZ l) <= sumZ (map Z.abs l))%Z.
Proof. unfold sumZ. induction l; cbn [map fold_right]; lia. Qed.
Lemma sum_abs_nonneg : forall l, (0 <= sumZ (map Z.abs l))%Z.
Proof. unfold sumZ. induction l; cbn [map fold_right]; lia. Qed.

Lemma wrap_small : forall w z, (0 < w)%Z -> (- 2 ^ (w - 1) <= z < 2 ^ (w - 1))%Z -> wrap w z = z.
Proof.
  intros w z Hw Hz. unfold wrap. assert (E : (2 ^ w = 2 * 2 ^ (w - 1))%Z). { replace w with (Z.succ (w - 1)) at 1 by lia. apply Z.pow_succ_r. lia. }
  rewrite Z.mod_small by lia. lia.
Qed.

Lemma add_up_bounded : forall (add : Z -> Z -> Z) M, (forall a b, (Z.abs (a + b) <= M -> add a b = a + b)%Z) ->
  forall l, (sumZ (map Z.abs l) <= M)%Z -> add_up add 0%Z l = sumZ l.
Proof.
  intros add M HA l. destruct l as [|a l]; auto. cbn [add_up map].
  assert (G : forall l a, (Z.abs a + sumZ (map Z.abs l) <= M)%Z -> fold_left add l a = (a + sumZ l)%Z).
  { clear l a. intros l. induction l; intros c Hc; cbn [fold_left]; [unfold sumZ; cbn; lia|].
    change (sumZ (map Z.abs (a :: l))) with (Z.abs a + sumZ (map Z.abs l))%Z in Hc. pose proof (sum_abs_nonneg l).
    rewrite HA by lia. rewrite IHl by lia. change (sumZ (a :: l)) with (a + sumZ l)%Z. lia. }
  intros H. change (sumZ (Z.abs a :: map Z.abs l)) with (Z.abs a + sumZ (map Z.abs l))%Z in H.
  change (sumZ (a :: l)) with (a + sumZ l)%Z. apply G. auto.
Qed.
