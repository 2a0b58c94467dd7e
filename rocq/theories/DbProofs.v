From Coq Require Import List Arith ZArith Lia Bool.
From Verif Require Import Base Copy WLoops ConvModel ConvSpec ConvProofs ConvCodeProofs ConvTrellisProofs TurboProofs.
Import ListNotations.

Definition NS (std : db_std) : nat := 2 ^ db_nff std.
Definition nx (std : db_std) (i s : nat) : nat := fst (calc_state_trans std s i).
Definition pr (std : db_std) (i s : nat) : nat := snd (calc_state_trans std s i).
Definition py std i s := bitn (pr std i s) 1.
Definition pw std i s := bitn (pr std i s) 0.

(** ** Finite facts about the two circuits *)
Lemma all_below : forall n (p : nat -> bool), forallb p (seq 0 n) = true -> forall i, i < n -> p i = true.
Proof. intros. rewrite forallb_forall in H. apply H. apply in_seq. lia. Qed.

Lemma nx_lt : forall std i s, i < 4 -> s < NS std -> nx std i s < NS std.
Proof.
  intros std i s Hi Hs.
  assert (B : forallb (fun i => forallb (fun s => nx std i s <? NS std) (seq 0 (NS std))) (seq 0 4) = true) by (destruct std; vm_compute; reflexivity).
  apply Nat.ltb_lt. apply (all_below _ _ (all_below _ _ B i Hi) s Hs).
Qed.

Lemma nx_lin : forall std i j s t, i < 4 -> j < 4 -> s < NS std -> t < NS std ->
  nx std (Nat.lxor i j) (Nat.lxor s t) = Nat.lxor (nx std i s) (nx std j t).
Proof.
  intros std i j s t Hi Hj Hs Ht.
  assert (B : forallb (fun i => forallb (fun j => forallb (fun s => forallb (fun t =>
     nx std (Nat.lxor i j) (Nat.lxor s t) =? Nat.lxor (nx std i s) (nx std j t)) (seq 0 (NS std))) (seq 0 (NS std))) (seq 0 4)) (seq 0 4) = true) by (destruct std; vm_compute; reflexivity).
  apply Nat.eqb_eq. apply (all_below _ _ (all_below _ _ (all_below _ _ (all_below _ _ B i Hi) j Hj) s Hs) t Ht).
Qed.

Lemma lxor_lt : forall std s t, s < NS std -> t < NS std -> Nat.lxor s t < NS std.
Proof.
  intros std s t Hs Ht.
  assert (B : forallb (fun s => forallb (fun t => Nat.lxor s t <? NS std) (seq 0 (NS std))) (seq 0 (NS std)) = true) by (destruct std; vm_compute; reflexivity).
  apply Nat.ltb_lt. apply (all_below _ _ (all_below _ _ B s Hs) t Ht).
Qed.

(** The state after [t] null couples. *)
Fixpoint free (std : db_std) (t s : nat) : nat := match t with 0 => s | S t => nx std 0 (free std t s) end.
Lemma free_lt : forall std t s, s < NS std -> free std t s < NS std.
Proof. induction t; intros; cbn [free]; auto. apply nx_lt; auto; lia. Qed.
Lemma free_add : forall std t t' s, free std (t + t') s = free std t (free std t' s).
Proof. induction t; intros; cbn [free Nat.add]; congruence. Qed.
Lemma free_period : forall std s, s < NS std -> free std (NS std - 1) s = s.
Proof.
  intros std s Hs.
  assert (B : forallb (fun s => free std (NS std - 1) s =? s) (seq 0 (NS std)) = true) by (destruct std; vm_compute; reflexivity).
  apply Nat.eqb_eq. apply (all_below _ _ B s Hs).
Qed.
Lemma free_mod : forall std t s, s < NS std -> free std t s = free std (t mod (NS std - 1)) s.
Proof.
  intros std t s Hs. assert (NZ : NS std - 1 <> 0) by (destruct std; discriminate).
  rewrite (Nat.div_mod t (NS std - 1) NZ) at 1. rewrite Nat.add_comm. generalize (t mod (NS std - 1)). intros r.
  induction (t / (NS std - 1)) as [|q IH]. { rewrite Nat.mul_0_r, Nat.add_0_r. auto. }
  rewrite Nat.mul_succ_r, Nat.add_assoc, free_add, free_period; auto.
Qed.

(** The circulation table gives the only state closed by a walk whose end from 0 is [z]. *)
Lemma circ_ok : forall std r z c, 0 < r < NS std - 1 -> z < NS std -> c < NS std ->
  (nth z (nth (r - 1) (circ_states std) []) 0 < NS std) /\
  (Nat.lxor (free std r c) z = c <-> c = nth z (nth (r - 1) (circ_states std) []) 0).
Proof.
  intros std r z c Hr Hz Hc.
  assert (B : forallb (fun r => forallb (fun z => forallb (fun c =>
     (nth z (nth r (circ_states std) []) 0 <? NS std) &&
     Bool.eqb (Nat.lxor (free std (S r) c) z =? c) (c =? nth z (nth r (circ_states std) []) 0)) (seq 0 (NS std))) (seq 0 (NS std))) (seq 0 (NS std - 2)) = true)
    by (destruct std; vm_compute; reflexivity).
  pose proof (all_below _ _ (all_below _ _ (all_below _ _ B (r - 1) ltac:(lia)) z Hz) c Hc) as Q. cbn beta in Q.
  replace (S (r - 1)) with r in Q by lia. apply andb_prop in Q. destruct Q as [Q1 Q2]. split. { apply Nat.ltb_lt. auto. }
  apply eqb_prop in Q2. rewrite <- !Nat.eqb_eq, Q2. tauto.
Qed.
Lemma circ_dim : forall std r, r < NS std - 2 -> length (circ_states std) = NS std - 2 /\ length (nth r (circ_states std) []) = NS std.
Proof.
  intros std r Hr. assert (B : forallb (fun r => length (nth r (circ_states std) []) =? NS std) (seq 0 (NS std - 2)) = true) by (destruct std; vm_compute; reflexivity).
  split. { destruct std; reflexivity. } apply Nat.eqb_eq. apply (all_below _ _ B r Hr).
Qed.

(** ** Walks *)
Fixpoint walk (std : db_std) (f : nat -> nat) (init t : nat) : nat :=
  match t with 0 => init | S t => nx std (f t) (walk std f init t) end.

Lemma walk_lt : forall std f init t, (forall k, k < t -> f k < 4) -> init < NS std -> walk std f init t < NS std.
Proof. induction t; intros; cbn [walk]; auto. apply nx_lt; auto. Qed.

Lemma walk_lin : forall std f init t, (forall k, k < t -> f k < 4) -> init < NS std ->
  walk std f init t = Nat.lxor (free std t init) (walk std f 0 t).
Proof.
  intros std f init t Hf Hi. assert (Z : 0 < NS std) by (destruct std; unfold NS; simpl; lia).
  induction t. { cbn [walk free]. rewrite Nat.lxor_0_r. auto. }
  cbn [walk free]. rewrite IHt by auto. pose proof (free_lt std t init Hi). pose proof (walk_lt std f 0 t ltac:(auto) Z).
  rewrite <- (nx_lin std 0 (f t)) by (auto; lia). rewrite Nat.lxor_0_l. auto.
Qed.

Lemma walk_ext : forall std f g init t, (forall k, k < t -> f k = g k) -> walk std f init t = walk std g init t.
Proof. induction t; intros; cbn [walk]; auto. rewrite IHt, H by auto. auto. Qed.

(** The walk closes from exactly one state, the one read from the table. *)
Lemma walk_close : forall std f L, (forall k, k < L -> f k < 4) -> L mod (NS std - 1) <> 0 ->
  exists c, c < NS std /\ rd2 (circ_states std) (L mod (NS std - 1) - 1) (walk std f 0 L) = Ret c /\
    forall c', c' < NS std -> (walk std f c' L = c' <-> c' = c).
Proof.
  intros std f L Hf HL. assert (Z : 0 < NS std) by (destruct std; unfold NS; simpl; lia).
  assert (Z1 : NS std - 1 <> 0) by (destruct std; discriminate).
  set (r := L mod (NS std - 1)) in *. pose proof (Nat.mod_upper_bound L (NS std - 1) Z1) as UB. fold r in UB.
  pose proof (walk_lt std f 0 L Hf Z) as WL. set (z := walk std f 0 L) in *.
  destruct (circ_dim std (r - 1)) as [D1 D2]; [lia|].
  exists (nth z (nth (r - 1) (circ_states std) []) 0). split. { apply (circ_ok std r z 0); auto; lia. }
  split. { unfold rd2. rewrite (rd_ok _ []) by lia. cbn [bind]. rewrite (rd_ok _ 0); auto. lia. }
  intros c' Hc'. rewrite walk_lin by auto. fold z. rewrite free_mod by auto. fold r. apply circ_ok; auto. lia.
Qed.

Lemma rd2_next : forall std i s, i < 4 -> s < NS std -> rd2 (db_next std) i s = Ret (nx std i s).
Proof.
  intros. unfold rd2, db_next. rewrite (rd_ok _ []) by (rewrite length_tab; auto). cbn [bind]. rewrite nth_tab by auto.
  rewrite (rd_ok _ 0) by (rewrite length_tab; auto). rewrite nth_tab; auto.
Qed.
Lemma rd2_par : forall std i s, i < 4 -> s < NS std -> rd2 (db_par std) i s = Ret (pr std i s).
Proof.
  intros. unfold rd2, db_par. rewrite (rd_ok _ []) by (rewrite length_tab; auto). cbn [bind]. rewrite nth_tab by auto.
  rewrite (rd_ok _ 0) by (rewrite length_tab; auto). rewrite nth_tab; auto.
Qed.

(** ** Encoding *)
Definition couple (u : list nat) (t : nat) : nat := nth (2 * t) u 0 * 2 + nth (2 * t + 1) u 0.
Lemma couple_lt : forall u t, bits u -> couple u t < 4.
Proof. intros. unfold couple. pose proof (bits_nth u (2 * t) H). pose proof (bits_nth u (2 * t + 1) H). lia. Qed.

Lemma half : forall L, (2 * L + 1) / 2 = L.
Proof. intros. rewrite Nat.mul_comm. apply (divmod_idx L 1 2). lia. Qed.
Lemma NS0 : forall std, 0 < NS std.
Proof. intros. destruct std; unfold NS; simpl; lia. Qed.

Lemma circ_read_ok : forall std L z, L mod (NS std - 1) <> 0 -> circ_read std (2 * L) z = rd2 (circ_states std) (L mod (NS std - 1) - 1) z.
Proof.
  intros. unfold circ_read. replace (2 * L / 2) with L by (rewrite Nat.mul_comm, Nat.div_mul; auto). fold (NS std).
  destruct (Nat.eqb_spec (L mod (NS std - 1)) 0); auto. lia.
Qed.

Section Enc.
Variables (std : db_std) (L : nat) (u : list nat).
Let K := 2 * L.
Hypothesis BU : bits u.
Hypothesis LU : length u = K.
Let f := couple u.

Lemma f_lt : forall t, f t < 4.
Proof. intros. apply couple_lt. auto. Qed.

Lemma pre_encode_ok : db_pre_encode std K u = Ret (walk std f 0 L).
Proof.
  unfold db_pre_encode. unfold K at 1. rewrite half.
  match goal with |- context [for_ L ?body ?s0] => destruct (for_inv _ (fun t s => s = walk std f 0 t) L body s0) as (s & E & I) end.
  - auto.
  - intros t s Ht ->. rewrite !(rd_ok _ 0) by (unfold K in *; lia). cbn [bind]. fold (couple u t). fold f.
    rewrite rd2_next by (try apply f_lt; apply walk_lt; auto using f_lt, NS0). eauto.
  - rewrite E, I. auto.
Qed.

Lemma encode_from_ok : forall (x : list nat) o (op : bool) init, init < NS std -> (if op then o + K else o + 2 * K) <= length x ->
  exists y, db_encode_from std K u x o op init = Ret (y, walk std f init L) /\ length y = length x /\
    (forall i, i < o -> nth i y 0 = nth i x 0) /\
    (forall t, t < L ->
       (op = false -> nth (o + 4 * t) y 0 = nth (2 * t) u 0 /\ nth (o + (4 * t + 1)) y 0 = nth (2 * t + 1) u 0) /\
       let q := o + (if op then 2 * t else 4 * t + 2) in
       nth q y 0 = py std (f t) (walk std f init t) /\ nth (q + 1) y 0 = pw std (f t) (walk std f init t)).
Proof.
  intros x o op init Hi HX. unfold db_encode_from. unfold K at 1. rewrite half.
  match goal with |- context [for_ L ?body ?s0] => destruct (for_inv _ (fun t '(y, j, s) =>
     s = walk std f init t /\ j = (if op then 2 * t else 4 * t) /\ length y = length x /\ (forall i, i < o -> nth i y 0 = nth i x 0) /\
     forall t', t' < t ->
       (op = false -> nth (o + 4 * t') y 0 = nth (2 * t') u 0 /\ nth (o + (4 * t' + 1)) y 0 = nth (2 * t' + 1) u 0) /\
       let q := o + (if op then 2 * t' else 4 * t' + 2) in
       nth q y 0 = py std (f t') (walk std f init t') /\ nth (q + 1) y 0 = pw std (f t') (walk std f init t')) L body s0) as ([[y j] s] & E & I) end.
  - split; auto. split. { destruct op; auto. } split; auto. split; auto. intros; lia.
  - intros t [[y j] s] Ht (-> & -> & LY & IP & IT). rewrite !(rd_ok _ 0) by (unfold K in *; lia). cbn [bind]. fold (couple u t). fold f.
    assert (WL : walk std f init t < NS std) by (apply walk_lt; auto using f_lt).
    rewrite rd2_par by (auto using f_lt). cbn [bind]. rewrite rd2_next by (auto using f_lt). cbn [bind].
    destruct op.
    + cbn [bind]. unfold K in HX. rewrite wr_ok by lia. cbn [bind]. rewrite wr_ok by (rewrite length_upd; lia). cbn [bind].
      eexists. split; [reflexivity|]. cbn beta iota. split; auto. split; [lia|]. rewrite !length_upd. split; auto.
      split. { intros i Hi'. rewrite !nth_upd by (rewrite ?length_upd; lia). rewrite !eqb_f by lia. auto. }
      intros t' Ht'. split; [discriminate|]. cbn zeta. rewrite !nth_upd by (rewrite ?length_upd; lia).
      destruct (Nat.eq_dec t' t) as [->|NT].
      * rewrite (eqb_f (o + 2 * t)) by lia. rewrite Nat.add_assoc, !Nat.eqb_refl. auto.
      * rewrite !eqb_f by lia. destruct (IT t' ltac:(lia)) as [_ IT']. auto.
    + unfold K in HX. rewrite wr_ok by lia. cbn [bind]. rewrite wr_ok by (rewrite length_upd; lia). cbn [bind].
      rewrite wr_ok by (rewrite !length_upd; lia). cbn [bind]. rewrite wr_ok by (rewrite !length_upd; lia). cbn [bind].
      eexists. split; [reflexivity|]. cbn beta iota. split; auto. split; [lia|]. rewrite !length_upd. split; auto.
      split. { intros i Hi'. rewrite !nth_upd by (rewrite ?length_upd; lia). rewrite !eqb_f by lia. auto. }
      intros t' Ht'. cbn zeta. rewrite !nth_upd by (rewrite ?length_upd; lia).
      destruct (Nat.eq_dec t' t) as [->|NT].
      * replace (o + (4 * t + 2)) with (o + 4 * t + 2) by lia. replace (o + (4 * t + 2 + 1)) with (o + 4 * t + 3) by lia.
        replace (o + (4 * t + 1)) with (o + 4 * t + 1) by lia. set (q := o + 4 * t). replace (q + 2 + 1) with (q + 3) by lia.
        rewrite !Nat.eqb_refl. rewrite (eqb_f q (q + 1)), (eqb_f q (q + 2)), (eqb_f q (q + 3)), (eqb_f (q + 1) (q + 2)), (eqb_f (q + 1) (q + 3)), (eqb_f (q + 2) (q + 3)) by lia. auto.
      * destruct (IT t' ltac:(lia)) as [IT0 IT']. rewrite !eqb_f by lia. auto.
  - rewrite E. cbn [bind]. destruct I as (-> & _ & LY & IP & IT). exists y. auto.
Qed.

Hypothesis HL : L mod (NS std - 1) <> 0.

(** The frame [x] labels the walk from [init]. *)
Definition labelled (b : bool) (init : nat) (x : list nat) : Prop :=
  forall t, t < L -> nth (db_red b K t) x 0 = py std (f t) (walk std f init t) /\ nth (db_red b K t + 1) x 0 = pw std (f t) (walk std f init t).

Lemma db_pos_couple : forall b t, db_pos b (2 * t) = db_sys b t /\ db_pos b (2 * t + 1) = db_sys b t + 1.
Proof.
  clear. intros. unfold db_pos. rewrite (Nat.mul_comm 2 t). destruct (divmod_idx t 1 2 ltac:(lia)) as [-> ->].
  replace (t * 2) with (t * 2 + 0) by lia. destruct (divmod_idx t 0 2 ltac:(lia)) as [-> ->]. lia.
Qed.

Lemma db_encode_ok : forall (b : bool) x, length x = 2 * K ->
  exists o c, db_encode std b K u x = Ret o /\ length o = 2 * K /\ c < NS std /\ walk std f c L = c /\ labelled b c o /\ db_carries b u o.
Proof.
  intros b x LX. unfold db_encode. rewrite pre_encode_ok. cbn [bind]. unfold K at 1. rewrite circ_read_ok by auto.
  destruct (walk_close std f L (fun k _ => f_lt k) HL) as (c & Hc & E & U). rewrite E. cbn [bind].
  assert (WC : walk std f c L = c) by (apply U; auto). destruct b.
  - rewrite (copy_list nat 0) by lia. cbn [bind firstn skipn app Nat.add]. rewrite (firstn_all2 u) by lia.
    destruct (encode_from_ok (u ++ skipn K x) K true c Hc) as (y & E2 & LY & IP & IT). { rewrite app_length, skipn_length. lia. }
    rewrite E2. cbn [bind]. rewrite WC, Nat.eqb_refl. rewrite app_length, skipn_length in LY.
    exists y, c. split; auto. split; [lia|]. split; auto. split; auto. split.
    + intros t Ht. destruct (IT t Ht) as [_ IT']. exact IT'.
    + intros k Hk. unfold db_pos, db_sys. rewrite <- Nat.div_mod by lia. rewrite IP by lia. rewrite app_nth1 by lia. auto.
  - destruct (encode_from_ok x 0 false c Hc) as (y & E2 & LY & IP & IT). { lia. }
    rewrite E2. cbn [bind]. rewrite WC, Nat.eqb_refl. exists y, c. split; auto. split; [lia|]. split; auto. split; auto. split.
    + intros t Ht. destruct (IT t Ht) as [_ IT']. exact IT'.
    + intros k Hk. assert (KL : k / 2 < L) by (apply Nat.div_lt_upper_bound; unfold K in *; lia).
      destruct (IT (k / 2) KL) as [IT' _]. destruct (IT' eq_refl) as [A B]. cbn [Nat.add] in A, B. unfold db_pos, db_sys.
      pose proof (Nat.div_mod k 2 ltac:(lia)) as D. destruct (lt2 _ (mod2_lt k)) as [Z|Z]; rewrite Z in *.
      * rewrite Nat.add_0_r, A. f_equal. lia.
      * rewrite B. f_equal. lia.
Qed.
End Enc.

Lemma db_encode_undef : forall std L u, bits u -> length u = 2 * L -> L mod (NS std - 1) = 0 -> forall b x, db_encode std b (2 * L) u x = Undef.
Proof.
  intros. unfold db_encode. rewrite pre_encode_ok by auto. cbn [bind]. unfold circ_read.
  replace (2 * L / 2) with L by (rewrite Nat.mul_comm, Nat.div_mul; auto). fold (NS std). rewrite H1. auto.
Qed.

(** ** Checking *)
Section Check.
Variables (std : db_std) (L : nat) (b : bool) (x : list nat).
Let K := 2 * L.
Hypothesis LX : length x = 2 * K.
Hypothesis BX : db_bits b K x.
Let u := tab K (fun k => nth (db_pos b k) x 0).
Let f := couple u.

Lemma u_bits : bits u.
Proof. apply bits_tab. intros. apply BX. auto. Qed.
Lemma u_nth : forall t, t < L -> nth (2 * t) u 0 = nth (db_sys b t) x 0 /\ nth (2 * t + 1) u 0 = nth (db_sys b t + 1) x 0.
Proof.
  intros. unfold u. rewrite !nth_tab by (unfold K; lia). destruct (db_pos_couple b t) as [-> ->]. auto.
Qed.
Lemma red_lt : forall t, t < L -> db_sys b t + 1 < 2 * K /\ db_red b K t + 1 < 2 * K.
Proof. intros. unfold db_sys, db_red, K. destruct b; lia. Qed.

Lemma db_is_codeword_ok : L mod (NS std - 1) <> 0 ->
  exists r, db_is_codeword std b K x = Ret r /\
    (r = true <-> exists c, c < NS std /\ walk std f c L = c /\ labelled std L u b c x).
Proof.
  intros HL. unfold db_is_codeword. replace ((K + 1) / 2) with L by (symmetry; apply half). 
  assert (FL : forall t, f t < 4) by (intros; apply couple_lt, u_bits).
  pose proof (NS0 std) as Z.
  match goal with |- context [for_ L ?body 0] => destruct (for_inv _ (fun t s => s = walk std f 0 t) L body 0) as (s & E & I) end.
  { auto. }
  { intros t s Ht ->. destruct (red_lt t Ht) as [R1 R2]. unfold db_sys in R1. rewrite !(rd_ok _ 0) by lia. cbn [bind].
    destruct (u_nth t Ht) as [U1 U2]. unfold db_sys in U1, U2. rewrite <- U1, <- U2. fold (couple u t). fold f.
    rewrite rd2_next by (auto; apply walk_lt; auto). eauto. }
  rewrite E, I. cbn [bind]. clear E I s. unfold K. rewrite circ_read_ok by auto.
  destruct (walk_close std f L (fun k _ => FL k) HL) as (c & Hc & E & U). rewrite E. cbn [bind]. clear E. fold K.
  match goal with |- context [for_ L ?body (Some c)] => destruct (for_inv _ (fun t o => match o with
      | Some s => s = walk std f c t /\ forall t', t' < t -> nth (db_red b K t') x 0 = py std (f t') (walk std f c t') /\ nth (db_red b K t' + 1) x 0 = pw std (f t') (walk std f c t')
      | None => exists t', t' < L /\ ~ (nth (db_red b K t') x 0 = py std (f t') (walk std f c t') /\ nth (db_red b K t' + 1) x 0 = pw std (f t') (walk std f c t'))
      end) L body (Some c)) as (o & E & I) end.
  { split; auto. intros; lia. }
  { intros t [s|] Ht HI; cbn beta iota; [|eauto]. destruct HI as [-> HI]. destruct (red_lt t Ht) as [R1 R2]. unfold db_sys in R1. unfold db_red in R2.
    rewrite !(rd_ok _ 0) by lia. cbn [bind].
    destruct (u_nth t Ht) as [U1 U2]. unfold db_sys in U1, U2. rewrite <- U1, <- U2. fold (couple u t). fold f.
    assert (WL : walk std f c t < NS std) by (apply walk_lt; auto).
    rewrite rd2_par by auto. cbn [bind]. rewrite rd2_next by auto. cbn [bind].
    fold (db_red b K t). fold (py std (f t) (walk std f c t)). fold (pw std (f t) (walk std f c t)).
    destruct (Nat.eqb_spec (nth (db_red b K t) x 0) (py std (f t) (walk std f c t))) as [Q1|Q1]; cbn [negb].
    2: { eexists. split; [reflexivity|]. exists t. split; auto. intros [C _]. auto. }
    destruct (Nat.eqb_spec (nth (db_red b K t + 1) x 0) (pw std (f t) (walk std f c t))) as [Q2|Q2]; cbn [negb].
    2: { eexists. split; [reflexivity|]. exists t. split; auto. intros [_ C]. auto. }
    eexists. split; [reflexivity|]. split; auto. intros t' Ht'. destruct (Nat.eq_dec t' t) as [->|]; auto. apply HI. lia. }
  rewrite E. cbn [bind]. eexists. split; [reflexivity|]. destruct o as [s|].
  - destruct I as [-> I]. replace (walk std f c L) with c by (symmetry; apply U; auto). rewrite Nat.eqb_refl. split; auto.
    intros _. exists c. split; auto. split; [apply U; auto|]. exact I.
  - split; [discriminate|]. intros (c' & Hc' & W & LAB). apply U in W; auto. subst c'. destruct I as (t & Ht & NM). exfalso. apply NM. apply LAB. auto.
Qed.

Lemma db_is_codeword_undef : L mod (NS std - 1) = 0 -> db_is_codeword std b K x = Undef.
Proof.
  intros HL. unfold db_is_codeword. replace ((K + 1) / 2) with L by (symmetry; apply half).
  assert (FL : forall t, f t < 4) by (intros; apply couple_lt, u_bits).
  pose proof (NS0 std) as Z.
  match goal with |- context [for_ L ?body 0] => destruct (for_inv _ (fun t s => s = walk std f 0 t) L body 0) as (s & E & I) end.
  { auto. }
  { intros t s Ht ->. destruct (red_lt t Ht) as [R1 R2]. unfold db_sys in R1. rewrite !(rd_ok _ 0) by lia. cbn [bind].
    destruct (u_nth t Ht) as [U1 U2]. unfold db_sys in U1, U2. rewrite <- U1, <- U2. fold (couple u t). fold f.
    rewrite rd2_next by (auto; apply walk_lt; auto). eauto. }
  rewrite E, I. cbn [bind]. unfold circ_read.
  replace (K / 2) with L by (unfold K; rewrite Nat.mul_comm, Nat.div_mul; auto). fold (NS std). rewrite HL. auto.
Qed.
End Check.

(** ** The circuits *)
Definition cyclic (std : db_std) : bool -> nat -> list nat -> Prop :=
  match std with RCS1 => closed_walk rcs1_step valid3 | RCS2 => closed_walk rcs2_step valid4 end.

Section Circuit.
Variables (std : db_std) (St : Type) (step : nat -> nat -> St -> St * nat * nat) (valid : St -> Prop) (num : St -> nat) (cells : nat -> St).
Hypothesis H1 : forall s, s < NS std -> num (cells s) = s /\ valid (cells s).
Hypothesis H2 : forall s, valid s -> num s < NS std /\ cells (num s) = s.
Hypothesis H3 : forall a b s, a < 2 -> b < 2 -> s < NS std ->
  step a b (cells s) = (cells (nx std (a * 2 + b) s), py std (a * 2 + b) s, pw std (a * 2 + b) s).
Variables (L : nat) (b : bool) (x : list nat).
Let K := 2 * L.
Hypothesis LX : length x = 2 * K.
Hypothesis BX : db_bits b K x.
Let u := tab K (fun k => nth (db_pos b k) x 0).
Let f := couple u.

Lemma sys_bits : forall t, t < L -> nth (db_sys b t) x 0 < 2 /\ nth (db_sys b t + 1) x 0 < 2.
Proof.
  intros t Ht. destruct (db_pos_couple b t) as [A B]. rewrite <- B, <- A. split; apply BX; unfold K; lia.
Qed.

Lemma circuit_iff : closed_walk step valid b K x <-> exists c, c < NS std /\ walk std f c L = c /\ labelled std L u b c x.
Proof.
  assert (KL : K / 2 = L) by (unfold K; rewrite Nat.mul_comm, Nat.div_mul; auto).
  assert (FE : forall t, t < L -> f t = nth (db_sys b t) x 0 * 2 + nth (db_sys b t + 1) x 0).
  { intros t Ht. unfold f, couple. destruct (u_nth L b x LX t Ht) as [A B]. fold K in A, B. fold u in A, B. rewrite A, B. auto. }
  assert (FL : forall t, t < L -> f t < 4). { intros t Ht. rewrite FE by auto. pose proof (sys_bits t Ht). lia. }
  unfold closed_walk. rewrite KL. split.
  - intros (_ & s & V0 & SC & SS). destruct (H2 _ V0) as [N0 C0].
    assert (W : forall t, t <= L -> s t = cells (walk std f (num (s 0)) t)).
    { induction t; intros Ht. { cbn [walk]. auto. }
      specialize (SS t ltac:(lia)). rewrite IHt in SS by lia. destruct (sys_bits t ltac:(lia)) as [A B].
      rewrite H3 in SS; auto. 2: { apply walk_lt; auto. intros. apply FL. lia. } rewrite <- FE in SS by lia. inversion SS. cbn [walk]. auto. }
    exists (num (s 0)). split; auto.
    assert (WL : forall t, t <= L -> walk std f (num (s 0)) t < NS std). { intros. apply walk_lt; auto. intros. apply FL. lia. }
    split.
    + rewrite <- SC at 2. rewrite (W L) by auto. symmetry. apply H1. auto.
    + intros t Ht. specialize (SS t Ht). rewrite W in SS by lia. destruct (sys_bits t Ht) as [A B].
      rewrite H3 in SS; auto. 2: { apply WL. lia. } rewrite <- FE in SS by lia. inversion SS. auto.
  - intros (c & Hc & W & LAB). split; auto. exists (fun t => cells (walk std f c t)).
    split. { apply H1. auto. } split. { rewrite W. auto. }
    intros t Ht. destruct (sys_bits t Ht) as [A B]. rewrite H3; auto. 2: { apply walk_lt; auto. intros. apply FL. lia. }
    rewrite <- FE by auto. destruct (LAB t Ht) as [L1 L2]. fold K in L1, L2. rewrite L1, L2. auto.
Qed.
End Circuit.

Lemma cyclic_iff : forall std L b x, length x = 2 * (2 * L) -> db_bits b (2 * L) x ->
  (cyclic std b (2 * L) x <-> exists c, c < NS std /\
     walk std (couple (tab (2 * L) (fun k => nth (db_pos b k) x 0))) c L = c /\ labelled std L (tab (2 * L) (fun k => nth (db_pos b k) x 0)) b c x).
Proof.
  intros [|] L b x LX BX.
  - apply (circuit_iff RCS1 _ rcs1_step valid3 num3 cells3); auto.
    + intros s Hs. change (NS RCS1) with 8 in Hs. do 8 (destruct s as [|s]; [split; [reflexivity|cbv -[lt]; lia]|]). lia.
    + intros [[s1 s2] s3] (A & B & C). change (NS RCS1) with 8. destruct (lt2 _ A), (lt2 _ B), (lt2 _ C); subst; cbv -[lt]; split; auto; lia.
    + intros a b' s Ha Hb Hs. change (NS RCS1) with 8 in Hs. do 8 (destruct s as [|s]; [destruct (lt2 _ Ha), (lt2 _ Hb); subst; reflexivity|]). lia.
  - apply (circuit_iff RCS2 _ rcs2_step valid4 num4 cells4); auto.
    + intros s Hs. change (NS RCS2) with 16 in Hs. do 16 (destruct s as [|s]; [split; [reflexivity|cbv -[lt]; lia]|]). lia.
    + intros [[[s1 s2] s3] s4] (A & B & C & D). change (NS RCS2) with 16. destruct (lt2 _ A), (lt2 _ B), (lt2 _ C), (lt2 _ D); subst; cbv -[lt]; split; auto; lia.
    + intros a b' s Ha Hb Hs. change (NS RCS2) with 16 in Hs. do 16 (destruct s as [|s]; [destruct (lt2 _ Ha), (lt2 _ Hb); subst; reflexivity|]). lia.
Qed.

Lemma even_half : forall K, K mod 2 = 0 -> K = 2 * (K / 2).
Proof. intros. pose proof (Nat.div_mod K 2 ltac:(lia)). lia. Qed.

Lemma tab_carries : forall b u o, db_carries b u o -> tab (length u) (fun k => nth (db_pos b k) o 0) = u.
Proof. intros. symmetry. apply (eq_tab _ 0); auto. intros i Hi. symmetry. apply H. auto. Qed.

Lemma db_encode_cyclic : forall std K u x b, K mod 2 = 0 -> (K / 2) mod (NS std - 1) <> 0 -> bits u -> length u = K -> length x = 2 * K ->
  exists o, db_encode std b K u x = Ret o /\ length o = 2 * K /\ cyclic std b K o /\ db_carries b u o.
Proof.
  intros std K u x b EV HL BU LU LX. set (L := K / 2) in *. assert (EK : K = 2 * L) by (apply even_half; auto). clearbody L. symmetry in EK. destruct EK.
  destruct (db_encode_ok std L u BU LU HL b x LX) as (o & c & E & Lo & Hc & W & LAB & CA). exists o. split; auto. split; auto. split; auto.
  pose proof (tab_carries b u o CA) as TE. rewrite LU in TE. apply cyclic_iff; auto.
  - intros k Hk. rewrite CA by lia. apply bits_nth. auto.
  - exists c. rewrite TE. auto.
Qed.

Lemma db_check_cyclic : forall std K x b, K mod 2 = 0 -> (K / 2) mod (NS std - 1) <> 0 -> length x = 2 * K -> db_bits b K x ->
  exists r, db_is_codeword std b K x = Ret r /\ (r = true <-> cyclic std b K x).
Proof.
  intros std K x b EV HL LX BX. set (L := K / 2) in *. assert (EK : K = 2 * L) by (apply even_half; auto). clearbody L. symmetry in EK. destruct EK.
  destruct (db_is_codeword_ok std L b x LX BX HL) as (r & E & I). exists r. split; auto. rewrite I. symmetry. apply cyclic_iff; auto.
Qed.

Lemma db_red_cover : forall b L q, q < 2 * (2 * L) -> exists t, t < L /\
  (q = db_sys b t \/ q = db_sys b t + 1 \/ q = db_red b (2 * L) t \/ q = db_red b (2 * L) t + 1).
Proof.
  intros b L q Hq. unfold db_sys, db_red. destruct b.
  - destruct (Nat.lt_ge_cases q (2 * L)).
    + exists (q / 2). pose proof (Nat.div_mod q 2 ltac:(lia)). pose proof (mod2_lt q). split; [apply Nat.div_lt_upper_bound; lia|]. lia.
    + exists ((q - 2 * L) / 2). pose proof (Nat.div_mod (q - 2 * L) 2 ltac:(lia)). pose proof (mod2_lt (q - 2 * L)). split; [apply Nat.div_lt_upper_bound; lia|]. lia.
  - exists (q / 4). pose proof (Nat.div_mod q 4 ltac:(lia)). pose proof (Nat.mod_upper_bound q 4 ltac:(lia)). split; [apply Nat.div_lt_upper_bound; lia|]. lia.
Qed.

Lemma cyclic_unique : forall std K b x y, K mod 2 = 0 -> (K / 2) mod (NS std - 1) <> 0 -> db_bits b K x ->
  cyclic std b K x -> cyclic std b K y -> (forall k, k < K -> nth (db_pos b k) x 0 = nth (db_pos b k) y 0) -> x = y.
Proof.
  intros std K b x y EV HL BX CX CY E. set (L := K / 2) in *. assert (EK : K = 2 * L) by (apply even_half; auto). clearbody L. symmetry in EK. destruct EK.
  assert (LX : length x = 2 * (2 * L)) by (destruct std; apply CX). assert (LY : length y = 2 * (2 * L)) by (destruct std; apply CY).
  assert (BY : db_bits b (2 * L) y). { intros k Hk. rewrite <- E by auto. auto. }
  assert (TE : tab (2 * L) (fun k => nth (db_pos b k) y 0) = tab (2 * L) (fun k => nth (db_pos b k) x 0)). { apply tab_ext. intros. symmetry. auto. }
  apply cyclic_iff in CX; auto. apply cyclic_iff in CY; auto. rewrite TE in CY. set (u := tab _ _) in *.
  assert (BU : bits u). { apply bits_tab. intros. apply BX. auto. }
  destruct CX as (c & Hc & W & LAB). destruct CY as (c' & Hc' & W' & LAB').
  destruct (walk_close std (couple u) L (fun k _ => couple_lt u k BU) HL) as (c0 & Hc0 & _ & U).
  apply U in W; auto. apply U in W'; auto. subst c c'.
  apply list_eq_nth with (d := 0); [lia|]. intros q Hq. destruct (db_red_cover b L q) as (t & Ht & Q); [lia|].
  destruct (db_pos_couple b t) as [A B].
  destruct Q as [-> | [-> | [-> | ->]]].
  - rewrite <- A. apply E. lia. - rewrite <- B. apply E. lia.
  - rewrite (proj1 (LAB t Ht)), (proj1 (LAB' t Ht)). auto.
  - rewrite (proj2 (LAB t Ht)), (proj2 (LAB' t Ht)). auto.
Qed.

(** ** The trellis *)
Definition dbt_check (S : nat) (next y w : nat -> nat -> nat) (t : list (list Z)) : bool :=
  (length t =? 4) && forallb (fun s => forallb (fun i =>
    (entry t 0 (s * 4 + i) =? Z.of_nat (next i s))%Z &&
    (Z.to_nat (entry t 1 (s * 4 + i)) <? S) && (entry t 1 (s * 4 + i) =? Z.of_nat (Z.to_nat (entry t 1 (s * 4 + i))))%Z && (next i (Z.to_nat (entry t 1 (s * 4 + i))) =? s) &&
    (entry t 2 (s * 4 + i) =? 1 - 2 * Z.of_nat (y i s))%Z && (entry t 3 (s * 4 + i) =? 1 - 2 * Z.of_nat (w i s))%Z) (seq 0 4)) (seq 0 S).
Lemma dbt_check_ok : forall S next y w t, dbt_check S next y w t = true -> db_trellis_ok S next y w t.
Proof.
  intros S next y w t H. apply andb_prop in H. destruct H as [H0 H]. split. { apply Nat.eqb_eq. auto. }
  intros s i Hs Hi. pose proof (all_below _ _ (all_below _ _ H s Hs) i Hi) as Q. cbn beta in Q. rewrite !andb_true_iff in Q.
  destruct Q as (((((Q1 & Q2) & Q3) & Q4) & Q5) & Q6). rewrite Z.eqb_eq in *. rewrite Nat.eqb_eq in *. rewrite Nat.ltb_lt in *. eauto 10.
Qed.

(** ** The double-binary turbo encoder *)
Definition swapped (x : list nat) (q : nat) : nat :=
  if q mod 4 =? 0 then nth (q + 1) x 0 else if q mod 4 =? 1 then nth (q - 1) x 0 else nth q x 0.

Lemma mod4 : forall t c, c < 4 -> (4 * t + c) mod 4 = c.
Proof. intros. rewrite Nat.mul_comm. apply divmod_idx. auto. Qed.

Lemma interleave_ok : forall L lut (c ui : list nat), 2 * L <= length c -> length ui = 2 * L -> length lut = L -> Forall (fun p => p < L) lut ->
  exists c', tdb_interleave (2 * L) lut c ui = Ret (c', tab (2 * L) (tdb_bit lut c)) /\ length c' = length c.
Proof.
  intros L lut c ui LC LU LL FL. unfold tdb_interleave. set (M := (2 * L + 3) / 4).
  assert (HM : forall t, t < M -> 4 * t + 1 < 2 * L).
  { intros t Ht. unfold M in Ht. pose proof (Nat.div_mod (2 * L + 3) 4 ltac:(lia)). pose proof (Nat.mod_upper_bound (2 * L + 3) 4 ltac:(lia)). lia. }
  assert (HM2 : 2 * L <= 4 * M).
  { unfold M. pose proof (Nat.div_mod (2 * L + 3) 4 ltac:(lia)). pose proof (Nat.mod_upper_bound (2 * L + 3) 4 ltac:(lia)). lia. }
  match goal with |- context [for_ M ?body c] => destruct (for_inv _ (fun t y => length y = length c /\ forall q, nth q y 0 = if q <? 4 * t then swapped c q else nth q c 0) M body c) as (c' & E & LC' & IC) end.
  { split; auto. }
  { intros t y Ht (LY & IY). specialize (HM t Ht). unfold swap_at. rewrite !(rd_ok _ 0) by lia. cbn [bind]. rewrite wr_ok by lia. cbn [bind].
    rewrite wr_ok by (rewrite length_upd; lia). eexists. split; [reflexivity|]. rewrite !length_upd. split; auto.
    intros q. rewrite nth_upd by (rewrite length_upd; lia). rewrite nth_upd by lia. rewrite !IY.
    destruct (Nat.ltb_spec (4 * t) (4 * t)); [lia|]. destruct (Nat.ltb_spec (4 * t + 1) (4 * t)); [lia|].
    destruct (Nat.eqb_spec q (4 * t + 1)) as [->|N1].
    { destruct (Nat.ltb_spec (4 * t + 1) (4 * S t)); [|lia]. unfold swapped. rewrite mod4 by lia. cbn [Nat.eqb]. f_equal. lia. }
    destruct (Nat.eqb_spec q (4 * t)) as [->|N2].
    { destruct (Nat.ltb_spec (4 * t) (4 * S t)); [|lia]. unfold swapped. replace ((4 * t) mod 4) with 0; auto. symmetry. replace (4 * t) with (4 * t + 0) by lia. apply mod4. lia. }
    destruct (Nat.ltb_spec q (4 * t)); destruct (Nat.ltb_spec q (4 * S t)); auto; [lia|].
    assert (Q : q = 4 * t + 2 \/ q = 4 * t + 3) by lia. unfold swapped. destruct Q as [-> | ->]; rewrite mod4 by lia; auto. }
  rewrite E. cbn [bind]. clear E. rewrite half.
  assert (CB : forall p, p < L -> nth (p * 2 + 0) c' 0 = (if Nat.even p then nth (2 * p + 1) c 0 else nth (2 * p) c 0) /\
                                  nth (p * 2 + 1) c' 0 = (if Nat.even p then nth (2 * p) c 0 else nth (2 * p + 1) c 0)).
  { intros p Hp. rewrite !IC. destruct (Nat.ltb_spec (p * 2 + 0) (4 * M)); [|lia]. destruct (Nat.ltb_spec (p * 2 + 1) (4 * M)); [|lia]. unfold swapped.
    destruct (Nat.even p) eqn:EP.
    - apply Nat.even_spec in EP. destruct EP as [t ->]. replace (2 * t * 2 + 0) with (4 * t + 0) by lia. replace (2 * t * 2 + 1) with (4 * t + 1) by lia.
      rewrite !mod4 by lia. cbn [Nat.eqb]. split; f_equal; lia.
    - assert (OP : Nat.odd p = true) by (rewrite <- Nat.negb_even, EP; auto). apply Nat.odd_spec in OP. destruct OP as [t ->].
      replace ((2 * t + 1) * 2 + 0) with (4 * t + 2) by lia. replace ((2 * t + 1) * 2 + 1) with (4 * t + 3) by lia.
      rewrite !mod4 by lia. cbn [Nat.eqb]. split; f_equal; lia. }
  match goal with |- context [for_ L ?body ui] => destruct (for_write2 nat 0 (tdb_bit lut c) (fun t => 2 * t + 0) (fun t => 2 * t + 1) L body ui) as (o & E & LO & IO) end.
  { intros t y Ht LY. split; [lia|]. split; [lia|]. rewrite (rd_ok _ 0 lut) by lia. cbn [bind].
    assert (HP : nth t lut 0 < L). { rewrite Forall_forall in FL. apply FL. apply nth_In. lia. }
    rewrite !(rd_ok _ 0) by lia. cbn [bind]. destruct (CB _ HP) as [-> ->].
    unfold tdb_bit. rewrite (Nat.mul_comm 2 t). destruct (divmod_idx t 0 2 ltac:(lia)) as [-> ->]. destruct (divmod_idx t 1 2 ltac:(lia)) as [-> ->].
    cbn [Nat.sub]. rewrite !Nat.add_0_r. destruct (Nat.even (nth t lut 0)); auto. }
  rewrite E. cbn [bind]. exists c'. split; auto. do 2 f_equal. apply (eq_tab _ 0); [lia|]. intros q Hq. apply IO; [lia|].
  exists (q / 2). pose proof (Nat.div_mod q 2 ltac:(lia)). pose proof (mod2_lt q). split; [apply Nat.div_lt_upper_bound; lia|]. lia.
Qed.

Section Tdb.
Variables (sn si : db_std) (L : nat) (lut : list nat).
Let K := 2 * L.
Hypothesis LL : length lut = L.
Hypothesis FL : Forall (fun p => p < L) lut.
Hypothesis Hn : L mod (NS sn - 1) <> 0.
Hypothesis Hi : L mod (NS si - 1) <> 0.

Lemma KL : K mod 2 = 0 /\ K / 2 = L.
Proof. clear. unfold K. replace (2 * L) with (L * 2 + 0) by lia. destruct (divmod_idx L 0 2 ltac:(lia)). auto. Qed.

Lemma tdb_bit_lt : forall x k, (forall i, i < K -> nth i x 0 < 2) -> k < K -> tdb_bit lut x k < 2.
Proof.
  intros x k B Hk. unfold tdb_bit. assert (HP : nth (k / 2) lut 0 < L).
  { rewrite Forall_forall in FL. apply FL. apply nth_In. rewrite LL. apply Nat.div_lt_upper_bound; unfold K in *; lia. }
  pose proof (mod2_lt k). destruct (Nat.even _); apply B; unfold K; lia.
Qed.

Lemma carries_first : forall u o i, db_carries true u o -> i < length u -> nth i o 0 = nth i u 0.
Proof. clear. intros. rewrite <- (H i H0). unfold db_pos, db_sys. rewrite <- Nat.div_mod by lia. auto. Qed.

Lemma sub_db_ok : forall std u tmp, L mod (NS std - 1) <> 0 -> bits u -> length u = K -> 2 * K <= length tmp ->
  exists o, (if 2 * K <=? length tmp then y <- db_encode std true K u (firstn (2 * K) tmp) ;; Ret (y ++ skipn (2 * K) tmp) else Undef) = Ret (o ++ skipn (2 * K) tmp) /\
    length o = 2 * K /\ cyclic std true K o /\ forall i, i < K -> nth i o 0 = nth i u 0.
Proof.
  clear Hn Hi. intros std u tmp HL BU LU LT. destruct (Nat.leb_spec (2 * K) (length tmp)); [|lia]. destruct KL as [K1 K2].
  destruct (db_encode_cyclic std K u (firstn (2 * K) tmp) true) as (o & E & LO & C & CA); auto. { rewrite K2. auto. } { rewrite firstn_length. lia. }
  exists o. rewrite E. cbn [bind]. split; auto. split; auto. split; auto. intros i Hi. apply carries_first; auto. lia.
Qed.

Lemma tdb_encode_ok : forall u x cpy ui tmp pn pi, bits u -> length u = K -> length x = 3 * K ->
  length cpy = K -> length ui = K -> length tmp = 3 * K -> length pn = K -> length pi = K ->
  exists o, tdb_encode sn si K lut cpy ui tmp pn pi u x = Ret o /\ tdb_code (cyclic sn true K) (cyclic si true K) K lut o /\ firstn K o = u.
Proof.
  intros u x cpy ui tmp pn pi BU LU LX LC LUI LT LPN LPI. unfold tdb_encode.
  rewrite (copy_list nat 0) by lia. cbn [bind firstn skipn app Nat.add]. rewrite (firstn_all2 u) by lia. rewrite (skipn_all2 cpy) by lia. rewrite app_nil_r.
  destruct (interleave_ok L lut u ui) as (c' & E & LC'); auto; [unfold K in *; lia|]. fold K in E. rewrite E. cbn [bind]. clear E.
  set (v := tab K (tdb_bit lut u)).
  assert (BV : bits v). { apply bits_tab. intros. apply tdb_bit_lt; auto. intros. apply bits_nth; auto. }
  assert (LV : length v = K) by apply length_tab.
  destruct (sub_db_ok sn u tmp Hn BU LU ltac:(lia)) as (on & E & LN & CN & IN). rewrite E. cbn [bind]. clear E.
  rewrite (copy_list nat 0) by (rewrite ?app_length, ?skipn_length; lia). cbn [bind firstn app Nat.add]. rewrite (skipn_all2 pn) by lia. rewrite app_nil_r.
  rewrite (skipn_app K on). replace (K - length on) with 0 by lia. cbn [skipn]. rewrite (firstn_app_exact _ K (skipn K on)) by (rewrite skipn_length; lia).
  destruct (sub_db_ok si v (on ++ skipn (2 * K) tmp) Hi BV LV) as (oi & E & LI & CI & II). { rewrite app_length, skipn_length. lia. } rewrite E. cbn [bind]. clear E.
  rewrite (copy_list nat 0) by (rewrite ?app_length, ?skipn_length; lia). cbn [bind firstn app Nat.add]. rewrite (skipn_all2 pi) by lia. rewrite app_nil_r.
  rewrite (skipn_app K oi). replace (K - length oi) with 0 by lia. cbn [skipn]. rewrite (firstn_app_exact _ K (skipn K oi)) by (rewrite skipn_length; lia).
  rewrite (copy_list nat 0) by lia. cbn [bind firstn skipn app Nat.add]. rewrite (firstn_all2 u) by lia.
  set (qn := skipn K on). set (qi := skipn K oi). assert (LQN : length qn = K) by (unfold qn; rewrite skipn_length; lia). assert (LQI : length qi = K) by (unfold qi; rewrite skipn_length; lia).
  set (x1 := u ++ skipn K x). assert (LX1 : length x1 = 3 * K) by (unfold x1; rewrite app_length, skipn_length; lia).
  replace ((K + 1) / 2) with L by (symmetry; apply half). replace (K / 2) with L by (symmetry; apply KL).
  match goal with |- context [for_ L ?body (x1, K)] => destruct (for_inv _ (fun t '(y, j) => j = K + 2 * t /\ length y = 3 * K /\ (forall i, i < K -> nth i y 0 = nth i u 0) /\
     forall t', t' < t -> nth (K + 2 * t') y 0 = nth (2 * t') qn 0 /\ nth (K + 2 * t' + 1) y 0 = nth (2 * t') qi 0) L body (x1, K)) as ([y1 j1] & E & -> & LY1 & IU1 & IY1) end.
  { split; [lia|]. split; auto. split; [|intros; lia]. intros i Hi'. unfold x1. rewrite app_nth1 by lia. auto. }
  { intros t [y j] Ht (-> & LY & IU & IY). unfold K in *. rewrite !(rd_ok _ 0) by lia. cbn [bind]. rewrite wr_ok by lia. cbn [bind]. rewrite wr_ok by (rewrite length_upd; lia). cbn [bind].
    eexists. split; [reflexivity|]. cbn beta iota. rewrite !length_upd. split; [lia|]. split; auto. split.
    - intros i Hi'. rewrite !nth_upd by (rewrite ?length_upd; lia). rewrite !eqb_f by lia. auto.
    - intros t' Ht'. rewrite !nth_upd by (rewrite ?length_upd; lia). destruct (Nat.eq_dec t' t) as [->|NT].
      + rewrite (eqb_f (2 * L + 2 * t)) by lia. rewrite !Nat.eqb_refl. auto.
      + rewrite !eqb_f by lia. apply IY. lia. }
  rewrite E. cbn [bind]. clear E.
  match goal with |- context [for_ L ?body (y1, ?j0)] => destruct (for_inv _ (fun t '(y, j) => j = 2 * K + 2 * t /\ length y = 3 * K /\ (forall i, i < 2 * K -> nth i y 0 = nth i y1 0) /\
     forall t', t' < t -> nth (2 * K + 2 * t') y 0 = nth (2 * t' + 1) qn 0 /\ nth (2 * K + 2 * t' + 1) y 0 = nth (2 * t' + 1) qi 0) L body (y1, j0)) as ([y2 j2] & E & -> & LY2 & IU2 & IY2) end.
  { split; [unfold K; lia|]. split; auto. split; auto. intros; lia. }
  { intros t [y j] Ht (-> & LY & IU & IY). unfold K in *. rewrite !(rd_ok _ 0) by lia. cbn [bind]. rewrite wr_ok by lia. cbn [bind]. rewrite wr_ok by (rewrite length_upd; lia). cbn [bind].
    eexists. split; [reflexivity|]. cbn beta iota. rewrite !length_upd. split; [lia|]. split; auto. split.
    - intros i Hi'. rewrite !nth_upd by (rewrite ?length_upd; lia). rewrite !eqb_f by lia. auto.
    - intros t' Ht'. rewrite !nth_upd by (rewrite ?length_upd; lia). destruct (Nat.eq_dec t' t) as [->|NT].
      + rewrite (eqb_f (2 * (2 * L) + 2 * t)) by lia. rewrite !Nat.eqb_refl. auto.
      + rewrite !eqb_f by lia. apply IY. lia. }
  rewrite E. cbn [bind]. clear E. exists y2. split; auto.
  assert (SYS : forall i, i < K -> nth i y2 0 = nth i u 0). { intros. rewrite IU2 by lia. auto. }
  assert (YY : forall t, t < L -> nth (K + 2 * t) y2 0 = nth (K + 2 * t) on 0 /\ nth (K + 2 * t + 1) y2 0 = nth (K + 2 * t) oi 0).
  { intros t Ht. rewrite !IU2 by (unfold K; lia). destruct (IY1 t Ht) as [-> ->]. unfold qn, qi. rewrite !nth_skipn_add. auto. }
  assert (WW : forall t, t < L -> nth (2 * K + 2 * t) y2 0 = nth (K + 2 * t + 1) on 0 /\ nth (2 * K + 2 * t + 1) y2 0 = nth (K + 2 * t + 1) oi 0).
  { intros t Ht. destruct (IY2 t Ht) as [-> ->]. unfold qn, qi. rewrite !nth_skipn_add, !Nat.add_assoc. auto. }
  assert (QT : forall q, K <= q < 2 * K -> (q - K) / 2 < L /\ q = K + 2 * ((q - K) / 2) + (q - K) mod 2 /\ (q - K) mod 2 < 2).
  { clear. intros q Hq. pose proof (Nat.div_mod (q - K) 2 ltac:(lia)). pose proof (mod2_lt (q - K)). unfold K in *. split; [apply Nat.div_lt_upper_bound; lia|]. lia. }
  split; [split; [auto|split]|].
  - replace (tdb_n K y2) with on; auto. apply (eq_tab _ 0); auto. intros q Hq. destruct (Nat.ltb_spec q K). { rewrite SYS, IN; auto. }
    destruct (QT q ltac:(lia)) as (A & B & C). destruct (YY _ A) as [-> _]. destruct (WW _ A) as [-> _].
    destruct (lt2 _ C) as [Z|Z]; rewrite Z in *; cbn [Nat.eqb]; f_equal; lia.
  - replace (tdb_i K lut y2) with oi; auto. apply (eq_tab _ 0); auto. intros q Hq. destruct (Nat.ltb_spec q K).
    { rewrite II by auto. unfold v. rewrite nth_tab by auto. unfold tdb_bit. assert (HP : nth (q / 2) lut 0 < L).
      { rewrite Forall_forall in FL. apply FL. apply nth_In. rewrite LL. apply Nat.div_lt_upper_bound; unfold K in *; lia. }
      pose proof (mod2_lt q). destruct (Nat.even _); rewrite SYS; auto; unfold K; lia. }
    destruct (QT q ltac:(lia)) as (A & B & C). destruct (YY _ A) as [_ ->]. destruct (WW _ A) as [_ ->].
    destruct (lt2 _ C) as [Z|Z]; rewrite Z in *; cbn [Nat.eqb]; f_equal; lia.
  - apply list_eq_nth with (d := 0). { rewrite firstn_length. lia. } intros i Hi'. rewrite firstn_length in Hi'. rewrite nth_firstn_lt by lia. apply SYS. lia.
Qed.

Lemma tdb_is_codeword_ok : forall x ui tmp, length x = 3 * K -> (forall i, i < K -> nth i x 0 < 2) -> length ui = K -> length tmp = 3 * K ->
  exists r, tdb_is_codeword sn si K lut ui tmp x = Ret r /\ (r = true <-> tdb_code (cyclic sn true K) (cyclic si true K) K lut x).
Proof.
  intros x ui tmp LX BX LUI LT. unfold tdb_is_codeword. destruct KL as [KE K2].
  assert (POS : forall (F : nat -> nat) q, K <= q < 2 * K -> exists t, t < L /\ (q = K + (2 * t + 0) \/ q = K + (2 * t + 1))).
  { clear. intros _ q Hq. exists ((q - K) / 2). pose proof (Nat.div_mod (q - K) 2 ltac:(lia)). pose proof (mod2_lt (q - K)). unfold K in *. split; [apply Nat.div_lt_upper_bound; lia|]. lia. }
  assert (DIV : forall t c, c < 2 -> (K + (2 * t + c) - K) / 2 = t /\ (K + (2 * t + c) - K) mod 2 = c).
  { clear. intros. replace (K + (2 * t + c) - K) with (t * 2 + c) by lia. apply divmod_idx. auto. }
  assert (DBP : forall k, db_pos true k = k). { intros. unfold db_pos, db_sys. symmetry. apply Nat.div_mod. lia. }
  rewrite (copy_list nat 0) by lia. cbn [bind firstn skipn app Nat.add].
  set (t0 := firstn K x ++ skipn K tmp). assert (L0 : length t0 = 3 * K) by (unfold t0; rewrite app_length, firstn_length, skipn_length; lia).
  assert (I0 : forall i, i < K -> nth i t0 0 = nth i x 0). { intros. unfold t0. rewrite app_nth1 by (rewrite firstn_length; lia). apply nth_firstn_lt. auto. }
  replace ((K + 1) / 2) with L by (symmetry; apply half).
  set (Fn := fun q => nth q (tdb_n K x) 0). set (Fi := fun q => nth q (tdb_i K lut x) 0).
  match goal with |- context [for_ L ?body t0] => destruct (for_write2 nat 0 Fn (fun t => K + (2 * t + 0)) (fun t => K + (2 * t + 1)) L body t0) as (t1 & E & L1 & I1) end.
  { intros t y Ht LY. unfold K in LX, L0 |- *. split; [lia|]. split; [lia|]. rewrite !(rd_ok _ 0) by lia. cbn [bind]. fold K. unfold Fn, tdb_n. rewrite !nth_tab by (unfold K; lia).
    destruct (Nat.ltb_spec (K + (2 * t + 0)) K); [lia|]. destruct (Nat.ltb_spec (K + (2 * t + 1)) K); [lia|].
    destruct (DIV t 0 ltac:(lia)) as [-> ->]. destruct (DIV t 1 ltac:(lia)) as [-> ->]. cbn [Nat.eqb]. rewrite Nat.mul_1_l, !Nat.add_0_r. auto. }
  rewrite E. cbn [bind]. clear E.
  destruct (Nat.leb_spec (2 * K) (length t1)); [|lia].
  assert (F1 : firstn (2 * K) t1 = tdb_n K x).
  { apply (eq_tab _ 0). { rewrite firstn_length. lia. } intros q Hq. rewrite nth_firstn_lt by auto. destruct (Nat.ltb_spec q K) as [Q|Q].
    - destruct (I1 q ltac:(lia)) as [_ ->]; auto. intros; lia.
    - rewrite (proj1 (I1 q ltac:(lia))) by (apply (POS Fn); lia). unfold Fn, tdb_n. rewrite nth_tab by auto. destruct (Nat.ltb_spec q K); auto. lia. }
  rewrite F1.
  destruct (db_check_cyclic sn K (tdb_n K x) true) as (r1 & R1 & J1); auto. { rewrite K2. auto. } { apply length_tab. }
  { intros k Hk. rewrite DBP. unfold tdb_n. rewrite nth_tab by lia. destruct (Nat.ltb_spec k K); [auto|lia]. }
  rewrite R1. cbn [bind]. destruct r1; cbn [negb].
  2: { exists false. split; auto. split; [discriminate|]. intros (_ & Q & _). apply J1. auto. }
  destruct (interleave_ok L lut t1 ui) as (c' & E & LC'); auto. { fold K. lia. } fold K in E. rewrite E. cbn [bind]. clear E.
  assert (BT : tab K (tdb_bit lut t1) = tab K (tdb_bit lut x)).
  { apply tab_ext. intros k Hk. unfold tdb_bit. assert (HP : nth (k / 2) lut 0 < L).
    { rewrite Forall_forall in FL. apply FL. apply nth_In. rewrite LL. apply Nat.div_lt_upper_bound; unfold K in *; lia. }
    assert (T1 : forall i, i < K -> nth i t1 0 = nth i x 0). { intros i Hi'. destruct (I1 i ltac:(lia)) as [_ ->]; auto. intros; lia. }
    pose proof (mod2_lt k). destruct (Nat.even _); apply T1; unfold K; lia. }
  rewrite BT. set (v := tab K (tdb_bit lut x)). assert (LV : length v = K) by apply length_tab.
  rewrite (copy_list nat 0) by lia. cbn [bind firstn skipn app Nat.add]. rewrite (firstn_all2 v) by lia.
  set (t2 := v ++ skipn K c'). assert (L2 : length t2 = 3 * K) by (unfold t2; rewrite app_length, skipn_length; lia).
  match goal with |- context [for_ L ?body t2] => destruct (for_write2 nat 0 Fi (fun t => K + (2 * t + 0)) (fun t => K + (2 * t + 1)) L body t2) as (t3 & E & L3 & I3) end.
  { intros t y Ht LY. unfold K in LX, L2 |- *. split; [lia|]. split; [lia|]. rewrite !(rd_ok _ 0) by lia. cbn [bind]. fold K. unfold Fi, tdb_i. rewrite !nth_tab by (unfold K; lia).
    destruct (Nat.ltb_spec (K + (2 * t + 0)) K); [lia|]. destruct (Nat.ltb_spec (K + (2 * t + 1)) K); [lia|].
    destruct (DIV t 0 ltac:(lia)) as [-> ->]. destruct (DIV t 1 ltac:(lia)) as [-> ->]. cbn [Nat.eqb]. rewrite Nat.mul_1_l. auto. }
  rewrite E. cbn [bind]. clear E. destruct (Nat.leb_spec (2 * K) (length t3)); [|lia].
  assert (F3 : firstn (2 * K) t3 = tdb_i K lut x).
  { apply (eq_tab _ 0). { rewrite firstn_length. lia. } intros q Hq. rewrite nth_firstn_lt by auto. destruct (Nat.ltb_spec q K) as [Q|Q].
    - destruct (I3 q ltac:(lia)) as [_ ->]; [|intros; lia]. unfold t2. rewrite app_nth1 by lia. unfold v. rewrite nth_tab; auto.
    - rewrite (proj1 (I3 q ltac:(lia))) by (apply (POS Fi); lia). unfold Fi, tdb_i. rewrite nth_tab by auto. destruct (Nat.ltb_spec q K); auto. lia. }
  rewrite F3.
  destruct (db_check_cyclic si K (tdb_i K lut x) true) as (r2 & R2 & J2); auto. { rewrite K2. auto. } { apply length_tab. }
  { intros k Hk. rewrite DBP. unfold tdb_i. rewrite nth_tab by lia. destruct (Nat.ltb_spec k K); [|lia]. apply tdb_bit_lt; auto. }
  exists r2. split; auto. rewrite J2. split.
  - intros Q. split; auto. split; auto. apply J1. auto.
  - intros (_ & _ & Q). auto.
Qed.
End Tdb.
