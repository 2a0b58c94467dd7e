(** Proofs for ReorderModel. *)
From Coq Require Import List Arith Lia Bool ZArith.
From Verif Require Import Base WLoops UtilModel UtilProps ReorderModel.
Import ListNotations.

Section Reorder.
Variable T : Type.
Variable d : T.
Variable V : nat.
Local Notation stage := (stage T d V).
Local Notation pick := (pick T d).

(** [n] registers of V elements. *)
Definition regs_ok (n : nat) (regs : list (list T)) : Prop := length regs = n /\ forall f, f < n -> length (nth f regs []) = V.

Lemma regs_upd : forall n regs f r, regs_ok n regs -> length r = V -> regs_ok n (upd regs f r).
Proof.
  intros n regs f r [L A] R. split; [rewrite length_upd; exact L|]. intros g Hg. destruct (Nat.eq_dec g f) as [->|N].
  - rewrite nth_upd_eq by lia. exact R.
  - rewrite nth_upd_neq by congruence. apply A, Hg.
Qed.

(** The final content of register q. *)
Definition mixed (L : nat) (regs : list (list T)) (q : nat) : list T :=
  let b := (q / L) mod 2 in let base := q - b * L in tab V (fun p => pick (nth base regs []) (nth (base + L) regs []) (b * V + p)).

Lemma stage_index : forall L k b l, b < 2 -> l < L -> (k * L * 2 + b * L + l) / L = 2 * k + b /\ (k * L * 2 + b * L + l) mod L = l.
Proof. intros L k b l Hb Hl. replace (k * L * 2 + b * L + l) with ((2 * k + b) * L + l) by lia. apply divmod_idx. exact Hl. Qed.

Lemma mixed_at : forall L regs k b l, b < 2 -> l < L ->
  mixed L regs (k * L * 2 + b * L + l) = tab V (fun p => pick (nth (k * L * 2 + l) regs []) (nth (k * L * 2 + L + l) regs []) (b * V + p)).
Proof.
  intros L regs k b l Hb Hl. unfold mixed. destruct (stage_index L k b l Hb Hl) as [E _]. rewrite E. replace ((2 * k + b) mod 2) with b by (rewrite Nat.add_comm, Nat.mul_comm, Nat.mod_add by lia; symmetry; apply Nat.mod_small, Hb).
  replace (k * L * 2 + b * L + l - b * L) with (k * L * 2 + l) by lia. replace (k * L * 2 + l + L) with (k * L * 2 + L + l) by lia. reflexivity.
Qed.

(** The registers done before (k, l). *)
Definition done (L k l q : nat) : bool := (q / L / 2 <? k) || ((q / L / 2 =? k) && (q mod L <? l)).

Lemma done_at : forall L k l k' b l', b < 2 -> l' < L -> done L k l (k' * L * 2 + b * L + l') = (k' <? k) || ((k' =? k) && (l' <? l)).
Proof.
  intros L k l k' b l' Hb Hl. unfold done. destruct (stage_index L k' b l' Hb Hl) as [-> ->]. replace ((2 * k' + b) / 2) with k'; [reflexivity|].
  rewrite Nat.add_comm, Nat.mul_comm, Nat.div_add by lia. rewrite Nat.div_small by lia. reflexivity.
Qed.

Lemma index_split : forall L q, 0 < L -> q = q / L / 2 * L * 2 + (q / L) mod 2 * L + q mod L /\ (q / L) mod 2 < 2 /\ q mod L < L.
Proof.
  intros L q HL. pose proof (Nat.div_mod q L ltac:(lia)). pose proof (Nat.div_mod (q / L) 2 ltac:(lia)). split; [nia|]. split; apply Nat.mod_upper_bound; lia.
Qed.

Lemma stage_ok : forall K L regs, 0 < L -> regs_ok (K * L * 2) regs ->
  exists regs', stage K L regs = Ret regs' /\ regs_ok (K * L * 2) regs' /\ forall q, q < K * L * 2 -> nth q regs' [] = mixed L regs q.
Proof.
  intros K L regs HL RO. unfold ReorderModel.stage.
  match goal with |- context [for_ K ?body regs] => destruct (for_inv _ (fun k x => regs_ok (K * L * 2) x /\ forall q, q < K * L * 2 -> nth q x [] = if done L k 0 q then mixed L regs q else nth q regs []) K body regs) as (x & E & R & I) end.
  - split; [exact RO|]. intros q Hq. unfold done. rewrite (proj2 (Nat.ltb_ge (q mod L) 0)), andb_false_r by lia. reflexivity.
  - intros k x Hk (R & I). cbv zeta.
    match goal with |- context [for_ L ?body x] => destruct (for_inv _ (fun l x => regs_ok (K * L * 2) x /\ forall q, q < K * L * 2 -> nth q x [] = if done L k l q then mixed L regs q else nth q regs []) L body x) as (y & E & R' & I') end.
    + split; assumption.
    + intros l y Hl (Ry & Iy). assert (B1 : k * L * 2 + l < K * L * 2) by nia. assert (B2 : k * L * 2 + L + l < K * L * 2) by nia.
      pose proof (proj1 Ry) as Ly. rewrite (rd_ok _ [] _ _ ltac:(rewrite Ly; exact B1)). cbn [bind]. rewrite (rd_ok _ [] _ _ ltac:(rewrite Ly; exact B2)). cbn [bind].
      rewrite wr_ok by (rewrite Ly; exact B1). cbn [bind]. rewrite wr_ok by (rewrite length_upd, Ly; exact B2). eexists. split; [reflexivity|].
      assert (D0 : done L k l (k * L * 2 + l) = false).
      { pose proof (done_at L k l k 0 l ltac:(lia) Hl) as X. rewrite Nat.mul_0_l, Nat.add_0_r in X. rewrite X, Nat.ltb_irrefl, Nat.eqb_refl, Nat.ltb_irrefl. reflexivity. }
      assert (D1 : done L k l (k * L * 2 + L + l) = false).
      { pose proof (done_at L k l k 1 l ltac:(lia) Hl) as X. rewrite Nat.mul_1_l in X. rewrite X, Nat.ltb_irrefl, Nat.eqb_refl, Nat.ltb_irrefl. reflexivity. }
      assert (M0 : mixed L regs (k * L * 2 + l) = fst (interleave T d V (nth (k * L * 2 + l) y []) (nth (k * L * 2 + L + l) y []))).
      { pose proof (mixed_at L regs k 0 l ltac:(lia) Hl) as X. rewrite Nat.mul_0_l, Nat.add_0_r in X. rewrite X, (Iy _ B1), (Iy _ B2), D0, D1. reflexivity. }
      assert (M1 : mixed L regs (k * L * 2 + L + l) = snd (interleave T d V (nth (k * L * 2 + l) y []) (nth (k * L * 2 + L + l) y []))).
      { pose proof (mixed_at L regs k 1 l ltac:(lia) Hl) as X. rewrite Nat.mul_1_l in X. rewrite X, (Iy _ B1), (Iy _ B2), D0, D1. unfold interleave. cbn [snd]. apply tab_ext. intros p _. rewrite Nat.mul_1_l. reflexivity. }
      split.
      * apply regs_upd; [apply regs_upd; [exact Ry|]|]; apply length_tab.
      * intros q Hq. rewrite !nth_upd by (rewrite ?length_upd, Ly; assumption). destruct (index_split L q HL) as (QS & QB & QL). set (k' := q / L / 2) in *. set (b' := (q / L) mod 2) in *. set (l' := q mod L) in *.
        destruct (Nat.eqb_spec q (k * L * 2 + L + l)) as [->|N2].
        { rewrite <- M1. pose proof (done_at L k (S l) k 1 l ltac:(lia) Hl) as X. rewrite Nat.mul_1_l in X. rewrite X, Nat.eqb_refl, (proj2 (Nat.ltb_lt l (S l)) ltac:(lia)), orb_true_r. reflexivity. }
        destruct (Nat.eqb_spec q (k * L * 2 + l)) as [->|N1].
        { rewrite <- M0. pose proof (done_at L k (S l) k 0 l ltac:(lia) Hl) as X. rewrite Nat.mul_0_l, Nat.add_0_r in X. rewrite X, Nat.eqb_refl, (proj2 (Nat.ltb_lt l (S l)) ltac:(lia)), orb_true_r. reflexivity. }
        rewrite Iy by exact Hq. rewrite QS, !done_at by assumption. assert (X : (k' =? k) && (l' <? S l) = (k' =? k) && (l' <? l)).
        { destruct (Nat.eqb_spec k' k) as [KK|]; [|reflexivity]. cbn [andb]. destruct (Nat.ltb_spec l' (S l)), (Nat.ltb_spec l' l); try reflexivity; try lia. exfalso. assert (LL : l' = l) by lia.
          rewrite KK, LL in QS. destruct b' as [|[|]]; [apply N1; lia|apply N2; lia|lia]. }
        rewrite X. reflexivity.
    + exists y. split; [exact E|]. split; [exact R'|]. intros q Hq. rewrite I' by exact Hq. destruct (index_split L q HL) as (QS & QB & QL). unfold done.
      assert (X : (q / L / 2 <? k) || ((q / L / 2 =? k) && (q mod L <? L)) = (q / L / 2 <? S k) || ((q / L / 2 =? S k) && (q mod L <? 0))).
      { rewrite (proj2 (Nat.ltb_lt (q mod L) L) QL), andb_true_r. rewrite (proj2 (Nat.ltb_ge (q mod L) 0)), andb_false_r, orb_false_r by lia.
        destruct (Nat.ltb_spec (q / L / 2) k), (Nat.eqb_spec (q / L / 2) k), (Nat.ltb_spec (q / L / 2) (S k)); try reflexivity; lia. }
      rewrite X. reflexivity.
  - exists x. split; [exact E|]. split; [exact R|]. intros q Hq. rewrite I by exact Hq. destruct (index_split L q HL) as (QS & QB & QL). unfold done.
    assert (q / L / 2 < K) by nia. rewrite (proj2 (Nat.ltb_lt _ _) H). reflexivity.
Qed.

Definition el (regs : list (list T)) (f p : nat) : T := nth p (nth f regs []) d.

Lemma stage_el : forall K L regs, 0 < L -> regs_ok (K * L * 2) regs ->
  exists regs', stage K L regs = Ret regs' /\ regs_ok (K * L * 2) regs' /\ 
    forall k b l p, k < K -> b < 2 -> l < L -> p < V -> el regs' (k * L * 2 + b * L + l) p = el regs (k * L * 2 + ((b * V + p) mod 2) * L + l) ((b * V + p) / 2).
Proof.
  intros K L regs HL RO. destruct (stage_ok K L regs HL RO) as (regs' & E & R & I). exists regs'. split; [exact E|]. split; [exact R|].
  intros k b l p Hk Hb Hl Hp. unfold el. rewrite I by nia. rewrite mixed_at by assumption. rewrite nth_tab by exact Hp. unfold ReorderModel.pick.
  pose proof (Nat.mod_upper_bound (b * V + p) 2 ltac:(lia)). destruct ((b * V + p) mod 2) as [|[|]] eqn:M; [|..|lia].
  - cbn [Nat.eqb]. rewrite Nat.mul_0_l, Nat.add_0_r. reflexivity.
  - cbn [Nat.eqb]. rewrite Nat.mul_1_l. reflexivity.
Qed.

(** After j stages of a cycle that starts with the elements G f p. *)
Definition cycle (m v j : nat) (G : nat -> nat -> T) (regs : list (list T)) : Prop :=
  regs_ok (2 ^ m) regs /\
  forall hi lo p, hi < 2 ^ j -> lo < 2 ^ (m - j) -> p < 2 ^ v -> el regs (hi * 2 ^ (m - j) + lo) p = G ((p mod 2 ^ j) * 2 ^ (m - j) + lo) (hi * 2 ^ (v - j) + p / 2 ^ j).

Lemma pow_pos : forall k, 0 < 2 ^ k.
Proof. intros k. apply Nat.neq_0_lt_0, Nat.pow_nonzero. lia. Qed.
Lemma pow_split : forall a b, b <= a -> 2 ^ a = 2 ^ (a - b) * 2 ^ b.
Proof. intros a b H. rewrite <- Nat.pow_add_r. f_equal. lia. Qed.

Lemma cycle_step : forall m v j G regs, V = 2 ^ v -> j < m -> j < v -> cycle m v j G regs ->
  exists regs', stage (2 ^ j) (2 ^ (m - S j)) regs = Ret regs' /\ cycle m v (S j) G regs'.
Proof.
  intros m v j G regs HV Hj Hv (R & I). pose proof (pow_pos (m - S j)) as PL.
  assert (N : 2 ^ j * 2 ^ (m - S j) * 2 = 2 ^ m) by (rewrite (Nat.mul_comm _ 2), <- Nat.pow_add_r, <- Nat.pow_succ_r'; f_equal; lia).
  assert (ML : 2 ^ (m - j) = 2 * 2 ^ (m - S j)) by (rewrite <- Nat.pow_succ_r'; f_equal; lia).
  assert (VL : 2 ^ (v - j) = 2 * 2 ^ (v - S j)) by (rewrite <- Nat.pow_succ_r'; f_equal; lia).
  destruct (stage_el (2 ^ j) (2 ^ (m - S j)) regs PL) as (regs' & E & R' & I'); [rewrite N; exact R|]. rewrite N in R'.
  exists regs'. split; [exact E|]. split; [exact R'|]. intros hi' lo p Hhi Hlo Hp. rewrite Nat.pow_succ_r' in Hhi.
  pose proof (Nat.div_mod hi' 2 ltac:(lia)) as DM. pose proof (Nat.mod_upper_bound hi' 2 ltac:(lia)) as HB. set (k := hi' / 2) in *. set (b := hi' mod 2) in *. assert (Hk : k < 2 ^ j) by lia.
  replace (hi' * 2 ^ (m - S j) + lo) with (k * 2 ^ (m - S j) * 2 + b * 2 ^ (m - S j) + lo) by nia. rewrite I' by (try assumption; lia).
  pose proof (Nat.mod_upper_bound (b * V + p) 2 ltac:(lia)) as HC. set (c := b * V + p) in *.
  replace (k * 2 ^ (m - S j) * 2 + c mod 2 * 2 ^ (m - S j) + lo) with (k * 2 ^ (m - j) + (c mod 2 * 2 ^ (m - S j) + lo)) by (rewrite ML; lia).
  assert (CV : c < 2 * V) by (unfold c; nia).
  rewrite I; [|exact Hk|rewrite ML; nia|rewrite HV in CV; apply Nat.div_lt_upper_bound; lia].
  assert (VS : V = 2 ^ (v - S j) * 2 ^ S j) by (rewrite HV; apply pow_split; lia).
  assert (C1 : c / 2 / 2 ^ j = b * 2 ^ (v - S j) + p / 2 ^ S j).
  { rewrite Nat.div_div by (try apply Nat.pow_nonzero; lia). rewrite <- Nat.pow_succ_r'. unfold c. rewrite VS. replace (b * (2 ^ (v - S j) * 2 ^ S j) + p) with (p + b * 2 ^ (v - S j) * 2 ^ S j) by lia. rewrite Nat.div_add by (apply Nat.pow_nonzero; lia). lia. }
  assert (C2 : (c / 2) mod 2 ^ j * 2 + c mod 2 = p mod 2 ^ S j).
  { rewrite <- (Nat.mod_add p (b * 2 ^ (v - S j)) (2 ^ S j)) by (apply Nat.pow_nonzero; lia). replace (p + b * 2 ^ (v - S j) * 2 ^ S j) with c by (unfold c; rewrite VS; lia).
    rewrite Nat.pow_succ_r'. rewrite Nat.mod_mul_r by (try apply Nat.pow_nonzero; lia). lia. }
  f_equal.
  - rewrite ML, <- C2. lia.
  - rewrite C1, VL. lia.
Qed.

(** ** apply *)
Lemma cycle_all : forall m v i j G regs fuel, V = 2 ^ v -> m <= v -> j + i = m -> i < fuel -> cycle m v j G regs ->
  exists regs', stages T d V fuel (2 ^ m) (2 ^ j) (2 ^ j) (2 ^ m / 2 ^ S j) regs = Ret regs' /\ cycle m v m G regs'.
Proof.
  intros m v i. induction i as [|i IH]; intros j G regs fuel HV Hmv Hji Hf C; (destruct fuel as [|fuel]; [lia|]); cbn [stages].
  - assert (j = m) by lia. subst j. rewrite Nat.ltb_irrefl. exists regs. split; [reflexivity|exact C].
  - rewrite (proj2 (Nat.ltb_lt _ _)) by (apply Nat.pow_lt_mono_r; lia).
    assert (Q : 2 ^ m / 2 ^ S j = 2 ^ (m - S j)) by (rewrite (pow_split m (S j)) by lia; apply Nat.div_mul, Nat.pow_nonzero; lia).
    destruct (cycle_step m v j G regs HV ltac:(lia) ltac:(lia) C) as (r1 & E1 & C1). rewrite Q, E1. cbn [bind]. rewrite <- Nat.pow_succ_r'.
    replace (2 ^ (m - S j) / 2) with (2 ^ m / 2 ^ S (S j)).
    + apply (IH (S j)); try assumption; lia.
    + rewrite (Nat.pow_succ_r' 2 (S j)), (Nat.mul_comm 2), <- Nat.div_div by (try apply Nat.pow_nonzero; lia). rewrite Q. reflexivity.
Qed.

Lemma static_all : forall m v i j G regs fuel, V = 2 ^ v -> m <= v -> j + i = m -> i < fuel -> cycle m v j G regs ->
  exists regs', static_core T d V fuel (2 ^ i) (2 ^ j) regs = Ret regs' /\ cycle m v m G regs'.
Proof.
  intros m v i. induction i as [|i IH]; intros j G regs fuel HV Hmv Hji Hf C; (destruct fuel as [|fuel]; [lia|]); cbn [static_core].
  - assert (j = m) by lia. subst j. exists regs. split; [reflexivity|exact C].
  - assert (Q : 2 ^ S i / 2 = 2 ^ (m - S j)) by (rewrite Nat.pow_succ_r', Nat.mul_comm, Nat.div_mul by lia; f_equal; lia).
    rewrite (proj2 (Nat.eqb_neq _ _)) by (rewrite Nat.pow_succ_r'; pose proof (pow_pos i); lia).
    destruct (cycle_step m v j G regs HV ltac:(lia) ltac:(lia) C) as (r1 & E1 & C1). rewrite Q, E1. cbn [bind]. rewrite <- Nat.pow_succ_r'.
    replace (2 ^ (m - S j)) with (2 ^ i) by (f_equal; lia). apply (IH (S j)); try assumption; lia.
Qed.

Lemma cycle_0 : forall m v regs, V = 2 ^ v -> regs_ok (2 ^ m) regs -> cycle m v 0 (el regs) regs.
Proof.
  intros m v regs HV R. split; [exact R|]. intros hi lo p Hhi Hlo Hp. cbn [Nat.pow] in *. rewrite Nat.mod_1_r, Nat.div_1_r. replace hi with 0 by lia. reflexivity.
Qed.

(** A whole cycle: the elements taken in the order of the frames. *)
Lemma cycle_m : forall m v G regs, V = 2 ^ v -> m <= v -> cycle m v m G regs -> regs_ok (2 ^ m) regs /\
  forall f p, f < 2 ^ m -> p < V -> el regs f p = G ((f * V + p) mod 2 ^ m) ((f * V + p) / 2 ^ m).
Proof.
  intros m v G regs HV Hmv (R & I). split; [exact R|]. intros f p Hf Hp. pose proof (I f 0 p) as X. rewrite Nat.sub_diag in X. cbn [Nat.pow] in X. rewrite !Nat.mul_1_r, !Nat.add_0_r in X. rewrite X by lia.
  assert (VS : V = 2 ^ (v - m) * 2 ^ m) by (rewrite HV; apply pow_split; lia). replace (f * V + p) with (p + f * 2 ^ (v - m) * 2 ^ m) by (rewrite VS; lia).
  rewrite Nat.mod_add, Nat.div_add by (apply Nat.pow_nonzero; lia). f_equal. lia.
Qed.

(** ** Memory *)
Definition newfr (off : nat) (r old : list T) : list T := tab (length old) (fun q => if (off <=? q) && (q <? off + V) then nth (q - off) r d else nth q old d).

Lemma store_ok : forall x off r, length r = V -> off + V <= length x -> store T V x off r = Ret (newfr off r x).
Proof.
  intros x off r LR LX. unfold store.
  match goal with |- for_ V ?body x = _ => destruct (for_inv _ (fun i y => length y = length x /\ forall q, q < length x -> nth q y d = if (off <=? q) && (q <? off + i) then nth (q - off) r d else nth q x d) V body x) as (y & E & L & I) end.
  - split; [reflexivity|]. intros q Hq. destruct (Nat.leb_spec off q), (Nat.ltb_spec q (off + 0)); try reflexivity. lia.
  - intros i y Hi (L & I). rewrite (rd_ok _ d) by lia. cbn [bind]. rewrite wr_ok by lia. eexists. split; [reflexivity|]. split; [rewrite length_upd; exact L|].
    intros q Hq. rewrite nth_upd by lia. destruct (Nat.eqb_spec q (off + i)) as [->|N].
    + rewrite (proj2 (Nat.leb_le off (off + i))), (proj2 (Nat.ltb_lt (off + i) (off + S i))) by lia. cbn [andb]. f_equal. lia.
    + rewrite I by exact Hq. destruct (Nat.leb_spec off q), (Nat.ltb_spec q (off + i)), (Nat.ltb_spec q (off + S i)); try reflexivity; lia.
  - rewrite E. f_equal. apply (eq_tab _ d); [exact L|exact I].
Qed.

Lemma load_ok : forall x off, off + V <= length x -> load T V x off = Ret (tab V (fun p => nth (off + p) x d)).
Proof. intros x off L. unfold load. apply gen_ok. intros i Hi. apply rd_ok. lia. Qed.

Lemma vectorized_pow : forall n v, V = 2 ^ v -> vectorized V n = true -> exists m, n = 2 ^ m /\ 1 <= m <= v.
Proof.
  intros n v HV H. unfold vectorized in H. apply andb_true_iff in H. destruct H as [H H3]. apply andb_true_iff in H. destruct H as [H1 H2]. apply Nat.leb_le in H2, H3.
  apply C73_power in H1. destruct H1 as (k & K & E). exists (Z.to_nat k). assert (N : n = 2 ^ Z.to_nat k).
  { apply Nat2Z.inj. rewrite E, Nat2Z.inj_pow, Z2Nat.id by lia. reflexivity. }
  split; [exact N|]. split.
  - destruct (Z.to_nat k) as [|j]; [cbn in N; lia|lia].
  - apply (Nat.pow_le_mono_r_iff 2); lia.
Qed.

(** ** apply *)
Section Apply.
Variable v : nat.
Hypothesis HV : V = 2 ^ v.
Variable reorder : nat -> list (list T) -> outcome (list (list T)).
Hypothesis RE : forall m regs, 1 <= m <= v -> regs_ok (2 ^ m) regs -> exists regs', reorder (2 ^ m) regs = Ret regs' /\ regs_ok (2 ^ m) regs' /\
  forall f p, f < 2 ^ m -> p < V -> el regs' f p = el regs ((f * V + p) mod 2 ^ m) ((f * V + p) / 2 ^ m).

Definition out_at (ins : list (list T)) (x : nat) : T := nth (x / length ins) (nth (x mod length ins) ins []) d.

Lemma seq_apply_ok : forall ins start len out0 out, (forall f, f < length ins -> len <= length (nth f ins [])) -> length ins * len <= length out0 -> start <= len ->
  length out = length out0 -> (forall q, q < length out0 -> nth q out d = if q <? start * length ins then out_at ins q else nth q out0 d) ->
  exists out', seq_apply T ins start len out = Ret out' /\ length out' = length out0 /\ forall q, q < length out0 -> nth q out' d = if q <? len * length ins then out_at ins q else nth q out0 d.
Proof.
  intros ins start len out0 out LI LO SL L0 I0. unfold seq_apply. set (n := length ins) in *.
  match goal with |- context [for_from start ?c ?body out] => destruct (for_from_inv _ (fun i y => length y = length out0 /\ forall q, q < length out0 -> nth q y d = if q <? i * n then out_at ins q else nth q out0 d) c start body out) as (y & E & L & I) end.
  - split; assumption.
  - intros i y Hi (L & I).
    match goal with |- context [for_ n ?body y] => destruct (for_inv _ (fun f y => length y = length out0 /\ forall q, q < length out0 -> nth q y d = if q <? i * n + f then out_at ins q else nth q out0 d) n body y) as (z & E & L' & I') end.
    + split; [exact L|]. rewrite Nat.add_0_r. exact I.
    + intros f z Hf (Lz & Iz). rewrite (rd_ok _ []) by exact Hf. cbn [bind]. specialize (LI f Hf). rewrite (rd_ok _ d) by lia. cbn [bind].
      assert (B : i * n + f < length out0) by nia. rewrite wr_ok by lia. eexists. split; [reflexivity|]. split; [rewrite length_upd; exact Lz|].
      intros q Hq. rewrite nth_upd by lia. destruct (Nat.eqb_spec q (i * n + f)) as [->|N].
      * rewrite (proj2 (Nat.ltb_lt _ _)) by lia. unfold out_at. fold n. destruct (divmod_idx i f n Hf) as [-> ->]. reflexivity.
      * rewrite Iz by exact Hq. destruct (Nat.ltb_spec q (i * n + f)), (Nat.ltb_spec q (i * n + S f)); try reflexivity; lia.
    + exists z. split; [exact E|]. split; [exact L'|]. intros q Hq. rewrite I' by exact Hq. replace (i * n + n) with (S i * n) by lia. reflexivity.
  - exists y. split; [exact E|]. split; [exact L|]. replace len with (start + (len - start)) by lia. exact I.
Qed.

Lemma apply_ok : forall ins len out, (forall f, f < length ins -> len <= length (nth f ins [])) -> length ins * len <= length out ->
  exists out', apply_with T V reorder ins out len = Ret out' /\ length out' = length out /\ forall q, q < length out -> nth q out' d = if q <? len * length ins then out_at ins q else nth q out d.
Proof.
  intros ins len out LI LO. unfold apply_with. destruct (vectorized V (length ins)) eqn:VE.
  2:{ apply seq_apply_ok; try assumption; try lia. intros q Hq. destruct (Nat.ltb_spec q (0 * length ins)); [lia|reflexivity]. }
  destruct (vectorized_pow _ v HV VE) as (m & N & Hm). pose proof (pow_pos v) as PV. rewrite <- HV in PV. pose proof (Nat.div_mod len V ltac:(lia)) as DL. pose proof (Nat.mod_upper_bound len V ltac:(lia)).
  remember (length ins) as n eqn:LN.
  match goal with |- context [for_ (len / V) ?body out] => destruct (for_inv _ (fun i y => length y = length out /\ forall q, q < length out -> nth q y d = if q <? i * V * n then out_at ins q else nth q out d) (len / V) body out) as (y & E & L & I) end.
  - split; [reflexivity|]. intros q Hq. destruct (Nat.ltb_spec q (0 * V * n)); [lia|reflexivity].
  - intros i y Hi (L & I). assert (BI : i * V + V <= len) by nia.
    rewrite (gen_ok _ n _ (fun f => tab V (fun p => nth (i * V + p) (nth f ins []) d))).
    2:{ intros f Hf. rewrite (rd_ok _ []) by lia. cbn [bind]. apply load_ok. specialize (LI f Hf). lia. }
    cbn [bind]. destruct (RE m (tab n (fun f => tab V (fun p => nth (i * V + p) (nth f ins []) d))) Hm) as (regs & ER & [RL RO] & RI).
    { rewrite <- N. split; [apply length_tab|]. intros f Hf. rewrite nth_tab by exact Hf. apply length_tab. }
    rewrite <- N in *. rewrite ER. cbn [bind].
    match goal with |- context [for_ n ?body y] => destruct (for_inv _ (fun f y => length y = length out /\ forall q, q < length out -> nth q y d = if q <? (i * n + f) * V then out_at ins q else nth q out d) n body y) as (z & E & L' & I') end.
    + split; [exact L|]. intros q Hq. rewrite I by exact Hq. replace ((i * n + 0) * V) with (i * V * n) by lia. reflexivity.
    + intros f z Hf (Lz & Iz). rewrite (rd_ok _ []) by lia. cbn [bind]. rewrite store_ok; [|apply RO, Hf|]. 2:{ rewrite Lz. assert ((i * n + f) * V + V <= n * len); [|lia]. assert (S i * V <= len) by lia. assert ((i * n + S f) * V <= (S i * n) * V) by nia. nia. }
      eexists. split; [reflexivity|]. split; [unfold newfr; rewrite length_tab; exact Lz|]. intros q Hq. unfold newfr. rewrite nth_tab by lia.
      destruct (Nat.leb_spec ((i * n + f) * V) q), (Nat.ltb_spec q ((i * n + f) * V + V)); cbn [andb].
      * rewrite (proj2 (Nat.ltb_lt q _)) by lia. fold (el regs f (q - (i * n + f) * V)). set (p := q - (i * n + f) * V). assert (HP : p < V) by lia. rewrite RI by (assumption || lia). unfold el.
        assert (0 < n) by lia. set (g := f * V + p). assert (GV : g < n * V) by (unfold g; nia). rewrite nth_tab by (apply Nat.mod_upper_bound; lia). rewrite nth_tab by (apply Nat.div_lt_upper_bound; lia).
        unfold out_at. rewrite <- LN. replace q with (g + i * V * n) by (unfold g, p; nia). rewrite Nat.mod_add, Nat.div_add by lia. f_equal. lia.
      * rewrite Iz by exact Hq. destruct (Nat.ltb_spec q ((i * n + f) * V)), (Nat.ltb_spec q ((i * n + S f) * V)); try reflexivity; lia.
      * rewrite Iz by exact Hq. destruct (Nat.ltb_spec q ((i * n + f) * V)), (Nat.ltb_spec q ((i * n + S f) * V)); try reflexivity; lia.
      * rewrite Iz by exact Hq. destruct (Nat.ltb_spec q ((i * n + f) * V)), (Nat.ltb_spec q ((i * n + S f) * V)); try reflexivity; lia.
    + exists z. split; [exact E|]. split; [exact L'|]. intros q Hq. rewrite I' by exact Hq. replace ((i * n + n) * V) with (S i * V * n) by lia. reflexivity.
  - rewrite E. cbn [bind]. subst n. apply seq_apply_ok; try assumption. nia.
Qed.
End Apply.

Lemma dyn_reorder : forall v m regs, V = 2 ^ v -> 1 <= m <= v -> regs_ok (2 ^ m) regs -> exists regs', stages T d V (S (2 ^ m)) (2 ^ m) 1 1 (2 ^ m / 2) regs = Ret regs' /\ regs_ok (2 ^ m) regs' /\
  forall f p, f < 2 ^ m -> p < V -> el regs' f p = el regs ((f * V + p) mod 2 ^ m) ((f * V + p) / 2 ^ m).
Proof.
  intros v m regs HV Hm R. destruct (cycle_all m v m 0 (el regs) regs (S (2 ^ m)) HV ltac:(lia) eq_refl) as (regs' & E & C).
  - pose proof (Nat.pow_gt_lin_r 2 m ltac:(lia)). lia.
  - apply cycle_0; assumption.
  - exists regs'. split; [exact E|]. apply (cycle_m m v); [exact HV|lia|exact C].
Qed.
Lemma static_reorder : forall v m regs, V = 2 ^ v -> 1 <= m <= v -> regs_ok (2 ^ m) regs -> exists regs', static_core T d V (S (2 ^ m)) (2 ^ m) 1 regs = Ret regs' /\ regs_ok (2 ^ m) regs' /\
  forall f p, f < 2 ^ m -> p < V -> el regs' f p = el regs ((f * V + p) mod 2 ^ m) ((f * V + p) / 2 ^ m).
Proof.
  intros v m regs HV Hm R. destruct (static_all m v m 0 (el regs) regs (S (2 ^ m)) HV ltac:(lia) eq_refl) as (regs' & E & C).
  - pose proof (Nat.pow_gt_lin_r 2 m ltac:(lia)). lia.
  - apply cycle_0; assumption.
  - exists regs'. split; [exact E|]. apply (cycle_m m v); [exact HV|lia|exact C].
Qed.

(** ** apply_rev *)
Definition rot (a k g : nat) : nat := (g mod a) * k + g / a.
Lemma rot_rot : forall a b k g, 0 < a -> 0 < b -> 0 < k -> g < a * b * k -> rot b (a * k) (rot a (b * k) g) = rot (a * b) k g.
Proof.
  intros a b k g Ha Hb Hk Hg. unfold rot. rewrite (Nat.mod_mul_r g a b) by lia. rewrite <- (Nat.div_div g a b) by lia.
  replace (g mod a * (b * k) + g / a) with (g / a + (g mod a * k) * b) by lia. rewrite Nat.mod_add, Nat.div_add by lia. lia.
Qed.

Section Rev.
Variables m v : nat.
Hypothesis HV : V = 2 ^ v.
Hypothesis Hm : 1 <= m <= v.
Variable D : nat -> T.

Definition after (c : nat) (f p : nat) : T := D (rot (2 ^ (c * m)) (2 ^ (m + v - c * m)) (f * V + p)).

Lemma next_cycle : forall c regs, c * m + m <= v -> cycle m v m (after c) regs -> cycle m v 0 (after (S c)) regs.
Proof.
  intros c regs Hc C. destruct (cycle_m m v _ regs HV ltac:(lia) C) as [R E]. split; [exact R|]. intros hi lo p Hhi Hlo Hp. cbn [Nat.pow] in Hhi. rewrite Nat.sub_0_r in *. replace hi with 0 by lia. cbn [Nat.pow]. rewrite Nat.mod_1_r, Nat.div_1_r.
  cbn [Nat.mul Nat.add]. rewrite E by lia. unfold after. f_equal. set (g := lo * V + p).
  assert (VV : V = 2 ^ (c * m) * 2 ^ (v - c * m)) by (rewrite <- Nat.pow_add_r, HV; f_equal; lia).
  assert (GB : g < 2 ^ m * V). { unfold g. rewrite <- HV in Hp. nia. }
  replace (2 ^ (m + v - c * m)) with (2 ^ m * 2 ^ (v - c * m)) by (rewrite <- Nat.pow_add_r; f_equal; lia).
  replace ((g mod 2 ^ m) * V + g / 2 ^ m) with (rot (2 ^ m) (2 ^ (c * m) * 2 ^ (v - c * m)) g) by (unfold rot; rewrite VV; reflexivity).
  rewrite rot_rot; try apply pow_pos; [|nia]. f_equal; [rewrite <- Nat.pow_add_r; f_equal; lia|f_equal; lia].
Qed.

Lemma half_pow : forall i, i < m -> 2 ^ (m - i) / 2 = 2 ^ (m - S i).
Proof. intros i H. replace (m - i) with (S (m - S i)) by lia. rewrite Nat.pow_succ_r', Nat.mul_comm. apply Nat.div_mul. lia. Qed.

Lemma rev_loop : forall r t c i regs fuel, t + r = v -> r < fuel -> t = c * m + i -> 1 <= i <= m -> cycle m v i (after c) regs ->
  exists regs' c' i', stages_rev T d V fuel (2 ^ m) (2 ^ t) (2 ^ (i - 1)) (2 ^ (m - i)) regs = Ret (regs', 2 ^ (i' - 1), 2 ^ (m - i')) /\ v = c' * m + i' /\ 1 <= i' <= m /\ cycle m v i' (after c') regs'.
Proof.
  induction r as [|r IH]; intros t c i regs fuel Ht Hf Hc Hi C; (destruct fuel as [|fuel]; [lia|]); cbn [stages_rev].
  - assert (t = v) by lia. rewrite (proj2 (Nat.ltb_ge _ _)) by (rewrite HV; apply Nat.pow_le_mono_r; lia). exists regs, c, i. repeat split; try lia; apply C.
  - rewrite (proj2 (Nat.ltb_lt _ _)) by (rewrite HV; apply Nat.pow_lt_mono_r; lia).
    assert (T1 : 1 < 2 ^ t) by (apply Nat.pow_gt_1; lia). rewrite (proj2 (Nat.ltb_lt _ _)) by exact T1.
    rewrite <- (Nat.pow_succ_r' 2 t). destruct (Nat.eq_dec i m) as [->|NE].
    + rewrite Nat.sub_diag. change (2 ^ 0 / 2 =? 0) with true. cbv iota. destruct (cycle_step m v 0 (after (S c)) regs HV ltac:(lia) ltac:(lia)) as (regs1 & E1 & C1).
      { apply next_cycle; [lia|exact C]. }
      cbn [Nat.pow] in E1. replace (2 ^ m / 2) with (2 ^ (m - 1)) by (rewrite <- (half_pow 0) by lia; rewrite Nat.sub_0_r; reflexivity). rewrite E1. cbn [bind].
      destruct (IH (S t) (S c) 1 regs1 fuel) as (regs2 & c' & i' & E2 & X); try lia; [exact C1|]. exists regs2, c', i'. split; [|exact X]. rewrite <- E2. reflexivity.
    + rewrite half_pow by lia. rewrite (proj2 (Nat.eqb_neq _ _)) by (pose proof (pow_pos (m - S i)); lia).
      rewrite <- (Nat.pow_succ_r' 2 (i - 1)). replace (S (i - 1)) with i by lia.
      destruct (cycle_step m v i (after c) regs HV ltac:(lia) ltac:(lia) C) as (regs1 & E1 & C1). rewrite E1. cbn [bind].
      destruct (IH (S t) c (S i) regs1 fuel) as (regs2 & c' & i' & E2 & X); try lia; [exact C1|]. exists regs2, c', i'. split; [|exact X]. rewrite <- E2. replace (S i - 1) with i by lia. reflexivity.
Qed.

Lemma rev_first : forall regs, regs_ok (2 ^ m) regs -> (forall f p, f < 2 ^ m -> p < V -> el regs f p = D (f * V + p)) -> cycle m v 0 (after 0) regs.
Proof.
  intros regs R E. split; [exact R|]. intros hi lo p Hhi Hlo Hp. cbn [Nat.pow] in Hhi. rewrite Nat.sub_0_r in *. replace hi with 0 by lia. cbn [Nat.pow]. rewrite Nat.mod_1_r, Nat.div_1_r. cbn [Nat.mul Nat.add]. rewrite E by lia.
  unfold after, rot. cbn [Nat.mul Nat.pow]. rewrite Nat.mod_1_r, Nat.div_1_r. reflexivity.
Qed.

Lemma rev_dyn : forall regs, regs_ok (2 ^ m) regs -> (forall f p, f < 2 ^ m -> p < V -> el regs f p = D (f * V + p)) ->
  exists regs' c' i', stages_rev T d V (S V) (2 ^ m) 1 1 (2 ^ m / 2) regs = Ret (regs', 2 ^ (i' - 1), 2 ^ (m - i')) /\ v = c' * m + i' /\ 1 <= i' <= m /\ cycle m v i' (after c') regs'.
Proof.
  intros regs R E. pose proof (rev_first regs R E) as C0. cbn [stages_rev]. pose proof (Nat.pow_gt_lin_r 2 v ltac:(lia)). rewrite (proj2 (Nat.ltb_lt 1 V)) by lia. rewrite Nat.ltb_irrefl.
  destruct (cycle_step m v 0 (after 0) regs HV ltac:(lia) ltac:(lia) C0) as (regs1 & E1 & C1). cbn [Nat.pow] in E1.
  replace (2 ^ m / 2) with (2 ^ (m - 1)) by (rewrite <- (half_pow 0) by lia; rewrite Nat.sub_0_r; reflexivity). rewrite E1. cbn [bind].
  destruct (rev_loop (v - 1) 1 0 1 regs1 V) as (regs2 & c' & i' & E2 & X); try lia; [exact C1|]. exists regs2, c', i'. split; [|exact X]. rewrite <- E2. reflexivity.
Qed.

Lemma static_loop : forall r t c i regs fuel, t + r = v -> 2 * r + 1 < fuel -> t = c * m + i -> i <= m -> (i = 0 -> 1 <= r) -> cycle m v i (after c) regs ->
  exists regs' c' i', static_core_rev T d V fuel (2 ^ m) (2 ^ r) (2 ^ i) (2 ^ (m - i) / 2) regs = Ret (regs', 2 ^ (i' - 1)) /\ v = c' * m + i' /\ 1 <= i' <= m /\ cycle m v i' (after c') regs'.
Proof.
  induction r as [|r IH]; intros t c i regs fuel Ht Hf Hc Hi Hz C.
  - destruct fuel as [|fuel]; [lia|]. cbn [static_core_rev Nat.pow Nat.eqb]. exists regs, c, i. repeat split; try lia; try apply C. f_equal. f_equal. replace i with (S (i - 1)) at 1 by lia. rewrite Nat.pow_succ_r', Nat.mul_comm. apply Nat.div_mul. lia.
  - assert (STEP : forall c i regs fuel, 2 * r + 1 < fuel -> t = c * m + i -> i < m -> cycle m v i (after c) regs ->
      exists regs' c' i', static_core_rev T d V (S fuel) (2 ^ m) (2 ^ S r) (2 ^ i) (2 ^ (m - i) / 2) regs = Ret (regs', 2 ^ (i' - 1)) /\ v = c' * m + i' /\ 1 <= i' <= m /\ cycle m v i' (after c') regs').
    { clear c i regs fuel Hf Hc Hi Hz C. intros c i regs fuel Hf Hc Hi C. cbn [static_core_rev].
      rewrite (proj2 (Nat.eqb_neq (2 ^ S r) 1)) by (rewrite Nat.pow_succ_r'; pose proof (pow_pos r); lia). rewrite half_pow by lia. rewrite (proj2 (Nat.eqb_neq _ 0)) by (pose proof (pow_pos (m - S i)); lia).
      destruct (cycle_step m v i (after c) regs HV ltac:(lia) ltac:(lia) C) as (regs1 & E1 & C1). rewrite E1. cbn [bind].
      rewrite <- Nat.pow_succ_r'. replace (2 ^ S r / 2) with (2 ^ r) by (rewrite Nat.pow_succ_r', Nat.mul_comm, Nat.div_mul; lia).
      apply (IH (S t) c (S i)); try lia. exact C1. }
    destruct (Nat.eq_dec i m) as [->|NE].
    + destruct fuel as [|fuel]; [lia|]. destruct fuel as [|fuel]; [lia|].
      assert (X : static_core_rev T d V (S (S fuel)) (2 ^ m) (2 ^ S r) (2 ^ m) (2 ^ (m - m) / 2) regs = static_core_rev T d V (S fuel) (2 ^ m) (2 ^ S r) (2 ^ 0) (2 ^ (m - 0) / 2) regs).
      { rewrite Nat.sub_diag, Nat.sub_0_r. change (2 ^ 0 / 2) with 0. change (2 ^ 0) with 1. cbn [static_core_rev]. rewrite (proj2 (Nat.eqb_neq (2 ^ S r) 1)) by (rewrite Nat.pow_succ_r'; pose proof (pow_pos r); lia). reflexivity. }
      rewrite X. apply (STEP (S c) 0); try lia. apply next_cycle; [lia|exact C].
    + destruct fuel as [|fuel]; [lia|]. apply (STEP c i); try lia. exact C.
Qed.

Lemma rev_static : forall regs, regs_ok (2 ^ m) regs -> (forall f p, f < 2 ^ m -> p < V -> el regs f p = D (f * V + p)) ->
  exists regs' c' i', (' (regs, k_size) <- static_core_rev T d V (S (2 * V)) (2 ^ m) V 1 (2 ^ m / 2) regs ;; Ret (regs, k_size, 2 ^ m / 2 / k_size)) = Ret (regs', 2 ^ (i' - 1), 2 ^ (m - i')) /\ v = c' * m + i' /\ 1 <= i' <= m /\ cycle m v i' (after c') regs'.
Proof.
  intros regs R E. pose proof (rev_first regs R E) as C0. pose proof (Nat.pow_gt_lin_r 2 v ltac:(lia)).
  destruct (static_loop v 0 0 0 regs (S (2 * V))) as (regs' & c' & i' & E' & A & B & C'); try lia; [exact C0|]. rewrite <- HV, Nat.sub_0_r in E'. change (2 ^ 0) with 1 in E'. rewrite E'. cbn [bind].
  exists regs', c', i'. split; [|split; [exact A|split; [exact B|exact C']]]. f_equal. f_equal.
  replace (2 ^ m / 2) with (2 ^ (m - 1)) by (rewrite <- (half_pow 0) by lia; rewrite Nat.sub_0_r; reflexivity). replace (m - 1) with (m - i' + (i' - 1)) by lia. rewrite Nat.pow_add_r. apply Nat.div_mul, Nat.pow_nonzero. lia.
Qed.

(** The frame which the stores write in the f-th frame. *)
Definition perm_of (i f : nat) : nat := 2 * ((f / 2) mod 2 ^ (m - i) * 2 ^ (i - 1) + f / 2 / 2 ^ (m - i)) + f mod 2.
Definition src_of (i f : nat) : nat := (f / 2 / 2 ^ (m - i)) * 2 ^ (m - i) * 2 + (f mod 2) * 2 ^ (m - i) + (f / 2) mod 2 ^ (m - i).

Lemma rev_end : forall c i regs f p, v = c * m + i -> 1 <= i <= m -> cycle m v i (after c) regs -> f < 2 ^ m -> p < V -> src_of i f < 2 ^ m /\ el regs (src_of i f) p = D (p * 2 ^ m + perm_of i f).
Proof.
  intros c i regs f p Hc Hi (R & I) Hf Hp. unfold src_of, perm_of. pose proof (pow_pos (m - i)) as PL. set (L := 2 ^ (m - i)) in *.
  assert (NN : 2 ^ m = 2 ^ i * L) by (unfold L; rewrite Nat.mul_comm; apply pow_split; lia). assert (I2 : 2 ^ i = 2 * 2 ^ (i - 1)) by (rewrite <- Nat.pow_succ_r'; f_equal; lia).
  pose proof (Nat.mod_upper_bound f 2 ltac:(lia)) as Hb. pose proof (Nat.mod_upper_bound (f / 2) L ltac:(lia)) as Hl. set (b := f mod 2) in *. set (l := (f / 2) mod L) in *.
  assert (Hk : f / 2 / L < 2 ^ (i - 1)). { apply Nat.div_lt_upper_bound; [lia|]. apply Nat.div_lt_upper_bound; [lia|]. nia. } set (k := f / 2 / L) in *.
  assert (HB : 2 * k + b < 2 ^ i) by lia. replace (k * L * 2 + b * L + l) with ((2 * k + b) * L + l) by lia. split; [nia|].
  rewrite I by (assumption || lia). fold L. unfold after. f_equal. set (a := 2 ^ (c * m)). replace (v - i) with (c * m) by lia. fold a. pose proof (pow_pos (c * m)) as PA. fold a in PA. pose proof (pow_pos i) as PI.
  assert (VA : V = 2 ^ i * a) by (unfold a; rewrite HV, <- Nat.pow_add_r; f_equal; lia). replace (m + v - c * m) with (i + m) by lia. rewrite (Nat.pow_add_r 2 i m).
  assert (Hpi : p / 2 ^ i < a) by (apply Nat.div_lt_upper_bound; lia). pose proof (Nat.div_mod p (2 ^ i) ltac:(lia)) as DM. pose proof (Nat.mod_upper_bound p (2 ^ i) ltac:(lia)).
  set (pq := p / 2 ^ i) in *. set (pr := p mod 2 ^ i) in *. unfold rot.
  replace ((pr * L + l) * V + ((2 * k + b) * a + pq)) with (pq + ((pr * L + l) * 2 ^ i + (2 * k + b)) * a) by (rewrite VA; lia). rewrite Nat.mod_add, Nat.div_add, (Nat.mod_small pq a), (Nat.div_small pq a) by lia.
  rewrite DM. rewrite !NN, !I2. lia.
Qed.
End Rev.

Lemma rev_stores_ok : forall n K L off regs outs, K * L * 2 = n -> 0 < L -> regs_ok n regs -> length outs = n -> (forall f, f < n -> off + V <= length (nth f outs [])) ->
  rev_stores T V regs K L off outs = Ret (tab n (fun f => newfr off (nth ((f / 2 / L) * L * 2 + (f mod 2) * L + (f / 2) mod L) regs []) (nth f outs []))).
Proof.
  intros n K L off regs outs HN HL (RL & RO) LO LF. unfold rev_stores. set (src := fun f => (f / 2 / L) * L * 2 + (f mod 2) * L + (f / 2) mod L).
  set (NEW := fun f => newfr off (nth (src f) regs []) (nth f outs [])).
  set (Inv := fun x (s : list (list T) * nat) => snd s = x /\ length (fst s) = n /\ forall f, f < n -> nth f (fst s) [] = if f <? x then NEW f else nth f outs []).
  assert (ST : forall x s r, x < n -> r = src x -> Inv x s -> exists s', (a <- rd regs r ;; rev_store T V (fst s) (snd s) off a) = Ret s' /\ Inv (S x) s').
  { intros x s r Hx -> (I1 & I2 & I3). assert (SB : src x < n).
    { unfold src. pose proof (Nat.mod_upper_bound x 2 ltac:(lia)). pose proof (Nat.mod_upper_bound (x / 2) L ltac:(lia)). assert (x / 2 / L < K) by (apply Nat.div_lt_upper_bound; [lia|]; apply Nat.div_lt_upper_bound; lia). nia. }
    rewrite (rd_ok _ []) by lia. cbn [bind]. unfold rev_store. rewrite I1. rewrite (rd_ok _ []) by lia. cbn [bind]. rewrite I3 by lia. rewrite Nat.ltb_irrefl. rewrite store_ok; [|apply RO, SB|apply LF, Hx]. cbn [bind]. rewrite wr_ok by lia. cbn [bind].
    eexists. split; [reflexivity|]. split; [reflexivity|]. cbn [fst]. split; [rewrite length_upd; exact I2|]. intros f Hf. rewrite nth_upd by lia. destruct (Nat.eqb_spec f x) as [->|NE].
    - rewrite (proj2 (Nat.ltb_lt _ _)) by lia. reflexivity.
    - rewrite I3 by exact Hf. destruct (Nat.ltb_spec f x), (Nat.ltb_spec f (S x)); try reflexivity; lia. }
  match goal with |- context [for_ K ?body (outs, 0)] => destruct (for_inv _ (fun k s => Inv (2 * (k * L)) s) K body (outs, 0)) as (s & E & I) end.
  - split; [reflexivity|]. split; [exact LO|]. intros f Hf. reflexivity.
  - intros k s Hk I. assert (KB : S k * L * 2 <= n) by nia.
    match goal with |- context [for_ L ?body s] => destruct (for_inv _ (fun l s => Inv (2 * (k * L + l)) s) L body s) as (s' & E' & I') end.
    + rewrite Nat.add_0_r. exact I.
    + intros l s1 Hl I1. assert (D2 : 2 * (k * L + l) / 2 = k * L + l) by (rewrite Nat.mul_comm; apply Nat.div_mul; lia). assert (D3 : S (2 * (k * L + l)) / 2 = k * L + l) by (replace (S (2 * (k * L + l))) with (1 + (k * L + l) * 2) by lia; rewrite Nat.div_add by lia; reflexivity).
      assert (M2 : 2 * (k * L + l) mod 2 = 0) by (rewrite Nat.mul_comm; apply Nat.mod_mul; lia). assert (M3 : S (2 * (k * L + l)) mod 2 = 1) by (replace (S (2 * (k * L + l))) with (1 + (k * L + l) * 2) by lia; rewrite Nat.mod_add by lia; reflexivity).
      destruct (divmod_idx k l L Hl) as [DA DB].
      destruct (ST (2 * (k * L + l)) s1 (k * L * 2 + l)) as (s2 & E2 & I2); [nia| |exact I1|]. { unfold src. rewrite D2, M2, DA, DB. lia. }
      destruct (ST (S (2 * (k * L + l))) s2 (k * L * 2 + L + l)) as (s3 & E3 & I3); [nia| |exact I2|]. { unfold src. rewrite D3, M3, DA, DB. lia. }
      exists s3. split; [|replace (2 * (k * L + S l)) with (S (S (2 * (k * L + l)))) by lia; exact I3].
      rewrite <- E3. apply bind_inv in E2. destruct E2 as (a & EA & EB). rewrite EA. cbn [bind]. rewrite EB. reflexivity.
    + exists s'. split; [exact E'|]. replace (2 * (S k * L)) with (2 * (k * L + L)) by lia. exact I'.
  - rewrite E. cbn [bind]. destruct s as [outs' x]. destruct I as (I1 & I2 & I3). cbn [fst snd] in *. f_equal. apply (eq_tab _ []); [exact I2|]. intros f Hf. rewrite I3 by exact Hf. rewrite (proj2 (Nat.ltb_lt _ _)) by lia. reflexivity.
Qed.

(** The frames after [q] elements of each frame are written, the [q]-th one being [S f q]. *)
Definition frames (S : nat -> nat -> T) (outs0 : list (list T)) (x : nat) (outs : list (list T)) : Prop :=
  length outs = length outs0 /\ forall f, f < length outs0 -> length (nth f outs []) = length (nth f outs0 []) /\ forall q, q < length (nth f outs0 []) -> nth q (nth f outs []) d = if q <? x then S f q else nth q (nth f outs0 []) d.

Lemma seq_rev_ok : forall S inp outs0 outs start len, start <= len -> length outs0 * len <= length inp -> (forall f, f < length outs0 -> len <= length (nth f outs0 [])) ->
  (forall f q, f < length outs0 -> start <= q < len -> S f q = nth (q * length outs0 + f) inp d) -> frames S outs0 start outs ->
  exists outs', seq_rev T inp start len outs = Ret outs' /\ frames S outs0 len outs'.
Proof.
  intros S inp outs0 outs start len SL LI LO HS F0. unfold seq_rev. assert (LN : length outs = length outs0) by apply F0. rewrite LN. set (n := length outs0) in *.
  match goal with |- context [for_from start ?c ?body outs] => destruct (for_from_inv _ (fun i y => frames S outs0 i y) c start body outs) as (y & E & I) end.
  - exact F0.
  - intros i y Hi F.
    match goal with |- context [for_ n ?body y] => destruct (for_inv _ (fun x y => length y = n /\ forall f, f < n -> length (nth f y []) = length (nth f outs0 []) /\ forall q, q < length (nth f outs0 []) -> nth q (nth f y []) d = if q <? (if f <? x then Datatypes.S i else i) then S f q else nth q (nth f outs0 []) d) n body y) as (z & E & LZ & IZ) end.
    + exact F.
    + intros f z Hf (LZ & IZ). assert (B : i * n + f < length inp) by nia. rewrite (rd_ok _ d) by exact B. cbn [bind]. rewrite (rd_ok _ []) by lia. cbn [bind]. destruct (IZ f Hf) as [L1 L2]. specialize (LO f Hf). rewrite wr_ok by lia. cbn [bind]. rewrite wr_ok by lia.
      eexists. split; [reflexivity|]. split; [rewrite length_upd; exact LZ|]. intros g Hg. rewrite nth_upd by lia. destruct (Nat.eqb_spec g f) as [->|NE].
      * split; [rewrite length_upd; exact L1|]. intros q Hq. rewrite nth_upd by lia. rewrite (proj2 (Nat.ltb_lt f (Datatypes.S f))) by lia. destruct (Nat.eqb_spec q i) as [->|NQ].
        { rewrite (proj2 (Nat.ltb_lt i _)) by lia. symmetry. apply HS; lia. }
        rewrite L2 by exact Hq. rewrite Nat.ltb_irrefl. destruct (Nat.ltb_spec q i), (Nat.ltb_spec q (Datatypes.S i)); try reflexivity; lia.
      * destruct (IZ g Hg) as [M1 M2]. split; [exact M1|]. intros q Hq. rewrite M2 by exact Hq. destruct (Nat.ltb_spec g f), (Nat.ltb_spec g (Datatypes.S f)); try reflexivity; lia.
    + exists z. split; [exact E|]. split; [exact LZ|]. intros f Hf. destruct (IZ f Hf) as [A B]. rewrite (proj2 (Nat.ltb_lt f n) Hf) in B. split; assumption.
  - exists y. split; [exact E|]. replace len with (start + (len - start)) by lia. exact I.
Qed.

(** The element q of the frame f after apply_rev. *)
Definition rev_at (v len : nat) (inp : list T) (n f q : nat) : T :=
  if vectorized V n && (q <? len / V * V) then nth (q * n + perm_of (Nat.log2 n) ((v - 1) mod Nat.log2 n + 1) f) inp d else nth (q * n + f) inp d.

Section RevApply.
Variable v : nat.
Hypothesis HV : V = 2 ^ v.
Variable reorder : nat -> list (list T) -> outcome (list (list T) * nat * nat).
Hypothesis RE : forall m D regs, 1 <= m <= v -> regs_ok (2 ^ m) regs -> (forall f p, f < 2 ^ m -> p < V -> el regs f p = D (f * V + p)) ->
  exists regs' c' i', reorder (2 ^ m) regs = Ret (regs', 2 ^ (i' - 1), 2 ^ (m - i')) /\ v = c' * m + i' /\ 1 <= i' <= m /\ cycle m v i' (after m v D c') regs'.

Lemma rev_ok : forall inp outs len, length outs * len <= length inp -> (forall f, f < length outs -> len <= length (nth f outs [])) ->
  exists outs', rev_with T V reorder inp outs len = Ret outs' /\ frames (rev_at v len inp (length outs)) outs len outs'.
Proof.
  intros inp outs len LI LO. unfold rev_with. set (n := length outs) in *. destruct (vectorized V n) eqn:VE.
  2:{ apply seq_rev_ok; try assumption; try lia. - intros f q Hf Hq. unfold rev_at. fold n. rewrite VE. reflexivity. - split; [reflexivity|]. intros f Hf. split; reflexivity. }
  destruct (vectorized_pow _ v HV VE) as (m & N & Hm). pose proof (pow_pos v) as PV. rewrite <- HV in PV. pose proof (Nat.div_mod len V ltac:(lia)) as DL. pose proof (Nat.mod_upper_bound len V ltac:(lia)).
  assert (LG : Nat.log2 n = m) by (rewrite N; apply Nat.log2_pow2; lia).
  match goal with |- context [for_ (len / V) ?body outs] => destruct (for_inv _ (fun i y => frames (rev_at v len inp n) outs (i * V) y) (len / V) body outs) as (y & E & I) end.
  - split; [reflexivity|]. intros f Hf. split; [reflexivity|]. intros q Hq. reflexivity.
  - intros i y Hi (LY & FY). assert (BI : i * V + V <= len) by nia. fold n in LY.
    rewrite (gen_ok _ n _ (fun f => tab V (fun p => nth ((i * n + f) * V + p) inp d))).
    2:{ intros f Hf. apply load_ok. assert ((i * n + S f) * V <= S i * n * V) by nia. assert (S i * V * n <= len * n) by nia. lia. }
    cbn [bind]. set (regs0 := tab n (fun f => tab V (fun p => nth ((i * n + f) * V + p) inp d))).
    destruct (RE m (fun g => nth (i * n * V + g) inp d) regs0 Hm) as (regs & c & j & ER & Hc & Hj & C).
    { rewrite <- N. split; [apply length_tab|]. intros f Hf. unfold regs0. rewrite nth_tab by exact Hf. apply length_tab. }
    { intros f p Hf Hp. rewrite <- N in Hf. unfold el, regs0. rewrite nth_tab by exact Hf. rewrite nth_tab by exact Hp. f_equal. lia. }
    rewrite <- N in ER. rewrite ER. cbn [bind]. assert (J : (v - 1) mod m + 1 = j). { rewrite Hc. replace (c * m + j - 1) with ((j - 1) + c * m) by lia. rewrite Nat.mod_add by lia. rewrite Nat.mod_small; lia. }
    rewrite (rev_stores_ok n); [| |apply pow_pos|destruct C as [C _]; rewrite N; exact C|exact LY|].
    2:{ rewrite N. rewrite <- Nat.pow_add_r, Nat.mul_comm, <- Nat.pow_succ_r'. f_equal. lia. }
    2:{ intros f Hf. destruct (FY f Hf) as [L1 _]. specialize (LO f Hf). lia. }
    eexists. split; [reflexivity|]. split; [apply length_tab|]. fold n. intros f Hf. rewrite nth_tab by exact Hf. destruct (FY f Hf) as [L1 L2]. split; [unfold newfr; rewrite length_tab; exact L1|].
    intros q Hq. unfold newfr. rewrite nth_tab by lia. pose proof (LO f Hf) as LOf.
    destruct (Nat.leb_spec (i * V) q), (Nat.ltb_spec q (i * V + V)); cbn [andb].
    + rewrite (proj2 (Nat.ltb_lt q _)) by lia. fold (src_of m j f). fold (el regs (src_of m j f) (q - i * V)). destruct (rev_end m v HV Hm _ c j regs f (q - i * V) Hc Hj C) as [_ ->]; [lia|lia|].
      unfold rev_at. rewrite VE, LG, J. assert (S i * V <= len / V * V) by nia. rewrite (proj2 (Nat.ltb_lt q _)) by lia. cbn [andb]. f_equal. rewrite <- N. assert ((q - i * V) * n = q * n - i * V * n) by (rewrite Nat.mul_sub_distr_r; lia). assert (i * V * n <= q * n) by nia. lia.
    + rewrite L2 by exact Hq. destruct (Nat.ltb_spec q (i * V)), (Nat.ltb_spec q (S i * V)); try reflexivity; lia.
    + rewrite L2 by exact Hq. destruct (Nat.ltb_spec q (i * V)), (Nat.ltb_spec q (S i * V)); try reflexivity; lia.
    + rewrite L2 by exact Hq. destruct (Nat.ltb_spec q (i * V)), (Nat.ltb_spec q (S i * V)); try reflexivity; lia.
  - rewrite E. cbn [bind]. apply seq_rev_ok; try assumption; [nia|]. intros f q Hf Hq. unfold rev_at. fold n. rewrite VE. cbn [andb]. destruct (Nat.ltb_spec q (len / V * V)); [lia|reflexivity].
Qed.
End RevApply.
End Reorder.
