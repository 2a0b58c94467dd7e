(** C138 and C139: turbo product codes. *)
From Coq Require Import List Arith Lia Bool.
From Verif Require Import Base InterleaverSpec InterleaverModel InterleaverProps FlipProofs TpcModel TpcSpec TpcProofs.
Import ListNotations.

(** An encoder built on a row-column interleaver of nc columns, read from a top corner. *)
Definition built (Kr Nr Kc Nc : nat) (d : tpc) : Prop := exists w fr fc ro lut inv,
  tpc_new Kr Nr Kc Nc fr fc lut inv = Ret d /\ (ro = TOP_LEFT \/ ro = TOP_RIGHT) /\ length lut <= 2 ^ w /\
  init_row_column w (length lut) (tp_cols d) 1 ro = Ret (lut, inv).

Lemma new_tpc : forall Kr Nr Kc Nc fr fc lut inv d, tpc_new Kr Nr Kc Nc fr fc lut inv = Ret d ->
  exists ext : bool, d = mkTP Kr Nr Kc Nc ext lut inv /\ 0 < Kr /\ 0 < Kc /\ 0 < length lut /\ length lut = (Nc + (if ext then 1 else 0)) * (Nr + (if ext then 1 else 0)).
Proof.
  intros Kr Nr Kc Nc fr fc lut inv d. unfold tpc_new. cbv zeta. destruct (Nat.eqb_spec (Kr * Kc) 0); cbn [orb]; [discriminate|]. destruct (Nat.eqb_spec (length lut) 0); cbn [orb]; [discriminate|]. destruct (Nat.ltb_spec (length lut) (Kr * Kc)); [discriminate|].
  assert (0 < Kr /\ 0 < Kc) by (destruct Kr; [lia|]; destruct Kc; [lia|]; lia).
  destruct (Nat.eqb_spec (length lut) ((Nr + 1) * (Nc + 1))) as [E|E]; cbn [negb andb].
  - destruct (Nat.eqb_spec (Nr + 1) fc); [|discriminate]. cbn [negb]. destruct (Nat.eqb_spec (Nc + 1) fr); [|discriminate]. cbn [negb]. intros H1. inversion H1. exists true. repeat split; try lia.
  - destruct (Nat.eqb_spec (length lut) (Nr * Nc)) as [E2|]; [|discriminate]. cbn [negb]. destruct (Nat.eqb_spec (Nr + 0) fc); [|discriminate]. cbn [negb]. destruct (Nat.eqb_spec (Nc + 0) fr); [|discriminate]. cbn [negb]. intros H1. inversion H1. exists false. repeat split; try lia.
Qed.
Lemma built_by_columns : forall Kr Nr Kc Nc d, built Kr Nr Kc Nc d ->
  exists ext lut inv cp, d = mkTP Kr Nr Kc Nc ext lut inv /\ by_columns (tp_rows d) (tp_cols d) cp lut inv.
Proof.
  intros Kr Nr Kc Nc d (w & fr & fc & ro & lut & inv & HN & RO & LW & HI). destruct (new_tpc _ _ _ _ _ _ _ _ _ HN) as (ext & ED & K1 & K2 & L0 & LL). rewrite ED in *. unfold tp_rows, tp_cols in *. cbn [tp_Nr tp_Nc tp_ext] in *.
  set (nr := Nc + (if ext then 1 else 0)) in *. set (nc := Nr + (if ext then 1 else 0)) in *. assert (C0 : 0 < nc) by (destruct nc; lia). assert (R0 : 0 < nr) by (destruct nr; lia).
  destruct (C02_row_column w (length lut) nc 1 ro L0 ltac:(lia) C0 LW) as [OK _]. assert (DV : length lut / nc = nr) by (rewrite LL; apply Nat.div_mul; lia). rewrite DV in OK. destruct OK as (pi & pi_inv & EI & (LP & LPI & GT) & VP); [rewrite LL; apply Nat.mod_mul; lia|]. rewrite HI in EI. inversion EI. subst pi pi_inv. clear EI.
  destruct (GT 0 ltac:(lia)) as (_ & _ & UN & _). rewrite Nat.mul_1_r in *.
  assert (FR : forall l : list nat, length l = length lut -> frame (length lut) 0 l = l) by (intros l Hl; unfold frame; rewrite Nat.mul_0_l; cbn [skipn]; apply firstn_all2; lia).
  rewrite !FR in UN by auto.
  set (cp := fun k => match ro with TOP_LEFT => k | _ => nc - 1 - k end).
  exists ext, lut, inv, cp. split; [auto|]. unfold by_columns.
  assert (VL : forall r k, r < nr -> k < nc -> nth (k * nr + r) lut 0 = r * nc + cp k) by (intros r k Hr Hk; rewrite (VP k r Hk Hr); unfold cp; destruct RO as [-> | ->]; auto).
  assert (CB : forall k, k < nc -> cp k < nc) by (intros k Hk; unfold cp; destruct ro; lia).
  split; [auto|]. split; [rewrite <- LL; auto|]. split; [auto|]. split; [intros k Hk; unfold cp; destruct RO as [-> | ->]; lia|]. split; [auto|].
  intros r k Hr Hk. rewrite <- VL by auto. apply UN. rewrite LL, (Nat.mul_comm nr). apply cell_below; auto.
Qed.

(* ------------------------------------------------------------------ *)
(** * C138 *)

(** Whatever the buffers hold, the encoder gives the product encoding: the lines of the message are encoded, then the columns. *)
Theorem C138_encode : forall er ec Kr Nr Kc Nc d U X Xi, built Kr Nr Kc Nc d -> encoder Kr Nr er -> encoder Kc Nc ec -> Kc <= Nc ->
  length U = Kr * Kc -> length X = tp_rows d * tp_cols d -> length Xi = tp_rows d * tp_cols d ->
  exists Xi', tpc_encode er ec d U X Xi = Ret (lines_first Kr (tp_cols d) Kc (tp_rows d) (extend (tp_ext d) er) (extend (tp_ext d) ec) U, Xi') /\ length Xi' = tp_rows d * tp_cols d.
Proof.
  intros er ec Kr Nr Kc Nc d U X Xi HB HR HC LK LU LX LXi. destruct (built_by_columns _ _ _ _ _ HB) as (ext & lut & inv & cp & -> & BC). unfold tp_rows, tp_cols in *. cbn [tp_Nr tp_Nc tp_ext] in *. apply (encode_ok er ec Kr Nr Kc Nc ext lut inv cp U X Xi HR HC LK BC LU LX LXi).
Qed.

(** With linear encoders the order does not matter, and every line and every column is a word of the (extended) codes. *)
Theorem C138_lines_columns : forall er ec Kr Nr Kc Nc d U X Xi, built Kr Nr Kc Nc d -> encoder Kr Nr er -> encoder Kc Nc ec -> Kc <= Nc -> linear Kr er -> linear Kc ec ->
  length U = Kr * Kc -> length X = tp_rows d * tp_cols d -> length Xi = tp_rows d * tp_cols d ->
  exists x Xi', tpc_encode er ec d U X Xi = Ret (x, Xi') /\
  x = columns_first Kr (tp_cols d) Kc (tp_rows d) (extend (tp_ext d) er) (extend (tp_ext d) ec) U /\
  (forall i, i < tp_rows d -> exists u, length u = Kr /\ line (tp_cols d) x i = extend (tp_ext d) er u) /\
  (forall j, j < tp_cols d -> exists u, length u = Kc /\ column (tp_rows d) (tp_cols d) x j = extend (tp_ext d) ec u).
Proof.
  intros er ec Kr Nr Kc Nc d U X Xi HB HR HC LK LR LC LU LX LXi. destruct (C138_encode er ec _ _ _ _ _ U X Xi HB HR HC LK LU LX LXi) as (Xi' & E & _). eexists. exists Xi'. split; [exact E|]. destruct (built_by_columns _ _ _ _ _ HB) as (ext & lut & inv & cp & -> & _). unfold tp_rows, tp_cols in *. cbn [tp_Nr tp_Nc tp_ext] in *. clear E.
  set (nr := Nc + (if ext then 1 else 0)) in *. set (nc := Nr + (if ext then 1 else 0)) in *.
  assert (HR' := extend_encoder ext _ _ _ HR). assert (HC' := extend_encoder ext _ _ _ HC). fold nc in HR'. fold nr in HC'.
  assert (OA := orders_agree Kr nc Kc nr (extend ext er) (extend ext ec) U HR' (extend_linear ext _ _ _ HR LR) HC' (extend_linear ext _ _ _ HC LC)).
  split; [exact OA|]. split.
  - intros i Hi. rewrite OA. exists (tab Kr (fun j => nth i (extend ext ec (column Kc Kr U j)) false)). split; [apply length_tab|]. symmetry. apply (tab_is _ false); [apply HR', length_tab|]. intros j Hj. unfold columns_first. rewrite nth_tab by (apply cell_below; auto). destruct (cell nc i j Hj) as [-> ->]. auto.
  - intros j Hj. exists (tab Kc (fun i => nth j (extend ext er (line Kr U i)) false)). split; [apply length_tab|]. symmetry. apply (tab_is _ false); [apply HC', length_tab|]. intros i Hi. unfold lines_first. rewrite nth_tab by (apply cell_below; auto). destruct (cell nc i j Hj) as [-> ->]. auto.
Qed.

(** Refuted for the orders that start at the bottom: the encoders of the columns read lines that were not written. Repetition codes,
    first frame: both messages have the same encoding. *)
Theorem C138_bottom_refuted : exists lut inv d, init_row_column 3 4 2 1 BOTTOM_LEFT = Ret (lut, inv) /\ tpc_new 1 2 1 2 2 2 lut inv = Ret d /\
  let e := fun u : list bool => u ++ u in let z := repeat false 4 in
  encoder 1 2 e /\ linear 1 e /\ exists Xi Xi', tpc_encode e e d [true] z z = Ret (z, Xi) /\ tpc_encode e e d [false] z z = Ret (z, Xi').
Proof.
  exists [2; 0; 3; 1], [1; 3; 0; 2], (mkTP 1 2 1 2 false [2; 0; 3; 1] [1; 3; 0; 2]). split; [reflexivity|]. split; [reflexivity|]. cbv zeta. split; [|split].
  - intros u L. rewrite app_length. lia.
  - intros [|a [|z1 u1]] [|b [|z2 u2]] L1 L2; try discriminate. reflexivity.
  - eexists. eexists. split; reflexivity.
Qed.

(** Two (3, 2) parity codes extended by a second parity: 4 bits to 16. *)
Example C138_meets : let e := fun u => u ++ [parity u] in exists d, built 2 3 2 3 d /\ encoder 2 3 e /\ linear 2 e /\ tp_ext d = true /\
  exists Xi, tpc_encode e e d [true; false; true; true] (repeat true 16) (repeat true 16) =
    Ret ([true; false; true; false;  true; true; false; false;  false; true; true; false;  false; false; false; false], Xi).
Proof.
  cbv zeta. assert (HI : exists lut inv, init_row_column 4 16 4 1 TOP_LEFT = Ret (lut, inv) /\ length lut = 16 /\ lut = [0; 4; 8; 12; 1; 5; 9; 13; 2; 6; 10; 14; 3; 7; 11; 15] /\ inv = lut) by (eexists; eexists; split; [reflexivity|]; split; [reflexivity|]; split; reflexivity).
  destruct HI as (lut & inv & HI & L16 & EL & EI). exists (mkTP 2 3 2 3 true lut inv). split; [|split; [|split; [|split]]].
  - exists 4, 4, 4, TOP_LEFT, lut, inv. split; [unfold tpc_new; rewrite L16; reflexivity|]. split; [auto|]. rewrite L16. split; [|exact HI]. apply Nat.leb_le. reflexivity.
  - intros u L. rewrite app_length, L. reflexivity.
  - clear. intros [|a [|b [|z1 u1]]] [|c [|d [|z2 u2]]] L1 L2; try discriminate. destruct a, b, c, d; reflexivity.
  - reflexivity.
  - subst. eexists. reflexivity.
Qed.

(* ------------------------------------------------------------------ *)
(** * C139 *)

(** The encodings of two messages differ in at least dr * dc bits when those of the (extended) codes differ in dr and dc bits. *)
Theorem C139_distance : forall er ec dr dc Kr Nr Kc Nc d U U' X Xi X' Xi', built Kr Nr Kc Nc d -> encoder Kr Nr er -> encoder Kc Nc ec -> Kc <= Nc ->
  distance Kr (tp_cols d) dr (extend (tp_ext d) er) -> distance Kc (tp_rows d) dc (extend (tp_ext d) ec) ->
  length U = Kr * Kc -> length U' = Kr * Kc -> U <> U' ->
  length X = tp_rows d * tp_cols d -> length Xi = tp_rows d * tp_cols d -> length X' = tp_rows d * tp_cols d -> length Xi' = tp_rows d * tp_cols d ->
  exists x xi x' xi', tpc_encode er ec d U X Xi = Ret (x, xi) /\ tpc_encode er ec d U' X' Xi' = Ret (x', xi') /\ dr * dc <= dist (tp_rows d * tp_cols d) x x'.
Proof.
  intros er ec dr dc Kr Nr Kc Nc d U U' X Xi X' Xi' HB HR HC LK DR DC LU LU' NE LX LXi LX' LXi'.
  destruct (C138_encode er ec _ _ _ _ _ U X Xi HB HR HC LK LU LX LXi) as (xi & E & _). destruct (C138_encode er ec _ _ _ _ _ U' X' Xi' HB HR HC LK LU' LX' LXi') as (xi' & E' & _).
  eexists. exists xi. eexists. exists xi'. split; [exact E|]. split; [exact E'|]. destruct (built_by_columns _ _ _ _ _ HB) as (ext & lut & inv & cp & -> & _). unfold tp_rows, tp_cols in *. cbn [tp_Nr tp_Nc tp_ext] in *.
  apply product_distance; auto; apply extend_encoder; auto.
Qed.
Lemma two_bits : forall u : list bool, length u = 2 -> exists a b, u = [a; b].
Proof. intros [|a [|b [|z1 u1]]] L; try discriminate. eauto. Qed.
(** The parity code of C138_meets has distance 2, so the product has distance 4. *)
Example C139_meets : distance 2 4 2 (extend true (fun u => u ++ [parity u])).
Proof. intros u v LU LV NE. destruct (two_bits u LU) as (a & b & ->). destruct (two_bits v LV) as (c & d & ->). destruct a, b, c, d; try congruence; apply Nat.leb_le; reflexivity. Qed.
