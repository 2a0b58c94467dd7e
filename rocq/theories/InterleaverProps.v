(** C01-C04: interleavers. *)
From Coq Require Import List Arith Lia Bool Permutation ZArith.
From Verif Require Import Base Loops InterleaverModel InterleaverSpec InterleaverProofs
  InterleaverGenProofs InterleaverStdModel InterleaverStdProofs.
Import ListNotations.

(** A generator is sound for a size if every table it writes is a permutation. *)
Definition generates_permutations (sz : nat) (gen : generator) : Prop :=
  forall f old, length old = sz -> exists t, gen f old = Ret t /\ permutation_table sz t.

(** What the two table vectors of a core must satisfy. *)
Definition good_tables (sz n : nat) (pi pi_inv : list nat) : Prop :=
  length pi = sz * n /\ length pi_inv = sz * n /\
  forall f, f < n -> permutation_table sz (frame sz f pi) /\ permutation_table sz (frame sz f pi_inv) /\
     undoes sz (frame sz f pi_inv) (frame sz f pi) /\ undoes sz (frame sz f pi) (frame sz f pi_inv).

(** ** C01 *)

(** Initialising a core over a sound generator always succeeds and gives, for each
    frame, a permutation and its inverse. *)
Theorem C01_core_tables : forall w sz n unif gen,
  0 < sz -> 0 < n -> sz <= 2 ^ w -> generates_permutations sz gen ->
  exists pi pi_inv, init_core w sz n unif gen = Ret (pi, pi_inv) /\ good_tables sz n pi pi_inv.
Proof.
  intros w sz n unif gen H1 H2 H3 H4. destruct (init_core_ok w sz n unif gen H1 H2 H3 H4) as ((p, q) & E & O & _).
  exists p, q. split; [exact E|]. exact O.
Qed.

Lemma roundtrip_aux : forall D (d : D) m p q fid (x o1 o2 : list D),
  luts_ok m p -> luts_ok m q ->
  (forall f, f < core_nf m -> inverse (size m) (block (size m) f q) (block (size m) f p)) ->
  length x = npw m * size m -> length o1 = npw m * size m -> length o2 = npw m * size m ->
  exists y, interleave m p fid x o1 = Ret y /\ interleave m q fid y o2 = Ret x.
Proof.
  intros D d m p q fid x o1 o2 Hp Hq Hi Lx L1 L2.
  destruct (interleave_gather D d m p fid x o1) as (y & Ey & Ly & Gy & _); auto; try lia.
  destruct (interleave_gather D d m q fid y o2) as (z & Ez & Lz & Gz & _); auto; try lia.
  exists y. split; auto. rewrite Ez. f_equal. apply list_eq_nth with (d := d); [lia|].
  intros k Hk. rewrite Lz, L2 in Hk. destruct (split_idx k _ _ Hk) as (f & i & Hf & Hi' & ->).
  rewrite Gz by auto.
  assert (Hb : lut_base m fid f < core_nf m) by (apply lut_base_lt; apply Hp).
  rewrite Gy; auto. 
  - rewrite Hi; auto.
  - destruct Hq as (_ & _ & Hq). destruct (Hq _ Hb) as (_ & Q & _). apply Q; auto.
Qed.

Lemma roundtrip_reordering_aux : forall D (d : D) m p q fid (x o1 o2 : list D),
  luts_ok m p -> luts_ok m q -> nf m = npw m ->
  (forall f, f < core_nf m -> inverse (size m) (block (size m) f q) (block (size m) f p)) ->
  length x = npw m * size m -> length o1 = npw m * size m -> length o2 = npw m * size m ->
  exists y, interleave_reordering m p fid x o1 = Ret y /\ interleave_reordering m q fid y o2 = Ret x.
Proof.
  intros D d m p q fid x o1 o2 Hp Hq Hn Hi Lx L1 L2.
  destruct (interleave_reordering_gather D d m p fid x o1) as (y & Ey & Ly & Gy & _); auto; try lia.
  destruct (interleave_reordering_gather D d m q fid y o2) as (z & Ez & Lz & Gz & _); auto; try lia.
  exists y. split; auto. rewrite Ez. f_equal. apply list_eq_nth with (d := d); [lia|].
  intros k Hk. rewrite Lz, L2, Nat.mul_comm in Hk. destruct (split_idx k _ _ Hk) as (i & f & Hi' & Hf & ->).
  rewrite Gz by auto.
  assert (Hb : lut_base m fid f < core_nf m) by (apply lut_base_lt; apply Hp).
  rewrite Gy; auto. 
  - rewrite Hi; auto.
  - destruct Hq as (_ & _ & Hq). destruct (Hq _ Hb) as (_ & Q & _). apply Q; auto.
Qed.

Lemma good_luts : forall m p q, 0 < core_nf m -> good_tables (size m) (core_nf m) p q ->
  luts_ok m p /\ luts_ok m q /\
  (forall f, f < core_nf m -> inverse (size m) (block (size m) f q) (block (size m) f p)) /\
  (forall f, f < core_nf m -> inverse (size m) (block (size m) f p) (block (size m) f q)).
Proof.
  intros m p q Hc (A & B & C). split; [|split; [|split]].
  - split; [auto|split; [auto|]]. intros f Hf. apply (C f Hf).
  - split; [auto|split; [auto|]]. intros f Hf. apply (C f Hf).
  - intros f Hf. apply (C f Hf).
  - intros f Hf. apply (C f Hf).
Qed.

(** De-interleaving undoes interleaving and conversely, for every buffer content,
    every number of frames per wave, uniform or not, starting at any frame. *)
Theorem C01_roundtrip : forall D (d : D) m pi pi_inv fid (x o1 o2 : list D),
  0 < core_nf m -> good_tables (size m) (core_nf m) pi pi_inv ->
  length x = npw m * size m -> length o1 = npw m * size m -> length o2 = npw m * size m ->
  (exists y, interleave m pi fid x o1 = Ret y /\ interleave m pi_inv fid y o2 = Ret x) /\
  (exists y, interleave m pi_inv fid x o1 = Ret y /\ interleave m pi fid y o2 = Ret x).
Proof.
  intros D d m p q fid x o1 o2 Hc G Lx L1 L2. destruct (good_luts m p q Hc G) as (A & B & I1 & I2).
  split; eapply roundtrip_aux; eauto.
Qed.

(** Same for the reordered layout when the wave holds all the frames. *)
Theorem C01_roundtrip_reordering : forall D (d : D) m pi pi_inv fid (x o1 o2 : list D),
  0 < core_nf m -> good_tables (size m) (core_nf m) pi pi_inv -> nf m = npw m ->
  length x = npw m * size m -> length o1 = npw m * size m -> length o2 = npw m * size m ->
  (exists y, interleave_reordering m pi fid x o1 = Ret y /\ interleave_reordering m pi_inv fid y o2 = Ret x) /\
  (exists y, interleave_reordering m pi_inv fid x o1 = Ret y /\ interleave_reordering m pi fid y o2 = Ret x).
Proof.
  intros D d m p q fid x o1 o2 Hc G Hn Lx L1 L2. destruct (good_luts m p q Hc G) as (A & B & I1 & I2).
  split; eapply roundtrip_reordering_aux; eauto.
Qed.

(** Interleaving takes each output element from its own frame, at the position
    given by the table of that frame, and only reorders: the output frame is a
    permutation of the input frame. For a non-uniform core every frame uses the
    first table. *)
Theorem C01_gather : forall D (d : D) m pi pi_inv fid (x o1 : list D),
  0 < core_nf m -> good_tables (size m) (core_nf m) pi pi_inv ->
  length x = npw m * size m -> length o1 = npw m * size m ->
  exists y, interleave m pi fid x o1 = Ret y /\ length y = length x /\
   forall f, f < npw m -> exists c, c < core_nf m /\ (uniform m = false -> c = 0) /\
     (uniform m = true -> npw m <= nf m -> core_nf m = nf m -> c = (fid + f) mod nf m) /\
     (forall i, i < size m -> nth i (frame (size m) f y) d = nth (nth i (frame (size m) c pi) 0) (frame (size m) f x) d) /\
     Permutation (frame (size m) f y) (frame (size m) f x).
Proof.
  intros D d m p q fid x o1 Hc G Lx L1. destruct (good_luts m p q Hc G) as (A & B & I1 & I2).
  destruct (interleave_gather D d m p fid x o1) as (y & Ey & Ly & Gy & _); auto; try lia.
  exists y. split; auto. split; [lia|]. intros f Hf. exists (lut_base m fid f).
  assert (Hb : lut_base m fid f < core_nf m) by (apply lut_base_lt; auto).
  assert (Lfx : length (frame (size m) f x) = size m) by (unfold frame; rewrite firstn_length, skipn_length; nia).
  assert (Lfy : length (frame (size m) f y) = size m) by (unfold frame; rewrite firstn_length, skipn_length; nia).
  destruct A as (A1 & _ & A). destruct (A _ Hb) as (P1 & P2 & P3).
  assert (N: forall i, i < size m -> nth i (frame (size m) f y) d = nth (nth i (frame (size m) (lut_base m fid f) p) 0) (frame (size m) f x) d).
  { intros i Hi. unfold frame at 1 3. rewrite !firstn_nth, !skipn_nth; auto. { apply Gy; auto. } }
  split; [auto|]. split; [intros U; unfold lut_base; rewrite U; auto|]. split; [|split; [exact N|]].
  - intros U Hw Hcn. unfold lut_base. rewrite U.
    assert (nf m <> 0) by lia.
    clear - H Hcn. induction f; simpl.
    + rewrite Nat.add_0_r, Hcn, Nat.mod_mod; auto.
    + rewrite IHf, Hcn, Nat.mod_mod, Nat.add_mod_idemp_l by auto. f_equal. lia.
  - assert (frame (size m) f y = map (fun k => nth k (frame (size m) f x) d) (frame (size m) (lut_base m fid f) p)) as ->.
    { apply list_eq_nth with (d := d).
      - rewrite map_length. unfold block in P1. unfold frame in *. lia.
      - intros i Hi. rewrite Lfy in Hi. rewrite N by auto.
        symmetry. etransitivity; [apply nth_indep with (d' := (fun k => nth k (frame (size m) f x) d) 0)|].
        + rewrite map_length. unfold block in P1. unfold frame in *. lia.
        + apply (map_nth (fun k => nth k (frame (size m) f x) d)). }
    apply Permutation_trans with (tab (size m) (fun k => nth k (frame (size m) f x) d)).
    + apply Permutation_map. apply is_perm_iff. exact (A _ Hb).
    + rewrite <- Lfx at 1. rewrite tab_nth. reflexivity.
Qed.

(** The reordered interleaver is the plain one seen through the layout change:
    position [i * n + f] instead of [f * size + i]. *)
Theorem C01_reordering_is_layout_change : forall D (d : D) m pi pi_inv fid (x x' o o' : list D),
  0 < core_nf m -> good_tables (size m) (core_nf m) pi pi_inv -> nf m = npw m ->
  length x = npw m * size m -> length o = npw m * size m ->
  length x' = npw m * size m -> length o' = npw m * size m ->
  (forall f i, f < npw m -> i < size m -> nth (i * npw m + f) x' d = nth (f * size m + i) x d) ->
  exists y y', interleave m pi fid x o = Ret y /\ interleave_reordering m pi fid x' o' = Ret y' /\
   (forall f i, f < npw m -> i < size m -> nth (i * npw m + f) y' d = nth (f * size m + i) y d).
Proof.
  intros D d m p q fid x x' o o' Hc G Hn Lx Lo Lx' Lo' X. destruct (good_luts m p q Hc G) as (A & B & I1 & I2).
  destruct (interleave_gather D d m p fid x o) as (y & Ey & Ly & Gy & _); auto; try lia.
  destruct (interleave_reordering_gather D d m p fid x' o') as (y' & Ey' & Ly' & Gy' & _); auto; try lia.
  exists y, y'. repeat split; auto. intros f i Hf Hi. rewrite Gy', Gy by auto. apply X; auto.
  destruct A as (_ & _ & A). assert (Hb : lut_base m fid f < core_nf m) by (apply lut_base_lt; auto).
  destruct (A _ Hb) as (_ & Q & _). apply Q; auto.
Qed.

(** With several waves the reordered layout strides over all the frames although
    the buffers handed to the last wave only hold that wave: the access leaves the
    buffer. Here: 2 frames of size 2, one frame per wave, last wave (its buffers
    have 2 elements). *)
Theorem C01_reordering_multiwave_refuted :
  exists m pi pi_inv (x o : list nat),
    init_core 4 (size m) (core_nf m) false (gen_NO 4) = Ret (pi, pi_inv) /\
    npw m < nf m /\ length x = npw m * size m /\ length o = npw m * size m /\
    interleave_reordering m pi 1 x o = Undef.
Proof.
  exists {| size := 2; uniform := false; core_nf := 1; nf := 2; npw := 1; nel := 8 |}, [0; 1], [0; 1], [7; 9], [0; 0].
  cbn [size core_nf npw nf]. repeat split; auto.
Qed.

(** ** C02 *)

(** Every generic generator builds permutations for all sizes representable in the
    element type. *)
Theorem C02_generators : forall w,
  (forall sz, sz <= 2 ^ w -> generates_permutations sz (gen_NO w)) /\
  (forall sz sh, sz <= 2 ^ w -> (forall f l, Permutation (sh f l) l) ->
     generates_permutations sz (gen_random w sh)) /\
  (forall sz srt, sz <= 2 ^ w -> (forall f l, Permutation (srt f l) l) ->
     generates_permutations sz (gen_golden w srt)) /\
  (forall n_cols col_size sh, n_cols * col_size <= 2 ^ w -> (forall f c l, Permutation (sh f c l) l) ->
     generates_permutations (n_cols * col_size) (gen_random_column w n_cols col_size sh)) /\
  (forall n_rows n_cols ro, n_cols * n_rows <= 2 ^ w ->
     generates_permutations (n_cols * n_rows) (gen_row_column w n_rows n_cols ro)) /\
  (forall n_rows n_cols ro, n_cols * n_rows <= 2 ^ w ->
     generates_permutations (n_cols * n_rows) (gen_column_row w n_rows n_cols ro)).
Proof.
  intros w. repeat split.
  - exact (gen_NO_ok w).
  - exact (gen_random_ok w).
  - exact (gen_golden_ok w).
  - exact (gen_random_column_ok w).
  - exact (gen_row_column_ok w).
  - exact (gen_column_row_ok w).
Qed.

(** The row/column constructors accept exactly the sizes that are multiples of the
    number of columns, and then give good tables; the table reads the matrix in
    the announced order. *)
Theorem C02_row_column : forall w sz n_cols n ro, 0 < sz -> 0 < n -> 0 < n_cols -> sz <= 2 ^ w ->
  (sz mod n_cols = 0 ->
   exists pi pi_inv, init_row_column w sz n_cols n ro = Ret (pi, pi_inv) /\ good_tables sz n pi pi_inv /\
     forall k r, k < n_cols -> r < sz / n_cols ->
       nth (k * (sz / n_cols) + r) pi 0 =
       match ro with
       | TOP_LEFT => r * n_cols + k
       | TOP_RIGHT => r * n_cols + (n_cols - 1 - k)
       | BOTTOM_LEFT => (sz / n_cols - 1 - r) * n_cols + k
       | BOTTOM_RIGHT => (sz / n_cols - 1 - r) * n_cols + (n_cols - 1 - k)
       end) /\
  (sz mod n_cols <> 0 -> init_row_column w sz n_cols n ro = Throws).
Proof.
  intros w sz nc n ro Hs Hn Hc Hw. pose proof (Nat.div_mod sz nc). split; intros M.
  - assert (S : sz = nc * (sz / nc)) by lia.
    set (nr := sz / nc) in *.
    assert (G : gen_ok sz (gen_row_column w nr nc ro)) by (rewrite S; apply gen_row_column_ok; lia).
    destruct (init_core_ok w sz n false _ Hs Hn Hw G) as ((p, q) & E & O & (b & Lb & Eb) & _).
    exists p, q. unfold init_row_column. destruct (Nat.eqb_spec nc 0); [lia|]. fold nr.
    destruct (Nat.eqb_spec (nr * nc) sz); [|lia]. cbn [negb]. split; [exact E|]. split; [exact O|].
    intros k r Hk Hr. destruct (gen_row_column_val w nr nc ro 0 b) as (l & E1 & L1 & V1); try lia.
    rewrite E1 in Eb. cbn [fst] in Eb. inversion Eb; subst l.
    specialize (V1 k r Hk Hr). unfold block in V1. rewrite Nat.mul_0_l in V1. cbn [skipn] in V1.
    rewrite firstn_nth in V1 by nia. rewrite V1. destruct ro; reflexivity.
  - unfold init_row_column. destruct (Nat.eqb_spec nc 0); [lia|].
    destruct (Nat.eqb_spec (sz / nc * nc) sz); [lia|]. reflexivity.
Qed.

(** Column_row is the inverse of Row_column for the same parameters. *)
Theorem C02_column_row_is_inverse : forall w sz n_cols ro, 0 < sz -> 0 < n_cols -> sz <= 2 ^ w ->
  sz mod n_cols = 0 ->
  exists pi pi_inv pi' pi_inv',
    init_row_column w sz n_cols 1 ro = Ret (pi, pi_inv) /\
    init_column_row w sz n_cols 1 ro = Ret (pi', pi_inv') /\
    pi' = pi_inv /\ pi_inv' = pi.
Proof.
  intros w sz nc ro Hs Hc Hw M. pose proof (Nat.div_mod sz nc).
  assert (S : sz = nc * (sz / nc)) by lia. set (nr := sz / nc) in *.
  assert (G : gen_ok sz (gen_row_column w nr nc ro)) by (rewrite S; apply gen_row_column_ok; lia).
  assert (G' : gen_ok sz (gen_column_row w nr nc ro)) by (rewrite S; apply gen_column_row_ok; lia).
  destruct (init_core_ok w sz 1 false _ Hs (le_n 1) Hw G) as ((p, q) & E & (O1 & O2 & O3) & (b & Lb & Eb) & _).
  destruct (init_core_ok w sz 1 false _ Hs (le_n 1) Hw G') as ((p', q') & E' & (O1' & O2' & O3') & (b' & Lb' & Eb') & _).
  exists p, q, p', q'. unfold init_row_column, init_column_row. destruct (Nat.eqb_spec nc 0); [lia|]. fold nr.
  destruct (Nat.eqb_spec (nr * nc) sz); [|lia]. cbn [negb fst snd] in *.
  split; [exact E|]. split; [exact E'|].
  rewrite Nat.mul_1_r in *.
  assert (B : forall l, length l = sz -> block sz 0 l = l).
  { intros. unfold block. simpl. rewrite <- H0. apply firstn_all. }
  destruct (O3 0) as (P1 & P2 & I1 & I2); auto. destruct (O3' 0) as (P1' & P2' & I1' & I2'); auto.
  rewrite (B p), (B q) in * by auto. rewrite (B p'), (B q') in * by auto.
  assert (K : inverse sz p p'). { pose proof (row_column_inverse w nr nc ro 0 b 0 b' p p') as K. rewrite <- S in K. apply K; auto. }
  assert (p' = q).
  { apply list_eq_nth with (d := 0); [lia|]. intros i Hi. rewrite O1' in Hi.
    destruct (is_perm_surj sz p i P1 Hi) as (k & Hk & <-). rewrite K, I1; auto. }
  split; auto. subst p'.
  apply list_eq_nth with (d := 0); [lia|]. intros i Hi. rewrite O2' in Hi.
  destruct (is_perm_surj sz q i P1' Hi) as (k & Hk & <-). rewrite I1', I2; auto.
Qed.

(** A size that does not fit in the element type is accepted (no exception) but the
    table is not a permutation, whatever the width. *)
Theorem C02_too_large_size_refuted : forall w sz, 2 ^ w < sz ->
  exists t, gen_NO w 0 (repeat 0 sz) = Ret t /\ ~ permutation_table sz t.
Proof.
  intros w sz H. exists (iota w (repeat 0 sz)). split; [reflexivity|].
  intros (_ & _ & I). assert (P : 2 ^ w <> 0) by (apply Nat.pow_nonzero; lia).
  assert (0 = 2 ^ w); [|lia]. apply I; try lia.
  unfold iota. rewrite repeat_length. fold (tab sz (wrap w)). rewrite !nth_tab by lia.
  unfold wrap. rewrite Nat.mod_0_l, Nat.mod_same; auto.
Qed.

(** ** C03 *)

Theorem C03_LTE : forall w sz, (exists f1 f2, In (Z.of_nat sz, f1, f2) LTE_table) -> sz <= 2 ^ w ->
  generates_permutations sz (gen_LTE w).
Proof. exact gen_LTE_ok. Qed.

Theorem C03_CCSDS : forall w sz, In (Z.of_nat sz) [1784; 3568; 7136; 8920]%Z -> sz <= 2 ^ w ->
  generates_permutations sz (gen_CCSDS w).
Proof.
  intros w sz H. apply gen_CCSDS_ok.
  change [1784; 3568; 7136; 8920]%Z with (map (fun '(n,_,_) => n) CCSDS_table) in H.
  apply in_map_iff in H. destruct H as (((n, k1), k2) & <- & Hin). eauto.
Qed.

Theorem C03_DVB_RCS1 : forall w sz,
  In (Z.of_nat sz) [48; 64; 212; 220; 228; 424; 432; 440; 752; 848; 856; 864]%Z -> sz <= 2 ^ w ->
  generates_permutations sz (gen_RCS1 w).
Proof.
  intros w sz H. apply gen_RCS1_ok.
  change [48; 64; 212; 220; 228; 424; 432; 440; 752; 848; 856; 864]%Z with (map (fun '(n,_,_,_,_) => n) RCS1_table) in H.
  apply in_map_iff in H. destruct H as (((((n, p0), p1), p2), p3) & <- & Hin). eauto.
Qed.

Theorem C03_DVB_RCS2 : forall w sz p q0 q1 q2 q3, In (Z.of_nat sz, p, q0, q1, q2, q3) RCS2_table ->
  Z.of_nat sz <> 1777%Z -> sz <= 2 ^ w -> generates_permutations sz (gen_RCS2 w).
Proof. intros. apply gen_RCS2_ok; auto. exists p, q0, q1, q2, q3; auto. Qed.

Lemma fill_val : forall w f lut l, fill w f lut = Ret l ->
  forall i, i < length lut -> exists v, f (Z.of_nat i) = Ret v /\ nth i l 0 = wrap w (Z.to_nat v).
Proof.
  intros w f lut l E. unfold fill in E.
  eapply (for_part _ (fun k o => length o = length lut /\ forall i, i < k ->
     exists v, f (Z.of_nat i) = Ret v /\ nth i o 0 = wrap w (Z.to_nat v))) in E.
  - exact (proj2 E).
  - split; [auto|]. intros; lia.
  - intros i s s' Hi (Ls & Hs) B. apply bind_inv in B. destruct B as (v & Ev & W).
    unfold wr in W. destruct (Nat.ltb_spec i (length s)) as [Hl|Hl]; [|discriminate].
    injection W as W. subst s'. split; [rewrite length_upd; auto|].
    intros k Hk. rewrite nth_upd by auto. destruct (Nat.eqb_spec k i).
    + subst k. eauto.
    + apply Hs; auto. lia.
Qed.

(** Size 1777, accepted by the DVB-RCS2 core, does not give a permutation:
    positions 0 and 259 are both sent to 3. *)
Theorem C03_DVB_RCS2_1777_refuted : forall w sz, Z.of_nat sz = 1777%Z ->
  (exists p q0 q1 q2 q3, In (1777, p, q0, q1, q2, q3)%Z RCS2_table /\
   pi_RCS2 1777 p q0 q1 q2 q3 0 = Ret 3%Z /\ pi_RCS2 1777 p q0 q1 q2 q3 259 = Ret 3%Z) /\
  ~ generates_permutations sz (gen_RCS2 w).
Proof.
  intros w sz Hz. split.
  - exists 59%Z, 3%Z, 8%Z, 5%Z, 1%Z. split; [|split; reflexivity].
    unfold RCS2_table. simpl. repeat (first [left; reflexivity | right]).
  - intros G. destruct (G 0 (repeat 0 sz) (repeat_length _ _)) as (t & E & L & _ & I).
    unfold gen_RCS2 in E. rewrite repeat_length, Hz in E.
    destruct (find _ RCS2_table) as [(((((n, p), q0), q1), q2), q3)|] eqn:F; [|discriminate].
    vm_compute in F. injection F as <- <- <- <- <- <-.
    pose proof (fill_val _ _ _ _ E) as V. rewrite repeat_length in V.
    assert (exists j, Z.of_nat j = 259%Z) as (j & Hj) by (exists (Z.to_nat 259); apply Z2Nat.id; lia).
    destruct (V 0) as (v0 & E0 & N0); [lia|]. destruct (V j) as (v1 & E1 & N1); [lia|].
    rewrite Hj in E1. change (Z.of_nat 0) with 0%Z in E0. vm_compute in E0, E1.
    injection E0 as <-. injection E1 as <-.
    assert (0 = j); [|lia]. apply I; [lia|lia|]. congruence.
Qed.

(** ** C04 *)

(** Whatever the file contains, the tables of an accepted file are permutations,
    there is at least one, and the core built from them has good tables. *)
Theorem C04_accepted_are_permutations : forall sz file tables, user_read sz file = Ret tables ->
  tables <> [] /\ Forall (permutation_table sz) tables /\
  forall k0, generates_permutations sz (gen_user tables k0).
Proof.
  intros. destruct (user_read_sound _ _ _ H) as (A & B). split; auto. split; auto.
  intros; apply gen_user_ok; auto.
Qed.

(** A complete numeric file (count, size, then the tables) is accepted, with its
    tables, exactly when they are all permutations; otherwise an exception is
    raised. *)
Theorem C04_well_formed_files : forall sz tables rest, 0 < length tables ->
  Forall (fun t => length t = sz) tables ->
  let file := Num (length tables) :: Num sz :: map Num (concat tables) ++ rest in
  (Forall (permutation_table sz) tables -> user_read sz file = Ret tables) /\
  (~ Forall (permutation_table sz) tables -> user_read sz file = Throws).
Proof.
  intros sz tables rest H F file. destruct (user_read_wf sz tables rest H F) as [(P & E)|(P & E)]; split; intros Q; auto; tauto.
Qed.

(** An empty file, or a file with only the number of tables, makes the constructor
    use an uninitialised variable. *)
Theorem C04_truncated_file_refuted : forall sz n, 0 < n ->
  user_read sz [] = Undef /\ user_read sz [Num n] = Undef.
Proof. intros. split; [reflexivity|]. unfold user_read. simpl. destruct (Nat.eqb_spec n 0); [lia|reflexivity]. Qed.

(** Witnesses: the hypotheses are met by concrete non-trivial cases. *)
Example C01_example :
  let m := {| size := 3; uniform := true; core_nf := 2; nf := 2; npw := 2; nel := 4 |} in
  let gen : generator := fun f _ => Ret (if f =? 0 then [2; 0; 1] else [1; 0; 2]) in
  init_core 4 3 2 true gen = Ret ([2; 0; 1; 1; 0; 2], [1; 2; 0; 1; 0; 2]) /\
  good_tables 3 2 [2; 0; 1; 1; 0; 2] [1; 2; 0; 1; 0; 2] /\
  interleave m [2; 0; 1; 1; 0; 2] 0 [10; 11; 12; 20; 21; 22] (repeat 0 6) = Ret [12; 10; 11; 21; 20; 22] /\
  interleave m [1; 2; 0; 1; 0; 2] 0 [12; 10; 11; 21; 20; 22] (repeat 0 6) = Ret [10; 11; 12; 20; 21; 22].
Proof.
  cbn zeta. split; [reflexivity|]. split; [|split; reflexivity].
  unfold good_tables. split; [reflexivity|]. split; [reflexivity|].
  assert (E : forall (P : nat -> Prop), P 0 -> P 1 -> P 2 -> forall i, i < 3 -> P i).
  { intros P ? ? ? i Hi. destruct i as [|[|[|i]]]; auto; lia. }
  intros f Hf. destruct f as [|[|f]]; [| |lia]; unfold permutation_table, undoes, frame; simpl;
  (split; [|split; [|split]]).
  all: try (split; [reflexivity|split]).
  all: try (apply E; simpl; lia).
  all: intros i j Hi Hj; destruct i as [|[|[|i]]]; try lia; destruct j as [|[|[|j]]]; simpl; lia.
Qed.

Example C02_example : init_row_column 8 6 3 1 TOP_LEFT = Ret ([0; 3; 1; 4; 2; 5], [0; 2; 4; 1; 3; 5]).
Proof. reflexivity. Qed.

Example C03_example : exists f1 f2, In (Z.of_nat 40, f1, f2) LTE_table.
Proof. exists 3%Z, 10%Z. left. reflexivity. Qed.

Example C04_example : user_read 3 [Num 2; Num 3; Num 2; Num 0; Num 1; Num 0; Num 1; Num 2] = Ret [[2; 0; 1]; [0; 1; 2]].
Proof. reflexivity. Qed.

