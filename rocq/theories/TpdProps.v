(** C144 and C145: the decoder of turbo product codes. *)
From Coq Require Import List Arith Lia Bool QArith Lqa.
From Verif Require Import Base InterleaverSpec InterleaverModel InterleaverProps LDPCBPModel LDPCBPProofs FlipProofs TpcProofs TpdModel TpdSpec TpdProofs.
Import ListNotations.
Local Open Scope nat_scope.

(** A decoder of nr lines and nc columns on a row-column interleaver of nc columns, read from a top corner. *)
Definition built (nr nc : nat) (d : tpd) : Prop := exists w ro n_ite alpha beta Kr Kc pos lut inv,
  tpd_new n_ite alpha beta Kr nc Kc nr pos lut inv = Ret d /\ (ro = TOP_LEFT \/ ro = TOP_RIGHT) /\ length lut <= 2 ^ w /\
  init_row_column w (length lut) nc 1 ro = Ret (lut, inv).
(** A decoder that returns n values for n values. *)
Definition keeps {A B} (n m : nat) (f : list A -> list B) : Prop := forall u, length u = n -> length (f u) = m.
(** The buffers have their sizes; without a list of beta, the component decoders still have their own (br and bc). *)
Definition usable (d : tpd) (nr nc : nat) (br bc : option Q) (s : tpd_st) : Prop := fits d nr nc br bc s.

Theorem C144_constructor : forall n_ite alpha beta Kr Nr Kc Nc pos lut inv,
  (exists d, tpd_new n_ite alpha beta Kr Nr Kc Nc pos lut inv = Ret d) <->
  0 < Kr * Kc <= length lut /\ 0 < n_ite /\ length alpha = n_ite * 2 /\ (length beta = n_ite * 2 \/ beta = []) /\ length lut = Nr * Nc.
Proof.
  intros. unfold tpd_new. split.
  - intros (d & H). destruct (Nat.eqb_spec (Kr * Kc) 0); cbn [orb] in H; [discriminate|]. destruct (Nat.eqb_spec (length lut) 0); cbn [orb] in H; [discriminate|]. destruct (Nat.ltb_spec (length lut) (Kr * Kc)); [discriminate|]. destruct (Nat.eqb_spec n_ite 0); [discriminate|].
    destruct (Nat.eqb_spec (n_ite * 2) (length alpha)); cbn [negb] in H; [|discriminate]. destruct (Nat.eqb_spec (length lut) (Nr * Nc)); [|destruct (_ && _) in H; discriminate].
    split; [lia|]. split; [lia|]. split; [lia|]. split; [|auto]. destruct (Nat.eqb_spec (n_ite * 2) (length beta)); [left; lia|]. right. destruct beta; [auto|discriminate].
  - intros (A & B & C & D & E). replace (Kr * Kc =? 0) with false by (symmetry; apply Nat.eqb_neq; lia). replace (length lut =? 0) with false by (symmetry; apply Nat.eqb_neq; lia). replace (length lut <? Kr * Kc) with false by (symmetry; apply Nat.ltb_ge; lia). replace (n_ite =? 0) with false by (symmetry; apply Nat.eqb_neq; lia). rewrite C, Nat.eqb_refl, E, Nat.eqb_refl. cbn [orb negb].
    destruct D as [-> | ->]; [rewrite Nat.eqb_refl|cbn [length Nat.eqb negb]; rewrite andb_false_r]; cbn [negb andb]; eexists; reflexivity.
Qed.
Lemma new_is : forall n_ite alpha beta Kr Nr Kc Nc pos lut inv d, tpd_new n_ite alpha beta Kr Nr Kc Nc pos lut inv = Ret d ->
  d = mkTD Kr Nr Kc Nc n_ite alpha beta lut inv pos /\ 0 < length lut /\ 0 < n_ite /\ length alpha = n_ite * 2 /\ (length beta = n_ite * 2 \/ beta = []) /\ length lut = Nr * Nc.
Proof.
  intros. destruct (proj1 (C144_constructor n_ite alpha beta Kr Nr Kc Nc pos lut inv) (ex_intro _ d H)) as (A & B & C & D & E). split; [|split; [lia|auto]].
  unfold tpd_new in H. repeat match type of H with (if ?b then _ else _) = _ => destruct b; [discriminate|] end. inversion H. auto.
Qed.
Lemma tables_of : forall w ro nr nc lut inv, (ro = TOP_LEFT \/ ro = TOP_RIGHT) -> length lut <= 2 ^ w -> init_row_column w (length lut) nc 1 ro = Ret (lut, inv) -> 0 < length lut -> length lut = nr * nc ->
  exists cp, by_columns nr nc cp lut inv.
Proof.
  intros w ro nr nc lut inv RO LW HI L0 LL. assert (C0 : 0 < nc) by (destruct nc; lia). assert (R0 : 0 < nr) by (destruct nr; lia).
  destruct (C02_row_column w (length lut) nc 1 ro L0 ltac:(lia) C0 LW) as [OK _]. assert (DV : length lut / nc = nr) by (rewrite LL; apply Nat.div_mul; lia). rewrite DV in OK. destruct OK as (pi & pi_inv & EI & (LP & LPI & GT) & VP); [rewrite LL; apply Nat.mod_mul; lia|]. rewrite HI in EI. inversion EI. subst pi pi_inv. clear EI.
  destruct (GT 0 ltac:(lia)) as (_ & _ & UN & _). rewrite Nat.mul_1_r in *.
  assert (FR : forall l : list nat, length l = length lut -> frame (length lut) 0 l = l) by (intros l Hl; unfold frame; rewrite Nat.mul_0_l; cbn [skipn]; apply firstn_all2; lia).
  rewrite !FR in UN by auto. set (cp := fun k => match ro with TOP_LEFT => k | _ => nc - 1 - k end).
  exists cp. unfold by_columns.
  assert (VL : forall r k, r < nr -> k < nc -> nth (k * nr + r) lut 0 = r * nc + cp k) by (intros r k Hr Hk; rewrite (VP k r Hk Hr); unfold cp; destruct RO as [-> | ->]; auto).
  assert (CB : forall k, k < nc -> cp k < nc) by (intros k Hk; unfold cp; destruct ro; lia).
  split; [auto|]. split; [rewrite <- LL; auto|]. split; [auto|]. split; [intros k Hk; unfold cp; destruct RO as [-> | ->]; lia|]. split; [auto|].
  intros r k Hr Hk. rewrite <- VL by auto. apply UN. rewrite LL, (Nat.mul_comm nr). apply cell_below; auto.
Qed.
Lemma built_is : forall nr nc d, built nr nc d -> td_Nr d = nc /\ td_Nc d = nr /\ 0 < td_ite d /\ length (td_alpha d) = td_ite d * 2 /\ (length (td_beta d) = td_ite d * 2 \/ td_beta d = []) /\ length (td_lut d) = nr * nc /\ 0 < nr * nc /\ exists cp, by_columns nr nc cp (td_lut d) (td_inv d).
Proof.
  intros nr nc d (w & ro & n & al & be & Kr & Kc & pos & lut & inv & N & RO & LW & I). destruct (new_is _ _ _ _ _ _ _ _ _ _ _ N) as (-> & A & B & C & D & E). cbn [td_Nr td_Nc td_ite td_alpha td_beta td_lut td_inv]. rewrite Nat.mul_comm in E. repeat (split; auto); [lia|]. apply (tables_of w ro); auto.
Qed.
Lemma start_usable : forall nr nc d br bc, built nr nc d -> usable d nr nc br bc (tpd_start d br bc).
Proof.
  intros nr nc d br bc B. destruct (built_is _ _ _ B) as (_ & _ & _ & _ & _ & L & _ & _). unfold usable, fits, tpd_start. cbn [ts_P ts_C ts_VK ts_VN ts_br ts_bc]. rewrite !repeat_length. do 4 (split; [auto|]). intros E. rewrite E. auto.
Qed.
Lemma all_nonneg : forall d k, Forall (fun b => (0 <= b)%Q) (td_beta d) -> nonneg d k.
Proof. intros d k F q Hq. rewrite Forall_forall in F. destruct (Nat.lt_ge_cases q (length (td_beta d))); [apply F, nth_In; auto|rewrite nth_overflow by auto; apply Qle_refl]. Qed.
(** The values before iteration k, and those of the last iteration after the columns. *)
Definition soft (d : tpd) nr nc sr sc br bc cha (k : nat) : list Q := values nr nc sr sc (td_alpha d) (td_beta d) br bc cha k.
Definition final (d : tpd) nr nc sr sc br bc cha : list Q := after_columns nr nc sc (td_alpha d) (td_beta d) bc cha (td_ite d - 1) (soft d nr nc sr sc br bc cha (td_ite d - 1)).

(** * C144: what is computed *)

(** Soft output: the values after all iterations. Whatever calls came before, the result only depends on the channel values. *)
Theorem C144_soft : forall nr nc d sr sc hr hw br bc cha s, built nr nc d -> (forall b, keeps nc nc (sr b)) -> (forall b, keeps nr nr (sc b)) -> Forall (fun b => (0 <= b)%Q) (td_beta d) -> length cha = nr * nc -> usable d nr nc br bc s ->
  usable d nr nc br bc (tpd_start d br bc) /\
  exists s', tpd_siso sr sc hr hw d cha s = Ret (s', soft d nr nc sr sc br bc cha (td_ite d)) /\ usable d nr nc br bc s'.
Proof.
  intros nr nc d sr sc hr hw br bc cha s B SR SC BP LC U. split; [apply start_usable; auto|]. destruct (built_is _ _ _ B) as (NR & NC & I0 & LA & LB & LL & N0 & cp & T).
  destruct (decode_last sr sc hr hw d nr nc cp cha br bc NR NC T SR SC LA LB LC Soft s U I0 (all_nonneg _ _ BP)) as (s1 & R & K & N & E).
  destruct (iter_ok sr sc hr hw d nr nc cp cha br bc NR NC T SR SC LA LB LC (td_ite d - 1) Soft s1 ltac:(lia) (all_nonneg _ _ BP) R) as (P & LP & EI). cbv zeta in EI. rewrite Nat.ltb_irrefl in EI.
  unfold tpd_siso. rewrite E, EI. cbn [bind ts_Y]. replace (S (td_ite d - 1)) with (td_ite d) by lia. eexists. split; [reflexivity|]. destruct U as (_ & _ & U3 & U4 & _). destruct R as (_ & _ & R3 & _).
  unfold usable, fits. cbn [ts_P ts_C ts_VK ts_VN ts_br ts_bc]. split; auto. split; [rewrite R3; eapply length_turned; eauto|]. split; [congruence|]. split; [congruence|]. intros EB. rewrite EB. auto.
Qed.

(** Information bits: in the last iteration, the lines that carry information go to the decoder of the lines after the columns. *)
Theorem C144_information : forall nr nc d sr sc hr hw br bc cha s, built nr nc d -> (forall b, keeps nc nc (sr b)) -> (forall b, keeps nr nr (sc b)) -> keeps nc (td_Kr d) hr -> Forall (fun b => (0 <= b)%Q) (td_beta d) ->
  td_Kc d <= length (td_pos d) -> (forall j, j < td_Kc d -> nth j (td_pos d) 0 < nr) -> length cha = nr * nc -> usable d nr nc br bc s ->
  exists s' V, tpd_siho sr sc hr hw d cha s = Ret (s', V) /\ usable d nr nc br bc s' /\ length V = td_Kr d * td_Kc d /\
  forall j i, j < td_Kc d -> i < td_Kr d -> nth (j * td_Kr d + i) V false = nth i (hr (row 0%Q nc (final d nr nc sr sc br bc cha) (nth j (td_pos d) 0))) false.
Proof.
  intros nr nc d sr sc hr hw br bc cha s B SR SC HR BP LPO BPO LC U. destruct (built_is _ _ _ B) as (NR & NC & I0 & LA & LB & LL & N0 & cp & T).
  destruct (decode_last sr sc hr hw d nr nc cp cha br bc NR NC T SR SC LA LB LC ToK s U I0 (all_nonneg _ _ BP)) as (s1 & R & K & N & E).
  destruct (iter_ok sr sc hr hw d nr nc cp cha br bc NR NC T SR SC LA LB LC (td_ite d - 1) ToK s1 ltac:(lia) (all_nonneg _ _ BP) R) as (P & LP & EI). cbv zeta in EI. rewrite Nat.ltb_irrefl in EI.
  fold (soft d nr nc sr sc br bc cha (td_ite d - 1)) in EI. fold (final d nr nc sr sc br bc cha) in EI. destruct U as (_ & _ & U3 & U4 & _). destruct R as (_ & _ & R3 & _).
  destruct (lines_ok nr nc hr (td_Kr d) (td_Kc d) (fun j => nth j (td_pos d) 0) (final d nr nc sr sc br bc cha) (ts_VK s1) (fun j => rd (td_pos d) j) HR) as (W & EW & LW & VW & _).
  { intros j Hj. split; [apply rd_ok; lia|auto]. } { unfold final, after_columns, columns_step. apply length_tab. } { rewrite K, U3. lia. }
  rewrite EW in EI. cbn [bind] in EI. unfold tpd_siho. rewrite E, EI. cbn [bind ts_VK]. eexists. exists W. split; [reflexivity|]. split.
  - unfold usable, fits. cbn [ts_P ts_C ts_VK ts_VN ts_br ts_bc]. split; auto. split; [rewrite R3; eapply length_turned; eauto|]. split; [congruence|]. split; [congruence|]. intros EB. rewrite EB. auto.
  - split; [congruence|]. intros j i Hj Hi. rewrite VW by (apply cell_below; auto). destruct (cell (td_Kr d) j i Hi) as [-> ->]. reflexivity.
Qed.

(** The codeword: the lines below nc are decoded, and the other ones keep the bits that the previous call left. *)
Lemma codeword_some : forall nr nc d sr sc hr hw br bc cha s, built nr nc d -> (forall b, keeps nc nc (sr b)) -> (forall b, keeps nr nr (sc b)) -> keeps nc nc hw -> Forall (fun b => (0 <= b)%Q) (td_beta d) -> length cha = nr * nc -> usable d nr nc br bc s -> nc <= nr ->
  exists s' V, tpd_siho_cw sr sc hr hw d cha s = Ret (s', V) /\ ts_VN s' = V /\ usable d nr nc br bc s' /\ length V = nr * nc /\
  forall j i, j < nr -> i < nc -> nth (j * nc + i) V false = if j <? nc then nth i (hw (row 0%Q nc (final d nr nc sr sc br bc cha) j)) false else nth (j * nc + i) (ts_VN s) false.
Proof.
  intros nr nc d sr sc hr hw br bc cha s B SR SC HW BP LC U LE. destruct (built_is _ _ _ B) as (NR & NC & I0 & LA & LB & LL & N0 & cp & T).
  destruct (decode_last sr sc hr hw d nr nc cp cha br bc NR NC T SR SC LA LB LC ToN s U I0 (all_nonneg _ _ BP)) as (s1 & R & K & N & E).
  destruct (iter_ok sr sc hr hw d nr nc cp cha br bc NR NC T SR SC LA LB LC (td_ite d - 1) ToN s1 ltac:(lia) (all_nonneg _ _ BP) R) as (P & LP & EI). cbv zeta in EI. rewrite Nat.ltb_irrefl in EI.
  fold (soft d nr nc sr sc br bc cha (td_ite d - 1)) in EI. fold (final d nr nc sr sc br bc cha) in EI. destruct U as (_ & _ & U3 & U4 & _). destruct R as (_ & _ & R3 & _).
  destruct (lines_ok nr nc hw nc nc (fun j => j) (final d nr nc sr sc br bc cha) (ts_VN s1) (fun j => Ret j) HW) as (W & EW & LW & VW & RW).
  { intros j Hj. split; [auto|lia]. } { unfold final, after_columns, columns_step. apply length_tab. } { rewrite N, U4. apply Nat.mul_le_mono_r. auto. }
  cbn [bind] in EW. rewrite EW in EI. cbn [bind] in EI. unfold tpd_siho_cw. rewrite E, EI. cbn [bind ts_VN]. eexists. exists W. split; [reflexivity|]. split; [reflexivity|]. split.
  - unfold usable, fits. cbn [ts_P ts_C ts_VK ts_VN ts_br ts_bc]. split; auto. split; [rewrite R3; eapply length_turned; eauto|]. split; [congruence|]. split; [congruence|]. intros EB. rewrite EB. auto.
  - split; [congruence|]. intros j i Hj Hi. destruct (Nat.ltb_spec j nc).
    + rewrite VW by (apply cell_below; auto). destruct (cell nc j i Hi) as [-> ->]. reflexivity.
    + rewrite RW, N; [reflexivity|]. assert (nc * nc <= j * nc) by (apply Nat.mul_le_mono_r; auto). lia.
Qed.
Theorem C144_codeword_square : forall n d sr sc hr hw br bc cha s, built n n d -> (forall b, keeps n n (sr b)) -> (forall b, keeps n n (sc b)) -> keeps n n hw -> Forall (fun b => (0 <= b)%Q) (td_beta d) -> length cha = n * n -> usable d n n br bc s ->
  exists s' V, tpd_siho_cw sr sc hr hw d cha s = Ret (s', V) /\ usable d n n br bc s' /\ length V = n * n /\
  forall j i, j < n -> i < n -> nth (j * n + i) V false = nth i (hw (row 0%Q n (final d n n sr sc br bc cha) j)) false.
Proof.
  intros n d sr sc hr hw br bc cha s B SR SC HW BP LC U. destruct (codeword_some n n d sr sc hr hw br bc cha s B SR SC HW BP LC U (le_n n)) as (s' & V & E & _ & U' & LV & P). exists s', V. split; auto. split; auto. split; auto. intros j i Hj Hi. rewrite P by auto. destruct (Nat.ltb_spec j n); [reflexivity|lia].
Qed.
(** With more lines than columns, the last lines of the codeword are those of an earlier call: they do not depend on the channel. *)
Theorem C144_codeword_stale_refuted : forall nr nc d sr sc hr hw br bc cha s, built nr nc d -> (forall b, keeps nc nc (sr b)) -> (forall b, keeps nr nr (sc b)) -> keeps nc nc hw -> Forall (fun b => (0 <= b)%Q) (td_beta d) -> length cha = nr * nc -> usable d nr nc br bc s -> nc < nr ->
  exists s' V, tpd_siho_cw sr sc hr hw d cha s = Ret (s', V) /\ forall p, nc * nc <= p < nr * nc -> nth p V false = nth p (ts_VN s) false.
Proof.
  intros nr nc d sr sc hr hw br bc cha s B SR SC HW BP LC U LT. destruct (codeword_some nr nc d sr sc hr hw br bc cha s B SR SC HW BP LC U ltac:(lia)) as (s' & V & E & _ & U' & LV & P). exists s', V. split; auto. intros p [H1 H2]. destruct (split_cell nr nc p H2) as (A & B1 & C & D). rewrite D, P by auto. destruct (Nat.ltb_spec (p / nc) nc) as [X|X]; [|reflexivity].
  exfalso. apply (Nat.div_le_mono _ _ nc) in H1; [|lia]. rewrite Nat.div_mul in H1 by lia. lia.
Qed.
(** With more columns than lines, the codeword is read and written after the end of the buffers. *)
Theorem C144_codeword_refuted : forall nr nc d sr sc hr hw br bc cha s, built nr nc d -> (forall b, keeps nc nc (sr b)) -> (forall b, keeps nr nr (sc b)) -> keeps nc nc hw -> Forall (fun b => (0 <= b)%Q) (td_beta d) -> length cha = nr * nc -> usable d nr nc br bc s -> nr < nc ->
  tpd_siho_cw sr sc hr hw d cha s = Undef.
Proof.
  intros nr nc d sr sc hr hw br bc cha s B SR SC HW BP LC U LT. destruct (built_is _ _ _ B) as (NR & NC & I0 & LA & LB & LL & N0 & cp & T).
  destruct (decode_last sr sc hr hw d nr nc cp cha br bc NR NC T SR SC LA LB LC ToN s U I0 (all_nonneg _ _ BP)) as (s1 & R & K & N & E).
  destruct (iter_ok sr sc hr hw d nr nc cp cha br bc NR NC T SR SC LA LB LC (td_ite d - 1) ToN s1 ltac:(lia) (all_nonneg _ _ BP) R) as (P & LP & EI). cbv zeta in EI. rewrite Nat.ltb_irrefl in EI.
  fold (soft d nr nc sr sc br bc cha (td_ite d - 1)) in EI. fold (final d nr nc sr sc br bc cha) in EI. destruct U as (_ & _ & U3 & U4 & _).
  assert (LF : length (final d nr nc sr sc br bc cha) = nr * nc) by (unfold final, after_columns, columns_step; apply length_tab).
  destruct (lines_ok nr nc hw nc nr (fun j => j) (final d nr nc sr sc br bc cha) (ts_VN s1) (fun j => Ret j) HW) as (W & EW & LW & _ & _); auto. { rewrite N, U4. auto. } cbn [bind] in EW.
  unfold tpd_siho_cw. rewrite E, EI. match goal with |- context [for_ nc ?b ?w] => assert (X : for_ nc b w = Undef) end; [|rewrite X; reflexivity].
  replace nc with (nr + S (nc - nr - 1)) at 1 by lia. unfold for_ in EW |- *. rewrite for_from_app, EW. cbn [bind Nat.add for_from]. unfold through at 1.
  assert (G : gen nc (fun i => rd (final d nr nc sr sc br bc cha) (nr * nc + i)) = Undef); [|rewrite G; reflexivity].
  unfold gen. replace nc with (S (nc - 1)) at 1 by lia. cbn [gen_from]. rewrite Nat.add_0_r. unfold rd at 1. rewrite (proj2 (nth_error_None _ _)) by lia. reflexivity.
Qed.
(** A negative beta is found when its iteration is reached, in every kind of decoding. *)
Theorem C144_negative_beta : forall nr nc d sr sc hr hw br bc cha s, built nr nc d -> (forall b, keeps nc nc (sr b)) -> (forall b, keeps nr nr (sc b)) -> length cha = nr * nc -> usable d nr nc br bc s -> Exists (fun b => (b < 0)%Q) (td_beta d) ->
  tpd_siso sr sc hr hw d cha s = Throws /\ tpd_siho sr sc hr hw d cha s = Throws /\ tpd_siho_cw sr sc hr hw d cha s = Throws.
Proof.
  intros nr nc d sr sc hr hw br bc cha s B SR SC LC U EX. destruct (built_is _ _ _ B) as (NR & NC & I0 & LA & LB & LL & N0 & cp & T).
  assert (NE : td_beta d <> []) by (intros X; rewrite X in EX; inversion EX). destruct LB as [LB|LB]; [|contradiction].
  assert (F : exists q, q < td_ite d * 2 /\ (nth q (td_beta d) 0 < 0)%Q /\ nonneg d q).
  { apply Exists_exists in EX. destruct EX as (b & IN & HB). destruct (In_nth _ _ 0%Q IN) as (q & Hq & <-). revert HB. rewrite LB in Hq. revert Hq. pattern q. apply (well_founded_induction lt_wf). intros k IH Hk HB.
    assert (DEC : (exists j, j < k /\ (nth j (td_beta d) 0 < 0)%Q) \/ nonneg d k).
    { clear. unfold nonneg. induction k as [|k [(j & J1 & J2)|J]]; [right; intros; lia|left; exists j; split; auto|]. destruct (Qlt_le_dec (nth k (td_beta d) 0%Q) 0) as [H|H]; [left; exists k; auto|]. right. intros j Hj. destruct (Nat.eq_dec j k) as [->|]; [auto|apply J; lia]. }
    destruct DEC as [(j & J1 & J2)|J]; [apply (IH j); auto; lia|exists k; auto]. }
  destruct F as (q & Hq & HB & NN).
  assert (D : forall m, tpd_decode sr sc hr hw d m cha s = Throws).
  { intros m. assert (QD := Nat.div_mod q 2 ltac:(lia)). assert (QM := Nat.mod_upper_bound q 2 ltac:(lia)). set (i := q / 2) in *.
    destruct (decode_until sr sc hr hw d nr nc cp cha br bc NR NC T SR SC LA (or_introl LB) LC m s i U ltac:(lia) ltac:(intros x Hx; apply NN; lia)) as (s1 & R & _ & _ & E). rewrite E.
    assert (X : tpd_iter sr sc hr hw d m cha i s1 = Throws); [|rewrite X; reflexivity]. destruct R as (R1 & R2 & _). assert (TB := T). destruct TB as (TL & TI & _).
    unfold tpd_iter. rewrite (permute_ok _ 0%Q); [|lia|intros p Hp; rewrite R1]. 2:{ rewrite (length_V sr sc d nr nc cha br bc LC). apply (lut_in d nr nc cp T). auto. } cbn [bind].
    assert (NB : forall k old, k < td_ite d * 2 -> next_beta (td_beta d) k old = if qltb (nth k (td_beta d) 0%Q) 0 then Throws else Ret (Some (nth k (td_beta d) 0%Q))). { intros k old Hk. unfold next_beta. destruct (Nat.eqb_spec (length (td_beta d)) 0) as [Z|_]; [lia|]. rewrite (rd_ok _ 0%Q) by lia. reflexivity. }
    rewrite (NB (2 * i)) by lia. destruct (qltb_spec (nth (2 * i) (td_beta d) 0%Q) 0) as [[-> _]|[-> NP]]; [reflexivity|]. cbn [bind]. rewrite (NB (2 * i + 1)) by lia.
    assert (EQ1 : q = 2 * i + 1). { destruct (Nat.eq_dec q (2 * i)) as [EQ|]; [rewrite EQ in HB; exfalso; lra|lia]. } rewrite EQ1 in HB.
    destruct (qltb_spec (nth (2 * i + 1) (td_beta d) 0%Q) 0) as [[-> _]|[_ NP2]]; [reflexivity|exfalso; lra]. }
  unfold tpd_siso, tpd_siho, tpd_siho_cw. rewrite !D. auto.
Qed.

(** * C145: values without error *)

Lemma add_agrees : forall (b : bool) v a c, (0 <= a)%Q -> (if b then (v <= 0)%Q else (0 <= v)%Q) -> (if b then (c < 0)%Q else (0 < c)%Q) -> if b then (v * a + c < 0)%Q else (0 < v * a + c)%Q.
Proof. intros b v a c Ha Hv Hc. destruct b; nra. Qed.
Lemma row_agrees : forall nr nc x Y i, length x = nr * nc -> i < nr -> agrees x Y -> agrees (row false nc x i) (row 0%Q nc Y i).
Proof.
  intros nr nc x Y i LX Hi A j Hj. unfold row in *. rewrite length_tab in Hj. rewrite !nth_tab by auto. apply A. rewrite LX. apply cell_below; auto.
Qed.
Lemma col_agrees : forall nr nc x Y j, length x = nr * nc -> j < nc -> agrees x Y -> agrees (col false nr nc x j) (col 0%Q nr nc Y j).
Proof.
  intros nr nc x Y j LX Hj A i Hi. unfold col in *. rewrite length_tab in Hi. rewrite !nth_tab by auto. apply A. rewrite LX. apply cell_below; auto.
Qed.
Section NoError.
Variables (nr nc : nat) (Cr Cc : list bool -> Prop) (sr sc : option Q -> list Q -> list Q) (alphas betas : list Q) (br bc : option Q) (x : list bool) (cha : list Q).
Hypothesis XP : in_product nr nc Cr Cc x.
Hypothesis TR : trusts Cr nc sr.
Hypothesis TC : trusts Cc nr sc.
Hypothesis AP : Forall (fun a => (0 <= a)%Q) alphas.
Hypothesis CA : agrees x cha.
Lemma alpha_pos : forall k, (0 <= nth k alphas 0)%Q.
Proof. intros k. destruct (Nat.lt_ge_cases k (length alphas)); [rewrite Forall_forall in AP; apply AP, nth_In; auto|rewrite nth_overflow by auto; apply Qle_refl]. Qed.
Lemma columns_agree : forall i Y, agrees x Y -> agrees x (after_columns nr nc sc alphas betas bc cha i Y).
Proof.
  intros i Y A p Hp. destruct XP as (LX & _ & PC). assert (Hp' := Hp). rewrite LX in Hp'. destruct (split_cell nr nc p Hp') as (P1 & P2 & P3 & P4). unfold after_columns, columns_step. rewrite nth_tab by auto. apply add_agrees; [apply alpha_pos| |apply CA; auto].
  assert (W := TC (beta_of betas bc (2 * i)) _ _ (PC _ P3) (length_tab _ _ _) (length_tab _ _ _) (col_agrees _ _ _ _ _ LX P3 A) (p / nc)). unfold col in W at 1. rewrite length_tab in W. specialize (W P2). unfold col in W at 1. rewrite nth_tab, <- P4 in W by auto. exact W.
Qed.
Lemma rows_agree : forall i Y, agrees x Y -> agrees x (after_rows nr nc sr alphas betas br cha i Y).
Proof.
  intros i Y A p Hp. destruct XP as (LX & PR & _). assert (Hp' := Hp). rewrite LX in Hp'. destruct (split_cell nr nc p Hp') as (P1 & P2 & P3 & P4). unfold after_rows, rows_step. rewrite nth_tab by auto. apply add_agrees; [apply alpha_pos| |apply CA; auto].
  assert (W := TR (beta_of betas br (2 * i + 1)) _ _ (PR _ P2) (length_tab _ _ _) (length_tab _ _ _) (row_agrees _ _ _ _ _ LX P2 A) (p mod nc)). unfold row in W at 1. rewrite length_tab in W. specialize (W P3). unfold row in W at 1. rewrite nth_tab, <- P4 in W by auto. exact W.
Qed.
Lemma values_agree : forall k, agrees x (values nr nc sr sc alphas betas br bc cha k).
Proof. induction k as [|k IH]; [exact CA|]. cbn [values]. apply rows_agree, columns_agree, IH. Qed.
End NoError.

(** Channel values without error for a word of the product code: soft values, information bits and codeword are right, for every
    number of iterations, if the component decoders are right on lines and columns without error. *)
Theorem C145_soft : forall nr nc d sr sc hr hw br bc cha s Cr Cc x, built nr nc d -> (forall b, keeps nc nc (sr b)) -> (forall b, keeps nr nr (sc b)) -> Forall (fun b => (0 <= b)%Q) (td_beta d) -> length cha = nr * nc -> usable d nr nc br bc s ->
  in_product nr nc Cr Cc x -> trusts Cr nc sr -> trusts Cc nr sc -> Forall (fun a => (0 <= a)%Q) (td_alpha d) -> agrees x cha ->
  exists s' Y, tpd_siso sr sc hr hw d cha s = Ret (s', Y) /\ length Y = nr * nc /\ agrees x Y.
Proof.
  intros nr nc d sr sc hr hw br bc cha s Cr Cc x B SR SC BP LC U XP TR TC AP CA. destruct (C144_soft nr nc d sr sc hr hw br bc cha s B SR SC BP LC U) as (_ & s' & E & _). exists s'. eexists. split; [exact E|]. split; [apply length_V; auto|]. apply (values_agree nr nc Cr Cc); auto.
Qed.
Theorem C145_information : forall nr nc d sr sc hr hw br bc cha s Cr Cc x inf, built nr nc d -> (forall b, keeps nc nc (sr b)) -> (forall b, keeps nr nr (sc b)) -> keeps nc (td_Kr d) hr -> Forall (fun b => (0 <= b)%Q) (td_beta d) ->
  td_Kc d <= length (td_pos d) -> (forall j, j < td_Kc d -> nth j (td_pos d) 0 < nr) -> length cha = nr * nc -> usable d nr nc br bc s ->
  in_product nr nc Cr Cc x -> trusts Cr nc sr -> trusts Cc nr sc -> Forall (fun a => (0 <= a)%Q) (td_alpha d) -> agrees x cha ->
  (forall w u, Cr w -> length w = nc -> length u = nc -> agrees w u -> hr u = inf w) ->
  exists s' V, tpd_siho sr sc hr hw d cha s = Ret (s', V) /\ length V = td_Kr d * td_Kc d /\
  forall j i, j < td_Kc d -> i < td_Kr d -> nth (j * td_Kr d + i) V false = nth i (inf (row false nc x (nth j (td_pos d) 0))) false.
Proof.
  intros nr nc d sr sc hr hw br bc cha s Cr Cc x inf B SR SC HR BP LPO BPO LC U XP TR TC AP CA HI. destruct (C144_information nr nc d sr sc hr hw br bc cha s B SR SC HR BP LPO BPO LC U) as (s' & V & E & _ & LV & P). exists s', V. split; auto. split; auto. intros j i Hj Hi. rewrite P by auto. f_equal. assert (X := XP). destruct X as (LX & PR & _).
  apply HI; [apply PR; auto|apply length_tab|apply length_tab|]. apply (row_agrees nr); auto. apply (columns_agree nr nc Cr Cc); auto. apply (values_agree nr nc Cr Cc); auto.
Qed.
Theorem C145_codeword_square : forall n d sr sc hr hw br bc cha s Cr Cc x, built n n d -> (forall b, keeps n n (sr b)) -> (forall b, keeps n n (sc b)) -> keeps n n hw -> Forall (fun b => (0 <= b)%Q) (td_beta d) -> length cha = n * n -> usable d n n br bc s ->
  in_product n n Cr Cc x -> trusts Cr n sr -> trusts Cc n sc -> Forall (fun a => (0 <= a)%Q) (td_alpha d) -> agrees x cha ->
  (forall w u, Cr w -> length w = n -> length u = n -> agrees w u -> hw u = w) ->
  exists s', tpd_siho_cw sr sc hr hw d cha s = Ret (s', x).
Proof.
  intros n d sr sc hr hw br bc cha s Cr Cc x B SR SC HW BP LC U XP TR TC AP CA HI. destruct (C144_codeword_square n d sr sc hr hw br bc cha s B SR SC HW BP LC U) as (s' & V & E & _ & LV & P). exists s'. rewrite E. do 2 f_equal. assert (X := XP). destruct X as (LX & PR & _).
  apply (list_eq_nth _ false); [congruence|]. intros p Hp. rewrite LV in Hp. destruct (split_cell n n p Hp) as (P1 & P2 & P3 & P4). rewrite P4 at 1. rewrite P by auto. rewrite (HI (row false n x (p / n))); [|apply PR; auto|apply length_tab|apply length_tab|].
  - unfold row. rewrite nth_tab by auto. rewrite <- P4. reflexivity.
  - apply (row_agrees n); auto. apply (columns_agree n n Cr Cc); auto. apply (values_agree n n Cr Cc); auto.
Qed.

(** * The hypotheses are met *)

(** A parity code of length n: a component decoder that gives half of its input, and hard decisions. *)
Definition dec_h (_ : option Q) (u : list Q) : list Q := map (fun v => v / 2)%Q u.
Definition hard (u : list Q) : list bool := map (fun v => qltb v 0%Q) u.
Definition even (w : list bool) : Prop := fold_right xorb false w = false.
Definition d_of (nr nc : nat) (lut inv : list nat) : tpd := mkTD (nc - 1) nc (nr - 1) nr 2 [1; 1; 1; 1]%Q [0; 1; 0; 2]%Q lut inv (seq 0 (nr - 1)).
Lemma dec_h_keeps : forall n b, keeps n n (dec_h b).
Proof. intros n b u L. unfold dec_h. rewrite map_length. auto. Qed.
Lemma dec_h_trusts : forall C n, trusts C n dec_h.
Proof.
  intros C n b w u _ LW LU A i Hi. specialize (A i Hi). assert (E : nth i (dec_h b u) 0%Q = (nth i u 0 / 2)%Q) by (unfold dec_h; rewrite (nth_indep _ 0%Q (0 / 2)%Q) by (rewrite map_length; lia); apply (map_nth (fun v => (v / 2)%Q))). rewrite E. unfold Qdiv. destruct (nth i w false); change (/ 2)%Q with (1 # 2)%Q; lra.
Qed.
Lemma hard_agrees : forall w u, length w = length u -> agrees w u -> hard u = w.
Proof.
  intros w u L A. apply (list_eq_nth _ false); [unfold hard; rewrite map_length; auto|]. unfold hard. rewrite map_length. intros i Hi. rewrite (nth_indep _ false (qltb 0 0)) by (rewrite map_length; auto). rewrite (map_nth (fun v => qltb v 0%Q)). specialize (A i ltac:(lia)). destruct (qltb_spec (nth i u 0%Q) 0) as [[-> H]|[-> H]]; destruct (nth i w false); auto; exfalso; lra.
Qed.
Example C144_meets : exists d, built 2 3 d /\ Forall (fun b => (0 <= b)%Q) (td_beta d) /\ Forall (fun a => (0 <= a)%Q) (td_alpha d) /\ td_Kc d <= length (td_pos d) /\ (forall j, j < td_Kc d -> nth j (td_pos d) 0 < 2) /\ usable d 2 3 None None (tpd_start d None None) /\
  (exists x, in_product 2 3 even even x /\ agrees x [1; -1; -2; 1; -1; -3]%Q).
Proof.
  assert (B : built 2 3 (d_of 2 3 [0; 3; 1; 4; 2; 5] [0; 2; 4; 1; 3; 5])). { exists 8, TOP_LEFT, 2, [1; 1; 1; 1]%Q, [0; 1; 0; 2]%Q, 2, 1, [0], [0; 3; 1; 4; 2; 5], [0; 2; 4; 1; 3; 5]. split; [reflexivity|]. split; [auto|]. split; [cbn; lia|reflexivity]. }
  exists (d_of 2 3 [0; 3; 1; 4; 2; 5] [0; 2; 4; 1; 3; 5]). split; [exact B|]. cbn [td_beta td_alpha td_Kc td_pos d_of]. split; [repeat constructor; discriminate|]. split; [repeat constructor; discriminate|]. split; [cbn; lia|]. split; [intros [|j] Hj; cbn in *; lia|]. split; [apply start_usable; exact B|].
  exists [false; true; true; false; true; true]. split.
  - split; [reflexivity|]. split; intros [|[|[|i]]] Hi; try lia; reflexivity.
  - intros [|[|[|[|[|[|i]]]]]] Hi; cbn in *; try lia; reflexivity.
Qed.
Example C145_meets : exists d x cha s', built 2 2 d /\ in_product 2 2 even even x /\ agrees x cha /\ x = [true; true; true; true] /\ tpd_siho_cw dec_h dec_h (fun u => firstn 1 (hard u)) hard d cha (tpd_start d None None) = Ret (s', x).
Proof.
  assert (B : built 2 2 (d_of 2 2 [1; 3; 0; 2] [2; 0; 3; 1])). { exists 8, TOP_RIGHT, 2, [1; 1; 1; 1]%Q, [0; 1; 0; 2]%Q, 1, 1, [0], [1; 3; 0; 2], [2; 0; 3; 1]. split; [reflexivity|]. split; [auto|]. split; [cbn; lia|reflexivity]. }
  assert (XP : in_product 2 2 even even [true; true; true; true]) by (split; [reflexivity|]; split; intros [|[|i]] Hi; try lia; reflexivity).
  assert (A : agrees [true; true; true; true] [-1; -2; -1; -4]%Q) by (intros [|[|[|[|i]]]] Hi; cbn in *; try lia; reflexivity).
  destruct (C145_codeword_square 2 (d_of 2 2 [1; 3; 0; 2] [2; 0; 3; 1]) dec_h dec_h (fun u => firstn 1 (hard u)) hard None None [-1; -2; -1; -4]%Q (tpd_start (d_of 2 2 [1; 3; 0; 2] [2; 0; 3; 1]) None None) even even [true; true; true; true]) as (s' & E); auto.
  - apply dec_h_keeps.
  - apply dec_h_keeps.
  - intros u L. unfold hard. rewrite map_length. auto.
  - repeat constructor; discriminate.
  - apply start_usable. exact B.
  - apply dec_h_trusts.
  - apply dec_h_trusts.
  - repeat constructor; discriminate.
  - intros w u _ L1 L2. apply hard_agrees. lia.
  - do 3 eexists. exists s'. split; [exact B|]. split; [exact XP|]. split; [exact A|]. split; [reflexivity|exact E].
Qed.
