(** C131 to C134: the bit-flipping decoders of LDPC codes. *)
From Coq Require Import List Arith Lia Bool ZArith QArith Qabs Qminmax Permutation Lqa.
From Verif Require Import Base WLoops SparseModel SparseSpec SparseProofs FullModel LDPCModel LDPCSpec LDPCProofs LDPCProps LDPCBPModel LDPCBPSpec LDPCBPProofs LDPCBPGraph LDPCBPFlood LDPCBPProps GalProofs GalProps FlipModel FlipSpec FlipProofs.
Import ListNotations.
Local Open Scope nat_scope.

(* ------------------------------------------------------------------ *)
(** * C131: the OMWBF decoder runs weighted bit flipping *)

Lemma bf_new_is : forall N n_ite H synd depth ps factor d, bf_new N n_ite H synd depth ps factor = Ret d ->
  d = mkBF N n_ite H synd ps factor /\ N = sp_rows H /\ 0 < depth.
Proof.
  intros N n_ite H synd depth ps factor d E. unfold bf_new in E. destruct (Nat.eqb_spec depth 0); [discriminate|]. destruct (Nat.eqb_spec N (sp_rows H)); cbn [negb] in E; [|discriminate]. injection E as <-. split; auto. split; auto. lia.
Qed.

(** The frames decoded before: a call of one of the three tasks. *)
Inductive bf_task := SISO (Y : list Q) | SIHO (Y : list Q) | SIHO_CW (Y : list Q).
Definition bf_input (f : bf_task) : list Q := match f with SISO Y | SIHO Y | SIHO_CW Y => Y end.
Definition bf_frame (mx : Q) (d : bf) (f : bf_task) (s : bf_st) : outcome bf_st :=
  match f with
  | SISO Y => ' (s, _, _) <- bf_siso mx d Y s ;; Ret s
  | SIHO Y => ' (s, _, _) <- bf_siho mx d Y s ;; Ret s
  | SIHO_CW Y => ' (s, _, _) <- bf_siho_cw mx d Y s ;; Ret s
  end.

(** The decoder is in a state of its own: it was constructed, then decoded any frames. *)
Definition bf_reached (mx : Q) (N : nat) (d : bf) (s : bf_st) : Prop :=
  exists history, Forall (fun f => N <= length (bf_input f)) history /\ frames (bf_frame mx d) history (bf_start d) = Ret s.

Lemma lt_of_bit : forall b : bool, qltb (if b then (-(1))%Q else 1%Q) 0%Q = b /\ negb (Qle_bool 0 (if b then (-(1))%Q else 1%Q)) = b.
Proof. destruct b; split; reflexivity. Qed.

Section Weighted.
Variables (mx : Q) (H : sparse) (N M : nat) (h : nat -> nat -> bool) (n_ite : nat) (synd : bool) (depth : nat) (ps : list nat) (factor : Q) (d : bf).
Hypothesis HH : sp_is H N M h.
Hypothesis N1 : 0 < N.
Hypothesis DR : forall v, v < N -> row_deg h M v <= 255.
Hypothesis DC : forall c, c < M -> col_deg h N c <= 255.
Hypothesis EB : bf_new N n_ite H synd depth ps factor = Ret d.
Hypothesis FP : Forall (fun p => p < N) ps.

Lemma tasks_ok : forall Y s, N <= length Y -> bf_keeps N M s ->
  let y v := nth v Y 0%Q in
  exists s' x c, flips N M h mx factor y n_ite (fun v => negative (y v)) x /\
    (n_ite = 0 -> c = true) /\ (forall n, n_ite = S n -> exists m, flips N M h mx factor y n (fun v => negative (y v)) m /\ flipped N M h mx factor y m x /\ (c = true <-> in_code N M h m)) /\
    bf_keeps N M s' /\
    bf_siso mx d Y s = Ret (s', c, tab N (fun v => ((if x v then -(1) else 1) - y v)%Q)) /\
    bf_siho mx d Y s = Ret (s', c, map (fun p => Z.b2z (x p)) ps) /\
    bf_siho_cw mx d Y s = Ret (s', c, tab N (fun v => Z.b2z (x v))).
Proof.
  intros Y s LY K y. destruct (bf_new_is _ _ _ _ _ _ _ _ EB) as (ED & _ & _). assert (OK : sp_ok H N M h) by (apply sp_is_ok; auto).
  assert (E1 : bf_H d = H) by (rewrite ED; auto). assert (E2 : bf_N d = N) by (rewrite ED; auto). assert (E3 : bf_factor d = factor) by (rewrite ED; auto). assert (E4 : bf_ite d = n_ite) by (rewrite ED; auto). assert (E5 : bf_pos d = ps) by (rewrite ED; auto).
  destruct (bf_decode_ok H N M h mx d Y OK DR DC E1 E2 N1 LY s K) as (s' & x & c & E & K' & LPE & FS & C0 & C1). rewrite E3, E4 in *.
  exists s', x, c. split; auto. split; auto. split; auto. split; auto. unfold bf_siso, bf_siho, bf_siho_cw. rewrite E, E2, E5. cbn [bind]. rewrite LPE.
  assert (R : forall v, v < N -> rd (tab N (fun v => if x v then (-(1))%Q else 1%Q)) v = Ret (if x v then (-(1))%Q else 1%Q)) by (intros v Hv; rewrite (rd_ok _ 0%Q) by (rewrite length_tab; auto); rewrite nth_tab by auto; auto).
  split; [|split].
  - rewrite (gen_ok _ _ _ (fun v => ((if x v then -(1) else 1) - y v)%Q)); [reflexivity|]. intros v Hv. rewrite R by auto. cbn [bind]. rewrite (rd_ok _ 0%Q) by lia. reflexivity.
  - rewrite (gen_ok _ _ _ (fun i => Z.b2z (x (nth i ps 0)))).
    + cbn [bind]. f_equal. f_equal. apply (list_eq_nth _ 0%Z); [rewrite length_tab, map_length; auto|]. rewrite length_tab. intros i Hi. rewrite nth_tab by auto. rewrite (nth_indep _ 0%Z (Z.b2z (x 0))) by (rewrite map_length; auto). rewrite (map_nth (fun p => Z.b2z (x p))). auto.
    + intros i Hi. rewrite (rd_ok _ 0) by auto. cbn [bind]. rewrite R by (rewrite Forall_forall in FP; apply FP, nth_In; auto). cbn [bind]. rewrite (proj2 (lt_of_bit _)). auto.
  - rewrite (gen_ok _ _ _ (fun v => Z.b2z (x v))); [reflexivity|]. intros v Hv. rewrite R by auto. cbn [bind]. rewrite (proj1 (lt_of_bit _)). auto.
Qed.

Lemma start_keeps : bf_keeps N M (bf_start d).
Proof.
  destruct (bf_new_is _ _ _ _ _ _ _ _ EB) as (-> & _ & _). unfold bf_keeps, bf_start. cbn. rewrite !repeat_length. assert (OK : sp_ok H N M h) by (apply sp_is_ok; auto). rewrite (cols_M _ _ _ _ OK). auto.
Qed.
Lemma reached_keeps : forall s, bf_reached mx N d s -> bf_keeps N M s.
Proof.
  intros s (l & FL & E). destruct (frames_inv _ _ (bf_keeps N M) (bf_frame mx d) (fun f => N <= length (bf_input f)) l (bf_start d)) as (s' & E' & K); auto using start_keeps.
  - intros f z LF K. destruct f as [Y|Y|Y]; cbn [bf_input bf_frame] in *; destruct (tasks_ok Y z LF K) as (s' & x & c & _ & _ & _ & K' & A & B & C); [rewrite A|rewrite B|rewrite C]; cbn [bind]; eauto.
  - congruence.
Qed.
End Weighted.

Theorem C131_weighted_flipping : forall mx H N M h n_ite synd depth ps factor d Y s,
  sp_is H N M h -> 0 < N -> (forall v, v < N -> row_deg h M v <= 255) -> (forall c, c < M -> col_deg h N c <= 255) ->
  bf_new N n_ite H synd depth ps factor = Ret d -> Forall (fun p => p < N) ps -> bf_reached mx N d s -> N <= length Y ->
  let y v := nth v Y 0%Q in
  exists s' x cwd, flips N M h mx factor y n_ite (fun v => negative (y v)) x /\
    (forall n, n_ite = S n -> exists m, flips N M h mx factor y n (fun v => negative (y v)) m /\ flipped N M h mx factor y m x /\ (cwd = true <-> in_code N M h m)) /\
    (n_ite = 0 -> cwd = true) /\
    bf_siho_cw mx d Y s = Ret (s', cwd, tab N (fun v => Z.b2z (x v))) /\
    bf_siho mx d Y s = Ret (s', cwd, map (fun p => Z.b2z (x p)) ps) /\
    bf_siso mx d Y s = Ret (s', cwd, tab N (fun v => ((if x v then -(1) else 1) - y v)%Q)).
Proof.
  intros mx H N M h n_ite synd depth ps factor d Y s HH N1 DR DC EB FP RS LY y. assert (K := reached_keeps mx H N M h n_ite synd depth ps factor d HH N1 DR DC EB FP s RS).
  destruct (tasks_ok mx H N M h n_ite synd depth ps factor d HH N1 DR DC EB FP Y s LY K) as (s' & x & c & A & B & C & _ & E1 & E2 & E3). exists s', x, c. tauto.
Qed.

(** The bits after k iterations are unique, so the history, the syndrome check and its depth do not matter. *)
Lemma first_max_unique : forall N f v w, first_max N f v -> first_max N f w -> v = w.
Proof.
  intros N f v w (A & B & C) (A' & B' & C'). destruct (Nat.lt_trichotomy v w) as [L|[L|L]]; auto.
  - assert (K := C' v L). assert (K' := B w A'). lra.
  - assert (K := C w L). assert (K' := B' v A). lra.
Qed.
Lemma flipped_unique : forall N M h mx factor y m m' x x', (forall v, v < N -> m v = m' v) -> flipped N M h mx factor y m x -> flipped N M h mx factor y m' x' -> forall v, v < N -> x v = x' v.
Proof.
  intros N M h mx factor y m m' x x' E F F'. assert (F2 : flipped N M h mx factor y m x').
  { destruct F' as [[C F']|[C (z & FM & F')]].
    - left. split; [apply (in_code_ext N M h m' m); auto; intros; symmetry; auto|]. intros w Hw. rewrite F', E; auto.
    - right. split; [rewrite (in_code_ext N M h m m'); auto|]. exists z. split; [|intros w Hw; rewrite F', E; auto].
      assert (ED : forall w, w < N -> (drive N M h mx factor y m' w == drive N M h mx factor y m w)%Q).
      { intros w Hw. unfold drive. replace (map (fun c => if fails N h m c then weight N h mx y c else (- weight N h mx y c)%Q) (checks_of M h w)) with (map (fun c => if fails N h m' c then weight N h mx y c else (- weight N h mx y c)%Q) (checks_of M h w)); [reflexivity|].
        apply map_ext. intros c. rewrite (fails_ext N h m' m c); auto. intros; symmetry; auto. }
      exact (first_max_ext N _ _ z ED FM). }
  intros v Hv. destruct F as [[C F]|[C (z & FM & F)]], F2 as [[C2 F2]|[C2 (z2 & FM2 & F2)]]; try tauto; rewrite F, F2 by auto; auto.
  assert (z = z2) by (eapply first_max_unique; eauto). subst z2. auto.
Qed.
Lemma flips_unique : forall N M h mx factor y k m m' x x', (forall v, v < N -> m v = m' v) -> flips N M h mx factor y k m x -> flips N M h mx factor y k m' x' -> forall v, v < N -> x v = x' v.
Proof.
  intros N M h mx factor y. induction k; intros m m' x x' E F F'; cbn [flips] in *.
  - intros v Hv. rewrite F, F'; auto.
  - destruct F as (z & F1 & F2), F' as (z' & F1' & F2'). eapply flipped_unique; [|exact F2|exact F2']. intros v Hv. eapply IHk; eauto.
Qed.
Theorem C131_same_result : forall mx H N M h n_ite synd synd' depth depth' ps factor d d' Y s s',
  sp_is H N M h -> 0 < N -> (forall v, v < N -> row_deg h M v <= 255) -> (forall c, c < M -> col_deg h N c <= 255) ->
  bf_new N n_ite H synd depth ps factor = Ret d -> bf_new N n_ite H synd' depth' ps factor = Ret d' -> Forall (fun p => p < N) ps ->
  bf_reached mx N d s -> bf_reached mx N d' s' -> N <= length Y ->
  exists t t' cwd V, bf_siho_cw mx d Y s = Ret (t, cwd, V) /\ bf_siho_cw mx d' Y s' = Ret (t', cwd, V).
Proof.
  intros mx H N M h n_ite synd synd' depth depth' ps factor d d' Y s s' HH N1 DR DC EB EB' FP RS RS' LY.
  destruct (C131_weighted_flipping mx H N M h n_ite synd depth ps factor d Y s HH N1 DR DC EB FP RS LY) as (t & x & c & F & C & Z & E & _).
  destruct (C131_weighted_flipping mx H N M h n_ite synd' depth' ps factor d' Y s' HH N1 DR DC EB' FP RS' LY) as (t' & x' & c' & F' & C' & Z' & E' & _).
  assert (EX := flips_unique _ _ _ _ _ _ _ _ _ _ _ (fun v _ => eq_refl) F F').
  assert (EC : c = c'). { destruct n_ite as [|n]; [rewrite Z, Z'; auto|]. destruct (C n eq_refl) as (m & Fm & _ & I). destruct (C' n eq_refl) as (m' & Fm' & _ & I'). apply eq_true_iff_eq. rewrite I, I'. apply in_code_ext. intros v Hv. exact (flips_unique _ _ _ _ _ _ _ _ _ _ _ (fun v _ => eq_refl) Fm Fm' v Hv). }
  exists t, t', c, (tab N (fun v => Z.b2z (x v))). split; auto. rewrite E', EC. f_equal. f_equal. apply tab_ext. intros v Hv. rewrite EX; auto.
Qed.

(** CWD tells that the bits are a codeword, as soon as there is an iteration. *)
Theorem C131_cwd : forall mx H N M h n_ite synd depth ps factor d Y s s' V,
  sp_is H N M h -> 0 < N -> (forall v, v < N -> row_deg h M v <= 255) -> (forall c, c < M -> col_deg h N c <= 255) ->
  bf_new N n_ite H synd depth ps factor = Ret d -> Forall (fun p => p < N) ps -> bf_reached mx N d s -> N <= length Y -> 0 < n_ite ->
  bf_siho_cw mx d Y s = Ret (s', true, V) -> in_code N M h (bit V).
Proof.
  intros mx H N M h n_ite synd depth ps factor d Y s s' V HH N1 DR DC EB FP RS LY NI EV.
  destruct (C131_weighted_flipping mx H N M h n_ite synd depth ps factor d Y s HH N1 DR DC EB FP RS LY) as (t & x & c & F & C & _ & E & _). rewrite EV in E. injection E as -> <- ->.
  destruct n_ite as [|n]; [lia|]. destruct (C n eq_refl) as (m & _ & [[CM FX]|[NC _]] & I); [|destruct (NC (proj1 I eq_refl))].
  apply (in_code_ext N M h m); [|exact CM]. intros v Hv. unfold bit. rewrite nth_tab by auto. rewrite FX by auto. destruct (m v); auto.
Qed.

(* ------------------------------------------------------------------ *)
(** * C132: what OMWBF corrects *)

Theorem C132_noiseless : forall mx H N M h n_ite synd depth ps factor d Y s,
  sp_is H N M h -> 0 < N -> (forall v, v < N -> row_deg h M v <= 255) -> (forall c, c < M -> col_deg h N c <= 255) ->
  bf_new N n_ite H synd depth ps factor = Ret d -> Forall (fun p => p < N) ps -> bf_reached mx N d s -> N <= length Y ->
  let w v := negative (nth v Y 0%Q) in
  in_code N M h w -> exists s', bf_siho_cw mx d Y s = Ret (s', true, tab N (fun v => Z.b2z (w v))).
Proof.
  intros mx H N M h n_ite synd depth ps factor d Y s HH N1 DR DC EB FP RS LY w CW.
  destruct (C131_weighted_flipping mx H N M h n_ite synd depth ps factor d Y s HH N1 DR DC EB FP RS LY) as (t & x & c & F & C & Z & E & _). fold w in F, C.
  assert (ST := fun k => flips_stay N M h mx (mkBF 0 0 H synd ps factor) Y k w CW). cbn [bf_factor] in ST.
  assert (EX := flips_unique _ _ _ _ _ _ _ _ _ _ _ (fun v _ => eq_refl) F (ST n_ite)).
  assert (EC : c = true). { destruct n_ite as [|n]; [auto|]. destruct (C n eq_refl) as (m & Fm & _ & I). apply I. apply (in_code_ext N M h w); [|exact CW]. intros v Hv. symmetry. exact (flips_unique _ _ _ _ _ _ _ _ _ _ _ (fun v _ => eq_refl) Fm (ST n) v Hv). }
  exists t. rewrite E, EC. f_equal. f_equal. apply tab_ext. intros v Hv. rewrite EX; auto.
Qed.

Lemma qtotal_filter : forall (p : nat -> bool) F l, (qtotal (map F (filter p l)) == qtotal (map (fun c => if p c then F c else 0%Q) l))%Q.
Proof. intros p F l. unfold qtotal. induction l as [|a l IH]; cbn [filter map fold_right]; [reflexivity|]. destruct (p a); cbn [map fold_right]; rewrite IH; lra. Qed.
Lemma qtotal_lt : forall F F' (l : list nat), (forall c, In c l -> (F c <= F' c)%Q) -> (exists c, In c l /\ (F c < F' c)%Q) -> (qtotal (map F l) < qtotal (map F' l))%Q.
Proof.
  assert (LE : forall F F' (l : list nat), (forall c, In c l -> (F c <= F' c)%Q) -> (qtotal (map F l) <= qtotal (map F' l))%Q).
  { intros F F' l. unfold qtotal. induction l as [|a l IH]; cbn [map fold_right]; intros A; [lra|]. assert (K := A a (or_introl eq_refl)). specialize (IH (fun c I => A c (or_intror I))). lra. }
  intros F F' l. induction l as [|a l IH]; intros A (c & I & L); [destruct I|]. unfold qtotal in *. cbn [map fold_right]. destruct I as [->|I].
  - specialize (LE F F' l (fun c I => A c (or_intror I))). unfold qtotal in LE. lra.
  - specialize (IH (fun c I => A c (or_intror I)) (ex_intro _ c (conj I L))). assert (K := A a (or_introl eq_refl)). lra.
Qed.
Lemma smallest_pos : forall mx l, (0 < mx)%Q -> (forall x, In x l -> ~ (x == 0)%Q) -> (0 < smallest mx l)%Q.
Proof.
  intros mx l P. unfold smallest. induction l as [|a l IH]; cbn [map fold_right]; intros NZ; auto. specialize (IH (fun x I => NZ x (or_intror I))).
  assert (K : (0 < Qabs a)%Q). { assert (NA := NZ a (or_introl eq_refl)). apply Qabs_case; intros; [destruct (Qlt_le_dec 0 a); auto; exfalso; apply NA; lra|]. destruct (Qlt_le_dec a 0); [lra|]. exfalso. apply NA. lra. }
  destruct (Q.min_spec (Qabs a) (fold_right Qmin mx (map Qabs l))) as [[_ ->]|[_ ->]]; auto.
Qed.

(** One wrong bit, none of the others being of smaller magnitude: the first iteration corrects it. *)
Theorem C132_single_error : forall mx H N M h n_ite synd depth ps factor d Y s w e,
  sp_is H N M h -> 0 < N -> (forall v, v < N -> row_deg h M v <= 255) -> (forall c, c < M -> col_deg h N c <= 255) ->
  bf_new N n_ite H synd depth ps factor = Ret d -> Forall (fun p => p < N) ps -> bf_reached mx N d s -> N <= length Y ->
  distance_3 N M h -> in_code N M h w -> e < N -> 0 < n_ite -> (0 < mx)%Q -> (0 <= factor)%Q ->
  (forall v, v < N -> negative (nth v Y 0%Q) = xorb (w v) (v =? e)) ->
  (forall v, v < N -> (~ nth v Y 0 == 0)%Q /\ (Qabs (nth e Y 0) <= Qabs (nth v Y 0))%Q) ->
  exists s', bf_siho_cw mx d Y s = Ret (s', 2 <=? n_ite, tab N (fun v => Z.b2z (w v))).
Proof.
  intros mx H N M h n_ite synd depth ps factor d Y s w e HH N1 DR DC EB FP RS LY D3 CW He NI MP FP0 HY AY.
  destruct (C131_weighted_flipping mx H N M h n_ite synd depth ps factor d Y s HH N1 DR DC EB FP RS LY) as (t & x & cwd & F & C & _ & E & _).
  set (y := fun v => nth v Y 0%Q) in *. set (x0 := fun v => negative (y v)) in *.
  assert (ONE : forall a c, a < N -> parity N (fun v => h v c && (v =? a)) = h a c).
  { intros a c Ha. rewrite (par_one _ _ a); auto; [rewrite Nat.eqb_refl; apply andb_true_r|]. intros j Hj NE. apply Nat.eqb_neq in NE. rewrite NE. apply andb_false_r. }
  assert (FX : forall c, c < M -> fails N h x0 c = h e c).
  { intros c Hc. unfold fails. rewrite (par_ext N _ (fun v => xorb (h v c && w v) (h v c && (v =? e)))).
    - rewrite par_xor, CW, ONE by auto. apply xorb_false_l.
    - intros v Hv. unfold x0, y. rewrite HY by auto. destruct (h v c); auto. }
  assert (DIF : forall v, v < N -> v <> e -> exists c, c < M /\ h v c <> h e c).
  { intros v Hv NE. destruct (existsb (fun c => xorb (h v c) (h e c)) (seq 0 M)) eqn:X.
    - apply existsb_exists in X. destruct X as (c & I & XC). apply in_seq in I. exists c. split; [lia|]. intros EQ. rewrite EQ, xorb_nilpotent in XC. discriminate.
    - exfalso. assert (Z : xorb (v =? v) (v =? e) = false).
      { apply (D3 (fun u => xorb (u =? v) (u =? e)) v e); auto.
        - intros c Hc. rewrite (par_ext N _ (fun u => xorb (h u c && (u =? v)) (h u c && (u =? e)))) by (intros u Hu; destruct (h u c); auto). rewrite par_xor, !ONE by auto.
          destruct (xorb (h v c) (h e c)) eqn:XC; auto. rewrite <- X. symmetry. apply existsb_exists. exists c. split; [apply in_seq; lia|auto].
        - intros u Hu N2 N3. apply Nat.eqb_neq in N2, N3. rewrite N2, N3. auto. }
      rewrite Nat.eqb_refl in Z. apply Nat.eqb_neq in NE. rewrite NE in Z. discriminate. }
  assert (INC : exists c, c < M /\ h e c = true).
  { destruct (existsb (fun c => h e c) (seq 0 M)) eqn:X.
    - apply existsb_exists in X. destruct X as (c & I & XC). apply in_seq in I. exists c. split; [lia|auto].
    - exfalso. assert (Z : (e =? e) = false); [|rewrite Nat.eqb_refl in Z; discriminate]. apply (D3 (fun u => u =? e) e e); auto.
      + intros c Hc. rewrite ONE by auto. destruct (h e c) eqn:XC; auto. rewrite <- X. symmetry. apply existsb_exists. exists c. split; [apply in_seq; lia|auto].
      + intros u Hu N2 _. apply Nat.eqb_neq. auto. }
  assert (WP : forall c, (0 < weight N h mx y c)%Q).
  { intros c. unfold weight. apply smallest_pos; auto. intros q I. apply in_map_iff in I. destruct I as (v & <- & I). apply filter_In in I. destruct I as [I _]. apply in_seq in I. apply AY. lia. }
  assert (DRV : forall v, v < N -> v <> e -> (drive N M h mx factor y x0 v < drive N M h mx factor y x0 e)%Q).
  { intros v Hv NE. unfold drive, checks_of. rewrite !qtotal_filter.
    assert (K : (qtotal (map (fun c => if h v c then if fails N h x0 c then weight N h mx y c else - weight N h mx y c else 0) (seq 0 M)) < qtotal (map (fun c => if h e c then if fails N h x0 c then weight N h mx y c else - weight N h mx y c else 0) (seq 0 M)))%Q).
    { apply qtotal_lt.
      - intros c I. apply in_seq in I. rewrite FX by lia. specialize (WP c). destruct (h v c), (h e c); lra.
      - destruct (DIF v Hv NE) as (c & Hc & NC). exists c. split; [apply in_seq; lia|]. rewrite FX by auto. specialize (WP c). destruct (h v c), (h e c); try congruence; lra. }
    assert (L := proj2 (AY v Hv)). fold (y e) in L. fold (y v) in L.
    assert (factor * Qabs (y e) <= factor * Qabs (y v))%Q by (rewrite !(Qmult_comm factor); apply Qmult_le_compat_r; auto). lra. }
  assert (FM : first_max N (drive N M h mx factor y x0) e).
  { split; auto. split; intros v Hv.
    - destruct (Nat.eq_dec v e) as [->|NE]; [lra|]. specialize (DRV v Hv NE). lra.
    - apply DRV; lia. }
  assert (NC : ~ in_code N M h x0). { intros K. destruct INC as (c & Hc & EC). specialize (K c Hc). fold (fails N h x0 c) in K. rewrite FX in K by auto. congruence. }
  assert (F1 : flipped N M h mx factor y x0 w).
  { right. split; auto. exists e. split; auto. intros v Hv. unfold x0, y. rewrite HY by auto. destruct (v =? e); destruct (w v); auto. }
  assert (FS : forall k, flips N M h mx factor y (S k) x0 w).
  { intros k. assert (ST := flips_stay N M h mx (mkBF 0 0 H synd ps factor) Y k w CW). exact (flips_left N M h mx (mkBF 0 0 H synd ps factor) Y k x0 w w F1 ST). }
  destruct n_ite as [|n]; [lia|]. assert (EX := flips_unique _ _ _ _ _ _ _ _ _ _ _ (fun v _ => eq_refl) F (FS n)).
  destruct (C n eq_refl) as (m & Fm & _ & I).
  assert (EC : cwd = (2 <=? S n)).
  { destruct n as [|n]; cbn [Nat.leb].
    - destruct cwd; auto. exfalso. apply NC. apply (in_code_ext N M h m); [|apply I; auto]. intros v Hv. cbn [flips] in Fm. rewrite Fm; auto.
    - apply I. apply (in_code_ext N M h w); [|exact CW]. intros v Hv. symmetry. exact (flips_unique _ _ _ _ _ _ _ _ _ _ _ (fun v _ => eq_refl) Fm (FS n) v Hv). }
  exists t. rewrite E, EC. f_equal. f_equal. apply tab_ext. intros v Hv. rewrite EX; auto.
Qed.

(* ------------------------------------------------------------------ *)
(** * C133: the PPBF decoder runs parallel bit flipping, whatever the random engine *)

Lemma pp_new_is : forall P N n_ite H synd depth ps prob d, pp_new P N n_ite H synd depth ps prob = Ret d ->
  d = mkPP P N n_ite H synd depth ps prob /\ 0 < n_ite /\ 0 < depth /\ N = sp_rows H /\ length prob = sp_rmax H + 2.
Proof.
  intros P N n_ite H synd depth ps prob d E. unfold pp_new in E. destruct (Nat.eqb_spec n_ite 0); [discriminate|]. destruct (Nat.eqb_spec depth 0); [discriminate|]. destruct (Nat.eqb_spec N (sp_rows H)); cbn [negb] in E; [|discriminate].
  destruct (Nat.eqb_spec (length prob) (sp_rmax H + 2)); cbn [negb] in E; [|discriminate]. injection E as <-. repeat split; auto; lia.
Qed.

(** A call of one of the four tasks. *)
Inductive pp_task {R} := PHard (cw : bool) (Y : list Z) | PSoft (cw : bool) (Y : list R).
Arguments pp_task : clear implicits.
Definition pp_call {G P R} (draw : P -> G -> bool * G) (neg : R -> bool) (d : pp P) (f : pp_task R) (s : pp_st G) : outcome (pp_st G * bool * list Z) :=
  match f with PHard cw Y => pp_hiho G P draw cw d Y s | PSoft cw Y => pp_siho G P draw neg cw d Y s end.
Definition pp_fair {R} (N : nat) (f : pp_task R) : Prop := match f with PHard _ Y => N <= length Y /\ bits Y | PSoft _ Y => N <= length Y end.
(** The received bits of a call, and what it stores of the bits x. *)
Definition pp_bits {R} (neg : R -> bool) (zero : R) (f : pp_task R) (v : nat) : bool := match f with PHard _ Y => bit Y v | PSoft _ Y => neg (nth v Y zero) end.
Definition pp_stored {R} (N : nat) (ps : list nat) (f : pp_task R) (x : nat -> bool) : list Z :=
  match f with PHard true _ | PSoft true _ => tab N (fun v => Z.b2z (x v)) | _ => map (fun p => Z.b2z (x p)) ps end.
Definition pp_reached {G P R} (draw : P -> G -> bool * G) (neg : R -> bool) (N : nat) (d : pp P) (s : pp_st G) : Prop :=
  exists g history, Forall (pp_fair N) history /\ frames (fun f s => ' (s, _, _) <- pp_call draw neg d f s ;; Ret s) history (pp_start G P d g) = Ret s.

Section Parallel.
Variables (G P R : Type) (draw : P -> G -> bool * G) (neg : R -> bool) (zero : R) (p0 : P) (H : sparse) (N M : nat) (h : nat -> nat -> bool) (n_ite : nat) (synd : bool) (depth : nat) (ps : list nat) (prob : list P) (d : pp P).
Hypothesis HH : sp_is H N M h.
Hypothesis EB : pp_new P N n_ite H synd depth ps prob = Ret d.
Hypothesis FP : Forall (fun p => p < N) ps.

Lemma store_ok : forall cw x, pp_store P cw d (tab N (fun v => Z.b2z (x v))) = Ret (if cw then tab N (fun v => Z.b2z (x v)) else map (fun p => Z.b2z (x p)) ps).
Proof.
  intros cw x. destruct (pp_new_is _ _ _ _ _ _ _ _ _ EB) as (-> & _). unfold pp_store. cbn [pp_N pp_pos]. destruct cw.
  - apply gen_ok. intros v Hv. apply rd_bits. auto.
  - rewrite (gen_ok _ _ _ (fun i => Z.b2z (x (nth i ps 0)))).
    + f_equal. apply (list_eq_nth _ 0%Z); [rewrite length_tab, map_length; auto|]. rewrite length_tab. intros i Hi. rewrite nth_tab by auto. rewrite (nth_indep _ 0%Z (Z.b2z (x 0))) by (rewrite map_length; auto). rewrite (map_nth (fun p => Z.b2z (x p))). auto.
    + intros i Hi. rewrite (rd_ok _ 0) by auto. cbn [bind]. apply rd_bits. rewrite Forall_forall in FP. apply FP, nth_In. auto.
Qed.

Lemma call_ok : forall f s, pp_fair N f -> length (ps_C G s) = M ->
  let X t := parallel N M h G (fun e => draw (nth e prob p0)) (pp_bits neg zero f) t (ps_g G s) in
  exists s' cwd t, halts (fun k => in_code N M h (fst (X (k - 1)))) synd depth (n_ite + 1) (S t) /\
    pp_call draw neg d f s = Ret (s', cwd, pp_stored N ps f (fst (X t))) /\ ps_g G s' = snd (X t) /\
    (cwd = true <-> in_code N M h (fst (X (Nat.min t (n_ite - 1))))) /\ length (ps_C G s') = M.
Proof.
  intros f s FF LC X. destruct (pp_new_is _ _ _ _ _ _ _ _ _ EB) as (ED & NI & ND & _ & LP). assert (OK : sp_ok H N M h) by (apply sp_is_ok; auto).
  assert (E1 : pp_H P d = H) by (rewrite ED; auto). assert (E2 : pp_N P d = N) by (rewrite ED; auto). assert (E3 : pp_prob P d = prob) by (rewrite ED; auto). assert (E4 : pp_ite P d = n_ite) by (rewrite ED; auto). assert (E5 : pp_synd P d = synd) by (rewrite ED; auto). assert (E6 : pp_depth P d = depth) by (rewrite ED; auto).
  assert (PR : forall e, e < length (pp_prob P d) -> rd (pp_prob P d) e = Ret (nth e prob p0)) by (rewrite E3; intros; apply rd_ok; auto).
  assert (GO : forall Yl, N <= length Yl -> (forall v, v < N -> nth v Yl 0%Z = Z.b2z (pp_bits neg zero f v)) ->
    exists s' cwd t, halts (fun k => in_code N M h (fst (X (k - 1)))) synd depth (n_ite + 1) (S t) /\ pp_decode G P draw d Yl (mkPS G (tab N (fun v => Z.b2z (pp_bits neg zero f v))) (ps_C G s) (ps_g G s)) = Ret (s', cwd) /\
      ps_V G s' = tab N (fun v => Z.b2z (fst (X t) v)) /\ ps_g G s' = snd (X t) /\ (cwd = true <-> in_code N M h (fst (X (Nat.min t (n_ite - 1))))) /\ length (ps_C G s') = M).
  { intros Yl LY VY. rewrite <- E3 in LP.
    destruct (pp_decode_ok G P draw H N M h d (fun e => nth e prob p0) Yl (pp_bits neg zero f) (ps_g G s) OK E1 LP PR LY VY ltac:(lia) (mkPS G (tab N (fun v => Z.b2z (pp_bits neg zero f v))) (ps_C G s) (ps_g G s))) as (s' & t & E & (A1 & A2 & A3) & HT & C); [lia|split; auto|].
    rewrite E4, E5, E6 in *. exists s', (pp_check (ps_C G s')), t. split; [exact HT|]. split; auto. }
  destruct f as [cw Y|cw Y]; cbn [pp_fair pp_call pp_stored] in *.
  - destruct FF as [LY BY]. unfold pp_hiho. rewrite E2. rewrite (gen_ok _ _ _ (fun v => Z.b2z (bit Y v))) by (intros v Hv; rewrite (rd_ok _ 0%Z) by lia; rewrite bits_b2z; auto). cbn [bind].
    destruct (GO Y LY) as (s' & cwd & t & HT & E & EV & EG & C & LC'); [intros; apply bits_b2z; auto|]. cbn [pp_bits] in E. rewrite E. cbn [bind]. rewrite EV, store_ok. cbn [bind]. exists s', cwd, t. split; [exact HT|]. split; [destruct cw; reflexivity|]. split; [exact EG|]. split; [exact C|exact LC'].
  - unfold pp_siho. rewrite E2. rewrite (gen_ok _ _ _ (fun v => Z.b2z (neg (nth v Y zero)))) by (intros v Hv; rewrite (rd_ok _ zero) by lia; reflexivity). cbn [bind].
    destruct (GO (tab N (fun v => Z.b2z (neg (nth v Y zero))))) as (s' & cwd & t & HT & E & EV & EG & C & LC'); [rewrite length_tab; auto|intros; apply nth_tab; auto|]. cbn [pp_bits] in E. rewrite E. cbn [bind]. rewrite EV, store_ok. cbn [bind]. exists s', cwd, t. split; [exact HT|]. split; [destruct cw; reflexivity|]. split; [exact EG|]. split; [exact C|exact LC'].
Qed.
Lemma pp_reached_len : forall s, pp_reached draw neg N d s -> length (ps_C G s) = M.
Proof.
  intros s (g & l & FL & E). destruct (frames_inv _ _ (fun s => length (ps_C G s) = M) (fun f s => ' (s, _, _) <- pp_call draw neg d f s ;; Ret s) (pp_fair N) l (pp_start G P d g)) as (s' & E' & K); auto.
  - intros f z F L. destruct (call_ok f z F L) as (s' & cwd & t & _ & EC & _ & _ & L'). rewrite EC. cbn [bind]. eauto.
  - destruct (pp_new_is _ _ _ _ _ _ _ _ _ EB) as (-> & _). cbn. rewrite repeat_length. assert (OK : sp_ok H N M h) by (apply sp_is_ok; auto). apply (cols_M _ _ _ _ OK).
  - congruence.
Qed.
End Parallel.

Theorem C133_parallel_flipping : forall G P R (draw : P -> G -> bool * G) (neg : R -> bool) zero p0 H N M h n_ite synd depth ps prob d s f,
  sp_is H N M h -> pp_new P N n_ite H synd depth ps prob = Ret d -> Forall (fun p => p < N) ps -> pp_reached draw neg N d s -> pp_fair N f ->
  let X t := parallel N M h G (fun e => draw (nth e prob p0)) (pp_bits neg zero f) t (ps_g G s) in
  exists s' cwd t, halts (fun k => in_code N M h (fst (X (k - 1)))) synd depth (n_ite + 1) (S t) /\
    pp_call draw neg d f s = Ret (s', cwd, pp_stored N ps f (fst (X t))) /\ ps_g G s' = snd (X t) /\
    (cwd = true <-> in_code N M h (fst (X (Nat.min t (n_ite - 1))))).
Proof.
  intros G P R draw neg zero p0 H N M h n_ite synd depth ps prob d s f HH EB FP RS FF X. assert (L := pp_reached_len G P R draw neg zero p0 H N M h n_ite synd depth ps prob d HH EB FP s RS).
  destruct (call_ok G P R draw neg zero p0 H N M h n_ite synd depth ps prob d HH EB FP f s FF L) as (s' & cwd & t & A & B & C & D & _). exists s', cwd, t. auto.
Qed.

(** With the syndrome computed at a depth of 1, CWD tells that the bits are a codeword. *)
Theorem C133_cwd : forall G P R (draw : P -> G -> bool * G) (neg : R -> bool) (zero : R) H N M h n_ite ps prob d s Y s' V,
  sp_is H N M h -> pp_new P N n_ite H true 1 ps prob = Ret d -> Forall (fun p => p < N) ps -> pp_reached draw neg N d s -> N <= length Y -> bits Y ->
  pp_call draw neg d (PHard true Y) s = Ret (s', true, V) -> in_code N M h (bit V).
Proof.
  intros G P R draw neg zero H N M h n_ite ps prob d s Y s' V HH EB FP RS LY BY EV. destruct (pp_new_is _ _ _ _ _ _ _ _ _ EB) as (_ & NI & _ & _ & LP).
  destruct prob as [|p0 prob]; [cbn in LP; lia|].
  destruct (C133_parallel_flipping G P R draw neg zero p0 H N M h n_ite true 1 ps (p0 :: prob) d s (PHard true Y) HH EB FP RS (conj LY BY)) as (s1 & cwd & t & (RG & LT & NS) & E & _ & C).
  rewrite EV in E. injection E as _ <- ->. destruct (Nat.eq_dec t n_ite) as [->|NE].
  - exfalso. apply (NS eq_refl n_ite ltac:(lia)). split; auto. intros j Hj. replace (n_ite - j - 1) with (Nat.min n_ite (n_ite - 1)) by lia. apply C. auto.
  - destruct (LT ltac:(lia)) as (_ & _ & SS). specialize (SS 0 ltac:(lia)). replace (S t - 0 - 1) with t in SS by lia.
    eapply in_code_ext; [|exact SS]. intros v Hv. cbn [pp_stored]. apply bit_tab. auto.
Qed.

(* ------------------------------------------------------------------ *)
(** * C134: codewords and PPBF *)

Lemma failures_zero : forall N M h y, in_code N M h y -> forall v, v < N -> failures N M h y y v = 0.
Proof.
  intros N M h y C v Hv. unfold failures. rewrite xorb_nilpotent. cbn [Nat.b2n Nat.add]. assert (E : filter (fails N h y) (checks_of M h v) = []); [|rewrite E; auto].
  apply incl_l_nil. intros c I. apply filter_In in I. destruct I as [I F]. apply filter_In in I. destruct I as [I _]. apply in_seq in I. unfold fails in F. rewrite C in F by lia. discriminate.
Qed.
Lemma failures_ext : forall N M h y x x' v, (forall v, v < N -> x v = x' v) -> v < N -> failures N M h y x v = failures N M h y x' v.
Proof. intros N M h y x x' v E Hv. unfold failures. rewrite E by auto. f_equal. f_equal. apply filter_ext. intros c. apply fails_ext. auto. Qed.

(** A codeword comes back when no bit is flipped at energy zero. *)
Theorem C134_noiseless : forall G P R (draw : P -> G -> bool * G) (neg : R -> bool) zero p0 H N M h n_ite synd depth ps prob d s f,
  sp_is H N M h -> pp_new P N n_ite H synd depth ps prob = Ret d -> Forall (fun p => p < N) ps -> pp_reached draw neg N d s -> pp_fair N f ->
  let w := pp_bits neg zero f in
  in_code N M h w -> (forall g, fst (draw (nth 0 prob p0) g) = false) ->
  exists s', pp_call draw neg d f s = Ret (s', true, pp_stored N ps f w).
Proof.
  intros G P R draw neg zero p0 H N M h n_ite synd depth ps prob d s f HH EB FP RS FF w CW D0.
  destruct (C133_parallel_flipping G P R draw neg zero p0 H N M h n_ite synd depth ps prob d s f HH EB FP RS FF) as (s' & cwd & t & _ & E & _ & C). fold w in E, C.
  assert (ST : forall t v, v < N -> fst (parallel N M h G (fun e => draw (nth e prob p0)) w t (ps_g G s)) v = w v).
  { clear - CW D0. induction t; intros v Hv; cbn [parallel]; auto. destruct (parallel N M h G (fun e => draw (nth e prob p0)) w t (ps_g G s)) as [x g]. cbn [fst] in IHt. unfold pstep.
    rewrite (map_ext_in _ (fun _ => 0)) by (intros u I; apply in_seq in I; rewrite (failures_ext N M h w x w u IHt) by lia; apply failures_zero; auto; lia).
    assert (Z : forall l g, Forall (fun b => b = false) (fst (draws G (fun e => draw (nth e prob p0)) (map (fun _ : nat => 0) l) g))).
    { induction l as [|a l IH]; intros g1; cbn [map draws]; [constructor|]. specialize (D0 g1). destruct (draw (nth 0 prob p0) g1) as [o g2]. specialize (IH g2). destruct (draws G (fun e => draw (nth e prob p0)) (map (fun _ : nat => 0) l) g2). cbn [fst] in *. constructor; auto. }
    specialize (Z (seq 0 N) g). destruct (draws _ _ _ g) as [os g']. cbn [fst] in *. rewrite Forall_forall in Z. rewrite IHt by auto. destruct (Nat.lt_ge_cases v (length os)) as [L|L]; [rewrite (Z (nth v os false)) by (apply nth_In; auto)|rewrite nth_overflow by auto]; apply xorb_false_r. }
  exists s'. rewrite E. assert (cwd = true) by (apply C; apply (in_code_ext N M h w); [intros; symmetry; apply ST; auto|exact CW]). subst cwd. f_equal. f_equal.
  assert (ET : tab N (fun v => Z.b2z (fst (parallel N M h G (fun e => draw (nth e prob p0)) w t (ps_g G s)) v)) = tab N (fun v => Z.b2z (w v))) by (apply tab_ext; intros v Hv; rewrite ST; auto).
  assert (EM : map (fun p => Z.b2z (fst (parallel N M h G (fun e => draw (nth e prob p0)) w t (ps_g G s)) p)) ps = map (fun p => Z.b2z (w p)) ps) by (apply map_ext_in; intros p I; rewrite ST; auto; rewrite Forall_forall in FP; apply FP; auto).
  destruct f as [[|] Y|[|] Y]; cbn [pp_stored]; auto.
Qed.

Lemma parallel_xor : forall N M h G dr y w, in_code N M h w -> forall t (g : G),
  snd (parallel N M h G dr (fun v => xorb (y v) (w v)) t g) = snd (parallel N M h G dr y t g) /\
  forall v, fst (parallel N M h G dr (fun v => xorb (y v) (w v)) t g) v = xorb (fst (parallel N M h G dr y t g) v) (w v).
Proof.
  intros N M h G dr y w CW t g. induction t as [|t IH]; cbn [parallel]; [auto|]. destruct (parallel N M h G dr y t g) as [x g1]. destruct (parallel N M h G dr (fun v => xorb (y v) (w v)) t g) as [x' g1']. cbn [fst snd] in IH. destruct IH as [-> EX].
  unfold pstep. assert (EF : map (failures N M h (fun v => xorb (y v) (w v)) x') (seq 0 N) = map (failures N M h y x) (seq 0 N)).
  { apply map_ext_in. intros v I. apply in_seq in I. unfold failures. rewrite EX. f_equal; [destruct (x v), (y v), (w v); auto|]. f_equal. apply filter_ext_in. intros c J. apply filter_In in J. destruct J as [J _]. apply in_seq in J. unfold fails.
    rewrite (par_ext N _ (fun v => xorb (h v c && x v) (h v c && w v))) by (intros u Hu; rewrite EX; destruct (h u c); auto). rewrite par_xor, CW by lia. apply xorb_false_r. }
  rewrite EF. destruct (draws G dr (map (failures N M h y x) (seq 0 N)) g1) as [os g2]. cbn [fst snd]. split; auto. intros v. rewrite EX. destruct (x v), (w v), (nth v os false); auto.
Qed.

(** The errors do not depend on the codeword: adding a codeword to the input adds it to the output. *)
Theorem C134_symmetry : forall G P R (draw : P -> G -> bool * G) (neg : R -> bool) (zero : R) H N M h n_ite synd depth ps prob d s s2 Y Y' w,
  sp_is H N M h -> pp_new P N n_ite H synd depth ps prob = Ret d -> Forall (fun p => p < N) ps -> pp_reached draw neg N d s -> pp_reached draw neg N d s2 -> ps_g G s2 = ps_g G s ->
  N <= length Y -> bits Y -> N <= length Y' -> bits Y' -> in_code N M h w -> (forall v, bit Y' v = xorb (bit Y v) (w v)) ->
  exists t t2 cwd x, pp_call draw neg d (PHard true Y) s = Ret (t, cwd, tab N (fun v => Z.b2z (x v))) /\
    pp_call draw neg d (PHard true Y') s2 = Ret (t2, cwd, tab N (fun v => Z.b2z (xorb (x v) (w v)))) /\ ps_g G t2 = ps_g G t.
Proof.
  intros G P R draw neg zero H N M h n_ite synd depth ps prob d s s2 Y Y' w HH EB FP RS RS2 EG LY BY LY' BY' CW EY. destruct (pp_new_is _ _ _ _ _ _ _ _ _ EB) as (_ & NI & _ & _ & LP).
  destruct prob as [|p0 prob]; [cbn in LP; lia|].
  destruct (C133_parallel_flipping G P R draw neg zero p0 H N M h n_ite synd depth ps (p0 :: prob) d s (PHard true Y) HH EB FP RS (conj LY BY)) as (s1 & c & t & HT & E & G1 & C).
  destruct (C133_parallel_flipping G P R draw neg zero p0 H N M h n_ite synd depth ps (p0 :: prob) d s2 (PHard true Y') HH EB FP RS2 (conj LY' BY')) as (s1' & c' & t' & HT' & E' & G1' & C').
  cbn [pp_bits pp_stored] in *. rewrite EG in *. set (dr := fun e => draw (nth e (p0 :: prob) p0)) in *.
  assert (PX : forall k, snd (parallel N M h G dr (bit Y') k (ps_g G s)) = snd (parallel N M h G dr (bit Y) k (ps_g G s)) /\ forall v, v < N -> fst (parallel N M h G dr (bit Y') k (ps_g G s)) v = xorb (fst (parallel N M h G dr (bit Y) k (ps_g G s)) v) (w v)).
  { intros k. destruct (parallel_xor N M h G dr (bit Y) w CW k (ps_g G s)) as [A B].
    assert (EE : forall k, snd (parallel N M h G dr (bit Y') k (ps_g G s)) = snd (parallel N M h G dr (fun v => xorb (bit Y v) (w v)) k (ps_g G s)) /\ forall v, fst (parallel N M h G dr (bit Y') k (ps_g G s)) v = fst (parallel N M h G dr (fun v => xorb (bit Y v) (w v)) k (ps_g G s)) v).
    { clear - EY. induction k as [|k IH]; cbn [parallel]; [auto|]. destruct (parallel N M h G dr (bit Y') k (ps_g G s)) as [x1 g1]. destruct (parallel N M h G dr (fun v => xorb (bit Y v) (w v)) k (ps_g G s)) as [x2 g2]. cbn [fst snd] in IH. destruct IH as [-> EX]. unfold pstep.
      assert (EF : map (failures N M h (bit Y') x1) (seq 0 N) = map (failures N M h (fun v => xorb (bit Y v) (w v)) x2) (seq 0 N)).
      { apply map_ext_in. intros v I. apply in_seq in I. rewrite (failures_ext N M h _ x1 x2) by (auto; lia). unfold failures. rewrite EY. auto. }
      rewrite EF. destruct (draws G dr _ g2) as [os g3]. cbn [fst snd]. split; auto. intros v. rewrite EX. auto. }
    destruct (EE k) as [A' B']. rewrite A', A. split; auto. intros v _. rewrite B', B. auto. }
  assert (IC : forall k, in_code N M h (fst (parallel N M h G dr (bit Y') k (ps_g G s))) <-> in_code N M h (fst (parallel N M h G dr (bit Y) k (ps_g G s)))).
  { intros k. rewrite (in_code_ext N M h _ (fun v => xorb (w v) (fst (parallel N M h G dr (bit Y) k (ps_g G s)) v))) by (intros v Hv; rewrite (proj2 (PX k) v Hv); apply xorb_comm). apply in_code_xor. auto. }
  assert (t' = t).
  { assert (HT2 : halts (fun k => in_code N M h (fst (parallel N M h G dr (bit Y) (k - 1) (ps_g G s)))) synd depth (n_ite + 1) (S t')).
    { assert (SX : forall k, stop (fun k => in_code N M h (fst (parallel N M h G dr (bit Y') (k - 1) (ps_g G s)))) depth k <-> stop (fun k => in_code N M h (fst (parallel N M h G dr (bit Y) (k - 1) (ps_g G s)))) depth k) by (intros k; split; intros [A B]; (split; [auto|]); intros j Hj; apply IC; auto).
      destruct HT' as (A & B & D). split; auto. split; [intros L; destruct (B L) as [B1 B2]; split; [auto|apply SX; exact B2]|]. intros SY k Hk K. apply (D SY k Hk). apply SX. exact K. }
    assert (EQ := halts_unique _ _ _ _ _ _ HT HT2). lia. }
  subst t'. assert (c' = c) by (apply eq_true_iff_eq; rewrite C, C'; apply IC). subst c'.
  exists s1, s1', c, (fst (parallel N M h G dr (bit Y) t (ps_g G s))). split; auto. split; [|rewrite G1, G1'; apply PX]. rewrite E'. f_equal. f_equal. apply tab_ext. intros v Hv. apply f_equal. exact (proj2 (PX t) v Hv).
Qed.

(* ------------------------------------------------------------------ *)
(** * Examples *)

Definition fd (n_ite : nat) (synd : bool) : bf := mkBF 7 n_ite fano synd [0; 1; 2] (1 # 2).
Lemma fano_cols : forall c, c < 7 -> col_deg fano_h 7 c = 3.
Proof. intros c Hc. do 7 (destruct c; [reflexivity|]). lia. Qed.
Lemma fano_distance : distance_3 7 7 fano_h.
Proof.
  intros x a b C Z v Hv. destruct (x v) eqn:XV; auto. exfalso.
  assert (P : forall c, c < 7 -> parity 7 (fun u => fano_h u c && x u) = false) by (intros; apply C; auto).
  assert (P0 := P 0 ltac:(lia)). assert (P1 := P 1 ltac:(lia)). assert (P2 := P 2 ltac:(lia)). assert (P3 := P 3 ltac:(lia)). assert (P4 := P 4 ltac:(lia)). assert (P5 := P 5 ltac:(lia)). assert (P6 := P 6 ltac:(lia)).
  cbn in P0, P1, P2, P3, P4, P5, P6.
  assert (ZZ : forall u, u < 7 -> u = a \/ u = b \/ x u = false). { intros u Hu. destruct (Nat.eq_dec u a); auto. destruct (Nat.eq_dec u b); auto. }
  assert (Z0 := ZZ 0 ltac:(lia)). assert (Z1 := ZZ 1 ltac:(lia)). assert (Z2 := ZZ 2 ltac:(lia)). assert (Z3 := ZZ 3 ltac:(lia)). assert (Z4 := ZZ 4 ltac:(lia)). assert (Z5 := ZZ 5 ltac:(lia)). assert (Z6 := ZZ 6 ltac:(lia)). clear ZZ Z P C.
  do 7 (destruct v as [|v]; [destruct (x 0), (x 1), (x 2), (x 3), (x 4), (x 5), (x 6); cbn in *; try discriminate; lia|]). lia.
Qed.
Example C131_fano : sp_is fano 7 7 fano_h /\ (forall v, v < 7 -> row_deg fano_h 7 v <= 255) /\ (forall c, c < 7 -> col_deg fano_h 7 c <= 255) /\
  bf_new 7 5 fano true 1 [0; 1; 2] (1 # 2) = Ret (fd 5 true) /\
  exists s, frames (bf_frame 1000 (fd 5 true)) [SISO [1; 2; -(3); 4; 5; 6; 7]%Q] (bf_start (fd 5 true)) = Ret s /\
  exists s', bf_siho_cw 1000 (fd 5 true) [-(4); -(2); 1; 5; -(3); 7; 9]%Q s = Ret (s', true, fano_w).
Proof.
  split; [exact fano_is|]. split; [intros v Hv; rewrite fano_degrees by auto; lia|]. split; [intros c Hc; rewrite fano_cols by auto; lia|]. split; [reflexivity|].
  eexists. split; [vm_compute; reflexivity|]. eexists. vm_compute. reflexivity.
Qed.
Example C132_fano : distance_3 7 7 fano_h /\ in_code 7 7 fano_h (bit fano_w) /\
  let Y := [-(4); -(2); 1; 5; -(3); 7; 9]%Q in
  (forall v, v < 7 -> negative (nth v Y 0%Q) = xorb (bit fano_w v) (v =? 2)) /\ (forall v, v < 7 -> (~ nth v Y 0 == 0)%Q /\ (Qabs (nth 2 Y 0) <= Qabs (nth v Y 0))%Q).
Proof.
  split; [exact fano_distance|]. split; [exact fano_code|]. cbv zeta. split; intros v Hv; do 7 (destruct v; [first [reflexivity|split; [intros C; discriminate C|intros C; discriminate C]]|]); lia.
Qed.

(** A random engine that is the list of the numbers to come: 1 in p when the number is a multiple of p (never for 0). *)
Definition coin (p : nat) (g : list nat) : bool * list nat := match g with [] => (false, []) | n :: g => (negb (p =? 0) && (n mod p =? 0), g) end.
Definition fprob : list nat := [0; 0; 2; 1; 1].
Definition pd (n_ite : nat) (synd : bool) (depth : nat) : pp nat := mkPP nat 7 n_ite fano synd depth [0; 1; 2] fprob.
Example C133_fano : pp_new nat 7 5 fano true 1 [0; 1; 2] fprob = Ret (pd 5 true 1) /\
  (forall g, fst (coin (nth 0 fprob 0) g) = false) /\
  let s := pp_start (list nat) nat (pd 5 true 1) (repeat 3 30) in
  (exists s', pp_call coin (fun y => (y <? 0)%Z) (pd 5 true 1) (PHard true [1; 1; 0; 0; 1; 0; 0]%Z) s = Ret (s', true, fano_w)) /\
  (exists s', pp_call coin (fun y => (y <? 0)%Z) (pd 5 true 1) (PSoft false [-4; -1; 2; 5; -3; 7; 9]%Z) s = Ret (s', true, [1; 1; 1]%Z)) /\
  (exists s', pp_call coin (fun y => (y <? 0)%Z) (pd 5 true 1) (PHard true [1; 1; 0; 0; 1; 1; 0]%Z) s = Ret (s', false, [1; 1; 0; 0; 1; 1; 0]%Z)).
Proof. split; [reflexivity|]. split; [intros [|n g]; reflexivity|]. cbv zeta. split; [eexists; vm_compute; reflexivity|]. split; eexists; vm_compute; reflexivity. Qed.

(* ------------------------------------------------------------------ *)
(** * What does not hold *)

(** OMWBF accepts zero iterations, and then CWD is 1 on bits that are not a codeword. *)
Theorem C131_no_iteration_refuted : exists d s V, bf_new 7 0 fano true 1 [0; 1; 2] (1 # 2) = Ret d /\
  bf_siho_cw 1000 d [-(4); 2; 1; 5; -(3); 7; 9]%Q (bf_start d) = Ret (s, true, V) /\ ~ in_code 7 7 fano_h (bit V).
Proof. do 3 eexists. split; [reflexivity|]. split; [vm_compute; reflexivity|]. intros C. specialize (C 1 ltac:(lia)). vm_compute in C. discriminate. Qed.
(** The last flip is not checked: CWD is 0 on a codeword. *)
Theorem C131_last_iteration_refuted : exists s, bf_siho_cw 1000 (fd 1 true) [-(4); -(2); 1; 5; -(3); 7; 9]%Q (bf_start (fd 1 true)) = Ret (s, false, fano_w) /\ in_code 7 7 fano_h (bit fano_w).
Proof. eexists. split; [vm_compute; reflexivity|exact fano_code]. Qed.

(** One check of m variables: with 256 of them the degree, an unsigned char, is 0 and the check is not seen to fail. *)
Definition star (m : nat) : sparse := mkSparse m 1 1 m m (repeat [0] m) [seq 0 m].
Lemma star_rows : forall m k, map (row_deg (fun _ _ : nat => true) 1) (seq k m) = repeat 1 m.
Proof. induction m; intros k; cbn [seq map repeat]; auto. rewrite IHm. auto. Qed.
Lemma star_is : forall m, 0 < m -> sp_is (star m) m 1 (fun _ _ => true).
Proof.
  intros m Hm. apply sp_is_ok. split; auto. split; auto. cbn [star sp_r2c sp_c2r sp_n sp_rmax sp_cmax].
  assert (RD : forall n, length (filter (fun _ : nat => true) (seq 0 n)) = n). { intros n. transitivity (length (seq 0 n)); [|apply seq_length]. f_equal. induction (seq 0 n); cbn; congruence. }
  assert (R1 : forall r, row_deg (fun _ _ : nat => true) 1 r = 1) by reflexivity.
  split; [|split; [|split; [|split]]].
  - split; [apply repeat_length|]. intros r Hr. rewrite nth_repeat_lt by auto. split; [repeat constructor; cbn; intuition|]. intros c. cbn. intuition lia.
  - split; auto. intros c Hc. replace c with 0 by lia. cbn [nth]. split; [apply seq_NoDup|]. intros v. rewrite in_seq. unfold Basics.flip. intuition lia.
  - unfold ones. assert (E : map (row_deg (fun _ _ : nat => true) 1) (seq 0 m) = repeat 1 m) by apply star_rows. rewrite E. clear. induction m as [|m IH]; [reflexivity|]. cbn [repeat list_sum fold_right]. rewrite <- IH at 1. reflexivity.
  - unfold maxf. assert (E : map (row_deg (fun _ _ : nat => true) 1) (seq 0 m) = repeat 1 m) by apply star_rows.
    rewrite E. clear - Hm. destruct m; [lia|]. cbn [repeat list_max fold_right]. fold (list_max (repeat 1 m)). assert (K : list_max (repeat 1 m) <= 1) by (apply list_max_le, Forall_forall; intros x I; apply repeat_spec in I; lia). lia.
  - unfold maxf. cbn [seq map list_max fold_right]. unfold row_deg, Basics.flip. rewrite RD. lia.
Qed.
Theorem C131_degree_refuted : sp_is (star 256) 256 1 (fun _ _ => true) /\ exists d s V, bf_new 256 5 (star 256) true 1 [0] (1 # 2) = Ret d /\
  bf_siho_cw 1000 d (-(1) :: repeat 1 255)%Q (bf_start d) = Ret (s, true, V) /\ ~ in_code 256 1 (fun _ _ => true) (bit V).
Proof.
  split; [apply star_is; lia|]. do 3 eexists. split; [reflexivity|]. split; [vm_compute; reflexivity|]. intros C. specialize (C 0 ltac:(lia)). vm_compute in C. discriminate.
Qed.

(** PPBF with a syndrome depth of 2, or without the syndrome check: CWD is that of the bits before the last flips. *)
Theorem C133_depth_refuted : forall synd depth, (synd, depth) = (true, 2) \/ (synd, depth) = (false, 1) ->
  exists d s V, pp_new nat 7 1 fano synd depth [0; 1; 2] [2; 0; 0; 0; 0] = Ret d /\
    pp_call coin (fun y => (y <? 0)%Z) d (PHard true fano_w) (pp_start (list nat) nat d [2; 3; 3; 3; 3; 3; 3]) = Ret (s, true, V) /\ ~ in_code 7 7 fano_h (bit V).
Proof.
  intros synd depth [E|E]; injection E as -> ->; do 3 eexists; (split; [reflexivity|]); (split; [vm_compute; reflexivity|]); intros C; specialize (C 0 ltac:(lia)); vm_compute in C; discriminate.
Qed.
(** The last flips are not checked: CWD is 0 on a codeword. *)
Theorem C133_last_iteration_refuted : exists s, pp_call coin (fun y => (y <? 0)%Z) (pd 1 true 1) (PHard true [1; 1; 0; 0; 1; 0; 0]%Z) (pp_start (list nat) nat (pd 1 true 1) (repeat 3 30)) = Ret (s, false, fano_w) /\ in_code 7 7 fano_h (bit fano_w).
Proof. eexists. split; [vm_compute; reflexivity|exact fano_code]. Qed.
