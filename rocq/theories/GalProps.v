(** The Gallager decoders of LDPC codes: the properties. *)
From Coq Require Import List Arith Lia Bool ZArith Permutation.
From Verif Require Import Base WLoops SparseModel SparseSpec SparseProofs FullModel LDPCModel LDPCSpec LDPCProofs LDPCProps LDPCBPModel LDPCBPSpec LDPCBPProofs LDPCBPGraph LDPCBPFlood LDPCBPProps GalModel GalSpec GalProofs GalSpecProofs GalInst.
Import ListNotations.
Local Open Scope nat_scope.

(** The decoder of an algorithm, with bits of 8, 16 or 32 bits. *)
Definition gal_of (a : algorithm) : gal := match a with A => gal_A | B => gal_B | E => gal_E false end.

(* ------------------------------------------------------------------ *)
(** * Frames *)

Section Frames.
Variables (H : sparse) (N M : nat) (h : nat -> nat -> bool) (a : algorithm) (n_ite : nat) (synd : bool) (depth : nat) (ps : list nat) (b : bp) (T : list nat).
Hypothesis HH : sp_is H N M h.
Hypothesis EB : bp_new N n_ite H synd depth ps = Ret b.
Hypothesis FP : Forall (fun p => p < N) ps.
Hypothesis DG : forall v, v < N -> row_deg h M v <= 256.
Hypothesis ET : fl_transpose H = Ret T.

Definition gal_code (y : nat -> bool) (t : nat) : Prop := in_code N M h (decided a N M h y t).
Definition gal_keeps (s : gal_st) : Prop := length (ga_c2v s) = sp_n H /\ length (ga_v2c s) = sp_n H /\ length (ga_V s) = N /\ ga_cur s < depth.
Definition gal_cwd (t : nat) : bool := negb synd || (t <? n_ite) || (n_ite =? 1).
(** What is stored for the decisions f. *)
Definition gal_bits (cw : bool) (f : nat -> bool) : list Z := if cw then tab N (fun v => Z.b2z (f v)) else map (fun p => Z.b2z (f p)) ps.

Lemma store_ok : forall cw f V, V = tab N (fun v => Z.b2z (f v)) -> gal_store cw b V = Ret (gal_bits cw f).
Proof.
  intros cw f V ->. destruct (bp_new_is _ _ _ _ _ _ _ EB) as (-> & _ & _). unfold gal_store, gal_bits. cbn [bp_N bp_pos]. destruct cw.
  - rewrite (gen_ok _ _ _ (fun v => Z.b2z (f v))); auto. intros i Hi. rewrite (rd_ok _ 0%Z) by (rewrite length_tab; auto). rewrite nth_tab by auto. auto.
  - rewrite (gen_ok _ _ _ (fun i => Z.b2z (f (nth i ps 0)))).
    + f_equal. apply (list_eq_nth _ 0%Z); [rewrite length_tab, map_length; auto|]. rewrite length_tab. intros i Hi. rewrite nth_tab by auto.
      rewrite (nth_indep (map _ _) 0%Z ((fun p => Z.b2z (f p)) 0)) by (rewrite map_length; auto). rewrite (map_nth (fun p => Z.b2z (f p))). auto.
    + intros i Hi. rewrite (rd_ok _ 0) by auto. cbn [bind]. assert (P : nth i ps 0 < N) by (rewrite Forall_forall in FP; apply FP, nth_In; auto).
      rewrite (rd_ok _ 0%Z) by (rewrite length_tab; auto). rewrite nth_tab by auto. auto.
Qed.

(** The values given to _decode. *)
Definition inputs (y : nat -> bool) (v : nat) : Z := if g_tr (gal_of a) then sig (y v) else Z.b2z (y v).

Lemma decode_of : forall s Yl y, gal_keeps s -> ga_cur s = 0 -> N <= length Yl -> (forall v, v < N -> nth v Yl 0%Z = inputs y v) ->
  exists s' status t, gal_decode (gal_of a) b T Yl s = Ret (s', status) /\ gal_keeps s' /\ ga_V s' = tab N (fun v => Z.b2z (decided a N M h y t v)) /\
    halts (gal_code y) synd depth n_ite t /\ negb status = gal_cwd t.
Proof.
  intros s Yl y (K1 & K2 & K3 & _) CU LY YE. destruct (bp_new_is _ _ _ _ _ _ _ EB) as (EB' & NI & ND). unfold gal_code, gal_cwd.
  assert (OK : sp_ok H N M h) by (apply sp_is_ok; auto). destruct (transpose_is H N M h OK DG) as (T' & ET' & TB). rewrite ET in ET'. injection ET' as <-.
  assert (BH : bp_H b = H) by (rewrite EB'; auto). assert (BN : bp_N b = N) by (rewrite EB'; auto). assert (BI : 0 < bp_ite b) by (rewrite EB'; auto). assert (BD : 0 < bp_depth b) by (rewrite EB'; auto).
  assert (S1 : bp_synd b = synd) by (rewrite EB'; auto). assert (S2 : bp_depth b = depth) by (rewrite EB'; auto). assert (S3 : bp_ite b = n_ite) by (rewrite EB'; auto).
  unfold inputs in YE. destruct a; cbn [gal_of gal_A gal_B gal_E g_tr] in *.
  - destruct (decode_gal H N M h T bool Z.b2z OK gal_A Yl y var_A sum2 majority LY YE) with (b := b) (s := s) as (s' & status & t & E & (A1 & A2 & A3 & _) & _ & C & V & HT & ST); auto.
    + intros. apply out_A_ok.
    + intros. apply chk_A_ok; auto.
    + intros. apply vote_A_ok.
    + split; auto. split; auto. split; auto. lia.
    + exists s', status, t. rewrite S1, S2, S3 in *. split; auto. split; [split; auto|]. split; [exact V|]. split; [exact HT|exact ST].
  - destruct (decode_gal H N M h T bool Z.b2z OK gal_B Yl y var_B sum2 majority LY YE) with (b := b) (s := s) as (s' & status & t & E & (A1 & A2 & A3 & _) & _ & C & V & HT & ST); auto.
    + intros. apply out_B_ok.
    + intros. apply chk_A_ok; auto.
    + intros. apply vote_A_ok.
    + split; auto. split; auto. split; auto. lia.
    + exists s', status, t. rewrite S1, S2, S3 in *. split; auto. split; [split; auto|]. split; [exact V|]. split; [exact HT|exact ST].
  - destruct (decode_gal H N M h T Z (fun z => z) OK (gal_E false) Yl (fun v => sig (y v)) var_E prodz dec_E LY YE) with (b := b) (s := s) as (s' & status & t & E & (A1 & A2 & A3 & _) & _ & C & V & HT & ST); auto.
    + intros. apply out_E_ok. auto.
    + intros. apply chk_E_ok; auto.
    + intros. apply vote_E_ok.
    + split; auto. split; auto. split; auto. lia.
    + exists s', status, t. rewrite S1, S2, S3 in *. split; auto. split; [split; auto|]. split; [exact V|]. split; [exact HT|exact ST].
Qed.

Lemma sig_sub : forall y, (1 - (Z.b2z y + Z.b2z y))%Z = sig y.
Proof. intros []; reflexivity. Qed.

Lemma bits_b2z : forall Y v, bits Y -> nth v Y 0%Z = Z.b2z (bit Y v).
Proof. intros Y v B. unfold bit. destruct (Nat.lt_ge_cases v (length Y)) as [L|L]; [|rewrite nth_overflow by auto; auto]. destruct (B _ (nth_In Y 0%Z L)) as [ -> | -> ]; auto. Qed.

Lemma hiho_of : forall cw s Y, gal_keeps s -> ga_cur s = 0 -> N <= length Y -> bits Y ->
  exists s' t, gal_hiho cw (gal_of a) b T Y s = Ret (s', gal_cwd t, gal_bits cw (decided a N M h (bit Y) t)) /\ gal_keeps s' /\ halts (gal_code (bit Y)) synd depth n_ite t.
Proof.
  intros cw s Y K CU LY BY. unfold gal_hiho. assert (BN : bp_N b = N) by (destruct (bp_new_is _ _ _ _ _ _ _ EB) as (-> & _ & _); auto).
  assert (G : exists HY, (if g_tr (gal_of a) then transform (bp_N b) Y else Ret (ga_HY s)) = Ret HY /\ N <= length (if g_tr (gal_of a) then HY else Y) /\
            forall v, v < N -> nth v (if g_tr (gal_of a) then HY else Y) 0%Z = inputs (bit Y) v).
  { unfold inputs. destruct (g_tr (gal_of a)).
    - exists (tab N (fun v => sig (bit Y v))). split.
      + unfold transform. rewrite BN. apply gen_ok. intros i Hi. rewrite (rd_ok _ 0%Z) by lia. cbn [bind]. rewrite (bits_b2z _ _ BY), sig_sub. auto.
      + rewrite length_tab. split; auto. intros v Hv. apply nth_tab. auto.
    - eexists. split; [reflexivity|]. split; auto. intros v _. apply bits_b2z. auto. }
  destruct G as (HY & EH & LH & VH). rewrite EH. cbn [bind].
  destruct (decode_of (mkGA HY (ga_V s) (ga_c2v s) (ga_v2c s) (ga_cur s)) (if g_tr (gal_of a) then HY else Y) (bit Y) K CU LH VH) as (s' & status & t & E & K' & V & HT & ST).
  rewrite E. cbn [bind]. rewrite (store_ok cw _ _ V). cbn [bind]. rewrite ST. exists s', t. auto.
Qed.

Lemma siho_of : forall R (neg : R -> bool) (d : R) cw s Y, gal_keeps s -> ga_cur s = 0 -> N <= length Y ->
  let y v := neg (nth v Y d) in
  exists s' t, gal_siho neg cw (gal_of a) b T Y s = Ret (s', gal_cwd t, gal_bits cw (decided a N M h y t)) /\ gal_keeps s' /\ halts (gal_code y) synd depth n_ite t.
Proof.
  intros R neg d cw s Y K CU LY y. unfold gal_siho. assert (BN : bp_N b = N) by (destruct (bp_new_is _ _ _ _ _ _ _ EB) as (-> & _ & _); auto). rewrite BN.
  rewrite (gen_ok _ _ _ (fun v => Z.b2z (y v))) by (intros i Hi; rewrite (rd_ok _ d) by lia; reflexivity). cbn [bind].
  assert (G : (if g_tr (gal_of a) then transform N (tab N (fun v => Z.b2z (y v))) else Ret (tab N (fun v => Z.b2z (y v)))) = Ret (tab N (inputs y))).
  { unfold inputs. destruct (g_tr (gal_of a)); auto. unfold transform. apply gen_ok. intros i Hi. rewrite (rd_ok _ 0%Z) by (rewrite length_tab; auto). cbn [bind]. rewrite nth_tab by auto. rewrite sig_sub. auto. }
  rewrite G. cbn [bind].
  destruct (decode_of (mkGA (tab N (inputs y)) (ga_V s) (ga_c2v s) (ga_v2c s) (ga_cur s)) (tab N (inputs y)) y K CU) as (s' & status & t & E & K' & V & HT & ST).
  { rewrite length_tab. auto. } { intros v Hv. apply nth_tab. auto. }
  rewrite E. cbn [bind]. rewrite (store_ok cw _ _ V). cbn [bind]. rewrite ST. exists s', t. auto.
Qed.

Lemma start_keeps : gal_keeps (gal_start b) /\ ga_cur (gal_start b) = 0.
Proof. destruct (bp_new_is _ _ _ _ _ _ _ EB) as (-> & _ & ND). unfold gal_keeps, gal_start. cbn. rewrite !repeat_length. auto. Qed.
End Frames.

(* ------------------------------------------------------------------ *)
(** * C126: the decoders run the three algorithms *)

Theorem C126_hard_input : forall a H N M h n_ite synd depth ps b Y,
  sp_is H N M h -> (forall v, v < N -> row_deg h M v <= 256) ->
  bp_new N n_ite H synd depth ps = Ret b -> Forall (fun p => p < N) ps -> N <= length Y -> bits Y ->
  let D t v := decided a N M h (bit Y) t v in
  exists T t, fl_transpose H = Ret T /\ halts (fun t => in_code N M h (D t)) synd depth n_ite t /\
    let cwd := negb synd || (t <? n_ite) || (n_ite =? 1) in
    (exists s, gal_hiho true (gal_of a) b T Y (gal_start b) = Ret (s, cwd, tab N (fun v => Z.b2z (D t v)))) /\
    (exists s, gal_hiho false (gal_of a) b T Y (gal_start b) = Ret (s, cwd, map (fun p => Z.b2z (D t p)) ps)).
Proof.
  intros a H N M h n_ite synd depth ps b Y HH DG EB FP LY BY D. assert (OK : sp_ok H N M h) by (apply sp_is_ok; auto). destruct (transpose_is H N M h OK DG) as (T & ET & _).
  destruct (start_keeps H N n_ite synd depth ps b EB) as [K CU].
  destruct (hiho_of H N M h a n_ite synd depth ps b T HH EB FP DG ET true _ Y K CU LY BY) as (s1 & t1 & E1 & _ & HT1).
  destruct (hiho_of H N M h a n_ite synd depth ps b T HH EB FP DG ET false _ Y K CU LY BY) as (s2 & t2 & E2 & _ & HT2).
  assert (t2 = t1) by (eapply halts_unique; eauto). subst t2. exists T, t1. split; auto. split; [exact HT1|]. split; [exists s1; exact E1|exists s2; exact E2].
Qed.

Theorem C126_soft_input : forall a R (neg : R -> bool) (d : R) H N M h n_ite synd depth ps b (Y : list R),
  sp_is H N M h -> (forall v, v < N -> row_deg h M v <= 256) ->
  bp_new N n_ite H synd depth ps = Ret b -> Forall (fun p => p < N) ps -> N <= length Y ->
  let D t v := decided a N M h (fun v => neg (nth v Y d)) t v in
  exists T t, fl_transpose H = Ret T /\ halts (fun t => in_code N M h (D t)) synd depth n_ite t /\
    let cwd := negb synd || (t <? n_ite) || (n_ite =? 1) in
    (exists s, gal_siho neg true (gal_of a) b T Y (gal_start b) = Ret (s, cwd, tab N (fun v => Z.b2z (D t v)))) /\
    (exists s, gal_siho neg false (gal_of a) b T Y (gal_start b) = Ret (s, cwd, map (fun p => Z.b2z (D t p)) ps)).
Proof.
  intros a R neg d H N M h n_ite synd depth ps b Y HH DG EB FP LY D. assert (OK : sp_ok H N M h) by (apply sp_is_ok; auto). destruct (transpose_is H N M h OK DG) as (T & ET & _).
  destruct (start_keeps H N n_ite synd depth ps b EB) as [K CU].
  destruct (siho_of H N M h a n_ite synd depth ps b T HH EB FP DG ET R neg d true _ Y K CU LY) as (s1 & t1 & E1 & _ & HT1).
  destruct (siho_of H N M h a n_ite synd depth ps b T HH EB FP DG ET R neg d false _ Y K CU LY) as (s2 & t2 & E2 & _ & HT2).
  assert (t2 = t1) by (eapply halts_unique; eauto). subst t2. exists T, t1. split; auto. split; [exact HT1|]. split; [exists s1; exact E1|exists s2; exact E2].
Qed.

(** With the syndrome computed and more than one iteration, CWD tells that the bits are a codeword. *)
Theorem C126_cwd : forall a H N M h n_ite depth ps b T Y s V,
  sp_is H N M h -> (forall v, v < N -> row_deg h M v <= 256) -> bp_new N n_ite H true depth ps = Ret b -> Forall (fun p => p < N) ps ->
  N <= length Y -> bits Y -> 1 < n_ite -> fl_transpose H = Ret T ->
  gal_hiho true (gal_of a) b T Y (gal_start b) = Ret (s, true, V) -> in_code N M h (bit V).
Proof.
  intros a H N M h n_ite depth ps b T Y s V HH DG EB FP LY BY NI ET EV.
  destruct (C126_hard_input a H N M h n_ite true depth ps b Y HH DG EB FP LY BY) as (T' & t & ET' & (RG & LT & _) & (s1 & E1) & _). rewrite ET in ET'. injection ET' as <-.
  rewrite EV in E1. injection E1 as -> CW ->. cbn [negb orb] in CW. replace (n_ite =? 1) with false in CW by (symmetry; apply Nat.eqb_neq; lia). rewrite orb_false_r in CW. symmetry in CW. apply Nat.ltb_lt in CW.
  destruct (bp_new_is _ _ _ _ _ _ _ EB) as (_ & _ & ND). destruct (LT CW) as (_ & (_ & SS)). specialize (SS 0 ND). rewrite Nat.sub_0_r in SS.
  eapply in_code_ext; [|exact SS]. intros v Hv. unfold bit. rewrite nth_tab by auto. destruct (decided a N M h (fun i => negb (nth i Y 0 =? 0)%Z) t v); auto.
Qed.

(* ------------------------------------------------------------------ *)
(** * C127: what is decoded *)

Lemma settled : forall (cd : nat -> Prop) synd depth n_ite t, (forall t, cd t) -> 0 < depth -> halts cd synd depth n_ite t ->
  negb synd || (t <? n_ite) || (n_ite =? 1) = negb synd || (depth <? n_ite) || (n_ite =? 1).
Proof.
  intros cd synd depth n_ite t CD ND (RG & LT & NS). destruct synd; cbn [negb orb]; auto. specialize (NS eq_refl). f_equal. destruct (Nat.ltb_spec depth n_ite) as [L|L].
  - apply Nat.ltb_lt. destruct (Nat.lt_ge_cases t n_ite); auto. exfalso. apply (NS depth); [lia|]. split; [lia|]. intros. apply CD.
  - apply Nat.ltb_ge. destruct (Nat.lt_ge_cases t n_ite) as [L'|L']; auto. destruct (LT L') as (_ & C & _). lia.
Qed.

Lemma known : forall a H N M h n_ite synd depth ps b Y x,
  sp_is H N M h -> (forall v, v < N -> row_deg h M v <= 256) ->
  bp_new N n_ite H synd depth ps = Ret b -> Forall (fun p => p < N) ps -> N <= length Y -> bits Y ->
  in_code N M h x -> (forall t v, v < N -> decided a N M h (bit Y) t v = x v) ->
  let cwd := negb synd || (depth <? n_ite) || (n_ite =? 1) in
  exists T, fl_transpose H = Ret T /\ (exists s, gal_hiho true (gal_of a) b T Y (gal_start b) = Ret (s, cwd, tab N (fun v => Z.b2z (x v)))) /\
    (exists s, gal_hiho false (gal_of a) b T Y (gal_start b) = Ret (s, cwd, map (fun p => Z.b2z (x p)) ps)).
Proof.
  intros a H N M h n_ite synd depth ps b Y x HH DG EB FP LY BY CX DX cwd.
  destruct (C126_hard_input a H N M h n_ite synd depth ps b Y HH DG EB FP LY BY) as (T & t & ET & HT & (s1 & E1) & (s2 & E2)).
  assert (CD : forall t, in_code N M h (decided a N M h (bit Y) t)) by (intros; eapply in_code_self; [exact CX|]; auto).
  destruct (bp_new_is _ _ _ _ _ _ _ EB) as (_ & NI & ND). rewrite (settled _ _ _ _ _ CD ND HT) in E1, E2. exists T. split; auto. split.
  - exists s1. rewrite E1. f_equal. f_equal. apply tab_ext. intros v Hv. rewrite DX; auto.
  - exists s2. rewrite E2. f_equal. f_equal. apply map_ext_in. intros p I. rewrite Forall_forall in FP. rewrite DX; auto.
Qed.

Theorem C127_no_noise : forall a H N M h n_ite synd depth ps b Y,
  sp_is H N M h -> (forall v, v < N -> row_deg h M v <= 256) ->
  bp_new N n_ite H synd depth ps = Ret b -> Forall (fun p => p < N) ps -> N <= length Y -> bits Y -> in_code N M h (bit Y) ->
  let cwd := negb synd || (depth <? n_ite) || (n_ite =? 1) in
  exists T, fl_transpose H = Ret T /\ (exists s, gal_hiho true (gal_of a) b T Y (gal_start b) = Ret (s, cwd, firstn N Y)) /\
    (exists s, gal_hiho false (gal_of a) b T Y (gal_start b) = Ret (s, cwd, map (fun p => nth p Y 0%Z) ps)).
Proof.
  intros a H N M h n_ite synd depth ps b Y HH DG EB FP LY BY CX cwd.
  destruct (known a H N M h n_ite synd depth ps b Y (bit Y) HH DG EB FP LY BY CX) as (T & ET & (s1 & E1) & (s2 & E2)). { intros t v Hv. apply clean_decisions; auto. }
  exists T. split; auto. split; [exists s1; rewrite E1|exists s2; rewrite E2]; f_equal; f_equal.
  - apply (list_eq_nth _ 0%Z). { rewrite length_tab, firstn_length. lia. } rewrite length_tab. intros i Hi. rewrite nth_tab by auto. rewrite <- bits_b2z by auto. rewrite firstn_nth by auto. auto.
  - apply map_ext. intros p. symmetry. apply bits_b2z. auto.
Qed.

Theorem C127_one_error : forall a H N M h n_ite synd depth ps b Y x e,
  sp_is H N M h -> (forall v, v < N -> 3 <= row_deg h M v <= 256) -> no_4_cycle N M h ->
  bp_new N n_ite H synd depth ps = Ret b -> Forall (fun p => p < N) ps -> N <= length Y -> bits Y ->
  in_code N M h x -> e < N -> (forall v, v < N -> v <> e -> bit Y v = x v) ->
  let cwd := negb synd || (depth <? n_ite) || (n_ite =? 1) in
  exists T, fl_transpose H = Ret T /\ (exists s, gal_hiho true (gal_of a) b T Y (gal_start b) = Ret (s, cwd, tab N (fun v => Z.b2z (x v)))) /\
    (exists s, gal_hiho false (gal_of a) b T Y (gal_start b) = Ret (s, cwd, map (fun p => Z.b2z (x p)) ps)).
Proof.
  intros a H N M h n_ite synd depth ps b Y x e HH DG N4 EB FP LY BY CX HE YE cwd. apply (known a H N M h n_ite synd depth ps b Y x); auto.
  - intros. apply DG. auto.
  - intros t v Hv. apply error_decisions with (e := e); auto. intros. apply DG. auto.
Qed.

(* ------------------------------------------------------------------ *)
(** * C128: adding a codeword to the input adds it to the output *)

Lemma in_code_xor : forall N M h x y, in_code N M h x -> (in_code N M h (fun v => xorb (x v) (y v)) <-> in_code N M h y).
Proof.
  intros N M h x y CX. assert (P : forall c, c < M -> parity N (fun v => h v c && xorb (x v) (y v)) = parity N (fun v => h v c && y v)).
  { intros c Hc. rewrite <- (xorb_false_l (parity N (fun v => h v c && y v))). rewrite <- (CX c Hc), <- par_xor. apply par_ext. intros i _. destruct (h i c), (x i), (y i); auto. }
  split; intros C c Hc; [rewrite <- P|rewrite P]; auto.
Qed.

Theorem C128_symmetry : forall a H N M h n_ite synd depth ps b Y Y' x,
  sp_is H N M h -> (forall v, v < N -> row_deg h M v <= 256) ->
  bp_new N n_ite H synd depth ps = Ret b -> Forall (fun p => p < N) ps -> N <= length Y -> N <= length Y' -> bits Y -> bits Y' ->
  in_code N M h x -> (forall v, v < N -> bit Y' v = xorb (x v) (bit Y v)) ->
  exists T s s' cwd V V', fl_transpose H = Ret T /\
    gal_hiho true (gal_of a) b T Y (gal_start b) = Ret (s, cwd, V) /\ gal_hiho true (gal_of a) b T Y' (gal_start b) = Ret (s', cwd, V') /\
    length V = N /\ length V' = N /\ forall v, v < N -> bit V' v = xorb (x v) (bit V v).
Proof.
  intros a H N M h n_ite synd depth ps b Y Y' x HH DG EB FP LY LY' BY BY' CX EX.
  destruct (C126_hard_input a H N M h n_ite synd depth ps b Y HH DG EB FP LY BY) as (T & t & ET & HT & (s & ES) & _).
  destruct (C126_hard_input a H N M h n_ite synd depth ps b Y' HH DG EB FP LY' BY') as (T' & t' & ET' & HT' & (s' & ES') & _). rewrite ET in ET'. injection ET' as <-.
  assert (DX : forall t v, v < N -> decided a N M h (bit Y') t v = xorb (x v) (decided a N M h (bit Y) t v)).
  { intros k v Hv. rewrite <- (symmetric_decisions a N M h (bit Y) x k v CX Hv). apply decided_ext; auto. }
  assert (CD : forall t, in_code N M h (decided a N M h (bit Y') t) <-> in_code N M h (decided a N M h (bit Y) t)).
  { intros k. rewrite <- (in_code_xor N M h x (decided a N M h (bit Y) k) CX). apply in_code_ext. auto. }
  assert (SX : forall k, stop (fun t => in_code N M h (decided a N M h (bit Y') t)) depth k <-> stop (fun t => in_code N M h (decided a N M h (bit Y) t)) depth k).
  { intros k. unfold stop. split; intros [L C]; (split; [exact L|]); intros j Hj; apply CD; auto. }
  assert (t' = t). { eapply halts_unique; [|exact HT]. destruct HT' as (RG & LT & NS). split; auto. split; [intros L; destruct (LT L) as [L1 L2]; split; auto; apply SX; exact L2|]. intros SY k Hk C. apply (NS SY k Hk). apply SX. exact C. }
  subst t'. do 6 eexists. split; [exact ET|]. split; [exact ES|]. split; [exact ES'|]. rewrite !length_tab. split; auto. split; auto.
  intros v Hv. rewrite !bit_tab by auto. apply DX. auto.
Qed.

(* ------------------------------------------------------------------ *)
(** * C129: the rule of the Gallager B decoder *)

(** The decisions with the majority of the messages of the other edges. *)
Definition extrinsic_B (N M : nat) (h : nat -> nat -> bool) (y : nat -> bool) (t v : nat) : bool :=
  decision bool N M h y (fun _ y _ os => majority y os) sum2 majority t v.

Lemma extrinsic_odd : forall N M h y t v, (forall v, v < N -> Nat.odd (row_deg h M v) = true) -> v < N -> decided B N M h y t v = extrinsic_B N M h y t v.
Proof.
  intros N M h y t v OD Hv. unfold extrinsic_B. cbn [decided]. unfold decision. f_equal.
  assert (G : forall k v c, v < N -> c < M -> h v c = true -> sent bool N M h y var_B sum2 k v c = sent bool N M h y (fun _ y _ os => majority y os) sum2 k v c).
  { induction k; intros w c Hw Hc Hh; cbn [sent]; auto.
    assert (TV : forall d u, d < M -> to_vars bool N h sum2 (sent bool N M h y var_B sum2 k) d u = to_vars bool N h sum2 (sent bool N M h y (fun _ y _ os => majority y os) sum2 k) d u).
    { intros d u Hd. unfold to_vars. f_equal. apply map_ext_in. intros z I. apply others_in in I. destruct I as [I _]. apply vars_in in I. apply IHk; tauto. }
    unfold to_checks. rewrite var_B_odd.
    - f_equal. apply map_ext_in. intros d I. apply others_in in I. destruct I as [I _]. apply checks_in in I. apply TV. tauto.
    - rewrite map_length. assert (P := others_perm c (checks_of M h w) (checks_nodup _ _ _) (proj2 (checks_in M h w c) (conj Hc Hh))). apply Permutation_length in P. cbn [length] in P.
      assert (O := OD w Hw). change (row_deg h M w) with (length (checks_of M h w)) in O. rewrite P, Nat.odd_succ in O. auto. }
  apply map_ext_in. intros c I. apply checks_in in I. unfold to_vars. f_equal. apply map_ext_in. intros w J. apply others_in in J. destruct J as [J _]. apply vars_in in J. apply G; tauto.
Qed.

(** Variables in an odd number of checks: it is the extrinsic majority. *)
Theorem C129_odd_degrees : forall H N M h n_ite synd depth ps b Y,
  sp_is H N M h -> (forall v, v < N -> row_deg h M v <= 256) -> (forall v, v < N -> Nat.odd (row_deg h M v) = true) ->
  bp_new N n_ite H synd depth ps = Ret b -> Forall (fun p => p < N) ps -> N <= length Y -> bits Y ->
  let D t v := extrinsic_B N M h (bit Y) t v in
  exists T t, fl_transpose H = Ret T /\ halts (fun t => in_code N M h (D t)) synd depth n_ite t /\
    let cwd := negb synd || (t <? n_ite) || (n_ite =? 1) in
    exists s, gal_hiho true gal_B b T Y (gal_start b) = Ret (s, cwd, tab N (fun v => Z.b2z (D t v))).
Proof.
  intros H N M h n_ite synd depth ps b Y HH DG OD EB FP LY BY D.
  destruct (C126_hard_input B H N M h n_ite synd depth ps b Y HH DG EB FP LY BY) as (T & t & ET & HT & (s & ES) & _).
  assert (DX : forall t v, v < N -> decided B N M h (bit Y) t v = D t v) by (intros; apply extrinsic_odd; auto). clearbody D.
  assert (CD : forall t, in_code N M h (D t) <-> in_code N M h (decided B N M h (bit Y) t)) by (intros k; apply in_code_ext; intros; rewrite DX; auto).
  exists T, t. split; auto. split.
  - destruct HT as (RG & LT & NS). split; auto. split.
    + intros L. destruct (LT L) as (L1 & L2 & L3). split; auto. split; auto. intros j Hj. apply CD. apply L3. auto.
    + intros SY k Hk (C1 & C2). apply (NS SY k Hk). split; auto. intros j Hj. apply CD. apply C2. auto.
  - exists s. replace (tab N (fun v => Z.b2z (D t v))) with (tab N (fun v => Z.b2z (decided B N M h (bit Y) t v))) by (apply tab_ext; intros v Hv; rewrite DX; auto). exact ES.
Qed.

(* ------------------------------------------------------------------ *)
(** * C130: frames do not influence one another *)

(** A call of one of the four tasks: hard or soft input, the information bits or the codeword. *)
Inductive gal_task {R} := Hard (cw : bool) (Y : list Z) | Soft (cw : bool) (Y : list R).
Arguments gal_task : clear implicits.
Definition gal_frame {R} (neg : R -> bool) (g : gal) (b : bp) (T : list nat) (f : gal_task R) (s : gal_st) : outcome gal_st :=
  match f with
  | Hard cw Y => ' (s, _, _) <- gal_hiho cw g b T Y s ;; Ret s
  | Soft cw Y => ' (s, _, _) <- gal_siho neg cw g b T Y s ;; Ret s
  end.
Definition gal_call {R} (neg : R -> bool) (g : gal) (b : bp) (T : list nat) (f : gal_task R) (s : gal_st) : outcome (gal_st * bool * list Z) :=
  match f with Hard cw Y => gal_hiho cw g b T Y s | Soft cw Y => gal_siho neg cw g b T Y s end.
Definition fair {R} (N : nat) (f : gal_task R) : Prop := match f with Hard _ Y => N <= length Y /\ bits Y | Soft _ Y => N <= length Y end.

Theorem C130_frames : forall a R (neg : R -> bool) (d : R) H N M h n_ite synd ps b T (history : list (gal_task R)) f,
  sp_is H N M h -> (forall v, v < N -> row_deg h M v <= 256) -> bp_new N n_ite H synd 1 ps = Ret b -> Forall (fun p => p < N) ps -> fl_transpose H = Ret T ->
  Forall (fair N) history -> fair N f ->
  exists s s1 s2 cwd V, frames (gal_frame neg (gal_of a) b T) history (gal_start b) = Ret s /\
    gal_call neg (gal_of a) b T f s = Ret (s1, cwd, V) /\ gal_call neg (gal_of a) b T f (gal_start b) = Ret (s2, cwd, V).
Proof.
  intros a R neg d H N M h n_ite synd ps b T history f HH DG EB FP ET FH FF.
  assert (HI := hiho_of H N M h a n_ite synd 1 ps b T HH EB FP DG ET). assert (SI := siho_of H N M h a n_ite synd 1 ps b T HH EB FP DG ET R neg d).
  assert (C0 : forall s, gal_keeps H N 1 s -> ga_cur s = 0) by (intros s (_ & _ & _ & C); lia).
  destruct (start_keeps H N n_ite synd 1 ps b EB) as [K0 _].
  destruct (frames_inv _ _ (gal_keeps H N 1) (gal_frame neg (gal_of a) b T) (fair N) history (gal_start b)) as (s & EF & K); auto.
  { intros [cw Y|cw Y] s F K; cbn [gal_frame fair] in *.
    - destruct F as [LY BY]. destruct (HI cw s Y K (C0 _ K) LY BY) as (s' & t & Es & K' & _). rewrite Es. cbn [bind]. eauto.
    - destruct (SI cw s Y K (C0 _ K) F) as (s' & t & Es & K' & _). rewrite Es. cbn [bind]. eauto. }
  destruct f as [cw Y|cw Y]; cbn [gal_call fair] in *.
  - destruct FF as [LY BY]. destruct (HI cw s Y K (C0 _ K) LY BY) as (s1 & t1 & E1 & _ & HT1). destruct (HI cw _ Y K0 (C0 _ K0) LY BY) as (s2 & t2 & E2 & _ & HT2).
    assert (t2 = t1) by (eapply halts_unique; eauto). subst t2. do 5 eexists. split; [exact EF|]. split; [exact E1|exact E2].
  - destruct (SI cw s Y K (C0 _ K) FF) as (s1 & t1 & E1 & _ & HT1). destruct (SI cw _ Y K0 (C0 _ K0) FF) as (s2 & t2 & E2 & _ & HT2).
    assert (t2 = t1) by (eapply halts_unique; eauto). subst t2. do 5 eexists. split; [exact EF|]. split; [exact E1|exact E2].
Qed.

(* ------------------------------------------------------------------ *)
(** * A concrete case: the lines of the Fano plane *)

Definition fano_l : list (nat * nat) := flat_map (fun v => [(v, v); (v, (v + 1) mod 7); (v, (v + 3) mod 7)]) (seq 0 7).
Definition fano : sparse := build 7 7 fano_l.
Definition fano_h (v c : nat) : bool := existsb (fun p => (fst p =? v) && (snd p =? c)) fano_l.
Definition fb (n_ite depth : nat) : bp := mkBP 7 n_ite fano true depth [0; 1; 2].
Definition fT : list nat := match fl_transpose fano with Ret T => T | _ => [] end.

Lemma fano_is : sp_is fano 7 7 fano_h.
Proof.
  apply sp_is_ok. unfold fano, build. destruct (build_is fano_l 7 7) as (H & EH & K).
  - cbn. repeat (apply NoDup_cons; [cbn; intuition discriminate|]). apply NoDup_nil.
  - intros p I. cbn in I. repeat destruct I as [<-|I]; cbn; try lia; destruct I.
  - rewrite EH. exact K.
Qed.
Lemma fano_degrees : forall v, v < 7 -> row_deg fano_h 7 v = 3.
Proof. intros v Hv. do 7 (destruct v; [reflexivity|]). lia. Qed.
Lemma fano_4 : no_4_cycle 7 7 fano_h.
Proof.
  intros v w c d Hv Hw Hc Hd NV NC (A1 & A2 & A3 & A4).
  assert (G : forallb (fun v => forallb (fun w => (v =? w) || (length (filter (fun c => fano_h v c && fano_h w c) (seq 0 7)) <=? 1)) (seq 0 7)) (seq 0 7) = true) by reflexivity.
  rewrite forallb_forall in G. assert (G1 := G v ltac:(apply in_seq; lia)). cbv beta in G1. rewrite forallb_forall in G1. assert (G2 := G1 w ltac:(apply in_seq; lia)). cbv beta in G2.
  apply orb_true_iff in G2. destruct G2 as [G2|G2]; [apply Nat.eqb_eq in G2; contradiction|]. apply Nat.leb_le in G2.
  set (l := filter (fun c => fano_h v c && fano_h w c) (seq 0 7)) in *.
  assert (Ic : In c l) by (apply filter_In; split; [apply in_seq; lia|rewrite A1, A2; auto]). assert (Id : In d l) by (apply filter_In; split; [apply in_seq; lia|rewrite A3, A4; auto]).
  destruct l as [|e [|e' l]]; cbn in *; [destruct Ic|intuition congruence|lia].
Qed.
Definition fano_w : list Z := [1; 1; 1; 0; 1; 0; 0]%Z.
Lemma fano_code : in_code 7 7 fano_h (bit fano_w).
Proof. intros c Hc. do 7 (destruct c; [reflexivity|]). lia. Qed.

Example C126_fano : sp_is fano 7 7 fano_h /\ (forall v, v < 7 -> row_deg fano_h 7 v <= 256) /\ bp_new 7 5 fano true 1 [0; 1; 2] = Ret (fb 5 1) /\ fl_transpose fano = Ret fT /\
  (exists s, gal_hiho true gal_A (fb 5 1) fT [1; 1; 0; 0; 1; 0; 0]%Z (gal_start (fb 5 1)) = Ret (s, true, fano_w)) /\
  (exists s, gal_hiho true gal_B (fb 5 1) fT [1; 1; 0; 0; 1; 0; 0]%Z (gal_start (fb 5 1)) = Ret (s, true, fano_w)) /\
  (exists s, gal_hiho false (gal_E false) (fb 5 1) fT [1; 1; 0; 0; 1; 0; 0]%Z (gal_start (fb 5 1)) = Ret (s, true, [1; 1; 1]%Z)) /\
  (exists s, gal_siho (fun y => (y <? 0)%Z) true (gal_E false) (fb 5 1) fT [-4; -1; 2; 5; -3; 7; 9]%Z (gal_start (fb 5 1)) = Ret (s, true, fano_w)).
Proof.
  split; [exact fano_is|]. split; [intros v Hv; rewrite fano_degrees by auto; lia|]. split; [reflexivity|]. split; [reflexivity|].
  split; [eexists; vm_compute; reflexivity|]. split; [eexists; vm_compute; reflexivity|]. split; eexists; vm_compute; reflexivity.
Qed.
Example C127_fano : no_4_cycle 7 7 fano_h /\ (forall v, v < 7 -> 3 <= row_deg fano_h 7 v <= 256) /\ in_code 7 7 fano_h (bit fano_w) /\
  (forall v, v < 7 -> v <> 2 -> bit [1; 1; 0; 0; 1; 0; 0]%Z v = bit fano_w v).
Proof.
  split; [exact fano_4|]. split; [intros v Hv; rewrite fano_degrees by auto; lia|]. split; [exact fano_code|]. intros v Hv NE. do 7 (destruct v; [try congruence; reflexivity|]). lia.
Qed.
Example C129_fano : forall v, v < 7 -> Nat.odd (row_deg fano_h 7 v) = true.
Proof. intros v Hv. rewrite fano_degrees; auto. Qed.
Example C130_fano : exists s, frames (gal_frame (fun y => (y <? 0)%Z) gal_B (fb 5 1) fT) [Hard true [1; 1; 0; 0; 1; 1; 0]%Z; Soft false [-4; -1; 2; 5; -3; 7; 9]%Z] (gal_start (fb 5 1)) = Ret s.
Proof. eexists. vm_compute. reflexivity. Qed.

(* ------------------------------------------------------------------ *)
(** * What does not hold *)

(** With one iteration the syndrome is never computed: CWD is 1 on bits that are not a codeword. *)
Theorem C126_cwd_refuted : exists s V, gal_hiho true gal_A (hb 1 1) hT [1; 0; 0; 0; 0; 0; 0]%Z (gal_start (hb 1 1)) = Ret (s, true, V) /\ ~ in_code 7 3 ham_h (bit V).
Proof. eexists. eexists. split; [vm_compute; reflexivity|]. rewrite ham_in_code. intros (_ & _ & C). discriminate. Qed.
(** The syndrome of the last iteration is not computed: CWD is 0 on a codeword, here after two iterations with a depth of 2. *)
Theorem C126_last_iteration_refuted : exists s, gal_hiho true gal_A (fb 2 2) fT fano_w (gal_start (fb 2 2)) = Ret (s, false, fano_w) /\ in_code 7 7 fano_h (bit fano_w).
Proof. eexists. split; [vm_compute; reflexivity|exact fano_code]. Qed.

(** Gallager E with bits of 64 bits gives zeros, whatever it decodes. *)
Lemma vote_E_wide : forall deg cur sum, vote_E true deg cur sum = 0%Z.
Proof. intros. unfold vote_E. apply Z.mul_0_r. Qed.
Theorem C126_wide_refuted : exists s, gal_hiho true (gal_E true) (fb 5 1) fT fano_w (gal_start (fb 5 1)) = Ret (s, true, repeat 0%Z 7).
Proof. eexists. vm_compute. reflexivity. Qed.

(** Variables in an even number of checks: Gallager B does not compute the majority of the messages of the other edges. *)
Theorem C129_even_degree_refuted : let Y := [0; 0; 0; 0; 0; 0; 1]%Z in let b := mkBP 7 2 ham false 1 [0; 1; 2; 3] in
  bp_new 7 2 ham false 1 [0; 1; 2; 3] = Ret b /\ (forall cd t, halts cd false 1 2 t -> t = 2) /\
  (exists s, gal_hiho true gal_B b hT Y (gal_start b) = Ret (s, true, [0; 0; 0; 0; 0; 0; 0]%Z)) /\
  tab 7 (fun v => Z.b2z (extrinsic_B 7 3 ham_h (bit Y) 2 v)) = [1; 0; 0; 1; 1; 1; 0]%Z.
Proof.
  cbv zeta. split; [reflexivity|]. split; [|split; [eexists; vm_compute; reflexivity|vm_compute; reflexivity]].
  intros cd t (RG & LT & _). destruct (Nat.eq_dec t 2); auto. destruct (LT ltac:(lia)) as [C _]. discriminate.
Qed.

(** With a syndrome depth of 2 the count of valid syndromes goes on from a frame to the next one. *)
Theorem C130_depth_refuted : exists s s1 s2, frames (gal_frame (fun y => (y <? 0)%Z) gal_A (fb 2 2) fT) [Hard true fano_w] (gal_start (fb 2 2)) = Ret s /\
    gal_hiho true gal_A (fb 2 2) fT fano_w s = Ret (s1, true, fano_w) /\ gal_hiho true gal_A (fb 2 2) fT fano_w (gal_start (fb 2 2)) = Ret (s2, false, fano_w).
Proof. do 3 eexists. split; [vm_compute; reflexivity|]. split; vm_compute; reflexivity. Qed.
