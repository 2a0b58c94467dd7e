(** C28, C29, C30, C31 and C34. *)
From Coq Require Import List Arith Lia Bool ZArith Permutation.
From Verif Require Import Base Copy GaloisModel SparseModel SparseSpec SparseProofs FullModel FullSpec FullProofs LDPCModel LDPCSpec LDPCProofs LUProofs GenProofs DiagProofs.
Import ListNotations.

(* ------------------------------------------------------------------ *)
(** * C34: syndromes *)

(** The hard test is true exactly when every check of H holds on the bits (an element is a one when it is not zero). *)
Theorem C34_hard : forall H N M h X, sp_is H N M h -> N <= length X -> exists b, check_hard X H = Ret b /\ (b = true <-> in_code N M h (bit X)).
Proof. intros H N M h X S L. apply sp_is_ok in S. apply check_hard_ok; auto. Qed.

(** The soft test is true exactly when every check holds on the signs, whatever the number type and its comparison with zero. *)
Theorem C34_soft : forall R (d : R) (neg : R -> bool) H N M h (Y : list R), sp_is H N M h -> N <= length Y ->
  exists b, check_soft neg Y H = Ret b /\ (b = true <-> in_code N M h (fun v => neg (nth v Y d))).
Proof.
  intros R d neg H N M h Y S L. apply sp_is_ok in S. unfold check_soft. destruct (check_from_ok _ d neg Y H N M h S L (sp_cols H) 0) as (b & E & B).
  - destruct S as (_ & C & _). lia.
  - exists b. split; auto. rewrite B. destruct S as (_ & C & _). rewrite C. unfold in_code. split; intros Q c Hc; apply Q; lia.
Qed.

(** The two tests give the same answer on the hard decisions of the soft values. *)
Theorem C34_agree : forall (Y : list Z) H N M h, sp_is H N M h -> N <= length Y -> check_soft (fun y => (y <? 0)%Z) Y H = check_hard (map (fun y => if (y <? 0)%Z then 1%Z else 0%Z) Y) H.
Proof.
  intros Y H N M h S L. destruct (C34_soft Z 0%Z (fun y => (y <? 0)%Z) H N M h Y S L) as (b & E & B). destruct (C34_hard H N M h (map (fun y => if (y <? 0)%Z then 1%Z else 0%Z) Y) S) as (b' & E' & B'). { rewrite map_length. auto. }
  rewrite E, E'. f_equal. assert (X : in_code N M h (fun v => (nth v Y 0 <? 0)%Z) <-> in_code N M h (bit (map (fun y => if (y <? 0)%Z then 1%Z else 0%Z) Y))).
  { unfold in_code. assert (Q : forall c, parity N (fun v => h v c && (nth v Y 0 <? 0)%Z) = parity N (fun v => h v c && bit (map (fun y => if (y <? 0)%Z then 1%Z else 0%Z) Y) v)).
    { intros c. apply par_ext. intros v Hv. f_equal. unfold bit. rewrite (nth_indep (map _ Y) 0%Z (if (0 <? 0)%Z then 1%Z else 0%Z)) by (rewrite map_length; lia). rewrite (map_nth (fun y => if (y <? 0)%Z then 1%Z else 0%Z)). destruct (nth v Y 0 <? 0)%Z; auto. }
    split; intros K c Hc; [rewrite <- Q|rewrite Q]; auto. }
  destruct b, b'; auto; exfalso.
  - assert (false = true) by (apply B', X, B; auto). discriminate.
  - assert (false = true) by (apply B, X, B'; auto). discriminate.
Qed.

(* ------------------------------------------------------------------ *)
(** * C28: encoder built from G (and H) *)

(** The word G u. *)
Definition word_of (K : nat) (g : nat -> nat -> bool) (u : nat -> bool) (i : nat) : bool := parity K (fun j => g i j && u j).

Lemma odd_bit : forall U j, bits U -> j < length U -> Z.odd (nth j U 0%Z) = bit U j.
Proof. intros U j B Hj. destruct (B _ (nth_In U 0%Z Hj)) as [E|E]; unfold bit; rewrite E; auto. Qed.

Lemma bit_tab : forall N p i, i < N -> bit (map (fun i => b2z (p i)) (seq 0 N)) i = p i.
Proof. intros N p i Hi. unfold bit. rewrite (nth_indep _ 0%Z (b2z (p 0))) by (rewrite map_length, seq_length; auto). rewrite (map_nth (fun i => b2z (p i))), seq_nth by auto. rewrite Nat.add_0_l. destruct (p i); auto. Qed.

Lemma bits_tab : forall N p, bits (map (fun i => b2z (p i)) (seq 0 N)).
Proof. intros N p z I. apply in_map_iff in I. destruct I as (i & <- & _). destruct (p i); auto. Qed.

(** What the encoder computes, once built. *)
Definition encodes (e : ldpc) (K N : nat) (g : nat -> nat -> bool) : Prop := forall w U X, (1 <= w)%Z -> bits U -> length U = K -> length X = N ->
  exists Y, ldpc_encode w e U X = Ret Y /\ length Y = N /\ bits Y /\ forall i, i < N -> bit Y i = word_of K g (bit U) i.

(** is_codeword: the syndrome test, refused when H has no one (the default matrix). *)
Definition verifies (e : ldpc) (N M : nat) (h : nat -> nat -> bool) : Prop := forall X, length X = N ->
  if ones h N M =? 0 then ldpc_is_codeword e X = Throws else exists b, ldpc_is_codeword e X = Ret b /\ (b = true <-> in_code N M h (bit X)).

Lemma encodes_ok : forall e K N g, le_N e = N -> sp_ok (le_G e) N K g -> encodes e K N g.
Proof.
  intros e K N g EN S w U X Hw B LU LX. eexists. split. { apply (encode_ok w e U X K N g); auto. } rewrite map_length, seq_length. split; [auto|]. split; [apply bits_tab|]. intros i Hi. rewrite bit_tab by auto. apply par_ext. intros j Hj. rewrite odd_bit by (auto; lia). auto.
Qed.
Lemma verifies_ok : forall e N M h, sp_ok (le_H e) N M h -> verifies e N M h.
Proof.
  intros e N M h S X LX. unfold ldpc_is_codeword. pose proof S as (_ & _ & _ & _ & O & _). rewrite O. destruct (ones h N M =? 0); cbn [negb guard bind]; auto. apply check_hard_ok; auto. lia.
Qed.

(** Built from G and H in either orientation: the encoder computes G u and verifies with H. *)
Theorem C28_built : forall K N M G H g h, 0 < K -> given G N K g -> given H N M h ->
  exists e, ldpc_GH K N G H = Ret e /\ le_pos e = seq 0 K /\ encodes e K N g /\ verifies e N M h.
Proof.
  intros K N M G H g h HK GG GH. apply turn_vertical in GH as TH. apply turn_vertical in GG as TG. destruct GG as [LG _]. unfold ldpc_GH, enc_base. destruct (Nat.eqb_spec K 0); [lia|]. destruct (Nat.eqb_spec N 0); [lia|]. rewrite (proj2 (Nat.leb_le K N)) by auto. cbn [negb guard bind].
  unfold check_G, check_H. cbv zeta. pose proof TG as (RG & CG & _). pose proof TH as (RH & CH & _). rewrite RG, CG, RH, !Nat.eqb_refl. cbn [guard bind]. eexists. split; [reflexivity|]. split; [auto|]. split; [apply encodes_ok|apply verifies_ok]; auto.
Qed.

(** Built from G alone: is_codeword always throws. *)
Theorem C28_built_G : forall K N G g, 0 < K -> given G N K g ->
  exists e, ldpc_G K N G = Ret e /\ le_pos e = seq 0 K /\ encodes e K N g /\ forall X, ldpc_is_codeword e X = Throws.
Proof.
  intros K N G g HK GG. apply turn_vertical in GG as TG. destruct GG as [LG _]. unfold ldpc_G, enc_base. destruct (Nat.eqb_spec K 0); [lia|]. destruct (Nat.eqb_spec N 0); [lia|]. rewrite (proj2 (Nat.leb_le K N)) by auto. cbn [negb guard bind].
  unfold check_G. cbv zeta. pose proof TG as (RG & CG & _). rewrite RG, CG, !Nat.eqb_refl. cbn [guard bind]. eexists. split; [reflexivity|]. split; [auto|]. split; [apply encodes_ok; auto|]. auto.
Qed.

(** Matrices of the wrong size are refused. *)
Theorem C28_refused : forall K N n k n' M G H g h, given G n k g -> given H n' M h -> K = 0 \/ N < K \/ n <> N \/ k <> K \/ n' <> N ->
  ldpc_GH K N G H = Throws.
Proof.
  intros K N n k n' M G H g h GG GH W. apply turn_vertical in GH as TH. apply turn_vertical in GG as TG. unfold ldpc_GH, enc_base. destruct (Nat.eqb_spec K 0); auto. cbn [negb guard bind]. destruct (Nat.eqb_spec N 0); auto. cbn [negb guard bind]. destruct (Nat.leb_spec K N); auto. cbn [guard bind].
  unfold check_G, check_H. cbv zeta. pose proof TG as (RG & CG & _). pose proof TH as (RH & CH & _). rewrite RG, CG, RH. destruct (Nat.eqb_spec K k); auto. cbn [guard bind]. destruct (Nat.eqb_spec N n); auto. cbn [guard bind]. destruct (Nat.eqb_spec N n'); auto. lia.
Qed.

(** Linear. *)
Theorem C28_linear : forall e K N g w U V W X Y Z T, encodes e K N g -> (1 <= w)%Z -> bits U -> bits V -> bits W -> length U = K -> length V = K -> length W = K -> length T = N ->
  (forall j, j < K -> bit W j = xorb (bit U j) (bit V j)) ->
  ldpc_encode w e U T = Ret X -> ldpc_encode w e V T = Ret Y -> ldpc_encode w e W T = Ret Z -> forall i, i < N -> bit Z i = xorb (bit X i) (bit Y i).
Proof.
  intros e K N g w U V W X Y Z T En Hw BU BV BW LU LV LW LT S E1 E2 E3 i Hi.
  destruct (En w U T) as (X' & F1 & _ & _ & P1); auto. destruct (En w V T) as (Y' & F2 & _ & _ & P2); auto. destruct (En w W T) as (Z' & F3 & _ & _ & P3); auto.
  rewrite E1 in F1. rewrite E2 in F2. rewrite E3 in F3. inversion F1. inversion F2. inversion F3. subst. rewrite P1, P2, P3 by auto. unfold word_of. rewrite <- par_xor. apply par_ext. intros j Hj. rewrite S by auto. destruct (g i j); auto.
Qed.

(** Every column of G is in the code exactly when every word G u is. *)
Theorem C28_orthogonal : forall K N M g h, (forall k, k < K -> in_code N M h (fun v => g v k)) <-> forall u, in_code N M h (word_of K g u).
Proof.
  intros K N M g h. split.
  - intros G u c Hc. unfold word_of. rewrite (par_ext N _ (fun v => parity K (fun j => (h v c && g v j) && u j))).
    2: { intros v Hv. rewrite andb_comm, <- par_and. apply par_ext. intros j _. destruct (h v c), (g v j), (u j); auto. }
    rewrite par_swap. apply par_false. intros j Hj. rewrite par_and, (G j Hj c Hc). auto.
  - intros G k Hk c Hc. etransitivity; [|exact (G (fun j => j =? k) c Hc)]. apply par_ext. intros v Hv. f_equal. unfold word_of. rewrite (par_one K _ k); auto. { rewrite Nat.eqb_refl, andb_true_r. auto. } intros j _ Nj. apply Nat.eqb_neq in Nj. rewrite Nj. apply andb_false_r.
Qed.

(** So an encoder with orthogonal G and H produces only words accepted by its is_codeword. *)
Theorem C28_zero_syndrome : forall e K N M g h w U X, encodes e K N g -> verifies e N M h -> ones h N M <> 0 -> (forall k, k < K -> in_code N M h (fun v => g v k)) ->
  (1 <= w)%Z -> bits U -> length U = K -> length X = N ->
  exists Y, ldpc_encode w e U X = Ret Y /\ in_code N M h (bit Y) /\ ldpc_is_codeword e Y = Ret true.
Proof.
  intros e K N M g h w U X En V O G Hw B LU LX. destruct (En w U X) as (Y & E & LY & BY & P); auto. exists Y. split; [auto|].
  assert (I : in_code N M h (bit Y)). { intros c Hc. etransitivity; [|exact (proj1 (C28_orthogonal K N M g h) G (bit U) c Hc)]. apply par_ext. intros v Hv. rewrite P by auto. auto. }
  split; auto. specialize (V Y LY). rewrite (proj2 (Nat.eqb_neq _ _) O) in V. destruct V as (b & E' & Q). rewrite E'. f_equal. apply Q. auto.
Qed.

(** check_GH decides that condition in three of the four orientations, and throws in the last. *)
Definition orthogonal (K N M : nat) (g h : nat -> nat -> bool) : Prop := forall k, k < K -> in_code N M h (fun v => g v k).

Lemma sum_zero : forall l, list_sum l = 0 -> forall x, In x l -> x = 0.
Proof. induction l as [|y l IH]; cbn; [tauto|]. intros Q x [EQ|I]; [lia|]. apply IH; auto. unfold list_sum. lia. Qed.

Lemma all_zeros_ok : forall S n m f, sp_ok S n m f -> (sp_all_zeros S = true <-> forall i j, i < n -> j < m -> f i j = false).
Proof.
  intros S n m f K. pose proof K as (_ & _ & _ & _ & O & _). unfold sp_all_zeros. rewrite O. rewrite Nat.eqb_eq. unfold ones. split.
  - intros Z i j Hi Hj. assert (D : row_deg f m i = 0). { assert (I : In (row_deg f m i) (map (row_deg f m) (seq 0 n))) by (apply in_map, in_seq; lia). apply (sum_zero _ Z _ I). }
    unfold row_deg in D. apply length_zero_iff_nil in D. destruct (f i j) eqn:E; auto. assert (I : In j (filter (fun c => f i c) (seq 0 m))) by (apply filter_In; split; auto; apply in_seq; lia). rewrite D in I. destruct I.
  - intros Z. assert (A : forall x, In x (map (row_deg f m) (seq 0 n)) -> x = 0). { intros x I. apply in_map_iff in I. destruct I as (i & <- & I). apply in_seq in I. unfold row_deg. apply length_zero_iff_nil. destruct (filter _ _) as [|c l] eqn:E; auto. assert (J : In c (filter (fun c => f i c) (seq 0 m))) by (rewrite E; left; auto). apply filter_In in J. destruct J as [J1 J2]. apply in_seq in J1. rewrite Z in J2 by lia. discriminate. }
    revert A. generalize (map (row_deg f m) (seq 0 n)). induction l as [|x l IH]; cbn; auto. intros A. rewrite (A x) by auto. rewrite Nat.add_0_l. apply IH. auto.
Qed.

Theorem C28_check_GH : forall H G K N M g h,
  (M <= N -> K <= N -> sp_is H M N (fun c v => h v c) -> sp_is G K N (fun k v => g v k) -> exists b, check_GH H G = Ret b /\ (b = true <-> orthogonal K N M g h)) /\
  (M <= N -> K < N -> sp_is H M N (fun c v => h v c) -> sp_is G N K g -> exists b, check_GH H G = Ret b /\ (b = true <-> orthogonal K N M g h)) /\
  (M < N -> K <= N -> sp_is H N M h -> sp_is G K N (fun k v => g v k) -> exists b, check_GH H G = Ret b /\ (b = true <-> orthogonal K N M g h)) /\
  (M < N -> K < N -> sp_is H N M h -> sp_is G N K g -> check_GH H G = Throws).
Proof.
  intros H G K N M g h.
  assert (PR : forall S f, (sp_ok S M K f /\ forall c k, c < M -> k < K -> f c k = parity N (fun v => h v c && g v k)) \/ (sp_ok S K M f /\ forall c k, c < M -> k < K -> f k c = parity N (fun v => h v c && g v k)) -> (sp_all_zeros S = true <-> orthogonal K N M g h)).
  { intros S f [[SK F]|[SK F]]; rewrite (all_zeros_ok _ _ _ _ SK); unfold orthogonal, in_code; split; intros Q.
    - intros k Hk c Hc. rewrite <- F by auto. auto. - intros c k Hc Hk. rewrite F by auto. auto. - intros k Hk c Hc. rewrite <- F by auto. auto. - intros k c Hk Hc. rewrite F by auto. auto. }
  assert (BP : forall a b c k, bit_prod N a b c k = parity N (fun q => a c q && b q k)) by reflexivity.
  split; [|split; [|split]]; intros HM HK SH SG; apply sp_is_ok in SH; apply sp_is_ok in SG; pose proof SH as (RH & CH & _); pose proof SG as (RG & CG & _); unfold check_GH; cbv zeta; rewrite RH, CH, RG, CG.
  - rewrite !(proj2 (Nat.leb_le _ _)) by lia. destruct (bgemmt_ok _ _ _ _ _ _ _ SH SG) as (C & E & KC). rewrite E. cbn [bind]. eexists. split; [reflexivity|]. eapply PR. left. split; [exact KC|]. intros. apply BP.
  - rewrite (proj2 (Nat.leb_le M N)), (proj2 (Nat.leb_gt N K)) by lia. destruct (bgemm_ok _ _ _ _ _ _ _ SH SG) as (C & E & KC). rewrite E. cbn [bind]. eexists. split; [reflexivity|]. eapply PR. left. split; [exact KC|]. intros. apply BP.
  - rewrite (proj2 (Nat.leb_le K N)), (proj2 (Nat.leb_gt N M)) by lia. destruct (bgemm_ok _ _ _ _ _ _ _ SG SH) as (C & E & KC). rewrite E. cbn [bind]. eexists. split; [reflexivity|]. eapply PR. right. split; [exact KC|]. intros. rewrite BP. apply par_ext. intros. apply andb_comm.
  - rewrite (proj2 (Nat.leb_gt N K)), (proj2 (Nat.leb_gt N M)) by lia. auto.
Qed.

(* ------------------------------------------------------------------ *)
(** * C29: encoder built from H by inversion *)

(** Column i of the last M rows of h (the checks of the parity bits), as a square matrix: row = check, column = bit. *)
Definition right_part (K : nat) (h : nat -> nat -> bool) (c j : nat) : bool := h (K + j) c.

Lemma regular_ones : forall K M h, 0 < M -> ~ singular M (right_part K h) -> ones h (K + M) M <> 0.
Proof.
  intros K M h HM R O. apply R. assert (Z : forall i j, i < K + M -> j < M -> h i j = false).
  { intros i j Hi Hj. unfold ones in O. assert (D : row_deg h M i = 0). { assert (I : In (row_deg h M i) (map (row_deg h M) (seq 0 (K + M)))) by (apply in_map, in_seq; lia). apply (sum_zero _ O _ I). }
    unfold row_deg in D. apply length_zero_iff_nil in D. destruct (h i j) eqn:E; auto. assert (I : In j (filter (fun c => h i c) (seq 0 M))) by (apply filter_In; split; auto; apply in_seq; lia). rewrite D in I. destruct I. }
  exists (fun _ => true). split; [exists 0; auto|]. intros i Hi. apply par_false. intros j Hj. unfold right_part. rewrite Z by lia. auto.
Qed.

(** Systematic encoder whose words are all codewords. *)
Definition systematic (e : ldpc) (K M : nat) (h : nat -> nat -> bool) : Prop := forall w U X, (1 <= w)%Z -> bits U -> length U = K -> length X = K + M ->
  exists Y, ldpc_encode w e U X = Ret Y /\ length Y = K + M /\ bits Y /\ firstn K Y = U /\ in_code (K + M) M h (bit Y) /\ ldpc_is_codeword e Y = Ret true.

Theorem C29_from_H : forall nel K M H h, 0 < nel -> 0 < M -> 0 < K -> given H (K + M) M h ->
  (singular M (right_part K h) /\ ldpc_from_H nel K (K + M) H LU_DEC = Throws) \/
  (~ singular M (right_part K h) /\ exists e, ldpc_from_H nel K (K + M) H LU_DEC = Ret e /\ le_pos e = seq 0 K /\ verifies e (K + M) M h /\ systematic e K M h).
Proof.
  intros nel K M H h HN HM HK GH. pose proof (turn_horizontal _ _ _ _ GH ltac:(lia)) as T. unfold ldpc_from_H, enc_base. destruct (Nat.eqb_spec K 0); [lia|]. destruct (Nat.eqb_spec (K + M) 0); [lia|]. rewrite (proj2 (Nat.leb_le K (K + M))) by lia. cbn [negb guard bind].
  destruct (H_to_G_LU_sparse_ok nel _ M K h HN HM HK T) as [(G & b & E & KG & SV)|(E & SG)]; rewrite E; cbn [bind]; [right|left; auto].
  pose proof (solves_regular _ _ _ SV) as REG. split; auto.
  assert (G1 : given G (K + M) K (fun i j => gen_of K M h b j i)). { split; [lia|]. right. split; [lia|]. apply sp_is_ok. auto. }
  assert (G2 : given (sp_turn H HORIZONTAL) (K + M) M h). { split; [lia|]. right. split; [lia|]. apply sp_is_ok. auto. }
  apply turn_vertical in G1. apply turn_vertical in G2. unfold check_G, check_H. cbv zeta. pose proof G1 as (RG & CG & _). pose proof G2 as (RH & CH & _). rewrite RG, CG, RH, !Nat.eqb_refl. cbn [guard bind]. eexists. split; [reflexivity|]. split; [auto|].
  match goal with |- verifies ?e _ _ _ /\ _ => set (e0 := e) end.
  assert (V : verifies e0 (K + M) M h) by (apply verifies_ok; auto). split; auto.
  intros w U X Hw B LU LX. destruct (encodes_ok e0 K (K + M) _ eq_refl G1 w U X Hw B LU LX) as (Y & EY & LY & BY & P). exists Y. split; [auto|]. split; [auto|]. split; [auto|].
  assert (PI : forall i, i < K -> bit Y i = bit U i). { intros i Hi. rewrite P by lia. unfold word_of. rewrite (par_one K _ i); auto. { unfold gen_of. rewrite (proj2 (Nat.ltb_lt i K)), Nat.eqb_refl by auto. auto. } intros j _ Nj. unfold gen_of. rewrite (proj2 (Nat.ltb_lt i K)) by auto. apply Nat.eqb_neq in Nj. rewrite Nj. auto. }
  assert (IN : in_code (K + M) M h (bit Y)).
  { apply (sys_in_code K M h b (bit Y) SV). intros i Hi. rewrite P by lia. unfold word_of, gen_of. rewrite (proj2 (Nat.ltb_ge (K + i) K)) by lia. replace (K + i - K) with i by lia.
    rewrite (par_ext M _ (fun q => parity K (fun v => (b i q && h v q) && bit U v))).
    2: { intros q Hq. rewrite (andb_comm (b i q)). rewrite <- par_and. apply par_ext. intros v Hv. rewrite PI by auto. destruct (h v q), (bit U v), (b i q); auto. }
    rewrite par_swap. apply par_ext. intros v Hv. rewrite par_and. auto. }
  split; [|split; [auto|]].
  - apply (list_eq_nth _ 0%Z). { rewrite firstn_length. lia. } intros i Hi. rewrite firstn_length in Hi. rewrite firstn_nth by lia. rewrite (bit_b2z Y i BY), (bit_b2z U i B), PI by lia. auto.
  - specialize (V Y LY). rewrite (proj2 (Nat.eqb_neq _ _) (regular_ones K M h HM REG)) in V. destruct V as (bb & E' & Q). rewrite E'. f_equal. apply Q. auto.
Qed.

(** The other dimensions are refused: K has to be N - M. *)
Theorem C29_wrong_K : forall nel K N M H h, 0 < nel -> 0 < M -> M < N -> K <> N - M -> given H N M h -> ldpc_from_H nel K N H LU_DEC = Throws.
Proof.
  intros nel K N M H h HN HM HL HK GH. pose proof (turn_horizontal _ _ _ _ GH HL) as T. unfold ldpc_from_H, enc_base. destruct (Nat.eqb_spec K 0); auto. cbn [negb guard bind]. destruct (Nat.eqb_spec N 0); auto. cbn [negb guard bind]. destruct (Nat.leb_spec K N); auto. cbn [negb guard bind].
  replace N with (N - M + M) in T by lia. destruct (H_to_G_LU_sparse_ok nel _ M (N - M) h HN HM ltac:(lia) T) as [(G & b & E & KG & SV)|(E & SG)]; rewrite E; cbn [bind]; auto.
  assert (G1 : given G (N - M + M) (N - M) (fun i j => gen_of (N - M) M h b j i)). { split; [lia|]. right. split; [lia|]. apply sp_is_ok. auto. }
  apply turn_vertical in G1. unfold check_G. cbv zeta. pose proof G1 as (RG & CG & _). rewrite CG. destruct (Nat.eqb_spec K (N - M)); [lia|]. auto.
Qed.

(** The inversion routine on a square matrix. *)
Theorem C29_inversion : forall F M a, 0 < M -> fu_shape F M M (fun i j => b2z (a i j)) ->
  (singular M a /\ LU_decomp F = Throws) \/ (~ singular M a /\ exists G b, LU_decomp F = Ret G /\ fu_shape G M M (fun i j => b2z (b i j)) /\ inverse M a b).
Proof.
  intros F M a HM A. apply arr_shape in A. destruct (LU_decomp_ok F M a HM A) as [(G & b & E & AG & SV)|(E & SG)]; [right|left; auto]. split; [eapply solves_regular; eauto|]. exists G, b. split; [auto|]. split; [apply arr_shape; auto|apply solves_inverse; auto].
Qed.

(* ------------------------------------------------------------------ *)
(** * C30: encoder built from H by diagonalisation *)

(** The construction writes outside a row of the resized matrix for every H: its result is never defined. *)
Theorem C30_identity_refuted : forall nel K M H h, 0 < M -> 0 < K -> given H (K + M) M h -> ldpc_from_H nel K (K + M) H IDENTITY = Undef.
Proof.
  intros nel K M H h HM HK GH. pose proof (turn_horizontal _ _ _ _ GH ltac:(lia)) as T. unfold ldpc_from_H, enc_base. destruct (Nat.eqb_spec K 0); [lia|]. destruct (Nat.eqb_spec (K + M) 0); [lia|]. rewrite (proj2 (Nat.leb_le K (K + M))) by lia. cbn [negb guard bind].
  unfold H_to_G_identity_sparse. pose proof T as (R & C & _). rewrite R, C. rewrite (proj2 (Nat.leb_le M (K + M))) by lia. cbn [guard bind]. destruct (to_full_ok _ _ _ _ T) as (F & E & KF). rewrite E. cbn [bind].
  rewrite (H_to_G_identity_undef F M K (fun i j => h j i)); auto; [|apply KF]. destruct KF as (X & Y & Z & _). split; [auto|]. split; auto.
Qed.

(** The first two steps are right: diagonalisation then reduction give [I | A] with the same code as H, up to the
    exchanges of columns they report; a column c of H is at [moved l c].  Missing: the steps after the resize. *)
Theorem C30_reduction_partial : forall F M N h, 0 < N -> M <= N -> fu_exact F M N (fun i j => b2z (h j i)) -> (exists i j, i < M /\ j < N /\ h j i = true) ->
  exists m l m' R f, form_diagonal F = Ret (m, l) /\ form_identity m = Ret m' /\ 0 < R <= M /\
    fu_shape m' R N (fun i j => b2z (f j i)) /\ (forall i j, i < R -> j < R -> f j i = (i =? j)) /\
    forall x, in_code N R f x <-> in_code N M h (fun c => x (moved l c)).
Proof.
  intros F M N h HN HMN K (i0 & j0 & Hi0 & Hj0 & ON). apply fu_exact_ok in K. pose proof K as (X & Y & Z & (LR & _) & _).
  destruct (form_diagonal_ok F M N (fun i j => h j i) (conj X (conj Y Z)) LR HMN) as (m & l & R & f & E & HR & A1 & LR1 & U & LP & KE).
  assert (RP : 0 < R). { destruct R; [|lia]. exfalso. assert (K0 : ker M N (fun i j => h j i) (fun c => moved l c =? moved l j0)) by (apply (proj1 (KE (fun c => c =? moved l j0))); intros r Hr; lia). specialize (K0 i0 Hi0). rewrite (par_one N _ j0) in K0; auto. { rewrite Nat.eqb_refl, ON in K0. discriminate. }
    intros j Hj Nj. destruct (Nat.eqb_spec (moved l j) (moved l j0)) as [EQ|]; [|apply andb_false_r]. exfalso. apply Nj. revert LP EQ. clear. revert j j0. induction l as [|[a b] l IH]; intros j j0 LP EQ; auto. unfold moved in EQ. cbn [fold_left fst snd] in EQ. apply (IH (sw a b j) (sw a b j0)) in EQ; [|intros p I; apply LP; right; auto]. rewrite <- (sw_sw a b j), <- (sw_sw a b j0), EQ. auto. }
  destruct (form_identity_ok m R N f A1) as (m' & f' & E2 & A2 & ID & KE2); [lia|auto|]. exists m, l, m', R, (fun j i => f' i j). split; [auto|]. split; [auto|]. split; [lia|]. split; [apply arr_shape; auto|]. split; [auto|]. intros x. etransitivity; [exact (KE2 x)|]. exact (KE x).
Qed.

(* ------------------------------------------------------------------ *)
(** * C31: structured encoders *)

(** IRA: any H whose parity part is the dual diagonal. *)
Theorem C31_IRA : forall K M H h, 0 < K -> 0 < M -> given H (K + M) M h -> dual_diagonal K M h ->
  exists e, ldpc_IRA K (K + M) H = Ret e /\ le_pos e = seq 0 K /\ verifies e (K + M) M h /\
    forall U X, bits U -> length U = K -> length X = K + M ->
      exists Y, ira_encode e U X = Ret Y /\ length Y = K + M /\ bits Y /\ firstn K Y = U /\ in_code (K + M) M h (bit Y) /\ ldpc_is_codeword e Y = Ret true.
Proof.
  intros K M H h HK HM GH DD. apply turn_vertical in GH as T. unfold ldpc_IRA, enc_base. destruct (Nat.eqb_spec K 0); [lia|]. destruct (Nat.eqb_spec (K + M) 0); [lia|]. rewrite (proj2 (Nat.leb_le K (K + M))) by lia. cbn [negb guard bind].
  unfold check_H2, check_H. cbv zeta. pose proof T as (R & C & _). rewrite R, Nat.eqb_refl. cbn [guard bind]. rewrite C. replace (K + M - K) with M by lia. rewrite Nat.eqb_refl. cbn [guard bind]. eexists. split; [reflexivity|]. split; [auto|].
  match goal with |- verifies ?e _ _ _ /\ _ => set (e0 := e) end. assert (V : verifies e0 (K + M) M h) by (apply verifies_ok; auto). split; auto.
  intros U X B LU LX. eexists. split. { apply (ira_encode_ok e0 K M h U X); auto. }
  match goal with |- length ?y = _ /\ _ => set (Y := y) end.
  assert (LY : length Y = K + M) by (unfold Y; rewrite app_length, map_length, seq_length; lia).
  assert (IN : in_code (K + M) M h (bit Y)) by (apply ira_in_code; auto).
  split; [auto|]. split; [apply bits_sys; auto|]. split. { unfold Y. rewrite <- LU. rewrite firstn_app, Nat.sub_diag, firstn_all. apply app_nil_r. } split; [auto|].
  specialize (V Y LY). assert (O : ones h (K + M) M <> 0).
  { apply regular_ones; auto. intros (x & (k & Hk & XK) & Z). assert (A : forall j, j < M -> x j = false).
    { induction j as [j IH] using lt_wf_ind. intros Hj. specialize (Z j Hj). rewrite (par_one M _ j) in Z; auto.
      - unfold right_part in Z. rewrite DD, Nat.eqb_refl in Z by auto. auto.
      - intros q Hq Nq. unfold right_part. rewrite DD by auto. destruct (Nat.eqb_spec q j); [lia|]. destruct (Nat.eqb_spec (S q) j); auto. cbn [orb andb]. apply IH; lia. }
    rewrite A in XK by auto. discriminate. }
  rewrite (proj2 (Nat.eqb_neq _ _) O) in V. destruct V as (bb & E' & Q). rewrite E'. f_equal. apply Q. auto.
Qed.

(** The constructor does not check the dual diagonal: with this accepted matrix the message 1 1 gives a word that its own
    is_codeword rejects. *)
Theorem C31_IRA_unchecked_refuted : exists K N H e Y, ldpc_IRA K N H = Ret e /\ ira_encode e [1; 1]%Z (repeat 0%Z N) = Ret Y /\ ldpc_is_codeword e Y = Ret false.
Proof.
  set (H := match (H <- sp_add (sp_new 4 2) 0 0 ;; H <- sp_add H 2 0 ;; H <- sp_add H 1 1 ;; sp_add H 3 1) with Ret H => H | _ => sp_new 0 0 end).
  exists 2, 4, H. do 2 eexists. split; [vm_compute; reflexivity|]. split; vm_compute; reflexivity.
Qed.

(** QC: any H whose right part is invertible; refused otherwise. *)
Theorem C31_QC : forall K M H h, 0 < K -> 0 < M -> (Z.of_nat (K + M) < 2 ^ 31)%Z -> given H (K + M) M h ->
  (singular M (right_part K h) /\ ldpc_QC K (K + M) H = Throws) \/
  (~ singular M (right_part K h) /\ exists e F, ldpc_QC K (K + M) H = Ret (e, F) /\ le_pos e = seq 0 K /\ verifies e (K + M) M h /\
    forall U X, bits U -> length U = K -> length X = K + M ->
      exists Y, qc_encode e F U X = Ret Y /\ length Y = K + M /\ bits Y /\ firstn K Y = U /\ in_code (K + M) M h (bit Y) /\ ldpc_is_codeword e Y = Ret true).
Proof.
  intros K M H h HK HM BD GH. apply turn_vertical in GH as T. unfold ldpc_QC, enc_base. destruct (Nat.eqb_spec K 0); [lia|]. destruct (Nat.eqb_spec (K + M) 0); [lia|]. rewrite (proj2 (Nat.leb_le K (K + M))) by lia. cbn [negb guard bind].
  destruct (LU_sparse_ok H K M h GH HM HK BD) as [(F & b & E & AF & SV)|(E & SG)]; rewrite E; cbn [bind]; [right|left; auto]. pose proof (solves_regular _ _ _ SV) as REG. split; auto.
  unfold check_H2, check_H. cbv zeta. pose proof T as (R & C & _). rewrite R, Nat.eqb_refl. cbn [guard bind]. rewrite C. replace (K + M - K) with M by lia. rewrite Nat.eqb_refl. cbn [guard bind]. do 2 eexists. split; [reflexivity|]. split; [auto|].
  match goal with |- verifies ?e _ _ _ /\ _ => set (e0 := e) end. assert (V : verifies e0 (K + M) M h) by (apply verifies_ok; auto). split; auto.
  intros U X B LU LX. eexists. split. { apply (qc_encode_ok e0 K M h F b U X); auto. }
  match goal with |- length ?y = _ /\ _ => set (Y := y) end.
  assert (LY : length Y = K + M) by (unfold Y; rewrite app_length, map_length, seq_length; lia).
  assert (IN : in_code (K + M) M h (bit Y)).
  { apply (sys_in_code K M h b (bit Y) SV). intros i Hi. unfold Y at 1. rewrite (bit_sys U M _ K LU i Hi). apply par_ext. intros q Hq. f_equal. apply par_ext. intros v Hv. unfold Y. rewrite bit_sys0 by lia. auto. }
  split; [auto|]. split; [apply bits_sys; auto|]. split. { unfold Y. rewrite <- LU. rewrite firstn_app, Nat.sub_diag, firstn_all. apply app_nil_r. } split; [auto|].
  specialize (V Y LY). rewrite (proj2 (Nat.eqb_neq _ _) (regular_ones K M h HM REG)) in V. destruct V as (bb & E' & Q). rewrite E'. f_equal. apply Q. auto.
Qed.

(* ------------------------------------------------------------------ *)
(** * Concrete cases *)
Definition build (n m : nat) (l : list (nat * nat)) : sparse := match each l (fun p H => sp_add H (fst p) (snd p)) (sp_new n m) with Ret H => H | _ => sp_new 0 0 end.
(** Hamming code (7, 4) with its parity bits last. *)
Definition ham : sparse := build 7 3 [(0, 0); (0, 1); (1, 0); (1, 2); (2, 1); (2, 2); (3, 0); (3, 1); (3, 2); (4, 0); (5, 1); (6, 2)].
Definition ham_h (v c : nat) : bool := existsb (fun p => (fst p =? v) && (snd p =? c)) [(0, 0); (0, 1); (1, 0); (1, 2); (2, 1); (2, 2); (3, 0); (3, 1); (3, 2); (4, 0); (5, 1); (6, 2)].

Lemma build_is : forall l n m, NoDup l -> (forall p, In p l -> fst p < n /\ snd p < m) ->
  exists H, each l (fun p H => sp_add H (fst p) (snd p)) (sp_new n m) = Ret H /\ sp_ok H n m (fun v c => existsb (fun p => (fst p =? v) && (snd p =? c)) l).
Proof.
  intros l n m. rewrite <- (rev_involutive l). generalize (rev l). clear l. induction l as [|p l IH]; intros ND B.
  - eexists. split; [reflexivity|]. apply new_ok.
  - cbn [rev] in *. destruct IH as (H & E & K). { apply NoDup_remove_1 in ND. rewrite app_nil_r in ND. auto. } { intros q I. apply B. apply in_app_iff. auto. }
    rewrite each_app, E. cbn [bind each]. destruct (B p) as [B1 B2]. { apply in_app_iff. right. left. auto. }
    assert (NF : existsb (fun q => (fst q =? fst p) && (snd q =? snd p)) (rev l) = false).
    { destruct (existsb _ _) eqn:X; auto. apply existsb_exists in X. destruct X as (q & I & Q). apply andb_true_iff in Q. destruct Q as [Q1 Q2]. apply Nat.eqb_eq in Q1, Q2. destruct p, q. cbn in Q1, Q2. subst. apply NoDup_remove_2 in ND. rewrite app_nil_r in ND. contradiction. }
    destruct (add_ok _ _ _ _ (fst p) (snd p) K B1 B2 NF) as (H' & E' & K'). rewrite E'. cbn [bind]. exists H'. split; auto. eapply sp_ok_ext; [|exact K']. intros i j Hi Hj. unfold setf. rewrite existsb_app. cbn [existsb]. rewrite orb_false_r. rewrite (Nat.eqb_sym (fst p)), (Nat.eqb_sym (snd p)). destruct ((i =? fst p) && (j =? snd p)); [rewrite orb_true_r|rewrite orb_false_r]; auto.
Qed.

Example ham_given : given ham 7 3 ham_h.
Proof. split; [lia|]. left. apply sp_is_ok. unfold ham, build. destruct (build_is [(0, 0); (0, 1); (1, 0); (1, 2); (2, 1); (2, 2); (3, 0); (3, 1); (3, 2); (4, 0); (5, 1); (6, 2)] 7 3) as (H & E & K).
  - repeat (apply NoDup_cons; [cbn; intuition discriminate|]). apply NoDup_nil.
  - intros p I. cbn in I. repeat destruct I as [<-|I]; cbn; try lia; destruct I.
  - rewrite E. exact K.
Qed.
Example ham_regular : ~ singular 3 (right_part 4 ham_h).
Proof. intros (x & (k & Hk & X) & Z). pose proof (Z 0 ltac:(lia)) as Z0. pose proof (Z 1 ltac:(lia)) as Z1. pose proof (Z 2 ltac:(lia)) as Z2. cbn in Z0, Z1, Z2. destruct k as [|[|[|k]]]; try lia; destruct (x 0), (x 1), (x 2); discriminate. Qed.
Example C29_ham : match ldpc_from_H 4 4 7 ham LU_DEC with Ret e => Y <- ldpc_encode 8 e [1; 0; 1; 1]%Z (repeat 7%Z 7) ;; b <- ldpc_is_codeword e Y ;; Ret (Y, b, le_pos e) | _ => Undef end = Ret ([1; 0; 1; 1; 0; 1; 0]%Z, true, [0; 1; 2; 3]).
Proof. vm_compute. reflexivity. Qed.
Example C31_ham_QC : match ldpc_QC 4 7 ham with Ret (e, F) => qc_encode e F [1; 0; 1; 1]%Z (repeat 7%Z 7) | _ => Undef end = Ret [1; 0; 1; 1; 0; 1; 0]%Z.
Proof. vm_compute. reflexivity. Qed.
Example C34_ham : check_hard [1; 0; 1; 1; 0; 1; 0]%Z ham = Ret true /\ check_hard [1; 0; 1; 1; 0; 1; 1]%Z ham = Ret false /\ check_soft (fun y => (y <? 0)%Z) [-3; 2; -1; -9; 4; -2; 1]%Z ham = Ret true.
Proof. vm_compute. auto. Qed.
Example C30_ham : exists m l m', form_diagonal (match sparse_to_full (sp_turn ham HORIZONTAL) with Ret F => F | _ => fu_new 0 0 end) = Ret (m, l) /\ form_identity m = Ret m' /\ fu_rows m' = 3 /\ l = [(2, 3)].
Proof. do 3 eexists. split; [vm_compute; reflexivity|]. split; [vm_compute; reflexivity|]. auto. Qed.
(** An IRA code. *)
Definition ira_h (v c : nat) : bool := existsb (fun p => (fst p =? v) && (snd p =? c)) [(0, 0); (0, 1); (1, 1); (1, 2); (2, 0); (2, 1); (3, 1); (3, 2); (4, 2)].
Example ira_dual : dual_diagonal 2 3 ira_h.
Proof. intros i c Hi Hc. destruct i as [|[|[|i]]]; try lia; destruct c as [|[|[|c]]]; try lia; reflexivity. Qed.
Example C31_ira : match ldpc_IRA 2 5 (build 5 3 [(0, 0); (0, 1); (1, 1); (1, 2); (2, 0); (2, 1); (3, 1); (3, 2); (4, 2)]) with Ret e => Y <- ira_encode e [1; 1]%Z (repeat 7%Z 5) ;; b <- ldpc_is_codeword e Y ;; Ret (Y, b) | _ => Undef end = Ret ([1; 1; 1; 1; 0]%Z, true).
Proof. vm_compute. reflexivity. Qed.
(** G of the Hamming code, orthogonal to its H. *)
Definition ham_G : sparse := build 7 4 [(0, 0); (1, 1); (2, 2); (3, 3); (4, 0); (4, 1); (4, 3); (5, 0); (5, 2); (5, 3); (6, 1); (6, 2); (6, 3)].
Example C28_ham : check_GH (sp_transpose ham) ham_G = Ret true /\ match ldpc_GH 4 7 ham_G (sp_transpose ham) with Ret e => Y <- ldpc_encode 8 e [1; 0; 1; 1]%Z (repeat 7%Z 7) ;; b <- ldpc_is_codeword e Y ;; Ret (Y, b) | _ => Undef end = Ret ([1; 0; 1; 1; 0; 1; 0]%Z, true).
Proof. vm_compute. auto. Qed.
