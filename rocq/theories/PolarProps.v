(** C11-C15, C65, C66: polar codes. *)
From Coq Require Import List Arith ZArith Lia Bool Permutation.
From Verif Require Import Base Loops GF2 PolarModel PolarSpec PolarProofs PolarSCProofs PolarMKProofs.
Import ListNotations.

Lemma Forall2_len : forall A B (R : A -> B -> Prop) l l', Forall2 R l l' -> length l = length l'.
Proof. induction 1; simpl; auto. Qed.

(* ------------------------------------------------------------------ *)
(** * C11 *)

(** light_encode is the Arikan transform. *)
Theorem C11_light_encode : forall n u, length u = 2 ^ n ->
  light_encode (2 ^ n) u = Ret (arikan (2 ^ n) u).
Proof. exact light_encode_ok. Qed.

(** Encoding a message: the unique input word with the message at the non-frozen
    positions, in order, and 0 at the frozen ones, goes through the transform. The old
    contents of the output buffer do not matter. *)
Theorem C11_encode : forall n fb u x0,
  length fb = 2 ^ n -> length u = length (info_positions fb) -> length x0 = 2 ^ n ->
  exists v, input_word fb u v /\ polar_encode (2 ^ n) fb u x0 = Ret (arikan (2 ^ n) v) /\
    forall v', input_word fb u v' -> v' = v.
Proof.
  intros n fb u x0 Lf Lu Lx. rewrite length_info_positions in Lu.
  pose proof (inserted_input fb u Lu) as I. exists (inserted fb u). split; auto. split.
  - unfold polar_encode. rewrite convert_ok by lia. cbn [bind]. apply light_encode_ok.
    destruct I as [L _]. lia.
  - intros v' I'. apply input_word_unique in I'. tauto.
Qed.

(** The same when the message is given in the output buffer itself. *)
Theorem C11_convert_inplace : forall n fb buf, length fb = 2 ^ n -> length buf = 2 ^ n ->
  exists v, convert_inplace (length (info_positions fb)) fb buf = Ret v /\
    input_word fb (firstn (length (info_positions fb)) buf) v.
Proof.
  intros n fb buf Lf Lb. rewrite length_info_positions.
  exists (inserted fb (firstn (count_info fb) buf)). split.
  - apply convert_inplace_ok; auto. lia.
  - apply inserted_input. rewrite firstn_length.
    assert (count_info fb <= length fb).
    { unfold count_info. clear. induction fb as [|[] fb IH]; simpl; auto; lia. }
    lia.
Qed.

Theorem C11_involution : forall n u, length u = 2 ^ n ->
  bind (light_encode (2 ^ n) u) (light_encode (2 ^ n)) = Ret u.
Proof.
  intros. rewrite light_encode_ok by auto. cbn [bind]. rewrite light_encode_ok by apply length_arikan.
  f_equal. apply arikan_involution; auto.
Qed.

Theorem C11_linear : forall n a b, length a = 2 ^ n -> length b = 2 ^ n ->
  light_encode (2 ^ n) (xorl a b) = Ret (xorl (arikan (2 ^ n) a) (arikan (2 ^ n) b)).
Proof.
  intros. rewrite light_encode_ok by (rewrite length_xorl; lia). f_equal. apply arikan_xorl. lia.
Qed.

(** The constructor accepts exactly the patterns of size N with K free positions and then
    advertises these positions, in order. *)
Theorem C11_info_bits_pos : forall K N fb,
  polar_ctor K N fb =
    if (length fb =? N) && (K =? length (info_positions fb)) then Ret (fb, info_positions fb) else Throws.
Proof.
  intros. unfold polar_ctor, guard. rewrite Nat.eqb_sym. rewrite length_info_positions.
  destruct (Nat.eqb_spec (length fb) N) as [e|e]; cbn [bind andb]; auto.
  rewrite set_frozen_ok by apply seq_length. rewrite (proj2 (Nat.eqb_eq _ _) e). auto.
Qed.

(** A length that is not a power of two is not rejected by the encoder, and can make it
    access its buffer out of bounds. *)
Theorem C11_not_power_of_2_refuted :
  polar_ctor 5 5 (repeat false 5) = Ret (repeat false 5, [0; 1; 2; 3; 4]) /\
  polar_encode 5 (repeat false 5) (repeat true 5) (repeat false 5) = Undef.
Proof. split; reflexivity. Qed.

Example C11_ex : polar_encode 4 [true; true; false; false] [true; false] [false; false; false; false] =
  Ret [true; false; true; false].
Proof. reflexivity. Qed.

(* ------------------------------------------------------------------ *)
(** * C12 *)

Lemma arikan_bit_ext : forall N u v i, (forall j, j < N -> sub i j = true -> nth j u false = nth j v false) ->
  arikan_bit N u i = arikan_bit N v i.
Proof.
  intros. unfold arikan_bit. apply xsum_ext. intros j Hj. destruct (sub i j) eqn:S.
  - rewrite H; auto.
  - rewrite !andb_false_r. auto.
Qed.

Lemma info_positions_in : forall fb p, In p (info_positions fb) -> p < length fb /\ nth p fb true = false.
Proof.
  intros fb p H. unfold info_positions in H. apply filter_In in H. destruct H as [H1 H2].
  apply in_seq in H1. split; [lia|]. destruct (nth p fb true); auto; discriminate.
Qed.

Theorem C12_systematic : forall n fb u x0,
  length fb = 2 ^ n -> domination_closed fb ->
  length u = length (info_positions fb) -> length x0 = 2 ^ n ->
  exists x, polar_sys_encode (2 ^ n) fb u x0 = Ret x /\
    polar_codeword (2 ^ n) fb x /\ carries (info_positions fb) u x.
Proof.
  intros n fb u x0 Lf DC Lu Lx. rewrite length_info_positions in Lu.
  pose proof (inserted_input fb u Lu) as (Lv & Zv & Cv). set (v := inserted fb u) in *.
  unfold polar_sys_encode. rewrite convert_ok by lia. fold v. cbn [bind].
  rewrite light_encode_ok by lia. cbn [bind].
  set (y := arikan (2 ^ n) v). assert (Ly : length y = 2 ^ n) by apply length_arikan.
  rewrite <- Lf. rewrite mask_ok by lia. cbn [bind].
  set (z := tab (length fb) (fun i => negb (nth i fb true) && nth i y false)).
  assert (Lz : length z = 2 ^ n) by (unfold z; rewrite length_tab; auto).
  rewrite Lf. rewrite light_encode_ok by auto. eexists; split; [reflexivity|]. split.
  - eexists _, z. split; [|reflexivity]. apply input_word_extract; [lia|].
    intros i Hi F. unfold z. rewrite nth_tab by auto. rewrite F. auto.
  - unfold carries. rewrite <- Cv. apply map_ext_in. intros p Hp. apply info_positions_in in Hp.
    destruct Hp as [Hp Fp]. rewrite nth_arikan by lia.
    rewrite (arikan_bit_ext _ z y).
    + rewrite <- nth_arikan by lia. unfold y. rewrite arikan_involution by lia. auto.
    + intros j Hj S. unfold z. rewrite nth_tab by lia. rewrite (DC p j) by (auto; lia). auto.
Qed.

(** Without domination closure the output need not carry the message. *)
Theorem C12_domination_needed_refuted :
  let fb := [false; false; true; false] in let u := [false; false; true] in
  exists x, polar_sys_encode 4 fb u [false; false; false; false] = Ret x /\
    ~ carries (info_positions fb) u x.
Proof. eexists; split; [reflexivity|]. intros C. inversion C. Qed.

Example C12_ex : domination_closed [true; true; false; false] /\
  polar_sys_encode 4 [true; true; false; false] [true; false] [false; false; false; false] =
  Ret [true; false; true; false].
Proof.
  split; [|reflexivity]. intros i j Hi Hj. simpl in *.
  do 4 (destruct i as [|i]; [do 4 (destruct j as [|j]; [cbv; congruence|]); lia|]). lia.
Qed.

(* ------------------------------------------------------------------ *)
(** * C13 *)

Lemma polar_codeword_iff : forall n fb x, length fb = 2 ^ n -> length x = 2 ^ n ->
  (polar_codeword (2 ^ n) fb x <-> forall i, i < 2 ^ n -> nth i fb true = true -> arikan_bit (2 ^ n) x i = false).
Proof.
  intros n fb x Lf Lx. split.
  - intros (u & v & (Lv & Zv & _) & ->) i Hi F.
    rewrite <- nth_arikan by auto. rewrite arikan_involution by lia. apply Zv; auto. lia.
  - intros H. eexists _, (arikan (2 ^ n) x). split.
    + apply input_word_extract. { rewrite length_arikan. auto. }
      intros i Hi F. rewrite nth_arikan by lia. apply H; auto. lia.
    + symmetry. apply arikan_involution. auto.
Qed.

Theorem C13_is_codeword_exact : forall n fb x, length fb = 2 ^ n -> length x = 2 ^ n ->
  nth (2 ^ n - 1) fb true = false ->
  exists r, is_codeword (2 ^ n) fb x = Ret r /\ (r = true <-> polar_codeword (2 ^ n) fb x).
Proof.
  intros n fb x Lf Lx Hl. destruct (is_codeword_spec n fb x Lf Lx) as (r & E & I).
  exists r. split; auto. rewrite I, polar_codeword_iff by auto. split; intros H i Hi F.
  - apply H; auto. destruct (Nat.eq_dec i (2 ^ n - 1)); [subst; congruence|lia].
  - apply H; auto. lia.
Qed.

(** Codewords are accepted whatever the frozen set. *)
Theorem C13_complete : forall n fb x, length fb = 2 ^ n -> length x = 2 ^ n ->
  polar_codeword (2 ^ n) fb x -> is_codeword (2 ^ n) fb x = Ret true.
Proof.
  intros n fb x Lf Lx H. destruct (is_codeword_spec n fb x Lf Lx) as (r & E & I).
  rewrite polar_codeword_iff in H by auto. rewrite E. f_equal. apply I. intros. apply H; auto. lia.
Qed.

(** When the last position is frozen (as the shortening puncturer does) it is not looked
    at: for every such code there are accepted words that are no codewords. *)
Theorem C13_last_frozen_refuted : forall n fb, length fb = 2 ^ n -> nth (2 ^ n - 1) fb true = true ->
  exists x, length x = 2 ^ n /\ is_codeword (2 ^ n) fb x = Ret true /\ ~ polar_codeword (2 ^ n) fb x.
Proof.
  intros n fb Lf Hl. pose proof (pow2_pos n).
  set (e := tab (2 ^ n) (fun i => i =? 2 ^ n - 1)). exists (arikan (2 ^ n) e).
  split; [apply length_arikan|].
  assert (Le : length e = 2 ^ n) by apply length_tab.
  assert (A : forall i, i < 2 ^ n -> arikan_bit (2 ^ n) (arikan (2 ^ n) e) i = (i =? 2 ^ n - 1)).
  { intros. rewrite <- nth_arikan by auto. rewrite arikan_involution by auto. unfold e. rewrite nth_tab by auto. auto. }
  split.
  - destruct (is_codeword_spec n fb (arikan (2 ^ n) e) Lf) as (r & E & I). { apply length_arikan. }
    rewrite E. f_equal. apply I. intros i Hi _. rewrite A by lia. apply Nat.eqb_neq. lia.
  - rewrite polar_codeword_iff by (auto; apply length_arikan). intros C.
    specialize (C (2 ^ n - 1) ltac:(lia) Hl). rewrite A, Nat.eqb_refl in C by lia. discriminate.
Qed.

Example C13_ex : is_codeword 4 [true; true; false; false] [true; false; true; false] = Ret true /\
  is_codeword 4 [true; true; false; false] [true; false; false; false] = Ret false.
Proof. split; reflexivity. Qed.

(* ------------------------------------------------------------------ *)
(** * C14 *)

(** Whatever the LLRs and the kernels F, G, H: the decoded codeword is the encoding of the
    decoded message. *)
Theorem C14_codeword : forall R (F : R -> R -> R) G H n fb y vk x0,
  length fb = 2 ^ n -> length y = 2 ^ n -> length vk = length (info_positions fb) -> length x0 = 2 ^ n ->
  let K := length (info_positions fb) in
  exists u x, decode_siho F G H K (2 ^ n) fb y vk = Ret u /\
    decode_siho_cw F G H K (2 ^ n) fb y = Ret x /\
    length u = K /\ polar_encode (2 ^ n) fb u x0 = Ret x.
Proof.
  intros R F G H n fb y vk x0 Lf Ly Lv Lx K. unfold K. rewrite length_info_positions in *.
  destruct (sc_spec R F G H n fb y vk Lf Ly Lv) as (u & v & E1 & E2 & I & _).
  exists u, (arikan (2 ^ n) v). split; auto. split; auto.
  destruct (input_word_unique _ _ _ I) as [-> Lu]. split; auto.
  unfold polar_encode. rewrite convert_ok by lia. cbn [bind]. apply light_encode_ok. destruct I. lia.
Qed.

(** LLR [y] stands for bit [b]: non-zero and negative exactly for a 1. *)
Definition llr_of (y : Z) (b : bool) : Prop := if b then (y < 0)%Z else (0 < y)%Z.

Lemma noiseless : forall F G H (ok : Z -> Prop) n fb y vk u x,
  good_kernels F G H ok (fun z => (z <? 0)%Z) ->
  length fb = 2 ^ n -> length vk = length (info_positions fb) -> length u = length (info_positions fb) ->
  polar_encode (2 ^ n) fb u x = Ret x -> Forall2 llr_of y x -> Forall ok y ->
  length x = 2 ^ n ->
  decode_siho F G H (length (info_positions fb)) (2 ^ n) fb y vk = Ret u.
Proof.
  intros F G H ok n fb y vk u x GK Lf Lv Lu E HF HO Lx. rewrite length_info_positions in *.
  assert (Ly : length y = 2 ^ n) by (apply Forall2_len in HF; lia).
  destruct (sc_spec Z F G H n fb y vk Lf Ly Lv) as (u' & v & E1 & _ & I & N).
  rewrite E1. f_equal. pose proof (inserted_input fb u Lu) as (Li & Zi & Ci).
  assert (Ev : v = inserted fb u).
  { apply (N ok (fun z => (z <? 0)%Z)); auto. { lia. }
    intros i yi Hy. assert (Ex : x = arikan (2 ^ n) (inserted fb u)).
    { unfold polar_encode in E. rewrite convert_ok in E by lia. cbn [bind] in E.
      rewrite light_encode_ok in E by lia. congruence. }
    split. { rewrite Forall_forall in HO. apply HO. eapply nth_error_In; eauto. }
    rewrite <- Ex. revert Hy. revert i. clear - HF. induction HF; intros i Hy.
    - destruct i; discriminate.
    - destruct i; simpl in *. { inversion Hy; subst. unfold llr_of in H. destruct y; [apply Z.ltb_lt|apply Z.ltb_ge]; lia. }
      apply IHHF; auto. }
  destruct I as (_ & _ & C). unfold carries in C, Ci. rewrite Ev in C. congruence.
Qed.

Lemma encode_buffer : forall n fb u x0 x, length fb = 2 ^ n -> length u = length (info_positions fb) ->
  length x0 = 2 ^ n ->
  polar_encode (2 ^ n) fb u x0 = Ret x -> length x = 2 ^ n /\ polar_encode (2 ^ n) fb u x = Ret x.
Proof.
  intros n fb u x0 x Lf Lu Lx E. rewrite length_info_positions in Lu. unfold polar_encode in *.
  rewrite convert_ok in E by lia. cbn [bind] in E.
  destruct (inserted_input fb u Lu) as [Li _]. rewrite light_encode_ok in E by lia. inversion E; subst.
  split. { apply length_arikan. }
  rewrite convert_ok by (auto; rewrite length_arikan; lia). cbn [bind]. apply light_encode_ok. lia.
Qed.

(** Exact LLRs (no rounding): a noiseless frame of any magnitudes is decoded exactly. *)
Theorem C14_noiseless_exact : forall n fb u x0 x y vk,
  length fb = 2 ^ n -> length u = length (info_positions fb) -> length x0 = 2 ^ n ->
  length vk = length (info_positions fb) ->
  polar_encode (2 ^ n) fb u x0 = Ret x -> Forall2 llr_of y x ->
  decode_siho f_LLR g_LLR h_LLR (length (info_positions fb)) (2 ^ n) fb y vk = Ret u.
Proof.
  intros n fb u x0 x y vk Lf Lu Lx Lv E HF. destruct (encode_buffer n fb u x0 x) as [L E']; auto.
  eapply noiseless; eauto using good_exact.
  clear - HF. induction HF; constructor; auto. unfold nonzero, llr_of in *. destruct y; lia.
Qed.

(** 8-bit and 16-bit LLRs with the saturation of the code: exact unless an LLR is the most
    negative value of the type. *)
Theorem C14_noiseless_int : forall w n fb u x0 x y vk, (w = 8 \/ w = 16)%Z ->
  length fb = 2 ^ n -> length u = length (info_positions fb) -> length x0 = 2 ^ n ->
  length vk = length (info_positions fb) ->
  polar_encode (2 ^ n) fb u x0 = Ret x -> Forall2 llr_of y x ->
  Forall (fun z => - (2 ^ (w - 1)) < z < 2 ^ (w - 1))%Z y ->
  decode_siho (f_LLR_int w) (g_LLR_int w) h_LLR (length (info_positions fb)) (2 ^ n) fb y vk = Ret u.
Proof.
  intros w n fb u x0 x y vk Hw Lf Lu Lx Lv E HF HR. destruct (encode_buffer n fb u x0 x) as [L E']; auto.
  eapply noiseless; eauto using good_int.
  clear - HF HR. induction HF; constructor; inversion HR; subst; auto.
  unfold in_range, llr_of in *. destruct y; lia.
Qed.

(** With the most negative 8-bit value the minimum of the magnitudes is 128, which wraps to
    -128: the codeword 11 of message 01 is decoded to 10. *)
Theorem C14_int8_min_refuted :
  exists x, polar_encode 2 [false; false] [false; true] [false; false] = Ret x /\
    Forall2 llr_of [-128; -128]%Z x /\
    decode_siho (f_LLR_int 8) (g_LLR_int 8) h_LLR 2 2 [false; false] [-128; -128]%Z [false; false] =
      Ret [true; false].
Proof.
  exists [true; true]. split; [reflexivity|]. split; [|reflexivity].
  repeat constructor.
Qed.

Example C14_ex : decode_siho (f_LLR_int 8) (g_LLR_int 8) h_LLR 2 4 [true; true; false; false]
  [-3; 100; -1; 7]%Z [false; false] = Ret [true; false].
Proof. reflexivity. Qed.

(* ------------------------------------------------------------------ *)
(** * C15 *)

Lemma N_cw_ge : forall N, 0 < N -> N <= shortlast_N_cw N.
Proof.
  intros. unfold shortlast_N_cw. destruct (Nat.eq_dec N 1) as [e|e].
  - rewrite e. simpl. lia.
  - apply Nat.log2_log2_up_spec. lia.
Qed.

Lemma filter_perm : forall A (f : A -> bool) l l', Permutation l l' -> Permutation (filter f l) (filter f l').
Proof.
  induction 1; simpl; auto.
  - destruct (f x); auto.
  - destruct (f x), (f y); auto. apply perm_swap.
  - eapply perm_trans; eauto.
Qed.

Lemma n_below_perm : forall N M best, is_perm M best -> N <= M -> n_below N best = N.
Proof.
  intros N M best HP HN. apply is_perm_iff in HP. unfold n_below.
  rewrite (Permutation_length (filter_perm _ _ _ _ HP)).
  replace M with (N + (M - N)) by lia. rewrite seq_app, filter_app, app_length.
  replace (filter (fun c => c <? N) (seq 0 N)) with (seq 0 N).
  - replace (filter (fun c => c <? N) (seq (0 + N) (M - N))) with (@nil nat).
    + rewrite seq_length. simpl. lia.
    + symmetry. simpl. assert (forall l, (forall x, In x l -> N <= x) -> filter (fun c => c <? N) l = []).
      { induction l; simpl; intros; auto. destruct (Nat.ltb_spec a N).
        - specialize (H a). lia.
        - auto. }
      apply H. intros x Hx. apply in_seq in Hx. lia.
  - assert (forall l, (forall x, In x l -> x < N) -> filter (fun c => c <? N) l = l).
    { induction l; simpl; intros; auto. destruct (Nat.ltb_spec a N).
      - f_equal; auto.
      - specialize (H a). lia. }
    symmetry. apply H. intros x Hx. apply in_seq in Hx. lia.
Qed.

(** The generated pattern frees exactly the first K channels of the order that are below
    N, so everything from N on is frozen. *)
Theorem C15_frozen_bits : forall K N best fb0, 0 < N -> K <= N ->
  is_perm (shortlast_N_cw N) best -> length fb0 = shortlast_N_cw N ->
  exists fb, gen_frozen_bits K N best fb0 = Ret fb /\ length fb = shortlast_N_cw N /\
    length (info_positions fb) = K /\
    (forall i, nth i fb true = false <-> In i (firstn K (filter (fun c => c <? N) best))) /\
    (forall i, N <= i -> nth i fb true = true).
Proof.
  intros K N best fb0 HN HK HP L0. unfold gen_frozen_bits. rewrite L0.
  pose proof (N_cw_ge N HN) as NW.
  destruct (place_info_ok N best K (repeat true (shortlast_N_cw N))) as (fb & E & L & C & I).
  - eapply is_perm_NoDup; eauto.
  - intros c Hc Hn. rewrite repeat_length. split; [lia|]. apply nth_repeat_lt. lia.
  - rewrite (n_below_perm N (shortlast_N_cw N)); auto.
  - exists fb. rewrite repeat_length in L. rewrite count_repeat in C.
    assert (I2 : forall i, nth i fb true = false <-> In i (firstn K (filter (fun c => c <? N) best))).
    { intros i. rewrite I. split; auto. intros [H|H]; auto. exfalso.
      destruct (Nat.lt_ge_cases i (shortlast_N_cw N)).
      - rewrite nth_repeat_lt in H by auto. discriminate.
      - rewrite nth_overflow in H by (rewrite repeat_length; auto). discriminate. }
    split; auto. split; auto. split. { rewrite length_info_positions. lia. }
    split; auto. intros i Hi. destruct (nth i fb true) eqn:Ef; auto. exfalso. apply I2 in Ef.
    assert (In i (filter (fun c => c <? N) best)).
    { rewrite <- (firstn_skipn K). apply in_or_app. auto. }
    apply filter_In in H. destruct H as [_ H]. apply Nat.ltb_lt in H. lia.
Qed.

(** Freezing every position from N on makes the code bits from N on zero. *)
Theorem C15_shortened_zero : forall n N fb u x0 x, N <= 2 ^ n ->
  length fb = 2 ^ n -> (forall i, N <= i -> nth i fb true = true) ->
  length u = length (info_positions fb) -> length x0 = 2 ^ n ->
  polar_encode (2 ^ n) fb u x0 = Ret x ->
  forall i, N <= i -> nth i x false = false.
Proof.
  intros n N fb u x0 x HN Lf Z Lu Lx E i Hi. rewrite length_info_positions in Lu.
  unfold polar_encode in E. rewrite convert_ok in E by lia. cbn [bind] in E.
  destruct (inserted_input fb u Lu) as (Li & Zi & _). rewrite light_encode_ok in E by lia. inversion E; subst.
  destruct (Nat.lt_ge_cases i (2 ^ n)).
  - rewrite nth_arikan by auto. unfold arikan_bit. apply xsum_false. intros j Hj.
    destruct (sub i j) eqn:S; [|apply andb_false_r]. apply sub_le in S.
    rewrite Zi by (try apply Z; lia). auto.
  - apply nth_overflow. rewrite length_arikan. auto.
Qed.

(** Puncturing keeps the first N bits, i.e. everything that is not a known 0. *)
Theorem C15_puncture : forall n N fb u x0 x x2, N <= 2 ^ n ->
  length fb = 2 ^ n -> (forall i, N <= i -> nth i fb true = true) ->
  length u = length (info_positions fb) -> length x0 = 2 ^ n -> length x2 = N ->
  polar_encode (2 ^ n) fb u x0 = Ret x ->
  exists p, short_puncture N x x2 = Ret p /\ x = p ++ repeat false (2 ^ n - N).
Proof.
  intros n N fb u x0 x x2 HN Lf Z Lu Lx L2 E.
  pose proof (C15_shortened_zero n N fb u x0 x HN Lf Z Lu Lx E) as S.
  destruct (encode_buffer n fb u x0 x) as [L _]; auto.
  exists (firstn N x). split. { apply short_puncture_ok; lia. }
  apply list_eq_nth with (d := false).
  - rewrite app_length, firstn_length, repeat_length. lia.
  - intros i Hi. destruct (Nat.lt_ge_cases i N).
    + rewrite app_nth1 by (rewrite firstn_length; lia). rewrite firstn_nth by auto. auto.
    + rewrite app_nth2 by (rewrite firstn_length; lia). rewrite S by auto.
      rewrite firstn_length. rewrite nth_repeat_lt by lia. auto.
Qed.

Theorem C15_depuncture : forall A (y1 y2 : list A) sat N Ncw,
  length y1 = N -> N <= Ncw -> length y2 = Ncw ->
  short_depuncture N Ncw sat y1 y2 = Ret (y1 ++ repeat sat (Ncw - N)).
Proof. exact short_depuncture_ok. Qed.

(** End to end, for any N (not only powers of two): encode, puncture, noiseless LLRs,
    depuncture, SC decoding gives the message back. *)
Theorem C15_end_to_end : forall w K N best fb0 u x0 x2 y2 vk, (w = 8 \/ w = 16)%Z ->
  0 < N -> K <= N -> is_perm (shortlast_N_cw N) best -> length fb0 = shortlast_N_cw N ->
  length u = K -> length vk = K ->
  length x0 = shortlast_N_cw N -> length x2 = N -> length y2 = shortlast_N_cw N ->
  exists fb x p, gen_frozen_bits K N best fb0 = Ret fb /\
    polar_encode (shortlast_N_cw N) fb u x0 = Ret x /\ short_puncture N x x2 = Ret p /\
    forall y, Forall2 llr_of y p -> Forall (fun z => - (2 ^ (w - 1)) < z < 2 ^ (w - 1))%Z y ->
      exists y', short_depuncture N (shortlast_N_cw N) (sat_val w) y y2 = Ret y' /\
        decode_siho (f_LLR_int w) (g_LLR_int w) h_LLR K (shortlast_N_cw N) fb y' vk = Ret u.
Proof.
  intros w K N best fb0 u x0 x2 y2 vk Hw HN HK HP L0 Lu Lv Lx L2 Ly.
  destruct (C15_frozen_bits K N best fb0 HN HK HP L0) as (fb & E & Lf & LK & _ & Z).
  pose proof (N_cw_ge N HN) as NW.
  unfold shortlast_N_cw in *. set (n := Nat.log2_up N) in *.
  destruct (C11_encode n fb u x0) as (v & Iv & Ev & _); auto; try lia.
  destruct (C15_puncture n N fb u x0 (arikan (2 ^ n) v) x2) as (p & Ep & Xp); auto; try lia.
  exists fb, (arikan (2 ^ n) v), p. split; auto. split; auto. split; auto.
  intros y HF HR. pose proof (Forall2_len _ _ _ _ _ HF) as LF.
  assert (Lp : length p = N).
  { assert (length (arikan (2 ^ n) v) = length p + (2 ^ n - N)).
    { rewrite Xp, app_length, repeat_length. auto. }
    rewrite length_arikan in H. lia. }
  rewrite C15_depuncture by lia. eexists; split; [reflexivity|].
  rewrite <- LK. eapply C14_noiseless_int with (x := arikan (2 ^ n) v) (x0 := x0); auto; try lia.
  - rewrite Xp. apply Forall2_app; auto.
    clear - Hw. induction (2 ^ n - N); simpl; constructor; auto. destruct Hw; subst; reflexivity.
  - apply Forall_app. split; auto. clear - Hw. induction (2 ^ n - N); simpl; constructor; auto.
    destruct Hw; subst; unfold sat_val; simpl; lia.
Qed.

Example C15_ex : gen_frozen_bits 2 3 [3; 2; 1; 0] [false; false; false; false] = Ret [true; false; false; true] /\
  polar_encode 4 [true; false; false; true] [true; true] [false; false; false; false] = Ret [false; true; true; false].
Proof. split; reflexivity. Qed.

(* ------------------------------------------------------------------ *)
(** * C65 *)

(** The multi-kernel encoder multiplies by the Kronecker product of the kernels of its
    stages. *)
Theorem C65_kronecker : forall kernels stages u,
  Forall (fun s => s < length kernels) stages -> Forall square kernels ->
  Forall (fun k => 0 < length k) kernels ->
  let ks := map (fun s => nth s kernels []) stages in
  length u = kron_size ks ->
  mk_light_encode (length u) kernels stages u = Ret (kron_encode ks u).
Proof.
  intros kernels stages u HS HQ HK ks Lu. apply mk_light_encode_ok; auto.
  unfold stage_kernels. rewrite Forall_forall in *. intros k Hk. apply in_map_iff in Hk.
  destruct Hk as (s & <- & Hs). apply HK. apply nth_In. auto.
Qed.

(** What the constructor checks: accepted codes satisfy the conditions above, and N is the
    size of the Kronecker product. *)
Theorem C65_ctor : forall kernels stages N, polar_code_ctor kernels stages = Ret N ->
  N = kron_size (map (fun s => nth s kernels []) stages) /\ stages <> [] /\
  Forall (fun s => s < length kernels) stages /\ Forall square kernels.
Proof.
  intros kernels stages N E. unfold polar_code_ctor in E.
  assert (L : forall st pre n m, 
    for_from (length pre) (length st) (fun i n => s <- rd (pre ++ st) i ;; k <- rd kernels s ;; Ret (n * length k)) n = Ret m ->
    m = n * kron_size (map (fun s => nth s kernels []) st)).
  { induction st as [|s st IH]; intros pre n m H.
    - cbn in H. inversion H; subst. unfold kron_size. simpl. lia.
    - cbn [length for_from] in H. rewrite (rd_ok _ 0) in H by (rewrite app_length; simpl; lia).
      rewrite app_nth2, Nat.sub_diag in H by lia. cbn [nth bind] in H.
      destruct (Nat.lt_ge_cases s (length kernels)) as [Hs|Hs].
      2:{ rewrite rd_out in H by lia. discriminate. }
      rewrite (rd_ok _ []) in H by lia. cbn [bind] in H.
      replace (S (length pre)) with (length (pre ++ [s])) in H by (rewrite app_length; simpl; lia).
      replace (pre ++ s :: st) with ((pre ++ [s]) ++ st) in H by (rewrite <- app_assoc; auto).
      apply IH in H. subst m. unfold kron_size. simpl. lia. }
  destruct (for_ (length stages) _ 1) as [n| | ] eqn:E1; try discriminate. cbn [bind] in E.
  unfold for_ in E1. apply (L stages []) in E1.
  unfold guard in E. destruct (0 <? length stages) eqn:G1; try discriminate. cbn [bind] in E.
  destruct (length kernels <=? length stages); try discriminate. cbn [bind] in E.
  destruct (forallb (fun s => s <? length kernels) stages) eqn:G2; try discriminate. cbn [bind] in E.
  destruct (forallb _ kernels) eqn:G3; try discriminate. cbn [bind] in E.
  destruct (check_all _ _); try discriminate. cbn [bind] in E. inversion E; subst N.
  split; [lia|]. split. { intros ->. discriminate. }
  rewrite forallb_forall in G2, G3. split; apply Forall_forall; intros x Hx.
  - apply G2 in Hx. apply Nat.ltb_lt in Hx. auto.
  - apply G3 in Hx. unfold square. apply Forall_forall. intros r Hr. rewrite forallb_forall in Hx.
    apply Hx in Hr. apply Nat.eqb_eq in Hr. auto.
Qed.

(** With n stages of the kernel 10/11 it is the polar encoder. *)
Theorem C65_arikan : forall n u, length u = 2 ^ n ->
  mk_light_encode (2 ^ n) [[[true; false]; [true; true]]] (repeat 0 n) u = light_encode (2 ^ n) u.
Proof.
  intros n u Lu. rewrite light_encode_ok by auto. rewrite <- Lu.
  assert (M : map (fun s => nth s [F2] []) (repeat 0 n) = repeat F2 n).
  { clear. induction n; simpl; auto. f_equal. auto. }
  change [[[true; false]; [true; true]]] with [F2].
  rewrite (C65_kronecker [F2] (repeat 0 n) u).
  - rewrite M, kron_encode_F2, Lu. auto.
  - apply Forall_forall. intros s Hs. apply repeat_spec in Hs. subst. simpl. lia.
  - repeat constructor.
  - repeat constructor.
  - rewrite M, kron_size_F2. auto.
Qed.

(** If every kernel has an inverse over GF(2), encoding is injective: the code with the
    inverse kernels undoes it. *)
Theorem C65_injective : forall kernels inverses stages u,
  Forall (fun s => s < length kernels) stages -> Forall2 inverse_of kernels inverses ->
  Forall (fun k => 0 < length k) kernels ->
  length u = kron_size (map (fun s => nth s kernels []) stages) ->
  bind (mk_light_encode (length u) kernels stages u) (mk_light_encode (length u) inverses stages) = Ret u.
Proof.
  intros kernels inverses stages u HS HI HK Lu.
  assert (LI : length inverses = length kernels) by (symmetry; eapply Forall2_len; eauto).
  assert (HI2 : forall s, s < length kernels -> inverse_of (nth s kernels []) (nth s inverses [])).
  { intros s. revert s. clear - HI. induction HI; simpl; intros s Hs; [lia|]. destruct s; auto. apply IHHI. lia. }
  assert (HM : Forall2 inverse_of (map (fun s => nth s kernels []) stages) (map (fun s => nth s inverses []) stages)).
  { clear - HS HI2. induction HS; simpl; constructor; auto. }
  rewrite (C65_kronecker kernels stages u); auto.
  2:{ clear - HI. induction HI; constructor; auto. destruct H as (_ & H & _). auto. }
  cbn [bind].
  assert (LE : length (kron_encode (map (fun s => nth s kernels []) stages) u) = length u).
  { unfold kron_encode. rewrite length_tab. auto. }
  rewrite <- LE at 1.
  rewrite (C65_kronecker inverses stages).
  - f_equal. apply kron_encode_inverse; auto.
    rewrite Forall_forall in *. intros k Hk. apply in_map_iff in Hk. destruct Hk as (s & <- & Hs).
    apply HK. apply nth_In. auto.
  - rewrite LI. auto.
  - clear - HI. induction HI; constructor; auto. destruct H as (_ & _ & H & _). auto.
  - clear - HI HK. induction HI; constructor; inversion HK; subst; auto. destruct H as (H & _). lia.
  - rewrite LE, Lu. symmetry. apply kron_size_inverse. auto.
Qed.

(** The constructor tests invertibility with the determinant over the integers: it
    accepts the kernel 110/011/101 (determinant 2), whose code maps two messages to the
    same codeword. *)
Theorem C65_singular_kernel_accepted_refuted :
  let k := [[true; true; false]; [false; true; true]; [true; false; true]] in
  polar_code_ctor [k] [0] = Ret 3 /\
  mk_encode 3 [k] [0] [false; false; false] [true; true; true] [false; false; false] =
  mk_encode 3 [k] [0] [false; false; false] [false; false; false] [false; false; false].
Proof. split; reflexivity. Qed.

Example C65_ex : 
  let t3 := [[true; true; true]; [true; false; true]; [false; true; true]] in
  let f2 := [[true; false]; [true; true]] in
  polar_code_ctor [t3; f2] [0; 1] = Ret 6 /\
  mk_encode 6 [t3; f2] [0; 1] [true; true; false; true; false; false] [true; false; true] [false; false; false; false; false; false]
    = Ret [false; false; false; false; true; true] /\
  inverse_of f2 f2.
Proof.
  split; [reflexivity|]. split; [reflexivity|]. split; auto. split; [repeat constructor|]. split; [repeat constructor|].
  simpl. intros i j Hi Hj. do 2 (destruct i as [|i]; [do 2 (destruct j as [|j]; [reflexivity|]); lia|]). lia.
Qed.

(* ------------------------------------------------------------------ *)
(** * C66 *)

(** When the code says it can be systematic and the information set is closed for the
    transform, the systematic multi-kernel encoder outputs a codeword that carries the
    message. *)
Theorem C66_mk_systematic : forall kernels stages fb u x0,
  Forall (fun s => s < length kernels) stages -> Forall square kernels ->
  Forall (fun k => 0 < length k) kernels ->
  can_be_systematic kernels stages = Ret true ->
  let ks := map (fun s => nth s kernels []) stages in
  let N := kron_size ks in
  length fb = N -> length u = length (info_positions fb) -> length x0 = N ->
  (forall q p, q < N -> p < N -> nth p fb true = false -> kron ks q p = true -> nth q fb true = false) ->
  exists v x, mk_sys_encode N kernels stages fb u x0 = Ret x /\
    length v = N /\ frozen_zero fb v /\ x = kron_encode ks v /\ carries (info_positions fb) u x.
Proof.
  intros kernels stages fb u x0 HS HQ HK CS ks N Lf Lu Lx HC. rewrite length_info_positions in Lu.
  pose proof (can_be_systematic_true _ _ HQ CS) as SI.
  assert (HM : Forall2 inverse_of ks ks).
  { unfold ks. clear - HS SI. induction HS; simpl; constructor; auto.
    rewrite Forall_forall in SI. apply SI. apply nth_In. auto. }
  assert (HP : Forall (fun k => 0 < length k) ks).
  { unfold ks. rewrite Forall_forall in *. intros k Hk. apply in_map_iff in Hk. destruct Hk as (s & <- & Hs).
    apply HK. apply nth_In. auto. }
  pose proof (inserted_input fb u Lu) as (Lv & Zv & Cv). set (v0 := inserted fb u) in *.
  unfold mk_sys_encode. rewrite convert_ok by lia. fold v0. cbn [bind].
  assert (EK : forall w, length w = N -> mk_light_encode N kernels stages w = Ret (kron_encode ks w)).
  { intros w Lw. rewrite <- Lw. apply C65_kronecker; auto. }
  rewrite EK by lia. cbn [bind].
  set (y := kron_encode ks v0). assert (Ly : length y = N) by (unfold y, kron_encode; apply length_tab).
  rewrite <- Lf. rewrite mask_ok by lia. cbn [bind].
  set (z := tab (length fb) (fun i => negb (nth i fb true) && nth i y false)).
  assert (Lz : length z = N) by (unfold z; rewrite length_tab; auto).
  rewrite Lf, EK by auto. exists z. eexists; split; [reflexivity|]. split; auto. split; [|split; auto].
  - intros i Hi F. unfold z. rewrite nth_tab by auto. rewrite F. auto.
  - unfold carries. rewrite <- Cv. apply map_ext_in. intros p Hp. apply info_positions_in in Hp.
    destruct Hp as [Hp Fp].
    replace (nth p v0 false) with (nth p (kron_encode ks y) false)
      by (unfold y; rewrite kron_encode_inverse; auto; lia).
    unfold kron_encode. fold N. rewrite !nth_tab by lia. apply xsum_ext. intros q Hq.
    destruct (kron ks q p) eqn:S; [|rewrite !andb_false_r; auto]. rewrite !andb_true_r.
    unfold z. rewrite nth_tab by lia. rewrite (HC q p) by (auto; lia). auto.
Qed.

Example C66_ex : let f2 := [[true; false]; [true; true]] in
  can_be_systematic [f2] [0; 0] = Ret true /\ square f2 /\
  (forall q p, q < 4 -> p < 4 -> nth p [true; true; false; false] true = false ->
    kron [f2; f2] q p = true -> nth q [true; true; false; false] true = false) /\
  mk_sys_encode 4 [f2] [0; 0] [true; true; false; false] [true; false] [false; false; false; false] =
  Ret [true; false; true; false].
Proof.
  split; [reflexivity|]. split; [repeat constructor|]. split; [|reflexivity].
  intros q p Hq Hp. do 4 (destruct q as [|q]; [do 4 (destruct p as [|p]; [cbv; congruence|]); lia|]). lia.
Qed.
