(** C26 and C27: Reed-Solomon codes. *)
From Coq Require Import List Arith NArith ZArith Lia Bool.
From Verif Require Import Base Copy GField BMTheory GaloisModel GaloisSpec GaloisTheory GaloisPrim GaloisProofs GaloisProps GFTab RepModel
  BitPackerModel BitPackerSpec BitPackerProofs BCHModel BCHSpec BCHSets BCHEncProofs BCHCode BCHEncProps BMProofs LocProofs BCHDecProofs BCHDecProps RSModel RSSpec RSEncProofs RSDecProofs RSBits.
Import ListNotations.

(** The field and the polynomial that a user builds: [gf] over 2^m elements, and [g] for t errors;
    [w] is the width of the type of the tables. *)
Definition rs_setup (w : Z) (m : nat) (p : list Z) (t : nat) (gf : galois) (g : list Z) : Prop :=
  2 <= m <= 20 /\ (Z.of_nat m < w)%Z /\ (p = [] \/ length p = m + 1 /\ primitive m (poly_of p)) /\ 1 <= t /\ 2 * t < 2 ^ m - 1 /\
  galois_ctor w (2 ^ m - 1) p = Ret gf /\ rs_poly gf t = Ret g.

Lemma skipn_len_app : forall A k (a b : list A), length a = k -> skipn k (a ++ b) = b.
Proof. intros A k a b <-. induction a; cbn [length skipn app]; auto. Qed.

Lemma Hw_Z : forall m w, m < w -> (Z.of_nat (2 ^ m - 1) < 2 ^ (Z.of_nat w - 1))%Z.
Proof.
  intros m w H. rewrite Nat2Z.inj_sub by (pose proof (pow2_pos m); lia). rewrite Nat2Z.inj_pow.
  pose proof (Z.pow_le_mono_r 2 (Z.of_nat m) (Z.of_nat w - 1) ltac:(lia) ltac:(lia)). change (Z.of_nat 2) with 2%Z. lia.
Qed.

(** Building them always succeeds; the polynomial has 2t redundancy symbols. *)
Theorem C26_generator : forall w m p t, 2 <= m <= 20 -> (Z.of_nat m < w)%Z -> p = [] \/ length p = m + 1 /\ primitive m (poly_of p) -> 1 <= t -> 2 * t < 2 ^ m - 1 ->
  exists gf g, rs_setup w m p t gf g /\ length g = 2 * t + 1.
Proof.
  intros w m p t Hm Hw Hp Ht H2. destruct (C23_tables w m p Hm Hw Hp) as (gf & Egf & Ep & HT).
  assert (HP : primitive m (poly_of (gf_p gf))). { rewrite Ep. destruct Hp as [-> | [HL HP]]. apply C23_default_primitive; auto. destruct p; auto. cbn in HL. lia. }
  assert (Hm2 : 2 <= m) by lia. pose proof (gtabs m (poly_of (gf_p gf)) gf Hm2 HP HT) as TB. destruct HT as (T1 & T2 & _).
  destruct (rs_poly_ok _ _ _ _ _ _ _ TB gf t m) as (g & E & L & _); auto. exists gf, g. split; [|lia]. unfold rs_setup. repeat (split; auto); lia.
Qed.

Section Field.
Variables (w0 : Z) (m : nat) (p : list Z) (t : nat) (gf : galois) (g : list Z).
Hypothesis S : rs_setup w0 m p t gf g.
Let n := 2 ^ m - 1.

Lemma rs_inv : exists P (Hm : 2 <= m) (HP : primitive m P), P = poly_of (gf_p gf) /\ gf_N gf = n /\
  tabs (GF m P Hm HP) n (gal m P Hm HP) (gpf m P Hm HP) (gxf m P gf Hm HP) (alpha_to gf) (index_of gf) /\ length g = Datatypes.S (2 * t) /\
  forall j, j <= 2 * t -> nth j g 0%Z = gxf m P gf Hm HP (mp (GF m P Hm HP) (rs_roots (GF m P Hm HP) (gal m P Hm HP) t) j).
Proof.
  destruct S as (Hm & Hw & Hp & Ht & H2 & Egf & Eg). destruct (C23_tables w0 m p Hm Hw Hp) as (gf' & E' & Ep & HT). rewrite Egf in E'. inversion E'; subst gf'. clear E'.
  assert (HP : primitive m (poly_of (gf_p gf))). { rewrite Ep. destruct Hp as [-> | [HL HP]]. apply C23_default_primitive; auto. destruct p; auto. cbn in HL. lia. }
  assert (Hm2 : 2 <= m) by lia. pose proof (gtabs m (poly_of (gf_p gf)) gf Hm2 HP HT) as TB. destruct HT as (T1 & T2 & _).
  destruct (rs_poly_ok _ _ _ _ _ _ _ TB gf t m) as (g' & E & L & HG); auto. rewrite Eg in E. inversion E; subst g'.
  exists (poly_of (gf_p gf)), Hm2, HP. auto.
Qed.

Lemma n_Zn : Z.of_nat n = (2 ^ Z.of_nat m - 1)%Z.
Proof. unfold n. rewrite Nat2Z.inj_sub. { rewrite Nat2Z.inj_pow. auto. } pose proof (pow2_pos m). lia. Qed.

(** Words of symbols are words over the field. *)
Lemma word_gf : forall P (Hm : 2 <= m) (HP : primitive m P), tabs (GF m P Hm HP) n (gal m P Hm HP) (gpf m P Hm HP) (gxf m P gf Hm HP) (alpha_to gf) (index_of gf) ->
  forall s, symbols_ok m s -> exists xs, s = map (gpf m P Hm HP) xs.
Proof.
  intros P Hm HP TB s Hs. apply (word_of _ _ _ _ _ _ _ TB). eapply Forall_impl; [|exact Hs]. cbn beta. intros a Ha. rewrite n_Zn. lia.
Qed.
Lemma sok_gf : forall P (Hm : 2 <= m) (HP : primitive m P) xs, symbols_ok m (map (gpf m P Hm HP) xs).
Proof. intros. apply Forall_forall. intros s Hs. apply in_map_iff in Hs. destruct Hs as (a & <- & _). unfold gpf. pose proof (gfv_lt m P Hm HP a). rewrite Zpow2_N. lia. Qed.
Lemma code_gf : forall P (Hm : 2 <= m) (HP : primitive m P) xs, rs_codeword P m t (map (gpf m P Hm HP) xs) <-> forall i, 1 <= i <= 2 * t -> eval (GF m P Hm HP) xs (pw (GF m P Hm HP) (gal m P Hm HP) i) = f0 (GF m P Hm HP).
Proof.
  intros P Hm HP xs. assert (E : map Z.to_N (map (gpf m P Hm HP) xs) = map (gfv m P Hm HP) xs). { rewrite map_map. apply map_ext. intros a. unfold gpf. apply N2Z.id. }
  unfold rs_codeword. rewrite E. split.
  - intros [_ H] i Hi. apply has_root_eval. auto.
  - intros H. split. { apply sok_gf. } intros i Hi. apply has_root_eval. auto.
Qed.

(** ** Encoder *)
Variables (w K N : nat) (pos : list nat).
Hypothesis HE : rs_enc_ctor w K N m g = Ret pos.
(** The symbols fit in the type of the elements, with a bit to spare for the sign, and the code is not shortened. *)
Hypothesis Hmw : m < w.
Hypothesis HN : N = 2 ^ m - 1.

Lemma rs_ctor_inv : 0 < K /\ N = 2 * t + K /\ length g = Datatypes.S (2 * t) /\ pos = tab (K * m) (fun k => 2 * t + k).
Proof.
  destruct rs_inv as (P & Hm & HP & _ & _ & _ & L & _). unfold rs_enc_ctor, guard in HE. destruct (Nat.ltb_spec 0 (K * m)); cbn [bind] in HE; [|discriminate]. destruct (Nat.ltb_spec 0 (N * m)); cbn [bind] in HE; [|discriminate].
  destruct (Nat.leb_spec (K * m) (N * m)); cbn [bind] in HE; [|discriminate]. destruct (Nat.eqb_spec (N - K) (length g - 1)); cbn [bind] in HE; [|discriminate]. destruct (w <? m); cbn [bind negb] in HE; [discriminate|].
  destruct S as (_ & _ & _ & Ht & _). split; [nia|]. split; [lia|]. split; auto. replace (2 * t) with (length g - 1) by lia. inversion HE. auto.
Qed.

(** Encoding writes a codeword; the message is its last K*m bits.  The members packed_U_K and bb
    can hold anything. *)
Theorem C26_encode : forall u x pu bb, length u = K * m -> bits u -> length x = N * m -> length pu = K -> length bb = N - K ->
  exists c pu' bb', rs_encode w m K N (alpha_to gf) (index_of gf) g pu bb u x = Ret (c, pu', bb') /\ length pu' = K /\ length bb' = N - K /\
    length c = N * m /\ bits c /\ rs_codeword (poly_of (gf_p gf)) m t (symbols m N c) /\ skipn ((N - K) * m) c = u.
Proof.
  intros u x pu bb Lu Bu Lx Lp Lb. destruct rs_ctor_inv as (K0 & EN & Lg & _). destruct rs_inv as (P & Hm & HP & EP & _ & TB & _ & HG). rewrite <- EP.
  destruct S as (_ & _ & _ & Ht & H2 & _). assert (NM : N * m = 2 * t * m + K * m) by (rewrite EN; ring). unfold rs_encode. rewrite rs_pack_ok by (auto; lia). cbn [bind].
  destruct (word_gf P Hm HP TB (symbols m K u)) as (us & Eu). { apply symbols_sok; auto; lia. }
  assert (Lus : length us = K) by (rewrite <- (map_length (gpf m P Hm HP)), <- Eu; apply symbols_len).
  destruct (rs_parity_code _ _ _ _ _ _ _ TB w (Hw_Z m w Hmw) t g Ht H2 Lg HG K us 0 [] [] bb) as (bb' & ps & E & L' & Lps & F1 & _ & CW); auto; try lia.
  rewrite app_nil_r in E. cbn [app] in E. rewrite <- Eu in E. assert (HNn : N = n) by exact HN. rewrite <- HNn in E. rewrite E. cbn [bind]. replace (length g - 1) with (2 * t) by lia.
  assert (Eb : bb' = map (gpf m P Hm HP) ps) by (rewrite <- F1; symmetry; apply firstn_all2; lia).
  destruct (rs_unpack_ok w m (2 * t) bb' x) as (x1 & E1 & L1 & U1 & B1 & S1); try lia.
  { intros k Hk. rewrite Eb. pose proof (sok_gf P Hm HP ps) as SK. unfold symbols_ok in SK. rewrite Forall_forall in SK. apply SK. apply nth_In. rewrite map_length. lia. }
  rewrite E1. cbn [bind]. destruct (copy_spec _ 0%Z u 0 (K * m) x1 (2 * t * m)) as (c & Ec & Lc & C1 & C2); try lia. rewrite Ec. cbn [bind].
  assert (SKc : skipn (2 * t * m) c = u). { apply (nth_ext _ _ 0%Z 0%Z). { rewrite skipn_length. lia. } intros i Hi. rewrite skipn_length in Hi. rewrite skipn_nth. rewrite C1 by lia. auto. }
  assert (FNc : firstn (2 * t * m) c = firstn (2 * t * m) x1). { apply (nth_ext _ _ 0%Z 0%Z). { rewrite !firstn_length. lia. } intros i Hi. rewrite firstn_length in Hi. rewrite !firstn_nth by lia. apply C2. lia. }
  assert (Bc : bits c). { rewrite <- (firstn_skipn (2 * t * m) c). apply Forall_app. rewrite SKc, FNc. auto. }
  exists c, (symbols m K u), bb'. split; auto. split. { apply symbols_len. } split; [lia|]. split; [lia|]. split; auto. replace (N - K) with (2 * t) by lia. split; auto.
  assert (Es : symbols m N c = map (gpf m P Hm HP) (ps ++ us)).
  { rewrite EN, symbols_app by lia. rewrite map_app. f_equal. { rewrite <- symbols_firstn, FNc, S1. rewrite Eb. apply firstn_all2. rewrite map_length. lia. } rewrite SKc. auto. }
  rewrite Es. apply (proj2 (code_gf P Hm HP _)). auto.
Qed.

(** is_codeword is exact, whatever the members packed_X_N and bb hold. *)
Theorem C26_is_codeword : forall x px bb, length x = N * m -> bits x -> length px = N -> length bb = N - K ->
  exists b, rs_is_codeword w m K N (alpha_to gf) (index_of gf) g px bb x = Ret b /\ (b = true <-> rs_codeword (poly_of (gf_p gf)) m t (symbols m N x)).
Proof.
  intros x px bb Lx Bx Lp Lb. destruct rs_ctor_inv as (K0 & EN & Lg & _). destruct rs_inv as (P & Hm & HP & EP & _ & TB & _ & HG). rewrite <- EP.
  destruct S as (_ & _ & _ & Ht & H2 & _). unfold rs_is_codeword. rewrite rs_pack_ok by (auto; lia). cbn [bind].
  destruct (word_gf P Hm HP TB (symbols m N x)) as (xs & Ex). { apply symbols_sok; auto; lia. } rewrite Ex.
  assert (Lxs : length xs = N) by (rewrite <- (map_length (gpf m P Hm HP)), <- Ex; apply symbols_len).
  set (pre := firstn (2 * t) xs). set (us := skipn (2 * t) xs).
  assert (Exs : xs = pre ++ us) by (symmetry; apply firstn_skipn).
  assert (Lpre : length pre = 2 * t) by (unfold pre; rewrite firstn_length; lia). assert (Lus : length us = K) by (unfold us; rewrite skipn_length; lia).
  destruct (rs_parity_code _ _ _ _ _ _ _ TB w (Hw_Z m w Hmw) t g Ht H2 Lg HG K us (2 * t) pre [] bb) as (bb' & ps & E & L' & Lps & F1 & _ & CW); auto; try lia.
  rewrite app_nil_r, <- Exs in E. replace (length g - 1) with (2 * t) by lia. assert (HNn : N = n) by exact HN. rewrite <- HNn in E. rewrite E. cbn [bind].
  assert (Eb : bb' = map (gpf m P Hm HP) ps) by (rewrite <- F1; symmetry; apply firstn_all2; lia).
  destruct (scan_ok (2 * t) (fun p => (nth p (map (gpf m P Hm HP) xs) 0 =? nth p bb' 0)%Z) (fun p => a <- rd (map (gpf m P Hm HP) xs) p ;; b <- rd bb' p ;; Ret (a =? b)%Z)) as (b & E1 & HB).
  { intros q Hq. rewrite (rd_ok _ 0%Z) by (rewrite map_length; lia). cbn [bind]. rewrite (rd_ok _ 0%Z) by lia. auto. }
  exists b. split; auto. rewrite HB, code_gf. split.
  - intros HQ. assert (EPS : pre = ps); [|rewrite Exs, EPS; auto].
    apply (nth_ext _ _ (f0 _) (f0 _)); [lia|]. intros j Hj. apply (tb_pf_inj _ _ _ _ _ _ _ TB). specialize (HQ j ltac:(lia)). apply Z.eqb_eq in HQ. rewrite Eb in HQ. rewrite !(nth_pf _ _ _ _ _ _ _ TB) in HQ. rewrite <- HQ. rewrite Exs, app_nth1 by lia. auto.
  - intros HC. assert (pre = ps). { apply (rs_parity_unique _ _ _ _ _ _ _ TB w t g Ht H2 Lg pre ps us); auto. rewrite <- Exs. auto. }
    intros q Hq. apply Z.eqb_eq. rewrite Eb, Exs, !(nth_pf _ _ _ _ _ _ _ TB). f_equal. rewrite app_nth1 by lia. congruence.
Qed.

(** A codeword is determined by its message. *)
Theorem C26_unique : forall c c', length c = N * m -> length c' = N * m -> bits c -> bits c' ->
  rs_codeword (poly_of (gf_p gf)) m t (symbols m N c) -> rs_codeword (poly_of (gf_p gf)) m t (symbols m N c') -> skipn ((N - K) * m) c = skipn ((N - K) * m) c' -> c = c'.
Proof.
  intros c c' Lc Lc' Bc Bc' HC HC' HS. destruct rs_ctor_inv as (K0 & EN & Lg & _). destruct rs_inv as (P & Hm & HP & EP & _ & TB & _ & HG). rewrite <- EP in *.
  destruct S as (_ & _ & _ & Ht & H2 & _). apply (symbols_inj m N); auto; try lia.
  destruct (word_gf P Hm HP TB (symbols m N c)) as (xs & Ex). { apply symbols_sok; auto; lia. } destruct (word_gf P Hm HP TB (symbols m N c')) as (xs' & Ex'). { apply symbols_sok; auto; lia. }
  rewrite Ex in *. rewrite Ex' in *. rewrite code_gf in HC. rewrite code_gf in HC'. f_equal.
  assert (Lxs : length xs = N) by (rewrite <- (map_length (gpf m P Hm HP)), <- Ex; apply symbols_len). assert (Lxs' : length xs' = N) by (rewrite <- (map_length (gpf m P Hm HP)), <- Ex'; apply symbols_len).
  rewrite EN, symbols_app in Ex by lia. rewrite EN, symbols_app in Ex' by lia. replace (N - K) with (2 * t) in HS by lia. rewrite HS in Ex.
  assert (T1 : skipn (2 * t) xs = skipn (2 * t) xs').
  { apply (map_pf_inj _ _ _ _ _ _ _ TB). rewrite <- !skipn_map, <- Ex, <- Ex'. rewrite !skipn_len_app by apply symbols_len. auto. }
  rewrite <- (firstn_skipn (2 * t) xs), <- (firstn_skipn (2 * t) xs'). rewrite T1. f_equal.
  apply (rs_parity_unique _ _ _ _ _ _ _ TB w t g Ht H2 Lg _ _ (skipn (2 * t) xs')). { rewrite firstn_length. lia. } { rewrite firstn_length. lia. }
  - intros i Hi. rewrite <- T1, firstn_skipn. auto.
  - intros i Hi. rewrite firstn_skipn. auto.
Qed.

(** ** Information positions (C27) *)
Theorem C27_positions_refuted : length pos = K * m /\ (forall k, k < K * m -> nth k pos 0 = 2 * t + k /\ nth k pos 0 <> 2 * t * m + k).
Proof.
  destruct rs_ctor_inv as (K0 & EN & Lg & ->). rewrite length_tab. split; auto. intros k Hk. rewrite nth_tab by auto. split; auto. destruct S as (Hm & _ & _ & Ht & _). nia.
Qed.
End Field.

(** ** Decoder *)
(** The result (ok, v) of decoding the bits y. *)
Definition rs_decoded (P : N) (m t N : nat) (y : list Z) (ok : bool) (v : list Z) : Prop :=
  length v = N * m /\ bits v /\
  (** a failure leaves the word unchanged, *)
  (ok = false -> v = y) /\
  (** a codeword that differs in at most t symbols is found, *)
  (forall c, length c = N * m -> bits c -> rs_codeword P m t (symbols m N c) -> hdist (symbols m N y) (symbols m N c) <= t -> ok = true /\ v = c) /\
  (** and a success means that such a codeword was found. *)
  (ok = true -> rs_codeword P m t (symbols m N v) /\ hdist (symbols m N y) (symbols m N v) <= t).

(** Successive calls of the decoder (decode_hiho_cw) from the constructed work space. *)
Fixpoint rs_calls (w t N n m : nat) (alpha index : list Z) (ys : list (list Z)) (yh v : list Z) (k : rs_mem) : outcome (list (bool * bool * list Z)) :=
  match ys with
  | [] => Ret []
  | y :: ys => ' r <- rs_decode_hiho_cw w t N n alpha index m y yh k v ;;
               let '(ok, cw, v, yh, k) := r in
               rs <- rs_calls w t N n m alpha index ys yh v k ;; Ret ((ok, cw, v) :: rs)
  end.

Section Use.
Variables (w0 : Z) (m : nat) (p : list Z) (t : nat) (gf : galois) (g : list Z).
Hypothesis S : rs_setup w0 m p t gf g.
Variables (w K N n : nat).
Hypothesis HC : rs_dec_ctor K N m (length g - 1) = Ret n.
Hypothesis Hmw : m < w.
(** The length of the code matches the field, and the int expressions do not overflow. *)
Hypothesis HN : 2 ^ (m - 1) <= N < 2 ^ m.
Hypothesis Hint : (Z.of_nat (2 * t) * (2 ^ Z.of_nat m - 1) + (2 ^ Z.of_nat m - 1) < 2 ^ 31)%Z.

Lemma rs_dec_inv : 0 < K /\ N = 2 * t + K /\ n = 2 ^ m - 1 /\ length g = Datatypes.S (2 * t).
Proof.
  destruct (rs_inv _ _ _ _ _ _ S) as (P & Hm & HP & _ & _ & _ & L & _).
  unfold rs_dec_ctor, guard in HC. destruct (Nat.ltb_spec 0 (K * m)); cbn [bind] in HC; [|discriminate]. destruct (Nat.ltb_spec 0 (N * m)); cbn [bind] in HC; [|discriminate].
  destruct (Nat.leb_spec (K * m) (N * m)); cbn [bind] in HC; [|discriminate]. destruct (Nat.eqb_spec (N - K) (length g - 1)); cbn [bind] in HC; [|discriminate].
  rewrite (next_pow2_ok m) in HC by lia. inversion HC. destruct S as (_ & _ & _ & Ht & _). repeat split; auto; nia.
Qed.

(** The domain: any word if the code is not shortened, otherwise the words within t errors of a codeword. *)
Definition rs_input (y : list Z) : Prop := length y = N * m /\ bits y /\
  (N = 2 ^ m - 1 \/ exists c, length c = N * m /\ bits c /\ rs_codeword (poly_of (gf_p gf)) m t (symbols m N c) /\ hdist (symbols m N y) (symbols m N c) <= t).

Lemma rs_one_call : forall y k, rs_input y -> rmem_ok n t k ->
  exists ok ys' k', rs_decode w t N n (alpha_to gf) (index_of gf) (symbols m N y) k = Ret (ok, ok, ys', k') /\ rmem_ok n t k' /\ length ys' = N /\ symbols_ok m ys' /\
   forall v, length v = N * m -> bits v -> symbols m N v = ys' -> rs_decoded (poly_of (gf_p gf)) m t N y ok v.
Proof.
  intros y k (Ly & By & CASE) MK. destruct rs_dec_inv as (K0 & EN & En & Lg). destruct (rs_inv _ _ _ _ _ _ S) as (P & Hm & HP & EP & _ & TB & _ & HG). rewrite <- EP in *. subst n.
  destruct S as (_ & _ & _ & Ht & H2 & _).
  assert (ZN := n_Zn m).
  destruct (word_gf m gf P Hm HP TB (symbols m N y)) as (ys & Ey). { apply symbols_sok; auto; lia. } rewrite Ey.
  assert (Lys : length ys = N) by (rewrite <- (map_length (gpf m P Hm HP)), <- Ey; apply symbols_len).
  destruct (rs_decode_ok _ _ _ _ _ _ _ TB t N Ht H2 ltac:(lia) ltac:(rewrite ZN; exact Hint) w (Hw_Z m w Hmw) ys k Lys MK) as (ok & ys' & k' & E & MK' & Ly' & J1 & J2 & J3).
  { destruct CASE as [|(c & Lc & Bc & HCc & HD)]; auto. right. destruct (word_gf m gf P Hm HP TB (symbols m N c)) as (cs & Ec). { apply symbols_sok; auto; lia. } rewrite Ec in *. rewrite Ey in HD. exists cs. split. { rewrite <- (map_length (gpf m P Hm HP)), <- Ec. apply symbols_len. } split; auto. apply (proj1 (code_gf m t P Hm HP _)). auto. }
  exists ok, (map (gpf m P Hm HP) ys'), k'. split; auto. split; auto. split. { rewrite map_length. auto. } split. { apply sok_gf. }
  intros v Lv Bv Ev. unfold rs_decoded. split; auto. split; auto. split; [|split].
  - intros Hk. specialize (J1 Hk). subst ys'. apply (symbols_inj m N); auto; try lia. congruence.
  - intros c Lc Bc HCc HD. destruct (word_gf m gf P Hm HP TB (symbols m N c)) as (cs & Ec). { apply symbols_sok; auto; lia. } rewrite Ec in *. rewrite Ey in HD. rewrite code_gf in HCc.
    destruct (J2 cs) as [Hk Hcs]; auto. { rewrite <- (map_length (gpf m P Hm HP)), <- Ec. apply symbols_len. } split; auto. apply (symbols_inj m N); auto; try lia. congruence.
  - intros Hk. destruct (J3 Hk) as [A B]. rewrite Ev, Ey. split; auto. apply (proj2 (code_gf m t P Hm HP _)). auto.
Qed.

(** Every call, whatever the previous ones, returns normally, reports cw as ok, and meets the
    specification. *)
Theorem C26_decode : forall ys yh v, Forall rs_input ys -> length yh = N -> length v = N * m ->
  exists rs, rs_calls w t N n m (alpha_to gf) (index_of gf) ys yh v (rs_mem_init t n) = Ret rs /\
    Forall2 (fun y r => let '(ok, cw, y') := r in cw = ok /\ rs_decoded (poly_of (gf_p gf)) m t N y ok y') ys rs.
Proof.
  intros ys yh v HY Lh Lv. pose proof (rmem_init_ok n t) as MK. revert yh v Lh Lv MK. generalize (rs_mem_init t n). destruct rs_dec_inv as (K0 & EN & En & Lg). assert (Hm : 2 <= m) by apply S.
  induction HY as [|y ys RI HY IH]; intros mem yh v Lh Lv MK; cbn [rs_calls].
  - exists []. split; auto.
  - unfold rs_decode_hiho_cw. pose proof RI as (Ly & By & _). rewrite rs_pack_ok by (auto; lia). cbn [bind]. destruct (rs_one_call y mem RI MK) as (ok & y' & mem' & E & MK' & Ly' & SK & J). rewrite E. cbn [bind].
    destruct (rs_unpack_ok w m N y' v) as (v' & Eu & Lv' & _ & Bv & Sv); try lia. { intros k Hk. unfold symbols_ok in SK. rewrite Forall_forall in SK. apply SK. apply nth_In. lia. }
    rewrite Eu. cbn [bind]. rewrite (firstn_all2 (n := N * m) v') in * by lia. rewrite (firstn_all2 (n := N) y') in Sv by lia.
    destruct (IH mem' y' v' Ly' ltac:(lia) MK') as (rs & ER & F). rewrite ER. cbn [bind]. eexists. split; [reflexivity|]. constructor; auto. split; auto. apply J; auto. lia.
Qed.

(** Encoding, changing at most t symbols and decoding gives the message back. *)
Theorem C26_message : forall pos u x c pu bb pu' bb' y yh v, N = 2 ^ m - 1 -> rs_enc_ctor w K N m g = Ret pos -> length u = K * m -> bits u -> length x = N * m -> length pu = K -> length bb = N - K ->
  rs_encode w m K N (alpha_to gf) (index_of gf) g pu bb u x = Ret (c, pu', bb') ->
  length y = N * m -> bits y -> hdist (symbols m N y) (symbols m N c) <= t -> length yh = N -> length v = K * m ->
  exists yh' mem, rs_decode_hiho w t N n (alpha_to gf) (index_of gf) m K (length g - 1) y yh (rs_mem_init t n) v = Ret (true, true, u, yh', mem).
Proof.
  intros pos u x c pu bb pu' bb' y yh v Nn Ec Lu Bu Lx Lp Lb Ee Ly By HD Lh Lv. destruct rs_dec_inv as (K0 & EN & En & Lg). assert (Hm : 2 <= m) by apply S.
  destruct (C26_encode w0 m p t gf g S w K N pos Ec Hmw Nn u x pu bb Lu Bu Lx Lp Lb) as (c' & ? & ? & E' & _ & _ & Lc & Bc & CW & HU). rewrite Ee in E'. inversion E'; subst c'. clear E'.
  unfold rs_decode_hiho. rewrite rs_pack_ok by (auto; lia). cbn [bind]. destruct (rs_one_call y _ ltac:(split; [|split]; auto) (rmem_init_ok n t)) as (ok & ys' & mem' & E & MK' & Ly' & SK & J). rewrite E. cbn [bind].
  assert (RNG : forall k, k < N -> (0 <= nth k ys' 0 < 2 ^ Z.of_nat m)%Z). { intros k Hk. unfold symbols_ok in SK. rewrite Forall_forall in SK. apply SK. apply nth_In. lia. }
  destruct (rs_unpack_ok w m N ys' (repeat 0%Z (N * m))) as (v1 & _ & Lv1 & _ & Bv1 & Sv1); try lia; auto. { rewrite repeat_length. lia. }
  rewrite repeat_length in Lv1. rewrite (firstn_all2 (n := N * m) v1) in * by lia. rewrite (firstn_all2 (n := N) ys') in Sv1 by lia.
  destruct (J v1 Lv1 Bv1 Sv1) as (_ & _ & _ & J2 & _). destruct (J2 c Lc Bc CW HD) as [-> ->]. clear J J2.
  destruct (rs_unpack_ok w m K (skipn (length g - 1) ys') v) as (v' & Eu & Lv' & _ & Bv & Sv); try lia. { rewrite skipn_length. lia. } { intros k Hk. rewrite skipn_nth. apply RNG. lia. }
  rewrite Eu. cbn [bind]. exists ys', mem'. rewrite (firstn_all2 (n := K * m) v') in * by lia.
  assert (Ev : v' = u). { apply (symbols_inj m K); auto; try lia. rewrite Sv. rewrite firstn_all2 by (rewrite skipn_length; lia). rewrite <- Sv1. rewrite EN, symbols_app by lia.
    replace (length g - 1) with (2 * t) by lia. rewrite skipn_len_app by apply symbols_len. f_equal. rewrite <- HU. f_equal. lia. }
  rewrite Ev. auto.
Qed.
End Use.

(** Distinct codewords differ in at least 2t + 1 symbols. *)
Theorem C26_distance : forall w m p t gf g, rs_setup w m p t gf g -> forall N c c', N <= 2 ^ m - 1 -> length c = N -> length c' = N ->
  rs_codeword (poly_of (gf_p gf)) m t c -> rs_codeword (poly_of (gf_p gf)) m t c' -> c <> c' -> 2 * t + 1 <= hdist c c'.
Proof.
  intros w m p t gf g S N c c' HN Lc Lc' HC HC' NE. destruct (le_lt_dec (2 * t + 1) (hdist c c')) as [|HD]; auto. exfalso. apply NE.
  destruct (rs_inv _ _ _ _ _ _ S) as (P & Hm & HP & EP & _ & TB & _ & HG). rewrite <- EP in *.
  destruct (word_gf m gf P Hm HP TB c) as (xs & ->). { apply HC. } destruct (word_gf m gf P Hm HP TB c') as (xs' & ->). { apply HC'. } rewrite code_gf in HC. rewrite code_gf in HC'. rewrite map_length in *.
  f_equal. apply (rs_unique _ _ _ _ _ _ _ TB t N); auto. { rewrite <- (rs_hdist_supp _ _ _ _ _ _ _ TB) by auto. lia. } intros k Hk. rewrite HC, HC' by auto. auto.
Qed.

(** ** Where the property fails *)
Definition ex3_gf : galois := match galois_ctor 32 7 [] with Ret g => g | _ => Build_galois 0 0 [] [] [] end.
Definition ex3_g : list Z := match rs_poly ex3_gf 1 with Ret g => g | _ => [] end.
Lemma ex3_setup : rs_setup 32 3 [] 1 ex3_gf ex3_g.
Proof. unfold rs_setup. split; [lia|]. split; [lia|]. split; [auto|]. split; [lia|]. split; [cbn; lia|]. split; vm_compute; reflexivity. Qed.

(** In a shortened code the encoder reduces exponents modulo N instead of the order of the field: its
    output is not a codeword, and is_codeword, which makes the same mistake, accepts it. *)
Theorem C26_short_encode_refuted : rs_setup 32 3 [] 1 ex3_gf ex3_g /\ (exists pos, rs_enc_ctor 8 4 6 3 ex3_g = Ret pos) /\ rs_dec_ctor 4 6 3 (length ex3_g - 1) = Ret 7 /\
  let u := [0;0;1;0;0;0;0;0;0;0;0;0]%Z in let c := [1;1;1;1;0;0;0;0;1;0;0;0;0;0;0;0;0;0]%Z in
  (exists pu bb, rs_encode 8 3 4 6 (alpha_to ex3_gf) (index_of ex3_gf) ex3_g (repeat 0%Z 4) (repeat 0%Z 2) u (repeat 0%Z 18) = Ret (c, pu, bb)) /\
  ~ rs_codeword (poly_of (gf_p ex3_gf)) 3 1 (symbols 3 6 c) /\
  rs_is_codeword 8 3 4 6 (alpha_to ex3_gf) (index_of ex3_gf) ex3_g (repeat 0%Z 6) (repeat 0%Z 2) c = Ret true.
Proof.
  pose proof ex3_setup as S. split; auto. split. { eexists. vm_compute. reflexivity. } split; [vm_compute; reflexivity|]. cbv zeta.
  split. { eexists. eexists. vm_compute. reflexivity. } split; [|vm_compute; reflexivity].
  intros C. destruct (rs_inv _ _ _ _ _ _ S) as (P & Hm & HP & EP & _ & TB & _ & _). rewrite <- EP in C.
  destruct (word_gf 3 ex3_gf P Hm HP TB _ (proj1 C)) as (xs & Ex). rewrite Ex in C. rewrite code_gf in C.
  assert (L : length xs = 6) by (rewrite <- (map_length (gpf 3 P Hm HP)), <- Ex; reflexivity).
  destruct (rs_syndromes_ok _ _ _ _ _ _ _ TB 1 6 ltac:(lia) ltac:(cbn; lia) ltac:(cbn; lia) ltac:(cbn; lia) xs (repeat 0%Z 3) L eq_refl) as (s & b & E & _ & _ & HB).
  apply HB in C. subst b. rewrite <- Ex in E. vm_compute in E. discriminate.
Qed.

(** In a shortened code the decoder corrects symbols after the end of the word: with two errors, more
    than t = 1, it accesses memory out of bounds. *)
Theorem C26_short_decode_refuted : rs_setup 32 3 [] 1 ex3_gf ex3_g /\ rs_dec_ctor 4 6 3 (length ex3_g - 1) = Ret 7 /\
  rs_decode_hiho_cw 8 1 6 7 (alpha_to ex3_gf) (index_of ex3_gf) 3 [1;0;0;1;1;0;0;0;0;0;0;0;0;0;0;0;0;0]%Z (repeat 0%Z 6) (rs_mem_init 1 7) (repeat 0%Z 18) = Undef.
Proof. split. { apply ex3_setup. } split; vm_compute; reflexivity. Qed.

(** With symbols as wide as the type (for example m = 8 and 8-bit elements) the constructor accepts the code,
    but the encoder indexes a table with a negative number as soon as the last bit of the message is 1. *)
Theorem C26_width_refuted : forall w m p t gf g K N pos, rs_setup w m p t gf g -> rs_enc_ctor m K N m g = Ret pos ->
  forall u x pu bb, length u = K * m -> bits u -> nth (K * m - 1) u 0%Z = 1%Z -> length pu = K -> length bb = N - K ->
  rs_encode m m K N (alpha_to gf) (index_of gf) g pu bb u x = Undef.
Proof.
  intros w m p t gf g K N pos S HE u x pu bb Lu Bu Hl Lp Lb. assert (Hm : 2 <= m) by apply S. assert (Ht : 1 <= t) by apply S.
  destruct (rs_inv _ _ _ _ _ _ S) as (P & Hm' & HP & _ & _ & _ & Lg & _). unfold rs_enc_ctor, guard in HE. destruct (Nat.ltb_spec 0 (K * m)); cbn [bind] in HE; [|discriminate]. destruct (Nat.ltb_spec 0 (N * m)); cbn [bind] in HE; [|discriminate].
  destruct (Nat.leb_spec (K * m) (N * m)); cbn [bind] in HE; [|discriminate]. destruct (Nat.eqb_spec (N - K) (length g - 1)) as [EN|]; cbn [bind] in HE; [|discriminate]. assert (K0 : 0 < K) by nia. clear HE H H0 H1.
  unfold rs_encode, rs_pack. assert (SF := symbols_for_mul K m ltac:(lia)).
  destruct (pack_ptr_spec m u pu (K * m) 1 false m) as (o & E & L & H & _); try lia. { left. lia. }
  rewrite E. cbn [bind].
  rewrite SF in H. specialize (H 0 (K - 1) ltac:(lia) ltac:(lia)). replace (0 * K + (K - 1)) with (K - 1) in H by lia. unfold symb_ok in H. destruct H as [R H]. specialize (H (m - 1) ltac:(lia)).
  cbv iota in H. replace (Nat.min m (K * m - (K - 1) * m)) with m in H by nia. destruct (Nat.ltb_spec (m - 1) m); [|lia]. cbn [andb] in H. rewrite nth_bits_of in H. replace (0 * (K * m) + ((K - 1) * m + (m - 1))) with (K * m - 1) in H by nia. rewrite Hl in H.
  set (v := nth (K - 1) o 0%Z) in *.
  assert (NEG : (cast (Z.of_nat m) v < 0)%Z).
  { assert (W : (2 ^ Z.of_nat m = 2 * 2 ^ (Z.of_nat m - 1))%Z). { replace (Z.of_nat m) with (Z.succ (Z.of_nat m - 1)) at 1 by lia. apply Z.pow_succ_r. lia. }
    assert (TOP : (2 ^ (Z.of_nat m - 1) <= v)%Z). { destruct (Z_lt_le_dec v (2 ^ (Z.of_nat m - 1))); auto. exfalso. rewrite (bound_bits v (m - 1)) in H; [discriminate| |lia]. rewrite Nat2Z.inj_sub by lia. change (Z.of_nat 1) with 1%Z. lia. }
    unfold cast. replace (v + 2 ^ (Z.of_nat m - 1))%Z with (v - 2 ^ (Z.of_nat m - 1) + 1 * 2 ^ Z.of_nat m)%Z by lia. pose proof (Z.pow_pos_nonneg 2 (Z.of_nat m - 1) ltac:(lia) ltac:(lia)). rewrite Z.mod_add by lia. rewrite Z.mod_small by lia. lia. }
  unfold rs_parity. destruct (fill_spec _ 0%Z (length g - 1) bb 0 0%Z) as (p0 & E0 & L0 & Z0 & U0). { lia. } rewrite E0. cbn [bind].
  destruct K as [|K']; [lia|]. unfold for_. cbn [for_from]. replace (0 + (Datatypes.S K' - 1 - 0)) with (Datatypes.S K' - 1) by lia.
  rewrite (rd_ok _ 0%Z) by (rewrite map_length; lia). cbn [bind]. rewrite (rd_ok _ 0%Z) by lia. cbn [bind].
  replace (nth (length g - 1 - 1) p0 0%Z) with 0%Z by (symmetry; apply (Z0 (length g - 1 - 1)); lia). rewrite Z.lxor_0_r.
  rewrite (nth_indep _ _ (cast (Z.of_nat m) 0%Z)) by (rewrite map_length; lia). rewrite map_nth. fold v.
  unfold rdz. destruct (Z.ltb_spec (cast (Z.of_nat m) v) 0); [|lia]. reflexivity.
Qed.
(** For instance with 8-bit elements and m = 8. *)
Example C26_width_example : exists gf g pos, rs_setup 32 8 [] 1 gf g /\ rs_enc_ctor 8 253 255 8 g = Ret pos.
Proof.
  destruct (C26_generator 32 8 [] 1) as (gf & g & S & L); try lia; auto. { cbn. lia. } exists gf, g. eexists. split; eauto. unfold rs_enc_ctor. rewrite L.
  rewrite (proj2 (Nat.ltb_lt 0 (253 * 8))) by lia. rewrite (proj2 (Nat.ltb_lt 0 (255 * 8))) by lia. rewrite (proj2 (Nat.leb_le (253 * 8) (255 * 8))) by lia. cbn [guard bind Nat.eqb Nat.sub Nat.add Nat.mul Nat.ltb Nat.leb negb]. reflexivity.
Qed.

(** The information positions select other bits than the message. *)
Example C27_example : (exists pos, rs_enc_ctor 8 5 7 3 ex3_g = Ret pos /\
  let u := [1;1;0;0;0;0;0;0;0;0;0;0;0;0;0]%Z in let c := [1;0;1;1;0;0;1;1;0;0;0;0;0;0;0;0;0;0;0;0;0]%Z in
  (exists pu bb, rs_encode 8 3 5 7 (alpha_to ex3_gf) (index_of ex3_gf) ex3_g (repeat 0%Z 5) (repeat 0%Z 2) u (repeat 0%Z 21) = Ret (c, pu, bb)) /\
  skipn 6 c = u /\ map (fun q => nth q c 0%Z) pos <> u).
Proof. eexists. split; [vm_compute; reflexivity|]. cbv zeta. split. { eexists. eexists. vm_compute. reflexivity. } split; [vm_compute; reflexivity|]. vm_compute. discriminate. Qed.

(** The (7, 5) code meets the hypotheses: a message is encoded, three bits of a symbol are changed, and it is decoded. *)
Example C26_example : rs_setup 32 3 [] 1 ex3_gf ex3_g /\ (exists pos, rs_enc_ctor 8 5 7 3 ex3_g = Ret pos) /\ rs_dec_ctor 5 7 3 (length ex3_g - 1) = Ret 7 /\
  let u := [1;1;0;0;1;1;1;0;0;1;1;1;0;0;1]%Z in let c := [0;1;1;0;1;1;1;1;0;0;1;1;1;0;0;1;1;1;0;0;1]%Z in let y := [0;1;1;0;1;1;1;1;0;1;0;0;1;0;0;1;1;1;0;0;1]%Z in
  (exists pu bb, rs_encode 8 3 5 7 (alpha_to ex3_gf) (index_of ex3_gf) ex3_g (repeat 0%Z 5) (repeat 0%Z 2) u (repeat 0%Z 21) = Ret (c, pu, bb)) /\ hdist (symbols 3 7 y) (symbols 3 7 c) = 1 /\
  exists yh mem, rs_decode_hiho 8 1 7 7 (alpha_to ex3_gf) (index_of ex3_gf) 3 5 2 y (repeat 0%Z 7) (rs_mem_init 1 7) (repeat 0%Z 15) = Ret (true, true, u, yh, mem).
Proof.
  split. { apply ex3_setup. } split. { eexists. vm_compute. reflexivity. } split; [vm_compute; reflexivity|]. cbv zeta.
  split. { eexists. eexists. vm_compute. reflexivity. } split; [vm_compute; reflexivity|]. eexists. eexists. vm_compute. reflexivity.
Qed.
