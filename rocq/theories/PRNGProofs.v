(** Proofs about the Mersenne twister. *)
From Coq Require Import List Arith Lia Bool ZArith.
From Verif Require Import Base PRNGModel PRNGSpec.
Import ListNotations.

Definition word32 (z : Z) : Prop := (0 <= z < 2 ^ 32)%Z.

Lemma word_testbit : forall z i, word32 z -> (32 <= i)%Z -> Z.testbit z i = false.
Proof. intros z i [H1 H2] Hi. destruct (Z.eq_dec z 0) as [-> | Hz]; [apply Z.testbit_0_l|]. apply Z.bits_above_log2; [lia|]. assert (Z.log2 z < 32)%Z by (apply Z.log2_lt_pow2; lia). lia. Qed.

Lemma word_of_bits : forall z, (0 <= z)%Z -> (forall i, (32 <= i)%Z -> Z.testbit z i = false) -> word32 z.
Proof.
  intros z Hz H. split; [exact Hz|]. destruct (Z.lt_ge_cases z (2 ^ 32)) as [L|L]; [exact L|]. exfalso.
  assert (L2 : (32 <= Z.log2 z)%Z) by (apply Z.log2_le_pow2; lia). specialize (H _ L2). rewrite Z.bit_log2 in H by lia. discriminate.
Qed.

Lemma word_lxor : forall a b, word32 a -> word32 b -> word32 (Z.lxor a b).
Proof. intros a b A B. apply word_of_bits; [apply Z.lxor_nonneg; unfold word32 in *; lia|]. intros i Hi. rewrite Z.lxor_spec, !word_testbit by assumption. reflexivity. Qed.

Lemma join_model : forall a b, word32 a -> word32 b -> Z.lor (M32 a) (L31 b) = join a b /\ word32 (join a b).
Proof.
  intros a b A B. assert (E : join a b = Z.lor (Z.shiftl (Z.shiftr a 31) 31) (Z.land b (Z.ones 31))).
  { unfold join. rewrite Z.land_ones by lia. rewrite Z.shiftl_mul_pow2, Z.shiftr_div_pow2 by lia. symmetry. rewrite Z.add_comm, Z.lor_comm. 
    rewrite <- Z.land_ones by lia. rewrite <- (Z.shiftr_div_pow2 a 31), <- Z.shiftl_mul_pow2 by lia.
    symmetry. rewrite Z.add_nocarry_lxor; [rewrite Z.lxor_lor|]; try reflexivity;
    apply Z.bits_inj'; intros i Hi; rewrite Z.bits_0, Z.land_spec, Z.land_spec, Z.shiftl_spec by lia; (destruct (Z.lt_ge_cases i 31) as [L|L]; [rewrite (Z.testbit_neg_r _ (i - 31)) by lia; rewrite ?andb_false_r; reflexivity|rewrite Z.ones_spec_high by lia; rewrite ?andb_false_r; reflexivity]). }
  assert (E2 : Z.lor (M32 a) (L31 b) = join a b).
  { rewrite E. apply Z.bits_inj'. intros i Hi. rewrite !Z.lor_spec. unfold M32, L31. rewrite !Z.land_spec, Z.shiftl_spec by lia.
    change 2147483648%Z with (2 ^ 31)%Z. change 2147483647%Z with (Z.ones 31). rewrite Z.pow2_bits_eqb by lia. destruct (Z.eqb_spec 31 i) as [<-|Hne].
    - rewrite Z.shiftr_spec by lia. rewrite Z.ones_spec_high by lia. change (31 - 31 + 31)%Z with 31%Z. rewrite andb_false_r. reflexivity.
    - cbn [andb orb]. rewrite (andb_comm (Z.testbit b i)). destruct (Z.lt_ge_cases i 31) as [L|L].
      + rewrite (Z.testbit_neg_r _ (i - 31)) by lia. reflexivity.
      + rewrite Z.shiftr_spec by lia. rewrite (word_testbit a) by (auto; lia). reflexivity. }
  split; [exact E2|]. rewrite <- E2. unfold M32, L31. apply word_of_bits.
  - apply Z.lor_nonneg. split; apply Z.land_nonneg; left; lia.
  - intros i Hi. rewrite Z.lor_spec, !Z.land_spec, (word_testbit a i), (word_testbit b i) by assumption. rewrite !andb_false_r. reflexivity.
Qed.

Lemma timesA_model : forall y, word32 y -> Z.lxor (Z.shiftr y 1) (MATRIX (Z.land y 1)) = timesA y /\ word32 (timesA y).
Proof.
  intros y Y. unfold timesA, MATRIX. rewrite <- Z.div2_spec, Z.div2_div. change 1%Z with (Z.ones 1) at 1. rewrite Z.land_ones by lia. change (2 ^ 1)%Z with 2%Z. rewrite Zmod_odd.
  assert (W : word32 (y / 2)) by (unfold word32 in *; split; [apply Z.div_pos; lia|apply Z.div_lt_upper_bound; lia]).
  destruct (Z.odd y); cbn [Z.eqb]; (split; [|]).
  - reflexivity.
  - apply word_lxor; [exact W|unfold word32; lia].
  - apply Z.lxor_0_r.
  - exact W.
Qed.

Section Gen.
Variables (seed : Z) (x : nat -> Z).
Hypothesis X : mt19937 seed x.
Hypothesis W0 : word32 seed.

Lemma x_word : forall k, word32 (x k).
Proof.
  destruct X as (X0 & X1 & X2). induction k as [k IH] using lt_wf_ind. destruct (Nat.eq_dec k 0) as [-> | Hk]; [rewrite X0; exact W0|].
  destruct (Nat.lt_ge_cases k 624) as [L|L].
  - rewrite X1 by lia. apply Z.mod_pos_bound. lia.
  - replace k with (k - 624 + 624) by lia. rewrite X2. apply word_lxor; [apply IH; lia|]. apply timesA_model. apply join_model; apply IH; lia.
Qed.

(** The array when i words of the block b+1 have replaced those of the block b. *)
Definition arr (b i : nat) (MT : list Z) : Prop :=
  length MT = SIZE /\ forall j, j < SIZE -> nth j MT 0%Z = x (SIZE * b + j + if j <? i then SIZE else 0).

Lemma cell : forall b i MT, arr b i MT -> i < SIZE -> nth i MT 0%Z = x (SIZE * b + i).
Proof. intros b i MT [_ H] Hi. rewrite H by exact Hi. rewrite Nat.ltb_irrefl. f_equal. lia. Qed.

Lemma put : forall b i MT, arr b i MT -> i < SIZE -> arr b (S i) (upd MT i (x (SIZE * b + i + SIZE))).
Proof.
  intros b i MT [L H] Hi. split; [rewrite length_upd; exact L|]. intros j Hj. destruct (Nat.eq_dec j i) as [-> | Hne].
  - rewrite nth_upd_eq by lia. destruct (Nat.ltb_spec i (S i)); [reflexivity|lia].
  - rewrite nth_upd_neq by auto. rewrite H by exact Hj. destruct (Nat.ltb_spec j i), (Nat.ltb_spec j (S i)); try reflexivity; lia.
Qed.

(** The new word, from the three words that are read. *)
Lemma fresh : forall b i u v w, u = x (SIZE * b + i) -> v = x (SIZE * b + i + 1) -> w = x (SIZE * b + i + PERIOD) ->
  Z.lxor (Z.lxor w (Z.shiftr (Z.lor (M32 u) (L31 v)) 1)) (MATRIX (Z.land (Z.lor (M32 u) (L31 v)) 1)) = x (SIZE * b + i + SIZE).
Proof.
  intros b i u v w -> -> ->. destruct (join_model (x (SIZE * b + i)) (x (SIZE * b + i + 1)) (x_word _) (x_word _)) as [J1 J2]. rewrite J1.
  destruct X as (_ & _ & X2). specialize (X2 (SIZE * b + i)). change 624 with SIZE in X2. change 397 with PERIOD in X2. rewrite X2. rewrite Z.lxor_assoc. rewrite (proj1 (timesA_model _ J2)). reflexivity.
Qed.

Lemma PS : 0 < PERIOD /\ PERIOD < SIZE /\ DIFF = SIZE - PERIOD /\ DIFF - 1 = 2 * 113 /\ SIZE - 1 - DIFF = 11 * 36.
Proof. vm_compute. repeat split; lia. Qed.

Lemma unroll_ok : forall b e i MT, arr b i MT -> i + 1 < SIZE -> e i = (if i + PERIOD <? SIZE then i + PERIOD else i + PERIOD - SIZE) ->
  exists MT', UNROLL e (i, MT) = Ret (i + 1, MT') /\ arr b (i + 1) MT'.
Proof.
  intros b e i MT A Hi He. destruct PS as (P1 & P2 & _). pose proof A as [L H]. unfold UNROLL. rewrite (rd_ok _ 0%Z) by lia. cbn [bind]. rewrite (rd_ok _ 0%Z) by lia. cbn [bind]. cbv zeta.
  assert (He' : e i < SIZE) by (rewrite He; destruct (Nat.ltb_spec (i + PERIOD) SIZE); lia).
  rewrite (rd_ok _ 0%Z) by lia. cbn [bind]. rewrite wr_ok by lia. cbn [bind]. eexists. split; [reflexivity|].
  rewrite (fresh b i).
  - rewrite Nat.add_1_r. apply put; [exact A|lia].
  - apply (cell b i MT A). lia.
  - rewrite H by lia. destruct (Nat.ltb_spec (i + 1) i); [lia|]. f_equal. lia.
  - rewrite H by exact He'. rewrite He. destruct (Nat.ltb_spec (i + PERIOD) SIZE).
    + destruct (Nat.ltb_spec (i + PERIOD) i); [lia|]. f_equal. lia.
    + destruct (Nat.ltb_spec (i + PERIOD - SIZE) i); [|lia]. f_equal. lia.
Qed.

Lemma times_ok : forall n b e i MT, arr b i MT -> i + n < SIZE -> (forall k, i <= k < i + n -> e k = if k + PERIOD <? SIZE then k + PERIOD else k + PERIOD - SIZE) ->
  exists MT', times n (UNROLL e) (i, MT) = Ret (i + n, MT') /\ arr b (i + n) MT'.
Proof.
  intros n b e i MT A Hi He. unfold times. destruct (for_inv _ (fun k '(i', MT') => i' = i + k /\ arr b i' MT') n (fun _ a => UNROLL e a) (i, MT)) as ([i' MT'] & E & -> & A').
  - split; [lia|exact A].
  - intros k [i' MT'] Hk (-> & A'). destruct (unroll_ok b e (i + k) MT' A') as (MT2 & E2 & A2); [lia|apply He; lia|]. exists (i + k + 1, MT2). split; [exact E2|]. split; [lia|exact A2].
  - exists MT'. auto.
Qed.

Lemma while_ok : forall t n fuel b e i MT bound, arr b i MT -> 0 < n -> t <= fuel -> i + t * n = bound -> bound < SIZE -> (forall k, i <= k < bound -> e k = if k + PERIOD <? SIZE then k + PERIOD else k + PERIOD - SIZE) ->
  exists MT', while_below fuel bound (times n (UNROLL e)) (i, MT) = Ret (bound, MT') /\ arr b bound MT'.
Proof.
  induction t as [|t IH]; intros n fuel b e i MT bound A Hn Hf Hb Hs He.
  - assert (i = bound) by lia. subst i. exists MT. split; [|exact A]. destruct fuel; cbn [while_below fst]; rewrite Nat.ltb_irrefl; reflexivity.
  - destruct fuel as [|fuel]; [lia|]. cbn [while_below fst]. destruct (Nat.ltb_spec i bound); [|nia].
    destruct (times_ok n b e i MT A) as (MT1 & E1 & A1); [nia|intros k Hk; apply He; nia|]. rewrite E1. cbn [bind]. apply (IH n fuel b e (i + n) MT1 bound A1); try lia. intros k Hk. apply He. lia.
Qed.

Lemma generate_ok : forall b MT, arr b 0 MT -> exists MT', generate_numbers MT = Ret MT' /\ arr (S b) 0 MT'.
Proof.
  intros b MT A. destruct PS as (P1 & P2 & P3 & P4 & P5). unfold generate_numbers.
  destruct (while_ok 113 2 SIZE b (fun i => i + PERIOD) 0 MT (DIFF - 1) A) as (MT1 & E1 & A1); try lia.
  { intros k Hk. destruct (Nat.ltb_spec (k + PERIOD) SIZE); lia. }
  rewrite E1. cbn [bind].
  destruct (unroll_ok b (fun i => (i + PERIOD) mod SIZE) (DIFF - 1) MT1 A1) as (MT2 & E2 & A2); [lia| |].
  { destruct (Nat.ltb_spec (DIFF - 1 + PERIOD) SIZE); [|lia]. apply Nat.mod_small. lia. }
  rewrite E2. cbn [bind]. replace (DIFF - 1 + 1) with DIFF in * by lia.
  destruct (while_ok 36 11 SIZE b (fun i => i - DIFF) DIFF MT2 (SIZE - 1) A2) as (MT3 & E3 & A3); try lia.
  { intros k Hk. destruct (Nat.ltb_spec (k + PERIOD) SIZE); lia. }
  rewrite E3. cbn [bind]. pose proof A3 as [L H]. rewrite !(rd_ok _ 0%Z) by lia. cbn [bind]. cbv zeta. cbn [bind]. rewrite wr_ok by lia.
  eexists. split; [reflexivity|]. rewrite (fresh b (SIZE - 1)).
  - pose proof (put b (SIZE - 1) MT3 A3 ltac:(lia)) as [L4 H4]. split; [exact L4|]. intros j Hj. rewrite (H4 j Hj). destruct (Nat.ltb_spec j (S (SIZE - 1))); [|lia].
    destruct (Nat.ltb_spec j 0); [lia|]. f_equal. lia.
  - apply (cell b (SIZE - 1) MT3 A3). lia.
  - rewrite H by lia. destruct (Nat.ltb_spec 0 (SIZE - 1)); [|lia]. f_equal. lia.
  - rewrite H by lia. destruct (Nat.ltb_spec (PERIOD - 1) (SIZE - 1)); [|lia]. f_equal. lia.
Qed.

(** The object after n draws. *)
Definition mt_ok (n : nat) (s : mt) : Prop :=
  mt_index s = n mod SIZE /\ exists b, arr b 0 (mt_MT s) /\ (if n mod SIZE =? 0 then SIZE * b = n else SIZE * b + n mod SIZE = n + SIZE).

Lemma rand_ok : forall n s, mt_ok n s -> exists s', rand_u32 s = Ret (tempering (x (SIZE + n)), s') /\ mt_ok (S n) s'.
Proof.
  intros n s (Hi & b & A & Hb). destruct PS as (P1 & P2 & _). assert (Hm : n mod SIZE < SIZE) by (apply Nat.mod_upper_bound; lia).
  assert (G : exists MT b', (if mt_index s =? 0 then generate_numbers (mt_MT s) else Ret (mt_MT s)) = Ret MT /\ arr b' 0 MT /\ SIZE * b' + n mod SIZE = n + SIZE).
  { rewrite Hi. destruct (Nat.eqb_spec (n mod SIZE) 0) as [E0|E0].
    - destruct (generate_ok b (mt_MT s) A) as (MT & E & A'). exists MT, (S b). split; [exact E|]. split; [exact A'|]. nia.
    - exists (mt_MT s), b. auto. }
  destruct G as (MT & b' & E & A' & Hb'). unfold rand_u32. rewrite E. cbn [bind]. pose proof A' as [L H]. rewrite Hi. rewrite (rd_ok _ 0%Z) by lia. cbn [bind]. cbv zeta.
  eexists. split; [f_equal; f_equal; f_equal; rewrite H by exact Hm; destruct (Nat.ltb_spec (n mod SIZE) 0); [lia|]; f_equal; lia|].
  pose proof (Nat.div_mod n SIZE ltac:(lia)) as D.
  unfold mt_ok. cbn [mt_index mt_MT]. destruct (Nat.eqb_spec (n mod SIZE + 1) SIZE) as [Ew|Ew].
  - assert (M0 : S n mod SIZE = 0) by (symmetry; apply (Nat.mod_unique (S n) SIZE (n / SIZE + 1) 0); nia). rewrite M0. split; [reflexivity|]. exists b'. split; [exact A'|]. cbn [Nat.eqb]. lia.
  - assert (M1 : S n mod SIZE = n mod SIZE + 1) by (symmetry; apply (Nat.mod_unique (S n) SIZE (n / SIZE) (n mod SIZE + 1)); lia). rewrite M1. split; [reflexivity|]. exists b'. split; [exact A'|].
    destruct (Nat.eqb_spec (n mod SIZE + 1) 0); [lia|]. lia.
Qed.

Lemma draws_ok : forall k n s, mt_ok n s -> exists s', draws k s = Ret (map (fun i => tempering (x (SIZE + i))) (seq n k), s') /\ mt_ok (n + k) s'.
Proof.
  induction k as [|k IH]; intros n s I; cbn [draws seq map].
  - exists s. split; [reflexivity|]. rewrite Nat.add_0_r. exact I.
  - destruct (rand_ok n s I) as (s1 & E1 & I1). rewrite E1. cbn [bind]. destruct (IH (S n) s1 I1) as (s2 & E2 & I2). rewrite E2. cbn [bind]. exists s2. split; [reflexivity|]. replace (n + S k) with (S n + k) by lia. exact I2.
Qed.

Lemma seed_ok : forall s, length (mt_MT s) = SIZE -> exists s', mt_seed seed s = Ret s' /\ mt_ok 0 s' /\ length (mt_MT s') = SIZE.
Proof.
  intros s L. destruct PS as (P1 & P2 & _). unfold mt_seed. rewrite wr_ok by lia. cbn [bind]. destruct X as (X0 & X1 & _).
  destruct (for_from_inv _ (fun i MT => length MT = SIZE /\ forall j, j < i -> nth j MT 0%Z = x j) (SIZE - 1) 1
    (fun i MT => x <- rd MT (i - 1) ;; wr MT i (mod32 (0x6c078965 * Z.lxor x (Z.shiftr x 30) + Z.of_nat i))) (upd (mt_MT s) 0 seed)) as (MT & E & LM & HM).
  - split; [rewrite length_upd; exact L|]. intros j Hj. assert (j = 0) by lia. subst j. rewrite nth_upd_eq by lia. symmetry. exact X0.
  - intros i MT Hi (LM & HM). rewrite (rd_ok _ 0%Z) by lia. cbn [bind]. rewrite wr_ok by lia. eexists. split; [reflexivity|]. rewrite length_upd. split; [exact LM|]. intros j Hj.
    destruct (Nat.eq_dec j i) as [-> | Hne].
    + rewrite nth_upd_eq by lia. rewrite HM by lia. rewrite (X1 i) by (change 624 with SIZE; lia). unfold mod32. rewrite Z.shiftr_div_pow2 by lia. reflexivity.
    + rewrite nth_upd_neq by auto. apply HM. lia.
  - rewrite E. cbn [bind]. eexists. split; [reflexivity|]. split; [|exact LM]. split; [cbn [mt_index]; symmetry; apply Nat.mod_0_l; lia|]. exists 0. cbn [mt_MT]. rewrite Nat.mod_0_l by lia. cbn [Nat.eqb]. split; [|lia].
    split; [exact LM|]. intros j Hj. rewrite HM by lia. destruct (Nat.ltb_spec j 0); [lia|]. f_equal. lia.
Qed.
End Gen.

(** The sequence exists: 624 words, then the recurrence. *)
Fixpoint first_words (n : nat) (seed : Z) : Z :=
  match n with 0 => seed | S n => let p := first_words n seed in ((1812433253 * Z.lxor p (p / 2 ^ 30) + Z.of_nat (S n)) mod 2 ^ 32)%Z end.
Definition shift_window (w : list Z) : list Z :=
  tl w ++ [Z.lxor (nth 397 w 0%Z) (timesA (join (nth 0 w 0%Z) (nth 1 w 0%Z)))].
Definition window (seed : Z) (k : nat) : list Z := Nat.iter k shift_window (map (fun i => first_words i seed) (seq 0 624)).
Definition mt_seq (seed : Z) (k : nat) : Z := nth 0 (window seed k) 0%Z.

Lemma shift_len : forall w, length w = 624 -> length (shift_window w) = 624.
Proof. intros w L. unfold shift_window. rewrite app_length. destruct w as [|a w]; [discriminate|]. cbn [tl length] in *. lia. Qed.

Lemma window_len : forall seed k, length (window seed k) = 624.
Proof.
  intros seed k. induction k as [|k IH]; [unfold window; cbn [Nat.iter nat_rect]; rewrite map_length, seq_length; reflexivity|].
  change (window seed (S k)) with (shift_window (window seed k)). apply shift_len. exact IH.
Qed.

Lemma window_next : forall seed k i, i < 623 -> nth i (window seed (S k)) 0%Z = nth (S i) (window seed k) 0%Z.
Proof.
  intros seed k i Hi. pose proof (window_len seed k) as L. change (window seed (S k)) with (shift_window (window seed k)). unfold shift_window. destruct (window seed k) as [|a w]; [discriminate|].
  cbn [tl]. cbn [length] in L. rewrite app_nth1 by lia. reflexivity.
Qed.

Lemma window_nth : forall seed i k, i < 624 -> nth i (window seed k) 0%Z = mt_seq seed (k + i).
Proof.
  intros seed. induction i as [|i IH]; intros k Hi; [rewrite Nat.add_0_r; reflexivity|]. rewrite <- window_next by lia. rewrite IH by lia. f_equal. lia.
Qed.

Lemma mt_exists : forall seed, mt19937 seed (mt_seq seed).
Proof.
  intros seed. assert (F : forall i, i < 624 -> mt_seq seed i = first_words i seed).
  { intros i Hi. pose proof (window_nth seed i 0 Hi) as W. cbn [Nat.add] in W. rewrite <- W. unfold window. cbn [Nat.iter nat_rect]. rewrite (nth_indep _ 0%Z (first_words 0 seed)) by (rewrite map_length, seq_length; exact Hi).
    rewrite (map_nth (fun i => first_words i seed)). rewrite seq_nth by exact Hi. reflexivity. }
  split; [rewrite F by lia; reflexivity|]. split.
  - intros i Hi. rewrite !F by lia. destruct i as [|i]; [lia|]. replace (S i - 1) with i by lia. reflexivity.
  - intros k. replace (k + 624) with (S k + 623) by lia. rewrite <- (window_nth seed 623 (S k)) by lia. change (window seed (S k)) with (shift_window (window seed k)). unfold shift_window.
    pose proof (window_len seed k) as L. rewrite app_nth2; [|destruct (window seed k); [discriminate|cbn [tl length] in *; lia]].
    replace (623 - length (tl (window seed k))) with 0 by (destruct (window seed k); [discriminate|cbn [tl length] in *; lia]). cbn [nth].
    rewrite !window_nth by lia. rewrite Nat.add_0_r. reflexivity.
Qed.
