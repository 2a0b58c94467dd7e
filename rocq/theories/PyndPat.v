(** The flip patterns of the Chase-Pyndiah decoder. *)
From Coq Require Import List Arith Lia Bool ZArith.
From Verif Require Import Base PyndModel.
Import ListNotations.

(** The k-th pattern flips the positions below s and the position p. *)
Fixpoint sp (nl k : nat) : nat * nat :=
  match k with 0 => (0, 0) | S k => let (s, p) := sp nl k in if nl <=? p + 1 then (s + 1, s + 1) else (s, p + 1) end.
Lemma sp_in : forall nl k, 0 < nl -> k < nl * (nl + 1) / 2 -> let (s, p) := sp nl k in s <= p /\ p < nl /\ 2 * k + s * s + s = 2 * s * nl + 2 * p.
Proof.
  intros nl k Hn. assert (HD : 2 * (nl * (nl + 1) / 2) <= nl * (nl + 1)) by (apply Nat.mul_div_le; lia).
  induction k as [|k IH]; intros Hk.
  - cbn. lia.
  - specialize (IH ltac:(lia)). cbn [sp]. destruct (sp nl k) as [s p]. destruct IH as (A & B & C). destruct (Nat.leb_spec nl (p + 1)).
    + assert (p + 1 = nl) by lia. assert (s + 1 < nl).
      { destruct (Nat.lt_ge_cases (s + 1) nl) as [|G]; auto. assert (s + 1 = nl) by lia. nia. }
      split; [lia|]. split; [auto|]. nia.
    + split; [lia|]. split; [lia|]. lia.
Qed.
Lemma sp_up : forall nl a b, 0 < nl -> a < b -> b < nl * (nl + 1) / 2 -> let (s, p) := sp nl a in let (s', p') := sp nl b in s * nl + p < s' * nl + p'.
Proof.
  intros nl a b Hn Hab. induction Hab as [|b Hab IH]; intros Hb.
  - assert (I := sp_in nl a Hn ltac:(lia)). cbn [sp]. destruct (sp nl a) as [s p]. destruct (Nat.leb_spec nl (p + 1)); nia.
  - specialize (IH ltac:(lia)). assert (I := sp_in nl b Hn ltac:(lia)). cbn [sp]. destruct (sp nl a) as [s p]. destruct (sp nl b) as [s' p']. destruct (Nat.leb_spec nl (p' + 1)); nia.
Qed.
Definition bits_of (x s p : nat) : Prop := forall j, Nat.testbit x j = (j <? s) || (j =? p).

Lemma mask_bits : forall s m, (forall j, Nat.testbit m j = (j <? s)) -> forall j, Nat.testbit (Nat.shiftl m 1 + 1) j = (j <? s + 1).
Proof.
  intros s m H j. replace (Nat.shiftl m 1) with (2 * m) by (rewrite Nat.shiftl_mul_pow2; cbn; lia). destruct j as [|j].
  - rewrite Nat.testbit_odd_0. destruct (Nat.ltb_spec 0 (s + 1)); lia || auto.
  - rewrite Nat.testbit_odd_succ by lia. rewrite H. destruct (Nat.ltb_spec j s), (Nat.ltb_spec (S j) (s + 1)); auto; lia.
Qed.
Lemma lor_bits : forall m s p, (forall j, Nat.testbit m j = (j <? s)) -> bits_of (Nat.lor (2 ^ p) m) s p.
Proof. intros m s p H j. rewrite Nat.lor_spec, H, Nat.pow2_bits_eqb, (Nat.eqb_sym p j). apply orb_comm. Qed.

Lemma grow_ok : forall nl nt, 0 < nl -> 0 < nt -> nt <= nl * (nl + 1) / 2 + 1 -> exists cand, cp_grow nl nt = Ret cand /\ length cand = nt /\ nth 0 cand 0 = 0 /\
  forall i, i + 1 < nt -> bits_of (nth (i + 1) cand 0) (fst (sp nl i)) (snd (sp nl i)).
Proof.
  intros nl nt Hn Ht Hle. unfold cp_grow.
  match goal with |- context [for_ (nt - 1) ?b ?x] => destruct (for_inv (list nat * nat * nat * nat * nat) (fun k st => let '(cand, idx, start, mask, flip) := st in
    length cand = nt /\ nth 0 cand 0 = 0 /\ (forall i, i < k -> bits_of (nth (i + 1) cand 0) (fst (sp nl i)) (snd (sp nl i))) /\
    start = fst (sp nl k) /\ idx = snd (sp nl k) /\ (forall j, Nat.testbit mask j = (j <? start)) /\ flip = 2 ^ idx) (nt - 1) b x) as ([[[[cand idx] start] mask] flip] & E & I) end.
  - cbn [sp fst snd]. split; [apply repeat_length|]. split; [destruct nt; reflexivity|]. split; [intros; lia|]. split; auto. split; auto. split; [|reflexivity].
    intros j. rewrite Nat.bits_0. reflexivity.
  - intros i [[[[cand idx] start] mask] flip] Hi (L & Z & C & ES & EI & MB & EF). rewrite wr_ok by lia. cbn [bind]. cbv zeta. cbn [sp]. destruct (sp nl i) as [s p] eqn:ESP. cbn [fst snd] in ES, EI. subst start idx flip.
    assert (KEEP : forall x, bits_of x s p -> length (upd cand (i + 1) x) = nt /\ nth 0 (upd cand (i + 1) x) 0 = 0 /\ forall i0, i0 < S i -> bits_of (nth (i0 + 1) (upd cand (i + 1) x) 0) (fst (sp nl i0)) (snd (sp nl i0))).
    { intros x Hx. rewrite length_upd. split; auto. split; [rewrite nth_upd_neq by lia; auto|]. intros i0 Hi0. destruct (Nat.eq_dec i0 i) as [->|NE].
      - rewrite nth_upd_eq by lia. rewrite ESP. exact Hx.
      - rewrite nth_upd_neq by lia. apply C. lia. }
    specialize (KEEP _ (lor_bits mask s p MB)). destruct KEEP as (K1 & K2 & K3).
    destruct (Nat.leb_spec nl (p + 1)); eexists; (split; [reflexivity|]); cbv beta iota; cbn [fst snd].
    + split; [exact K1|]. split; [exact K2|]. split; [exact K3|]. split; auto. split; auto. split; [apply mask_bits; auto|]. apply Nat.shiftl_1_l.
    + split; [exact K1|]. split; [exact K2|]. split; [exact K3|]. split; auto. split; auto. split; auto. rewrite Nat.shiftl_mul_pow2, Nat.pow_add_r. reflexivity.
  - rewrite E. cbn [bind]. destruct I as (L & Z & C & _). exists cand. split; auto. split; auto. split; auto. intros i Hi. apply C. lia.
Qed.

Lemma bits_inj : forall nl i k x y, 0 < nl -> i < nl * (nl + 1) / 2 -> k < nl * (nl + 1) / 2 -> bits_of x (fst (sp nl i)) (snd (sp nl i)) -> bits_of y (fst (sp nl k)) (snd (sp nl k)) -> x = y -> i = k.
Proof.
  intros nl i k x y Hn Hi Hk Bx By E. subst y.
  assert (I1 := sp_in nl i Hn Hi). assert (I2 := sp_in nl k Hn Hk).
  assert (U1 := fun L => sp_up nl i k Hn L Hk). assert (U2 := fun L => sp_up nl k i Hn L Hi).
  destruct (sp nl i) as [s p]. destruct (sp nl k) as [s' p']. cbn [fst snd] in *.
  assert (H : forall j, (j <? s) || (j =? p) = (j <? s') || (j =? p')) by (intros j; transitivity (Nat.testbit x j); [symmetry; apply Bx|apply By]).
  assert (HI : forall j, (j < s \/ j = p) <-> (j < s' \/ j = p')).
  { intros j. specialize (H j). destruct (Nat.ltb_spec j s), (Nat.eqb_spec j p), (Nat.ltb_spec j s'), (Nat.eqb_spec j p'); cbn in H; try discriminate; lia. }
  assert (p = p') by (assert (A := HI p); assert (B := HI p'); lia). subst p'.
  assert (s = s'). { assert (A := HI s). assert (B := HI s'). lia. } subst s'.
  lia.
Qed.

Lemma cand_ok : forall nl nt cand, 0 < nl -> 0 < nt -> cp_cand nl nt = Ret cand -> length cand = nt /\ nth 0 cand 0 = 0 /\ (forall i j, i < nt -> j < nt -> nth i cand 0 = nth j cand 0 -> i = j) /\
  (forall i j, i < nt -> nl <= j -> Nat.testbit (nth i cand 0) j = false) /\ (nt = 2 ^ nl -> forall i, i < nt -> nth i cand 0 = i).
Proof.
  intros nl nt cand Hn Ht E. unfold cp_cand in E. destruct (Nat.eqb_spec nt (2 ^ nl)) as [EN|NN].
  - injection E as <-. rewrite length_tab. split; auto. split; [rewrite nth_tab by lia; reflexivity|]. split; [intros i j Hi Hj; rewrite !nth_tab by auto; auto|]. split; [|intros _ i Hi; apply nth_tab; auto].
    intros i j Hi Hj. rewrite nth_tab by auto. destruct (Nat.eq_dec i 0) as [->|Z]; [apply Nat.bits_0|]. apply Nat.bits_above_log2. apply Nat.log2_lt_pow2; [lia|]. eapply Nat.lt_le_trans; [exact Hi|]. rewrite EN. apply Nat.pow_le_mono_r; lia.
  - destruct ((nt =? 16) && (nl =? 5)) eqn:E5.
    + apply andb_prop in E5. destruct E5 as [E1 E2]. apply Nat.eqb_eq in E1, E2. subst nt nl. injection E as <-. split; [reflexivity|]. split; [reflexivity|].
      split; [|split; [|intros X; contradiction]].
      * apply (proj1 (NoDup_nth cp_table 0)). unfold cp_table. repeat constructor; cbn; lia.
      * intros i j Hi Hj. assert (HB : nth i cp_table 0 < 32).
        { assert (F : Forall (fun x => x < 32) cp_table) by (unfold cp_table; repeat constructor; lia). rewrite Forall_forall in F. apply F, nth_In. exact Hi. }
        destruct (Nat.eq_dec (nth i cp_table 0) 0) as [->|Z]; [apply Nat.bits_0|]. apply Nat.bits_above_log2. apply Nat.log2_lt_pow2; [lia|]. eapply Nat.lt_le_trans; [exact HB|]. change 32 with (2 ^ 5). apply Nat.pow_le_mono_r; lia.
    + destruct (Nat.leb_spec nt (nl * (nl + 1) / 2 + 1)) as [LE|]; [|discriminate].
      destruct (grow_ok nl nt Hn Ht LE) as (c & E' & L & Z & B). rewrite E' in E. injection E as <-. split; auto. split; auto.
      assert (NZ : forall i, i + 1 < nt -> nth (i + 1) c 0 <> 0). { intros i Hi X. assert (A := B i Hi (snd (sp nl i))). rewrite X, Nat.bits_0, Nat.eqb_refl, orb_true_r in A. discriminate. }
      split; [|split; [|intros X; contradiction]].
      * intros i j Hi Hj EQ. destruct i as [|i], j as [|j]; auto.
        -- rewrite Z in EQ. exfalso. apply (NZ j); [lia|]. rewrite Nat.add_1_r. auto.
        -- rewrite Z in EQ. exfalso. apply (NZ i); [lia|]. rewrite Nat.add_1_r. auto.
        -- f_equal. apply (bits_inj nl i j (nth (i + 1) c 0) (nth (j + 1) c 0)); auto; try lia. { apply B. lia. } { apply B. lia. } rewrite !Nat.add_1_r. exact EQ.
      * intros i j Hi Hj. destruct i as [|i]; [rewrite Z; apply Nat.bits_0|]. rewrite <- Nat.add_1_r. rewrite (B i ltac:(lia)). assert (I := sp_in nl i Hn ltac:(lia)). destruct (sp nl i) as [s p]. cbn [fst snd].
        destruct (Nat.ltb_spec j s), (Nat.eqb_spec j p); auto; lia.
Qed.

Lemma patterns_ok : forall nl nt pat, 0 < nl -> 0 < nt -> cp_patterns nl nt = Ret pat -> exists cand, cp_cand nl nt = Ret cand /\ pat = tab nt (fun i => tab nl (fun j => Nat.testbit (nth i cand 0) j)).
Proof.
  intros nl nt pat Hn Ht E. unfold cp_patterns in E. destruct (cp_cand nl nt) as [cand| |] eqn:EC; try discriminate. cbn [bind] in E. exists cand. split; auto.
  destruct (cand_ok nl nt cand Hn Ht EC) as (L & _). rewrite (gen_ok _ _ _ (fun i => tab nl (fun j => Nat.testbit (nth i cand 0) j))) in E; [injection E as <-; reflexivity|].
  intros i Hi. rewrite (rd_ok _ 0) by lia. cbn [bind]. apply gen_ok. reflexivity.
Qed.

Lemma number_of : forall nl (f : nat -> bool), exists c, c < 2 ^ nl /\ forall j, j < nl -> Nat.testbit c j = f j.
Proof.
  induction nl as [|nl IH]; intros f.
  - exists 0. split; [cbn; lia|intros; lia].
  - destruct (IH (fun j => f (S j))) as (c & Hc & B). exists (if f 0 then 2 * c + 1 else 2 * c). split.
    + rewrite Nat.pow_succ_r'. destruct (f 0); lia.
    + intros [|j] Hj.
      * destruct (f 0); [apply Nat.testbit_odd_0|apply Nat.testbit_even_0].
      * destruct (f 0); [rewrite Nat.testbit_odd_succ by lia|rewrite Nat.testbit_even_succ by lia]; apply B; lia.
Qed.

Lemma new_is : forall K N np nl nt nc coef pos d, cp_new K N np nl nt nc coef pos = Ret d ->
  cp_K d = K /\ cp_N d = N /\ cp_np d = np /\ cp_nl d = nl /\ cp_ext d = (N =? np + 1) /\ cp_coef d = coef /\ cp_pos d = pos /\ 0 < nl < np /\ 0 < cp_nt d /\ cp_nt d <= 2 ^ nl /\ 0 < cp_nc d <= cp_nt d /\
  length coef = 5 /\ cp_nt d = (if nt =? 0 then 2 ^ nl else nt) /\ cp_nc d = (if nc =? 0 then cp_nt d else nc) /\ cp_patterns nl (cp_nt d) = Ret (cp_pat d).
Proof.
  intros K N np nl nt nc coef pos d E. unfold cp_new in E. cbv zeta in E. set (t := if nt =? 0 then 2 ^ nl else nt) in *. set (c := if nc =? 0 then t else nc) in *.
  destruct (Nat.eqb_spec nl 0); cbn [orb] in E; [discriminate|]. destruct (Nat.leb_spec np nl); cbn [orb] in E; [discriminate|].
  destruct (Nat.eqb_spec t 0); cbn [orb] in E; [discriminate|]. destruct (Nat.ltb_spec (2 ^ nl) t); [discriminate|].
  destruct (Nat.eqb_spec c 0); cbn [orb] in E; [discriminate|]. destruct (Nat.ltb_spec t c); [discriminate|].
  destruct (Nat.eqb_spec (length coef) 5); cbn [negb] in E; [|discriminate]. destruct (cp_patterns nl t) as [pat| |] eqn:EP; try discriminate. cbn [bind] in E. injection E as <-. cbn.
  repeat (split; [lia || reflexivity || auto|]). exact EP.
Qed.
Lemma patterns_all : forall nl nt pat, 0 < nl -> 0 < nt -> cp_patterns nl nt = Ret pat ->
  length pat = nt /\ (forall p, In p pat -> length p = nl) /\ NoDup pat /\ nth 0 pat [] = repeat false nl /\ (nt = 2 ^ nl -> forall p, length p = nl -> In p pat).
Proof.
  intros nl nt pat Hn Ht E. destruct (patterns_ok _ _ _ Hn Ht E) as (cand & EC & ->). destruct (cand_ok _ _ _ Hn Ht EC) as (L & Z & INJ & HI & ALL).
  rewrite length_tab. split; auto. split.
  { intros p Hp. apply (In_nth _ _ []) in Hp. destruct Hp as (i & Hi & <-). rewrite length_tab in Hi. rewrite nth_tab by auto. apply length_tab. }
  split.
  { apply (NoDup_nth _ []). rewrite length_tab. intros i j Hi Hj EQ. rewrite !nth_tab in EQ by auto. apply INJ; auto. apply Nat.bits_inj. intros b.
    destruct (Nat.lt_ge_cases b nl) as [Hb|Hb]; [|rewrite !HI by auto; reflexivity]. assert (Q := f_equal (fun l => nth b l false) EQ). cbn beta in Q. rewrite !nth_tab in Q by auto. exact Q. }
  split.
  { rewrite nth_tab by auto. apply (list_eq_nth _ false); [rewrite length_tab, repeat_length; auto|]. intros j Hj. rewrite length_tab in Hj. rewrite nth_tab by auto. rewrite Z, Nat.bits_0. rewrite nth_repeat_lt by auto. reflexivity. }
  intros EN p LP. destruct (number_of nl (fun j => nth j p false)) as (c & Hc & B). rewrite <- EN in Hc. replace p with (nth c (tab nt (fun i => tab nl (fun j => Nat.testbit (nth i cand 0) j))) []).
  - apply nth_In. rewrite length_tab. auto.
  - rewrite nth_tab by auto. rewrite (ALL EN c Hc). apply (list_eq_nth _ false); [rewrite length_tab; auto|]. intros j Hj. rewrite length_tab in Hj. rewrite nth_tab by auto. apply B. auto.
Qed.
