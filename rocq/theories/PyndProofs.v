(** Proofs about the Chase-Pyndiah decoder. *)
From Coq Require Import List Arith Lia Bool QArith Qabs Lqa Sorted Permutation.
From Verif Require Import Base LDPCBPModel LDPCBPProofs TpcSpec TpcModel TpcProofs PyndModel PyndSpec PyndPat.
Import ListNotations.
Local Open Scope nat_scope.

(** * The least reliable positions *)

Fixpoint ins (x : Q * nat) (l : list (Q * nat)) : list (Q * nat) :=
  match l with [] => [x] | y :: r => if qltb (fst x) (fst y) then x :: y :: r else y :: ins x r end.
Lemma save_ins : forall v i l, cp_save v i l = firstn (length l) (ins (v, i) l).
Proof.
  intros v i. unfold cp_save. induction l as [|y r IH]; [reflexivity|]. cbn [cp_place ins fst length]. destruct (qltb v (fst y)).
  - cbn [firstn skipn app]. f_equal. rewrite removelast_firstn_len. reflexivity.
  - cbn [firstn]. destruct (cp_place v r) as [k|] eqn:EP; cbn [option_map].
    + destruct r as [|z r]; [discriminate|]. cbv zeta in *. change (removelast (y :: z :: r)) with (y :: removelast (z :: r)). cbn [firstn skipn app]. f_equal. exact IH.
    + f_equal. exact IH.
Qed.
Lemma firstn_ins : forall x L n, firstn n (ins x (firstn n L)) = firstn n (ins x L).
Proof.
  intros x. induction L as [|y L IH]; intros [|n]; try reflexivity. cbn [firstn ins]. destruct (qltb (fst x) (fst y)).
  - cbn [firstn]. f_equal. destruct n as [|n]; [reflexivity|]. rewrite !firstn_cons. f_equal. rewrite firstn_firstn. f_equal. lia.
  - cbn [firstn]. f_equal. apply IH.
Qed.
Lemma ins_app : forall x mx N n L, (fst x < mx)%Q -> ins x (L ++ repeat (mx, N) (S n)) = ins x L ++ repeat (mx, N) (S n).
Proof.
  intros x mx N n L H. induction L as [|y L IH]; cbn [app ins].
  - cbn [repeat ins fst app]. destruct (qltb_spec (fst x) mx) as [[-> _]|[_ H']]; [reflexivity|exfalso; lra].
  - destruct (qltb (fst x) (fst y)); [reflexivity|]. cbn [app]. f_equal. exact IH.
Qed.

Section Positions.
Variable Y : nat -> Q.
Definition ent (p : nat) : Q * nat := (Qabs (Y p), p).
Fixpoint pins (i : nat) (l : list nat) : list nat := match l with [] => [i] | j :: r => if qltb (Qabs (Y i)) (Qabs (Y j)) then i :: j :: r else j :: pins i r end.
Fixpoint psort (k : nat) : list nat := match k with 0 => [] | S k => pins k (psort k) end.
Lemma ins_pins : forall i l, ins (ent i) (map ent l) = map ent (pins i l).
Proof. intros i. induction l as [|j r IH]; [reflexivity|]. cbn [map ins pins ent fst]. destruct (qltb _ _); [reflexivity|]. cbn [map]. f_equal. exact IH. Qed.
Lemma pins_perm : forall i l, Permutation (pins i l) (i :: l).
Proof. intros i. induction l as [|j r IH]; [apply Permutation_refl|]. cbn [pins]. destruct (qltb _ _); [apply Permutation_refl|]. eapply perm_trans; [apply perm_skip, IH|apply perm_swap]. Qed.
Lemma before_trans : forall a b c, before Y a b -> before Y b c -> before Y a c.
Proof. unfold before. intros a b c [A|[A A']] [B|[B B']]; [left; lra|left; lra|left; lra|right; split; [lra|lia]]. Qed.
Lemma pins_sorted : forall i l, (forall p, In p l -> p < i) -> StronglySorted (before Y) l -> StronglySorted (before Y) (pins i l).
Proof.
  intros i. induction l as [|j r IH]; intros LT SS; [constructor; constructor|]. inversion SS as [|? ? SR FR]; subst. cbn [pins]. destruct (qltb_spec (Qabs (Y i)) (Qabs (Y j))) as [[-> H]|[-> H]].
  - constructor; auto. assert (before Y i j) by (left; auto). constructor; auto. eapply Forall_impl; [|exact FR]. intros a B. eapply before_trans; eauto.
  - constructor; [apply IH; auto; intros; apply LT; right; auto|]. rewrite Forall_forall in *. intros p Hp. apply (Permutation_in _ (pins_perm i r)) in Hp. destruct Hp as [<-|Hp]; auto.
    assert (j < i) by (apply LT; left; auto). destruct (Qlt_le_dec (Qabs (Y j)) (Qabs (Y i))); [left; auto|right; split; [lra|auto]].
Qed.
Lemma psort_ok : forall k, Permutation (psort k) (seq 0 k) /\ StronglySorted (before Y) (psort k).
Proof.
  induction k as [|k [P S0]]; [split; constructor|]. cbn [psort]. split.
  - eapply perm_trans; [apply pins_perm|]. rewrite seq_S. cbn [Nat.add]. eapply perm_trans; [apply perm_skip, P|]. apply Permutation_cons_append.
  - apply pins_sorted; auto. intros p Hp. apply (Permutation_in _ P) in Hp. apply in_seq in Hp. lia.
Qed.
Lemma SS_app : forall A (R : A -> A -> Prop) a b, StronglySorted R (a ++ b) -> StronglySorted R a /\ forall x y, In x a -> In y b -> R x y.
Proof.
  intros A R. induction a as [|x a IH]; intros b H; [split; [constructor|intros ? ? []]|]. cbn [app] in H. inversion H as [|? ? H1 H2]; subst. destruct (IH b H1) as [S1 C]. rewrite Forall_forall in H2. split.
  - constructor; auto. rewrite Forall_forall. intros y Hy. apply H2. apply in_or_app. auto.
  - intros u y [->|Hu] Hy; auto. apply H2. apply in_or_app. auto.
Qed.
Lemma before_irrefl : forall i, ~ before Y i i.
Proof. intros i [H|[_ H]]; [lra|lia]. Qed.
Lemma SS_NoDup : forall l, StronglySorted (before Y) l -> NoDup l.
Proof. induction l as [|x l IH]; intros H; [constructor|]. inversion H as [|? ? H1 H2]; subst. constructor; auto. intros X. rewrite Forall_forall in H2. exact (before_irrefl x (H2 x X)). Qed.
Lemma psort_least : forall n N, n <= N -> least_reliable n N Y (firstn n (psort N)).
Proof.
  intros n N Hn. destruct (psort_ok N) as [P S0]. assert (L : length (psort N) = N) by (rewrite (Permutation_length P); apply seq_length).
  assert (SP := S0). rewrite <- (firstn_skipn n (psort N)) in SP. apply SS_app in SP. destruct SP as [S1 C]. split; [rewrite firstn_length; lia|]. split.
  { intros p Hp. assert (In p (psort N)) by (rewrite <- (firstn_skipn n (psort N)); apply in_or_app; auto). apply (Permutation_in _ P) in H. apply in_seq in H. lia. }
  split; auto. intros i Hi NI p Hp. apply C; auto. assert (In i (psort N)) by (apply (Permutation_in _ (Permutation_sym P)), in_seq; lia).
  rewrite <- (firstn_skipn n (psort N)) in H. apply in_app_or in H. tauto.
Qed.
End Positions.

Lemma find_ok : forall mx d Y, 0 < cp_nl d <= cp_np d -> cp_np d <= length Y -> (forall i, i < cp_np d -> (Qabs (nth i Y 0) < mx)%Q) ->
  cp_find mx d Y = Ret (map (ent (fun i => nth i Y 0%Q)) (firstn (cp_nl d) (psort (fun i => nth i Y 0%Q) (cp_np d)))).
Proof.
  intros mx d Y [Hl Hln] HL HM. set (y := fun i => nth i Y 0%Q). unfold cp_find.
  destruct (for_inv (list (Q * nat)) (fun k l => l = firstn (cp_nl d) (map (ent y) (psort y k) ++ repeat (mx, cp_N d) (cp_nl d))) (cp_np d) (fun i l => y <- rd Y i ;; Ret (cp_save (Qabs y) i l)) (repeat (mx, cp_N d) (cp_nl d))) as (l & E & I).
  - cbn [psort map app]. rewrite firstn_all2; [reflexivity|rewrite repeat_length; lia].
  - intros i l Hi ->. rewrite (rd_ok _ 0%Q) by lia. cbn [bind]. eexists. split; [reflexivity|]. rewrite save_ins.
    assert (LL : length (firstn (cp_nl d) (map (ent y) (psort y i) ++ repeat (mx, cp_N d) (cp_nl d))) = cp_nl d) by (rewrite firstn_length, app_length, repeat_length; lia).
    rewrite LL, firstn_ins. cbn [psort]. rewrite <- ins_pins. change (Qabs (nth i Y 0%Q), i) with (ent y i). f_equal. destruct (cp_nl d) as [|m]; [lia|]. apply ins_app. cbn [ent fst]. apply HM. auto.
  - rewrite E, I. f_equal. rewrite <- firstn_map. rewrite firstn_app. assert (L : length (map (ent y) (psort y (cp_np d))) = cp_np d) by (rewrite map_length, (Permutation_length (proj1 (psort_ok y (cp_np d)))); apply seq_length).
    rewrite L. replace (cp_nl d - cp_np d) with 0 by lia. cbn [firstn]. apply app_nil_r.
Qed.

(** * The test vectors *)

Lemma existsb_seq_S : forall f k, existsb f (seq 0 (S k)) = existsb f (seq 0 k) || f k.
Proof. intros f k. rewrite seq_S, existsb_app. cbn [existsb Nat.add]. rewrite orb_false_r. reflexivity. Qed.
Lemma flip_ok : forall d lrp ps c pat h, length ps = cp_nl d -> (forall i, i < cp_nl d -> exists q, rd lrp i = Ret (q, nth i ps 0)) -> NoDup ps -> (forall p, In p ps -> p < length h) ->
  rd (cp_pat d) c = Ret pat -> length pat = cp_nl d -> cp_flip d lrp c h = Ret (flipped_by ps pat h).
Proof.
  intros d lrp ps c pat h LP RL ND LT EP LPT. unfold cp_flip.
  set (g := fun k v => xorb (nth v h false) (existsb (fun i => (nth i ps 0 =? v) && nth i pat false) (seq 0 k))).
  destruct (for_inv (list bool) (fun k l => l = tab (length h) (g k)) (cp_nl d) (fun i h => e <- rd lrp i ;; p <- rd (cp_pat d) c ;; b <- rd p i ;; x <- rd h (snd e) ;; wr h (snd e) (if b : bool then negb x else x)) h) as (l & E & I).
  - apply (tab_is _ false); auto. intros i Hi. unfold g. cbn [seq existsb]. rewrite xorb_false_r. reflexivity.
  - intros k l Hk ->. destruct (RL k Hk) as (q & ->). cbn [bind snd]. rewrite EP. cbn [bind]. rewrite (rd_ok _ false) by lia. cbn [bind].
    assert (PK : nth k ps 0 < length h) by (apply LT, nth_In; lia). rewrite (rd_ok _ false) by (rewrite length_tab; auto). cbn [bind]. rewrite wr_ok by (rewrite length_tab; auto). eexists. split; [reflexivity|].
    apply (tab_is _ false); [rewrite length_upd; apply length_tab|]. intros v Hv. rewrite nth_upd by (rewrite length_tab; auto). replace (g (S k) v) with (xorb (nth v h false) (existsb (fun i => (nth i ps 0 =? v) && nth i pat false) (seq 0 k) || ((nth k ps 0 =? v) && nth k pat false))) by (unfold g; rewrite existsb_seq_S; reflexivity).
    assert (NB : existsb (fun i => (nth i ps 0 =? nth k ps 0) && nth i pat false) (seq 0 k) = false).
    { destruct (existsb _ _) eqn:EX; auto. apply existsb_exists in EX. destruct EX as (i & Hi & EX). apply in_seq in Hi. apply andb_prop in EX. destruct EX as [EX _]. apply Nat.eqb_eq in EX. exfalso.
      assert (i = k) by (apply (proj1 (NoDup_nth ps 0) ND); auto; lia). lia. }
    destruct (Nat.eqb_spec v (nth k ps 0)) as [->|NE].
    + rewrite !nth_tab by auto. unfold g. rewrite NB, Nat.eqb_refl. cbn [orb andb].
      destruct (nth k pat false), (nth (nth k ps 0) h false); reflexivity.
    + rewrite nth_tab by auto. unfold g. destruct (Nat.eqb_spec (nth k ps 0) v); [congruence|]. cbn [andb]. rewrite orb_false_r. reflexivity.
  - rewrite E, I. unfold flipped_by. rewrite LP. reflexivity.
Qed.
Lemma flip_twice : forall ps pat h, flipped_by ps pat (flipped_by ps pat h) = h.
Proof. intros ps pat h. unfold flipped_by at 1. symmetry. unfold flipped_by at 1. rewrite length_tab. apply (tab_is _ false); auto. intros i Hi. unfold flipped_by. rewrite nth_tab by auto. destruct (nth i h false), (existsb _ _); reflexivity. Qed.
Lemma length_flipped : forall ps pat h, length (flipped_by ps pat h) = length h.
Proof. intros. apply length_tab. Qed.
Lemma flip_first : forall ps pat n N Y, n <= N -> tab n (fun i => nth i (flipped_by ps pat (decisions N Y)) false) = flipped_by ps pat (decisions n Y).
Proof.
  intros ps pat n N Y H. symmetry. apply (tab_is _ false); [rewrite length_flipped; apply length_tab|]. intros i Hi. unfold flipped_by, decisions. rewrite !length_tab. rewrite !nth_tab by lia. reflexivity.
Qed.
Lemma put_ok : forall (x : list bool) o n tv, n <= length x -> o + n <= length tv -> exists tv', for_ n (fun i tv => b <- rd x i ;; wr tv (o + i) b) tv = Ret tv' /\ length tv' = length tv /\
  forall q, nth q tv' false = if (o <=? q) && (q <? o + n) then nth (q - o) x false else nth q tv false.
Proof.
  intros x o n tv HX HT.
  destruct (for_inv (list bool) (fun k l => length l = length tv /\ forall q, nth q l false = if (o <=? q) && (q <? o + k) then nth (q - o) x false else nth q tv false) n (fun i tv => b <- rd x i ;; wr tv (o + i) b) tv) as (l & E & I).
  - split; auto. intros q. destruct (Nat.leb_spec o q), (Nat.ltb_spec q (o + 0)); cbn [andb]; auto; lia.
  - intros k l Hk (L & C). rewrite (rd_ok _ false) by lia. cbn [bind]. rewrite wr_ok by lia. eexists. split; [reflexivity|]. split; [rewrite length_upd; auto|]. intros q. rewrite nth_upd by lia. rewrite C.
    destruct (Nat.eqb_spec q (o + k)) as [->|NE].
    + destruct (Nat.leb_spec o (o + k)), (Nat.ltb_spec (o + k) (o + S k)); cbn [andb]; try lia. f_equal. lia.
    + destruct (Nat.leb_spec o q), (Nat.ltb_spec q (o + k)), (Nat.ltb_spec q (o + S k)); cbn [andb]; auto; lia.
  - exists l. split; auto.
Qed.

(** * The whole search *)

Section Chase.
Variables (hd : list bool -> list bool * bool) (mx : Q) (d : cp) (Y : list Q) (ps : list nat).
Let N := cp_N d.
Let np := cp_np d.
Let nt := cp_nt d.
Let y := fun i => nth i Y 0%Q.
Hypothesis HD : forall w, length w = np -> length (fst (hd w)) = np.
Hypothesis EN : N = np + (if cp_ext d then 1 else 0).
Hypothesis LY : N <= length Y.
Hypothesis LPS : length ps = cp_nl d.
Hypothesis ND : NoDup ps.
Hypothesis PS : forall p, In p ps -> p < np.
Hypothesis LPAT : length (cp_pat d) = nt.
Hypothesis PAT : forall p, In p (cp_pat d) -> length p = cp_nl d.

(** What the hard decoder makes of test vector c, with its flag and its weight. *)
Definition answer (c : nat) : list bool * bool := hd (flipped_by ps (nth c (cp_pat d) []) (decisions np y)).
Definition word (c : nat) : list bool := with_parity (cp_ext d) (fst (answer c)).
Definition good (c : nat) : bool := snd (answer c).
Definition measure (c : nat) : Q := if good c then analog y (word c) N else (mx / 2)%Q.

Lemma length_answer : forall c, length (fst (answer c)) = np.
Proof. intros c. apply HD. rewrite length_flipped. apply length_tab. Qed.
Lemma length_word : forall c, length (word c) = N.
Proof. intros c. unfold word, with_parity. rewrite EN. destruct (cp_ext d); [rewrite app_length; cbn [length]|]; rewrite length_answer; lia. Qed.

Lemma vectors_ok : forall lrp tv, (forall i, i < cp_nl d -> exists q, rd lrp i = Ret (q, nth i ps 0)) -> length tv = nt * N ->
  exists tv', cp_vectors hd d lrp (decisions N y) tv = Ret (decisions N y, tv', tab nt (fun c => negb (good c))) /\ length tv' = nt * N /\
    forall c v, c < nt -> v < N -> nth (c * N + v) tv' false = nth v (word c) false.
Proof.
  intros lrp tv RL LT. unfold cp_vectors. fold N np nt.
  match goal with |- context [for_ nt ?b ?x] => destruct (for_inv (list bool * list bool * list bool) (fun k st => let '(h, t, wrong) := st in
    h = decisions N y /\ length t = nt * N /\ (forall c v, c < k -> v < N -> nth (c * N + v) t false = nth v (word c) false) /\ length wrong = nt /\ forall c, c < k -> nth c wrong false = negb (good c)) nt b x) as ([[h t] wrong] & E & I) end.
  - split; [reflexivity|]. split; auto. split; [intros; lia|]. split; [apply repeat_length|intros; lia].
  - intros c [[h t] wrong] Hc (-> & L & C & LW & CW).
    assert (FL : forall h, length h = N -> cp_flip d lrp c h = Ret (flipped_by ps (nth c (cp_pat d) []) h)).
    { intros h Lh. apply flip_ok; auto. { intros p Hp. apply PS in Hp. rewrite Lh, EN. lia. } { apply rd_ok. lia. } apply PAT, nth_In. lia. }
    rewrite FL by apply length_tab. cbn [bind]. rewrite (gen_ok _ _ _ (fun i => nth i (flipped_by ps (nth c (cp_pat d) []) (decisions N y)) false)) by (intros i Hi; apply rd_ok; rewrite length_flipped; unfold decisions; rewrite length_tab, EN; lia).
    cbn [bind]. rewrite flip_first by (rewrite EN; lia). fold (answer c). assert (LA := length_answer c). assert (WC : word c = with_parity (cp_ext d) (fst (answer c))) by reflexivity. assert (GC : good c = snd (answer c)) by reflexivity.
    destruct (answer c) as [x ok]. cbn [fst snd] in LA, WC, GC.
    assert (CB : (c + 1) * N <= nt * N) by (apply Nat.mul_le_mono_r; lia). rewrite Nat.mul_add_distr_r, Nat.mul_1_l in CB.
    destruct (put_ok x (c * N) np t) as (t1 & E1 & L1 & C1); [lia|rewrite L; rewrite EN in CB |- *; lia|]. rewrite E1. cbn [bind]. rewrite wr_ok by lia. cbn [bind].
    assert (K1 : forall c' v, c' < S c -> v < N -> nth (c' * N + v) t1 false = if c' =? c then (if v <? np then nth v x false else nth (c' * N + v) t false) else nth v (word c') false).
    { intros c' v Hc' Hv. rewrite C1. destruct (Nat.eqb_spec c' c) as [->|NE].
      - destruct (Nat.ltb_spec v np).
        + destruct (Nat.leb_spec (c * N) (c * N + v)), (Nat.ltb_spec (c * N + v) (c * N + np)); cbn [andb]; try lia. f_equal. lia.
        + destruct (Nat.ltb_spec (c * N + v) (c * N + np)); [lia|]. rewrite andb_false_r. reflexivity.
      - assert ((c' + 1) * N <= c * N) by (apply Nat.mul_le_mono_r; lia). rewrite Nat.mul_add_distr_r, Nat.mul_1_l in H. destruct (Nat.leb_spec (c * N) (c' * N + v)); [lia|]. cbn [andb]. apply C; lia. }
    assert (FIN : exists t2, (if cp_ext d then p <- cp_parity t1 (c * N) np ;; wr t1 ((c + 1) * N - 1) p else Ret t1) = Ret t2 /\ length t2 = nt * N /\ forall c' v, c' < S c -> v < N -> nth (c' * N + v) t2 false = nth v (word c') false).
    { unfold with_parity in WC. destruct (cp_ext d) eqn:EE.
      - change (cp_parity t1 (c * N) np) with (tp_parity t1 (c * N) np). rewrite parity_ok by (rewrite L1, L; lia). cbn [bind]. rewrite wr_ok by (rewrite L1, L; lia). eexists. split; [reflexivity|]. split; [rewrite length_upd; lia|].
        intros c' v Hc' Hv. rewrite nth_upd by lia. rewrite K1 by auto. replace ((c + 1) * N - 1) with (c * N + np) by lia.
        replace (tab np (fun i => nth (c * N + i) t1 false)) with x. 2:{ apply (tab_is _ false); auto. intros i Hi. rewrite K1 by lia. rewrite Nat.eqb_refl. destruct (Nat.ltb_spec i np); [auto|lia]. }
        destruct (Nat.eqb_spec c' c) as [->|NE].
        + rewrite WC. destruct (Nat.ltb_spec v np).
          * destruct (Nat.eqb_spec (c * N + v) (c * N + np)); [lia|]. rewrite app_nth1 by lia. auto.
          * assert (v = np) by lia. subst v. rewrite Nat.eqb_refl. rewrite app_nth2 by lia. rewrite LA, Nat.sub_diag. reflexivity.
        + destruct (Nat.eqb_spec (c' * N + v) (c * N + np)) as [X|]; auto. exfalso. apply (divmod_unique_lt N) in X; [lia|lia|lia].
      - exists t1. split; auto. split; [lia|]. intros c' v Hc' Hv. rewrite K1 by auto. destruct (Nat.eqb_spec c' c) as [->|NE]; auto. rewrite WC. destruct (Nat.ltb_spec v np); [auto|lia]. }
    destruct FIN as (t2 & E2 & L2 & C2). rewrite E2. cbn [bind]. rewrite FL by (rewrite length_flipped; apply length_tab). rewrite flip_twice. cbn [bind]. eexists. split; [reflexivity|]. cbv beta iota.
    split; auto. split; auto. split; auto. split; [rewrite length_upd; auto|]. intros c' Hc'. rewrite nth_upd by lia. destruct (Nat.eqb_spec c' c) as [->|NE]; [rewrite GC; auto|apply CW; lia].
  - rewrite E. destruct I as (-> & L & C & LW & CW). exists t. split; auto. f_equal. f_equal. apply (tab_is _ false); auto.
Qed.

Lemma metrics_ok : forall tv, (forall c v, c < nt -> v < N -> nth (c * N + v) tv false = nth v (word c) false) -> length tv = nt * N ->
  cp_metrics mx d Y (decisions N y) tv (tab nt (fun c => negb (good c))) = Ret (tab nt measure, length (filter good (seq 0 nt))).
Proof.
  intros tv C LT. unfold cp_metrics. fold N nt.
  match goal with |- for_ nt ?b ?x = _ => destruct (for_inv (list Q * nat) (fun k st => let '(m, g) := st in
    length m = nt /\ (forall c, c < nt -> nth c m 0%Q = if c <? k then measure c else 0%Q) /\ g = length (filter good (seq 0 k))) nt b x) as ([m g] & E & I) end.
  - split; [apply repeat_length|]. split; [|reflexivity]. intros c Hc. apply nth_repeat_lt. auto.
  - intros c [m g] Hc (L & CM & ->). rewrite (rd_ok _ false) by (rewrite length_tab; auto). rewrite nth_tab by auto. cbn [bind].
    assert (FIN : forall x, x = measure c -> length (upd m c x) = nt /\ (forall c', c' < nt -> nth c' (upd m c x) 0%Q = if c' <? S c then measure c' else 0%Q)).
    { intros x ->. rewrite length_upd. split; auto. intros c' Hc'. rewrite nth_upd by lia. destruct (Nat.eqb_spec c' c) as [->|NE]; [destruct (Nat.ltb_spec c (S c)); [auto|lia]|]. rewrite CM by auto. destruct (Nat.ltb_spec c' c), (Nat.ltb_spec c' (S c)); auto; lia. }
    rewrite seq_S, filter_app, app_length. cbn [filter Nat.add]. destruct (good c) eqn:EG; cbn [negb].
    + match goal with |- context [for_ N ?b ?x] => destruct (for_inv (list Q) (fun k l => l = upd m c (analog y (word c) k)) N b x) as (l & E & I) end.
      * cbn [analog]. rewrite <- (upd_same _ m c 0%Q) at 1. f_equal. rewrite CM by auto. destruct (Nat.ltb_spec c c); [lia|auto].
      * intros i l Hi ->. rewrite (rd_ok _ false) by (unfold decisions; rewrite length_tab; auto). cbn [bind]. rewrite (rd_ok _ false) by (rewrite LT; apply idx_lt; auto). cbn [bind]. rewrite C by auto. unfold decisions. rewrite nth_tab by auto. cbn [analog].
        destruct (xorb (negb (Qle_bool 0 (y i))) (nth i (word c) false)); [|eexists; split; reflexivity].
        rewrite (rd_ok _ 0%Q) by lia. cbn [bind]. rewrite (rd_ok _ 0%Q) by (rewrite length_upd; lia). cbn [bind]. rewrite wr_ok by (rewrite length_upd; lia). eexists. split; [reflexivity|]. rewrite upd_upd_eq, nth_upd_eq by lia. reflexivity.
      * rewrite E, I. cbn [bind]. eexists. split; [reflexivity|]. cbv beta iota. destruct (FIN (analog y (word c) N)) as [F1 F2]; [unfold measure; rewrite EG; auto|]. split; [exact F1|]. split; [exact F2|]. reflexivity.
    + rewrite wr_ok by lia. cbn [bind]. eexists. split; [reflexivity|]. cbv beta iota. destruct (FIN (mx / 2)%Q) as [F1 F2]; [unfold measure; rewrite EG; auto|]. split; [exact F1|]. split; [exact F2|]. cbn [length]. lia.
  - rewrite E. destruct I as (L & CM & ->). f_equal. f_equal. apply (tab_is _ 0%Q); auto. intros c Hc. rewrite CM by auto. destruct (Nat.ltb_spec c nt); [auto|lia].
Qed.

Lemma chase_ok : forall srt s, length (cs_tv s) = nt * N -> cp_find mx d Y = Ret (map (ent y) ps) ->
  exists tv, cp_chase srt hd mx d Y s = Ret (map (ent y) ps, tv, srt (tab nt (fun c => (measure c, c * N))), length (filter good (seq 0 nt))) /\ length tv = nt * N /\
    forall c v, c < nt -> v < N -> nth (c * N + v) tv false = nth v (word c) false.
Proof.
  intros srt s LS EF. unfold cp_chase. fold N nt. rewrite (gen_ok _ _ _ (fun i => negb (Qle_bool 0 (y i)))). 2:{ intros i Hi. rewrite (rd_ok _ 0%Q) by lia. reflexivity. }
  cbn [bind]. fold (decisions N y). rewrite EF. cbn [bind]. destruct (vectors_ok (map (ent y) ps) (cs_tv s)) as (tv & E & L & C); auto.
  { intros i Hi. exists (Qabs (y (nth i ps 0))). rewrite (rd_ok _ (ent y 0)) by (rewrite map_length; lia). rewrite map_nth. reflexivity. }
  rewrite E. cbn [bind]. rewrite metrics_ok by auto. cbn [bind]. rewrite (gen_ok _ _ _ (fun c => (measure c, c * N))). 2:{ intros c Hc. rewrite (rd_ok _ 0%Q) by (rewrite length_tab; auto). rewrite nth_tab by auto. reflexivity. }
  cbn [bind]. exists tv. auto.
Qed.
End Chase.
