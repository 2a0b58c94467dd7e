(** Post-processings of the turbo decoders: flip and check, self-correction, scaling factors
    (C118 to C120). *)
From Coq Require Import List Arith ZArith Lia Bool.
From Coq Require Sorted Permutation.
From Verif Require Import Base Copy HardModel WLoops TurboDecModel TurboDecSpec TurboDecProofs TurboDecProps TurboBcjrProps.
From Verif Require InterleaverModel.
Import ListNotations.
Open Scope nat_scope.

(** What std::partial_sort of the first 20 indices guarantees, [lt] being the comparison. *)
Definition partial_sorts {T} (lt : T -> T -> bool) (d : T) (psort : list T -> list nat) : Prop :=
  forall l, 20 <= length l ->
  20 <= length (psort l) /\ NoDup (firstn 20 (psort l)) /\ (forall k, k < 20 -> nth k (psort l) 0 < length l) /\
  (forall a b, a < b < 20 -> lt (nth (nth b (psort l) 0) l d) (nth (nth a (psort l) 0) l d) = false) /\
  (forall a i, a < 20 -> i < length l -> ~ In i (firstn 20 (psort l)) -> lt (nth i l d) (nth (nth a (psort l) 0) l d) = false).

(** The bits [h] with those at the positions chosen by the pattern [p] flipped: bit d of p is
    for the position of rank d. *)
Definition chosen (pos : list nat) (p i : nat) : bool := existsb (fun d => Nat.testbit p d && (nth d pos 0 =? i)) (seq 0 (length pos)).
Definition flipped (pos : list nat) (p : nat) (h : list Z) : list Z := tab (length h) (fun i => Z.lxor (nth i h 0%Z) (if chosen pos p i then 1%Z else 0%Z)).

Lemma firstn_in : forall (l : list nat) k i, k < i -> i <= length l -> In (nth k l 0) (firstn i l).
Proof. intros l k i Hk Hi. rewrite <- (WLoops.nth_firstn_lt _ 0 i k l Hk). apply nth_In. rewrite firstn_length. lia. Qed.

Section Fnc.
Variable T : Type.
Variables (zero : T) (add : T -> T -> T) (lt0 sgn : T -> bool) (sgnz : T -> Z) (absT : T -> T) (psort : list T -> list nat) (E : nat).
Hypothesis SG : forall x, sgn x = lt0 x.
Hypothesis HE : 0 < E.
Variable lt : T -> T -> bool.
Hypothesis PSORT : partial_sorts lt zero psort.

Lemma chosen_S : forall pos q p i, q < length pos -> chosen (firstn (S q) pos) p i = chosen (firstn q pos) p i || (Nat.testbit p q && (nth q pos 0 =? i)).
Proof.
  intros pos q p i Hq. unfold chosen. rewrite !firstn_length, !Nat.min_l by lia. rewrite seq_S, existsb_app. cbn [existsb Nat.add]. rewrite orb_false_r. rewrite (WLoops.nth_firstn_lt _ 0 (S q) q pos) by lia.
  f_equal. assert (F : forall l, (forall d, In d l -> d < q) -> existsb (fun d => Nat.testbit p d && (nth d (firstn (S q) pos) 0 =? i)) l = existsb (fun d => Nat.testbit p d && (nth d (firstn q pos) 0 =? i)) l).
  { induction l as [|d l IH]; intros H; cbn [existsb]; [reflexivity|]. rewrite IH by (intros; apply H; right; assumption). rewrite !WLoops.nth_firstn_lt by (pose proof (H d (or_introl eq_refl)); lia). reflexivity. }
  apply F. intros d Hd. apply in_seq in Hd. lia.
Qed.

Lemma flip_ok : forall q positions pattern s s_tmp, q <= length positions -> NoDup (firstn q positions) -> (forall k, k < q -> nth k positions 0 < length s) -> length s_tmp = length s ->
  flip q positions pattern s s_tmp = Ret (flipped (firstn q positions) (S pattern) s).
Proof.
  intros q positions pattern s s_tmp LQ ND B LT. unfold flip.
  rewrite (copy_list _ 0%Z) by lia. cbn [bind]. replace (firstn 0 s_tmp ++ _) with s. 2:{ cbn [firstn skipn app Nat.add]. rewrite firstn_all, <- LT, skipn_all, app_nil_r. reflexivity. }
  assert (G : forall r, r <= q -> for_ r (fun depth s_tmp => p <- rd positions depth ;; x <- rd s_tmp p ;; wr s_tmp p (Z.lxor x (bitz (tab_flip pattern depth)))) s = Ret (flipped (firstn r positions) (S pattern) s)).
  { induction r as [|r IH]; intros Hr.
    - cbn. f_equal. apply (eq_tab _ 0%Z); [reflexivity|]. intros i Hi. cbn. rewrite Z.lxor_0_r. reflexivity.
    - rewrite for_S, IH by lia. cbn [bind]. rewrite (rd_ok _ 0) by lia. cbn [bind]. specialize (B r ltac:(lia)).
      assert (LF : forall z, length (flipped z (S pattern) s) = length s) by (intros; apply length_tab).
      rewrite (rd_ok _ 0%Z) by (rewrite LF; exact B). cbn [bind]. rewrite wr_ok by (rewrite LF; exact B). f_equal.
      apply (eq_tab _ 0%Z); [rewrite length_upd; apply LF|]. intros i Hi. rewrite chosen_S by lia.
      destruct (Nat.eq_dec i (nth r positions 0)) as [->|NE].
      + rewrite nth_upd_eq by (rewrite LF; exact B). unfold flipped at 1. rewrite nth_tab by exact B.
        assert (C : chosen (firstn r positions) (S pattern) (nth r positions 0) = false).
        { unfold chosen. apply not_true_is_false. intros C. apply existsb_exists in C. destruct C as (d & Hd & C). apply in_seq in Hd. rewrite firstn_length, Nat.min_l in Hd by lia. apply andb_true_iff in C. destruct C as [_ C]. apply Nat.eqb_eq in C. rewrite WLoops.nth_firstn_lt in C by lia.
          assert (d = r); [|lia]. apply (proj1 (NoDup_nth (firstn q positions) 0) ND); rewrite ?firstn_length, ?Nat.min_l, ?WLoops.nth_firstn_lt by lia; lia. }
        rewrite C. cbn [orb]. rewrite Z.lxor_0_r, Nat.eqb_refl, andb_true_r. unfold tab_flip, bitz. rewrite Nat.add_1_r. reflexivity.
      + rewrite nth_upd_neq by congruence. unfold flipped at 1. rewrite nth_tab by exact Hi. destruct (Nat.eqb_spec (nth r positions 0) i) as [EQ|_]; [congruence|]. rewrite andb_false_r, orb_false_r. reflexivity. }
  apply G. lia.
Qed.

(** The outcome of flip and check on the decisions [h], [r] being the decisions it leaves. *)
Definition fnc_outcome (check : list Z -> bool) (pos : list nat) (h : list Z) (stop : bool) (r : list Z) : Prop :=
  if check h then stop = true /\ r = h
  else (stop = true /\ exists p, 1 <= p < 2 ^ length pos /\ check (flipped pos p h) = true /\ (forall p', 1 <= p' < p -> check (flipped pos p' h) = false) /\ r = flipped pos p h) \/
       (stop = false /\ (forall p, 1 <= p < 2 ^ length pos -> check (flipped pos p h) = false) /\ r = h).

Lemma flip_loop_ok : forall q check positions s, q <= length positions -> NoDup (firstn q positions) -> (forall k, k < q -> nth k positions 0 < length s) -> check s = false ->
  forall fuel pattern s_tmp, length s_tmp = length s -> pattern < 2 ^ q -> 2 ^ q <= fuel + pattern -> (pattern = 0 \/ pattern + 1 < 2 ^ q) ->
  (forall p, 1 <= p <= pattern -> check (flipped (firstn q positions) p s) = false) ->
  exists b r, flip_loop fuel pattern q check positions s s_tmp = Ret (b, r) /\ length r = length s /\
    ((b = true /\ exists p, 1 <= p < 2 ^ q /\ check (flipped (firstn q positions) p s) = true /\ (forall p', 1 <= p' < p -> check (flipped (firstn q positions) p' s) = false) /\ r = flipped (firstn q positions) p s) \/
     (b = false /\ forall p, 1 <= p < 2 ^ q -> check (flipped (firstn q positions) p s) = false)).
Proof.
  intros q check positions s LQ ND B CS. induction fuel as [|fuel IH]; intros pattern s_tmp LT HP HF HB NO; [lia|].
  cbn [flip_loop]. rewrite flip_ok by assumption. cbn [bind]. set (f := flipped (firstn q positions) (S pattern) s).
  assert (LF : length f = length s) by apply length_tab.
  destruct (check f) eqn:CF.
  - rewrite andb_false_r. do 2 eexists. split; [reflexivity|]. split; [exact LF|]. left. split; [reflexivity|].
    destruct (Nat.eq_dec (pattern + 1) (2 ^ q)) as [EQ|NE].
    + destruct HB as [->|]; [|lia]. cbn [Nat.add] in EQ. assert (q = 0) as ->. { destruct q; [reflexivity|]. cbn [Nat.pow] in EQ. lia. }
      exfalso. assert (f = s); [|congruence]. unfold f. symmetry. apply (eq_tab _ 0%Z); [reflexivity|]. intros i Hi. cbn. rewrite Z.lxor_0_r. reflexivity.
    + exists (S pattern). split; [lia|]. split; [exact CF|]. split; [|reflexivity]. intros p' Hp. apply NO. lia.
  - cbn [negb]. rewrite andb_true_r. assert (NO' : forall p, 1 <= p <= S pattern -> check (flipped (firstn q positions) p s) = false). { intros p Hp. destruct (Nat.eq_dec p (S pattern)) as [->|]; [exact CF|apply NO; lia]. }
    destruct (Nat.ltb_spec (pattern + 1) (2 ^ q - 1)) as [LTB|GE].
    + rewrite Nat.add_1_r. apply IH; try lia. exact NO'.
    + do 2 eexists. split; [reflexivity|]. split; [exact LF|]. right. split; [reflexivity|]. intros p Hp. apply NO'. lia.
Qed.

(** ** C118 *)
(** The decisions of the wave at this iteration. *)
Definition decisions (n : nat) (sys ext : list T) : list Z := tab n (fun i => hard lt0 (add (nth i sys zero) (nth i ext zero))).

(** At an iteration where it applies, from the first one checked on: the decisions if they
    pass the check; otherwise the first pattern of flips of the q least reliable positions that
    passes it, all the 2^q - 1 patterns being tried in the order of their numbers; otherwise
    the decisions, and the decoder goes on.  The extrinsic values are left alone. *)
Theorem C118_fnc : forall n start check q its metric s_tmp ite sys ext s,
  20 <= n -> q <= 20 -> length metric = n -> length s_tmp = n -> length s = n -> n <= length sys -> n <= length ext -> start <= ite -> In ite its ->
  exists stop s' metric' s_tmp' pos,
    pp_n T zero add lt0 sgn sgnz absT psort E ite sys ext s (PFnc T start check q its metric s_tmp) = Ret (stop, ext, s', PFnc T start check q its metric' s_tmp') /\
    length metric' = n /\ length s_tmp' = n /\ length s' = n /\
    length pos = q /\ NoDup pos /\ (forall i, In i pos -> i < n) /\
    (forall i k, In i pos -> k < n -> ~ In k pos -> lt (absT (add (nth k sys zero) (nth k ext zero))) (absT (add (nth i sys zero) (nth i ext zero))) = false) /\
    fnc_outcome check pos (decisions n sys ext) stop s'.
Proof.
  intros n start check q its metric s_tmp ite sys ext s Hn Hq LM LT LS LSY LEX HS HI.
  set (mt := tab n (fun i => absT (add (nth i sys zero) (nth i ext zero)))). assert (LMT : length mt = n) by apply length_tab.
  destruct (PSORT mt ltac:(lia)) as (P1 & P2 & P3 & P4 & P5). rewrite LMT in P3, P5. set (pos := firstn q (psort mt)).
  assert (LP : length pos = q) by (unfold pos; rewrite firstn_length; lia).
  assert (INP : forall i, In i pos -> exists a, a < q /\ nth a (psort mt) 0 = i). { intros i Hi. destruct (In_nth _ _ 0 Hi) as (a & Ha & EA). exists a. rewrite LP in Ha. split; [exact Ha|]. unfold pos in EA. rewrite WLoops.nth_firstn_lt in EA by exact Ha. exact EA. }
  assert (NDP : NoDup pos). { unfold pos. replace q with (Nat.min q 20) by lia. rewrite <- firstn_firstn. apply (NoDup_nth _ 0). intros i j Hi Hj EQ. rewrite firstn_length, firstn_length in Hi, Hj. rewrite !(WLoops.nth_firstn_lt _ 0 q) in EQ by lia. apply (proj1 (NoDup_nth _ 0) P2); rewrite ?firstn_length; first [lia|exact EQ]. }
  assert (PB : forall i, In i pos -> i < n). { intros i Hi. destruct (INP i Hi) as (a & Ha & <-). apply P3. lia. }
  assert (PL : forall i k, In i pos -> k < n -> ~ In k pos -> lt (absT (add (nth k sys zero) (nth k ext zero))) (absT (add (nth i sys zero) (nth i ext zero))) = false).
  { intros i k Hi Hk NK. destruct (INP i Hi) as (a & Ha & EA). assert (Hin : i < n) by (apply PB; exact Hi).
    assert (MV : forall j, j < n -> absT (add (nth j sys zero) (nth j ext zero)) = nth j mt zero) by (intros j Hj; unfold mt; rewrite nth_tab by exact Hj; reflexivity).
    rewrite !MV by assumption. rewrite <- EA. destruct (in_dec Nat.eq_dec k (firstn 20 (psort mt))) as [IK|NIK]; [|apply P5; [lia|exact Hk|exact NIK]].
    destruct (In_nth _ _ 0 IK) as (b & Hb & EB). rewrite firstn_length, Nat.min_l in Hb by lia. rewrite WLoops.nth_firstn_lt in EB by lia. rewrite <- EB. apply P4. split; [|lia].
    destruct (Nat.lt_ge_cases b q) as [Hbq|]; [|lia]. exfalso. apply NK. rewrite <- EB. apply firstn_in; lia. }
  set (h := decisions n sys ext). assert (LH : length h = n) by apply length_tab.
  assert (CD : crc_decide T add lt0 sgn E sys ext s = Ret h).
  { pose proof (crc_decide_ok T zero add lt0 sgn E {| InterleaverModel.size := n; InterleaverModel.uniform := false; InterleaverModel.core_nf := 1; InterleaverModel.nf := 1; InterleaverModel.npw := 1; InterleaverModel.nel := 1 |} Nat.lt_0_1 (or_introl eq_refl) HE SG sys ext s) as C. cbn [InterleaverModel.size InterleaverModel.npw] in C. rewrite Nat.mul_1_r in C. rewrite C by assumption. reflexivity. }
  cbn [pp_n]. unfold crc_siso. destruct (Nat.leb_spec start ite); [|lia]. rewrite CD. cbn [bind].
  assert (EI : existsb (Nat.eqb ite) its = true) by (apply existsb_exists; exists ite; split; [exact HI|apply Nat.eqb_refl]). rewrite EI, andb_true_r.
  destruct (check h) eqn:CH; cbn [negb].
  - do 4 eexists. exists pos. split; [reflexivity|]. do 7 (split; [first [assumption|lia]|]). unfold fnc_outcome. rewrite CH. auto.
  - unfold apply_fnc.
    assert (EM : for_ (length metric) (fun i metric => x <- rd sys i ;; y <- rd ext i ;; wr metric i (absT (add x y))) metric = Ret mt).
    { destruct (for_fill T zero (fun i => absT (add (nth i sys zero) (nth i ext zero))) (length metric) (fun i metric => x <- rd sys i ;; y <- rd ext i ;; wr metric i (absT (add x y))) metric) as (m1 & E1 & L1 & I1); [lia| |].
      - intros i x Hi Li _. rewrite (rd_ok _ zero) by lia. cbn [bind]. rewrite (rd_ok _ zero) by lia. reflexivity.
      - rewrite E1. f_equal. apply (eq_tab _ zero); [lia|]. intros i Hi. rewrite I1. destruct (Nat.ltb_spec i (length metric)); [reflexivity|lia]. }
    rewrite EM. cbn [bind]. rewrite LMT. destruct (Nat.leb_spec 20 n); [|lia]. cbn [bind].
    destruct (flip_loop_ok q check (psort mt) h) with (fuel := 2 ^ q) (pattern := 0) (s_tmp := s_tmp) as (b & r & EF & LR & OUT); try assumption; try lia; auto.
    { intros k Hk. rewrite LH. apply P3. lia. } { apply Nat.neq_0_lt_0, Nat.pow_nonzero. lia. }
    rewrite EF. cbn [bind]. fold pos in OUT. destruct OUT as [(-> & p & Hp & Cp & Mp & ->)|(-> & NO)].
    + rewrite (copy_list _ 0%Z) by lia. cbn [bind]. do 4 eexists. exists pos. split; [reflexivity|]. split; [exact LMT|]. split; [lia|].
      assert (EQ : firstn 0 h ++ firstn (length (flipped pos p h)) (skipn 0 (flipped pos p h)) ++ skipn (0 + length (flipped pos p h)) h = flipped pos p h).
      { cbn [firstn skipn app Nat.add]. rewrite firstn_all, LR, skipn_all, app_nil_r. reflexivity. }
      rewrite EQ. split; [lia|]. do 4 (split; [assumption|]). unfold fnc_outcome. rewrite CH, LP. left. split; [reflexivity|]. exists p. auto.
    + cbn [bind]. do 4 eexists. exists pos. split; [reflexivity|]. split; [exact LMT|]. split; [lia|]. split; [exact LH|]. do 4 (split; [assumption|]). unfold fnc_outcome. rewrite CH, LP. right. auto.
Qed.

(** At the other iterations it is the CRC checker. *)
Theorem C118_other_iterations : forall start check q its metric s_tmp ite sys ext s b s',
  ~ In ite its -> crc_siso T add lt0 sgn E start check ite sys ext s = Ret (b, s') ->
  pp_n T zero add lt0 sgn sgnz absT psort E ite sys ext s (PFnc T start check q its metric s_tmp) = Ret (b, ext, s', PFnc T start check q its metric s_tmp).
Proof.
  intros start check q its metric s_tmp ite sys ext s b s' NI EC. cbn [pp_n]. rewrite EC. cbn [bind].
  assert (EI : existsb (Nat.eqb ite) its = false). { apply not_true_is_false. intros C. apply existsb_exists in C. destruct C as (k & Hk & EK). apply Nat.eqb_eq in EK. subst k. contradiction. } rewrite EI, andb_false_r. reflexivity.
Qed.

(** Fewer than 20 bits in the wave: the sort reads past the end. *)
Theorem C118_short_refuted : forall n start check q its metric s_tmp ite sys ext s,
  n < 20 -> length metric = n -> length s = n -> n <= length sys -> n <= length ext -> start <= ite -> In ite its -> check (decisions n sys ext) = false ->
  pp_n T zero add lt0 sgn sgnz absT psort E ite sys ext s (PFnc T start check q its metric s_tmp) = Undef.
Proof.
  intros n start check q its metric s_tmp ite sys ext s Hn LM LS LSY LEX HS HI CH.
  assert (CD : crc_decide T add lt0 sgn E sys ext s = Ret (decisions n sys ext)).
  { pose proof (crc_decide_ok T zero add lt0 sgn E {| InterleaverModel.size := n; InterleaverModel.uniform := false; InterleaverModel.core_nf := 1; InterleaverModel.nf := 1; InterleaverModel.npw := 1; InterleaverModel.nel := 1 |} Nat.lt_0_1 (or_introl eq_refl) HE SG sys ext s) as C. cbn [InterleaverModel.size InterleaverModel.npw] in C. rewrite Nat.mul_1_r in C. rewrite C by assumption. reflexivity. }
  cbn [pp_n]. unfold crc_siso. destruct (Nat.leb_spec start ite); [|lia]. rewrite CD. cbn [bind]. rewrite CH.
  assert (EI : existsb (Nat.eqb ite) its = true) by (apply existsb_exists; exists ite; split; [exact HI|apply Nat.eqb_refl]). rewrite EI. cbn [negb andb]. unfold apply_fnc.
  destruct (for_fill T zero (fun i => absT (add (nth i sys zero) (nth i ext zero))) (length metric) (fun i metric => x <- rd sys i ;; y <- rd ext i ;; wr metric i (absT (add x y))) metric) as (m1 & E1 & L1 & I1); [lia| |].
  - intros i x Hi Li _. rewrite (rd_ok _ zero) by lia. cbn [bind]. rewrite (rd_ok _ zero) by lia. reflexivity.
  - rewrite E1. cbn [bind]. destruct (Nat.leb_spec 20 (length m1)); [lia|reflexivity].
Qed.
End Fnc.

(** A sort that meets the hypothesis: insertion of the indices. *)
Fixpoint ins (l : list Z) (i : nat) (xs : list nat) : list nat :=
  match xs with
  | [] => [i]
  | x :: r => if (nth i l 0 <? nth x l 0)%Z then i :: xs else x :: ins l i r
  end.
Definition isort (l : list Z) : list nat := fold_right (ins l) [] (seq 0 (length l)).
Lemma ins_perm : forall l i xs, Permutation.Permutation (ins l i xs) (i :: xs).
Proof.
  induction xs as [|x xs IH]; cbn [ins]; [reflexivity|]. destruct (_ <? _)%Z; [reflexivity|]. etransitivity; [apply Permutation.perm_skip, IH|]. apply Permutation.perm_swap.
Qed.
Lemma ins_sorted : forall l i xs, Sorted.StronglySorted (fun a b => nth a l 0%Z <= nth b l 0%Z)%Z xs -> Sorted.StronglySorted (fun a b => nth a l 0%Z <= nth b l 0%Z)%Z (ins l i xs).
Proof.
  intros l i xs H. induction H as [|x xs SS IH FA]; cbn [ins]; [repeat constructor|]. destruct (Z.ltb_spec (nth i l 0%Z) (nth x l 0%Z)).
  - constructor; [constructor; assumption|]. constructor; [lia|]. rewrite Forall_forall in *. intros a Ha. specialize (FA a Ha). cbv beta in FA. lia.
  - constructor; [exact IH|]. eapply Permutation.Permutation_Forall; [symmetry; apply ins_perm|]. constructor; [lia|exact FA].
Qed.
Lemma isort_perm : forall l, Permutation.Permutation (isort l) (seq 0 (length l)).
Proof.
  intros l. unfold isort. generalize (seq 0 (length l)) as xs. induction xs as [|x xs IH]; cbn [fold_right]; [reflexivity|]. etransitivity; [apply ins_perm|]. apply Permutation.perm_skip, IH.
Qed.
Lemma isort_sorted : forall l, Sorted.StronglySorted (fun a b => nth a l 0%Z <= nth b l 0%Z)%Z (isort l).
Proof. intros l. unfold isort. generalize (seq 0 (length l)) as xs. induction xs as [|x xs IH]; cbn [fold_right]; [constructor|]. apply ins_sorted, IH. Qed.
Lemma sorted_nth : forall (R : nat -> nat -> Prop) xs, Sorted.StronglySorted R xs -> forall a b, a < b < length xs -> R (nth a xs 0) (nth b xs 0).
Proof.
  intros R xs H. induction H as [|x xs SS IH FA]; intros a b Hab; cbn [length] in *; [lia|]. destruct b as [|b]; [lia|]. destruct a as [|a]; cbn [nth].
  - rewrite Forall_forall in FA. apply FA, nth_In. lia.
  - apply IH. lia.
Qed.
Lemma isort_sorts : partial_sorts Z.ltb 0%Z isort.
Proof.
  intros l Hl. pose proof (isort_perm l) as P. pose proof (isort_sorted l) as S. assert (L : length (isort l) = length l) by (rewrite (Permutation.Permutation_length P); apply seq_length).
  assert (ND : NoDup (isort l)) by (eapply Permutation.Permutation_NoDup; [symmetry; exact P|apply seq_NoDup]).
  split; [lia|]. split; [|split; [|split]].
  - rewrite <- (firstn_skipn 20) in ND. clear - ND. induction (firstn 20 (isort l)) as [|x xs IH]; [constructor|]. cbn [app] in ND. inversion ND as [|? ? NI ND']; subst. constructor; [|apply IH; exact ND']. intros C. apply NI. apply in_or_app. left. exact C.
  - intros k Hk. assert (I : In (nth k (isort l) 0) (seq 0 (length l))) by (eapply Permutation.Permutation_in; [exact P|apply nth_In; lia]). apply in_seq in I. lia.
  - intros a b Hab. apply Z.ltb_ge. apply (sorted_nth _ _ S). lia.
  - intros a i Ha Hi NI. apply Z.ltb_ge. assert (I : In i (isort l)) by (eapply Permutation.Permutation_in; [symmetry; exact P|apply in_seq; lia]).
    destruct (In_nth _ _ 0 I) as (b & Hb & <-). apply (sorted_nth _ _ S). destruct (Nat.lt_ge_cases b 20) as [C|C]; [|lia]. exfalso. apply NI. apply firstn_in; lia.
Qed.

Notation zpp_n := (pp_n Z 0%Z Z.add (fun x => x <? 0)%Z (fun x => x <? 0)%Z Z.sgn Z.abs isort 4).
(** 20 bits, the two weakest ones at 3 and 7; the check asks for an even number of ones. *)
Definition even_check (h : list Z) : bool := Z.even (fold_right Z.add 0%Z h).
Definition weak20 : list Z := tab 20 (fun i => if i =? 7 then (-1)%Z else if i =? 3 then 2%Z else 9%Z).
Example C118_example : exists st, zpp_n 3 weak20 (repeat 0%Z 20) (repeat 5%Z 20) (PFnc Z 2 even_check 2 [3; 4] (repeat 0%Z 20) (repeat 0%Z 20)) = Ret (true, repeat 0%Z 20, repeat 0%Z 20, st) /\
  even_check (decisions Z 0%Z Z.add (fun x => x <? 0)%Z 20 weak20 (repeat 0%Z 20)) = false.
Proof. eexists. split; vm_compute; reflexivity. Qed.

(** An iteration of flip and check before the first one checked: the decisions of this frame
    are all ones, those in the buffer are zeros left by another frame, and it is a word near the
    latter that is returned: at distance 19 from the decisions, of which only q = 1 could be flipped. *)
Definition one_check (h : list Z) : bool := (fold_right Z.add 0 h =? 1)%Z.
Theorem C118_before_start_refuted : exists st s',
  zpp_n 3 (repeat (-9)%Z 20) (repeat 0%Z 20) (repeat 0%Z 20) (PFnc Z 4 one_check 1 [3; 4] (repeat 0%Z 20) (repeat 0%Z 20)) = Ret (true, repeat 0%Z 20, s', st) /\
  fold_right Z.add 0%Z s' = 1%Z /\ decisions Z 0%Z Z.add (fun x => x <? 0)%Z 20 (repeat (-9)%Z 20) (repeat 0%Z 20) = repeat 1%Z 20.
Proof. do 2 eexists. split; [vm_compute; reflexivity|]. split; vm_compute; reflexivity. Qed.

(** ** C119: self-correction *)
Section Self.
Variable T : Type.
Variables (zero : T) (sgnz : T -> Z).
Variables (m M n : nat).

(** Position i is corrected at iteration k: the sign differs from that of the previous
    iteration, and it was not corrected at the previous iteration; [e] gives the values before
    correction. *)
Fixpoint corrected (e : nat -> list T) (k i : nat) : bool :=
  match k with
  | O => false
  | S j => (m <=? k) && (k <=? M) && (1 <? k) && negb (sgnz (nth i (e k) zero) =? sgnz (nth i (e j) zero))%Z && negb (corrected e j i)
  end.

(** The calls of iterations k, k + 1, ... on the values e k, e (k + 1), ...; the values they
    leave. *)
Fixpoint calls (k count : nat) (e : nat -> list T) (hist : list (list T)) (osc prev : list bool) : outcome (list (list T) * list bool) :=
  match count with
  | O => Ret ([], prev)
  | S c => '(x, hist, osc, prev) <- self_siso T zero sgnz m M k (e k) hist osc prev ;;
           '(xs, prev) <- calls (S k) c e hist osc prev ;; Ret (x :: xs, prev)
  end.

Lemma correct_ok : forall osc prev ext, length osc = n -> length prev = n -> length ext = n ->
  correct T zero osc prev ext = Ret (tab n (fun i => nth i osc false && negb (nth i prev false)), tab n (fun i => if nth i osc false && negb (nth i prev false) then zero else nth i ext zero)).
Proof.
  intros osc prev ext LO LP LE. unfold correct.
  assert (G : forall r, r <= n -> exists p x, for_ r (fun i (st : list bool * list T) =>
    let (prev, ext) := st in
    o <- rd osc i ;; p <- rd prev i ;;
    if o && negb p then ext <- wr ext i zero ;; prev <- wr prev i true ;; Ret (prev, ext)
    else prev <- wr prev i false ;; Ret (prev, ext)) (prev, ext) = Ret (p, x) /\ length p = n /\ length x = n /\
     (forall i, i < n -> nth i p false = if i <? r then nth i osc false && negb (nth i prev false) else nth i prev false) /\
     (forall i, i < n -> nth i x zero = if (i <? r) && (nth i osc false && negb (nth i prev false)) then zero else nth i ext zero)).
  { induction r as [|r IH]; intros Hr.
    - exists prev, ext. split; [reflexivity|]. auto.
    - destruct (IH ltac:(lia)) as (p & x & E & L1 & L2 & I1 & I2). rewrite for_S, E. cbn [bind]. rewrite (rd_ok _ false) by lia. cbn [bind]. rewrite (rd_ok _ false) by lia. cbn [bind].
      assert (NP : nth r p false = nth r prev false). { rewrite I1 by lia. rewrite Nat.ltb_irrefl. reflexivity. } rewrite NP.
      destruct (nth r osc false && negb (nth r prev false)) eqn:C.
      + rewrite wr_ok by lia. cbn [bind]. rewrite wr_ok by lia. cbn [bind]. do 2 eexists. split; [reflexivity|]. rewrite !length_upd. split; [exact L1|]. split; [exact L2|]. split; intros i Hi; destruct (Nat.eq_dec i r) as [->|NE].
        * rewrite nth_upd_eq by lia. destruct (Nat.ltb_spec r (S r)); [rewrite C; reflexivity|lia].
        * rewrite nth_upd_neq by congruence. rewrite I1 by exact Hi. destruct (Nat.ltb_spec i r), (Nat.ltb_spec i (S r)); try lia; reflexivity.
        * rewrite nth_upd_eq by lia. destruct (Nat.ltb_spec r (S r)); [rewrite C; reflexivity|lia].
        * rewrite nth_upd_neq by congruence. rewrite I2 by exact Hi. destruct (Nat.ltb_spec i r), (Nat.ltb_spec i (S r)); try lia; reflexivity.
      + rewrite wr_ok by lia. cbn [bind]. do 2 eexists. split; [reflexivity|]. rewrite !length_upd. split; [exact L1|]. split; [exact L2|]. split; intros i Hi; destruct (Nat.eq_dec i r) as [->|NE].
        * rewrite nth_upd_eq by lia. destruct (Nat.ltb_spec r (S r)); [rewrite C; reflexivity|lia].
        * rewrite nth_upd_neq by congruence. rewrite I1 by exact Hi. destruct (Nat.ltb_spec i r), (Nat.ltb_spec i (S r)); try lia; reflexivity.
        * rewrite I2 by lia. rewrite C, !andb_false_r. reflexivity.
        * rewrite I2 by exact Hi. destruct (Nat.ltb_spec i r), (Nat.ltb_spec i (S r)); try lia; reflexivity. }
  rewrite LE. destruct (G n (le_n n)) as (p & x & E & L1 & L2 & I1 & I2). rewrite E. do 2 f_equal.
  - apply (eq_tab _ false); [exact L1|]. intros i Hi. rewrite I1 by exact Hi. destruct (Nat.ltb_spec i n); [reflexivity|lia].
  - apply (eq_tab _ zero); [exact L2|]. intros i Hi. rewrite I2 by exact Hi. destruct (Nat.ltb_spec i n); [reflexivity|lia].
Qed.

(** The state before the call of iteration k. *)
Definition self_inv (e : nat -> list T) (n_ite k : nat) (hist : list (list T)) (osc prev : list bool) : Prop :=
  length hist = n_ite /\ length osc = n /\ length prev = n /\ (1 < k -> k - 1 <= M -> nth (k - 2) hist [] = e (k - 1)) /\
  (k <= M -> forall i, i < n -> nth i prev false = corrected e (k - 1) i).

Lemma self_step : forall e n_ite k hist osc prev, 1 <= k <= n_ite -> (forall j, length (e j) = n) -> self_inv e n_ite k hist osc prev ->
  exists hist' osc' prev', self_siso T zero sgnz m M k (e k) hist osc prev = Ret (tab n (fun i => if corrected e k i then zero else nth i (e k) zero), hist', osc', prev') /\ self_inv e n_ite (S k) hist' osc' prev'.
Proof.
  intros e n_ite k hist osc prev Hk LE (LH & LO & LP & HH & HP). unfold self_siso. destruct k as [|k]; [lia|]. cbn [corrected].
  assert (ID : e (S k) = tab n (fun i => if false then zero else nth i (e (S k)) zero)) by (apply (eq_tab _ zero); [apply LE|reflexivity]).
  destruct (Nat.leb_spec (S k) M) as [HM|HM].
  2:{ do 3 eexists. split. { rewrite ID at 1. do 4 f_equal. apply tab_ext. intros i Hi. rewrite andb_false_r. reflexivity. } split; [exact LH|]. split; [exact LO|]. split; [exact LP|]. split; intros; lia. }
  unfold collect. rewrite wr_ok by lia. cbn [bind]. set (hist1 := upd hist (S k - 1) (e (S k))).
  assert (LH1 : length hist1 = n_ite) by (unfold hist1; rewrite length_upd; exact LH).
  assert (N1 : nth k hist1 [] = e (S k)) by (unfold hist1; replace (S k - 1) with k by lia; rewrite nth_upd_eq by lia; reflexivity).
  destruct (Nat.ltb_spec 1 (S k)) as [HK|HK].
  2:{ do 3 eexists. split. { rewrite ID at 1. do 4 f_equal. apply tab_ext. intros i Hi. rewrite !andb_false_r. reflexivity. } split; [exact LH1|]. split; [exact LO|]. split; [exact LP|]. split.
      - intros _ _. replace (S (S k) - 2) with k by lia. replace (S (S k) - 1) with (S k) by lia. exact N1.
      - intros HM2 i Hi. replace (S (S k) - 1) with (S k) by lia. cbn [corrected]. destruct (Nat.ltb_spec 1 (S k)); [lia|]. rewrite andb_false_r. cbn [andb]. rewrite HP by (try lia; exact Hi). replace (S k - 1) with 0 by lia. reflexivity. }
  specialize (HH ltac:(lia) ltac:(lia)). replace (S k - 2) with (k - 1) in HH by lia. replace (S k - 1) with k in HH by lia.
  assert (N2 : nth (k - 1) hist1 [] = e k) by (unfold hist1; rewrite nth_upd_neq by lia; exact HH).
  unfold calc_osc.
  destruct (for_fill bool false (fun i => negb (sgnz (nth i (e (S k)) zero) =? sgnz (nth i (e k) zero))%Z) (length osc) (fun i osc =>
    h1 <- rd hist1 (S k - 1) ;; x <- rd h1 i ;; h2 <- rd hist1 (S k - 2) ;; y <- rd h2 i ;; wr osc i (negb (sgnz x =? sgnz y)%Z)) osc) as (o1 & E1 & L1 & I1); [lia| |].
  { intros i x Hi Li _. replace (S k - 1) with k by lia. replace (S k - 2) with (k - 1) by lia. rewrite (rd_ok _ []) by lia. cbn [bind]. rewrite N1. rewrite (rd_ok _ zero) by (rewrite LE; lia). cbn [bind]. rewrite (rd_ok _ []) by lia. cbn [bind]. rewrite N2. rewrite (rd_ok _ zero) by (rewrite LE; lia). reflexivity. }
  rewrite E1. cbn [bind].
  assert (O1 : forall i, i < n -> nth i o1 false = negb (sgnz (nth i (e (S k)) zero) =? sgnz (nth i (e k) zero))%Z) by (intros i Hi; rewrite I1; destruct (Nat.ltb_spec i (length osc)); [reflexivity|lia]).
  specialize (HP ltac:(lia)). replace (S k - 1) with k in HP by lia.
  destruct (Nat.leb_spec m (S k)) as [Hm|Hm].
  - rewrite correct_ok by (try apply LE; lia). cbn [bind]. do 3 eexists. split.
    + do 4 f_equal. apply tab_ext. intros i Hi. rewrite O1, HP by exact Hi. reflexivity.
    + split; [exact LH1|]. split; [lia|]. split; [apply length_tab|]. split.
      * intros _ _. replace (S (S k) - 2) with k by lia. replace (S (S k) - 1) with (S k) by lia. exact N1.
      * intros HM2 i Hi. replace (S (S k) - 1) with (S k) by lia. rewrite nth_tab by exact Hi. rewrite O1, HP by exact Hi. cbn [corrected]. destruct (Nat.leb_spec m (S k)); [|lia]. destruct (Nat.leb_spec (S k) M); [|lia]. destruct (Nat.ltb_spec 1 (S k)); [|lia]. reflexivity.
  - do 3 eexists. split.
    + rewrite ID at 1. do 4 f_equal.
    + split; [exact LH1|]. split; [lia|]. split; [exact LP|]. split.
      * intros _ _. replace (S (S k) - 2) with k by lia. replace (S (S k) - 1) with (S k) by lia. exact N1.
      * intros HM2 i Hi. replace (S (S k) - 1) with (S k) by lia. cbn [corrected]. destruct (Nat.leb_spec m (S k)); [lia|]. cbn [andb]. rewrite HP by exact Hi. destruct k; [lia|]. cbn [corrected]. destruct (Nat.leb_spec m (S k)); [lia|]. reflexivity.
Qed.

(** From an object whose corrections are cleared (a new one), the calls of the iterations 1, 2,
    ..., n_ite: at each iteration every extrinsic value is left as it is, or set to zero where the
    sign differs from that of the previous iteration, from iteration m to iteration M, never
    twice in a row. *)
Lemma calls_ok : forall e n_ite, (forall j, length (e j) = n) -> forall c k hist osc prev, 1 <= k -> k + c <= S n_ite -> self_inv e n_ite k hist osc prev ->
  exists prev', calls k c e hist osc prev = Ret (map (fun j => tab n (fun i => if corrected e j i then zero else nth i (e j) zero)) (seq k c), prev').
Proof.
  intros e n_ite LE. induction c as [|c IH]; intros k hist osc prev Hk HC INV; cbn [calls seq map]; [eexists; reflexivity|].
  destruct (self_step e n_ite k hist osc prev ltac:(lia) LE INV) as (h' & o' & p' & E1 & INV'). rewrite E1. cbn [bind].
  destruct (IH (S k) h' o' p' ltac:(lia) ltac:(lia) INV') as (p2 & E2). rewrite E2. cbn [bind]. eexists. reflexivity.
Qed.
Theorem C119_frame_partial : forall e n_ite hist osc prev, (forall j, length (e j) = n) -> length hist = n_ite -> length osc = n -> prev = repeat false n ->
  exists prev', calls 1 n_ite e hist osc prev = Ret (map (fun j => tab n (fun i => if corrected e j i then zero else nth i (e j) zero)) (seq 1 n_ite), prev').
Proof.
  intros e n_ite hist osc prev LE LH LO ->. apply (calls_ok e n_ite LE); [lia|lia|]. split; [exact LH|]. split; [exact LO|]. split; [apply repeat_length|]. split; [lia|].
  intros _ i Hi. cbn. rewrite nth_repeat. reflexivity.
Qed.
Theorem C119_corrected : forall e k i,
  (corrected e k i = true -> m <= k <= M /\ 1 < k /\ sgnz (nth i (e k) zero) <> sgnz (nth i (e (k - 1)) zero) /\ corrected e (k - 1) i = false) /\
  (m <= k <= M -> 1 < k -> sgnz (nth i (e k) zero) <> sgnz (nth i (e (k - 1)) zero) -> corrected e (k - 1) i = false -> corrected e k i = true).
Proof.
  intros e k i. destruct k as [|k]; [cbn; split; [discriminate|lia]|]. replace (S k - 1) with k by lia. cbn [corrected]. split.
  - intros H. repeat (apply andb_true_iff in H; destruct H as [H ?]). repeat match goal with H : negb _ = true |- _ => apply negb_true_iff in H end. apply Nat.leb_le in H. repeat match goal with H : (_ <=? _) = true |- _ => apply Nat.leb_le in H | H : (_ <? _) = true |- _ => apply Nat.ltb_lt in H | H : (_ =? _)%Z = false |- _ => apply Z.eqb_neq in H end. repeat split; auto; lia.
  - intros [H1 H2] H3 H4 H5. rewrite H5. apply Z.eqb_neq in H4. rewrite H4. destruct (Nat.leb_spec m (S k)); [|lia]. destruct (Nat.leb_spec (S k) M); [|lia]. destruct (Nat.ltb_spec 1 (S k)); [|lia]. reflexivity.
Qed.
End Self.

(** The corrections are never cleared between two frames: the same frame decoded twice in a
    row gives two different decisions. *)
Definition m1 : InterleaverModel.itl := {| InterleaverModel.size := 1; InterleaverModel.uniform := false; InterleaverModel.core_nf := 1; InterleaverModel.nf := 1; InterleaverModel.npw := 1; InterleaverModel.nel := 8 |}.
Definition self1 : pp Z := let b := repeat false 9 in let h := repeat (repeat 0%Z 9) 4 in PSelf Z 4 4 h h b b b b.
Notation decode1 := (decode Z 0%Z Z.add (fun x => x <? 0)%Z (fun x => x <? 0)%Z Z.sgn Z.abs (fun _ => []) 8 unit unit (sum_alt 1 1) (sum_alt 1 1) m1 [0] [0] 3 0 0 4 true false).
Notation reached1 := (reached Z 0%Z Z.add (fun x => x <? 0)%Z (fun x => x <? 0)%Z Z.sgn Z.abs (fun _ => []) 8 unit unit (sum_alt 1 1) (sum_alt 1 1) m1 [0] [0] 3 0 0 4 true false 1 1 tt tt [self1]).
Theorem C119_history_refuted : exists d d' d'', reached1 d /\ decode1 0 d [3; -1; -6]%Z [[7]]%Z = Ret (d', [[0]]%Z) /\ decode1 0 d' [3; -1; -6]%Z [[7]]%Z = Ret (d'', [[1]]%Z).
Proof. do 3 eexists. split; [apply reached_ctor; vm_compute; reflexivity|]. split; vm_compute; reflexivity. Qed.
Example C119_example : exists p, calls Z 0%Z Z.sgn 2 4 1 4 (fun j => nth j [[0; 0]; [5; 1]; [-5; 1]; [5; 1]; [-5; -1]] [])%Z (repeat [0; 0]%Z 4) [true; true] [false; false] = Ret ([[5; 1]; [0; 1]; [5; 1]; [0; 0]]%Z, p).
Proof. eexists. vm_compute. reflexivity. Qed.

(** ** C120: scaling factors *)
(** On integers: div2 and div4 are shifts, the product is by the factor converted to an integer. *)
Definition shift (k : Z) (x : Z) : Z := Z.shiftr x k.
Definition int_mul (a x : Z) : Z := (x * a)%Z.
(** The factor num / den converted to an integer type. *)
Definition int_factor (num den : Z) : Z := Z.quot num den.

Lemma shift_sign : forall k, (0 <= k)%Z -> forall x, ((0 <= x)%Z -> (0 <= shift k x)%Z) /\ ((x <= 0)%Z -> (shift k x <= 0)%Z).
Proof.
  intros k Hk x. unfold shift. rewrite Z.shiftr_div_pow2 by exact Hk. pose proof (Z.pow_pos_nonneg 2 k ltac:(lia) Hk). split; intros H0.
  - apply Z.div_pos; lia.
  - replace 0%Z with (0 / 2 ^ k)%Z by (apply Z.div_0_l; lia). apply Z.div_le_mono; lia.
Qed.
(** Every scaling factor keeps the signs, so C117 applies to a turbo decoder with any of them. *)
Theorem C120_keep_signs : forall a al n_ite, (0 <= a)%Z -> Forall (fun a => 0 <= a)%Z al ->
  keeps_sign (constant_n Z (int_mul a)) /\ keeps_sign (constant_i Z (int_mul a) n_ite) /\
  keeps_sign (seq_n Z Z.add (shift 1) (shift 2)) /\ keeps_sign (seq_i Z Z.add (shift 1) (shift 2) n_ite) /\
  keeps_sign (adaptive Z (shift 1) (int_mul a)) /\
  keeps_sign (array_n Z (map int_mul al)) /\ keeps_sign (array_i Z (map int_mul al)).
Proof.
  intros a al n_ite Ha FA.
  assert (M : forall b, (0 <= b)%Z -> forall x, ((0 <= x)%Z -> (0 <= int_mul b x)%Z) /\ ((x <= 0)%Z -> (int_mul b x <= 0)%Z)) by (intros b Hb x; unfold int_mul; split; intros; nia).
  assert (Q : forall x, ((0 <= x)%Z -> (0 <= shift 1 x + shift 2 x)%Z) /\ ((x <= 0)%Z -> (shift 1 x + shift 2 x <= 0)%Z)).
  { intros x. destruct (shift_sign 1 ltac:(lia) x), (shift_sign 2 ltac:(lia) x). split; intros HX; [specialize (H HX); specialize (H1 HX)|specialize (H0 HX); specialize (H2 HX)]; lia. }
  assert (A : forall q x, ((0 <= x)%Z -> (0 <= nth q (map int_mul al) (fun x => x) x)%Z) /\ ((x <= 0)%Z -> (nth q (map int_mul al) (fun x => x) x <= 0)%Z)).
  { intros q x. destruct (Nat.lt_ge_cases q (length al)) as [HQ|HQ].
    - rewrite (nth_indep _ (fun x => x) (int_mul 0)) by (rewrite map_length; exact HQ). rewrite map_nth. apply M. rewrite Forall_forall in FA. apply FA, nth_In. exact HQ.
    - rewrite nth_overflow by (rewrite map_length; exact HQ). auto. }
  repeat split; intros H; unfold constant_n, constant_i, seq_n, seq_i, adaptive, array_n, array_i in *.
  all: try (apply (M a Ha); exact H). all: try (apply Q; exact H). all: try (apply A; exact H).
  - destruct (_ <? _)%Z; [apply (M a Ha); exact H|exact H].
  - destruct (_ <? _)%Z; [apply (M a Ha); exact H|exact H].
  - destruct (_ <? _)%Z; [apply Q; exact H|exact H].
  - destruct (_ <? _)%Z; [apply Q; exact H|exact H].
  - destruct (_ || _); [apply shift_sign; [lia|exact H]|apply (M a Ha); exact H].
  - destruct (_ || _); [apply shift_sign; [lia|exact H]|apply (M a Ha); exact H].
Qed.
(** The sequential scaling is by 3/4, rounded down, with an error below 3/2, and not at all in the
    last two iterations after the second decoder. *)
Theorem C120_seq : forall n_ite ite x,
  (4 * seq_n Z Z.add (shift 1) (shift 2) ite x <= 3 * x < 4 * seq_n Z Z.add (shift 1) (shift 2) ite x + 6)%Z /\
  (ite + 1 < n_ite -> seq_i Z Z.add (shift 1) (shift 2) n_ite ite x = seq_n Z Z.add (shift 1) (shift 2) ite x) /\
  (n_ite <= ite + 1 -> seq_i Z Z.add (shift 1) (shift 2) n_ite ite x = x).
Proof.
  intros n_ite ite x. unfold seq_n, seq_i, shift. rewrite !Z.shiftr_div_pow2 by lia. change (2 ^ 1)%Z with 2%Z. change (2 ^ 2)%Z with 4%Z. split; [|split].
  - pose proof (Z.div_mod x 2 ltac:(lia)). pose proof (Z.mod_pos_bound x 2 ltac:(lia)). pose proof (Z.div_mod x 4 ltac:(lia)). pose proof (Z.mod_pos_bound x 4 ltac:(lia)). lia.
  - intros H. destruct (Z.ltb_spec (Z.of_nat ite) (Z.of_nat n_ite - 1)); [reflexivity|lia].
  - intros H. destruct (Z.ltb_spec (Z.of_nat ite) (Z.of_nat n_ite - 1)); [lia|reflexivity].
Qed.
(** A constant factor in [0, 1[ on integers is zero: the first decoder tells the second one
    nothing; likewise the adaptive scaling from iteration 3 on. *)
Theorem C120_integer_factor_refuted : forall num den ite x, (0 <= num < den)%Z ->
  constant_n Z (int_mul (int_factor num den)) ite x = 0%Z /\
  (3 <= ite -> adaptive Z (shift 1) (int_mul (int_factor 85 100)) ite x = 0%Z).
Proof.
  intros num den ite x H. unfold constant_n, adaptive, int_mul, int_factor. rewrite Z.quot_small by exact H. split; [lia|]. intros H3. destruct (Nat.eqb_spec ite 1); [lia|]. destruct (Nat.eqb_spec ite 2); [lia|]. cbn [orb]. change (Z.quot 85 100) with 0%Z. lia.
Qed.
