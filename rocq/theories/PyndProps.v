(** C140 to C143: the Chase-Pyndiah decoder of the component codes of turbo product codes. *)
From Coq Require Import List Arith Lia Bool QArith Qabs Lqa Sorted Permutation.
From Verif Require Import Base LDPCBPModel LDPCBPProofs TpcSpec TpcProofs PyndModel PyndSpec PyndPat PyndProofs.
Import ListNotations.
Local Open Scope nat_scope.

(** * C140: the patterns and the positions *)

Theorem C140_patterns : forall K N np nl nt nc coef pos d, cp_new K N np nl nt nc coef pos = Ret d ->
  length (cp_pat d) = (if nt =? 0 then 2 ^ nl else nt) /\ (forall p, In p (cp_pat d) -> length p = nl) /\ NoDup (cp_pat d) /\ nth 0 (cp_pat d) [] = repeat false nl /\
  (nt = 0 \/ nt = 2 ^ nl -> forall p, length p = nl -> In p (cp_pat d)).
Proof.
  intros K N np nl nt nc coef pos d E. destruct (new_is _ _ _ _ _ _ _ _ _ E) as (_ & _ & _ & _ & _ & _ & _ & Hl & Ht & _ & _ & _ & ET & _ & EP).
  destruct (patterns_all nl (cp_nt d) (cp_pat d) ltac:(lia) Ht EP) as (A & B & C & D & F). rewrite <- ET. split; auto. split; auto. split; auto. split; auto.
  intros H. apply F. rewrite ET. destruct (Nat.eqb_spec nt 0); [auto|lia].
Qed.
Theorem C140_unfit_refused : forall K N np nl nt nc coef pos, nl = 0 \/ np <= nl \/ 2 ^ nl < nt \/ (if nt =? 0 then 2 ^ nl else nt) < nc \/ length coef <> 5 -> cp_new K N np nl nt nc coef pos = Throws.
Proof.
  intros K N np nl nt nc coef pos H. unfold cp_new. cbv zeta. assert (P : 0 < 2 ^ nl) by (apply Nat.neq_0_lt_0, Nat.pow_nonzero; lia).
  destruct (Nat.eqb_spec nl 0); [reflexivity|]. destruct (Nat.leb_spec np nl); [reflexivity|]. cbn [orb].
  destruct (Nat.eqb_spec nt 0) as [->|]; [rewrite (proj2 (Nat.eqb_neq (2 ^ nl) 0)) by lia; rewrite Nat.ltb_irrefl|rewrite (proj2 (Nat.eqb_neq nt 0)) by lia; destruct (Nat.ltb_spec (2 ^ nl) nt); [reflexivity|]]; cbn [orb];
    (destruct (Nat.eqb_spec nc 0) as [->|]; [|destruct (Nat.eqb_spec nc 0); [lia|]]);
    repeat match goal with |- context [?a <? ?b] => destruct (Nat.ltb_spec a b) | |- context [?a =? ?b] => destruct (Nat.eqb_spec a b) end; cbn [orb negb]; try reflexivity; exfalso; lia.
Qed.
(** The least reliable positions are found, for values below the largest one of their type. *)
Theorem C140_least_reliable : forall mx K N np nl nt nc coef pos d Y, cp_new K N np nl nt nc coef pos = Ret d -> np <= length Y -> (forall i, i < np -> (Qabs (nth i Y 0) < mx)%Q) ->
  exists ps, least_reliable nl np (fun i => nth i Y 0%Q) ps /\ cp_find mx d Y = Ret (map (fun p => (Qabs (nth p Y 0%Q), p)) ps).
Proof.
  intros mx K N np nl nt nc coef pos d Y E LY HM. destruct (new_is _ _ _ _ _ _ _ _ _ E) as (_ & _ & EN & EL & _ & _ & _ & Hl & _).
  exists (firstn nl (psort (fun i => nth i Y 0%Q) np)). split; [apply psort_least; lia|]. rewrite find_ok; [rewrite EN, EL; reflexivity|lia|lia|rewrite EN; auto].
Qed.
(** They are determined. *)
Lemma SS_unique : forall Y n l l', (forall p, In p l <-> In p l') -> length l = n -> StronglySorted (before Y) l -> StronglySorted (before Y) l' -> l = l'.
Proof.
  intros Y. induction n as [|n IH]; intros l l' EQ L S1 S2.
  - destruct l; [|discriminate]. destruct l' as [|x l']; auto. exfalso. apply (proj2 (EQ x)). left. auto.
  - destruct l as [|x l]; [discriminate|]. destruct l' as [|x' l']; [exfalso; apply (proj1 (EQ x)); left; auto|].
    assert (N1 := SS_NoDup _ _ S1). assert (N2 := SS_NoDup _ _ S2). inversion N1; inversion N2; subst. inversion S1 as [|? ? A1 B1]; inversion S2 as [|? ? A2 B2]; subst. rewrite Forall_forall in B1, B2.
    assert (x = x').
    { destruct (Nat.eq_dec x x'); auto. exfalso. assert (In x l') by (destruct (proj1 (EQ x)); [left; auto|congruence|auto]). assert (In x' l) by (destruct (proj2 (EQ x')); [left; auto|congruence|auto]).
      apply (before_irrefl Y x). eapply before_trans; [apply B1; eauto|apply B2; auto]. }
    subst x'. f_equal. apply (IH l l'); auto. intros p. split; intros Hp.
    + destruct (proj1 (EQ p)); [right; auto|subst; contradiction|auto].
    + destruct (proj2 (EQ p)); [right; auto|subst; contradiction|auto].
Qed.
Theorem C140_determined : forall n N Y ps ps', least_reliable n N Y ps -> least_reliable n N Y ps' -> ps = ps'.
Proof.
  intros n N Y ps ps' (L & B & S0 & A) (L' & B' & S' & A').
  assert (GO : forall l l', length l = n -> length l' = n -> (forall p, In p l -> p < N) -> StronglySorted (before Y) l -> StronglySorted (before Y) l' -> (forall i, i < N -> ~ In i l -> forall p, In p l -> before Y p i) -> (forall i, i < N -> ~ In i l' -> forall p, In p l' -> before Y p i) -> (forall p, In p l' -> p < N) -> forall p, In p l -> In p l').
  { intros l l' La Lb Ba Sa Sb Aa Ab Bb p Hp. destruct (in_dec Nat.eq_dec p l') as [|NI]; auto. exfalso.
    assert (EX : exists q, In q l' /\ ~ In q l).
    { destruct (Forall_dec (fun q => In q l) (fun q => in_dec Nat.eq_dec q l) l') as [F|F].
      - exfalso. rewrite Forall_forall in F. apply NI. refine (@NoDup_length_incl nat l' l (SS_NoDup _ _ Sb) _ F p Hp). lia.
      - apply neg_Forall_Exists_neg in F; [|intros q; apply in_dec, Nat.eq_dec]. apply Exists_exists in F. exact F. }
    destruct EX as (q & Q1 & Q2). apply (before_irrefl Y p). eapply before_trans; [apply (Aa q); auto|apply (Ab p); auto]. }
  apply (SS_unique Y n); auto. intros p. split; intros Hp; [apply (GO ps ps')|apply (GO ps' ps)]; auto.
Qed.
(** The largest value itself, to which a fixed-point channel saturates, is never listed: flipping it is out of bounds. *)
Theorem C140_saturated_refuted : exists d, cp_new 1 3 3 1 0 0 [1; 1; 1; 1; 0]%Q [0] = Ret d /\
  forall srt hd, cp_siho_cw srt hd 127%Q d [127; 127; 127]%Q (cp_start d) = Undef /\ cp_siho srt hd 127%Q d [127; 127; 127]%Q (cp_start d) = Undef /\ cp_siso srt hd 127%Q d [127; 127; 127]%Q (cp_start d) = Undef.
Proof. eexists. split; [reflexivity|]. intros srt hd. split; [|split]; reflexivity. Qed.

(** * C141: the decided word *)

(** Number of the candidate chosen by the sort. *)
Lemma sorted_numbers : forall srt n N (f : nat -> Q), sorts srt -> exists L, srt (tab n (fun c => (f c, c * N))) = map (fun c => (f c, c * N)) L /\ Permutation L (seq 0 n) /\ StronglySorted (fun a b => (f a <= f b)%Q) L.
Proof.
  intros srt n N f HS. destruct (HS (tab n (fun c => (f c, c * N)))) as [P S0].
  assert (ET : tab n (fun c => (f c, c * N)) = map (fun c => (f c, c * N)) (seq 0 n)).
  { symmetry. apply (tab_is _ (f 0, 0 * N)); [rewrite map_length, seq_length; auto|]. intros i Hi. rewrite (map_nth (fun c => (f c, c * N))). rewrite seq_nth by auto. reflexivity. }
  rewrite ET in P at 2. destruct (Permutation_map_inv _ _ P) as (L & EL & PL). exists L. split; auto. split; [apply Permutation_sym; auto|]. rewrite EL in S0. clear -S0.
  induction L as [|a L IH]; [constructor|]. cbn [map] in S0. inversion S0 as [|? ? A B]; subst. constructor; auto. rewrite Forall_forall in *. intros b Hb. apply (B (f b, b * N)). apply in_map_iff. exists b. auto.
Qed.
Lemma magnitudes_pos : forall Y n, (0 <= magnitudes Y n)%Q.
Proof. intros Y. induction n as [|n IH]; cbn [magnitudes]; [lra|]. assert (X := Qabs_nonneg (Y n)). lra. Qed.
Lemma magnitude_le : forall Y n i, i < n -> (Qabs (Y i) <= magnitudes Y n)%Q.
Proof.
  intros Y. induction n as [|n IH]; intros i Hi; [lia|]. cbn [magnitudes]. assert (X := Qabs_nonneg (Y n)). destruct (Nat.eq_dec i n) as [->|NE]; [assert (Z := magnitudes_pos Y n); lra|]. specialize (IH i ltac:(lia)). lra.
Qed.
Lemma analog_le : forall Y x n, (0 <= analog Y x n <= magnitudes Y n)%Q.
Proof. intros Y x. induction n as [|n IH]; cbn [analog magnitudes]; [lra|]. assert (X := Qabs_nonneg (Y n)). destruct (xorb _ _); lra. Qed.

(** What the theorems suppose: a decoder with or without a parity bit, values that are not too large, and the buffer of the
    decoder. *)
Definition fair (srt : list (Q * nat) -> list (Q * nat)) (hd : list bool -> list bool * bool) (mx : Q) (N np : nat) (d : cp) (Y : list Q) (s : cp_st) : Prop :=
  (N = np \/ N = np + 1) /\ hard_decoder np hd /\ sorts srt /\ N <= length Y /\ (magnitudes (fun i => nth i Y 0%Q) N < mx / 2)%Q /\ length (cs_tv s) = cp_nt d * N.

Section Fair.
Variables (srt : list (Q * nat) -> list (Q * nat)) (hd : list bool -> list bool * bool) (mx : Q) (K N np nl nt nc : nat) (coef : list Q) (pos : list nat) (d : cp) (Y : list Q) (s : cp_st).
Hypothesis NEW : cp_new K N np nl nt nc coef pos = Ret d.
Hypothesis FAIR : fair srt hd mx N np d Y s.
Let y := fun i => nth i Y 0%Q.
Lemma search : exists ps tv L, least_reliable nl np y ps /\
  (forall c, c < cp_nt d -> (word hd d Y ps c, good hd d Y ps c) = candidate hd (N =? np + 1) np y ps (nth c (cp_pat d) [])) /\
  cp_chase srt hd mx d Y s = Ret (map (ent y) ps, tv, map (fun c => (measure hd mx d Y ps c, c * N)) L, length (filter (good hd d Y ps) (seq 0 (cp_nt d)))) /\ length tv = cp_nt d * N /\
  (forall c v, c < cp_nt d -> v < N -> nth (c * N + v) tv false = nth v (word hd d Y ps c) false) /\ (forall c, length (word hd d Y ps c) = N) /\
  Permutation L (seq 0 (cp_nt d)) /\ StronglySorted (fun a b => (measure hd mx d Y ps a <= measure hd mx d Y ps b)%Q) L /\
  (forall c, good hd d Y ps c = true -> (measure hd mx d Y ps c = analog y (word hd d Y ps c) N /\ measure hd mx d Y ps c < mx / 2)%Q) /\ (forall c, good hd d Y ps c = false -> measure hd mx d Y ps c = (mx / 2)%Q).
Proof.
  destruct FAIR as (SZ & HD & HS & LY & HM & LS). destruct (new_is _ _ _ _ _ _ _ _ _ NEW) as (EK & EN & ENP & ENL & EX & _ & _ & Hl & Ht & _ & _ & _ & ET & _ & EP).
  destruct (patterns_all nl (cp_nt d) (cp_pat d) ltac:(lia) Ht EP) as (P1 & P2 & P3 & P4 & P5).
  assert (BY : forall i, i < np -> (Qabs (nth i Y 0) < mx)%Q). { intros i Hi. assert (A := magnitude_le y N i ltac:(lia)). fold y in HM. unfold y in A at 1. assert (B := magnitudes_pos y N). assert ((mx / 2) == (1 # 2) * mx)%Q by (field). lra. }
  destruct (C140_least_reliable mx _ _ _ _ _ _ _ _ d Y NEW ltac:(lia) BY) as (ps & LR & EF). assert (LRs := LR). destruct LRs as (LP & PB & SP & _).
  assert (SN : cp_N d = cp_np d + (if cp_ext d then 1 else 0)). { rewrite EN, ENP, EX. destruct (Nat.eqb_spec N (np + 1)); lia. }
  assert (SN' : N = np + (if cp_ext d then 1 else 0)) by (rewrite <- EN at 1; rewrite SN, ENP; reflexivity).
  destruct (chase_ok hd mx d Y ps) with (srt := srt) (s := s) as (tv & E & L & C); rewrite ?EN, ?ENP, ?ENL; auto.
  { apply (SS_NoDup _ _ SP). }
  rewrite EN in E, L, C. destruct (sorted_numbers srt (cp_nt d) N (measure hd mx d Y ps) HS) as (Ls & EL & PL & SL).
  exists ps, tv, Ls. split; [exact LR|]. split; [intros c Hc; unfold word, good, answer, candidate; rewrite EX, ENP; reflexivity|]. split; [rewrite <- EL; exact E|]. split; [exact L|]. split; [exact C|].
  split. { intros c. rewrite <- EN. apply length_word; try exact SN; rewrite ?EN, ?ENP, ?ENL; auto. }
  split; [exact PL|]. split; [exact SL|]. split.
  - intros c Hc. unfold measure. rewrite Hc, EN. split; [reflexivity|]. assert (A := analog_le y (word hd d Y ps c) N). fold y in HM. fold y. lra.
  - intros c Hc. unfold measure. rewrite Hc. reflexivity.
Qed.
End Fair.

Lemma head_least : forall (f : nat -> Q) L a, StronglySorted (fun a b => (f a <= f b)%Q) (a :: L) -> forall b, In b (a :: L) -> (f a <= f b)%Q.
Proof. intros f L a H b [->|Hb]; [lra|]. inversion H as [|? ? A B]; subst. rewrite Forall_forall in B. auto. Qed.
Lemma pattern_number : forall A (l : list A) x (e : A), In x l -> exists c, c < length l /\ nth c l e = x.
Proof. intros A l x e H. apply (In_nth _ _ e) in H. destruct H as (c & Hc & E). exists c. auto. Qed.

Definition best (hd : list bool -> list bool * bool) (ext : bool) (N np : nat) (y : nat -> Q) (ps : list nat) (pats : list (list bool)) (pat : list bool) : Prop :=
  In pat pats /\ forall pat', In pat' pats -> snd (candidate hd ext np y ps pat') = true ->
    snd (candidate hd ext np y ps pat) = true /\ (analog y (fst (candidate hd ext np y ps pat)) N <= analog y (fst (candidate hd ext np y ps pat')) N)%Q.

Lemma decide : forall srt hd mx K N np nl nt nc coef pos d Y s, cp_new K N np nl nt nc coef pos = Ret d -> fair srt hd mx N np d Y s ->
  let y i := nth i Y 0%Q in
  exists ps pat tv lrp comp g dw, least_reliable nl np y ps /\ best hd (N =? np + 1) N np y ps (cp_pat d) pat /\ cp_chase srt hd mx d Y s = Ret (lrp, tv, comp, g) /\ length tv = cp_nt d * N /\ rd comp 0 = Ret dw /\
    snd dw + N <= length tv /\ length (fst (candidate hd (N =? np + 1) np y ps pat)) = N /\ forall v, v < N -> nth (snd dw + v) tv false = nth v (fst (candidate hd (N =? np + 1) np y ps pat)) false.
Proof.
  intros srt hd mx K N np nl nt nc coef pos d Y s NEW FAIR y. destruct (search _ _ _ _ _ _ _ _ _ _ _ _ _ _ NEW FAIR) as (ps & tv & L & LR & CD & E & LT & C & LW & PL & SL & G1 & G2). fold y in LR, CD, E, G1.
  destruct (new_is _ _ _ _ _ _ _ _ _ NEW) as (EK & EN & ENP & ENL & EX & _ & _ & Hl & Ht & _ & _ & _ & ET & _ & EP). destruct (patterns_all nl (cp_nt d) (cp_pat d) ltac:(lia) Ht EP) as (P1 & P2 & P3 & P4 & P5).
  destruct L as [|a L]. { apply Permutation_nil in PL. destruct (cp_nt d); [lia|discriminate]. }
  assert (HA : a < cp_nt d). { assert (X : In a (seq 0 (cp_nt d))) by (apply (Permutation_in _ PL); left; auto). apply in_seq in X. lia. }
  exists ps, (nth a (cp_pat d) []), tv, (map (ent y) ps), (map (fun c => (measure hd mx d Y ps c, c * N)) (a :: L)), (length (filter (good hd d Y ps) (seq 0 (cp_nt d)))), (measure hd mx d Y ps a, a * N).
  split; [exact LR|]. assert (CA := CD a HA). split.
  { split; [apply nth_In; lia|]. intros pat' Hp GP. destruct (pattern_number _ _ _ [] Hp) as (c & Hc & <-). rewrite P1 in Hc. assert (CC := CD c Hc). rewrite <- CC in GP. cbn [snd] in GP.
    assert (LE : (measure hd mx d Y ps a <= measure hd mx d Y ps c)%Q). { apply (head_least (measure hd mx d Y ps) L a SL). apply (Permutation_in _ (Permutation_sym PL)). apply in_seq. lia. }
    destruct (G1 c GP) as [MC BC]. rewrite <- CA, <- CC. cbn [fst snd]. destruct (good hd d Y ps a) eqn:GA.
    - destruct (G1 a GA) as [MA _]. split; auto. rewrite <- MA, <- MC. exact LE.
    - exfalso. rewrite (G2 a GA) in LE. lra. }
  split; [exact E|]. split; auto. split; [reflexivity|]. cbn [snd]. rewrite <- CA. cbn [fst]. split; [|split; [apply LW|intros v Hv; apply C; auto]].
  rewrite LT. assert ((a + 1) * N <= cp_nt d * N) by (apply Nat.mul_le_mono_r; lia). lia.
Qed.

(** The output is a candidate; when a candidate is a codeword, it is one of smallest analog weight. *)
Theorem C141_decided_word : forall srt hd mx K N np nl nt nc coef pos d Y s, cp_new K N np nl nt nc coef pos = Ret d -> fair srt hd mx N np d Y s ->
  let y i := nth i Y 0%Q in let cand := candidate hd (N =? np + 1) np y in
  exists ps pat s', least_reliable nl np y ps /\ In pat (cp_pat d) /\ cp_siho_cw srt hd mx d Y s = Ret (s', fst (cand ps pat)) /\
    (forall pat', In pat' (cp_pat d) -> snd (cand ps pat') = true -> snd (cand ps pat) = true /\ (analog y (fst (cand ps pat)) N <= analog y (fst (cand ps pat')) N)%Q) /\
    length (cs_tv s') = length (cs_tv s) /\ cs_beta s' = cs_beta s /\
    (Forall (fun p => p < N) pos -> K = length pos -> cp_siho srt hd mx d Y s = Ret (s', map (fun p => nth p (fst (cand ps pat)) false) pos)).
Proof.
  intros srt hd mx K N np nl nt nc coef pos d Y s NEW FAIR y cand. destruct (decide _ _ _ _ _ _ _ _ _ _ _ _ _ _ NEW FAIR) as (ps & pat & tv & lrp & comp & g & dw & LR & [IP BP] & E & LT & ED & SZ & LC & C). fold y in LR, BP, LC, C.
  destruct (new_is _ _ _ _ _ _ _ _ _ NEW) as (EK & EN & ENP & ENL & EX & _ & EPS & _). exists ps, pat, (mkCS tv (cs_beta s)). split; [exact LR|]. split; [exact IP|]. split.
  { unfold cp_siho_cw. rewrite E. cbn [bind]. rewrite ED. cbn [bind]. rewrite EN. rewrite (gen_ok _ _ _ (fun v => nth v (fst (cand ps pat)) false)).
    - cbn [bind]. f_equal. f_equal. symmetry. apply (tab_is _ false); auto.
    - intros v Hv. rewrite (rd_ok _ false) by lia. f_equal. apply C. auto. }
  split; [exact BP|]. cbn [cs_tv cs_beta]. split; [destruct FAIR as (_ & _ & _ & _ & _ & LS); lia|]. split; auto. intros FP LP.
  unfold cp_siho. rewrite E. cbn [bind]. rewrite ED. cbn [bind]. rewrite EK, EPS, LP. rewrite (gen_ok _ _ _ (fun j => nth (nth j pos 0) (fst (cand ps pat)) false)).
  - cbn [bind]. f_equal. f_equal. symmetry. apply (tab_is _ false); [apply map_length|]. intros i Hi. rewrite (nth_indep _ false (nth 0 (fst (cand ps pat)) false)) by (rewrite map_length; auto). rewrite (map_nth (fun p => nth p (fst (cand ps pat)) false)). reflexivity.
  - intros j Hj. rewrite (rd_ok _ 0) by auto. cbn [bind]. rewrite Forall_forall in FP. assert (nth j pos 0 < N) by (apply FP, nth_In; auto). rewrite (rd_ok _ false) by lia. f_equal. apply C. auto.
Qed.
(** Values whose sum reaches half of the largest value of their type: a word that is not a codeword is decided although a
    candidate is one. Here the code is the repetition code of three bits and the hard decoder only recognises codewords. *)
Definition strict3 (w : list bool) : list bool * bool := (w, match w with [a; b; c] => eqb a b && eqb b c | _ => false end).
Theorem C141_large_values_refuted : exists d, cp_new 1 3 3 1 0 0 [1; 1; 1; 1; 0]%Q [0] = Ret d /\
  forall srt, sorts srt -> exists s', cp_siho_cw srt strict3 127%Q d [- (70); 100; 100]%Q (cp_start d) = Ret (s', [true; false; false]) /\ In [true] (cp_pat d) /\
    least_reliable 1 3 (fun i => nth i [- (70); 100; 100]%Q 0%Q) [0] /\ candidate strict3 false 3 (fun i => nth i [- (70); 100; 100]%Q 0%Q) [0] [true] = ([false; false; false], true) /\ snd (strict3 [true; false; false]) = false.
Proof.
  eexists. split; [reflexivity|]. intros srt HS. 
  match goal with |- context [cp_siho_cw srt strict3 ?m ?d ?Y ?s] => assert (X : exists tv, forall srt, cp_chase srt strict3 m d Y s = Ret ([(70%Q, 0)], tv, srt [((127 / 2)%Q, 0); ((0 + 70)%Q, 3)], 1) /\ rd tv 0 = Ret true /\ rd tv 1 = Ret false /\ rd tv 2 = Ret false) by (eexists; intros; split; [reflexivity|split; [|split]; reflexivity]) end.
  destruct X as (tv & X). destruct (X srt) as (E & R0 & R1 & R2). unfold cp_siho_cw. rewrite E. cbn [bind].
  destruct (HS [((127 / 2)%Q, 0); ((0 + 70)%Q, 3)]) as [P S0].
  assert (EQ : rd (srt [((127 / 2)%Q, 0); ((0 + 70)%Q, 3)]) 0 = Ret ((127 / 2)%Q, 0)).
  { destruct (srt [((127 / 2)%Q, 0); ((0 + 70)%Q, 3)]) as [|a l]; [apply Permutation_nil in P; discriminate|]. cbn [rd nth_error]. 
    assert (I : In a [((127 / 2)%Q, 0); ((0 + 70)%Q, 3)]) by (apply (Permutation_in _ P); left; auto). destruct I as [<-|[<-|[]]]; [reflexivity|]. exfalso.
    assert (I : In ((127 / 2)%Q, 0) (((0 + 70)%Q, 3) :: l)) by (apply (Permutation_in _ (Permutation_sym P)); left; auto). destruct I as [I|I]; [discriminate|]. inversion S0 as [|? ? _ B]; subst. rewrite Forall_forall in B. specialize (B _ I). cbn [fst] in B. revert B. unfold Qle. cbn. lia. }
  rewrite EQ. cbn [bind snd]. cbn [cp_N]. exists (mkCS tv None). split.
  { unfold gen. cbn [gen_from Nat.add]. rewrite R0, R1, R2. reflexivity. }
  split; [cbn; auto|]. split.
  { split; [reflexivity|]. split; [intros p [<-|[]]; lia|]. split; [repeat constructor|]. intros i Hi NI p [<-|[]]. left. destruct i as [|[|[|i]]]; [exfalso; apply NI; left; auto|reflexivity|reflexivity|lia]. }
  split; reflexivity.
Qed.

(** * C142: what Chase decoding corrects *)

Lemma reach : forall hd code N np nl t y ps pats w, truthful np code hd -> corrects np t code hd -> least_reliable nl np y ps -> (forall p, length p = nl -> In p pats) -> np <= N -> length w = np -> code w -> errors_outside np y ps w <= t ->
  exists pat, In pat pats /\ hd (flipped_by ps pat (decisions np y)) = (w, true).
Proof.
  intros hd code N np nl t y ps pats w TR CO (LP & PB & SP & _) ALL HN LW CW ER. assert (ND := SS_NoDup _ _ SP). set (e := fun v => xorb (negb (Qle_bool 0 (y v))) (nth v w false)). set (pat := tab nl (fun i => e (nth i ps 0))).
  exists pat. split; [apply ALL, length_tab|]. apply CO; auto; [rewrite length_flipped; apply length_tab|]. eapply Nat.le_trans; [|exact ER]. apply Nat.eq_le_incl. unfold dist, errors_outside. f_equal. apply filter_ext_in. intros v Hv. apply in_seq in Hv.
  unfold flipped_by, decisions. rewrite length_tab, nth_tab, nth_tab by lia. rewrite LP. fold (e v).
  assert (EX : existsb (fun i => (nth i ps 0 =? v) && nth i pat false) (seq 0 nl) = existsb (Nat.eqb v) ps && e v).
  { destruct (existsb (Nat.eqb v) ps) eqn:I; cbn [andb].
    - apply existsb_exists in I. destruct I as (p & Ip & EV). apply Nat.eqb_eq in EV. subst p. destruct (pattern_number _ _ _ 0 Ip) as (k & Hk & EK). destruct (e v) eqn:EE.
      + apply existsb_exists. exists k. split; [apply in_seq; lia|]. rewrite EK, Nat.eqb_refl. unfold pat. rewrite nth_tab by lia. rewrite EK. exact EE.
      + destruct (existsb _ _) eqn:X; auto. apply existsb_exists in X. destruct X as (i & Hi & X). apply in_seq in Hi. apply andb_prop in X. destruct X as [X1 X2]. apply Nat.eqb_eq in X1. unfold pat in X2. rewrite nth_tab in X2 by lia. rewrite X1, EE in X2. discriminate X2.
    - apply not_true_is_false. intros X. apply existsb_exists in X. destruct X as (i & Hi & X). apply in_seq in Hi. apply andb_prop in X. destruct X as [X1 X2]. apply Nat.eqb_eq in X1. exfalso.
      assert (Y1 : existsb (Nat.eqb v) ps = true) by (apply existsb_exists; exists (nth i ps 0); split; [apply nth_In; lia|apply Nat.eqb_eq; auto]). congruence. }
  rewrite EX. unfold e. destruct (existsb (Nat.eqb v) ps), (negb (Qle_bool 0 (y v))), (nth v w false); reflexivity.
Qed.
(** With all the patterns: when the hard decisions have at most t errors outside the least reliable positions, the decided word
    is a codeword and it is no further from the channel values than the codeword that was sent. *)
Theorem C142_chase : forall srt hd code t mx K N np nl nt nc coef pos d Y s w, cp_new K N np nl nt nc coef pos = Ret d -> fair srt hd mx N np d Y s -> truthful np code hd -> corrects np t code hd -> nt = 0 \/ nt = 2 ^ nl ->
  let y i := nth i Y 0%Q in let ext := N =? np + 1 in
  length w = np -> code w -> (forall ps, least_reliable nl np y ps -> errors_outside np y ps w <= t) ->
  exists s' w', cp_siho_cw srt hd mx d Y s = Ret (s', with_parity ext w') /\ length w' = np /\ code w' /\ (analog y (with_parity ext w') N <= analog y (with_parity ext w) N)%Q.
Proof.
  intros srt hd code t mx K N np nl nt nc coef pos d Y s w NEW FAIR TR CO NT y ext LW CW ER. destruct (C141_decided_word _ _ _ _ _ _ _ _ _ _ _ _ _ _ NEW FAIR) as (ps & pat & s' & LR & IP & E & B & _). fold y in LR, E, B. fold ext in E, B.
  destruct (C140_patterns _ _ _ _ _ _ _ _ _ NEW) as (_ & _ & _ & _ & ALL). specialize (ALL NT). destruct FAIR as (SZ & HD & _).
  destruct (reach hd code N np nl t y ps (cp_pat d) w TR CO LR ALL ltac:(lia) LW CW (ER ps LR)) as (pat' & IP' & EH).
  destruct (B pat' IP') as [G A]; [unfold candidate; rewrite EH; reflexivity|]. unfold candidate in E, G, A. rewrite EH in A. cbn [fst snd] in E, G, A.
  assert (LF : length (flipped_by ps pat (decisions np y)) = np) by (rewrite length_flipped; apply length_tab).
  exists s', (fst (hd (flipped_by ps pat (decisions np y)))). split; [exact E|]. split; [apply HD; auto|]. split; [apply TR; auto|]. exact A.
Qed.
(** So it is the codeword that was sent when every other one is further. *)
Theorem C142_closest : forall srt hd code t mx K N np nl nt nc coef pos d Y s w, cp_new K N np nl nt nc coef pos = Ret d -> fair srt hd mx N np d Y s -> truthful np code hd -> corrects np t code hd -> nt = 0 \/ nt = 2 ^ nl ->
  let y i := nth i Y 0%Q in let ext := N =? np + 1 in
  length w = np -> code w -> (forall ps, least_reliable nl np y ps -> errors_outside np y ps w <= t) ->
  (forall w', length w' = np -> code w' -> w' <> w -> (analog y (with_parity ext w) N < analog y (with_parity ext w') N)%Q) ->
  exists s', cp_siho_cw srt hd mx d Y s = Ret (s', with_parity ext w).
Proof.
  intros srt hd code t mx K N np nl nt nc coef pos d Y s w NEW FAIR TR CO NT y ext LW CW ER CL. destruct (C142_chase srt hd code t mx K N np nl nt nc coef pos d Y s w NEW FAIR TR CO NT LW CW ER) as (s' & w' & E & LW' & CW' & A). fold y ext in E, A.
  exists s'. destruct (list_eq_dec bool_dec w' w) as [->|NE]; [exact E|]. exfalso. specialize (CL w' LW' CW' NE). lra.
Qed.
Lemma analog_same : forall Y x n, (forall i, i < n -> nth i x false = negb (Qle_bool 0 (Y i))) -> (analog Y x n == 0)%Q.
Proof. intros Y x. induction n as [|n IH]; intros H; [reflexivity|]. cbn [analog]. rewrite (H n) by lia. rewrite xorb_nilpotent. apply IH. intros. apply H. lia. Qed.
Lemma analog_zero : forall Y x n, (forall i, i < n -> ~ (Y i == 0)%Q) -> (analog Y x n <= 0)%Q -> forall i, i < n -> nth i x false = negb (Qle_bool 0 (Y i)).
Proof.
  intros Y x. induction n as [|n IH]; intros NZ H i Hi; [lia|]. cbn [analog] in H. assert (A := proj1 (analog_le Y x n)).
  assert (P : (0 < Qabs (Y n))%Q). { assert (Z := NZ n ltac:(lia)). assert (X := Qabs_nonneg (Y n)). destruct (Qlt_le_dec 0 (Qabs (Y n))); auto. exfalso. apply Z. destruct (Qlt_le_dec (Y n) 0) as [L|L]; [rewrite Qabs_neg in q by lra; lra|rewrite Qabs_pos in q by lra; lra]. }
  destruct (xorb (negb (Qle_bool 0 (Y n))) (nth n x false)) eqn:EX; [exfalso; lra|]. destruct (Nat.eq_dec i n) as [->|NE]; [apply xorb_eq in EX; auto|]. apply IH; auto. lia.
Qed.
(** A codeword received without noise is decided, whatever the hard decoder does of the other test vectors. *)
Theorem C142_noiseless : forall srt hd mx K N np nl nt nc coef pos d Y s w, cp_new K N np nl nt nc coef pos = Ret d -> fair srt hd mx N np d Y s ->
  let y i := nth i Y 0%Q in let ext := N =? np + 1 in
  length w = np -> hd w = (w, true) -> (forall i, i < N -> ~ (y i == 0)%Q) -> decisions N y = with_parity ext w ->
  exists s', cp_siho_cw srt hd mx d Y s = Ret (s', with_parity ext w).
Proof.
  intros srt hd mx K N np nl nt nc coef pos d Y s w NEW FAIR y ext LW HW NZ DW. destruct (C141_decided_word _ _ _ _ _ _ _ _ _ _ _ _ _ _ NEW FAIR) as (ps & pat & s' & LR & IP & E & B & _). fold y in LR, E, B. fold ext in E, B.
  destruct (C140_patterns _ _ _ _ _ _ _ _ _ NEW) as (LPA & _ & _ & P0 & _). destruct (new_is _ _ _ _ _ _ _ _ _ NEW) as (_ & _ & _ & _ & _ & _ & _ & _ & Ht & _ & _ & _ & ET & _). rewrite <- ET in LPA.
  destruct FAIR as (SZ & HD & _). assert (LWP : length (with_parity ext w) = N). { rewrite <- DW. apply length_tab. }
  assert (FW : flipped_by ps (repeat false nl) (decisions np y) = w).
  { symmetry. apply (tab_is _ false); [unfold decisions; rewrite length_tab; auto|]. intros v Hv. unfold decisions in Hv. rewrite length_tab in Hv.
    assert (X : existsb (fun i => (nth i ps 0 =? v) && nth i (repeat false nl) false) (seq 0 (length ps)) = false).
    { destruct (existsb _ _) eqn:X; auto. apply existsb_exists in X. destruct X as (i & _ & X). apply andb_prop in X. destruct X as [_ X]. rewrite nth_repeat in X. discriminate. }
    rewrite X, xorb_false_r. unfold decisions. rewrite nth_tab by auto. assert (D := f_equal (fun l => nth v l false) DW). cbn beta in D. unfold decisions in D. rewrite nth_tab in D by lia. rewrite D. unfold with_parity. destruct ext; [rewrite app_nth1 by lia|]; reflexivity. }
  destruct (B (nth 0 (cp_pat d) [])) as [G A]; [apply nth_In; lia| |].
  { unfold candidate. rewrite P0, FW, HW. reflexivity. }
  exists s'. rewrite E. f_equal. f_equal. unfold candidate at 2 in A. rewrite P0, FW, HW in A. cbn [fst] in A.
  assert (Z : (analog y (with_parity ext w) N == 0)%Q). { apply analog_same. intros i Hi. rewrite <- DW. unfold decisions. apply nth_tab. auto. }
  rewrite <- DW. apply (tab_is _ false).
  - unfold candidate. cbn [fst]. unfold with_parity. assert (LF : length (fst (hd (flipped_by ps pat (decisions np y)))) = np) by (apply HD; rewrite length_flipped; apply length_tab). unfold with_parity in LWP. destruct ext; [rewrite app_length in *; cbn [length] in *; lia|lia].
  - intros i Hi. apply (analog_zero y _ N NZ); auto. lra.
Qed.

(** * C143: the soft output *)

Lemma good_first : forall (f : nat -> Q) g m L, StronglySorted (fun a b => (f a <= f b)%Q) L -> (forall c, g c = true -> (f c < m)%Q) -> (forall c, g c = false -> f c = m) -> L = filter g L ++ filter (fun c => negb (g c)) L.
Proof.
  intros f g m. induction L as [|a L IH]; intros SL H1 H2; [reflexivity|]. inversion SL as [|? ? A B]; subst. cbn [filter]. destruct (g a) eqn:GA; cbn [negb app].
  - f_equal. apply IH; auto.
  - assert (FG : filter g L = []). { destruct (filter g L) as [|x r] eqn:EF; auto. exfalso. assert (X : In x (filter g L)) by (rewrite EF; left; auto). apply filter_In in X. destruct X as [X1 X2]. rewrite Forall_forall in B. specialize (B x X1). rewrite (H2 a GA) in B. specialize (H1 x X2). lra. }
    rewrite FG. cbn [app]. f_equal. rewrite (IH A H1 H2) at 1. rewrite FG. reflexivity.
Qed.
Lemma other_ok : forall N tv comp i db (L : list nat) bit cnt j, j + cnt <= length L -> (forall k, k < length L -> exists q, rd comp k = Ret (q, nth k L 0 * N)) -> (forall k, k < length L -> rd tv (nth k L 0 * N + i) = Ret (bit (nth k L 0))) ->
  exists k, cp_other cnt j tv comp i db = Ret k /\ j <= k <= j + cnt /\ (forall m, j <= m < k -> bit (nth m L 0) = db) /\ (k < j + cnt -> bit (nth k L 0) <> db).
Proof.
  intros N tv comp i db L bit. induction cnt as [|cnt IH]; intros j HJ RC RT.
  - exists j. split; [reflexivity|]. split; [lia|]. split; intros; lia.
  - cbn [cp_other]. destruct (RC j ltac:(lia)) as (q & ->). cbn [bind snd]. rewrite RT by lia. cbn [bind]. destruct (xorb (bit (nth j L 0)) db) eqn:EX.
    + exists j. split; [reflexivity|]. split; [lia|]. split; [intros; lia|]. intros _ X. rewrite X, xorb_nilpotent in EX. discriminate.
    + apply xorb_eq in EX. destruct (IH (j + 1) ltac:(lia) RC RT) as (k & E & B & M & K). exists k. split; [exact E|]. split; [lia|]. split; [|intros; apply K; lia].
      intros m Hm. destruct (Nat.eq_dec m j) as [->|]; [exact EX|apply M; lia].
Qed.
Lemma scaled_ok : forall (f : nat -> Q) N cb a (L : list nat) g, g <= length L -> exists comp, for_ (g - 1) (fun k comp => e <- rd comp (k + 1) ;; wr comp (k + 1) (((fst e - a) * cb)%Q, snd e)) (map (fun c => (f c, c * N)) L) = Ret comp /\
  forall k, k < length L -> rd comp k = Ret (if (1 <=? k) && (k <? g) then (f (nth k L 0%nat) - a) * cb else f (nth k L 0%nat), (nth k L 0 * N)%nat)%Q.
Proof.
  intros f N cb a L g HG. set (F := fun c => (f c, c * N)).
  match goal with |- context [for_ (g - 1) ?b ?x] => destruct (for_inv (list (Q * nat)) (fun t comp => length comp = length L /\ forall k, k < length L -> nth k comp (F 0) = (if (1 <=? k) && (k <? t + 1) then (f (nth k L 0%nat) - a) * cb else f (nth k L 0%nat), (nth k L 0 * N)%nat)%Q) (g - 1) b x) as (comp & E & LC & C) end.
  - split; [apply map_length|]. intros k Hk. rewrite (map_nth F). destruct (Nat.leb_spec 1 k), (Nat.ltb_spec k (0 + 1)); cbn [andb]; try lia; reflexivity.
  - intros t comp Ht (LC & C). rewrite (rd_ok _ (F 0)) by lia. cbn [bind]. rewrite C by lia. destruct (Nat.ltb_spec (t + 1) (t + 1)); [lia|]. rewrite andb_false_r. cbn [fst snd]. rewrite wr_ok by lia. eexists. split; [reflexivity|]. split; [rewrite length_upd; auto|].
    intros k Hk. rewrite nth_upd by lia. destruct (Nat.eqb_spec k (t + 1)) as [->|NE].
    + destruct (Nat.leb_spec 1 (t + 1)), (Nat.ltb_spec (t + 1) (S t + 1)); cbn [andb]; try lia; reflexivity.
    + rewrite C by auto. destruct (Nat.leb_spec 1 k), (Nat.ltb_spec k (t + 1)), (Nat.ltb_spec k (S t + 1)); cbn [andb]; try lia; reflexivity.
  - exists comp. split; auto. intros k Hk. rewrite (rd_ok _ (F 0)) by lia. rewrite C by auto. destruct (Nat.leb_spec 1 k), (Nat.ltb_spec k (g - 1 + 1)), (Nat.ltb_spec k g); cbn [andb]; try lia; reflexivity.
Qed.
Lemma sum_loop : forall y ps n, n <= length ps -> exists x, for_ n (fun i x => e <- rd (map (ent y) ps) i ;; Ret (x + fst e)%Q) 0%Q = Ret x /\ (x == sum_of y (firstn n ps))%Q.
Proof.
  intros y ps n HN.
  match goal with |- context [for_ n ?b ?x] => destruct (for_inv Q (fun k q => (q == sum_of y (firstn k ps))%Q) n b x) as (q & E & I) end.
  - reflexivity.
  - intros k q Hk Iq. rewrite (rd_ok _ (ent y 0)) by (rewrite map_length; lia). rewrite map_nth. cbn [bind]. eexists. split; [reflexivity|]. cbn [ent fst]. rewrite Iq. rewrite (firstn_snoc _ 0) by lia.
    generalize (firstn k ps). intros l. unfold sum_of. rewrite fold_right_app. cbn [fold_right]. generalize (nth k ps 0). intros p. induction l as [|u l IH]; cbn [fold_right]; [ring|]. rewrite <- IH. ring.
  - exists q. auto.
Qed.
Lemma SS_nth : forall (f : nat -> Q) L, StronglySorted (fun a b => (f a <= f b)%Q) L -> forall i j, i <= j -> j < length L -> (f (nth i L 0%nat) <= f (nth j L 0%nat))%Q.
Proof.
  intros f. induction L as [|a L IH]; intros SL i j Hij Hj; [cbn in Hj; lia|]. inversion SL as [|? ? A B]; subst. cbn [length] in Hj. destruct i as [|i], j as [|j]; [lra| |lia|].
  - cbn [nth]. rewrite Forall_forall in B. apply B. apply nth_In. lia.
  - cbn [nth]. apply IH; auto; lia.
Qed.

(** What _decode_siso writes: the signed reliability of each bit of the decided word, minus a times the channel value. *)
Theorem C143_soft_output : forall srt hd mx K N np nl nt nc a b c f e pos d Y s, cp_new K N np nl nt nc [a; b; c; f; e] pos = Ret d -> fair srt hd mx N np d Y s ->
  let y i := nth i Y 0%Q in let ext := N =? np + 1 in
  let n := if Qeq_bool e 0%Q then nl else Nat.min (Z.to_nat (Qround.Qfloor e)) nl in
  exists ps D Rs s' Y2, least_reliable nl np y ps /\ decided hd ext N np y ps (cp_pat d) D /\ retained hd ext N np y ps (cp_pat d) (cp_nc d) D Rs /\
    cp_siso srt hd mx d Y s = Ret (s', Y2) /\ length (cs_tv s') = length (cs_tv s) /\ cs_beta s' = cs_beta s /\ length Y2 = N /\
    forall i, i < N -> exists r, reliability hd ext N np y ps mx b c f n (cs_beta s) D Rs i r /\
      (nth i Y2 0 == (if nth i (fst (candidate hd ext np y ps D)) false then - r else r) - a * y i)%Q.
Proof.
  intros srt hd mx K N np nl nt nc a b c f e pos d Y s NEW FAIR y ext n. destruct (search _ _ _ _ _ _ _ _ _ _ _ _ _ _ NEW FAIR) as (ps & tv & L & LR & CD & E & LT & C & LW & PL & SL & G1 & G2). fold y in LR, CD, E, G1. fold ext in CD.
  destruct (new_is _ _ _ _ _ _ _ _ _ NEW) as (EK & EN & ENP & ENL & EX & ECF & _ & Hl & Ht & _ & Hnc & _ & ET & _ & EP). destruct (patterns_all nl (cp_nt d) (cp_pat d) ltac:(lia) Ht EP) as (P1 & P2 & P3 & P4 & P5).
  set (M := measure hd mx d Y ps) in *. set (G := good hd d Y ps) in *. set (W := word hd d Y ps) in *. set (p := fun c => nth c (cp_pat d) []).
  assert (LL : length L = cp_nt d) by (rewrite (Permutation_length PL); apply seq_length).
  assert (IN : forall k, k < length L -> nth k L 0 < cp_nt d). { intros k Hk. assert (X : In (nth k L 0) (seq 0 (cp_nt d))) by (apply (Permutation_in _ PL), nth_In; auto). apply in_seq in X. lia. }
  assert (NDL : NoDup L) by (apply (Permutation_NoDup (Permutation_sym PL)), seq_NoDup).
  assert (CF : forall k, k < length L -> fst (candidate hd ext np y ps (p (nth k L 0))) = W (nth k L 0) /\ snd (candidate hd ext np y ps (p (nth k L 0))) = G (nth k L 0)). { intros k Hk. unfold p. rewrite <- CD by auto. auto. }
  set (cnt := length (filter G (seq 0 (cp_nt d)))) in *. set (g := Nat.min cnt (cp_nc d)).
  assert (GF := good_first M G (mx / 2)%Q L SL (fun c H => proj2 (G1 c H)) G2).
  assert (PF : forall l l', Permutation l l' -> length (filter G l) = length (filter G l')). { intros l l' P. induction P; cbn [filter]; auto; [destruct (G x); cbn [length]; auto|destruct (G x), (G y0); cbn [length]; auto|lia]. }
  assert (CL : length (filter G L) = cnt) by (apply PF; auto).
  assert (GK : forall k, k < cnt -> G (nth k L 0) = true). { intros k Hk. rewrite GF. rewrite app_nth1 by lia. assert (X : In (nth k (filter G L) 0) (filter G L)) by (apply nth_In; lia). apply filter_In in X. apply X. }
  assert (GU : forall k, k < length L -> G (nth k L 0) = true -> k < cnt). { intros k Hk Gk. destruct (Nat.lt_ge_cases k cnt) as [|H]; auto. exfalso. rewrite GF in Gk. rewrite app_nth2 in Gk by lia. rewrite CL in Gk.
    assert (X : In (nth (k - cnt) (filter (fun c => negb (G c)) L) 0) (filter (fun c => negb (G c)) L)). { apply nth_In. assert (LA := f_equal (@length nat) GF). rewrite app_length in LA. lia. } apply filter_In in X. rewrite Gk in X. destruct X. discriminate. }
  assert (CN : cnt <= length L) by (assert (LA := f_equal (@length nat) GF); rewrite app_length in LA; lia).
  assert (SLN := SS_nth M L SL).
  assert (NUM : forall P, In P (cp_pat d) -> exists k, k < length L /\ P = p (nth k L 0)). { intros P HP. destruct (pattern_number _ _ _ [] HP) as (c' & Hc & <-). rewrite P1 in Hc. assert (X : In c' L) by (apply (Permutation_in _ (Permutation_sym PL)), in_seq; lia). destruct (pattern_number _ _ _ 0 X) as (k & Hk & Ek). exists k. split; auto. unfold p. rewrite Ek. reflexivity. }
  assert (INP : forall k, k < length L -> In (p (nth k L 0)) (cp_pat d)) by (intros k Hk; apply nth_In; rewrite P1; auto).
  assert (WT : forall k, k < cnt -> M (nth k L 0) = analog y (fst (candidate hd ext np y ps (p (nth k L 0)))) N). { intros k Hk. destruct (CF k ltac:(lia)) as [-> _]. apply (proj1 (G1 _ (GK k Hk))). }
  set (D := p (nth 0 L 0)). set (Rs := map p (firstn g L)).
  assert (L0 : 0 < length L) by lia. assert (gL : g <= length L) by lia. assert (gc : g <= cnt) by lia.
  assert (RN : forall R, In R Rs -> exists k, k < g /\ R = p (nth k L 0)). { intros R HR. apply in_map_iff in HR. destruct HR as (c' & <- & Hc). destruct (pattern_number _ _ _ 0 Hc) as (k & Hk & <-). rewrite firstn_length in Hk. exists k. split; [lia|]. rewrite firstn_nth by lia. reflexivity. }
  assert (RI : forall k, k < g -> In (p (nth k L 0)) Rs). { intros k Hk. apply in_map. rewrite <- (firstn_nth _ L g k 0) by auto. apply nth_In. rewrite firstn_length. lia. }
  assert (DEC : decided hd ext N np y ps (cp_pat d) D).
  { split; [apply INP; auto|]. intros P HP GP. destruct (NUM P HP) as (k & Hk & ->). destruct (CF k Hk) as [_ EG]. rewrite EG in GP. apply GU in GP; auto. destruct (CF 0 L0) as [_ EG0]. unfold D. rewrite EG0. split; [apply GK; lia|].
    rewrite <- !WT by lia. apply SLN; lia. }
  assert (RET : retained hd ext N np y ps (cp_pat d) (cp_nc d) D Rs).
  { split. { apply (NoDup_nth Rs []). unfold Rs. rewrite map_length, firstn_length. intros i j Hi Hj EQ. rewrite !(nth_indep _ [] (p 0)) in EQ by (rewrite map_length, firstn_length; auto). rewrite !(map_nth p) in EQ. rewrite !firstn_nth in EQ by lia.
      unfold p in EQ. apply (proj1 (NoDup_nth (cp_pat d) []) P3) in EQ; [|rewrite P1; apply IN; lia|rewrite P1; apply IN; lia]. apply (proj1 (NoDup_nth L 0) NDL) in EQ; auto; lia. }
    split. { intros R HR. destruct (RN R HR) as (k & Hk & ->). split; [apply INP; lia|]. destruct (CF k ltac:(lia)) as [_ ->]. apply GK. lia. }
    split. { unfold Rs. rewrite map_length, firstn_length. replace (length (filter (fun pat => snd (candidate hd ext np y ps pat)) (cp_pat d))) with cnt; [lia|].
      unfold cnt. assert (EQ : cp_pat d = map p (seq 0 (cp_nt d))). { apply (list_eq_nth _ []); [rewrite map_length, seq_length; auto|]. intros i Hi. rewrite (nth_indep (map p _) [] (p 0)) by (rewrite map_length, seq_length; lia). rewrite (map_nth p), seq_nth by lia. reflexivity. }
      assert (GO : forall l, (forall c, In c l -> c < cp_nt d) -> length (filter G l) = length (filter (fun pat => snd (candidate hd ext np y ps pat)) (map p l))).
      { induction l as [|x l IH]; intros H; [reflexivity|]. cbn [filter map]. assert (CX := CD x ltac:(apply H; left; auto)). fold (p x) in CX. rewrite <- CX. cbn [snd]. destruct (G x); cbn [length]; rewrite IH by (intros; apply H; right; auto); reflexivity. }
      rewrite EQ at 1. apply GO. intros c' Hc. apply in_seq in Hc. lia. }
    split. { intros R P HR HP GP NP. destruct (RN R HR) as (k & Hk & ->). destruct (NUM P HP) as (m & Hm & ->). destruct (CF m Hm) as [_ EG]. rewrite EG in GP. apply GU in GP; auto. assert (g <= m) by (destruct (Nat.lt_ge_cases m g); auto; exfalso; apply NP, RI; auto). rewrite <- !WT by lia. apply SLN; lia. }
    intros NE. apply RI. destruct g; [|lia]. exfalso. apply NE. reflexivity. }
  assert (R0 : rd (map (fun c => (M c, c * N)) L) 0 = Ret (M (nth 0 L 0), nth 0 L 0 * N)). { rewrite (rd_ok _ (M 0, 0 * N)) by (rewrite map_length; auto). rewrite (map_nth (fun c => (M c, c * N))). reflexivity. }
  destruct (scaled_ok M N b (M (nth 0 L 0)) L g gL) as (comp & ES & RC).
  assert (LPS : length ps = nl) by apply LR. assert (NB : n <= length ps) by (unfold n; destruct (Qeq_bool e 0); lia).
  destruct (sum_loop y ps n NB) as (sm & EM & SM).
  set (ba := match cs_beta s with Some x => x | None => (sm - c * M (nth 0 L 0%nat))%Q end).
  assert (LY : N <= length Y) by apply FAIR. assert (LS : length (cs_tv s) = cp_nt d * N) by apply FAIR.
  assert (RT : forall i k, i < N -> k < length L -> rd tv (nth k L 0 * N + i) = Ret (nth i (W (nth k L 0)) false)). { intros i k Hi Hk. rewrite (rd_ok _ false) by (rewrite LT; apply idx_lt; auto). f_equal. apply C; auto. }
  set (rel := fun i k => if k <? g then ((M (nth k L 0%nat) - M (nth 0 L 0%nat)) * b)%Q else match cs_beta s with Some x => x | None => if qltb (ba + f * Qabs (y i))%Q 0%Q then 0%Q else (ba + f * Qabs (y i))%Q end).
  assert (OUT : exists Y2, cp_siso srt hd mx d Y s = Ret (mkCS tv (cs_beta s), Y2) /\ length Y2 = N /\ forall i, i < N -> exists k, 1 <= k /\ (forall m, 1 <= m < k -> m < g -> nth i (W (nth m L 0)) false = nth i (W (nth 0 L 0)) false) /\ (k < g -> nth i (W (nth k L 0)) false <> nth i (W (nth 0 L 0)) false) /\ (k < g \/ g <= k) /\
    nth i Y2 0%Q = ((if nth i (W (nth 0%nat L 0%nat)) false then - rel i k else rel i k) - a * y i)%Q).
  { assert (EACH : forall i, exists v, i < N -> (db <- rd tv (nth 0 L 0 * N + i) ;; y <- rd Y i ;; j <- cp_other (g - 1) 1 tv comp i db ;;
        r <- (if j <? g then e <- rd comp j ;; Ret (fst e) else match cs_beta s with Some b => Ret b | None => let r := (ba + f * Qabs y)%Q in Ret (if qltb r 0%Q then 0%Q else r) end) ;; Ret ((if db : bool then - r else r) - a * y)%Q) = Ret v /\
      exists k, 1 <= k /\ (forall m, 1 <= m < k -> m < g -> nth i (W (nth m L 0)) false = nth i (W (nth 0 L 0)) false) /\ (k < g -> nth i (W (nth k L 0)) false <> nth i (W (nth 0 L 0)) false) /\ (k < g \/ g <= k) /\
        v = ((if nth i (W (nth 0%nat L 0%nat)) false then - rel i k else rel i k) - a * y i)%Q).
    { intros i. destruct (Nat.lt_ge_cases i N) as [Hi|Hi]; [|exists 0%Q; intros; lia]. 
      destruct (other_ok N tv comp i (nth i (W (nth 0 L 0)) false) L (fun c => nth i (W c) false) (g - 1) 1) as (k & EO & BK & MK & KK); [lia|intros k Hk; rewrite RC by auto; eexists; reflexivity|intros k Hk; apply RT; auto|].
      eexists. intros _. rewrite RT by auto. cbn [bind]. rewrite (rd_ok _ 0%Q) by lia. cbn [bind]. rewrite EO. cbn [bind]. split; [|exists k; split; [lia|split; [|split; [intros; apply KK; lia|split; [lia|reflexivity]]]]].
      - unfold rel. destruct (Nat.ltb_spec k g) as [Hk|Hk].
        + rewrite RC by lia. destruct (Nat.leb_spec 1 k), (Nat.ltb_spec k g); try lia. reflexivity.
        + destruct (cs_beta s); reflexivity.
      - intros m Hm Hg. apply MK. lia. }
    assert (EXF : exists F : nat -> Q, forall i, i < N -> (db <- rd tv (nth 0 L 0 * N + i) ;; y <- rd Y i ;; j <- cp_other (g - 1) 1 tv comp i db ;;
        r <- (if j <? g then e <- rd comp j ;; Ret (fst e) else match cs_beta s with Some b => Ret b | None => let r := (ba + f * Qabs y)%Q in Ret (if qltb r 0%Q then 0%Q else r) end) ;; Ret ((if db : bool then - r else r) - a * y)%Q) = Ret (F i) /\
      exists k, 1 <= k /\ (forall m, 1 <= m < k -> m < g -> nth i (W (nth m L 0)) false = nth i (W (nth 0 L 0)) false) /\ (k < g -> nth i (W (nth k L 0)) false <> nth i (W (nth 0 L 0)) false) /\ (k < g \/ g <= k) /\
        F i = ((if nth i (W (nth 0%nat L 0%nat)) false then - rel i k else rel i k) - a * y i)%Q).
    { exists (fun i => match (db <- rd tv (nth 0 L 0 * N + i) ;; y <- rd Y i ;; j <- cp_other (g - 1) 1 tv comp i db ;;
        r <- (if j <? g then e <- rd comp j ;; Ret (fst e) else match cs_beta s with Some b => Ret b | None => let r := (ba + f * Qabs y)%Q in Ret (if qltb r 0%Q then 0%Q else r) end) ;; Ret ((if db : bool then - r else r) - a * y)%Q) with Ret v => v | _ => 0%Q end).
      intros i Hi. destruct (EACH i) as (v & H). destruct (H Hi) as [E1 E2]. cbv beta. rewrite E1. split; [reflexivity|exact E2]. }
    destruct EXF as (F & HF). exists (tab N F). split; [|split; [apply length_tab|intros i Hi; rewrite nth_tab by auto; apply HF; auto]].
    unfold cp_siso. rewrite E. cbn [bind]. unfold cp_reliability. rewrite R0. cbn [bind]. rewrite ECF. change (rd [a; b; c; f; e] 0) with (Ret a). change (rd [a; b; c; f; e] 1) with (Ret b). change (rd [a; b; c; f; e] 2) with (Ret c). change (rd [a; b; c; f; e] 3) with (Ret f). change (rd [a; b; c; f; e] 4) with (Ret e). cbn [bind fst snd].
    assert (EB : match cs_beta s with Some b => Ret b | None => let n := if Qeq_bool e 0%Q then cp_nl d else Nat.min (cp_int e) (cp_nl d) in x <- for_ n (fun i x => e <- rd (map (ent y) ps) i ;; Ret (x + fst e)%Q) 0%Q ;; Ret (x - c * M (nth 0 L 0%nat))%Q end = Ret ba).
    { unfold ba. destruct (cs_beta s); [reflexivity|]. cbv zeta. rewrite ENL. unfold cp_int. fold n. rewrite EM. reflexivity. }
    cbv zeta in EB. rewrite EB. cbn [bind]. fold g. rewrite ES. cbn [bind]. rewrite EN. rewrite (gen_ok _ _ _ F) by (intros i Hi; apply HF; auto). reflexivity. }
  destruct OUT as (Y2 & EO & LY2 & HO). exists ps, D, Rs, (mkCS tv (cs_beta s)), Y2. split; [exact LR|]. split; [exact DEC|]. split; [exact RET|]. split; [exact EO|]. cbn [cs_tv cs_beta]. split; [lia|]. split; [reflexivity|]. split; [exact LY2|].
  intros i Hi. destruct (HO i Hi) as (k & K1 & KM & KD & KG & EV). exists (rel i k). destruct (CF 0 L0) as [W0 G0]. fold D in W0, G0. split; [|rewrite EV, W0; reflexivity].
  unfold reliability. cbv zeta. rewrite W0. unfold rel. destruct (Nat.ltb_spec k g) as [Hk|Hk].
  - left. exists (p (nth k L 0)). split; [apply RI; auto|]. destruct (CF k ltac:(lia)) as [Wk _]. split; [rewrite Wk; apply KD; auto|]. split.
    + intros R' HR' DF. destruct (RN R' HR') as (m & Hm & ->). destruct (CF m ltac:(lia)) as [Wm _]. rewrite Wm in DF. rewrite <- !WT by lia. apply SLN; [|lia].
      destruct (Nat.lt_ge_cases m k) as [Hmk|]; auto. exfalso. apply DF. destruct m as [|m]; [reflexivity|]. apply KM; lia.
    + rewrite <- WT by lia. assert (WD := WT 0 ltac:(lia)). fold D in WD. rewrite W0 in WD. rewrite <- WD. reflexivity.
  - right. split.
    + intros R HR DF. destruct (RN R HR) as (m & Hm & ->). destruct (CF m ltac:(lia)) as [Wm _]. rewrite Wm in DF. apply DF. destruct m as [|m]; [reflexivity|]. apply KM; lia.
    + unfold ba. destruct (cs_beta s) as [x|]; [reflexivity|]. rewrite <- W0.
      assert (EQ : (M (nth 0 L 0%nat) == (if snd (candidate hd ext np y ps D) then analog y (fst (candidate hd ext np y ps D)) N else mx / 2))%Q).
      { rewrite G0. destruct (G (nth 0 L 0)) eqn:GG; [rewrite W0, (proj1 (G1 _ GG)); reflexivity|rewrite (G2 _ GG); reflexivity]. }
      rewrite <- EQ, <- SM. destruct (qltb_spec (sm - c * M (nth 0 L 0%nat) + f * Qabs (y i)) 0) as [[-> H]|[-> H]]; [right|left]; split; try reflexivity; lra.
Qed.
(** beta: a negative value is refused; setting and clearing it leave the rest of the decoder. *)
Theorem C143_beta : forall b s, (cp_set_beta b s = Throws <-> (b < 0)%Q) /\ ((0 <= b)%Q -> exists s', cp_set_beta b s = Ret s' /\ cs_beta s' = Some b /\ cs_tv s' = cs_tv s /\ cs_beta (cp_clear_beta s') = None /\ cs_tv (cp_clear_beta s') = cs_tv s).
Proof.
  intros b s. unfold cp_set_beta. destruct (qltb_spec b 0) as [[-> H]|[-> H]]; split.
  - split; auto.
  - intros; exfalso; lra.
  - split; [discriminate|intros; exfalso; lra].
  - intros _. eexists. split; [reflexivity|]. cbn. auto.
Qed.

(** * The hypotheses are met *)

Fixpoint stable (l : list (Q * nat)) : list (Q * nat) := match l with [] => [] | x :: r => ins x (stable r) end.
Lemma ins_sorted : forall x l, StronglySorted (fun a b => (fst a <= fst b)%Q) l -> Permutation (ins x l) (x :: l) /\ StronglySorted (fun a b => (fst a <= fst b)%Q) (ins x l).
Proof.
  intros x. induction l as [|y l IH]; intros H; [split; [apply Permutation_refl|repeat constructor]|]. inversion H as [|? ? A B]; subst. destruct (IH A) as [P S0]. cbn [ins]. destruct (qltb_spec (fst x) (fst y)) as [[-> Hq]|[-> Hq]].
  - split; [apply Permutation_refl|]. constructor; auto. constructor; [lra|]. eapply Forall_impl; [|exact B]. intros a Ha. cbn beta in Ha. lra.
  - split; [eapply perm_trans; [apply perm_skip, P|apply perm_swap]|]. constructor; auto. rewrite Forall_forall in *. intros a Ha. apply (Permutation_in _ P) in Ha. destruct Ha as [<-|Ha]; auto.
Qed.
Lemma stable_sorts : sorts stable.
Proof.
  intros l. induction l as [|x l [P S0]]; [split; constructor|]. cbn [stable]. destruct (ins_sorted x (stable l) S0) as [P1 S1]. split; auto. eapply perm_trans; [exact P1|apply perm_skip, P].
Qed.
(** The repetition code of three bits, a parity bit, majority decoding. *)
Definition major (w : list bool) : list bool * bool := match w with [a; b; c] => (let m := (a && b) || (a && c) || (b && c) in [m; m; m], true) | _ => (w, false) end.
Example major_fits : hard_decoder 3 major /\ truthful 3 (fun w => w = [false; false; false] \/ w = [true; true; true]) major /\ corrects 3 1 (fun w => w = [false; false; false] \/ w = [true; true; true]) major.
Proof.
  split; [|split].
  - intros [|a [|b [|c [|]]]] L; try discriminate. reflexivity.
  - intros [|a [|b [|c [|]]]] L; try discriminate. intros _. destruct a, b, c; cbn; auto.
  - intros w [|a [|b [|c [|]]]] LW [->| ->] L; try discriminate; destruct a, b, c; cbn; intros; try reflexivity; lia.
Qed.
Example chase_runs : exists d s' s'', cp_new 1 4 3 2 0 0 [1; 1; 1; 1; 0]%Q [0] = Ret d /\ fair stable major 1000%Q 4 3 d [- (1); - (2); 5; 3]%Q (cp_start d) /\
  cp_siho_cw stable major 1000%Q d [- (1); - (2); 5; 3]%Q (cp_start d) = Ret (s', [false; false; false; false]) /\ cp_siho stable major 1000%Q d [- (1); - (2); 5; 3]%Q (cp_start d) = Ret (s', [false]) /\
  exists Y2, cp_siso stable major 1000%Q d [- (1); - (2); 5; 3]%Q (cp_start d) = Ret (s'', Y2) /\ Forall2 Qeq Y2 [6; 7; 0; 2]%Q.
Proof.
  eexists. eexists. eexists. split; [reflexivity|]. split.
  - split; [right; reflexivity|]. split; [apply major_fits|]. split; [apply stable_sorts|]. split; [cbn; lia|]. split; [reflexivity|reflexivity].
  - split; [vm_compute; reflexivity|]. split; [vm_compute; reflexivity|]. eexists. split; [vm_compute; reflexivity|]. repeat constructor; reflexivity.
Qed.
Example five_of_four : exists d, cp_new 1 7 7 4 5 0 [1; 1; 1; 1; 0]%Q [0] = Ret d /\ cp_pat d = [[false; false; false; false]; [true; false; false; false]; [false; true; false; false]; [false; false; true; false]; [false; false; false; true]].
Proof. eexists. split; reflexivity. Qed.
(** 12 of 16 patterns are not implemented. *)
Example twelve_of_four : cp_new 1 7 7 4 12 0 [1; 1; 1; 1; 0]%Q [0] = Throws.
Proof. reflexivity. Qed.
