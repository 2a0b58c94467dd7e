(** Theorems about the sequences (C60, C61, C80). *)
From Coq Require Import List Arith Lia Bool ZArith.
From Verif Require Import Base SeqModel.
Import ListNotations.

(** ** Specification of the order *)
(** the number of inputs of c fed by the tasks of the list *)
Definition links (outs : nat -> list nat) (ps : list nat) (c : nat) : nat := list_sum (map (fun p => count_occ Nat.eq_dec (outs p) c) ps).
Definition before (o : list nat) (p c : nat) : Prop := exists a b, o = a ++ c :: b /\ In p a.

Lemma mem_In : forall x l, mem x l = true <-> In x l.
Proof. intros x l. unfold mem. rewrite existsb_exists. split; [intros (y & I & E); apply Nat.eqb_eq in E; subst y; exact I|]. intros I. exists x. split; [exact I|apply Nat.eqb_refl]. Qed.
Lemma mem_false : forall x l, mem x l = false <-> ~ In x l.
Proof. intros x l. rewrite <- mem_In. destruct (mem x l); split; intros; congruence. Qed.
Lemma links_le : forall f g ps c, (forall p, In p ps -> count_occ Nat.eq_dec (f p) c <= count_occ Nat.eq_dec (g p) c) -> links f ps c <= links g ps c.
Proof. unfold links. induction ps as [|p ps IH]; intros c H; cbn [map list_sum fold_right]; [lia|]. pose proof (H p (or_introl eq_refl)). pose proof (IH c (fun q I => H q (or_intror I))). unfold list_sum in *. lia. Qed.
Lemma links_eq : forall f g ps c, (forall p, In p ps -> count_occ Nat.eq_dec (f p) c = count_occ Nat.eq_dec (g p) c) -> links f ps c = links g ps c.
Proof. intros f g ps c H. unfold links. f_equal. apply map_ext_in. exact H. Qed.
Lemma links_eq_all : forall f g ps c, (forall p, In p ps -> count_occ Nat.eq_dec (f p) c <= count_occ Nat.eq_dec (g p) c) -> links g ps c <= links f ps c -> forall p, In p ps -> count_occ Nat.eq_dec (f p) c = count_occ Nat.eq_dec (g p) c.
Proof.
  intros f g ps. induction ps as [|q ps IH]; intros c H L p I; [destruct I|]. pose proof (H q (or_introl eq_refl)) as Hq. pose proof (links_le f g ps c (fun r R => H r (or_intror R))) as HL. unfold links in L, HL. cbn [map list_sum fold_right] in L. unfold list_sum in *. destruct I as [<-|I]; [lia|]. apply IH; [intros r R; apply H; right; exact R| |exact I]. unfold links, list_sum. lia.
Qed.
Lemma links_add : forall f g ps t c x, NoDup ps -> In t ps -> (forall p, p <> t -> g p = f p) -> count_occ Nat.eq_dec (g t) c = count_occ Nat.eq_dec (f t) c + x -> links g ps c = links f ps c + x.
Proof.
  unfold links. induction ps as [|q ps IH]; intros t c x N I H E; [destruct I|]. inversion N as [|? ? Nq Np]; subst. cbn [map list_sum fold_right]. destruct I as [<-|I].
  - rewrite E. replace (map (fun p => count_occ Nat.eq_dec (g p) c) ps) with (map (fun p => count_occ Nat.eq_dec (f p) c) ps); [unfold list_sum; lia|]. apply map_ext_in. intros p Ip. rewrite H; [reflexivity|]. intros ->. contradiction.
  - rewrite H by (intros ->; contradiction). fold (list_sum (map (fun p => count_occ Nat.eq_dec (g p) c) ps)). fold (list_sum (map (fun p => count_occ Nat.eq_dec (f p) c) ps)). rewrite (IH t c x Np I H E). unfold list_sum. lia.
Qed.
Lemma links_nil : forall ps c, links (fun _ => []) ps c = 0.
Proof. intros ps c. unfold links. induction ps as [|p ps IH]; [reflexivity|]. exact IH. Qed.
Lemma before_app : forall o o' p c, before o p c -> before (o ++ o') p c.
Proof. intros o o' p c (a & b & -> & I). exists a, (b ++ o'). rewrite <- app_assoc. split; [reflexivity|exact I]. Qed.
Lemma count_app : forall l l' c, count_occ Nat.eq_dec (l ++ l') c = count_occ Nat.eq_dec l c + count_occ Nat.eq_dec l' c.
Proof. intros. apply count_occ_app. Qed.

Section Order.
Variable n : nat.
Variable outs : nat -> list nat.
Variable needed : nat -> nat.
Variables lasts exclusions : list nat.
Let tasks := seq 0 n.
Hypothesis Houts : forall p c, p < n -> In c (outs p) -> c < n.
Variable firsts : list nat.
Hypothesis Hfirsts : forall f p, In f firsts -> p < n -> In f (outs p) -> In p lasts.
Hypothesis Hone : forall c, c < n -> links outs tasks c <= needed c.

Definition Inv (fs : list nat) (o : list nat) (feed : nat -> nat) (sent : nat -> list nat) : Prop :=
  (forall c, c < n -> ~ In c exclusions -> feed c = links sent tasks c) /\
  (forall p, exists r, outs p = sent p ++ r) /\ (forall p, ~ In p o \/ In p lasts -> sent p = []) /\
  NoDup o /\ (forall c, In c o -> c < n) /\
  (forall c, In c o -> In c fs \/ (~ In c exclusions /\ 0 < feed c /\ feed c = needed c /\ forall p, p < n -> In c (outs p) -> ~ In p lasts /\ before o p c)) /\
  (forall c, c < n -> ~ In c exclusions -> ~ In c o -> feed c < needed c \/ feed c = 0).

Lemma tasks_In : forall p, In p tasks <-> p < n. Proof. intros p. unfold tasks. rewrite in_seq. lia. Qed.
Lemma sent_le : forall fs o feed sent c, Inv fs o feed sent -> forall p, count_occ Nat.eq_dec (sent p) c <= count_occ Nat.eq_dec (outs p) c.
Proof. intros fs o feed sent c (_ & P & _) p. destruct (P p) as [r ->]. rewrite count_app. lia. Qed.
Lemma NoDup_app_one : forall (o : list nat) t, NoDup o -> ~ In t o -> NoDup (o ++ [t]).
Proof. intros o t N I. apply NoDup_rev in N. rewrite <- (rev_involutive (o ++ [t])). apply NoDup_rev. rewrite rev_app_distr. cbn [rev app]. constructor; [|exact N]. rewrite <- in_rev. exact I. Qed.

Definition post (o o' : list nat) (sent sent' : nat -> list nat) : Prop :=
  (exists r, o' = o ++ r) /\ (forall p, In p o -> sent' p = sent p) /\ (forall p, In p o' -> ~ In p o -> ~ In p lasts -> sent' p = outs p).
Lemma post_refl : forall o sent, post o o sent sent.
Proof. intros. split; [exists []; rewrite app_nil_r; reflexivity|]. split; [reflexivity|]. intros p I N. contradiction. Qed.
Lemma post_trans : forall o o' o'' s s' s'', post o o' s s' -> post o' o'' s' s'' -> post o o'' s s''.
Proof.
  intros o o' o'' s s' s'' ((r & ->) & B & C) ((r' & ->) & B' & C'). split; [exists (r ++ r'); rewrite app_assoc; reflexivity|]. split.
  - intros p I. rewrite B' by (apply in_or_app; left; exact I). apply B. exact I.
  - intros p I N L. destruct (in_dec Nat.eq_dec p (o ++ r)) as [J|J]; [rewrite B' by exact J; apply C; assumption|apply C'; assumption].
Qed.

(** t has sent [sent t], and l remains *)
Lemma feed_all_ok : forall fs, incl fs firsts -> forall fuel, (forall t o feed sent, Inv fs (o ++ [t]) feed sent -> sent t = [] -> n <= fuel + length o -> exists o' feed' sent', visit outs needed lasts exclusions fuel t (o, feed) = Ret (o', feed') /\ Inv fs o' feed' sent' /\ post o o' sent sent') ->
  forall t l o feed sent, Inv fs o feed sent -> In t o -> ~ In t lasts -> outs t = sent t ++ l -> n <= fuel + length o -> exists o' feed' sent', feed_all needed exclusions (visit outs needed lasts exclusions fuel) l (o, feed) = Ret (o', feed') /\ Inv fs o' feed' sent' /\ (exists r, o' = o ++ r) /\
    (forall p, In p o -> p <> t -> sent' p = sent p) /\ (forall p, In p o' -> ~ In p o -> ~ In p lasts -> sent' p = outs p) /\ sent' t = outs t.
Proof.
  intros fs Hfs fuel V t. induction l as [|c l IH]; intros o feed sent I It Lt E F; cbn [feed_all].
  - exists o, feed, sent. split; [reflexivity|]. split; [exact I|]. split; [exists []; rewrite app_nil_r; reflexivity|]. split; [auto|]. split; [intros p A B; contradiction|]. rewrite E, app_nil_r. reflexivity.
  - set (sent1 := fun p => if p =? t then sent t ++ [c] else sent p).
    assert (S1t : sent1 t = sent t ++ [c]) by (unfold sent1; rewrite Nat.eqb_refl; reflexivity).
    assert (S1o : forall p, p <> t -> sent1 p = sent p) by (intros p Hp; unfold sent1; replace (p =? t) with false by (symmetry; apply Nat.eqb_neq; exact Hp); reflexivity).
    assert (E1 : outs t = sent1 t ++ l) by (rewrite S1t, <- app_assoc; exact E).
    pose proof I as (i1 & i2 & i3 & i4 & i5 & i6 & i7).
    assert (Tn : t < n) by (apply i5; exact It). assert (Cn : c < n) by (apply (Houts t c Tn); rewrite E; apply in_or_app; right; left; reflexivity).
    assert (LK : forall x, links sent1 tasks x = links sent tasks x + (if x =? c then 1 else 0)).
    { intros x. apply (links_add sent sent1 tasks t); [apply seq_NoDup|apply tasks_In; exact Tn|exact S1o|]. rewrite S1t, count_app. f_equal. cbn [count_occ]. destruct (Nat.eq_dec c x) as [->|NE]; [rewrite Nat.eqb_refl; reflexivity|]. replace (x =? c) with false by (symmetry; apply Nat.eqb_neq; congruence). reflexivity. }
    assert (P1 : forall p, exists r, outs p = sent1 p ++ r) by (intros p; destruct (Nat.eq_dec p t) as [->|NE]; [exists l; exact E1|rewrite S1o by exact NE; apply i2]).
    assert (P2 : forall p, ~ In p o \/ In p lasts -> sent1 p = []) by (intros p Hp; destruct (Nat.eq_dec p t) as [->|NE]; [destruct Hp; contradiction|rewrite S1o by exact NE; apply i3; exact Hp]).
    destruct (mem c exclusions) eqn:EX.
    + apply mem_In in EX. destruct (IH o feed sent1) as (o' & feed' & sent' & R & I' & X1 & X2 & X3 & X4); [|exact It|exact Lt|exact E1|exact F|].
      * split; [intros x Hx Nx; rewrite LK, (i1 x Hx Nx); replace (x =? c) with false by (symmetry; apply Nat.eqb_neq; intros ->; contradiction); lia|]. auto 10.
      * exists o', feed', sent'. do 3 (split; [assumption|]). split; [intros p A B; rewrite X2 by assumption; apply S1o; exact B|]. auto.
    + apply mem_false in EX. cbn [fst snd]. set (feed1 := fun x => if x =? c then S (feed c) else feed x).
      assert (F1 : forall x, x < n -> ~ In x exclusions -> feed1 x = links sent1 tasks x). { intros x Hx Nx. rewrite LK, <- (i1 x Hx Nx). unfold feed1. destruct (Nat.eqb_spec x c) as [->|]; lia. }
      assert (TOT : links sent1 tasks c <= links outs tasks c). { apply links_le. intros p _. destruct (P1 p) as [r ->]. rewrite count_app. lia. }
      assert (FC : feed1 c = S (feed c)) by (unfold feed1; rewrite Nat.eqb_refl; reflexivity).
      assert (NCo : feed c < needed c). { specialize (Hone c Cn). rewrite <- F1 in TOT by assumption. rewrite FC in TOT. lia. }
      assert (F1o : forall x, x <> c -> feed1 x = feed x) by (intros x Hx; unfold feed1; replace (x =? c) with false by (symmetry; apply Nat.eqb_neq; exact Hx); reflexivity).
      assert (D1 : forall x, In x o -> In x fs \/ (~ In x exclusions /\ 0 < feed1 x /\ feed1 x = needed x /\ forall p, p < n -> In x (outs p) -> ~ In p lasts /\ before o p x)).
      { intros x Hx. destruct (i6 x Hx) as [|(a1 & a2 & a3 & a4)]; [left; assumption|right]. assert (x <> c) by (intros ->; lia). rewrite F1o by assumption. auto. }
      destruct (Nat.leb_spec (needed c) (S (feed c))) as [LE|LT].
      * assert (NE : feed1 c = needed c) by (rewrite FC; lia).
        assert (IC : In c (outs t)) by (rewrite E; apply in_or_app; right; left; reflexivity).
        assert (Nco : ~ In c o). { intros Ico. destruct (i6 c Ico) as [Fc|(_ & _ & a3 & _)]; [|lia]. apply Lt. apply (Hfirsts c t); auto. }
        assert (ALL : forall p, p < n -> In c (outs p) -> ~ In p lasts /\ In p o).
        { intros p Hp Ip. assert (EQ : count_occ Nat.eq_dec (sent1 p) c = count_occ Nat.eq_dec (outs p) c).
          { apply (links_eq_all sent1 outs tasks c); [intros q _; destruct (P1 q) as [r ->]; rewrite count_app; lia| |apply tasks_In; exact Hp]. rewrite <- F1 by assumption. rewrite NE. apply Hone. exact Cn. }
          apply (count_occ_In Nat.eq_dec) in Ip. assert (NN : sent1 p <> []) by (intros X; rewrite X in EQ; cbn in EQ; lia).
          split; [intros X; apply NN; apply P2; right; exact X|]. destruct (in_dec Nat.eq_dec p o) as [|X]; [assumption|]. exfalso. apply NN. apply P2. left. exact X. }
        destruct (V c o feed1 sent1) as (o2 & feed2 & sent2 & R2 & I2 & Q2).
        { split; [exact F1|]. split; [exact P1|]. split; [intros p [Hp|Hp]; apply P2; [left; intros X; apply Hp; apply in_or_app; left; exact X|right; exact Hp]|]. split; [apply NoDup_app_one; assumption|].
          split; [intros x Hx; apply in_app_or in Hx; destruct Hx as [Hx|[<-|[]]]; [apply i5; exact Hx|exact Cn]|]. split.
          - intros x Hx. apply in_app_or in Hx. destruct Hx as [Hx|[<-|[]]].
            + destruct (D1 x Hx) as [|(a1 & a2 & a3 & a4)]; [left; assumption|right]. do 3 (split; [assumption|]). intros p Hp Ip. destruct (a4 p Hp Ip) as [b1 b2]. split; [exact b1|]. apply before_app. exact b2.
            + right. split; [exact EX|]. split; [rewrite FC; lia|]. split; [exact NE|]. intros p Hp Ip. destruct (ALL p Hp Ip) as [b1 b2]. split; [exact b1|]. exists o, []. auto.
          - intros x Hx Nx Ox. assert (x <> c) by (intros ->; apply Ox; apply in_or_app; right; left; reflexivity). rewrite F1o by assumption. apply i7; try assumption. intros X. apply Ox. apply in_or_app. left. exact X. }
        { apply P2. left. exact Nco. } { exact F. }
        fold feed1. rewrite R2. cbn [bind]. destruct Q2 as ((r2 & ->) & q2 & q3).
        destruct (IH (o ++ r2) feed2 sent2) as (o' & feed' & sent' & R & I' & (r' & X1) & X2 & X3 & X4); [exact I2|apply in_or_app; left; exact It|exact Lt|rewrite q2 by exact It; exact E1|rewrite app_length; lia|].
        exists o', feed', sent'. split; [exact R|]. split; [exact I'|]. split; [exists (r2 ++ r'); rewrite X1, app_assoc; reflexivity|]. split.
        { intros p A B. rewrite X2; [|apply in_or_app; left; exact A|exact B]. rewrite q2 by exact A. apply S1o. exact B. } split; [|exact X4].
        intros p A B C. destruct (in_dec Nat.eq_dec p (o ++ r2)) as [J|J]; [|apply X3; assumption]. rewrite X2; [|exact J|intros ->; contradiction]. apply q3; assumption.
      * cbn [bind]. fold feed1. destruct (IH o feed1 sent1) as (o' & feed' & sent' & R & I' & X1 & X2 & X3 & X4); [|exact It|exact Lt|exact E1|exact F|].
        { split; [exact F1|]. split; [exact P1|]. split; [exact P2|]. split; [exact i4|]. split; [exact i5|]. split; [exact D1|]. intros x Hx Nx Ox. destruct (Nat.eq_dec x c) as [->|NE]; [left; rewrite FC; exact LT|]. rewrite F1o by exact NE. apply i7; assumption. }
        exists o', feed', sent'. do 3 (split; [assumption|]). split; [intros p A B; rewrite X2 by assumption; apply S1o; exact B|]. auto.
Qed.
Lemma visit_ok : forall fs, incl fs firsts -> forall fuel t o feed sent, Inv fs (o ++ [t]) feed sent -> sent t = [] -> n <= fuel + length o ->
  exists o' feed' sent', visit outs needed lasts exclusions fuel t (o, feed) = Ret (o', feed') /\ Inv fs o' feed' sent' /\ post o o' sent sent' /\ In t o'.
Proof.
  intros fs Hfs. induction fuel as [|fuel IH]; intros t o feed sent I St F.
  - exfalso. destruct I as (_ & _ & _ & i4 & i5 & _). assert (length (o ++ [t]) <= n); [|rewrite app_length in *; cbn [length] in *; lia]. rewrite <- (seq_length n 0). apply NoDup_incl_length; [exact i4|]. intros x Hx. apply in_seq. specialize (i5 x Hx). lia.
  - cbn [visit fst snd]. assert (It : In t (o ++ [t])) by (apply in_or_app; right; left; reflexivity). pose proof I as (i1 & i2 & i3 & i4 & i5 & i6 & i7).
    destruct (mem t lasts) eqn:M.
    + apply mem_In in M. exists (o ++ [t]), feed, sent. split; [reflexivity|]. split; [exact I|]. split; [|exact It]. split; [exists [t]; reflexivity|]. split; [reflexivity|]. intros p A B C. apply in_app_or in A. destruct A as [A|[<-|[]]]; contradiction.
    + apply mem_false in M. destruct (feed_all_ok fs Hfs fuel) with (t := t) (l := outs t) (o := o ++ [t]) (feed := feed) (sent := sent) as (o' & feed' & sent' & R & I' & (r & X1) & X2 & X3 & X4); [|exact I|exact It|exact M|rewrite St; reflexivity|rewrite app_length; cbn [length]; lia|].
      { intros t' o1 feed1 sent1 I1 S1 F1. destruct (IH t' o1 feed1 sent1 I1 S1 F1) as (o2 & feed2 & sent2 & A & B & C & _). eauto 10. }
      exists o', feed', sent'. split; [exact R|]. split; [exact I'|]. split; [|rewrite X1; apply in_or_app; left; exact It]. split; [exists (t :: r); rewrite X1, <- app_assoc; reflexivity|].
      assert (Nt : ~ In t o) by (intros X; apply NoDup_remove_2 in i4; rewrite app_nil_r in i4; contradiction). split.
      * intros p A. apply X2; [apply in_or_app; left; exact A|]. intros ->. contradiction.
      * intros p A B C. destruct (Nat.eq_dec p t) as [->|NE]; [exact X4|]. apply X3; try assumption. intros X. apply in_app_or in X. destruct X as [X|[X|[]]]; [contradiction|congruence].
Qed.
Lemma firsts_ok : forall l fs o feed sent fuel, incl (fs ++ l) firsts -> NoDup (fs ++ l) -> (forall f, In f firsts -> f < n /\ ~ In f exclusions) -> n <= fuel -> Inv fs o feed sent -> incl fs o -> (forall p, In p o -> ~ In p lasts -> sent p = outs p) ->
  exists o' feed' sent', visit_firsts outs needed lasts exclusions fuel l (o, feed) = Ret (o', feed') /\ Inv (fs ++ l) o' feed' sent' /\ incl (fs ++ l) o' /\ (forall p, In p o' -> ~ In p lasts -> sent' p = outs p).
Proof.
  induction l as [|f l IH]; intros fs o feed sent fuel HI N HF F I J D; cbn [visit_firsts].
  - rewrite app_nil_r. exists o, feed, sent. auto.
  - pose proof I as (i1 & i2 & i3 & i4 & i5 & i6 & i7). assert (Hf : In f firsts) by (apply HI; apply in_or_app; right; left; reflexivity). destruct (HF f Hf) as [Fn Fx].
    assert (Z0 : feed f = 0).
    { rewrite (i1 f Fn Fx). transitivity (links (fun _ => []) tasks f); [|apply links_nil]. apply links_eq. intros p Ip. apply tasks_In in Ip. cbn [count_occ]. destruct (count_occ Nat.eq_dec (sent p) f) eqn:E; [reflexivity|exfalso]. assert (P : In f (sent p)) by (apply (count_occ_In Nat.eq_dec); lia).
      destruct (i2 p) as [r Er]. assert (Lp : In p lasts) by (apply (Hfirsts f p Hf Ip); rewrite Er; apply in_or_app; left; exact P). rewrite (i3 p (or_intror Lp)) in P. exact P. }
    assert (Nf : ~ In f o). { intros X. destruct (i6 f X) as [Y|(_ & Y & _)]; [|lia]. apply NoDup_remove_2 in N. apply N. apply in_or_app. left. exact Y. }
    replace (fs ++ f :: l) with ((fs ++ [f]) ++ l) in * by (rewrite <- app_assoc; reflexivity).
    destruct (visit_ok (fs ++ [f])) with (fuel := fuel) (t := f) (o := o) (feed := feed) (sent := sent) as (o1 & feed1 & sent1 & R1 & I1 & ((r1 & E1) & q2 & q3) & T1).
    { intros x Hx. apply HI. apply in_or_app. left. exact Hx. }
    { split; [exact i1|]. split; [exact i2|]. split; [intros p [Hp|Hp]; apply i3; [left; intros X; apply Hp; apply in_or_app; left; exact X|right; exact Hp]|]. split; [apply NoDup_app_one; assumption|]. split; [intros x Hx; apply in_app_or in Hx; destruct Hx as [Hx|[<-|[]]]; [apply i5; exact Hx|exact Fn]|]. split.
      - intros x Hx. apply in_app_or in Hx. destruct Hx as [Hx|[<-|[]]]; [|left; apply in_or_app; right; left; reflexivity]. destruct (i6 x Hx) as [Y|(a1 & a2 & a3 & a4)]; [left; apply in_or_app; left; exact Y|right]. do 3 (split; [assumption|]). intros p Hp Ip. destruct (a4 p Hp Ip). split; [assumption|]. apply before_app. assumption.
      - intros x Hx Nx Ox. apply i7; try assumption. intros X. apply Ox. apply in_or_app. left. exact X. }
    { apply i3. left. exact Nf. } { lia. }
    rewrite R1. cbn [bind]. apply (IH (fs ++ [f]) o1 feed1 sent1 fuel HI N HF F I1).
    + intros x Hx. apply in_app_or in Hx. destruct Hx as [Hx|[<-|[]]]; [rewrite E1; apply in_or_app; left; apply J; exact Hx|exact T1].
    + intros p Hp Lp. destruct (in_dec Nat.eq_dec p o) as [X|X]; [rewrite q2 by exact X; apply D; assumption|apply q3; assumption].
Qed.
End Order.

(** *** C60 *)
(** Each input waits for at most one task, and the first tasks are distinct and only fed by last ones *)
Theorem C60 : forall n outs needed lasts exclusions firsts fuel,
  (forall p c, p < n -> In c (outs p) -> c < n) -> (forall c, c < n -> links outs (seq 0 n) c <= needed c) ->
  NoDup firsts -> (forall f, In f firsts -> f < n) -> (forall f p, In f firsts -> p < n -> In f (outs p) -> In p lasts) ->
  (forall x, In x exclusions -> ~ In x firsts /\ ~ In x lasts) -> n <= fuel ->
  exists o, build outs needed lasts exclusions fuel firsts = Ret o /\ NoDup o /\ incl firsts o /\ (forall c, In c o -> c < n /\ ~ In c exclusions) /\
    (** a task comes after all those that feed it, and has all its inputs fed *)
    (forall c, In c o -> In c firsts \/ (links outs (seq 0 n) c = needed c /\ forall p, p < n -> In c (outs p) -> ~ In p lasts /\ before o p c)) /\
    (** every task whose inputs are fed is there *)
    (forall c, c < n -> ~ In c exclusions -> 0 < needed c -> links outs (seq 0 n) c = needed c -> (forall p, p < n -> In c (outs p) -> In p o /\ ~ In p lasts) -> In c o).
Proof.
  intros n outs needed lasts exclusions firsts fuel Ho H1 ND Hn Hf Hx F. unfold build.
  replace (forallb _ exclusions) with true by (symmetry; apply forallb_forall; intros x Ix; destruct (Hx x Ix) as [A B]; apply mem_false in A, B; rewrite A, B; reflexivity). cbn [guard bind].
  assert (Z : forall c, links (fun _ => []) (seq 0 n) c = 0) by (intros c; apply links_nil).
  assert (HF : forall f, In f firsts -> f < n /\ ~ In f exclusions) by (intros f I; split; [apply Hn; exact I|intros X; destruct (Hx f X); contradiction]).
  destruct (firsts_ok n outs needed lasts exclusions Ho firsts Hf H1 firsts [] [] (fun _ => 0) (fun _ => []) fuel) as (o & feed & sent & R & (i1 & i2 & i3 & i4 & i5 & i6 & i7) & J & D); try assumption.
  - intros x I. exact I.
  - split; [intros c _ _; rewrite Z; reflexivity|]. split; [intros p; exists (outs p); reflexivity|]. split; [reflexivity|]. split; [constructor|]. split; [intros c []|]. split; [intros c []|]. auto.
  - intros x [].
  - intros p [].
  - cbn [app] in *. rewrite R. cbn [bind fst]. exists o. split; [reflexivity|]. split; [exact i4|]. split; [exact J|].
    assert (NX : forall c, In c o -> ~ In c exclusions). { intros c I. destruct (i6 c I) as [A|(A & _)]; [apply HF; exact A|exact A]. }
    split; [auto|]. split.
    + intros c I. destruct (i6 c I) as [A|(A & _ & B & C)]; [left; exact A|right]. split; [|exact C]. specialize (i5 c I). pose proof (H1 c i5) as L. rewrite (i1 c i5 A) in B.
      assert (links sent (seq 0 n) c <= links outs (seq 0 n) c) by (apply links_le; intros p _; destruct (i2 p) as [r ->]; rewrite count_app; lia). lia.
    + intros c Cn Cx C0 CL P. destruct (in_dec Nat.eq_dec c o) as [|No]; [assumption|exfalso]. assert (E : feed c = needed c).
      { rewrite (i1 c Cn Cx), <- CL. apply links_eq. intros p Ip. apply in_seq in Ip. destruct (in_dec Nat.eq_dec c (outs p)) as [Q|Q].
        - destruct (P p ltac:(lia) Q) as [A B]. rewrite D by assumption. reflexivity.
        - destruct (i2 p) as [r Er]. rewrite Er in Q. rewrite Er, count_app. assert (~ In c r) by (intros X; apply Q; apply in_or_app; right; exact X). rewrite (proj1 (count_occ_not_In Nat.eq_dec r c)) by assumption. lia. }
      destruct (i7 c Cn Cx No); lia.
Qed.

(** refuted when a first task is fed by another one: it is pushed twice *)
Theorem C60_firsts_refuted : forall fuel outs needed a b, a <> b -> outs a = [b] -> outs b = [] -> needed b = 1 -> 2 <= fuel ->
  build outs needed [] [] fuel [a; b] = Ret [a; b; b] /\ build outs needed [] [] fuel [b; a] = Ret [b; a; b].
Proof.
  intros fuel outs needed a b NE Ea Eb Nb F. destruct fuel as [|[|fuel]]; try lia. unfold build. cbn [forallb guard bind visit_firsts]. 
  split; cbn [visit mem existsb fst snd app]; rewrite ?Ea, ?Eb; cbn [feed_all mem existsb bind fst snd]; rewrite ?Nb, ?Eb; cbn [Nat.leb visit mem existsb bind fst snd app]; rewrite ?Ea, ?Eb; cbn [feed_all mem existsb bind fst snd]; rewrite ?Nb; cbn [Nat.leb visit mem existsb bind fst snd app]; rewrite ?Eb; cbn [feed_all bind fst]; reflexivity.
Qed.
(** refuted for a task that feeds itself and is not a last one: the recursion does not end *)
Theorem C60_loop_refuted : forall fuel outs needed a, outs a = [a] -> needed a <= 1 -> build outs needed [] [] fuel [a] = Undef.
Proof.
  intros fuel outs needed a Ea Na. unfold build. cbn [forallb guard bind visit_firsts]. assert (V : forall fuel st, visit outs needed [] [] fuel a st = Undef); [|rewrite V; reflexivity].
  induction fuel0 as [|f IH]; intros st; [reflexivity|]. cbn [visit mem existsb]. rewrite Ea. cbn [feed_all mem existsb]. replace (needed a <=? S _) with true by (symmetry; apply Nat.leb_le; cbn [snd]; lia). rewrite IH. reflexivity.
Qed.

(** a diamond with a second source and a task that is not ready: 0 -> 1, 2; 1, 2 -> 3 (twice); 4 -> 3; 5 has an unbound input *)
Definition ex_outs (p : nat) : list nat := match p with 0 => [1; 2] | 1 => [3; 5] | 2 => [3] | 4 => [3] | _ => [] end.
Definition ex_needed (c : nat) : nat := match c with 1 => 1 | 2 => 1 | 3 => 3 | 5 => 2 | _ => 0 end.
Example C60_example : build ex_outs ex_needed [] [] 6 [0; 4] = Ret [0; 1; 2; 4; 3] /\ (forall c, c < 6 -> links ex_outs (seq 0 6) c <= ex_needed c).
Proof. split; [reflexivity|]. intros c Hc. do 6 (destruct c as [|c]; [vm_compute; lia|]). lia. Qed.
