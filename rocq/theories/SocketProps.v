(** C39 and C40: the bindings of the sockets. *)
From Coq Require Import List Arith Lia Bool ZArith.
From Verif Require Import Base SocketModel.
Import ListNotations.

(** ** Specification *)
(** The two ends of every binding agree, and a consumer is listed once *)
Definition mutual (h : heap) : Prop :=
  forall a b, a < length h -> b < length h ->
    (bound_socket (get h a) = Some b -> count_occ Nat.eq_dec (bound_sockets (get h b)) a = 1) /\
    (bound_socket (get h a) <> Some b -> ~ In a (bound_sockets (get h b))).
(** No socket is named that does not exist *)
Definition closed (h : heap) : Prop :=
  forall a, a < length h -> (forall b, bound_socket (get h a) = Some b -> b < length h) /\ (forall b, In b (bound_sockets (get h a)) -> b < length h).
(** Bound sockets have the same type and size and share their memory *)
Definition shared (h : heap) : Prop :=
  forall a b, a < length h -> bound_socket (get h a) = Some b ->
    datatype (get h a) = datatype (get h b) /\ databytes (get h a) = databytes (get h b) /\ dataptr (get h a) = dataptr (get h b) /\ dataptr (get h a) <> None.
(** Sockets that were just created *)
Definition fresh (h : heap) : Prop := forall a, a < length h -> bound_sockets (get h a) = [] /\ bound_socket (get h a) = None.
(** The calls on the sockets of the heap *)
Definition valid (n : nat) (c : call) : Prop :=
  match c with
  | Bind a b _ | Assign a b | Unbind a b => a < n /\ b < n
  | Reset a | BindPtr a _ | BindArray a _ _ | BindVector a _ _ _ | SetFast a _ | SetType a _ | SetBytes a _ | SetPtr a _ => a < n
  end.
(** The binds of an input to an output, outside of the fast mode *)
Definition directed (h0 : heap) (c : call) : Prop :=
  match c with
  | Bind a b _ => is_sin (get h0 a) = true /\ is_sin (get h0 b) = false
  | SetFast _ v => v = false
  | _ => True
  end.

(** ** Heaps *)
Lemma length_modify : forall h a f, length (modify h a f) = length h.
Proof. intros. apply length_upd. Qed.
Lemma get_modify : forall h a f x, a < length h -> get (modify h a f) x = if x =? a then f (get h a) else get h x.
Proof. intros. unfold get, modify. rewrite nth_upd by assumption. reflexivity. Qed.
Lemma get_out : forall h a, length h <= a -> get h a = null_socket.
Proof. intros. unfold get. apply nth_overflow. exact H. Qed.

Lemma find_split : forall a l p, find_pos a l = Some p -> p < length l /\ l = firstn p l ++ a :: skipn (S p) l /\ ~ In a (firstn p l).
Proof.
  intros a. induction l as [|b l IH]; intros p H; [discriminate|]. cbn [find_pos] in H. destruct (Nat.eqb_spec a b) as [->|NE].
  - injection H as <-. cbn. repeat split; [lia|tauto].
  - destruct (find_pos a l) as [q|]; [|discriminate]. injection H as <-. destruct (IH q eq_refl) as (A & B & C). cbn [length firstn skipn app]. split; [lia|]. split; [f_equal; exact B|]. intros [E|E]; [congruence|tauto].
Qed.
Lemma find_none : forall a l, find_pos a l = None -> ~ In a l.
Proof.
  intros a. induction l as [|b l IH]; intros H; [tauto|]. cbn [find_pos] in H. destruct (Nat.eqb_spec a b) as [->|NE]; [discriminate|]. destruct (find_pos a l); [discriminate|]. intros [E|E]; [congruence|]. exact (IH eq_refl E).
Qed.
Lemma find_in : forall a l, In a l -> exists p, find_pos a l = Some p.
Proof. intros a l H. destruct (find_pos a l) as [p|] eqn:E; [eauto|]. exfalso. exact (find_none a l E H). Qed.

Lemma count_notin : forall l a, ~ In a l -> count_occ Nat.eq_dec l a = 0.
Proof. intros. apply count_occ_not_In. exact H. Qed.
Lemma count_mid : forall l1 l2 (a b : nat), count_occ Nat.eq_dec (l1 ++ a :: l2) b = (if a =? b then 1 else 0) + count_occ Nat.eq_dec (l1 ++ l2) b.
Proof. intros. rewrite !count_occ_app. cbn [count_occ]. destruct (Nat.eq_dec a b) as [->|N]; [rewrite Nat.eqb_refl; lia|]. rewrite (proj2 (Nat.eqb_neq a b)) by exact N. lia. Qed.

(** ** unbind *)
Lemma unbind_ok : forall h a b, mutual h -> closed h -> a < length h -> bound_socket (get h a) = Some b ->
  exists l1 l2 h', bound_sockets (get h b) = l1 ++ a :: l2 /\ ~ In a (l1 ++ l2) /\ unbind h a b = (h', Ret (length l1)) /\ length h' = length h /\
    (forall x, bound_socket (get h' x) = if x =? a then None else bound_socket (get h x)) /\
    (forall x, bound_sockets (get h' x) = if x =? b then l1 ++ l2 else bound_sockets (get h x)) /\
    (forall x, datatype (get h' x) = datatype (get h x) /\ databytes (get h' x) = databytes (get h x) /\ fast (get h' x) = fast (get h x) /\ dataptr (get h' x) = dataptr (get h x) /\ is_sin (get h' x) = is_sin (get h x)).
Proof.
  intros h a b HM HC Ha HB. assert (Hb : b < length h) by (apply (proj1 (HC a Ha)); exact HB). pose proof (proj1 (HM a b Ha Hb) HB) as CT.
  assert (IN : In a (bound_sockets (get h b))) by (apply (count_occ_In Nat.eq_dec); lia). destruct (find_in _ _ IN) as [p FP]. destruct (find_split _ _ _ FP) as (PL & SP & NI).
  set (l1 := firstn p (bound_sockets (get h b))) in *. set (l2 := skipn (S p) (bound_sockets (get h b))) in *. assert (L1 : length l1 = p) by (unfold l1; rewrite firstn_length; lia).
  assert (CB : bound_sockets (get (modify h a (with_prod None)) b) = bound_sockets (get h b)) by (rewrite get_modify by exact Ha; destruct (Nat.eqb_spec b a) as [->|]; reflexivity).
  exists l1, l2. eexists. split; [exact SP|]. split. { rewrite SP, count_mid, Nat.eqb_refl in CT. apply (count_occ_not_In Nat.eq_dec). lia. }
  split. { unfold unbind. rewrite HB, Nat.eqb_refl. cbn [negb]. rewrite CB, FP, L1. reflexivity. }
  split; [rewrite !length_modify; reflexivity|].
  assert (GET : forall x, get (modify (modify h a (with_prod None)) b (fun s => with_cons (erase_at p (bound_sockets s)) s)) x =
    (if x =? b then with_cons (l1 ++ l2) (if b =? a then with_prod None (get h a) else get h b) else if x =? a then with_prod None (get h a) else get h x)).
  { intros x. rewrite get_modify by (rewrite length_modify; exact Hb). destruct (x =? b); [|apply get_modify; exact Ha]. rewrite get_modify by exact Ha. unfold erase_at. destruct (Nat.eqb_spec b a) as [->|]; reflexivity. }
  split; [|split]; intros x; rewrite GET.
  - destruct (Nat.eqb_spec x b) as [->|]; [destruct (Nat.eqb_spec b a) as [->|]; reflexivity|]. destruct (Nat.eqb_spec x a) as [->|]; reflexivity.
  - destruct (Nat.eqb_spec x b) as [->|]; [reflexivity|]. destruct (Nat.eqb_spec x a) as [->|]; reflexivity.
  - destruct (Nat.eqb_spec x b) as [->|]; [destruct (Nat.eqb_spec b a) as [->|]; repeat split|]. destruct (Nat.eqb_spec x a) as [->|]; repeat split.
Qed.

(** What removing a binding leaves *)
Definition removed (h h' : heap) (a b : nat) : Prop :=
  length h' = length h /\ (forall x, bound_socket (get h' x) = if x =? a then None else bound_socket (get h x)) /\
  (exists l1 l2, bound_sockets (get h b) = l1 ++ a :: l2 /\ ~ In a (l1 ++ l2) /\ forall x, bound_sockets (get h' x) = if x =? b then l1 ++ l2 else bound_sockets (get h x)) /\
  (forall x, datatype (get h' x) = datatype (get h x) /\ databytes (get h' x) = databytes (get h x) /\ fast (get h' x) = fast (get h x) /\ dataptr (get h' x) = dataptr (get h x) /\ is_sin (get h' x) = is_sin (get h x)).
Lemma unbind_cases : forall h a b, mutual h -> closed h ->
  (fst (unbind h a b) = h /\ snd (unbind h a b) = Throws /\ bound_socket (get h a) <> Some b) \/
  (a < length h /\ bound_socket (get h a) = Some b /\ (exists p, snd (unbind h a b) = Ret p) /\ removed h (fst (unbind h a b)) a b).
Proof.
  intros h a b HM HC. destruct (bound_socket (get h a)) as [c|] eqn:E.
  - destruct (Nat.eq_dec c b) as [->|NE].
    + right. assert (Ha : a < length h). { destruct (lt_dec a (length h)) as [|N]; [assumption|]. rewrite get_out in E by lia. discriminate. }
      destruct (unbind_ok h a b HM HC Ha E) as (l1 & l2 & h' & E1 & NI & EU & L & P & Q & R). rewrite EU. cbn [fst snd]. split; [exact Ha|]. split; [reflexivity|]. split; [eauto|]. split; [exact L|]. split; [exact P|]. split; [exists l1, l2; auto|exact R].
    + left. unfold unbind. rewrite E, (proj2 (Nat.eqb_neq c b)) by exact NE. cbn. repeat split. congruence.
  - left. unfold unbind. rewrite E. cbn. repeat split. discriminate.
Qed.
Lemma removed_mutual : forall h h' a b, mutual h -> closed h -> b < length h -> bound_socket (get h a) = Some b -> removed h h' a b -> mutual h' /\ closed h'.
Proof.
  intros h h' a b HM HC Hb HB (L & P & (l1 & l2 & E & NI & Q) & R). split.
  - intros x y Hx Hy. rewrite L in Hx, Hy. rewrite P, Q. destruct (HM x y Hx Hy) as [M1 M2]. destruct (Nat.eqb_spec x a) as [->|NE].
    + split; [discriminate|]. intros _. destruct (Nat.eqb_spec y b) as [->|N2]; [exact NI|]. apply M2. congruence.
    + destruct (Nat.eqb_spec y b) as [->|N2]; [|split; assumption]. rewrite E in M1, M2. split.
      * intros X. specialize (M1 X). rewrite count_mid, (proj2 (Nat.eqb_neq a x)) in M1 by congruence. exact M1.
      * intros X C. apply (M2 X). apply in_app_iff in C. apply in_app_iff. cbn. tauto.
  - intros x Hx. rewrite L in Hx. destruct (HC x Hx) as [C1 C2]. rewrite L. split.
    + intros y. rewrite P. destruct (x =? a); [discriminate|]. apply C1.
    + intros y. rewrite Q. destruct (Nat.eqb_spec x b) as [->|]; [|apply C2]. rewrite E in C2. intros I. apply C2. apply in_app_iff in I. apply in_app_iff. cbn. tauto.
Qed.
Lemma unbind_mutual : forall h a b, mutual h -> closed h -> mutual (fst (unbind h a b)) /\ closed (fst (unbind h a b)) /\ length (fst (unbind h a b)) = length h.
Proof.
  intros h a b HM HC. destruct (unbind_cases h a b HM HC) as [(E & _)|(Ha & HB & _ & R)]; [rewrite E; auto|]. destruct (removed_mutual h _ a b HM HC (proj1 (HC a Ha) b HB) HB R) as [A B]. split; [exact A|]. split; [exact B|]. apply R.
Qed.

(** ** bind *)
Definition added (h h' : heap) (a b : nat) : Prop :=
  length h' = length h /\ bound_socket (get h a) = None /\ (forall x, bound_socket (get h' x) = if x =? a then Some b else bound_socket (get h x)) /\
  (exists l1 l2, bound_sockets (get h b) = l1 ++ l2 /\ ~ In a (l1 ++ l2) /\ forall x, bound_sockets (get h' x) = if x =? b then l1 ++ a :: l2 else bound_sockets (get h x)) /\
  (forall x, datatype (get h' x) = datatype (get h x) /\ databytes (get h' x) = databytes (get h x) /\ fast (get h' x) = fast (get h x) /\
     dataptr (get h' x) = (if x =? a then dataptr (get h b) else dataptr (get h x)) /\ is_sin (get h' x) = is_sin (get h x)).
Lemma added_mutual : forall h h' a b, mutual h -> closed h -> a < length h -> b < length h -> added h h' a b -> mutual h' /\ closed h'.
Proof.
  intros h h' a b HM HC Ha Hb (L & N & P & (l1 & l2 & E & NI & Q) & R). split.
  - intros x y Hx Hy. rewrite L in Hx, Hy. rewrite P, Q. destruct (HM x y Hx Hy) as [M1 M2]. destruct (Nat.eqb_spec x a) as [->|NE].
    + split.
      * intros X. injection X as <-. rewrite Nat.eqb_refl, count_mid, Nat.eqb_refl, (count_notin _ _ NI). reflexivity.
      * intros X. destruct (Nat.eqb_spec y b) as [->|N2]; [congruence|]. apply M2. congruence.
    + destruct (Nat.eqb_spec y b) as [->|N2]; [|split; assumption]. rewrite E in M1, M2. split.
      * intros X. rewrite count_mid, (proj2 (Nat.eqb_neq a x)) by congruence. exact (M1 X).
      * intros X C. apply (M2 X). apply in_app_iff in C. apply in_app_iff. cbn in C. destruct C as [C|[C|C]]; [tauto|congruence|tauto].
  - intros x Hx. rewrite L in Hx. destruct (HC x Hx) as [C1 C2]. rewrite L. split.
    + intros y. rewrite P. destruct (x =? a); [intros X; injection X as <-; exact Hb|]. apply C1.
    + intros y. rewrite Q. destruct (Nat.eqb_spec x b) as [->|]; [|apply C2]. rewrite E in C2. intros I. apply in_app_iff in I. cbn in I. destruct I as [I|[I|I]]; [|subst; exact Ha|]; apply C2, in_app_iff; tauto.
Qed.

(** The position of a new consumer *)
Definition position (n : nat) (priority : Z) : nat := if (0 <=? priority)%Z && (priority <=? Z.of_nat n)%Z then Z.to_nat priority else n.

Lemma pos_choice : forall n (p : Z), (- 2 ^ 31 <= p < 2 ^ 31)%Z -> (Z.of_nat n < 2 ^ 62)%Z ->
  (Z.of_nat n <? (if p <? 0 then p + 2 ^ 64 else p))%Z || (p =? -1)%Z = negb ((0 <=? p)%Z && (p <=? Z.of_nat n)%Z).
Proof.
  intros n p Hp Hn. destruct (Z.ltb_spec p 0).
  - rewrite (proj2 (Z.leb_gt 0 p)) by lia. rewrite (proj2 (Z.ltb_lt _ _)) by lia. reflexivity.
  - rewrite (proj2 (Z.leb_le 0 p)) by lia. rewrite (proj2 (Z.eqb_neq p (-1))) by lia. rewrite orb_false_r. cbn [andb]. rewrite Z.leb_antisym, negb_involutive. reflexivity.
Qed.

(** [bind] when this is not bound *)
Lemma bind_new : forall h a b pr, mutual h -> closed h -> a < length h -> b < length h -> bind_checks h a b = true -> bound_socket (get h a) = None ->
  snd (bind h a b pr) = Ret tt /\ added h (fst (bind h a b pr)) a b /\
  ((- 2 ^ 31 <= pr < 2 ^ 31)%Z -> (Z.of_nat (length (bound_sockets (get h b))) < 2 ^ 62)%Z -> bound_sockets (get (fst (bind h a b pr)) b) = insert_at (position (length (bound_sockets (get h b))) pr) a (bound_sockets (get h b))).
Proof.
  intros h a b pr HM HC Ha Hb CK HN. unfold bind. rewrite CK. cbn [negb]. rewrite HN. cbn [opt_is]. cbv zeta. cbn [fst snd]. rewrite HN. cbn [is_none negb].
  set (h1 := modify h a (with_prod (Some b))). assert (L1 : length h1 = length h) by apply length_modify.
  assert (C1 : forall x, bound_sockets (get h1 x) = bound_sockets (get h x)) by (intros x; unfold h1; rewrite get_modify by exact Ha; destruct (Nat.eqb_spec x a) as [->|]; reflexivity).
  rewrite C1. set (l := bound_sockets (get h b)). assert (NI : ~ In a l) by (apply (proj2 (HM a b Ha Hb)); congruence).
  destruct (find_pos a l) as [p|] eqn:FP; [exfalso; apply NI; destruct (find_split _ _ _ FP) as (_ & E & _); rewrite E; apply in_app_iff; right; left; reflexivity|]. cbn [is_none negb fst snd].
  set (l' := if (Z.of_nat (length l) <? (if pr <? 0 then pr + 2 ^ 64 else pr))%Z || (pr =? -1)%Z then l ++ [a] else insert_at (Z.to_nat pr) a l).
  assert (SP : exists m1 m2, l = m1 ++ m2 /\ l' = m1 ++ a :: m2). { unfold l'. destruct ((Z.of_nat (length l) <? _)%Z || _); [exists l, []; rewrite app_nil_r; auto|]. exists (firstn (Z.to_nat pr) l), (skipn (Z.to_nat pr) l). rewrite firstn_skipn. split; reflexivity. }
  set (h2 := modify h1 b (with_cons l')). assert (L2 : length h2 = length h) by (unfold h2; rewrite length_modify; exact L1).
  assert (G2 : forall x, get h2 x = if x =? b then with_cons l' (get h1 b) else get h1 x) by (intros x; apply get_modify; lia).
  assert (G1 : forall x, get h1 x = if x =? a then with_prod (Some b) (get h a) else get h x) by (intros x; apply get_modify; lia).
  set (h3 := modify h2 a (with_ptr (dataptr (get h2 b)))). assert (G3 : forall x, get h3 x = if x =? a then with_ptr (dataptr (get h2 b)) (get h2 a) else get h2 x) by (intros x; apply get_modify; lia).
  assert (PB : dataptr (get h2 b) = dataptr (get h b)) by (rewrite G2, Nat.eqb_refl, G1; destruct (Nat.eqb_spec b a) as [->|]; reflexivity).
  split; [reflexivity|]. split; [split; [unfold h3; rewrite length_modify; exact L2|]; split; [exact HN|]; split; [|split]|].
  - intros x. rewrite G3, PB. destruct (Nat.eqb_spec x a) as [->|NE].
    + rewrite G2. destruct (Nat.eqb_spec a b) as [<-|]; rewrite G1, Nat.eqb_refl; reflexivity.
    + rewrite G2. destruct (Nat.eqb_spec x b) as [->|]; rewrite G1, (proj2 (Nat.eqb_neq _ a)) by exact NE; reflexivity.
  - destruct SP as (m1 & m2 & E1 & E2). exists m1, m2. split; [exact E1|]. rewrite <- E1, <- E2. split; [exact NI|]. intros x. rewrite G3, PB. destruct (Nat.eqb_spec x a) as [->|NE].
    + rewrite G2. destruct (Nat.eqb_spec a b) as [<-|]; [reflexivity|]. apply C1.
    + rewrite G2. destruct (Nat.eqb_spec x b) as [->|]; [reflexivity|apply C1].
  - intros x. rewrite G3, PB. destruct (Nat.eqb_spec x a) as [->|NE].
    + rewrite G2. destruct (Nat.eqb_spec a b) as [<-|]; rewrite G1, Nat.eqb_refl; repeat split.
    + rewrite G2. destruct (Nat.eqb_spec x b) as [->|]; rewrite G1, (proj2 (Nat.eqb_neq _ a)) by exact NE; repeat split.
  - intros HP HL. rewrite G3. assert (EB : bound_sockets (get h2 b) = l') by (rewrite G2, Nat.eqb_refl; reflexivity).
    replace (bound_sockets (if b =? a then with_ptr (dataptr (get h2 b)) (get h2 a) else get h2 b)) with l' by (destruct (Nat.eqb_spec b a) as [<-|]; [cbn; symmetry; exact EB|symmetry; exact EB]).
    unfold l', position. rewrite pos_choice by assumption. destruct ((0 <=? pr)%Z && (pr <=? Z.of_nat (length l))%Z); cbn [negb]; [reflexivity|]. unfold insert_at. rewrite firstn_all, skipn_all. reflexivity.
Qed.

Lemma bind_cases : forall h a b pr, mutual h -> closed h -> a < length h -> b < length h ->
  (fst (bind h a b pr) = h /\ snd (bind h a b pr) = Throws /\ (bind_checks h a b = false \/ exists c, bound_socket (get h a) = Some c /\ c <> b)) \/
  (snd (bind h a b pr) = Ret tt /\ bind_checks h a b = true /\ bound_socket (get h a) = None /\ added h (fst (bind h a b pr)) a b) \/
  (snd (bind h a b pr) = Ret tt /\ bind_checks h a b = true /\ bound_socket (get h a) = Some b /\ exists h1, removed h h1 a b /\ added h1 (fst (bind h a b pr)) a b).
Proof.
  intros h a b pr HM HC Ha Hb. destruct (bind_checks h a b) eqn:CK; [|left; unfold bind; rewrite CK; cbn; auto]. destruct (bound_socket (get h a)) as [c|] eqn:E.
  - destruct (Nat.eq_dec c b) as [->|NE].
    + right; right. destruct (unbind_ok h a b HM HC Ha E) as (l1 & l2 & h1 & E1 & NI & EU & L & P & Q & R).
      assert (RM : removed h h1 a b) by (split; [exact L|]; split; [exact P|]; split; [exists l1, l2; auto|exact R]). destruct (removed_mutual h h1 a b HM HC Hb E RM) as [M1 C1].
      assert (CK1 : bind_checks h1 a b = true). { revert CK. unfold bind_checks. destruct (R a) as (A1 & A2 & A3 & A4 & _). destruct (R b) as (B1 & B2 & B3 & B4 & _). rewrite A1, A2, A3, B1, B2, B4. auto. }
      assert (N1 : bound_socket (get h1 a) = None) by (rewrite P, Nat.eqb_refl; reflexivity).
      destruct (bind_new h1 a b pr M1 C1 ltac:(lia) ltac:(lia) CK1 N1) as (S1 & A1 & _).
      assert (SAME : bind h a b pr = bind h1 a b pr). { unfold bind. rewrite CK, CK1, E, N1. cbn [negb opt_is]. rewrite Nat.eqb_refl, EU. reflexivity. }
      rewrite SAME. split; [exact S1|]. split; [reflexivity|]. split; [reflexivity|]. exists h1. split; [exact RM|exact A1].
    + left. unfold bind. rewrite CK, E. cbn [negb opt_is]. rewrite (proj2 (Nat.eqb_neq c b)) by exact NE. cbn [fst snd]. rewrite E. cbn. repeat split. right. exists c. auto.
  - right; left. destruct (bind_new h a b pr HM HC Ha Hb CK E) as (S1 & A1 & _). auto.
Qed.

Lemma bind_mutual : forall h a b pr, mutual h -> closed h -> a < length h -> b < length h -> mutual (fst (bind h a b pr)) /\ closed (fst (bind h a b pr)) /\ length (fst (bind h a b pr)) = length h.
Proof.
  intros h a b pr HM HC Ha Hb. destruct (bind_cases h a b pr HM HC Ha Hb) as [(E & _)|[(_ & _ & _ & A)|(_ & _ & HB & h1 & R & A)]].
  - rewrite E. auto.
  - destruct (added_mutual _ _ _ _ HM HC Ha Hb A) as [X Y]. split; [exact X|]. split; [exact Y|apply A].
  - destruct (removed_mutual h h1 a b HM HC Hb HB R) as [M1 C1]. assert (L1 : length h1 = length h) by apply R. destruct (added_mutual h1 _ a b M1 C1 ltac:(lia) ltac:(lia) A) as [X Y]. split; [exact X|]. split; [exact Y|]. rewrite <- L1. apply A.
Qed.

(** ** Calls that keep the bindings *)
Definition keeps_links (h h' : heap) : Prop := length h' = length h /\ forall x, bound_socket (get h' x) = bound_socket (get h x) /\ bound_sockets (get h' x) = bound_sockets (get h x).
Lemma keeps_mutual : forall h h', keeps_links h h' -> mutual h -> closed h -> mutual h' /\ closed h'.
Proof.
  intros h h' (L & K) HM HC. split.
  - intros a b Ha Hb. rewrite L in Ha, Hb. destruct (K a) as [K1 _]. destruct (K b) as [_ K2]. rewrite K1, K2. apply HM; assumption.
  - intros a Ha. rewrite L in Ha. destruct (K a) as [K1 K2]. rewrite K1, K2, L. apply HC. exact Ha.
Qed.
Lemma keeps_refl : forall h, keeps_links h h.
Proof. intros. split; [reflexivity|]. auto. Qed.
Lemma keeps_trans : forall a b c, keeps_links a b -> keeps_links b c -> keeps_links a c.
Proof. intros a b c (L1 & K1) (L2 & K2). split; [congruence|]. intros x. destruct (K1 x), (K2 x). split; congruence. Qed.
Lemma keeps_modify : forall h a f, a < length h -> (forall s, bound_socket (f s) = bound_socket s /\ bound_sockets (f s) = bound_sockets s) -> keeps_links h (modify h a f).
Proof. intros h a f Ha F. split; [apply length_modify|]. intros x. rewrite get_modify by exact Ha. destruct (Nat.eqb_spec x a) as [->|]; [apply F|auto]. Qed.
Lemma keeps_ptr : forall h a p, a < length h -> keeps_links h (fst (bind_ptr h a p)).
Proof. intros h a p Ha. unfold bind_ptr. destruct (_ && _); cbn [fst]; [apply keeps_refl|]. apply keeps_modify; [exact Ha|]. intros s. split; reflexivity. Qed.
Lemma keeps_array : forall h a t p, a < length h -> keeps_links h (fst (bind_array h a t p)).
Proof.
  intros h a t p Ha. unfold bind_array. set (h1 := if fast (get h a) then modify h a (with_ptr p) else h). assert (K : keeps_links h h1) by (unfold h1; destruct (fast (get h a)); [apply keeps_modify; [exact Ha|]; intros s; split; reflexivity|apply keeps_refl]).
  destruct (negb _); cbn [fst]; [exact K|]. apply (keeps_trans _ _ _ K). apply keeps_ptr. rewrite (proj1 K). exact Ha.
Qed.
Lemma keeps_vector : forall h a t n p, a < length h -> keeps_links h (fst (bind_vector h a t n p)).
Proof.
  intros h a t n p Ha. unfold bind_vector. set (h1 := if fast (get h a) then modify h a (with_ptr p) else h). assert (K : keeps_links h h1) by (unfold h1; destruct (fast (get h a)); [apply keeps_modify; [exact Ha|]; intros s; split; reflexivity|apply keeps_refl]).
  destruct (_ =? 0); cbn [fst]; [exact K|]. destruct (negb _); cbn [fst]; [exact K|]. apply (keeps_trans _ _ _ K). apply keeps_array. rewrite (proj1 K). exact Ha.
Qed.

(** ** reset *)
Lemma reset_loop_mutual : forall m k h a mem, mutual h -> closed h -> mutual (fst (reset_loop m k h a mem)) /\ closed (fst (reset_loop m k h a mem)) /\ length (fst (reset_loop m k h a mem)) = length h.
Proof.
  induction m as [|m IH]; intros k h a mem HM HC; cbn [reset_loop]; [auto|]. destruct (unbind_mutual h (nth k mem 0) a HM HC) as (M1 & C1 & L1). cbv zeta. destruct (snd (unbind h (nth k mem 0) a)); cbn [fst]; auto.
  destruct (IH (S k) (fst (unbind h (nth k mem 0) a)) a (bound_sockets (get (fst (unbind h (nth k mem 0) a)) a) ++ skipn (length (bound_sockets (get (fst (unbind h (nth k mem 0) a)) a))) mem) M1 C1) as (A & B & C). split; [exact A|]. split; [exact B|]. congruence.
Qed.
Lemma reset_mutual : forall h a, mutual h -> closed h -> mutual (fst (reset h a)) /\ closed (fst (reset h a)) /\ length (fst (reset h a)) = length h.
Proof.
  intros h a HM HC. unfold reset. cbv zeta. destruct (bound_socket (get h a)) as [b|].
  - destruct (unbind_mutual h a b HM HC) as (M1 & C1 & L1). destruct (snd (unbind h a b)); cbn [fst]; auto. rewrite <- L1. apply reset_loop_mutual; assumption.
  - cbn [fst snd]. apply reset_loop_mutual; assumption.
Qed.

Lemma perform_mutual : forall h c, mutual h -> closed h -> valid (length h) c -> mutual (perform h c) /\ closed (perform h c) /\ length (perform h c) = length h.
Proof.
  intros h c HM HC V. assert (KM : forall h', keeps_links h h' -> mutual h' /\ closed h' /\ length h' = length h) by (intros h' K; destruct (keeps_mutual h h' K HM HC) as [A B]; split; [exact A|]; split; [exact B|apply K]).
  destruct c; cbn [perform valid] in *.
  - apply bind_mutual; tauto.
  - unfold assign. destruct (_ && _); [apply bind_mutual; tauto|]. destruct (_ && _); [apply bind_mutual; tauto|auto].
  - apply unbind_mutual; assumption.
  - apply reset_mutual; assumption.
  - apply KM, keeps_ptr, V.
  - apply KM, keeps_array, V.
  - apply KM, keeps_vector, V.
  - apply KM. apply keeps_modify; [exact V|]. intros s. split; reflexivity.
  - apply KM. unfold set_datatype. destruct (_ =? _); [apply keeps_refl|]. destruct (unbound _ _); [|apply keeps_refl]. apply keeps_modify; [exact V|]. intros s. split; reflexivity.
  - apply KM. unfold set_databytes. destruct (_ =? _); [apply keeps_refl|]. destruct (unbound _ _); [|apply keeps_refl]. apply keeps_modify; [exact V|]. intros s. split; reflexivity.
  - apply KM. unfold set_dataptr. destruct (same_ptr _ _); [apply keeps_refl|]. destruct (unbound _ _); [|apply keeps_refl]. apply keeps_modify; [exact V|]. intros s. split; reflexivity.
Qed.

Lemma history_mutual : forall cs h, mutual h -> closed h -> Forall (valid (length h)) cs -> mutual (history h cs) /\ closed (history h cs) /\ length (history h cs) = length h.
Proof.
  induction cs as [|c cs IH]; intros h HM HC V; [cbn; auto|]. inversion V as [|? ? V1 V2]; subst. destruct (perform_mutual h c HM HC V1) as (M1 & C1 & L1). cbn [history fold_left]. rewrite <- L1 in V2. destruct (IH (perform h c) M1 C1 V2) as (A & B & C). split; [exact A|]. split; [exact B|]. unfold history in C. congruence.
Qed.
Lemma fresh_mutual : forall h, fresh h -> mutual h /\ closed h.
Proof.
  intros h F. split.
  - intros a b Ha Hb. destruct (F a Ha) as [_ E]. destruct (F b Hb) as [E2 _]. rewrite E, E2. split; [discriminate|]. intros _ [].
  - intros a Ha. destruct (F a Ha) as [E1 E2]. rewrite E1, E2. split; [discriminate|intros b []].
Qed.

(** C39: after any history of calls, failing ones included, the two ends of the bindings agree. *)
Theorem C39_mutual : forall h0 cs, fresh h0 -> Forall (valid (length h0)) cs -> mutual (history h0 cs) /\ closed (history h0 cs).
Proof. intros h0 cs F V. destruct (fresh_mutual h0 F) as [M C]. destruct (history_mutual cs h0 M C V) as (A & B & _). split; assumption. Qed.

(** ** Shared memory *)
Definition plain (h0 h : heap) : Prop :=
  (forall a, a < length h -> fast (get h a) = false /\ is_sin (get h a) = is_sin (get h0 a)) /\
  (forall a b, a < length h -> bound_socket (get h a) = Some b -> is_sin (get h a) = true /\ is_sin (get h b) = false).
Definition good (h0 h : heap) : Prop := mutual h /\ closed h /\ length h = length h0 /\ plain h0 h /\ shared h.

Lemma removed_good : forall h0 h h' a b, good h0 h -> a < length h -> bound_socket (get h a) = Some b -> removed h h' a b -> good h0 h'.
Proof.
  intros h0 h h' a b (HM & HC & HL & (P1 & P2) & HS) Ha HB R. destruct (removed_mutual h h' a b HM HC (proj1 (HC a Ha) b HB) HB R) as [M C]. destruct R as (L & P & _ & F). split; [exact M|]. split; [exact C|]. split; [congruence|]. split; [split|].
  - intros x Hx. rewrite L in Hx. destruct (F x) as (_ & _ & F3 & _ & F5). rewrite F3, F5. apply P1. exact Hx.
  - intros x y Hx E. rewrite L in Hx. rewrite P in E. destruct (x =? a); [discriminate|]. destruct (F x) as (_ & _ & _ & _ & F5). destruct (F y) as (_ & _ & _ & _ & F5'). rewrite F5, F5'. apply P2; assumption.
  - intros x y Hx E. rewrite L in Hx. rewrite P in E. destruct (x =? a); [discriminate|]. destruct (F x) as (F1 & F2 & _ & F4 & _). destruct (F y) as (G1 & G2 & _ & G4 & _). rewrite F1, F2, F4, G1, G2, G4. apply HS; assumption.
Qed.
Lemma added_good : forall h0 h h' a b, good h0 h -> a < length h -> b < length h -> bind_checks h a b = true -> is_sin (get h a) = true -> is_sin (get h b) = false -> added h h' a b -> good h0 h'.
Proof.
  intros h0 h h' a b (HM & HC & HL & (P1 & P2) & HS) Ha Hb CK SA SB A. destruct (added_mutual h h' a b HM HC Ha Hb A) as [M C]. destruct A as (L & N & P & _ & F).
  assert (NAB : a <> b) by congruence. unfold bind_checks in CK. rewrite (proj1 (P1 a Ha)) in CK. cbn [orb] in CK. apply andb_true_iff in CK. destruct CK as [CK K3]. apply andb_true_iff in CK. destruct CK as [K1 K2]. apply Nat.eqb_eq in K1, K2. assert (K4 : dataptr (get h b) <> None) by (destruct (dataptr (get h b)); [discriminate|cbn in K3; discriminate]).
  split; [exact M|]. split; [exact C|]. split; [congruence|]. split; [split|].
  - intros x Hx. rewrite L in Hx. destruct (F x) as (_ & _ & F3 & _ & F5). rewrite F3, F5. apply P1. exact Hx.
  - intros x y Hx E. rewrite L in Hx. rewrite P in E. destruct (F x) as (_ & _ & _ & _ & F5). destruct (F y) as (_ & _ & _ & _ & F5'). rewrite F5, F5'. destruct (Nat.eqb_spec x a) as [->|]; [injection E as <-; auto|]. apply P2; assumption.
  - intros x y Hx E. rewrite L in Hx. rewrite P in E. destruct (F x) as (F1 & F2 & _ & F4 & _). destruct (F y) as (G1 & G2 & _ & G4 & _). rewrite F1, F2, F4, G1, G2, G4.
    destruct (Nat.eqb_spec x a) as [->|NE].
    + injection E as <-. rewrite (proj2 (Nat.eqb_neq b a)) by congruence. auto.
    + destruct (P2 x y Hx E) as [_ Q2]. rewrite (proj2 (Nat.eqb_neq y a)) by congruence. apply HS; assumption.
Qed.
Lemma unbind_good : forall h0 h a b, good h0 h -> good h0 (fst (unbind h a b)).
Proof. intros h0 h a b G. destruct G as (HM & HC & G). destruct (unbind_cases h a b HM HC) as [(E & _)|(Ha & HB & _ & R)]; [rewrite E; split; [exact HM|split; [exact HC|exact G]]|]. apply (removed_good h0 h _ a b); [split; [exact HM|split; [exact HC|exact G]]|exact Ha|exact HB|exact R]. Qed.
Lemma bind_good : forall h0 h a b pr, good h0 h -> a < length h -> b < length h -> is_sin (get h a) = true -> is_sin (get h b) = false -> good h0 (fst (bind h a b pr)).
Proof.
  intros h0 h a b pr G Ha Hb SA SB. pose proof G as G0. destruct G as (HM & HC & G). destruct (bind_cases h a b pr HM HC Ha Hb) as [(E & _)|[(_ & CK & _ & A)|(_ & CK & HB & h1 & R & A)]].
  - rewrite E. exact G0.
  - apply (added_good h0 h _ a b); assumption.
  - pose proof (removed_good h0 h h1 a b G0 Ha HB R) as G1. destruct R as (L & _ & _ & F). destruct (F a) as (A1 & A2 & A3 & A4 & A5). destruct (F b) as (B1 & B2 & B3 & B4 & B5).
    apply (added_good h0 h1 _ a b); try lia; try assumption; try congruence. revert CK. unfold bind_checks. rewrite A1, A2, A3, B1, B2, B4. auto.
Qed.
Lemma reset_loop_good : forall h0 m k h a mem, good h0 h -> good h0 (fst (reset_loop m k h a mem)).
Proof.
  intros h0. induction m as [|m IH]; intros k h a mem G; cbn [reset_loop]; [exact G|]. pose proof (unbind_good h0 h (nth k mem 0) a G) as G1. cbv zeta. destruct (snd (unbind h (nth k mem 0) a)); cbn [fst]; try exact G1. apply IH. exact G1.
Qed.
Lemma unbound_spec : forall h a, unbound h a = true -> bound_sockets (get h a) = [] /\ bound_socket (get h a) = None.
Proof. intros h a H. unfold unbound in H. apply andb_true_iff in H. destruct H as [H1 H2]. apply Nat.eqb_eq in H1. split; [destruct (bound_sockets (get h a)); [reflexivity|discriminate]|]. destruct (bound_socket (get h a)); [discriminate|reflexivity]. Qed.
Lemma modify_good : forall h0 h a f, good h0 h -> a < length h -> unbound h a = true ->
  (forall s, bound_socket (f s) = bound_socket s /\ bound_sockets (f s) = bound_sockets s /\ is_sin (f s) = is_sin s /\ fast (f s) = fast s) -> good h0 (modify h a f).
Proof.
  intros h0 h a f (HM & HC & HL & (P1 & P2) & HS) Ha U F. apply unbound_spec in U. destruct U as [U1 U2].
  destruct (keeps_mutual h (modify h a f) (keeps_modify h a f Ha (fun s => conj (proj1 (F s)) (proj1 (proj2 (F s))))) HM HC) as [M C].
  assert (L : length (modify h a f) = length h) by apply length_modify. assert (Gt : forall x, get (modify h a f) x = if x =? a then f (get h a) else get h x) by (intros; apply get_modify; exact Ha).
  assert (BS : forall x, bound_socket (get (modify h a f) x) = bound_socket (get h x)) by (intros x; rewrite Gt; destruct (Nat.eqb_spec x a) as [->|]; [apply F|reflexivity]).
  split; [exact M|]. split; [exact C|]. split; [congruence|]. split; [split|].
  - intros x Hx. rewrite L in Hx. rewrite Gt. destruct (Nat.eqb_spec x a) as [->|]; [|apply P1; exact Hx]. destruct (F (get h a)) as (_ & _ & E1 & E2). rewrite E1, E2. apply P1. exact Hx.
  - intros x y Hx E. rewrite L in Hx. rewrite BS in E. specialize (P2 x y Hx E). rewrite !Gt. destruct (F (get h a)) as (_ & _ & E1 & _). destruct (Nat.eqb_spec x a) as [->|], (Nat.eqb_spec y a) as [->|]; rewrite ?E1; exact P2.
  - intros x y Hx E. rewrite L in Hx. rewrite BS in E. assert (x <> a) by (intros ->; congruence). assert (y <> a). { intros ->. assert (I : In x (bound_sockets (get h a))) by (apply (count_occ_In Nat.eq_dec); rewrite (proj1 (HM x a Hx Ha) E); lia). rewrite U1 in I. exact I. }
    rewrite !Gt, (proj2 (Nat.eqb_neq x a)), (proj2 (Nat.eqb_neq y a)) by assumption. apply HS; assumption.
Qed.

Lemma perform_good : forall h0 h c, good h0 h -> valid (length h) c -> directed h0 c -> good h0 (perform h c).
Proof.
  intros h0 h c G V D. pose proof G as (HM & HC & HL & (P1 & P2) & HS). destruct c; cbn [perform valid directed] in *.
  - apply bind_good; try tauto; [rewrite (proj2 (P1 _ (proj1 V)))|rewrite (proj2 (P1 _ (proj2 V)))]; tauto.
  - unfold assign. destruct (is_sin (get h s)) eqn:E1, (is_sin (get h this)) eqn:E2; cbn [negb andb fst]; try exact G; apply bind_good; tauto.
  - apply unbind_good. exact G.
  - unfold reset. cbv zeta. destruct (bound_socket (get h this)) as [b|]; [|cbn [fst snd]; apply reset_loop_good; exact G]. pose proof (unbind_good h0 h this b G) as G1. destruct (snd (unbind h this b)); cbn [fst]; try exact G1. apply reset_loop_good. exact G1.
  - unfold bind_ptr. rewrite (proj1 (P1 _ V)). cbn [negb andb]. destruct (is_none p); cbn [orb fst]; [exact G|]. destruct (unbound h this) eqn:U; cbn [negb fst]; [|exact G]. apply modify_good; try assumption. intros s. repeat split.
  - unfold bind_array. rewrite (proj1 (P1 _ V)). destruct (negb _); cbn [fst]; [exact G|]. unfold bind_ptr. rewrite (proj1 (P1 _ V)). cbn [negb andb]. destruct (is_none p); cbn [orb fst]; [exact G|]. destruct (unbound h this) eqn:U; cbn [negb fst]; [|exact G]. apply modify_good; try assumption. intros s. repeat split.
  - unfold bind_vector. rewrite (proj1 (P1 _ V)). destruct (_ =? 0); cbn [fst]; [exact G|]. destruct (negb _); cbn [fst]; [exact G|]. unfold bind_array. rewrite (proj1 (P1 _ V)). destruct (negb _); cbn [fst]; [exact G|]. unfold bind_ptr. rewrite (proj1 (P1 _ V)). cbn [negb andb]. destruct (is_none p); cbn [orb fst]; [exact G|]. destruct (unbound h this) eqn:U; cbn [negb fst]; [|exact G]. apply modify_good; try assumption. intros s. repeat split.
  - subst v. unfold set_fast. cbn [fst]. assert (E : modify h this (with_fast false) = h).
    { apply (list_eq_nth _ null_socket); [apply length_modify|]. intros i Hi. change (get (modify h this (with_fast false)) i = get h i). rewrite get_modify by exact V. destruct (Nat.eqb_spec i this) as [->|]; [|reflexivity]. pose proof (proj1 (P1 _ V)) as F. destruct (get h this) as [d1 d2 d3 d4 d5 d6 d7]. cbn in *. subst d3. reflexivity. }
    rewrite E. exact G.
  - unfold set_datatype. destruct (_ =? _); cbn [fst]; [exact G|]. destruct (unbound h this) eqn:U; cbn [fst]; [|exact G]. apply modify_good; try assumption. intros s. repeat split.
  - unfold set_databytes. destruct (_ =? _); cbn [fst]; [exact G|]. destruct (unbound h this) eqn:U; cbn [fst]; [|exact G]. apply modify_good; try assumption. intros s. repeat split.
  - unfold set_dataptr. destruct (same_ptr _ _); cbn [fst]; [exact G|]. destruct (unbound h this) eqn:U; cbn [fst]; [|exact G]. apply modify_good; try assumption. intros s. repeat split.
Qed.
Lemma history_good : forall h0 cs h, good h0 h -> Forall (valid (length h0)) cs -> Forall (directed h0) cs -> good h0 (history h cs).
Proof.
  intros h0. induction cs as [|c cs IH]; intros h G V D; [exact G|]. inversion V; subst. inversion D; subst. cbn [history fold_left]. apply IH; try assumption. apply perform_good; try assumption. destruct G as (_ & _ & L & _). rewrite L. assumption.
Qed.

(** C39: with inputs bound to outputs outside of the fast mode, bound sockets agree on type, size and memory. *)
Theorem C39_shared : forall h0 cs, fresh h0 -> (forall a, a < length h0 -> fast (get h0 a) = false) -> Forall (valid (length h0)) cs -> Forall (directed h0) cs -> shared (history h0 cs).
Proof.
  intros h0 cs F NF V D. destruct (fresh_mutual h0 F) as [M C]. apply (history_good h0 cs h0); try assumption. split; [exact M|]. split; [exact C|]. split; [reflexivity|]. split; [split|].
  - intros a Ha. split; [apply NF; exact Ha|reflexivity].
  - intros a b Ha E. rewrite (proj2 (F a Ha)) in E. discriminate.
  - intros a b Ha E. rewrite (proj2 (F a Ha)) in E. discriminate.
Qed.

(** What bind and unbind do to the list of the consumers. *)
Theorem C39_bind : forall h a b pr, mutual h -> closed h -> a < length h -> b < length h -> (- 2 ^ 31 <= pr < 2 ^ 31)%Z -> (Z.of_nat (length (bound_sockets (get h b))) < 2 ^ 62)%Z ->
  (snd (bind h a b pr) = Ret tt <->
     (fast (get h a) = true \/ (datatype (get h a) = datatype (get h b) /\ databytes (get h a) = databytes (get h b) /\ dataptr (get h b) <> None)) /\
     (bound_socket (get h a) = None \/ bound_socket (get h a) = Some b)) /\
  (snd (bind h a b pr) = Ret tt -> let h' := fst (bind h a b pr) in
     bound_socket (get h' a) = Some b /\ dataptr (get h' a) = dataptr (get h b) /\
     (bound_socket (get h a) = None -> let l := bound_sockets (get h b) in
        bound_sockets (get h' b) = (if (0 <=? pr)%Z && (pr <=? Z.of_nat (length l))%Z then firstn (Z.to_nat pr) l ++ a :: skipn (Z.to_nat pr) l else l ++ [a]))) /\
  (snd (bind h a b pr) <> Ret tt -> snd (bind h a b pr) = Throws /\ fst (bind h a b pr) = h).
Proof.
  intros h a b pr HM HC Ha Hb HP HN.
  assert (CKS : bind_checks h a b = true <-> (fast (get h a) = true \/ (datatype (get h a) = datatype (get h b) /\ databytes (get h a) = databytes (get h b) /\ dataptr (get h b) <> None))).
  { unfold bind_checks. rewrite orb_true_iff, !andb_true_iff, !Nat.eqb_eq, negb_true_iff. destruct (dataptr (get h b)); cbn; intuition congruence. }
  destruct (bind_cases h a b pr HM HC Ha Hb) as [(E & S1 & W)|[(S1 & CK & N & A)|(S1 & CK & HB & h1 & R & A)]].
  - rewrite S1, E. split; [|split; [discriminate|auto]]. split; [discriminate|]. intros (K & B). exfalso. apply CKS in K. destruct W as [W|(c & W1 & W2)]; [congruence|]. rewrite W1 in B. destruct B as [B|B]; congruence.
  - rewrite S1. split; [split; [intros _; split; [apply CKS; exact CK|left; exact N]|reflexivity]|]. split; [|congruence]. intros _. destruct A as (L & _ & P & _ & F). cbv zeta. rewrite P, Nat.eqb_refl. split; [reflexivity|]. destruct (F a) as (_ & _ & _ & F4 & _). rewrite Nat.eqb_refl in F4. split; [exact F4|]. intros _.
    destruct (bind_new h a b pr HM HC Ha Hb CK N) as (_ & _ & Q). rewrite Q by assumption. unfold position. destruct (_ && _); [reflexivity|]. unfold insert_at. rewrite firstn_all, skipn_all. reflexivity.
  - rewrite S1. split; [split; [intros _; split; [apply CKS; exact CK|right; exact HB]|reflexivity]|]. split; [|congruence]. intros _. destruct A as (L & _ & P & _ & F). cbv zeta. rewrite P, Nat.eqb_refl. split; [reflexivity|]. destruct (F a) as (_ & _ & _ & F4 & _). rewrite Nat.eqb_refl in F4. split; [|congruence]. rewrite F4. apply R.
Qed.
Theorem C39_unbind : forall h a b, mutual h -> closed h -> a < length h ->
  (bound_socket (get h a) = Some b -> exists l1 l2, bound_sockets (get h b) = l1 ++ a :: l2 /\ snd (unbind h a b) = Ret (length l1) /\
     let h' := fst (unbind h a b) in bound_socket (get h' a) = None /\ bound_sockets (get h' b) = l1 ++ l2 /\ dataptr (get h' a) = dataptr (get h a)) /\
  (bound_socket (get h a) <> Some b -> unbind h a b = (h, Throws)).
Proof.
  intros h a b HM HC Ha. split.
  - intros E. destruct (unbind_ok h a b HM HC Ha E) as (l1 & l2 & h' & E1 & NI & EU & L & P & Q & R). exists l1, l2. rewrite EU. cbn [fst snd]. cbv zeta. split; [exact E1|]. split; [reflexivity|]. rewrite P, Q, !Nat.eqb_refl. repeat split. apply R.
  - intros N. destruct (unbind_cases h a b HM HC) as [(E & S1 & _)|(_ & E & _)]; [|congruence]. rewrite (surjective_pairing (unbind h a b)), E, S1. reflexivity.
Qed.

(** Binding an input that already feeds other sockets moves its memory but not theirs. *)
Definition chain0 : heap := [mkSocket 0 4 false (Some 10) [] None false; mkSocket 0 4 false (Some 11) [] None true; mkSocket 0 4 false None [] None true].
Theorem C39_chain_refuted : fresh chain0 /\ ~ shared (history chain0 [Bind 2 1 (-1); Bind 1 0 (-1)]).
Proof.
  split; [intros a Ha; cbn in Ha; destruct a as [|[|[|a]]]; try (split; reflexivity); lia|]. intros S. destruct (S 2 1 ltac:(cbn; lia) eq_refl) as (_ & _ & E & _). cbv in E. discriminate.
Qed.
(** In the fast mode nothing is checked. *)
Theorem C39_fast_refuted : exists h0 c, fresh h0 /\ directed h0 c /\ ~ shared (history h0 [c]).
Proof.
  exists [mkSocket 0 4 false (Some 10) [] None false; mkSocket 1 8 true None [] None true], (Bind 1 0 (-1)). split; [intros a Ha; cbn in Ha; destruct a as [|[|a]]; try (split; reflexivity); lia|]. split; [split; reflexivity|].
  intros S. destruct (S 1 0 ltac:(cbn; lia) eq_refl) as (E & _). cbv in E. discriminate.
Qed.

(** ** C40 *)
Lemma consumer_bound : forall h b x, mutual h -> closed h -> b < length h -> In x (bound_sockets (get h b)) -> x < length h /\ bound_socket (get h x) = Some b.
Proof.
  intros h b x HM HC Hb I. pose proof (proj2 (HC b Hb) x I) as Hx. split; [exact Hx|]. destruct (HM x b Hx Hb) as [_ M2]. destruct (bound_socket (get h x)) as [c|] eqn:E; [destruct (Nat.eq_dec c b) as [->|NE]; [reflexivity|]|]; exfalso; (apply M2; [congruence|exact I]).
Qed.
Lemma unbind_mid : forall h b l1 x l2, mutual h -> closed h -> b < length h -> bound_sockets (get h b) = l1 ++ x :: l2 ->
  exists h' p, unbind h x b = (h', Ret p) /\ mutual h' /\ closed h' /\ length h' = length h /\ bound_sockets (get h' b) = l1 ++ l2 /\ bound_socket (get h' x) = None.
Proof.
  intros h b l1 x l2 HM HC Hb E. destruct (consumer_bound h b x HM HC Hb ltac:(rewrite E; apply in_app_iff; right; left; reflexivity)) as [Hx BX].
  destruct (unbind_ok h x b HM HC Hx BX) as (m1 & m2 & h' & E1 & NI & EU & L & P & Q & R). exists h', (length m1). split; [exact EU|]. destruct (unbind_mutual h x b HM HC) as (M & C & _). rewrite EU in M, C. cbn [fst] in M, C. split; [exact M|]. split; [exact C|]. split; [exact L|]. split.
  - rewrite Q, Nat.eqb_refl. rewrite E in E1. assert (NX : ~ In x m1 /\ ~ In x m2) by (split; intros I; apply NI, in_app_iff; tauto). clear -E1 NX.
    revert m1 E1 NX. induction l1 as [|y l1 IH]; intros m1 E1 NX.
    + destruct m1 as [|z m1]; cbn in E1; [congruence|]. injection E1 as <- E2. exfalso. apply (proj1 NX). left. reflexivity.
    + destruct m1 as [|z m1]; cbn in E1.
      * injection E1 as -> E2. exfalso. apply (proj2 NX). rewrite <- E2. apply in_app_iff. right; left; reflexivity.
      * injection E1 as -> E2. cbn. f_equal. apply IH; [exact E2|]. split; [intros I; apply (proj1 NX); right; exact I|apply NX].
  - rewrite P, Nat.eqb_refl. reflexivity.
Qed.

(** The stale slots behind the end: [z] is the last of the consumers *)
Lemma reset_loop_throws : forall n r o z kk h b, length r <= n -> mutual h -> closed h -> b < length h -> bound_sockets (get h b) = o ++ r -> length o = kk ->
  (r <> [] -> last r 0 = z) -> (r = [] -> exists o', o = o' ++ [z]) -> 3 <= length o + length r + kk ->
  snd (reset_loop (length r + kk) (length o) h b (o ++ r ++ repeat z kk)) = Throws /\ bound_sockets (get (fst (reset_loop (length r + kk) (length o) h b (o ++ r ++ repeat z kk))) b) <> [].
Proof.
  induction n as [|n IH]; intros r o z kk h b Hr HM HC Hb E HO LZ LO G.
  - destruct r; [|cbn in Hr; lia]. destruct (LO eq_refl) as (o' & ->). rewrite app_length in HO. cbn [length] in HO. cbn [length app Nat.add]. rewrite app_length in G |- *. cbn [length] in G |- *. destruct kk as [|[|kk]]; [lia|lia|].
    cbn [reset_loop]. replace (nth (length o' + 1) ((o' ++ [z]) ++ repeat z (S (S kk))) 0) with z by (rewrite app_nth2; rewrite app_length; cbn [length]; [replace (length o' + 1 - (length o' + 1)) with 0 by lia; reflexivity|lia]).
    rewrite app_nil_r in E. destruct (unbind_mid h b o' z [] HM HC Hb E) as (h1 & p & EU & M1 & C1 & L1 & B1 & Z1). rewrite EU. cbn [fst snd]. rewrite app_nil_r in B1. rewrite B1.
    replace (skipn (length o') ((o' ++ [z]) ++ repeat z (S (S kk)))) with (z :: repeat z (S (S kk))) by (rewrite <- app_assoc, skipn_app, skipn_all, Nat.sub_diag; reflexivity).
    replace (nth (S (length o' + 1)) (o' ++ z :: repeat z (S (S kk))) 0) with z by (rewrite app_nth2 by lia; replace (S (length o' + 1) - length o') with 2 by lia; reflexivity).
    assert (TH : unbind h1 z b = (h1, Throws)) by (unfold unbind; rewrite Z1; reflexivity). rewrite TH. cbn [fst snd]. split; [reflexivity|]. rewrite B1. destruct o'; [cbn in HO; lia|discriminate].
  - destruct r as [|x [|y r]].
    + apply (IH [] o z kk h b); try assumption. cbn; lia.
    + cbn in LZ. specialize (LZ ltac:(discriminate)). subst x. cbn [length Nat.add reset_loop]. replace (nth (length o) (o ++ [z] ++ repeat z kk) 0) with z by (rewrite app_nth2, Nat.sub_diag by lia; reflexivity).
      destruct (unbind_mid h b o z [] HM HC Hb E) as (h1 & p & EU & M1 & C1 & L1 & B1 & Z1). rewrite EU. cbn [fst snd]. rewrite app_nil_r in B1. rewrite B1.
      replace (skipn (length o) (o ++ [z] ++ repeat z kk)) with (z :: repeat z kk) by (rewrite skipn_app, skipn_all, Nat.sub_diag; reflexivity).
      destruct kk as [|kk]; [cbn in G; lia|]. cbn [reset_loop]. replace (nth (S (length o)) (o ++ z :: repeat z (S kk)) 0) with z by (rewrite app_nth2 by lia; replace (S (length o) - length o) with 1 by lia; reflexivity).
      assert (TH : unbind h1 z b = (h1, Throws)) by (unfold unbind; rewrite Z1; reflexivity). rewrite TH. cbn [fst snd]. split; [reflexivity|]. rewrite B1. destruct o; [discriminate|discriminate].
    + cbn [length]. cbn [Nat.add]. set (LR := S (length r + kk)). cbn [reset_loop]. replace (nth (length o) (o ++ (x :: y :: r) ++ repeat z kk) 0) with x by (rewrite app_nth2, Nat.sub_diag by lia; reflexivity).
      destruct (unbind_mid h b o x (y :: r) HM HC Hb E) as (h1 & p & EU & M1 & C1 & L1 & B1 & Z1). rewrite EU. cbn [fst snd]. rewrite B1.
      assert (LA : last (y :: r) 0 = z) by (apply LZ; discriminate).
      assert (SK : skipn (length (o ++ y :: r)) (o ++ (x :: y :: r) ++ repeat z kk) = z :: repeat z kk).
      { rewrite (app_removelast_last (l := y :: r) 0) by discriminate. rewrite LA. set (rr := removelast (y :: r)). assert (LRR : length (o ++ rr ++ [z]) = length (o ++ x :: rr)) by (rewrite !app_length; cbn [length]; lia). rewrite LRR.
        replace (o ++ (x :: rr ++ [z]) ++ repeat z kk) with ((o ++ x :: rr) ++ z :: repeat z kk) by (rewrite <- !app_assoc; cbn [app]; rewrite <- app_assoc; reflexivity). rewrite skipn_app, skipn_all, Nat.sub_diag. reflexivity. }
      rewrite SK. replace ((o ++ y :: r) ++ z :: repeat z kk) with ((o ++ [y]) ++ r ++ repeat z (S kk)) by (rewrite <- !app_assoc; reflexivity).
      replace (S (length o)) with (length (o ++ [y])) by (rewrite app_length; cbn; lia). replace LR with (length r + S kk) by (unfold LR; lia).
      apply IH; try assumption; try lia.
      * cbn in Hr; lia.
      * rewrite B1, <- app_assoc. reflexivity.
      * rewrite app_length; cbn; lia.
      * intros NE. destruct r; [contradiction|]. exact LA.
      * intros ->. cbn in LA. subst y. exists o. reflexivity.
      * rewrite app_length. cbn [length] in *. lia.
Qed.

(** C40, up to two consumers (on the usual implementations): reset detaches them. *)
Theorem C40_reset_partial : forall h b, mutual h -> closed h -> b < length h -> bound_socket (get h b) = None -> length (bound_sockets (get h b)) <= 2 ->
  snd (reset h b) = Ret tt /\ let h' := fst (reset h b) in bound_sockets (get h' b) = [] /\ forall a, a < length h' -> bound_socket (get h' a) <> Some b.
Proof.
  intros h b HM HC Hb HN HL. assert (FIN : forall h', mutual h' -> b < length h' -> bound_sockets (get h' b) = [] -> forall a, a < length h' -> bound_socket (get h' a) <> Some b).
  { intros h' M' Hb' E a Ha C. pose proof (proj1 (M' a b Ha Hb') C) as CO. rewrite E in CO. discriminate. }
  unfold reset. rewrite HN. cbn [fst snd]. destruct (bound_sockets (get h b)) as [|x [|y [|z l]]] eqn:E; cbn [length] in *; [| | |lia].
  - cbn [reset_loop fst snd]. cbv zeta. split; [reflexivity|]. split; [exact E|]. apply FIN; assumption.
  - cbn [reset_loop nth]. destruct (unbind_mid h b [] x [] HM HC Hb E) as (h1 & p & EU & M1 & C1 & L1 & B1 & Z1). rewrite EU. cbn [fst snd reset_loop]. split; [reflexivity|]. cbv zeta. split; [exact B1|]. apply FIN; [exact M1|lia|exact B1].
  - cbn [reset_loop nth]. destruct (unbind_mid h b [] x [y] HM HC Hb E) as (h1 & p & EU & M1 & C1 & L1 & B1 & Z1). rewrite EU. cbn [fst snd]. cbn [app] in B1. rewrite B1. cbn [length skipn app nth].
    destruct (unbind_mid h1 b [] y [] M1 C1 ltac:(lia) B1) as (h2 & p2 & EU2 & M2 & C2 & L2 & B2 & Z2). rewrite EU2. cbn [fst snd reset_loop]. split; [reflexivity|]. cbv zeta. split; [exact B2|]. apply FIN; [exact M2|lia|exact B2].
Qed.
(** From three consumers on it throws and leaves consumers bound. *)
Theorem C40_reset_refuted : forall h b, mutual h -> closed h -> b < length h -> bound_socket (get h b) = None -> 3 <= length (bound_sockets (get h b)) ->
  snd (reset h b) = Throws /\ exists a, a < length h /\ bound_socket (get (fst (reset h b)) a) = Some b.
Proof.
  intros h b HM HC Hb HN HL. set (l := bound_sockets (get h b)) in *. assert (NE : l <> []) by (intros E; rewrite E in HL; cbn in HL; lia).
  destruct (reset_loop_throws (length l) l [] (last l 0) 0 h b) as [T B]; try assumption; try reflexivity; try (cbn; lia).
  { intros E. contradiction. }
  assert (R : reset h b = reset_loop (length l + 0) 0 h b ([] ++ l ++ repeat (last l 0) 0)) by (unfold reset; rewrite HN; cbn [fst snd repeat app]; fold l; rewrite Nat.add_0_r, app_nil_r; reflexivity).
  change (length (@nil nat)) with 0 in T, B. rewrite <- R in T, B. split; [exact T|]. destruct (reset_mutual h b HM HC) as (M' & C' & L'). destruct (bound_sockets (get (fst (reset h b)) b)) as [|x m] eqn:E; [contradiction|].
  destruct (consumer_bound (fst (reset h b)) b x M' C' ltac:(lia) ltac:(rewrite E; left; reflexivity)) as [Hx BX]. exists x. split; [lia|exact BX].
Qed.

(** ** Examples *)
Definition four : heap := [mkSocket 0 4 false (Some 10) [] None false; mkSocket 0 4 false None [] None true; mkSocket 0 4 false None [] None true; mkSocket 0 4 false None [] None true].
Example C39_example : fresh four /\ Forall (valid 4) [Bind 1 0 (-1); Bind 2 0 0; Unbind 3 0; Bind 3 0 1; BindPtr 0 (Some 5); Unbind 2 0] /\
  history four [Bind 1 0 (-1); Bind 2 0 0; Unbind 3 0; Bind 3 0 1; BindPtr 0 (Some 5); Unbind 2 0] =
  [mkSocket 0 4 false (Some 10) [3; 1] None false; mkSocket 0 4 false (Some 10) [] (Some 0) true; mkSocket 0 4 false (Some 10) [] None true; mkSocket 0 4 false (Some 10) [] (Some 0) true].
Proof. split; [intros a Ha; cbn in Ha; destruct a as [|[|[|[|a]]]]; try (split; reflexivity); lia|]. split; [repeat constructor; cbn; lia|]. reflexivity. Qed.
Example C40_example : let h := history four [Bind 1 0 (-1); Bind 2 0 (-1); Bind 3 0 (-1)] in snd (reset h 0) = Throws /\ bound_sockets (get (fst (reset h 0)) 0) = [2].
Proof. split; reflexivity. Qed.
