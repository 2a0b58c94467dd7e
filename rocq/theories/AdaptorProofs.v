(** Invariants of the adaptors. *)
From Coq Require Import List Arith Lia Bool.
From Verif Require Import Base AdaptorModel AdaptorSpec.
Import ListNotations.

Section Adaptor.
Variable D : Type.
Variable d0 : D.
Variables (one_to_n : bool) (n : nat) (used : nat -> bool) (size nsock : nat) (active : bool) (tgt : nat -> tid) (ncan : nat).
Hypothesis Hn : 0 < n.
Hypothesis H0 : used 0 = true.
Hypothesis Hsize : 0 < size.

Local Notation st := (st D).
Local Notation exec := (exec D d0 one_to_n n used size nsock active tgt ncan).
Local Notation execs := (execs D d0 one_to_n n used size nsock active tgt ncan).
Local Notation run_thread := (run_thread D d0 one_to_n n used size nsock active).
Local Notation run_cancel := (run_cancel D n used).
Local Notation set_pc := (set_pc D).
Local Notation wake := (wake D).
Local Notation init := (init D).
Local Notation next := (next n used).
Local Notation exists_ := (exists_ n used).
Local Notation pushes := (pushes one_to_n).
Local Notation blocked := (blocked one_to_n size).
Local Notation is_full := (is_full size).
Local Notation cmtx := (cmtx n).
Local Notation reachable := (reachable D d0 one_to_n n used size nsock active tgt ncan).

(** ** Function updates *)
Lemma tset_eq : forall A (f : tid -> A) t v, tset f t v t = v.
Proof. intros. unfold tset. destruct (tid_dec t t); congruence. Qed.
Lemma tset_neq : forall A (f : tid -> A) t v u, u <> t -> tset f t v u = f u.
Proof. intros. unfold tset. destruct (tid_dec u t); congruence. Qed.
Lemma nset_eq : forall A (f : nat -> A) t v, nset f t v t = v.
Proof. intros. unfold nset. destruct (Nat.eq_dec t t); congruence. Qed.
Lemma nset_neq : forall A (f : nat -> A) t v u, u <> t -> nset f t v u = f u.
Proof. intros. unfold nset. destruct (Nat.eq_dec u t); congruence. Qed.

Definition roused (p : pc) : pc := match p with Sleep => Lock | p => p end.
Lemma wake_pcs : forall s t u, pcs (wake s t) u = if tid_dec u t then roused (pcs s t) else pcs s u.
Proof. intros s t u. unfold AdaptorModel.wake, roused. destruct (tid_dec u t) as [->|N]; destruct (pcs s t) eqn:E; cbn [AdaptorModel.set_pc pcs]; try congruence; try apply tset_eq; apply tset_neq; exact N. Qed.
Lemma wake_same : forall s t, first (wake s t) = first s /\ last (wake s t) = last s /\ buf (wake s t) = buf s /\ cur (wake s t) = cur s /\ canc (wake s t) = canc s /\
  mtx (wake s t) = mtx s /\ item (wake s t) = item s /\ cpcs (wake s t) = cpcs s /\ hpush (wake s t) = hpush s /\ hpull (wake s t) = hpull s.
Proof. intros s t. unfold AdaptorModel.wake. destruct (pcs s t); repeat split; reflexivity. Qed.

(** ** The steps, with the states written out *)
Ltac brk H :=
  repeat match type of H with
  | match ?x with _ => _ end = Some _ => let E := fresh "E" in destruct x eqn:E; try discriminate H
  end.
Ltac proj := cbn [AdaptorModel.set_pc AdaptorModel.set_mtx AdaptorModel.set_item AdaptorModel.set_cpc AdaptorModel.set_canc AdaptorModel.set_cur AdaptorModel.set_buf
                  first last buf cur canc mtx pcs item cpcs hpush hpull] in *.
Ltac cases0 l H :=
  destruct l as [t l|k|t|[t|k]]; cbn [AdaptorModel.exec] in H; unfold AdaptorModel.run_thread, AdaptorModel.run_cancel in H; cbv zeta in H; brk H;
  match type of H with Some ?x = Some ?y => let Q := fresh in assert (Q : y = x) by congruence; clear H; subst y end.
Ltac cases l H := cases0 l H;
  repeat match goal with |- context [wake ?s ?t] =>
    let W := fresh "W" in pose proof (wake_same s t) as W; pose proof (wake_pcs s t); set (wake s t) in *; destruct W as (? & ? & ? & ? & ? & ? & ? & ? & ? & ?) end;
  proj.
Ltac tcase u t := destruct (tid_dec u t) as [->|?]; [rewrite ?tset_eq in *|rewrite ?tset_neq in * by assumption].

Definition busy (p : pc) : Prop := match p with Idle | Wait | Test | Thrown | Copy _ | Bump | Next => False | _ => True end.

(** Invariant 1 *)
Definition inv1 (s : st) : Prop :=
  (forall t, pcs s t <> Idle -> exists_ t = true) /\ cur s < n /\ used (cur s) = true /\ (active = true -> forall t, ~ busy (pcs s t)).

Lemma skip_ok : forall fuel c, c < n -> (n <= c + S fuel) -> skip n used fuel c < n /\ used (skip n used fuel c) = true.
Proof.
  induction fuel as [|fuel IH]; intros c Hc HF; cbn [skip].
  - assert (c + 1 = n) by lia. rewrite H. rewrite Nat.mod_same by lia. auto.
  - destruct (used ((c + 1) mod n)) eqn:E; [split; [apply Nat.mod_upper_bound; lia|exact E]|]. assert (c + 1 <> n) by (intros X; rewrite X, Nat.mod_same in E by lia; congruence).
    rewrite Nat.mod_small in * by lia. apply IH; lia.
Qed.
Lemma next_ok : forall c, c < n -> next c < n /\ used (next c) = true.
Proof. intros c Hc. apply skip_ok; lia. Qed.

Lemma inv1_step : forall l s s', inv1 s -> exec l s = Some s' -> inv1 s'.
Proof.
  intros l s s' (I1 & I2 & I3 & I4) H. unfold inv1. cases l H.
  all: try (match goal with |- context [match ?t with One => _ | Many _ => _ end] => destruct t end; proj).
  all: try (pose proof (next_ok _ I2)).
  all: repeat match goal with H : cur _ = _ |- _ => rewrite H in * | H : canc _ = _ |- _ => rewrite H in * end; proj.
  all: split; [intros u Hu|split; [|split; [|intros A u]]]; try tauto; try assumption.
  all: try (match goal with H : forall u, pcs _ u = _ |- _ => rewrite H in * end; destruct (tid_dec u _) as [->|]).
  all: try (match goal with H : context [tset (pcs _) ?t _ ?u] |- _ => tcase u t | |- context [tset (pcs _) ?t _ ?u] => tcase u t end).
  all: try (apply I1; congruence).
  all: try apply I4; auto.
  all: try (specialize (I4 A t); rewrite E in I4).
  all: try (cbn [busy] in *; tauto).
  all: try (rewrite A in *; cbn [busy]; congruence).
  all: try (intros B; cbn [busy] in B; congruence).
  all: try (apply andb_true_iff in E0; apply E0).
  - destruct (canc s t); cbn [busy]; tauto.
  - apply I1. unfold roused in Hu. destruct (pcs s (mate s t)); congruence.
  - apply I1. unfold roused in Hu. destruct (pcs s (cmtx j)); congruence.
  - specialize (I4 A (cmtx j)). destruct (pcs s (cmtx j)); cbn [busy roused] in *; tauto.
Qed.

(** ** Mutexes *)
(** The mutex that an actor holds. *)
Definition held (s : st) (a : actor) : option tid :=
  match a with
  | T t => match pcs s t with Pred | Unlock => Some t | Notify | NUnlock => Some (mate s t) | _ => None end
  | C k => match cpcs s k with CNotify j | CUnlock j => Some (cmtx j) | _ => None end
  end.
Definition agree (mt : tid -> option actor) (hd : actor -> option tid) : Prop := forall m a, mt m = Some a <-> hd a = Some m.
Definition inv2 (s : st) : Prop := agree (mtx s) (held s).

Lemma agree_same : forall mt hd hd', agree mt hd -> (forall a, hd' a = hd a) -> agree mt hd'.
Proof. intros mt hd hd' A H m a. rewrite H. apply A. Qed.
Lemma agree_acq : forall mt hd hd' m b, agree mt hd -> mt m = None -> hd b = None -> hd' b = Some m -> (forall a, a <> b -> hd' a = hd a) -> agree (tset mt m (Some b)) hd'.
Proof.
  intros mt hd hd' m b A F N Y O m' a. assert (DA : {a = b} + {a <> b}) by (decide equality; [apply tid_dec|apply Nat.eq_dec]). tcase m' m.
  - split; [intros E; injection E as <-; exact Y|]. intros E. destruct DA as [->|NE]; [reflexivity|]. rewrite O in E by exact NE. apply A in E. congruence.
  - rewrite (A m' a). destruct DA as [->|NE]; [rewrite Y, N; split; [discriminate|intros E; congruence]|]. rewrite O by exact NE. reflexivity.
Qed.
Lemma agree_rel : forall mt hd hd' m b, agree mt hd -> hd b = Some m -> hd' b = None -> (forall a, a <> b -> hd' a = hd a) -> agree (tset mt m None) hd'.
Proof.
  intros mt hd hd' m b A Y N O m' a. assert (DA : {a = b} + {a <> b}) by (decide equality; [apply tid_dec|apply Nat.eq_dec]). tcase m' m.
  - split; [discriminate|]. intros E. destruct DA as [->|NE]; [congruence|]. rewrite O in E by exact NE. apply A in E, Y. congruence.
  - rewrite (A m' a). destruct DA as [->|NE]; [rewrite Y, N; split; [intros E; congruence|discriminate]|]. rewrite O by exact NE. reflexivity.
Qed.

Lemma wake_held : forall s m a, held (wake s m) a = held s a.
Proof.
  intros s m [u|u]; cbn [held].
  - destruct (wake_same s m) as (_ & _ & _ & WC & _). unfold mate. rewrite WC, wake_pcs. destruct (tid_dec u m) as [->|]; [|reflexivity]. destruct (pcs s m); reflexivity.
  - destruct (wake_same s m) as (_ & _ & _ & _ & _ & _ & _ & WC & _). rewrite WC. reflexivity.
Qed.
Lemma wake_mtx : forall s m, mtx (wake s m) = mtx s.
Proof. intros. apply wake_same. Qed.

Lemma inv2_step : forall l s s', inv1 s -> inv2 s -> exec l s = Some s' -> inv2 s'.
Proof.
  intros l s s' (_ & I0 & _) I H. cases0 l H; try exact I.
  all: try (match goal with |- context [match ?t with One => _ | Many _ => _ end] => destruct t end).
  all: unfold inv2 in *; rewrite ?wake_mtx; proj.
  all: try (eapply agree_acq; [exact I|eassumption| | |]).
  all: try (match goal with E : pcs _ ?t = _ |- agree (tset _ _ None) _ => apply (agree_rel _ _ _ _ (T t) I) | E : cpcs _ ?t = _ |- agree (tset _ _ None) _ => apply (agree_rel _ _ _ _ (C t) I) end).
  all: try (match goal with |- agree _ _ => apply (agree_same _ _ _ I) end).
  all: try (match goal with |- forall a, a <> _ -> _ => intros [u|u] NE | |- forall a, _ => intros [u|u] end).
  all: rewrite ?wake_held; cbn [held]; proj.
  all: repeat match goal with |- context [if ?c then _ else _] => destruct c end; rewrite ?tset_eq, ?nset_eq.
  all: try (match goal with |- context [tset _ ?t _ ?u] => tcase u t end).
  all: try (match goal with |- context [nset _ ?t _ ?u] => destruct (Nat.eq_dec u t) as [->|?]; [rewrite ?nset_eq in *|rewrite ?nset_neq in * by assumption] end).
  all: try congruence; try reflexivity.
  all: try (match goal with E : pcs _ ?u = _ |- context [pcs _ ?u] => rewrite E; reflexivity end).
  all: try (match goal with E : cpcs _ ?u = _ |- context [cpcs _ ?u] => rewrite E; reflexivity end).
  destruct u; [congruence|reflexivity].
Qed.

(** ** Counters *)
(** What a thread past its wait knows. *)
Definition room (s : st) (t : tid) : Prop := if pushes t then last s (ring s t) < first s (ring s t) + size else first s (ring s t) < last s (ring s t).
Definition inv3 (s : st) : Prop :=
  (forall i, first s i <= last s i <= first s i + size) /\
  (forall t, match pcs s t with Unlock | Test => canc s t = true \/ room s t | Copy _ | Bump => room s t | _ => True end).

Lemma not_blocked : forall s t, (forall i, first s i <= last s i <= first s i + size) -> blocked s t = false -> canc s t = true \/ room s t.
Proof.
  intros s t Q H. unfold AdaptorModel.blocked, AdaptorModel.is_full, is_empty in H. unfold room. specialize (Q (ring s t)). destruct (canc s t); [left; reflexivity|]. right. rewrite andb_true_r in H. destruct (pushes t); apply Nat.eqb_neq in H; lia.
Qed.

(** Only One changes its ring, and it is not in a call then; a ring has one thread that pushes and one that pulls. *)
Lemma one_side : forall (s : st) t u, exists_ t = true -> exists_ u = true -> pushes t = pushes u -> ring s t = ring s u -> t = u.
Proof. intros s [|i] [|j] _ _ P R; cbn [AdaptorModel.pushes ring] in *; try reflexivity; [destruct one_to_n; discriminate|destruct one_to_n; discriminate|congruence]. Qed.

Definition knows (s : st) (c : Prop) (t : tid) (p : pc) : Prop := match p with Unlock | Test => c \/ room s t | Copy _ | Bump => room s t | _ => True end.
Lemma inv3_local : forall s s', inv3 s -> first s' = first s -> last s' = last s -> cur s' = cur s -> (forall u, canc s u = true -> canc s' u = true) ->
  (forall u, pcs s' u = pcs s u \/ knows s (canc s u = true) u (pcs s' u)) -> inv3 s'.
Proof.
  intros s s' (Q & R) F L CU CA P. split; [intros i; rewrite F, L; apply Q|]. intros t.
  assert (RM : room s' t <-> room s t) by (unfold room; destruct t; cbn [ring]; rewrite F, L, ?CU; reflexivity).
  specialize (R t). specialize (P t). specialize (CA t). destruct P as [P|P].
  - rewrite P. destruct (pcs s t); rewrite ?RM; tauto.
  - destruct (pcs s' t); cbn [knows] in P; rewrite ?RM; tauto.
Qed.

Ltac pcs_at u :=
  repeat match goal with H : forall u, pcs _ u = _ |- _ => rewrite H; clear H end; proj;
  match goal with |- context [tid_dec u ?m] => destruct (tid_dec u m) as [->|?] | _ => idtac end;
  repeat match goal with |- context [tset (pcs _) ?t _ ?v] => first [constr_eq v t; rewrite !tset_eq | destruct (tid_dec v t) as [->|?]; [rewrite !tset_eq|rewrite !(tset_neq _ _ t) by assumption]] end.

Lemma roused_knows : forall s c t p, roused p = p \/ knows s c t (roused p).
Proof. intros s c t p. destruct p; (left; reflexivity) || (right; exact I). Qed.

Lemma inv3_step : forall l s s', inv1 s -> inv3 s -> exec l s = Some s' -> inv3 s'.
Proof.
  intros l s s' (I1 & _) I H. pose proof I as (Q & R). cases l H; try exact I.
  all: try (match goal with |- context [match ?t with One => _ | Many _ => _ end] => destruct t end).
  all: try (apply (inv3_local s); [exact I|assumption || reflexivity|assumption || reflexivity|assumption || reflexivity| |];
    [intros u CU; first [exact CU|congruence | proj; destruct (tid_dec u (tgt k)) as [->|]; [rewrite tset_eq; reflexivity|rewrite tset_neq by assumption; exact CU]]
    |intros u; pcs_at u; first [left; reflexivity|right; cbn [knows]; exact Logic.I|apply roused_knows|idtac]]).
  - right. apply not_blocked; assumption.
  - right. apply not_blocked; assumption.
  - right. specialize (R t). rewrite E in R. exact R.
  - right. specialize (R t). rewrite E in R. destruct (canc s t); [exact Logic.I|]. destruct R; [discriminate|assumption].
  - right. specialize (R t). rewrite E in R. exact R.
  - right. specialize (R t). rewrite E in R. exact R.
  - right. specialize (R t). rewrite E in R. exact R.
  - assert (RT := R t). rewrite E in RT. unfold room in RT. rewrite E0 in RT. split.
    + intros i. proj. destruct (Nat.eq_dec i (ring s t)) as [->|]; [rewrite nset_eq; specialize (Q (ring s t)); lia|rewrite nset_neq by assumption; apply Q].
    + intros u. proj. tcase u t; [destruct active; exact Logic.I|]. specialize (R u). 
      assert (RM : exists_ u = true -> room s u -> room (mkSt (first s) (nset (last s) (ring s t) (S (last s (ring s t)))) (buf s) (cur s) (canc s) (mtx s) (tset (pcs s) t (if active then Next else NCheck)) (item s) (cpcs s) (hpush s ++ [(ring s t, item s t)]) (hpull s)) u).
      { intros EX RU. unfold room in *. change (ring (mkSt (first s) (nset (last s) (ring s t) (S (last s (ring s t)))) (buf s) (cur s) (canc s) (mtx s) (tset (pcs s) t (if active then Next else NCheck)) (item s) (cpcs s) (hpush s ++ [(ring s t, item s t)]) (hpull s)) u) with (ring s u). proj.
        destruct (pushes u) eqn:PU.
        - rewrite nset_neq; [exact RU|]. intros RR. assert (u = t); [|congruence]. apply (one_side s); [exact EX|apply I1; congruence|congruence|exact RR].
        - destruct (Nat.eq_dec (ring s u) (ring s t)) as [RR|]; [rewrite RR in *; rewrite nset_eq; lia|rewrite nset_neq by assumption; exact RU]. }
      assert (EX : pcs s u <> Idle -> exists_ u = true) by apply I1.
      destruct (pcs s u); try exact Logic.I; try (destruct R as [R|R]; [left; exact R|right]); apply RM; (apply EX; congruence) || exact R.
  - assert (RT := R t). rewrite E in RT. unfold room in RT. rewrite E0 in RT. split.
    + intros i. proj. destruct (Nat.eq_dec i (ring s t)) as [->|]; [rewrite nset_eq; specialize (Q (ring s t)); lia|rewrite nset_neq by assumption; apply Q].
    + intros u. proj. tcase u t; [destruct active; exact Logic.I|]. specialize (R u). 
      assert (RM : exists_ u = true -> room s u -> room (mkSt (nset (first s) (ring s t) (S (first s (ring s t)))) (last s) (buf s) (cur s) (canc s) (mtx s) (tset (pcs s) t (if active then Next else NCheck)) (item s) (cpcs s) (hpush s) (hpull s ++ [(ring s t, item s t)])) u).
      { intros EX RU. unfold room in *. change (ring (mkSt (nset (first s) (ring s t) (S (first s (ring s t)))) (last s) (buf s) (cur s) (canc s) (mtx s) (tset (pcs s) t (if active then Next else NCheck)) (item s) (cpcs s) (hpush s) (hpull s ++ [(ring s t, item s t)])) u) with (ring s u). proj.
        destruct (pushes u) eqn:PU.
        - destruct (Nat.eq_dec (ring s u) (ring s t)) as [RR|]; [rewrite RR in *; rewrite nset_eq; lia|rewrite nset_neq by assumption; exact RU].
        - rewrite nset_neq; [exact RU|]. intros RR. assert (u = t); [|congruence]. apply (one_side s); [exact EX|apply I1; congruence|congruence|exact RR]. }
      assert (EX : pcs s u <> Idle -> exists_ u = true) by apply I1.
      destruct (pcs s u); try exact Logic.I; try (destruct R as [R|R]; [left; exact R|right]); apply RM; (apply EX; congruence) || exact R.
  - right. destruct (if pushes t then _ else _); exact Logic.I.
  - split; [exact Q|]. intros u. proj. tcase u One; [exact Logic.I|]. destruct u as [|i]; [congruence|]. apply (R (Many i)).
Qed.

(** ** Data *)
Definition datum (s : st) (i k : nat) : list D := nth k (on i (hpush s)) [].
Definition inv4 (s : st) : Prop :=
  (forall i, last s i = length (on i (hpush s))) /\
  (forall i, first s i = length (on i (hpull s))) /\
  (forall i, on i (hpull s) = firstn (first s i) (on i (hpush s))) /\
  (forall i k, k < last s i -> length (datum s i k) = nsock) /\
  (forall i k c, first s i <= k < last s i -> c < nsock -> buf s i c (k mod size) = nth c (datum s i k) d0) /\
  (forall t, pushes t = true -> match pcs s t with Idle | Thrown | NCheck | NLock | Notify | NUnlock | Next => True | _ => length (item s t) = nsock end) /\
  (forall t, match pcs s t with
     | Copy k => k <= nsock /\ if pushes t then (forall c, c < k -> buf s (ring s t) c (last s (ring s t) mod size) = nth c (item s t) d0) else item s t = firstn k (datum s (ring s t) (first s (ring s t)))
     | Bump => if pushes t then (forall c, c < nsock -> buf s (ring s t) c (last s (ring s t) mod size) = nth c (item s t) d0) else item s t = datum s (ring s t) (first s (ring s t))
     | Wait | Lock | Pred | Sleep | Unlock | Test => if pushes t then True else item s t = []
     | _ => True end).

(** The parts of inv4 that depend on one thread. *)
Definition here (s : st) (t : tid) (p : pc) (it : list D) : Prop :=
  (pushes t = true -> match p with Idle | Thrown | NCheck | NLock | Notify | NUnlock | Next => True | _ => length it = nsock end) /\
  match p with
     | Copy k => k <= nsock /\ if pushes t then (forall c, c < k -> buf s (ring s t) c (last s (ring s t) mod size) = nth c it d0) else it = firstn k (datum s (ring s t) (first s (ring s t)))
     | Bump => if pushes t then (forall c, c < nsock -> buf s (ring s t) c (last s (ring s t) mod size) = nth c it d0) else it = datum s (ring s t) (first s (ring s t))
     | Wait | Lock | Pred | Sleep | Unlock | Test => if pushes t then True else it = []
     | _ => True end.

Lemma inv4_here : forall s t, inv4 s -> here s t (pcs s t) (item s t).
Proof. intros s t (_ & _ & _ & _ & _ & A & B). split; [apply A|apply B]. Qed.
Lemma roused_here : forall s t p it, here s t p it -> here s t (roused p) it.
Proof. intros s t p it H. destruct p; exact H. Qed.

Lemma inv4_local : forall s s', inv4 s -> first s' = first s -> last s' = last s -> cur s' = cur s -> buf s' = buf s -> hpush s' = hpush s -> hpull s' = hpull s ->
  (forall u, here s u (pcs s' u) (item s' u)) -> inv4 s'.
Proof.
  intros s s' (A1 & A2 & A3 & A4 & A5 & A6 & A7) F L CU B HP HL P. unfold inv4, datum. rewrite F, L, B, HP, HL. repeat (split; [assumption|]). split.
  - intros t PT. apply (proj1 (P t) PT).
  - intros t. pose proof (proj2 (P t)) as X. replace (ring s' t) with (ring s t) by (destruct t; cbn [ring]; congruence). exact X.
Qed.

Lemma firstn_S_nth : forall A (d : A) l k, k < length l -> firstn (S k) l = firstn k l ++ [nth k l d].
Proof. intros A d l. induction l as [|x l IH]; intros k H; [cbn [length] in H; lia|]. destruct k as [|k]; [reflexivity|]. cbn [length] in H. change (firstn (S (S k)) (x :: l)) with (x :: firstn (S k) l). rewrite IH by lia. reflexivity. Qed.

Lemma mod_inj : forall a b, a < b -> b < a + size -> a mod size <> b mod size.
Proof.
  intros a b H1 H2 E. pose proof (Nat.div_mod a size ltac:(lia)) as Da. pose proof (Nat.div_mod b size ltac:(lia)) as Db. rewrite E in Da.
  pose proof (Nat.mod_upper_bound b size ltac:(lia)). assert (a / size < b / size) by nia. nia.
Qed.

Lemma on_app : forall A i (h : list (nat * A)) j x, on i (h ++ [(j, x)]) = if Nat.eq_dec i j then on i h ++ [x] else on i h.
Proof.
  intros A i h j x. unfold on. rewrite filter_app, map_app. cbn [filter fst]. destruct (Nat.eqb_spec j i), (Nat.eq_dec i j); try congruence; cbn [map snd]; [reflexivity|apply app_nil_r].
Qed.

Lemma inv4_step : forall l s s', inv1 s -> inv3 s -> inv4 s -> exec l s = Some s' -> inv4 s'.
Proof.
  intros l s s' (I1 & _) (Q & R) I H. cases l H; try exact I.
  all: try (match goal with |- context [match ?t with One => _ | Many _ => _ end] => destruct t end).
  all: try (apply (inv4_local s); [exact I|assumption || reflexivity|assumption || reflexivity|assumption || reflexivity|assumption || reflexivity|assumption || reflexivity|assumption || reflexivity|];
    intros u; repeat match goal with H : item _ = _ |- _ => rewrite H end; pcs_at u;
    first [exact (inv4_here s u I)|apply (roused_here s), (inv4_here s _ I)|idtac]).
  all: try (match goal with E : pcs _ ?t = _ |- here _ ?t _ _ => pose proof (inv4_here _ t I) as IH; rewrite E in IH; first [exact IH|idtac] end).
  - split; [intros PT; rewrite PT in *; cbn [negb orb] in E0; apply andb_true_iff in E0; apply Nat.eqb_eq, E0|]. destruct (pushes t); [exact Logic.I|reflexivity].
  - destruct IH as [IH1 IH2]. destruct (canc s t); [split; [intros; exact Logic.I|exact Logic.I]|]. split; [exact IH1|]. split; [lia|]. destruct (pushes t); [intros; lia|exact IH2].
  - apply Nat.eqb_eq in E0. destruct IH as [IH1 [IH2 IH3]]. split; [exact IH1|]. rewrite E0 in IH3. destruct (pushes t) eqn:PT; [exact IH3|]. rewrite IH3. apply firstn_all2.
    destruct I as (_ & _ & _ & A4 & _). specialize (R t). rewrite E in R. unfold room in R. rewrite PT in R. rewrite A4; [lia|exact R].
  - pose proof (inv4_here s t I) as IH. rewrite E in IH. destruct IH as [IH1 [IH2 IH3]]. rewrite E1 in IH3. apply Nat.eqb_neq in E0. assert (RT := R t). rewrite E in RT. unfold room in RT. rewrite E1 in RT.
    destruct I as (A1 & A2 & A3 & A4 & A5 & A6 & A7). split; [exact A1|]. split; [exact A2|]. split; [exact A3|]. split; [exact A4|]. split; [|split].
    + intros i k c Hk Hc. proj. change (datum _ i k) with (datum s i k). destruct (Nat.eq_dec i (ring s t)) as [->|]; [|apply A5; assumption]. destruct (Nat.eq_dec c s0); [|apply A5; assumption].
      destruct (Nat.eq_dec (k mod size) (last s (ring s t) mod size)) as [M|]; [|apply A5; assumption]. exfalso. revert M. apply mod_inj; lia.
    + intros u PU. proj. specialize (A6 u PU). tcase u t; [exact (IH1 E1)|exact A6].
    + intros u. change (ring _ u) with (ring s u). proj. change (datum _ (ring s u) (first s (ring s u))) with (datum s (ring s u) (first s (ring s u))). specialize (A7 u). tcase u t.
      * split; [lia|]. rewrite E1. intros c Hc. destruct (Nat.eq_dec (ring s t) (ring s t)); [|congruence]. destruct (Nat.eq_dec c s0) as [->|].
        -- destruct (Nat.eq_dec (last s (ring s t) mod size) (last s (ring s t) mod size)); [reflexivity|congruence].
        -- apply IH3. lia.
      * assert (EX : pcs s u <> Idle -> exists_ u = true) by apply I1.
        assert (RN : pcs s u <> Idle -> pushes u = true -> ring s u <> ring s t) by (intros B PU RR; assert (u = t); [apply (one_side s); [auto|apply I1; congruence|congruence|exact RR]|congruence]).
        destruct (pcs s u); try exact A7; (destruct (pushes u); [|exact A7]); [destruct A7 as [A7' A7]; split; [exact A7'|]|]; intros c Hc; (destruct (Nat.eq_dec (ring s u) (ring s t)) as [RR|]; [exfalso; apply RN; [congruence|reflexivity|exact RR]|]); apply A7; exact Hc.
  - destruct IH as [IH1 [IH2 IH3]]. apply Nat.eqb_neq in E0. rewrite E1 in IH3. specialize (R t). rewrite E in R. unfold room in R. rewrite E1 in R. destruct I as (A1 & A2 & A3 & A4 & A5 & _).
    split; [congruence|]. split; [lia|]. rewrite E1. rewrite IH3, A5 by lia. symmetry. apply firstn_S_nth. rewrite A4 by exact R. lia.
  - pose proof (inv4_here s t I) as IH. rewrite E in IH. destruct IH as [IH1 IH3]. rewrite E0 in IH3. assert (RT := R t). rewrite E in RT. unfold room in RT. rewrite E0 in RT. specialize (IH1 E0).
    destruct I as (A1 & A2 & A3 & A4 & A5 & A6 & A7). set (r := ring s t) in *.
    assert (DT : forall i k, nth k (on i (hpush s ++ [(r, item s t)])) [] = if Nat.eq_dec i r then if Nat.eq_dec k (last s r) then item s t else datum s i k else datum s i k).
    { intros i k. rewrite on_app. destruct (Nat.eq_dec i r) as [->|]; [|reflexivity]. unfold datum. destruct (Nat.eq_dec k (last s r)) as [->|NE].
      - rewrite (A1 r), app_nth2, Nat.sub_diag by lia. reflexivity.
      - rewrite (A1 r) in NE. destruct (Nat.lt_ge_cases k (length (on r (hpush s)))); [rewrite app_nth1 by assumption; reflexivity|]. rewrite !nth_overflow; [reflexivity|assumption|rewrite app_length; cbn [length]; lia]. }
    unfold inv4, datum. proj. split; [|split; [|split; [|split; [|split; [|split]]]]].
    + intros i. rewrite on_app. destruct (Nat.eq_dec i r) as [->|]; [rewrite nset_eq, app_length; cbn [length]; rewrite A1; lia|rewrite nset_neq by assumption; apply A1].
    + exact A2.
    + intros i. rewrite on_app, A3. destruct (Nat.eq_dec i r) as [->|]; [|reflexivity]. rewrite firstn_app. replace (first s r - length (on r (hpush s))) with 0 by (specialize (Q r); rewrite A1 in Q; lia). cbn [firstn]. rewrite app_nil_r. reflexivity.
    + intros i k Hk. rewrite DT. destruct (Nat.eq_dec i r) as [->|]; [rewrite nset_eq in Hk; destruct (Nat.eq_dec k (last s r)); [exact IH1|apply A4; lia]|rewrite nset_neq in Hk by assumption; apply A4; exact Hk].
    + intros i k c Hk Hc. rewrite DT. destruct (Nat.eq_dec i r) as [->|]; [rewrite nset_eq in Hk; destruct (Nat.eq_dec k (last s r)) as [->|]; [apply IH3; exact Hc|apply A5; lia]|rewrite nset_neq in Hk by assumption; apply A5; assumption].
    + intros u PU. specialize (A6 u PU). tcase u t; [destruct active; exact Logic.I|exact A6].
    + intros u. change (ring _ u) with (ring s u). specialize (A7 u). tcase u t; [destruct active; exact Logic.I|]. rewrite DT.
      assert (EX : pcs s u <> Idle -> exists_ u = true) by apply I1. specialize (R u). unfold room in R.
      assert (RN : pcs s u <> Idle -> pushes u = true -> ring s u <> r) by (intros B PU RR; assert (u = t); [apply (one_side s); [auto|apply I1; congruence|congruence|exact RR]|congruence]).
      destruct (pcs s u); try exact A7; destruct (pushes u).
      * rewrite nset_neq by (apply RN; [congruence|reflexivity]). exact A7.
      * destruct (Nat.eq_dec (ring s u) r) as [RR|]; [|exact A7]. rewrite RR in *. destruct (Nat.eq_dec (first s r) (last s r)); [lia|exact A7].
      * rewrite nset_neq by (apply RN; [congruence|reflexivity]). exact A7.
      * destruct (Nat.eq_dec (ring s u) r) as [RR|]; [|exact A7]. rewrite RR in *. destruct (Nat.eq_dec (first s r) (last s r)); [lia|exact A7].
  - pose proof (inv4_here s t I) as IH. rewrite E in IH. destruct IH as [IH1 IH3]. rewrite E0 in IH3. assert (RT := R t). rewrite E in RT. unfold room in RT. rewrite E0 in RT. clear IH1.
    destruct I as (A1 & A2 & A3 & A4 & A5 & A6 & A7). set (r := ring s t) in *.
    unfold inv4. change (datum _) with (datum s). proj. split; [exact A1|]. split; [|split; [|split; [|split; [|split]]]].
    + intros i. rewrite on_app. destruct (Nat.eq_dec i r) as [->|]; [rewrite nset_eq, app_length; cbn [length]; rewrite A2; lia|rewrite nset_neq by assumption; apply A2].
    + intros i. rewrite on_app, A3. destruct (Nat.eq_dec i r) as [->|]; [|rewrite nset_neq by assumption; reflexivity]. rewrite nset_eq, IH3. unfold datum. symmetry. apply firstn_S_nth. rewrite <- A1. exact RT.
    + exact A4.
    + intros i k c Hk Hc. apply A5; [|exact Hc]. destruct (Nat.eq_dec i r) as [->|]; [rewrite nset_eq in Hk; lia|rewrite nset_neq in Hk by assumption; exact Hk].
    + intros u PU. specialize (A6 u PU). tcase u t; [destruct active; exact Logic.I|exact A6].
    + intros u. change (ring _ u) with (ring s u). specialize (A7 u). tcase u t; [destruct active; exact Logic.I|].
      assert (RN : pcs s u <> Idle -> pushes u = false -> ring s u <> r) by (intros B PU RR; assert (u = t); [apply (one_side s); [auto|apply I1; congruence|congruence|exact RR]|congruence]).
      destruct (pcs s u); try exact A7; destruct (pushes u); try exact A7; rewrite nset_neq by (apply RN; [congruence|reflexivity]); exact A7.
  - destruct IH as [IH1 IH2]. destruct (if pushes t then _ else _); split; intros; exact Logic.I.
  - destruct I as (A1 & A2 & A3 & A4 & A5 & A6 & A7). repeat (split; [assumption|]). split.
    + intros u PU. proj. specialize (A6 u PU). tcase u One; [exact Logic.I|exact A6].
    + intros u. proj. specialize (A7 u). tcase u One; [exact Logic.I|]. destruct u as [|i]; [congruence|exact A7].
Qed.

(** ** Round robin *)
Definition mine (s : st) : list (nat * list D) := if one_to_n then hpush s else hpull s.
Definition past (p : pc) : bool := match p with NCheck | NLock | Notify | NUnlock | Next => true | _ => false end.
Definition turn (k : nat) : nat := Nat.iter k next 0.
Definition inv5 (s : st) : Prop :=
  map fst (mine s) = map turn (seq 0 (length (mine s))) /\ turn (length (mine s)) = if past (pcs s One) then next (cur s) else cur s.

Lemma inv5_local : forall s s', inv5 s -> cur s' = cur s -> hpush s' = hpush s -> hpull s' = hpull s -> past (pcs s' One) = past (pcs s One) -> inv5 s'.
Proof. intros s s' I C A B P. unfold inv5, mine in *. rewrite A, B, C, P. exact I. Qed.
Lemma roused_past : forall p, past (roused p) = past p.
Proof. destruct p; reflexivity. Qed.

Lemma inv5_step : forall l s s', inv5 s -> exec l s = Some s' -> inv5 s'.
Proof.
  intros l s s' I H. cases l H; try exact I.
  all: try (match goal with |- context [match ?t with One => _ | Many _ => _ end] => destruct t end).
  all: try (apply (inv5_local s); [exact I|assumption || reflexivity|assumption || reflexivity|assumption || reflexivity|];
    repeat match goal with H : forall u, pcs _ u = _ |- _ => rewrite H; clear H end; proj;
    match goal with |- context [tid_dec One ?m] => destruct (tid_dec One m) as [EM|?]; rewrite <- ?EM, ?roused_past | _ => idtac end; unfold tset;
    repeat match goal with |- context [tid_dec One ?v] => destruct (tid_dec One v) as [EM2|?]; [rewrite <- EM2 in *|] end;
    rewrite ?E; first [reflexivity | destruct (canc s _); reflexivity | idtac]).
  - destruct I as [I1 I2]. unfold inv5, mine in *. proj. destruct t as [|i]; cbn [ring AdaptorModel.pushes] in *.
    + rewrite E0 in *. rewrite E in I2. cbn [past] in I2. rewrite tset_eq, map_app, app_length, seq_app, map_app, I1. cbn [map length fst seq plus]. rewrite Nat.add_1_r. rewrite I2. split; [reflexivity|].
      unfold turn in *. change (Nat.iter (S (length (hpush s))) next 0) with (next (Nat.iter (length (hpush s)) next 0)). rewrite I2. destruct active; reflexivity.
    + apply negb_true_iff in E0. rewrite E0 in *. rewrite tset_neq by discriminate. split; assumption.
  - destruct I as [I1 I2]. unfold inv5, mine in *. proj. destruct t as [|i]; cbn [ring AdaptorModel.pushes] in *.
    + rewrite E0 in *. rewrite E in I2. cbn [past] in I2. rewrite tset_eq, map_app, app_length, seq_app, map_app, I1. cbn [map length fst seq plus]. rewrite Nat.add_1_r. rewrite I2. split; [reflexivity|].
      unfold turn in *. change (Nat.iter (S (length (hpull s))) next 0) with (next (Nat.iter (length (hpull s)) next 0)). rewrite I2. destruct active; reflexivity.
    + apply negb_false_iff in E0. rewrite E0 in *. rewrite tset_neq by discriminate. split; assumption.
  - destruct (if pushes One then _ else _); reflexivity.
  - destruct I as [I1 I2]. rewrite E in I2. cbn [past] in I2. split; [exact I1|]. change (mine (set_cur D (set_pc s One Idle) (next (cur s)))) with (mine s). proj. rewrite tset_eq. exact I2.
  - discriminate.
Qed.

(** ** Wake-ups *)
(** The condition on the ring that makes t wait. *)
Definition stuck (s : st) (t : tid) : bool := if pushes t then is_full s (ring s t) else is_empty s (ring s t).
Definition alerts (p : pc) : bool := match p with NCheck | NLock | Notify => true | _ => false end.
Definition inv6 (s : st) : Prop :=
  forall t, pcs s t = Sleep -> stuck s t = true \/ exists u, alerts (pcs s u) = true /\ mate s u = t /\ ring s u = ring s t /\ pushes u <> pushes t.

Lemma inv6_local : forall s s', inv6 s -> first s' = first s -> last s' = last s -> cur s' = cur s ->
  (forall u, pcs s' u = Sleep -> pcs s u = Sleep \/ stuck s u = true) ->
  (forall u, alerts (pcs s u) = true -> alerts (pcs s' u) = true \/ pcs s' (mate s u) <> Sleep \/ (ring s u = ring s (mate s u) -> pushes u <> pushes (mate s u) -> stuck s (mate s u) = true)) -> inv6 s'.
Proof.
  intros s s' I F L CU A B t P.
  assert (RI : forall u, ring s' u = ring s u) by (intros [|]; cbn [ring]; congruence).
  assert (ST : stuck s' t = stuck s t) by (unfold stuck, AdaptorModel.is_full, is_empty; rewrite RI, F, L; reflexivity).
  assert (MA : forall u, mate s' u = mate s u) by (intros [|]; cbn [mate]; congruence).
  rewrite ST. destruct (A t P) as [Q|Q]; [|left; exact Q]. destruct (I t Q) as [S|(u & AU & MU & RU & PU)]; [left; exact S|].
  destruct (B u AU) as [B1|[B1|B1]]; [right; exists u; rewrite MA, !RI; auto|rewrite MU in B1; congruence|left; rewrite <- MU; apply B1; rewrite MU; assumption].
Qed.
Lemma stuck_blocked : forall s t, blocked s t = true -> stuck s t = true.
Proof. intros s t H. apply andb_true_iff in H. apply H. Qed.

Lemma mate_ring : forall (s : st) t u, ring s u = ring s t -> pushes u <> pushes t -> mate s u = t.
Proof. intros s [|i] [|j] R P; cbn [ring mate AdaptorModel.pushes] in *; congruence. Qed.

Lemma inv6_bump : forall s s' t, inv1 s -> inv6 s -> pcs s t = Bump -> cur s' = cur s -> (forall i, i <> ring s t -> first s' i = first s i /\ last s' i = last s i) ->
  pcs s' = tset (pcs s) t (if active then Next else NCheck) -> inv6 s'.
Proof.
  intros s s' t I1 I E CU FL P v SV.
  assert (RI : forall u, ring s' u = ring s u) by (intros [|]; cbn [ring]; congruence).
  assert (MA : forall u, mate s' u = mate s u) by (intros [|]; cbn [mate]; congruence).
  rewrite P in *. tcase v t; [destruct active; discriminate|].
  assert (AC : active = false).
  { destruct active eqn:A; [|reflexivity]. destruct I1 as (_ & _ & _ & I1). specialize (I1 A v). rewrite SV in I1. cbn [busy] in I1. tauto. }
  destruct (Nat.eq_dec (ring s v) (ring s t)) as [R|R].
  - right. exists t. rewrite tset_eq, AC. assert (PN : pushes t <> pushes v).
    { intros PP. assert (v = t); [|congruence]. apply (one_side s); [apply I1; congruence|apply I1; congruence|congruence|exact R]. }
    rewrite MA, !RI. repeat split; [apply mate_ring; congruence|congruence|exact PN].
  - destruct (I v SV) as [S|(u & AU & MU & RU & PU)].
    + left. unfold stuck, AdaptorModel.is_full, is_empty in *. rewrite RI. destruct (FL _ R) as [-> ->]. exact S.
    + right. exists u. rewrite tset_neq by congruence. rewrite MA, !RI. auto.
Qed.

Lemma inv6_step : forall l s s', inv1 s -> inv6 s -> exec l s = Some s' -> inv6 s'.
Proof.
  intros l s s' I1 I H. cases l H; try exact I.
  all: try (match goal with |- context [match ?t with One => _ | Many _ => _ end] => destruct t end).
  all: try (match goal with E : pcs _ ?t = Bump |- _ => apply (inv6_bump s _ t I1 I E); [reflexivity| |reflexivity]; intros i NI; proj; rewrite ?nset_neq by exact NI; split; reflexivity end).
  all: try (apply (inv6_local s); [exact I|assumption || reflexivity|assumption || reflexivity|assumption || reflexivity| |]).
  all: try (intros v; 
    try (match goal with H : forall u, pcs _ u = _ |- _ => rewrite (H v) end); proj;
    match goal with |- context [tid_dec v ?m] => destruct (tid_dec v m) as [->|?] | _ => idtac end; 
    repeat match goal with |- context [tset (pcs _) ?t _ ?w] => first [constr_eq w t; rewrite !tset_eq | destruct (tid_dec w t) as [?|?]; [subst; rewrite !tset_eq|rewrite !(tset_neq _ _ t) by assumption]] end).
  all: try (left; assumption).
  all: try (intros; discriminate).
  all: try (intros; left; assumption).
  all: try (match goal with E : pcs _ ?t = _ |- alerts (pcs _ ?t) = true -> _ => rewrite E; intros; discriminate end).
  all: try (intros; left; reflexivity).
  - intros _. right. apply stuck_blocked. assumption.
  - destruct (canc s t); discriminate.
  - destruct (if pushes t then _ else _); discriminate.
  - intros _. destruct (if pushes t then _ else _) eqn:C; [|left; reflexivity]. right. right. intros R P. unfold stuck. rewrite <- R. destruct (pushes t), (pushes (mate s t)); congruence.
  - destruct (tset (pcs s) t NUnlock (mate s t)); discriminate.
  - intros A. left. destruct (tid_dec (mate s t) t) as [M|M]; [destruct t; discriminate M|]. rewrite tset_neq by exact M. destruct (pcs s (mate s t)); try discriminate; reflexivity.
  - intros _. right. left. match goal with H : forall u, pcs _ u = _ |- _ => rewrite H end. destruct (tid_dec (mate s t) (mate s t)); [|congruence]. destruct (tset (pcs s) t NUnlock (mate s t)); discriminate.
  - intros V. destruct v as [|i]; [congruence|]. destruct (I (Many i) V) as [S|(u & AU & MU & RU & PU)]; [left; exact S|]. right. exists u. destruct u as [|u]; [rewrite E in AU; discriminate|].
    rewrite tset_neq by discriminate. auto.
  - destruct (pcs s (cmtx j)); discriminate.
  - intros A. left. destruct (pcs s (cmtx j)); try discriminate; reflexivity.
Qed.

(** ** Cancellations *)
Definition pos (t : tid) : nat := match t with Many i => i | One => n end.
Definition passed (p : cpc) (t : tid) : Prop := match p with COff => False | CLock j | CNotify j => pos t < j | CUnlock j => pos t <= j | CDone => True end.
Definition inv7 (s : st) : Prop :=
  (forall t, canc s t = true -> exists k, k < ncan /\ tgt k = t /\ cpcs s k <> COff) /\
  (forall k, cpcs s k <> COff -> canc s (tgt k) = true) /\
  (forall k, passed (cpcs s k) (tgt k) -> pcs s (tgt k) <> Sleep).

Lemma inv7_local : forall s s', inv7 s -> canc s' = canc s -> (forall k, cpcs s k <> COff <-> cpcs s' k <> COff) ->
  (forall k, passed (cpcs s' k) (tgt k) -> passed (cpcs s k) (tgt k) \/ pcs s' (tgt k) <> Sleep) -> 
  (forall u, pcs s' u = Sleep -> pcs s u = Sleep \/ canc s u = false) -> inv7 s'.
Proof.
  intros s s' (A1 & A2 & A3) CA CP PA SL. unfold inv7. rewrite CA. split; [|split].
  - intros t H. destruct (A1 t H) as (k & K1 & K2 & K3). exists k. rewrite <- CP. auto.
  - intros k H. apply A2, CP, H.
  - intros k H. destruct (PA k H) as [B|B]; [|exact B]. intros S. destruct (SL _ S) as [S'|S']; [apply (A3 k B S')|]. rewrite A2 in S'; [discriminate|]. intros X. rewrite X in B. exact B.
Qed.

Lemma inv7_step : forall l s s', inv1 s -> inv7 s -> exec l s = Some s' -> inv7 s'.
Proof.
  intros l s s' I1 I H. cases l H; try exact I.
  all: try (match goal with |- context [match ?t with One => _ | Many _ => _ end] => destruct t end).
  all: try (apply (inv7_local s); [exact I|assumption || reflexivity| | |]).
  all: try (match goal with H : cpcs _ = cpcs _ |- _ => rewrite H end).
  all: try (intros; proj; tauto).
  all: try (intros v; 
    try (match goal with H : forall u, pcs _ u = _ |- _ => rewrite (H v) end); proj;
    match goal with |- context [tid_dec v ?m] => destruct (tid_dec v m) as [->|?] | _ => idtac end; 
    repeat match goal with |- context [tset (pcs _) ?t _ ?w] => first [constr_eq w t; rewrite !tset_eq | destruct (tid_dec w t) as [?|?]; [subst; rewrite !tset_eq|rewrite !(tset_neq _ _ t) by assumption]] end).
  all: try (intros; left; assumption).
  all: try (intros; discriminate).
  - destruct I as (A1 & A2 & A3). unfold inv7. proj. apply Nat.ltb_lt in E0. split; [|split].
    + intros t. tcase t (tgt k).
      * intros _. exists k. rewrite nset_eq. split; [exact E0|split; [reflexivity|destruct active; discriminate]].
      * intros CT. destruct (A1 t CT) as (k' & K1 & K2 & K3). exists k'. rewrite nset_neq by congruence. auto.
    + intros k' K. destruct (tid_dec (tgt k') (tgt k)) as [TT|TT]; [rewrite TT, tset_eq; reflexivity|]. rewrite tset_neq by exact TT. apply A2. rewrite nset_neq in K by congruence. exact K.
    + intros k' K. destruct (Nat.eq_dec k' k) as [->|NE]; [|rewrite nset_neq in K by exact NE; apply A3, K]. rewrite nset_eq in K. destruct active eqn:AC.
      * intros S. destruct I1 as (_ & _ & _ & I1). apply (I1 AC (tgt k)). rewrite S. exact Logic.I.
      * cbn [passed] in K. lia.
  - intros _. right. unfold AdaptorModel.blocked in E0. apply andb_true_iff in E0. destruct E0 as [_ E0]. apply negb_true_iff, E0.
  - destruct (canc s t); discriminate.
  - destruct active; discriminate.
  - destruct active; discriminate.
  - destruct (if pushes t then _ else _); discriminate.
  - destruct (tset (pcs s) t NUnlock (mate s t)); discriminate.
  - destruct (Nat.eq_dec v k) as [->|NE]; [rewrite nset_eq, E; split; discriminate|rewrite nset_neq by exact NE; tauto].
  - destruct (Nat.eq_dec v k) as [->|NE]; [|rewrite nset_neq by exact NE; tauto]. rewrite nset_eq, E. cbn [passed]. intros P. destruct (Nat.eq_dec (pos (tgt k)) j) as [PJ|]; [|left; lia]. right.
    apply andb_true_iff in E0. destruct E0 as [E0 E0']. apply Nat.ltb_lt in E0. destruct (tgt k) as [|i]; cbn [pos] in PJ; [lia|]. subst i. intros S. destruct I1 as (I1 & _). specialize (I1 (Many j)). rewrite S in I1.
    specialize (I1 ltac:(discriminate)). cbn [AdaptorModel.exists_] in I1. destruct (used j); [discriminate|]. rewrite andb_false_r in I1. discriminate.
  - destruct (Nat.eq_dec v k) as [->|NE]; [rewrite nset_eq, E; split; discriminate|rewrite nset_neq by exact NE; tauto].
  - destruct (Nat.eq_dec v k) as [->|NE]; [|rewrite nset_neq by exact NE; tauto]. rewrite nset_eq, E. cbn [passed]. auto.
  - match goal with H : cpcs s0 = _ |- _ => rewrite H end. destruct (Nat.eq_dec v k) as [->|NE]; [rewrite nset_eq, E; split; discriminate|rewrite nset_neq by exact NE; tauto].
  - match goal with H : cpcs s0 = _ |- _ => rewrite H end. destruct (Nat.eq_dec v k) as [->|NE]; [|rewrite nset_neq by exact NE; tauto]. rewrite nset_eq, E. cbn [passed]. intros P. destruct (Nat.eq_dec (pos (tgt k)) j) as [PJ|]; [|left; lia]. right.
    match goal with H : forall u, pcs _ u = _ |- _ => rewrite H end. destruct (tid_dec (tgt k) (cmtx j)) as [TC|TC]; [destruct (pcs s (cmtx j)); discriminate|]. intros S. apply TC. destruct I1 as (I1 & _). specialize (I1 (tgt k)). rewrite S in I1.
    specialize (I1 ltac:(discriminate)). unfold AdaptorModel.cmtx. destruct (tgt k) as [|i]; cbn [pos AdaptorModel.exists_] in *; subst j; [rewrite Nat.ltb_irrefl; reflexivity|].
    apply andb_true_iff in I1. rewrite (proj1 I1). reflexivity.
  - destruct (pcs s (cmtx j)); discriminate.
  - destruct (Nat.eq_dec v k) as [->|NE]; [rewrite nset_eq, E; split; try discriminate; destruct (j <? n); discriminate|rewrite nset_neq by exact NE; tauto].
  - destruct (Nat.eq_dec v k) as [->|NE]; [|rewrite nset_neq by exact NE; tauto]. rewrite nset_eq, E. destruct (j <? n) eqn:JN; cbn [passed]; intros P; [left; lia|]. apply Nat.ltb_ge in JN.
    destruct (Nat.le_gt_cases (pos (tgt k)) j) as [|PJ]; [left; assumption|]. right. destruct (tgt k) as [|i]; cbn [pos] in PJ; [lia|]. intros S. destruct I1 as (I1 & _). specialize (I1 (Many i)). rewrite S in I1.
    specialize (I1 ltac:(discriminate)). cbn [AdaptorModel.exists_] in I1. apply andb_true_iff in I1. destruct I1 as [I1 _]. apply Nat.ltb_lt in I1. lia.
Qed.

Definition inv8 (s : st) : Prop := forall k, cpcs s k <> COff -> k < ncan.
Lemma inv8_step : forall l s s', inv8 s -> exec l s = Some s' -> inv8 s'.
Proof.
  intros l s s' I H. cases l H; try exact I.
  all: try (match goal with |- context [match ?t with One => _ | Many _ => _ end] => destruct t; exact I end).
  all: intros v; try (match goal with H : cpcs _ = _ |- _ => rewrite H end); try apply I; proj.
  all: match goal with |- context [nset _ ?k _ ?v] => destruct (Nat.eq_dec v k) as [->|NE]; [intros _|rewrite nset_neq by exact NE; apply I] end.
  all: try (apply I; congruence).
  apply Nat.ltb_lt, E0.
Qed.

Definition inv (s : st) : Prop := inv1 s /\ inv2 s /\ inv3 s /\ inv4 s /\ inv5 s /\ inv6 s /\ inv7 s /\ inv8 s.
Lemma inv_step : forall l s s', inv s -> exec l s = Some s' -> inv s'.
Proof.
  intros l s s' (J1 & J2 & J3 & J4 & J5 & J6 & J7 & J8) H. split; [apply (inv1_step l s); assumption|]. split; [apply (inv2_step l s); assumption|]. split; [apply (inv3_step l s); assumption|].
  split; [apply (inv4_step l s); assumption|]. split; [apply (inv5_step l s); assumption|]. split; [apply (inv6_step l s); assumption|]. split; [apply (inv7_step l s); assumption|apply (inv8_step l s); assumption].
Qed.
Lemma inv_execs : forall ls s s', inv s -> execs ls s = Some s' -> inv s'.
Proof.
  induction ls as [|l ls IH]; intros s s' I H; cbn [AdaptorModel.execs] in H; [congruence|]. destruct (exec l s) as [s1|] eqn:E; [|discriminate]. apply (IH s1); [apply (inv_step l s); assumption|exact H].
Qed.
Lemma inv_init : forall b, inv (init b).
Proof.
  intros b. unfold inv, inv1, inv2, inv3, inv4, inv5, inv6, inv7, inv8, agree, held, datum, mine. cbn [AdaptorModel.init first last buf cur canc mtx pcs item cpcs hpush hpull].
  split; [repeat split; try congruence; try lia; auto|]. split; [intros m [|]; split; discriminate|]. split; [split; [lia|intros; exact Logic.I]|].
  split; [repeat split; intros; try reflexivity; cbn [length] in *; lia|]. split; [destruct one_to_n; split; reflexivity|]. split; [discriminate|]. split; [split; [discriminate|split; [congruence|intros; discriminate]]|]. congruence.
Qed.
Lemma reachable_inv : forall s, reachable s -> inv s.
Proof. intros s (b & ls & H). apply (inv_execs ls (init b)); [apply inv_init|exact H]. Qed.
Lemma reachable_step : forall l s s', reachable s -> exec l s = Some s' -> reachable s'.
Proof.
  intros l s s' (b & ls & H) E. exists b, (ls ++ [l]). revert H. generalize (init b). induction ls as [|x ls IH]; intros u H; cbn [AdaptorModel.execs app] in *; [injection H as ->; rewrite E; reflexivity|].
  destruct (exec x u) as [u1|]; [|discriminate]. apply IH, H.
Qed.

Local Notation works := (works D d0 one_to_n n used size nsock active tgt ncan).

(** ** Work ends *)
Lemma sum_upd : forall A (f g : A -> nat) l x, NoDup l -> In x l -> (forall y, y <> x -> g y = f y) -> list_sum (map g l) + f x = list_sum (map f l) + g x.
Proof.
  intros A f g l x ND IN OT. induction l as [|y l IH]; [destruct IN|]. inversion ND as [|? ? NI ND']; subst. cbn [map list_sum fold_right]. change (fold_right Init.Nat.add 0 ?m) with (list_sum m).
  destruct IN as [->|IN].
  - assert (map g l = map f l) by (apply map_ext_in; intros z Hz; apply OT; congruence). rewrite H. lia.
  - rewrite OT by congruence. specialize (IH ND' IN). lia.
Qed.
Lemma sum_same : forall A (f g : A -> nat) l, (forall y, g y = f y) -> list_sum (map g l) = list_sum (map f l).
Proof. intros A f g l H. f_equal. apply map_ext, H. Qed.

Definition weight (p : pc) : nat :=
  match p with
  | Idle | Thrown => 0 | Next => 1 | NUnlock => 2 | Notify => 5 | NLock => 6 | NCheck => 7 | Bump => 8 | Copy k => 9 + (nsock - k)
  | Test => 10 + nsock | Unlock => 11 + nsock | Sleep => 11 + nsock | Pred => 12 + nsock | Lock => 13 + nsock | Wait => 14 + nsock
  end.
Definition cweight (p : cpc) : nat :=
  match p with COff | CDone => 0 | CLock j => 6 * (n - j) + 6 | CNotify j => 6 * (n - j) + 5 | CUnlock j => 6 * (n - j) + 1 end.
Definition threads : list tid := One :: map Many (seq 0 n).
Definition work (s : st) : nat := list_sum (map (fun t => weight (pcs s t)) threads) + list_sum (map (fun k => cweight (cpcs s k)) (seq 0 ncan)).

Lemma threads_nodup : NoDup threads.
Proof. constructor; [rewrite in_map_iff; intros (x & X & _); discriminate|]. apply FinFun.Injective_map_NoDup; [intros a b H; congruence|apply seq_NoDup]. Qed.
Lemma threads_in : forall t, exists_ t = true -> In t threads.
Proof. intros [|i] H; [left; reflexivity|]. right. cbn [AdaptorModel.exists_] in H. apply andb_true_iff in H. apply in_map, in_seq. destruct H as [H _]. apply Nat.ltb_lt in H. lia. Qed.

Lemma work_one : forall s s' t p, In t threads -> pcs s' = tset (pcs s) t p -> cpcs s' = cpcs s -> weight p < weight (pcs s t) -> work s' < work s.
Proof.
  intros s s' t p IN P C W. unfold work. rewrite C, P.
  pose proof (sum_upd _ (fun t => weight (pcs s t)) (fun u => weight (tset (pcs s) t p u)) threads t threads_nodup IN) as X. cbv beta in X. rewrite tset_eq in X.
  specialize (X ltac:(intros y Hy; rewrite tset_neq by exact Hy; reflexivity)). lia.
Qed.
Lemma work_cancel : forall s s' k p, k < ncan -> pcs s' = pcs s -> cpcs s' = nset (cpcs s) k p -> cweight p < cweight (cpcs s k) -> work s' < work s.
Proof.
  intros s s' k p IN P C W. unfold work. rewrite C, P.
  pose proof (sum_upd _ (fun k => cweight (cpcs s k)) (fun u => cweight (nset (cpcs s) k p u)) (seq 0 ncan) k (seq_NoDup _ _) ltac:(apply in_seq; lia)) as X. cbv beta in X. rewrite nset_eq in X.
  specialize (X ltac:(intros y Hy; rewrite nset_neq by exact Hy; reflexivity)). lia.
Qed.
Lemma work_wake : forall s t, In t threads -> work (wake s t) <= work s + 2.
Proof.
  intros s t IN. unfold AdaptorModel.wake. destruct (pcs s t) eqn:E; try lia. unfold work. proj.
  pose proof (sum_upd _ (fun t => weight (pcs s t)) (fun u => weight (tset (pcs s) t Lock u)) threads t threads_nodup IN) as X. cbv beta in X. rewrite tset_eq, E in X.
  specialize (X ltac:(intros y Hy; rewrite tset_neq by exact Hy; reflexivity)). cbn [weight] in X. lia.
Qed.
(* a step of weight at least 3 *)
Lemma work_one3 : forall s s' t p, In t threads -> pcs s' = tset (pcs s) t p -> cpcs s' = cpcs s -> weight p + 3 <= weight (pcs s t) -> work s' + 3 <= work s.
Proof.
  intros s s' t p IN P C W. unfold work. rewrite C, P.
  pose proof (sum_upd _ (fun t => weight (pcs s t)) (fun u => weight (tset (pcs s) t p u)) threads t threads_nodup IN) as X. cbv beta in X. rewrite tset_eq in X.
  specialize (X ltac:(intros y Hy; rewrite tset_neq by exact Hy; reflexivity)). lia.
Qed.
Lemma work_cancel3 : forall s s' k p, k < ncan -> pcs s' = pcs s -> cpcs s' = nset (cpcs s) k p -> cweight p + 3 <= cweight (cpcs s k) -> work s' + 3 <= work s.
Proof.
  intros s s' k p IN P C W. unfold work. rewrite C, P.
  pose proof (sum_upd _ (fun k => cweight (cpcs s k)) (fun u => cweight (nset (cpcs s) k p u)) (seq 0 ncan) k (seq_NoDup _ _) ltac:(apply in_seq; lia)) as X. cbv beta in X. rewrite nset_eq in X.
  specialize (X ltac:(intros y Hy; rewrite nset_neq by exact Hy; reflexivity)). lia.
Qed.

Lemma work_step : forall a s s', inv s -> works a s s' -> work s' < work s.
Proof.
  intros a s s' (J1 & J2 & J3 & J4 & J5 & J6 & J7 & J8) [H NW].
  assert (TH : forall t, pcs s t <> Idle -> In t threads) by (intros t P; apply threads_in, J1, P).
  assert (MT : forall t, In (mate s t) threads) by (intros [|]; cbn [mate]; apply threads_in; cbn [AdaptorModel.exists_]; [|reflexivity]; destruct J1 as (_ & C1 & C2 & _); rewrite C2, (proj2 (Nat.ltb_lt _ _) C1); reflexivity).
  assert (CK : forall j, In (cmtx j) threads).
  { intros j. unfold AdaptorModel.cmtx. destruct (j <? n) eqn:L; [|left; reflexivity]. right. apply in_map, in_seq. apply Nat.ltb_lt in L. lia. }
  destruct a as [t|k]; cbn [AdaptorModel.exec] in H; unfold AdaptorModel.run_thread, AdaptorModel.run_cancel in H; cbv zeta in H; brk H;
  match type of H with Some ?x = Some ?y => let Q := fresh in assert (Q : y = x) by congruence; clear H; subst y end.
  all: try (match goal with |- context [match ?t with One => _ | Many _ => _ end] => destruct t end).
  all: try (eapply work_one; [apply TH; rewrite E; discriminate|reflexivity|reflexivity|rewrite E; cbn [weight]; lia]).
  all: try (eapply work_cancel; [apply J8; rewrite E; discriminate|reflexivity|reflexivity|rewrite E; cbn [cweight]; lia]).
  - exfalso. apply NW. auto.
  - eapply work_one; [apply TH; rewrite E; discriminate|reflexivity|reflexivity|rewrite E]. destruct (canc s t); cbn [weight]; lia.
  - apply Nat.eqb_neq in E0. eapply work_one; [apply TH; rewrite E; discriminate|reflexivity|reflexivity|rewrite E; cbn [weight]]. destruct J4 as (_ & _ & _ & _ & _ & _ & J4). specialize (J4 t). rewrite E in J4. lia.
  - apply Nat.eqb_neq in E0. eapply work_one; [apply TH; rewrite E; discriminate|reflexivity|reflexivity|rewrite E; cbn [weight]]. destruct J4 as (_ & _ & _ & _ & _ & _ & J4). specialize (J4 t). rewrite E in J4. lia.
  - eapply work_one; [apply TH; rewrite E; discriminate|reflexivity|reflexivity|rewrite E]. destruct active; cbn [weight]; lia.
  - eapply work_one; [apply TH; rewrite E; discriminate|reflexivity|reflexivity|rewrite E]. destruct active; cbn [weight]; lia.
  - eapply work_one; [apply TH; rewrite E; discriminate|reflexivity|reflexivity|rewrite E]. destruct (if pushes t then _ else _); cbn [weight]; lia.
  - pose proof (work_wake (set_pc s t NUnlock) (mate s t) (MT t)). assert (work (set_pc s t NUnlock) + 3 <= work s); [|lia].
    eapply work_one3; [apply TH; rewrite E; discriminate|reflexivity|reflexivity|rewrite E; cbn [weight]; lia].
  - apply andb_true_iff in E0. destruct E0 as [E0 _]. apply Nat.ltb_lt in E0. eapply work_cancel; [apply J8; rewrite E; discriminate|reflexivity|reflexivity|rewrite E; cbn [cweight]; lia].
  - pose proof (work_wake (set_cpc D s k (CUnlock j)) (cmtx j) (CK j)). assert (work (set_cpc D s k (CUnlock j)) + 3 <= work s); [|lia].
    eapply work_cancel3; [apply J8; rewrite E; discriminate|reflexivity|reflexivity|rewrite E; cbn [cweight]; lia].
  - eapply work_cancel; [apply J8; rewrite E; discriminate|reflexivity|reflexivity|rewrite E]. destruct (j <? n) eqn:L; cbn [cweight]; [apply Nat.ltb_lt in L|]; lia.
Qed.

(** ** Nobody can work *)
Local Notation quiet := (quiet D d0 one_to_n n used size nsock active tgt ncan).
Local Notation run := (run D d0 one_to_n n used size nsock active tgt ncan).

Lemma quiet_free : forall s, inv s -> quiet s -> forall m, mtx s m = None.
Proof.
  intros s (J1 & J2 & _) Q m. destruct (mtx s m) as [a|] eqn:E; [|reflexivity]. exfalso. apply J2 in E.
  destruct a as [t|k]; cbn [held] in E.
  - destruct (pcs s t) eqn:P; try discriminate; [destruct (blocked s t) eqn:B|..];
      (eapply (Q (T t)); split; [cbn [AdaptorModel.exec]; unfold AdaptorModel.run_thread; rewrite P, ?B; reflexivity|cbv beta iota; rewrite P; intros (X & _); discriminate X]).
  - destruct (cpcs s k) eqn:P; try discriminate;
      (eapply (Q (C k)); split; [cbn [AdaptorModel.exec]; unfold AdaptorModel.run_cancel; rewrite P; reflexivity|exact Logic.I]).
Qed.

Lemma quiet_cancel : forall s, inv s -> quiet s -> forall k, cpcs s k = COff \/ cpcs s k = CDone.
Proof.
  intros s I Q k. pose proof (quiet_free s I Q) as F. destruct (cpcs s k) eqn:P; auto; exfalso.
  - destruct ((j <? n) && negb (used j)) eqn:U;
      (eapply (Q (C k)); split; [cbn [AdaptorModel.exec]; unfold AdaptorModel.run_cancel; rewrite P, U, ?F; reflexivity|exact Logic.I]).
  - eapply (Q (C k)); split; [cbn [AdaptorModel.exec]; unfold AdaptorModel.run_cancel; rewrite P; reflexivity|exact Logic.I].
  - eapply (Q (C k)); split; [cbn [AdaptorModel.exec]; unfold AdaptorModel.run_cancel; rewrite P; reflexivity|exact Logic.I].
Qed.

Lemma quiet_pc : forall s, inv s -> quiet s -> forall t,
  pcs s t = Idle \/ pcs s t = Thrown \/ pcs s t = Sleep \/ (pcs s t = Wait /\ active = true /\ blocked s t = true).
Proof.
  intros s I Q t. pose proof (quiet_free s I Q) as F. destruct (run_thread t s) as [s'|] eqn:R.
  - destruct (pcs s t) eqn:P; auto; try (exfalso; apply (Q (T t) s'); split; [exact R|rewrite P; intros (X & _); discriminate X]).
    right. right. right. destruct (blocked s t) eqn:B, (bool_dec active true) as [A|A]; auto; exfalso; apply (Q (T t) s'); (split; [exact R|intros (_ & X & Y); congruence]).
  - unfold AdaptorModel.run_thread in R. rewrite ?F in R. destruct (pcs s t) eqn:P; auto; exfalso; cbv zeta in R; repeat match type of R with (if ?c then _ else _) = None => destruct c | (match ?c with _ => _ end) = None => destruct c end; discriminate R.
Qed.

Lemma quiet_waiting : forall s, inv s -> quiet s -> forall t,
  in_call (pcs s t) = false \/ (waiting active (pcs s t) = true /\ canc s t = false /\ stuck s t = true).
Proof.
  intros s I Q t. destruct (quiet_pc s I Q t) as [P|[P|[P|(P & A & B)]]]; rewrite P; auto; right; cbn [waiting].
  - split; [reflexivity|]. destruct I as (J1 & J2 & J3 & J4 & J5 & J6 & J7 & J8). split.
    + destruct (canc s t) eqn:CT; [exfalso|reflexivity]. destruct J7 as (A1 & A2 & A3). destruct (A1 t CT) as (k & K1 & K2 & K3).
      destruct (quiet_cancel s (conj J1 (conj J2 (conj J3 (conj J4 (conj J5 (conj J6 (conj (conj A1 (conj A2 A3)) J8))))))) Q k) as [K|K]; [congruence|]. apply (A3 k); [rewrite K; exact Logic.I|congruence].
    + destruct (J6 t P) as [S|(u & AU & MU & RU & PU)]; [exact S|exfalso].
      destruct (quiet_pc s (conj J1 (conj J2 (conj J3 (conj J4 (conj J5 (conj J6 (conj J7 J8))))))) Q u) as [X|[X|[X|(X & _)]]]; rewrite X in AU; discriminate.
  - apply andb_true_iff in B. destruct B as [B1 B2]. apply negb_true_iff in B2. auto.
Qed.

Lemma quiet_pair : forall s, inv s -> quiet s -> in_call (pcs s One) = true -> in_call (pcs s (Many (cur s))) = true -> False.
Proof.
  intros s I Q A B. destruct (quiet_waiting s I Q One) as [X|(_ & _ & X)]; [congruence|]. destruct (quiet_waiting s I Q (Many (cur s))) as [Y|(_ & _ & Y)]; [congruence|].
  unfold stuck in *. cbn [ring AdaptorModel.pushes] in *. unfold AdaptorModel.is_full, is_empty in *. destruct one_to_n; cbn [negb] in *; apply Nat.eqb_eq in X, Y; lia.
Qed.

Lemma can_work_dec : forall a s, (exists s', works a s s') \/ (forall s', ~ works a s s').
Proof.
  intros a s. destruct (exec (LRun a) s) as [s'|] eqn:E; [|right; intros s' [X _]; congruence].
  destruct a as [t|k]; [|left; exists s'; split; [exact E|exact Logic.I]].
  assert (DW : {pcs s t = Wait} + {pcs s t <> Wait}) by (destruct (pcs s t); (left; congruence) || (right; congruence)).
  destruct DW as [P|P]; [|left; exists s'; split; [exact E|tauto]]. destruct (bool_dec active true) as [A|A]; [|left; exists s'; split; [exact E|tauto]].
  destruct (bool_dec (blocked s t) true) as [B|B]; [right; intros s2 [_ X]; apply X; auto|left; exists s'; split; [exact E|tauto]].
Qed.

(** The actors that can move are among a finite number. *)
Lemma works_in : forall a s s', inv s -> works a s s' -> In a (map T threads ++ map C (seq 0 ncan)).
Proof.
  intros a s s' (J1 & _ & _ & _ & _ & _ & _ & J8) [H _]. apply in_or_app. destruct a as [t|k]; cbn [AdaptorModel.exec] in H.
  - left. apply in_map, threads_in, J1. intros X. unfold AdaptorModel.run_thread in H. rewrite X in H. discriminate.
  - right. apply in_map, in_seq. assert (k < ncan); [|lia]. apply J8. intros X. unfold AdaptorModel.run_cancel in H. rewrite X in H. discriminate.
Qed.
Lemma quiet_dec : forall s, inv s -> quiet s \/ exists a s', works a s s'.
Proof.
  intros s I. assert (D' : (exists a s', In a (map T threads ++ map C (seq 0 ncan)) /\ works a s s') \/ forall a s', In a (map T threads ++ map C (seq 0 ncan)) -> ~ works a s s').
  { induction (map T threads ++ map C (seq 0 ncan)) as [|a l IH]; [right; intros a s' []|]. destruct (can_work_dec a s) as [(s' & W)|W]; [left; exists a, s'; split; [left; reflexivity|exact W]|].
    destruct IH as [(b & s' & B & W')|IH]; [left; exists b, s'; split; [right; exact B|exact W']|]. right. intros b s' [<-|B]; [apply W|apply IH, B]. }
  destruct D' as [(a & s' & _ & W)|N]; [right; exists a, s'; exact W|]. left. intros a s' W. apply (N a s'); [apply (works_in a s s'); assumption|exact W].
Qed.

(** ** A cancelled wait *)
Lemma cancelled_step : forall l s s' t, canc s t = true -> in_wait (pcs s t) || match pcs s t with Thrown => true | _ => false end = true -> exec l s = Some s' ->
  canc s' t = true /\ in_wait (pcs s' t) || match pcs s' t with Thrown => true | _ => false end = true.
Proof.
  intros l s s' u CA W H. cases l H; try (split; assumption).
  all: try (match goal with |- context [match ?t with One => _ | Many _ => _ end] => destruct t end).
  all: split; try (match goal with H : canc _ = _ |- _ => rewrite H end); proj; try assumption.
  all: try (match goal with H : forall u, pcs _ u = _ |- _ => rewrite H; clear H end; proj).
  all: try (match goal with |- context [tid_dec ?v ?m] => destruct (tid_dec v m) as [->|?] end).
  all: repeat match goal with |- context [tset (pcs _) ?t _ ?w] => first [constr_eq w t; rewrite !tset_eq | destruct (tid_dec w t) as [?|?]; [subst; rewrite !tset_eq|rewrite !(tset_neq _ _ t) by assumption]] end.
  all: try assumption; try reflexivity.
  all: try (rewrite E in W; discriminate W).
  all: try (destruct (pcs s _); try discriminate W; reflexivity).
  - destruct (tid_dec u (tgt k)) as [->|]; [apply tset_eq|rewrite tset_neq by assumption; exact CA].
  - rewrite CA. reflexivity.
  - destruct (tid_dec (mate s t) t) as [M|M]; [destruct t; discriminate M|]. rewrite tset_neq by exact M. destruct (pcs s (mate s t)); try discriminate W; reflexivity.
Qed.

Lemma done_step : forall l s s' k, cpcs s k = CDone -> exec l s = Some s' -> cpcs s' k = CDone.
Proof.
  intros l s s' v K H. cases l H; try exact K.
  all: try (match goal with |- context [match ?t with One => _ | Many _ => _ end] => destruct t; exact K end).
  all: try (match goal with H : cpcs _ = _ |- _ => rewrite H end); proj; try exact K.
  all: rewrite nset_neq by congruence; exact K.
Qed.

(** ** The rings in turn *)
Lemma filter_seq_nth : forall b a j, j < length (filter used (seq a b)) ->
  a <= nth j (filter used (seq a b)) 0 < a + b /\ skipn (S j) (filter used (seq a b)) = filter used (seq (S (nth j (filter used (seq a b)) 0)) (a + b - S (nth j (filter used (seq a b)) 0))).
Proof.
  induction b as [|b IH]; intros a j H; [cbn in H; lia|]. cbn [seq filter] in *. destruct (used a) eqn:U.
  - destruct j as [|j]; cbn [nth].
    + split; [lia|]. change (skipn 1 (a :: filter used (seq (S a) b))) with (filter used (seq (S a) b)). replace (a + S b - S a) with b by lia. reflexivity.
    + cbn [length] in H. destruct (IH (S a) j ltac:(lia)) as [R1 R2]. split; [lia|]. change (skipn (S (S j)) (a :: filter used (seq (S a) b))) with (skipn (S j) (filter used (seq (S a) b))). rewrite R2. f_equal. f_equal. lia.
  - destruct (IH (S a) j H) as [R1 R2]. split; [lia|]. rewrite R2. f_equal. f_equal. lia.
Qed.
Lemma skip_hd : forall fuel c, c < n -> n <= c + S fuel -> skip n used fuel c = hd 0 (filter used (seq (S c) (n - S c))).
Proof.
  induction fuel as [|fuel IH]; intros c Hc HF; cbn [skip].
  - assert (c + 1 = n) by lia. rewrite H. rewrite Nat.mod_same by lia. replace (n - S c) with 0 by lia. reflexivity.
  - destruct (Nat.eq_dec (c + 1) n) as [E|E].
    + rewrite E, Nat.mod_same by lia. rewrite H0. replace (n - S c) with 0 by lia. reflexivity.
    + rewrite Nat.mod_small by lia. replace (n - S c) with (S (n - S (S c))) by lia. cbn [seq filter]. replace (c + 1) with (S c) by lia. destruct (used (S c)); [reflexivity|]. apply IH; lia.
Qed.
Lemma clones_hd : hd 0 (clones n used) = 0 /\ 0 < length (clones n used).
Proof. unfold clones. destruct n as [|m]; [lia|]. cbn [seq filter]. rewrite H0. cbn [hd length]. lia. Qed.
Lemma next_clone : forall j, j < length (clones n used) -> next (nth j (clones n used) 0) = nth (S j mod length (clones n used)) (clones n used) 0.
Proof.
  intros j H. destruct clones_hd as [HD LN]. unfold clones in H |- *. destruct (filter_seq_nth n 0 j H) as [R1 R2]. cbn [Nat.add] in *. unfold AdaptorModel.next.
  rewrite skip_hd by lia. rewrite <- R2. fold (clones n used) in *. destruct (Nat.eq_dec (S j) (length (clones n used))) as [E|E].
  - rewrite E, Nat.mod_same by lia. rewrite skipn_all2 by lia. cbn [hd]. destruct (clones n used); [reflexivity|]. cbn [hd nth] in *. congruence.
  - rewrite Nat.mod_small by lia. rewrite <- (Nat.add_0_r (S j)) at 2. rewrite <- skipn_nth. destruct (skipn (S j) (clones n used)); reflexivity.
Qed.
Lemma turn_clone : forall k, turn k = in_turn n used k.
Proof.
  destruct clones_hd as [HD LN]. unfold in_turn. induction k as [|k IH].
  - rewrite Nat.mod_0_l by lia. cbn. destruct (clones n used); [reflexivity|exact (eq_sym HD)].
  - change (turn (S k)) with (next (turn k)). rewrite IH, next_clone by (apply Nat.mod_upper_bound; lia). f_equal.
    replace (S (k mod length (clones n used))) with (k mod length (clones n used) + 1) by lia. rewrite Nat.add_mod_idemp_l by lia. f_equal. lia.
Qed.
End Adaptor.

(** ** Splitting and merging *)
Lemma merge_order : forall A B (g : A -> B) (r : nat -> nat) (h2 : list (nat * B)) (h1 : list (nat * A)) a,
  map fst h1 = map r (seq a (length h1)) -> map fst h2 = map r (seq a (length h2)) ->
  (forall i, prefix (on i h2) (map g (on i h1))) -> prefix (map snd h2) (map g (map snd h1)).
Proof.
  intros A B g r h2. induction h2 as [|[i y] h2 IH]; intros h1 a F1 F2 P; [eexists; reflexivity|]. cbn [map fst length seq] in F2. injection F2 as -> F2.
  destruct h1 as [|[j x] h1].
  - destruct (P (r a)) as [q Q]. unfold on in Q. cbn [filter fst map] in Q. rewrite Nat.eqb_refl in Q. discriminate.
  - cbn [map fst length seq] in F1. injection F1 as -> F1. destruct (P (r a)) as [q Q]. unfold on in Q. cbn [filter fst map] in Q. rewrite Nat.eqb_refl in Q. cbn [map snd app] in Q. injection Q as Q1 Q2. subst y.
    destruct (IH h1 (S a) F1 F2) as [z Z].
    + intros i. destruct (P i) as [q' Q']. unfold on in Q'. cbn [filter fst map] in Q'. destruct (r a =? i) eqn:E.
      * cbn [map snd app] in Q'. injection Q' as Q'. exists q'. exact Q'.
      * exists q'. exact Q'.
    + exists z. cbn [map snd app]. rewrite Z. reflexivity.
Qed.
