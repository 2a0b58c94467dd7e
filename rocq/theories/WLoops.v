(** Loops that write an array whose final contents are known. *)
From Coq Require Import List Arith Lia Bool.
From Verif Require Import Base Copy.
Import ListNotations.

(** [W i q]: iteration [i] writes cell [q], with the value [F q]. *)
Lemma for_target : forall A (d : A) (F : nat -> A) (W : nat -> nat -> bool) n (body : nat -> list A -> outcome (list A)) (x0 : list A),
  (forall i x, i < n -> length x = length x0 -> exists x', body i x = Ret x' /\ length x' = length x0 /\
      forall q, q < length x0 -> nth q x' d = if W i q then F q else nth q x d) ->
  exists x', for_ n body x0 = Ret x' /\ length x' = length x0 /\
    forall q, q < length x0 -> ((exists i, i < n /\ W i q = true) -> nth q x' d = F q) /\
                               ((forall i, i < n -> W i q = false) -> nth q x' d = nth q x0 d).
Proof.
  intros A d F W n body x0 H.
  destruct (for_inv _ (fun m x => length x = length x0 /\ forall q, q < length x0 ->
      ((exists i, i < m /\ W i q = true) -> nth q x d = F q) /\ ((forall i, i < m -> W i q = false) -> nth q x d = nth q x0 d)) n body x0) as (x' & E & L & I).
  - split; auto. intros q Hq. split; auto. intros (i & Hi & _). lia.
  - intros m x Hm (L & I). destruct (H m x Hm L) as (x' & E & L' & I'). exists x'. split; auto. split; auto.
    intros q Hq. rewrite I' by auto. destruct (I q Hq) as [I1 I2]. destruct (W m q) eqn:EW.
    + split; auto. intros C. rewrite C in EW by lia. discriminate.
    + split.
      * intros (i & Hi & Wi). apply I1. exists i. split; auto. destruct (Nat.eq_dec i m); [congruence|lia].
      * intros C. apply I2. intros. apply C. lia.
  - exists x'. auto.
Qed.

(** One write per iteration. *)
Lemma for_write1 : forall A (d : A) (F : nat -> A) (p : nat -> nat) n (body : nat -> list A -> outcome (list A)) (x0 : list A),
  (forall i x, i < n -> length x = length x0 -> p i < length x0 /\ body i x = wr x (p i) (F (p i))) ->
  exists x', for_ n body x0 = Ret x' /\ length x' = length x0 /\
    forall q, q < length x0 -> ((exists i, i < n /\ q = p i) -> nth q x' d = F q) /\
                               ((forall i, i < n -> q <> p i) -> nth q x' d = nth q x0 d).
Proof.
  intros A d F p n body x0 H.
  destruct (for_target A d F (fun i q => q =? p i) n body x0) as (x' & E & L & I).
  - intros i x Hi Lx. destruct (H i x Hi Lx) as [Hp Eb]. rewrite Eb. rewrite wr_ok by lia. eexists. split; [reflexivity|].
    rewrite length_upd. split; auto. intros q Hq. rewrite nth_upd by lia. destruct (Nat.eqb_spec q (p i)); subst; auto.
  - exists x'. split; auto. split; auto. intros q Hq. destruct (I q Hq) as [I1 I2]. split.
    + intros (i & Hi & ->). apply I1. exists i. split; auto. apply Nat.eqb_refl.
    + intros C. apply I2. intros i Hi. apply Nat.eqb_neq. auto.
Qed.

(** Two writes per iteration. *)
Lemma for_write2 : forall A (d : A) (F : nat -> A) (p1 p2 : nat -> nat) n (body : nat -> list A -> outcome (list A)) (x0 : list A),
  (forall i x, i < n -> length x = length x0 -> p1 i < length x0 /\ p2 i < length x0 /\
     body i x = bind (wr x (p1 i) (F (p1 i))) (fun x => wr x (p2 i) (F (p2 i)))) ->
  exists x', for_ n body x0 = Ret x' /\ length x' = length x0 /\
    forall q, q < length x0 -> ((exists i, i < n /\ (q = p1 i \/ q = p2 i)) -> nth q x' d = F q) /\
                               ((forall i, i < n -> q <> p1 i /\ q <> p2 i) -> nth q x' d = nth q x0 d).
Proof.
  intros A d F p1 p2 n body x0 H.
  destruct (for_target A d F (fun i q => (q =? p1 i) || (q =? p2 i)) n body x0) as (x' & E & L & I).
  - intros i x Hi Lx. destruct (H i x Hi Lx) as (Hp1 & Hp2 & Eb). rewrite Eb. rewrite wr_ok by lia. cbn [bind].
    rewrite wr_ok by (rewrite length_upd; lia). eexists. split; [reflexivity|].
    rewrite !length_upd. split; auto. intros q Hq. rewrite nth_upd by (rewrite length_upd; lia).
    destruct (Nat.eqb_spec q (p2 i)); subst; [rewrite orb_true_r; auto|]. rewrite nth_upd by lia.
    destruct (Nat.eqb_spec q (p1 i)); subst; auto.
  - exists x'. split; auto. split; auto. intros q Hq. destruct (I q Hq) as [I1 I2]. split.
    + intros (i & Hi & C). apply I1. exists i. split; auto. apply orb_true_iff. rewrite !Nat.eqb_eq. auto.
    + intros C. apply I2. intros i Hi. apply orb_false_iff. rewrite !Nat.eqb_neq. auto.
Qed.

(** Three writes per iteration. *)
Lemma for_write3 : forall A (d : A) (F : nat -> A) (p1 p2 p3 : nat -> nat) n (body : nat -> list A -> outcome (list A)) (x0 : list A),
  (forall i x, i < n -> length x = length x0 -> p1 i < length x0 /\ p2 i < length x0 /\ p3 i < length x0 /\
     body i x = bind (wr x (p1 i) (F (p1 i))) (fun x => bind (wr x (p2 i) (F (p2 i))) (fun x => wr x (p3 i) (F (p3 i))))) ->
  exists x', for_ n body x0 = Ret x' /\ length x' = length x0 /\
    forall q, q < length x0 -> ((exists i, i < n /\ (q = p1 i \/ q = p2 i \/ q = p3 i)) -> nth q x' d = F q) /\
                               ((forall i, i < n -> q <> p1 i /\ q <> p2 i /\ q <> p3 i) -> nth q x' d = nth q x0 d).
Proof.
  intros A d F p1 p2 p3 n body x0 H.
  destruct (for_target A d F (fun i q => (q =? p1 i) || (q =? p2 i) || (q =? p3 i)) n body x0) as (x' & E & L & I).
  - intros i x Hi Lx. destruct (H i x Hi Lx) as (Hp1 & Hp2 & Hp3 & Eb). rewrite Eb. rewrite wr_ok by lia. cbn [bind].
    rewrite wr_ok by (rewrite length_upd; lia). cbn [bind]. rewrite wr_ok by (rewrite !length_upd; lia). eexists. split; [reflexivity|].
    rewrite !length_upd. split; auto. intros q Hq. rewrite nth_upd by (rewrite !length_upd; lia).
    destruct (Nat.eqb_spec q (p3 i)); subst; [rewrite orb_true_r; auto|]. rewrite nth_upd by (rewrite length_upd; lia).
    destruct (Nat.eqb_spec q (p2 i)); subst; [rewrite orb_true_r; auto|]. rewrite nth_upd by lia.
    destruct (Nat.eqb_spec q (p1 i)); subst; auto.
  - exists x'. split; auto. split; auto. intros q Hq. destruct (I q Hq) as [I1 I2]. split.
    + intros (i & Hi & C). apply I1. exists i. split; auto. rewrite !orb_true_iff, !Nat.eqb_eq. tauto.
    + intros C. apply I2. intros i Hi. rewrite !orb_false_iff, !Nat.eqb_neq. destruct (C i Hi) as (? & ? & ?). auto.
Qed.

Lemma firstn_app_exact : forall A n (a b : list A), length a = n -> firstn n (a ++ b) = a.
Proof. intros. subst. rewrite firstn_app, Nat.sub_diag, firstn_all, firstn_O, app_nil_r. auto. Qed.
Lemma skipn_app_exact : forall A n (a b : list A), length a = n -> skipn n (a ++ b) = b.
Proof. intros. subst. rewrite skipn_app, Nat.sub_diag, skipn_all. auto. Qed.
Lemma nth_firstn_lt : forall A (d : A) n i (l : list A), i < n -> nth i (firstn n l) d = nth i l d.
Proof. induction n; intros; [lia|]. destruct l; auto. destruct i; auto. cbn [firstn nth]. apply IHn. lia. Qed.
Lemma nth_skipn_add : forall A (d : A) n i (l : list A), nth i (skipn n l) d = nth (n + i) l d.
Proof. induction n; intros; auto. destruct l; cbn [skipn Nat.add nth]; auto. destruct i; auto. Qed.

(** The same with the set of written cells as a boolean. *)
Lemma for_target_b : forall A (d : A) (F : nat -> A) (W : nat -> nat -> bool) n (body : nat -> list A -> outcome (list A)) (x0 : list A),
  (forall i x, i < n -> length x = length x0 -> exists x', body i x = Ret x' /\ length x' = length x0 /\
      forall q, q < length x0 -> nth q x' d = if W i q then F q else nth q x d) ->
  exists x', for_ n body x0 = Ret x' /\ length x' = length x0 /\
    forall q, q < length x0 -> nth q x' d = if existsb (fun i => W i q) (seq 0 n) then F q else nth q x0 d.
Proof.
  intros A d F W n body x0 HB. destruct (for_target A d F W n body x0 HB) as (x' & E & L & I).
  exists x'. split; auto. split; auto. intros q Hq. destruct (I q Hq) as [I1 I2].
  destruct (existsb (fun i => W i q) (seq 0 n)) eqn:EX.
  - apply I1. apply existsb_exists in EX. destruct EX as (i & Hi & HW). apply in_seq in Hi. exists i. split; auto. lia.
  - apply I2. intros i Hi. destruct (W i q) eqn:EW; auto. exfalso. assert (existsb (fun i => W i q) (seq 0 n) = true); [|congruence].
    apply existsb_exists. exists i. split; auto. apply in_seq. lia.
Qed.

Lemma wr_target_b : forall A (d : A) (F : nat -> A) p (x : list A), p < length x ->
  exists x', wr x p (F p) = Ret x' /\ length x' = length x /\ forall q, q < length x -> nth q x' d = if q =? p then F q else nth q x d.
Proof.
  intros. rewrite wr_ok by auto. eexists. split; [reflexivity|]. rewrite length_upd. split; auto.
  intros q Hq. rewrite nth_upd by auto. destruct (Nat.eqb_spec q p); subst; auto.
Qed.

(** Two nested loops that write every cell once. *)
Lemma for2_fill : forall A (d : A) (F : nat -> A) (p : nat -> nat -> nat) n m (body : nat -> nat -> list A -> outcome (list A)) (x0 : list A),
  (forall i j x, i < n -> j < m -> length x = length x0 -> p i j < length x0 /\ body i j x = wr x (p i j) (F (p i j))) ->
  (forall q, q < length x0 -> exists i j, i < n /\ j < m /\ q = p i j) ->
  for_ n (fun i x => for_ m (body i) x) x0 = Ret (tab (length x0) F).
Proof.
  intros A d F p n m body x0 HB HC.
  destruct (for_target_b A d F (fun i q => existsb (fun j => q =? p i j) (seq 0 m)) n (fun i x => for_ m (body i) x) x0) as (x' & E & L & I).
  { intros i x Hi Hx. rewrite <- Hx. apply (for_target_b A d F (fun j q => q =? p i j)). intros j y Hj Hy. rewrite Hx in Hy.
    destruct (HB i j y Hi Hj Hy) as [HP ->]. rewrite Hx, <- Hy. apply wr_target_b. lia. }
  rewrite E. f_equal. apply (eq_tab _ d); auto. intros q Hq. rewrite I by auto. destruct (HC q Hq) as (i & j & Hi & Hj & ->).
  assert (X : existsb (fun i0 => existsb (fun j0 => p i j =? p i0 j0) (seq 0 m)) (seq 0 n) = true).
  { apply existsb_exists. exists i. split; [apply in_seq; lia|]. apply existsb_exists. exists j. split; [apply in_seq; lia|]. apply Nat.eqb_refl. }
  rewrite X. auto.
Qed.

(** A loop that writes every cell once. *)
Lemma for1_fill : forall A (d : A) (F : nat -> A) (p : nat -> nat) n (body : nat -> list A -> outcome (list A)) (x0 : list A),
  (forall i x, i < n -> length x = length x0 -> p i < length x0 /\ body i x = wr x (p i) (F (p i))) ->
  (forall q, q < length x0 -> exists i, i < n /\ q = p i) ->
  for_ n body x0 = Ret (tab (length x0) F).
Proof.
  intros A d F p n body x0 HB HC. destruct (for_write1 A d F p n body x0 HB) as (x' & E & L & I).
  rewrite E. f_equal. apply (eq_tab _ d); auto. intros q Hq. apply I; auto.
Qed.
