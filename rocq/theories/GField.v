(** A field of characteristic two, sums, power sums and polynomials over it.  Used for the
    proofs about BCH and Reed-Solomon codes. *)
From Coq Require Import List Arith Lia Bool Ring.
Import ListNotations.

Record field := {
  car :> Type;
  f0 : car; f1 : car;
  fadd : car -> car -> car;
  fmul : car -> car -> car;
  finv : car -> car;
  fdec : forall a b : car, {a = b} + {a <> b};
  fadd_comm : forall a b, fadd a b = fadd b a;
  fadd_assoc : forall a b c, fadd a (fadd b c) = fadd (fadd a b) c;
  fadd_0 : forall a, fadd f0 a = a;
  fadd_self : forall a, fadd a a = f0;
  fmul_comm : forall a b, fmul a b = fmul b a;
  fmul_assoc : forall a b c, fmul a (fmul b c) = fmul (fmul a b) c;
  fmul_1 : forall a, fmul f1 a = a;
  fmul_add : forall a b c, fmul (fadd a b) c = fadd (fmul a c) (fmul b c);
  finv_l : forall a, a <> f0 -> fmul (finv a) a = f1;
  f10 : f1 <> f0 }.

Section Field.
Variable F : field.
Notation "0" := (f0 F).
Notation "1" := (f1 F).
Infix "+" := (fadd F).
Infix "*" := (fmul F).
Notation "/ x" := (finv F x).

Lemma Frt : ring_theory 0 1 (fadd F) (fmul F) (fadd F) (fun x => x) eq.
Proof.
  constructor; intros; auto using fadd_0, fadd_comm, fadd_assoc, fmul_1, fmul_comm, fmul_assoc, fmul_add, fadd_self.
Qed.
Add Ring Fring : Frt.

Fixpoint pw (x : F) (n : nat) : F := match n with O => 1 | S n => x * pw x n end.

Lemma fadd_cancel : forall a b : F, a + b = 0 -> a = b.
Proof. intros a b H. transitivity (a + b + b). { rewrite <- fadd_assoc, fadd_self, fadd_comm, fadd_0. auto. } rewrite H. apply fadd_0. Qed.
Lemma fadd_eq0 : forall a b : F, a = b -> a + b = 0.
Proof. intros. subst. apply fadd_self. Qed.
Lemma fmul_0 : forall a : F, 0 * a = 0.
Proof. intros. ring. Qed.
Lemma fmul_0r : forall a : F, a * 0 = 0.
Proof. intros. ring. Qed.
Lemma fmul_1r : forall a : F, a * 1 = a.
Proof. intros. ring. Qed.
Lemma fadd_0r : forall a : F, a + 0 = a.
Proof. intros. ring. Qed.
Lemma fmul_eq0 : forall a b : F, a * b = 0 -> a = 0 \/ b = 0.
Proof.
  intros a b H. destruct (fdec F a 0) as [|n]; auto. right.
  transitivity (/ a * a * b). { rewrite finv_l by auto. ring. } rewrite <- fmul_assoc, H. ring.
Qed.
Lemma fmul_cancel : forall a b c : F, a <> 0 -> a * b = a * c -> b = c.
Proof.
  intros a b c Ha H. apply fadd_cancel. destruct (fmul_eq0 a (b + c)); auto; try contradiction.
  transitivity (a * b + a * c); [ring|]. rewrite H. apply fadd_self.
Qed.
Lemma finv_r : forall a : F, a <> 0 -> a * / a = 1.
Proof. intros. rewrite fmul_comm. apply finv_l. auto. Qed.
Lemma finv_n0 : forall a : F, a <> 0 -> / a <> 0.
Proof. intros a H C. pose proof (finv_l F a H) as E. rewrite C, fmul_0 in E. symmetry in E. revert E. apply f10. Qed.
Lemma finv_inv : forall a : F, a <> 0 -> / (/ a) = a.
Proof. intros a H. apply (fmul_cancel (/ a)). { apply finv_n0; auto. } rewrite finv_r by (apply finv_n0; auto). rewrite finv_l; auto. Qed.
Lemma finv_inj : forall a b : F, a <> 0 -> b <> 0 -> / a = / b -> a = b.
Proof. intros a b Ha Hb H. rewrite <- (finv_inv a), <- (finv_inv b) by auto. congruence. Qed.
Lemma fmul_n0 : forall a b : F, a <> 0 -> b <> 0 -> a * b <> 0.
Proof. intros a b Ha Hb C. destruct (fmul_eq0 _ _ C); auto. Qed.
Lemma fsq_add : forall a b : F, (a + b) * (a + b) = a * a + b * b.
Proof. intros. transitivity (a * a + b * b + (a * b + a * b)); [ring|]. rewrite fadd_self. ring. Qed.

Lemma pw_add : forall x m n, pw x (m + n) = pw x m * pw x n.
Proof. induction m; intros; cbn [pw Nat.add]; [ring|]. rewrite IHm. ring. Qed.
Lemma pw_mul : forall x m n, pw x (m * n) = pw (pw x m) n.
Proof. induction n; cbn [pw]. { rewrite Nat.mul_0_r. auto. } rewrite Nat.mul_succ_r, Nat.add_comm, pw_add, IHn. auto. Qed.
Lemma pw_mulb : forall x y n, pw (x * y) n = pw x n * pw y n.
Proof. induction n; cbn [pw]; [ring|]. rewrite IHn. ring. Qed.
Lemma pw_1 : forall n, pw 1 n = 1.
Proof. induction n; cbn [pw]; auto. rewrite IHn. ring. Qed.
Lemma pw_n0 : forall x n, x <> 0 -> pw x n <> 0.
Proof. induction n; intros; cbn [pw]. { apply f10. } apply fmul_n0; auto. Qed.
Lemma pw_inv : forall x n, x <> 0 -> pw (/ x) n = / (pw x n).
Proof.
  intros x n H. apply (fmul_cancel (pw x n)). { apply pw_n0; auto. }
  rewrite finv_r by (apply pw_n0; auto). rewrite <- pw_mulb, finv_r by auto. apply pw_1.
Qed.
Lemma pw_sub : forall x m n, x <> 0 -> n <= m -> pw x (m - n) = pw x m * pw (/ x) n.
Proof.
  intros x m n Hx H. replace (pw x m) with (pw x (m - n) * pw x n) by (rewrite <- pw_add; f_equal; lia).
  rewrite <- fmul_assoc, <- pw_mulb, finv_r, pw_1 by auto. ring.
Qed.

(** * Sums *)

Fixpoint gsum (n : nat) (f : nat -> F) : F := match n with O => 0 | S n => gsum n f + f n end.
Lemma gsum_ext : forall n f g, (forall i, i < n -> f i = g i) -> gsum n f = gsum n g.
Proof. induction n; intros f g H; cbn [gsum]; auto. rewrite (IHn f g) by auto. rewrite H by lia. auto. Qed.
Lemma gsum_0 : forall n f, (forall i, i < n -> f i = 0) -> gsum n f = 0.
Proof. induction n; intros f H; cbn [gsum]; auto. rewrite IHn, H by auto. ring. Qed.
Lemma gsum_add : forall n f g, gsum n (fun i => f i + g i) = gsum n f + gsum n g.
Proof. induction n; intros; cbn [gsum]; [ring|]. rewrite IHn. ring. Qed.
Lemma gsum_mul : forall n c f, gsum n (fun i => c * f i) = c * gsum n f.
Proof. induction n; intros; cbn [gsum]; [ring|]. rewrite IHn. ring. Qed.
Lemma gsum_swap : forall n m f, gsum n (fun i => gsum m (f i)) = gsum m (fun j => gsum n (fun i => f i j)).
Proof.
  induction n; intros; cbn [gsum]. { symmetry. apply gsum_0. auto. } rewrite IHn, <- gsum_add. auto.
Qed.
Lemma gsum_S : forall n f, gsum (S n) f = f 0%nat + gsum n (fun i => f (S i)).
Proof. induction n; intros; [cbn [gsum]; ring|]. cbn [gsum] in *. rewrite IHn. ring. Qed.
Lemma gsum_plus : forall n m f, gsum (n + m) f = gsum n f + gsum m (fun i => f (n + i)%nat).
Proof. induction m; intros; cbn [gsum]. { rewrite Nat.add_0_r. ring. } rewrite Nat.add_succ_r. cbn [gsum]. rewrite IHm. ring. Qed.
Lemma gsum_more : forall n m f, n <= m -> (forall i, n <= i < m -> f i = 0) -> gsum m f = gsum n f.
Proof.
  intros n m f H H0. replace m with (n + (m - n))%nat by lia. rewrite gsum_plus, (gsum_0 (m - n)); [ring|].
  intros. apply H0. lia.
Qed.
Lemma gsum_rev : forall n f, gsum n f = gsum n (fun i => f (n - 1 - i)%nat).
Proof.
  induction n; intros f; auto. rewrite (gsum_S n (fun i => f (S n - 1 - i)%nat)).
  change (gsum (S n) f) with (gsum n f + f n). rewrite (IHn f), (fadd_comm F). f_equal.
  - f_equal. lia.
  - apply gsum_ext. intros. f_equal. lia.
Qed.
Lemma gsum_one : forall n f i, i < n -> (forall j, j < n -> j <> i -> f j = 0) -> gsum n f = f i.
Proof.
  intros n f i Hi H. rewrite (gsum_more (S i) n) by (auto; intros; apply H; lia). cbn [gsum]. rewrite gsum_0; [ring|]. intros. apply H; lia.
Qed.
Lemma gsum_sq : forall n f, gsum n f * gsum n f = gsum n (fun i => f i * f i).
Proof. induction n; intros; cbn [gsum]; [ring|]. rewrite fsq_add, IHn. auto. Qed.

(** Sums over a list. *)
Fixpoint lsum {A} (l : list A) (f : A -> F) : F := match l with [] => 0 | x :: l => f x + lsum l f end.
Lemma lsum_ext : forall A (l : list A) f g, (forall x, In x l -> f x = g x) -> lsum l f = lsum l g.
Proof. induction l; intros f g H; cbn [lsum]; auto. rewrite (H a) by (left; auto). rewrite (IHl f g); auto. intros. apply H. right. auto. Qed.
Lemma lsum_0 : forall A (l : list A) f, (forall x, In x l -> f x = 0) -> lsum l f = 0.
Proof. induction l; intros f H; cbn [lsum]; auto. rewrite H by (left; auto). rewrite IHl; [ring|]. intros. apply H. right. auto. Qed.
Lemma lsum_add : forall A (l : list A) f g, lsum l (fun x => f x + g x) = lsum l f + lsum l g.
Proof. induction l; intros; cbn [lsum]; [ring|]. rewrite IHl. ring. Qed.
Lemma lsum_mul : forall A (l : list A) c f, lsum l (fun x => c * f x) = c * lsum l f.
Proof. induction l; intros; cbn [lsum]; [ring|]. rewrite IHl. ring. Qed.
Lemma lsum_gsum : forall A (l : list A) n f, lsum l (fun x => gsum n (f x)) = gsum n (fun i => lsum l (fun x => f x i)).
Proof. induction l; intros; cbn [lsum]. { symmetry. apply gsum_0. auto. } rewrite IHl, <- gsum_add. auto. Qed.
Lemma lsum_app : forall A (l1 l2 : list A) f, lsum (l1 ++ l2) f = lsum l1 f + lsum l2 f.
Proof. induction l1; intros; cbn [lsum app]; [ring|]. rewrite IHl1. ring. Qed.
Lemma lsum_map : forall A B (g : A -> B) (l : list A) f, lsum (map g l) f = lsum l (fun x => f (g x)).
Proof. induction l; intros; cbn [lsum map]; auto. rewrite IHl. auto. Qed.
Lemma lsum_one : forall A (l : list A) f a, NoDup l -> In a l -> (forall x, In x l -> x <> a -> f x = 0) -> lsum l f = f a.
Proof.
  induction l; intros f b HN HI H; [contradiction|]. inversion HN; subst. cbn [lsum]. destruct HI as [->|HI].
  - rewrite lsum_0; [ring|]. intros x Hx. apply H; [right; auto|]. intros ->. contradiction.
  - rewrite (IHl f b); auto. 2:{ intros. apply H; auto. right. auto. } rewrite H; [ring|left; auto|]. intros ->. contradiction.
Qed.
Lemma lsum_filter : forall A (l : list A) (P : A -> bool) f, lsum (filter P l) f = lsum l (fun x => if P x then f x else 0).
Proof. induction l; intros; cbn [lsum filter]; auto. destruct (P a); cbn [lsum]; rewrite IHl; ring. Qed.
Lemma lsum_seq : forall n f, lsum (seq 0 n) f = gsum n f.
Proof.
  induction n; intros; auto. rewrite seq_S, lsum_app, IHn. cbn [lsum gsum Nat.add]. ring.
Qed.

(** * Power sums *)

(** Vandermonde: distinct non-zero locators are independent. *)
Lemma vandermonde : forall L (c : F -> F), NoDup L -> ~ In 0 L ->
  (forall k, 1 <= k <= length L -> lsum L (fun x => c x * pw x k) = 0) -> forall x, In x L -> c x = 0.
Proof.
  induction L as [|a L IH]; intros c HN H0 H x Hx; [contradiction|]. inversion HN as [|? ? Ha HN']; subst.
  assert (E : forall y, In y L -> c y * (y + a) = 0).
  { intros y Hy. apply (IH (fun y => c y * (y + a))); auto. { intros C. apply H0. right. auto. }
    intros k Hk. pose proof (H k ltac:(cbn [length]; lia)) as E1. pose proof (H (S k) ltac:(cbn [length]; lia)) as E2. cbn [lsum] in E1, E2.
    transitivity (lsum L (fun x => c x * pw x (S k)) + a * lsum L (fun x => c x * pw x k)).
    { rewrite <- lsum_mul, <- lsum_add. apply lsum_ext. intros. cbn [pw]. ring. }
    apply fadd_cancel in E1. apply fadd_cancel in E2. rewrite <- E1, <- E2. cbn [pw]. transitivity (c a * (a * pw a k) + c a * (a * pw a k)); [ring|]. apply fadd_self. }
  assert (E' : forall y, In y L -> c y = 0).
  { intros y Hy. destruct (fmul_eq0 _ _ (E y Hy)) as [|C]; auto. exfalso. apply fadd_cancel in C. subst. contradiction. }
  destruct Hx as [->|Hx]; auto.
  pose proof (H 1%nat ltac:(cbn [length]; lia)) as E1. cbn [lsum] in E1. rewrite lsum_0 in E1. 2:{ intros y Hy. rewrite E' by auto. ring. }
  destruct (fmul_eq0 (c x) x) as [|C]; auto. { rewrite <- E1. cbn [pw]. ring. } exfalso. apply H0. left. auto.
Qed.

(** The same with the exponents m+1, ..., m+n, n at least the number of locators. *)
Lemma vandermonde_from : forall L (c : F -> F) m n, NoDup L -> ~ In 0 L -> length L <= n ->
  (forall k, m < k <= m + n -> lsum L (fun x => c x * pw x k) = 0) -> forall x, In x L -> c x = 0.
Proof.
  intros L c m n HN H0 HL H x Hx.
  assert (E : c x * pw x m = 0).
  { apply (vandermonde L (fun x => c x * pw x m)); auto. intros k Hk. rewrite <- (H (m + k)%nat) by lia.
    apply lsum_ext. intros. rewrite pw_add. ring. }
  destruct (fmul_eq0 _ _ E) as [|C]; auto. exfalso. revert C. apply pw_n0. intros ->. contradiction.
Qed.

(** Interpolation: any n power sums are met by n locators. *)
Lemma interpolate : forall L (s : nat -> F), NoDup L -> ~ In 0 L ->
  exists c : F -> F, forall k, 1 <= k <= length L -> lsum L (fun x => c x * pw x k) = s k.
Proof.
  induction L as [|a L IH]; intros s HN H0. { exists (fun _ => 0). intros. cbn [length] in *. lia. }
  inversion HN as [|? ? Ha HN']; subst. destruct (IH (fun k => s (S k) + a * s k) HN') as [c' H]. { intros C. apply H0. right. auto. }
  assert (a0 : a <> 0). { intros ->. apply H0. left. auto. }
  set (r := lsum L (fun x => c' x * / (x + a) * pw x 1)).
  exists (fun x => if fdec F x a then (s 1%nat + r) * / a else c' x * / (x + a)).
  assert (E : forall k, lsum (a :: L) (fun x => (if fdec F x a then (s 1%nat + r) * / a else c' x * / (x + a)) * pw x k)
                      = (s 1%nat + r) * / a * pw a k + lsum L (fun x => c' x * / (x + a) * pw x k)).
  { intros k. cbn [lsum]. destruct (fdec F a a); [|contradiction]. f_equal. apply lsum_ext. intros x Hx.
    destruct (fdec F x a); auto. subst. contradiction. }
  intros k. induction k as [|k IHk]; intros Hk; [lia|]. rewrite E. destruct k as [|k].
  - fold r. cbn [pw]. transitivity ((s 1%nat + r) * (/ a * a) + r); [ring|]. rewrite finv_l by auto. transitivity (s 1%nat + (r + r)); [ring|]. rewrite fadd_self. ring.
  - cbn [length] in *. assert (E1 := IHk ltac:(lia)). rewrite E in E1. assert (E2 := H (S k) ltac:(lia)).
    assert (E3 : lsum L (fun x => c' x * / (x + a) * pw x (S (S k))) = lsum L (fun x => c' x * pw x (S k)) + a * lsum L (fun x => c' x * / (x + a) * pw x (S k))).
    { rewrite <- lsum_mul, <- lsum_add. apply lsum_ext. intros x Hx.
      transitivity (c' x * (/ (x + a) * (x + a)) * pw x (S k) + a * (c' x * / (x + a) * pw x (S k)) ).
      - cbn [pw]. transitivity (c' x * / (x + a) * (x * (x * pw x k)) + (c' x * / (x + a) * a * (x * pw x k) + c' x * / (x + a) * a * (x * pw x k))).
        + rewrite fadd_self. ring. + ring.
      - rewrite finv_l. { ring. } intros C. apply fadd_cancel in C. subst. contradiction. }
    rewrite E3, E2. transitivity (s (S (S k)) + a * s (S k) + a * ((s 1%nat + r) * / a * pw a (S k) + lsum L (fun x => c' x * / (x + a) * pw x (S k)))).
    { cbn [pw]. ring. } rewrite E1. transitivity (s (S (S k)) + (a * s (S k) + a * s (S k))); [ring|]. rewrite fadd_self. ring.
Qed.

(** * Linear recurrences *)

(** [sg], of length [l], with sg 0 = 1, predicts s (l+1), ..., s n. *)
Definition conv (sg s : nat -> F) (l k : nat) : F := gsum (S l) (fun i => sg i * s (k - i)%nat).
Definition gen (sg s : nat -> F) (l n : nat) : Prop := forall k, l < k <= n -> conv sg s l k = 0.

(** Massey: two recurrences that agree on s 1..s n with n at least the sum of their lengths
    predict the same next value. *)
Lemma massey : forall sg la s l v n, gen sg s l n -> gen la s v (S n) -> la 0%nat = 1 -> l + v <= n -> conv sg s l (S n) = 0.
Proof.
  intros sg la s l v n H1 H2 Hl H. unfold gen, conv in *.
  set (D := gsum (S l) (fun i => gsum (S v) (fun j => sg i * (la j * s (S n - i - j)%nat)))).
  assert (D0 : D = 0).
  { apply gsum_0. intros i Hi. rewrite gsum_mul. rewrite (H2 (S n - i)%nat) by lia. ring. }
  unfold D in D0. rewrite gsum_swap in D0. rewrite gsum_S in D0. rewrite gsum_0 with (n := v) in D0.
  - rewrite <- D0. rewrite fadd_0r. apply gsum_ext. intros i Hi. rewrite Hl, Nat.sub_0_r. ring.
  - intros j Hj. transitivity (la (S j) * gsum (S l) (fun i => sg i * s (S n - S j - i)%nat)).
    { rewrite <- gsum_mul. apply gsum_ext. intros. replace (S n - i - S j)%nat with (S n - S j - i)%nat by lia. ring. }
    rewrite (H1 (S n - S j)%nat) by lia. ring.
Qed.

(** * Polynomials *)

Fixpoint eval (p : list F) (x : F) : F := match p with [] => 0 | c :: p => c + x * eval p x end.

Lemma eval_gsum : forall p x, eval p x = gsum (length p) (fun i => nth i p 0 * pw x i).
Proof.
  induction p; intros; auto. cbn [length]. rewrite gsum_S. cbn [nth pw eval]. rewrite IHp, <- gsum_mul. rewrite fmul_1r. f_equal.
  apply gsum_ext. intros. ring.
Qed.

Lemma eval_div : forall p a, exists g, length g = (length p - 1)%nat /\ (forall x, eval p x = eval p a + (x + a) * eval g x) /\
  ((forall i, nth i g 0 = 0) -> forall i, nth (S i) p 0 = 0).
Proof.
  induction p as [|c p IH]; intros a.
  - exists []. split; [auto|]. split; [intros; cbn [eval]; ring|]. intros _ i. destruct i; auto.
  - destruct p as [|c' p].
    + exists []. split; [auto|]. split; [intros; cbn [eval]; ring|]. intros _ i. cbn [nth]. destruct i; auto.
    + destruct (IH a) as (g & L & E & Z). exists (eval (c' :: p) a :: g). split; [cbn [length] in *; lia|]. split.
      * intros x. cbn [eval] in *. rewrite (E x). 
        set (A := c' + a * eval p a). 
        transitivity (c + x * A + x * (x + a) * eval g x); [ring|]. 
        transitivity (c + a * A + (x + a) * A + (x + a) * x * eval g x); [|ring].
        transitivity (c + x * A + (a * A + a * A) + x * (x + a) * eval g x); [|ring]. rewrite fadd_self. ring.
      * intros HZ i. cbn [nth]. assert (Zg : forall i, nth i g 0 = 0) by (intros j; apply (HZ (S j))).
        pose proof (Z Zg) as Zp. destruct i; [|apply Zp]. cbn [nth]. specialize (HZ 0%nat). cbn [nth] in HZ.
        rewrite eval_gsum in HZ. cbn [length] in HZ. rewrite gsum_S in HZ. rewrite gsum_0 in HZ.
        -- cbn [nth pw] in HZ. rewrite <- HZ. ring.
        -- intros j _. rewrite Zp. ring.
Qed.

(** A polynomial with as many distinct roots as coefficients is zero. *)
Lemma roots_zero : forall n p L, length p <= n -> length L = n -> NoDup L -> (forall x, In x L -> eval p x = 0) -> forall i, nth i p 0 = 0.
Proof.
  induction n; intros p L Hp HL HN HR i. { destruct p; [destruct i; auto|cbn [length] in Hp; lia]. }
  destruct L as [|a L]; [discriminate|]. inversion HN as [|? ? Ha HN']; subst. cbn [length] in HL.
  destruct (eval_div p a) as (g & Lg & E & Z). rewrite (HR a) in E by (left; auto).
  assert (G : forall i, nth i g 0 = 0).
  { apply (IHn g L); auto; [lia|]. intros x Hx. assert (X := HR x (or_intror Hx)). rewrite E, fadd_0 in X.
    destruct (fmul_eq0 _ _ X) as [C|]; auto. apply fadd_cancel in C. subst. contradiction. }
  pose proof (Z G) as Zp. destruct i; [|apply Zp].
  pose proof (HR a (or_introl eq_refl)) as R. rewrite eval_gsum in R. destruct p as [|c p]; auto.
  cbn [length] in R. rewrite gsum_S, gsum_0 in R. 2:{ intros j _. rewrite Zp. ring. } cbn [nth pw] in *. rewrite <- R. ring.
Qed.

Lemma roots_le : forall p L, NoDup L -> (forall x, In x L -> eval p x = 0) -> (exists i, nth i p 0 <> 0) -> length L < length p.
Proof.
  intros p L HN HR (i & Hi). destruct (le_lt_dec (length p) (length L)) as [H|]; auto. exfalso. apply Hi.
  apply (roots_zero (length L) p L); auto.
Qed.

End Field.
