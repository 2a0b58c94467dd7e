(** The Berlekamp-Massey iteration, in the tabular form used by the decoders, and what its
    result says about the error pattern. *)
From Coq Require Import List Arith Lia Bool Ring.
From Verif Require Import GField.
Import ListNotations.

Section BM.
Variable F : field.
Notation "0" := (f0 F).
Notation "1" := (f1 F).
Infix "+" := (fadd F).
Infix "*" := (fmul F).
Notation "/ x" := (finv F x).
Add Ring Fring2 : (Frt F).
Notation gsum := (gsum F).
Notation lsum := (lsum F).
Notation pw := (pw F).
Notation conv := (conv F).
Notation gen := (gen F).
Notation eval := (eval F).

(** Row [q] of the table: the recurrence after the syndromes 1..q-1. *)
Definition row_ok (s : nat -> F) (q : nat) (sg : nat -> F) (l : nat) : Prop :=
  sg 0%nat = 1 /\ (forall i, l < i -> sg i = 0) /\ l <= q - 1 /\ gen sg s l (q - 1).
Definition minimal (s : nat -> F) (n l : nat) : Prop := forall la v, la 0%nat = 1 -> gen la s v n -> l <= v.
Definition delta (i : nat) : F := match i with O => 1 | _ => 0 end.

Lemma row_0 : forall s, row_ok s 0 delta 0.
Proof. intros. unfold row_ok. repeat split; auto. - intros i Hi. destruct i; auto. lia. - intros k Hk. lia. Qed.
Lemma row_1 : forall s, row_ok s 1 delta 0.
Proof. intros. unfold row_ok. repeat split; auto. - intros i Hi. destruct i; auto. lia. - intros k Hk. lia. Qed.
Lemma minimal_1 : forall s n, minimal s n 0.
Proof. intros s n la v _ _. lia. Qed.

Lemma conv_more : forall sg s l l' k, l <= l' -> (forall i, l < i -> sg i = 0) -> conv sg s l' k = conv sg s l k.
Proof. intros sg s l l' k H H0. unfold conv. apply gsum_more; [lia|]. intros i Hi. rewrite H0 by lia. ring. Qed.

Lemma gen_weaken : forall sg s l n m, m <= n -> gen sg s l n -> gen sg s l m.
Proof. intros sg s l n m H G k Hk. apply G. lia. Qed.

(** Zero discrepancy: the row is kept. *)
Lemma row_keep : forall s u sg l, 1 <= u -> row_ok s u sg l -> conv sg s l u = 0 -> row_ok s (S u) sg l.
Proof.
  intros s u sg l Hu (H0 & Hs & Hl & G) D. unfold row_ok. repeat split; auto; [lia|]. intros k Hk.
  destruct (Nat.eq_dec k u). { subst. auto. } apply G. lia.
Qed.

(** Non-zero discrepancy: the row is combined with an earlier row [q]. *)
Definition newsg (sgu sgq : nat -> F) (c : F) (z i : nat) : F := sgu i + (if i <? z then 0 else c * sgq (i - z)%nat).

Lemma conv_new : forall s sgu sgq c z lu lq l k, lu <= l -> lq + z <= l -> z <= k ->
  (forall i, lu < i -> sgu i = 0) -> (forall i, lq < i -> sgq i = 0) ->
  conv (newsg sgu sgq c z) s l k = conv sgu s lu k + c * conv sgq s lq (k - z).
Proof.
  intros s sgu sgq c z lu lq l k H1 H2 Hz Hu Hq.
  rewrite <- (conv_more sgu s lu l) by auto. rewrite <- (conv_more sgq s lq (l - z)) by (auto; lia). unfold conv, newsg.
  transitivity (gsum (S l) (fun i => sgu i * s (k - i)%nat) + gsum (S l) (fun i => (if i <? z then 0 else c * sgq (i - z)%nat) * s (k - i)%nat)).
  { rewrite <- gsum_add. apply gsum_ext. intros. ring. }
  f_equal. replace (S l) with (z + S (l - z))%nat by lia. rewrite gsum_plus, gsum_0.
  - rewrite fadd_0, <- gsum_mul. apply gsum_ext. intros i Hi. destruct (Nat.ltb_spec (z + i) z); [lia|].
    replace (z + i - z)%nat with i by lia. replace (k - (z + i))%nat with (k - z - i)%nat by lia. ring.
  - intros i Hi. destruct (Nat.ltb_spec i z); [ring|lia].
Qed.

Lemma row_change : forall s u q sgu lu sgq lq dq, q < u -> row_ok s u sgu lu -> row_ok s q sgq lq ->
  (1 <= q -> dq = conv sgq s lq q) -> dq <> 0 ->
  row_ok s (S u) (newsg sgu sgq (conv sgu s lu u * / dq) (u - q)) (Nat.max lu (lq + (u - q))).
Proof.
  intros s u q sgu lu sgq lq dq Hq (U0 & Us & Ul & UG) (Q0 & Qs & Ql & QG) Hd Hd0. unfold row_ok. repeat split.
  - unfold newsg. destruct (Nat.ltb_spec 0 (u - q)); [|lia]. rewrite U0. ring.
  - intros i Hi. unfold newsg. rewrite Us by lia. destruct (Nat.ltb_spec i (u - q)); [ring|]. rewrite Qs by lia. ring.
  - lia.
  - replace (S u - 1)%nat with u by lia. intros k Hk. rewrite (conv_new s sgu sgq _ (u - q) lu lq) by (auto; lia).
    destruct (Nat.eq_dec k u) as [->|].
    + replace (u - (u - q))%nat with q by lia. rewrite <- Hd by lia.
      transitivity (conv sgu s lu u + conv sgu s lu u * (/ dq * dq)); [ring|]. rewrite finv_l by auto. rewrite fmul_1r. apply fadd_self.
    + rewrite (UG k) by lia. rewrite (QG (k - (u - q))%nat) by lia. ring.
Qed.

Lemma minimal_keep : forall s u l, 1 <= u -> minimal s (u - 1) l -> minimal s u l.
Proof. intros s u l Hu H la v H0 G. apply (H la v); auto. apply (gen_weaken la s v u); auto. lia. Qed.

Lemma minimal_change : forall s u sg l, 1 <= u -> row_ok s u sg l -> minimal s (u - 1) l -> conv sg s l u <> 0 ->
  minimal s u (Nat.max l (u - l)).
Proof.
  intros s u sg l Hu (H0 & Hs & Hl & G) HM D la v La GL. pose proof (minimal_keep s u l Hu HM la v La GL).
  assert (~ (l + v <= u - 1)); [|lia]. intros C. apply D. destruct u as [|n]; [lia|].
  apply (massey F sg la s l v n); auto; [|lia]. replace n with (S n - 1)%nat by lia. auto.
Qed.

(** * Error locations *)

(** Coefficients of the product of the 1 + X x. *)
Fixpoint locp (L : list F) (i : nat) : F :=
  match L with
  | [] => delta i
  | X :: L => locp L i + X * (match i with O => 0 | S j => locp L j end)
  end.

Lemma locp_0 : forall L, locp L 0 = 1.
Proof. induction L; cbn [locp]; auto. rewrite IHL. ring. Qed.
Lemma locp_deg : forall L i, length L < i -> locp L i = 0.
Proof.
  induction L; cbn [locp length]; intros i Hi. { destruct i; auto. lia. }
  destruct i; [lia|]. rewrite !IHL by lia. ring.
Qed.

(** sum over i of (coefficient i) x^(k-i): zero at the locators. *)
Lemma locp_shift : forall (p : nat -> F) n X x k, n < k -> (forall i, n < i -> p i = 0) ->
  gsum (S (S n)) (fun i => (p i + X * (match i with O => 0 | S j => p j end)) * pw x (k - i)) =
  (x + X) * gsum (S n) (fun i => p i * pw x (k - 1 - i)).
Proof.
  intros p n X x k Hk Hp.
  transitivity (gsum (S (S n)) (fun i => p i * pw x (k - i)) + gsum (S (S n)) (fun i => X * (match i with O => 0 | S j => p j end) * pw x (k - i))).
  { rewrite <- gsum_add. apply gsum_ext. intros. ring. }
  transitivity (x * gsum (S n) (fun i => p i * pw x (k - 1 - i)) + X * gsum (S n) (fun i => p i * pw x (k - 1 - i))); [|ring]. f_equal.
  - rewrite (gsum_more F (S n)) by (auto; intros; rewrite Hp by lia; ring). rewrite <- gsum_mul. apply gsum_ext. intros i Hi.
    replace (k - i)%nat with (S (k - 1 - i)) by lia. cbn [GField.pw]. ring.
  - rewrite gsum_S. rewrite <- gsum_mul. replace (X * 0 * pw x (k - 0)) with 0 by ring. rewrite fadd_0. apply gsum_ext. intros i Hi.
    replace (k - S i)%nat with (k - 1 - i)%nat by lia. ring.
Qed.

Lemma locp_root : forall L x k, In x L -> length L <= k -> gsum (S (length L)) (fun i => locp L i * pw x (k - i)) = 0.
Proof.
  induction L as [|X L IH]; intros x k Hx Hk; [contradiction|]. cbn [length] in *. cbn [locp].
  rewrite (locp_shift (locp L) (length L)) by (try lia; intros; apply locp_deg; lia).
  destruct Hx as [->|Hx]. { rewrite fadd_self. ring. } rewrite IH by (auto; lia). ring.
Qed.

(** Syndromes of the error values [e] at the locators [L]. *)
Definition psum (L : list F) (e : F -> F) (k : nat) : F := lsum L (fun x => e x * pw x k).

Lemma conv_psum : forall sg s L e l k, l < k -> (forall j, 1 <= j <= k -> s j = psum L e j) ->
  conv sg s l k = lsum L (fun x => e x * gsum (S l) (fun i => sg i * pw x (k - i))).
Proof.
  intros sg s L e l k Hk Hs. unfold conv.
  transitivity (gsum (S l) (fun i => lsum L (fun x => e x * (sg i * pw x (k - i))))).
  { apply gsum_ext. intros i Hi. rewrite Hs by lia. unfold psum. rewrite <- lsum_mul. apply lsum_ext. intros. ring. }
  rewrite <- lsum_gsum. apply lsum_ext. intros. apply gsum_mul.
Qed.

Lemma locp_gen : forall L e s n, (forall k, 1 <= k <= n -> s k = psum L e k) -> gen (locp L) s (length L) n.
Proof.
  intros L e s n Hs k Hk. rewrite (conv_psum _ _ L e) by (try lia; intros; apply Hs; lia). apply lsum_0. intros x Hx.
  rewrite locp_root by (auto; lia). ring.
Qed.

(** The value at [y] of the recurrence polynomial. *)
Definition rt (sg : nat -> F) (l : nat) (y : F) : F := gsum (S l) (fun i => sg i * pw y i).

Lemma rt_eval : forall sg l y, rt sg l y = eval (map sg (seq 0 (S l))) y.
Proof.
  intros. rewrite eval_gsum, map_length, seq_length. apply gsum_ext. intros i Hi.
  rewrite (nth_indep _ 0 (sg 0%nat)) by (rewrite map_length, seq_length; auto). rewrite map_nth, seq_nth by auto. auto.
Qed.

Lemma rt_rev : forall sg l x k, x <> 0 -> l <= k -> gsum (S l) (fun i => sg i * pw x (k - i)) = pw x k * rt sg l (/ x).
Proof.
  intros. unfold rt. rewrite <- gsum_mul. apply gsum_ext. intros i Hi. rewrite (pw_sub F x k i) by (auto; lia). ring.
Qed.

Lemma rt_roots : forall sg l R, sg 0%nat = 1 -> NoDup R -> (forall y, In y R -> rt sg l y = 0) -> length R <= l.
Proof.
  intros sg l R H0 HN HR. assert (length R < length (map sg (seq 0 (S l)))).
  { apply (roots_le F); auto. { intros x Hx. rewrite <- rt_eval. auto. } exists 0%nat. cbn [seq map nth]. rewrite H0. apply f10. }
  rewrite map_length, seq_length in H. lia.
Qed.

Lemma NoDup_inv : forall L : list F, NoDup L -> ~ In 0 L -> NoDup (map (finv F) L).
Proof.
  induction L as [|a L IH]; intros HN H0; [constructor|]. inversion HN; subst. cbn [map]. constructor.
  - rewrite in_map_iff. intros (y & E & Hy). assert (y = a); [|congruence].
    apply finv_inj; auto; intros ->; apply H0; [right|left]; auto.
  - apply IH; auto. intros C. apply H0. right. auto.
Qed.

(** At most t errors: the recurrence found has the inverses of the locators as its roots. *)
Lemma located : forall s t sg l L e, row_ok s (2 * t + 1) sg l -> minimal s (2 * t) l -> length L <= t ->
  NoDup L -> ~ In 0 L -> (forall x, In x L -> e x <> 0) -> (forall k, 1 <= k <= 2 * t -> s k = psum L e k) ->
  l = length L /\ forall y, y <> 0 -> (rt sg l y = 0 <-> In (/ y) L).
Proof.
  intros s t sg l L e (H0 & Hs & Hl & G) HM HL HN N0 He HS. replace (2 * t + 1 - 1)%nat with (2 * t)%nat in * by lia.
  assert (Hle : l <= length L). { apply (HM (locp L)); [apply locp_0|]. apply (locp_gen L e). auto. }
  assert (R : forall x, In x L -> rt sg l (/ x) = 0).
  { intros x Hx. assert (x0 : x <> 0) by (intros ->; contradiction).
    assert (E : e x * rt sg l (/ x) = 0).
    { apply (vandermonde_from F L (fun x => e x * rt sg l (/ x)) l (2 * t - l)); auto; [lia|].
      intros k Hk. rewrite <- (G k) by lia. rewrite (conv_psum _ _ L e) by (try lia; intros; apply HS; lia).
      apply lsum_ext. intros z Hz. rewrite rt_rev by (try lia; intros ->; contradiction). ring. }
    destruct (fmul_eq0 F _ _ E) as [C|]; auto. exfalso. exact (He x Hx C). }
  assert (HR : length L <= l).
  { rewrite <- (map_length (finv F) L). apply (rt_roots sg); auto. { apply NoDup_inv; auto. }
    intros y Hy. apply in_map_iff in Hy. destruct Hy as (x & <- & Hx). auto. }
  assert (El : l = length L) by lia. split; auto. intros y Hy. split.
  - intros Ry. destruct (in_dec (fdec F) (/ y) L) as [|C]; auto. exfalso.
    assert (length (y :: map (finv F) L) <= l); [|cbn [length] in H; rewrite map_length in H; lia].
    apply (rt_roots sg); auto.
    + constructor; [|apply NoDup_inv; auto]. rewrite in_map_iff. intros (x & E & Hx). apply C. subst y. rewrite finv_inv; auto.
      intros ->. contradiction.
    + intros z [<-|Hz]; auto. apply in_map_iff in Hz. destruct Hz as (x & <- & Hx). auto.
  - intros Hi. apply R in Hi. rewrite finv_inv in Hi; auto.
Qed.

Lemma filter_le : forall A (P : A -> bool) (l : list A), length (filter P l) <= length l.
Proof. induction l; cbn [filter length]; auto. destruct (P a); cbn [length]; lia. Qed.

(** Conversely, when the recurrence found has as many roots as its length, the syndromes are
    those of an error pattern at the inverses of the roots, with non-zero values. *)
Lemma decoded : forall s t sg l R, row_ok s (2 * t + 1) sg l -> minimal s (2 * t) l ->
  length R = l -> NoDup R -> ~ In 0 R -> (forall y, In y R -> rt sg l y = 0) ->
  exists e, (forall k, 1 <= k <= 2 * t -> s k = psum (map (finv F) R) e k) /\ forall x, In x (map (finv F) R) -> e x <> 0.
Proof.
  intros s t sg l R (H0 & Hs & Hl & G) HM HR HN N0 HRt. replace (2 * t + 1 - 1)%nat with (2 * t)%nat in * by lia.
  set (L := map (finv F) R). assert (LN : NoDup L) by (apply NoDup_inv; auto).
  assert (L0 : ~ In 0 L). { unfold L. rewrite in_map_iff. intros (y & E & Hy). revert E. apply finv_n0. intros ->. contradiction. }
  assert (LL : length L = l) by (unfold L; rewrite map_length; auto).
  destruct (interpolate F L s LN L0) as [e He]. exists e.
  assert (A : forall n k, 1 <= k <= n -> k <= 2 * t -> s k = psum L e k).
  { induction n; intros k Hk Hk2; [lia|]. destruct (Nat.eq_dec k (S n)) as [->|]; [|apply IHn; lia].
    destruct (le_lt_dec (S n) l) as [Hn|Hn]. { symmetry. apply He. lia. }
    pose proof (G (S n) ltac:(lia)) as E1. unfold conv in E1. rewrite gsum_S, H0, Nat.sub_0_r in E1.
    assert (E2 : conv sg (psum L e) l (S n) = 0).
    { rewrite (conv_psum _ _ L e) by auto. apply lsum_0. intros x Hx. rewrite rt_rev; [|intros ->; contradiction|lia].
      rewrite HRt; [ring|]. unfold L in Hx. apply in_map_iff in Hx. destruct Hx as (y & <- & Hy). rewrite finv_inv; auto. intros ->. contradiction. }
    unfold conv in E2. rewrite gsum_S, H0, Nat.sub_0_r in E2. apply fadd_cancel in E1. apply fadd_cancel in E2. rewrite fmul_1 in E1, E2. rewrite E1, E2.
    apply gsum_ext. intros i Hi. f_equal. apply IHn; lia. }
  assert (A' : forall k, 1 <= k <= 2 * t -> s k = psum L e k) by (intros k Hk; apply (A k); lia).
  split; auto. intros x Hx C.
  (* drop x *)
  set (L' := filter (fun z => if fdec F z x then false else true) L).
  assert (Hlen : length L' < length L).
  { unfold L'. clear -Hx. induction L as [|a L IH]; [contradiction|]. cbn [filter length]. destruct Hx as [->|Hx].
    - destruct (fdec F x x); [|contradiction]. pose proof (filter_le _ (fun z => if fdec F z x then false else true) L). lia.
    - specialize (IH Hx). destruct (fdec F a x); cbn [length]; lia. }
  assert (l <= length L'); [|lia]. apply (HM (locp L')); [apply locp_0|]. apply (locp_gen L' e). intros k Hk. rewrite A' by auto.
  unfold psum, L'. rewrite lsum_filter. apply lsum_ext. intros z Hz. destruct (fdec F z x); auto. subst. rewrite C. ring.
Qed.

(** * Error values *)

Fixpoint lprod (L : list F) (f : F -> F) : F := match L with [] => 1 | x :: L => f x * lprod L f end.
Definition rm (x : F) (L : list F) : list F := filter (fun z => if fdec F z x then false else true) L.

Lemma in_rm : forall x z L, In z (rm x L) <-> In z L /\ z <> x.
Proof. intros. unfold rm. rewrite filter_In. destruct (fdec F z x); split; intros (? & ?); split; auto; try discriminate; try contradiction. Qed.
Lemma rm_notin : forall x L, ~ In x L -> rm x L = L.
Proof.
  induction L as [|a L IH]; intros H; auto. unfold rm in *. cbn [filter]. destruct (fdec F a x). { subst. exfalso. apply H. left. auto. }
  f_equal. apply IH. intros C. apply H. right. auto.
Qed.
Lemma rm_length : forall x L, NoDup L -> In x L -> length L = S (length (rm x L)).
Proof.
  induction L as [|a L IH]; intros HN HI; [contradiction|]. inversion HN; subst. cbn [length]. f_equal. destruct HI as [->|HI].
  - unfold rm. cbn [filter]. destruct (fdec F x x); [|contradiction]. fold (rm x L). rewrite rm_notin; auto.
  - unfold rm. cbn [filter]. fold (rm x L). destruct (fdec F a x). { subst. contradiction. } cbn [length]. apply IH; auto.
Qed.
Lemma rm_NoDup : forall x L, NoDup L -> NoDup (x :: rm x L).
Proof. intros. constructor. { rewrite in_rm. tauto. } apply NoDup_filter. auto. Qed.

Lemma rt_locp : forall L y, rt (locp L) (length L) y = lprod L (fun X => 1 + X * y).
Proof.
  induction L as [|X L IH]; intros y. { unfold rt. cbn. ring. }
  cbn [length lprod]. rewrite <- IH. unfold rt. cbn [locp].
  transitivity (gsum (S (S (length L))) (fun i => locp L i * pw y i) + gsum (S (S (length L))) (fun i => X * (match i with O => 0 | S j => locp L j end) * pw y i)).
  { rewrite <- gsum_add. apply gsum_ext. intros. ring. }
  rewrite (gsum_more F (S (length L)) (S (S (length L))) (fun i => locp L i * pw y i)); [|lia|intros i Hi; rewrite locp_deg by lia; ring].
  rewrite (gsum_S F (S (length L)) (fun i => X * _ * _)).
  transitivity (gsum (S (length L)) (fun i => locp L i * pw y i) + X * y * gsum (S (length L)) (fun i => locp L i * pw y i)); [|ring].
  f_equal. rewrite <- gsum_mul. replace (X * 0 * pw y 0) with 0 by ring. rewrite fadd_0. apply gsum_ext. intros i Hi. cbn [GField.pw]. ring.
Qed.

Lemma lprod_0 : forall L f x, In x L -> f x = 0 -> lprod L f = 0.
Proof. induction L; intros f x HI H; [contradiction|]. cbn [lprod]. destruct HI as [->|HI]. { rewrite H. ring. } rewrite (IHL f x); auto. ring. Qed.
Lemma lprod_n0 : forall L f, (forall x, In x L -> f x <> 0) -> lprod L f <> 0.
Proof. induction L; intros f H; cbn [lprod]. { apply f10. } apply fmul_n0; [apply H; left; auto|]. apply IHL. intros. apply H. right. auto. Qed.

(** The recurrence polynomial is determined by its roots. *)
Lemma rt_unique : forall sg l L, sg 0%nat = 1 -> (forall i, l < i -> sg i = 0) -> length L = l -> NoDup L -> ~ In 0 L ->
  (forall x, In x L -> rt sg l (/ x) = 0) -> forall i, sg i = locp L i.
Proof.
  intros sg l L H0 Hs HL HN N0 HR i. destruct (le_lt_dec i l) as [Hi|Hi]. 2:{ rewrite Hs, locp_deg by (auto; lia). auto. }
  apply fadd_cancel. set (p := map (fun i => sg i + locp L i) (seq 0 (S l))).
  assert (E : nth i p 0 = sg i + locp L i).
  { unfold p. rewrite (nth_indep _ 0 (sg 0%nat + locp L 0)) by (rewrite map_length, seq_length; lia).
    rewrite (map_nth (fun i => sg i + locp L i)), seq_nth by lia. auto. }
  rewrite <- E. apply (roots_zero F (S l) p (0 :: map (finv F) L)).
  - unfold p. rewrite map_length, seq_length. auto.
  - cbn [length]. rewrite map_length. lia.
  - constructor; [|apply NoDup_inv; auto]. rewrite in_map_iff. intros (x & Ex & Hx). revert Ex. apply finv_n0. intros ->. contradiction.
  - intros x Hx. unfold p. rewrite <- (rt_eval (fun i => sg i + locp L i)). unfold rt. destruct Hx as [<-|Hx].
    + rewrite gsum_S. rewrite gsum_0. { rewrite H0, locp_0, fadd_self. ring. } intros j _. cbn [GField.pw]. ring.
    + apply in_map_iff in Hx. destruct Hx as (z & <- & Hz).
      transitivity (rt sg l (/ z) + rt (locp L) l (/ z)).
      { unfold rt. rewrite <- gsum_add. apply gsum_ext. intros. ring. }
      rewrite HR by auto. rewrite <- HL, rt_locp. rewrite (lprod_0 L _ z); auto; [ring|]. rewrite finv_r. apply fadd_self. intros ->. contradiction.
Qed.

Lemma telescope : forall (p : nat -> F) X i, gsum i (fun b => (p (i - S b)%nat + X * (match (i - S b)%nat with O => 0 | S j => p j end)) * pw X (S b)) = match i with O => 0 | S j => X * p j end.
Proof.
  induction i as [|i IH]; auto. rewrite gsum_S. replace (S i - 1)%nat with i by lia.
  assert (E : gsum i (fun b => (p (S i - S (S b))%nat + X * (match (S i - S (S b))%nat with O => 0 | S j => p j end)) * pw X (S (S b))) = X * match i with O => 0 | S j => X * p j end).
  { rewrite <- IH, <- gsum_mul. apply gsum_ext. intros b Hb. replace (S i - S (S b))%nat with (i - S b)%nat by lia. cbn [GField.pw]. ring. }
  rewrite E. cbn [GField.pw]. destruct i as [|j]; [ring|].
  transitivity (X * p (S j) + (X * X * p j + X * X * p j)); [ring|]. rewrite fadd_self. ring.
Qed.

(** Forney's formula, in the form of the decoder. *)
Definition zpoly (sg s : nat -> F) (i : nat) : F := match i with O => 1 | _ => s i + sg i + gsum (i - 1) (fun j => sg (i - S j)%nat * s (S j)) end.

Lemma forney : forall sg l s L e X, sg 0%nat = 1 -> (forall i, l < i -> sg i = 0) -> length L = l -> NoDup L -> ~ In 0 L ->
  (forall x, In x L -> rt sg l (/ x) = 0) -> (forall k, 1 <= k <= l -> s k = psum L e k) -> In X L ->
  rt (zpoly sg s) l (/ X) = e X * lprod (rm X L) (fun Y => 1 + Y * / X).
Proof.
  intros sg l s L e X H0 Hs HL HN N0 HR HS HX. set (y := / X).
  assert (X0 : X <> 0) by (intros ->; contradiction).
  assert (Z : forall i, i <= l -> zpoly sg s i = sg i + lsum L (fun x => e x * gsum i (fun b => sg (i - S b)%nat * pw x (S b)))).
  { intros i Hi. destruct i as [|i].
    - cbn [zpoly]. rewrite H0, lsum_0; [ring|]. intros. cbn [GField.gsum]. ring.
    - cbn [zpoly]. replace (S i - 1)%nat with i by lia.
      transitivity (sg (S i) + gsum (S i) (fun b => sg (S i - S b)%nat * s (S b))).
      { cbn [GField.gsum]. rewrite Nat.sub_diag, H0. ring. }
      f_equal. transitivity (gsum (S i) (fun b => lsum L (fun x => e x * (sg (S i - S b)%nat * pw x (S b))))).
      + apply gsum_ext. intros b Hb. rewrite HS by lia. unfold psum. rewrite <- lsum_mul. apply lsum_ext. intros. ring.
      + rewrite <- lsum_gsum. apply lsum_ext. intros. apply gsum_mul. }
  unfold rt. transitivity (rt sg l y + lsum L (fun x => e x * gsum (S l) (fun i => gsum i (fun b => sg (i - S b)%nat * pw x (S b)) * pw y i))).
  { transitivity (gsum (S l) (fun i => sg i * pw y i + lsum L (fun x => e x * (gsum i (fun b => sg (i - S b)%nat * pw x (S b)) * pw y i)))).
    - apply gsum_ext. intros i Hi. rewrite Z by lia.
      transitivity (sg i * pw y i + pw y i * lsum L (fun x => e x * gsum i (fun b => sg (i - S b)%nat * pw x (S b)))); [ring|]. f_equal.
      rewrite <- lsum_mul. apply lsum_ext. intros. ring.
    - rewrite gsum_add. f_equal. rewrite <- lsum_gsum. apply lsum_ext. intros. apply gsum_mul. }
  replace (rt sg l y) with 0 by (symmetry; apply HR; auto). rewrite fadd_0.
  assert (T : forall x, In x L -> gsum (S l) (fun i => gsum i (fun b => sg (i - S b)%nat * pw x (S b)) * pw y i) = x * y * lprod (rm x L) (fun Y => 1 + Y * y)).
  { intros x Hx. assert (U : forall i, sg i = locp (x :: rm x L) i).
    { apply (rt_unique sg l); auto.
      - cbn [length]. rewrite <- HL. symmetry. apply rm_length; auto.
      - apply rm_NoDup; auto.
      - intros [C|C]. { subst. contradiction. } apply in_rm in C. tauto.
      - intros z [<-|Hz]; auto. apply in_rm in Hz. apply HR. tauto. }
    rewrite <- rt_locp. rewrite gsum_S.
    match goal with |- ?a + _ = _ => replace a with 0 by (cbn [GField.gsum GField.pw]; ring) end. rewrite fadd_0. unfold rt.
    assert (El : l = S (length (rm x L))) by (rewrite <- HL; apply rm_length; auto). rewrite El, <- gsum_mul. apply gsum_ext. intros i Hi.
    transitivity (gsum (S i) (fun b => (locp (rm x L) (S i - S b)%nat + x * (match (S i - S b)%nat with O => 0 | S j => locp (rm x L) j end)) * pw x (S b)) * pw y (S i)).
    - f_equal. apply gsum_ext. intros b Hb. rewrite U. cbn [locp]. auto.
    - rewrite telescope. cbn [GField.pw]. ring. }
  rewrite (lsum_one F _ L _ X); auto.
  - rewrite T by auto. unfold y. rewrite finv_r by auto. ring.
  - intros x Hx Hne. rewrite T by auto. rewrite (lprod_0 (rm x L) _ X); [ring|apply in_rm; auto|]. unfold y. rewrite finv_r by auto. apply fadd_self.
Qed.

End BM.
