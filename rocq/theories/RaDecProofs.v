(** The decoder of repeat-accumulate codes: its loops, and why they compute the max-log LLRs. *)
From Coq Require Import List Arith Lia Bool ZArith QArith Qabs Qminmax Permutation Lqa.
From Verif Require Import Base WLoops LDPCBPModel LDPCBPSpec LDPCBPProofs GalProofs FlipSpec FlipProofs RaDecModel RaDecSpec.
Import ListNotations.
Local Open Scope nat_scope.

(* ------------------------------------------------------------------ *)
(** * The check node *)

Lemma check_id : forall a b, (check_node a b == Qmax (a + b) 0 - Qmax a b)%Q.
Proof.
  intros a b. unfold check_node, ra_sign.
  destruct (qltb_spec 0 a) as [[-> A]|[-> A]], (qltb_spec 0 b) as [[-> B]|[-> B]]; cbn [Z.eqb negb Pos.eqb];
  destruct (qltb_spec (Qabs b) (Qabs a)) as [[-> C]|[-> C]];
  destruct (Q.max_spec (a + b) 0) as [[D ->]|[D ->]], (Q.max_spec a b) as [[E ->]|[E ->]];
  rewrite ?(Qabs_pos a), ?(Qabs_pos b), ?(Qabs_neg a), ?(Qabs_neg b) in * by lra; lra.
Qed.
Lemma check_compat : forall a a' b b', (a == a')%Q -> (b == b')%Q -> (check_node a b == check_node a' b')%Q.
Proof. intros a a' b b' A B. rewrite !check_id, A, B. reflexivity. Qed.
Lemma check_comm : forall a b, (check_node a b == check_node b a)%Q.
Proof. intros a b. rewrite !check_id, (Q.max_comm a b), (Qplus_comm a b). reflexivity. Qed.

(* ------------------------------------------------------------------ *)
(** * What the loops compute *)

Lemma rd_tab : forall A (f : nat -> A) n i, i < n -> rd (tab n f) i = Ret (f i).
Proof. intros A f n i Hi. rewrite (rd_ok _ (f 0)) by (rewrite length_tab; auto). rewrite nth_tab by auto. auto. Qed.
Lemma is_tab : forall A (d : A) (l : list A) n f, length l = n -> (forall i, i < n -> nth i l d = f i) -> l = tab n f.
Proof. intros A d l n f L E. apply (list_eq_nth _ d); [rewrite length_tab; auto|]. intros i Hi. rewrite nth_tab by lia. apply E. lia. Qed.

Section Values.
Variables (N : nat) (a y : nat -> Q).
Fixpoint Fv (i : nat) : Q := match i with 0 => a 0 | S j => check_node (Fv j + y j)%Q (a (S j)) end.
Fixpoint Bk (k : nat) : Q := match k with 0 => check_node (y (N - 1)) (a (N - 1)) | S k => check_node (Bk k + y (N - 2 - k))%Q (a (N - 2 - k)) end.
Definition Bv (i : nat) : Q := Bk (N - 2 - i).
Definition Ev (i : nat) : Q :=
  if i =? 0 then (Bv 0 + y 0)%Q else if i =? N - 1 then check_node (y (N - 1)) (y (N - 2) + Fv (N - 2))%Q else check_node (Fv (i - 1) + y (i - 1))%Q (Bv i + y i)%Q.

Variables (Y : list Q).
Hypothesis N2 : 2 <= N.
Hypothesis LY : N <= length Y.
Hypothesis VY : forall i, i < N -> nth i Y 0%Q = y i.

Lemma rd_Y : forall i, i < N -> rd Y i = Ret (y i).
Proof. intros i Hi. rewrite (rd_ok _ 0%Q) by lia. rewrite VY by auto. auto. Qed.
Lemma forward_ok : forall Fw, length Fw = N -> ra_forward N Y (tab N a) Fw = Ret (tab N Fv).
Proof.
  intros Fw L. unfold ra_forward. rewrite rd_tab by lia. cbn [bind]. rewrite wr_ok by lia. cbn [bind].
  match goal with |- for_ _ ?bb ?ss = _ => destruct (for_inv _ (fun k F => length F = N /\ forall j, j <= k -> nth j F 0%Q = Fv j) (N - 1) bb ss) as (F & E & LF & V) end.
  - rewrite length_upd. split; auto. intros j Hj. replace j with 0 by lia. rewrite nth_upd by lia. auto.
  - intros k F Hk (LF & V). cbv zeta. replace (k + 1 - 1) with k by lia. rewrite (rd_ok _ 0%Q F) by lia. cbn [bind]. rewrite rd_Y by lia. cbn [bind]. rewrite rd_tab by lia. cbn [bind]. rewrite wr_ok by lia. eexists. split; [reflexivity|]. rewrite length_upd. split; auto.
    intros j Hj. rewrite nth_upd by lia. destruct (Nat.eqb_spec j (k + 1)) as [->|NE]; [|apply V; lia]. rewrite V by lia. replace (k + 1) with (S k) by lia. auto.
  - rewrite E. f_equal. apply (is_tab _ 0%Q); auto. intros i Hi. apply V. lia.
Qed.
Lemma backward_ok : forall Bw, length Bw = N -> exists Bw', ra_backward N Y (tab N a) Bw = Ret Bw' /\ length Bw' = N /\ forall i, i < N - 1 -> nth i Bw' 0%Q = Bv i.
Proof.
  intros Bw L. unfold ra_backward. destruct (Nat.ltb_spec N 2); [lia|]. rewrite rd_Y by lia. cbn [bind]. rewrite rd_tab by lia. cbn [bind]. rewrite wr_ok by lia. cbn [bind].
  match goal with |- context [for_ _ ?bb ?ss] => destruct (for_inv _ (fun k F => length F = N /\ forall j, j <= k -> nth (N - 2 - j) F 0%Q = Bk j) (N - 2) bb ss) as (F & E & LF & V) end.
  - rewrite length_upd. split; auto. intros j Hj. replace j with 0 by lia. rewrite nth_upd by lia. rewrite Nat.sub_0_r, Nat.eqb_refl. auto.
  - intros k F Hk (LF & V). cbv zeta. replace (N - 3 - k + 1) with (N - 2 - k) by lia. rewrite (rd_ok _ 0%Q F) by lia. cbn [bind]. rewrite rd_Y by lia. cbn [bind]. rewrite rd_tab by lia. cbn [bind]. rewrite wr_ok by lia. eexists. split; [reflexivity|]. rewrite length_upd. split; auto.
    intros j Hj. rewrite nth_upd by lia. destruct (Nat.eq_dec j (S k)) as [->|NE].
    + replace (N - 2 - S k =? N - 3 - k) with true by (symmetry; apply Nat.eqb_eq; lia). rewrite V by lia. auto.
    + replace (N - 2 - j =? N - 3 - k) with false by (symmetry; apply Nat.eqb_neq; lia). apply V. lia.
  - exists F. split; auto. split; auto. intros i Hi. unfold Bv. rewrite <- V by lia. f_equal. lia.
Qed.
Lemma extrinsic_ok : forall Fw Bw Tu, Fw = tab N Fv -> length Bw = N -> (forall i, i < N - 1 -> nth i Bw 0%Q = Bv i) -> length Tu = N -> ra_extrinsic N Y Fw Bw Tu = Ret (tab N Ev).
Proof.
  intros Fw Bw Tu -> LB VB L. unfold ra_extrinsic. rewrite (rd_ok _ 0%Q Bw) by lia. cbn [bind]. rewrite VB by lia. rewrite !rd_Y by lia. cbn [bind]. rewrite wr_ok by lia. cbn [bind]. rewrite rd_tab by lia. cbn [bind]. rewrite wr_ok by (rewrite length_upd; lia). cbn [bind].
  match goal with |- for_ _ ?bb ?ss = _ => destruct (for_inv _ (fun k F => length F = N /\ nth (N - 1) F 0%Q = Ev (N - 1) /\ forall j, j <= k -> j < N - 1 -> nth j F 0%Q = Ev j) (N - 2) bb ss) as (F & E & LF & VN & V) end.
  - rewrite !length_upd. split; auto. rewrite !nth_upd by (rewrite ?length_upd; lia). rewrite Nat.eqb_refl. split.
    + unfold Ev. replace (N - 1 =? 0) with false by (symmetry; apply Nat.eqb_neq; lia). rewrite Nat.eqb_refl. auto.
    + intros j Hj Hj'. replace j with 0 by lia. rewrite !nth_upd by (rewrite ?length_upd; lia). replace (0 =? N - 1) with false by (symmetry; apply Nat.eqb_neq; lia). auto.
  - intros k F Hk (LF & VN & V). cbv zeta. replace (k + 1 - 1) with k by lia. rewrite rd_tab by lia. cbn [bind]. rewrite !rd_Y by lia. cbn [bind]. rewrite (rd_ok _ 0%Q Bw) by lia. cbn [bind]. rewrite VB by lia. rewrite wr_ok by lia. eexists. split; [reflexivity|]. rewrite length_upd. split; auto. split.
    + rewrite nth_upd by lia. replace (N - 1 =? k + 1) with false by (symmetry; apply Nat.eqb_neq; lia). auto.
    + intros j Hj Hj'. rewrite nth_upd by lia. destruct (Nat.eqb_spec j (k + 1)) as [->|NE]; [|apply V; lia]. unfold Ev. replace (k + 1 =? 0) with false by (symmetry; apply Nat.eqb_neq; lia). replace (k + 1 =? N - 1) with false by (symmetry; apply Nat.eqb_neq; lia). replace (k + 1 - 1) with k by lia. auto.
  - rewrite E. f_equal. apply (is_tab _ 0%Q); auto. intros i Hi. destruct (Nat.eq_dec i (N - 1)) as [->|NE]; auto. apply V; lia.
Qed.
End Values.

Lemma permute_ok : forall lut f n out, length out = length lut -> Forall (fun p => p < n) lut -> permute lut (tab n f) out = Ret (tab (length lut) (fun i => f (nth i lut 0))).
Proof.
  intros lut f n out L FA. unfold permute. apply (fill Q 0%Q); auto. intros i x Hi Lx. rewrite (rd_ok _ 0) by auto. cbn [bind]. rewrite rd_tab by (rewrite Forall_forall in FA; apply FA, nth_In; auto). auto.
Qed.

Definition csum (w : nat -> Q) (rep k : nat) : Q := fold_left (fun s j => (s + w (k * rep + j)%nat)%Q) (seq 0 rep) 0%Q.
Lemma combine_ok : forall K rep w Wd U, 0 < rep -> length Wd = K * rep -> length U = K ->
  ra_combine K rep (tab (K * rep) w) Wd U = Ret (tab (K * rep) (fun p => (csum w rep (p / rep) - w p)%Q), tab K (csum w rep)).
Proof.
  intros K rep w Wd U R LW LU. unfold ra_combine.
  match goal with |- for_ _ ?bb ?ss = _ => destruct (for_inv _ (fun k '(D, U) => length D = K * rep /\ length U = K /\ (forall p, p < k * rep -> nth p D 0%Q = (csum w rep (p / rep)%nat - w p)%Q) /\ forall i, i < k -> nth i U 0%Q = csum w rep i) K bb ss) as ((D & U') & E & LD & LU' & VD & VU) end.
  - split; auto. split; auto. split; intros; lia.
  - intros k [D U'] Hk (LD & LU' & VD & VU).
    assert (BD : forall j, j < rep -> k * rep + j < K * rep) by (intros j Hj; assert (S k * rep <= K * rep) by (apply Nat.mul_le_mono_r; lia); lia).
    assert (ES : for_ rep (fun j tmp => x <- rd (tab (K * rep) w) (k * rep + j) ;; Ret (tmp + x)%Q) 0%Q = Ret (csum w rep k)).
    { assert (FL := for_list Q (seq 0 rep) (fun s j => (s + w (k * rep + j)%nat)%Q) (fun j tmp => x <- rd (tab (K * rep) w) (k * rep + j) ;; Ret (tmp + x)%Q) 0%Q). rewrite seq_length in FL. apply FL. intros j s Hj. rewrite rd_tab by auto. rewrite seq_nth by auto. reflexivity. }
    rewrite ES. cbn [bind].
    match goal with |- context [for_ rep ?bb D] => destruct (for_inv _ (fun j D => length D = K * rep /\ forall p, p < k * rep + j -> nth p D 0%Q = (csum w rep (p / rep)%nat - w p)%Q) rep bb D) as (D2 & E2 & LD2 & VD2) end.
    + split; auto. intros p Hp. apply VD. lia.
    + intros j D2 Hj (LD2 & VD2). rewrite rd_tab by auto. cbn [bind]. rewrite wr_ok by (rewrite LD2; auto). eexists. split; [reflexivity|]. rewrite length_upd. split; auto. intros p Hp. rewrite nth_upd by (rewrite LD2; auto).
      destruct (Nat.eqb_spec p (k * rep + j)) as [->|NE]; [|apply VD2; lia]. replace ((k * rep + j) / rep) with k; auto. symmetry. rewrite Nat.mul_comm, (Nat.mul_comm rep). rewrite Nat.div_add_l by lia. rewrite Nat.div_small by auto. lia.
    + rewrite E2. cbn [bind]. rewrite wr_ok by lia. cbn [bind]. eexists. split; [reflexivity|]. cbv beta iota. rewrite length_upd. split; auto. split; auto. split.
      * intros p Hp. apply VD2. cbn [Nat.mul] in Hp. lia.
      * intros i Hi. rewrite nth_upd by lia. destruct (Nat.eqb_spec i k) as [->|NE]; auto. apply VU. lia.
  - rewrite E. f_equal. f_equal; apply (is_tab _ 0%Q); auto.
Qed.

(* ------------------------------------------------------------------ *)
(** * The max-log LLRs *)

Section MaxLog.
Variables (N : nat) (a y : nat -> Q).
Hypothesis N2 : 2 <= N.
Let term (u : nat -> bool) (j : nat) : Q := (gain (u j) (a j) + gain (acc u j) (y j))%Q.
Let Sm (n : nat) (u : nat -> bool) : Q := qtotal (map (term u) (seq 0 n)).
Let Rm (k : nat) (u : nat -> bool) : Q := qtotal (map (term u) (seq (N - k) k)).

Lemma qtotal_app : forall l l', (qtotal (l ++ l') == qtotal l + qtotal l')%Q.
Proof. intros l l'. unfold qtotal. induction l; cbn [app fold_right]; [lra|]. rewrite IHl. lra. Qed.
Lemma Sm_S : forall n u, (Sm (S n) u == Sm n u + term u n)%Q.
Proof. intros n u. unfold Sm. rewrite seq_S, map_app, qtotal_app. cbn [map Nat.add]. unfold qtotal at 2. cbn [fold_right]. lra. Qed.
Lemma acc_ext : forall u u' i, (forall j, j <= i -> u j = u' j) -> acc u i = acc u' i.
Proof. intros u u' i E. induction i; cbn [acc]; [apply E; lia|]. rewrite IHi, E by auto. auto. Qed.
Lemma Sm_ext : forall n u u', (forall j, j < n -> u j = u' j) -> Sm n u = Sm n u'.
Proof. intros n u u' E. unfold Sm. f_equal. apply map_ext_in. intros j I. apply in_seq in I. unfold term. rewrite E by lia. rewrite (acc_ext u u') by (intros; apply E; lia). auto. Qed.
Lemma Rm_S : forall k u, k < N -> (Rm (S k) u == term u (N - 1 - k) + Rm k u)%Q.
Proof. intros k u Hk. unfold Rm. cbn [seq map]. replace (S (N - S k)) with (N - k) by lia. replace (N - 1 - k) with (N - S k) by lia. unfold qtotal at 1. cbn [fold_right]. reflexivity. Qed.
Lemma metric_split : forall k u, k <= N -> (metric N a y u == Sm (N - k) u + Rm k u)%Q.
Proof.
  intros k u Hk. unfold metric, Sm, Rm. rewrite <- qtotal_app, <- map_app. replace (seq 0 (N - k) ++ seq (N - k) k) with (seq 0 N); [reflexivity|]. replace N with ((N - k) + k) at 1 by lia. rewrite seq_app. auto.
Qed.
Definition flip_at (u : nat -> bool) (i : nat) (b : bool) : nat -> bool := fun j => if j =? i then b else u j.
Lemma flip_below : forall u i b j, j < i -> flip_at u i b j = u j.
Proof. intros u i b j L. unfold flip_at. replace (j =? i) with false by (symmetry; apply Nat.eqb_neq; lia). auto. Qed.
Lemma flip_here : forall u i b, flip_at u i b i = b.
Proof. intros. unfold flip_at. rewrite Nat.eqb_refl. auto. Qed.

(** Forward: the best metric of the inputs up to i that lead to the sum s. *)
Fixpoint Am (i : nat) (s : bool) : Q :=
  match i with
  | 0 => gain s (a 0)
  | S j => Qmax (Am j s + gain s (y j) + a (S j))%Q (Am j (negb s) + gain (negb s) (y j))%Q
  end.
Lemma Am_le : forall i u, (Sm i u + gain (u i) (a i) <= Am i (acc u i))%Q.
Proof.
  induction i; intros u; cbn [Am acc].
  - unfold Sm, qtotal. cbn. lra.
  - specialize (IHi u). rewrite Sm_S. unfold term. destruct (u (S i)).
    + rewrite xorb_true_r, negb_involutive. cbn [gain]. eapply Qle_trans; [|apply Q.le_max_r]. lra.
    + rewrite xorb_false_r. cbn [gain]. eapply Qle_trans; [|apply Q.le_max_l]. lra.
Qed.
Lemma Am_att : forall i s, exists u, acc u i = s /\ (Sm i u + gain (u i) (a i) == Am i s)%Q.
Proof.
  induction i; intros s; cbn [Am acc].
  - exists (fun _ => s). split; auto. unfold Sm, qtotal. cbn. lra.
  - assert (K : forall b, exists u, xorb (acc u i) (u (S i)) = s /\ (Sm (S i) u + gain (u (S i)) (a (S i)) == Am i (xorb s b) + gain (xorb s b) (y i) + gain b (a (S i)))%Q).
    { intros b. destruct (IHi (xorb s b)) as (u & EA & ES). exists (flip_at u (S i) b). rewrite flip_here. rewrite (acc_ext _ u) by (intros; apply flip_below; lia). split; [rewrite EA; destruct s, b; auto|].
      rewrite (Sm_ext (S i) _ u) by (intros; apply flip_below; lia). rewrite Sm_S. unfold term. rewrite EA. lra. }
    destruct (Q.max_spec (Am i s + gain s (y i) + a (S i)) (Am i (negb s) + gain (negb s) (y i))) as [[_ E]|[_ E]].
    + destruct (K true) as (u & EA & ES). exists u. split; auto. rewrite E, ES. rewrite xorb_true_r. cbn [gain]. lra.
    + destruct (K false) as (u & EA & ES). exists u. split; auto. rewrite E, ES. rewrite xorb_false_r. cbn [gain]. lra.
Qed.
Lemma Fv_Am : forall i, (Fv a y i == Am i false - Am i true)%Q.
Proof.
  induction i; cbn [Fv Am].
  - cbn [gain]. lra.
  - rewrite check_id. cbn [negb gain].
    destruct (Q.max_spec (Fv a y i + y i + a (S i)) 0) as [[A ->]|[A ->]], (Q.max_spec (Fv a y i + y i) (a (S i))) as [[B ->]|[B ->]], (Q.max_spec (Am i false + y i + a (S i)) (Am i true + 0)) as [[C ->]|[C ->]], (Q.max_spec (Am i true + 0 + a (S i)) (Am i false + y i)) as [[D ->]|[D ->]]; lra.
Qed.

(** Backward: the best metric of the last k inputs after the sum s. *)
Fixpoint Bs (k : nat) (s : bool) : Q :=
  match k with
  | 0 => 0%Q
  | S k => Qmax (a (N - 1 - k) + gain s (y (N - 1 - k)) + Bs k s)%Q (gain (negb s) (y (N - 1 - k)) + Bs k (negb s))%Q
  end.
Lemma Bs_le : forall k u, k < N -> (Rm k u <= Bs k (acc u (N - 1 - k)))%Q.
Proof.
  induction k; intros u Hk; cbn [Bs].
  - unfold Rm, qtotal. cbn. lra.
  - specialize (IHk u ltac:(lia)). rewrite Rm_S by lia. unfold term. assert (EA : acc u (N - 1 - k) = xorb (acc u (N - 1 - S k)) (u (N - 1 - k))) by (replace (N - 1 - k) with (S (N - 1 - S k)) by lia; reflexivity).
    rewrite EA in *. destruct (u (N - 1 - k)).
    + rewrite xorb_true_r in *. cbn [gain] in *. eapply Qle_trans; [|apply Q.le_max_r]. lra.
    + rewrite xorb_false_r in *. cbn [gain] in *. eapply Qle_trans; [|apply Q.le_max_l]. lra.
Qed.
Lemma Bs_att : forall k u, k < N -> exists u', (forall j, j <= N - 1 - k -> u' j = u j) /\ (Rm k u' == Bs k (acc u (N - 1 - k)))%Q.
Proof.
  induction k; intros u Hk; cbn [Bs].
  - exists u. split; auto. unfold Rm, qtotal. cbn. lra.
  - set (i := N - 1 - S k). assert (EI : N - 1 - k = S i) by (unfold i; lia). set (s := acc u i).
    assert (K : forall b, exists u', (forall j, j <= i -> u' j = u j) /\ (Rm (S k) u' == gain b (a (S i)) + gain (xorb s b) (y (S i)) + Bs k (xorb s b))%Q).
    { intros b. destruct (IHk (flip_at u (S i) b) ltac:(lia)) as (u' & E & ER). rewrite EI in *. assert (EA : acc (flip_at u (S i) b) (S i) = xorb s b). { cbn [acc]. rewrite flip_here. rewrite (acc_ext _ u) by (intros; apply flip_below; lia). auto. }
      exists u'. split; [intros j Hj; rewrite E by lia; apply flip_below; lia|]. rewrite Rm_S by lia. rewrite ER, EI. unfold term. rewrite (acc_ext u' (flip_at u (S i) b)) by (intros; apply E; lia). rewrite EA, E by lia. rewrite flip_here. lra. }
    rewrite EI. destruct (Q.max_spec (a (S i) + gain s (y (S i)) + Bs k s) (gain (negb s) (y (S i)) + Bs k (negb s))) as [[_ E]|[_ E]].
    + destruct (K true) as (u' & EJ & ER). exists u'. split; auto. rewrite E, ER. rewrite xorb_true_r. cbn [gain]. lra.
    + destruct (K false) as (u' & EJ & ER). exists u'. split; auto. rewrite E, ER. rewrite xorb_false_r. cbn [gain]. lra.
Qed.
Lemma Bk_Bs : forall k, S k < N -> (Bk N a y k == Bs (S k) false - Bs (S k) true)%Q.
Proof.
  induction k; intros Hk.
  - cbn [Bk Bs]. rewrite Nat.sub_0_r. cbn [gain negb]. rewrite check_id.
    destruct (Q.max_spec (y (N - 1) + a (N - 1)) 0) as [[A ->]|[A ->]], (Q.max_spec (y (N - 1)) (a (N - 1))) as [[B ->]|[B ->]], (Q.max_spec (a (N - 1) + y (N - 1) + 0) (0 + 0)) as [[C ->]|[C ->]], (Q.max_spec (a (N - 1) + 0 + 0) (y (N - 1) + 0)) as [[D ->]|[D ->]]; lra.
  - specialize (IHk ltac:(lia)). set (b := Bk N a y k) in *. change (Bk N a y (S k)) with (check_node (b + y (N - 2 - k)) (a (N - 2 - k)))%Q. set (P0 := Bs (S k) false) in *. set (P1 := Bs (S k) true) in *.
    change (Bs (S (S k)) false) with (Qmax (a (N - 1 - S k)%nat + gain false (y (N - 1 - S k)%nat) + P0) (gain (negb false) (y (N - 1 - S k)%nat) + P1)). change (Bs (S (S k)) true) with (Qmax (a (N - 1 - S k)%nat + gain true (y (N - 1 - S k)%nat) + P1) (gain (negb true) (y (N - 1 - S k)%nat) + P0)).
    replace (N - 1 - S k) with (N - 2 - k) by lia. cbn [gain negb]. rewrite check_id. generalize (y (N - 2 - k)) (a (N - 2 - k)). intros yy aa.
    destruct (Q.max_spec (b + yy + aa) 0) as [[A ->]|[A ->]], (Q.max_spec (b + yy) aa) as [[B ->]|[B ->]], (Q.max_spec (aa + yy + P0) (0 + P1)) as [[C ->]|[C ->]], (Q.max_spec (aa + 0 + P1) (yy + P0)) as [[D ->]|[D ->]]; lra.
Qed.

(** The best metric with input i equal to b. *)
Definition Mm (i : nat) (b : bool) : Q :=
  match i with
  | 0 => (gain b (a 0) + gain b (y 0) + Bs (N - 1) b)%Q
  | S j => let v s := (Am j s + gain s (y j) + gain b (a i) + gain (xorb s b) (y i) + Bs (N - 1 - i) (xorb s b))%Q in Qmax (v false) (v true)
  end.
Lemma Mm_best : forall i b, i < N -> best N a y (fun u => u i = b) (Mm i b).
Proof.
  intros i b Hi. unfold Mm. destruct i as [|j].
  - split.
    + destruct (Bs_att (N - 1) (fun _ => b) ltac:(lia)) as (u & E & ER). replace (N - 1 - (N - 1)) with 0 in * by lia. exists u. rewrite (E 0) by lia. split; auto. rewrite (metric_split (N - 1)) by lia. rewrite ER. cbn [acc]. replace (N - (N - 1)) with 1 by lia. rewrite Sm_S. unfold Sm, qtotal, term. cbn [seq map fold_right acc]. rewrite (E 0) by lia. lra.
    + intros u <-. rewrite (metric_split (N - 1)) by lia. assert (K := Bs_le (N - 1) u ltac:(lia)). replace (N - 1 - (N - 1)) with 0 in K by lia. cbn [acc] in K. replace (N - (N - 1)) with 1 by lia. rewrite Sm_S. unfold Sm at 1, qtotal, term. cbn [seq map fold_right acc]. lra.
  - set (v := fun s => (Am j s + gain s (y j) + gain b (a (S j)) + gain (xorb s b) (y (S j)) + Bs (N - 1 - S j) (xorb s b))%Q). change (best N a y (fun u => u (S j) = b) (Qmax (v false) (v true))). split.
    + assert (K : forall s, exists u, u (S j) = b /\ (metric N a y u == v s)%Q).
      { intros s. destruct (Am_att j s) as (u & EA & ES). destruct (Bs_att (N - 1 - S j) (flip_at u (S j) b) ltac:(lia)) as (u' & E & ER). replace (N - 1 - (N - 1 - S j)) with (S j) in * by lia.
        assert (E2 : forall i, i <= j -> u' i = u i) by (intros i Hj; rewrite E by lia; apply flip_below; lia). assert (EB : u' (S j) = b) by (rewrite E by lia; apply flip_here).
        assert (EX : acc (flip_at u (S j) b) (S j) = xorb s b) by (cbn [acc]; rewrite flip_here; rewrite (acc_ext _ u) by (intros; apply flip_below; lia); rewrite EA; auto). rewrite EX in ER.
        exists u'. split; auto. rewrite (metric_split (N - 1 - S j)) by lia. rewrite ER. replace (N - (N - 1 - S j)) with (S (S j)) by lia. rewrite !Sm_S. unfold term. rewrite EB. rewrite (acc_ext u' (flip_at u (S j) b) (S j)) by (intros; apply E; lia). rewrite EX. rewrite (acc_ext u' u j E2), EA, E2 by lia. rewrite (Sm_ext j u' u) by (intros; apply E2; lia). unfold v. lra. }
      destruct (Q.max_spec (v false) (v true)) as [[_ E]|[_ E]]; [destruct (K true) as (u & EU & EM)|destruct (K false) as (u & EU & EM)]; exists u; (split; [auto|]); rewrite EM; symmetry; exact E.
    + intros u EU. rewrite (metric_split (N - 1 - S j)) by lia. assert (K := Bs_le (N - 1 - S j) u ltac:(lia)). replace (N - 1 - (N - 1 - S j)) with (S j) in K by lia. cbn [acc] in K. rewrite EU in K. replace (N - (N - 1 - S j)) with (S (S j)) by lia. rewrite !Sm_S. unfold term. cbn [acc]. rewrite EU. assert (KA := Am_le j u).
      assert (KV : (v (acc u j) <= Qmax (v false) (v true))%Q) by (destruct (acc u j); [apply Q.le_max_r|apply Q.le_max_l]). unfold v at 1 in KV. lra.
Qed.

Lemma Ev_max_log : forall i, i < N -> max_log N a y i (Ev N a y i).
Proof.
  intros i Hi. exists (Mm i false), (Mm i true). split; [apply Mm_best; auto|]. split; [apply Mm_best; auto|]. unfold Ev. destruct i as [|j].
  - cbn [Nat.eqb]. unfold Mm. cbn [gain]. unfold Bv. assert (K := Bk_Bs (N - 2 - 0) ltac:(lia)). replace (S (N - 2 - 0)) with (N - 1) in K by lia. rewrite K. lra.
  - change (S j =? 0) with false. cbv iota.
    assert (G : forall p q P0 P1 Q0 Q1 ai z, (p == P0 - P1)%Q -> (q == Q0 - Q1)%Q -> (z == 0)%Q -> (check_node p q == Qmax (P0 + ai + Q0) (P1 + ai + Q1) - Qmax (P0 + z + Q1) (P1 + z + Q0) - ai)%Q).
    { intros p q P0 P1 Q0 Q1 ai z EP EQ EZ. rewrite check_id. destruct (Q.max_spec (p + q) 0) as [[A ->]|[A ->]], (Q.max_spec p q) as [[B ->]|[B ->]], (Q.max_spec (P0 + ai + Q0) (P1 + ai + Q1)) as [[C ->]|[C ->]], (Q.max_spec (P0 + z + Q1) (P1 + z + Q0)) as [[D ->]|[D ->]]; lra. }
    assert (FM := Fv_Am j). assert (BM : S j < N - 1 -> (Bv N a y (S j) == Bs (N - 1 - S j) false - Bs (N - 1 - S j) true)%Q). { intros L. unfold Bv. rewrite Bk_Bs by lia. replace (S (N - 2 - S j)) with (N - 1 - S j) by lia. reflexivity. }
    assert (EM : forall q, (q == y (S j) + (Bs (N - 1 - S j) false - Bs (N - 1 - S j) true))%Q -> (check_node (Fv a y j + y j) q == Mm (S j) false - Mm (S j) true - a (S j))%Q).
    { intros q EQ. rewrite (G _ _ (Am j false + y j)%Q (Am j true) (y (S j) + Bs (N - 1 - S j) false)%Q (Bs (N - 1 - S j) true) (a (S j)) 0%Q) by lra. unfold Mm. cbn [gain xorb].
      assert (X1 : forall p q p' q', (p == p')%Q -> (q == q')%Q -> (Qmax p q == Qmax p' q')%Q) by (intros ? ? ? ? -> ->; reflexivity).
      rewrite (X1 (Am j false + y j + a (S j) + y (S j) + Bs (N - 1 - S j) false)%Q _ (Am j false + y j + a (S j) + (y (S j) + Bs (N - 1 - S j) false))%Q (Am j true + a (S j) + Bs (N - 1 - S j) true)%Q) by lra.
      rewrite (X1 (Am j false + y j + 0 + 0 + Bs (N - 1 - S j) true)%Q _ (Am j false + y j + 0 + Bs (N - 1 - S j) true)%Q (Am j true + 0 + (y (S j) + Bs (N - 1 - S j) false))%Q) by lra. reflexivity. }
    destruct (Nat.eqb_spec (S j) (N - 1)) as [EN|NE].
    + rewrite <- EN. replace (N - 2) with j by lia. rewrite check_comm. rewrite (check_compat _ (Fv a y j + y j)%Q _ (y (S j))) by lra. apply EM. replace (N - 1 - S j) with 0 by lia. cbn [Bs]. lra.
    + replace (S j - 1) with j by lia. apply EM. rewrite BM by lia. lra.
Qed.
End MaxLog.

(* ------------------------------------------------------------------ *)
(** * The copies of a bit *)

Lemma perm_onto : forall N lut p, is_perm N lut -> p < N -> exists i, i < N /\ nth i lut 0 = p.
Proof.
  intros N lut p HP Hp. assert (L := proj1 HP). apply is_perm_iff in HP. assert (I : In p lut) by (apply (Permutation_in p (Permutation_sym HP)), in_seq; lia).
  destruct (In_nth _ _ 0 I) as (i & Hi & E). exists i. split; [lia|auto].
Qed.
Lemma inverse_back : forall N lut inv p, inverse N lut inv -> p < N -> nth p inv 0 < N /\ nth (nth p inv 0) lut 0 = p.
Proof. intros N lut inv p (HP & LI & V) Hp. destruct (perm_onto N lut p HP Hp) as (i & Hi & <-). rewrite V by auto. auto. Qed.
Lemma div_range : forall rep p k, 0 < rep -> (p / rep = k <-> k * rep <= p < k * rep + rep).
Proof.
  intros rep p k R. split.
  - intros <-. assert (D := Nat.div_mod p rep ltac:(lia)). assert (M := Nat.mod_upper_bound p rep ltac:(lia)). rewrite (Nat.mul_comm _ rep). lia.
  - intros H. symmetry. apply (Nat.div_unique p rep k (p - k * rep)); [lia|]. rewrite (Nat.mul_comm rep). lia.
Qed.
Lemma copies_perm : forall K rep lut inv k, 0 < rep -> inverse (K * rep) lut inv -> k < K ->
  Permutation (copies (K * rep) rep lut k) (map (fun j => nth (k * rep + j) inv 0) (seq 0 rep)).
Proof.
  intros K rep lut inv k R HI Hk.
  assert (BD : forall j, j < rep -> k * rep + j < K * rep) by (intros j Hj; assert (S k * rep <= K * rep) by (apply Nat.mul_le_mono_r; lia); lia).
  apply NoDup_Permutation.
  - apply NoDup_filter, seq_NoDup.
  - rewrite (NoDup_nth _ 0). rewrite map_length, seq_length. intros i j Hi Hj E.
    assert (NM : forall i, i < rep -> nth i (map (fun j => nth (k * rep + j) inv 0) (seq 0 rep)) 0 = nth (k * rep + i) inv 0).
    { intros q Hq. rewrite (nth_indep _ 0 (nth (k * rep + 0) inv 0)) by (rewrite map_length, seq_length; auto). rewrite (map_nth (fun j => nth (k * rep + j) inv 0)). rewrite seq_nth by auto. auto. }
    rewrite (NM i Hi), (NM j Hj) in E.
    assert (E2 := f_equal (fun q => nth q lut 0) E). cbv beta in E2. rewrite (proj2 (inverse_back _ _ _ _ HI (BD i Hi))), (proj2 (inverse_back _ _ _ _ HI (BD j Hj))) in E2. lia.
  - intros q. unfold copies. rewrite filter_In, in_map_iff, in_seq, Nat.eqb_eq, (div_range rep _ _ R). split.
    + intros (Q & D). exists (nth q lut 0 - k * rep). split; [|apply in_seq; lia]. replace (k * rep + (nth q lut 0 - k * rep)) with (nth q lut 0) by lia. apply HI. lia.
    + intros (j & <- & I). apply in_seq in I. destruct (inverse_back _ _ _ (k * rep + j) HI) as (B & E); [apply BD; lia|]. rewrite E. lia.
Qed.
Lemma csum_total : forall w rep k, (csum w rep k == qtotal (map (fun j => w (k * rep + j)%nat) (seq 0 rep)))%Q.
Proof.
  intros w rep k. unfold csum. assert (G : forall l s, (fold_left (fun s j => (s + w (k * rep + j)%nat)%Q) l s == s + qtotal (map (fun j => w (k * rep + j)%nat) l))%Q).
  { unfold qtotal. induction l; intros s; cbn [fold_left map fold_right]; [lra|]. rewrite IHl. lra. }
  rewrite G. lra.
Qed.
Lemma csum_copies : forall K rep lut inv e k, 0 < rep -> inverse (K * rep) lut inv -> k < K ->
  (csum (fun p => e (nth p inv 0%nat)) rep k == qtotal (map e (copies (K * rep) rep lut k)))%Q.
Proof.
  intros K rep lut inv e k R HI Hk. rewrite csum_total. rewrite (qtotal_perm _ _ (Permutation_map e (copies_perm K rep lut inv k R HI Hk))). rewrite map_map. reflexivity.
Qed.
Lemma in_copies : forall N rep lut q, q < N -> In q (copies N rep lut (nth q lut 0 / rep)).
Proof. intros N rep lut q Hq. apply filter_In. split; [apply in_seq; lia|apply Nat.eqb_refl]. Qed.
Lemma others_sum : forall N rep lut e q, q < N -> (qtotal (map e (copies N rep lut (nth q lut 0%nat / rep)%nat)) - e q == qtotal (map e (others q (copies N rep lut (nth q lut 0%nat / rep)%nat))))%Q.
Proof.
  intros N rep lut e q Hq. assert (P := others_perm q _ (NoDup_filter (fun p => nth p lut 0 / rep =? nth q lut 0 / rep) (seq_NoDup N 0)) (in_copies N rep lut q Hq)). fold (copies N rep lut (nth q lut 0 / rep)) in P.
  rewrite (qtotal_perm _ _ (Permutation_map e P)). unfold qtotal. cbn [map fold_right]. lra.
Qed.

(* ------------------------------------------------------------------ *)
(** * The iterations *)

Section Run.
Variables (K rep : nat) (lut inv : list nat) (y : nat -> Q).
Let N := K * rep.
Fixpoint aT (t : nat) : nat -> Q :=
  match t with
  | 0 => fun _ => 0%Q
  | S t => fun q => let e := Ev N (aT t) y in (csum (fun p => e (nth p inv 0%nat)) rep (nth q lut 0%nat / rep)%nat - e q)%Q
  end.
Definition eT (t : nat) : nat -> Q := Ev N (aT t) y.
Definition UT (t k : nat) : Q := csum (fun p => eT t (nth p inv 0)) rep k.

Hypothesis R : 0 < rep.
Hypothesis N2 : 2 <= N.
Hypothesis HI : inverse N lut inv.

Lemma lut_below : forall q, q < N -> nth q lut 0 < N.
Proof. intros q Hq. apply HI. auto. Qed.
Lemma lut_div : forall q, q < N -> nth q lut 0 / rep < K.
Proof. intros q Hq. apply Nat.div_lt_upper_bound; [lia|]. rewrite Nat.mul_comm. apply lut_below. auto. Qed.
Lemma UT_total : forall t k, k < K -> (UT t k == qtotal (map (eT t) (copies N rep lut k)))%Q.
Proof. intros t k Hk. unfold UT, N. apply csum_copies; auto. Qed.
Lemma run_ok : ra_run N rep lut y aT eT.
Proof.
  split; [|split].
  - intros q Hq. reflexivity.
  - intros t i Hi. apply Ev_max_log; auto.
  - intros t q Hq. cbn [aT]. cbv zeta. fold (eT t). fold (UT t (nth q lut 0 / rep)). rewrite UT_total by (apply lut_div; auto). apply others_sum. auto.
Qed.

Variables (Y : list Q) (ite : nat).
Hypothesis LY : N <= length Y.
Hypothesis VY : forall i, i < N -> nth i Y 0%Q = y i.
Let d := mkRD K N ite lut inv.
Definition shaped (s : rad_st) : Prop := length (rs_Fw s) = N /\ length (rs_Bw s) = N /\ length (rs_Tu s) = N /\ length (rs_Td s) = N /\ length (rs_Wu s) = N /\ length (rs_Wd s) = N /\ length (rs_U s) = K.

Lemma rep_eq : N / K = rep.
Proof. unfold N. rewrite Nat.mul_comm, Nat.div_mul; auto. intros ->. unfold N in N2. lia. Qed.
Lemma iter_ok : forall s t, shaped s -> rs_Td s = tab N (aT t) -> exists s', ra_iter d Y s = Ret s' /\ shaped s' /\ rs_Td s' = tab N (aT (S t)) /\ rs_U s' = tab K (UT t).
Proof.
  intros s t (L1 & L2 & L3 & L4 & L5 & L6 & L7) ET. assert (LL := proj1 (proj1 HI)). assert (LI := proj1 (proj2 HI)). unfold ra_iter. cbn [rd_K rd_N rd_lut rd_inv d]. rewrite ET.
  rewrite (forward_ok N (aT t) y Y N2 LY VY) by auto. cbn [bind]. destruct (backward_ok N (aT t) y Y N2 LY VY _ L2) as (Bw & EB & LB & VB). rewrite EB. cbn [bind].
  rewrite (extrinsic_ok N (aT t) y Y N2 LY VY) by auto. cbn [bind]. rewrite permute_ok.
  - cbn [bind]. rewrite LI, rep_eq. fold (eT t). change (tab N (fun i => eT t (nth i inv 0))) with (tab (K * rep) (fun i => eT t (nth i inv 0))). rewrite combine_ok by auto. cbn [bind]. rewrite permute_ok.
    + cbn [bind]. eexists. split; [reflexivity|]. cbn [rs_Td rs_U]. split; [|split].
      * unfold shaped. cbn [rs_Fw rs_Bw rs_Tu rs_Td rs_Wu rs_Wd rs_U]. rewrite !length_tab. auto 10.
      * rewrite LL. apply tab_ext. intros q Hq. cbn [aT]. cbv zeta. fold (eT t). rewrite (proj2 (proj2 HI)) by auto. reflexivity.
      * reflexivity.
    + congruence.
    + apply Forall_forall. intros p I. destruct (In_nth _ _ 0 I) as (i & Hi & <-). apply lut_below. lia.
  - congruence.
  - apply Forall_forall. intros p I. destruct (In_nth _ _ 0 I) as (i & Hi & <-). apply (inverse_back N lut inv i HI). lia.
Qed.
Lemma decode_ok : forall s V, 0 < ite -> shaped s -> length V = K -> exists s', ra_decode d Y V s = Ret (s', tab K (fun k => if qltb (UT (ite - 1) k) 0 then 1 else 0)) /\ shaped s'.
Proof.
  intros s V HT HS LV. assert (HS' := HS). destruct HS' as (L1 & L2 & L3 & L4 & L5 & L6 & L7). unfold ra_decode. cbn [rd_N rd_K rd_ite d].
  match goal with |- context [for_ N ?bb ?ss] => destruct (for_inv _ (fun k '(F, B, T) => length F = N /\ length B = N /\ length T = N /\ forall i, i < k -> nth i T 0%Q = 0%Q) N bb ss) as (((F & B) & T) & E & LF & LB & LT & VT) end.
  - split; auto. split; auto. split; auto. intros. lia.
  - intros k [[F B] T] Hk (LF & LB & LT & VT). rewrite !wr_ok by lia. cbn [bind]. eexists. split; [reflexivity|]. cbv beta iota. rewrite !length_upd. repeat split; auto. intros i Hi. rewrite nth_upd by lia. destruct (Nat.eqb_spec i k); auto. apply VT. lia.
  - rewrite E. cbn [bind]. clear E.
    match goal with |- context [for_ ite ?bb ?ss] => destruct (for_inv _ (fun k s => shaped s /\ rs_Td s = tab N (aT k) /\ (0 < k -> rs_U s = tab K (UT (k - 1)))) ite bb ss) as (s2 & E2 & HS2 & _ & HU) end.
    + split; [repeat split; auto|]. cbn [rs_Td]. split; [|intros; lia]. apply (is_tab _ 0%Q); auto.
    + intros k s1 Hk (HS1 & ET & _). destruct (iter_ok s1 k HS1 ET) as (s2 & E & HS2 & ET2 & EU). exists s2. split; auto. split; auto. split; auto. intros _. replace (S k - 1) with k by lia. auto.
    + rewrite E2. cbn [bind]. rewrite (HU HT).
      rewrite (fill nat 0 (fun k => if qltb (UT (ite - 1) k) 0 then 1 else 0) K); auto.
      * cbn [bind]. exists s2. split; auto.
      * intros i x Hi Lx. rewrite rd_tab by auto. reflexivity.
Qed.
End Run.

(* ------------------------------------------------------------------ *)
(** * Signs *)

(** q does not contradict bit b; q tells bit b. *)
Definition wtell (b : bool) (q : Q) : Prop := if b then (q <= 0)%Q else (0 <= q)%Q.
Definition stell (b : bool) (q : Q) : Prop := if b then (q < 0)%Q else (0 < q)%Q.
Definition sg (b : bool) (q : Q) : Q := if b then (- q)%Q else q.

Lemma check_w : forall b c p q, wtell b p -> wtell c q -> wtell (xorb b c) (check_node p q).
Proof.
  intros b c p q A B. assert (E := check_id p q). destruct b, c; cbn [wtell xorb] in *; rewrite E; destruct (Q.max_spec (p + q) 0) as [[? ->]|[? ->]], (Q.max_spec p q) as [[? ->]|[? ->]]; lra.
Qed.
Lemma check_s : forall b c p q, stell b p -> stell c q -> stell (xorb b c) (check_node p q).
Proof.
  intros b c p q A B. assert (E := check_id p q). destruct b, c; cbn [stell xorb] in *; rewrite E; destruct (Q.max_spec (p + q) 0) as [[? ->]|[? ->]], (Q.max_spec p q) as [[? ->]|[? ->]]; lra.
Qed.
Lemma tell_sw : forall b q, stell b q -> wtell b q.
Proof. intros [] q; cbn; lra. Qed.
Lemma tell_ws : forall b p q, wtell b p -> stell b q -> stell b (p + q).
Proof. intros [] p q; cbn; lra. Qed.
Lemma tell_sw' : forall b p q, stell b p -> wtell b q -> stell b (p + q).
Proof. intros [] p q; cbn; lra. Qed.
Lemma wtell_eq : forall b p q, (p == q)%Q -> wtell b p -> wtell b q.
Proof. intros [] p q; cbn; lra. Qed.
Lemma stell_eq : forall b p q, (p == q)%Q -> stell b p -> stell b q.
Proof. intros [] p q; cbn; lra. Qed.
Lemma check_sg : forall b c p q p' q', (p' == sg b p)%Q -> (q' == sg c q)%Q -> (check_node p' q' == sg (xorb b c) (check_node p q))%Q.
Proof.
  intros b c p q p' q' EP EQ. rewrite (check_compat _ _ _ _ EP EQ). clear EP EQ. destruct b, c; cbn [sg xorb]; rewrite !check_id;
  repeat match goal with |- context [Qmax ?x ?y] => let H := fresh in destruct (Q.max_spec x y) as [[H ->]|[H ->]] end; lra.
Qed.
Lemma sg_plus : forall b p q p' q', (p' == sg b p)%Q -> (q' == sg b q)%Q -> (p' + q' == sg b (p + q))%Q.
Proof. intros [] p q p' q'; cbn [sg]; lra. Qed.
Lemma sg_eq : forall b p q, (p == q)%Q -> (sg b p == sg b q)%Q.
Proof. intros [] p q E; cbn [sg]; rewrite E; reflexivity. Qed.

Lemma acc_back : forall b i, xorb (acc b (S i)) (b (S i)) = acc b i.
Proof. intros. cbn [acc]. destruct (acc b i), (b (S i)); auto. Qed.
Lemma acc_diff : forall b i, xorb (acc b i) (acc b (S i)) = b (S i).
Proof. intros. cbn [acc]. destruct (acc b i), (b (S i)); auto. Qed.

Section Noiseless.
Variables (N : nat) (b : nat -> bool) (a y : nat -> Q).
Hypothesis N2 : 2 <= N.
Hypothesis HA : forall q, q < N -> wtell (b q) (a q).
Hypothesis HY : forall i, i < N -> stell (acc b i) (y i).
Lemma Fv_tells : forall i, i < N -> wtell (acc b i) (Fv a y i).
Proof.
  induction i; intros Hi; cbn [Fv]; [apply HA; lia|]. change (acc b (S i)) with (xorb (acc b i) (b (S i))). apply check_w; [|apply HA; auto]. apply tell_sw, tell_ws; [apply IHi; lia|apply HY; lia].
Qed.
Lemma Bk_tells : forall k, S k < N -> wtell (acc b (N - 2 - k)) (Bk N a y k).
Proof.
  induction k; intros Hk; cbn [Bk].
  - rewrite Nat.sub_0_r. replace (N - 1) with (S (N - 2)) by lia. rewrite <- acc_back. apply check_w; [|apply HA; lia]. apply tell_sw, HY. lia.
  - replace (N - 2 - k) with (S (N - 2 - S k)) by lia. rewrite <- acc_back. replace (S (N - 2 - S k)) with (N - 2 - k) by lia. apply check_w; [|apply HA; lia]. apply tell_sw, tell_ws; [apply IHk; lia|apply HY; lia].
Qed.
Lemma Ev_tells : forall i, i < N -> stell (b i) (Ev N a y i).
Proof.
  intros i Hi. unfold Ev. destruct i as [|j].
  - cbn [Nat.eqb]. unfold Bv. change (b 0) with (acc b 0). apply tell_ws; [|apply HY; auto]. replace (acc b 0) with (acc b (N - 2 - (N - 2 - 0))) by (f_equal; lia). apply Bk_tells. lia.
  - change (S j =? 0) with false. cbv iota. destruct (Nat.eqb_spec (S j) (N - 1)) as [EN|NE].
    + rewrite <- EN. replace (N - 2) with j by lia. rewrite <- acc_diff, xorb_comm. apply check_s; [apply HY; lia|]. apply tell_sw'; [apply HY; lia|apply Fv_tells; lia].
    + replace (S j - 1) with j by lia. rewrite <- acc_diff. apply check_s; [apply tell_ws; [apply Fv_tells; lia|apply HY; lia]|]. apply tell_ws; [|apply HY; lia]. unfold Bv. replace (acc b (S j)) with (acc b (N - 2 - (N - 2 - S j))) by (f_equal; lia). apply Bk_tells. lia.
Qed.
End Noiseless.

Lemma total_w : forall b l, Forall (wtell b) l -> wtell b (qtotal l).
Proof. intros b l F. unfold qtotal. induction F as [|x l HX F IH]; [destruct b; cbn; lra|]. cbn [fold_right]. destruct b; cbn [wtell] in *; lra. Qed.
Lemma total_s : forall b l, l <> [] -> Forall (stell b) l -> stell b (qtotal l).
Proof.
  intros b l NE F. destruct F as [|x l HX F]; [congruence|]. unfold qtotal. cbn [fold_right]. apply tell_sw'; auto. apply total_w. eapply Forall_impl; [|exact F]. intros q. apply tell_sw.
Qed.
Lemma copies_bit : forall N rep lut (u : nat -> bool) k q, In q (copies N rep lut k) -> q < N /\ u (nth q lut 0 / rep) = u k.
Proof. intros N rep lut u k q I. apply filter_In in I. destruct I as [I E]. apply in_seq in I. apply Nat.eqb_eq in E. split; [lia|]. rewrite E. auto. Qed.
Section Quiet.
Variables (K rep : nat) (lut inv : list nat) (y : nat -> Q) (u : nat -> bool).
Let N := K * rep.
Let b := fun q => u (nth q lut 0 / rep).
Hypothesis R : 0 < rep.
Hypothesis N2 : 2 <= N.
Hypothesis HI : inverse N lut inv.
Hypothesis HY : forall i, i < N -> stell (acc b i) (y i).
Lemma aT_tells : forall t q, q < N -> wtell (b q) (aT K rep lut inv y t q).
Proof.
  induction t; intros q Hq.
  - cbn [aT]. destruct (b q); cbn; lra.
  - assert (E := proj2 (proj2 (run_ok K rep lut inv y R N2 HI)) t q Hq). eapply wtell_eq; [symmetry; exact E|]. apply total_w. apply Forall_forall. intros x I. apply in_map_iff in I. destruct I as (p & <- & I). apply filter_In in I. destruct I as [I _]. destruct (copies_bit _ _ _ u _ _ I) as [Hp EB]. unfold b at 1. rewrite <- EB. apply tell_sw. unfold eT. fold N. apply (Ev_tells N b); auto.
Qed.
Lemma UT_tells : forall t k, k < K -> stell (u k) (UT K rep lut inv y t k).
Proof.
  intros t k Hk. assert (E := UT_total K rep lut inv y R HI t k Hk). eapply stell_eq; [symmetry; exact E|]. apply total_s.
  - assert (L := Permutation_length (copies_perm K rep lut inv k R HI Hk)). rewrite map_length, seq_length in L. intros EN. apply map_eq_nil in EN. unfold N in EN. rewrite EN in L. cbn in L. lia.
  - apply Forall_forall. intros x I. apply in_map_iff in I. destruct I as (p & <- & I). destruct (copies_bit _ _ _ u _ _ I) as [Hp EB]. rewrite <- EB. unfold eT. fold N. apply (Ev_tells N b); auto. intros; apply aT_tells; auto.
Qed.
End Quiet.

Section Mirror.
Variables (N : nat) (b : nat -> bool) (a y a' y' : nat -> Q).
Hypothesis N2 : 2 <= N.
Hypothesis HA : forall q, q < N -> (a' q == sg (b q) (a q))%Q.
Hypothesis HY : forall i, i < N -> (y' i == sg (acc b i) (y i))%Q.
Lemma Fv_sg : forall i, i < N -> (Fv a' y' i == sg (acc b i) (Fv a y i))%Q.
Proof.
  induction i; intros Hi; cbn [Fv]; [apply HA; lia|]. change (acc b (S i)) with (xorb (acc b i) (b (S i))). apply check_sg; [|apply HA; auto]. apply sg_plus; [apply IHi; lia|apply HY; lia].
Qed.
Lemma Bk_sg : forall k, S k < N -> (Bk N a' y' k == sg (acc b (N - 2 - k)) (Bk N a y k))%Q.
Proof.
  induction k; intros Hk; cbn [Bk].
  - rewrite Nat.sub_0_r. replace (N - 1) with (S (N - 2)) by lia. rewrite <- (acc_back b (N - 2)). apply check_sg; [apply HY; lia|apply HA; lia].
  - replace (acc b (N - 2 - S k)) with (xorb (acc b (N - 2 - k)) (b (N - 2 - k))) by (replace (N - 2 - k) with (S (N - 2 - S k)) by lia; apply acc_back). apply check_sg; [|apply HA; lia]. apply sg_plus; [apply IHk; lia|apply HY; lia].
Qed.
Lemma Ev_sg : forall i, i < N -> (Ev N a' y' i == sg (b i) (Ev N a y i))%Q.
Proof.
  intros i Hi. unfold Ev. destruct i as [|j].
  - cbn [Nat.eqb]. unfold Bv. change (b 0) with (acc b 0). apply sg_plus; [|apply HY; auto]. replace (acc b 0) with (acc b (N - 2 - (N - 2 - 0))) by (f_equal; lia). apply Bk_sg. lia.
  - change (S j =? 0) with false. cbv iota. destruct (Nat.eqb_spec (S j) (N - 1)) as [EN|NE].
    + rewrite <- EN. replace (N - 2) with j by lia. rewrite <- (acc_diff b j), xorb_comm. apply check_sg; [apply HY; lia|]. apply sg_plus; [apply HY; lia|apply Fv_sg; lia].
    + replace (S j - 1) with j by lia. rewrite <- (acc_diff b j). apply check_sg; [apply sg_plus; [apply Fv_sg; lia|apply HY; lia]|]. apply sg_plus; [|apply HY; lia]. unfold Bv. replace (acc b (S j)) with (acc b (N - 2 - (N - 2 - S j))) by (f_equal; lia). apply Bk_sg. lia.
Qed.
End Mirror.
Lemma total_sg : forall b (e e' : nat -> Q) l, (forall p, In p l -> (e' p == sg b (e p))%Q) -> (qtotal (map e' l) == sg b (qtotal (map e l)))%Q.
Proof.
  intros b e e' l. unfold qtotal. induction l as [|x l IH]; intros H; cbn [map fold_right]; [destruct b; cbn; lra|]. apply sg_plus; [apply H; left; auto|]. apply IH. intros p I. apply H. right. auto.
Qed.
Section Twins.
Variables (K rep : nat) (lut inv : list nat) (y y' : nat -> Q) (u : nat -> bool).
Let N := K * rep.
Let b := fun q => u (nth q lut 0 / rep).
Hypothesis R : 0 < rep.
Hypothesis N2 : 2 <= N.
Hypothesis HI : inverse N lut inv.
Hypothesis HY : forall i, i < N -> (y' i == sg (acc b i) (y i))%Q.
Lemma aT_sg : forall t q, q < N -> (aT K rep lut inv y' t q == sg (b q) (aT K rep lut inv y t q))%Q.
Proof.
  induction t; intros q Hq.
  - cbn [aT]. destruct (b q); cbn; lra.
  - assert (E := proj2 (proj2 (run_ok K rep lut inv y R N2 HI)) t q Hq). assert (E' := proj2 (proj2 (run_ok K rep lut inv y' R N2 HI)) t q Hq). rewrite E'. rewrite (sg_eq _ _ _ E). apply total_sg.
    intros p I. apply filter_In in I. destruct I as [I _]. destruct (copies_bit _ _ _ u _ _ I) as [Hp EB]. unfold b at 1. rewrite <- EB. unfold eT. fold N. apply (Ev_sg N b); auto.
Qed.
Lemma UT_sg : forall t k, k < K -> (UT K rep lut inv y' t k == sg (u k) (UT K rep lut inv y t k))%Q.
Proof.
  intros t k Hk. rewrite (UT_total K rep lut inv y' R HI t k Hk). rewrite (sg_eq _ _ _ (UT_total K rep lut inv y R HI t k Hk)). apply total_sg.
  intros p I. destruct (copies_bit _ _ _ u _ _ I) as [Hp EB]. rewrite <- EB. unfold eT. apply (Ev_sg N b); auto. intros; apply aT_sg; auto.
Qed.
End Twins.
