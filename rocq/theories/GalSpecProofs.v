(** The message passing of GalSpec.v: symmetry, words without noise, single errors. *)
From Coq Require Import List Arith Lia Bool ZArith Permutation.
From Verif Require Import Base SparseModel SparseSpec LDPCSpec LDPCProofs LDPCBPSpec LDPCBPGraph LDPCBPFlood GalModel GalSpec GalProofs.
Import ListNotations.
Local Open Scope nat_scope.

Lemma others_in : forall x y l, In y (others x l) <-> In y l /\ y <> x.
Proof. intros. unfold others. rewrite filter_In, negb_true_iff, Nat.eqb_neq. tauto. Qed.
Lemma map_const : forall A B (f : A -> B) l z, (forall x, In x l -> f x = z) -> map f l = repeat z (length l).
Proof. intros A B f l z F. induction l; cbn [map length repeat]; auto. rewrite F by (left; auto). f_equal. apply IHl. intros. apply F. right. auto. Qed.

(** Sum of a codeword over the other variables of a check. *)
Lemma code_others : forall N M h x c v, in_code N M h x -> c < M -> v < N -> h v c = true -> sum2 (map x (others v (vars_of N h c))) = x v.
Proof.
  intros N M h x c v C Hc Hv Hh. assert (P : sum2 (map x (vars_of N h c)) = false).
  { rewrite <- (C c Hc). unfold sum2. apply (links_par N (fun v => h v c) x); [apply vars_nodup|]. intros w. rewrite vars_in. tauto. }
  assert (Q : Permutation (vars_of N h c) (v :: others v (vars_of N h c))) by (apply others_perm; [apply vars_nodup|apply vars_in; auto]).
  unfold sum2 in *. rewrite (par_perm _ _ (Permutation_map x Q)) in P. cbn [map fold_right] in P. apply xorb_eq in P. auto.
Qed.

Section Symmetry.
Variables (A : Type) (N M : nat) (h : nat -> nat -> bool) (var : nat -> A -> A -> list A -> A) (chk : list A -> A) (dec : A -> list A -> bool).
Variables (act : bool -> A -> A) (Y : nat -> A) (x : nat -> bool).
Hypothesis VA : forall k b y own os, var k (act b y) (act b own) (map (act b) os) = act b (var k y own os).
Hypothesis CA : forall (l : list nat) f, chk (map (fun w => act (x w) (f w)) l) = act (sum2 (map x l)) (chk (map f l)).
Hypothesis DA : forall v b l, v < N -> dec (act b (Y v)) (map (act b) l) = xorb b (dec (Y v) l).
Hypothesis XC : in_code N M h x.

Let Y' v := act (x v) (Y v).

Lemma vars_act : forall nu nu' c v, c < M -> v < N -> h v c = true ->
  (forall w, w < N -> h w c = true -> nu' w c = act (x w) (nu w c)) ->
  to_vars A N h chk nu' c v = act (x v) (to_vars A N h chk nu c v).
Proof.
  intros nu nu' c v Hc Hv Hh E. unfold to_vars. rewrite <- (code_others N M h x c v XC Hc Hv Hh). rewrite <- CA. f_equal. apply map_ext_in.
  intros w I. apply others_in in I. destruct I as [I _]. apply vars_in in I. apply E; tauto.
Qed.

Lemma sent_act : forall k v c, c < M -> v < N -> h v c = true -> sent A N M h Y' var chk k v c = act (x v) (sent A N M h Y var chk k v c).
Proof.
  induction k; intros v c Hc Hv Hh; [reflexivity|]. cbn [sent]. unfold to_checks. rewrite <- VA. f_equal.
  - apply vars_act; auto.
  - rewrite map_map. apply map_ext_in. intros d I. apply others_in in I. destruct I as [I _]. apply checks_in in I. apply vars_act; auto; try tauto. intros. apply IHk; tauto.
Qed.

Lemma decision_act : forall t v, v < N -> decision A N M h Y' var chk dec t v = xorb (x v) (decision A N M h Y var chk dec t v).
Proof.
  intros t v Hv. unfold decision. unfold Y' at 1. rewrite <- DA by auto. f_equal. rewrite map_map. apply map_ext_in. intros c I. apply checks_in in I. apply vars_act; try tauto.
  intros. apply sent_act; tauto.
Qed.
End Symmetry.

Section Zero.
Variables (A : Type) (N M : nat) (h : nat -> nat -> bool) (var : nat -> A -> A -> list A -> A) (chk : list A -> A) (dec : A -> list A -> bool) (Y : nat -> A) (z : A) (D : A -> Prop).
Hypothesis CZ : forall n, chk (repeat z n) = z.

(** Without noise. *)
Section Clean.
Hypothesis VZ : forall k n, var k z z (repeat z n) = z.
Hypothesis DZ : forall n, dec z (repeat z n) = false.
Hypothesis YZ : forall v, v < N -> Y v = z.

Lemma clean_vars : forall nu c v, (forall w, w < N -> h w c = true -> nu w c = z) -> to_vars A N h chk nu c v = z.
Proof. intros nu c v E. unfold to_vars. rewrite (map_const _ _ _ _ z); [apply CZ|]. intros w I. apply others_in in I. destruct I as [I _]. apply vars_in in I. apply E; tauto. Qed.
Lemma clean_sent : forall k v c, c < M -> v < N -> sent A N M h Y var chk k v c = z.
Proof.
  induction k; intros v c Hc Hv; cbn [sent]; [auto|]. unfold to_checks. rewrite YZ by auto. rewrite clean_vars by auto. rewrite (map_const _ _ _ _ z); [apply VZ|].
  intros d I. apply others_in in I. destruct I as [I _]. apply checks_in in I. apply clean_vars. intros. apply IHk; tauto.
Qed.
Lemma clean_decision : forall t v, v < N -> decision A N M h Y var chk dec t v = false.
Proof.
  intros t v Hv. unfold decision. rewrite YZ by auto. rewrite (map_const _ _ _ _ z); [apply DZ|]. intros c I. apply checks_in in I. apply clean_vars. intros. apply clean_sent; tauto.
Qed.
End Clean.

(** One error, on variable e. *)
Section One.
Variable e : nat.
Hypothesis VR : forall k own m n os, D m -> 1 <= n -> Permutation os (m :: repeat z n) -> var k z own os = z.
Hypothesis DR : forall m n l, D m -> 2 <= n -> Permutation l (m :: repeat z n) -> dec z l = false.
Hypothesis DE : forall y n, D y -> 2 <= n -> dec y (repeat z n) = false.
Hypothesis DY : forall v, D (Y v).
Hypothesis DV : forall k y own os, D (var k y own os).
Hypothesis DC : forall l, (forall m, In m l -> D m) -> D (chk l).
Hypothesis YZ : forall v, v < N -> v <> e -> Y v = z.
Hypothesis N4 : no_4_cycle N M h.
Hypothesis D3 : forall v, v < N -> 3 <= length (checks_of M h v).
Hypothesis HE : e < N.

Let nu := sent A N M h Y var chk.
Let mu k := to_vars A N h chk (nu k).

Lemma one_dom : forall k v c, D (nu k v c).
Proof. intros k v c. destruct k; [apply DY|]. unfold nu. cbn [sent]. apply DV. Qed.
Lemma one_dom' : forall k c v, D (mu k c v).
Proof. intros k c v. apply DC. intros m I. apply in_map_iff in I. destruct I as (w & <- & _). apply one_dom. Qed.

(** Messages of a check to the variable in error, or of a check of which it is not. *)
Lemma one_vars : forall k c v, c < M -> (forall w, w < N -> w <> e -> h w c = true -> nu k w c = z) -> v = e \/ h e c = false -> mu k c v = z.
Proof.
  intros k c v Hc E V. unfold mu, to_vars. rewrite (map_const _ _ _ _ z); [apply CZ|]. intros w I. apply others_in in I. destruct I as [I NE]. apply vars_in in I. apply E; try tauto.
  intros ->. destruct V as [->|V]; [auto|]. destruct I. congruence.
Qed.

(** The messages received by another variable from some of its checks: one at most is not right. *)
Lemma one_list : forall k w l, w < N -> w <> e -> NoDup l -> l <> [] -> (forall d, In d l -> d < M /\ h w d = true) ->
  (forall d v, d < M -> v = e \/ h e d = false -> mu k d v = z) ->
  exists m n, D m /\ length l = S n /\ Permutation (map (fun d => mu k d w) l) (m :: repeat z n).
Proof.
  intros k w l Hw NE ND NN IN IV. destruct (existsb (fun d => h e d) l) eqn:X.
  - apply existsb_exists in X. destruct X as (d & I & Hd). assert (P := others_perm d l ND I). exists (mu k d w), (length (others d l)). split; [apply one_dom'|]. split; [apply Permutation_length in P; auto|].
    apply (Permutation_map (fun d => mu k d w)) in P. cbn [map] in P. rewrite (map_const _ _ _ (others d l) z) in P; auto. intros d' I'. apply others_in in I'. destruct I' as [I' NE'].
    destruct (IN d I) as [? ?]. destruct (IN d' I') as [? ?]. apply IV; auto. right. destruct (h e d') eqn:X; auto. exfalso. apply (N4 e w d d'); auto.
  - destruct l as [|d l]; [congruence|]. exists z, (length l). assert (Z : forall d', In d' (d :: l) -> mu k d' w = z).
    { intros d' I. apply IV; [apply IN; auto|]. right. destruct (h e d') eqn:X'; auto. rewrite <- X. symmetry. apply existsb_exists. exists d'. auto. }
    split; [rewrite <- (Z d) by (left; auto); apply one_dom'|]. split; auto. rewrite (map_const _ _ _ _ z) by exact Z. reflexivity.
Qed.

Lemma one_sent : forall k, (forall w c, c < M -> w < N -> h w c = true -> w <> e -> nu k w c = z) /\ (forall c v, c < M -> v = e \/ h e c = false -> mu k c v = z).
Proof.
  assert (K : forall k, (forall w c, c < M -> w < N -> h w c = true -> w <> e -> nu k w c = z) -> (forall c v, c < M -> v = e \/ h e c = false -> mu k c v = z)).
  { intros k E c v Hc V. apply one_vars; auto. }
  induction k as [|k [IH1 IH2]].
  - assert (B : forall w c, c < M -> w < N -> h w c = true -> w <> e -> nu 0 w c = z) by (intros; apply YZ; auto). split; auto.
  - assert (B : forall w c, c < M -> w < N -> h w c = true -> w <> e -> nu (S k) w c = z).
    { intros w c Hc Hw Hh NE. unfold nu. cbn [sent]. unfold to_checks. rewrite YZ by auto. fold nu. fold (mu k).
      assert (P := others_perm c (checks_of M h w) (checks_nodup _ _ _) (proj2 (checks_in M h w c) (conj Hc Hh))). assert (L := D3 w Hw). apply Permutation_length in P. cbn [length] in P.
      destruct (one_list k w (others c (checks_of M h w)) Hw NE) as (m & n & Dm & Ln & Pm).
      - apply NoDup_filter, checks_nodup.
      - intros C. rewrite C in P. cbn in P. lia.
      - intros d I. apply others_in in I. destruct I as [I _]. apply checks_in in I. auto.
      - auto.
      - apply (VR _ _ m n); auto. lia. }
    split; auto.
Qed.

Lemma one_decision : forall t v, v < N -> decision A N M h Y var chk dec t v = false.
Proof.
  intros t v Hv. unfold decision. fold nu. fold (mu (t - 1)). destruct (one_sent (t - 1)) as [_ IV]. assert (L := D3 v Hv). destruct (Nat.eq_dec v e) as [->|NE].
  - rewrite (map_const _ _ _ _ z). { apply DE; auto. lia. } intros c I. apply checks_in in I. apply IV; tauto.
  - rewrite YZ by auto. destruct (one_list (t - 1) v (checks_of M h v) Hv NE) as (m & n & Dm & Ln & Pm); auto.
    + apply checks_nodup.
    + intros C. rewrite C in L. cbn in L. lia.
    + intros d I. apply checks_in in I. auto.
    + apply (DR m n); auto. lia.
Qed.
End One.
End Zero.

(* ------------------------------------------------------------------ *)
(** * The three algorithms *)

Lemma against_len : forall y l, against y l + agree y l = length l.
Proof. intros y l. unfold against, agree. induction l as [|m l IH]; auto. cbn [filter length]. destruct (xorb m y); cbn [negb length]; lia. Qed.
Lemma against_perm : forall y l l', Permutation l l' -> against y l = against y l'.
Proof. intros y l l' P. unfold against. induction P; cbn [filter]; auto; try congruence; [destruct (xorb x y); cbn [length]; lia|destruct (xorb x y), (xorb y0 y); auto]. Qed.
Lemma against_map : forall b y l, against (xorb b y) (map (xorb b) l) = against y l.
Proof. intros b y l. unfold against. induction l as [|m l IH]; auto. cbn [map filter]. replace (xorb (xorb b m) (xorb b y)) with (xorb m y) by (destruct b, m, y; auto). destruct (xorb m y); cbn [length]; lia. Qed.
Lemma agree_map : forall b y l, agree (xorb b y) (map (xorb b) l) = agree y l.
Proof. intros. assert (P := against_len y l). assert (Q := against_len (xorb b y) (map (xorb b) l)). rewrite map_length, against_map in Q. lia. Qed.
Lemma against_repeat : forall y n, against y (repeat y n) = 0.
Proof. intros y n. unfold against. induction n; auto. cbn [repeat filter]. rewrite xorb_nilpotent. auto. Qed.
Lemma agree_repeat : forall y n, agree y (repeat y n) = n.
Proof. intros. assert (P := against_len y (repeat y n)). rewrite against_repeat, repeat_length in P. lia. Qed.
Lemma agree_cons : forall y m l, agree y (m :: l) = (if xorb m y then 0 else 1) + agree y l.
Proof. intros. unfold agree. cbn [filter]. destruct (xorb m y); auto. Qed.
Lemma against_cons : forall y m l, against y (m :: l) = (if xorb m y then 1 else 0) + against y l.
Proof. intros. unfold against. cbn [filter]. destruct (xorb m y); auto. Qed.
Lemma agree_perm : forall y l l', Permutation l l' -> agree y l = agree y l'.
Proof. intros y l l' P. assert (A := against_len y l). assert (B := against_len y l'). rewrite (against_perm y _ _ P) in A. apply Permutation_length in P. lia. Qed.
Lemma sumz_map_mul : forall s l, sumz (map (Z.mul s) l) = (s * sumz l)%Z.
Proof. intros s l. unfold sumz. induction l; cbn [map fold_right]; [lia|]. rewrite IHl. lia. Qed.
Lemma sumz_repeat : forall z n, sumz (repeat z n) = (Z.of_nat n * z)%Z.
Proof. intros z n. unfold sumz. induction n; [reflexivity|]. cbn [repeat fold_right]. rewrite IHn. lia. Qed.
Lemma sig_cases : forall b, sig b = 1%Z \/ sig b = (-1)%Z.
Proof. intros []; auto. Qed.
Lemma sig_xor : forall a b, sig (xorb a b) = (sig a * sig b)%Z.
Proof. intros [] []; reflexivity. Qed.

Theorem symmetric_decisions : forall a N M h y x t v, in_code N M h x -> v < N ->
  decided a N M h (fun v => xorb (x v) (y v)) t v = xorb (x v) (decided a N M h y t v).
Proof.
  intros a N M h y x t v XC Hv. assert (S2 : forall (l : list nat) f, sum2 (map (fun w => xorb (x w) (f w)) l) = xorb (sum2 (map x l)) (sum2 (map f l))).
  { intros l f. unfold sum2. induction l; auto. cbn [map fold_right]. rewrite IHl. destruct (x a0), (f a0), (fold_right xorb false (map x l)), (fold_right xorb false (map f l)); auto. }
  assert (MJ : forall b y l, majority (xorb b y) (map (xorb b) l) = xorb b (majority y l)).
  { intros. unfold majority. rewrite agree_map, against_map. destruct (agree y0 l <? against y0 l); auto. destruct b, y0; auto. }
  destruct a; cbn [decided].
  - apply (decision_act bool N M h var_A sum2 majority xorb y x); auto.
    intros k b y0 own os. unfold var_A. rewrite map_length, against_map. destruct ((0 <? length os) && (against y0 os =? length os)); auto. destruct b, y0; auto.
  - apply (decision_act bool N M h var_B sum2 majority xorb y x); auto.
    intros k b y0 own os. unfold var_B. change (xorb b own :: map (xorb b) os) with (map (xorb b) (own :: os)). rewrite agree_map, against_map. destruct (agree y0 (own :: os) <? against y0 os); auto. destruct b, y0; auto.
  - rewrite <- (decision_act Z N M h var_E prodz dec_E (fun b z => (sig b * z)%Z) (fun v => sig (y v)) x); auto.
    + assert (EX : forall v, (sig (x v) * sig (y v))%Z = sig (xorb (x v) (y v))) by (intros; rewrite sig_xor; auto).
      unfold decision. rewrite EX. f_equal. apply map_ext. intros c. unfold to_vars. f_equal. apply map_ext. intros w. generalize (t - 1). intros k. revert w c. induction k; intros w c; cbn [sent]; [rewrite EX; auto|].
      unfold to_checks. rewrite EX. f_equal; [unfold to_vars; f_equal; apply map_ext; auto|]. apply map_ext. intros d. unfold to_vars. f_equal. apply map_ext. auto.
    + intros k b y0 own os. unfold var_E. rewrite sumz_map_mul. destruct b; cbn [sig].
      * replace ((if (k =? 1)%nat then 2 else 1) * (-1 * y0) + -1 * sumz os)%Z with (- ((if (k =? 1)%nat then 2 else 1) * y0 + sumz os))%Z by (destruct (k =? 1); lia). rewrite Z.sgn_opp. lia.
      * rewrite !Z.mul_1_l. auto.
    + intros l f. unfold prodz, sum2. induction l; [reflexivity|]. cbn [map fold_right]. rewrite IHl, sig_xor. lia.
    + intros w b l Hw. unfold dec_E. rewrite sumz_map_mul. rewrite <- Z.mul_add_distr_l. destruct (sig_cases (y w)) as [E|E]; rewrite E; destruct b; cbn [sig];
        destruct (Z.eqb_spec (1 + sumz l) 0); destruct (Z.eqb_spec (-1 + sumz l) 0); repeat match goal with |- context [(?a =? ?b)%Z] => destruct (Z.eqb_spec a b) end; try lia; rewrite ?Z.mul_1_l; auto;
        repeat match goal with |- context [(?a <? ?b)%Z] => destruct (Z.ltb_spec a b) end; auto; lia.
Qed.

Lemma perm_sum : forall m z n l, Permutation l (m :: repeat z n) -> sumz l = (m + Z.of_nat n * z)%Z.
Proof. intros m z n l P. rewrite (sumz_perm _ _ P). unfold sumz. cbn [fold_right]. fold (sumz (repeat z n)). rewrite sumz_repeat. auto. Qed.
Lemma sum2_repeat : forall n, sum2 (repeat false n) = false.
Proof. induction n; [reflexivity|]. cbn [repeat]. unfold sum2 in *. cbn [fold_right]. rewrite IHn. reflexivity. Qed.
Lemma prodz_repeat : forall n, prodz (repeat 1%Z n) = 1%Z.
Proof. induction n; auto. unfold prodz in *. cbn [repeat fold_right]. rewrite IHn. auto. Qed.
Lemma prodz_dom : forall l, (forall m, In m l -> (-1 <= m <= 1)%Z) -> (-1 <= prodz l <= 1)%Z.
Proof.
  intros l. unfold prodz. induction l; intros F; cbn [fold_right]; [lia|]. assert (A := F a (or_introl eq_refl)). assert (B := IHl (fun m I => F m (or_intror I))).
  assert (C : (a = -1 \/ a = 0 \/ a = 1)%Z) by lia. destruct C as [ -> | [ -> | -> ] ]; lia.
Qed.

Lemma zero_decisions : forall a N M h y t v, (forall v, v < N -> y v = false) -> v < N -> decided a N M h y t v = false.
Proof.
  intros a N M h y t v YZ Hv. destruct a; cbn [decided].
  - apply (clean_decision bool N M h var_A sum2 majority y false (fun _ => True)); auto.
    + apply sum2_repeat.
    + intros k n. unfold var_A. rewrite against_repeat, repeat_length. destruct n; auto.
    + intros n. unfold majority. rewrite against_repeat. replace (agree false (repeat false n) <? 0) with false; auto.
  - apply (clean_decision bool N M h var_B sum2 majority y false (fun _ => True)); auto.
    + apply sum2_repeat.
    + intros k n. unfold var_B. rewrite against_repeat. replace (agree false (false :: repeat false n) <? 0) with false; auto.
    + intros n. unfold majority. rewrite against_repeat. replace (agree false (repeat false n) <? 0) with false; auto.
  - apply (clean_decision Z N M h var_E prodz dec_E (fun v => sig (y v)) 1%Z (fun _ => True)); auto.
    + apply prodz_repeat.
    + intros k n. unfold var_E. rewrite sumz_repeat. apply Z.sgn_pos. destruct (k =? 1); lia.
    + intros n. unfold dec_E. rewrite sumz_repeat. destruct (Z.eqb_spec (1 + Z.of_nat n * 1) 0); auto. apply Z.ltb_ge. lia.
    + intros w Hw. rewrite YZ by auto. auto.
Qed.

Lemma one_decisions : forall a N M h y e t v, no_4_cycle N M h -> (forall v, v < N -> 3 <= row_deg h M v) -> e < N -> (forall v, v < N -> v <> e -> y v = false) -> v < N ->
  decided a N M h y t v = false.
Proof.
  intros a N M h y e t v N4 D3 HE YZ Hv. destruct a; cbn [decided].
  - apply (one_decision bool N M h var_A sum2 majority y false (fun _ => True)) with (e := e); auto.
    + apply sum2_repeat.
    + intros k own m n os _ Hn P. unfold var_A. rewrite (against_perm _ _ _ P), (Permutation_length P), against_cons, against_repeat. cbn [length]. rewrite repeat_length.
      replace (((if xorb m false then 1 else 0) + 0) =? S n) with false; [rewrite andb_false_r; auto|]. symmetry. apply Nat.eqb_neq. destruct (xorb m false); lia.
    + intros m n l _ Hn P. unfold majority. rewrite (agree_perm _ _ _ P), (against_perm _ _ _ P), agree_cons, against_cons, agree_repeat, against_repeat. destruct (Nat.ltb_spec ((if xorb m false then 0 else 1) + n) ((if xorb m false then 1 else 0) + 0)); auto. destruct (xorb m false); lia.
    + intros y0 n _ Hn. unfold majority. destruct y0.
      * assert (P := against_len true (repeat false n)). assert (agree true (repeat false n) = 0). { unfold agree. clear. induction n; auto. } rewrite repeat_length in P. destruct (Nat.ltb_spec (agree true (repeat false n)) (against true (repeat false n))); auto. lia.
      * rewrite agree_repeat, against_repeat. auto.
  - apply (one_decision bool N M h var_B sum2 majority y false (fun _ => True)) with (e := e); auto.
    + apply sum2_repeat.
    + intros k own m n os _ Hn P. unfold var_B. rewrite agree_cons, (against_perm _ _ _ P), (agree_perm _ _ _ P), against_cons, agree_cons, against_repeat, agree_repeat.
      match goal with |- context [?a <? ?b] => destruct (Nat.ltb_spec a b) as [L|L] end; auto. destruct (xorb m false), (xorb own false); lia.
    + intros m n l _ Hn P. unfold majority. rewrite (agree_perm _ _ _ P), (against_perm _ _ _ P), agree_cons, against_cons, agree_repeat, against_repeat. destruct (Nat.ltb_spec ((if xorb m false then 0 else 1) + n) ((if xorb m false then 1 else 0) + 0)); auto. destruct (xorb m false); lia.
    + intros y0 n _ Hn. unfold majority. destruct y0.
      * assert (P := against_len true (repeat false n)). assert (agree true (repeat false n) = 0). { unfold agree. clear. induction n; auto. } rewrite repeat_length in P. destruct (Nat.ltb_spec (agree true (repeat false n)) (against true (repeat false n))); auto. lia.
      * rewrite agree_repeat, against_repeat. auto.
  - apply (one_decision Z N M h var_E prodz dec_E (fun v => sig (y v)) 1%Z (fun z => -1 <= z <= 1)%Z) with (e := e); auto.
    + apply prodz_repeat.
    + intros k own m n os Dm Hn P. unfold var_E. rewrite (perm_sum _ _ _ _ P). apply Z.sgn_pos. destruct (k =? 1); lia.
    + intros m n l Dm Hn P. unfold dec_E. rewrite (perm_sum _ _ _ _ P). destruct (Z.eqb_spec (1 + (m + Z.of_nat n * 1)) 0); auto. apply Z.ltb_ge. lia.
    + intros y0 n Dy Hn. unfold dec_E. rewrite sumz_repeat. destruct (Z.eqb_spec (y0 + Z.of_nat n * 1) 0); [lia|]. apply Z.ltb_ge. lia.
    + intros w. destruct (sig_cases (y w)); lia.
    + intros k y0 own os. unfold var_E. match goal with |- context [Z.sgn ?x] => destruct (Z.sgn_spec x) as [[_ E]|[[_ E]|[_ E]]]; rewrite E end; lia.
    + apply prodz_dom.
    + intros w Hw NE. rewrite YZ by auto. auto.
Qed.

Lemma decided_ext : forall a N M h y y' t v, (forall v, v < N -> y v = y' v) -> v < N -> decided a N M h y t v = decided a N M h y' t v.
Proof.
  intros a N M h y y' t v E Hv.
  assert (G : forall A (Y Y' : nat -> A) var chk dec, (forall v, v < N -> Y v = Y' v) -> decision A N M h Y var chk dec t v = decision A N M h Y' var chk dec t v).
  { intros A Y Y' var chk dec EY. unfold decision. rewrite EY by auto. f_equal. apply map_ext. intros c. unfold to_vars. f_equal. apply map_ext_in. intros w I. apply others_in in I. destruct I as [I _]. apply vars_in in I. destruct I as [Hw _].
    generalize (t - 1). intros k. revert w c Hw. induction k; intros w c Hw; cbn [sent]; [auto|]. unfold to_checks. rewrite EY by auto.
    assert (K : forall d u, to_vars A N h chk (sent A N M h Y var chk k) d u = to_vars A N h chk (sent A N M h Y' var chk k) d u).
    { intros d u. unfold to_vars. f_equal. apply map_ext_in. intros q I. apply others_in in I. destruct I as [I _]. apply vars_in in I. apply IHk. tauto. }
    rewrite K. f_equal. apply map_ext. intros. apply K. }
  destruct a; cbn [decided]; apply G; auto. intros w Hw. rewrite E by auto. auto.
Qed.

(** A codeword, or a codeword with one error. *)
Lemma clean_decisions : forall a N M h y x t v, in_code N M h x -> (forall v, v < N -> y v = x v) -> v < N -> decided a N M h y t v = x v.
Proof.
  intros a N M h y x t v XC E Hv. rewrite (decided_ext a N M h y (fun v => xorb (x v) false)) by (auto; intros; rewrite xorb_false_r; auto).
  rewrite (symmetric_decisions a N M h (fun _ => false) x) by auto. rewrite zero_decisions by auto. apply xorb_false_r.
Qed.
Lemma error_decisions : forall a N M h y x e t v, no_4_cycle N M h -> (forall v, v < N -> 3 <= row_deg h M v) -> in_code N M h x -> e < N -> (forall v, v < N -> v <> e -> y v = x v) -> v < N ->
  decided a N M h y t v = x v.
Proof.
  intros a N M h y x e t v N4 D3 XC HE E Hv. rewrite (decided_ext a N M h y (fun v => xorb (x v) (xorb (x v) (y v)))) by (auto; intros w _; destruct (x w), (y w); auto).
  rewrite (symmetric_decisions a N M h (fun v => xorb (x v) (y v)) x) by auto. rewrite (one_decisions a N M h _ e) by (auto; intros; rewrite E by auto; apply xorb_nilpotent). apply xorb_false_r.
Qed.

(** Gallager B when every variable is in an odd number of checks. *)
Lemma var_B_odd : forall k y own os, Nat.even (length os) = true -> var_B k y own os = majority y os.
Proof.
  intros k y own os EV. unfold var_B, majority. rewrite agree_cons. assert (P := against_len y os). apply Nat.even_spec in EV. destruct EV as (q & EV).
  destruct (Nat.ltb_spec ((if xorb own y then 0 else 1) + agree y os) (against y os)), (Nat.ltb_spec (agree y os) (against y os)); auto; destruct (xorb own y); lia.
Qed.
