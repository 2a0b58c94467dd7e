(** Proofs about texts: decimal numbers, words, lines and streams. *)
From Coq Require Import List Arith Lia Bool ZArith Ascii.
From Verif Require Import Base AListModel AListSpec.
Import ListNotations.

(* ------------------------------------------------------------------ *)
(** * Characters *)

Lemma nat_digit : forall n, n < 10 -> nat_of_ascii (ascii_of_nat (48 + n)) = 48 + n.
Proof. intros. apply nat_ascii_embedding. lia. Qed.

Lemma is_digit_of : forall n, n < 10 -> is_digit (ascii_of_nat (48 + n)) = true.
Proof. intros n H. unfold is_digit. rewrite (nat_digit n H). apply andb_true_iff. split; apply Nat.leb_le; lia. Qed.

Lemma digit_of : forall n, n < 10 -> digit (ascii_of_nat (48 + n)) = Z.of_nat n.
Proof. intros n H. unfold digit. rewrite (nat_digit n H). lia. Qed.

Lemma digit_range : forall c, is_digit c = true -> 48 <= nat_of_ascii c <= 57.
Proof. intros c H. apply andb_true_iff in H. destruct H as [A B]. apply Nat.leb_le in A. apply Nat.leb_le in B. lia. Qed.

Lemma digit_nospace : forall c, is_digit c = true -> is_space c = false.
Proof.
  intros c H. apply digit_range in H. unfold is_space. apply orb_false_iff. split; [apply Nat.eqb_neq; lia|].
  apply andb_false_iff. right. apply Nat.leb_gt. lia.
Qed.

Lemma digit_neq : forall c k, is_digit c = true -> k < 48 -> Ascii.eqb c (ascii_of_nat k) = false.
Proof.
  intros c k H Hk. apply digit_range in H. apply Ascii.eqb_neq. intros ->. rewrite nat_ascii_embedding in H by lia. lia.
Qed.

Lemma space_nodigit : forall c, is_space c = true -> is_digit c = false.
Proof. intros c H. destruct (is_digit c) eqn:E; [|reflexivity]. apply digit_nospace in E. congruence. Qed.

Lemma nl_space : is_space nl = true. Proof. reflexivity. Qed.
Lemma sp_space : is_space sp = true. Proof. reflexivity. Qed.

Lemma digit_value_pos : forall c, is_digit c = true -> (0 <= digit c <= 9)%Z.
Proof. intros c H. apply digit_range in H. unfold digit. lia. Qed.

(* ------------------------------------------------------------------ *)
(** * Decimal notation *)

Lemma value_app : forall a b, value (a ++ b) = fold_left (fun a c => 10 * a + digit c)%Z b (value a).
Proof. intros. unfold value. apply fold_left_app. Qed.

Lemma fold_value : forall d acc, fold_left (fun a c => 10 * a + digit c)%Z d acc = (acc * 10 ^ Z.of_nat (length d) + value d)%Z.
Proof.
  induction d as [|c d IH]; intros acc.
  - unfold value. cbn [fold_left length]. change (10 ^ Z.of_nat 0)%Z with 1%Z. lia.
  - unfold value. cbn [fold_left length]. rewrite IH, (IH (10 * 0 + digit c)%Z).
    rewrite Nat2Z.inj_succ, Z.pow_succ_r by lia. ring.
Qed.

Lemma value_nonneg : forall d, (forall c, In c d -> is_digit c = true) -> (0 <= value d)%Z.
Proof.
  intros d. unfold value. assert (G : forall d acc, (0 <= acc)%Z -> (forall c, In c d -> is_digit c = true) -> (0 <= fold_left (fun a c => 10 * a + digit c)%Z d acc)%Z).
  { clear d. induction d as [|c d IH]; intros acc Ha H; cbn [fold_left]; [exact Ha|]. apply IH.
    - pose proof (digit_value_pos c (H c (or_introl eq_refl))). lia.
    - intros x Hx. apply H. right. exact Hx. }
  apply G. lia.
Qed.

Lemma dec_loop_spec : forall fuel n acc, n < fuel -> exists d, dec_loop fuel n acc = d ++ acc /\ digits d /\ value d = Z.of_nat n.
Proof.
  induction fuel as [|fuel IH]; intros n acc H; [lia|]. cbn [dec_loop].
  assert (Hm : n mod 10 < 10) by (apply Nat.mod_upper_bound; lia).
  pose proof (Nat.div_mod n 10 ltac:(lia)) as D.
  destruct (n <? 10) eqn:E.
  - apply Nat.ltb_lt in E. exists [ascii_of_nat (48 + n mod 10)]. rewrite Nat.mod_small by lia.
    split; [reflexivity|split].
    + split; [discriminate|]. intros c [<- | []]. apply is_digit_of. lia.
    + unfold value. cbn [fold_left]. rewrite digit_of by lia. lia.
  - apply Nat.ltb_ge in E. destruct (IH (n / 10) (ascii_of_nat (48 + n mod 10) :: acc)) as (d & Ed & Dd & Vd).
    { assert (n / 10 < n) by (apply Nat.div_lt; lia). lia. }
    exists (d ++ [ascii_of_nat (48 + n mod 10)]). rewrite Ed, <- app_assoc. split; [reflexivity|split].
    + split; [destruct d; discriminate|]. intros c Hc. apply in_app_or in Hc. destruct Hc as [Hc|[<- | []]]; [apply Dd; exact Hc|].
      apply is_digit_of. exact Hm.
    + rewrite value_app. cbn [fold_left]. rewrite Vd, digit_of by exact Hm. lia.
Qed.

Lemma dec_spec : forall n, digits (dec n) /\ value (dec n) = Z.of_nat n.
Proof. intros n. unfold dec. destruct (dec_loop_spec (S n) n [] ltac:(lia)) as (d & E & D & V). rewrite E, app_nil_r. auto. Qed.

Lemma dec_decimal : forall n, decimal (dec n) (Z.of_nat n).
Proof. intros n. destruct (dec_spec n) as [D V]. left. auto. Qed.

Lemma digits_word : forall d, digits d -> word d.
Proof. intros d [A B]. split; [exact A|]. intros c Hc. apply digit_nospace. apply B. exact Hc. Qed.

Lemma decimal_word : forall w z, decimal w z -> word w.
Proof.
  intros w z [[D _]|(d & -> & D & _)]; [apply digits_word; exact D|]. split; [discriminate|].
  intros c [<- | Hc]; [reflexivity|]. apply digit_nospace, D, Hc.
Qed.

Lemma take_digits_spec : forall d r acc k, (forall c, In c d -> is_digit c = true) -> (forall c r', r = c :: r' -> is_digit c = false) ->
  take_digits (d ++ r) acc k = (fold_left (fun a c => 10 * a + digit c)%Z d acc, k + length d, r).
Proof.
  induction d as [|c d IH]; intros r acc k H Hr.
  - cbn [app fold_left length]. rewrite Nat.add_0_r. destruct r as [|c r]; cbn [take_digits]; [reflexivity|].
    rewrite (Hr c r eq_refl). reflexivity.
  - cbn [app take_digits]. rewrite (H c (or_introl eq_refl)). rewrite IH; [|intros x Hx; apply H; right; exact Hx|exact Hr].
    cbn [fold_left length]. rewrite Nat.add_succ_comm. reflexivity.
Qed.

Lemma take_sign_digits : forall d r, digits d -> take_sign (d ++ r) = (false, d ++ r).
Proof.
  intros [|c d] r [A B]; [congruence|]. cbn [app take_sign].
  unfold minus, plus. rewrite !(digit_neq c) by (try lia; apply B; left; reflexivity). reflexivity.
Qed.

(** A decimal word followed by something that is not a digit. *)
Lemma parse_decimal : forall w z r, decimal w z -> (forall c r', r = c :: r' -> is_digit c = false) ->
  exists neg d, take_sign (w ++ r) = (neg, d ++ r) /\ take_digits (d ++ r) 0 0 = (value d, length d, r) /\ length d <> 0 /\
    z = (if neg then - value d else value d)%Z /\ (0 <= value d)%Z.
Proof.
  intros w z r [[D ->]|(d & -> & D & ->)] Hr.
  - exists false, w. rewrite take_sign_digits by exact D. rewrite take_digits_spec by (try exact Hr; apply D).
    repeat split; try reflexivity; [destruct D as [D _]; destruct w; [congruence|discriminate]|apply value_nonneg, D].
  - exists true, d. cbn [app take_sign]. rewrite Ascii.eqb_refl. rewrite take_digits_spec by (try exact Hr; apply D).
    repeat split; try reflexivity; [destruct D as [D _]; destruct d; [congruence|discriminate]|apply value_nonneg, D].
Qed.

Lemma skip_ws_spaces : forall p t, blank p = true -> skip_ws (p ++ t) = skip_ws t.
Proof. induction p as [|c p IH]; intros t H; [reflexivity|]. cbn [blank forallb] in H. apply andb_true_iff in H. cbn [app skip_ws]. rewrite (proj1 H). apply IH, H. Qed.

Lemma skip_ws_word : forall w t, word w -> skip_ws (w ++ t) = w ++ t.
Proof. intros [|c w] t [A B]; [congruence|]. cbn [app skip_ws]. rewrite (B c (or_introl eq_refl)). reflexivity. Qed.

Lemma stoi_decimal : forall w z, decimal w z -> (- 2 ^ 31 <= z < 2 ^ 31)%Z -> stoi w = Ret z.
Proof.
  intros w z D H. unfold stoi. pose proof (skip_ws_word w [] (decimal_word w z D)) as Sk. rewrite app_nil_r in Sk. rewrite Sk.
  destruct (parse_decimal w z [] D ltac:(discriminate)) as (neg & d & E1 & E2 & E3 & E4 & _).
  rewrite app_nil_r in E1. rewrite E1. rewrite E2.
  destruct (Nat.eqb_spec (length d) 0); [contradiction|]. rewrite <- E4.
  destruct (Z.leb_spec (- 2 ^ 31) z); [|lia]. destruct (Z.ltb_spec z (2 ^ 31)); [|lia]. reflexivity.
Qed.

(** Reading an unsigned number. *)
Lemma get_tok : forall old p w z c r, blank p = true -> decimal w z -> (0 <= z < 2 ^ 32)%Z -> is_space c = true ->
  get_unsigned old (open (p ++ w ++ c :: r)) = (z, open (c :: r)).
Proof.
  intros old p w z c r Hp D Hz Hc. unfold get_unsigned, open. cbn [s_eof s_fail s_rest orb].
  rewrite skip_ws_spaces by exact Hp. rewrite skip_ws_word by (apply (decimal_word w z D)).
  destruct (parse_decimal w z (c :: r) D) as (neg & d & E1 & E2 & E3 & E4 & E5).
  { intros c' r' E. injection E as <- _. apply space_nodigit, Hc. }
  assert (Hw : w ++ c :: r <> []) by (destruct w; discriminate).
  destruct (w ++ c :: r) as [|x t] eqn:Ew; [congruence|]. rewrite E1. rewrite E2.
  destruct (Nat.eqb_spec (length d) 0); [contradiction|].
  destruct (Z.leb_spec (2 ^ 32) (value d)).
  - exfalso. destruct neg; lia.
  - rewrite <- E4. rewrite Z.mod_small by lia. reflexivity.
Qed.

Lemma get_fail : forall old s, s_fail s = true -> exists s', get_unsigned old s = (old, s') /\ s_fail s' = true.
Proof. intros old s H. unfold get_unsigned. rewrite H, orb_true_r. eexists. split; reflexivity. Qed.

Lemma get_hash : forall p r, blank p = true -> exists s', get_unsigned 0 (open (p ++ hash :: r)) = (0%Z, s') /\ s_fail s' = true.
Proof.
  intros p r Hp. unfold get_unsigned, open. cbn [s_eof s_fail s_rest orb]. rewrite skip_ws_spaces by exact Hp.
  change (skip_ws (hash :: r)) with (hash :: r). cbv iota. change (take_sign (hash :: r)) with (false, hash :: r).
  cbv iota beta zeta. change (take_digits (hash :: r) 0 0) with (0%Z, 0, hash :: r). eexists. split; reflexivity.
Qed.

(* ------------------------------------------------------------------ *)
(** * Words *)

Lemma blank_app : forall a b, blank (a ++ b) = blank a && blank b.
Proof. intros. apply forallb_app. Qed.

Lemma words_blank : forall p t, blank p = true -> words_from [] (p ++ t) = words_from [] t.
Proof.
  induction p as [|c p IH]; intros t H; [reflexivity|]. cbn [blank forallb] in H. apply andb_true_iff in H.
  cbn [app words_from]. rewrite (proj1 H). cbn [flush app]. apply IH, H.
Qed.

Lemma words_word : forall w t cur, (forall c, In c w -> is_space c = false) -> words_from cur (w ++ t) = words_from (rev w ++ cur) t.
Proof.
  induction w as [|c w IH]; intros t cur H; [reflexivity|]. cbn [app words_from]. rewrite (H c (or_introl eq_refl)).
  rewrite IH by (intros x Hx; apply H; right; exact Hx). cbn [rev]. rewrite <- app_assoc. reflexivity.
Qed.

Lemma flush_word : forall w, w <> [] -> flush (rev w) = [w].
Proof.
  intros w H. unfold flush. rewrite <- (rev_involutive w) at 2. destruct (rev w) eqn:E; [|reflexivity].
  apply (f_equal (@rev ascii)) in E. rewrite rev_involutive in E. cbn in E. congruence.
Qed.

Lemma split_words : forall t ws, has_words t ws -> split t = ws.
Proof.
  intros t ws H. unfold split. induction H as [p Hp|p w Hp [Hw Hn]|p w c t ws Hp [Hw Hn] Hc _ IH].
  - rewrite <- (app_nil_r p), words_blank by exact Hp. reflexivity.
  - rewrite words_blank by exact Hp. rewrite <- (app_nil_r w), words_word by exact Hn. rewrite !app_nil_r. cbn [words_from]. apply flush_word, Hw.
  - rewrite words_blank by exact Hp. rewrite words_word by exact Hn. rewrite app_nil_r. cbn [words_from]. rewrite Hc.
    rewrite flush_word by exact Hw. rewrite IH. reflexivity.
Qed.

Lemma Forall2_len : forall A B (P : A -> B -> Prop) l l', Forall2 P l l' -> length l = length l'.
Proof. intros A B P l l' H. induction H; cbn [length]; lia. Qed.

Lemma numbers_split : forall l zs, numbers l zs -> length (split l) = length zs /\ Forall2 decimal (split l) zs.
Proof. intros l zs (ws & H & F). rewrite (split_words l ws H). split; [eapply Forall2_len; exact F|exact F]. Qed.

Lemma Forall2_nth : forall A B (P : A -> B -> Prop) l l' a b i, Forall2 P l l' -> i < length l -> P (nth i l a) (nth i l' b).
Proof.
  intros A B P l l' a b i H. revert i. induction H as [|x y l l' Hxy H IH]; intros i Hi; [cbn in Hi; lia|].
  destruct i; cbn [nth]; [exact Hxy|]. apply IH. cbn in Hi. lia.
Qed.

Lemma at_i_ok : forall l zs i, numbers l zs -> i < length zs -> (- 2 ^ 31 <= nth i zs 0 < 2 ^ 31)%Z -> at_i (split l) i = Ret (nth i zs 0%Z).
Proof.
  intros l zs i H Hi Hz. destruct (numbers_split l zs H) as [L F].
  assert (Hl : i < @length text (split l)) by (unfold text in *; rewrite L; exact Hi). unfold at_i. rewrite (rd_ok text [] (split l) i) by exact Hl. cbn [bind].
  apply stoi_decimal; [|exact Hz]. apply (Forall2_nth _ _ _ _ _ [] 0%Z i F). exact Hl.
Qed.

(* ------------------------------------------------------------------ *)
(** * Lines *)

Lemma take_line_nl : forall l r, no_nl l -> take_line (l ++ nl :: r) = (l, Some r).
Proof.
  induction l as [|c l IH]; intros r H.
  - cbn [app take_line]. rewrite Ascii.eqb_refl. reflexivity.
  - cbn [app take_line]. destruct (Ascii.eqb_spec c nl) as [-> | E]; [exfalso; apply H; left; reflexivity|].
    rewrite IH by (intros K; apply H; right; exact K). reflexivity.
Qed.

Lemma std_getline_nl : forall line l r, no_nl l -> std_getline line (open (l ++ nl :: r)) = (true, l, open r).
Proof. intros. unfold std_getline, open. cbn [s_eof s_fail s_rest orb]. rewrite take_line_nl by assumption. destruct l; reflexivity. Qed.

Lemma kept_relevant : forall l, kept_line l = negb (comment l || blank l).
Proof. intros l. unfold kept_line, comment, blank. destruct l; rewrite negb_orb; reflexivity. Qed.

Lemma getline_loop_ok : forall ls rest l more line fuel, Forall no_nl ls -> relevant ls = l :: more -> length (lines ls ++ rest) < fuel ->
  exists pre ls', ls = pre ++ l :: ls' /\ relevant ls' = more /\ relevant pre = [] /\ getline_loop fuel line (open (lines ls ++ rest)) = Ret (l, open (lines ls' ++ rest)).
Proof.
  induction ls as [|a ls IH]; intros rest l more line fuel Hn Hr Hf; [discriminate|].
  destruct fuel as [|fuel]; [lia|]. inversion_clear Hn as [|? ? Ha Hls].
  cbn [lines flat_map] in *. fold (lines ls) in *. rewrite <- !app_assoc in *. cbn [app] in *.
  cbn [getline_loop]. rewrite std_getline_nl by exact Ha. rewrite kept_relevant. cbn [relevant filter] in Hr.
  destruct (negb (comment a || blank a)) eqn:E.
  - injection Hr as -> Hr. exists [], ls. repeat split; try assumption. 
  - fold (relevant ls) in Hr. destruct (IH rest l more a fuel Hls Hr) as (pre & ls' & -> & E2 & E3 & E4).
    { rewrite app_length in Hf. cbn in Hf. lia. }
    exists (a :: pre), ls'. split; [reflexivity|split; [exact E2|split; [|exact E4]]].
    cbn [relevant filter]. rewrite E. exact E3.
Qed.

Lemma getline_ok : forall ls rest l more line, Forall no_nl ls -> relevant ls = l :: more ->
  exists pre ls', ls = pre ++ l :: ls' /\ Forall no_nl ls' /\ relevant ls' = more /\ getline line (open (lines ls ++ rest)) = Ret (l, open (lines ls' ++ rest)).
Proof.
  intros ls rest l more line Hn Hr. unfold getline. cbn [open s_eof s_fail orb negb guard bind s_rest].
  destruct (getline_loop_ok ls rest l more line (S (length (lines ls ++ rest))) Hn Hr ltac:(lia)) as (pre & ls' & E1 & E2 & _ & E3).
  exists pre, ls'. repeat split; try assumption. subst ls. apply Forall_app in Hn. destruct Hn as [_ Hn]. inversion Hn. assumption.
Qed.

Lemma getline_split_ok : forall ls rest l more, Forall no_nl ls -> relevant ls = l :: more ->
  exists pre ls', ls = pre ++ l :: ls' /\ Forall no_nl ls' /\ relevant ls' = more /\ getline_split (open (lines ls ++ rest)) = Ret (split l, open (lines ls' ++ rest)).
Proof.
  intros ls rest l more Hn Hr. unfold getline_split. destruct (getline_ok ls rest l more [] Hn Hr) as (pre & ls' & E1 & E2 & E3 & E4).
  exists pre, ls'. rewrite E4. cbn [bind]. auto.
Qed.

(* ------------------------------------------------------------------ *)
(** * Streams of numbers *)

(** Reading numbers from s gives zs and leads to a stream in K; when [b], a failure may come first, after which every number
    read is zero. *)
Inductive src (b : bool) (K : stream -> Prop) : stream -> list Z -> Prop :=
| src_nil : forall s, K s -> src b K s []
| src_cons : forall s s' z zs, get_unsigned 0 s = (z, s') -> src b K s' zs -> src b K s (z :: zs)
| src_cut : forall s s' z zs, b = true -> get_unsigned 0 s = (0%Z, s') -> s_fail s' = true -> src b K s (z :: zs).

Lemma src_inv : forall b K s z zs, src b K s (z :: zs) ->
  exists x s', get_unsigned 0 s = (x, s') /\ ((x = z /\ src b K s' zs) \/ (b = true /\ x = 0%Z /\ s_fail s' = true)).
Proof.
  intros b K s z zs H. inversion H as [|? s' ? ? E Hs|? s' ? ? Hb F1 F2]; subst.
  - exists z, s'. auto.
  - exists 0%Z, s'. auto.
Qed.

Lemma src_inv_nil : forall b K s, src b K s [] -> K s.
Proof. intros b K s H. inversion H. assumption. Qed.

Lemma line_words_src : forall b K l ws zs p r more, has_words l ws -> Forall2 decimal ws zs -> (forall z, In z zs -> 0 <= z < 2 ^ 32)%Z -> blank p = true ->
  (forall q, blank q = true -> src b K (open (q ++ nl :: r)) more) ->
  src b K (open (p ++ l ++ nl :: r)) (zs ++ more).
Proof.
  intros b K l ws zs p r more H. revert zs p. induction H as [q Hq|q w Hq Hw|q w c t ws Hq Hw Hc _ IH]; intros zs p F Hz Hp Hm.
  - inversion F; subst. rewrite app_assoc. apply Hm. rewrite blank_app, Hp, Hq. reflexivity.
  - inversion F as [|? z ? ? D F']; subst. inversion F'; subst. cbn [app].
    apply src_cons with (s' := open (nl :: r)).
    + rewrite <- app_assoc, app_assoc. apply get_tok; [rewrite blank_app, Hp, Hq; reflexivity|exact D|apply Hz; left; reflexivity|reflexivity].
    + apply (Hm []). reflexivity.
  - inversion F as [|? z ? zs' D F']; subst. cbn [app].
    apply src_cons with (s' := open (c :: t ++ nl :: r)).
    + rewrite <- !app_assoc. rewrite app_assoc. cbn [app]. apply get_tok; [rewrite blank_app, Hp, Hq; reflexivity|exact D|apply Hz; left; reflexivity|exact Hc].
    + change (c :: t ++ nl :: r) with ([c] ++ t ++ nl :: r). apply IH; [exact F'|intros x Hx; apply Hz; right; exact Hx|cbn; rewrite Hc; reflexivity|exact Hm].
Qed.

Lemma src_impl : forall b (K K' : stream -> Prop) zs s, (forall s, K s -> K' s) -> src b K s zs -> src b K' s zs.
Proof.
  intros b K K' zs s HK H. induction H as [s H|s s' z zs E _ IH|s s' z zs Hb E F].
  - apply src_nil. apply HK. exact H.
  - eapply src_cons; eassumption.
  - eapply src_cut; eassumption.
Qed.

Lemma src_app : forall b K zs s zs', src b (fun s => src b K s zs') s zs -> src b K s (zs ++ zs').
Proof.
  intros b K zs s zs' H. induction H as [s H|s s' z zs E _ IH|s s' z zs Hb E F]; cbn [app].
  - exact H.
  - eapply src_cons; eassumption.
  - eapply src_cut; eassumption.
Qed.

Lemma src_stop : forall b K zs s, (forall z, In z zs -> False) -> src b K s zs -> K s.
Proof. intros b K [|z zs] s H0 H; [apply src_inv_nil in H; exact H|exfalso; apply (H0 z); left; reflexivity]. Qed.

(** The numbers of the relevant lines; a comment makes the reading fail. *)
Lemma lines_src : forall b (K : stream -> Prop) ls zss rest p, Forall2 numbers (relevant ls) zss -> (forall zs z, In zs zss -> In z zs -> 0 <= z < 2 ^ 32)%Z -> blank p = true ->
  (b = false -> forall l, In l ls -> comment l = false) -> (b = true -> forall s, K s) -> (forall q, blank q = true -> K (open (q ++ rest))) ->
  src b K (open (p ++ lines ls ++ rest)) (concat zss).
Proof.
  intros b K. induction ls as [|l ls IH]; intros zss rest p F Hz Hp Hb Ht HK.
  - cbn in F. inversion F; subst. constructor. cbn [lines flat_map app]. apply HK, Hp.
  - cbn [lines flat_map]. fold (lines ls). rewrite <- !app_assoc. cbn [app]. cbn [relevant filter] in F. fold (relevant ls) in F.
    destruct (comment l) eqn:Ec.
    + cbn [orb negb] in F. destruct l as [|c l]; [discriminate|]. cbn in Ec. apply Ascii.eqb_eq in Ec. subst c.
      destruct b; [|exfalso; specialize (Hb eq_refl (hash :: l) (or_introl eq_refl)); discriminate].
      match goal with |- src _ _ ?s _ => change s with (open (p ++ hash :: l ++ nl :: lines ls ++ rest)) end.
      destruct (get_hash p (l ++ nl :: lines ls ++ rest) Hp) as (s' & E1 & E2).
      destruct (concat zss); [apply src_nil, Ht; reflexivity|]. apply (src_cut true K _ s'); auto.
    + destruct (blank l) eqn:El; cbn [orb negb] in F.
      * rewrite app_assoc. change (nl :: lines ls ++ rest) with ([nl] ++ lines ls ++ rest). rewrite app_assoc.
        apply IH; [exact F|exact Hz| |intros E x Hx; apply Hb; [exact E|right; exact Hx]|exact Ht|exact HK].
        rewrite !blank_app, Hp, El. reflexivity.
      * inversion F as [|? zs ? zss' (ws & W & D) F']; subst. cbn [concat].
        apply (line_words_src b K l ws zs p _ _ W D); [intros z; apply (Hz zs); left; reflexivity|exact Hp|].
        intros q Hq. change (nl :: lines ls ++ rest) with ([nl] ++ lines ls ++ rest). rewrite app_assoc.
        apply IH; [exact F'|intros zs' z A B; apply (Hz zs' z); [right; exact A|exact B]| |intros E x Hx; apply Hb; [exact E|right; exact Hx]|exact Ht|exact HK].
        rewrite blank_app, Hq. reflexivity.
Qed.
