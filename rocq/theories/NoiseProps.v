(** C84 (noise objects), C85 (noise points of a simulation) and C86 (check of a look-up table). *)
From Coq Require Import List ZArith QArith Qround Qabs Qpower Bool Arith Lqa Lia Sorted.
From Verif Require Import Base FloatQ QuantProps NoiseModel.
Import ListNotations.

(** ** C84 *)

(** A sigma the class accepts: positive (a NaN is accepted too). *)
Definition sigma_ok (v : num) : Prop := match v with Fin q => (0 < q)%Q | NaN => True | _ => False end.
Definition prob_ok (v : num) : Prop := match v with Fin q => (- (1 # 100000) <= q <= 100001 # 100000)%Q | NaN => True | _ => False end.

Lemma Qle_bool_false : forall a b, Qle_bool a b = false -> (b < a)%Q.
Proof. intros a b H. apply Qnot_le_lt. intros C. apply Qle_bool_iff in C. congruence. Qed.
Lemma Qle_bool_lt : forall a b, (b < a)%Q -> Qle_bool a b = false.
Proof. intros a b H. destruct (Qle_bool a b) eqn:E; [|reflexivity]. apply Qle_bool_iff in E. lra. Qed.

Lemma check_sigma : forall n, kd n = SIGMA -> (check n = Ret tt /\ sigma_ok (value n)) \/ (check n = Throws /\ ~ sigma_ok (value n)).
Proof.
  intros n K. unfold check, get_value, is_set. rewrite K. destruct (value n) as [q| | |]; cbn [bind le_num sigma_ok]; auto.
  destruct (Qle_bool q 0) eqn:E; [right|left]; split; try reflexivity.
  - apply Qle_bool_iff in E. lra.
  - apply Qle_bool_false in E. exact E.
Qed.

(** The constructors accept exactly the valid values. *)
Theorem C84_constructors : forall v,
  (sigma_ok v -> exists n, new_value SIGMA v = Ret n /\ get_value n = Ret v /\ get_ebn0 n = Throws /\ get_esn0 n = Throws) /\
  (~ sigma_ok v -> new_value SIGMA v = Throws) /\
  (forall eb es, sigma_ok v -> exists n, new_sigma v eb es = Ret n /\ get_value n = Ret v /\ (eb <> PInf -> get_ebn0 n = Ret eb) /\ (es <> PInf -> get_esn0 n = Ret es)) /\
  (forall eb es, ~ sigma_ok v -> new_sigma v eb es = Throws) /\
  (prob_ok v -> exists n, new_value EP v = Ret n /\ get_value n = Ret v) /\
  (~ prob_ok v -> new_value EP v = Throws) /\
  (exists n, new_value ROP v = Ret n /\ (v <> PInf -> get_value n = Ret v)).
Proof.
  intros v.
  assert (F : forall x, x <> PInf -> get_field (Some x) = Ret x) by (intros [q| | |] H; try reflexivity; contradiction).
  assert (S : sigma_ok v -> forall e1 e2, get_value {| kd := SIGMA; value := v; ebn0 := e1; esn0 := e2 |} = Ret v) by (intros H e1 e2; destruct v; try contradiction; reflexivity).
  repeat split.
  - intros H. unfold new_value. destruct (check_sigma {| kd := SIGMA; value := v; ebn0 := Some PInf; esn0 := Some PInf |} eq_refl) as [[C _]|[_ C]]; [|contradiction].
    rewrite C. eexists. repeat split; auto.
  - intros H. unfold new_value. destruct (check_sigma {| kd := SIGMA; value := v; ebn0 := Some PInf; esn0 := Some PInf |} eq_refl) as [[_ C]|[C _]]; [contradiction|].
    rewrite C. reflexivity.
  - intros eb es H. unfold new_sigma. destruct (check_sigma {| kd := SIGMA; value := v; ebn0 := Some eb; esn0 := Some es |} eq_refl) as [[C _]|[_ C]]; [|contradiction].
    rewrite C. eexists. split; [reflexivity|]. split; [auto|]. split; apply F.
  - intros eb es H. unfold new_sigma. destruct (check_sigma {| kd := SIGMA; value := v; ebn0 := Some eb; esn0 := Some es |} eq_refl) as [[_ C]|[C _]]; [contradiction|].
    rewrite C. reflexivity.
  - intros H. destruct v as [q| | |]; try contradiction.
    + destruct H as [H1 H2]. exists {| kd := EP; value := Fin q; ebn0 := None; esn0 := None |}. split; [|reflexivity].
      unfold new_value, ep_check, get_value, is_set. cbn [value bind lt_num gt_num]. rewrite (proj2 (Qle_bool_iff _ _) H1), (proj2 (Qle_bool_iff _ _) H2). reflexivity.
    + exists {| kd := EP; value := NaN; ebn0 := None; esn0 := None |}. split; reflexivity.
  - intros H. destruct v as [q| | |]; try reflexivity; [|destruct H; exact I].
    unfold new_value, ep_check, get_value, is_set. cbn [value bind lt_num gt_num]. destruct (Qle_bool (- (1 # 100000)) q) eqn:E1; [|reflexivity]. destruct (Qle_bool q (100001 # 100000)) eqn:E2; [|reflexivity].
    apply Qle_bool_iff in E1. apply Qle_bool_iff in E2. destruct H. split; assumption.
  - exists {| kd := ROP; value := v; ebn0 := None; esn0 := None |}. split; [reflexivity|]. intros H. destruct v; try reflexivity; contradiction.
Qed.

(** set_value: when it returns, the value is the given one, the listeners were notified once, and they read the final object. *)
Theorem C84_set_value : forall n v n' seen, set_value n v = (Ret tt, n', seen) ->
  kd n' = kd n /\ seen = [n'] /\ ebn0 n' = ebn0 n /\ esn0 n' = esn0 n /\
  (v <> PInf -> get_value n' = Ret v) /\ (v = PInf -> get_value n' = Throws) /\ (kd n = SIGMA -> sigma_ok v).
Proof.
  intros n v n' seen H. unfold set_value in H. destruct (check (with_value n v)) eqn:C; try discriminate. injection H as <- <-.
  split; [reflexivity|]. split; [reflexivity|]. split; [reflexivity|]. split; [reflexivity|]. split; [|split].
  - intros Hv. destruct v; try reflexivity; contradiction.
  - intros ->. reflexivity.
  - intros K. destruct (check_sigma (with_value n v) K) as [[_ S]|[S _]]; [exact S|]. rewrite S in C. discriminate.
Qed.
(** set_value on a Sigma throws on an invalid value, and no listener is called. *)
Theorem C84_set_value_throws : forall n v, kd n = SIGMA -> ~ sigma_ok v -> exists n', set_value n v = (Throws, n', []).
Proof.
  intros n v K H. unfold set_value. destruct (check_sigma (with_value n v) K) as [[_ C]|[C _]]; [contradiction|]. rewrite C. eexists. reflexivity.
Qed.
(** After set_values the three getters give the three values. *)
Theorem C84_set_values : forall n s eb es, kd n = SIGMA -> sigma_ok s -> exists n' m, set_values n s eb es = (Ret tt, n', [m]) /\
  get_value n' = Ret s /\ get_value m = Ret s /\ (eb <> PInf -> get_ebn0 n' = Ret eb) /\ (es <> PInf -> get_esn0 n' = Ret es).
Proof.
  intros n s eb es K H. unfold set_values, set_value. destruct (check_sigma (with_value n s) K) as [[C _]|[_ C]]; [|contradiction]. rewrite C.
  eexists. eexists. split; [reflexivity|]. assert (F : forall x, x <> PInf -> get_field (Some x) = Ret x) by (intros [q| | |] G; try reflexivity; contradiction).
  split; [destruct s; try contradiction; reflexivity|]. split; [destruct s; try contradiction; reflexivity|]. split; apply F.
Qed.
(** A copy reads as its source, and its listeners see that; between two Sigma the Eb/N0 and Es/N0 follow. *)
Theorem C84_copy : forall n o, exists n', copy_noise n o = (Ret tt, n', [n']) /\ kd n' = kd n /\ get_value n' = get_value o /\ is_set n' = is_set o /\
  (kd n = SIGMA -> kd o = SIGMA -> get_ebn0 n' = get_ebn0 o /\ get_esn0 n' = get_esn0 o).
Proof.
  intros n o. unfold copy_noise. eexists. split; [reflexivity|]. destruct (kd n) eqn:K1, (kd o) eqn:K2; cbn; rewrite ?K1; repeat split; try discriminate.
Qed.

(** Over any history of calls none of which throws, a Sigma is unset or has a valid value, provided that what is copied into it has. *)
Inductive op := OSet (v : num) | OSets (s eb es : num) | OCopy (o : noise).
Definition run_op (n : noise) (o : op) : effect :=
  match o with OSet v => set_value n v | OSets s eb es => set_values n s eb es | OCopy m => copy_noise n m end.
Inductive history : noise -> noise -> Prop :=
| h_nil : forall n, history n n
| h_cons : forall n o n1 seen n2, (forall m, o = OCopy m -> is_set m = true -> sigma_ok (value m)) -> run_op n o = (Ret tt, n1, seen) -> history n1 n2 -> history n n2.
Theorem C84_history_partial : forall n n', history n n' -> kd n = SIGMA -> (is_set n = true -> sigma_ok (value n)) ->
  kd n' = SIGMA /\ (get_value n' = Throws \/ exists v, get_value n' = Ret v /\ sigma_ok v).
Proof.
  intros n n' H. induction H as [n|n o n1 seen n2 Ho E H IH]; intros K V.
  - split; [exact K|]. unfold get_value. destruct (is_set n); [right; eauto|auto].
  - apply IH.
    + destruct o as [v|s eb es|m]; cbn [run_op] in E.
      * apply C84_set_value in E. destruct E as (E & _). congruence.
      * unfold set_values in E. destruct (set_value n s) as [[[[]| |] n0] s0] eqn:E0; try discriminate. apply C84_set_value in E0. destruct E0 as (E0 & _). injection E as <- _. cbn [kd]. congruence.
      * destruct (C84_copy n m) as (n'' & C1 & C2 & _). rewrite C1 in E. injection E as <- _. congruence.
    + intros S. destruct o as [v|s eb es|m]; cbn [run_op] in E.
      * pose proof E as E'. unfold set_value in E'. destruct (check (with_value n v)); try discriminate. injection E' as <- _. apply C84_set_value in E. cbn [with_value value]. apply E. exact K.
      * unfold set_values in E. destruct (set_value n s) as [[[[]| |] n0] s0] eqn:E0; try discriminate. pose proof E0 as E'. unfold set_value in E'. destruct (check (with_value n s)); try discriminate. injection E' as <- _. apply C84_set_value in E0. injection E as <- _. cbn [value with_value]. apply E0. exact K.
      * unfold copy_noise in E. injection E as <- _. assert (V2 : value (with_value match kd n with SIGMA => match kd m with SIGMA => {| kd := SIGMA; value := value n; ebn0 := ebn0 m; esn0 := esn0 m |} | _ => n end | _ => n end (value m)) = value m) by reflexivity.
        rewrite V2. apply (Ho m eq_refl). unfold is_set in *. rewrite V2 in S. exact S.
Qed.

(** What does not hold. A set_value that throws has already stored the rejected value, which the getter then returns. *)
Theorem C84_rejected_stays_refuted : forall n q, kd n = SIGMA -> (q <= 0)%Q -> exists n', set_value n (Fin q) = (Throws, n', []) /\ get_value n' = Ret (Fin q).
Proof.
  intros n q K H. unfold set_value. destruct (check_sigma (with_value n (Fin q)) K) as [[_ C]|[C _]]; [cbn in C; lra|]. rewrite C. eexists. split; reflexivity.
Qed.
(** An event probability takes any value through set_value: 2 as well as -1. *)
Theorem C84_probability_refuted : forall n v, kd n = EP -> exists n', set_value n v = (Ret tt, n', [n']) /\ value n' = v.
Proof. intros n v K. unfold set_value, check. cbn [with_value kd]. rewrite K. eexists. split; reflexivity. Qed.
(** The listeners of set_values read the old Eb/N0 and Es/N0. *)
Theorem C84_listeners_refuted : forall n s eb es n' seen, set_values n s eb es = (Ret tt, n', seen) ->
  exists m, seen = [m] /\ get_value m = get_value n' /\ get_ebn0 m = get_ebn0 n /\ get_esn0 m = get_esn0 n.
Proof.
  intros n s eb es n' seen H. unfold set_values, set_value in H. destruct (check (with_value n s)); try discriminate. injection H as <- <-. eexists. repeat split.
Qed.
(** A copy from a noise of another type is not checked: a Sigma of 0. *)
Theorem C84_copy_refuted : exists n o n', new_value SIGMA (Fin 1) = Ret n /\ new_value EP (Fin 0) = Ret o /\ copy_noise n o = (Ret tt, n', [n']) /\ get_value n' = Ret (Fin 0).
Proof. do 3 eexists. split; [reflexivity|]. split; [reflexivity|]. split; reflexivity. Qed.
(** A Sigma made by the default constructor has no Eb/N0 to read: the member is not initialised. *)
Theorem C84_default_refuted : forall v, sigma_ok v -> exists n', set_value (new_default SIGMA) v = (Ret tt, n', [n']) /\ get_value n' = Ret v /\ get_ebn0 n' = Undef.
Proof.
  intros v H. unfold set_value. destruct (check_sigma (with_value (new_default SIGMA) v) eq_refl) as [[C _]|[_ C]]; [|contradiction]. rewrite C. eexists. split; [reflexivity|]. split; [destruct v; try contradiction; reflexivity|reflexivity].
Qed.

Example C84_hypotheses : exists n, new_sigma (Fin (1 # 2)) (Fin 1) (Fin 4) = Ret n /\
  history n {| kd := SIGMA; value := Fin (1 # 4); ebn0 := Some (Fin 4); esn0 := Some (Fin 7) |}.
Proof.
  eexists. split; [reflexivity|]. eapply (h_cons _ (OSet (Fin 2))); [discriminate|reflexivity|]. eapply (h_cons _ (OSets (Fin (1 # 4)) (Fin 4) (Fin 7))); [discriminate|reflexivity|]. apply h_nil.
Qed.

(** ** C85 *)

(** The integer a value stands for, in units of 1e-7. *)
Definition unit_of (prec : Z) (x : Q) : Z := let y := fl prec (x * 10000000) in Z.quot (Qnum y) (Zpos (Qden y)).
Definition int_ok (z : Z) : Prop := (- 2147483648 <= z <= 2147483647)%Z.
Lemma in_int_ok : forall z, in_int z = true <-> int_ok z.
Proof. intros z. unfold in_int, int_ok, INT_MAX. rewrite andb_true_iff, !Z.leb_le. lia. Qed.
Lemma to_int_ok : forall prec x, int_ok (unit_of prec x) -> to_int prec x = Ret (unit_of prec x).
Proof. intros prec x H. unfold to_int. fold (unit_of prec x). apply in_int_ok in H. rewrite H. reflexivity. Qed.

(** The points of one element: one value; or from front to back by step, the step being the default one if there are two values.
    A decreasing element with a negative step is read from its end. *)
Definition points (prec : Z) (default : Q) (s : list Q) (z : Z) : Prop :=
  let u := unit_of prec in
  let sweep front step back :=
    if (u back <? u front)%Z && (u step <? 0)%Z
    then exists k, (0 <= k)%Z /\ z = (u back - k * u step)%Z /\ (z <= u front)%Z
    else exists k, (0 <= k)%Z /\ z = (u front + k * u step)%Z /\ (z <= u back)%Z in
  match s with
  | [x] => z = u x
  | [a; b] => sweep a default b
  | [a; st; b] => sweep a st b
  | _ => False
  end.
(** Every value fits an int after the scaling; the step has the sign of the direction, or the element is empty; one step past the end fits. *)
Definition entry_ok (prec : Z) (default : Q) (s : list Q) : Prop :=
  let u := unit_of prec in
  let sweep front step back :=
    int_ok (u front) /\ int_ok (u back) /\ int_ok (u step) /\
    ((u front <= u back)%Z -> (0 < u step)%Z /\ int_ok (u back + u step)) /\
    ((u back < u front)%Z -> (u step < 0)%Z -> int_ok (u front - u step)) in
  match s with
  | [x] => int_ok (u x)
  | [a; b] => sweep a default b
  | [a; st; b] => sweep a st b
  | _ => False
  end.

Lemma loop_ok : forall n v max step range, (0 < step)%Z -> int_ok v -> int_ok (max + step) -> (Z.to_nat (max - v + 1) <= n)%nat ->
  exists l, (forall fuel, (n < fuel)%nat -> range_loop fuel v max step range = Some (Ret (range ++ l))) /\
    forall z, In z l <-> exists k, (0 <= k)%Z /\ z = (v + k * step)%Z /\ (z <= max)%Z.
Proof.
  induction n as [|n IH]; intros v max step range Hs Hv Hm Hn.
  - exists []. split.
    + intros [|fuel] Hf; [lia|]. cbn [range_loop]. rewrite (proj2 (Z.leb_gt _ _)) by lia. rewrite app_nil_r. reflexivity.
    + intros z. split; [intros []|]. intros (k & K1 & K2 & K3). nia.
  - destruct (Z.le_gt_cases v max) as [C|C].
    + assert (Hv' : int_ok (v + step)) by (unfold int_ok in *; lia). destruct (IH (v + step)%Z max step (range ++ [v]) Hs Hv' Hm ltac:(lia)) as (l & L1 & L2).
      exists (v :: l). split.
      * intros [|fuel] Hf; [lia|]. cbn [range_loop]. rewrite (proj2 (Z.leb_le _ _)) by lia. apply in_int_ok in Hv'. rewrite Hv'. rewrite L1 by lia. rewrite <- app_assoc. reflexivity.
      * intros z. cbn [In]. rewrite L2. split.
        -- intros [<-|(k & K1 & K2 & K3)]; [exists 0%Z; lia|exists (k + 1)%Z; repeat split; try lia].
        -- intros (k & K1 & K2 & K3). destruct (Z.eq_dec k 0) as [->|Nk]; [left; lia|right; exists (k - 1)%Z; repeat split; try lia].
    + exists []. split.
      * intros [|fuel] Hf; [lia|]. cbn [range_loop]. rewrite (proj2 (Z.leb_gt _ _)) by lia. rewrite app_nil_r. reflexivity.
      * intros z. split; [intros []|]. intros (k & K1 & K2 & K3). nia.
Qed.

Lemma entry_ok_run : forall prec default s range, entry_ok prec default s ->
  exists n l, (forall fuel, (n < fuel)%nat -> range_entry prec fuel default s range = Some (Ret (range ++ l))) /\ forall z, In z l <-> points prec default s z.
Proof.
  intros prec default s range H.
  assert (SW : forall a st b, let u := unit_of prec in
    int_ok (u a) -> int_ok (u b) -> int_ok (u st) -> ((u a <= u b)%Z -> (0 < u st)%Z /\ int_ok (u b + u st)) -> ((u b < u a)%Z -> (u st < 0)%Z -> int_ok (u a - u st)) ->
    exists n l, (forall fuel, (n < fuel)%nat -> (if (u b <? u a)%Z && (u st <? 0)%Z then range_loop fuel (u b) (u a) (- u st) range else range_loop fuel (u a) (u b) (u st) range) = Some (Ret (range ++ l))) /\
      forall z, In z l <-> (if (u b <? u a)%Z && (u st <? 0)%Z then exists k, (0 <= k)%Z /\ z = (u b - k * u st)%Z /\ (z <= u a)%Z else exists k, (0 <= k)%Z /\ z = (u a + k * u st)%Z /\ (z <= u b)%Z)).
  { intros a st b u Ha Hb Hst H1 H2. destruct (Z.ltb_spec (u b) (u a)) as [C|C]; cbn [andb].
    - destruct (Z.ltb_spec (u st) 0) as [D|D].
      + destruct (loop_ok (Z.to_nat (u a - u b + 1)) (u b) (u a) (- u st) range ltac:(lia) Hb ltac:(replace (u a + - u st)%Z with (u a - u st)%Z by lia; auto) ltac:(lia)) as (l & L1 & L2).
        exists (Z.to_nat (u a - u b + 1)), l. split; [exact L1|]. intros z. rewrite L2. split; intros (k & K1 & K2 & K3); exists k; repeat split; lia.
      + exists O, []. split.
        * intros [|fuel] Hf; [lia|]. cbn [range_loop]. rewrite (proj2 (Z.leb_gt _ _)) by lia. rewrite app_nil_r. reflexivity.
        * intros z. split; [intros []|]. intros (k & K1 & K2 & K3). nia.
    - destruct (H1 C) as [P Q]. destruct (loop_ok (Z.to_nat (u b - u a + 1)) (u a) (u b) (u st) range P Ha Q ltac:(lia)) as (l & L1 & L2).
      exists (Z.to_nat (u b - u a + 1)), l. split; [exact L1|exact L2]. }
  destruct s as [|a [|b [|c [|d s]]]]; cbn [entry_ok] in H; try contradiction.
  - exists O, [unit_of prec a]. split; [|intros z; cbn [In points]; split; [intros [<-|[]]; reflexivity|auto]].
    intros fuel _. cbn [range_entry]. rewrite to_int_ok by exact H. reflexivity.
  - destruct H as (Ha & Hb & Hs & H1 & H2). destruct (SW a default b Ha Hb Hs H1 H2) as (n & l & L1 & L2). exists n, l. split; [|exact L2].
    intros fuel Hf. cbn [range_entry]. rewrite !to_int_ok by assumption. apply L1. exact Hf.
  - destruct H as (Ha & Hb & Hs & H1 & H2). destruct (SW a b c Ha Hb Hs H1 H2) as (n & l & L1 & L2). exists n, l. split; [|exact L2].
    intros fuel Hf. cbn [range_entry]. rewrite !to_int_ok by assumption. apply L1. exact Hf.
Qed.

Lemma all_ok_run : forall prec default desc range, Forall (entry_ok prec default) desc ->
  exists n l, (forall fuel, (n < fuel)%nat -> range_all prec fuel default desc range = Some (Ret (range ++ l))) /\ forall z, In z l <-> exists s, In s desc /\ points prec default s z.
Proof.
  intros prec default. induction desc as [|s desc IH]; intros range H.
  - exists O, []. split; [intros; cbn [range_all]; rewrite app_nil_r; reflexivity|]. intros z. split; [intros []|intros (s & [] & _)].
  - inversion_clear H as [|? ? Hs Hd]. destruct (entry_ok_run prec default s range Hs) as (n & l & L1 & L2). destruct (IH (range ++ l) Hd) as (n' & l' & L1' & L2').
    exists (max n n'), (l ++ l'). split.
    + intros fuel Hf. cbn [range_all]. rewrite L1 by lia. rewrite L1' by lia. rewrite app_assoc. reflexivity.
    + intros z. rewrite in_app_iff, L2, L2'. cbn [In]. split.
      * intros [P|(t & T1 & T2)]; [exists s; auto|exists t; auto].
      * intros (t & [<-|T1] & T2); [auto|right; exists t; auto].
Qed.

Lemma in_zinsert : forall x l z, In z (zinsert x l) <-> z = x \/ In z l.
Proof. intros x. induction l as [|y l IH]; intros z; cbn [zinsert In]; [intuition|]. destruct (x <=? y)%Z; cbn [In]; [intuition|]. rewrite IH. intuition. Qed.
Lemma in_zsort : forall l z, In z (zsort l) <-> In z l.
Proof. induction l as [|x l IH]; intros z; cbn [zsort fold_right In]; [reflexivity|]. fold (zsort l). rewrite in_zinsert, IH. intuition. Qed.
Lemma zinsert_sorted : forall x l, StronglySorted Z.le l -> StronglySorted Z.le (zinsert x l).
Proof.
  intros x. induction l as [|y l IH]; intros H; cbn [zinsert]; [repeat constructor|]. inversion_clear H as [|? ? H1 H2]. destruct (Z.leb_spec x y) as [C|C].
  - constructor; [constructor; assumption|]. constructor; [exact C|]. eapply Forall_impl; [|exact H2]. cbn. lia.
  - constructor; [auto|]. apply Forall_forall. intros z Hz. apply in_zinsert in Hz. rewrite Forall_forall in H2. destruct Hz as [->|Hz]; [lia|auto].
Qed.
Lemma zsort_sorted : forall l, StronglySorted Z.le (zsort l).
Proof. induction l as [|x l IH]; cbn [zsort fold_right]; [constructor|]. apply zinsert_sorted. exact IH. Qed.
Lemma in_zunique : forall l z, In z (zunique l) <-> In z l.
Proof.
  induction l as [|x l IH]; intros z; [reflexivity|]. destruct l as [|y l]; [reflexivity|]. change (zunique (x :: y :: l)) with (if (x =? y)%Z then zunique (y :: l) else x :: zunique (y :: l)).
  destruct (Z.eqb_spec x y) as [->|C].
  - rewrite IH. cbn [In]. intuition.
  - cbn [In]. rewrite IH. cbn [In]. intuition.
Qed.
Lemma zunique_sorted : forall l, StronglySorted Z.le l -> StronglySorted Z.lt (zunique l).
Proof.
  induction l as [|x l IH]; intros H; [constructor|]. destruct l as [|y l]; [repeat constructor|]. change (zunique (x :: y :: l)) with (if (x =? y)%Z then zunique (y :: l) else x :: zunique (y :: l)).
  inversion_clear H as [|? ? H1 H2]. destruct (Z.eqb_spec x y) as [->|C]; [auto|]. constructor; [auto|]. apply Forall_forall. intros z Hz. apply (proj1 (in_zunique (y :: l) z)) in Hz. rewrite Forall_forall in H2. pose proof (H2 y (or_introl eq_refl)). assert (H4 : Forall (Z.le y) l) by (inversion H1; assumption). rewrite Forall_forall in H4. cbn [In] in Hz. destruct Hz as [Hz|Hz]; [subst z; lia|]. pose proof (H4 z Hz). lia.
Qed.

(** The value given back for an integer. *)
Definition value_of (prec : Z) (z : Z) : Q := fl prec (fl prec (inject_Z z) / 10000000).

Lemma value_mono : forall prec a b, (0 < prec)%Z -> (a <= b)%Z -> (value_of prec a <= value_of prec b)%Q.
Proof.
  intros prec a b Hp H. unfold value_of. apply fl_mono; [exact Hp|]. apply Qmult_le_compat_r; [|discriminate]. apply fl_mono; [exact Hp|]. rewrite <- Zle_Qle. exact H.
Qed.

Lemma sorted_map : forall (P : Q -> Q -> Prop) f l, (forall a b, In a l -> In b l -> (a < b)%Z -> P (f a) (f b)) -> StronglySorted Z.lt l -> StronglySorted P (map f l).
Proof.
  intros P f. induction l as [|x l IH]; intros Hf H; cbn [map]; [constructor|]. inversion_clear H as [|? ? H1 H2]. constructor.
  - apply IH; [|exact H1]. intros a b Ha Hb. apply Hf; right; assumption.
  - apply Forall_forall. intros q Hq. apply in_map_iff in Hq. destruct Hq as (z & <- & Hz). rewrite Forall_forall in H2. apply Hf; [left; reflexivity|right; exact Hz|auto].
Qed.

(** generate_range terminates and gives, in increasing order, the points of all the elements of the description, each once. *)
Theorem C85_points : forall prec default desc, (0 < prec)%Z -> Forall (entry_ok prec default) desc ->
  exists n zs, (forall fuel, (n < fuel)%nat -> generate_range prec fuel default desc = Some (Ret (map (value_of prec) zs))) /\
    StronglySorted Z.lt zs /\ (forall z, In z zs <-> exists s, In s desc /\ points prec default s z) /\
    StronglySorted Qle (map (value_of prec) zs).
Proof.
  intros prec default desc Hp H. destruct (all_ok_run prec default desc [] H) as (n & l & L1 & L2). exists n, (zunique (zsort l)).
  assert (SL : StronglySorted Z.lt (zunique (zsort l))) by (apply zunique_sorted, zsort_sorted).
  split; [|split; [exact SL|split]].
  - intros fuel Hf. unfold generate_range. rewrite L1 by exact Hf. reflexivity.
  - intros z. rewrite in_zunique, in_zsort. apply L2.
  - apply (sorted_map Qle); [|exact SL]. intros a b _ _ Hab. apply value_mono; [exact Hp|lia].
Qed.

(** ** Accuracy *)
Local Open Scope Q_scope.
Lemma fl_err : forall prec x, (0 < prec)%Z -> Qabs (fl prec x - x) <= Qabs x * 2 ^ (- prec).
Proof.
  intros prec x Hp. destruct (Qlt_le_dec 0 x) as [L|L].
  - pose proof (fl_rel prec x Hp L) as H. rewrite (Qabs_pos x) by lra. apply Qabs_Qle_condition. lra.
  - destruct (Qlt_le_dec x 0) as [L'|L'].
    + assert (P : 0 < - x) by lra. pose proof (fl_rel prec (- x) Hp P) as H. rewrite (Qabs_neg x) by lra. rewrite (fl_lt prec x) by exact L'. rewrite (fl_gt prec (- x)) in H by exact P. apply Qabs_Qle_condition. lra.
    + assert (E : x == 0) by lra. rewrite (fl_zero prec x E). rewrite E. cbn. lra.
Qed.

Lemma quot_near : forall y, let z := Z.quot (Qnum y) (Zpos (Qden y)) in Qabs (y - inject_Z z) <= 1 /\ Qabs (inject_Z z) <= Qabs y.
Proof.
  intros [n d] z. cbn [Qnum Qden] in z. pose proof (Z.quot_rem' n (Zpos d)) as E. fold z in E. pose proof (Z.rem_bound_abs n (Zpos d) ltac:(lia)) as B. pose proof (Z.rem_sign_nz n (Zpos d)) as S.
  set (r := Z.rem n (Zpos d)) in *. split.
  - unfold Qabs, Qminus, Qplus, Qopp, Qle, inject_Z. cbn [Qnum Qden]. rewrite Pos.mul_1_r, !Z.mul_1_r, Z.mul_1_l. nia.
  - unfold Qabs, Qle, inject_Z. cbn [Qnum Qden]. rewrite Z.mul_1_r. assert (Z.abs n = Z.abs z * Zpos d + Z.abs r)%Z; [|lia].
    destruct (Z.eq_dec r 0) as [R|R]; [rewrite E, R, Z.add_0_r, Z.abs_mul; lia|]. specialize (S ltac:(lia) R). destruct (Z.le_gt_cases 0 n); [assert (0 <= r)%Z by lia; assert (0 <= z)%Z by nia; lia|assert (r <= 0)%Z by lia; assert (z <= 0)%Z by nia; lia].
Qed.

(** A value of the description and the point it gives differ by at most 1e-7 and a few roundings. *)
Theorem C85_accuracy : forall prec x, (2 <= prec)%Z -> Qabs (value_of prec (unit_of prec x) - x) <= (1 # 10000000) + 4 * 2 ^ (- prec) * Qabs x.
Proof.
  intros prec x Hp. set (u := 2 ^ (- prec)). assert (Pu : 0 < u) by apply pow_pos.
  assert (Qu : u <= 1 # 4). { unfold u. apply Qle_trans with (2 ^ (- 2)); [apply Qpower_le_compat_l; [lia|discriminate]|discriminate]. }
  unfold value_of, unit_of. set (a := fl prec (x * 10000000)). set (z := Z.quot _ _). destruct (quot_near a) as [N1 N2]. fold z in N1, N2.
  pose proof (fl_err prec (x * 10000000) ltac:(lia)) as A. fold a u in A. set (b := fl prec (inject_Z z)). pose proof (fl_err prec (inject_Z z) ltac:(lia)) as B. fold b u in B.
  pose proof (fl_err prec (b / 10000000) ltac:(lia)) as C. set (v := fl prec (b / 10000000)) in *. fold u in C.
  assert (M : Qabs (x * 10000000) == 10000000 * Qabs x) by (rewrite Qabs_Qmult; change (Qabs 10000000) with 10000000; ring).
  assert (M2 : Qabs (b / 10000000) == Qabs b * (1 # 10000000)) by (unfold Qdiv; rewrite Qabs_Qmult; change (Qabs (/ 10000000)) with (1 # 10000000); ring).
  assert (TA : Qabs a <= Qabs (x * 10000000) + Qabs (a - x * 10000000)) by (assert (E : a == x * 10000000 + (a - x * 10000000)) by ring; rewrite E at 1; apply Qabs_triangle).
  assert (TB : Qabs b <= Qabs (inject_Z z) + Qabs (b - inject_Z z)) by (assert (E : b == inject_Z z + (b - inject_Z z)) by ring; rewrite E at 1; apply Qabs_triangle).
  rewrite M in A, TA. rewrite M2 in C. set (X := Qabs x) in *. pose proof (Qabs_nonneg x) as PX. fold X in PX. set (Z0 := Qabs (inject_Z z)) in *. set (B0 := Qabs b) in *. set (A0 := Qabs a) in *.
  assert (T : Qabs (v - x) <= Qabs (v - b / 10000000) + (Qabs (b - inject_Z z) * (1 # 10000000) + (Qabs (a - inject_Z z) * (1 # 10000000) + Qabs (a - x * 10000000) * (1 # 10000000)))).
  { assert (S : forall t, Qabs (t * (1 # 10000000)) == Qabs t * (1 # 10000000)) by (intros t; rewrite Qabs_Qmult; reflexivity). rewrite <- !S.
    assert (E : v - x == (v - b / 10000000) + ((b - inject_Z z) * (1 # 10000000) + (- ((a - inject_Z z) * (1 # 10000000)) + (a - x * 10000000) * (1 # 10000000)))) by field. rewrite E.
    eapply Qle_trans; [apply Qabs_triangle|]. apply Qplus_le_compat; [apply Qle_refl|]. eapply Qle_trans; [apply Qabs_triangle|]. apply Qplus_le_compat; [apply Qle_refl|]. eapply Qle_trans; [apply Qabs_triangle|]. rewrite Qabs_opp. apply Qle_refl. }
  assert (HA : A0 <= 10000000 * X * (1 + u)) by lra. assert (HZ : Z0 <= 10000000 * X * (1 + u)) by lra.
  assert (HZu : Z0 * u <= 10000000 * X * (1 + u) * u) by (apply Qmult_le_compat_r; lra).
  assert (HB : B0 <= 10000000 * X * (1 + u) * (1 + u)) by lra.
  assert (HBu : B0 * u <= 10000000 * X * (1 + u) * (1 + u) * u) by (apply Qmult_le_compat_r; lra).
  assert (XU : 0 <= X * u) by (apply Qmult_le_0_compat; lra). assert (XUU : 0 <= X * u * ((1 # 4) - u)) by (apply Qmult_le_0_compat; lra).
  assert (XUUP : 0 <= X * u * u) by (apply Qmult_le_0_compat; lra). assert (XUUU : 0 <= X * u * u * ((1 # 4) - u)) by (apply Qmult_le_0_compat; lra).
  lra.
Qed.

(** In double precision the points given back are distinct: the list is strictly increasing. *)
Lemma value_strict : forall a b, int_ok a -> int_ok b -> (a < b)%Z -> value_of 53 a < value_of 53 b.
Proof.
  intros a b Ha Hb H. unfold int_ok in *. unfold value_of.
  assert (E : forall z, int_ok z -> fl 53 (inject_Z z) == inject_Z z).
  { intros z Hz. unfold int_ok in Hz. apply fl_exact; [reflexivity|]. apply holds_Z. assert ((2147483648 <= 2 ^ 53)%Z) by (vm_compute; discriminate). lia. }
  assert (K : forall z, int_ok z -> Qabs (fl 53 (fl 53 (inject_Z z) / 10000000) - inject_Z z / 10000000) <= 1 # 100000000).
  { intros z Hz. pose proof (fl_err 53 (fl 53 (inject_Z z) / 10000000) ltac:(lia)) as F. rewrite (E z Hz) in F at 2 3. eapply Qle_trans; [exact F|].
    unfold Qdiv. rewrite Qabs_Qmult. change (Qabs (/ 10000000)) with (1 # 10000000). assert (Qabs (inject_Z z) <= 2147483648) by (unfold int_ok in Hz; unfold Qabs, inject_Z, Qle; cbn [Qnum Qden]; lia).
    apply Qle_trans with (2147483648 * (1 # 10000000) * 2 ^ (-53)); [|vm_compute; discriminate]. apply Qmult_le_compat_r; [apply Qmult_le_compat_r; [assumption|discriminate]|vm_compute; discriminate]. }
  pose proof (K a Ha) as Ka. pose proof (K b Hb) as Kb. apply Qabs_Qle_condition in Ka. apply Qabs_Qle_condition in Kb.
  assert (L : inject_Z a / 10000000 + (1 # 10000000) <= inject_Z b / 10000000).
  { assert (inject_Z a + 1 <= inject_Z b) by (change 1 with (inject_Z 1); rewrite <- inject_Z_plus, <- Zle_Qle; lia). unfold Qdiv. change (/ 10000000) with (1 # 10000000). lra. }
  lra.
Qed.
Lemma points_int : forall prec default s z, entry_ok prec default s -> points prec default s z -> int_ok z.
Proof.
  intros prec default s z H P. destruct s as [|a [|b [|c [|d s]]]]; cbn [entry_ok points] in *; try contradiction.
  - subst z. exact H.
  - destruct H as (Ha & Hb & Hs & H1 & H2). unfold int_ok in *. destruct (Z.ltb_spec (unit_of prec b) (unit_of prec a)) as [C|C]; cbn [andb] in P.
    + destruct (Z.ltb_spec (unit_of prec default) 0) as [D|D]; destruct P as (k & K1 & K2 & K3); nia.
    + destruct P as (k & K1 & K2 & K3). destruct (H1 C). nia.
  - destruct H as (Ha & Hb & Hs & H1 & H2). unfold int_ok in *. destruct (Z.ltb_spec (unit_of prec c) (unit_of prec a)) as [C|C]; cbn [andb] in P.
    + destruct (Z.ltb_spec (unit_of prec b) 0) as [D|D]; destruct P as (k & K1 & K2 & K3); nia.
    + destruct P as (k & K1 & K2 & K3). destruct (H1 C). nia.
Qed.
Theorem C85_strict_double : forall default desc, Forall (entry_ok 53 default) desc ->
  exists n l, (forall fuel, (n < fuel)%nat -> generate_range 53 fuel default desc = Some (Ret l)) /\ StronglySorted Qlt l.
Proof.
  intros default desc H. destruct (C85_points 53 default desc eq_refl H) as (n & zs & H1 & H2 & H3 & _). exists n, (map (value_of 53) zs). split; [exact H1|].
  apply (sorted_map Qlt); [|exact H2]. assert (I : forall z, In z zs -> int_ok z).
  { intros z Hz. apply H3 in Hz. destruct Hz as (s & S1 & S2). rewrite Forall_forall in H. apply (points_int 53 default s z); auto. }
  intros a b Ha Hb Hab. apply value_strict; auto.
Qed.

(** An element that has not 1, 2 or 3 values is refused. *)
Theorem C85_sizes : forall prec fuel default desc s, In s desc -> (length s = 0 \/ 3 < length s)%nat -> forall l, generate_range prec fuel default desc <> Some (Ret l).
Proof.
  intros prec fuel default desc s Hs Hl l H. unfold generate_range in H.
  assert (K : forall range r, range_all prec fuel default desc range <> Some (Ret r)).
  { clear H. induction desc as [|t desc IH]; [destruct Hs|]. intros range r H. cbn [range_all] in H. destruct Hs as [->|Hs].
    - assert (E : range_entry prec fuel default s range = Some Throws) by (destruct s as [|a [|b [|c [|d s]]]]; cbn [length] in Hl; try lia; reflexivity). rewrite E in H. discriminate.
    - destruct (range_entry prec fuel default t range) as [[r'| |]|]; try discriminate. apply (IH Hs _ _ H). }
  destruct (range_all prec fuel default desc []) as [[r| |]|] eqn:E; try discriminate. apply (K _ _ E).
Qed.

(** What does not hold. A step that is zero, or less than 1e-7, never ends. *)
Theorem C85_zero_step_refuted : forall prec fuel default a st b desc,
  int_ok (unit_of prec a) -> int_ok (unit_of prec b) -> (unit_of prec a <= unit_of prec b)%Z -> unit_of prec st = 0%Z ->
  generate_range prec fuel default ([a; st; b] :: desc) = None.
Proof.
  intros prec fuel default a st b desc Ha Hb H Hs.
  assert (L : forall range, range_loop fuel (unit_of prec a) (unit_of prec b) 0 range = None).
  { induction fuel as [|f IH]; intros range; cbn [range_loop]; [reflexivity|]. rewrite (proj2 (Z.leb_le _ _)) by exact H. rewrite Z.add_0_r. rewrite (proj2 (in_int_ok _) Ha). apply IH. }
  unfold generate_range. cbn [range_all range_entry]. assert (Z0 : int_ok (unit_of prec st)) by (rewrite Hs; unfold int_ok; lia). rewrite !to_int_ok by assumption. rewrite Hs, Z.ltb_irrefl, andb_false_r, L. reflexivity.
Qed.
(** An increasing element with a negative step runs into the overflow of an int. *)
Theorem C85_negative_step_refuted : forall prec default a st b desc,
  int_ok (unit_of prec a) -> int_ok (unit_of prec b) -> int_ok (unit_of prec st) -> (unit_of prec a <= unit_of prec b)%Z -> (unit_of prec st < 0)%Z ->
  exists n, forall fuel, (n < fuel)%nat -> generate_range prec fuel default ([a; st; b] :: desc) = Some Undef.
Proof.
  intros prec default a st b desc Ha Hb Hst H Hs.
  assert (L : forall n v range, (v <= unit_of prec b)%Z -> int_ok v -> (Z.to_nat (v + 2147483648) <= n)%nat -> forall fuel, (n < fuel)%nat -> range_loop fuel v (unit_of prec b) (unit_of prec st) range = Some Undef).
  { induction n as [|n IH]; intros v range Hv Iv Hn [|fuel] Hf; try lia; cbn [range_loop]; rewrite (proj2 (Z.leb_le _ _)) by exact Hv.
    - destruct (in_int (v + unit_of prec st)) eqn:E; [|reflexivity]. apply in_int_ok in E. unfold int_ok in *. lia.
    - destruct (in_int (v + unit_of prec st)) eqn:E; [|reflexivity]. apply in_int_ok in E. apply IH; unfold int_ok in *; lia. }
  exists (Z.to_nat (unit_of prec a + 2147483648)). intros fuel Hf. unfold generate_range. cbn [range_all range_entry]. rewrite !to_int_ok by assumption.
  rewrite (proj2 (Z.ltb_ge _ _)) by lia. cbn [andb]. rewrite (L (Z.to_nat (unit_of prec a + 2147483648))); try assumption; try lia. reflexivity.
Qed.
(** In single precision, 0:0.01:0.39 (each number rounded to a float) has 40 points in exact arithmetic but the last one is lost: the
    scaled end is truncated to 3899999. *)
Theorem C85_last_point_refuted : exists st b l, st = fl 24 (1 # 100) /\ b = fl 24 (39 # 100) /\
  generate_range 24 100 (1 # 10) [[0; st; b]] = Some (Ret l) /\ length l = 39%nat.
Proof. do 3 eexists. split; [reflexivity|]. split; [reflexivity|]. split; vm_compute; reflexivity. Qed.
(** In single precision two points can be the same. *)
Theorem C85_strict_refuted : exists st b l, holds 24 st /\ holds 24 b /\ generate_range 24 100 (1 # 10) [[2; st; b]] = Some (Ret l) /\ ~ NoDup l.
Proof.
  exists (fl 24 (1 # 10000000)), (fl 24 (20000004 # 10000000)), (match generate_range 24 100 (1 # 10) [[2; fl 24 (1 # 10000000); fl 24 (20000004 # 10000000)]] with Some (Ret l) => l | _ => [] end).
  split; [apply fl_holds; reflexivity|]. split; [apply fl_holds; reflexivity|]. split; [vm_compute; reflexivity|]. vm_compute. intros H. inversion_clear H as [|? ? H1 H2]. apply H1. left. reflexivity.
Qed.

Example C85_hypotheses : Forall (entry_ok 53 (1 # 10)) [[1]; [2; 5 # 2; 7]; [0; 1]; [3; - (1 # 1); 0]] /\
  match generate_range 53 100 (1 # 10) [[1]; [2; 5 # 2; 7]; [3; - (1 # 1); 0]] with Some (Ret l) => map Qred l = [0; 1; 2; 3; 9 # 2; 7] | _ => False end.
Proof. split; [|vm_compute; reflexivity]. apply Forall_forall. intros s [<-|[<-|[<-|[<-|[]]]]]; vm_compute; intuition congruence. Qed.

(** ** C86 *)
Local Close Scope Q_scope.

(** check_LUT accepts exactly the tables of the right size (any size if 0 is asked) with distinct values. *)
Lemma lut_fold : forall lut n, n <= length lut ->
  fold_left (fun r i => _ <- r ;; if (2 <=? count_occ Z.eq_dec (firstn (S i) lut) (nth i lut 0%Z))%nat then Throws else Ret tt) (seq 0 n) (Ret tt) = Ret tt /\ NoDup (firstn n lut) \/
  fold_left (fun r i => _ <- r ;; if (2 <=? count_occ Z.eq_dec (firstn (S i) lut) (nth i lut 0%Z))%nat then Throws else Ret tt) (seq 0 n) (Ret tt) = Throws /\ ~ NoDup (firstn n lut).
Proof.
  intros lut. induction n as [|n IH]; intros Hn; [left; split; [reflexivity|constructor]|].
  rewrite seq_S, fold_left_app. cbn [fold_left plus].
  assert (FS : firstn (S n) lut = firstn n lut ++ [nth n lut 0%Z]).
  { clear IH. revert n Hn. induction lut as [|x lut IH]; intros n Hn; [cbn in Hn; lia|]. destruct n as [|n]; [reflexivity|]. cbn [length] in Hn. change (x :: firstn (S n) lut = x :: firstn n lut ++ [nth n lut 0%Z]). f_equal. apply IH. lia. }
  assert (ND : NoDup (firstn (S n) lut) <-> NoDup (firstn n lut) /\ ~ In (nth n lut 0%Z) (firstn n lut)).
  { rewrite FS. split.
    - intros H. apply NoDup_remove in H. rewrite app_nil_r in H. exact H.
    - intros [H1 H2]. apply NoDup_rev in H1. rewrite <- (rev_involutive (firstn n lut ++ [nth n lut 0%Z])). apply NoDup_rev. rewrite rev_app_distr. cbn [rev app]. constructor; [rewrite <- in_rev; exact H2|exact H1]. }
  destruct (IH ltac:(lia)) as [[E D]|[E D]]; rewrite E; cbn [bind].
  - rewrite FS at 1. rewrite FS at 2. rewrite count_occ_app. cbn [count_occ]. destruct (Z.eq_dec _ _) as [_|C]; [|contradiction].
    destruct (Nat.leb_spec 2 (count_occ Z.eq_dec (firstn n lut) (nth n lut 0%Z) + 1)) as [C|C].
    + right. split; [reflexivity|]. rewrite ND. intros [_ K]. apply K. apply (count_occ_In Z.eq_dec). lia.
    + left. split; [reflexivity|]. apply ND. split; [exact D|]. intros K. apply (count_occ_In Z.eq_dec) in K. lia.
  - right. split; [reflexivity|]. rewrite ND. tauto.
Qed.
Theorem C86_check_LUT : forall lut size,
  (check_LUT lut size = Ret tt <-> (size = 0 \/ length lut = size) /\ NoDup lut) /\ (check_LUT lut size = Ret tt \/ check_LUT lut size = Throws).
Proof.
  intros lut size. unfold check_LUT. destruct (Nat.eqb_spec size 0) as [->|N]; cbn [negb andb].
  - pose proof (lut_fold lut (length lut) (le_n _)) as [[E D]|[E D]]; rewrite E; rewrite firstn_all in D; (split; [split|]); auto; try discriminate. intros [_ C]. contradiction.
  - destruct (Nat.eqb_spec (length lut) size) as [<-|M]; cbn [negb].
    + pose proof (lut_fold lut (length lut) (le_n _)) as [[E D]|[E D]]; rewrite E; rewrite firstn_all in D; (split; [split|]); auto; try discriminate. intros [_ C]. contradiction.
    + split; [split; [discriminate|]|auto]. intros [[C|C] _]; contradiction.
Qed.
Example C86_hypotheses : check_LUT [3; 1; 2]%Z 3 = Ret tt /\ check_LUT [3; 1; 3]%Z 0 = Throws /\ check_LUT [3; 1]%Z 3 = Throws.
Proof. vm_compute. auto. Qed.
