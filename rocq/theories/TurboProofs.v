From Coq Require Import List Arith ZArith Lia Bool.
From Verif Require Import Base Copy WLoops ConvModel ConvSpec ConvProofs ConvCodeProofs.
Import ListNotations.

Lemma nth_gather : forall lut (x : list nat) q, q < length lut -> nth q (map (fun p => nth p x 0) lut) 0 = nth (nth q lut 0) x 0.
Proof. induction lut; intros x q Hq; cbn [length] in Hq; [lia|]. destruct q; auto. cbn [map nth]. apply IHlut. lia. Qed.

Lemma gather1_ok : forall lut x o, length o = length lut -> Forall (fun p => p < length x) lut ->
  gather1 lut x o = Ret (map (fun p => nth p x 0) lut).
Proof.
  intros lut x o LO FL. unfold gather1.
  destruct (for_write1 nat 0 (fun q => nth (nth q lut 0) x 0) (fun i => i) (length lut)
     (fun i o => p <- rd lut i ;; v <- rd x p ;; wr o i v) o) as (o' & E & L & I).
  - intros i y Hi Ly. split; [lia|]. rewrite (rd_ok _ 0) by auto. cbn [bind]. rewrite (rd_ok _ 0). 2: { rewrite Forall_forall in FL. apply FL. apply nth_In. auto. }
    auto.
  - rewrite E. f_equal. apply list_eq_nth with (d := 0). { rewrite map_length. lia. }
    intros q Hq. rewrite (proj1 (I q ltac:(lia))) by (exists q; split; [lia|auto]).
    rewrite nth_gather by lia. auto.
Qed.

Lemma tab_firstn : forall K (x : list nat), K <= length x -> tab K (fun t => nth t x 0) = firstn K x.
Proof.
  intros. symmetry. apply (eq_tab _ 0). { rewrite firstn_length. lia. } intros i Hi. apply nth_firstn_lt. auto.
Qed.

Lemma bits_gather : forall lut x, (forall p, In p lut -> nth p x 0 < 2) -> bits (map (fun p => nth p x 0) lut).
Proof.
  intros. apply Forall_forall. intros y Hy. apply in_map_iff in Hy. destruct Hy as (p & <- & Hp). auto.
Qed.

Lemma carries_firstn : forall u o, length u <= length o -> carries true u o -> firstn (length u) o = u.
Proof.
  intros u o L H. apply list_eq_nth with (d := 0). { rewrite firstn_length. lia. }
  intros i Hi. rewrite firstn_length in Hi. rewrite nth_firstn_lt by lia. apply (H i). lia.
Qed.

Lemma sub_encode_ok : forall e u tmp o, e_N e <= length tmp -> e_encode e u (firstn (e_N e) tmp) = Ret o -> length o = e_N e ->
  sub_encode e u tmp = Ret (o ++ skipn (e_N e) tmp).
Proof. intros. unfold sub_encode. destruct (Nat.leb_spec (e_N e) (length tmp)); [|lia]. rewrite H0. auto. Qed.

Section Turbo.
Variables (K N : nat) (en ei : encoder) (lut : list nat) (Cn Ci : list nat -> Prop).
Hypothesis KN : e_K en = K.
Hypothesis KI : e_K ei = K.
Hypothesis NN : e_N en = 2 * K + e_tail en.
Hypothesis NI : e_N ei = 2 * K + e_tail ei.
Hypothesis HC : turbo_enc_ctor K N en ei lut = Ret tt.
Hypothesis HL : Forall (fun p => p < K) lut.
Hypothesis Sn : constituent (e_encode en) (e_is_codeword en) true K (e_N en) Cn.
Hypothesis Si : constituent (e_encode ei) (e_is_codeword ei) true K (e_N ei) Ci.

Lemma turbo_ctor : 0 < K /\ N = 3 * K + e_tail en + e_tail ei /\ length lut = K.
Proof.
  clear Sn Si. unfold turbo_enc_ctor, guard in HC. destruct (Nat.ltb_spec 0 K); [|discriminate]. destruct (0 <? N); [|discriminate].
  destruct (Nat.leb_spec K N); [|discriminate]. cbn [bind] in HC.
  destruct (Z.eqb_spec (Z.of_nat N - (Z.of_nat (e_tail en) + Z.of_nat (e_tail ei))) (3 * Z.of_nat K)); [|discriminate]. cbn [bind] in HC.
  destruct (Nat.eqb_spec (length lut) K); [|discriminate]. lia.
Qed.

Lemma turbo_encode_ok : forall u x ui tmp, bits u -> length u = K -> length x = N ->
  length ui = K -> length tmp = Nat.max (e_N en) (e_N ei) ->
  exists o, turbo_encode K en ei lut ui tmp u x = Ret o /\ length o = N /\ turbo_code Cn Ci (e_N en) lut o /\ firstn K o = u.
Proof.
  intros u x ui tmp BU LU LX LUI LT. destruct turbo_ctor as (HK & HN & LL).
  destruct Sn as [En _]. destruct Si as [Ei _]. unfold turbo_encode.
  rewrite gather1_ok; [| lia | rewrite LU; auto]. cbn [bind]. set (vi := map (fun p => nth p u 0) lut).
  assert (LV : length vi = K) by (unfold vi; rewrite map_length; auto).
  assert (BV : bits vi). { apply bits_gather. intros. apply bits_nth. auto. }
  destruct (En u (firstn (e_N en) tmp)) as (on & E1 & L1 & C1 & I1); auto. { rewrite firstn_length. lia. }
  rewrite (sub_encode_ok en u tmp on) by (auto; lia). cbn [bind].
  rewrite (copy_list nat 0) by (rewrite ?app_length, ?skipn_length; lia). cbn [bind firstn skipn app Nat.add].
  rewrite (firstn_app_exact _ (e_N en) on) by auto.
  set (tmp1 := on ++ skipn (e_N en) tmp). assert (LT1 : length tmp1 = length tmp). { unfold tmp1. rewrite app_length, skipn_length. lia. }
  destruct (Ei vi (firstn (e_N ei) tmp1)) as (oi & E2 & L2 & C2 & I2); auto. { rewrite firstn_length. lia. }
  rewrite (sub_encode_ok ei vi tmp1 oi) by (auto; lia). cbn [bind].
  rewrite (copy_list nat 0) by (rewrite ?app_length, ?skipn_length; lia).
  rewrite firstn_app_exact by auto. rewrite KI.
  rewrite (skipn_all2 (n := e_N en + (e_N ei - K))) by (rewrite app_length, skipn_length; lia). rewrite app_nil_r.
  rewrite skipn_app. replace (K - length oi) with 0 by lia. cbn [skipn].
  rewrite firstn_app_exact by (rewrite skipn_length; lia).
  pose proof (carries_firstn u on ltac:(lia) I1) as F1. pose proof (carries_firstn vi oi ltac:(lia) I2) as F2. rewrite LU in F1. rewrite LV in F2.
  eexists. split; [reflexivity|]. split. { rewrite app_length, skipn_length. lia. }
  split; [split|].
  - rewrite firstn_app_exact; auto.
  - rewrite skipn_app_exact by auto.
    replace (map (fun p => nth p (on ++ skipn K oi) 0) lut) with vi.
    + rewrite <- F2. rewrite firstn_skipn. auto.
    + unfold vi. apply map_ext_in. intros p Hp. rewrite Forall_forall in HL. specialize (HL p Hp). rewrite app_nth1 by lia.
      rewrite <- F1, nth_firstn_lt by auto. auto.
  - rewrite firstn_app. replace (K - length on) with 0 by lia. rewrite firstn_O, app_nil_r. auto.
Qed.

Lemma turbo_is_codeword_ok : forall x ui tmp, length x = N -> bits (firstn K x) ->
  length ui = K -> length tmp = Nat.max (e_N en) (e_N ei) ->
  exists r, turbo_is_codeword K N en ei lut ui tmp x = Ret r /\ (r = true <-> turbo_code Cn Ci (e_N en) lut x).
Proof.
  intros x ui tmp LX BX LUI LT. destruct turbo_ctor as (HK & HN & LL).
  destruct Sn as [_ En]. destruct Si as [_ Ei]. unfold turbo_is_codeword, sub_is_codeword.
  destruct (Nat.leb_spec (e_N en) (length x)); [|lia].
  destruct (En (firstn (e_N en) x)) as (r1 & E1 & I1). { rewrite firstn_length. lia. }
  { unfold sys_pos. rewrite tab_firstn by (rewrite firstn_length; lia). rewrite firstn_firstn. replace (Nat.min K (e_N en)) with K by lia. auto. }
  rewrite E1. cbn [bind]. destruct r1; cbn [negb].
  2: { exists false. split; auto. split; [discriminate|]. intros [C _]. apply I1. auto. }
  rewrite gather1_ok; [| lia | rewrite LX; eapply Forall_impl; [|exact HL]; intros; cbn beta in *; lia]. cbn [bind].
  set (vi := map (fun p => nth p x 0) lut). assert (LV : length vi = K) by (unfold vi; rewrite map_length; auto).
  rewrite KI. rewrite (copy_list nat 0) by lia. cbn [bind firstn skipn app Nat.add]. rewrite (firstn_all2 vi) by lia.
  rewrite (copy_list nat 0) by (rewrite ?app_length, ?skipn_length; lia). cbn [bind].
  rewrite firstn_app_exact by auto.
  rewrite (firstn_all2 (n := N - e_N en)) by (rewrite skipn_length; lia).
  match goal with |- context [vi ++ skipn (e_N en) x ++ ?r] => set (rest := r) end.
  destruct (Nat.leb_spec (e_N ei) (length (vi ++ skipn (e_N en) x ++ rest))) as [Q|Q]. 2: { rewrite !app_length, skipn_length in Q. lia. }
  rewrite (app_assoc vi). rewrite firstn_app_exact by (rewrite app_length, skipn_length; lia).
  destruct (Ei (vi ++ skipn (e_N en) x)) as (r2 & E2 & I2). { rewrite app_length, skipn_length. lia. }
  { unfold sys_pos. rewrite tab_firstn by (rewrite app_length; lia). rewrite firstn_app_exact by auto. apply bits_gather. intros p Hp.
    rewrite Forall_forall in HL. specialize (HL p Hp). rewrite <- (nth_firstn_lt _ 0 K) by auto. apply bits_nth. auto. }
  rewrite E2. cbn [bind]. exists r2. split; auto. rewrite I2. split.
  - intros C. split; auto. apply I1. auto.
  - intros [_ C]. exact C.
Qed.
End Turbo.

(** ** The legacy layout *)
Section Legacy.
Variables (K : nat) (e : encoder) (lut : list nat) (C : list nat -> Prop) (m : nat).
Hypothesis HK : 0 < K.
Hypothesis KE : e_K e = K.
Hypothesis TE : e_tail e = 2 * m.
Hypothesis NE : e_N e = 2 * K + 2 * m.
Hypothesis LL : length lut = K.
Hypothesis HL : Forall (fun p => p < K) lut.
Hypothesis Se : constituent (e_encode e) (e_is_codeword e) false K (e_N e) C.

(** The word written from the two constituent words. *)
Definition legacy_word (xn xi : list nat) (q : nat) : nat :=
  if q <? 3 * K then
    if q mod 3 =? 2 then nth (2 * (q / 3) + 1) xi 0 else nth (2 * (q / 3) + q mod 3) xn 0
  else if q <? 3 * K + 2 * m then nth (q - K) xn 0 else nth (q - (K + 2 * m)) xi 0.

Lemma lw3 : forall xn xi i c, i < K -> c < 3 -> legacy_word xn xi (3 * i + c) = if c =? 2 then nth (2 * i + 1) xi 0 else nth (2 * i + c) xn 0.
Proof.
  intros. unfold legacy_word. destruct (Nat.ltb_spec (3 * i + c) (3 * K)); [|lia]. rewrite Nat.mul_comm.
  destruct (divmod_idx i c 3 H0) as [-> ->]. auto.
Qed.
Lemma lwn : forall xn xi q, 3 * K <= q < 3 * K + 2 * m -> legacy_word xn xi q = nth (q - K) xn 0.
Proof. intros. unfold legacy_word. destruct (Nat.ltb_spec q (3 * K)); [lia|]. destruct (Nat.ltb_spec q (3 * K + 2 * m)); [auto|lia]. Qed.
Lemma lwi : forall xn xi q, 3 * K + 2 * m <= q -> legacy_word xn xi q = nth (q - (K + 2 * m)) xi 0.
Proof. intros. unfold legacy_word. destruct (Nat.ltb_spec q (3 * K)); [lia|]. destruct (Nat.ltb_spec q (3 * K + 2 * m)); [lia|auto]. Qed.

Lemma legacy_write : forall xn xi x, length xn = 2 * K + 2 * m -> length xi = 2 * K + 2 * m -> length x = 3 * K + 2 * (2 * m) ->
  exists o, (x <- for_ K (fun i x =>
      a <- rd xn (2 * i + 0) ;; x <- wr x (3 * i + 0) a ;;
      a <- rd xn (2 * i + 1) ;; x <- wr x (3 * i + 1) a ;;
      a <- rd xi (2 * i + 1) ;; wr x (3 * i + 2) a) x ;;
  x <- for_ (e_tail e / 2) (fun i x =>
      a <- rd xn (2 * K + 2 * i + 0) ;; x <- wr x (3 * K + 2 * i + 0) a ;;
      a <- rd xn (2 * K + 2 * i + 1) ;; wr x (3 * K + 2 * i + 1) a) x ;;
  for_ (e_tail e / 2) (fun i x =>
      a <- rd xi (2 * K + 2 * i + 0) ;; x <- wr x (3 * K + e_tail e + 2 * i + 0) a ;;
      a <- rd xi (2 * K + 2 * i + 1) ;; wr x (3 * K + e_tail e + 2 * i + 1) a) x) = Ret o /\
   length o = 3 * K + 2 * (2 * m) /\ forall q, q < 3 * K + 2 * (2 * m) -> nth q o 0 = legacy_word xn xi q.
Proof.
  clear Se HL. intros xn xi x Ln Li Lx. rewrite TE. replace (2 * m / 2) with m by (rewrite Nat.mul_comm, Nat.div_mul; auto).
  set (F := legacy_word xn xi).
  match goal with |- context [for_ K ?body x] => destruct (for_write3 nat 0 F (fun i => 3 * i + 0) (fun i => 3 * i + 1) (fun i => 3 * i + 2) K body x) as (x1 & E1 & L1 & I1) end.
  { intros i y Hi Ly. split; [lia|]. split; [lia|]. split; [lia|]. rewrite !(rd_ok _ 0) by lia. cbn [bind].
    unfold F. rewrite !lw3 by lia. cbn [Nat.eqb]. auto. }
  rewrite E1. cbn [bind]. clear E1.
  match goal with |- context [for_ m ?body x1] => destruct (for_write2 nat 0 F (fun i => 3 * K + 2 * i + 0) (fun i => 3 * K + 2 * i + 1) m body x1) as (x2 & E2 & L2 & I2) end.
  { intros i y Hi Ly. split; [lia|]. split; [lia|]. rewrite !(rd_ok _ 0) by lia. cbn [bind].
    unfold F. rewrite !lwn by lia. replace (3 * K + 2 * i + 0 - K) with (2 * K + 2 * i + 0) by lia.
    replace (3 * K + 2 * i + 1 - K) with (2 * K + 2 * i + 1) by lia. auto. }
  rewrite E2. cbn [bind]. clear E2.
  match goal with |- context [for_ m ?body x2] => destruct (for_write2 nat 0 F (fun i => 3 * K + 2 * m + 2 * i + 0) (fun i => 3 * K + 2 * m + 2 * i + 1) m body x2) as (x3 & E3 & L3 & I3) end.
  { intros i y Hi Ly. split; [lia|]. split; [lia|]. rewrite !(rd_ok _ 0) by lia. cbn [bind].
    unfold F. rewrite !lwi by lia. replace (3 * K + 2 * m + 2 * i + 0 - (K + 2 * m)) with (2 * K + 2 * i + 0) by lia.
    replace (3 * K + 2 * m + 2 * i + 1 - (K + 2 * m)) with (2 * K + 2 * i + 1) by lia. auto. }
  exists x3. split; auto. split; [lia|]. intros q Hq. fold F.
  destruct (Nat.lt_ge_cases q (3 * K)) as [A|A].
  - destruct (I3 q ltac:(lia)) as [_ ->]; [|intros; lia]. destruct (I2 q ltac:(lia)) as [_ ->]; [|intros; lia].
    apply I1; [lia|]. exists (q / 3). pose proof (Nat.div_mod q 3 ltac:(lia)). pose proof (Nat.mod_upper_bound q 3 ltac:(lia)).
    split; [apply Nat.div_lt_upper_bound; lia|]. lia.
  - destruct (Nat.lt_ge_cases q (3 * K + 2 * m)) as [A2|A2].
    + destruct (I3 q ltac:(lia)) as [_ ->]; [|intros; lia]. apply I2; [lia|].
      exists ((q - 3 * K) / 2). pose proof (Nat.div_mod (q - 3 * K) 2 ltac:(lia)). pose proof (mod2_lt (q - 3 * K)).
      split; [apply Nat.div_lt_upper_bound; lia|]. lia.
    + apply I3; [lia|].
      exists ((q - 3 * K - 2 * m) / 2). pose proof (Nat.div_mod (q - 3 * K - 2 * m) 2 ltac:(lia)). pose proof (mod2_lt (q - 3 * K - 2 * m)).
      split; [apply Nat.div_lt_upper_bound; lia|]. lia.
Qed.

Lemma q2 : forall q, q < 2 * K -> q / 2 < K /\ q = 2 * (q / 2) + q mod 2 /\ q mod 2 < 2.
Proof. clear. intros. pose proof (Nat.div_mod q 2 ltac:(lia)). pose proof (mod2_lt q). split; [apply Nat.div_lt_upper_bound; lia|]. lia. Qed.

Lemma legacy_encode_ok : forall u x ui xn xi, bits u -> length u = K -> length x = 3 * K + 2 * (2 * m) ->
  length ui = K -> length xn = e_N e -> length xi = e_N e ->
  exists o, legacy_encode K e lut ui xn xi u x = Ret o /\ legacy_code C K (2 * m) lut o /\
    forall k, k < K -> nth (3 * k) o 0 = nth k u 0.
Proof.
  intros u x ui xn xi BU LU LX LUI LN LI. destruct Se as [En _]. unfold legacy_encode.
  rewrite gather1_ok; [| lia | rewrite LU; auto]. cbn [bind]. set (vi := map (fun p => nth p u 0) lut).
  assert (LV : length vi = K) by (unfold vi; rewrite map_length; auto).
  assert (BV : bits vi). { apply bits_gather. intros. apply bits_nth. auto. }
  destruct (En u (firstn (e_N e) xn)) as (on & E1 & L1 & C1 & I1); auto. { rewrite firstn_length. lia. }
  rewrite (sub_encode_ok e u xn on) by (auto; lia). cbn [bind]. rewrite (skipn_all2 xn) by lia. rewrite app_nil_r.
  destruct (En vi (firstn (e_N e) xi)) as (oi & E2 & L2 & C2 & I2); auto. { rewrite firstn_length. lia. }
  rewrite (sub_encode_ok e vi xi oi) by (auto; lia). cbn [bind]. rewrite (skipn_all2 xi) by lia. rewrite app_nil_r.
  destruct (legacy_write on oi x) as (o & E & Lo & Io); [lia|lia|lia|]. exists o. split; [exact E|]. clear E.
  unfold carries, sys_pos in I1, I2.
  assert (SYS : forall k, k < K -> nth (3 * k) o 0 = nth k u 0).
  { intros k Hk. rewrite Io by lia. replace (3 * k) with (3 * k + 0) by lia. rewrite lw3 by lia. cbn [Nat.eqb]. rewrite Nat.add_0_r. apply I1. lia. }
  split; auto. split; [lia|]. split.
  - replace (legacy_n K (2 * m) o) with on; auto. apply (eq_tab _ 0). { lia. }
    intros q Hq. destruct (Nat.ltb_spec q (2 * K)).
    + destruct (q2 q H) as (A & B & D). rewrite Io by lia. rewrite lw3 by lia. destruct (Nat.eqb_spec (q mod 2) 2); [lia|]. f_equal. lia.
    + rewrite Io by lia. rewrite lwn by lia. f_equal. lia.
  - replace (legacy_i K (2 * m) lut o) with oi; auto. apply (eq_tab _ 0). { lia. }
    intros q Hq. destruct (Nat.ltb_spec q (2 * K)).
    + destruct (q2 q H) as (A & B & D). destruct (Nat.eqb_spec (q mod 2) 0) as [Z|Z].
      * assert (HP : nth (q / 2) lut 0 < K). { rewrite Forall_forall in HL. apply HL. apply nth_In. lia. }
        rewrite SYS by auto. rewrite B at 1. rewrite Z, Nat.add_0_r. rewrite I2 by lia. unfold vi.
        rewrite nth_gather by lia. auto.
      * rewrite Io by lia. rewrite lw3 by lia. cbn [Nat.eqb]. f_equal. lia.
    + rewrite Io by lia. rewrite lwi by lia. f_equal. lia.
Qed.

Lemma legacy_is_codeword_ok : forall x un ui xn xi, length x = 3 * K + 2 * (2 * m) -> (forall k, k < K -> nth (3 * k) x 0 < 2) ->
  length ui = K -> length un = e_N e -> length xn = e_N e -> length xi = e_N e ->
  exists r, legacy_is_codeword K e lut un ui xn xi x = Ret r /\ (r = true <-> legacy_code C K (2 * m) lut x).
Proof.
  intros x un ui xn xi LX BX LUI LUN LN LI. destruct Se as [_ Ec]. unfold legacy_is_codeword. rewrite TE.
  replace (2 * m / 2) with m by (rewrite Nat.mul_comm, Nat.div_mul; auto).
  match goal with |- context [for_ K ?body ?s0] => destruct (for_inv _ (fun i '(un, xn, xi) =>
     length un = e_N e /\ length xn = e_N e /\ length xi = e_N e /\ forall k, k < i ->
       nth k un 0 = nth (3 * k + 0) x 0 /\ nth (2 * k + 0) xn 0 = nth (3 * k + 0) x 0 /\ nth (2 * k + 1) xn 0 = nth (3 * k + 1) x 0 /\ nth (2 * k + 1) xi 0 = nth (3 * k + 2) x 0)
     K body s0) as ([[un1 xn1] xi1] & E1 & L1 & L2 & L3 & I1) end.
  { repeat split; auto; lia. }
  { intros i [[a b] c] Hi (A1 & A2 & A3 & A4). rewrite !(rd_ok _ 0) by lia. cbn [bind].
    rewrite (wr_ok _ b) by lia. cbn [bind]. rewrite (wr_ok _ a) by lia. cbn [bind]. rewrite wr_ok by (rewrite length_upd; lia). cbn [bind].
    rewrite wr_ok by lia. cbn [bind]. eexists. split; [reflexivity|]. cbn beta iota. rewrite !length_upd. split; auto. split; auto. split; auto.
    intros k Hk. rewrite !(nth_upd _ (upd b _ _)) by (rewrite length_upd; lia). rewrite !nth_upd by lia.
    destruct (Nat.eq_dec k i) as [->|NK].
    - rewrite !Nat.eqb_refl. destruct (Nat.eqb_spec (2 * i + 0) (2 * i + 1)); [lia|]. auto.
    - destruct (Nat.eqb_spec k i); [lia|]. destruct (Nat.eqb_spec (2 * k + 0) (2 * i + 1)); [lia|].
      destruct (Nat.eqb_spec (2 * k + 0) (2 * i + 0)); [lia|]. destruct (Nat.eqb_spec (2 * k + 1) (2 * i + 1)); [lia|].
      destruct (Nat.eqb_spec (2 * k + 1) (2 * i + 0)); [lia|]. apply A4. lia. }
  rewrite E1. cbn [bind]. clear E1.
  match goal with |- context [for_ m ?body xn1] => destruct (for_write2 nat 0 (fun q => nth (K + q) x 0) (fun i => 2 * K + 2 * i + 0) (fun i => 2 * K + 2 * i + 1) m body xn1) as (xn2 & E2 & L2' & I2) end.
  { intros i y Hi Ly. split; [lia|]. split; [lia|]. rewrite !(rd_ok _ 0) by lia. cbn [bind].
    replace (K + (2 * K + 2 * i + 0)) with (3 * K + 2 * i + 0) by lia. replace (K + (2 * K + 2 * i + 1)) with (3 * K + 2 * i + 1) by lia. auto. }
  rewrite E2. cbn [bind]. clear E2.
  match goal with |- context [for_ m ?body xi1] => destruct (for_write2 nat 0 (fun q => nth (K + 2 * m + q) x 0) (fun i => 2 * K + 2 * i + 0) (fun i => 2 * K + 2 * i + 1) m body xi1) as (xi2 & E3 & L3' & I3) end.
  { intros i y Hi Ly. split; [lia|]. split; [lia|]. rewrite !(rd_ok _ 0) by lia. cbn [bind].
    replace (K + 2 * m + (2 * K + 2 * i + 0)) with (3 * K + 2 * m + 2 * i + 0) by lia. replace (K + 2 * m + (2 * K + 2 * i + 1)) with (3 * K + 2 * m + 2 * i + 1) by lia. auto. }
  rewrite E3. cbn [bind]. clear E3.
  assert (TAIL : forall q, 2 * K <= q < 2 * K + 2 * m -> exists i, i < m /\ (q = 2 * K + 2 * i + 0 \/ q = 2 * K + 2 * i + 1)).
  { clear. intros q Hq. exists ((q - 2 * K) / 2). pose proof (Nat.div_mod (q - 2 * K) 2 ltac:(lia)). pose proof (mod2_lt (q - 2 * K)).
    split; [apply Nat.div_lt_upper_bound; lia|]. lia. }
  assert (XN : xn2 = legacy_n K (2 * m) x).
  { apply (eq_tab _ 0). { lia. } intros q Hq. destruct (Nat.ltb_spec q (2 * K)).
    - destruct (I2 q ltac:(lia)) as [_ ->]; [|intros; lia]. destruct (q2 q H) as (A & B & D).
      destruct (I1 (q / 2) A) as (_ & B1 & B2 & _). destruct (lt2 _ D) as [Z|Z]; rewrite Z in *.
      + rewrite B at 1. auto.
      + rewrite B at 1. auto.
    - apply I2; [lia|]. apply TAIL. lia. }
  assert (BL : forall k, k < K -> nth (sys_pos false k) (legacy_n K (2 * m) x) 0 = nth (3 * k) x 0).
  { intros k Hk. unfold legacy_n, sys_pos. rewrite nth_tab by lia. destruct (Nat.ltb_spec (2 * k) (2 * K)); [|lia].
    replace (2 * k) with (k * 2 + 0) by lia. destruct (divmod_idx k 0 2 ltac:(lia)) as [-> ->]. f_equal. lia. }
  unfold sub_is_codeword. rewrite XN. rewrite firstn_all2 by (unfold legacy_n; rewrite length_tab; lia).
  replace (length (legacy_n K (2 * m) x)) with (e_N e) by (unfold legacy_n; rewrite length_tab; lia). rewrite Nat.leb_refl.
  destruct (Ec (legacy_n K (2 * m) x)) as (r1 & R1 & J1). { unfold legacy_n; rewrite length_tab; lia. }
  { apply bits_tab. intros i Hi. rewrite BL by auto. auto. }
  rewrite R1. cbn [bind]. destruct r1; cbn [negb].
  2: { exists false. split; auto. split; [discriminate|]. intros (_ & Q & _). apply J1. auto. }
  assert (FL : Forall (fun p => p < length un1) lut). { eapply Forall_impl; [|exact HL]. cbn beta. intros. lia. }
  rewrite gather1_ok by (auto; lia). cbn [bind]. set (vi := map (fun p => nth p un1 0) lut).
  assert (LV : length vi = K) by (unfold vi; rewrite map_length; auto).
  match goal with |- context [for_ K ?body xi2] => destruct (for_write1 nat 0 (fun q => nth (3 * nth (q / 2) lut 0) x 0) (fun i => 2 * i + 0) K body xi2) as (xi3 & E4 & L4 & I4) end.
  { intros i y Hi Ly. split; [lia|]. rewrite (rd_ok _ 0) by lia. cbn [bind]. unfold vi. rewrite nth_gather by lia.
    replace ((2 * i + 0) / 2) with i. 2: { rewrite (Nat.mul_comm 2 i). symmetry. apply divmod_idx. lia. }
    assert (HP : nth i lut 0 < K). { rewrite Forall_forall in HL. apply HL. apply nth_In. lia. }
    rewrite (proj1 (I1 _ HP)). rewrite (Nat.add_0_r (3 * _)). auto. }
  rewrite E4. cbn [bind]. clear E4.
  assert (XI : xi3 = legacy_i K (2 * m) lut x).
  { apply (eq_tab _ 0). { lia. } intros q Hq. destruct (Nat.ltb_spec q (2 * K)).
    - destruct (q2 q H) as (A & B & D). destruct (Nat.eqb_spec (q mod 2) 0) as [Z|Z].
      + apply I4; [lia|]. exists (q / 2). split; auto. lia.
      + destruct (I4 q ltac:(lia)) as [_ ->]; [|intros; lia]. destruct (I3 q ltac:(lia)) as [_ ->]; [|intros; lia].
        destruct (I1 (q / 2) A) as (_ & _ & _ & B2). rewrite <- B2. f_equal. lia.
    - destruct (I4 q ltac:(lia)) as [_ ->]; [|intros; lia]. apply I3; [lia|]. apply TAIL. lia. }
  rewrite XI. rewrite firstn_all2 by (unfold legacy_i; rewrite length_tab; lia).
  replace (length (legacy_i K (2 * m) lut x)) with (e_N e) by (unfold legacy_i; rewrite length_tab; lia). rewrite Nat.leb_refl.
  destruct (Ec (legacy_i K (2 * m) lut x)) as (r2 & R2 & J2). { unfold legacy_i; rewrite length_tab; lia. }
  { apply bits_tab. intros i Hi. unfold legacy_i, sys_pos. rewrite nth_tab by lia. destruct (Nat.ltb_spec (2 * i) (2 * K)); [|lia].
    replace (2 * i) with (i * 2 + 0) by lia. destruct (divmod_idx i 0 2 ltac:(lia)) as [-> ->]. cbn [Nat.eqb].
    apply BX. rewrite Forall_forall in HL. apply HL. apply nth_In. lia. }
  exists r2. split; auto. rewrite J2. split.
  - intros Q. split; auto. split; auto. apply J1. auto.
  - intros (_ & _ & Q). auto.
Qed.
End Legacy.
