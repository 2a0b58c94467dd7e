(** What the channels do to the frames. *)
From Coq Require Import List Arith Bool ZArith QArith Lia Ascii String.
From Verif Require Import Base Copy AListModel AListSpec TextProofs SourceModel SourceProps ModemModel ChannelModel ChannelProofs.
Import ListNotations.
Local Open Scope list_scope.
Local Open Scope nat_scope.
Local Notation length := List.length.

Section Channels.
Variable A : arith.
Notation T := (num A).
Notation zero := (ofZ A 0%Z).
Notation one := (ofZ A 1%Z).
Variable G : Type.
Variable generate : G -> nat -> T -> list T * G.

(** A generator gives as many numbers as it is asked for. *)
Definition generator : Prop := forall g n s, List.length (fst (generate g n s)) = n.

(* ------------------------------------------------------------------ *)
(** * C106: AWGN and NO *)

(** The state of the generator before frame f, and the noise of frame f: the generator is asked for N numbers of standard
    deviation CP[f] for each frame, in order. *)
Fixpoint gen_at (g : G) (N : nat) (CP : list T) (f : nat) : G :=
  match f with 0 => g | S f => snd (generate (gen_at g N CP f) N (nth f CP zero)) end.
Definition noise_at (g : G) (N : nat) (CP : list T) (f : nat) : list T := fst (generate (gen_at g N CP f) N (nth f CP zero)).

(** The frames received from nf frames X of N symbols.  With several users, their frames are added and one frame is received:
    the other places keep their content Y. *)
Definition many (users : bool) (nf : nat) : bool := users && (1 <? nf).
Definition awgn_received (N nf : nat) (users : bool) (g : G) (CP X Y : list T) : list T :=
  tab (nf * N) (fun q =>
    if many users nf then
      if q <? N then add A (usum A N nf X q) (nth q (noise_at g N CP 0) zero) else nth q Y zero
    else add A (nth q X zero) (nth (q mod N) (noise_at g N CP (q / N)) zero)).
Definition no_received (N nf : nat) (users : bool) (X Y : list T) : list T :=
  tab (nf * N) (fun q => if many users nf then (if q <? N then usum A N nf X q else nth q Y zero) else nth q X zero).

(** What is received over a history of calls, nf frames being processed at first. *)
Fixpoint awgn_expected (N nf : nat) (users : bool) (g : G) (cs : list (ccall A)) : list (list T) :=
  match cs with
  | [] => []
  | AddNoise _ CP X Y :: cs =>
      awgn_received N nf users g CP X Y :: awgn_expected N nf users (gen_at g N CP (if many users nf then 1 else nf)) cs
  | SetFrames _ n :: cs => awgn_expected N n users g cs
  end.
Fixpoint no_expected (N nf : nat) (users : bool) (cs : list (ccall A)) : list (list T) :=
  match cs with
  | [] => []
  | AddNoise _ CP X Y :: cs => no_received N nf users X Y :: no_expected N nf users cs
  | SetFrames _ n :: cs => no_expected N n users cs
  end.

(** The buffers have the size of the frames. *)
Fixpoint sized (N nf : nat) (cs : list (ccall A)) : Prop :=
  match cs with
  | [] => True
  | AddNoise _ CP X Y :: cs => List.length CP = nf /\ List.length X = nf * N /\ List.length Y = nf * N /\ sized N nf cs
  | SetFrames _ n :: cs => 0 < n /\ sized N n cs
  end.

Record ch_ok (N nf : nat) (users : bool) (g : G) (c : chan A G) : Prop := {
  o_N : c_N _ _ c = N; o_nf : c_nf _ _ c = nf; o_users : c_users _ _ c = users; o_data : length (c_data _ _ c) = nf * N; o_gen : c_gen _ _ c = g }.

Lemma set_frames_ok : forall N nf users g c n, 0 < nf -> 0 < n -> ch_ok N nf users g c -> exists c', set_n_frames A G c n = Ret c' /\ ch_ok N n users g c'.
Proof.
  intros N nf users g c n Hnf Hn []. unfold set_n_frames. rewrite o_nf0. destruct (Nat.eqb_spec n nf) as [->|e].
  - exists c. split; [reflexivity|]. constructor; auto.
  - destruct (Nat.ltb_spec 0 n); [|lia]. cbn [guard bind]. eexists. split; [reflexivity|].
    constructor; cbn; auto. rewrite length_resize, o_data0. apply div_mul_size. lia.
Qed.

Lemma frame_inside : forall f nf N i, f < nf -> i < N -> f * N + i < nf * N.
Proof. intros. assert ((f + 1) * N <= nf * N) by (apply Nat.mul_le_mono_r; lia). lia. Qed.
Lemma frame_fits : forall f nf N, f < nf -> f * N + N <= nf * N.
Proof. intros. assert ((f + 1) * N <= nf * N) by (apply Nat.mul_le_mono_r; lia). lia. Qed.

Lemma awgn_frame : forall N nf users g c f cp X Y, generator -> many users nf = false -> ch_ok N nf users g c -> f < nf ->
  length X = nf * N -> length Y = nf * N ->
  exists c' Y', awgn_add_noise A G generate c cp X (f * N) Y f = Ret (c', Y') /\ ch_ok N nf users (snd (generate g N cp)) c' /\ length Y' = nf * N /\
    (forall i, i < N -> nth (f * N + i) Y' zero = add A (nth (f * N + i) X zero) (nth i (fst (generate g N cp)) zero)) /\
    (forall q, q < f * N -> nth q Y' zero = nth q Y zero).
Proof.
  intros N nf users g c f cp X Y HG HM [] Hf HX HY. unfold awgn_add_noise. rewrite o_users0, o_nf0, o_N0, o_gen0. unfold many in HM. rewrite HM.
  pose proof (frame_fits f nf N Hf) as FF.
  destruct (draw_ok A G generate HG g N cp (c_data A G c) (f * N) ltac:(lia)) as (data & E & LD & AD). rewrite E. cbn [bind].
  match goal with |- context [for_ N ?body Y] =>
    destruct (update_frame T zero (fun i _ => add A (nth (f * N + i) X zero) (nth i (fst (generate g N cp)) zero)) N (f * N) body Y) as (Y' & EY & LY & AY & BY) end.
  - lia.
  - intros i y Hi Ly. rewrite (rd_ok _ zero) by lia. cbn [bind]. rewrite (rd_ok _ zero) by lia. cbn [bind]. rewrite AD by auto. reflexivity.
  - rewrite EY. cbn [bind]. eexists _, Y'. split; [reflexivity|]. split; [constructor; cbn; auto; lia|]. split; [lia|]. split; [exact AY|].
    intros q Hq. apply BY. lia.
Qed.

Lemma awgn_exec : forall N nf users g c CP X Y, generator -> 0 < N -> 0 < nf -> ch_ok N nf users g c ->
  length CP = nf -> length X = nf * N -> length Y = nf * N ->
  exists c', exec A G (awgn_add_noise A G generate) c CP X Y = Ret (c', awgn_received N nf users g CP X Y) /\
    ch_ok N nf users (gen_at g N CP (if many users nf then 1 else nf)) c'.
Proof.
  intros N nf users g c CP X Y HG HN Hnf HC HCP HX HY. unfold exec. pose proof HC as HC'. destruct HC'. rewrite o_users0, o_nf0.
  unfold awgn_received. destruct (many users nf) eqn:HM.
  - unfold many in HM. apply andb_true_iff in HM. destruct HM as [-> HM]. rewrite (rd_ok _ zero) by lia. cbn [bind].
    unfold awgn_add_noise. rewrite o_users0, o_nf0, o_N0, o_gen0, HM. cbn [andb]. assert (N <= nf * N) by nia.
    destruct (draw_ok A G generate HG g N (nth 0 CP zero) (c_data A G c) 0 ltac:(lia)) as (data & E & LD & AD). rewrite E. cbn [bind].
    destruct (sum_users_ok A N nf X Y HX ltac:(lia)) as (Y1 & E1 & L1 & A1 & B1). rewrite E1. cbn [bind].
    match goal with |- context [for_ N ?body Y1] =>
      destruct (update_frame T zero (fun i y => add A y (nth i (noise_at g N CP 0) zero)) N 0 body Y1) as (Y' & EY & LY & AY & BY) end.
    + lia.
    + intros i y Hi Ly. cbn [Nat.add]. rewrite (rd_ok _ zero) by lia. cbn [bind]. rewrite (rd_ok _ zero) by lia. cbn [bind].
      change (nth i data zero) with (nth (0 + i) data zero). rewrite AD by auto. reflexivity.
    + rewrite EY. cbn [bind]. match goal with |- exists _, Ret (?st, _) = _ /\ _ => exists st end. split; [|constructor; cbn; auto; lia].
      f_equal. f_equal. apply (eq_tab _ zero); [lia|]. intros q Hq.
      destruct (Nat.ltb_spec q N) as [Hl|Hl].
      * cbn [Nat.add] in AY. rewrite AY, A1 by auto. reflexivity.
      * rewrite BY, B1 by lia. reflexivity.
  - destruct users.
    + assert (nf = 1) as ->. { cbn [many andb] in HM. apply Nat.ltb_ge in HM. lia. }
      rewrite (rd_ok _ zero) by lia. cbn [bind].
      destruct (awgn_frame N 1 true g c 0 (nth 0 CP zero) X Y HG HM HC ltac:(lia) HX HY) as (c' & Y' & E & K & L & B & _). cbn [Nat.mul Nat.add] in *.
      exists c'. split; [|exact K]. rewrite E. f_equal. f_equal. apply (eq_tab _ zero); [lia|]. intros q Hq. rewrite Nat.mod_small, Nat.div_small by lia. apply B. lia.
    + destruct (frames_loop T zero (chan A G) (fun f c => ch_ok N nf false (gen_at g N CP f) c)
        (fun f i => add A (nth (f * N + i) X zero) (nth i (noise_at g N CP f) zero)) N nf
        (fun f '(c, Y) => cp <- rd CP f ;; awgn_add_noise A G generate c cp X (f * c_N A G c) Y f) c Y HN HY) as (c' & E & K).
      * exact HC.
      * intros f c1 Y1 Hf H1 HY1. rewrite (rd_ok _ zero) by lia. cbn [bind]. rewrite (o_N _ _ _ _ _ H1). apply (awgn_frame N nf false); auto.
      * exists c'. split; [|exact K]. rewrite E. f_equal. f_equal. apply tab_ext. intros q Hq.
        pose proof (Nat.div_mod q N ltac:(lia)). f_equal. f_equal. lia.
Qed.

Lemma no_exec : forall N nf users g c CP X Y, 0 < N -> 0 < nf -> ch_ok N nf users g c ->
  length CP = nf -> length X = nf * N -> length Y = nf * N ->
  exists c', exec A G (no_add_noise A G) c CP X Y = Ret (c', no_received N nf users X Y) /\ ch_ok N nf users g c'.
Proof.
  intros N nf users g c CP X Y HN Hnf HC HCP HX HY. unfold exec. pose proof HC as HC'. destruct HC'. rewrite o_users0, o_nf0.
  unfold no_received. assert (HF : forall c f Y, many users nf = false -> ch_ok N nf users g c -> f < nf -> length Y = nf * N ->
    exists Y', (forall cp, no_add_noise A G c cp X (f * N) Y f = Ret (c, Y')) /\ length Y' = nf * N /\
      (forall i, i < N -> nth (f * N + i) Y' zero = nth (f * N + i) X zero) /\ (forall q, q < f * N -> nth q Y' zero = nth q Y zero)).
  { clear - HX. intros c f Y HM [] Hf HY. unfold no_add_noise. rewrite o_users0, o_nf0, o_N0. unfold many in HM. rewrite HM. pose proof (frame_fits f nf N Hf).
    destruct (copy_spec T zero X (f * N) N Y (f * N) ltac:(lia) ltac:(lia)) as (Y' & E & L & B & C). exists Y'. split; [intros; rewrite E; reflexivity|].
    split; [lia|]. split; [exact B|]. intros q Hq. apply C. lia. }
  destruct (many users nf) eqn:HM.
  - unfold many in HM. apply andb_true_iff in HM. destruct HM as [-> HM]. rewrite (rd_ok _ zero) by lia. cbn [bind].
    unfold no_add_noise. rewrite o_users0, o_nf0, o_N0, HM. cbn [andb]. assert (N <= nf * N) by nia.
    destruct (sum_users_ok A N nf X Y HX ltac:(lia)) as (Y1 & E1 & L1 & A1 & B1). rewrite E1. cbn [bind].
    exists c. split; [|exact HC]. f_equal. f_equal. apply (eq_tab _ zero); [lia|]. intros q Hq. destruct (Nat.ltb_spec q N); [apply A1|apply B1]; auto.
  - destruct users.
    + assert (nf = 1) as ->. { cbn [many andb] in HM. apply Nat.ltb_ge in HM. lia. }
      rewrite (rd_ok _ zero) by lia. cbn [bind].
      destruct (HF c 0 Y eq_refl HC ltac:(lia) HY) as (Y' & E & L & B & _). cbn [Nat.mul Nat.add] in *.
      exists c. split; [|exact HC]. rewrite E. f_equal. f_equal. apply (eq_tab _ zero); [lia|]. intros q Hq. apply B. lia.
    + destruct (frames_loop T zero (chan A G) (fun f c => ch_ok N nf false g c) (fun f i => nth (f * N + i) X zero) N nf
        (fun f '(c, Y) => cp <- rd CP f ;; no_add_noise A G c cp X (f * c_N A G c) Y f) c Y HN HY HC) as (c' & E & K).
      * intros f c1 Y1 Hf H1 HY1. rewrite (rd_ok _ zero) by lia. cbn [bind]. rewrite (o_N _ _ _ _ _ H1).
        destruct (HF c1 f Y1 eq_refl H1 Hf HY1) as (Y' & E & L & B & C). exists c1, Y'. auto.
      * exists c'. split; [|exact K]. rewrite E. f_equal. f_equal. apply tab_ext. intros q Hq.
        pose proof (Nat.div_mod q N ltac:(lia)). f_equal. lia.
Qed.

(** Over any history of add_noise and set_n_frames, the frames received are the frames sent plus the noise of the generator,
    which goes on from frame to frame; with add_users and several frames, the sum of the frames sent plus one frame of noise. *)
Theorem C106_awgn : forall N users g cs, generator -> 0 < N -> sized N 1 cs ->
  exists c0 c, make_chan A G N users g = Ret c0 /\ chan_run A G (awgn_add_noise A G generate) c0 cs = Ret (c, awgn_expected N 1 users g cs).
Proof.
  intros N users g cs HG HN HS. unfold make_chan. destruct (Nat.ltb_spec 0 N); [|lia]. cbn [guard bind].
  set (c0 := mkCh A G N 1 users false (repeat zero N) [] g).
  assert (K0 : ch_ok N 1 users g c0) by (constructor; cbn; auto; rewrite repeat_length; lia).
  assert (R : forall cs nf g c, 0 < nf -> ch_ok N nf users g c -> sized N nf cs ->
    exists c', chan_run A G (awgn_add_noise A G generate) c cs = Ret (c', awgn_expected N nf users g cs)).
  { clear cs HS K0 c0 g. induction cs as [|[CP X Y|n] cs IH]; intros nf g c Hnf K HS; cbn [chan_run awgn_expected sized] in *.
    - exists c. reflexivity.
    - destruct HS as (H1 & H2 & H3 & HS). destruct (awgn_exec N nf users g c CP X Y HG HN Hnf K H1 H2 H3) as (c1 & E & K1). rewrite E. cbn [bind].
      destruct (IH _ _ c1 Hnf K1 HS) as (c2 & E2). rewrite E2. exists c2. reflexivity.
    - destruct HS as (H1 & HS). destruct (set_frames_ok N nf users g c n Hnf H1 K) as (c1 & E & K1). rewrite E. cbn [bind]. apply IH; auto. }
  destruct (R cs 1 g c0 ltac:(lia) K0 HS) as (c & E). exists c0, c. auto.
Qed.

(** Without noise: the frames sent, or their sum. *)
Theorem C106_no : forall N users g cs, 0 < N -> sized N 1 cs ->
  exists c0 c, make_chan A G N users g = Ret c0 /\ chan_run A G (no_add_noise A G) c0 cs = Ret (c, no_expected N 1 users cs).
Proof.
  intros N users g cs HN HS. unfold make_chan. destruct (Nat.ltb_spec 0 N); [|lia]. cbn [guard bind].
  set (c0 := mkCh A G N 1 users false (repeat zero N) [] g).
  assert (K0 : ch_ok N 1 users g c0) by (constructor; cbn; auto; rewrite repeat_length; lia).
  assert (R : forall cs nf c, 0 < nf -> ch_ok N nf users g c -> sized N nf cs ->
    exists c', chan_run A G (no_add_noise A G) c cs = Ret (c', no_expected N nf users cs)).
  { clear cs HS K0 c0. induction cs as [|[CP X Y|n] cs IH]; intros nf c Hnf K HS; cbn [chan_run no_expected sized] in *.
    - exists c. reflexivity.
    - destruct HS as (H1 & H2 & H3 & HS). destruct (no_exec N nf users g c CP X Y HN Hnf K H1 H2 H3) as (c1 & E & K1). rewrite E. cbn [bind].
      destruct (IH _ c1 Hnf K1 HS) as (c2 & E2). rewrite E2. exists c2. reflexivity.
    - destruct HS as (H1 & HS). destruct (set_frames_ok N nf users g c n Hnf H1 K) as (c1 & E & K1). rewrite E. cbn [bind]. apply IH; auto. }
  destruct (R cs 1 c0 ltac:(lia) K0 HS) as (c & E). exists c0, c. auto.
Qed.

(* ------------------------------------------------------------------ *)
(** * C107: Rayleigh *)

Variable sqrt : T -> T.
Definition half : T := dvd A one (sqrt (ofZ A 2%Z)).

(** The number of Gaussian numbers of the gains of a frame: a gain is a complex number, used with the symbols if they are
    complex; otherwise its modulus is used. *)
Definition n_gains (N : nat) (cplx : bool) : nat := if cplx then N else 2 * N.
Definition gain (cplx : bool) (gs : list T) (i : nat) : T :=
  if cplx then nth i gs zero
  else sqrt (add A (mul A (nth (2 * i) gs zero) (nth (2 * i) gs zero)) (mul A (nth (2 * i + 1) gs zero) (nth (2 * i + 1) gs zero))).
(** Element q of X (complex symbols: real and imaginary parts in turn) multiplied by the gain h. *)
Definition faded (cplx : bool) (h : nat -> T) (X : list T) (q : nat) : T :=
  if cplx then
    if Nat.even q then sub A (mul A (nth q X zero) (h q)) (mul A (nth (q + 1) X zero) (h (q + 1)))
    else add A (mul A (nth q X zero) (h (q - 1))) (mul A (nth (q - 1) X zero) (h q))
  else mul A (nth q X zero) (h q).

(** The generator: for each frame, its gains then its noise; with several users, the gains of all the frames then one noise. *)
Fixpoint ray_gen (g : G) (N ng : nat) (CP : list T) (f : nat) : G :=
  match f with 0 => g | S f => snd (generate (snd (generate (ray_gen g N ng CP f) ng half)) N (nth f CP zero)) end.
Definition ray_gains (g : G) (N ng : nat) (CP : list T) (f : nat) : list T := fst (generate (ray_gen g N ng CP f) ng half).
Definition ray_noise (g : G) (N ng : nat) (CP : list T) (f : nat) : list T :=
  fst (generate (snd (generate (ray_gen g N ng CP f) ng half)) N (nth f CP zero)).

Definition ray_H (N nf : nat) (cplx users : bool) (g : G) (CP : list T) (q : nat) : T :=
  if many users nf then gain cplx (ray_gains g N (nf * n_gains N cplx) CP 0) q
  else gain cplx (ray_gains g N (n_gains N cplx) CP (q / N)) (q mod N).
Definition ray_Y (N nf : nat) (cplx users : bool) (g : G) (CP X Y : list T) (q : nat) : T :=
  let h := ray_H N nf cplx users g CP in
  if many users nf then
    if q <? N then add A (fold_left (fun s f => add A s (faded cplx h X (f * N + q))) (seq 0 nf) zero)
                         (nth q (ray_noise g N (nf * n_gains N cplx) CP 0) zero)
    else nth q Y zero
  else add A (faded cplx h X q) (nth (q mod N) (ray_noise g N (n_gains N cplx) CP (q / N)) zero).

Fixpoint ray_expected (N nf : nat) (cplx users : bool) (g : G) (cs : list (ycall A)) : list (list T * list T) :=
  match cs with
  | [] => []
  | RayNoise _ CP X H Y :: cs =>
      (tab (nf * N) (ray_H N nf cplx users g CP), tab (nf * N) (ray_Y N nf cplx users g CP X Y)) ::
      ray_expected N nf cplx users (if many users nf then ray_gen g N (nf * n_gains N cplx) CP 1 else ray_gen g N (n_gains N cplx) CP nf) cs
  | RayFrames _ n :: cs => ray_expected N n cplx users g cs
  end.
Fixpoint ray_sized (N nf : nat) (cs : list (ycall A)) : Prop :=
  match cs with
  | [] => True
  | RayNoise _ CP X H Y :: cs =>
      List.length CP = nf /\ List.length X = nf * N /\ List.length H = nf * N /\ List.length Y = nf * N /\ ray_sized N nf cs
  | RayFrames _ n :: cs => 0 < n /\ ray_sized N n cs
  end.

Record ry_ok (N nf : nat) (cplx users : bool) (g : G) (c : chan A G) : Prop := {
  y_ok : ch_ok N nf users g c; y_cplx : c_complex _ _ c = cplx; y_gains : length (c_gains _ _ c) = nf * n_gains N cplx }.

Lemma ray_frames_ok : forall N nf cplx users g c n, 0 < nf -> 0 < n -> ry_ok N nf cplx users g c -> exists c', set_n_frames A G c n = Ret c' /\ ry_ok N n cplx users g c'.
Proof.
  intros N nf cplx users g c n Hnf Hn [K KC KG]. destruct (set_frames_ok N nf users g c n Hnf Hn K) as (c' & E & K'). exists c'. split; [exact E|].
  revert E. unfold set_n_frames. rewrite (o_nf _ _ _ _ _ K). destruct (Nat.eqb_spec n nf) as [->|e].
  - intros [= <-]. constructor; auto.
  - destruct (Nat.ltb_spec 0 n); [|lia]. cbn [guard bind]. intros [= <-]. constructor; auto. cbn. rewrite length_resize, KG. apply div_mul_size. lia.
Qed.

Lemma upd2_range : forall (l : list T) p x y q, p + 1 < length l -> nth q (upd (upd l p x) (p + 1) y) zero =
  if (p <=? q) && (q <? p + 2) then (if q =? p then x else y) else nth q l zero.
Proof.
  intros l p x y q Hp. destruct (Nat.leb_spec p q); destruct (Nat.ltb_spec q (p + 2)); cbn [andb]; destruct (Nat.eqb_spec q p); try lia.
  - subst. rewrite nth_upd_neq by lia. rewrite nth_upd_eq by lia. reflexivity.
  - assert (q = p + 1) as -> by lia. rewrite nth_upd_eq by (rewrite length_upd; lia). reflexivity.
  - rewrite !nth_upd_neq by lia. reflexivity.
  - rewrite !nth_upd_neq by lia. reflexivity.
Qed.

Lemma upd1_range : forall (l : list T) p x q, p < length l -> nth q (upd l p x) zero = if (p <=? q) && (q <? p + 1) then x else nth q l zero.
Proof.
  intros l p x q Hp. destruct (Nat.leb_spec p q); destruct (Nat.ltb_spec q (p + 1)); cbn [andb]; try lia; try (rewrite nth_upd_neq by lia; reflexivity).
  assert (q = p) as -> by lia. apply nth_upd_eq. lia.
Qed.

Definition size_ok (N : nat) (cplx : bool) : Prop := 0 < N /\ (cplx = true -> N mod 2 = 0).

Lemma half_even : forall N, N mod 2 = 0 -> 2 * (N / 2) = N.
Proof. intros N H. pose proof (Nat.div_mod N 2 ltac:(lia)). lia. Qed.

Lemma even_off : forall a k, a mod 2 = 0 -> Nat.even (a + 2 * k) = true /\ Nat.even (a + 2 * k + 1) = false.
Proof.
  intros a k H. pose proof (half_even a H). replace (a + 2 * k) with (2 * (a / 2 + k)) by lia.
  rewrite !Nat.even_add, Nat.even_mul. cbn. auto.
Qed.

Lemma ray_frame : forall N nf cplx users g c f cp X H Y, generator -> size_ok N cplx -> many users nf = false -> ry_ok N nf cplx users g c -> f < nf ->
  length X = nf * N -> length H = nf * N -> length Y = nf * N ->
  let gs := fst (generate g (n_gains N cplx) half) in
  let g1 := snd (generate g (n_gains N cplx) half) in
  exists c' H' Y', ray_add_noise A G generate sqrt c cp X (f * N) H Y f = Ret (c', H', Y') /\ ry_ok N nf cplx users (snd (generate g1 N cp)) c' /\
    length H' = nf * N /\ (forall i, i < N -> nth (f * N + i) H' zero = gain cplx gs i) /\ (forall q, q < f * N -> nth q H' zero = nth q H zero) /\
    length Y' = nf * N /\
    (forall i, i < N -> nth (f * N + i) Y' zero = add A (faded cplx (fun q => gain cplx gs (q - f * N)) X (f * N + i)) (nth i (fst (generate g1 N cp)) zero)) /\
    (forall q, q < f * N -> nth q Y' zero = nth q Y zero).
Proof.
  intros N nf cplx users g c f cp X H Y HG [HN HE] HM [[] KC KG] Hf HX HH HY gs g1. unfold ray_add_noise.
  rewrite o_users0, o_nf0, o_N0, o_gen0, KC. unfold many in HM. rewrite HM. fold half.
  pose proof (frame_fits f nf N Hf) as FF.
  assert (GF : f * N + n_gains N cplx <= nf * n_gains N cplx).
  { unfold n_gains. destruct cplx; [exact FF|]. nia. }
  fold (n_gains N cplx). destruct (draw_ok A G generate HG g (n_gains N cplx) half (c_gains A G c) (f * N) ltac:(lia)) as (gains & E1 & LG & AG). rewrite E1. cbn [bind].
  fold gs in AG. fold g1.
  destruct (draw_ok A G generate HG g1 N cp (c_data A G c) (f * N) ltac:(lia)) as (data & E & LD & AD). rewrite E. cbn [bind].
  set (w := fst (generate g1 N cp)) in *.
  assert (L : exists H' Y',
    (if cplx then
         for_ (N / 2) (fun k '(H, Y) =>
           let n := 2 * k in
           h_re <- rd gains (f * N + n) ;; H <- wr H (f * N + n) h_re ;;
           h_im <- rd gains (f * N + n + 1) ;; H <- wr H (f * N + n + 1) h_im ;;
           n_re <- rd data (f * N + n) ;; n_im <- rd data (f * N + n + 1) ;;
           x_re <- rd X (f * N + n) ;; x_im <- rd X (f * N + n + 1) ;;
           Y <- wr Y (f * N + n) (add A (sub A (mul A x_re h_re) (mul A x_im h_im)) n_re) ;;
           Y <- wr Y (f * N + n + 1) (add A (add A (mul A x_im h_re) (mul A x_re h_im)) n_im) ;;
           Ret (H, Y)) (H, Y)
       else
         for_ N (fun n '(H, Y) =>
           h_re <- rd gains (f * N + 2 * n) ;; h_im <- rd gains (f * N + 2 * n + 1) ;;
           H <- wr H (f * N + n) (sqrt (add A (mul A h_re h_re) (mul A h_im h_im))) ;;
           x <- rd X (f * N + n) ;; h <- rd H (f * N + n) ;; w <- rd data (f * N + n) ;;
           Y <- wr Y (f * N + n) (add A (mul A x h) w) ;;
           Ret (H, Y)) (H, Y)) = Ret (H', Y') /\ length H' = length H /\ length Y' = length Y /\
     (forall i, i < N -> nth (f * N + i) H' zero = gain cplx gs i) /\ (forall q, q < f * N \/ f * N + N <= q -> nth q H' zero = nth q H zero) /\
     (forall i, i < N -> nth (f * N + i) Y' zero = add A (faded cplx (fun q => gain cplx gs (q - f * N)) X (f * N + i)) (nth i w zero)) /\
     (forall q, q < f * N \/ f * N + N <= q -> nth q Y' zero = nth q Y zero)).
  { destruct cplx.
    - specialize (HE eq_refl). pose proof (half_even N HE) as HE2. assert (HEf : (f * N) mod 2 = 0).
      { rewrite Nat.mul_mod, HE, Nat.mul_0_r by lia. reflexivity. }
      unfold n_gains in *.
      match goal with |- context [for_ (N / 2) ?body (H, Y)] =>
        destruct (pair_loop T zero (fun i => gain true gs i)
          (fun i _ => add A (faded true (fun q => gain true gs (q - f * N)) X (f * N + i)) (nth i w zero)) 2 (N / 2) (f * N) (f * N) body H Y) as (H' & Y' & EL & R) end.
      + lia.
      + intros k H1 Y1 Hk L1 L2. assert (Hi : 2 * k + 1 < N) by lia. cbv zeta. destruct (even_off (f * N) k HEf) as [Ev Od].
        rewrite (rd_ok _ zero) by lia. cbn [bind]. rewrite wr_ok by lia. cbn [bind]. rewrite (rd_ok _ zero) by lia. cbn [bind].
        rewrite wr_ok by (rewrite length_upd; lia). cbn [bind].
        repeat (rewrite (rd_ok _ zero) by lia; cbn [bind]).
        rewrite wr_ok by lia. cbn [bind]. rewrite wr_ok by (rewrite length_upd; lia). cbn [bind].
        eexists _, _. split; [reflexivity|]. rewrite !length_upd. split; [auto|]. split; [auto|].
        rewrite <- !Nat.add_assoc. rewrite !AG by lia. rewrite !AD by lia. rewrite !Nat.add_assoc.
        split; intros q; rewrite upd2_range by lia; destruct (Nat.leb_spec (f * N + 2 * k) q); destruct (Nat.ltb_spec q (f * N + 2 * k + 2)); cbn [andb]; try reflexivity.
        * unfold gain. destruct (Nat.eqb_spec q (f * N + 2 * k)); f_equal; lia.
        * unfold faded, gain. destruct (Nat.eqb_spec q (f * N + 2 * k)) as [->|e].
          -- replace (f * N + (f * N + 2 * k - f * N)) with (f * N + 2 * k) by lia. rewrite Ev.
             replace (f * N + 2 * k - f * N) with (2 * k) by lia. replace (f * N + 2 * k + 1 - f * N) with (2 * k + 1) by lia. reflexivity.
          -- assert (q = f * N + 2 * k + 1) as -> by lia. replace (f * N + (f * N + 2 * k + 1 - f * N)) with (f * N + 2 * k + 1) by lia. rewrite Od.
             replace (f * N + 2 * k + 1 - 1) with (f * N + 2 * k) by lia.
             replace (f * N + 2 * k - f * N) with (2 * k) by lia. replace (f * N + 2 * k + 1 - f * N) with (2 * k + 1) by lia. reflexivity.
      + rewrite HE2 in R. exists H', Y'. split; [exact EL|]. exact R.
    - match goal with |- context [for_ N ?body (H, Y)] =>
        destruct (pair_loop T zero (fun i => gain false gs i)
          (fun i _ => add A (faded false (fun q => gain false gs (q - f * N)) X (f * N + i)) (nth i w zero)) 1 N (f * N) (f * N) body H Y) as (H' & Y' & EL & R) end.
      + lia.
      + intros k H1 Y1 Hk L1 L2. unfold n_gains in *. rewrite !Nat.mul_1_l.
        rewrite (rd_ok _ zero) by lia. cbn [bind]. rewrite (rd_ok _ zero) by lia. cbn [bind].
        rewrite <- (Nat.add_assoc (f * N) (2 * k) 1). rewrite !AG by lia. rewrite wr_ok by lia. cbn [bind].
        rewrite (rd_ok _ zero) by lia. cbn [bind]. rewrite (rd_ok _ zero) by (rewrite length_upd; lia). cbn [bind]. rewrite nth_upd_eq by lia.
        rewrite (rd_ok _ zero) by lia. cbn [bind]. rewrite wr_ok by lia. cbn [bind]. rewrite AD by lia.
        eexists _, _. split; [reflexivity|]. rewrite !length_upd. split; [auto|]. split; [auto|].
        split; intros q; rewrite upd1_range by lia; destruct (Nat.leb_spec (f * N + k) q); destruct (Nat.ltb_spec q (f * N + k + 1)); cbn [andb]; try reflexivity;
          assert (q = f * N + k) as -> by lia; unfold faded, gain; replace (f * N + k - f * N) with k by lia; [reflexivity|].
        replace (f * N + k - f * N) with k by lia. reflexivity.
      + rewrite Nat.mul_1_l in R. exists H', Y'. split; [exact EL|]. exact R. }
  destruct L as (H' & Y' & EL & LH & LY & AH & BH & AY & BY).
  match goal with |- context [bind ?e _] => replace e with (Ret (H', Y')) by (symmetry; exact EL) end. cbn [bind].
  eexists _, H', Y'. split; [reflexivity|]. split; [|repeat split; auto; try lia].
  constructor; [constructor|..]; cbn; auto; try lia.
Qed.

Lemma faded_ext : forall cplx h h' X q N f, (cplx = true -> N mod 2 = 0) -> f * N <= q < f * N + N -> (forall p, f * N <= p < f * N + N -> h p = h' p) ->
  faded cplx h X q = faded cplx h' X q.
Proof.
  intros cplx h h' X q N f HE Hq Hh. unfold faded. destruct cplx; [|rewrite Hh by lia; reflexivity]. specialize (HE eq_refl).
  assert (HEf : (f * N) mod 2 = 0) by (rewrite Nat.mul_mod, HE, Nat.mul_0_r by lia; reflexivity).
  pose proof (half_even N HE). pose proof (half_even _ HEf). destruct (Nat.even q) eqn:Eq.
  - apply Nat.even_spec in Eq. destruct Eq as [k Ek]. rewrite !Hh by lia. reflexivity.
  - assert (Oq : Nat.odd q = true) by (unfold Nat.odd; rewrite Eq; reflexivity). apply Nat.odd_spec in Oq. destruct Oq as [k Ek]. rewrite !Hh by lia. reflexivity.
Qed.

Lemma ray_users_loop : forall N nf cplx gains X H Y, size_ok N cplx -> length gains = nf * n_gains N cplx -> length X = nf * N -> length H = nf * N -> N <= length Y ->
  (forall i, i < N -> nth i Y zero = zero) ->
  exists H' Y',
      (if cplx then
         for_ nf (fun f st => for_ (N / 2) (fun k '(H, Y) =>
           let i := 2 * k in
           h_re <- rd gains (f * N + i) ;; H <- wr H (f * N + i) h_re ;;
           h_im <- rd gains (f * N + i + 1) ;; H <- wr H (f * N + i + 1) h_im ;;
           x_re <- rd X (f * N + i) ;; x_im <- rd X (f * N + i + 1) ;;
           y <- rd Y i ;; Y <- wr Y i (add A y (sub A (mul A x_re h_re) (mul A x_im h_im))) ;;
           y <- rd Y (i + 1) ;; Y <- wr Y (i + 1) (add A y (add A (mul A x_im h_re) (mul A x_re h_im))) ;;
           Ret (H, Y)) st) (H, Y)
       else
         for_ nf (fun f st => for_ N (fun i '(H, Y) =>
           h_re <- rd gains (f * N * 2 + 2 * i) ;; h_im <- rd gains (f * N * 2 + 2 * i + 1) ;;
           H <- wr H (f * N + i) (sqrt (add A (mul A h_re h_re) (mul A h_im h_im))) ;;
           y <- rd Y i ;; x <- rd X (f * N + i) ;; h <- rd H (f * N + i) ;;
           Y <- wr Y i (add A y (mul A x h)) ;;
           Ret (H, Y)) st) (H, Y)) = Ret (H', Y') /\ length Y' = length Y /\ H' = tab (nf * N) (gain cplx gains) /\
    (forall i, i < N -> nth i Y' zero = fold_left (fun s f => add A s (faded cplx (gain cplx gains) X (f * N + i))) (seq 0 nf) zero) /\
    (forall q, N <= q -> nth q Y' zero = nth q Y zero).
Proof.
  intros N nf cplx gains X H Y [HN HE] HG HX HH HY HY0.
  assert (P : forall (inner : nat -> list T * list T -> outcome (list T * list T)),
    (forall f H1 Y1, f < nf -> length H1 = nf * N -> length Y1 = length Y -> exists H2 Y2, inner f (H1, Y1) = Ret (H2, Y2) /\ length H2 = nf * N /\ length Y2 = length Y /\
      (forall i, i < N -> nth (f * N + i) H2 zero = gain cplx gains (f * N + i)) /\ (forall q, q < f * N \/ f * N + N <= q -> nth q H2 zero = nth q H1 zero) /\
      (forall i, i < N -> nth (0 + i) Y2 zero = add A (nth (0 + i) Y1 zero) (faded cplx (gain cplx gains) X (f * N + i))) /\
      (forall q, q < 0 \/ 0 + N <= q -> nth q Y2 zero = nth q Y1 zero)) ->
    exists H' Y', for_ nf inner (H, Y) = Ret (H', Y') /\ length Y' = length Y /\ H' = tab (nf * N) (gain cplx gains) /\
      (forall i, i < N -> nth i Y' zero = fold_left (fun s f => add A s (faded cplx (gain cplx gains) X (f * N + i))) (seq 0 nf) zero) /\
      (forall q, N <= q -> nth q Y' zero = nth q Y zero)).
  { intros inner HI.
    destruct (for_inv _ (fun f (st : list T * list T) => length (fst st) = nf * N /\ length (snd st) = length Y /\
      (forall q, q < f * N -> nth q (fst st) zero = gain cplx gains q) /\
      (forall i, i < N -> nth i (snd st) zero = fold_left (fun s f => add A s (faded cplx (gain cplx gains) X (f * N + i))) (seq 0 f) zero) /\
      (forall q, N <= q -> nth q (snd st) zero = nth q Y zero)) nf inner (H, Y)) as ((H' & Y') & E & L1 & L2 & B1 & B2 & B3).
    - cbn [fst snd]. repeat split; auto. intros; lia.
    - intros f (H1 & Y1) Hf (L1 & L2 & B1 & B2 & B3). cbn [fst snd] in *. destruct (HI f H1 Y1 Hf L1 L2) as (H2 & Y2 & E & M1 & M2 & C1 & C2 & C3 & C4).
      exists (H2, Y2). split; [exact E|]. cbn [fst snd Nat.add] in *. split; [auto|]. split; [auto|]. split; [|split].
      + intros q Hq. destruct (Nat.lt_ge_cases q (f * N)) as [Hl|Hl]; [rewrite C2 by lia; auto|].
        replace q with (f * N + (q - f * N)) by lia. apply C1. lia.
      + intros i Hi. rewrite seq_S, fold_left_app. cbn [fold_left]. rewrite C3, B2 by auto. reflexivity.
      + intros q Hq. rewrite C4 by lia. auto.
    - cbn [fst snd] in *. exists H', Y'. split; [exact E|]. split; [auto|]. split; [|auto]. apply (eq_tab _ zero); auto. }
  destruct cplx; apply P; intros f H1 Y1 Hf L1 L2; clear P; pose proof (frame_fits f nf N Hf) as FF; unfold n_gains in *.
  - specialize (HE eq_refl). pose proof (half_even N HE) as HE2. assert (HEf : (f * N) mod 2 = 0).
    { rewrite Nat.mul_mod, HE, Nat.mul_0_r by lia. reflexivity. }
    match goal with |- context [for_ (N / 2) ?body (H1, Y1)] =>
      destruct (pair_loop T zero (fun i => gain true gains (f * N + i))
        (fun i y => add A y (faded true (gain true gains) X (f * N + i))) 2 (N / 2) (f * N) 0 body H1 Y1) as (H' & Y' & EL & R) end.
    + lia.
    + intros k H2 Y2 Hk M1 M2. assert (Hi : 2 * k + 1 < N) by lia. cbv zeta. destruct (even_off (f * N) k HEf) as [Ev Od].
      rewrite (rd_ok _ zero) by lia. cbn [bind]. rewrite wr_ok by lia. cbn [bind]. rewrite (rd_ok _ zero) by lia. cbn [bind].
      rewrite wr_ok by (rewrite length_upd; lia). cbn [bind]. repeat (rewrite (rd_ok _ zero) by lia; cbn [bind]).
      rewrite wr_ok by lia. cbn [bind]. rewrite (rd_ok _ zero) by (rewrite length_upd; lia). cbn [bind]. rewrite nth_upd_neq by lia.
      rewrite wr_ok by (rewrite length_upd; lia). cbn [bind].
      eexists _, _. split; [reflexivity|]. rewrite !length_upd. split; [auto|]. split; [auto|]. cbn [Nat.add].
      split; intros q; rewrite upd2_range by lia.
      * destruct (Nat.leb_spec (f * N + 2 * k) q); destruct (Nat.ltb_spec q (f * N + 2 * k + 2)); cbn [andb]; try reflexivity.
        unfold gain. destruct (Nat.eqb_spec q (f * N + 2 * k)); f_equal; lia.
      * destruct (Nat.leb_spec (2 * k) q); destruct (Nat.ltb_spec q (2 * k + 2)); cbn [andb]; try reflexivity. rewrite Nat.sub_0_r.
        unfold faded, gain. destruct (Nat.eqb_spec q (2 * k)) as [->|e].
        -- rewrite Ev. reflexivity.
        -- assert (q = 2 * k + 1) as -> by lia. rewrite !Nat.add_assoc, Od. replace (f * N + 2 * k + 1 - 1) with (f * N + 2 * k) by lia. reflexivity.
    + rewrite HE2 in R. exists H', Y'. split; [exact EL|]. rewrite L1, L2 in R. exact R.
  - match goal with |- context [for_ N ?body (H1, Y1)] =>
      destruct (pair_loop T zero (fun i => gain false gains (f * N + i))
        (fun i y => add A y (faded false (gain false gains) X (f * N + i))) 1 N (f * N) 0 body H1 Y1) as (H' & Y' & EL & R) end.
    + lia.
    + intros k H2 Y2 Hk M1 M2. rewrite !Nat.mul_1_l. cbn [Nat.add].
      rewrite (rd_ok _ zero) by lia. cbn [bind]. rewrite (rd_ok _ zero) by lia. cbn [bind].
      rewrite wr_ok by lia. cbn [bind]. rewrite (rd_ok _ zero) by lia. cbn [bind].
      rewrite (rd_ok _ zero) by lia. cbn [bind]. rewrite (rd_ok _ zero) by (rewrite length_upd; lia). cbn [bind]. rewrite nth_upd_eq by lia.
      rewrite wr_ok by lia. cbn [bind].
      eexists _, _. split; [reflexivity|]. rewrite !length_upd. split; [auto|]. split; [auto|].
      replace (f * N * 2 + 2 * k) with (2 * (f * N + k)) by lia.
      split; intros q; rewrite upd1_range by lia.
      * destruct (Nat.leb_spec (f * N + k) q); destruct (Nat.ltb_spec q (f * N + k + 1)); cbn [andb]; try reflexivity.
        assert (q = f * N + k) as -> by lia. replace (f * N + (f * N + k - f * N)) with (f * N + k) by lia. reflexivity.
      * destruct (Nat.leb_spec k q); destruct (Nat.ltb_spec q (k + 1)); cbn [andb]; try reflexivity. assert (q = k) as -> by lia. rewrite Nat.sub_0_r. reflexivity.
    + rewrite Nat.mul_1_l in R. exists H', Y'. split; [exact EL|]. rewrite L1, L2 in R. exact R.
Qed.

Lemma ray_exec : forall N nf cplx users g c CP X H Y, generator -> size_ok N cplx -> 0 < nf -> ry_ok N nf cplx users g c ->
  length CP = nf -> length X = nf * N -> length H = nf * N -> length Y = nf * N ->
  exists c', exec_ray A G generate sqrt c CP X H Y =
      Ret (c', tab (nf * N) (ray_H N nf cplx users g CP), tab (nf * N) (ray_Y N nf cplx users g CP X Y)) /\
    ry_ok N nf cplx users (if many users nf then ray_gen g N (nf * n_gains N cplx) CP 1 else ray_gen g N (n_gains N cplx) CP nf) c'.
Proof.
  intros N nf cplx users g c CP X H Y HG HS Hnf HC HCP HX HH HY. pose proof HS as [HN HE]. unfold exec_ray.
  pose proof HC as HC'. destruct HC' as [[] KC KG]. rewrite o_users0, o_nf0.
  destruct (many users nf) eqn:HM.
  - assert (HM' := HM). unfold many in HM. apply andb_true_iff in HM. destruct HM as [-> HM]. rewrite (rd_ok _ zero) by lia. cbn [bind].
    unfold ray_add_noise. rewrite o_users0, o_nf0, o_N0, o_gen0, KC, HM. cbn [andb]. assert (N <= nf * N) by nia. fold half. rewrite KG.
    set (ng := nf * n_gains N cplx) in *.
    destruct (draw_ok A G generate HG g ng half (c_gains A G c) 0 ltac:(lia)) as (gains & E1 & LG & AG). rewrite E1. cbn [bind].
    set (g1 := snd (generate g ng half)) in *.
    destruct (draw_ok A G generate HG g1 N (nth 0 CP zero) (c_data A G c) 0 ltac:(lia)) as (data & E & LD & AD). rewrite E. cbn [bind].
    destruct (fill_spec T zero N Y 0 zero ltac:(lia)) as (Y0 & EF & LF & F & R). rewrite EF. cbn [bind].
    assert (GE : gains = fst (generate g ng half)).
    { apply (list_eq_nth _ zero); [rewrite HG; lia|]. intros i Hi. apply (AG i). lia. }
    destruct (ray_users_loop N nf cplx gains X H Y0 HS ltac:(rewrite LG; exact KG) HX HH ltac:(lia) ltac:(intros; apply (F i); auto)) as (H' & Y1 & EL & L1 & AH & A1 & B1).
    match goal with |- context [bind ?e _] => replace e with (Ret (H', Y1)) by (symmetry; exact EL) end. cbn [bind].
    match goal with |- context [for_ N ?body Y1] =>
      destruct (update_frame T zero (fun i y => add A y (nth i (ray_noise g N ng CP 0) zero)) N 0 body Y1) as (Y' & EY & LY & AY & BY) end.
    + lia.
    + intros i y Hi Ly. cbn [Nat.add]. rewrite (rd_ok _ zero) by lia. cbn [bind]. rewrite (rd_ok _ zero) by lia. cbn [bind].
      change (nth i data zero) with (nth (0 + i) data zero). rewrite AD by auto. reflexivity.
    + rewrite EY. cbn [bind]. match goal with |- exists _, Ret (?st, _, _) = _ /\ _ => exists st end.
      split; [|constructor; [constructor|..]; cbn; auto; lia].
      assert (EH : forall q, ray_H N nf cplx true g CP q = gain cplx gains q).
      { intros q. unfold ray_H. rewrite HM'. rewrite GE. reflexivity. }
      f_equal. f_equal; [f_equal|].
      * rewrite AH. apply tab_ext. intros q Hq. symmetry. apply EH.
      * apply (eq_tab _ zero); [lia|]. intros q Hq. unfold ray_Y. rewrite HM'. fold ng. destruct (Nat.ltb_spec q N) as [Hl|Hl].
        -- cbn [Nat.add] in AY. rewrite AY, A1 by auto. f_equal.
           assert (EF2 : forall l s, fold_left (fun s f => add A s (faded cplx (gain cplx gains) X (f * N + q))) l s =
              fold_left (fun s f => add A s (faded cplx (ray_H N nf cplx true g CP) X (f * N + q))) l s).
           { induction l as [|f l IH]; intros s; [reflexivity|]. cbn [fold_left]. rewrite IH. f_equal. f_equal.
             apply (faded_ext cplx _ _ X (f * N + q) N f HE); [lia|]. intros; symmetry; apply EH. }
           apply EF2.
        -- rewrite BY, B1 by lia. apply R. lia.
  - assert (P : forall c1 f H1 Y1, ry_ok N nf cplx users (ray_gen g N (n_gains N cplx) CP f) c1 -> f < nf -> length H1 = nf * N -> length Y1 = nf * N ->
      exists c' H' Y', ray_add_noise A G generate sqrt c1 (nth f CP zero) X (f * N) H1 Y1 f = Ret (c', H', Y') /\
      ry_ok N nf cplx users (ray_gen g N (n_gains N cplx) CP (S f)) c' /\
      length H' = nf * N /\ (forall i, i < N -> nth (f * N + i) H' zero = ray_H N nf cplx users g CP (f * N + i)) /\ (forall q, q < f * N -> nth q H' zero = nth q H1 zero) /\
      length Y' = nf * N /\ (forall i, i < N -> nth (f * N + i) Y' zero = ray_Y N nf cplx users g CP X Y (f * N + i)) /\
      (forall q, q < f * N -> nth q Y' zero = nth q Y1 zero)).
    { intros c1 f H1 Y1 HC1 Hf L1 L2. destruct (ray_frame N nf cplx users _ c1 f (nth f CP zero) X H1 Y1 HG HS HM HC1 Hf HX L1 L2) as (c' & H' & Y' & E & K & LH & AH & BH & LY & AY & BY).
      exists c', H', Y'.
      assert (DM : forall i, i < N -> (f * N + i) / N = f /\ (f * N + i) mod N = i).
      { intros i Hi. split; [symmetry; apply Nat.div_unique with (r := i); lia|symmetry; apply Nat.mod_unique with (q := f); lia]. }
      split; [exact E|]. split; [exact K|]. split; [auto|]. split; [|split; [exact BH|split; [auto|split; [|exact BY]]]].
      - intros i Hi. rewrite AH by auto. unfold ray_H. rewrite HM. destruct (DM i Hi) as [-> ->]. reflexivity.
      - intros i Hi. rewrite AY by auto. unfold ray_Y. rewrite HM. destruct (DM i Hi) as [-> ->]. f_equal.
        apply (faded_ext cplx _ _ X _ N f HE); [lia|]. intros p Hp. unfold ray_H. rewrite HM. replace p with (f * N + (p - f * N)) at 2 3 by lia.
        destruct (DM (p - f * N) ltac:(lia)) as [-> ->]. reflexivity. }
    destruct users.
    + assert (nf = 1) as ->. { cbn [many andb] in HM. apply Nat.ltb_ge in HM. lia. }
      rewrite (rd_ok _ zero) by lia. cbn [bind].
      destruct (P c 0 H Y HC ltac:(lia) HH HY) as (c' & H' & Y' & E & K & LH & AH & _ & LY & AY & _). cbn [Nat.mul Nat.add] in *.
      exists c'. split; [|exact K]. rewrite E. f_equal. f_equal; [f_equal|]; apply (eq_tab _ zero); try lia; intros q Hq; [apply AH|apply AY]; lia.
    + destruct (frames_loop T zero (chan A G * list T) (fun f st => ry_ok N nf cplx false (ray_gen g N (n_gains N cplx) CP f) (fst st) /\ length (snd st) = nf * N /\
          forall q, q < f * N -> nth q (snd st) zero = ray_H N nf cplx false g CP q)
        (fun f i => ray_Y N nf cplx false g CP X Y (f * N + i)) N nf
        (fun f '(c, H, Y) => cp <- rd CP f ;; ray_add_noise A G generate sqrt c cp X (f * c_N A G c) H Y f) (c, H) Y HN HY) as ((c' & H') & E & K & LH & AH).
      * cbn [fst snd]. split; [exact HC|]. split; [auto|]. intros; lia.
      * intros f (c1 & H1) Y1 Hf (K1 & L1 & A1) HY1. cbn [fst snd] in *. rewrite (rd_ok _ zero) by lia. cbn [bind]. rewrite (o_N _ _ _ _ _ (y_ok _ _ _ _ _ _ K1)).
        destruct (P c1 f H1 Y1 K1 Hf L1 HY1) as (c' & H' & Y' & E & K & LH & AH & BH & LY & AY & BY).
        exists (c', H'), Y'. split; [exact E|]. cbn [fst snd]. split; [|auto]. split; [exact K|]. split; [auto|]. intros q Hq.
        destruct (Nat.lt_ge_cases q (f * N)) as [Hl|Hl]; [rewrite BH by auto; auto|]. replace q with (f * N + (q - f * N)) by lia. apply AH. lia.
      * cbn [fst snd] in *. exists c'. split; [|exact K].
        match goal with |- ?l = _ => transitivity (Ret (c', H', tab (nf * N) (fun q => ray_Y N nf cplx false g CP X Y (q / N * N + q mod N)))) end; [exact E|].
        f_equal. f_equal; [f_equal|].
        -- apply (eq_tab _ zero); auto.
        -- apply tab_ext. intros q Hq. f_equal. pose proof (Nat.div_mod q N ltac:(lia)). lia.
Qed.

(** Over any history of add_noise_wg and set_n_frames, the channel gives the gains drawn (their moduli for real symbols) and
    the frames sent multiplied by the gains plus the noise drawn; with add_users and several frames, the sum of the frames
    multiplied by their gains, plus one noise.  An odd number of elements is refused for complex symbols. *)
Theorem C107_rayleigh : forall N cplx users g cs, generator -> ray_sized N 1 cs ->
  (~ size_ok N cplx -> make_ray A G N cplx users g = Throws) /\
  (size_ok N cplx -> exists c0 c, make_ray A G N cplx users g = Ret c0 /\
     ray_run A G generate sqrt c0 cs = Ret (c, ray_expected N 1 cplx users g cs)).
Proof.
  intros N cplx users g cs HG HS. unfold make_ray. split.
  - intros H. destruct (Nat.ltb_spec 0 N); [|reflexivity]. cbn [guard bind]. destruct cplx; cbn [andb].
    + destruct (Nat.eqb_spec (N mod 2) 0); [exfalso; apply H; split; auto|reflexivity].
    + exfalso. apply H. split; [auto|discriminate].
  - intros [HN HE]. destruct (Nat.ltb_spec 0 N); [|lia]. cbn [guard bind].
    assert (negb (cplx && negb (N mod 2 =? 0)) = true) as ->. { destruct cplx; [rewrite HE; reflexivity|reflexivity]. }
    cbn [guard bind]. set (c0 := mkCh A G N 1 users cplx (repeat zero N) (repeat zero (if cplx then N else 2 * N)) g).
    assert (K0 : ry_ok N 1 cplx users g c0).
    { constructor; [constructor|..]; cbn [c_N c_nf c_users c_complex c_data c_gains c_gen c0]; auto; rewrite repeat_length; unfold n_gains; destruct cplx; lia. }
    assert (R : forall cs nf g c, 0 < nf -> ry_ok N nf cplx users g c -> ray_sized N nf cs ->
      exists c', ray_run A G generate sqrt c cs = Ret (c', ray_expected N nf cplx users g cs)).
    { clear cs HS K0 c0 g. induction cs as [|[CP X H1 Y|n] cs IH]; intros nf g c Hnf K HS; cbn [ray_run ray_expected ray_sized] in *.
      - exists c. reflexivity.
      - destruct HS as (H2 & H3 & H4 & H5 & HS). destruct (ray_exec N nf cplx users g c CP X H1 Y HG (conj HN HE) Hnf K H2 H3 H4 H5) as (c1 & E & K1). rewrite E. cbn [bind].
        destruct (IH _ _ c1 Hnf K1 HS) as (c2 & E2). rewrite E2. exists c2. reflexivity.
      - destruct HS as (H2 & HS). destruct (ray_frames_ok N nf cplx users g c n Hnf H2 K) as (c1 & E & K1). rewrite E. cbn [bind]. apply IH; auto. }
    destruct (R cs 1 g c0 ltac:(lia) K0 HS) as (c & E). exists c0, c. auto.
Qed.

(* ------------------------------------------------------------------ *)
(** * C108: Rayleigh with the gains of a file *)

(** The gain of symbol k, counted from the creation of the channel: each gain of the file is used [occur] times, and the file
    is read again from its beginning. *)
Definition gain_at (stock : list T) (occur k : nat) : T := nth (k / occur mod length stock) stock zero.
(** What is given over a history of calls, k symbols having been sent before. *)
Fixpoint uray_expected (N nf : nat) (stock : list T) (occur k : nat) (g : G) (cs : list (rcall A)) : list (list T * list T) :=
  match cs with
  | [] => []
  | AddNoiseWg _ cp X H Y :: cs =>
      (tab (nf * N) (fun q => gain_at stock occur (k + q)),
       tab (nf * N) (fun q => add A (mul A (nth q X zero) (gain_at stock occur (k + q))) (nth q (fst (generate g (nf * N) cp)) zero)))
      :: uray_expected N nf stock occur (k + nf * N) (snd (generate g (nf * N) cp)) cs
  | SetFramesR _ n :: cs => uray_expected N n stock occur k g cs
  end.
Fixpoint uray_sized (N nf : nat) (cs : list (rcall A)) : Prop :=
  match cs with
  | [] => True
  | AddNoiseWg _ cp X H Y :: cs => List.length X = nf * N /\ List.length H = nf * N /\ List.length Y = nf * N /\ uray_sized N nf cs
  | SetFramesR _ n :: cs => 0 < n /\ uray_sized N n cs
  end.

Record ur_ok (N nf : nat) (stock : list T) (occur k : nat) (g : G) (r : uray A G) : Prop := {
  u_c : ch_ok N nf false g (r_c _ _ r); u_gains : length (c_gains _ _ (r_c _ _ r)) = nf * N; u_stock : r_stock _ _ r = stock; u_occur : r_occur _ _ r = occur;
  u_cur : r_cur _ _ r = k mod occur; u_idx : r_idx _ _ r = k / occur mod length stock }.

Lemma uray_frames_ok : forall N nf stock occur k g r n, 0 < nf -> 0 < n -> ur_ok N nf stock occur k g r ->
  exists r', uray_set_n_frames A G r n = Ret r' /\ ur_ok N n stock occur k g r'.
Proof.
  intros N nf stock occur k g r n Hnf Hn [HC]. unfold uray_set_n_frames, set_n_frames. destruct HC. rewrite o_nf0. destruct (Nat.eqb_spec n nf) as [->|e].
  - cbn [bind]. eexists. split; [reflexivity|]. constructor; cbn; auto. constructor; auto.
  - destruct (Nat.ltb_spec 0 n); [|lia]. cbn [guard bind]. eexists. split; [reflexivity|].
    constructor; [constructor|..]; cbn; auto; rewrite length_resize, ?o_data0, ?u_gains0; apply div_mul_size; lia.
Qed.

Lemma next_gain : forall occ S k, 0 < occ -> 0 < S ->
  (occ <= k mod occ + 1 -> (k + 1) mod occ = 0 /\ (k + 1) / occ mod S = if S <=? k / occ mod S + 1 then 0 else k / occ mod S + 1) /\
  (k mod occ + 1 < occ -> (k + 1) mod occ = k mod occ + 1 /\ (k + 1) / occ = k / occ).
Proof.
  intros occ S k H HS. pose proof (Nat.div_mod k occ ltac:(lia)) as D. pose proof (Nat.mod_upper_bound k occ ltac:(lia)) as B. split; intros C.
  - assert (k mod occ + 1 = occ) by lia. assert (E : k + 1 = (k / occ + 1) * occ) by lia. rewrite E, Nat.mod_mul, Nat.div_mul by lia. split; [reflexivity|].
    set (t := k / occ). pose proof (Nat.mod_upper_bound t S ltac:(lia)) as B2. pose proof (Nat.div_mod t S ltac:(lia)) as D2. destruct (Nat.leb_spec S (t mod S + 1)).
    + replace (t + 1) with ((t / S + 1) * S) by lia. apply Nat.mod_mul. lia.
    + symmetry. apply Nat.mod_unique with (q := t / S); lia.
  - split; symmetry; [apply Nat.mod_unique with (q := k / occ)|apply Nat.div_unique with (r := k mod occ + 1)]; lia.
Qed.

Lemma uray_exec : forall N nf stock occur k g r cp X H Y, generator -> 0 < occur -> 0 < length stock -> ur_ok N nf stock occur k g r ->
  length X = nf * N -> length H = nf * N -> length Y = nf * N ->
  exists r', uray_add_noise A G generate r cp X H Y =
      Ret (r', tab (nf * N) (fun q => gain_at stock occur (k + q)),
           tab (nf * N) (fun q => add A (mul A (nth q X zero) (gain_at stock occur (k + q))) (nth q (fst (generate g (nf * N) cp)) zero))) /\
    ur_ok N nf stock occur (k + nf * N) (snd (generate g (nf * N) cp)) r'.
Proof.
  intros N nf stock occur k g r cp X H Y HG HO HS [[]] HX HH HY. unfold uray_add_noise. rewrite u_gains0, u_stock0, u_occur0, u_cur0, u_idx0, o_data0, o_gen0, o_N0, o_nf0.
  match goal with |- context [for_ (nf * N) ?body (?gs, ?cu, ?ix)] =>
    destruct (for_inv _ (fun i (st : list T * nat * nat) => length (fst (fst st)) = nf * N /\ snd (fst st) = (k + i) mod occur /\ snd st = (k + i) / occur mod length stock /\
      forall j, j < i -> nth j (fst (fst st)) zero = gain_at stock occur (k + j)) (nf * N) body (gs, cu, ix)) as (((gains & cur) & idx) & E & L1 & L2 & L3 & L4) end.
  - cbn [fst snd]. rewrite Nat.add_0_r. repeat split; auto. intros; lia.
  - intros i ((gs & cu) & ix) Hi (L1 & L2 & L3 & L4). cbn [fst snd] in *. subst cu ix.
    pose proof (Nat.mod_upper_bound ((k + i) / occur) (length stock) ltac:(lia)).
    rewrite (rd_ok _ zero) by lia. cbn [bind]. rewrite wr_ok by lia. cbn [bind].
    destruct (next_gain occur (length stock) (k + i) HO HS) as [N1 N2].
    assert (L5 : forall j, j < S i -> nth j (upd gs i (nth ((k + i) / occur mod length stock) stock zero)) zero = gain_at stock occur (k + j)).
    { intros j Hj. rewrite nth_upd by lia. destruct (Nat.eqb_spec j i) as [->|]; [reflexivity|]. apply L4. lia. }
    replace (k + S i) with (k + i + 1) by lia.
    destruct (Nat.leb_spec occur ((k + i) mod occur + 1)).
    + eexists. split; [reflexivity|]. cbn [fst snd]. rewrite length_upd. destruct N1 as [-> ->]; [lia|]. auto.
    + eexists. split; [reflexivity|]. cbn [fst snd]. rewrite length_upd. destruct N2 as [-> ->]; [lia|]. auto.
  - rewrite E. cbn [bind fst snd] in *. clear E.
    destruct (draw_ok A G generate HG g (nf * N) cp (c_data A G (r_c A G r)) 0 ltac:(lia)) as (data & E & LD & AD). rewrite E. cbn [bind]. clear E. cbn [Nat.add] in AD.
    rewrite (Nat.mul_comm N nf).
    match goal with |- context [for_ (nf * N) ?body (H, Y)] =>
      destruct (for_inv _ (fun i (st : list T * list T) => length (fst st) = nf * N /\ length (snd st) = nf * N /\
        (forall j, j < i -> nth j (fst st) zero = gain_at stock occur (k + j)) /\
        (forall j, j < i -> nth j (snd st) zero = add A (mul A (nth j X zero) (gain_at stock occur (k + j))) (nth j (fst (generate g (nf * N) cp)) zero)))
        (nf * N) body (H, Y)) as ((H' & Y') & E & M1 & M2 & M3 & M4) end.
    + cbn [fst snd]. repeat split; auto; intros; lia.
    + intros i (h & y) Hi (M1 & M2 & M3 & M4). cbn [fst snd] in *. rewrite (rd_ok _ zero) by lia. cbn [bind]. rewrite wr_ok by lia. cbn [bind].
      rewrite (rd_ok _ zero) by lia. cbn [bind]. rewrite (rd_ok _ zero) by (rewrite length_upd; lia). cbn [bind]. rewrite nth_upd_eq by lia.
      rewrite (rd_ok _ zero) by lia. cbn [bind]. rewrite wr_ok by lia. cbn [bind]. eexists. split; [reflexivity|]. cbn [fst snd]. rewrite !length_upd.
      split; [auto|]. split; [auto|]. split; intros j Hj; rewrite nth_upd by lia; destruct (Nat.eqb_spec j i) as [->|]; auto.
      * apply M3; lia.
      * rewrite L4, AD by lia. reflexivity.
      * apply M4; lia.
    + rewrite E. cbn [bind fst snd] in *. match goal with |- exists _, Ret (?st, _, _) = _ /\ _ => exists st end. split.
      * f_equal. f_equal; [f_equal|]; apply (eq_tab _ zero); auto.
      * constructor; [constructor|..]; cbn; auto; lia.
Qed.

(** Over any history, symbol k gets the gain of place (k / occur) of the file, read cyclically, and one noise.  Complex
    symbols, add_users, a null or negative number of occurrences, and an empty file are refused. *)
Theorem C108_rayleigh_user : forall N cplx users stock occur g cs, generator -> uray_sized N 1 cs ->
  (N = 0 \/ cplx = true \/ users = true \/ (occur <= 0)%Z \/ stock = [] -> make_uray A G N cplx users stock occur g = Throws) /\
  (0 < N -> cplx = false -> users = false -> (0 < occur)%Z -> stock <> [] -> exists r0 r, make_uray A G N cplx users stock occur g = Ret r0 /\
     uray_run A G generate r0 cs = Ret (r, uray_expected N 1 stock (Z.to_nat occur) 0 g cs)).
Proof.
  intros N cplx users stock occur g cs HG HS. unfold make_uray. split.
  - intros H. destruct (Nat.ltb_spec 0 N); [|reflexivity]. cbn [guard bind]. destruct cplx; [reflexivity|]. destruct users; [reflexivity|]. cbn [orb negb guard bind].
    destruct (Z.ltb_spec 0 occur); [|reflexivity]. cbn [guard bind]. destruct stock; [reflexivity|]. exfalso. intuition (try discriminate; lia).
  - intros HN -> -> HO HST. destruct (Nat.ltb_spec 0 N); [|lia]. cbn [orb negb guard bind]. destruct (Z.ltb_spec 0 occur); [|lia]. cbn [guard bind].
    assert (HL : 0 < length stock) by (destruct stock; [congruence|cbn; lia]). destruct (Nat.ltb_spec 0 (length stock)); [|lia]. cbn [guard bind].
    set (r0 := mkR A G _ _ _ _ _).
    assert (K0 : ur_ok N 1 stock (Z.to_nat occur) 0 g r0).
    { constructor; [constructor|..]; cbn [r_c r_stock r_occur r_cur r_idx c_N c_nf c_users c_complex c_data c_gains c_gen r0]; auto; try (rewrite repeat_length; lia).
      - rewrite Nat.mod_small by lia. reflexivity.
      - rewrite Nat.div_small, Nat.mod_small by lia. reflexivity. }
    assert (R : forall cs nf k g r, 0 < nf -> ur_ok N nf stock (Z.to_nat occur) k g r -> uray_sized N nf cs ->
      exists r', uray_run A G generate r cs = Ret (r', uray_expected N nf stock (Z.to_nat occur) k g cs)).
    { clear cs HS K0 r0 g. induction cs as [|[cp X Hh Y|n] cs IH]; intros nf k g r Hnf K HS; cbn [uray_run uray_expected uray_sized] in *.
      - exists r. reflexivity.
      - destruct HS as (H2 & H3 & H4 & HS). destruct (uray_exec N nf stock (Z.to_nat occur) k g r cp X Hh Y HG ltac:(lia) HL K H2 H3 H4) as (r1 & E & K1). rewrite E. cbn [bind].
        destruct (IH _ _ _ r1 Hnf K1 HS) as (r2 & E2). rewrite E2. exists r2. reflexivity.
      - destruct HS as (H2 & HS). destruct (uray_frames_ok N nf stock (Z.to_nat occur) k g r n Hnf H2 K) as (r1 & E & K1). rewrite E. cbn [bind]. apply IH; auto. }
    destruct (R cs 1 0 g r0 ltac:(lia) K0 HS) as (r & E). exists r0, r. auto.
Qed.

(** The file of the gains: a text of numbers, without white space after the last one.  (Refuted otherwise: after white space
    at the end the last gain is taken twice, and an empty file gives a gain that is not initialised.) *)
Definition ends_blank (t : text) : bool := is_space (last t sp).
Definition gains_read (t : text) (zs : list Z) (before : option Z) : list (option Z) :=
  map Some zs ++ if ends_blank t then [last (map Some zs) before] else [].

Lemma last_app_cons : forall X (a : list X) c t d, last (a ++ c :: t) d = last (c :: t) d.
Proof. induction a as [|x a IH]; intros c t d; [reflexivity|]. cbn [app]. destruct (a ++ c :: t) eqn:E; [destruct a; discriminate|]. rewrite <- E in *. cbn [last]. rewrite E, <- E. apply IH. Qed.
Lemma last_cons : forall X (l : list X) x d, last (x :: l) d = last l x.
Proof. induction l as [|y l IH]; intros x d; [reflexivity|]. change (last (x :: y :: l) d) with (last (y :: l) d). rewrite !IH. reflexivity. Qed.
Lemma last_in : forall X (l : list X) d, l <> [] -> In (last l d) l.
Proof. induction l as [|x l IH]; intros d H; [congruence|]. destruct l; [left; reflexivity|]. right. apply IH. discriminate. Qed.
Lemma blank_all : forall p c, blank p = true -> In c p -> is_space c = true.
Proof. intros p c H. apply forallb_forall. exact H. Qed.

Lemma read_gains_words : forall ws t zs fuel val acc, has_words t ws -> Forall2 decimal ws zs -> ints zs -> length zs + 1 < fuel ->
  read_gains fuel val (open t) acc = Ret (acc ++ gains_read t zs val).
Proof.
  induction ws as [|w ws IH]; intros t zs fuel val acc HW F HI HF; inversion F as [|w0 z ws0 zs' D F' E1 E2]; subst.
  - inversion HW as [p Hp| |]; subst. assert (EB : ends_blank t = true).
    { unfold ends_blank. destruct t as [|c t]; [reflexivity|]. apply (blank_all _ _ Hp). apply last_in. discriminate. }
    unfold gains_read. rewrite EB. cbn [map last app]. destruct fuel as [|[|fuel]]; cbn [length] in HF; try lia. cbn [read_gains open s_eof].
    unfold get_int. cbn [s_eof s_fail s_rest orb open]. replace t with (t ++ []) by apply app_nil_r. rewrite skip_ws_spaces by exact Hp. cbn [skip_ws s_eof].
    destruct (Nat.ltb_spec 0 (length (acc ++ [val]))) as [|H]; [reflexivity|]. rewrite app_length in H. cbn in H. lia.
  - destruct fuel as [|fuel]; [lia|]. cbn [read_gains open s_eof]. fold (open t).
    assert (Hz : (- 2 ^ 31 <= z < 2 ^ 31)%Z) by (apply HI; left; reflexivity).
    inversion HW as [|p w' Hp Hw E1 E2|p w' c t' ws'' Hp Hw Hc H E1 E2]; subst.
    + inversion F'; subst. replace (p ++ w) with (p ++ w ++ []) by (rewrite app_nil_r; reflexivity).
      rewrite (get_int_word val p w z []) by (auto; intros; discriminate). destruct fuel as [|fuel]; [cbn in HF; lia|]. cbn [read_gains s_eof].
      destruct (Nat.ltb_spec 0 (length (acc ++ [Some z]))) as [|H]; [|rewrite app_length in H; cbn in H; lia]. cbn [guard bind].
      unfold gains_read. assert (EB : ends_blank (p ++ w ++ []) = false).
      { rewrite app_nil_r. unfold ends_blank. destruct Hw as [N1 N2]. destruct w as [|x w]; [congruence|]. rewrite last_app_cons. apply N2. apply last_in. discriminate. }
      rewrite EB. reflexivity.
    + rewrite (get_int_word val p w z (c :: t')) by (auto; intros ? ? [= <- _]; exact Hc). fold (open (c :: t')).
      rewrite (IH (c :: t') zs') by (auto using has_words_space; try (intros x Hx; apply HI; right; exact Hx); cbn [length] in HF; lia).
      rewrite <- app_assoc. do 2 f_equal. unfold gains_read, ends_blank.
      assert (EB : last (p ++ w ++ c :: t') sp = last (c :: t') sp) by (rewrite app_assoc; apply last_app_cons). rewrite EB. cbn [map app]. f_equal. f_equal.
      destruct (is_space (last (c :: t') sp)); [|reflexivity]. f_equal. symmetry. apply last_cons.
Qed.

Theorem C108_gains_partial : forall t zs, numbers t zs -> ints zs -> zs <> [] -> ends_blank t = false ->
  exists fuel, read_gains fuel None (open t) [] = Ret (map Some zs).
Proof.
  intros t zs (ws & HW & F) HI HZ HE. exists (length zs + 2). rewrite (read_gains_words ws t zs) by (auto; lia).
  unfold gains_read. rewrite HE, app_nil_r. reflexivity.
Qed.
Theorem C108_gains_refuted : forall t zs, numbers t zs -> ints zs -> ends_blank t = true ->
  exists fuel, read_gains fuel None (open t) [] = Ret (map Some zs ++ [last (map Some zs) None]).
Proof.
  intros t zs (ws & HW & F) HI HE. exists (length zs + 2). rewrite (read_gains_words ws t zs) by (auto; lia).
  unfold gains_read. rewrite HE. reflexivity.
Qed.

(* ------------------------------------------------------------------ *)
(** * C109: channels with the noise of a file *)

Variable bits : T -> Z.
Variable unknown : T.
Variable W : nat.

(** Over a history, the k-th frame sent uses the frame of noise k of the file, read cyclically: element i of the frame received
    is [out w i x] for the noise w and the symbol x.  With several users one frame is received, with one frame of noise. *)
Definition noise_of (buff : list (list T)) (k : nat) : list T := nth (k mod length buff) buff [].
Fixpoint user_expected (out : list T -> nat -> T -> T) (mout : list T -> nat -> nat -> list T -> nat -> T)
    (N nf : nat) (users : bool) (buff : list (list T)) (k : nat) (cs : list (ucall A)) : list (list T) :=
  match cs with
  | [] => []
  | UAddNoise _ X Y :: cs =>
      tab (nf * N) (fun q =>
        if many users nf then (if q <? N then mout (noise_of buff k) N nf X q else nth q Y zero)
        else out (noise_of buff (k + q / N)) (q mod N) (nth q X zero))
      :: user_expected out mout N nf users buff (k + if many users nf then 1 else nf) cs
  | USetFrames _ n :: cs => user_expected out mout N n users buff k cs
  end.
Fixpoint user_sized (N nf : nat) (cs : list (ucall A)) : Prop :=
  match cs with
  | [] => True
  | UAddNoise _ X Y :: cs => List.length X = nf * N /\ List.length Y = nf * N /\ user_sized N nf cs
  | USetFrames _ n :: cs => 0 < n /\ user_sized N n cs
  end.
Definition noise_frames (N : nat) (buff : list (list T)) : Prop := buff <> [] /\ forall w, In w buff -> length w = N.

Record uc_ok (N nf : nat) (users : bool) (buff : list (list T)) (k : nat) (c : uchan A) : Prop := {
  w_N : n_N _ c = N; w_nf : n_nf _ c = nf; w_users : n_users _ c = users; w_data : length (n_data _ c) = nf * N; w_buff : n_buff _ c = buff;
  w_count : n_count _ c = k mod length buff }.

Lemma set_noise_ok : forall N nf users buff k c f, noise_frames N buff -> uc_ok N nf users buff k c -> f < nf ->
  exists c', set_noise A c f = Ret c' /\ uc_ok N nf users buff (k + 1) c' /\ forall i, i < N -> nth (f * N + i) (n_data A c') zero = nth i (noise_of buff k) zero.
Proof.
  intros N nf users buff k c f [HB HW] [] Hf. unfold set_noise. rewrite w_buff0, w_count0, w_N0.
  assert (HL : length buff <> 0) by (destruct buff; [congruence|discriminate]). pose proof (Nat.mod_upper_bound k _ HL) as B.
  rewrite (rd_ok _ []) by lia. cbn [bind]. rewrite (HW (nth (k mod length buff) buff []) (nth_In _ _ B)). pose proof (frame_fits f nf N Hf).
  destruct (copy_spec T zero (nth (k mod length buff) buff []) 0 N (n_data A c) (f * N)) as (data & E & L & C & _); [rewrite (HW _ (nth_In _ _ B)); lia|lia|].
  rewrite E. cbn [bind]. eexists. split; [reflexivity|]. split; [|exact C]. constructor; cbn; auto; [lia|].
  rewrite Nat.add_mod_idemp_l by exact HL. reflexivity.
Qed.

Lemma user_frames_ok : forall N nf users buff k c n, 0 < nf -> 0 < n -> uc_ok N nf users buff k c -> exists c', uchan_set_n_frames A c n = Ret c' /\ uc_ok N n users buff k c'.
Proof.
  intros N nf users buff k c n Hnf Hn []. unfold uchan_set_n_frames. rewrite w_nf0. destruct (Nat.eqb_spec n nf) as [->|e].
  - exists c. split; [reflexivity|]. constructor; auto.
  - destruct (Nat.ltb_spec 0 n); [|lia]. cbn [guard bind]. eexists. split; [reflexivity|].
    constructor; cbn; auto. rewrite length_resize, w_data0. apply div_mul_size. lia.
Qed.

Definition step_ok (out : list T -> nat -> T -> T) (N : nat) (users : bool) (buff : list (list T)) (P : list T -> Prop)
    (step : uchan A -> list T -> nat -> list T -> nat -> outcome (uchan A * list T)) : Prop :=
  forall nf k c f X Y, P X -> many users nf = false -> uc_ok N nf users buff k c -> f < nf -> length X = nf * N -> length Y = nf * N ->
  exists c' Y', step c X (f * N) Y f = Ret (c', Y') /\ uc_ok N nf users buff (k + 1) c' /\ length Y' = nf * N /\
    (forall i, i < N -> nth (f * N + i) Y' zero = out (noise_of buff k) i (nth (f * N + i) X zero)) /\
    (forall q, q < f * N -> nth q Y' zero = nth q Y zero).
Definition step_many (mout : list T -> nat -> nat -> list T -> nat -> T) (N : nat) (users : bool) (buff : list (list T))
    (step : uchan A -> list T -> nat -> list T -> nat -> outcome (uchan A * list T)) : Prop :=
  forall nf k c X Y, many users nf = true -> uc_ok N nf users buff k c -> length X = nf * N -> length Y = nf * N ->
  exists c' Y', step c X 0 Y 0 = Ret (c', Y') /\ uc_ok N nf users buff (k + 1) c' /\ length Y' = nf * N /\
    (forall q, q < N -> nth q Y' zero = mout (noise_of buff k) N nf X q) /\ (forall q, N <= q -> nth q Y' zero = nth q Y zero).
Definition sent (P : list T -> Prop) (cs : list (ucall A)) : Prop := forall X Y, In (UAddNoise A X Y) cs -> P X.

Lemma user_run_ok : forall out mout N users buff P step cs, 0 < N -> noise_frames N buff -> step_ok out N users buff P step -> step_many mout N users buff step ->
  sent P cs -> user_sized N 1 cs ->
  exists c0 c, make_uchan A N buff users = Ret c0 /\ uchan_run A step c0 cs = Ret (c, user_expected out mout N 1 users buff 0 cs).
Proof.
  intros out mout N users buff P step cs HN HB HS HM HP HZ. pose proof HB as [HB1 HB2]. unfold make_uchan. destruct (Nat.ltb_spec 0 N); [|lia]. cbn [guard bind].
  assert ((0 <? length buff) && forallb (fun w => length w =? N) buff = true) as ->.
  { apply andb_true_iff. split; [apply Nat.ltb_lt; destruct buff; [congruence|cbn; lia]|]. apply forallb_forall. intros w Hw. apply Nat.eqb_eq. auto. }
  cbn [guard bind]. set (c0 := mkUc A _ _ _ _ _ _).
  assert (K0 : uc_ok N 1 users buff 0 c0).
  { constructor; cbn [n_N n_nf n_users n_data n_buff n_count c0]; auto; [rewrite repeat_length; lia|]. rewrite Nat.mod_0_l; [reflexivity|]. destruct buff; [congruence|discriminate]. }
  assert (EX : forall nf k c X Y, 0 < nf -> P X -> uc_ok N nf users buff k c -> length X = nf * N -> length Y = nf * N ->
    exists c', uexec A step c X Y = Ret (c', tab (nf * N) (fun q =>
        if many users nf then (if q <? N then mout (noise_of buff k) N nf X q else nth q Y zero)
        else out (noise_of buff (k + q / N)) (q mod N) (nth q X zero))) /\ uc_ok N nf users buff (k + if many users nf then 1 else nf) c').
  { clear HZ K0 c0. intros nf k c X Y Hnf PX K HX HY. unfold uexec. pose proof K as K'. destruct K'. rewrite w_users0, w_nf0.
    destruct (many users nf) eqn:E.
    - assert (users = true) as -> by (unfold many in E; destruct users; [reflexivity|discriminate]).
      destruct (HM nf k c X Y E K HX HY) as (c' & Y' & E1 & K1 & L1 & A1 & B1). exists c'. split; [|exact K1]. rewrite E1. do 2 f_equal.
      apply (eq_tab _ zero); [exact L1|]. intros q Hq. destruct (Nat.ltb_spec q N); auto.
    - destruct users.
      + assert (nf = 1) as ->. { cbn [many andb] in E. apply Nat.ltb_ge in E. lia. }
        destruct (HS 1 k c 0 X Y PX E K ltac:(lia) HX HY) as (c' & Y' & E1 & K1 & L1 & A1 & _). cbn [Nat.mul Nat.add] in *.
        exists c'. split; [|exact K1]. rewrite E1. do 2 f_equal. apply (eq_tab _ zero); [lia|]. intros q Hq.
        rewrite Nat.div_small, Nat.mod_small, Nat.add_0_r by lia. apply A1. lia.
      + destruct (frames_loop T zero (uchan A) (fun f c => uc_ok N nf false buff (k + f) c)
          (fun f i => out (noise_of buff (k + f)) i (nth (f * N + i) X zero)) N nf
          (fun f '(c, Y) => step c X (f * n_N A c) Y f) c Y HN HY) as (c' & E1 & K1).
        * rewrite Nat.add_0_r. exact K.
        * intros f c1 Y1 Hf K1 HY1. rewrite (w_N _ _ _ _ _ _ K1). replace (k + S f) with (k + f + 1) by lia. apply (HS nf (k + f) c1 f X Y1); auto.
        * exists c'. split; [|exact K1]. rewrite E1. do 2 f_equal. apply tab_ext. intros q Hq. do 2 f_equal.
          pose proof (Nat.div_mod q N ltac:(lia)). lia. }
  assert (R : forall cs nf k c, 0 < nf -> uc_ok N nf users buff k c -> sent P cs -> user_sized N nf cs ->
    exists c', uchan_run A step c cs = Ret (c', user_expected out mout N nf users buff k cs)).
  { clear cs HP HZ K0 c0. induction cs as [|[X Y|n] cs IH]; intros nf k c Hnf K HP HZ; cbn [uchan_run user_expected user_sized] in *.
    - exists c. reflexivity.
    - destruct HZ as (H2 & H3 & HZ). destruct (EX nf k c X Y Hnf) as (c1 & E & K1); auto; [apply (HP X Y); left; reflexivity|]. rewrite E. cbn [bind].
      destruct (IH _ _ c1 Hnf K1) as (c2 & E2); auto; [intros X' Y' H'; apply (HP X' Y'); right; exact H'|]. rewrite E2. exists c2. reflexivity.
    - destruct HZ as (H2 & HZ). destruct (user_frames_ok N nf users buff k c n Hnf H2 K) as (c1 & E & K1). rewrite E. cbn [bind]. apply IH; auto.
      intros X' Y' H'; apply (HP X' Y'); right; exact H'. }
  destruct (R cs 1 0 c0 ltac:(lia) K0 HP HZ) as (c & E). exists c0, c. auto.
Qed.

Definition user_out (w : list T) (i : nat) (x : T) : T := nth i w zero.
Definition user_sum (w : list T) (N nf : nat) (X : list T) (q : nat) : T := nth q w zero.
(** Channel_user: what is received is the noise of the file, frame after frame. *)
Theorem C109_user : forall N users buff cs, 0 < N -> noise_frames N buff -> user_sized N 1 cs ->
  exists c0 c, make_uchan A N buff users = Ret c0 /\
    uchan_run A (user_add_noise A) c0 cs = Ret (c, user_expected user_out user_sum N 1 users buff 0 cs).
Proof.
  intros N users buff cs HN HB HZ. apply (user_run_ok user_out user_sum N users buff (fun _ => True)); auto.
  - intros nf k c f X Y _ HM K Hf HX HY. unfold user_add_noise. rewrite (w_users _ _ _ _ _ _ K), (w_nf _ _ _ _ _ _ K). unfold many in HM. rewrite HM.
    destruct (set_noise_ok N nf users buff k c f HB K Hf) as (c' & E & K' & AN). rewrite E. cbn [bind]. rewrite (w_N _ _ _ _ _ _ K'). pose proof (frame_fits f nf N Hf).
    destruct (copy_spec T zero (n_data A c') (f * N) N Y (f * N)) as (Y' & E1 & L & C & D); [rewrite (w_data _ _ _ _ _ _ K'); lia|lia|]. rewrite E1. cbn [bind].
    exists c', Y'. split; [reflexivity|]. split; [exact K'|]. split; [lia|]. split; [|intros; apply D; lia]. intros i Hi. rewrite C, AN by auto. reflexivity.
  - intros nf k c X Y HM K HX HY. unfold user_add_noise. rewrite (w_users _ _ _ _ _ _ K), (w_nf _ _ _ _ _ _ K). assert (HM' := HM). unfold many in HM. rewrite HM.
    assert (1 < nf). { apply andb_true_iff in HM. destruct HM as [_ HM]. apply Nat.ltb_lt in HM. exact HM. }
    destruct (set_noise_ok N nf users buff k c 0 HB K ltac:(lia)) as (c' & E & K' & AN). rewrite E. cbn [bind]. rewrite (w_N _ _ _ _ _ _ K'). assert (N <= nf * N) by nia.
    destruct (copy_spec T zero (n_data A c') 0 N Y 0) as (Y' & E1 & L & C & D); [rewrite (w_data _ _ _ _ _ _ K'); lia|lia|]. rewrite E1. cbn [bind].
    exists c', Y'. split; [reflexivity|]. split; [exact K'|]. split; [lia|]. split; [|intros; apply D; lia]. intros q Hq. cbn [Nat.add] in C. rewrite C by auto. apply (AN q Hq).
  - intros X Y _. exact I.
Qed.

Definition add_out (w : list T) (i : nat) (x : T) : T := add A x (nth i w zero).
(** What a channel with several users should give: the sum of the frames plus one frame of noise. *)
Definition add_sum (w : list T) (N nf : nat) (X : list T) (q : nat) : T := add A (usum A N nf X q) (nth q w zero).
(** What it gives. *)
Definition sum_only (w : list T) (N nf : nat) (X : list T) (q : nat) : T := usum A N nf X q.

Lemma useradd_run : forall N users buff cs, 0 < N -> noise_frames N buff -> user_sized N 1 cs ->
  exists c0 c, make_uchan A N buff users = Ret c0 /\
    uchan_run A (useradd_add_noise A) c0 cs = Ret (c, user_expected add_out sum_only N 1 users buff 0 cs).
Proof.
  intros N users buff cs HN HB HZ. apply (user_run_ok add_out sum_only N users buff (fun _ => True)); auto.
  - intros nf k c f X Y _ HM K Hf HX HY. unfold useradd_add_noise. rewrite (w_users _ _ _ _ _ _ K), (w_nf _ _ _ _ _ _ K). unfold many in HM. rewrite HM.
    destruct (set_noise_ok N nf users buff k c f HB K Hf) as (c' & E & K' & AN). rewrite E. cbn [bind]. rewrite (w_N _ _ _ _ _ _ K'). pose proof (frame_fits f nf N Hf).
    pose proof (w_data _ _ _ _ _ _ K') as LD.
    match goal with |- context [for_ N ?body Y] =>
      destruct (update_frame T zero (fun i _ => add_out (noise_of buff k) i (nth (f * N + i) X zero)) N (f * N) body Y) as (Y' & EY & LY & AY & BY) end.
    + lia.
    + intros i y Hi Ly. rewrite (rd_ok _ zero) by lia. cbn [bind]. rewrite (rd_ok _ zero) by lia. cbn [bind]. rewrite AN by auto. reflexivity.
    + rewrite EY. cbn [bind]. exists c', Y'. split; [reflexivity|]. split; [exact K'|]. split; [lia|]. split; [exact AY|]. intros q Hq. apply BY. lia.
  - intros nf k c X Y HM K HX HY. unfold useradd_add_noise. rewrite (w_users _ _ _ _ _ _ K), (w_nf _ _ _ _ _ _ K). assert (HM' := HM). unfold many in HM. rewrite HM.
    assert (1 < nf). { apply andb_true_iff in HM. destruct HM as [_ HM]. apply Nat.ltb_lt in HM. exact HM. }
    destruct (set_noise_ok N nf users buff k c 0 HB K ltac:(lia)) as (c' & E & K' & AN). rewrite E. cbn [bind]. rewrite (w_N _ _ _ _ _ _ K'). assert (N <= nf * N) by nia.
    destruct (copy_spec T zero (n_data A c') 0 N Y 0) as (Y1 & E1 & L & C & D); [rewrite (w_data _ _ _ _ _ _ K'); lia|lia|]. rewrite E1. cbn [bind]. rewrite (w_nf _ _ _ _ _ _ K').
    destruct (sum_users_ok A N nf X Y1 HX ltac:(lia)) as (Y2 & E2 & L2 & A2 & B2). rewrite E2. cbn [bind].
    exists c', Y2. split; [reflexivity|]. split; [exact K'|]. split; [lia|]. split; [exact A2|]. intros q Hq. rewrite B2 by auto. apply D. lia.
  - intros X Y _. exact I.
Qed.

(** Channel_user_add, without add_users: the frames sent plus the noise of the file. *)
Theorem C109_user_add_partial : forall N buff cs, 0 < N -> noise_frames N buff -> user_sized N 1 cs ->
  exists c0 c, make_uchan A N buff false = Ret c0 /\
    uchan_run A (useradd_add_noise A) c0 cs = Ret (c, user_expected add_out add_sum N 1 false buff 0 cs).
Proof.
  intros N buff cs HN HB HZ. destruct (useradd_run N false buff cs HN HB HZ) as (c0 & c & E & E1). exists c0, c. split; [exact E|]. rewrite E1. do 2 f_equal. clear.
  generalize 0 as k, 1 as nf. induction cs as [|[X Y|n] cs IH]; intros k nf; cbn [user_expected]; [reflexivity| |apply IH]. rewrite IH. f_equal.
Qed.

(** With add_users and several frames, the noise of the file is read but not added. *)
Theorem C109_user_add_refuted : forall N buff n X Y, 0 < N -> noise_frames N buff -> 1 < n -> length X = n * N -> length Y = n * N ->
  exists c0 c, make_uchan A N buff true = Ret c0 /\
    uchan_run A (useradd_add_noise A) c0 [USetFrames A n; UAddNoise A X Y] = Ret (c, [tab (n * N) (fun q => if q <? N then usum A N n X q else nth q Y zero)]).
Proof.
  intros N buff n X Y HN HB Hn HX HY. destruct (useradd_run N true buff [USetFrames A n; UAddNoise A X Y] HN HB) as (c0 & c & E & E1).
  - cbn. repeat split; auto. lia.
  - exists c0, c. split; [exact E|]. rewrite E1. cbn [user_expected]. unfold many. destruct (Nat.ltb_spec 1 n); [|lia]. cbn [andb]. reflexivity.
Qed.

(* ------------------------------------------------------------------ *)
(** * C110: erasures and flips *)

Variable le : T -> T -> bool.

Lemma vec_loop_ok : forall N reg tail o Y V, 0 < W -> o + N <= length Y ->
  (forall i, i < N / W * W -> reg i = Ret (V i)) -> (forall i, N / W * W <= i < N -> tail i = Ret (V i)) ->
  exists Y', vec_loop A W N reg tail o Y = Ret Y' /\ length Y' = length Y /\ (forall i, i < N -> nth (o + i) Y' zero = V i) /\
    (forall q, q < o \/ o + N <= q -> nth q Y' zero = nth q Y zero).
Proof.
  intros N reg tail o Y V HW HY HR HT. unfold vec_loop. pose proof (Nat.div_mod N W ltac:(lia)) as D. set (n := N / W) in *.
  assert (HnN : n * W <= N) by lia.
  match goal with |- context [for_ n ?body Y] =>
    destruct (for_inv _ (fun b (y : list T) => length y = length Y /\ (forall i, i < b * W -> nth (o + i) y zero = V i) /\
      (forall q, q < o \/ o + b * W <= q -> nth q y zero = nth q Y zero)) n body Y) as (Y1 & E & L & B & C) end.
  - cbn [Nat.mul]. repeat split; auto; intros; lia.
  - intros b y Hb (L & B & C). assert ((b + 1) * W <= n * W) by (apply Nat.mul_le_mono_r; lia).
    match goal with |- context [for_ W ?body y] => destruct (update_frame T zero (fun l _ => V (b * W + l)) W (o + b * W) body y) as (y' & Ey & Ly & Ay & By) end.
    + lia.
    + intros l y' Hl Hy'. rewrite HR by lia. cbn [bind]. f_equal. lia.
    + exists y'. split; [exact Ey|]. split; [congruence|]. split.
      * intros i Hi. destruct (Nat.lt_ge_cases i (b * W)) as [Hl|Hl]; [rewrite By by lia; apply B; exact Hl|].
        replace (o + i) with (o + b * W + (i - b * W)) by lia. rewrite Ay by lia. f_equal. lia.
      * intros q Hq. rewrite By by lia. apply C. lia.
  - rewrite E. cbn [bind].
    match goal with |- context [for_from (n * W) (N - n * W) ?body Y1] =>
      destruct (for_from_inv _ (fun i (y : list T) => length y = length Y /\ (forall j, j < i -> nth (o + j) y zero = V j) /\
        (forall q, q < o \/ o + N <= q -> nth q y zero = nth q Y zero)) (N - n * W) (n * W) body Y1) as (Y2 & E2 & L2 & B2 & C2) end.
    + split; [auto|]. split; [exact B|]. intros q Hq. apply C. lia.
    + intros i y Hi (Ly & By & Cy). rewrite HT by lia. cbn [bind]. rewrite wr_ok by lia. eexists. split; [reflexivity|]. rewrite length_upd. split; [auto|]. split.
      * intros j Hj. destruct (Nat.eq_dec j i) as [->|e]; [apply nth_upd_eq; lia|]. rewrite nth_upd_neq by lia. apply By. lia.
      * intros q Hq. rewrite nth_upd_neq by lia. apply Cy. exact Hq.
    + exists Y2. split; [exact E2|]. split; [auto|]. split; [|exact C2]. intros i Hi. apply B2. lia.
Qed.

(** The events drawn: none for the probability zero; otherwise an event when the number drawn is at most the probability. *)
Definition drawn (uv u : nat -> T) (N : nat) (p : T) (i : nat) : bool :=
  if is_zero A p then false else le (if i <? N / W * W then uv i else u (i - N / W * W)) p.

Lemma event_fast_ok : forall uv u E o N p, 0 < W -> o + N <= length E ->
  exists E', event_fast A W le uv u E o N p = Ret E' /\ length E' = length E /\ (forall i, i < N -> nth (o + i) E' 0%Z = if drawn uv u N p i then 1%Z else 0%Z) /\
    (forall q, q < o \/ o + N <= q -> nth q E' 0%Z = nth q E 0%Z).
Proof.
  intros uv u E o N p HW HE. unfold event_fast, drawn. destruct (is_zero A p).
  - destruct (fill_spec Z 0%Z N E o 0%Z ltac:(lia)) as (E' & EE & L & F & R). exists E'. rewrite EE. auto.
  - pose proof (Nat.div_mod N W ltac:(lia)) as D. set (n := N / W) in *. assert (HnN : n * W <= N) by lia.
    match goal with |- context [for_ n ?body E] =>
      destruct (for_inv _ (fun b (y : list Z) => length y = length E /\ (forall i, i < b * W -> nth (o + i) y 0%Z = if le (uv i) p then 1%Z else 0%Z) /\
        (forall q, q < o \/ o + b * W <= q -> nth q y 0%Z = nth q E 0%Z)) n body E) as (Y1 & E1 & L & B & C) end.
    + cbn [Nat.mul]. repeat split; auto; intros; lia.
    + intros b y Hb (L & B & C). assert ((b + 1) * W <= n * W) by (apply Nat.mul_le_mono_r; lia).
      match goal with |- context [for_ W ?body y] => destruct (update_frame Z 0%Z (fun l _ => if le (uv (b * W + l)) p then 1%Z else 0%Z) W (o + b * W) body y) as (y' & Ey & Ly & Ay & By) end.
      * lia.
      * intros l y' Hl Hy'. f_equal. lia.
      * exists y'. split; [exact Ey|]. split; [congruence|]. split.
        -- intros i Hi. destruct (Nat.lt_ge_cases i (b * W)) as [Hl|Hl]; [rewrite By by lia; apply B; exact Hl|].
           replace (o + i) with (o + b * W + (i - b * W)) by lia. rewrite Ay by lia. replace (b * W + (i - b * W)) with i by lia. reflexivity.
        -- intros q Hq. rewrite By by lia. apply C. lia.
    + rewrite E1. cbn [bind].
      match goal with |- context [for_from (n * W) (N - n * W) ?body Y1] =>
        destruct (for_from_inv _ (fun i (y : list Z) => length y = length E /\
          (forall j, j < i -> nth (o + j) y 0%Z = if le (if j <? n * W then uv j else u (j - n * W)) p then 1%Z else 0%Z) /\
          (forall q, q < o \/ o + N <= q -> nth q y 0%Z = nth q E 0%Z)) (N - n * W) (n * W) body Y1) as (Y2 & E2 & L2 & B2 & C2) end.
      * split; [auto|]. split; [|intros q Hq; apply C; lia]. intros j Hj. destruct (Nat.ltb_spec j (n * W)); [|lia]. auto.
      * intros i y Hi (Ly & By & Cy). rewrite wr_ok by lia. eexists. split; [reflexivity|]. rewrite length_upd. split; [auto|]. split.
        -- intros j Hj. destruct (Nat.eq_dec j i) as [->|e]; [rewrite nth_upd_eq by lia; destruct (Nat.ltb_spec i (n * W)); [lia|reflexivity]|]. rewrite nth_upd_neq by lia. apply By. lia.
        -- intros q Hq. rewrite nth_upd_neq by lia. apply Cy. exact Hq.
      * exists Y2. split; [exact E2|]. split; [auto|]. split; [|exact C2]. intros i Hi. apply B2. lia.
Qed.

(** The arithmetic tells 0 from 1. *)
Definition tells_bits : Prop := neq A zero zero = false /\ neq A one zero = true.
Definition binary_frame (X : list T) : Prop := forall x, In x X -> x = zero \/ x = one.
Definition flipped (x : T) : T := if is_zero A x then one else zero.

Lemma flip_bit : forall x (e : bool), tells_bits -> x = zero \/ x = one ->
  (if xorb e (is_zero A x) then zero else one) = if e then flipped x else x.
Proof. intros x e [H0 H1] [->| ->]; unfold flipped, is_zero; rewrite ?H0, ?H1; destruct e; reflexivity. Qed.

(** One frame through the erasure channel: it draws the events, then each symbol is erased or received as it was sent. *)
Theorem C110_bec : forall N E f p uv u X o Y, 0 < W -> (f + 1) * N <= length E -> o + N <= length X -> o + N <= length Y ->
  exists E' Y', event_fast A W le uv u E (N * f) N p = Ret E' /\ bec_add_noise A unknown W N E' f X o Y = Ret Y' /\ length Y' = length Y /\
    (forall i, i < N -> nth (o + i) Y' zero = if drawn uv u N p i then unknown else nth (o + i) X zero) /\
    (forall q, q < o \/ o + N <= q -> nth q Y' zero = nth q Y zero).
Proof.
  intros N E f p uv u X o Y HW HE HX HY. destruct (event_fast_ok uv u E (N * f) N p HW ltac:(lia)) as (E' & EE & LE & AE & _).
  exists E'. unfold bec_add_noise, erase.
  match goal with |- context [vec_loop A W N ?reg ?tail o Y] =>
    destruct (vec_loop_ok N reg tail o Y (fun i => if drawn uv u N p i then unknown else nth (o + i) X zero) HW HY) as (Y' & EY & H) end.
  - intros i Hi. pose proof (Nat.div_mod N W ltac:(lia)). rewrite (rd_ok _ zero) by lia. cbn [bind]. rewrite (rd_ok _ 0%Z) by lia. cbn [bind]. rewrite AE by lia.
    destruct (drawn uv u N p i); reflexivity.
  - intros i Hi. rewrite (rd_ok _ 0%Z) by lia. cbn [bind]. rewrite AE by lia. destruct (drawn uv u N p i); [reflexivity|]. change (0 =? 0)%Z with true. cbv iota. apply rd_ok. lia.
  - exists Y'. split; [exact EE|]. split; [exact EY|]. exact H.
Qed.

(** One frame through the symmetric channel: it draws the events, then each bit is flipped or received as it was sent. *)
Theorem C110_bsc : forall N E f p uv u X o Y, 0 < W -> tells_bits -> binary_frame X -> (f + 1) * N <= length E -> o + N <= length X -> o + N <= length Y ->
  exists E' Y', event_fast A W le uv u E (N * f) N p = Ret E' /\ bsc_add_noise A W N E' f X o Y = Ret Y' /\ length Y' = length Y /\
    (forall i, i < N -> nth (o + i) Y' zero = if drawn uv u N p i then flipped (nth (o + i) X zero) else nth (o + i) X zero) /\
    (forall q, q < o \/ o + N <= q -> nth q Y' zero = nth q Y zero).
Proof.
  intros N E f p uv u X o Y HW HT HB HE HX HY. destruct (event_fast_ok uv u E (N * f) N p HW ltac:(lia)) as (E' & EE & LE & AE & _).
  assert (HV : forall i, i < N -> nth (o + i) X zero = zero \/ nth (o + i) X zero = one) by (intros i Hi; apply HB; apply nth_In; lia).
  exists E'. unfold bsc_add_noise, flip.
  match goal with |- context [vec_loop A W N ?reg ?tail o Y] =>
    destruct (vec_loop_ok N reg tail o Y (fun i => if drawn uv u N p i then flipped (nth (o + i) X zero) else nth (o + i) X zero) HW HY) as (Y' & EY & H) end.
  - intros i Hi. pose proof (Nat.div_mod N W ltac:(lia)). rewrite (rd_ok _ zero) by lia. cbn [bind]. rewrite (rd_ok _ 0%Z) by lia. cbn [bind]. rewrite AE by lia.
    rewrite <- (flip_bit _ _ HT (HV i ltac:(lia))). destruct (drawn uv u N p i); reflexivity.
  - intros i Hi. rewrite (rd_ok _ 0%Z) by lia. cbn [bind]. rewrite AE by lia. rewrite (rd_ok _ zero) by lia. cbn [bind].
    rewrite <- (flip_bit _ _ HT (HV i ltac:(lia))). destruct (drawn uv u N p i), (is_zero A (nth (o + i) X zero)); reflexivity.
  - exists Y'. split; [exact EE|]. split; [exact EY|]. exact H.
Qed.

(** With the probability zero there is no event, whatever is drawn; with a probability that every number drawn reaches, all
    the symbols are hit. *)
Theorem C110_bounds : forall uv u N p i, (is_zero A p = true -> drawn uv u N p i = false) /\
  (is_zero A p = false -> (forall j, le (uv j) p = true /\ le (u j) p = true) -> drawn uv u N p i = true).
Proof. intros. unfold drawn. split; [intros ->; reflexivity|]. intros -> H. destruct (i <? _); apply H. Qed.

Definition be_out (w : list T) (i : nat) (x : T) : T := if (bits (nth i w zero) =? 0)%Z then x else unknown.
Definition bs_out (w : list T) (i : nat) (x : T) : T := if (bits (nth i w zero) =? 0)%Z then x else flipped x.
Definition nobody (w : list T) (N nf : nat) (X : list T) (q : nat) : T := zero.

(** Channel_user_be: a symbol is erased when the number of the file is not zero. *)
Theorem C110_user_be : forall N buff cs, 0 < W -> 0 < N -> noise_frames N buff -> user_sized N 1 cs ->
  exists c0 c, make_uchan A N buff false = Ret c0 /\
    uchan_run A (userbe_add_noise A bits unknown W) c0 cs = Ret (c, user_expected be_out nobody N 1 false buff 0 cs).
Proof.
  intros N buff cs HW HN HB HZ. apply (user_run_ok be_out nobody N false buff (fun _ => True)); auto.
  - intros nf k c f X Y _ HM K Hf HX HY. unfold userbe_add_noise.
    destruct (set_noise_ok N nf false buff k c f HB K Hf) as (c' & E & K' & AN). rewrite E. cbn [bind]. rewrite (w_N _ _ _ _ _ _ K'). pose proof (frame_fits f nf N Hf).
    pose proof (w_data _ _ _ _ _ _ K') as LD. unfold erase. pose proof (Nat.div_mod N W ltac:(lia)).
    match goal with |- context [vec_loop A W N ?reg ?tail _ Y] =>
      destruct (vec_loop_ok N reg tail (f * N) Y (fun i => be_out (noise_of buff k) i (nth (f * N + i) X zero)) HW ltac:(lia)) as (Y' & EY & LY & AY & BY) end.
    + intros i Hi. rewrite (rd_ok _ zero) by lia. cbn [bind]. rewrite (rd_ok _ zero) by lia. cbn [bind]. rewrite (Nat.mul_comm N f), AN by lia. reflexivity.
    + intros i Hi. rewrite (rd_ok _ zero) by lia. cbn [bind]. rewrite (Nat.mul_comm N f), AN by lia. unfold be_out. destruct (_ =? 0)%Z; [apply rd_ok; lia|reflexivity].
    + rewrite EY. cbn [bind]. exists c', Y'. split; [reflexivity|]. split; [exact K'|]. split; [lia|]. split; [exact AY|]. intros q Hq. apply BY. lia.
  - intros nf k c X Y HM. discriminate.
  - intros X Y _. exact I.
Qed.

(** Channel_user_bs: a bit is flipped when the number of the file is not zero, provided that the frame fills whole registers or
    that the numbers of the file, read as integers, are 0 and 1. *)
Theorem C110_user_bs_partial : forall N buff cs, 0 < W -> 0 < N -> tells_bits -> noise_frames N buff -> user_sized N 1 cs -> sent binary_frame cs ->
  N mod W = 0 \/ (forall w x, In w buff -> In x w -> bits x = 0%Z \/ bits x = 1%Z) ->
  exists c0 c, make_uchan A N buff false = Ret c0 /\
    uchan_run A (userbs_add_noise A bits W) c0 cs = Ret (c, user_expected bs_out nobody N 1 false buff 0 cs).
Proof.
  intros N buff cs HW HN HT HB HZ HS HE. apply (user_run_ok bs_out nobody N false buff binary_frame); auto.
  - intros nf k c f X Y HX1 HM K Hf HX HY. unfold userbs_add_noise.
    destruct (set_noise_ok N nf false buff k c f HB K Hf) as (c' & E & K' & AN). rewrite E. cbn [bind]. rewrite (w_N _ _ _ _ _ _ K'). pose proof (frame_fits f nf N Hf).
    pose proof (w_data _ _ _ _ _ _ K') as LD. unfold flip. pose proof (Nat.div_mod N W ltac:(lia)).
    assert (HV : forall i, i < N -> nth (f * N + i) X zero = zero \/ nth (f * N + i) X zero = one) by (intros i Hi; apply HX1; apply nth_In; lia).
    match goal with |- context [vec_loop A W N ?reg ?tail _ Y] =>
      destruct (vec_loop_ok N reg tail (f * N) Y (fun i => bs_out (noise_of buff k) i (nth (f * N + i) X zero)) HW ltac:(lia)) as (Y' & EY & LY & AY & BY) end.
    + intros i Hi. rewrite (rd_ok _ zero) by lia. cbn [bind]. rewrite (rd_ok _ zero) by lia. cbn [bind]. rewrite (Nat.mul_comm N f), AN by lia.
      rewrite (flip_bit _ _ HT (HV i ltac:(lia))). unfold bs_out. destruct (_ =? 0)%Z; reflexivity.
    + intros i Hi. destruct HE as [HE|HE]; [lia|]. rewrite (rd_ok _ zero) by lia. cbn [bind]. rewrite (rd_ok _ zero) by lia. cbn [bind]. rewrite (Nat.mul_comm N f), AN by lia.
      destruct HB as [HB1 HB2]. assert (HL : length buff <> 0) by (destruct buff; [congruence|discriminate]). pose proof (Nat.mod_upper_bound k _ HL) as B.
      pose proof (nth_In buff [] B) as HIn. fold (noise_of buff k) in HIn.
      assert (HB3 := HE (noise_of buff k) (nth i (noise_of buff k) zero) HIn ltac:(apply nth_In; rewrite (HB2 _ HIn); lia)).
      unfold bs_out. pose proof (flip_bit _ (negb (bits (nth i (noise_of buff k) zero) =? 0)%Z) HT (HV i ltac:(lia))) as FB.
      destruct HB3 as [H3|H3]; rewrite H3 in FB |- *; cbn [Z.eqb negb] in FB |- *; refine (f_equal (@Ret T) (eq_trans _ FB)); destruct (is_zero A (nth (f * N + i) X zero)); reflexivity.
    + rewrite EY. cbn [bind]. exists c', Y'. split; [reflexivity|]. split; [exact K'|]. split; [lia|]. split; [exact AY|]. intros q Hq. apply BY. lia.
  - intros nf k c X Y HM. discriminate.
Qed.

(** (Refuted otherwise.)  After the last register, an event whose bits are not those of the integer 1 (as those of the
    floating-point number 1) on the bit 0 gives 0. *)
Theorem C110_user_bs_refuted : forall N w X Y i, 0 < W -> tells_bits -> length w = N -> length X = N -> length Y = N -> N / W * W <= i < N ->
  nth i X zero = zero -> bits (nth i w zero) <> 1%Z ->
  forall c0 c Z0, make_uchan A N [w] false = Ret c0 -> uchan_run A (userbs_add_noise A bits W) c0 [UAddNoise A X Y] = Ret (c, [Z0]) -> nth i Z0 zero = zero.
Proof.
  intros N w X Y i HW [HT0 HT1] Hw HX HY Hi HXi HBi c0 c Z0 E0 E1. unfold make_uchan in E0. destruct (Nat.ltb_spec 0 N); [|lia]. cbn in E0. rewrite Hw, Nat.eqb_refl in E0. cbn in E0.
  injection E0 as <-. cbn [uchan_run] in E1. unfold uexec in E1. cbn [n_users n_nf n_N] in E1.
  unfold for_ in E1 at 1. cbn [for_from n_N] in E1.
  assert (HB : noise_frames N [w]). { split; [discriminate|]. intros v [<-|[]]. exact Hw. }
  assert (K0 : uc_ok N 1 false [w] 0 (mkUc A N 1 false (repeat zero N) [w] 0)). { constructor; cbn [n_N n_nf n_users n_data n_buff n_count]; auto. rewrite repeat_length. lia. }
  unfold userbs_add_noise in E1.
  destruct (set_noise_ok N 1 false [w] 0 _ 0 HB K0 ltac:(lia)) as (c' & E & K' & AN). rewrite E in E1. cbn [bind] in E1. rewrite (w_N _ _ _ _ _ _ K') in E1.
  pose proof (w_data _ _ _ _ _ _ K') as LD. pose proof (Nat.div_mod N W ltac:(lia)). unfold flip in E1. cbn [Nat.mul Nat.add] in *. rewrite Nat.mul_0_r in E1.
  set (z := fun j => is_zero A (nth j X zero)). set (e := fun j => bits (nth j w zero)).
  match type of E1 with context [vec_loop A W N ?reg ?tail 0 Y] =>
    destruct (vec_loop_ok N reg tail 0 Y (fun j => if j <? N / W * W then (if xorb (negb (e j =? 0)%Z) (z j) then zero else one)
      else if negb (e j =? (if z j then 1 else 0))%Z then zero else one) HW ltac:(lia)) as (Y' & EY & LY & AY & BY) end.
  - intros j Hj. cbn [Nat.add]. rewrite (rd_ok _ zero) by lia. cbn [bind]. rewrite (rd_ok _ zero) by lia. cbn [bind]. rewrite AN by lia.
    destruct (Nat.ltb_spec j (N / W * W)); [reflexivity|lia].
  - intros j Hj. cbn [Nat.add]. rewrite (rd_ok _ zero) by lia. cbn [bind]. rewrite (rd_ok _ zero) by lia. cbn [bind]. rewrite AN by lia.
    destruct (Nat.ltb_spec j (N / W * W)); [lia|reflexivity].
  - rewrite EY in E1. cbn [bind] in E1. injection E1 as _ <-. specialize (AY i ltac:(lia)). cbn [Nat.add] in AY. rewrite AY.
    destruct (Nat.ltb_spec i (N / W * W)); [lia|]. unfold z, is_zero. rewrite HXi, HT0. cbn [negb]. fold (e i) in HBi. destruct (Z.eqb_spec (e i) 1); [contradiction|reflexivity].
Qed.
End Channels.

(* ------------------------------------------------------------------ *)
(** * Examples, with integers *)

Definition IntA : arith := mkA Z (fun z => z) Z.add Z.sub Z.mul Z.div Z.opp (fun a b => negb (a =? b)%Z).
(** A generator whose state counts the numbers given: sigma, sigma + 1, ... *)
Definition count_gen (g : Z) (n : nat) (s : Z) : list Z * Z := (tab n (fun i => g + Z.of_nat i + s)%Z, (g + Z.of_nat n)%Z).
Lemma count_gen_ok : generator IntA Z count_gen.
Proof. intros g n s. apply length_tab. Qed.

(** One frame, then three frames. *)
Example C106_example :
  sized IntA 2 1 [AddNoise IntA [10] [1; 2] [0; 0]; SetFrames IntA 3; AddNoise IntA [10; 20; 30] [1; 1; 2; 2; 3; 3] [7; 7; 7; 7; 7; 7]]%Z /\
  awgn_expected IntA Z count_gen 2 1 false 0%Z [AddNoise IntA [10] [1; 2] [0; 0]; SetFrames IntA 3; AddNoise IntA [10; 20; 30] [1; 1; 2; 2; 3; 3] [7; 7; 7; 7; 7; 7]]%Z =
    [[11; 13]; [13; 14; 26; 27; 39; 40]]%Z /\
  awgn_expected IntA Z count_gen 2 1 true 0%Z [AddNoise IntA [10] [1; 2] [0; 0]; SetFrames IntA 3; AddNoise IntA [10; 20; 30] [1; 1; 2; 2; 3; 3] [7; 7; 7; 7; 7; 7]]%Z =
    [[11; 13]; [18; 19; 7; 7; 7; 7]]%Z.
Proof. repeat split; cbn; lia. Qed.

(** A complex symbol 3 + 4i, the gain 0 + 1i (numbers 0 and 1, for a deviation that this arithmetic makes null), the noise 12 and 13. *)
Example C107_example :
  size_ok 2 true /\ ray_sized IntA 2 1 [RayNoise IntA [10] [3; 4] [0; 0] [0; 0]]%Z /\
  ray_expected IntA Z count_gen (fun x => x) 2 1 true false 0%Z [RayNoise IntA [10] [3; 4] [0; 0] [0; 0]]%Z = [([0; 1], [-4 + 12; 3 + 13])]%Z.
Proof. repeat split; cbn; auto; lia. Qed.

(** Two gains, each used three times, over frames of two symbols: the second call goes on where the first stopped. *)
Example C108_example :
  uray_sized IntA 2 1 [AddNoiseWg IntA 0 [1; 1] [0; 0] [0; 0]; SetFramesR IntA 2; AddNoiseWg IntA 0 [1; 1; 1; 1] [0; 0; 0; 0] [0; 0; 0; 0]]%Z /\
  map fst (uray_expected IntA Z count_gen 2 1 [5; 9]%Z 3 0 0%Z
    [AddNoiseWg IntA 0 [1; 1] [0; 0] [0; 0]; SetFramesR IntA 2; AddNoiseWg IntA 0 [1; 1; 1; 1] [0; 0; 0; 0] [0; 0; 0; 0];
     AddNoiseWg IntA 0 [1; 1; 1; 1] [0; 0; 0; 0] [0; 0; 0; 0]]%Z) = [[5; 5]; [5; 9; 9; 9]; [5; 5; 5; 9]]%Z.
Proof. repeat split; cbn; lia. Qed.

Example C108_gains_example : read_gains 5 None (open (text_of "1 -2 3")) [] = Ret [Some 1; Some (-2); Some 3]%Z /\
  read_gains 6 None (open (text_of "1 -2 3 ")) [] = Ret [Some 1; Some (-2); Some 3; Some 3]%Z /\
  read_gains 6 None (open []) [] = Ret [None].
Proof. repeat split. Qed.

Example C109_example : noise_frames IntA 2 [[1; 2]; [3; 4]; [5; 6]]%Z /\
  user_expected IntA (add_out IntA) (add_sum IntA) 2 1 false [[1; 2]; [3; 4]; [5; 6]]%Z 0
    [UAddNoise IntA [10; 20] [0; 0]; USetFrames IntA 3; UAddNoise IntA [0; 0; 0; 0; 0; 0] [0; 0; 0; 0; 0; 0]]%Z = [[11; 22]; [3; 4; 5; 6; 1; 2]]%Z.
Proof. split; [|reflexivity]. split; [discriminate|]. intros w [<-|[<-|[<-|[]]]]; reflexivity. Qed.

(** Registers of two numbers, frames of three bits, events 1, 0, 1; the last event is read from the file as the bits of 1.0. *)
Example C110_example : tells_bits IntA /\ binary_frame IntA [1; 0; 0]%Z /\
  uchan_run IntA (userbs_add_noise IntA (fun x => x) 2) (mkUc IntA 3 1 false [0; 0; 0] [[1; 0; 1]] 0)%Z [UAddNoise IntA [1; 0; 0] [0; 0; 0]]%Z =
    Ret (mkUc IntA 3 1 false [1; 0; 1] [[1; 0; 1]] 0, [[0; 0; 1]])%Z /\
  uchan_run IntA (userbs_add_noise IntA (fun x => x * 1065353216)%Z 2) (mkUc IntA 3 1 false [0; 0; 0] [[1; 0; 1]] 0)%Z [UAddNoise IntA [1; 0; 0] [0; 0; 0]]%Z =
    Ret (mkUc IntA 3 1 false [1; 0; 1] [[1; 0; 1]] 0, [[0; 0; 0]])%Z.
Proof. split; [split; reflexivity|]. split; [intros x [<-|[<-|[<-|[]]]]; auto|]. split; reflexivity. Qed.

(** The probability zero gives no event although 0 <= 0; the probability 5 gives the events of the numbers 3 and 5. *)
Example C110_events_example : map (drawn IntA 2 Z.leb (fun _ => 0%Z) (fun _ => 0%Z) 3 0%Z) [0; 1; 2] = [false; false; false] /\
  map (drawn IntA 2 Z.leb (fun i => nth i [3; 7] 0)%Z (fun i => nth i [5] 0)%Z 3 5%Z) [0; 1; 2] = [true; false; true].
Proof. split; reflexivity. Qed.
