(** C149 and C150: the extractors. *)
From Coq Require Import List Arith Lia Bool ZArith.
From Verif Require Import Base Copy FlipProofs ExtractModel ExtractSpec.
Import ListNotations.

Section P.
Variables (R : Type) (d : R) (add : R -> R -> R) (neg : R -> bool).

Lemma tab_map : forall A (f : nat -> A) (pos : list nat) K, length pos = K -> tab K (fun i => f (nth i pos 0)) = map f pos.
Proof. intros A f pos K <-. transitivity (map f (tab (length pos) (fun i => nth i pos 0))); [rewrite map_tab; reflexivity|rewrite tab_nth; reflexivity]. Qed.

(** * C149 *)
(** The values and the bits at the positions of the information bits. *)
Theorem C149_values : forall K N pos y yk vk, places K N pos -> length y = N -> length yk = K -> length vk = K ->
  ext_sys R K pos y yk = Ret (taken d pos y) /\ ext_bit R neg K pos y vk = Ret (map (fun v => if neg v then 1%Z else 0%Z) (taken d pos y)).
Proof.
  intros K N pos y yk vk (LP & _ & BP) Ly Lk Lv. unfold ext_sys, ext_bit. rewrite LP, Nat.eqb_refl. cbn [negb].
  assert (PB : forall i, i < K -> nth i pos 0 < N) by (intros i Hi; apply BP; apply nth_In; lia). split.
  - rewrite (fill _ d (fun i => nth (nth i pos 0) y d)); [f_equal; apply (tab_map _ (fun p => nth p y d)); auto|auto|]. intros i x Hi Lx. rewrite (rd_ok _ 0) by lia. cbn [bind]. rewrite (rd_ok _ d) by (rewrite Ly; auto). reflexivity.
  - rewrite (fill _ 0%Z (fun i => if neg (nth (nth i pos 0) y d) then 1%Z else 0%Z)); [f_equal; unfold taken; rewrite map_map; apply (tab_map _ (fun p => if neg (nth p y d) then 1%Z else 0%Z)); auto|auto|]. intros i x Hi Lx. rewrite (rd_ok _ 0) by lia. cbn [bind]. rewrite (rd_ok _ d) by (rewrite Ly; auto). reflexivity.
Qed.
(** A frame without error gives back the message. *)
Theorem C149_message : forall K N pos (x u : list Z) y vk, places K N pos -> length y = N -> length vk = K -> length u = K ->
  (forall i, i < K -> nth i u 0%Z = nth (nth i pos 0) x 0%Z) -> (forall j, j < N -> nth j x 0%Z = if neg (nth j y d) then 1%Z else 0%Z) ->
  ext_bit R neg K pos y vk = Ret u.
Proof.
  intros K N pos x u y vk PL Ly Lv Lu EU EX. destruct (C149_values K N pos y (repeat d K) vk PL Ly (repeat_length _ _) Lv) as [_ ->]. f_equal. destruct PL as (LP & _ & BP). apply (list_eq_nth _ 0%Z); [unfold taken; rewrite !map_length; lia|]. intros i Hi. unfold taken in *. rewrite !map_length in Hi. rewrite map_map.
  set (F := fun p => if neg (nth p y d) then 1%Z else 0%Z). rewrite (nth_indep _ 0%Z (F 0)) by (rewrite map_length; lia). rewrite (map_nth F). unfold F. rewrite EU by lia. rewrite EX; [reflexivity|]. apply BP. apply nth_In. lia.
Qed.
(** Adding extrinsic values changes the values of the information bits and nothing else. *)
Theorem C149_add : forall K N pos ext y1 y2, places K N pos -> length ext = K -> length y1 = N -> length y2 = N ->
  exists o, ext_add R add K N pos ext y1 y2 = Ret o /\ length o = N /\ taken d pos o = map (fun i => add (nth (nth i pos 0) y1 d) (nth i ext d)) (seq 0 K) /\
  forall j, ~ In j pos -> nth j o d = nth j y1 d.
Proof.
  intros K N pos ext y1 y2 (LP & ND & BP) Le L1 L2. unfold ext_add. rewrite LP, Nat.eqb_refl. cbn [negb]. destruct (copy_spec _ d y1 0 N y2 0) as (o & EO & LO & VO & _); [lia|lia|]. rewrite EO. cbn [bind].
  assert (VO' : forall j, nth j o d = nth j y1 d). { intros j. destruct (Nat.lt_ge_cases j N); [apply (VO j); auto|]. rewrite !nth_overflow by lia. reflexivity. }
  assert (PB : forall i, i < K -> nth i pos 0 < N) by (intros i Hi; apply BP; apply nth_In; lia).
  match goal with |- context [for_ _ ?body _] => destruct (for_inv _ (fun t (z : list R) => length z = N /\ (forall i, i < t -> nth (nth i pos 0) z d = add (nth (nth i pos 0) y1 d) (nth i ext d)) /\ (forall j, (forall i, i < t -> nth i pos 0 <> j) -> nth j z d = nth j y1 d)) K body o) as (z & EZ & LZ & I1 & I2) end.
  - split; [lia|]. split; [intros; lia|]. intros j _. apply VO'.
  - intros t z Ht (LZ & I1 & I2). rewrite (rd_ok _ 0) by lia. cbn [bind]. specialize (PB t Ht) as Pt. rewrite (rd_ok _ d) by lia. cbn [bind]. rewrite (rd_ok _ d ext) by lia. cbn [bind]. rewrite wr_ok by lia. eexists. split; [reflexivity|]. rewrite length_upd. split; auto.
    assert (IJ : forall i, i < K -> nth i pos 0 = nth t pos 0 -> i = t) by (intros i Hi E; apply (proj1 (NoDup_nth pos 0) ND); auto; lia). split.
    + intros i Hi. destruct (Nat.eq_dec i t) as [->|NE].
      * rewrite nth_upd_eq by lia. rewrite I2; [reflexivity|]. intros i' Hi' E. apply IJ in E; lia.
      * rewrite nth_upd_neq; [apply I1; lia|]. intros E. apply NE, IJ; [lia|auto].
    + intros j Hj. rewrite nth_upd_neq by (apply Hj; lia). apply I2. intros i Hi. apply Hj. lia.
  - exists z. split; auto. split; auto. split.
    + unfold taken. rewrite <- (tab_map _ (fun p => nth p z d) pos K LP). unfold tab. apply map_ext_in. intros i Hi. apply in_seq in Hi. apply I1. lia.
    + intros j Hj. apply I2. intros i Hi E. apply Hj. rewrite <- E. apply nth_In. lia.
Qed.
(** Another number of positions than K is refused, by every task. *)
Theorem C149_wrong_size : forall K N pos y yk vk ext y2 par, length pos <> K ->
  ext_sys R K pos y yk = Throws /\ ext_bit R neg K pos y vk = Throws /\ ext_add R add K N pos ext y y2 = Throws /\ ext_sys_par R K N pos y yk par = Throws.
Proof. intros K N pos y yk vk ext y2 par H. unfold ext_sys, ext_bit, ext_add, ext_sys_par. destruct (Nat.eqb_spec (length pos) K); [contradiction|]. auto. Qed.

(** The extractor of recursive systematic codes: even and odd values, or the two parts of the frame. *)
Theorem C149_rsc : forall K N tail y sys par, N = 2 * (K + tail / 2) -> length y = N -> length sys = K + tail / 2 -> length par = N - K - tail / 2 ->
  rsc_sys_par R true K N tail y sys par = Ret (firstn (K + tail / 2) y, skipn (K + tail / 2) y) /\
  rsc_sys_par R false K N tail y sys par = Ret (tab (K + tail / 2) (fun i => nth (2 * i) y d), tab (K + tail / 2) (fun i => nth (2 * i + 1) y d)).
Proof.
  intros K N tail y sys par HN Ly Ls Lp. unfold rsc_sys_par. cbv zeta. set (m := K + tail / 2) in *. assert (Lp' : length par = m) by lia. split.
  - rewrite (copy_list _ d) by lia. cbn [bind]. rewrite (copy_list _ d) by lia. cbn [bind firstn app skipn Nat.add]. rewrite (skipn_all2 sys) by lia. rewrite (skipn_all2 par) by lia. rewrite !app_nil_r. rewrite (firstn_all2 (n := N - m)) by (rewrite skipn_length; lia). reflexivity.
  - match goal with |- for_ _ ?body _ = _ => destruct (for_inv _ (fun t (st : list R * list R) => length (fst st) = m /\ length (snd st) = m /\ forall i, i < t -> nth i (fst st) d = nth (2 * i) y d /\ nth i (snd st) d = nth (2 * i + 1) y d) m body (sys, par)) as ((s & p) & E & L1 & L2 & V) end.
    + split; auto. split; auto. intros; lia.
    + intros t (s & p) Ht (L1 & L2 & V). cbn [fst snd] in *. rewrite (rd_ok _ d) by lia. cbn [bind]. rewrite wr_ok by lia. cbn [bind]. rewrite (rd_ok _ d) by lia. cbn [bind]. rewrite wr_ok by lia. cbn [bind]. eexists. split; [reflexivity|]. cbn [fst snd]. rewrite !length_upd. split; auto. split; auto.
      intros i Hi. destruct (Nat.eq_dec i t) as [->|NE]; [rewrite !nth_upd_eq by lia; rewrite (Nat.mul_comm t 2); auto|]. rewrite !nth_upd_neq by lia. apply V. lia.
    + rewrite E. cbn [fst snd] in *. f_equal. f_equal; apply (eq_tab _ d); auto; intros i Hi; apply V; auto.
Qed.
(** Its own functions agree with its positions. *)
Theorem C149_rsc_positions : forall b K N tail y yk vk, 0 < K -> N = 2 * (K + tail / 2) -> length y = N -> length yk = K -> length vk = K ->
  places K N (rsc_pos b K) /\ rsc_sys R b K y yk = Ret (taken d (rsc_pos b K) y) /\ rsc_bit R neg b K y vk = Ret (map (fun v => if neg v then 1%Z else 0%Z) (taken d (rsc_pos b K) y)).
Proof.
  intros b K N tail y yk vk HK HN Ly Lk Lv. split; [|split].
  - split; [apply length_tab|]. split.
    + apply (NoDup_nth _ 0). unfold rsc_pos. rewrite length_tab. intros i j Hi Hj. rewrite !nth_tab by auto. destruct b; lia.
    + intros p Hp. apply in_map_iff in Hp. destruct Hp as (i & <- & Hi). apply in_seq in Hi. destruct b; lia.
  - unfold taken, rsc_pos. rewrite map_tab. unfold rsc_sys. destruct b.
    + rewrite (copy_list _ d) by lia. cbn [firstn app skipn Nat.add]. rewrite skipn_all2 by lia. rewrite app_nil_r. f_equal. apply (eq_tab _ d); [rewrite firstn_length; lia|]. intros i Hi. apply firstn_nth. auto.
    + apply (fill _ d); auto. intros i x Hi Lx. rewrite (rd_ok _ d) by lia. cbn [bind]. rewrite (Nat.mul_comm i 2). reflexivity.
  - unfold taken, rsc_pos. rewrite !map_tab. unfold rsc_bit. apply (fill _ 0%Z); auto. intros i x Hi Lx. rewrite (rd_ok _ d) by (destruct b; lia). reflexivity.
Qed.
End P.

Lemma pol_loop : forall N (fz : list bool) pos, length fz = N -> for_ N (fun i st => b <- rd fz i ;; if negb b then pos <- wr (fst st) (snd st) i ;; Ret (pos, S (snd st)) else Ret st) (pos, 0) = run (emit (seq 0 N)) (unfrozen fz) (pos, 0).
Proof.
  intros N fz pos L. rewrite for_run. unfold unfrozen. rewrite <- run_filter, L. apply run_ext. intros i st Hi. apply in_seq in Hi. rewrite (rd_ok _ true) by lia. cbn [bind]. destruct (negb _); [|reflexivity]. unfold emit. rewrite (rd_ok _ 0) by (rewrite seq_length; lia). cbn [bind]. rewrite seq_nth by lia. reflexivity.
Qed.
Lemma unfrozen_lt : forall fb p, In p (unfrozen fb) -> p < length fb.
Proof. intros fb p H. apply filter_In in H. destruct H as [H _]. apply in_seq in H. lia. Qed.
Lemma unfrozen_places : forall fb, places (length (unfrozen fb)) (length fb) (unfrozen fb).
Proof. intros fb. split; auto. split; [apply NoDup_filter, seq_NoDup|apply unfrozen_lt]. Qed.
Lemma copy_all : forall (fb fz : list bool), length fz = length fb -> copy fb 0 (length fb) fz 0 = Ret fb.
Proof. intros fb fz L. rewrite (copy_list _ true) by lia. cbn [firstn app skipn Nat.add]. rewrite skipn_all2 by lia. rewrite firstn_all, app_nil_r. reflexivity. Qed.
Lemma pol_set_ok : forall fb fz pos, length fz = length fb -> length (unfrozen fb) <= length pos -> pol_set (length fb) fb fz pos = Ret (fb, unfrozen fb ++ skipn (length (unfrozen fb)) pos).
Proof.
  intros fb fz pos L U. unfold pol_set. rewrite copy_all by auto. cbn [bind]. rewrite pol_loop by auto. rewrite (run_emit _ 0); [|apply Forall_forall; intros p Hp; rewrite seq_length; apply unfrozen_lt; auto|lia]. cbn [bind fst firstn app Nat.add]. do 3 f_equal.
  rewrite <- (map_id (unfrozen fb)) at 2. apply map_ext_in. intros p Hp. apply unfrozen_lt in Hp. apply seq_nth. auto.
Qed.
(** The extractor of polar codes: with K bits that are not frozen, its positions are theirs, at construction and after every change. *)
Theorem C149_polar : forall K fb fz pos, 0 < K -> length (unfrozen fb) = K -> places K (length fb) (unfrozen fb) /\ pol_new K (length fb) fb = Ret (fb, unfrozen fb) /\
  (length fz = length fb -> length pos = K -> pol_set (length fb) fb fz pos = Ret (fb, unfrozen fb)).
Proof.
  intros K fb fz pos HK U. assert (PL := unfrozen_places fb). rewrite U in PL. split; auto.
  assert (NZ : length fb <> 0). { destruct fb; [cbn in U; lia|discriminate]. } split.
  - unfold pol_new. destruct (Nat.eqb_spec K 0); [lia|]. destruct (Nat.eqb_spec (length fb) 0); [lia|]. cbn [orb]. rewrite pol_set_ok; [|auto|rewrite repeat_length; lia]. rewrite skipn_all2 by (rewrite repeat_length; lia). rewrite app_nil_r. reflexivity.
  - intros L LP. rewrite pol_set_ok by (auto; lia). rewrite skipn_all2 by lia. rewrite app_nil_r. reflexivity.
Qed.
(** Refuted without that: with too many the buffer is overrun, with too few the last positions are those of an earlier choice. *)
Theorem C149_polar_refuted : forall K fb fz pos, length fz = length fb -> length pos = K ->
  (K < length (unfrozen fb) -> pol_set (length fb) fb fz pos = Undef) /\
  (length (unfrozen fb) < K -> pol_set (length fb) fb fz pos = Ret (fb, unfrozen fb ++ skipn (length (unfrozen fb)) pos)).
Proof.
  intros K fb fz pos L LP. split.
  - intros H. unfold pol_set. rewrite copy_all by auto. cbn [bind]. rewrite pol_loop by auto. rewrite run_emit_bad; [reflexivity|]. right. split; [|lia]. intros E. rewrite E in H. cbn in H. lia.
  - intros H. apply pol_set_ok; auto. lia.
Qed.
(** The extractor of uncoded frames. *)
Theorem C149_uncoded : forall R (d : R) K y yk, 0 < K -> length y = K -> length yk = K -> places K K (unc_pos K) /\ ext_sys R K (unc_pos K) y yk = Ret y.
Proof.
  intros R d K y yk HK Ly Lk. assert (PL : places K K (unc_pos K)). { split; [apply seq_length|]. split; [apply seq_NoDup|]. intros p Hp. apply in_seq in Hp. lia. } split; auto.
  destruct (C149_values R d (fun _ => false) K K (unc_pos K) y yk (repeat 0%Z K) PL Ly Lk (repeat_length _ _)) as [-> _]. f_equal. unfold taken, unc_pos. rewrite <- Ly. apply tab_nth.
Qed.

(** * C150: the parity of the general extractor *)
Lemma inside_length : forall K N pos, places K N pos -> length (inside N pos) = K.
Proof.
  intros K N pos (L & ND & B). rewrite <- L. apply Nat.le_antisymm.
  - apply NoDup_incl_length; [apply NoDup_filter, seq_NoDup|]. intros i Hi. apply filter_In in Hi. destruct Hi as [_ Hi]. apply existsb_exists in Hi. destruct Hi as (q & Hq & E). apply Nat.eqb_eq in E. subst. auto.
  - apply NoDup_incl_length; auto. intros p Hp. apply filter_In. split; [apply in_seq; split; [lia|apply B; auto]|]. apply existsb_exists. exists p. split; auto. apply Nat.eqb_refl.
Qed.
Lemma par_loop : forall R (y : list R) N pos par, for_ N (fun i st => if existsb (Nat.eqb i) pos then v <- rd y i ;; par <- wr (fst st) (snd st) v ;; Ret (par, S (snd st)) else Ret st) (par, 0) = run (emit y) (inside N pos) (par, 0).
Proof. intros R y N pos par. rewrite for_run. unfold inside. rewrite <- run_filter. apply run_ext. intros i st Hi. reflexivity. Qed.
(** The systematic part is right, but the parity part is the systematic values again, followed by what the buffer held; with more
    information bits than parity bits the buffer is overrun. *)
Theorem C150_parity_refuted : forall R (d : R) K N pos y sys par, places K N pos -> length y = N -> length sys = K -> length par = N - K ->
  (K <= N - K -> ext_sys_par R K N pos y sys par = Ret (taken d pos y, taken d (inside N pos) y ++ skipn K par)) /\
  (0 < K -> N - K < K -> ext_sys_par R K N pos y sys par = Undef).
Proof.
  intros R d K N pos y sys par PL Ly Ls Lp. assert (IL := inside_length K N pos PL). assert (PL' := PL). destruct PL' as (LP & _ & _).
  assert (ES := proj1 (C149_values R d (fun _ => false) K N pos y sys (repeat 0%Z K) PL Ly Ls (repeat_length _ _))).
  unfold ext_sys in ES. unfold ext_sys_par. rewrite LP, Nat.eqb_refl in *. cbn [negb] in *. rewrite ES. cbn [bind]. rewrite par_loop. split.
  - intros H. rewrite (run_emit _ d); [|apply Forall_forall; intros p Hp; apply filter_In in Hp; destruct Hp as [Hp _]; apply in_seq in Hp; lia|lia]. cbn [bind fst firstn app Nat.add]. rewrite IL. reflexivity.
  - intros HK H. rewrite run_emit_bad; [reflexivity|]. right. split; [|lia]. intros E. rewrite E in IL. cbn in IL. lia.
Qed.
(** So a code with as many parity bits as information bits gets as parity the values of the information bits: it is the right
    parity only when these values are equal, for instance never when the values at different positions differ. *)
Theorem C150_never_right : forall R (d : R) K N pos y sys par, places K N pos -> 0 < K -> N = 2 * K -> length y = N -> length sys = K -> length par = K -> (forall i j, i < N -> j < N -> nth i y d = nth j y d -> i = j) ->
  exists s p, ext_sys_par R K N pos y sys par = Ret (s, p) /\ s = taken d pos y /\ p <> taken d (outside N pos) y.
Proof.
  intros R d K N pos y sys par PL HK HN Ly Ls Lp DI. destruct (C150_parity_refuted R d K N pos y sys par PL Ly Ls ltac:(lia)) as [A _]. rewrite A by lia. eexists. eexists. split; [reflexivity|]. split; [reflexivity|]. rewrite skipn_all2 by lia. rewrite app_nil_r. assert (IL := inside_length K N pos PL).
  destruct (inside N pos) as [|a l] eqn:EI; [cbn in IL; lia|]. intros E. unfold taken in E. destruct (outside N pos) as [|b m] eqn:EO; [discriminate|]. cbn [map] in E. injection E as E1 _.
  assert (IA : In a (inside N pos)) by (rewrite EI; left; auto). assert (IB : In b (outside N pos)) by (rewrite EO; left; auto). apply filter_In in IA. apply filter_In in IB. destruct IA as [A1 A2]. destruct IB as [B1 B2]. apply in_seq in A1. apply in_seq in B1. assert (a = b) by (apply DI; auto; lia). subst b. rewrite A2 in B2. discriminate.
Qed.

(** * The hypotheses are met *)
Example C149_meets : places 2 4 [3;1] /\ ext_bit Z (fun v => (v <? 0)%Z) 2 [3;1] [5;-2;3;4]%Z [7;7]%Z = Ret [0;1]%Z /\ ext_add Z Z.add 2 4 [3;1] [10;20]%Z [5;-2;3;4]%Z [0;0;0;0]%Z = Ret [5;18;3;14]%Z /\
  unfrozen [true;false;true;false] = [1;3] /\ pol_new 2 4 [true;false;true;false] = Ret ([true;false;true;false], [1;3]) /\ rsc_sys_par Z false 1 4 2 [1;2;3;4]%Z [0;0]%Z [0;0]%Z = Ret ([1;3], [2;4])%Z.
Proof. split; [|repeat split]. split; [reflexivity|]. split; [repeat constructor; cbn; intuition discriminate|]. intros p [<-|[<-|[]]]; lia. Qed.
Example C150_meets : places 2 4 [3;1] /\ outside 4 [3;1] = [0;2] /\ ext_sys_par Z 2 4 [3;1] [5;6;7;8]%Z [0;0]%Z [0;0]%Z = Ret ([8;6], [6;8])%Z.
Proof. split; [apply C149_meets|]. split; reflexivity. Qed.
