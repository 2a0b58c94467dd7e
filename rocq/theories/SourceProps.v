(** The sources and the sinks read and write the bits of their files. *)
From Coq Require Import List Arith Bool ZArith Lia Ascii String.
From Verif Require Import Base Copy WLoops BitPackerModel BitPackerSpec BitPackerProofs AListModel AListSpec TextProofs SourceModel SourceSpec SourceProofs.
Import ListNotations.
Local Open Scope list_scope.
Local Notation length := List.length.

(* ------------------------------------------------------------------ *)
(** * C102: a source over a binary file *)

(** The frames expected of a history of calls, [m] frames being generated since the last reset: frame m starts at bit m * K. *)
Fixpoint expected (bit : nat -> Z) (K m : nat) (cs : list scall) : list (list Z) :=
  match cs with
  | [] => []
  | Generate _ :: cs => frame_at bit K (m * K) :: expected bit K (S m) cs
  | Rewind :: cs => expected bit K 0 cs
  end.
(** The number of frames generated since the last reset. *)
Fixpoint since (m : nat) (cs : list scall) : nat :=
  match cs with [] => m | Generate _ :: cs => since (S m) cs | Rewind :: cs => since 0 cs end.
(** The output buffers hold one frame. *)
Definition buffers (K : nat) (cs : list scall) : Prop := forall U, In (Generate U) cs -> List.length U = K.

(** The frame sizes for which the bits left never exceed a frame. *)
Definition good_size (K : nat) : Prop := K = 4 \/ 6 <= K.

Lemma left_le : forall K m l pos, good_size K -> 8 * pos = m * K + l -> l <= 7 -> l <= K.
Proof. intros K m l pos [->|H] E Hl; [lia|]. destruct (Nat.eq_dec K 6) as [->|]; lia. Qed.

(** The state after m frames, without auto_reset. *)
Definition at_frame (K : nat) (file : list Z) (m : nat) (s : bsrc) : Prop :=
  (exists pos l, inv K file false pos l s /\ 8 * pos = m * K + l) \/
  (b_K s = K /\ b_file s = file /\ b_auto s = false /\ b_done s = true /\ List.length (b_blk s) = K /\ List.length (b_bits s) = 8 /\
   8 * List.length file < m * K).

Lemma inv_start : forall K file auto s, b_K s = K -> b_file s = file -> b_auto s = auto -> List.length (b_blk s) = K ->
  List.length (b_bits s) = 8 -> inv K file auto 0 0 (bsrc_reset s).
Proof. intros. constructor; cbn; auto; lia. Qed.

Lemma step_plain : forall fuel K file m s U, good_size K -> 2 <= fuel -> at_frame K file m s -> List.length U = K ->
  exists s', bsrc_generate fuel s U = Ret (s', frame_at (file_bit file) K (m * K)) /\ at_frame K file (S m) s'.
Proof.
  intros fuel K file m s U HK Hf [(pos & l & I & E)|(H1 & H2 & H3 & H4 & H5 & H6 & H7)] HU.
  - pose proof (i_l7 _ _ _ _ _ _ I) as Hl7. pose proof (i_lK _ _ _ _ _ _ I) as HlK. pose proof (ceil8 (K - l)) as C.
    assert (T : forall i, 8 * pos - l + i = m * K + i) by (intros; lia).
    destruct (Nat.le_gt_cases (pos + (K - l + 7) / 8) (List.length file)) as [Hp|Hp].
    + destruct (gen_full fuel K file false pos l s U I HU Hf Hp) as (s' & G & I').
      { apply (left_le K (S m) _ (pos + (K - l + 7) / 8) HK); lia. }
      exists s'. split.
      * rewrite G. f_equal. f_equal. apply tab_ext. intros i Hi. rewrite T. reflexivity.
      * left. eexists _, _. split; [exact I'|]. lia.
    + destruct (gen_short fuel K file pos l s U I HU ltac:(lia) Hp) as (s' & G & P1 & P2 & P3 & P4 & P5 & P6).
      exists s'. split.
      * rewrite G. f_equal. f_equal. apply tab_ext. intros i Hi. rewrite T. reflexivity.
      * right. repeat split; auto. lia.
  - exists s. split.
    + unfold bsrc_generate. rewrite H4, H1. destruct (fill_spec Z 0%Z K U 0 0%Z ltac:(lia)) as (o & F & L & A & _). rewrite F. cbn [bind].
      f_equal. f_equal. apply (list_eq_nth _ 0%Z); [unfold frame_at; rewrite length_tab; lia|]. intros i Hi. unfold frame_at. rewrite nth_tab by lia.
      rewrite file_bit_out by lia. change i with (0 + i). apply A. lia.
    + right. repeat split; auto. lia.
Qed.

Lemma at_frame_reset : forall K file m s, at_frame K file m s -> at_frame K file 0 (bsrc_reset s).
Proof.
  intros K file m s [(pos & l & I & E)|(H1 & H2 & H3 & H4 & H5 & H6 & H7)]; left; exists 0, 0; (split; [|lia]); apply inv_start; auto; apply I.
Qed.

Lemma run_plain : forall fuel K file cs m s, good_size K -> 2 <= fuel -> at_frame K file m s -> buffers K cs ->
  exists s', bsrc_run fuel s cs = Ret (s', expected (file_bit file) K m cs) /\ at_frame K file (since m cs) s'.
Proof.
  intros fuel K file. induction cs as [|[U|] cs IH]; intros m s HK Hf HS HB; cbn [bsrc_run expected since].
  - exists s. auto.
  - destruct (step_plain fuel K file m s U HK Hf HS) as (s1 & E & H1); [apply HB; left; reflexivity|]. rewrite E. cbn [bind].
    destruct (IH (S m) s1 HK Hf H1) as (s2 & E2 & H2); [intros V HV; apply HB; right; exact HV|]. rewrite E2. cbn [bind].
    exists s2. auto.
  - apply IH; auto; [apply (at_frame_reset K file m); auto|]. intros V HV; apply HB; right; exact HV.
Qed.

(** Without auto_reset: over any history of generations and resets, the frames generated since the last reset are, one after
    the other, the bits of the file followed by zeros; the source is done when more bits were asked than the file has. *)
Theorem C102_frames : forall K file cs, good_size K -> buffers K cs ->
  exists s0 s, make_bsrc K file false = Ret s0 /\
    (forall fuel, 2 <= fuel -> bsrc_run fuel s0 cs = Ret (s, expected (file_bit file) K 0 cs)) /\
    is_done s = (8 * List.length file <? since 0 cs * K).
Proof.
  intros K file cs HK HB. unfold make_bsrc. destruct (Nat.ltb_spec 0 K) as [H0|H0]; [|unfold good_size in HK; lia].
  cbn [guard bind]. set (s0 := mkS K file 0 false false false 0 (repeat 0%Z K) (repeat 0%Z 8)).
  assert (A0 : at_frame K file 0 s0).
  { left. exists 0, 0. split; [|lia]. apply (inv_start K file false s0); auto. apply repeat_length. }
  destruct (run_plain 2 K file cs 0 s0 HK ltac:(lia) A0 HB) as (s & E & A).
  exists s0, s. split; [reflexivity|]. split.
  - intros fuel Hf. clear A.
    assert (G : forall cs s0 s m, at_frame K file m s0 -> buffers K cs ->
      bsrc_run 2 s0 cs = Ret (s, expected (file_bit file) K m cs) -> bsrc_run fuel s0 cs = Ret (s, expected (file_bit file) K m cs)).
    2: { apply G; assumption. }
    clear - HK Hf. induction cs as [|[U|] cs IH]; intros s0 s m A0 HB E; cbn [bsrc_run expected] in *.
    + exact E.
    + destruct (step_plain fuel K file m s0 U HK Hf A0) as (s1 & E1 & A1); [apply HB; left; reflexivity|].
      destruct (step_plain 2 K file m s0 U HK ltac:(lia) A0) as (s1' & E1' & A1'); [apply HB; left; reflexivity|].
      assert (s1' = s1).
      { clear - E1 E1' A0 HK Hf. unfold bsrc_generate in *. destruct (b_done s0).
        - destruct (fill U 0 (b_K s0) 0%Z); cbn [bind] in *; congruence.
        - destruct (for_ (b_left s0) _ U) as [V| |]; cbn [bind] in *; try discriminate.
          assert (R : forall s, b_auto s = false -> forall n d, read_loop fuel d s n = read_loop 2 d s n).
          { intros s Ha n d. destruct fuel as [|[|fuel]]; [lia|lia|]. cbn [read_loop]. destruct (n <? d); [|reflexivity].
            set (c := Nat.min (d - n) (List.length (b_file s) - b_pos s)). destruct (copy (b_file s) (b_pos s) c (b_blk s) n); cbn [bind]; try reflexivity.
            cbn [b_auto]. rewrite Ha. destruct (Nat.ltb_spec c (d - n)); [reflexivity|].
            replace (n + c <? d) with false; [reflexivity|]. symmetry. apply Nat.ltb_ge. lia. }
          rewrite (R s0) in E1; [congruence|]. destruct A0 as [(pos & l & I & _)|(_ & _ & H & _)]; [apply I|exact H]. }
      subst s1'. rewrite E1' in E. rewrite E1. cbn [bind] in *.
      destruct (bsrc_run 2 s1 cs) as [[s2 Fs]| |] eqn:ER; cbn [bind] in E; try discriminate.
      assert (s2 = s /\ Fs = expected (file_bit file) K (S m) cs) as [-> ->] by (split; congruence).
      rewrite (IH s1 s (S m) A1); [reflexivity| |exact ER]. intros V HV. apply HB. right. exact HV.
    + apply (IH _ s 0); auto; [apply (at_frame_reset K file m); auto|]. intros V HV. apply HB. right. exact HV.
  - unfold is_done. destruct A as [(pos & l & I & H)|(_ & _ & _ & H & _ & _ & H7)].
    + rewrite (i_done _ _ _ _ _ _ I). symmetry. apply Nat.ltb_ge. pose proof (i_le _ _ _ _ _ _ I). lia.
    + rewrite H. symmetry. apply Nat.ltb_lt. exact H7.
Qed.

(** The condition on the size: with 5 bits per frame, the third frame writes outside of its buffer. *)
Theorem C102_small_refuted : forall fuel, 2 <= fuel -> exists s0, make_bsrc 5 [255%Z; 255%Z; 255%Z] false = Ret s0 /\
  bsrc_run fuel s0 [Generate (repeat 0%Z 5); Generate (repeat 0%Z 5); Generate (repeat 0%Z 5)] = Undef.
Proof.
  intros fuel Hf. destruct fuel as [|[|fuel]]; [lia|lia|]. eexists. split; [reflexivity|]. reflexivity.
Qed.

Example C102_example : exists s0 s, make_bsrc 12 [255%Z; 1%Z] false = Ret s0 /\
  bsrc_run 2 s0 [Generate (repeat 7%Z 12); Generate (repeat 7%Z 12); Rewind; Generate (repeat 7%Z 12)] =
    Ret (s, [[1; 1; 1; 1; 1; 1; 1; 1; 1; 0; 0; 0]; [0; 0; 0; 0; 0; 0; 0; 0; 0; 0; 0; 0]; [1; 1; 1; 1; 1; 1; 1; 1; 1; 0; 0; 0]]%Z).
Proof. eexists _, _. split; [reflexivity|]. vm_compute. reflexivity. Qed.

(* ------------------------------------------------------------------ *)
(** * C103: auto_reset *)

(** The state after m frames: the bytes were read up to bit m * K + l of the repeated file. *)
Definition at_cycle (K : nat) (file : list Z) (m : nat) (s : bsrc) : Prop :=
  exists pos l r, inv K file true pos l s /\
    ((K mod 8 = 0 /\ l = 0 /\ (8 * pos) mod (8 * List.length file) = (m * K) mod (8 * List.length file)) \/
     (exists f, 8 * List.length file = f * K /\ 8 * pos = r * K + l /\ r <= f /\ m mod f = r mod f)).

Lemma frame_mod : forall f K m r i L, 8 * L = f * K -> f <> 0 -> L <> 0 -> m mod f = r mod f -> (m * K + i) mod (8 * L) = (r * K + i) mod (8 * L).
Proof.
  intros f K m r i L E Hf HL H.
  rewrite (Nat.div_mod m f Hf), (Nat.div_mod r f Hf), H.
  replace ((f * (m / f) + r mod f) * K + i) with (r mod f * K + i + (m / f) * (8 * L)) by (rewrite E; ring).
  replace ((f * (r / f) + r mod f) * K + i) with (r mod f * K + i + (r / f) * (8 * L)) by (rewrite E; ring).
  rewrite !Nat.mod_add by lia. reflexivity.
Qed.

Lemma step_auto : forall fuel K file m s U, good_size K -> 2 * K + 2 <= fuel -> 0 < List.length file -> at_cycle K file m s -> List.length U = K ->
  exists s', bsrc_generate fuel s U = Ret (s', frame_at (fun p => file_bit file (p mod (8 * List.length file))) K (m * K)) /\ at_cycle K file (S m) s'.
Proof.
  intros fuel K file m s U HK Hf HL (pos & l & r & I & HC) HU. assert (K0 : 0 < K) by (unfold good_size in HK; lia).
  pose proof (i_l7 _ _ _ _ _ _ I) as Hl7. pose proof (i_lK _ _ _ _ _ _ I) as HlK. pose proof (ceil8 (K - l)) as C. pose proof (i_le _ _ _ _ _ _ I) as Hle.
  set (L := List.length file) in *. set (nd := (K - l + 7) / 8) in *.
  destruct HC as [(H8 & -> & HM)|(f & HF & HP & Hr & HM)].
  - assert (E8 : 8 * nd = K).
    { pose proof (Nat.div_mod K 8 ltac:(lia)). lia. }
    destruct (gen_auto fuel K file pos 0 s U I HU Hf HL K0 (or_introl eq_refl)) as (s' & pos' & G & I' & P & _); [fold nd; lia|]. fold nd in I', P. fold L in G, P.
    exists s'. split.
    + rewrite G. f_equal. f_equal. apply tab_ext. intros i Hi. f_equal. rewrite Nat.sub_0_r. apply mod_eq_add; [lia|exact HM].
    + exists pos', (8 * nd + 0 - K), 0. split; [exact I'|]. left. split; [exact H8|]. split; [lia|].
      fold L. replace (8 * pos') with (8 * pos' + 0) by lia. rewrite mod_mul8 by lia. rewrite P, Nat.add_0_r.
      replace (S m * K) with (m * K + 8 * nd) by lia. rewrite <- (mod_eq_add (8 * pos) (m * K)) by (auto; lia).
      replace (8 * pos + 8 * nd) with (8 * (pos + nd) + 0) by lia. rewrite mod_mul8 by lia. lia.
  - assert (f0 : f <> 0) by (intros ->; lia).
    assert (Hc : l = 0 \/ pos + nd <= L).
    { destruct (Nat.eq_dec r f) as [->|e]; [left; nia|]. right. assert ((r + 1) * K <= f * K) by (apply Nat.mul_le_mono_r; lia). lia. }
    assert (Hlk : 8 * nd + l - K <= K). { apply (left_le K (S r) _ (pos + nd) HK); lia. }
    destruct (gen_auto fuel K file pos l s U I HU Hf HL K0 Hc Hlk) as (s' & pos' & G & I' & P & Q & R). fold nd in I', P, R. fold L in G, P, R.
    exists s'. split.
    + rewrite G. f_equal. f_equal. apply tab_ext. intros i Hi. f_equal. rewrite (frame_mod f K m r i L) by (auto; lia). f_equal. lia.
    + destruct (Nat.eq_dec r f) as [->|e].
      * (* the file ends: r = f *)
        assert (pos = L /\ l = 0) as [-> ->] by nia.
        assert (nd <= L). { assert (1 * K <= f * K) by (apply Nat.mul_le_mono_r; lia). lia. }
        assert (0 < nd) by lia.
        assert (pos' = nd).
        { assert (Hp' : 0 < pos') by (apply Q; lia). pose proof (i_le _ _ _ _ _ _ I') as Hle'. fold L in Hle'.
          replace (L + nd) with (nd + 1 * L) in P by lia. rewrite Nat.mod_add in P by lia.
          destruct (Nat.eq_dec pos' L) as [->|]; destruct (Nat.eq_dec nd L) as [E|]; auto.
          - rewrite Nat.mod_same, (Nat.mod_small nd) in P by lia. lia.
          - rewrite E, Nat.mod_same, (Nat.mod_small pos') in P by lia. lia.
          - rewrite !Nat.mod_small in P by lia. exact P. }
        exists pos', (8 * nd + 0 - K), 1. split; [exact I'|]. right. exists f. split; [exact HF|]. split; [lia|]. split; [lia|].
        replace (S m) with (m + 1) by lia. replace 1 with (0 + 1) at 2 by lia. apply mod_eq_add; auto. rewrite HM, Nat.mod_same, Nat.mod_0_l by auto. reflexivity.
      * assert (pos + nd <= L). { assert ((r + 1) * K <= f * K) by (apply Nat.mul_le_mono_r; lia). lia. }
        rewrite R in I' by auto.
        exists (pos + nd), (8 * nd + l - K), (S r). split; [exact I'|]. right. exists f. split; [exact HF|]. split; [lia|]. split; [lia|].
        replace (S m) with (m + 1) by lia. replace (S r) with (r + 1) by lia. apply mod_eq_add; auto.
Qed.

(** A file that is repeated without cutting a byte: the frames hold whole bytes, or the file holds whole frames. *)
Definition fits (K L : nat) : Prop := K mod 8 = 0 \/ (8 * L) mod K = 0.

Lemma at_cycle_start : forall K file s, 0 < K -> fits K (List.length file) -> inv K file true 0 0 s -> at_cycle K file 0 s.
Proof.
  intros K file s HK F I. exists 0, 0, 0. split; [exact I|]. destruct F as [F|F].
  - left. auto.
  - right. exists (8 * List.length file / K). split; [|repeat split; lia].
    pose proof (Nat.div_mod (8 * List.length file) K ltac:(lia)). lia.
Qed.

(** With auto_reset (the default): the frames are, one after the other, the bits of the file repeated for ever, and the source
    is never done.  This holds when the frames hold whole bytes or the file holds whole frames. *)
Theorem C103_cycle_partial : forall K file cs fuel, good_size K -> buffers K cs -> 0 < List.length file -> fits K (List.length file) -> 2 * K + 2 <= fuel ->
  exists s0 s, make_bsrc K file true = Ret s0 /\
    bsrc_run fuel s0 cs = Ret (s, expected (fun p => file_bit file (p mod (8 * List.length file))) K 0 cs) /\ is_done s = false.
Proof.
  intros K file cs fuel HK HB HL HF Hf. unfold make_bsrc. destruct (Nat.ltb_spec 0 K) as [H0|H0]; [|unfold good_size in HK; lia].
  cbn [guard bind]. set (s0 := mkS K file 0 false true false 0 (repeat 0%Z K) (repeat 0%Z 8)).
  assert (A0 : at_cycle K file 0 s0).
  { apply at_cycle_start; auto. apply (inv_start K file true s0); auto. apply repeat_length. }
  assert (G : forall cs m s, at_cycle K file m s -> buffers K cs ->
    exists s', bsrc_run fuel s cs = Ret (s', expected (fun p => file_bit file (p mod (8 * List.length file))) K m cs) /\ b_done s' = false).
  { clear cs HB. induction cs as [|[U|] cs IH]; intros m s HS HB; cbn [bsrc_run expected].
    - exists s. split; [reflexivity|]. destruct HS as (pos & l & r & I & _). apply I.
    - destruct (step_auto fuel K file m s U HK Hf HL HS) as (s1 & E & H1); [apply HB; left; reflexivity|]. rewrite E. cbn [bind].
      destruct (IH (S m) s1 H1) as (s2 & E2 & H2); [intros V HV; apply HB; right; exact HV|]. rewrite E2. cbn [bind].
      exists s2. auto.
    - apply IH; [|intros V HV; apply HB; right; exact HV]. apply at_cycle_start; auto.
      destruct HS as (pos & l & r & I & _). apply inv_start; apply I. }
  destruct (G cs 0 s0 A0 HB) as (s & E & D). exists s0, s. auto.
Qed.

Example C103_example : fits 12 3 /\ fits 16 3 /\ ~ fits 12 2 /\ exists s0 s, make_bsrc 12 [255%Z; 0%Z; 15%Z] true = Ret s0 /\
  bsrc_run 26 s0 [Generate (repeat 7%Z 12); Generate (repeat 7%Z 12); Generate (repeat 7%Z 12)] =
    Ret (s, [[1; 1; 1; 1; 1; 1; 1; 1; 0; 0; 0; 0]; [0; 0; 0; 0; 1; 1; 1; 1; 0; 0; 0; 0]; [1; 1; 1; 1; 1; 1; 1; 1; 0; 0; 0; 0]]%Z).
Proof.
  split; [right; reflexivity|]. split; [left; reflexivity|]. split; [intros [H|H]; discriminate H|].
  eexists _, _. split; [reflexivity|]. vm_compute. reflexivity.
Qed.

(** Otherwise bits are lost: frames of 12 bits from a file of two bytes of ones hold zeros. *)
Theorem C103_refuted : exists s0 s, make_bsrc 12 [255%Z; 255%Z] true = Ret s0 /\
  bsrc_run 26 s0 [Generate (repeat 7%Z 12); Generate (repeat 7%Z 12)] =
    Ret (s, [[1; 1; 1; 1; 1; 1; 1; 1; 1; 1; 1; 1]; [1; 1; 1; 1; 1; 1; 1; 1; 0; 0; 0; 0]]%Z) /\
  (forall p, file_bit [255%Z; 255%Z] (p mod 16) = 1%Z).
Proof.
  eexists _, _. split; [reflexivity|]. split; [vm_compute; reflexivity|]. intros p.
  pose proof (Nat.mod_upper_bound p 16 ltac:(lia)) as H. set (q := p mod 16) in *. clearbody q.
  do 16 (destruct q as [|q]; [reflexivity|]). lia.
Qed.

(** An empty file is read for ever. *)
Theorem C103_empty_refuted : forall K fuel, 0 < K -> exists s0, make_bsrc K [] true = Ret s0 /\ bsrc_generate fuel s0 (repeat 0%Z K) = Undef.
Proof.
  intros K fuel HK. unfold make_bsrc. destruct (Nat.ltb_spec 0 K); [|lia]. eexists. split; [reflexivity|].
  unfold bsrc_generate. cbn [b_done b_left b_K for_ for_from bind].
  assert (N : 0 < (K + 8 - 1 - 0) / 8). { apply Nat.div_str_pos. lia. }
  set (nd := (K + 8 - 1 - 0) / 8) in *. clearbody nd.
  assert (G : forall fuel s, b_file s = [] -> b_pos s = 0 -> b_auto s = true -> read_loop fuel nd s 0 = Undef).
  { clear fuel. induction fuel as [|fuel IH]; intros s F P A; [reflexivity|]. cbn [read_loop]. destruct (Nat.ltb_spec 0 nd); [|lia].
    rewrite F, P. cbn [List.length Nat.sub]. rewrite Nat.min_0_r. cbn [copy for_ for_from bind Nat.ltb]. rewrite Nat.sub_0_r.
    destruct (Nat.ltb_spec 0 nd); [|lia]. cbn [b_auto]. rewrite A. apply IH; reflexivity. }
  rewrite G by reflexivity. reflexivity.
Qed.

(* ------------------------------------------------------------------ *)
(** * C104: a sink over a binary file *)

Lemma pack_at_ok : forall V o blk m, o + 8 * m <= length V -> m <= length blk ->
  exists out, pack_at V o blk (m * 8) = Ret out /\ length out = length blk /\
    (forall p, p < 8 * m -> file_bit out p = b2z (nz (nth (o + p) V 0%Z))) /\
    (forall i, i < m -> (0 <= nth i out 0 < 256)%Z).
Proof.
  intros V o blk m Ho Hm. assert (Sy : symbols_for (m * 8) 8 = m).
  { rewrite symbols_8. rewrite Nat.add_comm, Nat.div_add by lia. reflexivity. }
  destruct (pack_frame_spec 8 V blk (m * 8) false 8 o 0 ltac:(lia) ltac:(lia) ltac:(rewrite Sy; lia)) as (out & E & L & A & _).
  rewrite Sy in A. exists out. split; [exact E|]. split; [exact L|]. split.
  - intros p Hp. assert (Hq : p / 8 < m) by (apply Nat.div_lt_upper_bound; lia).
    destruct (A (p / 8) Hq) as [_ B]. pose proof (Nat.mod_upper_bound p 8 ltac:(lia)) as M. pose proof (Nat.div_mod p 8 ltac:(lia)) as D.
    specialize (B (p mod 8) M). cbn [Nat.add] in B. unfold file_bit. rewrite B.
    rewrite Nat.min_l by lia. destruct (Nat.ltb_spec (p mod 8) 8); [|lia]. cbn [andb]. rewrite nth_bits_of.
    replace (o + (p / 8 * 8 + p mod 8)) with (o + p) by lia. destruct (nz _); reflexivity.
  - intros i Hi. destruct (A i Hi) as [B _]. exact B.
Qed.

(** The state of a sink that received the elements D since it was emptied. *)
Record kinv (K : nat) (D : list Z) (s : bsnk) : Prop := {
  j_K : k_K s = K; j_chunk : length (k_chunk s) = K; j_buf : length (k_buf s) = 8; j_left : k_left s = length D mod 8;
  j_len : length (k_file s) = length D / 8;
  j_val : forall p, p < 8 * (length D / 8) -> file_bit (k_file s) p = b2z (nz (nth p D 0%Z));
  j_range : forall b, In b (k_file s) -> (0 <= b < 256)%Z;
  j_rest : forall i, i < length D mod 8 -> nth i (k_buf s) 0%Z = nth (8 * (length D / 8) + i) D 0%Z }.

Lemma file_bit_app1 : forall a b p, p < 8 * length a -> file_bit (a ++ b) p = file_bit a p.
Proof. intros. unfold file_bit. rewrite app_nth1 by (apply Nat.div_lt_upper_bound; lia). reflexivity. Qed.
Lemma file_bit_app2 : forall a b p, file_bit (a ++ b) (8 * length a + p) = file_bit b p.
Proof.
  intros. rewrite file_bit_shift. rewrite app_nth2 by lia. replace (length a + p / 8 - length a) with (p / 8) by lia. reflexivity.
Qed.
Lemma file_bit_firstn : forall a n p, p < 8 * n -> file_bit (firstn n a) p = file_bit a p.
Proof. intros. unfold file_bit. rewrite nth_firstn_lt by (apply Nat.div_lt_upper_bound; lia). reflexivity. Qed.

Lemma send_ok : forall K D s V, 8 <= K -> kinv K D s -> length V = K -> exists s', bsnk_send s V = Ret s' /\ kinv K (D ++ V) s'.
Proof.
  intros K D s V HK [] HV. unfold bsnk_send. rewrite j_K0.
  pose proof (Nat.div_mod (length D) 8 ltac:(lia)) as DM. pose proof (Nat.mod_upper_bound (length D) 8 ltac:(lia)) as MU.
  set (q := length D / 8) in *. set (r := length D mod 8) in *. rewrite j_left0.
  set (comp := (8 - r) mod 8).
  assert (Hcomp : (r = 0 /\ comp = 0) \/ (0 < r /\ comp = 8 - r)).
  { unfold comp. destruct (Nat.eq_dec r 0) as [->|e]; [left; auto|right; split; [lia|apply Nat.mod_small; lia]]. }
  set (q1 := if r =? 0 then q else S q).
  assert (HQ : 8 * q1 = length D + comp) by (unfold q1; destruct (Nat.eqb_spec r 0); lia).
  assert (Step1 : exists buf file1,
    (if r =? 0 then Ret (k_buf s, k_file s)
     else buf <- for_ comp (fun i buf => v <- rd V i ;; wr buf (r + i) v) (k_buf s) ;; byte <- pack_at buf 0 [0%Z] 8 ;; Ret (buf, k_file s ++ byte)) = Ret (buf, file1) /\
    length buf = 8 /\ length file1 = q1 /\ (forall b, In b file1 -> (0 <= b < 256)%Z) /\
    (forall p, p < 8 * q1 -> file_bit file1 p = b2z (nz (nth p (D ++ V) 0%Z)))).
  { destruct (Nat.eqb_spec r 0) as [r0|r0].
    - exists (k_buf s), (k_file s). split; [reflexivity|]. split; [exact j_buf0|]. split; [rewrite j_len0; reflexivity|]. split; [exact j_range0|].
      intros p Hp. unfold q1 in Hp. rewrite j_val0 by exact Hp. rewrite app_nth1 by lia. reflexivity.
    - match goal with |- context [for_ comp ?body _] =>
        destruct (for_inv _ (fun t (b : list Z) => length b = 8 /\ (forall i, i < r -> nth i b 0%Z = nth i (k_buf s) 0%Z) /\
          (forall i, i < t -> nth (r + i) b 0%Z = nth i V 0%Z)) comp body (k_buf s)) as (buf & E & LB & B1 & B2) end.
      + repeat split; auto. intros; lia.
      + intros i b Hi (LB & B1 & B2). rewrite (rd_ok _ 0%Z) by lia. cbn [bind]. rewrite wr_ok by lia. eexists. split; [reflexivity|].
        rewrite length_upd. split; [auto|]. split.
        * intros k Hk. rewrite nth_upd_neq by lia. auto.
        * intros k Hk. destruct (Nat.eq_dec k i) as [->|e]; [rewrite nth_upd_eq by lia; reflexivity|rewrite nth_upd_neq by lia; apply B2; lia].
      + rewrite E. cbn [bind]. destruct (pack_at_ok buf 0 [0%Z] 1 ltac:(lia) ltac:(cbn; lia)) as (byte & EB & LBy & AB & RB).
        change (1 * 8) with 8 in EB. rewrite EB. cbn [bind]. exists buf, (k_file s ++ byte). split; [reflexivity|]. split; [exact LB|].
        cbn [List.length] in LBy. assert (Q1 : q1 = S q) by (unfold q1; destruct (Nat.eqb_spec r 0); lia).
        split; [rewrite app_length, j_len0, LBy, Q1; lia|]. split.
        * intros b Hb. apply in_app_or in Hb. destruct Hb as [Hb|Hb]; [auto|].
          apply In_nth with (d := 0%Z) in Hb. destruct Hb as (i & Hi & <-). apply RB. lia.
        * intros p Hp. destruct (Nat.lt_ge_cases p (8 * q)) as [H|H].
          -- rewrite file_bit_app1 by (rewrite j_len0; exact H). rewrite j_val0 by exact H. rewrite app_nth1 by lia. reflexivity.
          -- replace p with (8 * length (k_file s) + (p - 8 * q)) at 1 by lia. rewrite file_bit_app2. rewrite AB by lia. cbn [Nat.add].
             destruct (Nat.lt_ge_cases (p - 8 * q) r) as [H2|H2].
             ++ rewrite B1 by lia. rewrite j_rest0 by lia. rewrite app_nth1 by lia. do 3 f_equal. lia.
             ++ replace (p - 8 * q) with (r + (p - 8 * q - r)) by lia. rewrite B2 by lia. rewrite app_nth2 by lia. do 3 f_equal. lia. }
  destruct Step1 as (buf & file1 & E1 & LB & LF1 & RF1 & VF1).
  match goal with |- context [bind ?X _] => replace X with (Ret (buf, file1)) end. cbn [bind].
  set (main := (K - comp) / 8). pose proof (Nat.div_mod (K - comp) 8 ltac:(lia)) as DM2. pose proof (Nat.mod_upper_bound (K - comp) 8 ltac:(lia)) as MU2. fold main in DM2.
  destruct (pack_at_ok V comp (k_chunk s) main ltac:(lia) ltac:(lia)) as (chunk & EC & LC & AC & RC). rewrite EC. cbn [bind].
  set (base := comp + main * 8). set (left := K - base).
  assert (HL : left = (K - comp) mod 8) by (unfold left, base; lia).
  match goal with |- context [for_from base left ?body _] =>
    destruct (for_from_inv _ (fun t (st : list Z * nat) => length (fst st) = 8 /\ snd st = t - base /\
      (forall i, i < t - base -> nth i (fst st) 0%Z = nth (base + i) V 0%Z)) left base body (buf, 0)) as ((b2 & n2) & E2 & LB2 & N2 & A2) end.
  { cbn [fst snd]. repeat split; auto; intros; lia. }
  { intros i (b & n) Hi (L1 & N1 & A1). cbn [fst snd] in *. rewrite (rd_ok _ 0%Z) by (unfold left, base in *; lia). cbn [bind]. rewrite wr_ok by lia.
    cbn [bind]. eexists. split; [reflexivity|]. cbn [fst snd]. rewrite length_upd. split; [auto|]. split; [lia|]. intros k Hk.
    destruct (Nat.eq_dec k n) as [->|e]; [rewrite nth_upd_eq by lia; f_equal; lia|rewrite nth_upd_neq by lia; apply A1; lia]. }
  rewrite E2. cbn [bind fst snd] in *. eexists. split; [reflexivity|].
  assert (LD : length (D ++ V) = 8 * (q1 + main) + left) by (rewrite app_length; unfold left, base; lia).
  assert (Hdiv : length (D ++ V) / 8 = q1 + main). { rewrite LD. symmetry. apply Nat.div_unique with (r := left); lia. }
  assert (Hmod : length (D ++ V) mod 8 = left). { rewrite LD. symmetry. apply Nat.mod_unique with (q := q1 + main); lia. }
  constructor; cbn [k_K k_chunk k_buf k_left k_file]; rewrite ?Hdiv, ?Hmod; auto; try lia.
  - rewrite app_length, firstn_length. lia.
  - intros p Hp. destruct (Nat.lt_ge_cases p (8 * q1)) as [H|H].
    + rewrite file_bit_app1 by lia. apply VF1. exact H.
    + replace p with (8 * length file1 + (p - 8 * q1)) at 1 by lia. rewrite file_bit_app2. rewrite file_bit_firstn by lia. rewrite AC by lia.
      rewrite app_nth2 by lia. do 3 f_equal. lia.
  - intros b Hb. apply in_app_or in Hb. destruct Hb as [Hb|Hb]; [auto|].
    apply In_nth with (d := 0%Z) in Hb. destruct Hb as (i & Hi & <-). rewrite firstn_length in Hi. rewrite nth_firstn_lt by lia. apply RC. lia.
  - intros i Hi. rewrite A2 by (unfold left in *; lia). rewrite app_nth2 by lia. f_equal. unfold base. lia.
Qed.

(** The elements sent since the sink was last emptied. *)
Fixpoint sent (D : list Z) (cs : list kcall) : list Z :=
  match cs with [] => D | Send V :: cs => sent (D ++ V) cs | Empty :: cs => sent [] cs end.

Lemma kinv_start : forall K s, k_K s = K -> length (k_chunk s) = K -> length (k_buf s) = 8 -> kinv K [] (bsnk_reset s).
Proof.
  intros. constructor; unfold bsnk_reset; cbn [k_K k_chunk k_buf k_left k_file List.length]; auto; try reflexivity.
  - intros p Hp. change (0 / 8) with 0 in Hp. lia.
  - intros b [].
  - intros i Hi. change (0 mod 8) with 0 in Hi. lia.
Qed.

(** A sink is refused below 8 bits per frame.  Over any history of frames and resets, its file holds, eight by eight, the bits
    sent since the last reset: the last bits wait until they make a byte. *)
Theorem C104_file : forall K cs, (forall V, In (Send V) cs -> List.length V = K) ->
  (K < 8 -> make_bsnk K = Throws) /\
  (8 <= K -> exists s0 s, make_bsnk K = Ret s0 /\ bsnk_run s0 cs = Ret s /\
    let D := sent [] cs in
    List.length (k_file s) = List.length D / 8 /\ (forall b, In b (k_file s) -> (0 <= b < 256)%Z) /\
    forall p, p < 8 * (List.length D / 8) -> file_bit (k_file s) p = if (nth p D 0 =? 0)%Z then 0%Z else 1%Z).
Proof.
  intros K cs Hcs. split; intros HK; unfold make_bsnk.
  - destruct (Nat.leb_spec 8 K); [lia|]. reflexivity.
  - destruct (Nat.leb_spec 8 K); [|lia]. cbn [guard bind].
    assert (G : forall cs D s, kinv K D s -> (forall V, In (Send V) cs -> List.length V = K) -> exists s', bsnk_run s cs = Ret s' /\ kinv K (sent D cs) s').
    { clear cs Hcs. induction cs as [|[V|] cs IH]; intros D s I Hcs; cbn [bsnk_run sent].
      - exists s. auto.
      - destruct (send_ok K D s V HK I) as (s1 & E & I1); [apply Hcs; left; reflexivity|]. rewrite E. cbn [bind].
        apply IH; [exact I1|]. intros W HW. apply Hcs. right. exact HW.
      - apply IH; [|intros W HW; apply Hcs; right; exact HW]. apply kinv_start; apply I. }
    set (s0 := mkK K [] (repeat 0%Z K) (repeat 0%Z 8) 0).
    destruct (G cs [] s0) as (s & E & I); auto.
    { apply (kinv_start K s0); auto. apply repeat_length. }
    exists s0, s. split; [reflexivity|]. split; [exact E|]. cbv zeta. destruct I. split; [exact j_len0|]. split; [exact j_range0|].
    intros p Hp. rewrite j_val0 by exact Hp. unfold nz. destruct (nth p (sent [] cs) 0 =? 0)%Z; reflexivity.
Qed.

Example C104_example : exists s0 s, make_bsnk 9 = Ret s0 /\
  bsnk_run s0 [Send [1; 1; 1; 1; 1; 1; 1; 1; 0]%Z; Empty; Send [1; 0; 0; 0; 0; 0; 0; 0; 5]%Z; Send [1; 0; 0; 0; 0; 0; 0; 0; 1]%Z] = Ret s /\
  k_file s = [1; 3]%Z.
Proof. eexists _, _. split; [reflexivity|]. split; [vm_compute; reflexivity|]. reflexivity. Qed.

(** A source over the file that a sink wrote gives the frames of the sink back (bits 0 and 1), up to the bits, fewer than
    eight, that were not written: these are zeros. *)
Theorem C104_round_trip : forall K Vs, 8 <= K -> (forall V, In V Vs -> List.length V = K) ->
  exists k0 k s0 s, make_bsnk K = Ret k0 /\ bsnk_run k0 (map Send Vs) = Ret k /\
    make_bsrc K (k_file k) false = Ret s0 /\
    bsrc_run 2 s0 (map (fun V => Generate V) Vs) = Ret (s, tab (List.length Vs) (fun f => tab K (fun i =>
      let p := f * K + i in
      if p <? 8 * (List.length Vs * K / 8) then (if (nth i (nth f Vs []) 0 =? 0)%Z then 0%Z else 1%Z) else 0%Z))).
Proof.
  intros K Vs HK HV.
  destruct (C104_file K (map Send Vs)) as [_ H].
  { intros V HIn. apply in_map_iff in HIn. destruct HIn as (W & [= <-] & HW). auto. }
  destruct (H HK) as (k0 & k & E0 & E & L & _ & B). clear H.
  assert (HS : forall Vs D, sent D (map Send Vs) = D ++ List.concat Vs).
  { clear. induction Vs as [|V Vs IH]; intros D; cbn [map sent List.concat]; [rewrite app_nil_r; reflexivity|]. rewrite IH, app_assoc. reflexivity. }
  rewrite HS in L, B. cbn [app] in L, B.
  assert (HC : forall Vs, (forall V, In V Vs -> List.length V = K) -> List.length (List.concat Vs) = List.length Vs * K /\
    forall f i, f < List.length Vs -> i < K -> nth (f * K + i) (List.concat Vs) 0%Z = nth i (nth f Vs []) 0%Z).
  { clear - HK. induction Vs as [|V Vs IH]; intros H; [split; [reflexivity|cbn; intros; lia]|]. destruct IH as [I1 I2]; [intros; apply H; right; auto|].
    pose proof (H V (or_introl eq_refl)) as HV. cbn [List.concat List.length]. rewrite app_length. split; [lia|]. intros f i Hf Hi.
    destruct f as [|f]; [rewrite app_nth1 by lia; reflexivity|]. cbn [nth]. rewrite app_nth2 by lia. rewrite <- I2 by lia. f_equal. lia. }
  destruct (HC Vs HV) as [LC NC]. rewrite LC in L, B.
  destruct (C102_frames K (k_file k) (map (fun V => Generate V) Vs)) as (s0 & s & M & R & _).
  { right. lia. }
  { intros U HU. apply in_map_iff in HU. destruct HU as (W & [= <-] & HW). auto. }
  exists k0, k, s0, s. split; [exact E0|]. split; [exact E|]. split; [exact M|]. rewrite R by lia. f_equal. f_equal.
  assert (X : forall Vs m, expected (file_bit (k_file k)) K m (map (fun V => Generate V) Vs) = map (fun f => frame_at (file_bit (k_file k)) K (f * K)) (seq m (List.length Vs))).
  { clear. induction Vs as [|V Vs IH]; intros m; [reflexivity|]. cbn [map expected List.length seq]. f_equal. apply IH. }
  rewrite X. apply map_ext_in. intros f Hf. apply in_seq in Hf. apply tab_ext. intros i Hi. cbv zeta.
  destruct (Nat.ltb_spec (f * K + i) (8 * (List.length Vs * K / 8))) as [H|H].
  - rewrite B by exact H. rewrite NC by lia. reflexivity.
  - apply file_bit_out. rewrite L. exact H.
Qed.

(* ------------------------------------------------------------------ *)
(** * C105: a source over a text file *)

Definition ints (zs : list Z) : Prop := forall z, In z zs -> (- 2 ^ 31 <= z < 2 ^ 31)%Z.

(** A stream on which the numbers zs are to be read. *)
Definition to_read (s : stream) (zs : list Z) : Prop := zs = [] \/ exists t, s = open t /\ numbers t zs.

Lemma has_words_space : forall c t ws, is_space c = true -> has_words t ws -> has_words (c :: t) ws.
Proof.
  intros c t ws Hc H. destruct H as [p Hp|p w Hp Hw|p w c' t ws Hp Hw Hc' H].
  - constructor. cbn. rewrite Hc. exact Hp.
  - apply (hw_last (c :: p) w); auto. cbn. rewrite Hc. exact Hp.
  - apply (hw_cons (c :: p) w c' t ws); auto. cbn. rewrite Hc. exact Hp.
Qed.

Lemma get_int_word : forall old p w z r, blank p = true -> decimal w z -> (- 2 ^ 31 <= z < 2 ^ 31)%Z -> (forall c r', r = c :: r' -> is_space c = true) ->
  get_int old (open (p ++ w ++ r)) = (Some z, mkStream r (match r with [] => true | _ => false end) false).
Proof.
  intros old p w z r Hp D Hz Hr. unfold get_int, open. cbn [s_eof s_fail s_rest orb].
  rewrite skip_ws_spaces by exact Hp. rewrite skip_ws_word by (apply (decimal_word w z D)).
  destruct (parse_decimal w z r D) as (neg & d & E1 & E2 & E3 & E4 & E5).
  { intros c' r' E. apply space_nodigit. apply (Hr c' r' E). }
  assert (Hw : w ++ r <> []). { destruct (decimal_word w z D) as [H _]. destruct w; [congruence|discriminate]. }
  destruct (w ++ r) as [|x t] eqn:Ew; [congruence|]. rewrite E1. rewrite E2.
  destruct (Nat.eqb_spec (length d) 0); [contradiction|]. rewrite <- E4.
  destruct (Z.leb_spec (2 ^ 31) z); [lia|]. destruct (Z.ltb_spec z (- 2 ^ 31)); [lia|]. reflexivity.
Qed.

Lemma get_int_next : forall old s z zs, to_read s (z :: zs) -> (- 2 ^ 31 <= z < 2 ^ 31)%Z -> exists s', get_int old s = (Some z, s') /\ to_read s' zs.
Proof.
  intros old s z zs [H|(t & -> & ws & HW & F)] Hz; [discriminate|]. inversion F as [|w z' ws' zs' D F' E1 E2]; subst.
  inversion HW as [p Hp E1 E2|p w' Hp Hw E1 E2|p w' c t' ws'' Hp Hw Hc H E1 E2]; subst.
  - inversion F'; subst. replace (p ++ w) with (p ++ w ++ []) by (rewrite app_nil_r; reflexivity).
    rewrite (get_int_word old p w z []) by (auto; intros; discriminate). eexists. split; [reflexivity|]. left. reflexivity.
  - rewrite (get_int_word old p w z (c :: t')) by (auto; intros ? ? [= <- _]; exact Hc). eexists. split; [reflexivity|]. right.
    exists (c :: t'). split; [reflexivity|]. exists ws'. split; [apply has_words_space; auto|exact F'].
Qed.

Lemma skipn_cons_nth : forall (l : list Z) k, k < length l -> skipn k l = nth k l 0%Z :: skipn (S k) l.
Proof. induction l; intros [|k] H; cbn in *; try lia; auto. apply IHl. lia. Qed.

Definition binary (row : list Z) : list Z := map (fun b => if (b =? 0)%Z then 0%Z else 1%Z) row.

Lemma rem_nat : forall a b, Z.of_nat (a mod b) = Z.rem (Z.of_nat a) (Z.of_nat b).
Proof. intros a [|b]; [cbn; destruct a; reflexivity|]. rewrite Z.rem_mod_nonneg by lia. apply Nat2Z.inj_mod. Qed.

Lemma nth_binary : forall r j, nth j (binary r) 0%Z = b2z (nz (nth j r 0%Z)).
Proof. induction r as [|x r IH]; intros [|j]; try reflexivity; [cbn; unfold nz; destruct (x =? 0)%Z; reflexivity|apply IH]. Qed.

(** The file holds the number of frames, the size of a frame, and the frames; anything may follow. *)
Definition frames_file (t : text) (K : nat) (rows : list (list Z)) : Prop :=
  exists extra, let zs := Z.of_nat (length rows) :: Z.of_nat K :: List.concat rows ++ extra in
    numbers t zs /\ ints (Z.of_nat (length rows) :: Z.of_nat K :: List.concat rows).

Lemma concat_frames : forall K Vs, (forall V, In V Vs -> length V = K) -> length (List.concat Vs) = length Vs * K /\
    forall f i, f < length Vs -> i < K -> nth (f * K + i) (List.concat Vs) 0%Z = nth i (nth f Vs []) 0%Z.
Proof.
  intros K. induction Vs as [|V Vs IH]; intros H; [split; [reflexivity|cbn; intros; lia]|]. destruct IH as [I1 I2]; [intros; apply H; right; auto|].
  pose proof (H V (or_introl eq_refl)) as HV. cbn [List.concat List.length]. rewrite app_length. split; [lia|]. intros f i Hf Hi.
  destruct f as [|f]; [rewrite app_nth1 by lia; reflexivity|]. cbn [nth]. rewrite app_nth2 by lia. rewrite <- I2 by lia. f_equal. lia.
Qed.

Lemma nth_in_rows : forall (l : list (list Z)) K i, (forall r, In r l -> length r = K) -> i < length l -> length (nth i l []) = K.
Proof. intros. apply H. apply nth_In. exact H0. Qed.

Lemma make_usrc_ok : forall K t rows start, 0 < K -> 0 < length rows -> (forall r, In r rows -> length r = K) -> frames_file t K rows ->
  make_usrc K t start = Ret (mkU K (map binary rows) (Z.rem start (Z.of_nat (length rows)))).
Proof.
  intros K t rows start HK HR HL (extra & HN & HI). cbv zeta in HN. unfold make_usrc.
  destruct (Nat.ltb_spec 0 K); [|lia]. cbn [guard bind].
  destruct (concat_frames K rows HL) as [LC NC]. set (n := length rows) in *. set (bits := List.concat rows) in *.
  destruct (get_int_next (Some 0%Z) (open t) _ _ (or_intror (ex_intro _ t (conj eq_refl HN)))) as (s1 & E1 & R1); [apply HI; left; reflexivity|].
  rewrite E1. cbn [fst snd].
  destruct (get_int_next (Some 0%Z) s1 _ _ R1) as (s2 & E2 & R2); [apply HI; right; left; reflexivity|].
  rewrite E2. destruct (Z.ltb_spec 0 (Z.of_nat n)); [|lia]. destruct (Z.ltb_spec 0 (Z.of_nat K)); [|lia]. cbn [andb guard bind].
  rewrite Z.eqb_refl. cbn [guard bind]. rewrite !Nat2Z.id.
  set (P := fun k (st : list (list Z) * stream) => length (fst st) = n /\ (forall r, In r (fst st) -> length r = K) /\
    (forall i j, i < n -> j < K -> i * K + j < k -> nth j (nth i (fst st) []) 0%Z = b2z (nz (nth (i * K + j) bits 0%Z))) /\
    to_read (snd st) (skipn k (bits ++ extra))).
  match goal with |- context [for_ n ?body _] => destruct (for_inv _ (fun i st => P (i * K) st) n body (repeat (repeat 0%Z K) n, s2)) as ((src & s3) & E & F1 & F2 & F3 & F4) end.
  - unfold P. cbn [fst snd]. split; [apply repeat_length|]. split; [intros r Hr; apply repeat_spec in Hr; subst; apply repeat_length|].
    split; [intros; lia|]. exact R2.
  - intros i st Hi Hst.
    match goal with |- context [for_ K ?body _] => destruct (for_inv _ (fun j st => P (i * K + j) st) K body st) as (st' & E & Q) end.
    + rewrite Nat.add_0_r. exact Hst.
    + intros j (src & s) Hj (A1 & A2 & A3 & A4). cbn [fst snd] in *.
      assert (Hk : i * K + j < length bits) by (rewrite LC; nia).
      rewrite skipn_cons_nth in A4 by (rewrite app_length; lia). rewrite app_nth1 in A4 by exact Hk.
      destruct (get_int_next None s _ _ A4) as (s' & E & R); [apply HI; right; right; apply nth_In; exact Hk|].
      rewrite E. rewrite (rd_ok _ []) by lia. cbn [bind]. rewrite wr_ok by (rewrite (nth_in_rows src K i); auto; lia). cbn [bind].
      rewrite wr_ok by lia. cbn [bind]. eexists. split; [reflexivity|]. unfold P. cbn [fst snd]. rewrite length_upd. split; [auto|]. split; [|split].
      * intros r Hr. apply In_nth with (d := []) in Hr. destruct Hr as (a & Ha & <-). rewrite length_upd in Ha.
        destruct (Nat.eq_dec a i) as [->|e]; [rewrite nth_upd_eq by lia; rewrite length_upd|rewrite nth_upd_neq by lia]; apply nth_in_rows; auto; lia.
      * intros a b Ha Hb Hab. destruct (Nat.eq_dec a i) as [->|e].
        -- rewrite nth_upd_eq by lia. destruct (Nat.eq_dec b j) as [->|e2].
           ++ rewrite nth_upd_eq by (rewrite (nth_in_rows src K i); auto; lia). reflexivity.
           ++ rewrite nth_upd_neq by lia. apply A3; lia.
        -- rewrite nth_upd_neq by lia. apply A3; auto. nia.
      * rewrite Nat.add_succ_r. exact R.
    + exists st'. split; [exact E|]. replace (S i * K) with (i * K + K) by lia. exact Q.
  - rewrite E. cbn [bind fst snd] in *. f_equal. f_equal.
    apply (list_eq_nth _ []); [rewrite map_length; exact F1|]. intros i Hi. rewrite F1 in Hi.
    change (@nil Z) with (binary []) at 2. rewrite map_nth.
    assert (Li : length (nth i rows []) = K) by (apply nth_in_rows; auto).
    apply (list_eq_nth _ 0%Z); [unfold binary; rewrite map_length, Li; apply nth_in_rows; auto; lia|].
    intros j Hj. rewrite (nth_in_rows src K i) in Hj by (auto; lia). rewrite F3 by (auto; nia). rewrite NC by auto.
    symmetry. apply nth_binary.
Qed.

(** A file of frames of the right size is accepted; the frames are given in order from the starting one, for ever. *)
Theorem C105_frames : forall K t rows start Us, 0 < K -> 0 < List.length rows -> (forall r, In r rows -> List.length r = K) -> frames_file t K rows ->
  (forall U, In U Us -> List.length U = K) ->
  exists s0 s, make_usrc K t (Z.of_nat start) = Ret s0 /\
    usrc_run s0 Us = Ret (s, tab (List.length Us) (fun m => binary (nth ((start + m) mod List.length rows) rows []))).
Proof.
  intros K t rows start Us HK HR HL HF HU. exists (mkU K (map binary rows) (Z.of_nat (start mod List.length rows))), (mkU K (map binary rows) (Z.of_nat ((start + List.length Us) mod List.length rows))).
  split; [rewrite rem_nat; apply make_usrc_ok; auto|].
  revert start. induction Us as [|U Us IH]; intros start; cbn [usrc_run List.length].
  - rewrite Nat.add_0_r. reflexivity.
  - unfold usrc_generate. cbn [u_counter u_source u_K]. destruct (Z.ltb_spec (Z.of_nat (start mod List.length rows)) 0); [lia|].
    rewrite Nat2Z.id. pose proof (Nat.mod_upper_bound start (List.length rows) ltac:(lia)) as HB.
    rewrite (rd_ok _ (binary [])) by (rewrite map_length; exact HB). cbn [bind]. rewrite map_nth.
    assert (LR : length (binary (nth (start mod length rows) rows [])) = K) by (unfold binary; rewrite map_length; apply nth_in_rows; auto).
    assert (LU : length U = K) by (apply HU; left; reflexivity).
    destruct (copy_spec Z 0%Z (binary (nth (start mod length rows) rows [])) 0 K U 0) as (out & EC & LO & AC & _); [lia|lia|].
    rewrite LR, EC. cbn [bind]. rewrite map_length.
    replace (Z.rem (Z.of_nat (start mod length rows) + 1) (Z.of_nat (length rows))) with (Z.of_nat (S start mod length rows)).
    2:{ replace (Z.of_nat (start mod length rows) + 1)%Z with (Z.of_nat (start mod length rows + 1)) by lia. rewrite <- rem_nat.
        rewrite Nat.add_mod_idemp_l by lia. f_equal. f_equal. lia. }
    rewrite (IH ltac:(intros; apply HU; right; auto) (S start)). cbn [bind].
    replace (S start + length Us) with (start + S (length Us)) by lia. f_equal. f_equal.
    assert (out = binary (nth (start mod length rows) rows [])) as ->.
    { apply (list_eq_nth _ 0%Z); [lia|]. intros i Hi. apply (AC i). lia. }
    unfold tab. cbn [seq map]. rewrite Nat.add_0_r. f_equal. rewrite <- seq_shift, map_map. apply map_ext. intros m.
    replace (S start + m) with (start + S m) by lia. reflexivity.
Qed.

(** A file whose header is not positive, or is for another size, is refused. *)
Theorem C105_refused : forall K t n size rest start, numbers t (n :: size :: rest) -> ints [n; size] ->
  (n <= 0 \/ size <> Z.of_nat K)%Z -> make_usrc K t start = Throws.
Proof.
  intros K t n size rest start HN HI H. unfold make_usrc. destruct (Nat.ltb_spec 0 K) as [HK|]; [|reflexivity]. cbn [guard bind].
  destruct (get_int_next (Some 0%Z) (open t) _ _ (or_intror (ex_intro _ t (conj eq_refl HN)))) as (s1 & E1 & R1); [apply HI; left; reflexivity|].
  rewrite E1. destruct (get_int_next (Some 0%Z) s1 _ _ R1) as (s2 & E2 & R2); [apply HI; right; left; reflexivity|].
  rewrite E2. destruct (Z.ltb_spec 0 n); [|reflexivity]. destruct (Z.ltb_spec 0 size); [|reflexivity]. cbn [andb guard bind].
  destruct (Z.eqb_spec size (Z.of_nat K)); [lia|]. reflexivity.
Qed.

Definition text_of (s : string) : text := list_ascii_of_string s.

Lemma word1 : forall c, is_digit c = true -> word [c].
Proof. intros c H. split; [discriminate|]. intros x [<-|[]]. apply digit_nospace. exact H. Qed.

Example C105_example : frames_file (text_of "2 3 1 0 1 0 0 7") 3 [[1; 0; 1]; [0; 0; 7]]%Z.
Proof.
  exists []. cbv zeta. split.
  - exists (map text_of ["2"; "3"; "1"; "0"; "1"; "0"; "0"; "7"]%string). split.
    + cbv [text_of list_ascii_of_string map].
      do 7 (match goal with |- has_words (?c :: ?x :: ?t) (_ :: ?ws) => apply (hw_cons [] [c] x t ws eq_refl (word1 c eq_refl) eq_refl) end).
      match goal with |- has_words [?c] _ => exact (hw_last [] [c] eq_refl (word1 c eq_refl)) end.
    + repeat constructor; try discriminate; intros c [<-|[]]; reflexivity.
  - intros z Hz. cbn in Hz. intuition subst; lia.
Qed.

(** A negative starting index is used outside of the frames. *)
Theorem C105_negative_refuted : exists s0, make_usrc 3 (text_of "2 3 1 0 1 0 0 1") (-1) = Ret s0 /\ usrc_generate s0 [0; 0; 0]%Z = Undef.
Proof. eexists. split; [vm_compute; reflexivity|]. reflexivity. Qed.

(** A file that ends too early is accepted: the missing bits are not initialised. *)
Theorem C105_short_refuted : make_usrc 3 (text_of "2 3 1 0 1 0 0") 0 = Undef.
Proof. vm_compute. reflexivity. Qed.

(** The source of null frames. *)
Theorem C105_azcw : forall K U, List.length U = K -> azcw_generate K U = Ret (repeat 0%Z K).
Proof.
  intros K U HU. unfold azcw_generate. destruct (fill_spec Z 0%Z K U 0 0%Z ltac:(lia)) as (o & F & L & A & _). rewrite F. f_equal.
  apply (list_eq_nth _ 0%Z); [rewrite repeat_length; lia|]. intros i Hi. rewrite nth_repeat. change i with (0 + i). apply A. lia.
Qed.
