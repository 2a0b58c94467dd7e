(** Turbo decoders (C115, C116). *)
From Coq Require Import List Arith ZArith Lia Bool.
From Verif Require Import Base Copy InterleaverSpec InterleaverProps ReorderProps TurboDecModel TurboDecSpec TurboDecProofs.
From Verif Require InterleaverModel InterleaverProofs.
Import ListNotations.

(** The table of frame [f] of the wave that starts at [fid]: the first one for a fixed
    interleaver, that of the frame for a uniform one. *)
Definition table (m : InterleaverModel.itl) (fid f : nat) (pi : list nat) : list nat :=
  frame (InterleaverModel.size m) (if InterleaverModel.uniform m then (fid + f) mod InterleaverModel.nf m else 0) pi.

(** The interleavers and the waves for which the decoders are right: a wave of one frame, or
    of all the frames, in a number that the reordering supports (C53); registers of
    [E] = 2^v elements; Decoder_turbo_fast: 1, E or E / 8 frames. *)
Definition setting (v E : nat) (m : InterleaverModel.itl) (pi pi_inv : list nat) (fast : bool) : Prop :=
  E = 2 ^ v /\ 0 < InterleaverModel.npw m /\ 0 < InterleaverModel.core_nf m /\
  good_tables (InterleaverModel.size m) (InterleaverModel.core_nf m) pi pi_inv /\
  (InterleaverModel.uniform m = true -> InterleaverModel.core_nf m = InterleaverModel.nf m) /\
  (InterleaverModel.npw m = 1 \/ InterleaverModel.nf m = InterleaverModel.npw m) /\ in_order v (InterleaverModel.npw m) /\
  (fast = true -> InterleaverModel.npw m = 1 \/ InterleaverModel.npw m = E \/ InterleaverModel.npw m = E / 8).

Lemma table_base : forall m fid f pi, 0 < InterleaverModel.core_nf m -> (InterleaverModel.uniform m = true -> InterleaverModel.core_nf m = InterleaverModel.nf m) ->
  InterleaverProofs.block (InterleaverModel.size m) (InterleaverProofs.lut_base m fid f) pi = table m fid f pi.
Proof.
  intros m fid f pi HC HU. unfold table, InterleaverProofs.lut_base. destruct (InterleaverModel.uniform m); [|reflexivity]. specialize (HU eq_refl).
  assert (E : InterleaverProofs.cur_frame m fid f = (fid + f) mod InterleaverModel.nf m).
  { induction f; cbn [InterleaverProofs.cur_frame].
    - rewrite Nat.add_0_r, HU, Nat.mod_mod by lia. reflexivity.
    - rewrite IHf, HU, Nat.mod_mod, Nat.add_mod_idemp_l by lia. f_equal. lia. }
  rewrite E. reflexivity.
Qed.

Section Props.
Variable T : Type.
Variables (zero : T) (add : T -> T -> T) (lt0 sgn : T -> bool) (sgnz : T -> Z) (absT : T -> T) (psort : list T -> list nat).
Variables (Sn Si : Type).
Variable alt_n : Sn -> list T -> list T -> list T -> outcome (Sn * list T).
Variable alt_i : Si -> list T -> list T -> list T -> outcome (Si * list T).
(** The sign bit is the sign: no negative zero. *)
Hypothesis SG : forall x, sgn x = lt0 x.

(** What an ideal decoder gives for frame [f], with the scalings [scs]: a posteriori values
    of iteration k after the first and the second constituent decoder. *)
Definition ideal_n (Gn Gi : list T -> list T -> list T) (m : InterleaverModel.itl) (pi pi_inv : list nat) (N tn ti : nat) (buffered : bool)
    (scs : list ((nat -> T -> T) * (nat -> T -> T))) (fid : nat) (Y : list T) (f k : nat) : list T :=
  post_n T zero add Gn Gi (InterleaverModel.size m) tn ti buffered (table m fid f pi) (table m fid f pi_inv)
    (fun k x => fold_left (fun x p => fst p k x) scs x) (fun k x => fold_left (fun x p => snd p k x) scs x) (frame N f Y) k.
Definition ideal_i (Gn Gi : list T -> list T -> list T) (m : InterleaverModel.itl) (pi pi_inv : list nat) (N tn ti : nat) (buffered : bool)
    (scs : list ((nat -> T -> T) * (nat -> T -> T))) (fid : nat) (Y : list T) (f k : nat) : list T :=
  post_i T zero add Gn Gi (InterleaverModel.size m) tn ti buffered (table m fid f pi) (table m fid f pi_inv)
    (fun k x => fold_left (fun x p => fst p k x) scs x) (fun k x => fold_left (fun x p => snd p k x) scs x) (frame N f Y) k.
Notation Reached E m pi pi_inv N tn ti n_ite buffered fast := (reached T zero add lt0 sgn sgnz absT psort E Sn Si alt_n alt_i m pi pi_inv N tn ti n_ite buffered fast).
Notation Decode E m pi pi_inv N tn ti n_ite buffered fast := (decode T zero add lt0 sgn sgnz absT psort E Sn Si alt_n alt_i m pi pi_inv N tn ti n_ite buffered fast).

Lemma ctor_N : forall E m pi pi_inv N tn ti n_ite buffered fast Kn Ki sn si pps d, Reached E m pi pi_inv N tn ti n_ite buffered fast Kn Ki sn si pps d ->
  N = 3 * InterleaverModel.size m + 2 * tn + 2 * ti.
Proof.
  intros E m pi pi_inv N tn ti n_ite buffered fast Kn Ki sn si pps d R. induction R as [d EC|]; [|assumption]. unfold tdec_ctor in EC.
  destruct (Kn =? _); [|discriminate]. destruct (Ki =? _); [|discriminate]. cbn [guard bind] in EC. destruct (Z.eqb_spec (Z.of_nat N - (Z.of_nat (2 * tn) + Z.of_nat (2 * ti))) (3 * Z.of_nat (InterleaverModel.size m))); [|discriminate]. lia.
Qed.

(** ** C115 *)
(** After any calls, every frame of a wave gives the decisions of the ideal turbo decoding of
    that frame alone; std and fast decoders alike. *)
Theorem C115_decode : forall v E m pi pi_inv N tn ti n_ite buffered fast Gn Gi okn oki scs Kn Ki sn si d fid Y V,
  setting v E m pi pi_inv fast ->
  computes zero (InterleaverModel.npw m) (InterleaverModel.size m) tn alt_n Gn okn -> computes zero (InterleaverModel.npw m) (InterleaverModel.size m) ti alt_i Gi oki -> okn sn -> oki si ->
  Reached E m pi pi_inv N tn ti n_ite buffered fast Kn Ki sn si (map (fun p => PScale T (fst p) (snd p)) scs) d ->
  length Y = InterleaverModel.npw m * N -> length V = InterleaverModel.npw m -> Forall (fun x => length x = InterleaverModel.size m) V ->
  exists d', Decode E m pi pi_inv N tn ti n_ite buffered fast fid d Y V =
    Ret (d', tab (InterleaverModel.npw m) (fun f => map (hard lt0) (ideal_i Gn Gi m pi pi_inv N tn ti buffered scs fid Y f n_ite))).
Proof.
  intros v E m pi pi_inv N tn ti n_ite buffered fast Gn Gi okn oki scs Kn Ki sn si d fid Y V (EV & Hnf & Hc & GT & HU & HW & IO & HF) CN CI ON OI R LY LV FV.
  destruct (good_luts m pi pi_inv Hc GT) as (LU & LI & _). assert (HE : 0 < E). { rewrite EV. apply Nat.neq_0_lt_0, Nat.pow_nonzero. lia. }
  pose proof (ctor_N _ _ _ _ _ _ _ _ _ _ _ _ _ _ _ _ R) as HN.
  destruct (reached_plain T zero add lt0 sgn sgnz absT psort E Sn Si alt_n alt_i m pi pi_inv N tn ti n_ite buffered fast) with (v := v) (Gn := Gn) (Gi := Gi) (okn := okn) (oki := oki) (scs := scs) (Kn := Kn) (Ki := Ki) (sn := sn) (si := si) (d := d) as [KP HI]; try assumption.
  destruct (decode_plain T zero add lt0 sgn sgnz absT psort E Sn Si alt_n alt_i m pi pi_inv N tn ti n_ite buffered fast) with (v := v) (Gn := Gn) (Gi := Gi) (okn := okn) (oki := oki) (scs := scs) (d := d) (fid := fid) (Y := Y) (V := V) as (d' & ED & _); try assumption.
  exists d'. rewrite ED. do 2 f_equal. apply tab_ext. intros f Hf. unfold ideal_i. rewrite !(table_base m fid f _ Hc HU). reflexivity.
Qed.

(** Any two decoders, std or fast, with whatever calls before, give the same decisions. *)
Theorem C115_same : forall v E m pi pi_inv N tn ti n_ite buffered fast fast' Gn Gi okn oki scs Kn Ki sn si sn' si' d d' fid Y V V',
  setting v E m pi pi_inv fast -> setting v E m pi pi_inv fast' ->
  computes zero (InterleaverModel.npw m) (InterleaverModel.size m) tn alt_n Gn okn -> computes zero (InterleaverModel.npw m) (InterleaverModel.size m) ti alt_i Gi oki ->
  okn sn -> oki si -> okn sn' -> oki si' ->
  Reached E m pi pi_inv N tn ti n_ite buffered fast Kn Ki sn si (map (fun p => PScale T (fst p) (snd p)) scs) d ->
  Reached E m pi pi_inv N tn ti n_ite buffered fast' Kn Ki sn' si' (map (fun p => PScale T (fst p) (snd p)) scs) d' ->
  length Y = InterleaverModel.npw m * N -> length V = InterleaverModel.npw m -> length V' = InterleaverModel.npw m ->
  Forall (fun x => length x = InterleaverModel.size m) V -> Forall (fun x => length x = InterleaverModel.size m) V' ->
  exists d1 d1' R, Decode E m pi pi_inv N tn ti n_ite buffered fast fid d Y V = Ret (d1, R) /\ Decode E m pi pi_inv N tn ti n_ite buffered fast' fid d' Y V' = Ret (d1', R).
Proof.
  intros v E m pi pi_inv N tn ti n_ite buffered fast fast' Gn Gi okn oki scs Kn Ki sn si sn' si' d d' fid Y V V' S1 S2 CN CI O1 O2 O3 O4 R1 R2 LY LV LV' FV FV'.
  destruct (C115_decode v E m pi pi_inv N tn ti n_ite buffered fast Gn Gi okn oki scs Kn Ki sn si d fid Y V S1 CN CI O1 O2 R1 LY LV FV) as (d1 & E1).
  destruct (C115_decode v E m pi pi_inv N tn ti n_ite buffered fast' Gn Gi okn oki scs Kn Ki sn' si' d' fid Y V' S2 CN CI O3 O4 R2 LY LV' FV') as (d2 & E2).
  do 3 eexists. split; [exact E1|exact E2].
Qed.

(** ** C116 *)
(** With a CRC checker: the decisions of the first iteration from [start] on that pass the
    check after the first constituent decoder, or those of the last iteration if there is none.
    The check sees the frames of the wave side by side. *)
Definition passes (m : InterleaverModel.itl) (check : list Z -> bool) (post : nat -> list T) : Prop :=
  check (mix 0%Z (InterleaverModel.npw m) (InterleaverModel.size m) (fun f => map (hard lt0) (post f))) = true.
Theorem C116_crc : forall v E m pi pi_inv N tn ti n_ite buffered fast Gn Gi okn oki scs start check Kn Ki sn si d fid Y V,
  setting v E m pi pi_inv fast ->
  computes zero (InterleaverModel.npw m) (InterleaverModel.size m) tn alt_n Gn okn -> computes zero (InterleaverModel.npw m) (InterleaverModel.size m) ti alt_i Gi oki -> okn sn -> oki si ->
  Reached E m pi pi_inv N tn ti n_ite buffered fast Kn Ki sn si (map (fun p => PScale T (fst p) (snd p)) scs ++ [PCrc T start check]) d ->
  length Y = InterleaverModel.npw m * N -> length V = InterleaverModel.npw m -> Forall (fun x => length x = InterleaverModel.size m) V ->
  let good := fun k => 1 <= k <= n_ite /\ start <= k /\ passes m check (fun f => ideal_n Gn Gi m pi pi_inv N tn ti buffered scs fid Y f k) in
  exists d' V', Decode E m pi pi_inv N tn ti n_ite buffered fast fid d Y V = Ret (d', V') /\
    ((exists k, good k /\ (forall j, j < k -> ~ good j) /\
        V' = tab (InterleaverModel.npw m) (fun f => map (hard lt0) (ideal_n Gn Gi m pi pi_inv N tn ti buffered scs fid Y f k))) \/
     ((forall k, ~ good k) /\ V' = tab (InterleaverModel.npw m) (fun f => map (hard lt0) (ideal_i Gn Gi m pi pi_inv N tn ti buffered scs fid Y f n_ite)))).
Proof.
  intros v E m pi pi_inv N tn ti n_ite buffered fast Gn Gi okn oki scs start check Kn Ki sn si d fid Y V (EV & Hnf & Hc & GT & HU & HW & IO & HF) CN CI ON OI R LY LV FV good.
  destruct (good_luts m pi pi_inv Hc GT) as (LU & LI & _). assert (HE : 0 < E). { rewrite EV. apply Nat.neq_0_lt_0, Nat.pow_nonzero. lia. }
  pose proof (ctor_N _ _ _ _ _ _ _ _ _ _ _ _ _ _ _ _ R) as HN.
  destruct (reached_crc T zero add lt0 sgn sgnz absT psort E Sn Si alt_n alt_i m pi pi_inv N tn ti n_ite buffered fast) with (v := v) (Gn := Gn) (Gi := Gi) (okn := okn) (oki := oki) (scs := scs) (start := start) (check := check) (Kn := Kn) (Ki := Ki) (sn := sn) (si := si) (d := d) as [KP HI]; try assumption.
  destruct (decode_crc T zero add lt0 sgn sgnz absT psort E Sn Si alt_n alt_i m pi pi_inv N tn ti n_ite buffered fast) with (v := v) (Gn := Gn) (Gi := Gi) (okn := okn) (oki := oki) (scs := scs) (start := start) (check := check) (d := d) (fid := fid) (Y := Y) (V := V) as (d' & ED & _); try assumption.
  exists d'. eexists. split; [exact ED|].
  set (DN := fun k => dec_n T zero add lt0 m pi pi_inv N tn ti buffered Gn Gi scs fid Y k).
  assert (EQ : forall k, DN k = mix 0%Z (InterleaverModel.npw m) (InterleaverModel.size m) (fun f => map (hard lt0) (ideal_n Gn Gi m pi pi_inv N tn ti buffered scs fid Y f k))).
  { intros k. unfold DN, dec_n. apply mix_ext; [exact Hnf|]. intros f Hf. unfold ideal_n. rewrite !(table_base m fid f _ Hc HU). reflexivity. }
  assert (FP : forall fuel k, match first_pass T zero add lt0 m pi pi_inv N tn ti buffered Gn Gi scs start check fid Y fuel k with
     | Some j => k <= j < k + fuel /\ start <= j /\ check (DN j) = true /\ forall i, k <= i < j -> ~ (start <= i /\ check (DN i) = true)
     | None => forall i, k <= i < k + fuel -> ~ (start <= i /\ check (DN i) = true) end).
  { induction fuel as [|fuel IH]; intros k; cbn [first_pass]; [intros; lia|]. fold (DN k). destruct (Nat.leb_spec start k) as [HS|HS]; cbn [andb].
    - destruct (check (DN k)) eqn:EC; [split; [lia|]; split; [exact HS|]; split; [exact EC|]; intros; lia|]. generalize (IH (Datatypes.S k)); clear IH; destruct (first_pass T zero add lt0 m pi pi_inv N tn ti buffered Gn Gi scs start check fid Y fuel (Datatypes.S k)) as [j|]; intros IH.
      + destruct IH as (A & B & C & D). split; [lia|]. split; [exact B|]. split; [exact C|]. intros i Hi. destruct (Nat.eq_dec i k) as [->|]; [rewrite EC; intros []; discriminate|apply D; lia].
      + intros i Hi. destruct (Nat.eq_dec i k) as [->|]; [rewrite EC; intros []; discriminate|apply IH; lia].
    - generalize (IH (Datatypes.S k)); clear IH; destruct (first_pass T zero add lt0 m pi pi_inv N tn ti buffered Gn Gi scs start check fid Y fuel (Datatypes.S k)) as [j|]; intros IH.
      + destruct IH as (A & B & C & D). split; [lia|]. split; [exact B|]. split; [exact C|]. intros i Hi. destruct (Nat.eq_dec i k) as [->|]; [lia|apply D; lia].
      + intros i Hi. destruct (Nat.eq_dec i k) as [->|]; [lia|apply IH; lia]. }
  generalize (FP n_ite 1); clear FP ED; destruct (first_pass T zero add lt0 m pi pi_inv N tn ti buffered Gn Gi scs start check fid Y n_ite 1) as [j|]; intros FP.
  - left. destruct FP as (A & B & C & D). exists j. split; [|split].
    + unfold good, passes. rewrite <- EQ. split; [lia|]. auto.
    + intros i Hi (G1 & G2 & G3). unfold passes in G3. rewrite <- EQ in G3. apply (D i); [lia|]. auto.
    + apply tab_ext. intros f Hf. unfold ideal_n. rewrite !(table_base m fid f _ Hc HU). reflexivity.
  - right. split.
    + intros k (G1 & G2 & G3). unfold passes in G3. rewrite <- EQ in G3. apply (FP k); [lia|]. auto.
    + apply tab_ext. intros f Hf. unfold ideal_i. rewrite !(table_base m fid f _ Hc HU). reflexivity.
Qed.
End Props.

(** ** Example: two frames per wave, and a constituent decoder that adds the systematic value
    and the parity *)
Definition m2 : InterleaverModel.itl := {| InterleaverModel.size := 2; InterleaverModel.uniform := false; InterleaverModel.core_nf := 1; InterleaverModel.nf := 2; InterleaverModel.npw := 2; InterleaverModel.nel := 8 |}.
Definition sum_alt (nf K : nat) (st : unit) (sys par ext : list Z) : outcome (unit * list Z) :=
  Ret (tt, tab (length ext) (fun q => if q <? K * nf then (nth q sys 0 + nth q par 0)%Z else nth q ext 0%Z)).
Definition sum_ext (K : nat) (sys par : list Z) : list Z := tab K (fun i => nth i sys 0%Z + nth i par 0%Z)%Z.
Lemma sum_computes : forall nf K t, 0 < nf -> computes 0%Z nf K t (sum_alt nf K) (sum_ext K) (fun _ => True).
Proof.
  intros nf K t Hnf. split; [intros; apply length_tab|]. intros st sys par ext _ LS LP LE. exists tt. eexists. split; [reflexivity|]. split; [exact I|]. split; [apply length_tab|].
  intros f Hf. unfold deal, sum_ext. apply tab_ext. intros i Hi. assert (B : i * nf + f < K * nf). { apply Nat.lt_le_trans with (S i * nf); [cbn; lia|]. apply Nat.mul_le_mono_r. lia. }
  rewrite !nth_tab by lia. destruct (Nat.ltb_spec (i * nf + f) (K * nf)); [reflexivity|lia].
Qed.
Lemma m2_setting : setting 3 8 m2 [1; 0] [1; 0] false.
Proof.
  unfold setting. cbn [InterleaverModel.size InterleaverModel.uniform InterleaverModel.core_nf InterleaverModel.nf InterleaverModel.npw m2].
  split; [reflexivity|]. split; [lia|]. split; [lia|]. split.
  { split; [reflexivity|]. split; [reflexivity|]. intros f Hf. assert (f = 0) as -> by lia. unfold permutation_table, undoes, frame. cbn [Nat.mul skipn firstn length].
    repeat split; intros; repeat match goal with H : ?i < 2 |- _ => first [is_var i; destruct i as [|[|i]]; [| |lia]; clear H] end; cbn in *; lia. }
  split; [discriminate|]. split; [auto|]. split; [|discriminate]. intros k Hk E2. assert (k = 1) as ->; [|cbn; lia]. destruct k as [|[|k]]; [lia|reflexivity|]. cbn [Nat.pow] in E2. pose proof (Nat.pow_nonzero 2 k). lia.
Qed.
Notation zdecode nf fast := (decode Z 0%Z Z.add (fun x => x <? 0)%Z (fun x => x <? 0)%Z Z.sgn Z.abs (fun _ => []) 8 unit unit (sum_alt nf 2) (sum_alt nf 2) m2 [1; 0] [1; 0] 6 0 0 2 true fast).
Notation zreached nf fast := (reached Z 0%Z Z.add (fun x => x <? 0)%Z (fun x => x <? 0)%Z Z.sgn Z.abs (fun _ => []) 8 unit unit (sum_alt nf 2) (sum_alt nf 2) m2 [1; 0] [1; 0] 6 0 0 2 true fast 2 2 tt tt []).
Example C115_example : exists d d', zreached 2 false d /\
  zdecode 2 false 0 d [1; -2; 3; -4; 5; -6; -1; 2; -3; 4; -5; 6]%Z [[7; 7]; [7; 7]]%Z = Ret (d', [[0; 1]; [1; 0]]%Z).
Proof. do 2 eexists. split; [apply reached_ctor; vm_compute; reflexivity|vm_compute; reflexivity]. Qed.

(** The fast decoder accepts the same construction with two frames per wave when the registers
    have 8 elements, but takes the waves of E / 8 = 1 frame: the second frame is not decoded. *)
Theorem C115_fast_waves_refuted : exists d d' V', zreached 2 true d /\
  zdecode 2 true 0 d [1; -2; 3; -4; 5; -6; -1; 2; -3; 4; -5; 6]%Z [[7; 7]; [7; 7]]%Z = Ret (d', V') /\ nth 1 V' [] = [7; 7]%Z.
Proof. do 3 eexists. split; [apply reached_ctor; vm_compute; reflexivity|]. split; [vm_compute; reflexivity|reflexivity]. Qed.
