(** Proofs about the AList files. *)
From Coq Require Import List Arith Lia Bool ZArith Ascii.
From Verif Require Import Base Copy GaloisModel SparseModel SparseSpec SparseProofs AListModel AListSpec TextProofs.
Import ListNotations.

(* ------------------------------------------------------------------ *)
(** * Executions that never leave defined behaviour *)

Definition safe {A} (P : A -> Prop) (o : outcome A) : Prop := match o with Ret x => P x | Throws => True | Undef => False end.

Lemma safe_bind : forall A B (P : A -> Prop) (Q : B -> Prop) (o : outcome A) k, safe P o -> (forall a, P a -> safe Q (k a)) -> safe Q (bind o k).
Proof. intros A B P Q [a| |] k H K; cbn in *; auto. Qed.

Lemma safe_weaken : forall A (P Q : A -> Prop) o, (forall a, P a -> Q a) -> safe P o -> safe Q o.
Proof. intros A P Q [a| |] H K; cbn in *; auto. Qed.

Lemma safe_guard : forall b (P : unit -> Prop), (b = true -> P tt) -> safe P (guard b).
Proof. intros [|] P H; cbn; auto. Qed.

Lemma safe_for_from : forall S (Inv : nat -> S -> Prop) cnt lo body s, Inv lo s -> (forall i s, lo <= i < lo + cnt -> Inv i s -> safe (Inv (Datatypes.S i)) (body i s)) ->
  safe (Inv (lo + cnt)) (for_from lo cnt body s).
Proof.
  intros S Inv. induction cnt as [|cnt IH]; intros lo body s H0 H.
  - cbn [for_from safe]. rewrite Nat.add_0_r. exact H0.
  - cbn [for_from]. apply safe_bind with (P := Inv (Datatypes.S lo)); [apply H; [lia|exact H0]|].
    intros a Ha. replace (lo + Datatypes.S cnt) with (Datatypes.S lo + cnt) by lia. apply IH; [exact Ha|]. intros i t Hi. apply H. lia.
Qed.

Lemma safe_for : forall S (Inv : nat -> S -> Prop) n body s, Inv 0 s -> (forall i s, i < n -> Inv i s -> safe (Inv (Datatypes.S i)) (body i s)) -> safe (Inv n) (for_ n body s).
Proof. intros S Inv n body s H0 H. unfold for_. apply (safe_for_from S Inv n 0); [exact H0|]. intros i t Hi. apply H. lia. Qed.

(* ------------------------------------------------------------------ *)
(** * Filling a matrix row by row *)

Lemma skipn_1 : forall A k (l : list A), skipn 1 (skipn k l) = skipn (S k) l.
Proof. intros A. induction k as [|k IH]; intros l; [reflexivity|]. destruct l as [|x l]; [reflexivity|]. change (skipn (S k) (x :: l)) with (skipn k l). rewrite IH. reflexivity. Qed.


Definition mem (x : nat) (l : list nat) : bool := existsb (Nat.eqb x) l.
Definition partf (ridx : list (list nat)) (r k i j : nat) : bool :=
  if i <? r then mem j (nth i ridx []) else (i =? r) && mem j (firstn k (nth r ridx [])).

Lemma part_start : forall ridx i j, partf ridx 0 0 i j = false.
Proof. intros. unfold partf. cbn [Nat.ltb Nat.leb firstn]. destruct (i =? 0); reflexivity. Qed.

Lemma part_next : forall ridx r k i j, length (nth r ridx []) <= k -> partf ridx r k i j = partf ridx (S r) 0 i j.
Proof.
  intros ridx r k i j H. unfold partf. rewrite firstn_all2 by exact H. cbn [firstn].
  destruct (Nat.ltb_spec i r); destruct (Nat.ltb_spec i (S r)); try lia; try reflexivity.
  - assert (i = r) by lia. subst i. rewrite Nat.eqb_refl. reflexivity.
  - destruct (Nat.eqb_spec i r); [lia|]. destruct (Nat.eqb_spec i (S r)); reflexivity.
Qed.

Lemma firstn_snoc : forall A (l : list A) k d, k < length l -> firstn (S k) l = firstn k l ++ [nth k l d].
Proof. intros A. induction l as [|x l IH]; intros k d H; [cbn in H; lia|]. destruct k; [reflexivity|]. cbn [firstn nth app]. f_equal. apply IH. cbn in H. lia. Qed.

Lemma part_step : forall M n m ridx r k, sp_ok M n m (partf ridx r k) -> r < n -> NoDup (nth r ridx []) -> (forall c, In c (nth r ridx []) -> c < m) -> k < length (nth r ridx []) ->
  exists M', sp_add M r (nth k (nth r ridx []) 0) = Ret M' /\ sp_ok M' n m (partf ridx r (S k)).
Proof.
  intros M n m ridx r k Ok Hr Hd Hm Hk. set (row := nth r ridx []) in *. set (c := nth k row 0).
  assert (Hc : c < m) by (apply Hm, nth_In; exact Hk).
  assert (Hf : partf ridx r k r c = false).
  { unfold partf. rewrite Nat.ltb_irrefl, Nat.eqb_refl. cbn [andb]. fold row. unfold mem.
    destruct (existsb (Nat.eqb c) (firstn k row)) eqn:E; [|reflexivity]. apply mem_in in E. exfalso.
    apply (In_nth _ _ 0) in E. destruct E as (q & Hq & E). rewrite firstn_length in Hq.
    rewrite firstn_nth in E by lia. unfold c in E. apply (proj1 (NoDup_nth row 0) Hd) in E; lia. }
  destruct (add_ok M n m _ r c Ok Hr Hc Hf) as (M' & E & Ok'). exists M'. split; [exact E|].
  apply (sp_ok_ext M' n m (setf (partf ridx r k) r c)); [|exact Ok'].
  intros i j _ _. unfold setf, partf. fold row. destruct (Nat.ltb_spec i r).
  - destruct (Nat.eqb_spec i r); [lia|]. cbn [andb]. apply orb_false_r.
  - rewrite (firstn_snoc _ row k 0 Hk). fold c. unfold mem. rewrite existsb_app. cbn [existsb]. rewrite orb_false_r.
    destruct (i =? r); cbn [andb]; reflexivity.
Qed.

Lemma part_done : forall M n m ridx f, sp_ok M n m (partf ridx n 0) -> (forall r, r < n -> forall c, In c (nth r ridx []) <-> c < m /\ f r c = true) -> sp_ok M n m f.
Proof.
  intros M n m ridx f Ok H. apply (sp_ok_ext M n m (partf ridx n 0)); [|exact Ok]. intros i j Hi Hj. unfold partf.
  destruct (Nat.ltb_spec i n); [|lia]. specialize (H i Hi j). unfold mem. destruct (existsb (Nat.eqb j) (nth i ridx [])) eqn:E.
  - apply mem_in in E. apply H in E. symmetry. apply E.
  - destruct (f i j) eqn:Ef; [|reflexivity]. exfalso. assert (In j (nth i ridx [])) by (apply H; auto).
    apply mem_in in H1. congruence.
Qed.

(* ------------------------------------------------------------------ *)
(** * Second format: lines *)

Lemma u32_id : forall z, (0 <= z < 2 ^ 32)%Z -> u32 z = z.
Proof. intros. apply Z.mod_small. exact H. Qed.

Lemma nth_app_zeros : forall A (l : list A) k d j, nth j (l ++ repeat d k) d = nth j l d.
Proof.
  intros. destruct (Nat.lt_ge_cases j (length l)); [apply app_nth1; exact H|]. rewrite app_nth2 by lia. rewrite nth_repeat. rewrite nth_overflow by lia. reflexivity.
Qed.

Lemma row2_ok : forall M n m ridx r l pad rmax d, sp_ok M n m (partf ridx r 0) -> r < n ->
  numbers l (map (fun x => Z.of_nat x + 1)%Z (nth r ridx []) ++ repeat 0%Z pad) ->
  NoDup (nth r ridx []) -> (forall c, In c (nth r ridx []) -> c < m) -> (Z.of_nat m < 2 ^ 31)%Z ->
  d = Z.of_nat (length (nth r ridx [])) -> length (nth r ridx []) <= rmax ->
  exists M', for_ rmax (fun j M =>
      c <- (if j <? @length text (split l) then at_i (split l) j else Ret 0%Z) ;;
      if (((0 <? c) && (Z.of_nat j <? d)) || ((c <=? 0) && (d <=? Z.of_nat j)))%Z then
        (if (c =? 0)%Z then Ret M else sp_add M r (Z.to_nat ((c - 1) mod 2 ^ 64)))
      else Throws) M = Ret M' /\ sp_ok M' n m (partf ridx (S r) 0).
Proof.
  intros M n m ridx r l pad rmax d Ok Hr Hl Hd Hm Hm31 Hdeg Hmax.
  set (row := nth r ridx []) in *.
  destruct (numbers_split l _ Hl) as [L _]. rewrite app_length, map_length, repeat_length in L.
  match goal with |- exists M', for_ rmax ?body M = _ /\ _ => destruct (for_inv _ (fun j M => sp_ok M n m (partf ridx r j)) rmax body M) as (M' & E & Ok') end.
  - exact Ok.
  - intros j N Hj OkN.
    assert (Ec : (if j <? @length text (split l) then at_i (split l) j else Ret 0%Z) = Ret (if (j <? length row)%nat then Z.of_nat (nth j row 0%nat) + 1 else 0)%Z).
    { destruct (Nat.ltb_spec j (@length text (split l))) as [Hj'|Hj'].
      - assert (Hj2 : j < length row + pad) by (unfold text in *; lia).
        assert (En : nth j (map (fun x => Z.of_nat x + 1)%Z row ++ repeat 0%Z pad) 0%Z = (if (j <? length row)%nat then Z.of_nat (nth j row 0%nat) + 1 else 0)%Z).
        { rewrite nth_app_zeros. destruct (Nat.ltb_spec j (length row)).
          - rewrite (nth_indep _ 0%Z (Z.of_nat 0 + 1)%Z) by (rewrite map_length; lia). apply (map_nth (fun x => Z.of_nat x + 1)%Z).
          - apply nth_overflow. rewrite map_length. lia. }
        rewrite (at_i_ok l _ j Hl); [rewrite En; reflexivity|rewrite app_length, map_length, repeat_length; lia|].
        rewrite En. destruct (Nat.ltb_spec j (length row)); [|lia]. pose proof (Hm _ (nth_In row 0 H)). lia.
      - destruct (Nat.ltb_spec j (length row)); [|reflexivity]. exfalso. unfold text in *. lia. }
    rewrite Ec. cbn [bind]. rewrite Hdeg. fold row.
    destruct (Nat.ltb_spec j (length row)) as [Hlt|Hge].
    + pose proof (Hm _ (nth_In row 0 Hlt)) as Hb.
      destruct (Z.ltb_spec 0 (Z.of_nat (nth j row 0%nat) + 1)); [|lia]. destruct (Z.ltb_spec (Z.of_nat j) (Z.of_nat (length row))); [|lia]. cbn [andb orb].
      destruct (Z.eqb_spec (Z.of_nat (nth j row 0%nat) + 1) 0); [lia|].
      replace (Z.of_nat (nth j row 0%nat) + 1 - 1)%Z with (Z.of_nat (nth j row 0%nat)) by lia. rewrite Z.mod_small by lia. rewrite Nat2Z.id.
      destruct (part_step N n m ridx r j OkN Hr Hd Hm Hlt) as (N' & E & OkN'). exists N'. split; [exact E|exact OkN'].
    + destruct (Z.leb_spec (Z.of_nat (length row)) (Z.of_nat j)); [|lia].
      replace ((0 <? 0)%Z) with false by reflexivity. replace ((0 <=? 0)%Z) with true by reflexivity. cbn [andb orb].
      exists N. split; [reflexivity|]. apply (sp_ok_ext N n m (partf ridx r j)); [|exact OkN].
      intros a b _ _. unfold partf. fold row. rewrite !firstn_all2 by lia. reflexivity.
  - exists M'. split; [exact E|]. apply (sp_ok_ext M' n m (partf ridx r rmax)); [|exact Ok']. intros a b _ _. apply part_next. exact Hmax.
Qed.

Lemma nth_map_seq : forall (g : nat -> Z) n i, i < n -> nth i (map g (seq 0 n)) 0%Z = g i.
Proof.
  intros g n i H. rewrite (nth_indep _ 0%Z (g 0)) by (rewrite map_length, seq_length; lia). rewrite map_nth. rewrite seq_nth by lia. reflexivity.
Qed.

Lemma filter_le : forall A (p : A -> bool) l, length (filter p l) <= length l.
Proof. intros A p. induction l as [|x l IH]; cbn [filter length]; [lia|]. destruct (p x); cbn [length]; lia. Qed.

Lemma row_deg_le : forall f m r, row_deg f m r <= m.
Proof. intros. unfold row_deg. rewrite <- (seq_length m 0) at 2. apply filter_le. Qed.

Lemma Forall2_nth_l : forall A B (P : A -> B -> Prop) l l' i a b, Forall2 P l l' -> i < length l' -> P (nth i l a) (nth i l' b).
Proof. intros A B P l l' i a b H Hi. apply Forall2_nth; [exact H|]. rewrite (Forall2_len _ _ _ _ _ H). exact Hi. Qed.

(** The contents of an AList file, with the numbers of zeros and the lines made explicit. *)
Record contents (ls : list text) (n m : nat) (f : nat -> nat -> bool) (cols : list text) (ridx : list (list nat)) : Prop := mkContents {
  ct_nl : Forall no_nl ls;
  ct_lines : exists l1 l2 l3 l4 rows, relevant ls = l1 :: l2 :: l3 :: l4 :: rows ++ cols /\
    numbers l1 [Z.of_nat n; Z.of_nat m] /\ numbers l2 [Z.of_nat (maxf (row_deg f m) n); Z.of_nat (maxf (row_deg (flip f) n) m)] /\
    numbers l3 (map (fun r => Z.of_nat (row_deg f m r)) (seq 0 n)) /\
    numbers l4 (map (fun c => Z.of_nat (row_deg (flip f) n c)) (seq 0 m)) /\
    Forall2 index_line rows ridx;
  ct_len : length ridx = n;
  ct_rows : forall r, r < n -> NoDup (nth r ridx []) /\ forall c, In c (nth r ridx []) <-> c < m /\ f r c = true }.

Lemma at_2 : forall l a b, numbers l [a; b] -> (- 2 ^ 31 <= a < 2 ^ 31)%Z -> (- 2 ^ 31 <= b < 2 ^ 31)%Z -> @length text (split l) = 2 /\ at_i (split l) 0 = Ret a /\ at_i (split l) 1 = Ret b.
Proof.
  intros l a b H Ha Hb. destruct (numbers_split _ _ H) as [L _]. split; [exact L|]. split.
  - rewrite (at_i_ok l _ 0 H); [reflexivity|cbn; lia|exact Ha].
  - rewrite (at_i_ok l _ 1 H); [reflexivity|cbn; lia|exact Hb].
Qed.

Lemma format2_ok : forall ls rest n m f cols ridx, contents ls n m f cols ridx -> 0 < n -> 0 < m -> (Z.of_nat n < 2 ^ 31)%Z -> (Z.of_nat m < 2 ^ 31)%Z ->
  0 < maxf (row_deg f m) n -> 0 < maxf (row_deg (flip f) n) m ->
  exists M' pre ls', read_format2 (open (lines ls ++ rest)) = Ret (M', open (lines ls' ++ rest)) /\ sp_ok M' n m f /\ ls = pre ++ ls' /\ relevant ls' = cols.
Proof.
  intros ls rest n m f cols ridx [Hnl (l1 & l2 & l3 & l4 & rows & Hrel & H1 & H2 & H3 & H4 & Hrows) Hlen Hidx] Hn Hm Hn31 Hm31 HR HC.
  set (R := maxf (row_deg f m) n) in *. set (C := maxf (row_deg (flip f) n) m) in *.
  assert (HRm : R <= m) by (apply maxf_le; intros; apply row_deg_le).
  assert (HCn : C <= n) by (apply maxf_le; intros; apply row_deg_le).
  unfold read_format2.
  destruct (getline_split_ok ls rest l1 _ Hnl Hrel) as (p1 & ls1 & E1 & Hn1 & Hr1 & G1). rewrite G1. cbn [bind].
  destruct (at_2 l1 _ _ H1) as (L1 & A1 & B1); [lia|lia|]. rewrite L1, A1, B1. cbn [Nat.leb guard bind]. cbv zeta.
  rewrite (u32_id (Z.of_nat n)), (u32_id (Z.of_nat m)) by lia.
  destruct (Z.eqb_spec (Z.of_nat n) 0); [lia|]. destruct (Z.eqb_spec (Z.of_nat m) 0); [lia|]. cbn [orb negb guard bind].
  destruct (getline_split_ok ls1 rest l2 _ Hn1 Hr1) as (p2 & ls2 & E2 & Hn2 & Hr2 & G2). rewrite G2. cbn [bind].
  destruct (at_2 l2 _ _ H2) as (L2 & A2 & B2); [lia|lia|]. rewrite L2, A2, B2. cbn [Nat.leb guard bind].
  rewrite (u32_id (Z.of_nat R)), (u32_id (Z.of_nat C)) by lia.
  destruct (Z.eqb_spec (Z.of_nat R) 0); [lia|]. destruct (Z.eqb_spec (Z.of_nat C) 0); [lia|]. cbn [orb negb guard bind].
  rewrite !Nat2Z.id.
  destruct (getline_split_ok ls2 rest l3 _ Hn2 Hr2) as (p3 & ls3 & E3 & Hn3 & Hr3 & G3). rewrite G3. cbn [bind].
  assert (L3 : @length text (split l3) = n). { destruct (numbers_split _ _ H3) as [L _]. unfold text in *. rewrite L, map_length, seq_length. reflexivity. }
  rewrite L3, Nat.leb_refl. cbn [guard bind].
  match goal with |- context [for_ n ?body (repeat 0%Z n)] =>
    destruct (for_inv _ (fun i degs => length degs = n /\ forall k, k < i -> nth k degs 0%Z = Z.of_nat (row_deg f m k)) n body (repeat 0%Z n)) as (degs & Ed & Ld & Hdegs) end.
  { rewrite repeat_length. split; [reflexivity|intros k Hk; lia]. }
  { intros i dg Hi (Ldg & Hdg).
    assert (Hle : row_deg f m i <= R) by (apply (maxf_ge (row_deg f m) n i Hi)).
    rewrite (at_i_ok l3 _ i H3); [|rewrite map_length, seq_length; lia|rewrite nth_map_seq by lia; lia].
    rewrite nth_map_seq by lia. cbn [bind]. rewrite u32_id by lia.
    destruct (Z.leb_spec (Z.of_nat (row_deg f m i)) (Z.of_nat R)); [|lia]. cbn [guard bind]. rewrite wr_ok by lia.
    eexists. split; [reflexivity|]. rewrite length_upd. split; [exact Ldg|]. intros k Hk.
    destruct (Nat.eq_dec k i) as [-> | Hne]; [rewrite nth_upd_eq by lia; reflexivity|]. rewrite nth_upd_neq by lia. apply Hdg. lia. }
  rewrite Ed. cbn [bind].
  destruct (getline_split_ok ls3 rest l4 _ Hn3 Hr3) as (p4 & ls4 & E4 & Hn4 & Hr4 & G4). rewrite G4. cbn [bind].
  assert (L4 : @length text (split l4) = m). { destruct (numbers_split _ _ H4) as [L _]. unfold text in *. rewrite L, map_length, seq_length. reflexivity. }
  rewrite L4, Nat.leb_refl. cbn [guard bind].
  match goal with |- context [for_ m ?body tt] => destruct (for_inv _ (fun _ (_ : unit) => True) m body tt) as (u & Eu & _) end.
  { exact I. }
  { intros i u Hi _. assert (Hle : row_deg (flip f) n i <= C) by (apply (maxf_ge (row_deg (flip f) n) m i Hi)).
    rewrite (at_i_ok l4 _ i H4); [|rewrite map_length, seq_length; lia|rewrite nth_map_seq by lia; lia].
    rewrite nth_map_seq by lia. cbn [bind]. rewrite u32_id by lia.
    destruct (Z.leb_spec (Z.of_nat (row_deg (flip f) n i)) (Z.of_nat C)); [|lia]. exists tt. split; [reflexivity|exact I]. }
  rewrite Eu. cbn [bind].
  assert (Lrows : length rows = n) by (rewrite (Forall2_len _ _ _ _ _ Hrows); exact Hlen).
  assert (Hdl : forall r, r < n -> length (nth r ridx []) = row_deg f m r) by (intros r Hr; apply (deg_len f m r); apply (Hidx r Hr)).
  match goal with |- context [for_ n ?body (sp_new n m, ?s0)] =>
    destruct (for_inv _ (fun i '(M, s) => sp_ok M n m (partf ridx i 0) /\
       exists pre ls', s = open (lines ls' ++ rest) /\ ls4 = pre ++ ls' /\ Forall no_nl ls' /\ relevant ls' = skipn i rows ++ cols) n body (sp_new n m, s0)) as ([M' s'] & E & OkM & pre & ls' & Es & Els & _ & Hrel') end.
  { split; [apply (sp_ok_ext _ n m (fun _ _ => false)); [intros; symmetry; apply part_start|apply new_ok]|].
    exists [], ls4. repeat split; try reflexivity; assumption. }
  { intros r [M s] Hr (OkM & pre & ls' & -> & Els & Hnl' & Hrel').
    destruct (skipn r rows) as [|l rows'] eqn:Esk.
    { exfalso. apply (f_equal (@length _)) in Esk. rewrite skipn_length in Esk. cbn in Esk. lia. }
    assert (El : l = nth r rows []) by (rewrite <- (Nat.add_0_r r), <- (skipn_nth _ rows r 0), Esk; reflexivity).
    assert (Esk' : skipn (S r) rows = rows').
    { rewrite <- (skipn_1 _ r rows), Esk. reflexivity. }
    cbn [app] in Hrel'.
    destruct (getline_split_ok ls' rest l _ Hnl' Hrel') as (pr & lsn & El2 & Hnn & Hrn & G). rewrite G. cbn [bind].
    rewrite (rd_ok _ 0%Z degs r) by lia. cbn [bind]. rewrite Hdegs by exact Hr.
    assert (IL : index_line l (nth r ridx [])) by (rewrite El; apply (Forall2_nth_l _ _ _ _ _ r [] [] Hrows); lia).
    destruct IL as (pad & IL). destruct (numbers_split _ _ IL) as [LL _]. rewrite app_length, map_length, repeat_length, (Hdl r Hr) in LL.
    destruct (Z.leb_spec (Z.of_nat (row_deg f m r)) (Z.of_nat (@length text (split l)))) as [_|Hbad]; [|exfalso; unfold text in *; lia]. cbn [guard bind].
    destruct (Hidx r Hr) as [Hnd Hin].
    destruct (row2_ok M n m ridx r l pad R (Z.of_nat (row_deg f m r)) OkM Hr IL Hnd (fun c Hc => proj1 (proj1 (Hin c) Hc)) Hm31) as (M2 & EM & OkM2).
    { rewrite (Hdl r Hr). reflexivity. }
    { rewrite (Hdl r Hr). apply (maxf_ge (row_deg f m) n r Hr). }
    rewrite EM. cbn [bind]. eexists. split; [reflexivity|]. cbv beta iota. split; [exact OkM2|].
    exists (pre ++ pr ++ [l]), lsn. split; [reflexivity|]. split; [rewrite Els, El2, <- !app_assoc; reflexivity|]. split; [exact Hnn|]. rewrite Esk'. exact Hrn. }
  rewrite E. subst s'. exists M', (p1 ++ l1 :: p2 ++ l2 :: p3 ++ l3 :: p4 ++ l4 :: pre), ls'. split; [reflexivity|]. split.
  - apply (part_done M' n m ridx f OkM). intros r Hr. apply (Hidx r Hr).
  - split; [|rewrite skipn_all2 in Hrel' by lia; exact Hrel'].
    rewrite E1, E2, E3, E4, Els. repeat (rewrite <- ?app_assoc; cbn [app]). reflexivity.
Qed.

(* ------------------------------------------------------------------ *)
(** * First format: a sequence of numbers *)

Definition row_toks (idx : list nat) (pad : nat) : list Z := map (fun x => Z.of_nat x + 1)%Z idx ++ repeat 0%Z pad.

Lemma row_toks_len : forall idx pad, length (row_toks idx pad) = length idx + pad.
Proof. intros. unfold row_toks. rewrite app_length, map_length, repeat_length. reflexivity. Qed.

Lemma row_toks_nth : forall idx pad j, nth j (row_toks idx pad) 0%Z = (if (j <? length idx)%nat then Z.of_nat (nth j idx 0%nat) + 1 else 0)%Z.
Proof.
  intros. unfold row_toks. rewrite nth_app_zeros. destruct (Nat.ltb_spec j (length idx)).
  - rewrite (nth_indep _ 0%Z (Z.of_nat 0 + 1)%Z) by (rewrite map_length; lia). apply (map_nth (fun x => Z.of_nat x + 1)%Z).
  - apply nth_overflow. rewrite map_length. lia.
Qed.

Lemma skipn_cons : forall A (l : list A) k d, k < length l -> skipn k l = nth k l d :: skipn (S k) l.
Proof. intros A. induction l as [|x l IH]; intros k d H; [cbn in H; lia|]. destruct k; [reflexivity|]. cbn [skipn nth]. rewrite (IH k d) by (cbn in H; lia). reflexivity. Qed.

Section Format1.
Variables (b : bool) (K : stream -> Prop) (n m : nat) (f : nat -> nat -> bool) (ridx : list (list nat)) (pads : list nat) (ctoks : list Z).
Let R := maxf (row_deg f m) n.
Let C := maxf (row_deg (flip f) n) m.
Let KK := fun s => K s /\ src b (fun _ => True) s ctoks.
Let toks (r : nat) := row_toks (nth r ridx []) (nth r pads 0).
Hypothesis Hn : 0 < n.
Hypothesis Hlen : length ridx = n.
Hypothesis Hidx : forall r, r < n -> NoDup (nth r ridx []) /\ forall c, In c (nth r ridx []) <-> c < m /\ f r c = true.
Hypothesis Hct : (forall c, c < m -> 0 < row_deg (flip f) n c) -> exists z t, ctoks = z :: t /\ (0 < z)%Z.

Lemma get_failed : forall s, s_fail s = true -> exists s', get_unsigned 0 s = (0%Z, s') /\ s_fail s' = true.
Proof. intros s H. apply (get_fail 0 s H). Qed.

Lemma len_idx : forall r, r < n -> length (nth r ridx []) = row_deg f m r.
Proof. intros r Hr. apply (deg_len f m r); apply (Hidx r Hr). Qed.

Lemma later_pos : forall r s, (forall r, r < n -> 0 < row_deg f m r) -> (forall c, c < m -> 0 < row_deg (flip f) n c) -> r <= n ->
  src b KK s (concat (map toks (seq r (n - r)))) -> exists x s', get_unsigned 0 s = (x, s') /\ ((0 < x)%Z \/ (b = true /\ x = 0%Z /\ s_fail s' = true)).
Proof.
  intros r s Hr Hc Hrn H. assert (G : exists z t K', src b K' s (z :: t) /\ (0 < z)%Z).
  { destruct (Nat.eq_dec r n) as [-> | Hne].
    - rewrite Nat.sub_diag in H. apply src_inv_nil in H. destruct H as [_ H]. destruct (Hct Hc) as (z & t & Ez & Hz).
      rewrite Ez in H. exists z, t, (fun _ => True). auto.
    - replace (n - r) with (S (n - S r)) in H by lia. cbn [seq map concat] in H.
      assert (Hpos := Hr r ltac:(lia)). rewrite <- len_idx in Hpos by lia. unfold toks at 1, row_toks in H.
      destruct (nth r ridx []) as [|x idx]; [cbn in Hpos; lia|]. cbn [map app] in H. eexists _, _, _. split; [exact H|]. lia. }
  destruct G as (z & t & K' & G & Hz). destruct (src_inv b K' s z t G) as (x & s' & E & [[-> _]|D]); exists x, s' || exists z, s'; auto.
Qed.

Lemma format1_row : forall r M s degs, r < n -> nth r degs 0%Z = Z.of_nat (row_deg f m r) -> r < length degs ->
  (forall r, r < n -> 0 < row_deg f m r) -> (forall c, c < m -> 0 < row_deg (flip f) n c) ->
  sp_ok M n m (partf ridx r 0) ->
  ((b = true /\ s_fail s = true) \/ exists extra, src b KK s (repeat 0%Z extra ++ concat (map toks (seq r (n - r)))) /\ (0 < extra -> exists q, q < n /\ R < length (toks q))) ->
  safe (fun '(M, s) => sp_ok M n m (partf ridx (S r) 0) /\
    ((b = true /\ s_fail s = true) \/ exists extra, src b KK s (repeat 0%Z extra ++ concat (map toks (seq (S r) (n - S r)))) /\ (0 < extra -> exists q, q < n /\ R < length (toks q))))
  (for_ (Z.to_nat (Z.of_nat R)) (fun j '(M, s) =>
      let '(c, s) := get_unsigned 0 s in
      d <- rd degs r ;;
      if (((0 <? c) && (Z.of_nat j <? d)) || ((c =? 0) && (d <=? Z.of_nat j)))%Z then
        M <- (if (c =? 0)%Z then Ret M else sp_add M r (Z.to_nat (c - 1))) ;; Ret (M, s)
      else Throws) (M, s)).
Proof.
  intros r M s degs Hr Hdeg Hdl Hrp Hcp Ok Hs. rewrite Nat2Z.id.
  set (row := nth r ridx []) in *. set (L := row_deg f m r). assert (HL : length row = L) by (apply len_idx; exact Hr).
  assert (HLR : L <= R) by (apply (maxf_ge (row_deg f m) n r Hr)). assert (HL0 : 0 < L) by (apply Hrp; exact Hr).
  destruct (Hidx r Hr) as [Hnd Hin].
  set (Inv := fun j (st : sparse * stream) => let '(M, s) := st in sp_ok M n m (partf ridx r j) /\
     ((b = true /\ s_fail s = true) \/ (j = 0 /\ exists extra, 0 < extra /\ src b KK s (repeat 0%Z extra ++ concat (map toks (seq r (n - r))))) \/
      (j <= length (toks r) /\ src b KK s (skipn j (toks r) ++ concat (map toks (seq (S r) (n - S r))))))).
  apply safe_weaken with (P := Inv R).
  { intros [M' s'] [Ok' H]. split; [apply (sp_ok_ext M' n m (partf ridx r R)); [intros; apply part_next; fold row; lia|exact Ok']|].
    destruct H as [H|[[H _]|[H1 H2]]]; [left; exact H|lia|]. right.
    exists (length (toks r) - R).
    replace (repeat 0%Z (length (toks r) - R)) with (skipn R (toks r)).
    - split; [exact H2|]. intros Hx. exists r. split; [exact Hr|lia].
    - apply (list_eq_nth _ 0%Z); [rewrite skipn_length, repeat_length; reflexivity|].
      intros i Hi. rewrite skipn_nth. unfold toks at 1. rewrite row_toks_nth. fold row.
      destruct (Nat.ltb_spec (R + i) (length row)); [lia|]. rewrite nth_repeat. reflexivity. }
  apply safe_for.
  - split; [exact Ok|]. destruct Hs as [Hs|(extra & Hs & _)]; [left; exact Hs|]. right.
    destruct extra as [|extra]; [|left; split; [reflexivity|]; exists (S extra); split; [lia|exact Hs]].
    right. split; [lia|]. cbn [skipn repeat app] in *. replace (n - r) with (S (n - S r)) in Hs by lia. exact Hs.
  - intros j [M' s'] Hj [Ok' H].
    assert (G : exists x s2, get_unsigned 0 s' = (x, s2) /\
       ((j < L /\ x = (Z.of_nat (nth j row 0%nat) + 1)%Z /\ j < length (toks r) /\ src b KK s2 (skipn (S j) (toks r) ++ concat (map toks (seq (S r) (n - S r))))) \/
        (L <= j /\ x = 0%Z /\ j < length (toks r) /\ src b KK s2 (skipn (S j) (toks r) ++ concat (map toks (seq (S r) (n - S r))))) \/
        (L <= j /\ x = 0%Z /\ b = true /\ s_fail s2 = true) \/ (j < L /\ x = 0%Z) \/ (L <= j /\ (0 < x)%Z))).
    { destruct H as [[Hb H]|[(-> & extra & He & H)|[H1 H2]]].
      - destruct (get_failed s' H) as (s2 & E & F). exists 0%Z, s2. split; [exact E|]. destruct (Nat.lt_ge_cases j L); auto 7.
      - destruct extra as [|extra]; [lia|]. cbn [repeat app] in H. destruct (src_inv _ _ _ _ _ H) as (x & s2 & E & [[-> _]|(_ & -> & _)]); exists 0%Z, s2; (split; [exact E|auto 7]).
      - destruct (Nat.eq_dec j (length (toks r))) as [Ej|Hne].
        + rewrite skipn_all2 in H2 by lia. cbn [app] in H2. destruct (later_pos (S r) s' Hrp Hcp ltac:(lia) H2) as (x & s2 & E & D).
          exists x, s2. split; [exact E|]. assert (L <= j) by (rewrite Ej; unfold toks; rewrite row_toks_len; fold row; lia).
          destruct D as [D|(D1 & D2 & D3)]; [right; right; right; right; split; [lia|exact D]|auto 7].
        + rewrite (skipn_cons _ (toks r) j 0%Z) in H2 by lia. cbn [app] in H2. unfold toks at 1 in H2. rewrite row_toks_nth in H2. fold row in H2. rewrite HL in H2.
          destruct (src_inv _ _ _ _ _ H2) as (x & s2 & E & [[-> D]|(D1 & -> & D3)]); eexists _, s2; (split; [exact E|]).
          * destruct (Nat.ltb_spec j L); [left|right; left]; (split; [assumption|split; [reflexivity|split; [lia|exact D]]]).
          * destruct (Nat.lt_ge_cases j L); auto 8. }
    destruct G as (x & s2 & E & G). rewrite E. rewrite (rd_ok _ 0%Z degs r Hdl). cbn [bind]. rewrite Hdeg. fold L.
    destruct G as [(G1 & -> & G3 & G4)|[(G1 & -> & G3 & G4)|[(G1 & -> & G3 & G4)|[(G1 & ->)|(G1 & G2)]]]].
    + destruct (Z.ltb_spec 0 (Z.of_nat (nth j row 0%nat) + 1)); [|lia]. destruct (Z.ltb_spec (Z.of_nat j) (Z.of_nat L)); [|lia]. cbn [andb orb].
      destruct (Z.eqb_spec (Z.of_nat (nth j row 0%nat) + 1) 0); [lia|].
      replace (Z.of_nat (nth j row 0%nat) + 1 - 1)%Z with (Z.of_nat (nth j row 0%nat)) by lia. rewrite Nat2Z.id.
      destruct (part_step M' n m ridx r j Ok' Hr Hnd (fun c Hc => proj1 (proj1 (Hin c) Hc))) as (N & EN & OkN); [fold row; lia|].
      fold row in EN. rewrite EN. cbn [bind safe]. split; [exact OkN|]. right. right. split; [lia|exact G4].
    + destruct (Z.leb_spec (Z.of_nat L) (Z.of_nat j)); [|lia]. replace ((0 <? 0)%Z) with false by reflexivity. replace ((0 =? 0)%Z) with true by reflexivity. cbn [andb orb bind safe].
      split; [|right; right; split; [lia|exact G4]]. apply (sp_ok_ext M' n m (partf ridx r j)); [|exact Ok'].
      intros p q _ _. unfold partf. fold row. rewrite !firstn_all2 by lia. reflexivity.
    + destruct (Z.leb_spec (Z.of_nat L) (Z.of_nat j)); [|lia]. replace ((0 <? 0)%Z) with false by reflexivity. replace ((0 =? 0)%Z) with true by reflexivity. cbn [andb orb bind safe].
      split; [|left; auto]. apply (sp_ok_ext M' n m (partf ridx r j)); [|exact Ok'].
      intros p q _ _. unfold partf. fold row. rewrite !firstn_all2 by lia. reflexivity.
    + destruct (Z.leb_spec (Z.of_nat L) (Z.of_nat j)); [lia|]. replace ((0 <? 0)%Z) with false by reflexivity. cbn [andb orb]. rewrite andb_false_r. exact I.
    + destruct (Z.ltb_spec (Z.of_nat j) (Z.of_nat L)); [lia|]. destruct (Z.eqb_spec x 0); [lia|]. rewrite andb_false_r. exact I.
Qed.

Lemma degree_safe : forall mx s d zs K', src b K' s (Z.of_nat d :: zs) -> d <= mx ->
  safe (fun '(x, s') => x = Z.of_nat d /\ 0 < d /\ src b K' s' zs) (get_degree (Z.of_nat mx) s).
Proof.
  intros mx s d zs K' H Hd. unfold get_degree. destruct (src_inv _ _ _ _ _ H) as (x & s' & E & [[-> D]|(_ & -> & _)]); rewrite E.
  - destruct (Z.eqb_spec (Z.of_nat d) 0); [exact I|]. destruct (Z.leb_spec (Z.of_nat d) (Z.of_nat mx)); [|lia]. cbn [negb andb guard bind safe]. repeat split; [lia|exact D].
  - exact I.
Qed.

Lemma format1_safe : forall s, 0 < m ->
  src b KK s ([Z.of_nat n; Z.of_nat m; Z.of_nat R; Z.of_nat C] ++ map (fun r => Z.of_nat (row_deg f m r)) (seq 0 n) ++ map (fun c => Z.of_nat (row_deg (flip f) n c)) (seq 0 m) ++ concat (map toks (seq 0 n))) ->
  safe (fun '(M, s) => sp_ok M n m f /\ (b = false -> (forall r, r < n -> length (toks r) <= R) -> K s)) (read_format1 s).
Proof.
  intros s Hm H. unfold read_format1. cbn [app] in H.
  destruct (src_inv _ _ _ _ _ H) as (x1 & s1 & E1 & D1). rewrite E1.
  destruct D1 as [[-> H1]|(_ & -> & F1)].
  2:{ destruct (get_failed s1 F1) as (s2 & E2 & F2). rewrite E2. destruct (get_failed s2 F2) as (s3 & E3 & F3). rewrite E3. destruct (get_failed s3 F3) as (s4 & E4 & F4). rewrite E4. exact I. }
  destruct (src_inv _ _ _ _ _ H1) as (x2 & s2 & E2 & D2). rewrite E2.
  destruct D2 as [[-> H2]|(_ & -> & F2)].
  2:{ destruct (get_failed s2 F2) as (s3 & E3 & F3). rewrite E3. destruct (get_failed s3 F3) as (s4 & E4 & F4). rewrite E4. rewrite andb_false_r. exact I. }
  destruct (src_inv _ _ _ _ _ H2) as (x3 & s3 & E3 & D3). rewrite E3.
  destruct D3 as [[-> H3]|(_ & -> & F3)].
  2:{ destruct (get_failed s3 F3) as (s4 & E4 & F4). rewrite E4. rewrite andb_false_r. exact I. }
  destruct (src_inv _ _ _ _ _ H3) as (x4 & s4 & E4 & D4). rewrite E4.
  destruct D4 as [[-> H4]|(_ & -> & F4)]. 2:{ rewrite andb_false_r. exact I. }
  match goal with |- safe _ (' _ <- guard ?g ;; _) => destruct g end; [|exact I]. cbn [guard bind]. rewrite !(Nat2Z.id n), !(Nat2Z.id m).
  set (T := concat (map toks (seq 0 n))) in *. set (cd := map (fun c => Z.of_nat (row_deg (flip f) n c)) (seq 0 m)) in *.
  set (rdg := map (fun r => Z.of_nat (row_deg f m r)) (seq 0 n)) in *.
  apply safe_bind with (P := fun '(degs, s) => length degs = n /\ (forall k, k < n -> nth k degs 0%Z = Z.of_nat (row_deg f m k) /\ 0 < row_deg f m k) /\ src b KK s (cd ++ T)).
  { apply safe_weaken with (P := fun '(degs, s) => length degs = n /\ (forall k, k < n -> nth k degs 0%Z = Z.of_nat (row_deg f m k) /\ 0 < row_deg f m k) /\ src b KK s (skipn n rdg ++ cd ++ T)).
    { intros [degs s'] (A & B & Hs). rewrite skipn_all2 in Hs by (unfold rdg; rewrite map_length, seq_length; lia). auto. }
    apply (safe_for _ (fun i '(degs, s) => length degs = n /\ (forall k, k < i -> nth k degs 0%Z = Z.of_nat (row_deg f m k) /\ 0 < row_deg f m k) /\ src b KK s (skipn i rdg ++ cd ++ T))).
    - rewrite repeat_length. split; [reflexivity|]. split; [intros; lia|exact H4].
    - intros i [degs s'] Hi (A & B & Hs).
      rewrite (skipn_cons _ rdg i 0%Z) in Hs by (unfold rdg; rewrite map_length, seq_length; lia). unfold rdg at 1 in Hs. rewrite nth_map_seq in Hs by lia. cbn [app] in Hs.
      eapply safe_bind; [apply (degree_safe R _ _ _ _ Hs), (maxf_ge (row_deg f m) n i Hi)|]. intros [x s''] (-> & Hpos & Hs').
      rewrite wr_ok by lia. cbn [bind safe]. rewrite length_upd. split; [exact A|]. split; [|exact Hs'].
      intros k Hk. destruct (Nat.eq_dec k i) as [-> | Hne]; [rewrite nth_upd_eq by lia; auto|]. rewrite nth_upd_neq by lia. apply B. lia. }
  intros [degs s5] (Ld & Hd & H5).
  apply safe_bind with (P := fun s => (forall k, k < m -> 0 < row_deg (flip f) n k) /\ src b KK s T).
  { apply safe_weaken with (P := fun s => (forall k, k < m -> 0 < row_deg (flip f) n k) /\ src b KK s (skipn m cd ++ T)).
    { intros s' (B & Hs). rewrite skipn_all2 in Hs by (unfold cd; rewrite map_length, seq_length; lia). auto. }
    apply (safe_for _ (fun i s => (forall k, k < i -> 0 < row_deg (flip f) n k) /\ src b KK s (skipn i cd ++ T))).
    - split; [intros; lia|exact H5].
    - intros i s' Hi (B & Hs).
      rewrite (skipn_cons _ cd i 0%Z) in Hs by (unfold cd; rewrite map_length, seq_length; lia). unfold cd at 1 in Hs. rewrite nth_map_seq in Hs by lia. cbn [app] in Hs.
      eapply safe_bind; [apply (degree_safe C _ _ _ _ Hs), (maxf_ge (row_deg (flip f) n) m i Hi)|]. intros [x s''] (-> & Hpos & Hs').
      cbn [safe]. split; [|exact Hs']. intros k Hk. destruct (Nat.eq_dec k i) as [-> | Hne]; [exact Hpos|]. apply B. lia. }
  intros s6 (Hcp & H6).
  assert (Hrp : forall r, r < n -> 0 < row_deg f m r) by (intros r Hr; apply (Hd r Hr)).
  set (Inv := fun r (st : sparse * stream) => let '(M, s) := st in sp_ok M n m (partf ridx r 0) /\
    ((b = true /\ s_fail s = true) \/ exists extra, src b KK s (repeat 0%Z extra ++ concat (map toks (seq r (n - r)))) /\ (0 < extra -> exists q, q < n /\ R < length (toks q)))).
  apply safe_weaken with (P := Inv n).
  { intros [M' s'] [Ok Hs]. split; [apply (part_done M' n m ridx f Ok); intros r Hr; apply (Hidx r Hr)|].
    intros Hb Hle. destruct Hs as [[Hb' _]|(extra & Hs & Hx)]; [congruence|].
    destruct extra as [|extra]; [|exfalso; destruct (Hx ltac:(lia)) as (q & Hq & Hq'); specialize (Hle q Hq); lia].
    rewrite Nat.sub_diag in Hs. cbn in Hs. apply src_inv_nil in Hs. apply Hs. }
  apply safe_for.
  - split; [apply (sp_ok_ext _ n m (fun _ _ => false)); [intros; symmetry; apply part_start|apply new_ok]|].
    right. exists 0. rewrite Nat.sub_0_r. split; [exact H6|lia].
  - intros r [M' s'] Hr [Ok Hs]. apply (format1_row r M' s' degs Hr); try assumption; [apply (Hd r Hr)|lia].
Qed.
End Format1.
