(** C32 and C33: files of LDPC matrices. *)
From Coq Require Import List Arith Lia Bool ZArith Ascii String.
From Verif Require Import Base Copy GaloisModel SparseModel SparseSpec SparseProofs DVBS2Proofs AListModel AListSpec TextProofs AListProofs AListFile QCProofs.
Import ListNotations.
Local Notation length := List.length.
Local Open Scope list_scope.

Lemma format_of : forall ls rest l more zs, Forall no_nl ls -> relevant ls = l :: more -> numbers l zs ->
  exists s, getline_split (open (lines ls ++ rest)) = Ret (split l, s) /\ length (split l) = length zs /\ seek0 (lines ls ++ rest) s = open (lines ls ++ rest).
Proof.
  intros ls rest l more zs Hn Hr Hl. destruct (getline_split_ok ls rest l more Hn Hr) as (p & ls' & E & Hn' & Hr' & G). exists (open (lines ls' ++ rest)).
  split; [exact G|]. split; [apply (numbers_split _ _ Hl)|]. reflexivity.
Qed.

(* ------------------------------------------------------------------ *)
(** * C32: QC matrices *)

(** The sizes accepted: positive, and those of the expanded matrix fit 32 bits. *)
Definition qc_sizes (n m z : nat) : Prop := 0 < n /\ 0 < m /\ 0 < z /\
  (Z.of_nat n < 2 ^ 31)%Z /\ (Z.of_nat m < 2 ^ 31)%Z /\ (Z.of_nat z < 2 ^ 31)%Z /\ (Z.of_nat n * Z.of_nat z < 2 ^ 32)%Z /\ (Z.of_nat m * Z.of_nat z < 2 ^ 32)%Z.
Definition qc_entries (n m : nat) (base : list (list Z)) : Prop := forall i j, i < m -> j < n -> (-1 <= base_at base i j < 2 ^ 15)%Z.

(** Reading a QC file gives the n z x m z matrix whose block of (column j, row i) is the identity shifted by the entry, or zero. *)
Theorem C32_expand : forall t n m z base, qc_file t n m z base -> qc_sizes n m z -> qc_entries n m base ->
  exists M, handler_read_matrix t = Ret M /\ sp_is M (n * z) (m * z) (qc_expand z base).
Proof.
  intros t n m z base (ls & rest & hd & rows & -> & Hnl & Hrel & Hhd & Lb & Hrows) (Z1 & Z2 & Z3 & Z4 & Z5 & Z6 & Z7 & Z8) Hr.
  destruct (format_of ls rest hd rows _ Hnl Hrel Hhd) as (s & G & L & Sk).
  unfold handler_read_matrix, get_format. rewrite G. cbn [bind]. unfold text in *. rewrite L. cbn [length Nat.eqb bind]. unfold text in *. rewrite Sk. cbv zeta.
  destruct (qc_read_ok n m z base Z1 Z2 Z3 Z7 Z8 Z6 Hr ls rest hd rows [] Hnl) as (M & ls' & E & Ok & _ & _); try assumption.
  { rewrite app_nil_r. exact Hrel. }
  unfold text in *. rewrite E. cbn [bind]. exists M. split; [reflexivity|]. apply sp_is_ok. exact Ok.
Qed.

Lemma filter_sum : forall A (p : A -> bool) l, length (filter p l) = list_sum (map (fun x => if p x then 1 else 0) l).
Proof. intros A p. induction l as [|x l IH]; [reflexivity|]. cbn [filter map list_sum fold_right]. destruct (p x); cbn [length]; unfold list_sum in IH; rewrite IH; lia. Qed.

Lemma one_of : forall k z, k < z -> length (filter (fun v => v =? k) (seq 0 z)) = 1.
Proof.
  intros k z H. replace z with (k + (1 + (z - k - 1))) by lia. rewrite !seq_app, !filter_app, !app_length. cbn [seq filter]. rewrite Nat.eqb_refl.
  assert (X : forall a b, (forall x, a <= x < a + b -> x <> k) -> filter (fun v => v =? k) (seq a b) = []).
  { intros a b Hx. assert (Y : forall x, In x (filter (fun v => v =? k) (seq a b)) -> False).
    { intros x Hi. apply filter_In in Hi. destruct Hi as [Hi E]. apply in_seq in Hi. apply Nat.eqb_eq in E. apply (Hx x Hi E). }
    destruct (filter (fun v => v =? k) (seq a b)); [reflexivity|]. exfalso. apply (Y n). left. reflexivity. }
  rewrite !X by (intros; lia). reflexivity.
Qed.

(** Number of ones of a check: the number of entries of its row of the base matrix that are not -1. *)
Theorem C32_degrees : forall n z base c, 0 < z ->
  col_deg (qc_expand z base) (n * z) c = length (filter (fun j => negb (base_at base (c / z) j =? -1)%Z) (seq 0 n)).
Proof.
  intros n z base c Hz. unfold col_deg. induction n as [|n IH]; [reflexivity|].
  replace (S n * z) with (n * z + z) by lia. rewrite seq_app, filter_app, app_length, IH. rewrite seq_S, filter_app, app_length. f_equal.
  cbn [filter Nat.add]. set (a := base_at base (c / z) n).
  assert (E : filter (fun r => qc_expand z base r c) (seq (n * z) z) = filter (fun v => negb (a =? -1)%Z && (v mod z =? (c mod z + Z.to_nat a) mod z)) (seq (n * z) z)).
  { apply filter_ext_in. intros v Hv. apply in_seq in Hv. unfold qc_expand. replace (v / z) with n; [reflexivity|].
    apply (Nat.div_unique v z n (v - n * z)); lia. }
  rewrite E. destruct (a =? -1)%Z; cbn [negb andb].
  - clear. induction (seq (n * z) z) as [|x l IH]; [reflexivity|exact IH].
  - assert (E2 : seq (n * z) z = map (fun v => n * z + v) (seq 0 z)).
    { clear. generalize (n * z). intros b. rewrite <- (Nat.add_0_r b) at 1. generalize 0 as s. induction z as [|z IH]; intros s; [reflexivity|]. cbn [seq map]. f_equal. rewrite <- IH. f_equal. lia. }
    rewrite E2. rewrite filter_sum, map_map, <- (map_ext_in (fun v => if v =? (c mod z + Z.to_nat a) mod z then 1 else 0)).
    + rewrite <- filter_sum. apply one_of. apply Nat.mod_upper_bound. lia.
    + intros v Hv. apply in_seq in Hv. rewrite (proj2 (divz 1 1 z Nat.lt_0_1 Nat.lt_0_1 Hz n v ltac:(lia))). reflexivity.
Qed.

Lemma each_bits : forall ws zs acc, Forall2 decimal ws zs -> (forall v, In v zs -> (- 2 ^ 31 <= v < 2 ^ 31)%Z) ->
  each ws (fun w p => v <- stoi w ;; Ret (p ++ [negb (v =? 0)%Z])) acc = Ret (acc ++ map (fun v => negb (v =? 0)%Z) zs).
Proof.
  intros ws zs acc H. revert acc. induction H as [|w v ws zs D H IH]; intros acc B; cbn [each map].
  - rewrite app_nil_r. reflexivity.
  - rewrite (stoi_decimal w v D) by (apply B; left; reflexivity). cbn [bind]. rewrite IH by (intros; apply B; right; assumption). rewrite <- app_assoc. reflexivity.
Qed.

(** With a line of numbers after the base matrix: the puncturing pattern, true where the number is not zero. *)
Theorem C32_pattern : forall ls rest hd rows pl pv n m z base, Forall no_nl ls -> relevant ls = hd :: rows ++ [pl] ->
  numbers hd [Z.of_nat n; Z.of_nat m; Z.of_nat z] -> length base = m -> Forall2 (fun l row => length row = n /\ numbers l row) rows base ->
  numbers pl pv -> (forall v, In v pv -> (- 2 ^ 31 <= v < 2 ^ 31)%Z) -> qc_sizes n m z -> qc_entries n m base ->
  exists M, handler_read (lines ls ++ rest) = Ret (M, [], map (fun v => negb (v =? 0)%Z) pv) /\ sp_is M (n * z) (m * z) (qc_expand z base).
Proof.
  intros ls rest hd rows pl pv n m z base Hnl Hrel Hhd Lb Hrows Hpl Bpv (Z1 & Z2 & Z3 & Z4 & Z5 & Z6 & Z7 & Z8) Hr.
  destruct (format_of ls rest hd _ _ Hnl Hrel Hhd) as (s & G & L & Sk).
  unfold handler_read, get_format. rewrite G. cbn [bind]. unfold text in *. rewrite L. cbn [length Nat.eqb bind]. unfold text in *. rewrite Sk. cbv zeta.
  destruct (qc_read_ok n m z base Z1 Z2 Z3 Z7 Z8 Z6 Hr ls rest hd rows [pl] Hnl) as (M & ls' & E & Ok & Hn' & Hr'); try assumption.
  unfold text in *. rewrite E. cbn [bind]. unfold qc_read_pct.
  destruct (getline_split_ok ls' rest pl [] Hn' Hr') as (p & ls2 & E2 & Hn2 & Hr2 & G2). unfold text in *. rewrite G2. cbn [bind].
  rewrite Z.eqb_refl. cbn [negb]. rewrite andb_false_r. cbn [negb guard bind].
  destruct (numbers_split _ _ Hpl) as [_ D]. rewrite (each_bits _ _ _ D Bpv). cbn [bind app]. exists M. split; [reflexivity|]. apply sp_is_ok. exact Ok.
Qed.

Lemma cast_id : forall v, (0 <= v < 2 ^ 31)%Z -> cast 32 v = v.
Proof. intros v H. unfold cast. change (2 ^ (32 - 1))%Z with (2 ^ 31)%Z. rewrite Z.mod_small; lia. Qed.

(** The size announced (checks, variables) is the size of the expanded matrix. *)
Theorem C32_size : forall t n m z base, qc_file t n m z base -> qc_sizes n m z -> (Z.of_nat n * Z.of_nat z < 2 ^ 31)%Z -> (Z.of_nat m * Z.of_nat z < 2 ^ 31)%Z ->
  handler_size t = Ret (Z.of_nat (m * z), Z.of_nat (n * z)).
Proof.
  intros t n m z base (ls & rest & hd & rows & -> & Hnl & Hrel & Hhd & Lb & Hrows) (Z1 & Z2 & Z3 & Z4 & Z5 & Z6 & Z7 & Z8) B1 B2.
  destruct (format_of ls rest hd rows _ Hnl Hrel Hhd) as (s & G & L & Sk).
  unfold handler_size, get_format. rewrite G. cbn [bind]. unfold text in *. rewrite L. cbn [length Nat.eqb bind]. unfold text in *. rewrite Sk. cbv zeta.
  unfold qc_size. unfold text in *. rewrite G. cbn [bind].
  destruct (at_3 hd _ _ _ Hhd) as (L1 & A1 & A2 & A3); [lia|lia|lia|]. unfold text in *. rewrite L1, A1, A2, A3. cbn [Nat.leb guard bind]. cbv zeta.
  rewrite (u32_id (Z.of_nat n)), (u32_id (Z.of_nat m)), (u32_id (Z.of_nat z)) by lia.
  destruct (Z.eqb_spec (Z.of_nat n) 0); [lia|]. destruct (Z.eqb_spec (Z.of_nat m) 0); [lia|]. destruct (Z.eqb_spec (Z.of_nat z) 0); [lia|]. cbn [orb negb guard bind].
  rewrite !u32_id by lia. rewrite !cast_id by lia. f_equal. f_equal; lia.
Qed.

Definition str (s : string) : text := list_ascii_of_string s.
Definition rows_of (M : outcome sparse) : list (list nat) := match M with Ret M => sp_r2c M | _ => [] end.

(** A negative entry other than -1 is neither refused nor a zero block nor a shifted identity: with -2, the unsigned sum k + a wraps around within the block. *)
Theorem C32_negative_refuted : exists M, handler_read_matrix (lines [str "1 1 3"; str "-2"]) = Ret M /\ sp_r2c M = [[1; 2]; []; [0]].
Proof. eexists. split; vm_compute; reflexivity. Qed.

(** Entries are kept on 16 bits: 65535 gives a zero block, and not the identity shifted by 65535 mod 2 = 1. *)
Theorem C32_truncated_refuted : exists M, handler_read_matrix (lines [str "1 1 2"; str "65535"]) = Ret M /\ sp_r2c M = [[]; []] /\ qc_expand 2 [[65535]]%Z 1 0 = true.
Proof. eexists. split; [vm_compute; reflexivity|]. split; vm_compute; reflexivity. Qed.

(** A file with comments, blank lines, a shift and a zero block. *)

Definition qc_ex : text := lines [str "# base"; str "2 1 3"; str ""; str "1 -1"].
Example C32_example : exists M, handler_read_matrix qc_ex = Ret M /\ sp_is M 6 3 (qc_expand 3 [[1; -1]]%Z) /\ qc_expand 3 [[1; -1]]%Z 1 0 = true /\ qc_expand 3 [[1; -1]]%Z 3 0 = false.
Proof.
  destruct (C32_expand qc_ex 2 1 3 [[1; -1]]%Z) as (M & E & S).
  - exists [str "# base"; str "2 1 3"; str ""; str "1 -1"], [], (str "2 1 3"), [str "1 -1"]. split; [rewrite app_nil_r; reflexivity|].
    assert (D : forall s z, digits (str s) -> z = value (str s) -> decimal (str s) z) by (intros; left; auto).
    assert (W1 : forall c : ascii, is_space c = false -> word [c]) by (intros c Hc; split; [discriminate|intros x [<-|[]]; exact Hc]).
    split; [|split; [reflexivity|split; [|split; [reflexivity|]]]].
    + repeat constructor; intros H; vm_compute in H; repeat (destruct H as [H|H]; [discriminate|]); contradiction.
    + exists [str "2"; str "1"; str "3"]. split.
      * apply (hw_cons [] (str "2") sp (str "1 3")); [reflexivity|apply W1; reflexivity|reflexivity|].
        apply (hw_cons [] (str "1") sp (str "3")); [reflexivity|apply W1; reflexivity|reflexivity|]. apply (hw_last [] (str "3")); [reflexivity|apply W1; reflexivity].
      * repeat (apply Forall2_cons || apply Forall2_nil); left; (split; [split; [discriminate|intros x [<-|[]]; reflexivity]|reflexivity]).
    + constructor; [|constructor]. split; [reflexivity|]. exists [str "1"; str "-1"]. split.
      * apply (hw_cons [] (str "1") sp (str "-1")); [reflexivity|apply W1; reflexivity|reflexivity|]. apply (hw_last [] (str "-1")); [reflexivity|].
        split; [discriminate|]. intros x [<-|[<-|[]]]; reflexivity.
      * constructor; [left; split; [split; [discriminate|intros x [<-|[]]; reflexivity]|reflexivity]|]. constructor; [|constructor]. right. exists (str "1").
        split; [reflexivity|]. split; [split; [discriminate|intros x [<-|[]]; reflexivity]|reflexivity].
  - repeat split; lia.
  - intros [|i] [|[|j]] Hi Hj; cbn; lia.
  - exists M. split; [exact E|]. split; [exact S|]. split; reflexivity.
Qed.

(* ------------------------------------------------------------------ *)
(** * C33: AList matrices *)

(** Any AList file of a matrix with a one is read as this matrix. *)
Theorem C33_read : forall t n m f, alist_file t n m f -> (Z.of_nat n < 2 ^ 31)%Z -> (Z.of_nat m < 2 ^ 31)%Z -> (exists r c, r < n /\ c < m /\ f r c = true) ->
  exists M, handler_read_matrix t = Ret M /\ sp_is M n m f.
Proof.
  intros t n m f F Hn Hm H1. destruct (alist_read_file t n m f F Hn Hm H1) as (M & s' & E & Ok).
  destruct F as (ls & rest & l1 & l2 & l3 & l4 & rows & cols & ridx & cidx & -> & Hnl & Hrel & N1 & _).
  destruct (format_of ls rest _ _ _ Hnl Hrel N1) as (s & G & L & Sk).
  unfold handler_read_matrix, get_format. rewrite G. cbn [bind]. unfold text in *. rewrite L. cbn [length Nat.eqb bind]. unfold text in *. rewrite Sk. cbv zeta. rewrite E. cbn [bind].
  exists M. split; [reflexivity|]. apply sp_is_ok. exact Ok.
Qed.

(** The size announced (checks, variables) is the size of the matrix. *)
Theorem C33_size : forall t n m f, alist_file t n m f -> (Z.of_nat n < 2 ^ 31)%Z -> (Z.of_nat m < 2 ^ 31)%Z -> handler_size t = Ret (Z.of_nat m, Z.of_nat n).
Proof.
  intros t n m f (ls & rest & l1 & l2 & l3 & l4 & rows & cols & ridx & cidx & -> & Hnl & Hrel & N1 & _) Hn Hm.
  destruct (format_of ls rest _ _ _ Hnl Hrel N1) as (s & G & L & Sk).
  unfold handler_size, get_format. rewrite G. cbn [bind]. unfold text in *. rewrite L. cbn [length Nat.eqb bind]. unfold text in *. rewrite Sk. cbv zeta.
  unfold alist_size. unfold text in *. rewrite G. cbn [bind]. rewrite L. cbn [length Nat.leb guard bind].
  rewrite (at_i_ok _ _ 0 N1); [|cbn [length]; lia|cbn [nth]; lia]. cbn [bind nth]. rewrite (at_i_ok _ _ 1 N1); [reflexivity|cbn [length]; lia|cbn [nth]; lia].
Qed.

(** What is written is an AList file of the matrix, with or without padding, whatever is written after. *)
Theorem C33_write : forall M n m f pad rest, sp_is M n m f -> (exists r c, r < n /\ c < m /\ f r c = true) -> alist_file (alist_write M pad ++ rest) n m f.
Proof. intros M n m f pad rest S H. apply w_alist; [apply sp_is_ok, S|exact H]. Qed.

Lemma skip_none : forall ls line fuel, Forall no_nl ls -> (forall l, In l ls -> comment l = false) -> length (lines ls) < fuel ->
  skip_to_title fuel line (open (lines ls)) = Ret (mkStream [] true true).
Proof.
  induction ls as [|l ls IH]; intros line fuel N C Hf; (destruct fuel as [|fuel]; [lia|]); [reflexivity|].
  inversion N as [|? ? Nl Nls]; subst. cbn [skip_to_title]. unfold lines in *. cbn [flat_map] in *. rewrite <- !app_assoc. cbn [app].
  rewrite std_getline_nl by exact Nl. rewrite (no_title l) by (apply C; left; reflexivity). cbn [open s_eof s_fail orb].
  apply IH; [exact Nls|intros x H; apply C; right; exact H|]. rewrite !app_length in Hf. cbn [length] in Hf. unfold text in *. lia.
Qed.

Lemma read_pos_none : forall ls, Forall no_nl ls -> (forall l, In l ls -> comment l = false) -> alist_read_pos (open (lines ls)) = Throws.
Proof. intros ls N C. unfold alist_read_pos. rewrite skip_none; [reflexivity|exact N|exact C|cbn [open s_rest]; lia]. Qed.

(** Where the matrix ends: lines without comments, then what was written after. *)
Lemma written : forall M n m f pad rest, sp_is M n m f -> (exists r c, r < n /\ c < m /\ f r c = true) -> (Z.of_nat n < 2 ^ 31)%Z -> (Z.of_nat m < 2 ^ 31)%Z ->
  exists M' ls, handler_read (alist_write M pad ++ rest) = (pos <- try_catch (alist_read_pos (open (lines ls ++ rest))) (Ret []) ;; Ret (M', pos, [])) /\
    sp_is M' n m f /\ Forall no_nl ls /\ forall l, In l ls -> comment l = false.
Proof.
  intros M n m f pad rest S H1 Hn Hm. pose proof (proj1 (sp_is_ok _ _ _ _) S) as Ok.
  assert (F : exists t0 s, alist_write M pad ++ rest = t0 /\ getline_split (open t0) = Ret s /\ length (fst s) = 2 /\ seek0 t0 (snd s) = open t0).
  { destruct (C33_write M n m f pad rest S H1) as (ls & rest' & l1 & l2 & l3 & l4 & rows & cols & ridx & cidx & E & Hnl & Hrel & N1 & _).
    destruct (format_of ls rest' _ _ _ Hnl Hrel N1) as (s & G & L & Sk). eexists _, _. split; [exact E|]. split; [exact G|]. split; [exact L|exact Sk]. }
  destruct F as (t0 & [v s] & Et & G & L & Sk). cbn [fst snd] in *.
  assert (X : exists M' ls, alist_read (open t0) = Ret (M', open (lines ls ++ rest)) /\ sp_ok M' n m f /\ Forall no_nl ls /\ forall l, In l ls -> comment l = false).
  { destruct (w_read M n m f pad Ok H1 rest Hn Hm) as (M' & q & [(E & Bq & Ok') | (M'' & ls' & E & Pl & Ok')]); rewrite Et in E.
    - destruct (blank_lines q Bq) as (lq & Eq & Nq & Cq). exists M', (lq ++ map (idx_line pad (sp_cmax M)) (sp_c2r M)). split; [rewrite E; f_equal; f_equal; f_equal|split; [exact Ok'|split]].
      + rewrite lines_app, <- Eq, <- !app_assoc. reflexivity.
      + apply Forall_app. split; [exact Nq|]. apply Forall_forall. intros l Hl. apply plain_nl. apply in_map_iff in Hl. destruct Hl as (x & <- & _). apply plain_toks.
      + intros l Hl. apply in_app_or in Hl. destruct Hl as [Hl|Hl]; [apply Cq, Hl|]. apply plain_comment. apply in_map_iff in Hl. destruct Hl as (x & <- & _). apply plain_toks.
    - exists M'', ls'. split; [exact E|]. split; [exact Ok'|]. split; [apply Forall_forall; intros l Hl; apply plain_nl, Pl, Hl|]. intros l Hl. apply plain_comment, Pl, Hl. }
  destruct X as (M' & ls & E & Ok' & N & C). exists M', ls. split; [|split; [apply sp_is_ok, Ok'|split; [exact N|exact C]]].
  unfold handler_read, get_format. rewrite Et. rewrite G. cbn [bind]. unfold text in *. rewrite L. cbn [length Nat.eqb bind]. unfold text in *. rewrite Sk. cbv zeta. rewrite E. cbn [bind]. reflexivity.
Qed.

(** The matrix and the positions of the information bits written after it are read back. *)
Theorem C33_round_trip : forall M n m f pad pos, sp_is M n m f -> (exists r c, r < n /\ c < m /\ f r c = true) -> (Z.of_nat n < 2 ^ 31)%Z -> (Z.of_nat m < 2 ^ 31)%Z ->
  NoDup pos -> (forall p, In p pos -> (Z.of_nat p < 2 ^ 31)%Z) -> (Z.of_nat (length pos) < 2 ^ 31)%Z ->
  exists M', handler_read (alist_write M pad ++ alist_write_pos pos) = Ret (M', pos, []) /\ sp_is M' n m f.
Proof.
  intros M n m f pad pos S H1 Hn Hm Nd B L. destruct (written M n m f pad (alist_write_pos pos) S H1 Hn Hm) as (M' & ls & E & S' & N & C).
  exists M'. split; [|exact S']. rewrite E. rewrite (read_pos_lines ls pos N C Nd B L). reflexivity.
Qed.

(** Without positions in the file, the matrix is read back and no position is given. *)
Theorem C33_no_positions : forall M n m f pad, sp_is M n m f -> (exists r c, r < n /\ c < m /\ f r c = true) -> (Z.of_nat n < 2 ^ 31)%Z -> (Z.of_nat m < 2 ^ 31)%Z ->
  exists M', handler_read (alist_write M pad) = Ret (M', [], []) /\ sp_is M' n m f.
Proof.
  intros M n m f pad S H1 Hn Hm. destruct (written M n m f pad [] S H1 Hn Hm) as (M' & ls & E & S' & N & C). rewrite app_nil_r in E.
  exists M'. split; [|exact S']. rewrite E. rewrite app_nil_r, (read_pos_none ls N C). reflexivity.
Qed.

(** A matrix without any one is written, but the file is refused. *)
Theorem C33_zero_refuted : exists M, sp_is M 1 2 (fun _ _ => false) /\ handler_read_matrix (alist_write M false) = Throws /\ handler_read_matrix (alist_write M true) = Throws.
Proof. exists (sp_new 1 2). split; [apply sp_is_ok, new_ok|]. split; vm_compute; reflexivity. Qed.

(** A file of two columns and one row whose second line has a single value: the third reader looks past the values of the line. *)
Theorem C33_short_file_refuted : handler_read_matrix (lines [str "2 1"; str "1"; str "0"; str "0"]) = Undef.
Proof. vm_compute. reflexivity. Qed.

(** The check of positions: accepts exactly K positions below N. *)
Theorem C33_check_positions : forall pos K N, (check_info_pos pos K N true = Ret true <-> length pos = K /\ forall p, In p pos -> p < N) /\
  (check_info_pos pos K N true = Ret true \/ check_info_pos pos K N true = Throws) /\
  (check_info_pos pos K N false = Ret (match check_info_pos pos K N true with Ret true => true | _ => false end)).
Proof.
  intros pos K N. unfold check_info_pos. destruct (Nat.eqb_spec (length pos) K) as [E|E]; cbn [negb].
  - destruct (existsb (fun p => N <=? p) pos) eqn:X.
    + split; [|split; [right|]; reflexivity]. split; [discriminate|]. intros [_ H]. apply existsb_exists in X. destruct X as (p & Hp & Hle). apply Nat.leb_le in Hle. specialize (H p Hp). lia.
    + split; [|split; [left|]; reflexivity]. split; [|reflexivity]. intros _. split; [exact E|]. intros p Hp. destruct (Nat.ltb_spec p N) as [H|H]; [exact H|].
      assert (existsb (fun p => N <=? p) pos = true) by (apply existsb_exists; exists p; split; [exact Hp|apply Nat.leb_le, H]). congruence.
  - split; [|split; [right|]; reflexivity]. split; [discriminate|]. intros [H _]. contradiction.
Qed.

(** A matrix with an empty row, with positions. *)
Example C33_example : exists M, sp_add (sp_new 2 3) 0 2 = Ret M /\
  (exists M', handler_read (alist_write M false ++ alist_write_pos [2; 0]) = Ret (M', [2; 0], []) /\ sp_r2c M' = [[2]; []]) /\
  exists f, sp_is M 2 3 f /\ (exists r c, r < 2 /\ c < 3 /\ f r c = true).
Proof.
  destruct (add_ok (sp_new 2 3) 2 3 (fun _ _ => false) 0 2 (new_ok 2 3)) as (M & E & Ok); [lia|lia|reflexivity|].
  exists M. split; [exact E|]. split.
  - vm_compute in E. injection E as <-. eexists. split; vm_compute; reflexivity.
  - eexists. split; [apply sp_is_ok, Ok|]. exists 0, 2. repeat split; try lia. 
Qed.
