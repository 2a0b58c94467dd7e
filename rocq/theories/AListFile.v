(** Proofs about whole AList files: reading any such file, and reading back what was written. *)
From Coq Require Import List Arith Lia Bool ZArith Ascii.
From Verif Require Import Base Copy GaloisModel SparseModel SparseSpec SparseProofs AListModel AListSpec TextProofs AListProofs.
Import ListNotations.

Lemma src_split : forall b (K : stream -> Prop) zs s zs', src b K s (zs ++ zs') -> src b (fun s => src b K s zs') s zs.
Proof.
  intros b K. induction zs as [|z zs IH]; intros s zs' H; [apply src_nil; exact H|]. cbn [app] in H.
  inversion H as [|? s' ? ? E Hs|? s' ? ? Hb F1 F2]; subst.
  - eapply src_cons; [exact E|]. apply IH. exact Hs.
  - eapply src_cut; eauto.
Qed.

Lemma index_pads : forall ls idx, Forall2 index_line ls idx -> exists pads, length pads = length idx /\ Forall2 numbers ls (map (fun r => row_toks (nth r idx []) (nth r pads 0)) (seq 0 (length idx))).
Proof.
  intros ls idx H. induction H as [|l i ls idx (pad & Hl) _ (pads & L & IH)].
  - exists []. split; [reflexivity|constructor].
  - exists (pad :: pads). split; [cbn [length]; lia|]. cbn [length seq map nth]. constructor; [exact Hl|].
    rewrite <- seq_shift, map_map. exact IH.
Qed.

Lemma contents_of : forall ls l1 l2 l3 l4 rows cols n m f ridx, Forall no_nl ls -> relevant ls = l1 :: l2 :: l3 :: l4 :: rows ++ cols ->
    numbers l1 [Z.of_nat n; Z.of_nat m] ->
    numbers l2 [Z.of_nat (list_max (map (row_deg f m) (seq 0 n))); Z.of_nat (list_max (map (col_deg f n) (seq 0 m)))] ->
    numbers l3 (map (fun r => Z.of_nat (row_deg f m r)) (seq 0 n)) ->
    numbers l4 (map (fun c => Z.of_nat (col_deg f n c)) (seq 0 m)) ->
    Forall2 index_line rows ridx -> length ridx = n ->
    (forall r, r < n -> NoDup (nth r ridx []) /\ forall c, In c (nth r ridx []) <-> c < m /\ f r c = true) ->
  contents ls n m f cols ridx.
Proof.
  intros. apply mkContents; try assumption. exists l1, l2, l3, l4, rows. repeat split; assumption.
Qed.

Lemma max_pos : forall g n i, i < n -> 0 < g i -> 0 < maxf g n.
Proof. intros g n i Hi H. pose proof (maxf_ge g n i Hi). lia. Qed.

Lemma deg_pos : forall f m r c, c < m -> f r c = true -> 0 < row_deg f m r.
Proof.
  intros f m r c Hc H. unfold row_deg. assert (In c (filter (fun c => f r c) (seq 0 m))) by (apply filter_In; split; [apply in_seq; lia|exact H]).
  destruct (filter (fun c => f r c) (seq 0 m)); [contradiction|cbn; lia].
Qed.

Lemma row_toks_bound : forall idx pad N z, (forall c, In c idx -> c < N) -> (Z.of_nat N < 2 ^ 31)%Z -> In z (row_toks idx pad) -> (0 <= z < 2 ^ 32)%Z.
Proof.
  intros idx pad N z H HN Hz. unfold row_toks in Hz. apply in_app_or in Hz. destruct Hz as [Hz|Hz].
  - apply in_map_iff in Hz. destruct Hz as (c & <- & Hc). specialize (H c Hc). lia.
  - apply repeat_spec in Hz. lia.
Qed.

Lemma ctoks_pos : forall n m f cidx cpads, length cidx = m -> 0 < m -> (forall c, c < m -> NoDup (nth c cidx []) /\ forall r, In r (nth c cidx []) <-> r < n /\ f r c = true) ->
  (forall c, c < m -> 0 < row_deg (flip f) n c) -> exists z t, concat (map (fun c => row_toks (nth c cidx []) (nth c cpads 0)) (seq 0 m)) = z :: t /\ (0 < z)%Z.
Proof.
  intros n m f cidx cpads L Hm H Hp. specialize (Hp 0 Hm). destruct (H 0 Hm) as [Hd Hin].
  rewrite <- (deg_len (flip f) n 0 (nth 0 cidx []) Hd Hin) in Hp. destruct m as [|m]; [lia|]. cbn [seq map concat].
  destruct (nth 0 cidx []) as [|x idx]; [cbn in Hp; lia|]. unfold row_toks at 1. cbn [map app]. eexists _, _. split; [reflexivity|]. lia.
Qed.

(** The numbers of the header. *)
Definition head_toks (n m : nat) (f : nat -> nat -> bool) : list (list Z) :=
  [[Z.of_nat n; Z.of_nat m]; [Z.of_nat (maxf (row_deg f m) n); Z.of_nat (maxf (row_deg (flip f) n) m)];
   map (fun r => Z.of_nat (row_deg f m r)) (seq 0 n); map (fun c => Z.of_nat (row_deg (flip f) n c)) (seq 0 m)].

Lemma head_bound : forall n m f zs z, (Z.of_nat n < 2 ^ 31)%Z -> (Z.of_nat m < 2 ^ 31)%Z -> In zs (head_toks n m f) -> In z zs -> (0 <= z < 2 ^ 32)%Z.
Proof.
  intros n m f zs z Hn Hm Hzs Hz.
  assert (HR : maxf (row_deg f m) n <= m) by (apply maxf_le; intros; apply row_deg_le).
  assert (HC : maxf (row_deg (flip f) n) m <= n) by (apply maxf_le; intros; apply row_deg_le).
  destruct Hzs as [<-|[<-|[<-|[<-|[]]]]].
  - destruct Hz as [<-|[<-|[]]]; lia.
  - destruct Hz as [<-|[<-|[]]]; lia.
  - apply in_map_iff in Hz. destruct Hz as (r & <- & _). pose proof (row_deg_le f m r). lia.
  - apply in_map_iff in Hz. destruct Hz as (r & <- & _). pose proof (row_deg_le (flip f) n r). lia.
Qed.

Lemma alist_read_file : forall t n m f, alist_file t n m f -> (Z.of_nat n < 2 ^ 31)%Z -> (Z.of_nat m < 2 ^ 31)%Z -> (exists r c, r < n /\ c < m /\ f r c = true) ->
  exists M s, alist_read (open t) = Ret (M, s) /\ sp_ok M n m f.
Proof.
  intros t n m f (ls & rest & l1 & l2 & l3 & l4 & rows & cols & ridx & cidx & -> & Hnl & Hrel & H1 & H2 & H3 & H4 & Hrows & Hcols & Lr & Lc & Hr & Hc) Hn Hm (r0 & c0 & Hr0 & Hc0 & Hf).
  pose proof (contents_of _ _ _ _ _ _ _ _ _ _ _ Hnl Hrel H1 H2 H3 H4 Hrows Lr Hr) as Ct.
  assert (HR : 0 < maxf (row_deg f m) n) by (apply (max_pos _ _ r0 Hr0), (deg_pos f m r0 c0 Hc0 Hf)).
  assert (HC : 0 < maxf (row_deg (flip f) n) m) by (apply (max_pos _ _ c0 Hc0), (deg_pos (flip f) n c0 r0 Hr0 Hf)).
  destruct (format2_ok ls rest n m f cols ridx Ct ltac:(lia) ltac:(lia) Hn Hm HR HC) as (M2 & pre & ls' & E2 & Ok2 & _).
  destruct (index_pads _ _ Hrows) as (pads & Lp & Nr). destruct (index_pads _ _ Hcols) as (cpads & Lcp & Nc).
  rewrite Lr in Nr. rewrite Lc in Nc.
  assert (S1 : safe (fun '(M, _) => sp_ok M n m f) (read_format1 (open (lines ls ++ rest)))).
  { apply safe_weaken with (P := fun '(M, s) => sp_ok M n m f /\ (true = false -> (forall r, r < n -> length (row_toks (nth r ridx []) (nth r pads 0)) <= maxf (row_deg f m) n) -> True)).
    { intros [M s] [A _]. exact A. }
    eapply (format1_safe true (fun _ => True) n m f ridx pads _ ltac:(lia) Lr Hr); [apply (ctoks_pos n m f cidx cpads Lc ltac:(lia) Hc)|lia|].
    apply src_impl with (K := fun s => src true (fun _ => True) s (concat (map (fun c => row_toks (nth c cidx []) (nth c cpads 0)) (seq 0 m)))).
    { intros s Hs. split; [exact I|exact Hs]. }
    apply src_split.
    match goal with |- src _ _ _ ?zs => replace zs with (concat (head_toks n m f ++ map (fun r => row_toks (nth r ridx []) (nth r pads 0)) (seq 0 n) ++ map (fun c => row_toks (nth c cidx []) (nth c cpads 0)) (seq 0 m))) end.
    2:{ unfold head_toks. rewrite !concat_app. cbn [concat app]. rewrite <- !app_assoc. reflexivity. }
    apply (lines_src true (fun _ => True) ls _ rest []).
    - rewrite Hrel. unfold head_toks. cbn [app]. repeat (constructor; [assumption|]). apply Forall2_app; assumption.
    - intros zs z Hzs Hz. apply in_app_or in Hzs. destruct Hzs as [Hzs|Hzs]; [apply (head_bound n m f zs z Hn Hm Hzs Hz)|].
      apply in_app_or in Hzs. destruct Hzs as [Hzs|Hzs]; apply in_map_iff in Hzs; destruct Hzs as (k & <- & Hk); apply in_seq in Hk.
      + apply (row_toks_bound (nth k ridx []) (nth k pads 0) m z); [|exact Hm|exact Hz]. intros c. intros Hin. apply (proj2 (Hr k ltac:(lia))), Hin.
      + apply (row_toks_bound (nth k cidx []) (nth k cpads 0) n z); [|exact Hn|exact Hz]. intros c. intros Hin. apply (proj2 (Hc k ltac:(lia))), Hin.
    - reflexivity.
    - discriminate.
    - auto.
    - auto. }
  unfold alist_read. cbn [open s_fail]. change (open (s_rest (open (lines ls ++ rest)))) with (open (lines ls ++ rest)).
  destruct (read_format1 (open (lines ls ++ rest))) as [[M1 s1]| |] eqn:E1; cbn [safe] in S1; [| |contradiction].
  - exists M1, s1. split; [reflexivity|exact S1].
  - exists M2, (open (lines ls' ++ rest)). split; [|exact Ok2]. cbn [try_catch]. rewrite E2. reflexivity.
Qed.

(* ------------------------------------------------------------------ *)
(** * What is written *)

Lemma toks_words : forall l, has_words (toks l) (map dec l).
Proof.
  induction l as [|x l IH]; [apply hw_nil; reflexivity|]. cbn [toks flat_map map]. fold (toks l). rewrite <- app_assoc. cbn [app].
  apply (hw_cons [] (dec x) sp (toks l)); [reflexivity|apply digits_word, dec_spec|reflexivity|exact IH].
Qed.

Lemma toks_numbers : forall l, numbers (toks l) (map Z.of_nat l).
Proof.
  intros l. exists (map dec l). split; [apply toks_words|]. induction l as [|x l IH]; constructor; [apply dec_decimal|exact IH].
Qed.

Lemma pair_numbers : forall a b, numbers (dec a ++ [sp] ++ dec b) [Z.of_nat a; Z.of_nat b].
Proof.
  intros a b. exists [dec a; dec b]. split.
  - apply (hw_cons [] (dec a) sp (dec b)); [reflexivity|apply digits_word, dec_spec|reflexivity|].
    apply (hw_last [] (dec b)); [reflexivity|apply digits_word, dec_spec].
  - constructor; [apply dec_decimal|constructor; [apply dec_decimal|constructor]].
Qed.

(** Characters of what is written: digits and spaces. *)
Definition plain (t : text) : Prop := forall c, In c t -> is_digit c = true \/ c = sp.

Lemma plain_app : forall a b, plain a -> plain b -> plain (a ++ b).
Proof. intros a b A B c H. apply in_app_or in H. destruct H; [apply A|apply B]; assumption. Qed.
Lemma plain_dec : forall n, plain (dec n).
Proof. intros n c H. left. apply (proj1 (dec_spec n)), H. Qed.
Lemma plain_sp : plain [sp].
Proof. intros c [<-|[]]. right. reflexivity. Qed.
Lemma plain_toks : forall l, plain (toks l).
Proof. induction l as [|x l IH]; [intros c []|]. cbn [toks flat_map]. fold (toks l). repeat apply plain_app; [apply plain_dec|apply plain_sp|exact IH]. Qed.
Lemma plain_nl : forall t, plain t -> no_nl t.
Proof. intros t H K. destruct (H nl K) as [E|E]; discriminate. Qed.
Lemma plain_comment : forall t, plain t -> comment t = false.
Proof.
  intros [|c t] H; [reflexivity|]. cbn [comment]. destruct (H c (or_introl eq_refl)) as [E | ->]; [|reflexivity].
  apply (digit_neq c 35 E). lia.
Qed.

Lemma toks_blank : forall l, l <> [] -> blank (toks l) = false.
Proof.
  intros [|x l] H; [congruence|]. cbn [toks flat_map]. rewrite !blank_app. destruct (dec_spec x) as [[D1 D2] _].
  destruct (dec x) as [|c d]; [congruence|]. cbn [blank forallb]. rewrite (digit_nospace c) by (apply D2; left; reflexivity). reflexivity.
Qed.

Definition pad_of (pad : bool) (mx : nat) (l : list nat) : nat := if pad then mx - length l else if length l =? 0 then 1 else 0.
Definition idx_line (pad : bool) (mx : nat) (l : list nat) : text := toks (map (fun x => x + 1) l ++ repeat 0 (pad_of pad mx l)).

Lemma toks_app : forall a b, toks (a ++ b) = toks a ++ toks b.
Proof. intros. apply flat_map_app. Qed.

Lemma alist_line_eq : forall pad mx l, alist_line pad mx l = idx_line pad mx l ++ [nl].
Proof.
  intros. unfold alist_line, idx_line, pad_of. rewrite toks_app, <- app_assoc. destruct pad; [reflexivity|].
  destruct (length l =? 0); reflexivity.
Qed.

Lemma map_rep : forall A B (h : A -> B) x k, map h (repeat x k) = repeat (h x) k.
Proof. intros. induction k as [|k IH]; [reflexivity|]. cbn [repeat map]. rewrite IH. reflexivity. Qed.

Lemma idx_line_numbers : forall pad mx l, numbers (idx_line pad mx l) (row_toks l (pad_of pad mx l)).
Proof.
  intros. unfold idx_line, row_toks. pose proof (toks_numbers (map (fun x => x + 1) l ++ repeat 0 (pad_of pad mx l))) as H.
  rewrite map_app, map_map in H. rewrite map_rep in H. replace (map (fun x => Z.of_nat x + 1)%Z l) with (map (fun x => Z.of_nat (x + 1)) l); [exact H|].
  apply map_ext. intros. lia.
Qed.

Lemma idx_line_blank : forall pad mx l, 0 < mx -> blank (idx_line pad mx l) = false.
Proof.
  intros pad mx l H. apply toks_blank. unfold pad_of. destruct l as [|x l]; [|discriminate]. destruct pad; cbn [length map app Nat.eqb]; [|discriminate].
  destruct mx; [lia|]. discriminate.
Qed.

Definition head_lines (M : sparse) : list text :=
  [dec (sp_rows M) ++ [sp] ++ dec (sp_cols M); []; dec (sp_rmax M) ++ [sp] ++ dec (sp_cmax M); [];
   toks (map (@length nat) (sp_r2c M)); []; toks (map (@length nat) (sp_c2r M)); []].

Lemma lines_app : forall a b, lines (a ++ b) = lines a ++ lines b.
Proof. intros. apply flat_map_app. Qed.

Lemma lines_map : forall A (h : A -> text) l, lines (map h l) = flat_map (fun x => h x ++ [nl]) l.
Proof. intros A h. induction l as [|x l IH]; [reflexivity|]. cbn [map lines flat_map]. unfold lines in IH. rewrite IH. reflexivity. Qed.

Lemma alist_write_lines : forall M pad, alist_write M pad =
  lines (head_lines M ++ map (idx_line pad (sp_rmax M)) (sp_r2c M)) ++ nl :: lines (map (idx_line pad (sp_cmax M)) (sp_c2r M)).
Proof.
  intros M pad. unfold alist_write. rewrite lines_app, !lines_map.
  rewrite (flat_map_ext _ (fun x => idx_line pad (sp_rmax M) x ++ [nl])) by (intros; apply alist_line_eq).
  rewrite (flat_map_ext (alist_line pad (sp_cmax M)) (fun x => idx_line pad (sp_cmax M) x ++ [nl])) by (intros; apply alist_line_eq).
  unfold head_lines. cbn [lines flat_map]. rewrite <- !app_assoc. cbn [app]. reflexivity.
Qed.

Lemma head_plain : forall M l, In l (head_lines M) -> plain l.
Proof.
  intros M l H. assert (plain []) by (intros c []).
  destruct H as [<-|[<-|[<-|[<-|[<-|[<-|[<-|[<-|[]]]]]]]]]; try assumption; try apply plain_toks; repeat apply plain_app; try apply plain_dec; apply plain_sp.
Qed.

Lemma relevant_app : forall a b, relevant (a ++ b) = relevant a ++ relevant b.
Proof. intros. apply filter_app. Qed.

Lemma relevant_idx : forall pad mx ls, 0 < mx -> relevant (map (idx_line pad mx) ls) = map (idx_line pad mx) ls.
Proof.
  intros pad mx ls H. induction ls as [|l ls IH]; [reflexivity|]. cbn [map relevant filter]. fold (relevant (map (idx_line pad mx) ls)).
  rewrite idx_line_blank by exact H. rewrite plain_comment by apply plain_toks. cbn [orb negb]. rewrite IH. reflexivity.
Qed.

Lemma dec_blank : forall a t, blank (dec a ++ t) = false.
Proof. intros a t. rewrite blank_app. destruct (dec_spec a) as [[D1 D2] _]. destruct (dec a) as [|c d]; [congruence|]. cbn [blank forallb]. rewrite (digit_nospace c) by (apply D2; left; reflexivity). reflexivity. Qed.

Lemma relevant_head : forall M, sp_r2c M <> [] -> sp_c2r M <> [] -> relevant (head_lines M) =
  [dec (sp_rows M) ++ [sp] ++ dec (sp_cols M); dec (sp_rmax M) ++ [sp] ++ dec (sp_cmax M); toks (map (@length nat) (sp_r2c M)); toks (map (@length nat) (sp_c2r M))].
Proof.
  intros M A B. pose proof (head_plain M) as P. unfold head_lines in *. unfold relevant. cbn [filter].
  rewrite !dec_blank. rewrite !toks_blank by (destruct (sp_r2c M), (sp_c2r M); cbn; congruence).
  rewrite !plain_comment by (apply P; cbn; auto 10). reflexivity.
Qed.

(** Everything about the file written for M. *)
Section Written.
Variables (M : sparse) (n m : nat) (f : nat -> nat -> bool) (pad : bool).
Hypothesis Ok : sp_ok M n m f.
Hypothesis Hone : exists r c, r < n /\ c < m /\ f r c = true.

Lemma w_facts : sp_rows M = n /\ sp_cols M = m /\ sp_rmax M = maxf (row_deg f m) n /\ sp_cmax M = maxf (row_deg (flip f) n) m /\
  length (sp_r2c M) = n /\ length (sp_c2r M) = m /\
  (forall r, r < n -> NoDup (nth r (sp_r2c M) []) /\ forall c, In c (nth r (sp_r2c M) []) <-> c < m /\ f r c = true) /\
  (forall c, c < m -> NoDup (nth c (sp_c2r M) []) /\ forall r, In r (nth c (sp_c2r M) []) <-> r < n /\ f r c = true) /\
  0 < maxf (row_deg f m) n /\ 0 < maxf (row_deg (flip f) n) m.
Proof.
  destruct Hone as (r0 & c0 & Hr0 & Hc0 & Hf).
  pose proof (proj2 (sp_is_ok M n m f) Ok) as (A1 & A2 & A3 & A4 & A5 & A6 & A7 & A8 & A9 & A10).
  split; [exact A1|]. split; [exact A2|]. split; [exact A9|]. split; [exact A10|]. split; [exact A3|]. split; [exact A4|].
  split; [|split; [|split; [apply (max_pos _ _ r0 Hr0), (deg_pos f m r0 c0 Hc0 Hf)|apply (max_pos _ _ c0 Hc0), (deg_pos (flip f) n c0 r0 Hr0 Hf)]]].
  - intros r Hr. destruct (A6 r Hr) as (l & E & H). unfold sp_row in E. rewrite (rd_ok _ []) in E by lia. injection E as ->. exact H.
  - intros c Hc. destruct (A7 c Hc) as (l & E & H). unfold sp_col in E. rewrite (rd_ok _ []) in E by lia. injection E as ->. exact H.
Qed.

Let rl := map (idx_line pad (sp_rmax M)) (sp_r2c M).
Let cl := map (idx_line pad (sp_cmax M)) (sp_c2r M).

Lemma idx_plain : forall mx v l, In l (map (idx_line pad mx) v) -> plain l.
Proof. intros mx v l H. apply in_map_iff in H. destruct H as (x & <- & _). apply plain_toks. Qed.

Lemma w_relevant : relevant (head_lines M ++ rl) =
  [dec (sp_rows M) ++ [sp] ++ dec (sp_cols M); dec (sp_rmax M) ++ [sp] ++ dec (sp_cmax M); toks (map (@length nat) (sp_r2c M)); toks (map (@length nat) (sp_c2r M))] ++ rl.
Proof.
  destruct w_facts as (A1 & A2 & A3 & A4 & A5 & A6 & _ & _ & A9 & A10). destruct Hone as (r0 & c0 & Hr0 & Hc0 & _). rewrite relevant_app.
  rewrite relevant_head by (intros E; rewrite E in *; cbn in *; lia). unfold rl. rewrite relevant_idx by lia. reflexivity.
Qed.

Lemma deg_list : forall v k (g : nat -> nat -> bool) w, length v = k -> (forall i, i < k -> NoDup (nth i v []) /\ forall c, In c (nth i v []) <-> c < w /\ g i c = true) ->
  map Z.of_nat (map (@length nat) v) = map (fun r => Z.of_nat (row_deg g w r)) (seq 0 k).
Proof.
  intros v k g w L H. apply (list_eq_nth _ 0%Z); [rewrite !map_length, seq_length; exact L|]. intros i Hi. rewrite !map_length in Hi.
  rewrite nth_map_seq by lia. rewrite map_map. rewrite (nth_indep _ 0%Z (Z.of_nat (length (@nil nat)))) by (rewrite map_length; lia).
  rewrite (map_nth (fun x => Z.of_nat (length x))). f_equal. apply (deg_len g w i); apply (H i); lia.
Qed.

Lemma w_head : numbers (dec (sp_rows M) ++ [sp] ++ dec (sp_cols M)) [Z.of_nat n; Z.of_nat m] /\
  numbers (dec (sp_rmax M) ++ [sp] ++ dec (sp_cmax M)) [Z.of_nat (maxf (row_deg f m) n); Z.of_nat (maxf (row_deg (flip f) n) m)] /\
  numbers (toks (map (@length nat) (sp_r2c M))) (map (fun r => Z.of_nat (row_deg f m r)) (seq 0 n)) /\
  numbers (toks (map (@length nat) (sp_c2r M))) (map (fun c => Z.of_nat (row_deg (flip f) n c)) (seq 0 m)).
Proof.
  destruct w_facts as (A1 & A2 & A3 & A4 & A5 & A6 & A7 & A8 & _). rewrite A1, A2, A3, A4.
  split; [apply pair_numbers|]. split; [apply pair_numbers|]. split.
  - rewrite <- (deg_list (sp_r2c M) n f m A5 A7). apply toks_numbers.
  - rewrite <- (deg_list (sp_c2r M) m (flip f) n A6 A8). apply toks_numbers.
Qed.

Lemma idx_numbers : forall mx v k, length v = k -> Forall2 numbers (map (idx_line pad mx) v) (map (fun r => row_toks (nth r v []) (nth r (map (pad_of pad mx) v) 0)) (seq 0 k)).
Proof.
  intros mx v k <-. induction v as [|l v IH]; [constructor|]. cbn [map length seq nth]. constructor; [apply idx_line_numbers|].
  rewrite <- seq_shift, map_map. exact IH.
Qed.

Lemma idx_index : forall mx v, Forall2 index_line (map (idx_line pad mx) v) v.
Proof. intros mx v. induction v as [|l v IH]; constructor; [exists (pad_of pad mx l); apply idx_line_numbers|exact IH]. Qed.

Lemma w_nl : Forall no_nl (head_lines M ++ rl).
Proof.
  apply Forall_forall. intros l H. apply plain_nl. apply in_app_or in H. destruct H as [H|H]; [apply (head_plain M l H)|apply (idx_plain _ _ l H)].
Qed.

Lemma w_alist : forall rest, alist_file (alist_write M pad ++ rest) n m f.
Proof.
  intros rest. destruct w_facts as (A1 & A2 & A3 & A4 & A5 & A6 & A7 & A8 & A9 & A10). destruct w_head as (B1 & B2 & B3 & B4).
  exists (head_lines M ++ rl ++ [] :: cl), rest, (dec (sp_rows M) ++ [sp] ++ dec (sp_cols M)), (dec (sp_rmax M) ++ [sp] ++ dec (sp_cmax M)),
    (toks (map (@length nat) (sp_r2c M))), (toks (map (@length nat) (sp_c2r M))), rl, cl, (sp_r2c M), (sp_c2r M).
  split; [|split; [|split; [|split; [exact B1|split; [exact B2|split; [exact B3|split; [exact B4|split; [apply idx_index|split; [apply idx_index|]]]]]]]]].
  - f_equal. rewrite alist_write_lines. rewrite (app_assoc (head_lines M) rl), (lines_app (head_lines M ++ rl)). reflexivity.
  - rewrite app_assoc. apply Forall_app. split; [apply w_nl|]. constructor; [intros []|]. apply Forall_forall. intros l H. apply plain_nl, (idx_plain _ _ l H).
  - rewrite app_assoc, relevant_app, w_relevant. change (relevant ([] :: cl)) with (relevant cl). unfold cl. rewrite relevant_idx by lia. reflexivity.
  - split; [exact A5|]. split; [exact A6|]. split; [exact A7|exact A8].
Qed.

(** Where the reading of the written file stops, when it is followed by [rest]. *)
Lemma w_read : forall rest, (Z.of_nat n < 2 ^ 31)%Z -> (Z.of_nat m < 2 ^ 31)%Z ->
  exists M' q, alist_read (open (alist_write M pad ++ rest)) = Ret (M', open (q ++ nl :: lines cl ++ rest)) /\ blank q = true /\ sp_ok M' n m f \/
  exists M' ls', alist_read (open (alist_write M pad ++ rest)) = Ret (M', open (lines ls' ++ rest)) /\ (forall l, In l ls' -> plain l) /\ sp_ok M' n m f.
Proof.
  intros rest Hn Hm. destruct w_facts as (A1 & A2 & A3 & A4 & A5 & A6 & A7 & A8 & A9 & A10). destruct w_head as (B1 & B2 & B3 & B4).
  destruct Hone as (r0 & c0 & Hr0 & Hc0 & _).
  set (ls := head_lines M ++ rl ++ [] :: cl).
  assert (Et : alist_write M pad ++ rest = lines ls ++ rest).
  { f_equal. rewrite alist_write_lines. unfold ls. rewrite (app_assoc (head_lines M) rl), (lines_app (head_lines M ++ rl)). reflexivity. }
  assert (Pl : forall l, In l ls -> plain l).
  { intros l H. apply in_app_or in H. destruct H as [H|H]; [apply (head_plain M l H)|]. apply in_app_or in H. destruct H as [H|[<-|H]]; [apply (idx_plain _ _ l H)|intros c []|apply (idx_plain _ _ l H)]. }
  assert (Ct : contents ls n m f cl (sp_r2c M)).
  { apply mkContents; [apply Forall_forall; intros l H; apply plain_nl, Pl, H| |exact A5|exact A7].
    exists (dec (sp_rows M) ++ [sp] ++ dec (sp_cols M)), (dec (sp_rmax M) ++ [sp] ++ dec (sp_cmax M)), (toks (map (@length nat) (sp_r2c M))), (toks (map (@length nat) (sp_c2r M))), rl.
    split; [|repeat split; try assumption; apply idx_index].
    unfold ls. rewrite app_assoc, relevant_app, w_relevant. change (relevant ([] :: cl)) with (relevant cl). unfold cl. rewrite relevant_idx by lia. reflexivity. }
  destruct (format2_ok ls rest n m f cl (sp_r2c M) Ct ltac:(lia) ltac:(lia) Hn Hm A9 A10) as (M2 & pre & ls' & E2 & Ok2 & Els & _).
  set (pads := map (pad_of pad (sp_rmax M)) (sp_r2c M)). set (cpads := map (pad_of pad (sp_cmax M)) (sp_c2r M)).
  set (K := fun s => exists q, blank q = true /\ s = open (q ++ nl :: lines cl ++ rest)).
  set (ctoks := concat (map (fun c => row_toks (nth c (sp_c2r M) []) (nth c cpads 0)) (seq 0 m))).
  assert (S1 : safe (fun '(M', s) => sp_ok M' n m f /\ (false = false -> (forall r, r < n -> length (row_toks (nth r (sp_r2c M) []) (nth r pads 0)) <= maxf (row_deg f m) n) -> K s)) (read_format1 (open (lines ls ++ rest)))).
  { apply (format1_safe false K n m f (sp_r2c M) pads ctoks ltac:(lia) A5 A7); [apply (ctoks_pos n m f (sp_c2r M) cpads A6 ltac:(lia) A8)|lia|].
    match goal with |- src _ _ _ ?zs => replace zs with (concat (head_toks n m f ++ map (fun r => row_toks (nth r (sp_r2c M) []) (nth r pads 0)) (seq 0 n))) end.
    2:{ unfold head_toks. rewrite !concat_app. cbn [concat app]. rewrite <- !app_assoc. reflexivity. }
    replace (lines ls ++ rest) with ([] ++ lines (head_lines M ++ rl) ++ nl :: lines cl ++ rest).
    2:{ cbn [app]. unfold ls. rewrite (app_assoc (head_lines M)), (lines_app (head_lines M ++ rl)). rewrite <- (app_assoc (lines (head_lines M ++ rl))). reflexivity. }
    apply lines_src.
    - rewrite w_relevant. unfold head_toks. cbn [app]. repeat (constructor; [assumption|]). apply idx_numbers. exact A5.
    - intros zs z Hzs Hz. apply in_app_or in Hzs. destruct Hzs as [Hzs|Hzs]; [apply (head_bound n m f zs z Hn Hm Hzs Hz)|].
      apply in_map_iff in Hzs. destruct Hzs as (k & <- & Hk). apply in_seq in Hk.
      apply (row_toks_bound (nth k (sp_r2c M) []) (nth k pads 0) m z); [|exact Hm|exact Hz]. intros c Hin. apply (proj2 (A7 k ltac:(lia))), Hin.
    - reflexivity.
    - intros _ l H. apply plain_comment. apply in_app_or in H. destruct H as [H|H]; [apply (head_plain M l H)|apply (idx_plain _ _ l H)].
    - discriminate.
    - intros q Hq. split; [exists q; auto|].
      change (nl :: lines cl ++ rest) with ([nl] ++ lines cl ++ rest). rewrite app_assoc. apply lines_src.
      + unfold cl. rewrite relevant_idx by lia. apply idx_numbers. exact A6.
      + intros zs z Hzs Hz. apply in_map_iff in Hzs. destruct Hzs as (k & <- & Hk). apply in_seq in Hk.
        apply (row_toks_bound (nth k (sp_c2r M) []) (nth k cpads 0) n z); [|exact Hn|exact Hz]. intros c Hin. apply (proj2 (A8 k ltac:(lia))), Hin.
      + rewrite blank_app, Hq. reflexivity.
      + intros _ l H. apply plain_comment, (idx_plain _ _ l H).
      + auto.
      + auto. }
  rewrite Et. unfold alist_read. cbn [open s_fail]. change (open (s_rest (open (lines ls ++ rest)))) with (open (lines ls ++ rest)).
  destruct (read_format1 (open (lines ls ++ rest))) as [[M1 s1]| |] eqn:E1; cbn [safe] in S1; [| |contradiction].
  - destruct S1 as [Ok1 S1]. destruct (S1 eq_refl) as (q & Hq & ->).
    { intros r Hr. rewrite row_toks_len. unfold pads. rewrite (nth_indep _ 0 (pad_of pad (sp_rmax M) [])) by (rewrite map_length; lia).
      rewrite (map_nth (pad_of pad (sp_rmax M))). unfold pad_of. rewrite A3. set (l := nth r (sp_r2c M) []).
      assert (length l <= maxf (row_deg f m) n). { unfold l. rewrite (deg_len f m r) by apply (A7 r Hr). apply (maxf_ge (row_deg f m) n r Hr). }
      destruct pad; [lia|]. destruct (Nat.eqb_spec (length l) 0); lia. }
    exists M1, q. left. split; [reflexivity|auto].
  - exists M2, []. right. exists M2, ls'. split; [cbn [try_catch]; rewrite E2; reflexivity|]. split; [|exact Ok2].
    intros l H. apply Pl. rewrite Els. apply in_or_app. right. exact H.
Qed.
End Written.

(* ------------------------------------------------------------------ *)
(** * Positions of the information bits *)

Lemma blank_lines : forall q, blank q = true -> exists ls, q ++ [nl] = lines ls /\ Forall no_nl ls /\ forall l, In l ls -> comment l = false.
Proof.
  induction q as [|c q IH]; intros H.
  - exists [[]]. split; [reflexivity|]. split; [constructor; [intros []|constructor]|]. intros l [<-|[]]. reflexivity.
  - cbn [blank forallb] in H. apply andb_true_iff in H. destruct H as [Hc Hq]. destruct (IH Hq) as (ls & E & N & C).
    destruct (Ascii.eqb_spec c nl) as [-> | Hne].
    + exists ([] :: ls). cbn [app lines flat_map]. unfold lines in E. rewrite E. split; [reflexivity|]. split; [constructor; [intros []|exact N]|]. intros l [<-|H]; [reflexivity|apply C, H].
    + destruct ls as [|l ls]; [destruct q; discriminate|]. exists ((c :: l) :: ls). cbn [app lines flat_map] in *. rewrite E. split; [reflexivity|].
      inversion N as [|? ? Nl Nls]; subst. split; [constructor; [|exact Nls]; intros [K|K]; [congruence|apply Nl, K]|].
      intros x [<-|H]; [|apply C; right; exact H]. cbn [comment]. destruct (Ascii.eqb_spec c hash) as [-> | _]; [discriminate|reflexivity].
Qed.

Lemma no_title : forall l, comment l = false -> (if list_eq_dec ascii_dec l pos_title then true else false) = false.
Proof. intros l H. destruct (list_eq_dec ascii_dec l pos_title) as [-> | _]; [discriminate|reflexivity]. Qed.

Lemma skip_title_ok : forall ls rest line fuel, Forall no_nl ls -> (forall l, In l ls -> comment l = false) -> length (lines ls) < fuel ->
  skip_to_title fuel line (open (lines ls ++ pos_title ++ nl :: rest)) = Ret (open rest).
Proof.
  induction ls as [|l ls IH]; intros rest line fuel N C Hf; (destruct fuel as [|fuel]; [lia|]).
  - cbn [lines flat_map app skip_to_title]. change (flat_map (fun l => l ++ [nl]) []) with (@nil ascii). cbn [app].
    rewrite std_getline_nl by (intros K; repeat (destruct K as [K|K]; [discriminate|]); contradiction).
    destruct (list_eq_dec ascii_dec pos_title pos_title); [reflexivity|congruence].
  - inversion N as [|? ? Nl Nls]; subst. cbn [skip_to_title]. unfold lines in *. cbn [flat_map] in *. rewrite <- !app_assoc. cbn [app].
    rewrite std_getline_nl by exact Nl. rewrite (no_title l) by (apply C; left; reflexivity). cbn [open s_eof s_fail orb].
    apply IH; [exact Nls|intros x H; apply C; right; exact H|]. rewrite !app_length in Hf. cbn [length] in Hf. unfold text in *. lia.
Qed.

Lemma each_pos : forall ws zs pos acc, Forall2 decimal ws zs -> zs = map Z.of_nat pos -> NoDup (acc ++ pos) -> (forall p, In p pos -> (Z.of_nat p < 2 ^ 31)%Z) ->
  each ws (fun w pos => p <- stoi w ;; let p := Z.to_nat (u32 p) in _ <- guard (negb (existsb (Nat.eqb p) pos)) ;; Ret (pos ++ [p])) acc = Ret (acc ++ pos).
Proof.
  intros ws zs pos acc H. revert pos acc. induction H as [|w z ws zs D _ IH]; intros pos acc E N B.
  - destruct pos; [|discriminate]. cbn [each]. rewrite app_nil_r. reflexivity.
  - destruct pos as [|p pos]; [discriminate|]. injection E as -> E. cbn [each].
    pose proof (B p (or_introl eq_refl)) as Bp. rewrite (stoi_decimal w _ D) by lia. cbn [bind]. cbv zeta. rewrite u32_id by lia. rewrite Nat2Z.id.
    assert (F : existsb (Nat.eqb p) acc = false).
    { destruct (existsb (Nat.eqb p) acc) eqn:F; [|reflexivity]. apply mem_in in F. exfalso. apply NoDup_remove_2 in N. apply N, in_or_app. left. exact F. }
    rewrite F. cbn [negb guard bind]. refine (eq_trans (IH pos (acc ++ [p]) E _ _) _); [rewrite <- app_assoc; exact N|intros x Hx; apply B; right; exact Hx|rewrite <- app_assoc; reflexivity].
Qed.

Lemma single_numbers : forall a, numbers (dec a) [Z.of_nat a].
Proof. intros a. exists [dec a]. split; [apply (hw_last [] (dec a)); [reflexivity|apply digits_word, dec_spec]|constructor; [apply dec_decimal|constructor]]. Qed.

Lemma read_pos_lines : forall ls pos, Forall no_nl ls -> (forall l, In l ls -> comment l = false) -> NoDup pos -> (forall p, In p pos -> (Z.of_nat p < 2 ^ 31)%Z) -> (Z.of_nat (length pos) < 2 ^ 31)%Z ->
  alist_read_pos (open (lines ls ++ alist_write_pos pos)) = Ret pos.
Proof.
  intros ls pos N C Nd B L. unfold alist_read_pos, alist_write_pos. cbn [app].
  rewrite skip_title_ok; [|exact N|exact C|cbn [open s_rest]; rewrite app_length; lia]. cbn [bind].
  destruct pos as [|p0 pos0]; [reflexivity|]. set (pos := p0 :: pos0) in *.
  set (two := [dec (length pos); toks pos]).
  assert (N2 : Forall no_nl two) by (constructor; [apply plain_nl, plain_dec|constructor; [apply plain_nl, plain_toks|constructor]]).
  assert (R2 : relevant two = two).
  { unfold two, relevant. cbn [filter]. rewrite (plain_comment (dec (length pos))) by apply plain_dec. rewrite (plain_comment (toks pos)) by apply plain_toks.
    rewrite <- (app_nil_r (dec (length pos))) at 1. rewrite dec_blank. rewrite toks_blank by discriminate. reflexivity. }
  replace (dec (length pos) ++ nl :: toks pos ++ [nl]) with (lines two ++ []).
  2:{ unfold two, lines. cbn [flat_map]. rewrite !app_nil_r, <- app_assoc. reflexivity. }
  destruct (getline_split_ok two [] _ _ N2 R2) as (p1 & ls1 & E1 & N3 & R3 & G1). rewrite G1. cbn [bind].
  destruct (numbers_split _ _ (single_numbers (length pos))) as [L1 _]. unfold text in *. rewrite L1. cbn [length Nat.eqb guard bind].
  rewrite (at_i_ok _ _ 0 (single_numbers (length pos))); [|cbn [length]; lia|cbn [nth]; lia]. cbn [nth bind].
  destruct (getline_split_ok ls1 [] _ _ N3 R3) as (p2 & ls2 & E2 & N4 & R4 & G2). unfold text in *. rewrite G2. cbn [bind].
  destruct (numbers_split _ _ (toks_numbers pos)) as [L2 D2]. unfold text in *. rewrite L2, map_length. rewrite u32_id by lia. rewrite Z.eqb_refl. cbn [guard bind].
  apply (each_pos _ _ pos [] D2 eq_refl Nd B).
Qed.
