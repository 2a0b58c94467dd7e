(** Proofs about the peeling decoder. *)
From Coq Require Import List Arith Lia Bool ZArith.
From Verif Require Import Base SparseModel SparseSpec SparseProofs LDPCSpec LDPCProofs HardModel PeelModel PeelSpec.
Import ListNotations.

Lemma bitz_xor : forall a b, Z.lxor (bitz a) (bitz b) = bitz (xorb a b).
Proof. intros [] []; reflexivity. Qed.

Lemma one_filter : forall n v, v < n -> length (filter (fun u => u =? v) (seq 0 n)) = 1.
Proof.
  intros n v H. assert (X : NoDup [v]) by (constructor; [intros []|constructor]).
  pose proof (deg_len (fun _ u => u =? v) n 0 [v] X) as Q. unfold row_deg in Q. rewrite <- Q; [reflexivity|].
  intros c. rewrite Nat.eqb_eq. cbn [In]. split; [intros [<-|[]]; auto|intros [_ ->]; auto].
Qed.

Section P.
Variables (N M : nat) (h : nat -> nat -> bool).

Lemma forward_ok : forall fuel v st CN links g, sp_ok links N M g -> length CN = M -> v < N -> row_deg g M v < fuel ->
  exists CN' links', forward fuel v st CN links = Ret (CN', links') /\ sp_ok links' N M (fun i j => g i j && negb (i =? v)) /\ length CN' = M /\
    forall c, c < M -> nth c CN' 0%Z = if g v c then Z.lxor (nth c CN 0%Z) st else nth c CN 0%Z.
Proof.
  induction fuel as [|fuel IH]; intros v st CN links g Ok L Hv Hd; [lia|]. cbn [forward].
  destruct (row_ok links N M g v Ok Hv) as (l & El & ND & Hl). rewrite El. cbn [bind]. destruct l as [|c l].
  - assert (Z0 : forall c, c < M -> g v c = false).
    { intros c Hc. destruct (g v c) eqn:E; [|reflexivity]. destruct (proj2 (Hl c) (conj Hc E)). }
    exists CN, links. split; [reflexivity|]. split; [|split; [exact L|]].
    + apply (sp_ok_ext links N M g); [|exact Ok]. intros i j Hi Hj. destruct (Nat.eqb_spec i v) as [-> | _]; [rewrite (Z0 j Hj); reflexivity|]. cbn. rewrite andb_true_r. reflexivity.
    + intros c Hc. rewrite (Z0 c Hc). reflexivity.
  - destruct (proj1 (Hl c) (or_introl eq_refl)) as [Hc Hg].
    rewrite (rd_ok _ 0%Z) by lia. cbn [bind]. rewrite wr_ok by lia. cbn [bind].
    destruct (rm_ok links N M g v c Ok Hv Hc) as (links1 & E1 & Ok1). rewrite E1. cbn [bind].
    pose proof (proj1 (NoDup_cons_iff _ _) ND) as [NI ND'].
    destruct (IH v st (upd CN c (Z.lxor (nth c CN 0%Z) st)) links1 (clrf g v c) Ok1) as (CN' & links' & E' & Ok' & L' & H').
    + rewrite length_upd. exact L.
    + exact Hv.
    + rewrite <- (deg_len g M v (c :: l)) in Hd; [|constructor; assumption|exact Hl]. rewrite <- (deg_len (clrf g v c) M v l); [cbn [length] in Hd; lia|exact ND'|].
      intros d. unfold clrf. rewrite Nat.eqb_refl. cbn [andb]. destruct (Nat.eqb_spec d c) as [-> | Hne].
      * cbn [negb]. rewrite andb_false_r. split; [intros; contradiction|intros [_ H]; discriminate].
      * cbn [negb]. rewrite andb_true_r, <- Hl. cbn [In]. split; [auto|]. intros [H|H]; [congruence|exact H].
    + exists CN', links'. split; [exact E'|]. split; [|split; [exact L'|]].
      * apply (sp_ok_ext links' N M (fun i j => clrf g v c i j && negb (i =? v))); [|exact Ok']. intros i j Hi Hj. unfold clrf. destruct (Nat.eqb_spec i v); cbn [negb andb]; rewrite ?andb_false_r, ?andb_true_r; reflexivity.
      * intros d Hd'. rewrite (H' d Hd'). unfold clrf. rewrite Nat.eqb_refl. cbn [andb]. destruct (Nat.eqb_spec d c) as [-> | Hne].
        -- cbn [negb]. rewrite andb_false_r, Hg. rewrite nth_upd_eq by lia. reflexivity.
        -- cbn [negb]. rewrite andb_true_r. rewrite nth_upd_neq by auto. reflexivity.
Qed.

Lemma forward_all_ok : forall v st CN links g, sp_ok links N M g -> length CN = M -> v < N ->
  exists CN' links', forward_all v st CN links = Ret (CN', links') /\ sp_ok links' N M (fun i j => g i j && negb (i =? v)) /\ length CN' = M /\
    forall c, c < M -> nth c CN' 0%Z = if g v c then Z.lxor (nth c CN 0%Z) st else nth c CN 0%Z.
Proof.
  intros v st CN links g Ok L Hv. unfold forward_all. destruct (row_ok links N M g v Ok Hv) as (l & El & ND & Hl). rewrite El. cbn [bind].
  apply forward_ok; try assumption. rewrite (deg_len g M v l ND Hl). lia.
Qed.

(** The state once the variables of D are known: the others are the connections left, and each check holds the sum of the known ones. *)
Variable x : nat -> bool.
Definition st_ok (D : nat -> bool) (CN : list Z) (links : sparse) : Prop :=
  sp_ok links N M (fun v c => h v c && negb (D v)) /\ length CN = M /\
  forall c, c < M -> nth c CN 0%Z = bitz (parity N (fun v => h v c && (D v && x v))).

Lemma par_set : forall D v c, v < N -> D v = false ->
  parity N (fun u => h u c && ((D u || (u =? v)) && x u)) = xorb (parity N (fun u => h u c && (D u && x u))) (h v c && x v).
Proof.
  intros D v c Hv HD. assert (E : h v c && x v = parity N (fun u => (u =? v) && (h u c && x u))).
  { rewrite (par_one N _ v Hv). - rewrite Nat.eqb_refl. reflexivity. - intros j _ Hj. apply Nat.eqb_neq in Hj. rewrite Hj. reflexivity. }
  rewrite E, <- par_xor. apply par_ext. intros u Hu. destruct (Nat.eqb_spec u v) as [-> | _].
  - rewrite HD. cbn [orb andb]. rewrite andb_false_r, xorb_false_l. reflexivity.
  - rewrite orb_false_r. cbn [andb]. rewrite xorb_false_r. reflexivity.
Qed.

(** Sending a variable that was not in D. *)
Lemma send_ok : forall D v CN links, st_ok D CN links -> v < N -> D v = false ->
  exists CN' links', forward_all v (bitz (x v)) CN links = Ret (CN', links') /\ st_ok (fun u => D u || (u =? v)) CN' links'.
Proof.
  intros D v CN links (Ok & L & HC) Hv HD. destruct (forward_all_ok v (bitz (x v)) CN links _ Ok L Hv) as (CN' & links' & E & Ok' & L' & H').
  exists CN', links'. split; [exact E|]. split; [|split; [exact L'|]].
  - apply (sp_ok_ext links' N M (fun i j => h i j && negb (D i) && negb (i =? v))); [|exact Ok']. intros i j _ _. rewrite negb_orb, andb_assoc. reflexivity.
  - intros c Hc. rewrite (H' c Hc), HD. cbn [negb]. rewrite andb_true_r, par_set by assumption. rewrite (HC c Hc). destruct (h v c); cbn [andb]; [apply bitz_xor|rewrite xorb_false_r; reflexivity].
Qed.

Variable UNK : Z.
Hypothesis HU : UNK <> 0%Z /\ UNK <> 1%Z.
Hypothesis Hcode : in_code N M h x.

Lemma bitz_unk : forall b, bitz b <> UNK.
Proof. intros []; cbn; destruct HU; congruence. Qed.

Definition known (VN : list Z) (v : nat) : bool := negb (nth v VN 0 =? UNK)%Z.

Lemma known_val : forall VN v, received UNK N x VN -> v < N -> if known VN v then nth v VN 0%Z = bitz (x v) else nth v VN 0%Z = UNK.
Proof. intros VN v [_ H] Hv. unfold known. destruct (Z.eqb_spec (nth v VN 0%Z) UNK) as [E|E]; cbn [negb]; [exact E|]. destruct (H v Hv); congruence. Qed.

Lemma st_ext : forall D D' CN links, (forall v, v < N -> D v = D' v) -> st_ok D CN links -> st_ok D' CN links.
Proof.
  intros D D' CN links HD (Ok & L & HC). split; [|split; [exact L|]].
  - apply (sp_ok_ext links N M (fun v c => h v c && negb (D v))); [|exact Ok]. intros i j Hi _. rewrite (HD i Hi). reflexivity.
  - intros c Hc. rewrite (HC c Hc). f_equal. apply par_ext. intros u Hu. rewrite (HD u Hu). reflexivity.
Qed.

Lemma known_ok : forall VN H, sp_ok H N M h -> received UNK N x VN -> exists CN links, peel_known UNK VN (repeat 0%Z (sp_cols H)) H = Ret (CN, links) /\ st_ok (known VN) CN links.
Proof.
  intros VN H Ok HV. unfold peel_known. pose proof Ok as (R & C & _). rewrite R, C.
  destruct (for_inv _ (fun i '(CN, links) => st_ok (fun v => known VN v && (v <? i)) CN links) N (fun i '(CN, links) =>
      cur_state <- rd VN i ;; if (cur_state =? UNK)%Z then Ret (CN, links) else forward_all i cur_state CN links) (repeat 0%Z M, H)) as ([CN links] & E & I).
  - split; [|split; [apply repeat_length|]].
    + apply (sp_ok_ext H N M h); [|exact Ok]. intros i j _ _. rewrite andb_false_r. cbn. rewrite andb_true_r. reflexivity.
    + intros c Hc. rewrite nth_repeat_lt by exact Hc. rewrite par_false; [reflexivity|]. intros v _. rewrite andb_false_r. cbn [andb]. rewrite andb_false_r. reflexivity.
  - intros i [CN links] Hi I. rewrite (rd_ok _ 0%Z) by (destruct HV; lia). cbn [bind]. pose proof (known_val VN i HV Hi) as K.
    assert (Q : (nth i VN 0 =? UNK)%Z = negb (known VN i)) by (unfold known; rewrite negb_involutive; reflexivity). rewrite Q. destruct (known VN i) eqn:Ki; cbn [negb].
    + rewrite K. destruct (send_ok _ i CN links I Hi) as (CN' & links' & E' & I'). { rewrite Nat.ltb_irrefl, andb_false_r. reflexivity. }
      exists (CN', links'). split; [exact E'|]. refine (st_ext _ _ _ _ _ I'). intros v Hv.
      destruct (Nat.eqb_spec v i) as [-> | Hne]; [rewrite Ki; destruct (Nat.ltb_spec i (S i)); [|lia]; rewrite orb_true_r; reflexivity|]. rewrite orb_false_r. f_equal.
      destruct (Nat.ltb_spec v i), (Nat.ltb_spec v (S i)); try reflexivity; lia.
    + exists (CN, links). split; [reflexivity|]. refine (st_ext _ _ _ _ _ I). intros v Hv. destruct (Nat.eq_dec v i) as [-> | Hne]; [rewrite Ki; reflexivity|]. f_equal.
      destruct (Nat.ltb_spec v i), (Nat.ltb_spec v (S i)); try reflexivity; lia.
  - exists CN, links. split; [exact E|]. refine (st_ext _ _ _ _ _ I). intros v Hv. destruct (Nat.ltb_spec v N); [|lia]. apply andb_true_r.
Qed.

(** The invariant of the iterations: what was received stays, and the set of unknowns keeps every stopping set. *)
Variable Y : list Z.
Hypothesis HY : received UNK N x Y.
Definition vn_ok (VN : list Z) : Prop := received UNK N x VN /\ (forall v, v < N -> known Y v = true -> known VN v = true) /\
  forall S v, stopping N M h S -> (forall u, u < N -> S u = true -> known Y u = false) -> v < N -> S v = true -> known VN v = false.
Definition peel_ok (s : peel) : Prop := vn_ok (p_VN s) /\ st_ok (known (p_VN s)) (p_CN s) (p_links s).

Definition n_unknown (VN : list Z) : nat := length (filter (fun v => negb (known VN v)) (seq 0 N)).
(** Number of unknown variables of a check. *)
Definition n_left (VN : list Z) (c : nat) : nat := length (filter (fun v => h v c && negb (known VN v)) (seq 0 N)).

Lemma filter_len_le : forall A (p q : A -> bool) l, (forall a, In a l -> p a = true -> q a = true) -> length (filter p l) <= length (filter q l).
Proof.
  intros A p q. induction l as [|a l IH]; intros H; [cbn; lia|]. cbn [filter]. pose proof (H a (or_introl eq_refl)) as Ha. specialize (IH (fun b Hb => H b (or_intror Hb))).
  destruct (p a), (q a); cbn [length]; try lia.
Qed.
Lemma filter_len_lt : forall A (p q : A -> bool) l b, (forall a, In a l -> p a = true -> q a = true) -> In b l -> p b = false -> q b = true -> length (filter p l) < length (filter q l).
Proof.
  intros A p q. induction l as [|a l IH]; intros b H Hb Hp Hq; [destruct Hb|]. cbn [filter]. pose proof (H a (or_introl eq_refl)) as Ha. pose proof (filter_len_le _ p q l (fun b Hb => H b (or_intror Hb))) as Le.
  destruct Hb as [-> | Hb].
  - rewrite Hp, Hq. cbn [length]. lia.
  - specialize (IH b (fun c Hc => H c (or_intror Hc)) Hb Hp Hq). destruct (p a), (q a); cbn [length]; try lia.
Qed.

Lemma known_upd : forall VN v, received UNK N x VN -> v < N -> known VN v = false ->
  received UNK N x (upd VN v (bitz (x v))) /\ forall u, u < N -> known (upd VN v (bitz (x v))) u = known VN u || (u =? v).
Proof.
  intros VN v [L H] Hv K. split.
  - split; [rewrite length_upd; exact L|]. intros u Hu. destruct (Nat.eq_dec u v) as [-> | Hne]; [right; apply nth_upd_eq; lia|]. rewrite nth_upd_neq by auto. apply H, Hu.
  - intros u Hu. unfold known. destruct (Nat.eqb_spec u v) as [-> | Hne].
    + rewrite nth_upd_eq by lia. rewrite orb_true_r. apply negb_true_iff, Z.eqb_neq, bitz_unk.
    + rewrite nth_upd_neq by auto. rewrite orb_false_r. reflexivity.
Qed.

(** What one check does. *)
Definition step_rel (i : nat) (s s' : peel) : Prop :=
  peel_ok s' /\ (forall v, v < N -> known (p_VN s) v = true -> known (p_VN s') v = true) /\
  (n_left (p_VN s) i = 1 -> n_left (p_VN s') i = 0 /\ p_done s' = p_done s /\ p_nomod s' = false /\ n_unknown (p_VN s') < n_unknown (p_VN s)) /\
  (n_left (p_VN s) i <> 1 -> p_VN s' = p_VN s /\ p_done s' = p_done s && (n_left (p_VN s) i =? 0) /\ p_nomod s' = p_nomod s).

Lemma col_list : forall s i, peel_ok s -> i < M -> exists l, sp_col (p_links s) i = Ret l /\ length l = n_left (p_VN s) i /\ forall v, In v l <-> v < N /\ h v i = true /\ known (p_VN s) v = false.
Proof.
  intros s i [_ (Ok & _)] Hi. apply sp_is_ok in Ok. destruct Ok as (_ & _ & _ & _ & _ & _ & HC & _). destruct (HC i Hi) as (l & E & ND & Hl).
  exists l. split; [exact E|]. split.
  - unfold n_left. rewrite (deg_len (fun c v => h v c && negb (known (p_VN s) v)) N i l ND Hl). reflexivity.
  - intros v. rewrite Hl, andb_true_iff, negb_true_iff. reflexivity.
Qed.

Lemma check_ok : forall i s, peel_ok s -> i < M -> exists s', peel_check false i s = Ret s' /\ step_rel i s s'.
Proof.
  intros i s I Hi. destruct (col_list s i I Hi) as (l & E & Ll & Hl). unfold peel_check. rewrite E. cbn [bind].
  assert (Stay : length l <> 1 -> exists s', Ret (mkPeel (p_VN s) (p_CN s) (p_links s) (p_done s && (length l =? 0)) (p_nomod s)) = Ret s' /\ step_rel i s s').
  { intros H1. eexists. split; [reflexivity|]. split; [exact I|]. split; [auto|]. cbn [p_VN p_done p_nomod]. rewrite Ll. rewrite Ll in H1. split; [congruence|]. auto. }
  destruct l as [|v [|u l]]; [apply Stay; discriminate| |apply Stay; discriminate].
  clear Stay. cbn [length] in Ll. destruct (proj1 (Hl v) (or_introl eq_refl)) as (Hv & Hvi & Kv).
  destruct I as [(Rv & Mono & Stop) (Ok & LC & HC)].
  assert (Only : forall u, u < N -> h u i = true -> known (p_VN s) u = false -> u = v).
  { intros u Hu H1 H2. destruct (proj2 (Hl u) (conj Hu (conj H1 H2))) as [Eu|[]]. congruence. }
  rewrite (rd_ok _ 0%Z) by lia. cbn [bind]. rewrite wr_ok by (destruct Rv; lia). cbn [bind]. rewrite wr_ok by lia. cbn [bind].
  assert (Cv : nth i (p_CN s) 0%Z = bitz (x v)).
  { rewrite (HC i Hi). f_equal. pose proof (Hcode i Hi) as Q.
    assert (Q2 : parity N (fun u => h u i && x u) = xorb (parity N (fun u => h u i && (known (p_VN s) u && x u))) (h v i && x v)).
    { rewrite <- (par_set (known (p_VN s)) v i Hv Kv). apply par_ext. intros u Hu. destruct (h u i) eqn:Hui; [|reflexivity]. destruct (known (p_VN s) u) eqn:Ku; [reflexivity|].
      rewrite (Only u Hu Hui Ku), Nat.eqb_refl. reflexivity. }
    rewrite Q, Hvi in Q2. cbn [andb] in Q2. symmetry in Q2. apply xorb_eq in Q2. exact Q2. }
  rewrite Cv. destruct (rm_ok _ N M _ v i Ok Hv Hi) as (links1 & E1 & Ok1). rewrite E1. cbn [bind].
  set (CN1 := upd (p_CN s) i 0%Z).
  destruct (forward_all_ok v (bitz (x v)) CN1 links1 _ Ok1) as (CN' & links' & E' & Ok' & L' & H'); [unfold CN1; rewrite length_upd; exact LC|exact Hv|].
  rewrite E'. cbn [bind]. destruct (known_upd (p_VN s) v Rv Hv Kv) as [Rv' Ku].
  eexists. split; [reflexivity|].
  assert (St' : st_ok (fun u => known (p_VN s) u || (u =? v)) CN' links').
  { split; [|split; [exact L'|]].
    - apply (sp_ok_ext links' N M (fun a b => clrf (fun v c => h v c && negb (known (p_VN s) v)) v i a b && negb (a =? v))); [|exact Ok']. intros a b _ _. unfold clrf. rewrite negb_orb.
      destruct (Nat.eqb_spec a v); cbn [negb andb]; rewrite ?andb_false_r, ?andb_true_r; reflexivity.
    - intros c Hc. rewrite (H' c Hc). unfold clrf. rewrite Kv, Nat.eqb_refl. cbn [negb andb]. rewrite andb_true_r, par_set by assumption. unfold CN1. destruct (Nat.eqb_spec c i) as [-> | Hne].
      + cbn [negb]. rewrite andb_false_r, nth_upd_eq by lia. rewrite <- par_set by assumption.
        rewrite (par_ext N _ (fun u => h u i && x u)); [rewrite (Hcode i Hi); reflexivity|]. intros u Hu. destruct (h u i) eqn:Hui; [|reflexivity]. destruct (known (p_VN s) u) eqn:Ku'; [reflexivity|].
        rewrite (Only u Hu Hui Ku'), Nat.eqb_refl. reflexivity.
      + cbn [negb]. rewrite andb_true_r, nth_upd_neq by auto. rewrite (HC c Hc). destruct (h v c); cbn [andb]; [apply bitz_xor|rewrite xorb_false_r; reflexivity]. }
  unfold step_rel, peel_ok. cbn [p_VN p_CN p_links p_done p_nomod].
  assert (Le : forall u, u < N -> known (p_VN s) u = true -> known (upd (p_VN s) v (bitz (x v))) u = true) by (intros u Hu H; rewrite (Ku u Hu), H; reflexivity).
  split; [split|split; [exact Le|split]].
  - split; [exact Rv'|]. split; [intros u Hu H; apply Le, Mono; assumption|].
    intros S u HS Sub Hu Su. rewrite (Ku u Hu). rewrite (Stop S u HS Sub Hu Su). cbn [orb]. apply Nat.eqb_neq. intros ->.
    apply (HS i Hi). rewrite <- (one_filter N v Hv). f_equal. apply filter_ext_in. intros u Hu'. apply in_seq in Hu'.
    destruct (Nat.eqb_spec u v) as [-> | Hne]; [rewrite Hvi, Su; reflexivity|]. destruct (h u i) eqn:Hui; [|reflexivity]. destruct (S u) eqn:Su'; [|reflexivity].
    exfalso. apply Hne. apply Only; [lia|exact Hui|]. apply (Stop S u HS Sub); [lia|exact Su'].
  - refine (st_ext _ _ _ _ _ St'). intros u Hu. symmetry. apply Ku, Hu.
  - intros _. split; [|split; [reflexivity|split; [reflexivity|]]].
    + unfold n_left. destruct (filter _ _) as [|u fl] eqn:F; [reflexivity|]. exfalso. assert (In u (u :: fl)) by (left; reflexivity). rewrite <- F in H. apply filter_In in H. destruct H as [Hu H]. apply in_seq in Hu.
      apply andb_true_iff in H. destruct H as [H1 H2]. apply negb_true_iff in H2. rewrite (Ku u ltac:(lia)) in H2. apply orb_false_iff in H2. destruct H2 as [H2 H3]. apply Nat.eqb_neq in H3. apply H3, Only; [lia|exact H1|exact H2].
    + unfold n_unknown. apply (filter_len_lt _ _ _ _ v); [|apply in_seq; lia|rewrite (Ku v Hv), Nat.eqb_refl, orb_true_r; reflexivity|rewrite Kv; reflexivity].
      intros u Hu H. apply in_seq in Hu. apply negb_true_iff in H. apply negb_true_iff. destruct (known (p_VN s) u) eqn:K; [|reflexivity]. rewrite (Le u ltac:(lia) K) in H. discriminate.
  - intros H. unfold n_left in *. lia.
Qed.

Lemma left_mono : forall VN VN' c, (forall v, v < N -> known VN v = true -> known VN' v = true) -> n_left VN' c <= n_left VN c.
Proof.
  intros VN VN' c H. unfold n_left. apply filter_len_le. intros v Hv. apply in_seq in Hv. rewrite !andb_true_iff, !negb_true_iff. intros [A B]. split; [exact A|].
  destruct (known VN v) eqn:K; [|reflexivity]. rewrite (H v ltac:(lia) K) in B. discriminate.
Qed.

Definition ite_rel (s s' : peel) : Prop :=
  peel_ok s' /\ (forall v, v < N -> known (p_VN s) v = true -> known (p_VN s') v = true) /\
  (p_done s' = true -> forall c, c < M -> n_left (p_VN s') c = 0) /\
  (p_nomod s' = true -> p_VN s' = p_VN s /\ (forall c, c < M -> n_left (p_VN s') c <> 1) /\ ((forall c, c < M -> n_left (p_VN s') c = 0) -> p_done s' = true)) /\
  (p_nomod s' = false -> n_unknown (p_VN s') < n_unknown (p_VN s)) /\
  ((forall c, c < M -> n_left (p_VN s) c <> 1) -> p_nomod s' = true).

Lemma ite_ok : forall s, peel_ok s -> p_done s = true -> p_nomod s = true -> exists s', for_ (sp_cols (p_links s)) (peel_check false) s = Ret s' /\ ite_rel s s'.
Proof.
  intros s I Hd Hn. assert (C : sp_cols (p_links s) = M) by (destruct I as [_ ((_ & C & _) & _)]; exact C). rewrite C.
  destruct (for_inv _ (fun i s' => peel_ok s' /\ (forall v, v < N -> known (p_VN s) v = true -> known (p_VN s') v = true) /\
     (p_done s' = true -> forall c, c < i -> n_left (p_VN s') c = 0) /\
     (p_nomod s' = true -> p_VN s' = p_VN s /\ (forall c, c < i -> n_left (p_VN s') c <> 1) /\ ((forall c, c < i -> n_left (p_VN s') c = 0) -> p_done s' = true)) /\
     (p_nomod s' = false -> n_unknown (p_VN s') < n_unknown (p_VN s)) /\
     ((forall c, c < M -> n_left (p_VN s) c <> 1) -> p_nomod s' = true)) M (peel_check false) s) as (s' & E & A1 & A2 & A3 & A4 & A5 & A6).
  - split; [exact I|]. split; [auto|]. split; [intros; lia|]. split; [intros _; split; [reflexivity|split; [intros; lia|auto]]|]. split; [congruence|auto].
  - intros i s1 Hi (A1 & A2 & A3 & A4 & A5 & A6). destruct (check_ok i s1 A1 Hi) as (s2 & E2 & B1 & B2 & B3 & B4). exists s2. split; [exact E2|].
    split; [exact B1|]. split; [intros v Hv H; apply B2, A2; assumption|].
    destruct (Nat.eq_dec (n_left (p_VN s1) i) 1) as [H1|H1].
    + destruct (B3 H1) as (C1 & C2 & C3 & C4). rewrite C2, C3. split; [|split; [discriminate|split]].
      * intros D c Hc. destruct (Nat.eq_dec c i) as [-> | Hne]; [exact C1|]. pose proof (A3 D c ltac:(lia)) as Q. pose proof (left_mono (p_VN s1) (p_VN s2) c B2). lia.
      * intros _. destruct (p_nomod s1) eqn:Nm; [destruct (A4 eq_refl) as (Q & _); rewrite <- Q; exact C4|]. specialize (A5 eq_refl). lia.
      * intros Q. exfalso. destruct (A4 (A6 Q)) as (V & _). rewrite V in H1. apply (Q i Hi H1).
    + destruct (B4 H1) as (C1 & C2 & C3). rewrite C1, C2, C3. split; [|split; [|split; [exact A5|exact A6]]].
      * intros D c Hc. apply andb_true_iff in D. destruct D as [D1 D2]. apply Nat.eqb_eq in D2. destruct (Nat.eq_dec c i) as [-> | Hne]; [exact D2|]. apply (A3 D1). lia.
      * intros Nm. destruct (A4 Nm) as (V & W & X). split; [exact V|]. split.
        -- intros c Hc. destruct (Nat.eq_dec c i) as [-> | Hne]; [exact H1|]. apply W. lia.
        -- intros Q. rewrite X by (intros; apply Q; lia). rewrite (Q i) by lia. reflexivity.
  - exists s'. split; [exact E|]. split; [exact A1|]. split; [exact A2|]. split; [exact A3|]. split; [exact A4|]. split; [exact A5|exact A6].
Qed.

Lemma ites_ok : forall cnt synd md depth s, peel_ok s -> 0 < cnt -> exists s', peel_ite false cnt synd md depth s = Ret s' /\ peel_ok s' /\
  (p_done s' = true -> forall c, c < M -> n_left (p_VN s') c = 0) /\
  (n_unknown (p_VN s) < cnt \/ (forall c, c < M -> n_left (p_VN s) c <> 1) ->
   (forall c, c < M -> n_left (p_VN s') c <> 1) /\ ((forall c, c < M -> n_left (p_VN s') c = 0) -> p_done s' = true)).
Proof.
  induction cnt as [|cnt IH]; intros synd md depth s I Hc; [lia|]. cbn [peel_ite].
  destruct (ite_ok (mkPeel (p_VN s) (p_CN s) (p_links s) true true) I eq_refl eq_refl) as (s1 & E & A1 & A2 & A3 & A4 & A5 & A6). cbn [p_links p_VN] in *. rewrite E. cbn [bind].
  assert (Stop : p_done s1 = true \/ p_nomod s1 = true -> (forall c, c < M -> n_left (p_VN s1) c <> 1) /\ ((forall c, c < M -> n_left (p_VN s1) c = 0) -> p_done s1 = true)).
  { intros [D|Q]; [|apply A4, Q]. split; [intros c Hc'; rewrite (A3 D c Hc'); discriminate|auto]. }
  assert (Go : forall depth', exists s', peel_ite false cnt synd md depth' s1 = Ret s' /\ peel_ok s' /\ (p_done s' = true -> forall c, c < M -> n_left (p_VN s') c = 0) /\
     (n_unknown (p_VN s) < S cnt \/ (forall c, c < M -> n_left (p_VN s) c <> 1) -> (forall c, c < M -> n_left (p_VN s') c <> 1) /\ ((forall c, c < M -> n_left (p_VN s') c = 0) -> p_done s' = true))).
  { intros depth'. destruct cnt as [|cnt'].
    - exists s1. split; [reflexivity|]. split; [exact A1|]. split; [exact A3|]. intros B. apply Stop. right. destruct B as [B|B]; [|apply A6, B].
      destruct (p_nomod s1) eqn:Nm; [reflexivity|]. specialize (A5 eq_refl). lia.
    - destruct (IH synd md depth' s1 A1 ltac:(lia)) as (s' & E' & B1 & B2 & B3). exists s'. split; [exact E'|]. split; [exact B1|]. split; [exact B2|]. intros B. apply B3.
      destruct (p_nomod s1) eqn:Nm.
      + right. apply A4. reflexivity.
      + left. specialize (A5 eq_refl). destruct B as [B|B]; [lia|]. specialize (A6 B). discriminate. }
  destruct (synd && (p_done s1 || p_nomod s1)) eqn:B; [|apply Go].
  destruct (md <=? S depth); [|apply Go]. exists s1. split; [reflexivity|]. split; [exact A1|]. split; [exact A3|]. intros _. apply Stop. apply andb_true_iff in B. destruct B as [_ B]. apply orb_true_iff in B. exact B.
Qed.

Lemma left_zero : forall VN c, n_left VN c = 0 -> forall v, v < N -> h v c = true -> known VN v = true.
Proof.
  intros VN c H v Hv Hh. destruct (known VN v) eqn:K; [reflexivity|]. exfalso. unfold n_left in H.
  assert (Q : In v (filter (fun v => h v c && negb (known VN v)) (seq 0 N))) by (apply filter_In; split; [apply in_seq; lia|rewrite Hh, K; reflexivity]).
  destruct (filter _ _); [destruct Q|discriminate].
Qed.
Lemma zero_left : forall VN c, (forall v, v < N -> h v c = true -> known VN v = true) -> n_left VN c = 0.
Proof.
  intros VN c H. unfold n_left. destruct (filter _ _) as [|v l] eqn:F; [reflexivity|]. exfalso. assert (Q : In v (v :: l)) by (left; reflexivity). rewrite <- F in Q.
  apply filter_In in Q. destruct Q as [Hv Q]. apply in_seq in Hv. apply andb_true_iff in Q. destruct Q as [Q1 Q2]. rewrite (H v ltac:(lia) Q1) in Q2. discriminate.
Qed.

Lemma decode_ok : forall H n_ite synd md, sp_ok H N M h -> 0 < n_ite -> exists V d, peel_decode UNK false H n_ite synd md Y = Ret (V, d) /\ vn_ok V /\
  (d = true -> forall v c, v < N -> c < M -> h v c = true -> known V v = true) /\
  (n_unknown Y < n_ite -> stopping N M h (fun v => negb (known V v)) /\ ((forall v c, v < N -> c < M -> h v c = true -> known V v = true) -> d = true)).
Proof.
  intros H n_ite synd md Ok Hi. unfold peel_decode. destruct (known_ok Y H Ok HY) as (CN & links & E & St). rewrite E. cbn [bind].
  destruct (ites_ok n_ite synd md 0 (mkPeel Y CN links false true)) as (s' & E' & (I1 & I2) & A3 & A4); [|exact Hi|].
  { split; [|exact St]. cbn [p_VN]. split; [exact HY|]. split; [auto|]. intros S v _ Sub Hv Sv. apply Sub; assumption. }
  rewrite E'. cbn [bind]. exists (p_VN s'), (p_done s'). split; [reflexivity|]. split; [exact I1|]. split.
  - intros D v c Hv Hc Hh. apply (left_zero (p_VN s') c); auto.
  - intros B. destruct (A4 (or_introl B)) as [B1 B2]. split.
    + intros c Hc. apply B1, Hc.
    + intros Q. apply B2. intros c Hc. apply zero_left. intros v Hv Hh. apply (Q v c); assumption.
Qed.
End P.
