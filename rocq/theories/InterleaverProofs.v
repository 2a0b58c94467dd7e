(** Lemmas about the interleaver model. *)
From Coq Require Import List Arith Lia Bool Permutation.
From Verif Require Import Base Loops InterleaverModel.
Import ListNotations.

Lemma wrap_small : forall w x, x < 2 ^ w -> wrap w x = x.
Proof. intros; unfold wrap; apply Nat.mod_small; auto. Qed.

(** Block [f] of a table array. *)
Definition block (sz f : nat) (l : list nat) : list nat := firstn sz (skipn (f * sz) l).

Lemma length_block : forall sz f n l, length l = sz * n -> f < n -> length (block sz f l) = sz.
Proof. intros. unfold block. rewrite firstn_length, skipn_length. nia. Qed.

Lemma nth_block : forall sz f l i, i < sz -> nth i (block sz f l) 0 = nth (f * sz + i) l 0.
Proof. intros. unfold block. rewrite firstn_nth, skipn_nth; auto. Qed.

Lemma copy_at_ok : forall src dst off, off + length src <= length dst ->
  exists d', copy_at src dst off = Ret d' /\ length d' = length dst /\
    (forall i, i < length src -> nth (off + i) d' 0 = nth i src 0) /\
    (forall j, j < off \/ off + length src <= j -> nth j d' 0 = nth j dst 0).
Proof.
  intros src dst off H. unfold copy_at.
  rewrite for_ext with (b2 := fun i d => wr d (off + i) (nth i src 0)).
  2:{ intros. rewrite (rd_ok _ 0) by auto. reflexivity. }
  destruct (scatter nat 0 (length src) (fun i => off + i) (fun i => nth i src 0) dst)
    as (d' & E & L & I1 & I2); try (intros; lia).
  exists d'. repeat split; auto. intros j Hj. apply I2. intros; lia.
Qed.

Lemma inv_loop_ok : forall w sz n f pi piv,
  sz <= 2 ^ w -> length pi = sz * n -> length piv = sz * n -> f < n ->
  is_perm sz (block sz f pi) ->
  exists piv', inv_loop w sz (f * sz) pi piv = Ret piv' /\ length piv' = length piv /\
    (forall i, i < sz -> nth (nth i (block sz f pi) 0) (block sz f piv') 0 = i) /\
    (forall j, j < f * sz \/ f * sz + sz <= j -> nth j piv' 0 = nth j piv 0).
Proof.
  intros w sz n f pi piv Hw Lp Lv Hf (P1 & P2 & P3). unfold inv_loop.
  rewrite for_ext with (b2 := fun i d => wr d (f * sz + nth i (block sz f pi) 0) i).
  2:{ intros. rewrite (rd_ok _ 0) by (rewrite Lp; nia). simpl.
      rewrite nth_block by auto. rewrite wrap_small by lia. reflexivity. }
  destruct (scatter nat 0 sz (fun i => f * sz + nth i (block sz f pi) 0) (fun i => i) piv)
    as (d' & E & L & I1 & I2).
  - intros. pose proof (P2 i H). rewrite Lv. nia.
  - intros. apply P3; auto. lia.
  - exists d'. repeat split; auto.
    + intros. rewrite nth_block by auto. apply I1; auto.
    + intros. apply I2. intros i Hi. pose proof (P2 i Hi). lia.
Qed.

(** What a generator must do: turn any block of the right size into a permutation
    table. *)
Definition gen_ok (sz : nat) (gen : generator) : Prop :=
  forall f lut, length lut = sz -> exists l, gen f lut = Ret l /\ is_perm sz l.

Lemma gen_at_ok : forall sz n gen f pi, gen_ok sz gen -> length pi = sz * n -> f < n ->
  exists pi', gen_at sz gen f (f * sz) pi = Ret pi' /\ length pi' = length pi /\
    is_perm sz (block sz f pi') /\
    gen f (block sz f pi) = Ret (block sz f pi') /\
    (forall j, j < f * sz \/ f * sz + sz <= j -> nth j pi' 0 = nth j pi 0).
Proof.
  intros sz n gen f pi G L Hf. unfold gen_at. fold (block sz f pi).
  destruct (G f (block sz f pi)) as (l & E & P). { eapply length_block; eauto. }
  rewrite E; simpl. destruct (copy_at_ok l pi (f * sz)) as (d' & E' & L' & I1 & I2).
  { destruct P as (P1 & _). rewrite P1, L. nia. }
  destruct P as (P1 & P2 & P3). rewrite P1 in *.
  assert (B: block sz f d' = l).
  { apply list_eq_nth with (d := 0).
    - rewrite (length_block _ _ n); auto; lia.
    - intros i Hi. rewrite (length_block _ _ n) in Hi; try lia. rewrite nth_block by auto.
      apply I1; auto. }
  exists d'. rewrite B. repeat split; auto.
Qed.

Lemma block_ext : forall sz f l l', 
  length (block sz f l) = sz -> length (block sz f l') = sz ->
  (forall i, i < sz -> nth (f * sz + i) l 0 = nth (f * sz + i) l' 0) ->
  block sz f l = block sz f l'.
Proof.
  intros. apply list_eq_nth with (d := 0). { lia. }
  intros i Hi. rewrite H in Hi. rewrite !nth_block by auto. auto.
Qed.

Definition inverse (sz : nat) (p q : list nat) : Prop :=
  forall i, i < sz -> nth (nth i p 0) q 0 = i.

Lemma inverse_perm : forall sz p q, is_perm sz p -> length q = sz -> inverse sz p q ->
  is_perm sz q /\ inverse sz q p.
Proof.
  intros sz p q Hp Lq Hinv. destruct Hp as (P1 & P2 & P3) eqn:E. clear E.
  assert (S: forall k, k < sz -> exists i, i < sz /\ nth i p 0 = k).
  { intros; apply is_perm_surj; auto. }
  split.
  - split; [auto|split].
    + intros k Hk. destruct (S k Hk) as (i & Hi & <-). rewrite Hinv; auto.
    + intros k k' Hk Hk' e. destruct (S k Hk) as (i & Hi & <-). destruct (S k' Hk') as (i' & Hi' & <-).
      rewrite !Hinv in e by auto. subst; auto.
  - intros k Hk. destruct (S k Hk) as (i & Hi & <-). rewrite Hinv; auto.
Qed.

(** The state reached by init_core: every frame has a permutation table and its
    inverse. *)
Definition core_ok (sz n : nat) (c : list nat * list nat) : Prop :=
  length (fst c) = sz * n /\ length (snd c) = sz * n /\
  forall f, f < n -> is_perm sz (block sz f (fst c)) /\
                     is_perm sz (block sz f (snd c)) /\
                     inverse sz (block sz f (fst c)) (block sz f (snd c)) /\
                     inverse sz (block sz f (snd c)) (block sz f (fst c)).

Lemma nth_lt_block : forall sz f i, i < sz -> f * sz + i < f * sz + sz.
Proof. lia. Qed.

Lemma init_core_ok : forall w sz n unif gen, 0 < sz -> 0 < n -> sz <= 2 ^ w -> gen_ok sz gen ->
  exists c, init_core w sz n unif gen = Ret c /\ core_ok sz n c /\
    (if unif then forall f, f < n -> exists b, length b = sz /\ gen f b = Ret (block sz f (fst c))
     else (exists b, length b = sz /\ gen 0 b = Ret (block sz 0 (fst c))) /\
          forall f, f < n -> block sz f (fst c) = block sz 0 (fst c) /\ block sz f (snd c) = block sz 0 (snd c)).
Proof.
  intros w sz n unif gen Hs Hn Hw G.
  unfold init_core, refresh. destruct (Nat.eqb_spec sz 0); [lia|]. destruct (Nat.eqb_spec n 0); [lia|].
  set (z := repeat 0 (sz * n)).
  assert (Lz: length z = sz * n) by apply repeat_length.
  destruct (gen_at_ok sz n gen 0 z G Lz) as (pi & E1 & L1 & P1 & G1 & _); auto.
  simpl in E1. rewrite E1. simpl bind. rewrite Lz in L1.
  destruct (inv_loop_ok w sz n 0 pi z Hw) as (piv & E2 & L2 & I2 & _); auto.
  simpl in E2. rewrite E2. simpl bind. rewrite Lz in L2.
  assert (Lb0 : length (block sz 0 piv) = sz) by (eapply length_block; eauto).
  destruct (inverse_perm sz (block sz 0 pi) (block sz 0 piv) P1 Lb0 I2) as (Pq & Iq).
  destruct unif.
  - set (Inv := fun k (c : list nat * list nat) =>
       length (fst c) = sz * n /\ length (snd c) = sz * n /\
       forall f, f < k -> (is_perm sz (block sz f (fst c)) /\
                     is_perm sz (block sz f (snd c)) /\
                     inverse sz (block sz f (fst c)) (block sz f (snd c)) /\
                     inverse sz (block sz f (snd c)) (block sz f (fst c))) /\
                   exists b, length b = sz /\ gen f b = Ret (block sz f (fst c))).
    edestruct (for_from_inv _ Inv (n - 1) 1) as (c & E & I); cycle 2.
    + exists c. rewrite E. split; [reflexivity|]. destruct I as (A & B & C).
      replace (1 + (n - 1)) with n in C by lia. split.
      * split; [auto|]. split; auto. intros; apply C; auto.
      * intros; apply C; auto.
    + split; [auto|]. split; [auto|]. intros f Hf. assert (f = 0) by lia. subst f. simpl. split.
      * auto.
      * exists (block sz 0 z). split; [eapply length_block; eauto|auto].
    + intros f (p, q) Hf (A & B & C). cbn [fst snd] in *.
      destruct (gen_at_ok sz n gen f p G A) as (p' & F1 & M1 & Q1 & H1 & K1); [lia|].
      rewrite F1. simpl bind. rewrite A in M1.
      destruct (inv_loop_ok w sz n f p' q Hw) as (q' & F2 & M2 & J2 & K2); auto; [lia|].
      rewrite F2. simpl bind. rewrite B in M2.
      eexists. split; [reflexivity|]. split; [auto|]. split; [auto|]. cbn [fst snd].
      intros f' Hf'. destruct (Nat.eq_dec f' f).
      * subst f'. assert (Lb : length (block sz f q') = sz) by (eapply length_block; eauto; lia).
        destruct (inverse_perm sz _ _ Q1 Lb J2). split; [auto|].
        exists (block sz f p). split; [eapply length_block; eauto; lia|auto].
      * assert (block sz f' p' = block sz f' p) as ->.
        { apply block_ext; try (eapply length_block; eauto; lia).
          intros i Hi. apply K1. nia. }
        assert (block sz f' q' = block sz f' q) as ->.
        { apply block_ext; try (eapply length_block; eauto; lia).
          intros i Hi. apply K2. nia. }
        apply C. lia.
  - set (Inv := fun k (c : list nat * list nat) =>
       length (fst c) = sz * n /\ length (snd c) = sz * n /\
       forall f, f < k -> block sz f (fst c) = block sz 0 pi /\ block sz f (snd c) = block sz 0 piv).
    edestruct (for_from_inv _ Inv (n - 1) 1) as (c & E & I); cycle 2.
    + exists c. rewrite E. split; [reflexivity|]. destruct I as (A & B & C).
      replace (1 + (n - 1)) with n in C by lia. split.
      * split; [auto|]. split; auto. intros f Hf. destruct (C f Hf) as (-> & ->). auto.
      * split.
        -- exists (block sz 0 z). split; [eapply length_block; eauto|].
           destruct (C 0) as (-> & _); auto.
        -- intros f Hf. destruct (C f Hf) as (-> & ->). destruct (C 0) as (-> & ->); auto.
    + split; [auto|]. split; [auto|]. intros f Hf. assert (f = 0) by lia. subst f. simpl. auto.
    + intros f (p, q) Hf (A & B & C). cbn [fst snd] in *.
      destruct (C 0) as (C1 & C2); [lia|].
      assert (B0 : forall l, firstn sz l = block sz 0 l) by reflexivity.
      rewrite !B0, C1.
      assert (Lp : length (block sz 0 pi) = sz) by (eapply length_block; eauto).
      assert (Lq : length (block sz 0 piv) = sz) by auto.
      destruct (copy_at_ok (block sz 0 pi) p (f * sz)) as (p' & F1 & M1 & J1 & K1). { rewrite Lp, A. nia. }
      rewrite F1. simpl bind. rewrite C2.
      destruct (copy_at_ok (block sz 0 piv) q (f * sz)) as (q' & F2 & M2 & J2 & K2). { rewrite Lq, B. nia. }
      rewrite F2. simpl bind. rewrite Lp in *. rewrite Lq in *.
      eexists. split; [reflexivity|]. rewrite A in M1. rewrite B in M2. split; [auto|]. split; [auto|].
      cbn [fst snd]. intros f' Hf'. destruct (Nat.eq_dec f' f).
      * subst f'. split.
        -- apply list_eq_nth with (d := 0). { rewrite Lp. eapply length_block; eauto. lia. }
           intros i Hi. rewrite (length_block _ _ n) in Hi by (auto; lia). rewrite nth_block by auto. auto.
        -- apply list_eq_nth with (d := 0). { rewrite Lq. eapply length_block; eauto. lia. }
           intros i Hi. rewrite (length_block _ _ n) in Hi by (auto; lia). rewrite nth_block by auto. auto.
      * destruct (C f') as (<- & <-); [lia|]. split.
        -- apply block_ext; try (eapply length_block; eauto; lia). intros i Hi. apply K1. nia.
        -- apply block_ext; try (eapply length_block; eauto; lia). intros i Hi. apply K2. nia.
Qed.

(* ------------------------------------------------------------------ *)
(** * The module *)

(** Table used for the f-th frame of the call. *)
Fixpoint cur_frame (m : itl) (fid f : nat) : nat :=
  match f with
  | 0 => (fid mod nf m) mod core_nf m
  | S f' => ((cur_frame m fid f' + 1) mod nf m) mod core_nf m
  end.

Definition lut_base (m : itl) (fid f : nat) : nat :=
  if uniform m then cur_frame m fid f else 0.

Lemma cur_frame_lt : forall m fid f, 0 < core_nf m -> cur_frame m fid f < core_nf m.
Proof. destruct f; simpl; intros; apply Nat.mod_upper_bound; lia. Qed.

Lemma lut_base_lt : forall m fid f, 0 < core_nf m -> lut_base m fid f < core_nf m.
Proof. intros; unfold lut_base; destruct (uniform m); auto using cur_frame_lt. Qed.

Definition luts_ok (m : itl) (lut : list nat) : Prop :=
  length lut = size m * core_nf m /\ 0 < core_nf m /\
  forall f, f < core_nf m -> is_perm (size m) (block (size m) f lut).

Lemma loop_cur : forall D (m : itl) fid n (body : nat -> nat -> list D -> outcome (list D)) out,
  (r <- for_ n (fun f '(out, cur) =>
      out <- body f cur out ;;
      Ret (out, ((cur + 1) mod nf m) mod core_nf m)) (out, (fid mod nf m) mod core_nf m) ;;
   Ret (fst r)) = for_ n (fun f out => body f (cur_frame m fid f) out) out.
Proof.
  intros.
  assert (H: for_ n (fun f '(out, cur) =>
      out <- body f cur out ;;
      Ret (out, ((cur + 1) mod nf m) mod core_nf m)) (out, (fid mod nf m) mod core_nf m)
     = (o <- for_ n (fun f out => body f (cur_frame m fid f) out) out ;; Ret (o, cur_frame m fid n))).
  { induction n.
    - reflexivity.
    - rewrite !for_S, IHn. rewrite !bind_assoc. apply bind_ext. intros a _. simpl.
      apply bind_ext. reflexivity. }
  rewrite H. rewrite bind_assoc. simpl.
  destruct (for_ n _ out); reflexivity.
Qed.

Lemma interleave_gather : forall D (d : D) m lut fid inp out,
  luts_ok m lut -> npw m * size m <= length inp -> npw m * size m <= length out ->
  exists out', interleave m lut fid inp out = Ret out' /\ length out' = length out /\
    (forall f i, f < npw m -> i < size m ->
       nth (f * size m + i) out' d = nth (f * size m + nth i (block (size m) (lut_base m fid f) lut) 0) inp d) /\
    (forall j, npw m * size m <= j -> nth j out' d = nth j out d).
Proof.
  intros D d m lut fid inp out (Ll & Hc & HP) Hin Hout.
  assert (K: forall f i, f < npw m -> i < size m ->
     (forall o : list D, bind (rd lut (lut_base m fid f * size m + i)) (fun v => bind (rd inp (f * size m + v)) (fun x => wr o (f * size m + i) x))
     = wr o (f * size m + i) (nth (f * size m + nth i (block (size m) (lut_base m fid f) lut) 0) inp d))).
  { intros f i Hf Hi o. pose proof (lut_base_lt m fid f Hc) as Hlb.
    destruct (HP _ Hlb) as (P1 & P2 & P3).
    rewrite (rd_ok _ 0) by (rewrite Ll; nia). rewrite bind_Ret.
    rewrite <- nth_block by auto. pose proof (P2 i Hi).
    rewrite (rd_ok _ d) by nia. reflexivity. }
  assert (E: interleave m lut fid inp out =
     for_ (npw m) (fun f o => for_ (size m) (fun i o =>
        wr o (f * size m + i) (nth (f * size m + nth i (block (size m) (lut_base m fid f) lut) 0) inp d)) o) out).
  { unfold interleave, lut_base in *. destruct (uniform m); simpl.
    - rewrite (loop_cur D m fid (npw m) (fun f cur out =>
        for_ (size m) (fun i out => v <- rd lut (cur * size m + i) ;; x <- rd inp (f * size m + v) ;;
        wr out (f * size m + i) x) out)).
      apply for_ext. intros f o Hf. apply for_ext. intros i o' Hi. apply K; auto.
    - apply for_ext. intros f o Hf. apply for_ext. intros i o' Hi. rewrite <- K by auto. reflexivity. }
  rewrite E.
  destruct (scatter2 D d (npw m) (size m) (fun f i => f * size m + i)
     (fun f i => nth (f * size m + nth i (block (size m) (lut_base m fid f) lut) 0) inp d) out)
     as (o & E' & L & I1 & I2).
  - intros. nia.
  - intros f i f' i' ? ? ? ? e. eapply divmod_unique_lt; eauto.
  - exists o. repeat split; auto. intros j Hj. apply I2. intros. nia.
Qed.

Lemma interleave_reordering_gather : forall D (d : D) m lut fid inp out,
  luts_ok m lut -> nf m = npw m -> npw m * size m <= length inp -> npw m * size m <= length out ->
  exists out', interleave_reordering m lut fid inp out = Ret out' /\ length out' = length out /\
    (forall f i, f < npw m -> i < size m ->
       nth (i * npw m + f) out' d = nth (nth i (block (size m) (lut_base m fid f) lut) 0 * npw m + f) inp d) /\
    (forall j, npw m * size m <= j -> nth j out' d = nth j out d).
Proof.
  intros D d m lut fid inp out (Ll & Hc & HP) Hnf Hin Hout.
  assert (K: forall f i, f < npw m -> i < size m ->
     rd lut (lut_base m fid f * size m + i) = Ret (nth i (block (size m) (lut_base m fid f) lut) 0) /\
     rd inp (nth i (block (size m) (lut_base m fid f) lut) 0 * npw m + f) =
     Ret (nth (nth i (block (size m) (lut_base m fid f) lut) 0 * npw m + f) inp d)).
  { intros f i Hf Hi. pose proof (lut_base_lt m fid f Hc) as Hlb.
    destruct (HP _ Hlb) as (P1 & P2 & P3). pose proof (P2 i Hi). split.
    - rewrite (rd_ok _ 0) by (rewrite Ll; nia). rewrite nth_block; auto.
    - apply rd_ok. nia. }
  destruct (uniform m) eqn:U.
  - assert (E: interleave_reordering m lut fid inp out =
     for_ (npw m) (fun f o => for_ (size m) (fun i o =>
        wr o (i * npw m + f) (nth (nth i (block (size m) (lut_base m fid f) lut) 0 * npw m + f) inp d)) o) out).
    { unfold interleave_reordering, lut_base in *. rewrite U in *. simpl.
      rewrite (loop_cur D m fid (npw m) (fun f cur out =>
        for_ (size m) (fun i out => v <- rd lut (cur * size m + i) ;; x <- rd inp (v * nf m + f) ;;
        wr out (i * npw m + f) x) out)).
      apply for_ext. intros f o Hf. apply for_ext. intros i o' Hi.
      destruct (K f i Hf Hi) as (K1 & K2). rewrite K1, bind_Ret, Hnf, K2. reflexivity. }
    rewrite E.
    destruct (scatter2 D d (npw m) (size m) (fun f i => i * npw m + f)
     (fun f i => nth (nth i (block (size m) (lut_base m fid f) lut) 0 * npw m + f) inp d) out)
     as (o & E' & L & I1 & I2).
    + intros. nia.
    + intros f i f' i' ? ? ? ? e. apply divmod_unique_lt in e; auto. lia.
    + exists o. repeat split; auto. intros j Hj. apply I2. intros. nia.
  - assert (E: interleave_reordering m lut fid inp out =
     for_ (size m) (fun i o => for_ (npw m) (fun f o =>
        wr o (i * npw m + f) (nth (nth i (block (size m) (lut_base m fid f) lut) 0 * npw m + f) inp d)) o) out).
    { unfold interleave_reordering. rewrite U. simpl.
      destruct (Nat.eqb_spec (npw m) (nel m)) as [e|e].
      - rewrite <- e. apply for_ext. intros i o Hi.
        destruct (Nat.eq_dec (npw m) 0) as [z|z].
        { rewrite z. destruct (HP 0 Hc) as (P1 & P2 & P3).
          rewrite (rd_ok _ 0) by (rewrite Ll; nia). reflexivity. }
        assert (Hf0 : 0 < npw m) by lia.
        destruct (K 0 i Hf0 Hi) as (K1 & _). unfold lut_base in K1. rewrite U in K1. simpl in K1.
        rewrite K1, bind_Ret. apply for_ext. intros f o' Hf.
        destruct (K f i Hf Hi) as (_ & K2). unfold lut_base in *. rewrite U in *. rewrite K2. reflexivity.
      - rewrite Hnf. apply for_ext. intros i o Hi.
        destruct (Nat.eq_dec (npw m) 0) as [z|z].
        { rewrite z. destruct (HP 0 Hc) as (P1 & P2 & P3).
          rewrite (rd_ok _ 0) by (rewrite Ll; nia). reflexivity. }
        assert (Hf0 : 0 < npw m) by lia.
        destruct (K 0 i Hf0 Hi) as (K1 & _). unfold lut_base in K1. rewrite U in K1. simpl in K1.
        rewrite K1, bind_Ret. apply for_ext. intros f o' Hf.
        destruct (K f i Hf Hi) as (_ & K2). unfold lut_base in *. rewrite U in *. rewrite K2. reflexivity. }
    rewrite E.
    destruct (scatter2 D d (size m) (npw m) (fun i f => i * npw m + f)
     (fun i f => nth (nth i (block (size m) (lut_base m fid f) lut) 0 * npw m + f) inp d) out)
     as (o & E' & L & I1 & I2).
    + intros. nia.
    + intros f i f' i' ? ? ? ? e. eapply divmod_unique_lt; eauto.
    + exists o. repeat split; auto. intros j Hj. apply I2. intros. nia.
Qed.
