From Coq Require Import List Arith ZArith Lia Bool Permutation.
From Verif Require Import Base Copy ConvModel ConvSpec ConvProofs BcjrModel BcjrSpec.
Import ListNotations.

(* ------------------------------------------------------------------ *)
(** * Matrices *)
Definition mat {A} (r c : nat) (m : list (list A)) : Prop := length m = r /\ forall j, j < r -> length (nth j m []) = c.
Definition at_ {A} (d : A) (m : list (list A)) (j i : nat) : A := nth i (nth j m []) d.

Lemma mrd_ok : forall A (d : A) r c m j i, mat r c m -> j < r -> i < c -> mrd m j i = Ret (at_ d m j i).
Proof. intros A d r c m j i [L R] Hj Hi. unfold mrd. rewrite (rd_ok _ []) by lia. cbn [bind]. rewrite (rd_ok _ d) by (rewrite R; auto). reflexivity. Qed.

Lemma mwr_ok : forall A (d : A) r c m j i x, mat r c m -> j < r -> i < c ->
  exists m', mwr m j i x = Ret m' /\ mat r c m' /\
    forall j' i', at_ d m' j' i' = if (j' =? j) && (i' =? i) then x else at_ d m j' i'.
Proof.
  intros A d r c m j i x [L R] Hj Hi. unfold mwr. rewrite (rd_ok _ []) by lia. cbn [bind].
  rewrite wr_ok by (rewrite R; auto). cbn [bind]. rewrite wr_ok by lia. eexists. split; [reflexivity|]. split.
  - split; [rewrite length_upd; auto|]. intros r' Hr'. rewrite nth_upd by lia. destruct (Nat.eqb_spec r' j).
    + subst. rewrite length_upd. auto.
    + auto.
  - intros r' c'. unfold at_. rewrite nth_upd by lia. destruct (Nat.eqb_spec r' j); cbn [andb]; auto.
    subst. rewrite nth_upd by (rewrite R; auto). auto.
Qed.

(* ------------------------------------------------------------------ *)
(** * Words and paths *)
Lemma words_in : forall n w, In w (words n) <-> length w = n /\ bits w.
Proof.
  induction n; intros w; cbn [words].
  - split.
    + intros [<- | []]. split; auto. constructor.
    + intros [L _]. destruct w; [left; auto|discriminate].
  - rewrite in_app_iff, !in_map_iff. split.
    + intros [(w' & <- & H)|(w' & <- & H)]; apply IHn in H; destruct H as [L B]; (split; [simpl; lia|]); constructor; auto.
    + intros [L B]. destruct w as [|b w]; [discriminate|]. inversion B; subst. simpl in L.
      assert (H : In w (words n)) by (apply IHn; split; auto; lia).
      destruct (lt2 b) as [-> | ->]; auto; [left|right]; exists w; auto.
Qed.
Lemma NoDup_app_d : forall A (l1 l2 : list A), NoDup l1 -> NoDup l2 -> (forall x, In x l1 -> ~ In x l2) -> NoDup (l1 ++ l2).
Proof.
  induction l1; intros l2 N1 N2 D; auto. inversion N1; subst. cbn. constructor.
  - rewrite in_app_iff. intros [H|H]; [auto|]. apply (D a); simpl; auto.
  - apply IHl1; auto. intros x Hx. apply D. simpl. auto.
Qed.
Lemma NoDup_map_i : forall A B (f : A -> B) l, (forall x y, In x l -> In y l -> f x = f y -> x = y) -> NoDup l -> NoDup (map f l).
Proof.
  induction l; intros H N; cbn; [constructor|]. inversion N; subst. constructor.
  - rewrite in_map_iff. intros (x & E & Hx). apply H2. rewrite <- (H x a); simpl; auto.
  - apply IHl; auto. intros x y Hx Hy. apply H; simpl; auto.
Qed.
Lemma NoDup_flat_map : forall A B (f : A -> list B) l, NoDup l -> (forall x, In x l -> NoDup (f x)) ->
  (forall x y b, In x l -> In y l -> In b (f x) -> In b (f y) -> x = y) -> NoDup (flat_map f l).
Proof.
  induction l; intros N F D; cbn; [constructor|]. inversion N; subst. apply NoDup_app_d.
  - apply F. simpl. auto.
  - apply IHl; auto. { intros. apply F. simpl. auto. } { intros x y b Hx Hy. apply D; simpl; auto. }
  - intros b Hb H. apply in_flat_map in H. destruct H as (y & Hy & Hb').
    assert (a = y) by (apply (D a y b); simpl; auto). subst. auto.
Qed.
Lemma NoDup_prod : forall A B (l1 : list A) (l2 : list B), NoDup l1 -> NoDup l2 -> NoDup (list_prod l1 l2).
Proof.
  induction l1; intros l2 N1 N2; cbn; [constructor|]. inversion N1; subst. apply NoDup_app_d; auto.
  - apply NoDup_map_i; auto. intros x y _ _ E. congruence.
  - intros [x y] H. apply in_map_iff in H. destruct H as (z & E & Hz). inversion E; subst. rewrite in_prod_iff. tauto.
Qed.
Lemma words_nodup : forall n, NoDup (words n).
Proof.
  induction n; cbn [words]. { constructor; [intros []|constructor]. }
  apply NoDup_app_d.
  - apply NoDup_map_i; auto. intros; congruence.
  - apply NoDup_map_i; auto. intros; congruence.
  - intros x H1 H2. apply in_map_iff in H1. apply in_map_iff in H2. destruct H1 as (a & <- & _). destruct H2 as (b & E & _). discriminate.
Qed.
Lemma paths_nodup : forall NS L, NoDup (paths NS L).
Proof. intros. apply NoDup_prod. apply seq_NoDup. apply words_nodup. Qed.
Lemma paths_in : forall NS L p, In p (paths NS L) <-> fst p < NS /\ length (snd p) = L /\ bits (snd p).
Proof. intros NS L [s w]. unfold paths. rewrite in_prod_iff, in_seq, words_in. cbn [fst snd]. split; intros; intuition lia. Qed.

Lemma run_app : forall X us vs s, run X s (us ++ vs) = run X (run X s us) vs.
Proof. induction us; simpl; auto. Qed.

Lemma bits_app : forall a b, bits (a ++ b) <-> bits a /\ bits b.
Proof. intros. unfold bits. rewrite Forall_app. tauto. Qed.
Lemma bits1 : forall b, b < 2 -> bits [b].
Proof. intros. constructor; auto. Qed.
Lemma run_bound : forall X NS, (forall b s, b < 2 -> s < NS -> X b s < NS) -> forall us s, bits us -> s < NS -> run X s us < NS.
Proof. induction us; intros s B Hs; auto. inversion B; subst. simpl. auto. Qed.

Section Theory.
Variable T : Type.
Variables (zero : T) (add sub : T -> T -> T) (imul : Z -> T -> T) (mx : T -> T -> T) (half : T -> T).
Hypothesis L : laws T zero add sub imul mx half.
Let comm := l_comm _ _ _ _ _ _ _ L.
Let assoc := l_assoc _ _ _ _ _ _ _ L.
Let zero_r := l_zero _ _ _ _ _ _ _ L.
Let lsub := l_sub _ _ _ _ _ _ _ L.
Let mxc := l_mxc _ _ _ _ _ _ _ L.
Let mxa := l_mxa _ _ _ _ _ _ _ L.
Let mxt := l_mxt _ _ _ _ _ _ _ L.
Let lhalf := l_half _ _ _ _ _ _ _ L.
Notation big := (big T mx).
Notation opp := (sub zero).

Lemma opp_r : forall a, add a (opp a) = zero.
Proof. intros. rewrite comm. apply lsub. Qed.
Lemma cancel : forall a b c, add a c = add b c -> a = b.
Proof. intros a b c E. rewrite <- (zero_r a), <- (zero_r b), <- (opp_r c), !assoc, E. auto. Qed.
Lemma sub_opp : forall a b, sub a b = add a (opp b).
Proof. intros. apply (cancel _ _ b). rewrite lsub, <- assoc, lsub, zero_r. auto. Qed.
Lemma opp_add : forall a b, opp (add a b) = add (opp a) (opp b).
Proof.
  intros. apply (cancel _ _ (add a b)). rewrite lsub. rewrite (comm (opp a)), <- assoc, (assoc (opp a)), lsub, (comm zero), zero_r, lsub. auto.
Qed.
Lemma opp_opp : forall a, opp (opp a) = a.
Proof. intros. apply (cancel _ _ (opp a)). rewrite lsub, opp_r. auto. Qed.
Lemma half_zero : half zero = zero.
Proof. apply (cancel _ _ (half zero)). rewrite <- lhalf, zero_r. rewrite comm, zero_r. auto. Qed.
Lemma half_opp : forall a, half (opp a) = opp (half a).
Proof. intros. apply (cancel _ _ (half a)). rewrite <- lhalf, !lsub, half_zero. auto. Qed.
Lemma sub_shift : forall a b c, sub (add a c) (add b c) = sub a b.
Proof.
  intros. apply (cancel _ _ (add b c)). rewrite lsub, assoc, lsub. auto.
Qed.
Lemma ac4 : forall a b c d, add (add a b) (add c d) = add (add a c) (add b d).
Proof. intros. rewrite <- !assoc. f_equal. rewrite !assoc. f_equal. apply comm. Qed.

(** ** big *)
Definition omx (a b : option T) : option T :=
  match a, b with Some x, Some y => Some (mx x y) | Some x, None => Some x | None, _ => b end.
Lemma big_cons : forall x l, big (x :: l) = omx (Some x) (big l).
Proof. intros. cbn. destruct (big l); auto. Qed.
Lemma omxc : forall a b, omx a b = omx b a.
Proof. intros [x|] [y|]; cbn; auto. rewrite mxc. auto. Qed.
Lemma omxa : forall a b c, omx a (omx b c) = omx (omx a b) c.
Proof. intros [x|] [y|] [z|]; cbn; auto. rewrite mxa. auto. Qed.
Lemma big_app : forall l1 l2, big (l1 ++ l2) = omx (big l1) (big l2).
Proof. induction l1; intros; auto. rewrite <- app_comm_cons, !big_cons, IHl1. apply omxa. Qed.
Lemma big_perm : forall l1 l2, Permutation l1 l2 -> big l1 = big l2.
Proof.
  induction 1; auto.
  - rewrite !big_cons, IHPermutation. auto.
  - rewrite !big_cons, !omxa. f_equal. apply omxc.
  - congruence.
Qed.
Lemma big_flat : forall A (f : A -> list T) (h : A -> T) l, (forall j, In j l -> big (f j) = Some (h j)) -> big (flat_map f l) = big (map h l).
Proof.
  induction l; intros H; auto. cbn [flat_map map]. rewrite big_app, big_cons, H, IHl; simpl; auto. intros. apply H. simpl. auto.
Qed.
Lemma big_shift : forall c l, big (map (fun x => add x c) l) = option_map (fun x => add x c) (big l).
Proof.
  induction l; auto. cbn [map]. rewrite !big_cons, IHl. destruct (big l); cbn; auto. rewrite mxt. auto.
Qed.
Lemma big_prod : forall A B (f : A -> T) (g : B -> T) la lb a b, big (map f la) = Some a -> big (map g lb) = Some b ->
  big (map (fun p => add (f (fst p)) (g (snd p))) (list_prod la lb)) = Some (add a b).
Proof.
  intros A B f g la lb a b HA HB. revert a HA. induction la; intros a' HA; [discriminate|].
  cbn [list_prod]. rewrite map_app, big_app, map_map. cbn [fst snd].
  assert (E1 : big (map (fun x => add (f a) (g x)) lb) = Some (add (f a) b)).
  { rewrite (map_ext _ (fun x => add (g x) (f a))) by (intros; apply comm).
    rewrite <- (map_map g (fun y => add y (f a))), big_shift, HB. cbn. rewrite comm. auto. }
  rewrite E1. cbn [map] in HA. rewrite big_cons in HA. destruct (big (map f la)) as [y|] eqn:EY.
  - rewrite (IHla y) by auto. cbn in *. inversion HA. rewrite mxt. auto.
  - cbn in HA. inversion HA; subst. destruct la; [|cbn in EY; discriminate]. auto.
Qed.

(* ------------------------------------------------------------------ *)
(** * Sums over paths *)
Variables (X P : nat -> nat -> nat) (sys par : nat -> T) (a0 : nat -> T) (NS : nat).
Hypothesis HX : forall b s, b < 2 -> s < NS -> X b s < NS.
Notation corr := (corr T zero add sub X P sys par).
Notation sg := (sg T zero sub).
(** The metric of the branch leaving [s] at time [i] with the bit [b]. *)
Definition met (b s i : nat) : T := half (add (sg b (sys i)) (sg (P b s) (par i))).

Lemma run_lt : forall us s, bits us -> s < NS -> run X s us < NS.
Proof. intros. apply run_bound; auto. Qed.
Lemma corr_cons : forall b us i s, half (corr i s (b :: us)) = add (met b s i) (half (corr (S i) (X b s) us)).
Proof. intros. cbn [BcjrSpec.corr]. rewrite lhalf. auto. Qed.
Lemma corr_app : forall us vs i s, half (corr i s (us ++ vs)) = add (half (corr i s us)) (half (corr (i + length us) (run X s us) vs)).
Proof.
  induction us; intros vs i s.
  - cbn [app length run]. rewrite Nat.add_0_r. cbn [BcjrSpec.corr]. rewrite half_zero, (comm zero), zero_r. auto.
  - rewrite <- app_comm_cons, !corr_cons, IHus. cbn [length run]. rewrite <- plus_n_Sm. rewrite assoc. auto.
Qed.

Definition fval (p : nat * list nat) : T := add (a0 (fst p)) (half (corr 0 (fst p) (snd p))).
Definition fpaths (i s : nat) : list (nat * list nat) := filter (fun p => run X (fst p) (snd p) =? s) (paths NS i).
Definition fw (i s : nat) : list T := map fval (fpaths i s).
Definition bval (i s : nat) (us : list nat) : T := add (half (corr i s us)) (a0 (run X s us)).
Definition bw (i m s : nat) : list T := map (bval i s) (words m).

Lemma fpaths_in : forall i s p, In p (fpaths i s) <-> fst p < NS /\ length (snd p) = i /\ bits (snd p) /\ run X (fst p) (snd p) = s.
Proof. intros. unfold fpaths. rewrite filter_In, paths_in, Nat.eqb_eq. tauto. Qed.
Lemma fpaths_nodup : forall i s, NoDup (fpaths i s).
Proof. intros. apply NoDup_filter. apply paths_nodup. Qed.


Definition snoc (b : nat) (p : nat * list nat) : nat * list nat := (fst p, snd p ++ [b]).
Lemma fpaths_S : forall i s s1 b1 s2 b2, s1 < NS -> s2 < NS -> b1 < 2 -> b2 < 2 -> (s1, b1) <> (s2, b2) ->
  (forall s' b, s' < NS -> b < 2 -> (X b s' = s <-> (s', b) = (s1, b1) \/ (s', b) = (s2, b2))) ->
  Permutation (fpaths (S i) s) (map (snoc b1) (fpaths i s1) ++ map (snoc b2) (fpaths i s2)).
Proof.
  intros i s s1 b1 s2 b2 H1 H2 B1 B2 D HE. apply NoDup_Permutation.
  - apply fpaths_nodup.
  - apply NoDup_app_d.
    + apply NoDup_map_i; [|apply fpaths_nodup]. intros [a x] [c y] _ _ E. inversion E as [[E1 E2]]. apply app_inj_tail in E2. destruct E2. congruence.
    + apply NoDup_map_i; [|apply fpaths_nodup]. intros [a x] [c y] _ _ E. inversion E as [[E1 E2]]. apply app_inj_tail in E2. destruct E2. congruence.
    + intros p Q1 Q2. apply in_map_iff in Q1. apply in_map_iff in Q2. destruct Q1 as ([a x] & <- & I1). destruct Q2 as ([c y] & E & I2).
      unfold snoc in E. cbn [fst snd] in E. inversion E as [[E1 E2]]. apply app_inj_tail in E2. destruct E2 as [E2 E3].
      apply fpaths_in in I1. apply fpaths_in in I2. cbn [fst snd] in *. apply D. f_equal; [|auto].
      destruct I1 as (_ & _ & _ & <-). destruct I2 as (_ & _ & _ & <-). congruence.
  - intros [a w]. rewrite in_app_iff, !in_map_iff. split.
    + intros I. apply fpaths_in in I. cbn [fst snd] in I. destruct I as (HA & LW & BW & RW).
      destruct (exists_last (l := w)) as (w' & b & ->). { intros ->. discriminate. }
      rewrite app_length in LW. cbn [length] in LW. apply bits_app in BW. destruct BW as [BW BB]. assert (Hb : b < 2) by (inversion BB; auto).
      rewrite run_app in RW. cbn [run] in RW. apply HE in RW; [|apply run_lt; auto|auto].
      destruct RW as [E|E]; inversion E; subst; [left|right]; exists (a, w'); (split; [reflexivity|]); apply fpaths_in; cbn [fst snd]; repeat split; auto; lia.
    + intros [([a' w'] & E & I)|([a' w'] & E & I)]; inversion E; subst; apply fpaths_in in I; cbn [fst snd] in I; destruct I as (HA & LW & BW & RW);
        apply fpaths_in; cbn [fst snd]; rewrite app_length, bits_app, run_app, RW; cbn [length run]; (split; [auto|]; split; [lia|]; split; [split; auto; apply bits1; auto|]);
        apply HE; auto.
Qed.

Lemma fval_snoc : forall b p i s, length (snd p) = i -> run X (fst p) (snd p) = s -> fval (snoc b p) = add (fval p) (met b s i).
Proof.
  intros b [a w] i s LW R. unfold fval, snoc. cbn [fst snd] in *. rewrite corr_app, assoc. cbn [Nat.add]. rewrite LW, R, corr_cons. cbn [BcjrSpec.corr].
  rewrite half_zero, zero_r. auto.
Qed.
Lemma fw_snoc : forall b i s, map fval (map (snoc b) (fpaths i s)) = map (fun x => add x (met b s i)) (fw i s).
Proof.
  intros. unfold fw. rewrite !map_map. apply map_ext_in. intros p Hp. apply fpaths_in in Hp. apply fval_snoc; tauto.
Qed.
Lemma fw_S : forall i s s1 b1 s2 b2 x1 x2, s1 < NS -> s2 < NS -> b1 < 2 -> b2 < 2 -> (s1, b1) <> (s2, b2) ->
  (forall s' b, s' < NS -> b < 2 -> (X b s' = s <-> (s', b) = (s1, b1) \/ (s', b) = (s2, b2))) ->
  big (fw i s1) = Some x1 -> big (fw i s2) = Some x2 ->
  big (fw (S i) s) = Some (mx (add x1 (met b1 s1 i)) (add x2 (met b2 s2 i))).
Proof.
  intros i s s1 b1 s2 b2 x1 x2 H1 H2 B1 B2 D HE E1 E2. unfold fw at 1.
  rewrite (big_perm _ _ (Permutation_map fval (fpaths_S i s s1 b1 s2 b2 H1 H2 B1 B2 D HE))).
  rewrite map_app, big_app, !fw_snoc, !big_shift, E1, E2. reflexivity.
Qed.
Lemma fw_0 : forall s, s < NS -> big (fw 0 s) = Some (a0 s).
Proof.
  intros s Hs. assert (PM : Permutation (fpaths 0 s) [(s, [])]).
  { apply NoDup_Permutation. apply fpaths_nodup. constructor; [intros []|constructor].
    intros [a w]. rewrite fpaths_in. cbn [fst snd In]. split.
    - intros (_ & LW & _ & R). destruct w; [|discriminate]. left. rewrite <- R. auto.
    - intros [E|[]]. inversion E; subst. repeat split; auto. constructor. }
  unfold fw. rewrite (big_perm _ _ (Permutation_map fval PM)). cbn. unfold fval. cbn [fst snd BcjrSpec.corr]. rewrite half_zero, zero_r. auto.
Qed.

Lemma bw_S : forall i m s y0 y1, big (bw (S i) m (X 0 s)) = Some y0 -> big (bw (S i) m (X 1 s)) = Some y1 ->
  big (bw i (S m) s) = Some (mx (add y0 (met 0 s i)) (add y1 (met 1 s i))).
Proof.
  intros i m s y0 y1 E0 E1. unfold bw. cbn [words]. rewrite map_app, big_app, !map_map.
  assert (A : forall b, map (fun us => bval i s (b :: us)) (words m) = map (fun x => add x (met b s i)) (bw (S i) m (X b s))).
  { intros b. unfold bw. rewrite map_map. apply map_ext. intros us. unfold bval. rewrite corr_cons. cbn [run].
    rewrite <- assoc, comm. auto. }
  rewrite !A, !big_shift, E0, E1. reflexivity.
Qed.
Lemma bw_0 : forall i s, big (bw i 0 s) = Some (a0 s).
Proof. intros. unfold bw. cbn. unfold bval. cbn [BcjrSpec.corr run]. rewrite half_zero, (comm zero), zero_r. auto. Qed.

(** ** All the paths through selected branches *)
Variable len : nat.
Notation weight := (weight T zero add sub half X P sys par a0).
Definition edges (c : nat -> nat -> bool) : list (nat * nat) := filter (fun e => c (fst e) (snd e)) (list_prod [0; 1] (seq 0 NS)).
Definition sel (c : nat -> nat -> bool) (i : nat) : list (nat * list nat) :=
  filter (fun p => c (nth i (snd p) 0) (run X (fst p) (firstn i (snd p)))) (paths NS len).
Definition join (b : nat) (q : (nat * list nat) * list nat) : nat * list nat := (fst (fst q), snd (fst q) ++ b :: snd q).

Lemma edges_in : forall c e, In e (edges c) <-> fst e < 2 /\ snd e < NS /\ c (fst e) (snd e) = true.
Proof.
  intros c [b j]. unfold edges. rewrite filter_In, in_prod_iff, in_seq. cbn [fst snd In]. split.
  - intros [[[<-|[<-|[]]] H] C]; repeat split; auto; lia.
  - intros (Hb & Hj & C). split; auto. split; [|lia]. destruct (lt2 b Hb); subst; auto.
Qed.
Lemma edges_nodup : forall c, NoDup (edges c).
Proof. intros. apply NoDup_filter. apply NoDup_prod. { constructor; [intros [H|[]]; discriminate|]. constructor; [intros []|constructor]. } apply seq_NoDup. Qed.

Lemma join_inj : forall b b' q q' i, length (snd (fst q)) = i -> length (snd (fst q')) = i -> join b q = join b' q' -> b = b' /\ q = q'.
Proof.
  intros b b' [[a w] v] [[a' w'] v'] i L1 L2 E. unfold join in E. cbn [fst snd] in *. inversion E as [[E1 E2]].
  assert (W : w = w').
  { rewrite <- (firstn_all w), <- (firstn_all w'). transitivity (firstn i (w ++ b :: v)).
    - rewrite firstn_app, L1, Nat.sub_diag. cbn. rewrite app_nil_r. auto.
    - rewrite E2, firstn_app, L2, Nat.sub_diag. cbn. rewrite app_nil_r. auto. }
  subst. apply app_inv_head in E2. inversion E2. auto.
Qed.

Lemma sel_perm : forall c i, i < len ->
  Permutation (sel c i) (flat_map (fun e => map (join (fst e)) (list_prod (fpaths i (snd e)) (words (len - S i)))) (edges c)).
Proof.
  intros c i Hi. apply NoDup_Permutation.
  - apply NoDup_filter. apply paths_nodup.
  - apply NoDup_flat_map. apply edges_nodup.
    + intros [b j] _. cbn [fst snd]. apply NoDup_map_i. 2: { apply NoDup_prod. apply fpaths_nodup. apply words_nodup. }
      intros [p v] [p' v'] H1 H2 E. apply in_prod_iff in H1. apply in_prod_iff in H2.
      destruct H1 as [H1 _]. destruct H2 as [H2 _]. apply fpaths_in in H1. apply fpaths_in in H2.
      refine (proj2 (join_inj _ _ _ _ i _ _ E)); cbn [fst]; tauto.
    + intros [b j] [b' j'] r _ _ H1 H2. cbn [fst snd] in *. apply in_map_iff in H1. apply in_map_iff in H2.
      destruct H1 as ([p v] & <- & H1). destruct H2 as ([p' v'] & E & H2). apply in_prod_iff in H1. apply in_prod_iff in H2.
      destruct H1 as [H1 _]. destruct H2 as [H2 _]. apply fpaths_in in H1. apply fpaths_in in H2.
      destruct H1 as (_ & L1 & _ & R1). destruct H2 as (_ & L2 & _ & R2).
      destruct (join_inj b' b (p', v') (p, v) i L2 L1 E) as [Q1 Q2]. inversion Q2; subst. auto.
  - intros [a w]. unfold sel. rewrite filter_In, paths_in, in_flat_map. cbn [fst snd]. split.
    + intros [(HA & LW & BW) C].
      assert (SP : w = firstn i w ++ nth i w 0 :: skipn (S i) w).
      { rewrite <- (firstn_skipn i w) at 1. f_equal. clear - Hi LW. assert (Hi' : i < length w) by lia. clear -Hi'.
        revert w Hi'. induction i; intros [|x w] H; simpl in *; try lia; auto. apply IHi. lia. }
      assert (BN : nth i w 0 < 2) by (apply bits_nth; auto).
      assert (BF : bits (firstn i w) /\ bits (skipn (S i) w)).
      { rewrite SP in BW. apply bits_app in BW. destruct BW as [B1 B2]. inversion B2; subst. auto. }
      exists (nth i w 0, run X a (firstn i w)). split.
      * apply edges_in. cbn [fst snd]. split; auto. split; auto. apply run_lt; tauto.
      * cbn [fst snd]. apply in_map_iff. exists ((a, firstn i w), skipn (S i) w). split.
        { unfold join. cbn [fst snd]. f_equal. auto. }
        apply in_prod_iff. split.
        { apply fpaths_in. cbn [fst snd]. rewrite firstn_length. repeat split; try tauto; lia. }
        apply words_in. rewrite skipn_length. split; [lia|tauto].
    + intros ([b j] & HE & HM). apply edges_in in HE. cbn [fst snd] in *. apply in_map_iff in HM.
      destruct HM as ([[a' w'] v] & E & HQ). apply in_prod_iff in HQ. destruct HQ as [HF HV]. apply fpaths_in in HF. apply words_in in HV.
      cbn [fst snd] in HF. unfold join in E. cbn [fst snd] in E. inversion E; subst.
      destruct HF as (HA & LW & BW & RW). destruct HV as [LV BV]. destruct HE as (Hb & Hj & C).
      assert (N0 : nth i (w' ++ b :: v) 0 = b). { rewrite app_nth2 by lia. rewrite LW, Nat.sub_diag. auto. }
      assert (F0 : firstn i (w' ++ b :: v) = w'). { rewrite firstn_app, LW, Nat.sub_diag. cbn [firstn]. rewrite app_nil_r. rewrite <- LW. apply firstn_all. }
      rewrite N0, F0, RW. split; auto. split; auto. rewrite app_length. cbn [length]. split; [lia|]. apply bits_app. split; auto. constructor; auto.
Qed.

Lemma weight_join : forall b q i j, length (snd (fst q)) = i -> run X (fst (fst q)) (snd (fst q)) = j ->
  weight (join b q) = add (add (fval (fst q)) (met b j i)) (bval (S i) (X b j) (snd q)).
Proof.
  intros b [[a w] v] i j LW R. unfold join, fval, bval, BcjrSpec.weight. cbn [fst snd] in *.
  rewrite corr_app, corr_cons, run_app. cbn [run Nat.add]. rewrite LW, R. rewrite !assoc. auto.
Qed.

Lemma total : forall c i (Fv Bv : nat -> T), i < len ->
  (forall j, j < NS -> big (fw i j) = Some (Fv j)) ->
  (forall j, j < NS -> big (bw (S i) (len - S i) j) = Some (Bv j)) ->
  big (map weight (sel c i)) = big (map (fun e => add (add (Fv (snd e)) (met (fst e) (snd e) i)) (Bv (X (fst e) (snd e)))) (edges c)).
Proof.
  intros c i Fv Bv Hi HF HB. rewrite (big_perm _ _ (Permutation_map weight (sel_perm c i Hi))).
  rewrite flat_map_concat_map, concat_map, map_map, <- flat_map_concat_map.
  apply big_flat. intros [b j] He. apply edges_in in He. cbn [fst snd] in *. destruct He as (Hb & Hj & _).
  rewrite map_map.
  rewrite (map_ext_in _ (fun q => add (add (fval (fst q)) (met b j i)) (bval (S i) (X b j) (snd q)))).
  2: { intros q Hq. destruct q as [p v]. apply in_prod_iff in Hq. destruct Hq as [Hq _]. apply fpaths_in in Hq. apply weight_join; cbn [fst snd]; tauto. }
  apply (big_prod _ _ (fun p => add (fval p) (met b j i)) (bval (S i) (X b j))).
  - rewrite <- (map_map fval (fun x => add x (met b j i))), big_shift. unfold fw in HF. rewrite HF by auto. auto.
  - unfold bw in HB. apply HB. auto.
Qed.
End Theory.
