(** Diagonalisation of H from the top left corner, and what transform_H_to_G_identity does with it. *)
From Coq Require Import List Arith Lia Bool ZArith Permutation.
From Verif Require Import Base Copy GaloisModel SparseModel SparseSpec SparseProofs FullModel FullSpec FullProofs LDPCModel LDPCSpec LDPCProofs LUProofs.
Import ListNotations.

(** Where column c goes after a list of exchanges. *)
Definition moved (l : list (nat * nat)) (c : nat) : nat := fold_left (fun c p => sw (fst p) (snd p) c) l c.

Lemma ker_erase : forall n w f i z, i < n -> (forall c, c < w -> f i c = false) -> ker (n - 1) w (fun a c => f (over i 1 a) c) z <-> ker n w f z.
Proof.
  intros n w f i z Hi Z. unfold ker. split; intros K r Hr.
  - destruct (Nat.lt_trichotomy r i) as [L|[->|L]].
    + specialize (K r ltac:(lia)). unfold over in K. rewrite (proj2 (Nat.ltb_lt r i)) in K by auto. auto.
    + apply par_false. intros c Hc. rewrite Z by auto. auto.
    + specialize (K (r - 1) ltac:(lia)). unfold over in K. rewrite (proj2 (Nat.ltb_ge (r - 1) i)) in K by lia. replace (r - 1 + 1) with r in K by lia. auto.
  - apply K. unfold over. destruct (Nat.ltb_spec r i); lia.
Qed.

Lemma ker_z : forall n w f z z', (forall c, c < w -> z c = z' c) -> ker n w f z <-> ker n w f z'.
Proof. intros n w f z z' H. unfold ker. split; intros K r Hr; (etransitivity; [|exact (K r Hr)]); apply par_ext; intros c Hc; rewrite H; auto. Qed.

(** State of form_diagonal: n rows left, i done. *)
Definition diag_inv (M N : nat) (h : nat -> nat -> bool) (st : full * nat * list (nat * nat)) : Prop :=
  let '(m, i, l) := st in exists n f,
    arr m n N (fun a c => b2z (f a c)) /\ length (fu_rd m) = n /\ i <= n /\ n <= M /\ upper f i n /\
    (forall p, In p l -> fst p < N /\ snd p < N) /\
    forall z, ker n N f z <-> ker M N h (fun c => z (moved l c)).

Lemma diag_step_ok : forall M N h m i l, M <= N -> diag_inv M N h (m, i, l) -> i < fu_rows m ->
  exists m' i' l', diag_step (m, i, l) = Ret (m', i', l') /\ diag_inv M N h (m', i', l') /\ fu_rows m' - i' = fu_rows m - i - 1.
Proof.
  intros M N h m i l HMN (n & f & A & LR & Hi & Hn & U & LP & KE) Hlt. pose proof A as (R & C & H). rewrite R in Hlt. unfold diag_step. rewrite R, C. rewrite (bm_get _ _ _ f _ _ H) by lia. cbn [bind]. rewrite nz_b2z.
  (* the pivot *)
  assert (PIV : exists t l' found, (if f i i then Ret (fu_m m, l, true) else
     o <- find_row (fu_m m) i (i + 1) (n - (i + 1)) ;;
     match o with
     | Some j => t <- swap_rows (fu_m m) i j ;; Ret (t, l, true)
     | None =>
         o <- find_col (fu_m m) i (i + 1) (N - (i + 1)) ;;
         match o with
         | Some j => t <- swap_columns n i j (fu_m m) ;; Ret (t, l ++ [(i, j)], true)
         | None => Ret (fu_m m, l, false)
         end
     end) = Ret (t, l', found) /\
     if found then exists g, bm t n N g /\ upper g i n /\ g i i = true /\ (forall p, In p l' -> fst p < N /\ snd p < N) /\ forall z, ker n N g z <-> ker M N h (fun c => z (moved l' c))
     else t = fu_m m /\ l' = l /\ forall c, c < N -> f i c = false).
  { destruct (f i i) eqn:D.
    - exists (fu_m m), l, true. split; auto. exists f. auto.
    - destruct (find_row_ok _ _ _ f i H ltac:(lia) (n - (i + 1)) (i + 1)) as (o & E & P); [lia|]. rewrite E. cbn [bind]. destruct U as [U1 U2]. destruct o as [j|].
      + destruct P as [Hj F]. destruct (bm_swap _ _ _ f i j H) as (t & E1 & K1); [lia|lia|]. rewrite E1. cbn [bind]. exists t, l, true. split; auto. eexists. split; [exact K1|]. split; [|split; [|split; [auto|]]].
        * split. { intros a Ha. unfold sw. destruct (Nat.eqb_spec a i), (Nat.eqb_spec a j); try lia; auto. } intros a c Hc Ha. apply U2; auto. unfold sw. destruct (Nat.eqb_spec a i), (Nat.eqb_spec a j); lia.
        * unfold sw. rewrite Nat.eqb_refl. auto.
        * intros z. rewrite <- KE. apply ker_swap; lia.
      + destruct (find_col_ok _ _ _ f i H ltac:(lia) (N - (i + 1)) (i + 1)) as (o & E1 & P1); [lia|]. rewrite E1. cbn [bind]. destruct o as [j|].
        * destruct P1 as [Hj F]. destruct (bm_swap_cols _ _ _ f i j H) as (t & E2 & K2); [lia|lia|]. rewrite E2. cbn [bind]. exists t, (l ++ [(i, j)]), true. split; auto. eexists. split; [exact K2|]. split; [|split; [|split]].
          -- split. { intros a Ha. unfold sw. destruct (Nat.eqb_spec a i), (Nat.eqb_spec a j); try lia; auto. } intros a c Hc Ha. unfold sw. destruct (Nat.eqb_spec c i), (Nat.eqb_spec c j); try lia. apply U2; auto.
          -- unfold sw. rewrite Nat.eqb_refl. auto.
          -- intros p I. apply in_app_iff in I. destruct I as [I|[<-|[]]]; [auto|]. cbn. lia.
          -- intros z. rewrite (ker_cols n N f i j z) by lia. rewrite KE. apply ker_z. intros c Hc. unfold moved. rewrite fold_left_app. auto.
        * exists (fu_m m), l, false. split; auto. split; [auto|]. split; [auto|]. intros c Hc. destruct (Nat.lt_trichotomy c i) as [L|[->|L]]; [apply U2; lia|auto|apply P1; lia]. }
  destruct PIV as (t & l' & found & E & P). rewrite E. cbn [bind]. destruct found.
  - destruct P as (g & K & UG & D & LP' & KE').
    destruct (clear_below n N (fun j t => neq_row i N i j t) i t g) as (t' & f' & E' & K' & U' & KE2); auto; [|lia|].
    { intros r2 u g' Hr2 K2 Z. apply bm_neq; auto; lia. }
    rewrite E'. cbn [bind]. do 3 eexists. split; [reflexivity|]. split; [|cbn [fu_rows]; lia]. exists n, f'. split; [split; [auto|split; auto]|]. cbn [fu_rd]. split; [auto|]. split; [lia|]. split; [auto|]. split; [rewrite Nat.add_1_r; auto|]. split; [auto|]. intros z. rewrite KE2. auto.
  - destruct P as (-> & -> & Z). destruct (fu_erase_row_ok m n N _ i 1 A LR) as (t' & E' & K'); [lia|]. rewrite E'. cbn [bind]. do 3 eexists. split; [reflexivity|]. split; [|cbn [fu_rows]; lia].
    exists (n - 1), (fun a c => f (over i 1 a) c). split; [split; [auto|split; auto]|]. cbn [fu_rd]. split. { rewrite erased_length; lia. } split; [lia|]. split; [lia|]. split.
    { destruct U as [U1 U2]. split. { intros a Ha. unfold over. rewrite (proj2 (Nat.ltb_lt a i)) by auto. auto. } intros a c Hc Ha. apply U2; auto. unfold over. destruct (Nat.ltb_spec a i); lia. }
    split; [auto|]. intros z. rewrite ker_erase by (auto; lia). auto.
Qed.

Lemma form_diagonal_ok : forall m M N h, arr m M N (fun i j => b2z (h i j)) -> length (fu_rd m) = M -> M <= N ->
  exists m' l R f, form_diagonal m = Ret (m', l) /\ R <= M /\ arr m' R N (fun i j => b2z (f i j)) /\ length (fu_rd m') = R /\ upper f R R /\
    (forall p, In p l -> fst p < N /\ snd p < N) /\ forall z, ker R N f z <-> ker M N h (fun c => z (moved l c)).
Proof.
  intros m M N h A LR HMN. pose proof A as (R & C & _). unfold form_diagonal, fu_turn. rewrite R, C. rewrite (proj2 (Nat.ltb_ge N M)) by auto. cbn [bind]. rewrite R.
  destruct (for_inv _ (fun k st => diag_inv M N h st /\ let '(m', i, l) := st in fu_rows m' - i = M - k) M (fun _ st => diag_step st) (m, 0, [])) as (st & E & I & D).
  - split; [|lia]. exists M, h. split; [auto|]. split; [auto|]. split; [lia|]. split; [auto|]. split; [split; intros; lia|]. split; [intros p []|]. intros z. apply ker_z. auto.
  - intros k [[m' i] l] Hk [I D]. destruct (diag_step_ok M N h m' i l HMN I) as (m2 & i2 & l2 & E & I2 & D2); [lia|]. eexists. split; [exact E|]. split; [auto|]. lia.
  - rewrite E. cbn [bind]. destruct st as [[m' i] l]. destruct I as (n & f & A' & LR' & Hi & Hn & U & LP & KE). rewrite Nat.sub_diag in D. pose proof A' as (R' & _). exists m', l, n, f. split; [auto|]. split; [auto|]. split; [auto|]. split; [auto|]. split; [|auto]. replace n with i at 1 by lia. auto.
Qed.

Lemma form_identity_ok : forall m R N f, arr m R N (fun i j => b2z (f i j)) -> 0 < R <= N -> upper f R R ->
  exists m' f', form_identity m = Ret m' /\ arr m' R N (fun i j => b2z (f' i j)) /\ (forall i j, i < R -> j < R -> f' i j = (i =? j)) /\ forall z, ker R N f' z <-> ker R N f z.
Proof.
  intros m R N f A HR U. pose proof A as (RR & CC & H). unfold form_identity, fu_turn. rewrite RR, CC. rewrite (proj2 (Nat.ltb_ge N R)) by lia. cbn [bind]. rewrite RR, CC. destruct (Nat.eqb_spec R 0); [lia|].
  match goal with |- context [for_ (R - 1) ?body ?s0] => destruct (for_inv _ (fun k u => exists g, bm u R N g /\ clean g (R - 1 - k) R /\ forall z, ker R N g z <-> ker R N f z) (R - 1) body s0) as (t & E & g & K & CL & KE) end.
  - exists f. split; [auto|]. split; [|tauto]. split; [auto|]. intros. lia.
  - intros k u Hk (g & K & CL & KE). cbv zeta. destruct (backward_gen R N (fun i t => neq_row (R - 1 - k) N (R - 1 - k) i t) (R - 1 - k) u g) as (u' & f' & E & K' & C' & KE'); auto; try lia.
    + intros i v g' Hi Kg Z. apply bm_neq; auto; lia.
    + exists u'. split. { exact E. } exists f'. split; [auto|]. split; [replace (R - 1 - S k) with (R - 1 - k - 1) by lia; auto|]. intros z. rewrite KE'. auto.
  - rewrite E. cbn [bind]. eexists. exists g. split; [reflexivity|]. split; [split; [auto|split; auto]|]. rewrite Nat.sub_diag in CL. split; [apply clean_id; auto|auto].
Qed.

(* ------------------------------------------------------------------ *)
(** * Computations that cannot throw *)
Definition nt {A} (x : outcome A) : Prop := x <> Throws.
Lemma nt_ret : forall A (a : A), nt (Ret a). Proof. intros A a. unfold nt. discriminate. Qed.
Lemma nt_bind : forall A B (x : outcome A) (f : A -> outcome B), nt x -> (forall a, x = Ret a -> nt (f a)) -> nt (bind x f).
Proof. intros A B [a| |] f X F; cbn [bind]; auto; unfold nt in *; try discriminate; try (contradiction X; auto). Qed.
Lemma nt_for_from : forall S cnt lo (body : nat -> S -> outcome S) s, (forall i s, nt (body i s)) -> nt (for_from lo cnt body s).
Proof. intros S. induction cnt; intros lo body s H; cbn [for_from]. { apply nt_ret. } apply nt_bind; auto. Qed.
Lemma nt_rd : forall A (l : list A) i, nt (rd l i).
Proof. intros A l i. unfold rd, nt. destruct (nth_error l i); discriminate. Qed.
Lemma nt_wr : forall A (l : list A) i x, nt (wr l i x).
Proof. intros A l i x. unfold nt. destruct (Nat.lt_ge_cases i (length l)). { rewrite wr_ok by auto. discriminate. } rewrite wr_out by auto. discriminate. Qed.
Lemma nt_set2 : forall t i j x, nt (set2 t i j x).
Proof. intros. unfold set2. apply nt_bind; [apply nt_rd|]. intros. apply nt_bind; [apply nt_wr|]. intros. apply nt_wr. Qed.
Lemma nt_rows_do : forall lo hi f t, (forall row, nt (f row)) -> nt (rows_do lo hi f t).
Proof. intros. unfold rows_do. apply nt_for_from. intros i s. apply nt_bind; [apply nt_rd|]. intros. apply nt_bind; auto. intros. apply nt_wr. Qed.
Lemma nt_resize : forall M n m o, nt (fu_resize M n m o).
Proof.
  intros M n m o. unfold fu_resize. assert (VE : forall A (l : list A) k, nt (verase l k)) by (intros; unfold verase, nt; destruct (_ <=? _); discriminate).
  cbv zeta. apply nt_bind; [|intros; apply nt_ret]. destruct o; repeat match goal with |- nt (if ?b then _ else _) => destruct b end; try (apply nt_rows_do; intros; first [apply nt_ret|apply VE]); apply nt_bind; auto; intros; repeat match goal with |- nt (if ?b then _ else _) => destruct b end; apply nt_rows_do; intros; first [apply nt_ret|apply VE].
Qed.

(** The identity method writes outside the rows it has just resized, whatever H. *)
Lemma H_to_G_identity_undef : forall F M K h, 0 < M -> 0 < K -> arr F M (K + M) (fun i j => b2z (h i j)) -> length (fu_rd F) = M -> H_to_G_identity F = Undef.
Proof.
  intros F M K h HM HK A LR. pose proof A as (RF & CF & _). unfold H_to_G_identity. rewrite RF, CF. rewrite (proj2 (Nat.leb_le M (K + M))) by lia. cbn [guard bind]. replace (K + M - M) with K by lia.
  destruct (form_diagonal_ok F M (K + M) h A LR) as (m & l & R & f & E & HR & A1 & LR1 & U & LP & KE); [lia|]. rewrite E. cbn [bind].
  destruct (Nat.eq_dec R 0) as [->|NZ].
  { pose proof A1 as (R1 & C1 & _). unfold form_identity, fu_turn. rewrite R1, C1. rewrite (proj2 (Nat.ltb_ge (K + M) 0)) by lia. cbn [bind]. rewrite R1. cbn [Nat.eqb bind]. auto. }
  destruct (form_identity_ok m R (K + M) f A1) as (m2 & f2 & E2 & A2 & ID & KE2); [lia|auto|]. rewrite E2. cbn [bind].
  destruct (fu_resize m2 (K + M) K TOP_RIGHT) as [G| |] eqn:E3; cbn [bind]; auto.
  - pose proof (fu_resize_bad_at m2 R (K + M) _ (K + M) K G (K + M - 1) A2 ltac:(lia) ltac:(lia) E3) as BAD.
    replace K with (S (K - 1)) at 1 by lia.
    match goal with |- context [for_from M (S (K - 1)) ?body ?s0] => assert (U1 : for_from M (S (K - 1)) body s0 = Undef) end.
    { replace (S (K - 1)) with (K - 1 + 1) by lia.
      assert (SPLIT : forall cnt lo t, nth (K + M - 1) t [] = nth (K + M - 1) (fu_m G) [] -> lo + cnt = K + M - 1 -> M <= lo -> for_from lo (cnt + 1) (fun i t => set2 t i (i - M) 1%Z) t = Undef).
      { induction cnt as [|cnt IH]; intros lo t HT HL HL2; cbn [for_from Nat.add].
        - unfold set2. destruct (rd t lo) as [row| |] eqn:ER; cbn [bind]; auto. 2: { exfalso. apply (nt_rd _ t lo). auto. } apply (rd_Ret _ []) in ER. destruct ER as [_ ER]. rewrite wr_out; auto. rewrite <- ER. replace lo with (K + M - 1) at 1 by lia. rewrite HT. lia.
        - destruct (set2 t lo (lo - M) 1%Z) as [t'| |] eqn:ES; cbn [bind]; auto. 2: { exfalso. apply (nt_set2 t lo (lo - M) 1%Z). auto. }
          apply IH; try lia. rewrite <- HT. unfold set2 in ES. apply bind_inv in ES. destruct ES as (row & _ & ES). apply bind_inv in ES. destruct ES as (row' & _ & ES). destruct (Nat.lt_ge_cases lo (length t)). { rewrite wr_ok in ES by auto. inversion ES. rewrite nth_upd_neq by lia. auto. } rewrite wr_out in ES by auto. discriminate. }
      apply SPLIT; auto; lia. }
    rewrite U1. auto.
  - exfalso. apply (nt_resize m2 (K + M) K TOP_RIGHT). auto.
Qed.
