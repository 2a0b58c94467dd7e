(** Construction of H and encoder of the DVB-S2 codes. *)
From Coq Require Import List Arith Lia Bool ZArith Permutation.
From Verif Require Import Base Copy GaloisModel SparseModel SparseSpec SparseProofs FullModel FullSpec FullProofs LDPCModel LDPCSpec LDPCProofs LUProofs GenProofs DVBS2Spec.
Import ListNotations.

(** One information bit. *)
Definition one_bit {S} (d : dvbs2) (ls : list (list nat)) (on : nat -> outcome bool) (act : nat -> nat -> S -> outcome S) (x : nat) (s : S) : outcome S :=
  b <- on x ;; if b : bool then each (nth (x / dv_M d) ls []) (fun v s => act x ((v + x mod dv_M d * dv_Q d) mod dv_NmK d) s) s else Ret s.

Lemma flat_at : forall (ls : list (list nat)) y, y < length ls ->
  let p := length (concat (map (fun v => length v :: v) (firstn y ls))) in
  let t := concat (map (fun v => length v :: v) ls) in
  exists a b, t = a ++ (length (nth y ls []) :: nth y ls []) ++ b /\ length a = p.
Proof.
  intros ls y Hy p t. exists (concat (map (fun v => length v :: v) (firstn y ls))), (concat (map (fun v => length v :: v) (skipn (S y) ls))). split; [|auto].
  unfold t. rewrite <- (firstn_skipn y ls) at 1. rewrite map_app, concat_app. f_equal. assert (E : skipn y ls = nth y ls [] :: skipn (S y) ls).
  { revert y Hy p t. induction ls as [|l ls IH]; intros y Hy p t; [cbn in Hy; lia|]. destruct y; auto. cbn [nth]. change (skipn (S y) (l :: ls)) with (skipn y ls). rewrite IH by (cbn in Hy; lia). auto. }
  rewrite E. cbn [map concat]. auto.
Qed.

Lemma for_app : forall S a b (f : nat -> S -> outcome S) s, for_ (a + b) f s = bind (for_ a f s) (for_from a b f).
Proof. intros. unfold for_. rewrite for_from_app. auto. Qed.

Lemma walk_ok : forall S d ls on (act : nat -> nat -> S -> outcome S) s, dvbs2_layout d ls -> dvbs2_walk d on act s = for_ (dv_K d) (one_bit d ls on act) s.
Proof.
  intros S d ls on act s (EN & LL & _ & EK & NZ). unfold dvbs2_walk. rewrite EK.
  assert (MAIN : forall y, y <= dv_lines d -> for_ y (fun _ '(p, xPos, s) =>
      nbPos <- rd (dv_enc d) p ;;
      let p := p + 1 in
      ' (xPos, s) <- for_ (dv_M d) (fun l '(xPos, s) =>
          b <- on xPos ;;
          s <- (if b : bool then
                  for_ nbPos (fun q s =>
                    v <- rd (dv_enc d) (p + q) ;;
                    if dv_NmK d =? 0 then Undef else act xPos ((v + l * dv_Q d) mod dv_NmK d) s) s
                else Ret s) ;;
          Ret (xPos + 1, s)) (xPos, s) ;;
      Ret (p + nbPos, xPos, s)) (0, 0, s) = (s <- for_ (dv_M d * y) (one_bit d ls on act) s ;; Ret (length (concat (map (fun v => length v :: v) (firstn y ls))), dv_M d * y, s))).
  { induction y as [|y IH]; intros Hy. { rewrite Nat.mul_0_r. auto. }
    rewrite for_S, IH by lia. rewrite bind_assoc. cbn [bind].
    replace (dv_M d * Datatypes.S y) with (dv_M d * y + dv_M d) by lia. rewrite for_app. rewrite bind_assoc. apply bind_ext. intros s1 _. cbn [bind].
    destruct (flat_at ls y ltac:(lia)) as (a & b & ET & LA). rewrite <- EN in ET. rewrite <- LA.
    assert (R1 : rd (dv_enc d) (length a) = Ret (length (nth y ls []))). { unfold rd. rewrite ET, nth_error_app2, Nat.sub_diag by lia. auto. }
    rewrite R1. cbn [bind].
    assert (LINE : forall x l (s : S), for_ (length (nth y ls [])) (fun q s => v <- rd (dv_enc d) (length a + 1 + q) ;; if dv_NmK d =? 0 then Undef else act x ((v + l * dv_Q d) mod dv_NmK d) s) s
        = each (nth y ls []) (fun v s => act x ((v + l * dv_Q d) mod dv_NmK d) s) s).
    { intros x l s2. rewrite <- for_rd_each. apply for_ext. intros q s3 Hq. rewrite (proj2 (Nat.eqb_neq (dv_NmK d) 0)) by lia.
      assert (R2 : rd (dv_enc d) (length a + 1 + q) = rd (nth y ls []) q). { unfold rd. rewrite ET. rewrite nth_error_app2 by lia. replace (length a + 1 + q - length a) with (Datatypes.S q) by lia. cbn [app nth_error]. rewrite nth_error_app1 by auto. auto. }
      rewrite R2. auto. }
    assert (INNER : forall cnt l s2, l + cnt <= dv_M d -> for_from l cnt (fun l '(xPos, s) =>
          b <- on xPos ;;
          s <- (if b : bool then
                  for_ (length (nth y ls [])) (fun q s =>
                    v <- rd (dv_enc d) (length a + 1 + q) ;;
                    if dv_NmK d =? 0 then Undef else act xPos ((v + l * dv_Q d) mod dv_NmK d) s) s
                else Ret s) ;;
          Ret (xPos + 1, s)) (dv_M d * y + l, s2) = (s <- for_from (dv_M d * y + l) cnt (one_bit d ls on act) s2 ;; Ret (dv_M d * y + l + cnt, s))).
    { induction cnt as [|cnt IHc]; intros l s2 Hl; cbn [for_from]. { cbn [bind]. rewrite Nat.add_0_r. auto. }
      rewrite !bind_assoc. unfold one_bit at 1. rewrite bind_assoc. apply bind_ext. intros bb _.
      assert (D : (dv_M d * y + l) / dv_M d = y) by (symmetry; apply (Nat.div_unique _ _ _ l); lia).
      assert (MO : (dv_M d * y + l) mod dv_M d = l) by (symmetry; apply (Nat.mod_unique _ _ y l); lia).
      rewrite D, MO. rewrite LINE. rewrite bind_assoc. apply bind_ext. intros s3 _. cbn [bind]. replace (dv_M d * y + l + 1) with (dv_M d * y + Datatypes.S l) by lia. rewrite IHc by lia.
      replace (Datatypes.S (dv_M d * y + l)) with (dv_M d * y + Datatypes.S l) by lia. apply bind_ext. intros s4 _. do 2 f_equal. lia. }
    specialize (INNER (dv_M d) 0 s1 ltac:(lia)). rewrite Nat.add_0_r in INNER.
    match goal with |- bind ?X _ = _ => replace X with (s <- for_from (dv_M d * y) (dv_M d) (one_bit d ls on act) s1 ;; Ret (dv_M d * y + dv_M d, s)) by (symmetry; exact INNER) end.
    rewrite bind_assoc. apply bind_ext. intros s5 _. cbn [bind]. do 3 f_equal.
    rewrite LA. assert (FS : firstn (Datatypes.S y) ls = firstn y ls ++ [nth y ls []]).
    { clear - Hy LL. assert (H : y < length ls) by lia. clear Hy LL. revert y H. induction ls as [|l ls IH]; intros y H; [cbn in H; lia|]. destruct y; auto. cbn [nth]. change (firstn (Datatypes.S (Datatypes.S y)) (l :: ls)) with (l :: firstn (Datatypes.S y) ls). rewrite IH by (cbn in H; lia). auto. }
    rewrite FS, map_app, concat_app, app_length. cbn [map concat length app]. rewrite app_nil_r. lia. }
  rewrite MAIN by auto. rewrite bind_assoc. cbn [bind]. destruct (for_ (dv_M d * dv_lines d) (one_bit d ls on act) s); auto.
Qed.

Lemma each_map : forall A B S (g : A -> B) (l : list A) (body : B -> S -> outcome S) s, each l (fun a s => body (g a) s) s = each (map g l) body s.
Proof. intros A B S g l body. induction l as [|a l IH]; intros s; cbn [each map]; auto. apply bind_ext. intros. apply IH. Qed.

Lemma shift_nodup : forall n s l, 0 < n -> NoDup (map (fun x => x mod n) l) -> NoDup (map (fun x => (x + s) mod n) l).
Proof.
  intros n s l Hn. induction l as [|x l IH]; intros ND; [constructor|]. cbn [map] in *. apply NoDup_cons_iff in ND. destruct ND as [NI ND]. constructor; auto. intros I. apply NI. apply in_map_iff in I. destruct I as (y & E & I). apply in_map_iff. exists y. split; auto.
  assert (Q : forall a b, (a + s) mod n = (b + s) mod n -> a mod n = b mod n).
  { intros a b H. rewrite <- (Nat.mod_add a s n), <- (Nat.mod_add b s n) by lia. replace (a + s * n) with ((a + s) + s * (n - 1)) by (rewrite Nat.mul_sub_distr_l; assert (s * 1 <= s * n) by (apply Nat.mul_le_mono_l; lia); lia). replace (b + s * n) with ((b + s) + s * (n - 1)) by (rewrite Nat.mul_sub_distr_l; assert (s * 1 <= s * n) by (apply Nat.mul_le_mono_l; lia); lia).
    rewrite (Nat.add_mod (a + s)), (Nat.add_mod (b + s)), H by lia. auto. }
  apply Q. auto.
Qed.

(** Addresses of information bit x. *)
Definition addr (d : dvbs2) (ls : list (list nat)) (x : nat) : list nat := map (fun v => (v + x mod dv_M d * dv_Q d) mod dv_NmK d) (nth (x / dv_M d) ls []).

Lemma one_bit_addr : forall S d ls on (act : nat -> nat -> S -> outcome S) x s, one_bit d ls on act x s = (b <- on x ;; if b : bool then each (addr d ls x) (act x) s else Ret s).
Proof. intros. unfold one_bit, addr. apply bind_ext. intros b _. destruct b; auto. apply (each_map _ _ _ (fun v => (v + x mod dv_M d * dv_Q d) mod dv_NmK d)). Qed.

Lemma addr_lt : forall d ls x c, 0 < dv_NmK d -> In c (addr d ls x) -> c < dv_NmK d.
Proof. intros d ls x c H I. apply in_map_iff in I. destruct I as (v & <- & _). apply Nat.mod_upper_bound. lia. Qed.
Lemma addr_nodup : forall d ls x, dvbs2_layout d ls -> dvbs2_distinct d ls -> x < dv_K d -> NoDup (addr d ls x).
Proof.
  intros d ls x (_ & LL & _ & EK & NZ) D Hx. apply shift_nodup; auto. apply D. apply nth_In. rewrite LL. apply Nat.div_lt_upper_bound; [intros E; rewrite E in EK; lia|]. rewrite <- EK. auto.
Qed.
Lemma addr_h : forall d ls x c, x < dv_K d -> dvbs2_h d ls x c = existsb (fun a => a =? c) (addr d ls x).
Proof. intros d ls x c Hx. unfold dvbs2_h, addr. rewrite (proj2 (Nat.ltb_lt x (dv_K d))) by auto. induction (nth (x / dv_M d) ls []) as [|v l IH]; auto. cbn [existsb map]. rewrite IH. auto. Qed.

Lemma adds_ok : forall l H n m f x, sp_ok H n m f -> x < n -> NoDup l -> (forall c, In c l -> c < m /\ f x c = false) ->
  exists H', each l (fun c H => sp_add H x c) H = Ret H' /\ sp_ok H' n m (fun v c => f v c || ((v =? x) && existsb (fun a => a =? c) l)).
Proof.
  induction l as [|a l IH]; intros H n m f x K Hx ND A; cbn [each].
  - exists H. split; auto. eapply sp_ok_ext; [|exact K]. intros i j _ _. cbn [existsb]. rewrite andb_false_r, orb_false_r. auto.
  - apply NoDup_cons_iff in ND. destruct ND as [NI ND]. destruct (A a) as [A1 A2]; [left; auto|]. destruct (add_ok _ _ _ _ x a K Hx A1 A2) as (H1 & E1 & K1). rewrite E1. cbn [bind].
    destruct (IH H1 n m _ x K1 Hx ND) as (H2 & E2 & K2). { intros c I. destruct (A c) as [B1 B2]; [right; auto|]. split; auto. unfold setf. rewrite B2. destruct (Nat.eqb_spec c a); [subst; contradiction|]. apply andb_false_r. }
    exists H2. split; auto. eapply sp_ok_ext; [|exact K2]. intros i j _ _. unfold setf. cbn [existsb]. rewrite (Nat.eqb_sym a j). destruct (f i j), (i =? x), (j =? a); auto.
Qed.

Lemma build_H_ok : forall d ls, dvbs2_layout d ls -> dvbs2_distinct d ls -> exists H, dvbs2_build_H d = Ret H /\ sp_ok H (dv_N d) (dv_NmK d) (dvbs2_h d ls).
Proof.
  intros d ls L D. pose proof L as (_ & LL & EN & EK & NZ). unfold dvbs2_build_H. rewrite (walk_ok _ d ls) by auto.
  match goal with |- context [for_ (dv_K d) ?body ?s0] => destruct (for_inv _ (fun x H => sp_ok H (dv_N d) (dv_NmK d) (fun v c => (v <? x) && dvbs2_h d ls v c)) (dv_K d) body s0) as (H & E & K) end.
  - apply new_ok.
  - intros x H Hx K. rewrite one_bit_addr. cbn [bind]. destruct (adds_ok (addr d ls x) H _ _ _ x K) as (H' & E & K').
    + lia. + apply addr_nodup; auto. + intros c I. split; [eapply addr_lt; eauto|]. rewrite Nat.ltb_irrefl. auto.
    + exists H'. split; auto. eapply sp_ok_ext; [|exact K']. intros v c Hv Hc. cbn beta. destruct (Nat.eqb_spec v x) as [->|Nv]; cbn [andb].
      * rewrite Nat.ltb_irrefl. cbn [andb orb]. rewrite (proj2 (Nat.ltb_lt x (Datatypes.S x))) by lia. rewrite addr_h by auto. auto.
      * rewrite orb_false_r. f_equal. destruct (Nat.ltb_spec v x), (Nat.ltb_spec v (Datatypes.S x)); auto; lia.
  - rewrite E. cbn [bind]. replace (dv_N d - dv_K d) with (dv_NmK d) by lia.
    match goal with |- context [for_from (dv_K d) ?cnt ?body ?s0] => destruct (for_from_inv _ (fun x H => sp_ok H (dv_N d) (dv_NmK d) (fun v c => (v <? x) && dvbs2_h d ls v c)) cnt (dv_K d) body s0) as (H2 & E2 & K2) end; auto.
    + intros x H1 Hx K1. cbv zeta. assert (PH : forall c, dvbs2_h d ls x c = (x - dv_K d =? c) || (Datatypes.S (x - dv_K d) =? c)) by (intros c; unfold dvbs2_h; rewrite (proj2 (Nat.ltb_ge x (dv_K d))) by lia; auto).
      destruct (add_ok _ _ _ _ x (x - dv_K d) K1) as (H3 & E3 & K3); [lia|lia|rewrite Nat.ltb_irrefl; auto|]. rewrite E3. cbn [bind].
      destruct (Nat.ltb_spec (x - dv_K d + 1) (dv_NmK d)).
      * destruct (add_ok _ _ _ _ x (x - dv_K d + 1) K3) as (H4 & E4 & K4); [lia|lia| |]. { unfold setf. rewrite Nat.ltb_irrefl, (proj2 (Nat.eqb_neq (x - dv_K d + 1) _)) by lia. rewrite andb_false_r. auto. }
        exists H4. split; auto. eapply sp_ok_ext; [|exact K4]. intros v c Hv Hc. unfold setf. destruct (Nat.eqb_spec v x) as [->|Nv]; cbn [andb].
        -- rewrite Nat.ltb_irrefl. cbn [andb orb]. rewrite (proj2 (Nat.ltb_lt x (Datatypes.S x))) by lia. rewrite PH. destruct (Nat.eqb_spec c (x - dv_K d)), (Nat.eqb_spec (x - dv_K d) c), (Nat.eqb_spec c (x - dv_K d + 1)), (Nat.eqb_spec (Datatypes.S (x - dv_K d)) c); auto; lia.
        -- rewrite !orb_false_r. f_equal. destruct (Nat.ltb_spec v x), (Nat.ltb_spec v (Datatypes.S x)); auto; lia.
      * exists H3. split; auto. eapply sp_ok_ext; [|exact K3]. intros v c Hv Hc. unfold setf. destruct (Nat.eqb_spec v x) as [->|Nv]; cbn [andb].
        -- rewrite Nat.ltb_irrefl. cbn [andb orb]. rewrite (proj2 (Nat.ltb_lt x (Datatypes.S x))) by lia. rewrite PH. rewrite (Nat.eqb_sym (x - dv_K d) c). destruct (Nat.eqb_spec (Datatypes.S (x - dv_K d)) c); [lia|]. rewrite orb_false_r. auto.
        -- rewrite !orb_false_r. f_equal. destruct (Nat.ltb_spec v x), (Nat.ltb_spec v (Datatypes.S x)); auto; lia.
    + rewrite E2. exists H2. split; auto. eapply sp_ok_ext; [|exact K2]. intros v c Hv Hc. cbn beta. rewrite (proj2 (Nat.ltb_lt v _)) by lia. auto.
Qed.

Lemma toggles_ok : forall l K X m (q : nat -> bool), length X = K + m -> NoDup l -> (forall c, In c l -> c < m) -> (forall c, c < m -> nth (K + c) X 0%Z = b2z (q c)) ->
  exists Y, each l (fun pos X => x <- rd X (K + pos) ;; wr X (K + pos) (Z.lxor x 1)) X = Ret Y /\ length Y = K + m /\ (forall i, i < K -> nth i Y 0%Z = nth i X 0%Z) /\
    forall c, c < m -> nth (K + c) Y 0%Z = b2z (xorb (q c) (existsb (fun a => a =? c) l)).
Proof.
  induction l as [|a l IH]; intros K X m q LX ND B Q; cbn [each].
  - exists X. split; auto. split; auto. split; auto. intros c Hc. cbn [existsb]. rewrite xorb_false_r. auto.
  - apply NoDup_cons_iff in ND. destruct ND as [NI ND]. assert (A : a < m) by (apply B; left; auto). rewrite (rd_ok _ 0%Z) by lia. cbn [bind]. rewrite wr_ok by lia. cbn [bind]. rewrite Q by auto. change 1%Z with (b2z true). rewrite lxor_b2z.
    destruct (IH K (upd X (K + a) (b2z (xorb (q a) true))) m (fun c => if c =? a then xorb (q a) true else q c)) as (Y & E & LY & YA & YB); auto.
    + rewrite length_upd. auto. + intros c I. apply B. right. auto.
    + intros c Hc. destruct (Nat.eqb_spec c a) as [->|N]. { rewrite nth_upd_eq by lia. auto. } rewrite nth_upd_neq by lia. auto.
    + exists Y. split; [exact E|]. split; [auto|]. split. { intros i Hi. rewrite YA by auto. rewrite nth_upd_neq by lia. auto. }
      intros c Hc. rewrite YB by auto. cbn [existsb]. rewrite (Nat.eqb_sym a c). destruct (Nat.eqb_spec c a) as [->|N]; cbn [orb]; auto. f_equal.
      assert (F : existsb (fun x => x =? a) l = false). { destruct (existsb _ l) eqn:X1; auto. apply existsb_exists in X1. destruct X1 as (y & I & Y1). apply Nat.eqb_eq in Y1. subst y. contradiction. }
      rewrite F, xorb_false_r. auto.
Qed.

Lemma dvbs2_encode_ok : forall d ls U X, dvbs2_layout d ls -> dvbs2_distinct d ls -> bits U -> length U = dv_K d -> length X = dv_N d ->
  dvbs2_encode d U X = Ret (U ++ map (fun i => b2z (accu (fun c => parity (dv_K d) (fun v => dvbs2_h d ls v c && bit U v)) i)) (seq 0 (dv_NmK d))).
Proof.
  intros d ls U X L D B LU LX. pose proof L as (_ & LL & EN & EK & NZ). unfold dvbs2_encode. rewrite EN in LX. replace (dv_N d - dv_K d) with (dv_NmK d) by lia. set (K := dv_K d) in *. set (m := dv_NmK d) in *.
  destruct (copy_spec _ 0%Z U 0 K X 0) as (X1 & E1 & L1 & A1 & _); [lia|lia|]. rewrite E1. cbn [bind].
  destruct (fill_spec _ 0%Z m X1 K 0%Z) as (X2 & E2 & L2 & A2 & B2); [lia|]. rewrite E2. cbn [bind]. rewrite (walk_ok _ d ls) by auto. fold K.
  match goal with |- context [for_ K ?body ?s0] => destruct (for_inv _ (fun x Y => length Y = K + m /\ (forall i, i < K -> nth i Y 0%Z = nth i U 0%Z) /\ forall c, c < m -> nth (K + c) Y 0%Z = b2z (parity x (fun v => dvbs2_h d ls v c && bit U v))) K body s0) as (Y & E & LY & YA & YB) end.
  - split; [lia|]. split. { intros i Hi. rewrite B2 by lia. apply (A1 i). auto. } intros c Hc. apply A2. auto.
  - intros x Y Hx (LY & YA & YB). rewrite one_bit_addr. rewrite (rd_ok _ 0%Z) by lia. cbn [bind]. rewrite (bit_b2z U x B). assert (BE : (b2z (bit U x) =? 1)%Z = bit U x) by (destruct (bit U x); auto). rewrite BE. destruct (bit U x) eqn:BU.
    + destruct (toggles_ok (addr d ls x) K Y m (fun c => parity x (fun v => dvbs2_h d ls v c && bit U v)) LY) as (Y' & E' & LY' & YA' & YB'); [| |exact YB|].
      * apply addr_nodup; auto. * intros c I. eapply addr_lt; eauto.
      * exists Y'. split; [exact E'|]. split; [auto|]. split. { intros i Hi. rewrite YA', YA by auto. auto. } intros c Hc. rewrite YB' by auto. rewrite par_S, BU, andb_true_r, addr_h by auto. auto.
    + exists Y. split; auto. split; auto. split; auto. intros c Hc. rewrite par_S, BU, andb_false_r, xorb_false_r. auto.
  - rewrite E. cbn [bind]. set (s := fun c => parity K (fun v => dvbs2_h d ls v c && bit U v)) in *.
    match goal with |- context [for_from 1 ?cn ?body ?s0] => destruct (for_from_inv _ (fun k Z => length Z = K + m /\ (forall i, i < K -> nth i Z 0%Z = nth i U 0%Z) /\ forall c, c < m -> nth (K + c) Z 0%Z = b2z (if c <? k then accu s c else s c)) cn 1 body s0) as (Z' & E3 & LZ & ZA & ZB) end.
    + split; [auto|]. split; [auto|]. intros c Hc. rewrite YB by auto. destruct (Nat.ltb_spec c 1); auto. replace c with 0 by lia. auto.
    + intros k Z' Hk (LZ & ZA & ZB). rewrite (rd_ok _ 0%Z) by lia. cbn [bind]. rewrite (rd_ok _ 0%Z) by lia. cbn [bind]. rewrite wr_ok by lia. eexists. split; [reflexivity|]. rewrite length_upd. split; [auto|]. split. { intros i Hi. rewrite nth_upd_neq by lia. auto. }
      intros c Hc. replace (K + k - 1) with (K + (k - 1)) by lia. rewrite !ZB by lia. rewrite Nat.ltb_irrefl, (proj2 (Nat.ltb_lt (k - 1) k)) by lia. rewrite lxor_b2z. destruct (Nat.eq_dec c k) as [->|N].
      * rewrite nth_upd_eq by lia. rewrite (proj2 (Nat.ltb_lt k (Datatypes.S k))) by lia. destruct k; [lia|]. cbn [accu]. rewrite Nat.sub_succ, Nat.sub_0_r, xorb_comm. auto.
      * rewrite nth_upd_neq by lia. rewrite ZB by auto. destruct (Nat.ltb_spec c k), (Nat.ltb_spec c (Datatypes.S k)); auto; lia.
    + rewrite E3. f_equal. apply (list_eq_nth _ 0%Z). { rewrite app_length, map_length, seq_length. lia. } intros i Hi. destruct (Nat.lt_ge_cases i K).
      * rewrite app_nth1 by lia. auto.
      * rewrite app_nth2 by lia. replace i with (K + (i - K)) at 1 by lia. rewrite ZB by lia. rewrite (proj2 (Nat.ltb_lt (i - K) _)) by lia. rewrite LU. rewrite (nth_indep _ 0%Z (b2z (accu s 0))) by (rewrite map_length, seq_length; lia). rewrite (map_nth (fun i => b2z (accu s i))). rewrite seq_nth by lia. auto.
Qed.

Lemma dvbs2_dual : forall d ls, dual_diagonal (dv_K d) (dv_NmK d) (dvbs2_h d ls).
Proof. intros d ls i c Hi Hc. unfold dvbs2_h. rewrite (proj2 (Nat.ltb_ge (dv_K d + i) (dv_K d))) by lia. replace (dv_K d + i - dv_K d) with i by lia. auto. Qed.
