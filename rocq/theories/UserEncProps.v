(** C148: the encoder that plays the codewords of a file. *)
From Coq Require Import List Arith Lia Bool ZArith.
From Verif Require Import Base Copy GaloisModel UserEncModel UserEncSpec.
Import ListNotations.
Local Open Scope nat_scope.

Lemma symbol_ok : forall N n f sym k, n * N <= length sym -> firstn (length sym) (uf_sym f) = map Some sym -> k < n * N -> read_symbol (uf_sym f) k = Ret (nth k sym 0%Z).
Proof.
  intros N n f sym k L F Hk. unfold read_symbol. assert (FK : firstn k (uf_sym f) = firstn k (map Some sym)) by (rewrite <- F, firstn_firstn; f_equal; lia). rewrite FK.
  assert (FB : forallb (fun s : option Z => match s with Some _ => true | None => false end) (firstn k (map Some sym)) = true). { rewrite firstn_map. apply forallb_forall. intros s Hs. apply in_map_iff in Hs. destruct Hs as (v & <- & _). auto. } rewrite FB. cbn [bind].
  assert (LS : length sym <= length (uf_sym f)). { assert (X := f_equal (@length _) F). rewrite firstn_length, map_length in X. lia. }
  rewrite (rd_ok _ None) by lia. cbn [bind]. assert (NK : nth k (uf_sym f) None = Some (nth k sym 0%Z)). { rewrite <- (firstn_skipn (length sym) (uf_sym f)), F. rewrite app_nth1 by (rewrite map_length; lia). rewrite (nth_indep _ None (Some 0%Z)) by (rewrite map_length; lia). apply map_nth. }
  rewrite NK. reflexivity.
Qed.
Lemma words_ok : forall w K N n f sym, complete K N n f sym -> gen n (fun i => gen N (fun j => s <- read_symbol (uf_sym f) (i * N + j) ;; Ret (cast w s))) = Ret (tab n (word_of w N sym)).
Proof.
  intros w K N n f sym (_ & _ & _ & L & F). rewrite (gen_ok _ n _ (word_of w N sym)); [reflexivity|]. intros i Hi. rewrite (gen_ok _ N _ (fun j => cast w (nth (i * N + j) sym 0%Z))); [reflexivity|]. intros j Hj. rewrite (symbol_ok N n f sym); auto. assert (S i * N <= n * N) by (apply Nat.mul_le_mono_r; lia). cbn [Nat.mul] in *. lia.
Qed.
Lemma read_pos_ok : forall K f p, (Z.of_nat K < 2 ^ 32)%Z -> listed K f p -> read_pos (uf_pos f) = Some p.
Proof.
  intros K f p HK (E & L & ND & B). rewrite E. unfold read_pos. rewrite Z.mod_small by lia. rewrite L, Z.eqb_refl. cbn [negb].
  assert (G : forall l acc, NoDup (acc ++ l) -> Forall (fun v => 0 <= v < 2 ^ 32)%Z l -> fold_left (fun acc v => match acc with None => None | Some l => let v := (v mod 2 ^ 32)%Z in if existsb (fun q => (q =? v)%Z) l then None else Some (l ++ [v]) end) l (Some acc) = Some (acc ++ l)).
  { induction l as [|v l IH]; intros acc N F; cbn [fold_left]; [rewrite app_nil_r; auto|]. inversion F as [|? ? F1 F2]; subst. cbv zeta. rewrite Z.mod_small by auto.
    assert (X : existsb (fun q => (q =? v)%Z) acc = false). { apply not_true_is_false. intros H. apply existsb_exists in H. destruct H as (q & IN & EQ). apply Z.eqb_eq in EQ. subst q. apply NoDup_remove_2 in N. apply N. apply in_or_app. auto. }
    rewrite X. rewrite IH; [rewrite <- app_assoc; reflexivity|rewrite <- app_assoc; exact N|auto]. }
  apply (G p []); auto.
Qed.
Lemma new_ok : forall w K N n f sym p start, 0 < K <= N -> 0 < n -> (Z.of_nat K < 2 ^ 32)%Z -> complete K N n f sym -> positions K f p ->
  ue_new w K N f start = Ret (mkUE K N (tab n (word_of w N sym)) (Z.rem start (Z.of_nat n)) p).
Proof.
  intros w K N n f sym p start HK Hn H32 C P. assert (C' := C). destruct C' as (E1 & E2 & E3 & _). unfold ue_new. rewrite E1, E2, E3.
  destruct (Nat.eqb_spec K 0); [lia|]. destruct (Nat.eqb_spec N 0); [lia|]. destruct (Nat.ltb_spec N K); [lia|]. cbn [orb]. destruct (Z.leb_spec (Z.of_nat n) 0); [lia|]. destruct (Z.leb_spec (Z.of_nat K) 0); [lia|]. destruct (Z.leb_spec (Z.of_nat N) 0); [lia|]. cbn [orb]. destruct (Z.ltb_spec (Z.of_nat N) (Z.of_nat K)); [lia|]. rewrite !Z.eqb_refl. cbn [andb]. rewrite Nat2Z.id. rewrite (words_ok w K N n f sym C). cbn [bind]. rewrite length_tab.
  assert (EP : match read_pos (uf_pos f) with Some p => p | None => map Z.of_nat (seq 0 K) end = p /\ length p = K). { destruct P as [P|[P ->]]; [rewrite (read_pos_ok K f p H32 P); split; [auto|apply P]|rewrite P; cbn; rewrite map_length, seq_length; auto]. }
  destruct EP as [-> ->]. rewrite Nat.eqb_refl. reflexivity.
Qed.
Lemma encode_one : forall w K N n sym p u x c, 0 < n -> length x = N -> c < n ->
  ue_encode u x (mkUE K N (tab n (word_of w N sym)) (Z.of_nat c) p) = Ret (word_of w N sym c, mkUE K N (tab n (word_of w N sym)) (Z.of_nat ((c + 1) mod n)) p).
Proof.
  intros w K N n sym p u x c Hn Lx Hc. unfold ue_encode. cbn [ue_cnt ue_words ue_K ue_N ue_pos]. destruct (Z.ltb_spec (Z.of_nat c) 0); [lia|]. cbn [bind]. rewrite Nat2Z.id. rewrite (rd_ok _ []) by (rewrite length_tab; auto). rewrite nth_tab by auto. cbn [bind].
  assert (LW : length (word_of w N sym c) = N) by apply length_tab. rewrite LW. destruct (copy_spec _ 0%Z (word_of w N sym c) 0 N x 0) as (o & EO & LO & VO & _); [lia|lia|]. rewrite EO. cbn [bind]. rewrite length_tab. f_equal. f_equal.
  - apply (list_eq_nth _ 0%Z); [lia|]. intros i Hi. apply (VO i). lia.
  - f_equal. rewrite Z.rem_mod_nonneg by lia. rewrite Nat2Z.inj_mod. f_equal. lia.
Qed.

(** The k-th call gives codeword number (start + k) modulo their number, whatever the messages are. *)
Theorem C148_codewords : forall w K N n f sym p start us x, 0 < K <= N -> 0 < n -> (Z.of_nat K < 2 ^ 32)%Z -> complete K N n f sym -> positions K f p -> length x = N ->
  exists e e', ue_new w K N f (Z.of_nat start) = Ret e /\ ue_pos e = p /\
  ue_run us x e = Ret (map (fun k => word_of w N sym ((start + k) mod n)) (seq 0 (length us)), e').
Proof.
  intros w K N n f sym p start us x HK Hn H32 C P Lx. rewrite (new_ok w K N n f sym p) by auto. rewrite Z.rem_mod_nonneg by lia. rewrite <- Nat2Z.inj_mod.
  assert (R : forall us c, c < n -> exists e', ue_run us x (mkUE K N (tab n (word_of w N sym)) (Z.of_nat c) p) = Ret (map (fun k => word_of w N sym ((c + k) mod n)) (seq 0 (length us)), e')).
  { clear us. induction us as [|u us IH]; intros c Hc; [eexists; reflexivity|]. cbn [ue_run]. rewrite encode_one by auto. cbn [bind]. destruct (IH ((c + 1) mod n)) as (e' & E); [apply Nat.mod_upper_bound; lia|]. rewrite E. cbn [bind length seq map]. exists e'. assert (C0 : (c + 0) mod n = c) by (rewrite Nat.add_0_r; apply Nat.mod_small; auto). rewrite C0. assert (CS : map (fun k => word_of w N sym (((c + 1) mod n + k) mod n)) (seq 0 (length us)) = map (fun k => word_of w N sym ((c + k) mod n)) (seq 1 (length us))). { rewrite <- seq_shift, map_map. apply map_ext. intros k. rewrite Nat.add_mod_idemp_l by lia. replace (c + 1 + k) with (c + S k) by lia. reflexivity. } rewrite CS. reflexivity. }
  assert (SM : start mod n < n) by (apply Nat.mod_upper_bound; lia). destruct (R us (start mod n) SM) as (e' & E). eexists. exists e'. split; [reflexivity|]. split; [reflexivity|]. rewrite E. assert (CS : map (fun k => word_of w N sym ((start mod n + k) mod n)) (seq 0 (length us)) = map (fun k => word_of w N sym ((start + k) mod n)) (seq 0 (length us))) by (apply map_ext; intros k; rewrite Nat.add_mod_idemp_l by lia; reflexivity). rewrite CS. reflexivity.
Qed.
(** Wrong sizes, or a list of positions of another size, are refused. *)
Theorem C148_refused : forall w K N f start, 
  (uf_src f <> Z.of_nat K \/ uf_cw f <> Z.of_nat N \/ (uf_ncw f <= 0)%Z \/ N < K \/ K = 0 -> ue_new w K N f start = Throws) /\
  forall n sym p k, complete K N n f sym -> listed k f p -> (Z.of_nat k < 2 ^ 32)%Z -> k <> K -> ue_new w K N f start = Throws.
Proof.
  intros w K N f start. split.
  - intros H. unfold ue_new. destruct (Nat.eqb_spec K 0) as [|K0]; [reflexivity|]. destruct (Nat.eqb_spec N 0); [reflexivity|]. destruct (Nat.ltb_spec N K); [reflexivity|]. cbn [orb]. destruct (Z.leb_spec (uf_ncw f) 0); [reflexivity|]. cbn [orb]. destruct (_ || _); [reflexivity|]. destruct (_ <? _)%Z; [reflexivity|]. destruct (Z.eqb_spec (uf_src f) (Z.of_nat K)) as [A|A]; cbn [andb]; [|reflexivity]. destruct (Z.eqb_spec (uf_cw f) (Z.of_nat N)) as [B|B]; [|reflexivity]. exfalso. lia.
  - intros n sym p k C P H32 NE. unfold ue_new. assert (C' := C). destruct C' as (E1 & _). rewrite E1. destruct (_ || _ || _); [reflexivity|]. destruct (_ || _ || _); [reflexivity|]. destruct (_ <? _)%Z; [reflexivity|]. destruct (_ && _); [|reflexivity]. rewrite Nat2Z.id, (words_ok w K N n f sym C). cbn [bind]. rewrite (read_pos_ok k f p H32 P). destruct P as (_ & -> & _). destruct (Nat.eqb_spec k K); [contradiction|reflexivity].
Qed.
(** Refuted: a list with a repeated position is not refused, the positions 0 to K - 1 are then used. *)
Theorem C148_repeated_refuted : forall w K N n f sym l1 v l2 l3 start, 0 < K <= N -> 0 < n -> complete K N n f sym -> uf_pos f = Some (Z.of_nat K, l1 ++ v :: l2 ++ v :: l3) -> length (l1 ++ v :: l2 ++ v :: l3) = K ->
  exists e, ue_new w K N f start = Ret e /\ ue_pos e = map Z.of_nat (seq 0 K).
Proof.
  intros w K N n f sym l1 v l2 l3 start HK Hn C EP LP. assert (C' := C). destruct C' as (E1 & E2 & E3 & _). unfold ue_new. rewrite E1, E2, E3.
  destruct (Nat.eqb_spec K 0); [lia|]. destruct (Nat.eqb_spec N 0); [lia|]. destruct (Nat.ltb_spec N K); [lia|]. cbn [orb]. destruct (Z.leb_spec (Z.of_nat n) 0); [lia|]. destruct (Z.leb_spec (Z.of_nat K) 0); [lia|]. destruct (Z.leb_spec (Z.of_nat N) 0); [lia|]. cbn [orb]. destruct (Z.ltb_spec (Z.of_nat N) (Z.of_nat K)); [lia|]. rewrite !Z.eqb_refl. cbn [andb]. rewrite Nat2Z.id. rewrite (words_ok w K N n f sym C). cbn [bind].
  assert (RN : read_pos (uf_pos f) = None).
  { rewrite EP. unfold read_pos. destruct (negb _); [reflexivity|].
    set (F := fun (acc : option (list Z)) (v : Z) => match acc with None => None | Some l => let v := (v mod 2 ^ 32)%Z in if existsb (fun q => (q =? v)%Z) l then None else Some (l ++ [v]) end).
    assert (NN : forall l, fold_left F l None = None) by (induction l; auto).
    assert (IN : forall l acc, match fold_left F l (Some acc) with None => True | Some r => exists t, r = acc ++ t end). { induction l as [|a l IH]; intros acc; cbn [fold_left]; [exists []; rewrite app_nil_r; auto|]. unfold F at 2. cbv zeta. destruct (existsb _ acc); [rewrite NN; auto|]. specialize (IH (acc ++ [(a mod 2 ^ 32)%Z])). destruct (fold_left F l _); auto. destruct IH as (t & ->). rewrite <- app_assoc. eexists. reflexivity. }
    assert (EX : forall acc, In (v mod 2 ^ 32)%Z acc -> F (Some acc) v = None). { intros acc HI. unfold F. cbv zeta. assert (X : existsb (fun q => (q =? v mod 2 ^ 32)%Z) acc = true) by (apply existsb_exists; exists (v mod 2 ^ 32)%Z; split; [auto|apply Z.eqb_refl]). rewrite X. reflexivity. }
    rewrite fold_left_app. destruct (fold_left F l1 (Some [])) as [a1|] eqn:EA; [|apply NN]. cbn [fold_left].
    destruct (F (Some a1) v) as [a2|] eqn:E5; [|apply NN].
    assert (I2 : In (v mod 2 ^ 32)%Z a2). { unfold F in E5. cbv zeta in E5. destruct (existsb _ a1); [discriminate|]. inversion E5. apply in_or_app. right. left. auto. }
    rewrite fold_left_app. specialize (IN l2 a2). destruct (fold_left F l2 (Some a2)) as [a3|]; [|apply NN]. destruct IN as (t & ->). cbn [fold_left]. rewrite EX; [apply NN|apply in_or_app; auto]. }
  rewrite RN, map_length, seq_length, Nat.eqb_refl. cbn [negb]. eexists. split; reflexivity.
Qed.
(** Refuted: with a negative first index (not a multiple of the number of codewords) the first call reads before the codewords. *)
Theorem C148_negative_refuted : forall w K N n f sym p start u x, 0 < K <= N -> 0 < n -> (Z.of_nat K < 2 ^ 32)%Z -> complete K N n f sym -> positions K f p -> (start < 0)%Z -> (start mod Z.of_nat n <> 0)%Z ->
  exists e, ue_new w K N f start = Ret e /\ ue_encode u x e = Undef.
Proof.
  intros w K N n f sym p start u x HK Hn H32 C P HS HM. rewrite (new_ok w K N n f sym p) by auto. eexists. split; [reflexivity|]. unfold ue_encode. cbn [ue_cnt].
  assert (R1 : (Z.rem start (Z.of_nat n) <= 0)%Z) by (apply Z.rem_nonpos; lia). assert (R2 : Z.rem start (Z.of_nat n) <> 0%Z). { intros H. apply HM. apply Z.rem_divide in H; [|lia]. apply Z.mod_divide; [lia|auto]. }
  destruct (Z.ltb_spec (Z.rem start (Z.of_nat n)) 0); [reflexivity|lia].
Qed.
(** Refuted: a file with too few symbols is not refused; symbols are then uninitialised values. *)
Theorem C148_short_refuted : forall w K N n f start, 0 < K <= N -> 0 < n -> uf_ncw f = Z.of_nat n -> uf_cw f = Z.of_nat N -> uf_src f = Z.of_nat K -> length (uf_sym f) < N -> ue_new w K N f start = Undef.
Proof.
  intros w K N n f start HK Hn E1 E2 E3 LS. unfold ue_new. rewrite E1, E2, E3.
  destruct (Nat.eqb_spec K 0); [lia|]. destruct (Nat.eqb_spec N 0); [lia|]. destruct (Nat.ltb_spec N K); [lia|]. cbn [orb]. destruct (Z.leb_spec (Z.of_nat n) 0); [lia|]. destruct (Z.leb_spec (Z.of_nat K) 0); [lia|]. destruct (Z.leb_spec (Z.of_nat N) 0); [lia|]. cbn [orb]. destruct (Z.ltb_spec (Z.of_nat N) (Z.of_nat K)); [lia|]. rewrite !Z.eqb_refl. cbn [andb]. rewrite Nat2Z.id.
  assert (U : forall k, length (uf_sym f) <= k -> read_symbol (uf_sym f) k = Undef). { intros k Hk. unfold read_symbol. destruct (forallb _ _); [|reflexivity]. cbn [bind]. unfold rd. rewrite (proj2 (nth_error_None _ _)) by auto. reflexivity. }
  assert (T : forall k, (exists v, read_symbol (uf_sym f) k = Ret v) \/ read_symbol (uf_sym f) k = Undef). { intros k. unfold read_symbol. destruct (forallb _ _); [|auto]. cbn [bind]. unfold rd. destruct (nth_error _ _); cbn [bind]; eauto. }
  assert (G : forall m lo, lo <= length (uf_sym f) < lo + m -> gen_from lo m (fun j => s <- read_symbol (uf_sym f) (0 * N + j) ;; Ret (cast w s)) = Undef).
  { induction m as [|m IH]; intros lo HL; [lia|]. cbn [gen_from Nat.mul Nat.add]. destruct (T lo) as [(v & E)|E]; rewrite E; cbn [bind]; [|reflexivity]. destruct (Nat.eq_dec lo (length (uf_sym f))) as [EQ|NE]; [rewrite U in E by lia; discriminate|]. cbn [Nat.mul Nat.add] in IH. rewrite IH by lia. reflexivity. }
  destruct n as [|n]; [lia|]. unfold gen at 1. cbn [gen_from]. unfold gen at 1. rewrite G by lia. reflexivity.
Qed.

(** * The hypotheses are met *)
Example C148_meets : exists f e, complete 2 3 2 f [0;1;1;1;0;1]%Z /\ positions 2 f [2;0]%Z /\ ue_new 32 2 3 f 3 = Ret e /\ exists e', ue_run [[0;0];[1;1];[0;1]]%Z [0;0;0]%Z e = Ret ([[1;0;1];[0;1;1];[1;0;1]]%Z, e').
Proof.
  exists (mkUF 2 3 2 (map Some [0;1;1;1;0;1]%Z) (Some (2%Z, [2;0]%Z))). eexists. split; [repeat split; cbn; auto|]. split.
  - left. split; [reflexivity|]. split; [reflexivity|]. split; [repeat constructor; cbn; intuition discriminate|repeat constructor; cbn; discriminate].
  - split; [reflexivity|]. eexists. reflexivity.
Qed.
