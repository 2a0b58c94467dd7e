(** C69: the DVB-S2 encoder against the parity matrix of the standard tables. *)
From Coq Require Import List Arith Lia Bool ZArith NArith.
From Verif Require Import Base Copy GaloisModel SparseModel SparseSpec SparseProofs FullModel FullSpec FullProofs LDPCModel LDPCSpec LDPCProofs LUProofs GenProofs DVBS2Model DVBS2Spec DVBS2Proofs.
Import ListNotations.

(** H is the matrix described by the table. *)
Theorem C69_build_H : forall d ls, dvbs2_layout d ls -> dvbs2_distinct d ls ->
  exists H, dvbs2_build_H d = Ret H /\ sp_is H (dv_N d) (dv_NmK d) (dvbs2_h d ls).
Proof. intros d ls L D. destruct (build_H_ok d ls L D) as (H & E & K). exists H. split; auto. apply sp_is_ok. auto. Qed.

(** Every message is encoded, in systematic form, into a word that satisfies every check of H. *)
Theorem C69_encode : forall d ls U X, dvbs2_layout d ls -> dvbs2_distinct d ls -> bits U -> length U = dv_K d -> length X = dv_N d ->
  exists Y, dvbs2_encode d U X = Ret Y /\ length Y = dv_N d /\ bits Y /\ firstn (dv_K d) Y = U /\ in_code (dv_N d) (dv_NmK d) (dvbs2_h d ls) (bit Y) /\
    forall H, dvbs2_build_H d = Ret H -> check_hard Y H = Ret true.
Proof.
  intros d ls U X L D B LU LX. eexists. split. { apply (dvbs2_encode_ok d ls U X); auto. } pose proof L as (_ & _ & EN & _). 
  match goal with |- length ?y = _ /\ _ => set (Y := y) end.
  assert (LY : length Y = dv_N d) by (unfold Y; rewrite app_length, map_length, seq_length; lia).
  assert (IN : in_code (dv_N d) (dv_NmK d) (dvbs2_h d ls) (bit Y)). { rewrite EN. apply ira_in_code; auto. apply dvbs2_dual. }
  split; [auto|]. split; [apply bits_sys; auto|]. split. { unfold Y. rewrite <- LU. rewrite firstn_app, Nat.sub_diag, firstn_all. apply app_nil_r. } split; [auto|].
  intros H E. destruct (build_H_ok d ls L D) as (H' & E' & K). rewrite E in E'. inversion E'. subst H'. destruct (check_hard_ok Y H _ _ _ K) as (b & EB & Q); [lia|]. rewrite EB. f_equal. apply Q. auto.
Qed.

(** The encoder has no H: its is_codeword always throws. *)
Theorem C69_is_codeword : forall d e X, ldpc_DVBS2 d = Ret e -> ldpc_is_codeword e X = Throws.
Proof. intros d e X E. unfold ldpc_DVBS2 in E. apply bind_inv in E. destruct E as (u & _ & E). inversion E. auto. Qed.

(* ------------------------------------------------------------------ *)
(** * The tables *)

(** Cut a table into lines. *)
Fixpoint cut (fuel : nat) (t : list N) : option (list (list N)) :=
  match fuel, t with
  | _, [] => Some []
  | 0, _ => None
  | S f, n :: t => let k := N.to_nat n in
      if k <=? length t then option_map (cons (firstn k t)) (cut f (skipn k t)) else None
  end.

Lemma cut_ok : forall f t ls, cut f t = Some ls -> t = concat (map (fun v => N.of_nat (length v) :: v) ls).
Proof.
  induction f as [|f IH]; intros t ls C; destruct t as [|n t]; cbn [cut] in C; try discriminate; try (inversion C; auto; fail).
  destruct (Nat.leb_spec (N.to_nat n) (length t)); try discriminate. destruct (cut f (skipn (N.to_nat n) t)) as [l'|] eqn:E; [|discriminate]. cbn [option_map] in C. inversion C. subst ls. cbn [map concat]. rewrite firstn_length, Nat.min_l by auto. rewrite N2Nat.id. cbn [app]. f_equal. rewrite <- (IH _ _ E). symmetry. apply firstn_skipn.
Qed.

Fixpoint nodupb (l : list N) : bool := match l with [] => true | x :: l => negb (existsb (N.eqb x) l) && nodupb l end.
Lemma nodupb_ok : forall l, nodupb l = true -> NoDup l.
Proof.
  induction l as [|x l IH]; intros H; constructor; cbn in H; apply andb_true_iff in H; destruct H as [H1 H2]; auto. intros I. apply negb_true_iff in H1. assert (E : existsb (N.eqb x) l = true) by (apply existsb_exists; exists x; split; auto; apply N.eqb_refl). rewrite E in H1. discriminate.
Qed.

Definition raw_ok (r : raw) : bool :=
  match cut (length (r_enc r)) (r_enc r) with
  | Some ls => (Z.of_nat (length ls) =? r_lines r)%Z && (r_N r =? r_K r + r_NmK r)%Z && (0 <? r_K r)%Z && (0 <? r_M r)%Z && (r_K r =? r_M r * r_lines r)%Z && (0 <? r_NmK r)%Z && (r_NmK r =? r_M r * r_Q r)%Z &&
      forallb (fun v => nodupb v && forallb (fun x => (Z.of_N x <? r_NmK r)%Z) v) ls
  | None => false
  end.

Lemma raw_ok_spec : forall r, raw_ok r = true -> exists ls, dvbs2_layout (of_raw r) ls /\ dvbs2_distinct (of_raw r) ls /\ (forall v x, In v ls -> In x v -> x < dv_NmK (of_raw r)) /\ dv_NmK (of_raw r) = dv_M (of_raw r) * dv_Q (of_raw r).
Proof.
  intros r H. unfold raw_ok in H. destruct (cut (length (r_enc r)) (r_enc r)) as [ls|] eqn:C; [|discriminate]. apply cut_ok in C.
  repeat match goal with H : _ && _ = true |- _ => apply andb_true_iff in H; destruct H end.
  repeat match goal with H : (_ =? _)%Z = true |- _ => apply Z.eqb_eq in H | H : (_ <? _)%Z = true |- _ => apply Z.ltb_lt in H end.
  match goal with H : forallb _ ls = true |- _ => rename H into F end. rewrite forallb_forall in F.
  assert (B : forall v x, In v ls -> In x v -> (Z.of_N x < r_NmK r)%Z). { intros v x Iv Ix. specialize (F v Iv). apply andb_true_iff in F. destruct F as [_ F]. rewrite forallb_forall in F. apply Z.ltb_lt. auto. }
  assert (LP : (0 <= r_lines r)%Z) by lia.
  exists (map (map N.to_nat) ls). split; [|split; [|split]].
  - split; [|split; [|split; [|split]]]; cbn [of_raw dv_enc dv_lines dv_N dv_K dv_NmK dv_M].
    + rewrite C at 1. rewrite concat_map, !map_map. f_equal. apply map_ext. intros v. cbn [map]. rewrite Nat2N.id, map_length. auto.
    + rewrite map_length. apply Nat2Z.inj. rewrite Z2Nat.id; lia.
    + apply Nat2Z.inj. rewrite Nat2Z.inj_add, !Z2Nat.id; lia.
    + apply Nat2Z.inj. rewrite Nat2Z.inj_mul, !Z2Nat.id; lia.
    + lia.
  - intros v I. apply in_map_iff in I. destruct I as (v0 & <- & I). rewrite map_map. cbn [of_raw dv_NmK].
    rewrite (map_ext_in _ N.to_nat). 2: { intros x Ix. apply Nat.mod_small. specialize (B v0 x I Ix). lia. }
    specialize (F v0 I). apply andb_true_iff in F. destruct F as [F _]. apply nodupb_ok in F. apply FinFun.Injective_map_NoDup; auto. intros a b E. apply N2Nat.inj. auto.
  - intros v x Iv Ix. apply in_map_iff in Iv. destruct Iv as (v0 & <- & Iv). apply in_map_iff in Ix. destruct Ix as (x0 & <- & Ix). specialize (B v0 x0 Iv Ix). cbn [of_raw dv_NmK]. lia.
  - cbn [of_raw dv_NmK dv_M dv_Q]. apply Nat2Z.inj. assert (0 <= r_Q r)%Z by nia. rewrite Nat2Z.inj_mul, !Z2Nat.id; lia.
Qed.

Lemma all_raw_ok : forallb (fun p => raw_ok (snd p)) (values_16200 ++ values_64800) = true.
Proof. vm_compute. reflexivity. Qed.

(** Rates that exist: N and N - K. *)
Definition dvbs2_formats : list (Z * Z) :=
  [(16200, 1800); (16200, 2880); (16200, 3600); (16200, 4320); (16200, 5400); (16200, 6480); (16200, 9000); (16200, 9720); (16200, 10800); (16200, 12960);
   (64800, 6480); (64800, 7200); (64800, 10800); (64800, 12960); (64800, 16200); (64800, 21600); (64800, 25920); (64800, 32400); (64800, 38880); (64800, 43200); (64800, 48600)]%Z.

(** Every table the library provides describes a code (distinct in-range addresses), and the other sizes are refused. *)
Theorem C69_tables : forall K N,
  (In (N, N - K)%Z dvbs2_formats -> exists d ls, build_dvbs2 K N = Ret d /\ dvbs2_layout d ls /\ dvbs2_distinct d ls /\ Z.of_nat (dv_K d) = K /\ Z.of_nat (dv_N d) = N) /\
  (~ In (N, N - K)%Z dvbs2_formats -> build_dvbs2 K N = Throws).
Proof.
  intros K N. pose proof all_raw_ok as A. rewrite forallb_forall in A.
  assert (S : forall k l r, select k l = Some r -> In (k, r) l). { intros k l r E. unfold select in E. destruct (find _ l) as [[a b]|] eqn:F; [|discriminate]. cbn in E. inversion E. subst. apply find_some in F. destruct F as [F1 F2]. cbn in F2. apply Z.eqb_eq in F2. subst. auto. }
  split.
  - intros I. unfold build_dvbs2. cbv zeta.
    assert (G : forall l r, (N - K)%Z = r_NmK r -> N = r_N r -> (forall p, In p l -> raw_ok (snd p) = true) -> select (N - K)%Z l = Some r -> (r_Q r =? (r_N r - r_K r) / r_M r)%Z = true -> K = r_K r -> (r_K r =? r_M r * r_lines r)%Z = true ->
       exists d ls, match select (N - K)%Z l with None => Throws | Some r => _ <- guard (K =? r_K r)%Z ;; _ <- guard (N =? r_N r)%Z ;; _ <- guard (r_Q r =? (r_N r - r_K r) / r_M r)%Z ;; _ <- guard (r_K r =? r_M r * r_lines r)%Z ;; Ret (of_raw r) end = Ret d /\ dvbs2_layout d ls /\ dvbs2_distinct d ls /\ Z.of_nat (dv_K d) = K /\ Z.of_nat (dv_N d) = N).
    { intros l r E1 E2 OK SE EQ EK EL. rewrite SE. subst K. rewrite (proj2 (Z.eqb_eq _ _) E2). rewrite !Z.eqb_refl, EQ, EL. cbn [guard bind]. apply S in SE. apply OK in SE as RO. cbn [snd] in RO. destruct (raw_ok_spec r RO) as (ls & L & D & _). exists (of_raw r), ls. split; auto. split; auto. split; auto.
      cbn [of_raw dv_K dv_N]. rewrite E2. clear - RO. unfold raw_ok in RO. destruct (cut _ _) as [l0|]; [|discriminate]. repeat match goal with H : _ && _ = true |- _ => apply andb_true_iff in H; destruct H end.
      repeat match goal with H : (_ =? _)%Z = true |- _ => apply Z.eqb_eq in H | H : (_ <? _)%Z = true |- _ => apply Z.ltb_lt in H end. lia. }
    unfold dvbs2_formats in I. cbn [In] in I.
    repeat match goal with H : _ \/ _ |- _ => destruct H as [H|H] end; try contradiction; injection I as EN EK; rewrite <- EN; change (16200 =? 16200)%Z with true; change (64800 =? 16200)%Z with false; change (64800 =? 64800)%Z with true; cbn match; rewrite EN;
      (eapply G; [| | | rewrite <- EK; cbv [select]; cbn [find fst snd Z.eqb Pos.eqb option_map values_16200 values_64800]; reflexivity | | |]; [cbn; lia|cbn; lia|intros p Ip; apply A; apply in_app_iff; auto|reflexivity|cbn; lia|reflexivity]).
  - intros I. unfold build_dvbs2. cbv zeta. destruct (Z.eqb_spec N 16200) as [->|]; [|destruct (Z.eqb_spec N 64800) as [->|]; auto].
    + destruct (select (16200 - K) values_16200) as [r|] eqn:E; auto. exfalso. apply I. apply S in E. assert (Q : In (16200 - K)%Z (map fst values_16200)) by (apply (in_map fst) in E; auto). unfold dvbs2_formats. clear - Q. revert Q. generalize (16200 - K)%Z. intros k Q. cbn in Q. repeat (destruct Q as [Q|Q]; [subst k; cbn; tauto|]). destruct Q.
    + destruct (select (64800 - K) values_64800) as [r|] eqn:E; auto. exfalso. apply I. apply S in E. assert (Q : In (64800 - K)%Z (map fst values_64800)) by (apply (in_map fst) in E; auto). unfold dvbs2_formats. clear - Q. revert Q. generalize (64800 - K)%Z. intros k Q. cbn in Q. repeat (destruct Q as [Q|Q]; [subst k; cbn; tauto|]). destruct Q.
Qed.

(** A small code with the same construction: two lines for two bits each, four checks. *)
Definition small : dvbs2 := mkDvbs2 [2; 0; 3; 1; 2] 8 4 4 2 2 2.
Example small_layout : dvbs2_layout small [[0; 3]; [2]] /\ dvbs2_distinct small [[0; 3]; [2]].
Proof. split; [repeat split; cbn; lia|]. intros v [<-|[<-|[]]]; cbn; repeat constructor; cbn; intuition discriminate. Qed.
Example C69_small : dvbs2_encode small [1; 1; 0; 1]%Z (repeat 7%Z 8) = Ret [1; 1; 0; 1; 0; 1; 0; 1]%Z /\ match dvbs2_build_H small with Ret H => check_hard [1; 1; 0; 1; 0; 1; 0; 1]%Z H | _ => Undef end = Ret true.
Proof. vm_compute. auto. Qed.
