(** C25: the standard BCH decoder corrects up to t errors. *)
From Coq Require Import List Arith NArith ZArith Lia Bool.
From Verif Require Import Base Copy GField BMTheory GaloisModel GaloisSpec GaloisTheory GaloisPrim GaloisProofs GaloisProps GFTab
  BCHModel BCHSpec BCHSets BCHEncProofs BCHCode BCHEncProps BMProofs LocProofs BCHDecProofs.
Import ListNotations.

(** The result (ok, y') of decoding y in the code of length N for t errors over GF(2^m). *)
Definition bch_decoded (P : N) (m t N : nat) (y : list Z) (ok : bool) (y' : list Z) : Prop :=
  length y' = N /\ bits y' /\
  (** a failure leaves the word unchanged, *)
  (ok = false -> y' = y) /\
  (** a codeword at distance at most t is found, *)
  (forall c, length c = N -> bch_codeword P t c -> hdist y c <= t -> ok = true /\ y' = c) /\
  (** and, for a code that is not shortened, a success means that such a codeword was found. *)
  (ok = true -> N = 2 ^ m - 1 -> bch_codeword P t y' /\ hdist y y' <= t).

(** Successive calls of the decoder (decode_hiho_cw) from the constructed work space. *)
Fixpoint bch_calls (t N n : nat) (alpha index : list Z) (ys : list (list Z)) (yh v : list Z) (w : bch_mem) : outcome (list (bool * bool * list Z)) :=
  match ys with
  | [] => Ret []
  | y :: ys => ' r <- bch_decode_hiho_cw t N n alpha index y yh w v ;;
               let '(ok, cw, v, yh, w) := r in
               rs <- bch_calls t N n alpha index ys yh v w ;; Ret ((ok, cw, v) :: rs)
  end.

Lemma next_pow2_ok : forall m N, 1 <= m -> 2 ^ (m - 1) <= N < 2 ^ m -> next_power_of_2 N = 2 ^ m.
Proof.
  intros m N Hm HN. unfold next_power_of_2.
  assert (G : forall k fuel j, j + k = m -> k <= fuel -> next_pow2_loop fuel (2 ^ j) N = 2 ^ m).
  { induction k; intros fuel j Hj Hf.
    - replace j with m by lia. destruct fuel; cbn [next_pow2_loop]; auto. destruct (Nat.leb_spec (2 ^ m) N); auto. lia.
    - destruct fuel; [lia|]. cbn [next_pow2_loop]. assert (2 ^ j <= 2 ^ (m - 1)) by (apply Nat.pow_le_mono_r; lia). destruct (Nat.leb_spec (2 ^ j) N); [|lia].
      change (2 * 2 ^ j) with (2 ^ S j). apply IHk; lia. }
  apply (G m _ 0); auto. assert (m - 1 < 2 ^ (m - 1)) by (apply Nat.pow_gt_lin_r; lia). lia.
Qed.

Section Use.
Variables (w : Z) (m : nat) (p : list Z) (t : nat) (gf : galois) (g : list Z).
Hypothesis S : bch_setup w m p t gf g.
Hypothesis H2 : 2 * t < 2 ^ m - 1.
Variables (K N n : nat).
Hypothesis HC : bch_dec_ctor K N (length g - 1) = Ret n.
(** The length of the code matches the field. *)
Hypothesis HN : 2 ^ (m - 1) <= N < 2 ^ m.
Hypothesis Hint : (Z.of_nat (2 * t) * Z.of_nat N < 2 ^ 31)%Z.

Lemma dec_ctor_inv : 3 < K /\ N = K + (length g - 1) /\ n = 2 ^ m - 1.
Proof.
  unfold bch_dec_ctor, guard in HC. destruct (Nat.ltb_spec 0 K); cbn [bind] in HC; [|discriminate]. destruct (Nat.ltb_spec 0 N); cbn [bind] in HC; [|discriminate].
  destruct (Nat.leb_spec K N); cbn [bind] in HC; [|discriminate]. destruct (Nat.ltb_spec 3 K); cbn [bind] in HC; [|discriminate]. destruct (Nat.eqb_spec (N - K) (length g - 1)); cbn [bind] in HC; [|discriminate].
  destruct S as (Hm & _). rewrite (next_pow2_ok m) in HC by lia. inversion HC. repeat split; auto; lia.
Qed.

Lemma one_call : forall y mem, length y = N -> bits y -> mem_ok n t mem ->
  exists ok y' mem', bch_decode t N n (alpha_to gf) (index_of gf) y mem = Ret (ok, ok, y', mem') /\ mem_ok n t mem' /\ bch_decoded (poly_of (gf_p gf)) m t N y ok y'.
Proof.
  intros y mem Ly By MK. destruct dec_ctor_inv as (K3 & EN & En). destruct (setup_code _ _ _ _ _ _ S) as (P & Hm & HP & L & EP & TB & C & R & _). rewrite <- EP.
  destruct S as (_ & _ & _ & Ht & _). subst n.
  destruct (decode_ok _ _ _ _ _ _ _ TB t N Ht H2 ltac:(lia) Hint y mem Ly By MK) as (ok & y' & mem' & E & MK' & Ly' & By' & J1 & J2 & J3).
  exists ok, y', mem'. split; auto. split; auto. unfold bch_decoded. split; auto. split; auto. split; auto. split.
  - intros c Lc [Bc Hc] HD. apply J2; auto. intros k Hk. apply has_root_wv; auto.
  - intros Hok Nn. destruct (J3 Hok Nn) as [A B]. split; auto. split; auto. intros i Hi. apply (has_root_wv m P Hm HP); auto.
Qed.

Lemma copy_all : forall (a b : list Z), length a = N -> length b = N -> copy a 0 N b 0 = Ret a.
Proof.
  intros a b La Lb. destruct (copy_spec _ 0%Z a 0 N b 0) as (d & E & Ld & HD & _); try lia. rewrite E. f_equal. apply (nth_ext _ _ 0%Z 0%Z); [lia|]. intros i Hi.
  apply (HD i). lia.
Qed.

(** Every call, whatever the previous ones, returns normally, reports cw as ok, and meets the
    specification. *)
Theorem C25_decode : forall ys yh v, Forall (fun y => length y = N /\ bits y) ys -> length yh = N -> length v = N ->
  exists rs, bch_calls t N n (alpha_to gf) (index_of gf) ys yh v (bch_mem_init t n) = Ret rs /\
    Forall2 (fun y r => let '(ok, cw, y') := r in cw = ok /\ bch_decoded (poly_of (gf_p gf)) m t N y ok y') ys rs.
Proof.
  intros ys yh v HY Lh Lv. pose proof (mem_init_ok n t) as MK. revert yh v Lh Lv MK. generalize (bch_mem_init t n). induction HY as [|y ys [Ly By] HY IH]; intros mem yh v Lh Lv MK; cbn [bch_calls].
  - exists []. split; auto.
  - unfold bch_decode_hiho_cw. rewrite copy_all by auto. cbn [bind]. destruct (one_call y mem Ly By MK) as (ok & y' & mem' & E & MK' & J). rewrite E. cbn [bind].
    assert (Ly' : length y' = N) by apply J. rewrite copy_all by auto. cbn [bind].
    destruct (IH mem' y' y' Ly' Ly' MK') as (rs & ER & F). rewrite ER. cbn [bind]. eexists. split; [reflexivity|]. constructor; auto.
Qed.

(** Encoding, adding at most t errors and decoding gives the message back. *)
Theorem C25_message : forall pos u x c y yh v, bch_enc_ctor K N g = Ret pos -> length u = K -> bits u -> length x = N -> bch_encode K g u x = Ret c ->
  length y = N -> bits y -> hdist y c <= t -> length yh = N -> length v = K ->
  exists mem, bch_decode_hiho t N n (alpha_to gf) (index_of gf) K y yh (bch_mem_init t n) v = Ret (true, true, u, c, mem).
Proof.
  intros pos u x c y yh v Ec Lu Bu Lx Ee Ly By HD Lh Lv. destruct dec_ctor_inv as (K3 & EN & En).
  destruct (C24_encode w m p t gf g S H2 K N pos Ec u x Lu Bu Lx) as (c' & E' & Lc & CW & Hp & HU). rewrite Ee in E'. inversion E'; subst c'. clear E'.
  unfold bch_decode_hiho. rewrite copy_all by auto. cbn [bind]. destruct (one_call y _ Ly By (mem_init_ok n t)) as (ok & y' & mem' & E & MK' & J). rewrite E. cbn [bind].
  destruct J as (_ & _ & _ & J & _). destruct (J c Lc CW HD) as [-> ->].
  destruct (copy_spec _ 0%Z c (N - K) K v 0) as (d & Ed & Ld & HD' & _); try lia. rewrite Ed. cbn [bind]. exists mem'. f_equal. f_equal. f_equal. f_equal.
  apply (nth_ext _ _ 0%Z 0%Z); [lia|]. intros i Hi. change i with (0 + i) at 1. rewrite HD' by lia. rewrite <- HU by lia. rewrite Hp by lia. reflexivity.
Qed.
End Use.

(** Distinct codewords differ in at least 2t + 1 positions. *)
Theorem C25_distance : forall w m p t gf g, bch_setup w m p t gf g -> forall N c c', N <= 2 ^ m - 1 -> length c = N -> length c' = N ->
  bch_codeword (poly_of (gf_p gf)) t c -> bch_codeword (poly_of (gf_p gf)) t c' -> c <> c' -> 2 * t + 1 <= hdist c c'.
Proof.
  intros w m p t gf g S N c c' HN Lc Lc' [Bc Hc] [Bc' Hc'] NE. destruct (le_lt_dec (2 * t + 1) (hdist c c')) as [|HD]; auto. exfalso. apply NE.
  destruct (setup_code _ _ _ _ _ _ S) as (P & Hm & HP & L & EP & T & _). rewrite <- EP in *.
  set (F := GF m P Hm HP) in *. set (al := gal m P Hm HP) in *.
  rewrite (hdist_supp F N) in HD by auto.
  destruct (supp_facts F _ al _ _ _ _ T (dif F c c') N HN) as (F1 & F2 & F3 & F4).
  assert (V : forall x, In x (map (pw F al) (supp F (dif F c c') N)) -> (fun x => dif F c c' (lg F (gxf m P gf Hm HP) x)) x = f0 F).
  { apply (vandermonde F); auto. rewrite map_length. intros k Hk. pose proof (wv_dif F N c c' (pw F al k) Lc Lc') as W.
    assert (Z1 : wv F c (pw F al k) = f0 F) by (apply has_root_wv; auto; apply Hc; lia). assert (Z2 : wv F c' (pw F al k) = f0 F) by (apply has_root_wv; auto; apply Hc'; lia).
    rewrite Z1, Z2, fadd_0 in W. symmetry in W. rewrite <- W at 1. symmetry. apply (supp_psum F _ al _ _ _ _ T). auto. }
  apply (nth_ext _ _ 0%Z 0%Z); [lia|]. intros j Hj. destruct (Z.eq_dec (nth j c 0%Z) (nth j c' 0%Z)); auto. exfalso.
  assert (I : In j (supp F (dif F c c') N)). { apply in_supp. split; [lia|]. apply (dif_n0 F N); auto. lia. }
  apply (F3 (pw F al j)). { apply in_map. auto. } apply V. apply in_map. auto.
Qed.

(** The decoder derives its modulus from N and not from the field.  With the field of 32 elements,
    t = 2 and N = 15 the constructors accept the code, but decoding a codeword accesses a table
    with a negative index. *)
Definition ex5_gf : galois := match galois_ctor 32 31 [] with Ret g => g | _ => Build_galois 0 0 [] [] [] end.
Definition ex5_g : list Z := match bch_poly ex5_gf 2 with Ret g => g | _ => [] end.
Theorem C25_short_modulus_refuted : bch_setup 32 5 [] 2 ex5_gf ex5_g /\ (exists pos, bch_enc_ctor 5 15 ex5_g = Ret pos) /\ bch_dec_ctor 5 15 (length ex5_g - 1) = Ret 15 /\
  bch_encode 5 ex5_g [1;0;0;0;0]%Z (repeat 0%Z 15) = Ret [1;0;0;1;0;1;1;0;1;1;1;0;0;0;0]%Z /\
  bch_decode 2 15 15 (alpha_to ex5_gf) (index_of ex5_gf) [1;0;0;1;0;1;1;0;1;1;1;0;0;0;0]%Z (bch_mem_init 2 15) = Undef.
Proof.
  split. { unfold bch_setup. split; [lia|]. split; [lia|]. split; [auto|]. split; [lia|]. split; vm_compute; reflexivity. }
  split. { eexists. vm_compute. reflexivity. } split; [vm_compute; reflexivity|]. split; vm_compute; reflexivity.
Qed.

(** In a shortened code a location after the end of the word is skipped, and the decoder reports a
    success with a word that is not a codeword. *)
Definition ex1_g : list Z := match bch_poly ex_gf 1 with Ret g => g | _ => [] end.
Theorem C25_short_success_refuted : bch_setup 32 4 [] 1 ex_gf ex1_g /\ bch_dec_ctor 4 8 (length ex1_g - 1) = Ret 15 /\
  (exists mem, bch_decode 1 8 15 (alpha_to ex_gf) (index_of ex_gf) [1;0;1;0;0;0;0;0]%Z (bch_mem_init 1 15) = Ret (true, true, [1;0;1;0;0;0;0;0]%Z, mem)) /\
  ~ bch_codeword (poly_of (gf_p ex_gf)) 1 [1;0;1;0;0;0;0;0]%Z.
Proof.
  assert (S : bch_setup 32 4 [] 1 ex_gf ex1_g). { unfold bch_setup. split; [lia|]. split; [lia|]. split; [auto|]. split; [lia|]. split; vm_compute; reflexivity. }
  split; auto. split; [vm_compute; reflexivity|]. split. { eexists. vm_compute. reflexivity. }
  destruct (bch_enc_ctor 4 8 ex1_g) as [pos| |] eqn:E; [|vm_compute in E; discriminate|vm_compute in E; discriminate].
  destruct (C24_is_codeword 32 4 [] 1 ex_gf ex1_g S ltac:(cbn; lia) 4 8 pos E [1;0;1;0;0;0;0;0]%Z (repeat 0%Z 4)) as (b & Eb & HB); auto.
  { unfold bits. repeat (constructor; [auto|]). constructor. }
  intros C. apply HB in C. subst b. vm_compute in Eb. discriminate.
Qed.

(** The (15, 7) code meets the hypotheses, and two errors are corrected. *)
Example C25_example : bch_setup 32 4 [] 2 ex_gf ex_g /\ bch_dec_ctor 7 15 (length ex_g - 1) = Ret 15 /\
  exists mem, bch_decode_hiho 2 15 15 (alpha_to ex_gf) (index_of ex_gf) 7 [0;1;1;0;1;0;0;0;1;0;0;1;0;0;1]%Z (repeat 0%Z 15) (bch_mem_init 2 15) (repeat 0%Z 7) =
    Ret (true, true, [1;0;0;1;1;0;1]%Z, [0;1;1;1;1;0;0;0;1;0;0;1;1;0;1]%Z, mem).
Proof. split. { apply C24_example. } split; [vm_compute; reflexivity|]. eexists. vm_compute. reflexivity. Qed.
