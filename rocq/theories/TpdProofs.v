(** Proofs about the decoder of turbo product codes. *)
From Coq Require Import List Arith Lia Bool QArith Lqa.
From Verif Require Import Base FlipProofs LDPCBPModel LDPCBPProofs TpcProofs TpdModel TpdSpec.
Import ListNotations.
Local Open Scope nat_scope.

Lemma permute_ok : forall A (a : A) lut x out, length out = length lut -> (forall i, i < length lut -> nth i lut 0 < length x) -> permute lut x out = Ret (tab (length lut) (fun i => nth (nth i lut 0) x a)).
Proof.
  intros A a lut x out L B. unfold permute. apply (fill A a); auto. intros i o Hi Lo. rewrite (rd_ok _ 0) by auto. cbn [bind]. rewrite (rd_ok _ a) by auto. auto.
Qed.
Lemma through_ok : forall A B (a : A) (b : B) f n m src o dst q, (forall u, length u = n -> length (f u) = m) -> o + n <= length src -> q + m <= length dst ->
  exists dst', through f n m src o dst q = Ret dst' /\ length dst' = length dst /\
  (forall i, i < m -> nth (q + i) dst' b = nth i (f (tab n (fun i => nth (o + i) src a))) b) /\ forall p, p < q \/ q + m <= p -> nth p dst' b = nth p dst b.
Proof.
  intros A B a b f n m src o dst q HF LS LD. unfold through. set (u := tab n (fun i => nth (o + i) src a)).
  rewrite (gen_ok _ n _ (fun i => nth (o + i) src a)) by (intros i Hi; apply rd_ok; lia). cbn [bind]. fold u.
  assert (LE : length (f u) = m) by (apply HF; unfold u; apply length_tab).
  match goal with |- context [for_ m ?bb ?ss] => destruct (for_inv _ (fun k x => length x = length dst /\ (forall i, i < k -> nth (q + i) x b = nth i (f u) b) /\ forall p, p < q \/ q + k <= p -> nth p x b = nth p dst b) m bb ss) as (x & E & L & V & R) end.
  - split; auto. split; auto. intros; lia.
  - intros k x Hk (L & V & R). rewrite (rd_ok _ b) by lia. cbn [bind]. rewrite wr_ok by lia. eexists. split; [reflexivity|]. rewrite length_upd. split; auto. split.
    + intros i Hi. rewrite nth_upd by lia. destruct (Nat.eqb_spec (q + i) (q + k)) as [EK|NE]; [f_equal; lia|]. apply V. lia.
    + intros p Hp. rewrite nth_upd by lia. destruct (Nat.eqb_spec p (q + k)); [lia|]. apply R. lia.
  - exists x. auto.
Qed.

Lemma half_ok : forall f n cnt alpha cha buf, (forall u, length u = n -> length (f u) = n) -> length buf = cnt * n -> length cha = cnt * n ->
  half f n cnt alpha cha buf = Ret (rows_step cnt n f alpha cha buf).
Proof.
  intros f n cnt alpha cha buf HF LB LC. unfold half.
  set (F := fun p => (nth (p mod n) (f (row 0%Q n buf (p / n))) 0 * alpha + nth p cha 0)%Q).
  match goal with |- for_ cnt ?bb ?ss = _ => destruct (for_inv _ (fun j x => length x = cnt * n /\ (forall p, p < j * n -> nth p x 0%Q = F p) /\ forall p, j * n <= p -> nth p x 0%Q = nth p buf 0%Q) cnt bb ss) as (x & E & L & V & R) end.
  - split; auto. split; auto. intros; lia.
  - intros j x Hj (L & V & R). assert (B : j * n + n <= cnt * n) by (assert (S j * n <= cnt * n) by (apply Nat.mul_le_mono_r; lia); cbn [Nat.mul] in *; lia).
    destruct (through_ok _ _ 0%Q 0%Q f n n x (j * n) x (j * n) HF) as (x1 & E1 & L1 & V1 & R1); [lia|lia|]. rewrite E1. cbn [bind].
    assert (ER : tab n (fun i => nth (j * n + i) x 0%Q) = row 0%Q n buf j) by (apply tab_ext; intros i Hi; apply R; lia). rewrite ER in V1.
    match goal with |- context [for_ n ?bb ?ss] => destruct (for_inv _ (fun k y => length y = cnt * n /\ (forall i, i < k -> nth (j * n + i) y 0%Q = F (j * n + i)) /\ forall p, p < j * n \/ j * n + k <= p -> nth p y 0%Q = nth p x1 0%Q) n bb ss) as (y & E2 & L2 & V2 & R2) end.
    + split; [lia|]. split; auto. intros; lia.
    + intros k y Hk (L2 & V2 & R2). rewrite (rd_ok _ 0%Q) by lia. cbn [bind]. rewrite (rd_ok _ 0%Q) by lia. cbn [bind]. rewrite wr_ok by lia. eexists. split; [reflexivity|]. rewrite length_upd. split; auto. split.
      * intros i Hi. rewrite nth_upd by lia. destruct (Nat.eqb_spec (j * n + i) (j * n + k)) as [EK|NE].
        -- assert (i = k) by lia. subst i. unfold F. destruct (cell n j k Hk) as [-> ->]. rewrite R2 by lia. rewrite V1 by auto. reflexivity.
        -- apply V2. lia.
      * intros p Hp. rewrite nth_upd by lia. destruct (Nat.eqb_spec p (j * n + k)); [lia|]. apply R2. lia.
    + exists y. split; [exact E2|]. split; auto. split.
      * intros p Hp. cbn [Nat.mul] in Hp. destruct (Nat.lt_ge_cases p (j * n)) as [H|H].
        -- rewrite R2 by lia. rewrite R1 by lia. apply V. auto.
        -- replace p with (j * n + (p - j * n)) by lia. apply V2. lia.
      * intros p Hp. cbn [Nat.mul] in Hp. rewrite R2 by lia. rewrite R1 by lia. apply R. lia.
  - rewrite E. f_equal. apply (tab_is _ 0%Q); auto.
Qed.

(** Lines j < cnt of the bits out, out of line ln j of the values. *)
Lemma lines_ok : forall nr nc h m cnt (ln : nat -> nat) Y W (rdl : nat -> outcome nat), (forall u, length u = nc -> length (h u) = m) -> (forall j, j < cnt -> rdl j = Ret (ln j) /\ ln j < nr) -> length Y = nr * nc -> cnt * m <= length W ->
  exists W', for_ cnt (fun j V => pos <- rdl j ;; through h nc m Y (pos * nc) V (j * m)) W = Ret W' /\ length W' = length W /\
  (forall p, p < cnt * m -> nth p W' false = nth (p mod m) (h (row 0%Q nc Y (ln (p / m)))) false) /\ forall p, cnt * m <= p -> nth p W' false = nth p W false.
Proof.
  intros nr nc h m cnt ln Y W rdl HL HR LY LW.
  match goal with |- context [for_ cnt ?bb ?ss] => destruct (for_inv _ (fun j x => length x = length W /\ (forall p, p < j * m -> nth p x false = nth (p mod m) (h (row 0%Q nc Y (ln (p / m)))) false) /\ forall p, j * m <= p -> nth p x false = nth p W false) cnt bb ss) as (x & E & L & V1 & R) end.
  - split; auto. split; auto. intros; lia.
  - intros j x Hj (L & V1 & R). destruct (HR j Hj) as [-> B]. cbn [bind]. assert (B1 : S j * m <= cnt * m) by (apply Nat.mul_le_mono_r; lia). assert (B2 : S (ln j) * nc <= nr * nc) by (apply Nat.mul_le_mono_r; lia). cbn [Nat.mul] in B1, B2.
    destruct (through_ok _ _ 0%Q false h nc m Y (ln j * nc) x (j * m) HL) as (x1 & E1 & L1 & V2 & R1); [lia|lia|]. exists x1. split; [exact E1|]. split; [lia|]. split.
    + intros p Hp. cbn [Nat.mul] in Hp. destruct (Nat.lt_ge_cases p (j * m)) as [H|H]; [rewrite R1 by lia; apply V1; auto|]. replace p with (j * m + (p - j * m)) by lia. destruct (cell m j (p - j * m)) as [-> ->]; [lia|]. apply V2. lia.
    + intros p Hp. cbn [Nat.mul] in Hp. rewrite R1 by lia. apply R. lia.
  - exists x. auto.
Qed.

Section Dec.
Variables (sr sc : option Q -> list Q -> list Q) (hr hw : list Q -> list bool).
Variables (d : tpd) (nr nc : nat) (cp : nat -> nat) (cha : list Q) (br bc : option Q).
Hypothesis NR : td_Nr d = nc.
Hypothesis NC : td_Nc d = nr.
Hypothesis TABLES : by_columns nr nc cp (td_lut d) (td_inv d).
Hypothesis SR : forall b u, length u = nc -> length (sr b u) = nc.
Hypothesis SC : forall b u, length u = nr -> length (sc b u) = nr.
Hypothesis LA : length (td_alpha d) = td_ite d * 2.
Hypothesis LB : length (td_beta d) = td_ite d * 2 \/ td_beta d = [].
Hypothesis LCH : length cha = nr * nc.
Let V := values nr nc sr sc (td_alpha d) (td_beta d) br bc cha.
Let half1 i := after_columns nr nc sc (td_alpha d) (td_beta d) bc cha i (V i).

Lemma lut_in : forall p, p < length (td_lut d) -> nth p (td_lut d) 0 < nr * nc.
Proof.
  destruct TABLES as (LL & LI & CB & CC & VL & VI). intros p Hp. rewrite LL in Hp. rewrite (Nat.mul_comm nr) in Hp. destruct (split_cell nc nr p Hp) as (A & B & C & D). rewrite D, VL by auto. apply cell_below; auto.
Qed.
Lemma inv_in : forall p, p < length (td_inv d) -> nth p (td_inv d) 0 < nr * nc.
Proof.
  destruct TABLES as (LL & LI & CB & CC & VL & VI). intros p Hp. rewrite LI in Hp. destruct (split_cell nr nc p Hp) as (A & B & C & D). rewrite D, <- (CC (p mod nc)) by auto. rewrite VI by auto. rewrite (Nat.mul_comm nr). apply cell_below; auto.
Qed.
Definition turned {A} (a : A) (x : list A) : list A := tab (length (td_lut d)) (fun i => nth (nth i (td_lut d) 0) x a).
Lemma nth_turned : forall A (a : A) x k r, k < nc -> r < nr -> nth (k * nr + r) (turned a x) a = nth (r * nc + cp k) x a.
Proof.
  destruct TABLES as (LL & LI & CB & CC & VL & VI). intros A a x k r Hk Hr. unfold turned. rewrite nth_tab by (rewrite LL, (Nat.mul_comm nr nc); apply cell_below; auto). rewrite VL by auto. auto.
Qed.
Lemma length_turned : forall A (a : A) x, length (turned a x) = nr * nc.
Proof. intros. unfold turned. rewrite length_tab. apply TABLES. Qed.
(** Columns through the interleaver. *)
Lemma columns_ok : forall f alpha Y, tab (length (td_inv d)) (fun i => nth (nth i (td_inv d) 0) (rows_step nc nr f alpha (turned 0%Q cha) (turned 0%Q Y)) 0%Q) = columns_step nr nc f alpha cha Y.
Proof.
  assert (T := TABLES). destruct T as (LL & LI & CB & CC & VL & VI). intros f alpha Y. rewrite LI. unfold columns_step. apply tab_ext. intros p Hp. destruct (split_cell nr nc p Hp) as (A & B & C & D). set (r := p / nc) in *. set (c := p mod nc) in *.
  rewrite D at 1. rewrite <- (CC c) at 1 by auto. rewrite VI by auto. unfold rows_step. rewrite nth_tab by (apply cell_below; auto). destruct (cell nr (cp c) r B) as [-> ->]. rewrite nth_turned by auto. rewrite (CC c) by auto. rewrite <- D. f_equal. f_equal. f_equal. f_equal.
  unfold row, col. apply tab_ext. intros i Hi. rewrite nth_turned by auto. rewrite (CC c) by auto. reflexivity.
Qed.

Definition ready (k : nat) (s : tpd_st) : Prop :=
  ts_Y s = V k /\ length (ts_P s) = nr * nc /\ ts_C s = turned 0%Q cha /\ (td_beta d = [] -> ts_br s = br /\ ts_bc s = bc).
Lemma length_V : forall k, length (V k) = nr * nc.
Proof. intros [|k]; [exact LCH|]. unfold V. cbn [values]. unfold after_rows, rows_step. apply length_tab. Qed.
Lemma next_ok : forall k old b, k < td_ite d * 2 -> (0 <= nth k (td_beta d) 0)%Q -> (td_beta d = [] -> old = b) -> next_beta (td_beta d) k old = Ret (beta_of (td_beta d) b k).
Proof.
  intros k old b Hk P H. unfold next_beta, beta_of. destruct LB as [L|L]; [|rewrite L; cbn; f_equal; auto]. destruct (td_beta d) as [|x l] eqn:EB; [cbn; f_equal; auto|]. cbn [length Nat.eqb]. rewrite (rd_ok _ 0%Q) by lia. cbn [bind].
  destruct (qltb_spec (nth k (x :: l) 0%Q) 0) as [[_ X]|[-> _]]; [exfalso; lra|reflexivity].
Qed.
Definition nonneg (k : nat) : Prop := forall q, q < k -> (0 <= nth q (td_beta d) 0)%Q.
Lemma iter_ok : forall i m s, i < td_ite d -> nonneg (S i * 2) -> ready i s ->
  exists P, length P = nr * nc /\
  let Y := half1 i in let s' Y K N := mkTS Y P K N (ts_C s) (beta_of (td_beta d) br (2 * i + 1)) (beta_of (td_beta d) bc (2 * i)) in
  tpd_iter sr sc hr hw d m cha i s =
    match (if i <? td_ite d - 1 then Soft else m) with
    | Soft => Ret (s' (V (S i)) (ts_VK s) (ts_VN s))
    | ToK => W <- for_ (td_Kc d) (fun j V => pos <- rd (td_pos d) j ;; through hr nc (td_Kr d) Y (pos * nc) V (j * td_Kr d)) (ts_VK s) ;; Ret (s' Y W (ts_VN s))
    | ToN => W <- for_ nc (fun j V => through hw nc nc Y (j * nc) V (j * nc)) (ts_VN s) ;; Ret (s' Y (ts_VK s) W)
    end.
Proof.
  intros i m s Hi BP (EY & LP & EC & EB). assert (T := TABLES). destruct T as (LL & LI & CB & CC & VL & VI). unfold tpd_iter. rewrite NR, NC.
  rewrite (permute_ok _ 0%Q) by (try lia; intros; rewrite EY, length_V; apply lut_in; auto). cbn [bind]. fold (turned 0%Q (ts_Y s)).
  rewrite (next_ok (2 * i) _ bc) by (try lia; try (apply BP; lia); intros E; apply EB; auto). cbn [bind]. rewrite (next_ok (2 * i + 1) _ br) by (try lia; try (apply BP; lia); intros E; apply EB; auto). cbn [bind].
  rewrite (rd_ok _ 0%Q) by lia. cbn [bind]. rewrite EC. rewrite half_ok; [|apply SC|rewrite length_turned; lia|rewrite length_turned; lia]. cbn [bind].
  set (P := rows_step nc nr _ _ _ _). assert (LPP : length P = nr * nc) by (unfold P, rows_step; rewrite length_tab; lia).
  assert (LY : length (ts_Y s) = length (td_inv d)) by (rewrite EY, LI; apply length_V). rewrite (permute_ok _ 0%Q (td_inv d) P (ts_Y s) LY) by (intros p Hp; rewrite LPP; apply inv_in; exact Hp). cbn [bind]. change (tab (length (td_inv d)) (fun i0 => nth (nth i0 (td_inv d) 0) P 0%Q)) with (tab (length (td_inv d)) (fun i0 => nth (nth i0 (td_inv d) 0) (rows_step nc nr (sc (beta_of (td_beta d) bc (2 * i))) (nth (2 * i) (td_alpha d) 0%Q) (turned 0%Q cha) (turned 0%Q (ts_Y s))) 0%Q)). rewrite columns_ok. rewrite EY.
  exists P. split; auto. cbv zeta. change (columns_step nr nc (sc (beta_of (td_beta d) bc (2 * i))) (nth (2 * i) (td_alpha d) 0%Q) cha (V i)) with (half1 i).
  destruct (i <? td_ite d - 1); [|destruct m]; try reflexivity.
  - rewrite (rd_ok _ 0%Q) by lia. cbn [bind]. rewrite half_ok; [|apply SR|unfold half1, after_columns, columns_step; apply length_tab|auto]. reflexivity.
  - rewrite (rd_ok _ 0%Q) by lia. cbn [bind]. rewrite half_ok; [|apply SR|unfold half1, after_columns, columns_step; apply length_tab|auto]. reflexivity.
Qed.
(** All iterations but the last one. *)
Lemma first_iters : forall m s k, k < td_ite d -> nonneg (k * 2) -> ready 0 s -> exists s', for_ k (tpd_iter sr sc hr hw d m cha) s = Ret s' /\ ready k s' /\ ts_VK s' = ts_VK s /\ ts_VN s' = ts_VN s.
Proof.
  intros m s k Hk BP R0. destruct (for_inv _ (fun i s' => ready i s' /\ ts_VK s' = ts_VK s /\ ts_VN s' = ts_VN s) k (tpd_iter sr sc hr hw d m cha) s) as (s' & E & R & K & N).
  - auto.
  - intros i s1 Hi (R & K & N). destruct (iter_ok i m s1 ltac:(lia) ltac:(intros q Hq; apply BP; lia) R) as (P & LP & E). cbv zeta in E. destruct (Nat.ltb_spec i (td_ite d - 1)); [|lia]. rewrite E. eexists. split; [reflexivity|]. cbn [ts_VK ts_VN]. split; [|auto].
    destruct R as (_ & _ & EC & _). split; [reflexivity|]. split; [exact LP|]. split; [exact EC|]. cbn [ts_br ts_bc]. intros EB. rewrite EB. split; reflexivity.
  - exists s'. auto.
Qed.
Definition fits (s : tpd_st) : Prop := length (ts_P s) = nr * nc /\ length (ts_C s) = nr * nc /\ length (ts_VK s) = td_Kr d * td_Kc d /\ length (ts_VN s) = nr * nc /\ (td_beta d = [] -> ts_br s = br /\ ts_bc s = bc).
Lemma decode_until : forall m s k, fits s -> k < td_ite d -> nonneg (k * 2) ->
  exists s1, ready k s1 /\ ts_VK s1 = ts_VK s /\ ts_VN s1 = ts_VN s /\ tpd_decode sr sc hr hw d m cha s = bind (tpd_iter sr sc hr hw d m cha k s1) (for_from (S k) (td_ite d - S k) (tpd_iter sr sc hr hw d m cha)).
Proof.
  intros m s k (F1 & F2 & F3 & F4 & F5) HI BP. assert (T := TABLES). destruct T as (LL & LI & _). unfold tpd_decode. rewrite (gen_ok _ _ _ (fun i => nth i cha 0%Q)) by (intros i Hi; apply rd_ok; lia). cbn [bind].
  rewrite (permute_ok _ 0%Q) by (try lia; intros; rewrite LCH; apply lut_in; auto). cbn [bind]. fold (turned 0%Q cha).
  set (s0 := mkTS (tab (length (td_lut d)) (fun i => nth i cha 0%Q)) (ts_P s) (ts_VK s) (ts_VN s) (turned 0%Q cha) (ts_br s) (ts_bc s)).
  assert (R0 : ready 0 s0). { split; [|split; [exact F1|split; [reflexivity|exact F5]]]. cbn [ts_Y s0]. unfold V. cbn [values]. rewrite LL, <- LCH. apply tab_nth. }
  destruct (first_iters m s0 k HI BP R0) as (s1 & E & R1 & K & N). exists s1. split; auto. split; auto. split; auto.
  replace (td_ite d) with (S k + (td_ite d - S k)) at 1 by lia. unfold for_ at 1. rewrite for_from_app. cbn [Nat.add]. fold (for_ (S k) (tpd_iter sr sc hr hw d m cha) s0). rewrite for_S, E. reflexivity.
Qed.
Lemma decode_last : forall m s, fits s -> 0 < td_ite d -> nonneg (td_ite d * 2) ->
  exists s1, ready (td_ite d - 1) s1 /\ ts_VK s1 = ts_VK s /\ ts_VN s1 = ts_VN s /\ tpd_decode sr sc hr hw d m cha s = tpd_iter sr sc hr hw d m cha (td_ite d - 1) s1.
Proof.
  intros m s F HI BP. destruct (decode_until m s (td_ite d - 1) F ltac:(lia) ltac:(intros q Hq; apply BP; lia)) as (s1 & R & K & N & E). exists s1. split; auto. split; auto. split; auto. rewrite E. replace (td_ite d - S (td_ite d - 1)) with 0 by lia. cbn [for_from]. destruct (tpd_iter sr sc hr hw d m cha (td_ite d - 1) s1); reflexivity.
Qed.
End Dec.
