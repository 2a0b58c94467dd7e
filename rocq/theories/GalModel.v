(** Gallager A, B and E decoders of LDPC codes: model of
    src/Module/Decoder/LDPC/BP/Flooding/Gallager/Decoder_LDPC_BP_flooding_Gallager_{A,B,E}.cpp, called A, B and E below.
    Simplifications: one frame; values of type B, int8_t and int are Z (every message is -1, 0 or 1 and no sum overflows as
    long as the degrees fit an int); timers and the names of the modules are left out; the constructor is bp_new and
    fl_transpose of LDPCBPModel.v (A 16-65 has the text of the flooding decoder). *)
From Coq Require Import List Arith Lia Bool ZArith.
From Verif Require Import Base GaloisModel SparseModel FullModel LDPCModel LDPCBPModel.
Import ListNotations.
Local Open Scope nat_scope.

(** The members HY_N, V_N, chk_to_var, var_to_chk and cur_syndrome_depth. *)
Record gal_st := mkGA { ga_HY : list Z; ga_V : list Z; ga_c2v : list Z; ga_v2c : list Z; ga_cur : nat }.

(** A 21-26 (initialization of the arrays). *)
Definition gal_start (b : bp) : gal_st :=
  mkGA (repeat 0%Z (bp_N b)) (repeat 0%Z (bp_N b)) (repeat 0%Z (sp_n (bp_H b))) (repeat 0%Z (sp_n (bp_H b))) 0.

(** The virtual methods of the three decoders, and transform_HY_N.  [g_out ite var_degree cur_state sum msg] is what a
    variable sends on an edge, from the sum of the messages it received and the one it received on this edge;
    [g_vote var_degree cur_state sum] is the decision; [g_chk] is _decode_single_ite. *)
Record gal := mkGal {
  g_out : nat -> nat -> Z -> Z -> Z -> Z;
  g_chk : sparse -> list nat -> list Z -> list Z -> outcome (list Z);
  g_vote : nat -> Z -> Z -> Z;
  g_tr : bool
}.

(** std::accumulate of [deg] messages from [p]. *)
Definition accumulate (c2v : list Z) (p deg : nat) : outcome Z :=
  for_ deg (fun c s => x <- rd c2v (p + c) ;; Ret (s + x)%Z) 0%Z.

(** A 239-276, B 32-84, E 48-85 (_initialize_var_to_chk): the same loops, with a different expression for the message;
    [p] is the offset of the two moving pointers. *)
Definition gal_init (g : gal) (H : sparse) (Y c2v v2c : list Z) (ite : nat) : outcome (list Z) :=
  ' (p, v2c) <- for_ (sp_rows H) (fun v '(p, v2c) =>
    row <- sp_row H v ;;
    cur <- rd Y v ;;
    v2c <- (if ite =? 0 then for_ (length row) (fun c v2c => wr v2c (p + c) cur) v2c
            else sum <- accumulate c2v p (length row) ;;
                 for_ (length row) (fun c v2c => m <- rd c2v (p + c) ;; wr v2c (p + c) (g_out g ite (length row) cur sum m)) v2c) ;;
    Ret (p + length row, v2c)) (0, v2c) ;;
  Ret v2c.

(** A 262-270: the message of the Gallager A decoder. *)
Definition out_A (_ deg : nat) (cur n_ones m : Z) : Z :=
  let n_zeros := (Z.of_nat deg - n_ones)%Z in
  let diff := if nz cur then n_zeros else n_ones in
  let diff := if (cur =? m)%Z then diff else (diff - 1)%Z in
  if (diff =? Z.of_nat deg - 1)%Z && negb (deg =? 1) then (if nz cur then 0%Z else 1%Z) else cur.

(** B 56-64: the message of the Gallager B decoder; tools::signbit of an int. *)
Definition out_B (_ deg : nat) (cur sum m : Z) : Z :=
  let n_ones := (sum + cur)%Z in
  let n_zero := (Z.of_nat deg - sum)%Z in
  let n_z_m_o := (n_zero - n_ones)%Z in
  let diff := (n_z_m_o + m)%Z in
  if (diff =? 0)%Z then cur else Z.b2z (diff <? 0)%Z.

(** E 37-45 (signum), 52 (scaling) and 70-79: the message of the Gallager E decoder. *)
Definition out_E (ite _ : nat) (cur sum m : Z) : Z :=
  let scaling := if ite <? 2 then 2%Z else 1%Z in
  let sum := (sum + scaling * cur)%Z in
  Z.sgn (sum - m)%Z.

(** A 278-299 (_decode_single_ite), also that of the Gallager B decoder; [p] is the offset of transpose_ptr. *)
Definition chk_A (H : sparse) (T : list nat) (v2c c2v : list Z) : outcome (list Z) :=
  ' (p, c2v) <- for_ (sp_cols H) (fun c '(p, c2v) =>
    col <- sp_col H c ;;
    acc <- for_ (length col) (fun v acc => t <- rd T (p + v) ;; x <- rd v2c t ;; Ret (Z.lxor acc x)) 0%Z ;;
    c2v <- for_ (length col) (fun v c2v => t <- rd T (p + v) ;; x <- rd v2c t ;; wr c2v t (Z.lxor acc x)) c2v ;;
    Ret (p + length col, c2v)) (0, c2v) ;;
  Ret c2v.

(** E 87-110 (_decode_single_ite). *)
Definition chk_E (H : sparse) (T : list nat) (v2c c2v : list Z) : outcome (list Z) :=
  ' (p, c2v) <- for_ (sp_cols H) (fun c '(p, c2v) =>
    col <- sp_col H c ;;
    c2v <- for_ (length col) (fun v c2v =>
      acc <- for_ (length col) (fun vv acc =>
        if negb (v =? vv) then t <- rd T (p + vv) ;; x <- rd v2c t ;; Ret (acc * x)%Z else Ret acc) 1%Z ;;
      t <- rd T (p + v) ;; wr c2v t acc) c2v ;;
    Ret (p + length col, c2v)) (0, c2v) ;;
  Ret c2v.

(** A 309-315: the vote of the Gallager A and B decoders. *)
Definition vote_A (deg : nat) (cur n_ones : Z) : Z :=
  let n_zero := (Z.of_nat deg - n_ones)%Z in
  let n_z_m_o := (n_zero - n_ones)%Z in
  if (n_z_m_o =? 0)%Z then cur else Z.b2z (n_z_m_o <? 0)%Z.

(** E 122-128: the vote of the Gallager E decoder, and Math/utils.hxx 17-20: tools::div2 is a shift when the expression is
    an int (B of 8, 16 or 32 bits) and the product by (int64_t)0.500, that is by zero, when B is int64_t ([wide]). *)
Definition vote_E (wide : bool) (_ : nat) (cur sum : Z) : Z :=
  let sum := (sum + cur)%Z in
  let x := (1 - (if (sum =? 0)%Z then cur else Z.sgn sum))%Z in
  if wide then (x * 0)%Z else Z.shiftr x 1.

Definition gal_A : gal := mkGal out_A chk_A vote_A false.
Definition gal_B : gal := mkGal out_B chk_A vote_A false.
Definition gal_E (wide : bool) : gal := mkGal out_E chk_E (vote_E wide) true.

(** A 301-329, E 112-133 (_make_majority_vote): the same loop. *)
Definition gal_votes (g : gal) (H : sparse) (Y c2v V : list Z) : outcome (list Z) :=
  ' (p, V) <- for_ (sp_rows H) (fun v '(p, V) =>
    row <- sp_row H v ;;
    cur <- rd Y v ;;
    sum <- accumulate c2v p (length row) ;;
    V <- wr V v (g_vote g (length row) cur sum) ;;
    Ret (p + length row, V)) (0, V) ;;
  Ret V.

(** include/Module/Decoder/LDPC/BP/Decoder_LDPC_BP.hxx 23-36 (check_syndrome_hard). *)
Definition check_syndrome_hard (b : bp) (V : list Z) (cur : nat) : outcome (bool * nat) :=
  if bp_synd b then
    syndrome <- check_hard V (bp_H b) ;;
    let cur := if syndrome then (cur + 1) mod bp_depth b else 0 in
    Ret (syndrome && (cur =? 0), cur)
  else Ret (false, cur).

(** A 217-231: the iterations from [ite], [cnt] of them being left.  Returns also whether the loop ended with ite == n_ite. *)
Fixpoint gal_loop (g : gal) (b : bp) (T : list nat) (Y : list Z) (ite cnt : nat) (s : gal_st) (synd : bool)
  : outcome (gal_st * bool * bool) :=
  match cnt with
  | 0 => Ret (s, synd, true)
  | S n =>
      v2c <- gal_init g (bp_H b) Y (ga_c2v s) (ga_v2c s) ite ;;
      c2v <- g_chk g (bp_H b) T v2c (ga_c2v s) ;;
      if bp_synd b && negb (ite =? bp_ite b - 1) then
        V <- gal_votes g (bp_H b) Y c2v (ga_V s) ;;
        ' (synd, cur) <- check_syndrome_hard b V (ga_cur s) ;;
        let s := mkGA (ga_HY s) V c2v v2c cur in
        if synd : bool then Ret (s, true, false) else gal_loop g b T Y (S ite) n s false
      else gal_loop g b T Y (S ite) n (mkGA (ga_HY s) (ga_V s) c2v v2c (ga_cur s)) synd
  end.

(** A 213-236 (_decode): the new state and the status. *)
Definition gal_decode (g : gal) (b : bp) (T : list nat) (Y : list Z) (s : gal_st) : outcome (gal_st * bool) :=
  ' (s, synd, fin) <- gal_loop g b T Y 0 (bp_ite b) s true ;;
  s <- (if fin : bool then
          V <- gal_votes g (bp_H b) Y (ga_c2v s) (ga_V s) ;; Ret (mkGA (ga_HY s) V (ga_c2v s) (ga_v2c s) (ga_cur s))
        else Ret s) ;;
  Ret (s, negb synd).

(** A 91-96, 125-130, 160-165, 191-196: the transform of the bits, B(1) - (in + in). *)
Definition transform (N : nat) (Y : list Z) : outcome (list Z) := gen N (fun i => y <- rd Y i ;; Ret (1 - (y + y))%Z).

(** A 106-107, 170-171 (the information bits) and 140, 201 (the codeword): what is stored; [cw] chooses. *)
Definition gal_store (cw : bool) (b : bp) (V : list Z) : outcome (list Z) :=
  if cw then gen (bp_N b) (fun i => rd V i)
  else gen (length (bp_pos b)) (fun i => k <- rd (bp_pos b) i ;; rd V k).

(** A 85-117 (_decode_hiho) and 119-150 (_decode_hiho_cw): the new state, the value written to CWD and the bits. *)
Definition gal_hiho (cw : bool) (g : gal) (b : bp) (T : list nat) (Y : list Z) (s : gal_st) : outcome (gal_st * bool * list Z) :=
  HY <- (if g_tr g then transform (bp_N b) Y else Ret (ga_HY s)) ;;
  let s := mkGA HY (ga_V s) (ga_c2v s) (ga_v2c s) (ga_cur s) in
  ' (s, status) <- gal_decode g b T (if g_tr g then HY else Y) s ;;
  V <- gal_store cw b (ga_V s) ;;
  Ret (s, negb status, V).

(** A 152-181 (_decode_siho) and 183-211 (_decode_siho_cw); tools::hard_decide gives 1 below zero ([neg]), 0 otherwise. *)
Definition gal_siho {R} (neg : R -> bool) (cw : bool) (g : gal) (b : bp) (T : list nat) (Y : list R) (s : gal_st) : outcome (gal_st * bool * list Z) :=
  HY <- gen (bp_N b) (fun i => y <- rd Y i ;; Ret (Z.b2z (neg y))) ;;
  HY <- (if g_tr g then transform (bp_N b) HY else Ret HY) ;;
  let s := mkGA HY (ga_V s) (ga_c2v s) (ga_v2c s) (ga_cur s) in
  ' (s, status) <- gal_decode g b T HY s ;;
  V <- gal_store cw b (ga_V s) ;;
  Ret (s, negb status, V).
