(** Belief-propagation decoders of LDPC codes: model of src/Module/Decoder/LDPC/BP/Decoder_LDPC_BP.cpp,
    include/Module/Decoder/LDPC/BP/Decoder_LDPC_BP.hxx, of the flooding, horizontal layered and vertical layered schedules of
    include/Module/Decoder/LDPC/BP, and of the update rules MS, OMS, NMS and AMS of include/Tools/Code/LDPC/Update_rule.
    Simplifications: one frame; values of type R are rationals and every addition, subtraction or product is followed by the
    function [rnd] (the identity for the integer types as long as nothing overflows, rounding to nearest for the floating
    types, [fl 24] or [fl 53] of FloatQ.v; infinities are left out); the bits written to V_K and V_N are booleans; a negative
    zero is a zero (it occurs only as a message, and a sum or a difference with another zero makes it positive again, so
    no update rule ever takes the sign of one); timers and the names of the modules are left out. *)
From Coq Require Import List Arith Lia Bool ZArith QArith Qabs Qround.
From Verif Require Import Base GaloisModel SparseModel LDPCModel.
Import ListNotations.
Local Open Scope nat_scope.

(** Comparisons of values: [a < b], std::min, std::max, std::signbit and [a == b]. *)
Definition qltb (a b : Q) : bool := negb (Qle_bool b a).
Definition qmin (a b : Q) : Q := if qltb b a then b else a.
Definition qmax (a b : Q) : Q := if qltb a b then b else a.
Definition neg (q : Q) : bool := qltb q 0%Q.

(** std::copysign of a magnitude that is not negative, with sign given by a mask: -1 (here true) or 0. *)
Definition copysign (a : Q) (s : bool) : Q := if s then (- a)%Q else a.

(* ------------------------------------------------------------------ *)
(** * Update rules *)

(** The interface used by the decoders: begin_chk_node_in(chk_id, chk_degree), compute_chk_node_in(var_id, var_val),
    end_chk_node_in(), compute_chk_node_out(var_id, var_val).  The calls begin_decoding, begin_ite, end_ite, end_decoding,
    begin_chk_node_out and end_chk_node_out store numbers no rule reads, or do nothing. *)
Record rule := mkRule {
  r_st : Type;
  r_begin : nat -> r_st;
  r_in : nat -> Q -> r_st -> outcome r_st;
  r_end : r_st -> outcome r_st;
  r_out : nat -> Q -> r_st -> outcome Q
}.

(** MS/Update_rule_MS.hpp: sign, min1, min2, cst1, cst2. *)
Record ms_st := mkMS { ms_sign : bool; ms_min1 : Q; ms_min2 : Q; ms_cst1 : Q; ms_cst2 : Q }.

(** MS/Update_rule_MS.hxx 38-45 (begin_chk_node_in); [mx] is std::numeric_limits<R>::max().  cst1 and cst2 keep their old
    values, which end_chk_node_in overwrites: they are zero here. *)
Definition ms_begin (mx : Q) (_ : nat) : ms_st := mkMS false mx mx 0%Q 0%Q.

(** MS/Update_rule_MS.hxx 47-58 (compute_chk_node_in). *)
Definition ms_in (_ : nat) (v : Q) (s : ms_st) : outcome ms_st :=
  let var_abs := Qabs v in
  Ret (mkMS (xorb (ms_sign s) (neg v)) (qmin (ms_min1 s) var_abs) (qmin (ms_min2 s) (qmax var_abs (ms_min1 s))) (ms_cst1 s) (ms_cst2 s)).

(** MS/Update_rule_MS.hxx 60-66, OMS/Update_rule_OMS.hxx 47-55, NMS/Update_rule_NMS.hxx 81-89 (end_chk_node_in); [g] is the
    correction of the minimum: none, the subtraction of the offset, the normalization. *)
Definition ms_end (g : Q -> outcome Q) (s : ms_st) : outcome ms_st :=
  c1 <- g (ms_min2 s) ;; c2 <- g (ms_min1 s) ;;
  Ret (mkMS (ms_sign s) (ms_min1 s) (ms_min2 s) (qmax 0%Q c1) (qmax 0%Q c2)).

(** MS/Update_rule_MS.hxx 74-83 (compute_chk_node_out). *)
Definition ms_out (_ : nat) (v : Q) (s : ms_st) : outcome Q :=
  let var_abs := Qabs v in
  let res_abs := if Qeq_bool var_abs (ms_min1 s) then ms_cst1 s else ms_cst2 s in
  Ret (copysign res_abs (xorb (ms_sign s) (neg v))).

(** MS/Update_rule_MS.hxx: the min-sum rule. *)
Definition rule_MS (mx : Q) : rule := mkRule ms_st (ms_begin mx) ms_in (ms_end Ret) ms_out.

(** OMS/Update_rule_OMS.hxx 47-55: the offset min-sum rule. *)
Definition rule_OMS (rnd : Q -> Q) (offset mx : Q) : rule :=
  mkRule ms_st (ms_begin mx) ms_in (ms_end (fun x => Ret (rnd (x - offset)%Q))) ms_out.

(** NMS/Update_rule_NMS.hxx 34-44 (normalize of the floating types; the product of a double by a float is one of doubles). *)
Definition rule_NMS (rnd : Q -> Q) (factor mx : Q) : rule :=
  mkRule ms_st (ms_begin mx) ms_in (ms_end (fun x => Ret (rnd (x * factor)%Q))) ms_out.

(** Math/utils.hxx 17-30 (div2, div4, div8 of the integer types: arithmetic shifts) *)
Definition qshift (k : nat) (x : Q) : Q := inject_Z (Qfloor (x / inject_Z (2 ^ Z.of_nat k))%Q).

(** NMS/Update_rule_NMS.hxx 14-32 (normalize of the integer types); [factor] is a float compared to constants. *)
Definition normalize_int (factor : Q) (x : Q) : outcome Q :=
  if Qeq_bool factor (1 # 8)%Q then Ret (qshift 3 x)
  else if Qeq_bool factor (1 # 4)%Q then Ret (qshift 2 x)
  else if Qeq_bool factor (3 # 8)%Q then Ret (qshift 2 x + qshift 3 x)%Q
  else if Qeq_bool factor (1 # 2)%Q then Ret (qshift 1 x)
  else if Qeq_bool factor (5 # 8)%Q then Ret (qshift 1 x + qshift 3 x)%Q
  else if Qeq_bool factor (3 # 4)%Q then Ret (qshift 1 x + qshift 2 x)%Q
  else if Qeq_bool factor (7 # 8)%Q then Ret (qshift 1 x + qshift 2 x + qshift 3 x)%Q
  else if Qeq_bool factor 1%Q then Ret x
  else Throws.

(** NMS/Update_rule_NMS.hxx 81-89 on the integer types. *)
Definition rule_NMS_int (factor mx : Q) : rule := mkRule ms_st (ms_begin mx) ms_in (ms_end (normalize_int factor)) ms_out.

(** AMS/Update_rule_AMS.hpp: sign, min, delta_min, delta. *)
Record ams_st := mkAMS { am_sign : bool; am_min : Q; am_dmin : Q; am_delta : Q }.

(** AMS/Update_rule_AMS.hxx 37-44, 46-57, 59-65 and 73-82: the rule of template parameter [MIN]. *)
Definition ams_begin (mx : Q) (_ : nat) : ams_st := mkAMS false mx mx 0%Q.
Definition ams_in (MIN : Q -> Q -> Q) (_ : nat) (v : Q) (s : ams_st) : outcome ams_st :=
  let var_abs := Qabs v in
  let tmp := am_min s in
  let m := qmin (am_min s) var_abs in
  Ret (mkAMS (xorb (am_sign s) (neg v)) m (MIN (am_dmin s) (if Qeq_bool var_abs m then tmp else var_abs)) (am_delta s)).
Definition ams_end (MIN : Q -> Q -> Q) (s : ams_st) : outcome ams_st :=
  Ret (mkAMS (am_sign s) (am_min s) (qmax 0%Q (am_dmin s)) (qmax 0%Q (MIN (am_dmin s) (am_min s)))).
Definition ams_out (_ : nat) (v : Q) (s : ams_st) : outcome Q :=
  let var_abs := Qabs v in
  let res_abs := if Qeq_bool var_abs (am_min s) then am_dmin s else am_delta s in
  Ret (copysign res_abs (xorb (am_sign s) (neg v))).
Definition rule_AMS (MIN : Q -> Q -> Q) (mx : Q) : rule := mkRule ams_st (ams_begin mx) (ams_in MIN) (ams_end MIN) ams_out.

(* ------------------------------------------------------------------ *)
(** * What the three schedules share *)

(** Decoder_LDPC_BP.hpp: n_ite, H, enable_syndrome, syndrome_depth, and the size N and the table info_bits_pos of the
    decoder. *)
Record bp := mkBP { bp_N : nat; bp_ite : nat; bp_H : sparse; bp_synd : bool; bp_depth : nat; bp_pos : list nat }.

(** Decoder_LDPC_BP.cpp 9-40 (constructor); n_ite and syndrome_depth are natural numbers; a value below zero is refused as
    zero is. *)
Definition bp_new (N n_ite : nat) (H : sparse) (synd : bool) (depth : nat) (pos : list nat) : outcome bp :=
  _ <- guard (negb (n_ite =? 0)) ;; _ <- guard (negb (depth =? 0)) ;; _ <- guard (N =? sp_rows H) ;;
  Ret (mkBP N n_ite H synd depth pos).

(** Decoder_LDPC_BP.hxx 8-21 (check_syndrome_soft); [cur] is cur_syndrome_depth. *)
Definition check_syndrome_soft (b : bp) (Y : list Q) (cur : nat) : outcome (bool * nat) :=
  if bp_synd b then
    syndrome <- check_soft neg Y (bp_H b) ;;
    let cur := if syndrome then (cur + 1) mod bp_depth b else 0 in
    Ret (syndrome && (cur =? 0), cur)
  else Ret (false, cur).

(** The hard decision of K elements, in the order of info_bits_pos: Decoder_LDPC_BP_flooding.hxx 122-126,
    Decoder_LDPC_BP_horizontal_layered.hxx 99-103, Decoder_LDPC_BP_vertical_layered.hxx 108-112: V_K[i] = !(x[pos[i]] >= 0). *)
Definition decide_K (b : bp) (x : list Q) : outcome (list bool) :=
  gen (length (bp_pos b)) (fun i => k <- rd (bp_pos b) i ;; v <- rd x k ;; Ret (negb (Qle_bool 0%Q v))).

(** tools::hard_decide of N values (Tools/Perf/common/hard_decide.h; its SIMD form takes the same decision). *)
Definition decide_N (b : bp) (x : list Q) : outcome (list bool) := gen (bp_N b) (fun i => v <- rd x i ;; Ret (neg v)).

Section Arithmetic.
Variable rnd : Q -> Q.
Definition qadd (a b : Q) : Q := rnd (a + b)%Q.
Definition qsub (a b : Q) : Q := rnd (a - b)%Q.

(* ------------------------------------------------------------------ *)
(** * Flooding schedule *)

(** Decoder_LDPC_BP_flooding.hxx 38-67 (constructor): the table [transpose]; [connections] is an array of unsigned char. *)
Definition fl_transpose (H : sparse) : outcome (list nat) :=
  ' (conn, T, k) <- for_ (length (sp_c2r H)) (fun i st =>
    col <- sp_col H i ;;
    for_ (length col) (fun j '(conn, T, k) =>
      var_id <- rd col j ;;
      branch <- for_ var_id (fun ii br => row <- sp_row H ii ;; Ret (br + length row)) 0 ;;
      c <- rd conn var_id ;;
      conn <- wr conn var_id ((c + 1) mod 256) ;;
      row <- sp_row H var_id ;;
      _ <- guard ((c + 1) mod 256 <=? length row) ;;
      T <- wr T k (branch + c) ;;
      Ret (conn, T, k + 1)) st)
    (repeat 0 (sp_rows H), repeat 0 (sp_n H), 0) ;;
  Ret T.

(** The arrays of one frame: msg_chk_to_var, msg_var_to_chk, post, and cur_syndrome_depth. *)
Record fl_st := mkFL { fl_c2v : list Q; fl_v2c : list Q; fl_post : list Q; fl_cur : nat }.

(** Decoder_LDPC_BP_flooding.hxx 24-31, 69 (initialization of the arrays; reset). *)
Definition fl_start (b : bp) : fl_st :=
  mkFL (repeat 0%Q (sp_n (bp_H b))) (repeat 0%Q (sp_n (bp_H b))) (repeat (-1)%Q (bp_N b)) 0.

(** Decoder_LDPC_BP_flooding.hxx 82-87 (_reset). *)
Definition fl_reset (s : fl_st) : fl_st := mkFL (repeat 0%Q (length (fl_c2v s))) (fl_v2c s) (fl_post s) (fl_cur s).

(** Decoder_LDPC_BP_flooding.hxx 199-219 (_initialize_var_to_chk); [p] is the offset of the two moving pointers. *)
Definition fl_init (H : sparse) (Y c2v v2c : list Q) : outcome (list Q) :=
  ' (p, v2c) <- for_ (sp_rows H) (fun v '(p, v2c) =>
    row <- sp_row H v ;;
    sum <- for_ (length row) (fun c s => x <- rd c2v (p + c) ;; Ret (qadd s x)) 0%Q ;;
    y <- rd Y v ;;
    let tmp := qadd y sum in
    v2c <- for_ (length row) (fun c v2c => x <- rd c2v (p + c) ;; wr v2c (p + c) (qsub tmp x)) v2c ;;
    Ret (p + length row, v2c)) (0, v2c) ;;
  Ret v2c.

(** Decoder_LDPC_BP_flooding.hxx 222-246 (_decode_single_ite); [p] is the offset of transpose_ptr. *)
Definition fl_ite (r : rule) (H : sparse) (T : list nat) (v2c c2v : list Q) : outcome (list Q) :=
  ' (p, c2v) <- for_ (sp_cols H) (fun c '(p, c2v) =>
    col <- sp_col H c ;;
    u <- for_ (length col) (fun v u => t <- rd T (p + v) ;; x <- rd v2c t ;; r_in r v x u) (r_begin r (length col)) ;;
    u <- r_end r u ;;
    c2v <- for_ (length col) (fun v c2v =>
      t <- rd T (p + v) ;; x <- rd v2c t ;; m <- r_out r v x u ;; wr c2v t m) c2v ;;
    Ret (p + length col, c2v)) (0, c2v) ;;
  Ret c2v.

(** Decoder_LDPC_BP_flooding.hxx 249-270 (_compute_post). *)
Definition fl_compute_post (H : sparse) (Y c2v post : list Q) : outcome (list Q) :=
  ' (p, post) <- for_ (sp_rows H) (fun v '(p, post) =>
    row <- sp_row H v ;;
    sum <- for_ (length row) (fun c s => x <- rd c2v (p + c) ;; Ret (qadd s x)) 0%Q ;;
    y <- rd Y v ;;
    post <- wr post v (qadd y sum) ;;
    Ret (p + length row, post)) (0, post) ;;
  Ret post.

(** Decoder_LDPC_BP_flooding.hxx 172-187: the iterations from [ite], [cnt] of them being left; [valid] is valid_synd.
    Returns also whether the loop ended with ite == n_ite. *)
Fixpoint fl_loop (r : rule) (b : bp) (T : list nat) (Y : list Q) (ite cnt : nat) (s : fl_st) (valid : bool)
  : outcome (fl_st * bool * bool) :=
  match cnt with
  | 0 => Ret (s, valid, true)
  | S n =>
      v2c <- fl_init (bp_H b) Y (fl_c2v s) (fl_v2c s) ;;
      c2v <- fl_ite r (bp_H b) T v2c (fl_c2v s) ;;
      if bp_synd b && negb (ite =? bp_ite b - 1) then
        post <- fl_compute_post (bp_H b) Y c2v (fl_post s) ;;
        ' (valid, cur) <- check_syndrome_soft b post (fl_cur s) ;;
        let s := mkFL c2v v2c post cur in
        if valid : bool then Ret (s, true, false) else fl_loop r b T Y (S ite) n s false
      else fl_loop r b T Y (S ite) n (mkFL c2v v2c (fl_post s) (fl_cur s)) valid
  end.

(** Decoder_LDPC_BP_flooding.hxx 165-196 (_decode): the new state and the status. *)
Definition fl_decode (r : rule) (b : bp) (T : list nat) (Y : list Q) (s : fl_st) : outcome (fl_st * bool) :=
  ' (s, valid, fin) <- fl_loop r b T Y 0 (bp_ite b) s true ;;
  s <- (if fin : bool then
          post <- fl_compute_post (bp_H b) Y (fl_c2v s) (fl_post s) ;; Ret (mkFL (fl_c2v s) (fl_v2c s) post (fl_cur s))
        else Ret s) ;;
  Ret (s, negb valid).

(** Decoder_LDPC_BP_flooding.hxx 89-101 (_decode_siso), 103-136 (_decode_siho), 138-163 (_decode_siho_cw): the new state,
    the value written to CWD, and the output. *)
Definition fl_siso (r : rule) (b : bp) (T : list nat) (Y : list Q) (s : fl_st) : outcome (fl_st * bool * list Q) :=
  ' (s, status) <- fl_decode r b T Y s ;;
  E <- gen (bp_N b) (fun v => p <- rd (fl_post s) v ;; y <- rd Y v ;; Ret (qsub p y)) ;;
  Ret (s, negb status, E).
Definition fl_siho (r : rule) (b : bp) (T : list nat) (Y : list Q) (s : fl_st) : outcome (fl_st * bool * list bool) :=
  ' (s, status) <- fl_decode r b T Y s ;; V <- decide_K b (fl_post s) ;; Ret (s, negb status, V).
Definition fl_siho_cw (r : rule) (b : bp) (T : list nat) (Y : list Q) (s : fl_st) : outcome (fl_st * bool * list bool) :=
  ' (s, status) <- fl_decode r b T Y s ;; V <- decide_N b (fl_post s) ;; Ret (s, negb status, V).

(* ------------------------------------------------------------------ *)
(** * Layered schedules *)

(** var_nodes, messages of one frame, and cur_syndrome_depth. *)
Record ly_st := mkLY { ly_var : list Q; ly_msg : list Q; ly_cur : nat }.

(** Decoder_LDPC_BP_horizontal_layered.hxx 24-33, Decoder_LDPC_BP_vertical_layered.hxx 27-46 (arrays; reset). *)
Definition ly_start (b : bp) : ly_st := mkLY (repeat 0%Q (bp_N b)) (repeat 0%Q (sp_n (bp_H b))) 0.

(** Decoder_LDPC_BP_horizontal_layered.hxx 46-52, Decoder_LDPC_BP_vertical_layered.hxx 58-64 (_reset). *)
Definition ly_reset (s : ly_st) : ly_st :=
  mkLY (repeat 0%Q (length (ly_var s))) (repeat 0%Q (length (ly_msg s))) (ly_cur s).

(** Decoder_LDPC_BP_horizontal_layered.hxx 54-60, Decoder_LDPC_BP_vertical_layered.hxx 66-72 (_load). *)
Definition ly_load (Y var : list Q) : outcome (list Q) :=
  for_ (length var) (fun v var => x <- rd var v ;; y <- rd Y v ;; wr var v (qadd x y)) var.

(** Decoder_LDPC_BP_horizontal_layered.hxx 173-203 (_decode_single_ite).  [contributions], of size cols_max_degree, is
    written before it is read at each check node: it is an array of zeros at the beginning of each of them here.  kr and kw
    are both [k] at the beginning of a check node. *)
Definition hl_ite (r : rule) (H : sparse) (var msg : list Q) : outcome (list Q * list Q) :=
  ' (k, var, msg) <- for_ (sp_cols H) (fun c '(k, var, msg) =>
    col <- sp_col H c ;;
    ' (con, u) <- for_ (length col) (fun v '(con, u) =>
      id <- rd col v ;; x <- rd var id ;; m <- rd msg (k + v) ;;
      con <- wr con v (qsub x m) ;;
      u <- r_in r v (qsub x m) u ;; Ret (con, u)) (repeat 0%Q (sp_cmax H), r_begin r (length col)) ;;
    u <- r_end r u ;;
    ' (var, msg) <- for_ (length col) (fun v '(var, msg) =>
      x <- rd con v ;; m <- r_out r v x u ;;
      msg <- wr msg (k + v) m ;;
      id <- rd col v ;; var <- wr var id (qadd x m) ;; Ret (var, msg)) (var, msg) ;;
    Ret (k + length col, var, msg)) (0, var, msg) ;;
  Ret (var, msg).

(** Decoder_LDPC_BP_horizontal_layered.hxx 154-166: the iterations, [cnt] of them. *)
Fixpoint hl_loop (r : rule) (b : bp) (cnt : nat) (s : ly_st) (valid : bool) : outcome (ly_st * bool) :=
  match cnt with
  | 0 => Ret (s, valid)
  | S n =>
      ' (var, msg) <- hl_ite r (bp_H b) (ly_var s) (ly_msg s) ;;
      ' (valid, cur) <- check_syndrome_soft b var (ly_cur s) ;;
      let s := mkLY var msg cur in
      if valid : bool then Ret (s, true) else hl_loop r b n s false
  end.

(** Decoder_LDPC_BP_horizontal_layered.hxx 148-170 (_decode): the new state and the status. *)
Definition hl_decode (r : rule) (b : bp) (s : ly_st) : outcome (ly_st * bool) :=
  ' (s, valid) <- hl_loop r b (bp_ite b) s true ;; Ret (s, negb valid && bp_synd b).

(** Decoder_LDPC_BP_vertical_layered.hxx 39-45 (constructor): messages_offsets. *)
Definition vl_offsets (H : sparse) : outcome (list nat) :=
  ' (off, cur) <- for_ (sp_cols H) (fun c '(off, cur) =>
    off <- wr off c cur ;; col <- sp_col H c ;; Ret (off, cur + length col)) (repeat 0 (sp_cols H), 0) ;;
  Ret off.

(** Decoder_LDPC_BP_vertical_layered.hxx 177-212 (_decode_single_ite); v_out is -1 when the variable is not found. *)
Definition vl_ite (r : rule) (H : sparse) (off : list nat) (var msg : list Q) : outcome (list Q * list Q) :=
  for_ (sp_rows H) (fun vv '(var, msg) =>
    row <- sp_row H vv ;;
    ' (acc, msg) <- for_ (length row) (fun c '(acc, msg) =>
      cc <- rd row c ;; o <- rd off cc ;; col <- sp_col H cc ;;
      ' (con, u, v_out) <- for_ (length col) (fun v '(con, u, v_out) =>
        id <- rd col v ;;
        let v_out := if id =? vv then Some v else v_out in
        x <- rd var id ;; m <- rd msg (o + v) ;;
        con <- wr con v (qsub x m) ;;
        u <- r_in r v (qsub x m) u ;; Ret (con, u, v_out)) (repeat 0%Q (sp_cmax H), r_begin r (length col), None) ;;
      u <- r_end r u ;;
      match v_out with
      | None => Undef
      | Some v_out =>
          old <- rd msg (o + v_out) ;;
          let acc := qsub acc old in
          x <- rd con v_out ;; m <- r_out r v_out x u ;;
          msg <- wr msg (o + v_out) m ;;
          Ret (qadd acc m, msg)
      end) (0%Q, msg) ;;
    x <- rd var vv ;; var <- wr var vv (qadd x acc) ;;
    Ret (var, msg)) (var, msg).

(** Decoder_LDPC_BP_vertical_layered.hxx 159-168: the iterations. *)
Fixpoint vl_loop (r : rule) (b : bp) (off : list nat) (cnt : nat) (s : ly_st) : outcome ly_st :=
  match cnt with
  | 0 => Ret s
  | S n =>
      ' (var, msg) <- vl_ite r (bp_H b) off (ly_var s) (ly_msg s) ;;
      ' (stop, cur) <- check_syndrome_soft b var (ly_cur s) ;;
      let s := mkLY var msg cur in
      if stop : bool then Ret s else vl_loop r b off n s
  end.

(** Decoder_LDPC_BP_vertical_layered.hxx 153-173 (_decode): the status is always 0. *)
Definition vl_decode (r : rule) (b : bp) (off : list nat) (s : ly_st) : outcome (ly_st * bool) :=
  s <- vl_loop r b off (bp_ite b) s ;; Ret (s, false).

(** Decoder_LDPC_BP_horizontal_layered.hxx 62-82, 84-114, 116-145 and Decoder_LDPC_BP_vertical_layered.hxx 74-94, 96-126,
    128-150: _decode_siso, _decode_siho and _decode_siho_cw, the same text in both files; [dec] is _decode. *)
Definition ly_siso (dec : ly_st -> outcome (ly_st * bool)) (b : bp) (Y : list Q) (s : ly_st) : outcome (ly_st * bool * list Q) :=
  var <- ly_load Y (ly_var s) ;;
  ' (s, status) <- dec (mkLY var (ly_msg s) (ly_cur s)) ;;
  E <- gen (bp_N b) (fun v => x <- rd (ly_var s) v ;; y <- rd Y v ;; Ret (qsub x y)) ;;
  Ret (mkLY E (ly_msg s) (ly_cur s), negb status, E).
Definition ly_siho (dec : ly_st -> outcome (ly_st * bool)) (b : bp) (Y : list Q) (s : ly_st) : outcome (ly_st * bool * list bool) :=
  var <- ly_load Y (ly_var s) ;;
  ' (s, status) <- dec (mkLY var (ly_msg s) (ly_cur s)) ;;
  V <- decide_K b (ly_var s) ;; Ret (s, negb status, V).
Definition ly_siho_cw (dec : ly_st -> outcome (ly_st * bool)) (b : bp) (Y : list Q) (s : ly_st) : outcome (ly_st * bool * list bool) :=
  var <- ly_load Y (ly_var s) ;;
  ' (s, status) <- dec (mkLY var (ly_msg s) (ly_cur s)) ;;
  V <- decide_N b (ly_var s) ;; Ret (s, negb status, V).

End Arithmetic.

(** Decoder_SIHO.hxx and Decoder_SISO.hxx: after the codelet, reset when auto_reset is on. *)
Definition bp_call {S A} (reset : S -> S) (auto_reset : bool) (f : S -> outcome (S * bool * A)) (s : S) : outcome (S * bool * A) :=
  ' (s, cwd, a) <- f s ;; Ret (if auto_reset then reset s else s, cwd, a).
