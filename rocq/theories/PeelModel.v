(** Peeling decoder of LDPC codes (src/Module/Decoder/LDPC/BP/Peeling/Decoder_LDPC_BP_peeling.cpp). *)
From Coq Require Import List Arith Lia Bool ZArith.
From Verif Require Import Base SparseModel HardModel.
Import ListNotations.

Section Peel.
Variable UNK : Z.       (* unknown_symbol_val<B>() *)
(** After rm_connection(vn_pos, i), vn_pos is a reference to the erased element of a vector.  With strict = true it is an
    error to read it, as in the C++ standard; with strict = false the memory still holds the value. *)
Variable strict : bool.

(** 56-64 and 93-101: the value [st] of the variable v is sent to its checks and its connections are removed. *)
Fixpoint forward (fuel v : nat) (st : Z) (CN : list Z) (links : sparse) : outcome (list Z * sparse) :=
  match fuel with
  | 0 => Undef
  | S fuel =>
      cn_list <- sp_row links v ;;
      match cn_list with
      | [] => Ret (CN, links)
      | cn_pos :: _ =>
          x <- rd CN cn_pos ;; CN <- wr CN cn_pos (Z.lxor x st) ;;
          links <- sp_rm links v cn_pos ;; forward fuel v st CN links
      end
  end.
Definition forward_all (v : nat) (st : Z) (CN : list Z) (links : sparse) : outcome (list Z * sparse) :=
  cn_list <- sp_row links v ;; forward (S (length cn_list)) v st CN links.

(** 49-66: the known values *)
Definition peel_known (VN CN : list Z) (links : sparse) : outcome (list Z * sparse) :=
  for_ (sp_rows links) (fun i '(CN, links) =>
    cur_state <- rd VN i ;;
    if (cur_state =? UNK)%Z then Ret (CN, links) else forward_all i cur_state CN links) (CN, links).

Record peel := mkPeel { p_VN : list Z; p_CN : list Z; p_links : sparse; p_done : bool; p_nomod : bool }.

(** 78-105: one check *)
Definition peel_check (i : nat) (s : peel) : outcome peel :=
  vn_list <- sp_col (p_links s) i ;;
  match vn_list with
  | [vn_pos] =>
      cur_state <- rd (p_CN s) i ;;
      VN <- wr (p_VN s) vn_pos cur_state ;;
      CN <- wr (p_CN s) i 0%Z ;;
      links <- sp_rm (p_links s) vn_pos i ;;
      vn_pos <- (if strict then Undef else Ret vn_pos) ;;
      ' (CN, links) <- forward_all vn_pos cur_state CN links ;;
      Ret (mkPeel VN CN links (p_done s) false)
  | _ => Ret (mkPeel (p_VN s) (p_CN s) (p_links s) (p_done s && (length vn_list =? 0)) (p_nomod s))
  end.

(** 70-116: the iterations; [depth] is cur_syndrome_depth. *)
Fixpoint peel_ite (cnt : nat) (synd : bool) (max_depth depth : nat) (s : peel) : outcome peel :=
  match cnt with
  | 0 => Ret s
  | S cnt =>
      s <- for_ (sp_cols (p_links s)) peel_check (mkPeel (p_VN s) (p_CN s) (p_links s) true true) ;;
      if synd && (p_done s || p_nomod s) then
        let depth := S depth in
        if max_depth <=? depth then Ret s else peel_ite cnt synd max_depth depth s
      else peel_ite cnt synd max_depth 0 s
  end.

(** 37-120 (_decode): the variables and all_check_nodes_done *)
Definition peel_decode (H : sparse) (n_ite : nat) (synd : bool) (max_depth : nat) (VN : list Z) : outcome (list Z * bool) :=
  let CN := repeat 0%Z (sp_cols H) in
  ' (CN, links) <- peel_known VN CN H ;;
  s <- peel_ite n_ite synd max_depth 0 (mkPeel VN CN links false true) ;;
  Ret (p_VN s, p_done s).

(** Decoder_LDPC_BP.cpp 9-40 and Decoder_LDPC_BP_peeling.cpp 14-28 (constructor), general_utils.cpp 180-204 (check_LUT). *)
Definition peel_new (K N n_ite : nat) (H : sparse) (pos : list nat) (max_depth : nat) : outcome unit :=
  _ <- guard (negb (n_ite =? 0)) ;; _ <- guard (negb (max_depth =? 0)) ;; _ <- guard (N =? sp_rows H) ;;
  _ <- guard (length pos =? K) ;;
  _ <- each pos (fun p seen => _ <- guard (negb (existsb (Nat.eqb p) seen)) ;; Ret (p :: seen)) [] ;; Ret tt.

(** 122-167 (_decode_hiho, _decode_hiho_cw): the bits of the codeword, CWD[0] and the status. *)
Definition peel_hiho_cw (N : nat) (H : sparse) (n_ite : nat) (synd : bool) (max_depth : nat) (Y : list Z) : outcome (list Z * bool * Z) :=
  VN <- (if N <=? length Y then Ret (firstn N Y) else Undef) ;;
  ' (VN, d) <- peel_decode H n_ite synd max_depth VN ;;
  Ret (VN, d, bitz (negb d)).
(** 213-218 (_store): the information bits *)
Definition peel_hiho (K N : nat) (pos : list nat) (H : sparse) (n_ite : nat) (synd : bool) (max_depth : nat) (Y : list Z) : outcome (list Z * bool * Z) :=
  ' (VN, d, st) <- peel_hiho_cw N H n_ite synd max_depth Y ;;
  V <- for_ K (fun i V => p <- rd pos i ;; x <- rd VN p ;; wr V i x) (repeat 0%Z K) ;; Ret (V, d, st).

(** 169-211 (_decode_siho, _decode_siho_cw): soft input of N elements. *)
Definition peel_siho_cw (R : Type) (lt0 sgn unk : R -> bool) (E N : nat) (H : sparse) (n_ite : nat) (synd : bool) (max_depth : nat) (Y : list R) : outcome (list Z * bool * Z) :=
  VN <- hard_decide_unk R lt0 sgn unk UNK E Y N (repeat 0%Z N) ;;
  ' (VN, d) <- peel_decode H n_ite synd max_depth VN ;;
  Ret (VN, d, bitz (negb d)).
End Peel.
