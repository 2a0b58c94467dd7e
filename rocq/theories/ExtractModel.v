(** The extractors of systematic bits: include/Module/Extractor/Extractor.hxx, src/Module/Extractor/{LDPC,Polar,RSC,Uncoded}.

    Simplifications: R is the type of the values, add its addition and neg v says that v >= 0 is false. A buffer has the size of its
    socket. The codelet of the task get_sys_and_par_llr (Extractor.hxx 110-123) holds references to local variables of the
    constructor; it is modelled as if it held their values, as the other codelets do. *)
From Coq Require Import List Arith Bool ZArith.
From Verif Require Import Base Copy.
Import ListNotations.

Section Ext.
Variables (R : Type) (add : R -> R -> R) (neg : R -> bool).

(** Extractor.hxx 229-243; pos is get_info_bits_pos(). *)
Definition ext_sys (K : nat) (pos : list nat) (y yk : list R) : outcome (list R) :=
  if negb (length pos =? K) then Throws
  else for_ K (fun i yk => p <- rd pos i ;; v <- rd y p ;; wr yk i v) yk.
(** Extractor.hxx 246-260. *)
Definition ext_bit (K : nat) (pos : list nat) (y : list R) (vk : list Z) : outcome (list Z) :=
  if negb (length pos =? K) then Throws
  else for_ K (fun i vk => p <- rd pos i ;; v <- rd y p ;; wr vk i (if neg v then 1%Z else 0%Z)) vk.
(** Extractor.hxx 263-288. *)
Definition ext_sys_par (K N : nat) (pos : list nat) (y sys par : list R) : outcome (list R * list R) :=
  if negb (length pos =? K) then Throws
  else
    sys <- for_ K (fun i sys => p <- rd pos i ;; v <- rd y p ;; wr sys i v) sys ;;
    st <- for_ N (fun i st =>
      if existsb (Nat.eqb i) pos then v <- rd y i ;; par <- wr (fst st) (snd st) v ;; Ret (par, S (snd st)) else Ret st) (par, 0) ;;
    Ret (sys, fst st).
(** Extractor.hxx 291-306. *)
Definition ext_add (K N : nat) (pos : list nat) (ext y1 y2 : list R) : outcome (list R) :=
  if negb (length pos =? K) then Throws
  else
    y2 <- copy y1 0 N y2 0 ;;
    for_ K (fun i y2 => p <- rd pos i ;; v <- rd y2 p ;; e <- rd ext i ;; wr y2 p (add v e)) y2.

(** Extractor_RSC.cpp 10-24: the positions. *)
Definition rsc_pos (buffered : bool) (K : nat) : list nat := tab K (fun i => if buffered then i else 2 * i).
(** Extractor_RSC.cpp 35-56. *)
Definition rsc_sys_par (buffered : bool) (K N tail : nat) (y sys par : list R) : outcome (list R * list R) :=
  let tb := tail / 2 in
  if buffered then
    sys <- copy y 0 (K + tb) sys 0 ;;
    par <- copy y (K + tb) (N - (K + tb)) par 0 ;;
    Ret (sys, par)
  else
    for_ (K + tb) (fun i st =>
      a <- rd y (i * 2) ;; sys <- wr (fst st) i a ;;
      b <- rd y (i * 2 + 1) ;; par <- wr (snd st) i b ;; Ret (sys, par)) (sys, par).
(** Extractor_RSC.cpp 58-67. *)
Definition rsc_sys (buffered : bool) (K : nat) (y sys : list R) : outcome (list R) :=
  if buffered then copy y 0 K sys 0
  else for_ K (fun i sys => v <- rd y (i * 2) ;; wr sys i v) sys.
(** Extractor_RSC.cpp 81-91. *)
Definition rsc_bit (buffered : bool) (K : nat) (y : list R) (vk : list Z) : outcome (list Z) :=
  for_ K (fun i vk => v <- rd y (if buffered then i else 2 * i) ;; wr vk i (if neg v then 1%Z else 0%Z)) vk.
(** The task add_sys_and_ext_llr of Extractor_RSC: its own function (69-79) has another signature and is not called. *)
Definition rsc_add (buffered : bool) (K N : nat) (ext y1 y2 : list R) : outcome (list R) := ext_add K N (rsc_pos buffered K) ext y1 y2.
End Ext.

(** Extractor_polar.cpp 29-38: set_frozen_bits; fz and pos are frozen_bits and info_bits_pos. *)
Definition pol_set (N : nat) (fb fz : list bool) (pos : list nat) : outcome (list bool * list nat) :=
  fz <- copy fb 0 (length fb) fz 0 ;;
  st <- for_ N (fun i st => b <- rd fz i ;;
    if negb b then pos <- wr (fst st) (snd st) i ;; Ret (pos, S (snd st)) else Ret st) (pos, 0) ;;
  Ret (fz, fst st).
(** Extractor_polar.cpp 8-18. *)
Definition pol_new (K N : nat) (fb : list bool) : outcome (list bool * list nat) :=
  if (K =? 0) || (N =? 0) then Throws else pol_set N fb fb (repeat 0 K).
(** Extractor_uncoded.cpp 10-18. *)
Definition unc_pos (K : nat) : list nat := seq 0 K.
