(** The BCH encoder that encodes V frames at once: src/Module/Encoder/BCH/Encoder_BCH_inter.cpp.

    Simplifications: a register is a list of V lanes; U_K and X_N are lists of V frames. The reordering is that of ReorderModel.v
    (without AVX). *)
From Coq Require Import List Arith Bool ZArith.
From Verif Require Import Base Copy ReorderModel.
Import ListNotations.
Local Open Scope nat_scope.

Section Inter.
Variable V : nat.   (* mipp::N<B>() *)

(** Lane by lane. *)
Definition lanes2 (f : Z -> Z -> Z) (a b : list Z) : list Z := tab V (fun l => f (nth l a 0%Z) (nth l b 0%Z)).
Definition lanes1 (f : Z -> Z) (a : list Z) : list Z := tab V (fun l => f (nth l a 0%Z)).

(** Lines 46-64: the loop on the message; par is par_reordered and ur is U_K_reordered. *)
Definition inter_loop (K : nat) (g ur par : list Z) : outcome (list Z) :=
  let r := length g - 1 in
  for_ K (fun k par =>
    let i := K - 1 - k in
    n <- load Z V par ((r - 1) * V) ;; u <- load Z V ur (i * V) ;;
    let feedback := lanes2 Z.lxor n u in
    par <- for_ (r - 1) (fun k par =>
      let j := r - 1 - k in
      pm <- load Z V par ((j - 1) * V) ;; gj <- rd g j ;;
      store Z V par (j * V) (if (gj =? 0)%Z then pm else lanes2 Z.lxor pm feedback)) par ;;
    g0 <- rd g 0 ;;
    store Z V par 0 (lanes1 (fun b => if (b =? 1)%Z then Z.land g0 b else 0%Z) feedback)) par.
(** Lines 33-70 (__encode); ubuf and pbuf are the two member buffers. *)
Definition inter_parity (K : nat) (g : list Z) (us xs : list (list Z)) (ubuf pbuf : list Z) : outcome (list (list Z)) :=
  let r := length g - 1 in
  ur <- static_apply Z 0%Z V V us ubuf K ;;
  par <- fill pbuf 0 (length pbuf) 0%Z ;;
  par <- inter_loop K g ur par ;;
  static_rev Z 0%Z V V par xs r.
(** Lines 73-86 (_encode). *)
Definition inter_encode (K : nat) (g : list Z) (us xs : list (list Z)) (ubuf pbuf : list Z) : outcome (list (list Z)) :=
  xs <- inter_parity K g us xs ubuf pbuf ;;
  for_ V (fun f xs => u <- rd us f ;; x <- rd xs f ;; x <- copy u 0 K x (length g - 1) ;; wr xs f x) xs.
End Inter.
