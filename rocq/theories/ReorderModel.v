(** Reordering of frames for the inter-frame SIMD (include/Tools/Perf/Reorderer/Reorderer.hxx).
    The registers of mipp are lists of V elements. *)
From Coq Require Import List Arith Lia Bool ZArith.
From Verif Require Import Base UtilModel.
Import ListNotations.

Section Reorder.
Variable T : Type.
Variable d : T.
Variable V : nat.              (* mipp::nElReg<T>() *)

(** mipp::interleave: the elements of a and b in turn; the first and the second half of the 2 * V elements *)
Definition pick (a b : list T) (c : nat) : T := nth (c / 2) (if c mod 2 =? 0 then a else b) d.
Definition interleave (a b : list T) : list T * list T := (tab V (fun p => pick a b p), tab V (fun p => pick a b (V + p))).
(** mipp::loadu, mipp::storeu *)
Definition load (x : list T) (off : nat) : outcome (list T) := gen V (fun p => rd x (off + p)).
Definition store (x : list T) (off : nat) (r : list T) : outcome (list T) := for_ V (fun p x => v <- rd r p ;; wr x (off + p) v) x.

(** Reorderer.hxx 39-51, 236-248: the loops on k and l *)
Definition stage (k_size l_size : nat) (regs : list (list T)) : outcome (list (list T)) :=
  for_ k_size (fun k regs =>
    let jump := k * l_size * 2 in
    for_ l_size (fun l regs =>
      a <- rd regs (jump + l) ;; b <- rd regs (jump + l_size + l) ;;
      let x2 := interleave a b in
      regs <- wr regs (jump + l) (fst x2) ;; wr regs (jump + l_size + l) (snd x2)) regs) regs.

(** 35-54: for (j = 1; j < n_fra; j <<= 1) *)
Fixpoint stages (fuel n j k_size l_size : nat) (regs : list (list T)) : outcome (list (list T)) :=
  match fuel with
  | 0 => Undef
  | S fuel => if j <? n then regs <- stage k_size l_size regs ;; stages fuel n (2 * j) (2 * k_size) (l_size / 2) regs else Ret regs
  end.

(** 25: the condition for the vectorized loop *)
Definition vectorized (n : nat) : bool := is_power_of_2 (Z.of_nat n) && (2 <=? n) && (n <=? V).

(** 64-67: the sequential loop from start *)
Definition seq_apply (ins : list (list T)) (start len : nat) (out : list T) : outcome (list T) :=
  let n := length ins in
  for_from start (len - start) (fun i out => for_ n (fun f out => fr <- rd ins f ;; x <- rd fr i ;; wr out (i * n + f) x) out) out.

Definition apply_with (reorder : nat -> list (list T) -> outcome (list (list T))) (ins : list (list T)) (out : list T) (len : nat) : outcome (list T) :=
  let n := length ins in
  if vectorized n
  then out <- for_ (len / V) (fun i out =>
                regs <- gen n (fun f => fr <- rd ins f ;; load fr (i * V)) ;;
                regs <- reorder n regs ;;
                for_ n (fun f out => r <- rd regs f ;; store out ((i * n + f) * V) r) out) out ;;
       seq_apply ins (len / V * V) len out
  else seq_apply ins 0 len out.

(** 16-68: Reorderer<T>::apply *)
Definition apply : list (list T) -> list T -> nat -> outcome (list T) := apply_with (fun n regs => stages (S n) n 1 1 (n / 2) regs).

(** 70-94, 116-122: Reorderer_static_core, without AVX (with AVX it uses the registers by lanes: not modelled) *)
Fixpoint static_core (fuel J K : nat) (regs : list (list T)) : outcome (list (list T)) :=
  match fuel with
  | 0 => Undef
  | S fuel => if J =? 1 then Ret regs else regs <- stage K (J / 2) regs ;; static_core fuel (J / 2) (2 * K) regs
  end.
(** 135-194: Reorderer_static<T, N>::apply, without AVX *)
Definition static_apply (N : nat) (ins : list (list T)) (out : list T) (len : nat) : outcome (list T) :=
  _ <- guard (length ins =? N) ;; apply_with (fun n regs => static_core (S n) n 1 regs) ins out len.

(** 221-249: the loop of apply_rev; the last k_size and l_size are used by the stores *)
Fixpoint stages_rev (fuel n j k_size l_size : nat) (regs : list (list T)) : outcome (list (list T) * nat * nat) :=
  match fuel with
  | 0 => Undef
  | S fuel =>
      if j <? V then
        let '(k_size, l_size) := if 1 <? j then (if l_size / 2 =? 0 then (1, n / 2) else (2 * k_size, l_size / 2)) else (k_size, l_size) in
        regs <- stage k_size l_size regs ;; stages_rev fuel n (2 * j) k_size l_size regs
      else Ret (regs, k_size, l_size)
  end.

(** 251-261: the stores; the state is the frames and f *)
Definition rev_store (outs : list (list T)) (f off : nat) (r : list T) : outcome (list (list T) * nat) :=
  fr <- rd outs f ;; fr <- store fr off r ;; outs <- wr outs f fr ;; Ret (outs, S f).
Definition rev_stores (regs : list (list T)) (k_size l_size off : nat) (outs : list (list T)) : outcome (list (list T)) :=
  ' (outs, _) <- for_ k_size (fun k s =>
    let jump := k * l_size * 2 in
    for_ l_size (fun l s =>
      a <- rd regs (jump + l) ;; s <- rev_store (fst s) (snd s) off a ;;
      b <- rd regs (jump + l_size + l) ;; rev_store (fst s) (snd s) off b) s) (outs, 0) ;; Ret outs.

(** 266-269 *)
Definition seq_rev (inp : list T) (start len : nat) (outs : list (list T)) : outcome (list (list T)) :=
  let n := length outs in
  for_from start (len - start) (fun i outs => for_ n (fun f outs => x <- rd inp (i * n + f) ;; fr <- rd outs f ;; fr <- wr fr i x ;; wr outs f fr) outs) outs.

Definition rev_with (reorder : nat -> list (list T) -> outcome (list (list T) * nat * nat)) (inp : list T) (outs : list (list T)) (len : nat) : outcome (list (list T)) :=
  let n := length outs in
  if vectorized n
  then outs <- for_ (len / V) (fun i outs =>
                 regs <- gen n (fun f => load inp ((i * n + f) * V)) ;;
                 ' (regs, k_size, l_size) <- reorder n regs ;;
                 rev_stores regs k_size l_size (i * V) outs) outs ;;
       seq_rev inp (len / V * V) len outs
  else seq_rev inp 0 len outs.

(** 201-270: Reorderer<T>::apply_rev *)
Definition apply_rev : list T -> list (list T) -> nat -> outcome (list (list T)) := rev_with (fun n regs => stages_rev (S V) n 1 1 (n / 2) regs).

(** 276-315, 357-374: Reorderer_static_core_rev *)
Fixpoint static_core_rev (fuel n J K L : nat) (regs : list (list T)) : outcome (list (list T) * nat) :=
  match fuel with
  | 0 => Undef
  | S fuel =>
      if J =? 1 then Ret (regs, K / 2) else
      if L =? 0 then static_core_rev fuel n J 1 (n / 2) regs else
      regs <- stage K L regs ;; static_core_rev fuel n (J / 2) (2 * K) (L / 2) regs
  end.
(** 376-428: Reorderer_static<T, N>::apply_rev *)
Definition static_rev (N : nat) (inp : list T) (outs : list (list T)) (len : nat) : outcome (list (list T)) :=
  _ <- guard (length outs =? N) ;;
  rev_with (fun n regs => ' (regs, k_size) <- static_core_rev (S (2 * V)) n V 1 (n / 2) regs ;; Ret (regs, k_size, n / 2 / k_size)) inp outs len.
End Reorder.
