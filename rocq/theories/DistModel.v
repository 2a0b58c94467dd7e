(** Hamming distances: include/Tools/Perf/distance/. The integer types only; a value of the type of w bits is a Z. The library MIPP is not in the
    repository: a register of n lanes is a list of n values, and each operation acts on every lane. *)
From Coq Require Import List Arith Lia Bool ZArith.
From Verif Require Import Base GaloisModel.
Import ListNotations.
Local Open Scope Z_scope.

(** size_t on 64 bits *)
Definition usize (x : Z) : Z := x mod 2 ^ 64.

(** include/Tools/Math/utils.hxx 48-53 (sat_val), and noise_utils.hxx 46-50, 58-62: the value of an unknown symbol. There is no specialisation for
    int64_t: std::numeric_limits<int64_t>::infinity() is 0. *)
Definition unknown_symbol (w : Z) : Z := if w =? 8 then 63 else if w =? 16 then 16382 else if w =? 32 then 1073741823 else 0.
Definition is_unknown (w v : Z) : bool := v =? unknown_symbol w.

(** Boolean_diff.hxx 99-104, 135-138 and 106-111, 140-143: [unk] is count_unknown_symbols *)
Definition bool_diff (w : Z) (unk : bool) (x y : Z) : Z :=
  if xorb (negb (x =? 0)) (negb (y =? 0)) || (unk && (is_unknown w x || is_unknown w y)) then 1 else 0.
Definition bool_diff0 (w : Z) (unk : bool) (x : Z) : Z := if negb (x =? 0) || (unk && is_unknown w x) then 1 else 0.

(** distance.hxx 12-33: from the position [off] on; the second function compares to zero, [in2] is then None *)
Definition diff_at (diff : Z -> Z -> Z) (diff0 : Z -> Z) (in1 : list Z) (in2 : option (list Z)) (i : nat) : outcome Z :=
  match in2 with
  | Some in2 => x <- rd in1 i ;; y <- rd in2 i ;; Ret (diff x y)
  | None => x <- rd in1 i ;; Ret (diff0 x)
  end.
Definition distance_seq (d : nat -> outcome Z) (off size : nat) : outcome Z := for_ size (fun i dist => x <- d (off + i)%nat ;; Ret (usize (dist + usize x))) 0.

(** ** Registers *)
(** for (i = lo; i < hi; i += step) body(i) *)
Definition for_step {S} (lo hi step : nat) (body : nat -> S -> outcome S) (s : S) : outcome S :=
  for_ ((hi - lo + step - 1) / step)%nat (fun k => body (lo + k * step)%nat) s.
Fixpoint map2 {A B C} (f : A -> B -> C) (a : list A) (b : list B) : list C :=
  match a, b with x :: a, y :: b => f x y :: map2 f a b | _, _ => [] end.
(** a += b on lanes of w bits; the sum of the lanes; the two halves of a register *)
Definition vadd (w : Z) (a b : list Z) : list Z := map2 (fun x y => cast w (x + y)) a b.
Definition hadd (w : Z) (a : list Z) : Z := fold_left (fun s x => cast w (s + x)) a 0.
Definition low (a : list Z) : list Z := firstn (length a / 2) a.
Definition high (a : list Z) : list Z := skipn (length a / 2) a.
(** a register loaded at the position i, and the differences of its lanes *)
Fixpoint lanes (d : nat -> outcome Z) (i n : nat) : outcome (list Z) :=
  match n with O => Ret [] | S n => x <- d i ;; l <- lanes d (S i) n ;; Ret (x :: l) end.

(** distance.hxx 53-87: lanes of 32 or 64 bits, n lanes *)
Definition distance_std (w : Z) (n : nat) (d : nat -> outcome Z) (size : nat) : outcome Z :=
  let vec := (size / n * n)%nat in
  counter <- for_step 0 vec n (fun i c => r <- lanes d i n ;; Ret (vadd w c r)) (repeat 0 n) ;;
  rest <- distance_seq d vec (size - vec) ;;
  Ret (usize (usize (hadd w counter) + rest)).

(** distance.hxx 90-152: 16 bits, n lanes; the counters of 16 bits are emptied in counters of 32 bits every 32767 steps. cvt keeps the values. *)
Definition distance_16 (n : nat) (d : nat -> outcome Z) (size : nat) : outcome Z :=
  let vec := if (n <? 2)%nat then O else (size / n * n)%nat in
  let stride := (Z.to_nat 32767 * n)%nat in
  counter <- for_step 0 vec stride (fun ii c32 =>
    c16 <- for_step ii (Nat.min vec (ii + stride)) n (fun i c => r <- lanes d i n ;; Ret (vadd 16 c r)) (repeat 0 n) ;;
    Ret (vadd 32 (vadd 32 c32 (low c16)) (high c16))) (repeat 0 (n / 2)) ;;
  rest <- distance_seq d vec (size - vec) ;;
  Ret (usize (usize (hadd 32 counter) + rest)).

(** distance.hxx 155-229: 8 bits, n lanes *)
Definition distance_8 (n : nat) (d : nat -> outcome Z) (size : nat) : outcome Z :=
  let vec := if (n <? 4)%nat then O else (size / n * n)%nat in
  let stride := (127 * n)%nat in
  counter <- for_step 0 vec stride (fun ii c32 =>
    c8 <- for_step ii (Nat.min vec (ii + stride)) n (fun i c => r <- lanes d i n ;; Ret (vadd 8 c r)) (repeat 0 n) ;;
    Ret (vadd 32 (vadd 32 (vadd 32 (vadd 32 c32 (low (low c8))) (high (low c8))) (low (high c8))) (high (high c8)))) (repeat 0 (n / 4)) ;;
  rest <- distance_seq d vec (size - vec) ;;
  Ret (usize (usize (hadd 32 counter) + rest)).

(** distance.hxx 35-48 (with AVX1: [n] = None) and 232-242 *)
Definition distance (w : Z) (n : option nat) (d : nat -> outcome Z) (size : nat) : outcome Z :=
  match n with
  | None => distance_seq d 0 size
  | Some n => if w =? 8 then distance_8 n d size else if w =? 16 then distance_16 n d size else distance_std w n d size
  end.

(** hamming_distance.hxx 10-57: hamming_distance(_unk) with two arrays or one *)
Definition hamming (w : Z) (n : option nat) (unk : bool) (in1 : list Z) (in2 : option (list Z)) (size : nat) : outcome Z :=
  distance w n (diff_at (bool_diff w unk) (bool_diff0 w unk) in1 in2) size.
