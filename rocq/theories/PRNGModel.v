(** Mersenne twister (src/Tools/Algo/PRNG/PRNG_MT19937.cpp). *)
From Coq Require Import List Arith Lia Bool ZArith QArith.
From Verif Require Import Base FloatQ.
Import ListNotations.
Local Open Scope nat_scope.

(** 33-35 *)
Definition SIZE : nat := 624.
Definition PERIOD : nat := 397.
Definition DIFF : nat := SIZE - PERIOD.

(** 37-39, 115: uint32_t values as integers of [0, 2^32) *)
Definition M32 (x : Z) : Z := Z.land 0x80000000 x.
Definition L31 (x : Z) : Z := Z.land 0x7FFFFFFF x.
Definition MATRIX (odd : Z) : Z := if (odd =? 0)%Z then 0%Z else 0x9908b0df%Z.
Definition mod32 (x : Z) : Z := (x mod 2 ^ 32)%Z.

(** The object: MT and index. *)
Record mt := mkMt { mt_MT : list Z; mt_index : nat }.

(** 56-94 (seed) *)
Definition mt_seed (seed : Z) (s : mt) : outcome mt :=
  MT <- wr (mt_MT s) 0 seed ;;
  MT <- for_from 1 (SIZE - 1) (fun i MT => x <- rd MT (i - 1) ;; wr MT i (mod32 (0x6c078965 * Z.lxor x (Z.shiftr x 30) + Z.of_nat i))) MT ;;
  Ret (mkMt MT 0).
(** 46-50 (constructor) *)
Definition mt_new (seed : Z) : outcome mt := mt_seed seed (mkMt (repeat 0%Z SIZE) 0).

(** 41-44 (UNROLL): the state is (i, MT) *)
Definition UNROLL (expr : nat -> nat) '((i, MT) : nat * list Z) : outcome (nat * list Z) :=
  a <- rd MT i ;; b <- rd MT (i + 1) ;;
  let y := Z.lor (M32 a) (L31 b) in
  c <- rd MT (expr i) ;;
  MT <- wr MT i (Z.lxor (Z.lxor c (Z.shiftr y 1)) (MATRIX (Z.land y 1))) ;; Ret (i + 1, MT).
Definition times {A} (n : nat) (f : A -> outcome A) (a : A) : outcome A := for_ n (fun _ a => f a) a.

(** while (i < bound) body; every turn increases i: the fuel [bound] is never used up *)
Fixpoint while_below (fuel bound : nat) (body : nat * list Z -> outcome (nat * list Z)) (s : nat * list Z) : outcome (nat * list Z) :=
  if fst s <? bound then match fuel with 0 => Undef | S fuel => s <- body s ;; while_below fuel bound body s end else Ret s.

(** 96-155 (generate_numbers) *)
Definition generate_numbers (MT : list Z) : outcome (list Z) :=
  s <- while_below SIZE (DIFF - 1) (times 2 (UNROLL (fun i => i + PERIOD))) (0, MT) ;;
  s <- UNROLL (fun i => (i + PERIOD) mod SIZE) s ;;
  ' (i, MT) <- while_below SIZE (SIZE - 1) (times 11 (UNROLL (fun i => i - DIFF))) s ;;
  a <- rd MT (SIZE - 1) ;; b <- rd MT 0 ;;
  let y := Z.lor (M32 a) (L31 b) in
  c <- rd MT (PERIOD - 1) ;;
  wr MT (SIZE - 1) (Z.lxor (Z.lxor c (Z.shiftr y 1)) (MATRIX (Z.land y 1))).

(** 164-168: the shifts to the left are on 32 bits *)
Definition tempering (y : Z) : Z :=
  let y := Z.lxor y (Z.shiftr y 11) in
  let y := Z.lxor y (Z.land (mod32 (Z.shiftl y 7)) 0x9d2c5680) in
  let y := Z.lxor y (Z.land (mod32 (Z.shiftl y 15)) 0xefc60000) in
  Z.lxor y (Z.shiftr y 18).

(** 157-174 (rand_u32) *)
Definition rand_u32 (s : mt) : outcome (Z * mt) :=
  MT <- (if mt_index s =? 0 then generate_numbers (mt_MT s) else Ret (mt_MT s)) ;;
  y <- rd MT (mt_index s) ;;
  let index := mt_index s + 1 in
  Ret (tempering y, mkMt MT (if index =? SIZE then 0 else index)).

(** 176-194 (rand) *)
Definition rand31 (s : mt) : outcome (Z * mt) := ' (y, s) <- rand_u32 s ;; Ret (Z.land 0x7FFFFFFF y, s).

(** 226-229 (rand_u64): the C++ standard does not say which operand of | is evaluated first. *)
Definition rand_u64 (left_first : bool) (s : mt) : outcome (Z * mt) :=
  ' (a, s) <- rand_u32 s ;; ' (b, s) <- rand_u32 s ;;
  Ret (if left_first then Z.lor (Z.shiftl a 32) b else Z.lor (Z.shiftl b 32) a, s).

(** n draws *)
Fixpoint draws (n : nat) (s : mt) : outcome (list Z * mt) :=
  match n with
  | 0 => Ret ([], s)
  | S n => ' (y, s) <- rand_u32 s ;; ' (l, s) <- draws n s ;; Ret (y :: l, s)
  end.

(** 196-224: the real draws, from the drawn word. prec is 24 for the float functions and 53 for the double ones
    ((float)UINT32_MAX and (double)UINT32_MAX are themselves rounded). *)
Definition UINT32_MAX : Q := inject_Z 0xFFFFFFFF.
Definition rand_cc (prec : Z) (y : Z) : Q := fl prec (fl prec (inject_Z y) / fl prec UINT32_MAX).
Definition rand_co (prec : Z) (y : Z) : Q := fl prec (fl prec (inject_Z y) / fl prec (fl prec UINT32_MAX + 1)).
Definition rand_oo (prec : Z) (y : Z) : Q := fl prec (fl prec (fl prec (inject_Z y) + (1 # 2)) / fl prec (fl prec UINT32_MAX + 1)).
Definition rand_real (f : Z -> Q) (s : mt) : outcome (Q * mt) := ' (y, s) <- rand_u32 s ;; Ret (f y, s).
