(** Quantizers: src/Module/Quantizer/Pow2/Quantizer_pow2.cpp and Custom/Quantizer_custom.cpp, for R = float (prec = 24) or
    double (prec = 53) and Q = signed char (w = 8) or short (w = 16).
    Simplification: the exponent of the floating-point numbers is not bounded (FloatQ.v): a product that would overflow to
    infinity is here a large number, which saturates to the same value. *)
From Coq Require Import List Arith Lia Bool ZArith QArith Qround Qabs.
From Verif Require Import Base FloatQ.
Import ListNotations.

Inductive real := Fin (x : Q) | PInf | NInf | NaN.

Section Quant.
Variable prec : Z.
Variable w : Z.                 (* sizeof(Q) * 8 *)

(** IEEE product *)
Definition sgnQ (x : Q) : comparison := (x ?= 0)%Q.
Definition inf_by (c : comparison) : real := match c with Eq => NaN | Gt => PInf | Lt => NInf end.
Definition fmul (a b : real) : real :=
  match a, b with
  | NaN, _ | _, NaN => NaN
  | Fin x, Fin y => Fin (fl prec (x * y))
  | PInf, Fin y | Fin y, PInf => inf_by (sgnQ y)
  | NInf, Fin y | Fin y, NInf => inf_by (CompOpp (sgnQ y))
  | PInf, PInf | NInf, NInf => PInf
  | PInf, NInf | NInf, PInf => NInf
  end.
(** IEEE quotient of two numbers that are not negative (and not -0) *)
Definition fdiv_nonneg (a b : real) : real :=
  match a, b with
  | NaN, _ | _, NaN | NInf, _ | _, NInf => NaN
  | Fin x, Fin y => if Qeq_bool y 0 then (if Qeq_bool x 0 then NaN else PInf) else Fin (fl prec (x / y))
  | Fin _, PInf => Fin 0
  | PInf, Fin _ => PInf
  | PInf, PInf => NaN
  end.
Definition fabs (a : real) : real := match a with Fin x => Fin (Qabs x) | NaN => NaN | _ => PInf end.

(** std::round: to the nearest integer, ties away from zero *)
Definition rha (x : Q) : Z := if Qlt_le_dec x 0 then (- Qfloor (- x + (1 # 2)))%Z else Qfloor (x + (1 # 2)).
Definition fround (a : real) : real := match a with Fin x => Fin (inject_Z (rha x)) | a => a end.

(** include/Tools/Math/utils.hxx 67-71: std::min(std::max(val, min), max); comparisons with a NaN are false *)
Definition flt (a b : real) : bool :=
  match a, b with
  | NaN, _ | _, NaN => false
  | Fin x, Fin y => if Qlt_le_dec x y then true else false
  | NInf, NInf | PInf, PInf => false
  | NInf, _ | _, PInf => true
  | _, _ => false
  end.
Definition fmax (a b : real) : real := if flt a b then b else a.
Definition fmin (a b : real) : real := if flt b a then b else a.
Definition saturate (v lo hi : real) : real := fmin (fmax v lo) hi.

(** (Q)x: undefined when the integral part does not fit *)
Definition to_Q (a : real) : outcome Z :=
  match a with
  | Fin x => let z := if Qlt_le_dec x 0 then (- Qfloor (- x))%Z else Qfloor x in
             if (- 2 ^ (w - 1) <=? z)%Z && (z <? 2 ^ (w - 1))%Z then Ret z else Undef
  | _ => Undef
  end.

(** (1 << e) + ((1 << e) - 1) and 1 << e, in int *)
Definition shl1 (e : Z) : outcome Z := if (e <? 0)%Z || (30 <? e)%Z then Undef else Ret (2 ^ e)%Z.
Definition full (e : Z) : outcome Z := x <- shl1 e ;; Ret (x + (x - 1))%Z.

Record pow2 := mkPow2 { p_max : Z; p_min : Z; p_factor : Z }.
(** Quantizer_pow2.cpp 11-31 *)
Definition new_pow2 (fixed_point_pos : Z) : outcome pow2 :=
  vmax <- full (w - 2) ;; f <- shl1 fixed_point_pos ;;
  _ <- guard (negb (w <=? fixed_point_pos)%Z) ;; Ret (mkPow2 vmax (- vmax) f).
(** 59-112 *)
Definition new_pow2_sat (fixed_point_pos saturation_pos : Z) : outcome pow2 :=
  vmax <- full (saturation_pos - 2) ;; f <- shl1 fixed_point_pos ;;
  _ <- guard (negb (fixed_point_pos <=? 0)%Z) ;;
  _ <- guard (negb (saturation_pos <? 2)%Z) ;;
  _ <- guard (negb (saturation_pos <? fixed_point_pos)%Z) ;;
  _ <- guard (negb (w <=? fixed_point_pos)%Z) ;;
  m <- full (w - 2) ;;
  _ <- guard (negb (m <? vmax)%Z) ;;
  _ <- guard (negb (- vmax <? - m)%Z) ;;
  Ret (mkPow2 vmax (- vmax) f).
(** 158-165: _process, one element *)
Definition pow2_one (q : pow2) (y : real) : outcome Z :=
  to_Q (saturate (fround (fmul (Fin (inject_Z (p_factor q))) y)) (Fin (inject_Z (p_min q))) (Fin (inject_Z (p_max q)))).
Definition pow2_process (q : pow2) (N : nat) (Y_N1 : list real) : outcome (list Z) := gen N (fun i => y <- rd Y_N1 i ;; pow2_one q y).

Record custom := mkCustom { c_max : Z; c_min : Z; c_inv : real }.
Definition custom_inv (m : real) (vmax : Z) : real := fdiv_nonneg (Fin 1) (fdiv_nonneg (fabs m) (Fin (inject_Z vmax))).
(** Quantizer_custom.cpp 12-21, 54-71, 104-113, 146-163: the constructors; sat is saturation_pos or sizeof(Q) * 8, min_max is
    absent in the first two *)
Definition new_custom (min_max : option real) (sat : Z) : outcome custom :=
  vmax <- full (sat - 2) ;; _ <- guard (negb (w <? sat)%Z) ;;
  Ret (mkCustom vmax (- vmax) (match min_max with None => Fin 0 | Some m => custom_inv m vmax end)).

(** std::sort of the absolute values, by insertion *)
Fixpoint insert (x : real) (l : list real) : list real := match l with [] => [x] | y :: l' => if flt y x then y :: insert x l' else x :: l end.
Definition sort (l : list real) : list real := fold_right insert [] l.
Definition is_zero (a : real) : bool := match a with Fin x => Qeq_bool x 0 | _ => false end.

(** 175-198: _process (the unused average is left out); the new state of the quantizer and the outputs *)
Definition custom_one (c : custom) (y : real) : outcome Z :=
  to_Q (saturate (fround (fmul y (c_inv c))) (Fin (inject_Z (c_min c))) (Fin (inject_Z (c_max c)))).
Definition custom_process (c : custom) (N : nat) (Y_N1 : list real) : outcome (custom * list Z) :=
  c <- (if is_zero (c_inv c)
        then tmp <- gen N (fun i => y <- rd Y_N1 i ;; Ret (fabs y)) ;;
             t <- rd (sort tmp) (N / 10 * 8) ;;
             Ret (mkCustom (c_max c) (c_min c) (custom_inv t (c_max c)))
        else Ret c) ;;
  out <- gen N (fun i => y <- rd Y_N1 i ;; custom_one c y) ;; Ret (c, out).
End Quant.
