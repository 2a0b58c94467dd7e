(** The constellations and the functions of the modems on the real numbers: include/Tools/Constellation/PAM/Constellation_PAM.hxx,
    QAM/Constellation_QAM.hxx, PSK/Constellation_PSK.hxx, include/Tools/Math/max.hxx.

    Simplifications: the numbers are the real numbers, without rounding; M_PI is the real number PI; the unsigned products of
    the constructors are those of 32 bits; a square root of a negative number, not a number in the code, is undefined. *)
From Coq Require Import List Arith Bool ZArith Reals.
From Verif Require Import Base ModemModel.
Import ListNotations.
Local Open Scope R_scope.

Definition RA : arith := mkA R IZR Rplus Rminus Rmult Rdiv Ropp (fun x y => if Req_EM_T x y then false else true).

(** std::sqrt. *)
Definition root (x : R) : outcome R := if Rlt_dec x 0 then Undef else Ret (sqrt x).
(** A product of two unsigned int. *)
Definition umul (a b : nat) : Z := ((Z.of_nat a * Z.of_nat b) mod 2 ^ 32)%Z.

(** The constructor of Constellation_PAM, Constellation_PAM.hxx 15-20: sqrt_es is sqrt((n_symbols * n_symbols - 1) / 3). *)
Definition pam_new (n_bps : nat) : outcome (cstl RA) :=
  es <- root ((IZR (umul (2 ^ n_bps) (2 ^ n_bps)) - 1) / 3) ;; pam RA es n_bps.
(** The constructor of Constellation_QAM, Constellation_QAM.hxx 14-19: sqrt_es is sqrt(2 * (n_symbols - 1) / 3). *)
Definition qam_new (n_bps : nat) : outcome (cstl RA) :=
  es <- root (2 * (INR (2 ^ n_bps) - 1) / 3) ;; qam RA es n_bps.
(** Constellation_PSK, Constellation_PSK.hxx 17-36. *)
Definition psk_new (n_bps : nat) : outcome (cstl RA) :=
  c <- make_cstl RA (repeat (0, 0) (2 ^ n_bps)) ;;
  build RA (fun bits => s <- amplitude RA bits 0 n_bps ;;
    Ret (cos ((s + 1) * PI / INR (2 ^ n_bps)), sin ((s + 1) * PI / INR (2 ^ n_bps)))) c.

(** max_star, max.hxx 27-33: std::max(a, b) + std::log1p(std::exp(-std::abs(a - b))). *)
Definition max_star (a b : R) : R := Rmax a b + ln (1 + exp (- Rabs (a - b))).
(** max_star_safe on floating-point numbers, max.hxx 43-73. *)
Definition max_star_safe (a b : R) : R :=
  let d := Rabs (a - b) in
  Rmax a b + (if Rle_dec 37 d then 0 else if Rle_dec 9 d then exp (- d) else ln (1 + exp (- d))).

(** log(p / (1 - p)), Modem_OOK_BSC.cpp 37. *)
Definition logit (p : R) : R := ln (p / (1 - p)).
