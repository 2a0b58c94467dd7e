(** Conversions between Es/N0, Eb/N0 and sigma (src/Tools/general_utils.cpp 45-130).
    Simplification of the first part: the arithmetic of the type R of the code is the one of the real numbers; +infinity is None.
    The second part rounds each operation of the two Es/N0 - Eb/N0 conversions. *)
From Coq Require Import Reals ZArith QArith.
From Verif Require Import Base FloatQ.
Local Open Scope R_scope.

(** std::log10 and std::pow(10, .) over the reals. *)
Definition log10 (x : R) : R := ln x / ln 10.
Definition pow10 (x : R) : R := exp (x * ln 10).

(** sigma_to_esn0, general_utils.cpp 45-72. *)
Definition sigma_to_esn0 (sigma : R) (upsample_factor : Z) : outcome (option R) :=
  if (upsample_factor <=? 0)%Z then Throws
  else if Rlt_dec sigma 0 then Throws
  else if Req_EM_T sigma 0 then Ret None
  else Ret (Some (10 * log10 (IZR upsample_factor / (sigma * sigma)))).

(** esn0_to_sigma, general_utils.cpp 74-86. *)
Definition esn0_to_sigma (esn0 : R) (upsample_factor : Z) : outcome R :=
  if (upsample_factor <=? 0)%Z then Throws
  else Ret (sqrt (IZR upsample_factor / (2 * pow10 (esn0 / 10)))).

(** The test of the rate, general_utils.cpp 91-97 and 113-119. *)
Definition bad_rate (bit_rate : R) : bool :=
  if Rle_dec bit_rate 0 then true else if Rlt_dec 1 bit_rate then true else false.

(** esn0_to_ebn0, general_utils.cpp 88-108. *)
Definition esn0_to_ebn0 (esn0 bit_rate : R) (bps : Z) : outcome R :=
  if bad_rate bit_rate then Throws
  else if (bps <=? 0)%Z then Throws
  else Ret (esn0 - 10 * log10 (bit_rate * IZR bps)).

(** ebn0_to_esn0, general_utils.cpp 110-130. *)
Definition ebn0_to_esn0 (ebn0 bit_rate : R) (bps : Z) : outcome R :=
  if bad_rate bit_rate then Throws
  else if (bps <=? 0)%Z then Throws
  else Ret (ebn0 + 10 * log10 (bit_rate * IZR bps)).

(** The same two functions with the rounding of every operation to prec bits (24 for float, 53 for double), for any
    implementation flog10 of std::log10. *)
Local Open Scope Q_scope.
Definition esn0_to_ebn0_fl (prec : Z) (flog10 : Q -> Q) (esn0 bit_rate : Q) (bps : Z) : outcome Q :=
  if Qle_bool bit_rate 0 || negb (Qle_bool bit_rate 1) then Throws
  else if (bps <=? 0)%Z then Throws
  else Ret (fl prec (esn0 - fl prec (10 * flog10 (fl prec (bit_rate * fl prec (inject_Z bps)))))).
Definition ebn0_to_esn0_fl (prec : Z) (flog10 : Q -> Q) (ebn0 bit_rate : Q) (bps : Z) : outcome Q :=
  if Qle_bool bit_rate 0 || negb (Qle_bool bit_rate 1) then Throws
  else if (bps <=? 0)%Z then Throws
  else Ret (fl prec (ebn0 + fl prec (10 * flog10 (fl prec (bit_rate * fl prec (inject_Z bps)))))).
