(** Hard decisions (src/Tools/Perf/common/hard_decide.cpp, include/Tools/Noise/noise_utils.hxx). *)
From Coq Require Import List Arith Lia Bool ZArith SpecFloat.
From Verif Require Import Base.
Import ListNotations.

(** include/Tools/Math/utils.hxx 48-53 (sat_val) and noise_utils.hxx 47-51 (unknown_symbol_val), for the type of bits on
    [w] bits.  There is no specialisation for 64 bits: std::numeric_limits<int64_t>::infinity() is 0. *)
Definition unknown_symbol (w : Z) : Z :=
  if (w =? 8)%Z then 63 else if (w =? 16)%Z then 16382 else if (w =? 32)%Z then 1073741823 else 0.

Section Hard.
Variable R : Type.                 (* the type of the LLRs *)
Variable lt0 : R -> bool.          (* in[i] < 0 *)
Variable sgn : R -> bool.          (* the most significant bit of the representation of in[i] *)
Variable unk : R -> bool.          (* is_unknown_llr, noise_utils.hxx 72-85: |in[i]| <= 1e-5 converted to R *)
Variable UNK : Z.                  (* unknown_symbol_val<B>() *)
Variable E : nat.                  (* mipp::nElReg<Q>() *)

Definition bitz (b : bool) : Z := if b then 1%Z else 0%Z.

(** hard_decide.cpp 6-11 (hard_decide_seq) on in + off, out + off *)
Definition hard_seq (inp : list R) (off size : nat) (out : list Z) : outcome (list Z) :=
  for_ size (fun i out => x <- rd inp (off + i) ;; wr out (off + i) (bitz (lt0 x))) out.

(** A register: E elements from position i.  The aligned and unaligned accesses have the same effect. *)
Definition load (inp : list R) (i : nat) : outcome (list R) :=
  _ <- (if i + E <=? length inp then Ret tt else Undef) ;; Ret (firstn E (skipn i inp)).
Definition store (out : list Z) (i : nat) (r : list Z) : outcome (list Z) := for_ E (fun j out => v <- rd r j ;; wr out (i + j) v) out.

(** hard_decide.cpp 13-37 (hard_decide).  The shift of mipp is logical. *)
Definition hard_decide (inp : list R) (size : nat) (out : list Z) : outcome (list Z) :=
  let vec := (size / E) * E in
  out <- for_ (size / E) (fun b out => q <- load inp (b * E) ;; store out (b * E) (map (fun x => bitz (sgn x)) q)) out ;;
  hard_seq inp vec (size - vec) out.

(** hard_decide.cpp 42-47 (hard_decide_unk_seq) *)
Definition hard_unk_seq (inp : list R) (size : nat) (out : list Z) : outcome (list Z) :=
  for_ size (fun i out => x <- rd inp i ;; wr out i (if unk x then UNK else bitz (lt0 x))) out.

(** hard_decide.cpp 49-80 (hard_decide_unk).  The end of the vector goes through hard_decide_seq. *)
Definition hard_decide_unk (inp : list R) (size : nat) (out : list Z) : outcome (list Z) :=
  let vec := (size / E) * E in
  out <- for_ (size / E) (fun b out => q <- load inp (b * E) ;; store out (b * E) (map (fun x => if unk x then UNK else bitz (sgn x)) q)) out ;;
  hard_seq inp vec (size - vec) out.
End Hard.

(** The types of the library.  Integers: Q_8 and Q_16; the threshold 1e-5 becomes 0. *)
Definition int_lt0 (z : Z) : bool := (z <? 0)%Z.
Definition int_unk (z : Z) : bool := ((z <=? 0) && (0 <=? z))%Z.

(** Floats: Q_32 (precision 24, emax 128); 1e-5 is the single 10995116 * 2^-40. *)
Definition f32_lt0 (x : spec_float) : bool := SFltb x (S754_zero false).
Definition f32_sgn (x : spec_float) : bool := match x with S754_zero s | S754_infinity s | S754_finite s _ _ => s | S754_nan => false end.
Definition f32_unk (x : spec_float) : bool := SFleb x (S754_finite false 10995116 (-40)) && SFleb (S754_finite true 10995116 (-40)) x.
