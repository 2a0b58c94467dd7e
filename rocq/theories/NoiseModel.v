(** Noise objects (src/Tools/Noise/Noise.cpp, Sigma.cpp, Event_probability.cpp, Received_optical_power.cpp) and the list of noise points
    of a simulation (generate_range, src/Tools/general_utils.cpp 132-178). *)
From Coq Require Import List ZArith QArith Qround Bool Arith.
From Verif Require Import Base FloatQ.
Import ListNotations.

(** ** Noise objects *)

(** A floating-point number. *)
Inductive num := Fin (q : Q) | PInf | NInf | NaN.
Definition le_num (a : num) (b : Q) : bool :=
  match a with Fin q => Qle_bool q b | PInf => false | NInf => true | NaN => false end.
Definition lt_num (a : num) (b : Q) : bool :=
  match a with Fin q => negb (Qle_bool b q) | PInf => false | NInf => true | NaN => false end.
Definition gt_num (a : num) (b : Q) : bool :=
  match a with Fin q => negb (Qle_bool q b) | PInf => true | NInf => false | NaN => false end.

(** Noise.hpp 20: Noise_type. *)
Inductive kind := SIGMA | ROP | EP.

(** Noise.hpp 22-27 and Sigma.hpp 17-22; ebn0 and esn0 only exist for a Sigma, None is a member that was never written. *)
Record noise := { kd : kind; value : num; ebn0 : option num; esn0 : option num }.

(** Noise::is_set, Noise.cpp 31-38. *)
Definition is_set (n : noise) : bool := match value n with PInf => false | _ => true end.
(** Noise::get_value, Noise.cpp 49-60. *)
Definition get_value (n : noise) : outcome num := if is_set n then Ret (value n) else Throws.
(** Sigma::get_ebn0 and get_esn0, Sigma.cpp 56-80. *)
Definition get_field (f : option num) : outcome num :=
  match f with None => Undef | Some PInf => Throws | Some x => Ret x end.
Definition get_ebn0 (n : noise) : outcome num := get_field (ebn0 n).
Definition get_esn0 (n : noise) : outcome num := get_field (esn0 n).

(** The virtual check() const: Sigma.cpp 91-101 for a Sigma; Noise.cpp 62-67 for the two others (the check of
    Event_probability.hpp 29 is not const and so does not override it). *)
Definition check (n : noise) : outcome unit :=
  match kd n with
  | SIGMA => v <- get_value n ;; if le_num v 0 then Throws else Ret tt
  | ROP | EP => Ret tt
  end.
(** Event_probability::check(), Event_probability.cpp 17-27, called by the constructor only. The constants are not rounded. *)
Definition ep_check (n : noise) : outcome unit :=
  v <- get_value n ;; if lt_num v (- (1 # 100000)) || gt_num v (100001 # 100000) then Throws else Ret tt.

(** The constructors: Noise.cpp 10-21, Sigma.hpp 25 and Sigma.cpp 11-29, Event_probability.cpp 9-15, Received_optical_power.cpp 7-13. *)
Definition new_default (k : kind) : noise := {| kd := k; value := PInf; ebn0 := None; esn0 := None |}.
Definition new_value (k : kind) (v : num) : outcome noise :=
  let n := {| kd := k; value := v; ebn0 := match k with SIGMA => Some PInf | _ => None end; esn0 := match k with SIGMA => Some PInf | _ => None end |} in
  match k with
  | SIGMA | ROP => _ <- check n ;; Ret n
  | EP => _ <- ep_check n ;; Ret n
  end.
Definition new_sigma (s eb es : num) : outcome noise :=
  let n := {| kd := SIGMA; value := s; ebn0 := Some eb; esn0 := Some es |} in _ <- check n ;; Ret n.

(** The effect of a member function: how it ends, the object after it, and what the object was at each call of
    callback_update.notify(), i.e. what the listeners can read. *)
Definition effect := (outcome unit * noise * list noise)%type.

Definition with_value (n : noise) (v : num) : noise := {| kd := kd n; value := v; ebn0 := ebn0 n; esn0 := esn0 n |}.

(** Noise::set_value, Noise.cpp 40-47. *)
Definition set_value (n : noise) (v : num) : effect :=
  let n1 := with_value n v in
  match check n1 with
  | Ret _ => (Ret tt, n1, [n1])
  | Throws => (Throws, n1, [])
  | Undef => (Undef, n1, [])
  end.

(** Sigma::set_values, Sigma.cpp 82-89. *)
Definition set_values (n : noise) (s eb es : num) : effect :=
  let '(r, n1, seen) := set_value n s in
  match r with
  | Ret _ => (Ret tt, {| kd := kd n1; value := value n1; ebn0 := Some eb; esn0 := Some es |}, seen)
  | _ => (r, n1, seen)
  end.

(** copy: Noise.cpp 23-29; Sigma.cpp 31-52 (the members Eb/N0 and Es/N0 are copied when both are Sigma). *)
Definition copy_noise (n other : noise) : effect :=
  let n1 := match kd n, kd other with
            | SIGMA, SIGMA => {| kd := SIGMA; value := value n; ebn0 := ebn0 other; esn0 := esn0 other |}
            | _, _ => n
            end in
  let n2 := with_value n1 (value other) in
  (Ret tt, n2, [n2]).

(** ** generate_range *)

Definition INT_MAX : Z := 2147483647.
Definition in_int (z : Z) : bool := (- INT_MAX - 1 <=? z)%Z && (z <=? INT_MAX)%Z.

(** (int)(x * float_precision), with R of prec bits and float_precision = 1e7, which every format of at least 17 bits holds exactly. *)
Definition to_int (prec : Z) (x : Q) : outcome Z :=
  let y := fl prec (x * 10000000) in
  let z := Z.quot (Qnum y) (Zpos (Qden y)) in
  _ <- guard (in_int z) ;; Ret z.

(** for (int v = min; v <= max; v += step) range.push_back(v), general_utils.cpp 162-163; None: still looping after fuel turns. *)
Fixpoint range_loop (fuel : nat) (v max step : Z) (range : list Z) : option (outcome (list Z)) :=
  match fuel with
  | O => None
  | S fuel => if (v <=? max)%Z then if in_int (v + step) then range_loop fuel (v + step) max step (range ++ [v]) else Some Undef
              else Some (Ret range)
  end.

(** One element of the description, general_utils.cpp 139-164. *)
Definition range_entry (prec : Z) (fuel : nat) (default : Q) (s : list Q) (range : list Z) : option (outcome (list Z)) :=
  let bounds (front step back : Q) :=
    match to_int prec front, to_int prec back, to_int prec step with
    | Ret mn, Ret mx, Ret st =>
      if (mx <? mn)%Z && (st <? 0)%Z then range_loop fuel mx mn (- st) range
      else range_loop fuel mn mx st range
    | _, _, _ => Some Undef
    end in
  match s with
  | [x] => Some (z <- to_int prec x ;; Ret (range ++ [z]))
  | [a; b] => bounds a default b
  | [a; st; b] => bounds a st b
  | _ => Some Throws
  end.

Fixpoint range_all (prec : Z) (fuel : nat) (default : Q) (desc : list (list Q)) (range : list Z) : option (outcome (list Z)) :=
  match desc with
  | [] => Some (Ret range)
  | s :: desc => match range_entry prec fuel default s range with
                 | Some (Ret range) => range_all prec fuel default desc range
                 | r => r
                 end
  end.

(** std::sort of integers, by insertion: the sorted list is unique. *)
Fixpoint zinsert (x : Z) (l : list Z) : list Z :=
  match l with [] => [x] | y :: t => if (x <=? y)%Z then x :: l else y :: zinsert x t end.
Definition zsort (l : list Z) : list Z := fold_right zinsert [] l.
(** std::unique. *)
Fixpoint zunique (l : list Z) : list Z :=
  match l with
  | x :: (y :: _) as t => if (x =? y)%Z then zunique t else x :: zunique t
  | _ => l
  end.

(** generate_range, general_utils.cpp 132-178. *)
Definition generate_range (prec : Z) (fuel : nat) (default : Q) (desc : list (list Q)) : option (outcome (list Q)) :=
  match range_all prec fuel default desc [] with
  | Some (Ret range) => Some (Ret (map (fun z => fl prec (fl prec (inject_Z z) / 10000000)) (zunique (zsort range))))
  | Some Throws => Some Throws
  | Some Undef => Some Undef
  | None => None
  end.

(** check_LUT, general_utils.cpp 180-204, for integers; the map counts the values seen. *)
Definition check_LUT (lut : list Z) (size : nat) : outcome unit :=
  if negb (size =? 0)%nat && negb (length lut =? size)%nat then Throws
  else fold_left (fun r i => _ <- r ;; if (2 <=? count_occ Z.eq_dec (firstn (S i) lut) (nth i lut 0%Z))%nat then Throws else Ret tt) (seq 0 (length lut)) (Ret tt).
