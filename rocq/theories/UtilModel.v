(** Small helpers: include/Tools/general_utils.hxx, include/Tools/Math/interpolation.hxx, numerical_integration.hxx and
    utils.hxx, src/Module/Coset. *)
From Coq Require Import List Arith Lia Bool ZArith QArith Qabs.
From Verif Require Import Base FullModel GaloisModel.
Import ListNotations.
Local Open Scope nat_scope.

(** ** Coset *)
(** src/Module/Coset/Bit/Coset_bit.cpp 25-29: out[i] = ref[i] ? !in[i] : in[i] *)
Definition coset_bit (size : nat) (ref inp : list Z) (out : list Z) : outcome (list Z) :=
  for_ size (fun i out => r <- rd ref i ;; x <- rd inp i ;; wr out i (if (r =? 0)%Z then x else if (x =? 0)%Z then 1%Z else 0%Z)) out.
(** src/Module/Coset/Real/Coset_real.cpp 25-29: out[i] = ref[i] ? -in[i] : in[i]; neg is the unary minus of the type followed by the
    conversion to it. *)
Definition coset_real {D} (neg : D -> outcome D) (size : nat) (ref : list Z) (inp out : list D) : outcome (list D) :=
  for_ size (fun i out => r <- rd ref i ;; x <- rd inp i ;; y <- (if (r =? 0)%Z then Ret x else neg x) ;; wr out i y) out.
(** Integers of w bits: the minus is computed on int (or on the wider type), then converted back. *)
Definition neg_int (w : nat) (x : Z) : outcome Z :=
  if (32 <=? w) && (x =? - 2 ^ (Z.of_nat w - 1))%Z then Undef else Ret (cast (Z.of_nat w) (- x)).
(** Floating-point numbers: exact. *)
Definition neg_real (x : Q) : outcome Q := Ret (- x)%Q.

(** ** Closest value *)
(** std::lower_bound on a sorted range: the first position whose value is not below v. *)
Fixpoint lower_bound (l : list Q) (v : Q) : nat :=
  match l with
  | [] => 0
  | x :: l => if Qlt_le_dec x v then S (lower_bound l v) else 0
  end.
(** general_utils.hxx 13-26 (get_closest), 28-32 (get_closest_index: an iterator is its distance to first).
    sub is the subtraction of the type: exact, or rounded. *)
Definition get_closest (sub : Q -> Q -> Q) (l : list Q) (v : Q) : outcome nat :=
  let before := lower_bound l v in
  if before =? 0 then Ret 0 else
  if before =? length l then Ret (length l - 1) else
  let after := before in
  let before := before - 1 in
  a <- rd l after ;; b <- rd l before ;;
  Ret (if Qlt_le_dec (sub a v) (sub v b) then after else before).

(** ** Interpolation *)
(** utils.hxx 32-34: float and double *)
Definition comp_equal (a b : Q) : bool := if Qlt_le_dec (Qabs (a - b)) (1 # 1000000) then true else false.
(** interpolation.hxx 15-34; exact arithmetic on the rationals (the rounding of the floats is not modelled) *)
Definition linear_interpolation (xs ys : list Q) (v : Q) : outcome Q :=
  let above := lower_bound (firstn (length xs) xs) v in
  stop <- (if above =? 0 then Ret true else x <- rd xs above ;; Ret (comp_equal v x)) ;;
  if stop : bool then rd ys above else
  let below := above - 1 in
  stop <- (if above =? length xs then Ret true else x <- rd xs below ;; Ret (comp_equal v x)) ;;
  if stop : bool then rd ys below else
  y0 <- rd ys below ;; y1 <- rd ys above ;; x0 <- rd xs below ;; x1 <- rd xs above ;;
  Ret (y0 + (y1 - y0) * (v - x0) / (x1 - x0))%Q.
(** interpolation.hxx 56-61 *)
Definition nearest_interpolation (sub : Q -> Q -> Q) (xs ys : list Q) (v : Q) : outcome Q :=
  pos <- get_closest sub xs v ;; rd ys pos.

(** ** Paired vectors: mutual_sort is in FullModel.v *)
(** general_utils.hxx 79-100 (mutual_unique): (r, abscissa, ordinate). std::move is a copy. *)
Definition unique_step {A B} (eqb : A -> A -> bool) (i : nat) '((r, xs, ys) : nat * list A * list B) : outcome (nat * list A * list B) :=
  a <- rd xs r ;; b <- rd xs i ;;
  if eqb a b then Ret (r, xs, ys) else
  let r := r + 1 in
  if r =? i then Ret (r, xs, ys) else
  xs <- wr xs r b ;; y <- rd ys i ;; ys <- wr ys r y ;; Ret (r, xs, ys).
Definition mutual_unique {A B} (eqb : A -> A -> bool) (xs : list A) (ys : list B) : outcome (list A * list B) :=
  ' (r, xs, ys) <- for_from 1 (length xs - 1) (unique_step eqb) (0, xs, ys) ;;
  let r := if negb (length xs =? 0) && (r =? 0) then 1 else r in
  Ret (firstn r xs, firstn r ys).
(** 102-129: several companions. Line 128 resizes the vector of the companions, not the companions: the new ones are empty. *)
Definition unique_steps {A B} (eqb : A -> A -> bool) (i : nat) '((r, xs, yss) : nat * list A * list (list B)) : outcome (nat * list A * list (list B)) :=
  a <- rd xs r ;; b <- rd xs i ;;
  if eqb a b then Ret (r, xs, yss) else
  let r := r + 1 in
  if r =? i then Ret (r, xs, yss) else
  xs <- wr xs r b ;;
  yss <- for_ (length yss) (fun k yss => ys <- rd yss k ;; y <- rd ys i ;; ys <- wr ys r y ;; wr yss k ys) yss ;; Ret (r, xs, yss).
Definition mutual_uniques {A B} (eqb : A -> A -> bool) (xs : list A) (yss : list (list B)) : outcome (list A * list (list B)) :=
  ' (r, xs, yss) <- for_from 1 (length xs - 1) (unique_steps eqb) (0, xs, yss) ;;
  let r := if negb (length xs =? 0) && (r =? 0) then 1 else r in
  Ret (firstn r xs, vresize yss r []).

(** ** Integrals, in exact arithmetic *)
(** utils.hxx 17: floating-point types *)
Definition div2 (x : Q) : Q := (x * (1 # 2))%Q.
(** numerical_integration.hxx 75-95 *)
Definition trapz_seq (y : list Q) (step : Q) (size : nat) : outcome Q :=
  if size <=? 1 then Ret 0%Q else
  a <- rd y 0 ;;
  let size := size - 1 in
  area <- for_from 1 (size - 1) (fun i area => v <- rd y i ;; Ret (area + v)%Q) (div2 a) ;;
  b <- rd y size ;; Ret ((area + div2 b) * step)%Q.
(** 15-42: N lanes; the lanes of a register are summed in any order (exact arithmetic). The loop goes i = 1, 1 + N, ... < vls. *)
Definition add_reg (N : nat) (y : list Q) (i : nat) (area : Q) : outcome Q :=
  for_ N (fun l area => v <- rd y (i + l) ;; Ret (area + v)%Q) area.
Definition trapz_simd (N : nat) (y : list Q) (step : Q) (size : nat) : outcome Q :=
  if size <=? 1 then Ret 0%Q else
  let size := size - 1 in
  let vls := size / N * N in
  a <- for_ ((vls - 1 + (N - 1)) / N) (fun t a => add_reg N y (1 + t * N) a) 0%Q ;;
  a <- for_from vls (size - vls) (fun i a => v <- rd y i ;; Ret (a + v)%Q) a ;;
  v <- rd y size ;; u <- rd y 0 ;; Ret ((a + div2 (v + u)) * step)%Q.
(** 200-216: the sequential rectangles *)
Definition rect_seq (y : list Q) (step : Q) (size : nat) : outcome Q :=
  if size <=? 1 then Ret 0%Q else
  a <- for_ size (fun i area => v <- rd y i ;; Ret (area + v)%Q) 0%Q ;; Ret (a * step)%Q.
(** 44-67 *)
Definition rect_simd (N : nat) (y : list Q) (step : Q) (size : nat) : outcome Q :=
  if size <=? 1 then Ret 0%Q else
  let vls := size / N * N in
  a <- for_ (size / N) (fun t a => add_reg N y (t * N) a) 0%Q ;;
  a <- for_from vls (size - vls) (fun i a => v <- rd y i ;; Ret (a + v)%Q) a ;;
  Ret (a * step)%Q.
(** 127-145: trapezes between given abscissas *)
Definition trapz_xy (x y : list Q) (size : nat) : outcome Q :=
  if size <=? 1 then Ret 0%Q else
  for_ (size - 1) (fun i area => b <- rd y (i + 1) ;; a <- rd y i ;; q <- rd x (i + 1) ;; p <- rd x i ;; Ret (area + div2 (b + a) * (q - p))%Q) 0%Q.
(** 147-175: the same, cumulated *)
Definition cumtrapz_xy (x y cumul : list Q) (size : nat) : outcome (list Q) :=
  if size =? 0 then Ret cumul else
  if size =? 1 then wr cumul 0 0%Q else
  ' (area, cumul) <- for_ (size - 1) (fun i '(area, cumul) =>
      cumul <- wr cumul i area ;;
      b <- rd y (i + 1) ;; a <- rd y i ;; q <- rd x (i + 1) ;; p <- rd x i ;; Ret ((area + div2 (b + a) * (q - p))%Q, cumul)) (0%Q, cumul) ;;
  wr cumul (size - 1) area.

(** ** Integers (utils.hxx 87-125), for an int type of w bits *)
(** 87-91 *)
Definition is_power_of_2 (x : Z) : bool := (0 <? x)%Z && (Z.land x (x - 1) =? 0)%Z.
(** 93-102: n <<= 1 on a signed type of w bits; a result of 2^(w-1) or more is undefined, so the loop stops within w turns *)
Fixpoint np2_loop (fuel : nat) (w : nat) (n x : Z) : outcome Z :=
  if (n <=? x)%Z then
    match fuel with
    | 0 => Undef
    | S fuel => if (2 * n <? 2 ^ (Z.of_nat w - 1))%Z then np2_loop fuel w (2 * n) x else Undef
    end
  else Ret n.
Definition next_power_of_2 (w : nat) (x : Z) : outcome Z := np2_loop w w 1 x.
(** 104-119: the remainder decreases, so that |b| turns are enough *)
Fixpoint gcd_loop (fuel : nat) (a b : Z) : outcome Z :=
  let r := Z.rem a b in
  if (r =? 0)%Z then Ret b else match fuel with 0 => Undef | S fuel => gcd_loop fuel b r end.
Definition greatest_common_divisor (a b : Z) : outcome Z :=
  if (b =? 0)%Z then Ret 1%Z else gcd_loop (Z.to_nat (Z.abs b)) a b.
(** 121-125, on a signed type of w bits *)
Definition least_common_multiple (w : nat) (a b : Z) : outcome Z :=
  if (- 2 ^ (Z.of_nat w - 1) <=? a * b)%Z && (a * b <? 2 ^ (Z.of_nat w - 1))%Z
  then g <- greatest_common_divisor a b ;; Ret (Z.quot (a * b) g) else Undef.
