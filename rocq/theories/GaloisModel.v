(** Galois field tables: src/Tools/Math/Galois.cpp. *)
From Coq Require Import List Arith ZArith Lia Bool.
From Verif Require Import Base.
Import ListNotations.

(** Array access with a signed index: a negative index is converted to a huge size_t. *)
Definition rdz {A} (l : list A) (i : Z) : outcome A := if (i <? 0)%Z then Undef else rd l (Z.to_nat i).
Definition wrz {A} (l : list A) (i : Z) (x : A) : outcome (list A) := if (i <? 0)%Z then Undef else wr l (Z.to_nat i) x.

(** Conversion to the signed integer type of [w] bits (B_8, B_16, B_32, B_64). *)
Definition cast (w z : Z) : Z := ((z + 2 ^ (w - 1)) mod 2 ^ w - 2 ^ (w - 1))%Z.

Record galois := { gf_N : nat; gf_m : nat; alpha_to : list Z; index_of : list Z; gf_p : list Z }.

(** src/Tools/Math/Galois.cpp 108-132 (select_polynomial): the coefficients set to one, other
    than p[0] and p[m]. *)
Definition galois_taps (m : nat) : list nat :=
  match m with
  | 2 => [1] | 3 => [1] | 4 => [1] | 5 => [2] | 6 => [1] | 7 => [1] | 8 => [4;5;6] | 9 => [4]
  | 10 => [3] | 11 => [2] | 12 => [3;4;7] | 13 => [1;3;4] | 14 => [1;11;12] | 15 => [1]
  | 16 => [2;3;5] | 17 => [3] | 18 => [7] | 19 => [1;5;6] | 20 => [3] | _ => []
  end.
Definition select_polynomial (m : nat) : list Z :=
  tab (S m) (fun i => if (i =? 0) || (i =? m) || existsb (Nat.eqb i) (galois_taps m) then 1%Z else 0%Z).

(** src/Tools/Math/Galois.cpp 134-162 (generate_gf); [w] is the width of the element type I,
    the other variables are ints. *)
Definition generate_gf (w : Z) (N m : nat) (p alpha index : list Z) : outcome (list Z * list Z) :=
  alpha <- wr alpha m 0%Z ;;
  '(alpha, index, mask) <- for_ m (fun i '(alpha, index, mask) =>
     alpha <- wr alpha i (cast w mask) ;;
     v <- rd alpha i ;;
     index <- wrz index v (cast w (Z.of_nat i)) ;;
     pi <- rd p i ;;
     alpha <- (if (pi =? 0)%Z then Ret alpha else a <- rd alpha m ;; wr alpha m (cast w (Z.lxor a mask))) ;;
     Ret (alpha, index, Z.shiftl mask 1)) (alpha, index, 1%Z) ;;
  v <- rd alpha m ;;
  index <- wrz index v (cast w (Z.of_nat m)) ;;
  let mask := Z.shiftr mask 1 in
  '(alpha, index) <- for_from (m + 1) (N - (m + 1)) (fun i '(alpha, index) =>
     a <- rd alpha (i - 1) ;; am <- rd alpha m ;;
     alpha <- wr alpha i (cast w (if (mask <=? a)%Z then Z.lxor am (Z.shiftl (Z.lxor a mask) 1) else Z.shiftl a 1)) ;;
     idx <- rd alpha i ;;
     index <- wrz index idx (cast w (Z.of_nat i)) ;;
     Ret (alpha, index)) (alpha, index) ;;
  index <- wr index 0 (-1)%Z ;;
  Ret (alpha, index).

(** src/Tools/Math/Galois.cpp 10-71 (constructor).  ceil(log2(x)) is exact for the sizes
    accepted.  For N <= 0 the code computes log2(0) or a negative vector size before its own
    check: the model just throws. *)
Definition galois_ctor (w : Z) (N : nat) (p : list Z) : outcome galois :=
  let m := Z.to_nat (Z.log2_up (Z.of_nat N)) in
  _ <- guard (0 <? N) ;;
  _ <- guard (m =? Z.to_nat (Z.log2_up (Z.of_nat N + 1))) ;;
  _ <- guard (1 <? m) ;;
  _ <- guard (m <=? 20) ;;
  _ <- guard (Z.of_nat m <=? w)%Z ;;
  _ <- guard (Z.of_nat N =? Z.shiftl 1 (Z.of_nat m) - 1)%Z ;;
  _ <- guard (match p with [] => true | _ => length p =? m + 1 end) ;;
  let p := match p with [] => select_polynomial m | _ => p end in
  '(alpha, index) <- generate_gf w N m p (repeat 0%Z (N + 1)) (repeat 0%Z (N + 1)) ;;
  Ret {| gf_N := N; gf_m := m; alpha_to := alpha; index_of := index; gf_p := p |}.
