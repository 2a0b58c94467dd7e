(** Dense binary matrices: model of src/Tools/Algo/Matrix/Full_matrix/Full_matrix.cpp, of the mutual sort of
    include/Tools/general_utils.hxx and of the dense products of include/Tools/Algo/Matrix/matrix_utils.hxx.
    The elements (int8_t to int64_t) are Z; only 0 and 1 are ever stored by these functions. *)
From Coq Require Import List Arith Lia Bool ZArith.
From Verif Require Import Base SparseModel.
Import ListNotations.

(** Matrix.hpp 119-134 and Full_matrix.hpp 24, 121-123 (the rows are the base class). *)
Record full := mkFull {
  fu_rows : nat; fu_cols : nat; fu_rmax : nat; fu_cmax : nat; fu_n : nat;
  fu_rd : list nat; fu_cd : list nat;        (* rows_degrees, cols_degrees *)
  fu_m : list (list Z) }.

Definition get2 (t : list (list Z)) (i j : nat) : outcome Z := row <- rd t i ;; rd row j.
Definition set2 (t : list (list Z)) (i j : nat) (x : Z) : outcome (list (list Z)) := row <- rd t i ;; row <- wr row j x ;; wr t i row.
Definition nz (z : Z) : bool := negb (z =? 0)%Z.

(** Full_matrix.cpp 11-19, 321-326 (constructor, zero). *)
Definition fu_new (n m : nat) : full := mkFull n m 0 0 0 (repeat 0 n) (repeat 0 m) (repeat (repeat 0%Z m) n).

(** Full_matrix.cpp 21-28 (at); Matrix.cpp 53-71. *)
Definition fu_at (M : full) (r c : nat) : outcome bool :=
  _ <- guard (c <? fu_cols M) ;; _ <- guard (r <? fu_rows M) ;; v <- get2 (fu_m M) r c ;; Ret (nz v).

(** Full_matrix.cpp 30-50 (add_connection). *)
Definition fu_add (M : full) (r c : nat) : outcome full :=
  b <- fu_at M r c ;; _ <- guard (negb b) ;;
  t <- set2 (fu_m M) r c 1%Z ;;
  d <- rd (fu_rd M) r ;; rdg <- wr (fu_rd M) r (S d) ;;
  e <- rd (fu_cd M) c ;; cdg <- wr (fu_cd M) c (S e) ;;
  Ret (mkFull (fu_rows M) (fu_cols M) (Nat.max (fu_rmax M) (S d)) (Nat.max (fu_cmax M) (S e)) (S (fu_n M)) rdg cdg t).

(** std::max_element, dereferenced. *)
Definition max_of (l : list nat) : outcome nat := match l with [] => Undef | _ => Ret (list_max l) end.

(** Full_matrix.cpp 52-70 (rm_connection).  The degrees are unsigned: decrementing 0 gives 2^64 - 1, which cannot happen
    when they are exact. *)
Definition fu_rm (M : full) (r c : nat) : outcome full :=
  b <- fu_at M r c ;;
  if negb b then Ret M else
  t <- set2 (fu_m M) r c 0%Z ;;
  d <- rd (fu_rd M) r ;; rdg <- wr (fu_rd M) r (d - 1) ;;
  e <- rd (fu_cd M) c ;; cdg <- wr (fu_cd M) c (e - 1) ;;
  rmax <- (if d - 1 + 1 =? fu_rmax M then max_of rdg else Ret (fu_rmax M)) ;;
  cmax <- (if e - 1 + 1 =? fu_cmax M then max_of cdg else Ret (fu_cmax M)) ;;
  Ret (mkFull (fu_rows M) (fu_cols M) rmax cmax (fu_n M - 1) rdg cdg t).

(** std::vector::resize, insertion and erasure at the beginning. *)
Definition vresize {A} (l : list A) (n : nat) (x : A) : list A := firstn n l ++ repeat x (n - length l).
Definition vinsert {A} (l : list A) (k : nat) (x : A) : list A := repeat x k ++ l.
Definition verase {A} (l : list A) (k : nat) : outcome (list A) := if k <=? length l then Ret (skipn k l) else Undef.
(** [f] applied to rows lo .. hi-1. *)
Definition rows_do (lo hi : nat) (f : list Z -> outcome (list Z)) (t : list (list Z)) : outcome (list (list Z)) :=
  for_from lo (hi - lo) (fun r t => row <- rd t r ;; row <- f row ;; wr t r row) t.

(** Full_matrix.cpp 72-170 (self_resize; resize 172-181 works on a copy). *)
Definition fu_resize (M : full) (n m : nat) (o : origin) : outcome full :=
  let n0 := fu_rows M in let m0 := fu_cols M in
  let min_r := Nat.min n n0 in
  t <- match o with
    | TOP_LEFT => rows_do 0 min_r (fun row => Ret (vresize row m 0%Z)) (vresize (fu_m M) n (repeat 0%Z m))
    | TOP_RIGHT =>
        let t := vresize (fu_m M) n (repeat 0%Z m) in
        if m <? m0 then rows_do 0 n (fun row => verase row (m0 - m)) t
        else rows_do 0 min_r (fun row => Ret (vinsert row (m - m0) 0%Z)) t
    | BOTTOM_LEFT =>
        if n <? n0 then
          t <- verase (fu_m M) (n0 - n) ;; rows_do 0 min_r (fun row => Ret (vresize row m 0%Z)) t
        else
          rows_do (n - n0) n (fun row => Ret (vresize row m 0%Z)) (vinsert (fu_m M) (n - n0) (repeat 0%Z m))
    | BOTTOM_RIGHT =>
        if n <? n0 then
          t <- verase (fu_m M) (n0 - n) ;;
          if m <? m0 then rows_do 0 n (fun row => verase row (m0 - m)) t
          else rows_do 0 n (fun row => Ret (vinsert row (m - m0) 0%Z)) t
        else
          let t := vinsert (fu_m M) (n - n0) (repeat 0%Z m) in
          if m <? m0 then rows_do (n - n0) n (fun row => verase row (m0 - m)) t
          else rows_do (n - n0) n (fun row => Ret (vinsert row (m - m0) 0%Z)) t
    end ;;
  Ret (mkFull n m (fu_rmax M) (fu_cmax M) (fu_n M) (vresize (fu_rd M) n 0) (vresize (fu_cd M) n 0) t).

(** Full_matrix.cpp 183-202 (parse_connections). *)
Definition fu_parse (M : full) : outcome full :=
  ' (rdg, cdg, k) <- for_ (fu_rows M) (fun r st => for_ (fu_cols M) (fun c '(rdg, cdg, k) =>
      v <- get2 (fu_m M) r c ;;
      if nz v then d <- rd rdg r ;; rdg <- wr rdg r (S d) ;; e <- rd cdg c ;; cdg <- wr cdg c (S e) ;; Ret (rdg, cdg, S k)
      else Ret (rdg, cdg, k)) st)
    (map (fun _ => 0) (fu_rd M), map (fun _ => 0) (fu_cd M), 0) ;;
  rmax <- max_of rdg ;; cmax <- max_of cdg ;;
  Ret (mkFull (fu_rows M) (fu_cols M) rmax cmax k rdg cdg (fu_m M)).

(** [std::swap(t[r][c], t[c][r])] *)
Definition swap2 (t : list (list Z)) (r c : nat) : outcome (list (list Z)) :=
  a <- get2 t r c ;; b <- get2 t c r ;; t <- set2 t r c b ;; set2 t c r a.

(** Full_matrix.cpp 215-255 (self_transpose; transpose 204-213 works on a copy); Matrix.cpp 20-25, 42-46. *)
Definition fu_transpose (M : full) : outcome full :=
  let n := fu_rows M in let m := fu_cols M in
  t <- (if n <=? m then
      let t := vresize (fu_m M) m (repeat 0%Z n) in
      t <- for_ n (fun r t => for_from (r + 1) (n - (r + 1)) (fun c t => swap2 t r c) t) t ;;
      t <- for_from n (m - n) (fun r t => for_ n (fun c t => v <- get2 t c r ;; set2 t r c v) t) t ;;
      rows_do 0 n (fun row => Ret (vresize row n 0%Z)) t
    else
      t <- rows_do 0 m (fun row => Ret (vresize row n 0%Z)) (fu_m M) ;;
      t <- for_ m (fun r t => for_from (r + 1) (m - (r + 1)) (fun c t => swap2 t r c) t) t ;;
      t <- for_from m (n - m) (fun r t => for_ m (fun c t => v <- get2 t r c ;; set2 t c r v) t) t ;;
      Ret (vresize t m [])) ;;
  Ret (mkFull m n (fu_cmax M) (fu_rmax M) (fu_n M) (fu_cd M) (fu_rd M) t).

(** Matrix.cpp 27-40 (self_turn). *)
Definition fu_turn (M : full) (w : way) : outcome full :=
  match w with
  | VERTICAL => if fu_rows M <? fu_cols M then fu_transpose M else Ret M
  | HORIZONTAL => if fu_cols M <? fu_rows M then fu_transpose M else Ret M
  end.

(** general_utils.hxx 46-77: the inner loop of mutual_sort, for an abscissa of type A and an ordinate of type O, [swp j]
    exchanging the positions j and j-1 of the ordinate. *)
Section MutualSort.
Context {A O : Type} (comp : A -> A -> bool) (swp : nat -> O -> outcome O).
Fixpoint sift (j : nat) (st : list A * O) : outcome (list A * O) :=
  let '(xs, ys) := st in
  match j with
  | 0 => Ret st
  | S j' =>
      a <- rd xs j ;; b <- rd xs j' ;;
      if comp a b then
        xs <- wr xs j b ;; xs <- wr xs j' a ;; ys <- swp j ys ;; sift j' (xs, ys)
      else Ret st
  end.
Definition mutual_sort (xs : list A) (ys : O) : outcome (list A * O) :=
  for_from 1 (length xs - 1) (fun i st => sift i st) (xs, ys).
End MutualSort.
(** general_utils.hxx 55: a vector of ordinates. *)
Definition swap_vec {B} (j : nat) (ys : list B) : outcome (list B) :=
  a <- rd ys j ;; b <- rd ys (j - 1) ;; ys <- wr ys j b ;; wr ys (j - 1) a.
(** general_utils.hxx 74-75: several vectors of ordinates. *)
Definition swap_vecs {B} (j : nat) (ys : list (list B)) : outcome (list (list B)) :=
  for_ (length ys) (fun k ys => y <- rd ys k ;; y <- swap_vec j y ;; wr ys k y) ys.

(** Full_matrix.cpp 268-281 (sort_cols_per_density); the overload for a vector of vectors is the more specialised one. *)
Definition fu_sort (M : full) (o : order) : outcome full :=
  ' (cdg, t) <- mutual_sort (match o with ASCENDING => Nat.ltb | DESCENDING => fun a b => Nat.ltb b a end) swap_vecs (fu_cd M) (fu_m M) ;;
  Ret (mkFull (fu_rows M) (fu_cols M) (fu_rmax M) (fu_cmax M) (fu_n M) (fu_rd M) cdg t).

(** Full_matrix.cpp 308-319 (identity). *)
Definition fu_identity (n m : nat) : outcome full := for_ (Nat.min n m) (fun i M => fu_add M i i) (fu_new n m).

(** Erasure of [k] elements from index [i]. *)
Definition verase_at {A} (l : list A) (i k : nat) : outcome (list A) :=
  if i + k <=? length l then Ret (firstn i l ++ skipn (i + k) l) else Undef.
(** Full_matrix.cpp 328-336 (erase_row) and 338-351 (erase_col). *)
Definition fu_erase_row (M : full) (i k : nat) : outcome full :=
  t <- verase_at (fu_m M) i k ;; rdg <- verase_at (fu_rd M) i k ;;
  Ret (mkFull (fu_rows M - k) (fu_cols M) (fu_rmax M) (fu_cmax M) (fu_n M) rdg (fu_cd M) t).
Definition fu_erase_col (M : full) (i k : nat) : outcome full :=
  t <- rows_do 0 (fu_rows M) (fun row => verase_at row i k) (fu_m M) ;; cdg <- verase_at (fu_cd M) i k ;;
  Ret (mkFull (fu_rows M) (fu_cols M - k) (fu_rmax M) (fu_cmax M) (fu_n M) (fu_rd M) cdg t).

(** matrix_utils.hxx 36-64 (bgemm). *)
Definition fu_bgemm (A B : full) : outcome full :=
  _ <- guard (fu_cols A =? fu_rows B) ;;
  let L := fu_rows A in let K := fu_rows B in let N := fu_cols B in
  let C := fu_new L N in
  t <- for_ L (fun l t => for_ N (fun n t =>
    res <- for_ K (fun m res => a <- get2 (fu_m A) l m ;; b <- get2 (fu_m B) m n ;; Ret (xorb res (nz a && nz b))) false ;;
    set2 t l n (if res : bool then 1%Z else 0%Z)) t) (fu_m C) ;;
  Ret (mkFull L N 0 0 0 (fu_rd C) (fu_cd C) t).

(** matrix_utils.hxx 72-115 (bgemmt); [nel] is the number of elements of a register, whose lanes accumulate separately
    and are then summed modulo 2. *)
Definition fu_bgemmt (nel : nat) (A tB : full) : outcome full :=
  _ <- guard (fu_cols A =? fu_cols tB) ;;
  let L := fu_rows A in let N := fu_rows tB in let K := fu_cols tB in
  let C := fu_new L N in
  let K_loop := K / nel * nel in
  t <- for_ L (fun l t => for_ N (fun n t =>
    lanes <- for_ (K / nel) (fun q lanes => for_ nel (fun e lanes =>
        a <- get2 (fu_m A) l (q * nel + e) ;; b <- get2 (fu_m tB) n (q * nel + e) ;;
        v <- rd lanes e ;; wr lanes e (xorb v (nz a && nz b))) lanes) (repeat false nel) ;;
    let res := Nat.odd (list_sum (map Nat.b2n lanes)) in
    res <- for_from K_loop (K - K_loop) (fun m res => a <- get2 (fu_m A) l m ;; b <- get2 (fu_m tB) n m ;; Ret (xorb res (nz a && nz b))) res ;;
    set2 t l n (if res : bool then 1%Z else 0%Z)) t) (fu_m C) ;;
  Ret (mkFull L N 0 0 0 (fu_rd C) (fu_cd C) t).

(** matrix_utils.hxx 117-127 (all_zeros). *)
Definition fu_all_zeros (M : full) : outcome bool :=
  for_ (fu_rows M) (fun r st => for_ (fu_cols M) (fun c all_z => v <- get2 (fu_m M) r c ;; Ret (all_z && (v =? 0)%Z)) st) true.

(** matrix_utils.hxx 11-34 (sparse_to_full, full_to_sparse). *)
Definition sparse_to_full (S : sparse) : outcome full :=
  for_ (sp_rows S) (fun i M => row <- sp_row S i ;; each row (fun c M => fu_add M i c) M) (fu_new (sp_rows S) (sp_cols S)).
Definition full_to_sparse (F : full) : outcome sparse :=
  for_ (fu_rows F) (fun i M => for_ (fu_cols F) (fun j M => v <- get2 (fu_m F) i j ;; if nz v then sp_add M i j else Ret M) M)
       (sp_new (fu_rows F) (fu_cols F)).

(* ------------------------------------------------------------------ *)
(** * Calls *)
Inductive fu_op := FAdd (r c : nat) | FRm (r c : nat) | FTranspose | FTurn (w : way) | FSort (o : order) | FParse.
Definition fu_call (M : full) (op : fu_op) : outcome full :=
  match op with
  | FAdd r c => fu_add M r c | FRm r c => fu_rm M r c | FTranspose => fu_transpose M | FTurn w => fu_turn M w
  | FSort o => fu_sort M o | FParse => fu_parse M
  end.
(** A sequence of calls; an exception leaves the object unchanged (the checks come first). *)
Fixpoint fu_calls (M : full) (ops : list fu_op) : outcome full :=
  match ops with
  | [] => Ret M
  | op :: ops => match fu_call M op with Ret M' => fu_calls M' ops | Throws => fu_calls M ops | Undef => Undef end
  end.
