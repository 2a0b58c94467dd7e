(** Sparse binary matrices: model of include/Tools/Algo/Matrix/Matrix.{hpp,hxx}, src/Tools/Algo/Matrix/Matrix.cpp,
    src/Tools/Algo/Matrix/Sparse_matrix/Sparse_matrix.cpp, include/Tools/Algo/Matrix/Sparse_matrix/Sparse_matrix.hxx and of
    the sparse products of src/Tools/Algo/Matrix/matrix_utils.cpp.
    Simplifications: the indexes stored as uint32_t are not truncated (rows and columns below 2^32); printing and the
    texts of the exceptions are left out. *)
From Coq Require Import List Arith Lia Bool ZArith Permutation.
From Verif Require Import Base GaloisModel.
Import ListNotations.

(** Matrix.hpp 119-134 and Sparse_matrix.hpp (data members). *)
Record sparse := mkSparse {
  sp_rows : nat; sp_cols : nat;        (* n_rows, n_cols *)
  sp_rmax : nat; sp_cmax : nat;        (* rows_max_degree, cols_max_degree *)
  sp_n : nat;                          (* n_connections *)
  sp_r2c : list (list nat); sp_c2r : list (list nat)  (* row_to_cols, col_to_rows *)
}.

(** Matrix.hpp: enum class Origin, Way, Sort. *)
Inductive origin := TOP_LEFT | TOP_RIGHT | BOTTOM_LEFT | BOTTOM_RIGHT.
Inductive way := HORIZONTAL | VERTICAL.
Inductive order := ASCENDING | DESCENDING.

(** A range-based for over a vector: [for (auto& x : l) body]. *)
Fixpoint each {A S} (l : list A) (body : A -> S -> outcome S) (s : S) : outcome S :=
  match l with [] => Ret s | x :: t => s <- body x s ;; each t body s end.

(** Sparse_matrix.cpp 12-18, 324-328 (constructor, zero); Matrix.cpp 10-18. *)
Definition sp_new (n m : nat) : sparse := mkSparse n m 0 0 0 (repeat [] n) (repeat [] m).

(** Sparse_matrix.cpp 20-25 (at): no check of the indexes. *)
Definition sp_at (M : sparse) (r c : nat) : outcome bool := row <- rd (sp_r2c M) r ;; Ret (existsb (Nat.eqb c) row).

(** Sparse_matrix.hxx 7-19 (get_cols_from_row, get_rows_from_col, operator[]). *)
Definition sp_row (M : sparse) (r : nat) : outcome (list nat) := rd (sp_r2c M) r.
Definition sp_col (M : sparse) (c : nat) : outcome (list nat) := rd (sp_c2r M) c.

(** Matrix.cpp 53-71 (check_indexes). *)
Definition sp_check (M : sparse) (r c : nat) : outcome unit := _ <- guard (c <? sp_cols M) ;; guard (r <? sp_rows M).

(** [v[i].push_back(x)] *)
Definition push_at (v : list (list nat)) (i x : nat) : outcome (list (list nat)) := l <- rd v i ;; wr v i (l ++ [x]).

(** Sparse_matrix.cpp 27-47 (add_connection). *)
Definition sp_add (M : sparse) (r c : nat) : outcome sparse :=
  _ <- sp_check M r c ;;
  b <- sp_at M r c ;; _ <- guard (negb b) ;;
  r2c <- push_at (sp_r2c M) r c ;; c2r <- push_at (sp_c2r M) c r ;;
  row <- rd r2c r ;; col <- rd c2r c ;;
  Ret (mkSparse (sp_rows M) (sp_cols M) (Nat.max (sp_rmax M) (length row)) (Nat.max (sp_cmax M) (length col)) (S (sp_n M)) r2c c2r).

(** std::find then vector::erase: removes the first occurrence. *)
Fixpoint erase1 (x : nat) (l : list nat) : list nat :=
  match l with [] => [] | y :: t => if y =? x then t else y :: erase1 x t end.

(** Sparse_matrix.cpp 54-76 (and 78-100): removal from one of the two views; returns the view, the maximal degree and
    whether the link was found.  The comparison with the unsigned degree - 1 is written without subtraction. *)
Definition sp_unlink (v : list (list nat)) (i x mx : nat) : outcome (list (list nat) * nat * bool) :=
  l <- rd v i ;;
  if existsb (Nat.eqb x) l then
    v <- wr v i (erase1 x l) ;; l <- rd v i ;;
    Ret (v, if S (length l) =? mx then (if existsb (fun w => length w =? mx) v then mx else mx - 1) else mx, true)
  else Ret (v, mx, false).

(** Sparse_matrix.cpp 49-114 (rm_connection). *)
Definition sp_rm (M : sparse) (r c : nat) : outcome sparse :=
  _ <- sp_check M r c ;;
  ' (r2c, rmax, rf) <- sp_unlink (sp_r2c M) r c (sp_rmax M) ;;
  ' (c2r, cmax, cf) <- sp_unlink (sp_c2r M) c r (sp_cmax M) ;;
  _ <- guard (Bool.eqb rf cf) ;;
  Ret (mkSparse (sp_rows M) (sp_cols M) rmax cmax (if rf then sp_n M - 1 else sp_n M) r2c c2r).

(** The size of the element returned by std::max_element; dereferences end() for an empty vector. *)
Definition max_size (v : list (list nat)) : outcome nat :=
  match v with [] => Undef | _ => Ret (list_max (map (@length nat) v)) end.

(** Sparse_matrix.cpp 116-128 (parse_connections). *)
Definition sp_parse (M : sparse) : outcome sparse :=
  rmax <- max_size (sp_r2c M) ;; cmax <- max_size (sp_c2r M) ;;
  Ret (mkSparse (sp_rows M) (sp_cols M) rmax cmax (list_sum (map (@length nat) (sp_r2c M))) (sp_r2c M) (sp_c2r M)).

(** Sparse_matrix.cpp 159-160 and the same lines of the other cases: both push_back, at indexes given as 64-bit values. *)
Definition sp_push (r c : Z) (s : list (list nat) * list (list nat)) : outcome (list (list nat) * list (list nat)) :=
  let '(r2c, c2r) := s in
  if ((r <? 0) || (c <? 0))%Z then Undef else
  r2c <- push_at r2c (Z.to_nat r) (Z.to_nat c) ;; c2r <- push_at c2r (Z.to_nat c) (Z.to_nat r) ;; Ret (r2c, c2r).

(** Sparse_matrix.cpp 136-215 (resize; self_resize 130-134 assigns the result).  The differences of sizes are ints. *)
Definition sp_resize (M : sparse) (n m : nat) (o : origin) : outcome sparse :=
  let min_c := Nat.min m (sp_cols M) in
  let diff_c := sp_cols M - min_c in
  let dr := (cast 32 (Z.of_nat n) - cast 32 (Z.of_nat (sp_rows M)))%Z in
  let dc := (cast 32 (Z.of_nat m) - cast 32 (Z.of_nat (sp_cols M)))%Z in
  let body := fun (c : nat) (s : list (list nat) * list (list nat)) =>
    col <- rd (sp_c2r M) c ;;
    for_ (length col) (fun i s =>
      x <- rd col i ;;
      let ci := match o with TOP_LEFT | BOTTOM_LEFT => Z.of_nat c | _ => ((dc + Z.of_nat c) mod 2 ^ 64)%Z end in
      match o with
      | TOP_LEFT | TOP_RIGHT => if x <? n then sp_push (Z.of_nat x) ci s else Ret s
      | _ => let ri := (dr + cast 32 (Z.of_nat x))%Z in if (0 <=? ri)%Z then sp_push ri ci s else Ret s
      end) s in
  let s0 := (repeat [] n, repeat [] m) in
  ' (r2c, c2r) <- match o with
    | TOP_LEFT | BOTTOM_LEFT => for_ min_c body s0
    | _ => for_from diff_c (sp_cols M - diff_c) body s0
    end ;;
  sp_parse (mkSparse n m 0 0 0 r2c c2r).

(** Sparse_matrix.cpp 227-233 (self_transpose; transpose 217-225 works on a copy); Matrix.cpp 20-25. *)
Definition sp_transpose (M : sparse) : sparse := mkSparse (sp_cols M) (sp_rows M) (sp_cmax M) (sp_rmax M) (sp_n M) (sp_c2r M) (sp_r2c M).

(** Matrix.cpp 27-40 (self_turn; Sparse_matrix.cpp 235-243 works on a copy). *)
Definition sp_turn (M : sparse) (w : way) : sparse :=
  match w with
  | VERTICAL => if sp_rows M <? sp_cols M then sp_transpose M else M
  | HORIZONTAL => if sp_cols M <? sp_rows M then sp_transpose M else M
  end.

(** What std::sort may return for the order of Sparse_matrix.cpp 248-258: columns of equal degree in any order. *)
Definition size_le (o : order) (a b : list nat) : Prop :=
  match o with ASCENDING => length a <= length b | DESCENDING => length b <= length a end.
Definition std_sorted (o : order) (v v' : list (list nat)) : Prop :=
  Permutation v v' /\ forall i j, i < j < length v' -> size_le o (nth i v' []) (nth j v' []).

(** Sparse_matrix.cpp 245-265 (sort_cols_per_density), [v] being the columns sorted by std::sort. *)
Definition sp_sort_with (M : sparse) (v : list (list nat)) : outcome sparse :=
  r2c <- for_ (length v) (fun i r2c => col <- rd v i ;; for_ (length col) (fun j r2c => r <- rd col j ;; push_at r2c r i) r2c)
           (map (fun _ => []) (sp_r2c M)) ;;
  Ret (mkSparse (sp_rows M) (sp_cols M) (sp_rmax M) (sp_cmax M) (sp_n M) r2c v).

(** Sparse_matrix.cpp 312-322 (identity). *)
Definition sp_identity (n m : nat) : outcome sparse := for_ (Nat.min n m) (fun i M => sp_add M i i) (sp_new n m).

(** matrix_utils.cpp 8-35 (bgemm; operator* 37-40). *)
Definition sp_bgemm (A B : sparse) : outcome sparse :=
  _ <- guard (sp_cols A =? sp_rows B) ;;
  for_ (sp_rows A) (fun l C => for_ (sp_cols B) (fun n C =>
    row <- sp_row A l ;;
    sum <- each row (fun c sum => b <- sp_at B c n ;; Ret (sum + Nat.b2n b)) 0 ;;
    if Nat.odd sum then sp_add C l n else Ret C) C) (sp_new (sp_rows A) (sp_cols B)).

(** matrix_utils.cpp 42-69 (bgemmt). *)
Definition sp_bgemmt (A tB : sparse) : outcome sparse :=
  _ <- guard (sp_cols A =? sp_cols tB) ;;
  for_ (sp_rows A) (fun l C => for_ (sp_rows tB) (fun n C =>
    row <- sp_row A l ;;
    sum <- each row (fun c sum => b <- sp_at tB n c ;; Ret (sum + Nat.b2n b)) 0 ;;
    if Nat.odd sum then sp_add C l n else Ret C) C) (sp_new (sp_rows A) (sp_rows tB)).

(** matrix_utils.cpp 71-74 (all_zeros). *)
Definition sp_all_zeros (M : sparse) : bool := sp_n M =? 0.

(* ------------------------------------------------------------------ *)
(** * Histories *)

(** The calls that change a matrix. *)
Inductive sp_op :=
| Add (r c : nat) | Rm (r c : nat) | Transpose | Turn (w : way) | Resize (n m : nat) (o : origin) | SortCols (o : order).

(** One call; an exception leaves the object as it is.  The sort is not deterministic. *)
Inductive sp_call (M : sparse) : sp_op -> outcome sparse -> Prop :=
| call_add : forall r c, sp_call M (Add r c) (sp_add M r c)
| call_rm : forall r c, sp_call M (Rm r c) (sp_rm M r c)
| call_transpose : sp_call M Transpose (Ret (sp_transpose M))
| call_turn : forall w, sp_call M (Turn w) (Ret (sp_turn M w))
| call_resize : forall n m o, sp_call M (Resize n m o) (sp_resize M n m o)
| call_sort : forall o v, std_sorted o (sp_c2r M) v -> sp_call M (SortCols o) (sp_sort_with M v).
