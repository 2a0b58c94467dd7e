(** The tournament sorter (include/Tools/Algo/Sort/LC_sorter.hxx).
    The values are integers below mx = std::numeric_limits<T>::max() (for a float type: the order without NaN). *)
From Coq Require Import List Arith Lia Bool ZArith.
From Verif Require Import Base.
Import ListNotations.

Section Sort.
Variable mx : Z.               (* std::numeric_limits<T>::max() *)

Record sorter := mkSorter { s_max : nat; s_tree : list nat; s_vals : list Z }.

(** std::iota on the first n elements *)
Definition iota (n : nat) (l : list nat) : outcome (list nat) := for_ n (fun i l => wr l i i) l.
(** std::vector::resize *)
Definition resize {A} (d : A) (n : nat) (l : list A) : list A := firstn n l ++ repeat d (n - length l).

(** 15-21: constructor; 2 * max_elmts - 1 is the size given to resize *)
Definition new_sorter (max_elmts : nat) : outcome sorter :=
  if max_elmts =? 0 then Throws (* std::length_error *) else
  t <- iota max_elmts (repeat 0 (2 * max_elmts - 1)) ;; Ret (mkSorter max_elmts t (repeat 0%Z (2 * max_elmts))).

(** tree[dst] = (values[tree[a]] < values[tree[b]]) ? tree[a] : tree[b] *)
Definition duel (values : list Z) (tree : list nat) (a b dst : nat) : outcome (list nat) :=
  ia <- rd tree a ;; ib <- rd tree b ;; va <- rd values ia ;; vb <- rd values ib ;; wr tree dst (if (va <? vb)%Z then ia else ib).

(** 99-113: the loop on n; returns the tree and offset *)
Fixpoint levels (fuel : nat) (values : list Z) (n offset : nat) (tree : list nat) : outcome (list nat * nat) :=
  match fuel with
  | 0 => Undef
  | S fuel =>
      if 1 <? n
      then tree <- for_ (n / 2) (fun j tree => duel values tree (offset + 2 * j) (offset + 2 * j + 1) (offset + n + j)) tree ;;
           levels fuel values (n / 2) (offset + n) tree
      else Ret (tree, offset)
  end.

(** 78-117: _partial_sort_step1 (1 << -1 is undefined) *)
Definition step1 (values : list Z) (pos : list nat) (n_elmts depth max_elmts : nat) (tree : list nat) : outcome (list nat * list nat) :=
  tree <- for_ (n_elmts / 2) (fun j tree => duel values tree (2 * j) (2 * j + 1) (max_elmts + j)) tree ;;
  if depth =? 0 then Undef else
  ' (tree, offset) <- levels (S depth) values (2 ^ (depth - 1)) max_elmts tree ;;
  x <- rd tree offset ;; pos <- wr pos 0 x ;; Ret (pos, tree).

(** 142-155, 176-188: one branch; [divisor i] is (1 << i) * 2 or 1 << i *)
Fixpoint branch (fuel : nat) (divisor : nat -> nat) (values : list Z) (p n i offset : nat) (tree : list nat) : outcome (list nat * nat) :=
  match fuel with
  | 0 => Undef
  | S fuel =>
      if 1 <? n
      then let j := p / divisor i in
           tree <- duel values tree (offset + 2 * j) (offset + 2 * j + 1) (offset + n + j) ;;
           branch fuel divisor values p (n / 2) (S i) (offset + n) tree
      else Ret (tree, offset)
  end.

(** 119-160: _partial_sort_step2; the state is the values, pos and the tree *)
Definition step2 (values : list Z) (pos : list nat) (K depth max_elmts : nat) (tree : list nat) : outcome (list Z * list nat * list nat) :=
  for_ (K - 1) (fun k s => let '(values, pos, tree) := s in
    p <- rd pos k ;; values <- wr values p mx ;;
    let j := p / 2 in
    tree <- duel values tree (2 * j) (2 * j + 1) (max_elmts + j) ;;
    if depth =? 0 then Undef else
    ' (tree, offset) <- branch (S depth) (fun i => 2 ^ i * 2) values p (2 ^ (depth - 1)) 1 max_elmts tree ;;
    x <- rd tree offset ;; pos <- wr pos (S k) x ;; Ret (values, pos, tree)) (values, pos, tree).

(** 162-191: _partial_sort2_step2 *)
Definition step2_2 (values : list Z) (pos : list nat) (depth max_elmts : nat) (tree : list nat) : outcome (list nat * list nat) :=
  p <- rd pos 0 ;;
  tree <- wr tree (max_elmts + p / 2) (if p mod 2 =? 1 then p - 1 else p + 1) ;;
  if depth =? 0 then Undef else
  ' (tree, offset) <- branch (S depth) (fun i => 2 ^ i) values p (2 ^ (depth - 1)) 2 max_elmts tree ;;
  x <- rd tree offset ;; pos <- wr pos 1 x ;; Ret (pos, tree).

(** 28-37, 53-62: the default arguments and the growth of the sorter; std::log2 of 0 converted to int is undefined *)
Definition prepare (s : sorter) (pos : list nat) (n_elmts K : Z) : outcome (sorter * nat * nat * nat) :=
  let K := if (K <=? 0)%Z then length pos else Z.to_nat K in
  let n := if (n_elmts <=? 0)%Z then s_max s else Z.to_nat n_elmts in
  if n =? 0 then Undef else
  let depth := Nat.log2 n in
  if s_max s <? n
  then t <- iota n (resize 0 (2 * n - 1) (s_tree s)) ;; Ret (mkSorter n t (resize 0%Z n (s_vals s)), n, K, depth)
  else Ret (s, n, K, depth).

(** 23-46: partial_sort_destructive; the result is the sorter, the values and pos *)
Definition partial_sort_destructive (s : sorter) (values : list Z) (pos : list nat) (n_elmts K : Z) : outcome (sorter * list Z * list nat) :=
  ' (s, n, K, depth) <- prepare s pos n_elmts K ;;
  ' (pos, tree) <- step1 values pos n depth (s_max s) (s_tree s) ;;
  if K =? 2
  then ' (pos, tree) <- step2_2 values pos depth (s_max s) tree ;; Ret (mkSorter (s_max s) tree (s_vals s), values, pos)
  else ' (values, pos, tree) <- step2 values pos K depth (s_max s) tree ;; Ret (mkSorter (s_max s) tree (s_vals s), values, pos).

(** 48-76: partial_sort; the result is the sorter and pos *)
Definition partial_sort (s : sorter) (values : list Z) (pos : list nat) (n_elmts K : Z) : outcome (sorter * list nat) :=
  ' (s, n, K, depth) <- prepare s pos n_elmts K ;;
  ' (pos, tree) <- step1 values pos n depth (s_max s) (s_tree s) ;;
  if K =? 2
  then ' (pos, tree) <- step2_2 values pos depth (s_max s) tree ;; Ret (mkSorter (s_max s) tree (s_vals s), pos)
  else vals <- for_ n (fun i vals => x <- rd values i ;; wr vals i x) (s_vals s) ;;
       ' (vals, pos, tree) <- step2 vals pos K depth (s_max s) tree ;; Ret (mkSorter (s_max s) tree vals, pos).
End Sort.
