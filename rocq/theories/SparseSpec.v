(** What a sparse binary matrix is, from the point of view of its user. *)
From Coq Require Import List Arith Lia Bool ZArith.
From Verif Require Import Base SparseModel.
Import ListNotations.

(** Number of ones of a row, of a column, and of an n x m matrix of entries f. *)
Definition row_deg (f : nat -> nat -> bool) (m r : nat) : nat := length (filter (fun c => f r c) (seq 0 m)).
Definition col_deg (f : nat -> nat -> bool) (n c : nat) : nat := length (filter (fun r => f r c) (seq 0 n)).
Definition ones (f : nat -> nat -> bool) (n m : nat) : nat := list_sum (map (row_deg f m) (seq 0 n)).

(** M is the n x m matrix of entries f, for every observer of the class. *)
Definition sp_is (M : sparse) (n m : nat) (f : nat -> nat -> bool) : Prop :=
  sp_rows M = n /\ sp_cols M = m /\ length (sp_r2c M) = n /\ length (sp_c2r M) = m /\
  (forall r c, r < n -> c < m -> sp_at M r c = Ret (f r c)) /\
  (forall r, r < n -> exists l, sp_row M r = Ret l /\ NoDup l /\ forall c, In c l <-> c < m /\ f r c = true) /\
  (forall c, c < m -> exists l, sp_col M c = Ret l /\ NoDup l /\ forall r, In r l <-> r < n /\ f r c = true) /\
  sp_n M = ones f n m /\
  sp_rmax M = list_max (map (row_deg f m) (seq 0 n)) /\
  sp_cmax M = list_max (map (col_deg f n) (seq 0 m)).

(** The calls that are refused with an exception. *)
Definition op_error (n m : nat) (f : nat -> nat -> bool) (op : sp_op) : Prop :=
  match op with
  | Add r c => n <= r \/ m <= c \/ f r c = true
  | Rm r c => n <= r \/ m <= c
  | _ => False
  end.

(** The calls considered: sizes are positive and fit an int. *)
Definition op_ok (n m : nat) (op : sp_op) : Prop :=
  match op with
  | Resize n' m' _ => 0 < n' /\ 0 < m' /\ (Z.of_nat n < 2 ^ 31)%Z /\ (Z.of_nat m < 2 ^ 31)%Z /\ (Z.of_nat n' < 2 ^ 31)%Z /\ (Z.of_nat m' < 2 ^ 31)%Z
  | _ => True
  end.

(** Where index i of a dimension resized from n to n' comes from: aligned on the first or on the last index. *)
Definition src_first (n n' i : nat) : option nat := if i <? n then Some i else None.
Definition src_last (n n' i : nat) : option nat := if n' <=? i + n then Some (i + n - n') else None.
Definition src_row (o : origin) := match o with TOP_LEFT | TOP_RIGHT => src_first | _ => src_last end.
Definition src_col (o : origin) := match o with TOP_LEFT | BOTTOM_LEFT => src_first | _ => src_last end.

(** Effect of a call on the matrix. *)
Definition op_spec (n m : nat) (f : nat -> nat -> bool) (op : sp_op) (n' m' : nat) (f' : nat -> nat -> bool) : Prop :=
  match op with
  | Add r c => n' = n /\ m' = m /\ forall i j, i < n -> j < m -> (f' i j = true <-> f i j = true \/ (i = r /\ j = c))
  | Rm r c => n' = n /\ m' = m /\ forall i j, i < n -> j < m -> (f' i j = true <-> f i j = true /\ ~ (i = r /\ j = c))
  | Transpose => n' = m /\ m' = n /\ forall i j, i < m -> j < n -> f' i j = f j i
  | Turn w =>
      if (match w with VERTICAL => n <? m | HORIZONTAL => m <? n end)
      then n' = m /\ m' = n /\ forall i j, i < m -> j < n -> f' i j = f j i
      else n' = n /\ m' = m /\ forall i j, i < n -> j < m -> f' i j = f i j
  | Resize rn rm o => n' = rn /\ m' = rm /\
      forall i j, i < rn -> j < rm -> f' i j = match src_row o n rn i, src_col o m rm j with Some a, Some b => f a b | _, _ => false end
  | SortCols o => n' = n /\ m' = m /\ exists s, is_perm m s /\ (forall i j, i < n -> j < m -> f' i j = f i (nth j s 0)) /\
      forall a b, a < b < m -> match o with ASCENDING => col_deg f' n a <= col_deg f' n b | DESCENDING => col_deg f' n b <= col_deg f' n a end
  end.

(** A history of calls: an exception is caught by the caller and the object stays what it was. *)
Inductive sp_history : sparse -> list sp_op -> outcome sparse -> Prop :=
| hist_nil : forall M, sp_history M [] (Ret M)
| hist_ret : forall M op ops M' res, sp_call M op (Ret M') -> sp_history M' ops res -> sp_history M (op :: ops) res
| hist_throw : forall M op ops res, sp_call M op Throws -> sp_history M ops res -> sp_history M (op :: ops) res
| hist_undef : forall M op ops, sp_call M op Undef -> sp_history M (op :: ops) Undef.

(** The same history on the mathematical matrix. *)
Inductive bm_history : nat -> nat -> (nat -> nat -> bool) -> list sp_op -> nat -> nat -> (nat -> nat -> bool) -> Prop :=
| bm_nil : forall n m f, bm_history n m f [] n m f
| bm_step : forall n m f op ops n1 m1 f1 n' m' f', ~ op_error n m f op -> op_spec n m f op n1 m1 f1 -> bm_history n1 m1 f1 ops n' m' f' -> bm_history n m f (op :: ops) n' m' f'
| bm_error : forall n m f op ops n' m' f', op_error n m f op -> bm_history n m f ops n' m' f' -> bm_history n m f (op :: ops) n' m' f'.

(** Every resize of a history has positive sizes that fit an int. *)
Definition ops_ok (ops : list sp_op) : Prop := forall n m o, In (Resize n m o) ops -> 0 < n /\ 0 < m /\ (Z.of_nat n < 2 ^ 31)%Z /\ (Z.of_nat m < 2 ^ 31)%Z.

(** Product over GF(2) of matrices with [k] columns and [k] rows. *)
Definition bit_prod (k : nat) (f g : nat -> nat -> bool) (i j : nat) : bool :=
  fold_right xorb false (map (fun q => f i q && g q j) (seq 0 k)).
