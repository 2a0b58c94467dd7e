(** What a dense matrix is for its user. *)
From Coq Require Import List Arith Lia Bool ZArith.
From Verif Require Import Base SparseModel SparseSpec FullModel.
Import ListNotations.

(** An n x m array of entries g. *)
Definition fu_shape (M : full) (n m : nat) (g : nat -> nat -> Z) : Prop :=
  fu_rows M = n /\ fu_cols M = m /\ length (fu_m M) = n /\ (forall i, i < n -> length (nth i (fu_m M) []) = m) /\
  (forall i j, i < n -> j < m -> nth j (nth i (fu_m M) []) 0%Z = g i j).

(** The same, with exact degrees and number of ones, and the answers of [at]. *)
Definition fu_exact (M : full) (n m : nat) (g : nat -> nat -> Z) : Prop :=
  let f := fun i j => nz (g i j) in
  fu_shape M n m g /\
  (forall r c, fu_at M r c = if (c <? m) && (r <? n) then Ret (f r c) else Throws) /\
  length (fu_rd M) = n /\ length (fu_cd M) = m /\
  (forall i, i < n -> nth i (fu_rd M) 0 = row_deg f m i) /\ (forall j, j < m -> nth j (fu_cd M) 0 = col_deg f n j) /\
  fu_n M = ones f n m /\ fu_rmax M = list_max (map (row_deg f m) (seq 0 n)) /\ fu_cmax M = list_max (map (col_deg f n) (seq 0 m)).

Definition fu_error (n m : nat) (g : nat -> nat -> Z) (op : fu_op) : Prop :=
  match op with
  | FAdd r c => n <= r \/ m <= c \/ g r c <> 0%Z
  | FRm r c => n <= r \/ m <= c
  | _ => False
  end.

(** Effect of a call on the entries. *)
Definition fu_spec (n m : nat) (g : nat -> nat -> Z) (op : fu_op) (n' m' : nat) (g' : nat -> nat -> Z) : Prop :=
  match op with
  | FAdd r c => n' = n /\ m' = m /\ forall i j, i < n -> j < m -> g' i j = if (i =? r) && (j =? c) then 1%Z else g i j
  | FRm r c => n' = n /\ m' = m /\ forall i j, i < n -> j < m -> g' i j = if (i =? r) && (j =? c) then 0%Z else g i j
  | FTranspose => n' = m /\ m' = n /\ forall i j, i < m -> j < n -> g' i j = g j i
  | FTurn w =>
      if (match w with VERTICAL => n <? m | HORIZONTAL => m <? n end)
      then n' = m /\ m' = n /\ forall i j, i < m -> j < n -> g' i j = g j i
      else n' = n /\ m' = m /\ forall i j, i < n -> j < m -> g' i j = g i j
  | FSort o => n' = n /\ m' = m /\ exists s, is_perm m s /\ (forall i j, i < n -> j < m -> g' i j = g i (nth j s 0)) /\
      let f' := fun i j => nz (g' i j) in
      forall a b, a < b < m -> match o with ASCENDING => col_deg f' n a <= col_deg f' n b | DESCENDING => col_deg f' n b <= col_deg f' n a end
  | FParse => n' = n /\ m' = m /\ forall i j, i < n -> j < m -> g' i j = g i j
  end.

(** The calls considered: parse_connections needs a row and a column. *)
Definition fu_op_ok (n m : nat) (op : fu_op) : Prop := match op with FParse => 0 < n /\ 0 < m | _ => True end.

Inductive fu_history : nat -> nat -> (nat -> nat -> Z) -> list fu_op -> nat -> nat -> (nat -> nat -> Z) -> Prop :=
| fh_nil : forall n m g, fu_history n m g [] n m g
| fh_step : forall n m g op ops n1 m1 g1 n' m' g', ~ fu_error n m g op -> fu_spec n m g op n1 m1 g1 -> fu_history n1 m1 g1 ops n' m' g' -> fu_history n m g (op :: ops) n' m' g'
| fh_error : forall n m g op ops n' m' g', fu_error n m g op -> fu_history n m g ops n' m' g' -> fu_history n m g (op :: ops) n' m' g'.

(** Resizing keeps the entries aligned on the chosen corner and fills with zeros. *)
Definition resized (o : origin) (n m n' m' : nat) (g : nat -> nat -> Z) (i j : nat) : Z :=
  match src_row o n n' i, src_col o m m' j with Some a, Some b => g a b | _, _ => 0%Z end.
