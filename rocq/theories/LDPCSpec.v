(** Binary linear codes, as a user of the LDPC encoders sees them. *)
From Coq Require Import List Arith Lia Bool ZArith.
From Verif Require Import Base SparseModel SparseSpec.
Import ListNotations.

(** Sum modulo 2 of p(0), ..., p(k-1). *)
Definition parity (k : nat) (p : nat -> bool) : bool := fold_right xorb false (map p (seq 0 k)).

(** x satisfies the M checks of the matrix h, whose rows are the N variables and whose columns are the checks. *)
Definition in_code (N M : nat) (h : nat -> nat -> bool) (x : nat -> bool) : Prop :=
  forall c, c < M -> parity N (fun v => h v c && x v) = false.

(** The matrix given by the user, in either orientation: S is f (n x m, n >= m) or, when m < n, its transpose. *)
Definition given (S : sparse) (n m : nat) (f : nat -> nat -> bool) : Prop :=
  m <= n /\ (sp_is S n m f \/ (m < n /\ sp_is S m n (fun i j => f j i))).

(** Arrays of bits: 0 or 1 in every element; the bit of index i. *)
Definition bits (l : list Z) : Prop := forall z, In z l -> z = 0%Z \/ z = 1%Z.
Definition bit (l : list Z) (i : nat) : bool := negb (nth i l 0 =? 0)%Z.

(** A square matrix with a nonzero vector in its kernel. *)
Definition singular (n : nat) (a : nat -> nat -> bool) : Prop :=
  exists x, (exists k, k < n /\ x k = true) /\ forall i, i < n -> parity n (fun j => a i j && x j) = false.

(** Products equal to the identity. *)
Definition inverse (n : nat) (a b : nat -> nat -> bool) : Prop :=
  forall i j, i < n -> j < n -> bit_prod n a b i j = (i =? j) /\ bit_prod n b a i j = (i =? j).

(** Column c of the parity part (rows K ..) of an IRA matrix: ones on the diagonal and just below it. *)
Definition dual_diagonal (K M : nat) (h : nat -> nat -> bool) : Prop :=
  forall i c, i < M -> c < M -> h (K + i) c = (i =? c) || (S i =? c).
