(** What the list decoder properties say. *)
From Coq Require Import List Arith ZArith Lia Bool Permutation.
From Verif Require Import Base PolarSpec.
Import ListNotations.

Section Spec.
  (** kernels of the decoder *)
  Variable f : Z -> Z -> Z.
  Variable g : Z -> Z -> bool -> Z.

  Definition lo (n : nat) (y : list Z) : list Z := firstn (2 ^ n) y.
  Definition hi (n : nat) (y : list Z) : list Z := skipn (2 ^ n) y.
  Fixpoint map2 {A B C} (h : A -> B -> C) (a : list A) (b : list B) : list C :=
    match a, b with x :: a', z :: b' => h x z :: map2 h a' b' | _, _ => [] end.

  (** Successive cancellation: the LLR of the bit number [length u] of a code of length
      2^n that received [y] when the bits before it are [u]. *)
  Fixpoint sc_llr (n : nat) (y : list Z) (u : list bool) : Z :=
    match n with
    | O => hd 0%Z y
    | S n' =>
      if length u <? 2 ^ n'
      then sc_llr n' (map2 f (lo n' y) (hi n' y)) u
      else sc_llr n' (map2 (fun ab c => g (fst ab) (snd ab) c)
                        (combine (lo n' y) (hi n' y)) (arikan (2 ^ n') (firstn (2 ^ n') u)))
                     (skipn (2 ^ n') u)
    end.

  (** Price of deciding [b] against the LLR [l]. *)
  Definition penalty (l : Z) (b : bool) : Z :=
    if (if b then 0 <? l else l <? 0)%Z then Z.abs l else 0%Z.

  (** Metric of a path: total price of its decisions. *)
  Fixpoint sumz (n : nat) (h : nat -> Z) : Z :=
    match n with O => 0%Z | S n' => (sumz n' h + h n')%Z end.
  Definition path_metric (n : nat) (y : list Z) (u : list bool) : Z :=
    sumz (length u) (fun k => penalty (sc_llr n y (firstn k u)) (nth k u false)).

  (** The two extensions of every path. *)
  Definition extend (C : list (list bool)) : list (list bool) :=
    flat_map (fun u => [u ++ [false]; u ++ [true]]) C.

  (** The lists of paths a list decoder of size [L] can hold after each leaf: a frozen bit
      extends every path with 0, an information bit extends every path both ways and
      keeps [L] extensions of smallest metric (all of them while there is room). *)
  Inductive survivors (n L : nat) (fb : list bool) (y : list Z)
    : nat -> list (list bool) -> Prop :=
  | surv_start : survivors n L fb y 0 [[]]
  | surv_frozen : forall i C C', survivors n L fb y i C -> nth i fb true = true ->
      Permutation C' (map (fun u => u ++ [false]) C) -> survivors n L fb y (S i) C'
  | surv_info : forall i C C' D, survivors n L fb y i C -> nth i fb true = false ->
      Permutation (C' ++ D) (extend C) ->
      length C' = Nat.min L (2 * length C) ->
      (forall c d, In c C' -> In d D -> (path_metric n y c <= path_metric n y d)%Z) ->
      survivors n L fb y (S i) C'.
End Spec.

(** Discrepancy of the word [x] with the received LLRs: total weight of the positions
    where it contradicts their sign. *)
Definition discrepancy (y : list Z) (x : list bool) : Z :=
  sumz (length y) (fun j => penalty (nth j y 0%Z) (nth j x false)).
(** Correlation of [x] (0 counts +1, 1 counts -1) with the LLRs. *)
Definition correlation (y : list Z) (x : list bool) : Z :=
  sumz (length y) (fun j => if nth j x false then - nth j y 0 else nth j y 0)%Z.
