(** The turbo decoding of one frame, independently of the buffers and of the waves. *)
From Coq Require Import List Arith ZArith Bool.
From Verif Require Import Base.
Import ListNotations.

(** Where the values of the constituent decoders are in a received frame: K messages bits,
    [tn] and [ti] termination steps.  Buffered layout: systematic bits and their tail,
    parities of the first code, systematic tail of the second one, parities of the second one.
    Standard layout: K triplets, then the tails by pairs (systematic, parity). *)
Definition pos_sn (buffered : bool) (K i : nat) : nat := if buffered then i else if i <? K then 3 * i else 3 * K + 2 * (i - K).
Definition pos_pn (buffered : bool) (K tn i : nat) : nat := if buffered then K + tn + i else if i <? K then 3 * i + 1 else 3 * K + 2 * (i - K) + 1.
Definition pos_ti (buffered : bool) (K tn i : nat) : nat := if buffered then 2 * (K + tn) + i else 3 * K + 2 * tn + 2 * i.
Definition pos_pi (buffered : bool) (K tn ti i : nat) : nat := if buffered then 2 * (K + tn) + ti + i else if i <? K then 3 * i + 2 else 3 * K + 2 * tn + 2 * (i - K) + 1.

Section Ideal.
Variable T : Type.
Variables (zero : T) (add : T -> T -> T).
(** The constituent decoders: extrinsic values from the systematic values and the parities. *)
Variables (Gn Gi : list T -> list T -> list T).
Variables (K tn ti : nat) (buffered : bool).
(** The tables of the interleaver for this frame; the scalings applied at iteration k. *)
Variables (lut inv : list nat) (fn fi : nat -> T -> T).
(** The received frame. *)
Variable Y : list T.

Definition at_ (n : nat) (pos : nat -> nat) : list T := tab n (fun i => nth (pos i) Y zero).
Definition sys_n := at_ K (pos_sn buffered K).
Definition tail_n := at_ tn (fun i => pos_sn buffered K (K + i)).
Definition par_n := at_ (K + tn) (pos_pn buffered K tn).
Definition tail_i := at_ ti (pos_ti buffered K tn).
Definition par_i := at_ (K + ti) (pos_pi buffered K tn ti).

Definition plus (a b : list T) : list T := tab K (fun i => add (nth i a zero) (nth i b zero)).
Definition gather (t : list nat) (x : list T) : list T := map (fun p => nth p x zero) t.

(** The extrinsic values after the first decoder of iteration k, from a priori values e. *)
Definition after_n (k : nat) (e : list T) : list T := map (fn k) (Gn (plus sys_n e ++ tail_n) par_n).
(** The input of the second decoder, from the extrinsic values a of the first one; its output. *)
Definition input_i (a : list T) : list T := plus (gather lut sys_n) (gather lut a).
Definition after_i (k : nat) (a : list T) : list T := map (fi k) (Gi (input_i a ++ tail_i) par_i).
(** The a priori values after k iterations. *)
Fixpoint apriori (k : nat) : list T :=
  match k with
  | O => repeat zero K
  | S j => gather inv (after_i k (after_n k (apriori j)))
  end.
(** The a posteriori values of iteration k >= 1, after the first and after the second decoder. *)
Definition post_n (k : nat) : list T := plus (plus sys_n (apriori (k - 1))) (after_n k (apriori (k - 1))).
Definition post_i (k : nat) : list T :=
  let a := after_n k (apriori (k - 1)) in gather inv (plus (after_i k a) (input_i a)).
End Ideal.

(** The decision of a value. *)
Definition hard {T} (lt0 : T -> bool) (x : T) : Z := if lt0 x then 1%Z else 0%Z.

(** The element i of each of [nf] frames side by side: element i of frame f at i * nf + f. *)
Definition mix {A} (d : A) (nf n : nat) (fr : nat -> list A) : list A := tab (n * nf) (fun q => nth (q / nf) (fr (q mod nf)) d).
(** Frame f of such an array. *)
Definition deal {A} (d : A) (nf f n : nat) (b : list A) : list A := tab n (fun i => nth (i * nf + f) b d).

(** A SISO decoder computes the extrinsic values [G] of each frame of a wave, whatever its
    state, when the arrays are large enough. *)
Definition computes {T S} (zero : T) (nf K t : nat) (alt : S -> list T -> list T -> list T -> outcome (S * list T))
    (G : list T -> list T -> list T) (ok : S -> Prop) : Prop :=
  (forall sys par, length (G sys par) = K) /\
  forall st sys par ext, ok st -> (K + t) * nf <= length sys -> (K + t) * nf <= length par -> K * nf <= length ext ->
  exists st' ext', alt st sys par ext = Ret (st', ext') /\ ok st' /\ length ext' = length ext /\
    forall f, f < nf -> deal zero nf f K ext' = G (deal zero nf f (K + t) sys) (deal zero nf f (K + t) par).
