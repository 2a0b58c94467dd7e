(** Message passing on the graph of a parity-check matrix, as a textbook gives it.  The matrix h has N rows, the variables,
    and M columns, the checks: h v c tells whether variable v takes part in check c.  Values are rationals; [rnd] is applied
    to the result of every addition and subtraction (the identity for exact arithmetic). *)
From Coq Require Import List Arith Bool ZArith QArith Qabs Qminmax Qround Permutation.
From Verif Require Import Base.
Import ListNotations.
Local Open Scope nat_scope.

(** The min-sum rule of a check node: what it sends to a variable, from the values of the other variables: the product of
    their signs and the smallest of their magnitudes (at most [mx]), corrected by [g] and not below zero. *)
Definition negative (q : Q) : bool := if Qlt_le_dec q 0 then true else false.
Definition odd_negative (l : list Q) : bool := Nat.odd (length (filter negative l)).
Definition smallest (mx : Q) (l : list Q) : Q := fold_right Qmin mx (map Qabs l).
Definition min_sum (mx : Q) (g : Q -> Q) (l : list Q) : Q :=
  let m := Qmax 0 (g (smallest mx l)) in if odd_negative l then (- m)%Q else m.

(** Functions of a multiset of rationals. *)
Definition symmetric (chk : list Q -> Q) : Prop :=
  forall l l' m, Permutation l m -> Forall2 Qeq m l' -> (chk l == chk l')%Q.

(** What check nodes may send: a value that is not zero only when no other variable is zero, with the sign that satisfies
    the check. *)
Definition sign_rule (chk : list Q -> Q) : Prop :=
  forall l, ((0 < chk l)%Q -> Forall (fun x => ~ (x == 0)%Q) l /\ odd_negative l = false) /\
            ((chk l < 0)%Q -> Forall (fun x => ~ (x == 0)%Q) l /\ odd_negative l = true).

(** Roundings: to nearest values of a set, for instance. *)
Definition rounding (rnd : Q -> Q) : Prop :=
  (forall x y, (x == y)%Q -> (rnd x == rnd y)%Q) /\ (forall x y, (x <= y)%Q -> (rnd x <= rnd y)%Q) /\
  (rnd 0 == 0)%Q /\ (forall x, (rnd (rnd x) == rnd x)%Q).

(** A list without its element of index i. *)
Definition removed {A} (i : nat) (l : list A) : list A := firstn i l ++ skipn (S i) l.

(** The iterations: [cd t] tells whether the decisions after t iterations satisfy all the checks.  The last [d] iterations
    up to [t] do; the number of iterations of a decoder that runs [n] of them or, when [early] is set, ends earlier after
    [d] such iterations. *)
Definition stop (cd : nat -> Prop) (d t : nat) : Prop := d <= t /\ forall j, j < d -> cd (t - j).
Definition halts (cd : nat -> Prop) (early : bool) (d n t : nat) : Prop :=
  1 <= t <= n /\ (t < n -> early = true /\ stop cd d t) /\ (early = true -> forall k, 1 <= k < t -> ~ stop cd d k).

(** The sign of a value is that of the bit. *)
Definition tells (x : bool) (q : Q) : Prop := if x then (q < 0)%Q else (0 < q)%Q.

Section Textbook.
Variables (N M : nat) (h : nat -> nat -> bool) (rnd : Q -> Q) (chk : list Q -> Q).

Definition checks_of (v : nat) : list nat := filter (fun c => h v c) (seq 0 M).
Definition vars_of (c : nat) : list nat := filter (fun v => h v c) (seq 0 N).
Definition others (v : nat) (l : list nat) : list nat := filter (fun w => negb (w =? v)) l.
Definition rsum (l : list Q) : Q := fold_left (fun s x => rnd (s + x)%Q) l 0%Q.

(** Flooding: all the variables send, then all the checks.  [mu c v] is the message from check c to variable v. *)
Section Flooding.
Variable Y : nat -> Q.
Definition posterior (mu : nat -> nat -> Q) (v : nat) : Q := rnd (Y v + rsum (map (fun c => mu c v) (checks_of v)))%Q.
Definition to_check (mu : nat -> nat -> Q) (v c : nat) : Q := rnd (posterior mu v - mu c v)%Q.
Definition to_var (nu : nat -> nat -> Q) (c v : nat) : Q := chk (map (fun w => nu w c) (others v (vars_of c))).
Fixpoint messages (t : nat) : nat -> nat -> Q :=
  match t with 0 => fun _ _ => 0%Q | S t => to_var (to_check (messages t)) end.
Definition flooding (t v : nat) : Q := posterior (messages t) v.
End Flooding.

(** Layered by checks: the checks are processed one after the other; each updates its messages and its variables. *)
Definition layer (c : nat) (s : (nat -> Q) * (nat -> nat -> Q)) : (nat -> Q) * (nat -> nat -> Q) :=
  let '(var, mu) := s in
  let con v := rnd (var v - mu c v)%Q in
  let m v := chk (map con (others v (vars_of c))) in
  (fun v => if h v c then rnd (con v + m v)%Q else var v, fun c' v => if c' =? c then m v else mu c' v).
Definition sweep (s : (nat -> Q) * (nat -> nat -> Q)) := fold_left (fun s c => layer c s) (seq 0 M) s.
Fixpoint horizontal (t : nat) (s : (nat -> Q) * (nat -> nat -> Q)) :=
  match t with 0 => s | S t => horizontal t (sweep s) end.

(** Layered by variables: the variables are processed one after the other; all the messages to the variable are computed
    again and the variable takes the sum of their changes. *)
Definition column (v : nat) (s : (nat -> Q) * (nat -> nat -> Q)) : (nat -> Q) * (nat -> nat -> Q) :=
  let '(var, mu) := s in
  let m c := chk (map (fun w => rnd (var w - mu c w)%Q) (others v (vars_of c))) in
  (fun w => if w =? v then rnd (var v + fold_left (fun acc c => rnd (rnd (acc - mu c v) + m c)) (checks_of v) 0)%Q else var w,
   fun c w => if (w =? v) && h v c then m c else mu c w).
Definition vsweep (s : (nat -> Q) * (nat -> nat -> Q)) := fold_left (fun s v => column v s) (seq 0 N) s.
Fixpoint vertical (t : nat) (s : (nat -> Q) * (nat -> nat -> Q)) :=
  match t with 0 => s | S t => vertical t (vsweep s) end.
End Textbook.

(** The product by k / 8 of the integer types: the halves, quarters and eighths of the binary writing of k, each rounded down. *)
Definition eighths (k : nat) (x : Q) : Q :=
  if k =? 8 then x else
  ((if Nat.testbit k 2 then inject_Z (Qfloor (x / 2)) else 0) + (if Nat.testbit k 1 then inject_Z (Qfloor (x / 4)) else 0) +
   (if Nat.testbit k 0 then inject_Z (Qfloor (x / 8)) else 0))%Q.
