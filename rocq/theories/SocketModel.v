(** Sockets: include/Module/Socket.hpp and Socket.hxx.
    A socket is named by its index in the heap (its address); references are indices of the heap. The owner task, the names
    and the messages of the exceptions are left out. A function gives the heap it leaves, also when it throws. *)
From Coq Require Import List Arith Lia Bool ZArith.
From Verif Require Import Base.
Import ListNotations.

Record socket := mkSocket {
  datatype : nat;              (* index in int8, int16, int32, int64, float32, float64 *)
  databytes : nat;
  fast : bool;
  dataptr : option nat;        (* None: nullptr *)
  bound_sockets : list nat;
  bound_socket : option nat;
  is_sin : bool }.             (* type = SIN (else SOUT) *)
Definition heap := list socket.
Definition null_socket := mkSocket 0 0 false None [] None false.
Definition get (h : heap) (a : nat) : socket := nth a h null_socket.
Definition modify (h : heap) (a : nat) (f : socket -> socket) : heap := upd h a (f (get h a)).

Definition with_type (v : nat) (s : socket) := mkSocket v (databytes s) (fast s) (dataptr s) (bound_sockets s) (bound_socket s) (is_sin s).
Definition with_bytes (v : nat) (s : socket) := mkSocket (datatype s) v (fast s) (dataptr s) (bound_sockets s) (bound_socket s) (is_sin s).
Definition with_fast (v : bool) (s : socket) := mkSocket (datatype s) (databytes s) v (dataptr s) (bound_sockets s) (bound_socket s) (is_sin s).
Definition with_ptr (v : option nat) (s : socket) := mkSocket (datatype s) (databytes s) (fast s) v (bound_sockets s) (bound_socket s) (is_sin s).
Definition with_cons (v : list nat) (s : socket) := mkSocket (datatype s) (databytes s) (fast s) (dataptr s) v (bound_socket s) (is_sin s).
Definition with_prod (v : option nat) (s : socket) := mkSocket (datatype s) (databytes s) (fast s) (dataptr s) (bound_sockets s) v (is_sin s).

(** Socket.hxx 19-24: type_to_size *)
Definition type_size (t : nat) : nat := nth t [1; 2; 4; 8; 4; 8] 0.
(** 26-41: the constructor *)
Definition new_socket (h : heap) (t bytes : nat) (sin fst_ : bool) (p : option nat) : outcome heap :=
  if type_size t =? 0 then Undef else
  _ <- guard (bytes mod type_size t =? 0) ;; Ret (h ++ [mkSocket t bytes fst_ p [] None sin]).

(** std::find, and the position found *)
Fixpoint find_pos (a : nat) (l : list nat) : option nat :=
  match l with [] => None | b :: l' => if a =? b then Some 0 else option_map S (find_pos a l') end.
Definition erase_at (p : nat) (l : list nat) : list nat := firstn p l ++ skipn (S p) l.
Definition insert_at (p : nat) (a : nat) (l : list nat) : list nat := firstn p l ++ a :: skipn p l.
Definition opt_is (o : option nat) (b : nat) : bool := match o with Some c => c =? b | None => false end.
Definition is_none {A} (o : option A) : bool := match o with None => true | _ => false end.

(** 507-572: unbind; the position that the socket had *)
Definition unbind (h : heap) (this s_out : nat) : heap * outcome nat :=
  match bound_socket (get h this) with
  | None => (h, Throws)
  | Some b =>
    if negb (b =? s_out) then (h, Throws) else
    let h := modify h this (with_prod None) in
    match find_pos this (bound_sockets (get h s_out)) with
    | Some p => (modify h s_out (fun s => with_cons (erase_at p (bound_sockets s)) s), Ret p)
    | None => (h, Throws)
    end
  end.

(** 139-231: bind to another socket; the priority is an int, converted to size_t (64 bits) in the comparison *)
Definition bind_checks (h : heap) (this s_out : nat) : bool :=
  fast (get h this) || ((datatype (get h s_out) =? datatype (get h this)) && (databytes (get h s_out) =? databytes (get h this)) && negb (is_none (dataptr (get h s_out)))).
Definition bind (h : heap) (this s_out : nat) (priority : Z) : heap * outcome unit :=
  if negb (bind_checks h this s_out) then (h, Throws) else
  let hr := if opt_is (bound_socket (get h this)) s_out then unbind h this s_out else (h, Ret 0) in
  let h := fst hr in
  match snd hr with
  | Ret _ =>
    if negb (is_none (bound_socket (get h this))) then (h, Throws) else
    let h := modify h this (with_prod (Some s_out)) in
    if negb (is_none (find_pos this (bound_sockets (get h s_out)))) then (h, Throws) else
    let l := bound_sockets (get h s_out) in
    let up := (if priority <? 0 then priority + 2 ^ 64 else priority)%Z in
    let l' := if (Z.of_nat (length l) <? up)%Z || (priority =? -1)%Z then l ++ [this] else insert_at (Z.to_nat priority) this l in
    let h := modify h s_out (with_cons l') in
    (modify h this (with_ptr (dataptr (get h s_out))), Ret tt)
  | _ => (h, Throws)
  end.
(** 359-383: operator= of two sockets *)
Definition assign (h : heap) (this s : nat) : heap * outcome unit :=
  if negb (is_sin (get h s)) && is_sin (get h this) then bind h this s (-1)
  else if is_sin (get h s) && negb (is_sin (get h this)) then bind h s this (-1)
  else (h, Throws).

(** 614-657: check_bound_socket; true when it does not throw *)
Definition unbound (h : heap) (a : nat) : bool := (length (bound_sockets (get h a)) =? 0) && is_none (bound_socket (get h a)).
(** 476-490: bind to memory *)
Definition bind_ptr (h : heap) (this : nat) (p : option nat) : heap * outcome unit :=
  if negb (fast (get h this)) && (is_none p || negb (unbound h this)) then (h, Throws)
  else (modify h this (with_ptr p), Ret tt).
(** 448-468: bind to an array of type t *)
Definition bind_array (h : heap) (this t : nat) (p : option nat) : heap * outcome unit :=
  let h := if fast (get h this) then modify h this (with_ptr p) else h in
  if negb (t =? datatype (get h this)) then (h, Throws) else bind_ptr h this p.
(** 412-432: bind to a vector of n elements of type t; 73-77: get_n_elmts *)
Definition bind_vector (h : heap) (this t n : nat) (p : option nat) : heap * outcome unit :=
  let h := if fast (get h this) then modify h this (with_ptr p) else h in
  if type_size (datatype (get h this)) =? 0 then (h, Undef) else
  if negb (n =? databytes (get h this) / type_size (datatype (get h this))) then (h, Throws) else bind_array h this t p.

(** 498-505: reset. The range-for keeps an iterator in the vector that unbind erases from: undefined behaviour by the
    standard from one consumer on. The model is what the usual implementations do: the iterator is a pointer, the end of the
    loop is computed once, and erase moves the elements that follow and leaves the slots behind the new end as they were.
    [mem] are the slots of the vector, [m] the iterations left, [k] the position of the iterator. *)
Fixpoint reset_loop (m k : nat) (h : heap) (this : nat) (mem : list nat) : heap * outcome unit :=
  match m with
  | 0 => (h, Ret tt)
  | S m' =>
    let hr := unbind h (nth k mem 0) this in
    match snd hr with
    | Ret _ => let live := bound_sockets (get (fst hr) this) in reset_loop m' (S k) (fst hr) this (live ++ skipn (length live) mem)
    | _ => (fst hr, Throws)
    end
  end.
Definition reset (h : heap) (this : nat) : heap * outcome unit :=
  let hr := match bound_socket (get h this) with Some b => unbind h this b | None => (h, Ret 0) end in
  match snd hr with
  | Ret _ => let l := bound_sockets (get (fst hr) this) in reset_loop (length l) 0 (fst hr) this l
  | _ => (fst hr, Throws)
  end.

(** 133-137, 584-612: the setters *)
Definition set_fast (h : heap) (a : nat) (v : bool) : heap * outcome unit := (modify h a (with_fast v), Ret tt).
Definition set_datatype (h : heap) (a v : nat) : heap * outcome unit :=
  if v =? datatype (get h a) then (h, Ret tt) else if unbound h a then (modify h a (with_type v), Ret tt) else (h, Throws).
Definition set_databytes (h : heap) (a v : nat) : heap * outcome unit :=
  if v =? databytes (get h a) then (h, Ret tt) else if unbound h a then (modify h a (with_bytes v), Ret tt) else (h, Throws).
Definition same_ptr (p q : option nat) : bool := match p, q with None, None => true | Some x, Some y => x =? y | _, _ => false end.
Definition set_dataptr (h : heap) (a : nat) (v : option nat) : heap * outcome unit :=
  if same_ptr v (dataptr (get h a)) then (h, Ret tt) else if unbound h a then (modify h a (with_ptr v), Ret tt) else (h, Throws).

(** The calls on a set of sockets, and the heap after a history of calls, each of which returns or throws *)
Inductive call :=
| Bind (this s_out : nat) (priority : Z) | Assign (this s : nat) | Unbind (this s_out : nat) | Reset (this : nat)
| BindPtr (this : nat) (p : option nat) | BindArray (this t : nat) (p : option nat) | BindVector (this t n : nat) (p : option nat)
| SetFast (this : nat) (v : bool) | SetType (this v : nat) | SetBytes (this v : nat) | SetPtr (this : nat) (v : option nat).
Definition perform (h : heap) (c : call) : heap :=
  match c with
  | Bind a b p => fst (bind h a b p) | Assign a b => fst (assign h a b) | Unbind a b => fst (unbind h a b) | Reset a => fst (reset h a)
  | BindPtr a p => fst (bind_ptr h a p) | BindArray a t p => fst (bind_array h a t p) | BindVector a t n p => fst (bind_vector h a t n p)
  | SetFast a v => fst (set_fast h a v) | SetType a v => fst (set_datatype h a v) | SetBytes a v => fst (set_databytes h a v) | SetPtr a v => fst (set_dataptr h a v)
  end.
Definition history (h : heap) (cs : list call) : heap := fold_left perform cs h.
