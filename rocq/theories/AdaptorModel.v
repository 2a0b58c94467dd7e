(** Adaptors between the stages of a pipeline: src/Module/Adaptor/Adaptor_1_to_n.cpp, Adaptor_n_to_1.cpp, Adaptor.cpp and
    include/Module/Adaptor/Adaptor.hxx, as a transition system whose steps are interleaved in any order.

    One clone of the adaptor is used by one thread, as in Pipeline.cpp.  The thread One runs push_1 (1 to n) or pull_1
    (n to 1) on the ring cur_id; the thread Many i runs pull_n or push_n on its ring i.  The mutexes and condition variables
    are those of the thread that sleeps on them: those of One are mtx_put, cnd_put (1 to n) or mtx_pull, cnd_pull (n to 1),
    those of Many i are mtx_pull[i], cnd_pull[i] or mtx_put[i], cnd_put[i].

    Simplifications: the accesses to the atomics are sequentially consistent (the default order of std::atomic); the
    counters do not wrap (2^64 items); is_full && !waiting_canceled is one step, because each counter has one writer, so
    that only one of its loads is of a value that another thread changes, and waiting_canceled only goes from false to true;
    a socket is copied in one step (C43_no_race: no other thread uses that slot meanwhile). The no-copy mode is not here. *)
From Coq Require Import List Arith Lia Bool.
From Verif Require Import Base.
Import ListNotations.

Inductive tid := One | Many (i : nat).
Definition tid_dec : forall a b : tid, {a = b} + {a <> b}.
Proof. decide equality. apply Nat.eq_dec. Defined.

(** Where a thread is, in push_1, pull_n, push_n or pull_1. *)
Inductive pc :=
| Idle              (* outside of the adaptor *)
| Wait              (* wait_push, wait_pull: the condition of the while (active) or of the if (passive) *)
| Lock              (* unique_lock, or the lock taken again on leaving the sleep *)
| Pred              (* the predicate of cnd.wait, with the lock *)
| Sleep             (* asleep in cnd.wait, without the lock *)
| Unlock            (* the predicate holds: the end of the scope of the lock *)
| Test              (* if (waiting_canceled) throw *)
| Thrown            (* waiting_canceled was thrown *)
| Copy (s : nat)    (* the loop on the sockets *)
| Bump              (* wake_up_puller, wake_up_pusher: the counter *)
| NCheck            (* the test before the notification *)
| NLock             (* lock_guard *)
| Notify            (* notify_one, with the lock *)
| NUnlock           (* the end of the scope of the lock *)
| Next.             (* the next cur_id, for One; the end of the call *)

(** Where a call of cancel_waiting is. *)
Inductive cpc := COff | CLock (j : nat) | CNotify (j : nat) | CUnlock (j : nat) | CDone.

Inductive actor := T (t : tid) | C (k : nat).

Section Adaptor.
Variable D : Type.             (* the content of the buffer of a socket *)
Variable d0 : D.
Variable one_to_n : bool.      (* Adaptor_1_to_n, or Adaptor_n_to_1 *)
Variable n : nat.              (* buffer->size(): the number of clones *)
Variable used : nat -> bool.   (* buffer[i].size() != 0: the clone i was not destroyed *)
Variable size : nat.           (* buffer_size *)
Variable nsock : nat.          (* n_sockets *)
Variable active : bool.        (* active_waiting *)
Variable tgt : nat -> tid.     (* the clone on which the k-th call of cancel_waiting is made *)
Variable ncan : nat.           (* the number of calls of cancel_waiting *)

Record st := mkSt {
  first : nat -> nat; last : nat -> nat;
  buf : nat -> nat -> nat -> D;              (* buffer[ring][socket][slot] *)
  cur : nat;                                 (* cur_id of One *)
  canc : tid -> bool;                        (* waiting_canceled of each clone (deep_copy gives each clone its own) *)
  mtx : tid -> option actor;                 (* the owner of each mutex *)
  pcs : tid -> pc;
  item : tid -> list D;                      (* the data to push, or the data pulled so far *)
  cpcs : nat -> cpc;
  hpush : list (nat * list D);               (* the pushes in order: ring, data (not in the program) *)
  hpull : list (nat * list D) }.             (* the pulls in order: ring, data (not in the program) *)

Definition tset {A} (f : tid -> A) (t : tid) (v : A) : tid -> A := fun u => if tid_dec u t then v else f u.
Definition nset {A} (f : nat -> A) (i : nat) (v : A) : nat -> A := fun j => if Nat.eq_dec j i then v else f j.

Definition set_pc (s : st) (t : tid) (p : pc) : st :=
  mkSt (first s) (last s) (buf s) (cur s) (canc s) (mtx s) (tset (pcs s) t p) (item s) (cpcs s) (hpush s) (hpull s).
Definition set_mtx (s : st) (t : tid) (o : option actor) : st :=
  mkSt (first s) (last s) (buf s) (cur s) (canc s) (tset (mtx s) t o) (pcs s) (item s) (cpcs s) (hpush s) (hpull s).
Definition set_item (s : st) (t : tid) (l : list D) : st :=
  mkSt (first s) (last s) (buf s) (cur s) (canc s) (mtx s) (pcs s) (tset (item s) t l) (cpcs s) (hpush s) (hpull s).
Definition set_cpc (s : st) (k : nat) (p : cpc) : st :=
  mkSt (first s) (last s) (buf s) (cur s) (canc s) (mtx s) (pcs s) (item s) (nset (cpcs s) k p) (hpush s) (hpull s).
Definition set_canc (s : st) (t : tid) (b : bool) : st :=
  mkSt (first s) (last s) (buf s) (cur s) (tset (canc s) t b) (mtx s) (pcs s) (item s) (cpcs s) (hpush s) (hpull s).
Definition set_cur (s : st) (c : nat) : st :=
  mkSt (first s) (last s) (buf s) c (canc s) (mtx s) (pcs s) (item s) (cpcs s) (hpush s) (hpull s).
Definition set_buf (s : st) (i k slot : nat) (v : D) : st :=
  mkSt (first s) (last s) (fun i' k' slot' => if Nat.eq_dec i' i then if Nat.eq_dec k' k then if Nat.eq_dec slot' slot then v else buf s i' k' slot' else buf s i' k' slot' else buf s i' k' slot')
    (cur s) (canc s) (mtx s) (pcs s) (item s) (cpcs s) (hpush s) (hpull s).

(** The threads that exist: those of the clones that were not destroyed. *)
Definition exists_ (t : tid) : bool := match t with One => true | Many i => (i <? n) && used i end.

(** this->cur_id for One, this->id for the others *)
Definition ring (s : st) (t : tid) : nat := match t with One => cur s | Many i => i end.
Definition pushes (t : tid) : bool := match t with One => one_to_n | Many _ => negb one_to_n end.
(** Adaptor.hxx 142-165 *)
Definition is_empty (s : st) (i : nat) : bool := first s i =? last s i.
Definition is_full (s : st) (i : nat) : bool := last s i =? first s i + size.
(** is_full(...) && !*waiting_canceled (1_to_n 56, 60, 65; n_to_1), is_empty(...) && !*waiting_canceled (79, 83, 88) *)
Definition blocked (s : st) (t : tid) : bool :=
  (if pushes t then is_full s (ring s t) else is_empty s (ring s t)) && negb (canc s t).

(** The thread whose condition variable is notified: 1_to_n 134-135 and 155-156, n_to_1 134-135 and 149-150 *)
Definition mate (s : st) (t : tid) : tid := match t with One => Many (cur s) | Many _ => One end.

(** notify_one and notify_all on the condition variable of t: t is the only thread that can sleep on it. *)
Definition wake (s : st) (t : tid) : st := match pcs s t with Sleep => set_pc s t Lock | _ => s end.

(** 1_to_n 139-143, n_to_1 154-158: do cur_id = (cur_id + 1) % buffer->size() while buffer[cur_id].size() == 0 *)
Fixpoint skip (fuel c : nat) : nat :=
  let c := (c + 1) mod n in match fuel with 0 => c | S fuel => if used c then c else skip fuel c end.
Definition next (c : nat) : nat := skip n c.

(** A step of a thread; None when it cannot move. *)
Definition run_thread (t : tid) (s : st) : option st :=
  match pcs s t with
  | Idle | Thrown | Sleep => None
  (* 1_to_n 51-94 (wait_push, wait_pull) *)
  | Wait => if blocked s t then (if active then Some s else Some (set_pc s t Lock)) else Some (set_pc s t Test)
  | Lock => match mtx s t with None => Some (set_mtx (set_pc s t Pred) t (Some (T t))) | Some _ => None end
  | Pred => if blocked s t then Some (set_mtx (set_pc s t Sleep) t None) else Some (set_pc s t Unlock)
  | Unlock => Some (set_mtx (set_pc s t Test) t None)
  | Test => Some (set_pc s t (if canc s t then Thrown else Copy 0))
  (* 22-29, 39-46 with get_empty_buffer and get_filled_buffer (97-107) *)
  | Copy k =>
      if k =? nsock then Some (set_pc s t Bump) else
      if pushes t
      then Some (set_buf (set_pc s t (Copy (S k))) (ring s t) k (last s (ring s t) mod size) (nth k (item s t) d0))
      else Some (set_item (set_pc s t (Copy (S k))) t (item s t ++ [buf s (ring s t) k (first s (ring s t) mod size)]))
  (* 125-159 (wake_up_puller, wake_up_pusher) *)
  | Bump =>
      let p := if active then Next else NCheck in
      let i := ring s t in
      if pushes t
      then Some (mkSt (first s) (nset (last s) i (S (last s i))) (buf s) (cur s) (canc s) (mtx s) (tset (pcs s) t p) (item s) (cpcs s) (hpush s ++ [(i, item s t)]) (hpull s))
      else Some (mkSt (nset (first s) i (S (first s i))) (last s) (buf s) (cur s) (canc s) (mtx s) (tset (pcs s) t p) (item s) (cpcs s) (hpush s) (hpull s ++ [(i, item s t)]))
  | NCheck => Some (set_pc s t (if (if pushes t then is_empty s (ring s t) else is_full s (ring s t)) then Next else NLock))
  | NLock => match mtx s (mate s t) with None => Some (set_mtx (set_pc s t Notify) (mate s t) (Some (T t))) | Some _ => None end
  | Notify => Some (wake (set_pc s t NUnlock) (mate s t))
  | NUnlock => Some (set_mtx (set_pc s t Next) (mate s t) None)
  | Next => Some (match t with One => set_cur (set_pc s t Idle) (next (cur s)) | Many _ => set_pc s t Idle end)
  end.

(** 161-176 (wake_up): the clones in order, then the mutex of One *)
Definition cmtx (j : nat) : tid := if j <? n then Many j else One.
Definition run_cancel (k : nat) (s : st) : option st :=
  match cpcs s k with
  | COff | CDone => None
  | CLock j =>
      if (j <? n) && negb (used j) then Some (set_cpc s k (CLock (S j))) else
      match mtx s (cmtx j) with None => Some (set_mtx (set_cpc s k (CNotify j)) (cmtx j) (Some (C k))) | Some _ => None end
  | CNotify j => Some (wake (set_cpc s k (CUnlock j)) (cmtx j))
  | CUnlock j => Some (set_mtx (set_cpc s k (if j <? n then CLock (S j) else CDone)) (cmtx j) None)
  end.

(** What can happen: a thread enters push (with the data of its sockets) or pull; a call of cancel_waiting starts
    (178-183: the store of send_cancel_signal, Adaptor.cpp 65-69, then wake_up); a condition variable wakes up by itself;
    an actor makes a step. *)
Inductive label := LBegin (t : tid) (l : list D) | LCancel (k : nat) | LSpurious (t : tid) | LRun (a : actor).

Definition exec (l : label) (s : st) : option st :=
  match l with
  | LBegin t l =>
      match pcs s t with
      | Idle => if exists_ t && (negb (pushes t) || (length l =? nsock))
                then Some (set_item (set_pc s t Wait) t (if pushes t then l else [])) else None
      | _ => None
      end
  | LCancel k =>
      match cpcs s k with
      | COff => if k <? ncan then Some (set_canc (set_cpc s k (if active then CDone else CLock 0)) (tgt k) true) else None
      | _ => None
      end
  | LSpurious t => match pcs s t with Sleep => Some (set_pc s t Lock) | _ => None end
  | LRun (T t) => run_thread t s
  | LRun (C k) => run_cancel k s
  end.

Fixpoint execs (ls : list label) (s : st) : option st :=
  match ls with [] => Some s | l :: ls => match exec l s with Some s => execs ls s | None => None end end.

(** Adaptor.hxx 14-60 (constructor) and Adaptor.cpp 71-79 (reset): the buffers hold anything *)
Definition init (b : nat -> nat -> nat -> D) : st :=
  mkSt (fun _ => 0) (fun _ => 0) b 0 (fun _ => false) (fun _ => None) (fun _ => Idle) (fun _ => []) (fun _ => COff) [] [].

(** Adaptor.cpp 71-79 (reset) on the clone t; cur_id is used by One only *)
Definition reset (t : tid) (s : st) : st :=
  mkSt (fun _ => 0) (fun _ => 0) (buf s) (match t with One => 0 | _ => cur s end) (tset (canc s) t false) (mtx s) (pcs s) (item s) (cpcs s) (hpush s) (hpull s).
End Adaptor.

Arguments mkSt {D}. Arguments first {D}. Arguments last {D}. Arguments buf {D}. Arguments cur {D}. Arguments canc {D}.
Arguments mtx {D}. Arguments pcs {D}. Arguments item {D}. Arguments cpcs {D}. Arguments hpush {D}. Arguments hpull {D}.
Arguments LBegin {D}. Arguments LCancel {D}. Arguments LSpurious {D}. Arguments LRun {D}. Arguments ring {D}. Arguments is_empty {D}.
Arguments is_full {D}. Arguments blocked {D}. Arguments mate {D}.
