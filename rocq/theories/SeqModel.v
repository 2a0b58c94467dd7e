(** Construction and execution of a sequence: src/Tools/Sequence/Sequence.cpp. *)
From Coq Require Import List Arith Lia Bool ZArith.
From Verif Require Import Base.
Import ListNotations.

(** ** Order of the tasks (Sequence.cpp 250-330, 818-1158): the graphs without switchers, the tasks being then all in the same sub-sequence, in the
    order where they are pushed (1064-1065). Left out: the checks on the autoallocation and the adaptors, the identifiers of the sub-sequences, the last tasks
    found (real_lasts), and the clones for the other threads. *)
Section Order.
(** the tasks bound to the output sockets of a task: socket by socket and, in a socket, by order of priority (a task appears once per bound input) *)
Variable outs : nat -> list nat.
(** get_n_input_sockets() - get_n_static_input_sockets(): the inputs that wait for another task *)
Variable needed : nat -> nat.
Variables lasts exclusions : list nat.

Definition mem (x : nat) (l : list nat) : bool := existsb (Nat.eqb x) l.
(** the tasks pushed so far, and in_sockets_feed (0 when absent) *)
Definition ostate : Type := list nat * (nat -> nat).
(** 1074-1101: the tasks bound to the current one *)
Fixpoint feed_all (visit : nat -> ostate -> outcome ostate) (l : list nat) (st : ostate) : outcome ostate :=
  match l with
  | [] => Ret st
  | c :: l =>
    if mem c exclusions then feed_all visit l st else
    let n := S (snd st c) in
    let st := (fst st, fun x => if x =? c then n else snd st x) in
    st <- (if needed c <=? n then visit c st else Ret st) ;; feed_all visit l st
  end.
(** 818-1158; Undef: [fuel] recursive calls are not enough *)
Fixpoint visit (fuel : nat) (t : nat) (st : ostate) : outcome ostate :=
  match fuel with
  | O => Undef
  | S fuel => let st := (fst st ++ [t], snd st) in if mem t lasts then Ret st else feed_all (visit fuel) (outs t) st
  end.
(** 262-280 *)
Fixpoint visit_firsts (fuel : nat) (firsts : list nat) (st : ostate) : outcome ostate :=
  match firsts with [] => Ret st | f :: l => st <- visit fuel f st ;; visit_firsts fuel l st end.
(** 231-249: an excluded task is neither a first nor a last one *)
Definition build (fuel : nat) (firsts : list nat) : outcome (list nat) :=
  _ <- guard (forallb (fun x => negb (mem x firsts) && negb (mem x lasts)) exclusions) ;;
  st <- visit_firsts fuel firsts ([], fun _ => 0) ;; Ret (fst st).
End Order.

(** ** Execution by several threads (Sequence.cpp 462-541, 622-660) *)
(** One iteration of the loop of a thread: the tasks, then the stop condition. An exception thrown by the condition is as one of a task. *)
Inductive iteration :=
| Done (stop : bool)            (* the tasks return, or throw processing_aborted; the value of the stop condition *)
| Canceled                      (* waiting_canceled *)
| Failed (sig text : list Z).   (* another exception: what() without and with the backtrace *)
(** A thread: at its k-th iteration, with its exception caught (and the flag set), or at its end *)
Inductive tpc := Running (k : nat) | Caught (sig text : list Z) | Ended.
Record sstate := mkSeq { force_exit : bool; prev : list (list Z); prev_display : list (list Z); pcs : list tpc; ran : list (nat * nat) (* ghost: the iterations run, by thread *) }.

Fixpoint eqb_text (a b : list Z) : bool := match a, b with [], [] => true | x :: a, y :: b => (x =? y)%Z && eqb_text a b | _, _ => false end.
(** 523-537, under the mutex *)
Definition log_exception (sig text : list Z) (s : sstate) : outcome sstate :=
  if existsb (eqb_text sig) (prev s) then
    match prev_display s with
    | [] => Undef (* back() of an empty vector *)
    | d => if length (last d []) <? length text then Ret (mkSeq (force_exit s) (prev s) (removelast d ++ [text]) (pcs s) (ran s)) else Ret s
    end
  else Ret (mkSeq (force_exit s) (prev s ++ [sig]) (prev_display s ++ [text]) (pcs s) (ran s)).

Section Run.
(** what happens at the k-th iteration of the thread i *)
Variable iter : nat -> nat -> iteration.
Definition set_pc (s : sstate) (i : nat) (p : tpc) : sstate := mkSeq (force_exit s) (prev s) (prev_display s) (upd (pcs s) i p) (ran s).
(** one step of the thread i; the flag is read at the end of an iteration (511), before the condition is evaluated *)
Definition step (i : nat) (s : sstate) : outcome sstate :=
  match nth i (pcs s) Ended with
  | Ended => Ret s
  | Caught sig text => s <- log_exception sig text s ;; Ret (set_pc s i Ended)
  | Running k =>
    let s := mkSeq (force_exit s) (prev s) (prev_display s) (pcs s) (ran s ++ [(i, k)]) in
    match iter i k with
    | Done stop => Ret (set_pc s i (if force_exit s || stop then Ended else Running (S k)))
    | Canceled => Ret (set_pc s i Ended)
    | Failed sig text => Ret (set_pc (mkSeq true (prev s) (prev_display s) (pcs s) (ran s)) i (Caught sig text))
    end
  end.
Fixpoint run (sched : list nat) (s : sstate) : outcome sstate := match sched with [] => Ret s | i :: l => s <- step i s ;; run l s end.
Definition all_ended (s : sstate) : bool := forallb (fun p => match p with Ended => true | _ => false end) (pcs s).
End Run.

(** a sequence between two calls: the flag and the two lists *)
Record sequence := mkSq { q_exit : bool; q_prev : list (list Z); q_display : list (list Z) }.
Definition new_sequence : sequence := mkSq false [] [].
(** 622-660 for the schedule [sched] of the threads: the sequence after the call and the message thrown. None: the schedule does not reach the end.
    The no-copy mode is left out. *)
Definition exec (n_threads : nat) (iter : nat -> nat -> iteration) (sched : list nat) (q : sequence) : outcome (option (sequence * option (list Z) * list (nat * nat))) :=
  s <- run iter sched (mkSeq (q_exit q) (q_prev q) (q_display q) (repeat (Running 0) n_threads) []) ;;
  Ret (if all_ended s then
         Some (match prev_display s with [] => (mkSq (force_exit s) (prev s) [], None, ran s) | d => (mkSq false (prev s) d, Some (last d []), ran s) end)
       else None).
