(** The reporter of probes: include/Tools/Display/Reporter/Probe/Reporter_probe.hxx, src/Tools/Display/Reporter/Probe/Reporter_probe.cpp.

    Simplifications: an element of a column (datasizes values of its type) is an element of T; every column has the same T. Every
    operation on a column holds its mutex, so that the threads give a sequence of operations. *)
From Coq Require Import List Arith Bool.
From Verif Require Import Base.
Import ListNotations.

Section Probe.
Variable T : Type.

(** buffer[col], head[col] and tail[col]. *)
Record ring := mkRing { rb : list T; rh : nat; rt : nat }.
(** Reporter_probe.hxx 8-13 (col_size); the unsigned difference does not wrap in the end. *)
Definition r_size (r : ring) : nat := if rt r <=? rh r then rh r - rt r else rh r + length (rb r) - rt r.
(** Reporter_probe.hxx 15-27 (push). *)
Definition r_push (x : T) (r : ring) : outcome (bool * ring) :=
  if length (rb r) <=? r_size r then Ret (false, r)
  else
    b <- wr (rb r) (if rh r =? length (rb r) then 0 else rh r) x ;;
    Ret (true, mkRing b (if rh r =? length (rb r) then 1 else rh r + 1) (rt r)).
(** Reporter_probe.hxx 29-41 (pull): None when it returns false. *)
Definition r_pull (r : ring) : outcome (option T * ring) :=
  if r_size r =? 0 then Ret (None, r)
  else
    x <- rd (rb r) (if rt r =? length (rb r) then 0 else rt r) ;;
    Ret (Some x, mkRing (rb r) (rh r) (if rt r =? length (rb r) then 1 else rt r + 1)).
(** Reporter_probe.cpp 65-70 (reset), one column. *)
Definition r_reset (r : ring) : ring := mkRing (rb r) 0 0.

(** A history of operations. *)
Inductive op := Push (x : T) | Pull | Clear.
Inductive res := Pushed (b : bool) | Pulled (x : option T) | Done.
Definition r_step (o : op) (r : ring) : outcome (res * ring) :=
  match o with
  | Push x => '(b, r) <- r_push x r ;; Ret (Pushed b, r)
  | Pull => '(x, r) <- r_pull r ;; Ret (Pulled x, r)
  | Clear => Ret (Done, r_reset r)
  end.
Fixpoint r_run (l : list op) (r : ring) : outcome (list res * ring) :=
  match l with
  | [] => Ret ([], r)
  | o :: l => '(a, r) <- r_step o r ;; '(b, r) <- r_run l r ;; Ret (a :: b, r)
  end.

(** The columns and name_to_col; a name is a number. *)
Record reporter := mkRep { rp_map : list (nat * nat); rp_cols : list ring }.
Definition col_of (m : list (nat * nat)) (name : nat) : option nat := option_map snd (find (fun p => fst p =? name) m).
(** Reporter_probe.cpp 151-192 (create_probe_checks and the functions create_probe_...): the buffer holds n_frames * 100 elements. *)
Definition rp_create (zero : T) (n_frames name : nat) (p : reporter) : outcome reporter :=
  if match col_of (rp_map p) name with Some _ => true | None => false end then Throws
  else if 100 <? length (rp_cols p) then Throws
  else Ret (mkRep (rp_map p ++ [(name, length (rp_cols p))]) (rp_cols p ++ [mkRing (repeat zero (n_frames * 100)) 0 0])).
(** Reporter_probe.cpp 46-63 (probe): name_to_col[name] inserts 0 for an unknown name; there are 100 mutexes. *)
Definition rp_probe (name : nat) (x : T) (p : reporter) : outcome reporter :=
  let '(c, m) := match col_of (rp_map p) name with Some c => (c, rp_map p) | None => (0, rp_map p ++ [(name, 0)]) end in
  r <- rd (rp_cols p) c ;;
  _ <- rd (repeat tt 100) c ;;
  '(_, r) <- r_push x r ;;
  cs <- wr (rp_cols p) c r ;;
  Ret (mkRep m cs).
End Probe.
