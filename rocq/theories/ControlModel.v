(** Controllers, iterator, switcher and the execution of a sequence with control flow:
    src/Module/Controller/, src/Module/Iterator/Iterator.cpp, include/Module/Switcher/Switcher.hxx, src/Module/Switcher/Switcher.cpp
    and the function exec_sequence of src/Tools/Sequence/Sequence.cpp. *)
From Coq Require Import List Arith Lia Bool ZArith.
From Verif Require Import Base.
Import ListNotations.
Local Open Scope Z_scope.

(** size_t on 64 bits, and the conversions with int8_t *)
Definition sz (x : Z) : Z := x mod 2 ^ 64.
Definition int8 (x : Z) : Z := (x + 128) mod 256 - 128.
Definition umod (a b : Z) : outcome Z := if b =? 0 then Undef else Ret (a mod b).

(** ** Controllers (Controller/Controller.cpp 8-50); control gives the controller after the call and the output *)
Record controller := mkCtr { init_path : Z; path : Z }.
(** Controller_static.cpp 8-28 *)
Definition new_static (init : Z) : controller := mkCtr init init.
Definition static_control (c : controller) : controller * Z := (c, int8 (path c)).
Definition base_set_path (c : controller) (p : Z) : controller := mkCtr (init_path c) p.
Definition base_reset (c : controller) : controller := mkCtr (init_path c) (init_path c).

(** Controller_limit.cpp 8-38 *)
Record limiter := mkLim { l_ctr : controller; l_limit : Z; l_counter : Z }.
Definition new_limit (limit init : Z) : limiter := mkLim (mkCtr init init) limit 0.
Definition limit_reset (c : limiter) : limiter := mkLim (base_reset (l_ctr c)) (l_limit c) 0.
Definition limit_control (c : limiter) : limiter * Z :=
  let p := if l_limit c <=? l_counter c then (if init_path (l_ctr c) =? 0 then 1 else 0) else path (l_ctr c) in
  (mkLim (mkCtr (init_path (l_ctr c)) p) (l_limit c) (sz (l_counter c + 1)), int8 p).

(** Controller_cyclic.cpp 8-54 *)
Record cyclic := mkCyc { y_ctr : controller; y_paths : Z }.
Definition new_cyclic (n_paths init : Z) : outcome cyclic := p <- umod init n_paths ;; Ret (mkCyc (mkCtr p p) n_paths).
Definition cyclic_set_n_paths (c : cyclic) (n : Z) : outcome cyclic := p <- umod (path (y_ctr c)) n ;; Ret (mkCyc (mkCtr (init_path (y_ctr c)) p) n).
Definition cyclic_set_path (c : cyclic) (v : Z) : outcome cyclic := p <- umod v (y_paths c) ;; Ret (mkCyc (mkCtr (init_path (y_ctr c)) p) (y_paths c)).
Definition cyclic_reset (c : cyclic) : outcome cyclic := p <- umod (init_path (y_ctr c)) (y_paths c) ;; Ret (mkCyc (mkCtr (init_path (y_ctr c)) p) (y_paths c)).
Definition cyclic_control (c : cyclic) : outcome (cyclic * Z) :=
  p <- umod (path (y_ctr c)) (y_paths c) ;; Ret (mkCyc (mkCtr (init_path (y_ctr c)) (sz (p + 1))) (y_paths c), int8 p).

(** ** Iterator (Iterator.cpp 11-79) *)
Record iterator := mkIte { i_limit : Z; i_counter : Z }.
Definition new_iterator (limit : Z) : iterator := mkIte limit 0.
Definition set_limit (it : iterator) (limit : Z) : outcome iterator := c <- umod (i_counter it) (sz (limit + 1)) ;; Ret (mkIte limit c).
Definition ite_reset (it : iterator) : iterator := mkIte (i_limit it) 0.
Definition iterate (it : iterator) : outcome (iterator * Z) :=
  c <- umod (sz (i_counter it + 1)) (sz (i_limit it + 1)) ;; Ret (mkIte (i_limit it) c, if i_counter it <? i_limit it then 0 else 1).

(** ** Switcher (Switcher.hxx 26-123, 199-209; Switcher.cpp 14-18), with copies; the memory of a socket is a list of bytes *)
Record switcher := mkSwi { w_n : Z; w_bytes_commute : nat; w_bytes_select : nat; w_frames : nat; w_path : Z }.
Definition new_switcher (n elmts_commute size_commute elmts_select size_select : nat) : outcome switcher :=
  _ <- guard (negb (n =? 0)%nat) ;; _ <- guard (negb (elmts_commute =? 0)%nat) ;; _ <- guard (negb (elmts_select =? 0)%nat) ;;
  Ret (mkSwi (Z.of_nat n) (elmts_commute * size_commute) (elmts_select * size_select) 1 (Z.of_nat n - 1)).
Definition swi_reset (w : switcher) : switcher := mkSwi (w_n w) (w_bytes_commute w) (w_bytes_select w) (w_frames w) (w_n w - 1).
(** std::copy of the first [len] bytes of [src] to [dst] *)
Definition copy_bytes (len : nat) (src dst : list Z) : outcome (list Z) :=
  if (length src <? len)%nat || (length dst <? len)%nat then Undef else Ret (firstn len src ++ skipn len dst).
(** the codelet of commute: the switcher, the outputs and the status *)
Definition commute (w : switcher) (ctrl : Z) (data : list Z) (outs : list (list Z)) : outcome (switcher * list (list Z) * Z) :=
  p <- umod (sz ctrl) (w_n w) ;;
  old <- rd outs (Z.to_nat p) ;; new <- copy_bytes (w_frames w * w_bytes_commute w) data old ;; outs <- wr outs (Z.to_nat p) new ;;
  Ret (mkSwi (w_n w) (w_bytes_commute w) (w_bytes_select w) (w_frames w) p, outs, p).
(** the codelet of select: the output *)
Definition select (w : switcher) (ins : list (list Z)) (out : list Z) : outcome (list Z) :=
  data <- rd ins (Z.to_nat (w_path w)) ;; copy_bytes (w_frames w * w_bytes_select w) data out.

(** ** exec_sequence (Sequence.cpp 469-490, 552-571): the nodes of the graph are given by their index; a task changes the state and
    gives its first status. The trace of the executed tasks is kept. None: the fuel is exhausted. *)
Section Exec.
Variables (T S : Type) (step : T -> S -> outcome (S * Z)).
Record node := mkNode { n_commute : bool; n_tasks : list T; n_children : list nat }.
Fixpoint run_tasks (ts : list T) (s : S) : outcome S := match ts with [] => Ret s | t :: ts' => ' (s1, _) <- step t s ;; run_tasks ts' s1 end.
Fixpoint exec_sequence (fuel : nat) (g : list node) (i : nat) (s : S) : option (outcome (S * list T)) :=
  match fuel with
  | O => None
  | Datatypes.S f =>
    let nd := nth i g (mkNode false [] []) in
    if n_commute nd then
      match n_tasks nd with
      | [] => Some Undef
      | t :: _ =>
        match step t s with
        | Ret (s1, p) =>
            if sz p <? Z.of_nat (length (n_children nd))
            then match exec_sequence f g (nth (Z.to_nat (sz p)) (n_children nd) O) s1 with
                 | Some (Ret (s2, tr)) => Some (Ret (s2, t :: tr)) | x => x end
            else Some (Ret (s1, [t]))
        | Throws => Some Throws
        | Undef => Some Undef
        end
      end
    else
      match run_tasks (n_tasks nd) s with
      | Ret s1 =>
        (fix each (cs : list nat) (s : S) (tr : list T) : option (outcome (S * list T)) :=
           match cs with
           | [] => Some (Ret (s, tr))
           | c :: cs' => match exec_sequence f g c s with Some (Ret (s2, tr2)) => each cs' s2 (tr ++ tr2) | x => x end
           end) (n_children nd) s1 (n_tasks nd)
      | Throws => Some Throws
      | Undef => Some Undef
      end
  end.
End Exec.
Arguments mkNode {T}. Arguments n_commute {T}. Arguments n_tasks {T}. Arguments n_children {T}.
Arguments run_tasks {T S}. Arguments exec_sequence {T S}.

(** ** A loop: entry -> select (last input); select -> iterate, commute; iterate -> ctrl of commute; output 0 of commute -> body ->
    input 0 of select; output 1 of commute -> exit. The graph is the one that init_recursive (Sequence.cpp 815-1160) builds. *)
Inductive loop_task := TEntry | TSelect | TIterate | TCommute | TBody | TExit.
Definition loop_graph : list (node loop_task) :=
  [mkNode false [TEntry] [1]; mkNode false [TSelect] [2]; mkNode false [TIterate] [3]; mkNode true [TCommute] [4; 5]; mkNode false [TBody] [1]; mkNode false [TExit] []]%nat.
Record loop_state := mkLoop {
  inputs : list (list Z);      (* what the entry task will produce *)
  outputs : list (list Z);     (* what the exit task received *)
  ite : iterator; swi : switcher; ctrl : Z;
  entry_out : list Z; select_out : list Z; commute_out : list (list Z); body_out : list Z }.
Section Loop.
Variable body : list Z -> list Z.
Definition loop_step (t : loop_task) (s : loop_state) : outcome (loop_state * Z) :=
  match s with mkLoop inp outp it w ct eo so co bo =>
  match t with
  | TEntry => match inp with [] => Undef | x :: inp' => Ret (mkLoop inp' outp it w ct x so co bo, 0) end
  | TSelect => so' <- select w [bo; eo] so ;; Ret (mkLoop inp outp it w ct eo so' co bo, 0)
  | TIterate => ' (it', c) <- iterate it ;; Ret (mkLoop inp outp it' w c eo so co bo, 0)
  | TCommute => ' (w', co', p) <- commute w ct so co ;; Ret (mkLoop inp outp it w' ct eo so co' bo, p)
  | TBody => x <- rd co 0 ;; Ret (mkLoop inp outp it w ct eo so co (body x), 0)
  | TExit => x <- rd co 1 ;; Ret (mkLoop inp (outp ++ [x]) it w ct eo so co bo, 0)
  end end.
(** One round of Sequence::_exec (495-508): the switcher is reset, then the graph is executed *)
Definition reset_switchers (s : loop_state) : loop_state :=
  mkLoop (inputs s) (outputs s) (ite s) (swi_reset (swi s)) (ctrl s) (entry_out s) (select_out s) (commute_out s) (body_out s).
Fixpoint rounds (n fuel : nat) (s : loop_state) : option (outcome (loop_state * list loop_task)) :=
  match n with
  | O => Some (Ret (s, []))
  | S n' => match exec_sequence loop_step fuel loop_graph 0 (reset_switchers s) with
            | Some (Ret (s1, tr)) => match rounds n' fuel s1 with Some (Ret (s2, tr2)) => Some (Ret (s2, tr ++ tr2)) | x => x end
            | x => x
            end
  end.
End Loop.
