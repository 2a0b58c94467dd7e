(** The error monitor, its reduction and the callbacks: src/Module/Monitor/BFER/Monitor_BFER.cpp, include/Tools/Monitor/Monitor_reduction.hxx,
    include/Tools/Algo/Callback/Callback.hxx, and the averages of src/Module/Monitor/MI/Monitor_MI.cpp. *)
From Coq Require Import List Arith Lia Bool ZArith QArith.
From Verif Require Import Base GaloisModel FloatQ DistModel HistModel.
Import ListNotations.
Local Open Scope Z_scope.

(** ** Callbacks (Callback.hxx 16-70), called by one thread; a function is a value of the type F, notify gives the functions called, in order *)
Section Callback.
Context {F : Type}.
Definition callback := list (F * Z).
Definition record (c : callback) (f : F) : callback * Z :=
  let id := match rev c with [] => 0 | (_, i) :: _ => (i + 1) mod 2 ^ 32 end in (c ++ [(f, id)], id).
Fixpoint unrecord (c : callback) (id : Z) : callback * bool :=
  match c with [] => ([], false) | (f, i) :: t => if i =? id then (t, true) else let '(t, b) := unrecord t id in ((f, i) :: t, b) end.
Definition clear_all (c : callback) : callback := [].
Definition notify (c : callback) : list F := map fst c.
End Callback.

(** ** The monitor. [w] is the number of bits of B and [lanes] the registers of the machine (DistModel) *)
Section Monitor.
Variables (w : Z) (lanes : option nat).

(** Monitor_BFER.hpp 33-42, Monitor_BFER.cpp 513-537 *)
Record attrs := mkAttrs { n_fra : Z; n_be : Z; n_fe : Z }.
Definition attrs0 : attrs := mkAttrs 0 0 0.
Definition attrs_add (a b : attrs) : attrs := mkAttrs (usize (n_fra a + n_fra b)) (usize (n_be a + n_be b)) (usize (n_fe a + n_fe b)).

(** Monitor_BFER.hpp 45-56; the callbacks are the trace of their notifications, with their arguments *)
Record monitor := mkMon { m_K : nat; m_max_fe : Z; m_max_fra : Z; m_unk : bool; m_vals : attrs; m_hist : histogram; m_hist_on : bool }.
Inductive event := OnFe (bit_errors : Z) (frame : nat) | OnCheck | OnLimit.

(** Monitor_BFER.cpp 13-72, 430-438, 381-386 *)
Definition new_monitor (K : Z) (max_fe max_fra : Z) (unk : bool) : outcome monitor :=
  _ <- guard (0 <? K) ;; Ret (mkMon (Z.to_nat K) max_fe max_fra unk attrs0 (new_hist 0) false).
Definition reset_monitor (m : monitor) : monitor := mkMon (m_K m) (m_max_fe m) (m_max_fra m) (m_unk m) attrs0 (clear (m_hist m)) (m_hist_on m).
Definition activate (m : monitor) (b : bool) : monitor := mkMon (m_K m) (m_max_fe m) (m_max_fra m) (m_unk m) (m_vals m) (m_hist m) b.

(** Monitor_BFER.cpp 272-291 *)
Definition fe_limit (m : monitor) : bool := negb (m_max_fe m =? 0) && (m_max_fe m <=? n_fe (m_vals m)).
Definition frame_limit (m : monitor) : bool := negb (m_max_fra m =? 0) && (m_max_fra m <=? n_fra (m_vals m)).
Definition is_done (m : monitor) : bool := fe_limit m || frame_limit m.

(** Monitor_BFER.cpp 342-366: in float; None is the division by zero (an infinite rate) *)
Definition fdiv (a b : option Q) : option Q :=
  match a, b with Some a, Some b => if Qeq_bool b 0 then None else Some (fl 24 (a / b)) | _, _ => None end.
Definition tofl (x : Z) : option Q := Some (fl 24 (inject_Z x)).
Definition get_fer (m : monitor) : option Q :=
  let a := m_vals m in if n_fe a =? 0 then fdiv (Some 1%Q) (tofl (n_fra a)) else fdiv (tofl (n_fe a)) (tofl (n_fra a)).
Definition get_ber (m : monitor) : option Q :=
  let a := m_vals m in let K := tofl (Z.of_nat (m_K m)) in
  if n_be a =? 0 then fdiv (fdiv (Some 1%Q) (tofl (n_fra a))) K else fdiv (fdiv (tofl (n_be a)) (tofl (n_fra a))) K.

(** Monitor_BFER.cpp 245-270: one frame, the monitor, the number of bit errors and the notifications; U + f * K and V + f * K are the arrays *)
Definition check_frame (m : monitor) (U V : list Z) (f : nat) : outcome (monitor * Z * list event) :=
  d <- hamming w lanes (m_unk m) (skipn (f * m_K m) U) (Some (skipn (f * m_K m) V)) (m_K m) ;;
  let be := cast 32 d in
  let a := m_vals m in
  if be =? 0 then Ret (mkMon (m_K m) (m_max_fe m) (m_max_fra m) (m_unk m) (mkAttrs (usize (n_fra a + 1)) (n_be a) (n_fe a)) (m_hist m) (m_hist_on m), be, [])
  else
    h <- (if m_hist_on m then add_value cal_int (m_hist m) be else Ret (m_hist m)) ;;
    Ret (mkMon (m_K m) (m_max_fe m) (m_max_fra m) (m_unk m) (mkAttrs (usize (n_fra a + 1)) (usize (n_be a + be)) (usize (n_fe a + 1))) h (m_hist_on m), be, [OnFe be f]).

(** Monitor_BFER.cpp 167-185: n_be_total is an int *)
Definition after_check (m : monitor) : list event := OnCheck :: (if fe_limit m then [OnLimit] else []).
Definition check_errors (m : monitor) (U V : list Z) (n_frames : nat) : outcome (monitor * Z * list event) :=
  ' (m, tot, ev) <- for_ n_frames (fun f s => let '(m, tot, ev) := s in
    ' (m, be, e) <- check_frame m U V f ;; tot <- int_ok (tot + be) ;; Ret (m, tot, ev ++ e)) (m, 0, []) ;;
  Ret (m, tot, ev ++ after_check m).

(** Monitor_BFER.cpp 211-243: the five outputs of each frame *)
Definition check_errors2 (m : monitor) (U V : list Z) (n_frames : nat) (FRA BE FE : list Z) (BER FER : list (option Q))
  : outcome (monitor * Z * list event * (list Z * list Z * list Z * list (option Q) * list (option Q))) :=
  ' (m, tot, ev, out) <- for_ n_frames (fun f s => let '(m, tot, ev, out) := s in let '(FRA, BE, FE, BER, FER) := out in
    ' (m, be, e) <- check_frame m U V f ;; tot <- int_ok (tot + be) ;;
    FRA <- wr FRA f (cast 64 (n_fra (m_vals m))) ;; BE <- wr BE f be ;; FE <- wr FE f (if be =? 0 then 0 else 1) ;; BER <- wr BER f (get_ber m) ;; FER <- wr FER f (get_fer m) ;;
    Ret (m, tot, ev ++ e, (FRA, BE, FE, BER, FER))) (m, 0, [], (FRA, BE, FE, BER, FER)) ;;
  Ret (m, tot, ev ++ after_check m, out).

(** Calls on a monitor *)
Inductive mcall := Check (U V : list Z) (n_frames : nat) | ResetMonitor | Activate (b : bool).
Definition mstep (m : monitor) (c : mcall) : outcome monitor :=
  match c with Check U V n => ' (m, _, _) <- check_errors m U V n ;; Ret m | ResetMonitor => Ret (reset_monitor m) | Activate b => Ret (activate m b) end.
Fixpoint mrun (m : monitor) (l : list mcall) : outcome monitor := match l with [] => Ret m | c :: l => m <- mstep m c ;; mrun m l end.

(** ** Reduction (Monitor_BFER.cpp 449-509, Monitor_reduction.hxx 115-124) *)
Definition collect (m o : monitor) (fully : bool) : outcome monitor :=
  h <- (if fully then add_hist (m_hist m) (m_hist o) else Ret (m_hist m)) ;;
  Ret (mkMon (m_K m) (m_max_fe m) (m_max_fra m) (m_unk m) (attrs_add (m_vals m) (m_vals o)) h (m_hist_on m)).
Definition copy (m o : monitor) (fully : bool) : outcome monitor :=
  h <- (if fully then assign (m_hist m) (m_hist o) else Ret (m_hist m)) ;;
  Ret (mkMon (m_K m) (m_max_fe m) (m_max_fra m) (m_unk m) (m_vals o) h (m_hist_on m)).
(** the monitor of the reduction and its collecter, after reduce *)
Fixpoint collect_all (c : monitor) (ms : list monitor) (fully : bool) : outcome monitor := match ms with [] => Ret c | m :: ms => c <- collect c m fully ;; collect_all c ms fully end.
Definition reduce (self collecter : monitor) (ms : list monitor) (fully : bool) : outcome (monitor * monitor) :=
  c <- collect_all (reset_monitor collecter) ms fully ;; self <- copy self c fully ;; Ret (self, c).
(** Monitor_reduction.hxx 27-68: the first monitor is copied twice; [equivalent] (Monitor_BFER.cpp 107-154) is called with do_throw; null pointers are not modelled *)
Definition equivalent (a b : monitor) : bool := (m_K a =? m_K b)%nat && (m_max_fe a =? m_max_fe b) && (m_max_fra a =? m_max_fra b) && Bool.eqb (m_unk a) (m_unk b).
Definition new_reduction (ms : list monitor) : outcome (monitor * monitor) :=
  match ms with [] => Throws | m0 :: _ => _ <- guard (forallb (equivalent m0) ms) ;; reduce m0 m0 ms true end.
End Monitor.

(** ** Averages of the mutual information (Monitor_MI.cpp 157-168, 362-384), computed without rounding *)
Record mi_attrs := mkMi { n_trials : Z; MI : Q; MI_max : Q; MI_min : Q }.
Definition mi0 : mi_attrs := mkMi 0 0 0 1.
Definition qmax (a b : Q) : Q := if Qlt_le_dec a b then b else a.
Definition qmin (a b : Q) : Q := if Qlt_le_dec b a then b else a.
Definition mi_add (a : mi_attrs) (mi : Q) : mi_attrs :=
  let n := usize (n_trials a + 1) in mkMi n (MI a + (mi - MI a) / inject_Z n) (qmax (MI_max a) mi) (qmin (MI_min a) mi).
Definition mi_merge (a v : mi_attrs) : mi_attrs :=
  let n := usize (n_trials a + n_trials v) in
  mkMi n (if n =? 0 then 0 else MI a + (MI v - MI a) * (inject_Z (n_trials v) / inject_Z n))%Q (qmax (MI_max a) (MI_max v)) (qmin (MI_min a) (MI_min v)).
