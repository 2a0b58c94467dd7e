(** Frames of a module and execution of a task: src/Module/Module.cpp and src/Module/Task.cpp. *)
From Coq Require Import List Arith Lia Bool ZArith.
From Verif Require Import Base Float32.
Import ListNotations.

(** ** The number of frames of a module (Module.cpp 12-21, 51-112), and the sizes of the sockets of its tasks (Task.cpp 566-633).
    Sizes are integers without wrap-around. Of a socket, the size and if it is bound; the memory of the outputs follows the size and is left out. *)
Section Frames.
Local Open Scope Z_scope.
Record msocket := mkMs { ms_bytes : Z; ms_bound : bool }.
Record mtask := mkMt { mt_socks : list msocket; mt_status : msocket; mt_nstatus : Z; (* status.size() *)
                       mt_bpf : list Z; (* sockets_databytes_per_frame *) mt_data : list Z (* sizes of sockets_data *) }.
Record module := mkMod { m_n : Z; m_w : Z; m_waves : Z; m_rest : Z; m_single : bool; m_tasks : list mtask }.

(** Socket.hxx 598-604: set_databytes; false: it throws *)
Definition set_bytes (s : msocket) (b : Z) : msocket * bool := if b =? ms_bytes s then (s, true) else if ms_bound s then (s, false) else (mkMs b (ms_bound s), true).
(** Task.cpp 566-598: the sockets in order, then the status; stops at the first exception *)
Fixpoint resize_socks (l : list msocket) (old new : Z) : list msocket * bool :=
  match l with
  | [] => ([], true)
  | s :: l' => let '(s', ok) := set_bytes s (ms_bytes s / old * new) in if ok then let '(l2, ok2) := resize_socks l' old new in (s' :: l2, ok2) else (s' :: l', false)
  end.
Definition resize_status (t : mtask) (waves : Z) : mtask * bool :=
  if waves * 4 =? ms_bytes (mt_status t) then (t, true) else
  let '(s, ok) := set_bytes (mt_status t) (waves * 4) in
  if ok then (mkMt (mt_socks t) s waves (mt_bpf t) (mt_data t), true) else (t, false).
Definition update_n_frames (t : mtask) (waves old new : Z) : mtask * bool :=
  let '(l, ok) := resize_socks (mt_socks t) old new in
  let t := mkMt l (mt_status t) (mt_nstatus t) (mt_bpf t) (mt_data t) in
  if ok then resize_status t waves else (t, false).
(** Task.cpp 600-624 *)
Definition update_n_frames_per_wave (t : mtask) (waves new : Z) : mtask * bool :=
  resize_status (mkMt (mt_socks t) (mt_status t) (mt_nstatus t) (mt_bpf t) (map (fun b => if 1 <? new then b * new else 0) (mt_bpf t))) waves.
Fixpoint update_tasks (f : mtask -> mtask * bool) (l : list mtask) : list mtask * bool :=
  match l with
  | [] => ([], true)
  | t :: l' => let '(t', ok) := f t in if ok then let '(l2, ok2) := update_tasks f l' in (t' :: l2, ok2) else (t' :: l', false)
  end.

(** Module.cpp 51-83 *)
Definition set_n_frames_ (m : module) (n : Z) : module * bool :=
  if n =? 0 then (m, false) else
  let waves := ceil_float_div n (m_w m) in
  let '(ts, ok) := update_tasks (fun t => update_n_frames t waves (m_n m) n) (m_tasks m) in
  (mkMod n (m_w m) waves (n mod m_w m) (m_single m) ts, ok).
Definition set_n_frames_per_wave_ (m : module) (w : Z) : module * bool :=
  if w =? 0 then (m, false) else
  let waves := ceil_float_div (m_n m) w in
  let '(ts, ok) := update_tasks (fun t => update_n_frames_per_wave t waves w) (m_tasks m) in
  (mkMod (m_n m) w waves (m_n m mod w) (m_single m) ts, ok).
(** Module.cpp 85-103: the two functions call each other; [fuel] bounds the depth (None when it is exhausted) *)
Fixpoint set_frames (fuel : nat) (per_wave : bool) (n : Z) (m : module) : option (module * bool) :=
  match fuel with
  | O => None
  | S f =>
    let '(m1, ok) := if (if per_wave then m_w m else m_n m) =? n then (m, true) else if per_wave then set_n_frames_per_wave_ m n else set_n_frames_ m n in
    if ok then
      if m_single m1 && negb ((if per_wave then m_n m1 else m_w m1) =? n) then set_frames f (negb per_wave) n m1 else Some (m1, true)
    else Some (m1, false)
  end.
(** Module.cpp 105-111 *)
Definition set_single_wave (fuel : nat) (b : bool) (m : module) : option (module * bool) :=
  let m := mkMod (m_n m) (m_w m) (m_waves m) (m_rest m) b (m_tasks m) in
  match set_frames fuel false (m_n m) m with
  | Some (m1, true) => set_frames fuel true (m_n m1) m1
  | x => x
  end.

(** Calls on the module, and (un)binding of its sockets: SetBound t s b, the status when s is the number of sockets *)
Inductive fcall := SetFrames (n : Z) | SetWave (n : Z) | SetSingle (b : bool) | SetBound (t s : nat) (b : bool).
Definition bind_socket (b : bool) (s : msocket) : msocket := mkMs (ms_bytes s) b.
Definition bind_task (i : nat) (b : bool) (t : mtask) : mtask :=
  if (i <? length (mt_socks t))%nat then mkMt (upd (mt_socks t) i (bind_socket b (nth i (mt_socks t) (mkMs 0 false)))) (mt_status t) (mt_nstatus t) (mt_bpf t) (mt_data t)
  else mkMt (mt_socks t) (bind_socket b (mt_status t)) (mt_nstatus t) (mt_bpf t) (mt_data t).
Definition fstep (fuel : nat) (m : module) (c : fcall) : option (module * bool) :=
  match c with
  | SetFrames n => set_frames fuel false n m
  | SetWave n => set_frames fuel true n m
  | SetSingle b => set_single_wave fuel b m
  | SetBound t s b => Some (mkMod (m_n m) (m_w m) (m_waves m) (m_rest m) (m_single m) (match nth_error (m_tasks m) t with Some k => upd (m_tasks m) t (bind_task s b k) | None => m_tasks m end), true)
  end.
(** Module.cpp 12-21 and Task.cpp 488-536: a new module with the bytes of the sockets of its tasks *)
Definition new_task (bytes : list Z) : mtask := mkMt (map (fun b => mkMs b false) bytes) (mkMs 4 false) 1 bytes (map (fun _ => 0) bytes).
Definition new_module (tasks : list (list Z)) : module := mkMod 1 1 1 0 false (map new_task tasks).
End Frames.

(** ** Execution of a task (Task.cpp 215-313, 315-332) *)
(** The pointer of a socket: an offset in its memory, or the start of its internal buffer (sockets_data) *)
Inductive ptr := Ext (off : nat) | Buf.
Record tsock := mkSock { s_in : bool; s_bpf : nat; s_mem : list Z; s_buf : list Z; s_ptr : ptr }.
(** [t_calls]: the frame ids given to the codelet, in order; [t_mod] the state of the module *)
Record tstate {M : Type} := mkTask { t_socks : list tsock; t_status : list Z; t_mod : M; t_calls : list nat }.
Arguments tstate : clear implicits.

Definition STOP : Z := (-1)%Z.
Definition UNKNOWN : Z := (-2)%Z.
Definition splice (off : nat) (v l : list Z) : list Z := firstn off l ++ v ++ skipn (off + length v) l.
Definition slice (off len : nat) (l : list Z) : list Z := firstn len (skipn off l).

Section Task.
Context {M : Type}.
Variables n_frames npw n_waves rest : nat.
(** A codelet reads and writes [npw] frames from the pointer of each socket (the inputs are read only); it gives the new state of the module, the frames it
    leaves, and the status (None: it throws) *)
Variable codelet : M -> nat -> list (list Z) -> M * list (list Z) * option Z.

Definition fits (s : tsock) : bool := match s_ptr s with Ext off => off + npw * s_bpf s <=? length (s_mem s) | Buf => npw * s_bpf s <=? length (s_buf s) end.
Definition view (s : tsock) : list Z := match s_ptr s with Ext off => slice off (npw * s_bpf s) (s_mem s) | Buf => slice 0 (npw * s_bpf s) (s_buf s) end.
Definition store (s : tsock) (v : list Z) : tsock :=
  if s_in s then s else
  match s_ptr s with
  | Ext off => mkSock (s_in s) (s_bpf s) (splice off v (s_mem s)) (s_buf s) (s_ptr s)
  | Buf => mkSock (s_in s) (s_bpf s) (s_mem s) (splice 0 v (s_buf s)) (s_ptr s)
  end.
Fixpoint map2 {A B C} (f : A -> B -> C) (a : list A) (b : list B) : list C := match a, b with x :: a, y :: b => f x y :: map2 f a b | _, _ => [] end.
Definition same_size (v v' : list Z) : bool := length v =? length v'.

(** status[w] = codelet(module, task, fid); true: the codelet has returned *)
Definition call_codelet (t : tstate M) (w fid : nat) : outcome (tstate M * bool) :=
  if forallb fits (t_socks t) then
    let vs := map view (t_socks t) in
    let '(m, vs', st) := codelet (t_mod t) fid vs in
    if (length vs =? length vs') && forallb (fun b => b) (map2 same_size vs vs') then
      let t := mkTask _ (map2 store (t_socks t) vs') (t_status t) m (t_calls t ++ [fid]) in
      match st with
      | None => Ret (t, false)
      | Some st => l <- wr (t_status t) w st ;; Ret (mkTask _ (t_socks t) l (t_mod t) (t_calls t), true)
      end
    else Undef
  else Undef.

Definition set_ptr (p : ptr) (s : tsock) : tsock := mkSock (s_in s) (s_bpf s) (s_mem s) (s_buf s) p.
Definition map_socks (f : tsock -> tsock) (t : tstate M) : tstate M := mkTask _ (map f (t_socks t)) (t_status t) (t_mod t) (t_calls t).
(** the offset of the initial pointer (sockets_dataptr_init); a pointer to the buffer, left by an exception, is the offset in the buffer *)
Definition shifted (p : ptr) (off : nat) : outcome ptr := match p with Ext o => Ret (Ext (o + off)) | Buf => if off =? 0 then Ret Buf else Undef end.
Fixpoint map_out {A B} (f : A -> outcome B) (l : list A) : outcome (list B) := match l with [] => Ret [] | x :: l => y <- f x ;; r <- map_out f l ;; Ret (y :: r) end.
Definition map_socks_out (f : ptr * tsock -> outcome tsock) (init : list ptr) (t : tstate M) : outcome (tstate M) :=
  l <- map_out f (combine init (t_socks t)) ;; Ret (mkTask _ l (t_status t) (t_mod t) (t_calls t)).

(** 291-293: the pointers of the wave w *)
Definition to_wave (w : nat) (p : ptr * tsock) : outcome tsock := q <- shifted (fst p) (w * npw * s_bpf (snd p)) ;; Ret (set_ptr q (snd p)).
(** copies between the memory, from the initial pointer, and the buffer *)
Definition copy_in (from len at_ : nat) (p : ptr * tsock) : outcome tsock :=
  let s := snd p in
  if s_in s then
    match fst p with
    | Ext o => if (o + (from + len) * s_bpf s <=? length (s_mem s)) && ((at_ + len) * s_bpf s <=? length (s_buf s))
               then Ret (mkSock (s_in s) (s_bpf s) (s_mem s) (splice (at_ * s_bpf s) (slice (o + from * s_bpf s) (len * s_bpf s) (s_mem s)) (s_buf s)) Buf) else Undef
    | Buf => Undef
    end
  else Ret (set_ptr Buf s).
Definition copy_out (from len at_ : nat) (p : ptr * tsock) : outcome tsock :=
  let s := snd p in
  if s_in s then Ret s else
    match fst p with
    | Ext o => if ((from + len) * s_bpf s <=? length (s_buf s)) && (o + (at_ + len) * s_bpf s <=? length (s_mem s))
               then Ret (mkSock (s_in s) (s_bpf s) (splice (o + at_ * s_bpf s) (slice (from * s_bpf s) (len * s_bpf s) (s_buf s)) (s_mem s)) (s_buf s) (s_ptr s)) else Undef
    | Buf => Undef
    end.

(** 262-274: the waves before the last one; true in the result: the codelet has not thrown; the last status *)
Fixpoint waves (k w : nat) (init : list ptr) (t : tstate M) (last : Z) : outcome (tstate M * nat * Z * bool) :=
  match k with
  | O => Ret (t, w, last, true)
  | S k => if (last =? STOP)%Z then Ret (t, w, last, true) else
      t <- map_socks_out (to_wave w) init t ;;
      ' (t, ok) <- call_codelet t w (w * npw) ;;
      if ok then st <- rd (t_status t) w ;; waves k (S w) init t st else Ret (t, w, last, false)
  end.

Definition direct (frame_id : Z) (managed : bool) : bool :=
  (negb managed && (0 <=? frame_id)%Z) || ((frame_id =? -1)%Z && (npw =? n_frames)) || ((frame_id =? 0)%Z && (npw =? 1)) || ((frame_id =? 0)%Z && (1 <? n_waves)) || ((frame_id =? 0)%Z && (rest =? 0)).
(** 215-313; when the codelet throws, the state is the one it leaves and the pointers are not restored *)
Definition exec_ (t : tstate M) (frame_id : Z) (managed : bool) : outcome (tstate M * bool) :=
  if length (t_status t) <? n_waves then Undef else
  let t := mkTask _ (t_socks t) (tab n_waves (fun _ => UNKNOWN) ++ skipn n_waves (t_status t)) (t_mod t) (t_calls t) in
  let init := map s_ptr (t_socks t) in
  let restore (r : outcome (tstate M * bool)) : outcome (tstate M * bool) :=
    ' (t, ok) <- r ;; if ok then t <- map_socks_out (fun p => Ret (set_ptr (fst p) (snd p))) init t ;; Ret (t, true) else Ret (t, false) in
  if direct frame_id managed then
    let f := Z.to_nat (if (frame_id =? -1)%Z then 0 else frame_id)%Z in
    call_codelet t ((f mod n_frames) / npw) f
  else if (0 <? frame_id)%Z && managed && (1 <? npw) then restore (
    let f := Z.to_nat frame_id in
    let w := (f mod n_frames) / npw in let pos := f mod npw in
    t <- map_socks_out (copy_in (f mod n_frames) 1 pos) init t ;;
    ' (t, ok) <- call_codelet t w (w * npw) ;;
    if ok then t <- map_socks_out (copy_out pos 1 (f mod n_frames)) init t ;; Ret (t, true) else Ret (t, false))
  else restore (
    let start := if (frame_id <? 0)%Z then 0 else Z.to_nat frame_id mod n_waves in
    let stop := if (frame_id <? 0)%Z then n_waves else S start in
    ' (t, w, last, ok) <- waves (stop - 1 - start) start init t 0%Z ;;
    if ok then
      if (last =? STOP)%Z then Ret (t, true)
      else if rest =? 0 then t <- map_socks_out (to_wave w) init t ;; call_codelet t w (w * npw)
      else
        t <- map_socks_out (copy_in (w * npw) (n_frames - w * npw) 0) init t ;;
        ' (t, ok) <- call_codelet t w (w * npw) ;;
        if ok then t <- map_socks_out (copy_out 0 rest (w * npw)) init t ;; Ret (t, true) else Ret (t, false)
    else Ret (t, false)).
(** 315-332 without the fast mode; the null pointers (can_exec), the statistics and the debug mode are left out *)
Definition exec (t : tstate M) (frame_id : Z) (managed : bool) : outcome (tstate M * bool) :=
  _ <- guard (negb (negb (frame_id =? -1)%Z && (Z.of_nat n_frames <=? frame_id mod 2 ^ 64)%Z)) ;; exec_ t frame_id managed.
End Task.
