(** The channels: include/Module/Channel/Channel.hxx and src/Module/Channel: NO, AWGN, Rayleigh, Rayleigh_user, User (user,
    user_add, user_be, user_bs), Binary_erasure, Binary_symmetric; the event generators of
    src/Tools/Algo/Draw_generator/Event_generator.

    The numbers are those of an arithmetic (ModemModel.v).  A Gaussian generator is any state machine that writes as many
    numbers as it is asked for.  Simplifications: the channel parameter is a number of the same arithmetic; the registers
    of the vectorised loops have any number W > 0 of lanes; the files of noise are given as the numbers that they hold; a
    frame is a part of a list; sizes are natural numbers without overflow. *)
From Coq Require Import List Arith Bool ZArith.
From Verif Require Import Base Copy AListModel SourceModel ModemModel.
Import ListNotations.
Local Open Scope nat_scope.

Section Channels.
Variable A : arith.
Notation T := (num A).
Notation zero := (ofZ A 0%Z).
Notation one := (ofZ A 1%Z).

(* ------------------------------------------------------------------ *)
(** * The module *)

(** std::vector::resize: the new elements are null. *)
Definition resize (l : list T) (n : nat) : list T := firstn n l ++ repeat zero (n - length l).

Variable G : Type.                                     (* the states of the generator *)
Variable generate : G -> nat -> T -> list T * G.       (* generator->generate(noise, length, sigma) *)

(** The members: N, n_frames, add_users (and complex), noised_data, gains, the generator. *)
Record chan := mkCh { c_N : nat; c_nf : nat; c_users : bool; c_complex : bool; c_data : list T; c_gains : list T; c_gen : G }.

(** The constructors, Channel.hxx 43-58, Channel_AWGN_LLR.cpp 20-33, Channel_NO.cpp 8-16: one frame. *)
Definition make_chan (N : nat) (users : bool) (g : G) : outcome chan :=
  _ <- guard (0 <? N) ;; Ret (mkCh N 1 users false (repeat zero N) [] g).
(** The constructor of Channel_Rayleigh_LLR, Channel_Rayleigh_LLR.cpp 19-42. *)
Definition make_ray (N : nat) (cplx users : bool) (g : G) : outcome chan :=
  _ <- guard (0 <? N) ;; _ <- guard (negb (cplx && negb (N mod 2 =? 0))) ;;
  Ret (mkCh N 1 users cplx (repeat zero N) (repeat zero (if cplx then N else 2 * N)) g).

(** set_n_frames, Channel.hxx 173-186, Channel_Rayleigh_LLR.cpp 202-215, with Module.cpp 50-57. *)
Definition set_n_frames (c : chan) (n : nat) : outcome chan :=
  if n =? c_nf c then Ret c
  else
    _ <- guard (0 <? n) ;;
    Ret (mkCh (c_N c) n (c_users c) (c_complex c) (resize (c_data c) (length (c_data c) / c_nf c * n))
           (resize (c_gains c) (length (c_gains c) / c_nf c * n)) (c_gen c)).

(** generator->generate(data + off, n, sigma). *)
Definition draw (g : G) (n : nat) (sigma : T) (data : list T) (off : nat) : outcome (list T * G) :=
  let '(w, g) := generate g n sigma in data <- copy w 0 n data off ;; Ret (data, g).

(** The sum of the frames of X in Y: Channel_AWGN_LLR.cpp 112-115, Channel_NO.cpp 38-41, Channel_user_add.cpp 38-41. *)
Definition sum_users (N nf : nat) (X Y : list T) : outcome (list T) :=
  Y <- fill Y 0 N zero ;;
  for_ nf (fun f Y => for_ N (fun i Y => y <- rd Y i ;; x <- rd X (f * N + i) ;; wr Y i (add A y x)) Y) Y.

(** _add_noise of Channel_AWGN_LLR, 104-127: the frame starts at o in X and in Y. *)
Definition awgn_add_noise (c : chan) (cp : T) (X : list T) (o : nat) (Y : list T) (fid : nat) : outcome (chan * list T) :=
  let N := c_N c in
  if c_users c && (1 <? c_nf c) then
    ' (data, g) <- draw (c_gen c) N cp (c_data c) 0 ;;
    Y <- sum_users N (c_nf c) X Y ;;
    Y <- for_ N (fun i Y => y <- rd Y i ;; w <- rd data i ;; wr Y i (add A y w)) Y ;;
    Ret (mkCh N (c_nf c) (c_users c) (c_complex c) data (c_gains c) g, Y)
  else
    ' (data, g) <- draw (c_gen c) N cp (c_data c) (fid * N) ;;
    Y <- for_ N (fun n Y => x <- rd X (o + n) ;; w <- rd data (fid * N + n) ;; wr Y (o + n) (add A x w)) Y ;;
    Ret (mkCh N (c_nf c) (c_users c) (c_complex c) data (c_gains c) g, Y).

(** _add_noise of Channel_NO, 31-50. *)
Definition no_add_noise (c : chan) (cp : T) (X : list T) (o : nat) (Y : list T) (fid : nat) : outcome (chan * list T) :=
  if c_users c && (1 <? c_nf c) then Y <- sum_users (c_N c) (c_nf c) X Y ;; Ret (c, Y)
  else Y <- copy X o (c_N c) Y o ;; Ret (c, Y).

(** The task on all the frames (Task.cpp, as in TaskModel.v): one wave of all the frames if add_users, otherwise one frame
    per wave. *)
Definition exec (step : chan -> T -> list T -> nat -> list T -> nat -> outcome (chan * list T))
    (c : chan) (CP X Y : list T) : outcome (chan * list T) :=
  if c_users c then cp <- rd CP 0 ;; step c cp X 0 Y 0
  else for_ (c_nf c) (fun f '(c, Y) => cp <- rd CP f ;; step c cp X (f * c_N c) Y f) (c, Y).

(** A history of calls: the state and the frames received. *)
Inductive ccall := AddNoise (CP X Y : list T) | SetFrames (n : nat).
Fixpoint chan_run (step : chan -> T -> list T -> nat -> list T -> nat -> outcome (chan * list T)) (c : chan) (cs : list ccall) :
    outcome (chan * list (list T)) :=
  match cs with
  | [] => Ret (c, [])
  | AddNoise CP X Y :: cs => ' (c, Y) <- exec step c CP X Y ;; ' (c, Ys) <- chan_run step c cs ;; Ret (c, Y :: Ys)
  | SetFrames n :: cs => c <- set_n_frames c n ;; chan_run step c cs
  end.

(* ------------------------------------------------------------------ *)
(** * Channel_Rayleigh_LLR *)

Variable sqrt : T -> T.                                (* std::sqrt *)

(** _add_noise_wg, Channel_Rayleigh_LLR.cpp 126-200. *)
Definition ray_add_noise (c : chan) (cp : T) (X : list T) (o : nat) (H Y : list T) (fid : nat) : outcome (chan * list T * list T) :=
  let N := c_N c in
  let half := dvd A one (sqrt (ofZ A 2%Z)) in
  if c_users c && (1 <? c_nf c) then
    ' (gains, g) <- draw (c_gen c) (length (c_gains c)) half (c_gains c) 0 ;;
    ' (data, g) <- draw g N cp (c_data c) 0 ;;
    Y <- fill Y 0 N zero ;;
    ' (H, Y) <-
      (if c_complex c then
         for_ (c_nf c) (fun f st => for_ (N / 2) (fun k '(H, Y) =>
           let i := 2 * k in
           h_re <- rd gains (f * N + i) ;; H <- wr H (f * N + i) h_re ;;
           h_im <- rd gains (f * N + i + 1) ;; H <- wr H (f * N + i + 1) h_im ;;
           x_re <- rd X (f * N + i) ;; x_im <- rd X (f * N + i + 1) ;;
           y <- rd Y i ;; Y <- wr Y i (add A y (sub A (mul A x_re h_re) (mul A x_im h_im))) ;;
           y <- rd Y (i + 1) ;; Y <- wr Y (i + 1) (add A y (add A (mul A x_im h_re) (mul A x_re h_im))) ;;
           Ret (H, Y)) st) (H, Y)
       else
         for_ (c_nf c) (fun f st => for_ N (fun i '(H, Y) =>
           h_re <- rd gains (f * N * 2 + 2 * i) ;; h_im <- rd gains (f * N * 2 + 2 * i + 1) ;;
           H <- wr H (f * N + i) (sqrt (add A (mul A h_re h_re) (mul A h_im h_im))) ;;
           y <- rd Y i ;; x <- rd X (f * N + i) ;; h <- rd H (f * N + i) ;;
           Y <- wr Y i (add A y (mul A x h)) ;;
           Ret (H, Y)) st) (H, Y)) ;;
    Y <- for_ N (fun i Y => y <- rd Y i ;; w <- rd data i ;; wr Y i (add A y w)) Y ;;
    Ret (mkCh N (c_nf c) (c_users c) (c_complex c) data gains g, H, Y)
  else
    ' (gains, g) <- draw (c_gen c) (if c_complex c then N else 2 * N) half (c_gains c) (fid * N) ;;
    ' (data, g) <- draw g N cp (c_data c) (fid * N) ;;
    ' (H, Y) <-
      (if c_complex c then
         for_ (N / 2) (fun k '(H, Y) =>
           let n := 2 * k in
           h_re <- rd gains (fid * N + n) ;; H <- wr H (o + n) h_re ;;
           h_im <- rd gains (fid * N + n + 1) ;; H <- wr H (o + n + 1) h_im ;;
           n_re <- rd data (fid * N + n) ;; n_im <- rd data (fid * N + n + 1) ;;
           x_re <- rd X (o + n) ;; x_im <- rd X (o + n + 1) ;;
           Y <- wr Y (o + n) (add A (sub A (mul A x_re h_re) (mul A x_im h_im)) n_re) ;;
           Y <- wr Y (o + n + 1) (add A (add A (mul A x_im h_re) (mul A x_re h_im)) n_im) ;;
           Ret (H, Y)) (H, Y)
       else
         for_ N (fun n '(H, Y) =>
           h_re <- rd gains (fid * N + 2 * n) ;; h_im <- rd gains (fid * N + 2 * n + 1) ;;
           H <- wr H (o + n) (sqrt (add A (mul A h_re h_re) (mul A h_im h_im))) ;;
           x <- rd X (o + n) ;; h <- rd H (o + n) ;; w <- rd data (fid * N + n) ;;
           Y <- wr Y (o + n) (add A (mul A x h) w) ;;
           Ret (H, Y)) (H, Y)) ;;
    Ret (mkCh N (c_nf c) (c_users c) (c_complex c) data gains g, H, Y).

(** The task add_noise_wg on all the frames. *)
Definition exec_ray (c : chan) (CP X H Y : list T) : outcome (chan * list T * list T) :=
  if c_users c then cp <- rd CP 0 ;; ray_add_noise c cp X 0 H Y 0
  else for_ (c_nf c) (fun f '(c, H, Y) => cp <- rd CP f ;; ray_add_noise c cp X (f * c_N c) H Y f) (c, H, Y).

(** A history of calls: the gains and the frames given. *)
Inductive ycall := RayNoise (CP X H Y : list T) | RayFrames (n : nat).
Fixpoint ray_run (c : chan) (cs : list ycall) : outcome (chan * list (list T * list T)) :=
  match cs with
  | [] => Ret (c, [])
  | RayNoise CP X H Y :: cs => ' (c, H, Y) <- exec_ray c CP X H Y ;; ' (c, l) <- ray_run c cs ;; Ret (c, (H, Y) :: l)
  | RayFrames n :: cs => c <- set_n_frames c n ;; ray_run c cs
  end.

(* ------------------------------------------------------------------ *)
(** * Channel_Rayleigh_LLR_user *)

(** The members: gains_stock, gain_occur, current_gain_occur, gain_index beside those of a channel. *)
Record uray := mkR { r_c : chan; r_stock : list T; r_occur : nat; r_cur : nat; r_idx : nat }.

(** The constructor, Channel_Rayleigh_LLR_user.cpp 19-46, on the gains of the file; complex and add_users are refused. *)
Definition make_uray (N : nat) (cplx users : bool) (stock : list T) (occur : Z) (g : G) : outcome uray :=
  _ <- guard (0 <? N) ;; _ <- guard (negb (cplx || users)) ;; _ <- guard (0 <? occur)%Z ;; _ <- guard (0 <? length stock) ;;
  Ret (mkR (mkCh N 1 users cplx (repeat zero N) (repeat zero N) g) stock (Z.to_nat occur) 0 0).

(** set_n_frames, 197-210. *)
Definition uray_set_n_frames (r : uray) (n : nat) : outcome uray :=
  c <- set_n_frames (r_c r) n ;; Ret (mkR c (r_stock r) (r_occur r) (r_cur r) (r_idx r)).

(** _add_noise_wg, 166-195: a single wave. *)
Definition uray_add_noise (r : uray) (cp : T) (X H Y : list T) : outcome (uray * list T * list T) :=
  let c := r_c r in
  ' (gains, cur, idx) <- for_ (length (c_gains c)) (fun i '(gains, cur, idx) =>
    x <- rd (r_stock r) idx ;; gains <- wr gains i x ;;
    let cur := cur + 1 in
    if r_occur r <=? cur then Ret (gains, 0, if length (r_stock r) <=? idx + 1 then 0 else idx + 1)
    else Ret (gains, cur, idx)) (c_gains c, r_cur r, r_idx r) ;;
  ' (data, g) <- draw (c_gen c) (length (c_data c)) cp (c_data c) 0 ;;
  ' (H, Y) <- for_ (c_N c * c_nf c) (fun i '(H, Y) =>
    h <- rd gains i ;; H <- wr H i h ;; x <- rd X i ;; h <- rd H i ;; w <- rd data i ;;
    Y <- wr Y i (add A (mul A x h) w) ;; Ret (H, Y)) (H, Y) ;;
  Ret (mkR (mkCh (c_N c) (c_nf c) (c_users c) (c_complex c) data gains g) (r_stock r) (r_occur r) cur idx, H, Y).

(** A history of calls: the gains and the frames given. *)
Inductive rcall := AddNoiseWg (cp : T) (X H Y : list T) | SetFramesR (n : nat).
Fixpoint uray_run (r : uray) (cs : list rcall) : outcome (uray * list (list T * list T)) :=
  match cs with
  | [] => Ret (r, [])
  | AddNoiseWg cp X H Y :: cs => ' (r, H, Y) <- uray_add_noise r cp X H Y ;; ' (r, l) <- uray_run r cs ;; Ret (r, (H, Y) :: l)
  | SetFramesR n :: cs => r <- uray_set_n_frames r n ;; uray_run r cs
  end.

(* ------------------------------------------------------------------ *)
(** * Channel_user and Channel_user_add *)

(** The members: N, n_frames, add_users, noised_data, noise_buff, noise_counter. *)
Record uchan := mkUc { n_N : nat; n_nf : nat; n_users : bool; n_data : list T; n_buff : list (list T); n_count : nat }.

(** The constructor, Channel_user.cpp 14-29, on the frames of noise of the file, which have the size N. *)
Definition make_uchan (N : nat) (buff : list (list T)) (users : bool) : outcome uchan :=
  _ <- guard (0 <? N) ;; _ <- guard ((0 <? length buff) && forallb (fun w => length w =? N) buff) ;;
  Ret (mkUc N 1 users (repeat zero N) buff 0).

(** set_n_frames, Channel.hxx 173-186. *)
Definition uchan_set_n_frames (c : uchan) (n : nat) : outcome uchan :=
  if n =? n_nf c then Ret c
  else
    _ <- guard (0 <? n) ;;
    Ret (mkUc (n_N c) n (n_users c) (resize (n_data c) (length (n_data c) / n_nf c * n)) (n_buff c) (n_count c)).

(** set_noise, Channel_user.cpp 58-67. *)
Definition set_noise (c : uchan) (fid : nat) : outcome uchan :=
  w <- rd (n_buff c) (n_count c) ;;
  data <- copy w 0 (length w) (n_data c) (fid * n_N c) ;;
  Ret (mkUc (n_N c) (n_nf c) (n_users c) data (n_buff c) ((n_count c + 1) mod length (n_buff c))).

(** _add_noise of Channel_user, 31-47. *)
Definition user_add_noise (c : uchan) (X : list T) (o : nat) (Y : list T) (fid : nat) : outcome (uchan * list T) :=
  if n_users c && (1 <? n_nf c) then
    c <- set_noise c 0 ;; Y <- copy (n_data c) 0 (n_N c) Y 0 ;; Ret (c, Y)
  else
    c <- set_noise c fid ;; Y <- copy (n_data c) (fid * n_N c) (n_N c) Y o ;; Ret (c, Y).

(** _add_noise of Channel_user_add, Channel_user_add.cpp 29-50. *)
Definition useradd_add_noise (c : uchan) (X : list T) (o : nat) (Y : list T) (fid : nat) : outcome (uchan * list T) :=
  if n_users c && (1 <? n_nf c) then
    c <- set_noise c 0 ;; Y <- copy (n_data c) 0 (n_N c) Y 0 ;;
    Y <- sum_users (n_N c) (n_nf c) X Y ;; Ret (c, Y)
  else
    c <- set_noise c fid ;;
    Y <- for_ (n_N c) (fun i Y => x <- rd X (o + i) ;; w <- rd (n_data c) (fid * n_N c + i) ;; wr Y (o + i) (add A x w)) Y ;;
    Ret (c, Y).

(** The bits of a floating-point number, as an integer of the same size; tools::unknown_symbol_val<R>(). *)
Variable bits : T -> Z.
Variable unknown : T.
Variable W : nat.                                      (* mipp::nElReg<R>() *)

(** A loop on the registers, then on the last elements. *)
Definition vec_loop (N : nat) (reg tail : nat -> outcome T) (o : nat) (Y : list T) : outcome (list T) :=
  let vec_loop_size := N / W * W in
  Y <- for_ (N / W) (fun b Y => for_ W (fun l Y => y <- reg (b * W + l) ;; wr Y (o + (b * W + l)) y) Y) Y ;;
  for_from vec_loop_size (N - vec_loop_size) (fun i Y => y <- tail i ;; wr Y (o + i) y) Y.

Definition is_zero (x : T) : bool := negb (neq A x zero).

(** The loops of Channel_user_be.cpp 40-51 and Channel_binary_erasure.cpp 104-118; event is event_draw. *)
Definition erase (N : nat) (event : nat -> outcome Z) (X : list T) (o : nat) (Y : list T) : outcome (list T) :=
  vec_loop N (fun i => x <- rd X (o + i) ;; e <- event i ;; Ret (if (e =? 0)%Z then x else unknown))
    (fun i => e <- event i ;; if (e =? 0)%Z then rd X (o + i) else Ret unknown) o Y.

(** The loops of Channel_user_bs.cpp 42-57 and Channel_binary_symmetric.cpp 108-123: in the registers, events are compared
    with 0; afterwards, the integer of the event is compared with a boolean. *)
Definition flip (N : nat) (event : nat -> outcome Z) (X : list T) (o : nat) (Y : list T) : outcome (list T) :=
  vec_loop N
    (fun i => x <- rd X (o + i) ;; e <- event i ;; Ret (if xorb (negb (e =? 0)%Z) (is_zero x) then zero else one))
    (fun i => e <- event i ;; x <- rd X (o + i) ;; Ret (if negb (e =? (if is_zero x then 1 else 0))%Z then zero else one)) o Y.

(** _add_noise of Channel_user_be and Channel_user_bs: the numbers of the file are read as events. *)
Definition userbe_add_noise (c : uchan) (X : list T) (o : nat) (Y : list T) (fid : nat) : outcome (uchan * list T) :=
  c <- set_noise c fid ;;
  Y <- erase (n_N c) (fun i => x <- rd (n_data c) (n_N c * fid + i) ;; Ret (bits x)) X o Y ;; Ret (c, Y).
Definition userbs_add_noise (c : uchan) (X : list T) (o : nat) (Y : list T) (fid : nat) : outcome (uchan * list T) :=
  c <- set_noise c fid ;;
  Y <- flip (n_N c) (fun i => x <- rd (n_data c) (n_N c * fid + i) ;; Ret (bits x)) X o Y ;; Ret (c, Y).

(** The task of the user channels on all the frames. *)
Definition uexec (step : uchan -> list T -> nat -> list T -> nat -> outcome (uchan * list T)) (c : uchan) (X Y : list T) : outcome (uchan * list T) :=
  if n_users c then step c X 0 Y 0
  else for_ (n_nf c) (fun f '(c, Y) => step c X (f * n_N c) Y f) (c, Y).
Inductive ucall := UAddNoise (X Y : list T) | USetFrames (n : nat).
Fixpoint uchan_run (step : uchan -> list T -> nat -> list T -> nat -> outcome (uchan * list T)) (c : uchan) (cs : list ucall) :
    outcome (uchan * list (list T)) :=
  match cs with
  | [] => Ret (c, [])
  | UAddNoise X Y :: cs => ' (c, Y) <- uexec step c X Y ;; ' (c, Ys) <- uchan_run step c cs ;; Ret (c, Y :: Ys)
  | USetFrames n :: cs => c <- uchan_set_n_frames c n ;; uchan_run step c cs
  end.

(* ------------------------------------------------------------------ *)
(** * Channel_binary_erasure and Channel_binary_symmetric *)

(** _add_noise, Channel_binary_erasure.cpp 95-119 and Channel_binary_symmetric.cpp 95-124, on the events drawn. *)
Definition bec_add_noise (N : nat) (E : list Z) (fid : nat) (X : list T) (o : nat) (Y : list T) : outcome (list T) :=
  erase N (fun i => rd E (N * fid + i)) X o Y.
Definition bsc_add_noise (N : nat) (E : list Z) (fid : nat) (X : list T) (o : nat) (Y : list T) : outcome (list T) :=
  flip N (fun i => rd E (N * fid + i)) X o Y.

(** generate of Event_generator_fast<float>, Event_generator_fast.cpp 48-75: u is what randf_cc() gives, uv what the
    vectorised one gives, le a <= b; nothing is drawn for the probability zero. *)
Variable le : T -> T -> bool.
Definition event_fast (uv u : nat -> T) (draw : list Z) (o length : nat) (p : T) : outcome (list Z) :=
  if is_zero p then fill draw o length 0%Z
  else
    let vec_loop_size := length / W * W in
    draw <- for_ (length / W) (fun b draw => for_ W (fun l draw =>
      wr draw (o + (b * W + l)) (if le (uv (b * W + l)) p then 1%Z else 0%Z)) draw) draw ;;
    for_from vec_loop_size (length - vec_loop_size) (fun i draw => wr draw (o + i) (if le (u (i - vec_loop_size)) p then 1%Z else 0%Z)) draw.
End Channels.

(** read_gains, Channel_Rayleigh_LLR_user.cpp 137-164, on a file of integers: [val] is not initialised before the first
    number.  The fuel bounds the number of turns. *)
Fixpoint read_gains (fuel : nat) (val : option Z) (s : stream) (acc : list (option Z)) : outcome (list (option Z)) :=
  match fuel with
  | 0 => Undef
  | S fuel =>
    if s_eof s then _ <- guard (0 <? length acc) ;; Ret acc
    else let '(val, s) := get_int val s in read_gains fuel val s (acc ++ [val])
  end.
