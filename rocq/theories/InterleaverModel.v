(** Model of the interleaver cores and of the Interleaver module. No proofs. *)
From Coq Require Import List Arith Bool.
From Verif Require Import Base.
Import ListNotations.

(** The look-up tables have an unsigned element type T of [w] bits
    (uint8_t .. uint64_t): storing [x] keeps [x mod 2^w]. *)
Definition wrap (w x : nat) : nat := x mod 2 ^ w.

(** A generator [gen_lut(T *lut, frame_id)] rewrites the block of [size] entries
    it is given.  *)
Definition generator := nat -> list nat -> outcome (list nat).

(** include/Tools/Interleaver/Interleaver_core.hxx:135-136 and 146-147:
    for i < size: pi_inv[off + pi[off + i]] = i *)
Definition inv_loop (w size off : nat) (pi pi_inv : list nat) : outcome (list nat) :=
  for_ size (fun i piv => p <- rd pi (off + i) ;; wr piv (off + p) (wrap w i)) pi_inv.

(** std::copy of [src] to [dst + off] (checked), used by
    Interleaver_core.hxx:154-155 and to put a generated block in place. *)
Definition copy_at (src dst : list nat) (off : nat) : outcome (list nat) :=
  for_ (length src) (fun i d => x <- rd src i ;; wr d (off + i) x) dst.

(** gen_lut(pi.data() + off, f): the generator is run on the block and the result
    put back (the C++ passes a pointer into the vector). *)
Definition gen_at (size : nat) (gen : generator) (f off : nat) (pi : list nat) : outcome (list nat) :=
  b <- gen f (firstn size (skipn off pi)) ;; copy_at b pi off.

(** include/Tools/Interleaver/Interleaver_core.hxx:130-158 refresh(). *)
Definition refresh (w size n_frames : nat) (uniform : bool) (gen : generator)
           (pi pi_inv : list nat) : outcome (list nat * list nat) :=
  pi <- gen_at size gen 0 0 pi ;;
  pi_inv <- inv_loop w size 0 pi pi_inv ;;
  if uniform then
    for_from 1 (n_frames - 1) (fun f '(pi, pi_inv) =>
      pi <- gen_at size gen f (f * size) pi ;;
      pi_inv <- inv_loop w size (f * size) pi pi_inv ;;
      Ret (pi, pi_inv)) (pi, pi_inv)
  else
    for_from 1 (n_frames - 1) (fun f '(pi, pi_inv) =>
      pi <- copy_at (firstn size pi) pi (f * size) ;;
      pi_inv <- copy_at (firstn size pi_inv) pi_inv (f * size) ;;
      Ret (pi, pi_inv)) (pi, pi_inv).

(** State of an initialised core: constructor (Interleaver_core.hxx:11-30) followed
    by init() (122-128), or set_n_frames (72-99) on such a core; the tables are
    resized to size * n_frames and refreshed. A size of 0 throws. *)
Definition init_core (w size n_frames : nat) (uniform : bool) (gen : generator)
  : outcome (list nat * list nat) :=
  if size =? 0 then Throws else
  if n_frames =? 0 then Throws else
  refresh w size n_frames uniform gen (repeat 0 (size * n_frames)) (repeat 0 (size * n_frames)).

(** Parameters seen by the Interleaver module: core size, uniformity and frame
    count, the module's n_frames and n_frames_per_wave, and mipp::nElReg<D>(). *)
Record itl := { size : nat; uniform : bool; core_nf : nat;
                nf : nat; npw : nat; nel : nat }.

(** include/Module/Interleaver/Interleaver.hxx:214-243 _interleave. *)
Definition interleave {D} (m : itl) (lut : list nat) (frame_id : nat) (inp out : list D)
  : outcome (list D) :=
  if negb (uniform m) then
    for_ (npw m) (fun f out =>
      for_ (size m) (fun i out =>
        v <- rd lut i ;; x <- rd inp (f * size m + v) ;; wr out (f * size m + i) x) out) out
  else
    r <- for_ (npw m) (fun f '(out, cur) =>
      out <- for_ (size m) (fun i out =>
        v <- rd lut (cur * size m + i) ;; x <- rd inp (f * size m + v) ;;
        wr out (f * size m + i) x) out ;;
      Ret (out, ((cur + 1) mod nf m) mod core_nf m))
      (out, (frame_id mod nf m) mod core_nf m) ;;
    Ret (fst r).

(** include/Module/Interleaver/Interleaver.hxx:245-282 _interleave_reordering.
    The vectorised branch (254-259) copies nElReg consecutive elements. *)
Definition interleave_reordering {D} (m : itl) (lut : list nat) (frame_id : nat) (inp out : list D)
  : outcome (list D) :=
  if negb (uniform m) then
    if npw m =? nel m then
      for_ (size m) (fun i out =>
        v <- rd lut i ;;
        for_ (nel m) (fun f out =>
          x <- rd inp (v * nel m + f) ;; wr out (i * nel m + f) x) out) out
    else
      for_ (size m) (fun i out =>
        v <- rd lut i ;;
        for_ (npw m) (fun f out =>
          x <- rd inp (v * nf m + f) ;; wr out (i * nf m + f) x) out) out
  else
    r <- for_ (npw m) (fun f '(out, cur) =>
      out <- for_ (size m) (fun i out =>
        v <- rd lut (cur * size m + i) ;; x <- rd inp (v * nf m + f) ;;
        wr out (i * npw m + f) x) out ;;
      Ret (out, ((cur + 1) mod nf m) mod core_nf m))
      (out, (frame_id mod nf m) mod core_nf m) ;;
    Ret (fst r).

(* ------------------------------------------------------------------ *)
(** * Generators *)

(** std::iota(lut, lut + size, 0) on elements of w bits: the value is
    incremented in the type int 0 and converted on store. *)
Definition iota (w : nat) (lut : list nat) : list nat :=
  map (wrap w) (seq 0 (length lut)).

(** src/Tools/Interleaver/NO/Interleaver_core_NO.cpp:24-29. *)
Definition gen_NO (w : nat) : generator := fun _ lut => Ret (iota w lut).

(** src/Tools/Interleaver/Random/Interleaver_core_random.cpp:27-33. std::shuffle is
    an arbitrary function [sh] (one per call); the theorems assume that it permutes. *)
Definition gen_random (w : nat) (sh : nat -> list nat -> list nat) : generator :=
  fun f lut => Ret (sh f (iota w lut)).

(** src/Tools/Interleaver/Golden/Interleaver_core_golden.cpp:29-47. std::sort with
    the keys [tab] is an arbitrary function; the floating-point keys only decide
    which permutation is chosen. *)
Definition gen_golden (w : nat) (srt : nat -> list nat -> list nat) : generator :=
  fun f lut => Ret (srt f (iota w lut)).

(** src/Tools/Interleaver/Random_column/Interleaver_core_random_column.cpp:36-52;
    [sh f column] is the shuffle drawn for that column of that frame. *)
Definition gen_random_column (w n_cols col_size : nat)
           (sh : nat -> nat -> list nat -> list nat) : generator :=
  fun f lut =>
    for_ n_cols (fun column lut =>
      let pi_temp := map (fun c => wrap w (c + column * col_size)) (seq 0 col_size) in
      let pi_temp := sh f column pi_temp in
      for_ col_size (fun c lut =>
        x <- rd pi_temp c ;; wr lut (c + column * col_size) x) lut) lut.

Inductive read_order := TOP_LEFT | TOP_RIGHT | BOTTOM_LEFT | BOTTOM_RIGHT.

(** The value taken by the k-th iteration of the column loop and of the row loop:
    up-counting or down-counting. *)
Definition col_at (ro : read_order) (n_cols k : nat) : nat :=
  match ro with
  | TOP_LEFT | BOTTOM_LEFT => k
  | TOP_RIGHT | BOTTOM_RIGHT => n_cols - 1 - k
  end.
Definition row_at (ro : read_order) (n_rows k : nat) : nat :=
  match ro with
  | TOP_LEFT | TOP_RIGHT => k
  | BOTTOM_LEFT | BOTTOM_RIGHT => n_rows - 1 - k
  end.

(** src/Tools/Interleaver/Row_column/Interleaver_core_row_column.cpp:57-85; idx has
    the element type T and wraps. *)
Definition gen_row_column (w n_rows n_cols : nat) (ro : read_order) : generator :=
  fun _ lut =>
    r <- for_ n_cols (fun k '(lut, idx) =>
      for_ n_rows (fun l '(lut, idx) =>
        lut <- wr lut idx (wrap w (row_at ro n_rows l * n_cols + col_at ro n_cols k)) ;;
        Ret (lut, wrap w (idx + 1))) (lut, idx)) (lut, 0) ;;
    Ret (fst r).

(** src/Tools/Interleaver/Column_row/Interleaver_core_column_row.cpp:57-85. *)
Definition gen_column_row (w n_rows n_cols : nat) (ro : read_order) : generator :=
  fun _ lut =>
    r <- for_ n_cols (fun k '(lut, idx) =>
      for_ n_rows (fun l '(lut, idx) =>
        lut <- wr lut (row_at ro n_rows l * n_cols + col_at ro n_cols k) idx ;;
        Ret (lut, wrap w (idx + 1))) (lut, idx)) (lut, 0) ;;
    Ret (fst r).

(** Constructors with the size check
    (Interleaver_core_row_column.cpp:33-47, Interleaver_core_column_row.cpp:33-47,
    Interleaver_core_random_column.cpp:10-26). size / 0 is a division by zero. *)
Definition init_row_column (w sz n_cols n_frames : nat) (ro : read_order) :=
  if n_cols =? 0 then Undef else
  if negb (sz / n_cols * n_cols =? sz) then Throws else
  init_core w sz n_frames false (gen_row_column w (sz / n_cols) n_cols ro).
Definition init_column_row (w sz n_cols n_frames : nat) (ro : read_order) :=
  if n_cols =? 0 then Undef else
  if negb (sz / n_cols * n_cols =? sz) then Throws else
  init_core w sz n_frames false (gen_column_row w (sz / n_cols) n_cols ro).
Definition init_random_column (w sz n_cols n_frames : nat) (unif : bool) sh :=
  if n_cols =? 0 then Undef else
  if negb (sz / n_cols * n_cols =? sz) then Throws else
  init_core w sz n_frames unif (gen_random_column w n_cols (sz / n_cols) sh).

(* ------------------------------------------------------------------ *)
(** * User interleaver file *)

(** What [file >> val] meets next: a number of the element type, or something that
    makes the extraction fail after storing [v] (0 or the maximum, C++11). At the
    end of the file, or once the stream has failed, the variable is unchanged. *)
Inductive token := Num (n : nat) | Bad (v : nat).

(** Stream state: remaining tokens, None after a failure; the variable being read
    is None while uninitialised. *)
Definition extract (st : option (list token)) (val : option nat)
  : option (list token) * option nat :=
  match st with
  | None => (None, val)
  | Some [] => (None, val)
  | Some (Num n :: t) => (Some t, Some n)
  | Some (Bad v :: t) => (None, Some v)
  end.

(** The duplicate search, Interleaver_core_user.cpp:48-55. *)
Definition dup_before (l : list nat) (i v : nat) : bool :=
  existsb (Nat.eqb v) (firstn i l).

(** One table: Interleaver_core_user.cpp:43-78. [val] is initialised here. *)
Definition user_table (sz : nat) (st : option (list token)) (val : nat)
  : outcome (list nat * option (list token) * nat) :=
  for_ sz (fun i '(l, st, val) =>
    match extract st (Some val) with
    | (st, Some val) =>
        if val <? sz then
          if dup_before l i val then Throws else
          l <- wr l i val ;; Ret (l, st, val)
        else Throws
    | (_, None) => Undef
    end) (repeat 0 sz, st, val).

(** src/Tools/Interleaver/User/Interleaver_core_user.cpp:13-110 (constructor, up to
    init()): the tables of pi_buffer. Element types of at least 16 bits ([uint8_t]
    streams characters), size fits in the element type. Negative numbers are not
    modelled (they wrap to large values, which are rejected, or fail). *)
Definition user_read (sz : nat) (file : list token) : outcome (list (list nat)) :=
  match extract (Some file) None with
  | (_, None) => Undef
  | (st, Some n_itl) =>
      if n_itl =? 0 then Throws else
      match extract st None with
      | (_, None) => Undef
      | (st, Some val) =>
          if negb (val =? sz) then Throws else
          r <- for_ n_itl (fun _ '(acc, st, val) =>
                 '(l, st, val) <- user_table sz st val ;;
                 Ret (acc ++ [l], st, val)) ([], st, val) ;;
          Ret (fst (fst r))
      end
  end.

(** Interleaver_core_user.cpp:120-126 gen_lut: tables are taken in turn; [k0] is
    cur_itl_id when refresh() starts, and frame f uses table k0 + f. *)
Definition gen_user (tables : list (list nat)) (k0 : nat) : generator :=
  fun f lut =>
    match nth_error tables ((k0 + f) mod length tables) with
    | Some t => copy_at t lut 0
    | None => Undef
    end.
