(** Sources and sinks of frames: src/Module/Source/User/Source_user_binary.cpp, src/Module/Source/User/Source_user.cpp,
    src/Module/Source/AZCW/Source_AZCW.cpp, src/Module/Sink/User/Sink_user_binary.cpp.

    Simplifications: a binary file is the list of its bytes and does not change while it is read; the errors of the file
    system (a file that does not open or cannot be written) are left out; the FIFO mode is left out; a text file is read as in
    AListModel.v; bits are the integers 0 and 1 (any integer for the input of a sink); sizes are natural numbers without
    overflow. *)
From Coq Require Import List Arith Bool ZArith Ascii.
From Verif Require Import Base Copy BitPackerModel AListModel.
Import ListNotations.

(* ------------------------------------------------------------------ *)
(** * Source_user_binary *)

(** The members: K, the file, the position and the eof flag of the stream, auto_reset, done, n_left, memblk, left_bits. *)
Record bsrc := mkS {
  b_K : nat; b_file : list Z; b_pos : nat; b_eof : bool; b_auto : bool; b_done : bool; b_left : nat;
  b_blk : list Z; b_bits : list Z }.

(** The constructor, Source_user_binary.cpp 9-31, with Source.hxx 34-45. *)
Definition make_bsrc (K : nat) (file : list Z) (auto : bool) : outcome bsrc :=
  _ <- guard (0 <? K) ;; Ret (mkS K file 0 false auto false 0 (repeat 0%Z K) (repeat 0%Z 8)).

(** reset, 34-45. *)
Definition bsrc_reset (s : bsrc) : bsrc :=
  mkS (b_K s) (b_file s) 0 false (b_auto s) false 0 (b_blk s) (b_bits s).

(** is_done, 47-52. *)
Definition is_done (s : bsrc) : bool := b_done s.

(** The loop of 67-84: the bytes of the file are read until there are [needed] of them; [n] is n_bytes_read.  The fuel
    bounds the number of turns: without enough of it the result is undefined. *)
Fixpoint read_loop (fuel needed : nat) (s : bsrc) (n : nat) : outcome (bsrc * nat) :=
  match fuel with
  | 0 => Undef
  | S fuel =>
    if n <? needed then
      let count := Nat.min (needed - n) (length (b_file s) - b_pos s) in
      blk <- copy (b_file s) (b_pos s) count (b_blk s) n ;;
      let short := count <? needed - n in
      let s := mkS (b_K s) (b_file s) (b_pos s + count) (b_eof s || short) (b_auto s) (b_done s) (b_left s) blk (b_bits s) in
      let n := n + count in
      if short then
        if b_auto s then read_loop fuel needed (bsrc_reset s) n else Ret (s, n)
      else read_loop fuel needed s n
    else Ret (s, n)
  end.

(** tools::Bit_packer::unpack(blk + i, U + o, n) of bytes, one frame: Bit_packer.hxx 184-205, 303-328. *)
Definition unpack_at (blk : list Z) (i : nat) (U : list Z) (o n : nat) : outcome (list Z) :=
  _unpack (fun k => rd blk (i + k)) (fun U k x => wr U (o + k) x) 8 n false 8 U.
(** The same for pack: Bit_packer.hxx 66-87, 258-301. *)
Definition pack_at (V : list Z) (o : nat) (blk : list Z) (n : nat) : outcome (list Z) :=
  _pack (fun _ k => rd V (o + k)) (fun blk i x => wr blk (0 + i) x) 8 n false 8 blk.

(** The end of _generate, 86-117; n is n_bytes_read.  With fewer bits in the frame than bits left, line 108 reads before the
    first byte of memblk. *)
Definition bsrc_finish (needed : nat) (s : bsrc) (n : nat) (U : list Z) : outcome (bsrc * list Z) :=
  let K := b_K s in
  let l := b_left s in
  let l' := n * 8 - (K - l) in
  if l + n * 8 <=? K then
    U <- unpack_at (b_blk s) 0 U l (n * 8) ;;
    U <- fill U (l + n * 8) (K - (l + n * 8)) 0%Z ;;
    Ret (mkS K (b_file s) (b_pos s) (b_eof s) (b_auto s) (b_done s || (negb (b_auto s) && b_eof s)) l' (b_blk s) (b_bits s), U)
  else
    if K <? l then Undef
    else
      U <- unpack_at (b_blk s) 0 U l (K - l) ;;
      bits <- (if l' =? 0 then Ret (b_bits s)
               else bits <- unpack_at (b_blk s) (needed - 1) (b_bits s) 0 8 ;;
                    for_ l' (fun i bits => b <- rd bits (i + 8 - l') ;; wr bits i b) bits) ;;
      Ret (mkS K (b_file s) (b_pos s) (b_eof s) (b_auto s) (b_done s) l' (b_blk s) bits, U).

(** _generate, 54-118; U is the content of the output buffer before the call. *)
Definition bsrc_generate (fuel : nat) (s : bsrc) (U : list Z) : outcome (bsrc * list Z) :=
  if b_done s then U <- fill U 0 (b_K s) 0%Z ;; Ret (s, U)
  else
    let needed := (b_K s + 8 - 1 - b_left s) / 8 in
    U <- for_ (b_left s) (fun i U => b <- rd (b_bits s) i ;; wr U i b) U ;;
    ' (s, n) <- read_loop fuel needed s 0 ;;
    bsrc_finish needed s n U.

(** A history of calls of a source: the state and the frames generated, in order. *)
Inductive scall := Generate (U : list Z) | Rewind.
Fixpoint bsrc_run (fuel : nat) (s : bsrc) (cs : list scall) : outcome (bsrc * list (list Z)) :=
  match cs with
  | [] => Ret (s, [])
  | Generate U :: cs => ' (s, F) <- bsrc_generate fuel s U ;; ' (s, Fs) <- bsrc_run fuel s cs ;; Ret (s, F :: Fs)
  | Rewind :: cs => bsrc_run fuel (bsrc_reset s) cs
  end.

(* ------------------------------------------------------------------ *)
(** * Sink_user_binary *)

(** The members: K, the bytes written, chunk, reconstructed_buffer, n_left. *)
Record bsnk := mkK { k_K : nat; k_file : list Z; k_chunk : list Z; k_buf : list Z; k_left : nat }.

(** The constructor, Sink_user_binary.cpp 12-38. *)
Definition make_bsnk (K : nat) : outcome bsnk :=
  _ <- guard (8 <=? K) ;; Ret (mkK K [] (repeat 0%Z K) (repeat 0%Z 8) 0).

(** reset, 41-49: the file is emptied. *)
Definition bsnk_reset (s : bsnk) : bsnk := mkK (k_K s) [] (k_chunk s) (k_buf s) 0.

(** _send, 51-86. *)
Definition bsnk_send (s : bsnk) (V : list Z) : outcome bsnk :=
  let K := k_K s in
  let comp := (8 - k_left s) mod 8 in
  ' (buf, file) <-
    (if k_left s =? 0 then Ret (k_buf s, k_file s)
     else
       buf <- for_ comp (fun i buf => v <- rd V i ;; wr buf (k_left s + i) v) (k_buf s) ;;
       byte <- pack_at buf 0 [0%Z] 8 ;;
       Ret (buf, k_file s ++ byte)) ;;
  let main := (K - comp) / 8 in
  chunk <- pack_at V comp (k_chunk s) (main * 8) ;;
  ' (buf, n) <- for_from (comp + main * 8) (K - (comp + main * 8))
    (fun i '(buf, n) => v <- rd V i ;; buf <- wr buf n v ;; Ret (buf, S n)) (buf, 0) ;;
  Ret (mkK K (file ++ firstn main chunk) chunk buf n).

(** A history of calls of a sink. *)
Inductive kcall := Send (V : list Z) | Empty.
Fixpoint bsnk_run (s : bsnk) (cs : list kcall) : outcome bsnk :=
  match cs with
  | [] => Ret s
  | Send V :: cs => s <- bsnk_send s V ;; bsnk_run s cs
  | Empty :: cs => bsnk_run (bsnk_reset s) cs
  end.

(* ------------------------------------------------------------------ *)
(** * Source_user *)

(** [stream >> x] for an int x of value [old], None when it is not initialised (num_get, C++11). *)
Definition get_int (old : option Z) (s : stream) : option Z * stream :=
  if s_eof s || s_fail s then (old, mkStream (s_rest s) (s_eof s) true) else
  match skip_ws (s_rest s) with
  | [] => (old, mkStream [] true true)
  | t =>
      let '(neg, t) := take_sign t in
      let '(v, k, t') := take_digits t 0 0 in
      let v := if neg then (- v)%Z else v in
      let eof := match t' with [] => true | _ => false end in
      if k =? 0 then (Some 0%Z, mkStream t' eof true)
      else if (2 ^ 31 <=? v)%Z then (Some (2 ^ 31 - 1)%Z, mkStream t' eof true)
      else if (v <? - 2 ^ 31)%Z then (Some (- 2 ^ 31)%Z, mkStream t' eof true)
      else (Some v, mkStream t' eof false)
  end.

(** The members: K, source, src_counter. *)
Record usrc := mkU { u_K : nat; u_source : list (list Z); u_counter : Z }.

(** The constructor, Source_user.cpp 11-67; t is the text of the file.  A bit that is not read is not initialised. *)
Definition make_usrc (K : nat) (t : text) (start : Z) : outcome usrc :=
  _ <- guard (0 <? K) ;;
  let '(n_src, s) := get_int (Some 0%Z) (open t) in
  let '(size, s) := get_int (Some 0%Z) s in
  match n_src, size with
  | Some n_src, Some size =>
    _ <- guard ((0 <? n_src) && (0 <? size))%Z ;;
    let source := repeat (repeat 0%Z (Z.to_nat size)) (Z.to_nat n_src) in
    _ <- guard (size =? Z.of_nat K)%Z ;;
    ' (source, _) <- for_ (Z.to_nat n_src) (fun i st => for_ (Z.to_nat size) (fun j '(source, s) =>
      let '(bit, s) := get_int None s in
      match bit with
      | None => Undef
      | Some bit => row <- rd source i ;; row <- wr row j (b2z (nz bit)) ;; source <- wr source i row ;; Ret (source, s)
      end) st) (source, s) ;;
    Ret (mkU K source (Z.rem start n_src))
  | _, _ => Undef
  end.

(** _generate, 79-88. *)
Definition usrc_generate (s : usrc) (U : list Z) : outcome (usrc * list Z) :=
  if (u_counter s <? 0)%Z then Undef
  else
    row <- rd (u_source s) (Z.to_nat (u_counter s)) ;;
    U <- copy row 0 (length row) U 0 ;;
    Ret (mkU (u_K s) (u_source s) (Z.rem (u_counter s + 1) (Z.of_nat (length (u_source s)))), U).

Fixpoint usrc_run (s : usrc) (Us : list (list Z)) : outcome (usrc * list (list Z)) :=
  match Us with
  | [] => Ret (s, [])
  | U :: Us => ' (s, F) <- usrc_generate s U ;; ' (s, Fs) <- usrc_run s Us ;; Ret (s, F :: Fs)
  end.

(** _generate of Source_AZCW, Source_AZCW.cpp 26-30. *)
Definition azcw_generate (K : nat) (U : list Z) : outcome (list Z) := fill U 0 K 0%Z.
