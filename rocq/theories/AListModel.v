(** Files of LDPC matrices: model of the text functions of src/Tools/general_utils.cpp, of src/Tools/Code/LDPC/AList/AList.cpp,
    of src/Tools/Code/LDPC/QC/QC.cpp and of the readers of src/Tools/Code/LDPC/Matrix_handler/LDPC_matrix_handler.cpp.
    A text is a list of characters; a stream has a text left to read and the flags eof and fail.  Simplifications: the
    locale is the classic one; the warnings and the failures of allocations are left out. *)
From Coq Require Import List Arith Lia Bool ZArith Ascii String.
From Verif Require Import Base GaloisModel SparseModel.
Import ListNotations.
Local Open Scope list_scope.

Definition text := list ascii.
Record stream := mkStream { s_rest : text; s_eof : bool; s_fail : bool }.
Definition open (t : text) : stream := mkStream t false false.

Definition nl : ascii := ascii_of_nat 10.
Definition sp : ascii := ascii_of_nat 32.
Definition hash : ascii := ascii_of_nat 35.
Definition minus : ascii := ascii_of_nat 45.
Definition plus : ascii := ascii_of_nat 43.

(** isspace *)
Definition is_space (c : ascii) : bool := let n := nat_of_ascii c in (n =? 32) || ((9 <=? n) && (n <=? 13)).
Definition is_digit (c : ascii) : bool := let n := nat_of_ascii c in (48 <=? n) && (n <=? 57).
Definition digit (c : ascii) : Z := (Z.of_nat (nat_of_ascii c) - 48)%Z.

Fixpoint skip_ws (t : text) : text := match t with [] => [] | c :: t' => if is_space c then skip_ws t' else t end.

(** The optional sign accepted by strtol and by num_get. *)
Definition take_sign (t : text) : bool * text :=
  match t with
  | c :: t' => if Ascii.eqb c minus then (true, t') else if Ascii.eqb c plus then (false, t') else (false, t)
  | [] => (false, t)
  end.

(** The digits at the beginning of a text: value, number of digits, remaining text. *)
Fixpoint take_digits (t : text) (acc : Z) (k : nat) : Z * nat * text :=
  match t with
  | c :: t' => if is_digit c then take_digits t' (10 * acc + digit c)%Z (S k) else (acc, k, t)
  | [] => (acc, k, t)
  end.

(** std::stoi: throws without digits and outside of the range of int. *)
Definition stoi (w : text) : outcome Z :=
  let '(neg, t) := take_sign (skip_ws w) in
  let '(v, k, _) := take_digits t 0 0 in
  let z := if neg then (- v)%Z else v in
  if k =? 0 then Throws else if ((- 2 ^ 31 <=? z) && (z <? 2 ^ 31))%Z then Ret z else Throws.

(** [stream >> x] for an unsigned x of value [old] (num_get, C++11). *)
Definition get_unsigned (old : Z) (s : stream) : Z * stream :=
  if s_eof s || s_fail s then (old, mkStream (s_rest s) (s_eof s) true) else
  match skip_ws (s_rest s) with
  | [] => (old, mkStream [] true true)
  | t =>
      let '(neg, t) := take_sign t in
      let '(v, k, t') := take_digits t 0 0 in
      let eof := match t' with [] => true | _ => false end in
      if k =? 0 then (0%Z, mkStream t' eof true)
      else if (2 ^ 32 <=? v)%Z then ((2 ^ 32 - 1)%Z, mkStream t' eof true)
      else ((if neg then - v else v) mod 2 ^ 32, mkStream t' eof false)%Z
  end.

(** The first line of a text, and what follows the end of line, if there is one. *)
Fixpoint take_line (t : text) : text * option text :=
  match t with
  | [] => ([], None)
  | c :: t' => if Ascii.eqb c nl then ([], Some t') else let '(l, r) := take_line t' in (c :: l, r)
  end.

(** std::getline: whether it succeeded, the line, the stream. *)
Definition std_getline (line : text) (s : stream) : bool * text * stream :=
  if s_eof s || s_fail s then (false, line, mkStream (s_rest s) (s_eof s) true) else
  match take_line (s_rest s) with
  | (l, Some t) => (true, l, mkStream t false false)
  | ([], None) => (false, [], mkStream [] true true)
  | (l, None) => (true, l, mkStream [] true false)
  end.

(** general_utils.cpp 43-45: the first character of an empty line is the null character. *)
Definition kept_line (l : text) : bool := negb (match l with c :: _ => Ascii.eqb c hash | [] => false end) && negb (forallb is_space l).
Fixpoint getline_loop (fuel : nat) (line : text) (s : stream) : outcome (text * stream) :=
  match fuel with
  | 0 => Undef
  | S fuel => let '(ok, line, s) := std_getline line s in
      if ok : bool then (if kept_line line then Ret (line, s) else getline_loop fuel line s) else Ret (line, s)
  end.

(** general_utils.cpp 38-46 (tools::getline).  Every line read shortens the text: the fuel is never used up. *)
Definition getline (line : text) (s : stream) : outcome (text * stream) :=
  _ <- guard (negb (s_eof s || s_fail s)) ;; getline_loop (S (List.length (s_rest s))) line s.

(** general_utils.cpp 24-36 (tools::split): the words; [cur] is the word being read. *)
Definition flush (cur : text) : list text := match cur with [] => [] | _ => [rev cur] end.
Fixpoint words_from (cur t : text) : list text :=
  match t with [] => flush cur | c :: t => if is_space c then flush cur ++ words_from [] t else words_from (c :: cur) t end.
Definition split (t : text) : list text := words_from [] t.

(** [stream << n] for an unsigned n: the digits of n. *)
Fixpoint dec_loop (fuel : nat) (n : nat) (acc : text) : text :=
  match fuel with
  | 0 => acc
  | S fuel => let acc := ascii_of_nat (48 + n mod 10) :: acc in if n <? 10 then acc else dec_loop fuel (n / 10) acc
  end.
Definition dec (n : nat) : text := dec_loop (S n) n [].

Definition getline_split (s : stream) : outcome (list text * stream) := ' (line, s) <- getline [] s ;; Ret (split line, s).
Definition u32 (z : Z) : Z := (z mod 2 ^ 32)%Z.
Definition at_i (values : list text) (i : nat) : outcome Z := w <- rd values i ;; stoi w.

(* ------------------------------------------------------------------ *)
(** * AList *)

(** AList.cpp 73-75: the values followed by a space each. *)
Definition toks (l : list nat) : text := flat_map (fun x => dec x ++ [sp]) l.

(** AList.cpp 81-93 (one row) and 96-106 (one column); [mx] is the maximal degree. *)
Definition alist_line (pad : bool) (mx : nat) (l : list nat) : text :=
  toks (map (fun x => x + 1) l) ++
  (if pad then toks (repeat 0 (mx - List.length l)) else if List.length l =? 0 then toks [0] else []) ++ [nl].

(** AList.cpp 66-107 (write) *)
Definition alist_write (M : sparse) (pad : bool) : text :=
  dec (sp_rows M) ++ [sp] ++ dec (sp_cols M) ++ [nl; nl] ++
  dec (sp_rmax M) ++ [sp] ++ dec (sp_cmax M) ++ [nl; nl] ++
  toks (map (@List.length nat) (sp_r2c M)) ++ [nl; nl] ++
  toks (map (@List.length nat) (sp_c2r M)) ++ [nl; nl] ++
  flat_map (alist_line pad (sp_rmax M)) (sp_r2c M) ++ [nl] ++
  flat_map (alist_line pad (sp_cmax M)) (sp_c2r M).

(** AList.cpp 200-208 (write_info_bits_pos) *)
Definition pos_title : text := list_ascii_of_string "# Positions of the information bits in the codewords:".
Definition alist_write_pos (pos : list nat) : text := pos_title ++ [nl] ++ dec (List.length pos) ++ [nl] ++ toks pos ++ [nl].

(** AList.cpp 223-238 and 241-256: a degree between 1 and the maximal degree. *)
Definition get_degree (mx : Z) (s : stream) : outcome (Z * stream) :=
  let '(n, s) := get_unsigned 0 s in _ <- guard (negb (n =? 0) && (n <=? mx))%Z ;; Ret (n, s).

(** AList.cpp 211-327 (read_format1) *)
Definition read_format1 (s : stream) : outcome (sparse * stream) :=
  let '(n_rows, s) := get_unsigned 0 s in
  let '(n_cols, s) := get_unsigned 0 s in
  let '(rmax, s) := get_unsigned 0 s in
  let '(cmax, s) := get_unsigned 0 s in
  _ <- guard ((0 <? n_rows) && (0 <? n_cols) && (0 <? rmax) && (0 <? cmax))%Z ;;
  let n := Z.to_nat n_rows in let m := Z.to_nat n_cols in
  ' (degs, s) <- for_ n (fun i '(degs, s) => ' (d, s) <- get_degree rmax s ;; degs <- wr degs i d ;; Ret (degs, s)) (repeat 0%Z n, s) ;;
  s <- for_ m (fun i s => ' (d, s) <- get_degree cmax s ;; Ret s) s ;;
  for_ n (fun i '(M, s) =>
    for_ (Z.to_nat rmax) (fun j '(M, s) =>
      let '(c, s) := get_unsigned 0 s in
      d <- rd degs i ;;
      if (((0 <? c) && (Z.of_nat j <? d)) || ((c =? 0) && (d <=? Z.of_nat j)))%Z then
        M <- (if (c =? 0)%Z then Ret M else sp_add M i (Z.to_nat (c - 1))) ;; Ret (M, s)
      else Throws) (M, s)) (sp_new n m, s).

(** AList.cpp 330-510 (read_format2) *)
Definition read_format2 (s : stream) : outcome (sparse * stream) :=
  ' (values, s) <- getline_split s ;;
  _ <- guard (2 <=? List.length values) ;;
  a <- at_i values 0 ;; b <- at_i values 1 ;;
  let n_rows := u32 a in let n_cols := u32 b in
  _ <- guard (negb ((n_rows =? 0) || (n_cols =? 0)))%Z ;;
  let n := Z.to_nat n_rows in let m := Z.to_nat n_cols in
  ' (values, s) <- getline_split s ;;
  _ <- guard (2 <=? List.length values) ;;
  a <- at_i values 0 ;; b <- at_i values 1 ;;
  let rmax := u32 a in let cmax := u32 b in
  _ <- guard (negb ((rmax =? 0) || (cmax =? 0)))%Z ;;
  ' (values, s) <- getline_split s ;;
  _ <- guard (n <=? List.length values) ;;
  degs <- for_ n (fun i degs => d <- at_i values i ;; _ <- guard (u32 d <=? rmax)%Z ;; wr degs i (u32 d)) (repeat 0%Z n) ;;
  ' (values, s) <- getline_split s ;;
  _ <- guard (m <=? List.length values) ;;
  _ <- for_ m (fun i u => d <- at_i values i ;; guard (u32 d <=? cmax)%Z) tt ;;
  for_ n (fun i '(M, s) =>
    ' (values, s) <- getline_split s ;;
    d <- rd degs i ;;
    _ <- guard (d <=? Z.of_nat (List.length values))%Z ;;
    M <- for_ (Z.to_nat rmax) (fun j M =>
      c <- (if j <? List.length values then at_i values j else Ret 0%Z) ;;
      d <- rd degs i ;;
      if (((0 <? c) && (Z.of_nat j <? d)) || ((c <=? 0) && (d <=? Z.of_nat j)))%Z then
        (if (c =? 0)%Z then Ret M else sp_add M i (Z.to_nat ((c - 1) mod 2 ^ 64)))
      else Throws) M ;;
    Ret (M, s)) (sp_new n m, s).

(** AList.cpp 513-588 (read_format3).  The number of values is compared with n_rows but n_cols values are read. *)
Definition read_format3 (s : stream) : outcome (sparse * stream) :=
  ' (values, s) <- getline_split s ;;
  _ <- guard (2 <=? List.length values) ;;
  a <- at_i values 0 ;; b <- at_i values 1 ;;
  let n_cols := u32 a in let n_rows := u32 b in
  _ <- guard (negb ((n_rows =? 0) || (n_cols =? 0)))%Z ;;
  let n := Z.to_nat n_rows in let m := Z.to_nat n_cols in
  ' (values, s) <- getline_split s ;;
  _ <- guard (n <=? List.length values) ;;
  degs <- for_ m (fun i degs => d <- at_i values i ;; _ <- guard ((0 <? u32 d) && (u32 d <=? n_rows))%Z ;; wr degs i (u32 d)) (repeat 0%Z m) ;;
  for_ m (fun i '(M, s) =>
    ' (values, s) <- getline_split s ;;
    d <- rd degs i ;;
    _ <- guard (d <=? Z.of_nat (List.length values))%Z ;;
    M <- for_ (Z.to_nat d) (fun j M => r <- at_i values j ;; sp_add M (Z.to_nat (u32 r)) i) M ;;
    Ret (M, s)) (sp_new n m, s).

(** [try { a } catch (std::exception const&) { b }] *)
Definition try_catch {A} (a b : outcome A) : outcome A := match a with Throws => b | _ => a end.

(** AList.cpp 14-64 (read): tellg of a failed stream gives -1, and seekg(-1) fails. *)
Definition alist_read (s : stream) : outcome (sparse * stream) :=
  let s' := if s_fail s then mkStream (s_rest s) false true else open (s_rest s) in
  try_catch (read_format1 s) (try_catch (read_format2 s') (read_format3 s')).

(** AList.cpp 133-135: lines are skipped until the title, the end of the stream or an error. *)
Fixpoint skip_to_title (fuel : nat) (line : text) (s : stream) : outcome stream :=
  match fuel with
  | 0 => Undef
  | S fuel => let '(ok, line, s) := std_getline line s in
      if ok : bool then (if (if list_eq_dec ascii_dec line pos_title then true else false) || s_eof s || s_fail s then Ret s else skip_to_title fuel line s)
      else Ret s
  end.

(** AList.cpp 127-171 (read_info_bits_pos) *)
Definition alist_read_pos (s : stream) : outcome (list nat) :=
  s <- skip_to_title (S (List.length (s_rest s))) [] s ;;
  ' (values, s) <- getline_split s ;;
  _ <- guard (List.length values =? 1) ;;
  a <- at_i values 0 ;;
  ' (values, s) <- getline_split s ;;
  _ <- guard (Z.of_nat (List.length values) =? u32 a)%Z ;;
  each values (fun w pos => p <- stoi w ;; let p := Z.to_nat (u32 p) in
    _ <- guard (negb (existsb (Nat.eqb p) pos)) ;; Ret (pos ++ [p])) [].

(** AList.cpp 173-198 (read_info_bits_pos with K and N) *)
Definition alist_read_pos_KN (K N : nat) (s : stream) : outcome (list nat) :=
  pos <- alist_read_pos s ;;
  _ <- guard (List.length pos =? K) ;;
  _ <- each pos (fun p u => guard (p <? N)) tt ;; Ret pos.

(** AList.cpp 109-125 (read_matrix_size): H and N. *)
Definition alist_size (s : stream) : outcome (Z * Z) :=
  ' (values, s) <- getline_split s ;; _ <- guard (2 <=? List.length values) ;;
  N <- at_i values 0 ;; H <- at_i values 1 ;; Ret (H, N).

(* ------------------------------------------------------------------ *)
(** * QC *)

(** QC.cpp 30-115 (_read); the entries are stored as int16_t, the indexes are unsigned. *)
Definition qc_read_ (s : stream) : outcome (sparse * stream) :=
  ' (values, s) <- getline_split s ;;
  _ <- guard (3 <=? List.length values) ;;
  a <- at_i values 0 ;; b <- at_i values 1 ;; c <- at_i values 2 ;;
  let N_red := u32 a in let M_red := u32 b in let Zf := u32 c in
  _ <- guard (negb ((N_red =? 0) || (M_red =? 0) || (Zf =? 0)))%Z ;;
  let n := Z.to_nat N_red in let m := Z.to_nat M_red in
  ' (H_red, s) <- for_ m (fun i '(H_red, s) =>
      ' (values, s) <- getline_split s ;;
      _ <- guard (N_red <=? Z.of_nat (List.length values))%Z ;;
      row <- rd H_red i ;;
      row <- for_ n (fun j row => v <- (if j <? List.length values then at_i values j else Ret (-1)%Z) ;; wr row j (cast 16 v)) row ;;
      H_red <- wr H_red i row ;; Ret (H_red, s))
    (repeat (repeat (-1)%Z n) m, s) ;;
  H <- for_ m (fun i H => for_ n (fun j H =>
      row <- rd H_red i ;; v <- rd row j ;;
      let l := u32 (Z.of_nat i * Zf) in let co := u32 (Z.of_nat j * Zf) in
      if (v =? -1)%Z then Ret H
      else if (v =? 0)%Z then for_ (Z.to_nat Zf) (fun k H => sp_add H (Z.to_nat (u32 (l + Z.of_nat k))) (Z.to_nat (u32 (co + Z.of_nat k)))) H
      else for_ (Z.to_nat Zf) (fun k H => sp_add H (Z.to_nat (u32 (l + Z.of_nat k))) (Z.to_nat (u32 (co + u32 (Z.of_nat k + v) mod Zf)))) H) H)
    (sp_new (Z.to_nat (u32 (M_red * Zf))) (Z.to_nat (u32 (N_red * Zf)))) ;;
  Ret (sp_transpose H, s).

(** QC.cpp 16-28 (read): every exception becomes another one. *)
Definition qc_read (s : stream) : outcome (sparse * stream) := qc_read_ s.

(** QC.cpp 117-152 (read_pct_pattern); N_red is an int, -1 when not given. *)
Definition qc_read_pct (N_red : Z) (s : stream) : outcome (list bool * stream) :=
  ' (values, s) <- getline_split s ;;
  _ <- guard (negb ((Z.of_nat (List.length values) <? N_red) && negb (N_red =? -1)))%Z ;;
  p <- each values (fun w p => v <- stoi w ;; Ret (p ++ [negb (v =? 0)%Z])) [] ;; Ret (p, s).

(** QC.cpp 160-190 (read_matrix_size): H and N. *)
Definition qc_size (s : stream) : outcome (Z * Z) :=
  ' (values, s) <- getline_split s ;; _ <- guard (3 <=? List.length values) ;;
  a <- at_i values 0 ;; b <- at_i values 1 ;; c <- at_i values 2 ;;
  let N_red := u32 a in let M_red := u32 b in let Zf := u32 c in
  _ <- guard (negb ((N_red =? 0) || (M_red =? 0) || (Zf =? 0)))%Z ;;
  Ret (cast 32 (u32 (M_red * Zf)), cast 32 (u32 (N_red * Zf))).

(* ------------------------------------------------------------------ *)
(** * Matrix handler *)

Inductive format := F_QC | F_ALIST.

(** LDPC_matrix_handler.cpp 32-52 (get_matrix_format), for a file just opened on the text [t]. *)
Definition get_format (t : text) : outcome (format * stream) :=
  ' (values, s) <- getline_split (open t) ;;
  if List.length values =? 3 then Ret (F_QC, s) else if List.length values =? 2 then Ret (F_ALIST, s) else Throws.

(** seekg(0) on a file of text [t]: clears eof; does nothing after a failure. *)
Definition seek0 (t : text) (s : stream) : stream := if s_fail s then mkStream (s_rest s) false true else open t.

(** LDPC_matrix_handler.cpp 69-108 (read) with both optional results requested: the matrix, the positions of the
    information bits (AList), the puncturing pattern (QC). *)
Definition handler_read (t : text) : outcome (sparse * list nat * list bool) :=
  ' (f, s) <- get_format t ;;
  let s := seek0 t s in
  match f with
  | F_QC => ' (M, s) <- qc_read s ;; ' (p, s) <- qc_read_pct (-1) s ;; Ret (M, [], p)
  | F_ALIST => ' (M, s) <- alist_read s ;;
      pos <- try_catch (alist_read_pos s) (Ret []) ;; Ret (M, pos, [])
  end.

(** The same without optional results. *)
Definition handler_read_matrix (t : text) : outcome sparse :=
  ' (f, s) <- get_format t ;;
  let s := seek0 t s in
  ' (M, s) <- match f with F_QC => qc_read s | F_ALIST => alist_read s end ;; Ret M.

(** LDPC_matrix_handler.cpp 124-144 (read_matrix_size): H and N. *)
Definition handler_size (t : text) : outcome (Z * Z) :=
  ' (f, s) <- get_format t ;;
  let s := seek0 t s in match f with F_QC => qc_size s | F_ALIST => alist_size s end.

(** LDPC_matrix_handler.cpp 146-172 (check_info_pos); [thr] is throw_when_wrong. *)
Definition check_info_pos (pos : list nat) (K N : nat) (thr : bool) : outcome bool :=
  let fails := if thr then Throws else Ret false in
  if negb (List.length pos =? K) then fails
  else if existsb (fun p => N <=? p) pos then fails else Ret true.
