(** The encoder that plays codewords of a file: src/Module/Encoder/User/Encoder_user.cpp.

    Simplifications: the file is given as its numbers. A symbol is Some v for a number and None for a text that is not a number:
    such a text gives 0 and stops the stream; what is read from a stopped stream, or after the end of the file, is the
    uninitialised variable symbol. The list of positions is given as its announced size and its numbers, None if it is missing
    or not made of numbers. *)
From Coq Require Import List Arith Bool ZArith.
From Verif Require Import Base Copy GaloisModel.
Import ListNotations.
Local Open Scope nat_scope.

Record ufile := mkUF { uf_ncw : Z; uf_cw : Z; uf_src : Z; uf_sym : list (option Z); uf_pos : option (Z * list Z) }.
(** Members: K, N, codewords, cw_counter, info_bits_pos. *)
Record uenc := mkUE { ue_K : nat; ue_N : nat; ue_words : list (list Z); ue_cnt : Z; ue_pos : list Z }.

(** Lines 16-60 (read_info_bits_pos): None when it throws. *)
Definition read_pos (p : option (Z * list Z)) : option (list Z) :=
  match p with
  | None => None
  | Some (size, vals) =>
    if negb (Z.of_nat (length vals) =? size mod 2 ^ 32)%Z then None
    else fold_left (fun acc v => match acc with
      | None => None
      | Some l => let v := (v mod 2 ^ 32)%Z in if existsb (fun q => (q =? v)%Z) l then None else Some (l ++ [v])
      end) vals (Some [])
  end.
(** Lines 105-114: the symbol number k of the file. *)
Definition read_symbol (sym : list (option Z)) (k : nat) : outcome Z :=
  _ <- (if forallb (fun s => match s with Some _ => true | None => false end) (firstn k sym) then Ret tt else Undef) ;;
  s <- rd sym k ;;
  Ret (match s with Some v => v | None => 0%Z end).
(** Lines 62-149; w is the number of bits of B. *)
Definition ue_new (w : Z) (K N : nat) (f : ufile) (start : Z) : outcome uenc :=
  if (K =? 0) || (N =? 0) || (N <? K) then Throws
  else if (uf_ncw f <=? 0)%Z || (uf_src f <=? 0)%Z || (uf_cw f <=? 0)%Z then Throws
  else if (uf_cw f <? uf_src f)%Z then Throws
  else if (uf_src f =? Z.of_nat K)%Z && (uf_cw f =? Z.of_nat N)%Z then
    words <- gen (Z.to_nat (uf_ncw f)) (fun i => gen N (fun j => s <- read_symbol (uf_sym f) (i * N + j) ;; Ret (cast w s))) ;;
    let pos := match read_pos (uf_pos f) with Some p => p | None => map Z.of_nat (seq 0 K) end in
    if negb (length pos =? K) then Throws
    else Ret (mkUE K N words (Z.rem start (Z.of_nat (length words))) pos)
  else Throws.
(** Lines 160-169. The message is not read. *)
Definition ue_encode (u x : list Z) (e : uenc) : outcome (list Z * uenc) :=
  _ <- (if (ue_cnt e <? 0)%Z then Undef else Ret tt) ;;
  c <- rd (ue_words e) (Z.to_nat (ue_cnt e)) ;;
  x <- copy c 0 (length c) x 0 ;;
  Ret (x, mkUE (ue_K e) (ue_N e) (ue_words e) (Z.rem (ue_cnt e + 1) (Z.of_nat (length (ue_words e)))) (ue_pos e)).
(** Several calls. *)
Fixpoint ue_run (us : list (list Z)) (x : list Z) (e : uenc) : outcome (list (list Z) * uenc) :=
  match us with
  | [] => Ret ([], e)
  | u :: us => '(y, e) <- ue_encode u x e ;; '(ys, e) <- ue_run us x e ;; Ret (y :: ys, e)
  end.
