(** The CRC stopping rule of double binary turbo decoding.
    Models src/Tools/Code/Turbo/Post_processing_SISO/CRC/CRC_checker_DB.cpp. The values are unbounded integers: sums
    and differences do not wrap. The CRC is a function of the frame. *)
From Coq Require Import List Arith Bool ZArith.
From Verif Require Import Base.
Import ListNotations.

Section M.
Variable chk : list Z -> bool.
(** CRC_checker_DB.cpp 33-34: the loop on apost. *)
Definition db_apost (sys ext apost : list Z) : outcome (list Z) :=
  for_ (length apost) (fun i apost => a <- rd sys i ;; e <- rd ext i ;; wr apost i (a + e)%Z) apost.
(** CRC_checker_DB.cpp 38-42: the hard decisions; i = 2 * k. *)
Definition db_hard (apost s : list Z) : outcome (list Z) :=
  for_ ((length s + 1) / 2) (fun k s =>
    let i := 2 * k in
    a0 <- rd apost (2 * i) ;; a1 <- rd apost (2 * i + 1) ;; a2 <- rd apost (2 * i + 2) ;; a3 <- rd apost (2 * i + 3) ;;
    s <- wr s i (if (0 <? Z.max a2 a3 - Z.max a0 a1)%Z then 1%Z else 0%Z) ;;
    wr s (i + 1) (if (0 <? Z.max a1 a3 - Z.max a0 a2)%Z then 1%Z else 0%Z)) s.
(** CRC_checker_DB.cpp 26-47: siso_n; gives the answer, apost and s. *)
Definition db_siso_n (start ite : nat) (sys ext apost s : list Z) : outcome (bool * list Z * list Z) :=
  if start <=? ite then
    apost <- db_apost sys ext apost ;;
    s <- db_hard apost s ;;
    Ret (chk s, apost, s)
  else Ret (false, apost, s).
End M.
