(** Histograms: include/Tools/Algo/Histogram.hpp and Histogram.hxx. *)
From Coq Require Import List Arith Lia Bool ZArith QArith Qround.
From Verif Require Import Base FloatQ DistModel QuantModel.
Import ListNotations.
Local Open Scope Z_scope.

(** std::map<int, size_t>: the pairs in the order of the keys *)
Definition hmap := list (Z * Z).
Fixpoint find (k : Z) (m : hmap) : option Z := match m with [] => None | (x, c) :: m => if k =? x then Some c else find k m end.
(** m[k] = c *)
Fixpoint put (k c : Z) (m : hmap) : hmap :=
  match m with [] => [(k, c)] | (x, y) :: t => if k <? x then (k, c) :: m else if k =? x then (k, c) :: t else (x, y) :: put k c t end.

(** Histogram.hpp 23-28 *)
Record histogram := mkHist { h_prec : nat; h_n : Z; h_map : hmap }.
Definition new_hist (prec : nat) : histogram := mkHist prec 0 [].

(** Histogram.hxx 220-225 (calibrate_val) with the constant stock_norm (Histogram.hpp 27). The conversion to int and the product of two int are undefined
    out of range. std::pow is taken as correctly rounded; round is exact on the doubles that come from an int. *)
Definition int_ok (x : Z) : outcome Z := if (- 2 ^ 31 <=? x) && (x <? 2 ^ 31) then Ret x else Undef.
Definition cal_int (prec : nat) (v : Z) : outcome Z := n <- int_ok (10 ^ Z.of_nat prec) ;; int_ok (v * n).
(** [p] bits of mantissa: 24 for float, 53 for double *)
Definition cal_float (p : Z) (prec : nat) (v : Q) : outcome Z := int_ok (rha (fl p (v * fl p (inject_Z (10 ^ Z.of_nat prec))))).

Section Hist.
Context {R : Type} (cal : nat -> R -> outcome Z).

(** Histogram.hxx 93-107 and, with the weight one, one step of 75-91 *)
Definition add_key (k w : Z) (m : hmap) : hmap := match find k m with None => put k w m | Some c => put k (usize (c + w)) m end.
Definition add_weight (h : histogram) (v : R) (w : Z) : outcome histogram := k <- cal (h_prec h) v ;; Ret (mkHist (h_prec h) (usize (h_n h + w)) (add_key k w (h_map h))).
(** Histogram.hxx 61-91: the vector, the value and the array *)
Definition add_values (h : histogram) (draw : list R) : outcome histogram :=
  m <- for_ (length draw) (fun i m => v <- rd draw i ;; k <- cal (h_prec h) v ;; Ret (add_key k 1 m)) (h_map h) ;; Ret (mkHist (h_prec h) (usize (h_n h + Z.of_nat (length draw))) m).
Definition add_value (h : histogram) (v : R) : outcome histogram := add_values h [v].
(** Histogram.hxx 37-59: the entries of the other histogram one by one. (With itself, each entry is found, and doubled when it is reached.) *)
Definition add_hist (h other : histogram) : outcome histogram :=
  _ <- guard (h_prec h =? h_prec other)%nat ;;
  Ret (mkHist (h_prec h) (usize (h_n h + h_n other)) (fold_left (fun m o => add_key (fst o) (snd o) m) (h_map other) (h_map h))).
(** Histogram.hxx 19-35 *)
Definition assign (h other : histogram) : outcome histogram := _ <- guard (h_prec h =? h_prec other)%nat ;; Ret (mkHist (h_prec h) (h_n other) (h_map other)).
(** Histogram.hxx 212-218 *)
Definition clear (h : histogram) : histogram := mkHist (h_prec h) 0 [].
(** the keys of get_hist_min and get_hist_max (Histogram.hxx 234-260) *)
Definition min_key (h : histogram) : outcome Z := match h_map h with [] => Throws | (k, _) :: _ => Ret k end.
Definition max_key (h : histogram) : outcome Z := match rev (h_map h) with [] => Throws | (k, _) :: _ => Ret k end.

(** Calls on a family of histograms *)
Inductive hcall :=
| AddOne (i : nat) (v : R) | AddAll (i : nat) (l : list R) | AddWeight (i : nat) (v : R) (w : Z) | Merge (i j : nat) | Copy (i j : nat) | Clear (i : nat).
Definition hstep (s : list histogram) (c : hcall) : outcome (list histogram) :=
  match c with
  | AddOne i v => h <- rd s i ;; h <- add_value h v ;; wr s i h
  | AddAll i l => h <- rd s i ;; h <- add_values h l ;; wr s i h
  | AddWeight i v w => h <- rd s i ;; h <- add_weight h v w ;; wr s i h
  | Merge i j => h <- rd s i ;; o <- rd s j ;; h <- add_hist h o ;; wr s i h
  | Copy i j => h <- rd s i ;; o <- rd s j ;; h <- assign h o ;; wr s i h
  | Clear i => h <- rd s i ;; wr s i (clear h)
  end.
Fixpoint hrun (s : list histogram) (l : list hcall) : outcome (list histogram) := match l with [] => Ret s | c :: l => s <- hstep s c ;; hrun s l end.
End Hist.

(** Histogram.hxx 199-210, 269-325 (dump and dump_all_values), for a histogram of int with precision 0, n_rung 0 and norm_sum_to_1 off: the lines written,
    before the conversion of the counts to R; the status 1 is None. *)
Definition dump_step (cumul_vals cumul_borders : bool) (mn mx : Z) (o : Z * Z) (s : list (Z * Z) * Z * bool) : list (Z * Z) * Z * bool :=
  let '(lines, cumul, dumped) := s in
  if (mn <? fst o) && (fst o <? mx) then
    let lines := if dumped then lines else lines ++ [(mn, cumul)] in
    let cumul := if cumul_vals then usize (cumul + snd o) else snd o in
    (lines ++ [(fst o, cumul)], cumul, true)
  else if cumul_borders || (fst o =? mn) || (fst o =? mx) then (lines, usize (cumul + snd o), dumped)
  else (lines, cumul, dumped).
Definition dump_all (cumul_vals cumul_borders : bool) (h : histogram) (mn mx : Z) : option (list (Z * Z)) :=
  if mx <=? mn then None else
  let '(lines, cumul, _) := fold_left (fun s o => dump_step cumul_vals cumul_borders mn mx o s) (h_map h) ([], 0, false) in
  Some (if cumul =? 0 then lines else lines ++ [(mx, cumul)]).
