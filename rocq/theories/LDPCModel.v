(** LDPC encoders and generation of G from H: model of src/Module/Encoder/LDPC/*, of
    include/Tools/Code/LDPC/Syndrome/LDPC_syndrome.hxx, of src/Tools/Code/LDPC/Matrix_handler/LDPC_matrix_handler.cpp and of
    src/Tools/Code/LDPC/Standard/DVBS2/DVBS2_constants.cpp.
    Simplifications: the row operations written with SIMD registers are element by element; saving G to a file is left
    out; bits of type B are Z. *)
From Coq Require Import List Arith Lia Bool ZArith.
From Verif Require Import Base Copy GaloisModel SparseModel FullModel.
Import ListNotations.

(** LDPC_syndrome.hxx 8-34 (check_hard) and 43-69 (check_soft); [neg] is the test applied to each input: nonzero for hard
    bits, below zero for log-likelihood ratios.  [c] is the next check and [cnt] the number of checks left. *)
Fixpoint check_from {R} (neg : R -> bool) (Y : list R) (H : sparse) (c cnt : nat) : outcome bool :=
  match cnt with
  | 0 => Ret true
  | S cnt =>
      links <- sp_col H c ;;
      sign <- each links (fun v sign => y <- rd Y v ;; Ret (xorb sign (neg y))) false ;;
      if sign : bool then Ret false else check_from neg Y H (S c) cnt
  end.
Definition check_hard (X : list Z) (H : sparse) : outcome bool := check_from nz X H 0 (sp_cols H).
Definition check_soft {R} (neg : R -> bool) (Y : list R) (H : sparse) : outcome bool := check_from neg Y H 0 (sp_cols H).

(* ------------------------------------------------------------------ *)
(** * Matrix handler *)

(** [std::swap(t[i], t[j])] *)
Definition swap_rows {A} (t : list A) (i j : nat) : outcome (list A) :=
  a <- rd t i ;; b <- rd t j ;; t <- wr t i b ;; wr t j a.

(** LDPC_matrix_handler.cpp 196-203 (swap_columns); [n_row] is mat.get_n_rows(). *)
Definition swap_columns (n_row i j : nat) (t : list (list Z)) : outcome (list (list Z)) :=
  for_ n_row (fun l t => a <- get2 t l i ;; b <- get2 t l j ;; t <- set2 t l i b ;; set2 t l j a) t.

(** LDPC_matrix_handler.cpp 244-254 and 268-278: xor of row [src] into row [dst]. *)
Definition xor_row (len src dst : nat) (t : list (list Z)) : outcome (list (list Z)) :=
  for_ len (fun i t => a <- get2 t dst i ;; b <- get2 t src i ;; set2 t dst i (Z.lxor a b)) t.

(** LDPC_matrix_handler.cpp 225-233: first row below [r] with a one in column [c]; [cnt] rows left, from [r2]. *)
Fixpoint find_row (t : list (list Z)) (c r2 cnt : nat) : outcome (option nat) :=
  match cnt with
  | 0 => Ret None
  | S cnt => v <- get2 t r2 c ;; if nz v then Ret (Some r2) else find_row t c (S r2) cnt
  end.

(** LDPC_matrix_handler.cpp 220-257: one step of the forward elimination of an M x 2M array. *)
Definition lu_forward (M r : nat) (t : list (list Z)) : outcome (list (list Z)) :=
  v <- get2 t r r ;;
  t <- (if nz v then Ret t else
        o <- find_row t r (r + 1) (M - (r + 1)) ;;
        match o with None => Throws | Some r_swap => swap_rows t r r_swap end) ;;
  for_from (r + 1) (M - (r + 1)) (fun r2 t =>
    v <- get2 t r2 r ;; if nz v then xor_row (2 * M) r r2 t else Ret t) t.

(** LDPC_matrix_handler.cpp 260-281: one step of the backward elimination. *)
Definition lu_backward (M r : nat) (t : list (list Z)) : outcome (list (list Z)) :=
  for_ r (fun k t => let rm1 := r - k - 1 in
    v <- get2 t rm1 r ;; if nz v then xor_row (2 * M) r rm1 t else Ret t) t.

(** LDPC_matrix_handler.cpp 206-287 (LU_decomp); Matrix.cpp 42-46, 87-97.  With no row, [M - 1] wraps around and the loop
    reads outside the matrix. *)
Definition LU_decomp (Hp : full) : outcome full :=
  _ <- guard (fu_rows Hp <=? fu_cols Hp) ;;
  let M := fu_rows Hp in
  Hinv <- fu_resize Hp M (2 * M) TOP_LEFT ;;
  t <- for_ M (fun i t => set2 t i (M + i) 1%Z) (fu_m Hinv) ;;
  t <- for_ M (fun r t => lu_forward M r t) t ;;
  t <- (if M =? 0 then Undef else for_ (M - 1) (fun k t => lu_backward M (M - 1 - k) t) t) ;;
  fu_resize (mkFull (fu_rows Hinv) (fu_cols Hinv) (fu_rmax Hinv) (fu_cmax Hinv) (fu_n Hinv) (fu_rd Hinv) (fu_cd Hinv) t) M M TOP_RIGHT.

(** LDPC_matrix_handler.cpp 421-432 (LU_decomposition of a sparse matrix). *)
Definition LU_sparse (H : sparse) : outcome full :=
  let Ht := sp_turn H HORIZONTAL in
  Ht <- sp_resize Ht (sp_rows Ht) (sp_rows Ht) TOP_RIGHT ;;
  F <- sparse_to_full Ht ;; LU_decomp F.

(** LDPC_matrix_handler.cpp 434-443 (LU_decomposition of a dense matrix). *)
Definition LU_full (H : full) : outcome full :=
  _ <- guard (fu_rows H <=? fu_cols H) ;;
  Hp <- fu_resize H (fu_rows H) (fu_rows H) TOP_RIGHT ;; LU_decomp Hp.

(** LDPC_matrix_handler.cpp 446-486 (transform_H_to_G_decomp_LU): G and info_bits_pos; [nel] as in bgemmt.  K is computed
    on size_t: LU_decomposition has thrown when N < M. *)
Definition H_to_G_LU (nel : nat) (H : full) : outcome (full * list nat) :=
  let M := fu_rows H in let N := fu_cols H in let K := N - M in
  Gp <- LU_full H ;;
  Hs <- fu_resize H M K TOP_LEFT ;;
  Hs <- fu_transpose Hs ;;
  GH <- fu_bgemmt nel Gp Hs ;;
  GH <- fu_transpose GH ;;
  GH <- fu_resize GH K N TOP_RIGHT ;;
  t <- for_ K (fun r t => set2 t r r 1%Z) (fu_m GH) ;;
  Ret (mkFull (fu_rows GH) (fu_cols GH) (fu_rmax GH) (fu_cmax GH) (fu_n GH) (fu_rd GH) (fu_cd GH) t, seq 0 K).

(** LDPC_matrix_handler.cpp 616-620 and 830-833: std::transform with not_equal_to of the elements of index at least [from]
    of row [src] and of row [dst], into row [dst]; [len] is the size of row [src]. *)
Definition neq_row (from len src dst : nat) (t : list (list Z)) : outcome (list (list Z)) :=
  for_from from (len - from) (fun i t => a <- get2 t src i ;; b <- get2 t dst i ;; set2 t dst i (if (a =? b)%Z then 0%Z else 1%Z)) t.

(** LDPC_matrix_handler.cpp 602-612: first column from [j] with a one in row [i]. *)
Fixpoint find_col (t : list (list Z)) (i j cnt : nat) : outcome (option nat) :=
  match cnt with
  | 0 => Ret None
  | S cnt => v <- get2 t i j ;; if nz v then Ret (Some j) else find_col t i (S j) cnt
  end.

(** LDPC_matrix_handler.cpp 580-631: one iteration of form_diagonal from the top left corner; the state is the matrix, i
    (after the increment of the loop) and the list of the exchanged columns; n_row is the number of rows of the matrix. *)
Definition diag_step (st : full * nat * list (nat * nat)) : outcome (full * nat * list (nat * nat)) :=
  let '(m, i, sw) := st in
  let n_row := fu_rows m in let n_col := fu_cols m in
  let set t := mkFull n_row n_col (fu_rmax m) (fu_cmax m) (fu_n m) (fu_rd m) (fu_cd m) t in
  v <- get2 (fu_m m) i i ;;
  ' (t, sw, found) <-
    (if nz v then Ret (fu_m m, sw, true) else
     o <- find_row (fu_m m) i (i + 1) (n_row - (i + 1)) ;;
     match o with
     | Some j => t <- swap_rows (fu_m m) i j ;; Ret (t, sw, true)
     | None =>
         o <- find_col (fu_m m) i (i + 1) (n_col - (i + 1)) ;;
         match o with
         | Some j => t <- swap_columns n_row i j (fu_m m) ;; Ret (t, sw ++ [(i, j)], true)
         | None => Ret (fu_m m, sw, false)
         end
     end) ;;
  if found : bool then
    t <- for_from (i + 1) (n_row - (i + 1)) (fun j t => v <- get2 t j i ;; if nz v then neq_row i n_col i j t else Ret t) t ;;
    Ret (set t, i + 1, sw)
  else
    m <- fu_erase_row m i 1 ;; Ret (m, i, sw).

(** LDPC_matrix_handler.cpp 567-631 (form_diagonal, TOP_LEFT).  Every iteration either moves to the next row or erases one:
    as many iterations as rows at the start. *)
Definition form_diagonal (m : full) : outcome (full * list (nat * nat)) :=
  m <- fu_turn m HORIZONTAL ;;
  ' (m, i, sw) <- for_ (fu_rows m) (fun _ st => diag_step st) (m, 0, []) ;;
  Ret (m, sw).

(** LDPC_matrix_handler.cpp 813-834 (form_identity, TOP_LEFT).  With no row, [n_row - 1] wraps around. *)
Definition form_identity (m : full) : outcome full :=
  m <- fu_turn m HORIZONTAL ;;
  let n_row := fu_rows m in let n_col := fu_cols m in
  t <- (if n_row =? 0 then Undef else
        for_ (n_row - 1) (fun k t => let c := n_row - 1 - k in
          for_ c (fun q t => let r := c - q in
            v <- get2 t (r - 1) c ;; if nz v then neq_row c n_col c (r - 1) t else Ret t) t) (fu_m m)) ;;
  Ret (mkFull n_row n_col (fu_rmax m) (fu_cmax m) (fu_n m) (fu_rd m) (fu_cd m) t).

(** LDPC_matrix_handler.cpp 489-526 (transform_H_to_G_identity). *)
Definition H_to_G_identity (H : full) : outcome (full * list nat) :=
  _ <- guard (fu_rows H <=? fu_cols H) ;;
  let M := fu_rows H in let N := fu_cols H in let K := N - M in
  ' (G, sw) <- form_diagonal H ;;
  G <- form_identity G ;;
  G <- fu_resize G N K TOP_RIGHT ;;
  t <- for_from M (N - M) (fun i t => set2 t i (i - M) 1%Z) (fu_m G) ;;
  t <- each (rev sw) (fun p t => swap_rows t (fst p) (snd p)) t ;;
  pos <- each sw (fun p pos => swap_rows pos (fst p) (snd p)) (seq 0 N) ;;
  Ret (mkFull (fu_rows G) (fu_cols G) (fu_rmax G) (fu_cmax G) (fu_n G) (fu_rd G) (fu_cd G) t, skipn M pos).

(** LDPC_matrix_handler.cpp 174-194: the same two, on sparse matrices. *)
Definition H_to_G_LU_sparse (nel : nat) (H : sparse) : outcome (sparse * list nat) :=
  _ <- guard (sp_rows H <=? sp_cols H) ;;
  Hf <- sparse_to_full H ;; ' (Gf, pos) <- H_to_G_LU nel Hf ;; G <- full_to_sparse Gf ;; Ret (G, pos).
Definition H_to_G_identity_sparse (H : sparse) : outcome (sparse * list nat) :=
  _ <- guard (sp_rows H <=? sp_cols H) ;;
  Hf <- sparse_to_full H ;; ' (Gf, pos) <- H_to_G_identity Hf ;; G <- full_to_sparse Gf ;; Ret (G, pos).

(** LDPC_matrix_handler.cpp 931-963 (check_GH of sparse matrices). *)
Definition check_GH (H G : sparse) : outcome bool :=
  let hor (M : sparse) := sp_rows M <=? sp_cols M in
  GH <- (if hor H then (if hor G then sp_bgemmt H G else sp_bgemm H G)
         else (if hor G then sp_bgemm G H else Throws)) ;;
  Ret (sp_all_zeros GH).

(** LDPC_matrix_handler.cpp 965-997 (check_GH of dense matrices). *)
Definition check_GH_full (nel : nat) (H G : full) : outcome bool :=
  let hor (M : full) := fu_rows M <=? fu_cols M in
  GH <- (if hor H then (if hor G then fu_bgemmt nel H G else fu_bgemm H G)
         else (if hor G then fu_bgemm G H else Throws)) ;;
  fu_all_zeros GH.

(** LDPC_matrix_handler.cpp 871-892 (interleave_matrix). *)
Definition interleave_matrix (M : sparse) (old : list nat) : outcome sparse :=
  _ <- guard (sp_cols M =? length old) ;;
  for_ (sp_cols M) (fun i I => c <- rd old i ;; col <- sp_col M c ;; each col (fun r I => sp_add I r i) I) (sp_new (sp_rows M) (sp_cols M)).

(** std::find, as a distance to the beginning. *)
Fixpoint find_pos (x : nat) (l : list nat) : option nat :=
  match l with [] => None | y :: l => if x =? y then Some 0 else option_map S (find_pos x l) end.

(** LDPC_matrix_handler.cpp 894-929 (interleave_info_bits_pos). *)
Definition interleave_pos (pos old : list nat) : outcome (list nat) :=
  _ <- guard (length pos <=? length old) ;;
  ' (itl, cnt) <- for_ (length pos) (fun i '(itl, cnt) =>
      p <- rd pos i ;;
      match find_pos p old with Some d => itl <- wr itl i d ;; Ret (itl, S cnt) | None => Ret (itl, cnt) end)
    (repeat 0 (length pos), 0) ;;
  _ <- guard (cnt =? length pos) ;; Ret itl.

(* ------------------------------------------------------------------ *)
(** * Encoders *)

(** Encoder_LDPC.hpp (members) and Encoder.hxx (K, N, info_bits_pos). *)
Record ldpc := mkLdpc { le_K : nat; le_N : nat; le_G : sparse; le_H : sparse; le_pos : list nat }.

(** Encoder.hxx: checks of the base class; info_bits_pos is 0 .. K-1. *)
Definition enc_base (K N : nat) : outcome unit :=
  _ <- guard (negb (K =? 0)) ;; _ <- guard (negb (N =? 0)) ;; guard (K <=? N).

(** Encoder_LDPC.cpp 52-58, 68-87 (check_G_dimensions) and 60-66, 89-100 (check_H_dimensions). *)
Definition check_G (K N : nat) (G : sparse) : outcome sparse :=
  let G := sp_turn G VERTICAL in
  _ <- guard (K =? sp_cols G) ;; _ <- guard (N =? sp_rows G) ;; Ret G.
Definition check_H (N : nat) (H : sparse) : outcome sparse :=
  let H := sp_turn H VERTICAL in _ <- guard (N =? sp_rows H) ;; Ret H.

(** Encoder_LDPC.cpp 29-38 and 40-50 (constructors); Sparse_matrix.hpp: the default matrix is empty. *)
Definition ldpc_G (K N : nat) (G : sparse) : outcome ldpc :=
  _ <- enc_base K N ;; G <- check_G K N G ;; Ret (mkLdpc K N G (sp_new 0 1) (seq 0 K)).
Definition ldpc_GH (K N : nat) (G H : sparse) : outcome ldpc :=
  _ <- enc_base K N ;; G <- check_G K N G ;; H <- check_H N H ;; Ret (mkLdpc K N G H (seq 0 K)).

(** Encoder_LDPC_from_H.cpp 16-57; [nel] as in bgemmt. *)
Inductive G_method := IDENTITY | LU_DEC | OTHER.
Definition ldpc_from_H (nel K N : nat) (H : sparse) (g : G_method) : outcome ldpc :=
  _ <- enc_base K N ;;
  let H := sp_turn H HORIZONTAL in
  ' (G, pos) <- match g with
    | IDENTITY => H_to_G_identity_sparse H
    | LU_DEC => H_to_G_LU_sparse nel H
    | OTHER => Throws
    end ;;
  G <- check_G K N G ;; H <- check_H N H ;; Ret (mkLdpc K N G H pos).

(** Encoder_LDPC.cpp 102-114 (encode); [w] is the width of B. *)
Definition ldpc_encode (w : Z) (e : ldpc) (U : list Z) (X : list Z) : outcome (list Z) :=
  for_ (le_N e) (fun i X =>
    X <- wr X i 0%Z ;;
    links <- sp_row (le_G e) i ;;
    X <- each links (fun l X => x <- rd X i ;; u <- rd U l ;; wr X i (cast w (x + u))) X ;;
    x <- rd X i ;; wr X i (Z.land x 1)) X.

(** Encoder_LDPC.cpp 116-124 (is_codeword). *)
Definition ldpc_is_codeword (e : ldpc) (X : list Z) : outcome bool :=
  _ <- guard (negb (sp_n (le_H e) =? 0)) ;; check_hard X (le_H e).

(** Encoder_LDPC_from_IRA.cpp 11-22, 62-75 and Encoder_LDPC_from_QC.cpp 61-74 (check of H). *)
Definition check_H2 (K N : nat) (H : sparse) : outcome sparse :=
  H <- check_H N H ;; _ <- guard (N - K =? sp_cols H) ;; Ret H.
Definition ldpc_IRA (K N : nat) (H : sparse) : outcome ldpc :=
  _ <- enc_base K N ;; H <- check_H2 K N H ;; Ret (mkLdpc K N (sp_new 0 1) H (seq 0 K)).

(** Encoder_LDPC_from_IRA.cpp 48-50, 56-58: xor of the information bits of check [c] into X[k]. *)
Definition ira_sum (K : nat) (H : sparse) (U : list Z) (c k : nat) (X : list Z) : outcome (list Z) :=
  links <- sp_col H c ;;
  each links (fun l X => if l <? K then x <- rd X k ;; u <- rd U l ;; wr X k (Z.lxor x u) else Ret X) X.

(** Encoder_LDPC_from_IRA.cpp 33-60 (encode). *)
Definition ira_encode (e : ldpc) (U X : list Z) : outcome (list Z) :=
  let K := le_K e in let M := le_N e - le_K e in
  X <- copy U 0 K X 0 ;;
  X <- fill X K M 0%Z ;;
  X <- ira_sum K (le_H e) U 0 K X ;;
  for_from 1 (M - 1) (fun i X =>
    p <- rd X (K + (i - 1)) ;; X <- wr X (K + i) p ;; ira_sum K (le_H e) U i (K + i) X) X.

(** Encoder_LDPC_from_QC.cpp 12-24 (constructor). *)
Definition ldpc_QC (K N : nat) (H : sparse) : outcome (ldpc * full) :=
  _ <- enc_base K N ;; invH2 <- LU_sparse H ;; H <- check_H2 K N H ;; Ret (mkLdpc K N (sp_new 0 1) H (seq 0 K), invH2).

(** Encoder_LDPC_from_QC.cpp 35-59 (encode); parity is a vector of int8_t. *)
Definition qc_encode (e : ldpc) (invH2 : full) (U X : list Z) : outcome (list Z) :=
  let K := le_K e in let M := le_N e - le_K e in
  X <- copy U 0 K X 0 ;;
  parity <- for_ M (fun i P =>
      links <- sp_col (le_H e) i ;;
      each links (fun l P => if l <? K then p <- rd P i ;; u <- rd U l ;; wr P i (cast 8 (Z.lxor p u)) else Ret P) P) (repeat 0%Z M) ;;
  for_ M (fun i X =>
    X <- wr X (K + i) 0%Z ;;
    for_ M (fun j X => x <- rd X (K + i) ;; p <- rd parity j ;; h <- get2 (fu_m invH2) i j ;; wr X (K + i) (Z.lxor x (Z.land p h))) X) X.

(* ------------------------------------------------------------------ *)
(** * DVB-S2 *)

(** DVBS2_constants.hpp 22-31 (dvbs2_values); all the values are nonnegative. *)
Record dvbs2 := mkDvbs2 { dv_enc : list nat; dv_N : nat; dv_K : nat; dv_NmK : nat; dv_M : nat; dv_Q : nat; dv_lines : nat }.

(** DVBS2_constants.cpp 15-35 and Encoder_LDPC_DVBS2.cpp 37-59: the common walk through the table; [act xPos pos s] is called
    for the positions of information bit xPos, and [on xPos] tells whether the bit is considered.  The remainder by zero is
    undefined; the sums fit an int. *)
Definition dvbs2_walk {S} (d : dvbs2) (on : nat -> outcome bool) (act : nat -> nat -> S -> outcome S) (s : S) : outcome S :=
  ' (p, xPos, s) <- for_ (dv_lines d) (fun _ '(p, xPos, s) =>
      nbPos <- rd (dv_enc d) p ;;
      let p := p + 1 in
      ' (xPos, s) <- for_ (dv_M d) (fun l '(xPos, s) =>
          b <- on xPos ;;
          s <- (if b : bool then
                  for_ nbPos (fun q s =>
                    v <- rd (dv_enc d) (p + q) ;;
                    if dv_NmK d =? 0 then Undef else act xPos ((v + l * dv_Q d) mod dv_NmK d) s) s
                else Ret s) ;;
          Ret (xPos + 1, s)) (xPos, s) ;;
      Ret (p + nbPos, xPos, s)) (0, 0, s) ;;
  Ret s.

(** DVBS2_constants.cpp 11-50 (build_H). *)
Definition dvbs2_build_H (d : dvbs2) : outcome sparse :=
  H <- dvbs2_walk d (fun _ => Ret true) (fun xPos yPos H => sp_add H xPos yPos) (sp_new (dv_N d) (dv_NmK d)) ;;
  for_from (dv_K d) (dv_N d - dv_K d) (fun xPos H =>
    let yPos := xPos - dv_K d in
    H <- sp_add H xPos yPos ;;
    if yPos + 1 <? dv_NmK d then sp_add H xPos (yPos + 1) else Ret H) H.

(** Encoder_LDPC_DVBS2.cpp 29-63 (encode). *)
Definition dvbs2_encode (d : dvbs2) (U X : list Z) : outcome (list Z) :=
  X <- copy U 0 (dv_K d) X 0 ;;
  X <- fill X (dv_K d) (dv_N d - dv_K d) 0%Z ;;
  X <- dvbs2_walk d (fun xPos => bit <- rd U xPos ;; Ret (bit =? 1)%Z)
         (fun xPos pos X => x <- rd X (dv_K d + pos) ;; wr X (dv_K d + pos) (Z.lxor x 1)) X ;;
  for_from 1 (dv_NmK d - 1) (fun i X =>
    a <- rd X (dv_K d + i) ;; b <- rd X (dv_K d + i - 1) ;; wr X (dv_K d + i) (Z.lxor a b)) X.
