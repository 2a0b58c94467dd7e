(** Successive-cancellation list decoder of polar codes (naive version) and its CRC-aided
    variant.

    LLRs and path metrics (type R) are [Z]: exact arithmetic, no rounding, no overflow.
    Bits (type B) are [bool]: the code stores 0 or the sign bit (tools::bit_init) and only
    tests whether they are 0, except that decode_siho_cw copies the raw values. *)
From Coq Require Import List Arith ZArith Lia Bool.
From Verif Require Import Base PolarModel.
Import ListNotations.

(** include/Tools/Code/Polar/decoder_polar_functions.hxx 263-276 (phi), exact. *)
Definition phi (mu lambda : Z) (u : bool) : Z :=
  if (negb u && (lambda <? 0)%Z)%bool then (mu - lambda)%Z
  else if (u && (0 <? lambda)%Z)%bool then (mu + lambda)%Z
  else mu.

(** include/Tools/Code/Polar/decoder_polar_functions.hxx 293-306 (compute_depth): the while
    loop stops at an odd index or after tree_depth turns. *)
Fixpoint depth_loop (fuel index : nat) : nat :=
  match fuel with
  | O => O
  | S f => if Nat.odd index then O else S (depth_loop f (index / 2))
  end.
Definition compute_depth (index tree_depth : nat) : Z :=
  if index =? 0 then (Z.of_nat tree_depth - 1)%Z else Z.of_nat (depth_loop tree_depth index).

(** One polar tree: include/Tools/Algo/Tree/Binary/Binary_tree_metric.hpp (path_metric) and
    the arrays [lambda] and [s] of every node (include/Module/Decoder/Polar/SCL/
    Decoder_polar_SCL_naive.hpp 23-34). The node of depth d and lane j is (d, j); its father
    is (d-1, j/2), its sons (d+1, 2j) and (d+1, 2j+1) (Binary_tree.hxx create_nodes, see
    [PolarModel.create_nodes] and [PolarSCProofs.create_nodes_ok] for the lanes). *)
Record ptree := PT { lamT : nat -> nat -> list Z; sT : nat -> nat -> list bool; met : Z }.

Definition put {A} (f : nat -> nat -> A) (d j : nat) (v : A) : nat -> nat -> A :=
  fun d' j' => if ((d' =? d) && (j' =? j))%bool then v else f d' j'.
Definition put_lam (t : ptree) (d j : nat) (v : list Z) : ptree :=
  PT (put (lamT t) d j v) (sT t) (met t).
Definition put_s (t : ptree) (d j : nat) (v : list bool) : ptree :=
  PT (lamT t) (put (sT t) d j v) (met t).
(** include/Tools/Algo/Tree/Binary/Binary_tree_metric.hxx (set_path_metric). *)
Definition put_met (t : ptree) (x : Z) : ptree := PT (lamT t) (sT t) x.

(** "for (auto x : set)" over a std::set<int>, kept as an increasing list. *)
Fixpoint for_each {S} (l : list nat) (body : nat -> S -> outcome S) (s : S) : outcome S :=
  match l with
  | [] => Ret s
  | x :: l' => bind (body x s) (for_each l' body)
  end.
(** std::set<int>::insert and erase. *)
Fixpoint set_insert (x : nat) (l : list nat) : list nat :=
  match l with
  | [] => [x]
  | y :: l' => if x <? y then x :: l else if x =? y then l else y :: set_insert x l'
  end.
Definition set_erase (x : nat) (l : list nat) : list nat := filter (fun y => negb (y =? x)) l.
Definition set_mem (x : nat) (l : list nat) : bool := existsb (Nat.eqb x) l.

(** A hypothetic extension: tuple <path, estimated bit, metric>
    (Decoder_polar_SCL_naive.hxx 164-165). *)
Definition hyp := (nat * bool * Z)%type.
Definition hyp_path (h : hyp) : nat := fst (fst h).
Definition hyp_bit (h : hyp) : bool := snd (fst h).
Definition hyp_met (h : hyp) : Z := snd h.

(** Is there an element of the path [p] in [l]; [l] without the first one
    (std::find_if and std::vector::erase). *)
Definition has_path (p : nat) (l : list hyp) : bool := existsb (fun h => hyp_path h =? p) l.
Fixpoint drop_path (p : nat) (l : list hyp) : list hyp :=
  match l with
  | [] => []
  | h :: l' => if hyp_path h =? p then l' else h :: drop_path p l'
  end.

Section SCL.
  (** Template parameters F and G, constructor arguments, metric_init =
      std::numeric_limits<R>::min(), maxR = std::numeric_limits<R>::max(), and the result of
      std::sort (any function; the properties say what is assumed of it). *)
  Variable F : Z -> Z -> Z.
  Variable G : Z -> Z -> bool -> Z.
  Variable m : nat.
  Variable fb : list bool.
  Variable L : nat.
  Variable metric_init maxR : Z.
  Variable sort : list hyp -> list hyp.

  Let N := 2 ^ m.

  (** Decoder_polar_SCL_naive.hxx 499-511 (apply_f): a null son is undefined. *)
  Definition apply_f (d j : nat) (t : ptree) : outcome ptree :=
    if d <? m then
      let P := lamT t d j in
      let size_2 := length P / 2 in
      l <- for_ size_2 (fun i l =>
             a <- rd P i ;; b <- rd P (size_2 + i) ;; wr l i (F a b))
             (lamT t (S d) (2 * j)) ;;
      Ret (put_lam t (S d) (2 * j) l)
    else Undef.

  (** Decoder_polar_SCL_naive.hxx 513-527 (apply_g). *)
  Definition apply_g (d j : nat) (t : ptree) : outcome ptree :=
    if d <? m then
      let P := lamT t d j in
      let size_2 := length P / 2 in
      l <- for_ size_2 (fun i l =>
             a <- rd P i ;; b <- rd P (size_2 + i) ;; u <- rd (sT t (S d) (2 * j)) i ;;
             wr l i (G a b u))
             (lamT t (S d) (2 * j + 1)) ;;
      Ret (put_lam t (S d) (2 * j + 1) l)
    else Undef.

  (** Decoder_polar_SCL_naive.hxx 529-546 (compute_sums). *)
  Definition compute_sums (d j : nat) (t : ptree) : outcome ptree :=
    if d <? m then
      let size_2 := length (lamT t d j) / 2 in
      s1 <- for_ size_2 (fun i s =>
             a <- rd (sT t (S d) (2 * j)) i ;; b <- rd (sT t (S d) (2 * j + 1)) i ;;
             wr s i (xorb a b)) (sT t d j) ;;
      s2 <- for_ size_2 (fun i s =>
             b <- rd (sT t (S d) (2 * j + 1)) i ;; wr s (size_2 + i) b) s1 ;;
      Ret (put_s t d j s2)
    else Undef.

  (** Decoder_polar_SCL_naive.hxx 339-351 (recursive_compute_llr); going above the root
      dereferences a null pointer. *)
  Fixpoint rec_llr (d j : nat) (depth : Z) (t : ptree) : outcome ptree :=
    match d with
    | O => if (depth =? 0)%Z then Ret t else Undef
    | S d' =>
      t <- (if (depth =? 0)%Z then Ret t else rec_llr d' (j / 2) (depth - 1)%Z t) ;;
      if Nat.even j then apply_f d' (j / 2) t else apply_g d' (j / 2) t
    end.

  (** Decoder_polar_SCL_naive.hxx 353-363 (propagate_sums). *)
  Fixpoint propagate_sums (d j : nat) (t : ptree) : outcome ptree :=
    t <- (if d =? m then Ret t else compute_sums d j t) ;;
    match d with
    | O => Ret t
    | S d' => if Nat.odd j then propagate_sums d' (j / 2) t else Ret t
    end.

  (** Decoder_polar_SCL_naive.hxx 365-374 (recursive_duplicate_tree_llr). *)
  Fixpoint dup_llr (d j : nat) (ta tb : ptree) : outcome ptree :=
    let tb := put_lam tb d j (lamT ta d j) in
    match d with
    | O => Undef
    | S d' => if d' =? 0 then Ret tb else dup_llr d' (j / 2) ta tb
    end.

  (** Decoder_polar_SCL_naive.hxx 376-387 (recursive_duplicate_tree_sums); [caller] is the
      lane of the son the recursion comes from, [None] for nullptr, which is also the left
      son of a leaf. *)
  Fixpoint dup_sums (d j : nat) (caller : option nat) (ta tb : ptree) : outcome ptree :=
    let left_is_caller :=
      match caller with None => d =? m | Some c => c =? 2 * j end in
    let tb := if (negb left_is_caller && negb (d =? m))%bool
              then put_s tb (S d) (2 * j) (sT ta (S d) (2 * j)) else tb in
    match d with
    | O => Ret tb
    | S d' => dup_sums d' (j / 2) (Some j) ta tb
    end.

  (** Decoder_polar_SCL_naive.hxx 394-396: smallest index that is not active. *)
  Fixpoint free_from (fuel p : nat) (active : list nat) : nat :=
    match fuel with
    | O => p
    | S f => if set_mem p active then free_from f (S p) active else p
    end.
  Definition first_free (active : list nat) : nat := free_from (length active) 0 active.

  (** The L polar trees and active_paths. *)
  Definition state := (list ptree * list nat)%type.

  (** Decoder_polar_SCL_naive.hxx 389-421 (duplicate_path). *)
  Definition duplicate_path (path leaf : nat) (st : state) : outcome state :=
    let '(trees, active) := st in
    let newpath := first_free active in
    let active := set_insert newpath active in
    a <- rd trees path ;;
    b <- rd trees newpath ;;
    b <- for_ leaf (fun i b => Ret (put_s b m i (sT a m i))) b ;;
    b <- dup_sums m leaf None a b ;;
    b <- (if leaf <? N - 1 then dup_llr m (leaf + 1) a b else Ret b) ;;
    lam <- rd (lamT a m leaf) 0 ;;
    sb <- wr (sT b m leaf) 0 true ;;
    trees <- wr trees newpath (put_met (put_s b m leaf sb) (phi (met a) lam true)) ;;
    sa <- wr (sT a m leaf) 0 false ;;
    trees <- wr trees path (put_met (put_s a m leaf sa) (phi (met a) lam false)) ;;
    Ret (trees, active).

  (** Decoder_polar_SCL_naive.hxx 258-263 (choose). *)
  Definition choose_path (h : hyp) (leaf : nat) (st : state) : outcome state :=
    let '(trees, active) := st in
    a <- rd trees (hyp_path h) ;;
    s <- wr (sT a m leaf) 0 (hyp_bit h) ;;
    trees <- wr trees (hyp_path h) (put_met (put_s a m leaf s) (hyp_met h)) ;;
    Ret (trees, active).

  (** Decoder_polar_SCL_naive.hxx 226-238: the paths found twice among the worst
      hypotheses are erased. *)
  Fixpoint erase_doubles (worst : list hyp) (active : list nat) : list nat :=
    match worst with
    | [] => active
    | h :: rest =>
      erase_doubles rest
        (if has_path (hyp_path h) rest then set_erase (hyp_path h) active else active)
    end.

  (** Decoder_polar_SCL_naive.hxx 240-265: the kept hypotheses; each turn consumes one
      element or two. *)
  Fixpoint keep_paths (fuel : nat) (mv : list hyp) (leaf : nat) (st : state) : outcome state :=
    match fuel, mv with
    | S f, h :: rest =>
      if has_path (hyp_path h) rest then
        st <- duplicate_path (hyp_path h) leaf st ;;
        keep_paths f (drop_path (hyp_path h) rest) leaf st
      else
        st <- choose_path h leaf st ;; keep_paths f rest leaf st
    | _, _ => Ret st
    end.

  (** Decoder_polar_SCL_naive.hxx 170-172: the LLR of the leaf, for every active path. *)
  Definition leaf_llrs (leaf : nat) (st : state) : outcome state :=
    let '(trees, active) := st in
    trees <- for_each active (fun p trees =>
      t <- rd trees p ;;
      t <- rec_llr m leaf (compute_depth leaf m) t ;;
      wr trees p t) trees ;;
    Ret (trees, active).

  (** Decoder_polar_SCL_naive.hxx 174-190: frozen leaf. *)
  Definition frozen_leaf (leaf : nat) (st : state) : outcome state :=
    let '(trees, active) := st in
    '(trees, min_phi) <- for_each active (fun p '(trees, min_phi) =>
      t <- rd trees p ;;
      s <- wr (sT t m leaf) 0 false ;;
      lam <- rd (lamT t m leaf) 0 ;;
      let phi_cur := phi (met t) lam false in
      trees <- wr trees p (put_met (put_s t m leaf s) phi_cur) ;;
      Ret (trees, Z.min min_phi phi_cur)) (trees, maxR) ;;
    trees <- for_each active (fun p trees =>
      t <- rd trees p ;; wr trees p (put_met t (met t - min_phi)%Z)) trees ;;
    Ret (trees, active).

  (** Decoder_polar_SCL_naive.hxx 191-266: information leaf. The "normalization" of lines
      208-210 works on copies of the tuples and changes nothing. *)
  Definition info_leaf (leaf : nat) (st : state) : outcome state :=
    let '(trees, active) := st in
    mv <- for_each active (fun p mv =>
      t <- rd trees p ;;
      lam <- rd (lamT t m leaf) 0 ;;
      Ret (mv ++ [(p, false, phi (met t) lam false); (p, true, phi (met t) lam true)])) [] ;;
    if length active <=? L / 2 then
      for_each active (fun p st => duplicate_path p leaf st) st
    else
      let mv := sort mv in
      let half := length mv / 2 in
      keep_paths half (firstn half mv) leaf (trees, erase_doubles (skipn half mv) active).

  (** Decoder_polar_SCL_naive.hxx 167-273: one leaf. The frozen flag is read in the tree 0,
      where the constructor copied frozen_bits. *)
  Definition leaf_step (leaf : nat) (st : state) : outcome state :=
    st <- leaf_llrs leaf st ;;
    f <- rd fb leaf ;;
    '(trees, active) <- (if f : bool then frozen_leaf leaf st else info_leaf leaf st) ;;
    trees <- for_each active (fun p trees =>
      t <- rd trees p ;; t <- propagate_sums m leaf t ;; wr trees p t) trees ;;
    Ret (trees, active).

  (** Decoder_polar_SCL_naive.hxx 138-155 (_load). *)
  Definition load (y : list Z) (trees : list ptree) : outcome state :=
    trees <- for_ L (fun p trees =>
      t <- rd trees p ;;
      l <- for_ N (fun i l => v <- rd y i ;; wr l i v) (lamT t 0 0) ;;
      wr trees p (put_met (put_lam t 0 0 l) metric_init)) trees ;;
    Ret (trees, [0]).

  (** Decoder_polar_SCL_naive.hxx 423-437 (select_best_path). Result: the only path left in
      active_paths. *)
  Definition select_best_path (st : state) : outcome nat :=
    let '(trees, active) := st in
    for_each active (fun p best =>
      a <- rd trees p ;; b <- rd trees best ;;
      Ret (if (met a <? met b)%Z then p else best)) (hd 0 active).

  (** include/Module/Decoder/Polar/SCL/CRC/Decoder_polar_SCL_naive_CA.hxx 46-67
      (select_best_path); [check] is crc->check on the information bits. *)
  Definition path_bits (t : ptree) : outcome (list bool) :=
    for_ N (fun leaf acc =>
      f <- rd fb leaf ;;
      if f : bool then Ret acc else b <- rd (sT t m leaf) 0 ;; Ret (acc ++ [b])) [].
  Definition select_best_path_ca (check : list bool -> bool) (st : state) : outcome nat :=
    let '(trees, active) := st in
    active <- for_each active (fun p act =>
      t <- rd trees p ;; u <- path_bits t ;;
      Ret (if check u then act else set_erase p act)) active ;;
    select_best_path (trees, active).

  (** Decoder_polar_SCL_naive.hxx 157-274 (_decode): loop on the leaves. *)
  Definition list_decode (y : list Z) (trees : list ptree) : outcome state :=
    st <- load y trees ;; for_ N (fun leaf st => leaf_step leaf st) st.

  (** Decoder_polar_SCL_naive.hxx 468-481 (recursive_store); [rem] is the height of the
      node. *)
  Fixpoint rec_store (rem d j : nat) (t : ptree) (st : list bool * nat)
    : outcome (list bool * nat) :=
    match rem with
    | O =>
      f <- rd fb j ;;
      if f : bool then Ret st
      else b <- rd (sT t d j) 0 ;; v <- wr (fst st) (snd st) b ;; Ret (v, S (snd st))
    | S rem' =>
      st <- rec_store rem' (S d) (2 * j) t st ;; rec_store rem' (S d) (2 * j + 1) t st
    end.

  (** Decoder_polar_SCL_naive.hxx 276-337 (_decode_siho, _decode_siho_cw, _store), with the
      selection rule [sel]: the trees keep their contents for the next frame. *)
  Definition decode_with (sel : state -> outcome nat) (y : list Z) (v_k : list bool)
    (trees : list ptree) : outcome (list bool * list ptree) :=
    st <- list_decode y trees ;;
    best <- sel st ;;
    t <- rd (fst st) best ;;
    '(v, _) <- rec_store m 0 0 t (v_k, 0) ;;
    Ret (v, fst st).
  Definition decode_cw_with (sel : state -> outcome nat) (y : list Z)
    (trees : list ptree) : outcome (list bool * list ptree) :=
    st <- list_decode y trees ;;
    best <- sel st ;;
    t <- rd (fst st) best ;;
    x <- gen N (rd (sT t 0 0)) ;;
    Ret (x, fst st).
  Definition scl_decode := decode_with select_best_path.
  Definition scl_decode_cw := decode_cw_with select_best_path.
  Definition ca_decode (check : list bool -> bool) := decode_with (select_best_path_ca check).
  Definition ca_decode_cw (check : list bool -> bool) :=
    decode_cw_with (select_best_path_ca check).
End SCL.

(** Decoder_polar_SCL_naive.hxx 439-450: the arrays of a node have 2^(m-d) entries. *)
Definition fresh_tree (m : nat) (metric_init : Z) : ptree :=
  PT (fun d _ => repeat 0%Z (2 ^ (m - d))) (fun d _ => repeat false (2 ^ (m - d))) metric_init.

(** Decoder_polar_SCL_naive.hxx 21-73: constructor, with the checks on N, frozen_bits, L and
    K. Result: graph depth m and the L trees. *)
Definition scl_ctor (K N L : nat) (fb : list bool) (metric_init : Z)
  : outcome (nat * list ptree) :=
  let m := Nat.log2 N in
  _ <- guard (2 ^ m =? N) ;;
  _ <- guard (N =? length fb) ;;
  _ <- guard ((0 <? L) && (2 ^ Nat.log2 L =? L))%bool ;;
  _ <- guard (K =? count_info fb) ;;
  Ret (m, repeat (fresh_tree m metric_init) L).

(** Decoder_polar_SCL_naive.hxx 121-129 (set_frozen_bits): the pattern that is checked is the
    member frozen_bits, not the argument; std::copy writes beyond the end of the member when
    the argument is longer. *)
Definition scl_set_frozen_bits (K N : nat) (frozen_bits new_fb : list bool)
  : outcome (list bool) :=
  _ <- fb_assert frozen_bits K N ;;
  if length new_fb <=? length frozen_bits
  then Ret (new_fb ++ skipn (length new_fb) frozen_bits)
  else Undef.
