(** The tree of simplified nodes of a polar code: src/Tools/Code/Polar/Pattern_polar_parser.cpp, include/Tools/Code/Polar/Patterns/, the binary tree of
    include/Tools/Algo/Tree/Binary/ and the extraction of include/Tools/Code/Polar/fb_extract.hxx. *)
From Coq Require Import List Arith Lia Bool ZArith.
From Verif Require Import Base Copy.
Import ListNotations.

(** polar_node_t (Pattern_polar_i.hpp 15-25) *)
Inductive ptype := STANDARD | RATE_0_LEFT | RATE_0 | RATE_1 | REP_LEFT | REP | SPC.
Definition ptype_eqb (a b : ptype) : bool :=
  match a, b with STANDARD, STANDARD | RATE_0_LEFT, RATE_0_LEFT | RATE_0, RATE_0 | RATE_1, RATE_1 | REP_LEFT, REP_LEFT | REP, REP | SPC, SPC => true | _, _ => false end.
(** is_terminal() of the seven patterns *)
Definition is_terminal (t : ptype) : bool := match t with RATE_0 | RATE_1 | REP | SPC => true | _ => false end.
(** A pattern given to the parser: its type, min_level and max_level (-1: no limit) *)
Record pattern := mkPat { pt : ptype; min_level : Z; max_level : Z }.
(** The contents of a node: the type and the size (Pattern_polar_i.hxx 14-67; the offsets, the identifier and the texts for the code generation are left out) *)
Record cont := mkCont { ctype : ptype; csize : nat }.

(** Binary_node.hxx, Binary_tree.hxx: a node has two children or none (cut_left and cut_right are always called together); its contents (None: nullptr),
    its depth and its lane *)
Inductive bt := Lf (c : option cont) (depth lane : nat) | Bn (c : option cont) (depth lane : nat) (l r : bt).
Definition contents (n : bt) : option cont := match n with Lf c _ _ => c | Bn c _ _ _ _ => c end.
(** get_contents()->type(); Undef: null pointer *)
Definition type_of (n : bt) : outcome ptype := match contents n with Some c => Ret (ctype c) | None => Undef end.

(** create_nodes (Binary_tree.hxx 94-111), [k]: the levels left under this node *)
Fixpoint create_nodes (k depth lane : nat) (lanes : list nat) : outcome (bt * list nat) :=
  match k with
  | O => Ret (Lf None depth lane, lanes)
  | S k =>
    ll <- rd lanes (S depth) ;; lanes <- wr lanes (S depth) (S ll) ;;
    lr <- rd lanes (S depth) ;; lanes <- wr lanes (S depth) (S lr) ;;
    ' (l, lanes) <- create_nodes k (S depth) ll lanes ;;
    ' (r, lanes) <- create_nodes k (S depth) lr lanes ;;
    Ret (Bn None depth lane l r, lanes)
  end.
(** the constructor from a depth (Binary_tree.hxx 8-14, 30-41) *)
Definition tree_new (depth : nat) : outcome bt :=
  ' (t, _) <- create_nodes (depth - 1) 0 0 (repeat 0 (depth + 1)) ;; Ret t.

(** recursive_check of Pattern_polar_r0.hxx 75-99 and Pattern_polar_r1.hxx 77-100 *)
Fixpoint all_check (t : ptype) (n : bt) : outcome bool :=
  match n with
  | Lf _ _ _ => x <- type_of n ;; Ret (ptype_eqb x t)
  | Bn _ _ _ l r =>
    tl <- type_of l ;; tr <- type_of r ;;
    if ptype_eqb tl t && ptype_eqb tr t then Ret true else
    b <- all_check t l ;; if b then all_check t r else Ret false
  end.
(** recursive_check of Pattern_polar_rep.hxx 91-119, [rev]: reverse_graph_depth *)
Fixpoint rep_check (rev : Z) (n : bt) : outcome bool :=
  match n with
  | Lf _ _ _ => Ret false
  | Bn _ _ _ l r =>
    tl <- type_of l ;; tr <- type_of r ;;
    b <- (if ptype_eqb tl RATE_0 then Ret true else all_check RATE_0 l) ;;
    if b then
      if ptype_eqb tr REP then Ret true
      else if ptype_eqb tr RATE_1 && (rev =? 1)%Z then Ret true
      else rep_check (rev - 1) r
    else Ret false
  end.
(** recursive_check of Pattern_polar_spc.hxx 91-121 *)
Fixpoint spc_check (rev : Z) (n : bt) : outcome bool :=
  match n with
  | Lf _ _ _ => Ret false
  | Bn _ _ _ l r =>
    tl <- type_of l ;; tr <- type_of r ;;
    b <- (if ptype_eqb tr RATE_1 then Ret true else all_check RATE_1 r) ;;
    if b then
      if ptype_eqb tl SPC then Ret true
      else if ptype_eqb tl REP && (rev =? 2)%Z then Ret true
      else if ptype_eqb tl RATE_0 && (rev =? 1)%Z then Ret true
      else spc_check (rev - 1) l
    else Ret false
  end.
(** the type of the left child (Pattern_polar_r0_left.hxx 95-98, Pattern_polar_rep_left.hxx 95-98) *)
Definition left_type (n : bt) : outcome ptype :=
  match n with Lf _ _ _ => Undef | Bn _ _ _ l _ => match contents l with Some c => Ret (ctype c) | None => Throws end end.
(** _match of the seven patterns *)
Definition match_value (t : ptype) (rev : Z) (n : bt) : outcome nat :=
  match t with
  | STANDARD => Ret 1
  | RATE_0 => b <- all_check RATE_0 n ;; Ret (if b : bool then 100 else 0)
  | RATE_1 => b <- all_check RATE_1 n ;; Ret (if b : bool then 99 else 0)
  | REP => b <- rep_check rev n ;; Ret (if b : bool then 50 else 0)
  | SPC => b <- spc_check rev n ;; Ret (if b : bool then 49 else 0)
  | RATE_0_LEFT => x <- left_type n ;; Ret (if ptype_eqb x RATE_0 then 20 else 0)
  | REP_LEFT => x <- left_type n ;; Ret (if ptype_eqb x REP then 19 else 0)
  end.
(** match (Pattern_polar_i.hxx 182-200) *)
Definition pmatch (p : pattern) (rev : Z) (n : bt) : outcome nat :=
  _ <- guard (0 <? rev)%Z ;;
  if ((min_level p <=? rev) && ((max_level p =? -1) || (rev <=? max_level p)))%Z then match_value (pt p) rev n else Ret 0.
(** the index of the first greatest value, 0 when all are 0 (Pattern_polar_parser.cpp 149-158) *)
Fixpoint biggest (vals : list nat) (i best id : nat) : nat :=
  match vals with [] => id | v :: vals => if best <? v then biggest vals (S i) v i else biggest vals (S i) best id end.
(** alloc(N, node) with a node: Pattern_polar_i.hxx 14-67 (the checks of the levels were made when the pattern was built) *)
Definition palloc (p : pattern) (N depth : nat) : outcome cont :=
  _ <- guard (0 <? N) ;; Ret (mkCont (pt p) (N / 2 ^ depth)).

Section Allocate.
Variables (N m : nat) (fb : list bool) (pats : list pattern) (r0 r1 : nat).
(** recursive_allocate_nodes_patterns (Pattern_polar_parser.cpp 130-177) *)
Fixpoint allocate (n : bt) : outcome bt :=
  match n with
  | Bn c depth lane l r =>
    l <- allocate l ;; r <- allocate r ;;
    vals <- gen (length pats) (fun i => p <- rd pats i ;; pmatch p (Z.of_nat m - Z.of_nat depth) (Bn c depth lane l r)) ;;
    p <- rd pats (biggest vals 0 0 0) ;;
    c <- palloc p N depth ;;
    Ret (if is_terminal (pt p) then Lf (Some c) depth lane else Bn (Some c) depth lane l r)
  | Lf _ depth lane =>
    b <- rd fb lane ;; p <- rd pats (if b : bool then r0 else r1) ;; c <- palloc p N depth ;; Ret (Lf (Some c) depth lane)
  end.
End Allocate.
(** generate_nodes_indexes (179-193): the types of the nodes in prefix order, the types and sizes of the leaves *)
Fixpoint indexes (n : bt) : outcome (list ptype * list (ptype * nat)) :=
  match contents n with
  | None => Undef
  | Some c =>
    match n with
    | Lf _ _ _ => Ret ([ctype c], [(ctype c, csize c)])
    | Bn _ _ _ l r => ' (tl, ll) <- indexes l ;; ' (tr, lr) <- indexes r ;; Ret (ctype c :: tl ++ tr, ll ++ lr)
    end
  end.

Record parser := mkParser { p_N : nat; p_fb : list bool; p_pats : list pattern; p_r0 : nat; p_r1 : nat;
                            p_tree : bt; p_types : list ptype; p_leaves : list (ptype * nat) }.
(** set_frozen_bits (110-122); Undef: more bits than allocated, or log2(0) converted to an integer *)
Definition set_frozen_bits (fb : list bool) (p : parser) : outcome parser :=
  if length (p_fb p) <? length fb then Undef else if p_N p =? 0 then Undef else
  let fb := fb ++ skipn (length fb) (p_fb p) in
  let m := Nat.log2 (p_N p) in
  t <- tree_new (m + 1) ;;
  t <- allocate (p_N p) m fb (p_pats p) (p_r0 p) (p_r1 p) t ;;
  ' (tys, lvs) <- indexes t ;;
  Ret (mkParser (p_N p) fb (p_pats p) (p_r0 p) (p_r1 p) t tys lvs).
(** the constructor (12-61) *)
Definition parser_new (fb : list bool) (pats : list pattern) (r0 r1 : nat) : outcome parser :=
  _ <- guard (r0 <? length pats) ;; _ <- guard (r1 <? length pats) ;; _ <- guard (negb (r0 =? r1)) ;;
  set_frozen_bits fb (mkParser (length fb) fb pats r0 r1 (Lf None 0 0) [] []).

(** ** The copy constructor (63-78, 86-109) *)
(** Binary_tree.hxx recursive_copy (56-83) on a new tree: the contents are shared *)
Fixpoint recursive_copy (nref nclone : bt) : bt :=
  match nref, nclone with
  | Bn c _ _ l r, Bn _ d lane l' r' => Bn c d lane (recursive_copy l l') (recursive_copy r r')
  | _, Lf _ d lane => Lf (contents nref) d lane
  | Lf c _ _, Bn _ d lane l' r' => Bn c d lane l' r'
  end.
(** recursive_deep_copy (92-109), called with twice the same tree: alloc(get_size(), node), or alloc(0, nullptr) for a size 0 *)
Definition clone_cont (c : option cont) (depth : nat) : option cont :=
  match c with None => None | Some c => Some (mkCont (ctype c) (csize c / 2 ^ depth)) end.
Fixpoint deep_copy (n : bt) : bt :=
  match n with
  | Lf c d lane => Lf (clone_cont c d) d lane
  | Bn c d lane l r => Bn (clone_cont c d) d lane (deep_copy l) (deep_copy r)
  end.
Definition parser_copy (p : parser) : outcome parser :=
  t <- tree_new (Nat.log2 (p_N p) + 1) ;;
  Ret (mkParser (p_N p) (p_fb p) (p_pats p) (p_r0 p) (p_r1 p) (deep_copy (recursive_copy (p_tree p) t)) (p_types p) (p_leaves p)).

(** ** fb_extract (fb_extract.hxx 11-55), N_FRAMES frames interleaved *)
Section Extract.
Context {A : Type}.
Variables (nf : nat) (V_N : list A).
Fixpoint extract_loop (leaves : list (ptype * nat)) (off_s sk_idx : nat) (V_K : list A) : outcome (list A) :=
  match leaves with
  | [] => Ret V_K
  | (t, n) :: leaves =>
    ' (V_K, sk_idx) <- match t with
      | RATE_0 => Ret (V_K, sk_idx)
      | RATE_1 => o <- copy V_N (off_s * nf) ((off_s + n) * nf - off_s * nf) V_K sk_idx ;; Ret (o, sk_idx + n * nf)
      | REP => o <- copy V_N ((off_s + n - 1) * nf) ((off_s + n) * nf - (off_s + n - 1) * nf) V_K sk_idx ;; Ret (o, sk_idx + nf)
      | SPC => o <- copy V_N ((off_s + 1) * nf) ((off_s + n) * nf - (off_s + 1) * nf) V_K sk_idx ;; Ret (o, sk_idx + (n - 1) * nf)
      | _ => Throws
      end ;;
    extract_loop leaves (off_s + n) sk_idx V_K
  end.
Definition fb_extract (leaves : list (ptype * nat)) (V_K : list A) : outcome (list A) := extract_loop leaves 0 0 V_K.
End Extract.
