(** Polar codes: encoders, SC decoder, shortening puncturer, multi-kernel encoder.

    Bits (type B of the code) hold 0 or 1 and are modelled by [bool]; [^] is [xorb].
    Array indices are [nat]. *)
From Coq Require Import List Arith ZArith Lia Bool.
From Verif Require Import Base.
Import ListNotations.

(* ------------------------------------------------------------------ *)
(** * Frozen bits *)

(** src/Tools/Code/Polar/fb_assert.cpp 16-17: number of entries equal to 0. *)
Definition count_info (fb : list bool) : nat := length (filter negb fb).

(** src/Tools/Code/Polar/fb_assert.cpp 6-26. *)
Definition fb_assert (fb : list bool) (K N : nat) : outcome unit :=
  _ <- guard (length fb =? N) ;; guard (K =? count_info fb).

(** src/Module/Encoder/Polar/Encoder_polar.cpp 99-109 (set_frozen_bits): the checked
    pattern is stored, [info_bits_pos] (K entries, include/Module/Encoder/Encoder.hxx)
    is refilled. Result: (frozen_bits, info_bits_pos). *)
Definition set_frozen (K N : nat) (fb : list bool) (info_bits_pos : list nat)
  : outcome (list bool * list nat) :=
  _ <- fb_assert fb K N ;;
  '(pos, _) <- for_ N (fun n '(pos, k) =>
        f <- rd fb n ;;
        if f : bool then Ret (pos, k)
        else p' <- wr pos k n ;; Ret (p', S k)) (info_bits_pos, 0) ;;
  Ret (fb, pos).

(** src/Module/Encoder/Polar/Encoder_polar.cpp 12-30: the constructor; the K entries of
    [info_bits_pos] are initialised by Encoder to 0..K-1. *)
Definition polar_ctor (K N : nat) (fb : list bool) : outcome (list bool * list nat) :=
  _ <- guard (N =? length fb) ;; set_frozen K N fb (seq 0 K).

(** src/Module/Encoder/Polar/Encoder_polar.cpp 72-77 (convert, distinct buffers);
    lines 63-71 (same buffer) first copy the K information bits into a temporary, see
    [convert_inplace]. *)
Definition convert_from (fb u_k u_n : list bool) : outcome (list bool) :=
  '(o, _) <- for_ (length fb) (fun i '(o, j) =>
      f <- rd fb i ;;
      if f : bool then o' <- wr o i false ;; Ret (o', j)
      else b <- rd u_k j ;; o' <- wr o i b ;; Ret (o', S j)) (u_n, 0) ;;
  Ret o.

Definition convert (fb u_k x_n : list bool) : outcome (list bool) := convert_from fb u_k x_n.

(** src/Module/Encoder/Polar/Encoder_polar.cpp 63-71: [buf] is both U_K and U_N; the
    temporary has K entries. *)
Definition convert_inplace (K : nat) (fb buf : list bool) : outcome (list bool) :=
  if K <=? length buf then convert_from fb (firstn K buf) buf else Undef.

(* ------------------------------------------------------------------ *)
(** * Encoder *)

(** src/Module/Encoder/Polar/Encoder_polar.cpp 54-56: one value of [k] of the outer loop
    ("for j = 0; j < N; j += 2k" makes ceil(N / 2k) turns). *)
Definition light_stage (N k : nat) (bits : list bool) : outcome (list bool) :=
  for_ ((N + 2 * k - 1) / (2 * k)) (fun t bits =>
    let j := t * (2 * k) in
    for_ k (fun i bits =>
      x <- rd bits (j + i) ;;
      y <- rd bits (k + j + i) ;;
      wr bits (j + i) (xorb x y)) bits) bits.

(** src/Module/Encoder/Polar/Encoder_polar.cpp 49-57: "for k = N >> 1; k > 0; k >>= 1"
    ends after at most N turns; [fuel] counts them. *)
Fixpoint light_loop (fuel N k : nat) (bits : list bool) : outcome (list bool) :=
  match fuel with
  | O => Ret bits
  | S f => if k =? 0 then Ret bits
           else bits' <- light_stage N k bits ;; light_loop f N (k / 2) bits'
  end.
Definition light_encode (N : nat) (bits : list bool) : outcome (list bool) :=
  light_loop N N (N / 2) bits.

(** src/Module/Encoder/Polar/Encoder_polar.cpp 41-47. *)
Definition polar_encode (N : nat) (fb u_k x_n : list bool) : outcome (list bool) :=
  x <- convert fb u_k x_n ;; light_encode N x.

(** src/Module/Encoder/Polar/Encoder_polar_sys.cpp 26-40. *)
Definition mask_frozen (N : nat) (fb x : list bool) : outcome (list bool) :=
  for_ N (fun i x =>
    f <- rd fb i ;; v <- rd x i ;; wr x i (negb f && v)) x.
Definition polar_sys_encode (N : nat) (fb u_k x_n : list bool) : outcome (list bool) :=
  x <- convert fb u_k x_n ;;
  x <- light_encode N x ;;
  x <- mask_frozen N fb x ;;
  light_encode N x.

(** src/Module/Encoder/Polar/Encoder_polar.cpp 80-97 (is_codeword): [None] records that
    "return false" has been executed. *)
Definition cw_stage (N k : nat) (fb : list bool) (st : option (list bool))
  : outcome (option (list bool)) :=
  for_ ((N + 2 * k - 1) / (2 * k)) (fun t st =>
    match st with
    | None => Ret None
    | Some tmp =>
      let j := t * (2 * k) in
      tmp' <- for_ k (fun i tmp =>
         x <- rd tmp (j + i) ;;
         y <- rd tmp (k + j + i) ;;
         wr tmp (j + i) (xorb x y)) tmp ;;
      f <- rd fb (j + k - 1) ;;
      if f : bool then
        v <- rd tmp' (j + k - 1) ;;
        if v : bool then Ret None else Ret (Some tmp')
      else Ret (Some tmp')
    end) st.
Fixpoint cw_loop (fuel N k : nat) (fb : list bool) (st : option (list bool))
  : outcome (option (list bool)) :=
  match fuel with
  | O => Ret st
  | S f => if k =? 0 then Ret st
           else st' <- cw_stage N k fb st ;; cw_loop f N (k / 2) fb st'
  end.
Definition is_codeword (N : nat) (fb x : list bool) : outcome bool :=
  if N <=? length x then
    st <- cw_loop N N (N / 2) fb (Some (firstn N x)) ;;
    Ret (match st with Some _ => true | None => false end)
  else Undef.

(* ------------------------------------------------------------------ *)
(** * Successive-cancellation decoder *)

(** Shape of include/Tools/Algo/Tree/Binary/Binary_tree.hxx: leaves carry their lane. *)
Inductive btree := BLeaf (lane : nat) | BNode (l r : btree).

(** include/Tools/Algo/Tree/Binary/Binary_tree.hxx 96-113 (create_nodes): [rem] is
    depth - cur_depth; [lanes] is the shared counter array, [me] the lane of the current
    node. Both children get their lane before the recursive calls. *)
Fixpoint create_nodes (rem cur_depth me : nat) (lanes : list nat)
  : outcome (btree * list nat) :=
  match rem with
  | O => Ret (BLeaf me, lanes)
  | S rem' =>
    a <- rd lanes cur_depth ;; lanes <- wr lanes cur_depth (S a) ;;
    b <- rd lanes cur_depth ;; lanes <- wr lanes cur_depth (S b) ;;
    '(l, lanes) <- create_nodes rem' (S cur_depth) a lanes ;;
    '(r, lanes) <- create_nodes rem' (S cur_depth) b lanes ;;
    Ret (BNode l r, lanes)
  end.
(** include/Tools/Algo/Tree/Binary/Binary_tree.hxx 31-42 (init). A tree built with
    [depth] has levels 0 .. depth-1. *)
Definition tree_init (depth : nat) : outcome btree :=
  '(t, _) <- create_nodes (depth - 1) 1 0 (repeat 0 (S depth)) ;; Ret t.

Section SC.
  (** R: type of the LLRs, F, G, H: the kernels, template parameters of
      include/Module/Decoder/Polar/SC/Decoder_polar_SC_naive.hxx 18. *)
  Variable R : Type.
  Variable F : R -> R -> R.
  Variable G : R -> R -> bool -> R.
  Variable H : R -> bool.

  (** The decoded tree: partial sums [s] of every node. *)
  Inductive stree := SLeaf (lane : nat) (s : list bool) | SNode (l r : stree) (s : list bool).
  Definition sums (t : stree) : list bool :=
    match t with SLeaf _ s => s | SNode _ _ s => s end.

  (** include/Module/Decoder/Polar/SC/Decoder_polar_SC_naive.hxx 214-250
      (recursive_decode); 185-212: the arrays of a node have half the size of its
      father's, a leaf is frozen when [frozen_bits[lane]]. The [lambda] and [s] arrays
      of a node are completely rewritten before they are read, so they are results here. *)
  Fixpoint recursive_decode (fb : list bool) (t : btree) (lambda : list R) : outcome stree :=
    match t with
    | BNode tl tr =>
      let size_2 := length lambda / 2 in
      ll <- gen size_2 (fun i =>
             a <- rd lambda i ;; b <- rd lambda (size_2 + i) ;; Ret (F a b)) ;;
      l <- recursive_decode fb tl ll ;;
      lr <- gen size_2 (fun i =>
             a <- rd lambda i ;; b <- rd lambda (size_2 + i) ;;
             u <- rd (sums l) i ;; Ret (G a b u)) ;;
      r <- recursive_decode fb tr lr ;;
      s1 <- gen size_2 (fun i => a <- rd (sums l) i ;; b <- rd (sums r) i ;; Ret (xorb a b)) ;;
      s2 <- gen size_2 (fun i => rd (sums r) i) ;;
      Ret (SNode l r (s1 ++ s2))
    | BLeaf lane =>
      f <- rd fb lane ;;
      y <- rd lambda 0 ;;
      Ret (SLeaf lane [negb f && H y])
    end.

  (** include/Module/Decoder/Polar/SC/Decoder_polar_SC_naive.hxx 252-266 (recursive_store). *)
  Fixpoint recursive_store (fb : list bool) (t : stree) (st : list bool * nat)
    : outcome (list bool * nat) :=
    match t with
    | SNode l r _ => st <- recursive_store fb l st ;; recursive_store fb r st
    | SLeaf lane s =>
      f <- rd fb lane ;;
      if f : bool then Ret st
      else b <- rd s 0 ;; v <- wr (fst st) (snd st) b ;; Ret (v, S (snd st))
    end.

  (** include/Module/Decoder/Polar/SC/Decoder_polar_SC_naive.hxx 18-53: constructor,
      checks and tree of depth log2(N)+1. *)
  Definition sc_ctor (K N : nat) (fb : list bool) : outcome btree :=
    _ <- guard (2 ^ Nat.log2 N =? N) ;;
    _ <- guard (N =? length fb) ;;
    _ <- guard (K =? count_info fb) ;;
    tree_init (Nat.log2 N + 1).

  (** include/Module/Decoder/Polar/SC/Decoder_polar_SC_naive.hxx 113-144 and 169-183:
      load N LLRs, decode, store the information bits in V_K. *)
  Definition decode_siho (K N : nat) (fb : list bool) (y : list R) (v_k : list bool)
    : outcome (list bool) :=
    t <- sc_ctor K N fb ;;
    lam <- gen N (rd y) ;;
    d <- recursive_decode fb t lam ;;
    '(v, _) <- recursive_store fb d (v_k, 0) ;;
    Ret v.

  (** include/Module/Decoder/Polar/SC/Decoder_polar_SC_naive.hxx 146-167 and 178-182: the
      partial sums of the root. *)
  Definition decode_siho_cw (K N : nat) (fb : list bool) (y : list R) : outcome (list bool) :=
    t <- sc_ctor K N fb ;;
    lam <- gen N (rd y) ;;
    d <- recursive_decode fb t lam ;;
    gen N (rd (sums d)).
End SC.
Arguments recursive_decode {R}.
Arguments decode_siho {R}.
Arguments decode_siho_cw {R}.

(** include/Tools/Code/Polar/decoder_polar_functions.hxx 31-39 (f_LLR), exact arithmetic
    (Z stands for the double/float instances without rounding and underflow: the code
    takes the sign of the product [a * b], which is lost when that product underflows). *)
Definition f_LLR (a b : Z) : Z := (Z.sgn (a * b) * Z.min (Z.abs a) (Z.abs b))%Z.
(** include/Tools/Code/Polar/decoder_polar_functions.hxx 145-149 (g_LLR), exact. *)
Definition g_LLR (a b : Z) (u : bool) : Z := ((if u then - a else a) + b)%Z.
(** include/Tools/Code/Polar/decoder_polar_functions.hxx 224-229 (h_LLR); the decoder only
    tests whether it is non-zero. *)
Definition h_LLR (a : Z) : bool := (a <? 0)%Z.

(** Conversion to a signed integer of [w] bits (wrap-around). *)
Definition to_signed (w : Z) (x : Z) : Z :=
  ((x + 2 ^ (w - 1)) mod 2 ^ w - 2 ^ (w - 1))%Z.
(** include/Tools/Code/Polar/decoder_polar_functions.hxx 86-114 (f_LLR for int16_t and
    int8_t): computed on int, converted back to [w] bits. *)
Definition f_LLR_int (w a b : Z) : Z :=
  let sa := Z.sgn a in let sb := Z.sgn b in
  to_signed w (sa * sb * Z.min (sa * a) (sb * b))%Z.
(** include/Tools/Math/utils.hxx 47-52: sat_val of int16_t and int8_t. *)
Definition sat_val (w : Z) : Z := if (w =? 8)%Z then 63%Z else 16382%Z.
(** include/Tools/Code/Polar/decoder_polar_functions.hxx 151-165 (g_LLR for int16_t and
    int8_t); include/Tools/Math/utils.hxx saturate. *)
Definition g_LLR_int (w a b : Z) (u : bool) : Z :=
  Z.min (Z.max ((if u then - a else a) + b) (- sat_val w)) (sat_val w).

(* ------------------------------------------------------------------ *)
(** * Shortening puncturer *)

(** src/Module/Puncturer/Polar/Puncturer_polar_shortlast.cpp 13-39: N_cw is the next power
    of two (std::exp2(std::ceil(std::log2(N))), taken as exact). *)
Definition shortlast_N_cw (N : nat) : nat := 2 ^ Nat.log2_up N.

(** src/Module/Puncturer/Polar/Puncturer_polar_shortlast.cpp 61-70: the while loop; reading
    past the end of best_channels is undefined. [rest] is best_channels from index i. *)
Fixpoint place_info (N todo : nat) (rest : list nat) (fb : list bool) : outcome (list bool) :=
  match rest with
  | [] => if todo =? 0 then Ret fb else Undef
  | c :: rest' =>
    if todo =? 0 then Ret fb
    else if c <? N then fb' <- wr fb c false ;; place_info N (todo - 1) rest' fb'
    else place_info N todo rest' fb
  end.
(** src/Module/Puncturer/Polar/Puncturer_polar_shortlast.cpp 50-71. *)
Definition gen_frozen_bits (K N : nat) (best_channels : list nat) (fb : list bool)
  : outcome (list bool) :=
  place_info N K best_channels (repeat true (length fb)).

(** src/Module/Puncturer/Polar/Puncturer_polar_shortlast.cpp 73-78. *)
Definition short_puncture {A} (N : nat) (x1 x2 : list A) : outcome (list A) :=
  for_ N (fun i o => v <- rd x1 i ;; wr o i v) x2.
(** src/Module/Puncturer/Polar/Puncturer_polar_shortlast.cpp 80-88; [sat] is
    sat_vals<Q>().second. *)
Definition short_depuncture {A} (N N_cw : nat) (sat : A) (y1 y2 : list A) : outcome (list A) :=
  o <- for_ N (fun i o => v <- rd y1 i ;; wr o i v) y2 ;;
  for_from N (N_cw - N) (fun i o => wr o i sat) o.

(* ------------------------------------------------------------------ *)
(** * Multi-kernel polar codes *)

(** src/Tools/Code/Polar/Polar_code.cpp 182-211 (get_cofactor with p = 0, the only use):
    row 0 and column q removed; only the (n-1) x (n-1) corner of [tmp] is read later. *)
Definition get_cofactor (mat : list (list bool)) (q n : nat) : outcome (list (list bool)) :=
  gen (n - 1) (fun i => gen (n - 1) (fun j =>
    row <- rd mat (S i) ;; rd row (if j <? q then j else S j))).
(** src/Tools/Code/Polar/Polar_code.cpp 213-240 (determinant_of_matrix): integer
    determinant by expansion along the first row. [fuel] bounds the recursion depth. *)
Fixpoint determinant (fuel : nat) (mat : list (list bool)) (n : nat) : outcome Z :=
  match fuel with
  | O => Ret 0%Z
  | S fuel' =>
    if n =? 1 then row <- rd mat 0 ;; v <- rd row 0 ;; Ret (Z.b2z v)
    else
      '(d, _) <- for_ n (fun f '(d, sign) =>
          tmp <- get_cofactor mat f n ;;
          row <- rd mat 0 ;; v <- rd row f ;;
          c <- determinant fuel' tmp (n - 1) ;;
          Ret (d + sign * Z.b2z v * c, - sign)%Z) (0, 1)%Z ;;
      Ret d
  end.
(** src/Tools/Code/Polar/Polar_code.cpp 242-246. *)
Definition is_invertible (mat : list (list bool)) : outcome bool :=
  d <- determinant (S (length mat)) mat (length mat) ;; Ret (negb (d =? 0)%Z).

Fixpoint check_all {A} (f : A -> outcome bool) (l : list A) : outcome unit :=
  match l with
  | [] => Ret tt
  | a :: t => b <- f a ;; _ <- guard b ;; check_all f t
  end.

(** src/Tools/Code/Polar/Polar_code.cpp 272-366 (constructor from kernels and stages,
    verif_MK, verif): accepted or exception. The last test of verif compares N with the
    same product grouped by kernel (std::pow on float, exact for these sizes) and is
    omitted. Reading kernel_matrices[s] in the constructor before verif_MK has checked s is
    undefined when s is out of range. Result: N. *)
Definition polar_code_ctor (kernels : list (list (list bool))) (stages : list nat)
  : outcome nat :=
  N <- for_ (length stages) (fun i n =>
         s <- rd stages i ;; k <- rd kernels s ;; Ret (n * length k)) 1 ;;
  _ <- guard (0 <? length stages) ;;
  _ <- guard (length kernels <=? length stages) ;;
  _ <- guard (forallb (fun s => s <? length kernels) stages) ;;
  _ <- guard (forallb (fun k => forallb (fun l => length l =? length k) k) kernels) ;;
  _ <- check_all is_invertible kernels ;;
  Ret N.

(** src/Module/Encoder/Polar_MK/Encoder_polar_MK.cpp 48-54: the transposed kernel, row
    major. *)
Definition flat_kernel (kernel : list (list bool)) : outcome (list bool) :=
  let size := length kernel in
  gen (size * size) (fun e =>
    row <- rd kernel (e mod size) ;; rd row (e / size)).

(** src/Module/Encoder/Polar_MK/Encoder_polar_MK.cpp 80-90 (apply_polar_kernel); [& 1] of
    the integer sum is its parity. *)
Definition apply_polar_kernel (u : list bool) (idx : list nat) (ke x : list bool) (size : nat)
  : outcome (list bool) :=
  for_ size (fun i x =>
    sum <- for_ size (fun j sum =>
             a <- rd u j ;; k <- rd ke (i * size + j) ;;
             Ret (sum + Nat.b2n (a && k))) 0 ;;
    p <- rd idx i ;;
    wr x p (Nat.odd sum)) x.

(** src/Module/Encoder/Polar_MK/Encoder_polar_MK.cpp 95-116: one stage; the arrays idx and
    u are rewritten up to kernel_size before they are read. *)
Definition mk_stage (N n_kernels : nat) (kernel : list (list bool)) (x : list bool)
  : outcome (list bool) :=
  let ks := length kernel in
  if n_kernels * ks =? 0 then Undef else
  ke <- flat_kernel kernel ;;
  for_ (N / (n_kernels * ks)) (fun b x =>
    for_ n_kernels (fun k x =>
      idx <- gen ks (fun i => Ret (b * n_kernels * ks + n_kernels * i + k)) ;;
      u <- gen ks (fun i => p <- rd idx i ;; rd x p) ;;
      apply_polar_kernel u idx ke x ks) x) x.
(** src/Module/Encoder/Polar_MK/Encoder_polar_MK.cpp 92-117 (light_encode). *)
Fixpoint mk_stages (N n_kernels : nat) (kernels : list (list (list bool))) (stages : list nat)
  (x : list bool) : outcome (list bool) :=
  match stages with
  | [] => Ret x
  | s :: rest =>
    kernel <- rd kernels s ;;
    x' <- mk_stage N n_kernels kernel x ;;
    mk_stages N (n_kernels * length kernel) kernels rest x'
  end.
Definition mk_light_encode (N : nat) (kernels : list (list (list bool))) (stages : list nat)
  (x : list bool) : outcome (list bool) := mk_stages N 1 kernels stages x.

(** src/Module/Encoder/Polar_MK/Encoder_polar_MK.cpp 68-74 and 120-139 (convert is the
    same as in Encoder_polar). *)
Definition mk_encode (N : nat) (kernels : list (list (list bool))) (stages : list nat)
  (fb u_k x_n : list bool) : outcome (list bool) :=
  x <- convert fb u_k x_n ;; mk_light_encode N kernels stages x.

(** src/Module/Encoder/Polar_MK/Encoder_polar_MK_sys.cpp 37-52. *)
Definition mk_sys_encode (N : nat) (kernels : list (list (list bool))) (stages : list nat)
  (fb u_k x_n : list bool) : outcome (list bool) :=
  x <- convert fb u_k x_n ;;
  x <- mk_light_encode N kernels stages x ;;
  x <- mask_frozen N fb x ;;
  mk_light_encode N kernels stages x.

(** src/Tools/Code/Polar/Polar_code.cpp 403-411 (is_mono_kernel): size of kernel 0 if all
    stages are the same, else 0. *)
Definition is_mono_kernel (kernels : list (list (list bool))) (stages : list nat) : outcome nat :=
  type <- rd stages 0 ;;
  if forallb (fun s => s =? type) (tl stages)
  then k <- rd kernels 0 ;; Ret (length k) else Ret 0.
(** src/Tools/Code/Polar/Polar_code.cpp 380-389: entry (i, j) of K x K over GF(2). *)
Definition kxk (kernel : list (list bool)) (i j : nat) : outcome bool :=
  sum <- for_ (length kernel) (fun k sum =>
     ri <- rd kernel i ;; a <- rd ri k ;; rk <- rd kernel k ;; b <- rd rk j ;;
     Ret (sum + Nat.b2n (a && b))) 0 ;;
  Ret (Nat.odd sum).
(** src/Tools/Code/Polar/Polar_code.cpp 391-397. *)
Definition self_inverse (kernel : list (list bool)) : outcome bool :=
  for_ (length kernel) (fun i ok => for_ (length kernel) (fun j ok =>
     e <- kxk kernel i j ;; Ret (ok && Bool.eqb e (i =? j))) ok) true.
(** src/Tools/Code/Polar/Polar_code.cpp 367-401 (can_be_systematic). *)
Definition can_be_systematic (kernels : list (list (list bool))) (stages : list nat)
  : outcome bool :=
  mono <- is_mono_kernel kernels stages ;;
  pal <- (if mono =? 0 then
            for_ (length stages / 2) (fun sl ok =>
              a <- rd stages sl ;; b <- rd stages (length stages - 1 - sl) ;;
              Ret (ok && (a =? b))) true
          else Ret true) ;;
  if pal : bool then
    for_ (length kernels) (fun i ok => k <- rd kernels i ;; b <- self_inverse k ;; Ret (ok && b)) true
  else Ret false.
