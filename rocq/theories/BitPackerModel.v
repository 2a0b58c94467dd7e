(** Model of tools::Bit_packer (include/Tools/Algo/Bit_packer.hxx).
    Symbols of type [S] are unsigned integers of [w] = sizeof(S)*CHAR_BIT bits
    (simplification: for a signed [S] the same bit patterns are meant, and a
    conversion to [S] is reduction modulo 2^w). Elements of type [B] are integers.
    [n_frames] and [Nbps] are [nat]; 0 stands for any non-positive value. *)
From Coq Require Import List Arith ZArith Bool.
From Verif Require Import Base Float32.
Import ListNotations.

(** conversion to a [w]-bit unsigned type *)
Definition wrap (w : nat) (x : Z) : Z := (x mod 2 ^ Z.of_nat w)%Z.

(** the C++ test [x != 0] and its conversion to an integer *)
Definition nz (x : Z) : bool := negb (x =? 0)%Z.
Definition b2z (b : bool) : Z := if b then 1%Z else 0%Z.

(** Bit_packer.hxx:268-272, 277-280: one symbol, least significant bit first.
    [get j] reads the j-th element. *)
Definition pack_symb_lsb (w n : nat) (get : nat -> outcome Z) : outcome Z :=
  for_ n (fun j symb =>
            x <- get j ;;
            Ret (wrap w (Z.lor symb (Z.shiftl (b2z (nz x)) (Z.of_nat j))))) 0%Z.

(** Bit_packer.hxx:287-290, 295-298: one symbol, most significant bit first. *)
Definition pack_symb_msb (w n : nat) (get : nat -> outcome Z) : outcome Z :=
  symb <- for_ n (fun j symb =>
            x <- get j ;;
            Ret (wrap w (Z.lor (Z.shiftl symb 1) (b2z (nz x))))) 0%Z ;;
  Ret (wrap w (Z.shiftl symb (Z.of_nat w - Z.of_nat n))).

Definition pack_symb (msb : bool) : nat -> nat -> (nat -> outcome Z) -> outcome Z :=
  if msb then pack_symb_msb else pack_symb_lsb.

(** Bit_packer.hxx:258-301 [_pack]. The memory is abstract ([M]) so that the same
    text models distinct and overlapping input/output buffers: [get m k] reads
    [vec_in[k]], [put m i s] performs [symbs_out[i] = s]. *)
Definition _pack {M} (get : M -> nat -> outcome Z) (put : M -> nat -> Z -> outcome M)
    (w n_bits : nat) (msb : bool) (nbps : nat) (m : M) : outcome M :=
  let n_symbs := n_bits / nbps in
  let rest := n_bits - n_symbs * nbps in
  m <- for_ n_symbs (fun i m =>
         symb <- pack_symb msb w nbps (fun j => get m (i * nbps + j)) ;;
         put m i symb) m ;;
  if rest =? 0 then Ret m
  else symb <- pack_symb msb w rest (fun j => get m (n_symbs * nbps + j)) ;;
       put m n_symbs symb.

(** Bit_packer.hxx:314,317 and 323,326: bit [j] of a symbol. *)
Definition bit_of (msb : bool) (w j : nat) (symb : Z) : Z :=
  let sh := if msb then (Z.of_nat w - 1 - Z.of_nat j)%Z else Z.of_nat j in
  Z.land (Z.shiftr symb sh) 1.

(** Bit_packer.hxx:303-328 [_unpack]; [get i] reads [symbs_in[i]], [put m k x]
    performs [vec_out[k] = x]. *)
Definition _unpack {M} (get : nat -> outcome Z) (put : M -> nat -> Z -> outcome M)
    (w n_bits : nat) (msb : bool) (nbps : nat) (m : M) : outcome M :=
  let n_symbs := n_bits / nbps in
  let rest := n_bits - n_symbs * nbps in
  m <- for_ n_symbs (fun i m =>
         for_ nbps (fun j m =>
           s <- get i ;; put m (i * nbps + j) (bit_of msb w j s)) m) m ;;
  for_ rest (fun j m =>
         s <- get n_symbs ;; put m (n_symbs * nbps + j) (bit_of msb w j s)) m.

(** Bit_packer.hxx:79,122,197,240. *)
Definition n_symbs_per_frame (n_bits nbps : nat) : nat :=
  Z.to_nat (ceil_float_div (Z.of_nat n_bits) (Z.of_nat nbps)).

Definition nbps_ok (w nbps : nat) : bool := negb (w <? nbps) && negb (nbps =? 0).

(** Bit_packer.hxx:66-87, pointer version, distinct buffers. *)
Definition pack_ptr (w : nat) (vin vout : list Z) (n_bits n_frames : nat) (msb : bool)
    (nbps : nat) : outcome (list Z) :=
  _ <- guard (nbps_ok w nbps) ;;
  let ns := n_symbs_per_frame n_bits nbps in
  for_ n_frames (fun f vout =>
    _pack (fun _ k => rd vin (f * n_bits + k)) (fun o i s => wr o (f * ns + i) s)
          w n_bits msb nbps vout) vout.

(** Bit_packer.hxx:184-205, pointer version, distinct buffers. *)
Definition unpack_ptr (w : nat) (vin vout : list Z) (n_bits n_frames : nat) (msb : bool)
    (nbps : nat) : outcome (list Z) :=
  _ <- guard (nbps_ok w nbps) ;;
  let ns := n_symbs_per_frame n_bits nbps in
  for_ n_frames (fun f vout =>
    _unpack (fun i => rd vin (f * ns + i)) (fun o k x => wr o (f * n_bits + k) x)
            w n_bits msb nbps vout) vout.

(** Bit_packer.hxx:15-64 with pack_per_byte = false; [w] is the width of [S]. *)
Definition pack_vec (w : nat) (vin vout : list Z) (n_frames : nat) (msb : bool)
    (nbps : nat) : outcome (list Z) :=
  _ <- guard (negb (n_frames =? 0)) ;;
  _ <- guard (length vin mod n_frames =? 0) ;;
  _ <- guard (negb (length vout * nbps <? length vin)) ;;
  pack_ptr w vin vout (length vin / n_frames) n_frames msb nbps.

(** Bit_packer.hxx:15-64 with pack_per_byte = true: [vout] is given by its bytes,
    [sS] = sizeof(S) divides their number. *)
Definition pack_vec_bytes (sS : nat) (vin vout : list Z) (n_frames : nat) (msb : bool)
    (nbps : nat) : outcome (list Z) :=
  _ <- guard (negb (n_frames =? 0)) ;;
  _ <- guard (length vin mod n_frames =? 0) ;;
  _ <- guard (negb ((length vout / sS) * sS * nbps <? length vin)) ;;
  pack_ptr 8 vin vout (length vin / n_frames) n_frames msb nbps.

(** Bit_packer.hxx:134-182 with unpack_per_byte = false. *)
Definition unpack_vec (w : nat) (vin vout : list Z) (n_frames : nat) (msb : bool)
    (nbps : nat) : outcome (list Z) :=
  _ <- guard (negb (n_frames =? 0)) ;;
  _ <- guard (length vout mod n_frames =? 0) ;;
  _ <- guard (negb (length vin * nbps <? length vout)) ;;
  unpack_ptr w vin vout (length vout / n_frames) n_frames msb nbps.

(** Bit_packer.hxx:134-182 with unpack_per_byte = true: [vin] is given by its
    bytes, [sS] = sizeof(S), [sB] = sizeof(B); line 156 multiplies by sizeof(B). *)
Definition unpack_vec_bytes (sS sB : nat) (vin vout : list Z) (n_frames : nat) (msb : bool)
    (nbps : nat) : outcome (list Z) :=
  _ <- guard (negb (n_frames =? 0)) ;;
  _ <- guard (length vout mod n_frames =? 0) ;;
  _ <- guard (negb ((length vin / sS) * sB * nbps <? length vout)) ;;
  unpack_ptr 8 vin vout (length vout / n_frames) n_frames msb nbps.

(** ** In-place versions: one memory of bytes, seen as elements of [sB] bytes.
    An element is zero iff its bytes are zero; storing 0 or 1 stores a first
    byte 0 or 1 and zero bytes (little endian). *)
Definition get_elt (sB : nat) (m : list Z) (k : nat) : outcome Z :=
  for_ sB (fun i acc =>
    b <- rd m (k * sB + i) ;; Ret (acc + Z.shiftl b (8 * Z.of_nat i))%Z) 0%Z.

Definition put_elt (sB : nat) (m : list Z) (k : nat) (x : Z) : outcome (list Z) :=
  for_ sB (fun i m =>
    wr m (k * sB + i) (Z.land (Z.shiftr x (8 * Z.of_nat i)) 255)) m.

(** Bit_packer.hxx:111-132 *)
Definition pack_inplace (sB : nat) (mem : list Z) (n_bits n_frames : nat) (msb : bool)
    (nbps : nat) : outcome (list Z) :=
  _ <- guard (nbps_ok 8 nbps) ;;
  let ns := n_symbs_per_frame n_bits nbps in
  for_ n_frames (fun f mem =>
    _pack (fun m k => get_elt sB m (f * n_bits + k)) (fun m i s => wr m (f * ns + i) s)
          8 n_bits msb nbps mem) mem.

(** Bit_packer.hxx:229-256 *)
Definition unpack_inplace (sB : nat) (mem : list Z) (n_bits n_frames : nat) (msb : bool)
    (nbps : nat) : outcome (list Z) :=
  _ <- guard (nbps_ok 8 nbps) ;;
  let ns := n_symbs_per_frame n_bits nbps in
  for_ n_frames (fun f mem =>
    (* std::copy(&bytes[f*ns], &bytes[(f+1)*ns], bytes_cpy.begin()) *)
    bytes_cpy <- for_ ns (fun i c => b <- rd mem (f * ns + i) ;; wr c i b) (repeat 0%Z ns) ;;
    _unpack (fun i => rd bytes_cpy (f * ns + i)) (fun m k x => put_elt sB m (f * n_bits + k) x)
            8 n_bits msb nbps mem) mem.

(** Bit_packer.hxx:207-227, 89-109: vector versions of the in-place functions;
    [mem] holds [length mem / sB] elements. *)
Definition unpack_inplace_vec (sB : nat) (mem : list Z) (n_frames : nat) (msb : bool)
    (nbps : nat) : outcome (list Z) :=
  _ <- guard (negb (n_frames =? 0)) ;;
  let size := length mem / sB in
  _ <- guard (size mod n_frames =? 0) ;;
  unpack_inplace sB mem (size / n_frames) n_frames msb nbps.

Definition pack_inplace_vec (sB : nat) (mem : list Z) (n_frames : nat) (msb : bool)
    (nbps : nat) : outcome (list Z) :=
  _ <- guard (negb (n_frames =? 0)) ;;
  let size := length mem / sB in
  _ <- guard (size mod n_frames =? 0) ;;
  pack_inplace sB mem (size / n_frames) n_frames msb nbps.
