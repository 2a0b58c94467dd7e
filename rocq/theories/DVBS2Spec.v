(** The DVB-S2 codes as described by their tables of addresses. *)
From Coq Require Import List Arith Lia Bool ZArith.
From Verif Require Import Base LDPCModel.
Import ListNotations.

(** The table is made of the lines ls, each preceded by its length; each line serves M information bits. *)
Definition dvbs2_layout (d : dvbs2) (ls : list (list nat)) : Prop :=
  dv_enc d = concat (map (fun v => length v :: v) ls) /\ length ls = dv_lines d /\
  dv_N d = dv_K d + dv_NmK d /\ dv_K d = dv_M d * dv_lines d /\ 0 < dv_NmK d.

(** No line has the same address twice. *)
Definition dvbs2_distinct (d : dvbs2) (ls : list (list nat)) : Prop :=
  forall v, In v ls -> NoDup (map (fun x => x mod dv_NmK d) v).

(** Entries of H: information bit v takes part in the checks of the addresses of line v / M, shifted by (v mod M) Q; parity
    bit i takes part in checks i and i + 1. *)
Definition dvbs2_h (d : dvbs2) (ls : list (list nat)) (v c : nat) : bool :=
  if v <? dv_K d then existsb (fun x => (x + v mod dv_M d * dv_Q d) mod dv_NmK d =? c) (nth (v / dv_M d) ls [])
  else (v - dv_K d =? c) || (S (v - dv_K d) =? c).
