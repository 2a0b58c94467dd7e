(** The choice of the frozen bits of a polar code: src/Tools/Code/Polar/Frozenbits_generator/ and src/Tools/Code/Polar/fb_assert.cpp. *)
From Coq Require Import List Arith Lia Bool ZArith.
From Verif Require Import Base.
Import ListNotations.

(** generate (Frozenbits_generator.cpp 60-104), the order of the channels being the result of evaluate(), called after the check of the size;
    the dump of the channels in a file is left out. The indices are those of a vector of uint32_t *)
Definition generate (evaluate : outcome (list nat)) (K N : nat) (frozen_bits : list bool) : outcome (list nat * list bool) :=
  _ <- guard (length frozen_bits =? N) ;;
  best <- evaluate ;;
  fb <- for_ K (fun i fb => c <- rd best i ;; wr fb c false) (repeat true N) ;;
  Ret (best, fb).
(** fb_assert.cpp 6-29 *)
Definition fb_assert (frozen_bits : list bool) (K N : nat) : outcome unit :=
  _ <- guard (length frozen_bits =? N) ;;
  guard (K =? length (filter negb frozen_bits)).

(** ** Orders read in a file (Frozenbits_generator_file.cpp 35-74) *)
(** A file: its first word as a number (None: stoi throws), and the words after the third one (None: not a number) *)
Record channels_file := mkFile { f_N : option Z; f_channels : list (option nat) }.
(** in_code >> best_channels[i]: a word that is not a number writes 0, and nothing more is read; at the end of the file the value is kept *)
Fixpoint read_channels (i cnt : nat) (words : list (option nat)) (best : list nat) : list nat :=
  match cnt, words with
  | O, _ | _, [] => best
  | S cnt, Some c :: words => read_channels (S i) cnt words (upd best i c)
  | S _, None :: _ => upd best i 0
  end.
Definition load_channels_file (file : option channels_file) (best : list nat) : outcome (option (list nat)) :=
  match file with
  | None => Ret None
  | Some f =>
    match f_N f with
    | None => Throws
    | Some n => _ <- guard (n =? Z.of_nat (length best))%Z ;; Ret (Some (read_channels 0 (length best) (f_channels f) best))
    end
  end.
(** evaluate (Frozenbits_generator_file.cpp 28-33), from the order of the last call *)
Definition evaluate_file (file : option channels_file) (best : list nat) : outcome (list nat) :=
  b <- load_channels_file file best ;; match b with Some b => Ret b | None => Throws end.
(** Frozenbits_generator_5G.cpp 37-53 *)
Definition N_max : nat := 1024.
Definition evaluate_5G (file : option channels_file) (N : nat) (best : list nat) : outcome (list nat) :=
  b <- load_channels_file file (repeat 0 N_max) ;;
  match b with
  | None => Throws
  | Some mother =>
    ' (j, best) <- for_ (length mother) (fun i st => let '(j, best) := st in
      c <- rd mother i ;; if c <? N then best <- wr best j c ;; Ret (S j, best) else Ret (j, best)) (0, best) ;;
    _ <- guard (j =? N) ;; Ret best
  end.

(** ** Orders computed from the noise (BEC, GA, GA_Arikan): iota, then std::sort on a value per channel *)
Section Sorted.
Context {R : Type}.
(** z[i1] < z[i2] for the BEC, z[i1] > z[i2] for the Gaussian approximations *)
Variable better : R -> R -> bool.
(** std::sort *)
Variable sort : (nat -> nat -> bool) -> list nat -> list nat.
Variable d : R.
(** Undef: a channel without value (z has 2^log2(N) elements) *)
Definition sort_channels (z : list R) (N : nat) : outcome (list nat) :=
  if length z <? N then Undef else Ret (sort (fun i1 i2 => better (nth i1 z d) (nth i2 z d)) (seq 0 N)).
(** The values (Frozenbits_generator_BEC.cpp 40-53, Frozenbits_generator_GA_Arikan.cpp 38-55): [minus] and [plus] are the two functions applied to z[j * 2 * stride].
    N is a power of two here: stride is N / 2^l. *)
Variables minus plus : R -> R.
Definition polarize (m : nat) (z : list R) : outcome (list R) :=
  for_ m (fun l z => let stride := 2 ^ (m - 1 - l) in
    for_ (2 ^ l) (fun j z =>
      t <- rd z (j * 2 * stride) ;; z <- wr z (j * 2 * stride) (minus t) ;; wr z (j * 2 * stride + stride) (plus t)) z) z.
(** Frozenbits_generator_BEC.cpp 34-56: only z[0] is given a value before the loops *)
Definition evaluate_BEC (N : nat) (noise : R) (z : list R) : outcome (list R * list nat) :=
  z <- wr z 0 noise ;; z <- polarize (Nat.log2 N) z ;; best <- sort_channels z N ;; Ret (z, best).
(** Frozenbits_generator_GA_Arikan.cpp 32-59 *)
Definition evaluate_GA (N : nat) (noise : R) (z : list R) : outcome (list R * list nat) :=
  z <- for_ (2 ^ Nat.log2 N) (fun i z => wr z i noise) z ;; z <- polarize (Nat.log2 N) z ;; best <- sort_channels z N ;; Ret (z, best).
End Sorted.
