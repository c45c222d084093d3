(** Specification vocabulary: operations on sampled signals and spectra. *)
From Coq Require Import List Arith Reals.
From Verif Require Import S_Series.
Import ListNotations.
Open Scope R_scope.

(** Product of complex numbers (real, imaginary), and of two spectra bin by bin. *)
Definition times (z w : R * R) : R * R := (fst z * fst w - snd z * snd w, fst z * snd w + snd z * fst w).
Definition products (X Y : list (R * R)) : list (R * R) := map (fun p => times (fst p) (snd p)) (combine X Y).

(** a z + b w. *)
Definition mixed (a b : R) (z w : R * R) : R * R := (a * fst z + b * fst w, a * snd z + b * snd w).

(** exp(- i t). *)
Definition turn (t : R) : R * R := (cos t, - sin t).

(** The signal d samples later, what leaves at the end coming back at the beginning. *)
Definition later (d : nat) (v : list R) : list R :=
  skipn (length v - d) v ++ firstn (length v - d) v.

(** Cyclic convolution of two signals of the same length. *)
Definition cyclic (v w : list R) : list R :=
  map (fun m => bsum (length v) (fun j => nth j v 0 * nth m (later j w) 0)) (seq 0 (length v)).

(** Term m of the convolution of two finite sequences. *)
Definition conv_term (v w : list R) (m : nat) : R := bsum (m + 1) (fun j => nth j v 0 * nth (m - j) w 0).

(** A signal followed by zeros up to N samples. *)
Definition padded (N : nat) (v : list R) : list R := v ++ repeat 0 (N - length v).
