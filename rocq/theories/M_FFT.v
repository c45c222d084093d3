(** Model of the transform methods of src/MathUtils/FFT.h.

    The class inherits from Eigen::FFT (unsupported module, not in /repo); the
    vector level of that class (sizes, reflected half of the spectrum, scaling,
    flags) is modelled from its published source, and the transform engine
    under it (kissfft by default) is the pair of functions [kfwd], [kinv]:
    [kfwd v k] is the k-th of the length(v)/2 + 1 bins written by the forward
    transform of a real signal, [kinv n X j] the j-th of the n real samples
    written by the unscaled inverse transform, which reads the bins X[0..n/2].
    S_FFT.v states what is assumed of them.  std::complex is a pair
    (real, imag).  Sizes are assumed to fit an int. *)
From Coq Require Import List Arith ZArith Bool.
From Verif Require Import Outcome Num M_Basics M_Integ.
Import ListNotations.

(** Flags of Eigen::FFT: Default = 0, Unscaled = 1, HalfSpectrum = 2; the
    state of an FFT object is its flag word. *)
Definition flag_unscaled : Z := 1.
Definition flag_half : Z := 2.
Definition has_flag (fl f : Z) : bool := Z.eqb (Z.land fl f) f.
Definition set_flag (fl f : Z) : Z := Z.lor fl f.
Definition clear_flag (fl f : Z) : Z := Z.land fl (Z.lnot f).

(** FFT.h:38-41, 43-46, 48-51, 53-56. *)
Inductive fft_op := HalfSpectrumON | HalfSpectrumOFF | ScalingON | ScalingOFF.
Definition fft_step (fl : Z) (o : fft_op) : Z :=
  match o with
  | HalfSpectrumON => set_flag fl flag_half
  | HalfSpectrumOFF => clear_flag fl flag_half
  | ScalingON => clear_flag fl flag_unscaled
  | ScalingOFF => set_flag fl flag_unscaled
  end.
(** A default-constructed object (flag word 0) after a sequence of calls. *)
Definition fft_run (ops : list fft_op) : Z := fold_left fft_step ops 0%Z.

Section FFT.
Context {T : Type} `{NT : Num T}.
Variables (kfwd : list T -> nat -> T * T) (kinv : nat -> list (T * T) -> nat -> T).

Definition cconj (z : T * T) : T * T := (fst z, nneg (snd z)).

(** FFT.h:22-25, [fft]; Eigen's fwd(vector, vector): [&src[0]] of an empty
    vector is undefined, and unless HalfSpectrum is set the bins k > n/2 are
    the conjugates of the bins n - k. *)
Definition fft (fl : Z) (v : list T) : outcome (list (T * T)) :=
  let n := length v in
  if n =? 0 then UB
  else let bins := map (kfwd v) (seq 0 (n / 2 + 1)) in
       if has_flag fl flag_half then Ok bins
       else let* rest := mapM (fun k => let* z := vidx bins (n - k) in Ok (cconj z)) (seq (n / 2 + 1) (n - (n / 2 + 1))) in
            Ok (bins ++ rest).

(** FFT.h:27-33, the overload that also returns the frequencies. *)
Definition fft_frequencies (fl : Z) (v : list T) (fs : T) (u : frequency_unit) : outcome (list (T * T) * list T) :=
  let* X := fft fl v in
  Ok (X, frequency_vector (has_flag fl flag_half) (length v) fs u).

(** FFT.h:35-37, [ifft]; Eigen's inv(vector, vector): the number of samples is
    2 (size - 1) with HalfSpectrum (for an empty vector the unsigned
    subtraction wraps and resize throws), size otherwise; no samples: undefined
    [&dst[0]]; scaling multiplies by the scalar 1./n. *)
Definition ifft (fl : Z) (X : list (T * T)) : outcome (list T) :=
  let sz := length X in
  if has_flag fl flag_half && (sz =? 0) then Throw LengthError
  else let n := if has_flag fl flag_half then 2 * (sz - 1) else sz in
       if n =? 0 then UB
       else let out := map (kinv n X) (seq 0 n) in
            if has_flag fl flag_unscaled then Ok out
            else let s := (nofZ 1 / nofZ (Z.of_nat n))%num in Ok (map (fun x => (x * s)%num) out).
End FFT.
