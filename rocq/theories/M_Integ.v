(** Model of Integration1d.h, Convolution.h and of the own code of FFT.h
    (frequency vector, spectrum flags, Pow2). *)
From Coq Require Import List Arith ZArith Bool.
From Verif Require Import Outcome Num M_Basics.
Import ListNotations.

Section Integ.
Context {T : Type} `{NT : Num T}.

(** [y[N - k]] with an unsigned subtraction: an index of 2^64 - 1 or so when
    k > N, always out of bounds. *)
Definition vidx_sub {A} (l : list A) (n k : nat) : outcome A :=
  if k <=? n then vidx l (n - k) else UB.

(** Integration1d.h:151-164, [Trapz(y, dx)].  For an empty vector N-1 wraps
    around and the loop starts by reading y[1]. *)
Definition trapz_uniform (y : list T) (dx : T) : outcome T :=
  let n := length y in
  if n =? 0 then UB
  else
    let* sum := foldM (fun sum i => let* yi := vidx y i in Ok (sum + yi)%num) (nofZ 0) (seq 1 (n - 2)) in
    let* y0 := vidx y 0 in
    let* yn := vidx_sub y n 1 in
    Ok (dx * (sum + nlit 1 2 * (y0 + yn)))%num.

(** Integration1d.h:182-186: the loop body; the state is [sum] and [dxii]. *)
Definition trapz_step (x y : list T) (st : T * T) (i : nat) : outcome (T * T) :=
  let '(sum, dxi) := st in
  let* xs := vidx x (i + 1) in
  let* xi := vidx x i in
  let dxii := (xs - xi)%num in
  let* yi := vidx y i in
  Ok (sum + yi * (dxi + dxii), dxii)%num.
(** Integration1d.h:166-191, [Trapz(x, y)]. *)
Definition trapz_xy (bm : build) (x y : list T) : outcome T :=
  let n := length y in
  let* _ := cassert bm (1 <? n) in
  let* _ := cassert bm (length x =? n) in
  let* x1 := vidx x 1 in
  let* x0 := vidx x 0 in
  let dx1 := (x1 - x0)%num in
  let* xn1 := vidx_sub x n 1 in
  let* xn2 := vidx_sub x n 2 in
  let dxN_1 := (xn1 - xn2)%num in
  let* st := foldM (trapz_step x y) (nofZ 0, dx1) (seq 1 (n - 2)) in
  let* y0 := vidx y 0 in
  let* yn := vidx_sub y n 1 in
  Ok (nlit 1 2 * (fst st + y0 * dx1 + yn * dxN_1))%num.

(** *** Integration1d.h:18-142, class Integrate1d *)
Inductive integration_method := TRAPEZOIDAL | NEWTON_COTES.
(** The data source: a vector given by the user or a function pointer. *)
Inductive integration_data := VECTOR | FUNCTION (f : T -> T).
Record integ1 := mkI1 {
  i_xmin : T; i_xmax : T; i_nb : nat; i_y : list T; i_src : integration_data;
  i_method : integration_method; i_computed : bool; i_result : T }.

(** Integration1d.h:43-51 and 53-62. *)
Definition integ1_function (f : T -> T) (xmin xmax : T) (nb : nat) : integ1 :=
  mkI1 xmin xmax nb [] (FUNCTION f) TRAPEZOIDAL false (nofZ 0).
Definition integ1_vector (y : list T) (xmin xmax : T) (nb : nat) : integ1 :=
  mkI1 xmin xmax nb y VECTOR TRAPEZOIDAL false (nofZ 0).

(** Integration1d.h:64, 68-71, 75-78. *)
Definition set_method (m : integration_method) (s : integ1) : integ1 :=
  mkI1 (i_xmin s) (i_xmax s) (i_nb s) (i_y s) (i_src s) m (i_computed s) (i_result s).
Definition set_xmin (x : T) (s : integ1) : integ1 :=
  mkI1 x (i_xmax s) (i_nb s) (i_y s) (i_src s) (i_method s) false (i_result s).
Definition set_xmax (x : T) (s : integ1) : integ1 :=
  mkI1 (i_xmin s) x (i_nb s) (i_y s) (i_src s) (i_method s) false (i_result s).

(** The sampling loop of Integration1d.h:121-124. *)
Fixpoint sample (f : T -> T) (x dx : T) (k : nat) : list T :=
  match k with 0 => [] | S k' => f x :: sample f (x + dx)%num dx k' end.

(** Integration1d.h:110-136.  m_NbPoints is an unsigned int: for 0 points
    [m_NbPoints-1] is 2^32 - 1. *)
Definition nb_minus_1 (nb : nat) : Z := ((Z.of_nat nb - 1) mod 2 ^ 32)%Z.
Definition compute_trapz (s : integ1) : integ1 * outcome unit :=
  let dx := ((i_xmax s - i_xmin s) / nofZ (nb_minus_1 (i_nb s)))%num in
  let y := match i_src s with VECTOR => i_y s | FUNCTION f => sample f (i_xmin s) dx (i_nb s) end in
  let s := mkI1 (i_xmin s) (i_xmax s) (i_nb s) y (i_src s) (i_method s) (i_computed s) (i_result s) in
  let r :=
    let* sum := foldM (fun sum i => let* yi := vidx y i in Ok (sum + yi)%num) (nofZ 0)
                  (seq 1 (Z.to_nat (nb_minus_1 (i_nb s)) - 1)) in
    let* y0 := vidx y 0 in
    let* yn := vidx_sub y (length y) 1 in
    Ok ((y0 + yn + nofZ 2 * sum) * (nlit 1 2 * dx))%num in
  match r with
  | Ok v => (mkI1 (i_xmin s) (i_xmax s) (i_nb s) y (i_src s) (i_method s) (i_computed s) v, Ok tt)
  | Throw e => (s, Throw e) | Exit c => (s, Exit c) | Abort => (s, Abort) | UB => (s, UB)
  end.

(** Integration1d.h:92-105 ([Compute]), 138-142 and 84-89 ([Get]). *)
Definition integ1_get (s : integ1) : integ1 * outcome T :=
  if i_computed s then (s, Ok (i_result s))
  else
    let '(s, r) := match i_method s with
                   | TRAPEZOIDAL => compute_trapz s
                   | NEWTON_COTES => (s, Throw RuntimeError)
                   end in
    match r with
    | Ok _ => (mkI1 (i_xmin s) (i_xmax s) (i_nb s) (i_y s) (i_src s) (i_method s) true (i_result s), Ok (i_result s))
    | Throw e => (s, Throw e) | Exit c => (s, Exit c) | Abort => (s, Abort) | UB => (s, UB)
    end.

(** *** Convolution.h:40-75, [NaiveConvolution].  The circular buffer is the
    list of its elements in order; the copy into [sv] (59-62) has no effect. *)
Definition naive_convolution (bm : build) (kernel signal : list T) (dt : T) (reverse : bool) : outcome T :=
  let n := length kernel in
  let* _ := cassert bm (n <=? length signal) in
  let* integrand := mapM (fun i =>
      let* k := vidx kernel i in
      let* s := if reverse then vidx signal i else vidx signal (n - i - 1) in
      Ok (k * s)%num) (seq 0 n) in
  trapz_uniform integrand dt.

(** *** FFT.h:38-44, 58-78: the half-spectrum flag and [GetFrequencyVector]. *)
Fixpoint freq_loop (f df : T) (u : frequency_unit) (k : nat) : list T :=
  match k with
  | 0 => []
  | S k' => convert_frequency f HERTZ u :: freq_loop (f + df)%num df u k'
  end.
Definition frequency_vector (half : bool) (nfft : nat) (fs : T) (u : frequency_unit) : list T :=
  let df := (fs / nofZ (Z.of_nat nfft))%num in
  let n := if half then nfft / 2 + 1 else nfft in
  freq_loop (nofZ 0) df u n.
End Integ.
Arguments integration_data : clear implicits. Arguments integ1 : clear implicits.

(** FFT.h:117-119, [Pow2]: [1 << p] on a 32-bit int; shifts by 32 or more are
    undefined, [1 << 31] converts to 2^31. *)
Definition pow2 (p : nat) : outcome Z := if p <? 32 then Ok (2 ^ Z.of_nat p)%Z else UB.
