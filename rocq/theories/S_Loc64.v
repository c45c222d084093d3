(** Vocabulary for local velocities, projected angles, Bessel derivatives and
    the sampled impulse in double. *)
From Coq Require Import List Arith ZArith Reals.
From Flocq Require Import Core.Core IEEE754.BinarySingleNaN.
From Verif Require Import Num NumFun F64 S_Angles S_Double S_Rot64.
Import ListNotations.
Local Open Scope R_scope.

(** A speed at most [M] in magnitude, zero or not absurdly small. *)
Definition speed_ok (M : R) (x : f64) : Prop :=
  is_finite x = true /\ Rabs (dvalue x) <= M /\ (dvalue x = 0 \/ / 2 ^ 900 <= Rabs (dvalue x)).

(** [t] is a polar angle of the point (x, y) in [-pi, pi] (C distinguishes
    -pi from pi by the sign of a zero ordinate). *)
Definition angle_of (x y t : R) : Prop :=
  - PI <= t <= PI /\ x = sqrt (x * x + y * y) * cos t /\ y = sqrt (x * x + y * y) * sin t.
(** atan2 of the mathematical library is within [kappa] times 2^-53 of such an
    angle (glibc: less than 4). *)
Definition libm_atan2 (kappa : R) (TT : NumTr f64) : Prop := forall y x : f64, is_finite y = true -> is_finite x = true ->
  exists t, angle_of (dvalue x) (dvalue y) t /\ within (kappa * uround) (natan2 y x) t.

(** The double function [F] is within [e] of the real function [G] at the
    integer order [n] and argument [x]. *)
Definition near_at (e : R) (F : f64 -> f64 -> f64) (G : R -> R -> R) (n : Z) (x : f64) : Prop :=
  forall o : f64, is_finite o = true -> dvalue o = IZR n -> within e (F o x) (G (IZR n) (dvalue x)).
(** Error of the derivative: [A] and [B] are the values of order n - 1 and n,
    [ea] and [eb] their errors, [q] is n/x. *)
Definition bessel_err (ea eb q A B : R) : R :=
  let d := ea + Rabs q * eb in d + 6 * uround * (Rabs A + Rabs q * Rabs B + d) + 3 * uflow.
(** The order used besides n: n - 1, or 1 for the order 0. *)
Definition lower (n : Z) : Z := if (n =? 0)%Z then 1%Z else (n - 1)%Z.
(** [F] is within [ea] and [eb] of [G] at the two orders used, without overflow. *)
Definition bessel_known (ea eb : R) (F : f64 -> f64 -> f64) (G : R -> R -> R) (n : Z) (x : f64) : Prop :=
  near_at ea F G (lower n) x /\ near_at eb F G n x /\ 0 <= ea /\ 0 <= eb /\
  ea + Rabs (G (IZR (lower n)) (dvalue x)) <= bpow radix2 900 /\
  Rabs (IZR n / dvalue x) * (eb + Rabs (G (IZR n) (dvalue x))) <= bpow radix2 900.
(** [r] is the derivative of [G n] at [x] up to that error. *)
Definition bessel_close (ea eb : R) (G : R -> R -> R) (n : Z) (x r : f64) : Prop := forall D,
  derivable_pt_lim (G (IZR n)) (dvalue x) D ->
  within (bessel_err ea eb (IZR n / dvalue x) (G (IZR (lower n)) (dvalue x)) (G (IZR n) (dvalue x))) r D.
(** What is required of the order and of the argument. *)
Definition bessel_range (n : Z) (order x : f64) : Prop :=
  is_finite order = true /\ dvalue order = IZR n /\ (Z.abs n <= 2 ^ 50)%Z /\
  is_finite x = true /\ / 2 ^ 100 <= Rabs (dvalue x) <= 2 ^ 100.

(** A finite sample far from overflow. *)
Definition sample_ok (x : f64) : Prop := is_finite x = true /\ Rabs (dvalue x) <= 2 ^ 1000.
(** All samples zero but the k-th. *)
Definition impulse64 (n k : nat) (height : f64) : list f64 := map (fun i => if (i =? k)%nat then height else f64_ofZ 0) (seq 0 n).

(** A library with a correctly rounded atan2, used in the examples only. *)
Definition exact_atan2 : NumTr f64 := {| nsqrt x := x; nsin x := x; ncos x := x; nasin x := x;
  natan2 y x := ofR (Ratan2 (dvalue y) (dvalue x)); npow b x := b; nexp x := x; nlog x := x |}.
