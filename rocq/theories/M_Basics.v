(** Model of src/MathUtils/Constants.h, Unit.h, Angles.h, VectorGeneration.h,
    StdVector.h, Functions.h, Check.h and Maths.h.

    Scalars are assumed to be of one floating-point type (the constants are
    doubles, so with Real = float the C++ code computes partly in double; that
    instantiation is not modelled). *)
From Coq Require Import List Arith ZArith Bool.
From Coq Require String.
Import String.StringSyntax.
Local Open Scope string_scope.
Local Open Scope nat_scope.
Local Open Scope list_scope.
From Verif Require Import Outcome Num NumFun F64.
Import ListNotations.

Section Constants.
Context {T : Type} `{NT : Num T}.

(** Constants.h:25-35. *)
Definition mu_one_hour : T := (nofZ 60 * nofZ 60)%num.
Definition mu_knot : T := (nofZ 1852 / mu_one_hour)%num.
Definition mu_kmh : T := (nofZ 1000 / mu_one_hour)%num.
(** Constants.h:38-45. *)
Definition mu_pi_180 : T := (npi / nofZ 180)%num.
Definition mu_180_pi : T := (nofZ 180 / npi)%num.
Definition mu_2pi : T := (nofZ 2 * npi)%num.
(** Constants.h:52. *)
Definition mu_rpm2rads : T := (mu_2pi / nofZ 60)%num.
End Constants.

(** ** Unit.h *)

(** Unit.h:26-29. *)
Inductive angle_unit := DEG | RAD.
(** Unit.h:83-87. *)
Inductive speed_unit := MS | KNOT | KMH.
(** Unit.h:179-186. *)
Inductive frequency_unit := HERTZ | RADS | DEGS | DEGM | PERIOD_S | RPM.

Section Units.
Context {T : Type} `{NT : Num T}.

(** Unit.h:31-42, [deg2rad] (both overloads: the resulting vector); 44-48,
    [rad2deg] in place.  (The copying [rad2deg], 50-56, does not compile when
    instantiated and is not modelled.) *)
Definition deg2rad (v : list T) : list T := map (fun x => nmul x mu_pi_180) v.
Definition rad2deg (v : list T) : list T := map (fun x => nmul x mu_180_pi) v.

(** Unit.h:90-124. *)
Definition knot2ms (v : T) : T := (v * mu_knot)%num.
Definition ms2knot (v : T) : T := (v / mu_knot)%num.
Definition kmh2ms (v : T) : T := (v * mu_kmh)%num.
Definition ms2kmh (v : T) : T := (v / mu_kmh)%num.
Definition kmh2knot (v : T) : T := ms2knot (kmh2ms v).
Definition knot2kmh (v : T) : T := ms2kmh (knot2ms v).

(** Unit.h:126-137, [kt2ms]. *)
Definition kt2ms (v : list T) : list T := map (fun x => nmul x mu_knot) v.

(** Unit.h:139-172, [convert_velocity_unit]. *)
Definition convert_velocity_unit (velocity : T) (current new : speed_unit) : T :=
  let new_vel := match current with
                 | MS => velocity | KMH => kmh2ms velocity | KNOT => knot2ms velocity end in
  match new with
  | MS => new_vel | KMH => ms2kmh new_vel | KNOT => ms2knot new_vel end.

(** Unit.h:188-247. *)
Definition degs2rads (x : T) : T := (x * mu_pi_180)%num.
Definition rads2degs (x : T) : T := (x * mu_180_pi)%num.
Definition hz2rads (x : T) : T := (mu_2pi * x)%num.
Definition rads2hz (x : T) : T := (x / mu_2pi)%num.
Definition hz2s (x : T) : T := (nofZ 1 / x)%num.
Definition s2hz (x : T) : T := (nofZ 1 / x)%num.
Definition rads2s (x : T) : T := (mu_2pi / x)%num.
Definition s2rads (x : T) : T := (mu_2pi / x)%num.
Definition rpm2rads (x : T) : T := (x * mu_rpm2rads)%num.
Definition rads2rpm (x : T) : T := (x / mu_rpm2rads)%num.
Definition degm2rads (x : T) : T := (x * mu_pi_180 / nofZ 60)%num.
Definition rads2degm (x : T) : T := (x * mu_180_pi * nofZ 60)%num.

Definition frequency_unit_eqb (u v : frequency_unit) : bool :=
  match u, v with
  | HERTZ, HERTZ | RADS, RADS | DEGS, DEGS | DEGM, DEGM | PERIOD_S, PERIOD_S | RPM, RPM => true
  | _, _ => false
  end.

(** Unit.h:250-300, [convert_frequency]. *)
Definition convert_frequency (x : T) (src target : frequency_unit) : T :=
  if frequency_unit_eqb src target then x
  else
    let piv := match src with
      | HERTZ => x
      | RADS => rads2hz x
      | PERIOD_S => s2hz x
      | DEGS => rads2hz (degs2rads x)
      | DEGM => rads2hz (degm2rads x)
      | RPM => rads2hz (rpm2rads x)
      end in
    match target with
    | RADS => hz2rads piv
    | PERIOD_S => hz2s piv
    | HERTZ => piv
    | DEGS => rads2degs (hz2rads piv)
    | DEGM => rads2degm (hz2rads piv)
    | RPM => rads2rpm (hz2rads piv)
    end.
End Units.

(** ** Angles.h *)
Section Angles.
Context {T : Type} `{NT : Num T} `{FT : NumFm T}.

(** Angles.h:28-38. *)
Definition modulo2pi (a : T) : T := nfmod a mu_2pi.
Definition modulo360 (a : T) : T := nfmod a (nofZ 360).

(** Angles.h:40-48. *)
Definition Normalize_0_360 (a : T) : T :=
  let angle := modulo360 a in
  if nlt angle (nofZ 0) then (angle + nofZ 360)%num else angle.

(** Angles.h:50-58. *)
Definition Normalize__180_180 (a : T) : T :=
  let angle := modulo360 (a + nofZ 180)%num in
  let angle := if nle angle (nofZ 0) then (angle + nofZ 360)%num else angle in
  (angle - nofZ 180)%num.

(** Angles.h:60-68. *)
Definition Normalize_0_2PI (a : T) : T :=
  let angle := modulo2pi a in
  if nlt angle (nofZ 0) then (angle + mu_2pi)%num else angle.

(** Angles.h:70-78. *)
Definition Normalize__PI_PI (a : T) : T :=
  let angle := modulo2pi (a + npi)%num in
  let angle := if nle angle (nofZ 0) then (angle + mu_2pi)%num else angle in
  (angle - npi)%num.
End Angles.

(** Angles.h:80-92, [STRING2ANGLE]. *)
Definition string2angle (s : String.string) : outcome angle_unit :=
  if String.eqb s "DEG" then Ok DEG
  else if String.eqb s "RAD" then Ok RAD
  else Exit 1.

Section Trigo.
Context {T : Type} `{NT : Num T} `{TT : NumTr T}.

(** Angles.h:17-26, [_GetTrigo]: (cosine, sine). *)
Definition get_trigo (pangle : T) (unit : angle_unit) : T * T :=
  let angle := match unit with DEG => (pangle * mu_pi_180)%num | RAD => pangle end in
  (ncos angle, nsin angle).
End Trigo.

(** ** VectorGeneration.h *)
Section Generation.
Context {T : Type} `{NT : Num T}.

(** VectorGeneration.h:15-30, [linspace]; [num] is an [unsigned int] (assumed
    below 2^32).  With num = 0 in a release build, num-1 wraps around and the
    loop writes into an empty vector. *)
Definition linspace (bm : build) (start stop : T) (num : nat) : outcome (list T) :=
  let* _ := cassert bm (1 <? num) in
  let* _ := cassert bm (nle start stop) in
  if num =? 0 then UB
  else
    let numm1 := num - 1 in
    let step := ((stop - start) / nofZ (Z.of_nat numm1))%num in
    Ok (map (fun i => (start + nofZ (Z.of_nat i) * step)%num) (seq 0 numm1) ++ [stop]).

(** VectorGeneration.h:32-42, [logspace]. *)
Definition logspace `{TT : NumTr T} (bm : build) (start stop : T) (num : nat) (base : T)
  : outcome (list T) :=
  let* _ := cassert bm (1 <? num) in
  let* _ := cassert bm (nle start stop) in
  let* out := linspace bm start stop num in
  Ok (map (fun x => npow base x) out).

(** VectorGeneration.h:44-53, [arange].  Converting an out of range value to
    [unsigned int] is undefined behaviour. *)
Definition arange `{FT : NumFm T} (bm : build) (start stop step : T) : outcome (list T) :=
  let* _ := cassert bm (nlt start stop) in
  let* _ := cassert bm (nlt (nofZ 0) step) in
  let num := nfloor ((stop - start) / step)%num in
  let final_stop := (num * step)%num in
  match ntoZ num with
  | Some n =>
      if ((0 <=? n) && (n <? 4294967296))%Z then linspace bm start final_stop (Z.to_nat n) else UB
  | None => UB
  end.
End Generation.

(** ** StdVector.h *)
Section StdVector.
Context {T : Type} `{NT : Num T}.

(** The element loop of the binary operations, both operands indexed with the
    unchecked [operator[]]. *)
Definition zip_loop (f : T -> T -> T) (v1 v2 : list T) : outcome (list T) :=
  mapM (fun i => let* a := vidx v1 i in let* b := vidx v2 i in Ok (f a b)) (seq 0 (length v1)).

Definition zip_checked (f : T -> T -> T) (bm : build) (v1 v2 : list T) : outcome (list T) :=
  let* _ := cassert bm (length v2 =? length v1) in zip_loop f v1 v2.

(** StdVector.h:12-22, 46-56, 58-68, 70-80. *)
Definition vec_add := zip_checked nadd.
Definition vec_minus := zip_checked nsub.
Definition vec_mult := zip_checked nmul.
Definition vec_divide := zip_checked ndiv.

(** StdVector.h:24-33. *)
Definition vec_add_scalar (v : list T) (c : T) : list T := map (fun x => nadd x c) v.
(** StdVector.h:35-44. *)
Definition vec_sum (v : list T) : T := fold_left nadd v (nofZ 0).
(** StdVector.h:82-87: the vector after the call. *)
Definition vec_scale (v : list T) (alpha : T) : list T := map (fun x => nmul x alpha) v.
(** StdVector.h:89-94. *)
Definition vec_pow `{TT : NumTr T} (v : list T) (p : T) : list T := map (fun x => npow x p) v.
(** StdVector.h:96-99. *)
Definition vec_negate (v : list T) : list T := vec_scale v (nneg (nofZ 1)).
End StdVector.

(** ** Functions.h *)
Section Functions.
Context {T : Type} `{NT : Num T}.

(** Functions.h:13-25, [Sinc(vector)]; 27-31, [Sinc(xmin, xmax, n)]. *)
Definition Sinc `{TT : NumTr T} (x : list T) : list T :=
  map (fun v => if neq v (nofZ 0) then nofZ 1 else (nsin v / v)%num) x.
Definition Sinc_range `{TT : NumTr T} (bm : build) (xmin xmax : T) (n : nat) : outcome (list T) :=
  let* x := linspace bm xmin xmax n in Ok (Sinc x).

(** Functions.h:33-50. *)
Definition Heaviside (x : list T) (x_step : T) : list T :=
  map (fun v => if nlt v x_step then nofZ 0 else if nlt x_step v then nofZ 1 else nlit 1 2) x.

(** Functions.h:52-58. *)
Definition Door (bm : build) (x : list T) (x_min x_max height : T) : outcome (list T) :=
  let out := Heaviside x x_min in
  let* out := vec_minus bm out (Heaviside x x_max) in
  Ok (vec_scale out height).

(** Functions.h:77-104.  The second assertion reads x[0] and x[n-1]. *)
Definition Ramp (bm : build) (x : list T) (x_min x_max y_left y_right : T) : outcome (list T) :=
  let* _ := cassert bm (nle x_min x_max) in
  let* _ := match bm with
            | Debug =>
                let* x0 := vidx x 0 in
                if nle x0 x_min then
                  let* xn := vidx x (length x - 1) in cassert Debug (nle x_max xn)
                else Abort
            | Release => Ok tt
            end in
  let a := ((y_right - y_left) / (x_max - x_min))%num in
  let b := (y_left - a * x_min)%num in
  Ok (map (fun xi => if nle xi x_min then y_left
                     else if nle xi x_max then (a * xi + b)%num
                     else y_right) x).
End Functions.

(** ** Check.h *)
Section Check.
Context {T : Type} `{NT : Num T} `{FT : NumFm T}.

(** Check.h:13-16. *)
Definition IsClose (a b rtol atol : T) : bool :=
  nle (nfabs (a - b)%num) (atol + rtol * nfabs b)%num.

(** Check.h:18-27: the loop stops at the first pair that is not close. *)
Fixpoint is_close_loop (a b : list T) (rtol atol : T) : outcome bool :=
  match a, b with
  | [], _ => Ok true
  | _ :: _, [] => UB
  | x :: a', y :: b' => if IsClose x y rtol atol then is_close_loop a' b' rtol atol else Ok false
  end.
Definition IsClose_vec (bm : build) (a b : list T) (rtol atol : T) : outcome bool :=
  let* _ := cassert bm (length a =? length b) in is_close_loop a b rtol atol.

(** Check.h:39-47. *)
Definition AssertIsClose (bm : build) (a b rtol atol : T) : outcome unit :=
  cassert bm (IsClose a b rtol atol).
Definition AssertIsClose_vec (bm : build) (a b : list T) (rtol atol : T) : outcome unit :=
  match bm with
  | Debug => let* c := IsClose_vec Debug a b rtol atol in cassert Debug c
  | Release => Ok tt
  end.
End Check.

(** Check.h:29-37 for integer types; C++ [%] truncates towards zero. *)
Definition is_odd (v : Z) : bool := negb (Z.rem v 2 =? 0)%Z.
Definition is_even (v : Z) : bool := negb (is_odd v).

(** ** Maths.h *)
Section Maths.
Context {T : Type} `{NT : Num T}.

(** Maths.h:10-13. *)
Definition sgn (v : T) : Z := (Z.b2z (nlt (nofZ 0) v) - Z.b2z (nlt v (nofZ 0)))%Z.

(** Maths.h:15-20 for a floating-point Scalar (double). *)
Definition Saturate (v vmin vmax : T) : T :=
  let valout := if nlt vmax v then vmax else v in
  if nlt valout vmin then vmin else valout.

(** Maths.h:22-25. *)
Definition SgnSqrt `{FT : NumFm T} `{TT : NumTr T} (v : T) : T :=
  (nofZ (sgn v) * nsqrt (nfabs v))%num.
End Maths.

(** Maths.h:15-20 for an integer Scalar of values [lo_T .. hi_T]: the value
    goes through a double.  The final conversion is undefined when the
    truncated value does not fit. *)
Definition Saturate_int (lo_T hi_T : Z) (v vmin vmax : Z) : outcome Z :=
  let valout := f64_ofZ (if (vmax <? v)%Z then vmax else v) in
  let valout := if nlt valout (f64_ofZ vmin) then f64_ofZ vmin else valout in
  match f64_toZ valout with
  | Some z => if ((lo_T <=? z) && (z <=? hi_T))%Z then Ok z else UB
  | None => UB
  end.
