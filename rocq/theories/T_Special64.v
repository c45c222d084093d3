(** Property C110: comparisons, saturation, step and ramp in IEEE double,
    including NaN and infinities. *)
From Coq Require Import List Arith ZArith Reals Bool Lia Lra.
From Flocq Require Import IEEE754.BinarySingleNaN.
From Verif Require Import Outcome Num NumFun F64 M_Basics S_Angles S_Double S_Special64 L_F64 L_Special64.
Import ListNotations.
Local Open Scope R_scope.

(** IsClose decides the documented inequality up to four roundings. *)
Theorem C110_isclose_double : forall a b rtol atol : f64,
  is_finite a = true -> is_finite b = true -> is_finite rtol = true -> is_finite atol = true ->
  Rabs (dvalue a) <= 2 ^ 1000 -> Rabs (dvalue b) <= 2 ^ 1000 -> 0 <= dvalue rtol <= 1 -> 0 <= dvalue atol <= 2 ^ 1000 ->
  let t := dvalue atol + dvalue rtol * Rabs (dvalue b) in
  (IsClose a b rtol atol = true -> Rabs (dvalue a - dvalue b) <= (1 + 4 * uround) * t + 2 * uflow) /\
  (Rabs (dvalue a - dvalue b) <= (1 - 4 * uround) * t - 2 * uflow -> IsClose a b rtol atol = true).
Proof. exact isclose_double_lemma. Qed.
Print Assumptions C110_isclose_double.

(** NaN is close to nothing; infinity is not close to itself, nor to a finite
    number. *)
Theorem C110_isclose_nan : forall a b rtol atol : f64,
  is_nan a = true \/ is_nan b = true \/ is_nan rtol = true \/ is_nan atol = true -> IsClose a b rtol atol = false.
Proof. exact isclose_nan_lemma. Qed.
Print Assumptions C110_isclose_nan.

Theorem C110_isclose_infinity_itself : forall (rtol atol : f64) s,
  IsClose (B754_infinity s) (B754_infinity s) rtol atol = false.
Proof. exact isclose_inf_inf_lemma. Qed.
Print Assumptions C110_isclose_infinity_itself.

Theorem C110_isclose_infinity_finite : forall (b rtol atol : f64) s,
  is_finite b = true -> is_finite rtol = true -> is_finite atol = true ->
  Rabs (dvalue b) <= 2 ^ 1000 -> 0 <= dvalue rtol <= 1 -> 0 <= dvalue atol <= 2 ^ 1000 ->
  IsClose (B754_infinity s) b rtol atol = false.
Proof. exact isclose_inf_finite_lemma. Qed.
Print Assumptions C110_isclose_infinity_finite.

(** But with the infinity as second argument every finite number is close to
    it. *)
Theorem C110_isclose_finite_infinity : forall (a rtol atol : f64) s,
  is_finite a = true -> is_finite rtol = true -> 0 < dvalue rtol -> is_finite atol = true ->
  IsClose a (B754_infinity s) rtol atol = true.
Proof. exact isclose_infinite_lemma. Qed.
Print Assumptions C110_isclose_finite_infinity.

(** "No finite number is close to infinity", "closeness is symmetric". *)
Theorem C110_isclose_infinity_refuted : exists a b rtol atol : f64, is_finite a = true /\ is_finite b = false /\
  is_finite rtol = true /\ is_finite atol = true /\
  IsClose a b rtol atol = true /\ IsClose b a rtol atol = false.
Proof. exact isclose_infinity_refuted_pf. Qed.
Print Assumptions C110_isclose_infinity_refuted.

(** Saturate returns one of its arguments, lets NaN through, and stays between
    the bounds otherwise (infinities included). *)
Theorem C110_saturate_double : forall v lo hi : f64,
  let r := Saturate v lo hi in
  (r = v \/ r = lo \/ r = hi) /\
  (is_nan v = true -> r = v) /\
  (is_nan v = false -> is_nan lo = false -> is_nan hi = false -> nle lo hi = true ->
     nle lo r = true /\ nle r hi = true /\ (nle lo v = true -> nle v hi = true -> r = v)).
Proof. exact saturate_double_lemma. Qed.
Print Assumptions C110_saturate_double.

Theorem C110_sgn_double : forall v : f64,
  (is_nan v = true -> sgn v = 0%Z) /\
  (is_finite v = true -> (0 < dvalue v -> sgn v = 1%Z) /\ (dvalue v = 0 -> sgn v = 0%Z) /\ (dvalue v < 0 -> sgn v = (-1)%Z)).
Proof. exact sgn_double_lemma. Qed.
Print Assumptions C110_sgn_double.

(** Heaviside is exact; NaN counts as the step itself. *)
Theorem C110_heaviside_double : forall (x : list f64) s, Forall2 (is_heaviside s) x (Heaviside x s).
Proof. exact heaviside_double_lemma. Qed.
Print Assumptions C110_heaviside_double.

(** Ramp: exact outside the ramp, bounded error on it, right value for NaN. *)
Theorem C110_ramp_double : forall bm (x : list f64) xm xM yl yr,
  is_finite xm = true -> is_finite xM = true -> dvalue xm <= dvalue xM -> dvalue xM - dvalue xm <= dmax ->
  (bm = Debug -> x <> [] /\ nle (hd xm x) xm = true /\ nle xM (last x xM) = true) ->
  exists out, Ramp bm x xm xM yl yr = Ok out /\ Forall2 (is_ramp xm xM yl yr) x out.
Proof. exact ramp_double_lemma. Qed.
Print Assumptions C110_ramp_double.

(** "The ramp reaches its right value": 15 at the end of [0, 11] is missed. *)
Theorem C110_ramp_end_refuted : exists x xm xM yl yr : f64,
  dvalue xm = 0 /\ dvalue xM = 11 /\ dvalue yl = 0 /\ dvalue yr = 15 /\ dvalue x = dvalue xM /\
  forall bm, exists r, Ramp bm [xm; x] xm xM yl yr = Ok [yl; r] /\ dvalue r = 15 - / 2 ^ 49.
Proof. exact ramp_end_refuted_pf. Qed.
Print Assumptions C110_ramp_end_refuted.

(** A degenerate ramp (x_min = x_max) is a clean step, although its slope is
    computed as 1/0; the constants are the default tolerances. *)
Example C110_example :
  Ramp Debug [f64_ofZ 1; f64_ofZ 2; f64_ofZ 3] (f64_ofZ 2) (f64_ofZ 2) (f64_ofZ 0) (f64_ofZ 1) =
    Ok [f64_ofZ 0; f64_ofZ 0; f64_ofZ 1] /\
  IsClose (f64_ofZ 7) (B754_infinity false) (nlit 1 100000) (nlit 1 100000000) = true /\
  IsClose (f64_ofZ 7) (f64_ofZ 7) (nlit 1 100000) (nlit 1 100000000) = true /\
  Saturate (f64_ofZ 7) (f64_ofZ 0) (f64_ofZ 5) = f64_ofZ 5.
Proof.
  split; [|split; [|split]].
  - unfold Ramp. cbn [map length Nat.sub].
    replace (nle (f64_ofZ 2) (f64_ofZ 2)) with true by (vm_compute; reflexivity). cbn [cassert bind vidx nth_error].
    replace (nle (f64_ofZ 1) (f64_ofZ 2)) with true by (vm_compute; reflexivity).
    replace (nle (f64_ofZ 2) (f64_ofZ 3)) with true by (vm_compute; reflexivity).
    replace (nle (f64_ofZ 3) (f64_ofZ 2)) with false by (vm_compute; reflexivity). reflexivity.
  - vm_compute. reflexivity.
  - vm_compute. reflexivity.
  - unfold Saturate. replace (nlt (f64_ofZ 5) (f64_ofZ 7)) with true by (vm_compute; reflexivity).
    replace (nlt (f64_ofZ 5) (f64_ofZ 0)) with false by (vm_compute; reflexivity). reflexivity.
Qed.
