(** Property C135: local velocities, projected angles, Bessel derivatives and the
    sampled impulse in IEEE double. *)
From Coq Require Import List Arith ZArith Reals Lia Lra.
From Flocq Require Import Core.Core IEEE754.BinarySingleNaN.
From Verif Require Import Outcome Num NumFun F64 M_Basics M_Triangle M_Geometry M_Vec M_Special M_Dirac S_Basics S_Vec S_Angles S_Double S_Rot64 S_Gen64 S_Special S_Loc64 L_F64 L_Loc64.
Import ListNotations.
Local Open Scope R_scope.

(** Speeds along and across a direction, turned and converted. *)
Theorem C135_ned_velocity_double : forall kappa (TT : NumTr f64), libm_near kappa TT -> 0 <= kappa <= 1000 ->
  forall lon lat angle au iu ou M, / 2 ^ 890 <= M <= 2 ^ 890 -> speed_ok M lon -> speed_ok M lat -> is_finite angle = true ->
  let t := radians au (dvalue angle) in let k := metres_per_second iu / metres_per_second ou in
  within2 ((2 * kappa + 16 + 10 * Rabs t) * uround * (k * M)) (GetNEDVelocityVector lon lat angle au iu ou)
    (scal2 k (turn2 t (mkV2 (dvalue lon) (dvalue lat)))).
Proof. exact ned_velocity_double_pf. Qed.
Print Assumptions C135_ned_velocity_double.
(** 36 km/h at 30 degrees, in metres per second. *)
Example C135_ned_example : within2 ((2 * 2 + 16 + 10 * Rabs (30 / 180 * PI)) * uround * ((1000 / 3600 / 1) * 36))
  (GetNEDVelocityVector (TT := exact_trig) (f64_ofZ 36) (f64_ofZ 0) (f64_ofZ 30) DEG KMH MS) (scal2 (1000 / 3600 / 1) (turn2 (30 / 180 * PI) (mkV2 36 0))).
Proof. exact ex_ned. Qed.

(** Projected angles, in either unit. *)
Theorem C135_projected_angles_double : forall kappa (TT : NumTr f64), libm_atan2 kappa TT -> 0 <= kappa <= 1000 -> forall (v : vec3 f64) u, finite3 v ->
  let close f t := is_finite f = true /\ Rabs (radians u (dvalue f) - t) <= (2 * kappa + 18) * uround in
  (exists t, angle_of (dvalue (vy v)) (dvalue (vz v)) t /\ close (GetProjectedAngleAroundX v u) t) /\
  (exists t, angle_of (dvalue (vz v)) (dvalue (vx v)) t /\ close (GetProjectedAngleAroundY v u) t) /\
  (exists t, angle_of (dvalue (vx v)) (dvalue (vy v)) t /\ close (GetProjectedAngleAroundZ v u) t).
Proof. exact projected_angles_double_pf. Qed.
Print Assumptions C135_projected_angles_double.
(** A library meeting the hypothesis. *)
Example C135_atan2_example : libm_atan2 5 exact_atan2 /\ finite3 (mkV3 (f64_ofZ 3) (f64_ofZ (-4)) (f64_ofZ 0)).
Proof. split; [exact exact_atan2_near|]. repeat split; apply ofZ_ok; lia. Qed.

(** Derivatives of Bessel functions of integer order: the error is that of the
    function at the two orders used and a few roundings. *)
Theorem C135_bessel_derivative_double : forall F G n (order x : f64) ea eb, bessel_range n order x -> bessel_known ea eb F G n x ->
  (bessel_relations G (IZR n) (dvalue x) -> bessel_close ea eb G n x (bessel_derivative (nneg (T := f64)) F order x)) /\
  (modified_i_relations G (IZR n) (dvalue x) -> bessel_close ea eb G n x (bessel_i_derivative F order x)) /\
  (modified_k_relations G (IZR n) (dvalue x) -> bessel_close ea eb G n x (bessel_k_derivative (nneg (T := f64)) F order x)).
Proof. exact bessel_double_pf. Qed.
Print Assumptions C135_bessel_derivative_double.
Theorem C135_hankel_derivative_double : forall (H : f64 -> f64 -> f64 * f64) J Y n (order x : f64) ea eb ea' eb', bessel_range n order x ->
  bessel_known ea eb (fun o z => fst (H o z)) J n x -> bessel_known ea' eb' (fun o z => snd (H o z)) Y n x ->
  bessel_relations J (IZR n) (dvalue x) -> bessel_relations Y (IZR n) (dvalue x) ->
  let r := bessel_derivative (VT := VNum_complex) (fun z => (nneg (fst z), nneg (snd z))) H order x in
  bessel_close ea eb J n x (fst r) /\ bessel_close ea' eb' Y n x (snd r).
Proof. exact hankel_double_pf. Qed.
Print Assumptions C135_hankel_derivative_double.
(** J of order 2 at 3, from a J within 5 roundings. *)
Example C135_bessel_example : bessel_close (5 * uround) (5 * uround) BesselJ 2 (f64_ofZ 3)
  (bessel_derivative (nneg (T := f64)) (fun o z => ofR (BesselJ (dvalue o) (dvalue z))) (f64_ofZ 2) (f64_ofZ 3)).
Proof. exact ex_bessel. Qed.

(** The sampled impulse: samples clearly closer than half the first step get the
    height, those clearly farther get zero. *)
Theorem C135_dirac_double : forall (x : list f64) imp h, (2 <= length x)%nat -> Forall sample_ok x -> sample_ok imp ->
  let at_ k := dvalue (nth k x (f64_ofZ 0)) in let step := at_ 1%nat - at_ 0%nat in
  exists l, Dirac AbsReal x imp h = Ok l /\ length l = length x /\
  forall k, (k < length x)%nat -> let d := Rabs (at_ k - dvalue imp) in let r := nth k l (f64_ofZ 0) in
    (/ 2 ^ 1000 <= step -> d < (1 - 4 * uround) * (step / 2) -> r = h) /\
    (/ 2 ^ 1000 <= step -> (1 + 5 * uround) * (step / 2) <= d -> r = f64_ofZ 0) /\
    (step <= 0 -> r = f64_ofZ 0) /\ (r = h \/ r = f64_ofZ 0).
Proof. exact dirac_double_pf. Qed.
Print Assumptions C135_dirac_double.
(** On the points of linspace, an impulse at one of them sets that one only. *)
Theorem C135_dirac_linspace_double : forall bm (start stop : f64) n, grid_ready start stop n -> Rabs (dvalue start) <= 2 ^ 1000 -> Rabs (dvalue stop) <= 2 ^ 1000 ->
  let s := (dvalue stop - dvalue start) / INR (n - 1) in / 2 ^ 999 <= s -> uround * grid_size start stop <= / 1000 * s ->
  exists x, linspace bm start stop n = Ok x /\ forall k h, (k < n)%nat -> Dirac AbsReal x (nth k x (f64_ofZ 0)) h = Ok (impulse64 n k h).
Proof. exact dirac_linspace_pf. Qed.
Print Assumptions C135_dirac_linspace_double.
Example C135_dirac_example : exists x, linspace Release (f64_ofZ 0) (f64_ofZ 2) 3 = Ok x /\
  Dirac AbsReal x (nth 1 x (f64_ofZ 0)) (f64_ofZ 7) = Ok [f64_ofZ 0; f64_ofZ 7; f64_ofZ 0].
Proof. exact ex_dirac. Qed.
