(** Properties C38-C50, C87, C88: units, vector generation, vector helpers,
    test functions, comparisons, saturation (Constants.h, Unit.h, Angles.h,
    VectorGeneration.h, StdVector.h, Functions.h, Check.h, Maths.h).

    [RNum_at p] is exact real arithmetic in which M_PI has the value [p]. *)
From Coq Require Import List Arith ZArith Reals Bool Lia Lra.
From Coq Require String.
From Flocq Require Import Core.Core IEEE754.BinarySingleNaN.
From Verif Require Import Outcome Num NumFun F64 M_Basics S_Angles S_Basics L_Basics L_Basics2 L_Linspace64.
Import ListNotations.
Import String.StringSyntax.
Local Open Scope R_scope.

(** C38. *)
Theorem C38_velocity_meaning : forall p v u w,
  convert_velocity_unit (NT := RNum_at p) v u w * metres_per_second w = v * metres_per_second u.
Proof. exact velocity_meaning_lemma. Qed.
Print Assumptions C38_velocity_meaning.

Theorem C38_velocity_compose : forall p v u w z,
  convert_velocity_unit (NT := RNum_at p) (convert_velocity_unit (NT := RNum_at p) v u w) w z =
    convert_velocity_unit (NT := RNum_at p) v u z /\
  convert_velocity_unit (NT := RNum_at p) v u u = v.
Proof. exact velocity_compose_lemma. Qed.
Print Assumptions C38_velocity_compose.

Theorem C38_velocity_helpers : forall p v,
  let conv := convert_velocity_unit (NT := RNum_at p) v in
  knot2ms (NT := RNum_at p) v = conv KNOT MS /\ ms2knot (NT := RNum_at p) v = conv MS KNOT /\
  kmh2ms (NT := RNum_at p) v = conv KMH MS /\ ms2kmh (NT := RNum_at p) v = conv MS KMH /\
  kmh2knot (NT := RNum_at p) v = conv KMH KNOT /\ knot2kmh (NT := RNum_at p) v = conv KNOT KMH /\
  forall l, kt2ms (NT := RNum_at p) l = map (fun x => x * (1852 / 3600)) l.
Proof. exact velocity_helpers_lemma. Qed.
Print Assumptions C38_velocity_helpers.

Example C38_example : convert_velocity_unit (T := R) 10 KNOT KMH = 18.52.
Proof.
  assert (H := C38_velocity_meaning PI 10 KNOT KMH). unfold metres_per_second in H.
  unfold RNum. lra.
Qed.

(** C39: converting preserves the frequency denoted. *)
Theorem C39_frequency_meaning : forall p x f u w, p <> 0 -> (w = PERIOD_S -> f <> 0) ->
  denotes_hertz p u x f -> denotes_hertz p w (convert_frequency (NT := RNum_at p) x u w) f.
Proof. exact frequency_meaning_lemma. Qed.
Print Assumptions C39_frequency_meaning.

Theorem C39_frequency_compose : forall p x u v w, p <> 0 ->
  (u = PERIOD_S \/ v = PERIOD_S \/ w = PERIOD_S -> x <> 0) ->
  convert_frequency (NT := RNum_at p) (convert_frequency (NT := RNum_at p) x u v) v w =
    convert_frequency (NT := RNum_at p) x u w /\
  convert_frequency (NT := RNum_at p) x u u = x.
Proof. exact frequency_compose_lemma. Qed.
Print Assumptions C39_frequency_compose.

Theorem C39_angle_vectors : forall p l, p <> 0 ->
  deg2rad (NT := RNum_at p) l = map (fun d => d * (p / 180)) l /\
  rad2deg (NT := RNum_at p) (deg2rad (NT := RNum_at p) l) = l /\
  deg2rad (NT := RNum_at p) (rad2deg (NT := RNum_at p) l) = l.
Proof. exact angle_vectors_lemma. Qed.
Print Assumptions C39_angle_vectors.

(** 30 rpm are a period of 2 s. *)
Example C39_example : convert_frequency (T := R) 30 RPM PERIOD_S = 2.
Proof.
  assert (H := C39_frequency_meaning PI 30 (1 / 2) RPM PERIOD_S PI_neq0).
  unfold denotes_hertz in H. unfold RNum. assert (H' : 30 = 60 * (1 / 2)) by lra. specialize (H ltac:(lra) H'). lra.
Qed.

(** C40. *)
Theorem C40_linspace : forall p bm start stop num, (2 <= num)%nat -> start <= stop ->
  exists l, linspace (NT := RNum_at p) bm start stop num = Ok l /\
    elements l num (fun k => start + INR k * ((stop - start) / INR (num - 1))) /\
    nth 0 l 0 = start /\ nth (num - 1) l 0 = stop /\
    forall i j, (i < j < num)%nat -> nth i l 0 <= nth j l 0 /\ (start < stop -> nth i l 0 < nth j l 0).
Proof. exact linspace_lemma. Qed.
Print Assumptions C40_linspace.

Theorem C40_linspace_precondition : forall p start stop num,
  ((num < 2)%nat \/ stop < start -> linspace (NT := RNum_at p) Debug start stop num = Abort) /\
  linspace (NT := RNum_at p) Release start stop 0 = UB /\
  linspace (NT := RNum_at p) Release start stop 1 = Ok [stop] /\
  ((2 <= num)%nat -> exists l, linspace (NT := RNum_at p) Release start stop num = Ok l /\
     elements l num (fun k => start + INR k * ((stop - start) / INR (num - 1)))).
Proof. exact linspace_pre_lemma. Qed.
Print Assumptions C40_linspace_precondition.

Example C40_example : exists l, linspace (T := R) Debug 0 10 5 = Ok l /\ length l = 5%nat /\ nth 3 l 0 = 7.5.
Proof.
  destruct (C40_linspace PI Debug 0 10 5) as (l & H1 & (H2 & H3) & _); [lia|lra|].
  exists l. split; [exact H1|]. split; [exact H2|]. rewrite H3 by lia. simpl. lra.
Qed.

(** C41. *)
Theorem C41_logspace : forall p bm start stop num base, (2 <= num)%nat -> start <= stop -> 0 < base ->
  exists l q, logspace (NT := RNum_at p) bm start stop num base = Ok l /\
    elements l num (fun k => Rpower base (start + INR k * ((stop - start) / INR (num - 1)))) /\
    nth 0 l 0 = Rpower base start /\ nth (num - 1) l 0 = Rpower base stop /\
    0 < q /\ forall k, (S k < num)%nat -> nth (S k) l 0 = q * nth k l 0.
Proof. exact logspace_lemma. Qed.
Print Assumptions C41_logspace.

Example C41_example : exists l, logspace (T := R) Debug 0 2 3 10 = Ok l /\ nth 1 l 0 = 10.
Proof.
  destruct (C41_logspace PI Debug 0 2 3 10) as (l & q & H1 & (_ & H2) & _); [lia|lra|lra|].
  exists l. split; [exact H1|]. rewrite H2 by lia.
  replace (0 + INR 1 * ((2 - 0) / INR (3 - 1))) with 1 by (simpl; lra). apply Rpower_1. lra.
Qed.

(** C42: arange ends at num*step and spaces its values accordingly; the
    values are start + k*step only when start = step. *)
Theorem C42_arange : forall p bm start stop step (n : nat),
  start < stop -> 0 < step -> (2 <= n)%nat -> (Z.of_nat n < 2 ^ 32)%Z ->
  INR n <= (stop - start) / step < INR n + 1 ->
  (bm = Debug -> start <= INR n * step) ->
  exists l, arange (NT := RNum_at p) bm start stop step = Ok l /\
    elements l n (fun k => start + INR k * ((INR n * step - start) / INR (n - 1))) /\
    ((forall k, (k < n)%nat -> nth k l 0 = start + INR k * step) <-> start = step).
Proof. exact arange_lemma. Qed.
Print Assumptions C42_arange.

Theorem C42_arange_abort : forall p start stop step (n : nat),
  start < stop -> 0 < step -> (2 <= n)%nat -> (Z.of_nat n < 2 ^ 32)%Z ->
  INR n <= (stop - start) / step < INR n + 1 ->
  INR n * step < start -> arange (NT := RNum_at p) Debug start stop step = Abort.
Proof. exact arange_abort_lemma. Qed.
Print Assumptions C42_arange_abort.

(** arange(0, 10, 1) is not 0, 1, 2, ...; arange(5, 8, 1) aborts. *)
Theorem C42_arange_step_refuted : exists l, arange (T := R) Debug 0 10 1 = Ok l /\ nth 1 l 0 = 10 / 9.
Proof. exact arange_refuted_pf. Qed.
Print Assumptions C42_arange_step_refuted.

Example C42_example : arange (T := R) Debug 5 8 1 = Abort.
Proof. apply (C42_arange_abort PI 5 8 1 3); try lra; try lia; simpl; lra. Qed.

(** C43. *)
Theorem C43_binary : forall p,
  elementwise Rplus (vec_add (NT := RNum_at p)) /\ elementwise Rminus (vec_minus (NT := RNum_at p)) /\
  elementwise Rmult (vec_mult (NT := RNum_at p)) /\ elementwise Rdiv (vec_divide (NT := RNum_at p)).
Proof. exact binary_lemma. Qed.
Print Assumptions C43_binary.

Theorem C43_unary : forall p (v : list R) c,
  elements (vec_add_scalar (NT := RNum_at p) v c) (length v) (fun i => nth i v 0 + c)%R /\
  elements (vec_scale (NT := RNum_at p) v c) (length v) (fun i => nth i v 0 * c)%R /\
  elements (vec_negate (NT := RNum_at p) v) (length v) (fun i => - nth i v 0)%R /\
  (forall n, elements (vec_pow v (INR n)) (length v) (fun i => nth i v 0 ^ n)%R) /\
  (Forall (Rlt 0) v -> elements (vec_pow v c) (length v) (fun i => Rpower (nth i v 0%R) c)) /\
  vec_sum (NT := RNum_at p) v = total v.
Proof. exact stdvector_lemma. Qed.
Print Assumptions C43_unary.

Example C43_example : exists l, vec_minus (T := R) Debug [3; 5; 7] [1; 1; 10] = Ok l /\ nth 2 l 0 = -3 /\
  vec_minus (T := R) Release [3; 5; 7] [1; 1] = UB /\ vec_minus (T := R) Debug [3; 5; 7] [1; 1] = Abort /\
  vec_sum [3; 5; 7] = 15.
Proof.
  destruct (C43_binary PI) as (_ & (H1 & H2 & H3 & _) & _).
  destruct (H1 Debug [3; 5; 7] [1; 1; 10] eq_refl) as (l & E & _ & El). exists l. split; [exact E|].
  split; [rewrite (El 2%nat) by (simpl; lia); simpl; lra|].
  split; [apply H3; simpl; lia|]. split; [apply H2; simpl; lia|].
  destruct (C43_unary PI [3; 5; 7] 0) as (_ & _ & _ & _ & _ & S). transitivity (total [3; 5; 7]); [exact S|simpl; lra].
Qed.

(** C44. *)
Theorem C44_heaviside : forall p x s,
  exists f, Heaviside (NT := RNum_at p) x s = map f x /\
    forall v, (v < s -> f v = 0) /\ (v = s -> f v = 1 / 2) /\ (s < v -> f v = 1).
Proof. exact heaviside_lemma. Qed.
Print Assumptions C44_heaviside.

Theorem C44_door : forall p bm x lo hi height, lo < hi ->
  exists f, Door (NT := RNum_at p) bm x lo hi height = Ok (map f x) /\
    forall v, (v < lo \/ hi < v -> f v = 0) /\ (v = lo \/ v = hi -> f v = height / 2) /\ (lo < v < hi -> f v = height).
Proof. exact door_lemma. Qed.
Print Assumptions C44_door.

Example C44_example : Door (T := R) Debug [0; 1; 2; 3; 4] 1 3 10 = Ok [0; 5; 10; 5; 0].
Proof.
  destruct (C44_door PI Debug [0; 1; 2; 3; 4] 1 3 10 ltac:(lra)) as (f & H & Hf).
  transitivity (Ok (map f [0; 1; 2; 3; 4])); [exact H|]. simpl.
  rewrite (proj1 (Hf 0)), (proj1 (proj2 (Hf 1))), (proj2 (proj2 (Hf 2))), (proj1 (proj2 (Hf 3))), (proj1 (Hf 4)) by lra.
  repeat f_equal; lra.
Qed.

(** C45. *)
Theorem C45_ramp : forall p bm x lo hi yl yr, lo < hi ->
  (bm = Debug -> x <> [] /\ nth 0 x 0 <= lo /\ hi <= nth (length x - 1) x 0) ->
  exists f, Ramp (NT := RNum_at p) bm x lo hi yl yr = Ok (map f x) /\
    (forall v, v <= lo -> f v = yl) /\ (forall v, hi <= v -> f v = yr) /\
    (forall v, lo <= v <= hi -> (f v - yl) * (hi - lo) = (yr - yl) * (v - lo)) /\
    (forall v, Rmin yl yr <= f v <= Rmax yl yr) /\
    (forall v w, Rabs (f v - f w) <= Rabs (yr - yl) / (hi - lo) * Rabs (v - w)).
Proof. exact ramp_lemma. Qed.
Print Assumptions C45_ramp.

(** Outside the precondition. *)
Theorem C45_ramp_precondition : forall p x lo hi yl yr,
  (hi < lo -> Ramp (NT := RNum_at p) Debug x lo hi yl yr = Abort) /\
  (lo <= hi -> Ramp (NT := RNum_at p) Debug [] lo hi yl yr = UB) /\
  (lo <= hi -> x <> [] -> lo < nth 0 x 0 \/ nth (length x - 1) x 0 < hi ->
     Ramp (NT := RNum_at p) Debug x lo hi yl yr = Abort) /\
  (lo = hi -> Ramp (NT := RNum_at p) Release x lo hi yl yr = Ok (map (fun v => if Rle_dec v lo then yl else yr) x)).
Proof. exact ramp_pre_lemma. Qed.
Print Assumptions C45_ramp_precondition.

Example C45_example : exists l, Ramp (T := R) Debug [0; 2; 4] 1 3 10 20 = Ok l /\ nth 1 l 0 = 15.
Proof.
  destruct (C45_ramp PI Debug [0; 2; 4] 1 3 10 20 ltac:(lra)) as (f & H & _ & _ & Hm & _).
  { intros _. split; [discriminate|]. simpl. lra. }
  eexists. split; [exact H|]. simpl. specialize (Hm 2 ltac:(lra)). lra.
Qed.

(** C46. *)
Theorem C46_sinc : forall p x,
  exists f, Sinc (NT := RNum_at p) x = map f x /\
    f 0 = 1 /\ (forall v, f v * v = sin v) /\ (forall v, f (- v) = f v) /\ (forall v, Rabs (f v) <= 1).
Proof. exact sinc_lemma. Qed.
Print Assumptions C46_sinc.

Theorem C46_sinc_range : forall p bm lo hi n, (2 <= n)%nat -> lo <= hi ->
  exists l, Sinc_range (NT := RNum_at p) bm lo hi n = Ok l /\ length l = n /\
    forall k, (k < n)%nat ->
      nth k l 0 * (lo + INR k * ((hi - lo) / INR (n - 1))) = sin (lo + INR k * ((hi - lo) / INR (n - 1))).
Proof. exact sinc_range_lemma. Qed.
Print Assumptions C46_sinc_range.

Example C46_example : exists l, Sinc (T := R) [0; PI / 2] = l /\ nth 0 l 0 = 1 /\ nth 1 l 0 * (PI / 2) = 1.
Proof.
  destruct (C46_sinc PI [0; PI / 2]) as (f & H & H0 & Hf & _). exists (map f [0; PI / 2]).
  split; [exact H|]. simpl. split; [auto|]. rewrite Hf. apply sin_PI2.
Qed.

(** C47. *)
Theorem C47_isclose : forall p a b rtol atol, 0 <= rtol -> 0 <= atol ->
  IsClose (NT := RNum_at p) a a rtol atol = true /\
  (forall rtol' atol', rtol <= rtol' -> atol <= atol' ->
     IsClose (NT := RNum_at p) a b rtol atol = true -> IsClose (NT := RNum_at p) a b rtol' atol' = true) /\
  (rtol < 1 -> IsClose (NT := RNum_at p) a b rtol atol = true ->
     IsClose (NT := RNum_at p) b a (rtol / (1 - rtol)) (atol / (1 - rtol)) = true).
Proof. exact isclose_lemma. Qed.
Print Assumptions C47_isclose.

Theorem C47_isclose_meaning : forall p a b rtol atol,
  IsClose (NT := RNum_at p) a b rtol atol = true <-> Rabs (a - b) <= atol + rtol * Rabs b.
Proof. exact isclose_spec. Qed.
Print Assumptions C47_isclose_meaning.

Theorem C47_isclose_symmetric_refuted : exists a b rtol,
  0 < rtol < 1 /\ IsClose (T := R) a b rtol 0 = true /\ IsClose (T := R) b a rtol 0 = false.
Proof. exact isclose_asym_pf. Qed.
Print Assumptions C47_isclose_symmetric_refuted.

Theorem C47_isclose_vector : forall p bm a b rtol atol,
  (length a = length b ->
     exists c, IsClose_vec (NT := RNum_at p) bm a b rtol atol = Ok c /\
     (c = true <-> forall i, (i < length a)%nat -> Rabs (nth i a 0 - nth i b 0) <= atol + rtol * Rabs (nth i b 0))) /\
  (length a <> length b -> IsClose_vec (NT := RNum_at p) Debug a b rtol atol = Abort).
Proof. exact isclose_vec_lemma. Qed.
Print Assumptions C47_isclose_vector.

Example C47_example : IsClose (T := R) 100 101 0.01 0 = true.
Proof. apply (C47_isclose_meaning PI). rewrite (Rabs_pos_eq 101), Rabs_left by lra. lra. Qed.

(** C48: every integer, negative ones included. *)
Theorem C48_parity : forall v : Z,
  (is_odd v = true <-> exists k, v = 2 * k + 1)%Z /\ (is_even v = true <-> exists k, v = 2 * k)%Z /\
  is_even v = negb (is_odd v).
Proof. exact parity_lemma. Qed.
Print Assumptions C48_parity.

Example C48_example : is_odd (-7) = true /\ is_even (-8) = true /\ is_odd 4 = false.
Proof. auto. Qed.

(** C49. *)
Theorem C49_sgn : forall p (v : R),
  (v < 0 -> sgn (NT := RNum_at p) v = (-1)%Z) /\ (v = 0 -> sgn (NT := RNum_at p) v = 0%Z) /\
  (0 < v -> sgn (NT := RNum_at p) v = 1%Z).
Proof. exact sgn_lemma. Qed.
Print Assumptions C49_sgn.

Theorem C49_saturate : forall p v lo hi, lo <= hi ->
  closest_point lo hi v (Saturate (NT := RNum_at p) v lo hi) /\
  (Saturate (NT := RNum_at p) v lo hi = v <-> lo <= v <= hi).
Proof. exact saturate_lemma. Qed.
Print Assumptions C49_saturate.

Theorem C49_sgnsqrt : forall p x,
  SgnSqrt (NT := RNum_at p) x * Rabs (SgnSqrt (NT := RNum_at p) x) = x.
Proof. exact sgnsqrt_lemma. Qed.
Print Assumptions C49_sgnsqrt.

Example C49_example : Saturate (T := R) 7 0 5 = 5 /\ closest_point 0 5 7 5.
Proof.
  destruct (C49_saturate PI 7 0 5 ltac:(lra)) as [(H1 & H2) _].
  assert (E : Saturate (T := R) 7 0 5 = 5).
  { specialize (H2 5 ltac:(lra)). rewrite (Rabs_left (5 - 7)) in H2 by lra.
    apply Rabs_le_inv in H2. unfold RNum. lra. }
  split; [exact E|]. destruct (C49_saturate PI 7 0 5 ltac:(lra)) as [H _]. unfold RNum in E. rewrite E in H. exact H.
Qed.

(** C50: on 64-bit integers the result is the saturated value rounded to a
    double; a rounded value of 2^63 is undefined behaviour. *)
Theorem C50_saturate_int64 : forall v lo hi, int64 v -> int64 lo -> int64 hi -> (lo <= hi)%Z ->
  exists z, IZR z = dround (IZR (clampZ lo hi v)) /\
    Saturate_int (- 2 ^ 63) (2 ^ 63 - 1) v lo hi = if (z <=? 2 ^ 63 - 1)%Z then Ok z else UB.
Proof. exact saturate_int_lemma. Qed.
Print Assumptions C50_saturate_int64.

(** Exact when the bounds are at most 2^53 in magnitude, for every integer type. *)
Theorem C50_saturate_exact : forall lo_T hi_T v lo hi, (lo_T <= lo <= hi)%Z -> (hi <= hi_T)%Z ->
  int64 v -> (- 2 ^ 53 <= lo)%Z -> (hi <= 2 ^ 53)%Z ->
  Saturate_int lo_T hi_T v lo hi = Ok (clampZ lo hi v).
Proof. exact saturate_small_lemma. Qed.
Print Assumptions C50_saturate_exact.

Theorem C50_saturate_identity_refuted :
  Saturate_int (- 2 ^ 63) (2 ^ 63 - 1) (2 ^ 53 + 1) 0 (2 ^ 62) = Ok (2 ^ 53)%Z /\
  Saturate_int (- 2 ^ 63) (2 ^ 63 - 1) (2 ^ 63 - 1) 0 (2 ^ 63 - 1) = UB.
Proof. exact saturate_int_refuted_pf. Qed.
Print Assumptions C50_saturate_identity_refuted.

Example C50_example : Saturate_int (- 2 ^ 31) (2 ^ 31 - 1) (-77) (-50) 50 = Ok (-50)%Z.
Proof. apply C50_saturate_exact; unfold int64; lia. Qed.

(** C87. *)
Theorem C87_linspace_double : forall bm (start stop : f64) num,
  is_finite start = true -> is_finite stop = true -> dvalue start <= dvalue stop ->
  dvalue stop - dvalue start <= dmax ->
  (2 <= num)%nat -> (Z.of_nat num < 2 ^ 32)%Z ->
  dvalue start = dvalue stop \/ INR (num - 1) * dmin_normal <= dvalue stop - dvalue start ->
  exists l, linspace bm start stop num = Ok l /\ length l = num /\
    nth (num - 1) l start = stop /\ dvalue (nth 0 l stop) = dvalue start /\
    (forall k, (k < num)%nat -> is_finite (nth k l start) = true /\
       dvalue start <= dvalue (nth k l start) <= dvalue stop /\
       Rabs (dvalue (nth k l start) - (dvalue start + INR k * ((dvalue stop - dvalue start) / INR (num - 1)))) <=
         / 2 ^ 53 * (4 * (dvalue stop - dvalue start) + Rmax (Rabs (dvalue start)) (Rabs (dvalue stop)))) /\
    (forall i j, (i <= j < num)%nat -> dvalue (nth i l start) <= dvalue (nth j l start)).
Proof. exact linspace_double_lemma. Qed.
Print Assumptions C87_linspace_double.

(** With a subnormal spacing the range is left ([tiny k] is k*2^-1074). *)
Theorem C87_linspace_subnormal_refuted :
  omap (map B2SF) (linspace Debug (tiny 0) (tiny 3) 6) =
    Ok (map B2SF [tiny 0; tiny 1; tiny 2; tiny 3; tiny 4; tiny 3]) /\ dvalue (tiny 3) < dvalue (tiny 4).
Proof. exact linspace_double_refuted_pf. Qed.
Print Assumptions C87_linspace_subnormal_refuted.

(** 0, 1/3 of 10, ... *)
Example C87_example : omap (map B2SF) (linspace Debug (f64_ofZ 0) (f64_ofZ 10) 4) =
  Ok (map B2SF [f64_ofZ 0; Bdiv mode_NE (f64_ofZ 10) (f64_ofZ 3);
                Bmult mode_NE (f64_ofZ 2) (Bdiv mode_NE (f64_ofZ 10) (f64_ofZ 3)); f64_ofZ 10]).
Proof. vm_compute. reflexivity. Qed.

(** C88. *)
Local Open Scope string_scope.
Local Open Scope R_scope.
Theorem C88_get_trigo : forall (a : R),
  get_trigo a RAD = (cos a, sin a) /\ get_trigo a DEG = (cos (a * (PI / 180)), sin (a * (PI / 180))) /\
  forall u, fst (get_trigo a u) * fst (get_trigo a u) + snd (get_trigo a u) * snd (get_trigo a u) = 1.
Proof. exact trigo_lemma. Qed.
Print Assumptions C88_get_trigo.

Theorem C88_string2angle : forall s u,
  (string2angle s = Ok u <-> (s = "DEG" /\ u = DEG) \/ (s = "RAD" /\ u = RAD)) /\
  (~ (exists u', string2angle s = Ok u') -> string2angle s = Exit 1).
Proof. exact string2angle_lemma. Qed.
Print Assumptions C88_string2angle.

Example C88_example : snd (get_trigo (T := R) 90 DEG) = 1 /\ string2angle "deg" = Exit 1.
Proof.
  split; [|reflexivity]. rewrite (proj1 (proj2 (C88_get_trigo 90))). cbn [snd].
  replace (90 * (PI / 180)) with (PI / 2) by lra. apply sin_PI2.
Qed.
