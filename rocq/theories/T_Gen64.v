(** Property C131: logspace, the cardinal sine and velocity transport in IEEE
    double. *)
From Coq Require Import List Arith ZArith Reals Lia Lra.
From Flocq Require Import Core.Core IEEE754.BinarySingleNaN.
From Verif Require Import Outcome Num NumFun F64 M_Basics M_Geometry M_Vec S_Basics S_Vec S_Angles S_Double S_Rot64 S_Gen64 L_F64 L_Gen64.
Import ListNotations.
Local Open Scope R_scope.

(** Every value is within a few roundings, and the rounding of the exponent, of
    the exact power; the two ends are as accurate as pow itself. *)
Theorem C131_logspace_double : forall kappa (TT : NumTr f64), libm_pow kappa TT -> 0 <= kappa <= 1000 ->
  forall bm start stop num base, grid_ready start stop num -> is_finite base = true -> 0 < dvalue base ->
  let b := dvalue base in Rmax (Rabs (dvalue start)) (Rabs (dvalue stop)) * Rabs (ln b) <= 700 ->
  exists l, logspace bm start stop num base = Ok l /\ length l = num /\
  (forall k, (k < num)%nat -> let y := Rpower b (grid_point start stop num k) in
     within ((kappa + 1 + 2 * Rabs (ln b) * grid_size start stop) * uround * y) (nth k l (nofZ 0)) y) /\
  within (kappa * uround * Rpower b (dvalue start)) (nth 0 l (nofZ 0)) (Rpower b (dvalue start)) /\
  within (kappa * uround * Rpower b (dvalue stop)) (nth (num - 1) l (nofZ 0)) (Rpower b (dvalue stop)).
Proof. exact logspace_double_lemma. Qed.
Print Assumptions C131_logspace_double.

(** sin(v)/v within kappa+2 roundings, 1 at both zeros. *)
Theorem C131_sinc_double : forall kappa (TT : NumTr f64), libm_sine kappa TT -> 0 <= kappa <= 1000 ->
  forall x, all_finite x -> length (Sinc x) = length x /\
  forall k, (k < length x)%nat -> let v := dvalue (nth k x (nofZ 0)) in
    within ((kappa + 2) * uround / Rmax 1 (Rabs v) + uflow) (nth k (Sinc x) (nofZ 0)) (sinc v) /\
    (v = 0 -> dvalue (nth k (Sinc x) (nofZ 0)) = 1).
Proof. exact sinc_double_lemma. Qed.
Print Assumptions C131_sinc_double.

(** On evenly spaced points the rounding of the points is added. *)
Theorem C131_sinc_range_double : forall kappa (TT : NumTr f64), libm_sine kappa TT -> 0 <= kappa <= 1000 ->
  forall bm xmin xmax n, grid_ready xmin xmax n -> exists l, Sinc_range bm xmin xmax n = Ok l /\ length l = n /\
  forall k, (k < n)%nat -> within ((kappa + 2) * uround + uflow + uround * grid_size xmin xmax)
    (nth k l (nofZ 0)) (sinc (grid_point xmin xmax n k)).
Proof. exact sinc_range_double_lemma. Qed.
Print Assumptions C131_sinc_range_double.

(** Velocity transport with the rate in any unit; nothing else is written. *)
Theorem C131_transport_double : forall (h : store (T := f64)) this point w u f, this <> point ->
  bounded2 (2 ^ 400) (h this) -> bounded2 (2 ^ 400) (h point) ->
  is_finite w = true -> / 2 ^ 400 <= Rabs (dvalue w) <= 2 ^ 400 -> denotes_hertz PI u (dvalue w) f ->
  near_transport (2 * PI * f) (h this) (h point) (TransportAtPoint h this point w u this) /\
  forall r, r <> this -> TransportAtPoint h this point w u r = h r.
Proof. exact transport_double_lemma. Qed.
Print Assumptions C131_transport_double.

Theorem C131_transport_out_double : forall (h : store (T := f64)) this out point w u f, out <> point ->
  bounded2 (2 ^ 400) (h this) -> bounded2 (2 ^ 400) (h point) ->
  is_finite w = true -> / 2 ^ 400 <= Rabs (dvalue w) <= 2 ^ 400 -> denotes_hertz PI u (dvalue w) f ->
  near_transport (2 * PI * f) (h this) (h point) (TransportAtPoint_out h this out point w u out) /\
  forall r, r <> out -> TransportAtPoint_out h this out point w u r = h r.
Proof. exact transport_out_double_lemma. Qed.
Print Assumptions C131_transport_out_double.

Theorem C131_transport_function_double : forall v p w u f, bounded2 (2 ^ 400) v -> bounded2 (2 ^ 400) p ->
  is_finite w = true -> / 2 ^ 400 <= Rabs (dvalue w) <= 2 ^ 400 -> denotes_hertz PI u (dvalue w) f ->
  near_transport (2 * PI * f) v p (TransportAtPoint_fun v p w u).
Proof. exact transport_fun_double_lemma. Qed.
Print Assumptions C131_transport_function_double.

(** Hypotheses met: 1, 10, 100 with a correctly rounded pow. *)
Example C131_logspace_example : exists l, logspace (TT := exact_sinpow) Debug (f64_ofZ 0) (f64_ofZ 2) 3 (f64_ofZ 10) = Ok l /\ length l = 3%nat /\
  within (1 * uround * 100) (nth 2 l (f64_ofZ 0)) 100.
Proof.
  destruct (ofZ_ok 0 ltac:(lia)) as (F0 & V0). destruct (ofZ_ok 2 ltac:(lia)) as (F2 & V2). destruct (ofZ_ok 10 ltac:(lia)) as (F & V).
  assert (G : grid_ready (f64_ofZ 0) (f64_ofZ 2) 3) by exact ex_grid.
  destruct (C131_logspace_double 1 exact_sinpow (proj2 exact_sinpow_near) ltac:(lra) Debug _ _ _ (f64_ofZ 10) G F) as (l & A & B & _ & _ & D).
  - unfold dvalue. rewrite V. lra.
  - unfold dvalue. rewrite V0, V2, V, Rabs_R0, (Rabs_pos_eq 2), Rmax_right by lra. assert (H := ln_10). rewrite (Rabs_pos_eq (ln 10)) by lra. lra.
  - exists l. split; [exact A|]. split; [exact B|]. assert (E10 : dvalue (f64_ofZ 10) = 10) by exact V. assert (E2 : dvalue (f64_ofZ 2) = 2) by exact V2. rewrite E10, E2 in D.
    replace (Rpower 10 2) with 100 in D by (change 2 with (INR 2); rewrite Rpower_pow by lra; simpl; lra). exact D.
Qed.

(** sin(1/2)/(1/2), and 1 at zero. *)
Example C131_sinc_example : let x := [f64_ofZ 0; Bdiv mode_NE (f64_ofZ 1) (f64_ofZ 2)] in let l := Sinc (TT := exact_sinpow) x in
  dvalue (nth 0 l (f64_ofZ 0)) = 1 /\ within (4 * uround + uflow) (nth 1 l (f64_ofZ 0)) (2 * sin (1 / 2)).
Proof.
  cbv zeta. destruct (ofZ_ok 0 ltac:(lia)) as (F0 & V0). destruct half_ok as (FH & VH).
  assert (AF : all_finite [f64_ofZ 0; Bdiv mode_NE (f64_ofZ 1) (f64_ofZ 2)]) by (repeat constructor; assumption).
  destruct (C131_sinc_double 2 exact_sinpow (proj1 exact_sinpow_near) ltac:(lra) _ AF) as (_ & D). split.
  - apply (D 0%nat); [simpl; lia|exact V0].
  - assert (E := proj1 (D 1%nat ltac:(simpl; lia))). cbn [nth] in E. change (nofZ 0) with (f64_ofZ 0) in E.
    unfold dvalue in E. rewrite VH in E. replace ((2 + 2) * uround / Rmax 1 (Rabs (1 / 2))) with (4 * uround) in E.
    + replace (2 * sin (1 / 2)) with (sinc (1 / 2)); [exact E|]. unfold sinc. destruct (Req_EM_T (1 / 2) 0); [lra|field].
    + rewrite (Rabs_pos_eq (1 / 2)), Rmax_left by lra. field.
Qed.
Example C131_sinc_range_example : exists l, Sinc_range (TT := exact_sinpow) Debug (f64_ofZ 0) (f64_ofZ 2) 3 = Ok l /\
  within (14 * uround + uflow) (nth 1 l (f64_ofZ 0)) (sin 1).
Proof.
  destruct (C131_sinc_range_double 2 exact_sinpow (proj1 exact_sinpow_near) ltac:(lra) Debug _ _ _ ex_grid) as (l & A & _ & D).
  exists l. split; [exact A|]. destruct (D 1%nat ltac:(lia)) as (E1 & E2). split; [exact E1|].
  destruct (ofZ_ok 0 ltac:(lia)) as (F0 & V0). destruct (ofZ_ok 2 ltac:(lia)) as (F2 & V2).
  assert (GP : grid_point (f64_ofZ 0) (f64_ofZ 2) 3 1 = 1) by (unfold grid_point, dvalue; rewrite V0, V2; simpl; field).
  assert (GS : grid_size (f64_ofZ 0) (f64_ofZ 2) = 10) by (unfold grid_size, dvalue; rewrite V0, V2, Rabs_R0, (Rabs_pos_eq 2), Rmax_right by lra; lra).
  rewrite GP, GS in E2. replace (sinc 1) with (sin 1) in E2 by (unfold sinc; destruct (Req_EM_T 1 0); [lra|field]). change (nofZ 0) with (f64_ofZ 0) in E2.
  replace ((2 + 2) * uround + uflow + uround * 10) with (14 * uround + uflow) in E2 by ring. exact E2.
Qed.

(** One turn per minute, seen 30 away. *)
Example C131_transport_example : near_transport (2 * PI * (1 / 60)) (mkV2 (f64_ofZ 1) (f64_ofZ 2)) (mkV2 (f64_ofZ 30) (f64_ofZ 0))
  (TransportAtPoint_fun (mkV2 (f64_ofZ 1) (f64_ofZ 2)) (mkV2 (f64_ofZ 30) (f64_ofZ 0)) (f64_ofZ 1) RPM).
Proof.
  destruct (ofZ_ok 0 ltac:(lia)) as (F0 & V0). destruct (ofZ_ok 1 ltac:(lia)) as (F1 & V1). destruct (ofZ_ok 2 ltac:(lia)) as (F2 & V2).
  destruct (ofZ_ok 30 ltac:(lia)) as (F3 & V3).
  assert (P : 2 ^ 5 <= 2 ^ 400) by (apply Rle_pow; [lra|lia]). assert (P5 : 2 ^ 5 = 32) by (simpl; lra). rewrite P5 in P.
  apply C131_transport_function_double.
  - unfold bounded2. cbn [ux uy]. unfold dvalue. rewrite V1, V2, !Rabs_pos_eq by lra. repeat split; auto; lra.
  - unfold bounded2. cbn [ux uy]. unfold dvalue. rewrite V3, V0, !Rabs_pos_eq by lra. repeat split; auto; lra.
  - exact F1.
  - unfold dvalue. rewrite V1, Rabs_pos_eq by lra. assert (/ 2 ^ 400 <= / 1) by (apply Rinv_le_contravar; lra). lra.
  - unfold denotes_hertz, dvalue. rewrite V1. lra.
Qed.
