(** Accuracy of Chebyshev approximation in binary64 with respect to the sampled function. *)
From Coq Require Import List Arith ZArith Reals Bool Lia Lra.
From Flocq Require Import Core.Core IEEE754.BinarySingleNaN.
From Verif Require Import Outcome Num NumFun F64 M_Series S_Series L_Series S_Angles S_Double S_Rot64 M_Cheb S_Cheb L_Cheb L_Cheb2 L_Cheb3 S_Ser64 S_CCoef64 L_CCoef64e S_ErrC L_ErrC S_ErrC64.
Import ListNotations.
Local Open Scope R_scope.

Definition kc (n r k : nat) : R := bsum (n + 1) (fun i => weight n i * cheb i (node n r) * tcz i k).
Lemma kc_ok n r u : kern n r u = bsum (n + 1) (fun k => kc n r k * u ^ k).
Proof.
  unfold kern, kc. rewrite (bsum_ext (n + 1) (fun k => _ * u ^ k) (fun k => bsum (n + 1) (fun i => weight n i * cheb i (node n r) * (tcz i k * u ^ k)))).
  2:{ intros k _. rewrite <- bsum_scal_r. apply bsum_ext. intros. ring. }
  rewrite bsum_swap. apply bsum_ext. intros i Hi. rewrite bsum_scal. rewrite (cheb_poly_gen i (n + 1) u Hi). reflexivity.
Qed.
(** The polynomial through given values. *)
Lemma lift n (H : nat -> R) u : bsum (n + 1) (fun k => bsum (n + 1) (fun r => H r * kc n r k) * u ^ k) = bsum (n + 1) (fun r => H r * kern n r u).
Proof.
  rewrite (bsum_ext (n + 1) (fun k => _ * u ^ k) (fun k => bsum (n + 1) (fun r => H r * (kc n r k * u ^ k)))).
  2:{ intros k _. rewrite <- bsum_scal_r. apply bsum_ext. intros. ring. }
  rewrite bsum_swap. apply bsum_ext. intros r _. rewrite bsum_scal. now rewrite kc_ok.
Qed.
Lemma lift2 m n (V : nat -> nat -> R) a b :
  bsum (m + 1) (fun k => bsum (n + 1) (fun l => bsum (m + 1) (fun r => bsum (n + 1) (fun q => V r q * kc n q l) * kc m r k) * a ^ k * b ^ l)) =
  bsum (m + 1) (fun r => bsum (n + 1) (fun q => V r q * kern n q b) * kern m r a).
Proof.
  rewrite <- lift. apply bsum_ext. intros k _.
  rewrite (bsum_ext (m + 1) (fun r => _ * kc m r k) (fun r => bsum (n + 1) (fun l => bsum (n + 1) (fun q => V r q * kc n q l) * b ^ l * kc m r k))).
  2:{ intros r _. rewrite <- lift, <- bsum_scal_r. reflexivity. }
  rewrite bsum_swap, <- bsum_scal_r. apply bsum_ext. intros l _. rewrite <- !bsum_scal_r. apply bsum_ext. intros r _. ring.
Qed.
Lemma lift3 m n p (V : nat -> nat -> nat -> R) a b c :
  bsum (m + 1) (fun i => bsum (n + 1) (fun j => bsum (p + 1) (fun k =>
    bsum (m + 1) (fun r => bsum (n + 1) (fun q => bsum (p + 1) (fun t => V r q t * kc p t k) * kc n q j) * kc m r i) * a ^ i * b ^ j * c ^ k))) =
  bsum (m + 1) (fun r => bsum (n + 1) (fun q => bsum (p + 1) (fun t => V r q t * kern p t c) * kern n q b) * kern m r a).
Proof.
  rewrite <- lift. apply bsum_ext. intros i _.
  rewrite (bsum_ext (m + 1) (fun r => _ * kc m r i) (fun r => bsum (n + 1) (fun j => bsum (p + 1) (fun k => bsum (n + 1) (fun q => bsum (p + 1) (fun t => V r q t * kc p t k) * kc n q j) * b ^ j * c ^ k * kc m r i)))).
  2:{ intros r _. rewrite <- lift2, <- bsum_scal_r. apply bsum_ext. intros j _. rewrite <- bsum_scal_r. reflexivity. }
  rewrite (bsum_swap (m + 1) (n + 1)), <- bsum_scal_r. apply bsum_ext. intros j _.
  rewrite (bsum_swap (m + 1) (p + 1)), <- bsum_scal_r. apply bsum_ext. intros k _. rewrite <- !bsum_scal_r. apply bsum_ext. intros r _. ring.
Qed.

Lemma usable_valid a x : usable a x -> axis_valid (axis_values a) /\ in_axis (axis_values a) (dvalue x).
Proof. intros (_ & _ & H & _). destruct a; cbn in *; lra. Qed.
Lemma node_point_of a n r : axis_valid a -> (r < n + 1)%nat -> node_point a n r = seg a n r.
Proof. intros V H. rewrite seg_point by assumption. destruct a; cbn; lra. Qed.

Lemma within_trans e e' v x y : within e v x -> Rabs (x - y) <= e' -> within (e + e') v y.
Proof.
  intros [F H] H'. split; [exact F|]. replace (dvalue v - y) with ((dvalue v - x) + (x - y)) by ring.
  apply Rle_trans with (1 := Rabs_triang _ _). lra.
Qed.
Lemma split_err n (V G : nat -> R) u t d e : -1 <= u <= 1 -> (forall r, (r < n + 1)%nat -> Rabs (V r - G r) <= d) ->
  Rabs (bsum (n + 1) (fun r => G r * kern n r u) - t) <= e -> Rabs (bsum (n + 1) (fun r => V r * kern n r u) - t) <= e + growth n * d.
Proof.
  intros Hu H He. rewrite (split_sum n V G u).
  match goal with |- Rabs (?A + ?B - ?C) <= _ => replace (A + B - C) with ((B - C) + A) by ring end.
  apply Rle_trans with (1 := Rabs_triang _ _). apply Rplus_le_compat; [exact He|]. now apply axis_growth.
Qed.

Lemma double1 : forall kappa (TT : NumTr f64) (f : f64 -> f64) (a : axis f64) n M (F : R -> R) B delta y, libm_near kappa TT -> 0 <= kappa <= 1000 -> axis_usable a -> sampled kappa f a n M -> tiny <= M <= bpow radix2 600 ->
  let e := coef_err kappa n in e <= / 10 -> usable a y -> let k := axis_cond (axis_values a) in k * uround <= / 2 -> cheb_err n k <= / 2 ->
  smooth_on (axis_values a) (n + 1) F B -> faithful kappa f a n F delta ->
  within (INR (n + 1) * (2 * e + 4 * cheb_err n k) * M + (cheb_remainder n B + growth n * delta))
    (cs1_evaluate (cs1_compute_ai (cs1_new f a n)) y) (F (dvalue y)).
Proof.
  intros kappa TT f a n M F B delta y HL HK HA HS HM e He Hy k Hk Hc HF HD.
  destruct (cc1_lemma kappa TT f a n M HL HK HA HS HM He) as (x & HX & _ & HI).
  destruct (usable_valid a y Hy) as [V I]. destruct (axis_unit _ _ V I) as [U _].
  eapply within_trans.
  { apply (HI (fun l => bsum (n + 1) (fun r => dvalue (f (x r)) * kc n r l))); try assumption.
    intros r Hr. rewrite lift. apply (interp_node n (fun r => dvalue (f (x r)))). lia. }
  rewrite lift. apply (split_err n _ (fun r => F (seg (axis_values a) n r))).
  - exact (unit_closed _ _ U).
  - intros r Hr. rewrite <- node_point_of by assumption. apply HD; [lia|apply HX; lia].
  - now apply axis_err.
Qed.
Lemma double2 : forall kappa (TT : NumTr f64) (f : f64 -> f64 -> f64) (ax ay : axis f64) m n M (F : R -> R -> R) Bx By delta u v, libm_near kappa TT -> 0 <= kappa <= 1000 -> axis_usable ax -> axis_usable ay ->
  sampled2 kappa f ax ay m n M -> tiny <= M <= bpow radix2 600 -> let e := coef_err2 kappa m n in e <= / 10 -> usable ax u -> usable ay v ->
  let kx := axis_cond (axis_values ax) in let ky := axis_cond (axis_values ay) in
  kx * uround <= / 2 -> ky * uround <= / 2 -> let c := cheb_err m kx + cheb_err n ky in c <= / 2 ->
  (forall t, in_axis (axis_values ay) t -> smooth_on (axis_values ax) (m + 1) (fun s => F s t) Bx) -> (forall s, in_axis (axis_values ax) s -> smooth_on (axis_values ay) (n + 1) (F s) By) ->
  faithful2 kappa f ax ay m n F delta ->
  within (INR (m + 1) * INR (n + 1) * (4 * e + 6 * c) * M + (cheb_remainder m Bx + growth m * (cheb_remainder n By + growth n * delta)))
    (cs2_evaluate (cs2_compute_aij (cs2_new f ax ay m n)) u v) (F (dvalue u) (dvalue v)).
Proof.
  intros kappa TT f ax ay m n M F Bx By delta u v HL HK HA HB HS HM e He Hu Hv kx ky Hkx Hky c Hc HFx HFy HD.
  destruct (cc2_lemma kappa TT f ax ay m n M HL HK HA HB HS HM He) as (x & y & HX & HY & _ & HI).
  destruct (usable_valid ax u Hu) as [Vx Ix]. destruct (axis_unit _ _ Vx Ix) as [Ux _].
  destruct (usable_valid ay v Hv) as [Vy Iy]. destruct (axis_unit _ _ Vy Iy) as [Uy _].
  eapply within_trans.
  { apply (HI (fun k l => bsum (m + 1) (fun r => bsum (n + 1) (fun q => dvalue (f (x r) (y q)) * kc n q l) * kc m r k))); try assumption.
    intros r q Hr Hq. rewrite lift2.
    rewrite (interp_node m (fun r => bsum (n + 1) (fun q0 => dvalue (f (x r) (y q0)) * kern n q0 (node n q))) r ltac:(lia)).
    apply (interp_node n (fun q => dvalue (f (x r) (y q)))). lia. }
  rewrite lift2. apply (split_err m _ (fun r => F (seg (axis_values ax) m r) (dvalue v))).
  - exact (unit_closed _ _ Ux).
  - intros r Hr. apply (split_err n _ (fun q => F (seg (axis_values ax) m r) (seg (axis_values ay) n q))).
    + exact (unit_closed _ _ Uy).
    + intros q Hq. rewrite <- !node_point_of by assumption. apply (HD r (x r) ltac:(lia) (HX r ltac:(lia))); [lia|apply HY; lia].
    + apply axis_err; auto. apply HFy. now apply seg_on.
  - exact (axis_err (axis_values ax) m (fun s => F s (dvalue v)) Bx (dvalue u) Vx (HFx _ Iy) Ix).
Qed.
Lemma double3 : forall kappa (TT : NumTr f64) (f : f64 -> f64 -> f64 -> f64) (ax ay az : axis f64) m n p M (F : R -> R -> R -> R) Bx By Bz delta u v w, libm_near kappa TT -> 0 <= kappa <= 1000 -> axis_usable ax -> axis_usable ay -> axis_usable az ->
  sampled3 kappa f ax ay az m n p M -> tiny <= M <= bpow radix2 600 -> let e := coef_err3 kappa m n p in e <= / 10 -> usable ax u -> usable ay v -> usable az w ->
  let kx := axis_cond (axis_values ax) in let ky := axis_cond (axis_values ay) in let kz := axis_cond (axis_values az) in
  kx * uround <= / 2 -> ky * uround <= / 2 -> kz * uround <= / 2 -> let c := cheb_err m kx + cheb_err n ky + cheb_err p kz in c <= / 2 ->
  (forall t q, in_axis (axis_values ay) t -> in_axis (axis_values az) q -> smooth_on (axis_values ax) (m + 1) (fun s => F s t q) Bx) ->
  (forall s q, in_axis (axis_values ax) s -> in_axis (axis_values az) q -> smooth_on (axis_values ay) (n + 1) (fun t => F s t q) By) ->
  (forall s t, in_axis (axis_values ax) s -> in_axis (axis_values ay) t -> smooth_on (axis_values az) (p + 1) (F s t) Bz) ->
  faithful3 kappa f ax ay az m n p F delta ->
  within (INR (m + 1) * INR (n + 1) * INR (p + 1) * (8 * e + 10 * c) * M + (cheb_remainder m Bx + growth m * (cheb_remainder n By + growth n * (cheb_remainder p Bz + growth p * delta))))
    (cs3_evaluate (cs3_compute_aijk (cs3_new f ax ay az m n p)) u v w) (F (dvalue u) (dvalue v) (dvalue w)).
Proof.
  intros kappa TT f ax ay az m n p M F Bx By Bz delta u v w HL HK HA HB HC HS HM e He Hu Hv Hw kx ky kz Hkx Hky Hkz c Hc HFx HFy HFz HD.
  destruct (cc3_lemma kappa TT f ax ay az m n p M HL HK HA HB HC HS HM He) as (x & y & z & HX & HY & HZ & _ & HI).
  destruct (usable_valid ax u Hu) as [Vx Ix]. destruct (axis_unit _ _ Vx Ix) as [Ux _].
  destruct (usable_valid ay v Hv) as [Vy Iy]. destruct (axis_unit _ _ Vy Iy) as [Uy _].
  destruct (usable_valid az w Hw) as [Vz Iz]. destruct (axis_unit _ _ Vz Iz) as [Uz _].
  eapply within_trans.
  { apply (HI (fun i j k => bsum (m + 1) (fun r => bsum (n + 1) (fun q => bsum (p + 1) (fun t => dvalue (f (x r) (y q) (z t)) * kc p t k) * kc n q j) * kc m r i))); try assumption.
    intros r q t Hr Hq Ht. rewrite lift3.
    rewrite (interp_node m (fun r => bsum (n + 1) (fun q0 => bsum (p + 1) (fun t0 => dvalue (f (x r) (y q0) (z t0)) * kern p t0 (node p t)) * kern n q0 (node n q))) r ltac:(lia)).
    rewrite (interp_node n (fun q => bsum (p + 1) (fun t0 => dvalue (f (x r) (y q) (z t0)) * kern p t0 (node p t))) q ltac:(lia)).
    apply (interp_node p (fun t => dvalue (f (x r) (y q) (z t)))). lia. }
  rewrite lift3. apply (split_err m _ (fun r => F (seg (axis_values ax) m r) (dvalue v) (dvalue w))).
  - exact (unit_closed _ _ Ux).
  - intros r Hr. assert (Or := seg_on _ m r Vx Hr). apply (split_err n _ (fun q => F (seg (axis_values ax) m r) (seg (axis_values ay) n q) (dvalue w))).
    + exact (unit_closed _ _ Uy).
    + intros q Hq. assert (Oq := seg_on _ n q Vy Hq). apply (split_err p _ (fun t => F (seg (axis_values ax) m r) (seg (axis_values ay) n q) (seg (axis_values az) p t))).
      * exact (unit_closed _ _ Uz).
      * intros t Ht. rewrite <- !node_point_of by assumption. apply (HD r (x r) ltac:(lia) (HX r ltac:(lia)) q (y q) ltac:(lia) (HY q ltac:(lia))); [lia|apply HZ; lia].
      * apply axis_err; auto.
    + exact (axis_err (axis_values ay) n (fun t => F (seg (axis_values ax) m r) t (dvalue w)) By (dvalue v) Vy (HFy _ _ Or Iz) Iy).
  - exact (axis_err (axis_values ax) m (fun s => F s (dvalue v) (dvalue w)) Bx (dvalue u) Vx (HFx _ _ Iy Iz) Ix).
Qed.

(** *** Concrete cases *)
Lemma pointwise_smooth a k f M D : (forall u, unit_dom a u -> D 0%nat u = f (point_of a u)) -> derivatives (unit_dom a) k D M -> smooth_on a k f M.
Proof. intros A B. exists D. now split. Qed.
Definition sqD (c : R) (j : nat) (u : R) : R := match j with 0%nat => c * u ^ 2 | 1%nat => c * (2 * u) | 2%nat => c * 2 | _ => 0 end.
Lemma sq_smooth c : Rabs c <= 1 -> smooth_on (Closed (-1) 1) 2 (fun x => x ^ 2 * c) 2.
Proof.
  intros C. exists (sqD c). split; [intros u _; cbn [sqD point_of]; field|]. split.
  - intros j x Hj _. destruct j as [|[|]]; [| |lia]; cbn [sqD].
    + pose proof (derivable_pt_lim_scal (fun u => u ^ 2) c x _ (derivable_pt_lim_pow x 2)) as E.
      replace (c * (2 * x)) with (c * (INR 2 * x ^ Nat.pred 2)) by (simpl; ring). exact E.
    + pose proof (derivable_pt_lim_scal (fun u => 2 * u) c x _ (derivable_pt_lim_scal id 2 x 1 (derivable_pt_lim_id x))) as E.
      rewrite Rmult_1_r in E. exact E.
  - intros x _. cbn [sqD]. rewrite Rabs_mult, (Rabs_pos_eq 2) by lra. lra.
Qed.
Definition liD (a b : R) (j : nat) (u : R) : R := match j with 0%nat => a + b * u | 1%nat => b | _ => 0 end.
Lemma li_deriv I a b : derivatives I 2 (liD a b) 0.
Proof.
  split.
  - intros j x Hj _. destruct j as [|[|]]; [| |lia]; cbn [liD].
    + pose proof (derivable_pt_lim_plus (fct_cte a) (fun u => b * u) x _ _ (derivable_pt_lim_const a x) (derivable_pt_lim_scal id b x 1 (derivable_pt_lim_id x))) as E.
      rewrite Rmult_1_r, Rplus_0_l in E. exact E.
    + apply (derivable_pt_lim_const b x).
  - intros x _. cbn [liD]. rewrite Rabs_R0. lra.
Qed.
Lemma li_smooth_c lo hi f a b : (forall x, f x = a + b * x) -> smooth_on (Closed lo hi) 2 f 0.
Proof.
  intros H. apply pointwise_smooth with (liD (a + b * ((hi + lo) / 2)) (b * ((hi - lo) / 2))); [|apply li_deriv].
  intros u _. cbn [liD point_of]. rewrite H. ring.
Qed.
Lemma const_smooth a c : smooth_on a 2 (fun _ => c) 0.
Proof. apply pointwise_smooth with (liD c 0); [|apply li_deriv]. intros u _. cbn [liD]. ring. Qed.
Lemma inv_smooth : smooth_on (Opened 1) 2 (fun x => / x) 0.
Proof.
  apply pointwise_smooth with (liD (/ 2) (- / 2)); [|apply li_deriv].
  intros u Hu. cbn [unit_dom] in Hu. cbn [liD point_of]. field. lra.
Qed.
Lemma node1_sq r : (r <= 1)%nat -> node 1 r ^ 2 = / 2.
Proof. intros H. destruct cos4_sq as (C2 & _). destruct r as [|[|]]; [rewrite node10|rewrite node11|lia]; simpl; rewrite Rmult_1_r; lra. Qed.
Lemma ex_sq : smooth_on (Closed (-1) 1) (1 + 1) (fun x => x ^ 2) 2 /\ cheb_remainder 1 2 = / 2 /\
  cs1_evaluate (T := R) (cs1_compute_ai (cs1_new (fun x => x ^ 2) (Closed (-1) 1) 1)) 1 = / 2.
Proof.
  split; [|split].
  - destruct (sq_smooth 1 ltac:(rewrite Rabs_R1; lra)) as (D & H0 & HD). exists D. split; [|exact HD]. intros u Hu. rewrite H0 by exact Hu. ring.
  - unfold cheb_remainder. simpl. field.
  - rewrite op1 by (cbn; lra). cbn [Nat.add bsum]. rewrite !seg_point by (cbn; lra || lia). cbn [point_of].
    replace ((1 + -1) / 2 + (1 - -1) / 2 * node 1 0) with (node 1 0) by field. replace ((1 + -1) / 2 + (1 - -1) / 2 * node 1 1) with (node 1 1) by field.
    rewrite !node1_sq by lia. unfold kern. cbn [Nat.add bsum weight cheb unit_of]. rewrite node10, node11. unfold segment_unit. simpl. field.
Qed.
Lemma ex_inv : cs1_evaluate (T := R) (cs1_compute_ai (cs1_new (fun x => / x) (Opened 1) 1)) 3 = / 3.
Proof.
  assert (E := err1 (fun x => / x) (Opened 1) 1 0 3 ltac:(cbn; lra) inv_smooth ltac:(cbn; lra)). unfold cheb_remainder in E. unfold Rdiv in E. rewrite Rmult_0_l in E.
  apply Rminus_diag_uniq. destruct (Req_dec (cs1_evaluate (T := R) (cs1_compute_ai (cs1_new (fun x => / x) (Opened 1) 1)) 3 - / 3) 0) as [H|H]; [exact H|].
  apply Rabs_pos_lt in H. exfalso. exact (Rlt_irrefl _ (Rlt_le_trans _ _ _ H E)).
Qed.
Lemma rem10 : cheb_remainder 1 0 = 0.
Proof. unfold cheb_remainder, Rdiv. ring. Qed.
Lemma rem12 : cheb_remainder 1 2 = / 2.
Proof. unfold cheb_remainder. simpl. field. Qed.
Lemma ex_2d x y : -1 <= x <= 1 -> -1 <= y <= 1 ->
  Rabs (cs2_evaluate (T := R) (cs2_compute_aij (cs2_new (fun x y => x ^ 2 * y) (Closed (-1) 1) (Closed (-1) 1) 1 1)) x y - x ^ 2 * y) <= / 2.
Proof.
  intros Hx Hy. assert (E := err2 (fun x y => x ^ 2 * y) (Closed (-1) 1) (Closed (-1) 1) 1 1 2 0 x y ltac:(cbn; lra) ltac:(cbn; lra)).
  rewrite rem12, rem10, Rmult_0_r, Rplus_0_r in E. apply E; try (cbn; lra).
  - intros t Ht. apply sq_smooth. apply Rabs_le. exact Ht.
  - intros s _. apply li_smooth_c with 0 (s ^ 2). intros. ring.
Qed.
Lemma ex_3d x y z : -1 <= x <= 1 -> -1 <= y <= 1 -> 1 <= z ->
  Rabs (cs3_evaluate (T := R) (cs3_compute_aijk (cs3_new (fun x y z => x ^ 2 * (y / z)) (Closed (-1) 1) (Closed (-1) 1) (Opened 1) 1 1 1)) x y z - x ^ 2 * (y / z)) <= / 2.
Proof.
  intros Hx Hy Hz. assert (E := err3 (fun x y z => x ^ 2 * (y / z)) (Closed (-1) 1) (Closed (-1) 1) (Opened 1) 1 1 1 2 0 0 x y z ltac:(cbn; lra) ltac:(cbn; lra) ltac:(cbn; lra)).
  rewrite rem12, rem10, Rmult_0_r, Rplus_0_r, Rmult_0_r, Rplus_0_r in E. apply E; try (cbn; lra).
  - intros t q Ht Hq. cbn in Ht, Hq. apply sq_smooth. assert (0 < / q <= 1).
    { split; [apply Rinv_0_lt_compat; lra|]. rewrite <- Rinv_1. apply Rinv_le_contravar; lra. }
    unfold Rdiv. apply Rabs_le. nra.
  - intros s q _ Hq. apply li_smooth_c with 0 (s ^ 2 / q). intros. cbn in Hq. field. lra.
  - intros s t _ _. apply pointwise_smooth with (liD (s ^ 2 * t / 2) (- (s ^ 2 * t / 2))); [|apply li_deriv].
    intros u Hu. cbn [unit_dom] in Hu. cbn [liD point_of]. field. lra.
Qed.
From Verif Require Import L_F64 L_Linspace64 L_F64Err L_Series64 L_Interp64 L_Special64 L_Apx L_Ser64 L_E1d S_Der64 L_Der64 S_DCheb64 L_DCheb64 L_CCoef64 L_CCoef64b L_CCoef64c L_CCoef64e L_ErrC.
From Verif Require L_Rot64.
Lemma id15_faithful : faithful 2 (fun x => x) seg15 1 (fun x => x) (230 * u53).
Proof.
  intros r v Hr Hv. destruct (near15 r v Hr Hv) as (_ & E & _). cbn [seg15 axis_values node_point]. vz.
  replace ((5 - 1) / 2 * node 1 r + (5 + 1) / 2) with (2 * node 1 r + 3) by field. exact E.
Qed.
Lemma cond15 : axis_cond (axis_values seg15) = 41 / 4. Proof. exact ex_axis_cond. Qed.
Lemma condh : axis_cond (axis_values half1) = 4. Proof. exact ex_axis_cond_o. Qed.
Lemma ex_double1 : Rabs (dvalue (cs1_evaluate (cs1_compute_ai (TT := exact_trig) (cs1_new (fun x => x) seg15 1)) (f64_ofZ 4)) - 4) <= / 10000000000.
Proof.
  assert (U := u_tiny). assert (CE := ce21).
  assert (HS : sampled 2 (fun x => x) seg15 1 8) by (intros r v Hr Hv; destruct (near15 r v Hr Hv) as (F & _ & B); split; assumption).
  destruct (double1 2 exact_trig (fun x => x) seg15 1 8 (fun x => x) 0 (230 * u53) (f64_ofZ 4) L_Rot64.exact_trig_near ltac:(lra) seg15_usable HS (tiny_8 8 ltac:(lra)) ltac:(rewrite CE; lra) ex_usable) as (_ & E).
  - rewrite cond15, uround_u53. lra.
  - rewrite cond15. unfold cheb_err. rewrite uround_u53. simpl. lra.
  - cbn [seg15 axis_values]. apply li_smooth_c with 0 1. intros. ring.
  - exact id15_faithful.
  - rewrite CE, cond15, rem10 in E. unfold cheb_err, growth in E. rewrite uround_u53 in E. revert E. vz. cbn [Nat.add INR]. intros E. apply Rle_trans with (1 := E). simpl. lra.
Qed.
Lemma ex_double2 : Rabs (dvalue (cs2_evaluate (cs2_compute_aij (TT := exact_trig) (cs2_new (fun x y => x) seg15 half1 1 1)) (f64_ofZ 4) (f64_ofZ 4)) - 4) <= / 100000000.
Proof.
  assert (U := u_tiny). assert (CE : coef_err2 2 1 1 = 864 * u53) by (unfold coef_err2; rewrite ce21; ring).
  assert (HS : sampled2 2 (fun x y => x) seg15 half1 1 1 8) by (intros r v Hr Hv r' v' _ _; destruct (near15 r v Hr Hv) as (F & _ & B); split; assumption).
  destruct (double2 2 exact_trig (fun x y => x) seg15 half1 1 1 8 (fun x y => x) 0 0 (230 * u53) (f64_ofZ 4) (f64_ofZ 4) L_Rot64.exact_trig_near ltac:(lra) seg15_usable half1_usable HS (tiny_8 8 ltac:(lra)) ltac:(rewrite CE; lra) ex_usable ex_usable_o) as (_ & E).
  - rewrite cond15, uround_u53. lra.
  - rewrite condh, uround_u53. lra.
  - rewrite cond15, condh. unfold cheb_err. rewrite uround_u53. simpl. lra.
  - intros t _. cbn [seg15 axis_values]. apply li_smooth_c with 0 1. intros. ring.
  - intros s _. apply const_smooth.
  - intros r v Hr Hv r' v' _ _. exact (id15_faithful r v Hr Hv).
  - rewrite CE, cond15, condh, rem10 in E. unfold cheb_err, growth in E. rewrite uround_u53 in E. revert E. vz. cbn [Nat.add INR]. intros E. apply Rle_trans with (1 := E). simpl. lra.
Qed.
Lemma ex_double3 : Rabs (dvalue (cs3_evaluate (cs3_compute_aijk (TT := exact_trig) (cs3_new (fun x y z => x) seg15 half1 seg15 1 1 1)) (f64_ofZ 4) (f64_ofZ 4) (f64_ofZ 4)) - 4) <= / 100000000.
Proof.
  assert (U := u_tiny). assert (CE : coef_err3 2 1 1 1 = 1312 * u53) by (unfold coef_err3; rewrite ce21, uround_u53; simpl; ring).
  assert (HS : sampled3 2 (fun x y z => x) seg15 half1 seg15 1 1 1 8) by (intros r v Hr Hv r' v' _ _ r'' v'' _ _; destruct (near15 r v Hr Hv) as (F & _ & B); split; assumption).
  destruct (double3 2 exact_trig (fun x y z => x) seg15 half1 seg15 1 1 1 8 (fun x y z => x) 0 0 0 (230 * u53) (f64_ofZ 4) (f64_ofZ 4) (f64_ofZ 4) L_Rot64.exact_trig_near ltac:(lra) seg15_usable half1_usable seg15_usable HS (tiny_8 8 ltac:(lra)) ltac:(rewrite CE; lra) ex_usable ex_usable_o ex_usable) as (_ & E).
  - rewrite cond15, uround_u53. lra.
  - rewrite condh, uround_u53. lra.
  - rewrite cond15, uround_u53. lra.
  - rewrite cond15, condh. unfold cheb_err. rewrite uround_u53. simpl. lra.
  - intros t q _ _. cbn [seg15 axis_values]. apply li_smooth_c with 0 1. intros. ring.
  - intros s q _ _. apply const_smooth.
  - intros s t _ _. apply const_smooth.
  - intros r v Hr Hv r' v' _ _ r'' v'' _ _. exact (id15_faithful r v Hr Hv).
  - rewrite CE, cond15, condh, rem10 in E. unfold cheb_err, growth in E. rewrite uround_u53 in E. revert E. vz. cbn [Nat.add INR]. intros E. apply Rle_trans with (1 := E). simpl. lra.
Qed.
