(** Chebyshev coefficients in binary64: the statements and concrete cases. *)
From Coq Require Import List Arith ZArith Reals Bool Lia Lra Psatz.
From Flocq Require Import Core.Core IEEE754.BinarySingleNaN.
From Verif Require Import Outcome Num NumFun F64 L_F64 L_Linspace64 L_F64Err M_Series S_Series L_Series S_Angles S_Double S_Rot64 L_Series64
  L_Interp64 L_Special64 L_Apx M_Cheb S_Cheb L_Cheb L_Cheb2 L_Cheb3 S_Ser64 L_Ser64 L_E1d S_Der64 L_Der64 S_DCheb64 L_DCheb64 S_CCoef64 L_CCoef64 L_CCoef64b L_CCoef64c.
From Verif Require L_Rot64.
Import ListNotations.
Local Open Scope R_scope.

Lemma cc1_lemma : forall kappa (TT : NumTr f64) (f : f64 -> f64) (a : axis f64) n M, libm_near kappa TT -> 0 <= kappa <= 1000 -> axis_usable a -> sampled kappa f a n M -> tiny <= M <= bpow radix2 600 ->
  let e := coef_err kappa n in e <= / 10 ->
  let s := cs1_compute_ai (cs1_new f a n) in
  exists x : nat -> f64, (forall r, (r <= n)%nat -> near_node kappa a n r (x r)) /\
    (forall i, (i <= n)%nat -> within (2 * e * M) (c1_a s i) (weight n i * bsum (n + 1) (fun r => dvalue (f (x r)) * cheb i (node n r)))) /\
    (forall g, (forall r, (r <= n)%nat -> bsum (n + 1) (fun l => g l * node n r ^ l) = dvalue (f (x r))) ->
     forall y, usable a y -> let k := axis_cond (axis_values a) in k * uround <= / 2 -> cheb_err n k <= / 2 ->
     within (INR (n + 1) * (2 * e + 4 * cheb_err n k) * M) (cs1_evaluate s y) (bsum (n + 1) (fun l => g l * unit_of (axis_values a) (dvalue y) ^ l))).
Proof.
  intros kappa TT f a n M HL HK HA HS HM e HE s. exists (xs a n). split; [|split].
  - intros r Hr. exact (seg_near kappa TT a n r HL HK HE HA Hr).
  - exact (coef1_near kappa TT f a n M HL HK HA HS HM HE).
  - exact (interp1 kappa TT f a n M HL HK HA HS HM HE).
Qed.
Lemma cc2_lemma : forall kappa (TT : NumTr f64) (f : f64 -> f64 -> f64) (ax ay : axis f64) m n M, libm_near kappa TT -> 0 <= kappa <= 1000 -> axis_usable ax -> axis_usable ay ->
  sampled2 kappa f ax ay m n M -> tiny <= M <= bpow radix2 600 -> let e := coef_err2 kappa m n in e <= / 10 ->
  let s := cs2_compute_aij (cs2_new f ax ay m n) in
  exists x y : nat -> f64, (forall r, (r <= m)%nat -> near_node kappa ax m r (x r)) /\ (forall r, (r <= n)%nat -> near_node kappa ay n r (y r)) /\
    (forall i j, (i <= m)%nat -> (j <= n)%nat -> within (4 * e * M) (c2_a s i j)
       (weight m i * weight n j * bsum (m + 1) (fun r => bsum (n + 1) (fun q => dvalue (f (x r) (y q)) * cheb i (node m r) * cheb j (node n q))))) /\
    (forall g, (forall r q, (r <= m)%nat -> (q <= n)%nat -> bsum (m + 1) (fun k => bsum (n + 1) (fun l => g k l * node m r ^ k * node n q ^ l)) = dvalue (f (x r) (y q))) ->
     forall u v, usable ax u -> usable ay v -> let kx := axis_cond (axis_values ax) in let ky := axis_cond (axis_values ay) in
     kx * uround <= / 2 -> ky * uround <= / 2 -> let c := cheb_err m kx + cheb_err n ky in c <= / 2 ->
     within (INR (m + 1) * INR (n + 1) * (4 * e + 6 * c) * M) (cs2_evaluate s u v)
       (bsum (m + 1) (fun k => bsum (n + 1) (fun l => g k l * unit_of (axis_values ax) (dvalue u) ^ k * unit_of (axis_values ay) (dvalue v) ^ l)))).
Proof.
  intros kappa TT f ax ay m n M HL HK HA HA' HS HM e HE s. exists (xs ax m), (xs ay n).
  assert (C1 := coef_err_nonneg kappa m (proj1 HK)). assert (C2 := coef_err_nonneg kappa n (proj1 HK)). assert (HE' := HE). unfold e, coef_err2 in HE'. split; [|split; [|split]].
  - intros r Hr. exact (seg_near kappa TT ax m r HL HK ltac:(lra) HA Hr).
  - intros r Hr. exact (seg_near kappa TT ay n r HL HK ltac:(lra) HA' Hr).
  - exact (coef2_near kappa TT f ax ay m n M HL HK HA HA' HS HM HE).
  - exact (interp2 kappa TT f ax ay m n M HL HK HA HA' HS HM HE).
Qed.
Lemma cc3_lemma : forall kappa (TT : NumTr f64) (f : f64 -> f64 -> f64 -> f64) (ax ay az : axis f64) m n p M, libm_near kappa TT -> 0 <= kappa <= 1000 -> axis_usable ax -> axis_usable ay -> axis_usable az ->
  sampled3 kappa f ax ay az m n p M -> tiny <= M <= bpow radix2 600 -> let e := coef_err3 kappa m n p in e <= / 10 ->
  let s := cs3_compute_aijk (cs3_new f ax ay az m n p) in
  exists x y z : nat -> f64, (forall r, (r <= m)%nat -> near_node kappa ax m r (x r)) /\ (forall r, (r <= n)%nat -> near_node kappa ay n r (y r)) /\ (forall r, (r <= p)%nat -> near_node kappa az p r (z r)) /\
    (forall k i j, (k <= p)%nat -> (i <= m)%nat -> (j <= n)%nat -> within (8 * e * M) (c3_a s k i j)
       (weight m i * weight n j * weight p k * bsum (m + 1) (fun r => bsum (n + 1) (fun q => bsum (p + 1) (fun t => dvalue (f (x r) (y q) (z t)) * cheb i (node m r) * cheb j (node n q) * cheb k (node p t)))))) /\
    (forall g, (forall r q t, (r <= m)%nat -> (q <= n)%nat -> (t <= p)%nat -> bsum (m + 1) (fun a => bsum (n + 1) (fun b => bsum (p + 1) (fun c => g a b c * node m r ^ a * node n q ^ b * node p t ^ c))) = dvalue (f (x r) (y q) (z t))) ->
     forall u v w, usable ax u -> usable ay v -> usable az w -> let kx := axis_cond (axis_values ax) in let ky := axis_cond (axis_values ay) in let kz := axis_cond (axis_values az) in
     kx * uround <= / 2 -> ky * uround <= / 2 -> kz * uround <= / 2 -> let c := cheb_err m kx + cheb_err n ky + cheb_err p kz in c <= / 2 ->
     within (INR (m + 1) * INR (n + 1) * INR (p + 1) * (8 * e + 10 * c) * M) (cs3_evaluate s u v w)
       (bsum (m + 1) (fun a => bsum (n + 1) (fun b => bsum (p + 1) (fun c => g a b c * unit_of (axis_values ax) (dvalue u) ^ a * unit_of (axis_values ay) (dvalue v) ^ b * unit_of (axis_values az) (dvalue w) ^ c))))).
Proof.
  intros kappa TT f ax ay az m n p M HL HK HA HA' HA'' HS HM e HE s. exists (xs ax m), (xs ay n), (xs az p). assert (U := u_tiny).
  assert (C1 := coef_err_nonneg kappa m (proj1 HK)). assert (C2 := coef_err_nonneg kappa n (proj1 HK)). assert (C3 := coef_err_nonneg kappa p (proj1 HK)). assert (HE' := HE). unfold e, coef_err3 in HE'. rewrite uround_u53 in HE'.
  assert (NU : 0 <= INR ((m + 1) * (n + 1) * (p + 1)) * u53) by (apply Rmult_le_pos; [apply pos_INR|lra]). split; [|split; [|split; [|split]]].
  - intros r Hr. exact (seg_near kappa TT ax m r HL HK ltac:(lra) HA Hr).
  - intros r Hr. exact (seg_near kappa TT ay n r HL HK ltac:(lra) HA' Hr).
  - intros r Hr. exact (seg_near kappa TT az p r HL HK ltac:(lra) HA'' Hr).
  - exact (coef3_near kappa TT f ax ay az m n p M HL HK HA HA' HA'' HS HM HE).
  - exact (interp3 kappa TT f ax ay az m n p M HL HK HA HA' HA'' HS HM HE).
Qed.

(** ** The identity on [1, 5], order 1 *)
Definition seg15 : axis f64 := Closed (f64_ofZ 1) (f64_ofZ 5).
Lemma seg15_usable : axis_usable seg15.
Proof.
  destruct ex_usable as (F & _ & _ & M). split; [exact F|]. cbn [axis_values seg15]. split; [vz; lra|exact M].
Qed.
Lemma half1_usable : axis_usable (Opened (f64_ofZ 1)).
Proof.
  split; [exact (fin_ofZ 1 eq_refl)|]. cbn [axis_values]. vz. split; change 1 with (bpow radix2 0); apply bpow_le; lia.
Qed.
Lemma node10 : node 1 0 = cos (PI / 4).
Proof. change (cos (theta 1 0) = cos (PI / 4)). f_equal. unfold theta. simpl. field. Qed.
Lemma node11 : node 1 1 = - cos (PI / 4).
Proof. change (cos (theta 1 1) = - cos (PI / 4)). rewrite <- Rtrigo_facts.cos_pi_minus. f_equal. unfold theta. simpl. field. Qed.
Lemma cos4_sq : cos (PI / 4) * cos (PI / 4) = / 2 /\ 7 / 10 <= cos (PI / 4) <= 1.
Proof.
  rewrite cos_PI4. assert (S : sqrt 2 * sqrt 2 = 2) by (apply sqrt_sqrt; lra). assert (S0 := sqrt_lt_R0 2 ltac:(lra)).
  assert (S1 : 14 / 10 <= sqrt 2 <= 143 / 100) by nra. 
  assert (E : 1 / sqrt 2 = sqrt 2 / 2) by (apply (Rmult_eq_reg_r (sqrt 2)); [|lra]; unfold Rdiv; rewrite Rmult_1_l, Rinv_l by lra; lra).
  rewrite E. split; lra.
Qed.
Lemma ce21 : coef_err 2 1 = 432 * u53.
Proof. unfold coef_err. rewrite uround_u53. simpl. field. Qed.
Lemma tiny_8 (M : R) : 1 <= M <= 100 -> tiny <= M <= bpow radix2 600.
Proof. intros H. assert (T := tiny_small). split; [lra|]. apply Rle_trans with (bpow radix2 7); [simpl; lra|apply bpow_le; lia]. Qed.
Lemma near15 r v : (r <= 1)%nat -> near_node 2 seg15 1 r v -> is_finite v = true /\ Rabs (dvalue v - (2 * node 1 r + 3)) <= 230 * u53 /\ Rabs (dvalue v) <= 8.
Proof.
  intros Hr (F & E). split; [exact F|]. cbn [axis_values seg15 node_point] in E. revert E. vz. rewrite uround_u53, (Rabs_pos_eq 1), (Rabs_pos_eq 5), Rmax_right by lra. intros E.
  replace ((5 - 1) / 2 * node 1 r + (5 + 1) / 2) with (2 * node 1 r + 3) in E by field. assert (U := u_tiny). assert (N := node_abs 1 r Hr). apply Rabs_le_inv in N.
  split; [lra|]. apply Rabs_le_inv in E. apply Rabs_le. lra.
Qed.
Lemma ex_cc1 : let s := cs1_compute_ai (TT := exact_trig) (cs1_new (fun x => x) seg15 1) in
  Rabs (dvalue (c1_a s 0) - 3) <= / 10000000000 /\ Rabs (dvalue (c1_a s 1) - 2) <= / 10000000000 /\ Rabs (dvalue (cs1_evaluate s (f64_ofZ 4)) - 4) <= / 10000000000.
Proof.
  intros s. assert (U := u_tiny). destruct cos4_sq as (C2 & C1). assert (CE := ce21).
  assert (HS : sampled 2 (fun x => x) seg15 1 8) by (intros r v Hr Hv; destruct (near15 r v Hr Hv) as (F & _ & B); split; assumption).
  destruct (cc1_lemma 2 exact_trig (fun x => x) seg15 1 8 L_Rot64.exact_trig_near ltac:(lra) seg15_usable HS (tiny_8 8 ltac:(lra)) ltac:(rewrite CE; lra)) as (x & HX & HC & HI).
  destruct (near15 0 (x 0%nat) ltac:(lia) (HX 0%nat ltac:(lia))) as (_ & E0 & _). destruct (near15 1 (x 1%nat) ltac:(lia) (HX 1%nat ltac:(lia))) as (_ & E1 & _).
  rewrite node10 in E0. rewrite node11 in E1. destruct (HC 0%nat ltac:(lia)) as (_ & A0). destruct (HC 1%nat ltac:(lia)) as (_ & A1). fold s in A0, A1. rewrite CE in A0, A1.
  cbn [Nat.add bsum cheb weight INR] in A0, A1. rewrite node10, node11 in A1. set (c := cos (PI / 4)) in *. set (x0 := dvalue (x 0%nat)) in *. set (x1 := dvalue (x 1%nat)) in *.
  apply Rabs_le_inv in E0. apply Rabs_le_inv in E1. split; [|split].
  - apply Rabs_le_inv in A0. apply Rabs_le. lra.
  - apply Rabs_le_inv in A1. assert (B : Rabs ((x0 - x1) * c - (4 * c) * c) <= 460 * u53 * 1).
    { replace ((x0 - x1) * c - 4 * c * c) with ((x0 - x1 - 4 * c) * c) by ring. apply prod_bound; apply Rabs_le; lra. }
    apply Rabs_le_inv in B. apply Rabs_le. lra.
  - destruct (HI (fun l => match l with O => (x0 + x1) / 2 | _ => (x0 - x1) / (2 * c) end)) with (y := f64_ofZ 4) as (_ & EV).
    + intros r Hr. destruct r as [|[|]]; [| |lia]; cbn [Nat.add bsum pow]; rewrite ?node10, ?node11; fold c; [change (dvalue (x 0%nat)) with x0|change (dvalue (x 1%nat)) with x1]; field; lra.
    + exact ex_usable.
    + cbv zeta. change seg15 with (Closed (f64_ofZ 1) (f64_ofZ 5)). rewrite ex_axis_cond, uround_u53. lra.
    + change seg15 with (Closed (f64_ofZ 1) (f64_ofZ 5)). rewrite ex_axis_cond. unfold cheb_err. rewrite uround_u53. simpl. lra.
    + fold s in EV. rewrite CE in EV. change seg15 with (Closed (f64_ofZ 1) (f64_ofZ 5)) in EV at 1 2. rewrite ex_axis_cond, ex_unit in EV. unfold cheb_err in EV. rewrite uround_u53 in EV. cbn [Nat.add bsum pow INR] in EV.
      assert (B : Rabs ((x0 - x1) / (2 * c) - 2) <= 460 * u53 * 1).
      { replace ((x0 - x1) / (2 * c) - 2) with ((x0 - x1 - 4 * c) * / (2 * c)) by (field; lra). apply prod_bound; [apply Rabs_le; lra|]. rewrite Rabs_inv, Rabs_pos_eq by lra. apply Rle_trans with (/ 1); [apply Rinv_le_contravar; lra|lra]. }
      apply Rabs_le_inv in EV. apply Rabs_le_inv in B. apply Rabs_le. lra.
Qed.
(** ** The first coordinate on [1, 5] x [1, oo) and [1, 5] x [1, oo) x [1, 5], orders 1 *)
Definition half1 : axis f64 := Opened (f64_ofZ 1).
Lemma ex_cc2 : let s := cs2_compute_aij (TT := exact_trig) (cs2_new (fun x y => x) seg15 half1 1 1) in
  Rabs (dvalue (c2_a s 1 0) - 2) <= / 1000000000 /\ Rabs (dvalue (cs2_evaluate s (f64_ofZ 4) (f64_ofZ 4)) - 4) <= / 1000000000.
Proof.
  intros s. assert (U := u_tiny). destruct cos4_sq as (C2 & C1). assert (CE : coef_err2 2 1 1 = 864 * u53) by (unfold coef_err2; rewrite ce21; ring).
  assert (HS : sampled2 2 (fun x y => x) seg15 half1 1 1 8) by (intros r v Hr Hv r' v' _ _; destruct (near15 r v Hr Hv) as (F & _ & B); split; assumption).
  destruct (cc2_lemma 2 exact_trig (fun x y => x) seg15 half1 1 1 8 L_Rot64.exact_trig_near ltac:(lra) seg15_usable half1_usable HS (tiny_8 8 ltac:(lra)) ltac:(rewrite CE; lra)) as (x & y & HX & _ & HC & HI).
  destruct (near15 0 (x 0%nat) ltac:(lia) (HX 0%nat ltac:(lia))) as (_ & E0 & _). destruct (near15 1 (x 1%nat) ltac:(lia) (HX 1%nat ltac:(lia))) as (_ & E1 & _).
  rewrite node10 in E0. rewrite node11 in E1. destruct (HC 1%nat 0%nat ltac:(lia) ltac:(lia)) as (_ & A1). fold s in A1. rewrite CE in A1.
  cbn [Nat.add bsum cheb weight INR] in A1. rewrite node10, node11 in A1. set (c := cos (PI / 4)) in *. set (x0 := dvalue (x 0%nat)) in *. set (x1 := dvalue (x 1%nat)) in *.
  apply Rabs_le_inv in E0. apply Rabs_le_inv in E1. split.
  - apply Rabs_le_inv in A1. assert (B : Rabs ((x0 - x1) * c - (4 * c) * c) <= 460 * u53 * 1).
    { replace ((x0 - x1) * c - 4 * c * c) with ((x0 - x1 - 4 * c) * c) by ring. apply prod_bound; apply Rabs_le; lra. }
    apply Rabs_le_inv in B. apply Rabs_le. lra.
  - destruct (HI (fun k l => match l with O => match k with O => (x0 + x1) / 2 | _ => (x0 - x1) / (2 * c) end | _ => 0 end)) with (u := f64_ofZ 4) (v := f64_ofZ 4) as (_ & EV).
    + intros r q Hr Hq. destruct r as [|[|]]; [| |lia]; cbn [Nat.add bsum pow]; rewrite ?node10, ?node11; fold c; [change (dvalue (x 0%nat)) with x0|change (dvalue (x 1%nat)) with x1]; field; lra.
    + exact ex_usable.
    + exact ex_usable_o.
    + cbv zeta. change seg15 with (Closed (f64_ofZ 1) (f64_ofZ 5)). rewrite ex_axis_cond, uround_u53. lra.
    + cbn [half1 axis_values axis_cond]. rewrite uround_u53. lra.
    + cbn [half1 axis_values axis_cond]. change (seg15) with (Closed (f64_ofZ 1) (f64_ofZ 5)). fold (axis_cond (axis_values (Closed (f64_ofZ 1) (f64_ofZ 5)))). rewrite ex_axis_cond. unfold cheb_err. rewrite uround_u53. simpl. lra.
    + fold s in EV. rewrite CE in EV. change seg15 with (Closed (f64_ofZ 1) (f64_ofZ 5)) in EV at 1 2. rewrite ex_axis_cond, ex_unit in EV. change (axis_cond (axis_values half1)) with 4 in EV. unfold cheb_err in EV. rewrite uround_u53 in EV. cbn [Nat.add bsum pow INR] in EV.
      assert (B : Rabs ((x0 - x1) / (2 * c) - 2) <= 460 * u53 * 1).
      { replace ((x0 - x1) / (2 * c) - 2) with ((x0 - x1 - 4 * c) * / (2 * c)) by (field; lra). apply prod_bound; [apply Rabs_le; lra|]. rewrite Rabs_inv, Rabs_pos_eq by lra. apply Rle_trans with (/ 1); [apply Rinv_le_contravar; lra|lra]. }
      apply Rabs_le_inv in EV. apply Rabs_le_inv in B. apply Rabs_le. lra.
Qed.
Lemma ex_cc3 : let s := cs3_compute_aijk (TT := exact_trig) (cs3_new (fun x y z => x) seg15 half1 seg15 1 1 1) in
  Rabs (dvalue (c3_a s 0 1 0) - 2) <= / 1000000000 /\ Rabs (dvalue (cs3_evaluate s (f64_ofZ 4) (f64_ofZ 4) (f64_ofZ 4)) - 4) <= / 1000000000.
Proof.
  intros s. assert (U := u_tiny). destruct cos4_sq as (C2 & C1). assert (CE : coef_err3 2 1 1 1 = 1312 * u53) by (unfold coef_err3; rewrite ce21, uround_u53; simpl; ring).
  assert (HS : sampled3 2 (fun x y z => x) seg15 half1 seg15 1 1 1 8) by (intros r v Hr Hv r' v' _ _ r'' v'' _ _; destruct (near15 r v Hr Hv) as (F & _ & B); split; assumption).
  destruct (cc3_lemma 2 exact_trig (fun x y z => x) seg15 half1 seg15 1 1 1 8 L_Rot64.exact_trig_near ltac:(lra) seg15_usable half1_usable seg15_usable HS (tiny_8 8 ltac:(lra)) ltac:(rewrite CE; lra)) as (x & y & z & HX & _ & _ & HC & HI).
  destruct (near15 0 (x 0%nat) ltac:(lia) (HX 0%nat ltac:(lia))) as (_ & E0 & _). destruct (near15 1 (x 1%nat) ltac:(lia) (HX 1%nat ltac:(lia))) as (_ & E1 & _).
  rewrite node10 in E0. rewrite node11 in E1. destruct (HC 0%nat 1%nat 0%nat ltac:(lia) ltac:(lia) ltac:(lia)) as (_ & A1). fold s in A1. rewrite CE in A1.
  cbn [Nat.add bsum cheb weight INR] in A1. rewrite node10, node11 in A1. set (c := cos (PI / 4)) in *. set (x0 := dvalue (x 0%nat)) in *. set (x1 := dvalue (x 1%nat)) in *.
  apply Rabs_le_inv in E0. apply Rabs_le_inv in E1. split.
  - apply Rabs_le_inv in A1. assert (B : Rabs ((x0 - x1) * c - (4 * c) * c) <= 460 * u53 * 1).
    { replace ((x0 - x1) * c - 4 * c * c) with ((x0 - x1 - 4 * c) * c) by ring. apply prod_bound; apply Rabs_le; lra. }
    apply Rabs_le_inv in B. apply Rabs_le. lra.
  - destruct (HI (fun k l o => match l, o with O, O => match k with O => (x0 + x1) / 2 | _ => (x0 - x1) / (2 * c) end | _, _ => 0 end)) with (u := f64_ofZ 4) (v := f64_ofZ 4) (w := f64_ofZ 4) as (_ & EV).
    + intros r q t Hr Hq Ht. destruct r as [|[|]]; [| |lia]; cbn [Nat.add bsum pow]; rewrite ?node10, ?node11; fold c; [change (dvalue (x 0%nat)) with x0|change (dvalue (x 1%nat)) with x1]; field; lra.
    + exact ex_usable.
    + exact ex_usable_o.
    + exact ex_usable.
    + cbv zeta. change seg15 with (Closed (f64_ofZ 1) (f64_ofZ 5)). rewrite ex_axis_cond, uround_u53. lra.
    + cbn [half1 axis_values axis_cond]. rewrite uround_u53. lra.
    + cbv zeta. change seg15 with (Closed (f64_ofZ 1) (f64_ofZ 5)). rewrite ex_axis_cond, uround_u53. lra.
    + change (seg15) with (Closed (f64_ofZ 1) (f64_ofZ 5)). rewrite ex_axis_cond. change (axis_cond (axis_values half1)) with 4. unfold cheb_err. rewrite uround_u53. simpl. lra.
    + fold s in EV. rewrite CE in EV. change seg15 with (Closed (f64_ofZ 1) (f64_ofZ 5)) in EV at 1 2 3 4. rewrite ex_axis_cond, ex_unit in EV. change (axis_cond (axis_values half1)) with 4 in EV. unfold cheb_err in EV. rewrite uround_u53 in EV. cbn [Nat.add bsum pow INR] in EV.
      assert (B : Rabs ((x0 - x1) / (2 * c) - 2) <= 460 * u53 * 1).
      { replace ((x0 - x1) / (2 * c) - 2) with ((x0 - x1 - 4 * c) * / (2 * c)) by (field; lra). apply prod_bound; [apply Rabs_le; lra|]. rewrite Rabs_inv, Rabs_pos_eq by lra. apply Rle_trans with (/ 1); [apply Rinv_le_contravar; lra|lra]. }
      apply Rabs_le_inv in EV. apply Rabs_le_inv in B. apply Rabs_le. lra.
Qed.
