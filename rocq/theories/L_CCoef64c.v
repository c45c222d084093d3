(** Interpolation by Chebyshev series in binary64. *)
From Coq Require Import List Arith ZArith Reals Bool Lia Lra Psatz.
From Flocq Require Import Core.Core IEEE754.BinarySingleNaN.
From Verif Require Import Outcome Num NumFun F64 L_F64 L_Linspace64 L_F64Err M_Series S_Series L_Series S_Angles S_Double S_Rot64 L_Series64
  L_Interp64 L_Special64 L_Apx M_Cheb S_Cheb L_Cheb L_Cheb2 L_Cheb3 S_Ser64 L_Ser64 L_E1d S_Der64 L_Der64 S_DCheb64 L_DCheb64 S_CCoef64 L_CCoef64 L_CCoef64b.
Import ListNotations.
Local Open Scope R_scope.

(** ** Exactness on polynomials of the unit coordinate *)
Definition unit_axis : axis R := Closed (-1) 1.
Lemma unit_reg t : regular unit_axis t.
Proof. cbn. lra. Qed.
Lemma unit_id t : unit_of unit_axis t = t.
Proof. unfold unit_of, unit_axis, segment_unit. field. Qed.
Lemma unit_to t : to_unit unit_axis t = t.
Proof. rewrite unit_of_ok by apply unit_reg. apply unit_id. Qed.
Lemma unit_seg n r : (r < n + 1)%nat -> seg unit_axis n r = node n r.
Proof. intros H. destruct (seg_node unit_axis n r ltac:(cbn; lra) H) as (_ & E). rewrite unit_id in E. exact E. Qed.
Lemma poly1_id n (g : nat -> R) t :
  bsum (n + 1) (fun i => weight n i * bsum (n + 1) (fun r => bsum (n + 1) (fun l => g l * node n r ^ l) * cheb i (node n r)) * cheb i t) = bsum (n + 1) (fun l => g l * t ^ l).
Proof.
  assert (H := exact_poly1 (fun x => bsum (n + 1) (fun l => g l * x ^ l)) unit_axis n t ltac:(cbn; lra) ltac:(exists g; intros; reflexivity) (unit_reg t)).
  rewrite <- H, eval1. cbn [c1_n c1_x cs1_compute_ai cs1_new]. apply bsum_ext. intros i _. rewrite unit_to. f_equal.
  rewrite (coef1 (cs1_new (fun x => bsum (n + 1) (fun l => g l * x ^ l)) unit_axis n) i). cbn [c1_a c1_f c1_x c1_n cs1_new]. rewrite Rplus_0_l, Rmult_comm. f_equal. apply bsum_ext. intros r Hr.
  rewrite unit_seg by exact Hr. reflexivity.
Qed.
Lemma poly2_id m n (g : nat -> nat -> R) t u :
  bsum (m + 1) (fun i => bsum (n + 1) (fun j => weight m i * weight n j * bsum (m + 1) (fun r => bsum (n + 1) (fun s =>
    bsum (m + 1) (fun k => bsum (n + 1) (fun l => g k l * node m r ^ k * node n s ^ l)) * cheb i (node m r) * cheb j (node n s))) * cheb j u) * cheb i t) = bsum (m + 1) (fun k => bsum (n + 1) (fun l => g k l * t ^ k * u ^ l)).
Proof.
  set (F := fun x y => bsum (m + 1) (fun k => bsum (n + 1) (fun l => g k l * x ^ k * y ^ l))).
  assert (H := exact_poly2 F unit_axis unit_axis m n t u ltac:(cbn; lra) ltac:(cbn; lra) ltac:(exists g; intros; reflexivity) (unit_reg t) (unit_reg u)).
  change (bsum (m + 1) (fun k => bsum (n + 1) (fun l => g k l * t ^ k * u ^ l))) with (F t u). rewrite <- H, eval2. cbn [c2_m c2_n c2_x c2_y cs2_compute_aij cs2_new]. apply bsum_ext. intros i _.
  rewrite <- bsum_scal_r. apply bsum_ext. intros j _. rewrite !unit_to.
  assert (E := coef2 (cs2_new F unit_axis unit_axis m n) i j). cbn [c2_a c2_f c2_x c2_y c2_m c2_n cs2_new] in E. change (nofZ 0 : R) with 0 in E. rewrite Rplus_0_l in E.
  transitivity (c2_a (cs2_compute_aij (cs2_new F unit_axis unit_axis m n)) i j * cheb i t * cheb j u); [|reflexivity].
  rewrite E. rewrite (bsum_ext (m + 1) (fun r => bsum (n + 1) (fun t0 => F (seg unit_axis m r) (seg unit_axis n t0) * cheb i (node m r) * cheb j (node n t0)))
    (fun r => bsum (n + 1) (fun s => F (node m r) (node n s) * cheb i (node m r) * cheb j (node n s)))).
  - unfold F. ring.
  - intros r Hr. apply bsum_ext. intros s Hs. rewrite !unit_seg by assumption. reflexivity.
Qed.
Lemma poly3_id m n p (g : nat -> nat -> nat -> R) t u w :
  bsum (m + 1) (fun i => bsum (n + 1) (fun j => bsum (p + 1) (fun k => weight m i * weight n j * weight p k * bsum (m + 1) (fun r => bsum (n + 1) (fun s => bsum (p + 1) (fun q =>
    bsum (m + 1) (fun a => bsum (n + 1) (fun b => bsum (p + 1) (fun c => g a b c * node m r ^ a * node n s ^ b * node p q ^ c))) * cheb i (node m r) * cheb j (node n s) * cheb k (node p q)))) * cheb k w) * cheb j u) * cheb i t)
  = bsum (m + 1) (fun a => bsum (n + 1) (fun b => bsum (p + 1) (fun c => g a b c * t ^ a * u ^ b * w ^ c))).
Proof.
  set (F := fun x y z => bsum (m + 1) (fun a => bsum (n + 1) (fun b => bsum (p + 1) (fun c => g a b c * x ^ a * y ^ b * z ^ c)))).
  assert (H := exact_poly3 F unit_axis unit_axis unit_axis m n p t u w ltac:(cbn; lra) ltac:(cbn; lra) ltac:(cbn; lra) ltac:(exists g; intros; reflexivity) (unit_reg t) (unit_reg u) (unit_reg w)).
  change (bsum (m + 1) (fun a => bsum (n + 1) (fun b => bsum (p + 1) (fun c => g a b c * t ^ a * u ^ b * w ^ c)))) with (F t u w). rewrite <- H, eval3. cbn [c3_m c3_n c3_p c3_x c3_y c3_z cs3_compute_aijk cs3_new]. apply bsum_ext. intros i _.
  rewrite <- bsum_scal_r. apply bsum_ext. intros j _. rewrite <- !bsum_scal_r. apply bsum_ext. intros k _. rewrite !unit_to.
  assert (E := coef3_ok (cs3_new F unit_axis unit_axis unit_axis m n p) k i j). cbn [c3_a c3_f c3_x c3_y c3_z c3_m c3_n c3_p cs3_new] in E. change (nofZ 0 : R) with 0 in E. rewrite Rplus_0_l in E.
  transitivity (c3_a (cs3_compute_aijk (cs3_new F unit_axis unit_axis unit_axis m n p)) k i j * cheb i t * cheb j u * cheb k w); [|reflexivity].
  rewrite E. rewrite (bsum_ext (m + 1) (fun r => bsum (n + 1) (fun t0 => bsum (p + 1) (fun q => F (seg unit_axis m r) (seg unit_axis n t0) (seg unit_axis p q) * cheb i (node m r) * cheb j (node n t0) * cheb k (node p q))))
    (fun r => bsum (n + 1) (fun s => bsum (p + 1) (fun q => F (node m r) (node n s) (node p q) * cheb i (node m r) * cheb j (node n s) * cheb k (node p q))))).
  - unfold F. ring.
  - intros r Hr. apply bsum_ext. intros s Hs. apply bsum_ext. intros q Hq. rewrite !unit_seg by assumption. reflexivity.
Qed.

(** ** Bounds on sums *)
Lemma bsum_bound n (f : nat -> R) c : (forall i, (i < n)%nat -> Rabs (f i) <= c) -> Rabs (bsum n f) <= INR n * c.
Proof.
  intros H. apply Rle_trans with (1 := bsum_abs n f). rewrite <- (bsum_const c n). induction n as [|n IH]; [cbn; lra|]. cbn [bsum].
  assert (X := H n ltac:(lia)). assert (Y := IH ltac:(intros; apply H; lia)). lra.
Qed.
Lemma bsum_diff n f g : bsum n f - bsum n g = bsum n (fun i => f i - g i).
Proof. induction n as [|n IH]; cbn [bsum]; [ring|]. rewrite <- IH. ring. Qed.
Lemma weight_bound n i : 0 < weight n i /\ weight n i * INR (n + 1) <= 2.
Proof.
  assert (N := one_np n). rewrite plus_INR in *. change (INR 1) with 1 in *. destruct i; cbn [weight]; (split; [apply Rdiv_lt_0_compat; lra|]).
  - replace (1 / (INR n + 1) * (INR n + 1)) with 1 by (field; lra). lra.
  - replace (2 / (INR n + 1) * (INR n + 1)) with 2 by (field; lra). lra.
Qed.
Lemma prod_bound a b A B : Rabs a <= A -> Rabs b <= B -> Rabs (a * b) <= A * B.
Proof. intros H K. rewrite Rabs_mult. apply Rmult_le_compat; try apply Rabs_pos; assumption. Qed.
Lemma near_abs (x A e B : R) : Rabs (x - A) <= e -> Rabs A <= B -> Rabs x <= B + e.
Proof. intros H K. replace x with ((x - A) + A) by ring. apply Rle_trans with (1 := Rabs_triang _ _). lra. Qed.
Lemma nm_huge N M : N <= bpow radix2 53 -> 0 <= N -> 0 <= M <= bpow radix2 600 -> 10 * (N * M) <= huge.
Proof.
  intros H H0 HM. assert (N * M <= bpow radix2 53 * bpow radix2 600) by (apply Rmult_le_compat; lra). rewrite <- bpow_plus in H1.
  assert (16 * bpow radix2 (53 + 600) <= huge) by (unfold huge; change 16 with (bpow radix2 4); rewrite <- bpow_plus; apply bpow_le; lia). assert (P := bpow_ge_0 radix2 (53 + 600)). lra.
Qed.
Lemma cheb_err_nonneg n k : 0 <= k -> 0 <= cheb_err n k.
Proof. intros H. assert (X := rerr_cheb n k H). lra. Qed.

(** ** One variable *)
Lemma interp1 kappa (TT : NumTr f64) (f : f64 -> f64) (a : axis f64) n M : libm_near kappa TT -> 0 <= kappa <= 1000 -> axis_usable a -> sampled kappa f a n M -> tiny <= M <= bpow radix2 600 ->
  coef_err kappa n <= / 10 -> forall g, (forall r, (r <= n)%nat -> bsum (n + 1) (fun l => g l * node n r ^ l) = dvalue (f (xs a n r))) ->
  forall y, usable a y -> let k := axis_cond (axis_values a) in k * uround <= / 2 -> cheb_err n k <= / 2 ->
  within (INR (n + 1) * (2 * coef_err kappa n + 4 * cheb_err n k) * M) (cs1_evaluate (cs1_compute_ai (cs1_new f a n)) y) (bsum (n + 1) (fun l => g l * unit_of (axis_values a) (dvalue y) ^ l)).
Proof.
  intros HL HK HA HS HM HE g Hg y Hy k Hk HC. assert (U := u_tiny). assert (TP := proj1 tiny_big600). assert (N1 := one_np n).
  assert (C0 := coef_err_nonneg kappa n (proj1 HK)). destruct (unit_f a y Hy ltac:(rewrite uround_u53 in Hk; fold k; lra)) as (_ & _ & Ht & K0). fold k in K0. assert (C1 := cheb_err_nonneg n k K0).
  set (t := unit_of (axis_values a) (val y)) in *. change (unit_of (axis_values a) (dvalue y)) with t.
  set (c := c1_a (cs1_compute_ai (cs1_new f a n))). set (S0 := fun i => bsum (n + 1) (fun r => val (f (xs a n r)) * cheb i (node n r))).
  assert (CN : forall i, (i <= n)%nat -> within (2 * coef_err kappa n * M) (c i) (weight n i * S0 i)) by (intros i Hi; apply (coef1_near kappa TT f a n M HL HK HA HS HM HE i Hi)).
  assert (FX : forall r, (r <= n)%nat -> Rabs (val (f (xs a n r))) <= M) by (intros r Hr; apply (HS r (xs a n r) Hr (seg_near kappa TT a n r HL HK HE HA Hr))).
  assert (AB : forall i, (i <= n)%nat -> Rabs (weight n i * S0 i) <= 2 * M).
  { intros i Hi. destruct (weight_bound n i) as (W0 & W1). rewrite Rabs_mult, (Rabs_pos_eq (weight n i)) by lra.
    assert (B : Rabs (S0 i) <= INR (n + 1) * M).
    { apply bsum_bound. intros r Hr. replace M with (M * 1) by ring. apply prod_bound; [apply FX; lia|]. apply cheb_abs, node_abs. lia. }
    apply Rle_trans with (weight n i * (INR (n + 1) * M)); [apply Rmult_le_compat_l; lra|]. rewrite <- Rmult_assoc. apply Rmult_le_compat_r; lra. }
  assert (CM : 2 * coef_err kappa n * M <= / 5 * M) by (apply Rmult_le_compat_r; lra).
  assert (CB : forall i, (i <= n)%nat -> Rabs (val (c i)) <= 22 / 10 * M) by (intros i Hi; destruct (CN i Hi) as (_ & E); unfold dvalue in E; assert (X := near_abs _ _ _ _ E (AB i Hi)); lra).
  set (S := bsum (n + 1) (fun i => Rabs (dvalue (c i)))).
  assert (SB : S <= INR (n + 1) * (22 / 10 * M)).
  { apply Rle_trans with (Rabs S); [apply Rle_abs|]. apply bsum_bound. intros i Hi. rewrite Rabs_Rabsolu. apply CB. lia. }
  assert (NM0 : 1 * M <= INR (n + 1) * M) by (apply Rmult_le_compat_r; lra).
  assert (HG : 10 * (INR (n + 1) * M) <= huge).
  { apply nm_huge; try lra. apply Rle_trans with (1 := order_small kappa n (proj1 HK) HE). apply bpow_le. lia. }
  destruct (cs1_double_lemma f a n c y Hy (fun i Hi => proj1 (CN i Hi)) ltac:(fold S; lra) Hk HC) as (FV & EV). fold S k in EV.
  change (cs1_evaluate (mkCS1 f a n c) y) with (cs1_evaluate (cs1_compute_ai (cs1_new f a n)) y) in FV, EV. split; [exact FV|].
  change (unit_of (axis_values a) (dvalue y)) with t in EV. set (v := dvalue (cs1_evaluate (cs1_compute_ai (cs1_new f a n)) y)) in *.
  rewrite <- (poly1_id n g t).
  rewrite (bsum_ext (n + 1) (fun i => weight n i * bsum (n + 1) (fun r => bsum (n + 1) (fun l => g l * node n r ^ l) * cheb i (node n r)) * cheb i t) (fun i => weight n i * S0 i * cheb i t)).
  2: { intros i Hi. do 2 f_equal. unfold S0. apply bsum_ext. intros r Hr. rewrite Hg by lia. reflexivity. }
  set (P := bsum (n + 1) (fun i => dvalue (c i) * cheb i t)) in *. set (Q := bsum (n + 1) (fun i => weight n i * S0 i * cheb i t)).
  assert (PQ : Rabs (P - Q) <= INR (n + 1) * (2 * coef_err kappa n * M)).
  { unfold P, Q. rewrite bsum_diff. apply bsum_bound. intros i Hi. replace (dvalue (c i) * cheb i t - weight n i * S0 i * cheb i t) with ((dvalue (c i) - weight n i * S0 i) * cheb i t) by ring.
    replace (2 * coef_err kappa n * M) with (2 * coef_err kappa n * M * 1) by ring. apply prod_bound; [apply (CN i ltac:(lia))|apply cheb_abs, Ht]. }
  replace (v - Q) with ((v - P) + (P - Q)) by ring. apply Rle_trans with (1 := Rabs_triang _ _).
  assert (cheb_err n k * (S + tiny) <= cheb_err n k * (4 * (INR (n + 1) * M))) by (apply Rmult_le_compat_l; lra). lra.
Qed.

(** ** Two variables *)
Lemma bsum2_bound m n (f : nat -> nat -> R) c : (forall i j, (i < m)%nat -> (j < n)%nat -> Rabs (f i j) <= c) -> Rabs (bsum m (fun i => bsum n (fun j => f i j))) <= INR m * INR n * c.
Proof. intros H. rewrite Rmult_assoc. apply bsum_bound. intros i Hi. apply bsum_bound. intros j Hj. apply H; assumption. Qed.
Lemma bsum2_diff m n f g : bsum m (fun i => bsum n (fun j => f i j)) - bsum m (fun i => bsum n (fun j => g i j)) = bsum m (fun i => bsum n (fun j => f i j - g i j)).
Proof. rewrite bsum_diff. apply bsum_ext. intros i _. apply bsum_diff. Qed.
Lemma bsum3_bound m n p (f : nat -> nat -> nat -> R) c : (forall i j k, (i < m)%nat -> (j < n)%nat -> (k < p)%nat -> Rabs (f i j k) <= c) ->
  Rabs (bsum m (fun i => bsum n (fun j => bsum p (fun k => f i j k)))) <= INR m * INR n * INR p * c.
Proof. intros H. rewrite (Rmult_assoc (INR m * INR n)). apply bsum2_bound. intros i j Hi Hj. apply bsum_bound. intros k Hk. apply H; assumption. Qed.
Lemma bsum3_diff m n p f g : bsum m (fun i => bsum n (fun j => bsum p (fun k => f i j k))) - bsum m (fun i => bsum n (fun j => bsum p (fun k => g i j k))) = bsum m (fun i => bsum n (fun j => bsum p (fun k => f i j k - g i j k))).
Proof. rewrite bsum2_diff. apply bsum_ext. intros i _. apply bsum_ext. intros j _. apply bsum_diff. Qed.
Lemma w2_bound m n i j X M : Rabs X <= INR (m + 1) * INR (n + 1) * M -> 0 <= M -> Rabs (weight m i * weight n j * X) <= 4 * M.
Proof.
  intros H HM. destruct (weight_bound m i) as (W0 & W1). destruct (weight_bound n j) as (V0 & V1). assert (A := one_np m). assert (B := one_np n).
  assert (P := Rmult_lt_0_compat _ _ W0 V0). rewrite Rabs_mult, (Rabs_pos_eq (weight m i * weight n j)) by lra.
  apply Rle_trans with (weight m i * weight n j * (INR (m + 1) * INR (n + 1) * M)); [apply Rmult_le_compat_l; lra|].
  replace (weight m i * weight n j * (INR (m + 1) * INR (n + 1) * M)) with (weight m i * INR (m + 1) * (weight n j * INR (n + 1)) * M) by ring. apply Rmult_le_compat_r; [exact HM|].
  replace 4 with (2 * 2) by ring. apply Rmult_le_compat; try assumption; apply Rmult_le_pos; lra.
Qed.
Lemma w3_bound m n p i j k X M : Rabs X <= INR (m + 1) * INR (n + 1) * INR (p + 1) * M -> 0 <= M -> Rabs (weight m i * weight n j * weight p k * X) <= 8 * M.
Proof.
  intros H HM. destruct (weight_bound p k) as (W0 & W1). assert (A := one_np p). 
  replace (weight m i * weight n j * weight p k * X) with (weight m i * weight n j * (weight p k * X)) by ring.
  apply Rle_trans with (4 * (2 * M)); [|lra]. apply w2_bound; [|lra]. rewrite Rabs_mult, (Rabs_pos_eq (weight p k)) by lra.
  apply Rle_trans with (weight p k * (INR (m + 1) * INR (n + 1) * INR (p + 1) * M)); [apply Rmult_le_compat_l; lra|].
  replace (weight p k * (INR (m + 1) * INR (n + 1) * INR (p + 1) * M)) with (INR (m + 1) * INR (n + 1) * M * (weight p k * INR (p + 1))) by ring.
  replace (INR (m + 1) * INR (n + 1) * (2 * M)) with (INR (m + 1) * INR (n + 1) * M * 2) by ring. apply Rmult_le_compat_l; [|exact W1].
  apply Rmult_le_pos; [|exact HM]. apply Rmult_le_pos; apply pos_INR.
Qed.
Lemma interp2 kappa (TT : NumTr f64) (f : f64 -> f64 -> f64) (ax ay : axis f64) m n M : libm_near kappa TT -> 0 <= kappa <= 1000 -> axis_usable ax -> axis_usable ay ->
  sampled2 kappa f ax ay m n M -> tiny <= M <= bpow radix2 600 -> coef_err2 kappa m n <= / 10 ->
  forall g, (forall r s, (r <= m)%nat -> (s <= n)%nat -> bsum (m + 1) (fun k => bsum (n + 1) (fun l => g k l * node m r ^ k * node n s ^ l)) = dvalue (f (xs ax m r) (xs ay n s))) ->
  forall x y, usable ax x -> usable ay y -> let kx := axis_cond (axis_values ax) in let ky := axis_cond (axis_values ay) in kx * uround <= / 2 -> ky * uround <= / 2 -> cheb_err m kx + cheb_err n ky <= / 2 ->
  within (INR (m + 1) * INR (n + 1) * (4 * coef_err2 kappa m n + 6 * (cheb_err m kx + cheb_err n ky)) * M) (cs2_evaluate (cs2_compute_aij (cs2_new f ax ay m n)) x y)
    (bsum (m + 1) (fun k => bsum (n + 1) (fun l => g k l * unit_of (axis_values ax) (dvalue x) ^ k * unit_of (axis_values ay) (dvalue y) ^ l))).
Proof.
  intros HL HK HA HA' HS HM HE2 g Hg x y Hx Hy kx ky Hkx Hky HC. assert (U := u_tiny). assert (TP := proj1 tiny_big600). assert (N1 := one_np m). assert (N1' := one_np n).
  assert (C0 := coef_err_nonneg kappa m (proj1 HK)). assert (C0' := coef_err_nonneg kappa n (proj1 HK)).
  assert (HE : coef_err kappa m <= / 10) by (unfold coef_err2 in HE2; lra). assert (HE' : coef_err kappa n <= / 10) by (unfold coef_err2 in HE2; lra).
  assert (CE0 : 0 <= coef_err2 kappa m n) by (unfold coef_err2; lra). set (ce := coef_err2 kappa m n) in *.
  destruct (unit_f ax x Hx ltac:(rewrite uround_u53 in Hkx; fold kx; lra)) as (_ & _ & Ht & K0). fold kx in K0. assert (C1 := cheb_err_nonneg m kx K0).
  destruct (unit_f ay y Hy ltac:(rewrite uround_u53 in Hky; fold ky; lra)) as (_ & _ & Hw & K0'). fold ky in K0'. assert (C1' := cheb_err_nonneg n ky K0').
  set (t := unit_of (axis_values ax) (val x)) in *. change (unit_of (axis_values ax) (dvalue x)) with t. set (w := unit_of (axis_values ay) (val y)) in *. change (unit_of (axis_values ay) (dvalue y)) with w.
  set (c := c2_a (cs2_compute_aij (cs2_new f ax ay m n))). set (S0 := fun i j => bsum (m + 1) (fun r => bsum (n + 1) (fun s => val (f (xs ax m r) (xs ay n s)) * cheb i (node m r) * cheb j (node n s)))).
  assert (CN : forall i j, (i <= m)%nat -> (j <= n)%nat -> within (4 * ce * M) (c i j) (weight m i * weight n j * S0 i j)) by (intros i j Hi Hj; apply (coef2_near kappa TT f ax ay m n M HL HK HA HA' HS HM HE2 i j Hi Hj)).
  assert (FX : forall r s, (r <= m)%nat -> (s <= n)%nat -> Rabs (val (f (xs ax m r) (xs ay n s))) <= M)
    by (intros r s Hr Hs; apply (HS r (xs ax m r) Hr (seg_near kappa TT ax m r HL HK HE HA Hr) s (xs ay n s) Hs (seg_near kappa TT ay n s HL HK HE' HA' Hs))).
  assert (AB : forall i j, (i <= m)%nat -> (j <= n)%nat -> Rabs (weight m i * weight n j * S0 i j) <= 4 * M).
  { intros i j Hi Hj. apply w2_bound; [|lra]. apply bsum2_bound. intros r s Hr Hs. replace M with (M * 1 * 1) by ring.
    apply prod_bound; [apply prod_bound; [apply FX; lia|]|]; apply cheb_abs, node_abs; lia. }
  assert (CM : 4 * ce * M <= 4 / 10 * M) by (apply Rmult_le_compat_r; lra).
  assert (CB : forall i j, (i <= m)%nat -> (j <= n)%nat -> Rabs (val (c i j)) <= 44 / 10 * M) by (intros i j Hi Hj; destruct (CN i j Hi Hj) as (_ & E); unfold dvalue in E; assert (X := near_abs _ _ _ _ E (AB i j Hi Hj)); lra).
  set (S := bsum (m + 1) (fun i => bsum (n + 1) (fun j => Rabs (dvalue (c i j))))). set (N := INR (m + 1) * INR (n + 1)) in *.
  assert (SB : S <= N * (44 / 10 * M)).
  { apply Rle_trans with (Rabs S); [apply Rle_abs|]. apply bsum2_bound. intros i j Hi Hj. rewrite Rabs_Rabsolu. apply CB; lia. }
  assert (NL : INR (m + 1) * 1 <= N) by (apply Rmult_le_compat_l; lra).
  assert (NM0 : INR (m + 1) * M <= N * M) by (apply Rmult_le_compat_r; lra). assert (MT : INR (m + 1) * tiny <= INR (m + 1) * M) by (apply Rmult_le_compat_l; lra).
  assert (MP : 0 <= INR (m + 1) * M) by (apply Rmult_le_pos; lra).
  assert (HG : 10 * (N * M) <= huge).
  { apply nm_huge; try lra. apply Rle_trans with (bpow radix2 26 * bpow radix2 26).
    - apply Rmult_le_compat; try lra; [apply (order_small kappa m (proj1 HK) HE)|apply (order_small kappa n (proj1 HK) HE')].
    - rewrite <- bpow_plus. apply bpow_le. lia. }
  destruct (cs2_double_lemma f ax ay m n c x y Hx Hy (fun i j Hi Hj => proj1 (CN i j Hi Hj)) ltac:(fold S; lra) Hkx Hky HC) as (FV & EV). fold S kx ky in EV.
  change (cs2_evaluate (mkCS2 f ax ay m n c) x y) with (cs2_evaluate (cs2_compute_aij (cs2_new f ax ay m n)) x y) in FV, EV. split; [exact FV|].
  change (unit_of (axis_values ax) (dvalue x)) with t in EV. change (unit_of (axis_values ay) (dvalue y)) with w in EV. set (v := dvalue (cs2_evaluate (cs2_compute_aij (cs2_new f ax ay m n)) x y)) in *.
  rewrite <- (poly2_id m n g t w).
  set (P := bsum (m + 1) (fun i => bsum (n + 1) (fun j => dvalue (c i j) * cheb j w) * cheb i t)) in *.
  assert (PE : P = bsum (m + 1) (fun i => bsum (n + 1) (fun j => dvalue (c i j) * cheb j w * cheb i t))) by (unfold P; apply bsum_ext; intros i _; rewrite <- bsum_scal_r; reflexivity).
  match goal with |- Rabs (v - ?q) <= _ => set (Q := q) end.
  assert (QE : Q = bsum (m + 1) (fun i => bsum (n + 1) (fun j => weight m i * weight n j * S0 i j * cheb j w * cheb i t))).
  { unfold Q. apply bsum_ext. intros i Hi. rewrite <- bsum_scal_r. apply bsum_ext. intros j Hj. do 3 f_equal. unfold S0. apply bsum_ext. intros r Hr. apply bsum_ext. intros s Hs. rewrite Hg by lia. reflexivity. }
  assert (PQ : Rabs (P - Q) <= N * (4 * ce * M)).
  { rewrite PE, QE, bsum2_diff. apply bsum2_bound. intros i j Hi Hj. replace (dvalue (c i j) * cheb j w * cheb i t - weight m i * weight n j * S0 i j * cheb j w * cheb i t) with ((dvalue (c i j) - weight m i * weight n j * S0 i j) * cheb j w * cheb i t) by ring.
    replace (4 * ce * M) with (4 * ce * M * 1 * 1) by ring. apply prod_bound; [apply prod_bound; [apply (CN i j ltac:(lia) ltac:(lia))|apply cheb_abs, Hw]|apply cheb_abs, Ht]. }
  replace (v - Q) with ((v - P) + (P - Q)) by ring. apply Rle_trans with (1 := Rabs_triang _ _).
  assert ((cheb_err m kx + cheb_err n ky) * (S + INR (m + 1) * tiny) <= (cheb_err m kx + cheb_err n ky) * (6 * (N * M))) by (apply Rmult_le_compat_l; lra). lra.
Qed.

(** ** Three variables *)
Lemma interp3 kappa (TT : NumTr f64) (f : f64 -> f64 -> f64 -> f64) (ax ay az : axis f64) m n p M : libm_near kappa TT -> 0 <= kappa <= 1000 -> axis_usable ax -> axis_usable ay -> axis_usable az ->
  sampled3 kappa f ax ay az m n p M -> tiny <= M <= bpow radix2 600 -> coef_err3 kappa m n p <= / 10 ->
  forall g, (forall r s q, (r <= m)%nat -> (s <= n)%nat -> (q <= p)%nat -> bsum (m + 1) (fun a => bsum (n + 1) (fun b => bsum (p + 1) (fun c => g a b c * node m r ^ a * node n s ^ b * node p q ^ c))) = dvalue (f (xs ax m r) (xs ay n s) (xs az p q))) ->
  forall x y z, usable ax x -> usable ay y -> usable az z -> let kx := axis_cond (axis_values ax) in let ky := axis_cond (axis_values ay) in let kz := axis_cond (axis_values az) in
  kx * uround <= / 2 -> ky * uround <= / 2 -> kz * uround <= / 2 -> let err := cheb_err m kx + cheb_err n ky + cheb_err p kz in err <= / 2 ->
  within (INR (m + 1) * INR (n + 1) * INR (p + 1) * (8 * coef_err3 kappa m n p + 10 * err) * M) (cs3_evaluate (cs3_compute_aijk (cs3_new f ax ay az m n p)) x y z)
    (bsum (m + 1) (fun a => bsum (n + 1) (fun b => bsum (p + 1) (fun c => g a b c * unit_of (axis_values ax) (dvalue x) ^ a * unit_of (axis_values ay) (dvalue y) ^ b * unit_of (axis_values az) (dvalue z) ^ c)))).
Proof.
  intros HL HK HA HA' HA'' HS HM HE3 g Hg x y z Hx Hy Hz kx ky kz Hkx Hky Hkz err HC. assert (U := u_tiny). assert (TP := proj1 tiny_big600). assert (N1 := one_np m). assert (N1' := one_np n). assert (N1'' := one_np p).
  assert (C0 := coef_err_nonneg kappa m (proj1 HK)). assert (C0' := coef_err_nonneg kappa n (proj1 HK)). assert (C0'' := coef_err_nonneg kappa p (proj1 HK)).
  assert (NU : 0 <= INR ((m + 1) * (n + 1) * (p + 1)) * u53) by (apply Rmult_le_pos; [apply pos_INR|lra]).
  assert (HH : coef_err kappa m <= / 10 /\ coef_err kappa n <= / 10 /\ coef_err kappa p <= / 10 /\ INR ((m + 1) * (n + 1) * (p + 1)) * u53 <= / 20 /\ 0 <= coef_err3 kappa m n p) by (unfold coef_err3 in *; rewrite uround_u53 in *; lra).
  destruct HH as (HE & HE' & HE'' & HNU & CE0). set (ce := coef_err3 kappa m n p) in *.
  destruct (unit_f ax x Hx ltac:(rewrite uround_u53 in Hkx; fold kx; lra)) as (_ & _ & Ht & K0). fold kx in K0. assert (C1 := cheb_err_nonneg m kx K0).
  destruct (unit_f ay y Hy ltac:(rewrite uround_u53 in Hky; fold ky; lra)) as (_ & _ & Hw & K0'). fold ky in K0'. assert (C1' := cheb_err_nonneg n ky K0').
  destruct (unit_f az z Hz ltac:(rewrite uround_u53 in Hkz; fold kz; lra)) as (_ & _ & Hq & K0''). fold kz in K0''. assert (C1'' := cheb_err_nonneg p kz K0'').
  assert (ER0 : 0 <= err) by (unfold err; lra).
  set (t := unit_of (axis_values ax) (val x)) in *. change (unit_of (axis_values ax) (dvalue x)) with t. set (w := unit_of (axis_values ay) (val y)) in *. change (unit_of (axis_values ay) (dvalue y)) with w.
  set (q := unit_of (axis_values az) (val z)) in *. change (unit_of (axis_values az) (dvalue z)) with q.
  set (c := c3_a (cs3_compute_aijk (cs3_new f ax ay az m n p))).
  set (S0 := fun i j k => bsum (m + 1) (fun r => bsum (n + 1) (fun s => bsum (p + 1) (fun t => val (f (xs ax m r) (xs ay n s) (xs az p t)) * cheb i (node m r) * cheb j (node n s) * cheb k (node p t))))).
  assert (CN : forall k i j, (k <= p)%nat -> (i <= m)%nat -> (j <= n)%nat -> within (8 * ce * M) (c k i j) (weight m i * weight n j * weight p k * S0 i j k))
    by (intros k i j Hk Hi Hj; apply (coef3_near kappa TT f ax ay az m n p M HL HK HA HA' HA'' HS HM HE3 k i j Hk Hi Hj)).
  assert (FX : forall r s t, (r <= m)%nat -> (s <= n)%nat -> (t <= p)%nat -> Rabs (val (f (xs ax m r) (xs ay n s) (xs az p t))) <= M)
    by (intros r s t' Hr Hs Ht'; apply (HS r (xs ax m r) Hr (seg_near kappa TT ax m r HL HK HE HA Hr) s (xs ay n s) Hs (seg_near kappa TT ay n s HL HK HE' HA' Hs) t' (xs az p t') Ht' (seg_near kappa TT az p t' HL HK HE'' HA'' Ht'))).
  set (N := INR (m + 1) * INR (n + 1) * INR (p + 1)) in *.
  assert (AB : forall k i j, (k <= p)%nat -> (i <= m)%nat -> (j <= n)%nat -> Rabs (weight m i * weight n j * weight p k * S0 i j k) <= 8 * M).
  { intros k i j Hk Hi Hj. apply w3_bound; [|lra]. apply bsum3_bound. intros r s t' Hr Hs Ht'. replace M with (M * 1 * 1 * 1) by ring.
    apply prod_bound; [apply prod_bound; [apply prod_bound; [apply FX; lia|]|]|]; apply cheb_abs, node_abs; lia. }
  assert (CM : 8 * ce * M <= 8 / 10 * M) by (apply Rmult_le_compat_r; lra).
  assert (CB : forall k i j, (k <= p)%nat -> (i <= m)%nat -> (j <= n)%nat -> Rabs (val (c k i j)) <= 88 / 10 * M)
    by (intros k i j Hk Hi Hj; destruct (CN k i j Hk Hi Hj) as (_ & E); unfold dvalue in E; assert (X := near_abs _ _ _ _ E (AB k i j Hk Hi Hj)); lra).
  set (S := bsum (m + 1) (fun i => bsum (n + 1) (fun j => bsum (p + 1) (fun k => Rabs (dvalue (c k i j)))))).
  assert (SB : S <= N * (88 / 10 * M)).
  { apply Rle_trans with (Rabs S); [apply Rle_abs|]. apply bsum3_bound. intros i j k Hi Hj Hk. rewrite Rabs_Rabsolu. apply CB; lia. }
  set (N2 := INR (m + 1) * INR (n + 1)) in *. assert (N20 : 0 < N2) by (apply Rmult_lt_0_compat; lra).
  assert (NL : N2 * 1 <= N) by (apply Rmult_le_compat_l; lra).
  assert (NM0 : N2 * M <= N * M) by (apply Rmult_le_compat_r; lra). assert (MT : N2 * tiny <= N2 * M) by (apply Rmult_le_compat_l; lra).
  assert (MP : 0 <= N2 * M) by (apply Rmult_le_pos; lra).
  assert (HG : 10 * (N * M) <= huge).
  { apply nm_huge; try lra. apply inv_u53. apply Rle_trans with (2 := HNU). rewrite !mult_INR. apply Rle_refl. }
  destruct (cs3_double_lemma f ax ay az m n p c x y z Hx Hy Hz (fun k i j Hk Hi Hj => proj1 (CN k i j Hk Hi Hj)) ltac:(fold S; lra) Hkx Hky Hkz HC) as (FV & EV). fold S kx ky kz in EV. fold N2 err in EV.
  change (cs3_evaluate (mkCS3 f ax ay az m n p c) x y z) with (cs3_evaluate (cs3_compute_aijk (cs3_new f ax ay az m n p)) x y z) in FV, EV. split; [exact FV|].
  change (unit_of (axis_values ax) (dvalue x)) with t in EV. change (unit_of (axis_values ay) (dvalue y)) with w in EV. change (unit_of (axis_values az) (dvalue z)) with q in EV.
  set (v := dvalue (cs3_evaluate (cs3_compute_aijk (cs3_new f ax ay az m n p)) x y z)) in *.
  rewrite <- (poly3_id m n p g t w q).
  set (P := bsum (m + 1) (fun i => bsum (n + 1) (fun j => bsum (p + 1) (fun k => dvalue (c k i j) * cheb k q) * cheb j w) * cheb i t)) in *.
  assert (PE : P = bsum (m + 1) (fun i => bsum (n + 1) (fun j => bsum (p + 1) (fun k => dvalue (c k i j) * cheb k q * cheb j w * cheb i t)))).
  { unfold P. apply bsum_ext. intros i _. rewrite <- bsum_scal_r. apply bsum_ext. intros j _. rewrite <- !bsum_scal_r. reflexivity. }
  match goal with |- Rabs (v - ?q) <= _ => set (Q := q) end.
  assert (QE : Q = bsum (m + 1) (fun i => bsum (n + 1) (fun j => bsum (p + 1) (fun k => weight m i * weight n j * weight p k * S0 i j k * cheb k q * cheb j w * cheb i t)))).
  { unfold Q. apply bsum_ext. intros i Hi. rewrite <- bsum_scal_r. apply bsum_ext. intros j Hj. rewrite <- !bsum_scal_r. apply bsum_ext. intros k Hk. do 4 f_equal. unfold S0.
    apply bsum_ext. intros r Hr. apply bsum_ext. intros s Hs. apply bsum_ext. intros t' Ht'. rewrite Hg by lia. reflexivity. }
  assert (PQ : Rabs (P - Q) <= N * (8 * ce * M)).
  { rewrite PE, QE, bsum3_diff. apply bsum3_bound. intros i j k Hi Hj Hk.
    replace (dvalue (c k i j) * cheb k q * cheb j w * cheb i t - weight m i * weight n j * weight p k * S0 i j k * cheb k q * cheb j w * cheb i t) with ((dvalue (c k i j) - weight m i * weight n j * weight p k * S0 i j k) * cheb k q * cheb j w * cheb i t) by ring.
    replace (8 * ce * M) with (8 * ce * M * 1 * 1 * 1) by ring.
    apply prod_bound; [apply prod_bound; [apply prod_bound; [apply (CN k i j ltac:(lia) ltac:(lia) ltac:(lia))|apply cheb_abs, Hq]|apply cheb_abs, Hw]|apply cheb_abs, Ht]. }
  replace (v - Q) with ((v - P) + (P - Q)) by ring. apply Rle_trans with (1 := Rabs_triang _ _).
  assert (err * (S + N2 * tiny) <= err * (10 * (N * M))) by (apply Rmult_le_compat_l; lra). lra.
Qed.
