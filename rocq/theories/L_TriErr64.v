(** Accuracy of the quadrature over triangles in double; examples. *)
From Coq Require Import List Arith ZArith Reals Lra Lia Bool.
From Flocq Require Import Core.Core IEEE754.BinarySingleNaN.
From Verif Require Import Outcome Num NumFun F64 L_F64 L_Linspace64 L_Ser64 L_Apx M_Triangle S_Triangle L_Triangle L_Triangle2 S_Angles S_Double S_Vec S_Vec64 L_Vec64 S_Tri64 L_Tri64 S_TriErr L_TriErr.
Import ListNotations.
Local Open Scope R_scope.

Lemma b3R M (v : vec3 f64) : bounded3 M v -> Rabs (dvalue (vx v)) <= M /\ Rabs (dvalue (vy v)) <= M /\ Rabs (dvalue (vz v)) <= M.
Proof.
  intros H. unfold bounded3, coords3 in H. assert (H' := Forall_inv_tail H). assert (H'' := Forall_inv_tail H').
  exact (conj (proj2 (Forall_inv H)) (conj (proj2 (Forall_inv H')) (proj2 (Forall_inv H'')))).
Qed.
Lemma mix_abs a b x y z M : 0 <= a -> 0 <= b -> a + b <= 1 -> Rabs x <= M -> Rabs y <= M -> Rabs z <= M -> Rabs (x + a * (y - x) + b * (z - x)) <= 2 * M.
Proof.
  intros Ha Hb Hab Hx Hy Hz. assert (0 <= M) by (pose proof (Rabs_pos x); lra). apply Rabs_le_inv in Hx, Hy, Hz. apply Rabs_le.
  replace (x + a * (y - x) + b * (z - x)) with ((1 - a - b) * x + a * y + b * z) by ring.
  assert (0 <= 1 - a - b) by lra. set (c := 1 - a - b) in *. assert (E : a + b + c = 1) by (unfold c; ring). clearbody c. split; nra.
Qed.
Lemma inside_box M p q r v : bounded3 M p -> bounded3 M q -> bounded3 M r -> inside (dvec3 p) (dvec3 q) (dvec3 r) v -> in_box (2 * M) v.
Proof.
  intros Hp Hq Hr (a & b & Ha & Hb & Hab & ->). destruct (b3R _ _ Hp) as (P1 & P2 & P3). destruct (b3R _ _ Hq) as (Q1 & Q2 & Q3). destruct (b3R _ _ Hr) as (R1 & R2 & R3).
  unfold in_box, coords3, point, dvec3. cbn [vx vy vz]. repeat (apply Forall_cons; [now apply mix_abs|]). apply Forall_nil.
Qed.
Lemma slope_cont g B L : slope_le g B L -> continuous_in (in_box B) g.
Proof.
  intros H v Hv eps He. exists (eps / (Rabs L + 1)). pose proof (Rabs_pos L). assert (P : 0 < eps / (Rabs L + 1)) by (apply Rdiv_lt_0_compat; lra). split; [exact P|].
  intros w Hw (C1 & C2 & C3). assert (A := H w v (eps / (Rabs L + 1)) Hw Hv). unfold each3 in A. specialize (A (conj (Rlt_le _ _ C1) (conj (Rlt_le _ _ C2) (Rlt_le _ _ C3)))).
  apply Rle_trans with (1 := A). apply Rle_trans with ((Rabs L + 1) * (eps / (Rabs L + 1))); [|right; field; lra].
  apply Rmult_le_compat_r; [lra|]. pose proof (Rle_abs L). lra.
Qed.
Lemma tri_best_double : forall (TT : NumTr f64), ieee_sqrt TT -> forall (f : vec3 f64 -> f64) (g : vec3 R -> R) d l p q r M F eps L e, (1 <= d <= 8)%nat -> degree_le d l ->
  / 2 ^ 200 <= M <= 2 ^ 200 -> / 2 ^ 400 <= F <= 2 ^ 400 -> bounded3 M p -> bounded3 M q -> bounded3 M r ->
  approximates f g (2 * M) eps F -> slope_le g (2 * M) L ->
  let P := dvec3 p in let Q := dvec3 q in let S := dvec3 r in
  (forall v, inside P Q S v -> Rabs (g v - poly3 l v) <= e) ->
  exists v, (let* t := tri_new f (Z.of_nat d) in tri_compute t p q r) = Ok v /\ is_finite v = true /\
    Rabs (dvalue v - surface_integral g P Q S) <=
      area P Q S * ((weights d + 1) * e + 4 / 10 ^ 14 * size l P Q S + weights d * (eps + 31 * uround * M * L)) + 500 * uround * (F * (M * M)).
Proof.
  intros TT HT f g d l p q r M F eps L e Hd Hl HM HF Hp Hq Hr Hf Hg P Q S He.
  destruct (tri_double_lemma TT HT f g d p q r M F eps L Hd HM HF Hp Hq Hr Hf Hg) as (v & w & E & Fv & Ew & B).
  assert (HC : continuous_in (inside P Q S) g).
  { apply (continuous_sub _ (in_box (2 * M))); [|now apply (slope_cont g _ L)]. intros x. now apply inside_box. }
  destruct (best_lemma g d l P Q S e Hd Hl HC He) as (w' & Ew' & B'). unfold quadrature in Ew'. fold P Q S in Ew. rewrite Ew in Ew'. injection Ew' as <-.
  exists v. split; [exact E|]. split; [exact Fv|]. fold (weights d) in B. fold P Q S in B. apply Rabs_le_inv in B, B'. apply Rabs_le. lra.
Qed.

(** *** Examples *)
(** |x| over the triangle (-1,0,0), (1,0,0), (0,1,0): within 1/8 of x^2 + 1/8. *)
Definition bend : list mono3 := [mkM3 1 2 0 0; mkM3 (1 / 8) 0 0 0].
Lemma bend_at v : poly3 bend v = vx v * vx v + 1 / 8.
Proof. unfold poly3, mono_at, bend. cbn [fold_right m_c m_i m_j m_k pow]. ring. Qed.
Lemma abs_cont (A : vec3 R -> Prop) : continuous_in A (fun v => Rabs (vx v)).
Proof.
  intros v _ eps He. exists eps. split; [exact He|]. intros w _ (C & _). apply Rle_trans with (1 := Rabs_triang_inv2 (vx w) (vx v)). lra.
Qed.
Lemma ex_abs : exists v, quadrature (fun v => Rabs (vx v)) 2 (mkV3 (-1) 0 0) (mkV3 1 0 0) (mkV3 0 1 0) = Ok v /\
  Rabs (v - surface_integral (fun v => Rabs (vx v)) (mkV3 (-1) 0 0) (mkV3 1 0 0) (mkV3 0 1 0)) <= 251 / 1000.
Proof.
  destruct (best_lemma (fun v => Rabs (vx v)) 2 bend (mkV3 (-1) 0 0) (mkV3 1 0 0) (mkV3 0 1 0) (1 / 8)) as (v & E & B).
  - lia.
  - repeat constructor.
  - apply abs_cont.
  - intros v (a & b & Ha & Hb & Hab & ->). rewrite bend_at. unfold point. cbn [vx]. set (x := -1 + a * (1 - -1) + b * (0 - -1)).
    assert (-1 <= x <= 1) by (unfold x; lra). clearbody x. unfold Rabs at 2. assert (0 <= (x + 1 / 2) * (x + 1 / 2)) by apply Rle_0_sqr. assert (0 <= (x - 1 / 2) * (x - 1 / 2)) by apply Rle_0_sqr. destruct (Rcase_abs x); apply Rabs_le; split; nra.
  - exists v. split; [exact E|]. apply Rle_trans with (1 := B).
    replace (area (mkV3 (-1) 0 0) (mkV3 1 0 0) (mkV3 0 1 0)) with 1 by (unfold area, sq; cbn [vx vy vz]; replace (_ * _ - _) with (2 * 2) by ring; rewrite sqrt_square; lra).
    replace (size bend (mkV3 (-1) 0 0) (mkV3 1 0 0) (mkV3 0 1 0)) with (16 + 1 / 8).
    + unfold weights. cbn [existsb Nat.eqb orb]. lra.
    + unfold size, bend, reach. cbn [fold_right m_c m_i m_j m_k vx vy vz pow]. replace (1 - -1) with 2 by ring. replace (0 - -1) with 1 by ring.
      rewrite (Rabs_left (-1)) by lra. rewrite !(Rabs_pos_eq 1), !(Rabs_pos_eq 2), (Rabs_pos_eq (1 / 8)) by lra. ring.
Qed.
Lemma ex_mesh : small_in (in_cuboid (mkV3 0 0 0) (mkV3 1 1 1)) (6 / 10) (mkV3 0 0 0, mkV3 (1 / 2) 0 0, mkV3 0 (1 / 2) 0) /\
  small_in (in_cuboid (mkV3 0 0 0) (mkV3 1 1 1)) (6 / 10) (mkV3 (1 / 2) (1 / 2) (1 / 2), mkV3 (1 / 2) 0 0, mkV3 0 (1 / 2) 0) /\
  continuous_in (in_cuboid (mkV3 0 0 0) (mkV3 1 1 1)) (fun v => Rabs (vx v)).
Proof.
  split; [|split; [|apply abs_cont]]; (split; [intros v (a & b & Ha & Hb & Hab & ->); unfold in_cuboid, point; cbn [vx vy vz]; lra|]);
    unfold close3; cbn [vx vy vz]; repeat split; apply Rabs_def1; lra.
Qed.
(** x, approximated by the constant 2, over the triangle (1,0,0), (3,0,0), (1,4,0). *)
Lemma ex_dbl : forall (TT : NumTr f64), ieee_sqrt TT -> exists v,
  (let* t := tri_new (fun x : vec3 f64 => vx x) 2 in tri_compute t (mkV3 (f64_ofZ 1) (f64_ofZ 0) (f64_ofZ 0)) (mkV3 (f64_ofZ 3) (f64_ofZ 0) (f64_ofZ 0)) (mkV3 (f64_ofZ 1) (f64_ofZ 4) (f64_ofZ 0))) = Ok v /\
  Rabs (dvalue v - surface_integral (fun x => vx x) (mkV3 1 0 0) (mkV3 3 0 0) (mkV3 1 4 0)) <= 9.
Proof.
  intros TT HT. set (l := [mkM3 2 0 0 0]).
  assert (V0 : dvalue (f64_ofZ 0) = 0) by (vz; reflexivity). assert (V1 : dvalue (f64_ofZ 1) = 1) by (vz; reflexivity). assert (V3 : dvalue (f64_ofZ 3) = 3) by (vz; reflexivity). assert (V4 : dvalue (f64_ofZ 4) = 4) by (vz; reflexivity).
  assert (BD : forall x y z, (0 <= x <= 4)%Z -> (0 <= y <= 4)%Z -> (0 <= z <= 4)%Z -> bounded3 4 (mkV3 (f64_ofZ x) (f64_ofZ y) (f64_ofZ z))).
  { assert (O : forall x, (0 <= x <= 4)%Z -> is_finite (f64_ofZ x) = true /\ Rabs (dvalue (f64_ofZ x)) <= 4).
    { intros x Hx. destruct (ofZ_ok x ltac:(lia)) as [F V]. split; [exact F|]. unfold dvalue. rewrite V, <- abs_IZR. apply IZR_le. lia. }
    intros x y z Hx Hy Hz. unfold bounded3, coords3. cbn [vx vy vz]. repeat (apply Forall_cons; [now apply O|]). apply Forall_nil. }
  destruct (tri_best_double TT HT (fun x => vx x) (fun x => vx x) 2 l (mkV3 (f64_ofZ 1) (f64_ofZ 0) (f64_ofZ 0)) (mkV3 (f64_ofZ 3) (f64_ofZ 0) (f64_ofZ 0)) (mkV3 (f64_ofZ 1) (f64_ofZ 4) (f64_ofZ 0)) 4 8 0 1 1) as (v & E & _ & B).
  - lia.
  - repeat constructor.
  - rewrite lim2_pow. assert (1024 <= lim2) by (change 1024 with (bpow radix2 10); apply bpow_le; discriminate). assert (/ lim2 <= / 1024) by (apply Rinv_le_contravar; lra). lra.
  - rewrite lim2_sq. assert (1024 <= lim2) by (change 1024 with (bpow radix2 10); apply bpow_le; discriminate). assert (1024 * 1024 <= lim2 * lim2) by (apply Rmult_le_compat; lra). assert (/ (lim2 * lim2) <= / (1024 * 1024)) by (apply Rinv_le_contravar; lra). lra.
  - apply BD; lia.
  - apply BD; lia.
  - apply BD; lia.
  - intros x Hx. assert (Hx' := Forall_inv Hx). cbv beta in Hx'. destruct Hx' as [A1 A2]. split; [exact A1|]. split; [lra|]. unfold dvec3. cbn [vx]. rewrite Rminus_diag_eq, Rabs_R0 by reflexivity. lra.
  - intros x y t _ _ (H & _). lra.
  - unfold dvec3. cbn [vx vy vz]. rewrite V0, V1, V3, V4. intros v (a & b & Ha & Hb & Hab & ->). unfold l. rewrite const_at. unfold point. cbn [vx]. apply Rabs_le. lra.
  - exists v. split; [exact E|]. unfold dvec3 in B. cbn [vx vy vz] in B. rewrite V0, V1, V3, V4 in B. apply Rle_trans with (1 := B).
    replace (area (mkV3 1 0 0) (mkV3 3 0 0) (mkV3 1 4 0)) with 4 by (unfold area, sq; cbn [vx vy vz]; replace (_ * _ - _) with (8 * 8) by ring; rewrite sqrt_square; lra).
    unfold l. rewrite const_size, Rabs_pos_eq by lra. unfold weights. cbn [existsb Nat.eqb orb]. assert (U : 0 <= uround <= / 10 ^ 9) by (unfold uround; split; [left; apply Rinv_0_lt_compat, pow_lt; lra|apply Rinv_le_contravar; lra]). lra.
Qed.
