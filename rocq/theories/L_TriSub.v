(** Exchange of the order of integration on the standard triangle, and
    additivity of the surface integral when a triangle is cut. *)
From Coq Require Import List Arith ZArith Reals Lra Lia Bool.
From Coquelicot Require Import Coquelicot.
From Verif Require Import Outcome Num NumFun M_Triangle S_Triangle L_Triangle L_Triangle2 S_Interp1d S_Lim L_Lim S_TriErr S_TriSub L_TriErr.
Import ListNotations.
Local Open Scope R_scope.

(** *** Functions continuous on the plane *)
Definition cplane (g : R -> R -> R) : Prop := forall x y, continuity_2d_pt g x y.
Lemma cplane_line g a : cplane g -> forall t, continuous (g a) t.
Proof.
  intros H t. apply continuity_pt_filterlim. intros eps He. destruct (H a t (mkposreal eps He)) as (d & D). exists d. split; [apply cond_pos|].
  intros y (_ & Hy). simpl in *. unfold R_dist in *. apply D; [rewrite Rminus_diag_eq, Rabs_R0 by reflexivity; apply cond_pos|exact Hy].
Qed.
Lemma cplane_ex g a c d : cplane g -> ex_RInt (g a) c d.
Proof. intros H. apply (ex_RInt_continuous (V := R_CompleteNormedModule)). intros z _. now apply cplane_line. Qed.
Lemma cplane_swap g : cplane g -> cplane (fun a b => g b a).
Proof. intros H x y eps. destruct (H y x eps) as (d & D). exists d. intros u v Hu Hv. now apply D. Qed.
(** Composition with affine maps. *)
Lemma cplane_aff g (p q r s t w : R) : cplane g -> cplane (fun a b => g (p * a + q * b + r) (s * a + t * b + w)).
Proof.
  intros H x y eps. destruct (H (p * x + q * y + r) (s * x + t * y + w) eps) as (d & D).
  set (m := Rabs p + Rabs q + Rabs s + Rabs t + 1).
  pose proof (Rabs_pos p). pose proof (Rabs_pos q). pose proof (Rabs_pos s). pose proof (Rabs_pos t). pose proof (cond_pos d).
  assert (Hm : 1 <= m) by (unfold m; lra).
  assert (He : 0 < d / m) by (apply Rdiv_lt_0_compat; lra). exists (mkposreal _ He). intros u v Hu Hv. simpl in Hu, Hv.
  assert (Ed : m * (d / m) = d) by (field; lra).
  assert (K : forall c e, Rabs c + Rabs e <= m - 1 -> forall k, Rabs (c * u + e * v + k - (c * x + e * y + k)) < d).
  { intros c e Hce k. replace (c * u + e * v + k - (c * x + e * y + k)) with (c * (u - x) + e * (v - y)) by ring.
    apply Rle_lt_trans with (1 := Rabs_triang _ _). rewrite !Rabs_mult.
    assert (Rabs c * Rabs (u - x) <= Rabs c * (d / m)) by (apply Rmult_le_compat_l; [apply Rabs_pos|lra]).
    assert (Rabs e * Rabs (v - y) <= Rabs e * (d / m)) by (apply Rmult_le_compat_l; [apply Rabs_pos|lra]).
    assert ((Rabs c + Rabs e) * (d / m) <= (m - 1) * (d / m)) by (apply Rmult_le_compat_r; lra). lra. }
  apply D; apply K; unfold m; lra.
Qed.
(** Integrals over a fixed segment depend continuously on the parameter. *)
Lemma param_cont k c d x : c <= d -> cplane k -> continuous (fun a => RInt (k a) c d) x.
Proof.
  intros L H. apply continuity_pt_filterlim. intros eps He.
  destruct (Rle_lt_or_eq_dec c d L) as [L'|<-].
  2:{ exists 1. split; [lra|]. intros y _. simpl. unfold R_dist. rewrite !RInt_point. unfold zero. simpl. now rewrite Rminus_diag_eq, Rabs_R0. }
  assert (E2 : 0 < eps / (2 * (d - c))) by (apply Rdiv_lt_0_compat; lra).
  destruct (uniform_continuity_2d_1d (fun t a => k a t) c d x (fun t _ => cplane_swap k H t x) (mkposreal _ E2)) as (e & E). simpl in E.
  exists e. split; [apply cond_pos|]. intros y (_ & Hy). simpl in Hy |- *. unfold R_dist in *.
  assert (EQ : RInt (k y) c d - RInt (k x) c d = RInt (fun t => k y t - k x t) c d) by (symmetry; apply (RInt_minus (V := R_CompleteNormedModule)); now apply cplane_ex).
  rewrite EQ. apply Rle_lt_trans with ((d - c) * (eps / (2 * (d - c)))).
  - apply (abs_RInt_le_const (fun t => k y t - k x t)); [lra| |].
    + apply (ex_RInt_minus (V := R_NormedModule)); now apply cplane_ex.
    + intros t Ht. left. pose proof (cond_pos e). apply Rabs_def2 in Hy. apply E; try lra. rewrite Rminus_diag_eq, Rabs_R0 by reflexivity. lra.
  - replace ((d - c) * (eps / (2 * (d - c)))) with (eps / 2) by (field; lra). lra.
Qed.

(** *** The order of integration *)
Definition col (g : R -> R -> R) (x a : R) : R := RInt (g a) 0 (x - a).
Lemma col_unit g x a : cplane g -> col g x a = RInt (fun t => (x - a) * g a ((x - a) * t)) 0 1.
Proof.
  intros H. unfold col. symmetry. 
  transitivity (RInt (fun t => scal (x - a) (g a ((x - a) * t + 0))) 0 1).
  { apply RInt_ext. intros t _. unfold scal. simpl. unfold mult. simpl. now rewrite Rplus_0_r. }
  rewrite (RInt_comp_lin (V := R_CompleteNormedModule)) by now apply cplane_ex.
  f_equal; ring.
Qed.
Lemma cont2d_mul f g : cplane f -> cplane g -> cplane (fun a b => f a b * g a b).
Proof. intros H K x y. now apply continuity_2d_pt_mult. Qed.
Lemma col_cont g x : cplane g -> forall a, continuous (col g x) a.
Proof.
  intros H a. apply (continuous_ext (fun a => RInt (fun t => (x - a) * g a ((x - a) * t)) 0 1)).
  - intros b. symmetry. now apply col_unit.
  - apply (param_cont (fun a t => (x - a) * g a ((x - a) * t)) 0 1 a); [lra|].
    apply cont2d_mul.
    + intros u v. apply continuity_2d_pt_minus; [apply continuity_2d_pt_const|apply continuity_2d_pt_id1].
    + intros u v eps. destruct (H u ((x - u) * v) eps) as (d & D).
      assert (C : continuity_2d_pt (fun u v => (x - u) * v) u v).
      { apply continuity_2d_pt_mult; [|apply continuity_2d_pt_id2]. apply continuity_2d_pt_minus; [apply continuity_2d_pt_const|apply continuity_2d_pt_id1]. }
      destruct (C d) as (d2 & D2). assert (P : 0 < Rmin d d2) by (apply Rmin_pos; apply cond_pos).
      exists (mkposreal _ P). simpl. intros u' v' Hu Hv. pose proof (Rmin_l d d2). pose proof (Rmin_r d d2). apply D; [lra|]. apply D2; lra.
Qed.
Lemma col_derive g a x : cplane g -> is_derive (fun u => col g u a) x (g a (x - a)).
Proof.
  intros H. unfold col. 
  assert (K : is_derive (fun z => RInt (g a) 0 z) (x - a) (g a (x - a))).
  { apply (is_derive_RInt (V := R_CompleteNormedModule) (g a) (fun z => RInt (g a) 0 z) 0).
    - apply filter_forall. intros z. apply (RInt_correct (V := R_CompleteNormedModule)). now apply cplane_ex.
    - now apply cplane_line. }
  replace (g a (x - a)) with (scal 1 (g a (x - a))) by (unfold scal; simpl; unfold mult; simpl; ring).
  apply (is_derive_comp (fun z => RInt (g a) 0 z) (fun u => u - a)); [exact K|].
  auto_derive; [auto|ring].
Qed.
Lemma col_Derive g a x : cplane g -> Derive (fun u => col g u a) x = g a (x - a).
Proof. intros H. now apply is_derive_unique, col_derive. Qed.
Definition stack (g : R -> R -> R) (x : R) : R := RInt (col g x) 0 x.
Lemma stack_derive g x : cplane g -> is_derive (stack g) x (RInt (fun a => g a (x - a)) 0 x).
Proof.
  intros H.
  assert (C : cplane (fun u v => Derive (fun z => col g z v) u)).
  { intros u v. apply (continuity_2d_pt_ext (fun u v => g v (u - v))).
    - intros y z. symmetry. now apply col_Derive.
    - apply (continuity_2d_pt_ext (fun u v => g (0 * u + 1 * v + 0) (1 * u + (-1) * v + 0))).
      + intros y z. f_equal; ring.
      + now apply (cplane_aff g). }
  assert (I : forall y c d, ex_RInt (fun t => col g y t) c d).
  { intros y c d. apply (ex_RInt_continuous (V := R_CompleteNormedModule)). intros z _. now apply col_cont. }
  assert (Z : col g x x = 0) by (unfold col; rewrite Rminus_diag_eq by reflexivity; apply (RInt_point (V := R_CompleteNormedModule))).
  pose proof (is_derive_RInt_param_bound_comp (col g) (fun _ => 0) (fun x => x) x 0 1) as B. cbn beta in B.
  replace (RInt (fun a => g a (x - a)) 0 x) with (RInt (fun t => Derive (fun u => col g u t) x) 0 x + - col g x 0 * 0 + col g x x * 1).
  2:{ rewrite Z. transitivity (RInt (fun t => Derive (fun u => col g u t) x) 0 x); [ring|]. apply RInt_ext. intros t _. now apply col_Derive. }
  apply B.
  - apply filter_forall. intros y. apply I.
  - exists (mkposreal 1 Rlt_0_1). apply filter_forall. intros y. apply I.
  - exists (mkposreal 1 Rlt_0_1). apply filter_forall. intros y. apply I.
  - apply (is_derive_const (V := R_NormedModule)).
  - apply (is_derive_id (K := R_AbsRing)).
  - exists (mkposreal 1 Rlt_0_1). apply filter_forall. intros y t _. eexists. now apply col_derive.
  - intros t _. apply C.
  - apply locally_2d_forall. intros u v. apply C.
  - apply locally_2d_forall. intros u v. apply C.
  - apply continuity_pt_filterlim. now apply col_cont.
  - apply continuity_pt_filterlim. now apply col_cont.
Qed.
Lemma anti_diag (k : R -> R) x : (forall t, continuous k t) -> RInt k 0 x = RInt (fun a => k (x - a)) 0 x.
Proof.
  intros H. assert (I : forall c d, ex_RInt k c d) by (intros c d; apply (ex_RInt_continuous (V := R_CompleteNormedModule)); auto).
  assert (E := RInt_comp_lin (V := R_CompleteNormedModule) k (-1) x 0 x (I _ _)).
  replace (-1 * 0 + x) with x in E by ring. replace (-1 * x + x) with 0 in E by ring.
  assert (S := opp_RInt_swap (V := R_CompleteNormedModule) k 0 x (I 0 x)). rewrite <- S in E.
  assert (E2 : RInt (fun y => scal (-1) (k (-1 * y + x))) 0 x = scal (-1) (RInt (fun y => k (x - y)) 0 x)).
  { rewrite <- (RInt_scal (V := R_CompleteNormedModule)).
    - apply RInt_ext. intros y _. do 2 f_equal. ring.
    - apply (ex_RInt_continuous (V := R_CompleteNormedModule)). intros z _. apply (continuous_comp (fun y => x - y) k); [|apply H].
      apply (continuous_minus (V := R_NormedModule)); [apply continuous_const|apply continuous_id]. }
  assert (E3 : scal (-1) (RInt (fun y => k (x - y)) 0 x) = opp (RInt k 0 x)) by exact (eq_trans (eq_sym E2) E).
  unfold scal, opp in E3. simpl in E3. unfold mult in E3. simpl in E3. lra.
Qed.
Lemma stack_swap g : cplane g -> stack g 1 = stack (fun a b => g b a) 1.
Proof.
  intros H. assert (H' := cplane_swap g H).
  assert (Z : forall k, stack k 0 = 0) by (intros k; unfold stack; apply (RInt_point (V := R_CompleteNormedModule))).
  assert (E : (fun x => stack g x - stack (fun a b => g b a) x) 0 = (fun x => stack g x - stack (fun a b => g b a) x) 1).
  { apply (eq_is_derive (V := R_NormedModule) (fun x => stack g x - stack (fun a b => g b a) x) 0 1); [|lra]. intros t _.
    replace (@zero R_NormedModule) with (minus (RInt (fun a => g a (t - a)) 0 t) (RInt (fun a => g (t - a) a) 0 t)).
    - apply (is_derive_minus (V := R_NormedModule)); [now apply stack_derive|now apply (stack_derive (fun a b => g b a))].
    - unfold minus, plus, opp, zero. simpl. rewrite (anti_diag (fun a => g a (t - a))).
      + assert (Q : RInt (fun a => g (t - a) (t - (t - a))) 0 t = RInt (fun a => g (t - a) a) 0 t) by (apply RInt_ext; intros a _; f_equal; ring).
        rewrite Q. lra.
      + intros s. pose proof (cplane_aff g 0 1 0 0 (-1) t H) as K. apply (cplane_line _ 0) with (t := s) in K.
        apply (continuous_ext (fun b => g (0 * 0 + 1 * b + 0) (0 * 0 + -1 * b + t))); [|exact K]. intros b. f_equal; ring. }
  cbn beta in E. rewrite !Z in E. lra.
Qed.

(** *** Continuous functions on the triangle *)
Definition plane (G : R -> R -> R) (a b : R) : R := ext G (clamp 0 1 a) (clamp 0 1 b).
Lemma clamp01_move a b : Rabs (clamp 0 1 a - clamp 0 1 b) <= Rabs (a - b).
Proof. unfold clamp, Rmax, Rmin. repeat destruct Rle_dec; unfold Rabs; repeat destruct Rcase_abs; lra. Qed.
Lemma clamp01_in a : 0 <= clamp 0 1 a <= 1.
Proof. unfold clamp, Rmax, Rmin. repeat destruct Rle_dec; lra. Qed.
Lemma plane_cont G : cont2 G -> cplane (plane G).
Proof.
  intros H x y eps. destruct (ext_uniform G H (eps / 2)) as (d & D1 & D2); [pose proof (cond_pos eps); lra|]. exists (mkposreal d D1). simpl.
  intros u v Hu Hv. apply Rle_lt_trans with (eps / 2); [|pose proof (cond_pos eps); lra].
  apply D2; try apply clamp01_in; (eapply Rle_lt_trans; [apply clamp01_move|assumption]).
Qed.
Lemma plane_in G a b : tri2 a b -> plane G a b = G a b.
Proof. intros (A & B & C). unfold plane. rewrite !clamp_id by lra. apply ext_in. unfold tri2. lra. Qed.
Lemma double_plane G : RInt (fun a => RInt (G a) 0 (1 - a)) 0 1 = stack (plane G) 1.
Proof.
  unfold stack, col. apply RInt_ext. intros a Ha. rewrite Rmin_left, Rmax_right in Ha by lra. apply RInt_ext. intros b Hb. rewrite Rmin_left, Rmax_right in Hb by lra.
  symmetry. apply plane_in. unfold tri2. lra.
Qed.
Lemma cont2_swap G : cont2 G -> cont2 (fun a b => G b a).
Proof. intros H a b (A & B & C) eps He. destruct (H b a) with (eps := eps) as (d & D1 & D2); [unfold tri2; lra|exact He|]. exists d. split; [exact D1|]. intros a' b' (A' & B' & C') Ha Hb. apply D2; auto. unfold tri2. lra. Qed.
Lemma double_swap G : cont2 G -> RInt (fun a => RInt (G a) 0 (1 - a)) 0 1 = RInt (fun a => RInt (fun b => G b a) 0 (1 - a)) 0 1.
Proof.
  intros H. rewrite double_plane, stack_swap by now apply plane_cont.
  unfold stack, col. apply RInt_ext. intros a Ha. rewrite Rmin_left, Rmax_right in Ha by lra. apply RInt_ext. intros b Hb. rewrite Rmin_left, Rmax_right in Hb by lra.
  apply plane_in. unfold tri2. lra.
Qed.
Lemma vec_eq (u v : vec3 R) : vx u = vx v -> vy u = vy v -> vz u = vz v -> u = v.
Proof. destruct u, v. simpl. now intros -> -> ->. Qed.
Lemma point_swap p q r a b : point p q r a b = point p r q b a.
Proof. apply vec_eq; unfold point; simpl; ring. Qed.
Lemma inside_swap p q r v : inside p q r v -> inside p r q v.
Proof. intros (a & b & A & B & C & ->). exists b, a. repeat split; try lra. apply point_swap. Qed.
Lemma inside_turn p q r v : inside p q r v -> inside r q p v.
Proof. intros (a & b & A & B & C & ->). exists a, (1 - a - b). repeat split; try lra. apply vec_eq; unfold point; simpl; ring. Qed.
(** Exchanging vertices does not change the integral. *)
Lemma surface_swap f p q r : continuous_in (inside p q r) f -> surface_integral f p q r = surface_integral f p r q.
Proof.
  intros H. unfold surface_integral. rewrite area_flip. f_equal. rewrite (double_swap (fun a b => f (point p q r a b))) by now apply pull_cont.
  apply RInt_ext. intros a _. apply RInt_ext. intros b _. f_equal. apply point_swap.
Qed.
Lemma area_turn p q r : area r q p = area p q r.
Proof. unfold area. do 2 f_equal. unfold sq. ring. Qed.
Lemma inner_cont G a : cont2 G -> 0 <= a <= 1 -> forall t, continuous (ext G a) t.
Proof.
  intros H Ha t. pose proof (cplane_line (plane G) a (plane_cont G H) t) as K. apply (continuous_ext (plane G a)); [|exact K].
  intros b. unfold plane. rewrite (clamp_id 0 1 a) by exact Ha. unfold ext. f_equal. unfold clamp, Rmax, Rmin. repeat destruct Rle_dec; lra.
Qed.
Lemma surface_turn f p q r : continuous_in (inside p q r) f -> surface_integral f p q r = surface_integral f r q p.
Proof.
  intros H. unfold surface_integral. rewrite area_turn. f_equal. set (G := fun a b => f (point p q r a b)). assert (C : cont2 G) by now apply pull_cont.
  apply RInt_ext. intros a Ha. rewrite Rmin_left, Rmax_right in Ha by lra.
  transitivity (RInt (ext G a) 0 (1 - a)).
  - apply RInt_ext. intros b Hb. rewrite Rmin_left, Rmax_right in Hb by lra. symmetry. apply (ext_in G). unfold tri2. lra.
  - rewrite anti_diag by (apply inner_cont; [exact C|lra]). apply RInt_ext. intros b Hb. rewrite Rmin_left, Rmax_right in Hb by lra.
    rewrite ext_in by (unfold tri2; lra). unfold G. f_equal. apply vec_eq; unfold point; simpl; ring.
Qed.

(** *** Cutting a triangle from a vertex to a point of the opposite side *)
Definition gram (p q r : vec3 R) : R :=
  let uu := sq (vx q - vx p) + sq (vy q - vy p) + sq (vz q - vz p) in
  let ww := sq (vx r - vx p) + sq (vy r - vy p) + sq (vz r - vz p) in
  let uw := (vx q - vx p) * (vx r - vx p) + (vy q - vy p) * (vy r - vy p) + (vz q - vz p) * (vz r - vz p) in
  uu * ww - sq uw.
Lemma area_scale p q r p' q' r' t : 0 <= t -> gram p' q' r' = (t * t) * gram p q r -> area p' q' r' = t * area p q r.
Proof.
  intros Ht E. change (sqrt (gram p' q' r') / 2 = t * (sqrt (gram p q r) / 2)). rewrite E, sqrt_mult_alt by (apply Rle_0_sqr).
  rewrite (sqrt_square t Ht). lra.
Qed.
Lemma area_part1 p q r t : 0 <= t -> area p q (on_side t p r) = t * area p q r.
Proof. intros Ht. apply area_scale; [exact Ht|]. unfold gram, on_side, sq. cbn [vx vy vz]. ring. Qed.
Lemma area_part2 p q r t : t <= 1 -> area (on_side t p r) q r = (1 - t) * area p q r.
Proof. intros Ht. apply area_scale; [lra|]. unfold gram, on_side, sq. cbn [vx vy vz]. ring. Qed.
Lemma rint_lin (k : R -> R) u v c d : (forall t, continuous k t) -> RInt k (u * c + v) (u * d + v) = u * RInt (fun y => k (u * y + v)) c d.
Proof.
  intros H. rewrite <- (RInt_comp_lin (V := R_CompleteNormedModule)) by (apply (ex_RInt_continuous (V := R_CompleteNormedModule)); auto).
  apply (RInt_scal (V := R_CompleteNormedModule) (fun y => k (u * y + v))). apply (ex_RInt_continuous (V := R_CompleteNormedModule)). intros z _.
  apply (continuous_comp (fun y => u * y + v) k); [|apply H].
  apply (continuous_plus (V := R_NormedModule)); [|apply continuous_const]. apply (continuous_scal_r (V := R_NormedModule) u (fun y => y)), continuous_id.
Qed.
Lemma cont2_part G (u v w : R) : cont2 G -> (forall a b, tri2 a b -> tri2 a (u * b + v * a + w)) -> cont2 (fun a b => G a (u * b + v * a + w)).
Proof.
  intros H K a b Hab eps He. destruct (H a (u * b + v * a + w) (K a b Hab) eps He) as (d & D1 & D2).
  set (m := Rabs u + Rabs v + 1). pose proof (Rabs_pos u). pose proof (Rabs_pos v). assert (Hm : 1 <= m) by (unfold m; lra).
  assert (P : 0 < d / m) by (apply Rdiv_lt_0_compat; lra). assert (Ed : m * (d / m) = d) by (field; lra).
  exists (d / m). split; [exact P|]. intros a' b' Hab' Ha Hb. apply D2; [now apply K| |].
  - assert (1 * (d / m) <= m * (d / m)) by (apply Rmult_le_compat_r; lra). lra.
  - replace (u * b' + v * a' + w - (u * b + v * a + w)) with (u * (b' - b) + v * (a' - a)) by ring. apply Rle_lt_trans with (1 := Rabs_triang _ _). rewrite !Rabs_mult.
    assert (Rabs u * Rabs (b' - b) <= Rabs u * (d / m)) by (apply Rmult_le_compat_l; lra).
    assert (Rabs v * Rabs (a' - a) <= Rabs v * (d / m)) by (apply Rmult_le_compat_l; lra).
    set (e := d / m) in *. clearbody e. unfold m in Ed. lra.
Qed.
Lemma surface_cut f p q r t : 0 <= t <= 1 -> continuous_in (inside p q r) f ->
  surface_integral f p q r = surface_integral f p q (on_side t p r) + surface_integral f (on_side t p r) q r.
Proof.
  intros Ht H. unfold surface_integral. rewrite area_part1, area_part2 by lra. set (G := fun a b => f (point p q r a b)). assert (C : cont2 G) by now apply pull_cont.
  set (G1 := fun a b => G a (t * b + 0 * a + 0)). set (G2 := fun a b => G a ((1 - t) * b + - t * a + t)).
  assert (C1 : cont2 G1). { apply cont2_part; [exact C|]. intros a b (A & B & D). unfold tri2. assert (0 <= t * b) by (apply Rmult_le_pos; lra). assert (t * b <= 1 * b) by (apply Rmult_le_compat_r; lra). lra. }
  assert (C2 : cont2 G2). { apply cont2_part; [exact C|]. intros a b (A & B & D). unfold tri2.
    assert (0 <= (1 - t) * b) by (apply Rmult_le_pos; lra). assert (0 <= t * (1 - a)) by (apply Rmult_le_pos; lra). assert ((1 - t) * b <= (1 - t) * (1 - a)) by (apply Rmult_le_compat_l; lra). lra. }
  assert (P1 : RInt (fun a => RInt (fun b => f (point p q (on_side t p r) a b)) 0 (1 - a)) 0 1 = RInt (fun a => RInt (G1 a) 0 (1 - a)) 0 1).
  { apply RInt_ext. intros a _. apply RInt_ext. intros b _. unfold G1, G. f_equal. apply vec_eq; unfold point, on_side; simpl; ring. }
  assert (P2 : RInt (fun a => RInt (fun b => f (point (on_side t p r) q r a b)) 0 (1 - a)) 0 1 = RInt (fun a => RInt (G2 a) 0 (1 - a)) 0 1).
  { apply RInt_ext. intros a _. apply RInt_ext. intros b _. unfold G2, G. f_equal. apply vec_eq; unfold point, on_side; simpl; ring. }
  rewrite P1, P2. clear P1 P2. change (RInt (fun a => RInt (fun b => f (point p q r a b)) 0 (1 - a)) 0 1) with (RInt (fun a => RInt (G a) 0 (1 - a)) 0 1).
  assert (I1 : ex_RInt (fun a => RInt (G1 a) 0 (1 - a)) 0 1) by (apply cont_ex_RInt; [lra|now apply outer_cont]).
  assert (I2 : ex_RInt (fun a => RInt (G2 a) 0 (1 - a)) 0 1) by (apply cont_ex_RInt; [lra|now apply outer_cont]).
  assert (E : RInt (fun a => RInt (G a) 0 (1 - a)) 0 1 = RInt (fun a => t * RInt (G1 a) 0 (1 - a) + (1 - t) * RInt (G2 a) 0 (1 - a)) 0 1).
  { apply RInt_ext. intros a Ha. rewrite Rmin_left, Rmax_right in Ha by lra. assert (K := inner_cont G a C ltac:(lra)).
    assert (X : RInt (G a) 0 (1 - a) = RInt (ext G a) 0 (1 - a)).
    { apply RInt_ext. intros b Hb. rewrite Rmin_left, Rmax_right in Hb by lra. symmetry. apply (ext_in G). unfold tri2. lra. }
    assert (Y : RInt (ext G a) 0 (1 - a) = RInt (ext G a) 0 (t * (1 - a)) + RInt (ext G a) (t * (1 - a)) (1 - a)).
    { symmetry. apply (RInt_Chasles (V := R_CompleteNormedModule) (ext G a)); apply (ex_RInt_continuous (V := R_CompleteNormedModule)); auto. }
    rewrite X, Y. f_equal.
    - replace 0 with (t * 0 + 0) at 1 by ring. replace (t * (1 - a)) with (t * (1 - a) + 0) by ring. rewrite (rint_lin (ext G a) t 0 0 (1 - a) K). f_equal. apply RInt_ext.
      intros b Hb. rewrite Rmin_left, Rmax_right in Hb by lra. unfold G1. assert (0 <= t * b) by (apply Rmult_le_pos; lra). assert (t * b <= 1 * b) by (apply Rmult_le_compat_r; lra).
      rewrite ext_in by (unfold tri2; lra). f_equal. ring.
    - replace (t * (1 - a)) with ((1 - t) * 0 + t * (1 - a)) by ring. replace (1 - a) with ((1 - t) * (1 - a) + t * (1 - a)) at 2 by ring.
      rewrite (rint_lin (ext G a) (1 - t) (t * (1 - a)) 0 (1 - a) K). f_equal. apply RInt_ext.
      intros b Hb. rewrite Rmin_left, Rmax_right in Hb by lra. unfold G2.
      assert (0 <= (1 - t) * b) by (apply Rmult_le_pos; lra). assert (0 <= t * (1 - a)) by (apply Rmult_le_pos; lra). assert ((1 - t) * b <= (1 - t) * (1 - a)) by (apply Rmult_le_compat_l; lra).
      rewrite ext_in by (unfold tri2; lra). f_equal. ring. }
  assert (E' : RInt (fun a => t * RInt (G1 a) 0 (1 - a) + (1 - t) * RInt (G2 a) 0 (1 - a)) 0 1 = t * RInt (fun a => RInt (G1 a) 0 (1 - a)) 0 1 + (1 - t) * RInt (fun a => RInt (G2 a) 0 (1 - a)) 0 1).
  { apply is_RInt_unique. apply (is_RInt_plus (V := R_NormedModule)); apply (is_RInt_scal (V := R_NormedModule)); now apply (RInt_correct (V := R_CompleteNormedModule)). }
  rewrite E, E'. ring.
Qed.
