(** Accuracy of the quadrature over triangles. *)
From Coq Require Import List Arith ZArith Reals Lra Lia Bool.
From Coquelicot Require Import Coquelicot.
From Verif Require Import Outcome Num NumFun M_Triangle S_Triangle L_Triangle L_Triangle2 S_Interp1d S_Lim L_Lim S_TriErr.
Import ListNotations.
Local Open Scope R_scope.

(** *** Continuous functions of two variables on the standard triangle *)
Definition tri2 (a b : R) : Prop := 0 <= a /\ 0 <= b /\ a + b <= 1.
Definition cont2 (G : R -> R -> R) : Prop := forall a b, tri2 a b -> forall eps, 0 < eps -> exists d, 0 < d /\
  forall a' b', tri2 a' b' -> Rabs (a' - a) < d -> Rabs (b' - b) < d -> Rabs (G a' b' - G a b) <= eps.
Definition ext (G : R -> R -> R) (a b : R) : R := G a (clamp 0 (1 - a) b).
Lemma ext_in G a b : tri2 a b -> ext G a b = G a b.
Proof. intros (A & B & C). unfold ext. now rewrite clamp_id by lra. Qed.
Lemma clamp_tri a b : 0 <= a <= 1 -> tri2 a (clamp 0 (1 - a) b).
Proof. intros H. pose proof (clamp_in 0 (1 - a) b ltac:(lra)). unfold tri2. lra. Qed.
Lemma clamp_move s s' b b' d : Rabs (s - s') < d -> Rabs (b - b') < d -> Rabs (clamp 0 s b - clamp 0 s' b') < 2 * d.
Proof. unfold clamp, Rmax, Rmin. repeat destruct Rle_dec; unfold Rabs; repeat destruct Rcase_abs; lra. Qed.
Lemma ext_uniform G : cont2 G -> forall eps, 0 < eps -> exists d, 0 < d /\
  forall a b a' b', 0 <= a <= 1 -> 0 <= a' <= 1 -> 0 <= b <= 1 -> 0 <= b' <= 1 -> Rabs (a - a') < d -> Rabs (b - b') < d -> Rabs (ext G a b - ext G a' b') <= eps.
Proof.
  intros HC eps He. destruct (box_uniform [(0, 1); (0, 1)] (fun p => ext G (nth 0 p 0) (nth 1 p 0))) with (eps := eps) as (d & D1 & D2); auto.
  - intros p Hp e E. inversion Hp as [|? x ? r Hx Hr]; subst. inversion Hr as [|? y ? r' Hy Hr']; subst. inversion Hr'; subst. simpl in Hx, Hy.
    destruct (HC x (clamp 0 (1 - x) y) (clamp_tri x y Hx) e E) as (d & D1 & D2). exists (d / 2). split; [lra|].
    intros q Hq Hc. inversion Hq as [|? u ? s Hu Hs]; subst. inversion Hs as [|? v ? s' Hv Hs']; subst. inversion Hs'; subst. simpl in Hu, Hv.
    inversion Hc as [|? ? ? ? C1 C2]; subst. inversion C2 as [|? ? ? ? C3 _]; subst. cbn [nth]. unfold ext. apply D2.
    + now apply clamp_tri.
    + lra.
    + replace d with (2 * (d / 2)) by field. apply clamp_move; [|exact C3]. replace (1 - u - (1 - x)) with (- (u - x)) by ring. now rewrite Rabs_Ropp.
  - exists d. split; [exact D1|]. intros a b a' b' H1 H2 H3 H4 H5 H6. apply (D2 [a; b] [a'; b']); constructor; simpl; auto; constructor; simpl; auto; constructor.
Qed.
Lemma ext_line G a : cont2 G -> 0 <= a <= 1 -> continuous_on (ext G a) 0 1.
Proof.
  intros HC Ha x Hx eps He. destruct (ext_uniform G HC eps He) as (d & D1 & D2). exists d. split; [exact D1|].
  intros y Hy Hd. apply D2; auto. now rewrite Rminus_diag_eq, Rabs_R0 by reflexivity.
Qed.
Lemma cont_ex_RInt f a b : a <= b -> continuous_on f a b -> ex_RInt f a b.
Proof.
  intros L C. apply (ex_RInt_ext (fun t => f (clamp a b t))).
  - intros x Hx. rewrite Rmin_left, Rmax_right in Hx by exact L. now rewrite clamp_id by lra.
  - apply (ex_RInt_continuous (V := R_CompleteNormedModule)). intros z _. now apply clamp_cont.
Qed.
Lemma cont_sub f a b c d : a <= c -> d <= b -> continuous_on f a b -> continuous_on f c d.
Proof. intros H K C x Hx eps He. destruct (C x ltac:(lra) eps He) as (e & E1 & E2). exists e. split; [exact E1|]. intros y Hy. apply E2. lra. Qed.
Lemma inner_ex G a : cont2 G -> 0 <= a <= 1 -> ex_RInt (G a) 0 (1 - a).
Proof.
  intros HC Ha. apply (ex_RInt_ext (ext G a)).
  - intros x Hx. rewrite Rmin_left, Rmax_right in Hx by lra. apply ext_in. unfold tri2. lra.
  - apply cont_ex_RInt; [lra|]. apply (cont_sub _ 0 1); [lra|lra|now apply ext_line].
Qed.
Lemma inner_split G a : cont2 G -> 0 <= a <= 1 -> RInt (G a) 0 (1 - a) = RInt (ext G a) 0 1 - a * ext G a 1.
Proof.
  intros HC Ha. assert (C := ext_line G a HC Ha).
  assert (E : RInt (ext G a) 0 1 = RInt (ext G a) 0 (1 - a) + RInt (ext G a) (1 - a) 1).
  { symmetry. apply (RInt_Chasles (V := R_CompleteNormedModule) (ext G a)); apply cont_ex_RInt; try lra; apply (cont_sub _ 0 1); auto; lra. }
  assert (E1 : RInt (ext G a) 0 (1 - a) = RInt (G a) 0 (1 - a)).
  { apply RInt_ext. intros x Hx. rewrite Rmin_left, Rmax_right in Hx by lra. apply ext_in. unfold tri2. lra. }
  assert (E2 : RInt (ext G a) (1 - a) 1 = RInt (fun _ => ext G a 1) (1 - a) 1).
  { apply RInt_ext. intros x Hx. rewrite Rmin_left, Rmax_right in Hx by lra. unfold ext. f_equal. unfold clamp. now rewrite !Rmin_left by lra. }
  rewrite RInt_const in E2. unfold scal in E2. simpl in E2. unfold mult in E2. simpl in E2. rewrite E, E1, E2. lra.
Qed.
Lemma outer_cont G : cont2 G -> continuous_on (fun a => RInt (G a) 0 (1 - a)) 0 1.
Proof.
  intros HC.
  assert (J : continuous_on (fun a => RInt (ext G a) 0 1) 0 1).
  { intros x Hx eps He. destruct (ext_uniform G HC eps He) as (d & D1 & D2). exists d. split; [exact D1|]. intros y Hy Hd.
    assert (Ix : ex_RInt (ext G x) 0 1) by (apply cont_ex_RInt; [lra|now apply ext_line]).
    assert (Iy : ex_RInt (ext G y) 0 1) by (apply cont_ex_RInt; [lra|now apply ext_line]).
    assert (B : forall t, 0 <= t <= 1 -> Rabs (ext G y t - ext G x t) <= eps) by (intros t Ht; apply D2; auto; now rewrite Rminus_diag_eq, Rabs_R0 by reflexivity).
    assert (E : RInt (ext G y) 0 1 - RInt (ext G x) 0 1 = RInt (fun t => ext G y t - ext G x t) 0 1) by (symmetry; apply (RInt_minus (V := R_CompleteNormedModule)); assumption).
    rewrite E. replace eps with ((1 - 0) * eps) by ring. apply (abs_RInt_le_const (fun t => ext G y t - ext G x t)); [lra| |exact B].
    apply (ex_RInt_minus (V := R_NormedModule)); assumption. }
  assert (K : continuous_on (fun a => a * ext G a 1) 0 1).
  { apply (cont_mul (fun a => a) (fun a => ext G a 1)); [lra| |].
    - intros x Hx eps He. exists eps. split; [exact He|]. intros y Hy Hd. lra.
    - intros x Hx eps He. destruct (ext_uniform G HC eps He) as (d & D1 & D2). exists d. split; [exact D1|]. intros y Hy Hd.
      apply D2; auto; try lra. now rewrite Rminus_diag_eq, Rabs_R0 by reflexivity. }
  intros x Hx eps He. destruct (J x Hx (eps / 2) ltac:(lra)) as (d1 & P1 & Q1). destruct (K x Hx (eps / 2) ltac:(lra)) as (d2 & P2 & Q2).
  exists (Rmin d1 d2). split; [now apply Rmin_pos|]. intros y Hy Hd. rewrite !inner_split by assumption.
  assert (A1 := Q1 y Hy (Rlt_le_trans _ _ _ Hd (Rmin_l _ _))). assert (A2 := Q2 y Hy (Rlt_le_trans _ _ _ Hd (Rmin_r _ _))). cbn beta in A1, A2.
  apply Rabs_le_between in A1. apply Rabs_le_between in A2. apply Rabs_le. split; lra.
Qed.

(** *** Integrals of functions that are close *)
Lemma poly_inner l a : ex_RInt (fun b => poly2 l a b) 0 (1 - a).
Proof.
  eexists. unfold poly2. apply (is_lsum (fun m b => fst m * (a ^ fst (snd m) * b ^ snd (snd m)))). intros m. apply (is_RInt_scal (V := R_NormedModule)), is_inner.
Qed.
Lemma poly_outer l : ex_RInt (fun a => RInt (fun b => poly2 l a b) 0 (1 - a)) 0 1.
Proof.
  eexists. apply (is_RInt_ext (fun a => lsum (fun m => fst m * (a ^ fst (snd m) * (1 - a) ^ S (snd (snd m)) / INR (S (snd (snd m))))) l)).
  - intros a _. symmetry. apply is_RInt_unique. unfold poly2.
    apply (is_lsum (fun m b => fst m * (a ^ fst (snd m) * b ^ snd (snd m)))). intros m. apply (is_RInt_scal (V := R_NormedModule)), is_inner.
  - apply (is_lsum (fun m a => fst m * (a ^ fst (snd m) * (1 - a) ^ S (snd (snd m)) / INR (S (snd (snd m)))))).
    intros m. apply (is_RInt_scal (V := R_NormedModule)), is_outer.
Qed.
Lemma integral_close G l eps : cont2 G -> (forall a b, tri2 a b -> Rabs (G a b - poly2 l a b) <= eps) ->
  Rabs (RInt (fun a => RInt (G a) 0 (1 - a)) 0 1 - RInt (fun a => RInt (fun b => poly2 l a b) 0 (1 - a)) 0 1) <= eps / 2.
Proof.
  intros HC HB. assert (IG := cont_ex_RInt _ 0 1 ltac:(lra) (outer_cont G HC)). assert (IP := poly_outer l).
  set (g := fun a => RInt (G a) 0 (1 - a)) in *. set (h := fun a => RInt (fun b => poly2 l a b) 0 (1 - a)) in *.
  assert (B : forall a, 0 <= a <= 1 -> Rabs (g a - h a) <= eps * (1 - a)).
  { intros a Ha. unfold g, h. assert (I1 := inner_ex G a HC Ha). assert (I2 := poly_inner l a).
    assert (E : RInt (G a) 0 (1 - a) - RInt (fun b => poly2 l a b) 0 (1 - a) = RInt (fun b => G a b - poly2 l a b) 0 (1 - a)) by (symmetry; apply (RInt_minus (V := R_CompleteNormedModule)); assumption).
    rewrite E. replace (eps * (1 - a)) with ((1 - a - 0) * eps) by ring. apply (abs_RInt_le_const (fun b => G a b - poly2 l a b)); [lra| |].
    - apply (ex_RInt_minus (V := R_NormedModule)); assumption.
    - intros b Hb. apply HB. unfold tri2. lra. }
  assert (E : RInt g 0 1 - RInt h 0 1 = RInt (fun a => g a - h a) 0 1) by (symmetry; apply (RInt_minus (V := R_CompleteNormedModule)); assumption).
  assert (ID : ex_RInt (fun a => g a - h a) 0 1) by (apply (ex_RInt_minus (V := R_NormedModule)); assumption).
  assert (L : is_RInt (fun a => eps * (1 - a)) 0 1 (eps / 2)).
  { replace (eps / 2) with (minus ((fun a => eps * (a - a ^ 2 / 2)) 1) ((fun a => eps * (a - a ^ 2 / 2)) 0)) by (unfold minus, plus, opp; simpl; field).
    apply (is_RInt_derive (fun a => eps * (a - a ^ 2 / 2))).
    - intros x _. auto_derive; [auto|]. ring_simplify. field.
    - intros x _. apply continuity_pt_filterlim. apply derivable_continuous_pt. exists (Derive (fun a => eps * (1 - a)) x).
      apply is_derive_Reals, Derive_correct. auto_derive. auto. }
  assert (M : is_RInt (fun a => - (eps * (1 - a))) 0 1 (- (eps / 2))) by (apply (is_RInt_opp (V := R_NormedModule)); exact L).
  rewrite E. apply Rabs_le. split.
  - rewrite <- (is_RInt_unique _ _ _ _ M). apply RInt_le; [lra|eexists; exact M|exact ID|]. intros x Hx. specialize (B x ltac:(lra)). apply Rabs_le_between in B. lra.
  - rewrite <- (is_RInt_unique _ _ _ _ L). apply RInt_le; [lra|exact ID|eexists; exact L|]. intros x Hx. specialize (B x ltac:(lra)). apply Rabs_le_between in B. lra.
Qed.

(** *** Pulling back *)
Lemma coord_move p q r a b a' b' d m : Rabs (q - p) <= m -> Rabs (r - p) <= m -> Rabs (a' - a) < d -> Rabs (b' - b) < d -> 0 <= m ->
  Rabs (p + a' * (q - p) + b' * (r - p) - (p + a * (q - p) + b * (r - p))) <= 2 * m * d.
Proof.
  intros Hq Hr Ha Hb Hm. replace (p + a' * (q - p) + b' * (r - p) - (p + a * (q - p) + b * (r - p))) with ((a' - a) * (q - p) + (b' - b) * (r - p)) by ring.
  apply Rle_trans with (1 := Rabs_triang _ _). rewrite !Rabs_mult.
  assert (Rabs (a' - a) * Rabs (q - p) <= d * m) by (apply Rmult_le_compat; try apply Rabs_pos; lra).
  assert (Rabs (b' - b) * Rabs (r - p) <= d * m) by (apply Rmult_le_compat; try apply Rabs_pos; lra). lra.
Qed.
Lemma pull_cont f p q r : continuous_in (inside p q r) f -> cont2 (fun a b => f (point p q r a b)).
Proof.
  intros HC a b Hab eps He.
  destruct (HC (point p q r a b)) with (eps := eps) as (d & D1 & D2); [exists a, b; unfold tri2 in Hab; tauto|exact He|].
  set (m := Rabs (vx q - vx p) + Rabs (vx r - vx p) + Rabs (vy q - vy p) + Rabs (vy r - vy p) + Rabs (vz q - vz p) + Rabs (vz r - vz p) + 1).
  pose proof (Rabs_pos (vx q - vx p)). pose proof (Rabs_pos (vx r - vx p)). pose proof (Rabs_pos (vy q - vy p)). pose proof (Rabs_pos (vy r - vy p)).
  pose proof (Rabs_pos (vz q - vz p)). pose proof (Rabs_pos (vz r - vz p)). assert (Hm : 1 <= m) by (unfold m; lra).
  set (e := d / (4 * m)). assert (Em : 2 * m * e = d / 2) by (unfold e; field; lra). assert (0 < e) by (apply Rdiv_lt_0_compat; lra).
  exists e. split; [assumption|]. intros a' b' Hab' Ha Hb. apply D2; [exists a', b'; unfold tri2 in Hab'; tauto|].
  unfold close3, point. cbn [vx vy vz].
  split; [|split]; (eapply Rle_lt_trans; [apply (coord_move _ _ _ a b a' b' e m); try assumption; unfold m; lra|lra]).
Qed.

Lemma weights_pos d : 0 <= weights d.
Proof. unfold weights. destruct (existsb _ _); lra. Qed.
(** The rule is nearly as good as the best polynomial approximation. *)
Lemma best_lemma : forall (f : vec3 R -> R) d l p q r eps, (1 <= d <= 8)%nat -> degree_le d l -> continuous_in (inside p q r) f ->
  (forall v, inside p q r v -> Rabs (f v - poly3 l v) <= eps) ->
  exists v, quadrature f d p q r = Ok v /\
    Rabs (v - surface_integral f p q r) <= area p q r * ((weights d + 1) * eps + 4 / 10 ^ 14 * size l p q r).
Proof.
  intros f d l p q r eps Hd Hl HC HB. unfold quadrature.
  destruct (linear_lemma f (poly3 l) 1 (-1) d p q r Hd) as (vf & vg & Ef & Eg & Ed).
  exists vf. split; [exact Ef|].
  destruct (bound_lemma (fun x => 1 * f x + -1 * poly3 l x) d p q r eps Hd) as (v & Ev & Bv).
  { intros x Hx. replace (1 * f x + -1 * poly3 l x) with (f x - poly3 l x) by ring. now apply HB. }
  rewrite Ed in Ev. injection Ev as <-. change (Rabs (1 * vf + -1 * vg) <= weights d * area p q r * eps) in Bv.
  destruct (degree_lemma d l p q r Hd Hl) as (w & Ew & Bw). rewrite Eg in Ew. injection Ew as <-.
  assert (I : Rabs (surface_integral f p q r - surface_integral (poly3 l) p q r) <= area p q r * eps).
  { unfold surface_integral. rewrite <- Rmult_minus_distr_l, Rabs_mult, (Rabs_right (2 * _)) by (pose proof (area_pos p q r); lra).
    assert (E : RInt (fun a => RInt (fun b => poly3 l (point p q r a b)) 0 (1 - a)) 0 1 = RInt (fun a => RInt (fun b => poly2 (pull p q r l) a b) 0 (1 - a)) 0 1).
    { apply RInt_ext. intros a _. apply RInt_ext. intros b _. now rewrite pull_at. }
    rewrite E. assert (C := integral_close (fun a b => f (point p q r a b)) (pull p q r l) eps (pull_cont f p q r HC)).
    assert (C' := C (fun a b Hab => ltac:(rewrite pull_at; apply HB; exists a, b; unfold tri2 in Hab; tauto))).
    pose proof (area_pos p q r). apply Rle_trans with (2 * area p q r * (eps / 2)); [apply Rmult_le_compat_l; lra|right; field]. }
  apply Rabs_le_between in Bv. apply Rabs_le_between in Bw. apply Rabs_le_between in I. apply Rabs_le. split; lra.
Qed.
Lemma const_size c p q r : size [mkM3 c 0 0 0] p q r = Rabs c.
Proof. unfold size. cbn [fold_right m_c m_i m_j m_k pow]. ring. Qed.
Lemma const_at c v : poly3 [mkM3 c 0 0 0] v = c.
Proof. unfold poly3, mono_at. cbn [fold_right m_c m_i m_j m_k pow]. ring. Qed.
(** Functions that vary little over the triangle. *)
Lemma oscillation_lemma : forall (f : vec3 R -> R) d p q r w, (1 <= d <= 8)%nat -> continuous_in (inside p q r) f ->
  (forall v, inside p q r v -> Rabs (f v - f p) <= w) ->
  exists v, quadrature f d p q r = Ok v /\
    Rabs (v - surface_integral f p q r) <= area p q r * ((weights d + 1) * w + 4 / 10 ^ 14 * Rabs (f p)).
Proof.
  intros f d p q r w Hd HC HB. rewrite <- (const_size (f p) p q r). apply best_lemma; auto.
  - constructor; [cbn; lia|constructor].
  - intros v Hv. rewrite const_at. now apply HB.
Qed.

(** *** Meshes *)
Lemma mesh_lemma f d B ts : (1 <= d <= 8)%nat ->
  List.Forall (fun t => exists v, over (fun p q r => v) t = v /\ (let '(p, q, r) := t in quadrature f d p q r = Ok v /\ Rabs (v - surface_integral f p q r) <= area p q r * B)) ts ->
  exists s, mesh_quadrature f d ts = Ok s /\ Rabs (s - mesh_sum (surface_integral f) ts) <= mesh_sum area ts * B.
Proof.
  intros Hd H. induction H as [|[[p q] r] ts (v & _ & E & Bv) _ IH].
  - exists 0. split; [reflexivity|]. unfold mesh_sum. cbn [fold_right]. rewrite Rminus_diag_eq, Rabs_R0 by reflexivity. lra.
  - destruct IH as (s & Es & Bs). exists (v + s). cbn [mesh_quadrature]. rewrite E. cbn [bind]. rewrite Es. cbn [bind]. split; [reflexivity|].
    unfold mesh_sum in *. cbn [fold_right over]. apply Rabs_le_between in Bv. apply Rabs_le_between in Bs. apply Rabs_le. split; lra.
Qed.
Lemma inside_close p q r v h : inside p q r v -> close3 h q p -> close3 h r p -> close3 (2 * h) v p.
Proof.
  intros (a & b & Ha & Hb & Hab & ->) (Q1 & Q2 & Q3) (R1 & R2 & R3).
  assert (X : forall x y z, Rabs (y - x) < h -> Rabs (z - x) < h -> Rabs (x + a * (y - x) + b * (z - x) - x) < 2 * h).
  { intros x y z Hy Hz. apply Rabs_def2 in Hy. apply Rabs_def2 in Hz. assert (0 < h) by lra. apply Rabs_def1; nra. }
  unfold close3, point. cbn [vx vy vz]. auto.
Qed.
Lemma cuboid_uniform lo hi f : continuous_in (in_cuboid lo hi) f -> forall eps, 0 < eps -> exists d, 0 < d /\
  forall v w, in_cuboid lo hi v -> in_cuboid lo hi w -> close3 d v w -> Rabs (f v - f w) <= eps.
Proof.
  intros HC eps He. destruct (box_uniform [(vx lo, vx hi); (vy lo, vy hi); (vz lo, vz hi)] (fun p => f (mkV3 (nth 0 p 0) (nth 1 p 0) (nth 2 p 0)))) with (eps := eps) as (d & D1 & D2); auto.
  - intros p Hp e E. inversion Hp as [|? x ? r Hx Hr]; subst. inversion Hr as [|? y ? r' Hy Hr']; subst. inversion Hr' as [|? z ? r'' Hz Hr'']; subst. inversion Hr''; subst. cbn [fst snd] in Hx, Hy, Hz. cbn [nth].
    destruct (HC (mkV3 x y z)) with (eps := e) as (d & D1 & D2); [unfold in_cuboid; cbn [vx vy vz]; tauto|exact E|]. exists d. split; [exact D1|].
    intros q Hq Hc. inversion Hq as [|? x' ? s Hx' Hs]; subst. inversion Hs as [|? y' ? s' Hy' Hs']; subst. inversion Hs' as [|? z' ? s'' Hz' Hs'']; subst. inversion Hs''; subst. cbn [fst snd] in Hx', Hy', Hz'.
    inversion Hc as [|? ? ? ? C1 C2]; subst. inversion C2 as [|? ? ? ? C3 C4]; subst. inversion C4 as [|? ? ? ? C5 _]; subst. cbn [nth]. apply D2; unfold in_cuboid, close3; cbn [vx vy vz]; tauto.
  - exists d. split; [exact D1|]. intros [a1 a2 a3] [b1 b2 b3] (A1 & A2 & A3) (B1 & B2 & B3) (C1 & C2 & C3). cbn [vx vy vz] in *.
    apply (D2 [a1; a2; a3] [b1; b2; b3]); repeat (constructor; [cbn [fst snd]; assumption|]); constructor.
Qed.
Lemma continuous_sub (A B : vec3 R -> Prop) f : (forall v, A v -> B v) -> continuous_in B f -> continuous_in A f.
Proof. intros H C v Hv eps He. destruct (C v (H v Hv) eps He) as (d & D1 & D2). exists d. split; [exact D1|]. intros w Hw. apply D2. auto. Qed.
Lemma vertex_in p q r : inside p q r p.
Proof. exists 0, 0. repeat split; try lra. destruct p as [p1 p2 p3]. unfold point. cbn [vx vy vz]. f_equal; ring. Qed.
Lemma mesh_converges : forall (f : vec3 R -> R) lo hi F, continuous_in (in_cuboid lo hi) f -> (forall v, in_cuboid lo hi v -> Rabs (f v) <= F) -> forall eps, 0 < eps -> exists h, 0 < h /\
  forall d ts, (1 <= d <= 8)%nat -> List.Forall (small_in (in_cuboid lo hi) h) ts ->
  exists s, mesh_quadrature f d ts = Ok s /\ Rabs (s - mesh_sum (surface_integral f) ts) <= mesh_sum area ts * (eps + 4 / 10 ^ 14 * F).
Proof.
  intros f lo hi F HC HF eps He. destruct (cuboid_uniform lo hi f HC (eps / 4) ltac:(lra)) as (e & E1 & E2).
  exists (e / 2). split; [lra|]. intros d ts Hd Ht. apply mesh_lemma; [exact Hd|]. eapply List.Forall_impl; [|exact Ht].
  intros [[p q] r] (A & Q & R). 
  assert (Ip := A p (vertex_in p q r)).
  destruct (oscillation_lemma f d p q r (eps / 4) Hd (continuous_sub _ _ f A HC)) as (v & Ev & Bv).
  { intros v Hv. apply E2; auto. replace e with (2 * (e / 2)) by field. now apply (inside_close p q r). }
  exists v. split; [reflexivity|]. split; [exact Ev|]. apply Rle_trans with (1 := Bv). apply Rmult_le_compat_l; [apply area_pos|].
  specialize (HF p Ip). assert (weights d <= 22 / 10) by (unfold weights; destruct (existsb _ _); lra). pose proof (weights_pos d). nra.
Qed.
