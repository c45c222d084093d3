(** Refinement of triangles. *)
From Coq Require Import List Arith ZArith Reals Lra Lia Bool.
From Coquelicot Require Import Coquelicot.
From Verif Require Import Outcome Num NumFun M_Triangle S_Triangle L_Triangle L_Triangle2 S_Interp1d S_Lim L_Lim S_TriErr S_TriSub L_TriErr L_TriSub.
Import ListNotations.
Local Open Scope R_scope.

(** *** Pieces are inside the triangle *)
Lemma inside_point p q r a b : 0 <= a -> 0 <= b -> a + b <= 1 -> inside p q r (point p q r a b).
Proof. intros A B C. exists a, b. auto. Qed.
Lemma point_point p q r a1 b1 a2 b2 a3 b3 a b :
  point (point p q r a1 b1) (point p q r a2 b2) (point p q r a3 b3) a b = point p q r (a1 + a * (a2 - a1) + b * (a3 - a1)) (b1 + a * (b2 - b1) + b * (b3 - b1)).
Proof. apply vec_eq; unfold point; simpl; ring. Qed.
Lemma inside_sub p q r p' q' r' v : inside p q r p' -> inside p q r q' -> inside p q r r' -> inside p' q' r' v -> inside p q r v.
Proof.
  intros (a1 & b1 & A1 & B1 & C1 & ->) (a2 & b2 & A2 & B2 & C2 & ->) (a3 & b3 & A3 & B3 & C3 & ->) (a & b & A & B & C & ->).
  rewrite point_point. set (c := 1 - a - b).
  replace (a1 + a * (a2 - a1) + b * (a3 - a1)) with (c * a1 + a * a2 + b * a3) by (unfold c; ring).
  replace (b1 + a * (b2 - b1) + b * (b3 - b1)) with (c * b1 + a * b2 + b * b3) by (unfold c; ring).
  assert (0 <= c) by (unfold c; lra).
  assert (P : forall x y, 0 <= x -> 0 <= y -> 0 <= x * y) by (intros; now apply Rmult_le_pos).
  pose proof (P c a1). pose proof (P a a2). pose proof (P b a3). pose proof (P c b1). pose proof (P a b2). pose proof (P b b3).
  pose proof (P c (1 - a1 - b1)). pose proof (P a (1 - a2 - b2)). pose proof (P b (1 - a3 - b3)). apply inside_point; try lra.
  assert (c + a + b = 1) by (unfold c; lra). lra.
Qed.
Lemma vert_p p q r : inside p q r p. Proof. exists 0, 0. repeat split; try lra. apply vec_eq; unfold point; simpl; ring. Qed.
Lemma vert_q p q r : inside p q r q. Proof. exists 1, 0. repeat split; try lra. apply vec_eq; unfold point; simpl; ring. Qed.
Lemma vert_r p q r : inside p q r r. Proof. exists 0, 1. repeat split; try lra. apply vec_eq; unfold point; simpl; ring. Qed.
Lemma side_in p q r u v t : 0 <= t <= 1 -> inside p q r u -> inside p q r v -> inside p q r (on_side t u v).
Proof.
  intros Ht Hu Hv. apply (inside_sub p q r u v u); auto. exists t, 0. repeat split; try lra. apply vec_eq; unfold point, on_side; simpl; ring.
Qed.
Lemma mid_in p q r u v : inside p q r u -> inside p q r v -> inside p q r (mid u v).
Proof. apply side_in. lra. Qed.
Lemma mid_comm u v : mid u v = mid v u.
Proof. apply vec_eq; unfold mid, on_side; simpl; field. Qed.
Lemma cont_sub3 f p q r p' q' r' : continuous_in (inside p q r) f -> inside p q r p' -> inside p q r q' -> inside p q r r' -> continuous_in (inside p' q' r') f.
Proof. intros H P Q S. apply (continuous_sub _ (inside p q r)); [|exact H]. intros v. now apply inside_sub. Qed.

(** *** The integral over the four pieces *)
Section Pieces.
Variables (f : vec3 R -> R) (p q r : vec3 R).
Hypothesis HC : continuous_in (inside p q r) f.
Notation I := (surface_integral f).
Notation into v := (inside p q r v).
Lemma sw u v w : into u -> into v -> into w -> I u v w = I u w v.
Proof using HC. intros. apply surface_swap. apply (cont_sub3 f p q r); auto. Qed.
Lemma tu u v w : into u -> into v -> into w -> I u v w = I w v u.
Proof using HC. intros. apply surface_turn. apply (cont_sub3 f p q r); auto. Qed.
Lemma halves u v w : into u -> into v -> into w -> I u v w = I u v (mid u w) + I (mid u w) v w.
Proof using HC. intros. apply surface_cut; [lra|]. apply (cont_sub3 f p q r); auto. Qed.
Lemma quarter_integral : I p q r = mesh_sum I (quarter (p, q, r)).
Proof using HC.
  cbn [quarter mesh_sum fold_right over]. rewrite (mid_comm r p). set (a := mid p q). set (b := mid q r). set (c := mid p r).
  assert (P := vert_p p q r). assert (Q := vert_q p q r). assert (S := vert_r p q r).
  assert (A : into a) by now apply mid_in. assert (B : into b) by now apply mid_in. assert (C : into c) by now apply mid_in.
  set (o := mid q c). assert (O : into o) by now apply mid_in.
  assert (Eo : mid a b = o) by (apply vec_eq; unfold o, a, b, c, mid, on_side; simpl; field).
  rewrite (halves p q r) by auto. fold c.
  (* p q c *)
  rewrite (sw p q c), (halves p c q) by auto. fold a. rewrite (sw p c a) by auto.
  (* c q r *)
  rewrite (tu c q r), (sw r q c), (tu r c q), (halves q c r) by auto. fold b.
  rewrite (tu b c r), (sw r c b), (tu r b c) by auto.
  (* the parallelogram *)
  rewrite (sw a q b), (tu a b q) by auto.
  assert (X1 : I a c q = I a c o + I a o q). { rewrite (tu a c q), (sw q c a), (tu q a c), (tu c a q), (halves q a c) by auto. fold o. rewrite (tu q a o), (sw o a q), (tu o q a), (sw a q o), (tu o a c), (sw c a o), (tu c o a), (sw a o c) by auto. lra. }
  assert (X2 : I q c b = I b c o + I b o q). { rewrite (tu q c b), (sw b c q), (tu b q c), (tu c q b), (sw b q c), (tu b c q), (sw q c b), (halves q b c) by auto. fold o. rewrite (tu q b o), (sw o b q), (tu o q b), (sw b q o), (tu o b c), (sw c b o), (tu c o b), (sw b o c) by auto. lra. }
  assert (X3 : I q b a = I a o q + I b o q). { rewrite (sw q b a), (tu q a b), (sw b a q), (tu b q a), (halves a q b) by auto. rewrite Eo. rewrite (sw a q o), (tu o q b), (sw b q o) by auto. lra. }
  assert (X4 : I a b c = I a c o + I b c o). { rewrite (sw a b c), (halves a c b) by auto. rewrite Eo. rewrite (tu o c b) by auto. lra. }
  rewrite X1, X2, X3, X4. lra.
Qed.
End Pieces.

(** *** Repeated refinement *)
Definition subset (t t' : triangle) : Prop := let '(p, q, r) := t in let '(p', q', r') := t' in inside p' q' r' p /\ inside p' q' r' q /\ inside p' q' r' r.
Lemma subset_in p q r p' q' r' v : subset (p, q, r) (p', q', r') -> inside p q r v -> inside p' q' r' v.
Proof. intros (A & B & C). now apply inside_sub. Qed.
Lemma subset_trans t u w : subset t u -> subset u w -> subset t w.
Proof. destruct t as [[p q] r], u as [[p' q'] r'], w as [[p2 q2] r2]. intros (A & B & C) K. repeat split; eapply subset_in; eauto. Qed.
Lemma quarter_subset t : List.Forall (fun u => subset u t) (quarter t).
Proof.
  destruct t as [[p q] r]. pose proof (vert_p p q r). pose proof (vert_q p q r). pose proof (vert_r p q r).
  cbn [quarter]. repeat (constructor; [repeat split; auto using mid_in|]). constructor.
Qed.
Lemma mesh_app g ts us : mesh_sum g (ts ++ us) = mesh_sum g ts + mesh_sum g us.
Proof. unfold mesh_sum. induction ts as [|t ts IH]; cbn [app fold_right]; [lra|]. rewrite IH. lra. Qed.
Lemma refine_subset n : forall ts t0, List.Forall (fun u => subset u t0) ts -> List.Forall (fun u => subset u t0) (refine n ts).
Proof.
  induction n as [|n IH]; intros ts t0 H; cbn [refine]; [exact H|]. apply IH. apply List.Forall_flat_map. eapply List.Forall_impl; [|exact H]. intros t Ht.
  eapply List.Forall_impl; [|apply quarter_subset]. intros u Hu. cbn beta in *. eapply subset_trans; eauto.
Qed.
Lemma quarter_area p q r : mesh_sum area (quarter (p, q, r)) = area p q r.
Proof.
  cbn [quarter mesh_sum fold_right over].
  assert (H : forall p' q' r', gram p' q' r' = (1 / 4 * (1 / 4)) * gram p q r -> area p' q' r' = 1 / 4 * area p q r) by (intros; apply area_scale; [lra|assumption]).
  rewrite (H p), (H (mid p q) q), (H (mid r p)), (H (mid p q)); [lra| | | |]; unfold gram, mid, on_side, sq; cbn [vx vy vz]; field.
Qed.
Lemma refine_area n : forall ts, mesh_sum area (refine n ts) = mesh_sum area ts.
Proof.
  induction n as [|n IH]; intros ts; cbn [refine]; [reflexivity|]. rewrite IH. induction ts as [|[[p q] r] ts IHs]; [reflexivity|].
  cbn [flat_map]. rewrite mesh_app, IHs, quarter_area. reflexivity.
Qed.
Lemma refine_integral f t0 n : (let '(p, q, r) := t0 in continuous_in (inside p q r) f) -> forall ts, List.Forall (fun u => subset u t0) ts ->
  mesh_sum (surface_integral f) (refine n ts) = mesh_sum (surface_integral f) ts.
Proof.
  destruct t0 as [[p0 q0] r0]. intros HC. induction n as [|n IH]; intros ts H; cbn [refine]; [reflexivity|].
  rewrite IH.
  - induction H as [|[[p q] r] ts Ht H IHs]; [reflexivity|]. cbn [flat_map]. rewrite mesh_app, IHs, <- quarter_integral; [reflexivity|].
    apply (continuous_sub _ (inside p0 q0 r0)); [|exact HC]. intros v. now apply subset_in.
  - apply List.Forall_flat_map. eapply List.Forall_impl; [|exact H]. intros t Ht. eapply List.Forall_impl; [|apply quarter_subset]. intros u Hu. cbn beta in *. eapply subset_trans; eauto.
Qed.
Lemma subset_self p q r : List.Forall (fun u => subset u (p, q, r)) [(p, q, r)].
Proof. constructor; [|constructor]. repeat split; [apply vert_p|apply vert_q|apply vert_r]. Qed.
Lemma abs_half h x : Rabs x <= h -> Rabs (x / 2) <= h / 2.
Proof. unfold Rabs. repeat destruct Rcase_abs; lra. Qed.
Lemma quarter_spans h t : spans h t -> List.Forall (spans (h / 2)) (quarter t).
Proof.
  destruct t as [[p q] r]. intros ((A1 & A2 & A3) & (B1 & B2 & B3) & C1 & C2 & C3).
  cbn [quarter]. repeat (constructor; [|]); try exact (List.Forall_nil _).
  all: unfold spans, apart_le, mid, on_side; cbn [vx vy vz].
  all: apply Rabs_le_between in A1, A2, A3, B1, B2, B3, C1, C2, C3; repeat split; apply Rabs_le; lra.
Qed.
Lemma refine_spans n : forall h ts, List.Forall (spans h) ts -> List.Forall (spans (h / 2 ^ n)) (refine n ts).
Proof.
  induction n as [|n IH]; intros h ts H; cbn [refine].
  - eapply List.Forall_impl; [|exact H]. intros t. now replace (h / 2 ^ 0) with h by (simpl; field).
  - replace (h / 2 ^ S n) with (h / 2 / 2 ^ n) by (simpl; field; apply pow_nonzero; lra). apply IH.
    apply List.Forall_flat_map. eapply List.Forall_impl; [|exact H]. intros t. apply quarter_spans.
Qed.
(** Order of convergence. *)
Lemma refine_rate : forall f d k p q r K B h n, (1 <= d <= 8)%nat -> continuous_in (inside p q r) f -> locally_polynomial d k (inside p q r) f K B -> spans h (p, q, r) ->
  exists s, mesh_quadrature f d (refine n [(p, q, r)]) = Ok s /\
    Rabs (s - surface_integral f p q r) <= area p q r * ((weights d + 1) * (K * (h / 2 ^ n) ^ k) + 4 / 10 ^ 14 * B).
Proof.
  intros f d k p q r K B h n Hd HC HL Hh.
  assert (S1 := refine_subset n _ _ (subset_self p q r)).
  assert (S2 := refine_spans n h [(p, q, r)] (List.Forall_cons _ Hh (List.Forall_nil _))).
  destruct (mesh_lemma f d ((weights d + 1) * (K * (h / 2 ^ n) ^ k) + 4 / 10 ^ 14 * B) (refine n [(p, q, r)]) Hd) as (s & Es & Bs).
  - apply List.Forall_forall. intros [[p' q'] r'] Hin. rewrite List.Forall_forall in S1, S2. specialize (S1 _ Hin). specialize (S2 _ Hin). cbn beta in S1.
    assert (Sub : forall v, inside p' q' r' v -> inside p q r v) by (intros v; now apply subset_in).
    destruct (HL _ p' q' r' S2 Sub) as (l & L1 & L2 & L3).
    destruct (best_lemma f d l p' q' r' _ Hd L1 (continuous_sub _ _ f Sub HC) L3) as (v & Ev & Bv).
    exists v. split; [reflexivity|]. split; [exact Ev|]. apply Rle_trans with (1 := Bv). apply Rmult_le_compat_l; [apply area_pos|]. lra.
  - exists s. split; [exact Es|]. rewrite (refine_integral f (p, q, r) n HC _ (subset_self p q r)), refine_area in Bs.
    unfold mesh_sum in Bs. cbn [fold_right over] in Bs. rewrite !Rplus_0_r in Bs. exact Bs.
Qed.

(** *** Continuous integrands *)
Definition image (p q r : vec3 R) (t : triangle) : triangle :=
  let '(u, v, w) := t in (point p q r (vx u) (vy u), point p q r (vx v) (vy v), point p q r (vx w) (vy w)).
Lemma mid_image p q r u v : mid (point p q r (vx u) (vy u)) (point p q r (vx v) (vy v)) = point p q r (vx (mid u v)) (vy (mid u v)).
Proof. apply vec_eq; unfold mid, on_side, point; simpl; ring. Qed.
Lemma refine_image p q r n : forall ts, refine n (map (image p q r) ts) = map (image p q r) (refine n ts).
Proof.
  induction n as [|n IH]; intros ts; cbn [refine]; [reflexivity|]. rewrite <- IH. f_equal. induction ts as [|[[u v] w] ts IHs]; [reflexivity|].
  cbn [map flat_map]. rewrite IHs, map_app. f_equal. cbn [image quarter map]. now rewrite !mid_image.
Qed.
Definition unit_tri : triangle := (mkV3 0 0 0, mkV3 1 0 0, mkV3 0 1 0).
Lemma image_unit p q r : image p q r unit_tri = (p, q, r).
Proof. unfold image, unit_tri. cbn [vx vy vz]. repeat f_equal; apply vec_eq; unfold point; simpl; ring. Qed.
Lemma refine_converges : forall f p q r F, continuous_in (inside p q r) f -> (forall v, inside p q r v -> Rabs (f v) <= F) -> forall eps, 0 < eps -> exists N,
  forall n d, (N <= n)%nat -> (1 <= d <= 8)%nat ->
  exists s, mesh_quadrature f d (refine n [(p, q, r)]) = Ok s /\ Rabs (s - surface_integral f p q r) <= area p q r * (eps + 4 / 10 ^ 14 * F).
Proof.
  intros f p q r F HC HF eps He. set (G := fun a b => f (point p q r a b)). assert (CG : cont2 G) by now apply pull_cont.
  destruct (ext_uniform G CG (eps / 4) ltac:(lra)) as (e & E1 & E2).
  destruct (pow_lt_1_zero (1 / 2) ltac:(rewrite Rabs_right; lra) (e / 2) ltac:(lra)) as (N & HN).
  exists N. intros n d Hn Hd.
  assert (S1 := refine_subset n _ _ (subset_self (mkV3 0 0 0) (mkV3 1 0 0) (mkV3 0 1 0))).
  assert (SU : spans 1 unit_tri) by (unfold unit_tri, spans, apart_le; cbn [vx vy vz]; repeat split; unfold Rabs; repeat destruct Rcase_abs; lra).
  assert (S2 := refine_spans n 1 [unit_tri] (List.Forall_cons _ SU (List.Forall_nil _))).
  assert (Hsm : 1 / 2 ^ n < e / 2). { specialize (HN n Hn). rewrite Rabs_right in HN by (left; apply Rgt_lt, pow_lt; lra || (apply Rgt_lt; apply pow_lt; lra)). unfold Rdiv in *. rewrite Rmult_1_l in *. rewrite <- Rinv_pow in HN by lra. exact HN. }
  assert (EQ : refine n [(p, q, r)] = map (image p q r) (refine n [unit_tri])). { rewrite <- refine_image. cbn [map]. now rewrite image_unit. }
  destruct (mesh_lemma f d (eps + 4 / 10 ^ 14 * F) (refine n [(p, q, r)]) Hd) as (s & Es & Bs).
  - rewrite EQ. apply List.Forall_forall. intros t Ht. apply in_map_iff in Ht. destruct Ht as ([[u v] w] & <- & Hin). cbn [image].
    rewrite List.Forall_forall in S1, S2. specialize (S1 _ Hin). specialize (S2 _ Hin). destruct S1 as (U & V & W). destruct S2 as ((A1 & A2 & _) & _ & C1 & C2 & _).
    assert (IN : forall z, inside (mkV3 0 0 0) (mkV3 1 0 0) (mkV3 0 1 0) z -> tri2 (vx z) (vy z)). { intros z (a & b & Ha & Hb & Hab & ->). unfold tri2, point. cbn [vx vy vz]. lra. }
    apply IN in U. apply IN in V. apply IN in W.
    assert (TI : forall a b, tri2 a b -> inside p q r (point p q r a b)) by (intros a b (X & Y & Z); now apply inside_point).
    assert (Sub : forall z, inside (point p q r (vx u) (vy u)) (point p q r (vx v) (vy v)) (point p q r (vx w) (vy w)) z -> inside p q r z) by (intros z; apply inside_sub; now apply TI).
    destruct (oscillation_lemma f d (point p q r (vx u) (vy u)) (point p q r (vx v) (vy v)) (point p q r (vx w) (vy w)) (eps / 4) Hd (continuous_sub _ _ f Sub HC)) as (z & Ez & Bz).
    { intros z (a & b & Ha & Hb & Hab & ->). rewrite point_point.
      set (x1 := vx u + a * (vx v - vx u) + b * (vx w - vx u)). set (y1 := vy u + a * (vy v - vy u) + b * (vy w - vy u)).
      assert (T : tri2 x1 y1).
      { destruct U as (U1 & U2 & U3), V as (V1 & V2 & V3), W as (W1 & W2 & W3). set (c := 1 - a - b). assert (0 <= c) by (unfold c; lra).
        replace x1 with (c * vx u + a * vx v + b * vx w) by (unfold c, x1; ring). replace y1 with (c * vy u + a * vy v + b * vy w) by (unfold c, y1; ring).
        assert (P : forall x y, 0 <= x -> 0 <= y -> 0 <= x * y) by (intros; now apply Rmult_le_pos).
        pose proof (P c (vx u)). pose proof (P a (vx v)). pose proof (P b (vx w)). pose proof (P c (vy u)). pose proof (P a (vy v)). pose proof (P b (vy w)).
        pose proof (P c (1 - vx u - vy u)). pose proof (P a (1 - vx v - vy v)). pose proof (P b (1 - vx w - vy w)). unfold tri2. assert (c + a + b = 1) by (unfold c; lra). lra. }
      change (Rabs (G x1 y1 - G (vx u) (vy u)) <= eps / 4). rewrite <- (ext_in G x1 y1 T), <- (ext_in G (vx u) (vy u) U).
      assert (M : forall s1 s2 s3, Rabs (s1 - s2) <= 1 / 2 ^ n -> Rabs (s3 - s1) <= 1 / 2 ^ n -> Rabs (s1 + a * (s2 - s1) + b * (s3 - s1) - s1) < e).
      { intros s1 s2 s3 X Y. apply Rabs_le_between in X. apply Rabs_le_between in Y.
        set (g := 1 / 2 ^ n) in *. assert (a * (s2 - s1) <= a * g) by (apply Rmult_le_compat_l; lra). assert (a * (- g) <= a * (s2 - s1)) by (apply Rmult_le_compat_l; lra).
        assert (b * (s3 - s1) <= b * g) by (apply Rmult_le_compat_l; lra). assert (b * (- g) <= b * (s3 - s1)) by (apply Rmult_le_compat_l; lra).
        assert (0 <= g) by lra. assert ((a + b) * g <= 1 * g) by (apply Rmult_le_compat_r; lra). apply Rabs_def1; lra. }
      destruct T as (T1 & T2 & T3), U as (U1 & U2 & U3). apply E2; try lra; apply M; assumption. }
    exists z. split; [reflexivity|]. split; [exact Ez|]. apply Rle_trans with (1 := Bz). apply Rmult_le_compat_l; [apply area_pos|].
    specialize (HF _ (TI _ _ U)). assert (weights d <= 22 / 10) by (unfold weights; destruct (existsb _ _); lra). pose proof (weights_pos d). nra.
  - exists s. split; [exact Es|]. rewrite (refine_integral f (p, q, r) n HC _ (subset_self p q r)), refine_area in Bs.
    unfold mesh_sum in Bs. cbn [fold_right over] in Bs. rewrite !Rplus_0_r in Bs. exact Bs.
Qed.
