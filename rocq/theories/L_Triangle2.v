(** Triangle quadrature: sharpness, symmetry, positivity, linearity. *)
From Coq Require Import List Arith ZArith Reals Lra Lia Bool.
From Coquelicot Require Import Coquelicot.
From Verif Require Import Outcome Num NumFun M_Triangle S_Triangle L_Triangle.
Import ListNotations.
Local Open Scope R_scope.

(** *** The degree is sharp *)
Definition fails_above (d : nat) : bool :=
  existsb (fun i => (zscale i (d + 1 - i) <? Z.abs (zerr d i (d + 1 - i)) * 10000000)%Z) (seq 0 (d + 2)).
Lemma fails_all : forallb fails_above orders = true.
Proof. vm_compute. reflexivity. Qed.
Definition o3 : vec3 R := mkV3 0 0 0.
Definition ex3 : vec3 R := mkV3 1 0 0.
Definition ey3 : vec3 R := mkV3 0 1 0.
Lemma area_std : area o3 ex3 ey3 = 1 / 2.
Proof. unfold area, sq. cbn [vx vy vz o3 ex3 ey3]. replace (_ * _ - _) with 1 by ring. rewrite sqrt_1. lra. Qed.
Lemma sharp_lemma d : (1 <= d <= 8)%nat -> exists l p q r v, degree_le (d + 1) l /\
  (let* t := tri_new (poly3 l) (Z.of_nat d) in tri_compute t p q r) = Ok v /\
  1 / 10 ^ 7 < Rabs (v - surface_integral (poly3 l) p q r).
Proof.
  intros Hd. pose proof fails_all as C. rewrite forallb_forall in C. specialize (C d (order_in d Hd)).
  unfold fails_above in C. apply existsb_exists in C. destruct C as (i & Hi & C). apply in_seq in Hi. apply Z.ltb_lt, IZR_lt in C.
  set (j := (d + 1 - i)%nat) in *.
  pose proof check_all as K. rewrite forallb_forall in K. specialize (K d (order_in d Hd)).
  unfold check in K. apply andb_prop in K. destruct K as [K1 _].
  exists [mkM3 1 i j 0], o3, ex3, ey3. eexists. split; [repeat constructor; cbn; lia|]. split; [apply compute_value; exact Hd|].
  unfold surface_integral. rewrite area_std. replace (2 * (1 / 2)) with 1 by lra. rewrite !Rmult_1_l.
  assert (Pt : forall a b, poly3 [mkM3 1 i j 0] (point o3 ex3 ey3 a b) = poly2 [(1, (i, j))] a b).
  { intros a b. unfold poly3, poly2, mono_at. cbn [fold_right lsum fst snd m_c m_i m_j m_k point vx vy vz o3 ex3 ey3 pow].
    replace (0 + a * (1 - 0) + b * (0 - 0)) with a by ring. replace (0 + a * (0 - 0) + b * (1 - 0)) with b by ring. ring. }
  replace (rule d _) with (rule d (poly2 [(1, (i, j))])).
  2:{ unfold rule. f_equal. apply lsum_ext. intros x _. now rewrite Pt. }
  rewrite (RInt_ext _ (fun a => RInt (fun b => poly2 [(1, (i, j))] a b) 0 (1 - a))).
  2:{ intros a _. apply RInt_ext. intros b _. now rewrite Pt. }
  rewrite poly2_exact, rule_poly2. cbn [lsum fst snd]. rewrite !Rmult_1_l, !Rplus_0_r.
  assert (Hs : 0 < IZR (zscale i j)).
  { unfold zscale. rewrite !mult_IZR, IZR_pow, zfact_ok. pose proof (INR_fact_lt_0 (i + j + 2)). pose proof (pow_lt _ (i + j + 1) den_pos).
    apply Rmult_lt_0_compat; [lra|assumption]. }
  assert (E : rule d (fun a b => a ^ i * b ^ j) - moment i j = IZR (zerr d i j) / IZR (zscale i j)).
  { unfold rule. rewrite zmoment_ok by exact K1. unfold moment, zerr, zscale. rewrite minus_IZR, !mult_IZR, IZR_pow, !zfact_ok.
    pose proof (INR_fact_neq_0 (i + j + 2)). pose proof (pow_nonzero (IZR den) (i + j + 1) ltac:(pose proof den_pos; lra)). field. auto. }
  rewrite E. unfold Rdiv at 2. rewrite Rabs_mult, (Rabs_right (/ _)) by (left; now apply Rinv_0_lt_compat).
  apply (Rmult_lt_reg_r (IZR (zscale i j))); [exact Hs|]. rewrite Rmult_assoc, Rinv_l, Rmult_1_r by lra.
  rewrite mult_IZR, abs_IZR in C. lra.
Qed.

(** *** Specification sanity: a constant integrates to its product by the area. *)
Lemma surface_const c p q r : surface_integral (fun _ => c) p q r = c * area p q r.
Proof.
  unfold surface_integral.
  rewrite (RInt_ext _ (fun a => RInt (fun b => poly2 [(c, (0, 0)%nat)] a b) 0 (1 - a))).
  2:{ intros a _. apply RInt_ext. intros b _. unfold poly2. cbn. ring. }
  rewrite poly2_exact. cbn [lsum fst snd]. unfold moment. cbn -[area]. lra.
Qed.

(** *** Permutation of the last two vertices *)
Definition zeq (p q : Z * Z) : bool := ((fst p =? fst q) && (snd p =? snd q))%Z.
Definition pteq (p q : zpt) : bool := zeq (fst (fst p)) (fst (fst q)) && zeq (snd (fst p)) (snd (fst q)) && zeq (snd p) (snd q).
Lemma pteq_ok p q : pteq p q = true -> p = q.
Proof.
  unfold pteq, zeq. destruct p as [[[a b] [c d]] [e f]], q as [[[a' b'] [c' d']] [e' f']]. cbn [fst snd]. intros H.
  repeat (apply andb_prop in H; destruct H as [H ?]). 
  repeat match goal with X : _ && _ = true |- _ => apply andb_prop in X; destruct X end.
  repeat match goal with X : (_ =? _)%Z = true |- _ => apply Z.eqb_eq in X; subst end. reflexivity.
Qed.
Fixpoint remove1 (p : zpt) (l : list zpt) : option (list zpt) :=
  match l with
  | [] => None
  | q :: l => if pteq p q then Some l else match remove1 p l with None => None | Some l' => Some (q :: l') end
  end.
Fixpoint permb (l l' : list zpt) : bool :=
  match l with
  | [] => match l' with [] => true | _ => false end
  | p :: l => match remove1 p l' with None => false | Some l'' => permb l l'' end
  end.
Lemma remove1_sum f p : forall l l', remove1 p l = Some l' -> lsum f l = f p + lsum f l'.
Proof.
  induction l as [|q l IH]; intros l' H; [discriminate|]. cbn [remove1] in H. destruct (pteq p q) eqn:E.
  - apply pteq_ok in E. injection H as <-. subst q. reflexivity.
  - destruct (remove1 p l) as [m|]; [|discriminate]. injection H as <-. cbn [lsum]. rewrite (IH m eq_refl). lra.
Qed.
Lemma permb_sum f : forall l l', permb l l' = true -> lsum f l = lsum f l'.
Proof.
  induction l as [|p l IH]; intros l' H; cbn [permb] in H; [destruct l'; [reflexivity|discriminate]|].
  destruct (remove1 p l') as [m|] eqn:E; [|discriminate]. cbn [lsum]. rewrite (remove1_sum f p l' m E). f_equal. now apply IH.
Qed.
Definition flip (p : zpt) : zpt := (snd (fst p), fst (fst p), snd p).
Lemma flip_all : forallb (fun d => permb (ztab d) (map flip (ztab d))) orders = true.
Proof. vm_compute. reflexivity. Qed.
Lemma rule_flip d g : (1 <= d <= 8)%nat -> rule d g = rule d (fun a b => g b a).
Proof.
  intros Hd. pose proof flip_all as C. rewrite forallb_forall in C. specialize (C d (order_in d Hd)).
  unfold rule. f_equal. rewrite (permb_sum _ _ _ C), lsum_map. apply lsum_ext. intros p _. reflexivity.
Qed.
Lemma area_flip p q r : area p r q = area p q r.
Proof. unfold area. f_equal. f_equal. unfold sq. ring. Qed.
Lemma point_flip p q r a b : point p r q a b = point p q r b a.
Proof. unfold point. f_equal; ring. Qed.
Lemma flip_lemma (f : vec3 R -> R) d p q r :
  (let* t := tri_new f d in tri_compute t p r q) = (let* t := tri_new f d in tri_compute t p q r).
Proof.
  destruct (Z.lt_ge_cases d 1) as [H1|H1]; [now rewrite new_exit by lia|].
  destruct (Z.lt_ge_cases 8 d) as [H2|H2]; [now rewrite new_exit by lia|].
  rewrite <- (Z2Nat.id d) by lia. rewrite !compute_value by lia. f_equal. rewrite area_flip. f_equal.
  rewrite rule_flip by lia. unfold rule. f_equal. apply lsum_ext. intros x _. now rewrite point_flip.
Qed.

(** *** Position and sign of the points *)
Definition pt_inside (p : zpt) : bool :=
  (0 <=? num (fst (fst p)))%Z && (0 <=? num (snd (fst p)))%Z && (num (fst (fst p)) + num (snd (fst p)) <=? den)%Z &&
  (num_ok (fst (fst p)) && num_ok (snd (fst p)) && num_ok (snd p)).
Lemma inside_all : forallb (fun d => forallb pt_inside (ztab d)) orders = true.
Proof. vm_compute. reflexivity. Qed.
Lemma lr_nonneg z : num_ok z = true -> (0 <= num z)%Z -> 0 <= lr z.
Proof.
  intros H1 H2. rewrite num_eq by exact H1. apply Rmult_le_pos; [now apply IZR_le|]. left. apply Rinv_0_lt_compat, den_pos.
Qed.
Lemma pt_inside_ok d x : (1 <= d <= 8)%nat -> In x (ztab d) -> 0 <= pa x /\ 0 <= pb x /\ pa x + pb x <= 1.
Proof.
  intros Hd Hx. pose proof inside_all as C. rewrite forallb_forall in C. specialize (C d (order_in d Hd)).
  rewrite forallb_forall in C. specialize (C x Hx). unfold pt_inside in C.
  repeat (apply andb_prop in C; destruct C as [C ?]). 
  repeat match goal with X : _ && _ = true |- _ => apply andb_prop in X; destruct X end.
  repeat match goal with X : (_ <=? _)%Z = true |- _ => apply Z.leb_le in X end.
  unfold pa, pb. repeat split; try (apply lr_nonneg; assumption). rewrite !num_eq by assumption. pose proof den_pos.
  unfold Rdiv. rewrite <- Rmult_plus_distr_r. apply (Rmult_le_reg_r (IZR den)); [assumption|].
  rewrite Rmult_assoc, Rinv_l, Rmult_1_r, Rmult_1_l by lra. rewrite <- plus_IZR. now apply IZR_le.
Qed.
Lemma table_point_inside d x p q r : (1 <= d <= 8)%nat -> In x (ztab d) -> inside p q r (point p q r (pa x) (pb x)).
Proof. intros Hd Hx. destruct (pt_inside_ok d x Hd Hx) as (A & B & C). now exists (pa x), (pb x). Qed.
Lemma local_lemma (f g : vec3 R -> R) d p q r : (forall v, inside p q r v -> f v = g v) ->
  (let* t := tri_new f d in tri_compute t p q r) = (let* t := tri_new g d in tri_compute t p q r).
Proof.
  intros H. destruct (Z.lt_ge_cases d 1) as [H1|H1]; [now rewrite !new_exit by lia|].
  destruct (Z.lt_ge_cases 8 d) as [H2|H2]; [now rewrite !new_exit by lia|].
  rewrite <- (Z2Nat.id d) by lia. rewrite !compute_value by lia. do 2 f_equal. unfold rule. f_equal.
  apply lsum_ext. intros x Hx. rewrite (H _ (table_point_inside (Z.to_nat d) x p q r ltac:(lia) Hx)). reflexivity.
Qed.
Definition positive_orders := [1; 2; 4; 5; 6; 8]%nat.
Definition zwsum (l : list zpt) : Z := fold_right (fun p s => Z.abs (num (snd p)) + s)%Z 0%Z l.
Lemma positive_all : forallb (fun d => forallb (fun p => 0 <=? num (snd p))%Z (ztab d) &&
  (zwsum (ztab d) * 10000000000000 <=? den * 10000000000001)%Z) positive_orders = true.
Proof. vm_compute. reflexivity. Qed.
Lemma stable_all : forallb (fun d => zwsum (ztab d) * 10 <=? den * 22)%Z orders = true.
Proof. vm_compute. reflexivity. Qed.
Lemma pw_num d x : (1 <= d <= 8)%nat -> In x (ztab d) -> pw x = IZR (num (snd x)) / IZR den.
Proof.
  intros Hd Hx. pose proof inside_all as C. rewrite forallb_forall in C. specialize (C d (order_in d Hd)).
  rewrite forallb_forall in C. specialize (C x Hx). unfold pt_inside in C.
  repeat (apply andb_prop in C; destruct C as [C ?]).
  repeat match goal with X : _ && _ = true |- _ => apply andb_prop in X; destruct X end. unfold pw. now apply num_eq.
Qed.
Lemma positive_lemma (f : vec3 R -> R) d p q r : In d positive_orders -> (forall v, inside p q r v -> 0 <= f v) ->
  exists v, (let* t := tri_new f (Z.of_nat d) in tri_compute t p q r) = Ok v /\ 0 <= v.
Proof.
  intros Hd Hf. assert (Hd' : (1 <= d <= 8)%nat) by (cbn in Hd; lia).
  eexists. split; [apply compute_value; exact Hd'|]. apply Rmult_le_pos; [pose proof (area_pos p q r); lra|].
  unfold rule. apply Rmult_le_pos; [|lra]. rewrite <- (lsum_0 (ztab d)). apply lsum_le. intros x Hx.
  apply Rmult_le_pos; [|apply Hf; now apply (table_point_inside d)].
  pose proof positive_all as C. rewrite forallb_forall in C. specialize (C d Hd). apply andb_prop in C. destruct C as [C _].
  rewrite forallb_forall in C. specialize (C x Hx). apply Z.leb_le in C.
  rewrite (pw_num d x Hd' Hx). apply Rmult_le_pos; [now apply IZR_le|]. left. apply Rinv_0_lt_compat, den_pos.
Qed.
Lemma wsum_ok d : (1 <= d <= 8)%nat -> lsum (fun x => Rabs (pw x)) (ztab d) = IZR (zwsum (ztab d)) / IZR den.
Proof.
  intros Hd. rewrite (lsum_ext _ (fun x : zpt => Rabs (IZR (num (snd x)) / IZR den))).
  2:{ intros x Hx. f_equal. now apply (pw_num d). }
  generalize (ztab d) as l. pose proof den_pos. induction l as [|x l IH]; cbn [lsum zwsum fold_right]; [unfold Rdiv; ring|].
  rewrite IH, plus_IZR, abs_IZR. unfold Rdiv. rewrite Rabs_mult, (Rabs_right (/ _)) by (left; now apply Rinv_0_lt_compat).
  fold (zwsum l). ring.
Qed.
Lemma bound_lemma (f : vec3 R -> R) d p q r M : (1 <= d <= 8)%nat -> (forall v, inside p q r v -> Rabs (f v) <= M) ->
  exists v, (let* t := tri_new f (Z.of_nat d) in tri_compute t p q r) = Ok v /\
    Rabs v <= (if existsb (Nat.eqb d) positive_orders then 1 + 1 / 10 ^ 13 else 22 / 10) * area p q r * M.
Proof.
  intros Hd Hf. eexists. split; [apply compute_value; exact Hd|].
  assert (HM : 0 <= M).
  { eapply Rle_trans; [apply Rabs_pos|apply (Hf (point p q r 0 0))]. exists 0, 0. repeat split; lra. }
  pose proof (area_pos p q r) as Ha.
  rewrite Rabs_mult, (Rabs_right (2 * _)) by lra.
  assert (B : Rabs (rule d (fun a b => f (point p q r a b))) <= lsum (fun x => Rabs (pw x)) (ztab d) * M / 2).
  { unfold rule, Rdiv. rewrite Rabs_mult, (Rabs_right (/ 2)) by lra. apply Rmult_le_compat_r; [lra|].
    eapply Rle_trans; [apply lsum_Rabs|]. rewrite Rmult_comm, <- lsum_scal. apply lsum_le. intros x Hx.
    rewrite Rabs_mult, Rmult_comm. apply Rmult_le_compat_r; [apply Rabs_pos|]. apply Hf. now apply (table_point_inside d). }
  set (K := if existsb _ _ then _ else _).
  assert (W : lsum (fun x => Rabs (pw x)) (ztab d) <= K).
  { rewrite wsum_ok by exact Hd. pose proof den_pos as D. apply (Rmult_le_reg_r (IZR den)); [exact D|]. unfold Rdiv. rewrite Rmult_assoc, Rinv_l, Rmult_1_r by lra.
    unfold K. destruct (existsb _ _) eqn:E.
    - apply existsb_exists in E. destruct E as (d' & Hd' & E). apply Nat.eqb_eq in E. subst d'.
      pose proof positive_all as C. rewrite forallb_forall in C. specialize (C d Hd'). apply andb_prop in C. destruct C as [_ C].
      apply Z.leb_le, IZR_le in C. rewrite !mult_IZR in C. lra.
    - pose proof stable_all as C. rewrite forallb_forall in C. specialize (C d (order_in d Hd)).
      apply Z.leb_le, IZR_le in C. rewrite !mult_IZR in C. lra. }
  clearbody K. apply Rle_trans with (2 * area p q r * (K * M / 2)); [|apply Req_le; field].
  apply Rmult_le_compat_l; [lra|]. eapply Rle_trans; [exact B|]. apply Rmult_le_compat_r; [lra|]. now apply Rmult_le_compat_r.
Qed.
Lemma negative_lemma : exists f p q r v, (forall x : vec3 R, 0 <= f x) /\
  (let* t := tri_new f 3 in tri_compute t p q r) = Ok v /\ v < 0.
Proof.
  exists (fun v => ((vx v - 1 / 5) * (vx v - 3 / 5)) ^ 2), o3, ex3, ey3. eexists. split; [intros x; apply pow2_ge_0|].
  split; [apply (compute_value _ 3); lia|]. rewrite area_std. unfold rule.
  change (ztab 3) with [((333333333333330, e15), (333333333333330, e15), (-56250000000000, e14));
    ((200000000000000, e15), (200000000000000, e15), (520833333333330, e15));
    ((200000000000000, e15), (600000000000000, e15), (520833333333330, e15));
    ((600000000000000, e15), (200000000000000, e15), (520833333333330, e15))]%Z.
  cbn [lsum]. unfold pw, pa, pb, lr, e14, e15. cbn [fst snd point vx o3 ex3 ey3]. lra.
Qed.

(** *** Linearity and vector-valued integrands *)
Lemma linear_lemma (f g : vec3 R -> R) a b d p q r : (1 <= d <= 8)%nat -> exists vf vg,
  (let* t := tri_new f (Z.of_nat d) in tri_compute t p q r) = Ok vf /\
  (let* t := tri_new g (Z.of_nat d) in tri_compute t p q r) = Ok vg /\
  (let* t := tri_new (fun x => a * f x + b * g x) (Z.of_nat d) in tri_compute t p q r) = Ok (a * vf + b * vg).
Proof.
  intros Hd. do 2 eexists. split; [apply compute_value; exact Hd|]. split; [apply compute_value; exact Hd|].
  rewrite compute_value by exact Hd. f_equal. 
  assert (E : rule d (fun s t => a * f (point p q r s t) + b * g (point p q r s t)) =
    a * rule d (fun s t => f (point p q r s t)) + b * rule d (fun s t => g (point p q r s t))).
  { unfold rule. unfold Rdiv. rewrite <- !Rmult_assoc, <- Rmult_plus_distr_r. f_equal. rewrite <- !lsum_scal, <- lsum_plus. apply lsum_ext. intros x _. ring. }
  rewrite E. ring.
Qed.
Definition preserves {V} `{VNum R V} (phi : V -> R) : Prop :=
  (forall x y, phi (vadd x y) = phi x + phi y) /\ (forall w x, phi (vmull w x) = w * phi x) /\ (forall w x, phi (vmulr x w) = phi x * w).
Lemma vector_lemma {V} `{VN : VNum R V} (phi : V -> R) (f : vec3 R -> V) d p q r : preserves phi ->
  omap phi (let* t := tri_new f d in tri_compute t p q r) = (let* t := tri_new (fun x => phi (f x)) d in tri_compute t p q r).
Proof.
  intros (Ha & Hl & Hr). unfold tri_new. destruct (_ <? d)%Z; [reflexivity|]. destruct (d <? 1)%Z; [reflexivity|]. cbn [bind].
  unfold tri_compute, tri_standard. cbn [t_order t_f]. destruct (tri_table d) as [[[al be] we]| | | |]; try reflexivity. cbn [bind].
  assert (G : forall l s, foldM (fun res i =>
      let* a := vat al i in let* b := vat be i in
      let* w := vat we i in
      match i with
      | O => Ok (Some (vmull w (phi (f (v3_add (v3_add (v3_scal (nofZ 1 - a - b)%num p) (v3_scal a q)) (v3_scal b r))))))
      | S _ => match res with
               | None => UB
               | Some s => Ok (Some (vadd s (vmulr (phi (f (v3_add (v3_add (v3_scal (nofZ 1 - a - b)%num p) (v3_scal a q)) (v3_scal b r)))) w)))
               end
      end) (option_map phi s) l = omap (option_map phi) (foldM (fun res i =>
      let* a := vat al i in let* b := vat be i in
      let* w := vat we i in
      match i with
      | O => Ok (Some (vmull w (f (v3_add (v3_add (v3_scal (nofZ 1 - a - b)%num p) (v3_scal a q)) (v3_scal b r)))))
      | S _ => match res with
               | None => UB
               | Some s => Ok (Some (vadd s (vmulr (f (v3_add (v3_add (v3_scal (nofZ 1 - a - b)%num p) (v3_scal a q)) (v3_scal b r))) w)))
               end
      end) s l)).
  { induction l as [|i l IH]; intros s; [reflexivity|]. cbn [foldM].
    destruct (vat al i); try reflexivity. cbn [bind]. destruct (vat be i); try reflexivity. cbn [bind]. destruct (vat we i); try reflexivity. cbn [bind].
    destruct i as [|i].
    - cbn [bind]. rewrite <- IH. cbn [option_map]. rewrite Hl. reflexivity.
    - destruct s as [s|]; cbn [option_map bind]; [|reflexivity]. rewrite <- IH. cbn [option_map]. rewrite Ha, Hr. reflexivity. }
  specialize (G (seq 0 (length we)) None). cbn [option_map] in G. cbv zeta. rewrite G. clear G.
  destruct (foldM _ None _) as [[s|]| | | |]; try reflexivity. cbn [omap option_map bind]. rewrite !Hr. reflexivity.
Qed.
Lemma range_lemma (f : vec3 R -> R) order :
  ((order < 1 \/ 8 < order)%Z -> tri_new f order = Exit 0) /\
  ((1 <= order <= 8)%Z -> forall p q r, exists v, (let* t := tri_new f order in tri_compute t p q r) = Ok v).
Proof.
  split; [apply new_exit|]. intros H p q r. rewrite <- (Z2Nat.id order) by lia. eexists. apply compute_value. lia.
Qed.
