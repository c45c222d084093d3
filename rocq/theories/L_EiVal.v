(** Values and definedness of Ei_approximation and expEi. *)
From Coq Require Import ZArith Reals Lra Lia Bool List.
From Coquelicot Require Import Coquelicot.
From Verif Require Import Outcome Num NumFun M_Basics M_Series M_Cheb M_Special S_Special L_Poly L_Special L_Cf L_EiTab.
Import ListNotations.

(** ** Signs of lists of polynomials *)
Definition znz_on (a b d : Z) (c : list Z) : bool := zpos_on a b d c || zpos_on a b d (zscale (-1) c).
Lemma znz_on_val a b d c x : znz_on a b d c = true -> IZR a / IZR d <= x < IZR b / IZR d -> zev c x <> 0.
Proof.
  intros H Hx. apply orb_true_iff in H. destruct H as [H|H]; apply (zpos_on_val _ _ _ _ x) in H; try exact Hx; [lra|].
  rewrite zev_scale in H. lra.
Qed.
Lemma znz_all a b d l x : forallb (znz_on a b d) l = true -> IZR a / IZR d <= x < IZR b / IZR d ->
  List.Forall (fun c => zev c x <> 0) l.
Proof.
  intros H Hx. induction l as [|c l IH]; [constructor|]. cbn in H. apply andb_true_iff in H. destruct H as [H1 H2].
  constructor; [apply (znz_on_val a b d); assumption|apply IH, H2].
Qed.
Lemma zpos_from_all a l x : forallb (zpos_from a) l = true -> IZR a <= x -> List.Forall (fun c => zev c x <> 0) l.
Proof.
  intros H Hx. induction l as [|c l IH]; [constructor|]. cbn in H. apply andb_true_iff in H. destruct H as [H1 H2].
  constructor; [apply Rgt_not_eq, (zpos_from_val a); assumption|apply IH, H2].
Qed.

(** ** The Chebyshev sums, as polynomials of t = x/6 *)
Fixpoint zcheb_loop (k : nat) (t0 t1 : list Z) : list Z :=
  match k with 0%nat => t1 | S k' => zcheb_loop k' t1 (zsub (zmul [-2; 4]%Z t1) t0) end.
Definition zcheb (n : nat) : list Z := match n with 0%nat => [1%Z] | S k => zcheb_loop k [1%Z] [-1; 2]%Z end.
Lemma zcheb_loop_val k t : forall t0 t1,
  chebyshev_loop k (2 * t - 1) (zev t0 t) (zev t1 t) = zev (zcheb_loop k t0 t1) t.
Proof.
  induction k as [|k IH]; intros t0 t1; cbn [chebyshev_loop zcheb_loop]; [reflexivity|].
  rewrite <- IH. f_equal. unfold chebyshev_next. rewrite zev_sub, zev_mul. cbn. ring.
Qed.
Lemma zcheb_val n t : chebyshev_shifted (T := R) n t = zev (zcheb n) t.
Proof.
  unfold chebyshev_shifted, chebyshev_t, zcheb. destruct n as [|k]; [cbn; ring|].
  rewrite <- zcheb_loop_val. cbn [nofZ RNum RNum_at nmul nsub]. f_equal; cbn; ring.
Qed.
Lemma p_cheb_loop k x : forall a b, chebyshev_loop (NT := PNum) k (Some x) (Some a) (Some b) = Some (chebyshev_loop k x a b).
Proof. induction k as [|k IH]; intros a b; cbn [chebyshev_loop]; [reflexivity|]. rewrite <- IH. reflexivity. Qed.
Lemma p_cheb n t : chebyshev_shifted (NT := PNum) n (Some t) = Some (chebyshev_shifted (T := R) n t).
Proof. unfold chebyshev_shifted, chebyshev_t. destruct n as [|k]; [reflexivity|]. cbn [nofZ PNum nmul nsub pmap2]. apply p_cheb_loop. Qed.

Lemma p_cheb_frac (p q : list R) t n : forall j a b,
  cheb_frac (NT := PNum) (map Some p) (map Some q) (Some t) j n (Some a) (Some b) =
  omap (fun nd => (Some (fst nd), Some (snd nd))) (cheb_frac p q t j n a b).
Proof.
  induction n as [|n IH]; intros j a b; cbn [cheb_frac]; [reflexivity|].
  rewrite !p_vat. destruct (vat p j); try reflexivity. cbn [bind defined omap].
  destruct (vat q j); try reflexivity. cbn [bind defined omap]. rewrite !p_cheb. apply IH.
Qed.

Fixpoint zsum (c : list Z) (j : nat) : list Z :=
  match c with [] => [] | h :: c' => zadd (zscale h (zcheb j)) (zsum c' (S j)) end.
Section ChebSum.
Variable s : Z.
Hypothesis Hs : IZR s <> 0.
Lemma cheb_frac_val t (p q : list Z) : forall p1 q1 a b, length p = length q -> length p1 = length q1 ->
  cheb_frac (units s (p1 ++ p)) (units s (q1 ++ q)) t (length p1) (length p) a b =
  Ok (a + zev (zsum p (length p1)) t / IZR s, b + zev (zsum q (length p1)) t / IZR s).
Proof.
  revert q. induction p as [|h p IH]; intros [|k q] p1 q1 a b L L1; try discriminate L.
  - cbn. do 2 f_equal; field; exact Hs.
  - cbn [length cheb_frac].
    assert (E1 : vat (units s (p1 ++ h :: p)) (length p1) = Ok (IZR h / IZR s)).
    { rewrite vat_units by (rewrite app_length; cbn; lia). rewrite app_nth2, Nat.sub_diag by lia. reflexivity. }
    assert (E2 : vat (units s (q1 ++ k :: q)) (length p1) = Ok (IZR k / IZR s)).
    { rewrite L1, vat_units by (rewrite app_length; cbn; lia). rewrite app_nth2, Nat.sub_diag by lia. reflexivity. }
    rewrite E1, E2. cbn [bind].
    replace (p1 ++ h :: p) with ((p1 ++ [h]) ++ p) by (rewrite <- app_assoc; reflexivity).
    replace (q1 ++ k :: q) with ((q1 ++ [k]) ++ q) by (rewrite <- app_assoc; reflexivity).
    replace (S (length p1)) with (length (p1 ++ [h])) by (rewrite app_length; cbn; lia).
    rewrite IH; [|cbn in L; lia|rewrite !app_length; cbn; lia].
    rewrite !zcheb_val. cbn [nadd nmul RNum RNum_at]. cbn [zsum]. rewrite !app_length. cbn [length]. rewrite !Nat.add_1_r.
    rewrite !zev_add, !zev_scale. do 2 f_equal; field; exact Hs.
Qed.
End ChebSum.

(** Twice the sums, in the units of the tables. *)
Definition zfull (c : list Z) : list Z := zadd [hd 0%Z c] (zscale 2 (zsum (tl c) 1)).
Definition P6 : list Z := zfull z6_p.
Definition Q6 : list Z := zfull z6_q.
Lemma Q6_check : zpos_on 0 101 100 (zscale (-1) Q6) = true.
Proof. vm_compute. reflexivity. Qed.
Lemma Q6_neg t : 0 <= t <= 1 -> zev Q6 t < 0.
Proof. intros H. assert (P := zpos_on_val _ _ _ _ t Q6_check ltac:(lra)). rewrite zev_scale in P. lra. Qed.

Definition x0 : R := ei_x0 (T := R).
Lemma x0_val : x0 = 37250741078136663446199186658 / 100000000000000000000000000000.
Proof. reflexivity. Qed.
Lemma x0_pos : 0 < x0.
Proof. rewrite x0_val. lra. Qed.

Lemma Ei_guard x : 1 / 100000000 < x -> rejected (T := R) x = false /\ rejected (NT := PNum) (NF := PNumFm) (Some x) = false.
Proof. intros H. rewrite rejected_P, rejected_R. assert (Rleb x (1 / 100000000) = false) by (apply Rleb_false; exact H). split; assumption. Qed.
Lemma Ei_rejects x : x <= 1 / 100000000 -> Ei_approximation (T := R) x = Exit 0 /\
  Ei_approximation (NT := PNum) (NF := PNumFm) (NR := PNumTr) (Some x) = Exit 0.
Proof.
  intros H. unfold Ei_approximation. rewrite rejected_P, rejected_R.
  assert (E : Rleb x (1 / 100000000) = true) by (apply Rleb_true; exact H). rewrite E. split; reflexivity.
Qed.

Lemma Ei_6 x : 1 / 100000000 < x < 6 ->
  Ei_approximation (T := R) x = Ok (ln (x / x0) + (x - x0) * (zev P6 (x / 6) / zev Q6 (x / 6))) /\
  Ei_approximation (NT := PNum) (NF := PNumFm) (NR := PNumTr) (Some x) = Ok (Some (ln (x / x0) + (x - x0) * (zev P6 (x / 6) / zev Q6 (x / 6)))).
Proof.
  intros H. destruct (Ei_guard x ltac:(lra)) as [G1 G2]. assert (Qn := Q6_neg (x / 6) ltac:(lra)).
  assert (C := cheb_frac_val unit25 unit25_nz (x / 6) (tl z6_p) (tl z6_q) [hd 0%Z z6_p] [hd 0%Z z6_q]).
  specialize (fun a b => C a b eq_refl eq_refl).
  change ([hd 0%Z z6_p] ++ tl z6_p) with z6_p in C. change ([hd 0%Z z6_q] ++ tl z6_q) with z6_q in C.
  change (length [hd 0%Z z6_p]) with 1%nat in C. change (length (tl z6_p)) with 9%nat in C.
  assert (V0 : vat (units unit25 z6_p) 0 = Ok (IZR (hd 0%Z z6_p) / IZR unit25)) by reflexivity.
  assert (V1 : vat (units unit25 z6_q) 0 = Ok (IZR (hd 0%Z z6_q) / IZR unit25)) by reflexivity.
  assert (FN : forall c, 1 / 2 * (IZR (hd 0%Z c) / IZR unit25) * 1 + zev (zsum (tl c) 1) (x / 6) / IZR unit25 = zev (zfull c) (x / 6) / (2 * IZR unit25)).
  { intros c. unfold zfull. rewrite zev_add, zev_scale. cbn [zev]. field. exact unit25_nz. }
  assert (RT : zev P6 (x / 6) / (2 * IZR unit25) / (zev Q6 (x / 6) / (2 * IZR unit25)) = zev P6 (x / 6) / zev Q6 (x / 6)).
  { field. repeat split; try exact unit25_nz; lra. }
  assert (L1 : Rltb 0 x = true) by (apply Rltb_true; lra). assert (L2 : Rltb x 6 = true) by (apply Rltb_true; lra).
  assert (X0 := x0_pos).
  split.
  - unfold Ei_approximation. rewrite G1. cbn [nlt nofZ RNum RNum_at]. rewrite L1, L2. cbn [andb].
    rewrite z6_p_eq, z6_q_eq, V0, V1. cbn [bind]. cbn [ndiv RNum RNum_at].
    change (nlit (T := R) 1 2) with (1 / 2). change (chebyshev_shifted (T := R) 0 (x / 6)) with 1.
    cbn [nmul RNum RNum_at]. rewrite C. cbn [bind fst snd]. rewrite !FN. fold P6 Q6. rewrite RT.
    fold x0. cbn [nadd nsub nmul ndiv nlog RNum RNum_at RNumTr]. f_equal. ring.
  - unfold Ei_approximation. rewrite G2. cbn [nlt nofZ PNum pcmp]. rewrite L1, L2. cbn [andb].
    rewrite z6_p_peq, z6_q_peq, !p_vat, V0, V1. cbn [bind defined omap].
    rewrite (p_div x 6) by lra. rewrite !p_cheb. rewrite p_lit by (apply not_0_IZR; discriminate).
    change (nlit (T := R) 1 2) with (1 / 2). change (chebyshev_shifted (T := R) 0 (x / 6)) with 1.
    cbn [nmul PNum pmap2]. rewrite p_cheb_frac, C. cbn [bind fst snd omap]. rewrite !FN. fold P6 Q6.
    assert (Q2 : zev Q6 (x / 6) / (2 * IZR unit25) <> 0).
    { apply Rmult_integral_contrapositive_currified; [lra|]. apply Rinv_neq_0_compat.
      apply Rmult_integral_contrapositive_currified; [lra|exact unit25_nz]. }
    rewrite p_div by exact Q2. rewrite RT.
    unfold ei_x0. rewrite p_lit by (apply not_0_IZR; discriminate). fold (ei_x0 (T := R)). fold x0.
    rewrite p_div by lra. cbn [nlog PNumTr pguard].
    destruct (Rleb (x / x0) 0) eqn:E.
    { apply Rleb_true in E. assert (0 < x / x0) by (apply Rmult_lt_0_compat; [lra|apply Rinv_0_lt_compat, X0]). lra. }
    cbn [nadd nsub nmul PNum pmap2]. do 2 f_equal. ring.
Qed.

(** ** Continued fractions *)
Definition N12 := cf_num unit25 z12_a z12_b. Definition D12 := cf_den unit25 z12_a z12_b.
Definition N24 := cf_num unit25 z24_a z24_b. Definition D24 := cf_den unit25 z24_a z24_b.
Definition NL := cf_num unit25 zL_a zL_b. Definition DL := cf_den unit25 zL_a zL_b.
Lemma dens_check12 : forallb (znz_on 6 12 1) (cf_dens unit25 z12_a z12_b) = true.
Proof. vm_compute. reflexivity. Qed.
Lemma dens_checkL : forallb (zpos_from 24) (cf_dens unit25 zL_a zL_b) = true.
Proof. vm_compute. reflexivity. Qed.
(** On [12,24) all but one denominator. *)
Definition sing24 : list Z := nth 3 (cf_dens unit25 z24_a z24_b) [].
Lemma dens_check24 : forallb (znz_on 12 24 1) (firstn 3 (cf_dens unit25 z24_a z24_b)) = true /\
  forallb (znz_on 12 24 1) (skipn 4 (cf_dens unit25 z24_a z24_b)) = true.
Proof. vm_compute. split; reflexivity. Qed.
Lemma dens_split24 : cf_dens unit25 z24_a z24_b = firstn 3 (cf_dens unit25 z24_a z24_b) ++ sing24 :: skipn 4 (cf_dens unit25 z24_a z24_b).
Proof. reflexivity. Qed.

Lemma x_div x : 0 < x -> x <> 0.
Proof. lra. Qed.

Lemma Ei_12 x : 6 <= x < 12 ->
  Ei_approximation (T := R) x = Ok (exp x / x * (zev N12 x / (IZR unit25 * zev D12 x))) /\
  Ei_approximation (NT := PNum) (NF := PNumFm) (NR := PNumTr) (Some x) = Ok (Some (exp x / x * (zev N12 x / (IZR unit25 * zev D12 x)))).
Proof.
  intros H. destruct (Ei_guard x ltac:(lra)) as [G1 G2].
  destruct (cf_val unit25 unit25_nz z12_a z12_b x eq_refl eq_refl (znz_all _ _ _ _ x dens_check12 ltac:(lra))) as [_ [C1 C2]].
  fold N12 D12 in C1, C2.
  assert (L2 : Rltb x 6 = false) by (apply Rltb_false; lra). assert (L3 : Rleb 6 x = true) by (apply Rleb_true; lra).
  assert (L4 : Rltb x 12 = true) by (apply Rltb_true; lra).
  unfold Ei_approximation. rewrite G1, G2. cbn [nlt nle nofZ RNum RNum_at PNum pcmp]. rewrite L2, L3, L4, andb_false_r. cbn [andb].
  rewrite z12_a_eq, z12_b_eq, z12_a_peq, z12_b_peq, C1, C2. cbn [bind]. split; [reflexivity|].
  cbn [nexp PNumTr option_map]. rewrite p_div by lra. reflexivity.
Qed.
Lemma Ei_24 x : 12 <= x < 24 -> zev sing24 x <> 0 ->
  zev D24 x <> 0 /\
  Ei_approximation (T := R) x = Ok (exp x / x * (zev N24 x / (IZR unit25 * zev D24 x))) /\
  Ei_approximation (NT := PNum) (NF := PNumFm) (NR := PNumTr) (Some x) = Ok (Some (exp x / x * (zev N24 x / (IZR unit25 * zev D24 x)))).
Proof.
  intros H NZ. destruct (Ei_guard x ltac:(lra)) as [G1 G2]. destruct dens_check24 as [K1 K2].
  assert (F : List.Forall (fun c => zev c x <> 0) (cf_dens unit25 z24_a z24_b)).
  { rewrite dens_split24. apply List.Forall_app. split; [apply (znz_all 12 24 1); [exact K1|lra]|].
    constructor; [exact NZ|apply (znz_all 12 24 1); [exact K2|lra]]. }
  destruct (cf_val unit25 unit25_nz z24_a z24_b x eq_refl eq_refl F) as [C0 [C1 C2]].
  fold N24 D24 in C0, C1, C2. split; [exact C0|].
  assert (L2 : Rltb x 6 = false) by (apply Rltb_false; lra). assert (L3 : Rltb x 12 = false) by (apply Rltb_false; lra).
  assert (L4 : Rleb 12 x = true) by (apply Rleb_true; lra). assert (L5 : Rltb x 24 = true) by (apply Rltb_true; lra).
  unfold Ei_approximation. rewrite G1, G2. cbn [nlt nle nofZ RNum RNum_at PNum pcmp]. rewrite L2, L3, L4, L5, !andb_false_r. cbn [andb].
  rewrite z24_a_eq, z24_b_eq, z24_a_peq, z24_b_peq, C1, C2. cbn [bind]. split; [reflexivity|].
  cbn [nexp PNumTr option_map]. rewrite p_div by lra. reflexivity.
Qed.
Lemma Ei_24_undefined x : 12 <= x < 24 -> zev sing24 x = 0 ->
  Ei_approximation (NT := PNum) (NF := PNumFm) (NR := PNumTr) (Some x) = Ok None.
Proof.
  intros H Z. destruct (Ei_guard x ltac:(lra)) as [_ G2].
  assert (F : Exists (fun c => zev c x = 0) (cf_dens unit25 z24_a z24_b)).
  { rewrite dens_split24. apply Exists_exists. exists sing24. split; [apply in_or_app; right; left; reflexivity|exact Z]. }
  assert (C := cf_undefined unit25 unit25_nz z24_a z24_b x eq_refl eq_refl F).
  assert (L2 : Rltb x 6 = false) by (apply Rltb_false; lra). assert (L3 : Rltb x 12 = false) by (apply Rltb_false; lra).
  assert (L4 : Rleb 12 x = true) by (apply Rleb_true; lra). assert (L5 : Rltb x 24 = true) by (apply Rltb_true; lra).
  unfold Ei_approximation. rewrite G2. cbn [nlt nle nofZ PNum pcmp]. rewrite L2, L3, L4, L5, !andb_false_r. cbn [andb].
  rewrite z24_a_peq, z24_b_peq, C. cbn [bind nexp PNumTr option_map]. rewrite p_div by lra. reflexivity.
Qed.
Lemma Ei_L x : 24 <= x ->
  0 < zev DL x /\
  Ei_approximation (T := R) x = Ok (exp x / x * (1 + 1 / x * (zev NL x / (IZR unit25 * zev DL x)))) /\
  Ei_approximation (NT := PNum) (NF := PNumFm) (NR := PNumTr) (Some x) = Ok (Some (exp x / x * (1 + 1 / x * (zev NL x / (IZR unit25 * zev DL x))))).
Proof.
  intros H. destruct (Ei_guard x ltac:(lra)) as [G1 G2].
  destruct (cf_val unit25 unit25_nz zL_a zL_b x eq_refl eq_refl (zpos_from_all 24 _ x dens_checkL ltac:(lra))) as [_ [C1 C2]].
  fold NL DL in C1, C2. split.
  { assert (K : zpos_from 24 DL = true) by (vm_compute; reflexivity). apply (zpos_from_val 24); [exact K|lra]. }
  assert (L2 : Rltb x 6 = false) by (apply Rltb_false; lra). assert (L3 : Rltb x 12 = false) by (apply Rltb_false; lra).
  assert (L4 : Rltb x 24 = false) by (apply Rltb_false; lra).
  unfold Ei_approximation. rewrite G1, G2. cbn [nlt nle nofZ RNum RNum_at PNum pcmp]. rewrite L2, L3, L4, !andb_false_r.
  rewrite zL_a_eq, zL_b_eq, zL_a_peq, zL_b_peq, C1, C2. cbn [bind]. split; [reflexivity|].
  cbn [nexp PNumTr option_map]. rewrite !p_div by lra. reflexivity.
Qed.
Lemma expEi_L (Ei : R -> R) x : 24 <= x ->
  expEi (T := R) Ei x = Ok (1 / x * (1 + 1 / x * (zev NL x / (IZR unit25 * zev DL x)))).
Proof.
  intros H.
  destruct (cf_val unit25 unit25_nz zL_a zL_b x eq_refl eq_refl (zpos_from_all 24 _ x dens_checkL ltac:(lra))) as [_ [C1 C2]].
  fold NL DL in C1, C2. assert (L4 : Rltb x 24 = false) by (apply Rltb_false; lra).
  unfold expEi. cbn [nlt nofZ RNum RNum_at]. rewrite L4, expei_alpha_eq, expei_beta_eq, C1. reflexivity.
Qed.

(** The one bad point of (12,24). *)
Lemma sing_check : zpos_on 12 24 1 (zder sing24) = true \/ zpos_on 12 24 1 (zscale (-1) (zder sing24)) = true.
Proof. vm_compute. auto. Qed.
