(** Lemmas on Ei_approximation below 6 in double. *)
From Coq Require Import List Arith ZArith Reals Bool Lia Lra Psatz.
From Flocq Require Import Core.Core IEEE754.BinarySingleNaN.
From Verif Require Import Outcome Num NumFun F64 M_Series M_Basics M_Cheb M_Special S_Special L_Poly L_F64 L_Linspace64 L_F64Err L_Interp64 L_Apx
  L_Special64 L_Special L_Cf L_EiTab L_EiVal S_Cheb L_Cheb L_Ser64 S_Angles S_Double S_Rot64 S_E1d L_E1d L_Eid L_Ei0.
Import ListNotations.
Local Open Scope R_scope.

Lemma eta_u : eta64 <= / 1000 * u53.
Proof.
  assert (K := eta_tau). assert (T := tau304). assert (U := u_tiny). assert (TP := tau_pos).
  assert (T1 : / 10 ^ 304 <= 1) by (rewrite <- Rinv_1; apply Rinv_le_contravar; [lra|apply pow_R1_Rle; lra]).
  assert (/ 1000 * u53 * tau <= / 1000 * u53 * 1) by (apply Rmult_le_compat_l; lra). lra.
Qed.
Lemma small_fin z : Rabs z <= 10 ^ 30 -> Rabs z <= fmax64 + bpow radix2 969.
Proof. intros H. apply big_over. assert (B := big_large). assert (10 ^ 30 <= 10 ^ 300) by (apply Rle_pow; [lra|lia]). assert (0 <= 10 ^ 300) by (apply pow_le; lra). lra. Qed.

(** ** Chebyshev polynomials *)
Definition near (f : f64) (r e : R) : Prop := is_finite f = true /\ Rabs (val f - r) <= e * u53.

Lemma cheb_next64 (y t1 t0 : f64) (yr r1 r0 e1 e0 : R) : near y yr 6 -> near t1 r1 e1 -> near t0 r0 e0 ->
  Rabs yr <= 1 -> Rabs r1 <= 1 -> Rabs r0 <= 1 -> 0 <= e1 <= 1000000 -> 0 <= e0 <= 1000000 ->
  near (chebyshev_next y t1 t0) (2 * yr * r1 - r0) (2 * e1 + e0 + 22).
Proof.
  intros (Fy & Ey) (F1 & E1) (F0 & E0) Hy H1 H0 He1 He0. assert (U := u_tiny). assert (ET := eta_u).
  assert (P30 : 1000 <= 10 ^ 30) by (apply Rle_trans with (10 ^ 3); [simpl; lra|apply Rle_pow; [lra|lia]]).
  assert (S1 : 0 <= e1 * u53 <= / 1000000000).
  { split; [apply Rmult_le_pos; lra|]. apply Rle_trans with (1000000 * / 1000000000000000); [apply Rmult_le_compat; lra|lra]. }
  assert (S0 : 0 <= e0 * u53 <= / 1000000000).
  { split; [apply Rmult_le_pos; lra|]. apply Rle_trans with (1000000 * / 1000000000000000); [apply Rmult_le_compat; lra|lra]. }
  assert (V2 : val (nofZ 2 : f64) = 2) by (apply (ofZ_ok 2); reflexivity). assert (F2 : is_finite (nofZ 2 : f64) = true) by reflexivity.
  change (chebyshev_next y t1 t0) with ((nofZ 2 *! y) *! t1 -! t0). set (two := nofZ 2 : f64) in *. clearbody two.
  assert (Vy : Rabs (val y) <= 1001 / 1000) by (apply abs_le_sum in Ey; lra).
  assert (A2 : Rabs (2 * val y) <= 2002 / 1000) by (rewrite Rabs_mult, (Rabs_pos_eq 2) by lra; lra).
  destruct (mult_ok two y F2 Fy) as [FA _]; [apply small_fin; rewrite V2; lra|].
  assert (EA := mult_err two y FA). rewrite V2 in EA. fold (two *! y) in *. set (a := two *! y) in *.
  assert (EA1 : u53 * Rabs (2 * val y) <= u53 * (2002 / 1000)) by (apply Rmult_le_compat_l; lra).
  assert (Ea : Rabs (val a - 2 * yr) <= 15 * u53).
  { replace (val a - 2 * yr) with ((val a - 2 * val y) + 2 * (val y - yr)) by ring. eapply Rle_trans; [apply Rabs_triang|].
    rewrite (Rabs_mult 2), (Rabs_pos_eq 2) by lra. lra. }
  assert (Y2 : Rabs (2 * yr) <= 2) by (rewrite Rabs_mult, (Rabs_pos_eq 2) by lra; lra).
  assert (Va : Rabs (val a) <= 2001 / 1000) by (apply abs_le_sum in Ea; lra).
  assert (V1 : Rabs (val t1) <= 1001 / 1000) by (apply abs_le_sum in E1; lra).
  assert (Vp : Rabs (val a * val t1) <= 2004 / 1000).
  { rewrite Rabs_mult. apply Rle_trans with (2001 / 1000 * (1001 / 1000)); [apply Rmult_le_compat; auto using Rabs_pos|lra]. }
  destruct (mult_ok a t1 FA F1) as [FB _]; [apply small_fin; lra|].
  assert (EB := mult_err a t1 FB). fold (a *! t1) in *. set (b := a *! t1) in *.
  assert (EB1 : u53 * Rabs (val a * val t1) <= u53 * (2004 / 1000)) by (apply Rmult_le_compat_l; lra).
  assert (EX : Rabs (val a * val t1 - 2 * yr * r1) <= 2 * (e1 * u53) + 151 / 10 * u53).
  { replace (val a * val t1 - 2 * yr * r1) with (2 * yr * (val t1 - r1) + ((val a - 2 * yr) * (val t1 - r1) + (val a - 2 * yr) * r1)) by ring.
    eapply Rle_trans; [apply Rabs_triang|]. assert (T := Rabs_triang ((val a - 2 * yr) * (val t1 - r1)) ((val a - 2 * yr) * r1)).
    assert (Q1 : Rabs (2 * yr * (val t1 - r1)) <= 2 * (e1 * u53)) by (rewrite Rabs_mult; apply Rmult_le_compat; auto using Rabs_pos).
    assert (Q2 : Rabs ((val a - 2 * yr) * (val t1 - r1)) <= 15 * u53 * / 1000000000) by (rewrite Rabs_mult; apply Rmult_le_compat; auto using Rabs_pos; lra).
    assert (Q3 : Rabs ((val a - 2 * yr) * r1) <= 15 * u53 * 1) by (rewrite Rabs_mult; apply Rmult_le_compat; auto using Rabs_pos; lra). lra. }
  assert (Eb : Rabs (val b - 2 * yr * r1) <= 2 * (e1 * u53) + 18 * u53).
  { replace (val b - 2 * yr * r1) with ((val b - val a * val t1) + (val a * val t1 - 2 * yr * r1)) by ring. eapply Rle_trans; [apply Rabs_triang|]. lra. }
  assert (Vb : Rabs (val b) <= 201 / 100).
  { assert (Rabs (2 * yr * r1) <= 2 * 1) by (rewrite Rabs_mult; apply Rmult_le_compat; auto using Rabs_pos). apply abs_le_sum in Eb. lra. }
  assert (V0 : Rabs (val t0) <= 1001 / 1000) by (apply abs_le_sum in E0; lra).
  assert (Vm : Rabs (val b - val t0) <= 302 / 100) by (eapply Rle_trans; [apply Rabs_triang|]; rewrite Rabs_Ropp; lra).
  destruct (minus_ok b t0 FB F0) as [FC _]; [apply small_fin; lra|].
  assert (EC := minus_err b t0 FC).
  assert (EC1 : u53 * Rabs (val b - val t0) <= u53 * (302 / 100)) by (apply Rmult_le_compat_l; lra).
  fold a. fold b. split; [exact FC|].
  replace (val (b -! t0) - (2 * yr * r1 - r0)) with ((val (b -! t0) - (val b - val t0)) + ((val b - 2 * yr * r1) + - (val t0 - r0))) by ring.
  eapply Rle_trans; [apply Rabs_triang|]. assert (T := Rabs_triang (val b - 2 * yr * r1) (- (val t0 - r0))). rewrite Rabs_Ropp in T. lra.
Qed.

Fixpoint ee (n : nat) : Z := match n with O => 0 | Datatypes.S p => match p with O => 6 | Datatypes.S q => 2 * ee p + ee q + 22 end end%Z.
Lemma ee_SS n : ee (Datatypes.S (Datatypes.S n)) = (2 * ee (Datatypes.S n) + ee n + 22)%Z.
Proof. reflexivity. Qed.
Lemma ee_le n : (n <= 9)%nat -> (0 <= ee n <= 30000)%Z.
Proof. intros H. do 10 (destruct n as [|n]; [vm_compute; split; discriminate|]). lia. Qed.

Lemma cheb_loop64 (y : f64) yr : near y yr 6 -> Rabs yr <= 1 -> forall k j t0 t1, (j + 1 + k <= 9)%nat ->
  near t0 (cheb j yr) (IZR (ee j)) -> near t1 (cheb (Datatypes.S j) yr) (IZR (ee (Datatypes.S j))) ->
  near (chebyshev_loop k y t0 t1) (cheb (Datatypes.S (j + k)) yr) (IZR (ee (Datatypes.S (j + k)))).
Proof.
  intros Hy Hr. induction k as [|k IH]; intros j t0 t1 HJ H0 H1; cbn [chebyshev_loop]; [rewrite Nat.add_0_r; exact H1|].
  replace (j + Datatypes.S k)%nat with (Datatypes.S j + k)%nat by lia. apply IH; [lia|exact H1|].
  rewrite cheb_SS, ee_SS, !plus_IZR, mult_IZR.
  assert (B0 := ee_le j ltac:(lia)). assert (B1 := ee_le (Datatypes.S j) ltac:(lia)).
  destruct B0 as [B01 B02]. destruct B1 as [B11 B12]. apply IZR_le in B01, B02, B11, B12.
  apply cheb_next64; auto; try (apply cheb_abs; exact Hr); lra.
Qed.
Lemma cheb64 (t : f64) (y : f64) yr n : y = (nofZ 2 * t - nofZ 1)%num -> near y yr 6 -> Rabs yr <= 1 -> (n <= 9)%nat ->
  near (chebyshev_shifted n t) (cheb n yr) (IZR (ee n)).
Proof.
  intros Ey Hy Hr Hn. unfold chebyshev_shifted. rewrite <- Ey.
  assert (N1 : near (nofZ 1 : f64) 1 0).
  { split; [reflexivity|]. assert (V : val (nofZ 1 : f64) = 1) by (apply (ofZ_ok 1); reflexivity). rewrite V, Rminus_diag_eq, Rabs_R0 by reflexivity. lra. }
  destruct n as [|n]; [exact N1|]. unfold chebyshev_t. apply (cheb_loop64 y yr Hy Hr n 0); [lia|exact N1|]. exact Hy.
Qed.

(** The shifted argument. *)
Lemma shift64 (x : f64) : is_finite x = true -> 0 < val x <= 6 ->
  near ((nofZ 2 * (x / nofZ 6) - nofZ 1)%num : f64) (2 * (val x / 6) - 1) 6 /\ Rabs (2 * (val x / 6) - 1) <= 1.
Proof.
  intros Fx Hx. split; [|apply Rabs_le; lra]. assert (U := u_tiny). assert (ET := eta_u).
  assert (P30 : 1000 <= 10 ^ 30) by (apply Rle_trans with (10 ^ 3); [simpl; lra|apply Rle_pow; [lra|lia]]).
  assert (V6 : val (nofZ 6 : f64) = 6) by (apply (ofZ_ok 6); reflexivity). assert (F6 : is_finite (nofZ 6 : f64) = true) by reflexivity.
  assert (V2 : val (nofZ 2 : f64) = 2) by (apply (ofZ_ok 2); reflexivity). assert (F2 : is_finite (nofZ 2 : f64) = true) by reflexivity.
  assert (V1 : val (nofZ 1 : f64) = 1) by (apply (ofZ_ok 1); reflexivity). assert (F1 : is_finite (nofZ 1 : f64) = true) by reflexivity.
  set (six := nofZ 6 : f64) in *. set (two := nofZ 2 : f64) in *. set (one := nofZ 1 : f64) in *. clearbody six two one.
  change ((two * (x / six) - one)%num) with ((two *! (x /! six)) -! one).
  assert (A6 : Rabs (val x / 6) = val x / 6) by (apply Rabs_pos_eq; lra).
  destruct (div_ok x six Fx F6 ltac:(lra)) as [FT _]; [apply small_fin; rewrite V6, A6; lra|].
  assert (E := div_err x six F6 FT). rewrite V6, A6 in E. fold (x /! six) in *. set (t := x /! six) in *.
  assert (E' : u53 * (val x / 6) <= u53 * 1) by (apply Rmult_le_compat_l; lra).
  assert (Vt : Rabs (val t) <= 1001 / 1000) by (apply abs_le_sum in E; rewrite A6 in E; lra).
  assert (A2 : Rabs (2 * val t) <= 2002 / 1000) by (rewrite Rabs_mult, (Rabs_pos_eq 2) by lra; lra).
  destruct (mult_ok two t F2 FT) as [FA _]; [apply small_fin; rewrite V2; lra|].
  assert (EA := mult_err two t FA). rewrite V2 in EA. fold (two *! t) in *. set (a := two *! t) in *.
  assert (EA1 : u53 * Rabs (2 * val t) <= u53 * (2002 / 1000)) by (apply Rmult_le_compat_l; lra).
  assert (Ea : Rabs (val a - 2 * (val x / 6)) <= 41 / 10 * u53).
  { replace (val a - 2 * (val x / 6)) with ((val a - 2 * val t) + 2 * (val t - val x / 6)) by ring. eapply Rle_trans; [apply Rabs_triang|].
    rewrite (Rabs_mult 2), (Rabs_pos_eq 2) by lra. lra. }
  assert (Vm : Rabs (val a - 1) <= 101 / 100) by (apply Rabs_le_inv in Ea; apply Rabs_le; lra).
  destruct (minus_ok a one FA F1) as [FC _]; [apply small_fin; rewrite V1; lra|].
  assert (EC := minus_err a one FC). rewrite V1 in EC. fold (a -! one) in *.
  assert (EC1 : u53 * Rabs (val a - 1) <= u53 * (101 / 100)) by (apply Rmult_le_compat_l; lra).
  split; [exact FC|]. replace (val (a -! one) - (2 * (val x / 6) - 1)) with ((val (a -! one) - (val a - 1)) + (val a - 2 * (val x / 6))) by ring.
  eapply Rle_trans; [apply Rabs_triang|]. lra.
Qed.

(** ** The two sums *)
Lemma sum_step (f p t : f64) (a pr tr B E c e : R) : near f a E -> Rabs a <= B -> rel p pr 4 -> Rabs pr <= c -> near t tr e -> Rabs tr <= 1 ->
  0 <= E <= 10 ^ 15 -> 0 <= B <= 10 ^ 15 -> 0 <= c <= 10 ^ 15 -> 0 <= e <= 1000000 ->
  near (f +! (p *! t)) (a + pr * tr) (E + c * (e + 7) + 11 / 10 * (B + c) + 1) /\ Rabs (a + pr * tr) <= B + c.
Proof.
  intros (Ff & Ef) Ha (Fp & _ & Ep) Hp (Ft & Et) Ht HE HB Hc He. assert (U := u_tiny). assert (ET := eta_u).
  assert (C15 : 10 ^ 15 = 1000000000000000) by (simpl; lra).
  assert (P30 : 10 ^ 16 <= 10 ^ 30) by (apply Rle_pow; [lra|lia]). replace (10 ^ 16) with 10000000000000000 in P30 by (simpl; lra).
  assert (S1 : 0 <= e * u53 <= / 1000000000).
  { split; [apply Rmult_le_pos; lra|]. apply Rle_trans with (1000000 * / 1000000000000000); [apply Rmult_le_compat; lra|lra]. }
  assert (SE : 0 <= E * u53 <= 1).
  { split; [apply Rmult_le_pos; lra|]. apply Rle_trans with (1000000000000000 * / 1000000000000000); [apply Rmult_le_compat; lra|lra]. }
  assert (cu : 0 <= c * u53) by (apply Rmult_le_pos; lra).
  assert (Ep' : Rabs (val p - pr) <= 4 * (c * u53)).
  { apply Rle_trans with (1 := Ep). assert (u53 * Rabs pr <= u53 * c) by (apply Rmult_le_compat_l; lra). lra. }
  assert (cu1 : c * u53 <= c * / 1000000000000000) by (apply Rmult_le_compat_l; lra).
  assert (Vp : Rabs (val p) <= 1001 / 1000 * c) by (apply abs_le_sum in Ep'; lra).
  assert (Vt : Rabs (val t) <= 1001 / 1000) by (apply abs_le_sum in Et; lra).
  assert (Vpt : Rabs (val p * val t) <= 1003 / 1000 * c).
  { rewrite Rabs_mult. apply Rle_trans with (1001 / 1000 * c * (1001 / 1000)); [apply Rmult_le_compat; auto using Rabs_pos|lra]. }
  destruct (mult_ok p t Fp Ft) as [FB _]; [apply small_fin; lra|].
  assert (EB := mult_err p t FB). fold (p *! t) in *. set (b := p *! t) in *.
  assert (EB1 : u53 * Rabs (val p * val t) <= u53 * (1003 / 1000 * c)) by (apply Rmult_le_compat_l; lra).
  assert (EX : Rabs (val p * val t - pr * tr) <= c * (e * u53) + 41 / 10 * (c * u53)).
  { replace (val p * val t - pr * tr) with (pr * (val t - tr) + ((val p - pr) * (val t - tr) + (val p - pr) * tr)) by ring.
    eapply Rle_trans; [apply Rabs_triang|]. assert (T := Rabs_triang ((val p - pr) * (val t - tr)) ((val p - pr) * tr)).
    assert (Q1 : Rabs (pr * (val t - tr)) <= c * (e * u53)) by (rewrite Rabs_mult; apply Rmult_le_compat; auto using Rabs_pos).
    assert (Q2 : Rabs ((val p - pr) * (val t - tr)) <= 4 * (c * u53) * / 1000000000) by (rewrite Rabs_mult; apply Rmult_le_compat; auto using Rabs_pos; lra).
    assert (Q3 : Rabs ((val p - pr) * tr) <= 4 * (c * u53) * 1) by (rewrite Rabs_mult; apply Rmult_le_compat; auto using Rabs_pos; lra). lra. }
  assert (Eb : Rabs (val b - pr * tr) <= c * (e * u53) + 52 / 10 * (c * u53) + / 1000 * u53).
  { replace (val b - pr * tr) with ((val b - val p * val t) + (val p * val t - pr * tr)) by ring. eapply Rle_trans; [apply Rabs_triang|]. lra. }
  assert (PT : Rabs (pr * tr) <= c) by (rewrite Rabs_mult; replace c with (c * 1) by ring; apply Rmult_le_compat; auto using Rabs_pos).
  assert (ce : c * (e * u53) <= c * / 1000000000) by (apply Rmult_le_compat_l; lra).
  assert (Vb : Rabs (val b) <= 1001 / 1000 * c + / 1000) by (apply abs_le_sum in Eb; lra).
  assert (Vf : Rabs (val f) <= B + E * u53) by (apply abs_le_sum in Ef; lra).
  assert (Vs : Rabs (val f + val b) <= B + E * u53 + 1001 / 1000 * c + / 1000) by (eapply Rle_trans; [apply Rabs_triang|]; lra).
  destruct (plus_ok f b Ff FB) as [FS _]; [apply small_fin; lra|]. assert (ES := plus_err f b FS). fold (f +! b) in *.
  assert (ES1 : u53 * Rabs (val f + val b) <= u53 * (B + E * u53 + 1001 / 1000 * c + / 1000)) by (apply Rmult_le_compat_l; lra).
  assert (EUU : u53 * (E * u53) <= u53 * (/ 5)).
  { destruct (Rle_dec (E * u53) (/ 5)) as [L|L]; [apply Rmult_le_compat_l; lra|]. exfalso.
    assert (U2 : u53 <= / 9000000000000000) by (unfold u53; apply Rinv_le_contravar; [lra|simpl; lra]).
    assert (E * u53 <= 1000000000000000 * / 9000000000000000) by (apply Rmult_le_compat; lra). lra. }
  split.
  - split; [exact FS|].
    replace (val (f +! b) - (a + pr * tr)) with ((val (f +! b) - (val f + val b)) + ((val f - a) + (val b - pr * tr))) by ring.
    eapply Rle_trans; [apply Rabs_triang|]. assert (T := Rabs_triang (val f - a) (val b - pr * tr)).
    assert (0 <= B * u53) by (apply Rmult_le_pos; lra). lra.
  - eapply Rle_trans; [apply Rabs_triang|]. lra.
Qed.

Fixpoint cbound (z : list Z) (j n : nat) (B E : Z) : Z * Z :=
  match n with
  | O => (B, E)
  | Datatypes.S n' => let c := cdiv (Z.abs (nth j z 0%Z)) unit25 in
      cbound z (Datatypes.S j) n' (B + c)%Z (E + c * (ee j + 7) + cdiv (11 * (B + c)) 10 + 1)%Z
  end.
Lemma cbound_mono z n : forall j B E, (0 <= B)%Z -> (0 <= E)%Z -> (B <= fst (cbound z j n B E))%Z /\ (E <= snd (cbound z j n B E))%Z.
Proof.
  induction n as [|n IH]; intros j B E HB HE; cbn [cbound fst snd]; [lia|].
  assert (C0 : forall a b, (0 <= a -> 0 < b -> 0 <= cdiv a b)%Z) by (intros a b Ha Hb; unfold cdiv; apply Z.div_pos; lia).
  set (c := cdiv (Z.abs (nth j z 0%Z)) unit25). assert (Hc : (0 <= c)%Z) by (apply C0; [lia|reflexivity]).
  assert (H1 := C0 (11 * (B + c))%Z 10%Z ltac:(lia) ltac:(lia)).
  assert (Hee : forall m, (0 <= ee m)%Z /\ (0 <= ee (Datatypes.S m))%Z).
  { induction m as [|m [I1 I2]]; [cbn; lia|]. split; [exact I2|]. rewrite ee_SS. lia. }
  assert (H2 : (0 <= c * (ee j + 7))%Z) by (apply Z.mul_nonneg_nonneg; [exact Hc|]; destruct (Hee j); lia).
  destruct (IH (Datatypes.S j) (B + c)%Z (E + c * (ee j + 7) + cdiv (11 * (B + c)) 10 + 1)%Z ltac:(lia) ltac:(lia)). lia.
Qed.

Lemma cheb_frac64 (t : f64) tr (P Q : list f64) (p q : list Z) : (forall n, (n <= 9)%nat -> near (chebyshev_shifted n t) (chebyshev_shifted n tr) (IZR (ee n)) /\ Rabs (chebyshev_shifted n tr) <= 1) ->
  lits P (units unit25 p) -> lits Q (units unit25 q) -> length p = 10%nat -> length q = 10%nat ->
  forall n j num den a b (Bp Ep Bq Eq : Z), (j + n = 10)%nat -> near num a (IZR Ep) -> near den b (IZR Eq) -> Rabs a <= IZR Bp -> Rabs b <= IZR Bq ->
  (0 <= Bp)%Z -> (0 <= Ep)%Z -> (0 <= Bq)%Z -> (0 <= Eq)%Z ->
  (fst (cbound p j n Bp Ep) <= 10 ^ 15)%Z -> (snd (cbound p j n Bp Ep) <= 10 ^ 15)%Z -> (fst (cbound q j n Bq Eq) <= 10 ^ 15)%Z -> (snd (cbound q j n Bq Eq) <= 10 ^ 15)%Z ->
  exists num' den' a' b', cheb_frac P Q t j n num den = Ok (num', den') /\
    cheb_frac (T := R) (units unit25 p) (units unit25 q) tr j n a b = Ok (a', b') /\
    near num' a' (IZR (snd (cbound p j n Bp Ep))) /\ near den' b' (IZR (snd (cbound q j n Bq Eq))).
Proof.
  intros HT HP HQ Lp Lq. induction n as [|n IH]; intros j num den a b Bp Ep Bq Eq HJ Hn Hd Ha Hb B0 E0 B1 E1 L1 L2 L3 L4; cbn [cbound cheb_frac fst snd] in *.
  - exists num, den, a, b. auto.
  - destruct (lits_some P p j HP ltac:(lia)) as [pj Ep1]. destruct (lits_nth P p _ pj HP Ep1) as [Rp _].
    destruct (lits_some Q q j HQ ltac:(lia)) as [qj Eq1]. destruct (lits_nth Q q _ qj HQ Eq1) as [Rq _].
    destruct (HT j ltac:(lia)) as [Tj Tr]. assert (Be := ee_le j ltac:(lia)).
    assert (STEP : forall (f g : f64) r (z B E : Z), near f r (IZR E) -> Rabs r <= IZR B -> rel g (IZR z / IZR unit25) 4 ->
      (0 <= B)%Z -> (0 <= E)%Z -> let c := cdiv (Z.abs z) unit25 in (B + c <= 10 ^ 15)%Z -> (E <= 10 ^ 15)%Z -> (0 <= c)%Z ->
      near (f +! (g *! chebyshev_shifted j t)) (r + IZR z / IZR unit25 * chebyshev_shifted j tr) (IZR (E + c * (ee j + 7) + cdiv (11 * (B + c)) 10 + 1)) /\
      Rabs (r + IZR z / IZR unit25 * chebyshev_shifted j tr) <= IZR (B + c)).
    { intros f g r z B E Hf Hr Hg HB HE c Hc HE2 Hc0. assert (C15 : 10 ^ 15 = IZR (10 ^ 15)) by (simpl; lra).
      assert (Z1 := IZR_le _ _ HB). assert (Z2 := IZR_le _ _ HE). assert (Z3 := IZR_le _ _ Hc). assert (Z4 := IZR_le _ _ HE2). assert (Z5 := IZR_le _ _ Hc0).
      rewrite plus_IZR in Z3. destruct Be as [Be1 Be2]. apply IZR_le in Be1, Be2.
      assert (SP : 0 < IZR unit25) by (apply IZR_lt; reflexivity).
      assert (Hz : Rabs (IZR z / IZR unit25) <= IZR c).
      { unfold Rdiv. rewrite Rabs_mult, Rabs_inv, <- abs_IZR, (Rabs_pos_eq (IZR unit25)) by lra. apply (cdiv_le (Z.abs z) unit25). reflexivity. }
      destruct (sum_step f g (chebyshev_shifted j t) r (IZR z / IZR unit25) (chebyshev_shifted j tr) (IZR B) (IZR E) (IZR c) (IZR (ee j))
        Hf Hr Hg Hz Tj Tr ltac:(rewrite C15; lra) ltac:(rewrite C15; lra) ltac:(rewrite C15; lra) ltac:(lra)) as [[S1 S2] S3].
      split; [|rewrite plus_IZR; exact S3]. split; [exact S1|]. apply Rle_trans with (1 := S2). apply Rmult_le_compat_r; [assert (U := u_tiny); lra|].
      rewrite !plus_IZR, mult_IZR, plus_IZR. assert (K := cdiv_le (11 * (B + c)) 10 eq_refl). rewrite mult_IZR, plus_IZR in K. lra. }
    set (cp := cdiv (Z.abs (nth j p 0%Z)) unit25) in *. set (cq := cdiv (Z.abs (nth j q 0%Z)) unit25) in *.
    assert (CP : (0 <= cp)%Z) by (apply Z.div_pos; [unfold unit25; lia|reflexivity]). assert (CQ : (0 <= cq)%Z) by (apply Z.div_pos; [unfold unit25; lia|reflexivity]).
    assert (CDP : forall a0, (0 <= a0)%Z -> (0 <= cdiv a0 10)%Z) by (intros a0 Ha0; apply Z.div_pos; lia).
    assert (G1 := CDP (11 * (Bp + cp))%Z ltac:(lia)). assert (G2 := CDP (11 * (Bq + cq))%Z ltac:(lia)).
    assert (G3 : (0 <= cp * (ee j + 7))%Z) by (apply Z.mul_nonneg_nonneg; lia). assert (G4 : (0 <= cq * (ee j + 7))%Z) by (apply Z.mul_nonneg_nonneg; lia).
    destruct (cbound_mono p n (Datatypes.S j) (Bp + cp) (Ep + cp * (ee j + 7) + cdiv (11 * (Bp + cp)) 10 + 1) ltac:(lia) ltac:(lia)) as [M1 M2].
    destruct (cbound_mono q n (Datatypes.S j) (Bq + cq) (Eq + cq * (ee j + 7) + cdiv (11 * (Bq + cq)) 10 + 1) ltac:(lia) ltac:(lia)) as [M3 M4].
    destruct (STEP num pj a (nth j p 0%Z) Bp Ep Hn Ha Rp B0 E0 ltac:(fold cp; lia) ltac:(lia) CP) as [N1 N2].
    destruct (STEP den qj b (nth j q 0%Z) Bq Eq Hd Hb Rq B1 E1 ltac:(fold cq; lia) ltac:(lia) CQ) as [N3 N4].
    fold cp in N1, N2. fold cq in N3, N4.
    destruct (IH (Datatypes.S j) _ _ _ _ _ _ _ _ ltac:(lia) N1 N3 N2 N4 ltac:(lia) ltac:(lia) ltac:(lia) ltac:(lia) L1 L2 L3 L4) as (n' & d' & a' & b' & X1 & X2 & X3 & X4).
    exists n', d', a', b'. split; [|split; [|split; assumption]].
    + unfold vat. rewrite Ep1, Eq1. exact X1.
    + rewrite !vat_units by lia. exact X2.
Qed.

(** ** The function below 6 *)
Lemma lits6_p : lits (ei6_p (T := f64)) (units unit25 z6_p).
Proof. rewrite <- z6_p_eq. unfold lits, ei6_p. lits. Qed.
Lemma lits6_q : lits (ei6_q (T := f64)) (units unit25 z6_q).
Proof. rewrite <- z6_q_eq. unfold lits, ei6_q. lits. Qed.
Lemma x0_rel : rel (ei_x0 (T := f64)) x0 4.
Proof. unfold x0, ei_x0. apply lit_rel; lia. Qed.
Lemma half_val : is_finite (nlit 1 2 : f64) = true /\ val (nlit 1 2 : f64) = 1 / 2.
Proof.
  assert (V : B2SF (nlit (T := f64) 1 2) = SpecFloat.S754_finite false 4503599627370496 (-53)) by (vm_compute; reflexivity).
  split; [rewrite <- is_finite_SF_B2SF, V; reflexivity|].
  rewrite <- SF2R_B2SF, V. cbn [SF2R]. unfold F2R. cbn [Fnum Fexp cond_Zopp]. change (bpow radix2 (-53)) with (/ IZR 9007199254740992). lra.
Qed.

Definition pq_cuts : list Z := [25; 50; 75; 101]%Z.
Definition s2 : Z := (2 * unit25)%Z.
Lemma pq_check : zpos_cuts 0 pq_cuts 100 (zsub (zscale (-1) P6) [180000000000 * s2]%Z) && zpos_cuts 0 pq_cuts 100 (zadd P6 [250000000000 * s2]%Z) &&
  (zpos_cuts 0 pq_cuts 100 (zsub (zscale (-1) Q6) [13000000000 * s2]%Z) && zpos_cuts 0 pq_cuts 100 (zadd Q6 [230000000000 * s2]%Z)) = true.
Proof. vm_compute. reflexivity. Qed.
Lemma pq_bounds t : 0 <= t <= 1 -> 180000000000 <= - (zev P6 t / (2 * IZR unit25)) <= 250000000000 /\ 13000000000 <= - (zev Q6 t / (2 * IZR unit25)) <= 230000000000.
Proof.
  intros H. assert (C := pq_check). apply andb_true_iff in C. destruct C as [C1 C2]. apply andb_true_iff in C1, C2.
  destruct C1 as [C1 C3]. destruct C2 as [C2 C4].
  assert (PV : forall c, zpos_cuts 0 pq_cuts 100 c = true -> 0 < zev c t).
  { intros c Hc. apply (zpos_cuts_val _ _ _ _ t Hc). change (last pq_cuts 0%Z) with 101%Z. lra. }
  apply PV in C1, C2, C3, C4. rewrite zev_sub, zev_scale in C1, C2. rewrite zev_add in C3, C4. cbn [zev] in C1, C2, C3, C4.
  assert (S2 : IZR s2 = 2 * IZR unit25) by (unfold s2; rewrite mult_IZR; reflexivity).
  assert (SP : 0 < IZR unit25) by (apply IZR_lt; reflexivity). rewrite !mult_IZR, S2 in *. set (s := IZR unit25) in *. clearbody s.
  assert (G : forall k z, k * (2 * s) <= - z -> k <= - (z / (2 * s))).
  { intros k z Hz. apply (Rmult_le_reg_r (2 * s)); [lra|]. replace (- (z / (2 * s)) * (2 * s)) with (- z) by (field; lra). exact Hz. }
  assert (G' : forall k z, - z <= k * (2 * s) -> - (z / (2 * s)) <= k).
  { intros k z Hz. apply (Rmult_le_reg_r (2 * s)); [lra|]. replace (- (z / (2 * s)) * (2 * s)) with (- z) by (field; lra). exact Hz. }
  repeat split; (apply G || apply G'); lra.
Qed.

Definition c0 (z : list Z) : Z := cdiv (Z.abs (hd 0%Z z)) s2.
Lemma cb_p : snd (cbound z6_p 1 9 (c0 z6_p) (11 * c0 z6_p)) = 6022543391429%Z.
Proof. vm_compute. reflexivity. Qed.
Lemma cb_q : snd (cbound z6_q 1 9 (c0 z6_q) (11 * c0 z6_q)) = 6413984042120%Z.
Proof. vm_compute. reflexivity. Qed.

(** The ratio. *)
Lemma ratio64 (x : f64) P Q : is_finite x = true -> 0 < val x < 6 -> lits P (units unit25 z6_p) -> lits Q (units unit25 z6_q) ->
  exists p0 q0 n d, vat P 0 = Ok p0 /\ vat Q 0 = Ok q0 /\
    cheb_frac P Q (x / nofZ 6)%num 1 9 (nlit 1 2 * p0 * chebyshev_shifted 0 (x / nofZ 6))%num (nlit 1 2 * q0 * chebyshev_shifted 0 (x / nofZ 6))%num = Ok (n, d) /\
    rel (n /! d) (zev P6 (val x / 6) / zev Q6 (val x / 6)) 530 /\ 0 < zev P6 (val x / 6) / zev Q6 (val x / 6) <= 20.
Proof.
  intros Fx Hx HP HQ. destruct (shift64 x Fx ltac:(lra)) as [NY YR].
  set (t := (x / nofZ 6)%num : f64) in *. set (tr := val x / 6) in *. assert (Ht : 0 <= tr <= 1) by (unfold tr; lra).
  assert (CH : forall n, chebyshev_shifted (T := R) n tr = cheb n (2 * tr - 1)) by (intros n; apply chebyshev_t_ok).
  assert (HT : forall n, (n <= 9)%nat -> near (chebyshev_shifted n t) (chebyshev_shifted n tr) (IZR (ee n)) /\ Rabs (chebyshev_shifted (T := R) n tr) <= 1).
  { intros n Hn. rewrite CH. split; [|apply cheb_abs; exact YR]. apply (cheb64 t _ _ n eq_refl NY YR Hn). }
  destruct (lits_some P z6_p 0 HP ltac:(cbn; lia)) as [p0 E0]. destruct (lits_nth P z6_p _ p0 HP E0) as [Rp _].
  destruct (lits_some Q z6_q 0 HQ ltac:(cbn; lia)) as [q0 F0]. destruct (lits_nth Q z6_q _ q0 HQ F0) as [Rq _].
  exists p0, q0. destruct half_val as [FH VH].
  assert (T0 : near (chebyshev_shifted 0 t) 1 0).
  { split; [reflexivity|]. assert (V : val (nofZ 1 : f64) = 1) by (apply (ofZ_ok 1); reflexivity). change (val (chebyshev_shifted 0 t)) with (val (nofZ 1 : f64)). rewrite V, Rminus_diag_eq, Rabs_R0 by reflexivity. lra. }
  assert (SP : 0 < IZR unit25) by (apply IZR_lt; reflexivity).
  assert (INIT : forall (g : f64) z, rel g (IZR z / IZR unit25) 4 -> (unit25 <= Z.abs z <= unit25 * 10 ^ 13)%Z ->
    near ((nlit 1 2 *! g) *! chebyshev_shifted 0 t) (1 / 2 * (IZR z / IZR unit25) * 1) (IZR (11 * cdiv (Z.abs z) s2)) /\
    Rabs (1 / 2 * (IZR z / IZR unit25) * 1) <= IZR (cdiv (Z.abs z) s2)).
  { intros g z Hg Bz. assert (AZ : Rabs (1 / 2 * (IZR z / IZR unit25) * 1) = IZR (Z.abs z) / IZR s2).
    { rewrite Rmult_1_r. unfold Rdiv. rewrite !Rabs_mult, !Rabs_inv, <- !abs_IZR. unfold s2. rewrite mult_IZR. change (Z.abs 1) with 1%Z. change (Z.abs 2) with 2%Z. change (Z.abs unit25) with unit25. field. lra. }
    assert (KC := cdiv_le (Z.abs z) s2 eq_refl). split; [|rewrite AZ; exact KC].
    assert (AZ2 : Rabs (IZR z / IZR unit25) = 2 * (IZR (Z.abs z) / IZR s2)).
    { rewrite <- AZ. rewrite Rmult_1_r, Rabs_mult. rewrite (Rabs_pos_eq (1 / 2)) by lra. lra. }
    assert (BND : 1 <= Rabs (IZR z / IZR unit25) <= 10 ^ 13).
    { unfold Rdiv. rewrite Rabs_mult, Rabs_inv, <- abs_IZR, (Rabs_pos_eq (IZR unit25)) by lra. destruct Bz as [Bz1 Bz2]. apply IZR_le in Bz1, Bz2. rewrite mult_IZR in Bz2.
      split; apply (Rmult_le_reg_r (IZR unit25)); try lra; rewrite Rmult_assoc, Rinv_l, Rmult_1_r by lra; [lra|]. replace (10 ^ 13) with (IZR (10 ^ 13)) by (simpl; lra). lra. }
    assert (P13 : 10 ^ 13 <= 10 ^ 100) by (apply Rle_pow; [lra|lia]). assert (PI1 : / 10 ^ 100 <= / 10 ^ 1) by (apply Rinv_le_contravar; [apply pow_lt; lra|apply Rle_pow; [lra|lia]]). rewrite pow_1 in PI1.
    assert (RH : rel (nlit 1 2 : f64) (1 / 2) 0). { rewrite <- VH. apply rel_fin. exact FH. }
    assert (R1 := rel_mult (nlit 1 2) g (1 / 2) (IZR z / IZR unit25) 0 4 RH Hg ltac:(lra) ltac:(lra)).
    specialize (R1 ltac:(apply mid_range; rewrite (Rabs_pos_eq (1 / 2)) by lra; lra)).
    assert (RT : rel (chebyshev_shifted 0 t) 1 0). { destruct T0 as [X1 X2]. split; [exact X1|]. split; [lra|]. lra. }
    assert (R2 := rel_mult _ _ _ _ _ _ R1 RT ltac:(lra) ltac:(lra)).
    assert (A12 : Rabs (1 / 2 * (IZR z / IZR unit25)) = / 2 * Rabs (IZR z / IZR unit25)) by (rewrite Rabs_mult, (Rabs_pos_eq (1 / 2)) by lra; lra).
    specialize (R2 ltac:(apply mid_range; rewrite A12, Rabs_R1; lra)).
    destruct R2 as (G1 & _ & G3). split; [exact G1|]. apply Rle_trans with (1 := G3). rewrite AZ, mult_IZR. assert (U := u_tiny).
    assert (0 <= IZR (Z.abs z) / IZR s2) by (rewrite <- AZ; apply Rabs_pos).
    set (zz := IZR (Z.abs z) / IZR s2) in *. clearbody zz. replace ((0 + 4 + 102 / 100 + 0 + 102 / 100) * u53 * zz) with (u53 * ((604 / 100) * zz)) by field.
    rewrite (Rmult_comm _ u53). apply Rmult_le_compat_l; lra. }
  destruct (INIT p0 (hd 0%Z z6_p) Rp ltac:(vm_compute; split; discriminate)) as [I1 I2].
  destruct (INIT q0 (hd 0%Z z6_q) Rq ltac:(vm_compute; split; discriminate)) as [I3 I4]. fold (c0 z6_p) in I1, I2. fold (c0 z6_q) in I3, I4.
  destruct (cheb_frac64 t tr P Q z6_p z6_q HT HP HQ eq_refl eq_refl 9 1 _ _ _ _ (c0 z6_p) (11 * c0 z6_p) (c0 z6_q) (11 * c0 z6_q) eq_refl I1 I3 I2 I4
    ltac:(vm_compute; discriminate) ltac:(vm_compute; discriminate) ltac:(vm_compute; discriminate) ltac:(vm_compute; discriminate)
    ltac:(vm_compute; discriminate) ltac:(vm_compute; discriminate) ltac:(vm_compute; discriminate) ltac:(vm_compute; discriminate)) as (n & d & a & b & X1 & X2 & X3 & X4).
  rewrite cb_p in X3. rewrite cb_q in X4.
  assert (C := cheb_frac_val unit25 unit25_nz tr (tl z6_p) (tl z6_q) [hd 0%Z z6_p] [hd 0%Z z6_q]).
  specialize (fun a b => C a b eq_refl eq_refl).
  change ([hd 0%Z z6_p] ++ tl z6_p) with z6_p in C. change ([hd 0%Z z6_q] ++ tl z6_q) with z6_q in C.
  change (length [hd 0%Z z6_p]) with 1%nat in C. change (length (tl z6_p)) with 9%nat in C.
  rewrite C in X2. apply ok_inj in X2. assert (XA := f_equal fst X2). assert (XB := f_equal snd X2). cbn [fst snd] in XA, XB.
  assert (FN : forall c, 1 / 2 * (IZR (hd 0%Z c) / IZR unit25) * 1 + zev (zsum (tl c) 1) tr / IZR unit25 = zev (zfull c) tr / (2 * IZR unit25)).
  { intros c. unfold zfull. rewrite zev_add, zev_scale. cbn [zev]. field. exact unit25_nz. }
  rewrite FN in XA, XB. fold P6 in XA. fold Q6 in XB. subst a b.
  exists n, d. unfold vat. rewrite E0, F0. split; [reflexivity|]. split; [reflexivity|]. split; [exact X1|].
  destruct (pq_bounds tr Ht) as [BP BQ].
  set (Pv := zev P6 tr / (2 * IZR unit25)) in *. set (Qv := zev Q6 tr / (2 * IZR unit25)) in *.
  assert (RT : zev P6 tr / zev Q6 tr = Pv / Qv).
  { unfold Pv, Qv. field. assert (QN : zev Q6 tr <> 0) by (intros Z; unfold Qv in BQ; rewrite Z in BQ; unfold Rdiv in BQ; rewrite Rmult_0_l in BQ; lra). repeat split; first [exact QN|lra]. }
  rewrite RT. assert (U := u_tiny).
  assert (RP : rel n Pv 34).
  { destruct X3 as [X31 X32]. split; [exact X31|]. split; [lra|]. apply Rle_trans with (1 := X32). rewrite Rabs_left by lra.
    replace (34 * u53 * - Pv) with (34 * - Pv * u53) by ring. apply Rmult_le_compat_r; lra. }
  assert (RQ : rel d Qv 494).
  { destruct X4 as [X41 X42]. split; [exact X41|]. split; [lra|]. apply Rle_trans with (1 := X42). rewrite Rabs_left by lra.
    replace (494 * u53 * - Qv) with (494 * - Qv * u53) by ring. apply Rmult_le_compat_r; lra. }
  assert (IQ : / 230000000000 <= / - Qv <= / 13000000000) by (split; apply Rinv_le_contravar; lra).
  assert (RB : 7 / 10 <= - Pv / - Qv <= 20).
  { unfold Rdiv. split.
    - apply Rle_trans with (180000000000 * / 230000000000); [lra|]. apply Rmult_le_compat; lra.
    - apply Rle_trans with (250000000000 * / 13000000000); [|lra]. apply Rmult_le_compat; lra. }
  assert (RE : Pv / Qv = - Pv / - Qv) by (field; lra).
  split; [|rewrite RE; lra].
  eapply rel_weaken; [apply (rel_div n d Pv Qv 34 494 RP RQ); [lra|lra|lra|]|lra|lra].
  rewrite !Rabs_left by lra. apply mid_range. assert (P13 : 10 ^ 2 <= 10 ^ 100) by (apply Rle_pow; [lra|lia]). assert (PI1 : / 10 ^ 100 <= / 10 ^ 1) by (apply Rinv_le_contravar; [apply pow_lt; lra|apply Rle_pow; [lra|lia]]). rewrite pow_1 in PI1. simpl (10 ^ 2) in P13. lra.
Qed.

(** ** Sums and products with absolute errors *)
Lemma near_room e : 0 <= e <= 1000000 -> 0 <= e * u53 <= / 1000000000.
Proof. intros H. assert (U := u_tiny). split; [apply Rmult_le_pos; lra|]. apply Rle_trans with (1000000 * / 1000000000000000); [apply Rmult_le_compat; lra|lra]. Qed.
Lemma p30 : 100000000 <= 10 ^ 30.
Proof. apply Rle_trans with (10 ^ 8); [simpl; lra|apply Rle_pow; [lra|lia]]. Qed.
Lemma near_plus (f g : f64) r s e h : near f r e -> near g s h -> 0 <= e <= 1000000 -> 0 <= h <= 1000000 -> Rabs r <= 1000 -> Rabs s <= 1000 ->
  near (f +! g) (r + s) (e + h + Rabs (r + s) + / 100).
Proof.
  intros (F1 & E1) (F2 & E2) He Hh Hr Hs. assert (U := u_tiny). assert (R1 := near_room e He). assert (R2 := near_room h Hh). assert (P := p30).
  assert (D : Rabs ((val f + val g) - (r + s)) <= e * u53 + h * u53).
  { replace (val f + val g - (r + s)) with ((val f - r) + (val g - s)) by ring. eapply Rle_trans; [apply Rabs_triang|lra]. }
  assert (T := Rabs_triang r s). assert (D' := D). apply abs_le_sum in D'.
  destruct (plus_ok f g F1 F2) as [FF _]; [apply small_fin; lra|]. assert (EE := plus_err f g FF). fold (f +! g) in *.
  split; [exact FF|]. replace (val (f +! g) - (r + s)) with ((val (f +! g) - (val f + val g)) + ((val f + val g) - (r + s))) by ring.
  eapply Rle_trans; [apply Rabs_triang|]. assert (u53 * Rabs (val f + val g) <= u53 * (Rabs (r + s) + / 100)) by (apply Rmult_le_compat_l; lra). lra.
Qed.
Lemma near_minus (f g : f64) r s e h : near f r e -> near g s h -> 0 <= e <= 1000000 -> 0 <= h <= 1000000 -> Rabs r <= 1000 -> Rabs s <= 1000 ->
  near (f -! g) (r - s) (e + h + Rabs (r - s) + / 100).
Proof.
  intros (F1 & E1) (F2 & E2) He Hh Hr Hs. assert (U := u_tiny). assert (R1 := near_room e He). assert (R2 := near_room h Hh). assert (P := p30).
  assert (D : Rabs ((val f - val g) - (r - s)) <= e * u53 + h * u53).
  { replace (val f - val g - (r - s)) with ((val f - r) + - (val g - s)) by ring. eapply Rle_trans; [apply Rabs_triang|rewrite Rabs_Ropp; lra]. }
  assert (T := Rabs_triang r (- s)). rewrite Rabs_Ropp in T. fold (r - s) in T. assert (D' := D). apply abs_le_sum in D'.
  destruct (minus_ok f g F1 F2) as [FF _]; [apply small_fin; lra|]. assert (EE := minus_err f g FF). fold (f -! g) in *.
  split; [exact FF|]. replace (val (f -! g) - (r - s)) with ((val (f -! g) - (val f - val g)) + ((val f - val g) - (r - s))) by ring.
  eapply Rle_trans; [apply Rabs_triang|]. assert (u53 * Rabs (val f - val g) <= u53 * (Rabs (r - s) + / 100)) by (apply Rmult_le_compat_l; lra). lra.
Qed.
Lemma near_mult (f g : f64) r s e h : near f r e -> near g s h -> 0 <= e <= 1000000 -> 0 <= h <= 1000000 -> Rabs r <= 1000 -> Rabs s <= 1000 ->
  near (f *! g) (r * s) (Rabs s * e + Rabs r * h + Rabs (r * s) + / 100).
Proof.
  intros (F1 & E1) (F2 & E2) He Hh Hr Hs. assert (U := u_tiny). assert (R1 := near_room e He). assert (R2 := near_room h Hh). assert (P := p30). assert (ET := eta_u).
  assert (D : Rabs (val f * val g - r * s) <= Rabs s * (e * u53) + Rabs r * (h * u53) + / 1000 * u53).
  { replace (val f * val g - r * s) with ((val f - r) * s + (r * (val g - s) + (val f - r) * (val g - s))) by ring.
    eapply Rle_trans; [apply Rabs_triang|]. assert (T := Rabs_triang (r * (val g - s)) ((val f - r) * (val g - s))). rewrite !Rabs_mult in *.
    assert (Rabs (val f - r) * Rabs s <= e * u53 * Rabs s) by (apply Rmult_le_compat_r; [apply Rabs_pos|exact E1]).
    assert (Rabs r * Rabs (val g - s) <= Rabs r * (h * u53)) by (apply Rmult_le_compat_l; [apply Rabs_pos|exact E2]).
    assert (Rabs (val f - r) * Rabs (val g - s) <= e * u53 * / 1000000000) by (apply Rmult_le_compat; auto using Rabs_pos; lra).
    assert (e * u53 <= 1000000 * u53) by (apply Rmult_le_compat_r; lra). lra. }
  assert (T : Rabs (r * s) <= 1000 * 1000) by (rewrite Rabs_mult; apply Rmult_le_compat; auto using Rabs_pos). assert (D' := D). apply abs_le_sum in D'.
  assert (B1 : Rabs s * (e * u53) <= 1000 * / 1000000000) by (apply Rmult_le_compat; auto using Rabs_pos; lra).
  assert (B2 : Rabs r * (h * u53) <= 1000 * / 1000000000) by (apply Rmult_le_compat; auto using Rabs_pos; lra).
  destruct (mult_ok f g F1 F2) as [FF _]; [apply small_fin; lra|]. assert (EE := mult_err f g FF). fold (f *! g) in *.
  split; [exact FF|]. replace (val (f *! g) - r * s) with ((val (f *! g) - val f * val g) + (val f * val g - r * s)) by ring.
  eapply Rle_trans; [apply Rabs_triang|]. assert (u53 * Rabs (val f * val g) <= u53 * (Rabs (r * s) + / 1000)) by (apply Rmult_le_compat_l; lra). lra.
Qed.
Lemma near_weaken f r e e' : near f r e -> e <= e' -> near f r e'.
Proof. intros (F & E) H. split; [exact F|]. assert (U := u_tiny). apply Rle_trans with (1 := E), Rmult_le_compat_r; lra. Qed.
Lemma rel_near f r k : rel f r k -> near f r (k * Rabs r).
Proof. intros (F & _ & E). split; [exact F|]. replace (k * Rabs r * u53) with (k * u53 * Rabs r) by ring. exact E. Qed.

Lemma ln_leq a b : 0 < a -> a <= b -> ln a <= ln b.
Proof. intros Ha [H| ->]; [left; apply ln_increasing; assumption|right; reflexivity]. Qed.
Lemma ln_quot a b : 0 < a -> 0 < b -> ln (a / b) = ln a - ln b.
Proof. intros Ha Hb. unfold Rdiv. rewrite ln_mult, ln_Rinv; [ring|exact Hb|exact Ha|apply Rinv_0_lt_compat, Hb]. Qed.
Lemma ln_close a b d : 0 < a -> 0 < b -> Rabs (b - a) <= d * a -> 0 <= d <= / 100 -> Rabs (ln b - ln a) <= 102 / 100 * d.
Proof.
  intros Ha Hb H Hd. apply Rabs_le_inv in H.
  assert (LU : forall p q, 0 < p -> 0 < q -> ln q - ln p <= q / p - 1).
  { intros p q Hp Hq. rewrite <- ln_quot by lra. assert (PQ : 0 < q / p) by (apply Rdiv_lt_0_compat; lra).
    assert (K := exp_ineq1_le (ln (q / p))). rewrite exp_ln in K by exact PQ. lra. }
  assert (L1 := LU a b Ha Hb). assert (L2 := LU b a Hb Ha). apply Rabs_le. split.
  - assert (A : a / b - 1 <= 102 / 100 * d); [|lra].
    assert (B1 : (1 - d) * a <= b) by lra. apply (Rmult_le_reg_r b); [lra|]. replace ((a / b - 1) * b) with (a - b) by (field; lra).
    assert (102 / 100 * d * ((1 - d) * a) <= 102 / 100 * d * b) by (apply Rmult_le_compat_l; lra).
    assert (D2 : d * d * a <= / 100 * d * a) by (apply Rmult_le_compat_r; [lra|]; apply Rmult_le_compat_r; lra).
    assert (0 <= d * a) by (apply Rmult_le_pos; lra). lra.
  - assert (A : b / a - 1 <= d); [|lra]. apply (Rmult_le_reg_r a); [lra|]. replace ((b / a - 1) * a) with (b - a) by (field; lra). lra.
Qed.

Lemma x0_val : 372 / 1000 <= x0 <= 373 / 1000.
Proof. unfold x0, ei_x0, nlit. cbn [ndiv nofZ RNum RNum_at]. lra. Qed.
Lemma ln_x0 : Rabs (ln x0) <= 11 / 10.
Proof.
  assert (B := x0_val). assert (L : ln x0 < 0) by (rewrite <- ln_1; apply ln_increasing; lra). rewrite Rabs_left by lra.
  rewrite <- (ln_exp (11 / 10)), <- ln_Rinv by lra. apply ln_leq; [apply Rinv_0_lt_compat; lra|].
  apply Rle_trans with (/ (372 / 1000)); [apply Rinv_le_contravar; lra|].
  assert (K := exp_ineq1_le (11 / 80)).
  assert (SQ : forall y c, 0 <= c -> c <= exp y -> c * c <= exp (2 * y)) by (intros y c H1 H2; replace (2 * y) with (y + y) by ring; rewrite exp_plus; apply Rmult_le_compat; lra).
  assert (K1 := SQ (11 / 80) (1 + 11 / 80) ltac:(lra) K).
  assert (K2 := SQ (2 * (11 / 80)) (129 / 100) ltac:(lra) ltac:(lra)). assert (K3 := SQ (2 * (2 * (11 / 80))) (166 / 100) ltac:(lra) ltac:(lra)).
  replace (2 * (2 * (2 * (11 / 80)))) with (11 / 10) in K3 by field. lra.
Qed.

Section Low.
Context (kappa : R) (TT : NumTr f64) (HK : 0 <= kappa <= 4) (HL : libm_log kappa TT).

Lemma low64 (x q : f64) (Fx : is_finite x = true) : / 1000000000 <= val x < 6 -> rel q (zev P6 (val x / 6) / zev Q6 (val x / 6)) 530 -> 0 < zev P6 (val x / 6) / zev Q6 (val x / 6) <= 20 ->
  let fv := ln (val x / x0) + (val x - x0) * (zev P6 (val x / 6) / zev Q6 (val x / 6)) in
  near (nofZ 0 +! nlog (x /! ei_x0) +! (x -! ei_x0) *! q) fv (633 + 537 * Rabs (ln (val x)) + 533 * Rabs fv).
Proof.
  intros Hx Hq HR fv. set (Rr := zev P6 (val x / 6) / zev Q6 (val x / 6)) in *. clearbody Rr. assert (U := u_tiny).
  assert (X0 := x0_rel). assert (B0 := x0_val). set (c := ei_x0 (T := f64)) in *. clearbody c.
  assert (IX : 1000 / 373 <= / x0 <= 1000 / 372).
  { replace (1000 / 373) with (/ (373 / 1000)) by field. replace (1000 / 372) with (/ (372 / 1000)) by field. split; apply Rinv_le_contravar; lra. }
  assert (WB : / 1000000000 <= val x / x0 <= 20).
  { unfold Rdiv. split; [apply Rle_trans with (/ 1000000000 * 1); [lra|apply Rmult_le_compat; lra]|].
    apply Rle_trans with (6 * (1000 / 372)); [apply Rmult_le_compat; lra|lra]. }
  assert (P2 : 20 <= 10 ^ 100) by (apply Rle_trans with (10 ^ 2); [simpl; lra|apply Rle_pow; [lra|lia]]).
  assert (P9 : / 10 ^ 100 <= / 1000000000) by (apply Rinv_le_contravar; [lra|]; apply Rle_trans with (10 ^ 9); [simpl; lra|apply Rle_pow; [lra|lia]]).
  assert (RW : rel (x /! c) (val x / x0) (0 + 4 + 103 / 100)).
  { apply rel_div with (k := 0) (l := 4); [apply rel_fin; exact Fx|exact X0|lra|lra|lra|]. rewrite !Rabs_pos_eq by lra. apply mid_range. lra. }
  destruct RW as (FW & _ & EW). set (w := x /! c) in *. clearbody w. rewrite (Rabs_pos_eq (val x / x0)) in EW by lra.
  assert (EL := ln_quot (val x) x0 ltac:(lra) ltac:(lra)). set (rw := val x / x0) in *. clearbody rw.
  assert (VW : 0 < val w).
  { apply Rabs_le_inv in EW. assert ((0 + 4 + 103 / 100) * u53 * rw <= / 2 * rw) by (apply Rmult_le_compat_r; lra). lra. }
  assert (LC := ln_close rw (val w) _ ltac:(lra) VW EW ltac:(lra)).
  destruct (HL w FW VW) as [FLg ELg]. fold (val w) in ELg. unfold dvalue in ELg. change uround with u53 in ELg. set (lg := nlog w) in *. clearbody lg.
  set (l := ln rw) in *. 
  assert (LB : Rabs l <= 100).
  { assert (EB : exp (-100) <= / 1000000000).
    { replace (-100) with (Ropp 100) by lra. rewrite exp_Ropp. apply Rinv_le_contravar; [lra|]. assert (K := exp_ineq1_le (25 / 2)).
      assert (SQ : forall y c, 0 <= c -> c <= exp y -> c * c <= exp (2 * y)) by (intros y d H1 H2; replace (2 * y) with (y + y) by ring; rewrite exp_plus; apply Rmult_le_compat; lra).
      assert (K2 := SQ (25 / 2) (27 / 2) ltac:(lra) ltac:(lra)). replace (2 * (25 / 2)) with 25 in K2 by field.
      assert (K3 := SQ 25 182 ltac:(lra) ltac:(lra)). replace (2 * 25) with 50 in K3 by ring.
      assert (K4 := SQ 50 33124 ltac:(lra) ltac:(lra)). replace (2 * 50) with 100 in K4 by ring. lra. }
    assert (l <= rw - 1) by (assert (K := exp_ineq1_le l); unfold l in K at 2; rewrite exp_ln in K by lra; lra).
    apply Rabs_le. split; [|lra]. unfold l. replace (- (100)) with (-100) by lra. rewrite <- (ln_exp (-100)). apply ln_leq; [apply exp_pos|lra]. }
  assert (LD := LC). apply abs_le_sum in LD.
  assert (NL : near lg l (4 * Rabs l + 53 / 10)).
  { split; [exact FLg|]. replace (val lg - l) with ((val lg - ln (val w)) + (ln (val w) - l)) by ring. eapply Rle_trans; [apply Rabs_triang|].
    assert (kappa * u53 * Rabs (ln (val w)) <= 4 * u53 * (Rabs l + / 1000)).
    { apply Rmult_le_compat; [apply Rmult_le_pos; lra|apply Rabs_pos|apply Rmult_le_compat_r; lra|lra]. } lra. }
  assert (N0 : near (nofZ 0 : f64) 0 0).
  { split; [reflexivity|]. change (val (nofZ 0 : f64)) with 0. rewrite Rminus_0_r, Rabs_R0. lra. }
  assert (A0 : Rabs 0 <= 1000) by (rewrite Rabs_R0; lra). assert (Lp := Rabs_pos l).
  assert (N1 := near_plus _ _ _ _ _ _ N0 NL ltac:(lra) ltac:(lra) A0 ltac:(lra)). rewrite Rplus_0_l in N1.
  assert (NX : near x (val x) 0) by (split; [exact Fx|rewrite Rminus_diag_eq, Rabs_R0 by reflexivity; lra]).
  assert (NC := rel_near _ _ _ X0). rewrite (Rabs_pos_eq x0) in NC by lra. apply near_weaken with (e' := 15 / 10) in NC; [|lra].
  assert (AX : Rabs (val x) <= 6) by (rewrite Rabs_pos_eq; lra).
  assert (N2 := near_minus _ _ _ _ _ _ NX NC ltac:(lra) ltac:(lra) ltac:(lra) ltac:(rewrite Rabs_pos_eq; lra)).
  assert (AD : Rabs (val x - x0) <= 6) by (apply Rabs_le; lra).
  assert (NQ := rel_near _ _ _ Hq). rewrite (Rabs_pos_eq Rr) in NQ by lra. set (d := val x - x0) in *. assert (Dp := Rabs_pos d).
  assert (N3 := near_mult _ _ _ _ _ _ N2 NQ ltac:(lra) ltac:(lra) ltac:(lra) ltac:(rewrite Rabs_pos_eq; lra)).
  assert (ADR : Rabs (d * Rr) = Rabs d * Rr) by (rewrite Rabs_mult, (Rabs_pos_eq Rr) by lra; reflexivity).
  rewrite (Rabs_pos_eq Rr) in N3 by lra.
  assert (DR0 : 0 <= Rabs d * Rr <= 6 * 20) by (split; [apply Rmult_le_pos; lra|apply Rmult_le_compat; lra]).
  apply near_weaken with (e' := 532 * Rabs (d * Rr) + 31) in N3.
  2:{ rewrite ADR. replace (Rr * (0 + 15 / 10 + Rabs d + / 100)) with (Rabs d * Rr + (151 / 100) * Rr) by field. replace (Rabs d * (530 * Rr)) with (530 * (Rabs d * Rr)) by ring. lra. }
  rewrite <- ADR in DR0. fold d in fv.
  assert (N4 := near_plus _ _ _ _ _ _ N1 N3 ltac:(lra) ltac:(lra) ltac:(lra) ltac:(lra)). change (l + d * Rr) with fv in N4.
  apply near_weaken with (1 := N4).
  assert (DF : Rabs (d * Rr) <= Rabs fv + Rabs l).
  { replace (d * Rr) with (fv + - l) by (unfold fv, l; ring). eapply Rle_trans; [apply Rabs_triang|rewrite Rabs_Ropp; lra]. }
  assert (LX : Rabs l <= Rabs (ln (val x)) + 11 / 10).
  { rewrite EL. eapply Rle_trans; [apply Rabs_triang|rewrite Rabs_Ropp]. assert (K := ln_x0). lra. }
  lra.
Qed.
End Low.
