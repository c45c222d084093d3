(** Discrete Fourier transform. *)
From Coq Require Import List Arith ZArith Reals Lra Lia Bool.
From Verif Require Import Outcome Num M_Basics S_Basics M_Integ S_Series L_Series L_Cheb L_Cheb2 L_Integ2 M_FFT S_FFT.
Import ListNotations.
Open Scope R_scope.

(** ** Orthogonality *)
Lemma telescope n a p : 2 * sin (a / 2) * bsum n (fun j => cos (a * INR j + p)) = sin (a * (INR n - / 2) + p) - sin (p - a / 2).
Proof.
  induction n as [|n IH].
  - cbn [bsum INR]. rewrite Rmult_0_r. replace (a * (0 - / 2) + p) with (p - a / 2) by field. ring.
  - cbn [bsum]. rewrite Rmult_plus_distr_l, IH, S_INR.
    replace (a * (INR n + 1 - / 2) + p) with ((a * INR n + p) + a / 2) by field.
    replace (a * (INR n - / 2) + p) with ((a * INR n + p) - a / 2) by field.
    rewrite sin_plus, sin_minus. ring.
Qed.
Lemma sin_per z x : sin (x + 2 * PI * IZR z) = sin x.
Proof.
  destruct (Z_le_gt_dec 0 z) as [H|H].
  - rewrite <- (Z2Nat.id z H), <- INR_IZR_INZ. replace (x + 2 * PI * INR (Z.to_nat z)) with (x + 2 * INR (Z.to_nat z) * PI) by ring. apply sin_period.
  - assert (E : z = (- Z.of_nat (Z.to_nat (- z)))%Z) by lia. rewrite E, opp_IZR, <- INR_IZR_INZ. set (k := Z.to_nat (- z)).
    rewrite <- (sin_period (x + 2 * PI * - INR k) k). f_equal. ring.
Qed.
Lemma cos_per z x : cos (x + 2 * PI * IZR z) = cos x.
Proof. rewrite !cos_sin. replace (PI / 2 + (x + 2 * PI * IZR z)) with (PI / 2 + x + 2 * PI * IZR z) by ring. apply sin_per. Qed.
Lemma cos_bins n p phi : (0 < n)%nat ->
  bsum n (fun j => cos (2 * PI * IZR p / INR n * INR j + phi)) = if Z.eqb (p mod Z.of_nat n) 0 then INR n * cos phi else 0.
Proof.
  intros Hn. assert (N : 0 < INR n) by (apply (lt_INR 0), Hn). set (a := 2 * PI * IZR p / INR n).
  destruct (Z.eqb_spec (p mod Z.of_nat n) 0) as [E|E].
  - apply Z.mod_divide in E; [|lia]. destruct E as [q E]. rewrite (bsum_ext n _ (fun _ => cos phi * 1)).
    + rewrite bsum_scal. assert (O : bsum n (fun _ => 1) = INR n) by (clear; induction n; cbn [bsum]; [reflexivity|rewrite S_INR, IHn; ring]).
      rewrite O. ring.
    + intros j _. rewrite Rmult_1_r. rewrite <- (cos_per (q * Z.of_nat j) phi). f_equal. unfold a. rewrite E, !mult_IZR, <- !INR_IZR_INZ. field. lra.
  - assert (T := telescope n a phi). assert (S : sin (a / 2) <> 0).
    { intros S. apply sin_eq_0_0 in S. destruct S as [k S]. assert (IZR p = IZR (k * Z.of_nat n)).
      { rewrite mult_IZR, <- INR_IZR_INZ. assert (PI <> 0) by apply PI_neq0. apply (Rmult_eq_reg_l PI); [|assumption].
        replace (PI * IZR p) with (a / 2 * INR n) by (unfold a; field; lra). rewrite S. ring. }
      apply eq_IZR in H. apply E. rewrite H. apply Z.mod_mul. lia. }
    replace (a * (INR n - / 2) + phi) with (phi - a / 2 + 2 * PI * IZR p) in T by (unfold a; field; lra).
    rewrite sin_per, Rminus_diag_eq in T by reflexivity. apply Rmult_integral in T. destruct T as [T|T]; [lra|exact T].
Qed.
Lemma angle_sym n j k : angle n j k = angle n k j.
Proof. unfold angle. unfold Rdiv. ring. Qed.
Lemma delta n j l : (j < n)%nat -> (l < n)%nat ->
  bsum n (fun k => cos (angle n j k - angle n l k)) = if (l =? j)%nat then INR n else 0.
Proof.
  intros Hj Hl. rewrite (bsum_ext n _ (fun k => cos (2 * PI * IZR (Z.of_nat j - Z.of_nat l) / INR n * INR k + 0))).
  - rewrite cos_bins, cos_0 by lia. rewrite Rmult_1_r. destruct (Nat.eqb_spec l j) as [->|E].
    + rewrite Z.sub_diag, Z.mod_0_l by lia. reflexivity.
    + destruct (Z.eqb_spec ((Z.of_nat j - Z.of_nat l) mod Z.of_nat n) 0) as [M|M]; [exfalso|reflexivity].
      apply Z.mod_divide in M; [|lia]. destruct M as [q M]. assert (q = 0)%Z by nia. nia.
  - intros k _. f_equal. unfold angle. rewrite minus_IZR, <- !INR_IZR_INZ. field. apply Rgt_not_eq, (lt_INR 0). lia.
Qed.
Lemma delta_sum n (f : nat -> R) j : (j < n)%nat -> bsum n (fun l => f l * (if (l =? j)%nat then INR n else 0)) = INR n * f j.
Proof.
  intros H. rewrite (bsum_ext n _ (fun l => INR n * (f l * (if (l =? j)%nat then 1 else 0)))).
  - rewrite bsum_scal, bsum_delta by exact H. reflexivity.
  - intros l _. destruct (l =? j)%nat; ring.
Qed.

(** ** Properties of the transform *)
Lemma dft_conj v k : (0 < k < length v)%nat -> dft v (length v - k) = (fst (dft v k), - snd (dft v k)).
Proof.
  intros H. set (n := length v) in *. assert (N : INR n <> 0) by (apply not_0_INR; lia).
  assert (A : forall j, angle n j (n - k) = - angle n j k + 2 * PI * IZR (Z.of_nat j)).
  { intros j. unfold angle. rewrite minus_INR, <- INR_IZR_INZ by lia. field. exact N. }
  unfold dft. fold n. cbn [fst snd]. f_equal.
  - apply bsum_ext. intros j _. rewrite A, cos_per, cos_neg. reflexivity.
  - rewrite Ropp_involutive, <- (Rmult_1_l (bsum n (fun j => nth j v 0 * sin (angle n j k)))), <- Ropp_mult_distr_l_reverse || idtac.
    rewrite (bsum_ext n _ (fun j => -1 * (nth j v 0 * sin (angle n j k)))).
    + rewrite bsum_scal. ring.
    + intros j _. rewrite A, sin_per, sin_neg. ring.
Qed.
Lemma inverse_dft v j : (j < length v)%nat -> inverse_sum (length v) (dft v) j = INR (length v) * nth j v 0.
Proof.
  intros H. set (n := length v) in *. unfold inverse_sum, dft. fold n. cbn [fst snd].
  rewrite (bsum_ext n _ (fun k => bsum n (fun l => nth l v 0 * cos (angle n j k - angle n l k)))).
  - rewrite bsum_swap. rewrite <- (delta_sum n (fun l => nth l v 0) j H). apply bsum_ext. intros l Hl.
    rewrite bsum_scal, delta by assumption. reflexivity.
  - intros k _. rewrite <- !bsum_scal_r. unfold Rminus at 1. rewrite Ropp_mult_distr_l_reverse, Ropp_involutive, <- bsum_scal_r, <- bsum_plus.
    apply bsum_ext. intros l _. rewrite cos_minus. ring.
Qed.
Lemma parseval v : bsum (length v) (fun k => fst (dft v k) ^ 2 + snd (dft v k) ^ 2) = INR (length v) * bsum (length v) (fun j => nth j v 0 ^ 2).
Proof.
  set (n := length v). unfold dft. fold n. cbn [fst snd].
  rewrite (bsum_ext n _ (fun k => bsum n (fun j => nth j v 0 * bsum n (fun l => nth l v 0 * cos (angle n j k - angle n l k))))).
  - rewrite bsum_swap, <- bsum_scal. apply bsum_ext. intros j Hj.
    rewrite bsum_scal, bsum_swap. rewrite (bsum_ext n _ (fun l => nth l v 0 * (if (l =? j)%nat then INR n else 0))).
    + rewrite (delta_sum n (fun l => nth l v 0) j Hj). ring.
    + intros l Hl. rewrite bsum_scal, delta by assumption. reflexivity.
  - intros k _. cbn [pow]. rewrite !Rmult_1_r, Rmult_opp_opp, <- !bsum_scal_r, <- bsum_plus. apply bsum_ext. intros j _.
    rewrite !Rmult_assoc, <- Rmult_plus_distr_l. f_equal. rewrite <- !bsum_scal, <- bsum_plus. apply bsum_ext. intros l _. rewrite cos_minus. ring.
Qed.

(** ** The model *)
Section Model.
Variables (kfwd : list R -> nat -> R * R) (kinv : nat -> list (R * R) -> nat -> R).
Hypothesis E : engine kfwd kinv.

Definition width (fl : Z) (n : nat) : nat := if has_flag fl flag_half then (n / 2 + 1)%nat else n.
Lemma half_le n : (0 < n)%nat -> (n / 2 + 1 <= n)%nat /\ (n <= 2 * (n / 2) + 1)%nat /\ (2 * (n / 2) <= n)%nat.
Proof. intros H. assert (D := Nat.div_mod n 2 ltac:(lia)). assert (M := Nat.mod_upper_bound n 2 ltac:(lia)). lia. Qed.
Lemma fft_ok fl v : v <> [] -> fft kfwd fl v = Ok (map (dft v) (seq 0 (width fl (length v)))).
Proof.
  intros Hv. unfold fft, width. set (n := length v). assert (Hn : (0 < n)%nat) by (unfold n; destruct v; [congruence|cbn; lia]).
  rewrite (proj2 (Nat.eqb_neq n 0)) by lia. destruct (half_le n Hn) as [H1 [H2 H3]].
  assert (B : map (kfwd v) (seq 0 (n / 2 + 1)) = map (dft v) (seq 0 (n / 2 + 1))).
  { apply map_ext_in. intros k Hk. apply in_seq in Hk. apply (proj1 E). fold n. lia. }
  rewrite B. destruct (has_flag fl flag_half); [reflexivity|].
  rewrite (mapM_ok_map _ (dft v)).
  - cbn [bind]. rewrite <- map_app. f_equal. f_equal. assert (D : n = (n / 2 + 1 + (n - (n / 2 + 1)))%nat) by lia.
    transitivity (seq 0 (n / 2 + 1 + (n - (n / 2 + 1)))); [symmetry; apply (seq_app (n / 2 + 1) _ 0)|f_equal; symmetry; exact D].
  - intros k Hk. apply in_seq in Hk. rewrite (vidx_lt _ _ (dft v 0)) by (rewrite map_length, seq_length; lia).
    rewrite map_nth, seq_nth by lia. cbn [bind]. f_equal. unfold cconj. cbn [nneg RNum RNum_at].
    rewrite <- dft_conj by (fold n; lia). f_equal. fold n. lia.
Qed.
Lemma hermitian_dft v w k : (0 < length v)%nat -> (length v / 2 < w)%nat -> (w <= length v)%nat -> (k < length v)%nat ->
  hermitian (length v) (map (dft v) (seq 0 w)) k = dft v k.
Proof.
  intros Hn Hw Hw' Hk. set (n := length v) in *. destruct (half_le n Hn) as [H1 [H2 H3]].
  assert (G : forall i, (i < w)%nat -> nth i (map (dft v) (seq 0 w)) (0, 0) = dft v i).
  { intros i Hi. rewrite (nth_indep _ (0, 0) (dft v 0)) by (rewrite map_length, seq_length; exact Hi). rewrite map_nth, seq_nth by exact Hi. reflexivity. }
  unfold hermitian. destruct (Nat.leb_spec k (n / 2)) as [L|L].
  - apply G. lia.
  - rewrite G by lia. unfold n. rewrite <- dft_conj by (fold n; lia). f_equal. fold n. lia.
Qed.
Lemma ifft_ok fl v : v <> [] -> (has_flag fl flag_half = true -> Nat.even (length v) = true) ->
  (let* X := fft kfwd fl v in ifft kinv fl X) =
  Ok (map (fun x => (if has_flag fl flag_unscaled then INR (length v) else 1) * x) v).
Proof.
  intros Hv He. rewrite fft_ok by exact Hv. cbn [bind]. unfold ifft. rewrite map_length, seq_length.
  set (n := length v) in *. assert (Hn : (0 < n)%nat) by (unfold n; destruct v; [congruence|cbn; lia]).
  destruct (half_le n Hn) as [H1 [H2 H3]].
  assert (Hw : (if has_flag fl flag_half then 2 * (width fl n - 1) else width fl n)%nat = n /\ (n / 2 < width fl n <= n)%nat).
  { unfold width. destruct (has_flag fl flag_half).
    - specialize (He eq_refl). apply Nat.even_spec in He. destruct He as [q He]. rewrite He in *.
      replace (2 * q / 2)%nat with q in * by (rewrite Nat.mul_comm, Nat.div_mul; lia). lia.
    - lia. }
  destruct Hw as [W1 W2]. rewrite (proj2 (Nat.eqb_neq (width fl n) 0)), andb_false_r, W1, (proj2 (Nat.eqb_neq n 0)) by lia.
  assert (O : map (kinv n (map (dft v) (seq 0 (width fl n)))) (seq 0 n) = map (fun x => INR n * x) v).
  { apply (nth_ext _ _ (kinv n (map (dft v) (seq 0 (width fl n))) 0) (INR n * 0)); [rewrite !map_length, seq_length; reflexivity|].
    intros j Hj. rewrite map_length, seq_length in Hj. rewrite map_nth, seq_nth by exact Hj. rewrite (map_nth (fun x => INR n * x)). cbn [plus].
    rewrite (proj2 E); [|exact Hj|rewrite map_length, seq_length; lia]. unfold n. rewrite <- inverse_dft by exact Hj. fold n.
    unfold inverse_sum. apply bsum_ext. intros k Hk. unfold n at 1 4. rewrite hermitian_dft by (fold n; lia). reflexivity. }
  rewrite O. destruct (has_flag fl flag_unscaled); [reflexivity|]. f_equal. rewrite map_map. apply map_ext. intros x.
  cbn [nmul ndiv nofZ RNum RNum_at]. rewrite <- INR_IZR_INZ. field. apply not_0_INR. lia.
Qed.
Lemma ifft_odd fl v : has_flag fl flag_half = true -> Nat.odd (length v) = true ->
  (length v = 1%nat /\ (let* X := fft kfwd fl v in ifft kinv fl X) = UB) \/
  (exists out, (let* X := fft kfwd fl v in ifft kinv fl X) = Ok out /\ length out = (length v - 1)%nat).
Proof.
  intros Hf Ho. assert (Hv : v <> []) by (intros ->; discriminate). rewrite fft_ok by exact Hv. cbn [bind]. unfold ifft, width. rewrite Hf, map_length, seq_length.
  apply Nat.odd_spec in Ho. destruct Ho as [q Ho]. set (n := length v) in *. rewrite Ho.
  replace ((2 * q + 1) / 2)%nat with q by (rewrite Nat.add_comm, Nat.mul_comm, Nat.div_add by lia; reflexivity).
  rewrite (proj2 (Nat.eqb_neq (q + 1) 0)) by lia. cbn [andb]. replace (2 * (q + 1 - 1))%nat with (2 * q)%nat by lia.
  destruct q as [|q]; [left; split; reflexivity|right]. rewrite (proj2 (Nat.eqb_neq (2 * S q) 0)) by lia.
  destruct (has_flag fl flag_unscaled); (eexists; split; [reflexivity|]; rewrite !map_length, seq_length; lia).
Qed.
End Model.

Lemma flags ops : has_flag (fft_run ops) flag_half = last_half false ops /\
  has_flag (fft_run ops) flag_unscaled = negb (last_scaling true ops).
Proof.
  unfold fft_run. assert (G : forall fl, (fl = 0 \/ fl = 1 \/ fl = 2 \/ fl = 3)%Z ->
    has_flag (fold_left fft_step ops fl) flag_half = last_half (has_flag fl flag_half) ops /\
    has_flag (fold_left fft_step ops fl) flag_unscaled = negb (last_scaling (negb (has_flag fl flag_unscaled)) ops)).
  { induction ops as [|o ops IH]; intros fl Hfl; cbn [fold_left last_half last_scaling].
    - split; [reflexivity|]. now rewrite negb_involutive.
    - assert (Hs : (fft_step fl o = 0 \/ fft_step fl o = 1 \/ fft_step fl o = 2 \/ fft_step fl o = 3)%Z)
        by (destruct o, Hfl as [->|[->|[->| ->]]]; cbn; auto).
      specialize (IH _ Hs). destruct IH as [-> ->]. destruct o, Hfl as [->|[->|[->| ->]]]; split; reflexivity. }
  apply (G 0%Z). auto.
Qed.

(** ** A pure tone *)
Lemma tone_nth n A f fs phi j : (j < n)%nat -> nth j (tone n A f fs phi) 0 = A * cos (2 * PI * f * (INR j / fs) + phi).
Proof.
  intros H. unfold tone. rewrite (nth_indep _ 0 ((fun j => A * cos (2 * PI * f * (INR j / fs) + phi)) 0%nat)) by (rewrite map_length, seq_length; exact H).
  rewrite (map_nth (fun j => A * cos (2 * PI * f * (INR j / fs) + phi))), seq_nth by exact H. reflexivity.
Qed.
Lemma tone_dft n A fs phi k m : (0 < k)%nat -> (2 * k < n)%nat -> (m <= n / 2)%nat -> fs <> 0 ->
  dft (tone n A (INR k * fs / INR n) fs phi) m =
  if (m =? k)%nat then (INR n * A / 2 * cos phi, INR n * A / 2 * sin phi) else (0, 0).
Proof.
  intros Hk Hk2 Hm Hfs. assert (N : INR n <> 0) by (apply not_0_INR; lia). set (v := tone _ _ _ _ _).
  assert (L : length v = n) by (unfold v, tone; rewrite map_length, seq_length; reflexivity).
  destruct (half_le n ltac:(lia)) as [H1 [H2 H3]].
  unfold dft. rewrite L. 
  assert (V : forall j, (j < n)%nat -> nth j v 0 = A * cos (angle n k j + phi)).
  { intros j Hj. unfold v. rewrite tone_nth by exact Hj. f_equal. f_equal. f_equal. unfold angle. field. split; assumption. }
  pose (p1 := (Z.of_nat k - Z.of_nat m)%Z). pose (p2 := (Z.of_nat k + Z.of_nat m)%Z).
  assert (M2 : Z.eqb (p2 mod Z.of_nat n) 0 = false).
  { apply Z.eqb_neq. intros M. apply Z.mod_divide in M; [|lia]. destruct M as [q M]. unfold p2 in M. assert (0 < q)%Z by nia. assert (q < 1)%Z by nia. lia. }
  assert (M1 : Z.eqb (p1 mod Z.of_nat n) 0 = (m =? k)%nat).
  { destruct (Nat.eqb_spec m k) as [Ek|Ek]; [unfold p1; rewrite Ek, Z.sub_diag, Z.mod_0_l by lia; reflexivity|].
    apply Z.eqb_neq. intros M. apply Z.mod_divide in M; [|lia]. destruct M as [q M]. unfold p1 in M. assert (q = 0)%Z by nia. nia. }
  assert (C : forall psi, bsum n (fun j => cos (2 * PI * IZR p1 / INR n * INR j + psi)) = (if (m =? k)%nat then INR n * cos psi else 0) /\
                          bsum n (fun j => cos (2 * PI * IZR p2 / INR n * INR j + psi)) = 0).
  { intros psi. rewrite !cos_bins, M1, M2 by lia. split; reflexivity. }
  assert (A1 : forall j, angle n k j - angle n j m = 2 * PI * IZR p1 / INR n * INR j).
  { intros j. unfold angle, p1. rewrite minus_IZR, <- !INR_IZR_INZ. field. exact N. }
  assert (A2 : forall j, angle n k j + angle n j m = 2 * PI * IZR p2 / INR n * INR j).
  { intros j. unfold angle, p2. rewrite plus_IZR, <- !INR_IZR_INZ. field. exact N. }
  assert (RE : bsum n (fun j => nth j v 0 * cos (angle n j m)) = A / 2 * (if (m =? k)%nat then INR n * cos phi else 0)).
  { destruct (C phi) as [C1 C2]. rewrite <- C1. set (f1 := fun j => cos (2 * PI * IZR p1 / INR n * INR j + phi)) in *.
    set (f2 := fun j => cos (2 * PI * IZR p2 / INR n * INR j + phi)) in *.
    transitivity (bsum n (fun j => A / 2 * f1 j + A / 2 * f2 j)); [|rewrite bsum_plus, !bsum_scal, C2; ring].
    unfold f1, f2.
    apply bsum_ext. intros j Hj. rewrite V by exact Hj. rewrite <- A1, <- A2.
    replace (angle n k j - angle n j m + phi) with ((angle n k j + phi) - angle n j m) by ring.
    replace (angle n k j + angle n j m + phi) with ((angle n k j + phi) + angle n j m) by ring. set (al := angle n k j + phi). rewrite cos_minus, cos_plus. field. }
  assert (IM : bsum n (fun j => nth j v 0 * sin (angle n j m)) = - (A / 2) * (if (m =? k)%nat then INR n * sin phi else 0)).
  { destruct (C (phi - PI / 2)) as [C1 C2].
    assert (Cs : forall x, cos (x - PI / 2) = sin x) by (intros x; rewrite cos_minus, cos_PI2, sin_PI2; ring). rewrite Cs in C1.
    rewrite <- C1. set (f1 := fun j => cos (2 * PI * IZR p1 / INR n * INR j + (phi - PI / 2))) in *.
    set (f2 := fun j => cos (2 * PI * IZR p2 / INR n * INR j + (phi - PI / 2))) in *.
    transitivity (bsum n (fun j => - (A / 2) * f1 j + A / 2 * f2 j)); [|rewrite bsum_plus, !bsum_scal, C2; ring].
    unfold f1, f2.
    apply bsum_ext. intros j Hj. rewrite V by exact Hj. rewrite <- A1, <- A2.
    replace (angle n k j - angle n j m + (phi - PI / 2)) with ((angle n k j + phi) - angle n j m - PI / 2) by ring.
    replace (angle n k j + angle n j m + (phi - PI / 2)) with ((angle n k j + phi) + angle n j m - PI / 2) by ring. set (al := angle n k j + phi). rewrite !Cs, sin_minus, sin_plus. field. }
  rewrite RE, IM. destruct (m =? k)%nat; f_equal; field.
Qed.

(** ** Statements as used by the theorems *)
Lemma map_seq_nth (g : nat -> R * R) w k : (k < w)%nat -> nth k (map g (seq 0 w)) (0, 0) = g k.
Proof.
  intros H. rewrite (nth_indep _ (0, 0) (g 0%nat)) by (rewrite map_length, seq_length; exact H).
  rewrite map_nth, seq_nth by exact H. reflexivity.
Qed.
Lemma fft_values kfwd kinv fl v : engine kfwd kinv -> v <> [] -> exists X, fft kfwd fl v = Ok X /\
  length X = (if has_flag fl flag_half then length v / 2 + 1 else length v)%nat /\
  forall k, (k < length X)%nat -> nth k X (0, 0) = dft v k.
Proof.
  intros E Hv. eexists. split; [apply (fft_ok kfwd kinv E fl v Hv)|]. rewrite map_length, seq_length. split; [reflexivity|].
  intros k Hk. apply map_seq_nth. exact Hk.
Qed.
Lemma fft_parseval kfwd kinv v X fl : engine kfwd kinv -> has_flag fl flag_half = false -> fft kfwd fl v = Ok X ->
  bsum (length X) (fun k => fst (nth k X (0, 0)) ^ 2 + snd (nth k X (0, 0)) ^ 2) = INR (length v) * bsum (length v) (fun j => nth j v 0 ^ 2).
Proof.
  intros E Hf H. assert (Hv : v <> []) by (intros ->; discriminate). destruct (fft_values kfwd kinv fl v E Hv) as [X' [H1 [H2 H3]]].
  rewrite H in H1. injection H1 as <-. rewrite Hf in H2. rewrite <- parseval, H2. apply bsum_ext. intros k Hk. rewrite H3 by lia. reflexivity.
Qed.
Lemma round_trip kfwd kinv ops v : engine kfwd kinv -> v <> [] ->
  (last_half false ops = true -> Nat.even (length v) = true) ->
  (let* X := fft kfwd (fft_run ops) v in ifft kinv (fft_run ops) X) =
  Ok (map (fun x => (if last_scaling true ops then 1 else INR (length v)) * x) v).
Proof.
  intros E Hv He. destruct (flags ops) as [F1 F2]. rewrite (ifft_ok kfwd kinv E) by (auto; rewrite F1; exact He). rewrite F2.
  destruct (last_scaling true ops); reflexivity.
Qed.
Lemma round_trip_odd kfwd kinv ops v : engine kfwd kinv -> last_half false ops = true -> Nat.odd (length v) = true ->
  (length v = 1%nat /\ (let* X := fft kfwd (fft_run ops) v in ifft kinv (fft_run ops) X) = UB) \/
  (exists out, (let* X := fft kfwd (fft_run ops) v in ifft kinv (fft_run ops) X) = Ok out /\ length out = (length v - 1)%nat).
Proof. intros E Hf Ho. apply ifft_odd; [exact E|rewrite (proj1 (flags ops)); exact Hf|exact Ho]. Qed.
Lemma round_trip_refuted : exists ops v, v <> [] /\ last_scaling true ops = true /\
  forall kfwd kinv, engine kfwd kinv -> (let* X := fft kfwd (fft_run ops) v in ifft kinv (fft_run ops) X) <> Ok v.
Proof.
  exists [HalfSpectrumON], [1; 2; 3]. split; [discriminate|]. split; [reflexivity|]. intros kf ki E H.
  destruct (round_trip_odd kf ki [HalfSpectrumON] [1; 2; 3] E eq_refl eq_refl) as [[D _]|[out [H1 H2]]]; [discriminate|].
  rewrite H in H1. injection H1 as <-. discriminate.
Qed.
Lemma empty_cases kfwd kinv fl : fft (T := R) kfwd fl [] = UB /\
  ifft (T := R) kinv fl [] = if has_flag fl flag_half then Throw LengthError else UB.
Proof. split; [reflexivity|]. unfold ifft. destruct (has_flag fl flag_half); reflexivity. Qed.
Lemma tone_full kfwd kinv fl n A fs phi k u : engine kfwd kinv -> (0 < k)%nat -> (2 * k < n)%nat -> fs <> 0 ->
  exists X F, fft_frequencies kfwd fl (tone n A (INR k * fs / INR n) fs phi) fs u = Ok (X, F) /\
    length F = length X /\ denotes_hertz PI u (nth k F 0) (INR k * fs / INR n) /\
    (n / 2 < length X)%nat /\
    forall m, (m <= n / 2)%nat -> nth m X (0, 0) = if (m =? k)%nat then (INR n * A / 2 * cos phi, INR n * A / 2 * sin phi) else (0, 0).
Proof.
  intros E Hk Hk2 Hfs. set (v := tone n A (INR k * fs / INR n) fs phi). destruct (half_le n ltac:(lia)) as [H1 [H2 H3]].
  assert (L : length v = n) by (unfold v, tone; rewrite map_length, seq_length; reflexivity).
  assert (Hv : v <> []) by (intros Hv; rewrite Hv in L; cbn in L; lia).
  destruct (fft_values kfwd kinv fl v E Hv) as [X [E1 [E2 E3]]]. rewrite L in E2.
  destruct (freq_lemma (has_flag fl flag_half) n fs u ltac:(lia)) as [F1 F2].
  exists X, (frequency_vector (has_flag fl flag_half) n fs u). unfold fft_frequencies. rewrite E1, L. split; [reflexivity|].
  split; [rewrite F1, E2; reflexivity|].
  assert (W : (n / 2 < length X)%nat) by (rewrite E2; destruct (has_flag fl flag_half); lia).
  split; [apply F2; [rewrite F1; destruct (has_flag fl flag_half); lia|intros _; split; [lia|exact Hfs]]|].
  split; [exact W|]. intros m Hm. rewrite E3 by lia. apply tone_dft; assumption.
Qed.
Definition ref_fwd (v : list R) (k : nat) : R * R := dft v k.
Definition ref_inv (n : nat) (X : list (R * R)) (j : nat) : R := inverse_sum n (hermitian n X) j.
Lemma engine_exists : engine ref_fwd ref_inv.
Proof. split; reflexivity. Qed.
