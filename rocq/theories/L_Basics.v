(** Proofs about units, vector generation, elementwise operations,
    comparisons and saturation. *)
From Coq Require Import List Arith ZArith Reals Bool Lia Lra Psatz.
From Flocq Require Import Core.Core IEEE754.BinarySingleNaN.
From Verif Require Import Outcome Num NumFun F64 L_F64 M_Basics S_Angles S_Basics L_Angles.
Import ListNotations.
Local Open Scope nat_scope.
Local Open Scope R_scope.

(** ** Units *)
Ltac runits := cbv [nmul ndiv nadd nsub nofZ npi RNum_at mu_one_hour mu_knot mu_kmh mu_pi_180 mu_180_pi mu_2pi
  mu_rpm2rads knot2ms ms2knot kmh2ms ms2kmh kmh2knot knot2kmh degs2rads rads2degs hz2rads rads2hz hz2s s2hz
  rads2s s2rads rpm2rads rads2rpm degm2rads rads2degm].

Lemma velocity_meaning_lemma : forall p v u w,
  convert_velocity_unit (NT := RNum_at p) v u w * metres_per_second w = v * metres_per_second u.
Proof.
  intros p v u w. destruct u, w; unfold convert_velocity_unit, metres_per_second; runits; field.
Qed.

Lemma mps_pos u : metres_per_second u <> 0.
Proof. destruct u; unfold metres_per_second; lra. Qed.

Lemma velocity_compose_lemma : forall p v u w z,
  convert_velocity_unit (NT := RNum_at p) (convert_velocity_unit (NT := RNum_at p) v u w) w z =
    convert_velocity_unit (NT := RNum_at p) v u z /\
  convert_velocity_unit (NT := RNum_at p) v u u = v.
Proof.
  intros p v u w z. split.
  - apply Rmult_eq_reg_r with (metres_per_second z); [|apply mps_pos]. rewrite !velocity_meaning_lemma. reflexivity.
  - apply Rmult_eq_reg_r with (metres_per_second u); [|apply mps_pos]. apply velocity_meaning_lemma.
Qed.

Lemma velocity_helpers_lemma : forall p v,
  let conv := convert_velocity_unit (NT := RNum_at p) v in
  knot2ms (NT := RNum_at p) v = conv KNOT MS /\ ms2knot (NT := RNum_at p) v = conv MS KNOT /\
  kmh2ms (NT := RNum_at p) v = conv KMH MS /\ ms2kmh (NT := RNum_at p) v = conv MS KMH /\
  kmh2knot (NT := RNum_at p) v = conv KMH KNOT /\ knot2kmh (NT := RNum_at p) v = conv KNOT KMH /\
  forall l, kt2ms (NT := RNum_at p) l = map (fun x => x * (1852 / 3600)) l.
Proof.
  intros p v conv. repeat split.
  intros l. unfold kt2ms. apply map_ext. intros x. runits. field.
Qed.

Lemma frequency_meaning_lemma : forall p x f u w, p <> 0 -> (w = PERIOD_S -> f <> 0) ->
  denotes_hertz p u x f -> denotes_hertz p w (convert_frequency (NT := RNum_at p) x u w) f.
Proof.
  intros p x f u w Hp Hw H. destruct u, w; unfold convert_frequency, denotes_hertz in *; cbn [frequency_unit_eqb];
    auto; runits; try (specialize (Hw eq_refl)); try (subst x; field; auto; fail);
    try (assert (Hf : f <> 0) by (intros ->; lra); assert (Hx : x <> 0) by (intros ->; lra);
         assert (E : f = 1 / x) by (field_simplify_eq; lra); rewrite E; field; auto).
Qed.

Lemma denotes_unique p u x y f : p <> 0 -> denotes_hertz p u x f -> denotes_hertz p u y f -> x = y.
Proof.
  intros Hp. destruct u; unfold denotes_hertz; intros; try lra.
  apply Rmult_eq_reg_r with f; [lra|]. intros ->. lra.
Qed.

Lemma denotes_exists p u x : p <> 0 -> (u = PERIOD_S -> x <> 0) -> exists f, denotes_hertz p u x f /\ (x <> 0 -> f <> 0).
Proof.
  intros Hp Hx. destruct u; unfold denotes_hertz.
  - exists x; auto.
  - exists (x / (2 * p)). split; [field; auto|]. intros H E. apply H. apply Rmult_eq_reg_r with (/ (2 * p)).
    + rewrite Rmult_0_l. exact E.
    + apply Rinv_neq_0_compat. lra.
  - exists (x / 360). split; [field|]. intros H E. lra.
  - exists (x / (360 * 60)). split; [field|]. intros H E. lra.
  - specialize (Hx eq_refl). exists (/ x). split; [field; auto|]. intros _. apply Rinv_neq_0_compat. auto.
  - exists (x / 60). split; [field|]. intros H E. lra.
Qed.

Lemma frequency_compose_lemma : forall p x u v w, p <> 0 ->
  (u = PERIOD_S \/ v = PERIOD_S \/ w = PERIOD_S -> x <> 0) ->
  convert_frequency (NT := RNum_at p) (convert_frequency (NT := RNum_at p) x u v) v w =
    convert_frequency (NT := RNum_at p) x u w /\
  convert_frequency (NT := RNum_at p) x u u = x.
Proof.
  intros p x u v w Hp Hx. split.
  - destruct (denotes_exists p u x Hp) as (f & Hf & Hn); [tauto|].
    assert (Hd : forall w', (w' = PERIOD_S -> x <> 0) -> denotes_hertz p w' (convert_frequency (NT := RNum_at p) x u w') f).
    { intros w' Hw'. apply frequency_meaning_lemma; auto. }
    apply (denotes_unique p w _ _ f Hp).
    + apply frequency_meaning_lemma; auto.
    + apply Hd. tauto.
  - unfold convert_frequency. destruct u; reflexivity.
Qed.

Lemma angle_vectors_lemma : forall p l, p <> 0 ->
  deg2rad (NT := RNum_at p) l = map (fun d => d * (p / 180)) l /\
  rad2deg (NT := RNum_at p) (deg2rad (NT := RNum_at p) l) = l /\
  deg2rad (NT := RNum_at p) (rad2deg (NT := RNum_at p) l) = l.
Proof.
  intros p l Hp. split; [reflexivity|]. unfold deg2rad, rad2deg. rewrite !map_map.
  split; rewrite <- (map_id l) at 2; apply map_ext; intros x; runits; field; auto.
Qed.

(** ** linspace *)
Lemma nth_map_seq {A} (g : nat -> A) d n k : (k < n)%nat -> nth k (map g (seq 0 n)) d = g k.
Proof.
  intros H. rewrite nth_indep with (d' := g 0%nat) by (rewrite map_length, seq_length; auto).
  rewrite map_nth, seq_nth by auto. reflexivity.
Qed.

Lemma Rleb_refl_true x y : x <= y -> Rleb x y = true.
Proof. intros. rcmp; auto; lra. Qed.

Definition lin (start stop : R) (num : nat) (k : nat) : R := start + INR k * ((stop - start) / INR (num - 1)).

Lemma linspace_release bm p start stop num : (2 <= num)%nat -> (bm = Debug -> start <= stop) ->
  exists l, linspace (NT := RNum_at p) bm start stop num = Ok l /\ elements l num (lin start stop num) /\
    nth (num - 1) l 0 = stop.
Proof.
  intros Hn Hd. unfold linspace.
  assert (C1 : cassert bm (1 <? num)%nat = Ok tt).
  { destruct bm; simpl; auto. destruct (Nat.ltb_spec 1 num); auto; lia. }
  assert (C2 : cassert bm (nle (Num := RNum_at p) start stop) = Ok tt).
  { destruct bm; simpl; auto. rewrite Rleb_refl_true; auto. }
  rewrite C1, C2. cbn [bind]. destruct (Nat.eqb_spec num 0); [lia|].
  eexists. split; [reflexivity|]. split; [split|].
  - rewrite app_length, map_length, seq_length. simpl. lia.
  - intros k Hk. unfold lin. destruct (Nat.eq_dec k (num - 1)) as [->|Hne].
    + rewrite app_nth2; rewrite map_length, seq_length; [|lia]. rewrite Nat.sub_diag. simpl.
      field. apply not_0_INR. lia.
    + rewrite app_nth1 by (rewrite map_length, seq_length; lia). rewrite nth_map_seq by lia.
      cbn [nadd nmul nsub ndiv nofZ RNum_at]. rewrite <- !INR_IZR_INZ. reflexivity.
  - rewrite app_nth2; rewrite map_length, seq_length; [|lia]. rewrite Nat.sub_diag. reflexivity.
Qed.

Lemma elements_lin_mono l num start stop : (2 <= num)%nat -> elements l num (lin start stop num) ->
  forall i j, (i < j < num)%nat ->
    (start <= stop -> nth i l 0 <= nth j l 0) /\ (start < stop -> nth i l 0 < nth j l 0).
Proof.
  intros Hn (_ & H) i j Hij. rewrite !H by lia. unfold lin.
  assert (P : 0 < INR (num - 1)) by (apply lt_0_INR; lia).
  assert (Q : INR i < INR j) by (apply lt_INR; lia).
  split; intros Hs.
  - apply Rplus_le_compat_l. apply Rmult_le_compat_r; [|lra].
    apply Rmult_le_pos; [lra|]. left. apply Rinv_0_lt_compat. auto.
  - apply Rplus_lt_compat_l. apply Rmult_lt_compat_r; [|lra].
    apply Rmult_lt_0_compat; [lra|]. apply Rinv_0_lt_compat. auto.
Qed.

Lemma linspace_lemma : forall p bm start stop num, (2 <= num)%nat -> start <= stop ->
  exists l, linspace (NT := RNum_at p) bm start stop num = Ok l /\
    elements l num (fun k => start + INR k * ((stop - start) / INR (num - 1))) /\
    nth 0 l 0 = start /\ nth (num - 1) l 0 = stop /\
    forall i j, (i < j < num)%nat -> nth i l 0 <= nth j l 0 /\ (start < stop -> nth i l 0 < nth j l 0).
Proof.
  intros p bm start stop num Hn Hs.
  destruct (linspace_release bm p start stop num Hn (fun _ => Hs)) as (l & H1 & H2 & H3).
  exists l. split; [auto|]. split; [exact H2|]. split.
  - destruct H2 as [_ H2]. rewrite H2 by lia. unfold lin. simpl. ring.
  - split; [auto|]. intros i j Hij. destruct (elements_lin_mono l num start stop Hn H2 i j Hij). split; auto.
Qed.

Lemma linspace_pre_lemma : forall p start stop num,
  ((num < 2)%nat \/ stop < start -> linspace (NT := RNum_at p) Debug start stop num = Abort) /\
  linspace (NT := RNum_at p) Release start stop 0 = UB /\
  linspace (NT := RNum_at p) Release start stop 1 = Ok [stop] /\
  ((2 <= num)%nat -> exists l, linspace (NT := RNum_at p) Release start stop num = Ok l /\
     elements l num (fun k => start + INR k * ((stop - start) / INR (num - 1)))).
Proof.
  intros p start stop num. split; [|split; [reflexivity|split; [reflexivity|]]].
  - intros H. unfold linspace. cbn [cassert].
    destruct (Nat.ltb_spec 1 num); [|reflexivity]. cbn [bind nle RNum_at].
    destruct H as [H|H]; [lia|]. destruct (Rleb start stop) eqn:E; [|reflexivity]. apply Rleb_true in E. lra.
  - intros Hn. destruct (linspace_release Release p start stop num Hn ltac:(discriminate)) as (l & H1 & H2 & _).
    eauto.
Qed.

(** ** logspace *)
Lemma Rcpow_pos b e : 0 < b -> Rcpow b e = Rpower b e.
Proof. intros H. unfold Rcpow. rcmp; auto; lra. Qed.

Lemma logspace_lemma : forall p bm start stop num base, (2 <= num)%nat -> start <= stop -> 0 < base ->
  exists l q, logspace (NT := RNum_at p) bm start stop num base = Ok l /\
    elements l num (fun k => Rpower base (start + INR k * ((stop - start) / INR (num - 1)))) /\
    nth 0 l 0 = Rpower base start /\ nth (num - 1) l 0 = Rpower base stop /\
    0 < q /\ forall k, (S k < num)%nat -> nth (S k) l 0 = q * nth k l 0.
Proof.
  intros p bm start stop num base Hn Hs Hb.
  destruct (linspace_lemma p bm start stop num Hn Hs) as (l & H1 & (HL & HE) & H3 & H4 & _).
  exists (map (fun x => Rcpow base x) l), (Rpower base ((stop - start) / INR (num - 1))).
  assert (Hel : elements (map (fun x => Rcpow base x) l) num (fun k => Rpower base (nth k l 0))).
  { split; [rewrite map_length; auto|]. intros k Hk.
    rewrite nth_indep with (d' := Rcpow base 0) by (rewrite map_length; lia).
    rewrite (map_nth (fun x => Rcpow base x)). apply Rcpow_pos. auto. }
  destruct Hel as [EL EE].
  split.
  { unfold logspace. destruct bm; cbn [cassert].
    - destruct (Nat.ltb_spec 1 num); [|lia]. cbn [bind nle RNum_at]. rewrite Rleb_refl_true by auto. cbn [bind].
      rewrite H1. reflexivity.
    - cbn [bind]. rewrite H1. reflexivity. }
  split. { split; auto. intros k Hk. rewrite EE, HE by auto. reflexivity. }
  split. { rewrite EE by lia. rewrite H3. auto. }
  split. { rewrite EE by lia. rewrite H4. auto. }
  split; [apply exp_pos|]. intros k Hk. rewrite !EE, !HE by lia. rewrite <- Rpower_plus. f_equal.
  rewrite S_INR. ring.
Qed.

(** ** arange *)
Lemma Ztrunc_IZR' z : Ztrunc (IZR z) = z.
Proof. apply Ztrunc_IZR. Qed.

Lemma arange_lemma : forall p bm start stop step (n : nat),
  start < stop -> 0 < step -> (2 <= n)%nat -> (Z.of_nat n < 2 ^ 32)%Z ->
  INR n <= (stop - start) / step < INR n + 1 ->
  (bm = Debug -> start <= INR n * step) ->
  exists l, arange (NT := RNum_at p) bm start stop step = Ok l /\
    elements l n (fun k => start + INR k * ((INR n * step - start) / INR (n - 1))) /\
    ((forall k, (k < n)%nat -> nth k l 0 = start + INR k * step) <-> start = step).
Proof.
  intros p bm start stop step n Hs Hp Hn Hn32 Hf Hd.
  assert (Hfl : Zfloor ((stop - start) / step) = Z.of_nat n).
  { apply Zfloor_imp. rewrite plus_IZR, <- INR_IZR_INZ. simpl. lra. }
  destruct (linspace_release bm p start (INR n * step) n Hn Hd) as (l & H1 & H2 & _).
  exists l. split; [|split; [exact H2|]].
  - unfold arange. cbn [nlt RNum_at nofZ].
    assert (C1 : cassert bm (Rltb start stop) = Ok tt) by (destruct bm; simpl; auto; destruct (Rltb start stop) eqn:E; auto; apply Rltb_false in E; lra).
    assert (C2 : cassert bm (Rltb (IZR 0) step) = Ok tt) by (destruct bm; simpl; auto; destruct (Rltb 0 step) eqn:E; auto; apply Rltb_false in E; lra).
    rewrite C1, C2. cbn [bind nfloor ntoZ RNumFm ndiv nsub RNum_at]. rewrite Hfl, Ztrunc_IZR'.
    change (2 ^ 32)%Z with 4294967296%Z in Hn32.
    destruct (Z.leb_spec 0 (Z.of_nat n)); [|lia]. destruct (Z.ltb_spec (Z.of_nat n) 4294967296); [|lia].
    cbn [andb]. rewrite Nat2Z.id. cbn [nmul RNum_at]. rewrite <- INR_IZR_INZ. exact H1.
  - destruct H2 as [_ H2]. assert (P : 0 < INR (n - 1)) by (apply lt_0_INR; lia).
    assert (E : INR n = INR (n - 1) + 1) by (rewrite <- S_INR; f_equal; lia).
    split.
    + intros H. specialize (H 1%nat ltac:(lia)). rewrite H2 in H by lia. unfold lin in H.
      change (INR 1) with 1 in H; rewrite !Rmult_1_l in H.
      assert (H' : (INR n * step - start) / INR (n - 1) * INR (n - 1) = step * INR (n - 1)) by (f_equal; lra).
      replace ((INR n * step - start) / INR (n - 1) * INR (n - 1)) with (INR n * step - start) in H' by (field; lra).
      rewrite E in H'. lra.
    + intros <- k Hk. rewrite H2 by lia. unfold lin. rewrite E. field. lra.
Qed.

Lemma arange_abort_lemma : forall p start stop step (n : nat),
  start < stop -> 0 < step -> (2 <= n)%nat -> (Z.of_nat n < 2 ^ 32)%Z ->
  INR n <= (stop - start) / step < INR n + 1 ->
  INR n * step < start -> arange (NT := RNum_at p) Debug start stop step = Abort.
Proof.
  intros p start stop step n Hs Hp Hn Hn32 Hf Hd.
  assert (Hfl : Zfloor ((stop - start) / step) = Z.of_nat n).
  { apply Zfloor_imp. rewrite plus_IZR, <- INR_IZR_INZ. simpl. lra. }
  unfold arange. cbn [nlt RNum_at nofZ cassert].
  destruct (Rltb start stop) eqn:E1; [|apply Rltb_false in E1; lra].
  destruct (Rltb 0 step) eqn:E2; [|apply Rltb_false in E2; lra].
  cbn [bind nfloor ntoZ RNumFm ndiv nsub RNum_at]. rewrite Hfl, Ztrunc_IZR'.
  change (2 ^ 32)%Z with 4294967296%Z in Hn32.
  destruct (Z.leb_spec 0 (Z.of_nat n)); [|lia]. destruct (Z.ltb_spec (Z.of_nat n) 4294967296); [|lia].
  cbn [andb]. rewrite Nat2Z.id. cbn [nmul RNum_at]. rewrite <- INR_IZR_INZ.
  apply linspace_pre_lemma. auto.
Qed.

Lemma arange_refuted_pf : exists l, arange (T := R) Debug 0 10 1 = Ok l /\ nth 1 l 0 = 10 / 9.
Proof.
  destruct (arange_lemma PI Debug 0 10 1 10) as (l & H1 & (_ & H2) & _); try lra; try lia.
  - simpl. lra.
  - simpl. lra.
  - exists l. split; [exact H1|]. rewrite H2 by lia. simpl. lra.
Qed.
