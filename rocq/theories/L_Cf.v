(** The continued fractions of Ei_approximation as rational functions. *)
From Coq Require Import ZArith Reals Lra Lia Bool List.
From Verif Require Import Outcome Num NumFun M_Special S_Special L_Poly L_Special.
Import ListNotations.

Section Cf.
(** Coefficients in units of 1/s. *)
Variable s : Z.
Hypothesis Hs : IZR s <> 0.
Definition units (l : list Z) : list R := map (fun z => IZR z / IZR s) l.
Variables al be : list Z.
Variable x : R.

(** One step: the fraction is n / (s d); [ds] are the denominators met. *)
Fixpoint zcf (j : nat) (n d : list Z) : list Z * list Z * list (list Z) :=
  match j with
  | 0%nat => (n, d, [])
  | S k => let n' := zscale (s * nth k be 0%Z) d in
           let d' := zadd (zmul [nth j al 0%Z; s] d) n in
           let '(n1, d1, ds) := zcf k n' d' in (n1, d1, d' :: ds)
  end.
Definition dens (j : nat) (n d : list Z) : list (list Z) := snd (zcf j n d).
Definition nums (j : nat) (n d : list Z) : list Z := fst (fst (zcf j n d)).
Definition last_den (j : nat) (n d : list Z) : list Z := snd (fst (zcf j n d)).

Lemma vat_units (l : list Z) i : (i < length l)%nat -> vat (units l) i = Ok (IZR (nth i l 0%Z) / IZR s).
Proof.
  intros H. unfold vat, units. rewrite nth_error_map.
  destruct (nth_error l i) as [z|] eqn:E.
  - cbn. rewrite (nth_error_nth l i 0%Z E). reflexivity.
  - apply nth_error_None in E. lia.
Qed.

Lemma p_cf_none j : (j < length al)%nat -> (j <= length be)%nat ->
  cf_loop (NT := PNum) (map Some (units al)) (map Some (units be)) (Some x) j None = Ok None.
Proof.
  induction j as [|k IH]; intros H1 H2; cbn [cf_loop]; [reflexivity|].
  rewrite !p_vat, !vat_units by lia. cbn [bind defined omap ndiv nadd PNum pmap2 pguard2]. apply IH; lia.
Qed.

Lemma lin_val a b : zev [a; b] x = IZR a + x * IZR b.
Proof. cbn. ring. Qed.
Lemma cf_step k n d : zev d x <> 0 -> zev (zadd (zmul [nth (S k) al 0%Z; s] d) n) x <> 0 ->
  IZR (nth (S k) al 0%Z) / IZR s + x + zev n x / (IZR s * zev d x) <> 0 /\
  IZR (nth k be 0%Z) / IZR s / (IZR (nth (S k) al 0%Z) / IZR s + x + zev n x / (IZR s * zev d x)) =
    zev (zscale (s * nth k be 0%Z) d) x / (IZR s * zev (zadd (zmul [nth (S k) al 0%Z; s] d) n) x).
Proof.
  intros Hd Hd'. rewrite zev_add, zev_mul, lin_val in *. rewrite zev_scale, mult_IZR.
  set (a := IZR (nth (S k) al 0%Z)) in *. set (b := IZR (nth k be 0%Z)) in *.
  assert (E : a / IZR s + x + zev n x / (IZR s * zev d x) = ((a + x * IZR s) * zev d x + zev n x) / (IZR s * zev d x)).
  { field. split; assumption. }
  rewrite E. split.
  - apply Rmult_integral_contrapositive_currified; [exact Hd'|apply Rinv_neq_0_compat, Rmult_integral_contrapositive_currified; assumption].
  - field. repeat split; assumption.
Qed.

Lemma cf_loop_val j : forall n d, (j < length al)%nat -> (j <= length be)%nat -> zev d x <> 0 ->
  Forall (fun c => zev c x <> 0) (dens j n d) ->
  zev (last_den j n d) x <> 0 /\
  cf_loop (units al) (units be) x j (zev n x / (IZR s * zev d x)) =
    Ok (zev (nums j n d) x / (IZR s * zev (last_den j n d) x)) /\
  cf_loop (NT := PNum) (map Some (units al)) (map Some (units be)) (Some x) j (Some (zev n x / (IZR s * zev d x))) =
    Ok (Some (zev (nums j n d) x / (IZR s * zev (last_den j n d) x))).
Proof.
  induction j as [|k IH]; intros n d H1 H2 Hd HF.
  - cbn. repeat split. exact Hd.
  - unfold dens, nums, last_den in *. cbn [zcf cf_loop] in *.
    specialize (IH (zscale (s * nth k be 0%Z) d) (zadd (zmul [nth (S k) al 0%Z; s] d) n) ltac:(lia) ltac:(lia)).
    destruct (zcf k (zscale (s * nth k be 0%Z) d) (zadd (zmul [nth (S k) al 0%Z; s] d) n)) as [[n1 d1] ds].
    cbn [fst snd] in *. inversion HF as [|? ? F1 F2]; subst. specialize (IH F1 F2).
    destruct (cf_step k n d Hd F1) as [S1 S2].
    rewrite !p_vat, !vat_units by lia. cbn [bind defined omap].
    split; [apply IH|]. split.
    + cbn [nadd ndiv RNum RNum_at]. rewrite S2. apply IH.
    + cbn [nadd PNum pmap2]. rewrite p_div by exact S1. rewrite S2. apply IH.
Qed.

Lemma cf_loop_none j : forall n d, (j < length al)%nat -> (j <= length be)%nat -> zev d x <> 0 ->
  Exists (fun c => zev c x = 0) (dens j n d) ->
  cf_loop (NT := PNum) (map Some (units al)) (map Some (units be)) (Some x) j (Some (zev n x / (IZR s * zev d x))) = Ok None.
Proof.
  induction j as [|k IH]; intros n d H1 H2 Hd HE.
  - inversion HE.
  - unfold dens in *. cbn [zcf cf_loop] in *.
    specialize (IH (zscale (s * nth k be 0%Z) d) (zadd (zmul [nth (S k) al 0%Z; s] d) n) ltac:(lia) ltac:(lia)).
    destruct (zcf k (zscale (s * nth k be 0%Z) d) (zadd (zmul [nth (S k) al 0%Z; s] d) n)) as [[n1 d1] ds].
    cbn [fst snd] in *. rewrite !p_vat, !vat_units by lia. cbn [bind defined omap nadd PNum pmap2].
    destruct (Req_dec (zev (zadd (zmul [nth (S k) al 0%Z; s] d) n) x) 0) as [Z|NZ].
    + assert (E : IZR (nth (S k) al 0%Z) / IZR s + x + zev n x / (IZR s * zev d x) = 0).
      { rewrite zev_add, zev_mul, lin_val in Z.
        transitivity (((IZR (nth (S k) al 0%Z) + x * IZR s) * zev d x + zev n x) / (IZR s * zev d x)).
        - field. split; assumption.
        - rewrite Z. field. split; assumption. }
      rewrite E. cbn [ndiv PNum pguard2]. destruct (Reqb 0 0) eqn:B; [|apply Reqb_false in B; lra].
      apply p_cf_none; lia.
    + destruct (cf_step k n d Hd NZ) as [S1 S2]. rewrite p_div by exact S1. rewrite S2. apply IH; [exact NZ|].
      inversion HE as [? ? A|? ? A]; subst; [contradiction|exact A].
Qed.

(** The whole fraction: numerator and denominator (times s). *)
Definition cf_den : list Z := last_den 9 [0%Z] [1%Z].
Definition cf_num : list Z := zadd (nums 9 [0%Z] [1%Z]) (zscale (nth 0 al 0%Z) cf_den).
Definition cf_dens : list (list Z) := dens 9 [0%Z] [1%Z].

Lemma init_0 : 0 = zev [0%Z] x / (IZR s * zev [1%Z] x).
Proof. cbn. field. exact Hs. Qed.
Lemma init_1 : zev [1%Z] x <> 0.
Proof. cbn. lra. Qed.

Lemma cf_val : length al = 10%nat -> length be = 9%nat -> Forall (fun c => zev c x <> 0) cf_dens ->
  zev cf_den x <> 0 /\
  cf (units al) (units be) x = Ok (zev cf_num x / (IZR s * zev cf_den x)) /\
  cf (NT := PNum) (map Some (units al)) (map Some (units be)) (Some x) = Ok (Some (zev cf_num x / (IZR s * zev cf_den x))).
Proof.
  intros L1 L2 HF. destruct (cf_loop_val 9 [0%Z] [1%Z] ltac:(lia) ltac:(lia) init_1 HF) as [V0 [V1 V2]].
  rewrite <- init_0 in V1, V2. fold cf_den in V0, V1, V2.
  assert (E : zev (nums 9 [0%Z] [1%Z]) x / (IZR s * zev cf_den x) + IZR (nth 0 al 0%Z) / IZR s
              = zev cf_num x / (IZR s * zev cf_den x)).
  { unfold cf_num. rewrite zev_add, zev_scale. field. split; assumption. }
  split; [exact V0|]. unfold cf. cbn [nofZ RNum RNum_at PNum]. rewrite V1, V2. cbn [bind].
  rewrite !p_vat, !vat_units by lia. cbn [bind defined omap nadd RNum RNum_at PNum pmap2]. rewrite E. split; reflexivity.
Qed.
Lemma cf_undefined : length al = 10%nat -> length be = 9%nat -> Exists (fun c => zev c x = 0) cf_dens ->
  cf (NT := PNum) (map Some (units al)) (map Some (units be)) (Some x) = Ok None.
Proof.
  intros L1 L2 HE. assert (V := cf_loop_none 9 [0%Z] [1%Z] ltac:(lia) ltac:(lia) init_1 HE).
  rewrite <- init_0 in V. unfold cf. cbn [nofZ PNum]. rewrite V. cbn [bind].
  rewrite !p_vat, !vat_units by lia. reflexivity.
Qed.
End Cf.
