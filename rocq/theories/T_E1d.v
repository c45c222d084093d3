(** C124: E1_approximation in double. *)
From Coq Require Import List Arith ZArith Bool Reals Lra Lia.
From Flocq Require Import Core.Core IEEE754.BinarySingleNaN.
From Verif Require Import Outcome Num NumFun F64 M_Series M_Special S_Special S_Angles S_Double S_Rot64 S_E1d L_E1d.
Local Open Scope R_scope.

(** The finite arguments that end the process are those up to the double
    nearest to 1e-8, whatever the mathematical library. *)
Theorem C124_E1_double_exit : forall (TT : NumTr f64) (x : f64), is_finite x = true ->
  (dvalue x <= dvalue (nlit 1 100000000) -> E1_approximation x = Exit 0) /\
  (dvalue (nlit 1 100000000) < dvalue x -> exists v, E1_approximation x = Ok v).
Proof. exact E1d_exit. Qed.
Print Assumptions C124_E1_double_exit.

(** Below 1 the double returned has a relative error below 5e-14. *)
Theorem C124_E1_double_below_1 : forall kappa TT, 0 <= kappa <= 4 -> libm_log kappa TT ->
  forall x : f64, is_finite x = true -> dvalue (nlit 1 100000000) < dvalue x < 1 ->
  exists v, E1_approximation x = Ok v /\ within (5 / 100000000000000 * E1 (dvalue x)) v (E1 (dvalue x)).
Proof. exact E1d_low. Qed.
Print Assumptions C124_E1_double_below_1.

(** On [1,4) it is too large by 5.59e-10 to 1.471e-9. *)
Theorem C124_E1_double_1_to_4 : forall kappa TT, 0 <= kappa <= 4 -> libm_exp kappa TT ->
  forall x : f64, is_finite x = true -> 1 <= dvalue x < 4 ->
  exists v, E1_approximation x = Ok v /\ is_finite v = true /\
    E1 (dvalue x) * (1 + 559 / 1000000000000) <= dvalue v <= E1 (dvalue x) * (1 + 1471 / 1000000000000).
Proof. exact E1d_mid. Qed.
Print Assumptions C124_E1_double_1_to_4.

(** From 4 to 690 at most 9.51e-4 too large; at least 5.9e-6 up to 10 and
    9.24e-4 at 4. *)
Theorem C124_E1_double_above_4 : forall kappa TT, 0 <= kappa <= 4 -> libm_exp kappa TT ->
  forall x : f64, is_finite x = true -> 4 <= dvalue x <= 690 ->
  exists v, E1_approximation x = Ok v /\ is_finite v = true /\
    E1 (dvalue x) * (1 - 3 / 100000000000000) <= dvalue v <= E1 (dvalue x) * (1 + 951 / 1000000) /\
    (dvalue x <= 10 -> E1 (dvalue x) * (1 + 59 / 10000000) <= dvalue v) /\
    (dvalue x = 4 -> E1 (dvalue x) * (1 + 924 / 1000000) <= dvalue v).
Proof. exact E1d_high. Qed.
Print Assumptions C124_E1_double_above_4.

(** Full double accuracy is refuted at every double of [1,10], with every such
    library. *)
Theorem C124_E1_double_inaccurate : forall kappa TT, 0 <= kappa <= 4 -> libm_exp kappa TT ->
  forall x : f64, is_finite x = true -> 1 <= dvalue x <= 10 -> forall v, E1_approximation x = Ok v ->
  5 / 10000000000 * E1 (dvalue x) < dvalue v - E1 (dvalue x).
Proof. exact E1d_inaccurate. Qed.
Print Assumptions C124_E1_double_inaccurate.

(** The same bounds for any other rounding of the literals, in particular that
    of the compiler. *)
Theorem C124_any_rounding_below_1 : forall kappa TT, 0 <= kappa <= 4 -> libm_log kappa TT ->
  forall (x : f64) P Q, is_finite x = true -> 1 / 100000000 < dvalue x < 1 -> literals P e1a_p -> literals Q e1a_q ->
  exists a b, horner P x = Ok a /\ horner Q x = Ok b /\
    within (5 / 100000000000000 * E1 (dvalue x)) (nadd (nneg (nlog x)) (ndiv a b)) (E1 (dvalue x)).
Proof. exact (fun k TT K HL x P Q F Hx HP HQ => low_tables k TT K HL x P Q F Hx (lits_of _ _ HP) (lits_of _ _ HQ)). Qed.
Print Assumptions C124_any_rounding_below_1.
Theorem C124_any_rounding_1_to_4 : forall kappa TT, 0 <= kappa <= 4 -> libm_exp kappa TT ->
  forall (x : f64) P Q, is_finite x = true -> 1 <= dvalue x < 4 -> literals P e1b_p -> literals Q e1b_q ->
  exists nd, inv_frac P Q x 0 9 (nofZ 1) (nofZ 0) (nofZ 0) = Ok nd /\
    let v := nmul (nexp (nneg x)) (ndiv (fst nd) (snd nd)) in is_finite v = true /\
    E1 (dvalue x) * (1 + 559 / 1000000000000) <= dvalue v <= E1 (dvalue x) * (1 + 1471 / 1000000000000).
Proof. exact (fun k TT K HE x P Q F Hx HP HQ => mid_tables k TT K HE x P Q F Hx (lits_of _ _ HP) (lits_of _ _ HQ)). Qed.
Print Assumptions C124_any_rounding_1_to_4.
Theorem C124_any_rounding_above_4 : forall kappa TT, 0 <= kappa <= 4 -> libm_exp kappa TT ->
  forall (x : f64) P Q, is_finite x = true -> 4 <= dvalue x <= 690 -> literals P e1c_p -> literals Q e1c_q ->
  exists nd, inv_frac P Q x 0 10 (nofZ 1) (nofZ 0) (nofZ 0) = Ok nd /\
    let v := nmul (ndiv (nexp (nneg x)) x) (nadd (nofZ 1) (ndiv (nmul (ndiv (nofZ 1) x) (fst nd)) (snd nd))) in is_finite v = true /\
    E1 (dvalue x) * (1 - 3 / 100000000000000) <= dvalue v <= E1 (dvalue x) * (1 + 951 / 1000000) /\
    (dvalue x <= 10 -> E1 (dvalue x) * (1 + 59 / 10000000) <= dvalue v) /\
    (dvalue x = 4 -> E1 (dvalue x) * (1 + 924 / 1000000) <= dvalue v).
Proof. exact (fun k TT K HE x P Q F Hx HP HQ => high_tables k TT K HE x P Q F Hx (lits_of _ _ HP) (lits_of _ _ HQ)). Qed.
Print Assumptions C124_any_rounding_above_4.

(** With a correctly rounded library: E1 at 4, where the error shows in the
    fourth digit, and at 1/2; the process ends at 0. *)
Example C124_example : 
  (exists v, E1_approximation (NR := exact_explog) (f64_ofZ 4) = Ok v /\ E1 4 * (1 + 924 / 1000000) <= dvalue v <= E1 4 * (1 + 951 / 1000000)) /\
  (exists v, E1_approximation (NR := exact_explog) (nlit 1 2 : f64) = Ok v /\ within (5 / 100000000000000 * E1 (1 / 2)) v (E1 (1 / 2))) /\
  E1_approximation (NR := exact_explog) (f64_ofZ 0) = Exit 0.
Proof.
  destruct exact_explog_near as [HE HL]. assert (V4 : dvalue (f64_ofZ 4) = 4) by (apply (L_F64.ofZ_ok 4); reflexivity).
  assert (V8 : dvalue (nlit 1 100000000) < 1 / 10000000) by (change (dvalue (nlit 1 100000000)) with (B2R fl8); rewrite (proj2 fl8_val); lra).
  assert (VH : dvalue (nlit 1 2) = 1 / 2).
  { assert (V : B2SF (nlit (T := f64) 1 2) = SpecFloat.S754_finite false 4503599627370496 (-53)) by (vm_compute; reflexivity).
    unfold dvalue. rewrite <- SF2R_B2SF, V. cbn [SF2R]. unfold F2R. cbn [Fnum Fexp cond_Zopp]. change (bpow radix2 (-53)) with (/ IZR 9007199254740992). lra. }
  split; [|split].
  - destruct (C124_E1_double_above_4 1 exact_explog ltac:(lra) HE (f64_ofZ 4) eq_refl ltac:(rewrite V4; lra)) as (v & E & _ & B & _ & C).
    exists v. split; [exact E|]. rewrite V4 in B, C. specialize (C eq_refl). lra.
  - assert (K := C124_E1_double_below_1 1 exact_explog ltac:(lra) HL (nlit 1 2) eq_refl). rewrite VH in K. apply K. lra.
  - apply C124_E1_double_exit; [reflexivity|]. change (dvalue (nlit 1 100000000)) with (B2R fl8). rewrite (proj2 fl8_val). change (dvalue (f64_ofZ 0)) with 0. lra.
Qed.
