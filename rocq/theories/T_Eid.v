(** C125: Ei_approximation and expEi in double. *)
From Coq Require Import List Arith ZArith Bool Reals Lra Lia.
From Flocq Require Import Core.Core IEEE754.BinarySingleNaN.
From Verif Require Import Outcome Num NumFun F64 M_Series M_Special S_Special S_Ei S_Angles S_Double S_Rot64 S_E1d L_EiTab L_E1d L_Eid6 L_Eid2.
Local Open Scope R_scope.

(** The finite arguments that end the process are those up to the double
    nearest to 1e-8, whatever the mathematical library. *)
Theorem C125_Ei_double_exit : forall (TT : NumTr f64) (x : f64), is_finite x = true ->
  (dvalue x <= dvalue (nlit 1 100000000) -> Ei_approximation x = Exit 0) /\
  (dvalue (nlit 1 100000000) < dvalue x -> exists v, Ei_approximation x = Ok v).
Proof. exact Eid_exit. Qed.
Print Assumptions C125_Ei_double_exit.

(** Below 6, where Ei has a zero, the error is absolute. *)
Theorem C125_Ei_double_below_6 : forall kappa TT, 0 <= kappa <= 4 -> libm_log kappa TT ->
  forall (x : f64) e, is_finite x = true -> dvalue (nlit 1 100000000) < dvalue x < 6 -> is_Ei (dvalue x) e ->
  exists v, Ei_approximation x = Ok v /\ within (8 / 100000000000000 * (1 + Rabs (ln (dvalue x)) + Rabs e)) v e.
Proof. exact Eid_low. Qed.
Print Assumptions C125_Ei_double_below_6.

(** On [6,12) the relative error is between -8e-14 and 2.42e-11; at 6 it is
    above 2.35e-11. *)
Theorem C125_Ei_double_6_to_12 : forall kappa TT, 0 <= kappa <= 4 -> libm_exp kappa TT ->
  forall (x : f64) e, is_finite x = true -> 6 <= dvalue x < 12 -> is_Ei (dvalue x) e ->
  exists v, Ei_approximation x = Ok v /\ is_finite v = true /\ 0 < e /\
    e * (1 - 8 / 100000000000000) <= dvalue v <= e * (1 + 242 / 10000000000000) /\
    (dvalue x = 6 -> e * (1 + 235 / 10000000000000) <= dvalue v).
Proof. exact Eid_12. Qed.
Print Assumptions C125_Ei_double_6_to_12.

(** On [12,24), the argument at which a denominator vanishes included. *)
Theorem C125_Ei_double_12_to_24 : forall kappa TT, 0 <= kappa <= 4 -> libm_exp kappa TT ->
  forall (x : f64) e, is_finite x = true -> 12 <= dvalue x < 24 -> is_Ei (dvalue x) e ->
  exists v, Ei_approximation x = Ok v /\ 0 < e /\ within (9 / 1000000000000000 * e) v e.
Proof. exact Eid_24. Qed.
Print Assumptions C125_Ei_double_12_to_24.

Theorem C125_Ei_double_above_24 : forall kappa TT, 0 <= kappa <= 4 -> libm_exp kappa TT ->
  forall (x : f64) e, is_finite x = true -> 24 <= dvalue x <= 690 -> is_Ei (dvalue x) e ->
  exists v, Ei_approximation x = Ok v /\ 0 < e /\ within (3 / 1000000000000000 * e) v e.
Proof. exact Eid_L. Qed.
Print Assumptions C125_Ei_double_above_24.

(** The scaled function does not overflow: up to 1e290, with any library. *)
Theorem C125_expEi_double : forall (TT : NumTr f64) (Ei : f64 -> f64) (x : f64) e,
  is_finite x = true -> 24 <= dvalue x <= 10 ^ 290 -> is_Ei (dvalue x) e ->
  exists v, expEi Ei x = Ok v /\ 0 < exp (- dvalue x) * e /\
    within (3 / 1000000000000000 * (exp (- dvalue x) * e)) v (exp (- dvalue x) * e).
Proof. exact expEid. Qed.
Print Assumptions C125_expEi_double.

(** The same bounds for any other rounding of the literals of the continued
    fractions, in particular that of the compiler. *)
Theorem C125_any_rounding_6_to_12 : forall kappa TT, 0 <= kappa <= 4 -> libm_exp kappa TT ->
  forall (x : f64) A B e, is_finite x = true -> 6 <= dvalue x < 12 -> literals A ei12_alpha -> literals B ei12_beta -> is_Ei (dvalue x) e ->
  exists f, cf A B x = Ok f /\ let v := nmul (ndiv (nexp x) x) f in is_finite v = true /\ 0 < e /\
    e * (1 - 8 / 100000000000000) <= dvalue v <= e * (1 + 242 / 10000000000000) /\
    (dvalue x = 6 -> e * (1 + 235 / 10000000000000) <= dvalue v).
Proof. exact any12. Qed.
Print Assumptions C125_any_rounding_6_to_12.
Theorem C125_any_rounding_12_to_24 : forall kappa TT, 0 <= kappa <= 4 -> libm_exp kappa TT ->
  forall (x : f64) A B e, is_finite x = true -> 12 <= dvalue x < 24 -> literals A ei24_alpha -> literals B ei24_beta -> is_Ei (dvalue x) e ->
  exists f, cf A B x = Ok f /\ 0 < e /\ within (9 / 1000000000000000 * e) (nmul (ndiv (nexp x) x) f) e.
Proof. exact any24. Qed.
Print Assumptions C125_any_rounding_12_to_24.
Theorem C125_any_rounding_above_24 : forall kappa TT, 0 <= kappa <= 4 -> libm_exp kappa TT ->
  forall (x : f64) A B e, is_finite x = true -> 24 <= dvalue x <= 690 -> literals A eiL_alpha -> literals B eiL_beta -> is_Ei (dvalue x) e ->
  exists f, cf A B x = Ok f /\ 0 < e /\
    within (3 / 1000000000000000 * e) (nmul (ndiv (nexp x) x) (nadd (nofZ 1) (nmul (ndiv (nofZ 1) x) f))) e.
Proof. exact anyL. Qed.
Print Assumptions C125_any_rounding_above_24.

(** With a correctly rounded library: Ei at 6, where the error is largest, at
    1/2, 18 and 100; the scaled function at 100; the process ends at 0. *)
Example C125_example :
  (exists v, Ei_approximation (NR := exact_explog) (f64_ofZ 6) = Ok v /\ forall e, is_Ei 6 e -> 235 / 10000000000000 * e <= dvalue v - e) /\
  (exists v, Ei_approximation (NR := exact_explog) (nlit 1 2 : f64) = Ok v /\ forall e, is_Ei (1 / 2) e -> within (8 / 100000000000000 * (1 + Rabs (ln (1 / 2)) + Rabs e)) v e) /\
  (exists v, Ei_approximation (NR := exact_explog) (f64_ofZ 18) = Ok v /\ forall e, is_Ei 18 e -> within (9 / 1000000000000000 * e) v e) /\
  (exists v, Ei_approximation (NR := exact_explog) (f64_ofZ 100) = Ok v /\ forall e, is_Ei 100 e -> within (3 / 1000000000000000 * e) v e) /\
  (exists v, expEi (NR := exact_explog) (fun y => y) (f64_ofZ 100) = Ok v /\ forall e, is_Ei 100 e -> within (3 / 1000000000000000 * (exp (- 100) * e)) v (exp (- 100) * e)) /\
  Ei_approximation (NR := exact_explog) (f64_ofZ 0) = Exit 0.
Proof. exact Eid_example. Qed.
