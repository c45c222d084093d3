(** Property C138: integrals and convolutions computed from samples, against
    the integrals of the sampled functions.  [near_samples delta F xs ys]: the
    samples are those of [F] to within [delta]; [bounded2 f a b B0 B1 B2]:
    bounds of the function and its two derivatives; [trapz_err M h L] =
    M h^2 L / 12.  ([C64_trapz_error] and [C65_integrate1d_error] are the
    corresponding statements for Trapz and Integrate1d in exact arithmetic.) *)
From Coq Require Import List Arith ZArith Reals Lra Lia Bool.
From Coquelicot Require Import Coquelicot.
From Flocq Require Import Core.Core IEEE754.BinarySingleNaN.
From Verif Require Import Outcome Num NumFun F64 M_Basics M_Integ S_Series S_Integ S_Angles S_Basics S_Double S_Trapz64 S_Sampled64 S_Quad L_Quad.
Import ListNotations.
Local Open Scope R_scope.

(** The convolution of sampled functions: samples of the same order or mirrored. *)
Theorem C138_convolution_integral : forall bm K S (k s : list R) h B0 B1 B2 C0 C1 C2 dk ds straight, (2 <= length k)%nat -> (length k <= length s)%nat -> 0 <= h ->
  let g := grid 0 h (length k) in let T := INR (length k - 1) * h in
  near_samples dk K g k -> near_samples ds S g s -> bounded2 K 0 T B0 B1 B2 -> bounded2 S 0 T C0 C1 C2 ->
  exists v, naive_convolution bm k s h straight = Ok v /\
    Rabs (v - RInt (fun t => K t * S (if straight then t else T - t)) 0 T) <=
      trapz_err (B0 * C2 + 2 * (B1 * C1) + B2 * C0) h T + (dk * C0 + B0 * ds + dk * ds) * T.
Proof. exact conv_error. Qed.
Print Assumptions C138_convolution_integral.

(** In double: Trapz with abscissas, with a step, Integrate1d of a function, convolution. *)
Theorem C138_trapz_xy_double : forall bm (x y : list f64) F F1 F2 M h delta Y, (2 <= length y)%nat -> (Z.of_nat (length y) <= 2 ^ 43)%Z -> length x = length y ->
  ordinary (2 ^ 400) x -> ordinary Y y -> Y <= 2 ^ 400 -> steps h (dvalues x) -> near_samples delta F (dvalues x) (dvalues y) ->
  let a := hd 0 (dvalues x) in let b := last (dvalues x) 0 in twice_derivable F F1 F2 a b M ->
  exists v, trapz_xy bm x y = Ok v /\ is_finite v = true /\
    Rabs (dvalue v - RInt F a b) <= trapz_err M h (b - a) + delta * (b - a) + 2 * (INR (length y) + 2) * uround * (Y * (b - a)) + (INR (length y) + 2) * uflow.
Proof. exact trapz_xy_int. Qed.
Print Assumptions C138_trapz_xy_double.
Theorem C138_trapz_uniform_double : forall (y : list f64) (dx : f64) F F1 F2 M delta Y, (2 <= length y)%nat -> (Z.of_nat (length y) <= 2 ^ 43)%Z ->
  ordinary Y y -> Y <= 2 ^ 400 -> ordinary (2 ^ 400) [dx] -> 0 <= dvalue dx ->
  let h := dvalue dx in let L := INR (length y - 1) * h in near_samples delta F (grid 0 h (length y)) (dvalues y) -> twice_derivable F F1 F2 0 L M ->
  exists v, trapz_uniform y dx = Ok v /\ is_finite v = true /\
    Rabs (dvalue v - RInt F 0 L) <= trapz_err M h L + delta * L + 2 * (INR (length y) + 1) * uround * (Y * L) + 2 * uflow * (h + 1).
Proof. exact trapz_uniform_int. Qed.
Print Assumptions C138_trapz_uniform_double.
Theorem C138_integrate_double : forall (f : f64 -> f64) (xmin xmax : f64) (nb : nat) F F1 F2 M delta Y,
  (2 <= nb)%nat -> (Z.of_nat nb <= 2 ^ 32)%Z -> ordinary (2 ^ 400) [xmin; xmax] -> Y <= 2 ^ 400 ->
  (forall x, is_finite x = true -> is_finite (f x) = true /\ Rabs (dvalue (f x)) <= Y) ->
  let a := dvalue xmin in let b := dvalue xmax in let h := (b - a) / INR (nb - 1) in a <= b ->
  (forall k x, (k < nb)%nat -> is_finite x = true -> Rabs (dvalue x - (a + INR k * h)) <= (2 * INR k + 3) * uround * (Rabs a + Rabs (b - a)) + 2 * INR k * uflow ->
    Rabs (dvalue (f x) - F (a + INR k * h)) <= delta) ->
  twice_derivable F F1 F2 a b M ->
  exists s v, integ1_get (integ1_function f xmin xmax nb) = (s, Ok v) /\ is_finite v = true /\
    Rabs (dvalue v - RInt F a b) <= trapz_err M h (b - a) + delta * (b - a) + 2 * (INR nb + 2) * uround * (Y * (b - a)) + 4 * uflow * (h + INR nb * Y + 1).
Proof. exact integrate_int. Qed.
Print Assumptions C138_integrate_double.
Theorem C138_convolution_double : forall bm (kernel signal : list f64) (dt : f64) K S B0 B1 B2 C0 C1 C2 dk ds straight,
  (2 <= length kernel)%nat -> (Z.of_nat (length kernel) <= 2 ^ 43)%Z -> (length kernel <= length signal)%nat ->
  ordinary (2 ^ 190) kernel -> ordinary (2 ^ 190) signal -> ordinary (2 ^ 400) [dt] -> 0 <= dvalue dt ->
  let n := length kernel in let h := dvalue dt in let g := grid 0 h n in let T := INR (n - 1) * h in
  near_samples dk K g (dvalues kernel) -> near_samples ds S g (dvalues signal) -> bounded2 K 0 T B0 B1 B2 -> bounded2 S 0 T C0 C1 C2 ->
  exists v, naive_convolution bm kernel signal dt straight = Ok v /\ is_finite v = true /\
    Rabs (dvalue v - RInt (fun t => K t * S (if straight then t else T - t)) 0 T) <=
      trapz_err (B0 * C2 + 2 * (B1 * C1) + B2 * C0) h T + (dk * C0 + B0 * ds + dk * ds) * T
      + 2 * (INR n + 2) * uround * ((B0 + dk) * (C0 + ds) * T) + 2 * uflow * (h * (INR n + 1) + 1).
Proof. exact conv_int. Qed.
Print Assumptions C138_convolution_double.

(** *** Concrete cases *)
(** The bound is attained: t with t over [0, 2] at step 1 gives 3, the integral is 8/3. *)
Example C138_example_sharp : naive_convolution Debug [0; 1; 2] [0; 1; 2; 7] 1 true = Ok 3 /\ RInt (fun t => t * t) 0 2 = 8 / 3 /\
  trapz_err (2 * 0 + 2 * (1 * 1) + 0 * 2) 1 2 = 1 / 3 /\ bounded2 (fun t => t) 0 2 2 1 0 /\
  near_samples 0 (fun t => t) (grid 0 1 3) [0; 1; 2; 7].
Proof. exact ex_conv. Qed.
(** Squares at 0, 1, 2, 3 (the integral is 9, the trapezoids 9.5). *)
Example C138_example_trapz : exists v w, trapz_xy Debug (map f64_ofZ [0; 1; 2; 3]%Z) (map f64_ofZ [0; 1; 4; 9]%Z) = Ok v /\ trapz_uniform (map f64_ofZ [0; 1; 4; 9]%Z) (f64_ofZ 1) = Ok w /\
  Rabs (dvalue v - RInt (fun t => t * t) 0 3) <= 51 / 100 /\ Rabs (dvalue w - RInt (fun t => t * t) 0 3) <= 51 / 100.
Proof. exact ex_trapz. Qed.
(** A double function equal to its argument on [0, 8] and 0 elsewhere, over [1, 5]. *)
Example C138_example_integrate : exists s v, integ1_get (integ1_function window (f64_ofZ 1) (f64_ofZ 5) 3) = (s, Ok v) /\ Rabs (dvalue v - RInt (fun t => t) 1 5) <= / 1000000.
Proof. exact ex_integ. Qed.
Example C138_example_convolution : exists v, naive_convolution Debug (map f64_ofZ [0; 1; 2]%Z) (map f64_ofZ [0; 1; 2; 7]%Z) (f64_ofZ 1) true = Ok v /\ Rabs (dvalue v - 8 / 3) <= 34 / 100.
Proof. exact ex_convd. Qed.
