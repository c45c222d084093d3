(** Property C139: as the sampling is refined, interpolated values tend to the
    sampled function, trapezoidal values to its integral and Chebyshev series to
    the function.  [continuous_on], [continuous_box]: continuity of the
    restriction to a segment, a box; [modulus f a b h w]: arguments [h] apart
    have values [w] apart; [refines h b gs]: axes spanning the box with
    spacings at most [h]; [analytic_on a f C r]: k-th derivatives with respect
    to the unit coordinate bounded by C r^k k!.  (Real arithmetic.) *)
From Coq Require Import List Arith ZArith Reals Lra Lia Bool.
From Coquelicot Require Import Coquelicot.
From Verif Require Import Outcome Num StdAlgo NumFun M_Interp1d S_Interp1d M_Interp2d S_Interp2d M_Grid S_Grid M_Integ S_Integ M_Series S_Series M_Cheb S_Cheb
  S_Err S_ErrC S_Quad S_Lim L_Lim L_LimC.
Import ListNotations.
Local Open Scope R_scope.

(** Interpolation tables of continuous functions. *)
Theorem C139_interp1d_modulus : forall bm m xs f h w x, is_linear m -> increasing xs -> (2 <= length xs)%nat -> spacing h xs ->
  modulus f (first xs) (final xs) h w -> first xs <= x <= final xs ->
  exists o v, new1d bm m xs (map f xs) = Ok o /\ eval1d o x = Ok v /\ Rabs (v - f x) <= w.
Proof. exact interp1d_modulus. Qed.
Print Assumptions C139_interp1d_modulus.
Theorem C139_interp1d_converges : forall f a b, continuous_on f a b -> forall eps, 0 < eps -> exists h, 0 < h /\
  forall bm m xs, is_linear m -> increasing xs -> (2 <= length xs)%nat -> spacing h xs -> first xs = a -> final xs = b ->
  exists o, new1d bm m xs (map f xs) = Ok o /\ forall x, a <= x <= b -> exists v, eval1d o x = Ok v /\ Rabs (v - f x) <= eps.
Proof. exact interp1d_converges. Qed.
Print Assumptions C139_interp1d_converges.
Theorem C139_interp2d_converges : forall f ax bx ay b_y, continuous_box [(ax, bx); (ay, b_y)] (fun p => f (nth 0 p 0) (nth 1 p 0)) -> forall eps, 0 < eps -> exists h, 0 < h /\
  forall bm xs ys data, increasing xs -> increasing ys -> (2 <= length xs)%nat -> (2 <= length ys)%nat -> length data = (length xs * length ys)%nat ->
  samples2 xs ys data f -> spacing h xs -> spacing h ys -> first xs = ax -> final xs = bx -> first ys = ay -> final ys = b_y ->
  forall x y, inside xs ys x y -> exists o v, new2d bm LINEAR xs ys data = Ok o /\ eval2d bm o x y = Ok v /\ Rabs (v - f x y) <= eps.
Proof. exact interp2d_converges. Qed.
Print Assumptions C139_interp2d_converges.
(** N variables: interpolation (points outside the box are clamped to it) and nearest node. *)
Theorem C139_grid_converges : forall b F, continuous_box b F -> forall eps, 0 < eps -> exists h, 0 < h /\
  forall bm gs a, refines h b gs -> length (nd_flat a) = count (map (@length R) gs) -> samples gs (nd_flat a) F ->
  exists o, rgi_make gs a = Ok o /\ forall p, length p = length b -> exists v, rgi_interp bm o p false = Ok v /\ Rabs (v - F (clamp_point gs p)) <= eps.
Proof. exact grid_converges. Qed.
Print Assumptions C139_grid_converges.
Theorem C139_nearest_converges : forall b F, continuous_box b F -> forall eps, 0 < eps -> exists h, 0 < h /\
  forall bm gs (a : ndarray R), refines h b gs -> nd_shape a = map (@length R) gs -> length (nd_flat a) = count (nd_shape a) -> samples gs (nd_flat a) F ->
  exists o, rgn_make gs a = Ok o /\ forall p, between b p -> exists n, rgn_nearest bm o p = Ok n /\ Rabs (gn_val n - F p) <= eps.
Proof. exact nearest_converges. Qed.
Print Assumptions C139_nearest_converges.
(** Integrals of continuous functions. *)
Theorem C139_trapz_converges : forall f a b, continuous_on f a b -> a <= b -> forall eps, 0 < eps -> exists h, 0 < h /\
  forall bm x, (2 <= length x)%nat -> steps h x -> hd 0 x = a -> last x 0 = b ->
  exists v, trapz_xy bm x (map f x) = Ok v /\ Rabs (v - RInt f a b) <= eps.
Proof. exact trapz_converges. Qed.
Print Assumptions C139_trapz_converges.
Theorem C139_integrate_modulus : forall f a b n w, continuous_on f a b -> a <= b -> (2 <= n)%nat -> (Z.of_nat n < 2 ^ 32)%Z -> modulus f a b ((b - a) / INR (n - 1)) w ->
  exists v, snd (integ1_get (integ1_function f a b n)) = Ok v /\ Rabs (v - RInt f a b) <= w * (b - a).
Proof. exact integrate_modulus. Qed.
Print Assumptions C139_integrate_modulus.
Theorem C139_integrate_converges : forall f a b, continuous_on f a b -> a <= b -> forall eps, 0 < eps -> exists N, (2 <= N)%nat /\
  forall n, (N <= n)%nat -> (Z.of_nat n < 2 ^ 32)%Z -> exists v, snd (integ1_get (integ1_function f a b n)) = Ok v /\ Rabs (v - RInt f a b) <= eps.
Proof. exact integrate_converges. Qed.
Print Assumptions C139_integrate_converges.
Theorem C139_convolution_converges : forall K S T, continuous_on K 0 T -> continuous_on S 0 T -> 0 <= T -> forall eps, 0 < eps -> exists N, (2 <= N)%nat /\
  forall bm k s straight, (N <= length k)%nat -> (length k <= length s)%nat -> let h := T / INR (length k - 1) in let g := grid 0 h (length k) in
  near_samples 0 K g k -> near_samples 0 S g s ->
  exists v, naive_convolution bm k s h straight = Ok v /\ Rabs (v - RInt (fun t => K t * S (if straight then t else T - t)) 0 T) <= eps.
Proof. exact convolution_converges. Qed.
Print Assumptions C139_convolution_converges.
(** Chebyshev series of analytic functions: geometric rate, hence convergence when r < 2. *)
Theorem C139_chebyshev_rate_1d : forall f a C r n x, axis_valid a -> analytic_on a f C r -> in_axis a x ->
  Rabs (cs1_evaluate (cs1_compute_ai (cs1_new f a n)) x - f x) <= C * r * (r / 2) ^ n.
Proof. exact rate1. Qed.
Print Assumptions C139_chebyshev_rate_1d.
Theorem C139_chebyshev_rate_2d : forall f ax ay C r n x y, axis_valid ax -> axis_valid ay ->
  (forall t, in_axis ay t -> analytic_on ax (fun s => f s t) C r) -> (forall s, in_axis ax s -> analytic_on ay (f s) C r) -> in_axis ax x -> in_axis ay y ->
  Rabs (cs2_evaluate (cs2_compute_aij (cs2_new f ax ay n n)) x y - f x y) <= C * r * (2 * INR n + 2) * (r / 2) ^ n.
Proof. exact rate2. Qed.
Print Assumptions C139_chebyshev_rate_2d.
Theorem C139_chebyshev_rate_3d : forall f ax ay az C r n x y z, axis_valid ax -> axis_valid ay -> axis_valid az ->
  (forall t w, in_axis ay t -> in_axis az w -> analytic_on ax (fun s => f s t w) C r) ->
  (forall s w, in_axis ax s -> in_axis az w -> analytic_on ay (fun t => f s t w) C r) ->
  (forall s t, in_axis ax s -> in_axis ay t -> analytic_on az (f s t) C r) -> in_axis ax x -> in_axis ay y -> in_axis az z ->
  Rabs (cs3_evaluate (cs3_compute_aijk (cs3_new f ax ay az n n n)) x y z - f x y z) <= C * r * (4 * INR n ^ 2 + 6 * INR n + 3) * (r / 2) ^ n.
Proof. exact rate3. Qed.
Print Assumptions C139_chebyshev_rate_3d.
Theorem C139_chebyshev_converges_1d : forall f a C r, axis_valid a -> analytic_on a f C r -> 0 <= r < 2 -> forall eps, 0 < eps -> exists N, forall n x, (N <= n)%nat -> in_axis a x ->
  Rabs (cs1_evaluate (cs1_compute_ai (cs1_new f a n)) x - f x) <= eps.
Proof. exact chebyshev_converges_1d. Qed.
Print Assumptions C139_chebyshev_converges_1d.
Theorem C139_chebyshev_converges_2d : forall f ax ay C r, axis_valid ax -> axis_valid ay ->
  (forall t, in_axis ay t -> analytic_on ax (fun s => f s t) C r) -> (forall s, in_axis ax s -> analytic_on ay (f s) C r) -> 0 <= r < 2 ->
  forall eps, 0 < eps -> exists N, forall n x y, (N <= n)%nat -> in_axis ax x -> in_axis ay y ->
  Rabs (cs2_evaluate (cs2_compute_aij (cs2_new f ax ay n n)) x y - f x y) <= eps.
Proof. exact chebyshev_converges_2d. Qed.
Print Assumptions C139_chebyshev_converges_2d.
Theorem C139_chebyshev_converges_3d : forall f ax ay az C r, axis_valid ax -> axis_valid ay -> axis_valid az ->
  (forall t w, in_axis ay t -> in_axis az w -> analytic_on ax (fun s => f s t w) C r) ->
  (forall s w, in_axis ax s -> in_axis az w -> analytic_on ay (fun t => f s t w) C r) ->
  (forall s t, in_axis ax s -> in_axis ay t -> analytic_on az (f s t) C r) -> 0 <= r < 2 ->
  forall eps, 0 < eps -> exists N, forall n x y z, (N <= n)%nat -> in_axis ax x -> in_axis ay y -> in_axis az z ->
  Rabs (cs3_evaluate (cs3_compute_aijk (cs3_new f ax ay az n n n)) x y z - f x y z) <= eps.
Proof. exact chebyshev_converges_3d. Qed.
Print Assumptions C139_chebyshev_converges_3d.

(** *** Concrete cases *)
(** The square root, whose slope is unbounded at 0, tabulated at 0, 1/4, 1/2, 3/4, 1. *)
Example C139_example_sqrt : continuous_on sqrt 0 1 /\ modulus sqrt 0 1 (1 / 4) (sqrt (1 / 4)) /\
  forall x, 0 <= x <= 1 -> exists o v, new1d Debug LINEAR quarters (map sqrt quarters) = Ok o /\ eval1d o x = Ok v /\ Rabs (v - sqrt x) <= 1 / 2.
Proof. exact (conj sqrt_cont (conj (sqrt_mod (1 / 4)) ex_sqrt)). Qed.
Example C139_example_box : continuous_box [(0, 1); (0, 2)] (fun p => sqrt (nth 0 p 0) + nth 1 p 0) /\
  refines (1 / 2) [(0, 1); (0, 2)] [quarters; [0; 1 / 2; 1; 3 / 2; 2]].
Proof. exact ex_box. Qed.
Example C139_example_integral : exists N, forall n, (N <= n)%nat -> (Z.of_nat n < 2 ^ 32)%Z ->
  exists v, snd (integ1_get (integ1_function sqrt 0 1 n)) = Ok v /\ Rabs (v - RInt sqrt 0 1) <= / 1000.
Proof. exact ex_int. Qed.
(** 1/(x + 3) on [-1, 1] with C = r = 1/2: the error of the series of order n is at most 1/4^(n+1). *)
Example C139_example_analytic : analytic_on (Closed (-1) 1) (fun x => / (x + 3)) (/ 2) (/ 2) /\
  forall n x, -1 <= x <= 1 -> Rabs (cs1_evaluate (cs1_compute_ai (cs1_new (fun x => / (x + 3)) (Closed (-1) 1) n)) x - / (x + 3)) <= (/ 4) ^ S n.
Proof. exact (conj ex_analytic ex_rate). Qed.
