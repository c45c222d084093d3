(** Model of src/MathUtils/ChebyshevSeries1d.h, ChebyshevSeries2d.h,
    ChebyshevSeries3d.h and of the Boost functions they call.

    Boost is not part of the repository.  [boost::math::chebyshev_t],
    [chebyshev_t_prime], [chebyshev_clenshaw_recurrence] and [factorial] are
    modelled by Boost's published algorithms
    (boost/math/special_functions/chebyshev.hpp): the three-term recurrence
    (Boost switches to a mathematically equal closed form outside [-1,1]) and
    Clenshaw's recurrence.

    Simplifications: T = double (the classes copy the coefficients into
    [std::vector<double>]); orders are non-negative; the approximated function
    ([Function1d::Evaluate] etc., a const virtual method) is a pure function
    that returns normally.  With these, every [at] and every Eigen index of
    these files is in range, so only [exit] remains as an outcome. *)
From Coq Require Import List Arith ZArith Bool.
From Verif Require Import Outcome Num NumFun M_Series.
Import ListNotations.

Section Boost.
Context {T : Type} `{NT : Num T}.

(** [boost::math::chebyshev_next], BoostFunctions.h:209-213. *)
Definition chebyshev_next (x tn tn_1 : T) : T := (nofZ 2 * x * tn - tn_1)%num.
(** The loop of [chebyshev_imp]: [k] steps left. *)
Fixpoint chebyshev_loop (k : nat) (x t0 t1 : T) : T :=
  match k with
  | 0 => t1
  | S k' => chebyshev_loop k' x t1 (chebyshev_next x t1 t0)
  end.
(** [boost::math::chebyshev_t] (BoostFunctions.h:194-198 [Chebyshev_polynomial]). *)
Definition chebyshev_t (n : nat) (x : T) : T :=
  match n with 0 => nofZ 1 | S k => chebyshev_loop k x (nofZ 1) x end.
(** [boost::math::chebyshev_u]. *)
Definition chebyshev_u (n : nat) (x : T) : T :=
  match n with 0 => nofZ 1 | S k => chebyshev_loop k x (nofZ 1) (nofZ 2 * x)%num end.
(** [boost::math::chebyshev_t_prime] (BoostFunctions.h:215-219
    [Chebyshev_polynomial_derivative]). *)
Definition chebyshev_t_prime (n : nat) (x : T) : T :=
  match n with 0 => nofZ 0 | S k => (nofZ (Z.of_nat n) * chebyshev_u k x)%num end.
(** BoostFunctions.h:200-207 [Chebyshev_polynomial_shifted]. *)
Definition chebyshev_shifted (n : nat) (x : T) : T := chebyshev_t n (nofZ 2 * x - nofZ 1)%num.

(** [boost::math::chebyshev_clenshaw_recurrence]: loop on j = [j], ..., 1,
    then the final combination. *)
Fixpoint clenshaw_loop (c : list T) (x : T) (j : nat) (b1 b2 : T) : T :=
  match j with
  | 0 => (x * b1 - b2 + nlit 1 2 * nth 0 c (nofZ 0))%num
  | S j' => clenshaw_loop c x j' (nofZ 2 * x * b1 - b2 + nth j c (nofZ 0))%num b1
  end.
Definition clenshaw (c : list T) (x : T) : T :=
  match length c with
  | 0 => nofZ 0
  | 1 => (nth 0 c (nofZ 0) / nofZ 2)%num
  | S (S n) => clenshaw_loop c x n (nth (S n) c (nofZ 0)) (nofZ 0)
  end.

(** [boost::math::factorial<double>] (BoostFunctions.h:109-112). *)
Fixpoint factorial (n : nat) : T :=
  match n with 0 => nofZ 1 | S k => (nofZ (Z.of_nat n) * factorial k)%num end.
End Boost.

Section Chebyshev.
Context {T : Type} `{NT : Num T} {TT : NumTr T}.

(** [AffineTransformationUnitToSegment]: ChebyshevSeries1d.h:199-201, 236-238;
    the same formulas in the 2D (273-280, 329-336, 377-384) and 3D classes
    (362-374, 437-449, 506-518). *)
Definition to_segment (a : axis T) (u : T) : T :=
  match a with
  | Closed xmin xmax => (nlit 1 2 * (xmax - xmin) * u + nlit 1 2 * (xmax + xmin))%num
  | Opened xmin => (nofZ 2 * (xmin / (nofZ 1 - u)))%num
  end.

(** ChebyshevSeries1d.h:52, the r-th abscissa in [-1,1] for order n. *)
Definition cheb_node (n r : nat) : T :=
  ncos (npi * nlit 1 2 * (nofZ 2 * nofZ (Z.of_nat r) + nofZ 1) / (nofZ (Z.of_nat n) + nofZ 1))%num.

(** [for (r = 0; r <= n; ++r) acc += g(r)]. *)
Definition acc_loop (n : nat) (acc : T) (g : nat -> T) : T :=
  fold_left (fun acc r => (acc + g r)%num) (seq 0 (n + 1)) acc.
(** [for (r = i; r <= n; ++r) acc += g(r)]. *)
Definition acc_loop_from (i n : nat) (acc : T) (g : nat -> T) : T :=
  fold_left (fun acc r => (acc + g r)%num) (seq i (n + 1 - i)) acc.

(** [v.at(0) *= 2.] on a non-empty vector. *)
Definition double_first (v : list T) : list T :=
  match v with [] => [] | x :: v' => (x * nofZ 2)%num :: v' end.
(** Copy the coefficients 0..n, double the first, run Clenshaw. *)
Definition clenshaw_sum (n : nat) (a : nat -> T) (x : T) : T :=
  clenshaw (double_first (map a (seq 0 (n + 1)))) x.

(** ChebyshevSeries1d.h:138-154 (and the copies in the 2D and 3D classes),
    [TransformationCoefficient], called with kj <= lj; [floor(0.5 * m)] of a
    non-negative int is [m / 2]. *)
Definition transformation_coefficient (lj kj : nat) : T :=
  let ljkj_plus := lj + kj in
  if ((lj =? 0) && (kj =? 0))%bool then nofZ 1
  else if ljkj_plus mod 2 =? 1 then nofZ 0
  else
    let floor_plus := ljkj_plus / 2 in
    let floor_minus := (lj - kj) / 2 in
    (npow (nofZ (-1)) (nofZ (Z.of_nat floor_minus))
     * npow (nofZ 2) (nofZ (Z.of_nat kj) - nofZ 1)
     * nofZ (Z.of_nat lj)
     * (factorial (floor_plus - 1) / (factorial floor_minus * factorial kj)))%num.

(** *** 1D *)
Record cs1 := mkCS1 { c1_f : T -> T; c1_x : axis T; c1_n : nat; c1_a : nat -> T }.
(** ChebyshevSeries1d.h:36-39, 192-195, 229-232: constructors; zero
    coefficients. *)
Definition cs1_new (f : T -> T) (a : axis T) (n : nat) : cs1 := mkCS1 f a n (fun _ => nofZ 0).
Definition cs1_closed (f : T -> T) (xmin xmax : T) (n : nat) : cs1 := cs1_new f (Closed xmin xmax) n.
Definition cs1_opened (f : T -> T) (xmin : T) (n : nat) : cs1 := cs1_new f (Opened xmin) n.

(** ChebyshevSeries1d.h:44-69, [Compute_ai]: accumulates into the current
    coefficients, then scales. *)
Definition cs1_compute_ai (s : cs1) : cs1 :=
  let n := c1_n s in
  let xt r := cheb_node n r in
  let x r := to_segment (c1_x s) (xt r) in
  mkCS1 (c1_f s) (c1_x s) n
    (fun i =>
       let a := acc_loop n (c1_a s i) (fun r => (c1_f s (x r) * chebyshev_t i (xt r))%num) in
       let a := (a * (nofZ 2 / (nofZ (Z.of_nat n) + nofZ 1)))%num in
       if i =? 0 then (a / nofZ 2)%num else a).

(** ChebyshevSeries1d.h:72-88. *)
Definition cs1_evaluate (s : cs1) (x : T) : T := clenshaw_sum (c1_n s) (c1_a s) (to_unit (c1_x s) x).
(** ChebyshevSeries1d.h:91-108. *)
Definition cs1_derivative_x (s : cs1) (x : T) : T :=
  let xunit := to_unit (c1_x s) x in
  (acc_loop (c1_n s) (nofZ 0) (fun i => chebyshev_t_prime i xunit * c1_a s i) * coef_deriv (c1_x s) x)%num.
(** ChebyshevSeries1d.h:111-133. *)
Definition cs1_compute_bi (s : cs1) : outcome (list T) :=
  let n := c1_n s in
  if 18 <? n then Exit 0
  else Ok (map (fun i => acc_loop_from i n (nofZ 0) (fun r => (c1_a s r * transformation_coefficient r i)%num))
               (seq 0 (n + 1))).

(** *** 2D *)
Record cs2 := mkCS2 { c2_f : T -> T -> T; c2_x : axis T; c2_y : axis T; c2_m : nat; c2_n : nat;
                      c2_a : nat -> nat -> T }.
(** ChebyshevSeries2d.h:35-40, 265-269, 319-323, 362-366. *)
Definition cs2_new f ax ay m n : cs2 := mkCS2 f ax ay m n (fun _ _ => nofZ 0).
Definition cs2_closed f xmin xmax ymin ymax m n : cs2 := cs2_new f (Closed xmin xmax) (Closed ymin ymax) m n.
Definition cs2_opened f xmin ymin m n : cs2 := cs2_new f (Opened xmin) (Opened ymin) m n.
Definition cs2_mixed f xmin xmax ymin m n : cs2 := cs2_new f (Closed xmin xmax) (Opened ymin) m n.

(** ChebyshevSeries2d.h:45-87. *)
Definition cs2_compute_aij (s : cs2) : cs2 :=
  let m := c2_m s in let n := c2_n s in
  let xt r := cheb_node m r in let x r := to_segment (c2_x s) (xt r) in
  let yt r := cheb_node n r in let y r := to_segment (c2_y s) (yt r) in
  mkCS2 (c2_f s) (c2_x s) (c2_y s) m n
    (fun i j =>
       let a := fold_left (fun acc r => acc_loop n acc
                  (fun s' => (c2_f s (x r) (y s') * chebyshev_t i (xt r) * chebyshev_t j (yt s'))%num))
                  (seq 0 (m + 1)) (c2_a s i j) in
       let a := (a * (nofZ 4 / ((nofZ (Z.of_nat m) + nofZ 1) * (nofZ (Z.of_nat n) + nofZ 1))))%num in
       if (i =? 0) && (j =? 0) then (a / nofZ 4)%num
       else if ((i =? 0) && negb (j =? 0)) || (negb (i =? 0) && (j =? 0)) then (a / nofZ 2)%num
       else a).

(** ChebyshevSeries2d.h:90-110. *)
Definition cs2_evaluate (s : cs2) (x y : T) : T :=
  let xunit := to_unit (c2_x s) x in let yunit := to_unit (c2_y s) y in
  clenshaw_sum (c2_m s) (fun i => clenshaw_sum (c2_n s) (c2_a s i) yunit) xunit.
(** ChebyshevSeries2d.h:113-134. *)
Definition cs2_derivative_x (s : cs2) (x y : T) : T :=
  let xunit := to_unit (c2_x s) x in let yunit := to_unit (c2_y s) y in
  (acc_loop (c2_m s) (nofZ 0)
     (fun i => chebyshev_t_prime i xunit * clenshaw_sum (c2_n s) (c2_a s i) yunit) * coef_deriv (c2_x s) x)%num.
(** ChebyshevSeries2d.h:137-158. *)
Definition cs2_derivative_y (s : cs2) (x y : T) : T :=
  let xunit := to_unit (c2_x s) x in let yunit := to_unit (c2_y s) y in
  (acc_loop (c2_n s) (nofZ 0)
     (fun j => chebyshev_t_prime j yunit * clenshaw_sum (c2_m s) (fun i => c2_a s i j) xunit) * coef_deriv (c2_y s) y)%num.
(** ChebyshevSeries2d.h:161-191. *)
Definition cs2_compute_bij (s : cs2) : outcome (mat T) :=
  let m := c2_m s in let n := c2_n s in
  if (18 <? m) || (18 <? n) then Exit 0
  else Ok (mkMat (m + 1) (n + 1) (fun i j =>
    acc_loop_from i m (nofZ 0) (fun r =>
      let lambda_ri := transformation_coefficient r i in
      (acc_loop_from j n (nofZ 0) (fun s' => c2_a s r s' * transformation_coefficient s' j) * lambda_ri)%num))).

(** *** 3D; [c3_a k i j] is m_aijk.at(k)(i,j). *)
Record cs3 := mkCS3 { c3_f : T -> T -> T -> T; c3_x : axis T; c3_y : axis T; c3_z : axis T;
                      c3_m : nat; c3_n : nat; c3_p : nat; c3_a : nat -> nat -> nat -> T }.
(** ChebyshevSeries3d.h:35-44, 352-358, 433-437, 507-512. *)
Definition cs3_new f ax ay az m n p : cs3 := mkCS3 f ax ay az m n p (fun _ _ _ => nofZ 0).
Definition cs3_closed f xmin xmax ymin ymax zmin zmax m n p : cs3 :=
  cs3_new f (Closed xmin xmax) (Closed ymin ymax) (Closed zmin zmax) m n p.
Definition cs3_yz_opened f xmin xmax ymin zmin m n p : cs3 :=
  cs3_new f (Closed xmin xmax) (Opened ymin) (Opened zmin) m n p.
Definition cs3_z_opened f xmin xmax ymin ymax zmin m n p : cs3 :=
  cs3_new f (Closed xmin xmax) (Closed ymin ymax) (Opened zmin) m n p.

(** ChebyshevSeries3d.h:47-113. *)
Definition cs3_compute_aijk (s : cs3) : cs3 :=
  let m := c3_m s in let n := c3_n s in let p := c3_p s in
  let xt r := cheb_node m r in let x r := to_segment (c3_x s) (xt r) in
  let yt r := cheb_node n r in let y r := to_segment (c3_y s) (yt r) in
  let zt r := cheb_node p r in let z r := to_segment (c3_z s) (zt r) in
  mkCS3 (c3_f s) (c3_x s) (c3_y s) (c3_z s) m n p
    (fun k i j =>
       let a := fold_left (fun acc r => fold_left (fun acc s' => acc_loop p acc
                  (fun t => (c3_f s (x r) (y s') (z t) * chebyshev_t i (xt r) * chebyshev_t j (yt s') * chebyshev_t k (zt t))%num))
                  (seq 0 (n + 1)) acc)
                  (seq 0 (m + 1)) (c3_a s k i j) in
       let a := (a * (nofZ 8 / ((nofZ (Z.of_nat m) + nofZ 1) * (nofZ (Z.of_nat n) + nofZ 1) * (nofZ (Z.of_nat p) + nofZ 1))))%num in
       if (i =? 0) && (j =? 0) && (k =? 0) then (a / nofZ 8)%num
       else if ((i =? 0) && negb (j =? 0) && (k =? 0)) || (negb (i =? 0) && (j =? 0) && (k =? 0))
               || ((i =? 0) && (j =? 0) && negb (k =? 0)) then (a / nofZ 4)%num
       else if ((i =? 0) && negb (j =? 0) && negb (k =? 0)) || (negb (i =? 0) && (j =? 0) && negb (k =? 0))
               || (negb (i =? 0) && negb (j =? 0) && (k =? 0)) then (a / nofZ 2)%num
       else a).

(** ChebyshevSeries3d.h:116-146. *)
Definition cs3_evaluate (s : cs3) (x y z : T) : T :=
  let xunit := to_unit (c3_x s) x in let yunit := to_unit (c3_y s) y in let zunit := to_unit (c3_z s) z in
  clenshaw_sum (c3_m s) (fun i =>
    clenshaw_sum (c3_n s) (fun j => clenshaw_sum (c3_p s) (fun k => c3_a s k i j) zunit) yunit) xunit.
(** The triple loop of ChebyshevSeries3d.h:158-166, 182-190, 205-213. *)
Definition triple_loop (m n p : nat) (g : nat -> nat -> nat -> T) : T :=
  fold_left (fun acc i => fold_left (fun acc j => acc_loop p acc (fun k => g i j k)) (seq 0 (n + 1)) acc)
            (seq 0 (m + 1)) (nofZ 0).
(** ChebyshevSeries3d.h:149-171. *)
Definition cs3_derivative_x (s : cs3) (x y z : T) : T :=
  let xunit := to_unit (c3_x s) x in let yunit := to_unit (c3_y s) y in let zunit := to_unit (c3_z s) z in
  (triple_loop (c3_m s) (c3_n s) (c3_p s) (fun i j k =>
     c3_a s k i j * chebyshev_t_prime i xunit * chebyshev_t j yunit * chebyshev_t k zunit) * coef_deriv (c3_x s) x)%num.
(** ChebyshevSeries3d.h:174-194. *)
Definition cs3_derivative_y (s : cs3) (x y z : T) : T :=
  let xunit := to_unit (c3_x s) x in let yunit := to_unit (c3_y s) y in let zunit := to_unit (c3_z s) z in
  (triple_loop (c3_m s) (c3_n s) (c3_p s) (fun i j k =>
     c3_a s k i j * chebyshev_t i xunit * chebyshev_t_prime j yunit * chebyshev_t k zunit) * coef_deriv (c3_y s) y)%num.
(** ChebyshevSeries3d.h:197-217. *)
Definition cs3_derivative_z (s : cs3) (x y z : T) : T :=
  let xunit := to_unit (c3_x s) x in let yunit := to_unit (c3_y s) y in let zunit := to_unit (c3_z s) z in
  (triple_loop (c3_m s) (c3_n s) (c3_p s) (fun i j k =>
     c3_a s k i j * chebyshev_t i xunit * chebyshev_t j yunit * chebyshev_t_prime k zunit) * coef_deriv (c3_z s) z)%num.
(** ChebyshevSeries3d.h:220-263. *)
Definition cs3_compute_bijk (s : cs3) : outcome (list (mat T)) :=
  let m := c3_m s in let n := c3_n s in let p := c3_p s in
  if (18 <? m) || (18 <? n) || (18 <? p) then Exit 0
  else Ok (map (fun k => mkMat (m + 1) (n + 1) (fun i j =>
    acc_loop_from i m (nofZ 0) (fun r =>
      let lambda_ri := transformation_coefficient r i in
      let tmp_1 := acc_loop_from j n (nofZ 0) (fun s' =>
        let lambda_sj := transformation_coefficient s' j in
        let tmp_2 := acc_loop_from k p (nofZ 0) (fun t =>
          (c3_a s t r s' * transformation_coefficient t k)%num) in
        (tmp_2 * lambda_sj)%num) in
      (tmp_1 * lambda_ri)%num))) (seq 0 (p + 1))).
End Chebyshev.
Arguments cs1 : clear implicits. Arguments cs2 : clear implicits. Arguments cs3 : clear implicits.
