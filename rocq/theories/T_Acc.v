(** C120: interpolators after a failed Initialize.  C121: limits of grid axes.
    C122: size of a 2D table.  C123: Pow2.  Further theorems of C39, C47, C60,
    C76 and C103. *)
From Coq Require Import List Arith ZArith Bool Reals Lra Lia.
From Coq Require String.
From Verif Require Import Outcome Num NumFun S_Interp1d M_Interp2d M_Lookup M_Grid S_Grid M_Basics M_Dirac
  M_Integ M_Series S_Series M_Cheb S_Cheb M_Triangle M_Vec S_Vec S_Acc M_Interp1d L_Acc.
Import ListNotations.
Local Open Scope R_scope.

(** C120.  An empty table is refused with an exception and leaves the
    interpolator as it was, whatever its history. *)
Theorem C120_empty_table : forall bm (o : interp1d R R) ys, (bm = Debug -> ys = []) ->
  exists o', init1d bm o (Some []) (Some ys) = (o', Throw OutOfRange) /\
    (forall x, eval1d o' x = eval1d o x) /\ get_xmin o' = get_xmin o /\ get_xmax o' = get_xmax o.
Proof. exact init_empty. Qed.
Print Assumptions C120_empty_table.
(** Too few ordinates (release build): the exception leaves the interpolator
    with the new abscissae and limits and the old coefficients. *)
Theorem C120_short_table : forall m xs1 ys1 xs2 ys2 o1, is_linear m ->
  increasing xs1 -> (2 <= length xs1)%nat -> length ys1 = length xs1 ->
  increasing xs2 -> (2 <= length xs2)%nat -> (length ys2 < length xs2)%nat ->
  new1d Release m xs1 ys1 = Ok o1 ->
  exists o2, init1d Release o1 (Some xs2) (Some ys2) = (o2, Throw OutOfRange) /\
    get_xmin o2 = Ok (nth 0 xs2 0) /\ get_xmax o2 = Ok (nth (length xs2 - 1) xs2 0) /\
    forall j x, (S j < length xs2)%nat -> (S j < length xs1)%nat ->
      nth j xs2 0 < x <= nth (S j) xs2 0 ->
      exists v, eval1d o2 x = Ok v /\
        on_line (nth j xs1 0) (nth j ys1 0) (nth (S j) xs1 0) (nth (S j) ys1 0) x v.
Proof. exact failed_reinit. Qed.
Print Assumptions C120_short_table.
(** Initialising again with good data after such a failure: the first cells
    keep the chords of the refused table. *)
Theorem C120_retry : forall m o xs1 ys1 o1 xs2 ys2, is_linear m -> make1d (T := R) (V := R) m = Ok o ->
  increasing xs1 -> (2 <= length xs1)%nat -> (length ys1 < length xs1)%nat ->
  increasing xs2 -> (2 <= length xs2)%nat -> length ys2 = length xs2 ->
  init1d Release o (Some xs1) (Some ys1) = (o1, Throw OutOfRange) ->
  exists o2, init1d Release o1 (Some xs2) (Some ys2) = (o2, Ok tt) /\
    forall j x, (S j < length xs2)%nat -> nth j xs2 0 < x <= nth (S j) xs2 0 ->
    (S j < length ys1)%nat ->
    exists v, eval1d o2 x = Ok v /\
      on_line (nth j xs1 0) (nth j ys1 0) (nth (S j) xs1 0) (nth (S j) ys1 0) x v.
Proof. exact retry_lemma. Qed.
Print Assumptions C120_retry.
(** "A failed Initialize leaves the interpolator usable as before" is false. *)
Theorem C120_strong_guarantee_refuted : exists (o o' : interp1d R R) xs ys x v,
  new1d Release LINEAR [0; 1] [0; 1] = Ok o /\
  init1d Release o (Some xs) (Some ys) = (o', Throw OutOfRange) /\
  eval1d o x = Ok v /\ eval1d o' x = Exit 1.
Proof. exact strong_guarantee_refuted. Qed.
Print Assumptions C120_strong_guarantee_refuted.
(** Table (0,0) (1,1) (2,4), then a refused one over [10, 12]: at 11 the value
    of the old first chord, 11. *)
Example C120_example_short : exists o1 o2, new1d Release LINEAR [0; 1; 2] [0; 1; 4] = Ok o1 /\
  init1d Release o1 (Some [10; 11; 12]) (Some [5; 6]) = (o2, Throw OutOfRange) /\ eval1d o2 11 = Ok 11.
Proof.
  assert (E : exists o1, new1d (T := R) Release LINEAR [0; 1; 2] [0; 1; 4] = Ok o1) by (eexists; reflexivity).
  destruct E as (o1 & E). exists o1.
  destruct (C120_short_table LINEAR [0; 1; 2] [0; 1; 4] [10; 11; 12] [5; 6] o1) as (o2 & H1 & _ & _ & H2);
    try (apply inc3; lra); try (cbn; lia); [left; reflexivity|exact E|].
  exists o2. split; [exact E|]. split; [exact H1|]. destruct (H2 0%nat 11) as (v & Hv & Hl); try (cbn; lia); [cbn; lra|].
  rewrite Hv. f_equal. unfold on_line in Hl. cbn in Hl. lra.
Qed.
(** A refused table with two ordinates, then y = x over 0, 1, 2: at 1/2 the
    chord of the refused table, 15. *)
Example C120_example_retry : exists o o1 o2, make1d (T := R) (V := R) LINEAR_EXTRAPOLATE = Ok o /\
  init1d Release o (Some [0; 1; 2]) (Some [10; 20]) = (o1, Throw OutOfRange) /\
  init1d Release o1 (Some [0; 1; 2]) (Some [0; 1; 2]) = (o2, Ok tt) /\ eval1d o2 (1 / 2) = Ok 15.
Proof.
  eexists. eexists.
  destruct (C120_retry LINEAR_EXTRAPOLATE (blank1d KExtrapolate) [0; 1; 2] [10; 20] _ [0; 1; 2] [0; 1; 2]
    (or_intror (or_introl eq_refl)) eq_refl (inc3 0 1 2 ltac:(lra) ltac:(lra)) ltac:(cbn; lia) ltac:(cbn; lia)
    (inc3 0 1 2 ltac:(lra) ltac:(lra)) ltac:(cbn; lia) eq_refl eq_refl) as (o2 & H1 & H2).
  exists o2. split; [reflexivity|]. split; [reflexivity|]. split; [exact H1|].
  destruct (H2 0%nat (1 / 2)) as (v & Hv & Hl); try (cbn; lia); [cbn; lra|]. rewrite Hv. f_equal. unfold on_line in Hl. cbn in Hl. lra.
Qed.

(** C121.  Limits reported by RegularGridInterpolator and RegularGridNearest:
    the smallest and largest coordinate of the axis. *)
Theorem C121_interpolator_limits : forall gs a i, good_axes gs ->
  length (nd_flat a) = count (map (@length R) gs) -> (i < length gs)%nat ->
  exists o, rgi_make gs a = Ok o /\
    exists lo hi, rgi_coord_min (length gs) o i = Ok lo /\ rgi_coord_max (length gs) o i = Ok hi /\
      is_minimum (nth i gs []) lo /\ is_maximum (nth i gs []) hi /\
      rgi_coord (length gs) o i = Ok (nth i gs []).
Proof. exact rgi_limits_lemma. Qed.
Print Assumptions C121_interpolator_limits.
(** In any order; an empty axis is undefined behaviour. *)
Theorem C121_nearest_limits : forall (D : Type) gs (a : ndarray D) i, (i < length gs)%nat ->
  exists o, rgn_make (T := R) gs a = Ok o /\
    (nth i gs [] <> [] -> exists lo hi,
       rgn_coord_min (length gs) o i = Ok lo /\ rgn_coord_max (length gs) o i = Ok hi /\
       is_minimum (nth i gs []) lo /\ is_maximum (nth i gs []) hi) /\
    (nth i gs [] = [] -> rgn_coord_min (length gs) o i = UB /\ rgn_coord_max (length gs) o i = UB).
Proof. exact (@rgn_limits_lemma). Qed.
Print Assumptions C121_nearest_limits.
(** An axis number beyond the dimension ends the process, on every object. *)
Theorem C121_beyond_dimension : forall (D : Type) dim (o : rgi R) (q : rgn R D) i, (dim <= i)%nat ->
  rgi_coord_min dim o i = Exit 1 /\ rgi_coord_max dim o i = Exit 1 /\ rgi_coord dim o i = Exit 1 /\
  rgn_coord_min dim q i = Exit 1 /\ rgn_coord_max dim q i = Exit 1.
Proof. exact (@limits_out_of_dim). Qed.
Print Assumptions C121_beyond_dimension.
(** Before AddVar, with any number of the axes given: the object says it is
    not valid; its axes can be read, its limits, values and elements cannot. *)
Theorem C121_before_data : forall dim gs i bm idx p, Forall increasing gs -> (length gs <= dim)%nat ->
  (1 <= dim)%nat -> (i < dim)%nat ->
  exists o, rgi_run dim (rgi_new dim) (map (fun v : list R => RAddCoord v) gs) = Ok o /\
    rgi_is_valid o = false /\
    rgi_coord_min dim o i = UB /\ rgi_coord_max dim o i = UB /\
    (rgi_coord dim o i = Ok (nth i gs []) <-> (i < length gs)%nat) /\
    rgi_interp bm o p true = UB /\ rgi_interp bm o p false = UB /\
    rgi_at bm o idx = match bm with Debug => Abort | Release => UB end.
Proof. exact rgi_unset. Qed.
Print Assumptions C121_before_data.
Theorem C121_nearest_before_data : forall (D : Type) gs p bm, gs <> [] -> good_axes gs -> length p = length gs ->
  exists o : rgn R D,
    foldM (fun o v => let (o', r) := rgn_add_coord (length gs) o v in omap (fun _ => o') r)
      (rgn_new (length gs)) gs = Ok o /\
    rgn_nearest bm o p = match bm with Debug => Abort | Release => UB end.
Proof. exact (@rgn_unset). Qed.
Print Assumptions C121_nearest_before_data.
Example C121_example_nearest : exists o, rgn_make (T := R) [[3; 1; 2]] (mkND [3%nat] [true; false; true]) = Ok o /\
  rgn_coord_min 1 o 0 = Ok 1 /\ rgn_coord_max 1 o 0 = Ok 3.
Proof.
  destruct (C121_nearest_limits bool [[3; 1; 2]] (mkND [3%nat] [true; false; true]) 0) as (o & H1 & H2 & _); [cbn; lia|].
  exists o. split; [exact H1|]. destruct H2 as (lo & hi & E1 & E2 & (L1 & L2) & (M1 & M2)); [discriminate|]. cbn [length nth] in *. rewrite E1, E2.
  assert (A := L2 1 ltac:(cbn; auto)). assert (B := M2 3 ltac:(cbn; auto)). cbn in L1, M1.
  split; f_equal; [destruct L1 as [<-|[<-|[<-|[]]]]|destruct M1 as [<-|[<-|[<-|[]]]]]; lra.
Qed.
Example C121_example_interpolator : exists o, rgi_make (T := R) [[0; 1; 2]; [5; 7; 8]] (mkND [3%nat; 3%nat] (repeat 1 9)) = Ok o /\
  rgi_coord_min 2 o 1 = Ok 5 /\ rgi_coord_max 2 o 1 = Ok 8.
Proof.
  assert (G : good_axes [[0; 1; 2]; [5; 7; 8]]) by (constructor; [|constructor; [|constructor]]; split; try discriminate; apply inc3; lra).
  destruct (C121_interpolator_limits _ (mkND [3%nat; 3%nat] (repeat 1 9)) 1 G) as (o & H1 & lo & hi & E1 & E2 & (L1 & L2) & (M1 & M2) & _); [reflexivity|cbn; lia|].
  exists o. split; [exact H1|]. cbn [length nth] in *. rewrite E1, E2.
  assert (A := L2 5 ltac:(cbn; auto)). assert (B := M2 8 ltac:(cbn; auto)). cbn in L1, M1.
  split; f_equal; [destruct L1 as [<-|[<-|[<-|[]]]]|destruct M1 as [<-|[<-|[<-|[]]]]]; lra.
Qed.

(** C122.  The number of samples of a 2D table is the number of nodes of the
    axes in force, whatever series were added. *)
Theorem C122_table_size : forall bm ops (t : lut2 R), lut2_run bm lut2_new ops = Ok t ->
  (forall xs ys, last_x2 None ops = Some xs -> last_y2 None ops = Some ys ->
     lut2_nb_sample t = Ok (length xs * length ys)%nat) /\
  (last_x2 None ops = None \/ last_y2 None ops = None -> lut2_nb_sample t = UB).
Proof. exact lut2_sample_lemma. Qed.
Print Assumptions C122_table_size.
Example C122_example : exists t, lut2_run (T := R) Debug lut2_new
    [SetX2 [0; 1]; SetY2 [0; 1; 2]; SetX2 [0; 1; 2; 3]] = Ok t /\ lut2_nb_sample t = Ok 12%nat.
Proof.
  eexists. split; [reflexivity|]. destruct (C122_table_size Debug [SetX2 [0; 1]; SetY2 [0; 1; 2]; SetX2 [0; 1; 2; 3]] _ eq_refl) as [H _].
  exact (H _ _ eq_refl eq_refl).
Qed.

(** C123.  Pow2 turns sums into products and fits in 32 bits; undefined from 32 on. *)
Theorem C123_pow2 : forall p q, ((p + q < 32)%nat ->
    exists a b, pow2 p = Ok a /\ pow2 q = Ok b /\ pow2 (p + q) = Ok (a * b)%Z /\ (1 <= a * b < 4294967296)%Z) /\
  pow2 0 = Ok 1%Z /\ pow2 1 = Ok 2%Z /\ ((32 <= p)%nat -> pow2 p = UB).
Proof. exact pow2_lemma. Qed.
Print Assumptions C123_pow2.
Example C123_example : pow2 31 = Ok 2147483648%Z /\ pow2 32 = UB.
Proof. split; reflexivity. Qed.

(** C47.  Vectors of different lengths in a release build: only the common
    prefix decides, and the second vector is read past its end if it is the
    shorter one. *)
Theorem C47_isclose_vector_release : forall p a b rtol atol,
  (all_close rtol atol a b -> (length a <= length b)%nat -> IsClose_vec (NT := RNum_at p) Release a b rtol atol = Ok true) /\
  (all_close rtol atol a b -> (length b < length a)%nat -> IsClose_vec (NT := RNum_at p) Release a b rtol atol = UB) /\
  (~ all_close rtol atol a b -> IsClose_vec (NT := RNum_at p) Release a b rtol atol = Ok false).
Proof. exact isclose_release. Qed.
Print Assumptions C47_isclose_vector_release.
(** The assertions abort in debug builds exactly when not close, and do
    nothing in release builds. *)
Theorem C47_assert_is_close : forall p a b rtol atol,
  (AssertIsClose (NT := RNum_at p) Debug a b rtol atol = Ok tt <-> Rabs (a - b) <= atol + rtol * Rabs b) /\
  (AssertIsClose (NT := RNum_at p) Debug a b rtol atol = Abort <-> atol + rtol * Rabs b < Rabs (a - b)) /\
  AssertIsClose (NT := RNum_at p) Release a b rtol atol = Ok tt.
Proof. exact assert_close_lemma. Qed.
Print Assumptions C47_assert_is_close.
Theorem C47_assert_is_close_vector : forall p a b rtol atol,
  (AssertIsClose_vec (NT := RNum_at p) Debug a b rtol atol = Ok tt <-> length a = length b /\ all_close rtol atol a b) /\
  (AssertIsClose_vec (NT := RNum_at p) Debug a b rtol atol = Abort <-> ~ (length a = length b /\ all_close rtol atol a b)) /\
  AssertIsClose_vec (NT := RNum_at p) Release a b rtol atol = Ok tt.
Proof. exact assert_close_vec_lemma. Qed.
Print Assumptions C47_assert_is_close_vector.
Example C47_example_assert : AssertIsClose (T := R) Debug 1 2 0 (1 / 2) = Abort /\
  AssertIsClose_vec (T := R) Debug [1; 2] [1] 0 1 = Abort /\ IsClose_vec (T := R) Release [1] [1; 2] 0 1 = Ok true.
Proof.
  split; [|split].
  - apply (C47_assert_is_close PI). rewrite (Rabs_left (1 - 2)) by lra. lra.
  - apply (C47_assert_is_close_vector PI). intros [H _]. discriminate.
  - apply (C47_isclose_vector_release PI); [|cbn; lia]. intros [|i] H1 H2; cbn in H1, H2; [|lia]. cbn. rewrite Rminus_diag_eq, Rabs_R0 by reflexivity. lra.
Qed.

(** C39.  Direct conversions between a period and an angular frequency. *)
Theorem C39_period_rads : forall p x, p <> 0 -> x <> 0 ->
  s2rads (NT := RNum_at p) x * x = 2 * p /\ rads2s (NT := RNum_at p) x * x = 2 * p /\
  s2rads (NT := RNum_at p) (rads2s (NT := RNum_at p) x) = x /\ rads2s (NT := RNum_at p) (s2rads (NT := RNum_at p) x) = x /\
  rads2s (NT := RNum_at p) x = hz2s (NT := RNum_at p) (rads2hz (NT := RNum_at p) x) /\
  s2rads (NT := RNum_at p) x = hz2rads (NT := RNum_at p) (s2hz (NT := RNum_at p) x).
Proof. exact period_rads_lemma. Qed.
Print Assumptions C39_period_rads.
Example C39_example_period : s2rads (T := R) 4 = PI / 2.
Proof. destruct (C39_period_rads PI 4 PI_neq0) as [H _]; [lra|]. unfold RNum. lra. Qed.

(** C103.  With C's [abs(int)], samples 2^31 or more away from the impulse are
    undefined behaviour, and only they. *)
Theorem C103_integer_abs_overflow : forall x imp (h : R), (2 <= length x)%nat ->
  (Dirac AbsInt x imp h = UB <-> exists xi, In xi x /\ 2147483648 <= Rabs (xi - imp)).
Proof. exact dirac_overflow. Qed.
Print Assumptions C103_integer_abs_overflow.
Example C103_example_overflow : Dirac AbsInt [0; 1] 2147483648 1 = UB.
Proof. apply C103_integer_abs_overflow; [cbn; lia|]. exists 0. split; [cbn; auto|]. rewrite Rabs_left; lra. Qed.

(** C60 for each of the named classes. *)
Theorem C60_nodes_closed_1d : forall f lo hi n r x, lo < hi -> (r <= n)%nat -> is_node (Closed lo hi) n r x ->
  cs1_evaluate (cs1_compute_ai (cs1_closed f lo hi n)) x = f x.
Proof. exact nodes_closed_1. Qed.
Print Assumptions C60_nodes_closed_1d.
Theorem C60_nodes_opened_1d : forall f lo n r x, 0 < lo -> (r <= n)%nat -> is_node (Opened lo) n r x ->
  cs1_evaluate (cs1_compute_ai (cs1_opened f lo n)) x = f x.
Proof. exact nodes_opened_1. Qed.
Print Assumptions C60_nodes_opened_1d.
(** [cx], [cy], [cz]: the axis is a segment, otherwise a half-line. *)
Theorem C60_nodes_classes_2d : forall f (cx cy : bool) xlo xhi ylo yhi m n r t x y,
  (cx = false -> cy = false) ->
  axis_valid (if cx then Closed xlo xhi else Opened xlo) -> axis_valid (if cy then Closed ylo yhi else Opened ylo) ->
  (r <= m)%nat -> (t <= n)%nat ->
  is_node (if cx then Closed xlo xhi else Opened xlo) m r x -> is_node (if cy then Closed ylo yhi else Opened ylo) n t y ->
  cs2_evaluate (cs2_compute_aij (if cx then if cy then cs2_closed f xlo xhi ylo yhi m n else cs2_mixed f xlo xhi ylo m n
                                 else cs2_opened f xlo ylo m n)) x y = f x y.
Proof. exact nodes_ctor_2. Qed.
Print Assumptions C60_nodes_classes_2d.
Theorem C60_nodes_classes_3d : forall f (cy cz : bool) xlo xhi ylo yhi zlo zhi m n p r t q x y z,
  (cy = false -> cz = false) ->
  xlo < xhi -> axis_valid (if cy then Closed ylo yhi else Opened ylo) -> axis_valid (if cz then Closed zlo zhi else Opened zlo) ->
  (r <= m)%nat -> (t <= n)%nat -> (q <= p)%nat ->
  is_node (Closed xlo xhi) m r x -> is_node (if cy then Closed ylo yhi else Opened ylo) n t y ->
  is_node (if cz then Closed zlo zhi else Opened zlo) p q z ->
  cs3_evaluate (cs3_compute_aijk (if cy then if cz then cs3_closed f xlo xhi ylo yhi zlo zhi m n p else cs3_z_opened f xlo xhi ylo yhi zlo m n p
                                  else cs3_yz_opened f xlo xhi ylo zlo m n p)) x y z = f x y z.
Proof. exact nodes_ctor_3. Qed.
Print Assumptions C60_nodes_classes_3d.
(** The single node of order 0 on the half-line from 1 is x = 2. *)
Example C60_example_opened : cs1_evaluate (cs1_compute_ai (cs1_opened exp 1 0)) 2 = exp 2.
Proof.
  apply (C60_nodes_opened_1d exp 1 0 0 2); [lra|lia|]. split; [cbn; lra|].
  unfold node, unit_of, halfline_unit. cbn [INR]. replace (PI * (2 * 0 + 1) / (2 * (0 + 1))) with (PI / 2) by field. rewrite cos_PI2. lra.
Qed.

(** C76.  The three-dimensional vector. *)
Theorem C76_inf_norm_vec3 : forall v : vec3 R, is_inf_norm [vx v; vy v; vz v] (v3_infNorm v).
Proof. exact infnorm_vec3. Qed.
Print Assumptions C76_inf_norm_vec3.
Example C76_example_vec3 : is_inf_norm [-3; 1; 2] (v3_infNorm (mkV3 (-3) 1 2)).
Proof. exact (C76_inf_norm_vec3 (mkV3 (-3) 1 2)). Qed.
