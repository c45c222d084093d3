(** Properties C106-C108: polynomials, 1D interpolation and units in IEEE double
    ([f64], round to nearest even).  [dvalue] is the real value of a finite
    double, [uround] = 2^-53, [uflow] = 2^-1075. *)
From Coq Require Import List Arith ZArith Reals Bool Lia Lra.
From Flocq Require Import IEEE754.BinarySingleNaN.
From Verif Require Import Outcome Num NumFun F64 M_Basics M_Series M_Interp1d StdAlgo S_Angles S_Basics S_Series S_Double
  S_Interp1d L_F64 L_Series64 L_Interp64 L_Units64.
Import ListNotations.
Local Open Scope R_scope.

(** C106: forward error of Horner's rule and of the derivative. *)
Theorem C106_horner_double : forall (c : list f64) (x : f64), c <> [] ->
  exists v, horner c x = Ok v /\
    (is_finite v = true -> all_finite c /\
     Rabs (dvalue v - poly (dvalues c) (dvalue x)) <=
       ((1 + uround) ^ (2 * (length c - 1)) - 1) * poly_abs (dvalues c) (dvalue x) +
       (1 + uround) ^ (2 * (length c - 1)) * uflow * bsum (length c - 1) (fun i => Rabs (dvalue x) ^ i)).
Proof. exact horner_double_lemma. Qed.
Print Assumptions C106_horner_double.

Theorem C106_horner_derivative_double : forall (c : list f64) (x : f64), c <> [] -> (Z.of_nat (length c) <= 2 ^ 53)%Z ->
  exists v, horner_derivative c x = Ok v /\
    (is_finite v = true ->
     Rabs (dvalue v - poly_derivative (dvalues c) (dvalue x)) <=
       ((1 + uround) ^ (2 * (length c - 1)) - 1) * poly_derivative_abs (dvalues c) (dvalue x) +
       2 * (1 + uround) ^ (2 * (length c - 1)) * uflow * bsum (length c - 1) (fun i => Rabs (dvalue x) ^ i)).
Proof. exact horner_derivative_double_lemma. Qed.
Print Assumptions C106_horner_derivative_double.

(** Integer polynomials at integers are exact as long as everything fits. *)
Theorem C106_horner_integers_exact : forall (c : list f64) (x : f64) (cz : list Z) (X m : Z), c <> [] ->
  all_finite c -> is_finite x = true -> dvalues c = map IZR cz -> dvalue x = IZR X ->
  (Z.abs X <= m)%Z -> (1 <= m)%Z ->
  poly (map (fun z => IZR (Z.abs z)) cz) (IZR m) <= 2 ^ 53 ->
  exists v, horner c x = Ok v /\ is_finite v = true /\ dvalue v = poly (dvalues c) (dvalue x).
Proof. exact horner_integer_lemma. Qed.
Print Assumptions C106_horner_integers_exact.

(** 1 - 4x + 3x^2 at 5 is 56. *)
Example C106_example_integers : exists v,
  horner [f64_ofZ 1; f64_ofZ (-4); f64_ofZ 3] (f64_ofZ 5) = Ok v /\ is_finite v = true /\ dvalue v = 56.
Proof.
  assert (V : forall z, (Z.abs z < 2 ^ 53)%Z -> dvalue (f64_ofZ z) = IZR z) by (intros z Hz; apply (ofZ_ok z Hz)).
  destruct (C106_horner_integers_exact [f64_ofZ 1; f64_ofZ (-4); f64_ofZ 3] (f64_ofZ 5) [1; -4; 3]%Z 5 5) as (v & H1 & H2 & H3).
  - discriminate.
  - repeat constructor.
  - reflexivity.
  - cbn [dvalues map]. rewrite !V by lia. reflexivity.
  - apply V. lia.
  - lia.
  - lia.
  - cbv [poly bsum length map nth Z.abs Nat.pred]. simpl. lra.
  - exists v. split; [exact H1|]. split; [exact H2|]. rewrite H3. cbn [dvalues map]. rewrite !V by lia.
    cbv [poly bsum length nth]. simpl. lra.
Qed.

(** A quotient as coefficient: 1/3 + x/10 at 1/7, one rounding per operation. *)
Definition third : f64 := Bdiv mode_NE (f64_ofZ 1) (f64_ofZ 3).
Definition tenth : f64 := Bdiv mode_NE (f64_ofZ 1) (f64_ofZ 10).
Definition seventh : f64 := Bdiv mode_NE (f64_ofZ 1) (f64_ofZ 7).
Example C106_example_rounded : exists v, horner [third; tenth] seventh = Ok v /\
  Rabs (dvalue v - (dvalue third * 1 + dvalue tenth * (dvalue seventh * 1))) <=
    ((1 + uround) ^ 2 - 1) * (Rabs (dvalue third) * 1 + Rabs (dvalue tenth) * (Rabs (dvalue seventh) * 1)) +
    (1 + uround) ^ 2 * uflow * 1.
Proof.
  destruct (C106_horner_double [third; tenth] seventh ltac:(discriminate)) as (v & H1 & H2).
  exists v. split; [exact H1|].
  assert (F : omap is_finite (horner [third; tenth] seventh) = Ok true) by (vm_compute; reflexivity).
  rewrite H1 in F. cbn [omap] in F. injection F as F. destruct (H2 F) as [_ E].
  cbn [length Nat.sub Nat.mul Nat.add] in E. cbv [poly poly_abs dvalues map bsum length nth] in E. simpl pow in E.
  rewrite !Rplus_0_l in E. simpl pow. exact E.
Qed.

(** C107: 1D interpolation in double.  [i] is the cell of [x]. *)
Theorem C107_interp1d_double : forall bm m xs ys x i, is_linear m -> all_finite xs -> is_finite x = true ->
  increasing (dvalues xs) -> length ys = length xs -> (S i < length xs)%nat ->
  let x0 := nth i (dvalues xs) 0 in let x1 := nth (S i) (dvalues xs) 0 in
  let y0 := nth i (dvalues ys) 0 in let y1 := nth (S i) (dvalues ys) 0 in
  let Y := Rabs y0 + Rabs y1 in let M := Rmax (Rabs x0) (Rabs x1) in let D := x1 - x0 in
  x0 < dvalue x <= x1 \/ i = 0%nat /\ dvalue x = x0 -> D <= dmax ->
  exists o v, new1d bm m xs ys = Ok o /\ eval1d o x = Ok v /\
    (is_finite v = true -> forall e, on_line x0 y0 x1 y1 (dvalue x) e ->
       Rabs (dvalue v - e) <= 11 * uround * (Y * M / D) + 4 * uflow * (1 + M + / D)) /\
    (all_finite ys -> Y * (1 + M) * (1 + / D) <= 2 ^ 1000 -> is_finite v = true).
Proof. exact interp_double_lemma. Qed.
Print Assumptions C107_interp1d_double.

(** Integer samples on cells whose width is a power of two: no error at all. *)
Theorem C107_interp1d_integers_exact : forall bm m xs ys x i X0 X1 Y0 Y1 X k, is_linear m ->
  all_finite xs -> all_finite ys -> is_finite x = true ->
  increasing (dvalues xs) -> length ys = length xs -> (S i < length xs)%nat ->
  nth i (dvalues xs) 0 = IZR X0 -> nth (S i) (dvalues xs) 0 = IZR X1 ->
  nth i (dvalues ys) 0 = IZR Y0 -> nth (S i) (dvalues ys) 0 = IZR Y1 -> dvalue x = IZR X ->
  (0 <= k <= 53)%Z -> (X1 - X0 = 2 ^ k)%Z -> (X0 < X <= X1)%Z \/ i = 0%nat /\ X = X0 ->
  ((Z.abs Y0 + Z.abs Y1) * Z.max (Z.abs X0) (Z.abs X1) <= 2 ^ 52)%Z ->
  exists o v, new1d bm m xs ys = Ok o /\ eval1d o x = Ok v /\ is_finite v = true /\
    on_line (IZR X0) (IZR Y0) (IZR X1) (IZR Y1) (IZR X) (dvalue v).
Proof. exact interp_exact_lemma. Qed.
Print Assumptions C107_interp1d_integers_exact.

(** A NaN query passes the range check of every method and gives NaN. *)
Theorem C107_interp1d_nan_query : forall bm m xs ys, is_linear m -> (bm = Debug -> is_sorted xs = true) ->
  (2 <= length xs)%nat -> length ys = length xs ->
  exists o, new1d bm m xs ys = Ok o /\ eval1d o B754_nan = Ok B754_nan.
Proof. exact interp_nan_lemma. Qed.
Print Assumptions C107_interp1d_nan_query.

(** "A sample is reproduced": false in double, for the table (1,1), (4,8). *)
Theorem C107_interp1d_samples_refuted : exists xs ys,
  all_finite xs /\ all_finite ys /\ increasing (dvalues xs) /\ length ys = length xs /\
  forall bm m, is_linear m -> exists o v, new1d bm m xs ys = Ok o /\ eval1d o (nth 0 xs (f64_ofZ 0)) = Ok v /\
    dvalue v <> nth 0 (dvalues ys) 0 /\
    dvalue (nth 0 xs (f64_ofZ 0)) = 1 /\ nth 0 (dvalues ys) 0 = 1 /\ dvalue v = 1 + / 2 ^ 52.
Proof. exact node_refuted_pf. Qed.
Print Assumptions C107_interp1d_samples_refuted.

(** "A constant table is reproduced": 0.1 becomes 0.125 at an abscissa. *)
Theorem C107_interp1d_constant_refuted : exists xs ys x c, all_finite xs /\ all_finite ys /\ is_finite x = true /\
  increasing (dvalues xs) /\ ys = [c; c] /\ length xs = 2%nat /\ In x xs /\ 1 / 10 <= dvalue c <= 1001 / 10000 /\
  forall bm m, is_linear m -> exists o v, new1d bm m xs ys = Ok o /\ eval1d o x = Ok v /\ dvalue v = 1 / 8.
Proof. exact constant_refuted_pf. Qed.
Print Assumptions C107_interp1d_constant_refuted.

(** Without [D <= dmax]: samples 0 and 1, but 0 at the second abscissa. *)
Theorem C107_interp1d_wide_cell_refuted : exists xs ys, all_finite xs /\ all_finite ys /\
  increasing (dvalues xs) /\ length xs = 2%nat /\ dvalues ys = [0; 1] /\
  forall bm m, is_linear m -> exists o v, new1d bm m xs ys = Ok o /\ eval1d o (nth 1 xs (f64_ofZ 0)) = Ok v /\
    dvalue v = 0 /\ is_finite v = true.
Proof. exact overflow_refuted_pf. Qed.
Print Assumptions C107_interp1d_wide_cell_refuted.

(** "Initialize in a debug build rejects abscissae that are not increasing":
    false, a NaN passes the assertion and makes answers NaN. *)
Theorem C107_interp1d_nan_table_refuted : exists xs ys x o, ~ all_finite xs /\ is_finite x = true /\
  new1d Debug LINEAR xs ys = Ok o /\ eval1d o x = Ok B754_nan.
Proof. exact nan_table_refuted_pf. Qed.
Print Assumptions C107_interp1d_nan_table_refuted.

(** The table (0,3), (4,5), (6,1): exactly 3 at 5, in the second cell. *)
Example C107_example : exists o v,
  new1d Debug LINEAR [f64_ofZ 0; f64_ofZ 4; f64_ofZ 6] [f64_ofZ 3; f64_ofZ 5; f64_ofZ 1] = Ok o /\
  eval1d o (f64_ofZ 5) = Ok v /\ is_finite v = true /\ dvalue v = 3.
Proof.
  assert (V : forall z, (Z.abs z < 2 ^ 53)%Z -> dvalue (f64_ofZ z) = IZR z) by (intros z Hz; apply (ofZ_ok z Hz)).
  destruct (C107_interp1d_integers_exact Debug LINEAR [f64_ofZ 0; f64_ofZ 4; f64_ofZ 6] [f64_ofZ 3; f64_ofZ 5; f64_ofZ 1]
    (f64_ofZ 5) 1 4 6 5 1 5 1) as (o & v & H1 & H2 & H3 & H4).
  - left. reflexivity.
  - repeat constructor.
  - repeat constructor.
  - reflexivity.
  - intros i j Hij. cbn [dvalues map length] in *. rewrite !V by lia.
    destruct i as [|[|[|i]]]; destruct j as [|[|[|j]]]; simpl; try lia; lra.
  - reflexivity.
  - simpl. lia.
  - cbn [dvalues map nth]. apply V. lia.
  - cbn [dvalues map nth]. apply V. lia.
  - cbn [dvalues map nth]. apply V. lia.
  - cbn [dvalues map nth]. apply V. lia.
  - apply V. lia.
  - lia.
  - reflexivity.
  - lia.
  - simpl. lia.
  - exists o, v. split; [exact H1|]. split; [exact H2|]. split; [exact H3|]. unfold on_line in H4. lra.
Qed.

(** C108: unit conversions in double, against the exact factors (and the
    exact pi). *)
Theorem C108_velocity_double : forall x u w, is_finite x = true -> / 2 ^ 900 <= Rabs (dvalue x) <= 2 ^ 900 ->
  let y := dvalue x * metres_per_second u / metres_per_second w in
  is_finite (convert_velocity_unit x u w) = true /\
  Rabs (dvalue (convert_velocity_unit x u w) - y) <= 5 * uround * Rabs y.
Proof. exact velocity_double_lemma. Qed.
Print Assumptions C108_velocity_double.

Theorem C108_velocity_roundtrip : forall x u w, is_finite x = true -> / 2 ^ 850 <= Rabs (dvalue x) <= 2 ^ 850 ->
  let y := convert_velocity_unit (convert_velocity_unit x u w) w u in
  is_finite y = true /\ Rabs (dvalue y - dvalue x) <= 9 * uround * Rabs (dvalue x).
Proof. exact velocity_roundtrip_lemma. Qed.
Print Assumptions C108_velocity_roundtrip.

(** [f] is the frequency in hertz that [x] denotes in unit [u], [y] the number
    that denotes it in unit [w]. *)
Theorem C108_frequency_double : forall x u w f y, is_finite x = true -> / 2 ^ 900 <= Rabs (dvalue x) <= 2 ^ 900 ->
  denotes_hertz PI u (dvalue x) f -> denotes_hertz PI w y f ->
  is_finite (convert_frequency x u w) = true /\
  Rabs (dvalue (convert_frequency x u w) - y) <= 13 * uround * Rabs y.
Proof. exact frequency_double_lemma. Qed.
Print Assumptions C108_frequency_double.

Theorem C108_frequency_roundtrip : forall x u w, is_finite x = true -> / 2 ^ 850 <= Rabs (dvalue x) <= 2 ^ 850 ->
  let y := convert_frequency (convert_frequency x u w) w u in
  is_finite y = true /\ Rabs (dvalue y - dvalue x) <= 25 * uround * Rabs (dvalue x).
Proof. exact frequency_roundtrip_lemma. Qed.
Print Assumptions C108_frequency_roundtrip.

Theorem C108_degrees_double : forall l,
  Forall (fun x => is_finite x = true /\ / 2 ^ 900 <= Rabs (dvalue x) <= 2 ^ 900) l ->
  Forall2 (fun x y => is_finite y = true /\ Rabs (dvalue y - dvalue x * (PI / 180)) <= 4 * uround * Rabs (dvalue x * (PI / 180)))
    l (deg2rad l) /\
  Forall2 (fun x y => is_finite y = true /\ Rabs (dvalue y - dvalue x * (180 / PI)) <= 4 * uround * Rabs (dvalue x * (180 / PI)))
    l (rad2deg l) /\
  Forall2 (fun x y => is_finite y = true /\ Rabs (dvalue y - dvalue x) <= 7 * uround * Rabs (dvalue x))
    l (rad2deg (deg2rad l)).
Proof. exact degrees_double_lemma. Qed.
Print Assumptions C108_degrees_double.

(** "Converting a speed to its own unit changes nothing": 29 km/h are not. *)
Theorem C108_velocity_same_unit_refuted : exists x u, is_finite x = true /\ dvalue x = 29 /\
  is_finite (convert_velocity_unit x u u) = true /\ dvalue (convert_velocity_unit x u u) = 29 - / 2 ^ 48.
Proof. exact velocity_same_unit_refuted_pf. Qed.
Print Assumptions C108_velocity_same_unit_refuted.

(** "Degrees to radians and back is the identity": not for 3 degrees. *)
Theorem C108_degrees_roundtrip_refuted : exists x, is_finite x = true /\ dvalue x = 3 /\
  map dvalue (rad2deg (deg2rad [x])) = [3 + / 2 ^ 51].
Proof. exact degrees_roundtrip_refuted_pf. Qed.
Print Assumptions C108_degrees_roundtrip_refuted.

(** 30 rpm are a period of 2 s, to 26 units of 2^-53; a frequency of zero has
    an infinite period. *)
Example C108_example :
  Rabs (dvalue (convert_frequency (f64_ofZ 30) RPM PERIOD_S) - 2) <= 26 * uround /\
  is_finite (convert_frequency (f64_ofZ 0) HERTZ PERIOD_S) = false.
Proof.
  split; [|vm_compute; reflexivity].
  assert (V : dvalue (f64_ofZ 30) = 30) by (apply (ofZ_ok 30); lia).
  assert (P : 30 <= 2 ^ 900).
  { apply Rle_trans with (2 ^ 5); [simpl; lra|]. apply Rle_pow; [lra|lia]. }
  destruct (C108_frequency_double (f64_ofZ 30) RPM PERIOD_S (1 / 2) 2) as [_ E].
  - reflexivity.
  - rewrite V, Rabs_pos_eq by lra. split; [|exact P]. apply Rle_trans with (/ 1); [|lra]. apply Rinv_le_contravar; lra.
  - unfold denotes_hertz. rewrite V. lra.
  - unfold denotes_hertz. lra.
  - rewrite (Rabs_pos_eq 2) in E by lra. lra.
Qed.
