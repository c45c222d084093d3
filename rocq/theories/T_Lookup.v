(** Properties C17-C24: lookup tables (LookupTable1D.h, LookupTable2D.h).

    All theorems hold for every scalar type.  [lut1_run bm (lut1_new m) ops = Ok t]:
    [t] is reached from a fresh table by the client calls [ops], none of which failed. *)
From Coq Require Import List Arith Lia Bool Permutation ZArith.
From Coq Require String.
From Verif Require Import Outcome Num StdAlgo M_Interp1d M_Interp2d M_Lookup S_Lookup L_Lookup.
Import ListNotations.
Import String.StringSyntax.
Open Scope string_scope.

(** Executable instance for the examples: integer scalars. *)
Local Existing Instance ZNum.
Definition ex_ops : list (op1 Z Z) :=
  [SetX1 [0; 2; 4]%Z; AddY1 "a" [0; 4; 0]%Z; AddY1 "b" [1; 1; 3]%Z; AddY1 "a" [9; 9; 9]%Z;
   SetX1 [0; 10]%Z; AddY1 "c" [0; 20]%Z].
Definition ex_run (m : interp_method) : outcome (lut1 Z Z) :=
  @lut1_run Z Z ZNum (@VNum_self Z ZNum) Release (lut1_new m) ex_ops.

Local Ltac run := repeat (split; [vm_compute; reflexivity|]); try (vm_compute; reflexivity).

(** C17: a table is the map registering, for each name, the ordinates of the
    first AddY with the abscissae then in force; unknown names throw. *)
Theorem C17_lut1_is_a_map : forall {T V} `{NT : Num T} `{VT : VNum T V} bm m ops (t : lut1 T V),
  lut1_run bm (lut1_new m) ops = Ok t ->
  (forall name, match registered1 None ops name with
     | Some (Some xs, ys) => exists o, new1d bm m xs ys = Ok o /\
         (forall x, lut1_eval t name x = eval1d o x) /\
         (forall xv, lut1_eval_vec t name xv = eval1d_vec o xv) /\
         lut1_xmin t name = vat xs 0 /\ lut1_xmax t name = vat xs (length xs - 1)
     | Some (None, _) => False
     | None => (forall x, lut1_eval t name x = Throw OutOfRange) /\
         (forall xv, lut1_eval_vec t name xv = Throw OutOfRange) /\
         lut1_xmin t name = Throw OutOfRange /\ lut1_xmax t name = Throw OutOfRange
     end) /\
  lut1_nb_series t = length (nodup String.string_dec (names1 ops)).
Proof. exact @map_eval_lemma. Qed.
Print Assumptions C17_lut1_is_a_map.

Example C17_example : exists t, ex_run LINEAR = Ok t /\
  @lut1_eval Z Z ZNum VNum_self t "a" 1%Z = Ok 2%Z /\
  @lut1_eval Z Z ZNum VNum_self t "c" 5%Z = Ok 10%Z /\
  @lut1_eval Z Z ZNum VNum_self t "zz" 5%Z = Throw OutOfRange /\ lut1_nb_series t = 3.
Proof. eexists. run. Qed.

(** C18: duplicates are refused without effect; a successful fresh AddY
    answers true and changes no other name; a fresh AddY of data the
    interpolator accepts succeeds. *)
Theorem C18_lut1_add : forall {T V} `{NT : Num T} `{VT : VNum T V} bm m ops (t : lut1 T V) name ys,
  lut1_run bm (lut1_new m) ops = Ok t ->
  (In name (names1 ops) -> lut1_add_y bm t name ys = (t, Ok false)) /\
  (~ In name (names1 ops) -> forall t' b, lut1_add_y bm t name ys = (t', Ok b) ->
     b = true /\ lut1_nb_series t' = S (lut1_nb_series t) /\
     (forall k x, k <> name -> lut1_eval t' k x = lut1_eval t k x)) /\
  (~ In name (names1 ops) -> forall xs o, l_x t = Some xs -> new1d bm m xs ys = Ok o ->
     exists t', lut1_add_y bm t name ys = (t', Ok true) /\ forall x, lut1_eval t' name x = eval1d o x).
Proof. exact @add_lemma. Qed.
Print Assumptions C18_lut1_add.

Example C18_example : exists t t', ex_run LINEAR = Ok t /\
  @lut1_add_y Z Z ZNum VNum_self Release t "b" [5; 5]%Z = (t, Ok false) /\
  @lut1_add_y Z Z ZNum VNum_self Release t "d" [5; 15]%Z = (t', Ok true) /\
  @lut1_eval Z Z ZNum VNum_self t' "d" 5%Z = Ok 10%Z /\
  @lut1_eval Z Z ZNum VNum_self t' "a" 1%Z = Ok 2%Z.
Proof. do 2 eexists. run. Qed.

(** C19: SetX changes no answer of the series already registered. *)
Theorem C19_lut1_set_x : forall {T V} `{NT : Num T} `{VT : VNum T V} (t : lut1 T V) xs,
  (forall name x, lut1_eval (lut1_set_x t xs) name x = lut1_eval t name x) /\
  (forall name xv, lut1_eval_vec (lut1_set_x t xs) name xv = lut1_eval_vec t name xv) /\
  (forall order x, lut1_eval_all (lut1_set_x t xs) order x = lut1_eval_all t order x) /\
  (forall name, lut1_xmin (lut1_set_x t xs) name = lut1_xmin t name /\
                lut1_xmax (lut1_set_x t xs) name = lut1_xmax t name) /\
  lut1_nb_series (lut1_set_x t xs) = lut1_nb_series t /\
  lut1_get_x (lut1_set_x t xs) = Ok xs /\ lut1_nb_sample (lut1_set_x t xs) = Ok (length xs).
Proof. exact @set_x_lemma. Qed.
Print Assumptions C19_lut1_set_x.

Example C19_example : exists t, ex_run LINEAR = Ok t /\
  @lut1_eval Z Z ZNum VNum_self (lut1_set_x t [7; 8; 9]%Z) "a" 1%Z = Ok 2%Z.
Proof. eexists. run. Qed.

(** C20: after a throwing AddY the name is registered for good, evaluating it
    throws, and the next successful AddY is answered under the failed name
    while its own name throws. *)
Theorem C20_lut1_failed_add : forall {T V} `{NT : Num T} `{VT : VNum T V} bm m ops
    (t t1 t2 : lut1 T V) n1 ys1 n2 ys2 e,
  lut1_run bm (lut1_new m) ops = Ok t ->
  lut1_add_y bm t n1 ys1 = (t1, Throw e) ->
  (forall x, lut1_eval t1 n1 x = Throw OutOfRange) /\
  (forall ys, lut1_add_y bm t1 n1 ys = (t1, Ok false)) /\
  lut1_nb_series t1 = S (lut1_nb_series t) /\
  (lut1_add_y bm t1 n2 ys2 = (t2, Ok true) ->
   exists xs o, l_x t = Some xs /\ new1d bm m xs ys2 = Ok o /\
     (forall x, lut1_eval t2 n1 x = eval1d o x) /\
     (forall x, lut1_eval t2 n2 x = Throw OutOfRange)).
Proof. exact @failed_add_lemma. Qed.
Print Assumptions C20_lut1_failed_add.

(** C20: and evaluating all series at once is then undefined behaviour. *)
Theorem C20_lut1_failed_add_eval_all : forall {T V} `{NT : Num T} `{VT : VNum T V} bm m ops
    (t t1 : lut1 T V) n1 ys1 e order x,
  lut1_run bm (lut1_new m) ops = Ok t ->
  lut1_add_y bm t n1 ys1 = (t1, Throw e) -> Permutation order (l_assoc t1) ->
  (forall name, In name (names1 ops) -> exists v, lut1_eval t name x = Ok v) ->
  lut1_eval_all t1 order x = UB.
Proof. exact @eval_all_failed_lemma. Qed.
Print Assumptions C20_lut1_failed_add_eval_all.

Example C20_example : exists t t1 t2, ex_run LINEAR = Ok t /\
  @lut1_add_y Z Z ZNum VNum_self Release t "bad" [5]%Z = (t1, Throw OutOfRange) /\
  @lut1_add_y Z Z ZNum VNum_self Release t1 "good" [5; 15]%Z = (t2, Ok true) /\
  @lut1_eval Z Z ZNum VNum_self t2 "bad" 5%Z = Ok 10%Z /\
  @lut1_eval Z Z ZNum VNum_self t2 "good" 5%Z = Throw OutOfRange /\
  @lut1_eval_all Z Z ZNum VNum_self t1 (l_assoc t1) 1%Z = UB.
Proof. do 3 eexists. run. Qed.

(** C20, intended claim "a failed AddY has no effect", refuted. *)
Theorem C20_lut1_failed_add_refuted : exists (t t1 : lut1 Z Z) name ys e,
  ex_run LINEAR = Ok t /\ @lut1_add_y Z Z ZNum VNum_self Release t name ys = (t1, Throw e) /\
  lut1_nb_series t1 <> lut1_nb_series t.
Proof.
  do 2 eexists. exists "bad", [5]%Z, OutOfRange. run.
  vm_compute. discriminate.
Qed.
Print Assumptions C20_lut1_failed_add_refuted.

(** C21: move assignment takes the series but keeps the destination's method. *)
Theorem C21_lut1_move_assign : forall {T V} `{NT : Num T} `{VT : VNum T V} bm m ops
    (dst src : lut1 T V), lut1_run bm (lut1_new m) ops = Ok src ->
  (forall name x, lut1_eval (lut1_move_assign dst src) name x = lut1_eval src name x) /\
  lut1_nb_series (lut1_move_assign dst src) = lut1_nb_series src /\
  lut1_get_x (lut1_move_assign dst src) = lut1_get_x src /\
  (forall name ys t', lut1_add_y bm (lut1_move_assign dst src) name ys = (t', Ok true) ->
     exists m' xs o, l_method dst = Some m' /\ l_x src = Some xs /\ new1d bm m' xs ys = Ok o /\
       forall x, lut1_eval t' name x = eval1d o x).
Proof. exact @move_assign_reach_lemma. Qed.
Print Assumptions C21_lut1_move_assign.

(** C21: a move-constructed table answers like its source but any AddY of a
    fresh name reads an indeterminate method. *)
Theorem C21_lut1_move_ctor : forall {T V} `{NT : Num T} `{VT : VNum T V} bm m ops (src : lut1 T V),
  lut1_run bm (lut1_new m) ops = Ok src ->
  (forall name x, lut1_eval (lut1_move_ctor src) name x = lut1_eval src name x) /\
  (forall name ys, ~ In name (names1 ops) ->
     snd (lut1_add_y bm (lut1_move_ctor src) name ys) = UB).
Proof. exact @move_ctor_reach_lemma. Qed.
Print Assumptions C21_lut1_move_ctor.

Example C21_example : exists src t', ex_run LINEAR_SATURATE = Ok src /\
  @lut1_add_y Z Z ZNum VNum_self Release (lut1_move_assign (lut1_new LINEAR) src) "d" [5; 15]%Z = (t', Ok true) /\
  @lut1_eval Z Z ZNum VNum_self t' "d" 20%Z = Exit 1 /\
  @lut1_eval Z Z ZNum VNum_self t' "c" 20%Z = Ok 20%Z /\
  snd (@lut1_add_y Z Z ZNum VNum_self Release (lut1_move_ctor src) "d" [5; 15]%Z) = UB.
Proof. do 2 eexists. run. Qed.

(** C21, intended claim "the moved-to table behaves like the source", refuted. *)
Theorem C21_lut1_move_refuted : exists (dst src t1 t2 : lut1 Z Z) name ys x,
  ex_run LINEAR_SATURATE = Ok src /\
  @lut1_add_y Z Z ZNum VNum_self Release src name ys = (t1, Ok true) /\
  @lut1_add_y Z Z ZNum VNum_self Release (lut1_move_assign dst src) name ys = (t2, Ok true) /\
  @lut1_eval Z Z ZNum VNum_self t1 name x <> @lut1_eval Z Z ZNum VNum_self t2 name x.
Proof.
  exists (lut1_new LINEAR). do 3 eexists. exists "d", [5; 15]%Z, 20%Z.
  run. vm_compute. discriminate.
Qed.
Print Assumptions C21_lut1_move_refuted.

(** C22: whatever the traversal order of the name container, evaluating all
    series gives exactly one entry per registered name, with the value of the
    single-series evaluation. *)
Theorem C22_lut1_eval_all : forall {T V} `{NT : Num T} `{VT : VNum T V} bm m ops (t : lut1 T V) order x,
  lut1_run bm (lut1_new m) ops = Ok t -> Permutation order (l_assoc t) ->
  (forall name, In name (names1 ops) -> exists v, lut1_eval t name x = Ok v) ->
  exists out, lut1_eval_all t order x = Ok out /\
    NoDup (map fst out) /\
    (forall name, In name (map fst out) <-> In name (names1 ops)) /\
    (forall name v, In (name, v) out <-> lut1_eval t name x = Ok v).
Proof. exact @eval_all_lemma. Qed.
Print Assumptions C22_lut1_eval_all.

Example C22_example : exists t, ex_run LINEAR = Ok t /\
  @lut1_eval_all Z Z ZNum VNum_self t (rev (l_assoc t)) 1%Z = Ok [("c", 2%Z); ("b", 1%Z); ("a", 2%Z)].
Proof. eexists. run. Qed.

(** ** LookupTable2d *)
Definition ex_ops2 : list (op2 Z) :=
  [SetX2 [0; 1]%Z; SetY2 [0; 1; 2]%Z; AddData2 "a" [0; 1; 2; 3; 4; 5]%Z;
   AddData2 "a" [9; 9; 9; 9; 9; 9]%Z; SetY2 [0; 1]%Z; AddData2 "b" [7; 8; 9; 10]%Z].
Definition ex_run2 : outcome (lut2 Z) := @lut2_run Z ZNum Debug lut2_new ex_ops2.

(** C23: same map semantics for LookupTable2d, with exact HasSerie. *)
Theorem C23_lut2_is_a_map : forall {T} `{NT : Num T} bm ops (t : lut2 T),
  lut2_run bm lut2_new ops = Ok t ->
  (forall name, match registered2 LINEAR None None ops name with
     | Some (m, Some xs, Some ys, d) => exists o, new2d bm m xs ys d = Ok o /\
         (forall x y, lut2_eval bm t name x y = eval2d bm o x y) /\
         (forall vc, lut2_eval_vec bm t name vc = eval2d_vec bm o vc)
     | Some _ => False
     | None => (forall x y, lut2_eval bm t name x y = Throw OutOfRange) /\
               (forall vc, lut2_eval_vec bm t name vc = Throw OutOfRange)
     end) /\
  (forall name, lut2_has t name = true <-> In name (names2 ops)) /\
  lut2_nb_series t = length (nodup String.string_dec (names2 ops)) /\
  (forall name d, In name (names2 ops) -> lut2_add bm t name d = (t, Ok false)) /\
  (forall name d t' b, ~ In name (names2 ops) -> lut2_add bm t name d = (t', Ok b) ->
     b = true /\ forall k x y, k <> name -> lut2_eval bm t' k x y = lut2_eval bm t k x y).
Proof. exact @map2_lemma. Qed.
Print Assumptions C23_lut2_is_a_map.

Example C23_example : exists t, ex_run2 = Ok t /\
  @lut2_eval Z ZNum Debug t "a" 1%Z 2%Z = Ok 5%Z /\ @lut2_eval Z ZNum Debug t "b" 1%Z 0%Z = Ok 9%Z /\
  lut2_has t "c" = false /\ lut2_nb_series t = 2.
Proof. eexists. run. Qed.

(** C24: under a method other than LINEAR, AddData of a fresh name throws. *)
Theorem C24_lut2_other_method_throws : forall {T} `{NT : Num T} bm (t : lut2 T) name d,
  k_method t <> LINEAR -> lut2_has t name = false ->
  exists t1, lut2_add bm t name d = (t1, Throw CString).
Proof. exact @failed_method_has_lemma. Qed.
Print Assumptions C24_lut2_other_method_throws.

(** C24: after any throwing AddData the name counts as present but cannot be
    evaluated, and the next successful AddData is answered under it. *)
Theorem C24_lut2_failed_add : forall {T} `{NT : Num T} bm ops (t t1 : lut2 T) n1 d1 e,
  lut2_run bm lut2_new ops = Ok t -> lut2_add bm t n1 d1 = (t1, Throw e) ->
  lut2_has t n1 = false /\ lut2_has t1 n1 = true /\
  (forall x y, lut2_eval bm t1 n1 x y = Throw OutOfRange) /\
  (forall d, lut2_add bm t1 n1 d = (t1, Ok false)) /\
  (forall m n2 d2 t2, lut2_add bm (lut2_set_method t1 m) n2 d2 = (t2, Ok true) ->
     exists xs ys o, k_x t = Some xs /\ k_y t = Some ys /\ new2d bm m xs ys d2 = Ok o /\
       (forall x y, lut2_eval bm t2 n1 x y = eval2d bm o x y) /\
       (forall x y, lut2_eval bm t2 n2 x y = Throw OutOfRange)).
Proof. exact @failed_add2_lemma. Qed.
Print Assumptions C24_lut2_failed_add.

Example C24_example : exists t t1 t2, ex_run2 = Ok t /\
  @lut2_add Z ZNum Debug (lut2_set_method t BSPLINE) "bad" [1; 2; 3; 4]%Z = (t1, Throw CString) /\
  lut2_has t1 "bad" = true /\
  @lut2_add Z ZNum Debug (lut2_set_method t1 LINEAR) "good" [5; 6; 7; 8]%Z = (t2, Ok true) /\
  @lut2_eval Z ZNum Debug t2 "bad" 0%Z 1%Z = Ok 6%Z /\
  @lut2_eval Z ZNum Debug t2 "good" 0%Z 1%Z = Throw OutOfRange.
Proof. do 3 eexists. run. Qed.

(** C24, intended claim "a failed AddData has no effect", refuted. *)
Theorem C24_lut2_failed_add_refuted : exists (t t1 : lut2 Z) name d e,
  @lut2_run Z ZNum Debug lut2_new (ex_ops2 ++ [SetMethod2 BSPLINE]) = Ok t /\
  @lut2_add Z ZNum Debug t name d = (t1, Throw e) /\ lut2_has t1 name <> lut2_has t name.
Proof.
  do 2 eexists. exists "bad", [1; 2; 3; 4]%Z, CString. run.
  vm_compute. discriminate.
Qed.
Print Assumptions C24_lut2_failed_add_refuted.
