(** C152: the trapezoidal rule and the linear interpolators agree. *)
From Coq Require Import List Arith ZArith Reals Lra Lia Bool.
From Coquelicot Require Import Coquelicot.
From Verif Require Import Outcome Num StdAlgo M_Interp1d S_Interp1d L_Interp1d M_Integ S_Integ L_Samples L_TrapInt.
Import ListNotations.
Local Open Scope R_scope.

(** Trapz of the samples is the integral of the interpolant of these samples
    ([F] is the function the interpolator computes on its range). *)
Theorem C152_integral_of_interpolant : forall bm bm' m xs ys o (F : R -> R),
  is_linear m -> increasing xs -> (2 <= length xs)%nat -> length ys = length xs ->
  new1d bm m xs ys = Ok o -> (forall x, nth 0 xs 0 <= x <= nth (length xs - 1) xs 0 -> eval1d o x = Ok (F x)) ->
  ex_RInt F (nth 0 xs 0) (nth (length xs - 1) xs 0) /\
  trapz_xy bm' xs ys = Ok (RInt F (nth 0 xs 0) (nth (length xs - 1) xs 0)).
Proof. exact trapz_interp. Qed.
Print Assumptions C152_integral_of_interpolant.
(** The same from a sample to another. *)
Theorem C152_integral_between_samples : forall bm bm' m xs ys o (F : R -> R) i j,
  is_linear m -> increasing xs -> (2 <= length xs)%nat -> length ys = length xs ->
  new1d bm m xs ys = Ok o -> (forall x, nth 0 xs 0 <= x <= nth (length xs - 1) xs 0 -> eval1d o x = Ok (F x)) ->
  (i < j < length xs)%nat ->
  trapz_xy bm' (firstn (j - i + 1) (skipn i xs)) (firstn (j - i + 1) (skipn i ys)) = Ok (RInt F (nth i xs 0) (nth j xs 0)).
Proof. exact trapz_slice. Qed.
Print Assumptions C152_integral_between_samples.
(** A sample on the chord of its neighbours can be left out. *)
Theorem C152_sample_on_chord : forall bm p x0 x1 q r y0 y1 s a b, length r = length p -> length s = length q ->
  on_line x0 y0 x1 y1 a b ->
  trapz_xy bm (p ++ x0 :: a :: x1 :: q) (r ++ y0 :: b :: y1 :: s) = trapz_xy bm (p ++ x0 :: x1 :: q) (r ++ y0 :: y1 :: s).
Proof. exact trapz_insert. Qed.
Print Assumptions C152_sample_on_chord.

(** The samples 1, 3, 2 at 0, 1, 3: the interpolant is 1 + 2 x, then (7 - x) / 2,
    and its integral is 7. *)
Example C152_example : exists o, new1d Debug LINEAR [0; 1; 3] [1; 3; 2] = Ok o /\
  let F := fun x => if Rle_dec x 1 then 1 + 2 * x else (7 - x) / 2 in
  (forall x, 0 <= x <= 3 -> eval1d o x = Ok (F x)) /\ RInt F 0 3 = 7 /\ RInt F 1 3 = 5.
Proof.
  assert (L : is_linear LINEAR) by (left; reflexivity).
  assert (I3 : increasing [0; 1; 3]) by (intros [|[|[|i]]] [|[|[|j]]] Hij; simpl in Hij |- *; try lia; lra).
  destruct (chord_lemma Debug LINEAR [0; 1; 3] [1; 3; 2] 0 0 L I3) as (o & v & Ho & _); try (simpl; lia); try (simpl; lra).
  exists o. split; [exact Ho|]. intros F.
  assert (HF : forall x, 0 <= x <= 3 -> eval1d o x = Ok (F x)).
  { intros x Hx. unfold F. destruct (Rle_dec x 1).
    - apply (at_cell Debug LINEAR [0; 1; 3] [1; 3; 2] o x 0); auto; try (simpl; lia); try (simpl; lra). unfold on_line. simpl. lra.
    - apply (at_cell Debug LINEAR [0; 1; 3] [1; 3; 2] o x 1); auto; try (simpl; lia); try (simpl; lra). unfold on_line. simpl. lra. }
  split; [exact HF|]. split.
  - destruct (C152_integral_of_interpolant Debug Debug LINEAR [0; 1; 3] [1; 3; 2] o F L I3) as [_ E];
      try (simpl; lia); auto.
    rewrite L_Integ.trapz_xy_ok in E by (simpl; lia). injection E as E. simpl in E. rewrite <- E. lra.
  - pose proof (C152_integral_between_samples Debug Debug LINEAR [0; 1; 3] [1; 3; 2] o F 1 2 L I3) as E.
    specialize (E ltac:(simpl; lia) eq_refl Ho HF ltac:(simpl; lia)).
    rewrite L_Integ.trapz_xy_ok in E by (simpl; lia). injection E as E. simpl in E. rewrite <- E. lra.
Qed.
Example C152_chord_example :
  trapz_xy Release ([5] ++ 6 :: 7 :: 8 :: [10]) ([0] ++ 1 :: 2 :: 3 :: [9]) = trapz_xy Release [5; 6; 8; 10] [0; 1; 3; 9].
Proof. apply (C152_sample_on_chord Release [5] 6 8 [10] [0] 1 3 [9] 7 2); auto. unfold on_line. lra. Qed.
