(** Model of the tolerance comparisons: [IsEqual] of Vector2d.h:158-161,
    Vector3d.h:126-129, Vector6d.h:104-107, VectorN.h:144-147,
    Matrix.h:319-322, Matrix33.h:307-310, Matrix66.h:300-303 and [IsIdentity]
    of Matrix.h:299-307, Matrix33.h:292-295, Matrix66.h:285-288.

    The bodies only call Eigen's isApprox and isIdentity, which are
    transcribed here from Eigen/src/Core/Fuzzy.h (isApprox_selector) and
    CwiseNullaryOp.h (isIdentity).  Eigen may add the squares in another
    order; over R that makes no difference. *)
From Coq Require Import List Arith ZArith Bool.
From Verif Require Import Outcome Num NumFun.
Import ListNotations.

Section Model.
Context {T : Type} `{NT : Num T} `{FT : NumFm T}.

(** [cwiseAbs2().sum()], 0 on an empty object. *)
Definition abs2_sum (l : list T) : T := fold_left (fun s x => nadd s (nmul x x)) l (nofZ 0).

(** Coefficientwise difference of objects of the same size. *)
Definition coeff_sub (a b : list T) : list T := map (fun p => nsub (fst p) (snd p)) (combine a b).

(** [numext::mini], i.e. [std::min]. *)
Definition mini (a b : T) : T := if nlt b a then b else a.

(** [IsEqual(other, epsilon)] on the coefficients of two vectors: operands of
    different sizes fail an eigen_assert. *)
Definition is_equal (bm : build) (a b : list T) (eps : T) : outcome bool :=
  if length a =? length b then
    Ok (nle (abs2_sum (coeff_sub a b)) (nmul (nmul eps eps) (mini (abs2_sum a) (abs2_sum b))))
  else match bm with Debug => Abort | Release => UB end.

(** A matrix: sizes and coefficients (column by column). *)
Record cmatrix : Type := mkCM { cm_rows : nat; cm_cols : nat; cm_data : list T }.
Definition cm_wf (m : cmatrix) : Prop := length (cm_data m) = cm_rows m * cm_cols m.

Definition mat_is_equal (bm : build) (a b : cmatrix) (eps : T) : outcome bool :=
  if (cm_rows a =? cm_rows b) && (cm_cols a =? cm_cols b) then is_equal bm (cm_data a) (cm_data b) eps
  else match bm with Debug => Abort | Release => UB end.

(** internal::isApprox and internal::isMuchSmallerThan on scalars. *)
Definition scalar_approx (x y eps : T) : bool := nle (nfabs (nsub x y)) (nmul (mini (nfabs x) (nfabs y)) eps).
Definition scalar_much_smaller (x y eps : T) : bool := nle (nfabs x) (nmul (nfabs y) eps).

(** The double loop of isIdentity, columns outside. *)
Definition is_identity (m : cmatrix) (eps : T) : bool :=
  forallb (fun j => forallb (fun i =>
    let x := nth (j * cm_rows m + i) (cm_data m) (nofZ 0) in
    if i =? j then scalar_approx x (nofZ 1) eps else scalar_much_smaller x (nofZ 1) eps)
    (seq 0 (cm_rows m))) (seq 0 (cm_cols m)).

(** Matrix.h:309-312. *)
Definition cm_is_square (m : cmatrix) : bool := cm_rows m =? cm_cols m.
End Model.
Arguments cmatrix : clear implicits.
