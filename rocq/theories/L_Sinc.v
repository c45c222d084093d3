(** The cardinal sine is 1-Lipschitz. *)
From Coq Require Import Reals Lra.
From Coquelicot Require Import Coquelicot.
From Verif Require Import S_Gen64.
From Verif Require L_Rot64.
Local Open Scope R_scope.

Lemma unit_const (c : R) : is_RInt (fun _ : R => c) 0 1 c.
Proof.
  assert (C := is_RInt_const (V := R_NormedModule) 0 1 c).
  match type of C with is_RInt _ _ _ ?s => assert (E : s = c) by (unfold scal; simpl; unfold mult; simpl; ring) end.
  rewrite E in C. exact C.
Qed.
Lemma sinc_int x : is_RInt (fun t => cos (t * x)) 0 1 (sinc x).
Proof.
  unfold sinc. destruct (Req_EM_T x 0) as [->|N].
  - apply (is_RInt_ext (fun _ => 1)); [intros t _; rewrite Rmult_0_r, cos_0; reflexivity|].
    apply unit_const.
  - replace (sin x / x) with (minus (sin (1 * x) / x) (sin (0 * x) / x))
      by (unfold minus, plus, opp; simpl; rewrite Rmult_0_l, sin_0, Rmult_1_l; field; exact N).
    apply (is_RInt_derive (fun t => sin (t * x) / x) (fun t => cos (t * x))).
    + intros t _. auto_derive; [trivial|]. field. exact N.
    + intros t _. apply (ex_derive_continuous (fun t => cos (t * x))). auto_derive. trivial.
Qed.
Lemma sinc_lipschitz x y : Rabs (sinc x - sinc y) <= Rabs (x - y).
Proof.
  assert (I := is_RInt_minus _ _ 0 1 _ _ (sinc_int x) (sinc_int y)).
  refine (norm_RInt_le _ _ 0 1 _ _ Rle_0_1 _ I (unit_const (Rabs (x - y)))).
  intros t Ht. apply Rle_trans with (1 := L_Rot64.cos_lip (t * x) (t * y)).
  replace (t * x - t * y) with (t * (x - y)) by ring. rewrite Rabs_mult, (Rabs_pos_eq t) by lra.
  assert (P := Rabs_pos (x - y)). rewrite <- (Rmult_1_l (Rabs (x - y))) at 2. apply Rmult_le_compat_r; lra.
Qed.
