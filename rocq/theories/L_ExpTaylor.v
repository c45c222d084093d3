(** Taylor polynomials of exp(-x) are alternately above and below it. *)
From Coq Require Import ZArith Reals Lra Lia Bool List.
From Coquelicot Require Import Coquelicot.
From Verif Require Import L_Poly.
Import ListNotations.
Open Scope R_scope.

(** n! times the Taylor polynomial of degree n. *)
Fixpoint etab (n : nat) : list Z :=
  match n with
  | 0%nat => [1%Z]
  | S m => zscale (Z.of_nat n) (etab m) ++ [if Nat.even n then 1 else -1]%Z
  end.
Fixpoint efac (n : nat) : Z := match n with 0%nat => 1 | S m => Z.of_nat n * efac m end%Z.

Lemma efac_pos n : (0 < efac n)%Z.
Proof. induction n as [|n IH]; [reflexivity|]. cbn [efac]. apply Z.mul_pos_pos; [lia|exact IH]. Qed.

Lemma zev_app a b x : zev (a ++ b) x = zev a x + x ^ length a * zev b x.
Proof. induction a as [|h a IH]; cbn [app zev length pow]; [ring|]. rewrite IH. ring. Qed.
Lemma etab_length n : length (etab n) = S n.
Proof. induction n as [|n IH]; [reflexivity|]. cbn [etab]. rewrite app_length. unfold zscale. rewrite map_length, IH. cbn. lia. Qed.
Lemma etab_step n x : zev (etab (S n)) x = IZR (Z.of_nat (S n)) * zev (etab n) x + x ^ S n * (if Nat.even (S n) then 1 else -1).
Proof.
  cbn [etab]. rewrite zev_app, zev_scale. unfold zscale. rewrite map_length, etab_length.
  destruct (Nat.even (S n)); cbn [zev]; ring.
Qed.
Lemma etab_0 n : zev (etab n) 0 = IZR (efac n).
Proof.
  induction n as [|n IH]; [cbn; ring|]. rewrite etab_step, IH. cbn [efac]. rewrite mult_IZR. cbn [pow]. ring.
Qed.
Lemma etab_derive n x : is_derive (zev (etab (S n))) x (- IZR (Z.of_nat (S n)) * zev (etab n) x).
Proof.
  induction n as [|n IH].
  - assert (D := zev_derive (etab 1) x). cbn in D |- *.
    replace (- (1) * (1 + x * 0)) with (-1 + x * 0) by ring. exact D.
  - apply (is_derive_ext (fun y => IZR (Z.of_nat (S (S n))) * zev (etab (S n)) y + y ^ S (S n) * (if Nat.even (S (S n)) then 1 else -1))).
    { intros y. symmetry. apply etab_step. }
    assert (D2 := is_derive_plus _ _ x _ _ (is_derive_scal _ x (IZR (Z.of_nat (S (S n)))) _ IH)
                   (is_derive_scal (fun y => y ^ S (S n)) x (if Nat.even (S (S n)) then 1 else -1) _
                      (proj2 (is_derive_Reals _ _ _) (derivable_pt_lim_pow x (S (S n)))))).
    cbv beta in D2. unfold plus in D2; cbn [AbelianGroup.plus] in D2.
    eapply is_derive_ext in D2; [|intros y; instantiate (1 := fun y => IZR (Z.of_nat (S (S n))) * zev (etab (S n)) y + y ^ S (S n) * (if Nat.even (S (S n)) then 1 else -1)); cbv beta; match goal with |- @eq _ ?a ?b => change (@eq R a b) end; unfold plus; cbn -[pow Nat.even Z.of_nat zev etab]; ring].
    evar_last; [exact D2|]. match goal with |- @eq _ ?a ?b => change (@eq R a b) end. unfold plus; cbn -[pow Nat.even Z.of_nat zev etab INR].
    rewrite (etab_step n). rewrite Nat.even_succ_succ, Nat.even_succ, <- Nat.negb_even.
    rewrite <- !INR_IZR_INZ. rewrite !S_INR. cbn [pred pow]. destruct (Nat.even n); cbn [negb]; ring.
Qed.

Definition etay (n : nat) (x : R) : R := zev (etab n) x / IZR (efac n).
Lemma etay_derive n x : is_derive (etay (S n)) x (- etay n x).
Proof.
  unfold etay. assert (P := IZR_lt _ _ (efac_pos n)). assert (Q : 0 < IZR (Z.of_nat (S n))) by (apply IZR_lt; lia).
  apply (is_derive_ext (fun y => / IZR (efac (S n)) * zev (etab (S n)) y)).
  { intros y. cbn [efac]. match goal with |- @eq _ ?a ?b => change (@eq R a b) end. unfold Rdiv. ring. }
  evar_last; [apply is_derive_scal, etab_derive|]. cbn [efac]. rewrite mult_IZR. field. split; lra.
Qed.
Lemma etay_0 n : etay n 0 = 1.
Proof. unfold etay. rewrite etab_0. assert (P := IZR_lt _ _ (efac_pos n)). field. lra. Qed.

Lemma etay_sign n x : 0 <= x -> if Nat.even n then exp (- x) <= etay n x else etay n x <= exp (- x).
Proof.
  revert x. induction n as [|n IH]; intros x Hx.
  - cbn. unfold etay. cbn. replace ((1 + x * 0) / 1) with 1 by field.
    rewrite <- exp_0. destruct (Req_dec x 0) as [->|N]; [rewrite Ropp_0; lra|left; apply exp_increasing; lra].
  - destruct (Req_dec x 0) as [->|N].
    { rewrite Ropp_0, exp_0, etay_0. destruct (Nat.even (S n)); lra. }
    destruct (MVT_gen (fun y => etay (S n) y - exp (- y)) 0 x (fun y => - etay n y + exp (- y))) as [c [Hc E]].
    + intros y _. replace (- etay n y + exp (- y)) with (minus (- etay n y) (- exp (- y))) by (unfold minus, plus, opp; cbn; ring).
      apply @is_derive_minus; [apply etay_derive|]. auto_derive; [exact I|ring].
    + intros y _. apply derivable_continuous_pt. exists (- etay n y - - exp (- y)). apply is_derive_Reals.
      apply @is_derive_minus; [apply etay_derive|]. auto_derive; [exact I|ring].
    + rewrite Rmin_left, Rmax_right in Hc by lra. specialize (IH c ltac:(lra)).
      rewrite etay_0, Ropp_0, exp_0 in E. rewrite Nat.even_succ, <- Nat.negb_even.
      destruct (Nat.even n); cbn [negb] in *.
      * assert ((- etay n c + exp (- c)) * (x - 0) <= 0 * (x - 0)) by (apply Rmult_le_compat_r; lra). lra.
      * assert (0 * (x - 0) <= (- etay n c + exp (- c)) * (x - 0)) by (apply Rmult_le_compat_r; lra). lra.
Qed.
