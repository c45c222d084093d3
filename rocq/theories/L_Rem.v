(** Remainder of polynomial interpolation, by the generalised Rolle theorem. *)
From Coq Require Import List Arith ZArith Reals Lra Lia Bool Sorting.
From Verif Require Import S_Series L_Series.
Import ListNotations.
Local Open Scope R_scope.

(** *** Rolle's theorem for derivatives of any order *)
Lemma rolle (f f1 : R -> R) a b : a < b -> (forall x, a <= x <= b -> derivable_pt_lim f x (f1 x)) -> f a = 0 -> f b = 0 ->
  exists c, a < c < b /\ f1 c = 0.
Proof.
  intros Hab D Ha Hb.
  destruct (MVT_cor2 f f1 a b Hab D) as (c & E & Hc). exists c. split; [exact Hc|].
  rewrite Ha, Hb in E. assert (f1 c * (b - a) = 0) by lra. apply Rmult_integral in H. destruct H; lra.
Qed.

Definition asc (zs : list R) : Prop := StronglySorted Rlt zs.
Definition convex (I : R -> Prop) : Prop := forall x y z, I x -> I z -> x <= y <= z -> I y.

Lemma asc_insert u : forall zs, asc zs -> ~ In u zs ->
  exists ws, asc ws /\ length ws = S (length zs) /\ forall z, In z ws <-> z = u \/ In z zs.
Proof.
  induction zs as [|z zs IH]; intros H Hu.
  - exists [u]. split; [repeat constructor|]. split; [reflexivity|]. intros w. simpl. intuition.
  - apply StronglySorted_inv in H as [H1 H2]. destruct (Rtotal_order u z) as [L|[E|L]].
    + exists (u :: z :: zs). split; [|split; [reflexivity|intros w; simpl; intuition]].
      constructor; [constructor; auto|]. constructor; [exact L|].
      apply Forall_impl with (2 := H2). intros; lra.
    + exfalso. apply Hu. left. auto.
    + destruct IH as (ws & W1 & W2 & W3); [exact H1|intros C; apply Hu; right; exact C|].
      exists (z :: ws). split; [|split; [simpl; lia|]].
      * constructor; [exact W1|]. apply Forall_forall. intros w Hw. apply W3 in Hw as [->|Hw]; [exact L|].
        rewrite Forall_forall in H2. auto.
      * intros w. simpl. rewrite W3. intuition.
Qed.
Lemma asc_of : forall l, NoDup l -> exists ws, asc ws /\ length ws = length l /\ forall z, In z ws <-> In z l.
Proof.
  induction l as [|u l IH]; intros H.
  - exists []. split; [constructor|]. split; [reflexivity|]. intros; reflexivity.
  - inversion H; subst. destruct (IH H3) as (zs & Z1 & Z2 & Z3).
    destruct (asc_insert u zs Z1) as (ws & W1 & W2 & W3); [rewrite Z3; exact H2|].
    exists ws. split; [exact W1|]. split; [simpl; lia|]. intros z. rewrite W3, Z3. simpl. intuition.
Qed.

Lemma rolle_step (I : R -> Prop) (f f1 : R -> R) : convex I -> (forall x, I x -> derivable_pt_lim f x (f1 x)) ->
  forall zs z, asc (z :: zs) -> (forall w, In w (z :: zs) -> I w /\ f w = 0) ->
  exists ws, asc ws /\ length ws = length zs /\ (forall w, In w ws -> I w /\ f1 w = 0 /\ z < w).
Proof.
  intros CI D. induction zs as [|y zs IH]; intros z H Hz.
  - exists []. split; [constructor|]. split; [reflexivity|]. intros w [].
  - apply StronglySorted_inv in H as [H1 H2].
    assert (L : z < y) by (inversion H2; auto).
    destruct (Hz z (or_introl eq_refl)) as [Iz Fz]. destruct (Hz y (or_intror (or_introl eq_refl))) as [Iy Fy].
    destruct (IH y H1) as (ws & W1 & W2 & W3); [intros w Hw; apply Hz; right; exact Hw|].
    destruct (rolle f f1 z y L) as (c & Hc & Ec); auto.
    { intros x Hx. apply D. apply (CI z x y); auto. }
    exists (c :: ws). split; [|split; [simpl; lia|]].
    + constructor; [exact W1|]. apply Forall_forall. intros w Hw. destruct (W3 w Hw) as (_ & _ & Hw'). lra.
    + intros w [<-|Hw].
      * split; [apply (CI z c y); auto; lra|]. split; [exact Ec|lra].
      * destruct (W3 w Hw) as (A & B & C). split; [exact A|]. split; [exact B|lra].
Qed.

Lemma rolle_gen (I : R -> Prop) : convex I -> forall m (D : nat -> R -> R) zs,
  (forall j x, (j < m)%nat -> I x -> derivable_pt_lim (D j) x (D (S j) x)) ->
  asc zs -> length zs = S m -> (forall w, In w zs -> I w /\ D 0%nat w = 0) -> exists c, I c /\ D m c = 0.
Proof.
  intros CI. induction m as [|m IH]; intros D zs HD Ha Hl Hz.
  - destruct zs as [|z zs]; [discriminate|]. exists z. apply Hz. now left.
  - destruct zs as [|z zs]; [discriminate|].
    destruct (rolle_step I (D 0%nat) (D 1%nat) CI (fun x Hx => HD 0%nat x ltac:(lia) Hx) zs z Ha Hz) as (ws & W1 & W2 & W3).
    destruct (IH (fun j => D (S j)) ws) as (c & Hc); auto.
    + intros j x Hj Hx. apply HD; [lia|exact Hx].
    + simpl in Hl. lia.
    + intros w Hw. destruct (W3 w Hw) as (A & B & _). auto.
    + exists c. exact Hc.
Qed.

(** *** Derivatives of polynomials *)
Fixpoint dpow (j k : nat) (x : R) : R :=
  match j with O => x ^ k | S j' => INR k * dpow j' (pred k) x end.
Lemma dpow_deriv : forall j k x, derivable_pt_lim (dpow j k) x (dpow (S j) k x).
Proof.
  induction j as [|j IH]; intros k x.
  - cbn [dpow]. apply derivable_pt_lim_pow.
  - change (dpow (S (S j)) k x) with (INR k * dpow (S j) (pred k) x).
    apply (derivable_pt_lim_scal (dpow j (pred k))). apply IH.
Qed.
Lemma dpow_low : forall j k x, (k < j)%nat -> dpow j k x = 0.
Proof.
  induction j as [|j IH]; intros k x H; [lia|]. cbn [dpow]. destruct k as [|k]; [simpl; ring|].
  rewrite IH by (simpl; lia). ring.
Qed.
Lemma dpow_top : forall j x, dpow j j x = INR (fact j).
Proof.
  induction j as [|j IH]; intros x; [reflexivity|]. cbn [dpow pred]. rewrite IH, <- mult_INR. f_equal.
Qed.
Definition dpoly (j N : nat) (c : nat -> R) (x : R) : R := bsum N (fun k => c k * dpow j k x).
Lemma dpoly_deriv j N c x : derivable_pt_lim (dpoly j N c) x (dpoly (S j) N c x).
Proof. apply bsum_deriv. intros i _. apply (derivable_pt_lim_scal (dpow j i)). apply dpow_deriv. Qed.
Lemma dpoly_low N c x : dpoly N N c x = 0.
Proof.
  unfold dpoly. rewrite (bsum_ext N _ (fun _ => 0)); [apply bsum_0|]. intros i Hi. rewrite dpow_low by exact Hi. ring.
Qed.
Lemma dpoly_top N c x : dpoly N (S N) c x = c N * INR (fact N).
Proof. change (dpoly N (S N) c x) with (dpoly N N c x + c N * dpow N N x). rewrite dpoly_low, dpow_top. ring. Qed.

(** *** The remainder *)
Lemma remainder (I : R -> Prop) N (D : nat -> R -> R) (p q : nat -> R) (zs : list R) u : convex I ->
  (forall j x, (j < N)%nat -> I x -> derivable_pt_lim (D j) x (D (S j) x)) ->
  NoDup zs -> length zs = N -> (forall z, In z zs -> I z /\ D 0%nat z = pvf N p z /\ pvf (S N) q z = 0) -> q N <> 0 ->
  I u -> exists c, I c /\ (D 0%nat u - pvf N p u) * (q N * INR (fact N)) = D N c * pvf (S N) q u.
Proof.
  intros CI HD ND HL HZ Hq Hu.
  destruct (Req_dec (pvf (S N) q u) 0) as [E0|E0].
  - (* u is a root of q: it is one of the nodes *)
    destruct (in_dec Req_EM_T u zs) as [Hin|Hout].
    + destruct (HZ u Hin) as (_ & E & _). exists u. split; [exact Hu|]. rewrite E, E0. ring.
    + exfalso. destruct (asc_of (u :: zs)) as (ws & W1 & W2 & W3); [constructor; auto|].
      destruct (rolle_gen I CI N (fun j => dpoly j (S N) q) ws) as (c & _ & Hc); auto.
      * intros j x _ _. apply dpoly_deriv.
      * simpl in W2. lia.
      * intros w Hw. apply W3 in Hw as [<-|Hw]; [split; [exact Hu|exact E0]|]. destruct (HZ w Hw) as (A & _ & B). split; [exact A|exact B].
      * cbv beta in Hc. rewrite dpoly_top in Hc. apply Rmult_integral in Hc. destruct Hc; [contradiction|].
        pose proof (INR_fact_neq_0 N). contradiction.
  - assert (Hout : ~ In u zs) by (intros C; apply E0; apply HZ; exact C).
    set (K := (D 0%nat u - pvf N p u) / pvf (S N) q u).
    destruct (asc_of (u :: zs)) as (ws & W1 & W2 & W3); [constructor; auto|].
    destruct (rolle_gen I CI N (fun j x => D j x - dpoly j N p x - K * dpoly j (S N) q x) ws) as (c & Ic & Hc); auto.
    + intros j x Hj Hx. apply (derivable_pt_lim_minus (fun x => D j x - dpoly j N p x) (fun x => K * dpoly j (S N) q x)).
      * apply (derivable_pt_lim_minus (D j) (dpoly j N p)); [apply HD; auto|apply dpoly_deriv].
      * apply (derivable_pt_lim_scal (dpoly j (S N) q)). apply dpoly_deriv.
    + simpl in W2. lia.
    + intros w Hw. change (dpoly 0 N p w) with (pvf N p w). change (dpoly 0 (S N) q w) with (pvf (S N) q w).
      apply W3 in Hw as [<-|Hw].
      * split; [exact Hu|]. unfold K. field. exact E0.
      * destruct (HZ w Hw) as (A & B & C). split; [exact A|]. rewrite B, C. ring.
    + exists c. split; [exact Ic|]. cbv beta in Hc. rewrite dpoly_low, dpoly_top in Hc.
      assert (E : D N c = K * (q N * INR (fact N))) by lra. rewrite E. unfold K. field. exact E0.
Qed.
