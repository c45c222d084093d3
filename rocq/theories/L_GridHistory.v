(** Call histories and copies of RegularGridInterpolator. *)
From Coq Require Import List Arith ZArith Lia Bool Reals Lra.
From Verif Require Import Outcome Num StdAlgo S_Interp1d L_Search M_Grid S_Grid L_Grid S_GridHistory.
Import ListNotations.
Local Open Scope nat_scope.

Lemma run_app dim o h op : rgi_run dim o (h ++ [op]) =
  bind (rgi_run dim o h) (fun o1 =>
    match rgi_step dim o1 op with
    | (o', Ok _) => Ok o'
    | (o', Throw _) => Ok o'
    | (o', r) => omap (fun _ => o') r
    end).
Proof.
  revert o. induction h as [|op' h IH]; intros o; simpl.
  - destruct (rgi_step dim o op) as [o' [ | | | | ]]; reflexivity.
  - destruct (rgi_step dim o op') as [o' [ | | | | ]]; auto.
Qed.

Lemma registered_snoc h l op : registered h l ->
  match op with
  | RAddCoord v => (increasing v -> registered (h ++ [op]) (l ++ [v])) /\
                   (~ increasing v -> registered (h ++ [op]) l)
  | RAddVar _ => registered (h ++ [op]) l
  end.
Proof.
  induction 1 as [|v h l Hv H IH|v h l Hv H IH|a h l H IH]; simpl.
  - destruct op; [split; intros; repeat constructor; auto|repeat constructor].
  - destruct op; [destruct IH; split; intros; constructor; auto|constructor; auto].
  - destruct op; [destruct IH; split; intros; apply reg_no; auto|apply reg_no; auto].
  - destruct op; [destruct IH; split; intros; apply reg_var; auto|apply reg_var; auto].
Qed.

(** Invariant of reachable objects. *)
Definition inv (dim : nat) (h : list (rgi_op R)) (o : rgi R) : Prop :=
  registered h (r_grids o) /\ length (r_grids o) <= dim /\
  (match r_ip o with
   | IpNull => forall a, In (RAddVar a) h -> ~ fits (r_grids o) a
   | IpLive => fits (r_grids o) (r_data o) /\ last_var h (r_data o) /\ r_limits o = Some (limits_of (r_grids o))
   | IpDangling => ~ fits (r_grids o) (r_data o) /\ last_var h (r_data o) /\
                   exists a, In (RAddVar a) h /\ fits (r_grids o) a
   end) /\
  ((exists a, In (RAddVar a) h) -> length (r_grids o) = dim /\ Forall (fun g => g <> []) (r_grids o)).

Lemma run_inv dim h o : rgi_run dim (rgi_new dim) h = Ok o -> inv dim h o.
Proof.
  revert o. induction h as [|op h IH] using rev_ind; intros o H.
  - injection H as <-. unfold inv. simpl. repeat split; auto; try lia.
    + constructor.
    + destruct H as [a []].
  - rewrite run_app in H. apply bind_ok in H as (o1 & H1 & H). specialize (IH o1 H1).
    destruct IH as (R1 & L1 & I1 & V1). pose proof (registered_snoc h _ op R1) as RS.
    destruct op as [v|a]; simpl in H.
    + unfold rgi_add_coord in H. destruct (length (r_grids o1) =? dim) eqn:E; [discriminate|].
      apply Nat.eqb_neq in E. destruct RS as [RS1 RS2].
      assert (NV : forall a, ~ In (RAddVar a) h).
      { intros a Ha. destruct V1; [eauto|lia]. }
      assert (IN : r_ip o1 = IpNull).
      { destruct (r_ip o1); auto.
        - destruct I1 as (_ & (pre & post & -> & _) & _). exfalso. eapply NV. apply in_or_app. right. left. reflexivity.
        - destruct I1 as (_ & _ & (a & Ha & _)). exfalso. eapply NV; eauto. }
      destruct (strictly_increasing_check v) eqn:EV; injection H as <-.
      * apply sic_iff in EV. unfold inv. simpl. rewrite IN. repeat split; auto.
        -- rewrite app_length. simpl. lia.
        -- intros a Ha. apply in_app_or in Ha as [Ha|[Ha|[]]]; [exfalso; eapply NV; eauto|discriminate].
        -- destruct H as [a Ha]. apply in_app_or in Ha as [Ha|[Ha|[]]]; [exfalso; eapply NV; eauto|discriminate].
        -- destruct H as [a Ha]. apply in_app_or in Ha as [Ha|[Ha|[]]]; [exfalso; eapply NV; eauto|discriminate].
      * assert (NI : ~ increasing v). { intros Hv. apply sic_iff in Hv. congruence. }
        unfold inv. rewrite IN. repeat split; auto.
        -- intros a Ha. apply in_app_or in Ha as [Ha|[Ha|[]]]; [exfalso; eapply NV; eauto|discriminate].
        -- destruct H as [a Ha]. apply in_app_or in Ha as [Ha|[Ha|[]]]; [exfalso; eapply NV; eauto|discriminate].
        -- destruct H as [a Ha]. apply in_app_or in Ha as [Ha|[Ha|[]]]; [exfalso; eapply NV; eauto|discriminate].
    + unfold rgi_add_var in H. destruct (length (r_grids o1) =? dim) eqn:E; [|discriminate].
      apply Nat.eqb_eq in E. unfold rgi_build in H. cbn [r_grids r_data r_ip r_limits] in H.
      rewrite <- E, firstn_all in H. rewrite Nat.eqb_refl in H. simpl in H.
      destruct (forallb _ _) eqn:EF; [|discriminate]. apply forallb_nonempty in EF.
      rewrite prodn_count in H.
      assert (LV : last_var (h ++ [RAddVar a]) a).
      { exists h, []. split; auto. }
      destruct (Nat.eqb_spec (length (nd_flat a)) (count (map (length (A:=R)) (r_grids o1)))) as [EN|EN].
      * injection H as <-. unfold inv. simpl. repeat split; auto; lia.
      * injection H as <-. unfold inv. simpl. repeat split; auto; try lia.
        destruct (r_ip o1) eqn:EI.
        -- intros b Hb. apply in_app_or in Hb as [Hb|[Hb|[]]]; [apply I1; auto|]. injection Hb as <-. exact EN.
        -- repeat split; auto. destruct I1 as (F1 & (pre & post & -> & _) & _).
           exists (r_data o1). split; auto. apply in_or_app. left. apply in_or_app. right. left. reflexivity.
        -- repeat split; auto. destruct I1 as (_ & _ & (b & Hb & Fb)). exists b. split; auto. apply in_or_app; auto.
Qed.

Lemma last_var_unique h a b : last_var h a -> last_var h b -> a = b.
Proof.
  intros (p1 & q1 & E1 & N1) (p2 & q2 & E2 & N2). subst h.
  revert p2 E2. induction p1 as [|x p1 IH]; intros [|y p2] E2; simpl in E2; injection E2 as E3 E4.
  - congruence.
  - subst. exfalso. apply (N1 b). apply in_or_app. right; left; auto.
  - subst. exfalso. apply (N2 a). apply in_or_app. right; left; auto.
  - eapply IH; eauto.
Qed.

Lemma last_var_exists h a : In (RAddVar a) h -> exists b, last_var h b.
Proof.
  induction h as [|op h IH] using rev_ind; intros H; [destruct H|].
  destruct op as [v|b].
  - apply in_app_or in H as [H|[H|[]]]; [|discriminate]. destruct (IH H) as (b & pre & post & -> & N).
    exists b, pre, (post ++ [RAddCoord v]). split; [rewrite <- app_assoc; reflexivity|].
    intros c Hc. apply in_app_or in Hc as [Hc|[Hc|[]]]; [eapply N; eauto|discriminate].
  - exists b, h, []. split; auto.
Qed.

Lemma registered_fun h l l' : registered h l -> registered h l' -> l = l'.
Proof.
  intros H. revert l'. induction H; intros l' H'; inversion H'; subst; try contradiction; auto.
  f_equal; auto.
Qed.

Definition answers (bm : build) (dim : nat) (o : rgi R) : Prop :=
  forall p, length p = dim -> exists v, rgi_interp bm o p false = Ok v.

Lemma history_lemma : forall bm dim h o,
  rgi_run dim (rgi_new dim) h = Ok o ->
  exists axes, registered h axes /\ length axes <= dim /\
    (forall i v, rgi_coord dim o i = Ok v <-> nth_error axes i = Some v) /\
    (rgi_is_valid o = true <-> exists a, In (RAddVar a) h /\ fits axes a) /\
    ((exists a, last_var h a /\ fits axes a) ->
       forall p, length p = dim -> exists v, rgi_interp bm o p false = Ok v) /\
    (~ (exists a, last_var h a /\ fits axes a) ->
       forall p, rgi_interp bm o p false = UB).
Proof.
  intros bm dim h o H. destruct (run_inv dim h o H) as (R1 & L1 & I1 & V1).
  exists (r_grids o). split; [auto|]. split; [auto|]. split; [|split; [|split]].
  - intros i v. unfold rgi_coord. destruct (dim <=? i) eqn:E.
    + apply Nat.leb_le in E. split; [discriminate|]. intros E'.
      assert (i < length (r_grids o)) by (apply nth_error_Some; congruence). lia.
    + unfold vidx. destruct (nth_error (r_grids o) i); split; congruence.
  - unfold rgi_is_valid. destruct (r_ip o).
    + split; [discriminate|]. intros (a & Ha & F). exfalso. eapply I1; eauto.
    + split; auto. intros _. destruct I1 as (F & (pre & post & -> & _) & _). exists (r_data o). split; auto.
      apply in_or_app. right; left; auto.
    + split; auto. intros _. apply I1.
  - intros (a & La & Fa) p Hp.
    assert (Hin : In (RAddVar a) h). { destruct La as (pre & post & -> & _). apply in_or_app. right; left; auto. }
    destruct (r_ip o) eqn:EI.
    + exfalso. eapply I1; eauto.
    + destruct I1 as (F & _ & _). destruct V1 as [V1 V2]; [eauto|]. unfold rgi_interp. rewrite EI. simpl.
      apply interp_ml_defined; auto. lia.
    + exfalso. destruct I1 as (F & L & _). rewrite (last_var_unique _ _ _ La L) in Fa. auto.
  - intros N p. unfold rgi_interp. simpl. destruct (r_ip o) eqn:EI; auto.
    exfalso. apply N. exists (r_data o). split; apply I1.
Qed.

(** One more call on a reachable object. *)
Lemma protocol_lemma : forall dim h o,
  rgi_run dim (rgi_new dim) h = Ok o ->
  exists axes, registered h axes /\
    (forall v, length axes = dim -> rgi_add_coord dim o v = (o, Exit 1)) /\
    (forall v, length axes < dim -> increasing v ->
       exists o', rgi_add_coord dim o v = (o', Ok tt) /\ r_grids o' = axes ++ [v] /\
         rgi_is_valid o' = rgi_is_valid o) /\
    (forall v, length axes < dim -> ~ increasing v -> rgi_add_coord dim o v = (o, Throw RuntimeError)) /\
    (forall a, length axes < dim -> rgi_add_var dim o a = (o, Exit 1)) /\
    (forall a, length axes = dim -> Forall (fun g => g <> []) axes -> fits axes a ->
       exists o', rgi_add_var dim o a = (o', Ok tt) /\ rgi_is_valid o' = true) /\
    (forall a, length axes = dim -> Forall (fun g => g <> []) axes -> ~ fits axes a ->
       exists o', rgi_add_var dim o a = (o', Throw InvalidArgument)).
Proof.
  intros dim h o H. destruct (run_inv dim h o H) as (R1 & L1 & I1 & V1).
  exists (r_grids o). split; [auto|]. repeat split.
  - intros v E. unfold rgi_add_coord. rewrite E, Nat.eqb_refl. reflexivity.
  - intros v E Hv. unfold rgi_add_coord.
    replace (length (r_grids o) =? dim) with false by (symmetry; apply Nat.eqb_neq; lia).
    rewrite (proj2 (sic_iff v) Hv). eexists. split; [reflexivity|]. split; reflexivity.
  - intros v E Hv. unfold rgi_add_coord.
    replace (length (r_grids o) =? dim) with false by (symmetry; apply Nat.eqb_neq; lia).
    destruct (strictly_increasing_check v) eqn:EV; auto. apply sic_iff in EV. contradiction.
  - intros a E. unfold rgi_add_var.
    replace (length (r_grids o) =? dim) with false by (symmetry; apply Nat.eqb_neq; lia). reflexivity.
  - intros a E Hne F. unfold rgi_add_var. rewrite E, Nat.eqb_refl. rewrite <- E.
    rewrite build_ok by auto. eexists. split; reflexivity.
  - intros a E Hne F. unfold rgi_add_var. rewrite E, Nat.eqb_refl.
    unfold rgi_build. cbn [r_grids r_data r_ip r_limits]. rewrite <- E, firstn_all, Nat.eqb_refl.
    rewrite (proj2 (forallb_nonempty _) Hne). simpl. rewrite prodn_count.
    destruct (Nat.eqb_spec (length (nd_flat a)) (count (map (length (A:=R)) (r_grids o)))) as [EN|EN].
    + exfalso. apply F. exact EN.
    + eexists. reflexivity.
Qed.

(** Copies. *)
Lemma copy_lemma : forall bm dim h o,
  rgi_run dim (rgi_new dim) h = Ok o ->
  (exists p v, length p = dim /\ rgi_interp bm o p false = Ok v) ->
  forall target, exists o', rgi_assign dim target o = (o', Ok tt) /\
    rgi_copy dim o = (o', Ok tt) /\
    (forall p bc, rgi_interp bm o' p bc = rgi_interp bm o p bc) /\
    (forall i, rgi_coord dim o' i = rgi_coord dim o i) /\
    (forall idx, rgi_at bm o' idx = rgi_at bm o idx).
Proof.
  intros bm dim h o H (p & v & Hp & Hv) target. destruct (run_inv dim h o H) as (R1 & L1 & I1 & V1).
  assert (EI : r_ip o = IpLive).
  { unfold rgi_interp in Hv. simpl in Hv. destruct (r_ip o); auto; discriminate. }
  rewrite EI in I1. destruct I1 as (F & L & Lim). destruct V1 as [V1 V2].
  { destruct L as (pre & post & -> & _). exists (r_data o). apply in_or_app. right; left; auto. }
  unfold rgi_copy, rgi_assign. rewrite <- V1. rewrite !build_ok by auto.
  eexists. split; [reflexivity|]. split; [reflexivity|]. repeat split.
  intros q bc. unfold rgi_interp. simpl. rewrite EI, Lim. reflexivity.
Qed.

Lemma copy_incomplete_lemma : forall dim h o,
  rgi_run dim (rgi_new dim) h = Ok o -> (exists axes, registered h axes /\ length axes < dim) ->
  snd (rgi_copy dim o) = UB /\ forall target, snd (rgi_assign dim target o) = UB.
Proof.
  intros dim h o H (axes & HR & HL). destruct (run_inv dim h o H) as (R1 & L1 & _ & _).
  rewrite <- (registered_fun _ _ _ R1 HR) in HL.
  assert (G : forall target, snd (rgi_assign dim target o) = UB).
  { intros t. unfold rgi_assign, rgi_build. cbn [r_grids].
    replace (length (firstn dim (r_grids o)) =? dim) with false; [reflexivity|].
    symmetry. apply Nat.eqb_neq. rewrite firstn_length. lia. }
  split; auto. apply G.
Qed.

(** A grid with all its axes but no data is copied to an exception, not to a
    usable object. *)
Lemma copy_no_data_lemma : forall dim h o axes,
  rgi_run dim (rgi_new dim) h = Ok o -> (forall a, ~ In (RAddVar a) h) ->
  registered h axes -> length axes = dim -> Forall (fun g => g <> []) axes ->
  snd (rgi_copy dim o) = Throw InvalidArgument.
Proof.
  intros dim h o axes H NV HR HL Hne. destruct (run_inv dim h o H) as (R1 & L1 & I1 & _).
  rewrite <- (registered_fun _ _ _ R1 HR) in *.
  assert (D : nd_flat (r_data o) = []).
  { clear - H NV. revert o H NV. induction h as [|op h IH] using rev_ind; intros o H NV.
    - injection H as <-. reflexivity.
    - rewrite run_app in H. apply bind_ok in H as (o1 & H1 & H).
      assert (NV' : forall a, ~ In (RAddVar a) h) by (intros a Ha; eapply NV; apply in_or_app; eauto).
      specialize (IH o1 H1 NV'). destruct op as [v|a].
      + simpl in H. unfold rgi_add_coord in H. destruct (length (r_grids o1) =? dim); [discriminate|].
        destruct (strictly_increasing_check v); injection H as <-; auto.
      + exfalso. eapply NV. apply in_or_app. right; left; reflexivity. }
  unfold rgi_copy, rgi_assign, rgi_build. cbn [r_grids r_data]. rewrite <- HL, firstn_all, Nat.eqb_refl.
  rewrite (proj2 (forallb_nonempty _) Hne). simpl. rewrite D. simpl length. rewrite prodn_count.
  assert (0 < count (map (length (A:=R)) (r_grids o))).
  { clear - Hne. induction Hne as [|g gs Hg H IH]; simpl; [lia|].
    destruct g; [congruence|]. simpl. lia. }
  destruct (Nat.eqb_spec 0 (count (map (length (A:=R)) (r_grids o)))); [lia|reflexivity].
Qed.
