(** Lemmas about the lookup table models.  Everything here is for arbitrary
    scalar types, no algebraic law is used. *)
From Coq Require Import List Arith Lia Bool Permutation.
From Coq Require String.
From Verif Require Import Outcome Num StdAlgo M_Interp1d M_Interp2d M_Lookup S_Lookup.
Import ListNotations.

Notation keys m := (map fst (m : smap)).

Lemma sfind_app m k k' i :
  sfind (m ++ [(k', i)]) k =
  match sfind m k with Some j => Some j | None => if String.eqb k k' then Some i else None end.
Proof.
  induction m as [|[a j] m IH]; simpl.
  - reflexivity.
  - destruct (String.eqb k a); auto.
Qed.

Lemma sfind_none m k : sfind m k = None <-> ~ In k (keys m).
Proof.
  induction m as [|[a j] m IH]; simpl; [tauto|].
  destruct (String.eqb_spec k a) as [->|Hne].
  - split; [discriminate|intros H; exfalso; apply H; auto].
  - rewrite IH. split; [intros H [?|?]; [congruence|tauto]|tauto].
Qed.

Lemma sfind_some_in m k i : sfind m k = Some i -> In (k, i) m.
Proof.
  induction m as [|[a j] m IH]; simpl; [discriminate|].
  destruct (String.eqb_spec k a) as [->|Hne]; intros H; [injection H as ->; auto|auto].
Qed.

Lemma sfind_in m k i : NoDup (keys m) -> In (k, i) m -> sfind m k = Some i.
Proof.
  induction m as [|[a j] m IH]; simpl; intros Hnd Hin; [destruct Hin|].
  inversion Hnd as [|? ? Hni Hnd']; subst.
  destruct Hin as [Heq|Hin].
  - injection Heq as -> ->. rewrite String.eqb_refl. reflexivity.
  - destruct (String.eqb_spec k a) as [->|Hne]; auto.
    exfalso. apply Hni. apply in_map_iff. exists (a, i). auto.
Qed.

(** Association with consecutive indices, as left by calls that all succeeded. *)
Definition wf_assoc (m : smap) (n : nat) : Prop :=
  NoDup (keys m) /\ map snd m = seq 0 n.

Lemma wf_length m n : wf_assoc m n -> length m = n.
Proof. intros [_ H]. rewrite <- (map_length snd), H, seq_length. reflexivity. Qed.

Lemma wf_bound m n k i : wf_assoc m n -> sfind m k = Some i -> i < n.
Proof.
  intros [_ H] Hf. apply sfind_some_in in Hf. apply (in_map snd) in Hf. rewrite H in Hf.
  apply in_seq in Hf. simpl in Hf. lia.
Qed.

Lemma wf_snoc m n k : wf_assoc m n -> sfind m k = None -> wf_assoc (m ++ [(k, n)]) (S n).
Proof.
  intros [H1 H2] Hk. split.
  - rewrite map_app. simpl. apply sfind_none in Hk.
    apply (Permutation_NoDup (l := k :: keys m)).
    + apply Permutation_cons_append.
    + constructor; auto.
  - rewrite map_app, H2, seq_S. reflexivity.
Qed.

Lemma wf_nil : wf_assoc [] 0.
Proof. split; [constructor|reflexivity]. Qed.

(** ** LookupTable1D *)
Section Lut1.
Context {T V : Type} `{NT : Num T} `{VT : VNum T V}.

Definition wf1 (t : lut1 T V) : Prop :=
  wf_assoc (l_assoc t) (length (l_interps t)) /\ length (l_y t) = length (l_interps t).

Lemma wf1_new m : wf1 (lut1_new m).
Proof. split; [exact wf_nil|reflexivity]. Qed.

Lemma add_y_ok bm (t t' : lut1 T V) name ys b :
  wf1 t -> lut1_add_y bm t name ys = (t', Ok b) ->
  wf1 t' /\ l_method t' = l_method t /\ l_x t' = l_x t /\
  (sfind (l_assoc t) name = None <-> b = true) /\
  (b = false -> t' = t) /\
  (b = true -> exists m xs o, l_method t = Some m /\ l_x t = Some xs /\ new1d bm m xs ys = Ok o /\
     l_assoc t' = l_assoc t ++ [(name, length (l_interps t))] /\
     l_interps t' = l_interps t ++ [o] /\ l_y t' = l_y t ++ [ys]).
Proof.
  intros [Hwf Hlen] H. unfold lut1_add_y, sinsert, lut1_nb_series in H.
  destruct (sfind (l_assoc t) name) as [i|] eqn:Ef.
  - injection H as <- <-. split; [split; auto|]. repeat split; auto; discriminate.
  - destruct (l_method t) as [m|] eqn:Em; [|discriminate].
    destruct (make1d m) as [o|e|c| |] eqn:Ek; try discriminate.
    destruct (l_x t) as [xs|] eqn:Ex.
    2:{ exfalso. unfold init1d, init_base in H. discriminate. }
    destruct (init1d bm o (Some xs) (Some ys)) as [o' r] eqn:Ei.
    destruct r as [u|e|c| |]; try discriminate.
    injection H as <- <-.
    split; [split|].
    + cbn [l_assoc l_interps]. rewrite app_length. simpl.
      replace (length (l_interps t) + 1) with (S (length (l_interps t))) by lia.
      rewrite Hlen. apply wf_snoc; auto.
    + cbn [l_y l_interps]. rewrite !app_length, Hlen. reflexivity.
    + cbn [l_method l_x l_assoc l_interps l_y]. repeat split; auto; try discriminate.
      intros _. exists m, xs, o'. repeat split; auto.
      * unfold new1d. rewrite Ek. simpl. rewrite Ei. reflexivity.
      * rewrite Hlen. reflexivity.
Qed.

Lemma interp_snoc (t t' : lut1 T V) name o k :
  wf1 t -> l_assoc t' = l_assoc t ++ [(name, length (l_interps t))] ->
  l_interps t' = l_interps t ++ [o] -> sfind (l_assoc t) name = None ->
  lut1_interp t' k = if String.string_dec k name then Ok o else lut1_interp t k.
Proof.
  intros [Hwf Hlen] Ha Hi Hn. unfold lut1_interp, sat. rewrite Ha, sfind_app.
  destruct (String.string_dec k name) as [->|Hne].
  - rewrite Hn, String.eqb_refl. simpl. unfold vat.
    rewrite Hi, nth_error_app2 by lia. rewrite Nat.sub_diag. reflexivity.
  - destruct (sfind (l_assoc t) k) as [i|] eqn:Ef.
    + simpl. unfold vat. rewrite Hi, nth_error_app1; auto. eapply wf_bound; eauto.
    + apply String.eqb_neq in Hne. rewrite Hne. reflexivity.
Qed.

Lemma interp_absent (t : lut1 T V) name :
  sfind (l_assoc t) name = None -> lut1_interp t name = Throw OutOfRange.
Proof. intros H. unfold lut1_interp, sat. rewrite H. reflexivity. Qed.

Definition built bm m (r : option (option (list T) * list V)) : outcome (interp1d T V) :=
  match r with
  | None => Throw OutOfRange
  | Some (None, _) => UB
  | Some (Some xs, ys) => new1d bm m xs ys
  end.

Lemma run_lemma bm m ops : forall t t' : lut1 T V,
  wf1 t -> l_method t = Some m -> lut1_run bm t ops = Ok t' ->
  wf1 t' /\ l_method t' = Some m /\
  (forall name, lut1_interp t' name =
     match sfind (l_assoc t) name with
     | Some _ => lut1_interp t name
     | None => built bm m (registered1 (l_x t) ops name)
     end) /\
  (forall name, In name (keys (l_assoc t')) <-> In name (keys (l_assoc t)) \/ In name (names1 ops)) /\
  (forall name, registered1 (l_x t) ops name = None <-> ~ In name (names1 ops)) /\
  (forall name ys, sfind (l_assoc t) name = None -> registered1 (l_x t) ops name <> Some (None, ys)).
Proof.
  induction ops as [|op ops IH]; intros t t' Hwf Hm H; simpl in H.
  - injection H as <-. split; auto. split; auto. split; [|split; [|split]].
    + intros name. destruct (sfind (l_assoc t) name) eqn:Ef; auto.
      simpl. apply interp_absent; auto.
    + intros name. simpl. tauto.
    + simpl. intros. tauto.
    + simpl. discriminate.
  - apply bind_ok in H as (t1 & Hs & H). destruct op as [xs|name ys].
    + simpl in Hs. injection Hs as <-. exact (IH (lut1_set_x t xs) t' Hwf Hm H).
    + simpl in Hs. destruct (lut1_add_y bm t name ys) as [t2 r] eqn:Ea.
      destruct r as [b|e|c| |]; try discriminate. injection Hs as <-.
      destruct (add_y_ok bm t t2 name ys b Hwf Ea) as (Hwf2 & Hm2 & Hx2 & Hb & Hf & Ht).
      destruct (IH t2 t' Hwf2 ltac:(congruence) H) as (H1 & H2 & H3 & H4 & H5 & H6).
      split; auto. split; auto.
      destruct b.
      * destruct (Ht eq_refl) as (m' & xs & o & Em & Ex & En & Ea' & Ei' & Ey').
        assert (m' = m) by congruence. subst m'.
        assert (Hn : sfind (l_assoc t) name = None) by (apply Hb; auto).
        split; [|split; [|split]].
        -- intros k. rewrite H3, (interp_snoc t t2 name o k) by auto.
           rewrite Ea', sfind_app. simpl. rewrite Hx2.
           destruct (String.string_dec k name) as [->|Hne].
           ++ rewrite Hn, String.eqb_refl. rewrite Ex. simpl. symmetry. exact En.
           ++ apply String.eqb_neq in Hne. rewrite Hne.
              destruct (sfind (l_assoc t) k); auto.
        -- intros k. rewrite H4, Ea', map_app, in_app_iff. simpl. tauto.
        -- intros k. simpl. rewrite <- Hx2. destruct (String.string_dec k name) as [->|Hne].
           ++ split; [discriminate|intros Hni; exfalso; apply Hni; auto].
           ++ rewrite H5. split; intros Hx Hy; apply Hx; auto. destruct Hy; auto. congruence.
        -- intros k ys' Hk. simpl. destruct (String.string_dec k name) as [->|Hne].
           ++ rewrite Ex. discriminate.
           ++ rewrite <- Hx2. apply H6. rewrite Ea', sfind_app, Hk.
              apply String.eqb_neq in Hne. rewrite Hne. reflexivity.
      * rewrite (Hf eq_refl) in *.
        assert (Hn : sfind (l_assoc t) name <> None) by (intros E; apply Hb in E; discriminate).
        split; [|split; [|split]].
        -- intros k. rewrite H3. destruct (sfind (l_assoc t) k) eqn:Ek; auto.
           simpl. destruct (String.string_dec k name) as [->|Hne]; [congruence|auto].
        -- intros k. rewrite H4. simpl.
           assert (In name (keys (l_assoc t))).
           { destruct (in_dec String.string_dec name (keys (l_assoc t))); auto.
             apply sfind_none in n. congruence. }
           split; [tauto|]. intros [?|[<-|?]]; auto.
        -- intros k. simpl. destruct (String.string_dec k name) as [->|Hne].
           ++ split; [discriminate|intros Hni; exfalso; apply Hni; auto].
           ++ rewrite H5. split; intros Hx Hy; apply Hx; auto. destruct Hy; auto. congruence.
        -- intros k ys' Hk. simpl. destruct (String.string_dec k name) as [->|Hne]; [congruence|auto].
Qed.

Lemma run_new bm m ops (t : lut1 T V) : lut1_run bm (lut1_new m) ops = Ok t ->
  wf1 t /\ l_method t = Some m /\
  (forall name, lut1_interp t name = built bm m (registered1 None ops name)) /\
  (forall name, In name (keys (l_assoc t)) <-> In name (names1 ops)) /\
  (forall name, registered1 None ops name = None <-> ~ In name (names1 ops)) /\
  (forall name ys, registered1 None ops name <> Some (None, ys)).
Proof.
  intros H. destruct (run_lemma bm m ops _ _ (wf1_new m) eq_refl H) as (H1 & H2 & H3 & H4 & H5 & H6).
  split; auto. split; auto. split; [exact H3|]. split; [|split; auto].
  intros name. rewrite H4. simpl. tauto.
Qed.

(** C17 *)
Lemma map_eval_lemma bm m ops (t : lut1 T V) : lut1_run bm (lut1_new m) ops = Ok t ->
  (forall name, match registered1 None ops name with
     | Some (Some xs, ys) => exists o, new1d bm m xs ys = Ok o /\
         (forall x, lut1_eval t name x = eval1d o x) /\
         (forall xv, lut1_eval_vec t name xv = eval1d_vec o xv) /\
         lut1_xmin t name = vat xs 0 /\ lut1_xmax t name = vat xs (length xs - 1)
     | Some (None, _) => False
     | None => (forall x, lut1_eval t name x = Throw OutOfRange) /\
         (forall xv, lut1_eval_vec t name xv = Throw OutOfRange) /\
         lut1_xmin t name = Throw OutOfRange /\ lut1_xmax t name = Throw OutOfRange
     end) /\
  lut1_nb_series t = length (nodup String.string_dec (names1 ops)).
Proof.
  intros H. destruct (run_new bm m ops t H) as ([Hwf Hlen] & H2 & H3 & H4 & H5 & H6). split.
  - intros name. specialize (H3 name). destruct (registered1 None ops name) as [[[xs|] ys]|] eqn:Er.
    + simpl in H3. destruct (new1d bm m xs ys) as [o|e|c| |] eqn:En.
      * exists o. split; auto. unfold lut1_eval, lut1_eval_vec, lut1_xmin, lut1_xmax. rewrite H3. simpl.
        split; auto. split; auto.
        unfold new1d in En. apply bind_ok in En as (o0 & Ek & En).
        unfold init1d, init_base in En.
        destruct (let* _ := cassert bm (length xs =? length ys) in cassert bm (is_sorted xs)) as [u|e|c| |];
          try discriminate.
        destruct (vat xs 0) as [a|e|c| |]; try discriminate.
        destruct (vat xs (length xs - 1)) as [b|e|c| |]; try discriminate. simpl in En.
        match type of En with match (let '(_, _) := ?q in _) with _ => _ end = _ => destruct q as [[a' b'] r'] end.
        destruct r'; try discriminate. injection En as <-. auto.
      * exfalso. revert H3. unfold lut1_interp, sat. 
        destruct (sfind (l_assoc t) name) as [i|] eqn:Ef.
        -- simpl. unfold vat. pose proof (wf_bound _ _ _ _ Hwf Ef) as Hb.
           apply nth_error_Some in Hb. destruct (nth_error (l_interps t) i); [discriminate|congruence].
        -- intros _. apply sfind_none in Ef. apply Ef. apply H4.
           destruct (in_dec String.string_dec name (names1 ops)) as [|Hni]; auto.
           apply H5 in Hni. congruence.
      * exfalso. revert H3. unfold lut1_interp, sat, vat.
        destruct (sfind (l_assoc t) name) as [i|]; simpl; [|discriminate].
        destruct (nth_error (l_interps t) i); discriminate.
      * exfalso. revert H3. unfold lut1_interp, sat, vat.
        destruct (sfind (l_assoc t) name) as [i|]; simpl; [|discriminate].
        destruct (nth_error (l_interps t) i); discriminate.
      * exfalso. revert H3. unfold lut1_interp, sat, vat.
        destruct (sfind (l_assoc t) name) as [i|]; simpl; [|discriminate].
        destruct (nth_error (l_interps t) i); discriminate.
    + apply (H6 name ys Er).
    + simpl in H3. unfold lut1_eval, lut1_eval_vec, lut1_xmin, lut1_xmax. rewrite H3. simpl. auto.
  - unfold lut1_nb_series. rewrite Hlen, <- (wf_length _ _ Hwf), <- (map_length fst).
    apply Permutation_length. apply NoDup_Permutation.
    + apply Hwf.
    + apply NoDup_nodup.
    + intros k. rewrite H4. symmetry. apply nodup_In.
Qed.

(** C18 *)
Lemma duplicate_lemma bm (t : lut1 T V) name ys i :
  sfind (l_assoc t) name = Some i -> lut1_add_y bm t name ys = (t, Ok false).
Proof. intros H. unfold lut1_add_y, sinsert. rewrite H. reflexivity. Qed.

Lemma add_lemma bm m ops (t : lut1 T V) name ys : lut1_run bm (lut1_new m) ops = Ok t ->
  (In name (names1 ops) -> lut1_add_y bm t name ys = (t, Ok false)) /\
  (~ In name (names1 ops) -> forall t' b, lut1_add_y bm t name ys = (t', Ok b) ->
     b = true /\ lut1_nb_series t' = S (lut1_nb_series t) /\
     (forall k x, k <> name -> lut1_eval t' k x = lut1_eval t k x)) /\
  (~ In name (names1 ops) -> forall xs o, l_x t = Some xs -> new1d bm m xs ys = Ok o ->
     exists t', lut1_add_y bm t name ys = (t', Ok true) /\ forall x, lut1_eval t' name x = eval1d o x).
Proof.
  intros H. destruct (run_new bm m ops t H) as (Hwf & H2 & H3 & H4 & H5 & H6).
  split; [|split].
  - intros Hin. apply H4 in Hin. destruct (sfind (l_assoc t) name) eqn:Ef.
    + eapply duplicate_lemma; eauto.
    + apply sfind_none in Ef. contradiction.
  - intros Hni t' b Ha. rewrite <- H4, <- sfind_none in Hni.
    destruct (add_y_ok bm t t' name ys b Hwf Ha) as (Hwf2 & Hm2 & Hx2 & Hb & Hf & Ht).
    assert (b = true) by (apply Hb; auto). subst b. split; auto.
    destruct (Ht eq_refl) as (m' & xs & o & Em & Ex & En & Ea' & Ei' & Ey'). split.
    + unfold lut1_nb_series. rewrite Ey', app_length. simpl. lia.
    + intros k x Hk. unfold lut1_eval. rewrite (interp_snoc t t' name o k) by auto.
      destruct (String.string_dec k name); congruence.
  - intros Hni xs o Hx Ho. rewrite <- H4, <- sfind_none in Hni.
    unfold new1d in Ho. apply bind_ok in Ho as (o0 & Ek & Ho).
    assert (Hadd : exists t', lut1_add_y bm t name ys = (t', Ok true)).
    { unfold lut1_add_y, sinsert. rewrite Hni, H2, Ek, Hx.
      destruct (init1d bm o0 (Some xs) (Some ys)) as [o' r]. destruct r; try discriminate. eauto. }
    destruct Hadd as (t' & Ha). exists t'. split; auto.
    destruct (add_y_ok bm t t' name ys true Hwf Ha) as (Hwf2 & Hm2 & Hx2 & Hb & Hf & Ht).
    destruct (Ht eq_refl) as (m' & xs' & o' & Em & Ex & En & Ea' & Ei' & Ey').
    intros x. unfold lut1_eval. rewrite (interp_snoc t t' name o' name) by auto.
    destruct (String.string_dec name name); [|congruence]. simpl.
    assert (o' = o); [|congruence].
    assert (m' = m) by congruence. assert (xs' = xs) by congruence. subst m' xs'.
    unfold new1d in En. rewrite Ek in En. simpl in En.
    destruct (init1d bm o0 (Some xs) (Some ys)) as [o2 r]. destruct r; try discriminate. congruence.
Qed.

(** C19 *)
Lemma set_x_lemma (t : lut1 T V) xs :
  (forall name x, lut1_eval (lut1_set_x t xs) name x = lut1_eval t name x) /\
  (forall name xv, lut1_eval_vec (lut1_set_x t xs) name xv = lut1_eval_vec t name xv) /\
  (forall order x, lut1_eval_all (lut1_set_x t xs) order x = lut1_eval_all t order x) /\
  (forall name, lut1_xmin (lut1_set_x t xs) name = lut1_xmin t name /\
                lut1_xmax (lut1_set_x t xs) name = lut1_xmax t name) /\
  lut1_nb_series (lut1_set_x t xs) = lut1_nb_series t /\
  lut1_get_x (lut1_set_x t xs) = Ok xs /\ lut1_nb_sample (lut1_set_x t xs) = Ok (length xs).
Proof. repeat split; reflexivity. Qed.

(** C20 *)
Lemma add_y_fail bm (t t1 : lut1 T V) name ys (r : outcome bool) :
  lut1_add_y bm t name ys = (t1, r) -> (forall b, r <> Ok b) ->
  sfind (l_assoc t) name = None /\ l_method t1 = l_method t /\ l_x t1 = l_x t /\
  l_assoc t1 = l_assoc t ++ [(name, length (l_y t))] /\ l_y t1 = l_y t ++ [ys] /\
  l_interps t1 = l_interps t.
Proof.
  unfold lut1_add_y, sinsert, lut1_nb_series. intros H Hr.
  destruct (sfind (l_assoc t) name) as [i|] eqn:Ef.
  - injection H as <- <-. exfalso. eapply Hr. reflexivity.
  - destruct (l_method t) as [m|] eqn:Em.
    2:{ injection H as <- <-. simpl. auto 10. }
    destruct (make1d m) as [o|e|c| |] eqn:Ek.
    2-5: injection H as <- <-; simpl; auto 10.
    destruct (init1d bm o (l_x t) (Some ys)) as [o' r'] eqn:Ei.
    destruct r' as [u|e|c| |].
    1:{ injection H as <- <-. exfalso. eapply Hr. reflexivity. }
    all: injection H as <- <-; simpl; auto 10.
Qed.

Lemma add_y_true_any bm (t t' : lut1 T V) name ys :
  lut1_add_y bm t name ys = (t', Ok true) ->
  exists m xs o, l_method t = Some m /\ l_x t = Some xs /\ new1d bm m xs ys = Ok o /\
     sfind (l_assoc t) name = None /\
     l_assoc t' = l_assoc t ++ [(name, length (l_y t))] /\
     l_interps t' = l_interps t ++ [o].
Proof.
  intros H. unfold lut1_add_y, sinsert, lut1_nb_series in H.
  destruct (sfind (l_assoc t) name) as [i|] eqn:Ef; [discriminate|].
  destruct (l_method t) as [m|] eqn:Em; [|discriminate].
  destruct (make1d m) as [o|e|c| |] eqn:Ek; try discriminate.
  destruct (l_x t) as [xs|] eqn:Ex.
  2:{ exfalso. unfold init1d, init_base in H. discriminate. }
  destruct (init1d bm o (Some xs) (Some ys)) as [o' r] eqn:Ei.
  destruct r as [u|e|c| |]; try discriminate. injection H as <-.
  exists m, xs, o'. simpl. repeat split; auto.
  unfold new1d. rewrite Ek. simpl. rewrite Ei. reflexivity.
Qed.

Lemma failed_add_lemma bm m ops (t t1 t2 : lut1 T V) n1 ys1 n2 ys2 e :
  lut1_run bm (lut1_new m) ops = Ok t ->
  lut1_add_y bm t n1 ys1 = (t1, Throw e) ->
  (forall x, lut1_eval t1 n1 x = Throw OutOfRange) /\
  (forall ys, lut1_add_y bm t1 n1 ys = (t1, Ok false)) /\
  lut1_nb_series t1 = S (lut1_nb_series t) /\
  (lut1_add_y bm t1 n2 ys2 = (t2, Ok true) ->
   exists xs o, l_x t = Some xs /\ new1d bm m xs ys2 = Ok o /\
     (forall x, lut1_eval t2 n1 x = eval1d o x) /\
     (forall x, lut1_eval t2 n2 x = Throw OutOfRange)).
Proof.
  intros H Ha. destruct (run_new bm m ops t H) as ([Hwf Hlen] & H2 & _).
  destruct (add_y_fail bm t t1 n1 ys1 _ Ha ltac:(discriminate)) as (Hn & Em & Ex & Ea & Ey & Ei).
  assert (Hf1 : sfind (l_assoc t1) n1 = Some (length (l_y t))).
  { rewrite Ea, sfind_app, Hn, String.eqb_refl. reflexivity. }
  split; [|split; [|split]].
  - intros x. unfold lut1_eval, lut1_interp, sat. rewrite Hf1. simpl.
    rewrite vat_ge; [reflexivity|]. rewrite Ei. lia.
  - intros ys. eapply duplicate_lemma; eauto.
  - unfold lut1_nb_series. rewrite Ey, app_length. simpl. lia.
  - intros Hb. destruct (add_y_true_any bm t1 t2 n2 ys2 Hb) as (m' & xs & o & Em2 & Ex2 & En & Hn2 & Ea2 & Ei2).
    exists xs, o. assert (m' = m) by congruence. subst m'.
    split; [congruence|]. split; auto. split.
    + intros x. unfold lut1_eval, lut1_interp, sat. rewrite Ea2, sfind_app, Hf1. simpl.
      unfold vat. rewrite Ei2, Ei, nth_error_app2 by lia. rewrite Hlen, Nat.sub_diag. reflexivity.
    + intros x. unfold lut1_eval, lut1_interp, sat. rewrite Ea2, sfind_app, Hn2, String.eqb_refl. simpl.
      rewrite vat_ge; [reflexivity|]. rewrite Ei2, Ei, app_length, Ey, app_length. simpl. lia.
Qed.

(** C21 *)
Lemma move_assign_lemma bm (dst src : lut1 T V) :
  (forall name x, lut1_eval (lut1_move_assign dst src) name x = lut1_eval src name x) /\
  lut1_nb_series (lut1_move_assign dst src) = lut1_nb_series src /\
  lut1_get_x (lut1_move_assign dst src) = lut1_get_x src /\
  (wf1 src -> forall name ys t', lut1_add_y bm (lut1_move_assign dst src) name ys = (t', Ok true) ->
     exists m xs o, l_method dst = Some m /\ l_x src = Some xs /\ new1d bm m xs ys = Ok o /\
       forall x, lut1_eval t' name x = eval1d o x).
Proof.
  split; [reflexivity|]. split; [reflexivity|]. split; [reflexivity|].
  intros Hwf name ys t' Ha.
  assert (Hwf' : wf1 (lut1_move_assign dst src)) by exact Hwf.
  destruct (add_y_ok bm _ t' name ys true Hwf' Ha) as (_ & _ & _ & Hb & _ & Ht).
  destruct (Ht eq_refl) as (m' & xs & o & Em & Ex & En & Ea' & Ei' & _).
  exists m', xs, o. split; auto. split; auto. split; auto.
  intros x. unfold lut1_eval. rewrite (interp_snoc _ t' name o name Hwf' Ea' Ei' (proj2 Hb eq_refl)).
  destruct (String.string_dec name name); [reflexivity|congruence].
Qed.

Lemma move_ctor_lemma bm (src : lut1 T V) :
  (forall name x, lut1_eval (lut1_move_ctor src) name x = lut1_eval src name x) /\
  (forall name ys, sfind (l_assoc src) name = None ->
     snd (lut1_add_y bm (lut1_move_ctor src) name ys) = UB).
Proof.
  split; [reflexivity|]. intros name ys Hn. unfold lut1_add_y, sinsert. simpl. rewrite Hn. reflexivity.
Qed.

Lemma move_assign_reach_lemma bm m ops (dst src : lut1 T V) : lut1_run bm (lut1_new m) ops = Ok src ->
  (forall name x, lut1_eval (lut1_move_assign dst src) name x = lut1_eval src name x) /\
  lut1_nb_series (lut1_move_assign dst src) = lut1_nb_series src /\
  lut1_get_x (lut1_move_assign dst src) = lut1_get_x src /\
  (forall name ys t', lut1_add_y bm (lut1_move_assign dst src) name ys = (t', Ok true) ->
     exists m' xs o, l_method dst = Some m' /\ l_x src = Some xs /\ new1d bm m' xs ys = Ok o /\
       forall x, lut1_eval t' name x = eval1d o x).
Proof.
  intros H. destruct (run_new bm m ops src H) as (Hwf & _).
  destruct (move_assign_lemma bm dst src) as (H1 & H2 & H3 & H4). auto.
Qed.

Lemma move_ctor_reach_lemma bm m ops (src : lut1 T V) : lut1_run bm (lut1_new m) ops = Ok src ->
  (forall name x, lut1_eval (lut1_move_ctor src) name x = lut1_eval src name x) /\
  (forall name ys, ~ In name (names1 ops) ->
     snd (lut1_add_y bm (lut1_move_ctor src) name ys) = UB).
Proof.
  intros H. destruct (run_new bm m ops src H) as (_ & _ & _ & H4 & _).
  destruct (move_ctor_lemma bm src) as (H1 & H2). split; auto.
  intros name ys Hni. apply H2. apply sfind_none. rewrite H4. exact Hni.
Qed.

(** C22 *)
Lemma eval_all_lemma bm m ops (t : lut1 T V) order x :
  lut1_run bm (lut1_new m) ops = Ok t -> Permutation order (l_assoc t) ->
  (forall name, In name (names1 ops) -> exists v, lut1_eval t name x = Ok v) ->
  exists out, lut1_eval_all t order x = Ok out /\
    NoDup (map fst out) /\
    (forall name, In name (map fst out) <-> In name (names1 ops)) /\
    (forall name v, In (name, v) out <-> lut1_eval t name x = Ok v).
Proof.
  intros H Hp Hall. destruct (run_new bm m ops t H) as ([Hwf Hlen] & H2 & H3 & H4 & H5 & H6).
  assert (Hev : forall name i, In (name, i) (l_assoc t) -> exists o v,
     vidx (l_interps t) i = Ok o /\ eval1d o x = Ok v /\ lut1_eval t name x = Ok v).
  { intros name i Hin. assert (Hf := sfind_in _ _ _ (proj1 Hwf) Hin).
    assert (Hb := wf_bound _ _ _ _ Hwf Hf).
    destruct (Hall name) as (v & Hv).
    { apply H4. apply in_map_iff. exists (name, i). auto. }
    unfold lut1_eval, lut1_interp, sat in *. rewrite Hf in *. simpl in *.
    unfold vat, vidx in *. destruct (nth_error (l_interps t) i) as [o|] eqn:Eo.
    - exists o, v. simpl in *. auto.
    - apply nth_error_None in Eo. lia. }
  assert (Hinc : forall e, In e order -> In e (l_assoc t)).
  { intros e. apply Permutation_in; auto. }
  clear H5 H6.
  assert (Hout : exists out, lut1_eval_all t order x = Ok out /\ map fst out = map fst order /\
     forall name v, In (name, v) out -> lut1_eval t name x = Ok v).
  { clear Hp. unfold lut1_eval_all. induction order as [|[k i] order IH].
    - exists []. simpl. repeat split; auto. intros ? ? [].
    - destruct IH as (out & Ho & Hm & Hl). { intros e He. apply Hinc. right. auto. }
      destruct (Hev k i (Hinc _ (or_introl eq_refl))) as (o & v & Hi & Hv & Hl1).
      exists ((k, v) :: out). simpl. rewrite Hi. simpl. rewrite Hv. simpl. rewrite Ho. simpl.
      split; auto. split; [congruence|].
      intros name v' [Heq|Hin]; [injection Heq as -> ->; auto|auto]. }
  destruct Hout as (out & Ho & Hm & Hl). exists out. split; auto.
  assert (Hk : forall name, In name (map fst out) <-> In name (names1 ops)).
  { intros name. rewrite Hm, <- H4. split; apply Permutation_in; [|symmetry]; apply Permutation_map; auto. }
  split; [|split]; auto.
  - rewrite Hm. eapply Permutation_NoDup; [apply Permutation_map; symmetry; exact Hp|apply Hwf].
  - intros name v. split; [apply Hl|]. intros Hv.
    assert (Hin : In name (map fst out)).
    { apply Hk. destruct (in_dec String.string_dec name (names1 ops)) as [|Hni]; auto.
      rewrite <- H4, <- sfind_none in Hni. unfold lut1_eval in Hv. rewrite interp_absent in Hv; auto. discriminate. }
    apply in_map_iff in Hin as ([k v'] & Hk' & Hin). simpl in Hk'. subst k.
    rewrite (Hl _ _ Hin) in Hv. injection Hv as ->. exact Hin.
Qed.

(** After a failed AddY the all-series evaluation reads out of bounds. *)
Lemma eval_all_failed_lemma bm m ops (t t1 : lut1 T V) n1 ys1 e order x :
  lut1_run bm (lut1_new m) ops = Ok t ->
  lut1_add_y bm t n1 ys1 = (t1, Throw e) -> Permutation order (l_assoc t1) ->
  (forall name, In name (names1 ops) -> exists v, lut1_eval t name x = Ok v) ->
  lut1_eval_all t1 order x = UB.
Proof.
  intros H Ha Hp Hall. destruct (run_new bm m ops t H) as ([Hwf Hlen] & H2 & H3 & H4 & _ & _).
  destruct (add_y_fail bm t t1 n1 ys1 _ Ha ltac:(discriminate)) as (Hn & Em & Ex & Ea & Ey & Ei).
  assert (Hin : In (n1, length (l_y t)) order).
  { eapply Permutation_in; [symmetry; exact Hp|]. rewrite Ea. apply in_or_app. right. left. reflexivity. }
  assert (Hinc : forall e, In e order -> In e (l_assoc t1)).
  { intros e0. apply Permutation_in; auto. }
  clear Hp. unfold lut1_eval_all. induction order as [|[k i] order IH]; [destruct Hin|].
  simpl. destruct (Nat.lt_ge_cases i (length (l_interps t))) as [Hi|Hi].
  - assert (Hke : In (k, i) (l_assoc t)).
    { specialize (Hinc _ (or_introl eq_refl)). rewrite Ea in Hinc. apply in_app_iff in Hinc as [|[Heq|[]]]; auto.
      injection Heq as _ Heq. lia. }
    assert (Hf := sfind_in _ _ _ (proj1 Hwf) Hke).
    destruct (Hall k) as (v & Hv). { apply H4. apply in_map_iff. exists (k, i). auto. }
    unfold lut1_eval, lut1_interp, sat in Hv. rewrite Hf in Hv. simpl in Hv.
    unfold vat in Hv. destruct (nth_error (l_interps t) i) as [o|] eqn:Eo; [|discriminate].
    assert (Hvi : vidx (l_interps t1) i = Ok o) by (unfold vidx; rewrite Ei, Eo; reflexivity).
    rewrite Hvi. simpl in *. rewrite Hv. simpl. destruct Hin as [Heq|Hin]; [injection Heq as -> ->; lia|].
    rewrite IH; auto.
  - rewrite vidx_ge by (rewrite Ei; lia). reflexivity.
Qed.

End Lut1.

(** ** LookupTable2d *)
Section Lut2.
Context {T : Type} `{NT : Num T}.

Definition wf2 (t : lut2 T) : Prop :=
  wf_assoc (k_assoc t) (length (k_interps t)) /\ length (k_data t) = length (k_interps t).

Lemma wf2_new : wf2 lut2_new.
Proof. split; [exact wf_nil|reflexivity]. Qed.

Lemma init2d_needs bm (o o' : interp2d T) x y d :
  init2d bm o x y d = (o', Ok tt) -> exists xs ys, x = Some xs /\ y = Some ys.
Proof.
  unfold init2d, init_base2. destruct x; [|discriminate]. destruct y; [|discriminate]. eauto.
Qed.

Lemma add2_true bm (t t' : lut2 T) name d :
  lut2_add bm t name d = (t', Ok true) ->
  exists xs ys o, k_x t = Some xs /\ k_y t = Some ys /\ new2d bm (k_method t) xs ys d = Ok o /\
     sfind (k_assoc t) name = None /\
     k_assoc t' = k_assoc t ++ [(name, length (k_data t))] /\
     k_interps t' = k_interps t ++ [o] /\ k_data t' = k_data t ++ [d] /\
     k_method t' = k_method t /\ k_x t' = k_x t /\ k_y t' = k_y t.
Proof.
  intros H. unfold lut2_add, sinsert, lut2_nb_series in H.
  destruct (sfind (k_assoc t) name) as [i|] eqn:Ef; [discriminate|].
  destruct (make2d (k_method t)) as [o|e|c| |] eqn:Ek; try discriminate.
  destruct (init2d bm o (k_x t) (k_y t) (Some d)) as [o' r] eqn:Ei.
  destruct r as [[]|e|c| |]; try discriminate. injection H as <-.
  destruct (init2d_needs _ _ _ _ _ _ Ei) as (xs & ys & Ex & Ey).
  exists xs, ys, o'. simpl. repeat split; auto.
  unfold new2d. rewrite Ek. simpl. rewrite <- Ex, <- Ey, Ei. reflexivity.
Qed.

Lemma add2_cases bm (t t' : lut2 T) name d b :
  lut2_add bm t name d = (t', Ok b) ->
  (b = false /\ t' = t /\ sfind (k_assoc t) name <> None) \/ (b = true /\ lut2_add bm t name d = (t', Ok true)).
Proof.
  intros H. destruct b; [right; auto|left].
  unfold lut2_add, sinsert in H. destruct (sfind (k_assoc t) name) as [i|] eqn:Ef.
  - injection H as <-. repeat split; auto. discriminate.
  - exfalso. destruct (make2d (k_method t)) as [o|e|c| |]; try discriminate.
    destruct (init2d bm o (k_x t) (k_y t) (Some d)) as [o' r].
    destruct r as [[]|e|c| |]; discriminate.
Qed.

Lemma wf2_snoc (t t' : lut2 T) name d o :
  wf2 t -> sfind (k_assoc t) name = None ->
  k_assoc t' = k_assoc t ++ [(name, length (k_data t))] ->
  k_interps t' = k_interps t ++ [o] -> k_data t' = k_data t ++ [d] -> wf2 t'.
Proof.
  intros [Hwf Hlen] Hn Ha Hi Hd. unfold wf2. rewrite Ha, Hi, Hd, !app_length, Hlen. split; auto.
  simpl. replace (length (k_interps t) + 1) with (S (length (k_interps t))) by lia.
  apply wf_snoc; auto.
Qed.

Lemma interp2_snoc (t t' : lut2 T) name o k :
  wf2 t -> k_assoc t' = k_assoc t ++ [(name, length (k_data t))] ->
  k_interps t' = k_interps t ++ [o] -> sfind (k_assoc t) name = None ->
  lut2_interp t' k = if String.string_dec k name then Ok o else lut2_interp t k.
Proof.
  intros [Hwf Hlen] Ha Hi Hn. unfold lut2_interp, sat. rewrite Ha, sfind_app.
  destruct (String.string_dec k name) as [->|Hne].
  - rewrite Hn, String.eqb_refl. simpl. unfold vat.
    rewrite Hi, nth_error_app2 by lia. rewrite Hlen, Nat.sub_diag. reflexivity.
  - destruct (sfind (k_assoc t) k) as [i|] eqn:Ef.
    + simpl. unfold vat. rewrite Hi, nth_error_app1; auto. eapply wf_bound; eauto.
    + apply String.eqb_neq in Hne. rewrite Hne. reflexivity.
Qed.

Lemma interp2_absent (t : lut2 T) name :
  sfind (k_assoc t) name = None -> lut2_interp t name = Throw OutOfRange.
Proof. intros H. unfold lut2_interp, sat. rewrite H. reflexivity. Qed.

Definition built2 bm (r : option (interp_method * option (list T) * option (list T) * list T))
  : outcome (interp2d T) :=
  match r with
  | None => Throw OutOfRange
  | Some (m, Some xs, Some ys, d) => new2d bm m xs ys d
  | Some _ => UB
  end.

Lemma run2_lemma bm ops : forall t t' : lut2 T,
  wf2 t -> lut2_run bm t ops = Ok t' ->
  wf2 t' /\
  (forall name, match sfind (k_assoc t) name with
     | Some _ => lut2_interp t' name = lut2_interp t name
     | None => match registered2 (k_method t) (k_x t) (k_y t) ops name with
               | None => lut2_interp t' name = Throw OutOfRange
               | Some (m, Some xs, Some ys, d) => exists o, new2d bm m xs ys d = Ok o /\ lut2_interp t' name = Ok o
               | Some _ => False
               end
     end) /\
  (forall name, In name (keys (k_assoc t')) <-> In name (keys (k_assoc t)) \/ In name (names2 ops)).
Proof.
  induction ops as [|op ops IH]; intros t t' Hwf H; simpl in H.
  - injection H as <-. split; auto. split.
    + intros name. simpl. destruct (sfind (k_assoc t) name) eqn:Ef; auto. apply interp2_absent; auto.
    + intros name. simpl. tauto.
  - apply bind_ok in H as (t1 & Hs & H). destruct op as [xs|ys|m|name d].
    + simpl in Hs. injection Hs as <-. exact (IH (lut2_set_x t xs) t' Hwf H).
    + simpl in Hs. injection Hs as <-. exact (IH (lut2_set_y t ys) t' Hwf H).
    + simpl in Hs. injection Hs as <-. exact (IH (lut2_set_method t m) t' Hwf H).
    + simpl in Hs. destruct (lut2_add bm t name d) as [t2 r] eqn:Ea.
      destruct r as [b|e|c| |]; try discriminate. injection Hs as <-.
      destruct (add2_cases bm t t2 name d b Ea) as [(-> & -> & Hn)|(-> & Ht)].
      * destruct (IH t t' Hwf H) as (H1 & H3 & H4). split; auto. split.
        -- intros k. specialize (H3 k). destruct (sfind (k_assoc t) k) eqn:Ek; auto.
           simpl. destruct (String.string_dec k name) as [->|Hne]; [congruence|auto].
        -- intros k. rewrite H4. simpl.
           assert (In name (keys (k_assoc t))).
           { destruct (in_dec String.string_dec name (keys (k_assoc t))); auto.
             apply sfind_none in n. congruence. }
           split; [tauto|]. intros [?|[<-|?]]; auto.
      * destruct (add2_true bm t t2 name d Ht) as (xs & ys & o & Ex & Ey & En & Hn & Ea' & Ei' & Ed' & Em & Ex' & Ey').
        assert (Hwf2 : wf2 t2) by (eapply wf2_snoc; eauto).
        destruct (IH t2 t' Hwf2 H) as (H1 & H3 & H4). split; auto. split.
        -- intros k. specialize (H3 k). rewrite Ea', sfind_app in H3.
           rewrite (interp2_snoc t t2 name o k) in H3 by auto.
           rewrite Em, Ex', Ey' in H3. simpl.
           destruct (String.string_dec k name) as [->|Hne].
           ++ rewrite Hn in *. rewrite String.eqb_refl in H3. rewrite Ex, Ey. exists o. auto.
           ++ apply String.eqb_neq in Hne. rewrite Hne in H3. destruct (sfind (k_assoc t) k); auto.
        -- intros k. rewrite H4, Ea', map_app, in_app_iff. simpl. tauto.
Qed.

(** C23 *)
Lemma map2_lemma bm ops (t : lut2 T) : lut2_run bm lut2_new ops = Ok t ->
  (forall name, match registered2 LINEAR None None ops name with
     | Some (m, Some xs, Some ys, d) => exists o, new2d bm m xs ys d = Ok o /\
         (forall x y, lut2_eval bm t name x y = eval2d bm o x y) /\
         (forall vc, lut2_eval_vec bm t name vc = eval2d_vec bm o vc)
     | Some _ => False
     | None => (forall x y, lut2_eval bm t name x y = Throw OutOfRange) /\
               (forall vc, lut2_eval_vec bm t name vc = Throw OutOfRange)
     end) /\
  (forall name, lut2_has t name = true <-> In name (names2 ops)) /\
  lut2_nb_series t = length (nodup String.string_dec (names2 ops)) /\
  (forall name d, In name (names2 ops) -> lut2_add bm t name d = (t, Ok false)) /\
  (forall name d t' b, ~ In name (names2 ops) -> lut2_add bm t name d = (t', Ok b) ->
     b = true /\ forall k x y, k <> name -> lut2_eval bm t' k x y = lut2_eval bm t k x y).
Proof.
  intros H. destruct (run2_lemma bm ops _ _ wf2_new H) as (Hwf & H3 & H4).
  assert (H4' : forall name, In name (keys (k_assoc t)) <-> In name (names2 ops)).
  { intros name. rewrite H4. simpl. tauto. }
  split; [|split; [|split; [|split]]].
  - intros name. specialize (H3 name). simpl in H3. unfold lut2_eval, lut2_eval_vec.
    destruct (registered2 LINEAR None None ops name) as [[[[m [xs|]] [ys|]] d]|]; auto.
    + destruct H3 as (o & Ho & ->). exists o. auto.
    + rewrite H3. auto.
  - intros name. unfold lut2_has. rewrite <- H4'. destruct (sfind (k_assoc t) name) eqn:Ef.
    + split; auto. intros _. apply sfind_some_in in Ef. apply in_map_iff. exists (name, n). auto.
    + split; [discriminate|]. intros Hin. apply sfind_none in Ef. contradiction.
  - unfold lut2_nb_series. destruct Hwf as [Hwf Hlen].
    rewrite Hlen, <- (wf_length _ _ Hwf), <- (map_length fst).
    apply Permutation_length. apply NoDup_Permutation.
    + apply Hwf.
    + apply NoDup_nodup.
    + intros k. rewrite H4'. symmetry. apply nodup_In.
  - intros name d Hin. apply H4' in Hin. unfold lut2_add, sinsert.
    destruct (sfind (k_assoc t) name) eqn:Ef; auto. apply sfind_none in Ef. contradiction.
  - intros name d t' b Hni Ha. rewrite <- H4', <- sfind_none in Hni.
    destruct (add2_cases bm t t' name d b Ha) as [(-> & -> & Hn)|(-> & Ht)]; [congruence|].
    split; auto. intros k x y Hk.
    destruct (add2_true bm t t' name d Ht) as (xs & ys & o & Ex & Ey & En & Hn & Ea' & Ei' & _).
    unfold lut2_eval. rewrite (interp2_snoc t t' name o k) by auto.
    destruct (String.string_dec k name); congruence.
Qed.

(** C24 *)
Lemma add2_fail bm (t t1 : lut2 T) name d (r : outcome bool) :
  lut2_add bm t name d = (t1, r) -> (forall b, r <> Ok b) ->
  sfind (k_assoc t) name = None /\ k_method t1 = k_method t /\ k_x t1 = k_x t /\ k_y t1 = k_y t /\
  k_assoc t1 = k_assoc t ++ [(name, length (k_data t))] /\ k_data t1 = k_data t ++ [d] /\
  k_interps t1 = k_interps t.
Proof.
  unfold lut2_add, sinsert, lut2_nb_series. intros H Hr.
  destruct (sfind (k_assoc t) name) as [i|] eqn:Ef.
  - injection H as <- <-. exfalso. eapply Hr. reflexivity.
  - destruct (make2d (k_method t)) as [o|e|c| |] eqn:Ek.
    2-5: injection H as <- <-; simpl; auto 10.
    destruct (init2d bm o (k_x t) (k_y t) (Some d)) as [o' r'] eqn:Ei.
    destruct r' as [u|e|c| |].
    1:{ injection H as <- <-. exfalso. eapply Hr. reflexivity. }
    all: injection H as <- <-; simpl; auto 10.
Qed.

Lemma failed_method_lemma bm (t : lut2 T) name d :
  k_method t <> LINEAR -> sfind (k_assoc t) name = None ->
  exists t1, lut2_add bm t name d = (t1, Throw CString).
Proof.
  intros Hm Hn. unfold lut2_add, sinsert. rewrite Hn. destruct (k_method t); simpl; eauto. congruence.
Qed.

Lemma failed_method_has_lemma bm (t : lut2 T) name d :
  k_method t <> LINEAR -> lut2_has t name = false ->
  exists t1, lut2_add bm t name d = (t1, Throw CString).
Proof.
  intros Hm Hh. apply failed_method_lemma; auto. unfold lut2_has in Hh.
  destruct (sfind (k_assoc t) name); [discriminate|reflexivity].
Qed.

Lemma failed_add2_lemma bm ops (t t1 : lut2 T) n1 d1 e :
  lut2_run bm lut2_new ops = Ok t -> lut2_add bm t n1 d1 = (t1, Throw e) ->
  lut2_has t n1 = false /\ lut2_has t1 n1 = true /\
  (forall x y, lut2_eval bm t1 n1 x y = Throw OutOfRange) /\
  (forall d, lut2_add bm t1 n1 d = (t1, Ok false)) /\
  (forall m n2 d2 t2, lut2_add bm (lut2_set_method t1 m) n2 d2 = (t2, Ok true) ->
     exists xs ys o, k_x t = Some xs /\ k_y t = Some ys /\ new2d bm m xs ys d2 = Ok o /\
       (forall x y, lut2_eval bm t2 n1 x y = eval2d bm o x y) /\
       (forall x y, lut2_eval bm t2 n2 x y = Throw OutOfRange)).
Proof.
  intros H Ha. destruct (run2_lemma bm ops _ _ wf2_new H) as ([Hwf Hlen] & _ & _).
  destruct (add2_fail bm t t1 n1 d1 _ Ha ltac:(discriminate)) as (Hn & Em & Ex & Ey & Ea & Ed & Ei).
  assert (Hf1 : sfind (k_assoc t1) n1 = Some (length (k_data t))).
  { rewrite Ea, sfind_app, Hn, String.eqb_refl. reflexivity. }
  split; [|split; [|split; [|split]]].
  - unfold lut2_has. rewrite Hn. reflexivity.
  - unfold lut2_has. rewrite Hf1. reflexivity.
  - intros x y. unfold lut2_eval, lut2_interp, sat. rewrite Hf1. simpl.
    rewrite vat_ge; [reflexivity|]. rewrite Ei. lia.
  - intros d. unfold lut2_add, sinsert. rewrite Hf1. reflexivity.
  - intros m n2 d2 t2 Hb.
    destruct (add2_true bm _ t2 n2 d2 Hb) as (xs & ys & o & Ex2 & Ey2 & En & Hn2 & Ea2 & Ei2 & Ed2 & _).
    simpl in Ex2, Ey2, En, Hn2, Ea2, Ei2, Ed2.
    exists xs, ys, o. split; [congruence|]. split; [congruence|]. split; auto. split.
    + intros x y. unfold lut2_eval, lut2_interp, sat. rewrite Ea2, sfind_app, Hf1. simpl.
      unfold vat. rewrite Ei2, Ei, nth_error_app2 by lia. rewrite Hlen, Nat.sub_diag. reflexivity.
    + intros x y. unfold lut2_eval, lut2_interp, sat. rewrite Ea2, sfind_app, Hn2, String.eqb_refl. simpl.
      rewrite vat_ge; [reflexivity|]. rewrite Ei2, Ei, app_length, Ed, app_length. simpl. lia.
Qed.

End Lut2.
