(** Lemmas on accessors, assertions and failed initialisations. *)
From Coq Require Import List Arith ZArith Bool Reals Lra Lia.
From Flocq Require Import Core.Raux.
From Verif Require Import Outcome Num NumFun StdAlgo M_Interp1d S_Interp1d L_Search L_Interp1d
  M_Interp2d M_Lookup S_Lookup M_Grid S_Grid L_Grid L_GridNearest M_Basics L_Basics L_Basics2 M_Dirac L_Dirac
  M_Integ M_Series S_Series M_Cheb S_Cheb L_Cheb3 M_Triangle M_Vec S_Vec L_Vec S_Acc M_Interp1d L_Interp1d.
Import ListNotations.
Local Open Scope R_scope.

Lemma inc3 a b c : a < b -> b < c -> increasing [a; b; c].
Proof. intros H1 H2 i j H. cbn [length] in H. destruct i as [|[|i]], j as [|[|[|j]]]; try lia; cbn; lra. Qed.

(** ** Interp1d after a failed Initialize *)
Lemma init_empty bm (o : interp1d R R) ys : (bm = Debug -> ys = []) ->
  exists o', init1d bm o (Some []) (Some ys) = (o', Throw OutOfRange) /\
    (forall x, eval1d o' x = eval1d o x) /\ get_xmin o' = get_xmin o /\ get_xmax o' = get_xmax o.
Proof.
  intros H. destruct bm; [rewrite (H eq_refl)|]; (eexists; split; [reflexivity|]; split; [|split]; reflexivity).
Qed.

Lemma coef_loop_short_ok xs ys n : forall k a b,
  (1 <= k)%nat -> (k + n <= length xs)%nat -> (length ys < k + n)%nat -> (1 <= n)%nat ->
  coef_loop xs ys (seq k n) a b =
    ((a ++ map (ca xs ys) (seq k (length ys - k)), b ++ map (cb xs ys) (seq k (length ys - k))), Throw OutOfRange).
Proof.
  induction n as [|n IH]; intros k a b Hk Hkn Hy Hn; [lia|].
  simpl. rewrite !(vat_lt xs _ 0) by lia. simpl.
  destruct (le_lt_dec (length ys) (k - 1)) as [H|H].
  - rewrite (vat_ge ys (k - 1)) by lia. replace (length ys - k)%nat with 0%nat by lia. simpl. rewrite !app_nil_r. reflexivity.
  - rewrite (vat_lt ys (k - 1) 0) by lia. simpl.
    destruct (le_lt_dec (length ys) k) as [H'|H'].
    + rewrite (vat_ge ys k) by lia. replace (length ys - k)%nat with 0%nat by lia. simpl. rewrite !app_nil_r. reflexivity.
    + rewrite (vat_lt ys k 0) by lia. simpl.
      rewrite IH by lia. replace (length ys - k)%nat with (Datatypes.S (length ys - Datatypes.S k)) by lia.
      cbn [seq map]. rewrite <- !app_assoc. reflexivity.
Qed.

Lemma init_short (o : interp1d R R) xs ys : (2 <= length xs)%nat -> (length ys < length xs)%nat ->
  init1d Release o (Some xs) (Some ys) =
    (obj (i_kind o) xs ys (i_a o ++ map (ca xs ys) (seq 1 (length ys - 1)))
         (i_b o ++ map (cb xs ys) (seq 1 (length ys - 1))), Throw OutOfRange).
Proof.
  intros Hn Hl. unfold init1d, init_base. cbn [cassert bind]. rewrite !(vat_lt xs _ 0) by lia. simpl.
  rewrite coef_loop_short_ok by lia. reflexivity.
Qed.

Lemma eval_obj_cell k xs ys a b j x : increasing xs -> (Datatypes.S j < length xs)%nat ->
  nth j xs 0 < x <= nth (Datatypes.S j) xs 0 -> (j < length a)%nat -> length b = length a ->
  eval1d (obj k xs ys a b) x = Ok (nth j a 0 * x + nth j b 0).
Proof.
  intros Hi Hj Hx Ha Hb.
  assert (E : eval_base (obj k xs ys a b) x = Ok (nth j a 0 * x + nth j b 0)).
  { rewrite (eval_base_index _ _ _ _ k x (Datatypes.S j)).
    - replace (max 1 (Datatypes.S j) - 1)%nat with j by lia. reflexivity.
    - apply lower_bound_cell; auto.
    - lia.
    - exact Hb. }
  assert (Hr : nth 0 xs 0 <= x <= nth (length xs - 1) xs 0).
  { pose proof (increasing_le xs 0 j Hi ltac:(lia)). pose proof (increasing_le xs (Datatypes.S j) (length xs - 1) Hi ltac:(lia)). lra. }
  rewrite <- E. unfold eval1d. cbn [i_kind i_xmin i_xmax obj].
  destruct k; [| reflexivity |]; unfold nlt; simpl; rewrite in_range_guard by auto; reflexivity.
Qed.

Lemma failed_reinit m xs1 ys1 xs2 ys2 o1 : is_linear m ->
  increasing xs1 -> (2 <= length xs1)%nat -> length ys1 = length xs1 ->
  increasing xs2 -> (2 <= length xs2)%nat -> (length ys2 < length xs2)%nat ->
  new1d Release m xs1 ys1 = Ok o1 ->
  exists o2, init1d Release o1 (Some xs2) (Some ys2) = (o2, Throw OutOfRange) /\
    get_xmin o2 = Ok (nth 0 xs2 0) /\ get_xmax o2 = Ok (nth (length xs2 - 1) xs2 0) /\
    forall j x, (Datatypes.S j < length xs2)%nat -> (Datatypes.S j < length xs1)%nat ->
      nth j xs2 0 < x <= nth (Datatypes.S j) xs2 0 ->
      exists v, eval1d o2 x = Ok v /\
        on_line (nth j xs1 0) (nth j ys1 0) (nth (Datatypes.S j) xs1 0) (nth (Datatypes.S j) ys1 0) x v.
Proof.
  intros Hlm Hi1 Hn1 Hl1 Hi2 Hn2 Hl2 H1. destruct (is_linear_kind m Hlm) as (k & Hm).
  rewrite (new1d_increasing Release m k) in H1 by (auto; lia). injection H1 as <-.
  eexists. split; [apply init_short; assumption|]. split; [reflexivity|]. split; [reflexivity|].
  intros j x Hj2 Hj1 Hx. cbn [i_kind i_a i_b obj]. eexists. split.
  - apply (eval_obj_cell _ _ _ _ _ j); auto.
    + rewrite app_length, coefs_a_length. lia.
    + rewrite !app_length, !map_length, !seq_length, coefs_a_length, coefs_b_length. lia.
  - rewrite !app_nth1 by (rewrite ?coefs_a_length, ?coefs_b_length; lia). apply chord_line; auto.
Qed.

(** Retry after a failure on a fresh object. *)
Lemma retry_lemma m o xs1 ys1 o1 xs2 ys2 : is_linear m -> make1d (T := R) (V := R) m = Ok o ->
  increasing xs1 -> (2 <= length xs1)%nat -> (length ys1 < length xs1)%nat ->
  increasing xs2 -> (2 <= length xs2)%nat -> length ys2 = length xs2 ->
  init1d Release o (Some xs1) (Some ys1) = (o1, Throw OutOfRange) ->
  exists o2, init1d Release o1 (Some xs2) (Some ys2) = (o2, Ok tt) /\
    forall j x, (Datatypes.S j < length xs2)%nat -> nth j xs2 0 < x <= nth (Datatypes.S j) xs2 0 ->
    (Datatypes.S j < length ys1)%nat ->
    exists v, eval1d o2 x = Ok v /\
      on_line (nth j xs1 0) (nth j ys1 0) (nth (Datatypes.S j) xs1 0) (nth (Datatypes.S j) ys1 0) x v.
Proof.
  intros Hlm Ho Hi1 Hn1 Hl1 Hi2 Hn2 Hl2 H1. rewrite init_short in H1 by assumption.
  assert (A : i_a o = [] /\ i_b o = []) by (destruct Hlm as [-> | [-> | ->]]; injection Ho as <-; split; reflexivity).
  destruct A as [A B]. rewrite A, B in H1. injection H1 as <-. cbn [app].
  eexists. split; [apply init1d_ok; [discriminate|lia]|]. intros j x Hj2 Hx Hj1. cbn [i_kind i_a i_b obj].
  set (xs1' := xs1). assert (L : forall f : nat -> R, length (map f (seq 1 (length ys1 - 1))) = (length ys1 - 1)%nat) by (intros; rewrite map_length, seq_length; reflexivity).
  assert (N : forall f : nat -> R, nth j (map f (seq 1 (length ys1 - 1))) 0 = f (Datatypes.S j)).
  { intros f. rewrite (nth_indep _ 0 (f 0%nat)) by (rewrite L; lia). rewrite map_nth, seq_nth by lia. reflexivity. }
  eexists. split.
  - apply (eval_obj_cell _ _ _ _ _ j); auto.
    + rewrite app_length, L. lia.
    + rewrite !app_length, !L, coefs_a_length, coefs_b_length. lia.
  - rewrite !app_nth1 by (rewrite L; lia). rewrite !N. unfold ca, cb.
    replace (Datatypes.S j - 1)%nat with j by lia. apply on_line_coef. apply Hi1. lia.
Qed.

Lemma strong_guarantee_refuted : exists (o o' : interp1d R R) xs ys x v,
  new1d Release LINEAR [0; 1] [0; 1] = Ok o /\
  init1d Release o (Some xs) (Some ys) = (o', Throw OutOfRange) /\
  eval1d o x = Ok v /\ eval1d o' x = Exit 1.
Proof.
  set (o := obj KLinear [0; 1] [0; 1] (coefs_a [0; 1] [0; 1]) (coefs_b [0; 1] [0; 1])).
  assert (I : increasing [0; 1]) by (intros i j H; cbn in H; destruct i as [|i], j as [|[|j]]; try lia; cbn; lra).
  assert (HN : new1d Release LINEAR [0; 1] [0; 1] = Ok o) by (apply new1d_increasing; [reflexivity|exact I|cbn; lia|reflexivity]).
  exists o. eexists. exists [3; 4], [7], (1 / 2), (1 / 2).
  split; [exact HN|]. split; [rewrite init_short by (cbn; lia); reflexivity|]. split.
  - unfold o. rewrite (eval_obj_cell KLinear _ _ _ _ 0); auto; cbn; try lia; try lra. unfold ca, cb. cbn. f_equal. field.
  - unfold eval1d, o. cbn [i_kind i_xmin i_xmax obj nth length Nat.sub]. change (nlt (1 / 2) 3) with (Rltb (1 / 2) 3).
    rewrite (proj2 (Rltb_true (1 / 2) 3)) by lra. reflexivity.
Qed.

(** ** Limits of the axes *)
Lemma vidx_nth {A} (l : list A) i d : (i < length l)%nat -> vidx l i = Ok (nth i l d).
Proof. intros H. apply vidx_lt, H. Qed.

Lemma min_element_ok : forall l (m : R), is_minimum (m :: l) (min_element m l).
Proof.
  induction l as [|a l IH]; intros m; cbn [min_element].
  - split; [left; reflexivity|]. intros x [<-|[]]. lra.
  - change nlt with Rltb. destruct (Rltb a m) eqn:E.
    + apply Rltb_true in E. destruct (IH a) as [H1 H2]. split; [right; exact H1|].
      intros x [<-|H]; [|apply H2, H]. specialize (H2 a (or_introl eq_refl)). lra.
    + apply Rltb_false in E. destruct (IH m) as [H1 H2]. split.
      * destruct H1 as [H1|H1]; [left; exact H1|right; right; exact H1].
      * intros x [<-|[<-|H]]; [apply H2; left; reflexivity| |apply H2; right; exact H].
        specialize (H2 m (or_introl eq_refl)). lra.
Qed.
Lemma max_element_ok : forall l (m : R), is_maximum (m :: l) (max_element m l).
Proof.
  induction l as [|a l IH]; intros m; cbn [max_element].
  - split; [left; reflexivity|]. intros x [<-|[]]. lra.
  - change nlt with Rltb. destruct (Rltb m a) eqn:E.
    + apply Rltb_true in E. destruct (IH a) as [H1 H2]. split; [right; exact H1|].
      intros x [<-|H]; [|apply H2, H]. specialize (H2 a (or_introl eq_refl)). lra.
    + apply Rltb_false in E. destruct (IH m) as [H1 H2]. split.
      * destruct H1 as [H1|H1]; [left; exact H1|right; right; exact H1].
      * intros x [<-|[<-|H]]; [apply H2; left; reflexivity| |apply H2; right; exact H].
        specialize (H2 m (or_introl eq_refl)). lra.
Qed.

Lemma rgn_limits_lemma {D} gs (a : ndarray D) i : (i < length gs)%nat ->
  exists o, rgn_make (T := R) gs a = Ok o /\
    (nth i gs [] <> [] -> exists lo hi,
       rgn_coord_min (length gs) o i = Ok lo /\ rgn_coord_max (length gs) o i = Ok hi /\
       is_minimum (nth i gs []) lo /\ is_maximum (nth i gs []) hi) /\
    (nth i gs [] = [] -> rgn_coord_min (length gs) o i = UB /\ rgn_coord_max (length gs) o i = UB).
Proof.
  intros H. exists (mkRN gs a). split; [apply rgn_make_ok|].
  unfold rgn_coord_min, rgn_coord_max. rewrite (proj2 (Nat.leb_gt (length gs) i)) by exact H. cbn [n_grids].
  rewrite (vidx_nth gs i []) by exact H. cbn [bind]. destruct (nth i gs []) as [|m g].
  - split; [congruence|]. intros _. split; reflexivity.
  - split; [|discriminate]. intros _. exists (min_element m g), (max_element m g).
    split; [reflexivity|]. split; [reflexivity|]. split; [apply min_element_ok|apply max_element_ok].
Qed.

Lemma rgi_limits_lemma gs a i : good_axes gs -> length (nd_flat a) = count (map (@length R) gs) -> (i < length gs)%nat ->
  exists o, rgi_make gs a = Ok o /\
    exists lo hi, rgi_coord_min (length gs) o i = Ok lo /\ rgi_coord_max (length gs) o i = Ok hi /\
      is_minimum (nth i gs []) lo /\ is_maximum (nth i gs []) hi /\
      rgi_coord (length gs) o i = Ok (nth i gs []).
Proof.
  intros Hg Hl Hi. exists (mkRG gs a IpLive (Some (limits_of gs))). split; [apply rgi_make_ok; assumption|].
  assert (G : good_axis (nth i gs [])) by (apply (proj1 (Forall_nth _ gs) Hg); exact Hi).
  set (g := nth i gs []) in *. exists (nth 0 g 0), (nth (length g - 1) g 0).
  unfold rgi_coord_min, rgi_coord_max, rgi_coord. rewrite (proj2 (Nat.leb_gt (length gs) i)) by exact Hi. cbn [r_limits r_grids].
  assert (L : nth i (limits_of gs) (0, 0) = (nth 0 g 0, nth (length g - 1) g 0)).
  { unfold limits_of. set (F := fun g : list R => (nth 0 g 0, nth (length g - 1) g 0)).
    rewrite (nth_indep (map F gs) (0, 0) (F [])) by (rewrite map_length; exact Hi). rewrite (map_nth F). reflexivity. }
  rewrite (vidx_nth (limits_of gs) i (0, 0)) by (unfold limits_of; rewrite map_length; exact Hi). rewrite L. cbn [bind fst snd].
  rewrite (vidx_nth gs i []) by exact Hi.
  split; [reflexivity|]. split; [reflexivity|]. pose proof (good_axis_length g G) as Hn. destruct G as [Ginc Gne].
  split; [|split; [|reflexivity]].
  - split; [apply nth_In; lia|]. intros x Hx. apply (In_nth _ _ 0) in Hx. destruct Hx as (j & Hj & <-). apply increasing_le; [exact Ginc|lia].
  - split; [apply nth_In; lia|]. intros x Hx. apply (In_nth _ _ 0) in Hx. destruct Hx as (j & Hj & <-). apply increasing_le; [exact Ginc|lia].
Qed.

Lemma limits_out_of_dim {D} dim (o : rgi R) (q : rgn R D) i : (dim <= i)%nat ->
  rgi_coord_min dim o i = Exit 1 /\ rgi_coord_max dim o i = Exit 1 /\ rgi_coord dim o i = Exit 1 /\
  rgn_coord_min dim q i = Exit 1 /\ rgn_coord_max dim q i = Exit 1.
Proof.
  intros H. unfold rgi_coord_min, rgi_coord_max, rgi_coord, rgn_coord_min, rgn_coord_max.
  rewrite (proj2 (Nat.leb_le dim i) H). repeat split; reflexivity.
Qed.

(** Before AddVar. *)
Lemma rgi_add_coords_only dim gs : Forall increasing gs -> (length gs <= dim)%nat ->
  forall pre a ip lim, (length pre + length gs <= dim)%nat ->
  rgi_run dim (mkRG pre a ip lim) (map (fun v : list R => RAddCoord v) gs) = Ok (mkRG (pre ++ gs) a ip lim).
Proof.
  induction gs as [|g gs IH]; intros H L pre a ip lim Hl; cbn [map rgi_run]; [rewrite app_nil_r; reflexivity|].
  inversion H; subst. cbn [rgi_step]. unfold rgi_add_coord. cbn [r_grids r_data r_ip r_limits]. cbn [length] in Hl, L.
  replace (length pre =? dim)%nat with false by (symmetry; apply Nat.eqb_neq; lia).
  rewrite (proj2 (sic_iff g)) by assumption. rewrite IH by (auto; try lia; rewrite app_length; simpl; lia).
  rewrite <- app_assoc. reflexivity.
Qed.

Lemma offset_zeros : forall dim idx, (1 <= dim)%nat -> offset (repeat 0%nat dim) idx = None.
Proof. intros [|dim] [|i idx] H; try lia; reflexivity. Qed.

Lemma rgi_unset dim gs i bm idx p : Forall increasing gs -> (length gs <= dim)%nat -> (1 <= dim)%nat -> (i < dim)%nat ->
  exists o, rgi_run dim (rgi_new dim) (map (fun v : list R => RAddCoord v) gs) = Ok o /\
    rgi_is_valid o = false /\
    rgi_coord_min dim o i = UB /\ rgi_coord_max dim o i = UB /\
    (rgi_coord dim o i = Ok (nth i gs []) <-> (i < length gs)%nat) /\
    rgi_interp bm o p true = UB /\ rgi_interp bm o p false = UB /\
    rgi_at bm o idx = match bm with Debug => Abort | Release => UB end.
Proof.
  intros Hg Hl Hd Hi. eexists. split; [unfold rgi_new; apply rgi_add_coords_only; auto|].
  unfold rgi_coord_min, rgi_coord_max, rgi_coord, rgi_at, ndget, rgi_is_valid. rewrite (proj2 (Nat.leb_gt dim i)) by exact Hi.
  cbn [r_limits r_grids r_data r_ip nd_shape app].
  split; [reflexivity|]. split; [reflexivity|]. split; [reflexivity|]. split; [|split; [reflexivity|split; [reflexivity|]]].
  - split; intros H.
    + destruct (Nat.lt_ge_cases i (length gs)) as [L|L]; [exact L|]. exfalso. unfold vidx in H.
      rewrite (proj2 (nth_error_None gs i) L) in H. discriminate.
    + apply vidx_nth, H.
  - rewrite offset_zeros by exact Hd. reflexivity.
Qed.

Lemma rgn_unset {D} gs p bm : gs <> [] -> good_axes gs -> length p = length gs ->
  exists o : rgn R D,
    foldM (fun o v => let (o', r) := rgn_add_coord (length gs) o v in omap (fun _ => o') r)
      (rgn_new (length gs)) gs = Ok o /\
    rgn_nearest bm o p = match bm with Debug => Abort | Release => UB end.
Proof.
  intros Hne Hg Hp. exists (mkRN gs (mkND (repeat 0%nat (length gs)) [])).
  split; [unfold rgn_new; rewrite rgn_add_coords_ok by (cbn; lia); reflexivity|].
  unfold rgn_nearest. cbn [n_grids n_data].
  assert (M : exists l, mapM (fun gx : list R * R => let* i := nearest_axis (fst gx) (snd gx) in let* c := vidx (fst gx) i in Ok (i, c)) (combine gs p) = Ok l).
  { clear Hne. revert p Hp. induction Hg as [|g gs Hg1 Hg2 IH]; intros [|x p] Hp; try discriminate; cbn [combine mapM]; [eexists; reflexivity|].
    destruct (nearest_axis_ok g x Hg1) as (i & Hi & Hn). cbn [fst snd]. rewrite Hi. cbn [bind].
    destruct Hn as [Hn _]. rewrite (vidx_nth g i 0) by lia. cbn [bind].
    destruct (IH p) as (l & ->); [simpl in Hp; lia|]. cbn [bind]. eexists; reflexivity. }
  destruct M as (l & ->). cbn [bind]. unfold ndget. cbn [nd_shape].
  rewrite offset_zeros by (destruct gs; [congruence|cbn; lia]). destruct bm; reflexivity.
Qed.

(** ** Size of a 2D table *)
Lemma lut2_add_keeps bm (t t' : lut2 R) name d r : lut2_add bm t name d = (t', r) -> k_x t' = k_x t /\ k_y t' = k_y t.
Proof.
  unfold lut2_add. destruct (sinsert (k_assoc t) name (lut2_nb_series t)) as [assoc' ins].
  intros H. repeat match type of H with
  | (if ?c then _ else _) = _ => destruct c
  | match ?c with _ => _ end = _ => destruct c
  end; inversion H; subst; split; reflexivity.
Qed.

Lemma lut2_sample_run bm ops : forall (t t' : lut2 R), lut2_run bm t ops = Ok t' ->
  k_x t' = last_x2 (k_x t) ops /\ k_y t' = last_y2 (k_y t) ops.
Proof.
  induction ops as [|op ops IH]; intros t t' H; cbn [lut2_run] in H.
  - injection H as <-. split; reflexivity.
  - destruct op as [xs|ys|m|name d]; cbn [lut2_step bind] in H; try (apply IH in H; exact H).
    destruct (lut2_add bm t name d) as [t1 r] eqn:E. destruct r; cbn [omap bind] in H; try discriminate.
    apply IH in H. apply lut2_add_keeps in E. destruct E as [E1 E2]. rewrite E1, E2 in H. exact H.
Qed.

Lemma lut2_sample_lemma bm ops (t : lut2 R) : lut2_run bm lut2_new ops = Ok t ->
  (forall xs ys, last_x2 None ops = Some xs -> last_y2 None ops = Some ys ->
     lut2_nb_sample t = Ok (length xs * length ys)%nat) /\
  (last_x2 None ops = None \/ last_y2 None ops = None -> lut2_nb_sample t = UB).
Proof.
  intros H. apply lut2_sample_run in H. cbn [k_x k_y lut2_new] in H. destruct H as [H1 H2]. unfold lut2_nb_sample. rewrite H1, H2.
  split.
  - intros xs ys -> ->. reflexivity.
  - intros [-> | ->]; [reflexivity|]. destruct (last_x2 None ops); reflexivity.
Qed.

(** ** Pow2 *)
Lemma pow2_lemma p q : ((p + q < 32)%nat ->
    exists a b, pow2 p = Ok a /\ pow2 q = Ok b /\ pow2 (p + q) = Ok (a * b)%Z /\ (1 <= a * b < 4294967296)%Z) /\
  pow2 0 = Ok 1%Z /\ pow2 1 = Ok 2%Z /\ ((32 <= p)%nat -> pow2 p = UB).
Proof.
  unfold pow2. split; [|split; [reflexivity|split; [reflexivity|]]].
  - intros H. exists (2 ^ Z.of_nat p)%Z, (2 ^ Z.of_nat q)%Z.
    rewrite !(proj2 (Nat.ltb_lt _ 32)) by lia. split; [reflexivity|]. split; [reflexivity|].
    rewrite Nat2Z.inj_add, Z.pow_add_r by lia. split; [reflexivity|]. rewrite <- Z.pow_add_r by lia.
    split; [apply (Z.pow_le_mono_r 2 0); lia|]. apply Z.le_lt_trans with (2 ^ 31)%Z; [apply Z.pow_le_mono_r; lia|reflexivity].
  - intros H. rewrite (proj2 (Nat.ltb_ge p 32)) by lia. reflexivity.
Qed.

(** ** Check.h *)
Lemma close_dec rtol atol a b : {all_close rtol atol a b} + {~ all_close rtol atol a b}.
Proof.
  revert b. induction a as [|x a IH]; intros b; [left; intros i H; cbn in H; lia|]. destruct b as [|y b]; [left; intros i _ H; cbn in H; lia|].
  destruct (Rle_dec (Rabs (x - y)) (atol + rtol * Rabs y)) as [C|C].
  - destruct (IH b) as [H|H]; [left|right].
    + intros [|i] L1 L2; [exact C|]. apply (H i); cbn in L1, L2; lia.
    + intros G. apply H. intros i L1 L2. apply (G (Datatypes.S i)); cbn; lia.
  - right. intros G. apply C. apply (G 0%nat); cbn; lia.
Qed.

Lemma close_loop p rtol atol : forall a b,
  (all_close rtol atol a b -> (length a <= length b)%nat -> is_close_loop (NT := RNum_at p) a b rtol atol = Ok true) /\
  (all_close rtol atol a b -> (length b < length a)%nat -> is_close_loop (NT := RNum_at p) a b rtol atol = UB) /\
  (~ all_close rtol atol a b -> is_close_loop (NT := RNum_at p) a b rtol atol = Ok false).
Proof.
  induction a as [|x a IH]; intros b.
  { split; [reflexivity|]. split; [cbn; lia|]. intros H. exfalso. apply H. intros i L. cbn in L; lia. }
  destruct b as [|y b].
  { split; [cbn; lia|]. split; [reflexivity|]. intros H. exfalso. apply H. intros i _ L. cbn in L; lia. }
  cbn [is_close_loop]. destruct (IsClose x y rtol atol) eqn:E.
  - apply isclose_spec in E. destruct (IH b) as (H1 & H2 & H3).
    assert (Q : all_close rtol atol (x :: a) (y :: b) <-> all_close rtol atol a b).
    { split; intros G.
      - intros i L1 L2. apply (G (Datatypes.S i)); cbn; lia.
      - intros [|i] L1 L2; [exact E|]. apply (G i); cbn in L1, L2; lia. }
    rewrite Q. cbn [length]. split; [intros; apply H1; auto; lia|]. split; [intros; apply H2; auto; lia|exact H3].
  - assert (Q : ~ all_close rtol atol (x :: a) (y :: b)).
    { intros G. specialize (G 0%nat ltac:(cbn; lia) ltac:(cbn; lia)). cbn [nth] in G. apply (isclose_spec p) in G. congruence. }
    split; [intros G; contradiction|]. split; [intros G; contradiction|reflexivity].
Qed.

Lemma isclose_release p a b rtol atol :
  (all_close rtol atol a b -> (length a <= length b)%nat -> IsClose_vec (NT := RNum_at p) Release a b rtol atol = Ok true) /\
  (all_close rtol atol a b -> (length b < length a)%nat -> IsClose_vec (NT := RNum_at p) Release a b rtol atol = UB) /\
  (~ all_close rtol atol a b -> IsClose_vec (NT := RNum_at p) Release a b rtol atol = Ok false).
Proof. unfold IsClose_vec. cbn [cassert bind]. apply close_loop. Qed.

Lemma assert_close_lemma p a b rtol atol :
  (AssertIsClose (NT := RNum_at p) Debug a b rtol atol = Ok tt <-> Rabs (a - b) <= atol + rtol * Rabs b) /\
  (AssertIsClose (NT := RNum_at p) Debug a b rtol atol = Abort <-> atol + rtol * Rabs b < Rabs (a - b)) /\
  AssertIsClose (NT := RNum_at p) Release a b rtol atol = Ok tt.
Proof.
  unfold AssertIsClose, cassert. split; [|split; [|reflexivity]]; destruct (IsClose a b rtol atol) eqn:E.
  - apply isclose_spec in E. split; auto.
  - split; [discriminate|]. intros H. apply (isclose_spec p) in H. congruence.
  - apply isclose_spec in E. split; [discriminate|lra].
  - split; [|reflexivity]. intros _. apply Rnot_le_lt. intros H. apply (isclose_spec p) in H. congruence.
Qed.

Lemma assert_close_vec_lemma p a b rtol atol :
  (AssertIsClose_vec (NT := RNum_at p) Debug a b rtol atol = Ok tt <-> length a = length b /\ all_close rtol atol a b) /\
  (AssertIsClose_vec (NT := RNum_at p) Debug a b rtol atol = Abort <-> ~ (length a = length b /\ all_close rtol atol a b)) /\
  AssertIsClose_vec (NT := RNum_at p) Release a b rtol atol = Ok tt.
Proof.
  unfold AssertIsClose_vec, IsClose_vec. destruct (close_loop p rtol atol a b) as (H1 & _ & H3).
  destruct (Nat.eqb_spec (length a) (length b)) as [E|E]; cbn [cassert bind].
  - destruct (close_dec rtol atol a b) as [C|C].
    + rewrite H1 by (auto; lia). cbn [bind cassert]. split; [tauto|]. split; [|reflexivity]. split; [discriminate|tauto].
    + rewrite H3 by auto. cbn [bind cassert]. split; [split; [discriminate|tauto]|]. split; [tauto|reflexivity].
  - split; [split; [discriminate|tauto]|]. split; [tauto|reflexivity].
Qed.

(** ** Unit conversions *)
Lemma period_rads_lemma p x : p <> 0 -> x <> 0 ->
  s2rads (NT := RNum_at p) x * x = 2 * p /\ rads2s (NT := RNum_at p) x * x = 2 * p /\
  s2rads (NT := RNum_at p) (rads2s (NT := RNum_at p) x) = x /\ rads2s (NT := RNum_at p) (s2rads (NT := RNum_at p) x) = x /\
  rads2s (NT := RNum_at p) x = hz2s (NT := RNum_at p) (rads2hz (NT := RNum_at p) x) /\
  s2rads (NT := RNum_at p) x = hz2rads (NT := RNum_at p) (s2hz (NT := RNum_at p) x).
Proof. intros Hp Hx. runits. repeat split; field; auto. Qed.

(** ** Dirac *)
Lemma mapM_ub {A B} (f : A -> outcome B) l : (forall x, In x l -> f x = UB \/ exists y, f x = Ok y) ->
  (mapM f l = UB <-> exists x, In x l /\ f x = UB).
Proof.
  induction l as [|a l IH]; intros H; cbn [mapM]; [split; [discriminate|intros (x & [] & _)]|].
  destruct IH as [I1 I2]; [intros; apply H; right; assumption|].
  destruct (H a (or_introl eq_refl)) as [E|(y & E)]; rewrite E; cbn [bind].
  - split; [|reflexivity]. intros _. exists a. split; [left; reflexivity|exact E].
  - split.
    + intros M. destruct (mapM f l) eqn:F; try discriminate. destruct (I1 eq_refl) as (x & Hx & Ex). exists x. split; [right; exact Hx|exact Ex].
    + intros (x & [<-|Hx] & Ex); [congruence|]. rewrite I2 by (exists x; split; assumption). reflexivity.
Qed.

Lemma dirac_abs_ub (x : R) : dirac_abs AbsInt x = UB <-> 2147483648 <= Rabs x.
Proof.
  cbv [dirac_abs ntoZ RNumFm]. destruct ((-2147483648 <? Ztrunc x)%Z && (Ztrunc x <=? 2147483647)%Z) eqn:E.
  - apply andb_prop in E. destruct E as [E1 E2]. apply Z.ltb_lt in E1. apply Z.leb_le in E2. split; [discriminate|]. intros H. exfalso.
    destruct (Rle_or_lt 0 x) as [P|P].
    + rewrite Rabs_right in H by lra. rewrite Ztrunc_floor in E2 by exact P.
      assert (2147483648 <= Zfloor x)%Z by (apply Zfloor_lub; exact H). lia.
    + rewrite Rabs_left in H by exact P. rewrite Ztrunc_ceil in E1 by lra.
      assert (Zceil x <= -2147483648)%Z by (apply Zceil_glb; lra). lia.
  - split; [|reflexivity]. intros _. apply Rnot_lt_le. intros H. apply andb_false_iff in E. destruct E as [E|E].
    + apply Z.ltb_ge in E. destruct (Rle_or_lt 0 x) as [P|P].
      * rewrite Ztrunc_floor in E by exact P. assert (0 <= Zfloor x)%Z by (apply Zfloor_lub; exact P). lia.
      * rewrite Ztrunc_ceil in E by lra. rewrite Rabs_left in H by exact P.
        assert (-2147483648 < Zceil x)%Z by (apply lt_IZR; apply Rlt_le_trans with (2 := Zceil_ub _); lra). lia.
    + apply Z.leb_gt in E. destruct (Rle_or_lt 0 x) as [P|P].
      * rewrite Ztrunc_floor in E by exact P. rewrite Rabs_right in H by lra.
        assert (Zfloor x < 2147483648)%Z by (apply lt_IZR; apply Rle_lt_trans with (1 := Zfloor_lb _); exact H). lia.
      * rewrite Ztrunc_ceil in E by lra. assert (Zceil x <= 0)%Z by (apply Zceil_glb; lra). lia.
Qed.

Lemma dirac_overflow x imp (h : R) : (2 <= length x)%nat ->
  (Dirac AbsInt x imp h = UB <-> exists xi, In xi x /\ 2147483648 <= Rabs (xi - imp)).
Proof.
  intros H. unfold Dirac. rewrite (vidx_lt x 1 0), (vidx_lt x 0 0) by lia. cbn [bind].
  rewrite mapM_ub.
  - split; intros (xi & Hx & E); exists xi; (split; [exact Hx|]).
    + apply dirac_abs_ub. change (xi - imp)%num with (xi - imp) in E. destruct (dirac_abs AbsInt (xi - imp)); try discriminate; reflexivity.
    + change (xi - imp)%num with (xi - imp). rewrite (proj2 (dirac_abs_ub _) E). reflexivity.
  - intros xi _. change (xi - imp)%num with (xi - imp). cbv [dirac_abs ntoZ RNumFm]. destruct (_ && _); cbn [bind]; [right; eexists; reflexivity|left; reflexivity].
Qed.

(** ** Named constructors of the Chebyshev series *)
Lemma nodes_closed_1 f lo hi n r x : lo < hi -> (r <= n)%nat -> is_node (Closed lo hi) n r x ->
  cs1_evaluate (cs1_compute_ai (cs1_closed f lo hi n)) x = f x.
Proof. intros. eapply nodes1; eauto. Qed.
Lemma nodes_opened_1 f lo n r x : 0 < lo -> (r <= n)%nat -> is_node (Opened lo) n r x ->
  cs1_evaluate (cs1_compute_ai (cs1_opened f lo n)) x = f x.
Proof. intros. eapply nodes1; eauto. Qed.
Lemma nodes_ctor_2 f (cx cy : bool) xlo xhi ylo yhi m n r t x y :
  (cx = false -> cy = false) ->
  axis_valid (if cx then Closed xlo xhi else Opened xlo) -> axis_valid (if cy then Closed ylo yhi else Opened ylo) ->
  (r <= m)%nat -> (t <= n)%nat ->
  is_node (if cx then Closed xlo xhi else Opened xlo) m r x -> is_node (if cy then Closed ylo yhi else Opened ylo) n t y ->
  cs2_evaluate (cs2_compute_aij (if cx then if cy then cs2_closed f xlo xhi ylo yhi m n else cs2_mixed f xlo xhi ylo m n
                                 else cs2_opened f xlo ylo m n)) x y = f x y.
Proof.
  intros Hc Vx Vy Hr Ht Nx Ny. destruct cx; [destruct cy|rewrite Hc in * by reflexivity]; eapply nodes2; eassumption.
Qed.
Lemma nodes_ctor_3 f (cy cz : bool) xlo xhi ylo yhi zlo zhi m n p r t q x y z :
  (cy = false -> cz = false) ->
  xlo < xhi -> axis_valid (if cy then Closed ylo yhi else Opened ylo) -> axis_valid (if cz then Closed zlo zhi else Opened zlo) ->
  (r <= m)%nat -> (t <= n)%nat -> (q <= p)%nat ->
  is_node (Closed xlo xhi) m r x -> is_node (if cy then Closed ylo yhi else Opened ylo) n t y ->
  is_node (if cz then Closed zlo zhi else Opened zlo) p q z ->
  cs3_evaluate (cs3_compute_aijk (if cy then if cz then cs3_closed f xlo xhi ylo yhi zlo zhi m n p else cs3_z_opened f xlo xhi ylo yhi zlo m n p
                                  else cs3_yz_opened f xlo xhi ylo zlo m n p)) x y z = f x y z.
Proof.
  intros Hc Vx Vy Vz Hr Ht Hq Nx Ny Nz. destruct cy; [destruct cz|rewrite Hc in * by reflexivity]; eapply nodes3; eassumption.
Qed.

Lemma infnorm_vec3 (v : vec3 R) : is_inf_norm [vx v; vy v; vz v] (v3_infNorm v).
Proof. apply infnorm_lemma. Qed.
