(** Lemmas on 2D interpolators after a refused Initialize and on the order of
    the calls that build a RegularGridNearest. *)
From Coq Require Import List Arith ZArith Bool Reals Lra Lia.
From Verif Require Import Outcome Num NumFun StdAlgo M_Interp1d S_Interp1d L_Search L_Interp1d
  M_Interp2d S_Interp2d L_Interp2d M_Grid S_Grid L_Grid L_GridNearest.
Import ListNotations.
Local Open Scope R_scope.

Lemma empty_x bm (o : interp2d R) ys d : (bm = Debug -> nondecreasing ys) ->
  exists o', init2d bm o (Some []) (Some ys) d = (o', Throw OutOfRange) /\
    (forall bm' x y, eval2d bm' o' x y = eval2d bm' o x y) /\ get_limits2 o' = get_limits2 o.
Proof.
  intros H. unfold init2d, init_base2.
  assert (E : (let* _ := cassert bm (is_sorted (T := R) []) in cassert bm (is_sorted ys)) = Ok tt).
  { destruct bm; [|reflexivity]. cbn [cassert is_sorted bind]. rewrite (proj2 (is_sorted_iff ys)) by auto. reflexivity. }
  rewrite E. cbn [vat nth_error bind omap length]. eexists. split; [reflexivity|]. split; [|reflexivity].
  intros bm' x y. reflexivity.
Qed.

Lemma empty_y bm xs1 ys1 d1 xs2 d2 o1 : increasing xs1 -> increasing ys1 ->
  (2 <= length xs1)%nat -> (2 <= length ys1)%nat -> length d1 = (length xs1 * length ys1)%nat ->
  (bm = Debug -> nondecreasing xs2) -> xs2 <> [] ->
  new2d bm LINEAR xs1 ys1 d1 = Ok o1 ->
  exists o2, init2d bm o1 (Some xs2) (Some []) d2 = (o2, Throw OutOfRange) /\
    get_limits2 o2 = (Some (nth 0 xs2 0), Some (nth (length xs2 - 1) xs2 0),
                      Some (nth 0 ys1 0), Some (nth (length ys1 - 1) ys1 0)) /\
    forall i j x y, clamped_cell xs1 x i -> clamped_cell ys1 y j ->
      ((j < i)%nat -> eval2d Release o2 x y = Throw OutOfRange) /\
      ((i <= j)%nat -> exists v, eval2d Release o2 x y = Ok v /\ patch xs1 ys1 d1 0 (j - i) x y v).
Proof.
  intros Ix Iy Lx Ly Ld Hs Hne H1. rewrite new2d_increasing in H1 by (auto; lia). injection H1 as <-.
  unfold init2d, init_base2.
  assert (E : (let* _ := cassert bm (is_sorted xs2) in cassert bm (is_sorted (T := R) [])) = Ok tt).
  { destruct bm; [|reflexivity]. cbn [cassert]. rewrite (proj2 (is_sorted_iff xs2)) by auto. reflexivity. }
  rewrite E. assert (L2 : (1 <= length xs2)%nat) by (destruct xs2; [congruence|cbn; lia]).
  rewrite !(vat_lt xs2 _ 0) by lia. cbn [bind]. cbn [vat nth_error bind omap].
  eexists. split; [reflexivity|]. split; [reflexivity|].
  intros i j x y Cx Cy.
  assert (Sx := sel_clamped xs1 x i Ix Lx Cx). assert (Sy := sel_clamped ys1 y j Iy Ly Cy).
  assert (H01 : forall n, (if (n =? 0)%nat then 1%nat else n) = max 1 n) by (intros [|[|n]]; reflexivity).
  unfold eval2d, cell_index, obj2. cbn [j_x j_y j_xmin j_xmax j_ymin j_ymax j_ny j_coefs cassert bind length Nat.eqb].
  rewrite !H01. split.
  - intros Hij. rewrite (proj2 (Nat.leb_gt _ _)) by lia. unfold vat. rewrite (proj2 (nth_error_None _ _)) by lia. reflexivity.
  - intros Hij. rewrite (proj2 (Nat.leb_le _ _)) by lia.
    replace (max 1 (lower_bound ys1 y) - max 1 (lower_bound xs1 x))%nat with (0 * (length ys1 - 1) + (j - i))%nat by lia.
    unfold vat. rewrite coefs2_nth by (destruct Cy; lia). cbn [bind]. eexists. split; [reflexivity|].
    apply cellc_bilinear; [apply Ix; lia|apply Iy; destruct Cy; lia].
Qed.

Lemma coef2_prefix (xs ys ds : list R) ny l : forall acc, exists m, fst (coef2_loop xs ys ds ny l acc) = acc ++ m.
Proof.
  induction l as [|[i j] l IH]; intros acc; cbn [coef2_loop]; [exists []; now rewrite app_nil_r|].
  destruct (cell_coefs xs ys ds ny i j) as [c|e|z| |]; try (exists []; now rewrite app_nil_r).
  destruct (IH (acc ++ [c])) as (m & ->). exists (c :: m). now rewrite <- app_assoc.
Qed.

Lemma short_data bm xs1 ys1 d1 xs2 ys2 d2 o1 : increasing xs1 -> increasing ys1 ->
  (2 <= length xs1)%nat -> (2 <= length ys1)%nat -> length d1 = (length xs1 * length ys1)%nat ->
  increasing xs2 -> increasing ys2 -> (2 <= length xs2)%nat -> (2 <= length ys2)%nat ->
  (length d2 < length xs2 * length ys2)%nat ->
  new2d bm LINEAR xs1 ys1 d1 = Ok o1 ->
  exists o2, init2d bm o1 (Some xs2) (Some ys2) (Some d2) = (o2, Throw OutOfRange) /\
    get_limits2 o2 = (Some (nth 0 xs2 0), Some (nth (length xs2 - 1) xs2 0),
                      Some (nth 0 ys2 0), Some (nth (length ys2 - 1) ys2 0)) /\
    forall i j i1 j1 x y, clamped_cell xs2 x i -> clamped_cell ys2 y j ->
      (S i1 < length xs1)%nat -> (S j1 < length ys1)%nat ->
      (i * (length ys2 - 1) + j = i1 * (length ys1 - 1) + j1)%nat ->
      exists v, eval2d Release o2 x y = Ok v /\ patch xs1 ys1 d1 i1 j1 x y v.
Proof.
  intros Ix Iy Lx Ly Ld Ix2 Iy2 Lx2 Ly2 Ld2 H1. rewrite new2d_increasing in H1 by (auto; lia). injection H1 as <-.
  unfold init2d, init_base2.
  assert (E : (let* _ := cassert bm (is_sorted xs2) in cassert bm (is_sorted ys2)) = Ok tt).
  { destruct bm; [|reflexivity]. cbn [cassert]. rewrite !increasing_is_sorted by auto. reflexivity. }
  rewrite E. rewrite !(vat_lt xs2 _ 0), !(vat_lt ys2 _ 0) by lia. cbn [bind].
  cbn [j_x j_y j_xmin j_xmax j_ymin j_ymax j_nx j_ny j_coefs j_data obj2].
  destruct (coef2_loop_short xs2 ys2 d2 (loop_indices (length xs2) (length ys2)) (coefs2 xs1 ys1 d1)) as (acc' & EL).
  { intros i j H. now apply loop_indices_in in H. }
  { exists (length xs2 - 1)%nat, (length ys2 - 1)%nat. split; [apply loop_indices_in; lia|nia]. }
  destruct (coef2_prefix xs2 ys2 d2 (length ys2) (loop_indices (length xs2) (length ys2)) (coefs2 xs1 ys1 d1)) as (m & EP).
  rewrite EL in *. cbn [fst] in EP. subst acc'. eexists. split; [reflexivity|]. split; [reflexivity|].
  intros i j i1 j1 x y Cx Cy Hi Hj EI.
  assert (Sx := sel_clamped xs2 x i Ix2 Lx2 Cx). assert (Sy := sel_clamped ys2 y j Iy2 Ly2 Cy).
  exists (ceval (cellc xs1 ys1 d1 (length ys1) (S i1, S j1)) x y). split.
  - fold (obj2 xs2 ys2 d2 (coefs2 xs1 ys1 d1 ++ m)). rewrite (eval2d_release xs2 ys2 d2 _ x y i j) by (auto; lia).
    rewrite EI. unfold vat. rewrite nth_error_app1.
    + rewrite coefs2_nth by auto. reflexivity.
    + unfold coefs2. rewrite map_length, loop_indices_length. clear EI EL Ld Ld2.
      assert (A : (S i1 * (length ys1 - 1) <= (length xs1 - 1) * (length ys1 - 1))%nat) by (apply Nat.mul_le_mono_r; lia).
      cbn [Nat.mul] in A. lia.
  - apply cellc_bilinear; [apply Ix; lia|apply Iy; lia].
Qed.

Lemma rgn_add_coords_le {D} dim gs : forall pre (a : ndarray D), (length pre + length gs <= dim)%nat ->
  foldM (fun o v => let (o', r) := rgn_add_coord dim o v in omap (fun _ => o') r)
    (mkRN (T := R) pre a) gs = Ok (mkRN (pre ++ gs) a).
Proof.
  induction gs as [|g gs IH]; intros pre a Hl; cbn [foldM].
  - now rewrite app_nil_r.
  - cbn [length] in Hl. unfold rgn_add_coord at 1. cbn [n_grids n_data]. rewrite (proj2 (Nat.eqb_neq _ _)) by lia. cbn [omap bind].
    rewrite IH by (rewrite app_length; cbn; lia). now rewrite <- app_assoc.
Qed.
Lemma rgn_calls {D} dim gs (v : list R) (a : ndarray D) : (length gs <= dim)%nat ->
  exists o, foldM (fun o v => let (o', r) := rgn_add_coord dim o v in omap (fun _ => o') r) (rgn_new dim) gs = Ok o /\
    (length gs = dim -> rgn_add_coord dim o v = (o, Exit 1)) /\
    ((length gs < dim)%nat -> rgn_add_var dim o a = (o, Exit 1)).
Proof.
  intros H. eexists. split; [unfold rgn_new; rewrite rgn_add_coords_le by (cbn; lia); reflexivity|]. cbn [app].
  unfold rgn_add_coord, rgn_add_var. cbn [n_grids]. split; intros E.
  - rewrite (proj2 (Nat.eqb_eq _ _) E). reflexivity.
  - rewrite (proj2 (Nat.eqb_neq _ _)) by lia. reflexivity.
Qed.
