(** 1-D and 2-D instances of the grid interpolator, and facts valid for every
    scalar type. *)
From Coq Require Import List Arith ZArith Lia Bool Reals Lra.
From Verif Require Import Outcome Num StdAlgo M_Interp1d S_Interp1d L_Search L_Interp1d
  M_Interp2d S_Interp2d L_Interp2d M_Grid S_Grid L_Grid.
Import ListNotations.
Local Open Scope R_scope.

Lemma grid_1d_lemma : forall bm g data x,
  increasing g -> (2 <= length g)%nat -> length data = length g ->
  exists o v, rgi_make [g] (mkND [length g] data) = Ok o /\ rgi_interp bm o [x] false = Ok v /\
    on_polyline g data (clamp (nth 0 g 0) (nth (length g - 1) g 0) x) v.
Proof.
  intros bm g data x Hg H2 Hd.
  assert (HG : good_axes [g]).
  { constructor; [|constructor]. split; auto. intros ->. simpl in H2. lia. }
  assert (Hl : length (nd_flat (mkND [length g] data)) = count (map (@length R) [g])) by (simpl; lia).
  set (c := clamp (nth 0 g 0) (nth (length g - 1) g 0) x).
  pose proof (increasing_le g 0 (length g - 1) Hg ltac:(lia)) as H01.
  assert (Hc : nth 0 g 0 <= c <= nth (length g - 1) g 0).
  { unfold c, clamp. split; [apply Rmax_l|]. apply Rmax_lub; [auto|]. apply Rmin_l. }
  destruct (cell_exists g c H2 Hc) as (i & Hi & Hx).
  exists (mkRG [g] (mkND [length g] data) IpLive (Some (limits_of [g]))). eexists.
  split; [apply rgi_make_ok; auto|]. split; [apply interp_live; auto|].
  exists i. split; [auto|]. split; [auto|]. cbn [nd_flat].
  rewrite <- (nest_clamp [g] [x]) by auto. cbn [clamp_point map2 nest]. fold c.
  rewrite (rop_cell g c i) by (auto; inversion HG; auto).
  pose proof (Hg i (S i) ltac:(lia)).
  unfold on_line, element. cbn [map pos count]. rewrite !Nat.mul_1_r, !Nat.add_0_r. field. lra.
Qed.

Lemma grid_2d_lemma : forall bm bm' xs ys data x y,
  increasing xs -> increasing ys -> (2 <= length xs)%nat -> (2 <= length ys)%nat ->
  length data = (length xs * length ys)%nat -> inside xs ys x y ->
  exists o o2 v, rgi_make [xs; ys] (mkND [length xs; length ys] data) = Ok o /\
    new2d bm' LINEAR xs ys data = Ok o2 /\
    rgi_interp bm o [x; y] false = Ok v /\ eval2d bm' o2 x y = Ok v.
Proof.
  intros bm bm' xs ys data x y Hx Hy Lx Ly Hd [Ix Iy].
  assert (HG : good_axes [xs; ys]).
  { constructor; [|constructor; [|constructor]]; split; auto; intros ->; simpl in *; lia. }
  destruct (cell_exists xs x Lx Ix) as (i & Hi & Cx). destruct (cell_exists ys y Ly Iy) as (j & Hj & Cy).
  destruct (bilinear_cell_lemma bm' xs ys data i j x y Hx Hy Lx Ly Hd Hi Hj Cx Cy) as (o2 & v & E1 & E2 & B & _).
  assert (HC : in_cell [xs; ys] [i; j] [x; y]) by (simpl; auto).
  destruct (grid_blend_lemma bm [xs; ys] (mkND [length xs; length ys] data) [i; j] [x; y] HG) as (o & E3 & E4); auto.
  { simpl. lia. }
  exists o, o2, v. repeat split; auto. rewrite E4. f_equal.
  pose proof (Hx i (S i) ltac:(lia)) as Px. pose proof (Hy j (S j) ltac:(lia)) as Py.
  unfold bilinear in B.
  assert (Hne : (nth (S i) xs 0 - nth i xs 0) * (nth (S j) ys 0 - nth j ys 0) <> 0).
  { apply Rmult_integral_contrapositive. split; lra. }
  apply (Rmult_eq_reg_r ((nth (S i) xs 0 - nth i xs 0) * (nth (S j) ys 0 - nth j ys 0))); auto.
  rewrite B. unfold blend. cbn [length corners map app sum fold_right weight element pos count map2 nd_flat].
  unfold element. cbn [pos count].
  replace ((i + 0) * (length ys * 1) + ((j + 0) * 1 + 0))%nat with (length ys * i + j)%nat by (generalize (length ys); intros; nia).
  replace ((i + 0) * (length ys * 1) + ((j + 1) * 1 + 0))%nat with (length ys * i + S j)%nat by (generalize (length ys); intros; nia).
  replace ((i + 1) * (length ys * 1) + ((j + 0) * 1 + 0))%nat with (length ys * S i + j)%nat by (generalize (length ys); intros; nia).
  replace ((i + 1) * (length ys * 1) + ((j + 1) * 1 + 0))%nat with (length ys * S i + S j)%nat by (generalize (length ys); intros; nia).
  field. split; lra.
Qed.

(** A grid that was built answers every query, whatever the scalar type. *)
Lemma foldM_add_coords {T} `{NT : Num T} dim gs (o0 o : rgi T) :
  foldM (fun o v => let (o', r) := rgi_add_coord dim o v in omap (fun _ => o') r) o0 gs = Ok o ->
  r_grids o = r_grids o0 ++ gs.
Proof.
  revert o0. induction gs as [|g gs IH]; intros o0 H; simpl in H.
  - injection H as <-. rewrite app_nil_r. reflexivity.
  - apply bind_ok in H as (o1 & H1 & H). apply IH in H. unfold rgi_add_coord in H1.
    destruct (length (r_grids o0) =? dim)%nat; [discriminate|].
    destruct (strictly_increasing_check g); [|discriminate]. injection H1 as <-.
    rewrite H. simpl. rewrite <- app_assoc. reflexivity.
Qed.

Lemma make_inv {T} `{NT : Num T} gs (a : ndarray T) o : rgi_make gs a = Ok o ->
  r_grids o = gs /\ r_data o = a /\ r_ip o = IpLive /\ Forall (fun g => g <> []) gs /\
  length (nd_flat a) = count (map (@length T) gs).
Proof.
  intros H. unfold rgi_make in H. apply bind_ok in H as (o1 & H1 & H). apply foldM_add_coords in H1.
  simpl in H1. unfold rgi_add_var in H. rewrite H1, Nat.eqb_refl in H. unfold rgi_build in H.
  cbn [r_grids r_data r_ip r_limits] in H. rewrite firstn_all, Nat.eqb_refl in H.
  destruct (forallb _ gs) eqn:E; [|discriminate H]. simpl in H.
  apply forallb_nonempty in E. rewrite prodn_count in H.
  destruct (Nat.eqb_spec (length (nd_flat a)) (count (map (length (A:=T)) gs))); [|discriminate].
  injection H as <-. simpl. auto.
Qed.

Lemma grid_total_lemma : forall (T : Type) (NT : Num T) bm gs (a : ndarray T) o p bc,
  rgi_make gs a = Ok o -> length p = length gs ->
  (exists v, rgi_interp bm o p false = Ok v) /\
  ((exists v, rgi_interp bm o p bc = Ok v) \/ rgi_interp bm o p bc = Throw RuntimeError).
Proof.
  intros T NT bm gs a o p bc H Hp. pose proof H as H'. apply make_inv in H as (E1 & E2 & E3 & E4 & E5).
  assert (G : exists v, rgi_interp bm o p false = Ok v).
  { unfold rgi_interp. rewrite E1, E2, E3. simpl. apply interp_ml_defined; auto. }
  split; auto. destruct bc; auto.
  assert (L : exists l, r_limits o = Some l).
  { unfold rgi_make in H'. apply bind_ok in H' as (o1 & _ & H). unfold rgi_add_var, rgi_build in H.
    destruct (_ =? _)%nat; [|discriminate].
    destruct (_ && _)%bool; [|discriminate]. destruct (_ =? _)%nat; [|discriminate].
    injection H as <-. eexists. reflexivity. }
  destruct L as [l L]. unfold rgi_interp in *. rewrite L. destruct (existsb _ _); auto.
Qed.

(** Only the number of elements is checked, not the shape. *)
Lemma grid_shape_lemma : forall bm gs a idx,
  good_axes gs -> length (nd_flat a) = count (map (@length R) gs) ->
  in_extents (map (@length R) gs) idx ->
  exists o, rgi_make gs a = Ok o /\
    rgi_interp bm o (node_at gs idx) false = Ok (element (map (@length R) gs) (nd_flat a) idx).
Proof.
  intros bm gs a idx Hg Hl Hi. eexists. split; [apply rgi_make_ok; auto|].
  rewrite interp_live by (auto using node_at_length). rewrite nest_nodes by auto. reflexivity.
Qed.
