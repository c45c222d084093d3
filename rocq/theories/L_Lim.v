(** Convergence under refinement. *)
From Coq Require Import List Arith ZArith Reals Lra Lia Bool Classical_Prop ConstructiveEpsilon ClassicalDedekindReals.
From Coquelicot Require Import Coquelicot.
From Verif Require Import Outcome Num StdAlgo M_Interp1d S_Interp1d M_Interp2d S_Interp2d M_Grid S_Grid M_Integ S_Integ S_Series
  L_Search L_Series L_Interp1d L_Grid L_GridNearest L_GridLow L_Integ L_Integ2 L_Rem S_Err L_Err S_Trapz64 S_Quad L_Quad S_Lim.
Import ListNotations.
Local Open Scope R_scope.

(** *** Uniform continuity on boxes *)
Fixpoint tn (n : nat) (p : list R) : Tn n R :=
  match n return Tn n R with O => tt | S m => (hd 0 p, tn m (tl p)) end.
Fixpoint lt (n : nat) : Tn n R -> list R :=
  match n return Tn n R -> list R with O => fun _ => [] | S m => fun t => fst t :: lt m (snd t) end.
Lemma bounded_tn b : forall p, between b p -> bounded_n (length b) (tn (length b) (map fst b)) (tn (length b) (map snd b)) (tn (length b) p).
Proof. induction b as [|c b IH]; intros p H; [exact I|]. inversion H; subst. simpl. split; [assumption|now apply IH]. Qed.
Lemma bounded_lt b : forall t, bounded_n (length b) (tn (length b) (map fst b)) (tn (length b) (map snd b)) t -> between b (lt (length b) t).
Proof. induction b as [|c b IH]; intros t H; [constructor|]. destruct t as [x t]. simpl in H. simpl. constructor; [apply H|]. now apply IH. Qed.
Lemma close_lt d n : forall p t, length p = n -> close_n n d (tn n p) t -> close d p (lt n t).
Proof.
  induction n as [|n IH]; intros p t L H; destruct p as [|x p]; try discriminate; [constructor|]. destruct t as [y t]. simpl in H. simpl.
  constructor; [apply H|]. apply IH; [simpl in L; lia|apply H].
Qed.
Lemma close_trans d e p q r : close d p q -> close e q r -> close (d + e) p r.
Proof.
  intros H. revert r. induction H as [|x y p q H1 H2 IH]; intros r K; inversion K; subst; constructor; [|now apply IH].
  replace (x - y0) with ((x - y) + (y - y0)) by ring. apply Rle_lt_trans with (1 := Rabs_triang _ _). lra.
Qed.
Lemma close_le d e p q : d <= e -> close d p q -> close e p q.
Proof. intros L H. unfold close in *. induction H; constructor; auto. lra. Qed.
Lemma between_length b p : between b p -> length p = length b.
Proof. intros H. symmetry. eapply Forall2_length. exact H. Qed.

Lemma dec (P : Prop) : {P} + {~ P}.
Proof. destruct (sig_not_dec P) as [H|H]; [left; now apply NNPP|now right]. Qed.
Lemma pick_radius (P : R -> Prop) : (exists d, 0 < d /\ P d) -> (forall d e, 0 < d -> d <= e -> P e -> P d) -> { d : posreal | P d }.
Proof.
  intros H M.
  assert (N : exists n : nat, P (/ INR (S n))).
  { destruct H as (d & Hd & Pd). destruct (archimed_cor1 d Hd) as (n & A & B). exists n. apply (M _ d); [|left|exact Pd].
    - apply Rinv_0_lt_compat, lt_0_INR. lia.
    - apply Rle_lt_trans with (2 := A). apply Rinv_le_contravar; [now apply lt_0_INR|apply le_INR; lia]. }
  destruct (constructive_indefinite_ground_description_nat (fun n => P (/ INR (S n))) (fun n => dec _) N) as (n & Hn).
  assert (Q : 0 < / INR (S n)) by (apply Rinv_0_lt_compat, lt_0_INR; lia). exists (mkposreal _ Q). exact Hn.
Qed.

Lemma box_uniform b F : continuous_box b F -> forall eps, 0 < eps -> exists d, 0 < d /\
  forall p q, between b p -> between b q -> close d p q -> Rabs (F p - F q) <= eps.
Proof.
  intros HC eps He.
  assert (Hd : forall t : Tn (length b) R, { d : posreal | between b (lt (length b) t) -> forall q, between b q -> close (2 * d) q (lt (length b) t) -> Rabs (F q - F (lt (length b) t)) <= eps / 2 }).
  { intros t. set (P := fun d => between b (lt (length b) t) -> forall q, between b q -> close (2 * d) q (lt (length b) t) -> Rabs (F q - F (lt (length b) t)) <= eps / 2).
    apply (pick_radius P); unfold P.
    - destruct (dec (between b (lt (length b) t))) as [B|B].
      + destruct (HC _ B (eps / 2) ltac:(lra)) as (d & D1 & D2). exists (d / 2). split; [lra|]. intros _ q Hq Hc. apply D2; [exact Hq|].
        revert Hc. apply close_le. lra.
      + exists 1. split; [lra|]. intros B'. now elim B.
    - intros d e D1 D2 H B q Hq Hc. apply H; auto. revert Hc. apply close_le. lra. }
  destruct (compactness_value (length b) (tn _ (map fst b)) (tn _ (map snd b)) (fun t => proj1_sig (Hd t))) as (d & D).
  exists d. split; [apply cond_pos|]. intros p q Hp Hq Hc.
  destruct (NNPP _ (D (tn _ p) (bounded_tn b p Hp))) as (t & T1 & T2 & T3).
  destruct (Hd t) as (dt & Dt). simpl in T2, T3. apply bounded_lt in T1. apply close_lt in T2; [|now apply between_length].
  assert (A := Dt T1 p Hp (close_le dt (2 * dt) _ _ ltac:(pose proof (cond_pos dt); lra) T2)).
  assert (B : Rabs (F q - F (lt (length b) t)) <= eps / 2).
  { apply (Dt T1 q Hq). apply close_le with (d + dt); [lra|]. apply close_trans with p; [|exact T2].
    clear -Hc. unfold close in *. induction Hc; constructor; auto. now rewrite Rabs_minus_sym. }
  apply Rabs_le_between in A. apply Rabs_le_between in B. apply Rabs_le. split; lra.
Qed.

Lemma line_uniform f a b : continuous_on f a b -> forall eps, 0 < eps -> exists h, 0 < h /\ modulus f a b h eps.
Proof.
  intros HC eps He. destruct (box_uniform [(a, b)] (fun p => f (nth 0 p 0))) with (eps := eps) as (d & D1 & D2); auto.
  - intros p Hp e E. inversion Hp as [|? x ? r Hx Hr]; subst. inversion Hr; subst. simpl in Hx. destruct (HC x Hx e E) as (d & D1 & D2).
    exists d. split; [exact D1|]. intros q Hq Hc. inversion Hq as [|? y ? r Hy Hs]; subst. inversion Hs; subst. inversion Hc; subst. simpl in *. auto.
  - exists (d / 2). split; [lra|]. intros s t Hs Ht Hst. apply (D2 [s] [t]); (constructor; [simpl; lra|constructor]).
Qed.

(** *** One variable *)
Lemma blend_between a b x ya yb y w : a < b -> a <= x <= b -> Rabs (ya - y) <= w -> Rabs (yb - y) <= w -> Rabs (blend1 a b x ya yb - y) <= w.
Proof.
  intros L H A B. unfold blend1. set (s := (b - x) / (b - a)). set (t := (x - a) / (b - a)).
  assert (0 <= s) by (apply Rmult_le_pos; [lra|left; apply Rinv_0_lt_compat; lra]).
  assert (0 <= t) by (apply Rmult_le_pos; [lra|left; apply Rinv_0_lt_compat; lra]).
  assert (E : s + t = 1) by (unfold s, t; field; lra).
  apply Rabs_le_between in A. apply Rabs_le_between in B. apply Rabs_le. clearbody s t. replace s with (1 - t) in * by lra. split; nra.
Qed.
Lemma node_in g i : increasing g -> (i < length g)%nat -> first g <= nth i g 0 <= final g.
Proof. intros H L. unfold first, final. split; apply increasing_le; auto; lia. Qed.
Lemma cell_modulus f g h w i x : increasing g -> spacing h g -> modulus f (first g) (final g) h w -> (S i < length g)%nat -> nth i g 0 <= x <= nth (S i) g 0 ->
  Rabs (blend1 (nth i g 0) (nth (S i) g 0) x (f (nth i g 0)) (f (nth (S i) g 0)) - f x) <= w.
Proof.
  intros Hg Hs Hm Hi Hx. pose proof (node_in g i Hg ltac:(lia)). pose proof (node_in g (S i) Hg Hi). pose proof (Hs i Hi).
  apply blend_between; auto; try (apply Hm; auto; try lra; apply Rabs_le; lra).
Qed.
Lemma interp1d_modulus : forall bm m xs f h w x, is_linear m -> increasing xs -> (2 <= length xs)%nat -> spacing h xs ->
  modulus f (first xs) (final xs) h w -> first xs <= x <= final xs ->
  exists o v, new1d bm m xs (map f xs) = Ok o /\ eval1d o x = Ok v /\ Rabs (v - f x) <= w.
Proof.
  intros bm m xs f h w x Hlm Hx Hl Hs D Hr. destruct (is_linear_kind m Hlm) as (k & Hm).
  destruct (eval1d_in_range m k xs (map f xs) bm x Hm Hx Hl (map_length _ _) Hr) as (o & v & H1 & H2 & H3).
  exists o, v. split; [exact H1|]. split; [exact H2|]. apply (poly_err1 xs f x v _ Hx H3).
  intros i Hi Hc. now apply (cell_modulus f xs h w).
Qed.
Lemma interp1d_converges : forall f a b, continuous_on f a b -> forall eps, 0 < eps -> exists h, 0 < h /\
  forall bm m xs, is_linear m -> increasing xs -> (2 <= length xs)%nat -> spacing h xs -> first xs = a -> final xs = b ->
  exists o, new1d bm m xs (map f xs) = Ok o /\ forall x, a <= x <= b -> exists v, eval1d o x = Ok v /\ Rabs (v - f x) <= eps.
Proof.
  intros f a b HC eps He. destruct (line_uniform f a b HC eps He) as (h & Hh & Hm). exists h. split; [exact Hh|].
  intros bm m xs Lm Hx Hl Hs Ea Eb. subst a b. pose proof (first_final xs Hx Hl).
  destruct (interp1d_modulus bm m xs f h eps (first xs) Lm Hx Hl Hs Hm ltac:(lra)) as (o & _ & Ho & _).
  exists o. split; [exact Ho|]. intros x Hr. destruct (interp1d_modulus bm m xs f h eps x Lm Hx Hl Hs Hm Hr) as (o' & v & Ho' & Hv & B).
  rewrite Ho in Ho'. injection Ho' as <-. exists v. auto.
Qed.

(** *** N variables *)
Lemma refines_good h b gs : refines h b gs -> good_axes gs.
Proof. intros H. unfold refines, good_axes in *. induction H as [|c g b gs H1 H2 IH]; constructor; tauto. Qed.
Lemma refines_box h b gs p : refines h b gs -> in_box gs p -> between b p.
Proof.
  intros H. revert p. induction H as [|c g b gs (_ & A & B & _) H2 IH]; intros p K; inversion K; subst; constructor; [rewrite <- A, <- B; assumption|now apply IH].
Qed.
Lemma refines_between h b gs p : refines h b gs -> between b p -> in_box gs p.
Proof.
  intros H. revert p. induction H as [|c g b gs (_ & A & B & _) H2 IH]; intros p K; inversion K; subst; constructor; [rewrite A, B; assumption|now apply IH].
Qed.
Lemma refines_nth h b gs k : refines h b gs -> (k < length gs)%nat -> good_axis (nth k gs []) /\ spacing h (nth k gs []).
Proof.
  intros H. revert k. induction H as [|c g b gs (A & _ & _ & B) H2 IH]; intros [|k] Hk; simpl in *; try lia; auto. apply IH. lia.
Qed.
Lemma box_join gs pre x post : (length pre < length gs)%nat -> in_box (firstn (length pre) gs) pre -> first (nth (length pre) gs []) <= x <= final (nth (length pre) gs []) ->
  in_box (skipn (S (length pre)) gs) post -> in_box gs (pre ++ x :: post).
Proof.
  intros L A B C. rewrite <- (firstn_skipn (length pre) gs). apply Forall2_app; [exact A|].
  assert (E : skipn (length pre) gs = nth (length pre) gs [] :: skipn (S (length pre)) gs).
  { clear -L. revert gs L. induction (length pre) as [|n IH]; intros [|g gs] L; simpl in *; try lia; auto. apply IH. lia. }
  rewrite E. constructor; assumption.
Qed.
Lemma close_refl d p : 0 < d -> close d p p.
Proof. intros H. induction p; constructor; auto. now rewrite Rminus_diag_eq, Rabs_R0 by reflexivity. Qed.
Lemma axes_modulus b gs F h d w : 0 < d -> h < d -> refines h b gs -> (forall p q, between b p -> between b q -> close d p q -> Rabs (F p - F q) <= w) ->
  along_axes (fun f g E => modulus f (first g) (final g) h E) gs (map (fun _ => w) gs) F.
Proof.
  intros Hd Hhd HR HU pre post L A B. rewrite (nth_indep _ 0 w) by (now rewrite map_length). change w with ((fun _ : list R => w) []) at 2. rewrite map_nth.
  intros s t Hs Ht Hst. apply HU; try (apply (refines_box h b gs); [exact HR|]; now apply box_join).
  apply Forall2_app; [apply (close_refl d pre Hd)|]. constructor; [lra|apply (close_refl d post Hd)].
Qed.
Lemma sum_const {A} (gs : list A) w : sum (map (fun _ => w) gs) = INR (length gs) * w.
Proof. induction gs as [|g gs IH]; [cbn; ring|]. cbn [map length]. rewrite S_INR. change (sum (w :: map (fun _ => w) gs)) with (w + sum (map (fun _ => w) gs)). rewrite IH. ring. Qed.
Lemma grid_uniform b F h d w bm gs a p : 0 < d -> h < d -> 0 <= w -> (forall p q, between b p -> between b q -> close d p q -> Rabs (F p - F q) <= w) ->
  refines h b gs -> length (nd_flat a) = count (map (@length R) gs) -> samples gs (nd_flat a) F -> length p = length gs ->
  exists o v, rgi_make gs a = Ok o /\ rgi_interp bm o p false = Ok v /\ Rabs (v - F (clamp_point gs p)) <= INR (length gs) * w.
Proof.
  intros Hd Hhd Hw HU HR Hl HS Hp. pose proof (refines_good _ _ _ HR) as Hg. rewrite <- sum_const. apply grid_error_gen; auto; [now rewrite map_length|].
  intros pre post L B1 B2. pose proof (axes_modulus b gs F h d w Hd Hhd HR HU pre post L B1 B2) as M. destruct (refines_nth h b gs _ HR L) as [Gg Sg].
  rewrite (nth_indep _ 0 w) in * by (now rewrite map_length). change (nth (length pre) (map (fun _ : list R => w) gs) w) with (nth (length pre) (map (fun _ : list R => w) gs) ((fun _ : list R => w) [])) in *. rewrite map_nth in *.
  intros x. apply (rop_err _ x (fun t => F (pre ++ t :: post))); [exact Gg|exact Hw|]. intros i t Hi Ht.
  apply (cell_modulus (fun t => F (pre ++ t :: post)) _ h w); auto. apply Gg.
Qed.
Lemma share eps (b : box) : 0 < eps -> 0 < eps / (INR (length b) + 1) /\ INR (length b) * (eps / (INR (length b) + 1)) <= eps.
Proof.
  intros H. pose proof (pos_INR (length b)). assert (Q : 0 < eps / (INR (length b) + 1)) by (apply Rdiv_lt_0_compat; lra). split; [exact Q|].
  replace eps with ((INR (length b) + 1) * (eps / (INR (length b) + 1))) at 2 by (field; lra). nra.
Qed.
Lemma refines_length h b gs : refines h b gs -> length gs = length b.
Proof. intros H. symmetry. eapply Forall2_length. exact H. Qed.
Lemma grid_converges : forall b F, continuous_box b F -> forall eps, 0 < eps -> exists h, 0 < h /\
  forall bm gs a, refines h b gs -> length (nd_flat a) = count (map (@length R) gs) -> samples gs (nd_flat a) F ->
  exists o, rgi_make gs a = Ok o /\ forall p, length p = length b -> exists v, rgi_interp bm o p false = Ok v /\ Rabs (v - F (clamp_point gs p)) <= eps.
Proof.
  intros b F HC eps He. destruct (share eps b He) as [W1 W2]. destruct (box_uniform b F HC _ W1) as (d & D1 & D2).
  exists (d / 2). split; [lra|]. intros bm gs a HR Hl HS. pose proof (refines_length _ _ _ HR) as Lg.
  eexists. split; [apply rgi_make_ok; [now apply (refines_good _ _ _ HR)|exact Hl]|]. intros p Hp.
  destruct (grid_uniform b F (d / 2) d (eps / (INR (length b) + 1)) bm gs a p D1 ltac:(lra) ltac:(lra) D2 HR Hl HS ltac:(lia)) as (o & v & A & B & C).
  rewrite rgi_make_ok in A by (try exact Hl; now apply (refines_good _ _ _ HR)). injection A as <-. exists v. split; [exact B|]. rewrite Lg in C. lra.
Qed.
(** Spacings near a nearest node. *)
Lemma nearest_within h b gs : refines h b gs -> 0 <= h -> forall p idx, between b p -> in_extents (map (@length R) gs) idx ->
  (forall k, (k < length gs)%nat -> nearest_on (nth k gs []) (nth k p 0) (nth k idx 0%nat)) ->
  forall d, h < d -> close d (node_at gs idx) p /\ between b (node_at gs idx).
Proof.
  intros H Hh. induction H as [|c g b gs (A & Ea & Eb & B) H2 IH]; intros p idx Hp Hi Hn d Hd; inversion Hp as [|? x ? p' Hx Hp']; subst; inversion Hi as [|? i ? idx' Hi1 Hi2]; subst; [split; constructor|].
  change (node_at (g :: gs) (i :: idx')) with (nth i g 0 :: node_at gs idx').
  destruct (IH p' idx' Hp' Hi2 (fun k Hk => Hn (S k) ltac:(simpl; lia)) d Hd) as [I1 I2].
  rewrite <- Ea, <- Eb in Hx. pose proof (nearest_close g x i h A B Hh Hx (Hn 0%nat ltac:(simpl; lia))) as C.
  split; constructor; auto.
  - rewrite Rabs_minus_sym. lra.
  - rewrite <- Ea, <- Eb. apply node_in; [apply A|exact Hi1].
Qed.
Lemma nearest_converges : forall b F, continuous_box b F -> forall eps, 0 < eps -> exists h, 0 < h /\
  forall bm gs (a : ndarray R), refines h b gs -> nd_shape a = map (@length R) gs -> length (nd_flat a) = count (nd_shape a) -> samples gs (nd_flat a) F ->
  exists o, rgn_make gs a = Ok o /\ forall p, between b p -> exists n, rgn_nearest bm o p = Ok n /\ Rabs (gn_val n - F p) <= eps.
Proof.
  intros b F HC eps He. destruct (box_uniform b F HC eps He) as (d & D1 & D2).
  exists (d / 2). split; [lra|]. intros bm gs a HR Hsh Hl HS. pose proof (refines_good _ _ _ HR) as Hg.
  assert (L0 : length (map (fun _ => 0) gs) = length gs) by apply map_length.
  destruct (nearest_lemma R bm gs a (map (fun _ => 0) gs) 0 Hg Hsh Hl L0) as (o & _ & A & _). exists o. split; [exact A|]. intros p Hp.
  assert (Lp : length p = length gs) by (rewrite (between_length b p Hp); symmetry; apply (refines_length _ _ _ HR)).
  destruct (nearest_lemma R bm gs a p 0 Hg Hsh Hl Lp) as (o' & idx & A' & B & C & D & _). rewrite A in A'. injection A' as <-.
  eexists. split; [exact B|]. cbn [gn_val]. rewrite Hsh in C |- *. fold (element (map (@length R) gs) (nd_flat a) idx). rewrite (HS idx C).
  destruct (nearest_within (d / 2) b gs HR ltac:(lra) p idx Hp C D d ltac:(lra)) as [E1 E2]. apply D2; auto.
Qed.

(** *** Two variables *)
Lemma refines2 h xs ys : increasing xs -> increasing ys -> (2 <= length xs)%nat -> (2 <= length ys)%nat -> spacing h xs -> spacing h ys ->
  refines h [(first xs, final xs); (first ys, final ys)] [xs; ys].
Proof. intros. constructor; [|constructor; [|constructor]]; (split; [now apply good_of|auto]). Qed.
Lemma interp2d_converges : forall f ax bx ay b_y, continuous_box [(ax, bx); (ay, b_y)] (fun p => f (nth 0 p 0) (nth 1 p 0)) -> forall eps, 0 < eps -> exists h, 0 < h /\
  forall bm xs ys data, increasing xs -> increasing ys -> (2 <= length xs)%nat -> (2 <= length ys)%nat -> length data = (length xs * length ys)%nat ->
  samples2 xs ys data f -> spacing h xs -> spacing h ys -> first xs = ax -> final xs = bx -> first ys = ay -> final ys = b_y ->
  forall x y, inside xs ys x y -> exists o v, new2d bm LINEAR xs ys data = Ok o /\ eval2d bm o x y = Ok v /\ Rabs (v - f x y) <= eps.
Proof.
  intros f ax bx ay b_y HC eps He. destruct (grid_converges _ _ HC eps He) as (h & Hh & G). exists h. split; [exact Hh|].
  intros bm xs ys data Hx Hy Lx Ly Hd HS Sx Sy <- <- <- <- x y Hi. apply interp2d_from_grid; auto.
  destruct (G bm [xs; ys] (mkND [length xs; length ys] data)) as (o & A & B).
  - now apply refines2.
  - simpl. lia.
  - apply samples2_grid, HS.
  - destruct (B [x; y] eq_refl) as (v & B1 & B2). exists o, v. split; [exact A|]. split; [exact B1|]. rewrite clamp2 in B2 by assumption. exact B2.
Qed.

(** *** Integrals *)
Lemma clamp_in a b x : a <= b -> a <= clamp a b x <= b.
Proof. intros H. unfold clamp. split; [apply Rmax_l|]. apply Rmax_lub; [exact H|apply Rmin_l]. Qed.
Lemma clamp_id a b x : a <= x <= b -> clamp a b x = x.
Proof. intros H. unfold clamp. rewrite Rmin_right, Rmax_right by lra. reflexivity. Qed.
Lemma clamp_lip a b x y : Rabs (clamp a b x - clamp a b y) <= Rabs (x - y).
Proof. unfold clamp, Rmax, Rmin. repeat destruct Rle_dec; unfold Rabs; repeat destruct Rcase_abs; lra. Qed.
Lemma clamp_cont f a b : a <= b -> continuous_on f a b -> forall x, continuous (fun t => f (clamp a b t)) x.
Proof.
  intros L H x. apply continuity_pt_filterlim. intros eps He. destruct (H (clamp a b x) (clamp_in a b x L) (eps / 2) ltac:(lra)) as (d & D1 & D2).
  exists d. split; [exact D1|]. intros y [_ Hy]. simpl in *. unfold R_dist in *.
  apply Rle_lt_trans with (eps / 2); [|lra]. apply D2; [now apply clamp_in|]. apply Rle_lt_trans with (2 := Hy). apply clamp_lip.
Qed.
Lemma cell_int g x0 x1 m w : (forall x, continuous g x) -> x0 <= x1 -> (forall t, x0 <= t <= x1 -> Rabs (g t - m) <= w) ->
  Rabs ((x1 - x0) * m - RInt g x0 x1) <= w * (x1 - x0).
Proof.
  intros C L B.
  assert (I : ex_RInt g x0 x1) by (apply (ex_RInt_continuous (V := R_CompleteNormedModule)); intros; apply C).
  assert (A1 : RInt (fun _ => m - w) x0 x1 <= RInt g x0 x1).
  { apply RInt_le; [exact L|apply ex_RInt_const|exact I|]. intros t Ht. specialize (B t ltac:(lra)). apply Rabs_le_between in B. lra. }
  assert (A2 : RInt g x0 x1 <= RInt (fun _ => m + w) x0 x1).
  { apply RInt_le; [exact L|exact I|apply ex_RInt_const|]. intros t Ht. specialize (B t ltac:(lra)). apply Rabs_le_between in B. lra. }
  rewrite RInt_const in A1, A2. unfold scal, mult in A1, A2. simpl in A1, A2. unfold mult in A1, A2. simpl in A1, A2. apply Rabs_le. split; lra.
Qed.
Lemma steps_tail_le h : forall xs x0, steps h (x0 :: xs) -> x0 <= last (x0 :: xs) 0.
Proof.
  induction xs as [|x1 xs IH]; intros x0 H; [cbn; lra|]. destruct H as [A B]. specialize (IH x1 B).
  change (last (x0 :: x1 :: xs) 0) with (last (x1 :: xs) 0). lra.
Qed.
Lemma areas_modulus g h w : (forall x, continuous g x) -> forall xs, (0 < length xs)%nat -> steps h xs -> modulus g (hd 0 xs) (last xs 0) h w ->
  Rabs (areas xs (map g xs) - RInt g (hd 0 xs) (last xs 0)) <= w * (last xs 0 - hd 0 xs).
Proof.
  intros C. induction xs as [|x0 xs IH]; intros P H M; [simpl in P; lia|].
  destruct xs as [|x1 xs].
  - cbn [areas map last hd]. rewrite RInt_point. unfold zero. simpl. rewrite !Rminus_diag_eq, Rabs_R0 by reflexivity. lra.
  - destruct H as [H0 H]. pose proof (steps_tail_le h xs x1 H) as Le.
    change (map g (x0 :: x1 :: xs)) with (g x0 :: g x1 :: map g xs). rewrite areas_cons. change (g x1 :: map g xs) with (map g (x1 :: xs)).
    change (last (x0 :: x1 :: xs) 0) with (last (x1 :: xs) 0) in *. cbn [hd] in *.
    set (e := last (x1 :: xs) 0) in *.
    assert (I := IH ltac:(simpl; lia) H (fun s t Hs Ht => M s t ltac:(lra) ltac:(lra))). cbn [hd] in I. fold e in I.
    assert (E : RInt g x0 e = RInt g x0 x1 + RInt g x1 e).
    { symmetry. apply (RInt_Chasles (V := R_CompleteNormedModule) g); apply (ex_RInt_continuous (V := R_CompleteNormedModule)); intros; apply C. }
    assert (J : Rabs ((x1 - x0) * ((g x0 + g x1) / 2) - RInt g x0 x1) <= w * (x1 - x0)).
    { apply cell_int; [exact C|lra|]. intros t Ht.
      assert (A := M t x0 ltac:(lra) ltac:(lra) ltac:(apply Rabs_le; lra)). assert (B := M t x1 ltac:(lra) ltac:(lra) ltac:(apply Rabs_le; lra)).
      apply Rabs_le_between in A. apply Rabs_le_between in B. apply Rabs_le. split; lra. }
    rewrite E. apply Rabs_le_between in I. apply Rabs_le_between in J. apply Rabs_le. split; lra.
Qed.
Lemma steps_in h : forall xs, steps h xs -> forall x, In x xs -> hd 0 xs <= x <= last xs 0.
Proof.
  induction xs as [|x0 xs IH]; intros H x Hx; [destruct Hx|]. destruct xs as [|x1 xs]; [destruct Hx as [<-|[]]; cbn; lra|].
  destruct H as [A B]. pose proof (steps_tail_le h xs x1 B). change (last (x0 :: x1 :: xs) 0) with (last (x1 :: xs) 0). cbn [hd].
  destruct Hx as [<-|Hx]; [lra|]. specialize (IH B x Hx). cbn [hd] in IH. lra.
Qed.
Lemma areas_limit f h w xs : continuous_on f (hd 0 xs) (last xs 0) -> (0 < length xs)%nat -> steps h xs -> modulus f (hd 0 xs) (last xs 0) h w ->
  Rabs (areas xs (map f xs) - RInt f (hd 0 xs) (last xs 0)) <= w * (last xs 0 - hd 0 xs).
Proof.
  intros C P H M. set (a := hd 0 xs) in *. set (b := last xs 0) in *.
  assert (L : a <= b). { unfold a, b. destruct xs as [|x xs]; [simpl in P; lia|]. apply (steps_tail_le h xs x H). }
  set (g := fun t => f (clamp a b t)).
  assert (E1 : map f xs = map g xs) by (apply map_ext_in; intros x Hx; unfold g; f_equal; symmetry; apply clamp_id, (steps_in h xs H x Hx)).
  assert (E2 : RInt f a b = RInt g a b). { apply RInt_ext. intros x Hx. unfold g. f_equal. symmetry. apply clamp_id. rewrite Rmin_left, Rmax_right in Hx by exact L. lra. }
  rewrite E1, E2. apply (areas_modulus g h w (clamp_cont f a b L C) xs P H).
  intros s t Hs Ht. unfold g. fold a b in Hs, Ht. rewrite !clamp_id by assumption. now apply M.
Qed.
Lemma per_length eps L : 0 < eps -> 0 <= L -> 0 < eps / (L + 1) /\ eps / (L + 1) * L <= eps.
Proof.
  intros H K. assert (Q : 0 < eps / (L + 1)) by (apply Rdiv_lt_0_compat; lra). split; [exact Q|].
  replace eps with (eps / (L + 1) * (L + 1)) at 2 by (field; lra). nra.
Qed.
Lemma areas_converges f a b : continuous_on f a b -> a <= b -> forall eps, 0 < eps -> exists h, 0 < h /\
  forall xs, (0 < length xs)%nat -> steps h xs -> hd 0 xs = a -> last xs 0 = b -> Rabs (areas xs (map f xs) - RInt f a b) <= eps.
Proof.
  intros C L eps He. destruct (per_length eps (b - a) He ltac:(lra)) as [W1 W2]. destruct (line_uniform f a b C _ W1) as (h & Hh & M).
  exists h. split; [exact Hh|]. intros xs P S <- <-. apply Rle_trans with (2 := W2). now apply (areas_limit f h).
Qed.
Lemma trapz_converges : forall f a b, continuous_on f a b -> a <= b -> forall eps, 0 < eps -> exists h, 0 < h /\
  forall bm x, (2 <= length x)%nat -> steps h x -> hd 0 x = a -> last x 0 = b ->
  exists v, trapz_xy bm x (map f x) = Ok v /\ Rabs (v - RInt f a b) <= eps.
Proof.
  intros f a b C L eps He. destruct (areas_converges f a b C L eps He) as (h & Hh & A). exists h. split; [exact Hh|].
  intros bm x P S Ea Eb. exists (areas x (map f x)). split; [apply trapz_xy_ok; rewrite map_length; auto|]. apply A; auto. lia.
Qed.
(** Enough points make the step small. *)
Lemma small_step L h : 0 <= L -> 0 < h -> exists N : nat, (2 <= N)%nat /\ forall n, (N <= n)%nat -> 0 <= L / INR (n - 1) <= h.
Proof.
  intros HL Hh. assert (X : exists N, L / h <= INR N).
  { exists (Z.to_nat (up (L / h))). destruct (archimed (L / h)) as [U _]. assert (0 <= L / h) by (apply Rmult_le_pos; [exact HL|left; now apply Rinv_0_lt_compat]).
    rewrite INR_IZR_INZ, Z2Nat.id; [lra|]. apply le_IZR. lra. }
  destruct X as (N & HN). exists (N + 2)%nat. split; [lia|]. intros n Hn.
  assert (P : 0 < INR (n - 1)) by (apply lt_0_INR; lia). assert (Q : INR N <= INR (n - 1)) by (apply le_INR; lia).
  split; [apply Rmult_le_pos; [exact HL|left; now apply Rinv_0_lt_compat]|].
  apply Rmult_le_reg_r with (INR (n - 1)); [exact P|]. replace (L / INR (n - 1) * INR (n - 1)) with L by (field; lra).
  assert (L / h <= INR (n - 1)) by lra. apply Rmult_le_compat_r with (r := h) in H; [|lra]. replace (L / h * h) with L in H by (field; lra). lra.
Qed.
Lemma steps_weaken h k : h <= k -> forall xs, steps h xs -> steps k xs.
Proof. intros L. induction xs as [|x0 [|x1 xs] IH]; intros H; try exact I. destruct H as [A B]. split; [lra|now apply IH]. Qed.
Lemma grid_refines f a b eps : continuous_on f a b -> a <= b -> 0 < eps -> exists N, (2 <= N)%nat /\
  forall n, (N <= n)%nat -> let g := grid a ((b - a) / INR (n - 1)) n in Rabs (areas g (map f g) - RInt f a b) <= eps.
Proof.
  intros C L He. destruct (areas_converges f a b C L eps He) as (h & Hh & A). destruct (small_step (b - a) h ltac:(lra) Hh) as (N & HN & HS).
  exists N. split; [exact HN|]. intros n Hn g. destruct (HS n Hn) as [S1 S2]. apply A.
  - unfold g. rewrite grid_length. lia.
  - apply (steps_weaken _ _ S2), grid_steps, S1.
  - apply grid_hd. lia.
  - unfold g. rewrite grid_last by lia. assert (0 < INR (n - 1)) by (apply lt_0_INR; lia). field. lra.
Qed.
Lemma integrate_modulus : forall f a b n w, continuous_on f a b -> a <= b -> (2 <= n)%nat -> (Z.of_nat n < 2 ^ 32)%Z -> modulus f a b ((b - a) / INR (n - 1)) w ->
  exists v, snd (integ1_get (integ1_function f a b n)) = Ok v /\ Rabs (v - RInt f a b) <= w * (b - a).
Proof.
  intros f a b n w C L Hn Hz M. exists (areas_of f a b n). split; [exact (hist_function f a b n [] ltac:(lia) Hz)|]. rewrite <- areas_of_grid by lia.
  assert (P : 0 < INR (n - 1)) by (apply lt_0_INR; lia). set (h := (b - a) / INR (n - 1)) in *.
  assert (Hh : 0 <= h) by (apply Rmult_le_pos; [lra|left; now apply Rinv_0_lt_compat]).
  assert (E1 : hd 0 (grid a h n) = a) by (apply grid_hd; lia).
  assert (E2 : last (grid a h n) 0 = b) by (rewrite grid_last by lia; unfold h; field; lra).
  assert (A := areas_limit f h w (grid a h n)). rewrite E1, E2 in A. apply A; auto; [rewrite grid_length; lia|now apply grid_steps].
Qed.
Lemma integrate_converges : forall f a b, continuous_on f a b -> a <= b -> forall eps, 0 < eps -> exists N, (2 <= N)%nat /\
  forall n, (N <= n)%nat -> (Z.of_nat n < 2 ^ 32)%Z -> exists v, snd (integ1_get (integ1_function f a b n)) = Ok v /\ Rabs (v - RInt f a b) <= eps.
Proof.
  intros f a b C L eps He. destruct (grid_refines f a b eps C L He) as (N & HN & A). exists N. split; [exact HN|]. intros n Hn Hz.
  exists (areas_of f a b n). split; [exact (hist_function f a b n [] ltac:(lia) Hz)|]. rewrite <- areas_of_grid by lia. now apply A.
Qed.
Lemma cont_bounded f a b : a <= b -> continuous_on f a b -> exists B, 0 <= B /\ forall x, a <= x <= b -> Rabs (f x) <= B.
Proof.
  intros L C. set (g := fun t => f (clamp a b t)).
  destruct (continuity_ab_maj (fun t => Rabs (g t)) a b L) as (m & M & _).
  { intros c _. apply (continuity_pt_comp g Rabs); [|apply Rcontinuity_abs]. apply continuity_pt_filterlim, (clamp_cont f a b L C). }
  exists (Rabs (g m)). split; [apply Rabs_pos|]. intros x Hx. specialize (M x Hx). unfold g in M at 1. now rewrite clamp_id in M.
Qed.
Lemma cont_mul f g a b : a <= b -> continuous_on f a b -> continuous_on g a b -> continuous_on (fun t => f t * g t) a b.
Proof.
  intros L Cf Cg x Hx eps He. destruct (cont_bounded f a b L Cf) as (B & B0 & HB). destruct (cont_bounded g a b L Cg) as (D & D0 & HD).
  destruct (Cf x Hx (eps / (2 * (D + 1)))) as (d1 & P1 & Q1); [apply Rdiv_lt_0_compat; lra|].
  destruct (Cg x Hx (eps / (2 * (B + 1)))) as (d2 & P2 & Q2); [apply Rdiv_lt_0_compat; lra|].
  exists (Rmin d1 d2). split; [now apply Rmin_pos|]. intros y Hy Hd.
  assert (A1 := Q1 y Hy (Rlt_le_trans _ _ _ Hd (Rmin_l _ _))). assert (A2 := Q2 y Hy (Rlt_le_trans _ _ _ Hd (Rmin_r _ _))).
  replace (f y * g y - f x * g x) with ((f y - f x) * g y + f x * (g y - g x)) by ring. apply Rle_trans with (1 := Rabs_triang _ _). rewrite !Rabs_mult.
  specialize (HB x Hx). specialize (HD y Hy).
  assert (E1 : Rabs (f y - f x) * Rabs (g y) <= eps / (2 * (D + 1)) * (D + 1)) by (apply Rmult_le_compat; try apply Rabs_pos; lra).
  assert (E2 : Rabs (f x) * Rabs (g y - g x) <= (B + 1) * (eps / (2 * (B + 1)))) by (apply Rmult_le_compat; try apply Rabs_pos; lra).
  replace (eps / (2 * (D + 1)) * (D + 1)) with (eps / 2) in E1 by (field; lra). replace ((B + 1) * (eps / (2 * (B + 1)))) with (eps / 2) in E2 by (field; lra). lra.
Qed.
Lemma cont_seen S T b : continuous_on S 0 T -> continuous_on (seen S T b) 0 T.
Proof.
  intros C. unfold seen. destruct b; [exact C|]. intros x Hx eps He. destruct (C (T - x) ltac:(lra) eps He) as (d & P & Q).
  exists d. split; [exact P|]. intros y Hy Hd. apply Q; [lra|]. replace (T - y - (T - x)) with (- (y - x)) by ring. now rewrite Rabs_Ropp.
Qed.
Lemma convolution_converges : forall K S T, continuous_on K 0 T -> continuous_on S 0 T -> 0 <= T -> forall eps, 0 < eps -> exists N, (2 <= N)%nat /\
  forall bm k s straight, (N <= length k)%nat -> (length k <= length s)%nat -> let h := T / INR (length k - 1) in let g := grid 0 h (length k) in
  near_samples 0 K g k -> near_samples 0 S g s ->
  exists v, naive_convolution bm k s h straight = Ok v /\ Rabs (v - RInt (fun t => K t * S (if straight then t else T - t)) 0 T) <= eps.
Proof.
  intros K S T CK CS HT eps He.
  assert (X : forall b, exists N, (2 <= N)%nat /\ forall n, (N <= n)%nat -> let g := grid 0 (T / INR (n - 1)) n in
     Rabs (areas g (map (fun t => K t * seen S T b t) g) - RInt (fun t => K t * seen S T b t) 0 T) <= eps).
  { intros b. destruct (grid_refines (fun t => K t * seen S T b t) 0 T eps) as (N & HN & A); auto.
    - apply cont_mul; [exact HT|exact CK|now apply cont_seen].
    - exists N. split; [exact HN|]. intros n Hn. specialize (A n Hn). rewrite Rminus_0_r in A. exact A. }
  destruct (X true) as (N1 & L1 & A1). destruct (X false) as (N2 & L2 & A2). exists (N1 + N2)%nat. split; [lia|].
  intros bm k s b Hk Hs h g Nk Ns. rewrite conv_areas by lia. eexists. split; [reflexivity|].
  assert (Hp : 0 < INR (length k - 1)) by (apply lt_0_INR; lia).
  assert (Hh : 0 <= h) by (apply Rmult_le_pos; [exact HT|left; now apply Rinv_0_lt_compat]).
  destruct (cont_bounded K 0 T HT CK) as (B & B0 & HB). destruct (cont_bounded S 0 T HT CS) as (D & D0 & HD).
  destruct (near_product 0 0 K S T B D k s h b ltac:(lia) Hh ltac:(unfold h; field; lra) HB HD Nk Ns) as [Np _].
  assert (E : lagged k s b = map (fun t => K t * seen S T b t) g).
  { apply nth_ext with 0 0; [rewrite lagged_length, map_length; unfold g; now rewrite grid_length|]. intros i Hi. rewrite lagged_length in Hi.
    specialize (Np i ltac:(rewrite grid_length; exact Hi)). fold g in Np.
    rewrite (nth_indep (map _ g) 0 ((fun t => K t * seen S T b t) 0)) by (rewrite map_length; unfold g; now rewrite grid_length). rewrite (map_nth (fun t => K t * seen S T b t)).
    replace (0 * D + B * 0 + 0 * 0) with 0 in Np by ring. apply Rabs_le_between in Np. lra. }
  rewrite E. unfold g, h. destruct b; [apply A1; lia|apply A2; lia].
Qed.

(** *** Examples: the square root, whose slope is unbounded at 0 *)
Lemma sqrt_mod h : modulus sqrt 0 1 h (sqrt h).
Proof.
  assert (W : forall s t, 0 <= s <= t -> t - s <= h -> sqrt t - sqrt s <= sqrt h).
  { intros s t H K. assert (0 <= h) by lra. apply Rle_trans with (sqrt (t - s)); [|apply sqrt_le_1; lra].
    assert (t = s + (t - s)) by ring. rewrite H1 at 1. pose proof (sqrt_pos s). pose proof (sqrt_pos (t - s)). assert (sqrt (s + (t - s)) <= sqrt s + sqrt (t - s)); [|lra].
    rewrite <- (sqrt_square (sqrt s + sqrt (t - s))) by lra. apply sqrt_le_1; [lra|nra|].
    pose proof (sqrt_sqrt s ltac:(lra)). pose proof (sqrt_sqrt (t - s) ltac:(lra)). nra. }
  intros s t Hs Ht Hst. apply Rabs_le_between in Hst. destruct (Rle_dec s t) as [L|L].
  - specialize (W s t ltac:(lra) ltac:(lra)). pose proof (sqrt_le_1 s t ltac:(lra) ltac:(lra) L). rewrite Rabs_left1; lra.
  - specialize (W t s ltac:(lra) ltac:(lra)). pose proof (sqrt_le_1 t s ltac:(lra) ltac:(lra) ltac:(lra)). rewrite Rabs_pos_eq; lra.
Qed.
Lemma sqrt_cont : continuous_on sqrt 0 1.
Proof.
  intros x Hx eps He. exists (eps ^ 2). split; [nra|]. intros y Hy Hd. rewrite <- (sqrt_pow2 eps) by lra. apply sqrt_mod; lra.
Qed.
Definition quarters : list R := [0; 1 / 4; 1 / 2; 3 / 4; 1].
Lemma quarters_inc : increasing quarters.
Proof.
  intros i j [H1 H2]. unfold quarters in *. cbn [length] in H2.
  assert (X : (i = 0 \/ i = 1 \/ i = 2 \/ i = 3)%nat) by lia. assert (Y : (j = 1 \/ j = 2 \/ j = 3 \/ j = 4)%nat) by lia.
  destruct X as [-> | [-> | [-> | ->]]], Y as [-> | [-> | [-> | ->]]]; try lia; cbn [nth]; lra.
Qed.
Lemma quarters_spacing : spacing (1 / 4) quarters.
Proof.
  intros i H. unfold quarters in *. cbn [length] in H. assert (X : (i = 0 \/ i = 1 \/ i = 2 \/ i = 3)%nat) by lia.
  destruct X as [-> | [-> | [-> | ->]]]; cbn [nth]; lra.
Qed.
Lemma ex_sqrt : forall x, 0 <= x <= 1 -> exists o v, new1d Debug LINEAR quarters (map sqrt quarters) = Ok o /\ eval1d o x = Ok v /\ Rabs (v - sqrt x) <= 1 / 2.
Proof.
  intros x Hx. apply (interp1d_modulus Debug LINEAR quarters sqrt (1 / 4) (1 / 2) x); [now left|apply quarters_inc|cbn; lia|apply quarters_spacing| |exact Hx].
  replace (1 / 2) with (sqrt (1 / 4)); [apply sqrt_mod|]. replace (1 / 4) with ((1 / 2) ^ 2) by field. apply sqrt_pow2. lra.
Qed.
Lemma ex_box : continuous_box [(0, 1); (0, 2)] (fun p => sqrt (nth 0 p 0) + nth 1 p 0) /\
  refines (1 / 2) [(0, 1); (0, 2)] [quarters; [0; 1 / 2; 1; 3 / 2; 2]] .
Proof.
  split.
  - intros p Hp eps He. inversion Hp as [|? x ? r Hx Hr]; subst. inversion Hr as [|? y ? r' Hy Hr']; subst. inversion Hr'; subst. simpl in Hx, Hy.
    destruct (sqrt_cont x Hx (eps / 2) ltac:(lra)) as (d & D1 & D2). exists (Rmin d (eps / 2)). split; [apply Rmin_pos; lra|].
    intros q Hq Hc. inversion Hq as [|? u ? s Hu Hs]; subst. inversion Hs as [|? v ? s' Hv Hs']; subst. inversion Hs'; subst. simpl in Hu, Hv.
    inversion Hc as [|? ? ? ? C1 C2]; subst. inversion C2 as [|? ? ? ? C3 _]; subst. cbn [nth].
    assert (A := D2 u Hu (Rlt_le_trans _ _ _ C1 (Rmin_l _ _))). assert (B := Rlt_le_trans _ _ _ C3 (Rmin_r _ _)).
    replace (sqrt u + v - (sqrt x + y)) with ((sqrt u - sqrt x) + (v - y)) by ring. apply Rle_trans with (1 := Rabs_triang _ _). lra.
  - constructor; [|constructor; [|constructor]]; (split; [split; [|discriminate]|split; [reflexivity|split; [reflexivity|]]]).
    + apply quarters_inc.
    + intros i H. pose proof (quarters_spacing i H). lra.
    + intros i j [H1 H2]. cbn [length] in H2.
      assert (X : (i = 0 \/ i = 1 \/ i = 2 \/ i = 3)%nat) by lia. assert (Y : (j = 1 \/ j = 2 \/ j = 3 \/ j = 4)%nat) by lia.
      destruct X as [-> | [-> | [-> | ->]]], Y as [-> | [-> | [-> | ->]]]; try lia; cbn [nth]; lra.
    + intros i H. cbn [length] in H. assert (X : (i = 0 \/ i = 1 \/ i = 2 \/ i = 3)%nat) by lia.
      destruct X as [-> | [-> | [-> | ->]]]; cbn [nth]; lra.
Qed.
Lemma ex_int : exists N, forall n, (N <= n)%nat -> (Z.of_nat n < 2 ^ 32)%Z -> exists v, snd (integ1_get (integ1_function sqrt 0 1 n)) = Ok v /\ Rabs (v - RInt sqrt 0 1) <= / 1000.
Proof. destruct (integrate_converges sqrt 0 1 sqrt_cont ltac:(lra) (/ 1000) ltac:(lra)) as (N & _ & H). exists N. exact H. Qed.
