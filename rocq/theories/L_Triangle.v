(** Triangle quadrature: value of Compute, moments of the tables. *)
From Coq Require Import List Arith ZArith QArith Qreals Reals Lra Lia Bool.
From Coquelicot Require Import Coquelicot.
From Verif Require Import Outcome Num NumFun M_Triangle S_Triangle.
Import ListNotations.
Close Scope Q_scope.
Local Open Scope R_scope.

Fixpoint lsum {A} (f : A -> R) (l : list A) : R := match l with [] => 0 | x :: l => f x + lsum f l end.
Lemma lsum_app {A} (f : A -> R) l l' : lsum f (l ++ l') = lsum f l + lsum f l'.
Proof. induction l as [|x l IH]; cbn [app lsum]; [lra|]. rewrite IH. lra. Qed.
Lemma lsum_ext {A} (f g : A -> R) l : (forall x, In x l -> f x = g x) -> lsum f l = lsum g l.
Proof. induction l as [|x l IH]; intros H; cbn [lsum]; [reflexivity|]. f_equal; [apply H; now left|apply IH; intros; apply H; now right]. Qed.
Lemma lsum_scal {A} c (f : A -> R) l : lsum (fun x => c * f x) l = c * lsum f l.
Proof. induction l as [|x l IH]; cbn [lsum]; [lra|]. rewrite IH. lra. Qed.
Lemma lsum_plus {A} (f g : A -> R) l : lsum (fun x => f x + g x) l = lsum f l + lsum g l.
Proof. induction l as [|x l IH]; cbn [lsum]; [lra|]. rewrite IH. lra. Qed.
Lemma lsum_0 {A} (l : list A) : lsum (fun _ => 0) l = 0.
Proof. induction l as [|x l IH]; cbn [lsum]; [lra|]. rewrite IH. lra. Qed.
Lemma lsum_swap {A B} (f : A -> B -> R) l l' : lsum (fun x => lsum (f x) l') l = lsum (fun y => lsum (fun x => f x y) l) l'.
Proof. induction l as [|x l IH]; cbn [lsum]; [now rewrite lsum_0|]. now rewrite IH, <- lsum_plus. Qed.
Lemma lsum_map {A B} (f : B -> R) (g : A -> B) l : lsum f (map g l) = lsum (fun x => f (g x)) l.
Proof. induction l as [|x l IH]; cbn [lsum map]; [reflexivity|]. now rewrite IH. Qed.
Lemma lsum_Rabs {A} (f : A -> R) l : Rabs (lsum f l) <= lsum (fun x => Rabs (f x)) l.
Proof. induction l as [|x l IH]; cbn [lsum]; [rewrite Rabs_R0; lra|]. eapply Rle_trans; [apply Rabs_triang|lra]. Qed.
Lemma lsum_le {A} (f g : A -> R) l : (forall x, In x l -> f x <= g x) -> lsum f l <= lsum g l.
Proof. induction l as [|x l IH]; intros H; cbn [lsum]; [lra|]. apply Rplus_le_compat; [apply H; now left|apply IH; intros; apply H; now right]. Qed.
Lemma lsum_fold {A} (f : A -> R) l : fold_right (fun x s => f x + s) 0 l = lsum f l.
Proof. induction l as [|x l IH]; cbn; [reflexivity|]. now rewrite IH. Qed.

(** The table of an order as points (alpha, beta, weight). *)
Definition zpt := ((Z * Z) * (Z * Z) * (Z * Z))%type.
Definition ztab (d : nat) : list zpt :=
  let '(a, b, w) := nth (d - 1) tri_tables ([], [], []) in combine (combine a b) w.
Definition lr (p : Z * Z) : R := IZR (fst p) / IZR (snd p).
Definition pa (p : zpt) : R := lr (fst (fst p)).
Definition pb (p : zpt) : R := lr (snd (fst p)).
Definition pw (p : zpt) : R := lr (snd p).

(** Weighted sum over the table. *)
Definition rule (d : nat) (g : R -> R -> R) : R := lsum (fun p => pw p * g (pa p) (pb p)) (ztab d) / 2.

Lemma area_ok (v1 v2 v3 : vec3 R) : 2 * ((IZR 1 / IZR 2) * v3_norm (v3_cross (v3_sub v1 v3) (v3_sub v2 v3))) = 2 * area v1 v2 v3.
Proof.
  unfold area, v3_norm. cbn [nsqrt RNumTr]. f_equal. unfold Rdiv at 2. rewrite (Rmult_comm (sqrt (_ - _))).
  f_equal; [lra|]. f_equal. unfold sq. destruct v1 as [x1 y1 z1], v2 as [x2 y2 z2], v3 as [x3 y3 z3]. cbn [v3_cross v3_sub vx vy vz]. cbv [nadd nsub nmul RNum RNum_at]. ring.
Qed.

Lemma fold_value (f : vec3 R -> R) v1 v2 v3 (alpha beta weight : list R) : length alpha = length weight -> length beta = length weight ->
  forall k m r, (m + k = length weight)%nat -> (0 < m)%nat ->
  foldM (fun res i =>
      let* a := vat alpha i in
      let* b := vat beta i in
      let x := v3_add (v3_add (v3_scal (nofZ 1 - a - b)%num v1) (v3_scal a v2)) (v3_scal b v3) in
      let* w := vat weight i in
      match i with
      | O => Ok (Some (vmull w (f x)))
      | S _ => match res with
               | None => UB
               | Some r => Ok (Some (vadd r (vmulr (f x) w)))
               end
      end) (Some r) (seq m k) =
  Ok (Some (r + lsum (fun i => nth i weight 0 * f (point v1 v2 v3 (nth i alpha 0) (nth i beta 0))) (seq m k))).
Proof.
  intros La Lb. induction k as [|k IH]; intros m r Hm Hp.
  - cbn. do 2 f_equal. lra.
  - cbn [seq foldM]. rewrite !(vat_lt _ m 0) by lia. cbn [bind]. destruct m as [|m]; [lia|]. cbn [bind].
    rewrite IH by lia. cbn [lsum]. do 2 f_equal. cbn [vadd vmulr VNum_self nadd nmul RNum RNum_at].
    rewrite Rplus_assoc. f_equal. f_equal. rewrite Rmult_comm. f_equal. f_equal.
    unfold point, v3_add, v3_scal. cbn [vx vy vz]. cbv [nadd nsub nmul nofZ RNum RNum_at]. f_equal; ring.
Qed.

Lemma rule_index (f : R -> R -> R) (a b w : list (Z * Z)) : length a = length w -> length b = length w ->
  lsum (fun i => nth i (map lr w) 0 * f (nth i (map lr a) 0) (nth i (map lr b) 0)) (seq 0 (length w)) =
  lsum (fun p => pw p * f (pa p) (pb p)) (combine (combine a b) w).
Proof.
  revert a b. induction w as [|w0 w IH]; intros [|a0 a] [|b0 b] La Lb; try discriminate; [reflexivity|].
  cbn [length seq combine lsum map nth]. f_equal. rewrite <- seq_shift.
  rewrite lsum_map. cbn [nth]. apply IH; cbn in *; lia.
Qed.

Definition orders := (seq 1 8).
Lemma order_in d : (1 <= d <= 8)%nat -> In d orders.
Proof. intros H. apply in_seq. lia. Qed.
Lemma table_ok d : (1 <= d <= 8)%nat -> exists a b w, nth (d - 1) tri_tables ([], [], []) = (a, b, w) /\
  length a = length w /\ length b = length w /\ (0 < length w)%nat /\ tri_table (T := R) (Z.of_nat d) = Ok (map lr a, map lr b, map lr w).
Proof.
  intros H. apply order_in in H. cbn in H.
  repeat (destruct H as [H|H]; [subst d; do 3 eexists; repeat split; cbn; lia|]). destruct H.
Qed.

Lemma standard_value (f : vec3 R -> R) d v1 v2 v3 : (1 <= d <= 8)%nat ->
  tri_standard (mkTri (Z.of_nat d) f) v1 v2 v3 = Ok (rule d (fun a b => f (point v1 v2 v3 a b))).
Proof.
  intros H. destruct (table_ok d H) as (a & b & w & E & La & Lb & Lw & Et).
  unfold tri_standard. cbn [t_order t_f]. rewrite Et. cbn [bind].
  rewrite map_length. destruct w as [|w0 w]; [cbn in Lw; lia|]. destruct a as [|a0 a]; [discriminate|]. destruct b as [|b0 b]; [discriminate|].
  cbn [length seq foldM]. rewrite !(vat_lt _ 0 0) by (cbn; lia). cbn [bind map nth].
  pose proof (fold_value f v1 v2 v3 (lr a0 :: map lr a) (lr b0 :: map lr b) (lr w0 :: map lr w)) as F.
  rewrite F by (cbn [length]; rewrite ?map_length; cbn [length] in *; lia). clear F. cbn [bind].
  f_equal. cbn [vmulr VNum_self nmul RNum RNum_at]. unfold rule, ztab. rewrite E. unfold nlit. cbn [ndiv nofZ RNum RNum_at].
  rewrite <- (rule_index (fun a b => f (point v1 v2 v3 a b))) by (cbn [length] in *; lia).
  cbn [length seq map lsum nth]. unfold Rdiv. rewrite Rmult_1_l. f_equal. f_equal.
  cbn [vmull VNum_self nmul RNum RNum_at]. f_equal. f_equal.
  unfold point, v3_add, v3_scal. cbn [vx vy vz]. cbv [nadd nsub nmul nofZ RNum RNum_at]. f_equal; ring.
Qed.
Lemma compute_value (f : vec3 R -> R) d v1 v2 v3 : (1 <= d <= 8)%nat ->
  (let* t := tri_new f (Z.of_nat d) in tri_compute t v1 v2 v3) =
  Ok (2 * area v1 v2 v3 * rule d (fun a b => f (point v1 v2 v3 a b))).
Proof.
  intros H. unfold tri_new. change (Z.of_nat (length tri_tables)) with 8%Z.
  destruct (Z.ltb_spec 8 (Z.of_nat d)); [lia|]. destruct (Z.ltb_spec (Z.of_nat d) 1); [lia|]. cbn [bind].
  unfold tri_compute. rewrite standard_value by exact H. cbn [bind]. f_equal.
  cbn [vmulr VNum_self nmul nofZ RNum RNum_at]. rewrite Rmult_comm. f_equal. apply area_ok.
Qed.
Lemma new_exit (f : vec3 R -> R) order : (order < 1 \/ 8 < order)%Z -> tri_new f order = Exit 0.
Proof.
  intros H. unfold tri_new. change (Z.of_nat (length tri_tables)) with 8%Z.
  destruct (Z.ltb_spec 8 order); [reflexivity|]. destruct (Z.ltb_spec order 1); [reflexivity|lia].
Qed.

(** *** Moments *)
Definition mono2 := (R * (nat * nat))%type.
Definition poly2 (l : list mono2) (a b : R) : R := lsum (fun m => fst m * (a ^ fst (snd m) * b ^ snd (snd m))) l.
Definition norm2 (l : list mono2) : R := lsum (fun m => Rabs (fst m)) l.
Definition deg2 (d : nat) (l : list mono2) := List.Forall (fun m => fst (snd m) + snd (snd m) <= d)%nat l.

(** Numerators over the common denominator 3 10^15. *)
Definition den : Z := 3000000000000000.
Definition num (p : Z * Z) : Z := fst p * (den / snd p).
Definition num_ok (p : Z * Z) : bool := (0 <? snd p)%Z && (den mod snd p =? 0)%Z.
Definition zmoment (l : list zpt) (i j : nat) : Z :=
  fold_right (fun p s => num (snd p) * (num (fst (fst p)) ^ Z.of_nat i * num (snd (fst p)) ^ Z.of_nat j) + s)%Z 0%Z l.
Fixpoint zfact (n : nat) : Z := match n with O => 1%Z | S n => (Z.of_nat (S n) * zfact n)%Z end.
(** Error of the moment, multiplied by 2 (i+j+2)! den^(i+j+1). *)
Definition zerr (d i j : nat) : Z :=
  (zmoment (ztab d) i j * zfact (i + j + 2) - 2 * zfact i * zfact j * den ^ Z.of_nat (i + j + 1))%Z.
Definition zscale (i j : nat) : Z := (2 * zfact (i + j + 2) * den ^ Z.of_nat (i + j + 1))%Z.
Definition check (d : nat) : bool :=
  forallb (fun p => num_ok (fst (fst p)) && num_ok (snd (fst p)) && num_ok (snd p)) (ztab d) &&
  forallb (fun i => forallb (fun j => Z.abs (zerr d i j) * 100000000000000 <=? 2 * zscale i j)%Z (seq 0 (d + 1 - i))) (seq 0 (d + 1)).
Lemma check_all : forallb check orders = true.
Proof. vm_compute. reflexivity. Qed.

Lemma num_eq p : num_ok p = true -> lr p = IZR (num p) / IZR den.
Proof.
  unfold num_ok. intros H. apply andb_prop in H. destruct H as [H1 H2]. apply Z.ltb_lt in H1. apply Z.eqb_eq in H2.
  unfold lr, num. assert (E : den = (snd p * (den / snd p))%Z) by (apply Z_div_exact_full_2; lia).
  rewrite E at 2. rewrite !mult_IZR. assert (IZR (snd p) <> 0) by (apply not_0_IZR; lia).
  assert (IZR (den / snd p) <> 0). { apply not_0_IZR. intros E0. rewrite E0, Z.mul_0_r in E. discriminate E. }
  field. auto.
Qed.
Lemma zfact_ok n : IZR (zfact n) = INR (fact n).
Proof.
  induction n as [|n IH]; [reflexivity|]. cbn [zfact]. rewrite mult_IZR, IH, <- INR_IZR_INZ, fact_simpl, mult_INR. reflexivity.
Qed.
Lemma IZR_pow z n : IZR (z ^ Z.of_nat n) = IZR z ^ n.
Proof. symmetry. apply pow_IZR. Qed.
Lemma den_pos : 0 < IZR den.
Proof. apply IZR_lt. reflexivity. Qed.
Lemma zmoment_ok l i j :
  forallb (fun p => num_ok (fst (fst p)) && num_ok (snd (fst p)) && num_ok (snd p)) l = true ->
  lsum (fun p => pw p * (pa p ^ i * pb p ^ j)) l = IZR (zmoment l i j) / IZR den ^ (i + j + 1).
Proof.
  pose proof den_pos as D. induction l as [|p l IH]; intros H; cbn [lsum zmoment fold_right].
  - unfold Rdiv. ring.
  - cbn [forallb] in H. apply andb_prop in H. destruct H as [Hp Hl]. apply andb_prop in Hp. destruct Hp as [Hp H3].
    apply andb_prop in Hp. destruct Hp as [H1 H2]. rewrite IH by exact Hl. unfold pw, pa, pb. rewrite !num_eq by assumption.
    rewrite plus_IZR, !mult_IZR, !IZR_pow. fold (zmoment l i j).
    replace (i + j + 1)%nat with (i + (j + 1))%nat by lia. rewrite !pow_add, pow_1.
    unfold Rdiv. rewrite !Rpow_mult_distr, !pow_inv. field.
    repeat split; try apply pow_nonzero; lra.
Qed.

(** Exact moments over the standard triangle. *)
Definition moment (i j : nat) : R := INR (fact i) * INR (fact j) / INR (fact (i + j + 2)).
Definition beta_int (i k : nat) : R := INR (fact i) * INR (fact k) / INR (fact (i + k + 1)).
Lemma is_beta : forall k i, is_RInt (fun t => t ^ i * (1 - t) ^ k) 0 1 (beta_int i k).
Proof.
  induction k as [|k IH]; intros i.
  - assert (E : beta_int i 0 = minus ((fun t => t ^ (i + 1) / INR (i + 1)) 1) ((fun t => t ^ (i + 1) / INR (i + 1)) 0)).
    { unfold beta_int, minus, plus, opp. cbn -[INR fact pow]. replace (i + 0 + 1)%nat with (S i) by lia. replace (i + 1)%nat with (S i) by lia.
      rewrite pow1, pow_i by lia. rewrite (fact_simpl i), mult_INR. change (fact 0) with 1%nat. simpl (INR 1).
      pose proof (INR_fact_neq_0 i). pose proof (not_0_INR (S i) ltac:(lia)). field. auto. }
    rewrite E. apply (is_RInt_ext (fun t => t ^ i)); [intros; simpl; ring|].
    apply (is_RInt_derive (fun t => t ^ (i + 1) / INR (i + 1))).
    + intros t _. pose proof (not_0_INR (i + 1) ltac:(lia)). auto_derive; [auto|]. rewrite Nat.add_1_r. simpl pred. rewrite Nat.add_1_r in *. field. assumption.
    + intros t _. apply continuity_pt_filterlim. apply derivable_continuous_pt. apply derivable_pt_pow.
  - (* by parts *)
    set (F := fun t : R => t ^ S i * (1 - t) ^ S k / INR (S i)).
    assert (Hi : INR (S i) <> 0) by (apply not_0_INR; lia).
    assert (D : is_RInt (fun t => t ^ i * (1 - t) ^ S k - INR (S k) / INR (S i) * (t ^ S i * (1 - t) ^ k)) 0 1 (minus (F 1) (F 0))).
    { apply (is_RInt_derive F).
      - intros t _. unfold F. auto_derive; [auto|]. change (match i with 0%nat => 1 | S _ => INR i + 1 end) with (INR (S i)). change (match k with 0%nat => 1 | S _ => INR k + 1 end) with (INR (S k)).
        change (1 + - t) with (1 - t). rewrite <- !tech_pow_Rmult. field. exact Hi.
      - intros t _. apply continuity_pt_filterlim. apply derivable_continuous_pt. exists (Derive (fun t => t ^ i * (1 - t) ^ S k - INR (S k) / INR (S i) * (t ^ S i * (1 - t) ^ k)) t).
        apply is_derive_Reals, Derive_correct. auto_derive. auto. }
    assert (E0 : minus (F 1) (F 0) = 0).
    { unfold F, minus, plus, opp. cbn -[INR pow]. rewrite (pow_i (S i)) by lia. replace (1 - 1) with 0 by ring. rewrite (pow_i (S k)) by lia. field. exact Hi. }
    rewrite E0 in D.
    pose proof (is_RInt_scal _ _ _ (INR (S k) / INR (S i)) _ (IH (S i))) as S1.
    pose proof (is_RInt_plus _ _ _ _ _ _ D S1) as P.
    replace (beta_int i (S k)) with (plus 0 (scal (INR (S k) / INR (S i)) (beta_int (S i) k))).
    + apply (is_RInt_ext _ _ _ _ _) with (2 := P). intros t _. unfold plus, scal. simpl. unfold mult. simpl. ring.
    + change (0 + INR (S k) / INR (S i) * beta_int (S i) k = beta_int i (S k)). unfold beta_int.
      replace (S i + k + 1)%nat with (i + S k + 1)%nat by lia. rewrite (fact_simpl i), (fact_simpl k), !mult_INR.
      field. split; [apply INR_fact_neq_0|exact Hi].
Qed.
Lemma is_inner a i j : is_RInt (fun b => a ^ i * b ^ j) 0 (1 - a) (a ^ i * (1 - a) ^ S j / INR (S j)).
Proof.
  assert (Hj : INR (S j) <> 0) by (apply not_0_INR; lia).
  pose proof (is_RInt_derive (fun b => a ^ i * b ^ S j / INR (S j)) (fun b => a ^ i * b ^ j) 0 (1 - a)) as D.
  match type of D with _ -> _ -> is_RInt _ _ _ ?v => assert (E : v = a ^ i * (1 - a) ^ S j / INR (S j)) end.
  { unfold minus, plus, opp. cbn -[INR pow]. rewrite (pow_i (S j)) by lia. field. exact Hj. }
  rewrite <- E. apply D.
  - intros t _. auto_derive; [auto|]. change (match j with 0%nat => 1 | S _ => INR j + 1 end) with (INR (S j)). field. exact Hj.
  - intros t _. apply continuity_pt_filterlim. apply derivable_continuous_pt. exists (Derive (fun b => a ^ i * b ^ j) t).
    apply is_derive_Reals, Derive_correct. auto_derive. auto.
Qed.
Lemma is_outer i j : is_RInt (fun a => a ^ i * (1 - a) ^ S j / INR (S j)) 0 1 (moment i j).
Proof.
  pose proof (is_RInt_scal _ _ _ (/ INR (S j)) _ (is_beta (S j) i)) as P.
  replace (moment i j) with (scal (/ INR (S j)) (beta_int i (S j))).
  - apply (is_RInt_ext _ _ _ _ _) with (2 := P). intros t _. unfold scal. cbn -[INR pow]. unfold mult. cbn -[INR pow]. unfold Rdiv. ring.
  - change (/ INR (S j) * beta_int i (S j) = moment i j). unfold beta_int, moment.
    replace (i + S j + 1)%nat with (i + j + 2)%nat by lia. rewrite (fact_simpl j), !mult_INR. field.
    split; [apply INR_fact_neq_0|apply not_0_INR; lia].
Qed.
Lemma is_lsum {A} (f : A -> R -> R) (v : A -> R) a b (l : list A) : (forall m, is_RInt (f m) a b (v m)) ->
  is_RInt (fun t => lsum (fun m => f m t) l) a b (lsum v l).
Proof.
  intros H. induction l as [|m l IH]; cbn [lsum].
  - pose proof (is_RInt_const (V := R_NormedModule) a b 0) as P.
    change (is_RInt (fun _ : R => 0) a b ((b - a) * 0)) in P. rewrite Rmult_0_r in P. exact P.
  - apply (is_RInt_plus (V := R_NormedModule)); [apply H|exact IH].
Qed.
Lemma poly2_exact l : RInt (fun a => RInt (fun b => poly2 l a b) 0 (1 - a)) 0 1 = lsum (fun m => fst m * moment (fst (snd m)) (snd (snd m))) l.
Proof.
  apply is_RInt_unique.
  apply (is_RInt_ext (fun a => lsum (fun m => fst m * (a ^ fst (snd m) * (1 - a) ^ S (snd (snd m)) / INR (S (snd (snd m))))) l)).
  - intros a _. symmetry. apply is_RInt_unique. unfold poly2.
    apply (is_lsum (fun m b => fst m * (a ^ fst (snd m) * b ^ snd (snd m)))). intros m. apply (is_RInt_scal (V := R_NormedModule)), is_inner.
  - apply (is_lsum (fun m a => fst m * (a ^ fst (snd m) * (1 - a) ^ S (snd (snd m)) / INR (S (snd (snd m)))))).
    intros m. apply (is_RInt_scal (V := R_NormedModule)), is_outer.
Qed.
Lemma rule_poly2 d l : rule d (poly2 l) = lsum (fun m => fst m * rule d (fun a b => a ^ fst (snd m) * b ^ snd (snd m))) l.
Proof.
  unfold rule, poly2. unfold Rdiv. rewrite Rmult_comm, <- lsum_scal.
  rewrite (lsum_ext _ (fun p => lsum (fun m => / 2 * (pw p * (fst m * (pa p ^ fst (snd m) * pb p ^ snd (snd m))))) l)).
  2:{ intros p _. rewrite !lsum_scal. reflexivity. }
  rewrite lsum_swap. apply lsum_ext. intros m _.
  rewrite <- (Rmult_comm (/ 2)), <- !lsum_scal. apply lsum_ext. intros p _. ring.
Qed.
Lemma rule_moment d i j : (1 <= d <= 8)%nat -> (i + j <= d)%nat ->
  Rabs (rule d (fun a b => a ^ i * b ^ j) - moment i j) <= 2 / 10 ^ 14.
Proof.
  intros Hd Hij. pose proof check_all as C. rewrite forallb_forall in C. specialize (C d (order_in d Hd)).
  unfold check in C. apply andb_prop in C. destruct C as [C1 C2].
  rewrite forallb_forall in C2. specialize (C2 i ltac:(apply in_seq; lia)).
  rewrite forallb_forall in C2. specialize (C2 j ltac:(apply in_seq; lia)). apply Z.leb_le in C2. apply IZR_le in C2.
  assert (Hs : 0 < IZR (zscale i j)).
  { unfold zscale. rewrite !mult_IZR, IZR_pow, zfact_ok. pose proof (INR_fact_lt_0 (i + j + 2)). pose proof (pow_lt _ (i + j + 1) den_pos).
    apply Rmult_lt_0_compat; [lra|assumption]. }
  assert (E : rule d (fun a b => a ^ i * b ^ j) - moment i j = IZR (zerr d i j) / IZR (zscale i j)).
  { unfold rule. rewrite zmoment_ok by exact C1. unfold moment, zerr, zscale. rewrite minus_IZR, !mult_IZR, IZR_pow, !zfact_ok.
    pose proof (INR_fact_neq_0 (i + j + 2)). pose proof (pow_nonzero (IZR den) (i + j + 1) ltac:(pose proof den_pos; lra)). field. auto. }
  rewrite E. rewrite !mult_IZR, abs_IZR in C2. unfold Rdiv. rewrite Rabs_mult, (Rabs_right (/ _)) by (left; now apply Rinv_0_lt_compat).
  apply (Rmult_le_reg_r (IZR (zscale i j))); [exact Hs|]. rewrite Rmult_assoc, Rinv_l, Rmult_1_r by lra. lra.
Qed.
Lemma rule_error d l : (1 <= d <= 8)%nat -> deg2 d l ->
  Rabs (rule d (poly2 l) - RInt (fun a => RInt (fun b => poly2 l a b) 0 (1 - a)) 0 1) <= 2 / 10 ^ 14 * norm2 l.
Proof.
  intros Hd Hl. rewrite poly2_exact, rule_poly2.
  unfold deg2 in Hl. rewrite List.Forall_forall in Hl.
  replace (lsum _ l - lsum _ l) with (lsum (fun m => fst m * (rule d (fun a b => a ^ fst (snd m) * b ^ snd (snd m)) - moment (fst (snd m)) (snd (snd m)))) l).
  2:{ clear. induction l as [|m l IH]; cbn [lsum]; [lra|]. rewrite IH. lra. }
  eapply Rle_trans; [apply lsum_Rabs|]. unfold norm2. rewrite <- lsum_scal. apply lsum_le. intros m Hm.
  rewrite Rabs_mult, Rmult_comm. apply Rmult_le_compat_r; [apply Rabs_pos|]. apply rule_moment; auto.
Qed.

(** *** Polynomials in space restricted to the triangle *)
Definition mul2 (l l' : list mono2) : list mono2 :=
  flat_map (fun m => map (fun m' => (fst m * fst m', (fst (snd m) + fst (snd m'), snd (snd m) + snd (snd m'))%nat)) l') l.
Lemma mul2_at l l' a b : poly2 (mul2 l l') a b = poly2 l a b * poly2 l' a b.
Proof.
  unfold poly2, mul2. induction l as [|m l IH]; cbn [flat_map lsum]; [lra|]. rewrite lsum_app, IH, lsum_map, Rmult_plus_distr_r. f_equal.
  rewrite <- lsum_scal. apply lsum_ext. intros m' _. cbn [fst snd]. rewrite !pow_add. ring.
Qed.
Lemma mul2_norm l l' : norm2 (mul2 l l') = norm2 l * norm2 l'.
Proof.
  unfold norm2, mul2. induction l as [|m l IH]; cbn [flat_map lsum]; [lra|]. rewrite lsum_app, IH, lsum_map, Rmult_plus_distr_r. f_equal.
  rewrite <- lsum_scal. apply lsum_ext. intros m' _. cbn [fst]. apply Rabs_mult.
Qed.
Lemma mul2_deg d d' l l' : deg2 d l -> deg2 d' l' -> deg2 (d + d') (mul2 l l').
Proof.
  unfold deg2. rewrite !List.Forall_forall. intros H H' x Hx. unfold mul2 in Hx. apply in_flat_map in Hx. destruct Hx as (m & Hm & Hx).
  apply in_map_iff in Hx. destruct Hx as (m' & <- & Hm'). cbn [fst snd]. specialize (H _ Hm). specialize (H' _ Hm'). lia.
Qed.
Definition one2 : list mono2 := [(1, (0, 0)%nat)].
Fixpoint pow2l (l : list mono2) (n : nat) : list mono2 := match n with O => one2 | S n => mul2 l (pow2l l n) end.
Lemma pow2l_at l n a b : poly2 (pow2l l n) a b = poly2 l a b ^ n.
Proof. induction n as [|n IH]; cbn [pow2l pow]; [unfold poly2; cbn; lra|]. now rewrite mul2_at, IH. Qed.
Lemma pow2l_norm l n : norm2 (pow2l l n) = norm2 l ^ n.
Proof. induction n as [|n IH]; cbn [pow2l pow]; [unfold norm2; cbn; rewrite Rabs_R1; lra|]. now rewrite mul2_norm, IH. Qed.
Lemma pow2l_deg l n : deg2 1 l -> deg2 n (pow2l l n).
Proof. intros H. induction n as [|n IH]; cbn [pow2l]; [repeat constructor|]. now apply (mul2_deg 1 n). Qed.
Definition lin2 (p q r : R) : list mono2 := [(p, (0, 0)%nat); (q - p, (1, 0)%nat); (r - p, (0, 1)%nat)].
Lemma lin2_at p q r a b : poly2 (lin2 p q r) a b = p + a * (q - p) + b * (r - p).
Proof. unfold poly2, lin2. cbn. ring. Qed.
Lemma lin2_norm p q r : norm2 (lin2 p q r) = reach p q r.
Proof. unfold norm2, lin2, reach. cbn. ring. Qed.
Lemma lin2_deg p q r : deg2 1 (lin2 p q r).
Proof. unfold lin2. repeat constructor. Qed.
Definition pull_mono (p q r : vec3 R) (m : mono3) : list mono2 :=
  mul2 (mul2 (mul2 [(m_c m, (0, 0)%nat)] (pow2l (lin2 (vx p) (vx q) (vx r)) (m_i m))) (pow2l (lin2 (vy p) (vy q) (vy r)) (m_j m)))
       (pow2l (lin2 (vz p) (vz q) (vz r)) (m_k m)).
Definition pull (p q r : vec3 R) (l : list mono3) : list mono2 := flat_map (pull_mono p q r) l.
Lemma pull_at p q r l a b : poly2 (pull p q r l) a b = poly3 l (point p q r a b).
Proof.
  induction l as [|m l IH]; [reflexivity|]. unfold pull. cbn [flat_map poly3 fold_right]. unfold poly2. rewrite lsum_app.
  change (poly2 (pull_mono p q r m) a b + poly2 (pull p q r l) a b = mono_at m (point p q r a b) + poly3 l (point p q r a b)). rewrite IH. f_equal.
  unfold pull_mono, mono_at. rewrite !mul2_at, !pow2l_at, !lin2_at. unfold poly2. cbn [lsum fst snd pow point vx vy vz]. ring.
Qed.
Lemma pull_norm p q r l : norm2 (pull p q r l) = size l p q r.
Proof.
  induction l as [|m l IH]; [reflexivity|]. unfold pull. cbn [flat_map size fold_right]. unfold norm2. rewrite lsum_app.
  change (norm2 (pull_mono p q r m) + norm2 (pull p q r l) = Rabs (m_c m) * reach (vx p) (vx q) (vx r) ^ m_i m * reach (vy p) (vy q) (vy r) ^ m_j m
                         * reach (vz p) (vz q) (vz r) ^ m_k m + size l p q r). rewrite IH. f_equal.
  unfold pull_mono. rewrite !mul2_norm, !pow2l_norm, !lin2_norm. unfold norm2. cbn [lsum fst]. ring.
Qed.
Lemma pull_deg p q r d l : degree_le d l -> deg2 d (pull p q r l).
Proof.
  unfold degree_le. intros H. induction H as [|m l Hm Hl IH]; [constructor|]. unfold pull. cbn [flat_map]. unfold deg2. apply List.Forall_app. split; [|exact IH].
  assert (G : deg2 (0 + m_i m + m_j m + m_k m) (pull_mono p q r m)).
  { unfold pull_mono. repeat apply mul2_deg; try (apply pow2l_deg, lin2_deg). repeat constructor. }
  eapply List.Forall_impl; [|exact G]. cbn beta. intros x Hx. lia.
Qed.
Lemma area_pos p q r : 0 <= area p q r.
Proof. unfold area. apply Rmult_le_pos; [apply sqrt_pos|lra]. Qed.

Lemma degree_lemma d l p q r : (1 <= d <= 8)%nat -> degree_le d l ->
  exists v, (let* t := tri_new (poly3 l) (Z.of_nat d) in tri_compute t p q r) = Ok v /\
    Rabs (v - surface_integral (poly3 l) p q r) <= 2 * area p q r * (2 / 10 ^ 14 * size l p q r).
Proof.
  intros Hd Hl. eexists. split; [apply compute_value; exact Hd|]. unfold surface_integral.
  rewrite <- Rmult_minus_distr_l, Rabs_mult, (Rabs_right (2 * _)) by (pose proof (area_pos p q r); lra).
  apply Rmult_le_compat_l; [pose proof (area_pos p q r); lra|].
  assert (Er : rule d (fun a b => poly3 l (point p q r a b)) = rule d (poly2 (pull p q r l))).
  { unfold rule. f_equal. apply lsum_ext. intros x _. now rewrite pull_at. }
  rewrite Er. rewrite (RInt_ext _ (fun a => RInt (fun b => poly2 (pull p q r l) a b) 0 (1 - a))).
  2:{ intros a _. apply RInt_ext. intros b _. now rewrite pull_at. }
  rewrite <- pull_norm. apply rule_error; [exact Hd|now apply pull_deg].
Qed.
