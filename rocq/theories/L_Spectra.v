(** Superposition, delay and convolution of transformed signals. *)
From Coq Require Import List Arith ZArith Reals Lra Lia Bool.
From Verif Require Import Outcome Num M_Basics S_Basics M_Integ S_Series L_Series S_Integ L_Integ L_Integ2 M_FFT S_FFT L_FFT S_Spectra.
Import ListNotations.
Open Scope R_scope.

(** ** Angles *)
Lemma angle_mod n a k : (0 < n)%nat ->
  cos (angle n (a mod n) k) = cos (angle n a k) /\ sin (angle n (a mod n) k) = sin (angle n a k).
Proof.
  intros Hn. assert (N : INR n <> 0) by (apply not_0_INR; lia).
  assert (E : angle n a k = angle n (a mod n) k + 2 * PI * IZR (Z.of_nat (a / n * k))).
  { unfold angle. rewrite <- INR_IZR_INZ, mult_INR.
    replace (INR a) with (INR n * INR (a / n) + INR (a mod n)).
    - field. exact N.
    - rewrite <- mult_INR, <- plus_INR. f_equal. symmetry. apply Nat.div_mod. lia. }
  rewrite E, cos_per, sin_per. split; reflexivity.
Qed.
Lemma angle_plus n a b k : angle n (a + b) k = angle n a k + angle n b k.
Proof. unfold angle. rewrite plus_INR. unfold Rdiv. ring. Qed.

(** ** Rotations of a sum *)
Lemma bsum_turn1 n g : (0 < n)%nat -> bsum n (fun m => g ((m + 1) mod n)) = bsum n g.
Proof.
  intros Hn. destruct n as [|n]; [lia|]. cbn [bsum]. rewrite (bsum_ext n _ (fun m => g (S m))).
  - replace ((n + 1) mod S n)%nat with 0%nat by (replace (n + 1)%nat with (1 * S n)%nat by lia; symmetry; apply Nat.mod_mul; lia).
    pose proof (bsum_shift n g) as H. cbn [bsum] in H. lra.
  - intros i Hi. f_equal. rewrite Nat.mod_small by lia. lia.
Qed.
Lemma bsum_turn n d : forall g, (0 < n)%nat -> bsum n (fun m => g ((m + d) mod n)) = bsum n g.
Proof.
  induction d as [|d IH]; intros g Hn.
  - apply bsum_ext. intros i Hi. f_equal. rewrite Nat.add_0_r. apply Nat.mod_small, Hi.
  - rewrite <- (IH g Hn). rewrite <- (bsum_turn1 n (fun x => g ((x + d) mod n))) by exact Hn.
    apply bsum_ext. intros i Hi. f_equal. rewrite Nat.add_mod_idemp_l by lia. f_equal. lia.
Qed.

(** ** Delays *)
Lemma later_length d v : length (later d v) = length v.
Proof. unfold later. rewrite app_length, skipn_length, firstn_length. lia. Qed.
Lemma nth_skipn' (l : list R) a i : nth i (skipn a l) 0 = nth (a + i) l 0.
Proof. revert l; induction a as [|a IH]; intros [|x l]; cbn [skipn plus]; [destruct i; reflexivity|reflexivity|destruct i; reflexivity|]. rewrite IH. reflexivity. Qed.
Lemma nth_firstn' (l : list R) a i : (i < a)%nat -> nth i (firstn a l) 0 = nth i l 0.
Proof. revert l i; induction a as [|a IH]; intros [|x l] [|i] H; cbn [firstn nth]; try reflexivity; try lia. apply IH. lia. Qed.
Lemma later_nth d v m : (d <= length v)%nat -> (m < length v)%nat -> nth m (later d v) 0 = nth ((m + (length v - d)) mod length v) v 0.
Proof.
  intros Hd Hm. set (n := length v) in *. unfold later. fold n. destruct (le_lt_dec d m) as [H|H].
  - rewrite app_nth2 by (rewrite skipn_length; fold n; lia). rewrite skipn_length. fold n.
    rewrite nth_firstn' by lia. f_equal. replace (m + (n - d))%nat with (m - d + 1 * n)%nat by lia.
    rewrite Nat.mod_add by lia. rewrite Nat.mod_small by lia. lia.
  - rewrite app_nth1 by (rewrite skipn_length; fold n; lia). rewrite nth_skipn'. f_equal. rewrite Nat.mod_small by lia. lia.
Qed.
Lemma later_dft d v k : (d <= length v)%nat -> (0 < length v)%nat -> dft (later d v) k = times (dft v k) (turn (angle (length v) d k)).
Proof.
  intros Hd Hn. unfold dft. rewrite later_length. set (n := length v) in *.
  assert (G : forall f : R -> R, (forall a, f (angle n (a mod n) k) = f (angle n a k)) ->
     bsum n (fun j => nth j (later d v) 0 * f (angle n j k)) = bsum n (fun l => nth l v 0 * f (angle n l k + angle n d k))).
  { intros f Hf. rewrite <- (bsum_turn n (n - d) (fun l => nth l v 0 * f (angle n l k + angle n d k))) by exact Hn.
    apply bsum_ext. intros j Hj. rewrite (later_nth d v j Hd Hj). fold n. f_equal.
    rewrite <- angle_plus. rewrite <- (Hf ((j + (n - d)) mod n + d)%nat). rewrite Nat.add_mod_idemp_l by lia.
    replace (j + (n - d) + d)%nat with (j + 1 * n)%nat by lia. rewrite Nat.mod_add by lia. symmetry. apply Hf. }
  rewrite (G cos (fun a => proj1 (angle_mod n a k Hn))), (G sin (fun a => proj2 (angle_mod n a k Hn))).
  unfold times, turn. cbn [fst snd]. f_equal.
  - rewrite (bsum_ext n _ (fun l => nth l v 0 * cos (angle n l k) * cos (angle n d k) + - (nth l v 0 * sin (angle n l k) * sin (angle n d k)))).
    + rewrite bsum_plus, bsum_scal_r. rewrite (bsum_ext n (fun i => - _) (fun l => nth l v 0 * sin (angle n l k) * (- sin (angle n d k)))) by (intros; ring).
      rewrite bsum_scal_r. ring.
    + intros l Hl. rewrite cos_plus. ring.
  - rewrite (bsum_ext n (fun l => nth l v 0 * sin _) (fun l => nth l v 0 * sin (angle n l k) * cos (angle n d k) + nth l v 0 * cos (angle n l k) * sin (angle n d k))).
    + rewrite bsum_plus, !bsum_scal_r. ring.
    + intros l Hl. rewrite sin_plus. ring.
Qed.

(** ** Cyclic convolution *)
Lemma cyclic_length v w : length (cyclic v w) = length v.
Proof. unfold cyclic. rewrite map_length, seq_length. reflexivity. Qed.
Lemma map_seq_nthR (g : nat -> R) n k : (k < n)%nat -> nth k (map g (seq 0 n)) 0 = g k.
Proof.
  intros H. rewrite (nth_indep _ 0 (g 0%nat)) by (rewrite map_length, seq_length; exact H).
  rewrite map_nth, seq_nth by exact H. reflexivity.
Qed.
Lemma cyclic_dft v w k : length w = length v -> dft (cyclic v w) k = times (dft v k) (dft w k).
Proof.
  intros Hw. destruct (Nat.eq_dec (length v) 0) as [H0|H0].
  { unfold times, dft. rewrite cyclic_length, Hw, H0. cbn [bsum fst snd]. f_equal; ring. }
  set (n := length v) in *.
  assert (G : forall f : nat -> R, bsum n (fun m => nth m (cyclic v w) 0 * f m) = bsum n (fun j => nth j v 0 * bsum n (fun m => nth m (later j w) 0 * f m))).
  { intros f. rewrite (bsum_ext n _ (fun m => bsum n (fun j => nth j v 0 * (nth m (later j w) 0 * f m)))).
    - rewrite bsum_swap. apply bsum_ext. intros j Hj. rewrite <- bsum_scal. reflexivity.
    - intros m Hm. unfold cyclic. fold n. rewrite map_seq_nthR by exact Hm. rewrite <- bsum_scal_r. apply bsum_ext. intros; ring. }
  assert (D : forall j, (j < n)%nat -> bsum n (fun m => nth m (later j w) 0 * cos (angle n m k)) = fst (times (dft w k) (turn (angle n j k)))
    /\ bsum n (fun m => nth m (later j w) 0 * sin (angle n m k)) = - snd (times (dft w k) (turn (angle n j k)))).
  { intros j Hj. assert (E := later_dft j w k ltac:(lia) ltac:(lia)). unfold dft in E at 1. rewrite later_length, Hw in E.
    rewrite <- E. cbn [fst snd]. split; [reflexivity|ring]. }
  unfold dft at 1. rewrite cyclic_length. fold n. rewrite !G.
  rewrite (bsum_ext n (fun j => nth j v 0 * bsum n (fun m => _ * cos _)) (fun j => nth j v 0 * cos (angle n j k) * fst (dft w k) + nth j v 0 * sin (angle n j k) * snd (dft w k))).
  2:{ intros j Hj. rewrite (proj1 (D j Hj)). unfold times, turn. cbn [fst snd]. ring. }
  rewrite (bsum_ext n (fun j => nth j v 0 * bsum n (fun m => _ * sin _)) (fun j => nth j v 0 * sin (angle n j k) * fst (dft w k) + nth j v 0 * cos (angle n j k) * (- snd (dft w k)))).
  2:{ intros j Hj. rewrite (proj2 (D j Hj)). unfold times, turn. cbn [fst snd]. ring. }
  rewrite !bsum_plus, !bsum_scal_r. unfold times. change (fst (dft v k)) with (bsum n (fun j => nth j v 0 * cos (angle n j k))).
  change (snd (dft v k)) with (- bsum n (fun j => nth j v 0 * sin (angle n j k))). f_equal; ring.
Qed.

(** ** Superposition *)
Lemma axpy_nth0 a b v w j : length w = length v -> nth j (axpy a b v w) 0 = a * nth j v 0 + b * nth j w 0.
Proof.
  revert w j; induction v as [|x v IH]; intros [|y w] [|j] H; try discriminate; cbn [axpy combine map nth fst snd]; try ring.
  apply IH. cbn in H. lia.
Qed.
Lemma axpy_dft a b v w k : length w = length v -> dft (axpy a b v w) k = mixed a b (dft v k) (dft w k).
Proof.
  intros H. unfold dft. rewrite axpy_length, H by (symmetry; exact H). set (n := length v). unfold mixed. cbn [fst snd].
  assert (G : forall f, bsum n (fun j => nth j (axpy a b v w) 0 * f j) = a * bsum n (fun j => nth j v 0 * f j) + b * bsum n (fun j => nth j w 0 * f j)).
  { intros f. rewrite <- !bsum_scal, <- bsum_plus. apply bsum_ext. intros j _. rewrite axpy_nth0 by exact H. ring. }
  rewrite !G. f_equal. ring.
Qed.

(** ** The wrapper *)
Lemma products_map (f g : nat -> R * R) l : products (map f l) (map g l) = map (fun k => times (f k) (g k)) l.
Proof. unfold products. induction l as [|x l IH]; [reflexivity|]. cbn [map combine fst snd]. f_equal. exact IH. Qed.
Lemma mixed_map a b (f g : nat -> R * R) l : map (fun p => mixed a b (fst p) (snd p)) (combine (map f l) (map g l)) = map (fun k => mixed a b (f k) (g k)) l.
Proof. induction l as [|x l IH]; [reflexivity|]. cbn [map combine fst snd]. f_equal. exact IH. Qed.
Lemma not_empty (v : list R) : (0 < length v)%nat -> v <> [].
Proof. intros H ->. cbn in H. lia. Qed.
Lemma some_length (v : list R) : v <> [] -> (0 < length v)%nat.
Proof. destruct v; [congruence|cbn; lia]. Qed.

Section Wrap.
Variables (kfwd : list R -> nat -> R * R) (kinv : nat -> list (R * R) -> nat -> R).
Hypothesis E : engine kfwd kinv.

Lemma superposition_pf fl a b v w : v <> [] -> length w = length v ->
  exists X Y, fft kfwd fl v = Ok X /\ fft kfwd fl w = Ok Y /\ length Y = length X /\
    fft kfwd fl (axpy a b v w) = Ok (map (fun p => mixed a b (fst p) (snd p)) (combine X Y)).
Proof.
  intros Hv Hw. assert (L := some_length v Hv). exists (map (dft v) (seq 0 (width fl (length v)))), (map (dft w) (seq 0 (width fl (length v)))).
  split; [apply (fft_ok kfwd kinv E), Hv|]. split; [rewrite <- Hw; apply (fft_ok kfwd kinv E), not_empty; lia|]. split; [rewrite !map_length; reflexivity|].
  rewrite (fft_ok kfwd kinv E) by (apply not_empty; rewrite axpy_length; lia). rewrite axpy_length by lia. rewrite mixed_map. f_equal.
  apply map_ext. intros k. apply axpy_dft, Hw.
Qed.
Lemma delay_pf fl d v : v <> [] -> (d <= length v)%nat ->
  exists X Y, fft kfwd fl v = Ok X /\ fft kfwd fl (later d v) = Ok Y /\ length Y = length X /\
    forall k, (k < length X)%nat -> nth k Y (0, 0) = times (nth k X (0, 0)) (turn (2 * PI * INR k * INR d / INR (length v))).
Proof.
  intros Hv Hd. assert (L := some_length v Hv). exists (map (dft v) (seq 0 (width fl (length v)))), (map (dft (later d v)) (seq 0 (width fl (length v)))).
  split; [apply (fft_ok kfwd kinv E), Hv|]. split; [rewrite <- (later_length d v); apply (fft_ok kfwd kinv E), not_empty; rewrite later_length; lia|].
  rewrite !map_length, seq_length. split; [reflexivity|]. intros k Hk. rewrite !map_seq_nth by exact Hk. rewrite later_dft by assumption.
  unfold angle. do 2 f_equal. unfold Rdiv. ring.
Qed.
Lemma cyclic_pf fl v w : v <> [] -> length w = length v ->
  exists X Y, fft kfwd fl v = Ok X /\ fft kfwd fl w = Ok Y /\ fft kfwd fl (cyclic v w) = Ok (products X Y).
Proof.
  intros Hv Hw. assert (L := some_length v Hv). exists (map (dft v) (seq 0 (width fl (length v)))), (map (dft w) (seq 0 (width fl (length v)))).
  split; [apply (fft_ok kfwd kinv E), Hv|]. split; [rewrite <- Hw; apply (fft_ok kfwd kinv E), not_empty; lia|].
  rewrite (fft_ok kfwd kinv E) by (apply not_empty; rewrite cyclic_length; lia). rewrite cyclic_length, products_map. f_equal.
  apply map_ext. intros k. apply cyclic_dft, Hw.
Qed.

(** ** Shape of the spectrum of a real signal *)
Lemma dc_pf fl v : v <> [] -> exists X, fft kfwd fl v = Ok X /\ nth 0 X (0, 0) = (bsum (length v) (fun j => nth j v 0), 0).
Proof.
  intros Hv. assert (L := some_length v Hv). eexists. split; [apply (fft_ok kfwd kinv E), Hv|].
  rewrite map_seq_nth. 2:{ unfold width. destruct (has_flag fl flag_half); lia. }
  unfold dft. assert (A : forall j, angle (length v) j 0 = 0) by (intros j; unfold angle; cbn [INR]; unfold Rdiv; ring). f_equal.
  - apply bsum_ext. intros j _. rewrite A, cos_0. ring.
  - rewrite (bsum_ext _ _ (fun _ => 0)), bsum_0; [ring|]. intros j _. rewrite A, sin_0. ring.
Qed.
Lemma mirror_pf fl v : v <> [] -> has_flag fl flag_half = false -> exists X, fft kfwd fl v = Ok X /\ length X = length v /\
  forall k, (0 < k < length v)%nat -> nth (length v - k) X (0, 0) = (fst (nth k X (0, 0)), - snd (nth k X (0, 0))).
Proof.
  intros Hv Hf. eexists. split; [apply (fft_ok kfwd kinv E), Hv|]. unfold width. rewrite Hf. rewrite map_length, seq_length. split; [reflexivity|].
  intros k Hk. rewrite !map_seq_nth by lia. apply dft_conj, Hk.
Qed.

(** ** The spectrum determines the signal *)
Lemma determines_pf fl v w : v <> [] -> length w = length v -> fft kfwd fl v = fft kfwd fl w -> v = w.
Proof.
  intros Hv Hw H. assert (L := some_length v Hv).
  assert (Wd : (length v / 2 < width fl (length v))%nat /\ (width fl (length v) <= length v)%nat).
  { destruct (half_le (length v) L) as [H1 [H2 H3]]. unfold width. destruct (has_flag fl flag_half); lia. }
  rewrite (fft_ok kfwd kinv E fl v Hv), (fft_ok kfwd kinv E fl w) in H by (apply not_empty; lia). injection H as H. rewrite Hw in H.
  assert (D : forall k, (k < length v)%nat -> dft v k = dft w k).
  { intros k Hk. rewrite <- (hermitian_dft v (width fl (length v)) k L (proj1 Wd) (proj2 Wd) Hk). rewrite H. rewrite <- Hw.
    apply hermitian_dft; rewrite Hw; tauto || assumption. }
  apply (nth_ext _ _ 0 0); [symmetry; exact Hw|]. intros j Hj.
  apply (Rmult_eq_reg_l (INR (length v))); [|apply not_0_INR; lia].
  rewrite <- (inverse_dft v j Hj). rewrite <- Hw at 2. rewrite <- (inverse_dft w j) by lia. rewrite Hw. unfold inverse_sum. apply bsum_ext.
  intros k Hk. rewrite (D k Hk). reflexivity.
Qed.

(** ** Convolution through the spectra *)
Lemma padded_length N (v : list R) : (length v <= N)%nat -> length (padded N v) = N.
Proof. intros H. unfold padded. rewrite app_length, repeat_length. lia. Qed.
Lemma padded_nth N v j : nth j (padded N v) 0 = nth j v 0.
Proof.
  unfold padded. destruct (le_lt_dec (length v) j) as [H|H].
  - rewrite app_nth2 by exact H. rewrite (nth_overflow v) by exact H. apply nth_repeat.
  - apply app_nth1, H.
Qed.
Lemma bsum_tail0 n p f : (forall j, (n <= j < n + p)%nat -> f j = 0) -> bsum (n + p) f = bsum n f.
Proof.
  induction p as [|p IH]; intros H; [rewrite Nat.add_0_r; reflexivity|]. rewrite Nat.add_succ_r. cbn [bsum].
  rewrite H by lia. rewrite IH by (intros; apply H; lia). ring.
Qed.
Lemma cyclic_padded v w N : (0 < length v)%nat -> (0 < length w)%nat -> (length v + length w - 1 <= N)%nat ->
  cyclic (padded N v) (padded N w) = map (conv_term v w) (seq 0 N).
Proof.
  intros Hv Hw HN. unfold cyclic. rewrite padded_length by lia. apply map_ext_in. intros m Hm. apply in_seq in Hm. unfold conv_term.
  replace N with (m + 1 + (N - (m + 1)))%nat at 1 by lia. rewrite bsum_tail0.
  - apply bsum_ext. intros j Hj. rewrite later_nth by (rewrite padded_length; lia). rewrite padded_length by lia. rewrite !padded_nth.
    replace (m + (N - j))%nat with (m - j + 1 * N)%nat by lia. rewrite Nat.mod_add by lia. rewrite Nat.mod_small by lia. reflexivity.
  - intros j Hj. rewrite later_nth by (rewrite padded_length; lia). rewrite padded_length by lia. rewrite !padded_nth.
    rewrite Nat.mod_small by lia. destruct (le_lt_dec (length v) j) as [H|H]; [rewrite (nth_overflow v) by exact H; ring|].
    rewrite (nth_overflow w) by lia. ring.
Qed.
Lemma fast_pf ops v w N : v <> [] -> w <> [] -> (length v + length w - 1 <= N)%nat -> (last_half false ops = true -> Nat.even N = true) ->
  (let* X := fft kfwd (fft_run ops) (padded N v) in
   let* Y := fft kfwd (fft_run ops) (padded N w) in
   ifft kinv (fft_run ops) (products X Y)) =
  Ok (map (fun m => (if last_scaling true ops then 1 else INR N) * conv_term v w m) (seq 0 N)).
Proof.
  intros Hv Hw HN He. assert (L1 := some_length v Hv). assert (L2 := some_length w Hw).
  destruct (cyclic_pf (fft_run ops) (padded N v) (padded N w)) as [X [Y [-> [-> HX]]]].
  { apply not_empty. rewrite padded_length; lia. } { rewrite !padded_length by lia. reflexivity. }
  cbn [bind]. assert (Lc : length (cyclic (padded N v) (padded N w)) = N) by (rewrite cyclic_length, padded_length; lia).
  assert (RT := round_trip kfwd kinv ops (cyclic (padded N v) (padded N w)) E ltac:(apply not_empty; lia) ltac:(rewrite Lc; exact He)).
  rewrite HX in RT. cbn [bind] in RT. rewrite RT, Lc, cyclic_padded by lia. rewrite map_map. reflexivity.
Qed.
Lemma halves m f : bsum m (fun i => (f i + f (S i)) / 2) = bsum (m + 1) f - (f 0%nat + f m) / 2.
Proof. induction m as [|m IH]; [cbn [bsum plus]; field|]. rewrite Nat.add_1_r in *. cbn [bsum] in *. rewrite IH. field. Qed.
Lemma naive_fast_pf bm ops k s dt N : last_scaling true ops = true -> (2 <= length k)%nat -> (length k <= length s)%nat ->
  (length k + length s - 1 <= N)%nat -> (last_half false ops = true -> Nat.even N = true) ->
  exists c, (let* X := fft kfwd (fft_run ops) (padded N k) in
             let* Y := fft kfwd (fft_run ops) (padded N s) in
             ifft kinv (fft_run ops) (products X Y)) = Ok c /\
    naive_convolution bm k s dt false =
    Ok (dt * (nth (length k - 1) c 0 - (nth 0 k 0 * nth (length k - 1) s 0 + nth (length k - 1) k 0 * nth 0 s 0) / 2)).
Proof.
  intros Hs Hk Hks HN He. eexists. split; [apply fast_pf; [apply not_empty; lia|apply not_empty; lia|exact HN|exact He]|].
  rewrite (proj2 (conv_value bm k s dt Hk Hks)). rewrite Hs. do 2 f_equal. rewrite map_seq_nthR by lia. rewrite Rmult_1_l.
  rewrite (halves (length k - 1) (fun i => nth i k 0 * nth (length k - 1 - i) s 0)). unfold conv_term. rewrite Nat.sub_0_r, Nat.sub_diag. reflexivity.
Qed.
End Wrap.

Lemma ex_fast kfwd kinv : engine kfwd kinv ->
  (let* X := fft kfwd (fft_run [HalfSpectrumON]) (padded 4 [1; 2]) in
   let* Y := fft kfwd (fft_run [HalfSpectrumON]) (padded 4 [3; 5]) in
   ifft kinv (fft_run [HalfSpectrumON]) (products X Y)) = Ok [3; 11; 10; 0].
Proof.
  intros E. rewrite (fast_pf kfwd kinv E) by (first [discriminate|cbn; lia|reflexivity]).
  cbn [last_scaling map seq conv_term bsum plus nth Nat.sub]. unfold conv_term. cbn [bsum plus nth Nat.sub]. repeat f_equal; lra.
Qed.
Lemma ex_later : later 1 [1; 2; 3; 5] = [5; 1; 2; 3].
Proof. reflexivity. Qed.
