(** C32-C34: the RotoSolve optimiser. *)
From Coq Require Import Reals List ZArith Lra Lia.
From Coquelicot Require Import Coquelicot.
From Verif Require Import Base RotoModel RotoProofs.
Import ListNotations.
Local Open Scope R_scope.

(** [p] is a trigonometric polynomial of degree at most [d]. *)
Definition trigonometric (d : nat) (p : R -> R) : Prop :=
  exists a b : nat -> R, forall x, p x = sum_f_R0 (fun m => a m * cos (INR m * x) + b m * sin (INR m * x)) d.
Lemma sum_f_rsum g n : sum_f_R0 g n = rsum (map g (seq 0 (S n))).
Proof. induction n as [|n IH]; [cbn; ring|]. rewrite seq_S, map_app, rsum_app, <- IH. cbn. ring. Qed.
Lemma trigonometric_poly d p : trigonometric d p <-> trig_poly d p.
Proof.
  unfold trigonometric, trig_poly. split; intros (a & b & H); exists a, b; intros x; rewrite H, sum_f_rsum, Nat.add_1_r; reflexivity.
Qed.
(** The sample angle number [i] of [2 R + 1], equally spaced, [i = R] at the origin. *)
Definition sample_angle (r i : nat) : R := 2 * PI * (INR i - INR r) / (2 * INR r + 1).
Lemma sample_angle_mu r i : (i < 2 * r + 1)%nat -> sample_angle r i = x_mu r (nth i (mus r) 0%Z).
Proof. intros H. rewrite mus_nth by exact H. unfold sample_angle, x_mu. rewrite minus_IZR, <- !INR_IZR_INZ. field. pose proof (width_pos r). lra. Qed.
(** The samples of [p], in the order the code takes them. *)
Definition sampled (r : nat) (p : R -> R) : list R := map (fun i => p (sample_angle r i)) (seq 0 (2 * r + 1)).
Lemma sampled_samples r p : sampled r p = samples r p.
Proof.
  unfold sampled, samples, mus. rewrite map_map. apply map_ext_in. intros i Hi. apply in_seq in Hi. rewrite sample_angle_mu by lia. now rewrite mus_nth by lia.
Qed.
(** No quotient of the reconstruction divides by zero: [x] is a sample angle, or at no
    multiple of [2 pi] from it. *)
Definition off_aliases (r : nat) (x : R) : Prop := forall i, (i < 2 * r + 1)%nat -> x = sample_angle r i \/ sin ((x - sample_angle r i) / 2) <> 0.
Lemma off_defined r x : off_aliases r x <-> defined_at r x.
Proof.
  split.
  - intros H mu Hmu. apply (In_nth _ _ 0%Z) in Hmu as (i & Hi & <-). rewrite mus_length in Hi. intros H0. apply sinc_zero_iff in H0 as [H1 H2].
    destruct (H i Hi) as [E|E]; rewrite sample_angle_mu in E by exact Hi; [lra|contradiction].
  - intros H i Hi. rewrite sample_angle_mu by exact Hi. specialize (H (nth i (mus r) 0%Z) ltac:(apply nth_In; rewrite mus_length; exact Hi)).
    destruct (Req_dec x (x_mu r (nth i (mus r) 0%Z))) as [E|E]; [now left|right]. intros H0. apply H, sinc_zero_iff. split; [lra|exact H0].
Qed.

Theorem C32_reconstruction_exact : forall r p x, trigonometric r p -> off_aliases r x -> reconstructed_f (sampled r p) r x = p x.
Proof. intros r p x Hp Hx. rewrite sampled_samples. apply reconstruct_exact; [now apply trigonometric_poly|now apply off_defined]. Qed.
Theorem C32_exact_on_circle : forall r p x, trigonometric r p -> - PI <= x <= PI -> reconstructed_f (sampled r p) r x = p x.
Proof. intros r p x Hp Hx. apply C32_reconstruction_exact; [exact Hp|]. apply off_defined. now apply defined_domain. Qed.
Theorem C32_interpolates : forall r e i, (i < 2 * r + 1)%nat -> reconstructed_f e r (sample_angle r i) = nth i e 0.
Proof. intros r e i Hi. rewrite sample_angle_mu by exact Hi. now apply reconstruct_interpolates. Qed.
(** What [get_energy_evals] returns, for an arbitrary objective: the objective with
    coordinate [idx] replaced by the sample angles and the other coordinates kept. *)
Theorem C32_energy_evals : forall f x idx r, (idx < length x)%nat ->
  exists e, get_energy_evals f x idx r = Ok e /\ length e = (2 * r + 1)%nat /\
    forall i, (i < 2 * r + 1)%nat -> nth i e 0 = f (firstn idx x ++ sample_angle r i :: skipn (S idx) x).
Proof.
  intros f x idx r H. rewrite energy_evals_spec by exact H. eexists. split; [reflexivity|]. rewrite <- sampled_samples. unfold sampled. split; [now rewrite map_length, seq_length|].
  intros i Hi. rewrite (nth_indep _ 0 ((fun i => f (put x idx (sample_angle r i))) 0%nat)) by (rewrite map_length, seq_length; exact Hi).
  rewrite (map_nth (fun i => f (put x idx (sample_angle r i)))), seq_nth by exact Hi. cbn [Nat.add]. f_equal. clear - H.
  revert idx H. induction x as [|a x IH]; intros [|idx] H; cbn in *; try lia; [reflexivity|]. f_equal. apply IH. lia.
Qed.
Theorem C32_evals_reconstruct : forall f x idx r e t, (idx < length x)%nat -> trigonometric r (fun t => f (firstn idx x ++ t :: skipn (S idx) x)) -> - PI <= t <= PI ->
  get_energy_evals f x idx r = Ok e -> reconstructed_f e r t = f (firstn idx x ++ t :: skipn (S idx) x).
Proof.
  intros f x idx r e t H Hp Ht He. rewrite energy_evals_spec in He by exact H. injection He as <-.
  assert (forall t, put x idx t = firstn idx x ++ t :: skipn (S idx) x) as G.
  { clear - H. revert idx H. induction x as [|a x IH]; intros [|idx] H t; cbn in *; try lia; [reflexivity|]. f_equal. apply IH. lia. }
  rewrite <- G. apply reconstruct_exact; [|now apply defined_domain]. apply trigonometric_poly in Hp. destruct Hp as (a & b & Hp). exists a, b. intros y. rewrite G. apply Hp.
Qed.
(** The optimised evaluation, when its function returns the objective at the shifted
    points, returns the same list. *)
Theorem C32_optimized_evals : forall f g x idx r e, (idx < length x)%nat ->
  (forall l, g x l idx = map (fun t => f (firstn idx x ++ t :: skipn (S idx) x)) l) ->
  get_energy_evals f x idx r = Ok e -> get_energy_evals_optimized g x idx r = e.
Proof.
  intros f g x idx r e H Hg He. rewrite energy_evals_spec in He by exact H. injection He as <-. unfold get_energy_evals_optimized, samples. rewrite Hg, map_map. apply map_ext. intros mu. f_equal.
  clear - H. revert idx H. induction x as [|a x IH]; intros [|idx] H; cbn in *; try lia; [reflexivity|]. f_equal. apply IH. lia.
Qed.
(** State-averaged case: [n] states with objectives [p k].  The result is the sum over
    the states divided by [2 R + 1], not by the number of states. *)
Theorem C32_state_averaged : forall r n (p : nat -> R -> R) x, (forall k, (k < n)%nat -> trigonometric r (p k)) -> off_aliases r x ->
  reconstructed_f_sa (map (fun i => map (fun k => p k (sample_angle r i)) (seq 0 n)) (seq 0 (2 * r + 1))) r x = rsum (map (fun k => p k x) (seq 0 n)) / (2 * INR r + 1).
Proof.
  intros r n p x Hp Hx. rewrite reconstruct_sa. rewrite map_length, seq_length, plus_INR, mult_INR. replace (INR 2 * INR r + INR 1) with (2 * INR r + 1) by (cbn; ring). f_equal.
  assert (length (nth 0 (map (fun i => map (fun k => p k (sample_angle r i)) (seq 0 n)) (seq 0 (2 * r + 1))) []) = n) as ->.
  { rewrite Nat.add_1_r. cbn [seq map nth]. now rewrite map_length, seq_length. }
  apply rsum_map_ext. intros k Hk. apply in_seq in Hk. rewrite map_map.
  rewrite (map_ext _ (fun i => p k (sample_angle r i))).
  - fold (sampled r (p k)). apply C32_reconstruction_exact; [apply Hp; lia|exact Hx].
  - intros i. rewrite (nth_indep _ 0 ((fun k => p k (sample_angle r i)) 0%nat)) by (rewrite map_length, seq_length; lia).
    rewrite (map_nth (fun k => p k (sample_angle r i))), seq_nth by lia. reflexivity.
Qed.
Theorem C32_state_average_scale_refuted : exists r n (p : nat -> R -> R) x, (forall k, (k < n)%nat -> trigonometric r (p k)) /\ off_aliases r x /\
  reconstructed_f_sa (map (fun i => map (fun k => p k (sample_angle r i)) (seq 0 n)) (seq 0 (2 * r + 1))) r x <> rsum (map (fun k => p k x) (seq 0 n)) / INR n.
Proof.
  exists 1%nat, 2%nat, (fun _ _ => 1), 0. assert (forall k, (k < 2)%nat -> trigonometric 1 (fun _ => 1)) as Hp.
  { intros _ _. exists (fun m => match m with O => 1 | _ => 0 end), (fun _ => 0). intros x. cbn. rewrite Rmult_0_l, cos_0. ring. }
  assert (off_aliases 1 0) as Hx. { apply off_defined, defined_domain. pose proof PI_RGT_0. lra. }
  split; [exact Hp|]. split; [exact Hx|]. rewrite (C32_state_averaged 1 2 (fun _ _ => 1) 0 Hp Hx). cbn. lra.
Qed.
(** Minimising the state-averaged reconstruction is minimising the average. *)
Theorem C32_state_averaged_order : forall r n (p : nat -> R -> R) x y, (forall k, (k < n)%nat -> trigonometric r (p k)) -> off_aliases r x -> off_aliases r y ->
  let rec := reconstructed_f_sa (map (fun i => map (fun k => p k (sample_angle r i)) (seq 0 n)) (seq 0 (2 * r + 1))) r in
  rec x <= rec y <-> rsum (map (fun k => p k x) (seq 0 n)) / INR n <= rsum (map (fun k => p k y) (seq 0 n)) / INR n.
Proof.
  intros r n p x y Hp Hx Hy rec. unfold rec. rewrite !C32_state_averaged by assumption. pose proof (width_pos r) as Hw. destruct n as [|n].
  - cbn. unfold Rdiv. split; intros _; lra.
  - pose proof (lt_0_INR (S n) ltac:(lia)) as Hn. assert (forall c a b, 0 < c -> (a / c <= b / c <-> a <= b)) as G.
    { intros c a b Hc. unfold Rdiv. split; intros H; [|apply Rmult_le_compat_r; [left; now apply Rinv_0_lt_compat|exact H]].
      apply (Rmult_le_reg_r (/ c)); [now apply Rinv_0_lt_compat|exact H]. }
    rewrite !G by assumption. reflexivity.
Qed.

Theorem C33_derivative : forall eps r e x, 0 <= eps -> off_aliases r x ->
  (forall i, (i < 2 * r + 1)%nat -> x = sample_angle r i \/ eps < Rabs (x - sample_angle r i) / (2 * PI)) ->
  is_derive (reconstructed_f e r) x (reconstructed_f_derivative eps e r x).
Proof.
  intros eps r e x He Hx Hc. rewrite derivative_exact; [apply is_derive_reconstructed; now apply off_defined|exact He|].
  intros mu Hmu. apply (In_nth _ _ 0%Z) in Hmu as (i & Hi & <-). rewrite mus_length in Hi. rewrite <- sample_angle_mu by exact Hi. now apply Hc.
Qed.
(** For every angle at which the reconstruction is defined, whatever the cut-off does. *)
Theorem C33_derivative_error : forall eps r e x, 0 <= eps <= / 4 -> off_aliases r x ->
  exists d, is_derive (reconstructed_f e r) x d /\
    Rabs (reconstructed_f_derivative eps e r x - d) <= 4 * PI * eps * (INR r + 1) / 3 * rsum (map (fun i => Rabs (nth i e 0)) (seq 0 (2 * r + 1))).
Proof. intros eps r e x He Hx. exists (true_derivative e r x). split; [apply is_derive_reconstructed; now apply off_defined|now apply derivative_error]. Qed.
(** For a trigonometric objective the code's derivative is the objective's own. *)
Theorem C33_objective_derivative : forall eps r p x d, 0 <= eps -> trigonometric r p -> - PI < x < PI ->
  (forall i, (i < 2 * r + 1)%nat -> x = sample_angle r i \/ eps < Rabs (x - sample_angle r i) / (2 * PI)) ->
  is_derive p x d -> reconstructed_f_derivative eps (sampled r p) r x = d.
Proof.
  intros eps r p x d He Hp Hx Hc Hd. assert (off_aliases r x) as Ho by (apply off_defined, defined_domain; lra).
  pose proof (C33_derivative eps r (sampled r p) x He Ho Hc) as D. apply is_derive_unique in Hd. apply is_derive_unique in D. rewrite <- Hd, <- D. apply Derive_ext_loc.
  assert (0 < Rmin (x + PI) (PI - x)) as Hm by (apply Rmin_glb_lt; lra). exists (mkposreal _ Hm). intros y Hy. unfold ball in Hy. cbn in Hy. unfold AbsRing_ball, abs, minus, plus, opp in Hy. cbn in Hy.
  apply C32_exact_on_circle; [exact Hp|]. apply Rabs_def2 in Hy. pose proof (Rmin_l (x + PI) (PI - x)). pose proof (Rmin_r (x + PI) (PI - x)). lra.
Qed.
Theorem C33_state_averaged : forall eps r es x, 0 <= eps -> off_aliases r x ->
  (forall i, (i < 2 * r + 1)%nat -> x = sample_angle r i \/ eps < Rabs (x - sample_angle r i) / (2 * PI)) ->
  is_derive (reconstructed_f_sa es r) x (reconstructed_f_derivative_sa eps es r x).
Proof.
  intros eps r es x He Hx Hc. rewrite derivative_sa.
  apply (is_derive_ext (fun x => / INR (length es) * rsum (map (fun k => reconstructed_f (map (fun row => nth k row 0) es) r x) (seq 0 (length (nth 0 es [])))))).
  { intros t. rewrite reconstruct_sa. unfold Rdiv. apply Rmult_comm. }
  unfold Rdiv. rewrite Rmult_comm. apply (is_derive_scal (fun x => rsum (map (fun k => reconstructed_f (map (fun row => nth k row 0) es) r x) (seq 0 (length (nth 0 es []))))) x).
  apply (is_derive_rsum (fun k y => reconstructed_f (map (fun row => nth k row 0) es) r y)). intros k _. now apply C33_derivative.
Qed.
Lemma x_mu_0 r : x_mu r 0 = 0.
Proof. unfold x_mu, Rdiv. rewrite Rmult_0_r. ring. Qed.
(** Within the cut-off of a sample angle, the code's value is not the derivative. *)
Theorem C33_cutoff_refuted : forall eps, 0 < eps -> exists r e x d, off_aliases r x /\ is_derive (reconstructed_f e r) x d /\ reconstructed_f_derivative eps e r x <> d.
Proof.
  intros eps He. pose proof PI_RGT_0 as Hpi. set (x := Rmin (eps * (2 * PI / 3)) (/ 2)). assert (0 < x) as Hx by (unfold x; apply Rmin_glb_lt; [|lra]; apply Rmult_lt_0_compat; lra).
  assert (x <= eps * (2 * PI / 3)) as Hx1 by apply Rmin_l. assert (x <= / 2) as Hx2 by apply Rmin_r. clearbody x.
  pose proof PI2_1 as HpiB. exists 1%nat, [0; 1; 0], x. assert (off_aliases 1 x) as Ho by (apply off_defined, defined_domain; lra).
  exists (/ 3 * (1 * - (2 * rsum (map (fun k => INR k * sin (INR k * x)) (seq 1 1))))). split; [exact Ho|]. split.
  - apply (is_derive_ext_loc (fun y => / 3 * dir 1 y)).
    + assert (0 < / 2) as H2 by lra. exists (mkposreal (/ 2) H2). intros y Hy. unfold ball in Hy. cbn in Hy. unfold AbsRing_ball, abs, minus, plus, opp in Hy. cbn in Hy. apply Rabs_def2 in Hy.
      unfold reconstructed_f. rewrite <- (mus_length 1) at 1. rewrite (sum_combine _ (mus 1) 0%Z). rewrite mus_length.
      rewrite (rsum_single _ 1%nat); [|lia|].
      * cbn [fst snd nth]. rewrite mus_nth by lia. cbn [Z.of_nat Z.sub Pos.of_succ_nat Z.add Z.opp Z.pos_sub]. rewrite term_dir.
        -- replace (y - x_mu 1 0) with y by (rewrite x_mu_0; symmetry; apply Rminus_0_r). change (/ 3 * dir 1 y = 1 * dir 1 y / (2 * INR 1 + 1)). change (INR 1) with 1. field.
        -- apply sinc_nonzero. rewrite x_mu_0, Rminus_0_r. apply Rabs_def1; lra.
      * intros k Hk Hk1. destruct k as [|[|[|k]]]; try lia; cbn [fst snd nth]; unfold term_f, Rdiv; rewrite !Rmult_0_l; reflexivity.
    + rewrite Rmult_1_l. apply (is_derive_scal (dir 1) x). apply is_derive_dir.
  - unfold reconstructed_f_derivative. rewrite <- (mus_length 1) at 1. rewrite (sum_combine _ (mus 1) 0%Z). rewrite mus_length. rewrite (rsum_single _ 1%nat); [|lia|].
    + cbn [fst snd nth]. rewrite mus_nth by lia. cbn [Z.of_nat Z.sub Pos.of_succ_nat Z.add Z.opp Z.pos_sub]. unfold term_df. replace (x - x_mu 1 0) with x by (rewrite x_mu_0; symmetry; apply Rminus_0_r).
      unfold sinc_derivative. change (INR 1) with 1.
      assert (forall c, 0 < c -> c <= 3 / 2 -> ~ eps < Rabs (c * x / PI)) as G.
      { intros c Hc0 Hc. assert (0 < c * x / PI) as Hp by (apply Rdiv_lt_0_compat; [apply Rmult_lt_0_compat; lra|lra]). rewrite Rabs_right by lra. apply Rle_not_lt.
        apply (Rmult_le_reg_r PI); [lra|]. unfold Rdiv. rewrite Rmult_assoc, Rinv_l, Rmult_1_r by lra. apply Rle_trans with (3 / 2 * (eps * (2 * PI / 3))); [apply Rmult_le_compat; lra|]. right. field. }
      destruct (Rlt_dec eps (Rabs ((2 * 1 + 1) / 2 * x / PI))) as [H|_]; [exfalso; apply (G ((2 * 1 + 1) / 2)); [lra|lra|exact H]|].
      destruct (Rlt_dec eps (Rabs (/ 2 * x / PI))) as [H|_]; [exfalso; apply (G (/ 2)); [lra|lra|exact H]|].
      cbn [seq map]. rewrite rsum_cons. change (rsum []) with 0. change (INR 1) with 1. rewrite (Rmult_1_l x). pose proof (sin_gt_0 x Hx ltac:(lra)) as Hs.
      match goal with |- ?a <> ?b => replace a with 0 by (unfold Rdiv; ring) end. lra.
    + intros k Hk Hk1. destruct k as [|[|[|k]]]; try lia; cbn [fst snd nth]; unfold term_df, Rdiv; rewrite !Rmult_0_l; reflexivity.
Qed.

(** C34.  One run of the optimiser; [sweeps n x0] is the point after [n] sweeps. *)
Section C34.
  Variable scipy_minimize : (R -> R) -> (R -> R) -> R -> R.
  Variable eps : R.
  Variable grid fuel : nat.
  Variable Rdict : nat -> option nat.
  Variable param_names : list nat.
  Variable threshold : R.
  Variable max_fail : nat.
  Variable f : list R -> R.
  Notation RUN k := (minimize scipy_minimize eps grid fuel Rdict param_names k threshold max_fail f).
  Notation AFTER := (sweeps scipy_minimize eps grid fuel Rdict param_names f).
  Notation UPD := (update_coordinate scipy_minimize eps grid fuel Rdict f).

  Theorem C34_returns_best : forall k x0 xr fr ok, RUN k x0 = Ok (xr, fr, ok) ->
    exists n, (n <= k)%nat /\ (forall m, (m <= n)%nat -> exists x, AFTER m x0 = Ok x) /\
      (* the value is the objective at the reported point, a point after a sweep, unless
         no sweep went below the starting value 1e20 *)
      ((exists m, (1 <= m <= n)%nat /\ AFTER m x0 = Ok xr /\ fr = f xr) \/
       (xr = x0 /\ fr = 10 ^ 20 /\ ok = false /\ forall m x, (1 <= m <= n)%nat -> AFTER m x0 = Ok x -> 10 ^ 20 <= f x)) /\
      (* the smallest seen, up to the threshold when convergence is reported *)
      (forall m x, (1 <= m <= n)%nat -> AFTER m x0 = Ok x -> if ok then fr < f x + threshold else fr <= f x) /\
      (ok = true -> AFTER n x0 = Ok xr).
  Proof.
    intros k x0 xr fr ok H. destruct (rloop_good _ _ _ _ _ _ _ _ _ _ _ _ _ _ H) as (n & Hn & (G1 & G2 & G3 & G4 & G5) & _). cbn [rs_x rs_fbest rs_xbest] in *.
    exists n. split; [exact Hn|]. split; [exact G4|]. split; [|split; [exact G2|exact G5]]. destruct G1 as [(-> & -> & ->)|G1]; [right|left; exact G1].
    repeat split; try reflexivity. exact G2.
  Qed.
  (** Without any sweep, the reported value is the constant 1e20. *)
  Theorem C34_no_iteration_refuted : forall x0, f x0 <> 10 ^ 20 -> exists fr, RUN 0 x0 = Ok (x0, fr, false) /\ fr <> f x0.
  Proof. intros x0 H. exists (10 ^ 20). split; [reflexivity|congruence]. Qed.
  (** A coordinate update changes one coordinate, to the minimiser found, moved into
      (-pi, pi] by a multiple of 2 pi; the loops that move it end. *)
  Theorem C34_angle : forall x i name r y, (i < length x)%nat -> Rdict name = Some r -> UPD x i name = Ok y ->
    exists e t t', get_energy_evals f x i r = Ok e /\
      t = scipy_minimize (reconstructed_f e r) (reconstructed_f_derivative eps e r) (nth (argmin (map (reconstructed_f e r) (linspace grid))) (linspace grid) 0) /\
      y = firstn i x ++ t' :: skipn (S i) x /\ - PI < t' <= PI /\ exists z : Z, t' = t + 2 * PI * IZR z.
  Proof.
    intros x i name r y Hi Hr H. rewrite (update_spec _ _ _ _ _ _ _ _ _ _ Hi Hr) in H. set (t := minimiser _ _ _ _ _) in H. destruct (wrap fuel t) as [t'| |] eqn:Ew; cbn [bind] in H; try discriminate. injection H as <-.
    destruct (wrap_spec _ _ _ Ew) as [Hw (n & Hn)]. exists (samples r (fun t => f (put x i t))), t, t'. rewrite energy_evals_spec by exact Hi. split; [reflexivity|]. split; [reflexivity|]. split; [|split; [exact Hw|exists n; lra]].
    clear - Hi. revert i Hi. induction x as [|a x IH]; intros [|i] Hi; cbn in *; try lia; [reflexivity|]. f_equal. apply IH. lia.
  Qed.
  (** With objectives trigonometric in the coordinate and a local search that does not go
      up from its start, the new point is at least as good as all grid points. *)
  Theorem C34_beats_grid : forall x i name r y, (2 <= grid)%nat -> (i < length x)%nat -> Rdict name = Some r -> trigonometric r (fun t => f (firstn i x ++ t :: skipn (S i) x)) ->
    (forall g dg t, off_aliases r (scipy_minimize g dg t) /\ g (scipy_minimize g dg t) <= g t) ->
    UPD x i name = Ok y -> forall j, (j < grid)%nat -> f y <= f (firstn i x ++ (- PI + INR j * (2 * PI / (INR grid - 1))) :: skipn (S i) x).
  Proof.
    intros x i name r y Hg Hi Hr Hp Hs H j Hj.
    assert (forall t, put x i t = firstn i x ++ t :: skipn (S i) x) as G.
    { clear - Hi. revert i Hi. induction x as [|a x IH]; intros [|idx] H t; cbn in *; try lia; [reflexivity|]. f_equal. apply IH. lia. }
    rewrite <- G. apply (update_grid scipy_minimize eps grid fuel Rdict f x i name r y Hg Hi Hr); [|split; [apply off_defined; apply Hs|apply Hs]|exact H|].
    - apply trigonometric_poly in Hp. destruct Hp as (a & b & Hp). exists a, b. intros s. rewrite G. apply Hp.
    - unfold linspace. apply in_map_iff. exists j. split; [reflexivity|]. apply in_seq. lia.
  Qed.
  (** With objectives trigonometric in every coordinate and a search that finds the global
      minimum of the reconstruction, every coordinate update reaches the global minimum in
      that coordinate and the objective never goes up. *)
  Definition trig_in_each : Prop := forall x i name r, length x = length param_names -> nth_error param_names i = Some name -> Rdict name = Some r ->
    trigonometric r (fun t => f (firstn i x ++ t :: skipn (S i) x)).
  Definition search_is_global : Prop := forall x i name r e, length x = length param_names -> nth_error param_names i = Some name -> Rdict name = Some r ->
    get_energy_evals f x i r = Ok e -> forall t0, let t := scipy_minimize (reconstructed_f e r) (reconstructed_f_derivative eps e r) t0 in
    off_aliases r t /\ forall s, off_aliases r s -> reconstructed_f e r t <= reconstructed_f e r s.
  Lemma put_split x i t : (i < length x)%nat -> put x i t = firstn i x ++ t :: skipn (S i) x.
  Proof. revert i. induction x as [|a x IH]; intros [|idx] H; cbn in *; try lia; [reflexivity|]. f_equal. apply IH. lia. Qed.
  Lemma trig_in_each_objective : trig_in_each -> trig_objective Rdict param_names f.
  Proof.
    intros H x i name r Hl Hi Hr. pose proof (H x i name r Hl Hi Hr) as Hp. apply trigonometric_poly in Hp. destruct Hp as (a & b & Hp). exists a, b. intros s.
    rewrite put_split by (rewrite Hl; apply nth_error_Some; congruence). apply Hp.
  Qed.
  Lemma search_ideal : search_is_global -> ideal_minimiser scipy_minimize eps grid Rdict param_names f.
  Proof.
    intros H x i name r Hl Hi Hr e. assert (i < length x)%nat as Hlt by (rewrite Hl; apply nth_error_Some; congruence).
    destruct (H x i name r e Hl Hi Hr (energy_evals_spec f x i r Hlt) (nth (argmin (map (reconstructed_f e r) (linspace grid))) (linspace grid) 0)) as [H1 H2].
    split; [now apply off_defined|]. intros t Ht. apply H2. now apply off_defined.
  Qed.
  Theorem C34_update_global : trig_in_each -> search_is_global -> forall x i name y, length x = length param_names -> nth_error param_names i = Some name ->
    UPD x i name = Ok y -> (forall t, f y <= f (firstn i x ++ t :: skipn (S i) x)) /\ f y <= f x.
  Proof.
    intros Ht Hs x i name y Hl Hi H. destruct (Rdict name) as [r|] eqn:Er. 2: { unfold update_coordinate in H. rewrite Er in H. discriminate. }
    destruct (update_global _ _ _ _ _ _ _ x i name r y (trig_in_each_objective Ht) (search_ideal Hs) Hl Hi Er H) as (_ & H1 & H2 & _). split; [|exact H2].
    intros t. rewrite <- put_split by (rewrite Hl; apply nth_error_Some; congruence). apply H1.
  Qed.
  Theorem C34_monotone : trig_in_each -> search_is_global -> forall n m x0 x y, length x0 = length param_names -> (n <= m)%nat ->
    AFTER n x0 = Ok x -> AFTER m x0 = Ok y -> f y <= f x /\ f y <= f x0.
  Proof.
    intros Ht Hs n m x0 x y Hl Hnm Hx Hy. pose proof (trig_in_each_objective Ht) as Ht'. pose proof (search_ideal Hs) as Hs'.
    destruct (sweeps_descend _ _ _ _ _ _ _ _ _ _ Ht' Hs' Hl Hx) as [Hlx _]. destruct (sweeps_descend _ _ _ _ _ _ _ _ _ _ Ht' Hs' Hl Hy) as [_ Hfy]. split; [|exact Hfy].
    assert (AFTER (m - n) x = Ok y) as E.
    { clear - Hx Hy Hnm. replace m with (n + (m - n))%nat in Hy by lia. revert x0 Hx Hy. generalize (m - n)%nat. clear Hnm. induction n as [|n IH]; intros k x0 Hx Hy; cbn [Nat.add sweeps] in *.
      - injection Hx as <-. exact Hy.
      - destruct (sweep _ _ _ _ _ _ _ x0) as [z| |]; cbn [bind] in *; try discriminate. now apply (IH k z). }
    apply (sweeps_descend _ _ _ _ _ _ _ _ _ _ Ht' Hs' (eq_trans Hlx Hl) E).
  Qed.
End C34.
Theorem C34_wrap : forall t, exists k0, forall k, (k0 <= k)%nat -> exists t', wrap k t = Ok t' /\ - PI < t' <= PI /\ exists z : Z, t' = t + 2 * PI * IZR z.
Proof.
  intros t. destruct (wrap_total t) as (k0 & H). exists k0. intros k Hk. destruct (H k Hk) as (t' & E). exists t'. split; [exact E|]. destruct (wrap_spec _ _ _ E) as [Hw (n & Hn)]. split; [exact Hw|]. exists n. lra.
Qed.
(** Non-vacuity: minus cosine in one parameter, R = 1, and a search that always answers 0. *)
Definition ex_f (x : list R) : R := - cos (nth 0 x 0).
Example ex_trig : trig_in_each (fun _ => Some 1%nat) [0%nat] ex_f.
Proof.
  intros x i name r Hl Hi Hr. injection Hr as <-. destruct i as [|[|i]]; try discriminate. destruct x as [|a [|b x]]; try discriminate. exists (fun m => match m with 1%nat => -1 | _ => 0 end), (fun _ => 0).
  intros y. cbn. rewrite Rmult_1_l. unfold ex_f. cbn. ring.
Qed.
Example ex_global : search_is_global (fun _ _ _ => 0) 0 (fun _ => Some 1%nat) [0%nat] ex_f.
Proof.
  intros x i name r e Hl Hi Hr He t0 t. pose proof PI_RGT_0 as Hpi. assert (off_aliases r t) as Ho by (apply off_defined, defined_domain; unfold t; lra). split; [exact Ho|]. intros s Hs.
  destruct i as [|[|i]]; try discriminate. destruct x as [|a [|b x]]; try discriminate. pose proof (ex_trig [a] 0%nat name r eq_refl Hi Hr) as Hp. cbn [firstn skipn app] in Hp. rewrite energy_evals_spec in He by (cbn; lia). injection He as <-.
  change (fun t => ex_f (put [a] 0%nat t)) with (fun t => ex_f [t]). rewrite <- sampled_samples, !C32_reconstruction_exact by assumption. unfold ex_f, t. cbn. rewrite cos_0. pose proof (COS_bound s). lra.
Qed.
Example ex_exact : reconstructed_f (sampled 2 (fun x => 1 + sin (2 * x))) 2 1 = 1 + sin (2 * 1).
Proof.
  apply (C32_exact_on_circle 2 (fun x => 1 + sin (2 * x)) 1); [|pose proof PI2_1; lra]. exists (fun m => match m with O => 1 | _ => 0 end), (fun m => match m with 2%nat => 1 | _ => 0 end). intros x. cbn. rewrite Rmult_0_l, cos_0, sin_0. replace ((1 + 1) * x) with (2 * x) by ring. ring.
Qed.

Print Assumptions C32_reconstruction_exact.
Print Assumptions C32_exact_on_circle.
Print Assumptions C32_interpolates.
Print Assumptions C32_energy_evals.
Print Assumptions C32_evals_reconstruct.
Print Assumptions C32_optimized_evals.
Print Assumptions C32_state_averaged.
Print Assumptions C32_state_average_scale_refuted.
Print Assumptions C32_state_averaged_order.
Print Assumptions C33_derivative.
Print Assumptions C33_derivative_error.
Print Assumptions C33_objective_derivative.
Print Assumptions C33_state_averaged.
Print Assumptions C33_cutoff_refuted.
Print Assumptions C34_returns_best.
Print Assumptions C34_no_iteration_refuted.
Print Assumptions C34_angle.
Print Assumptions C34_beats_grid.
Print Assumptions C34_update_global.
Print Assumptions C34_monotone.
Print Assumptions C34_wrap.
