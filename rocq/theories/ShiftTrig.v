(** Trigonometric polynomials: closure properties and the parameter-shift rule. *)
From Coq Require Import Reals List ZArith Lra Lia.
From Coquelicot Require Import Coquelicot.
From Verif Require Import Base RotoModel RotoProofs Props_Roto ShiftModel.
Import ListNotations.
Local Open Scope R_scope.

(** ** Closure *)
Lemma tp_ext d p q : (forall x, p x = q x) -> trigonometric d p -> trigonometric d q.
Proof. intros H (a & b & E). exists a, b. intros x. rewrite <- H. apply E. Qed.
Lemma tp_add d p q : trigonometric d p -> trigonometric d q -> trigonometric d (fun x => p x + q x).
Proof.
  intros (a & b & E) (a' & b' & E'). exists (fun m => a m + a' m), (fun m => b m + b' m). intros x. rewrite E, E', <- sum_plus. apply sum_eq. intros. ring.
Qed.
Lemma tp_scal d c p : trigonometric d p -> trigonometric d (fun x => c * p x).
Proof. intros (a & b & E). exists (fun m => c * a m), (fun m => c * b m). intros x. rewrite E, scal_sum. apply sum_eq. intros. ring. Qed.
Lemma sum_one d j (f : nat -> R) : (j <= d)%nat -> sum_f_R0 (fun m => if Nat.eqb m j then f m else 0) d = f j.
Proof.
  induction d as [|d IH]; intros H.
  - assert (j = 0)%nat as -> by lia. reflexivity.
  - cbn [sum_f_R0]. destruct (Nat.eq_dec j (S d)) as [->|N].
    + rewrite Nat.eqb_refl. rewrite (sum_eq _ (fun _ => 0)); [|intros i Hi; replace (Nat.eqb i (S d)) with false by (symmetry; apply Nat.eqb_neq; lia); reflexivity].
      rewrite sum_cte. ring.
    + rewrite IH by lia. replace (Nat.eqb (S d) j) with false by (symmetry; apply Nat.eqb_neq; lia). ring.
Qed.
Lemma tp_cos d j : (j <= d)%nat -> trigonometric d (fun x => cos (INR j * x)).
Proof.
  intros H. exists (fun m => if Nat.eqb m j then 1 else 0), (fun _ => 0). intros x.
  rewrite (sum_eq _ (fun m => if Nat.eqb m j then cos (INR m * x) else 0)) by (intros; destruct (Nat.eqb _ _); ring).
  now rewrite (sum_one d j (fun m => cos (INR m * x))) by exact H.
Qed.
Lemma tp_sin d j : (j <= d)%nat -> trigonometric d (fun x => sin (INR j * x)).
Proof.
  intros H. exists (fun _ => 0), (fun m => if Nat.eqb m j then 1 else 0). intros x.
  rewrite (sum_eq _ (fun m => if Nat.eqb m j then sin (INR m * x) else 0)) by (intros; destruct (Nat.eqb _ _); ring).
  now rewrite (sum_one d j (fun m => sin (INR m * x))) by exact H.
Qed.
Lemma tp_const d c : trigonometric d (fun _ => c).
Proof. apply (tp_ext d (fun x => c * cos (INR 0 * x))); [intros x; cbn [INR]; rewrite Rmult_0_l, cos_0; ring|]. apply tp_scal, tp_cos. lia. Qed.
Lemma tp_sum d (f : nat -> R -> R) n : (forall m, (m <= n)%nat -> trigonometric d (f m)) -> trigonometric d (fun x => sum_f_R0 (fun m => f m x) n).
Proof. induction n as [|n IH]; intros H; cbn [sum_f_R0]; [apply H; lia|]. apply tp_add; [apply IH; intros; apply H; lia|apply H; lia]. Qed.
Lemma tp_mono d e p : (d <= e)%nat -> trigonometric d p -> trigonometric e p.
Proof.
  intros L (a & b & E). eapply tp_ext; [intros x; symmetry; apply E|].
  apply (tp_sum e (fun m x => a m * cos (INR m * x) + b m * sin (INR m * x))). intros m Hm. apply tp_add; apply tp_scal; [apply tp_cos|apply tp_sin]; lia.
Qed.
Lemma tp_cosZ d (j : Z) : (Z.abs j <= Z.of_nat d)%Z -> trigonometric d (fun x => cos (IZR j * x)).
Proof.
  intros H. apply (tp_ext d (fun x => cos (INR (Z.abs_nat j) * x))); [|apply tp_cos; lia].
  intros x. rewrite INR_IZR_INZ, Zabs2Nat.id_abs. destruct (Z.le_ge_cases 0 j) as [L|L].
  - now rewrite Z.abs_eq by lia.
  - rewrite Z.abs_neq, opp_IZR by lia. rewrite Ropp_mult_distr_l_reverse. apply cos_neg.
Qed.
Lemma tp_sinZ d (j : Z) : (Z.abs j <= Z.of_nat d)%Z -> trigonometric d (fun x => sin (IZR j * x)).
Proof.
  intros H. destruct (Z.le_ge_cases 0 j) as [L|L].
  - apply (tp_ext d (fun x => sin (INR (Z.abs_nat j) * x))); [|apply tp_sin; lia]. intros x. rewrite INR_IZR_INZ, Zabs2Nat.id_abs. now rewrite Z.abs_eq by lia.
  - apply (tp_ext d (fun x => -1 * sin (INR (Z.abs_nat j) * x))); [|apply tp_scal, tp_sin; lia]. intros x. rewrite INR_IZR_INZ, Zabs2Nat.id_abs.
    rewrite Z.abs_neq, opp_IZR by lia. rewrite Ropp_mult_distr_l_reverse, sin_neg. ring.
Qed.
(** Products of basis functions. *)
Lemma tp_basis d j k : (j + k <= d)%nat ->
  trigonometric d (fun x => cos (INR j * x) * cos (INR k * x)) /\ trigonometric d (fun x => sin (INR j * x) * cos (INR k * x)) /\
  trigonometric d (fun x => cos (INR j * x) * sin (INR k * x)) /\ trigonometric d (fun x => sin (INR j * x) * sin (INR k * x)).
Proof.
  intros H. set (p := (Z.of_nat j + Z.of_nat k)%Z). set (q := (Z.of_nat j - Z.of_nat k)%Z).
  assert (P : forall x, INR j * x + INR k * x = IZR p * x) by (intros x; unfold p; rewrite plus_IZR, <- !INR_IZR_INZ; ring).
  assert (Q : forall x, INR j * x - INR k * x = IZR q * x) by (intros x; unfold q; rewrite minus_IZR, <- !INR_IZR_INZ; ring).
  assert (Hp : (Z.abs p <= Z.of_nat d)%Z) by (unfold p; lia). assert (Hq : (Z.abs q <= Z.of_nat d)%Z) by (unfold q; lia).
  repeat split.
  - apply (tp_ext d (fun x => / 2 * cos (IZR q * x) + / 2 * cos (IZR p * x))); [|apply tp_add; apply tp_scal, tp_cosZ; auto].
    intros x. rewrite <- P, <- Q, cos_plus, cos_minus. field.
  - apply (tp_ext d (fun x => / 2 * sin (IZR q * x) + / 2 * sin (IZR p * x))); [|apply tp_add; apply tp_scal, tp_sinZ; auto].
    intros x. rewrite <- P, <- Q, sin_plus, sin_minus. field.
  - apply (tp_ext d (fun x => / 2 * sin (IZR p * x) + - / 2 * sin (IZR q * x))); [|apply tp_add; apply tp_scal, tp_sinZ; auto].
    intros x. rewrite <- P, <- Q, sin_plus, sin_minus. field.
  - apply (tp_ext d (fun x => / 2 * cos (IZR q * x) + - / 2 * cos (IZR p * x))); [|apply tp_add; apply tp_scal, tp_cosZ; auto].
    intros x. rewrite <- P, <- Q, cos_plus, cos_minus. field.
Qed.
Lemma sum_mult (f g : nat -> R) m n : sum_f_R0 f m * sum_f_R0 g n = sum_f_R0 (fun i => sum_f_R0 (fun j => f i * g j) n) m.
Proof.
  induction m as [|m IH]; cbn [sum_f_R0].
  - rewrite scal_sum. apply sum_eq. intros. ring.
  - rewrite Rmult_plus_distr_r, IH, (scal_sum g n (f (S m))). f_equal. apply sum_eq. intros. ring.
Qed.
Lemma tp_mul d e p q : trigonometric d p -> trigonometric e q -> trigonometric (d + e) (fun x => p x * q x).
Proof.
  intros (a & b & E) (a' & b' & E'). 
  apply (tp_ext _ (fun x => sum_f_R0 (fun i => sum_f_R0 (fun j => (a i * cos (INR i * x) + b i * sin (INR i * x)) * (a' j * cos (INR j * x) + b' j * sin (INR j * x))) e) d));
    [intros x; rewrite E, E', sum_mult; reflexivity|].
  apply (tp_sum _ (fun i x => sum_f_R0 (fun j => (a i * cos (INR i * x) + b i * sin (INR i * x)) * (a' j * cos (INR j * x) + b' j * sin (INR j * x))) e)).
  intros i Hi.
  apply (tp_sum _ (fun j x => (a i * cos (INR i * x) + b i * sin (INR i * x)) * (a' j * cos (INR j * x) + b' j * sin (INR j * x)))). intros j Hj.
  destruct (tp_basis (d + e) i j) as (B1 & B2 & B3 & B4); [lia|].
  apply (tp_ext _ (fun x => (a i * a' j * (cos (INR i * x) * cos (INR j * x)) + b i * a' j * (sin (INR i * x) * cos (INR j * x)))
    + (a i * b' j * (cos (INR i * x) * sin (INR j * x)) + b i * b' j * (sin (INR i * x) * sin (INR j * x))))); [intros; ring|].
  apply tp_add; apply tp_add; apply tp_scal; auto.
Qed.

(** ** The shift rule *)
Lemma is_derive_wave u v c t : is_derive (fun x => u * cos (c * x) + v * sin (c * x)) t (u * (- c * sin (c * t)) + v * (c * cos (c * t))).
Proof. auto_derive; [trivial|]. ring. Qed.
Lemma seq_snoc a n : seq a (S n) = seq a n ++ [(a + n)%nat].
Proof. apply seq_S. Qed.
Section Rule.
  Variable r : nat.
  Hypothesis Hr : (0 < r)%nat.
  Notation x_ := (shift_angle r).
  Notation SUM F := (rsum (map F (seq 1 (2 * r)))).
  Lemma Rr : 0 < INR r. Proof. apply lt_0_INR, Hr. Qed.
  Lemma angle_range mu : (1 <= mu <= 2 * r)%nat -> 0 < x_ mu < 2 * PI.
  Proof.
    intros H. unfold shift_angle. pose proof Rr. pose proof PI_RGT_0.
    assert (1 <= INR mu) by (apply (le_INR 1); lia). assert (INR mu <= 2 * INR r) by (rewrite <- (mult_INR 2); apply le_INR; lia).
    assert (0 < (2 * INR mu - 1) / (2 * INR r) < 2).
    { split; [apply Rdiv_lt_0_compat; lra|]. apply Rmult_lt_reg_r with (2 * INR r); [lra|]. replace ((2 * INR mu - 1) / (2 * INR r) * (2 * INR r)) with (2 * INR mu - 1) by (field; lra). lra. }
    split; [apply Rmult_lt_0_compat; lra|]. apply Rmult_lt_compat_r; lra.
  Qed.
  Lemma half_sin mu : (1 <= mu <= 2 * r)%nat -> sin (1 / 2 * x_ mu) <> 0.
  Proof. intros H. pose proof (angle_range mu H). apply Rgt_not_eq, sin_gt_0; lra. Qed.
  (** Sums of cosines over the angles vanish. *)
  Lemma telescope k n : 2 * sin (INR k * PI / (2 * INR r)) * rsum (map (fun mu => cos (INR k * x_ mu)) (seq 1 n)) = sin (INR k * (INR n / INR r * PI)).
  Proof.
    pose proof Rr. induction n as [|n IH].
    - cbn [seq map rsum fold_right INR]. replace (INR k * (0 / INR r * PI)) with 0 by (field; lra). rewrite sin_0. ring.
    - rewrite seq_snoc, map_app, rsum_app, Rmult_plus_distr_l, IH. cbn [map rsum fold_right]. rewrite Rplus_0_r. change (1 + n)%nat with (S n).
      replace (INR k * (INR n / INR r * PI)) with (INR k * x_ (S n) - INR k * PI / (2 * INR r)) by (unfold shift_angle; rewrite S_INR; field; lra).
      replace (INR k * (INR (S n) / INR r * PI)) with (INR k * x_ (S n) + INR k * PI / (2 * INR r)) by (unfold shift_angle; rewrite S_INR; field; lra).
      rewrite sin_minus, sin_plus. ring.
  Qed.
  Lemma cos_sum k : (0 < k < 2 * r)%nat -> SUM (fun mu => cos (INR k * x_ mu)) = 0.
  Proof.
    intros H. pose proof Rr. pose proof PI_RGT_0. pose proof (telescope k (2 * r)) as T.
    replace (INR k * (INR (2 * r) / INR r * PI)) with (IZR (2 * Z.of_nat k) * PI) in T.
    2:{ rewrite mult_IZR, <- INR_IZR_INZ, mult_INR. cbn [INR]. field. lra. }
    rewrite sin_int in T. apply Rmult_integral in T as [T|T]; [|exact T]. exfalso.
    assert (0 < sin (INR k * PI / (2 * INR r))); [|lra].
    assert (0 < INR k) by (apply lt_0_INR; lia). assert (INR k < 2 * INR r) by (rewrite <- (mult_INR 2); apply lt_INR; lia).
    assert (0 < INR k / (2 * INR r) < 1).
    { split; [apply Rdiv_lt_0_compat; lra|]. apply Rmult_lt_reg_r with (2 * INR r); [lra|]. replace (INR k / (2 * INR r) * (2 * INR r)) with (INR k) by (field; lra). lra. }
    replace (INR k * PI / (2 * INR r)) with (INR k / (2 * INR r) * PI) by (field; lra).
    apply sin_gt_0; [apply Rmult_lt_0_compat; lra|]. rewrite <- (Rmult_1_l PI) at 2. apply Rmult_lt_compat_r; lra.
  Qed.
  (** The alternating sign is [sin (R x)], and [cos (R x)] vanishes. *)
  Lemma sin_odd n : sin ((2 * INR n + 1) / 2 * PI) = (-1) ^ n /\ cos ((2 * INR n + 1) / 2 * PI) = 0.
  Proof.
    induction n as [|n [I1 I2]].
    - cbn [INR pow]. replace ((2 * 0 + 1) / 2 * PI) with (PI / 2) by field. rewrite sin_PI2, cos_PI2. auto.
    - rewrite S_INR. replace ((2 * (INR n + 1) + 1) / 2 * PI) with ((2 * INR n + 1) / 2 * PI + PI) by field.
      rewrite neg_sin, neg_cos, I1, I2. cbn [pow]. split; ring.
  Qed.
  Lemma at_R mu : (1 <= mu)%nat -> sin (INR r * x_ mu) = (-1) ^ (mu - 1) /\ cos (INR r * x_ mu) = 0.
  Proof.
    intros H. pose proof Rr. destruct (sin_odd (mu - 1)) as [E1 E2].
    assert (INR r * x_ mu = (2 * INR (mu - 1) + 1) / 2 * PI) as ->; [|auto].
    unfold shift_angle. rewrite minus_INR by lia. cbn [INR]. field. lra.
  Qed.
  Definition wt (mu : nat) : R := (-1) ^ (mu - 1) / (4 * INR r * sin (1 / 2 * x_ mu) ^ 2).
  Definition A (m : nat) : R := SUM (fun mu => wt mu * sin (INR m * x_ mu)).
  Lemma second_difference m : A (S (S m)) - 2 * A (S m) + A m = - / INR r * SUM (fun mu => sin (INR r * x_ mu) * sin (INR (S m) * x_ mu)).
  Proof.
    unfold A. rewrite <- !rsum_scal.
    replace (rsum (map (fun mu => wt mu * sin (INR (S (S m)) * x_ mu)) (seq 1 (2 * r))) - rsum (map (fun mu => 2 * (wt mu * sin (INR (S m) * x_ mu))) (seq 1 (2 * r))))
      with (rsum (map (fun mu => wt mu * sin (INR (S (S m)) * x_ mu)) (seq 1 (2 * r))) + rsum (map (fun mu => -1 * (2 * (wt mu * sin (INR (S m) * x_ mu)))) (seq 1 (2 * r)))) by (rewrite (rsum_scal (-1)); ring).
    rewrite <- !rsum_add. apply rsum_map_ext. intros mu Hmu. apply in_seq in Hmu. pose proof (half_sin mu ltac:(lia)) as Hs. pose proof Rr.
    destruct (at_R mu ltac:(lia)) as [-> _]. unfold wt.
    set (y := 1 / 2 * x_ mu) in *. set (t := INR (S m) * x_ mu).
    replace (INR (S (S m)) * x_ mu) with (t + 2 * y) by (unfold t, y; rewrite !S_INR; field).
    replace (INR m * x_ mu) with (t - 2 * y) by (unfold t, y; rewrite !S_INR; field).
    rewrite sin_plus, sin_minus, cos_2a, sin_2a. pose proof (sin2_cos2 y) as P. unfold Rsqr in P.
    apply Rmult_eq_reg_r with (4 * INR r * sin y ^ 2); [|intros H0; assert (sin y ^ 2 <> 0) by (apply pow_nonzero, Hs); nra].
    replace (cos y * cos y) with (1 - sin y * sin y) by lra. field. lra.
  Qed.
  Lemma prod_sum m : SUM (fun mu => sin (INR r * x_ mu) * sin (INR m * x_ mu)) = / 2 * (SUM (fun mu => cos (INR (r - m) * x_ mu)) - SUM (fun mu => cos (INR (r + m) * x_ mu))) \/ (r < m)%nat.
  Proof.
    destruct (le_lt_dec m r) as [L|L]; [left|now right].
    replace (SUM (fun mu => cos (INR (r - m) * x_ mu)) - SUM (fun mu => cos (INR (r + m) * x_ mu))) with (SUM (fun mu => cos (INR (r - m) * x_ mu)) + SUM (fun mu => -1 * cos (INR (r + m) * x_ mu))) by (rewrite rsum_scal; ring).
    rewrite <- rsum_add, <- rsum_scal. apply rsum_map_ext. intros mu _.
    replace (INR (r - m) * x_ mu) with (INR r * x_ mu - INR m * x_ mu) by (rewrite minus_INR by lia; ring).
    replace (INR (r + m) * x_ mu) with (INR r * x_ mu + INR m * x_ mu) by (rewrite plus_INR; ring).
    rewrite cos_minus, cos_plus. field.
  Qed.
  Lemma inner m : (S m < r)%nat -> A (S (S m)) - 2 * A (S m) + A m = 0.
  Proof.
    intros H. rewrite second_difference. destruct (prod_sum (S m)) as [->|L]; [|lia]. rewrite !cos_sum by lia. ring.
  Qed.
  Lemma A_0 : A 0 = 0.
  Proof. unfold A. apply rsum_zero. intros mu _. cbn [INR]. rewrite Rmult_0_l, sin_0. ring. Qed.
  Lemma linear_A m : (m < r)%nat -> A m = INR m * A 1 /\ A (S m) = INR (S m) * A 1.
  Proof.
    induction m as [|m IH]; intros H; [rewrite A_0; cbn [INR]; split; ring|].
    destruct IH as [I1 I2]; [lia|]. split; [exact I2|]. pose proof (inner m H) as E. rewrite I1, I2 in E. rewrite !S_INR in *. lra.
  Qed.
  Lemma last_step : A r - A (r - 1) = 1.
  Proof.
    destruct r as [|r'] eqn:Er; [lia|]. cbn [Nat.sub]. rewrite Nat.sub_0_r. rewrite <- Er in *.
    pose proof (second_difference r') as E. rewrite <- Er in E.
    assert (A (S r) = A r') as ES.
    { unfold A. apply rsum_map_ext. intros mu Hmu. apply in_seq in Hmu. destruct (at_R mu ltac:(lia)) as [_ Hc]. f_equal.
      replace (INR (S r) * x_ mu) with (INR r * x_ mu + x_ mu) by (rewrite S_INR; ring).
      replace (INR r' * x_ mu) with (INR r * x_ mu - x_ mu) by (rewrite Er, S_INR; ring).
      rewrite sin_plus, sin_minus, Hc. ring. }
    assert (SUM (fun mu => sin (INR r * x_ mu) * sin (INR r * x_ mu)) = 2 * INR r) as E2.
    { rewrite (rsum_map_ext _ (fun _ => 1)).
      - rewrite <- (mult_INR 2). generalize (2 * r)%nat. clear. intros n. assert (G : forall a, rsum (map (fun _ => 1) (seq a n)) = INR n); [|apply G].
        induction n as [|n IH]; intros a; [reflexivity|].
        cbn [seq map]. rewrite rsum_cons, IH, S_INR. ring.
      - intros mu Hmu. apply in_seq in Hmu. destruct (at_R mu ltac:(lia)) as [-> _]. rewrite <- Rpow_mult_distr. replace (-1 * -1) with 1 by ring. apply pow1. }
    rewrite E2, ES in E. pose proof Rr. replace (- / INR r * (2 * INR r)) with (-2) in E by (field; lra). lra.
  Qed.
  Lemma A_eq m : (m <= r)%nat -> A m = INR m.
  Proof.
    intros H. assert (A 1 = 1) as E.
    { destruct (linear_A (r - 1)) as [I1 I2]; [lia|]. replace (S (r - 1)) with r in I2 by lia. pose proof last_step as L. rewrite I1, I2 in L.
      rewrite minus_INR in L by lia. cbn [INR] in L. lra. }
    destruct m as [|m]; [apply A_0|]. destruct (linear_A m) as [_ ->]; [lia|]. rewrite E. ring.
  Qed.
  (** The weights are odd about pi, so cosines drop out. *)
  Lemma rsum_rev (l : list R) : rsum (rev l) = rsum l.
  Proof. induction l as [|a l IH]; [reflexivity|]. cbn [rev]. rewrite rsum_app, IH, !rsum_cons. change (rsum []) with 0. ring. Qed.
  Lemma seq_rev n : rev (seq 1 n) = map (fun mu => (n + 1 - mu)%nat) (seq 1 n).
  Proof.
    apply nth_ext with 0%nat 0%nat; [now rewrite rev_length, map_length|]. intros i Hi. rewrite rev_length, seq_length in Hi.
    rewrite rev_nth by (rewrite seq_length; lia). rewrite seq_length, seq_nth by lia.
    rewrite (nth_indep _ _ ((fun mu => (n + 1 - mu)%nat) 0%nat)) by (rewrite map_length, seq_length; lia). rewrite (map_nth (fun mu => (n + 1 - mu)%nat)), seq_nth by lia. lia.
  Qed.
  Lemma cos_drops m : SUM (fun mu => wt mu * cos (INR m * x_ mu)) = 0.
  Proof.
    set (F := fun mu => wt mu * cos (INR m * x_ mu)).
    assert (E : rsum (map F (seq 1 (2 * r))) = - rsum (map F (seq 1 (2 * r)))).
    { transitivity (rsum (map F (rev (seq 1 (2 * r))))); [now rewrite map_rev, rsum_rev|].
      rewrite seq_rev, map_map. replace (- rsum (map F (seq 1 (2 * r)))) with (-1 * rsum (map F (seq 1 (2 * r)))) by ring. rewrite <- rsum_scal.
      apply rsum_map_ext. intros mu Hmu. apply in_seq in Hmu. unfold F, wt.
      assert (Ex : x_ (2 * r + 1 - mu) = 2 * PI - x_ mu).
      { pose proof Rr. unfold shift_angle. rewrite minus_INR by lia. rewrite plus_INR, mult_INR. cbn [INR]. field. lra. }
      rewrite Ex. replace (1 / 2 * (2 * PI - x_ mu)) with (PI - 1 / 2 * x_ mu) by field. rewrite sin_PI_x.
      replace (INR m * (2 * PI - x_ mu)) with (- (INR m * x_ mu) + 2 * INR m * PI) by ring. rewrite cos_period, cos_neg.
      assert ((-1) ^ (2 * r + 1 - mu - 1) = - (-1) ^ (mu - 1)) as ->.
      { assert ((-1) ^ (2 * r + 1 - mu - 1) * (-1) ^ (mu - 1) = -1) as P.
        { rewrite <- pow_add. replace (2 * r + 1 - mu - 1 + (mu - 1))%nat with (S (2 * (r - 1))) by lia. cbn [pow]. rewrite pow_1_even. ring. }
        assert ((-1) ^ (mu - 1) * (-1) ^ (mu - 1) = 1) as Q by (rewrite <- Rpow_mult_distr; replace (-1 * -1) with 1 by ring; apply pow1).
        replace ((-1) ^ (2 * r + 1 - mu - 1)) with ((-1) ^ (2 * r + 1 - mu - 1) * ((-1) ^ (mu - 1) * (-1) ^ (mu - 1))) by (rewrite Q; ring). rewrite <- Rmult_assoc, P. ring. }
      pose proof (half_sin mu ltac:(lia)). pose proof Rr. field. split; [assumption|lra]. }
    lra.
  Qed.
  (** Weighted samples of a trigonometric polynomial give its derivative. *)
  Lemma rsum_sumf (F : nat -> nat -> R) n (l : list nat) : rsum (map (fun mu => sum_f_R0 (fun m => F m mu) n) l) = sum_f_R0 (fun m => rsum (map (F m) l)) n.
  Proof. induction n as [|n IH]; cbn [sum_f_R0]; [reflexivity|]. rewrite rsum_add, IH. reflexivity. Qed.
  Lemma rule p t : trigonometric r p -> is_derive p t (SUM (fun mu => p (x_ mu + t) * (-1) ^ (mu - 1) / (4 * INR r * sin (1 / 2 * x_ mu) ^ 2))).
  Proof.
    intros (a & b & E).
    assert (V : SUM (fun mu => p (x_ mu + t) * (-1) ^ (mu - 1) / (4 * INR r * sin (1 / 2 * x_ mu) ^ 2))
      = sum_f_R0 (fun m => a m * (- INR m * sin (INR m * t)) + b m * (INR m * cos (INR m * t))) r).
    { rewrite (rsum_map_ext _ (fun mu => sum_f_R0 (fun m => wt mu * (a m * cos (INR m * (x_ mu + t)) + b m * sin (INR m * (x_ mu + t)))) r)).
      2:{ intros mu _. transitivity (wt mu * p (x_ mu + t)); [unfold wt, Rdiv; ring|]. rewrite E, scal_sum. apply sum_eq. intros. ring. }
      rewrite (rsum_sumf (fun m mu => wt mu * (a m * cos (INR m * (x_ mu + t)) + b m * sin (INR m * (x_ mu + t))))). apply sum_eq. intros m Hm.
      rewrite (rsum_map_ext _ (fun mu => (a m * cos (INR m * t) + b m * sin (INR m * t)) * (wt mu * cos (INR m * x_ mu))
        + (b m * cos (INR m * t) - a m * sin (INR m * t)) * (wt mu * sin (INR m * x_ mu)))).
      2:{ intros mu _. replace (INR m * (x_ mu + t)) with (INR m * x_ mu + INR m * t) by ring. rewrite cos_plus, sin_plus. ring. }
      rewrite rsum_add, !rsum_scal, cos_drops. fold (A m). rewrite A_eq by exact Hm. ring. }
    rewrite V. apply (is_derive_ext (fun x => sum_f_R0 (fun m => a m * cos (INR m * x) + b m * sin (INR m * x)) r)); [intros x; symmetry; apply E|].
    clear. generalize r. intros n. induction n as [|n IH]; cbn [sum_f_R0].
    - apply is_derive_wave.
    - apply (is_derive_plus (fun x => sum_f_R0 (fun m => a m * cos (INR m * x) + b m * sin (INR m * x)) n)); [exact IH|]. apply is_derive_wave.
  Qed.
End Rule.
