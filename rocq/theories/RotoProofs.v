(** Trigonometric interpolation and the RotoSolve loop. *)
From Coq Require Import Reals List ZArith Lra Lia.
From Coquelicot Require Import Coquelicot.
From Verif Require Import Base RotoModel.
Import ListNotations.
Local Open Scope R_scope.

Lemma rsum_cons x l : rsum (x :: l) = x + rsum l.
Proof. reflexivity. Qed.
Lemma rsum_app a b : rsum (a ++ b) = rsum a + rsum b.
Proof. induction a as [|x a IH]; [change (rsum ([] ++ b)) with (rsum b); cbn; ring|]. cbn [app]. rewrite !rsum_cons, IH. ring. Qed.
Lemma rsum_map_ext {A} (f g : A -> R) l : (forall x, In x l -> f x = g x) -> rsum (map f l) = rsum (map g l).
Proof. intros H. f_equal. now apply map_ext_in. Qed.
Lemma rsum_add {A} (f g : A -> R) l : rsum (map (fun x => f x + g x) l) = rsum (map f l) + rsum (map g l).
Proof. induction l as [|x l IH]; [cbn; ring|]. cbn [map]. rewrite !rsum_cons, IH. ring. Qed.
Lemma rsum_scal {A} c (f : A -> R) l : rsum (map (fun x => c * f x) l) = c * rsum (map f l).
Proof. induction l as [|x l IH]; [cbn; ring|]. cbn [map]. rewrite !rsum_cons, IH. ring. Qed.
Lemma rsum_swap {A B} (f : A -> B -> R) l m : rsum (map (fun x => rsum (map (f x) m)) l) = rsum (map (fun y => rsum (map (fun x => f x y) l)) m).
Proof.
  induction l as [|x l IH]; cbn [map].
  - change (rsum []) with 0. induction m as [|y m IH]; [reflexivity|]. cbn [map]. rewrite rsum_cons, <- IH. change (rsum (map (fun x => f x y) [])) with 0. ring.
  - rewrite rsum_cons, IH, <- rsum_add. apply rsum_map_ext. intros y _. now rewrite rsum_cons.
Qed.
Lemma rsum_zero {A} (f : A -> R) l : (forall x, In x l -> f x = 0) -> rsum (map f l) = 0.
Proof. intros H. induction l as [|x l IH]; [reflexivity|]. cbn [map]. rewrite rsum_cons, H by now left. rewrite IH; [ring|]. intros y Hy. apply H. now right. Qed.

(** The Dirichlet kernel. *)
Definition dir (r : nat) (d : R) : R := 1 + 2 * rsum (map (fun k => cos (INR k * d)) (seq 1 r)).
Lemma seq_S' a k : seq a (S k) = seq a k ++ [(a + k)%nat].
Proof. apply seq_S. Qed.
Lemma sin_sum p q : sin p - sin q = 2 * cos ((p + q) / 2) * sin ((p - q) / 2).
Proof. rewrite form4. ring. Qed.
Lemma dir_sin r d : sin (d / 2) * dir r d = sin ((2 * INR r + 1) / 2 * d).
Proof.
  induction r as [|r IH].
  - unfold dir. cbn. rewrite Rmult_0_r, Rplus_0_r, Rmult_1_r. f_equal. field.
  - assert (dir (S r) d = dir r d + 2 * cos (INR (S r) * d)) as ->.
    { unfold dir. rewrite seq_S', map_app, rsum_app. cbn [map]. rewrite ?rsum_cons. change (rsum []) with 0. replace (1 + r)%nat with (S r) by lia. ring. }
    rewrite Rmult_plus_distr_l, IH.
    assert (sin ((2 * INR (S r) + 1) / 2 * d) - sin ((2 * INR r + 1) / 2 * d) = 2 * cos (INR (S r) * d) * sin (d / 2)) as E.
    { rewrite sin_sum. rewrite S_INR. f_equal; [f_equal; f_equal; field|f_equal; field]. }
    lra.
Qed.
Lemma dir_zero r : dir r 0 = 2 * INR r + 1.
Proof.
  unfold dir. assert (forall l, rsum (map (fun k => cos (INR k * 0)) l) = INR (length l)) as ->.
  { induction l as [|k l IH]; [reflexivity|]. cbn [map length]. rewrite S_INR. change (cos (INR k * 0) + rsum (map (fun k => cos (INR k * 0)) l) = INR (length l) + 1). rewrite IH, Rmult_0_r, cos_0. ring. }
  rewrite seq_length. ring.
Qed.

(** The quotient of the two [sinc]. *)
Lemma width_pos r : 0 < 2 * INR r + 1.
Proof. pose proof (pos_INR r). lra. Qed.
Lemma ratio_dir r d : npsinc (1 / 2 * d / PI) <> 0 ->
  npsinc ((2 * INR r + 1) / 2 * d / PI) / npsinc (1 / 2 * d / PI) = dir r d / (2 * INR r + 1).
Proof.
  pose proof PI_RGT_0 as Hpi. pose proof (width_pos r) as Hw. unfold npsinc. destruct (Req_dec d 0) as [->|Hd].
  - intros _. rewrite dir_zero. replace ((2 * INR r + 1) / 2 * 0 / PI) with 0 by (field; lra). replace (1 / 2 * 0 / PI) with 0 by (field; lra).
    destruct (Req_EM_T 0 0); [|lra]. field. lra.
  - assert (1 / 2 * d / PI <> 0) as H1.
    { intros H. apply Hd. replace d with (1 / 2 * d / PI * (2 * PI)) by (field; lra). rewrite H. ring. }
    assert ((2 * INR r + 1) / 2 * d / PI <> 0) as H2.
    { intros H. apply Hd. replace d with ((2 * INR r + 1) / 2 * d / PI * (2 * PI / (2 * INR r + 1))) by (field; lra). rewrite H. ring. }
    destruct (Req_EM_T (1 / 2 * d / PI) 0); [contradiction|]. destruct (Req_EM_T ((2 * INR r + 1) / 2 * d / PI) 0); [contradiction|].
    replace (PI * (1 / 2 * d / PI)) with (d / 2) by (field; lra). replace (PI * ((2 * INR r + 1) / 2 * d / PI)) with ((2 * INR r + 1) / 2 * d) by (field; lra).
    intros Hs. assert (sin (d / 2) <> 0) as Hs' by (intros H; apply Hs; rewrite H; unfold Rdiv; ring).
    rewrite <- dir_sin. field. repeat split; lra.
Qed.
Lemma sinc_nonzero d : Rabs d < 2 * PI -> npsinc (1 / 2 * d / PI) <> 0.
Proof.
  intros H. pose proof PI_RGT_0 as Hpi. unfold npsinc. destruct (Req_EM_T (1 / 2 * d / PI) 0) as [E|E]; [lra|].
  replace (PI * (1 / 2 * d / PI)) with (d / 2) by (field; lra).
  assert (d <> 0) as Hd by (intros ->; apply E; field; lra).
  assert (sin (d / 2) <> 0) as Hs.
  { apply Rabs_def2 in H. destruct (Rtotal_order d 0) as [Hn|[Hz|Hp]]; [|contradiction|].
    - apply Rlt_not_eq. apply sin_lt_0_var; lra.
    - apply Rgt_not_eq. apply sin_gt_0; lra. }
  intros H0. apply Hs. apply (Rmult_eq_reg_r (/ (d / 2))); [|apply Rinv_neq_0_compat; lra]. rewrite Rmult_0_l. exact H0.
Qed.
Lemma sinc_zero_iff d : npsinc (1 / 2 * d / PI) = 0 <-> d <> 0 /\ sin (d / 2) = 0.
Proof.
  pose proof PI_RGT_0 as Hpi. unfold npsinc. destruct (Req_EM_T (1 / 2 * d / PI) 0) as [E|E].
  - split; [lra|]. intros [H _]. exfalso. apply H. replace d with (1 / 2 * d / PI * (2 * PI)) by (field; lra). rewrite E. ring.
  - replace (PI * (1 / 2 * d / PI)) with (d / 2) by (field; lra). assert (d <> 0) as Hd by (intros ->; apply E; field; lra). split.
    + intros H. split; [exact Hd|]. apply (Rmult_eq_reg_r (/ (d / 2))); [|apply Rinv_neq_0_compat; lra]. rewrite Rmult_0_l. exact H.
    + intros [_ H]. rewrite H. unfold Rdiv. ring.
Qed.

(** Sums over the sample points. *)
Definition msum (r : nat) (g : Z -> R) : R := rsum (map g (mus r)).
Lemma msum_split r g : msum r g = g 0%Z + rsum (map (fun k => g (Z.of_nat k) + g (- Z.of_nat k)%Z) (seq 1 r)).
Proof.
  unfold msum, mus. rewrite map_map. replace (2 * r + 1)%nat with (r + S r)%nat by lia. rewrite seq_app, map_app, rsum_app. cbn [seq map]. rewrite ?rsum_cons. change (rsum []) with 0.
  replace (Z.of_nat (0 + r) - Z.of_nat r)%Z with 0%Z by lia.
  assert (forall k, (k <= r)%nat -> rsum (map (fun i => g (Z.of_nat i - Z.of_nat r)%Z) (seq (r - k) k)) = rsum (map (fun j => g (- Z.of_nat j)%Z) (seq 1 k))) as G1.
  { induction k as [|k IH]; intros Hk; [reflexivity|]. rewrite (seq_S' 1 k), map_app, rsum_app. cbn [seq map]. rewrite ?rsum_cons. change (rsum []) with 0.
    replace (S (r - S k))%nat with (r - k)%nat by lia. rewrite IH by lia.
    replace (Z.of_nat (r - S k) - Z.of_nat r)%Z with (- Z.of_nat (1 + k))%Z by lia. ring. }
  specialize (G1 r ltac:(lia)). rewrite Nat.sub_diag in G1. rewrite G1.
  assert (forall k a, rsum (map (fun i => g (Z.of_nat i - Z.of_nat r)%Z) (seq (S (r + a)) k)) = rsum (map (fun j => g (Z.of_nat j)) (seq (S a) k))) as G2.
  { induction k as [|k IH]; intros a; [reflexivity|]. cbn [seq map]. rewrite ?rsum_cons. change (rsum []) with 0.
    replace (Z.of_nat (S (r + a)) - Z.of_nat r)%Z with (Z.of_nat (S a)) by lia. replace (S (S (r + a))) with (S (r + S a)) by lia.
    rewrite IH. reflexivity. }
  specialize (G2 r 0%nat). rewrite Nat.add_0_r in G2. cbn [Nat.add].
  change (fold_right Rplus 0 (map (fun i => g (Z.of_nat i - Z.of_nat r)%Z) (seq (S r) r))) with (rsum (map (fun i => g (Z.of_nat i - Z.of_nat r)%Z) (seq (S r) r))).
  rewrite G2, rsum_add. ring.
Qed.
Lemma x_mu_opp r mu : x_mu r (- mu) = - x_mu r mu.
Proof. unfold x_mu. rewrite opp_IZR. field. pose proof (width_pos r). lra. Qed.
Lemma msum_ext r g h : (forall mu, g mu = h mu) -> msum r g = msum r h.
Proof. intros H. apply rsum_map_ext. auto. Qed.
Lemma msum_scal r c g : msum r (fun mu => c * g mu) = c * msum r g.
Proof. apply rsum_scal. Qed.
Lemma msum_add r g h : msum r (fun mu => g mu + h mu) = msum r g + msum r h.
Proof. apply rsum_add. Qed.
(** Discrete orthogonality. *)
Lemma msum_sin r j : msum r (fun mu => sin (IZR j * x_mu r mu)) = 0.
Proof.
  rewrite msum_split. rewrite (rsum_zero (fun k => _)).
  - unfold x_mu. replace (IZR j * (2 * 0 / (2 * INR r + 1) * PI)) with 0 by (field; pose proof (width_pos r); lra). rewrite sin_0. ring.
  - intros k _. rewrite x_mu_opp. replace (IZR j * - x_mu r (Z.of_nat k)) with (- (IZR j * x_mu r (Z.of_nat k))) by ring. rewrite sin_neg. ring.
Qed.
Lemma sin_int j : sin (IZR j * PI) = 0.
Proof. apply sin_eq_0_1. exists j. reflexivity. Qed.
Lemma msum_cos r j : (0 < Z.abs j <= 2 * Z.of_nat r)%Z -> msum r (fun mu => cos (IZR j * x_mu r mu)) = 0.
Proof.
  intros Hj. pose proof (width_pos r) as Hw. pose proof PI_RGT_0 as Hpi.
  set (d := IZR j * 2 / (2 * INR r + 1) * PI).
  assert (msum r (fun mu => cos (IZR j * x_mu r mu)) = dir r d) as ->.
  { rewrite msum_split. unfold dir. f_equal.
    - unfold x_mu. replace (IZR j * (2 * 0 / (2 * INR r + 1) * PI)) with 0 by (field; lra). apply cos_0.
    - rewrite <- rsum_scal. apply rsum_map_ext. intros k _. rewrite x_mu_opp. replace (IZR j * - x_mu r (Z.of_nat k)) with (- (IZR j * x_mu r (Z.of_nat k))) by ring.
      rewrite cos_neg. replace (IZR j * x_mu r (Z.of_nat k)) with (INR k * d); [ring|]. unfold d, x_mu. rewrite <- INR_IZR_INZ. field. lra. }
  pose proof (dir_sin r d) as H. replace ((2 * INR r + 1) / 2 * d) with (IZR j * PI) in H by (unfold d; field; lra). rewrite sin_int in H.
  apply Rmult_integral in H as [H|H]; [|exact H]. exfalso.
  replace (d / 2) with (IZR j * PI / (2 * INR r + 1)) in H by (unfold d; field; lra).
  apply sin_eq_0_0 in H as (k & Hk).
  assert (IZR j = IZR k * (2 * INR r + 1)) as E.
  { apply (Rmult_eq_reg_r (PI / (2 * INR r + 1))); [|apply Rgt_not_eq, Rdiv_lt_0_compat; lra]. transitivity (IZR j * PI / (2 * INR r + 1)); [field; lra|]. rewrite Hk. field. lra. }
  rewrite INR_IZR_INZ, <- (mult_IZR 2), <- plus_IZR, <- mult_IZR in E. apply eq_IZR in E.
  assert (k <> 0)%Z by (intros ->; lia). nia.
Qed.
Lemma msum_one r : msum r (fun _ => 1) = 2 * INR r + 1.
Proof.
  unfold msum, mus. rewrite map_map. assert (forall l : list nat, rsum (map (fun _ => 1) l) = INR (length l)) as ->.
  { induction l as [|k l IH]; [reflexivity|]. cbn [map length]. rewrite S_INR. change (1 + rsum (map (fun _ => 1) l) = INR (length l) + 1). rewrite IH. ring. }
  rewrite seq_length, plus_INR, mult_INR. cbn [INR]. ring.
Qed.
Lemma msum_cos0 r j : (Z.abs j <= 2 * Z.of_nat r)%Z -> msum r (fun mu => cos (IZR j * x_mu r mu)) = if (j =? 0)%Z then 2 * INR r + 1 else 0.
Proof.
  intros Hj. destruct (Z.eqb_spec j 0) as [->|H]; [|apply msum_cos; lia]. rewrite <- msum_one. apply msum_ext. intros mu. rewrite Rmult_0_l. apply cos_0.
Qed.
(** Sums of shifted waves. *)
Lemma msum_cos_shift r a j : (Z.abs j <= 2 * Z.of_nat r)%Z -> msum r (fun mu => cos (a + IZR j * x_mu r mu)) = if (j =? 0)%Z then (2 * INR r + 1) * cos a else 0.
Proof.
  intros Hj. rewrite (msum_ext _ _ (fun mu => cos a * cos (IZR j * x_mu r mu) + (- sin a) * sin (IZR j * x_mu r mu))) by (intros mu; rewrite cos_plus; ring).
  rewrite msum_add, !msum_scal, msum_sin, msum_cos0 by exact Hj. destruct (j =? 0)%Z; ring.
Qed.
Lemma msum_sin_shift r a j : (Z.abs j <= 2 * Z.of_nat r)%Z -> msum r (fun mu => sin (a + IZR j * x_mu r mu)) = if (j =? 0)%Z then (2 * INR r + 1) * sin a else 0.
Proof.
  intros Hj. rewrite (msum_ext _ _ (fun mu => sin a * cos (IZR j * x_mu r mu) + cos a * sin (IZR j * x_mu r mu))) by (intros mu; rewrite sin_plus; ring).
  rewrite msum_add, !msum_scal, msum_sin, msum_cos0 by exact Hj. destruct (j =? 0)%Z; ring.
Qed.
Lemma cos_cos a b : cos a * cos b = (cos (a - b) + cos (a + b)) / 2.
Proof. rewrite cos_minus, cos_plus. field. Qed.
Lemma sin_cos_prod a b : sin a * cos b = (sin (a + b) + sin (a - b)) / 2.
Proof. rewrite sin_minus, sin_plus. field. Qed.
(** Interpolation of a single wave. *)
Lemma pick_one r m (g : nat -> R) : rsum (map (fun k => if (Z.of_nat m - Z.of_nat k =? 0)%Z then g k else 0) (seq 1 r)) = if ((1 <=? m) && (m <=? r))%nat%bool then g m else 0.
Proof.
  induction r as [|r IH].
  - cbn. destruct m; reflexivity.
  - rewrite seq_S', map_app, rsum_app, IH. cbn [map]. rewrite ?rsum_cons. change (rsum []) with 0. destruct (Z.eqb_spec (Z.of_nat m - Z.of_nat (1 + r)) 0) as [E|E].
    + assert (m = S r) as -> by lia. replace (S r <=? r)%nat with false by (symmetry; apply Nat.leb_gt; lia). rewrite Nat.leb_refl. cbn. ring.
    + assert ((m <=? S r)%nat = (m <=? r)%nat) as ->; [|destruct (_ && _)%bool; ring]. destruct (Nat.leb_spec m r); [apply Nat.leb_le; lia|apply Nat.leb_gt; lia].
Qed.
Lemma interp_cos r m x : (m <= r)%nat -> msum r (fun mu => cos (INR m * x_mu r mu) * dir r (x - x_mu r mu)) = (2 * INR r + 1) * cos (INR m * x).
Proof.
  intros Hm. unfold dir.
  rewrite (msum_ext _ _ (fun mu => cos (0 + IZR (Z.of_nat m) * x_mu r mu) + rsum (map (fun k => cos (INR k * x + IZR (Z.of_nat m - Z.of_nat k) * x_mu r mu) + cos (- (INR k * x) + IZR (Z.of_nat m + Z.of_nat k) * x_mu r mu)) (seq 1 r)))).
  2: { intros mu. rewrite Rmult_plus_distr_l, Rmult_1_r. f_equal; [f_equal; rewrite <- INR_IZR_INZ; ring|].
       rewrite <- !rsum_scal. apply rsum_map_ext. intros k _. rewrite minus_IZR, plus_IZR, <- !INR_IZR_INZ.
       transitivity (2 * (cos (INR m * x_mu r mu) * cos (INR k * (x - x_mu r mu)))); [ring|]. rewrite cos_cos.
       replace (INR k * x + (INR m - INR k) * x_mu r mu) with (INR m * x_mu r mu + INR k * (x - x_mu r mu)) by ring.
       replace (- (INR k * x) + (INR m + INR k) * x_mu r mu) with (INR m * x_mu r mu - INR k * (x - x_mu r mu)) by ring. field. }
  rewrite msum_add. rewrite msum_cos_shift by lia. unfold msum at 1. rewrite rsum_swap.
  rewrite (rsum_map_ext _ (fun k => if (Z.of_nat m - Z.of_nat k =? 0)%Z then (2 * INR r + 1) * cos (INR k * x) else 0)).
  2: { intros k Hk. apply in_seq in Hk. rewrite rsum_add. fold (msum r (fun mu => cos (INR k * x + IZR (Z.of_nat m - Z.of_nat k) * x_mu r mu))).
       fold (msum r (fun mu => cos (- (INR k * x) + IZR (Z.of_nat m + Z.of_nat k) * x_mu r mu))). rewrite !msum_cos_shift by lia.
       replace (Z.of_nat m + Z.of_nat k =? 0)%Z with false by (symmetry; apply Z.eqb_neq; lia). ring. }
  rewrite (pick_one r m (fun k => (2 * INR r + 1) * cos (INR k * x))). destruct m as [|m].
  - cbn. rewrite Rmult_0_l. ring.
  - replace (Z.of_nat (S m) =? 0)%Z with false by (symmetry; apply Z.eqb_neq; lia). replace (S m <=? r)%nat with true by (symmetry; apply Nat.leb_le; lia). cbn [Nat.leb andb]. ring.
Qed.
Lemma interp_sin r m x : (m <= r)%nat -> msum r (fun mu => sin (INR m * x_mu r mu) * dir r (x - x_mu r mu)) = (2 * INR r + 1) * sin (INR m * x).
Proof.
  intros Hm. unfold dir.
  rewrite (msum_ext _ _ (fun mu => sin (0 + IZR (Z.of_nat m) * x_mu r mu) + rsum (map (fun k => sin (INR k * x + IZR (Z.of_nat m - Z.of_nat k) * x_mu r mu) + sin (- (INR k * x) + IZR (Z.of_nat m + Z.of_nat k) * x_mu r mu)) (seq 1 r)))).
  2: { intros mu. rewrite Rmult_plus_distr_l, Rmult_1_r. f_equal; [f_equal; rewrite <- INR_IZR_INZ; ring|].
       rewrite <- !rsum_scal. apply rsum_map_ext. intros k _. rewrite minus_IZR, plus_IZR, <- !INR_IZR_INZ.
       transitivity (2 * (sin (INR m * x_mu r mu) * cos (INR k * (x - x_mu r mu)))); [ring|]. rewrite sin_cos_prod.
       replace (INR k * x + (INR m - INR k) * x_mu r mu) with (INR m * x_mu r mu + INR k * (x - x_mu r mu)) by ring.
       replace (- (INR k * x) + (INR m + INR k) * x_mu r mu) with (INR m * x_mu r mu - INR k * (x - x_mu r mu)) by ring. field. }
  rewrite msum_add. rewrite msum_sin_shift by lia. unfold msum at 1. rewrite rsum_swap.
  rewrite (rsum_map_ext _ (fun k => if (Z.of_nat m - Z.of_nat k =? 0)%Z then (2 * INR r + 1) * sin (INR k * x) else 0)).
  2: { intros k Hk. apply in_seq in Hk. rewrite rsum_add. fold (msum r (fun mu => sin (INR k * x + IZR (Z.of_nat m - Z.of_nat k) * x_mu r mu))).
       fold (msum r (fun mu => sin (- (INR k * x) + IZR (Z.of_nat m + Z.of_nat k) * x_mu r mu))). rewrite !msum_sin_shift by lia.
       replace (Z.of_nat m + Z.of_nat k =? 0)%Z with false by (symmetry; apply Z.eqb_neq; lia). ring. }
  rewrite (pick_one r m (fun k => (2 * INR r + 1) * sin (INR k * x))). destruct m as [|m].
  - cbn. rewrite Rmult_0_l, sin_0. ring.
  - replace (Z.of_nat (S m) =? 0)%Z with false by (symmetry; apply Z.eqb_neq; lia). replace (S m <=? r)%nat with true by (symmetry; apply Nat.leb_le; lia). cbn [Nat.leb andb]. ring.
Qed.

(** Trigonometric polynomials of degree at most [r]. *)
Definition trig_poly (r : nat) (p : R -> R) : Prop :=
  exists a b : nat -> R, forall x, p x = rsum (map (fun m => a m * cos (INR m * x) + b m * sin (INR m * x)) (seq 0 (r + 1))).
Definition samples (r : nat) (p : R -> R) : list R := map (fun mu => p (x_mu r mu)) (mus r).

Lemma combine_seq_nth {A} (g : nat -> A -> R) (l : list A) a : rsum (map (fun im => g (fst im) (snd im)) (combine (seq a (length l)) l)) = rsum (map (fun im => g (fst im) (snd im)) (combine (seq a (length l)) l)).
Proof. reflexivity. Qed.
Lemma mus_length r : length (mus r) = (2 * r + 1)%nat.
Proof. unfold mus. now rewrite map_length, seq_length. Qed.
Lemma sum_samples r (p : R -> R) (g : R -> Z -> R) :
  rsum (map (fun im : nat * Z => g (nth (fst im) (samples r p) 0) (snd im)) (combine (seq 0 (2 * r + 1)) (mus r))) = msum r (fun mu => g (p (x_mu r mu)) mu).
Proof.
  unfold msum, samples. rewrite <- (mus_length r). generalize (mus r). intros l.
  assert (forall pre, rsum (map (fun im : nat * Z => g (nth (fst im) (map (fun mu => p (x_mu r mu)) (pre ++ l)) 0) (snd im)) (combine (seq (length pre) (length l)) l)) = rsum (map (fun mu => g (p (x_mu r mu)) mu) l)) as G.
  { induction l as [|mu l IH]; intros pre; [reflexivity|]. cbn [length seq combine map fst snd]. rewrite ?rsum_cons. f_equal.
    - rewrite map_app, app_nth2 by (rewrite map_length; lia). rewrite map_length, Nat.sub_diag. reflexivity.
    - specialize (IH (pre ++ [mu])). rewrite <- app_assoc, app_length, Nat.add_1_r in IH. exact IH. }
  apply (G []).
Qed.
(** Where the reconstruction is defined: no quotient divides by zero. *)
Definition defined_at (r : nat) (x : R) : Prop := forall mu, In mu (mus r) -> npsinc (1 / 2 * (x - x_mu r mu) / PI) <> 0.
Lemma term_dir r x e mu : npsinc (1 / 2 * (x - x_mu r mu) / PI) <> 0 -> term_f r x e mu = e * dir r (x - x_mu r mu) / (2 * INR r + 1).
Proof. intros H. unfold term_f. unfold Rdiv at 1. rewrite Rmult_assoc. fold (npsinc ((2 * INR r + 1) / 2 * (x - x_mu r mu) / PI) / npsinc (1 / 2 * (x - x_mu r mu) / PI)). rewrite ratio_dir by exact H. unfold Rdiv. ring. Qed.
Lemma reconstruct_exact r p x : trig_poly r p -> defined_at r x -> reconstructed_f (samples r p) r x = p x.
Proof.
  intros (a & b & Hp) Hd. unfold reconstructed_f. rewrite (sum_samples r p (term_f r x)).
  pose proof (width_pos r) as Hw.
  transitivity (/ (2 * INR r + 1) * msum r (fun mu => p (x_mu r mu) * dir r (x - x_mu r mu))).
  { rewrite <- msum_scal. apply rsum_map_ext. intros mu Hmu. rewrite term_dir by (now apply Hd). unfold Rdiv. ring. }
  rewrite (msum_ext _ _ (fun mu => rsum (map (fun m => a m * (cos (INR m * x_mu r mu) * dir r (x - x_mu r mu)) + b m * (sin (INR m * x_mu r mu) * dir r (x - x_mu r mu))) (seq 0 (r + 1))))).
  2: { intros mu. rewrite Hp, Rmult_comm, <- rsum_scal. apply rsum_map_ext. intros m _. ring. }
  unfold msum. rewrite rsum_swap, <- rsum_scal, Hp. apply rsum_map_ext. intros m Hm. apply in_seq in Hm. rewrite rsum_add, !rsum_scal.
  fold (msum r (fun mu => cos (INR m * x_mu r mu) * dir r (x - x_mu r mu))). fold (msum r (fun mu => sin (INR m * x_mu r mu) * dir r (x - x_mu r mu))).
  rewrite interp_cos, interp_sin by lia. field. lra.
Qed.
Lemma mus_bound r mu : In mu (mus r) -> (Z.abs mu <= Z.of_nat r)%Z.
Proof. unfold mus. intros H. apply in_map_iff in H as (i & <- & Hi). apply in_seq in Hi. lia. Qed.
Lemma x_mu_lt r mu : In mu (mus r) -> Rabs (x_mu r mu) < PI.
Proof.
  intros H. apply mus_bound in H. pose proof (width_pos r) as Hw. pose proof PI_RGT_0 as Hpi. unfold x_mu.
  replace (2 * IZR mu / (2 * INR r + 1) * PI) with (IZR mu * (2 * PI / (2 * INR r + 1))) by (field; lra). rewrite Rabs_mult, <- abs_IZR.
  assert (0 < 2 * PI / (2 * INR r + 1)) as Hq by (apply Rdiv_lt_0_compat; lra). rewrite (Rabs_right (2 * PI / _)) by lra.
  apply Rle_lt_trans with (INR r * (2 * PI / (2 * INR r + 1))).
  - apply Rmult_le_compat_r; [lra|]. rewrite INR_IZR_INZ. now apply IZR_le.
  - replace PI with ((2 * INR r + 1) / 2 * (2 * PI / (2 * INR r + 1))) at 2 by (field; lra). apply Rmult_lt_compat_r; lra.
Qed.
Lemma defined_domain r x : - PI <= x <= PI -> defined_at r x.
Proof.
  intros Hx mu Hmu. apply sinc_nonzero. apply x_mu_lt in Hmu. apply Rabs_def2 in Hmu. apply Rabs_def1; lra.
Qed.

(** The reconstruction passes through the samples, whatever they are. *)
Lemma dir_node r j : (0 < Z.abs j <= 2 * Z.of_nat r)%Z -> dir r (x_mu r j) = 0.
Proof.
  intros Hj. rewrite <- (msum_cos r j Hj). rewrite msum_split. unfold dir. pose proof (width_pos r) as Hw. f_equal.
  - unfold x_mu. replace (IZR j * (2 * 0 / (2 * INR r + 1) * PI)) with 0 by (field; lra). now rewrite cos_0.
  - rewrite <- rsum_scal. apply rsum_map_ext. intros k _. rewrite x_mu_opp. replace (IZR j * - x_mu r (Z.of_nat k)) with (- (IZR j * x_mu r (Z.of_nat k))) by ring.
    rewrite cos_neg. replace (IZR j * x_mu r (Z.of_nat k)) with (INR k * x_mu r j); [ring|]. unfold x_mu. rewrite <- INR_IZR_INZ. field. lra.
Qed.
Lemma x_mu_sub r i j : x_mu r i - x_mu r j = x_mu r (i - j).
Proof. unfold x_mu. rewrite minus_IZR. field. pose proof (width_pos r). lra. Qed.
Lemma sum_combine {A} (g : nat * A -> R) (l : list A) d :
  rsum (map g (combine (seq 0 (length l)) l)) = rsum (map (fun i => g (i, nth i l d)) (seq 0 (length l))).
Proof.
  assert (forall (pre : list A), rsum (map g (combine (seq (length pre) (length l)) l)) = rsum (map (fun i => g (i, nth i (pre ++ l) d)) (seq (length pre) (length l)))) as G; [|apply (G [])].
  induction l as [|a l IH]; intros pre; [reflexivity|]. cbn [length seq combine map]. rewrite !rsum_cons. f_equal.
  - rewrite app_nth2, Nat.sub_diag by lia. reflexivity.
  - specialize (IH (pre ++ [a])). rewrite app_length, Nat.add_1_r, <- app_assoc in IH. exact IH.
Qed.
Lemma mus_nth r i : (i < 2 * r + 1)%nat -> nth i (mus r) 0%Z = (Z.of_nat i - Z.of_nat r)%Z.
Proof.
  intros H. unfold mus. rewrite (nth_indep _ _ ((fun i => (Z.of_nat i - Z.of_nat r)%Z) 0%nat)) by (rewrite map_length, seq_length; exact H).
  rewrite (map_nth (fun i => (Z.of_nat i - Z.of_nat r)%Z)), seq_nth by exact H. reflexivity.
Qed.
Lemma rsum_single n i (g : nat -> R) : (i < n)%nat -> (forall k, (k < n)%nat -> k <> i -> g k = 0) -> rsum (map g (seq 0 n)) = g i.
Proof.
  intros Hi H. replace n with (i + S (n - S i))%nat by lia. rewrite seq_app, map_app, rsum_app. cbn [seq map]. rewrite rsum_cons, !rsum_zero; [cbn [Nat.add]; ring| |].
  - intros k Hk. apply in_seq in Hk. apply H; lia.
  - intros k Hk. apply in_seq in Hk. apply H; lia.
Qed.
Lemma reconstruct_interpolates r e i : (i < 2 * r + 1)%nat -> reconstructed_f e r (x_mu r (nth i (mus r) 0%Z)) = nth i e 0.
Proof.
  intros Hi. unfold reconstructed_f. rewrite <- (mus_length r) at 1. rewrite (sum_combine _ (mus r) 0%Z). rewrite mus_length. pose proof (width_pos r) as Hw.
  assert (defined_at r (x_mu r (nth i (mus r) 0%Z))) as Hdef.
  { apply defined_domain. assert (Rabs (x_mu r (nth i (mus r) 0%Z)) < PI) as H by (apply x_mu_lt, nth_In; rewrite mus_length; exact Hi). apply Rabs_def2 in H. lra. }
  rewrite (rsum_single _ i) by (try exact Hi; intros k Hk Hki; cbn [fst snd]; rewrite term_dir by (apply Hdef, nth_In; rewrite mus_length; exact Hk); rewrite x_mu_sub, dir_node by (rewrite !mus_nth by assumption; lia); unfold Rdiv; ring).
  cbn [fst snd]. rewrite term_dir by (apply Hdef, nth_In; rewrite mus_length; exact Hi). unfold Rminus. rewrite Rplus_opp_r, dir_zero. field. lra.
Qed.
(** State-averaged values. *)
Lemma reconstruct_sa r es x : reconstructed_f_sa es r x = rsum (map (fun k => reconstructed_f (map (fun row => nth k row 0) es) r x) (seq 0 (length (nth 0 es [])))) / INR (length es).
Proof.
  unfold reconstructed_f_sa. f_equal. apply rsum_map_ext. intros k _. unfold reconstructed_f. apply rsum_map_ext. intros im _. f_equal.
  destruct (Nat.lt_ge_cases (fst im) (length es)) as [H|H].
  - assert (lt (fst im) (length (map (fun row => nth k row 0%R) es))) as Hl by (rewrite map_length; exact H).
    exact (eq_sym (eq_trans (nth_indep _ 0 (nth k (@nil R) 0) Hl) (map_nth (fun row => nth k row 0) es [] (fst im)))).
  - rewrite (nth_overflow es), (nth_overflow (map _ _)) by (rewrite ?map_length; exact H). destruct k; reflexivity.
Qed.

(** Derivatives. *)
Lemma is_derive_rsum {A} (g : A -> R -> R) (dg : A -> R) l x : (forall a, In a l -> is_derive (g a) x (dg a)) ->
  is_derive (fun y => rsum (map (fun a => g a y) l)) x (rsum (map dg l)).
Proof.
  induction l as [|a l IH]; intros H; cbn [map].
  - apply (is_derive_ext (fun _ => 0)); [reflexivity|]. apply (is_derive_const (K:=R_AbsRing) (V:=R_NormedModule) 0 x).
  - rewrite rsum_cons. apply (is_derive_ext (fun y => g a y + rsum (map (fun a => g a y) l))); [intros t; now rewrite rsum_cons|].
    apply (is_derive_plus (K:=R_AbsRing) (V:=R_NormedModule)); [apply H; now left|]. apply IH. intros b Hb. apply H. now right.
Qed.
(** The derivative of [np.sinc]. *)
Definition dsinc (u : R) : R := if Req_EM_T u 0 then 0 else cos (PI * u) / u - sin (PI * u) / (PI * u ^ 2).
Lemma is_derive_sinc u : u <> 0 -> is_derive npsinc u (cos (PI * u) / u - sin (PI * u) / (PI * u ^ 2)).
Proof.
  intros Hu. pose proof PI_RGT_0 as Hpi. apply (is_derive_ext_loc (fun u => sin (PI * u) / (PI * u))).
  - exists (mkposreal (Rabs u) (Rabs_pos_lt u Hu)). intros y Hy. unfold npsinc. destruct (Req_EM_T y 0) as [->|]; [|reflexivity]. exfalso.
    unfold ball in Hy. cbn in Hy. unfold AbsRing_ball, abs, minus, plus, opp in Hy. cbn in Hy. replace (0 + - u) with (- u) in Hy by ring. rewrite Rabs_Ropp in Hy. lra.
  - auto_derive; [apply Rmult_integral_contrapositive_currified; lra|]. field. split; lra.
Qed.
Lemma is_derive_dir r d : is_derive (dir r) d (- (2 * rsum (map (fun k => INR k * sin (INR k * d)) (seq 1 r)))).
Proof.
  unfold dir. replace (- (2 * rsum (map (fun k => INR k * sin (INR k * d)) (seq 1 r)))) with (plus 0 (2 * rsum (map (fun k => - (INR k * sin (INR k * d))) (seq 1 r)))).
  - apply (is_derive_plus (K:=R_AbsRing) (V:=R_NormedModule) (fun _ => 1) (fun d => 2 * rsum (map (fun k => cos (INR k * d)) (seq 1 r)))).
    + apply (is_derive_const (K:=R_AbsRing) (V:=R_NormedModule) 1 d).
    + apply (is_derive_scal (fun d => rsum (map (fun k => cos (INR k * d)) (seq 1 r))) d 2). apply (is_derive_rsum (fun k d => cos (INR k * d))). intros k _. auto_derive; [exact I|]. ring.
  - unfold plus; cbn. rewrite (rsum_map_ext _ (fun k => (-1) * (INR k * sin (INR k * d)))) by (intros; ring). rewrite rsum_scal. ring.
Qed.
(** The true derivative of one term of the reconstruction, in the quotient form. *)
Definition term_df_true (r : nat) (x e : R) (mu : Z) : R :=
  let A := (2 * INR r + 1) / 2 in
  let delta := x - x_mu r mu in
  let u := A * delta / PI in
  let v := / 2 * delta / PI in
  e * (dsinc u * (A / PI) * npsinc v - npsinc u * (dsinc v * (/ 2 / PI))) / npsinc v ^ 2.
Lemma is_derive_term r x e mu : npsinc (1 / 2 * (x - x_mu r mu) / PI) <> 0 -> is_derive (fun y => term_f r y e mu) x (term_df_true r x e mu).
Proof.
  intros Hs. pose proof PI_RGT_0 as Hpi. pose proof (width_pos r) as Hw. destruct (Req_dec (x - x_mu r mu) 0) as [Hd|Hd].
  - apply (is_derive_ext_loc (fun y => e / (2 * INR r + 1) * dir r (y - x_mu r mu))).
    + assert (0 < 2 * PI) as H2 by lra. exists (mkposreal (2 * PI) H2). intros y Hy. unfold ball in Hy. cbn in Hy. unfold AbsRing_ball, abs, minus, plus, opp in Hy. cbn in Hy.
      rewrite term_dir; [change (e / (2 * INR r + 1) * dir r (y - x_mu r mu) = e * dir r (y - x_mu r mu) / (2 * INR r + 1)); unfold Rdiv; ring|]. apply sinc_nonzero. replace (y - x_mu r mu) with (y + - x) by lra. exact Hy.
    + replace (term_df_true r x e mu) with (e / (2 * INR r + 1) * (1 * - (2 * rsum (map (fun k => INR k * sin (INR k * (x - x_mu r mu))) (seq 1 r))))).
      * apply (is_derive_scal (fun y => dir r (y - x_mu r mu)) x). apply (is_derive_comp (dir r) (fun y => y - x_mu r mu)); [apply is_derive_dir|]. auto_derive; [exact I|]. ring.
      * rewrite Hd. rewrite rsum_zero by (intros k _; rewrite Rmult_0_r, sin_0; ring). unfold term_df_true. rewrite Hd.
        replace ((2 * INR r + 1) / 2 * 0 / PI) with 0 by (field; lra). replace (/ 2 * 0 / PI) with 0 by (field; lra). unfold dsinc. destruct (Req_EM_T 0 0); [|lra]. unfold Rdiv. ring.
  - unfold term_f, term_df_true. set (A := (2 * INR r + 1) / 2) in *. set (m := x_mu r mu) in *.
    assert (A * (x - m) / PI <> 0) as Hu.
    { intros H. apply Hd. replace (x - m) with (A * (x - m) / PI * (PI / A)) by (field; split; [unfold A; lra|lra]). rewrite H. ring. }
    assert (/ 2 * (x - m) / PI <> 0) as Hv.
    { intros H. apply Hd. replace (x - m) with (/ 2 * (x - m) / PI * (2 * PI)) by (field; lra). rewrite H. ring. }
    replace (1 / 2 * (x - m) / PI) with (/ 2 * (x - m) / PI) in Hs by (field; lra).
    apply (is_derive_ext (fun y => e * (npsinc (A * (y - m) / PI) / npsinc (/ 2 * (y - m) / PI)))).
    { intros t. replace (1 / 2 * (t - m) / PI) with (/ 2 * (t - m) / PI) by (field; lra). unfold Rdiv. symmetry. apply Rmult_assoc. }
    pose proof (is_derive_sinc _ Hu) as D1. pose proof (is_derive_sinc _ Hv) as D2.
    unfold dsinc. destruct (Req_EM_T (A * (x - m) / PI) 0) as [|_]; [contradiction|]. destruct (Req_EM_T (/ 2 * (x - m) / PI) 0) as [|_]; [contradiction|].
    set (du := cos (PI * (A * (x - m) / PI)) / (A * (x - m) / PI) - sin (PI * (A * (x - m) / PI)) / (PI * (A * (x - m) / PI) ^ 2)) in *.
    set (dv := cos (PI * (/ 2 * (x - m) / PI)) / (/ 2 * (x - m) / PI) - sin (PI * (/ 2 * (x - m) / PI)) / (PI * (/ 2 * (x - m) / PI) ^ 2)) in *.
    assert (is_derive (fun y => npsinc (A * (y - m) / PI)) x (A / PI * du)) as E1.
    { apply (is_derive_comp npsinc (fun y => A * (y - m) / PI)); [exact D1|]. auto_derive; [exact I|]. field. lra. }
    assert (is_derive (fun y => npsinc (/ 2 * (y - m) / PI)) x (/ 2 / PI * dv)) as E2.
    { apply (is_derive_comp npsinc (fun y => / 2 * (y - m) / PI)); [exact D2|]. auto_derive; [exact I|]. field. lra. }
    pose proof (is_derive_div _ _ x _ _ E1 E2 Hs) as E3. apply (is_derive_scal _ x e) in E3. match goal with |- is_derive _ _ ?t => match type of E3 with is_derive _ _ ?t' => replace t with t'; [exact E3|] end end.
    cbv beta. unfold Rdiv. ring.
Qed.
Definition true_derivative (e : list R) (r : nat) (x : R) : R :=
  rsum (map (fun im : nat * Z => term_df_true r x (nth (fst im) e 0) (snd im)) (combine (seq 0 (2 * r + 1)) (mus r))).
Lemma in_combine_mus r (im : nat * Z) : In im (combine (seq 0 (2 * r + 1)) (mus r)) -> In (snd im) (mus r).
Proof. destruct im as [i mu]. apply in_combine_r. Qed.
Lemma is_derive_reconstructed r e x : defined_at r x -> is_derive (reconstructed_f e r) x (true_derivative e r x).
Proof.
  intros H. unfold reconstructed_f, true_derivative. apply (is_derive_rsum (fun (im : nat * Z) y => term_f r y (nth (fst im) e 0) (snd im))).
  intros im Him. apply is_derive_term. apply H. now apply in_combine_mus in Him.
Qed.
(** Where the code's cut-off does not matter. *)
Lemma term_df_exact eps r x e mu : 0 <= eps -> (x = x_mu r mu \/ eps < Rabs (x - x_mu r mu) / (2 * PI)) -> term_df eps r x e mu = term_df_true r x e mu.
Proof.
  intros He H. pose proof PI_RGT_0 as Hpi. pose proof (width_pos r) as Hw. pose proof (pos_INR r) as Hr.
  unfold term_df, term_df_true. set (A := (2 * INR r + 1) / 2). set (d := x - x_mu r mu) in *.
  assert (forall a, / 2 <= a -> sinc_derivative eps (a * d / PI) = dsinc (a * d / PI)) as G.
  { intros a Ha. unfold sinc_derivative, dsinc. destruct H as [H|H].
    - assert (d = 0) as -> by (unfold d; lra). replace (a * 0 / PI) with 0 by (field; lra). rewrite Rabs_R0. destruct (Rlt_dec eps 0); [lra|]. destruct (Req_EM_T 0 0); [reflexivity|lra].
    - assert (eps < Rabs (a * d / PI)) as Hb.
      { eapply Rlt_le_trans; [exact H|]. unfold Rdiv. rewrite Rabs_mult, Rabs_mult, (Rabs_right a), (Rabs_right (/ PI)) by (try apply Rgt_ge; try apply Rinv_0_lt_compat; lra).
        rewrite Rinv_mult. apply Rle_trans with (Rabs d * (/ 2) * / PI); [right; ring|]. apply Rmult_le_compat_r; [left; apply Rinv_0_lt_compat; lra|]. rewrite (Rmult_comm a). apply Rmult_le_compat_l; [apply Rabs_pos|exact Ha]. }
      destruct (Rlt_dec eps (Rabs (a * d / PI))); [|lra]. destruct (Req_EM_T (a * d / PI) 0) as [E|]; [|reflexivity]. rewrite E, Rabs_R0 in Hb. lra. }
  rewrite !G by (unfold A; lra). reflexivity.
Qed.
Lemma derivative_exact eps r e x : 0 <= eps -> (forall mu, In mu (mus r) -> x = x_mu r mu \/ eps < Rabs (x - x_mu r mu) / (2 * PI)) -> reconstructed_f_derivative eps e r x = true_derivative e r x.
Proof.
  intros He H. unfold reconstructed_f_derivative, true_derivative. apply rsum_map_ext. intros im Him. apply term_df_exact; [exact He|]. apply H. now apply in_combine_mus in Him.
Qed.
Lemma derivative_sa eps r es x : reconstructed_f_derivative_sa eps es r x = rsum (map (fun k => reconstructed_f_derivative eps (map (fun row => nth k row 0) es) r x) (seq 0 (length (nth 0 es [])))) / INR (length es).
Proof.
  unfold reconstructed_f_derivative_sa. f_equal. apply rsum_map_ext. intros k _. unfold reconstructed_f_derivative. apply rsum_map_ext. intros im _. f_equal.
  destruct (Nat.lt_ge_cases (fst im) (length es)) as [H|H].
  - assert (lt (fst im) (length (map (fun row => nth k row 0%R) es))) as Hl by (rewrite map_length; exact H).
    exact (eq_sym (eq_trans (nth_indep _ 0 (nth k (@nil R) 0) Hl) (map_nth (fun row => nth k row 0) es [] (fst im)))).
  - rewrite (nth_overflow es), (nth_overflow (map _ _)) by (rewrite ?map_length; exact H). destruct k; reflexivity.
Qed.

(** The size of the neglected derivative. *)
Lemma sin_zcos z : 0 <= z -> 0 <= z <= 1 -> Rabs (sin z - z * cos z) <= z ^ 3 / 3.
Proof.
  intros Hz0 [_ Hz1]. 
  assert (forall g dg : R -> R, (forall t, is_derive g t (dg t)) -> g 0 = 0 -> (forall t, 0 <= t <= z -> 0 <= dg t) -> 0 <= g z) as MV.
  { intros g dg Hg H0 Hpos. destruct (MVT_gen g 0 z dg) as (c & Hc & E).
    - intros t _. apply Hg.
    - intros t _. apply continuity_pt_filterlim. apply (ex_derive_continuous g). exists (dg t). apply Hg.
    - rewrite Rmin_left, Rmax_right in Hc by lra. rewrite H0 in E. specialize (Hpos c Hc). nra. }
  assert (0 <= sin z - z * cos z) as L.
  { apply (MV (fun t => sin t - t * cos t) (fun t => t * sin t)).
    - intros t. auto_derive; [exact I|]. ring.
    - rewrite sin_0. ring.
    - intros t Ht. apply Rmult_le_pos; [lra|]. apply sin_ge_0; pose proof PI2_1; lra. }
  assert (0 <= z ^ 3 / 3 - (sin z - z * cos z)) as U.
  { apply (MV (fun t => t ^ 3 / 3 - (sin t - t * cos t)) (fun t => t ^ 2 - t * sin t)).
    - intros t. auto_derive; [exact I|]. field.
    - rewrite sin_0. field.
    - intros t Ht. destruct (Req_dec t 0) as [->|Hn]; [rewrite sin_0; lra|]. pose proof (sin_lt_x t ltac:(lra)). nra. }
  rewrite Rabs_right by lra. lra.
Qed.
Lemma sin_half z : 0 <= z <= PI / 3 -> z / 2 <= sin z.
Proof.
  intros Hz. pose proof PI_RGT_0 as Hpi. destruct (MVT_gen (fun t => sin t - t / 2) 0 z (fun t => cos t - / 2)) as (c & Hc & E).
  - intros t _. auto_derive; [exact I|]. field.
  - intros t _. apply continuity_pt_filterlim. apply (ex_derive_continuous (fun t => sin t - t / 2)). auto_derive. exact I.
  - rewrite Rmin_left, Rmax_right in Hc by lra. rewrite sin_0 in E.
    assert (/ 2 <= cos c) as Hcos. { replace (/ 2) with (cos (PI / 3)) by (rewrite cos_PI3; lra). apply cos_decr_1; lra. }
    nra.
Qed.
Lemma npsinc_even u : npsinc (- u) = npsinc u.
Proof.
  pose proof PI_RGT_0 as Hpi. unfold npsinc. destruct (Req_EM_T (- u) 0); destruct (Req_EM_T u 0); try lra.
  replace (PI * - u) with (- (PI * u)) by ring. rewrite sin_neg. field. split; lra.
Qed.
Lemma npsinc_abs u : npsinc (Rabs u) = npsinc u.
Proof. unfold Rabs. destruct (Rcase_abs u); [apply npsinc_even|reflexivity]. Qed.
Lemma npsinc_low v : Rabs v <= / 4 -> / 2 <= npsinc v.
Proof.
  intros H. rewrite <- npsinc_abs. pose proof (Rabs_pos v) as H0. set (w := Rabs v) in *. clearbody w. pose proof PI_RGT_0 as Hpi. unfold npsinc.
  destruct (Req_EM_T w 0); [lra|]. assert (0 < PI * w) as Hp by (apply Rmult_lt_0_compat; lra). pose proof (sin_half (PI * w) ltac:(split; nra)) as Hs.
  apply (Rmult_le_reg_r (PI * w)); [exact Hp|]. unfold Rdiv. rewrite Rmult_assoc, Rinv_l, Rmult_1_r by lra. lra.
Qed.
Lemma npsinc_high u : Rabs (npsinc u) <= 1.
Proof.
  rewrite <- npsinc_abs. pose proof (Rabs_pos u) as H0. set (w := Rabs u) in *. clearbody w. pose proof PI_RGT_0 as Hpi. unfold npsinc.
  destruct (Req_EM_T w 0); [rewrite Rabs_R1; lra|]. assert (0 < PI * w) as Hp by (apply Rmult_lt_0_compat; lra).
  unfold Rdiv. rewrite Rabs_mult, (Rabs_right (/ _)) by (apply Rgt_ge, Rinv_0_lt_compat; exact Hp).
  apply (Rmult_le_reg_r (PI * w)); [exact Hp|]. rewrite Rmult_assoc, Rinv_l, Rmult_1_r, Rmult_1_l by lra.
  pose proof (sin_lt_x _ Hp) as Hx. apply Rabs_le. split; [|lra]. destruct (Rle_dec (PI * w) PI) as [Hle|Hgt].
  - pose proof (sin_ge_0 (PI * w) ltac:(lra) Hle). lra.
  - pose proof (SIN_bound (PI * w)). pose proof PI2_1. lra.
Qed.
Lemma dsinc_small u : Rabs u <= / 4 -> Rabs (dsinc u) <= PI ^ 2 * Rabs u / 3.
Proof.
  intros H. pose proof PI_RGT_0 as Hpi. pose proof PI_4 as Hpi4. unfold dsinc. destruct (Req_EM_T u 0) as [->|Hu].
  - rewrite Rabs_R0. lra.
  - assert (forall w, 0 < w -> w <= / 4 -> Rabs (cos (PI * w) / w - sin (PI * w) / (PI * w ^ 2)) <= PI ^ 2 * w / 3) as G.
    { intros w Hw Hw4. assert (0 < PI * w) as Hp by (apply Rmult_lt_0_compat; lra).
      replace (cos (PI * w) / w - sin (PI * w) / (PI * w ^ 2)) with (- ((sin (PI * w) - PI * w * cos (PI * w)) / (PI * w ^ 2))) by (field; lra).
      rewrite Rabs_Ropp. unfold Rdiv. rewrite Rabs_mult. assert (0 < PI * w ^ 2) as Hq by (apply Rmult_lt_0_compat; nra).
      rewrite (Rabs_right (/ _)) by (apply Rgt_ge, Rinv_0_lt_compat; exact Hq).
      apply (Rmult_le_reg_r (PI * w ^ 2)); [exact Hq|]. rewrite Rmult_assoc, Rinv_l, Rmult_1_r by lra.
      eapply Rle_trans; [apply sin_zcos; [lra|split; nra]|]. right. field. }
    destruct (Rlt_dec u 0) as [Hn|Hp].
    + rewrite (Rabs_left u) in * by exact Hn. specialize (G (- u) ltac:(lra) H). rewrite <- Rabs_Ropp.
      replace (- (cos (PI * u) / u - sin (PI * u) / (PI * u ^ 2))) with (cos (PI * - u) / - u - sin (PI * - u) / (PI * (- u) ^ 2)); [exact G|].
      replace (PI * - u) with (- (PI * u)) by ring. rewrite cos_neg, sin_neg. field. lra.
    + rewrite (Rabs_right u) in * by lra. apply G; lra.
Qed.
Lemma cutoff_error eps u : 0 <= eps <= / 4 -> Rabs (sinc_derivative eps u - dsinc u) <= PI ^ 2 * eps / 3.
Proof.
  intros He. pose proof PI_RGT_0 as Hpi. assert (0 <= PI ^ 2 * eps / 3) as Hn by (apply Rmult_le_pos; [apply Rmult_le_pos; nra|lra]). unfold sinc_derivative. destruct (Rlt_dec eps (Rabs u)) as [H|H].
  - unfold dsinc. destruct (Req_EM_T u 0) as [->|Hu]; [rewrite Rabs_R0 in H; lra|]. unfold Rminus at 1. rewrite Rplus_opp_r, Rabs_R0. exact Hn.
  - rewrite Rminus_0_l, Rabs_Ropp. eapply Rle_trans; [apply dsinc_small; lra|]. unfold Rdiv. apply Rmult_le_compat_r; [lra|]. apply Rmult_le_compat_l; [nra|lra].
Qed.
Lemma term_df_error eps r x e mu : 0 <= eps <= / 4 -> Rabs (term_df eps r x e mu - term_df_true r x e mu) <= 4 * PI * eps * (INR r + 1) / 3 * Rabs e.
Proof.
  intros He. pose proof PI_RGT_0 as Hpi. pose proof (width_pos r) as Hw. pose proof (pos_INR r) as Hr. pose proof (Rabs_pos e) as Hae.
  assert (0 <= 4 * PI * eps * (INR r + 1) / 3) as Hc.
  { assert (0 <= PI * eps) by (apply Rmult_le_pos; lra). assert (0 <= PI * eps * (INR r + 1)) by (apply Rmult_le_pos; lra). lra. }
  destruct (Rlt_dec eps (Rabs (x - x_mu r mu) / (2 * PI))) as [H|H].
  - rewrite term_df_exact by (try (now right); lra). unfold Rminus. rewrite Rplus_opp_r, Rabs_R0. now apply Rmult_le_pos.
  - unfold term_df, term_df_true. set (A := (2 * INR r + 1) / 2). set (d := x - x_mu r mu) in *.
    set (u := A * d / PI). set (v := / 2 * d / PI).
    assert (Rabs v <= / 4) as Hv.
    { unfold v. replace (/ 2 * d / PI) with (d / (2 * PI)) by (field; lra). unfold Rdiv in *. rewrite Rabs_mult, (Rabs_right (/ (2 * PI))) by (apply Rgt_ge, Rinv_0_lt_compat; lra). lra. }
    pose proof (npsinc_low v Hv) as Hs2. pose proof (npsinc_high v) as Hs2'. pose proof (npsinc_high u) as Hs1.
    pose proof (cutoff_error eps u He) as E1. pose proof (cutoff_error eps v He) as E2.
    set (s1 := npsinc u) in *. set (s2 := npsinc v) in *. set (D1 := sinc_derivative eps u) in *. set (D2 := sinc_derivative eps v) in *. set (T1 := dsinc u) in *. set (T2 := dsinc v) in *.
    clearbody s1 s2 D1 D2 T1 T2.
    replace (e * (D1 * (A / PI) * s2 - s1 * (D2 * (/ 2 / PI))) / s2 ^ 2 - e * (T1 * (A / PI) * s2 - s1 * (T2 * (/ 2 / PI))) / s2 ^ 2)
      with (e * ((D1 - T1) * (A / PI * s2) - (D2 - T2) * (s1 * (/ 2 / PI))) * / s2 ^ 2) by (field; lra).
    rewrite !Rabs_mult. assert (0 < / s2 ^ 2 <= 4) as [Hi Hi4].
    { split; [apply Rinv_0_lt_compat; nra|]. replace 4 with (/ (/ 2) ^ 2) by field. apply Rinv_le_contravar; nra. }
    rewrite (Rabs_right (/ s2 ^ 2)) by lra.
    assert (Rabs ((D1 - T1) * (A / PI * s2) - (D2 - T2) * (s1 * (/ 2 / PI))) <= PI * eps * (INR r + 1) / 3) as HB.
    { eapply Rle_trans; [apply Rabs_triang|]. rewrite Rabs_Ropp, !Rabs_mult.
      replace (PI * eps * (INR r + 1) / 3) with (PI ^ 2 * eps / 3 * (A / PI * 1) + PI ^ 2 * eps / 3 * (1 * (/ 2 / PI))) by (unfold A; field; lra).
      assert (0 < A / PI) as HA by (apply Rdiv_lt_0_compat; unfold A; lra). assert (0 < / 2 / PI) as HB by (apply Rdiv_lt_0_compat; lra).
      rewrite (Rabs_right (A / PI)), (Rabs_right (/ 2 / PI)) by lra.
      apply Rplus_le_compat; apply Rmult_le_compat; try apply Rabs_pos; try assumption.
      - apply Rmult_le_pos; [lra|apply Rabs_pos].
      - apply Rmult_le_compat_l; [lra|assumption].
      - apply Rmult_le_pos; [apply Rabs_pos|lra].
      - apply Rmult_le_compat_r; [lra|assumption]. }
    replace (4 * PI * eps * (INR r + 1) / 3 * Rabs e) with (Rabs e * (PI * eps * (INR r + 1) / 3) * 4) by field.
    apply Rmult_le_compat; [apply Rmult_le_pos; apply Rabs_pos|lra| |exact Hi4]. apply Rmult_le_compat_l; [exact Hae|exact HB].
Qed.
Lemma rsum_error {A} (f g : A -> R) (b : A -> R) l : (forall a, In a l -> Rabs (f a - g a) <= b a) -> Rabs (rsum (map f l) - rsum (map g l)) <= rsum (map b l).
Proof.
  induction l as [|a l IH]; intros H; cbn [map].
  - change (rsum []) with 0. rewrite Rminus_0_r, Rabs_R0. lra.
  - rewrite !rsum_cons. replace (f a + rsum (map f l) - (g a + rsum (map g l))) with ((f a - g a) + (rsum (map f l) - rsum (map g l))) by ring.
    eapply Rle_trans; [apply Rabs_triang|]. apply Rplus_le_compat; [apply H; now left|]. apply IH. intros c Hc. apply H. now right.
Qed.
Lemma derivative_error eps r e x : 0 <= eps <= / 4 -> Rabs (reconstructed_f_derivative eps e r x - true_derivative e r x) <= 4 * PI * eps * (INR r + 1) / 3 * rsum (map (fun i => Rabs (nth i e 0)) (seq 0 (2 * r + 1))).
Proof.
  intros He. rewrite <- rsum_scal. unfold reconstructed_f_derivative, true_derivative.
  eapply Rle_trans; [apply (rsum_error _ _ (fun im : nat * Z => 4 * PI * eps * (INR r + 1) / 3 * Rabs (nth (fst im) e 0)))|].
  - intros im _. now apply term_df_error.
  - right. rewrite <- (mus_length r). now rewrite (sum_combine _ (mus r) 0%Z).
Qed.

(** Wrapping angles. *)
Lemma wrap_up_mono k x y : wrap_up k x = Ok y -> forall k', (k <= k')%nat -> wrap_up k' x = Ok y.
Proof.
  revert x. induction k as [|k IH]; intros x H k' Hk; cbn [wrap_up] in H.
  - destruct (Rlt_dec x PI) eqn:E; [discriminate|]. destruct k'; cbn [wrap_up]; rewrite E; exact H.
  - destruct k' as [|k']; [lia|]. cbn [wrap_up]. destruct (Rlt_dec x PI); [|exact H]. apply (IH _ H). lia.
Qed.
Lemma wrap_down_mono k x y : wrap_down k x = Ok y -> forall k', (k <= k')%nat -> wrap_down k' x = Ok y.
Proof.
  revert x. induction k as [|k IH]; intros x H k' Hk; cbn [wrap_down] in H.
  - destruct (Rlt_dec PI x) eqn:E; [discriminate|]. destruct k'; cbn [wrap_down]; rewrite E; exact H.
  - destruct k' as [|k']; [lia|]. cbn [wrap_down]. destruct (Rlt_dec PI x); [|exact H]. apply (IH _ H). lia.
Qed.
Lemma wrap_up_total k x : PI <= x + INR k * (2 * PI) -> exists y, wrap_up k x = Ok y.
Proof.
  revert x. induction k as [|k IH]; intros x H; cbn [wrap_up].
  - destruct (Rlt_dec x PI); [cbn in H; lra|eauto].
  - destruct (Rlt_dec x PI); [|eauto]. apply IH. rewrite S_INR in H. lra.
Qed.
Lemma wrap_down_total k x : x - INR k * (2 * PI) <= PI -> exists y, wrap_down k x = Ok y.
Proof.
  revert x. induction k as [|k IH]; intros x H; cbn [wrap_down].
  - destruct (Rlt_dec PI x); [cbn in H; lra|eauto].
  - destruct (Rlt_dec PI x); [|eauto]. apply IH. rewrite S_INR in H. lra.
Qed.
Lemma wrap_up_spec k x y : wrap_up k x = Ok y -> PI <= y /\ exists n : nat, y = x + INR n * (2 * PI).
Proof.
  revert x. induction k as [|k IH]; intros x H; cbn [wrap_up] in H; destruct (Rlt_dec x PI) as [Hl|Hl].
  - discriminate.
  - injection H as <-. split; [lra|]. exists O. cbn. ring.
  - destruct (IH _ H) as [H1 (n & Hn)]. split; [exact H1|]. exists (S n). rewrite S_INR. lra.
  - injection H as <-. split; [lra|]. exists O. cbn. ring.
Qed.
Lemma wrap_down_spec k x y : - PI < x -> wrap_down k x = Ok y -> - PI < y <= PI /\ exists n : nat, y = x - INR n * (2 * PI).
Proof.
  revert x. induction k as [|k IH]; intros x Hx H; cbn [wrap_down] in H; destruct (Rlt_dec PI x) as [Hl|Hl].
  - discriminate.
  - injection H as <-. split; [lra|]. exists O. cbn. ring.
  - destruct (IH (x - 2 * PI) ltac:(lra) H) as [H1 (n & Hn)]. split; [exact H1|]. exists (S n). rewrite S_INR. lra.
  - injection H as <-. split; [lra|]. exists O. cbn. ring.
Qed.
Lemma wrap_spec k x y : wrap k x = Ok y -> - PI < y <= PI /\ exists n : Z, y = x + IZR n * (2 * PI).
Proof.
  unfold wrap. destruct (wrap_up k x) as [z| |] eqn:E; cbn [bind]; try discriminate. intros H. pose proof PI_RGT_0 as Hpi.
  destruct (wrap_up_spec _ _ _ E) as [Hz (n & Hn)]. destruct (wrap_down_spec k z y ltac:(lra) H) as [Hy (m & Hm)]. split; [exact Hy|].
  exists (Z.of_nat n - Z.of_nat m)%Z. rewrite minus_IZR, <- !INR_IZR_INZ. lra.
Qed.
Lemma INR_unbounded a : exists n, a < INR n.
Proof.
  destruct (nfloor_ex (Rmax 0 a) (Rmax_l 0 a)) as (n & _ & Hn). exists (S n). rewrite S_INR. pose proof (Rmax_r 0 a). lra.
Qed.
Lemma wrap_total x : exists k0, forall k, (k0 <= k)%nat -> exists y, wrap k x = Ok y.
Proof.
  pose proof PI_RGT_0 as Hpi. destruct (INR_unbounded ((PI - x) / (2 * PI))) as (k1 & H1).
  assert (PI <= x + INR k1 * (2 * PI)) as H1'.
  { assert ((PI - x) / (2 * PI) * (2 * PI) < INR k1 * (2 * PI)) as H by (apply Rmult_lt_compat_r; lra). replace ((PI - x) / (2 * PI) * (2 * PI)) with (PI - x) in H by (field; lra). lra. }
  destruct (wrap_up_total _ _ H1') as (z & Hz). destruct (INR_unbounded ((z - PI) / (2 * PI))) as (k2 & H2).
  assert (z - INR k2 * (2 * PI) <= PI) as H2'.
  { assert ((z - PI) / (2 * PI) * (2 * PI) < INR k2 * (2 * PI)) as H by (apply Rmult_lt_compat_r; lra). replace ((z - PI) / (2 * PI) * (2 * PI)) with (z - PI) in H by (field; lra). lra. }
  destruct (wrap_down_total _ _ H2') as (y & Hy). exists (Nat.max k1 k2). intros k Hk. exists y. unfold wrap. rewrite (wrap_up_mono _ _ _ Hz) by lia. cbn [bind]. apply (wrap_down_mono _ _ _ Hy). lia.
Qed.

(** Writing one parameter. *)
Fixpoint put (x : list R) (i : nat) (v : R) : list R :=
  match x, i with
  | [], _ => []
  | _ :: t, O => v :: t
  | a :: t, S j => a :: put t j v
  end.
Lemma set_at_put x i v : (i < length x)%nat -> set_at x i v = Ok (put x i v).
Proof. revert i. induction x as [|a x IH]; intros i H; [cbn in H; lia|]. destruct i as [|i]; [reflexivity|]. cbn [set_at put]. rewrite IH by (cbn in H; lia). reflexivity. Qed.
Lemma set_at_range x i v : (length x <= i)%nat -> set_at x i v = Raise IndexError.
Proof. revert i. induction x as [|a x IH]; intros i H; [destruct i; reflexivity|]. destruct i as [|i]; [cbn in H; lia|]. cbn [set_at]. rewrite IH by (cbn in H; lia). reflexivity. Qed.
Lemma put_length x i v : length (put x i v) = length x.
Proof. revert i. induction x as [|a x IH]; intros [|i]; cbn; auto. Qed.
Lemma put_put x i v w : put (put x i v) i w = put x i w.
Proof. revert i. induction x as [|a x IH]; intros [|i]; cbn; auto. now rewrite IH. Qed.
Lemma put_nth x i d : (i < length x)%nat -> put x i (nth i x d) = x.
Proof. revert i. induction x as [|a x IH]; intros [|i] H; cbn in *; auto; try lia. rewrite IH by lia. reflexivity. Qed.
Lemma nth_put x i j v d : (i < length x)%nat -> nth j (put x i v) d = if (j =? i)%nat then v else nth j x d.
Proof. revert i j. induction x as [|a x IH]; intros [|i] [|j] H; cbn in *; auto; try lia. apply IH. lia. Qed.
Lemma energy_evals_spec f x i r : (i < length x)%nat -> get_energy_evals f x i r = Ok (samples r (fun t => f (put x i t))).
Proof.
  intros Hi. unfold get_energy_evals, samples.
  assert (forall l acc y, (forall v, put y i v = put x i v) -> length y = length x -> exists y', fold_left (fun acc mu => bind acc (fun st : list R * list R =>
          bind (set_at (fst st) i (x_mu r mu)) (fun x' => Ok (x', snd st ++ [f x'])))) l (Ok (y, acc)) = Ok (y', acc ++ map (fun mu => f (put x i (x_mu r mu))) l)) as G.
  { induction l as [|mu l IH]; intros acc y Hy Hl; cbn [fold_left map].
    - exists y. now rewrite app_nil_r.
    - cbn [bind fst snd]. rewrite set_at_put by lia. cbn [bind]. destruct (IH (acc ++ [f (put y i (x_mu r mu))]) (put y i (x_mu r mu))) as (y' & E).
      + intros v. rewrite put_put. apply Hy.
      + rewrite put_length. exact Hl.
      + exists y'. rewrite E, <- app_assoc, Hy. reflexivity. }
  destruct (G (mus r) [] x (fun v => eq_refl) eq_refl) as (y' & ->). reflexivity.
Qed.

(** The grid. *)
Lemma argmin_from_spec l : forall k best vbest, (best < k)%nat ->
  let j := argmin_from l k best vbest in
  (j = best /\ (forall i, (i < length l)%nat -> vbest <= nth i l 0)) \/
  ((k <= j < k + length l)%nat /\ nth (j - k) l 0 < vbest /\ (forall i, (i < length l)%nat -> nth (j - k) l 0 <= nth i l 0)).
Proof.
  induction l as [|v l IH]; intros k best vbest Hb; cbn [argmin_from].
  - left. split; [reflexivity|]. intros i Hi. cbn in Hi. lia.
  - destruct (Rlt_dec v vbest) as [H|H]; cbn [length].
    + destruct (IH (S k) k v ltac:(lia)) as [[E HE]|(Hr & Hlt & HE)].
      * right. rewrite E, Nat.sub_diag. cbn [nth]. repeat split; try lia; [exact H|]. intros [|i] Hi; [lra|]. apply HE. lia.
      * right. set (j := argmin_from l (S k) k v) in *. replace (j - k)%nat with (S (j - S k)) by lia. cbn [nth]. repeat split; try lia; [lra|]. intros [|i] Hi; [lra|]. apply HE. lia.
    + destruct (IH (S k) best vbest ltac:(lia)) as [[E HE]|(Hr & Hlt & HE)].
      * left. split; [exact E|]. intros [|i] Hi; cbn [nth]; [lra|]. apply HE. lia.
      * right. set (j := argmin_from l (S k) best vbest) in *. replace (j - k)%nat with (S (j - S k)) by lia. cbn [nth]. repeat split; try lia; [lra|]. intros [|i] Hi; [lra|]. apply HE. lia.
Qed.
Lemma argmin_spec l : l <> [] -> (argmin l < length l)%nat /\ forall i, (i < length l)%nat -> nth (argmin l) l 0 <= nth i l 0.
Proof.
  destruct l as [|v l]; [congruence|]. intros _. cbn [argmin length]. destruct (argmin_from_spec l 1 0 v ltac:(lia)) as [[E HE]|(Hr & Hlt & HE)].
  - rewrite E. split; [lia|]. intros [|i] Hi; cbn [nth]; [lra|]. apply HE. lia.
  - set (j := argmin_from l 1 0 v) in *. split; [lia|]. destruct j as [|j]; [lia|]. cbn [nth]. replace (S j - 1)%nat with j in * by lia. intros [|i] Hi; [lra|]. apply HE. lia.
Qed.
Lemma linspace_range n t : (2 <= n)%nat -> In t (linspace n) -> - PI <= t <= PI.
Proof.
  intros Hn Ht. pose proof PI_RGT_0 as Hpi. apply in_map_iff in Ht as (j & <- & Hj). apply in_seq in Hj. assert (INR j <= INR n - 1) as Hle by (change 1 with (INR 1); rewrite <- minus_INR by lia; apply le_INR; lia).
  assert (2 <= INR n) as H2 by (change 2 with (INR 2); apply le_INR; lia). pose proof (pos_INR j) as Hj0.
  assert (0 <= 2 * PI / (INR n - 1)) as Hq by (apply Rlt_le, Rdiv_lt_0_compat; lra).
  assert (0 <= INR j * (2 * PI / (INR n - 1)) <= 2 * PI); [|lra]. split; [now apply Rmult_le_pos|].
  apply Rle_trans with ((INR n - 1) * (2 * PI / (INR n - 1))); [now apply Rmult_le_compat_r|]. right. field. lra.
Qed.
Lemma linspace_length n : length (linspace n) = n.
Proof. unfold linspace. now rewrite map_length, seq_length. Qed.

Lemma trig_periodic r p x (n : Z) : trig_poly r p -> p (x + IZR n * (2 * PI)) = p x.
Proof.
  intros (a & b & Hp). rewrite !Hp. apply rsum_map_ext. intros m _.
  assert (forall k : nat, cos (INR m * x + INR k * (2 * PI)) = cos (INR m * x) /\ sin (INR m * x + INR k * (2 * PI)) = sin (INR m * x)) as G.
  { intros k. split; replace (INR m * x + INR k * (2 * PI)) with (INR m * x + 2 * INR k * PI) by ring; [apply cos_period|apply sin_period]. }
  assert (forall k : nat, cos (INR m * x - INR k * (2 * PI)) = cos (INR m * x) /\ sin (INR m * x - INR k * (2 * PI)) = sin (INR m * x)) as G'.
  { intros k. set (y := INR m * x - INR k * (2 * PI)). replace (INR m * x) with (y + 2 * INR k * PI) by (unfold y; ring). now rewrite cos_period, sin_period. }
  assert (exists k : nat, INR m * (x + IZR n * (2 * PI)) = INR m * x + INR k * (2 * PI) \/ INR m * (x + IZR n * (2 * PI)) = INR m * x - INR k * (2 * PI)) as (k & [E|E]).
  { exists (m * Z.abs_nat n)%nat. rewrite mult_INR. destruct (Z.le_ge_cases 0 n) as [H|H].
    - left. rewrite (INR_IZR_INZ (Z.abs_nat n)), Zabs2Nat.id_abs, Z.abs_eq by exact H. ring.
    - right. rewrite (INR_IZR_INZ (Z.abs_nat n)), Zabs2Nat.id_abs, Z.abs_neq, opp_IZR by exact H. ring. }
  - rewrite E. destruct (G k) as [-> ->]. reflexivity.
  - rewrite E. destruct (G' k) as [-> ->]. reflexivity.
Qed.

Section Loop.
  Variable scipy_minimize : (R -> R) -> (R -> R) -> R -> R.
  Variable eps : R.
  Variable grid : nat.
  Variable fuel : nat.
  Variable Rdict : nat -> option nat.
  Variable param_names : list nat.
  Variable threshold : R.
  Variable max_fail : nat.
  Variable f : list R -> R.
  Notation UPD := (update_coordinate scipy_minimize eps grid fuel Rdict f).
  Notation SWEEP := (sweep scipy_minimize eps grid fuel Rdict param_names f).
  Notation RLOOP := (rloop scipy_minimize eps grid fuel Rdict param_names threshold max_fail f).

  (** [n] sweeps from [x]. *)
  Fixpoint sweeps (n : nat) (x : list R) : Res (list R) :=
    match n with O => Ok x | S k => bind (SWEEP x) (sweeps k) end.
  Lemma sweeps_S n x : sweeps (S n) x = bind (sweeps n x) (fun y => SWEEP y).
  Proof.
    revert x. induction n as [|n IH]; intros x; cbn [sweeps bind].
    - destruct (SWEEP x); reflexivity.
    - destruct (SWEEP x) as [y| |]; cbn [bind]; [|reflexivity|reflexivity]. apply (IH y).
  Qed.

  (** What one run of the loop from a given state reports. *)
  Definition good (x0 : list R) (fb : R) (xb : list R) (xr : list R) (fr : R) (ok : bool) (n : nat) : Prop :=
    (xr = xb /\ fr = fb /\ ok = false \/ exists m, (1 <= m <= n)%nat /\ sweeps m x0 = Ok xr /\ fr = f xr) /\
    (forall m x, (1 <= m <= n)%nat -> sweeps m x0 = Ok x -> if ok then fr < f x + threshold else fr <= f x) /\
    (if ok then fr < fb + threshold else fr <= fb) /\
    (forall m, (m <= n)%nat -> exists x, sweeps m x0 = Ok x) /\
    (ok = true -> sweeps n x0 = Ok xr).
  Lemma rloop_good k : forall st xr fr ok, RLOOP k st = Ok (xr, fr, ok) ->
    exists n, (n <= k)%nat /\ good (rs_x st) (rs_fbest st) (rs_xbest st) xr fr ok n /\ (k <> O -> n <> O).
  Proof.
    induction k as [|k IH]; intros st xr fr ok H; cbn [rloop] in H.
    - injection H as <- <- <-. exists O. split; [lia|]. split; [|congruence]. split; [now left|]. split; [intros m x Hm; lia|]. split; [lra|]. split; [|discriminate]. intros m Hm. assert (m = O) as -> by lia. cbn. eauto.
    - destruct (SWEEP (rs_x st)) as [x| |] eqn:Ex; cbn [bind] in H; try discriminate.
      assert (forall m, sweeps (S m) (rs_x st) = sweeps m x) as HS by (intros m; cbn [sweeps]; rewrite Ex; reflexivity).
      destruct (Rlt_dec (Rabs (rs_fbest st - f x)) threshold) as [Hc|Hc].
      + injection H as <- <- <-. exists 1%nat. split; [lia|]. split; [|discriminate]. apply Rabs_def2 in Hc. split; [right; exists 1%nat; repeat split; try lia; now rewrite HS|].
        split; [|split; [lra|split; [|intros _; now rewrite HS]]].
        * intros m y Hm Hy. assert (m = 1)%nat as -> by lia. rewrite HS in Hy. injection Hy as <-. lra.
        * intros [|m] Hm; [cbn; eauto|]. assert (m = O) as -> by lia. rewrite HS. cbn. eauto.
      + set (st' := if Rlt_dec 0 (f x - rs_fbest st) then _ else _) in H.
        assert (rs_x st' = x) as Hx by (unfold st'; destruct (Rlt_dec _ _); reflexivity).
        assert ((rs_xbest st' = rs_xbest st /\ rs_fbest st' = rs_fbest st \/ rs_xbest st' = x /\ rs_fbest st' = f x) /\ rs_fbest st' <= rs_fbest st /\ rs_fbest st' <= f x) as (Hb & Hb1 & Hb2).
        { unfold st'. destruct (Rlt_dec _ _); cbn; repeat split; auto; lra. }
        destruct (rs_fails st' =? max_fail)%nat.
        * injection H as <- <- <-. exists 1%nat. split; [lia|]. split; [|discriminate]. split; [|split; [|split; [exact Hb1|split; [|discriminate]]]].
          -- destruct Hb as [[H1 H2]|[H1 H2]]; [left; auto|right]. exists 1%nat. rewrite HS, H1. repeat split; auto.
          -- intros m y Hm Hy. assert (m = 1)%nat as -> by lia. rewrite HS in Hy. injection Hy as <-. exact Hb2.
          -- intros [|m] Hm; [cbn; eauto|]. assert (m = O) as -> by lia. rewrite HS. cbn. eauto.
        * destruct (IH _ _ _ _ H) as (n & Hn & (G1 & G2 & G3 & G4 & G5) & _). rewrite Hx in *. exists (S n). split; [lia|]. split; [|discriminate]. split; [|split; [|split; [|split]]].
          -- destruct G1 as [(H1 & H2 & H3)|(m & Hm & Hm1 & Hm2)].
             ++ destruct Hb as [[E1 E2]|[E1 E2]]; [left; repeat split; congruence|right]. exists 1%nat. rewrite HS. repeat split; try lia; cbn; congruence.
             ++ right. exists (S m). rewrite HS. repeat split; auto; lia.
          -- intros [|[|m]] y Hm Hy; [lia| |].
             ++ rewrite HS in Hy. injection Hy as <-. destruct ok; lra.
             ++ rewrite HS in Hy. apply (G2 (S m)); [lia|exact Hy].
          -- destruct ok; lra.
          -- intros [|m] Hm; [cbn; eauto|]. rewrite HS. apply G4. lia.
          -- intros E. rewrite HS. now apply G5.
  Qed.

  (** One coordinate update. *)
  Definition minimiser (e : list R) (r : nat) : R :=
    scipy_minimize (reconstructed_f e r) (reconstructed_f_derivative eps e r) (nth (argmin (map (reconstructed_f e r) (linspace grid))) (linspace grid) 0).
  Lemma update_spec x i name r : (i < length x)%nat -> Rdict name = Some r ->
    UPD x i name = bind (wrap fuel (minimiser (samples r (fun t => f (put x i t))) r)) (fun t => Ok (put x i t)).
  Proof.
    intros Hi Hr. unfold update_coordinate. rewrite Hr, energy_evals_spec by exact Hi. cbn [bind]. unfold minimiser.
    destruct (wrap fuel _) as [t| |]; cbn [bind]; [|reflexivity|reflexivity]. now rewrite set_at_put.
  Qed.
  Lemma grid_start e r : (2 <= grid)%nat -> let t0 := nth (argmin (map (reconstructed_f e r) (linspace grid))) (linspace grid) 0 in
    - PI <= t0 <= PI /\ forall g, In g (linspace grid) -> reconstructed_f e r t0 <= reconstructed_f e r g.
  Proof.
    intros Hg t0. destruct (argmin_spec (map (reconstructed_f e r) (linspace grid))) as [H1 H2].
    { intros H. apply (f_equal (@length R)) in H. rewrite map_length, linspace_length in H. cbn in H. lia. }
    rewrite map_length in *. split.
    - apply (linspace_range grid); [exact Hg|]. apply nth_In. exact H1.
    - intros g Hi. apply (In_nth _ _ 0) in Hi as (i & Hi & Ei). specialize (H2 i Hi).
      assert (forall j, (j < length (linspace grid))%nat -> nth j (map (reconstructed_f e r) (linspace grid)) 0 = reconstructed_f e r (nth j (linspace grid) 0)) as G.
      { intros j Hj. rewrite (nth_indep _ 0 (reconstructed_f e r 0)) by (rewrite map_length; exact Hj). apply map_nth. }
      rewrite !G in H2 by assumption. rewrite Ei in H2. exact H2.
  Qed.
  Lemma update_value x i name r y : (i < length x)%nat -> Rdict name = Some r -> trig_poly r (fun t => f (put x i t)) ->
    defined_at r (minimiser (samples r (fun t => f (put x i t))) r) ->
    UPD x i name = Ok y -> (exists t, - PI < t <= PI /\ y = put x i t) /\ f y = reconstructed_f (samples r (fun t => f (put x i t))) r (minimiser (samples r (fun t => f (put x i t))) r).
  Proof.
    intros Hi Hr Hp Hd. rewrite (update_spec x i name r Hi Hr). set (t := minimiser _ _) in *. destruct (wrap fuel t) as [t'| |] eqn:Ew; cbn [bind]; try discriminate. intros H.
    injection H as <-. destruct (wrap_spec _ _ _ Ew) as [Hw (n & Hn)]. split; [eauto|]. rewrite (reconstruct_exact r _ t Hp Hd), Hn.
    apply (trig_periodic r (fun t => f (put x i t)) t n Hp).
  Qed.

  Lemma update_grid x i name r y : (2 <= grid)%nat -> (i < length x)%nat -> Rdict name = Some r -> trig_poly r (fun t => f (put x i t)) ->
    (let e := samples r (fun t => f (put x i t)) in
     let t0 := nth (argmin (map (reconstructed_f e r) (linspace grid))) (linspace grid) 0 in
     defined_at r (minimiser e r) /\ reconstructed_f e r (minimiser e r) <= reconstructed_f e r t0) ->
    UPD x i name = Ok y -> forall g, In g (linspace grid) -> f y <= f (put x i g).
  Proof.
    intros Hg Hi Hr Hp [Hd Hle] H g Hin. destruct (update_value x i name r y Hi Hr Hp Hd H) as [_ ->]. destruct (grid_start (samples r (fun t => f (put x i t))) r Hg) as [_ Hmin].
    eapply Rle_trans; [exact Hle|]. eapply Rle_trans; [apply Hmin; exact Hin|]. right. apply (reconstruct_exact r (fun t => f (put x i t)) g Hp). apply defined_domain. now apply (linspace_range grid).
  Qed.

  (** The assumptions under which a sweep cannot raise the objective: along every
      coordinate the objective is a trigonometric polynomial of the stated degree, and the
      minimiser is a global one. *)
  Definition trig_objective : Prop := forall x i name r, length x = length param_names -> nth_error param_names i = Some name -> Rdict name = Some r -> trig_poly r (fun t => f (put x i t)).
  Definition ideal_minimiser : Prop := forall x i name r, length x = length param_names -> nth_error param_names i = Some name -> Rdict name = Some r ->
    let e := samples r (fun t => f (put x i t)) in
    defined_at r (minimiser e r) /\ forall t, defined_at r t -> reconstructed_f e r (minimiser e r) <= reconstructed_f e r t.
  Lemma update_global x i name r y : trig_objective -> ideal_minimiser -> length x = length param_names -> nth_error param_names i = Some name -> Rdict name = Some r ->
    UPD x i name = Ok y -> length y = length x /\ (forall t, f y <= f (put x i t)) /\ f y <= f x /\ (forall j, j <> i -> nth j y 0 = nth j x 0) /\ - PI < nth i y 0 <= PI.
  Proof.
    intros Ht Hm Hl Hi Hr H. destruct (Hm x i name r Hl Hi Hr) as [Hd Hmin]. pose proof (Ht x i name r Hl Hi Hr) as Hp.
    assert (i < length x)%nat as Hlt by (rewrite Hl; apply nth_error_Some; congruence).
    destruct (update_value x i name r y Hlt Hr Hp Hd H) as [(t & Hran & ->) Hv].
    assert (forall s, - PI <= s <= PI -> f (put x i t) <= f (put x i s)) as G.
    { intros s Hs. pose proof (defined_domain r s Hs) as Hds. rewrite Hv. eapply Rle_trans; [apply Hmin; exact Hds|]. right. apply (reconstruct_exact r (fun t => f (put x i t)) s Hp Hds). }
    assert (forall s, f (put x i t) <= f (put x i s)) as G'.
    { intros s. destruct (wrap_total s) as (k0 & Hk). destruct (Hk k0 (le_n _)) as (s' & Es). destruct (wrap_spec _ _ _ Es) as [Hs (n & Hn)].
      eapply Rle_trans; [apply (G s'); lra|]. right. rewrite Hn. apply (trig_periodic r (fun t => f (put x i t)) s n Hp). }
    split; [apply put_length|]. split; [exact G'|]. split; [|split].
    - rewrite <- (put_nth x i 0 Hlt) at 2. apply G'.
    - intros j Hj. rewrite nth_put by exact Hlt. now rewrite (proj2 (Nat.eqb_neq j i) Hj).
    - rewrite nth_put, Nat.eqb_refl by exact Hlt. exact Hran.
  Qed.
  Lemma sweep_fold : trig_objective -> ideal_minimiser -> forall l x y, length x = length param_names ->
    (forall ip, In ip l -> nth_error param_names (fst ip) = Some (snd ip)) ->
    fold_left (fun acc ip => bind acc (fun x => UPD x (fst ip) (snd ip))) l (Ok x) = Ok y -> length y = length x /\ f y <= f x.
  Proof.
    intros Ht Hm l. induction l as [|[i name] l IH]; intros x y Hl Hin H; cbn [fold_left] in H.
    - injection H as <-. split; [reflexivity|lra].
    - cbn [bind fst snd] in H. destruct (UPD x i name) as [z| |] eqn:E.
      + pose proof (Hin (i, name) (or_introl eq_refl)) as Hi. cbn [fst snd] in Hi. destruct (Rdict name) as [r|] eqn:Er.
        2: { unfold update_coordinate in E. rewrite Er in E. discriminate. }
        destruct (update_global x i name r z Ht Hm Hl Hi Er E) as (H1 & _ & H2 & _). destruct (IH z y) as [H3 H4]; [congruence| |exact H|split; [congruence|lra]]. intros ip Hip. apply Hin. now right.
      + exfalso. clear - H. induction l as [|a l IH]; cbn [fold_left bind] in H; [discriminate|auto].
      + exfalso. clear - H. induction l as [|a l IH]; cbn [fold_left bind] in H; [discriminate|auto].
  Qed.
  Lemma combine_names ip : In ip (combine (seq 0 (length param_names)) param_names) -> nth_error param_names (fst ip) = Some (snd ip).
  Proof.
    assert (forall l pre, In ip (combine (seq (length pre) (length l)) l) -> nth_error (pre ++ l) (fst ip) = Some (snd ip)) as G; [|apply (G param_names [])].
    induction l as [|a l IH]; intros pre H; [contradiction|]. cbn [length seq combine] in H. destruct H as [<-|H].
    - cbn [fst snd]. rewrite nth_error_app2, Nat.sub_diag by lia. reflexivity.
    - specialize (IH (pre ++ [a])). rewrite app_length, Nat.add_1_r, <- app_assoc in IH. now apply IH.
  Qed.
  Lemma sweep_descends x y : trig_objective -> ideal_minimiser -> length x = length param_names -> SWEEP x = Ok y -> length y = length x /\ f y <= f x.
  Proof. intros Ht Hm Hl H. apply (sweep_fold Ht Hm _ x y Hl combine_names H). Qed.
  Lemma sweeps_descend n : forall x y, trig_objective -> ideal_minimiser -> length x = length param_names -> sweeps n x = Ok y -> length y = length x /\ f y <= f x.
  Proof.
    induction n as [|n IH]; intros x y Ht Hm Hl H; cbn [sweeps] in H.
    - injection H as <-. split; [reflexivity|lra].
    - destruct (SWEEP x) as [z| |] eqn:E; cbn [bind] in H; try discriminate. destruct (sweep_descends x z Ht Hm Hl E) as [H1 H2]. destruct (IH z y Ht Hm ltac:(congruence) H) as [H3 H4]. split; [congruence|lra].
  Qed.
End Loop.
