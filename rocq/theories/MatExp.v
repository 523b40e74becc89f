(** The matrix exponential ([scipy.linalg.expm]) as the entrywise sum of the
    power series, and the facts about it that orbital rotations need. *)
From Coq Require Import List Bool Arith Reals Lra Lia.
From Coquelicot Require Import Coquelicot.
From Verif Require Import Base RRing MatModel MatProofs.
Local Open Scope R_scope.

(** [A^k] for an [n] times [n] matrix. *)
Fixpoint mpow (n : nat) (A : nat -> nat -> R) (k : nat) : nat -> nat -> R :=
  match k with 0%nat => mid | S m => matmul n A (mpow n A m) end.
(** [expm(A) = sum_k A^k / k!]. *)
Definition expm (n : nat) (A : nat -> nat -> R) : nat -> nat -> R :=
  fun i j => Series (fun k => mpow n A k i j / INR (fact k)).

Definition meq (n : nat) (A B : nat -> nat -> R) := forall i j, (i < n)%nat -> (j < n)%nat -> A i j = B i j.

Lemma tplus n (f g : nat -> R) : tsum n (fun k => f k + g k) = tsum n f + tsum n g.
Proof. exact (tsum_plus n f g). Qed.
Lemma tscal_l n c (f : nat -> R) : c * tsum n f = tsum n (fun k => c * f k).
Proof. exact (tsum_scal_l n c f). Qed.
Lemma tscal_r n c (f : nat -> R) : tsum n f * c = tsum n (fun k => f k * c).
Proof. exact (tsum_scal_r n c f). Qed.
Lemma matmulE n (A B : nat -> nat -> R) i j : matmul n A B i j = tsum n (fun k => A i k * B k j).
Proof. reflexivity. Qed.
Lemma tsum_S n (f : nat -> R) : tsum (S n) f = tsum n f + f n.
Proof. reflexivity. Qed.
Lemma tsum_shift n (f : nat -> R) : tsum (S n) f = f 0%nat + tsum n (fun k => f (S k)).
Proof.
  induction n.
  - rewrite tsum_S. change (tsum 0 f) with 0. change (tsum 0 (fun k => f (S k))) with 0. ring.
  - rewrite tsum_S, IHn, tsum_S. ring.
Qed.
Lemma tsum_const n c : tsum n (fun _ => c) = INR n * c.
Proof. induction n; [cbn; ring|]. rewrite tsum_S, IHn, S_INR. ring. Qed.
Lemma tsum_abs n (f : nat -> R) : Rabs (tsum n f) <= tsum n (fun k => Rabs (f k)).
Proof.
  induction n; [cbn; rewrite Rabs_R0; lra|]. rewrite !tsum_S.
  eapply Rle_trans; [apply Rabs_triang|]. apply Rplus_le_compat_r, IHn.
Qed.
Lemma tsum_le n (f g : nat -> R) : (forall k, (k < n)%nat -> f k <= g k) -> tsum n f <= tsum n g.
Proof. induction n; intros H; [cbn; lra|]. rewrite !tsum_S. apply Rplus_le_compat; auto. Qed.
Lemma tsum_term n (f : nat -> R) k : (forall j, (j < n)%nat -> 0 <= f j) -> (k < n)%nat -> f k <= tsum n f.
Proof.
  induction n; intros H Hk; [lia|]. rewrite tsum_S.
  assert (0 <= tsum n f). { apply Rle_trans with (tsum n (fun _ => 0)). { rewrite tsum_const. lra. } apply tsum_le; auto. }
  destruct (Nat.eq_dec k n) as [->|]; [lra|]. assert (f k <= tsum n f) by (apply IHn; auto; lia).
  assert (0 <= f n) by auto. lra.
Qed.
Lemma sum_f_R0_tsum (f : nat -> R) n : sum_f_R0 f n = tsum (S n) f.
Proof. induction n; cbn [sum_f_R0]; [cbn; ring|]. rewrite IHn, (tsum_S (S n)). reflexivity. Qed.
Lemma is_series_tsum n (f : nat -> nat -> R) (l : nat -> R) :
  (forall i, (i < n)%nat -> is_series (f i) (l i)) -> is_series (fun k => tsum n (fun i => f i k)) (tsum n l).
Proof.
  induction n; intros H.
  - cbn. apply is_series_Reals. intros eps He. exists 0%nat. intros m _.
    rewrite sum_f_R0_tsum, tsum_const. unfold R_dist. replace (INR (S m) * 0 - 0) with 0 by ring. rewrite Rabs_R0. exact He.
  - apply (is_series_plus (fun k => tsum n (fun i => f i k)) (f n)); auto.
Qed.

Section Conv.
  Variable n : nat.
  Variable A : nat -> nat -> R.
  Let M := tsum n (fun i => tsum n (fun j => Rabs (A i j))).
  Let L := INR n * M.

  Lemma entry_bound i j : (i < n)%nat -> (j < n)%nat -> Rabs (A i j) <= M.
  Proof.
    intros Hi Hj. apply Rle_trans with (tsum n (fun j => Rabs (A i j))).
    - apply (tsum_term n (fun j => Rabs (A i j))); auto. intros. apply Rabs_pos.
    - apply (tsum_term n (fun i => tsum n (fun j => Rabs (A i j)))); auto. intros k _.
      apply Rle_trans with (tsum n (fun _ => 0)). { rewrite tsum_const. lra. } apply tsum_le. intros. apply Rabs_pos.
  Qed.
  Lemma pow_bound k i j : (i < n)%nat -> (j < n)%nat -> Rabs (mpow n A k i j) <= L ^ k.
  Proof.
    revert i j. induction k; intros i j Hi Hj.
    - cbn. unfold mid. destruct (Nat.eqb i j); cbn; [rewrite Rabs_R1|rewrite Rabs_R0]; lra.
    - cbn [mpow pow]. unfold matmul. eapply Rle_trans; [apply tsum_abs|].
      unfold L at 1. rewrite Rmult_assoc, <- tsum_const. apply tsum_le. intros l Hl.
      change (Rabs (A i l * mpow n A k l j) <= M * L ^ k). rewrite Rabs_mult.
      apply Rmult_le_compat; auto using Rabs_pos, entry_bound.
  Qed.
  Lemma exp_series_abs i j : (i < n)%nat -> (j < n)%nat -> ex_series (fun k => Rabs (mpow n A k i j / INR (fact k))).
  Proof.
    intros Hi Hj. apply (ex_series_le (K := R_AbsRing) (V := R_CompleteNormedModule) _ (fun k => L ^ k * / INR (fact k))).
    - intros k. change (Rabs (Rabs (mpow n A k i j / INR (fact k))) <= L ^ k * / INR (fact k)).
      rewrite Rabs_Rabsolu. unfold Rdiv. rewrite Rabs_mult.
      assert (0 < / INR (fact k)) by apply Rinv_0_lt_compat, INR_fact_lt_0.
      rewrite (Rabs_right (/ INR (fact k))) by lra. apply Rmult_le_compat_r; [lra|]. apply pow_bound; auto.
    - exists (exp L). eapply is_series_ext; [|apply (is_exp_Reals L)].
      intros k. cbn. unfold scal. cbn. rewrite pow_n_pow. reflexivity.
  Qed.
  Lemma expm_is_series i j : (i < n)%nat -> (j < n)%nat ->
    is_series (fun k => mpow n A k i j / INR (fact k)) (expm n A i j).
  Proof. intros Hi Hj. apply Series_correct, ex_series_Rabs, exp_series_abs; auto. Qed.
End Conv.

Lemma mpow_ext n A B : meq n A B -> forall k, meq n (mpow n A k) (mpow n B k).
Proof.
  intros H. induction k; intros i j Hi Hj; [reflexivity|]. cbn [mpow]. apply matmul_ext; intros; [apply H|apply IHk]; auto.
Qed.
Lemma expm_ext n A B : meq n A B -> meq n (expm n A) (expm n B).
Proof. intros H i j Hi Hj. apply Series_ext. intros k. rewrite (mpow_ext n A B H k i j Hi Hj). reflexivity. Qed.

Lemma is_series_first (x : R) (f : nat -> R) : f 0%nat = x -> (forall k, f (S k) = 0) -> is_series f x.
Proof.
  intros H0 HS. apply is_series_Reals. intros eps He. exists 0%nat. intros m _.
  rewrite sum_f_R0_tsum, tsum_shift, H0. rewrite (tsum_ext m _ (fun _ => 0)) by auto.
  rewrite tsum_const. unfold R_dist. replace (x + INR m * 0 - x) with 0 by ring. rewrite Rabs_R0. exact He.
Qed.
Lemma expm_0 n A : meq n A (fun _ _ => 0) -> meq n (expm n A) mid.
Proof.
  intros H i j Hi Hj. rewrite (expm_ext n A _ H i j Hi Hj). apply is_series_unique. apply is_series_first.
  - cbn. field.
  - intros k. cbn [mpow]. unfold matmul. rewrite tsum_0; [|intros; cbn; ring].
    change (0 / INR (fact (S k)) = 0). unfold Rdiv. ring.
Qed.

(** Powers and transposition. *)
Lemma mpow_comm_r n A k : meq n (matmul n A (mpow n A k)) (matmul n (mpow n A k) A).
Proof.
  induction k; intros i j Hi Hj.
  - cbn [mpow]. rewrite matmul_1_l, matmul_1_r by auto. reflexivity.
  - cbn [mpow]. rewrite <- matmul_assoc. apply matmul_ext; [reflexivity|]. intros. apply IHk; auto.
Qed.
Lemma mpow_tr n A k : meq n (mpow n (mtr A) k) (mtr (mpow n A k)).
Proof.
  induction k; intros i j Hi Hj.
  - cbn. unfold mtr, mid. rewrite Nat.eqb_sym. reflexivity.
  - cbn [mpow]. transitivity (matmul n (mtr A) (mtr (mpow n A k)) i j).
    + apply matmul_ext; [reflexivity|]. intros. apply IHk; auto.
    + rewrite <- mtr_matmul. symmetry. unfold mtr. apply (mpow_comm_r n A k j i Hj Hi).
Qed.
Lemma expm_tr n A : meq n (expm n (mtr A)) (mtr (expm n A)).
Proof. intros i j Hi Hj. apply Series_ext. intros k. rewrite (mpow_tr n A k i j Hi Hj). reflexivity. Qed.

Definition madd2 (A B : nat -> nat -> R) : nat -> nat -> R := fun i j => A i j + B i j.
Definition mscal (c : R) (A : nat -> nat -> R) : nat -> nat -> R := fun i j => c * A i j.

Lemma matmul_add_l n A B D i j : matmul n (madd2 A B) D i j = matmul n A D i j + matmul n B D i j.
Proof. unfold madd2. rewrite !matmulE. rewrite <- tplus. apply tsum_ext. intros. ring. Qed.
Lemma matmul_scal_l n c A D i j : matmul n (mscal c A) D i j = c * matmul n A D i j.
Proof. unfold mscal. rewrite !matmulE. rewrite tscal_l. apply tsum_ext. intros. ring. Qed.
Lemma matmul_scal_r n c A D i j : matmul n A (mscal c D) i j = c * matmul n A D i j.
Proof. unfold mscal. rewrite !matmulE. rewrite tscal_l. apply tsum_ext. intros. ring. Qed.
Lemma matmul_tsum_r n m A (F : nat -> nat -> nat -> R) i j :
  matmul n A (fun i j => tsum m (fun k => F k i j)) i j = tsum m (fun k => matmul n A (F k) i j).
Proof.
  rewrite matmulE. rewrite (tsum_ext n _ (fun k => tsum m (fun l => A i k * F l k j))).
  - rewrite tsum_swap. reflexivity.
  - intros. apply tscal_l.
Qed.

Section Commute.
  Variable n : nat.
  Variables A B : nat -> nat -> R.
  Hypothesis AB : meq n (matmul n A B) (matmul n B A).

  Lemma pow_commute k : meq n (matmul n B (mpow n A k)) (matmul n (mpow n A k) B).
  Proof.
    induction k; intros i j Hi Hj.
    - cbn [mpow]. rewrite matmul_1_l, matmul_1_r by auto. reflexivity.
    - cbn [mpow]. rewrite matmul_assoc.
      transitivity (matmul n (matmul n A B) (mpow n A k) i j).
      + apply matmul_ext; [|reflexivity]. intros. symmetry. apply AB; auto.
      + rewrite <- !matmul_assoc. apply matmul_ext; [reflexivity|]. intros. apply IHk; auto.
  Qed.

  (** [A^k B^l / (k! l!)]. *)
  Definition tm k l : nat -> nat -> R := fun i j => matmul n (mpow n A k) (mpow n B l) i j * (/ INR (fact k) * / INR (fact l)).

  Lemma A_tm k l i j : (i < n)%nat -> (j < n)%nat -> matmul n A (tm k l) i j = INR (S k) * tm (S k) l i j.
  Proof.
    intros Hi Hj. unfold tm.
    transitivity ((/ INR (fact k) * / INR (fact l)) * matmul n A (matmul n (mpow n A k) (mpow n B l)) i j).
    - rewrite <- matmul_scal_r. apply matmul_ext; [reflexivity|]. intros. unfold mscal. ring.
    - rewrite matmul_assoc. cbn [mpow]. rewrite fact_simpl, mult_INR.
      assert (INR (S k) <> 0) by (apply not_0_INR; lia).
      assert (INR (fact k) <> 0) by apply INR_fact_neq_0. assert (INR (fact l) <> 0) by apply INR_fact_neq_0.
      field. auto.
  Qed.
  Lemma B_tm k l i j : (i < n)%nat -> (j < n)%nat -> matmul n B (tm k l) i j = INR (S l) * tm k (S l) i j.
  Proof.
    intros Hi Hj. unfold tm.
    transitivity ((/ INR (fact k) * / INR (fact l)) * matmul n B (matmul n (mpow n A k) (mpow n B l)) i j).
    - rewrite <- matmul_scal_r. apply matmul_ext; [reflexivity|]. intros. unfold mscal. ring.
    - rewrite matmul_assoc.
      assert (E : matmul n (matmul n B (mpow n A k)) (mpow n B l) i j = matmul n (mpow n A k) (mpow n B (S l)) i j).
      { cbn [mpow]. rewrite matmul_assoc. apply matmul_ext; [|reflexivity]. intros. apply pow_commute; auto. }
      rewrite E, fact_simpl, mult_INR.
      assert (INR (S l) <> 0) by (apply not_0_INR; lia).
      assert (INR (fact k) <> 0) by apply INR_fact_neq_0. assert (INR (fact l) <> 0) by apply INR_fact_neq_0.
      field. auto.
  Qed.

  (** Binomial theorem, divided by [m!]. *)
  Lemma binom m : meq n (fun i j => mpow n (madd2 A B) m i j / INR (fact m)) (fun i j => tsum (S m) (fun k => tm k (m - k) i j)).
  Proof.
    induction m; intros i j Hi Hj.
    - rewrite tsum_S. change (tsum 0 (fun k => tm k (0 - k) i j)) with 0. unfold tm. cbn [mpow Nat.sub fact].
      rewrite matmul_1_l by auto. change (INR 1) with 1. field.
    - assert (NZ : INR (S m) <> 0) by (apply not_0_INR; lia).
      assert (Nf : INR (fact m) <> 0) by apply INR_fact_neq_0.
      apply (Rmult_eq_reg_l (INR (S m))); [|auto].
      transitivity (matmul n (madd2 A B) (fun i j => mpow n (madd2 A B) m i j / INR (fact m)) i j).
      { transitivity (matmul n (madd2 A B) (mscal (/ INR (fact m)) (mpow n (madd2 A B) m)) i j).
        - rewrite matmul_scal_r. cbn [mpow]. rewrite fact_simpl, mult_INR. field. auto.
        - apply matmul_ext; [reflexivity|]. intros. unfold mscal. field. auto. }
      transitivity (matmul n (madd2 A B) (fun i j => tsum (S m) (fun k => tm k (m - k) i j)) i j).
      { apply matmul_ext; [reflexivity|]. intros. apply IHm; auto. }
      rewrite matmul_add_l, !matmul_tsum_r.
      rewrite (tsum_ext (S m) (fun k => matmul n A (tm k (m - k)) i j) (fun k => INR (S k) * tm (S k) (S m - S k) i j)).
      2: { intros k Hk. rewrite A_tm by auto. reflexivity. }
      rewrite (tsum_ext (S m) (fun k => matmul n B (tm k (m - k)) i j) (fun k => INR (S m - k) * tm k (S m - k) i j)).
      2: { intros k Hk. rewrite B_tm by auto. replace (S m - k)%nat with (S (m - k)) by lia. reflexivity. }
      set (f := fun k => tm k (S m - k) i j).
      assert (E1 : tsum (S m) (fun k => INR (S k) * tm (S k) (S m - S k) i j) = tsum (S (S m)) (fun k => INR k * f k)).
      { rewrite (tsum_shift (S m)). change (INR 0) with 0. unfold f. ring. }
      assert (E2 : tsum (S m) (fun k => INR (S m - k) * tm k (S m - k) i j) = tsum (S (S m)) (fun k => INR (S m - k) * f k)).
      { rewrite (tsum_S (S m)), Nat.sub_diag. change (INR 0) with 0. unfold f. ring. }
      rewrite E1, E2.
      change (tsum (S (S m)) (fun k => INR k * f k) + tsum (S (S m)) (fun k => INR (S m - k) * f k) = INR (S m) * tsum (S (S m)) f).
      rewrite tscal_l, <- tplus. apply tsum_ext. intros k Hk. cbn [radd rmul R_CRing].
      rewrite minus_INR by lia. ring.
  Qed.

  Theorem expm_plus : meq n (expm n (madd2 A B)) (matmul n (expm n A) (expm n B)).
  Proof.
    intros i j Hi Hj. apply is_series_unique.
    apply (is_series_ext (fun m => tsum n (fun l => sum_f_R0 (fun k => (mpow n A k i l / INR (fact k)) * (mpow n B (m - k) l j / INR (fact (m - k)))) m))).
    - intros m. change (tsum n (fun l => sum_f_R0 (fun k => (mpow n A k i l / INR (fact k)) * (mpow n B (m - k) l j / INR (fact (m - k)))) m)
                        = mpow n (madd2 A B) m i j / INR (fact m)).
      rewrite (binom m i j Hi Hj).
      rewrite (tsum_ext n _ (fun l => tsum (S m) (fun k => mpow n A k i l * mpow n B (m - k) l j * (/ INR (fact k) * / INR (fact (m - k)))))).
      + rewrite tsum_swap. apply tsum_ext. intros k _. unfold tm. rewrite matmulE. rewrite tscal_r. reflexivity.
      + intros l Hl. rewrite sum_f_R0_tsum. apply tsum_ext. intros. unfold Rdiv. cbn. ring.
    - apply (is_series_tsum n (fun l m => sum_f_R0 (fun k => (mpow n A k i l / INR (fact k)) * (mpow n B (m - k) l j / INR (fact (m - k)))) m)
              (fun l => expm n A i l * expm n B l j)).
      intros l Hl. apply (is_series_mult (fun k => mpow n A k i l / INR (fact k)) (fun k => mpow n B k l j / INR (fact k)));
        auto using expm_is_series, exp_series_abs.
  Qed.
End Commute.

(** The exponential of an antisymmetric matrix is orthogonal. *)
Lemma mpow_opp_comm n A : meq n (matmul n (mscal (-1) A) A) (matmul n A (mscal (-1) A)).
Proof. intros i j Hi Hj. rewrite matmul_scal_l, matmul_scal_r. reflexivity. Qed.
Lemma expm_inv_l n A : meq n (matmul n (expm n (mscal (-1) A)) (expm n A)) mid.
Proof.
  intros i j Hi Hj. rewrite <- (expm_plus n _ _ (mpow_opp_comm n A) i j Hi Hj).
  apply expm_0; auto. intros p q _ _. unfold madd2, mscal. ring.
Qed.
Lemma expm_orthogonal n A : (forall i j, (i < n)%nat -> (j < n)%nat -> A j i = - A i j) ->
  meq n (matmul n (mtr (expm n A)) (expm n A)) mid.
Proof.
  intros H i j Hi Hj. rewrite <- (expm_inv_l n A i j Hi Hj). apply matmul_ext; [|reflexivity].
  intros k Hk. rewrite <- (expm_tr n A i k Hi Hk). apply expm_ext; auto.
  intros p q Hp Hq. unfold mtr, mscal. rewrite H by auto. ring.
Qed.

(** Rotations: if [A^3 = -A] then [expm(t A) = 1 + sin t A + (1 - cos t) A^2]. *)
Lemma mpow_scal n t A k : meq n (mpow n (mscal t A) k) (mscal (t ^ k) (mpow n A k)).
Proof.
  induction k; intros i j Hi Hj.
  - cbn. unfold mscal. ring.
  - cbn [mpow]. transitivity (matmul n (mscal t A) (mscal (t ^ k) (mpow n A k)) i j).
    + apply matmul_ext; [reflexivity|]. intros. apply IHk; auto.
    + rewrite matmul_scal_l, matmul_scal_r. unfold mscal. cbn [pow]. ring.
Qed.
Lemma mpow_cubic n A : meq n (matmul n A (matmul n A A)) (mscal (-1) A) ->
  forall m, meq n (mpow n A (2 * m + 1)) (mscal ((-1) ^ m) A) /\ meq n (mpow n A (2 * m + 2)) (mscal ((-1) ^ m) (matmul n A A)).
Proof.
  intros H m.
  assert (ST : forall m, meq n (mpow n A (2 * m + 1)) (mscal ((-1) ^ m) A) -> meq n (mpow n A (2 * m + 2)) (mscal ((-1) ^ m) (matmul n A A))).
  { intros m' E i j Hi Hj. replace (2 * m' + 2)%nat with (S (2 * m' + 1)) by lia. cbn [mpow].
    transitivity (matmul n A (mscal ((-1) ^ m') A) i j).
    - apply matmul_ext; [reflexivity|]. intros. apply E; auto.
    - rewrite matmul_scal_r. reflexivity. }
  assert (O : meq n (mpow n A (2 * m + 1)) (mscal ((-1) ^ m) A)); [|auto].
  induction m; intros i j Hi Hj.
  - cbn [mpow Nat.mul Nat.add]. rewrite matmul_1_r by auto. unfold mscal. cbn. ring.
  - replace (2 * S m + 1)%nat with (S (2 * m + 2)) by lia. cbn [mpow].
    transitivity (matmul n A (mscal ((-1) ^ m) (matmul n A A)) i j).
    + apply matmul_ext; [reflexivity|]. intros. apply ST; auto.
    + rewrite matmul_scal_r, (H i j Hi Hj). unfold mscal. cbn [pow]. ring.
Qed.
Lemma cos_series t : is_series (fun m => cos_n m * (t ^ 2) ^ m) (cos t).
Proof.
  unfold cos. destruct (exist_cos (Rsqr t)) as [a Ha]. apply is_series_Reals. unfold cos_in in Ha.
  replace (t ^ 2) with (Rsqr t) by (unfold Rsqr; ring). exact Ha.
Qed.
Lemma sin_series t : exists s, is_series (fun m => sin_n m * (t ^ 2) ^ m) s /\ sin t = t * s.
Proof.
  unfold sin. destruct (exist_sin (Rsqr t)) as [a Ha]. exists a. split; [|reflexivity].
  apply is_series_Reals. replace (t ^ 2) with (Rsqr t) by (unfold Rsqr; ring). exact Ha.
Qed.
Theorem expm_rotation n A t : meq n (matmul n A (matmul n A A)) (mscal (-1) A) ->
  meq n (expm n (mscal t A)) (fun i j => mid i j + sin t * A i j + (1 - cos t) * matmul n A A i j).
Proof.
  intros H i j Hi Hj. apply is_series_unique.
  set (a := fun k => mpow n A k i j / INR (fact k)).
  destruct (sin_series t) as [s [Hs Es]].
  assert (P : is_pseries a t ((mid i j + matmul n A A i j - matmul n A A i j * cos t) + t * (A i j * s))).
  { apply is_pseries_odd_even.
    - unfold is_pseries.
      apply (is_series_ext (fun m => (if Nat.eqb m 0 then mid i j + matmul n A A i j else 0) + - matmul n A A i j * (cos_n m * (t ^ 2) ^ m))).
      + intros m.
        change ((if Nat.eqb m 0 then mid i j + matmul n A A i j else 0) + - matmul n A A i j * (cos_n m * (t ^ 2) ^ m)
                = (t ^ 2) ^ m * a (2 * m)%nat).
        unfold a, cos_n. destruct m as [|m].
        * change (2 * 0)%nat with 0%nat. cbn [Nat.eqb mpow fact pow]. change (INR 1) with 1. generalize (matmul n A A i j), (@mid R R_CRing i j). intros. field.
        * cbn [Nat.eqb]. replace (2 * S m)%nat with (2 * m + 2)%nat by lia.
          rewrite (proj2 (mpow_cubic n A H m) i j Hi Hj). unfold mscal, Rdiv.
          replace ((-1) ^ S m) with (-1 * (-1) ^ m) by reflexivity. ring.
      + unfold Rminus. rewrite Ropp_mult_distr_l.
        apply (is_series_plus (fun m => if Nat.eqb m 0 then mid i j + matmul n A A i j else 0)
                              (fun m => - matmul n A A i j * (cos_n m * (t ^ 2) ^ m))).
        * apply is_series_first; reflexivity.
        * apply (is_series_scal_l (- matmul n A A i j) (fun m => cos_n m * (t ^ 2) ^ m)), cos_series.
    - unfold is_pseries.
      apply (is_series_ext (fun m => A i j * (sin_n m * (t ^ 2) ^ m))).
      + intros m. change (A i j * (sin_n m * (t ^ 2) ^ m) = (t ^ 2) ^ m * a (2 * m + 1)%nat).
        unfold a, sin_n. rewrite (proj1 (mpow_cubic n A H m) i j Hi Hj). unfold mscal, Rdiv. ring.
      + apply (is_series_scal_l (A i j) (fun m => sin_n m * (t ^ 2) ^ m)), Hs. }
  assert (EL : mid i j + sin t * A i j + (1 - cos t) * matmul n A A i j
             = (mid i j + matmul n A A i j - matmul n A A i j * cos t) + t * (A i j * s)) by (rewrite Es; ring).
  match goal with |- is_series _ ?l => replace l with ((mid i j + matmul n A A i j - matmul n A A i j * cos t) + t * (A i j * s)) by (symmetry; exact EL) end.
  eapply is_series_ext; [|exact P]. intros k.
  change (t ^ k * a k = mpow n (mscal t A) k i j / INR (fact k)).
  rewrite (mpow_scal n t A k i j Hi Hj). unfold a, mscal, Rdiv. ring.
Qed.
