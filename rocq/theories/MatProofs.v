(** Finite sums and matrices over a commutative ring. *)
From Coq Require Import List Bool Arith Lia Setoid.
From Verif Require Import Base MatModel.
Import ListNotations.

Section Sums.
  Context {K : Type} {C : CRing K}.
  Local Open Scope K_scope.
  Add Ring KringMat : (@rth K C).

  Lemma tsum_ext n (f g : nat -> K) : (forall k, k < n -> f k = g k) -> tsum n f = tsum n g.
  Proof. induction n; intros H; cbn; [reflexivity|]. rewrite IHn, H; auto. Qed.
  Lemma tsum_0 n (f : nat -> K) : (forall k, k < n -> f k = 0) -> tsum n f = 0.
  Proof. induction n; intros H; cbn; [reflexivity|]. rewrite IHn, H; auto; ring. Qed.
  Lemma tsum_plus n (f g : nat -> K) : tsum n (fun k => f k + g k) = tsum n f + tsum n g.
  Proof. induction n; cbn; [ring|]. rewrite IHn. ring. Qed.
  Lemma tsum_opp n (f : nat -> K) : tsum n (fun k => - f k) = - tsum n f.
  Proof. induction n; cbn; [ring|]. rewrite IHn. ring. Qed.
  Lemma tsum_scal_l n c (f : nat -> K) : c * tsum n f = tsum n (fun k => c * f k).
  Proof. induction n; cbn; [ring|]. rewrite <- IHn. ring. Qed.
  Lemma tsum_scal_r n c (f : nat -> K) : tsum n f * c = tsum n (fun k => f k * c).
  Proof. induction n; cbn; [ring|]. rewrite <- IHn. ring. Qed.
  Lemma tsum_swap n m (f : nat -> nat -> K) :
    tsum n (fun i => tsum m (fun j => f i j)) = tsum m (fun j => tsum n (fun i => f i j)).
  Proof.
    induction n; cbn.
    - symmetry. apply tsum_0. auto.
    - rewrite IHn, <- tsum_plus. reflexivity.
  Qed.
  Lemma tsum_delta n j (f : nat -> K) : j < n -> tsum n (fun k => (if Nat.eqb k j then 1 else 0) * f k) = f j.
  Proof.
    induction n; intros H; [lia|]. cbn. destruct (Nat.eqb_spec n j) as [->|Hn].
    - rewrite tsum_0. + ring. + intros k Hk. destruct (Nat.eqb_spec k j); [lia|ring].
    - rewrite IHn by lia. ring.
  Qed.
  Lemma tsum_delta' n j (f : nat -> K) : j < n -> tsum n (fun k => (if Nat.eqb j k then 1 else 0) * f k) = f j.
  Proof. intros H. rewrite <- (tsum_delta n j f H). apply tsum_ext. intros. rewrite Nat.eqb_sym. reflexivity. Qed.
End Sums.

Section Mats.
  Context {K : Type} {C : CRing K}.
  Local Open Scope K_scope.
  Add Ring KringMat2 : (@rth K C).

  Lemma matmul_assoc n m (A B D : @mx K) i j : matmul n A (matmul m B D) i j = matmul m (matmul n A B) D i j.
  Proof.
    unfold matmul.
    rewrite (tsum_ext n _ (fun k => tsum m (fun l => A i k * B k l * D l j))).
    - rewrite tsum_swap. apply tsum_ext. intros. rewrite tsum_scal_r. reflexivity.
    - intros. rewrite tsum_scal_l. apply tsum_ext. intros. ring.
  Qed.
  Lemma matmul_1_l n (A : @mx K) i j : i < n -> matmul n mid A i j = A i j.
  Proof. intros H. unfold matmul, mid. apply (tsum_delta' n i (fun k => A k j) H). Qed.
  Lemma matmul_1_r n (A : @mx K) i j : j < n -> matmul n A mid i j = A i j.
  Proof.
    intros H. unfold matmul, mid. rewrite <- (tsum_delta n j (fun k => A i k) H). apply tsum_ext. intros. ring.
  Qed.
  Lemma matmul_ext n (A A' B B' : @mx K) i j :
    (forall k, k < n -> A i k = A' i k) -> (forall k, k < n -> B k j = B' k j) -> matmul n A B i j = matmul n A' B' i j.
  Proof. intros H1 H2. apply tsum_ext. intros k Hk. rewrite H1, H2; auto. Qed.
  Lemma mtr_matmul n (A B : @mx K) i j : mtr (matmul n A B) i j = matmul n (mtr B) (mtr A) i j.
  Proof. unfold mtr, matmul. apply tsum_ext. intros. ring. Qed.

  (** The transformation is [C^T h C]. *)
  Lemma transform1_matmul n (Cm h : @mx K) i j :
    one_electron_integral_transform n Cm h i j = matmul n (mtr Cm) (matmul n h Cm) i j.
  Proof.
    unfold one_electron_integral_transform, matmul, mtr.
    rewrite (tsum_ext n _ (fun b => tsum n (fun a => Cm a i * (h a b * Cm b j)))).
    - rewrite tsum_swap. apply tsum_ext. intros. rewrite <- tsum_scal_l. reflexivity.
    - intros. rewrite tsum_scal_l. apply tsum_ext. intros. ring.
  Qed.
End Mats.
