(** C51: the integral transformations. *)
From Coq Require Import List Bool Arith ZArith Lia Setoid.
From Verif Require Import Base MatModel MatProofs.
Import ListNotations.

Section T.
  Context {K : Type} {C : CRing K}.
  Local Open Scope K_scope.
  Add Ring KringT : (@rth K C).
  Notation one := one_electron_integral_transform.
  Notation two := two_electron_integral_transform.

  Lemma one_ext n (Cm Cm' h h' : @mx K) i j :
    (forall a k, a < n -> Cm a k = Cm' a k) -> (forall a b, a < n -> b < n -> h a b = h' a b) ->
    one n Cm h i j = one n Cm' h' i j.
  Proof.
    intros H1 H2. apply tsum_ext. intros b Hb. rewrite H1 by auto. f_equal. apply tsum_ext. intros a Ha.
    rewrite H1, H2; auto.
  Qed.
  Lemma two_one n (Cm : @mx K) (g : @mx4 K) i j k l :
    two n Cm g i j k l = one n Cm (fun c d => one n Cm (fun a b => g a b c d) i j) k l.
  Proof. reflexivity. Qed.
  Lemma one_sum n (Cm h : @mx K) i j : one n Cm h i j = tsum n (fun a => tsum n (fun b => Cm a i * Cm b j * h a b)).
  Proof.
    unfold one_electron_integral_transform. rewrite tsum_swap. apply tsum_ext. intros b _.
    rewrite tsum_scal_l. apply tsum_ext. intros. ring.
  Qed.
  Lemma one_scal n (Cm : @mx K) (h : @mx K) x i j : x * one n Cm h i j = one n Cm (fun a b => x * h a b) i j.
  Proof.
    rewrite !one_sum, tsum_scal_l. apply tsum_ext. intros. rewrite tsum_scal_l. apply tsum_ext. intros. ring.
  Qed.
  Lemma one_tsum n m (Cm : @mx K) (F : nat -> @mx K) i j :
    tsum m (fun p => one n Cm (F p) i j) = one n Cm (fun a b => tsum m (fun p => F p a b)) i j.
  Proof.
    induction m; cbn.
    - rewrite one_sum. symmetry. apply tsum_0. intros. apply tsum_0. intros. ring.
    - rewrite IHm, !one_sum, <- tsum_plus. apply tsum_ext. intros. rewrite <- tsum_plus. apply tsum_ext. intros. ring.
  Qed.
  Lemma one_comm n m (Cm D : @mx K) (F : nat -> nat -> nat -> nat -> K) i j r s :
    one m D (fun p q => one n Cm (fun c d => F p q c d) r s) i j
    = one n Cm (fun c d => one m D (fun p q => F p q c d) i j) r s.
  Proof.
    rewrite one_sum.
    rewrite (tsum_ext m _ (fun a => one n Cm (fun c d => tsum m (fun b => D a i * D b j * F a b c d)) r s)).
    - rewrite one_tsum. apply one_ext; [reflexivity|]. intros. rewrite one_sum. reflexivity.
    - intros a _. rewrite <- one_tsum. apply tsum_ext. intros. rewrite one_scal. reflexivity.
  Qed.
  Lemma one_comp n m (Cm D h : @mx K) i j : one m D (one n Cm h) i j = one n (matmul m Cm D) h i j.
  Proof.
    rewrite !transform1_matmul.
    transitivity (matmul m (mtr D) (matmul n (mtr Cm) (matmul n h (matmul m Cm D))) i j).
    - apply matmul_ext; [reflexivity|]. intros k _.
      transitivity (matmul m (matmul n (mtr Cm) (matmul n h Cm)) D k j).
      { apply matmul_ext; [|reflexivity]. intros. apply transform1_matmul. }
      rewrite <- matmul_assoc. apply matmul_ext; [reflexivity|]. intros. rewrite <- matmul_assoc. reflexivity.
    - rewrite matmul_assoc. apply matmul_ext; [|reflexivity]. intros. symmetry. apply mtr_matmul.
  Qed.

  (** C51 (a): the fixed contraction order gives the defining sums. *)
  Theorem C51_defining_sums (n : nat) (Cm : nat -> nat -> K) (h : nat -> nat -> K) (g : nat -> nat -> nat -> nat -> K)
      (i j k l : nat) :
    one n Cm h i j = tsum n (fun a => tsum n (fun b => Cm a i * Cm b j * h a b))
    /\ two n Cm g i j k l
       = tsum n (fun a => tsum n (fun b => tsum n (fun c => tsum n (fun d =>
           Cm a i * Cm b j * Cm c k * Cm d l * g a b c d)))).
  Proof.
    split; [apply one_sum|]. rewrite two_one, <- one_comm, one_sum. apply tsum_ext. intros a _. apply tsum_ext. intros b _.
    rewrite one_sum, tsum_scal_l. apply tsum_ext. intros c _. rewrite tsum_scal_l. apply tsum_ext. intros d _. ring.
  Qed.

  (** C51 (b): transforming by [C] ([n] basis functions, [m] orbitals) and then
      by [D] is transforming by [C D]. *)
  Theorem C51_compose (n m : nat) (Cm D : nat -> nat -> K) (h : nat -> nat -> K) (g : nat -> nat -> nat -> nat -> K)
      (i j k l : nat) :
    let CD := fun a p => tsum m (fun q => Cm a q * D q p) in
    one m D (one n Cm h) i j = one n CD h i j
    /\ two m D (two n Cm g) i j k l = two n CD g i j k l.
  Proof.
    intros CD. split; [apply one_comp|]. rewrite !two_one.
    transitivity (one m D (one n Cm (fun c d => one m D (one n Cm (fun a b => g a b c d)) i j)) k l).
    - apply one_ext; [reflexivity|]. intros r s _ _.
      transitivity (one m D (fun p q => one n Cm (fun c d => one n Cm (fun a b => g a b c d) p q) r s) i j).
      + reflexivity.
      + rewrite one_comm. reflexivity.
    - rewrite one_comp. apply one_ext; [reflexivity|]. intros c d _ _. apply one_comp.
  Qed.

  (** C51 (c): the permutational symmetries of the integrals are kept. *)
  Theorem C51_symmetry (n : nat) (Cm : nat -> nat -> K) (h : nat -> nat -> K) (g : nat -> nat -> nat -> nat -> K) :
    (forall a b, a < n -> b < n -> h a b = h b a) ->
    (forall a b c d, a < n -> b < n -> c < n -> d < n ->
       g a b c d = g b a c d /\ g a b c d = g a b d c /\ g a b c d = g c d a b) ->
    (forall i j, one n Cm h i j = one n Cm h j i)
    /\ (forall i j k l, two n Cm g i j k l = two n Cm g j i k l /\ two n Cm g i j k l = two n Cm g i j l k
                        /\ two n Cm g i j k l = two n Cm g k l i j).
  Proof.
    intros Hh Hg.
    assert (S1 : forall h', (forall a b, a < n -> b < n -> h' a b = h' b a) -> forall i j, one n Cm h' i j = one n Cm h' j i).
    { intros h' H i j. rewrite !one_sum, tsum_swap. apply tsum_ext. intros b Hb. apply tsum_ext. intros a Ha.
      rewrite (H a b Ha Hb). ring. }
    split; [apply S1, Hh|]. intros i j k l. rewrite !two_one. repeat split.
    - apply one_ext; [reflexivity|]. intros c d Hc Hd. apply S1. intros a b Ha Hb. apply Hg; auto.
    - apply S1. intros c d Hc Hd. apply one_ext; [reflexivity|]. intros a b Ha Hb. apply Hg; auto.
    - rewrite one_comm. apply one_ext; [reflexivity|]. intros a b Ha Hb. apply one_ext; [reflexivity|].
      intros c d Hc Hd. apply (Hg a b c d); auto.
  Qed.

  (** C51 (d): the identity leaves the integrals alone, so a transformation by a
      left-invertible coefficient matrix can be undone. *)
  Theorem C51_identity (n : nat) (h : nat -> nat -> K) (g : nat -> nat -> nat -> nat -> K) (i j k l : nat) :
    i < n -> j < n -> k < n -> l < n ->
    let I := fun p q => if Nat.eqb p q then 1 else 0 in
    one n I h i j = h i j /\ two n I g i j k l = g i j k l.
  Proof.
    intros Hi Hj Hk Hl I.
    assert (S1 : forall h' p q, p < n -> q < n -> one n I h' p q = h' p q).
    { intros h' p q Hp Hq. rewrite transform1_matmul.
      transitivity (matmul n mid (matmul n h' mid) p q).
      - apply matmul_ext; [|reflexivity]. intros. unfold mtr, mid, I. rewrite Nat.eqb_sym. reflexivity.
      - rewrite matmul_1_l, matmul_1_r by auto. reflexivity. }
    split; [apply S1; auto|]. rewrite two_one. etransitivity; [apply S1; auto|]. exact (S1 (fun a b => g a b k l) i j Hi Hj).
  Qed.
End T.

(** Two basis functions, a coefficient matrix that is not symmetric and
    integrals with all eight symmetries. *)
Example C51_example :
  let Cm := fun a i => Z.of_nat (2 * a + i + a * i * i) in
  let h := fun a b => Z.of_nat (a * b + a + b + 1) in
  let g := fun a b c d => Z.of_nat ((a + b + a * b) * (c + d + c * d) + a + b + c + d) in
  one_electron_integral_transform 2 Cm h 0 1 = 36%Z /\ two_electron_integral_transform 2 Cm g 0 1 0 0 = 464%Z
  /\ (forall a b c d, a < 2 -> b < 2 -> c < 2 -> d < 2 -> g a b c d = g b a c d /\ g a b c d = g a b d c /\ g a b c d = g c d a b).
Proof.
  cbv zeta. split; [|split].
  - vm_compute. reflexivity.
  - vm_compute. reflexivity.
  - intros a b c d _ _ _ _. repeat split; f_equal; ring.
Qed.

Print Assumptions C51_defining_sums.
Print Assumptions C51_compose.
Print Assumptions C51_symmetry.
Print Assumptions C51_identity.
