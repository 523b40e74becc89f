(** Facts about the density-matrix functions. *)
From Coq Require Import List Bool Arith NArith Lia Ring Permutation.
From Verif Require Import Base Fock FockMore OperatorsModel OperatorsProofs OperatorsSums OperatorsActs OperatorsActive
  Props_Operators FockInner DensityModel.
Import ListNotations.

Section Sums.
  Context {K : Type} {C : CRing K}.
  Local Open Scope K_scope.
  Add Ring KringDS : (@rth K C).

  Lemma sumn_add n (F G : nat -> K) : sumn n (fun p => F p + G p) = sumn n F + sumn n G.
  Proof. apply lsum_add. Qed.
  Lemma sumn_scale n c (F : nat -> K) : sumn n (fun p => c * F p) = c * sumn n F.
  Proof. apply lsum_scale. Qed.
  Lemma sumn_sub n (F G : nat -> K) : sumn n (fun p => F p - G p) = sumn n F - sumn n G.
  Proof.
    transitivity (sumn n (fun p => F p + (- (1)) * G p)); [apply lsum_ext; intros; ring|].
    rewrite sumn_add, sumn_scale. ring.
  Qed.
  Lemma sumn_opp n (F : nat -> K) : sumn n (fun p => - F p) = - sumn n F.
  Proof.
    transitivity (sumn n (fun p => (- (1)) * F p)); [apply lsum_ext; intros; ring|].
    rewrite sumn_scale. ring.
  Qed.
  Lemma sumn_zero n (F : nat -> K) : (forall p, (p < n)%nat -> F p = 0) -> sumn n F = 0.
  Proof. intros H. apply lsum_zero. intros p Hp. apply in_seq in Hp. apply H. lia. Qed.

  Lemma kdelta_sym a b : kdelta (K:=K) a b = kdelta b a.
  Proof. unfold kdelta. now rewrite Nat.eqb_sym. Qed.
  Lemma kdelta_same a : kdelta (K:=K) a a = 1.
  Proof. unfold kdelta. now rewrite Nat.eqb_refl. Qed.
  Lemma kdelta_diff a b : a <> b -> kdelta (K:=K) a b = 0.
  Proof. unfold kdelta. intros H. destruct (Nat.eqb_spec a b); [contradiction|reflexivity]. Qed.

  Lemma sumn_kdelta n a (F : nat -> K) : (a < n)%nat -> sumn n (fun p => kdelta a p * F p) = F a.
  Proof.
    intros H. unfold sumn.
    rewrite (lsum_support Nat.eq_dec (seq 0 n) [a]).
    - cbn. rewrite kdelta_same. ring.
    - apply seq_NoDup.
    - repeat constructor. intros [].
    - intros p _ Hp. rewrite kdelta_diff; [ring|]. intros ->. apply Hp. now left.
    - intros p [<-|[]] Hn. exfalso. apply Hn. apply in_seq. lia.
  Qed.
  Lemma sumn_kdelta_r n a (F : nat -> K) : (a < n)%nat -> sumn n (fun p => kdelta p a * F p) = F a.
  Proof. intros H. rewrite <- (sumn_kdelta n a F H). apply sumn_ext. intros p _. now rewrite kdelta_sym. Qed.

  Lemma sumn_restrict n m (F : nat -> K) : (m <= n)%nat -> (forall p, (m <= p < n)%nat -> F p = 0) -> sumn n F = sumn m F.
  Proof.
    intros H H0. unfold sumn. apply (lsum_support Nat.eq_dec); try apply seq_NoDup.
    - intros p Hp Hn. apply H0. rewrite in_seq in Hp, Hn. lia.
    - intros p Hp Hn. exfalso. rewrite in_seq in Hp, Hn. lia.
  Qed.

  Lemma loop_sum n (G : nat -> K -> K) (F : nat -> K) a :
    (forall p a, (p < n)%nat -> G p a = a + F p) -> loop n G a = a + sumn n F.
  Proof.
    unfold loop, sumn. intros H.
    assert (forall l a, (forall p, In p l -> (p < n)%nat) -> fold_left (fun a p => G p a) l a = a + lsum l F) as E.
    { induction l as [|p l IH]; intros b Hl; cbn [fold_left]; [cbn; ring|].
      rewrite IH by (intros; apply Hl; now right). rewrite H by (apply Hl; now left). rewrite lsum_cons. ring. }
    apply E. intros p Hp. apply in_seq in Hp. lia.
  Qed.

  (** Commutators of the excitation operators. *)
  Lemma Eact_ext p q (f g : amps (K:=K)) : (forall x, f x = g x) -> forall x, Eact p q f x = Eact p q g x.
  Proof. apply (ek_ext [(p, q)]). Qed.
  Lemma Eact_add p q (f g : amps (K:=K)) x : Eact p q (fun e => f e + g e) x = Eact p q f x + Eact p q g x.
  Proof. apply (ek_add [(p, q)]). Qed.
  Lemma Eact_scale p q c (f : amps (K:=K)) x : Eact p q (fun e => c * f e) x = c * Eact p q f x.
  Proof. apply (ek_scale [(p, q)]). Qed.
  Lemma Eact_sub p q (f g : amps (K:=K)) x : Eact p q (fun e => f e - g e) x = Eact p q f x - Eact p q g x.
  Proof.
    rewrite (Eact_ext p q _ (fun e => f e + (- (1)) * g e)) by (intros; ring).
    rewrite Eact_add, (Eact_scale p q). ring.
  Qed.
  Lemma Eact_sumn p q n (F : nat -> amps (K:=K)) x :
    Eact p q (fun e => sumn n (fun i => F i e)) x = sumn n (fun i => Eact p q (F i) x).
  Proof.
    unfold sumn. induction (seq 0 n) as [|i l IH].
    - cbn. apply (ek_zero [(p, q)]). reflexivity.
    - rewrite lsum_cons.
      rewrite (Eact_ext p q _ (fun e => F i e + lsum l (fun j => F j e))) by reflexivity.
      now rewrite Eact_add, IH.
  Qed.
  Lemma eact_ext p q r s (f g : amps (K:=K)) : (forall x, f x = g x) -> forall x, eact p q r s f x = eact p q r s g x.
  Proof. intros H x. rewrite <- !ek_two. now apply ek_ext. Qed.
  Lemma eact_E p q r s (f : amps (K:=K)) x : eact p q r s f x = Eact p q (Eact r s f) x - kdelta q r * Eact p s f x.
  Proof. rewrite Eact_comp. ring. Qed.

  Lemma Eact_eact_commutator m n p q r s (f : amps (K:=K)) x :
    Eact m n (eact p q r s f) x - eact p q r s (Eact m n f) x
    = kdelta n p * eact m q r s f x - kdelta m q * eact p n r s f x
      + kdelta n r * eact p q m s f x - kdelta m s * eact p q r n f x.
  Proof.
    rewrite (Eact_ext m n _ (fun e => Eact p q (Eact r s f) e - kdelta q r * Eact p s f e)) by (intros; apply eact_E).
    rewrite (eact_E p q r s (Eact m n f)). rewrite Eact_sub, (Eact_scale m n).
    pose proof (Eact_commutator m n p q (Eact r s f) x) as H1.
    pose proof (Eact_commutator m n p s f x) as H2.
    assert (Eact p q (Eact m n (Eact r s f)) x
            = Eact p q (Eact r s (Eact m n f)) x + kdelta n r * Eact p q (Eact m s f) x - kdelta m s * Eact p q (Eact r n f) x) as H3.
    { rewrite (Eact_ext p q _ (fun e => Eact r s (Eact m n f) e + (kdelta n r * Eact m s f e - kdelta m s * Eact r n f e)))
        by (intros y; rewrite <- Eact_commutator; ring).
      rewrite Eact_add, Eact_sub, !(Eact_scale p q). ring. }
    assert (Eact m n (Eact p q (Eact r s f)) x
      = Eact p q (Eact m n (Eact r s f)) x + (kdelta n p * Eact m q (Eact r s f) x - kdelta m q * Eact p n (Eact r s f) x)) as H4
      by (rewrite <- H1; ring).
    assert (Eact m n (Eact p s f) x = Eact p s (Eact m n f) x + (kdelta n p * Eact m s f x - kdelta m s * Eact p n f x)) as H5
      by (rewrite <- H2; ring).
    rewrite H4, H3, H5, !Eact_comp. rewrite (kdelta_sym q m). ring.
  Qed.

  (** Commutator with the Hamiltonian. *)
  Definition hcomm (half : K) (h : nat -> nat -> K) (g : nat -> nat -> nat -> nat -> K) (n m k : nat) (f : amps (K:=K)) : amps := fun x =>
    sumn n (fun p => h k p * Eact m p f x - h p m * Eact p k f x)
    + half * sumn n (fun p => sumn n (fun q => sumn n (fun r =>
        g k p q r * eact m p q r f x - g p m q r * eact p k q r f x
        + g p q k r * eact p q m r f x - g p q r m * eact p q r k f x))).

  Lemma sumn2_ext n (F G : nat -> nat -> K) : (forall p q, F p q = G p q) ->
    sumn n (fun p => sumn n (F p)) = sumn n (fun p => sumn n (G p)).
  Proof. intros H. apply sumn_ext. intros p _. apply sumn_ext. intros q _. apply H. Qed.

  Lemma collapse1 n a (F : nat -> K) : (a < n)%nat -> sumn n (fun p => F p * kdelta a p) = F a.
  Proof. intros H. rewrite <- (sumn_kdelta n a F H). apply sumn_ext. intros. ring. Qed.

  Lemma hcomm_spec half h g n m k (f : amps (K:=K)) x : (m < n)%nat -> (k < n)%nat ->
    Eact m k (Hact half h g n f) x - Hact half h g n (Eact m k f) x = hcomm half h g n m k f x.
  Proof.
    intros Hm Hk. unfold Hact.
    rewrite Eact_add, !(Eact_scale m k), !Eact_sumn.
    assert (sumn n (fun p => Eact m k (fun e => sumn n (fun q => h p q * Eop p q f e)) x)
          - sumn n (fun p => sumn n (fun q => h p q * Eop p q (Eact m k f) x))
          = sumn n (fun p => h k p * Eact m p f x - h p m * Eact p k f x)) as H1.
    { rewrite <- sumn_sub.
      transitivity (sumn n (fun p => kdelta k p * sumn n (fun q => h p q * Eact m q f x) - h p m * Eact p k f x)).
      - apply sumn_ext. intros p _. rewrite Eact_sumn, <- sumn_sub.
        rewrite <- (sumn_kdelta n m (fun q => h p q * Eact p k f x) Hm), <- sumn_scale, <- sumn_sub.
        apply sumn_ext. intros q _. rewrite (Eact_scale m k). change (Eop p q (Eact m k f) x) with (Eact p q (Eact m k f) x).
        rewrite (Eact_ext m k (Eop p q f) (Eact p q f)) by reflexivity.
        transitivity (h p q * (Eact m k (Eact p q f) x - Eact p q (Eact m k f) x)); [ring|].
        rewrite Eact_commutator. ring.
      - rewrite !sumn_sub. f_equal. exact (sumn_kdelta n k (fun p => sumn n (fun q => h p q * Eact m q f x)) Hk). }
    assert (sumn n (fun p => Eact m k (fun e => sumn n (fun q => sumn n (fun r => sumn n (fun s => g p q r s * eop p q r s f e)))) x)
          - sumn n (fun p => sumn n (fun q => sumn n (fun r => sumn n (fun s => g p q r s * eop p q r s (Eact m k f) x))))
          = sumn n (fun p => sumn n (fun q => sumn n (fun r =>
             g k p q r * eact m p q r f x - g p m q r * eact p k q r f x
             + g p q k r * eact p q m r f x - g p q r m * eact p q r k f x)))) as H2.
    { rewrite <- sumn_sub.
      transitivity (sumn n (fun p => sumn n (fun q => sumn n (fun r => sumn n (fun s =>
        kdelta k p * (g p q r s * eact m q r s f x) - kdelta m q * (g p q r s * eact p k r s f x)
        + kdelta k r * (g p q r s * eact p q m s f x) - kdelta m s * (g p q r s * eact p q r k f x)))))).
      { apply sumn_ext. intros p _. rewrite Eact_sumn, <- sumn_sub. apply sumn_ext. intros q _.
        rewrite Eact_sumn, <- sumn_sub. apply sumn_ext. intros r _. rewrite Eact_sumn, <- sumn_sub. apply sumn_ext. intros s _.
        rewrite (Eact_scale m k), eop_eact. rewrite (Eact_ext m k (eop p q r s f) (eact p q r s f)) by (intros; apply eop_eact).
        transitivity (g p q r s * (Eact m k (eact p q r s f) x - eact p q r s (Eact m k f) x)); [ring|].
        rewrite Eact_eact_commutator. ring. }
      transitivity (
        sumn n (fun p => kdelta k p * sumn n (fun q => sumn n (fun r => sumn n (fun s => g p q r s * eact m q r s f x))))
        - sumn n (fun p => sumn n (fun q => kdelta m q * sumn n (fun r => sumn n (fun s => g p q r s * eact p k r s f x))))
        + sumn n (fun p => sumn n (fun q => sumn n (fun r => kdelta k r * sumn n (fun s => g p q r s * eact p q m s f x))))
        - sumn n (fun p => sumn n (fun q => sumn n (fun r => sumn n (fun s => kdelta m s * (g p q r s * eact p q r k f x)))))).
      { rewrite <- sumn_sub, <- sumn_add, <- sumn_sub. apply sumn_ext. intros p _.
        rewrite <- sumn_scale, <- sumn_sub, <- sumn_add, <- sumn_sub. apply sumn_ext. intros q _.
        rewrite <- !sumn_scale, <- sumn_sub, <- sumn_add, <- sumn_sub. apply sumn_ext. intros r _.
        rewrite <- !sumn_scale, <- sumn_sub, <- sumn_add, <- sumn_sub. reflexivity. }
      rewrite (sumn_kdelta n k (fun p => sumn n (fun q => sumn n (fun r => sumn n (fun s => g p q r s * eact m q r s f x)))) Hk).
      rewrite (sumn_ext n (fun p => sumn n (fun q => kdelta m q * sumn n (fun r => sumn n (fun s => g p q r s * eact p k r s f x))))
        (fun p => sumn n (fun r => sumn n (fun s => g p m r s * eact p k r s f x))))
        by (intros p _; exact (sumn_kdelta n m (fun q => sumn n (fun r => sumn n (fun s => g p q r s * eact p k r s f x))) Hm)).
      rewrite (sumn2_ext n (fun p q => sumn n (fun r => kdelta k r * sumn n (fun s => g p q r s * eact p q m s f x)))
        (fun p q => sumn n (fun s => g p q k s * eact p q m s f x)))
        by (intros p q; exact (sumn_kdelta n k (fun r => sumn n (fun s => g p q r s * eact p q m s f x)) Hk)).
      rewrite (sumn2_ext n (fun p q => sumn n (fun r => sumn n (fun s => kdelta m s * (g p q r s * eact p q r k f x))))
        (fun p q => sumn n (fun r => g p q r m * eact p q r k f x)))
        by (intros p q; apply sumn_ext; intros r _; exact (sumn_kdelta n m (fun s => g p q r s * eact p q r k f x) Hm)).
      rewrite <- sumn_sub, <- sumn_add, <- sumn_sub. apply sumn_ext. intros p _.
      rewrite <- sumn_sub, <- sumn_add, <- sumn_sub. apply sumn_ext. intros q _.
      rewrite <- sumn_sub, <- sumn_add, <- sumn_sub. reflexivity. }
    unfold hcomm. rewrite <- H1, <- H2. ring.
  Qed.
End Sums.
