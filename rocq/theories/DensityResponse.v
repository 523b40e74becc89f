(** Orbital gradients, response metric and Hessian blocks as expectation values. *)
From Coq Require Import List Bool Arith NArith Lia Ring Permutation.
From Verif Require Import Base Fock FockMore OperatorsModel OperatorsProofs OperatorsSums OperatorsActs OperatorsActive
  Props_Operators FockInner DensityModel DensityProofs DensityExpect.
Import ListNotations.

Section Response.
  Context {K : Type} {C : CRing K}.
  Local Open Scope K_scope.
  Add Ring KringDR : (@rth K C).

  Lemma ip_opp m (u w : amps) : ip m u (fun x => - w x) = - ip m u w.
  Proof.
    rewrite (ip_ext m u u _ (fun x => (- (1)) * w x)) by (auto; intros; ring). rewrite ip_scale. ring.
  Qed.

  (** Commutator of two operators on states. *)
  Definition comm (F G : amps (K:=K) -> amps) : amps -> amps := fun f x => F (G f) x - G (F f) x.

  Definition sum2 n (F : nat -> nat -> K) : K := sumn n (fun p => sumn n (fun q => F p q)).
  Definition sum3 n (F : nat -> nat -> nat -> K) : K := sumn n (fun p => sumn n (fun q => sumn n (fun r => F p q r))).

  Lemma sum2_add n F G : sum2 n (fun p q => F p q + G p q) = sum2 n F + sum2 n G.
  Proof. unfold sum2. rewrite <- sumn_add. apply sumn_ext. intros. apply sumn_add. Qed.
  Lemma sum2_sub n F G : sum2 n (fun p q => F p q - G p q) = sum2 n F - sum2 n G.
  Proof. unfold sum2. rewrite <- sumn_sub. apply sumn_ext. intros. apply sumn_sub. Qed.
  Lemma sum2_ext n F G : (forall p q, (p < n)%nat -> (q < n)%nat -> F p q = G p q) -> sum2 n F = sum2 n G.
  Proof. intros H. apply sumn_ext. intros. apply sumn_ext. auto. Qed.
  Lemma sum3_add n F G : sum3 n (fun p q r => F p q r + G p q r) = sum3 n F + sum3 n G.
  Proof. unfold sum3. rewrite <- sumn_add. apply sumn_ext. intros p _. apply (sum2_add n (F p) (G p)). Qed.
  Lemma sum3_sub n F G : sum3 n (fun p q r => F p q r - G p q r) = sum3 n F - sum3 n G.
  Proof. unfold sum3. rewrite <- sumn_sub. apply sumn_ext. intros p _. apply (sum2_sub n (F p) (G p)). Qed.
  Lemma sum3_scale n c F : sum3 n (fun p q r => c * F p q r) = c * sum3 n F.
  Proof.
    unfold sum3. rewrite <- sumn_scale. apply sumn_ext. intros p _. rewrite <- sumn_scale. apply sumn_ext. intros q _. apply sumn_scale.
  Qed.
  Lemma sum3_ext n F G : (forall p q r, (p < n)%nat -> (q < n)%nat -> (r < n)%nat -> F p q r = G p q r) -> sum3 n F = sum3 n G.
  Proof. intros H. apply sumn_ext. intros. apply sumn_ext. intros. apply sumn_ext. auto. Qed.
  Lemma sum3_rot n F : sum3 n (fun p q r => F r p q) = sum3 n F.
  Proof.
    unfold sum3. transitivity (sumn n (fun p => sumn n (fun r => sumn n (fun q => F r p q)))).
    - apply sumn_ext. intros p _. apply (sumn_swap n (fun q r => F r p q)).
    - apply (sumn_swap n (fun p r => sumn n (fun q => F r p q))).
  Qed.
  Lemma sum3_swap23 n F : sum3 n (fun p q r => F p r q) = sum3 n F.
  Proof. unfold sum3. apply sumn_ext. intros p _. apply (sumn_swap n (fun q r => F p r q)). Qed.
  Lemma sum3_d1 n a F : (a < n)%nat -> sum3 n (fun p q r => kdelta a p * F p q r) = sum2 n (fun q r => F a q r).
  Proof.
    intros H. unfold sum2, sum3. rewrite <- (sumn_kdelta n a (fun p => sumn n (fun q => sumn n (fun r => F p q r))) H).
    apply sumn_ext. intros p _. rewrite <- sumn_scale. apply sumn_ext. intros q _. apply sumn_scale.
  Qed.
  Lemma sum3_d2 n a F : (a < n)%nat -> sum3 n (fun p q r => kdelta a q * F p q r) = sum2 n (fun p r => F p a r).
  Proof.
    intros H. unfold sum2, sum3. apply sumn_ext. intros p _.
    rewrite <- (sumn_kdelta n a (fun q => sumn n (fun r => F p q r)) H). apply sumn_ext. intros q _. apply sumn_scale.
  Qed.
  Lemma sum3_d3 n a F : (a < n)%nat -> sum3 n (fun p q r => kdelta a r * F p q r) = sum2 n (fun p q => F p q a).
  Proof.
    intros H. unfold sum2, sum3. apply sumn_ext. intros p _. apply sumn_ext. intros q _. exact (sumn_kdelta n a (fun r => F p q r) H).
  Qed.

  Lemma Hact_ext half h g n (f f' : amps) : (forall x, f x = f' x) -> forall x, Hact half h g n f x = Hact half h g n f' x.
  Proof.
    intros H x. unfold Hact. f_equal; [|f_equal].
    - apply sumn_ext. intros p _. apply sumn_ext. intros q _. f_equal. now apply Eact_ext.
    - apply sumn_ext. intros p _. apply sumn_ext. intros q _. apply sumn_ext. intros r _. apply sumn_ext. intros s _.
      f_equal. rewrite !eop_eact. now apply eact_ext.
  Qed.
  Lemma Hact_sub half h g n (f f' : amps) x :
    Hact half h g n (fun e => f e - f' e) x = Hact half h g n f x - Hact half h g n f' x.
  Proof.
    unfold Hact.
    assert (forall a b c d, a - b + half * (c - d) = a + half * c - (b + half * d)) as R by (intros; ring).
    rewrite <- R. f_equal; [|f_equal].
    - rewrite <- sumn_sub. apply sumn_ext. intros p _. rewrite <- sumn_sub. apply sumn_ext. intros q _.
      change (h p q * Eact p q (fun e => f e - f' e) x = h p q * Eact p q f x - h p q * Eact p q f' x). rewrite Eact_sub. ring.
    - rewrite <- sumn_sub. apply sumn_ext. intros p _. rewrite <- sumn_sub. apply sumn_ext. intros q _.
      rewrite <- sumn_sub. apply sumn_ext. intros r _. rewrite <- sumn_sub. apply sumn_ext. intros s _.
      rewrite !eop_eact. rewrite !eact_E. rewrite Eact_sub.
      rewrite (Eact_ext p q (Eact r s (fun e => f e - f' e)) (fun e => Eact r s f e - Eact r s f' e)) by (intros; apply Eact_sub).
      rewrite Eact_sub. ring.
  Qed.

  Variables (N ni na : nat) (psi : amps (K:=K)).
  Hypothesis HN : (ni + na <= N)%nat.
  Hypothesis Hs : supp ni na psi.
  Hypothesis Hnorm : ip (2 * N) psi psi = 1.
  Variables (rdm1 : nat -> nat -> K) (rdm2 : nat -> nat -> nat -> nat -> K).
  Notation G1 := (G1 N psi).
  Notation G2 := (G2 N psi).
  Hypothesis Hr1 : forall i j, (i < na)%nat -> (j < na)%nat -> rdm1 i j = G1 (ni + i) (ni + j).
  Hypothesis Hr2 : forall i j k l, (i < na)%nat -> (j < na)%nat -> (k < na)%nat -> (l < na)%nat ->
    rdm2 i j k l = G2 (ni + i) (ni + j) (ni + k) (ni + l).
  Notation A := (ni + na)%nat.
  Notation ev F := (ip (2 * N) psi (F psi)).

  Let R1 := RDM1_ok N ni na psi HN Hs Hnorm rdm1 Hr1.
  Let R2 := RDM2_ok N ni na psi HN Hs Hnorm rdm1 rdm2 Hr1 Hr2.
  Let V1 := G1_virtual N ni na psi HN Hs.
  Let V2 := G2_virtual N ni na psi HN Hs.
  Let S1sym := G1_sym N psi.

  Lemma sum2_restrict (F : nat -> nat -> K) :
    (forall p q, (p < N)%nat -> (q < N)%nat -> (A <= p \/ A <= q)%nat -> F p q = 0) -> sum2 N F = sum2 A F.
  Proof. apply (restrict2 N ni na HN). Qed.
  Lemma sum3_restrict (F : nat -> nat -> nat -> K) :
    (forall p q r, (p < N)%nat -> (q < N)%nat -> (r < N)%nat -> (A <= p \/ A <= q \/ A <= r)%nat -> F p q r = 0) -> sum3 N F = sum3 A F.
  Proof. apply (restrict3 N ni na HN). Qed.

  Section Gradient.
    Variables (half : K) (h : nat -> nat -> K) (g : nat -> nat -> nat -> nat -> K).
    Hypothesis Hhalf : half + half = 1.
    Hypothesis Hh : forall p q, (p < N)%nat -> (q < N)%nat -> h p q = h q p.
    Hypothesis Hg : forall p q r s, (p < N)%nat -> (q < N)%nat -> (r < N)%nat -> (s < N)%nat -> g p q r s = g r s p q.
    Hypothesis Hga : forall p q r s, (p < N)%nat -> (q < N)%nat -> (r < N)%nat -> (s < N)%nat -> g p q r s = g q p s r.
    Notation H := (Hact half h g N).

    Definition T1 m n := sum3 A (fun p q r => g n p q r * G2 m p q r).
    Definition U1 m n := sumn A (fun p => h n p * G1 m p).

    Lemma T2_T1 m n : (m < N)%nat -> (n < N)%nat -> sum3 A (fun p q r => g p m q r * G2 p n q r) = T1 n m.
    Proof.
      intros Hm Hn. unfold T1. rewrite <- sum3_swap23. apply sum3_ext. intros p q r Hp Hq Hr.
      rewrite Hga by lia. rewrite (G2_adj N psi p n r q) by lia. reflexivity.
    Qed.
    Lemma U2_U1 m n : (m < N)%nat -> (n < N)%nat -> sumn A (fun p => h p m * G1 p n) = U1 n m.
    Proof.
      intros Hm Hn. apply sumn_ext. intros p Hp. rewrite Hh by lia. rewrite (S1sym p n) by lia. reflexivity.
    Qed.

    Lemma ev_comm_EH m n : (m < N)%nat -> (n < N)%nat -> ev (comm (Eact m n) H) = U1 m n - U1 n m + T1 m n - T1 n m.
    Proof.
      intros Hm Hn. transitivity (ip (2 * N) psi (hcomm half h g N m n psi)).
      { apply ip_ext; [reflexivity|]. intros x. unfold comm. now apply hcomm_spec. }
      rewrite (ev_hcomm N ni na psi HN Hs half h g m n Hm Hn).
      change (sumn A (fun p => h n p * G1 m p - h p m * G1 p n)
        + half * sum3 A (fun p q r => g n p q r * G2 m p q r - g p m q r * G2 p n q r + g p q n r * G2 p q m r - g p q r m * G2 p q r n)
        = U1 m n - U1 n m + T1 m n - T1 n m).
      rewrite sumn_sub, U2_U1 by auto. rewrite sum3_sub, sum3_add, sum3_sub, T2_T1 by auto.
      assert (sum3 A (fun p q r => g p q n r * G2 p q m r) = T1 m n) as ->.
      { unfold T1. symmetry. rewrite <- sum3_rot. apply sum3_ext. intros p q r Hp Hq Hr. rewrite (Hg p q n r) by lia. now rewrite (G2_exchange N psi p q m r). }
      assert (sum3 A (fun p q r => g p q r m * G2 p q r n) = T1 n m) as ->.
      { rewrite <- T2_T1 by auto. symmetry. rewrite <- sum3_rot. apply sum3_ext. intros p q r Hp Hq Hr. rewrite (Hg p q r m) by lia. now rewrite (G2_exchange N psi p q r n). }
      fold (T1 m n). fold (U1 m n).
      transitivity (U1 m n - U1 n m + (half + half) * (T1 m n - T1 n m)); [ring|]. rewrite Hhalf. ring.
    Qed.

    Lemma response_elem_ok m n : (m < N)%nat -> (n < N)%nat ->
      orbital_gradient_response_elem half h g ni na rdm1 rdm2 (m, n) = ev (comm (Eact m n) H).
    Proof.
      intros Hm Hn. rewrite ev_comm_EH by auto. unfold orbital_gradient_response_elem.
      rewrite (loop_sum A _ (fun p => h n p * G1 m p - h p m * G1 p n) 0)
        by (intros p a Hp; rewrite !R1 by lia; ring).
      rewrite (loop_sum A _ (fun p => sumn A (fun q => sumn A (fun r =>
         half * (g n p q r * G2 m p q r - g p m q r * G2 p n q r - g m p q r * G2 n p q r + g p n q r * G2 p m q r))))).
      2:{ intros p a Hp. apply loop_sum. intros q a' Hq. apply loop_sum. intros r a2 Hr. rewrite !R2 by lia. ring. }
      change (0 + sumn A (fun p => h n p * G1 m p - h p m * G1 p n)
        + sum3 A (fun p q r => half * (g n p q r * G2 m p q r - g p m q r * G2 p n q r - g m p q r * G2 n p q r + g p n q r * G2 p m q r))
        = U1 m n - U1 n m + T1 m n - T1 n m).
      rewrite sum3_scale, sum3_add, !sum3_sub, !T2_T1, sumn_sub, U2_U1 by auto.
      fold (T1 m n). fold (T1 n m). fold (U1 m n).
      transitivity (U1 m n - U1 n m + (half + half) * (T1 m n - T1 n m)); [ring|]. rewrite Hhalf. ring.
    Qed.

    Lemma gradient_elem_ok m n : (m < N)%nat -> (n < N)%nat ->
      orbital_gradient_elem h g ni na rdm1 rdm2 (m, n)
      = ev (comm (fun f x => Eact m n f x - Eact n m f x) H).
    Proof.
      intros Hm Hn.
      transitivity (ev (comm (Eact m n) H) - ev (comm (Eact n m) H)).
      - rewrite !ev_comm_EH by auto. unfold orbital_gradient_elem.
        rewrite (loop_sum A _ (fun p => (1 + 1) * (h n p * G1 m p - h p m * G1 p n)) 0)
          by (intros p a Hp; rewrite !R1 by lia; unfold k2; ring).
        rewrite (loop_sum A _ (fun p => sumn A (fun q => sumn A (fun r =>
           g n p q r * G2 m p q r - g p m q r * G2 p n q r - g m p q r * G2 n p q r + g p n q r * G2 p m q r)))).
        2:{ intros p a Hp. apply loop_sum. intros q a' Hq. apply loop_sum. intros r a2 Hr. rewrite !R2 by lia. ring. }
        change (0 + sumn A (fun p => (1 + 1) * (h n p * G1 m p - h p m * G1 p n))
          + sum3 A (fun p q r => g n p q r * G2 m p q r - g p m q r * G2 p n q r - g m p q r * G2 n p q r + g p n q r * G2 p m q r)
          = U1 m n - U1 n m + T1 m n - T1 n m - (U1 n m - U1 m n + T1 n m - T1 m n)).
        rewrite sumn_scale, sum3_add, !sum3_sub, !T2_T1, sumn_sub, U2_U1 by auto.
        fold (T1 m n). fold (T1 n m). fold (U1 m n). ring.
      - rewrite <- ip_sub. apply ip_ext; [reflexivity|]. intros x. unfold comm. rewrite Hact_sub. ring.
    Qed.
  End Gradient.

  (** ** Metric, norm and property gradient *)
  Lemma ev_comm_EE m n p q : ev (comm (Eact m n) (Eact p q)) = kdelta n p * G1 m q - kdelta m q * G1 p n.
  Proof.
    unfold DensityExpect.G1. rewrite <- !(ip_scale (2 * N)), <- ip_sub. apply ip_ext; [reflexivity|].
    intros x. unfold comm. rewrite Eact_commutator. reflexivity.
  Qed.

  Lemma sigma_elem_ok half n m p q : (n < N)%nat -> (m < N)%nat -> (p < N)%nat -> (q < N)%nat ->
    metric_sigma_elem half ni na rdm1 (n, m) (p, q) = half * ev (comm (Eact p q) (Eact m n)).
  Proof.
    intros Hn Hm Hp Hq. rewrite ev_comm_EE. unfold metric_sigma_elem. rewrite !R1 by auto.
    rewrite (kdelta_sym q m).
    unfold kdelta. destruct (Nat.eqb_spec p n), (Nat.eqb_spec m q); ring.
  Qed.

  Lemma fold_sum {I} (l : list I) (B : K -> I -> K) (F : I -> K) a :
    (forall i a, In i l -> B a i = a + F i) -> fold_left B l a = a + lsum l F.
  Proof.
    revert a. induction l as [|i l IH]; intros a H; cbn [fold_left]; [cbn; ring|].
    rewrite H by now left. rewrite IH by (intros; apply H; now right). rewrite lsum_cons. ring.
  Qed.
  Lemma in_enumerate {I} (l : list I) i x : In (i, x) (enumerate l) -> In x l.
  Proof. unfold enumerate. intros H. now apply in_combine_r in H. Qed.

  Lemma norm_ok half kappa (rv : nat -> K) ne : (forall mn, In mn kappa -> (fst mn < N)%nat /\ (snd mn < N)%nat) ->
    get_orbital_response_vector_norm half kappa ni na rdm1 rv ne
    = half * lsum (enumerate kappa) (fun imn => lsum (enumerate kappa) (fun jtu =>
        let '(i, (m, n)) := imn in let '(j, (t, u)) := jtu in
        rv i * rv j * ev (comm (Eact m n) (Eact u t))
        + rv (i + ne)%nat * rv (j + ne)%nat * ev (comm (Eact n m) (Eact t u)))).
  Proof.
    intros Hk. unfold get_orbital_response_vector_norm. f_equal.
    rewrite (fold_sum _ _ (fun imn => lsum (enumerate kappa) (fun jtu =>
        let '(i, (m, n)) := imn in let '(j, (t, u)) := jtu in
        rv i * rv j * ev (comm (Eact m n) (Eact u t))
        + rv (i + ne)%nat * rv (j + ne)%nat * ev (comm (Eact n m) (Eact t u))))); [ring|].
    intros [i [m n]] a Hi. apply in_enumerate in Hi. destruct (Hk _ Hi) as [Hm Hn]. cbn [fst snd] in *.
    apply fold_sum. intros [j [t u]] b Hj. apply in_enumerate in Hj. destruct (Hk _ Hj) as [Ht Hu]. cbn [fst snd] in *.
    rewrite !ev_comm_EE. rewrite !R1 by auto.
    rewrite (S1sym u n), (S1sym t m) by auto. unfold kdelta.
    destruct (Nat.eqb_spec n u), (Nat.eqb_spec m t); ring.
  Qed.

  (** One-electron operator [sum_pq x_pq E_pq]. *)
  Definition Xact (x : nat -> nat -> K) (n : nat) (f : amps (K:=K)) : amps := fun d =>
    sumn n (fun p => sumn n (fun q => x p q * Eact p q f d)).

  Lemma ev_comm_EX x m n : (m < N)%nat -> (n < N)%nat ->
    ev (comm (Eact m n) (Xact x N)) = sumn A (fun p => x n p * G1 m p) - sumn A (fun p => x p m * G1 p n).
  Proof.
    intros Hm Hn.
    transitivity (ip (2 * N) psi (fun d => sumn N (fun p => x n p * Eact m p psi d) - sumn N (fun p => x p m * Eact p n psi d))).
    - apply ip_ext; [reflexivity|]. intros d.
      pose proof (hcomm_spec 0 x (fun _ _ _ _ => 0) N m n psi d Hm Hn) as E. unfold hcomm in E.
      rewrite sumn_sub in E.
      transitivity (Eact m n (Hact 0 x (fun _ _ _ _ => 0) N psi) d - Hact 0 x (fun _ _ _ _ => 0) N (Eact m n psi) d).
      + assert (forall f e, Xact x N f e = Hact 0 x (fun _ _ _ _ => 0) N f e) as HX.
        { intros f e. unfold Xact, Hact.
          change (sumn N (fun p => sumn N (fun q => x p q * Eact p q f e)) = sumn N (fun p => sumn N (fun q => x p q * Eact p q f e))
            + 0 * sumn N (fun p => sumn N (fun q => sumn N (fun r => sumn N (fun s => 0 * eop p q r s f e))))). ring. }
        unfold comm. f_equal; [apply Eact_ext; intros e|]; apply HX.
      + rewrite E. ring.
    - rewrite ip_sub, !(ip_sumn N psi). rewrite !(sumn_restrict N A); auto.
      + f_equal; apply sumn_ext; intros p Hp; now rewrite (ip_scale (2 * N)).
      + intros p Hp. rewrite (ip_scale (2 * N)). fold (G1 p n). rewrite V1 by (auto; lia). ring.
      + intros p Hp. rewrite (ip_scale (2 * N)). fold (G1 m p). rewrite V1 by (auto; lia). ring.
  Qed.

  Lemma property_ok s2 x kappa (rv : nat -> K) ne :
    (forall mn, In mn kappa -> (fst mn < N)%nat /\ (snd mn < N)%nat) ->
    (forall p q, (p < N)%nat -> (q < N)%nat -> x p q = x q p) ->
    get_orbital_response_property_gradient s2 x kappa ni na rdm1 rv ne
    = s2 * lsum (enumerate kappa) (fun imn => let '(i, (m, n)) := imn in
        rv (i + ne)%nat * ev (comm (Eact m n) (Xact x N)) + rv i * ev (comm (Eact n m) (Xact x N))).
  Proof.
    intros Hk Hx. unfold get_orbital_response_property_gradient. f_equal.
    rewrite (fold_sum _ _ (fun imn => let '(i, (m, n)) := imn in
        rv (i + ne)%nat * ev (comm (Eact m n) (Xact x N)) + rv i * ev (comm (Eact n m) (Xact x N)))); [ring|].
    intros [i [m n]] a Hi. apply in_enumerate in Hi. destruct (Hk _ Hi) as [Hm Hn]. cbn [fst snd] in *.
    rewrite !ev_comm_EX by auto.
    rewrite (loop_sum A _ (fun p => (rv (i + ne)%nat - rv i) * (x n p * G1 m p) + (rv i - rv (i + ne)%nat) * (x m p * G1 n p))).
    2:{ intros p b Hp. rewrite !R1 by lia. ring. }
    rewrite sumn_add, !sumn_scale.
    assert (forall a b, (a < N)%nat -> (b < N)%nat -> sumn A (fun p => x p a * G1 p b) = sumn A (fun p => x a p * G1 b p)) as Sx.
    { intros c d Hc Hd. apply sumn_ext. intros p Hp. rewrite (Hx p c), (S1sym p d) by lia. reflexivity. }
    rewrite !Sx by auto. ring.
  Qed.

  (** ** Hessian *)
  Lemma ev_E p q : ip (2 * N) psi (Eact p q psi) = G1 p q.
  Proof. reflexivity. Qed.
  Definition cd t u a b c d : K :=
    kdelta u a * G2 t b c d - kdelta t b * G2 a u c d + kdelta u c * G2 a b t d - kdelta t d * G2 a b c u.
  Lemma ev_comm_Ee t u a b c d : ev (comm (Eact t u) (eact a b c d)) = cd t u a b c d.
  Proof.
    unfold cd, DensityExpect.G2. rewrite <- !(ip_scale (2 * N)). rewrite <- ip_sub, <- ip_add, <- ip_sub. apply ip_ext; [reflexivity|].
    intros x. unfold comm. rewrite Eact_eact_commutator. reflexivity.
  Qed.

  Section Hessian.
    Variables (half : K) (h : nat -> nat -> K) (g : nat -> nat -> nat -> nat -> K).
    Variables (t u m n : nat).
    Hypotheses (Ht : (t < N)%nat) (Hu : (u < N)%nat) (Hm : (m < N)%nat) (Hn : (n < N)%nat).
    Notation H := (Hact half h g N).

    Lemma ev_double : ev (comm (Eact t u) (comm H (Eact m n)))
      = - (sumn N (fun p => h n p * (kdelta u m * G1 t p - kdelta t p * G1 m u) - h p m * (kdelta u p * G1 t n - kdelta t n * G1 p u))
           + half * sum3 N (fun p q r => g n p q r * cd t u m p q r - g p m q r * cd t u p n q r
                                         + g p q n r * cd t u p q m r - g p q r m * cd t u p q r n)).
    Proof.
      transitivity (- ip (2 * N) psi (fun x => Eact t u (hcomm half h g N m n psi) x - hcomm half h g N m n (Eact t u psi) x)).
      { rewrite <- (ip_opp (2 * N)). apply ip_ext; [reflexivity|]. intros x. unfold comm.
        rewrite (Eact_ext t u _ (fun e => 0 - hcomm half h g N m n psi e)).
        2:{ intros e. rewrite <- hcomm_spec by auto. ring. }
        rewrite <- (hcomm_spec half h g N m n (Eact t u psi) x Hm Hn). rewrite Eact_sub.
        assert (Eact t u (fun _ => 0) x = 0) as ->; [|ring].
        transitivity (Eact t u (fun _ => 0 * 0) x); [apply Eact_ext; intros; ring|].
        rewrite (Eact_scale t u). ring. }
      f_equal.
      transitivity (ip (2 * N) psi (fun x =>
        sumn N (fun p => h n p * comm (Eact t u) (Eact m p) psi x - h p m * comm (Eact t u) (Eact p n) psi x)
        + half * sumn N (fun p => sumn N (fun q => sumn N (fun r =>
            g n p q r * comm (Eact t u) (eact m p q r) psi x - g p m q r * comm (Eact t u) (eact p n q r) psi x
            + g p q n r * comm (Eact t u) (eact p q m r) psi x - g p q r m * comm (Eact t u) (eact p q r n) psi x))))).
      - apply ip_ext; [reflexivity|]. intros x. unfold hcomm. rewrite Eact_add, Eact_scale.
        rewrite (Eact_sumn t u N (fun p e => h n p * Eact m p psi e - h p m * Eact p n psi e)).
        rewrite (Eact_sumn t u N (fun p e => sumn N (fun q => sumn N (fun r =>
           g n p q r * eact m p q r psi e - g p m q r * eact p n q r psi e + g p q n r * eact p q m r psi e
           - g p q r m * eact p q r n psi e)))).
        assert (forall a b c d, a + half * b - (c + half * d) = (a - c) + half * (b - d)) as R by (intros; ring).
        rewrite R. f_equal; [|f_equal].
        + rewrite <- sumn_sub. apply sumn_ext. intros p _. rewrite Eact_sub, !Eact_scale. unfold comm. ring.
        + rewrite <- sumn_sub. apply sumn_ext. intros p _.
          rewrite (Eact_sumn t u N (fun q e => sumn N (fun r =>
           g n p q r * eact m p q r psi e - g p m q r * eact p n q r psi e + g p q n r * eact p q m r psi e
           - g p q r m * eact p q r n psi e))).
          rewrite <- sumn_sub. apply sumn_ext. intros q _.
          rewrite (Eact_sumn t u N (fun r e =>
           g n p q r * eact m p q r psi e - g p m q r * eact p n q r psi e + g p q n r * eact p q m r psi e
           - g p q r m * eact p q r n psi e)).
          rewrite <- sumn_sub. apply sumn_ext. intros r _.
          rewrite Eact_sub, Eact_add, Eact_sub, !Eact_scale. unfold comm. ring.
      - rewrite ip_add, (ip_scale (2 * N)). f_equal; [|f_equal].
        + rewrite (ip_sumn N psi N (fun p x => h n p * comm (Eact t u) (Eact m p) psi x - h p m * comm (Eact t u) (Eact p n) psi x)).
          apply sumn_ext. intros p _. rewrite ip_sub, !(ip_scale (2 * N)), !ev_comm_EE. reflexivity.
        + unfold sum3.
          rewrite (ip_sumn N psi N (fun p x => sumn N (fun q => sumn N (fun r =>
            g n p q r * comm (Eact t u) (eact m p q r) psi x - g p m q r * comm (Eact t u) (eact p n q r) psi x
            + g p q n r * comm (Eact t u) (eact p q m r) psi x - g p q r m * comm (Eact t u) (eact p q r n) psi x)))).
          apply sumn_ext. intros p _.
          rewrite (ip_sumn N psi N (fun q x => sumn N (fun r =>
            g n p q r * comm (Eact t u) (eact m p q r) psi x - g p m q r * comm (Eact t u) (eact p n q r) psi x
            + g p q n r * comm (Eact t u) (eact p q m r) psi x - g p q r m * comm (Eact t u) (eact p q r n) psi x))).
          apply sumn_ext. intros q _.
          rewrite (ip_sumn N psi N (fun r x =>
            g n p q r * comm (Eact t u) (eact m p q r) psi x - g p m q r * comm (Eact t u) (eact p n q r) psi x
            + g p q n r * comm (Eact t u) (eact p q m r) psi x - g p q r m * comm (Eact t u) (eact p q r n) psi x)).
          apply sumn_ext. intros r _.
          rewrite ip_sub, ip_add, ip_sub, !(ip_scale (2 * N)), !ev_comm_Ee. reflexivity.
    Qed.

    Notation S2 F := (sum2 A F).
    Notation S3 F := (sum3 A F).
    Ltac split3 := rewrite (sum3_ext N _ (fun p q r => _)) by reflexivity.
    Ltac vz := intros; rewrite V2 by (auto; lia); ring.

    Lemma P1 : sum3 N (fun p q r => g n p q r * cd t u m p q r)
      = kdelta u m * S3 (fun p q r => g n p q r * G2 t p q r) - S2 (fun p q => g n t p q * G2 m u p q)
        + S2 (fun p q => g n p u q * G2 m p t q) - S2 (fun p q => g n p q t * G2 m p q u).
    Proof.
      transitivity (sum3 N (fun p q r => kdelta u m * (g n p q r * G2 t p q r) - kdelta t p * (g n p q r * G2 m u q r)
                      + kdelta u q * (g n p q r * G2 m p t r) - kdelta t r * (g n p q r * G2 m p q u))).
      { apply sum3_ext. intros. unfold cd. ring. }
      rewrite sum3_sub, sum3_add, sum3_sub, sum3_scale, (sum3_d1 N t (fun p q r => g n p q r * G2 m u q r) Ht),
        (sum3_d2 N u (fun p q r => g n p q r * G2 m p t r) Hu), (sum3_d3 N t (fun p q r => g n p q r * G2 m p q u) Ht).
      rewrite !sum2_restrict, !sum3_restrict; [reflexivity|vz..].
    Qed.
    Lemma P2 : sum3 N (fun p q r => g p m q r * cd t u p n q r)
      = S2 (fun p q => g u m p q * G2 t n p q) - kdelta t n * S3 (fun p q r => g p m q r * G2 p u q r)
        + S2 (fun p q => g p m u q * G2 p n t q) - S2 (fun p q => g p m q t * G2 p n q u).
    Proof.
      transitivity (sum3 N (fun p q r => kdelta u p * (g p m q r * G2 t n q r) - kdelta t n * (g p m q r * G2 p u q r)
                      + kdelta u q * (g p m q r * G2 p n t r) - kdelta t r * (g p m q r * G2 p n q u))).
      { apply sum3_ext. intros. unfold cd. ring. }
      rewrite sum3_sub, sum3_add, sum3_sub, sum3_scale, (sum3_d1 N u (fun p q r => g p m q r * G2 t n q r) Hu),
        (sum3_d2 N u (fun p q r => g p m q r * G2 p n t r) Hu), (sum3_d3 N t (fun p q r => g p m q r * G2 p n q u) Ht).
      rewrite !sum2_restrict, !sum3_restrict; [reflexivity|vz..].
    Qed.
    Lemma P3 : sum3 N (fun p q r => g p q n r * cd t u p q m r)
      = S2 (fun p q => g u p n q * G2 t p m q) - S2 (fun p q => g p t n q * G2 p u m q)
        + kdelta u m * S3 (fun p q r => g p q n r * G2 p q t r) - S2 (fun p q => g p q n t * G2 p q m u).
    Proof.
      transitivity (sum3 N (fun p q r => kdelta u p * (g p q n r * G2 t q m r) - kdelta t q * (g p q n r * G2 p u m r)
                      + kdelta u m * (g p q n r * G2 p q t r) - kdelta t r * (g p q n r * G2 p q m u))).
      { apply sum3_ext. intros. unfold cd. ring. }
      rewrite sum3_sub, sum3_add, sum3_sub, sum3_scale, (sum3_d1 N u (fun p q r => g p q n r * G2 t q m r) Hu),
        (sum3_d2 N t (fun p q r => g p q n r * G2 p u m r) Ht), (sum3_d3 N t (fun p q r => g p q n r * G2 p q m u) Ht).
      rewrite !sum2_restrict, !sum3_restrict; [reflexivity|vz..].
    Qed.
    Lemma P4 : sum3 N (fun p q r => g p q r m * cd t u p q r n)
      = S2 (fun p q => g u p q m * G2 t p q n) - S2 (fun p q => g p t q m * G2 p u q n)
        + S2 (fun p q => g p q u m * G2 p q t n) - kdelta t n * S3 (fun p q r => g p q r m * G2 p q r u).
    Proof.
      transitivity (sum3 N (fun p q r => kdelta u p * (g p q r m * G2 t q r n) - kdelta t q * (g p q r m * G2 p u r n)
                      + kdelta u r * (g p q r m * G2 p q t n) - kdelta t n * (g p q r m * G2 p q r u))).
      { apply sum3_ext. intros. unfold cd. ring. }
      rewrite sum3_sub, sum3_add, sum3_sub, sum3_scale, (sum3_d1 N u (fun p q r => g p q r m * G2 t q r n) Hu),
        (sum3_d2 N t (fun p q r => g p q r m * G2 p u r n) Ht), (sum3_d3 N u (fun p q r => g p q r m * G2 p q t n) Hu).
      rewrite !sum2_restrict, !sum3_restrict; [reflexivity|vz..].
    Qed.

    Lemma hess_1e : hessian_A1e h ni na rdm1 (t, u) (m, n)
      = - sumn N (fun p => h n p * (kdelta u m * G1 t p - kdelta t p * G1 m u) - h p m * (kdelta u p * G1 t n - kdelta t n * G1 p u)).
    Proof.
      unfold hessian_A1e.
      rewrite (loop_sum A _ (fun p => - (kdelta u m * (h n p * G1 t p)) - kdelta t n * (h p m * G1 p u))).
      2:{ intros p a Hp. rewrite !R1 by lia. rewrite (kdelta_sym u m). unfold kdelta.
          destruct (Nat.eqb_spec m u), (Nat.eqb_spec t n); ring. }
      rewrite !R1 by auto.
      transitivity (0 + h n t * G1 m u + h u m * G1 t n
        + (- (kdelta u m * sumn A (fun p => h n p * G1 t p)) - kdelta t n * sumn A (fun p => h p m * G1 p u))).
      { f_equal. rewrite sumn_sub, sumn_opp, !sumn_scale. reflexivity. }
      rewrite (sumn_ext N _ (fun p => (kdelta u m * (h n p * G1 t p) - kdelta t p * (h n p * G1 m u))
                    - (kdelta u p * (h p m * G1 t n) - kdelta t n * (h p m * G1 p u)))) by (intros; ring).
      rewrite !sumn_sub, !sumn_scale.
      rewrite (sumn_kdelta N t (fun p => h n p * G1 m u) Ht), (sumn_kdelta N u (fun p => h p m * G1 t n) Hu).
      rewrite (sumn_restrict N A (fun p => h n p * G1 t p) HN), (sumn_restrict N A (fun p => h p m * G1 p u) HN); [ring|..].
      - intros p Hp. rewrite V1 by (auto; lia). ring.
      - intros p Hp. rewrite V1 by (auto; lia). ring.
    Qed.

    Lemma hess_2e : hessian_A2e g ni na rdm1 rdm2 (t, u) (m, n)
      = - sum3 N (fun p q r => g n p q r * cd t u m p q r - g p m q r * cd t u p n q r
                                         + g p q n r * cd t u p q m r - g p q r m * cd t u p q r n).
    Proof.
      rewrite sum3_sub, sum3_add, sum3_sub, P1, P2, P3, P4.
      unfold hessian_A2e.
      rewrite (loop_sum A _ (fun p => sumn A (fun q => sumn A (fun r =>
         - (kdelta u m * (g n p q r * G2 t p q r)) - kdelta t n * (g p m q r * G2 p u q r)
         - kdelta u m * (g p q n r * G2 p q t r) - kdelta t n * (g p q r m * G2 p q r u))))).
      2:{ intros p a Hp. apply loop_sum. intros q a' Hq. apply loop_sum. intros r a2 Hr. rewrite !R2 by lia.
          rewrite (kdelta_sym u m). unfold kdelta. destruct (Nat.eqb_spec m u), (Nat.eqb_spec t n); ring. }
      rewrite (loop_sum A _ (fun p => sumn A (fun q =>
         g n t p q * G2 m u p q - g n p u q * G2 m p t q + g n p q t * G2 m p q u + g u m p q * G2 t n p q
         + g p m u q * G2 p n t q - g p m q t * G2 p n q u - g u p n q * G2 t p m q + g p t n q * G2 p u m q
         + g p q n t * G2 p q m u + g u p q m * G2 t p q n - g p t q m * G2 p u q n + g p q u m * G2 p q t n))).
      2:{ intros p a Hp. apply loop_sum. intros q a' Hq. rewrite !R2 by lia. ring. }
      change (0 + S2 (fun p q => g n t p q * G2 m u p q - g n p u q * G2 m p t q + g n p q t * G2 m p q u + g u m p q * G2 t n p q
         + g p m u q * G2 p n t q - g p m q t * G2 p n q u - g u p n q * G2 t p m q + g p t n q * G2 p u m q
         + g p q n t * G2 p q m u + g u p q m * G2 t p q n - g p t q m * G2 p u q n + g p q u m * G2 p q t n)
        + S3 (fun p q r => - (kdelta u m * (g n p q r * G2 t p q r)) - kdelta t n * (g p m q r * G2 p u q r)
         - kdelta u m * (g p q n r * G2 p q t r) - kdelta t n * (g p q r m * G2 p q r u))
        = - (kdelta u m * S3 (fun p q r => g n p q r * G2 t p q r) - S2 (fun p q => g n t p q * G2 m u p q)
        + S2 (fun p q => g n p u q * G2 m p t q) - S2 (fun p q => g n p q t * G2 m p q u)
        - (S2 (fun p q => g u m p q * G2 t n p q) - kdelta t n * S3 (fun p q r => g p m q r * G2 p u q r)
        + S2 (fun p q => g p m u q * G2 p n t q) - S2 (fun p q => g p m q t * G2 p n q u))
        + (S2 (fun p q => g u p n q * G2 t p m q) - S2 (fun p q => g p t n q * G2 p u m q)
        + kdelta u m * S3 (fun p q r => g p q n r * G2 p q t r) - S2 (fun p q => g p q n t * G2 p q m u))
        - (S2 (fun p q => g u p q m * G2 t p q n) - S2 (fun p q => g p t q m * G2 p u q n)
        + S2 (fun p q => g p q u m * G2 p q t n) - kdelta t n * S3 (fun p q r => g p q r m * G2 p q r u)))).
      repeat (rewrite sum2_add || rewrite sum2_sub).
      rewrite !sum3_sub, !sum3_scale.
      rewrite (sum3_ext A (fun p q r => - (kdelta u m * (g n p q r * G2 t p q r))) (fun p q r => (- kdelta u m) * (g n p q r * G2 t p q r)))
        by (intros; ring).
      rewrite sum3_scale. ring.
    Qed.

    Lemma hess_ok : hessian_elem half h g ni na rdm1 rdm2 (t, u) (m, n) = half * ev (comm (Eact t u) (comm H (Eact m n))).
    Proof. unfold hessian_elem. rewrite hess_1e, hess_2e, ev_double. ring. Qed.
  End Hessian.
End Response.
