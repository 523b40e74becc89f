(** The density-matrix functions as expectation values. *)
From Coq Require Import List Bool Arith NArith Lia Ring Permutation.
From Verif Require Import Base Fock FockMore OperatorsModel OperatorsProofs OperatorsSums OperatorsActs OperatorsActive
  Props_Operators FockInner DensityModel DensityProofs.
Import ListNotations.

Section Expect.
  Context {K : Type} {C : CRing K}.
  Local Open Scope K_scope.
  Add Ring KringDE : (@rth K C).
  Variables (N ni na : nat) (psi : amps (K:=K)).
  Hypothesis HN : (ni + na <= N)%nat.
  Hypothesis Hs : supp ni na psi.

  Definition G1 (p q : nat) : K := ip (2 * N) psi (Eact p q psi).
  Definition G2 (p q r s : nat) : K := ip (2 * N) psi (eact p q r s psi).

  Lemma crea_inactive p x : (p < 2 * ni)%nat -> app1 (p, true) psi x = 0.
  Proof.
    intros Hp. unfold app1. cbn [fst snd]. destruct (occ x p) eqn:E; [|reflexivity]. cbn [Bool.eqb].
    rewrite Hs; [apply sgn_0|]. intros [H _]. specialize (H p Hp). rewrite occ_flip_same, E in H. discriminate.
  Qed.
  Lemma anni_virtual p x : (2 * (ni + na) <= p)%nat -> app1 (p, false) psi x = 0.
  Proof.
    intros Hp. unfold app1. cbn [fst snd]. destruct (occ x p) eqn:E; [reflexivity|]. cbn [Bool.eqb].
    rewrite Hs; [apply sgn_0|]. intros [_ H]. specialize (H p Hp). rewrite occ_flip_same, E in H. discriminate.
  Qed.

  Lemma ek_virtual L x : (exists pq, In pq L /\ (ni + na <= snd pq)%nat) -> ek L psi x = 0.
  Proof.
    intros ([p q] & Hin & Hq). cbn [snd] in Hq. apply in_split in Hin as (L1 & L2 & ->).
    rewrite (ek_perm _ ((p, q) :: L1 ++ L2)) by (symmetry; apply Permutation_middle). cbn [ek].
    rewrite !app1_zero; [ring| |]; intros y; apply ek_zero; intros z; apply anni_virtual; unfold so; lia.
  Qed.

  Lemma E_inactive i q x : (i < ni)%nat -> Eact i q psi x = (1 + 1) * kdelta i q * psi x.
  Proof.
    intros Hi. unfold Eact, pairop. rewrite (car_gen (2 * i, true)%nat), (car_gen (2 * i + 1, true)%nat).
    rewrite !(app1_zero (_, false)) by (intros; apply crea_inactive; lia).
    unfold cdelta, kdelta. cbn [fst snd xorb]. rewrite !andb_true_r.
    destruct (Nat.eqb_spec i q), (Nat.eqb_spec (2 * i) (2 * q)), (Nat.eqb_spec (2 * i + 1) (2 * q + 1)); try lia; ring.
  Qed.

  Lemma G1_ek p q : G1 p q = ip (2 * N) psi (ek [(p, q)] psi).
  Proof. reflexivity. Qed.
  Lemma G2_ek p q r s : G2 p q r s = ip (2 * N) psi (ek [(p, q); (r, s)] psi).
  Proof. apply ip_ext; [reflexivity|]. intros x. now rewrite ek_two. Qed.
  Lemma G1_sym p q : (p < N)%nat -> (q < N)%nat -> G1 p q = G1 q p.
  Proof.
    intros Hp Hq. rewrite !G1_ek, ip_ek; [apply ip_sym|]. intros pq [<-|[]]. auto.
  Qed.
  Lemma G2_exchange p q r s : G2 p q r s = G2 r s p q.
  Proof. apply ip_ext; [reflexivity|]. intros x. apply eact_exchange. Qed.
  Lemma G2_adj p q r s : (p < N)%nat -> (q < N)%nat -> (r < N)%nat -> (s < N)%nat -> G2 p q r s = G2 q p s r.
  Proof.
    intros Hp Hq Hr Hs'. rewrite !G2_ek, ip_ek; [apply ip_sym|]. intros pq [<-|[<-|[]]]; auto.
  Qed.
  Lemma G1_virtual p q : (p < N)%nat -> (q < N)%nat -> (ni + na <= p \/ ni + na <= q)%nat -> G1 p q = 0.
  Proof.
    intros Hp Hq [H|H]; [rewrite G1_sym by auto|]; rewrite G1_ek; apply ip_zero; intros x; apply ek_virtual;
      (eexists; split; [left; reflexivity|exact H]).
  Qed.
  Lemma G2_virtual p q r s : (p < N)%nat -> (q < N)%nat -> (r < N)%nat -> (s < N)%nat ->
    (ni + na <= p \/ ni + na <= q \/ ni + na <= r \/ ni + na <= s)%nat -> G2 p q r s = 0.
  Proof.
    intros Hp Hq Hr Hs' [H|[H|[H|H]]].
    - rewrite G2_adj by auto. rewrite G2_ek. apply ip_zero. intros x. apply ek_virtual. eexists. split; [left; reflexivity|exact H].
    - rewrite G2_ek. apply ip_zero. intros x. apply ek_virtual. eexists. split; [left; reflexivity|exact H].
    - rewrite G2_adj by auto. rewrite G2_ek. apply ip_zero. intros x. apply ek_virtual. eexists. split; [right; left; reflexivity|exact H].
    - rewrite G2_ek. apply ip_zero. intros x. apply ek_virtual. eexists. split; [right; left; reflexivity|exact H].
  Qed.

  Hypothesis Hnorm : ip (2 * N) psi psi = 1.

  Lemma G1_inactive i q : (i < ni)%nat -> G1 i q = (1 + 1) * kdelta i q.
  Proof.
    intros Hi. unfold G1. rewrite (ip_ext _ psi psi _ (fun x => ((1 + 1) * kdelta i q) * psi x)); auto.
    - rewrite ip_scale, Hnorm. ring.
    - intros x. rewrite E_inactive by auto. reflexivity.
  Qed.
  Lemma G2_inactive_r p q r s : (r < ni)%nat -> G2 p q r s = (1 + 1) * kdelta r s * G1 p q - kdelta q r * G1 p s.
  Proof.
    intros Hr. unfold G2.
    rewrite (ip_ext _ psi psi _ (fun x => ((1 + 1) * kdelta r s) * Eact p q psi x - kdelta q r * Eact p s psi x)); auto.
    - rewrite ip_sub, !(ip_scale (2 * N)). reflexivity.
    - intros x. rewrite eact_E. rewrite (Eact_ext p q (Eact r s psi) (fun e => ((1 + 1) * kdelta r s) * psi e))
        by (intros; now apply E_inactive). now rewrite (Eact_scale p q).
  Qed.

  Variables (rdm1 : nat -> nat -> K) (rdm2 : nat -> nat -> nat -> nat -> K).
  Hypothesis Hr1 : forall i j, (i < na)%nat -> (j < na)%nat -> rdm1 i j = G1 (ni + i) (ni + j).
  Hypothesis Hr2 : forall i j k l, (i < na)%nat -> (j < na)%nat -> (k < na)%nat -> (l < na)%nat ->
    rdm2 i j k l = G2 (ni + i) (ni + j) (ni + k) (ni + l).

  Lemma rdm1_G1 p q : (ni <= p < ni + na)%nat -> (ni <= q < ni + na)%nat -> rdm1 (p - ni)%nat (q - ni)%nat = G1 p q.
  Proof. intros Hp Hq. rewrite Hr1 by lia. f_equal; lia. Qed.

  Lemma RDM1_ok p q : (p < N)%nat -> (q < N)%nat -> RDM1 p q ni na rdm1 = G1 p q.
  Proof.
    intros Hp Hq. unfold RDM1.
    destruct (Nat.leb_spec (ni + na) p) as [Lp|Lp]; cbn [orb]; [rewrite G1_virtual; auto|].
    destruct (Nat.leb_spec (ni + na) q) as [Lq|Lq]; [rewrite G1_virtual; auto|].
    destruct (Nat.leb_spec ni p) as [Ap|Ap]; cbn [andb].
    - destruct (Nat.leb_spec ni q) as [Aq|Aq]; [apply rdm1_G1; lia|].
      destruct (Nat.ltb_spec p ni); [lia|]. cbn [andb]. rewrite G1_sym, G1_inactive by auto. rewrite kdelta_diff by lia. ring.
    - destruct (Nat.ltb_spec p ni); [|lia]. cbn [andb]. rewrite G1_inactive by auto. unfold kdelta, k2.
      destruct (Nat.ltb_spec q ni).
      + destruct (Nat.eqb_spec p q); ring.
      + destruct (Nat.eqb_spec p q); [lia|ring].
  Qed.

  Lemma RDM2_ok p q r s : (p < N)%nat -> (q < N)%nat -> (r < N)%nat -> (s < N)%nat -> RDM2 p q r s ni na rdm1 rdm2 = G2 p q r s.
  Proof.
    intros Hp Hq Hr Hs'. unfold RDM2.
    destruct (Nat.leb_spec (ni + na) p) as [Lp|Lp]; cbn [orb]; [rewrite G2_virtual; auto|].
    destruct (Nat.leb_spec (ni + na) q) as [Lq|Lq]; cbn [orb]; [rewrite G2_virtual; auto|].
    destruct (Nat.leb_spec (ni + na) r) as [Lr|Lr]; cbn [orb]; [rewrite G2_virtual; auto|].
    destruct (Nat.leb_spec (ni + na) s) as [Ls|Ls]; cbn [orb]; [rewrite G2_virtual; auto 6|].
    assert (forall x, (ni <=? x)%nat = negb (x <? ni)%nat) as Hneg by (intros; apply Nat.leb_antisym). rewrite !Hneg. clear Hneg.
    destruct (Nat.ltb_spec r ni) as [Ar|Ar].
    { (* r inactive *)
      rewrite G2_inactive_r by auto.
      destruct (Nat.ltb_spec p ni) as [Ap|Ap], (Nat.ltb_spec q ni) as [Aq|Aq], (Nat.ltb_spec s ni) as [As|As];
        cbn [negb andb].
      - rewrite !G1_inactive by auto. unfold kdelta, k2, k4, k2.
        destruct (Nat.eqb_spec p q), (Nat.eqb_spec r s), (Nat.eqb_spec q r), (Nat.eqb_spec p s); cbn [andb]; try lia; ring.
      - rewrite !G1_inactive by auto. unfold kdelta.
        destruct (Nat.eqb_spec r s), (Nat.eqb_spec p s); try lia; ring.
      - rewrite !G1_inactive by auto. unfold kdelta.
        destruct (Nat.eqb_spec p q), (Nat.eqb_spec q r); try lia; ring.
      - rewrite !G1_inactive by auto. unfold kdelta.
        destruct (Nat.eqb_spec p q), (Nat.eqb_spec q r); try lia; ring.
      - rewrite (G1_sym p q), (G1_sym p s), !G1_inactive by auto. unfold kdelta.
        destruct (Nat.eqb_spec q p), (Nat.eqb_spec s p); try lia; ring.
      - rewrite (kdelta_diff r s) by lia. rewrite <- (rdm1_G1 p s) by lia. unfold kdelta.
        destruct (Nat.eqb_spec q r); ring.
      - rewrite (kdelta_diff q r) by lia. rewrite <- (rdm1_G1 p q) by lia. unfold kdelta, k2.
        destruct (Nat.eqb_spec r s); ring.
      - rewrite (kdelta_diff q r), (kdelta_diff r s) by lia. ring. }
    destruct (Nat.ltb_spec p ni) as [Ap|Ap].
    { rewrite G2_exchange, G2_inactive_r by auto.
      destruct (Nat.ltb_spec q ni) as [Aq|Aq], (Nat.ltb_spec s ni) as [As|As]; cbn [negb andb].
      - rewrite (G1_sym r q), (G1_sym r s), !G1_inactive by auto. unfold kdelta.
        destruct (Nat.eqb_spec q r), (Nat.eqb_spec s r); try lia; ring.
      - rewrite (kdelta_diff s p) by lia. rewrite <- (rdm1_G1 r s) by lia. unfold kdelta, k2.
        destruct (Nat.eqb_spec p q); ring.
      - rewrite (kdelta_diff p q) by lia. rewrite (G1_sym r q) by auto. rewrite <- (rdm1_G1 q r) by lia. unfold kdelta.
        rewrite (Nat.eqb_sym s p). destruct (Nat.eqb_spec p s); ring.
      - rewrite (kdelta_diff p q), (kdelta_diff s p) by lia. ring. }
    destruct (Nat.ltb_spec s ni) as [As|As].
    { rewrite G2_adj, G2_inactive_r by auto. rewrite (kdelta_diff s r), (kdelta_diff p s) by lia.
      destruct (Nat.ltb_spec q ni) as [Aq|Aq]; cbn [negb andb]; ring. }
    destruct (Nat.ltb_spec q ni) as [Aq|Aq]; cbn [negb andb].
    - rewrite G2_exchange, G2_adj, G2_inactive_r by auto. rewrite (kdelta_diff q p), (kdelta_diff r q) by lia. ring.
    - rewrite Hr2 by lia. f_equal; lia.
  Qed.

  (** ** Sums over the whole orbital space *)
  Notation A := (ni + na)%nat.

  Lemma ip_sumn n (F : nat -> amps (K:=K)) : ip (2 * N) psi (fun x => sumn n (fun i => F i x)) = sumn n (fun i => ip (2 * N) psi (F i)).
  Proof. apply ip_lsum. Qed.

  Lemma restrict2 (F : nat -> nat -> K) :
    (forall p q, (p < N)%nat -> (q < N)%nat -> (A <= p \/ A <= q)%nat -> F p q = 0) ->
    sumn N (fun p => sumn N (F p)) = sumn A (fun p => sumn A (F p)).
  Proof.
    intros H. rewrite (sumn_restrict N A).
    - apply sumn_ext. intros p Hp. apply sumn_restrict; [lia|]. intros q Hq. apply H; lia.
    - lia.
    - intros p Hp. apply sumn_zero. intros q Hq. apply H; lia.
  Qed.
  Lemma restrict3 (F : nat -> nat -> nat -> K) :
    (forall p q r, (p < N)%nat -> (q < N)%nat -> (r < N)%nat -> (A <= p \/ A <= q \/ A <= r)%nat -> F p q r = 0) ->
    sumn N (fun p => sumn N (fun q => sumn N (F p q))) = sumn A (fun p => sumn A (fun q => sumn A (F p q))).
  Proof.
    intros H. rewrite (sumn_restrict N A).
    - apply sumn_ext. intros p Hp. apply restrict2. intros q r Hq Hr Hv. apply H; lia.
    - lia.
    - intros p Hp. apply sumn_zero. intros q Hq. apply sumn_zero. intros r Hr. apply H; lia.
  Qed.
  Lemma restrict4 (F : nat -> nat -> nat -> nat -> K) :
    (forall p q r s, (p < N)%nat -> (q < N)%nat -> (r < N)%nat -> (s < N)%nat ->
       (A <= p \/ A <= q \/ A <= r \/ A <= s)%nat -> F p q r s = 0) ->
    sumn N (fun p => sumn N (fun q => sumn N (fun r => sumn N (F p q r))))
    = sumn A (fun p => sumn A (fun q => sumn A (fun r => sumn A (F p q r)))).
  Proof.
    intros H. rewrite (sumn_restrict N A).
    - apply sumn_ext. intros p Hp. apply restrict3. intros q r s Hq Hr Hs' Hv. apply H; lia.
    - lia.
    - intros p Hp. apply sumn_zero. intros q Hq. apply sumn_zero. intros r Hr. apply sumn_zero. intros s Hs'. apply H; lia.
  Qed.

  Lemma energy_ok half h g : get_electronic_energy half h g ni na rdm1 rdm2 = ip (2 * N) psi (Hact half h g N psi).
  Proof.
    transitivity (sumn N (fun p => sumn N (fun q => h p q * G1 p q))
       + half * sumn N (fun p => sumn N (fun q => sumn N (fun r => sumn N (fun s => g p q r s * G2 p q r s))))).
    - rewrite restrict2 by (intros; rewrite G1_virtual by auto; ring).
      rewrite restrict4 by (intros; rewrite G2_virtual by auto; ring).
      unfold get_electronic_energy.
      rewrite (loop_sum A _ (fun p => sumn A (fun q => h p q * G1 p q)) 0).
      + rewrite (loop_sum A _ (fun p => half * sumn A (fun q => sumn A (fun r => sumn A (fun s => g p q r s * G2 p q r s))))).
        * rewrite sumn_scale. ring.
        * intros p a Hp. rewrite <- sumn_scale. apply loop_sum. intros q a' Hq. rewrite <- sumn_scale. apply loop_sum. intros r a2 Hr.
          rewrite <- sumn_scale. apply loop_sum. intros s a3 Hs'. rewrite RDM2_ok by lia. ring.
      + intros p a Hp. apply loop_sum. intros q a' Hq. rewrite RDM1_ok by lia. reflexivity.
    - unfold Hact. rewrite ip_add, (ip_scale (2 * N)), !ip_sumn. f_equal; [|f_equal].
      + apply sumn_ext. intros p Hp. rewrite ip_sumn. apply sumn_ext. intros q Hq. now rewrite (ip_scale (2 * N)).
      + apply sumn_ext. intros p Hp. rewrite ip_sumn. apply sumn_ext. intros q Hq. rewrite ip_sumn. apply sumn_ext. intros r Hr.
        rewrite ip_sumn. apply sumn_ext. intros s Hs'. rewrite (ip_scale (2 * N)). f_equal. apply ip_ext; [reflexivity|].
        intros x. now rewrite eop_eact.
  Qed.

  (** Expectation value of a commutator with the Hamiltonian. *)
  Lemma ev_hcomm half h g m k : (m < N)%nat -> (k < N)%nat ->
    ip (2 * N) psi (hcomm half h g N m k psi)
    = sumn A (fun p => h k p * G1 m p - h p m * G1 p k)
      + half * sumn A (fun p => sumn A (fun q => sumn A (fun r =>
          g k p q r * G2 m p q r - g p m q r * G2 p k q r + g p q k r * G2 p q m r - g p q r m * G2 p q r k))).
  Proof.
    intros Hm Hk. unfold hcomm. rewrite ip_add, (ip_scale (2 * N)), !ip_sumn.
    rewrite (sumn_ext N _ (fun p => h k p * G1 m p - h p m * G1 p k)) by (intros; now rewrite ip_sub, !(ip_scale (2 * N))).
    rewrite (sumn_ext N (fun i => ip (2 * N) psi (fun x => sumn N _)) (fun p => sumn N (fun q => sumn N (fun r =>
          g k p q r * G2 m p q r - g p m q r * G2 p k q r + g p q k r * G2 p q m r - g p q r m * G2 p q r k)))).
    - rewrite (sumn_restrict N A), (restrict3 (fun p q r => g k p q r * G2 m p q r - g p m q r * G2 p k q r
          + g p q k r * G2 p q m r - g p q r m * G2 p q r k)); auto.
      + intros p q r Hp Hq Hr H. rewrite !G2_virtual by intuition auto. ring.
      + intros p Hp. rewrite !G1_virtual by (auto; lia). ring.
    - intros p _. rewrite ip_sumn. apply sumn_ext. intros q _. rewrite ip_sumn. apply sumn_ext. intros r _.
      rewrite ip_sub, ip_add, ip_sub, !(ip_scale (2 * N)). reflexivity.
  Qed.
End Expect.
