(** The active-space Hamiltonian against the full one. *)
From Coq Require Import List Bool Arith NArith ZArith Lia Ring Sorted Permutation.
From Verif Require Import Base Fock FockMore FermiModel FermiProofs FermiAlgebra OperatorsModel OperatorsProofs OperatorsSums OperatorsActs.
Import ListNotations.

(** Occupation change caused by a string. *)
Definition dw (p : nat) : nat -> Z := fun q => if Nat.eqb p q then 1%Z else 0%Z.
Definition b2z (b : bool) : Z := if b then 1%Z else 0%Z.

Lemma actdet_chg s x sg y p : actdet s x = Some (sg, y) ->
  (b2z (occ y p) = b2z (occ x p) + chg (dw p) s)%Z.
Proof.
  revert sg y. induction s as [|[q a] s IH]; intros sg y H; cbn [actdet chg] in *.
  - inversion H; subst. lia.
  - destruct (actdet s x) as [[sg' e]|] eqn:E; [|discriminate].
    cbn [fst snd] in H. specialize (IH _ _ eq_refl).
    assert (Hocc : forall (b : bool), occ e q = b -> occ (flip e q) p = if Nat.eqb p q then negb b else occ e p).
    { intros b Hb. destruct (Nat.eqb_spec p q) as [->|Hne]; [now rewrite occ_flip_same, Hb|].
      rewrite occ_flip_other; auto. }
    destruct (occ e q) eqn:Eo, a; try discriminate H; inversion H; subst; clear H;
      rewrite (Hocc _ eq_refl); unfold dw at 1; destruct (Nat.eqb_spec p q) as [->|]; rewrite ?Eo in *;
      simpl b2z in *; lia.
Qed.

(** Determinants of the active space: inactive spin orbitals filled, virtual ones
    empty. *)
Definition asp (ni na : nat) (x : det) : Prop :=
  (forall p, p < 2 * ni -> occ x p = true) /\ (forall p, 2 * (ni + na) <= p -> occ x p = false).

Lemma asp_dec ni na x : asp ni na x \/ ~ asp ni na x.
Proof.
  assert (H1 : forall m, (forall p, p < m -> occ x p = true) \/ ~ (forall p, p < m -> occ x p = true)).
  { induction m as [|m [IH|IH]].
    - left. intros; lia.
    - destruct (occ x m) eqn:E.
      + left. intros p Hp. destruct (Nat.eq_dec p m) as [->|]; auto. apply IH. lia.
      + right. intros H. rewrite H in E by lia. discriminate.
    - right. intros H. apply IH. intros; apply H; lia. }
  assert (H2 : forall m, (forall p, m <= p -> occ x p = false) \/ ~ (forall p, m <= p -> occ x p = false)).
  { intros m. destruct (N.eqb_spec (N.shiftr x (N.of_nat m)) 0) as [E|E].
    - left. intros p Hp. unfold occ. replace (N.of_nat p) with (N.of_nat (p - m) + N.of_nat m)%N by lia.
      rewrite <- N.shiftr_spec by lia. rewrite E. apply N.bits_0.
    - right. intros H. apply E. apply N.bits_inj_0. intros n. rewrite N.shiftr_spec by lia.
      specialize (H (N.to_nat n + m)). unfold occ in H. rewrite <- H by lia. f_equal. lia. }
  destruct (H1 (2 * ni)) as [A|A], (H2 (2 * (ni + na))) as [B|B]; unfold asp; tauto.
Qed.

Lemma in_L1_intro ni na p q :
  (p = q /\ p < ni) \/ (ni <= p < ni + na /\ ni <= q < ni + na) -> In (p, q) (L1 ni na).
Proof.
  intros H. unfold L1. apply in_or_app. destruct H as [[-> H]|[H1 H2]].
  - left. apply in_map_iff. exists q. split; auto. apply in_seq. lia.
  - right. apply in_pairs. rewrite !in_seq. lia.
Qed.

Lemma in_L1 ni na p q : In (p, q) (L1 ni na) ->
  (p = q /\ p < ni) \/ (ni <= p < ni + na /\ ni <= q < ni + na).
Proof.
  unfold L1. rewrite in_app_iff, in_map_iff, in_pairs, !in_seq.
  intros [(i & E & H)|H]; [inversion E; subst; apply in_seq in H; lia|lia].
Qed.

Definition sel2 (ni na p q r s : nat) : Prop :=
  p < ni + na /\ q < ni + na /\ r < ni + na /\ s < ni + na /\
  ((p = q /\ p < ni /\ r = s /\ r < ni) \/ (p = s /\ p < ni /\ q = r /\ q < ni) \/
   (p = q /\ p < ni /\ ni <= r /\ ni <= s) \/ (r = s /\ r < ni /\ ni <= p /\ ni <= q) \/
   (q = r /\ q < ni /\ ni <= p /\ ni <= s) \/ (p = s /\ p < ni /\ ni <= q /\ ni <= r) \/
   (ni <= p /\ ni <= q /\ ni <= r /\ ni <= s)).

Lemma in_ipq ni na i p q :
  In (i, (p, q)) (flat_map (fun i => map (fun pq => (i, pq)) (pairs (seq ni na) (seq ni na))) (seq 0 ni))
  <-> i < ni /\ ni <= p < ni + na /\ ni <= q < ni + na.
Proof.
  rewrite in_flat_map. split.
  - intros (j & Hj & H). apply in_map_iff in H. destruct H as ([a b] & E & H). inversion E; subst.
    apply in_pairs in H. rewrite !in_seq in *. lia.
  - intros (H1 & H2 & H3). exists i. split; [apply in_seq; lia|]. apply in_map_iff.
    exists (p, q). split; auto. apply in_pairs. rewrite !in_seq. lia.
Qed.

Lemma in_L2_intro ni na p q r s : sel2 ni na p q r s -> In ((p, q), (r, s)) (L2 ni na).
Proof.
  intros (H1 & H2 & H3 & H4 & H). unfold L2. rewrite !in_app_iff.
  destruct H as [(-> & Hp & -> & Hr)|[(-> & Hp & -> & Hr)|H]].
  - left. apply in_flat_map. exists (q, s). split; [apply in_pairs; rewrite !in_seq; lia|]. now left.
  - left. apply in_flat_map. destruct (Nat.eq_dec s r) as [->|Hne].
    + exists (r, r). split; [apply in_pairs; rewrite !in_seq; lia|]. now left.
    + exists (r, s). split; [apply in_pairs; rewrite !in_seq; lia|]. right.
      destruct (Nat.eqb_spec r s); [congruence|]. now left.
  - right. destruct H as [(-> & Hp & Hr & Hs)|[(-> & Hp & Hr & Hs)|[(-> & Hp & Hr & Hs)|[(-> & Hp & Hr & Hs)|H]]]].
    + left. apply in_flat_map. exists (q, (r, s)). split; [apply in_ipq; lia|]. simpl; auto.
    + left. apply in_flat_map. exists (s, (p, q)). split; [apply in_ipq; lia|]. simpl; auto.
    + left. apply in_flat_map. exists (r, (p, s)). split; [apply in_ipq; lia|]. simpl; auto.
    + left. apply in_flat_map. exists (s, (q, r)). split; [apply in_ipq; lia|]. simpl; auto.
    + right. apply in_quads. rewrite !in_seq. lia.
Qed.

Lemma in_L2 ni na p q r s : In ((p, q), (r, s)) (L2 ni na) -> sel2 ni na p q r s.
Proof.
  unfold L2, sel2. rewrite !in_app_iff, !in_flat_map. intros [(x & Hx & H)|[(x & Hx & H)|H]].
  - destruct x as [i j]. apply in_pairs in Hx. rewrite !in_seq in Hx.
    destruct H as [E|H]; [inversion E; subst; lia|].
    destruct (Nat.eqb_spec i j); [destruct H|]. destruct H as [E|[]]. inversion E; subst; lia.
  - destruct x as [i [a b]]. apply in_ipq in Hx.
    destruct H as [E|[E|[E|[E|[]]]]]; inversion E; subst; lia.
  - apply in_quads in H. rewrite !in_seq in H. lia.
Qed.

Lemma NoDup_L1 ni na : NoDup (L1 ni na).
Proof.
  unfold L1. apply NoDup_app_disj.
  - apply NoDup_map_inj; [intros a b E; now inversion E|apply seq_NoDup].
  - apply NoDup_pairs; apply seq_NoDup.
  - intros [a b] H. apply in_map_iff in H. destruct H as (i & E & H). inversion E; subst.
    rewrite in_pairs, !in_seq in *. lia.
Qed.

Lemma NoDup_L2 ni na : NoDup (L2 ni na).
Proof.
  unfold L2. apply NoDup_app_disj; [|apply NoDup_app_disj|].
  - apply (NoDup_flat_map _ (fun t : nat * nat * (nat * nat) =>
      if Nat.eqb (fst (fst t)) (snd (fst t)) then (fst (fst t), fst (snd t)) else (snd (fst t), fst (fst t)))).
    + apply NoDup_pairs; apply seq_NoDup.
    + intros [i j] _. destruct (Nat.eqb_spec i j); repeat constructor; simpl; auto.
      intros [E|[]]. inversion E; subst; congruence.
    + intros [i j] t _ [<-|H]; simpl; [now rewrite Nat.eqb_refl|].
      destruct (Nat.eqb_spec i j); [destruct H|]. destruct H as [<-|[]]. simpl.
      destruct (Nat.eqb_spec j i); congruence.
  - set (lo := fun a => Nat.ltb a ni).
    apply (NoDup_flat_map _ (fun t : nat * nat * (nat * nat) =>
      let '((a, b), (c, d)) := t in
      if lo a then (if lo b then (a, (c, d)) else (a, (b, c))) else
      if lo b then (b, (a, d)) else (c, (a, b)))).
    + apply (NoDup_flat_map _ fst); [apply seq_NoDup| |].
      * intros i _. apply NoDup_map_inj; [intros a b E; now inversion E|]. apply NoDup_pairs; apply seq_NoDup.
      * intros i [a b] _ H. apply in_map_iff in H. destruct H as (x & E & _). now inversion E.
    + intros [i [p q]] H. apply in_ipq in H. repeat constructor; simpl;
        intuition; repeat match goal with E : (_, _) = (_, _) |- _ => inversion E; clear E; subst end; lia.
    + intros [i [p q]] [[a b] [c d]] H Hin. apply in_ipq in H. unfold lo.
      destruct Hin as [E|[E|[E|[E|[]]]]]; inversion E; subst;
      repeat match goal with |- context [Nat.ltb ?u ni] => destruct (Nat.ltb_spec u ni); try lia end; auto.
  - apply NoDup_quads, seq_NoDup.
  - intros [[a b] [c d]] H H'. apply in_flat_map in H. destruct H as ([i [p q]] & Hx & H).
    apply in_ipq in Hx. apply in_quads in H'. rewrite !in_seq in H'.
    destruct H as [E|[E|[E|[E|[]]]]]; inversion E; subst; lia.
  - intros [[a b] [c d]] H H'. apply in_flat_map in H. destruct H as ([i j] & Hx & H).
    apply in_pairs in Hx. rewrite !in_seq in Hx.
    assert (Hlt : a < ni /\ b < ni /\ c < ni /\ d < ni).
    { destruct H as [E|H]; [inversion E; subst; lia|]. destruct (Nat.eqb i j); [destruct H|].
      destruct H as [E|[]]; inversion E; subst; lia. }
    apply in_app_or in H'. destruct H' as [H'|H'].
    + apply in_flat_map in H'. destruct H' as ([i' [p q]] & Hx' & H').
      apply in_ipq in Hx'. destruct H' as [E|[E|[E|[E|[]]]]]; inversion E; subst; lia.
    + apply in_quads in H'. rewrite !in_seq in H'. lia.
Qed.

Section Active.
  Context {K : Type} {C : CRing K}.
  Local Open Scope K_scope.
  Add Ring KringAA : (@rth K C).
  Notation dict := (list (fstring * K)).

  (** States of the active space. *)
  Definition supp (ni na : nat) (f : amps (K:=K)) : Prop := forall y, ~ asp ni na y -> f y = 0.

  Lemma pairop_active ni na p q (f : amps) x : asp ni na x -> supp ni na f ->
    pairop p q f x = 0 \/
    (p < 2 * (ni + na) /\ q < 2 * (ni + na) /\ (p < 2 * ni \/ q < 2 * ni -> p = q))%nat.
  Proof.
    intros Hx Hf. rewrite pairop_str, appstr_gather.
    change (adjstr [(p, true); (q, false)]) with [(q, true); (p, false)].
    destruct (actdet [(q, true); (p, false)] x) as [[sg y]|] eqn:E; [|now left].
    destruct (asp_dec ni na y) as [Hy|Hy]; [right|left; rewrite Hf by auto; apply sgn_0].
    assert (Hp : occ x p = true).
    { cbn [actdet fst snd] in E. destruct (occ x p); auto; discriminate. }
    assert (Hc := fun i => actdet_chg _ _ _ _ i E). cbn [chg] in Hc. unfold dw in Hc.
    destruct Hx as [X1 X2], Hy as [Y1 Y2].
    assert (Hpv : (p < 2 * (ni + na))%nat).
    { destruct (le_lt_dec (2 * (ni + na)) p); auto. rewrite X2 in Hp; [discriminate|auto]. }
    assert (Hqv : (q < 2 * (ni + na))%nat).
    { destruct (le_lt_dec (2 * (ni + na)) q) as [Hq|]; auto. specialize (Hc q).
      rewrite (X2 q Hq), (Y2 q Hq), Nat.eqb_refl in Hc. destruct (Nat.eqb_spec q p); [lia|simpl in Hc; lia]. }
    split; [auto|split; [auto|]]. intros [Hi|Hi].
    - specialize (Hc p). rewrite (X1 p Hi), (Y1 p Hi), Nat.eqb_refl in Hc.
      destruct (Nat.eqb_spec p q); [auto|simpl in Hc; lia].
    - specialize (Hc q). rewrite (X1 q Hi), (Y1 q Hi), Nat.eqb_refl in Hc.
      destruct (Nat.eqb_spec q p); [auto|simpl in Hc; lia].
  Qed.

  Lemma quadop_active ni na p q r s (f : amps) x : asp ni na x -> supp ni na f ->
    quadop p q r s f x = 0 \/
    (p < 2 * (ni + na) /\ q < 2 * (ni + na) /\ r < 2 * (ni + na) /\ s < 2 * (ni + na) /\
     p <> r /\ q <> s /\
     (p < 2 * ni -> p = q \/ p = s) /\ (r < 2 * ni -> r = q \/ r = s) /\
     (q < 2 * ni -> q = p \/ q = r) /\ (s < 2 * ni -> s = p \/ s = r))%nat.
  Proof.
    intros Hx Hf. rewrite quadop_str, appstr_gather.
    change (adjstr [(p, true); (r, true); (s, false); (q, false)])
      with [(q, true); (s, true); (r, false); (p, false)].
    destruct (actdet [(q, true); (s, true); (r, false); (p, false)] x) as [[sg y]|] eqn:E; [|now left].
    destruct (asp_dec ni na y) as [Hy|Hy]; [right|left; rewrite Hf by auto; apply sgn_0].
    assert (Hc := fun i => actdet_chg _ _ _ _ i E). cbn [chg] in Hc. unfold dw in Hc.
    destruct Hx as [X1 X2], Hy as [Y1 Y2].
    assert (Hpr : p <> r).
    { intros ->. cbn [actdet fst snd] in E. destruct (occ x r) eqn:Er; [|discriminate].
      cbn in E. rewrite occ_flip_same, Er in E. discriminate. }
    assert (Hp : occ x p = true).
    { cbn [actdet fst snd] in E. destruct (occ x p); auto; discriminate. }
    assert (Hr : occ x r = true).
    { cbn [actdet fst snd] in E. destruct (occ x p); [|discriminate].
      cbn in E. rewrite occ_flip_other in E by auto. destruct (occ x r); auto; discriminate. }
    assert (Hqs : q <> s).
    { intros ->. apply actdet_adj in E.
      change (adjstr [(s, true); (s, true); (r, false); (p, false)])
        with [(p, true); (r, true); (s, false); (s, false)] in E.
      cbn [actdet fst snd] in E. destruct (occ y s) eqn:Er; [|discriminate].
      cbn in E. rewrite occ_flip_same, Er in E. discriminate. }
    assert (Hpv : (p < 2 * (ni + na))%nat).
    { destruct (le_lt_dec (2 * (ni + na)) p); auto. rewrite X2 in Hp; [discriminate|auto]. }
    assert (Hrv : (r < 2 * (ni + na))%nat).
    { destruct (le_lt_dec (2 * (ni + na)) r); auto. rewrite X2 in Hr; [discriminate|auto]. }
    assert (Hqv : (q < 2 * (ni + na))%nat).
    { destruct (le_lt_dec (2 * (ni + na)) q) as [Hq|]; auto. specialize (Hc q).
      rewrite (X2 q Hq), (Y2 q Hq), Nat.eqb_refl in Hc.
      destruct (Nat.eqb_spec q p), (Nat.eqb_spec q r), (Nat.eqb_spec q s); simpl in Hc; lia. }
    assert (Hsv : (s < 2 * (ni + na))%nat).
    { destruct (le_lt_dec (2 * (ni + na)) s) as [Hs|]; auto. specialize (Hc s).
      rewrite (X2 s Hs), (Y2 s Hs), Nat.eqb_refl in Hc.
      destruct (Nat.eqb_spec s p), (Nat.eqb_spec s r), (Nat.eqb_spec s q); simpl in Hc; lia. }
    do 6 (split; [assumption|]).
    assert (HI : forall i, (i < 2 * ni)%nat ->
      ((if Nat.eqb i q then 1 else 0) + (if Nat.eqb i s then 1 else 0) =
       (if Nat.eqb i r then 1 else 0) + (if Nat.eqb i p then 1 else 0))%Z).
    { intros i Hi. specialize (Hc i). rewrite (X1 i Hi), (Y1 i Hi) in Hc. simpl b2z in Hc. lia. }
    split; [|split; [|split]]; intros Hi; specialize (HI _ Hi); rewrite Nat.eqb_refl in HI;
      repeat match goal with HI : context [Nat.eqb ?u ?v] |- _ => destruct (Nat.eqb_spec u v) end; auto; lia.
  Qed.

  Lemma Eact_inactive ni na p q (f : amps) x : asp ni na x -> supp ni na f ->
    ~ In (p, q) (L1 ni na) -> Eact p q f x = 0.
  Proof.
    intros Hx Hf Hn. unfold Eact.
    assert (H : forall b, (b < 2)%nat -> pairop (2 * p + b) (2 * q + b) f x = 0).
    { intros b Hb. destruct (pairop_active ni na (2 * p + b) (2 * q + b) f x Hx Hf) as [H|H]; [exact H|exfalso].
      apply Hn, in_L1_intro. lia. }
    rewrite <- (Nat.add_0_r (2 * p)) at 1. rewrite <- (Nat.add_0_r (2 * q)) at 1.
    rewrite !H by lia. ring.
  Qed.

  Lemma eact_inactive ni na p q r s (f : amps) x : asp ni na x -> supp ni na f ->
    ~ In ((p, q), (r, s)) (L2 ni na) -> eact p q r s f x = 0.
  Proof.
    intros Hx Hf Hn. unfold eact.
    assert (H : forall b c, (b < 2)%nat -> (c < 2)%nat ->
      quadop (2 * p + b) (2 * q + b) (2 * r + c) (2 * s + c) f x = 0).
    { intros b c Hb Hc. destruct (quadop_active ni na (2 * p + b) (2 * q + b) (2 * r + c) (2 * s + c) f x Hx Hf) as [H|H]; [exact H|exfalso].
      apply Hn, in_L2_intro.
      destruct H as (A1 & A2 & A3 & A4 & A5 & A6 & A7 & A8 & A9 & A10).
      unfold sel2. do 4 (split; [lia|]).
      destruct (le_lt_dec ni p) as [Lp|Lp], (le_lt_dec ni r) as [Lr|Lr].
      - assert (ni <= q)%nat by (destruct (le_lt_dec ni q); auto; destruct A9; lia).
        assert (ni <= s)%nat by (destruct (le_lt_dec ni s); auto; destruct A10; lia).
        do 6 right. lia.
      - clear A7. destruct A8 as [E|E]; [lia| |].
        + assert (q = r) by lia. assert (ni <= s)%nat.
          { destruct (le_lt_dec ni s); auto. destruct A10; lia. }
          do 4 right. left. lia.
        + assert (r = s) by lia. assert (ni <= q)%nat.
          { destruct (le_lt_dec ni q); auto. destruct A9; lia. }
          do 3 right. left. lia.
      - clear A8. destruct A7 as [E|E]; [lia| |].
        + assert (p = q) by lia. assert (ni <= s)%nat.
          { destruct (le_lt_dec ni s); auto. destruct A10; lia. }
          do 2 right. left. lia.
        + assert (p = s) by lia. assert (ni <= q)%nat.
          { destruct (le_lt_dec ni q); auto. destruct A9; lia. }
          do 5 right. left. lia.
      - destruct A7 as [E|E]; [lia| |]; (destruct A8 as [E'|E']; [lia| |]); clear A9 A10.
        + lia.
        + left. lia.
        + right. left. lia.
        + lia. }
    pose proof (H 0%nat 0%nat) as H1. pose proof (H 0%nat 1%nat) as H2. pose proof (H 1%nat 0%nat) as H3.
    pose proof (H 1%nat 1%nat) as H4. rewrite !Nat.add_0_r in *.
    rewrite H1, H2, H3, H4 by lia. ring.
  Qed.

  Hypothesis Hex : exact_small K.
  Variable P : fstring -> Prop.
  Hypothesis HP : stable P.

  Lemma hamiltonian_0i_0a_rep half h g ni na : PEon P (seq 0 (ni + na)) ->
    rep P (hamiltonian_0i_0a half h g ni na)
      (fun f x => lsum (L1 ni na) (fun pq => oneF h pq f x)
                + lsum (L2 ni na) (fun t => twoF half g t f x)).
  Proof.
    intros HPn. rewrite hamiltonian_0i_0a_flat. apply rep_accum; auto.
    - eapply rep_ext; [apply rep_accum with (T := oneF h)|].
      + exact Hex.
      + apply rep_nil.
      + intros [p q] Hin. apply in_L1 in Hin. apply one_term_rep; auto. apply HPn; simpl; rewrite in_seq; lia.
      + intros f x. cbn beta. ring.
    - intros [[p q] [r s]] Hin. apply in_L2 in Hin. unfold sel2 in Hin.
      apply two_term_rep; auto; apply HPn; simpl; rewrite in_seq; lia.
  Qed.

  Lemma pair_dec : forall a b : nat * nat, {a = b} + {a <> b}.
  Proof. decide equality; apply Nat.eq_dec. Defined.
  Lemma quad_dec : forall a b : nat * nat * (nat * nat), {a = b} + {a <> b}.
  Proof. decide equality; apply pair_dec. Defined.

  Lemma active_equal half h g ni na nv (f : amps) x : asp ni na x -> supp ni na f ->
    lsum (L1 ni na) (fun pq => oneF h pq f x) + lsum (L2 ni na) (fun t => twoF half g t f x)
    = lsum (pairs (seq 0 (ni + na + nv)) (seq 0 (ni + na + nv))) (fun pq => oneF h pq f x)
      + lsum (quads (seq 0 (ni + na + nv))) (fun t => twoF half g t f x).
  Proof.
    intros Hx Hf. f_equal.
    - apply (lsum_support pair_dec).
      + apply NoDup_L1.
      + apply NoDup_pairs; apply seq_NoDup.
      + intros [p q] H1 H2. apply in_L1 in H1. exfalso. apply H2. apply in_pairs. rewrite !in_seq. lia.
      + intros [p q] H1 H2. unfold oneF. cbn [fst snd]. rewrite (Eact_inactive ni na); auto. ring.
    - apply (lsum_support quad_dec).
      + apply NoDup_L2.
      + apply NoDup_quads; apply seq_NoDup.
      + intros [[p q] [r s]] H1 H2. apply in_L2 in H1. exfalso. apply H2. apply in_quads. rewrite !in_seq.
        unfold sel2 in H1. lia.
      + intros [[p q] [r s]] H1 H2. unfold twoF. cbn [fst snd]. rewrite (eact_inactive ni na); auto. ring.
  Qed.
End Active.
