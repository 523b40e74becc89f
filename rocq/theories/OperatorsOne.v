(** The truncated Hamiltonians [hamiltonian_1i_1a] and [hamiltonian_2i_2a]
    between states with at most one hole in the inactive orbitals and at most
    one particle in the virtual orbitals. *)
From Coq Require Import List Bool Arith NArith ZArith Lia Ring.
From Verif Require Import Base Fock FockMore FermiModel FermiProofs FermiAlgebra OperatorsModel OperatorsProofs OperatorsSums OperatorsActs
  OperatorsActive OperatorsKeys Props_Operators.
Import ListNotations.
Open Scope nat_scope.

(** At most one empty inactive and at most one occupied virtual spin orbital. *)
Definition asp1 (ni na : nat) (x : det) : Prop :=
  (forall p p', p < 2 * ni -> p' < 2 * ni -> occ x p = false -> occ x p' = false -> p = p') /\
  (forall p p', 2 * (ni + na) <= p -> 2 * (ni + na) <= p' -> occ x p = true -> occ x p' = true -> p = p').

Lemma all2_dec m (R : nat -> nat -> bool) :
  (forall p p', p < m -> p' < m -> R p p' = true) \/ ~ (forall p p', p < m -> p' < m -> R p p' = true).
Proof.
  destruct (forallb (fun pp => R (fst pp) (snd pp)) (list_prod (seq 0 m) (seq 0 m))) eqn:E.
  - left. intros p p' Hp Hp'. rewrite forallb_forall in E. apply (E (p, p')). apply in_prod; apply in_seq; lia.
  - right. intros H. enough (forallb (fun pp => R (fst pp) (snd pp)) (list_prod (seq 0 m) (seq 0 m)) = true) by congruence.
    apply forallb_forall. intros [p p'] Hin. apply in_prod_iff in Hin. rewrite !in_seq in Hin. apply (H p p'); lia.
Qed.
Lemma occ_size d p : N.size_nat d <= p -> occ d p = false.
Proof. intros H. unfold occ. rewrite Ndigits.Ntestbit_Nbit. now apply Ndigits.Nbit_Nsize. Qed.

Lemma asp1_dec ni na x : asp1 ni na x \/ ~ asp1 ni na x.
Proof.
  destruct (all2_dec (2 * ni) (fun p p' => occ x p || occ x p' || (p =? p'))) as [H1|H1].
  - destruct (all2_dec (N.size_nat x) (fun p p' => (p <? 2 * (ni + na)) || (p' <? 2 * (ni + na)) || negb (occ x p) || negb (occ x p') || (p =? p')))
      as [H2|H2].
    + left. split.
      * intros p p' Hp Hp' O O'. specialize (H1 p p' Hp Hp'). rewrite O, O' in H1. now apply Nat.eqb_eq.
      * intros p p' Hp Hp' O O'.
        assert (p < N.size_nat x) as L by (destruct (le_lt_dec (N.size_nat x) p) as [L|]; [rewrite occ_size in O by exact L; discriminate|assumption]).
        assert (p' < N.size_nat x) as L' by (destruct (le_lt_dec (N.size_nat x) p') as [L'|]; [rewrite occ_size in O' by exact L'; discriminate|assumption]).
        specialize (H2 p p' L L'). rewrite O, O' in H2. cbn [negb] in H2.
        rewrite !(proj2 (Nat.ltb_ge _ _)) in H2 by lia. now apply Nat.eqb_eq.
    + right. intros [A1 A2]. apply H2. intros p p' _ _.
      destruct (Nat.ltb_spec p (2 * (ni + na))) as [|L]; [reflexivity|]. destruct (Nat.ltb_spec p' (2 * (ni + na))) as [|L']; [reflexivity|].
      destruct (occ x p) eqn:O; [|reflexivity]. destruct (occ x p') eqn:O'; [|reflexivity]. cbn. apply Nat.eqb_eq. now apply A2.
  - right. intros [A1 A2]. apply H1. intros p p' L L'.
    destruct (occ x p) eqn:O; [reflexivity|]. destruct (occ x p') eqn:O'; [reflexivity|]. cbn. apply Nat.eqb_eq. now apply A1.
Qed.

Lemma asp_asp1 ni na x : asp ni na x -> asp1 ni na x.
Proof. intros [A B]. split; intros p p' Hp Hp' O O'; [rewrite A in O by exact Hp|rewrite B in O by exact Hp]; discriminate. Qed.

(** What a matrix element of a two-electron operator requires. *)
Lemma quad_facts p q r s x y sg : actdet [(q, true); (s, true); (r, false); (p, false)] x = Some (sg, y) ->
  p <> r /\ q <> s /\ occ x p = true /\ occ x r = true /\ occ y q = true /\ occ y s = true /\
  (forall i, occ y i = true -> occ x i = false -> i = q \/ i = s) /\
  (forall i, occ x i = true -> occ y i = false -> i = p \/ i = r) /\
  (forall i, occ y i = true -> occ x i = true -> (i = q \/ i = s) -> i = p \/ i = r) /\
  (forall i, occ y i = true -> occ x i = true -> (i = p \/ i = r) -> i = q \/ i = s).
Proof.
  intros E. assert (Hc := fun i => actdet_chg _ _ _ _ i E). cbn [chg] in Hc. unfold dw in Hc.
  assert (Hpr : p <> r).
  { intros ->. cbn [actdet fst snd] in E. destruct (occ x r) eqn:Er; [|discriminate].
    cbn in E. rewrite occ_flip_same, Er in E. discriminate. }
  assert (Hp : occ x p = true).
  { cbn [actdet fst snd] in E. destruct (occ x p); auto; discriminate. }
  assert (Hr : occ x r = true).
  { cbn [actdet fst snd] in E. destruct (occ x p); [|discriminate].
    cbn in E. rewrite occ_flip_other in E by auto. destruct (occ x r); auto; discriminate. }
  apply actdet_adj in E.
  change (adjstr [(q, true); (s, true); (r, false); (p, false)]) with [(p, true); (r, true); (s, false); (q, false)] in E.
  assert (Hqs : q <> s).
  { intros ->. cbn [actdet fst snd] in E. destruct (occ y s) eqn:Er; [|discriminate].
    cbn in E. rewrite occ_flip_same, Er in E. discriminate. }
  assert (Hq : occ y q = true).
  { cbn [actdet fst snd] in E. destruct (occ y q); auto; discriminate. }
  assert (Hs : occ y s = true).
  { cbn [actdet fst snd] in E. destruct (occ y q); [|discriminate].
    cbn in E. rewrite occ_flip_other in E by auto. destruct (occ y s); auto; discriminate. }
  do 6 (split; [assumption|]).
  repeat split; intros i O1 O2; specialize (Hc i); rewrite O1, O2 in Hc; cbn [b2z] in Hc;
    destruct (Nat.eqb_spec i p), (Nat.eqb_spec i q), (Nat.eqb_spec i r), (Nat.eqb_spec i s); try lia; auto; intuition (subst; try lia; try congruence).
Qed.

Ltac spatial :=
  repeat match goal with
  | |- context [Nat.leb ?a ?b] => destruct (Nat.leb_spec a b)
  | |- context [Nat.ltb ?a ?b] => destruct (Nat.ltb_spec a b)
  end; cbn [andb b2n Z.of_nat];
  repeat match goal with |- context [Nat.eqb ?a ?b] => destruct (Nat.eqb_spec a b) end; cbn [b2n]; lia.

Lemma skip2_one ni na p q r s b c x y sg : b < 2 -> c < 2 -> asp ni na x -> asp1 ni na y ->
  actdet [(2 * q + b, true); (2 * s + c, true); (2 * r + c, false); (2 * p + b, false)] x = Some (sg, y) ->
  skip2 1 ni (ni + na) ((p, q), (r, s)) = false.
Proof.
  intros Hb Hc [X1 X2] [Y1 Y2] E. destruct (quad_facts _ _ _ _ _ _ _ E) as (Npr & Nqs & Op & Or & Oq & Os & _ & _ & Fa & Fc).
  assert (p < ni + na) by (destruct (le_lt_dec (ni + na) p); [rewrite X2 in Op by lia; discriminate|assumption]).
  assert (r < ni + na) by (destruct (le_lt_dec (ni + na) r); [rewrite X2 in Or by lia; discriminate|assumption]).
  assert (~ (ni + na <= q /\ ni + na <= s)) by (intros [? ?]; apply Nqs, Y2; auto; lia).
  assert (p < ni -> r < ni -> occ y (2 * p + b) = true \/ occ y (2 * r + c) = true) as Hpr.
  { intros Hp Hr. destruct (occ y (2 * p + b)) eqn:A; [auto|]. destruct (occ y (2 * r + c)) eqn:B; [auto|]. exfalso. apply Npr, Y1; auto; lia. }
  assert (occ y (2 * p + b) = true -> p = q \/ 2 * p + b = 2 * s + c) as Mp by (intros A; destruct (Fc _ A Op); auto; lia).
  assert (occ y (2 * r + c) = true -> r = s \/ 2 * r + c = 2 * q + b) as Mr by (intros A; destruct (Fc _ A Or); auto; lia).
  assert (q < ni -> q = p \/ 2 * q + b = 2 * r + c) as Mq by (intros A; destruct (Fa _ Oq (X1 (2 * q + b) ltac:(lia))); auto; lia).
  assert (s < ni -> s = r \/ 2 * s + c = 2 * p + b) as Ms by (intros A; destruct (Fa _ Os (X1 (2 * s + c) ltac:(lia))); auto; lia).
  assert (p < ni -> r < ni -> p = q \/ 2 * p + b = 2 * s + c \/ r = s \/ 2 * r + c = 2 * q + b) as Mpr by (intros A B; destruct (Hpr A B) as [O|O]; [specialize (Mp O)|specialize (Mr O)]; tauto).
  clear - Mpr Mq Ms Npr Nqs H H0 H1 Hb Hc.
  unfold skip2. apply Bool.orb_false_iff. split; [apply Nat.ltb_ge|apply Z.ltb_ge].
  - unfold num_virt. spatial.
  - unfold num_act. spatial.
Qed.

Lemma skip2_two ni na p q r s b c x y sg : b < 2 -> c < 2 -> asp1 ni na x -> asp1 ni na y ->
  actdet [(2 * q + b, true); (2 * s + c, true); (2 * r + c, false); (2 * p + b, false)] x = Some (sg, y) ->
  skip2 2 ni (ni + na) ((p, q), (r, s)) = false.
Proof.
  intros Hb Hc [X1 X2] [Y1 Y2] E. destruct (quad_facts _ _ _ _ _ _ _ E) as (Npr & Nqs & Op & Or & Oq & Os & _ & _ & Fa & Fc).
  assert (~ (ni + na <= q /\ ni + na <= s)) by (intros [? ?]; apply Nqs, Y2; auto; lia).
  assert (~ (ni + na <= p /\ ni + na <= r)) by (intros [? ?]; apply Npr, X2; auto; lia).
  assert (p < ni -> r < ni -> occ y (2 * p + b) = true \/ occ y (2 * r + c) = true) as Hpr.
  { intros Hp Hr. destruct (occ y (2 * p + b)) eqn:A; [auto|]. destruct (occ y (2 * r + c)) eqn:B; [auto|]. exfalso. apply Npr, Y1; auto; lia. }
  assert (q < ni -> s < ni -> occ x (2 * q + b) = true \/ occ x (2 * s + c) = true) as Hqs.
  { intros Hp Hr. destruct (occ x (2 * q + b)) eqn:A; [auto|]. destruct (occ x (2 * s + c)) eqn:B; [auto|]. exfalso. apply Nqs, X1; auto; lia. }
  assert (occ y (2 * p + b) = true -> p = q \/ 2 * p + b = 2 * s + c) as Mp by (intros A; destruct (Fc _ A Op); auto; lia).
  assert (occ y (2 * r + c) = true -> r = s \/ 2 * r + c = 2 * q + b) as Mr by (intros A; destruct (Fc _ A Or); auto; lia).
  assert (occ x (2 * q + b) = true -> q = p \/ 2 * q + b = 2 * r + c) as Mq by (intros A; destruct (Fa _ Oq A); auto; lia).
  assert (occ x (2 * s + c) = true -> s = r \/ 2 * s + c = 2 * p + b) as Ms by (intros A; destruct (Fa _ Os A); auto; lia).
  assert (p < ni -> r < ni -> p = q \/ 2 * p + b = 2 * s + c \/ r = s \/ 2 * r + c = 2 * q + b) as Mpr by (intros A B; destruct (Hpr A B) as [O|O]; [specialize (Mp O)|specialize (Mr O)]; tauto).
  assert (q < ni -> s < ni -> q = p \/ 2 * q + b = 2 * r + c \/ s = r \/ 2 * s + c = 2 * p + b) as Mqs by (intros A B; destruct (Hqs A B) as [O|O]; [specialize (Mq O)|specialize (Ms O)]; tauto).
  clear - Mpr Mqs Npr Nqs H H0 Hb Hc.
  unfold skip2. apply Bool.orb_false_iff. split; [apply Nat.ltb_ge|apply Z.ltb_ge].
  - unfold num_virt. spatial.
  - unfold num_act. spatial.
Qed.

Lemma skip2_swap l ni vs p q r s : skip2 l ni vs ((q, p), (s, r)) = skip2 l ni vs ((p, q), (r, s)).
Proof.
  unfold skip2. f_equal.
  - f_equal. unfold num_virt. lia.
  - f_equal. unfold num_act. rewrite (Nat.eqb_sym q p), (Nat.eqb_sym s r), (Nat.eqb_sym q r), (Nat.eqb_sym p s).
    destruct (p <? ni), (q <? ni), (r <? ni), (s <? ni); cbn [andb b2n Z.of_nat]; lia.
Qed.
Lemma skip1_swap ni vs p q : skip1 ni vs (q, p) = skip1 ni vs (p, q).
Proof. unfold skip1. rewrite (Nat.eqb_sym q p). destruct (vs <=? p), (vs <=? q), (p <? ni), (q <? ni); reflexivity. Qed.

Lemma skip2_one' ni na p q r s b c x y sg : b < 2 -> c < 2 -> asp1 ni na x -> asp ni na y ->
  actdet [(2 * q + b, true); (2 * s + c, true); (2 * r + c, false); (2 * p + b, false)] x = Some (sg, y) ->
  skip2 1 ni (ni + na) ((p, q), (r, s)) = false.
Proof.
  intros Hb Hc Hx Hy E. apply actdet_adj in E.
  change (adjstr [(2 * q + b, true); (2 * s + c, true); (2 * r + c, false); (2 * p + b, false)])
    with [(2 * p + b, true); (2 * r + c, true); (2 * s + c, false); (2 * q + b, false)] in E.
  rewrite <- skip2_swap. exact (skip2_one ni na q p s r b c y x sg Hb Hc Hy Hx E).
Qed.

Lemma skip1_one ni na p q b x y sg : b < 2 -> asp ni na x -> 
  actdet [(2 * q + b, true); (2 * p + b, false)] x = Some (sg, y) -> skip1 ni (ni + na) (p, q) = false.
Proof.
  intros Hb [X1 X2] E. assert (Hc := fun i => actdet_chg _ _ _ _ i E). cbn [chg] in Hc. unfold dw in Hc.
  assert (Hp : occ x (2 * p + b) = true) by (cbn [actdet fst snd] in E; destruct (occ x (2 * p + b)); auto; discriminate).
  assert (p < ni + na) by (destruct (le_lt_dec (ni + na) p); [rewrite X2 in Hp by lia; discriminate|assumption]).
  unfold skip1. rewrite (proj2 (Nat.leb_gt _ p)) by lia. cbn [andb orb].
  destruct (Nat.ltb_spec p ni); [|reflexivity]. destruct (Nat.ltb_spec q ni); [|reflexivity]. cbn [andb].
  destruct (Nat.eqb_spec p q); [reflexivity|exfalso]. specialize (Hc (2 * q + b)). rewrite Nat.eqb_refl, (X1 (2 * q + b)) in Hc by lia.
  destruct (Nat.eqb_spec (2 * q + b) (2 * p + b)); [lia|]. destruct (occ y (2 * q + b)); cbn [b2z] in Hc; lia.
Qed.
Lemma skip1_one' ni na p q b x y sg : b < 2 -> asp ni na y ->
  actdet [(2 * q + b, true); (2 * p + b, false)] x = Some (sg, y) -> skip1 ni (ni + na) (p, q) = false.
Proof.
  intros Hb Hy E. apply actdet_adj in E. change (adjstr [(2 * q + b, true); (2 * p + b, false)]) with [(2 * p + b, true); (2 * q + b, false)] in E.
  rewrite <- skip1_swap. exact (skip1_one ni na q p b y x sg Hb Hy E).
Qed.

Section One.
  Context {K : Type} {C : CRing K}.
  Local Open Scope K_scope.
  Add Ring KringO1 : (@rth K C).
  Notation dict := (list (fstring * K)).

  (** Amplitudes that vanish outside a set of determinants. *)
  Definition suppP (Y : det -> Prop) (f : amps (K:=K)) : Prop := forall y, ~ Y y -> f y = 0.
  Definition supp1 (ni na : nat) : amps (K:=K) -> Prop := suppP (asp1 ni na).
  Lemma supp_supp1 ni na (f : amps) : supp ni na f -> supp1 ni na f.
  Proof. intros H y Hy. apply H. intros A. apply Hy. now apply asp_asp1. Qed.

  Lemma eact_zero (Y : det -> Prop) (Ydec : forall y, Y y \/ ~ Y y) p q r s (f : amps) x : suppP Y f ->
    (forall b c y sg, (b < 2)%nat -> (c < 2)%nat -> Y y ->
       actdet [(2 * q + b, true); (2 * s + c, true); (2 * r + c, false); (2 * p + b, false)]%nat x = Some (sg, y) -> False) ->
    eact p q r s f x = 0.
  Proof.
    intros Hf H. unfold eact.
    assert (forall b c, (b < 2)%nat -> (c < 2)%nat -> quadop (2 * p + b) (2 * q + b) (2 * r + c) (2 * s + c) f x = 0) as Z.
    { intros b c Hb Hc. rewrite quadop_str, appstr_gather.
      change (adjstr [(2 * p + b, true); (2 * r + c, true); (2 * s + c, false); (2 * q + b, false)]%nat)
        with [(2 * q + b, true); (2 * s + c, true); (2 * r + c, false); (2 * p + b, false)]%nat.
      destruct (actdet _ x) as [[sg y]|] eqn:E; [|reflexivity].
      destruct (Ydec y) as [Hy|Hy]; [destruct (H b c y sg Hb Hc Hy E)|]. rewrite Hf by exact Hy. apply sgn_0. }
    pose proof (Z 0%nat 0%nat) as H1. pose proof (Z 0%nat 1%nat) as H2. pose proof (Z 1%nat 0%nat) as H3.
    pose proof (Z 1%nat 1%nat) as H4. rewrite !Nat.add_0_r in *. rewrite H1, H2, H3, H4 by lia. ring.
  Qed.
  Lemma Eact_zero (Y : det -> Prop) (Ydec : forall y, Y y \/ ~ Y y) p q (f : amps) x : suppP Y f ->
    (forall b y sg, (b < 2)%nat -> Y y -> actdet [(2 * q + b, true); (2 * p + b, false)]%nat x = Some (sg, y) -> False) ->
    Eact p q f x = 0.
  Proof.
    intros Hf H. unfold Eact.
    assert (forall b, (b < 2)%nat -> pairop (2 * p + b) (2 * q + b) f x = 0) as Z.
    { intros b Hb. rewrite pairop_str, appstr_gather.
      change (adjstr [(2 * p + b, true); (2 * q + b, false)]%nat) with [(2 * q + b, true); (2 * p + b, false)]%nat.
      destruct (actdet _ x) as [[sg y]|] eqn:E; [|reflexivity].
      destruct (Ydec y) as [Hy|Hy]; [destruct (H b y sg Hb Hy E)|]. rewrite Hf by exact Hy. apply sgn_0. }
    pose proof (Z 0%nat) as H1. pose proof (Z 1%nat) as H2. rewrite !Nat.add_0_r in *. rewrite H1, H2 by lia. ring.
  Qed.

  Hypothesis Hex : exact_small K.
  Variable P : fstring -> Prop.
  Hypothesis HP : stable P.

  Definition keep1 (skip : nat * nat -> bool) (h : nat -> nat -> K) (pq : nat * nat) : ract :=
    fun f x => if skip pq then 0 else oneF h pq f x.
  Definition keep2 (skip : nat * nat * (nat * nat) -> bool) (half : K) g (t : nat * nat * (nat * nat)) : ract :=
    fun f x => if skip t then 0 else twoF half g t f x.

  Lemma truncated_rep half h g n skip1 skip2 : PEon P (seq 0 n) ->
    rep P (accum (guarded skip2 (two_term half g)) (quads (seq 0 n))
            (accum (guarded skip1 (one_term h)) (pairs (seq 0 n) (seq 0 n)) (Ok [])))
      (fun f x => lsum (pairs (seq 0 n) (seq 0 n)) (fun pq => keep1 skip1 h pq f x)
                + lsum (quads (seq 0 n)) (fun t => keep2 skip2 half g t f x)).
  Proof.
    intros HPn. apply rep_accum; auto.
    - eapply rep_ext; [apply rep_accum with (T := keep1 skip1 h)|].
      + exact Hex.
      + apply rep_nil.
      + intros pq Hin. unfold guarded, keep1. destruct (skip1 pq); [reflexivity|]. destruct pq as [p q]. apply in_pairs in Hin.
        apply one_term_rep; auto. apply HPn; simpl; tauto.
      + intros f x. cbn beta. ring.
    - intros t Hin. unfold guarded, keep2. destruct (skip2 t); [reflexivity|]. destruct t as [[p q] [r s]]. apply in_quads in Hin.
      apply two_term_rep; auto; apply HPn; simpl; tauto.
  Qed.

  (** When every skipped term vanishes, the truncated Hamiltonian acts as the full one. *)
  Lemma truncated_equal half h g n skip1 skip2 (f : amps) x :
    (forall p q, skip1 (p, q) = true -> Eact p q f x = 0) ->
    (forall p q r s, skip2 ((p, q), (r, s)) = true -> eact p q r s f x = 0) ->
    lsum (pairs (seq 0 n) (seq 0 n)) (fun pq => keep1 skip1 h pq f x) + lsum (quads (seq 0 n)) (fun t => keep2 skip2 half g t f x)
    = Hact half h g n f x.
  Proof.
    intros H1 H2. rewrite <- Hact_lsum. f_equal; apply lsum_ext.
    - intros [p q] _. unfold keep1. destruct (skip1 (p, q)) eqn:E; [|reflexivity]. unfold oneF. cbn [fst snd]. rewrite H1 by exact E. ring.
    - intros [[p q] [r s]] _. unfold keep2. destruct (skip2 _) eqn:E; [|reflexivity]. unfold twoF. cbn [fst snd]. rewrite H2 by exact E. ring.
  Qed.

  Lemma skip_ok_one ni na (f : amps) x : asp ni na x -> supp1 ni na f ->
    (forall p q, skip1 ni (ni + na) (p, q) = true -> Eact p q f x = 0) /\
    (forall p q r s, skip2 1 ni (ni + na) ((p, q), (r, s)) = true -> eact p q r s f x = 0).
  Proof.
    intros Hx Hf. split.
    - intros p q S. apply (Eact_zero (asp1 ni na) (asp1_dec ni na)); [exact Hf|]. intros b y sg Hb Hy E.
      rewrite (skip1_one ni na p q b x y sg) in S; auto. discriminate.
    - intros p q r s S. apply (eact_zero (asp1 ni na) (asp1_dec ni na)); [exact Hf|]. intros b c y sg Hb Hc Hy E.
      rewrite (skip2_one ni na p q r s b c x y sg) in S; auto. discriminate.
  Qed.
  Lemma skip_ok_one' ni na (f : amps) x : asp1 ni na x -> supp ni na f ->
    (forall p q, skip1 ni (ni + na) (p, q) = true -> Eact p q f x = 0) /\
    (forall p q r s, skip2 1 ni (ni + na) ((p, q), (r, s)) = true -> eact p q r s f x = 0).
  Proof.
    intros Hx Hf. split.
    - intros p q S. apply (Eact_zero (asp ni na) (asp_dec ni na)); [exact Hf|]. intros b y sg Hb Hy E.
      rewrite (skip1_one' ni na p q b x y sg) in S; auto. discriminate.
    - intros p q r s S. apply (eact_zero (asp ni na) (asp_dec ni na)); [exact Hf|]. intros b c y sg Hb Hc Hy E.
      rewrite (skip2_one' ni na p q r s b c x y sg) in S; auto. discriminate.
  Qed.

  Lemma hamiltonian_1i_1a_rep half h g ni na nv : PEon P (seq 0 (ni + na + nv)) ->
    exists H1, rep P (hamiltonian_1i_1a half h g ni na nv) H1 /\
      (forall f x, asp ni na x -> supp1 ni na f -> H1 f x = Hact half h g (ni + na + nv) f x) /\
      (forall f x, asp1 ni na x -> supp ni na f -> H1 f x = Hact half h g (ni + na + nv) f x).
  Proof.
    intros HPn. eexists. split; [apply (truncated_rep half h g _ _ _ HPn)|]. split; intros f x Hx Hf.
    - destruct (skip_ok_one ni na f x Hx Hf). now apply truncated_equal.
    - destruct (skip_ok_one' ni na f x Hx Hf). now apply truncated_equal.
  Qed.
  Lemma hamiltonian_2i_2a_rep half h g ni na nv : PEon P (seq 0 (ni + na + nv)) ->
    exists H2, rep P (hamiltonian_2i_2a half h g ni na nv) H2 /\
      forall f x, asp1 ni na x -> supp1 ni na f -> H2 f x = Hact half h g (ni + na + nv) f x.
  Proof.
    intros HPn. eexists. split; [apply (truncated_rep half h g _ (fun _ => false) _ HPn)|]. intros f x Hx Hf.
    apply truncated_equal; [discriminate|]. intros p q r s S. apply (eact_zero (asp1 ni na) (asp1_dec ni na)); [exact Hf|].
    intros b c y sg Hb Hc Hy E. rewrite (skip2_two ni na p q r s b c x y sg) in S; auto. discriminate.
  Qed.

  (** One-electron operators. *)
  Definition onesum (h : nat -> nat -> K) (n : nat) : ract := fun f x => lsum (pairs (seq 0 n) (seq 0 n)) (fun pq => oneF h pq f x).
  Lemma one_elec_full_rep h n : PEon P (seq 0 n) -> rep P (one_elec_op_full_space h n) (onesum h n).
  Proof.
    intros HPn. unfold one_elec_op_full_space. eapply rep_ext; [apply rep_accum with (T := oneF h)|]; [exact Hex|apply rep_nil| |].
    - intros [p q] Hin. apply in_pairs in Hin. apply one_term_rep; auto. apply HPn; simpl; tauto.
    - intros f x. unfold onesum. cbn beta. ring.
  Qed.
  Lemma one_elec_1i_1a_rep h ni na nv : PEon P (seq 0 (ni + na + nv)) ->
    exists H1, rep P (one_elec_op_1i_1a h ni na nv) H1 /\
      (forall f x, asp ni na x -> supp1 ni na f -> H1 f x = onesum h (ni + na + nv) f x) /\
      (forall f x, asp1 ni na x -> supp ni na f -> H1 f x = onesum h (ni + na + nv) f x).
  Proof.
    intros HPn. exists (fun f x => lsum (pairs (seq 0 (ni + na + nv)) (seq 0 (ni + na + nv))) (fun pq => keep1 (skip1 ni (ni + na)) h pq f x)). split.
    - unfold one_elec_op_1i_1a. eapply rep_ext; [apply rep_accum with (T := keep1 (skip1 ni (ni + na)) h)|]; [exact Hex|apply rep_nil| |].
      + intros pq Hin. unfold guarded, keep1. destruct (skip1 _ _ pq); [reflexivity|]. destruct pq as [p q]. apply in_pairs in Hin.
        apply one_term_rep; auto. apply HPn; simpl; tauto.
      + intros f x. cbn beta. ring.
    - assert (G : forall f x, (forall p q, skip1 ni (ni + na) (p, q) = true -> Eact p q f x = 0) ->
        lsum (pairs (seq 0 (ni + na + nv)) (seq 0 (ni + na + nv))) (fun pq => keep1 (skip1 ni (ni + na)) h pq f x) = onesum h (ni + na + nv) f x).
      { intros f x H1. apply lsum_ext. intros [p q] _. unfold keep1. destruct (skip1 _ _ (p, q)) eqn:E; [|reflexivity]. unfold oneF. cbn [fst snd]. rewrite H1 by exact E. ring. }
      split; intros f x Hx Hf; apply G; [exact (proj1 (skip_ok_one ni na f x Hx Hf))|exact (proj1 (skip_ok_one' ni na f x Hx Hf))].
  Qed.
  Lemma one_elec_0i_0a_rep h ni na nv : PEon P (seq 0 (ni + na)) ->
    exists H0, rep P (one_elec_op_0i_0a h ni na) H0 /\ forall f x, asp ni na x -> supp ni na f -> H0 f x = onesum h (ni + na + nv) f x.
  Proof.
    intros HPn. exists (fun f x => lsum (L1 ni na) (fun pq => oneF h pq f x)). split.
    - unfold one_elec_op_0i_0a. eapply rep_ext; [apply rep_accum with (T := oneF h)|]; [exact Hex| | |].
      + apply rep_accum with (T := oneF h); [exact Hex|apply rep_nil|]. intros [p q] Hin. apply in_map_iff in Hin as (i & E & Hi). injection E as <- <-.
        apply one_term_rep; auto. apply in_seq in Hi. apply HPn; cbn [fst snd]; apply in_seq; lia.
      + intros [p q] Hin. apply in_pairs in Hin. rewrite !in_seq in Hin. apply one_term_rep; auto. apply HPn; cbn [fst snd]; apply in_seq; lia.
      + intros f x. unfold L1. rewrite lsum_app. cbn beta. ring.
    - intros f x Hx Hf. apply (lsum_support pair_dec).
      + apply NoDup_L1.
      + apply NoDup_pairs; apply seq_NoDup.
      + intros [p q] H1 H2. apply in_L1 in H1. exfalso. apply H2. apply in_pairs. rewrite !in_seq. lia.
      + intros [p q] H1 H2. unfold oneF. cbn [fst snd]. rewrite (Eact_inactive ni na); auto. ring.
  Qed.
End One.
