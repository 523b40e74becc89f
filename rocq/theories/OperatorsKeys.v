(** Shape of the results of operators.py without any assumption on the deletion
    threshold: every string conserves whatever its factors conserve. *)
From Coq Require Import List Bool Arith NArith ZArith Lia Ring Sorted Permutation.
From Verif Require Import Base Fock FockMore FermiModel FermiProofs FermiAlgebra OperatorsModel OperatorsProofs OperatorsSums OperatorsActs OperatorsActive OperatorsGen.
Import ListNotations.

(** Number of occupied alpha (even) and beta (odd) spin orbitals among the first
    [n] spatial orbitals. *)
Fixpoint nalpha (n : nat) (d : det) : nat :=
  match n with O => 0 | S m => (if occ d (2 * m) then 1 else 0) + nalpha m d end.
Fixpoint nbeta (n : nat) (d : det) : nat :=
  match n with O => 0 | S m => (if occ d (2 * m + 1) then 1 else 0) + nbeta m d end.

Definition alpha_w : nat -> Z := fun p => if Nat.even p then 1%Z else 0%Z.
Definition beta_w : nat -> Z := fun p => if Nat.even p then 0%Z else 1%Z.

(** Strings balanced in both spins, with spatial indices below [n]. *)
Definition bal (n : nat) (s : fstring) : Prop :=
  (chg alpha_w s = 0%Z /\ chg beta_w s = 0%Z) /\ (forall o, In o s -> fst o < 2 * n).

Lemma bal_stable n : stable (bal n).
Proof. apply stable_and; [apply stable_and; apply stable_chg|apply (stable_in (fun p => p < 2 * n))]. Qed.

Lemma actdet_wsum w m s x sg y : (forall o, In o s -> fst o < m) -> actdet s x = Some (sg, y) ->
  (wsum w m y = wsum w m x + chg w s)%Z.
Proof.
  intros Hs H.
  assert (G : forall m', (wsum w m' y = wsum w m' x + chg (fun p => if Nat.ltb p m' then w p else 0) s)%Z).
  { induction m' as [|k IH].
    - simpl. clear. induction s as [|[p [|]] s IH]; simpl in *; lia.
    - cbn [wsum]. rewrite IH. pose proof (actdet_chg _ _ _ _ k H) as Hc.
      assert (E : (chg (fun p => if Nat.ltb p (S k) then w p else 0) s =
                   chg (fun p => if Nat.ltb p k then w p else 0) s + w k * chg (dw k) s)%Z).
      { clear. induction s as [|[p a] s IH]; [simpl; lia|]. cbn [chg]. rewrite IH. unfold dw.
        destruct (Nat.eqb_spec k p) as [->|].
        - destruct (Nat.ltb_spec p (S p)); [|lia]. destruct (Nat.ltb_spec p p); [lia|]. destruct a; lia.
        - destruct (Nat.ltb_spec p (S k)), (Nat.ltb_spec p k); try lia; destruct a; lia. }
      rewrite E. assert (Ht : chg (dw k) s = (b2z (occ y k) - b2z (occ x k))%Z) by lia.
      rewrite Ht. destruct (occ y k), (occ x k); cbn [b2z]; lia. }
  rewrite G. f_equal. clear -Hs. induction s as [|[p a] s IH]; [reflexivity|]. cbn [chg].
  rewrite IH by (intros; apply Hs; now right).
  pose proof (Hs (p, a) (or_introl eq_refl)) as Hp. simpl in Hp.
  destruct (Nat.ltb_spec p m); [|lia]. reflexivity.
Qed.

Lemma wsum_alpha n d : wsum alpha_w (2 * n) d = Z.of_nat (nalpha n d).
Proof.
  induction n as [|n IH]; [reflexivity|].
  replace (2 * S n) with (S (S (2 * n))) by lia. cbn [wsum nalpha]. rewrite IH. unfold alpha_w.
  assert (E1 : Nat.even (2 * n) = true) by (rewrite Nat.even_mul; reflexivity).
  rewrite Nat.even_succ, <- Nat.negb_even, E1. simpl negb. destruct (occ d (S (2 * n))), (occ d (2 * n)); lia.
Qed.
Lemma wsum_beta n d : wsum beta_w (2 * n) d = Z.of_nat (nbeta n d).
Proof.
  induction n as [|n IH]; [reflexivity|].
  replace (2 * S n) with (S (S (2 * n))) by lia. cbn [wsum nbeta]. rewrite IH. unfold beta_w.
  assert (E1 : Nat.even (2 * n) = true) by (rewrite Nat.even_mul; reflexivity).
  rewrite Nat.even_succ, <- Nat.negb_even, E1. simpl negb. replace (2 * n + 1) with (S (2 * n)) by lia.
  destruct (occ d (S (2 * n))), (occ d (2 * n)); lia.
Qed.

Section Keys.
  Context {K : Type} {C : CRing K}.
  Local Open Scope K_scope.
  Add Ring KringKK : (@rth K C).
  Notation dict := (list (fstring * K)).

  Variable P : fstring -> Prop.
  Hypothesis HP : stable P.

  (** The computation succeeds and all strings are balanced. *)
  Definition kok (r : Res dict) : Prop := exists D, r = Ok D /\ OPS P D.

  Lemma kok_nil : kok (Ok []).
  Proof. exists []. split; auto. split; constructor. Qed.
  Lemma kok_add r s : kok r -> kok s -> kok (madd r s).
  Proof.
    intros (A & -> & [NA KA]) (B & -> & [NB KB]). exists (op_add A B). split; [reflexivity|].
    split; [now apply op_add_nodup|now apply op_add_keys].
  Qed.
  Lemma kok_sub r s : kok r -> kok s -> kok (msub r s).
  Proof.
    intros (A & -> & [NA KA]) (B & -> & [NB KB]). exists (op_sub A B). split; [reflexivity|].
    split; [now apply op_sub_nodup|now apply op_sub_keys].
  Qed.
  Lemma kok_scale c r : kok r -> kok (mscale c r).
  Proof.
    intros (A & -> & [NA KA]). exists (op_scale c A). split; [reflexivity|].
    split; rewrite op_scale_keys; auto.
  Qed.
  Lemma kok_mul_gen (A B : dict) :
    (forall k2 k1, In k2 (dkeys A) -> In k1 (dkeys B) -> okey P (k2 ++ k1)) -> kok (op_mul A B).
  Proof.
    intros H. destruct (op_mul_spec (okey P) A B (okey_closed P HP)) as (D & E & Hnd & Hk & _).
    { intros k2 k1 H2 H1. specialize (H k2 k1 H2 H1). split; auto. eapply okey_safe; eauto. }
    exists D. split; auto. split; auto.
  Qed.
  Lemma kok_mul r s : kok r -> kok s -> kok (mmul r s).
  Proof.
    intros (A & -> & [NA KA]) (B & -> & [NB KB]). cbn [mmul bind]. rewrite Forall_forall in KA, KB.
    apply kok_mul_gen. intros k2 k1 H2 H1. apply okey_app; auto; [now apply KA|now apply KB].
  Qed.
  Lemma kok_dagger r : kok r -> kok (mdagger r).
  Proof.
    intros (A & -> & [NA KA]). cbn [mdagger bind]. unfold op_dagger. set (A' := map _ A).
    assert (HA' : Forall (okey P) (dkeys A')).
    { unfold A', dkeys in *. rewrite !Forall_map in *. eapply Forall_impl; [|exact KA].
      intros kc [H _]. simpl. rewrite dag_key_adjstr. now apply okey_adj. }
    pose proof (normal_order_spec A' (okey P) (okey_closed P HP) HA') as H.
    destruct (normal_order A') as [D|e|].
    - destruct H as (_ & Hnd & Hk). exists D. split; auto. split; auto.
    - exfalso. destruct H as (_ & o & Ho). apply okey_even in Ho. discriminate.
    - tauto.
  Qed.
  Lemma kok_antiherm ah r : kok r -> kok (antiherm ah r).
  Proof. intros H. destruct ah; simpl; auto. apply kok_sub; auto. now apply kok_dagger. Qed.

  Lemma kok_pair p q : P [(p, true); (q, false)] -> kok (mmul (a_op_spin p true) (a_op_spin q false)).
  Proof.
    intros HPpq. unfold a_op_spin. cbn [mmul bind]. apply kok_mul_gen.
    intros k2 k1 [<-|[]] [<-|[]]. split; [reflexivity|split; [discriminate|exact HPpq]].
  Qed.
  Lemma kok_Epq p q : PE P p q -> kok (Epq p q).
  Proof.
    intros HPE. unfold Epq, a_op. rewrite !Nat.add_0_r. apply kok_add; apply kok_pair; apply HPE.
  Qed.
  Lemma kok_epqrs p q r s : PE P p q -> PE P r s -> PE P p s -> kok (epqrs p q r s).
  Proof.
    intros H1 H2 H3. unfold epqrs.
    assert (Hm : kok (mmul (Epq p q) (Epq r s))) by (apply kok_mul; now apply kok_Epq).
    destruct (Nat.eqb q r); auto. apply kok_sub; auto. now apply kok_Epq.
  Qed.
  Lemma kok_accum {I} (term : I -> option (Res dict)) l r : kok r ->
    (forall i, In i l -> match term i with Some t => kok t | None => True end) -> kok (accum term l r).
  Proof.
    unfold accum. revert r. induction l as [|i l IH]; intros r Hr Ht; cbn [fold_left]; auto.
    apply IH; [|intros j Hj; apply Ht; now right]. specialize (Ht i (or_introl eq_refl)).
    destruct (term i); auto. now apply kok_add.
  Qed.

  Lemma kok_one_term h pq : PE P (fst pq) (snd pq) ->
    match one_term h pq with Some t => kok t | None => True end.
  Proof.
    destruct pq as [p q]. intros H. unfold one_term. destruct (small _); auto. apply kok_scale. now apply kok_Epq.
  Qed.
  Lemma kok_two_term half g t :
    PE P (fst (fst t)) (snd (fst t)) -> PE P (fst (snd t)) (snd (snd t)) -> PE P (fst (fst t)) (snd (snd t)) ->
    match two_term half g t with Some r => kok r | None => True end.
  Proof.
    destruct t as [[p q] [r s]]. cbn [fst snd]. intros H1 H2 H3. unfold two_term.
    destruct (small _); auto. apply kok_scale. now apply kok_epqrs.
  Qed.

  Lemma guarded_case {I} (skip : I -> bool) (term : I -> option (Res dict)) i :
    match term i with Some t => kok t | None => True end ->
    match guarded skip term i with Some t => kok t | None => True end.
  Proof. unfold guarded. destruct (skip i); auto. Qed.

  Lemma kok_pairs h n r skip : PEon P (seq 0 n) -> kok r ->
    kok (accum (guarded skip (one_term h)) (pairs (seq 0 n) (seq 0 n)) r).
  Proof.
    intros Hn Hr. apply kok_accum; auto. intros [p q] H. apply guarded_case, kok_one_term.
    apply in_pairs in H. apply Hn; tauto.
  Qed.
  Lemma kok_quads half g n r skip : PEon P (seq 0 n) -> kok r ->
    kok (accum (guarded skip (two_term half g)) (quads (seq 0 n)) r).
  Proof.
    intros Hn Hr. apply kok_accum; auto. intros [[p q] [r0 s]] H. apply guarded_case, kok_two_term;
    apply in_quads in H; apply Hn; simpl; tauto.
  Qed.

  Lemma guarded_none {I} (term : I -> option (Res dict)) l r :
    accum term l r = accum (guarded (fun _ => false) term) l r.
  Proof. reflexivity. Qed.

  Lemma kok_hamiltonian_full half h g n : PEon P (seq 0 n) -> kok (hamiltonian_full_space half h g n).
  Proof.
    intros H. unfold hamiltonian_full_space. rewrite guarded_none, (guarded_none (one_term h)).
    apply kok_quads; auto. apply kok_pairs; auto. apply kok_nil.
  Qed.
  Lemma kok_hamiltonian_0i_0a half h g ni na : PEon P (seq 0 (ni + na)) -> kok (hamiltonian_0i_0a half h g ni na).
  Proof.
    intros HPn. rewrite hamiltonian_0i_0a_flat. apply kok_accum; [apply kok_accum; [apply kok_nil|]|].
    - intros [p q] Hin. apply in_L1 in Hin. apply kok_one_term; auto. apply HPn; simpl; rewrite in_seq; lia.
    - intros [[p q] [r s]] Hin. apply in_L2 in Hin. unfold sel2 in Hin.
      apply kok_two_term; auto; apply HPn; simpl; rewrite in_seq; lia.
  Qed.
  Lemma kok_hamiltonian_1i_1a half h g ni na nv : PEon P (seq 0 (ni + na + nv)) ->
    kok (hamiltonian_1i_1a half h g ni na nv).
  Proof. intros H. unfold hamiltonian_1i_1a. apply kok_quads; auto. apply kok_pairs; auto. apply kok_nil. Qed.
  Lemma kok_hamiltonian_2i_2a half h g ni na nv : PEon P (seq 0 (ni + na + nv)) ->
    kok (hamiltonian_2i_2a half h g ni na nv).
  Proof.
    intros H. unfold hamiltonian_2i_2a. apply kok_quads; auto. rewrite guarded_none.
    apply kok_pairs; auto. apply kok_nil.
  Qed.
  Lemma kok_one_elec_full h n : PEon P (seq 0 n) -> kok (one_elec_op_full_space h n).
  Proof. intros H. unfold one_elec_op_full_space. rewrite guarded_none. apply kok_pairs; auto. apply kok_nil. Qed.
  Lemma kok_one_elec_0i_0a h ni na : PEon P (seq 0 (ni + na)) -> kok (one_elec_op_0i_0a h ni na).
  Proof.
    intros HPn. unfold one_elec_op_0i_0a. rewrite <- accum_app. apply kok_accum; [apply kok_nil|].
    intros [p q] Hin. apply (in_L1 ni na) in Hin. apply kok_one_term; auto. apply HPn; simpl; rewrite in_seq; lia.
  Qed.
  Lemma kok_one_elec_1i_1a h ni na nv : PEon P (seq 0 (ni + na + nv)) -> kok (one_elec_op_1i_1a h ni na nv).
  Proof. intros H. unfold one_elec_op_1i_1a. apply kok_pairs; auto. apply kok_nil. Qed.

  Lemma kok_G1_sa s2 i a ah : PE P a i -> kok (G1_sa s2 i a ah).
  Proof. intros H. apply kok_antiherm, kok_scale. now apply kok_Epq. Qed.
  Lemma kok_G2_sa f1 f2 f4 f5 i j a b case ah : (1 <= case <= 5)%nat ->
    PE P a i -> PE P b j -> PE P a j -> PE P b i -> kok (G2_sa f1 f2 f4 f5 i j a b case ah).
  Proof.
    intros Hc H1 H2 H3 H4.
    assert (A : kok (madd (mmul (Epq a i) (Epq b j)) (mmul (Epq a j) (Epq b i))))
      by (apply kok_add; apply kok_mul; now apply kok_Epq).
    assert (B : kok (msub (mmul (Epq a i) (Epq b j)) (mmul (Epq a j) (Epq b i))))
      by (apply kok_sub; apply kok_mul; now apply kok_Epq).
    unfold G2_sa. destruct case as [|[|[|[|[|[|k]]]]]]; try lia; apply kok_antiherm; apply kok_scale; assumption.
  Qed.

  (** Shape of [Gn] without the threshold assumption. *)
  Definition bkey (pre : fstring) (r : Res dict) : Prop :=
    exists D, r = Ok D /\ NoDup (dkeys D) /\
      Forall (fun k => Permutation k pre /\ ~ con k /\ (1 < length pre -> normal k)%nat) (dkeys D).

  Lemma bkey_step pre o r : pre <> [] ->
    (snd o = false \/ forall o', In o' pre -> snd o' = true) ->
    bkey pre r -> bkey (pre ++ [o]) (mmul r (a_op_spin (fst o) (snd o))).
  Proof.
    intros Hne Ho (D & -> & Hnd & Hk). cbn [mmul bind a_op_spin].
    rewrite <- (surjective_pairing o).
    set (Q := fun s => Permutation s (pre ++ [o]) /\ ~ con s).
    assert (HQ : closed Q).
    { intros s [H1 H2]. split.
      - intros t Ht Hn. split; [etransitivity; eauto|now apply normal_not_con].
      - intros Hc. contradiction. }
    assert (Hlen : (1 < length (pre ++ [o]))%nat).
    { rewrite app_length. destruct pre; [congruence|simpl; lia]. }
    rewrite Forall_forall in Hk.
    destruct (op_mul_spec Q D [([o], 1)] HQ) as (N & E & HN & HKN & _).
    { intros k2 k1 H2 [<-|[]]. simpl. destruct (Hk k2 H2) as (Hp & Hc & _).
      assert (HQ2 : Q (k2 ++ [o])).
      { split; [now apply Permutation_app_tail|].
        destruct (snd o) eqn:Eo.
        - destruct Ho as [Ho|Ho]; [congruence|].
          apply con_all_creators. intros o' Hin. apply in_app_or in Hin. destruct Hin as [Hin|[<-|[]]]; auto.
          apply Ho. eapply Permutation_in; eauto.
        - destruct o as [p a]. simpl in Eo; subst a. intros X. now apply con_snoc_ann in X. }
      split; auto. destruct HQ2 as [A B]. split; [rewrite (Permutation_length A); lia|tauto]. }
    exists N. split; [exact E|]. split; [exact HN|].
    eapply Forall_impl; [|exact HKN]. intros k [[A B] Hn]. auto.
  Qed.

  Lemma build_bkey os pre r : pre <> [] ->
    (forall (l1 : fstring) o l2, os = l1 ++ o :: l2 -> snd o = true -> forall o', In o' (pre ++ l1) -> snd o' = true) ->
    bkey pre r ->
    bkey (pre ++ os) (fold_left (fun acc x => mmul acc (a_op_spin (fst x) (snd x))) os r).
  Proof.
    revert pre r. induction os as [|o os IH]; intros pre r Hne Hos Hr; cbn [fold_left].
    - now rewrite app_nil_r.
    - replace (pre ++ o :: os) with ((pre ++ [o]) ++ os) by now rewrite <- app_assoc.
      apply IH.
      + destruct pre; discriminate.
      + intros l1 o1 l2 -> H1. specialize (Hos (o :: l1) o1 l2 eq_refl H1).
        intros o' Ho'. apply Hos. now rewrite <- app_assoc in Ho'.
      + apply bkey_step; auto. destruct (snd o) eqn:Eo; auto. right.
        intros o' Ho'. apply (Hos [] o os); auto. now rewrite app_nil_r.
  Qed.

  Lemma kok_Gn iocc avirt ah : iocc <> [] -> length avirt = length iocc -> P (gstr iocc avirt) ->
    kok (Gn iocc avirt ah).
  Proof.
    intros Hne Hlen HPg.
    assert (Hl : (1 < length (gstr iocc avirt))%nat).
    { rewrite gstr_length. destruct iocc; [congruence|]. simpl in *. lia. }
    unfold Gn. apply kok_antiherm. fold (gstr iocc avirt).
    assert (Hb : bkey (gstr iocc avirt) (match gstr iocc avirt with [] => Ok [] | o :: os => build o os end)).
    { destruct (gstr iocc avirt) as [|o os] eqn:E; [simpl in Hl; lia|]. unfold build.
      replace (o :: os) with ([o] ++ os) by reflexivity. apply build_bkey.
      - discriminate.
      - intros l1 o1 l2 Hos H1 o' Ho'. unfold gstr in E. rewrite Hos in E.
        eapply (split_creators avirt (rev iocc) (o :: l1) o1 l2); eauto.
      - unfold a_op_spin. exists [([o], 1)]. rewrite <- surjective_pairing. split; [reflexivity|].
        split; [repeat constructor; auto|].
        constructor; [|constructor]. split; [reflexivity|]. split; [|simpl; lia].
        destruct o. simpl. intros [[_ []]|[]]. }
    destruct Hb as (D & E & Hnd & Hk). exists D. split; auto. split; auto.
    eapply Forall_impl; [|exact Hk]. intros k (H1 & H2 & H3). specialize (H3 Hl). split; auto.
    split; [|split].
    - rewrite (chg_perm _ _ _ H1), chg_gstr_one. lia.
    - intros ->. apply Permutation_nil in H1. rewrite H1 in Hl. simpl in Hl; lia.
    - destruct (st_closed P HP (gstr iocc avirt) HPg) as [A _]. auto.
  Qed.
End Keys.

Section Conserve.
  Context {K : Type} {C : CRing K}.
  Local Open Scope K_scope.
  Add Ring KringKC : (@rth K C).

  Lemma bal_conserves n (D : list (fstring * K)) x y : OPS (bal n) D ->
    (nalpha n x <> nalpha n y \/ nbeta n x <> nbeta n y)%nat -> mel D x y = 0.
  Proof.
    intros [_ HD] Hne. unfold dkeys in HD. rewrite Forall_map in HD.
    induction D as [|[k c] D IH]; [reflexivity|]. inversion HD as [|? ? Hk HD']; subst.
    rewrite mel_cons, IH by auto. destruct Hk as [(_ & _ & (Ha & Hb) & Hi) _]. simpl in *.
    rewrite melstr_actdet. destruct (actdet k y) as [[sg z]|] eqn:E; [|ring].
    destruct (N.eqb_spec z x) as [->|]; [|ring]. exfalso.
    pose proof (actdet_wsum alpha_w (2 * n) _ _ _ _ Hi E) as W1.
    pose proof (actdet_wsum beta_w (2 * n) _ _ _ _ Hi E) as W2.
    rewrite !wsum_alpha in W1. rewrite !wsum_beta in W2. lia.
  Qed.

  Lemma PE_bal n p q : (p < n -> q < n -> PE (bal n) p q)%nat.
  Proof.
    intros Hp Hq.
    assert (E : forall m, Nat.even (2 * m) = true) by (intros; rewrite Nat.even_mul; reflexivity).
    assert (E1 : forall m, Nat.even (2 * m + 1) = false) by (intros; rewrite Nat.even_add, E; reflexivity).
    split; (split; [split|]); cbn [chg]; unfold alpha_w, beta_w; rewrite ?E, ?E1; try reflexivity;
      intros o [<-|[<-|[]]]; cbn [fst]; lia.
  Qed.

  Lemma PEon_bal n : PEon (bal n) (seq 0 n).
  Proof. intros p q Hp Hq. rewrite in_seq in *. apply PE_bal; lia. Qed.
End Conserve.
