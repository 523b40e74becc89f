(** Excitation generators G1..G6, G1_sa, G2_sa. *)
From Coq Require Import List Bool Arith NArith ZArith Lia Ring Sorted Permutation.
From Verif Require Import Base Fock FockMore FermiModel FermiProofs FermiAlgebra OperatorsModel OperatorsProofs OperatorsSums OperatorsActs OperatorsActive.
Import ListNotations.

Lemma con_snoc_ann s p : con (s ++ [(p, false)]) -> con s.
Proof.
  induction s as [|[q a] s IH]; simpl; [intros [[_ []]|[]]|].
  intros [[H1 H2]|H]; [left; split; auto|right; auto].
  apply in_app_or in H2. destruct H2 as [H2|[H2|[]]]; auto. discriminate.
Qed.

Lemma con_all_creators s : (forall o, In o s -> snd o = true) -> ~ con s.
Proof.
  induction s as [|[q a] s IH]; simpl; auto. intros H [[H1 _]|Hc].
  - specialize (H _ (or_introl eq_refl)). simpl in *. congruence.
  - apply IH in Hc; auto.
Qed.

(** Strings processed by [build]: creators first, then annihilators. *)
Definition gstr (iocc avirt : list nat) : fstring :=
  map (fun a => (a, true)) avirt ++ map (fun i => (i, false)) (rev iocc).

Section Gen.
  Context {K : Type} {C : CRing K}.
  Local Open Scope K_scope.
  Add Ring KringG : (@rth K C).
  Notation dict := (list (fstring * K)).

  Lemma vevstr_starts_creator p s : vevstr (K:=K) ((p, true) :: s) = 0.
  Proof. unfold vevstr, melstr. cbn [appstr]. unfold app1. cbn [fst snd]. rewrite occ_vacuum. reflexivity. Qed.

  Hypothesis Hex : exact_small K.

  Definition brep (pre : fstring) (r : Res dict) : Prop :=
    exists D, r = Ok D /\ NoDup (dkeys D) /\
      Forall (fun k => Permutation k pre /\ ~ con k /\ (1 < length pre -> normal k)%nat) (dkeys D) /\
      forall f x, opapp D f x = appstr pre f x.

  Lemma brep_step pre o r : pre <> [] ->
    (snd o = false \/ forall o', In o' pre -> snd o' = true) ->
    brep pre r -> brep (pre ++ [o]) (mmul r (a_op_spin (fst o) (snd o))).
  Proof.
    intros Hne Ho (D & -> & Hnd & Hk & Hs). cbn [mmul bind a_op_spin].
    rewrite <- (surjective_pairing o).
    set (Q := fun s => Permutation s (pre ++ [o]) /\ ~ con s).
    assert (HQ : closed Q).
    { intros s [H1 H2]. split.
      - intros t Ht Hn. split; [etransitivity; eauto|now apply normal_not_con].
      - intros Hc. contradiction. }
    assert (Hlen : (1 < length (pre ++ [o]))%nat).
    { rewrite app_length. destruct pre; [congruence|simpl; lia]. }
    rewrite Forall_forall in Hk.
    assert (Hkeys : forall k2 k1, In k2 (dkeys D) -> In k1 (dkeys [([o], 1 : K)]) -> Q (k2 ++ k1) /\ safe (k2 ++ k1)).
    { intros k2 k1 H2 [<-|[]]. simpl. destruct (Hk k2 H2) as (Hp & Hc & _).
      assert (HQ2 : Q (k2 ++ [o])).
      { split; [now apply Permutation_app_tail|].
        destruct Ho as [Ho|Ho].
        - destruct o as [p a]. simpl in Ho; subst a. intros X. now apply con_snoc_ann in X.
        - destruct (snd o) eqn:Eo.
          + apply con_all_creators. intros o' Hin. apply in_app_or in Hin. destruct Hin as [Hin|[<-|[]]]; auto.
            apply Ho. eapply Permutation_in; eauto.
          + destruct o as [p a]. simpl in Eo; subst a. intros X. now apply con_snoc_ann in X. }
      split; auto. destruct HQ2 as [A B]. split; [rewrite (Permutation_length A); lia|tauto]. }
    destruct (op_mul_spec Q D [([o], 1)] HQ Hkeys) as (N & E & HN & HKN & drops & Hd & Hsem).
    exists N. split; [exact E|]. split; [exact HN|]. split.
    - eapply Forall_impl; [|exact HKN]. intros k [[A B] Hn]. auto.
    - intros f x. rewrite appstr_app. specialize (Hsem f x).
      rewrite opapp_prodl, (small_drops_zero drops Hex Hd) in Hsem.
      assert (Hv : vne (prodl D [([o], 1)]) = 0).
      { clear -Hk Ho Hne. unfold prodl. cbn [flat_map fst snd]. rewrite app_nil_r.
        assert (Hk' : forall kc, In kc D -> Permutation (fst kc) pre).
        { intros kc Hin. destruct (Hk (fst kc)) as [A _]; auto. unfold dkeys. now apply in_map. }
        clear Hk. induction D as [|[k c] D IH]; [reflexivity|]. cbn [map vne fst snd].
        rewrite IH by (intros; apply Hk'; now right).
        assert (Hp : Permutation k pre) by (apply (Hk' (k, c)); now left).
        destruct (k ++ [o]) eqn:E; [ring|]. rewrite <- E.
        assert (Hz : vevstr (K:=K) (k ++ [o]) = 0).
        { destruct (snd o) eqn:Eo.
          - destruct Ho as [Ho|Ho]; [congruence|].
            destruct k as [|[q b] k].
            + apply Permutation_nil in Hp. congruence.
            + assert (b = true) by (apply (Ho (q, b)); eapply Permutation_in; [exact Hp|now left]).
              subst b. apply vevstr_starts_creator.
          - apply vevstr_ends_ann. exists k, (fst o). rewrite <- Eo. now rewrite <- surjective_pairing. }
        rewrite Hz. ring. }
      rewrite Hv in Hsem. rewrite <- Hs.
      rewrite (opapp_ext D (appstr [o] f) (opapp [([o], 1)] f)); [rewrite Hsem; ring|].
      intros d. cbn [opapp]. ring.
  Qed.

  Lemma build_brep os pre r : pre <> [] ->
    (forall (l1 : fstring) o l2, os = l1 ++ o :: l2 -> snd o = true -> forall o', In o' (pre ++ l1) -> snd o' = true) ->
    brep pre r ->
    brep (pre ++ os) (fold_left (fun acc x => mmul acc (a_op_spin (fst x) (snd x))) os r).
  Proof.
    revert pre r. induction os as [|o os IH]; intros pre r Hne Hos Hr; cbn [fold_left].
    - now rewrite app_nil_r.
    - replace (pre ++ o :: os) with ((pre ++ [o]) ++ os) by now rewrite <- app_assoc.
      apply IH.
      + destruct pre; discriminate.
      + intros l1 o1 l2 -> H1. specialize (Hos (o :: l1) o1 l2 eq_refl H1).
        intros o' Ho'. apply Hos. now rewrite <- app_assoc in Ho'.
      + apply brep_step; auto. destruct (snd o) eqn:Eo; auto. right.
        intros o' Ho'. apply (Hos [] o os); auto. now rewrite app_nil_r.
  Qed.

  Lemma split_creators (avirt ann : list nat) (l1 : fstring) o l2 :
    map (fun a => (a, true)) avirt ++ map (fun i => (i, false)) ann = l1 ++ o :: l2 -> snd o = true ->
    forall o', In o' l1 -> @snd nat bool o' = true.
  Proof.
    revert l1. induction avirt as [|a avirt IH]; intros l1 E Ho o' Hin; cbn [map app] in E.
    - exfalso. assert (H : In o (map (fun i => (i, false)) ann)) by (rewrite E; apply in_or_app; right; now left).
      apply in_map_iff in H. destruct H as (i & <- & _). discriminate.
    - destruct l1 as [|o1 l1]; [destruct Hin|]. inversion E; subst.
      destruct Hin as [<-|Hin]; auto. eapply IH; eauto.
  Qed.

  (** Shape of the excitation part, before subtracting the adjoint. *)
  Lemma Gn_brep iocc avirt : gstr iocc avirt <> [] -> brep (gstr iocc avirt) (Gn iocc avirt false).
  Proof.
    intros Hne. unfold Gn, antiherm. fold (gstr iocc avirt).
    destruct (gstr iocc avirt) as [|o os] eqn:E; [congruence|]. unfold build.
    replace (o :: os) with ([o] ++ os) by reflexivity. apply build_brep.
    - discriminate.
    - intros l1 o1 l2 Hos H1 o' Ho'. unfold gstr in E. rewrite Hos in E.
      eapply (split_creators avirt (rev iocc) (o :: l1) o1 l2); eauto.
    - unfold a_op_spin. exists [([o], 1)]. rewrite <- surjective_pairing. split; [reflexivity|].
      split; [repeat constructor; auto|]. split.
      + constructor; [|constructor]. split; [reflexivity|]. split; [|simpl; lia].
        destruct o. simpl. intros [[_ []]|[]].
      + intros f x. cbn [opapp]. ring.
  Qed.

  Variable P : fstring -> Prop.
  Hypothesis HP : stable P.

  Lemma chg_gstr_one iocc avirt :
    chg one_w (gstr iocc avirt) = (Z.of_nat (length avirt) - Z.of_nat (length iocc))%Z.
  Proof.
    unfold gstr. rewrite chg_app. change (map (fun a => (a, true)) avirt) with (creators avirt).
    change (map (fun i => (i, false)) (rev iocc)) with (annihilators (rev iocc)).
    rewrite chg_creators_one, chg_annihilators_one, rev_length. lia.
  Qed.

  Lemma gstr_length iocc avirt : length (gstr iocc avirt) = (length avirt + length iocc)%nat.
  Proof. unfold gstr. now rewrite app_length, !map_length, rev_length. Qed.

  Lemma Gn_rep iocc avirt : iocc <> [] -> length avirt = length iocc -> P (gstr iocc avirt) ->
    rep P (Gn iocc avirt false) (appstr (gstr iocc avirt)).
  Proof.
    intros Hne Hlen HPg.
    assert (Hl : (1 < length (gstr iocc avirt))%nat).
    { rewrite gstr_length. destruct iocc; [congruence|]. simpl in *. lia. }
    destruct (Gn_brep iocc avirt) as (D & E & Hnd & Hk & Hs).
    { intros X. rewrite X in Hl. simpl in Hl; lia. }
    exists D. split; auto. split; [split; auto|auto]. eapply Forall_impl; [|exact Hk].
    intros k (H1 & H2 & H3). specialize (H3 Hl). split; auto.
    split; [|split].
    - rewrite (chg_perm _ _ _ H1), chg_gstr_one. lia.
    - intros ->. apply Permutation_nil in H1. rewrite H1 in Hl. simpl in Hl; lia.
    - destruct (st_closed P HP (gstr iocc avirt) HPg) as [A _]. auto.
  Qed.

  Definition Tact (s : fstring) : amps (K:=K) -> amps := fun f x => appstr s f x - appstr (adjstr s) f x.

  Lemma antiherm_rep r F G : rep P r F ->
    (forall x y, F (basis y) x = G (basis x) y) ->
    (exists E : dict, forall f x, opapp E f x = G f x) ->
    rep P (antiherm true r) (fun f x => F f x - G f x).
  Proof.
    intros H1 H2 H3. unfold antiherm. apply rep_sub; auto. eapply rep_dagger; eauto.
  Qed.

  Lemma Gn_anti_rep iocc avirt : iocc <> [] -> length avirt = length iocc -> P (gstr iocc avirt) ->
    rep P (Gn iocc avirt true) (Tact (gstr iocc avirt)).
  Proof.
    intros H1 H2 H3. pose proof (Gn_rep iocc avirt H1 H2 H3) as H.
    change (Gn iocc avirt true) with (antiherm true (Gn (K:=K) iocc avirt false)).
    apply antiherm_rep; auto.
    - intros x y. symmetry. apply (melstr_adj (gstr iocc avirt) y x).
    - exists [(adjstr (gstr iocc avirt), 1)]. intros f x. cbn [opapp]. ring.
  Qed.

  (** ** T^3 = -T *)
  Lemma appstr_iso s (f : amps) x : appstr (K:=K) s (appstr (adjstr s) (appstr s f)) x = appstr s f x.
  Proof.
    rewrite (appstr_gather s (appstr (adjstr s) (appstr s f)) x).
    destruct (actdet (adjstr s) x) as [[sg y]|] eqn:E.
    - rewrite (appstr_gather (adjstr s)). rewrite adjstr_involutive.
      apply actdet_adj in E. rewrite adjstr_involutive in E. rewrite E, sgn_sgn, xorb_nilpotent. reflexivity.
    - rewrite appstr_gather, E. reflexivity.
  Qed.

  Lemma actdet_occ s x sg y p b : NoDup (map fst s) -> In (p, b) s ->
    actdet s x = Some (sg, y) -> occ x p = negb b /\ occ y p = b.
  Proof.
    revert sg y. induction s as [|[q a] s IH]; intros sg y Hn Hin H; [destruct Hin|].
    cbn [actdet] in H. cbn [map fst] in Hn. inversion Hn as [|? ? Hq Hn']; subst.
    destruct (actdet s x) as [[sg' e]|] eqn:E; [|discriminate]. cbn [fst snd] in H.
    assert (Hy : y = flip e q /\ occ e q = negb a).
    { destruct (occ e q), a; inversion H; auto. }
    destruct Hy as [-> Hoe]. destruct Hin as [Hin|Hin].
    - inversion Hin; subst. rewrite occ_flip_same, Hoe, negb_involutive. split; auto.
      pose proof (actdet_chg _ _ _ _ p E) as Hc.
      assert (Hz : chg (dw p) s = 0%Z).
      { clear -Hq. induction s as [|[r c] s IHs]; [reflexivity|]. cbn [map fst] in Hq. cbn [chg].
        rewrite IHs by (intros X; apply Hq; now right). unfold dw.
        destruct (Nat.eqb_spec p r) as [->|]; [exfalso; apply Hq; now left|]. destruct c; reflexivity. }
      rewrite Hz, Hoe in Hc. destruct (occ x p), b; simpl in *; auto; lia.
    - destruct (IH _ _ Hn' Hin eq_refl) as [A B]. split; auto.
      assert (p <> q). { intros ->. apply Hq. apply in_map_iff. exists (q, b); auto. }
      rewrite occ_flip_other; auto.
  Qed.

  Lemma appstr_square_zero s (f : amps) x : NoDup (map fst s) -> s <> [] ->
    appstr (K:=K) s (appstr s f) x = 0.
  Proof.
    intros Hn Hne. rewrite <- appstr_app, appstr_gather, adjstr_app, actdet_app.
    destruct (actdet (adjstr s) x) as [[sg y]|] eqn:E; auto.
    destruct (actdet (adjstr s) y) as [[sg' z]|] eqn:E'; auto. exfalso.
    apply actdet_adj in E, E'. rewrite adjstr_involutive in E, E'.
    destruct s as [|[p b] s]; [congruence|].
    destruct (actdet_occ _ _ _ _ p b Hn (or_introl eq_refl) E) as [A _].
    destruct (actdet_occ _ _ _ _ p b Hn (or_introl eq_refl) E') as [_ B].
    rewrite A in B. destruct b; discriminate.
  Qed.

  Lemma adjstr_nodup s : NoDup (map fst s) -> NoDup (map fst (adjstr s)).
  Proof.
    intros H. unfold adjstr. rewrite map_rev, map_map. simpl. now apply NoDup_rev.
  Qed.

  Lemma appstr_sub s (f g : amps) x : appstr (K:=K) s (fun e => f e - g e) x = appstr s f x - appstr s g x.
  Proof.
    rewrite (appstr_ext s _ (fun e => f e + (- (1)) * g e)) by (intros; ring).
    rewrite (appstr_add s f (fun e => - (1) * g e)), appstr_scale. ring.
  Qed.

  Lemma Tact_square s (f : amps) x : NoDup (map fst s) -> s <> [] ->
    Tact s (Tact s f) x = - (appstr s (appstr (adjstr s) f) x + appstr (adjstr s) (appstr s f) x).
  Proof.
    intros Hn Hne. unfold Tact. rewrite !appstr_sub.
    rewrite appstr_square_zero by auto. rewrite appstr_square_zero.
    - ring.
    - now apply adjstr_nodup.
    - intros E. apply (f_equal (@length _)) in E. rewrite adjstr_length in E. destruct s; [congruence|discriminate].
  Qed.

  Lemma Tact_cube s (f : amps) x : NoDup (map fst s) -> s <> [] ->
    Tact s (Tact s (Tact s f)) x = - Tact s f x.
  Proof.
    intros Hn Hne. rewrite Tact_square by auto.
    assert (E1 : appstr s (appstr (adjstr s) (Tact s f)) x = appstr s f x).
    { rewrite (appstr_ext s _ (fun e => appstr (adjstr s) (appstr s f) e - appstr (adjstr s) (appstr (adjstr s) f) e))
        by (intros; apply appstr_sub).
      rewrite appstr_sub, appstr_iso.
      rewrite (appstr_zero s (appstr (adjstr s) (appstr (adjstr s) f))); [ring|].
      intros e. apply appstr_square_zero; [now apply adjstr_nodup|].
      intros E. apply (f_equal (@length _)) in E. rewrite adjstr_length in E. destruct s; [congruence|discriminate]. }
    assert (E2 : appstr (adjstr s) (appstr s (Tact s f)) x = - appstr (adjstr s) f x).
    { rewrite (appstr_ext (adjstr s) _ (fun e => appstr s (appstr s f) e - appstr s (appstr (adjstr s) f) e))
        by (intros; apply appstr_sub).
      rewrite appstr_sub.
      rewrite (appstr_zero (adjstr s) (appstr s (appstr s f))); [|intros; now apply appstr_square_zero].
      pose proof (appstr_iso (adjstr s) f x) as Hi. rewrite adjstr_involutive in Hi. rewrite Hi. ring. }
    rewrite E1, E2. unfold Tact. ring.
  Qed.

  Lemma gstr_nodup iocc avirt : NoDup (iocc ++ avirt) -> NoDup (map fst (gstr iocc avirt)).
  Proof.
    intros H. unfold gstr. rewrite map_app, !map_map. simpl. rewrite !map_id.
    eapply Permutation_NoDup; [|exact H]. rewrite Permutation_app_comm. apply Permutation_app_head.
    apply Permutation_rev.
  Qed.

  Lemma Tact_adj s x y : Tact s (basis (K:=K) y) x = - Tact s (basis x) y.
  Proof.
    unfold Tact.
    assert (E : forall t u v, appstr (K:=K) (adjstr t) (basis u) v = appstr t (basis v) u)
      by (intros; apply melstr_adj).
    rewrite !E. ring.
  Qed.
End Gen.
