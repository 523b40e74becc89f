(** Normal-ordered strings are linearly independent, so the canonical form of an
    operator is unique. *)
From Coq Require Import List Bool Arith NArith ZArith Lia Ring Sorted Permutation.
From Verif Require Import Base Fock FermiModel FermiProofs FermiAlgebra.
Import ListNotations.

Definition mem (p : nat) (l : list nat) : bool := existsb (Nat.eqb p) l.

Lemma mem_In p l : mem p l = true <-> In p l.
Proof.
  unfold mem. rewrite existsb_exists. split.
  - intros (x & H & E). apply Nat.eqb_eq in E. now subst.
  - intros H. exists p. split; auto. apply Nat.eqb_refl.
Qed.

Fixpoint detof (l : list nat) : det :=
  match l with [] => vacuum | p :: r => flip (detof r) p end.

Lemma occ_detof l p : NoDup l -> occ (detof l) p = mem p l.
Proof.
  induction 1 as [|q l Hq Hl IH]; [apply occ_vacuum|]. cbn [detof mem existsb].
  fold (mem p l). destruct (Nat.eqb_spec p q) as [->|Hne].
  - rewrite occ_flip_same, IH. destruct (mem q l) eqn:E; auto. apply mem_In in E. contradiction.
  - rewrite occ_flip_other by auto. rewrite IH. reflexivity.
Qed.

Lemma ann_act qs y sg e : NoDup qs -> actdet (annihilators qs) y = Some (sg, e) ->
  (forall p, In p qs -> occ y p = true) /\
  (forall p, occ e p = occ y p && negb (mem p qs)).
Proof.
  intros Hn; revert sg e; induction Hn as [|q qs Hq Hn IH]; cbn [annihilators map actdet]; intros sg e E.
  - inversion E; subst. split; [easy|]. intros p. now rewrite andb_true_r.
  - fold (annihilators qs) in E. destruct (actdet (annihilators qs) y) as [[sg1 e1]|]; [|discriminate].
    destruct (IH sg1 e1 eq_refl) as [H1 H2]. cbn [fst snd] in E.
    destruct (occ e1 q) eqn:X; [|discriminate].
    inversion E; subst. split.
    + intros p [->|Hp]; auto. rewrite H2 in X. now apply andb_true_iff in X.
    + intros p. cbn [mem existsb]. fold (mem p qs). destruct (Nat.eqb_spec p q) as [->|Hne].
      * rewrite occ_flip_same, X. simpl. now rewrite andb_false_r.
      * rewrite occ_flip_other by auto. rewrite H2. reflexivity.
Qed.

Lemma ann_act_some qs y : NoDup qs -> (forall p, In p qs -> occ y p = true) ->
  exists sg e, actdet (annihilators qs) y = Some (sg, e).
Proof.
  induction 1 as [|q qs Hq Hn IH]; intros Hy; [exists false, y; reflexivity|].
  destruct IH as (sg & e & E); [intros p Hp; apply Hy; now right|].
  destruct (ann_act _ _ _ _ Hn E) as [_ H2].
  cbn [annihilators map actdet]. fold (annihilators qs). rewrite E. cbn [fst snd].
  assert (X : occ e q = true).
  { rewrite H2, (Hy q) by (now left). destruct (mem q qs) eqn:M; auto. apply mem_In in M. contradiction. }
  rewrite X. simpl. eauto.
Qed.

Lemma cre_act cs y sg e : NoDup cs -> actdet (creators cs) y = Some (sg, e) ->
  (forall p, In p cs -> occ y p = false) /\
  (forall p, occ e p = occ y p || mem p cs).
Proof.
  intros Hn; revert sg e; induction Hn as [|q cs Hq Hn IH]; cbn [creators map actdet]; intros sg e E.
  - inversion E; subst. split; [easy|]. intros p. now rewrite orb_false_r.
  - fold (creators cs) in E. destruct (actdet (creators cs) y) as [[sg1 e1]|]; [|discriminate].
    destruct (IH sg1 e1 eq_refl) as [H1 H2]. cbn [fst snd] in E.
    destruct (occ e1 q) eqn:X; [discriminate|].
    inversion E; subst. split.
    + intros p [->|Hp]; auto. rewrite H2 in X. now apply orb_false_iff in X.
    + intros p. cbn [mem existsb]. fold (mem p cs). destruct (Nat.eqb_spec p q) as [->|Hne].
      * rewrite occ_flip_same, X. simpl. now rewrite orb_true_r.
      * rewrite occ_flip_other by auto. rewrite H2. reflexivity.
Qed.

Lemma cre_act_some cs y : NoDup cs -> (forall p, In p cs -> occ y p = false) ->
  exists sg e, actdet (creators cs) y = Some (sg, e).
Proof.
  induction 1 as [|q cs Hq Hn IH]; intros Hy; [exists false, y; reflexivity|].
  destruct IH as (sg & e & E); [intros p Hp; apply Hy; now right|].
  destruct (cre_act _ _ _ _ Hn E) as [_ H2].
  cbn [creators map actdet]. fold (creators cs). rewrite E. cbn [fst snd].
  assert (X : occ e q = false).
  { rewrite H2, (Hy q) by (now left). destruct (mem q cs) eqn:M; auto. apply mem_In in M. contradiction. }
  rewrite X. simpl. eauto.
Qed.

Lemma sorted_gt_nodup l : StronglySorted gt l -> NoDup l.
Proof.
  induction 1 as [|x l Hs IH Hall]; constructor; auto.
  rewrite Forall_forall in Hall. intros H. specialize (Hall x H). lia.
Qed.

Lemma sorted_gt_ext l m : StronglySorted gt l -> StronglySorted gt m ->
  (forall p, In p l <-> In p m) -> l = m.
Proof.
  intros Hl; revert m. induction Hl as [|x l Hl IH Hall]; intros m Hm Heq.
  - destruct m as [|y m]; auto. exfalso. destruct (Heq y) as [_ H]. apply H. now left.
  - destruct Hm as [|y m Hm Hmall].
    + exfalso. destruct (Heq x) as [H _]. apply H. now left.
    + rewrite Forall_forall in Hall, Hmall.
      assert (x = y).
      { destruct (Heq x) as [H1 _]. destruct (H1 (or_introl eq_refl)) as [E|E]; auto.
        destruct (Heq y) as [_ H2]. destruct (H2 (or_introl eq_refl)) as [E2|E2]; auto.
        specialize (Hall y E2). specialize (Hmall x E). lia. }
      subst y. f_equal. apply IH; auto. intros p. split; intros Hp.
      * destruct (Heq p) as [H _]. destruct (H (or_intror Hp)) as [E|E]; auto.
        subst. specialize (Hall p Hp). lia.
      * destruct (Heq p) as [_ H]. destruct (H (or_intror Hp)) as [E|E]; auto.
        subst. specialize (Hmall p Hp). lia.
Qed.

Section Unique.
  Context {K : Type} {C : CRing K}.
  Local Open Scope K_scope.
  Add Ring Kring4 : (@rth K C).
  Notation dict := (list (fstring * K)).

  (** Total coefficient of a key. *)
  Fixpoint coef (k : fstring) (l : dict) : K :=
    match l with
    | [] => 0
    | (k', c) :: l' => (if key_eqb k k' then c else 0) + coef k l'
    end.

  Fixpoint gsum (g : fstring -> K) (l : dict) : K :=
    match l with [] => 0 | (k, c) :: l' => c * g k + gsum g l' end.

  Definition without (k : fstring) (l : dict) : dict :=
    filter (fun kc => negb (key_eqb k (fst kc))) l.

  Lemma gsum_without g k l : gsum g l = coef k l * g k + gsum g (without k l).
  Proof.
    induction l as [|[k' c] l IH]; simpl; [ring|]. rewrite IH.
    destruct (key_eqb k k') eqn:E; simpl.
    - apply key_eqb_spec in E; subst. ring.
    - ring.
  Qed.

  Lemma coef_without k k' l : coef k' (without k l) = if key_eqb k' k then 0 else coef k' l.
  Proof.
    induction l as [|[k0 c] l IH]; simpl.
    - now destruct (key_eqb k' k).
    - destruct (key_eqb k k0) eqn:E; simpl.
      + apply key_eqb_spec in E; subst k0. rewrite IH.
        destruct (key_eqb k' k); ring.
      + rewrite IH. destruct (key_eqb k' k) eqn:E'; [|ring].
        apply key_eqb_spec in E'; subst k'. rewrite E. ring.
  Qed.

  Lemma without_length k l : (length (without k l) <= length l)%nat.
  Proof. unfold without. induction l as [|[k' c] l IH]; simpl; auto. destruct (negb _); simpl; lia. Qed.

  Lemma gsum_zero g l : (forall k, g k = 0 \/ coef k l = 0) -> gsum g l = 0.
  Proof.
    remember (length l) as n eqn:En. assert (Hn : (length l <= n)%nat) by lia. clear En.
    revert l Hn. induction n as [|n IH]; intros l Hn H.
    - destruct l; simpl in *; auto; lia.
    - destruct l as [|[k c] l]; auto. rewrite (gsum_without g k).
      rewrite IH.
      + destruct (H k) as [->| ->]; ring.
      + simpl. rewrite key_eqb_refl. simpl. pose proof (without_length k l). simpl in Hn. lia.
      + intros k'. destruct (H k') as [E|E]; auto. right. rewrite coef_without, E.
        now destruct (key_eqb k' k).
  Qed.

  Lemma gsum_single g l k0 : (forall k, k = k0 \/ g k = 0 \/ coef k l = 0) ->
    gsum g l = coef k0 l * g k0.
  Proof.
    intros H. rewrite (gsum_without g k0), gsum_zero; [ring|]. intros k.
    rewrite coef_without. destruct (key_eqb k k0) eqn:E; auto.
    destruct (H k) as [->|H']; auto. rewrite key_eqb_refl in E. discriminate.
  Qed.

  Lemma mel_gsum (l : dict) x y : mel l x y = gsum (fun k => melstr k x y) l.
  Proof. induction l as [|[k c] l IH]; [reflexivity|]. rewrite mel_cons, IH. reflexivity. Qed.

  Lemma coef_notin k (l : dict) : ~ In k (dkeys l) -> coef k l = 0.
  Proof.
    induction l as [|[k' c] l IH]; simpl; auto. intros H.
    rewrite IH by tauto. destruct (key_eqb k k') eqn:E; [|ring].
    apply key_eqb_spec in E. subst. exfalso; auto.
  Qed.

  Lemma coef_indep (l : dict) : Forall normal (dkeys l) ->
    (forall x y, mel l x y = 0) -> forall k, coef k l = 0.
  Proof.
    intros Hl Hz.
    assert (H : forall n cs qs, length qs = n -> StronglySorted gt cs -> StronglySorted gt qs ->
              coef (creators cs ++ annihilators qs) l = 0).
    { induction n as [n IH] using lt_wf_ind. intros cs qs Hlen Hcs Hqs.
      pose proof (sorted_gt_nodup _ Hcs) as Ncs. pose proof (sorted_gt_nodup _ Hqs) as Nqs.
      set (y := detof qs). set (x := detof cs). set (k0 := creators cs ++ annihilators qs).
      assert (Hone : mel l x y = coef k0 l * melstr k0 x y).
      { rewrite mel_gsum. apply gsum_single. intros k.
        destruct (in_dec (list_eq_dec (fun a b : nat * bool =>
           ltac:(decide equality; [apply bool_dec|apply Nat.eq_dec]))) k (dkeys l)) as [Hin|Hout].
        2: { right; right. now apply coef_notin. }
        rewrite Forall_forall in Hl. destruct (Hl k Hin) as (cs' & qs' & -> & Hcs' & Hqs').
        pose proof (sorted_gt_nodup _ Hcs') as Ncs'. pose proof (sorted_gt_nodup _ Hqs') as Nqs'.
        destruct (lt_dec (length qs') n) as [Hlt|Hge].
        { right; right. apply (IH (length qs')); auto. }
        rewrite melstr_actdet, actdet_app.
        destruct (actdet (annihilators qs') y) as [[sg1 e1]|] eqn:E1; auto.
        destruct (actdet (creators cs') e1) as [[sg2 e2]|] eqn:E2; auto.
        destruct (ann_act _ _ _ _ Nqs' E1) as [A1 A2]. destruct (cre_act _ _ _ _ Ncs' E2) as [B1 B2].
        assert (Hincl : incl qs' qs).
        { intros p Hp. specialize (A1 p Hp). unfold y in A1. rewrite occ_detof in A1 by auto.
          now apply mem_In. }
        assert (Heq : qs' = qs).
        { apply sorted_gt_ext; auto. intros p. split; auto.
          apply NoDup_length_incl; auto. lia. }
        subst qs'.
        destruct (N.eqb_spec e2 x) as [Ex|Ex]; auto. left. unfold k0. f_equal.
        f_equal. apply sorted_gt_ext; auto. intros p. rewrite <- !mem_In.
        rewrite <- (occ_detof cs p Ncs). fold x. rewrite <- Ex, B2, A2.
        unfold y. rewrite occ_detof by auto. destruct (mem p qs); simpl; tauto. }
      rewrite Hz in Hone.
      assert (Hme : exists sg, melstr (K:=K) k0 x y = sgn sg 1).
      { unfold k0. rewrite melstr_actdet, actdet_app.
        destruct (ann_act_some qs y Nqs) as (sg1 & e1 & E1).
        { intros p Hp. unfold y. rewrite occ_detof by auto. now apply mem_In. }
        rewrite E1. destruct (ann_act _ _ _ _ Nqs E1) as [A1 A2].
        assert (e1v : forall p, occ e1 p = false).
        { intros p. rewrite A2. unfold y. rewrite occ_detof by auto. now destruct (mem p qs). }
        destruct (cre_act_some cs e1 Ncs) as (sg2 & e2 & E2); [auto|]. rewrite E2.
        destruct (cre_act _ _ _ _ Ncs E2) as [B1 B2].
        assert (Ex : e2 = x).
        { apply det_ext. intros p. rewrite B2, e1v. unfold x. now rewrite occ_detof. }
        rewrite Ex, N.eqb_refl. eauto. }
      destruct Hme as [sg Hme]. rewrite Hme in Hone. fold k0.
      destruct sg; simpl in Hone.
      - transitivity (- (coef k0 l * - (1))); [ring|]. rewrite <- Hone. ring.
      - transitivity (coef k0 l * 1); [ring|]. now rewrite <- Hone. }
    intros k. destruct (in_dec (list_eq_dec (fun a b : nat * bool =>
           ltac:(decide equality; [apply bool_dec|apply Nat.eq_dec]))) k (dkeys l)) as [Hin|Hout].
    - rewrite Forall_forall in Hl. destruct (Hl k Hin) as (cs & qs & -> & H1 & H2). eapply H; eauto.
    - now apply coef_notin.
  Qed.

  Lemma coef_app k (l m : dict) : coef k (l ++ m) = coef k l + coef k m.
  Proof. induction l as [|[k' c] l IH]; simpl; [ring|]. rewrite IH. ring. Qed.

  Lemma coef_neg k (l : dict) : coef k (op_neg l) = - coef k l.
  Proof.
    induction l as [|[k' c] l IH]; simpl; [ring|]. rewrite IH. destruct (key_eqb k k'); ring.
  Qed.

  Lemma coef_dget k (l : dict) : NoDup (dkeys l) ->
    coef k l = match dget k l with Some v => v | None => 0 end.
  Proof.
    induction l as [|[k' c] l IH]; simpl; auto. intros Hn. inversion Hn; subst.
    destruct (key_eqb k k') eqn:E.
    - apply key_eqb_spec in E; subst. rewrite coef_notin by auto. ring.
    - rewrite IH by auto. ring.
  Qed.

  (** Two canonical operators with the same action have the same coefficients. *)
  Lemma canonical_unique (D1 D2 : dict) : canonical D1 -> canonical D2 ->
    (forall x y, mel D1 x y = mel D2 x y) ->
    forall k, match dget k D1 with Some v => v | None => 0 end =
              match dget k D2 with Some v => v | None => 0 end.
  Proof.
    intros [N1 C1] [N2 C2] He k. rewrite <- !coef_dget by auto.
    assert (Hz : coef k (D1 ++ op_neg D2) = 0).
    { apply coef_indep.
      - unfold dkeys. rewrite map_app. apply Forall_app. split; auto.
        change (map fst (op_neg D2)) with (dkeys (op_neg D2)). now rewrite op_neg_keys.
      - intros x y. unfold mel. rewrite opapp_app, op_neg_opapp.
        change (mel D1 x y + - mel D2 x y = 0). rewrite He. ring. }
    rewrite coef_app, coef_neg in Hz.
    transitivity (coef k D2 + (coef k D1 + - coef k D2)); [ring|]. rewrite Hz. ring.
  Qed.
End Unique.
