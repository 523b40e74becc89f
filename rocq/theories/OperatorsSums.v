(** Finite sums and loops over index lists. *)
From Coq Require Import List Bool Arith NArith ZArith Lia Ring Permutation.
From Verif Require Import Base Fock FockMore FermiModel FermiProofs FermiAlgebra OperatorsModel OperatorsProofs.
Import ListNotations.

Section Sums.
  Context {K : Type} {C : CRing K}.
  Local Open Scope K_scope.
  Add Ring KringS : (@rth K C).
  Notation dict := (list (fstring * K)).

  Definition lsum {I} (l : list I) (F : I -> K) : K := fold_right (fun i a => F i + a) 0 l.

  Lemma lsum_app {I} (l m : list I) F : lsum (l ++ m) F = lsum l F + lsum m F.
  Proof. induction l as [|i l IH]; simpl; [ring|]. rewrite IH. ring. Qed.
  Lemma lsum_ext {I} (l : list I) F G : (forall i, In i l -> F i = G i) -> lsum l F = lsum l G.
  Proof.
    induction l as [|i l IH]; simpl; auto. intros H. rewrite (H i) by auto. rewrite IH; auto.
  Qed.
  Lemma lsum_zero {I} (l : list I) F : (forall i, In i l -> F i = 0) -> lsum l F = 0.
  Proof.
    induction l as [|i l IH]; simpl; auto. intros H. rewrite (H i) by auto. rewrite IH; auto. ring.
  Qed.
  Lemma lsum_add {I} (l : list I) F G : lsum l (fun i => F i + G i) = lsum l F + lsum l G.
  Proof. induction l as [|i l IH]; simpl; [ring|]. rewrite IH. ring. Qed.
  Lemma lsum_scale {I} (l : list I) c F : lsum l (fun i => c * F i) = c * lsum l F.
  Proof. induction l as [|i l IH]; simpl; [ring|]. rewrite IH. ring. Qed.
  Lemma lsum_perm {I} (l m : list I) F : Permutation l m -> lsum l F = lsum m F.
  Proof. induction 1; simpl; try ring; congruence. Qed.
  Lemma lsum_map {I J} (g : I -> J) (l : list I) F : lsum (map g l) F = lsum l (fun i => F (g i)).
  Proof. induction l as [|i l IH]; simpl; auto. now rewrite IH. Qed.
  Lemma lsum_flat_map {I J} (g : I -> list J) (l : list I) F :
    lsum (flat_map g l) F = lsum l (fun i => lsum (g i) F).
  Proof. induction l as [|i l IH]; simpl; auto. rewrite lsum_app. now rewrite IH. Qed.
  Lemma lsum_swap {I J} (l : list I) (m : list J) (F : I -> J -> K) :
    lsum l (fun i => lsum m (fun j => F i j)) = lsum m (fun j => lsum l (fun i => F i j)).
  Proof.
    induction l as [|i l IH]; simpl.
    - symmetry. now apply lsum_zero.
    - rewrite IH. rewrite <- lsum_add. reflexivity.
  Qed.

  Lemma lsum_filter {I} (p : I -> bool) (l : list I) F :
    (forall i, In i l -> p i = false -> F i = 0) -> lsum l F = lsum (filter p l) F.
  Proof.
    induction l as [|i l IH]; simpl; auto. intros H. rewrite IH by auto.
    destruct (p i) eqn:E; simpl; auto. rewrite (H i) by auto. ring.
  Qed.

  (** Sums over two duplicate-free index lists agree when the terms outside the
      common part vanish. *)
  Lemma lsum_support {I} (dec : forall a b : I, {a = b} + {a <> b}) (l m : list I) F :
    NoDup l -> NoDup m ->
    (forall i, In i l -> ~ In i m -> F i = 0) ->
    (forall i, In i m -> ~ In i l -> F i = 0) ->
    lsum l F = lsum m F.
  Proof.
    intros Hl Hm H1 H2.
    set (inb := fun (k : list I) (i : I) => if in_dec dec i k then true else false).
    rewrite (lsum_filter (inb m) l), (lsum_filter (inb l) m).
    - apply lsum_perm, NoDup_Permutation; try now apply NoDup_filter.
      intros i. rewrite !filter_In. unfold inb.
      destruct (in_dec dec i l), (in_dec dec i m); intuition discriminate.
    - intros i Hi. unfold inb. destruct (in_dec dec i l); [discriminate|auto].
    - intros i Hi. unfold inb. destruct (in_dec dec i m); [discriminate|auto].
  Qed.

  (** ** Loops *)
  Hypothesis Hex : exact_small K.
  Variable P : fstring -> Prop.
  Hypothesis HP : stable P.

  Lemma rep_accum {I} (term : I -> option (Res dict)) (T : I -> amps -> amps) l r F :
    rep P r F ->
    (forall i, In i l -> match term i with
                         | Some t => rep P t (T i)
                         | None => forall f x, T i f x = 0 end) ->
    rep P (accum term l r) (fun f x => F f x + lsum l (fun i => T i f x)).
  Proof.
    unfold accum. revert r F. induction l as [|i l IH]; intros r F Hr Ht; cbn [fold_left lsum fold_right].
    - eapply rep_ext; [exact Hr|]. intros; ring.
    - eapply rep_ext.
      + apply (IH _ (fun f x => F f x + T i f x)).
        * specialize (Ht i (or_introl eq_refl)). destruct (term i) as [t|].
          -- now apply rep_add.
          -- eapply rep_ext; [exact Hr|]. intros. rewrite Ht. ring.
        * intros j Hj. apply Ht. now right.
      + intros f x. cbn beta. unfold lsum. ring.
  Qed.

  Lemma accum_app {I} (term : I -> option (Res dict)) l m r :
    accum term (l ++ m) r = accum term m (accum term l r).
  Proof. unfold accum. now rewrite fold_left_app. Qed.

  Lemma fold_accum {I J} (term : J -> option (Res dict)) (g : I -> list J) l r :
    fold_left (fun acc i => accum term (g i) acc) l r = accum term (flat_map g l) r.
  Proof.
    revert r. induction l as [|i l IH]; intros r; simpl; auto. now rewrite IH, accum_app.
  Qed.
End Sums.

Lemma in_pairs l m p q : In (p, q) (pairs l m) <-> In p l /\ In q m.
Proof.
  unfold pairs. rewrite in_flat_map. split.
  - intros (x & Hx & H). apply in_map_iff in H. destruct H as (y & E & Hy). inversion E; subst; auto.
  - intros [H1 H2]. exists p. split; auto. apply in_map_iff. eauto.
Qed.

Lemma in_quads l p q r s :
  In ((p, q), (r, s)) (quads l) <-> In p l /\ In q l /\ In r l /\ In s l.
Proof.
  unfold quads. rewrite in_flat_map. split.
  - intros (x & Hx & H). apply in_map_iff in H. destruct H as (y & E & Hy). inversion E; subst.
    apply in_pairs in Hx, Hy. tauto.
  - intros (H1 & H2 & H3 & H4). exists (p, q). split; [now apply in_pairs|].
    apply in_map_iff. exists (r, s). split; auto. now apply in_pairs.
Qed.

Lemma NoDup_flat_map {I J} (f : I -> list J) (key : J -> I) l :
  NoDup l -> (forall i, In i l -> NoDup (f i)) -> (forall i j, In i l -> In j (f i) -> key j = i) ->
  NoDup (flat_map f l).
Proof.
  induction l as [|i l IH]; intros Hn H1 H2; simpl; [constructor|].
  inversion Hn as [|? ? Hi Hn']; subst.
  assert (H3 : NoDup (flat_map f l)) by (apply IH; auto with datatypes).
  assert (H4 : NoDup (f i)) by (apply H1; now left).
  assert (Hd : forall j, In j (f i) -> ~ In j (flat_map f l)).
  { intros j Hj Hj'. apply in_flat_map in Hj'. destruct Hj' as (i' & Hi' & Hj').
    assert (E1 : key j = i) by (apply H2; auto; now left).
    assert (E2 : key j = i') by (apply H2; auto; now right). rewrite <- E1, E2 in Hi. contradiction. }
  clear -H3 H4 Hd. induction (f i) as [|j t IHt]; simpl; auto. inversion H4; subst. constructor.
  - rewrite in_app_iff. intros [X|X]; [contradiction|]. apply (Hd j); auto. now left.
  - apply IHt; auto. intros k Hk. apply Hd. now right.
Qed.

Lemma NoDup_map_inj {I J} (f : I -> J) l :
  (forall a b, f a = f b -> a = b) -> NoDup l -> NoDup (map f l).
Proof. intros Hf Hn. now apply FinFun.Injective_map_NoDup. Qed.

Lemma NoDup_app_disj {I} (l m : list I) :
  NoDup l -> NoDup m -> (forall i, In i l -> ~ In i m) -> NoDup (l ++ m).
Proof.
  induction l as [|i l IH]; simpl; auto. intros Hl Hm Hd. inversion Hl; subst. constructor.
  - rewrite in_app_iff. intros [X|X]; [contradiction|]. apply (Hd i); auto.
  - apply IH; auto.
Qed.

Lemma NoDup_pairs l m : NoDup l -> NoDup m -> NoDup (pairs l m).
Proof.
  intros Hl Hm. unfold pairs. apply (NoDup_flat_map _ fst); auto.
  - intros i _. apply NoDup_map_inj; auto. intros a b E; now inversion E.
  - intros i [a b] _ H. apply in_map_iff in H. destruct H as (x & E & _). inversion E; auto.
Qed.

Lemma NoDup_quads l : NoDup l -> NoDup (quads l).
Proof.
  intros Hl. unfold quads. apply (NoDup_flat_map _ fst).
  - now apply NoDup_pairs.
  - intros i _. apply NoDup_map_inj; [|now apply NoDup_pairs]. intros a b E; now inversion E.
  - intros i [a b] _ H. apply in_map_iff in H. destruct H as (x & E & _). inversion E; auto.
Qed.
