(** Properties C01-C08: operator algebra of FermionicOperator. *)
From Coq Require Import List Bool Arith NArith ZArith Lia Ring Sorted Permutation.
From Verif Require Import Base Fock FermiModel FermiProofs FermiAlgebra FermiUnique FermiFold.
Import ListNotations.

Section Props.
  Context {K : Type} {C : CRing K}.
  Local Open Scope K_scope.
  Add Ring KringP : (@rth K C).
  Notation dict := (list (fstring * K)).

  (** C01: normal ordering terminates on every operator; the only exception is
      IndexError, and it never happens for strings of even length. *)
  Theorem C01_normal_order_terminates (d : dict) :
    normal_order d <> Hang /\ (forall e, normal_order d = Raise e -> e = IndexError).
  Proof.
    pose proof (normal_order_spec d (fun _ => True)) as H.
    destruct (normal_order d) as [D|e|].
    - split; [discriminate|]. intros e E; discriminate.
    - split; [discriminate|]. intros e' E; inversion E; subst. apply H.
      + intros s _. auto.
      + apply Forall_forall; auto.
    - exfalso. apply H; [intros s _; auto|apply Forall_forall; auto].
  Qed.

  (** Products and adjoints of arbitrary operators terminate. *)
  Theorem C01_mul_terminates (A B : dict) : op_mul A B <> Hang.
  Proof.
    unfold op_mul.
    assert (H1 : forall r kc1 kc2, r <> Hang -> mul_step (K:=K) r kc1 kc2 <> Hang).
    { intros r kc1 kc2 Hr. unfold mul_step. destruct r as [d|e|]; cbn [bind]; [|discriminate|congruence].
      destruct (C01_normal_order_terminates [(fst kc2 ++ fst kc1, snd kc2 * snd kc1)]) as [Hn _].
      destruct (normal_order _); cbn [bind]; [discriminate|discriminate|congruence]. }
    assert (H2 : forall A' r kc1, r <> Hang ->
      fold_left (fun acc' kc2 => mul_step (K:=K) acc' kc1 kc2) A' r <> Hang).
    { induction A' as [|kc2 A' IH]; intros r kc1 Hr; simpl; auto. }
    assert (H3 : forall B' r, r <> Hang ->
      fold_left (fun acc kc1 => fold_left (fun acc' kc2 => mul_step (K:=K) acc' kc1 kc2) A acc) B' r <> Hang).
    { induction B' as [|kc1 B' IH]; intros r Hr; simpl; auto. }
    apply H3. discriminate.
  Qed.

  Theorem C01_dagger_terminates (A : dict) : op_dagger A <> Hang.
  Proof. apply C01_normal_order_terminates. Qed.

  (** Even-length strings, and strings of length other than one without an
      annihilator left of its own creator, are always ordered successfully. *)
  Theorem C01_normal_order_succeeds (d : dict) :
    Forall (fun s => Nat.even (length s) = true \/ (length s <> 1%nat /\ ~ con s)) (dkeys d) ->
    exists D, normal_order d = Ok D.
  Proof.
    intros H.
    assert (Hs : Forall safe (dkeys d)).
    { eapply Forall_impl; [|exact H]. intros s [E|[E1 E2]]; split; auto.
      intros X. rewrite X in E. discriminate. }
    pose proof (normal_order_spec d safe safe_closed Hs) as X.
    destruct (normal_order d) as [D|e|]; [eauto| |tauto].
    destruct X as (_ & o & Ho & _). simpl in Ho. congruence.
  Qed.

  (** A string of length one always raises (any factor). *)
  Theorem C01_length_one_raises (o : fop) (c : K) (d : dict) :
    normal_order (([o], c) :: d) = Raise IndexError.
  Proof.
    unfold normal_order.
    assert (Hone : forall n, iterp n no_step ((([o], c) :: d), @nil (fstring * K)) = inr (Raise IndexError)).
    { induction n as [|n IH]; [reflexivity|]. cbn [iterp]. now rewrite IH. }
    now rewrite Hone.
  Qed.

  (** C02: effect of normal ordering one string.  [drops] are the coefficients
      deleted by the 1e-14 test. *)
  Theorem C02_normal_order_action (s : fstring) (c : K) D :
    s <> [] -> normal_order [(s, c)] = Ok D ->
    exists drops, all_small drops /\
      forall (psi : amps) x,
        c * appstr s psi x = opapp D psi x + c * vevstr s * psi x + opapp drops psi x.
  Proof.
    intros Hs E.
    pose proof (normal_order_spec [(s, c)] (fun _ => True)) as H. rewrite E in H.
    destruct H as ((drops & H1 & H2) & _ & _).
    - intros t _. auto.
    - constructor; auto.
    - exists drops. split; auto. intros psi x. specialize (H2 psi x). cbn [opapp vne] in H2.
      destruct s as [|o s]; [congruence|].
      transitivity (c * appstr (o :: s) psi x + 0); [ring|]. rewrite H2. ring.
  Qed.

  (** With an exact zero test there are no corrections at all. *)
  Theorem C02_normal_order_action_exact (s : fstring) (c : K) D :
    exact_small K -> s <> [] -> normal_order [(s, c)] = Ok D ->
    forall (psi : amps) x, opapp D psi x = c * appstr s psi x - c * vevstr s * psi x.
  Proof.
    intros He Hs E psi x. destruct (C02_normal_order_action s c D Hs E) as (drops & Hd & H).
    rewrite H. rewrite (small_drops_zero drops He Hd). ring.
  Qed.

  (** The whole dictionary at once (as in [dagger]). *)
  Theorem C02_normal_order_dict_action (d : dict) D :
    Forall (fun s => s <> []) (dkeys d) -> normal_order d = Ok D ->
    exists drops, all_small drops /\
      forall (psi : amps) x, opapp d psi x = opapp D psi x + vev d * psi x + opapp drops psi x.
  Proof.
    intros Hs E.
    pose proof (normal_order_spec d (fun _ => True)) as H. rewrite E in H.
    destruct H as ((drops & H1 & H2) & _ & _).
    - intros t _. auto.
    - apply Forall_forall; auto.
    - exists drops. split; auto. intros psi x. rewrite H2, vne_vev; auto.
      unfold dkeys in Hs. now rewrite Forall_map in Hs.
  Qed.

  (** The identity part of a_p a_p^+ is lost: the product is off by exactly the
      identity. *)
  Theorem C02_identity_lost (p : nat) (c : K) :
    normal_order [([(p, false); (p, true)], c)] = Ok [([(p, true); (p, false)], - c)] /\
    forall (psi : amps) x,
      c * appstr [(p, false); (p, true)] psi x
      = opapp [([(p, true); (p, false)], - c)] psi x + c * psi x.
  Proof.
    split.
    - unfold normal_order. cbn -[Nat.mul]. unfold no_step, sort_fuel. cbn. rewrite Nat.eqb_refl. reflexivity.
    - intros psi x. cbn [appstr opapp]. rewrite car_contract. ring.
  Qed.

  (** C03: shape of the results. *)
  Theorem C03_normal_order_canonical (d : dict) D : normal_order d = Ok D ->
    NoDup (dkeys D) /\ Forall normal (dkeys D).
  Proof.
    intros E. pose proof (normal_order_spec d (fun _ => True)) as H. rewrite E in H.
    destruct H as (_ & H1 & H2).
    - intros t _. auto.
    - apply Forall_forall; auto.
    - split; auto. eapply Forall_impl; [|exact H2]. simpl; tauto.
  Qed.

  Theorem C03_mul_canonical (A B : dict) D : op_mul A B = Ok D ->
    NoDup (dkeys D) /\ Forall normal (dkeys D).
  Proof.
    assert (H1 : forall r kc1 kc2, (forall D, r = Ok D -> canonical (K:=K) D) ->
              forall D, mul_step r kc1 kc2 = Ok D -> canonical D).
    { intros r kc1 kc2 Hr D0. unfold mul_step. destruct r as [d| |]; cbn [bind]; try discriminate.
      destruct (normal_order _) as [N| |] eqn:En; cbn [bind]; try discriminate.
      intros E; inversion E; subst. apply op_add_canonical; auto.
      split; apply (C03_normal_order_canonical _ _ En). }
    assert (H2 : forall A' r kc1, (forall D, r = Ok D -> canonical (K:=K) D) ->
      forall D, fold_left (fun acc' kc2 => mul_step (K:=K) acc' kc1 kc2) A' r = Ok D -> canonical D).
    { induction A' as [|kc2 A' IH]; intros r kc1 Hr D0; simpl; auto. apply IH. now apply H1. }
    assert (H3 : forall B' r, (forall D, r = Ok D -> canonical (K:=K) D) -> forall D,
      fold_left (fun acc kc1 => fold_left (fun acc' kc2 => mul_step (K:=K) acc' kc1 kc2) A acc) B' r = Ok D -> canonical D).
    { induction B' as [|kc1 B' IH]; intros r Hr D0; simpl; auto. apply IH. now apply H2. }
    apply H3. intros D0 E; inversion E; subst. split; constructor.
  Qed.

  Theorem C03_dagger_canonical (A : dict) D : op_dagger A = Ok D ->
    NoDup (dkeys D) /\ Forall normal (dkeys D).
  Proof. apply C03_normal_order_canonical. Qed.

  Theorem C03_sum_canonical (A B : dict) :
    (NoDup (dkeys A) /\ Forall normal (dkeys A)) -> (NoDup (dkeys B) /\ Forall normal (dkeys B)) ->
    (NoDup (dkeys (op_add A B)) /\ Forall normal (dkeys (op_add A B))) /\
    (NoDup (dkeys (op_sub A B)) /\ Forall normal (dkeys (op_sub A B))).
  Proof. intros HA HB. split; [now apply op_add_canonical|now apply op_sub_canonical]. Qed.

  (** The canonical form is unique: operators with the same matrix elements have
      the same coefficients, so comparing dictionaries decides equality of
      operators (missing keys counting as zero). *)
  Theorem C03_canonical_unique (D1 D2 : dict) :
    (NoDup (dkeys D1) /\ Forall normal (dkeys D1)) -> (NoDup (dkeys D2) /\ Forall normal (dkeys D2)) ->
    (forall x y, mel D1 x y = mel D2 x y) ->
    forall k, match dget k D1 with Some v => v | None => 0 end =
              match dget k D2 with Some v => v | None => 0 end.
  Proof. apply canonical_unique. Qed.

  (** C04 *)
  Theorem C04_add_action (A B : dict) :
    exists drops, all_small drops /\
      forall (psi : amps) x, opapp A psi x + opapp B psi x = opapp (op_add A B) psi x + opapp drops psi x.
  Proof. apply op_add_opapp. Qed.
  Theorem C04_sub_action (A B : dict) :
    exists drops, all_small drops /\
      forall (psi : amps) x, opapp A psi x - opapp B psi x = opapp (op_sub A B) psi x + opapp drops psi x.
  Proof. apply op_sub_opapp. Qed.
  Theorem C04_add_sub_exact (A B : dict) (psi : amps) x : exact_small K ->
    opapp (op_add A B) psi x = opapp A psi x + opapp B psi x /\
    opapp (op_sub A B) psi x = opapp A psi x - opapp B psi x.
  Proof.
    intros He. destruct (op_add_opapp B A) as (d1 & S1 & E1). destruct (op_sub_opapp B A) as (d2 & S2 & E2).
    rewrite E1, E2, (small_drops_zero _ He S1), (small_drops_zero _ He S2). split; ring.
  Qed.
  Theorem C04_neg_scale_action (A : dict) c (psi : amps) x :
    opapp (op_neg A) psi x = - opapp A psi x /\ opapp (op_scale c A) psi x = c * opapp A psi x.
  Proof. split; [apply op_neg_opapp|apply op_scale_opapp]. Qed.

  (** C05 *)
  Theorem C05_mul_composition (A B : dict) :
    (forall a b, In a (dkeys A) -> In b (dkeys B) ->
       Nat.even (length (a ++ b)) = true \/ (length (a ++ b) <> 1%nat /\ ~ con (a ++ b))) ->
    Forall (fun b => exists b' p, b = b' ++ [(p, false)]) (dkeys B) ->
    exists D, op_mul A B = Ok D /\ exists drops, all_small drops /\
      forall (psi : amps) x, opapp A (opapp B psi) x = opapp D psi x + opapp drops psi x.
  Proof.
    intros Hab HB.
    destruct (op_mul_spec (fun _ => True) A B) as (D & E & _ & _ & drops & Hs & H).
    - intros s _; auto.
    - intros a b Ha Hb. split; auto. destruct (Hab a b Ha Hb) as [X|[X1 X2]]; split; auto.
      intros Y. rewrite Y in X. discriminate.
    - exists D. split; auto. exists drops. split; auto. intros psi x.
      rewrite <- opapp_prodl, H, vne_ends_ann; [ring|]. apply prodl_keys. intros a b Ha Hb.
      apply ends_ann_app. rewrite Forall_forall in HB. destruct (HB b Hb) as (b' & p & ->). now exists b', p.
  Qed.

  (** Arbitrary factors: off by the vacuum expectation value times the identity. *)
  Theorem C05_mul_general (A B : dict) :
    (forall a b, In a (dkeys A) -> In b (dkeys B) ->
       a ++ b <> [] /\ (Nat.even (length (a ++ b)) = true \/ (length (a ++ b) <> 1%nat /\ ~ con (a ++ b)))) ->
    exists D, op_mul A B = Ok D /\ exists drops, all_small drops /\
      forall (psi : amps) x,
        opapp A (opapp B psi) x =
        opapp D psi x + opapp A (opapp B (basis vacuum)) vacuum * psi x + opapp drops psi x.
  Proof.
    intros Hab.
    destruct (op_mul_spec (fun _ => True) A B) as (D & E & _ & _ & drops & Hs & H).
    - intros s _; auto.
    - intros a b Ha Hb. split; auto. destruct (Hab a b Ha Hb) as [_ [X|[X1 X2]]]; split; auto.
      intros Y. rewrite Y in X. discriminate.
    - exists D. split; auto. exists drops. split; auto. intros psi x.
      rewrite <- opapp_prodl, H, vne_prodl_vev; [|intros a b Ha Hb; apply Hab; auto].
      unfold vev, mel. rewrite opapp_prodl. reflexivity.
  Qed.

  (** C06 *)
  Theorem C06_dagger_adjoint (A : dict) :
    Forall (fun k => normal k /\ (2 <= length k)%nat) (dkeys A) ->
    exists D, op_dagger A = Ok D /\ exists drops, all_small drops /\
      forall x y, mel A y x = mel D x y + mel drops x y.
  Proof.
    intros HA. destruct (op_dagger_spec A) as (D & E & _ & drops & Hs & H).
    - eapply Forall_impl; [|exact HA]. intros k [H1 H2]. split.
      + rewrite adjstr_length. lia.
      + intros Hc. exfalso. eapply adjstr_normal_not_con; eauto.
    - exists D. split; auto. exists drops. split; auto. intros x y. rewrite H.
      replace (vne A) with (0 : K); [ring|].
      clear -HA. induction A as [|[k c] A IH]; [reflexivity|]. inversion HA as [|? ? [H1 H2] H3]; subst.
      cbn [vne]. rewrite <- IH by auto. cbn [fst] in *. destruct k as [|o k]; [simpl in H2; lia|].
      rewrite normal_vev by (auto; discriminate). ring.
  Qed.

  (** Any operator: off by its vacuum expectation value. *)
  Theorem C06_dagger_adjoint_general (A : dict) :
    Forall (fun k => (2 <= length k)%nat /\ Nat.even (length k) = true) (dkeys A) ->
    exists D, op_dagger A = Ok D /\ exists drops, all_small drops /\
      forall x y, mel A y x = mel D x y + vev A * basis y x + mel drops x y.
  Proof.
    intros HA. destruct (op_dagger_spec A) as (D & E & _ & drops & Hs & H).
    - eapply Forall_impl; [|exact HA]. intros k [H1 H2]. split.
      + rewrite adjstr_length. lia.
      + intros _. now rewrite adjstr_length.
    - exists D. split; auto. exists drops. split; auto. intros x y. rewrite H, vne_vev; auto.
      unfold dkeys in HA. rewrite Forall_map in HA. eapply Forall_impl; [|exact HA].
      intros kc [H1 _] X. rewrite X in H1. simpl in H1. lia.
  Qed.

  Lemma perm_length_closed n : closed (fun s => length s = n \/ (length s < n)%nat).
  Proof.
    intros s Hs. split.
    - intros t Hp _. now rewrite (Permutation_length Hp).
    - intros _ p t _ Hp. apply Permutation_length in Hp. cbn [length] in Hp. lia.
  Qed.

  Theorem C06_dagger_involution (A : dict) : exact_small K ->
    Forall (fun k => normal k /\ (2 <= length k)%nat) (dkeys A) ->
    exists D D', op_dagger A = Ok D /\ op_dagger D = Ok D' /\ forall x y, mel D' x y = mel A x y.
  Proof.
    intros He HA. destruct (C06_dagger_adjoint A HA) as (D & E & dr & Hs & H).
    assert (HD : Forall (fun k => normal k /\ (2 <= length k)%nat) (dkeys D)).
    { unfold op_dagger in E. set (A' := map _ A) in E.
      (* lengths are preserved because adjoints of normal strings do not contract *)
      pose proof (normal_order_spec A' (fun s => (2 <= length s)%nat /\ ~ con s)) as X.
      rewrite E in X. destruct X as (_ & _ & X).
      - intros s [H1 H2]. split.
        + intros t Hp Hn. split; [now rewrite (Permutation_length Hp)|now apply normal_not_con].
        + intros Hc. contradiction.
      - unfold A', dkeys in *. rewrite !Forall_map in *. eapply Forall_impl; [|exact HA].
        intros kc [H1 H2]. cbn [fst]. rewrite dag_key_adjstr. split; [rewrite adjstr_length; lia|].
        now apply adjstr_normal_not_con.
      - eapply Forall_impl; [|exact X]. simpl; tauto. }
    destruct (C06_dagger_adjoint D HD) as (D' & E' & dr' & Hs' & H').
    exists D, D'. repeat split; auto. intros x y.
    transitivity (mel D y x - mel dr' x y); [rewrite H'; ring|].
    rewrite (H y x). unfold mel at 2 4. rewrite !(small_drops_zero _ He) by auto. ring.
  Qed.

  (** C07 *)
  Theorem C07_isub_self_raises (A : dict) : small (0 : K) = true -> A <> [] ->
    op_isub_self A = Raise RuntimeError.
  Proof. intros H0 Hne. now apply isub_self_raises. Qed.

  Theorem C07_sub_self_is_zero (A : dict) : small (0 : K) = true -> NoDup (dkeys A) ->
    op_sub A A = [].
  Proof. intros. now apply op_sub_self. Qed.

  Theorem C07_iadd_self_doubles (A : dict) : NoDup (dkeys A) ->
    Forall (fun kc => small (snd kc + snd kc) = false) A ->
    op_iadd_self A = Ok (map (fun kc => (fst kc, snd kc + snd kc)) A).
  Proof. apply iadd_self_doubles. Qed.

  (** C08 *)
  Theorem C08_folding_preserves_matrix_elements ni na nv (A : dict) x y :
    Forall (fun s => normal s /\
                     length (filter (fun o : fop => snd o) s) = length (filter (fun o : fop => negb (snd o)) s) /\
                     (forall o, In o s -> (fst o < 2 * ni + 2 * na + 2 * nv)%nat)) (dkeys A) ->
    (forall p, (2 * na <= p)%nat -> occ x p = false) ->
    (forall p, (2 * na <= p)%nat -> occ y p = false) ->
    mel (op_fold ni na nv A) x y = mel A (embed ni x) (embed ni y).
  Proof. intros HA Hx Hy. now apply op_fold_spec. Qed.

  (** The embedded determinant has all inactive orbitals filled, all virtual
      orbitals empty and the given active part. *)
  Theorem C08_embed_meaning ni na d p : (forall q, (2 * na <= q)%nat -> occ d q = false) ->
    occ (embed ni d) p =
    (if Nat.ltb p (2 * ni) then true
     else if Nat.ltb p (2 * ni + 2 * na) then occ d (p - 2 * ni) else false).
  Proof.
    intros Hd. rewrite occ_embed. destruct (Nat.ltb_spec p (2 * ni)); auto.
    destruct (Nat.ltb_spec p (2 * ni + 2 * na)); auto. apply Hd. lia.
  Qed.
End Props.

(** ** Non-vacuity and counterexamples, over the integers *)
Local Existing Instance Z_CRing.

(** The claim "IndexError only when the concatenated string has length one" is
    false: a_0 * (a_0^+ a_1) has length three, leaves [a_1] on the queue and raises. *)
Theorem C01_index_error_only_length_one_refuted :
  exists A B : list (fstring * Z),
    Forall (fun s => length s = 1) (dkeys A) /\ Forall (fun s => length s = 2) (dkeys B) /\
    op_mul A B = Raise IndexError.
Proof.
  exists [([(0, false)], (1)%Z)], [([(0, true); (1, false)], (1)%Z)].
  split; [repeat constructor|split; [repeat constructor|vm_compute; reflexivity]].
Qed.

Example C01_example :
  Forall (fun s : fstring => Nat.even (length s) = true) (dkeys [([(0, false); (1, true); (1, false); (0, true)], (3)%Z)])
  /\ normal_order [([(0, false); (1, true); (1, false); (0, true)], (3)%Z)]
     = Ok [([(1, true); (0, true); (1, false); (0, false)], (3)%Z); ([(1, true); (1, false)], (3)%Z)].
Proof. split; [repeat constructor|vm_compute; reflexivity]. Qed.

Example C02_example : exact_small Z /\
  normal_order [([(2, false); (2, true); (1, true); (2, false)], (5)%Z)] = Ok [([(1, true); (2, false)], (5)%Z)].
Proof. split; [exact Z_exact_small|vm_compute; reflexivity]. Qed.

(** Two Epq-like operators meet the hypotheses of the product theorem. *)
Definition exA : list (fstring * Z) := [([(0, true); (2, false)], (1)%Z); ([(1, true); (3, false)], (1)%Z)].
Definition exB : list (fstring * Z) := [([(2, true); (0, false)], (1)%Z); ([(3, true); (1, false)], (1)%Z)].
Example C05_example :
  (forall a b, In a (dkeys exA) -> In b (dkeys exB) ->
       Nat.even (length (a ++ b)) = true \/ (length (a ++ b) <> 1 /\ ~ con (a ++ b))) /\
  Forall (fun b => exists b' p, b = b' ++ [(p, false)]) (dkeys exB) /\
  exists D, op_mul exA exB = Ok D /\ length D = 6.
Proof.
  split; [|split].
  - intros a b Ha Hb. left. simpl in Ha, Hb. destruct Ha as [<-|[<-|[]]], Hb as [<-|[<-|[]]]; reflexivity.
  - repeat constructor; [exists [(2, true)], 0|exists [(3, true)], 1]; reflexivity.
  - eexists. split; [vm_compute; reflexivity|reflexivity].
Qed.

Example C06_example :
  Forall (fun k => normal k /\ (2 <= length k)) (dkeys exA) /\
  op_dagger exA = Ok [([(2, true); (0, false)], (1)%Z); ([(3, true); (1, false)], (1)%Z)].
Proof.
  split; [|vm_compute; reflexivity].
  repeat constructor; [exists [0], [2]|exists [1], [3]];
    (split; [reflexivity|split; repeat constructor]).
Qed.

Example C07_example : exA <> [] /\ op_isub_self exA = Raise RuntimeError /\ op_sub exA exA = [] /\
  op_iadd_self exA = Ok (op_scale 2%Z exA) /\ small 0%Z = true.
Proof. repeat split; try (vm_compute; reflexivity). discriminate. Qed.

(** Two-electron string with one inactive pair: the folded sign is nontrivial. *)
Definition exF : list (fstring * Z) := [([(3, true); (0, true); (2, false); (0, false)], (1)%Z)].
Example C08_example :
  Forall (fun s => normal s /\
     length (filter (fun o : fop => snd o) s) = length (filter (fun o : fop => negb (snd o)) s) /\
     (forall o, In o s -> (fst o < 2 * 1 + 2 * 1 + 2 * 0))) (dkeys exF) /\
  op_fold 1 1 0 exF = [([(1, true); (0, false)], (-1)%Z)] /\
  mel exF (embed 1 2%N) (embed 1 1%N) = (-1)%Z.
Proof.
  split; [|split; vm_compute; reflexivity].
  constructor; [|constructor]. split; [|split; [reflexivity|]].
  - exists [3; 0], [2; 0]. split; [reflexivity|split; repeat constructor].
  - intros o [<-|[<-|[<-|[<-|[]]]]]; simpl; lia.
Qed.

(** Without number conservation the sign rule of the folding is wrong. *)
Theorem C08_folding_unbalanced_refuted :
  exists (A : list (fstring * Z)) x y,
    Forall normal (dkeys A) /\
    mel (op_fold 1 1 0 A) x y <> mel A (embed 1 x) (embed 1 y).
Proof.
  exists [([(2, true); (0, true); (0, false)], (1)%Z)], 1%N, 0%N. split.
  - repeat constructor. exists [2; 0], [0]. split; [reflexivity|split; repeat constructor].
  - vm_compute. discriminate.
Qed.

Print Assumptions C01_normal_order_terminates.
Print Assumptions C01_mul_terminates.
Print Assumptions C01_dagger_terminates.
Print Assumptions C01_normal_order_succeeds.
Print Assumptions C01_length_one_raises.
Print Assumptions C01_index_error_only_length_one_refuted.
Print Assumptions C02_normal_order_action.
Print Assumptions C02_normal_order_action_exact.
Print Assumptions C02_normal_order_dict_action.
Print Assumptions C02_identity_lost.
Print Assumptions C03_normal_order_canonical.
Print Assumptions C03_mul_canonical.
Print Assumptions C03_dagger_canonical.
Print Assumptions C03_sum_canonical.
Print Assumptions C03_canonical_unique.
Print Assumptions C04_add_action.
Print Assumptions C04_sub_action.
Print Assumptions C04_add_sub_exact.
Print Assumptions C04_neg_scale_action.
Print Assumptions C05_mul_composition.
Print Assumptions C05_mul_general.
Print Assumptions C06_dagger_adjoint.
Print Assumptions C06_dagger_adjoint_general.
Print Assumptions C06_dagger_involution.
Print Assumptions C07_isub_self_raises.
Print Assumptions C07_sub_self_is_zero.
Print Assumptions C07_iadd_self_doubles.
Print Assumptions C08_folding_preserves_matrix_elements.
Print Assumptions C08_embed_meaning.
Print Assumptions C08_folding_unbalanced_refuted.
