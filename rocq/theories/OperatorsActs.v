(** Actions of the operators built by operators.py. *)
From Coq Require Import List Bool Arith NArith ZArith Lia Ring Sorted Permutation.
From Verif Require Import Base Fock FockMore FermiModel FermiProofs FermiAlgebra OperatorsModel OperatorsProofs OperatorsSums.
Import ListNotations.

Section Acts.
  Context {K : Type} {C : CRing K}.
  Local Open Scope K_scope.
  Add Ring KringA : (@rth K C).
  Notation dict := (list (fstring * K)).

  (** Two-body string a_P^+ a_R^+ a_S a_Q. *)
  Definition quadop (p q r s : nat) (f : amps (K:=K)) : amps :=
    app1 (p, true) (app1 (r, true) (app1 (s, false) (app1 (q, false) f))).

  (** Spec of the two-electron excitation operator: sum over both spins. *)
  Definition eact (p q r s : nat) (f : amps (K:=K)) : amps := fun x =>
    quadop (2 * p) (2 * q) (2 * r) (2 * s) f x
    + quadop (2 * p) (2 * q) (2 * r + 1) (2 * s + 1) f x
    + quadop (2 * p + 1) (2 * q + 1) (2 * r) (2 * s) f x
    + quadop (2 * p + 1) (2 * q + 1) (2 * r + 1) (2 * s + 1) f x.

  Lemma pairop_comp_quad p q r s (f : amps) x :
    pairop p q (pairop r s f) x = kdelta q r * pairop p s f x + quadop p q r s f x.
  Proof.
    rewrite pairop_comp. unfold quadop.
    rewrite (app1_ext (p, true) (app1 (r, true) (app1 (q, false) (app1 (s, false) f)))
              (fun e => - app1 (r, true) (app1 (s, false) (app1 (q, false) f)) e)).
    - rewrite app1_opp. ring.
    - intros e. rewrite (app1_ext (r, true) _ (fun e => - app1 (s, false) (app1 (q, false) f) e)).
      + apply app1_opp.
      + intros e'. now rewrite car_swap by auto.
  Qed.

  Lemma quadop_exchange p q r s (f : amps) x : quadop p q r s f x = quadop r s p q f x.
  Proof. unfold quadop. apply quad_swap. Qed.

  Lemma pairop_add p q (f g : amps) x :
    pairop p q (fun e => f e + g e) x = pairop p q f x + pairop p q g x.
  Proof.
    unfold pairop. rewrite (app1_ext (p, true) _ (fun e => app1 (q, false) f e + app1 (q, false) g e)).
    - apply app1_add.
    - intros e. apply app1_add.
  Qed.

  Lemma kdelta_double a b : kdelta (K:=K) (2 * a) (2 * b) = kdelta a b.
  Proof. unfold kdelta. destruct (Nat.eqb_spec (2 * a) (2 * b)), (Nat.eqb_spec a b); auto; lia. Qed.
  Lemma kdelta_double1 a b : kdelta (K:=K) (2 * a + 1) (2 * b + 1) = kdelta a b.
  Proof. unfold kdelta. destruct (Nat.eqb_spec (2 * a + 1) (2 * b + 1)), (Nat.eqb_spec a b); auto; lia. Qed.
  Lemma kdelta_01 a b : kdelta (K:=K) (2 * a) (2 * b + 1) = 0.
  Proof. unfold kdelta. destruct (Nat.eqb_spec (2 * a) (2 * b + 1)); auto; lia. Qed.
  Lemma kdelta_10 a b : kdelta (K:=K) (2 * a + 1) (2 * b) = 0.
  Proof. unfold kdelta. destruct (Nat.eqb_spec (2 * a + 1) (2 * b)); auto; lia. Qed.

  (** E_pq E_rs = delta_qr E_ps + e_pqrs. *)
  Lemma Eact_comp p q r s (f : amps) x :
    Eact p q (Eact r s f) x = kdelta q r * Eact p s f x + eact p q r s f x.
  Proof.
    unfold Eact at 1 2. unfold Eact at 1. rewrite !pairop_add, !pairop_comp_quad.
    rewrite kdelta_double, kdelta_double1, kdelta_01, kdelta_10. unfold Eact, eact. ring.
  Qed.

  Lemma eact_exchange p q r s (f : amps) x : eact p q r s f x = eact r s p q f x.
  Proof.
    unfold eact. rewrite (quadop_exchange (2 * p)), (quadop_exchange (2 * p) (2 * q) (2 * r + 1)),
      (quadop_exchange (2 * p + 1) (2 * q + 1) (2 * r) (2 * s)), (quadop_exchange (2 * p + 1) (2 * q + 1) (2 * r + 1)). ring.
  Qed.

  Lemma Eact_commutator p q r s (f : amps) x :
    Eact p q (Eact r s f) x - Eact r s (Eact p q f) x =
    kdelta q r * Eact p s f x - kdelta p s * Eact r q f x.
  Proof.
    rewrite !Eact_comp. rewrite (eact_exchange r s p q).
    assert (E : kdelta (K:=K) s p = kdelta p s) by (unfold kdelta; now rewrite Nat.eqb_sym).
    rewrite E. ring.
  Qed.

  Lemma pairop_str p q (f : amps) x : pairop p q f x = appstr [(p, true); (q, false)] f x.
  Proof. reflexivity. Qed.
  Lemma quadop_str p q r s (f : amps) x :
    quadop p q r s f x = appstr [(p, true); (r, true); (s, false); (q, false)] f x.
  Proof. reflexivity. Qed.

  Lemma pairop_adj p q x y : pairop p q (basis (K:=K) y) x = pairop q p (basis x) y.
  Proof. rewrite !pairop_str. exact (melstr_adj [(q, true); (p, false)] x y). Qed.
  Lemma Eact_adj p q x y : Eact p q (basis (K:=K) y) x = Eact q p (basis x) y.
  Proof. unfold Eact. now rewrite !(pairop_adj _ _ x y). Qed.
  Lemma quadop_adj p q r s x y : quadop p q r s (basis (K:=K) y) x = quadop q p s r (basis x) y.
  Proof. rewrite !quadop_str. exact (melstr_adj [(q, true); (s, true); (r, false); (p, false)] x y). Qed.
  Lemma eact_adj p q r s x y : eact p q r s (basis (K:=K) y) x = eact q p s r (basis x) y.
  Proof. unfold eact. now rewrite !(quadop_adj _ _ _ _ x y). Qed.

  Hypothesis Hex : exact_small K.
  Variable P : fstring -> Prop.
  Hypothesis HP : stable P.

  Notation PE := (PE P).

  Lemma epqrs_rep p q r s : PE p q -> PE r s -> PE p s -> rep P (epqrs p q r s) (eact p q r s).
  Proof.
    intros H1 H2 H3. unfold epqrs.
    pose proof (rep_mul Hex P HP _ _ _ _ (Epq_rep Hex P HP p q H1) (Epq_rep Hex P HP r s H2)) as Hm.
    destruct (Nat.eqb_spec q r) as [->|Hne].
    - eapply rep_ext; [apply (rep_sub Hex P _ _ _ _ Hm (Epq_rep Hex P HP p s H3))|].
      intros f x. cbn beta. rewrite Eact_comp. unfold kdelta. rewrite Nat.eqb_refl. ring.
    - eapply rep_ext; [exact Hm|]. intros f x. cbn beta. rewrite Eact_comp.
      unfold kdelta. destruct (Nat.eqb_spec q r); [contradiction|]. ring.
  Qed.

  Lemma Epq_dagger_rep p q : PE p q -> rep P (mdagger (Epq p q)) (Eact q p).
  Proof.
    intros H. eapply rep_dagger; eauto.
    - now apply Epq_rep.
    - intros x y. apply Eact_adj.
    - exists [([(2 * q, true); (2 * p, false)]%nat, 1); ([(2 * q + 1, true); (2 * p + 1, false)]%nat, 1)].
      intros f x. unfold Eact. rewrite !pairop_str. cbn [opapp]. ring.
  Qed.

  Lemma Eminuspq_rep p q : PE p q -> PE q p -> rep P (Eminuspq p q) (fun f x => Eact p q f x - Eact q p f x).
  Proof. intros H1 H2. apply rep_sub; auto; now apply Epq_rep. Qed.

  (** ** Commutators *)
  Lemma commutator_rep A B F G : rep P A F -> rep P B G ->
    rep P (commutator A B) (fun f x => F (G f) x - G (F f) x).
  Proof.
    intros HA HB. unfold commutator.
    exact (rep_sub Hex P _ _ _ _ (rep_mul Hex P HP _ _ _ _ HA HB) (rep_mul Hex P HP _ _ _ _ HB HA)).
  Qed.

  Lemma mul3_rep A B D F G H : rep P A F -> rep P B G -> rep P D H ->
    rep P (mmul (mmul A B) D) (fun f x => F (G (H f)) x).
  Proof.
    intros HA HB HD.
    exact (rep_mul Hex P HP _ _ _ _ (rep_mul Hex P HP _ _ _ _ HA HB) HD).
  Qed.

  Lemma double_commutator_rep half A B D F G H : rep P A F -> rep P B G -> rep P D H ->
    rep P (double_commutator half A B D false)
      (fun f x => F (G (H f)) x - F (H (G f)) x - G (H (F f)) x + H (G (F f)) x).
  Proof.
    intros HA HB HD. unfold double_commutator.
    exact (rep_add Hex P _ _ _ _ (rep_sub Hex P _ _ _ _ (rep_sub Hex P _ _ _ _
            (mul3_rep A B D _ _ _ HA HB HD) (mul3_rep A D B _ _ _ HA HD HB))
            (mul3_rep B D A _ _ _ HB HD HA)) (mul3_rep D B A _ _ _ HD HB HA)).
  Qed.

  Lemma double_commutator_sym_rep half A B D F G H : rep P A F -> rep P B G -> rep P D H ->
    rep P (double_commutator half A B D true)
      (fun f x => F (G (H f)) x + H (G (F f)) x
         - half * (F (H (G f)) x + G (H (F f)) x + H (F (G f)) x + G (F (H f)) x)).
  Proof.
    intros HA HB HD. unfold double_commutator.
    exact (rep_sub Hex P _ _ _ _
      (rep_add Hex P _ _ _ _ (mul3_rep A B D _ _ _ HA HB HD) (mul3_rep D B A _ _ _ HD HB HA))
      (rep_scale P half _ _ (rep_add Hex P _ _ _ _ (rep_add Hex P _ _ _ _ (rep_add Hex P _ _ _ _
         (mul3_rep A D B _ _ _ HA HD HB) (mul3_rep B D A _ _ _ HB HD HA))
         (mul3_rep D A B _ _ _ HD HA HB)) (mul3_rep B A D _ _ _ HB HA HD)))).
  Qed.

  (** ** Hamiltonians *)
  Definition ract := amps (K:=K) -> amps (K:=K).
  Definition oneF (h : nat -> nat -> K) (pq : nat * nat) : ract :=
    fun f x => h (fst pq) (snd pq) * Eact (fst pq) (snd pq) f x.
  Definition twoF (half : K) (g : nat -> nat -> nat -> nat -> K) (t : nat * nat * (nat * nat)) : ract :=
    fun f x => half * g (fst (fst t)) (snd (fst t)) (fst (snd t)) (snd (snd t))
               * eact (fst (fst t)) (snd (fst t)) (fst (snd t)) (snd (snd t)) f x.

  Lemma one_term_rep h pq : PE (fst pq) (snd pq) ->
    match one_term h pq with
    | Some t => rep P t (oneF h pq)
    | None => forall f x, oneF h pq f x = 0
    end.
  Proof.
    destruct pq as [p q]. intros H. unfold one_term, oneF. cbn [fst snd].
    destruct (small (h p q)) eqn:E.
    - apply Hex in E. intros. rewrite E. ring.
    - apply rep_scale. now apply Epq_rep.
  Qed.

  Lemma two_term_rep half g t :
    PE (fst (fst t)) (snd (fst t)) -> PE (fst (snd t)) (snd (snd t)) -> PE (fst (fst t)) (snd (snd t)) ->
    match two_term half g t with
    | Some r => rep P r (twoF half g t)
    | None => forall f x, twoF half g t f x = 0
    end.
  Proof.
    destruct t as [[p q] [r s]]. cbn [fst snd]. intros H1 H2 H3. unfold two_term, twoF. cbn [fst snd].
    destruct (small (g p q r s)) eqn:E.
    - apply Hex in E. intros. rewrite E. ring.
    - apply rep_scale. now apply epqrs_rep.
  Qed.

  Definition PEon (l : list nat) : Prop := forall p q, In p l -> In q l -> PE p q.

  Lemma hamiltonian_full_space_rep half h g n : PEon (seq 0 n) ->
    rep P (hamiltonian_full_space half h g n)
      (fun f x => lsum (pairs (seq 0 n) (seq 0 n)) (fun pq => oneF h pq f x)
                + lsum (quads (seq 0 n)) (fun t => twoF half g t f x)).
  Proof.
    intros HPn. unfold hamiltonian_full_space. apply rep_accum; auto.
    - eapply rep_ext; [apply rep_accum with (T := oneF h)|].
      + exact Hex.
      + apply rep_nil.
      + intros [p q] Hin. apply in_pairs in Hin. apply one_term_rep. apply HPn; tauto.
      + intros f x. cbn beta. ring.
    - intros [[p q] [r s]] Hin. apply in_quads in Hin. apply two_term_rep; apply HPn; simpl; tauto.
  Qed.

  Definition L1 (ni na : nat) : list (nat * nat) :=
    map (fun i => (i, i)) (seq 0 ni) ++ pairs (seq ni na) (seq ni na).
  Definition L2 (ni na : nat) : list (nat * nat * (nat * nat)) :=
    flat_map (fun ij : nat * nat => let '(i, j) := ij in
                ((i, i), (j, j)) :: (if Nat.eqb i j then [] else [((j, i), (i, j))]))
             (pairs (seq 0 ni) (seq 0 ni))
    ++ flat_map (fun ipq : nat * (nat * nat) => let '(i, (p, q)) := ipq in
                   [((i, i), (p, q)); ((p, q), (i, i)); ((p, i), (i, q)); ((i, p), (q, i))])
                (flat_map (fun i => map (fun pq => (i, pq)) (pairs (seq ni na) (seq ni na))) (seq 0 ni))
    ++ quads (seq ni na).

  Lemma hamiltonian_0i_0a_flat half (h : nat -> nat -> K) g ni na :
    hamiltonian_0i_0a half h g ni na =
    accum (two_term half g) (L2 ni na) (accum (one_term h) (L1 ni na) (Ok [])).
  Proof.
    unfold hamiltonian_0i_0a, L1, L2. rewrite !accum_app.
    rewrite <- (fold_accum (two_term half g) (fun ipq : nat * (nat * nat) => let '(i, (p, q)) := ipq in
                   [((i, i), (p, q)); ((p, q), (i, i)); ((p, i), (i, q)); ((i, p), (q, i))])).
    rewrite <- (fold_accum (two_term half g) (fun ij : nat * nat => let '(i, j) := ij in
                ((i, i), (j, j)) :: (if Nat.eqb i j then [] else [((j, i), (i, j))]))).
    assert (E1 : forall l (r : Res dict),
      fold_left (fun acc ij => let '(i, j) := ij in
                 let acc1 := accum (two_term half g) [((i, i), (j, j))] acc in
                 if Nat.eqb i j then acc1
                 else accum (two_term half g) [((j, i), (i, j))] acc1) l r =
      fold_left (fun acc (i : nat * nat) => accum (two_term half g)
        (let '(i, j) := i in ((i, i), (j, j)) :: (if Nat.eqb i j then [] else [((j, i), (i, j))])) acc) l r).
    { induction l as [|[i j] l IH]; intros r; [reflexivity|]. cbn [fold_left]. rewrite IH. f_equal.
      destruct (Nat.eqb i j); reflexivity. }
    assert (E2 : forall l (r : Res dict),
      fold_left (fun acc ipq => let '(i, (p, q)) := ipq in
                 accum (two_term half g)
                   [((i, i), (p, q)); ((p, q), (i, i)); ((p, i), (i, q)); ((i, p), (q, i))] acc) l r =
      fold_left (fun acc (i : nat * (nat * nat)) => accum (two_term half g)
        (let '(i, (p, q)) := i in
           [((i, i), (p, q)); ((p, q), (i, i)); ((p, i), (i, q)); ((i, p), (q, i))]) acc) l r).
    { induction l as [|[i [p q]] l IH]; intros r; [reflexivity|]. cbn [fold_left]. now rewrite IH. }
    cbv zeta. cbv zeta in E1. now rewrite E1, E2.
  Qed.
End Acts.
