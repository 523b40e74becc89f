(** Proofs about operators.py: a calculus for computations returning number
    conserving operators. *)
From Coq Require Import List Bool Arith NArith ZArith Lia Ring Sorted Permutation.
From Verif Require Import Base Fock FockMore FermiModel FermiProofs FermiAlgebra OperatorsModel.
Import ListNotations.

Definition one_w : nat -> Z := fun _ => 1%Z.

Lemma chg_adj w s : chg w (adjstr s) = (- chg w s)%Z.
Proof.
  induction s as [|[p a] s IH]; [reflexivity|].
  unfold adjstr. cbn [map rev]. fold (adjstr s). rewrite chg_app, IH. destruct a; simpl; lia.
Qed.

Lemma adjstr_app s t : adjstr (s ++ t) = adjstr t ++ adjstr s.
Proof. unfold adjstr. now rewrite map_app, rev_app_distr. Qed.

Lemma chg_one_parity s : Z.even (chg one_w s) = Nat.even (length s).
Proof.
  induction s as [|[p a] s IH]; [reflexivity|].
  cbn [length chg]. rewrite Nat.even_succ, <- Nat.negb_even, <- IH.
  unfold one_w at 1. destruct a; rewrite Z.even_add; simpl; fold one_w; destruct (Z.even _); reflexivity.
Qed.

Lemma chg_creators w cs : chg w (creators cs) = fold_right Z.add 0%Z (map w cs).
Proof. induction cs as [|c cs IH]; simpl; auto. rewrite IH. reflexivity. Qed.

Lemma chg_creators_one cs : chg one_w (creators cs) = Z.of_nat (length cs).
Proof.
  induction cs as [|c cs IH]; [reflexivity|]. unfold creators in *. cbn [map chg length]. rewrite IH. unfold one_w. lia.
Qed.
Lemma chg_annihilators_one cs : chg one_w (annihilators cs) = (- Z.of_nat (length cs))%Z.
Proof.
  induction cs as [|c cs IH]; [reflexivity|]. unfold annihilators in *. cbn [map chg length]. rewrite IH. unfold one_w. lia.
Qed.

(** Predicates on strings preserved by the string operations of the library. *)
Record stable (P : fstring -> Prop) : Prop := {
  st_closed : closed P;
  st_app : forall a b, P a -> P b -> P (a ++ b);
  st_adj : forall a, P a -> P (adjstr a)
}.

Lemma stable_true : stable (fun _ => True).
Proof. split; auto. intros s _; auto. Qed.

Lemma stable_chg w : stable (fun s => chg w s = 0%Z).
Proof.
  split.
  - apply chg_closed.
  - intros a b Ha Hb. rewrite chg_app. lia.
  - intros a Ha. rewrite chg_adj. lia.
Qed.

Lemma stable_in (I : nat -> Prop) : stable (fun s => forall o, In o s -> I (fst o)).
Proof.
  split.
  - apply in_closed.
  - intros a b Ha Hb o Ho. apply in_app_or in Ho. destruct Ho; auto.
  - intros a Ha o Ho. unfold adjstr in Ho. apply in_rev, in_map_iff in Ho.
    destruct Ho as (x & <- & Hx). simpl. auto.
Qed.

Lemma stable_and P Q : stable P -> stable Q -> stable (fun s => P s /\ Q s).
Proof.
  intros [a b c] [d e f]. split.
  - now apply closed_and.
  - intros s t [? ?] [? ?]; split; auto.
  - intros s [? ?]; split; auto.
Qed.

(** Keys of the operators considered: number conserving, non-empty. *)
Definition okey (P : fstring -> Prop) (s : fstring) : Prop :=
  chg one_w s = 0%Z /\ s <> [] /\ P s.

Lemma okey_even P s : okey P s -> Nat.even (length s) = true.
Proof. intros (H & _). rewrite <- chg_one_parity, H. reflexivity. Qed.

Lemma okey_safe P s : okey P s -> safe s.
Proof.
  intros H. pose proof (okey_even _ _ H) as E. split; auto.
  intros X. rewrite X in E. discriminate.
Qed.

Lemma okey_closed P : stable P -> closed (okey P).
Proof.
  intros HP. apply closed_and; [apply (chg_closed one_w 0)|].
  apply closed_and; [apply nonempty_closed|apply HP].
Qed.

Lemma okey_app P a b : stable P -> okey P a -> okey P b -> okey P (a ++ b).
Proof.
  intros HP (H1 & H2 & H3) (H4 & H5 & H6). split; [|split].
  - rewrite chg_app. lia.
  - destruct a; [congruence|discriminate].
  - now apply HP.
Qed.

Lemma okey_adj P a : stable P -> okey P a -> okey P (adjstr a).
Proof.
  intros HP (H1 & H2 & H3). split; [|split].
  - rewrite chg_adj. lia.
  - intros E. apply (f_equal (@length _)) in E. rewrite adjstr_length in E. destruct a; [congruence|discriminate].
  - now apply HP.
Qed.

Lemma okey_ends_ann P s : okey P s -> normal s -> ends_ann s.
Proof.
  intros (H1 & H2 & _) (cs & qs & -> & _ & _).
  destruct qs as [|q qs] using rev_ind.
  - exfalso. rewrite chg_app, chg_creators_one, chg_annihilators_one in H1. cbn [length] in H1.
    destruct cs; simpl in *; [auto|lia].
  - exists (creators cs ++ annihilators qs), q. unfold annihilators. rewrite map_app. cbn [map].
    now rewrite app_assoc.
Qed.

Section Calc.
  Context {K : Type} {C : CRing K}.
  Local Open Scope K_scope.
  Add Ring KringO : (@rth K C).
  Notation dict := (list (fstring * K)).

  Definition OPS (P : fstring -> Prop) (D : dict) : Prop :=
    NoDup (dkeys D) /\ Forall (fun k => okey P k /\ normal k) (dkeys D).

  (** [rep P r F]: the computation [r] succeeds with an operator acting as [F]. *)
  Definition rep (P : fstring -> Prop) (r : Res dict) (F : amps (K:=K) -> amps (K:=K)) : Prop :=
    exists D, r = Ok D /\ OPS P D /\ forall f x, opapp D f x = F f x.

  Hypothesis Hex : exact_small K.
  Variable P : fstring -> Prop.
  Hypothesis HP : stable P.

  Lemma rep_ext r F G : rep P r F -> (forall f x, F f x = G f x) -> rep P r G.
  Proof. intros (D & H1 & H2 & H3) E. exists D. split; auto. split; auto. intros. now rewrite H3. Qed.

  Lemma rep_nil : rep P (Ok []) (fun _ _ => 0).
  Proof. exists []. split; auto. split; [split; constructor|reflexivity]. Qed.

  Lemma rep_add r s F G : rep P r F -> rep P s G -> rep P (madd r s) (fun f x => F f x + G f x).
  Proof.
    intros (A & -> & [NA KA] & EA) (B & -> & [NB KB] & EB). exists (op_add A B). split; [reflexivity|].
    split; [split; [now apply op_add_nodup|now apply op_add_keys]|]. intros f x.
    destruct (op_add_opapp B A) as (d & Hd & E). rewrite <- EA, <- EB, E, (small_drops_zero d Hex Hd). ring.
  Qed.

  Lemma rep_sub r s F G : rep P r F -> rep P s G -> rep P (msub r s) (fun f x => F f x - G f x).
  Proof.
    intros (A & -> & [NA KA] & EA) (B & -> & [NB KB] & EB). exists (op_sub A B). split; [reflexivity|].
    split; [split; [now apply op_sub_nodup|now apply op_sub_keys]|]. intros f x.
    destruct (op_sub_opapp B A) as (d & Hd & E). rewrite <- EA, <- EB, E, (small_drops_zero d Hex Hd). ring.
  Qed.

  Lemma rep_scale c r F : rep P r F -> rep P (mscale c r) (fun f x => c * F f x).
  Proof.
    intros (A & -> & [NA KA] & EA). exists (op_scale c A). split; [reflexivity|].
    split; [split; rewrite op_scale_keys; auto|]. intros f x. now rewrite op_scale_opapp, EA.
  Qed.

  Lemma rep_mul_gen (A B : dict) : 
    (forall k2 k1, In k2 (dkeys A) -> In k1 (dkeys B) -> okey P (k2 ++ k1) /\ ends_ann (k2 ++ k1)) ->
    rep P (op_mul A B) (fun f x => opapp A (opapp B f) x).
  Proof.
    intros H. destruct (op_mul_spec (okey P) A B (okey_closed P HP)) as (D & E & Hnd & Hk & drops & Hd & Hs).
    { intros k2 k1 H2 H1. destruct (H k2 k1 H2 H1) as [Ho _]. split; auto. eapply okey_safe; eauto. }
    exists D. split; auto. split; [split; auto|]. intros f x.
    assert (Hv : vne (prodl A B) = 0).
    { apply vne_ends_ann, prodl_keys. intros k2 k1 H2 H1. now apply H. }
    specialize (Hs f x). rewrite opapp_prodl, Hv, (small_drops_zero drops Hex Hd) in Hs. rewrite Hs. ring.
  Qed.

  Lemma rep_mul r s F G : rep P r F -> rep P s G -> rep P (mmul r s) (fun f x => F (G f) x).
  Proof.
    intros (A & -> & [NA KA] & EA) (B & -> & [NB KB] & EB). cbn [mmul bind].
    rewrite Forall_forall in KA, KB.
    eapply rep_ext; [apply rep_mul_gen|].
    - intros k2 k1 H2 H1. destruct (KA k2 H2) as [O2 N2], (KB k1 H1) as [O1 N1].
      split; [now apply okey_app|]. apply ends_ann_app. eapply okey_ends_ann; eauto.
    - intros f x. cbn beta. rewrite <- EA. apply opapp_ext. intros d. apply EB.
  Qed.

  (** The adjoint: transposed matrix elements. *)
  Lemma rep_dagger_mel (A : dict) : OPS P A ->
    exists D, op_dagger A = Ok D /\ OPS P D /\ forall x y, mel D x y = mel A y x.
  Proof.
    intros [NA KA]. unfold op_dagger. set (A' := map _ A).
    assert (HA' : Forall (okey P) (dkeys A')).
    { unfold A', dkeys in *. rewrite !Forall_map in *. eapply Forall_impl; [|exact KA].
      intros kc [H _]. simpl. rewrite dag_key_adjstr. now apply okey_adj. }
    pose proof (normal_order_spec A' (okey P) (okey_closed P HP) HA') as H.
    destruct (normal_order A') as [D|e|].
    - destruct H as ((drops & Hsm & Hsem) & Hnd & Hk). exists D. split; auto. split; [split; auto|].
      intros x y. rewrite <- (mel_dag A x y). fold A'. unfold mel. rewrite Hsem.
      rewrite (small_drops_zero drops Hex Hsm).
      assert (Hv : vne A' = 0).
      { apply vne_ends_ann. unfold A', dkeys in *. rewrite !Forall_map in *. eapply Forall_impl; [|exact KA].
        intros kc [(H1 & H2 & H3) (cs & qs & E & _ & _)]. simpl. rewrite dag_key_adjstr, E.
        assert (Hcs : cs <> []).
        { intros ->. rewrite E in H1, H2. simpl in *. rewrite chg_annihilators_one in H1.
          destruct qs; simpl in *; [auto|lia]. }
        destruct cs as [|c cs]; [congruence|]. unfold creators. cbn [map app]. unfold adjstr. cbn [map rev].
        eexists _, c. reflexivity. }
      rewrite Hv. ring.
    - exfalso. destruct H as (_ & o & Ho). apply okey_even in Ho. discriminate.
    - tauto.
  Qed.

  Lemma rep_dagger r F G : rep P r F ->
    (forall x y, F (basis y) x = G (basis x) y) ->
    (exists E : dict, forall f x, opapp E f x = G f x) ->
    rep P (mdagger r) G.
  Proof.
    intros (A & -> & HA & EA) Hadj (E & HE). cbn [mdagger bind].
    destruct (rep_dagger_mel A HA) as (D & -> & HD & Hm).
    exists D. split; auto. split; auto. intros f x. rewrite <- HE.
    apply mel_determines. intros u v. rewrite Hm. unfold mel. rewrite HE, EA. apply Hadj.
  Qed.

  (** ** Basic operators *)
  Lemma mmul_pair p q :
    P [(p, true); (q, false)] ->
    rep P (mmul (a_op_spin p true) (a_op_spin q false)) (pairop p q).
  Proof.
    intros HPpq. unfold a_op_spin. cbn [mmul bind].
    eapply rep_ext; [apply rep_mul_gen|].
    - intros k2 k1 [<-|[]] [<-|[]]. simpl. split; [split; [reflexivity|split; [discriminate|exact HPpq]]|].
      exists [(p, true)], q. reflexivity.
    - intros f x. cbn [opapp appstr]. unfold pairop.
      rewrite (app1_ext (p, true) _ (app1 (q, false) f)); [ring|]. intros d. ring.
  Qed.

  (** Spec of the singlet excitation operator. *)
  Definition Eact (p q : nat) (f : amps) : amps :=
    fun x => pairop (2 * p) (2 * q) f x + pairop (2 * p + 1) (2 * q + 1) f x.

  Definition PE p q := P [(2 * p, true); (2 * q, false)]%nat /\ P [(2 * p + 1, true); (2 * q + 1, false)]%nat.

  Lemma Epq_rep p q : PE p q -> rep P (Epq p q) (Eact p q).
  Proof.
    intros HPE. unfold Epq, a_op. rewrite !Nat.add_0_r.
    eapply rep_ext; [apply rep_add; apply mmul_pair; apply HPE|]. reflexivity.
  Qed.
End Calc.
