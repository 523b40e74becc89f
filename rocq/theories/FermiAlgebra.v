(** Products, adjoints, canonical form and aliasing. *)
From Coq Require Import List Bool Arith NArith ZArith Lia Ring Sorted Permutation.
From Verif Require Import Base Fock FermiModel FermiProofs.
Import ListNotations.

(** Strings on which normal ordering cannot raise. *)
Definition safe (s : fstring) : Prop :=
  length s <> 1 /\ (con s -> Nat.even (length s) = true).

Lemma normal_not_con s : normal s -> ~ con s.
Proof.
  intros (cs & qs & -> & _ & _). induction cs as [|c cs IH]; simpl.
  - induction qs as [|q qs IHq]; simpl; auto. intros [[_ H]|H]; auto.
    unfold annihilators in H. apply in_map_iff in H. destruct H as (x & E & _). discriminate.
  - intros [[H _]|H]; [discriminate|auto].
Qed.

Lemma safe_closed : closed safe.
Proof.
  intros s [H1 H2]. split.
  - intros t Hp Hn. split.
    + now rewrite (Permutation_length Hp).
    + intros Hc. exfalso. eapply normal_not_con; eauto.
  - intros Hc p t Hne Hp. specialize (H2 Hc). apply Permutation_length in Hp. cbn [length] in Hp.
    rewrite <- Hp in H2. cbn [Nat.even] in H2. split; auto. intros E. rewrite E in H2. discriminate.
Qed.

(** Signed count of operators with weights: creation +w p, annihilation -w p. *)
Fixpoint chg (w : nat -> Z) (s : fstring) : Z :=
  match s with
  | [] => 0
  | (p, true) :: s' => w p + chg w s'
  | (p, false) :: s' => - w p + chg w s'
  end%Z.

Lemma chg_app w s t : chg w (s ++ t) = (chg w s + chg w t)%Z.
Proof. induction s as [|[p [|]] s IH]; simpl; lia. Qed.

Lemma chg_perm w s t : Permutation s t -> chg w s = chg w t.
Proof.
  induction 1; simpl; try lia.
  - destruct x as [p [|]]; lia.
  - destruct x as [p [|]], y as [q [|]]; lia.
Qed.

Lemma chg_closed w z : closed (fun s => chg w s = z).
Proof.
  intros s Hs. split.
  - intros t Hp _. now rewrite (chg_perm w t s Hp).
  - intros _ p t _ Hp. apply (chg_perm w) in Hp. simpl in Hp. lia.
Qed.

Lemma in_closed (I : nat -> Prop) : closed (fun s => forall o, In o s -> I (fst o)).
Proof.
  intros s Hs. split.
  - intros t Hp _ o Ho. apply Hs. eapply Permutation_in; eauto.
  - intros _ p t _ Hp o Ho. apply Hs. eapply Permutation_in; [exact Hp|]. now right; right.
Qed.

Lemma nonempty_closed : closed (fun s => s <> []).
Proof.
  intros s Hs. split.
  - intros t Hp _ E. subst t. apply Permutation_nil in Hp. auto.
  - auto.
Qed.

Lemma closed_and P Q : closed P -> closed Q -> closed (fun s => P s /\ Q s).
Proof.
  intros HP HQ s [Hp Hq]. destruct (HP s Hp) as [A B], (HQ s Hq) as [A' B']. split.
  - intros t H1 H2. split; auto.
  - intros Hc p t H1 H2. split; eauto.
Qed.

(** What the action of a string does to weights of occupations. *)
Fixpoint wsum (w : nat -> Z) (n : nat) (d : det) : Z :=
  match n with
  | O => 0
  | S m => (if occ d m then w m else 0) + wsum w m d
  end%Z.

Section Algebra.
  Context {K : Type} {C : CRing K}.
  Local Open Scope K_scope.
  Add Ring Kring3 : (@rth K C).
  Notation dict := (list (fstring * K)).

  (** Term list of a product before reordering. *)
  Definition prodl (A B : dict) : dict :=
    flat_map (fun kc1 => map (fun kc2 => (fst kc2 ++ fst kc1, snd kc2 * snd kc1)) A) B.

  Lemma opapp_map_r (A : dict) k c (f : amps) x :
    opapp (map (fun kc2 => (fst kc2 ++ k, snd kc2 * c)) A) f x =
    c * opapp A (appstr k f) x.
  Proof.
    induction A as [|[k2 c2] A IH]; simpl; [ring|]. rewrite IH, appstr_app. ring.
  Qed.

  Lemma opapp_prodl (A B : dict) (f : amps) x : opapp (prodl A B) f x = opapp A (opapp B f) x.
  Proof.
    unfold prodl. revert x. induction B as [|[k c] B IH]; intros x; simpl.
    - symmetry. now apply opapp_zero.
    - rewrite opapp_app, opapp_map_r, IH.
      transitivity (opapp A (fun e => c * appstr k f e) x + opapp A (opapp B f) x).
      + rewrite opapp_scale. ring.
      + symmetry. apply (opapp_add A (fun e => c * appstr k f e) (opapp B f)).
  Qed.

  Lemma vne_prodl_vev (A B : dict) :
    (forall k2 k1, In k2 (dkeys A) -> In k1 (dkeys B) -> k2 ++ k1 <> []) ->
    vne (prodl A B) = vev (prodl A B).
  Proof.
    intros H. apply vne_vev. unfold prodl. apply Forall_forall. intros kc Hin.
    apply in_flat_map in Hin. destruct Hin as ([k1 c1] & H1 & H2).
    apply in_map_iff in H2. destruct H2 as ([k2 c2] & <- & H2). simpl. apply H.
    - unfold dkeys. apply in_map_iff. now exists (k2, c2).
    - unfold dkeys. apply in_map_iff. now exists (k1, c1).
  Qed.

  (** Normal ordering of a single string. *)
  Lemma normal_order_one P s c : closed P -> P s -> safe s ->
    exists D, normal_order [(s, c)] = Ok D /\
      (exists drops, all_small drops /\
         forall (f : amps) x, c * appstr s f x = opapp D f x + vne [(s, c)] * f x + opapp drops f x) /\
      NoDup (dkeys D) /\ Forall (fun k => P k /\ normal k) (dkeys D).
  Proof.
    intros HP Hs Hsafe.
    pose proof (normal_order_spec [(s, c)] (fun k => P k /\ safe k) (closed_and _ _ HP safe_closed)) as H.
    destruct (normal_order [(s, c)]) as [D|e|].
    - exists D. split; auto. destruct H as (H1 & H2 & H3).
      { constructor; auto; constructor. }
      split; [|split; auto].
      + destruct H1 as (drops & Hs1 & H1). exists drops. split; auto. intros f x. rewrite <- H1. simpl. ring.
      + eapply Forall_impl; [|exact H3]. simpl. tauto.
    - exfalso. destruct H as (_ & o & _ & [Ho _]); [constructor; auto; constructor|]. simpl in Ho. auto.
    - exfalso. apply H. constructor; auto; constructor.
  Qed.

  Definition canonical (D : dict) : Prop := NoDup (dkeys D) /\ Forall normal (dkeys D).

  Lemma op_add_canonical (a b : dict) : canonical a -> canonical b -> canonical (op_add a b).
  Proof.
    intros [H1 H2] [H3 H4]. split; [now apply op_add_nodup|now apply op_add_keys].
  Qed.
  Lemma op_sub_canonical (a b : dict) : canonical a -> canonical b -> canonical (op_sub a b).
  Proof.
    intros [H1 H2] [H3 H4]. split; [now apply op_sub_nodup|now apply op_sub_keys].
  Qed.

  (** Invariant of the multiplication loops after processing the terms [done]. *)
  Definition mul_inv (P : fstring -> Prop) (done : dict) (r : Res dict) : Prop :=
    exists D, r = Ok D /\ NoDup (dkeys D) /\ Forall (fun k => P k /\ normal k) (dkeys D) /\
      exists drops, all_small drops /\
        forall (f : amps) x, opapp done f x = opapp D f x + vne done * f x + opapp drops f x.

  Lemma mul_step_inv P done r kc1 kc2 : closed P ->
    mul_inv P done r -> P (fst kc2 ++ fst kc1) -> safe (fst kc2 ++ fst kc1) ->
    mul_inv P (done ++ [(fst kc2 ++ fst kc1, snd kc2 * snd kc1)]) (mul_step r kc1 kc2).
  Proof.
    intros HP (D & -> & Hnd & Hks & drops & Hsm & Hsem) HPs Hsafe. unfold mul_step. cbn [bind].
    destruct (normal_order_one P (fst kc2 ++ fst kc1) (snd kc2 * snd kc1) HP HPs Hsafe)
      as (N & -> & (dr1 & Hs1 & H1) & HnN & HkN). cbn [bind].
    exists (op_add D N). split; auto. split; [now apply op_add_nodup|]. split.
    { now apply op_add_keys. }
    destruct (op_add_opapp N D) as (dr2 & Hs2 & H2).
    exists (drops ++ dr1 ++ dr2). split; [repeat apply all_small_app; auto|].
    intros f x. rewrite !opapp_app, vne_app. rewrite Hsem. cbn [opapp]. rewrite H1.
    transitivity ((opapp D f x + opapp N f x) + vne done * f x + vne [(fst kc2 ++ fst kc1, snd kc2 * snd kc1)] * f x
                  + opapp drops f x + opapp dr1 f x); [ring|].
    rewrite H2. ring.
  Qed.

  Lemma op_mul_spec P (A B : dict) : closed P ->
    (forall k2 k1, In k2 (dkeys A) -> In k1 (dkeys B) -> P (k2 ++ k1) /\ safe (k2 ++ k1)) ->
    mul_inv P (prodl A B) (op_mul A B).
  Proof.
    intros HP Hk. unfold op_mul, prodl.
    assert (Hin : forall A' done r kc1, (forall k2, In k2 (dkeys A') -> P (k2 ++ fst kc1) /\ safe (k2 ++ fst kc1)) ->
        mul_inv P done r ->
        mul_inv P (done ++ map (fun kc2 => (fst kc2 ++ fst kc1, snd kc2 * snd kc1)) A')
          (fold_left (fun acc' kc2 => mul_step acc' kc1 kc2) A' r)).
    { induction A' as [|kc2 A' IH]; intros done r kc1 HA Hi; simpl.
      - now rewrite app_nil_r.
      - change (?a :: ?m) with ([a] ++ m). rewrite app_assoc. apply IH.
        + intros k2 Hk2. apply HA. now right.
        + apply mul_step_inv; auto; apply HA; now left. }
    assert (Hout : forall B' done r, (forall k2 k1, In k2 (dkeys A) -> In k1 (dkeys B') -> P (k2 ++ k1) /\ safe (k2 ++ k1)) ->
        mul_inv P done r ->
        mul_inv P (done ++ flat_map (fun kc1 => map (fun kc2 => (fst kc2 ++ fst kc1, snd kc2 * snd kc1)) A) B')
          (fold_left (fun acc kc1 => fold_left (fun acc' kc2 => mul_step acc' kc1 kc2) A acc) B' r)).
    { induction B' as [|kc1 B' IH]; intros done r HB Hi; simpl.
      - now rewrite app_nil_r.
      - rewrite app_assoc. apply IH.
        + intros k2 k1 H2 H1. apply HB; auto. now right.
        + apply Hin; auto. intros k2 H2. apply HB; auto. now left. }
    apply (Hout B [] (Ok [])); auto.
    exists []. split; auto. split; [constructor|]. split; [constructor|].
    exists []. split; [constructor|]. intros; simpl; ring.
  Qed.

  (** Products whose right factor ends in annihilation operators. *)
  Definition ends_ann (s : fstring) : Prop := exists s' p, s = s' ++ [(p, false)].

  Lemma vevstr_ends_ann s : ends_ann s -> vevstr (K:=K) s = 0.
  Proof. intros (s' & p & ->). apply appstr_kill_last. Qed.

  Lemma ends_ann_app s t : ends_ann t -> ends_ann (s ++ t).
  Proof. intros (t' & p & ->). exists (s ++ t'), p. now rewrite app_assoc. Qed.

  Lemma ends_ann_nonempty s : ends_ann s -> s <> [].
  Proof. intros (t & p & ->) E. destruct t; discriminate. Qed.

  Lemma vne_ends_ann (A : dict) : Forall ends_ann (dkeys A) -> vne A = 0.
  Proof.
    induction A as [|[k c] A IH]; simpl; auto. intros H; inversion H; subst.
    rewrite IH by auto. destruct k as [|o k]; [ring|].
    rewrite vevstr_ends_ann by auto. ring.
  Qed.

  Lemma prodl_keys (Q : fstring -> Prop) (A B : dict) :
    (forall k2 k1, In k2 (dkeys A) -> In k1 (dkeys B) -> Q (k2 ++ k1)) ->
    Forall Q (dkeys (prodl A B)).
  Proof.
    intros H. unfold prodl, dkeys. rewrite Forall_map. apply Forall_forall. intros kc Hin.
    apply in_flat_map in Hin. destruct Hin as ([k1 c1] & H1 & H2).
    apply in_map_iff in H2. destruct H2 as ([k2 c2] & <- & H2). simpl. apply H.
    - unfold dkeys. apply in_map_iff. now exists (k2, c2).
    - unfold dkeys. apply in_map_iff. now exists (k1, c1).
  Qed.

  (** * dagger *)
  Lemma dag_key_adjstr s : dag_key s = adjstr s.
  Proof. unfold dag_key, adjstr. now rewrite map_rev. Qed.

  Lemma mel_dag (A : dict) x y :
    mel (map (fun kc => (dag_key (fst kc), snd kc)) A) x y = mel A y x.
  Proof.
    induction A as [|[k c] A IH]; [reflexivity|]. cbn [map fst snd].
    rewrite !mel_cons, IH, dag_key_adjstr, melstr_adj. reflexivity.
  Qed.

  Lemma con_creators_first cs qs : ~ con (creators cs ++ annihilators qs).
  Proof.
    induction cs as [|c cs IH]; simpl.
    - induction qs as [|q qs IHq]; simpl; auto. intros [[_ H]|H]; auto.
      unfold annihilators in H. apply in_map_iff in H. destruct H as (x & E & _). discriminate.
    - intros [[H _]|H]; [discriminate|auto].
  Qed.

  Lemma adjstr_normal_not_con s : normal s -> ~ con (adjstr s).
  Proof.
    intros (cs & qs & -> & _ & _). unfold adjstr. rewrite map_app, rev_app_distr.
    unfold creators, annihilators. rewrite !map_map. simpl. rewrite <- !map_rev.
    apply (con_creators_first (rev qs) (rev cs)).
  Qed.

  Lemma adjstr_length s : length (adjstr s) = length s.
  Proof. unfold adjstr. now rewrite rev_length, map_length. Qed.

  Lemma op_dagger_spec (A : dict) :
    Forall (fun k => safe (adjstr k)) (dkeys A) ->
    exists D, op_dagger A = Ok D /\ canonical D /\
      exists drops, all_small drops /\
        forall x y, mel A y x = mel D x y + (vne A) * basis y x + mel drops x y.
  Proof.
    intros HA. unfold op_dagger. set (A' := map _ A).
    assert (HA' : Forall safe (dkeys A')).
    { unfold A', dkeys in *. rewrite !Forall_map in *. eapply Forall_impl; [|exact HA].
      intros kc H. simpl. now rewrite dag_key_adjstr. }
    pose proof (normal_order_spec A' safe safe_closed HA') as H.
    destruct (normal_order A') as [D|e|].
    - destruct H as ((drops & Hsm & Hsem) & Hnd & Hk). exists D. split; auto. split.
      { split; auto. eapply Forall_impl; [|exact Hk]. simpl; tauto. }
      exists drops. split; auto. intros x y. unfold mel at 2 3. rewrite <- (mel_dag A x y).
      fold A'. unfold mel. rewrite Hsem.
      replace (vne A') with (vne A); auto. unfold A'. clear.
      induction A as [|[k c] A IH]; [reflexivity|]. cbn [map fst snd vne]. rewrite IH. f_equal.
      rewrite dag_key_adjstr. destruct k as [|o k]; [reflexivity|].
      assert (Hv : vevstr (K:=K) (adjstr (o :: k)) = vevstr (o :: k)) by apply melstr_adj.
      rewrite <- Hv. destruct (adjstr (o :: k)) eqn:E; auto.
      apply (f_equal (@length _)) in E. rewrite adjstr_length in E. discriminate.
    - exfalso. destruct H as (_ & o & [Ho _]). simpl in Ho. auto.
    - tauto.
  Qed.

  (** * Aliased in-place updates *)
  Lemma ddel_length k (d : dict) : In k (dkeys d) -> S (length (ddel k d)) = length d.
  Proof.
    induction d as [|[k' v] d IH]; simpl; [tauto|]. intros H.
    destruct (key_eqb k k') eqn:E; auto. simpl. f_equal. apply IH. destruct H as [H|H]; auto.
    subst. rewrite key_eqb_refl in E. discriminate.
  Qed.

  Lemma dset_length k v (d : dict) : length (dset k v d) = length d.
  Proof.
    induction d as [|[k' v'] d IH]; simpl; auto. destruct (key_eqb k k'); simpl; auto.
  Qed.

  Lemma dget_in k (d : dict) : In k (dkeys d) -> exists v, dget k d = Some v.
  Proof.
    intros H. destruct (dget k d) as [v|] eqn:E; eauto. apply dget_none in E. contradiction.
  Qed.

  Lemma alias_loop_del f k ks (d : dict) v : dget k d = Some v -> small (f v v) = true ->
    alias_loop f (k :: ks) (length d) d = Raise RuntimeError.
  Proof.
    intros Hg Hs. simpl. rewrite Nat.eqb_refl, Hg, Hs.
    assert (Hl : S (length (ddel k d)) = length d).
    { apply ddel_length. apply dget_some_in in Hg. unfold dkeys. apply in_map_iff. exists (k, v); auto. }
    destruct ks as [|k' ks]; simpl; destruct (Nat.eqb_spec (length (ddel k d)) (length d)); auto; lia.
  Qed.

  Lemma isub_self_raises (A : dict) : A <> [] -> small (0 : K) = true ->
    op_isub_self A = Raise RuntimeError.
  Proof.
    intros Hne H0. destruct A as [|[k v] A]; [congruence|]. unfold op_isub_self, dkeys. cbn [map fst].
    apply (alias_loop_del rsub k (map fst A) ((k, v) :: A) v).
    - simpl. now rewrite key_eqb_refl.
    - replace (rsub v v) with (0 : K) by ring. exact H0.
  Qed.

  Lemma dget_dset_other k k' v (d : dict) : k <> k' -> dget k' (dset k v d) = dget k' d.
  Proof.
    intros Hne. induction d as [|[k0 v0] d IH]; simpl; auto.
    destruct (key_eqb k k0) eqn:E; simpl.
    - apply key_eqb_spec in E; subst k0. destruct (key_eqb k' k) eqn:E'; auto.
      apply key_eqb_spec in E'. congruence.
    - destruct (key_eqb k' k0); auto.
  Qed.

  Lemma dset_front k v v' pre (d : dict) : ~ In k (dkeys pre) ->
    dset k v' (pre ++ (k, v) :: d) = pre ++ (k, v') :: d.
  Proof.
    induction pre as [|[k0 v0] pre IH]; simpl; intros H.
    - now rewrite key_eqb_refl.
    - destruct (key_eqb k k0) eqn:E.
      + apply key_eqb_spec in E. subst. exfalso; auto.
      + rewrite IH; auto.
  Qed.

  Lemma dget_front k v pre (d : dict) : ~ In k (dkeys pre) ->
    dget k (pre ++ (k, v) :: d) = Some v.
  Proof.
    induction pre as [|[k0 v0] pre IH]; simpl; intros H.
    - now rewrite key_eqb_refl.
    - destruct (key_eqb k k0) eqn:E.
      + apply key_eqb_spec in E. subst. exfalso; auto.
      + apply IH; auto.
  Qed.

  Lemma alias_loop_ok f (pre todo : dict) :
    NoDup (dkeys (pre ++ todo)) ->
    Forall (fun kc => small (f (snd kc) (snd kc)) = false) todo ->
    alias_loop f (dkeys todo) (length (pre ++ todo)) (pre ++ todo) =
    Ok (pre ++ map (fun kc => (fst kc, f (snd kc) (snd kc))) todo).
  Proof.
    revert pre. induction todo as [|[k v] todo IH]; intros pre Hn Hs.
    - simpl. rewrite Nat.eqb_refl. now rewrite app_nil_r.
    - cbn [dkeys map fst alias_loop]. rewrite Nat.eqb_refl.
      assert (Hk : ~ In k (dkeys pre)).
      { unfold dkeys in *. rewrite map_app in Hn. simpl in Hn. apply NoDup_remove_2 in Hn.
        intros X. apply Hn. apply in_or_app; auto. }
      rewrite (dget_front k v pre todo Hk). inversion Hs as [|? ? Hs1 Hs2]; subst. cbn [snd] in Hs1.
      rewrite Hs1. rewrite (dset_front k v _ pre todo Hk).
      replace (length (pre ++ (k, v) :: todo)) with (length ((pre ++ [(k, f v v)]) ++ todo))
        by (rewrite !app_length; simpl; lia).
      replace (pre ++ (k, f v v) :: todo) with ((pre ++ [(k, f v v)]) ++ todo)
        by (rewrite <- app_assoc; reflexivity).
      rewrite IH; auto.
      + rewrite <- app_assoc. reflexivity.
      + unfold dkeys in *. rewrite <- app_assoc. rewrite map_app in *. simpl in *. exact Hn.
  Qed.

  Lemma iadd_self_doubles (A : dict) : NoDup (dkeys A) ->
    Forall (fun kc => small (snd kc + snd kc) = false) A ->
    op_iadd_self A = Ok (map (fun kc => (fst kc, snd kc + snd kc)) A).
  Proof. intros H1 H2. apply (alias_loop_ok radd [] A); auto. Qed.

  (** [A - A] deletes every entry. *)
  Lemma op_sub_self (A : dict) : NoDup (dkeys A) -> small (0 : K) = true -> op_sub A A = [].
  Proof.
    intros Hn H0. unfold op_sub.
    assert (H : forall B : dict, NoDup (dkeys B) ->
       fold_left (fun d kc => dacc_sub (fst kc) (snd kc) d) B B = []).
    { induction B as [|[k v] B IH]; intros HB; auto. simpl.
      unfold dacc_sub at 2. simpl. rewrite key_eqb_refl.
      replace (v - v) with (0 : K) by ring. rewrite H0. apply IH. now inversion HB. }
    auto.
  Qed.
End Algebra.
