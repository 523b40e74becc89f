(** Lemmas about the model of fermionic_operator.py. *)
From Coq Require Import List Bool Arith NArith Lia Ring Sorted Permutation.
From Verif Require Import Base Fock FermiModel.
Import ListNotations.

(** * Keys *)
Lemma fop_eqb_spec x y : fop_eqb x y = true <-> x = y.
Proof.
  destruct x as [p a], y as [q b]. unfold fop_eqb; simpl.
  rewrite andb_true_iff, Nat.eqb_eq, Bool.eqb_true_iff. split; intros E; [destruct E; congruence|].
  inversion E; auto.
Qed.

Lemma key_eqb_spec s t : key_eqb s t = true <-> s = t.
Proof.
  revert t; induction s as [|x s IH]; intros [|y t]; simpl; try (split; congruence).
  rewrite andb_true_iff, fop_eqb_spec, IH. split; [intros [-> ->]; auto|intros E; inversion E; auto].
Qed.

Lemma key_eqb_refl s : key_eqb s s = true.
Proof. now apply key_eqb_spec. Qed.

Lemma key_eqb_neq s t : key_eqb s t = false <-> s <> t.
Proof.
  split; intros E.
  - intros ->. rewrite key_eqb_refl in E. discriminate.
  - destruct (key_eqb s t) eqn:X; auto. apply key_eqb_spec in X. contradiction.
Qed.

(** * Order used by normal ordering (specification side) *)

(** [oo a b]: [a] immediately left of [b] is out of order. *)
Definition oo (a b : fop) : bool :=
  match snd a, snd b with
  | true, false => false
  | false, true => true
  | _, _ => Nat.ltb (fst a) (fst b)
  end.

Definition creators (l : list nat) : fstring := map (fun p => (p, true)) l.
Definition annihilators (l : list nat) : fstring := map (fun p => (p, false)) l.

(** Normal-ordered string: creation operators, then annihilation operators, each
    block strictly descending. *)
Definition normal (s : fstring) : Prop :=
  exists cs qs, s = creators cs ++ annihilators qs /\
                StronglySorted gt cs /\ StronglySorted gt qs.

(** Adjacent pairs in good order. *)
Definition good (a b : fop) : Prop := oo a b = false /\ a <> b.

Lemma good_trans a b c : good a b -> good b c -> good a c.
Proof.
  destruct a as [p [|]], b as [q [|]], c as [r [|]]; unfold good, oo; simpl;
    rewrite ?Nat.ltb_ge; intros [H1 H1'] [H2 H2']; split; try congruence; try discriminate.
  - lia.
  - intros E; inversion E; subst. apply H1'. f_equal. lia.
  - lia.
  - intros E; inversion E; subst. apply H1'. f_equal. lia.
Qed.

Lemma sorted_good_normal s : StronglySorted good s -> normal s.
Proof.
  induction s as [|[p b] s IH]; intros Hs.
  - exists [], []. repeat split; auto; constructor.
  - inversion Hs as [|? ? Hs' Hall]; subst. destruct (IH Hs') as (cs & qs & -> & Hc & Hq).
    rewrite Forall_app in Hall. destruct Hall as [Ha1 Ha2].
    destruct b.
    + exists (p :: cs), qs. repeat split; auto. constructor; auto.
      rewrite Forall_forall in *. intros x Hx.
      specialize (Ha1 (x, true)). destruct Ha1 as [G1 G2].
      { unfold creators. apply in_map_iff; eauto. }
      unfold oo in G1; simpl in G1. apply Nat.ltb_ge in G1.
      assert (p <> x) by congruence. lia.
    + destruct cs as [|c cs].
      * exists [], (p :: qs). repeat split; auto. constructor; auto.
        rewrite Forall_forall in *. intros x Hx.
        specialize (Ha2 (x, false)). destruct Ha2 as [G1 G2].
        { unfold annihilators. apply in_map_iff; eauto. }
        unfold oo in G1; simpl in G1. apply Nat.ltb_ge in G1.
        assert (p <> x) by congruence. lia.
      * exfalso. simpl in Ha1. inversion Ha1 as [|? ? [G1 _] _]; subst.
        unfold oo in G1; simpl in G1. discriminate.
Qed.

Lemma normal_sorted_good s : normal s -> StronglySorted good s.
Proof.
  intros (cs & qs & -> & Hc & Hq). induction cs as [|c cs IH]; simpl.
  - induction qs as [|q qs IHq]; simpl; constructor.
    + apply IHq. now inversion Hq.
    + inversion Hq as [|? ? _ Hall]; subst. unfold annihilators. rewrite Forall_map.
      eapply Forall_impl; [|exact Hall]. simpl. intros a Ha. split.
      * unfold oo; simpl. apply Nat.ltb_ge. lia.
      * intros E; inversion E; lia.
  - inversion Hc as [|? ? Hc' Hall]; subst. constructor; [now apply IH|].
    apply Forall_app; split.
    + unfold creators. rewrite Forall_map. eapply Forall_impl; [|exact Hall]. simpl.
      intros a Ha. split; [unfold oo; simpl; apply Nat.ltb_ge; lia|]. intros E; inversion E; lia.
    + unfold annihilators. rewrite Forall_map. apply Forall_forall. intros x _. split; [reflexivity|discriminate].
Qed.

(** Inversions. *)
Fixpoint cnt {A} (f : A -> bool) (l : list A) : nat :=
  match l with [] => 0 | x :: r => (if f x then 1 else 0) + cnt f r end.

Fixpoint inv (s : fstring) : nat :=
  match s with [] => 0 | a :: s' => cnt (oo a) s' + inv s' end.

Lemma cnt_app {A} (f : A -> bool) l m : cnt f (l ++ m) = cnt f l + cnt f m.
Proof. induction l; simpl; auto. rewrite IHl. lia. Qed.

Lemma cnt_le {A} (f : A -> bool) l : cnt f l <= length l.
Proof. induction l; simpl; auto. destruct (f a); lia. Qed.

Lemma inv_bound s : inv s <= length s * length s.
Proof.
  induction s as [|a s IH]; simpl; auto. pose proof (cnt_le (oo a) s). nia.
Qed.

Lemma oo_asym a b : oo a b = true -> oo b a = false.
Proof.
  destruct a as [p [|]], b as [q [|]]; unfold oo; simpl; auto; try discriminate;
    rewrite Nat.ltb_lt, Nat.ltb_ge; lia.
Qed.

Lemma inv_swap pre a b tl : oo a b = true ->
  inv (pre ++ a :: b :: tl) = S (inv (pre ++ b :: a :: tl)).
Proof.
  intros Ho. induction pre as [|x pre IH]; simpl.
  - rewrite Ho, (oo_asym _ _ Ho). lia.
  - rewrite IH. rewrite !cnt_app. simpl. destruct (oo x a), (oo x b); lia.
Qed.

(** Some annihilation operator stands left of a creation operator of the same
    spin orbital: moving it to the right produces a contraction. *)
Fixpoint con (s : fstring) : Prop :=
  match s with
  | [] => False
  | a :: s' => (snd a = false /\ In (fst a, true) s') \/ con s'
  end.

Lemma con_swap (pre : fstring) (a b : fop) (tl : fstring) :
  oo a b = true -> con (pre ++ b :: a :: tl) -> con (pre ++ a :: b :: tl).
Proof.
  intros Ho. induction pre as [|x pre IH]; simpl.
  - intros [[H1 H2]|[[H1 H2]|H]]; auto.
    + destruct H2 as [H2|H2]; auto. exfalso. subst a. destruct b as [p [|]]; simpl in *; try discriminate.
  - intros [[H1 H2]|H]; auto. left. split; auto.
    rewrite in_app_iff in *. simpl in *. tauto.
Qed.

Lemma con_adjacent (pre : fstring) p (tl : fstring) : con (pre ++ (p, false) :: (p, true) :: tl).
Proof. induction pre; simpl; auto. Qed.

Section Proofs.
  Context {K : Type} {C : CRing K}.
  Local Open Scope K_scope.
  Add Ring Kring2 : (@rth K C).

  (** * Dictionaries *)
  Lemma dget_opapp k v (d : dict) (f : amps) x :
    dget k d = Some v -> opapp d f x = v * appstr k f x + opapp (ddel k d) f x.
  Proof.
    induction d as [|[k' v'] d IH]; simpl; intros E; [discriminate|].
    destruct (key_eqb k k') eqn:X.
    - apply key_eqb_spec in X; subst. inversion E; subst. reflexivity.
    - simpl. rewrite (IH E). ring.
  Qed.

  Lemma dset_opapp k v v' (d : dict) (f : amps) x :
    dget k d = Some v -> opapp (dset k v' d) f x = opapp d f x + (v' - v) * appstr k f x.
  Proof.
    induction d as [|[k' w] d IH]; simpl; intros E; [discriminate|].
    destruct (key_eqb k k') eqn:X.
    - apply key_eqb_spec in X; subst. inversion E; subst. simpl. ring.
    - simpl. rewrite (IH E). ring.
  Qed.

  (** Deleted terms. *)
  Definition all_small (d : dict (K:=K)) : Prop := Forall (fun kc => small (snd kc) = true) d.

  Lemma dacc_opapp k c (d : dict) :
    exists drops, all_small drops /\
      forall (f : amps) x,
        opapp d f x + c * appstr k f x = opapp (dacc k c d) f x + opapp drops f x.
  Proof.
    unfold dacc. destruct (dget k d) as [v|] eqn:E.
    - destruct (small (v + c)) eqn:Sm.
      + exists [(k, v + c)]. split; [constructor; auto; constructor|].
        intros f x. rewrite (dget_opapp _ _ _ f x E). simpl. ring.
      + exists []. split; [constructor|]. intros f x. rewrite (dset_opapp _ _ _ _ f x E). simpl. ring.
    - exists []. split; [constructor|]. intros f x. rewrite opapp_app. simpl. ring.
  Qed.

  Lemma dacc_sub_opapp k c (d : dict) :
    exists drops, all_small drops /\
      forall (f : amps) x,
        opapp d f x - c * appstr k f x = opapp (dacc_sub k c d) f x + opapp drops f x.
  Proof.
    unfold dacc_sub. destruct (dget k d) as [v|] eqn:E.
    - destruct (small (v - c)) eqn:Sm.
      + exists [(k, v - c)]. split; [constructor; auto; constructor|].
        intros f x. rewrite (dget_opapp _ _ _ f x E). simpl. ring.
      + exists []. split; [constructor|]. intros f x. rewrite (dset_opapp _ _ _ _ f x E). simpl. ring.
    - exists []. split; [constructor|]. intros f x. rewrite opapp_app. simpl. ring.
  Qed.

  Lemma all_small_app d e : all_small d -> all_small e -> all_small (d ++ e).
  Proof. intros. apply Forall_app; auto. Qed.

  Lemma op_add_opapp (b a : dict) :
    exists drops, all_small drops /\
      forall (f : amps) x, opapp a f x + opapp b f x = opapp (op_add a b) f x + opapp drops f x.
  Proof.
    unfold op_add. revert a. induction b as [|[k c] b IH]; intros a; simpl.
    - exists []. split; [constructor|]. intros; simpl; ring.
    - destruct (dacc_opapp k c a) as (d1 & S1 & E1).
      destruct (IH (dacc k c a)) as (d2 & S2 & E2).
      exists (d1 ++ d2). split; [now apply all_small_app|]. intros f x.
      rewrite opapp_app. specialize (E1 f x). specialize (E2 f x).
      transitivity ((opapp a f x + c * appstr k f x) + opapp b f x); [ring|].
      rewrite E1.
      transitivity ((opapp (dacc k c a) f x + opapp b f x) + opapp d1 f x); [ring|].
      rewrite E2. ring.
  Qed.

  Lemma op_sub_opapp (b a : dict) :
    exists drops, all_small drops /\
      forall (f : amps) x, opapp a f x - opapp b f x = opapp (op_sub a b) f x + opapp drops f x.
  Proof.
    unfold op_sub. revert a. induction b as [|[k c] b IH]; intros a; simpl.
    - exists []. split; [constructor|]. intros; simpl; ring.
    - destruct (dacc_sub_opapp k c a) as (d1 & S1 & E1).
      destruct (IH (dacc_sub k c a)) as (d2 & S2 & E2).
      exists (d1 ++ d2). split; [now apply all_small_app|]. intros f x.
      rewrite opapp_app. specialize (E1 f x). specialize (E2 f x).
      transitivity ((opapp a f x - c * appstr k f x) - opapp b f x); [ring|].
      rewrite E1.
      transitivity ((opapp (dacc_sub k c a) f x - opapp b f x) + opapp d1 f x); [ring|].
      rewrite E2. ring.
  Qed.

  Lemma op_neg_opapp (a : dict) (f : amps) x : opapp (op_neg a) f x = - opapp a f x.
  Proof. induction a as [|[k c] a IH]; simpl; [ring|]. rewrite IH. ring. Qed.

  Lemma op_scale_opapp c (a : dict) (f : amps) x : opapp (op_scale c a) f x = c * opapp a f x.
  Proof. induction a as [|[k v] a IH]; simpl; [ring|]. rewrite IH. ring. Qed.

  Lemma small_drops_zero (d : dict (K:=K)) : exact_small K -> all_small d ->
    forall (f : amps) x, opapp d f x = 0.
  Proof.
    intros Hex Hd f x. induction Hd as [|[k c] d Hs Hd IH]; simpl; auto.
    rewrite IH. rewrite (Hex c Hs). ring.
  Qed.

  (** ** Keys of dictionaries *)
  Lemma dget_none k (d : dict (K:=K)) : dget k d = None <-> ~ In k (dkeys d).
  Proof.
    induction d as [|[k' v] d IH]; simpl; [tauto|].
    destruct (key_eqb k k') eqn:E.
    - apply key_eqb_spec in E; subst. split; [discriminate|]. intros X. exfalso; apply X; auto.
    - apply key_eqb_neq in E. rewrite IH. split; intros X; [intros [Y|Y]; [congruence|auto]|tauto].
  Qed.

  Lemma dget_some_in k v (d : dict (K:=K)) : dget k d = Some v -> In (k, v) d.
  Proof.
    induction d as [|[k' v'] d IH]; simpl; [discriminate|].
    destruct (key_eqb k k') eqn:E; intros X.
    - apply key_eqb_spec in E; subst. inversion X; auto.
    - auto.
  Qed.

  Lemma dset_keys k v (d : dict (K:=K)) : dkeys (dset k v d) = dkeys d.
  Proof.
    induction d as [|[k' v'] d IH]; simpl; auto. destruct (key_eqb k k'); simpl; auto. now rewrite IH.
  Qed.

  Lemma ddel_incl k k' (d : dict (K:=K)) : In k' (dkeys (ddel k d)) -> In k' (dkeys d).
  Proof.
    induction d as [|[k0 v0] d IH]; simpl; auto. destruct (key_eqb k k0); simpl; tauto.
  Qed.

  Lemma ddel_nodup k (d : dict (K:=K)) : NoDup (dkeys d) -> NoDup (dkeys (ddel k d)).
  Proof.
    induction d as [|[k0 v0] d IH]; simpl; auto. intros Hn. inversion Hn; subst.
    destruct (key_eqb k k0); auto. simpl. constructor; auto. intros X. apply ddel_incl in X. auto.
  Qed.

  Lemma nodup_snoc {A} (l : list A) x : NoDup l -> ~ In x l -> NoDup (l ++ [x]).
  Proof.
    intros Hl Hx. induction Hl as [|y l Hy Hl IH]; simpl.
    - constructor; auto. constructor.
    - constructor.
      + rewrite in_app_iff. simpl. intros [X|[X|[]]]; subst; auto. apply Hx; now left.
      + apply IH. intros X; apply Hx; now right.
  Qed.

  Lemma dacc_nodup k c (d : dict (K:=K)) : NoDup (dkeys d) -> NoDup (dkeys (dacc k c d)).
  Proof.
    intros Hn. unfold dacc. destruct (dget k d) as [v|] eqn:E.
    - destruct (small (v + c)); [now apply ddel_nodup|]. now rewrite dset_keys.
    - apply dget_none in E. unfold dkeys. rewrite map_app. simpl. now apply nodup_snoc.
  Qed.

  Lemma dacc_sub_nodup k c (d : dict (K:=K)) : NoDup (dkeys d) -> NoDup (dkeys (dacc_sub k c d)).
  Proof.
    intros Hn. unfold dacc_sub. destruct (dget k d) as [v|] eqn:E.
    - destruct (small (v - c)); [now apply ddel_nodup|]. now rewrite dset_keys.
    - apply dget_none in E. unfold dkeys. rewrite map_app. simpl. now apply nodup_snoc.
  Qed.

  Lemma dacc_keys (P : fstring -> Prop) k c (d : dict (K:=K)) :
    Forall P (dkeys d) -> P k -> Forall P (dkeys (dacc k c d)).
  Proof.
    intros Hd Hk. unfold dacc. destruct (dget k d) as [v|] eqn:E.
    - destruct (small (v + c)).
      + rewrite Forall_forall in *. intros x Hx. apply Hd. now apply ddel_incl in Hx.
      + now rewrite dset_keys.
    - unfold dkeys in *. rewrite map_app. apply Forall_app; split; auto. constructor; auto.
  Qed.

  Lemma dacc_sub_keys (P : fstring -> Prop) k c (d : dict (K:=K)) :
    Forall P (dkeys d) -> P k -> Forall P (dkeys (dacc_sub k c d)).
  Proof.
    intros Hd Hk. unfold dacc_sub. destruct (dget k d) as [v|] eqn:E.
    - destruct (small (v - c)).
      + rewrite Forall_forall in *. intros x Hx. apply Hd. now apply ddel_incl in Hx.
      + now rewrite dset_keys.
    - unfold dkeys in *. rewrite map_app. apply Forall_app; split; auto. constructor; auto.
  Qed.

  Lemma op_add_nodup (b a : dict (K:=K)) : NoDup (dkeys a) -> NoDup (dkeys (op_add a b)).
  Proof.
    unfold op_add. revert a; induction b as [|[k c] b IH]; simpl; auto.
    intros a Ha. apply IH. now apply dacc_nodup.
  Qed.
  Lemma op_sub_nodup (b a : dict (K:=K)) : NoDup (dkeys a) -> NoDup (dkeys (op_sub a b)).
  Proof.
    unfold op_sub. revert a; induction b as [|[k c] b IH]; simpl; auto.
    intros a Ha. apply IH. now apply dacc_sub_nodup.
  Qed.
  Lemma op_add_keys (P : fstring -> Prop) (b a : dict (K:=K)) :
    Forall P (dkeys a) -> Forall P (dkeys b) -> Forall P (dkeys (op_add a b)).
  Proof.
    unfold op_add. revert a; induction b as [|[k c] b IH]; simpl; auto.
    intros a Ha Hb. inversion Hb; subst. apply IH; auto. apply dacc_keys; auto.
  Qed.
  Lemma op_sub_keys (P : fstring -> Prop) (b a : dict (K:=K)) :
    Forall P (dkeys a) -> Forall P (dkeys b) -> Forall P (dkeys (op_sub a b)).
  Proof.
    unfold op_sub. revert a; induction b as [|[k c] b IH]; simpl; auto.
    intros a Ha Hb. inversion Hb; subst. apply IH; auto. apply dacc_sub_keys; auto.
  Qed.
  Lemma op_neg_keys (a : dict (K:=K)) : dkeys (op_neg a) = dkeys a.
  Proof. unfold op_neg, dkeys. rewrite map_map. reflexivity. Qed.
  Lemma op_scale_keys c (a : dict (K:=K)) : dkeys (op_scale c a) = dkeys a.
  Proof. unfold op_scale, dkeys. rewrite map_map. reflexivity. Qed.

  (** * One pass of the sort *)

  (** Swapping an anticommuting adjacent pair. *)
  Lemma appstr_swap (pre : list fop) (a b : fop) (tl : list fop) (f : amps) d :
    (fst a <> fst b \/ snd a = snd b) ->
    appstr (pre ++ a :: b :: tl) f d = - appstr (pre ++ b :: a :: tl) f d.
  Proof.
    intros Hc. rewrite !appstr_app.
    transitivity (appstr pre (fun e => - appstr (b :: a :: tl) f e) d).
    - apply appstr_ext. intros e. simpl. destruct a as [p x], b as [q y].
      apply car_swap. simpl in Hc. auto.
    - transitivity (appstr pre (fun e => (- (1)) * appstr (b :: a :: tl) f e) d).
      + apply appstr_ext. intros; ring.
      + rewrite appstr_scale. ring.
  Qed.

  Lemma appstr_contract (pre : list fop) p (tl : list fop) (f : amps) d :
    appstr (pre ++ (p, false) :: (p, true) :: tl) f d =
    appstr (pre ++ tl) f d - appstr (pre ++ (p, true) :: (p, false) :: tl) f d.
  Proof.
    rewrite !appstr_app.
    transitivity (appstr pre (fun e => appstr tl f e + (- (1)) * appstr ((p, true) :: (p, false) :: tl) f e) d).
    - apply appstr_ext. intros e. simpl. rewrite car_contract. ring.
    - rewrite (appstr_add pre (appstr tl f)). rewrite appstr_scale. ring.
  Qed.

  Lemma appstr_square (pre : list fop) (a : fop) (tl : list fop) (f : amps) d : appstr (pre ++ a :: a :: tl) f d = 0.
  Proof.
    rewrite appstr_app. apply appstr_zero. intros e. simpl. apply car_square.
  Qed.

  (** Adjacent order from the current position on. *)
  Fixpoint chain (a : fop) (tl : list fop) : Prop :=
    match tl with [] => True | b :: tl' => good a b /\ chain b tl' end.

  (** Strings pushed while sorting [s]: [s] with a pair a_p, a_p^+ removed. *)
  Definition pushed_ok (s : fstring) (q : queue (K:=K)) : Prop :=
    Forall (fun kc => fst kc <> [] /\
                      exists p, Permutation ((p, false) :: (p, true) :: fst kc) s) q.

  Lemma pushed_ok_perm s t q : Permutation s t -> pushed_ok s q -> pushed_ok t q.
  Proof.
    intros Hp. apply Forall_impl. intros kc [H1 [p H2]]. split; auto. exists p. now rewrite H2.
  Qed.

  Lemma pass_spec rpre a tl (fac : K) q ch s' fac' q' ch' z :
    pass rpre a tl fac q ch = (s', fac', q', ch', z) ->
    exists pushed kappa n,
      q' = q ++ pushed /\
      (forall (f : amps) d,
         fac * appstr (rev rpre ++ a :: tl) f d =
         (if z then 0 else fac' * appstr s' f d) + opapp pushed f d + kappa * f d) /\
      pushed_ok (rev rpre ++ a :: tl) pushed /\
      length s' = S (length rpre + length tl)%nat /\
      Permutation s' (rev rpre ++ a :: tl) /\
      (con s' -> con (rev rpre ++ a :: tl)) /\ (pushed <> [] -> con (rev rpre ++ a :: tl)) /\
      (inv s' + n)%nat = inv (rev rpre ++ a :: tl) /\
      length pushed <= n /\
      ch' = ch || Nat.ltb 0 n /\
      (z = false -> n = O -> s' = rev rpre ++ a :: tl /\ chain a tl).
  Proof.
    revert rpre a fac q ch s' fac' q' ch' z.
    induction tl as [|b tl IH]; intros rpre a fac q ch s' fac' q' ch' z; simpl.
    - intros E; inversion E; subst; clear E.
      exists [], 0, O. rewrite app_nil_r. simpl. repeat split; auto; try congruence.
      + intros; ring.
      + constructor.
      + rewrite app_length, rev_length; simpl; lia.
      + now rewrite orb_false_r.
    - (* the three ways to continue *)
      assert (Hkeep : pass (a :: rpre) b tl fac q ch = (s', fac', q', ch', z) -> good a b ->
        exists pushed kappa n,
        q' = q ++ pushed /\
        (forall (f : amps) d,
           fac * appstr (rev rpre ++ a :: b :: tl) f d =
           (if z then 0 else fac' * appstr s' f d) + opapp pushed f d + kappa * f d) /\
        pushed_ok (rev rpre ++ a :: b :: tl) pushed /\
        length s' = S (length rpre + S (length tl))%nat /\
        Permutation s' (rev rpre ++ a :: b :: tl) /\
      (con s' -> con (rev rpre ++ a :: b :: tl)) /\ (pushed <> [] -> con (rev rpre ++ a :: b :: tl)) /\
        (inv s' + n)%nat = inv (rev rpre ++ a :: b :: tl) /\
        length pushed <= n /\ ch' = ch || Nat.ltb 0 n /\
        (z = false -> n = O -> s' = rev rpre ++ a :: b :: tl /\ good a b /\ chain b tl)).
      { intros E Hg. apply IH in E. destruct E as (pushed & kappa & n & Hq & Hsem & Hpo & Hlen & Hperm & Hcon & Hpcon & Hinv & Hpl & Hch & Hnc).
        simpl in *. rewrite <- app_assoc in *. simpl in *.
        exists pushed, kappa, n. repeat split; auto.
        - lia.
        - apply Hnc; auto.
        - apply Hg.
        - apply Hg.
        - apply Hnc; auto. }
      assert (Hswap : forall qx px kx,
        qx = q ++ px ->
        pushed_ok (rev rpre ++ a :: b :: tl) px -> length px <= 1%nat -> oo a b = true ->
        (px <> [] -> con (rev rpre ++ a :: b :: tl)) ->
        (forall (f : amps) d, fac * appstr (rev rpre ++ a :: b :: tl) f d =
            (- fac) * appstr (rev rpre ++ b :: a :: tl) f d + opapp px f d + kx * f d) ->
        pass (b :: rpre) a tl (- fac) qx true = (s', fac', q', ch', z) ->
        exists pushed kappa n,
        q' = q ++ pushed /\
        (forall (f : amps) d,
           fac * appstr (rev rpre ++ a :: b :: tl) f d =
           (if z then 0 else fac' * appstr s' f d) + opapp pushed f d + kappa * f d) /\
        pushed_ok (rev rpre ++ a :: b :: tl) pushed /\
        length s' = S (length rpre + S (length tl))%nat /\
        Permutation s' (rev rpre ++ a :: b :: tl) /\
      (con s' -> con (rev rpre ++ a :: b :: tl)) /\ (pushed <> [] -> con (rev rpre ++ a :: b :: tl)) /\
        (inv s' + n)%nat = inv (rev rpre ++ a :: b :: tl) /\
        length pushed <= n /\ ch' = ch || Nat.ltb 0 n /\
        (z = false -> n = O -> s' = rev rpre ++ a :: b :: tl /\ good a b /\ chain b tl)).
      { intros qx px kx Hqx Hpx Hpl1 Hoo Hpxc Hstep E. apply IH in E.
        destruct E as (pushed & kappa & n & Hq & Hsem & Hpo & Hlen & Hperm & Hcon & Hpcon & Hinv & Hpl & Hch & Hnc).
        simpl in *. rewrite <- app_assoc in *. simpl in *.
        exists (px ++ pushed), (kx + kappa), (S n). repeat split; try discriminate.
        - rewrite Hq, Hqx. now rewrite app_assoc.
        - intros f d. rewrite Hstep, Hsem, opapp_app. ring.
        - apply Forall_app; split; auto.
          eapply pushed_ok_perm; [|exact Hpo]. apply Permutation_app_head. constructor.
        - lia.
        - rewrite Hperm. apply Permutation_app_head. constructor.
        - intros Hx. apply con_swap; auto.
        - intros Hx. destruct px as [|x0 px]; [|apply Hpxc; discriminate].
          apply con_swap; auto.
        - rewrite (inv_swap _ _ _ _ Hoo). lia.
        - rewrite app_length. lia.
        - rewrite Hch. simpl. now rewrite orb_true_r. }
      assert (Hzero : a = b ->
        (rev rpre ++ a :: b :: tl, fac, q, ch, true) = (s', fac', q', ch', z) ->
        exists pushed kappa n,
        q' = q ++ pushed /\
        (forall (f : amps) d,
           fac * appstr (rev rpre ++ a :: b :: tl) f d =
           (if z then 0 else fac' * appstr s' f d) + opapp pushed f d + kappa * f d) /\
        pushed_ok (rev rpre ++ a :: b :: tl) pushed /\
        length s' = S (length rpre + S (length tl))%nat /\
        Permutation s' (rev rpre ++ a :: b :: tl) /\
      (con s' -> con (rev rpre ++ a :: b :: tl)) /\ (pushed <> [] -> con (rev rpre ++ a :: b :: tl)) /\
        (inv s' + n)%nat = inv (rev rpre ++ a :: b :: tl) /\
        length pushed <= n /\ ch' = ch || Nat.ltb 0 n /\
        (z = false -> n = O -> s' = rev rpre ++ a :: b :: tl /\ good a b /\ chain b tl)).
      { intros -> E. inversion E; subst; clear E. exists [], 0, O. rewrite app_nil_r.
        repeat split; auto; try discriminate; try congruence.
        - intros f d. rewrite appstr_square. simpl. ring.
        - constructor.
        - rewrite app_length, rev_length. simpl. lia.
        - now rewrite orb_false_r. }
      assert (Hsem1 : (fst a <> fst b \/ snd a = snd b) -> forall (f : amps) d,
         fac * appstr (rev rpre ++ a :: b :: tl) f d =
         (- fac) * appstr (rev rpre ++ b :: a :: tl) f d + opapp [] f d + 0 * f d).
      { intros Hc f d. rewrite appstr_swap by auto. simpl. ring. }
      assert (Hsem2 : fst a = fst b -> snd a = false -> snd b = true ->
         forall (f : amps) d,
         fac * appstr (rev rpre ++ a :: b :: tl) f d =
         (- fac) * appstr (rev rpre ++ b :: a :: tl) f d + fac * appstr (rev rpre ++ tl) f d).
      { destruct a as [p ad], b as [r bd]. cbn [fst snd]. intros -> -> -> f d.
        pose proof (appstr_contract (rev rpre) r tl f d) as Ec.
        etransitivity; [apply f_equal; exact Ec|]. ring. }
      assert (Hsem3 : fst a = fst b -> snd a = false -> snd b = true -> rev rpre ++ tl = [] ->
         forall (f : amps) d,
         fac * appstr (rev rpre ++ a :: b :: tl) f d =
         (- fac) * appstr (rev rpre ++ b :: a :: tl) f d + opapp [] f d + fac * f d).
      { intros H1 H2 H3 H4 f d. rewrite Hsem2 by auto. rewrite H4. simpl. ring. }
      assert (Hsem4 : fst a = fst b -> snd a = false -> snd b = true ->
         forall (f : amps) d,
         fac * appstr (rev rpre ++ a :: b :: tl) f d =
         (- fac) * appstr (rev rpre ++ b :: a :: tl) f d + opapp [(rev rpre ++ tl, fac)] f d + 0 * f d).
      { intros H1 H2 H3 f d. rewrite Hsem2 by auto. simpl. ring. }
      clear Hsem2.
      destruct a as [p ad], b as [r bd]. cbn [fst snd] in *.
      destruct ad, bd.
      + destruct (Nat.eqb_spec p r) as [->|Hne]; [apply Hzero; auto|].
        destruct (Nat.ltb_spec p r) as [Hlt|Hge].
        * apply (Hswap q [] 0); auto; try congruence.
          -- now rewrite app_nil_r.
          -- constructor.
          -- unfold oo; simpl. now apply Nat.ltb_lt.
        * intros E. apply Hkeep; auto. split; [unfold oo; simpl; apply Nat.ltb_ge; lia|].
          intros X; inversion X; lia.
      + intros E. apply Hkeep; auto. split; [reflexivity|discriminate].
      + destruct (Nat.eqb_spec p r) as [->|Hne].
        * destruct (rev rpre ++ tl) as [|o0 os] eqn:Eno.
          -- apply (Hswap q [] fac); auto; try congruence.
             ++ now rewrite app_nil_r.
             ++ constructor.
          -- apply (Hswap (q ++ [(o0 :: os, fac)]) [(o0 :: os, fac)] 0); auto.
             ++ constructor; [|constructor]. cbn [fst]. split; [discriminate|].
                exists r. rewrite <- Eno.
                rewrite <- (Permutation_middle (rev rpre) _ (r, false)). constructor.
                apply Permutation_middle.
             ++ intros _. apply con_adjacent.
        * apply (Hswap q [] 0); auto; try congruence.
          -- now rewrite app_nil_r.
          -- constructor.
      + destruct (Nat.eqb_spec p r) as [->|Hne]; [apply Hzero; auto|].
        destruct (Nat.ltb_spec p r) as [Hlt|Hge].
        * apply (Hswap q [] 0); auto; try congruence.
          -- now rewrite app_nil_r.
          -- constructor.
          -- unfold oo; simpl. now apply Nat.ltb_lt.
        * intros E. apply Hkeep; auto. split; [unfold oo; simpl; apply Nat.ltb_ge; lia|].
          intros X; inversion X; lia.
  Qed.

  Lemma chain_sorted a tl : chain a tl -> StronglySorted good (a :: tl).
  Proof.
    revert a; induction tl as [|b tl IH]; simpl; intros a Hc.
    - constructor; constructor.
    - destruct Hc as [Hg Hc]. specialize (IH b Hc). constructor; auto.
      constructor; auto. inversion IH; subst.
      eapply Forall_impl; [|eassumption]. intros x Hx. eapply good_trans; eauto.
  Qed.

  (** * The sorting loop *)
  Lemma sort_loop_spec fuel s (fac : K) q :
    inv s < fuel -> length s <> 1%nat ->
    exists pushed res kappa,
      sort_loop fuel s fac q = Ok (q ++ pushed, res) /\
      (forall (f : amps) d,
         fac * appstr s f d =
         match res with Some (s', fac') => fac' * appstr s' f d | None => 0 end
         + opapp pushed f d + kappa * f d) /\
      pushed_ok s pushed /\ (pushed <> [] -> con s) /\
      length pushed <= inv s /\
      (forall s' fac', res = Some (s', fac') -> normal s' /\ Permutation s' s).
  Proof.
    revert s fac q. induction fuel as [|fuel IH]; intros s fac q Hf Hl; [lia|].
    destruct s as [|a [|b tl]].
    - simpl. exists [], (Some ([], fac)), 0. rewrite app_nil_r. split; [reflexivity|].
      split; [intros; simpl; ring|]. split; [constructor|]. split; [congruence|]. split; [simpl; lia|].
      intros s' fac' E; inversion E; subst. split; [|constructor].
      exists [], []. repeat split; constructor.
    - simpl in Hl. congruence.
    - remember (b :: tl) as tl'. cbn [sort_loop]. rewrite Heqtl'. rewrite <- Heqtl'.
      destruct (pass [] a tl' fac q false) as [[[[s1 fac1] q1] ch1] z1] eqn:E.
      apply pass_spec in E. destruct E as (pushed & kappa & n & Hq & Hsem & Hpo & Hlen & Hperm & Hcon & Hpcon & Hinv & Hpl & Hch & Hnc).
      cbn [rev app length plus] in Hsem, Hperm, Hinv, Hpo, Hlen, Hnc. subst q1.
      destruct z1.
      + exists pushed, None, kappa. split; [reflexivity|]. split; [exact Hsem|]. split; auto. split; auto.
        split; [lia|]. discriminate.
      + destruct ch1 eqn:Ech.
        * assert (0 < n)%nat as Hn. { simpl in Hch. symmetry in Hch. now apply Nat.ltb_lt in Hch. }
          destruct (IH s1 fac1 (q ++ pushed)) as (pushed2 & res & kappa2 & Er & Hs2 & Hp2 & Hc2 & Hl2 & Hr2).
          { lia. }
          { rewrite Hlen, Heqtl'. simpl. lia. }
          exists (pushed ++ pushed2), res, (kappa + kappa2). split; [rewrite Er; now rewrite app_assoc|].
          split. { intros f d. rewrite Hsem. rewrite Hs2. rewrite opapp_app. ring. }
          split. { apply Forall_app; split; auto. eapply pushed_ok_perm; eauto. }
          split. { intros Hx. destruct pushed; [|apply Hpcon; discriminate]. apply Hcon, Hc2. exact Hx. }
          split. { rewrite app_length. lia. }
          intros s' fac' Hsome. destruct (Hr2 _ _ Hsome) as [Hno Hpe]. split; auto.
          now rewrite Hpe.
        * assert (n = O) as Hn0. { simpl in Hch. symmetry in Hch. apply Nat.ltb_ge in Hch. lia. }
          destruct (Hnc eq_refl Hn0) as [-> Hchain].
          exists pushed, (Some (a :: tl', fac1)), kappa. split; [reflexivity|]. split; [exact Hsem|].
          split; auto. split; auto. split; [lia|].
          intros s' fac' Hsome. inversion Hsome; subst. split; auto.
          apply sorted_good_normal. now apply chain_sorted.
  Qed.

  Lemma sort_loop_single fuel o (fac : K) q : sort_loop (S fuel) [o] fac q = Raise IndexError.
  Proof. reflexivity. Qed.

  (** * The queue *)

  (** Potential of the queue: every string of length L may spawn at most [L*L]
      strings of length [L-2]. *)
  Definition weight (n : nat) : nat := (2 ^ (n * n))%nat.
  Fixpoint qweight (q : queue (K:=K)) : nat :=
    match q with [] => 0 | (s, _) :: q' => weight (length s) + qweight q' end%nat.

  Lemma qweight_app q r : qweight (q ++ r) = (qweight q + qweight r)%nat.
  Proof. induction q as [|[s c] q IH]; simpl; auto. rewrite IH. lia. Qed.

  Lemma pushed_weight s q : pushed_ok s q -> qweight q = (length q * weight (length s - 2))%nat.
  Proof.
    induction 1 as [|[k c] q [_ [p Hl]] Hq IH]; [reflexivity|]. cbn [qweight length]. rewrite IH.
    cbn [fst] in Hl. apply Permutation_length in Hl. cbn [length] in Hl.
    simpl in Hl. assert (E : (length s - 2)%nat = length k) by lia. rewrite E. lia.
  Qed.

  Lemma weight_step n : (2 <= n -> n * n * weight (n - 2) < weight n)%nat.
  Proof.
    intros Hn. unfold weight.
    replace (n * n)%nat with ((n - 2) * (n - 2) + (4 * n - 4))%nat at 2 by nia.
    rewrite Nat.pow_add_r.
    assert (n * n < 2 ^ (4 * n - 4))%nat as Hsq.
    { assert (forall m, (S (S m)) * (S (S m)) < 16 ^ S m)%nat as Hm.
      { induction m as [|m IH]; [simpl; lia|].
        change (16 ^ S (S m))%nat with (16 * 16 ^ S m)%nat. nia. }
      destruct n as [|[|m]]; try lia.
      replace (4 * S (S m) - 4)%nat with (4 * S m)%nat by lia.
      rewrite Nat.pow_mul_r. apply (Hm m). }
    assert (0 < 2 ^ ((n - 2) * (n - 2)))%nat by (apply Nat.neq_0_lt_0, Nat.pow_nonzero; lia).
    nia.
  Qed.

  (** Vacuum expectation value of the nonempty strings. *)
  Fixpoint vne (q : list (fstring * K)) : K :=
    match q with
    | [] => 0
    | (s, c) :: q' => (match s with [] => 0 | _ => c * vevstr s end) + vne q'
    end.

  Lemma vne_app q r : vne (q ++ r) = vne q + vne r.
  Proof. induction q as [|[s c] q IH]; simpl; [ring|]. rewrite IH. ring. Qed.

  Lemma vne_vev q : Forall (fun kc => fst kc <> []) q -> vne q = vev q.
  Proof.
    induction 1 as [|[s c] q Hs Hq IH]; [reflexivity|]. unfold vev. rewrite mel_cons.
    simpl. fold (vev q). rewrite <- IH. destruct s; [simpl in Hs; congruence|]. reflexivity.
  Qed.

  (** Nonempty normal-ordered strings have no vacuum expectation value. *)
  Lemma appstr_kill_last s p (x : det) : appstr (K:=K) (s ++ [(p, false)]) (basis vacuum) x = 0.
  Proof.
    rewrite appstr_app. apply appstr_zero. intros e. simpl. unfold app1. cbn [fst snd].
    destruct (Bool.eqb (occ e p) false) eqn:E; auto. unfold basis.
    destruct (N.eqb_spec vacuum (flip e p)) as [X|X]; [|now rewrite sgn_0].
    apply Bool.eqb_prop in E. assert (Y : occ (flip e p) p = true) by (rewrite occ_flip_same, E; auto).
    rewrite <- X, occ_vacuum in Y. discriminate.
  Qed.

  Lemma normal_vev s : normal s -> s <> [] -> vevstr (K:=K) s = 0.
  Proof.
    intros (cs & qs & -> & _ & _) Hne. unfold vevstr, melstr. destruct cs as [|c cs].
    - simpl. destruct qs as [|q0 qs] using rev_ind; [simpl in Hne; congruence|].
      unfold annihilators. rewrite map_app. simpl. apply appstr_kill_last.
    - simpl. unfold app1. cbn [fst snd]. now rewrite occ_vacuum.
  Qed.

  (** ** Invariant of the outer loop *)
  Variable d0 : dict (K:=K).

  Definition no_sem (st : queue (K:=K) * dict (K:=K)) : Prop :=
    exists kappa drops, all_small drops /\ kappa + vne (fst st) = vne d0 /\
      forall (f : amps) x,
        opapp d0 f x = opapp (fst st) f x + opapp (snd st) f x + kappa * f x + opapp drops f x.

  (** [P] is closed under the two things normal ordering does to a string. *)
  Definition closed (P : fstring -> Prop) : Prop :=
    forall s, P s -> (forall t, Permutation t s -> normal t -> P t) /\
                     (con s -> forall p t, t <> [] -> Permutation ((p, false) :: (p, true) :: t) s -> P t).

  Definition no_shape (P : fstring -> Prop) (st : queue (K:=K) * dict (K:=K)) : Prop :=
    Forall (fun kc => P (fst kc)) (fst st) /\
    NoDup (dkeys (snd st)) /\ Forall (fun k => P k /\ normal k) (dkeys (snd st)).

  Lemma sort_loop_noraise s (fac : K) : length s <> 1%nat ->
    exists pushed res kappa,
      sort_loop (sort_fuel s) s fac [] = Ok (pushed, res) /\
      (forall (f : amps) d,
         fac * appstr s f d =
         match res with Some (s', fac') => fac' * appstr s' f d | None => 0 end
         + opapp pushed f d + kappa * f d) /\
      pushed_ok s pushed /\ (pushed <> [] -> con s) /\ length pushed <= inv s /\
      (forall s' fac', res = Some (s', fac') -> normal s' /\ Permutation s' s).
  Proof.
    intros Hl. destruct (sort_loop_spec (sort_fuel s) s fac []) as (pushed & res & kappa & H).
    - unfold sort_fuel. pose proof (inv_bound s). lia.
    - auto.
    - exists pushed, res, kappa. exact H.
  Qed.

  Lemma no_step_spec P st : closed P -> no_sem st -> no_shape P st ->
    match no_step st with
    | inl st' => no_sem st' /\ no_shape P st' /\ (qweight (fst st') < qweight (fst st))%nat
    | inr (Ok D) => fst st = [] /\ D = snd st
    | inr (Raise e) => e = IndexError /\ exists o, P [o]
    | inr Hang => False
    end.
  Proof.
    intros HP (kap & drops & Hsm & Hk & Hsem) (Hq & Hnd & Hks). destruct st as [q D]. cbn [fst snd] in *.
    unfold no_step. cbn [fst snd]. destruct q as [|[s fac] q]; [auto|].
    destruct (Nat.eq_dec (length s) 1) as [Hl|Hl].
    { destruct s as [|o [|]]; simpl in Hl; try lia. simpl. split; auto. inversion Hq; subst. eauto. }
    destruct (sort_loop_noraise s fac Hl) as (pushed & res & kappa & Hsl & Hs & Hpo & Hpc & Hpl & Hr). rewrite Hsl.
    inversion Hq as [|? ? Ps Hq']; subst. cbn [fst] in Ps. destruct (HP s Ps) as [HP1 HP2].
    assert (Hshq : Forall (fun kc => P (fst kc)) (q ++ pushed)).
    { apply Forall_app; split; auto. destruct pushed as [|pu0 pus]; [constructor|].
      assert (Hcs : con s) by (apply Hpc; discriminate).
      eapply Forall_impl; [|exact Hpo]. intros kc [Hne [p Hp]]. eapply HP2; eauto. }
    assert (Hw : (qweight (q ++ pushed) < qweight ((s, fac) :: q))%nat).
    { rewrite qweight_app. cbn [qweight]. rewrite (pushed_weight _ _ Hpo).
      pose proof (inv_bound s) as Hib.
      destruct (le_lt_dec 2 (length s)) as [H2|H2].
      - pose proof (weight_step _ H2). nia.
      - assert (s = []) as -> by (destruct s as [|? [|]]; simpl in *; auto; lia).
        assert (length pushed = O) as -> by (simpl in Hpl; lia).
        unfold weight. simpl. lia. }
    destruct s as [|o s].
    { (* the empty string is moved to the result unchanged *)
      assert (pushed = []) as -> by (destruct pushed; simpl in Hpl; auto; lia). rewrite app_nil_r in *.
      assert (E0 : sort_loop (sort_fuel []) [] fac [] = Ok ([], Some ([], fac))) by reflexivity.
      rewrite E0 in Hsl. inversion Hsl; subst res.
      destruct (dacc_opapp [] fac D) as (d1 & Hs1 & Hd1).
      split; [|split].
      - exists kap, (drops ++ d1). split; [now apply all_small_app|]. cbn [fst snd]. split.
        + rewrite <- Hk. simpl. ring.
        + intros f x. rewrite Hsem, opapp_app. specialize (Hd1 f x). simpl in *.
          transitivity (opapp q f x + (opapp D f x + fac * f x) + kap * f x + opapp drops f x); [ring|].
          rewrite Hd1. ring.
      - split; [auto|]. split; cbn [snd]; [now apply dacc_nodup|]. apply dacc_keys; auto. split; auto.
        exists [], []. repeat split; constructor.
      - exact Hw. }
    assert (Hkap : fac * vevstr (o :: s) = vne pushed + kappa).
    { rewrite vne_vev.
      - unfold vevstr, melstr. rewrite Hs.
        assert (match res with Some (s', fac') => fac' * appstr s' (basis vacuum) vacuum | None => 0 end = 0) as ->.
        { destruct res as [[s' fac']|]; auto. destruct (Hr _ _ eq_refl) as [Hn Hp].
          pose proof (normal_vev s' Hn) as Hv. unfold vevstr, melstr in Hv. rewrite Hv; [ring|].
          intros ->. apply Permutation_nil in Hp. discriminate. }
        unfold vev, mel, basis. rewrite N.eqb_refl. ring.
      - eapply Forall_impl; [|exact Hpo]. intros kc [H _]; exact H. }
    destruct res as [[s' fac']|].
    - destruct (Hr _ _ eq_refl) as [Hn Hp].
      destruct (dacc_opapp s' fac' D) as (d1 & Hs1 & Hd1). split; [|split; [split; [auto|split]|exact Hw]].
      + exists (kap + kappa), (drops ++ d1). split; [now apply all_small_app|]. cbn [fst snd]. split.
        * rewrite <- Hk, vne_app. cbn [vne]. rewrite Hkap. ring.
        * intros f x. rewrite Hsem, !opapp_app. specialize (Hd1 f x). specialize (Hs f x). cbn [opapp].
          rewrite Hs.
          transitivity (opapp q f x + opapp pushed f x + (opapp D f x + fac' * appstr s' f x)
                        + (kap + kappa) * f x + opapp drops f x); [ring|].
          rewrite Hd1. ring.
      + cbn [snd]. now apply dacc_nodup.
      + cbn [snd]. apply dacc_keys; auto.
    - split; [|split; [split; [auto|split; auto]|exact Hw]].
      exists (kap + kappa), drops. split; auto. cbn [fst snd]. split.
      + rewrite <- Hk, vne_app. cbn [vne]. rewrite Hkap. ring.
      + intros f x. rewrite Hsem, !opapp_app. cbn [opapp]. rewrite Hs. ring.
  Qed.

  Lemma qweight_fuel (d : dict (K:=K)) : (qweight d < 2 ^ no_fuel d)%nat.
  Proof.
    induction d as [|[s c] d IH]; [simpl; lia|]. cbn [qweight no_fuel]. rewrite Nat.pow_add_r.
    change (2 ^ S (length s * length s))%nat with (2 * 2 ^ (length s * length s))%nat.
    unfold weight. 
    assert (0 < 2 ^ (length s * length s))%nat by (apply Nat.neq_0_lt_0, Nat.pow_nonzero; lia). nia.
  Qed.

  Lemma normal_order_spec P : closed P -> Forall P (dkeys d0) ->
    match normal_order d0 with
    | Ok D =>
        (exists drops, all_small drops /\
           forall (f : amps) x, opapp d0 f x = opapp D f x + vne d0 * f x + opapp drops f x) /\
        NoDup (dkeys D) /\ Forall (fun k => P k /\ normal k) (dkeys D)
    | Raise e => e = IndexError /\ exists o, P [o]
    | Hang => False
    end.
  Proof.
    intros HP H0.
    assert (Hi : no_sem (d0, []) /\ no_shape P (d0, [])).
    { split.
      - exists 0, []. split; [constructor|]. cbn [fst snd]. split; [ring|]. intros; simpl; ring.
      - split; [|split]; cbn [fst snd dkeys map]; try constructor.
        unfold dkeys in H0. now rewrite Forall_map in H0. }
    destruct (iterp_terminates (fun st => no_sem st /\ no_shape P st) (fun st => qweight (fst st))
                no_step (no_fuel d0) (d0, [])) as [r Er].
    - intros st [H1 H2]. pose proof (no_step_spec P st HP H1 H2) as Hst.
      destruct (no_step st) as [st'|]; auto. destruct Hst as (A & B & D); auto.
    - exact Hi.
    - apply qweight_fuel.
    - pose proof (iterp_inv (fun st => no_sem st /\ no_shape P st)
        (fun r => match r with
          | Ok D =>
              (exists drops, all_small drops /\
                 forall (f : amps) x, opapp d0 f x = opapp D f x + vne d0 * f x + opapp drops f x) /\
              NoDup (dkeys D) /\ Forall (fun k => P k /\ normal k) (dkeys D)
          | Raise e => e = IndexError /\ exists o, P [o]
          | Hang => False
          end) no_step) as Hinv.
      specialize (Hinv) with (n := no_fuel d0) (s := (d0, @nil (fstring * K))).
      assert (Er' : normal_order d0 = r) by (unfold normal_order; now rewrite Er). rewrite Er'.
      unfold dict, queue in *. rewrite Er in Hinv. apply Hinv; auto. clear Hinv.
      intros st [H1 H2]. pose proof (no_step_spec P st HP H1 H2) as Hst.
      destruct (no_step st) as [st'|[D|e|]]; auto; [tauto|].
      destruct Hst as [Hq ->]. destruct H1 as (kap & drops & Hsm & Hk & Hsem).
      destruct H2 as (_ & Hnd & Hks). split; auto.
      exists drops. split; auto. intros f x. rewrite Hsem, Hq. rewrite Hq in Hk. simpl in *.
      rewrite <- Hk. ring.
  Qed.
End Proofs.
