(** Properties C24 and C25: excitation iterators and ansatz structures. *)
From Coq Require Import List Bool Arith ZArith Reals Lia Permutation String.
From Verif Require Import CIModel StateModel Props_State Base UPSModel UPSSingle UPSAnsatz Props_UPS StructModel StructProofs StructInv.
Import ListNotations.
Local Open Scope nat_scope.

(** ** C24 *)

(** In a yielded tuple [(a, i, b, j, ...)] the creation indices stand at the even
    positions, the annihilation indices at the odd ones. *)
Definition created (t : list nat) : list nat := map (fun q => nth (2 * q) t 0) (seq 0 (List.length t / 2)).
Definition removed (t : list nat) : list nat := map (fun q => nth (2 * q + 1) t 0) (seq 0 (List.length t / 2)).
(** As many alpha (even) and as many beta (odd) indices on both sides. *)
Definition conserves_spin (A I : list nat) : Prop :=
  forall s, s < 2 -> List.length (filter (fun p => p mod 2 =? s) A) = List.length (filter (fun p => p mod 2 =? s) I).

Definition enumerates_once (k : nat) (it : list nat -> list nat -> list (list nat)) : Prop :=
  forall occ unocc, NoDup occ -> NoDup unocc ->
    NoDup (it occ unocc) /\
    (forall t, In t (it occ unocc) -> List.length t = 2 * k /\ NoDup (created t) /\ NoDup (removed t) /\
       incl (created t) unocc /\ incl (removed t) occ /\ conserves_spin (created t) (removed t)) /\
    (forall A I, NoDup A -> NoDup I -> incl A unocc -> incl I occ -> List.length A = k -> List.length I = k -> conserves_spin A I ->
       exists! t, In t (it occ unocc) /\ Permutation A (created t) /\ Permutation I (removed t)).

Lemma half_double n : 2 * n / 2 = n.
Proof. rewrite Nat.mul_comm. apply Nat.div_mul. lia. Qed.
Lemma created_interleave v o : List.length v = List.length o -> created (interleave v o) = v.
Proof.
  intros H. unfold created. rewrite interleave_length, half_double by assumption.
  revert o H. induction v as [|a v IH]; intros [|i o] H; cbn in H; try lia; [reflexivity|].
  cbn [List.length seq map]. f_equal. rewrite <- seq_shift, map_map. rewrite <- (IH o) at 2 by lia.
  apply map_ext. intros q. replace (2 * S q) with (S (S (2 * q))) by lia. reflexivity.
Qed.
Lemma removed_interleave v o : List.length v = List.length o -> removed (interleave v o) = o.
Proof.
  intros H. unfold removed. rewrite interleave_length, half_double, H by assumption.
  revert o H. induction v as [|a v IH]; intros [|i o] H; cbn in H; try lia; [reflexivity|].
  cbn [List.length seq map]. f_equal. rewrite <- seq_shift, map_map. rewrite <- (IH o) at 2 by lia.
  apply map_ext. intros q. replace (2 * S q + 1) with (S (S (2 * q + 1))) by lia. reflexivity.
Qed.
Lemma mod2_odd p : (p mod 2 =? 1) = Nat.odd p.
Proof.
  rewrite <- Nat.negb_even, <- mod2_even. pose proof (Nat.mod_upper_bound p 2). destruct (p mod 2) as [|[|?]]; [reflexivity|reflexivity|lia].
Qed.
Lemma conserves_iff A I : conserves_spin A I <-> same_spin A I.
Proof.
  unfold conserves_spin, same_spin. split.
  - intros H. split.
    + specialize (H 0 ltac:(lia)). rewrite !(filter_ext _ _ mod2_even) in H. exact H.
    + specialize (H 1 ltac:(lia)). rewrite !(filter_ext _ _ mod2_odd) in H. exact H.
  - intros [H0 H1] s Hs. destruct s as [|[|s]]; [| |lia].
    + rewrite !(filter_ext _ _ mod2_even). exact H0.
    + rewrite !(filter_ext _ _ mod2_odd). exact H1.
Qed.

Lemma iter_k_once k it : (forall occ unocc, it occ unocc = iter_k k occ unocc) -> enumerates_once k it.
Proof.
  intros E occ unocc Ho Hu. rewrite E. split; [now apply iter_k_NoDup|]. split.
  - intros t Ht. apply in_iter_k in Ht as (v & o & -> & Sv & So & Lv & Lo & Hs).
    rewrite created_interleave, removed_interleave, interleave_length by congruence.
    split; [lia|]. split; [eapply sublist_NoDup; eassumption|]. split; [eapply sublist_NoDup; eassumption|].
    split; [now apply sublist_in|]. split; [now apply sublist_in|]. now apply conserves_iff.
  - intros A I NA NI iA iI lA lI S. apply conserves_iff in S.
    destruct (iter_k_unique k occ unocc A I) as (t & (Ht & P1 & P2) & U); auto.
    assert (X : forall t, In t (iter_k k occ unocc) -> created t = evens t /\ removed t = odds t).
    { intros u Hu'. apply in_iter_k in Hu' as (v & o & -> & _ & _ & Lv & Lo & _).
      rewrite created_interleave, removed_interleave, evens_interleave, odds_interleave by congruence. auto. }
    exists t. destruct (X t Ht) as [Ec Er]. split; [rewrite Ec, Er; auto|]. intros t' (H1 & H2 & H3). destruct (X t' H1) as [E1 E2].
    rewrite E1 in H2. rewrite E2 in H3. apply U. auto.
Qed.

Theorem C24_spin_orbital_iterators :
  enumerates_once 1 iterate_t1 /\ enumerates_once 2 iterate_t2 /\ enumerates_once 3 iterate_t3 /\
  enumerates_once 4 iterate_t4 /\ enumerates_once 5 iterate_t5 /\ enumerates_once 6 iterate_t6.
Proof.
  split; [|split; [|split; [|split; [|split]]]]; apply iter_k_once; auto using iterate_t1_k, iterate_t2_k, iterate_t3_k, iterate_t4_k, iterate_t5_k, iterate_t6_k.
Qed.

(** Spin-adapted iterators: unordered pairs with repetition; two tuples (cases 4
    and 5) exactly when both pairs have different members. *)
Definition case_fits (case : nat) (i j a b : nat) : Prop :=
  match case with
  | 1 => i = j /\ a = b
  | 2 => i = j /\ a <> b
  | 3 => i <> j /\ a = b
  | 4 | 5 => i <> j /\ a <> b
  | _ => False
  end.
Lemma case_fits_iff c i j a b : case_fits c i j a b <-> sa_case_ok a i b j c.
Proof.
  unfold sa_case_ok, case_fits. destruct c as [|[|[|[|[|[|c]]]]]]; intuition (try discriminate; auto).
Qed.
Theorem C24_spin_adapted_iterators occ unocc : NoDup occ -> NoDup unocc ->
  (NoDup (iterate_t1_sa occ unocc) /\
   (forall t, In t (iterate_t1_sa occ unocc) <-> exists i a, t = [a; i] /\ In i occ /\ In a unocc)) /\
  (NoDup (iterate_t2_sa occ unocc) /\
   (forall t case, In (t, case) (iterate_t2_sa occ unocc) -> exists i j a b, t = [a; i; b; j] /\
      In i occ /\ In j occ /\ In a unocc /\ In b unocc /\ case_fits case i j a b) /\
   (forall i j a b case, In i occ -> In j occ -> In a unocc -> In b unocc -> case_fits case i j a b ->
      exists! t, In (t, case) (iterate_t2_sa occ unocc) /\ Permutation [a; b] (created t) /\ Permutation [i; j] (removed t))).
Proof.
  intros Ho Hu. split.
  - split.
    + unfold iterate_t1_sa. apply NoDup_flat_map; auto.
      * intros i _. apply NoDup_flat_map; auto; [intros; repeat constructor; auto|].
        intros a a' z _ _ [<-|[]] [E|[]]. congruence.
      * intros i i' z _ _ H1 H2. apply in_flat_map in H1 as (a & _ & [<-|[]]), H2 as (a' & _ & [E|[]]). congruence.
    + intros t. rewrite in_t1_sa. split; intros (x & y & H); exists y, x; tauto.
  - rewrite iterate_t2_sa_list. split; [apply sa_list_NoDup; now apply rpairs_NoDup|]. split.
    + intros t c H. apply in_sa_list in H as (i & j & a & b & -> & H1 & H2 & H3). apply rpairs_in in H1 as [? ?], H2 as [? ?].
      apply case_fits_iff in H3. exists i, j, a, b. auto 10.
    + intros i j a b c Hi Hj Ha Hb Hc. 
      assert (exists i' j', In (i', j') (rpairs occ) /\ ((i' = i /\ j' = j) \/ (i' = j /\ j' = i))) as (i' & j' & Hp & Eij).
      { destruct (in_rpairs Nat.eq_dec occ i j Hi Hj); eauto 10. }
      assert (exists a' b', In (a', b') (rpairs unocc) /\ ((a' = a /\ b' = b) \/ (a' = b /\ b' = a))) as (a' & b' & Hq & Eab).
      { destruct (in_rpairs Nat.eq_dec unocc a b Ha Hb); eauto 10. }
      exists [a'; i'; b'; j']. split.
      * split; [|split].
        -- apply in_sa_list. exists i', j', a', b'. split; [reflexivity|]. split; [assumption|]. split; [assumption|].
           apply case_fits_iff. unfold case_fits in *. destruct c as [|[|[|[|[|[|c]]]]]]; try tauto; intuition (subst; auto).
        -- cbn. destruct Eab as [[-> ->]|[-> ->]]; [reflexivity|apply perm_swap].
        -- cbn. destruct Eij as [[-> ->]|[-> ->]]; [reflexivity|apply perm_swap].
      * intros t (Ht & P1 & P2). apply in_sa_list in Ht as (i2 & j2 & a2 & b2 & -> & Hp2 & Hq2 & _). cbn in P1, P2.
        assert (U : forall (l : list nat) x y x1 y1 x2 y2, NoDup l -> In (x1, y1) (rpairs l) -> In (x2, y2) (rpairs l) ->
                    (x1 = x /\ y1 = y) \/ (x1 = y /\ y1 = x) -> Permutation [x; y] [x2; y2] -> x1 = x2 /\ y1 = y2).
        { intros l x y x1 y1 x2 y2 Hn H1 H2 E P. apply Permutation_length_2 in P.
          assert ((x1 = x2 /\ y1 = y2) \/ (x1 = y2 /\ y1 = x2)) as [?|[-> ->]] by (intuition (subst; auto)); [assumption|].
          assert (x2 = y2) as -> by (eapply rpairs_sym; eassumption). auto. }
        destruct (U unocc a b a' b' a2 b2 Hu Hq Hq2 Eab P1) as [-> ->].
        destruct (U occ i j i' j' i2 j2 Ho Hp Hp2 Eij P2) as [-> ->]. reflexivity.
Qed.

(** Pair doubles and the generalized iterators. *)
Theorem C24_pair_iterators occ unocc : NoDup occ -> NoDup unocc ->
  NoDup (iterate_pair_t2 occ unocc) /\
  (forall t, In t (iterate_pair_t2 occ unocc) <-> exists i a, In i occ /\ In a unocc /\ t = [2 * a; 2 * i; 2 * a + 1; 2 * i + 1]).
Proof.
  intros Ho Hu. split.
  - unfold iterate_pair_t2. apply NoDup_flat_map; auto.
    + intros i _. apply NoDup_flat_map; auto; [intros; repeat constructor; auto|].
      intros a a' z _ _ [<-|[]] [E|[]]. inversion E. lia.
    + intros i i' z _ _ H1 H2. apply in_flat_map in H1 as (a & _ & [<-|[]]), H2 as (a' & _ & [E|[]]). inversion E. lia.
  - intros t. rewrite in_pair. split; intros (x & y & H); exists y, x; tauto.
Qed.

Theorem C24_generalized_iterators n :
  (NoDup (iterate_t1_sa_generalized n) /\
   forall t, In t (iterate_t1_sa_generalized n) <-> exists i a, i < a < n /\ t = [a; i]) /\
  (NoDup (iterate_t1_generalized n) /\
   forall t, In t (iterate_t1_generalized n) <-> exists i a, i < a < n /\ i mod 2 = a mod 2 /\ t = [a; i]) /\
  (NoDup (iterate_pair_t2_generalized n) /\
   forall t, In t (iterate_pair_t2_generalized n) <-> exists i a, i < a < n /\ t = [2 * a; 2 * i; 2 * a + 1; 2 * i + 1]) /\
  (NoDup (iterate_t2_generalized n) /\
   forall t, In t (iterate_t2_generalized n) <->
     exists i j a b, i <= j < a /\ a <= b < n /\ conserves_spin [a; b] [i; j] /\ t = [a; i; b; j]) /\
  (NoDup (iterate_t2_sa_generalized n) /\
   forall t case, In (t, case) (iterate_t2_sa_generalized n) <->
     exists i j a b, i <= j < a /\ a <= b < n /\ case_fits case i j a b /\ t = [a; i; b; j]).
Proof.
  assert (SS : forall a i, same_spin [a] [i] <-> i mod 2 = a mod 2).
  { intros a i. rewrite <- conserves_iff. unfold conserves_spin. pose proof (Nat.mod_upper_bound a 2). pose proof (Nat.mod_upper_bound i 2).
    split.
    - intros H1. specialize (H1 (a mod 2) ltac:(lia)). cbn [filter] in H1. rewrite Nat.eqb_refl in H1.
      destruct (Nat.eqb_spec (i mod 2) (a mod 2)); cbn in H1; [assumption|lia].
    - intros E s _. cbn [filter]. rewrite E. destruct (a mod 2 =? s); reflexivity. }
  split; [|split; [|split; [|split]]]; (split; [|]).
  - apply loop_range_NoDup; intros.
    + apply loop_range_NoDup; intros; [repeat constructor; auto|]. destruct H2 as [<-|[]], H3 as [E|[]]. congruence.
    + apply in_loop_range in H1 as (? & _ & [<-|[]]), H2 as (? & _ & [E|[]]). congruence.
  - intros t. rewrite in_t1_sa_gen. split; intros (x & y & H); exists y, x; tauto.
  - apply loop_range_NoDup; intros.
    + apply loop_range_NoDup; intros; [apply emit_NoDup|]. apply in_emit in H2 as [-> _], H3 as [E _]. congruence.
    + apply in_loop_range in H1 as (? & _ & H1), H2 as (? & _ & H2). apply in_emit in H1 as [-> _], H2 as [E _]. congruence.
  - intros t. rewrite in_t1_gen. split; intros (x & y & H); exists y, x; rewrite SS in *; tauto.
  - apply loop_range_NoDup; intros.
    + apply loop_range_NoDup; intros; [repeat constructor; auto|]. destruct H2 as [<-|[]], H3 as [E|[]]. inversion E. lia.
    + apply in_loop_range in H1 as (? & _ & [<-|[]]), H2 as (? & _ & [E|[]]). inversion E. lia.
  - intros t. rewrite in_pair_gen. split; intros (x & y & H); exists y, x; tauto.
  - apply loop_range_NoDup; intros.
    + apply loop_range_NoDup; intros.
      * apply loop_range_NoDup; intros.
        -- apply loop_range_NoDup; intros; [apply emit_NoDup|]. apply in_emit in H4 as [-> _], H5 as [E _]. congruence.
        -- apply in_loop_range in H3 as (? & _ & H3), H4 as (? & _ & H4). apply in_emit in H3 as [-> _], H4 as [E _]. congruence.
      * apply in_loop_range in H2 as (? & _ & H2), H3 as (? & _ & H3). apply in_loop_range in H2 as (? & _ & H2), H3 as (? & _ & H3).
        apply in_emit in H2 as [-> _], H3 as [E _]. congruence.
    + apply in_loop_range in H1 as (? & _ & H1), H2 as (? & _ & H2). apply in_loop_range in H1 as (? & _ & H1), H2 as (? & _ & H2).
      apply in_loop_range in H1 as (? & _ & H1), H2 as (? & _ & H2). apply in_emit in H1 as [-> _], H2 as [E _]. congruence.
  - intros t. rewrite in_t2_gen. split.
    + intros (a & i & b & j & H1 & H2 & H3 & H4). exists i, j, a, b. rewrite conserves_iff. auto.
    + intros (i & j & a & b & H1 & H2 & H3 & H4). exists a, i, b, j. rewrite conserves_iff in H3. auto.
  - apply loop_range_NoDup; intros.
    + apply loop_range_NoDup; intros.
      * apply loop_range_NoDup; intros.
        -- apply loop_range_NoDup; intros.
           ++ apply FinFun.Injective_map_NoDup; [intros u w E; congruence|apply cases_NoDup].
           ++ apply in_map_iff in H4 as (? & <- & _), H5 as (? & E & _). congruence.
        -- apply in_loop_range in H3 as (? & _ & H3), H4 as (? & _ & H4). apply in_map_iff in H3 as (? & <- & _), H4 as (? & E & _). congruence.
      * apply in_loop_range in H2 as (? & _ & H2), H3 as (? & _ & H3). apply in_loop_range in H2 as (? & _ & H2), H3 as (? & _ & H3).
        apply in_map_iff in H2 as (? & <- & _), H3 as (? & E & _). congruence.
    + apply in_loop_range in H1 as (? & _ & H1), H2 as (? & _ & H2). apply in_loop_range in H1 as (? & _ & H1), H2 as (? & _ & H2).
      apply in_loop_range in H1 as (? & _ & H1), H2 as (? & _ & H2). apply in_map_iff in H1 as (? & <- & _), H2 as (? & E & _). congruence.
  - intros t c. rewrite in_t2_sa_gen. split.
    + intros (a & i & b & j & H1 & H2 & H3 & H4). exists i, j, a, b. rewrite case_fits_iff. auto.
    + intros (i & j & a & b & H1 & H2 & H3 & H4). exists a, i, b, j. rewrite case_fits_iff in H3. auto.
Qed.

(** The generalized doubles are not complete: from four spin orbitals on, the
    spin-conserving exchange of orbitals {0,3} and {1,2} is missing in both
    directions (every virtual index is required to lie above both occupied
    ones).  They also contain the zero excitations with [i = j] or [a = b]. *)
Theorem C24_generalized_doubles_refuted n : 4 <= n ->
  conserves_spin [1; 2] [0; 3] /\
  (forall t, In t (iterate_t2_generalized n) ->
     ~ (Permutation [1; 2] (created t) /\ Permutation [0; 3] (removed t)) /\
     ~ (Permutation [0; 3] (created t) /\ Permutation [1; 2] (removed t))) /\
  In [2; 0; 2; 0] (iterate_t2_generalized n).
Proof.
  intros Hn. split; [|split].
  - intros [|[|s]] H; [reflexivity|reflexivity|lia].
  - intros t Ht. apply C24_generalized_iterators in Ht as (i & j & a & b & H1 & H2 & _ & ->).
    cbn [created removed map seq List.length nth Nat.div Nat.divmod fst Nat.mul Nat.add].
    split; intros [P Q]; apply Permutation_length_2 in P, Q; lia.
  - apply C24_generalized_iterators. exists 0, 0, 2, 2. repeat split; try lia. intros [|[|s]] H; [reflexivity|reflexivity|lia].
Qed.

Example C24_example : enumerates_once 3 iterate_t3 /\ List.length (iterate_t3 [0; 1; 2; 3] [4; 5; 6; 7]) = 8 /\
  iterate_t2 [0; 1; 2; 3] [4; 5] = [[4; 0; 5; 1]; [4; 0; 5; 3]; [4; 1; 5; 2]; [4; 2; 5; 3]] /\
  List.length (iterate_t2_sa [0; 1] [2; 3]) = 10.
Proof. split; [apply C24_spin_orbital_iterators|]. repeat split. Qed.

(** ** C25 *)

(** Any history of calls; a call that raises leaves the structure unchanged. *)
Inductive call :=
| Tiled (num_active_orbs : nat) (o : options)
| FUCC (occ unocc occ_spin unocc_spin : list nat) (num_orbs : nat) (o : options)
| SDS (occ unocc occ_spin unocc_spin : list nat) (num_orbs : nat) (o : options).
Definition run (c : call) (s : ups_struct) : Res ups_struct :=
  match c with
  | Tiled n o => create_tiled n o s
  | FUCC occ unocc occs unoccs n o => create_fUCC occ unocc occs unoccs n o s
  | SDS occ unocc occs unoccs n o => create_SDSfUCC occ unocc occs unoccs n o s
  end.
Definition history (cs : list call) : ups_struct :=
  fold_left (fun s c => match run c s with Ok s' => s' | _ => s end) cs ups_empty.

Lemma run_pushes_any c s s' : run c s = Ok s' -> pushes (fun _ _ _ => True) s s'.
Proof.
  destruct c; cbn [run]; intros E.
  - eapply tiled_pushes; eauto.
  - eapply fUCC_pushes; eauto.
  - eapply SDS_pushes; [| | |exact E]; auto.
Qed.

(** Counts and names, for every history. *)
Theorem C25_counts_and_names cs : let s := history cs in
  List.length (s_type s) = s_n s /\ List.length (s_idx s) = s_n s /\ List.length (s_names s) = s_n s /\
  NoDup (s_names s) /\
  (forall k, k < s_n s -> nth_error (s_names s) k = Some (pname k)) /\
  (forall k, Forall (fun d => d < 10) (pname k) /\ 9 <= List.length (pname k) /\ fold_left (fun acc d => 10 * acc + d) (pname k) 0 = k).
Proof.
  intros s. assert (C : counts s).
  { unfold s, history. generalize counts_empty. generalize ups_empty. induction cs as [|c cs IH]; intros s0 H; cbn [fold_left]; [assumption|].
    apply IH. destruct (run c s0) eqn:E; auto. eapply counts_pushes; [exact H|eapply run_pushes_any, E]. }
  destruct C as (C1 & C2 & C3). split; [assumption|]. split; [assumption|]. rewrite C3. split; [now rewrite map_length, seq_length|].
  split; [apply FinFun.Injective_map_NoDup; [intros a b; apply pname_inj|apply seq_NoDup]|]. split.
  - intros k Hk. rewrite nth_error_map.
    assert (nth_error (seq 0 (s_n s)) k = Some k) as ->; [|reflexivity].
    rewrite nth_error_nth' with (d := 0) by now rewrite seq_length. now rewrite seq_nth by assumption.
  - intros k. destruct (pname_digits k). split; [assumption|]. split; [assumption|]. apply pname_val.
Qed.

(** Arity and parameter-shift order of every entry, for every history in which
    the "pD" blocks of create_SDSfUCC are not used. *)
Definition no_sds_pair (c : call) : Prop :=
  match c with SDS _ _ _ _ _ o => truthy (opt_def "pD" o) = false | _ => True end.
Definition arity_ok (ty : gtype) (idx : list nat) : Prop := arity ty = Some (List.length idx).

Lemma run_pushes_arity c s s' : no_sds_pair c -> run c s = Ok s' ->
  pushes (fun ty idx r => arity_ok ty idx /\ r = R_of ty) s s'.
Proof.
  intros Hc E. destruct c; cbn [run no_sds_pair] in *.
  - eapply tiled_pushes; [| |exact E]; intros; split; reflexivity.
  - eapply fUCC_pushes; [| | | | | | | | | | | | |exact E]; intros t.
    + rewrite iterate_t1_k. intros H. apply iter_k_arity in H. split; [unfold arity_ok; now rewrite H|reflexivity].
    + intros H. apply in_t1_gen in H as (? & ? & -> & _). split; reflexivity.
    + intros H. apply in_t1_sa in H as (? & ? & -> & _). split; reflexivity.
    + intros H. apply in_t1_sa_gen in H as (? & ? & -> & _). split; reflexivity.
    + rewrite iterate_t2_k. intros H. apply iter_k_arity in H. split; [unfold arity_ok; now rewrite H|reflexivity].
    + intros H. apply in_t2_gen in H as (? & ? & ? & ? & -> & _). split; reflexivity.
    + intros H. apply in_pair in H as (? & ? & -> & _). split; reflexivity.
    + intros H. apply in_pair_gen in H as (? & ? & -> & _). split; reflexivity.
    + rewrite iterate_t3_k. intros H. apply iter_k_arity in H. split; [unfold arity_ok; now rewrite H|reflexivity].
    + rewrite iterate_t4_k. intros H. apply iter_k_arity in H. split; [unfold arity_ok; now rewrite H|reflexivity].
    + rewrite iterate_t5_k. intros H. apply iter_k_arity in H. split; [unfold arity_ok; now rewrite H|reflexivity].
    + rewrite iterate_t6_k. intros H. apply iter_k_arity in H. split; [unfold arity_ok; now rewrite H|reflexivity].
    + intros c H. apply t2_sa_arity in H as [H ->]. split; [exact H|reflexivity].
  - eapply SDS_pushes; [| | |exact E]; intros.
    + destruct (i mod 2 =? a mod 2); repeat split; reflexivity.
    + congruence.
    + repeat split; reflexivity.
Qed.

Theorem C25_arity_partial cs : Forall no_sds_pair cs -> let s := history cs in
  (forall k ty idx, nth_error (s_type s) k = Some ty -> nth_error (s_idx s) k = Some idx -> arity ty = Some (List.length idx)) /\
  (forall k r, In (pname k, r) (s_R s) <-> exists ty, nth_error (s_type s) k = Some ty /\ R_of ty = Some r) /\
  NoDup (map fst (s_R s)).
Proof.
  intros Hc s. assert (G : entries_ok arity_ok s).
  { unfold s, history. generalize (entries_empty arity_ok). generalize ups_empty. induction Hc as [|c cs H Hc IH]; intros s0 H0; cbn [fold_left]; [assumption|].
    apply IH. destruct (run c s0) eqn:E; auto. eapply entries_pushes; [exact H0|]. eapply run_pushes_arity; eassumption. }
  destruct G as (_ & G1 & G2 & G3 & _). split; [|auto]. intros k ty idx H1 H2. apply (G1 k). now split.
Qed.

(** The "pD" block of create_SDSfUCC (lines 1042-1043) types a two-index entry as
    "double": the arity claim fails for every non-empty index list, and the
    ansatz raises on such an entry for every non-negligible angle. *)
Lemma push_keeps ty idx r s k ty0 idx0 : entry s k ty0 idx0 -> entry (push ty idx r s) k ty0 idx0.
Proof. intros [H1 H2]. split; cbn [push s_type s_idx]; now apply nth_error_snoc'. Qed.
Lemma fold_pair_keeps f l s k ty0 idx0 : entry s k ty0 idx0 -> entry (fold_left (sds_pair f) l s) k ty0 idx0.
Proof.
  revert s. induction l as [|t l IH]; intros s H; [assumption|]. cbn [fold_left]. apply IH. unfold sds_pair.
  destruct t as [|a [|i [|b [|j [|? ?]]]]]; auto. now repeat apply push_keeps.
Qed.
Theorem C25_sds_pair_arity_refuted i occ a unocc occs unoccs n (nl : nat) :
  exists s, create_SDSfUCC (i :: occ) (a :: unocc) occs unoccs n [("n_layers", Z.of_nat (S nl)); ("pD", 1%Z)]%string ups_empty = Ok s /\
    entry s 0 Double [i; a] /\ arity Double <> Some (List.length [i; a]) /\
    (forall tiny sp th off theta st, tiny theta = false ->
       ups_state tiny sp th off [(Double, [i; a])] [theta] false st = Raise ValueError).
Proof.
  unfold create_SDSfUCC.
  cbn [known forallb existsb fst String.eqb Ascii.eqb Bool.eqb andb orb negb opt_get opt_def Z.eqb Pos.eqb truthy when].
  rewrite Nat2Z.id. eexists. split; [reflexivity|]. split; [|split; [discriminate|]].
  - induction nl as [|nl IH].
    + cbn [Nat.iter Nat.iter nat_rect]. unfold iterate_pair_t2. cbn [flat_map app fold_left]. apply fold_pair_keeps.
      unfold sds_pair. apply push_keeps, push_keeps. split; cbn [push s_type s_idx ups_empty app nth_error]; [reflexivity|].
      do 2 f_equal; [|f_equal]; symmetry; apply Nat.div_unique_exact; lia.
    + cbn [Nat.iter nat_rect] in *. apply fold_pair_keeps. exact IH.
  - intros tiny sp th off theta st Ht. unfold ups_state, construct_ups_state. cbn [combine fold_left fst snd bind]. rewrite Ht. reflexivity.
Qed.

(** Every layout built for disjoint index lists consists of valid gates, so that
    C21-C23 apply to it. *)
Definition call_ok (n : nat) (c : call) : Prop :=
  match c with
  | Tiled m _ => m <= n
  | FUCC occ unocc occs unoccs m _ => lists_ok n occ unocc /\ lists_ok (2 * n) occs unoccs /\ m <= n
  | SDS occ unocc occs unoccs m o => lists_ok n occ unocc /\ lists_ok (2 * n) occs unoccs /\ m <= n /\ truthy (opt_def "pD" o) = false
  end.

Lemma sa_single_ok n off a i : a <> i -> a < n -> i < n -> gate_ok (n + off) off (SaSingle, [i; a]).
Proof. cbn. lia. Qed.
Lemma pair_ok n off a i : a <> i -> a < n -> i < n ->
  gate_ok (n + off) off (Double, [2 * i; 2 * i + 1; 2 * a; 2 * a + 1]).
Proof.
  intros. apply (spin_entry n off Double 2 [2 * i; 2 * i + 1] [2 * a; 2 * a + 1]); auto; cbn [In].
  - lia.
  - lia.
  - apply conserves_iff. intros s Hs. cbn [filter]. replace (2 * a) with (a * 2) by lia. replace (2 * i) with (i * 2) by lia.
    rewrite !(Nat.add_comm (_ * 2)), !Nat.mod_add, !Nat.mod_mul by lia. destruct s as [|[|s]]; [reflexivity|reflexivity|lia].
Qed.
Lemma single_ok n off a i : a <> i -> a < 2 * n -> i < 2 * n -> i mod 2 = a mod 2 -> gate_ok (n + off) off (Single, [i; a]).
Proof.
  intros. apply (spin_entry n off Single 1 [i] [a]); auto; cbn [In].
  - lia.
  - lia.
  - apply conserves_iff. intros s Hs. cbn [filter]. rewrite H2. now destruct (a mod 2 =? s).
Qed.

Lemma sds_spins a b i j : same_spin [a; b] [i; j] ->
  if i mod 2 =? a mod 2 then j mod 2 = b mod 2 else i mod 2 = b mod 2 /\ j mod 2 = a mod 2.
Proof.
  rewrite <- conserves_iff. intros H. 
  pose proof (H 0 ltac:(lia)) as H0. pose proof (H 1 ltac:(lia)) as H1. clear H. cbn [filter] in H0, H1.
  pose proof (Nat.mod_upper_bound a 2). pose proof (Nat.mod_upper_bound b 2). pose proof (Nat.mod_upper_bound i 2). pose proof (Nat.mod_upper_bound j 2).
  destruct (a mod 2) as [|[|?]]; [| |lia]; destruct (b mod 2) as [|[|?]]; try lia;
    destruct (i mod 2) as [|[|?]]; try lia; destruct (j mod 2) as [|[|?]]; try lia; cbn in *; lia.
Qed.

Lemma run_pushes_gate n off c s s' : call_ok n c -> run c s = Ok s' ->
  pushes (fun ty idx r => gate_ok (n + off) off (ty, idx) /\ r = R_of ty) s s'.
Proof.
  intros Hc E. destruct c as [m o|occ unocc occs unoccs m o|occ unocc occs unoccs m o]; cbn [run call_ok] in *.
  - eapply tiled_pushes; [| |exact E]; intros p Hp; (split; [|reflexivity]).
    + apply sa_single_ok; lia.
    + replace (2 * p + 2) with (2 * (p + 1)) by lia. replace (2 * p + 3) with (2 * (p + 1) + 1) by lia. apply pair_ok; lia.
  - destruct Hc as (L & Ls & Hm). pose proof L as (_ & _ & Ld & Lb).
    eapply fUCC_pushes; [| | | | | | | | | | | | |exact E]; intros t.
    + rewrite iterate_t1_k. intros H. split; [|reflexivity]. eapply iter_k_gate; [|eassumption|eassumption]; reflexivity.
    + intros H. apply in_t1_gen in H as (a & i & -> & Hr & Hs). split; [|reflexivity].
      apply (spin_entry n off Single 1 [i] [a]); auto; cbn [In]; lia.
    + intros H. apply in_t1_sa in H as (a & i & -> & Ha & Hi). split; [|reflexivity]. apply sa_single_ok; auto. intros ->. now apply (Ld i).
    + intros H. apply in_t1_sa_gen in H as (a & i & -> & Hr). split; [|reflexivity]. apply sa_single_ok; lia.
    + rewrite iterate_t2_k. intros H. split; [|reflexivity]. eapply iter_k_gate; [|eassumption|eassumption]; reflexivity.
    + intros H. apply in_t2_gen in H as (a & i & b & j & -> & H1 & H2 & Hs). split; [|reflexivity].
      apply (spin_entry n off Double 2 [i; j] [a; b]); auto; cbn [In]; lia.
    + intros H. apply in_pair in H as (a & i & -> & Ha & Hi). split; [|reflexivity]. apply pair_ok; auto. intros ->. now apply (Ld i).
    + intros H. apply in_pair_gen in H as (a & i & -> & Hr). split; [|reflexivity]. apply pair_ok; lia.
    + rewrite iterate_t3_k. intros H. split; [|reflexivity]. eapply iter_k_gate; [|eassumption|eassumption]; reflexivity.
    + rewrite iterate_t4_k. intros H. split; [|reflexivity]. eapply iter_k_gate; [|eassumption|eassumption]; reflexivity.
    + rewrite iterate_t5_k. intros H. split; [|reflexivity]. eapply iter_k_gate; [|eassumption|eassumption]; reflexivity.
    + rewrite iterate_t6_k. intros H. split; [|reflexivity]. eapply iter_k_gate; [|eassumption|eassumption]; reflexivity.
    + intros c H. pose proof (t2_sa_arity _ _ _ _ H) as [_ ->]. split; [|reflexivity].
      rewrite iterate_t2_sa_list in H. apply in_sa_list in H as (i & j & a & b & -> & H1 & H2 & Hk).
      apply rpairs_in in H1 as [Hi Hj], H2 as [Ha Hb]. cbn [occ_first odds evens app].
      assert (i <> a) by (intros ->; now apply (Ld a)). assert (i <> b) by (intros ->; now apply (Ld b)).
      assert (j <> a) by (intros ->; now apply (Ld a)). assert (j <> b) by (intros ->; now apply (Ld b)).
      assert (i < n) by auto. assert (j < n) by auto. assert (a < n) by auto. assert (b < n) by auto.
      destruct Hk as [(-> & -> & ->)|[(-> & -> & Hk)|[(-> & Hk & ->)|([-> | ->] & Hk & Hk')]]]; cbn [sa_double_type gate_ok];
        repeat match goal with |- _ /\ _ => split | |- NoDup _ => constructor | |- ~ In _ _ => cbn [In]; lia | |- _ => lia end.
  - destruct Hc as (L & Ls & Hm & Hp). pose proof Ls as (_ & _ & Ld & Lb).
    eapply SDS_pushes; [| | |exact E].
    + intros a i b j H. pose proof H as H'. rewrite iterate_t2_k in H'.
      pose proof (iter_k_gate n off Double 2 occs unoccs _ eq_refl Ls H') as G.
      apply in_iter_k in H' as (v & o' & Ev & Sv & So & Lv & Lo & Hs).
      destruct v as [|a0 [|b0 [|? ?]]]; try discriminate. destruct o' as [|i0 [|j0 [|? ?]]]; try discriminate.
      cbn in Ev. inversion Ev; subst a0 b0 i0 j0. apply sds_spins in Hs.
      pose proof (sublist_in _ _ Sv) as Iv. pose proof (sublist_in _ _ So) as Io.
      assert (Hin : forall x y, In x [i; j] -> In y [a; b] -> y <> x /\ y < 2 * n /\ x < 2 * n).
      { intros x y Hx Hy. split; [intros ->; apply (Ld x); auto|]. auto. }
      destruct (Hin i a), (Hin i b), (Hin j a), (Hin j b); cbn [In]; auto.
      destruct (Nat.eqb_spec (i mod 2) (a mod 2)); (split; [|split; [split; [exact G|reflexivity]|]]); split; try reflexivity; apply single_ok; tauto.
    + congruence.
    + intros a i b j H. apply in_pair_gen in H as (a0 & i0 & Et & Hr).
      assert (a = 2 * a0 /\ i = 2 * i0 /\ b = 2 * a0 + 1 /\ j = 2 * i0 + 1) as (-> & -> & -> & ->) by (inversion Et; lia).
      replace (2 * i0 / 2) with i0 by (symmetry; apply half_double). replace (2 * a0 / 2) with a0 by (symmetry; apply half_double).
      split; [split; [apply sa_single_ok; lia|reflexivity]|]. split; [apply pair_ok; lia|reflexivity].
Qed.

Theorem C25_layouts_are_valid n off cs : Forall (call_ok n) cs ->
  Forall (gate_ok (n + off) off) (combine (s_type (history cs)) (s_idx (history cs))).
Proof.
  intros Hc. assert (G : entries_ok (fun ty idx => gate_ok (n + off) off (ty, idx)) (history cs)).
  { unfold history. generalize (entries_empty (fun ty idx => gate_ok (n + off) off (ty, idx))). generalize ups_empty.
    induction Hc as [|c cs H Hc IH]; intros s0 H0; cbn [fold_left]; [assumption|].
    apply IH. destruct (run c s0) eqn:E; auto. eapply entries_pushes; [exact H0|]. eapply run_pushes_gate; eassumption. }
  destruct G as ((C1 & C2 & _) & G & _). apply Forall_forall. intros [ty idx] Hi.
  apply In_nth_error in Hi as (k & Hk). apply (G k).
  revert Hk. unfold entry. generalize (s_type (history cs)) (s_idx (history cs)). clear. intros l. revert k.
  induction l as [|x l IH]; intros k [|y m] Hk; cbn [combine] in Hk; try (destruct k; discriminate).
  destruct k; [injection Hk as -> ->; split; reflexivity|]. apply IH in Hk. destruct Hk. split; assumption.
Qed.

(** Consequence: for any such history and any angles the product ansatz runs, and
    its dagger restores the state. *)
Theorem C25_layouts_invertible tiny sp th off n cs thetas st :
  sector tiny sp th -> sp_na sp = n + off -> Forall (call_ok n) cs ->
  let s := history cs in List.length thetas = s_n s -> List.length st = dim (sp_ci sp) ->
  exists out, ups_state tiny sp th off (combine (s_type s) (s_idx s)) thetas false st = Ok out /\
    ups_state tiny sp th off (combine (s_type s) (s_idx s)) thetas true out = Ok st.
Proof.
  intros HS En Hc s Ht Hl. pose proof (C25_layouts_are_valid n off cs Hc) as G. rewrite <- En in G.
  destruct (C25_counts_and_names cs) as (C1 & C2 & _).
  destruct (C23_dagger_is_inverse tiny sp th off _ thetas st HS G) with (dagger := false) as (out & E & _ & E'); auto.
  - pose proof (combine_length (s_type (history cs)) (s_idx (history cs))) as Hcl. unfold exc, s in *.
    rewrite C1, C2, Nat.min_id in Hcl. congruence.
  - exists out. auto.
Qed.

(** UccStructure. *)
Inductive ucc_call := SaS | SaD | Trip | Quad | Quint | Sext.
Definition ucc_run (occ unocc : list nat) (c : ucc_call) : ucc_struct -> ucc_struct :=
  match c with
  | SaS => add_sa_singles occ unocc | SaD => add_sa_doubles occ unocc | Trip => add_triples occ unocc
  | Quad => add_quadruples occ unocc | Quint => add_quintuples occ unocc | Sext => add_sextuples occ unocc
  end.
Definition ucc_inv (s : ucc_struct) : Prop :=
  List.length (u_idx s) = u_n s /\ List.length (u_type s) = u_n s /\
  forall k ty idx, nth_error (u_type s) k = Some ty -> nth_error (u_idx s) k = Some idx -> arity ty = Some (List.length idx).
Lemma ucc_inv_push ty idx s : arity ty = Some (List.length idx) -> ucc_inv s -> ucc_inv (u_push ty idx s).
Proof.
  intros Ha (H1 & H2 & H3). unfold ucc_inv. cbn [u_push u_idx u_type u_n]. rewrite !app_length. cbn [List.length].
  split; [lia|]. split; [lia|]. intros k ty' idx' E1 E2.
  apply nth_error_snoc in E1 as [E1|[K1 <-]], E2 as [E2|[K2 <-]]; eauto.
  - exfalso. assert (k < List.length (u_type s)) by (apply nth_error_Some; congruence). lia.
  - exfalso. assert (k < List.length (u_idx s)) by (apply nth_error_Some; congruence). lia.
Qed.
Theorem C25_ucc_structure (cs : list (ucc_call * (list nat * list nat))) :
  ucc_inv (fold_left (fun s c => ucc_run (fst (snd c)) (snd (snd c)) (fst c) s) cs ucc_empty).
Proof.
  assert (H0 : ucc_inv ucc_empty) by (split; [reflexivity|]; split; [reflexivity|]; intros [|k]; discriminate).
  revert H0. generalize ucc_empty. induction cs as [|[c [occ unocc]] cs IH]; intros s H; cbn [fold_left fst snd]; [assumption|].
  apply IH.
  assert (A : forall ty ts s, (forall t, In t ts -> arity ty = Some (List.length (occ_first t))) -> ucc_inv s -> ucc_inv (u_add ty ts s)).
  { intros ty ts. unfold u_add. induction ts as [|t ts IHt]; intros s0 Ht Hs; cbn [fold_left]; [assumption|].
    apply IHt; [intros; apply Ht; now right|]. apply ucc_inv_push; auto. apply Ht. now left. }
  destruct c; cbn [ucc_run].
  - apply A; auto. intros t Ht. apply in_t1_sa in Ht as (? & ? & -> & _). reflexivity.
  - unfold add_sa_doubles. pose proof (t2_sa_arity occ unocc) as B. revert s H. induction (iterate_t2_sa occ unocc) as [|[t c] ts IHt]; intros s0 Hs; cbn [fold_left]; [assumption|].
    apply IHt; [intros; apply B; now right|]. apply ucc_inv_push; auto. cbn [fst snd]. apply B. now left.
  - apply A; auto. intros t Ht. rewrite iterate_t3_k in Ht. apply iter_k_arity in Ht. now rewrite Ht.
  - apply A; auto. intros t Ht. rewrite iterate_t4_k in Ht. apply iter_k_arity in Ht. now rewrite Ht.
  - apply A; auto. intros t Ht. rewrite iterate_t5_k in Ht. apply iter_k_arity in Ht. now rewrite Ht.
  - apply A; auto. intros t Ht. rewrite iterate_t6_k in Ht. apply iter_k_arity in Ht. now rewrite Ht.
Qed.

(** Number of parameters of the tiled layouts: over [n] orbitals one layer has
    [n - 1] blocks of three gates (tUPS) or two (QNP); "skip_last_singles" drops
    the closing single of the last column of the last layer. *)
Lemma range2_length m st : st <= 1 -> List.length (range2 st m) = if st =? 0 then (m + 1) / 2 else m / 2.
Proof.
  intros Hst. unfold range2.
  assert (G : forall f st, m <= 2 * f + st -> List.length (range2_loop f st m) = (m - st + 1) / 2).
  { induction f as [|f IH]; intros st0 H; cbn [range2_loop].
    - replace (m - st0) with 0 by lia. reflexivity.
    - destruct (Nat.ltb_spec st0 m); [|replace (m - st0) with 0 by lia; reflexivity].
      cbn [List.length]. rewrite IH by lia. replace (m - st0 + 1) with (m - (st0 + 2) + 1 + 1 * 2 - (m - (st0 + 2) + 1 + 2 - (m - st0 + 1))) by lia.
      destruct (Nat.eq_dec m (st0 + 1)) as [->|Hne].
      + replace (st0 + 1 - (st0 + 2)) with 0 by lia. replace (0 + 1 + 1 * 2 - (0 + 1 + 2 - (st0 + 1 - st0 + 1))) with 2 by lia. reflexivity.
      + replace (m - (st0 + 2) + 1 + 1 * 2 - (m - (st0 + 2) + 1 + 2 - (m - st0 + 1))) with (m - (st0 + 2) + 1 + 1 * 2) by lia.
        rewrite Nat.div_add by lia. lia. }
  rewrite G by lia. destruct st as [|[|?]]; [|destruct m as [|m]|lia]; cbn [Nat.eqb].
  - now rewrite Nat.sub_0_r.
  - reflexivity.
  - f_equal. lia.
Qed.
Lemma brick_fold_n t q sk l s : s_n (fold_left (brick t q sk) l s) =
  s_n s + List.length l * ((if t then 1 else 0) + 1 + (if sk then 0 else if t || q then 1 else 0)).
Proof.
  revert s. induction l as [|p l IH]; intros s; cbn [fold_left List.length]; [lia|]. rewrite IH.
  unfold brick. destruct t, sk, q; cbn [orb push s_n]; lia.
Qed.
Lemma halves m : (m + 1) / 2 + m / 2 = m.
Proof.
  pose proof (Nat.div_mod m 2 ltac:(lia)) as H. pose proof (Nat.mod_upper_bound m 2 ltac:(lia)) as Hb.
  set (q := m / 2) in *. destruct (m mod 2) as [|[|?]]; [| |lia].
  - replace ((m + 1) / 2) with q; [lia|]. apply Nat.div_unique with 1; lia.
  - replace ((m + 1) / 2) with (q + 1); [lia|]. apply Nat.div_unique with 0; lia.
Qed.
Theorem C25_tiled_parameter_count n layers (tups skip : bool) s s' :
  create_tiled n [("n_layers", Z.of_nat layers); (if tups then "do_tups" else "do_qnp", 1%Z); ("skip_last_singles", if skip then 1%Z else 0%Z)]%string s = Ok s' ->
  s_n s' + (if skip && (0 <? layers) then (if n =? 2 then 1 else (n - 1) / 2) else 0)
  = s_n s + layers * ((n - 1) * (if tups then 3 else 2)).
Proof.
  intros E.
  assert (E' : s' = fold_left (fun s k =>
     let last := (Z.of_nat k + 1 =? Z.of_nat layers)%Z && skip in
     fold_left (brick tups (negb tups) last) (range2 1 (n - 1))
       (fold_left (brick tups (negb tups) (last && (n =? 2))) (range2 0 (n - 1)) s)) (seq 0 layers) s).
  { destruct tups, skip; unfold create_tiled in E;
      cbn [known forallb existsb fst String.eqb Ascii.eqb Bool.eqb andb orb negb opt_get opt_def Z.eqb Pos.eqb truthy Z.add Pos.add Z.ltb Z.compare Pos.compare Pos.compare_cont] in E;
      rewrite Nat2Z.id in E; match type of E with Ok ?x = Ok _ => assert (s' = x) as -> by congruence end; reflexivity. }
  subst s'. clear E.
  assert (Col : forall b1 b2 s0, s_n (fold_left (brick tups (negb tups) b2) (range2 1 (n - 1))
       (fold_left (brick tups (negb tups) b1) (range2 0 (n - 1)) s0)) + (if b1 then n / 2 else 0) + (if b2 then (n - 1) / 2 else 0)
       = s_n s0 + (n - 1) * (if tups then 3 else 2)).
  { intros b1 b2 s0. rewrite !brick_fold_n, !range2_length by lia. cbn [Nat.eqb].
    pose proof (halves (n - 1)) as Hh. assert (Hn : (n - 1 + 1) / 2 = n / 2) by (destruct n; [reflexivity|f_equal; lia]).
    rewrite Hn in *. set (x := n / 2) in *. set (y := (n - 1) / 2) in *. clearbody x y. replace (n - 1) with (x + y) by lia.
    destruct tups, b1, b2; cbn [negb orb]; lia. }
  destruct layers as [|l]; [cbn; rewrite andb_false_r; lia|].
  rewrite seq_S, fold_left_app. cbn [fold_left]. rewrite Nat.add_0_l.
  replace (Z.of_nat l + 1 =? Z.of_nat (S l))%Z with true by (symmetry; apply Z.eqb_eq; lia).
  replace (0 <? S l) with true by reflexivity. rewrite andb_true_r, andb_true_l.
  match goal with |- context [fold_left _ (range2 0 (n - 1)) ?s0] => set (s1 := s0) end.
  assert (H1 : s_n s1 = s_n s + l * ((n - 1) * (if tups then 3 else 2))).
  { unfold s1.
    assert (G : forall m s0, m <= l -> s_n (fold_left (fun s k =>
     let last := (Z.of_nat k + 1 =? Z.of_nat (S l))%Z && skip in
     fold_left (brick tups (negb tups) last) (range2 1 (n - 1))
       (fold_left (brick tups (negb tups) (last && (n =? 2))) (range2 0 (n - 1)) s)) (seq 0 m) s0)
       = s_n s0 + m * ((n - 1) * (if tups then 3 else 2))).
    { induction m as [|m IHm]; intros s0 Hm; [cbn; lia|]. rewrite seq_S, fold_left_app. cbn [fold_left]. rewrite Nat.add_0_l.
      replace (Z.of_nat m + 1 =? Z.of_nat (S l))%Z with false by (symmetry; apply Z.eqb_neq; lia).
      cbn [andb]. pose proof (Col false false (fold_left (fun s k =>
     let last := (Z.of_nat k + 1 =? Z.of_nat (S l))%Z && skip in
     fold_left (brick tups (negb tups) last) (range2 1 (n - 1))
       (fold_left (brick tups (negb tups) (last && (n =? 2))) (range2 0 (n - 1)) s)) (seq 0 m) s0)) as Hc.
      rewrite IHm in Hc by lia. rewrite Nat.mul_succ_l. cbv zeta in Hc |- *. rewrite !Nat.add_0_r in Hc. rewrite Hc. lia. }
    now apply G. }
  pose proof (Col (skip && (n =? 2)) skip s1) as Hc. rewrite H1 in Hc. clearbody s1.
  rewrite Nat.mul_succ_l. set (X := (n - 1) * (if tups then 3 else 2)) in *.
  destruct skip; cbn [andb] in *; [|lia].
  destruct (Nat.eqb_spec n 2) as [->|Hne]; [|cbn [andb Nat.eqb] in *; lia]. cbn [Nat.eqb] in *. change (2 / 2) with 1 in Hc. change ((2 - 1) / 2) with 0 in Hc. lia.
Qed.

Definition ex_calls : list call :=
  [Tiled 4 [("n_layers", 2%Z); ("do_tups", 1%Z)];
   FUCC [0; 1] [2; 3] [0; 1; 2; 3] [4; 5; 6; 7] 4 [("n_layers", 1%Z); ("SAS", 1%Z); ("D", 1%Z); ("GD", 1%Z); ("SAD", 1%Z)];
   SDS [0; 1] [2; 3] [0; 1; 2; 3] [4; 5; 6; 7] 4 [("n_layers", 1%Z); ("D", 1%Z); ("GpD", 1%Z)];
   Tiled 4 [("n_layers", 1%Z)]]%string.
Example C25_example : Forall (call_ok 4) ex_calls /\ s_n (history ex_calls) = 182 /\ 
  nth_error (s_names (history ex_calls)) 120 = Some [0; 0; 0; 0; 0; 0; 1; 2; 0] /\
  nth_error (s_type (history ex_calls)) 30 = Some Double.
Proof.
  split; [|vm_compute; auto].
  assert (L : lists_ok 4 [0; 1] [2; 3]).
  { split; [|split; [|split]]; [repeat constructor; cbn [In]; lia|repeat constructor; cbn [In]; lia|cbn [In]; lia|cbn [In]; lia]. }
  assert (L' : lists_ok (2 * 4) [0; 1; 2; 3] [4; 5; 6; 7]).
  { split; [|split; [|split]]; [repeat constructor; cbn [In]; lia|repeat constructor; cbn [In]; lia|cbn [In]; lia|cbn [In]; lia]. }
  constructor; [cbn; lia|]. constructor; [cbn [call_ok]; auto|]. constructor; [cbn [call_ok]; auto|].
  constructor; [cbn; lia|constructor].
Qed.

Print Assumptions C24_spin_orbital_iterators.
Print Assumptions C24_spin_adapted_iterators.
Print Assumptions C24_pair_iterators.
Print Assumptions C24_generalized_iterators.
Print Assumptions C24_generalized_doubles_refuted.
Print Assumptions C25_counts_and_names.
Print Assumptions C25_arity_partial.
Print Assumptions C25_sds_pair_arity_refuted.
Print Assumptions C25_layouts_are_valid.
Print Assumptions C25_layouts_invertible.
Print Assumptions C25_ucc_structure.
Print Assumptions C25_tiled_parameter_count.
