(** Proofs about the ansatz structures: every builder is a sequence of
    well-formed [push]es. *)
From Coq Require Import List Bool Arith ZArith Lia Permutation String.
From Verif Require Import Base UPSModel StructModel StructProofs UPSSingle.
Import ListNotations.
Local Open Scope nat_scope.

(** ** Parameter names *)
Definition dval (l : list nat) : nat := fold_left (fun acc d => 10 * acc + d) l 0.
Lemma dval_app l d : dval (l ++ [d]) = 10 * dval l + d.
Proof. unfold dval. now rewrite fold_left_app. Qed.
Lemma digits_loop_val fuel n : n < fuel -> dval (digits_loop fuel n) = n.
Proof.
  revert n. induction fuel as [|f IH]; intros n H; [lia|]. cbn [digits_loop].
  destruct (Nat.ltb_spec n 10); [reflexivity|]. rewrite dval_app, IH.
  - pose proof (Nat.div_mod n 10). lia.
  - assert (n / 10 < n) by (apply Nat.div_lt; lia). lia.
Qed.
Lemma dval_pad k l : dval (repeat 0 k ++ l) = dval l.
Proof. unfold dval. rewrite fold_left_app. induction k; [reflexivity|]. exact IHk. Qed.
Lemma pname_val n : dval (pname n) = n.
Proof. unfold pname. rewrite dval_pad. apply digits_loop_val. lia. Qed.
Lemma pname_inj m n : pname m = pname n -> m = n.
Proof. intros E. rewrite <- (pname_val m), <- (pname_val n). congruence. Qed.
Lemma digits_loop_small fuel n d : In d (digits_loop fuel n) -> d < 10.
Proof.
  revert n. induction fuel as [|f IH]; intros n; cbn [digits_loop]; [intros []|].
  destruct (Nat.ltb_spec n 10); [intros [<-|[]]; lia|]. rewrite in_app_iff. intros [Hd|[<-|[]]]; [eauto|].
  apply Nat.mod_upper_bound. lia.
Qed.
Lemma pname_digits n : Forall (fun d => d < 10) (pname n) /\ 9 <= List.length (pname n).
Proof.
  split.
  - apply Forall_forall. intros d. unfold pname. rewrite in_app_iff. intros [H|H]; [apply repeat_spec in H; lia|].
    eapply digits_loop_small, H.
  - unfold pname. rewrite app_length, repeat_length. lia.
Qed.

(** ** Sequences of pushes *)
Section Pushes.
  Variable Q : gtype -> list nat -> option nat -> Prop.
  Inductive pushes : ups_struct -> ups_struct -> Prop :=
  | pu_refl s : pushes s s
  | pu_step s s' ty idx r : pushes s s' -> Q ty idx r -> pushes s (push ty idx r s').

  Lemma pu_trans s1 s2 s3 : pushes s1 s2 -> pushes s2 s3 -> pushes s1 s3.
  Proof. intros H1 H2. induction H2; [assumption|]. constructor; auto. Qed.
  Lemma pu_one s ty idx r : Q ty idx r -> pushes s (push ty idx r s).
  Proof. intros. constructor; [constructor|assumption]. Qed.
  Lemma pu_fold {X} (f : ups_struct -> X -> ups_struct) l : (forall s x, In x l -> pushes s (f s x)) ->
    forall s, pushes s (fold_left f l s).
  Proof.
    induction l as [|x l IH]; intros H s; cbn [fold_left]; [constructor|].
    eapply pu_trans; [apply H; now left|]. apply IH. intros; apply H; now right.
  Qed.
  Lemma pu_iter n f : (forall s, pushes s (f s)) -> forall s, pushes s (Nat.iter n f s).
  Proof. intros H s. induction n; cbn; [constructor|]. eapply pu_trans; [exact IHn|apply H]. Qed.
  Lemma pu_when b f s0 s : pushes s0 s -> (b = true -> forall s, pushes s (f s)) -> pushes s0 (when b f s).
  Proof. intros H1 H2. destruct b; cbn; [|assumption]. eapply pu_trans; [exact H1|now apply H2]. Qed.

  Lemma pu_all ty r ts : (forall t, In t ts -> Q ty (occ_first t) r) -> forall s, pushes s (push_all ty r ts s).
  Proof. intros H. apply pu_fold. intros s t Ht. apply pu_one. auto. Qed.
  Lemma pu_sad ts : (forall t c, In (t, c) ts -> Q (sa_double_type c) (occ_first t) None) -> forall s, pushes s (push_sad ts s).
  Proof. intros H. apply pu_fold. intros s [t c] Ht. apply pu_one. auto. Qed.

  (** *** Tiled *)
  Lemma range2_in stop start x : In x (range2 start stop) -> start <= x < stop.
  Proof.
    unfold range2. assert (G : forall fuel st, In x (range2_loop fuel st stop) -> st <= x < stop).
    { induction fuel as [|f IH]; intros st; cbn [range2_loop]; [intros []|].
      destruct (Nat.ltb_spec st stop); [|intros []]. intros [<-|Hx]; [lia|]. apply IH in Hx. lia. }
    apply G.
  Qed.
  Lemma tiled_pushes n o s s' :
    (forall p, p + 1 < n -> Q SaSingle [p; p + 1] (Some 4)) ->
    (forall p, p + 1 < n -> Q Double [2 * p; 2 * p + 1; 2 * p + 2; 2 * p + 3] (Some 2)) ->
    create_tiled n o s = Ok s' -> pushes s s'.
  Proof.
    intros H1 H2. unfold create_tiled. destruct (negb _); [discriminate|].
    destruct (opt_get "n_layers" o) as [nl|]; [|discriminate].
    destruct (Z.eqb _ 0); [discriminate|]. destruct (Z.ltb _ _); [discriminate|].
    intros E. assert (B : forall dt dq sk p s, p + 1 < n -> pushes s (brick dt dq sk s p)).
    { intros dt dq sk p s0 Hp. unfold brick.
      assert (A : pushes s0 (if dt then push SaSingle [p; p + 1] (Some 4) s0 else s0)) by (destruct dt; [apply pu_one; auto|constructor]).
      assert (D : pushes s0 (push Double [2 * p; 2 * p + 1; 2 * p + 2; 2 * p + 3] (Some 2) (if dt then push SaSingle [p; p + 1] (Some 4) s0 else s0)))
        by (constructor; auto).
      destruct sk; [assumption|]. destruct (dt || dq); [|assumption]. constructor; auto. }
    match type of E with Ok ?x = Ok _ => assert (s' = x) as -> by congruence end.
    apply pu_fold. intros s0 k _.
    match goal with |- pushes _ (fold_left _ _ ?s1) => apply (pu_trans s0 s1) end; apply pu_fold; intros s1 p Hp; apply B; apply range2_in in Hp; lia.
  Qed.

  (** *** fUCC *)
  Lemma fUCC_pushes occ unocc occs unoccs n o s s' :
    (forall t, In t (iterate_t1 occs unoccs) -> Q Single (occ_first t) (Some 2)) ->
    (forall t, In t (iterate_t1_generalized (2 * n)) -> Q Single (occ_first t) (Some 2)) ->
    (forall t, In t (iterate_t1_sa occ unocc) -> Q SaSingle (occ_first t) (Some 4)) ->
    (forall t, In t (iterate_t1_sa_generalized n) -> Q SaSingle (occ_first t) (Some 4)) ->
    (forall t, In t (iterate_t2 occs unoccs) -> Q Double (occ_first t) (Some 2)) ->
    (forall t, In t (iterate_t2_generalized (2 * n)) -> Q Double (occ_first t) (Some 2)) ->
    (forall t, In t (iterate_pair_t2 occ unocc) -> Q Double (occ_first t) (Some 2)) ->
    (forall t, In t (iterate_pair_t2_generalized n) -> Q Double (occ_first t) (Some 2)) ->
    (forall t, In t (iterate_t3 occs unoccs) -> Q Triple (occ_first t) (Some 2)) ->
    (forall t, In t (iterate_t4 occs unoccs) -> Q Quadruple (occ_first t) (Some 2)) ->
    (forall t, In t (iterate_t5 occs unoccs) -> Q Quintuple (occ_first t) (Some 2)) ->
    (forall t, In t (iterate_t6 occs unoccs) -> Q Sextuple (occ_first t) (Some 2)) ->
    (forall t c, In (t, c) (iterate_t2_sa occ unocc) -> Q (sa_double_type c) (occ_first t) None) ->
    create_fUCC occ unocc occs unoccs n o s = Ok s' -> pushes s s'.
  Proof.
    intros H1 H2 H3 H4 H5 H6 H7 H8 H9 H10 H11 H12 H13. unfold create_fUCC. destruct (negb _); [discriminate|].
    destruct (opt_get "n_layers" o) as [nl|]; [|discriminate].
    destruct (negb _); [discriminate|]. intros E.
    match type of E with Ok ?x = Ok _ => assert (s' = x) as -> by congruence end.
    apply pu_iter. intros s0.
    repeat (apply pu_when; [|intros _; try (apply pu_sad; assumption); apply pu_all; assumption]). constructor.
  Qed.

  (** *** SDS *)
  Lemma SDS_pushes occ unocc occs unoccs n o s s' :
    (forall a i b j, In [a; i; b; j] (iterate_t2 occs unoccs) ->
       Q Single (if i mod 2 =? a mod 2 then [i; a] else [i; b]) (Some 2) /\ Q Double [i; j; a; b] (Some 2) /\
       Q Single (if i mod 2 =? a mod 2 then [j; b] else [j; a]) (Some 2)) ->
    (truthy (opt_def "pD" o) = true -> forall a i b j, In [a; i; b; j] (iterate_pair_t2 occ unocc) ->
       Q Double [i / 2; a / 2] (Some 4) /\ Q Double [i; j; a; b] (Some 2) /\ Q SaSingle [i / 2; a / 2] (Some 4)) ->
    (forall a i b j, In [a; i; b; j] (iterate_pair_t2_generalized n) ->
       Q SaSingle [i / 2; a / 2] (Some 4) /\ Q Double [i; j; a; b] (Some 2)) ->
    create_SDSfUCC occ unocc occs unoccs n o s = Ok s' -> pushes s s'.
  Proof.
    intros H1 H2 H3. unfold create_SDSfUCC. destruct (negb _); [discriminate|].
    destruct (opt_get "n_layers" o) as [nl|]; [|discriminate].
    destruct (negb _); [discriminate|]. intros E.
    match type of E with Ok ?x = Ok _ => assert (s' = x) as -> by congruence end.
    apply pu_iter. intros s0.
    apply pu_when; [apply pu_when; [apply pu_when; [constructor|]|]|].
    - intros _ s1. apply pu_fold. intros s2 t Ht. unfold sds_D.
      destruct t as [|a [|i [|b [|j [|? ?]]]]]; try constructor; try constructor; try constructor; try constructor; destruct (H1 _ _ _ _ Ht) as (A & B & D); assumption.
    - intros Hp s1. apply pu_fold. intros s2 t Ht. unfold sds_pair.
      destruct t as [|a [|i [|b [|j [|? ?]]]]]; try constructor; try constructor; try constructor; try constructor; destruct (H2 Hp _ _ _ _ Ht) as (A & B & D); assumption.
    - intros _ s1. apply pu_fold. intros s2 t Ht. unfold sds_pair.
      destruct t as [|a [|i [|b [|j [|? ?]]]]]; try constructor; try constructor; try constructor; try constructor; destruct (H3 _ _ _ _ Ht) as (A & B); assumption.
  Qed.
End Pushes.

Lemma pushes_weaken (Q Q' : gtype -> list nat -> option nat -> Prop) s s' :
  (forall ty idx r, Q ty idx r -> Q' ty idx r) -> pushes Q s s' -> pushes Q' s s'.
Proof. intros H. induction 1; constructor; auto. Qed.

(** ** Invariants kept by pushes *)
Definition counts (s : ups_struct) : Prop :=
  List.length (s_idx s) = s_n s /\ List.length (s_type s) = s_n s /\ s_names s = map pname (seq 0 (s_n s)).
Lemma counts_push ty idx r s : counts s -> counts (push ty idx r s).
Proof.
  intros (H1 & H2 & H3). unfold counts. cbn [push s_idx s_type s_n s_names]. rewrite !app_length. cbn [List.length].
  split; [lia|]. split; [lia|]. rewrite (Nat.add_1_r (s_n s)), seq_S, map_app, H3. reflexivity.
Qed.
Lemma counts_pushes Q s s' : counts s -> pushes Q s s' -> counts s'.
Proof. intros H. induction 1; auto using counts_push. Qed.
Lemma counts_empty : counts ups_empty.
Proof. repeat split. Qed.

(** Entry [k] of a structure. *)
Definition entry (s : ups_struct) (k : nat) (ty : gtype) (idx : list nat) : Prop :=
  nth_error (s_type s) k = Some ty /\ nth_error (s_idx s) k = Some idx.

Definition R_of (ty : gtype) : option nat :=
  match ty with
  | Single | Double | Triple | Quadruple | Quintuple | Sextuple => Some 2
  | SaSingle => Some 4
  | _ => None
  end.

Definition entries_ok (P : gtype -> list nat -> Prop) (s : ups_struct) : Prop :=
  counts s /\ (forall k ty idx, entry s k ty idx -> P ty idx) /\
  (forall k r, In (pname k, r) (s_R s) <-> exists ty, nth_error (s_type s) k = Some ty /\ R_of ty = Some r) /\
  NoDup (map fst (s_R s)) /\ incl (map fst (s_R s)) (s_names s).

Lemma nth_error_snoc {A} (l : list A) x k y : nth_error (l ++ [x]) k = Some y ->
  nth_error l k = Some y \/ (k = List.length l /\ x = y).
Proof.
  intros H. destruct (Nat.lt_ge_cases k (List.length l)) as [Hk|Hk].
  - left. now rewrite nth_error_app1 in H.
  - right. rewrite nth_error_app2 in H by lia. destruct (k - List.length l) as [|m] eqn:E; cbn in H; [split; [lia|congruence]|].
    destruct m; discriminate.
Qed.
Lemma nth_error_snoc' {A} (l : list A) x k y : nth_error l k = Some y -> nth_error (l ++ [x]) k = Some y.
Proof. intros H. rewrite nth_error_app1; [assumption|]. apply nth_error_Some. congruence. Qed.
Lemma nth_error_snoc_len {A} (l : list A) x : nth_error (l ++ [x]) (List.length l) = Some x.
Proof. rewrite nth_error_app2, Nat.sub_diag by lia. reflexivity. Qed.

Lemma entries_push (P : gtype -> list nat -> Prop) ty idx s : P ty idx -> entries_ok P s -> entries_ok P (push ty idx (R_of ty) s).
Proof.
  intros HP (C & E & HR & HN & HI). destruct C as (C1 & C2 & C3).
  split; [apply counts_push; repeat split; assumption|].
  assert (Fresh : forall k r, In (pname k, r) (s_R s) -> k < s_n s).
  { intros k r H. apply HR in H as (ty' & H & _). rewrite <- C2. apply nth_error_Some. congruence. }
  assert (FR : ~ In (pname (s_n s)) (map fst (s_R s))).
  { intros H. apply HI in H. rewrite C3 in H. apply in_map_iff in H as (k & Ek & Hk). apply pname_inj in Ek. apply in_seq in Hk. lia. }
  cbn [push s_idx s_type s_n s_R s_names]. split; [|split; [|split]].
  - intros k ty' idx' [H1 H2]. cbn [push s_idx s_type] in H1, H2. apply nth_error_snoc in H1 as [H1|[K1 <-]], H2 as [H2|[K2 <-]]; auto.
    + apply (E k). now split.
    + exfalso. assert (k < List.length (s_type s)) by (apply nth_error_Some; congruence). lia.
    + exfalso. assert (k < List.length (s_idx s)) by (apply nth_error_Some; congruence). lia.
  - intros k r. rewrite in_app_iff, HR. split.
    + intros [(ty' & H1 & H2)|H].
      * exists ty'. split; [now apply nth_error_snoc'|assumption].
      * destruct (R_of ty) as [r'|] eqn:Er; [|destruct H]. destruct H as [H|[]]. inversion H as [[H1 H2]]. apply pname_inj in H1.
        exists ty. split; [|congruence]. subst k. rewrite <- C2. apply nth_error_snoc_len.
    + intros (ty' & H1 & H2). apply nth_error_snoc in H1 as [H1|[K <-]]; [left; eauto|].
      right. rewrite H2. subst k. rewrite C2. now left.
  - rewrite map_app. destruct (R_of ty); cbn [map fst]; [|now rewrite app_nil_r].
    apply OperatorsSums.NoDup_app_disj; [assumption|repeat constructor; auto|]. intros x Hx [<-|[]]. auto.
  - intros x. rewrite map_app, !in_app_iff. intros [H|H]; [left; auto|]. destruct (R_of ty); cbn in H; [|tauto].
    right. destruct H as [<-|[]]. now left.
Qed.
Lemma entries_pushes (P : gtype -> list nat -> Prop) s s' :
  entries_ok P s -> pushes (fun ty idx r => P ty idx /\ r = R_of ty) s s' -> entries_ok P s'.
Proof. intros H. induction 1 as [|? ? ? ? ? ? IH [HP ->]]; auto using entries_push. Qed.
Lemma entries_empty P : entries_ok P ups_empty.
Proof.
  split; [apply counts_empty|]. split; [|split; [|split]].
  - intros k ty idx [H _]. destruct k; discriminate.
  - intros k r. split; [intros []|]. intros (ty & H & _). destruct k; discriminate.
  - constructor.
  - intros x [].
Qed.

(** ** Arity of the produced entries *)
Definition arity (ty : gtype) : option nat :=
  match ty with
  | Single | SaSingle => Some 2
  | Double | SaDouble1 | SaDouble2 | SaDouble3 | SaDouble4 | SaDouble5 => Some 4
  | Triple => Some 6 | Quadruple => Some 8 | Quintuple => Some 10 | Sextuple => Some 12
  | Other => None
  end.

Lemma occ_first_interleave v o : List.length v = List.length o -> occ_first (interleave v o) = o ++ v.
Proof. intros H. unfold occ_first. now rewrite evens_interleave, odds_interleave. Qed.

Lemma iter_k_arity k occ unocc t : In t (iter_k k occ unocc) -> List.length (occ_first t) = 2 * k.
Proof.
  intros H. apply in_iter_k in H as (v & o & -> & _ & _ & Lv & Lo & _). rewrite occ_first_interleave by congruence.
  rewrite app_length. lia.
Qed.
Lemma t2_sa_arity occ unocc t c : In (t, c) (iterate_t2_sa occ unocc) -> arity (sa_double_type c) = Some (List.length (occ_first t)) /\ R_of (sa_double_type c) = None.
Proof.
  rewrite iterate_t2_sa_list. intros H. apply in_sa_list in H as (i & j & a & b & -> & _ & _ & H).
  unfold sa_case_ok in H. assert (c = 1 \/ c = 2 \/ c = 3 \/ c = 4 \/ c = 5) as Hc by tauto.
  destruct Hc as [->|[->|[->|[->| ->]]]]; split; reflexivity.
Qed.
Lemma in_t1_sa occ unocc t : In t (iterate_t1_sa occ unocc) <-> exists a i, t = [a; i] /\ In a unocc /\ In i occ.
Proof.
  unfold iterate_t1_sa. rewrite in_flat_map. split.
  - intros (i & Hi & H). apply in_flat_map in H as (a & Ha & [<-|[]]). eauto.
  - intros (a & i & -> & Ha & Hi). exists i. split; [assumption|]. apply in_flat_map. exists a. split; [assumption|now left].
Qed.
Lemma in_t1_sa_gen n t : In t (iterate_t1_sa_generalized n) <-> exists a i, t = [a; i] /\ i < a < n.
Proof.
  unfold iterate_t1_sa_generalized. rewrite in_loop_range. split.
  - intros (i & Hi & H). apply in_loop_range in H as (a & Ha & [<-|[]]). exists a, i. split; [reflexivity|lia].
  - intros (a & i & -> & H). exists i. split; [lia|]. apply in_loop_range. exists a. split; [lia|now left].
Qed.
Lemma in_t1_gen n t : In t (iterate_t1_generalized n) <-> exists a i, t = [a; i] /\ i < a < n /\ same_spin [a] [i].
Proof.
  unfold iterate_t1_generalized. rewrite in_loop_range. split.
  - intros (i & Hi & H). apply in_loop_range in H as (a & Ha & H). apply in_emit in H as [-> H]. exists a, i. repeat split; try lia; apply H.
  - intros (a & i & -> & H & Hs). exists i. split; [lia|]. apply in_loop_range. exists a. split; [lia|]. now apply in_emit.
Qed.
Lemma in_t2_gen n t : In t (iterate_t2_generalized n) <->
  exists a i b j, t = [a; i; b; j] /\ i <= j < a /\ a <= b < n /\ same_spin [a; b] [i; j].
Proof.
  unfold iterate_t2_generalized. rewrite in_loop_range. split.
  - intros (i & Hi & H). apply in_loop_range in H as (j & Hj & H). apply in_loop_range in H as (a & Ha & H).
    apply in_loop_range in H as (b & Hb & H). apply in_emit in H as [-> H]. exists a, i, b, j. split; [reflexivity|].
    split; [lia|]. split; [lia|assumption].
  - intros (a & i & b & j & -> & H1 & H2 & Hs). exists i. split; [lia|]. apply in_loop_range. exists j. split; [lia|].
    apply in_loop_range. exists a. split; [lia|]. apply in_loop_range. exists b. split; [lia|]. now apply in_emit.
Qed.
Lemma in_t2_sa_gen n t c : In (t, c) (iterate_t2_sa_generalized n) <->
  exists a i b j, t = [a; i; b; j] /\ i <= j < a /\ a <= b < n /\ sa_case_ok a i b j c.
Proof.
  unfold iterate_t2_sa_generalized. rewrite in_loop_range. split.
  - intros (i & Hi & H). apply in_loop_range in H as (j & Hj & H). apply in_loop_range in H as (a & Ha & H).
    apply in_loop_range in H as (b & Hb & H). apply in_map_iff in H as (c' & E & H). apply in_cases in H. inversion E; subst.
    exists a, i, b, j. split; [reflexivity|]. split; [lia|]. split; [lia|assumption].
  - intros (a & i & b & j & -> & H1 & H2 & Hs). exists i. split; [lia|]. apply in_loop_range. exists j. split; [lia|].
    apply in_loop_range. exists a. split; [lia|]. apply in_loop_range. exists b. split; [lia|]. apply in_map_iff. exists c.
    split; [reflexivity|now apply in_cases].
Qed.
Lemma in_pair occ unocc t : In t (iterate_pair_t2 occ unocc) <->
  exists a i, t = [2 * a; 2 * i; 2 * a + 1; 2 * i + 1] /\ In a unocc /\ In i occ.
Proof.
  unfold iterate_pair_t2. rewrite in_flat_map. split.
  - intros (i & Hi & H). apply in_flat_map in H as (a & Ha & [<-|[]]). eauto.
  - intros (a & i & -> & Ha & Hi). exists i. split; [assumption|]. apply in_flat_map. exists a. split; [assumption|now left].
Qed.
Lemma in_pair_gen n t : In t (iterate_pair_t2_generalized n) <->
  exists a i, t = [2 * a; 2 * i; 2 * a + 1; 2 * i + 1] /\ i < a < n.
Proof.
  unfold iterate_pair_t2_generalized. rewrite in_loop_range. split.
  - intros (i & Hi & H). apply in_loop_range in H as (a & Ha & [<-|[]]). exists a, i. split; [reflexivity|lia].
  - intros (a & i & -> & H). exists i. split; [lia|]. apply in_loop_range. exists a. split; [lia|now left].
Qed.

(** ** Validity of the produced entries *)
Definition lists_ok (m : nat) (occ unocc : list nat) : Prop :=
  NoDup occ /\ NoDup unocc /\ (forall p, In p occ -> ~ In p unocc) /\ (forall p, In p occ \/ In p unocc -> p < m).

Lemma app_split_2k (o v : list nat) k : List.length o = k -> firstn k (o ++ v) = o /\ skipn k (o ++ v) = v.
Proof.
  intros <-. rewrite firstn_app, skipn_app, Nat.sub_diag, firstn_all, skipn_all. cbn. now rewrite app_nil_r.
Qed.
Lemma spin_entry n off ty k o v : order_of ty = Some k -> List.length o = k -> List.length v = k ->
  (forall p, In p o -> ~ In p v) -> (forall p, In p o \/ In p v -> p < 2 * n) -> same_spin v o ->
  gate_ok (n + off) off (ty, o ++ v).
Proof.
  intros Hk Lo Lv Hd Hb [Hs _].
  assert (G : List.length (o ++ v) = 2 * k /\ (forall p, In p (firstn k (o ++ v)) -> ~ In p (skipn k (o ++ v))) /\
     (forall p, In p (o ++ v) -> p + 2 * off < 2 * (n + off)) /\ spins_match (firstn k (o ++ v)) (skipn k (o ++ v))).
  { destruct (app_split_2k o v k Lo) as [-> ->]. split; [rewrite app_length; lia|]. split; [assumption|]. split.
    - intros p Hp. apply in_app_iff in Hp. apply Hb in Hp. lia.
    - unfold spins_match. now rewrite Hs. }
  clear - Hk G. destruct ty; cbn in Hk; try discriminate; injection Hk as Hk; rewrite <- Hk in G; exact G.
Qed.
Lemma iter_k_gate n off ty k occ unocc t : order_of ty = Some k -> lists_ok (2 * n) occ unocc ->
  In t (iter_k k occ unocc) -> gate_ok (n + off) off (ty, occ_first t).
Proof.
  intros Hk (H1 & H2 & H3 & H4) H. apply in_iter_k in H as (v & o & -> & Sv & So & Lv & Lo & Hs).
  rewrite occ_first_interleave by congruence. apply (spin_entry n off ty k); auto.
  - intros p Hp Hq. apply (H3 p); eapply sublist_in; eassumption.
  - intros p [Hp|Hp]; apply H4; [left|right]; eapply sublist_in; eassumption.
Qed.
