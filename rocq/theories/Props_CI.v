(** Properties C15 and C16: determinant indexing of ci_spaces.py. *)
From Coq Require Import List Bool Arith NArith ZArith Lia.
From Verif Require Import Base Fock OperatorsKeys OperatorsSums CIModel CIProofs CIExtended.
Import ListNotations.

(** [todet m d] is the Fock-space determinant in which spin orbital [p < m] is
    occupied exactly when bit [m - 1 - p] of the integer [d] is set
    (CIProofs.v); it is a bijection between integers and determinants of [m]
    spin orbitals. *)
Theorem C15_integer_encoding_bijective m :
  (forall d p, p < m -> occ (todet m d) p = N.testbit d (N.of_nat (m - 1 - p))) /\
  (forall d p, m <= p -> occ (todet m d) p = false) /\
  (forall d e, (d < 2 ^ N.of_nat m)%N -> (e < 2 ^ N.of_nat m)%N -> todet m d = todet m e -> d = e) /\
  (forall x, (x < 2 ^ N.of_nat m)%N -> exists d, (d < 2 ^ N.of_nat m)%N /\ todet m d = x).
Proof.
  repeat split.
  - intros d p Hp. rewrite occ_todet. destruct (Nat.ltb_spec p m); [reflexivity|lia].
  - intros d p Hp. rewrite occ_todet. destruct (Nat.ltb_spec p m); [lia|reflexivity].
  - intros d e. apply todet_inj.
  - intros x Hx. exists (todet m x). split; [apply todet_small|now apply todet_invol].
Qed.

(** C15.  For every number of active orbitals (at least one) and every pair of
    electron numbers, feasible or not, the space lists exactly the
    determinants with those numbers, each once, and the two maps are mutually
    inverse. *)
Theorem C15_get_indexing n na nb : 0 < n ->
  exists ci, get_indexing n na nb = Ok ci /\
  NoDup (idx2det ci) /\
  (forall d, In d (idx2det ci) <->
     (d < 2 ^ N.of_nat (2 * n))%N /\
     Z.of_nat (nalpha n (todet (2 * n) d)) = na /\ Z.of_nat (nbeta n (todet (2 * n) d)) = nb) /\
  (forall d i, lookup d (det2idx ci) = Some i <-> nth_error (idx2det ci) i = Some d).
Proof.
  intros Hn. destruct (get_indexing_spec n na nb Hn) as (ci & H & (_ & Hnd & Hl) & Hi).
  exists ci. split; [exact H|]. split; [exact Hnd|]. split; [|exact Hl].
  intros d. rewrite Hi, (in_map_toN n).
  - rewrite get_indexing_pairs, abits_len, bbits_len, ones_abits, ones_bbits. tauto.
  - intros a b Hab. apply get_indexing_pairs in Hab. tauto.
Qed.

(** Every determinant of Fock space with the right numbers has exactly one index. *)
Theorem C15_unique_index n na nb x : 0 < n -> (x < 2 ^ N.of_nat (2 * n))%N ->
  exists ci, get_indexing n na nb = Ok ci /\
  ((Z.of_nat (nalpha n x) = na /\ Z.of_nat (nbeta n x) = nb) <->
   exists! i, exists d, nth_error (idx2det ci) i = Some d /\ todet (2 * n) d = x).
Proof.
  intros Hn Hx. destruct (C15_get_indexing n na nb Hn) as (ci & H & Hnd & Hin & Hl).
  exists ci. split; [exact H|]. split.
  - intros Hc.
    assert (In (todet (2 * n) x) (idx2det ci)) as Hi.
    { apply Hin. rewrite todet_invol by exact Hx. split; [apply todet_small|exact Hc]. }
    destruct (In_nth_error _ _ Hi) as [i Hi']. exists i. split.
    + exists (todet (2 * n) x). split; auto. now apply todet_invol.
    + intros j (d & Hd & E). assert (d = todet (2 * n) x) as ->.
      { rewrite <- E. symmetry. apply todet_invol. apply Hin. eapply nth_error_In; eauto. }
      apply Hl in Hi', Hd. congruence.
  - intros (i & (d & Hd & <-) & _). apply nth_error_In in Hd. apply Hin in Hd. tauto.
Qed.

(** Number of k-element subsets, by Pascal's rule. *)
Fixpoint binom (n k : nat) : nat :=
  match n, k with
  | _, O => 1
  | O, S _ => 0
  | S n', S k' => binom n' k' + binom n' k
  end.

Lemma strs_length n k : length (strs n k) = binom n k.
Proof.
  revert k. induction n as [|n IH]; intros [|k]; try reflexivity.
  cbn [strs binom]. now rewrite app_length, !map_length, !IH.
Qed.

Lemma prod2_length {A B} (l : list A) (m : list B) : length (prod2 l m) = length l * length m.
Proof.
  unfold prod2. induction l as [|a l IH]; [reflexivity|]. cbn [flat_map length].
  rewrite app_length, map_length, IH. lia.
Qed.

(** The dimension of the space; zero when the numbers are infeasible. *)
Theorem C15_dimension n na nb : 0 < n ->
  exists ci, get_indexing n na nb = Ok ci /\
  length (idx2det ci) =
    if (Z.ltb na 0 || Z.ltb nb 0)%bool then 0 else binom n (Z.to_nat na) * binom n (Z.to_nat nb).
Proof.
  intros Hn. destruct (get_indexing_spec n na nb Hn) as (ci & H & _ & Hi).
  exists ci. split; [exact H|]. rewrite Hi, map_length, prod2_length.
  unfold spin_strings. destruct (Z.ltb na 0); [reflexivity|]. destruct (Z.ltb nb 0); [cbn; lia|].
  cbn [orb]. now rewrite !spin_strs, !strs_length.
Qed.

Lemma binom_gt n k : n < k -> binom n k = 0.
Proof.
  revert k. induction n as [|n IH]; intros [|k] H; try lia; [reflexivity|]. cbn. rewrite !IH; lia.
Qed.

Theorem C15_infeasible_is_empty n na nb : 0 < n ->
  (na < 0 \/ nb < 0 \/ Z.of_nat n < na \/ Z.of_nat n < nb)%Z ->
  exists ci, get_indexing n na nb = Ok ci /\ idx2det ci = [].
Proof.
  intros Hn Hb. destruct (C15_dimension n na nb Hn) as (ci & H & Hl). exists ci. split; [exact H|].
  destruct (idx2det ci); [reflexivity|]. exfalso. revert Hl.
  destruct (Z.ltb_spec na 0); [cbn; lia|]. destruct (Z.ltb_spec nb 0); [cbn; lia|]. cbn [orb].
  destruct Hb as [Hb|[Hb|[Hb|Hb]]]; try lia.
  - rewrite (binom_gt n (Z.to_nat na)) by lia. cbn. lia.
  - rewrite (binom_gt n (Z.to_nat nb)) by lia. cbn. lia.
Qed.

(** The excluded case: without active orbitals the empty determinant string
    cannot be parsed, so the one-determinant space raises instead. *)
Theorem C15_no_active_orbitals na nb :
  get_indexing 0 na nb =
  if (Z.eqb na 0 && Z.eqb nb 0)%bool then Raise ValueError else Ok {| idx2det := []; det2idx := [] |}.
Proof.
  unfold get_indexing, spin_strings.
  destruct (Z.ltb_spec na 0); [destruct (Z.eqb_spec na 0); [lia|reflexivity]|].
  destruct (Z.to_nat na) as [|k] eqn:Ea.
  - replace na with 0%Z by lia. rewrite Z.eqb_refl. cbn [andb].
    destruct (Z.ltb_spec nb 0); [destruct (Z.eqb_spec nb 0); [lia|reflexivity]|].
    destruct (Z.to_nat nb) as [|j] eqn:Eb.
    + replace nb with 0%Z by lia. reflexivity.
    + destruct (Z.eqb_spec nb 0); [lia|]. reflexivity.
  - destruct (Z.eqb_spec na 0); [lia|]. reflexivity.
Qed.

(** ** C16 *)

(** Holes among the first [ni] orbitals and particles in the last [nv], for one
    spin ([f p] says whether spatial orbital [p] is occupied with that spin). *)
Definition nholes (ni : nat) (f : nat -> bool) : nat := length (filter (fun p => negb (f p)) (seq 0 ni)).
Definition nparts (ni nact nv : nat) (f : nat -> bool) : nat := length (filter f (seq (ni + nact) nv)).
Definition alpha_occ (x : det) (p : nat) : bool := occ x (2 * p).
Definition beta_occ (x : det) (p : nat) : bool := occ x (2 * p + 1).

(** The documented pattern: one spin keeps the reference occupation outside the
    active space and the other has at most [order] holes and particles, or (for
    order two) both spins have at most one of each. *)
Definition pattern (ni nact nv : nat) (order : Z) (x : det) : Prop :=
  let m := if Z.eqb order 2 then 2 else 1 in
  let ha := nholes ni (alpha_occ x) in
  let pa := nparts ni nact nv (alpha_occ x) in
  let hb := nholes ni (beta_occ x) in
  let pb := nparts ni nact nv (beta_occ x) in
  (ha <= m /\ pa <= m /\ hb = 0 /\ pb = 0) \/
  (hb <= m /\ pb <= m /\ ha = 0 /\ pa = 0) \/
  (order = 2%Z /\ ha <= 1 /\ pa <= 1 /\ hb <= 1 /\ pb <= 1).

Lemma ones_map_filter (f : nat -> bool) l : ones (map f l) = Z.of_nat (length (filter f l)).
Proof.
  induction l as [|p l IH]; [reflexivity|]. cbn [map filter]. rewrite ones_cons, IH. destruct (f p); cbn [length]; lia.
Qed.
Lemma filter_negb_length (f : nat -> bool) l : length (filter f l) + length (filter (fun p => negb (f p)) l) = length l.
Proof. induction l as [|p l IH]; [reflexivity|]. cbn. destruct (f p); cbn [negb length]; lia. Qed.

Lemma holes_abits ni k x : holes ni (abits (ni + k) x) = Z.of_nat (nholes ni (alpha_occ x)).
Proof.
  unfold holes, part1, nholes. rewrite abits_firstn by lia. rewrite ones_map_filter.
  pose proof (filter_negb_length (fun p => occ x (2 * p)) (seq 0 ni)) as H. rewrite seq_length in H.
  unfold alpha_occ. lia.
Qed.
Lemma holes_bbits ni k x : holes ni (bbits (ni + k) x) = Z.of_nat (nholes ni (beta_occ x)).
Proof.
  unfold holes, part1, nholes. rewrite bbits_firstn by lia. rewrite ones_map_filter.
  pose proof (filter_negb_length (fun p => occ x (2 * p + 1)) (seq 0 ni)) as H. rewrite seq_length in H.
  unfold beta_occ. lia.
Qed.
Lemma parts_abits ni nact nv x : parts ni nact (abits (ni + nact + nv) x) = Z.of_nat (nparts ni nact nv (alpha_occ x)).
Proof. unfold parts, part3, abits. rewrite map_skipn_seq. apply ones_map_filter. Qed.
Lemma parts_bbits ni nact nv x : parts ni nact (bbits (ni + nact + nv) x) = Z.of_nat (nparts ni nact nv (beta_occ x)).
Proof. unfold parts, part3, bbits. rewrite map_skipn_seq. apply ones_map_filter. Qed.

(** C16.  The extended space lists, without repetition, exactly the
    determinants over all orbitals with the right total numbers of electrons of
    each spin and the documented hole/particle pattern; the two maps are
    mutually inverse. *)
Theorem C16_get_indexing_extended ni nact nv na nb order :
  (order <= 2)%Z -> 0 < ni + nact + nv ->
  let n := ni + nact + nv in
  exists ci, get_indexing_extended ni nact nv na nb order = Ok ci /\
  NoDup (idx2det ci) /\
  (forall d, In d (idx2det ci) <->
     (d < 2 ^ N.of_nat (2 * n))%N /\
     (Z.of_nat (nalpha n (todet (2 * n) d)) = na + Z.of_nat ni)%Z /\
     (Z.of_nat (nbeta n (todet (2 * n) d)) = nb + Z.of_nat ni)%Z /\
     pattern ni nact nv order (todet (2 * n) d)) /\
  (forall d i, lookup d (det2idx ci) = Some i <-> nth_error (idx2det ci) i = Some d).
Proof.
  intros Ho Hn n. destruct (get_indexing_extended_spec ni nact nv na nb order Ho Hn) as (ci & H & (_ & Hnd & Hl) & Hi).
  exists ci. split; [exact H|]. split; [exact Hnd|]. split; [|exact Hl].
  intros d. rewrite Hi, (in_map_toN n).
  - rewrite in_ext_pairs. unfold sok, n. rewrite abits_len, bbits_len, ones_abits, ones_bbits.
    rewrite parts_abits, parts_bbits. rewrite <- !(Nat.add_assoc ni nact nv), holes_abits, holes_bbits.
    unfold pattern. destruct (Z.eqb_spec order 2); cbv zeta; intuition lia.
  - intros a b Hab. apply in_ext_pairs in Hab as [[H1 _] [[H2 _] _]]. auto.
Qed.

Theorem C16_order_above_two_rejected ni nact nv na nb order : (2 < order)%Z ->
  get_indexing_extended ni nact nv na nb order = Raise ValueError.
Proof. intros H. unfold get_indexing_extended. destruct (Z.ltb_spec 2 order); [reflexivity|lia]. Qed.

(** The reference complete active space is contained in the extended space. *)
Theorem C16_contains_reference ni nact nv na nb order x :
  (order <= 2)%Z -> 0 < ni + nact + nv ->
  let n := ni + nact + nv in
  (x < 2 ^ N.of_nat (2 * n))%N ->
  (forall p, p < ni -> occ x (2 * p) = true /\ occ x (2 * p + 1) = true) ->
  (forall p, ni + nact <= p < n -> occ x (2 * p) = false /\ occ x (2 * p + 1) = false) ->
  (Z.of_nat (nalpha n x) = na + Z.of_nat ni)%Z -> (Z.of_nat (nbeta n x) = nb + Z.of_nat ni)%Z ->
  exists ci d, get_indexing_extended ni nact nv na nb order = Ok ci /\ In d (idx2det ci) /\ todet (2 * n) d = x.
Proof.
  intros Ho Hn n Hx Hin Hv Ha Hb.
  destruct (C16_get_indexing_extended ni nact nv na nb order Ho Hn) as (ci & H & _ & Hi & _).
  exists ci, (todet (2 * n) x). split; [exact H|]. assert (todet (2 * n) (todet (2 * n) x) = x) as E by now apply todet_invol.
  split; [|exact E]. apply Hi. fold n. rewrite E. split; [apply todet_small|]. split; [exact Ha|]. split; [exact Hb|].
  assert (forall (f : nat -> bool) l, (forall p, In p l -> f p = false) -> length (filter f l) = 0) as Hz.
  { intros f l. induction l as [|p l IH]; intros Hf; [reflexivity|]. cbn. rewrite Hf by now left.
    apply IH. intros q Hq. apply Hf. now right. }
  assert (nholes ni (alpha_occ x) = 0 /\ nparts ni nact nv (alpha_occ x) = 0 /\
          nholes ni (beta_occ x) = 0 /\ nparts ni nact nv (beta_occ x) = 0) as (E1 & E2 & E3 & E4).
  { unfold nholes, nparts, alpha_occ, beta_occ. repeat split; apply Hz; intros p Hp; apply in_seq in Hp.
    - rewrite (proj1 (Hin p ltac:(lia))). reflexivity.
    - apply Hv. unfold n. lia.
    - rewrite (proj2 (Hin p ltac:(lia))). reflexivity.
    - apply Hv. unfold n. lia. }
  unfold pattern. rewrite E1, E2, E3, E4. left. destruct (Z.eqb order 2); lia.
Qed.

(** ** Non-vacuity *)

Example C15_example_two_in_three :
  exists ci, get_indexing 3 2 1 = Ok ci /\ length (idx2det ci) = 9 /\
  idx2det ci = [56; 44; 41; 50; 38; 35; 26; 14; 11]%N /\ lookup 38 (det2idx ci) = Some 4.
Proof. eexists. split; [reflexivity|]. vm_compute. auto. Qed.

Example C16_example_extended_sizes :
  (exists ci, get_indexing_extended 1 2 1 1 1 1 = Ok ci /\ length (idx2det ci) = 20) /\
  (exists ci, get_indexing_extended 1 2 1 1 1 2 = Ok ci /\ length (idx2det ci) = 36).
Proof. split; eexists; (split; [reflexivity|]); vm_compute; auto. Qed.

Example C16_example_pattern_excludes :
  exists ci, get_indexing_extended 2 1 2 1 0 2 = Ok ci /\ lookup (bits2N
     [false; true; false; false; true; false; true; true; true; false]) (det2idx ci) = None.
Proof. eexists. split; [reflexivity|]. vm_compute. reflexivity. Qed.

Print Assumptions C15_integer_encoding_bijective.
Print Assumptions C15_get_indexing.
Print Assumptions C15_unique_index.
Print Assumptions C15_dimension.
Print Assumptions C15_infeasible_is_empty.
Print Assumptions C15_no_active_orbitals.
Print Assumptions C16_get_indexing_extended.
Print Assumptions C16_order_above_two_rejected.
Print Assumptions C16_contains_reference.
