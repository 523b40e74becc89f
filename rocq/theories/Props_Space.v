(** Properties C31 and C64: orbital spaces, rotation lists and the reference determinants
    of the wave-function constructors. *)
From Coq Require Import List Bool NArith ZArith Lia.
From Verif Require Import Base CIModel CIProofs SpaceModel SpaceProofs.
Import ListNotations.
Local Open Scope Z_scope.

(** C31.  The spin-orbital lists split [range(num_spin_orbs)] in order, for every number of
    electrons and every (even nonsensical) active space; the constructor rejects exactly the
    odd numbers of active electrons. *)
Theorem C31_spin_partition ne nso cas0 cas1 : 0 <= ne <= nso ->
  (forall s, spin_partition true ne nso cas0 cas1 = Ok s ->
    inactive_spin s ++ active_spin s ++ virtual_spin s = zrange 0 nso /\
    inactive_spin s ++ active_occ_spin s = zrange 0 ne /\ active_unocc_spin s ++ virtual_spin s = zrange ne nso /\ active_spin s = active_occ_spin s ++ active_unocc_spin s /\
    num_inactive_spin_orbs s = Z.of_nat (length (inactive_spin s)) /\ num_active_spin_orbs s = Z.of_nat (length (active_spin s)) /\
    num_virtual_spin_orbs s = Z.of_nat (length (virtual_spin s)) /\ num_active_elec s = Z.of_nat (length (active_occ_spin s)) /\ Z.even (num_active_elec s) = true) /\
  (spin_partition true ne nso cas0 cas1 = Raise ValueError <-> exists s, spin_partition false ne nso cas0 cas1 = Ok s /\ Z.odd (num_active_elec s) = true) /\
  spin_partition true ne nso cas0 cas1 <> Hang.
Proof.
  intros H. rewrite !spin_partition_spec by exact H. pose proof (lo_range ne cas0 ltac:(lia)) as Hl. pose proof (hi_range ne nso cas0 cas1 ltac:(lia)) as Hh.
  rewrite !andb_true_l. cbn [andb]. set (l := lo ne cas0) in *. set (h := hi ne nso cas0 cas1) in *. clearbody l h.
  assert (forall x, (x mod 2 =? 0) = Z.even x) as EV by (intros x; rewrite Zmod_even; destruct (Z.even x); reflexivity). rewrite EV.
  split; [|split].
  - intros s E. destruct (Z.even (ne - l)) eqn:Ev; cbn [negb] in E; [|discriminate].
    match type of E with Ok ?a = _ => assert (s = a) as -> by (symmetry; exact (f_equal (fun r => match r with Ok s => s | _ => s end) E)) end.
    cbn [inactive_spin active_spin virtual_spin active_occ_spin active_unocc_spin num_active_elec num_active_spin_orbs num_inactive_spin_orbs num_virtual_spin_orbs].
    rewrite <- !zrange_app by lia. rewrite !zrange_length. repeat split; try lia; exact Ev.
  - split.
    + destruct (Z.even (ne - l)) eqn:Ev; cbn [negb]; [discriminate|]. intros _. eexists. split; [reflexivity|]. cbn [num_active_elec]. rewrite <- Z.negb_even, Ev. reflexivity.
    + intros (s & E & Ho). match type of E with Ok ?a = _ => assert (s = a) as -> by (symmetry; exact (f_equal (fun r => match r with Ok s => s | _ => s end) E)) end.
      cbn [num_active_elec] in Ho. rewrite <- Z.negb_even in Ho. destruct (Z.even (ne - l)); [discriminate|reflexivity].
  - destruct (negb (Z.even (ne - l))); discriminate.
Qed.
Example C31_spin_partition_case : match spin_partition true 6 12 4 4 with Ok s => inactive_spin s = [0; 1] /\ active_spin s = [2; 3; 4; 5; 6; 7; 8; 9] /\ virtual_spin s = [10; 11] /\ num_active_elec s = 4 | _ => False end.
Proof. vm_compute. auto. Qed.
Example C31_spin_partition_rejects : spin_partition true 6 12 3 4 = Raise ValueError.
Proof. reflexivity. Qed.

Lemma accepted_even include ne no cas0 cas1 sp : 0 <= ne <= no -> init_spaces true include (2 * ne) no cas0 cas1 = Ok sp -> Z.even (Z.max 0 (Z.min cas0 (2 * ne))) = true.
Proof.
  intros H E. unfold init_spaces in E. rewrite spin_partition_spec in E by lia. rewrite andb_true_l in E. unfold lo in E.
  match type of E with context [(?x mod 2 =? 0)] => assert ((x mod 2 =? 0) = Z.even x) as EV by (rewrite Zmod_even; destruct (Z.even x); reflexivity); rewrite EV in E end.
  match type of E with context [Z.even ?x] => assert (x = Z.max 0 (Z.min cas0 (2 * ne))) as EQ by lia; rewrite EQ in E end.
  destruct (Z.even (Z.max 0 (Z.min cas0 (2 * ne)))); [reflexivity|discriminate].
Qed.

(** With an even number [2 * ne] of electrons the accepted spatial lists split
    [range(num_orbs)], each orbital in exactly one space; the active list is split by
    occupation, and the counts are the lengths.  [cas0] may exceed the number of electrons
    only if it is even ([C31_odd_cas_refuted]). *)
Theorem C31_spatial_partition include ne no cas0 cas1 sp : 0 <= ne <= no -> cas0 <= 2 * ne \/ Z.even cas0 = true ->
  init_spaces true include (2 * ne) no cas0 cas1 = Ok sp ->
  inactive_idx sp ++ active_idx sp ++ virtual_idx sp = zrange 0 no /\
  inactive_idx sp ++ active_occ_idx sp = zrange 0 ne /\ active_unocc_idx sp ++ virtual_idx sp = zrange ne no /\
  num_inactive_orbs sp = Z.of_nat (length (inactive_idx sp)) /\ num_active_orbs sp = Z.of_nat (length (active_idx sp)) /\ num_virtual_orbs sp = Z.of_nat (length (virtual_idx sp)) /\
  num_active_elec_alpha sp = Z.of_nat (length (active_occ_idx sp)) /\ num_active_elec_beta sp = Z.of_nat (length (active_occ_idx sp)) /\
  2 * (num_inactive_orbs sp + num_active_elec_alpha sp) = 2 * ne.
Proof.
  intros H Hc E. pose proof (accepted_even _ _ _ _ _ _ H E) as He. destruct (init_spec _ _ _ _ _ _ _ H Hc He E) as (l & h & Hl & Hh & _ & _ & E1 & E2 & E3 & E4 & E5 & E6 & E7 & E8 & _ & E9 & E10 & _).
  rewrite E1, E2, E3, E4, E5, E6, E7, E8, E9, E10, <- !zrange_app, !zrange_length by lia. repeat split; lia.
Qed.
(** The shifted lists address the same orbitals relative to the first active one. *)
Theorem C31_shifted include ne no cas0 cas1 sp : 0 <= ne <= no -> cas0 <= 2 * ne \/ Z.even cas0 = true ->
  init_spaces true include (2 * ne) no cas0 cas1 = Ok sp ->
  map (Z.add (num_inactive_orbs sp)) (active_idx_shifted sp) = active_idx sp /\ map (Z.add (num_inactive_orbs sp)) (active_occ_idx_shifted sp) = active_occ_idx sp /\
  map (Z.add (num_inactive_orbs sp)) (active_unocc_idx_shifted sp) = active_unocc_idx sp /\ active_idx_shifted sp = zrange 0 (num_active_orbs sp) /\
  active_spin_idx_shifted sp = zrange 0 (2 * num_active_orbs sp) /\ active_occ_spin_idx_shifted sp = zrange 0 (num_active_elec (sp_spin sp)) /\
  active_unocc_spin_idx_shifted sp = zrange (num_active_elec (sp_spin sp)) (2 * num_active_orbs sp).
Proof.
  intros H Hc E. pose proof (accepted_even _ _ _ _ _ _ H E) as He. destruct (init_spec _ _ _ _ _ _ _ H Hc He E) as (l & h & Hl & Hh & _ & _ & E1 & E2 & E3 & E4 & E5 & E6 & E7 & E8 & E9 & _ & _ & F1 & F2 & F3 & F4 & F5 & F6 & _).
  assert (forall a b, map (Z.add l) (zrange a b) = zrange (l + a) (l + b)) as G.
  { intros a b. unfold zrange. rewrite map_map. replace (l + b - (l + a)) with (b - a) by lia. apply map_ext. intros i. lia. }
  rewrite E2, E4, E5, E6, E7, E9, F1, F2, F3, F4, F5, F6, !G. rewrite !Z.add_0_r. replace (l + (h - l)) with h by lia. replace (l + (ne - l)) with ne by lia. repeat split.
Qed.
(** A request that fits is met literally. *)
Theorem C31_requested_size include ne no na m sp : 0 <= m <= ne -> m <= na -> ne - m + na <= no ->
  init_spaces true include (2 * ne) no (2 * m) na = Ok sp ->
  num_active_orbs sp = na /\ num_active_elec (sp_spin sp) = 2 * m /\ num_inactive_orbs sp = ne - m /\ num_virtual_orbs sp = no - (ne - m) - na.
Proof.
  intros H1 H2 H3 E. assert (0 <= ne <= no) as H by lia. pose proof (accepted_even _ _ _ _ _ _ H E) as He.
  destruct (init_spec _ _ _ _ _ _ _ H (or_introl (ltac:(lia) : 2 * m <= 2 * ne)) He E) as (l & h & Hl & Hh & L1 & L2 & _ & _ & _ & _ & _ & E6 & E7 & E8 & E9 & _).
  unfold lo in L1. unfold hi in L2. rewrite E6, E7, E8, E9. lia.
Qed.

(** The rotation lists.  Every pair [p < q] is in exactly one of the non-redundant and the
    redundant list, which have no repetitions; the redundant pairs are those inside the
    inactive space, inside the virtual space and, unless active rotations are requested,
    inside the active space; the list without active-active pairs holds the pairs joining
    different spaces; its dagger holds the same pairs, position by position, reversed. *)
Theorem C31_pairs include ne no cas0 cas1 sp : 0 <= ne <= no -> cas0 <= 2 * ne \/ Z.even cas0 = true ->
  init_spaces true include (2 * ne) no cas0 cas1 = Ok sp ->
  let k := sp_kappas sp in
  let same p q := (In p (inactive_idx sp) /\ In q (inactive_idx sp)) \/ (In p (active_idx sp) /\ In q (active_idx sp)) \/ (In p (virtual_idx sp) /\ In q (virtual_idx sp)) in
  NoDup (kappa_idx k) /\ NoDup (kappa_redundant k) /\ NoDup (kappa_noaa k) /\
  (forall p q, In (p, q) (kappa_idx k) \/ In (p, q) (kappa_redundant k) <-> 0 <= p < q /\ q < no) /\
  (forall p q, ~ (In (p, q) (kappa_idx k) /\ In (p, q) (kappa_redundant k))) /\
  (forall p q, In (p, q) (kappa_idx k) <-> 0 <= p < q /\ q < no /\ (~ same p q \/ (include = true /\ In p (active_idx sp) /\ In q (active_idx sp)))) /\
  (forall p q, In (p, q) (kappa_noaa k) <-> 0 <= p < q /\ q < no /\ ~ same p q) /\
  kappa_noaa_dagger k = map (fun pq => (snd pq, fst pq)) (kappa_noaa k) /\
  (include = false -> kappa_noaa k = kappa_idx k).
Proof.
  intros H Hc E. pose proof (accepted_even _ _ _ _ _ _ H E) as He. destruct (init_spec _ _ _ _ _ _ _ H Hc He E) as (l & h & Hl & Hh & _ & _ & E1 & E2 & E3 & E4 & E5 & _ & _ & _ & _ & _ & _ & _ & _ & _ & _ & _ & _ & EK & _).
  cbv zeta. rewrite EK, E1, E2, E3. unfold kappa_lists. rewrite kappa_fold. cbn [kappa_idx kappa_redundant kappa_noaa kappa_noaa_dagger app].
  assert (forall p q, is_redundant (zrange 0 l) (zrange l h) (zrange h no) include (p, q) = true <->
    (In p (zrange 0 l) /\ In q (zrange 0 l)) \/ (In p (zrange h no) /\ In q (zrange h no)) \/ (include = false /\ In p (zrange l h) /\ In q (zrange l h))) as RED.
  { intros p q. unfold is_redundant. cbn [fst snd]. rewrite !orb_true_iff, !andb_true_iff, !zmem_spec, negb_true_iff. tauto. }
  assert (forall p q, both_active (zrange l h) (p, q) = true <-> In p (zrange l h) /\ In q (zrange l h)) as BA.
  { intros p q. unfold both_active. cbn [fst snd]. rewrite andb_true_iff, !zmem_spec. tauto. }
  assert (forall p q, negb (is_redundant (zrange 0 l) (zrange l h) (zrange h no) include (p, q)) = true <->
    ~ ((In p (zrange 0 l) /\ In q (zrange 0 l)) \/ (In p (zrange h no) /\ In q (zrange h no)) \/ (include = false /\ In p (zrange l h) /\ In q (zrange l h)))) as NRED.
  { intros p q. rewrite negb_true_iff, <- RED. destruct (is_redundant _ _ _ _ _); split; congruence. }
  assert (forall p q, negb (both_active (zrange l h) (p, q)) = true <-> ~ (In p (zrange l h) /\ In q (zrange l h))) as NBA.
  { intros p q. rewrite negb_true_iff, <- BA. destruct (both_active _ _); split; congruence. }
  split; [apply NoDup_filter, pairs_nodup|]. split; [apply NoDup_filter, pairs_nodup|]. split; [apply NoDup_filter, pairs_nodup|].
  split; [|split; [|split; [|split; [|split]]]].
  - intros p q. rewrite !filter_In, in_pairs. destruct (is_redundant _ _ _ _ _); cbn [negb]; intuition congruence.
  - intros p q [A B]. apply filter_In in A as [_ A]. apply filter_In in B as [_ B]. rewrite B in A. discriminate.
  - intros p q. rewrite filter_In, in_pairs, NRED, !in_zrange. destruct include; split; intros G; intuition (try congruence; try lia).
  - intros p q. rewrite filter_In, in_pairs, andb_true_iff, NRED, NBA, !in_zrange. destruct include; split; intros G; intuition (try congruence; try lia).
  - reflexivity.
  - intros ->. apply filter_ext. intros [p q]. unfold is_redundant, both_active. cbn [negb fst snd]. destruct (zmem p (zrange l h) && zmem q (zrange l h)); cbn [andb orb negb].
    + rewrite !orb_true_r. reflexivity.
    + rewrite !orb_false_r, andb_true_r. reflexivity.
Qed.
(** The rotations that do not commute with a single-determinant reference. *)
Theorem C31_hf_like include ne no cas0 cas1 sp : 0 <= ne <= no -> cas0 <= 2 * ne \/ Z.even cas0 = true ->
  init_spaces true include (2 * ne) no cas0 cas1 = Ok sp ->
  NoDup (sp_hf_like sp) /\
  (forall p q, In (p, q) (sp_hf_like sp) <-> 0 <= p < ne /\ ne <= q < no /\ ~ (In p (active_idx sp) /\ In q (active_idx sp))) /\
  (forall pq, In pq (sp_hf_like sp) -> In pq (kappa_noaa (sp_kappas sp))).
Proof.
  intros H Hc E. destruct (C31_pairs _ _ _ _ _ _ H Hc E) as (_ & _ & _ & _ & _ & _ & KN & _). cbv zeta in KN.
  pose proof (accepted_even _ _ _ _ _ _ H E) as He. destruct (init_spec _ _ _ _ _ _ _ H Hc He E) as (l & h & Hl & Hh & _ & _ & E1 & E2 & E3 & E4 & E5 & _ & _ & _ & _ & _ & _ & _ & _ & _ & _ & _ & _ & _ & EH).
  rewrite E1, E2, E3 in KN. rewrite EH, E2. unfold kappa_hf_like. rewrite hf_like_fold. cbn [app].
  assert (forall p q, In (p, q) (filter (fun pq : Z * Z => zmem (fst pq) (zrange 0 l) && zmem (snd pq) (zrange h no) || zmem (fst pq) (zrange 0 l) && zmem (snd pq) (zrange ne h) || zmem (fst pq) (zrange l ne) && zmem (snd pq) (zrange h no)) (pairs no)) <->
    0 <= p < ne /\ ne <= q < no /\ ~ (In p (zrange l h) /\ In q (zrange l h))) as G.
  { intros p q. rewrite filter_In, in_pairs. cbn [fst snd]. rewrite !orb_true_iff, !andb_true_iff, !zmem_spec, !in_zrange. lia. }
  split; [apply NoDup_filter, pairs_nodup|]. split; [exact G|]. intros [p q] Hpq. apply KN. apply G in Hpq. rewrite !in_zrange in *. lia.
Qed.
Example C31_lists_case : match init_spaces true false 6 6 4 4 with
  | Ok sp => inactive_idx sp = [0] /\ active_idx sp = [1; 2; 3; 4] /\ virtual_idx sp = [5] /\
      kappa_idx (sp_kappas sp) = [(0, 1); (0, 2); (0, 3); (0, 4); (0, 5); (1, 5); (2, 5); (3, 5); (4, 5)] /\ kappa_redundant (sp_kappas sp) = [(1, 2); (1, 3); (1, 4); (2, 3); (2, 4); (3, 4)] /\
      sp_hf_like sp = [(0, 3); (0, 4); (0, 5); (1, 5); (2, 5)]
  | _ => False end.
Proof. vm_compute. repeat split. Qed.

(** With an odd number of electrons the boundary cuts a spatial orbital, which then is in
    two spaces; nothing in the constructor rejects it. *)
Theorem C31_odd_electrons_refuted : exists sp, init_spaces true false 3 4 2 2 = Ok sp /\ inactive_idx sp = [0] /\ active_idx sp = [0; 1; 2] /\ num_active_orbs sp = 2 /\ exists p, In p (inactive_idx sp) /\ In p (active_idx sp).
Proof. eexists. split; [vm_compute; reflexivity|]. vm_compute. repeat split. exists 0. auto. Qed.
(** An odd [cas[0]] above the number of electrons passes the parity test, which looks at the
    electrons found, not at those requested. *)
Theorem C31_odd_cas_refuted : exists sp, init_spaces true false 2 3 3 3 = Ok sp /\ active_idx sp = [0; 1; 2] /\ virtual_idx sp = [2] /\ num_active_orbs sp = 2 /\ exists p, In p (active_idx sp) /\ In p (virtual_idx sp).
Proof. eexists. split; [vm_compute; reflexivity|]. vm_compute. repeat split. exists 2. auto 6. Qed.
(** WaveFunctionUCC has no parity test at all. *)
Theorem C31_ucc_parity_refuted : exists sp, init_spaces false false 2 2 1 1 = Ok sp /\ inactive_idx sp = [0] /\ active_idx sp = [0; 1] /\ num_active_orbs sp = 1 /\ num_active_elec_alpha sp = 0.
Proof. eexists. split; [vm_compute; reflexivity|]. vm_compute. repeat split. Qed.

(** C64.  The perfect-pairing determinant. *)
Lemma ones_count s : ones s = Z.of_nat (count_occ bool_dec s true).
Proof. unfold ones. f_equal. induction s as [|[] s IH]; cbn; auto. Qed.
Lemma double_interleave s : double s = interleave s s.
Proof. induction s as [|b s IH]; [reflexivity|]. cbn [double flat_map app interleave]. unfold double in IH. now rewrite IH. Qed.
Lemma reference_key o e s : (0 < o)%nat -> length s = o -> count_occ bool_dec s true = e ->
  exists ci n i, get_indexing o (Z.of_nat e) (Z.of_nat e) = Ok ci /\ int2 (double s) = Ok n /\ lookup n (det2idx ci) = Some i /\ nth_error (idx2det ci) i = Some n.
Proof.
  intros Ho Hs Hc. destruct (get_indexing_spec o (Z.of_nat e) (Z.of_nat e) Ho) as (ci & E & (_ & _ & HL) & HI). exists ci, (toN (s, s)).
  assert (In (toN (s, s)) (idx2det ci)) as Hin.
  { rewrite HI. apply in_map. apply get_indexing_pairs. rewrite ones_count, Hc. auto. }
  destruct (In_nth_error _ _ Hin) as [i Hi]. exists i. split; [exact E|]. split; [|split; [now apply HL|exact Hi]].
  rewrite double_interleave. apply (int2_ok (s, s)). split; [reflexivity|]. cbn [fst]. intros ->. cbn in Hs. lia.
Qed.
Definition pp_string (k m : nat) (b : bool) : list bool := concat (repeat [true; false] k) ++ repeat b m.
Lemma pp_string_double k m b : double (pp_string k m b) = concat (repeat [true; true; false; false] k) ++ repeat b (2 * m).
Proof.
  unfold pp_string. rewrite double_app, double_repeat. f_equal. induction k as [|k IH]; [reflexivity|]. cbn [repeat concat]. rewrite double_app, IH. reflexivity.
Qed.
(** The loop always ends, its result always passes the check (so that ValueError is
    unreachable), and it is a closed-shell determinant: occupied/empty orbital pairs, then a
    tail that is full or empty. *)
Theorem C64_pp_valid (e o fuel : nat) : (e <= o)%nat -> (2 * o <= fuel)%nat ->
  exists k m b, pp_det fuel (2 * Z.of_nat e) (2 * Z.of_nat o) = Ok (double (pp_string k m b)) /\
    length (pp_string k m b) = o /\ count_occ bool_dec (pp_string k m b) true = e /\ ((0 < m)%nat -> k = if b then (o - e)%nat else e).
Proof.
  intros H1 H2. destruct (pp_det_shape e o fuel H1 H2) as (k & b & m & E & Ho & He). exists k, m, b. rewrite pp_string_double. split; [exact E|].
  assert (length (double (pp_string k m b)) = 2 * o)%nat as HL by (rewrite pp_string_double, app_length, length_pp, repeat_length; lia). rewrite double_length in HL.
  assert (count_occ bool_dec (pp_string k m b) true = e) as HC.
  { unfold pp_string. rewrite count_occ_app, count_repeat. assert (count_occ bool_dec (concat (repeat [true; false] k)) true = k) as -> by (clear; induction k as [|k IH]; [reflexivity|]; cbn [repeat concat]; rewrite count_occ_app, IH; reflexivity). destruct b; lia. }
  split; [lia|]. split; [exact HC|]. intros _. destruct b; lia.
Qed.
Example C64_pp_valid_case : pp_det 12 4 12 = Ok (double (pp_string 2 2 false)) /\ pp_det 8 6 8 = Ok (double (pp_string 1 2 true)).
Proof. split; reflexivity. Qed.
(** Both reference determinants are keys of the determinant index, so exactly one
    coefficient of the reference is set. *)
Theorem C64_reference_indexed (e o fuel : nat) : (0 < o)%nat -> (e <= o)%nat -> (2 * o <= fuel)%nat ->
  exists ci p h np nh ip ih, get_indexing o (Z.of_nat e) (Z.of_nat e) = Ok ci /\
    pp_det fuel (2 * Z.of_nat e) (2 * Z.of_nat o) = Ok p /\ int2 p = Ok np /\ lookup np (det2idx ci) = Some ip /\ nth_error (idx2det ci) ip = Some np /\
    hf_det (2 * Z.of_nat e) (2 * Z.of_nat o) = h /\ int2 h = Ok nh /\ lookup nh (det2idx ci) = Some ih /\ nth_error (idx2det ci) ih = Some nh.
Proof.
  intros Ho He Hf. destruct (C64_pp_valid e o fuel He Hf) as (k & m & b & E & HL & HC & _).
  destruct (reference_key o e _ Ho HL HC) as (ci & np & ip & G & A1 & A2 & A3).
  assert (hf_det (2 * Z.of_nat e) (2 * Z.of_nat o) = double (repeat true e ++ repeat false (o - e))) as HF.
  { unfold hf_det. rewrite double_app, !double_repeat. f_equal; f_equal; lia. }
  destruct (reference_key o e (repeat true e ++ repeat false (o - e)) Ho) as (ci' & nh & ih & G' & B1 & B2 & B3).
  { rewrite app_length, !repeat_length. lia. }
  { rewrite count_occ_app, !count_repeat. lia. }
  assert (ci' = ci) as -> by congruence. rewrite HF. exists ci, (double (pp_string k m b)), (double (repeat true e ++ repeat false (o - e))), np, nh, ip, ih. auto 12.
Qed.
(** The orbital exchange.  It permutes the active columns of the coefficient matrix by an
    involution and leaves every other column alone, and afterwards the positions occupied in
    the perfect-pairing determinant hold exactly the columns that were occupied in the
    Hartree-Fock determinant: the reference keeps its physical orbitals. *)
Theorem C64_orbital_exchange {A} (d : A) (nin e o fuel : nat) (cols : list A) : (e <= o)%nat -> (2 * o <= fuel)%nat -> (nin + o <= length cols)%nat ->
  exists p, pp_det fuel (2 * Z.of_nat e) (2 * Z.of_nat o) = Ok p /\
  let new := pp_mo_coeffs d (Z.of_nat nin) (hf_det (2 * Z.of_nat e) (2 * Z.of_nat o)) p cols in
  length new = length cols /\ (forall k, (k < nin \/ nin + o <= k)%nat -> nth k new d = nth k cols d) /\
  exists pi : nat -> nat, (forall i, (i < o)%nat -> (pi i < o)%nat /\ pi (pi i) = i) /\ (forall i, (i < o)%nat -> nth (nin + i) new d = nth (nin + pi i) cols d) /\
    (forall i, (i < o)%nat -> (nth (2 * i) p false = true <-> (pi i < e)%nat) /\ (nth (2 * i + 1) p false = true <-> (pi i < e)%nat)).
Proof.
  intros He Hf Hc. destruct (C64_pp_valid e o fuel He Hf) as (k & m & b & E & HL & HC & _). set (s := pp_string k m b) in *. exists (double s). split; [exact E|].
  assert (hf_det (2 * Z.of_nat e) (2 * Z.of_nat o) = double (repeat true e ++ repeat false (o - e))) as ->.
  { unfold hf_det. rewrite double_app, !double_repeat. f_equal; f_equal; lia. }
  destruct (pp_columns d nin e o s cols HL HC Hc) as (pi & P1 & P2 & P3 & P4 & P5). cbv zeta in *. split; [exact P3|]. split; [exact P5|]. exists pi. split; [exact P1|]. split; [exact P4|].
  assert (forall (t : list bool) i, nth (2 * i) (double t) false = nth i t false /\ nth (2 * i + 1) (double t) false = nth i t false) as D.
  { induction t as [|x t IH]; intros [|i]; cbn [double flat_map app]; try (split; reflexivity).
    destruct (IH i) as [I1 I2]. replace (2 * S i)%nat with (S (S (2 * i))) by lia. replace (S (S (2 * i)) + 1)%nat with (S (S (2 * i + 1))) by lia. cbn [nth]. auto. }
  intros i Hi. destruct (D s i) as [-> ->]. rewrite (P2 i Hi), Nat.ltb_lt. tauto.
Qed.
Example C64_orbital_exchange_case : pp_mo_coeffs 0 1 (hf_det 4 8) [true; true; false; false; true; true; false; false] [10; 11; 12; 13; 14; 15] = [10; 11; 13; 12; 14; 15].
Proof. reflexivity. Qed.

Print Assumptions C31_spin_partition.
Print Assumptions C31_spatial_partition.
Print Assumptions C31_shifted.
Print Assumptions C31_requested_size.
Print Assumptions C31_pairs.
Print Assumptions C31_hf_like.
Print Assumptions C31_odd_electrons_refuted.
Print Assumptions C31_odd_cas_refuted.
Print Assumptions C31_ucc_parity_refuted.
Print Assumptions C64_pp_valid.
Print Assumptions C64_reference_indexed.
Print Assumptions C64_orbital_exchange.
