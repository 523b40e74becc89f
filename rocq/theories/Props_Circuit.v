(** C44-C46, C61, C62: orbital reordering, reference circuits, excitation
    circuits, and the circuit of a whole ansatz against the state-vector code. *)
From Coq Require Import List Bool Arith NArith ZArith Reals Lra Lia Ring QArith Qcanon.
From Verif Require Import Base RRing Fock FockMore FermiModel FermiProofs FermiAlgebra OperatorsModel OperatorsProofs
  OperatorsGen OperatorsKeys CIModel CIProofs StateModel StateBits StateProofs StateMore Props_State
  SaPoly GateAlgebra UPSModel UPSProofs UPSSingle UPSState UPSAnsatz Props_UPS StructModel StructInv
  CliqueModel QubitModel QubitProofs QubitCirc QubitRef QubitDouble CircuitModel CircuitProofs Props_Qubit.
Import ListNotations.
Local Close Scope Q_scope. Local Close Scope Qc_scope.
Local Open Scope nat_scope.

(** ** C44 *)

(** [f2q] is a bijection of [0, 2n): spin up orbitals to the first half, spin
    down to the second, in the order of the spatial orbitals. *)
Theorem C44_f2q_bijection n :
  (forall p, p < 2 * n -> f2q p n < 2 * n) /\
  (forall p q, p < 2 * n -> q < 2 * n -> f2q p n = f2q q n -> p = q) /\
  (forall q, q < 2 * n -> exists p, p < 2 * n /\ f2q p n = q) /\
  (forall r, f2q (2 * r) n = r /\ f2q (2 * r + 1) n = n + r).
Proof.
  split; [|split; [|split]].
  - intros p Hp. now apply f2q_lt.
  - intros p q Hp Hq E. rewrite <- (q2f_f2q p n Hp), E. now apply q2f_f2q.
  - intros q Hq. exists (q2f q n). destruct (f2q_q2f q n Hq). auto.
  - intros r. rewrite f2q_even, f2q_odd. lia.
Qed.

(** Determinants of a register of [m] qubits. *)
Definition register (m : nat) (e : N) : Prop := forall q, m <= q -> occ e q = false.

Lemma appstr_low {K} {C : CRing K} m s (f g : amps (K:=K)) : (forall x, register m x -> f x = g x) -> (forall o, In o s -> fst o < m) ->
  forall e, register m e -> appstr s f e = appstr s g e.
Proof.
  intros H. induction s as [|[p b] s IH]; intros Hs e He; [now apply H|]. cbn [appstr]. unfold app1. cbn [fst snd].
  destruct (Bool.eqb (occ e p) b); [|reflexivity]. f_equal. apply IH; [intros o Ho; apply Hs; now right|].
  intros q Hq. rewrite occ_flip_other; [now apply He|]. specialize (Hs (p, b) (or_introl eq_refl)). cbn in Hs. lia.
Qed.

Lemma sign_toblock n det D : List.length det = 2 * n -> blocked n det D ->
  get_reordering_sign det = if bsign n D then (-1)%Z else 1%Z.
Proof.
  intros Hl [H1 H2]. rewrite (dlist_of det n Hl) at 1. rewrite reordering_sign_eq. unfold bsign.
  rewrite (rs_ext _ (fun r => occ D r) _ (fun r => occ D (r + n))); [reflexivity|].
  intros q Hq. rewrite <- (H1 (2 * q)), <- (H1 (2 * q + 1)) by lia. rewrite f2q_even, f2q_odd. auto.
Qed.

Lemma rs_false r m : rs (fun _ => false) (fun _ => false) r m = false.
Proof. revert r. induction m as [|m IH]; intros r; [reflexivity|]. cbn [rs andb xorb]. now rewrite IH. Qed.

(** Creating the electrons of [det] in the interleaved order of its spin orbitals
    (each orbital placed on its qubit) is [get_reordering_sign det] times creating
    them in the order of the qubits. *)
Theorem C44_reordering_sign n det e : List.length det = 2 * n -> register (2 * n) e ->
  let interleaved := map (fun p => (f2q p n, true)) (filter (fun p => nth p det false) (seq 0 (2 * n))) in
  let qubit_order := map (fun q => (q, true))
     (filter (fun q => existsb (fun p => (f2q p n =? q) && nth p det false) (seq 0 (2 * n))) (seq 0 (2 * n))) in
  appstr (K:=Z) interleaved (basis 0%N) e = (get_reordering_sign det * appstr (K:=Z) qubit_order (basis 0%N) e)%Z.
Proof.
  intros Hl He interleaved qubit_order.
  set (D := from_occ (2 * n) (fun q => nth (q2f q n) det false)). pose proof (blocked_exists n det) as HB. fold D in HB.
  assert (Hq : appstr (K:=Z) qubit_order (basis 0%N) e = basis D e).
  { transitivity (appstr (K:=Z) (crea (fun q => nth (q2f q n) det false) 0 (2 * n)) (basis 0%N) e).
    - unfold qubit_order, crea. f_equal. f_equal. apply filter_ext_in. intros q Hq. apply in_seq in Hq.
      destruct (f2q_q2f q n ltac:(lia)) as [E Hp]. apply eq_true_iff_eq. rewrite existsb_exists. split.
      + intros (p & Hp' & Ep). apply andb_true_iff in Ep as [Ep Hn]. apply Nat.eqb_eq in Ep. apply in_seq in Hp'.
        rewrite <- Ep, q2f_f2q by lia. exact Hn.
      + intros Hn. exists (q2f q n). rewrite in_seq, E, Nat.eqb_refl. split; [lia|exact Hn].
    - rewrite (crea_basis _ (2 * n) 0 (2 * n) eq_refl). unfold D. f_equal. }
  rewrite Hq, (sign_toblock n det D Hl HB).
  assert (Hi : appstr (K:=Z) interleaved (basis 0%N) e = toblock n (appstr (K:=Z) (crea (fun p => nth p det false) 0 (2 * n)) (basis 0%N)) e).
  { rewrite toblock_appstr.
    - unfold crea. rewrite map_map. cbn [fst snd]. apply (appstr_low (2 * n)); [| |exact He].
      + intros x Hx. unfold toblock. unfold basis. destruct (N.eqb_spec 0 x) as [<-|Hne].
        * assert (unblock n 0%N = 0%N) as ->.
          { apply det_ext. intros q. unfold unblock. rewrite occ_from, !occ_zero. apply andb_false_r. }
          assert (bsign n 0%N = false) as ->; [|reflexivity].
          unfold bsign. rewrite (rs_ext _ (fun _ => false) _ (fun _ => false)) by (intros; rewrite !occ_zero; auto).
          apply rs_false.
        * destruct (N.eqb_spec 0 (unblock n x)) as [E|_]; [|now destruct (bsign n x)]. exfalso. apply Hne. apply det_ext. intros q. rewrite occ_zero.
          destruct (Nat.lt_ge_cases q (2 * n)) as [Hqn|Hqn]; [|now rewrite Hx]. destruct (f2q_q2f q n Hqn) as [Eq Hp].
          rewrite <- Eq. rewrite <- occ_unblock by exact Hp. now rewrite <- E, occ_zero.
      + intros o Ho. apply in_map_iff in Ho as (p & <- & Hp). apply filter_In in Hp as [Hp _]. apply in_seq in Hp. cbn [fst]. apply f2q_lt. lia.
    - intros o Ho. unfold crea in Ho. apply in_map_iff in Ho as (p & <- & Hp). apply filter_In in Hp as [Hp _]. apply in_seq in Hp. cbn. lia. }
  rewrite Hi. unfold toblock at 1.
  rewrite (crea_basis _ (2 * n) 0 (2 * n) eq_refl).
  assert (basis (K:=Z) (from_occ (2 * n) (fun q => (0 <=? q) && nth q det false)) (unblock n e) = basis D e) as ->.
  { unfold basis. destruct (N.eqb_spec D e) as [<-|Hne].
    - assert (from_occ (2 * n) (fun q => (0 <=? q) && nth q det false) = unblock n D) as ->; [|now rewrite N.eqb_refl].
      apply det_ext. intros q. rewrite occ_from. destruct (Nat.ltb_spec q (2 * n)) as [Hqn|Hqn].
      + rewrite occ_unblock by exact Hqn. now rewrite (proj1 HB) by exact Hqn.
      + unfold unblock. rewrite occ_from. apply Nat.ltb_ge in Hqn as ->. reflexivity.
    - destruct (N.eqb_spec (from_occ (2 * n) (fun q => (0 <=? q) && nth q det false)) (unblock n e)) as [E|_]; [|reflexivity].
      exfalso. apply Hne. apply (blocked_unique n det); [exact HB|]. split; [|exact He]. intros p Hp.
      rewrite <- occ_unblock, <- E, occ_from by exact Hp. apply Nat.ltb_lt in Hp as ->. reflexivity. }
  unfold basis. destruct (N.eqb_spec D e) as [<-|_].
  - destruct (bsign n D); reflexivity.
  - destruct (bsign n e), (bsign n D); reflexivity.
Qed.

(** The sign makes the relabelling of orbitals compatible with every operator:
    amplitudes are moved to the blocked determinant and multiplied by the sign;
    operators are relabelled with [f2q]. *)
Definition reorder {K} {C : CRing K} (n : nat) (psi : amps (K:=K)) : amps := fun D =>
  let det := map (fun p => occ D (f2q p n)) (seq 0 (2 * n)) in
  let a := psi (fold_left (fun x p => if nth p det false then flip x p else x) (seq 0 (2 * n)) 0%N) in
  if (get_reordering_sign det =? 1)%Z then a else ropp a.

Lemma fold_flip_occ (f : nat -> bool) m q : occ (fold_left (fun x p => if f p then flip x p else x) (seq 0 m) 0%N) q = (q <? m) && f q.
Proof.
  induction m as [|m IH]; [apply occ_zero|]. rewrite seq_S, fold_left_app. cbn [fold_left Nat.add].
  destruct (f m) eqn:Ef.
  - destruct (Nat.eq_dec q m) as [->|Hq].
    + rewrite occ_flip_same, IH, Ef, Nat.ltb_irrefl. cbn [andb negb]. destruct (Nat.ltb_spec m (S m)); [reflexivity|lia].
    + rewrite occ_flip_other, IH by auto. destruct (Nat.ltb_spec q m), (Nat.ltb_spec q (S m)); try lia; reflexivity.
  - rewrite IH. destruct (Nat.eq_dec q m) as [->|Hq]; [rewrite Ef, !andb_false_r; reflexivity|].
    destruct (Nat.ltb_spec q m), (Nat.ltb_spec q (S m)); try lia; reflexivity.
Qed.
Lemma nth_map_seq {A} (f : nat -> A) d m p : p < m -> nth p (map f (seq 0 m)) d = f p.
Proof. intros H. rewrite (nth_indep _ d (f 0)) by (rewrite map_length, seq_length; lia). rewrite map_nth, seq_nth by lia. reflexivity. Qed.
Lemma reorder_toblock {K} {C : CRing K} n (psi : amps (K:=K)) D : reorder n psi D = toblock n psi D.
Proof.
  unfold reorder, toblock. set (det := map (fun p => occ D (f2q p n)) (seq 0 (2 * n))).
  assert (fold_left (fun x p => if nth p det false then flip x p else x) (seq 0 (2 * n)) 0%N = unblock n D) as ->.
  { apply det_ext. intros q. rewrite (fold_flip_occ (fun p => nth p det false)). unfold unblock. rewrite occ_from.
    destruct (Nat.ltb_spec q (2 * n)) as [Hq|Hq]; [|reflexivity]. cbn [andb]. unfold det. now rewrite nth_map_seq. }
  assert (get_reordering_sign det = if bsign n D then (-1)%Z else 1%Z) as ->.
  { assert (det = dlist (fun r => occ D r) (fun r => occ D (r + n)) 0 n) as ->.
    { assert (List.length det = 2 * n) as Hl by (unfold det; now rewrite map_length, seq_length).
      rewrite (dlist_of det n Hl) at 1.
      assert (forall a a' b b' r m, (forall q, r <= q < r + m -> a q = a' q /\ b q = b' q) -> dlist a b r m = dlist a' b' r m) as G.
      { intros a a' b b' r m. revert r. induction m as [|m IH]; intros r H; [reflexivity|]. cbn [dlist]. destruct (H r ltac:(lia)) as [-> ->].
        rewrite IH; [reflexivity|]. intros q Hq. apply H. lia. }
      apply G. intros q Hq. unfold det. rewrite !nth_map_seq by lia. rewrite f2q_even, f2q_odd. auto. }
    rewrite reordering_sign_eq. reflexivity. }
  destruct (bsign n D); reflexivity.
Qed.
Theorem C44_reordering_intertwines {K} {C : CRing K} n (A : list (fstring * K)) psi D :
  (forall s c o, In (s, c) A -> In o s -> fst o < 2 * n) ->
  reorder n (opapp A psi) D = opapp (map (fun sc => (map (fun o => (f2q (fst o) n, snd o)) (fst sc), snd sc)) A) (reorder n psi) D.
Proof.
  intros H. rewrite reorder_toblock, toblock_opapp by exact H. apply opapp_ext. intros x. symmetry. apply reorder_toblock.
Qed.
Example C44_example :
  get_reordering_sign [true; true; true; true] = (-1)%Z /\ get_reordering_sign [true; true; true; false] = (-1)%Z /\
  get_reordering_sign [true; false; true; true] = 1%Z /\
  map (fun p => f2q p 3) (seq 0 6) = [0; 3; 1; 4; 2; 5].
Proof. vm_compute. auto. Qed.

(** ** C45 *)
Definition electrons (det : list bool) : nat := List.length (filter (fun b => b) det).

(** The circuit of [get_determinant_reference] prepares the blocked determinant;
    other mappers raise TypeError. *)
Theorem C45_determinant_reference {K} {C : CRing K} s2 n det D m : List.length det = 2 * n -> blocked n det D ->
  match get_determinant_reference (K:=K) det n m with
  | Ok c => m = JordanWigner /\ forall x, run s2 c zero_state x = basis D x
  | Raise TypeError => m <> JordanWigner
  | _ => False
  end.
Proof.
  intros Hl HD. unfold get_determinant_reference. destruct m; try discriminate. split; [reflexivity|].
  intros x. rewrite (run_x_gates s2 n det D) by assumption. apply zero_lxor.
Qed.

Lemma electrons_subset a b : List.length a = List.length b -> (forall p, nth p b false = true -> nth p a false = true) ->
  electrons a = electrons b -> a = b.
Proof.
  unfold electrons. revert b. induction a as [|x a IH]; intros [|y b] Hl H He; try discriminate; [reflexivity|].
  assert (forall p, nth p b false = true -> nth p a false = true) as Hs by (intros p; apply (H (S p))).
  assert (List.length (filter (fun b => b) b) <= List.length (filter (fun b => b) a)) as Hle.
  { assert (Hl' : List.length a = List.length b) by (cbn in Hl; lia). clear - Hs Hl'. revert b Hl' Hs. induction a as [|u a IH]; intros [|v b] Hl Hs; try discriminate; [reflexivity|].
    cbn [filter]. pose proof (IH b ltac:(cbn in Hl; lia) (fun p => Hs (S p))). pose proof (Hs 0) as H0. cbn in H0. destruct u, v; cbn [List.length]; try lia; discriminate (H0 eq_refl). }
  pose proof (H 0) as H0. cbn in H0. cbn [filter] in He. destruct x, y; cbn [List.length] in *.
  - f_equal. apply IH; auto; lia.
  - exfalso. lia.
  - discriminate (H0 eq_refl).
  - f_equal. apply IH; auto; lia.
Qed.

(** The superposition circuit: success with the equal superposition of the two
    determinants, or ValueError exactly when the second has no orbital that the
    first lacks; two different determinants of the same number of electrons
    always succeed. *)
Theorem C45_superposition {K} {C : CRing K} s2 n det1 det2 D1 D2 m :
  List.length det1 = 2 * n -> List.length det2 = 2 * n -> blocked n det1 D1 -> blocked n det2 D2 ->
  match get_determinant_superposition_reference (K:=K) det1 det2 n m with
  | Ok c => m = JordanWigner /\ (exists p, nth p det2 false = true /\ nth p det1 false = false) /\
            forall x, run s2 c zero_state x = rmul (cre s2) (radd (basis D1 x) (basis D2 x))
  | Raise ValueError => m = JordanWigner /\ forall p, nth p det2 false = true -> nth p det1 false = true
  | Raise TypeError => m <> JordanWigner
  | _ => False
  end.
Proof.
  intros H1 H2 B1 B2. pose proof (superposition_spec (K:=K) s2 n det1 det2 D1 D2 H1 H2 B1 B2) as H.
  pose proof (hadamard_spec n det1 det2 H1 H2) as Hh.
  unfold get_determinant_superposition_reference in *. destruct m; try discriminate.
  destruct (hadamard_index det1 det2 n); [|auto]. destruct Hh as (p & _ & _ & Ha & Hb). eauto.
Qed.
Theorem C45_same_electrons {K} {C : CRing K} s2 n det1 det2 D1 D2 :
  List.length det1 = 2 * n -> List.length det2 = 2 * n -> blocked n det1 D1 -> blocked n det2 D2 ->
  electrons det1 = electrons det2 -> det1 <> det2 ->
  exists c, get_determinant_superposition_reference (K:=K) det1 det2 n JordanWigner = Ok c /\
    forall x, run s2 c zero_state x = rmul (cre s2) (radd (basis D1 x) (basis D2 x)).
Proof.
  intros H1 H2 B1 B2 He Hne. pose proof (C45_superposition (K:=K) s2 n det1 det2 D1 D2 JordanWigner H1 H2 B1 B2) as H.
  destruct (get_determinant_superposition_reference det1 det2 n JordanWigner) as [c|e|].
  - exists c. split; [reflexivity|apply H].
  - exfalso. destruct e; try contradiction; try (destruct H; congruence); try congruence.
    destruct H as [_ H]. apply Hne. apply electrons_subset; auto. lia.
  - contradiction.
Qed.
(** The circuit used for the calibration of the read-out: the same entangling
    gates without the determinant and the Hadamard gate, a permutation of the
    register that leaves |0...0> alone. *)
Theorem C45_MAnsatz0 {K} {C : CRing K} s2 n det1 det2 D1 D2 m :
  List.length det1 = 2 * n -> List.length det2 = 2 * n -> blocked n det1 D1 -> blocked n det2 D2 ->
  match get_determinant_superposition_reference_MAnsatz0 (K:=K) det1 det2 n m with
  | Ok c => m = JordanWigner /\ (forall x, run s2 c zero_state x = zero_state x) /\
      exists h, occ D1 h = false /\ occ D2 h = true /\
      forall psi x, run s2 c psi x = psi (if occ x h then flip (N.lxor x (N.lxor D1 D2)) h else x)
  | Raise ValueError => m = JordanWigner /\ forall p, nth p det2 false = true -> nth p det1 false = true
  | Raise TypeError => m <> JordanWigner
  | _ => False
  end.
Proof.
  intros H1 H2 B1 B2. pose proof (hadamard_spec n det1 det2 H1 H2) as Hh.
  unfold get_determinant_superposition_reference_MAnsatz0. destruct m; try discriminate.
  destruct (hadamard_index det1 det2 n) as [h|]; [|auto]. destruct Hh as (p & Hp & -> & Ha & Hb). split; [reflexivity|].
  assert (occ D1 (f2q p n) = false) as O1 by (rewrite (proj1 B1) by exact Hp; exact Ha).
  assert (occ D2 (f2q p n) = true) as O2 by (rewrite (proj1 B2) by exact Hp; exact Hb).
  assert (forall psi x, run s2 (cx_gates (K:=K) (f2q p n) det1 det2 n) psi x = psi (if occ x (f2q p n) then flip (N.lxor x (N.lxor D1 D2)) (f2q p n) else x)) as Hr.
  { intros psi x. apply run_cx_gates'; auto. now apply f2q_lt. now rewrite O1, O2. }
  split; [|exists (f2q p n); auto].
  intros x. rewrite Hr. destruct (occ x (f2q p n)) eqn:Ex; [|reflexivity]. unfold zero_state.
  destruct (N.eqb_spec x 0) as [->|Hx]; [rewrite occ_zero in Ex; discriminate|].
  destruct (N.eqb_spec (flip (N.lxor x (N.lxor D1 D2)) (f2q p n)) 0) as [E|_]; [|reflexivity].
  exfalso. assert (occ (flip (N.lxor x (N.lxor D1 D2)) (f2q p n)) (f2q p n) = true) as Ho.
  { rewrite occ_flip_same, !occ_lxor, Ex, O1, O2. reflexivity. }
  rewrite E, occ_zero in Ho. discriminate.
Qed.
Example C45_example : exists c, get_determinant_superposition_reference (K:=q2) [true; false; true; false] [true; true; false; false] 2 JordanWigner = Ok c /\
  map (fun x => run q2s c zero_state x) [3; 5; 1; 0]%N = [cre q2s; cre q2s; cre rO; cre rO].
Proof. eexists. split; [reflexivity|]. vm_compute. repeat f_equal; apply Qc_is_canon; reflexivity. Qed.

(** ** C46 *)
Local Open Scope R_scope.

Lemma gen1_lit k i : [([(k, true); (i, false)], 1); ([(i, true); (k, false)], - 1)] = gen1 (K:=R) k i.
Proof. unfold gen1. cbn [ropp rI R_CRing]. repeat f_equal; ring. Qed.
Lemma gen2_lit k l i j : [([(k, true); (l, true); (j, false); (i, false)], 1); ([(i, true); (j, true); (l, false); (k, false)], - 1)] = gen2 (K:=R) k l i j.
Proof. unfold gen2. cbn [ropp rI R_CRing]. repeat f_equal; ring. Qed.
(** The efficient single-excitation circuit, with the rotation angles of the
    code, acts on every state as the exponential of
    [theta (a+_k a_i - a+_i a_k)] (orbitals taken to their qubits), and is refused
    exactly when the qubit of [k] is not above that of [i]. *)
Theorem C46_single_excitation (theta : R) (k i num_orbs : nat) :
  match single_excitation_efficient (cos (theta / 2)) (sin (theta / 2)) (cos (PI / 4)) (sin (PI / 4)) k i num_orbs with
  | Ok c => let K := f2q k num_orbs in let I := f2q i num_orbs in (I < K)%nat /\
      forall psi : qstate (K:=R),
        is_exp theta [([(K, true); (I, false)], 1); ([(I, true); (K, false)], - 1)] psi (run (/ sqrt 2) c psi)
  | Raise ValueError => (f2q k num_orbs <= f2q i num_orbs)%nat
  | _ => False
  end.
Proof.
  pose proof (single_circ k i num_orbs theta) as H. destruct (single_excitation_efficient _ _ _ _ _ _ _) as [c|e|]; [|exact H|exact H].
  destruct H as [H1 H2]. split; [exact H1|]. intros psi. rewrite gen1_lit. apply closed_is_exp.
  - apply gen1_cubeR. lia.
  - apply H2.
Qed.

(** The spin-adapted single excitation: the exponentials of the spin-up and then
    of the spin-down excitation, each with the full angle [theta].  (The docstring
    announces [theta / sqrt 2]; see [C46_sa_single_docstring_refuted].) *)
Theorem C46_sa_single_excitation (theta : R) (k i num_orbs : nat) : (k < num_orbs)%nat -> (i < num_orbs)%nat ->
  match sa_single_excitation_efficient (cos (theta / 2)) (sin (theta / 2)) (cos (PI / 4)) (sin (PI / 4)) k i num_orbs with
  | Ok c => (i < k)%nat /\ forall psi : qstate (K:=R), exists phi,
      is_exp theta [([(k, true); (i, false)], 1); ([(i, true); (k, false)], - 1)] psi phi /\
      is_exp theta [([((num_orbs + k)%nat, true); ((num_orbs + i)%nat, false)], 1); ([((num_orbs + i)%nat, true); ((num_orbs + k)%nat, false)], - 1)] phi (run (/ sqrt 2) c psi)
  | Raise ValueError => (k <= i)%nat
  | _ => False
  end.
Proof.
  intros Hk Hi. unfold sa_single_excitation_efficient.
  pose proof (single_circ (2 * k) (2 * i) num_orbs theta) as H1. pose proof (single_circ (2 * k + 1) (2 * i + 1) num_orbs theta) as H2.
  destruct (single_excitation_efficient _ _ _ _ (2 * k) (2 * i) num_orbs) as [c1|e|]; cbn [bind]; [|destruct e; try contradiction; rewrite !f2q_even in H1; exact H1|exact H1].
  destruct (single_excitation_efficient _ _ _ _ (2 * k + 1) (2 * i + 1) num_orbs) as [c2|e|]; cbn [bind]; [|destruct e; try contradiction; rewrite !f2q_odd in H2; lia|exact H2].
  destruct H1 as [L1 H1], H2 as [L2 H2]. rewrite !f2q_even in *. rewrite !f2q_odd in *. split; [lia|]. intros psi. exists (run (/ sqrt 2) c1 psi). split.
  - rewrite gen1_lit. apply closed_is_exp; [apply gen1_cubeR; lia|]. intros x. apply H1.
  - rewrite (Nat.add_comm num_orbs k), (Nat.add_comm num_orbs i).
    rewrite gen1_lit. apply closed_is_exp; [apply gen1_cubeR; lia|]. intros x. rewrite run_app'. apply H2.
Qed.
(** One spin-up electron in orbital [i] keeps the amplitude [cos theta]; the
    docstring's exponential would give [cos (theta / sqrt 2)]. *)
Theorem C46_sa_single_docstring_refuted (k i num_orbs : nat) : (i < k)%nat -> (k < num_orbs)%nat ->
  exists theta psi c phi phi', sa_single_excitation_efficient (cos (theta / 2)) (sin (theta / 2)) (cos (PI / 4)) (sin (PI / 4)) k i num_orbs = Ok c /\
    is_exp (theta / sqrt 2) [([(k, true); (i, false)], 1); ([(i, true); (k, false)], - 1)] psi phi /\
    is_exp (theta / sqrt 2) [([((num_orbs + k)%nat, true); ((num_orbs + i)%nat, false)], 1); ([((num_orbs + i)%nat, true); ((num_orbs + k)%nat, false)], - 1)] phi phi' /\
    exists x, run (/ sqrt 2) c psi x <> phi' x.
Proof.
  intros Hik Hk. set (x0 := flip 0%N i). set (psi := fun x : N => if N.eqb x x0 then cre (K:=R) 1 else cre 0).
  assert (O : forall q, occ x0 q = (q =? i)%nat).
  { intros q. unfold x0. destruct (Nat.eqb_spec q i) as [->|Hq]; [rewrite occ_flip_same|rewrite occ_flip_other by auto]; now rewrite occ_zero. }
  assert (S1 : forall ct st, closed (K:=R) ct st (gen1 k i) psi x0 = cre ct).
  { intros ct st. rewrite closed1_eq by assumption. rewrite !O, Nat.eqb_refl. assert ((k =? i)%nat = false) as -> by (apply Nat.eqb_neq; lia). cbn [Bool.eqb].
    unfold psi at 1 2. rewrite N.eqb_refl. destruct (N.eqb_spec (flip (flip x0 k) i) x0) as [E|_].
    - exfalso. assert (occ (flip (flip x0 k) i) i = occ x0 i) as E' by now rewrite E. rewrite occ_flip_same, occ_flip_other in E' by lia. destruct (occ x0 i); discriminate.
    - cbn [negb sgn]. destruct (par x0 (i + 1) (k - i - 1)); apply injective_projections; cbn; ring. }
  assert (S2 : forall ct st phi, closed (K:=R) ct st (gen1 (k + num_orbs) (i + num_orbs)) phi x0 = phi x0).
  { intros ct st phi. rewrite closed1_eq by lia. rewrite !O. assert ((k + num_orbs =? i)%nat = false) as -> by (apply Nat.eqb_neq; lia).
    assert ((i + num_orbs =? i)%nat = false) as -> by (apply Nat.eqb_neq; lia). reflexivity. }
  pose proof (C46_sa_single_excitation PI k i num_orbs Hk ltac:(lia)) as H0.
  pose proof (single_circ (2 * k) (2 * i) num_orbs PI) as H1. pose proof (single_circ (2 * k + 1) (2 * i + 1) num_orbs PI) as H2.
  unfold sa_single_excitation_efficient in *.
  destruct (single_excitation_efficient _ _ _ _ (2 * k) (2 * i) num_orbs) as [c1|e|] eqn:E1; [|destruct e; try contradiction; rewrite !f2q_even in H1; lia|contradiction]. cbn [bind] in *.
  destruct (single_excitation_efficient _ _ _ _ (2 * k + 1) (2 * i + 1) num_orbs) as [c2|e|] eqn:E2; [|destruct e; try contradiction; rewrite !f2q_odd in H2; lia|contradiction]. cbn [bind] in *.
  destruct H1 as [_ H1], H2 as [_ H2]. rewrite !f2q_even in H1. rewrite !f2q_odd in H2.
  set (t := PI / sqrt 2).
  set (phi := closed (cos t) (sin t) (creop (gen1 k i)) psi). set (phi' := closed (cos t) (sin t) (creop (gen1 (k + num_orbs) (i + num_orbs))) phi).
  exists PI, psi, (c1 ++ c2), phi, phi'. split; [rewrite E1; cbn [bind]; rewrite E2; reflexivity|]. split; [|split].
  - rewrite gen1_lit. apply closed_is_exp; [apply gen1_cubeR; lia|reflexivity].
  - rewrite (Nat.add_comm num_orbs k), (Nat.add_comm num_orbs i), gen1_lit. apply closed_is_exp; [apply gen1_cubeR; lia|reflexivity].
  - exists x0. rewrite run_app', H2, <- creop_gen1, S2, H1, <- creop_gen1, S1. unfold phi', phi. rewrite <- !creop_gen1, S2, S1.
    intros E. apply (f_equal fst) in E. cbn [cre fst] in E.
    assert (cos PI < cos t); [|lra]. pose proof PI_RGT_0 as HP. pose proof Rlt_sqrt2_0 as Hs.
    assert (1 < sqrt 2) as Hs1 by (rewrite <- sqrt_1 at 1; apply sqrt_lt_1; lra).
    assert (0 < t) by (unfold t; now apply Rdiv_lt_0_compat). assert (t < PI).
    { unfold t. apply Rmult_lt_reg_r with (sqrt 2); [lra|]. unfold Rdiv. rewrite Rmult_assoc, Rinv_l, Rmult_1_r by lra. nra. }
    apply cos_decreasing_1; lra.
Qed.

Example C46_example : exists c,
  single_excitation_efficient (K:=q2) q2s q2s q2s q2s 2 0 2 = Ok c /\
  map (fun x => run q2s c (fun y => if N.eqb y 1 then cre rI else cre rO) x) [0; 1; 2; 3]%N = [cre rO; cre rO; cre rI; cre rO].
Proof. eexists. split; [reflexivity|]. vm_compute. repeat f_equal; apply Qc_is_canon; reflexivity. Qed.

(** ** C61 *)
Lemma f2q_neq p q n : (p < 2 * n)%nat -> (q < 2 * n)%nat -> p <> q -> f2q p n <> f2q q n.
Proof. intros Hp Hq H E. apply H. now apply (proj1 (proj2 (C44_f2q_bijection n))). Qed.

(** The efficient double-excitation circuit, with the rotation angles of the code,
    acts on every state as the exponential of
    [theta (a+_k a+_l a_j a_i - h.c.)] (orbitals taken to their qubits) for four
    different orbitals, in every ordering of the four qubits; it is refused
    exactly when a creation orbital is not above an annihilation orbital or the
    spins do not balance. *)
Theorem C61_double_excitation (theta : R) (k l i j num_orbs : nat) :
  (k < 2 * num_orbs)%nat -> (l < 2 * num_orbs)%nat -> (i < 2 * num_orbs)%nat -> (j < 2 * num_orbs)%nat -> NoDup [k; l; i; j] ->
  match double_excitation_efficient (cos (theta / 8)) (sin (theta / 8)) k l i j num_orbs with
  | Ok c => (i < k)%nat /\ (j < k)%nat /\ (i < l)%nat /\ (j < l)%nat /\ Nat.even (k + l + i + j) = true /\
      let K := f2q k num_orbs in let L := f2q l num_orbs in let I := f2q i num_orbs in let J := f2q j num_orbs in
      forall psi : qstate (K:=R),
        is_exp theta [([(K, true); (L, true); (J, false); (I, false)], 1); ([(I, true); (J, true); (L, false); (K, false)], - 1)] psi (run (/ sqrt 2) c psi)
  | Raise ValueError => ~ ((i < k)%nat /\ (j < k)%nat /\ (i < l)%nat /\ (j < l)%nat /\ Nat.even (k + l + i + j) = true)
  | _ => False
  end.
Proof.
  intros Hk Hl Hi Hj HN.
  assert (distinct4 k l i j) as HD.
  { clear - HN. repeat match goal with H : NoDup (_ :: _) |- _ => inversion_clear H end. cbn [In] in *. unfold distinct4. intuition congruence. }
  pose proof (double_circ k l i j num_orbs theta HD Hk Hl Hi Hj) as H.
  destruct (double_excitation_efficient _ _ _ _ _ _ _) as [c|e|]; [|exact H|exact H].
  destruct H as (A1 & A2 & A3 & A4 & A5 & H). do 5 (split; [assumption|]). cbv zeta. intros psi. rewrite gen2_lit. apply closed_is_exp.
  - apply gen2_cubeR. clear H. unfold distinct4 in *. repeat split; apply f2q_neq; tauto.
  - apply H.
Qed.
Example C61_example : exists c,
  double_excitation_efficient (K:=q2) q2s q2s 2 3 0 1 2 = Ok c.
Proof. eexists. reflexivity. Qed.

(** When a creation and an annihilation orbital coincide (here [k = j = 2]) the
    code does not refuse, and the circuit is not the exponential: at
    [theta = 2 pi] the exponential is the identity, while the circuit (with
    cosine and sine of [theta / 8 = pi / 4] both [1 / sqrt 2], in the exact field
    Q(sqrt 2)) takes the amplitude of a determinant to zero. *)
Lemma shared_eq (v : vec) x : Tact (K:=R) [(1%nat, true); (4%nat, true); (1%nat, false); (3%nat, false)] v x =
  if occ x 1 then match occ x 3, occ x 4 with
    | false, true => - v (flip (flip x 4) 3)
    | true, false => v (flip (flip x 4) 3)
    | _, _ => 0 end else 0.
Proof.
  unfold Tact. cbn [adjstr map rev app negb fst snd appstr]. unfold app1. cbn [fst snd].
  repeat first [rewrite occ_flip_same | rewrite occ_flip_other by lia | rewrite flip_flip
    | rewrite below_flip_ge by lia | rewrite below_flip_lt by lia].
  assert (flip (flip (flip (flip x 1) 4) 1) 3 = flip (flip x 4) 3) as -> by (rewrite (flip_comm (flip x 1) 4 1), flip_flip; reflexivity).
  assert (flip (flip (flip (flip x 3) 1) 4) 1 = flip (flip x 4) 3) as -> by (rewrite (flip_comm (flip (flip x 3) 1) 4 1), flip_flip; apply flip_comm).
  assert (below x 4 = xorb (below x 3) (occ x 3)) as -> by (cbn [below]; apply xorb_comm).
  destruct (occ x 1), (occ x 3), (occ x 4), (below x 1), (below x 3); cbn; ring.
Qed.
Lemma shared_cube (v : vec) x : let A := gen2 (K:=R) 1 4 3 1 in
  opapp A (opapp A (opapp A v)) x = - opapp A v x.
Proof.
  cbv zeta. set (T := fun w : vec => Tact (K:=R) [(1%nat, true); (4%nat, true); (1%nat, false); (3%nat, false)] w).
  assert (forall w y, opapp (gen2 (K:=R) 1 4 3 1) w y = T w y) as E by (intros; apply gen2_Tact).
  rewrite (opapp_ext _ _ _ (fun y => opapp_ext _ _ _ (fun z => E v z) y)), (opapp_ext _ _ _ (fun y => E (T v) y)), !E.
  unfold T. rewrite !shared_eq. repeat first [rewrite occ_flip_same | rewrite occ_flip_other by lia].
  assert (flip (flip (flip (flip x 4) 3) 4) 3 = x) as -> by (rewrite (flip_comm (flip x 4) 3 4), !flip_flip; reflexivity).
  destruct (occ x 1), (occ x 3), (occ x 4); cbn [negb]; ring.
Qed.
Theorem C61_shared_index_refuted :
  (forall psi, is_exp (2 * PI) [([(1%nat, true); (4%nat, true); (1%nat, false); (3%nat, false)], 1);
                               ([(3%nat, true); (1%nat, true); (4%nat, false); (1%nat, false)], - 1)] psi psi) /\
  map (fun p => f2q p 3) [2; 3; 1; 2]%nat = [1; 4; 3; 1]%nat /\
  exists c, double_excitation_efficient (K:=q2) q2s q2s 2 3 1 2 3 = Ok c /\
    let psi := fun y => if N.eqb y 10 then cre rI else cre rO in
    run q2s c psi 10%N = cre rO /\ psi 10%N <> cre rO.
Proof.
  split; [|split; [reflexivity|]].
  - intros psi. rewrite gen2_lit. apply closed_is_exp; [exact shared_cube|]. intros x.
    unfold closed. rewrite cos_2PI, sin_2PI. apply injective_projections; cbn; ring.
  - eexists. split; [reflexivity|]. split.
    + vm_compute. repeat f_equal; apply Qc_is_canon; reflexivity.
    + intros E. vm_compute in E. discriminate.
Qed.

(** ** C62 *)

(** A state of the active space as a state of the qubit register: amplitudes at
    the reordered determinants with the reordering sign, nothing outside the
    register of [2 n] qubits. *)
Definition encoded (n : nat) (f : amps (K:=R)) : N -> R * R := fun D =>
  if (D <? 2 ^ N.of_nat (2 * n))%N then cre (reorder n f D) else cre 0.
Lemma encoded_enc n f D : encoded n f D = enc n f D.
Proof. unfold encoded, enc, toreg. rewrite reorder_toblock. now destruct (D <? 2 ^ N.of_nat (2 * n))%N. Qed.

Definition circuit_of (struct : ups_struct) (n : nat) (thetas : list R) : Res (list (gate (K:=R)) * list (list nat * nat)) :=
  upslayout2circuit (fun t => (cos (t / 2), sin (t / 2))) (fun t => (cos (t / 8), sin (t / 8))) (cos (PI / 4)) (sin (PI / 4))
    (bound_value 0 (map pname (seq 0 (length thetas))) thetas) struct n.

Section Ansatz.
  Variables (tiny : R -> bool) (sp : space) (th : threads).
  Hypothesis HS : sector tiny sp th.
  Variables (struct : ups_struct) (thetas : list R).
  Notation es := (combine (s_type struct) (s_idx struct)).
  Notation n := (sp_na sp).
  Notation d := (dim (sp_ci sp)).
  Notation kt := (ket (K:=R) (sp_na sp) (sp_ci sp)).
  Hypothesis Hes : List.Forall (fun e => gate_ok n 0 e /\ NoDup (snd e)) es.
  Hypothesis Hth : length thetas = length es.
  Hypothesis H9 : (length thetas <= 10 ^ 9)%nat.

  Lemma ansatz_loop :
    match circuit_of struct n thetas with
    | Ok (qc, grad_param_R) => List.Forall fits es /\
        grad_param_R = map (fun ke => (pname (fst ke), match fst (snd ke) with SaSingle => 4 | _ => 2 end)%nat) (combine (seq 0 (length es)) es) /\
        forall st, length st = d -> exists out, length out = d /\
          ups_state tiny sp th 0 es thetas false st = Ok out /\
          forall D, run (/ sqrt 2) qc (encoded n (kt st)) D = encoded n (kt out) D
    | Raise ValueError => ~ List.Forall fits es
    | _ => False
    end.
  Proof.
    pose proof (layout_loop tiny sp th HS (bound_value 0 (map pname (seq 0 (length thetas))) thetas) es thetas [] [] 0 Hes Hth) as H.
    specialize (H ltac:(intros k Hk; now apply bound_pname)).
    unfold circuit_of, upslayout2circuit. change (fun t : R => (cos (t / 2), sin (t / 2))) with half. change (fun t : R => (cos (t / 8), sin (t / 8))) with eighth.
    destruct (fold_left _ es _) as [st'|er|]; cbn [bind]; [|exact H|exact H].
    destruct H as (Hf & c & -> & H). cbn [fst app]. split; [exact Hf|]. split; [reflexivity|].
    intros st Hst. destruct (H st Hst) as (out & Lo & Eo & So). exists out. split; [exact Lo|]. split; [exact Eo|].
    intros D. rewrite encoded_enc, <- So. apply run_ext. intros x. apply encoded_enc.
  Qed.

  Lemma reference_enc x i det st : nth_error (idx2det (sp_ci sp)) i = Some x ->
    det = map (fun p => occ (todet (2 * n) x) p) (seq 0 (2 * n)) ->
    length st = d -> nth i st 0 = IZR (get_reordering_sign det) -> (forall j, j <> i -> nth j st 0 = 0) ->
    forall D, run (/ sqrt 2) (x_gates det n) zero_state D = encoded n (kt st) D.
  Proof.
    intros Hx -> Hl Hi Hz D. set (det := map _ (seq 0 (2 * n))) in *.
    assert (length det = (2 * n)%nat) as Hld by (unfold det; now rewrite map_length, seq_length).
    assert (wf_ci n (sp_ci sp)) as Hw by (destruct HS as [_ Hp (na & nb & Hci) _]; exact (get_indexing_wf _ _ _ _ Hp Hci)).
    set (B := from_occ (2 * n) (fun q => nth (q2f q n) det false)). pose proof (blocked_exists n det) as HB. fold B in HB.
    rewrite (run_x_gates (/ sqrt 2) n det B) by assumption. rewrite zero_lxor, encoded_enc. unfold enc, toreg.
    assert (forall p, (p < 2 * n)%nat -> nth p det false = occ (todet (2 * n) x) p) as Hd by (intros p Hp; unfold det; now apply nth_map_seq).
    destruct (N.ltb_spec D (2 ^ N.of_nat (2 * n))) as [HD|HD].
    - assert (forall q, (2 * n <= q)%nat -> occ D q = false) as HDr by (intros q Hq; unfold occ; apply (small_bit (2 * n)); [exact HD|lia]).
      unfold toblock. destruct (N.eqb_spec B D) as [<-|Hne].
      + assert (unblock n B = todet (2 * n) x) as ->.
        { apply det_ext. intros q. unfold unblock. rewrite occ_from. destruct (Nat.ltb_spec q (2 * n)) as [Hq|Hq].
          - rewrite (proj1 HB) by exact Hq. cbn [andb]. now apply Hd.
          - cbn [andb]. symmetry. rewrite occ_todet. apply Nat.ltb_ge in Hq as ->. reflexivity. }
        rewrite (ket_nth n (sp_ci sp) st i x Hw Hl Hx). cbn [rO R_CRing] in *. rewrite Hi, (sign_toblock n det B Hld HB).
        unfold basis. rewrite N.eqb_refl. destruct (bsign n B); apply injective_projections; cbn; lra.
      + unfold basis. pose proof (proj2 (N.eqb_neq B D) Hne) as Hne'. rewrite Hne'.
        assert (kt st (unblock n D) = 0) as ->; [|destruct (bsign n D); apply injective_projections; cbn; ring].
        assert (forall y j, nth_error (idx2det (sp_ci sp)) j = Some y -> todet (2 * n) y = unblock n D -> kt st (unblock n D) = 0) as G.
        { intros y j Hy Ey. rewrite <- Ey, (ket_nth n (sp_ci sp) st j y Hw Hl Hy). apply Hz. intros ->. rewrite Hx in Hy. injection Hy as <-.
          apply Hne. apply (blocked_unique n det); [exact HB|]. split; [|exact HDr]. intros p Hp. rewrite Hd, Ey by exact Hp. symmetry. now apply occ_unblock. }
        destruct (in_dec N.eq_dec (unblock n D) (map (todet (2 * n)) (idx2det (sp_ci sp)))) as [Hin|Hout].
        * apply in_map_iff in Hin as (y & Ey & Hy). apply In_nth_error in Hy as (j & Hj). now apply (G y j).
        * refine (ket_outside (K:=R) n (sp_ci sp) st (unblock n D) _). intros (y & Hy & Ey). apply Hout. apply in_map_iff. eauto.
    - unfold basis. destruct (N.eqb_spec B D) as [<-|_]; [|reflexivity]. exfalso. apply N.le_ngt in HD. apply HD.
      apply bits_small. intros k Hk. pose proof (proj2 HB (N.to_nat k) ltac:(lia)) as E. unfold occ in E. now rewrite N2Nat.id in E.
  Qed.
End Ansatz.

(** The circuit of a layout, with the parameters bound by name as the interface
    does, acts on encoded states exactly as [construct_ups_state] acts on state
    vectors, for every sequence of supported excitations of any length; the
    circuit is refused (ValueError) exactly when some excitation is of another
    type or has a creation index not above an annihilation index.  The table
    [grad_param_R] lists the parameters in order with 2 shifts (4 for spin-adapted
    singles). *)
Theorem C62_circuit_is_ansatz tiny sp th struct thetas :
  sector tiny sp th ->
  let es := combine (s_type struct) (s_idx struct) in
  List.Forall (fun e => gate_ok (sp_na sp) 0 e /\ NoDup (snd e)) es -> length thetas = length es -> (length thetas <= 10 ^ 9)%nat ->
  match circuit_of struct (sp_na sp) thetas with
  | Ok (qc, grad_param_R) =>
      List.Forall (fun e => match e with
        | (Single, [i; a]) | (SaSingle, [i; a]) => (i < a)%nat
        | (Double, [i; j; a; b]) => (i < a)%nat /\ (i < b)%nat /\ (j < a)%nat /\ (j < b)%nat
        | _ => False end) es /\
      map fst grad_param_R = map pname (seq 0 (length thetas)) /\
      map snd grad_param_R = map (fun e => match fst e with SaSingle => 4 | _ => 2 end)%nat es /\
      forall st, length st = dim (sp_ci sp) -> exists out, length out = dim (sp_ci sp) /\
        ups_state tiny sp th 0 es thetas false st = Ok out /\
        forall D, run (/ sqrt 2) qc (encoded (sp_na sp) (ket (sp_na sp) (sp_ci sp) st)) D =
                  encoded (sp_na sp) (ket (sp_na sp) (sp_ci sp) out) D
  | Raise ValueError => ~ List.Forall (fun e => match e with
        | (Single, [i; a]) | (SaSingle, [i; a]) => (i < a)%nat
        | (Double, [i; j; a; b]) => (i < a)%nat /\ (i < b)%nat /\ (j < a)%nat /\ (j < b)%nat
        | _ => False end) es
  | _ => False
  end.
Proof.
  intros HS es He Hl H9. pose proof (ansatz_loop tiny sp th HS struct thetas He Hl H9) as H.
  destruct (circuit_of struct (sp_na sp) thetas) as [[qc g]|er|]; [|exact H|exact H].
  destruct H as (Hf & -> & H). split; [exact Hf|]. split; [|split; [|exact H]].
  - rewrite map_map. cbn [fst]. rewrite Hl. rewrite <- (map_map fst pname). f_equal. fold es.
    assert (forall (a : list nat) (b : list exc), length a = length b -> map fst (combine a b) = a) as G.
    { induction a as [|x a IH]; intros [|y b] E; try discriminate; [reflexivity|]. cbn [combine map fst]. now rewrite IH by (cbn in E; lia). }
    apply G. now rewrite seq_length.
  - rewrite map_map. cbn [snd]. fold es.
    rewrite <- (map_map snd (fun e : exc => match fst e with SaSingle => 4 | _ => 2 end)%nat). f_equal.
    assert (forall (a : list nat) (b : list exc), length a = length b -> map snd (combine a b) = b) as G.
    { induction a as [|x a IH]; intros [|y b] E; try discriminate; [reflexivity|]. cbn [combine map snd]. now rewrite IH by (cbn in E; lia). }
    apply G. now rewrite seq_length.
Qed.

(** The whole state circuit: the determinant [x] of the space prepared by
    [get_determinant_reference] and then the ansatz.  From |0...0> it gives the
    encoded ansatz state that starts from [x] with the reordering sign as
    amplitude. *)
Theorem C62_state_circuit tiny sp th struct thetas x i st :
  sector tiny sp th ->
  let es := combine (s_type struct) (s_idx struct) in
  let det := map (fun p => occ (todet (2 * sp_na sp) x) p) (seq 0 (2 * sp_na sp)) in
  List.Forall (fun e => gate_ok (sp_na sp) 0 e /\ NoDup (snd e)) es -> length thetas = length es -> (length thetas <= 10 ^ 9)%nat ->
  nth_error (idx2det (sp_ci sp)) i = Some x ->
  length st = dim (sp_ci sp) -> nth i st 0 = IZR (get_reordering_sign det) -> (forall j, j <> i -> nth j st 0 = 0) ->
  forall c0 qc g, get_determinant_reference det (sp_na sp) JordanWigner = Ok c0 -> circuit_of struct (sp_na sp) thetas = Ok (qc, g) ->
  exists out, ups_state tiny sp th 0 es thetas false st = Ok out /\
    forall D, run (/ sqrt 2) (c0 ++ qc) zero_state D = encoded (sp_na sp) (ket (sp_na sp) (sp_ci sp) out) D.
Proof.
  intros HS es det He Hl H9 Hx Hst Hi Hz c0 qc g Ec Eq. cbn in Ec. injection Ec as <-.
  pose proof (ansatz_loop tiny sp th HS struct thetas He Hl H9) as H. rewrite Eq in H. destruct H as (_ & _ & H).
  destruct (H st Hst) as (out & _ & Eo & So). exists out. split; [exact Eo|]. intros D. rewrite run_app', <- So. apply run_ext.
  intros y. eapply (reference_enc tiny sp th HS); eauto; reflexivity.
Qed.

Definition ex62 : ups_struct := {| s_idx := [[0; 4]; [0; 1; 4; 5]; [1; 3]; [1; 2; 5; 6]]%nat; s_type := [Single; Double; SaSingle; Double];
  s_n := 4; s_R := []; s_names := [] |}.
Example C62_example : sector rtiny ex_sp None /\
  List.Forall (fun e => gate_ok 4 0 e /\ NoDup (snd e)) (combine (s_type ex62) (s_idx ex62)) /\
  exists qc, circuit_of ex62 4 [1; 2; 3; 4] = Ok (qc, map (fun k => (pname k, if (k =? 2)%nat then 4%nat else 2%nat)) (seq 0 4)).
Proof.
  split; [apply C21_example|]. split.
  - cbn [combine s_type s_idx ex62].
    repeat (constructor; [split; [gate_tac|cbn [snd]; repeat (constructor; [cbn; intuition lia|]); constructor]|]). constructor.
  - eexists. reflexivity.
Qed.

Print Assumptions C44_f2q_bijection.
Print Assumptions C44_reordering_sign.
Print Assumptions C44_reordering_intertwines.
Print Assumptions C45_determinant_reference.
Print Assumptions C45_superposition.
Print Assumptions C45_same_electrons.
Print Assumptions C45_MAnsatz0.
Print Assumptions C46_single_excitation.
Print Assumptions C46_sa_single_excitation.
Print Assumptions C46_sa_single_docstring_refuted.
Print Assumptions C61_double_excitation.
Print Assumptions C61_shared_index_refuted.
Print Assumptions C62_circuit_is_ansatz.
Print Assumptions C62_state_circuit.
