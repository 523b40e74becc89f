(** Matrix elements between configuration state functions (C53). *)
From Coq Require Import List Bool Arith NArith ZArith QArith Qcanon Lia Ring Permutation.
From Verif Require Import Base Fock FockMore OperatorsSums FockInner CliqueModel CliqueProofs QubitModel QubitProofs QubitCirc QubitRef
  CliqueSampler Props_Qubit Props_Circuit CsfModel CsfProofs.
Import ListNotations.
Local Open Scope list_scope.

Section Props.
  Context {K : Type} {C : CRing K}.
  Local Open Scope K_scope.
  Add Ring KringPCsf : (@rth K C).
  Notation cx := (K * K)%type.
  Notation qstate := (qstate (K:=K)).
  Notation gate := (gate (K:=K)).
  Notation dist := (dist (K:=K)).
  Local Notation "a ~~ b" := (qeq a b) (at level 70).

  (** The configuration state function on the qubits: for every determinant the
      electrons are created in the interleaved order of the spin orbitals, each
      on the qubit of its spin orbital (alpha orbitals first). *)
  Definition csf_state (n : nat) (c : csf (K:=K)) : qstate := fun x =>
    lsum (combine (fst c) (snd c)) (fun cd => cre (fst cd) *
      appstr (map (fun p => (f2q p n, true)) (filter (fun p => nth p (snd cd) false) (seq 0 (2 * n)))) (basis 0%N) x).
  (** The real part of the matrix element of an observable between two states after
      the ansatz. *)
  Definition matrix_element (s2 : K) (n : nat) (ansatz : list gate) (obs : list (pauli * K)) (bra ket : qstate) : K :=
    lsum obs (fun pc => fst (cip (2 * n) (run s2 ansatz bra) (pauli_app (fst pc) (run s2 ansatz ket))) * snd pc).
  (** Determinants of [2 n] spin orbitals with a coefficient each. *)
  Definition csf_ok (n : nat) (c : csf (K:=K)) : Prop :=
    (List.length (snd c) <= List.length (fst c))%nat /\ Forall (fun d => List.length d = (2 * n)%nat) (snd c).
  Definition with_electrons (c : csf (K:=K)) : Prop := Forall (In true) (snd c).
  (** Sorting in descending order is allowed if the numbers of electrons agree. *)
  Definition order_ok (reverse : bool) (bra ket : csf (K:=K)) : Prop :=
    reverse = false \/ forall d e, In d (snd bra) -> In e (snd ket) -> electrons d = electrons e.
  Definition obs_ok (n : nat) (obs : list (pauli * K)) : Prop :=
    obs <> [] /\ Forall (fun pc : pauli * K => List.length (fst pc) = (2 * n)%nat) obs.
  (** A device that answers with the exact outcome distribution of the circuit. *)
  Definition exact_device (s2 : K) (n : nat) (device : list K -> list gate -> pauli -> dist) : Prop :=
    forall par c h, List.length h = (2 * n)%nat -> faithful s2 (2 * n) (run s2 c zero_state) h (device par c h).

  Lemma zero_basis : zero_state (K:=K) ~~ basis (K:=cx) 0%N.
  Proof. intros x. unfold zero_state, basis. rewrite N.eqb_sym. reflexivity. Qed.
  Definition vdet (s2 : K) (n : nat) (ansatz : list gate) (d : dstr) : qstate := run s2 ansatz (basis (K:=cx) (Dof n d)).
  Definition Bdet (s2 : K) (n : nat) (ansatz : list gate) (obs : list (pauli * K)) (d e : dstr) : K :=
    element (2 * n) obs (vdet s2 n ansatz d) (vdet s2 n ansatz e).

  Lemma half_s2 s2 half : s2 * s2 + s2 * s2 = 1 -> half + half = 1 -> s2 * s2 = half.
  Proof. intros H1 H2. transitivity ((half + half) * (s2 * s2)); [rewrite H2; ring|]. transitivity (half * (s2 * s2 + s2 * s2)); [ring|]. rewrite H1. ring. Qed.
  Lemma det_circuit s2 n ansatz d : List.length d = (2 * n)%nat -> run s2 (x_gates d n ++ ansatz) zero_state ~~ vdet s2 n ansatz d.
  Proof.
    intros Hl. rewrite run_app. apply run_ext. pose proof (C45_determinant_reference (K:=K) s2 n d (Dof n d) JordanWigner Hl (blocked_exists n d)) as H.
    cbn [get_determinant_reference] in H. intros x. apply H.
  Qed.
  Definition vpair (s2 : K) (n : nat) (ansatz : list gate) (d e : dstr) : qstate :=
    run s2 ansatz (fun x => cre s2 * (basis (K:=cx) (Dof n d) x + basis (Dof n e) x)).
  Lemma pair_circuit s2 n ansatz d e c : List.length d = (2 * n)%nat -> List.length e = (2 * n)%nat ->
    get_determinant_superposition_reference d e n JordanWigner = Ok c -> run s2 (c ++ ansatz) zero_state ~~ vpair s2 n ansatz d e.
  Proof.
    intros Hd He Hc. rewrite run_app. apply run_ext.
    pose proof (C45_superposition (K:=K) s2 n d e (Dof n d) (Dof n e) JordanWigner Hd He (blocked_exists n d) (blocked_exists n e)) as H.
    rewrite Hc in H. intros x. apply H.
  Qed.
  Lemma pair_value s2 half n ansatz obs d e : s2 * s2 + s2 * s2 = 1 -> half + half = 1 ->
    element (2 * n) obs (vpair s2 n ansatz d e) (vpair s2 n ansatz d e)
    = half * (Bdet s2 n ansatz obs d d + Bdet s2 n ansatz obs d e + Bdet s2 n ansatz obs e d + Bdet s2 n ansatz obs e e).
  Proof.
    intros H1 H2. pose (w := fun x => cre s2 * vdet s2 n ansatz d x + cre s2 * vdet s2 n ansatz e x).
    assert (vpair s2 n ansatz d e ~~ w) as Hw.
    { unfold vpair, w, vdet. intros x. rewrite <- run_lin. apply run_ext. intros y. cbn [rmul radd Cx_CRing]. unfold cmul, cadd. cbn. f_equal; ring. }
    rewrite (element_ext (2 * n) obs _ w _ w Hw Hw). unfold w, Bdet. rewrite element_lin_l, !element_lin_r.
    rewrite <- (half_s2 s2 half H1 H2). ring.
  Qed.
  Lemma Bdet_sym s2 n ansatz obs d e : Forall (fun pc : pauli * K => List.length (fst pc) = (2 * n)%nat) obs -> Bdet s2 n ansatz obs d e = Bdet s2 n ansatz obs e d.
  Proof. intros H. now apply element_sym. Qed.

  (** The sum over the determinants is the matrix element. *)
  Lemma sum_is_element s2 n ansatz obs (bra ket : csf (K:=K)) : csf_ok n bra -> csf_ok n ket ->
    matrix_element s2 n ansatz obs (csf_state n bra) (csf_state n ket)
    = lsum (combine (fst bra) (snd bra)) (fun b => lsum (combine (fst ket) (snd ket)) (fun k =>
        fst b * fst k * sign_num (get_reordering_sign (snd b)) * sign_num (get_reordering_sign (snd k)) * Bdet s2 n ansatz obs (snd b) (snd k))).
  Proof.
    intros [L1 F1] [L2 F2].
    assert (forall c : csf (K:=K), Forall (fun d => List.length d = (2 * n)%nat) (snd c) ->
      run s2 ansatz (csf_state n c) ~~ (fun x => lsum (combine (fst c) (snd c)) (fun cd => cre (fst cd * sign_num (get_reordering_sign (snd cd))) * vdet s2 n ansatz (snd cd) x))) as Hr.
    { intros c Hc. eapply qeq_trans.
      - apply run_ext with (b := fun x => lsum (combine (fst c) (snd c)) (fun cd => cre (fst cd * sign_num (get_reordering_sign (snd cd))) * basis (K:=cx) (Dof n (snd cd)) x)).
        intros x. apply lsum_ext. intros [a d] Hin. cbn [fst snd]. apply in_combine_r in Hin. rewrite Forall_forall in Hc.
        change (map _ (filter _ (seq 0 (2 * n)))) with (creators_of n d). rewrite create_interleaved by (now apply Hc).
        unfold sign_num. cbn [rmul ropp rI Cx_CRing]. destruct (get_reordering_sign d =? 1)%Z; destruct (basis (Dof n d) x); unfold cmul, copp, cre; cbn; f_equal; ring.
      - exact (run_sum s2 ansatz (combine (fst c) (snd c)) (fun cd => cre (fst cd * sign_num (get_reordering_sign (snd cd)))) (fun cd => basis (Dof n (snd cd)))). }
    transitivity (element (2 * n) obs (run s2 ansatz (csf_state n bra)) (run s2 ansatz (csf_state n ket))); [reflexivity|].
    rewrite (element_ext (2 * n) obs _ _ _ _ (Hr bra F1) (Hr ket F2)).
    rewrite (element_sum_l (2 * n) obs _ (combine (fst bra) (snd bra)) (fun cd => fst cd * sign_num (get_reordering_sign (snd cd))) (fun cd => vdet s2 n ansatz (snd cd))).
    apply lsum_ext. intros b _. rewrite (element_sum_r (2 * n) obs _ (combine (fst ket) (snd ket)) (fun cd => fst cd * sign_num (get_reordering_sign (snd cd))) (fun cd => vdet s2 n ansatz (snd cd))).
    rewrite <- lsum_scale. apply lsum_ext. intros k _. unfold Bdet. ring.
  Qed.

  Lemma csfs_generic {St} (ev : list gate -> N -> nat -> SR (St:=St) K) s2 half n ansatz opt obs (good : dstr -> Prop) (Inv : St -> Prop) bra ket reverse s :
    half + half = 1 -> Forall (fun pc : pauli * K => List.length (fst pc) = (2 * n)%nat) obs ->
    (forall d, good d -> List.length d = (2 * n)%nat) ->
    (forall s d, Inv s -> good d -> exists s', ev (x_gates d n ++ ansatz) (det_int d) 1%nat s = (s', Ok (Bdet s2 n ansatz obs d d)) /\ Inv s') ->
    (forall s d e c, Inv s -> good d -> good e -> d <> e -> get_determinant_superposition_reference d e n JordanWigner = Ok c ->
       exists s', ev (c ++ ansatz) (det_int (d ++ e)) opt s = (s', Ok (half * (Bdet s2 n ansatz obs d d + Bdet s2 n ansatz obs d e + Bdet s2 n ansatz obs e d + Bdet s2 n ansatz obs e e))) /\ Inv s') ->
    csf_ok n bra -> csf_ok n ket -> Forall good (snd bra) -> Forall good (snd ket) -> order_ok reverse bra ket -> Inv s ->
    exists s', quantum_expectation_value_csfs ev half ansatz n JordanWigner opt bra ket reverse s
      = (s', Ok (matrix_element s2 n ansatz obs (csf_state n bra) (csf_state n ket))) /\ Inv s'.
  Proof.
    intros Hh Ho Hg Hd Hp Ob Ok_ Gb Gk Hr Hs. pose proof (fun d e (_ : good d) (_ : good e) => Bdet_sym s2 n ansatz obs d e Ho) as Bs.
    unfold quantum_expectation_value_csfs, slift. destruct Ob as [L1 F1] eqn:E1. destruct Ok_ as [L2 F2] eqn:E2. clear E1 E2.
    unfold sbind at 1. rewrite all_combinations_ok by assumption. set (l := map _ _).
    assert (Forall (item_ok good) l) as Hl.
    { apply Forall_forall. intros e He. apply in_map_iff in He as ([i j] & <- & Hij). apply in_prod_iff in Hij as [Hi Hj]. apply in_seq in Hi, Hj.
      rewrite Forall_forall in Gb, Gk, F1, F2. pose proof (nth_In (snd bra) [] (proj2 Hi)) as Ib. pose proof (nth_In (snd ket) [] (proj2 Hj)) as Ik.
      unfold combo, item_ok. cbn [fst snd]. set (a := nth i (snd bra) []) in *. set (b := nth j (snd ket) []) in *.
      pose proof (F1 a Ib) as La. pose proof (F2 b Ik) as Lb.
      assert (a = b \/ a <> b) as [->|Hne] by (destruct (det_eqb_spec a b); auto).
      { unfold sorted_pair. destruct (if reverse then _ else _); cbn [fst snd]; auto. }
      split; [|split].
      - destruct (sorted_pair_cases reverse a b) as [->| ->]; cbn [fst]; auto.
      - destruct (sorted_pair_cases reverse a b) as [->| ->]; cbn [snd]; auto.
      - right. destruct reverse; [|apply sorted_pair_asc; [congruence|exact Hne]]. destruct Hr as [Hr|Hr]; [discriminate|].
        specialize (Hr a b Ib Ik).
        assert (forall a b : dstr, List.length a = (2 * n)%nat -> List.length b = (2 * n)%nat -> a <> b -> electrons a = electrons b ->
          exists p, nth p b false = true /\ nth p a false = false) as G.
        { clear. intros a b La Lb Hne He.
          destruct (existsb (fun p => nth p b false && negb (nth p a false)) (seq 0 (2 * n))) eqn:E.
          - apply existsb_exists in E as (p & _ & Hp). apply andb_prop in Hp as [P1 P2]. exists p. split; [exact P1|]. now destruct (nth p a false).
          - exfalso. apply Hne. apply electrons_subset; [congruence| |exact He]. intros p Hp. destruct (nth p a false) eqn:Ea; [reflexivity|].
            assert (existsb (fun p => nth p b false && negb (nth p a false)) (seq 0 (2 * n)) = true) as X; [|congruence].
            apply existsb_exists. exists p. rewrite Hp, Ea. split; [|reflexivity]. apply in_seq.
            destruct (Nat.lt_ge_cases p (2 * n)) as [H|H]; [lia|]. rewrite nth_overflow in Hp by lia. discriminate. }
        destruct (sorted_pair_cases true a b) as [->| ->]; cbn [fst snd]; apply G; auto. }
    destruct (loop_value ev half ansatz n opt (Bdet s2 n ansatz obs) good Inv Hh Bs Hg Hd Hp (unique_combinations l) 0 s (unique_ok good l Hl) Hs) as (s' & E & Hs').
    exists s'. split; [|exact Hs']. rewrite E. do 2 f_equal. rewrite lsum_unique, sum_is_element by (split; assumption).
    rewrite (lsum_combine bra) by exact L1. unfold l. rewrite lsum_map, lsum_prod.
    transitivity (lsum (seq 0 (List.length (snd bra))) (fun i => lsum (seq 0 (List.length (snd ket))) (fun j => Bi (Bdet s2 n ansatz obs) (combo reverse bra ket (i, j))))); [ring|].
    apply lsum_ext. intros i _. rewrite (lsum_combine ket) by exact L2. apply lsum_ext. intros j _. unfold Bi, combo. cbn [fst snd].
    destruct (sorted_pair_cases reverse (nth i (snd bra) []) (nth j (snd ket) [])) as [->| ->]; cbn [fst snd]; [reflexivity|].
    now rewrite (Bdet_sym s2 n ansatz obs (nth j (snd ket) [])).
  Qed.

  (** ** The saver *)
  (** The state that a key of the saver stands for. *)
  Definition key_state (s2 : K) (n : nat) (ansatz : list K -> list gate) (par : list K) (key : N) (opt : nat) : qstate :=
    let m := (2 ^ N.of_nat (2 * n))%N in
    if (key <? m)%N then vdet s2 n (ansatz par) (to_det (2 * n) key)
    else vpair s2 n (ansatz par) (to_det (2 * n) (key / m)) (to_det (2 * n) (key mod m)).
  Lemma key_det s2 n ansatz par opt d : List.length d = (2 * n)%nat -> key_state s2 n ansatz par (det_int d) opt = vdet s2 n (ansatz par) d.
  Proof.
    intros Hl. unfold key_state. pose proof (det_int_lt d) as H. rewrite Hl in H. apply N.ltb_lt in H as ->. now rewrite <- Hl, to_det_int.
  Qed.
  Lemma key_pair s2 n ansatz par opt d e : List.length d = (2 * n)%nat -> List.length e = (2 * n)%nat -> In true d ->
    key_state s2 n ansatz par (det_int (d ++ e)) opt = vpair s2 n (ansatz par) d e.
  Proof.
    intros Hd He Ht. unfold key_state. rewrite det_int_app, He. pose proof (det_int_pos d Ht) as Hp. pose proof (det_int_lt e) as Hlt. rewrite He in Hlt.
    set (m := (2 ^ N.of_nat (2 * n))%N) in *. assert (det_int d * m + det_int e <? m = false)%N as -> by (apply N.ltb_ge; nia).
    assert ((det_int d * m + det_int e) / m = det_int d)%N as -> by (symmetry; apply (N.div_unique _ m _ (det_int e)); nia).
    assert ((det_int d * m + det_int e) mod m = det_int e)%N as -> by (symmetry; apply (N.mod_unique _ m (det_int d)); nia).
    rewrite <- Hd at 1. rewrite to_det_int. rewrite <- He at 1. now rewrite to_det_int.
  Qed.
  Lemma faithful_ext s2 m (f h : qstate) hd (d : dist) : f ~~ h -> faithful s2 m f hd d -> faithful s2 m h hd d.
  Proof. intros E (A & B & D & F). repeat split; auto. intros x Hx. rewrite F by exact Hx. now rewrite (run_ext s2 _ f h E). Qed.

  Definition anyP : qstate -> pauli -> dist -> Prop := fun _ _ _ => True.
  Lemma any_ps s2 m cf (f : qstate) : ps_ok s2 m anyP cf f.
  Proof. intros ? ? ? ? ? ?. exact I. Qed.

  Lemma ev_save_step s2 n cf device ansatz obs circuit key opt s :
    s2 * s2 + s2 * s2 = 1 -> (0 < n)%nat -> exact_device s2 n device -> obs_ok n obs ->
    saver_inv s2 (2 * n) (key_state s2 n ansatz) anyP s ->
    run s2 circuit zero_state ~~ key_state s2 n ansatz (qi_par s) key opt ->
    let r := ev_save cf device obs circuit key opt s in
    saver_inv s2 (2 * n) (key_state s2 n ansatz) anyP (fst r) /\ qi_par (fst r) = qi_par s /\ qi_flags (fst r) = qi_flags s /\
    (is_enabled (qi_flags s) = false -> snd r = Ok (element (2 * n) obs (key_state s2 n ansatz (qi_par s) key opt) (key_state s2 n ansatz (qi_par s) key opt))).
  Proof.
    intros Hs Hn Hd [Hne Hlen] Hi Hc r.
    destruct (prev_inv s2 (2 * n) (key_state s2 n ansatz) anyP s key opt Hi) as [A B].
    assert (forall h, List.length h = (2 * n)%nat -> faithful s2 (2 * n) (key_state s2 n ansatz (qi_par s) key opt) h (device (qi_par s) circuit h)) as Hf.
    { intros h Hh. apply (faithful_ext s2 (2 * n) (run s2 circuit zero_state)); [exact Hc|]. now apply Hd. }
    pose proof (sampler_inv s2 (2 * n) anyP cf (key_state s2 n ansatz (qi_par s) key opt) (qi_flags s) (device (qi_par s) circuit) opt obs (zget key (qi_saver s))
                  (any_ps _ _ _ _) A B Hne Hlen Hf) as (E & H1 & H2).
    pose proof (sampler_raw s2 (2 * n) Hs ltac:(lia) anyP cf (key_state s2 n ansatz (qi_par s) key opt) (qi_flags s) (device (qi_par s) circuit) opt obs (zget key (qi_saver s))
                  (any_ps _ _ _ _) A B Hne Hlen Hf) as H3.
    unfold r, ev_save. destruct (sampler_value cf (qi_flags s) (device (qi_par s) circuit) opt obs (zget key (qi_saver s))) as [e v]. cbn [fst snd] in *.
    split; [|split; [reflexivity|split; [reflexivity|exact H3]]].
    intros key' e' H. cbn [qi_saver qi_par] in *. destruct (N.eq_dec key key') as [<-|Hk].
    - rewrite zget_zset_same in H. injection H as <-. rewrite E. auto.
    - rewrite zget_zset_other in H by congruence. exact (Hi key' e' H).
  Qed.

  (** The reference of the interface. *)
  Lemma run_xs s2 l D : run s2 (map (GX (K:=K)) l) (basis (K:=cx) D) ~~ basis (fold_left flip l D).
  Proof.
    revert D. induction l as [|q l IH]; intros D; [apply qeq_refl|]. cbn [map fold_left]. rewrite run_cons. eapply qeq_trans; [|apply IH]. apply run_ext.
    intros x. rewrite x_sem. unfold basis. destruct (N.eqb_spec (flip D q) x) as [E|E].
    - rewrite <- E, flip_flip, N.eqb_refl. reflexivity.
    - destruct (N.eqb_spec D (flip x q)) as [H|H]; [|reflexivity]. rewrite H, flip_flip in E. congruence.
  Qed.
  Lemma occ_flips l D q : NoDup l -> occ (fold_left flip l D) q = xorb (occ D q) (existsb (Nat.eqb q) l).
  Proof.
    revert D. induction l as [|p l IH]; intros D Hnd; [cbn; now rewrite xorb_false_r|]. inversion_clear Hnd as [|? ? Hp Hnd']. cbn [fold_left existsb]. rewrite IH by exact Hnd'.
    destruct (Nat.eqb_spec q p) as [->|H]; [|now rewrite occ_flip_other by auto]. rewrite occ_flip_same. cbn [orb].
    assert (existsb (Nat.eqb p) l = false) as ->. { apply not_true_is_false. intros E. apply existsb_exists in E as (r & Hr & E). apply Nat.eqb_eq in E. subst. auto. }
    now destruct (occ D p).
  Qed.
  Definition closed_or_doublet (elec : nat * nat) (n : nat) : Prop :=
    (fst elec = snd elec \/ fst elec = S (snd elec)) /\ (0 < fst elec <= n)%nat.
  Lemma hf_len elec n : closed_or_doublet elec n -> List.length (hf_det elec n) = (2 * n)%nat.
  Proof. intros [H1 H2]. unfold hf_det. rewrite app_length, !repeat_length. destruct H1; lia. Qed.
  Lemma nth_hf elec n p : nth p (hf_det elec n) false = (p <? fst elec + snd elec)%nat.
  Proof.
    unfold hf_det. generalize (fst elec + snd elec)%nat. intros k. destruct (Nat.ltb_spec p k) as [H|H].
    - rewrite app_nth1 by (now rewrite repeat_length). clear - H. revert k H. induction p as [|p IH]; intros [|k] H; try lia; [reflexivity|]. cbn. apply IH. lia.
    - rewrite app_nth2; rewrite repeat_length; [|exact H]. generalize (2 * n - k)%nat. generalize (p - k)%nat. clear. intros p m. revert p. induction m as [|m IH]; intros [|p]; cbn; auto.
  Qed.
  Lemma existsb_seq q lo len : existsb (Nat.eqb q) (seq lo len) = ((lo <=? q) && (q <? lo + len))%nat.
  Proof.
    apply eq_true_iff_eq. rewrite existsb_exists, andb_true_iff, Nat.leb_le, Nat.ltb_lt. split.
    - intros (r & Hr & E). apply Nat.eqb_eq in E. subst. now apply in_seq.
    - intros H. exists q. split; [now apply in_seq|apply Nat.eqb_refl].
  Qed.
  Lemma hf_circuit s2 n ansatz elec : closed_or_doublet elec n ->
    run s2 (hf_reference (K:=K) elec n ++ ansatz) zero_state ~~ vdet s2 n ansatz (hf_det elec n).
  Proof.
    intros [H1 H2]. rewrite run_app. unfold vdet. apply run_ext. eapply qeq_trans; [apply run_ext; apply zero_basis|]. unfold hf_reference.
    eapply qeq_trans; [apply run_xs|]. intros x. f_equal. apply det_ext. intros q. rewrite occ_flips.
    - unfold Dof. rewrite occ_zero, occ_from, nth_hf, existsb_app, !existsb_seq. unfold q2f. destruct elec as [na nb]. cbn [fst snd] in *.
      apply eq_true_iff_eq. rewrite xorb_false_l, orb_true_iff, !andb_true_iff, !Nat.leb_le, !Nat.ltb_lt. destruct (Nat.ltb_spec q n); lia.
    - destruct elec as [na nb]. cbn [fst snd] in *. apply (Permutation_NoDup (l := seq 0 na ++ seq n nb)); [reflexivity|].
      assert (forall l m : list nat, NoDup l -> NoDup m -> (forall x, In x l -> ~ In x m) -> NoDup (l ++ m)) as HA.
      { clear. induction l as [|x l IH]; intros m Hl Hm Hx; [exact Hm|]. inversion_clear Hl as [|? ? Hn Hl']. cbn. constructor.
        - rewrite in_app_iff. intros [H|H]; [auto|]. apply (Hx x); [now left|exact H].
        - apply IH; auto. intros y Hy. apply Hx. now right. }
      apply HA; try apply seq_NoDup. intros z Hz. rewrite in_seq in *. lia.
  Qed.

  (** Whatever the flags and the results, the saver stays right. *)
  Lemma csfs_keeps {St} (ev : list gate -> N -> nat -> SR (St:=St) K) half n ansatz m opt (good : dstr -> Prop) (Inv : St -> Prop) (bra ket : csf (K:=K)) reverse s :
    (forall s d, Inv s -> good d -> Inv (fst (ev (x_gates d n ++ ansatz) (det_int d) 1%nat s))) ->
    (forall s d e c, Inv s -> good d -> good e -> get_determinant_superposition_reference d e n JordanWigner = Ok c ->
       Inv (fst (ev (c ++ ansatz) (det_int (d ++ e)) opt s))) ->
    Forall good (snd bra) -> Forall good (snd ket) -> Inv s ->
    Inv (fst (quantum_expectation_value_csfs ev half ansatz n m opt bra ket reverse s)).
  Proof.
    intros Hd Hp Gb Gk Hs.
    assert (forall A B (mm : SR (St:=St) A) (f : A -> SR B) s, Inv (fst (mm s)) -> (forall a s, Inv s -> Inv (fst (f a s))) -> Inv (fst (sbind mm f s))) as Hb.
    { clear. intros A B mm f s Hm Hf. unfold sbind. destruct (mm s) as [s' [a|e|]]; cbn [fst] in *; auto. }
    pose (gp := fun e : (dstr * dstr) * K => good (fst (fst e)) /\ good (snd (fst e))).
    assert (forall l acc, Forall gp l -> Forall gp acc -> Forall gp (fold_left (fun acc e => add_combination (fst e) (snd e) acc) l acc)) as Hu.
    { clear. induction l as [|[p w] l IH]; intros acc Hl Ha; [exact Ha|]. inversion_clear Hl as [|? ? Hp Hl']. cbn [fold_left fst snd]. apply IH; [exact Hl'|].
      induction Ha as [|[q v] acc Hq Ha IHa]; cbn [add_combination]; [constructor; [exact Hp|constructor]|]. destruct (pair_eqb p q); constructor; assumption. }
    assert (forall ijs r, (forall all, r = Ok all -> Forall gp all) -> (forall ij, In ij ijs -> (fst ij < List.length (snd bra))%nat /\ (snd ij < List.length (snd ket))%nat) ->
      forall all, fold_left (fun acc ij => bind acc (fun acc => bind (combination reverse bra ket (fst ij) (snd ij)) (fun e => Ok (acc ++ [e])))) ijs r = Ok all -> Forall gp all) as Hall.
    { induction ijs as [|[i j] ijs IH]; intros r Hr Hij all E; [now apply Hr|]. cbn [fold_left fst snd] in E. refine (IH _ _ _ all E); [|intros; apply Hij; now right].
      intros all' E'. destruct (Hij (i, j) (or_introl eq_refl)) as [Hi Hj]. cbn [fst snd] in *. destruct r as [acc|?|]; try discriminate. cbn [bind] in E'. unfold combination in E'.
      destruct (get_coeff (fst bra) i) as [b|?|]; try discriminate. destruct (get_coeff (fst ket) j) as [k|?|]; try discriminate. cbn [bind] in E'. injection E' as <-.
      apply Forall_app. split; [now apply Hr|]. constructor; [|constructor]. rewrite Forall_forall in Gb, Gk.
      pose proof (Gb _ (nth_In (snd bra) [] Hi)) as G1. pose proof (Gk _ (nth_In (snd ket) [] Hj)) as G2. unfold gp. cbn [fst].
      destruct (sorted_pair_cases reverse (nth i (snd bra) []) (nth j (snd ket) [])) as [->| ->]; cbn [fst snd]; auto. }
    assert (forall d s, good d -> Inv s -> Inv (fst (det_value ev ansatz n JordanWigner d s))) as Hdv by (intros d s0 Hd0 Hs0; unfold det_value; now apply Hd).
    assert (forall l val s, Forall gp l -> Inv s -> Inv (fst (csf_loop ev half ansatz n JordanWigner opt l val s))) as Hl.
    { induction l as [|[[d e] w] l IH]; intros val s0 Hl Hs0; [exact Hs0|]. inversion_clear Hl as [|? ? [G1 G2] Hl']. cbn [fst snd] in *. cbn [csf_loop]. apply Hb; [|intros; now apply IH].
      unfold csf_term. destruct (det_eqb d e); [apply Hb; [now apply Hdv|intros; assumption]|].
      unfold sbind at 1, slift at 1. destruct (get_determinant_superposition_reference d e n JordanWigner) as [c|?|] eqn:Ec; cbn [fst]; try exact Hs0.
      apply Hb; [now apply Hp|]. intros v1 s1 H1. apply Hb; [now apply Hdv|]. intros v2 s2 H2. apply Hb; [now apply Hdv|]. intros v3 s3 H3. exact H3. }
    unfold quantum_expectation_value_csfs. destruct m; try exact Hs. unfold sbind, slift.
    destruct (all_combinations reverse bra ket) as [all|e|] eqn:E; cbn [fst]; try exact Hs. apply Hl; [|exact Hs]. unfold unique_combinations. apply Hu; [|constructor].
    refine (Hall _ _ _ _ all E); [intros l El; injection El as <-; constructor|].
    intros [i j] Hin. apply in_prod_iff in Hin as [Hi Hj]. apply in_seq in Hi, Hj. cbn. lia.
  Qed.

  (** ** Histories *)
  Definition call_fine (n : nat) (c : csf_call (K:=K)) : Prop :=
    match c with
    | CallCsf bra ket obs _ _ => obs_ok n obs /\ csf_ok n bra /\ csf_ok n ket /\ with_electrons bra /\ with_electrons ket
    | CallHF obs => obs_ok n obs
    | _ => True
    end.
  Lemma csf_good n (c : csf (K:=K)) : csf_ok n c -> with_electrons c -> Forall (fun d => List.length d = (2 * n)%nat /\ In true d) (snd c).
  Proof. intros [_ H] H'. unfold with_electrons in H'. rewrite Forall_forall in *. auto. Qed.
  Lemma ev_keeps s2 n cf device ansatz obs circuit key opt s (par : list K) fl :
    s2 * s2 + s2 * s2 = 1 -> (0 < n)%nat -> exact_device s2 n device -> obs_ok n obs ->
    saver_inv s2 (2 * n) (key_state s2 n ansatz) anyP s /\ qi_par s = par /\ qi_flags s = fl ->
    run s2 circuit zero_state ~~ key_state s2 n ansatz par key opt ->
    let r := ev_save cf device obs circuit key opt s in
    (saver_inv s2 (2 * n) (key_state s2 n ansatz) anyP (fst r) /\ qi_par (fst r) = par /\ qi_flags (fst r) = fl) /\
    (is_enabled fl = false -> snd r = Ok (element (2 * n) obs (key_state s2 n ansatz par key opt) (key_state s2 n ansatz par key opt))).
  Proof.
    intros Hs Hn Hd Ho (I1 & <- & <-) Hc r. destruct (ev_save_step s2 n cf device ansatz obs circuit key opt s Hs Hn Hd Ho I1 Hc) as (A & B & D & F). auto.
  Qed.
  Lemma csf_step_inv s2 n cf keq npars half device ansatz c s :
    s2 * s2 + s2 * s2 = 1 -> (0 < n)%nat -> exact_device s2 n device -> (forall a b, keq a b = true -> a = b) ->
    closed_or_doublet (cf_elec cf) n -> call_fine n c ->
    saver_inv s2 (2 * n) (key_state s2 n ansatz) anyP s ->
    saver_inv s2 (2 * n) (key_state s2 n ansatz) anyP (fst (csf_step cf device keq npars half ansatz n c s)).
  Proof.
    intros Hs Hn Hd Hk He Hc Hi.
    assert (forall A B (mm : SR (St:=qi (K:=K)) A) (f : A -> B) s, fst (sbind mm (fun v => sret (f v)) s) = fst (mm s)) as Hb.
    { clear. intros A B mm f s. unfold sbind, sret. destruct (mm s) as [s' [a|e|]]; reflexivity. }
    destruct c as [bra ket obs opt reverse|obs|new|kw|]; cbn [csf_step].
    - rewrite Hb. destruct Hc as (Ho & C1 & C2 & W1 & W2).
      apply (csfs_keeps (ev_save cf device obs) half n (ansatz (qi_par s)) (cf_mapper cf) (resolve_option opt) (fun d => List.length d = (2 * n)%nat /\ In true d)
        (fun s' => saver_inv s2 (2 * n) (key_state s2 n ansatz) anyP s' /\ qi_par s' = qi_par s /\ qi_flags s' = qi_flags s)).
      + intros s' d Hs' [Hl Ht]. apply (ev_keeps s2 n cf device ansatz obs _ _ _ s' (qi_par s) (qi_flags s)); auto. rewrite key_det by exact Hl. now apply det_circuit.
      + intros s' d e c Hs' [Hl Ht] [Hl' Ht'] Hcc. apply (ev_keeps s2 n cf device ansatz obs _ _ _ s' (qi_par s) (qi_flags s)); auto. rewrite key_pair by assumption. now apply pair_circuit.
      + now apply csf_good.
      + now apply csf_good.
      + auto.
    - rewrite Hb. apply (ev_save_step s2 n cf device ansatz obs); auto. rewrite key_det by (now apply hf_len). now apply hf_circuit.
    - exact (step_inv s2 (2 * n) cf keq npars (key_state s2 n ansatz)
        (fun par det opt h => map (fun x => (x, cnorm2 (run s2 (to_CBS_measurement h) (key_state s2 n ansatz par det opt) x))) (alldets (2 * n))) anyP Hk
        (fun par det opt h _ => ideal_faithful s2 (2 * n) _ h) (fun _ _ _ => any_ps s2 (2 * n) cf _) (CallParams new) s I Hi).
    - exact (step_inv s2 (2 * n) cf keq npars (key_state s2 n ansatz)
        (fun par det opt h => map (fun x => (x, cnorm2 (run s2 (to_CBS_measurement h) (key_state s2 n ansatz par det opt) x))) (alldets (2 * n))) anyP Hk
        (fun par det opt h _ => ideal_faithful s2 (2 * n) _ h) (fun _ _ _ => any_ps s2 (2 * n) cf _) (CallFlags kw) s I Hi).
    - exact (step_inv s2 (2 * n) cf keq npars (key_state s2 n ansatz)
        (fun par det opt h => map (fun x => (x, cnorm2 (run s2 (to_CBS_measurement h) (key_state s2 n ansatz par det opt) x))) (alldets (2 * n))) anyP Hk
        (fun par det opt h _ => ideal_faithful s2 (2 * n) _ h) (fun _ _ _ => any_ps s2 (2 * n) cf _) CallReset s I Hi).
  Qed.

  (** C53, with Pauli saving: take any history of matrix elements, expectation
      values, parameter changes, flag changes and resets, starting from an empty
      saver, and an exact device.  A further matrix element without error mitigation
      is the real part of [<bra| U^dagger O U |ket>] for the current parameters. *)
  Theorem C53_matrix_element s2 half n cf keq npars device ansatz cs par fl :
    s2 * s2 + s2 * s2 = 1 -> half + half = 1 -> (0 < n)%nat -> exact_device s2 n device -> (forall a b, keq a b = true -> a = b) ->
    cf_mapper cf = JordanWigner -> closed_or_doublet (cf_elec cf) n -> Forall (call_fine n) cs ->
    let s := csf_run cf device keq npars half ansatz n cs {| qi_par := par; qi_flags := fl; qi_saver := [] |} in
    forall bra ket obs opt reverse,
    obs_ok n obs -> csf_ok n bra -> csf_ok n ket -> with_electrons bra -> with_electrons ket -> order_ok reverse bra ket ->
    is_enabled (qi_flags s) = false ->
    snd (csf_step cf device keq npars half ansatz n (CallCsf bra ket obs opt reverse) s)
    = Ok (Some (matrix_element s2 n (ansatz (qi_par s)) obs (csf_state n bra) (csf_state n ket))).
  Proof.
    intros Hs Hh Hn Hd Hk Hm He Hcs s bra ket obs opt reverse Ho C1 C2 W1 W2 Hr Hfl.
    assert (saver_inv s2 (2 * n) (key_state s2 n ansatz) anyP s) as Hi.
    { unfold s, csf_run. assert (saver_inv s2 (2 * n) (key_state s2 n ansatz) anyP {| qi_par := par; qi_flags := fl; qi_saver := [] |}) as H0 by (intros d e H; discriminate).
      revert H0. generalize {| qi_par := par; qi_flags := fl; qi_saver := [] |}. clear s Hfl. induction Hcs as [|c cs Hc Hcs IH]; intros s0 H0; [exact H0|].
      cbn [fold_left]. apply IH. now apply csf_step_inv. }
    cbn [csf_step]. rewrite Hm.
    destruct (csfs_generic (ev_save cf device obs) s2 half n (ansatz (qi_par s)) (resolve_option opt) obs (fun d => List.length d = (2 * n)%nat /\ In true d)
        (fun s' => saver_inv s2 (2 * n) (key_state s2 n ansatz) anyP s' /\ qi_par s' = qi_par s /\ qi_flags s' = qi_flags s) bra ket reverse s) as (s' & E & _); auto.
    - apply Ho.
    - tauto.
    - intros s' d Hs' [Hl Ht]. destruct (ev_keeps s2 n cf device ansatz obs (x_gates d n ++ ansatz (qi_par s)) (det_int d) 1%nat s' (qi_par s) (qi_flags s)) as [A B]; auto.
      { rewrite key_det by exact Hl. now apply det_circuit. }
      exists (fst (ev_save cf device obs (x_gates d n ++ ansatz (qi_par s)) (det_int d) 1%nat s')). split; [|exact A].
      rewrite key_det in B by exact Hl. unfold Bdet. rewrite <- (B Hfl). apply surjective_pairing.
    - intros s' d e c Hs' [Hl Ht] [Hl' Ht'] Hne Hc.
      destruct (ev_keeps s2 n cf device ansatz obs (c ++ ansatz (qi_par s)) (det_int (d ++ e)) (resolve_option opt) s' (qi_par s) (qi_flags s)) as [A B]; auto.
      { rewrite key_pair by assumption. now apply pair_circuit. }
      exists (fst (ev_save cf device obs (c ++ ansatz (qi_par s)) (det_int (d ++ e)) (resolve_option opt) s')). split; [|exact A].
      rewrite key_pair in B by assumption. rewrite <- (pair_value s2 half n (ansatz (qi_par s)) obs d e Hs Hh). rewrite <- (B Hfl). apply surjective_pairing.
    - now apply csf_good.
    - now apply csf_good.
    - unfold sbind. rewrite E. reflexivity.
  Qed.

  (** ** Without saving *)
  Lemma nosave_exact s2 n cf fl (dev : pauli -> dist) do_cliques obs (psi : qstate) : s2 * s2 + s2 * s2 = 1 -> (0 < n)%nat -> obs_ok n obs ->
    (forall h, List.length h = (2 * n)%nat -> faithful s2 (2 * n) psi h (dev h)) -> is_enabled fl = false ->
    nosave_value cf fl dev do_cliques obs = Ok (element (2 * n) obs psi psi).
  Proof.
    intros Hs Hn [Hne Hlen] Hd Hfl.
    assert (do_M_mitigation fl = false /\ do_postselection fl = false /\ to_int fl = 0%N) as (F1 & F2 & F3).
    { clear - Hfl. destruct fl as [[] [] [] []]; cbn in Hfl; try discriminate; auto. }
    unfold nosave_value. rewrite F1, F2. cbn [bind].
    destruct do_cliques.
    - pose proof (sampler_raw s2 (2 * n) Hs ltac:(lia) anyP cf psi fl dev 1%nat obs None (any_ps _ _ _ _) ltac:(constructor) ltac:(repeat split; constructor) Hne Hlen Hd Hfl) as H.
      unfold sampler_value in H. unfold element. rewrite Hfl in H.
      destruct (add_paulis (map fst obs) []) as [cl rh] eqn:Ea. destruct rh as [nh|e|]; [|cbn in H; discriminate H|cbn in H; discriminate H].
      assert (map fst (combine nh (map dev nh)) = nh /\ map snd (combine nh (map dev nh)) = map dev nh) as [E1 E2].
      { clear. split; induction nh as [|h nh IH]; cbn; congruence. }
      cbn [bind]. rewrite E1, E2.
      assert (forall p c, get_distr (K:=K) p (Some fl) c = get_distr p None c) as Hg.
      { intros p c. induction c as [|ch c IH]; [reflexivity|]. cbn [get_distr]. destruct (fit_in_clique p (ch_head ch)) as [b h]. destruct b; [|exact IH].
        unfold saver_is_empty, saver_get. cbn [mit_int]. now rewrite F3. }
      assert (forall c, fold_left (fun values pc => bind values (fun values => bind (get_distr (fst pc) (Some fl) c) (fun d =>
                 bind (signed_sum (fst pc) d) (fun result => Ok (values + result * snd pc))))) obs (Ok 0)
              = fold_left (fun values pc => bind values (fun values => bind (get_distr (fst pc) None c) (fun d =>
                 bind (signed_sum (fst pc) d) (fun result => Ok (values + result * snd pc))))) obs (Ok 0)) as Hf.
      { intros c. generalize (Ok (0 : K)). clear - Hg. induction obs as [|pc obs IH]; intros r; [reflexivity|]. cbn [fold_left]. rewrite Hg. apply IH. }
      destruct (List.length nh =? 0)%nat eqn:El; cbn [negb] in H.
      + apply Nat.eqb_eq in El. destruct nh; [|discriminate]. cbn [snd bind] in H. rewrite Hf in H.
        assert (empty_heads None cl = Ok []) as Ee.
        { unfold add_paulis in Ea. destruct (map fst obs); [discriminate|]. injection Ea as <- Ea. exact Ea. }
        unfold update_distr. cbn [combine fold_left map]. rewrite Ee. cbn [bind is_nil]. exact H.
      + destruct (update_distr nh (map dev nh) None cl) as [cl' ro] eqn:Eu. destruct ro as [u|e|]; cbn [snd bind] in *; [|discriminate H|discriminate H]. rewrite Hf in H. exact H.
    - assert (forall l r, Forall (fun pc : pauli * K => List.length (fst pc) = (2 * n)%nat) l ->
        fold_left (fun values pcd => bind values (fun values => bind (signed_sum (fst (fst pcd)) (snd pcd)) (fun result => Ok (values + result * snd (fst pcd)))))
          (combine l (map snd (combine (map fst l) (map dev (map fst l))))) (Ok r) = Ok (r + element (2 * n) l psi psi)) as H.
      { induction l as [|[p c] l IH]; intros r Hl; [cbn; f_equal; unfold element; cbn; change (lsum [] _) with (0 : K); ring|]. inversion_clear Hl as [|? ? Hp Hl']. cbn [fst] in Hp.
        cbn [map combine fold_left fst snd bind]. rewrite (signed_sum_faithful s2 (2 * n) Hs ltac:(lia) psi p p (dev p)); auto.
        - cbn [bind]. rewrite IH by exact Hl'. f_equal. unfold element. rewrite lsum_cons. unfold expectation. cbn [fst snd]. ring.
        - split; auto. }
      rewrite H by exact Hlen. f_equal. ring.
  Qed.
  (** The same for custom parameters and for an interface that does not save; the
      determinants may then be empty. *)
  Theorem C53_without_saving s2 half n cf device (ansatz : list K -> list gate) run_parameters do_cliques bra ket obs opt reverse s :
    s2 * s2 + s2 * s2 = 1 -> half + half = 1 -> (0 < n)%nat -> exact_device s2 n device ->
    obs_ok n obs -> csf_ok n bra -> csf_ok n ket -> order_ok reverse bra ket -> is_enabled (qi_flags s) = false ->
    quantum_expectation_value_csfs (ev_nosave cf device run_parameters do_cliques obs) half (ansatz run_parameters) n JordanWigner opt bra ket reverse s
    = (s, Ok (matrix_element s2 n (ansatz run_parameters) obs (csf_state n bra) (csf_state n ket))).
  Proof.
    intros Hs Hh Hn Hd Ho C1 C2 Hr Hfl.
    destruct (csfs_generic (ev_nosave cf device run_parameters do_cliques obs) s2 half n (ansatz run_parameters) opt obs (fun d => List.length d = (2 * n)%nat)
        (fun s' => s' = s) bra ket reverse s) as (s' & E & ->); auto.
    - apply Ho.
    - intros s' d -> Hl. exists s. split; [|reflexivity]. unfold ev_nosave. f_equal. apply (nosave_exact s2); auto.
      intros h Hh'. apply (faithful_ext s2 (2 * n) (run s2 (x_gates d n ++ ansatz run_parameters) zero_state)); [now apply det_circuit|now apply Hd].
    - intros s' d e c -> Hl Hl' Hne Hc. exists s. split; [|reflexivity]. unfold ev_nosave. f_equal.
      rewrite <- (pair_value s2 half n (ansatz run_parameters) obs d e Hs Hh). apply (nosave_exact s2); auto.
      intros h Hh'. apply (faithful_ext s2 (2 * n) (run s2 (c ++ ansatz run_parameters) zero_state)); [now apply pair_circuit|now apply Hd].
    - apply C1.
    - apply C2.
  Qed.

  (** ** Errors *)
  Theorem C53_errors {St} (ev : list gate -> N -> nat -> SR (St:=St) K) half n ansatz m opt (bra ket : csf (K:=K)) reverse s :
    (m <> JordanWigner -> quantum_expectation_value_csfs ev half ansatz n m opt bra ket reverse s = (s, Raise TypeError)) /\
    (m = JordanWigner -> (List.length (fst bra) < List.length (snd bra))%nat -> snd ket <> [] -> (List.length (snd ket) <= List.length (fst ket))%nat ->
     quantum_expectation_value_csfs ev half ansatz n m opt bra ket reverse s = (s, Raise IndexError)).
  Proof.
    split; [destruct m; [congruence|reflexivity|reflexivity]|]. intros -> Hb Hk Hl. unfold quantum_expectation_value_csfs, sbind, slift.
    assert (all_combinations reverse bra ket = Raise IndexError) as ->; [|reflexivity]. unfold all_combinations.
    assert (forall ijs r, (r = Raise IndexError \/ exists acc, r = Ok acc) -> (forall ij, In ij ijs -> (snd ij < List.length (fst ket))%nat) ->
      (r = Raise IndexError \/ exists ij, In ij ijs /\ (List.length (fst bra) <= fst ij)%nat) ->
      fold_left (fun acc ij => bind acc (fun acc => bind (combination reverse bra ket (fst ij) (snd ij)) (fun e => Ok (acc ++ [e])))) ijs r = Raise IndexError) as H.
    { induction ijs as [|[i j] ijs IH]; intros r Hr Hj He.
      - destruct He as [He|(ij & [] & _)]. exact He.
      - cbn [fold_left fst snd]. assert (j < List.length (fst ket))%nat as Hj0 by (apply (Hj (i, j)); now left). apply IH; [| intros; apply Hj; now right |].
        + destruct Hr as [->|(acc & ->)]; [now left|]. cbn [bind]. unfold combination, get_coeff. rewrite (nth_error_nth' (fst ket) 0 Hj0).
          destruct (nth_error (fst bra) i); cbn [bind]; eauto.
        + destruct Hr as [->|(acc & ->)]; [now left|]. destruct He as [He|(ij & [<-|Hij] & Hge)]; [discriminate| |right; eauto].
          left. cbn [fst] in Hge. cbn [bind]. unfold combination, get_coeff. rewrite (proj2 (nth_error_None _ _) Hge). reflexivity. }
    apply H; [eauto| |right].
    - intros [i j] Hij. apply in_prod_iff in Hij as [_ Hj]. apply in_seq in Hj. cbn. lia.
    - exists (List.length (fst bra), 0%nat). split; [|cbn; lia]. apply in_prod; apply in_seq; [lia|]. destruct (snd ket); [congruence|cbn; lia].
  Qed.

  (** Descending order and different numbers of electrons: if the determinant with
      fewer electrons is contained in the other one, the circuit cannot be built,
      although the matrix element in ascending order can. *)
  Theorem C53_descending_refuted {St} (ev : list gate -> N -> nat -> SR (St:=St) K) half n ansatz opt a b d e s :
    List.length d = (2 * n)%nat -> List.length e = (2 * n)%nat -> d <> e -> (forall p, nth p e false = true -> nth p d false = true) ->
    quantum_expectation_value_csfs ev half ansatz n JordanWigner opt ([a], [d]) ([b], [e]) true s = (s, Raise ValueError).
  Proof.
    intros Hd He Hne Hsub. unfold quantum_expectation_value_csfs, sbind, slift. rewrite all_combinations_ok by (cbn; lia).
    cbn [snd List.length seq list_prod map app combo fst nth unique_combinations fold_left add_combination].
    assert (sorted_pair true d e = (d, e)) as ->.
    { unfold sorted_pair. destruct (det_ltb d e) eqn:E; [|reflexivity]. destruct (ltb_place d e ltac:(congruence) E) as (p & P1 & P2). rewrite (Hsub p P1) in P2. discriminate. }
    cbn [csf_loop csf_term]. destruct (det_eqb_spec d e) as [E|_]; [contradiction|]. unfold sbind, slift.
    pose proof (C45_superposition (K:=K) 0 n d e (Dof n d) (Dof n e) JordanWigner Hd He (blocked_exists n d) (blocked_exists n e)) as H.
    destruct (get_determinant_superposition_reference d e n JordanWigner) as [c|x|]; [|destruct x; try contradiction; try congruence; reflexivity|contradiction].
    destruct H as (_ & (p & P1 & P2) & _). rewrite (Hsub p P1) in P2. discriminate.
  Qed.
End Props.

(** A determinant without electrons: the key of the pair is the key of its second
    determinant, and the saved distributions of the superposition are used for the
    determinant. *)
Definition csf_dev (par : list q2) (c : list (gate (K:=q2))) (h : pauli) : dist :=
  map (fun x => (x, cnorm2 (run q2s (c ++ to_CBS_measurement h) zero_state x))) (alldets (List.length h)).
Definition q2half : q2 := {| qa := Q2Qc (1 # 2); qb := 0 |}.
Lemma csf_dev_exact n : exact_device q2s n csf_dev.
Proof.
  intros par c h Hh. unfold csf_dev. rewrite Hh. pose proof (ideal_faithful q2s (2 * n) (run q2s c zero_state) h) as H.
  erewrite map_ext; [exact H|]. intros x. cbv beta. now rewrite run_app.
Qed.
Definition csf_cf (na nb n : nat) : config (K:=q2) :=
  {| cf_div := q2_div; cf_mapper := JordanWigner; cf_elec := (na, nb); cf_qubits := (2 * n)%nat; cf_M := fun l => Ok l |}.
Definition no_flags : flags := flags_init false false false false.
Definition csf_empty : qi (K:=q2) := {| qi_par := []; qi_flags := no_flags; qi_saver := [] |}.
Definition vals (v : q2) : Q * Q := (this (qa v), this (qb v)).
Theorem C53_empty_determinant_refuted :
  exists (bra ket : csf (K:=q2)) obs, csf_ok 1 bra /\ csf_ok 1 ket /\ obs_ok 1 obs /\
  exists v w, snd (csf_step (csf_cf 1 1 1) csf_dev (fun _ _ => false) 0 q2half (fun _ => []) 1 (CallCsf bra ket obs 0 false) csf_empty) = Ok (Some v) /\
  w = matrix_element q2s 1 [] obs (csf_state 1 bra) (csf_state 1 ket) /\
  vals v = (1 # 2, 0)%Q /\ vals w = (1, 0)%Q.
Proof.
  exists ([q2n 1], [[false; false]]), ([q2n 1], [[true; true]]), [([LX; LX], q2n 1)].
  split; [split; [cbn; lia|repeat constructor]|]. split; [split; [cbn; lia|repeat constructor]|]. split; [split; [discriminate|repeat constructor]|].
  eexists. eexists. split; [vm_compute; reflexivity|]. split; [reflexivity|]. split; vm_compute; reflexivity.
Qed.

(** Non-vacuity: the two open-shell singlet and closed-shell configurations of two
    electrons in two orbitals, an ansatz with a rotation, a history with a saved
    reference. *)
Definition ex_bra : csf (K:=q2) := ([q2s; q2s], [[true; false; false; true]; [false; true; true; false]]).
Definition ex_ket : csf (K:=q2) := ([q2n 1; q2n 1], [[true; true; false; false]; [false; true; true; false]]).
Definition ex_obs : list (pauli * q2) := [([LX; LX; LI; LI], q2n 1); ([LZ; LI; LI; LI], q2n 3); ([LI; LZ; LZ; LI], q2n 2)].
Definition ex_ansatz (par : list q2) : list (gate (K:=q2)) := [GRY q2s q2s 0; GCX 0 3; GH 1].
Definition ex_hist : list (csf_call (K:=q2)) :=
  [CallHF ex_obs; CallCsf ex_bra ex_bra ex_obs 0 false; CallSet [q2n 1]; CallCsf ex_ket ex_bra [([LZ; LZ; LZ; LZ], q2n 1)] 2 true].
Example C53_ex_hyps : radd q2half q2half = rI /\ closed_or_doublet (cf_elec (csf_cf 1 1 2)) 2 /\ Forall (call_fine 2) ex_hist /\
  csf_ok 2 ex_bra /\ csf_ok 2 ex_ket /\ with_electrons ex_bra /\ with_electrons ex_ket /\ order_ok true ex_bra ex_ket.
Proof.
  assert (csf_ok 2 ex_bra /\ csf_ok 2 ex_ket /\ with_electrons ex_bra /\ with_electrons ex_ket) as (A & B & D & E).
  { unfold csf_ok, with_electrons. repeat split; try (cbn; lia); repeat (apply Forall_cons || apply Forall_nil); cbn; auto 10. }
  split; [vm_compute; f_equal; apply Qc_is_canon; reflexivity|]. split; [split; cbn; auto with arith; lia|]. split.
  - repeat (apply Forall_cons || apply Forall_nil); cbn [call_fine]; repeat (split; try assumption); try discriminate; repeat constructor.
  - repeat (split; [assumption|]). right. intros d e Hd He. cbn in Hd, He.
    repeat (destruct Hd as [<-|Hd]; [repeat (destruct He as [<-|He]; [reflexivity|]); destruct He|]). destruct Hd.
Qed.
Example C53_ex_value :
  let s := csf_run (csf_cf 1 1 2) csf_dev (fun a b => Qc_eq_bool (qa a) (qa b) && Qc_eq_bool (qb a) (qb b)) 1 q2half ex_ansatz 2 ex_hist csf_empty in
  List.length (qi_saver s) = 6%nat /\
  match snd (csf_step (csf_cf 1 1 2) csf_dev (fun _ _ => false) 1 q2half ex_ansatz 2 (CallCsf ex_bra ex_ket ex_obs 0 true) s) with
  | Ok (Some v) => vals v | _ => (0, 0)%Q end = (0, 1 # 2)%Q.
Proof. vm_compute. auto. Qed.

Print Assumptions C53_matrix_element.
Print Assumptions C53_without_saving.
Print Assumptions C53_errors.
Print Assumptions C53_descending_refuted.
Print Assumptions C53_empty_determinant_refuted.
