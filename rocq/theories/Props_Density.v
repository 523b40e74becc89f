(** Properties C26-C28 and C56-C59: density matrices, energy, orbital gradients
    and orbital response blocks. *)
From Coq Require Import List Bool Arith NArith ZArith QArith Qcanon Lia Ring Permutation.
From Verif Require Import Base Fock FockMore FermiModel FermiProofs FermiFold OperatorsModel OperatorsProofs OperatorsSums OperatorsActs
  OperatorsActive OperatorsKeys Props_Operators CIModel CIProofs StateModel StateBits StateProofs StateMore Props_State
  FockInner DensityModel DensityProofs DensityExpect DensityResponse DensityFill DensityState.
Import ListNotations.
Open Scope nat_scope.

Section Density.
  Context {K : Type} {C : CRing K}.
  Local Open Scope K_scope.
  Add Ring KringPD : (@rth K C).
  Notation dict := (list (fstring * K)).

  (** [psi] is a normalised state of [N] spatial orbitals in which the first
      [ni] orbitals are doubly occupied and the orbitals from [ni + na] on are
      empty. *)
  Definition active_state (N ni na : nat) (psi : amps (K:=K)) : Prop :=
    (ni + na <= N)%nat /\
    (forall d, ~ ((forall p, (p < 2 * ni)%nat -> occ d p = true) /\ (forall p, (2 * (ni + na) <= p)%nat -> occ d p = false)) ->
       psi d = 0) /\
    ip (2 * N) psi psi = 1.
  (** [rdm1] and [rdm2] are the density matrices of the active orbitals. *)
  Definition active_dms (N ni na : nat) (psi : amps (K:=K)) (rdm1 : nat -> nat -> K) (rdm2 : nat -> nat -> nat -> nat -> K) : Prop :=
    (forall i j, (i < na)%nat -> (j < na)%nat -> rdm1 i j = ip (2 * N) psi (Eact (ni + i) (ni + j) psi)) /\
    (forall i j k l, (i < na)%nat -> (j < na)%nat -> (k < na)%nat -> (l < na)%nat ->
       rdm2 i j k l = ip (2 * N) psi (eact (ni + i) (ni + j) (ni + k) (ni + l) psi)).

  Section OneState.
    Variables (N ni na : nat) (psi : amps (K:=K)) (rdm1 : nat -> nat -> K) (rdm2 : nat -> nat -> nat -> nat -> K).
    Hypothesis Hst : active_state N ni na psi.
    Hypothesis Hdm : active_dms N ni na psi rdm1 rdm2.
    Notation ev F := (ip (2 * N) psi (F psi)).

    Let HN : (ni + na <= N)%nat := proj1 Hst.
    Let Hs : supp ni na psi := proj1 (proj2 Hst).
    Let Hn : ip (2 * N) psi psi = 1 := proj2 (proj2 Hst).
    Let H1 := proj1 Hdm.
    Let H2 := proj2 Hdm.

    (** C26: the one-electron density matrix of all orbitals. *)
    Theorem C26_RDM1 p q : (p < N)%nat -> (q < N)%nat -> RDM1 p q ni na rdm1 = ip (2 * N) psi (Eact p q psi).
    Proof. exact (RDM1_ok N ni na psi HN Hs Hn rdm1 H1 p q). Qed.

    (** C26: the two-electron density matrix of all orbitals. *)
    Theorem C26_RDM2 p q r s : (p < N)%nat -> (q < N)%nat -> (r < N)%nat -> (s < N)%nat ->
      RDM2 p q r s ni na rdm1 rdm2 = ip (2 * N) psi (eact p q r s psi).
    Proof. exact (RDM2_ok N ni na psi HN Hs Hn rdm1 rdm2 H1 H2 p q r s). Qed.

    (** C27: the energy is the expectation value of the Hamiltonian of all [N]
        orbitals, although the loops stop at the last active orbital. *)
    Theorem C27_energy half h g : get_electronic_energy half h g ni na rdm1 rdm2 = ev (Hact half h g N).
    Proof. exact (energy_ok N ni na psi HN Hs Hn rdm1 rdm2 H1 H2 half h g). Qed.

    Variables (half : K) (h : nat -> nat -> K) (g : nat -> nat -> nat -> nat -> K).
    Notation H := (Hact half h g N).
    Definition pairs_in (kappa : list (nat * nat)) : Prop := forall mn, In mn kappa -> (fst mn < N)%nat /\ (snd mn < N)%nat.
    Definition real_integrals : Prop :=
      half + half = 1 /\
      (forall p q, (p < N)%nat -> (q < N)%nat -> h p q = h q p) /\
      (forall p q r s, (p < N)%nat -> (q < N)%nat -> (r < N)%nat -> (s < N)%nat -> g p q r s = g r s p q) /\
      (forall p q r s, (p < N)%nat -> (q < N)%nat -> (r < N)%nat -> (s < N)%nat -> g p q r s = g q p s r).

    (** C56: the orbital gradient is the expectation value of the commutator of
        the rotation generator [E_mn - E_nm] with the Hamiltonian. *)
    Theorem C56_orbital_gradient kappa : real_integrals -> pairs_in kappa ->
      get_orbital_gradient h g kappa ni na rdm1 rdm2
      = map (fun mn => ev (comm (fun f x => Eact (fst mn) (snd mn) f x - Eact (snd mn) (fst mn) f x) H)) kappa.
    Proof.
      intros (Hh1 & Hh2 & Hg1 & Hg2) Hk. unfold get_orbital_gradient. apply map_ext_in. intros [m n] Hin. destruct (Hk _ Hin) as [Hm Hn']. cbn [fst snd] in *.
      now apply (gradient_elem_ok N ni na psi HN Hs Hn rdm1 rdm2 H1 H2 half h g).
    Qed.

    (** C57: the response gradient: expectation values of the commutators of the
        excitation [E_mn / sqrt 2] (first half) and de-excitation operators
        (second half) with the Hamiltonian. *)
    Theorem C57_response_gradient s2 kappa : real_integrals -> pairs_in kappa ->
      get_orbital_gradient_response half s2 h g kappa ni na rdm1 rdm2
      = map (fun mn => s2 * ev (comm (Eact (fst mn) (snd mn)) H)) kappa
        ++ map (fun mn => s2 * ev (comm (Eact (snd mn) (fst mn)) H)) kappa.
    Proof.
      intros (Hh1 & Hh2 & Hg1 & Hg2) Hk. unfold get_orbital_gradient_response. rewrite map_app, !map_map. f_equal; apply map_ext_in;
        intros [m n] Hin; destruct (Hk _ Hin) as [Hm Hn']; cbn [fst snd] in *; f_equal;
        now apply (response_elem_ok N ni na psi HN Hs Hn rdm1 rdm2 H1 H2 half h g).
    Qed.

    (** C57: entries of a Hessian block: [1/2 <[E_tu, [H, E_mn]]>]; no symmetry of
        the integrals is needed.  The block is a square array of size
        [len(kappa_idx1)]. *)
    Theorem C57_hessian_block kappa1 kappa2 : pairs_in kappa1 -> pairs_in kappa2 -> (length kappa2 <= length kappa1)%nat ->
      exists M, get_orbital_response_hessian_block half h g kappa1 kappa2 ni na rdm1 rdm2 = Ok M /\ length M = length kappa1 /\
      forall i j t u m n, nth_error kappa1 i = Some (t, u) -> nth_error kappa2 j = Some (m, n) ->
        nth j (nth i M []) 0 = half * ev (comm (Eact t u) (comm H (Eact m n))).
    Proof.
      intros Hk1 Hk2 Hl. unfold get_orbital_response_hessian_block.
      replace (length kappa1 <? length kappa2)%nat with false by (symmetry; apply Nat.ltb_ge; exact Hl). cbn [andb].
      eexists. split; [reflexivity|]. split; [now rewrite map_length|]. intros i j t u m n Hi Hj.
      set (row := fun tu => map (hessian_elem half h g ni na rdm1 rdm2 tu) kappa2 ++ repeat 0 (length kappa1 - length kappa2)).
      rewrite (nth_error_nth _ _ [] (map_nth_error row i kappa1 Hi)). unfold row.
      rewrite app_nth1 by (rewrite map_length; apply nth_error_Some; congruence).
      rewrite (nth_error_nth _ _ 0 (map_nth_error (hessian_elem half h g ni na rdm1 rdm2 (t, u)) j kappa2 Hj)).
      pose proof (Hk1 _ (nth_error_In _ _ Hi)) as [Ht Hu]. pose proof (Hk2 _ (nth_error_In _ _ Hj)) as [Hm Hn']. cbn [fst snd] in *.
      now apply (hess_ok N ni na psi HN Hs Hn rdm1 rdm2 H1 H2).
    Qed.
    (** A second list longer than the first is out of bounds. *)
    Theorem C57_hessian_block_bounds kappa1 kappa2 : kappa1 <> [] -> (length kappa1 < length kappa2)%nat ->
      get_orbital_response_hessian_block half h g kappa1 kappa2 ni na rdm1 rdm2 = Raise IndexError.
    Proof.
      intros Hne Hl. unfold get_orbital_response_hessian_block.
      replace (length kappa1 <? length kappa2)%nat with true by (symmetry; apply Nat.ltb_lt; exact Hl).
      destruct kappa1; [easy|]. reflexivity.
    Qed.

    (** C58: the metric: entry [(n, m), (p, q)] is [1/2 <[E_pq, E_mn]>]. *)
    Theorem C58_metric kappa : pairs_in kappa ->
      length (get_orbital_response_metric_sigma half kappa ni na rdm1) = length kappa /\
      forall i j n m p q, nth_error kappa i = Some (n, m) -> nth_error kappa j = Some (p, q) ->
        nth j (nth i (get_orbital_response_metric_sigma half kappa ni na rdm1) []) 0 = half * ev (comm (Eact p q) (Eact m n)).
    Proof.
      intros Hk. unfold get_orbital_response_metric_sigma. split; [now rewrite map_length|]. intros i j n m p q Hi Hj.
      rewrite (nth_error_nth _ _ [] (map_nth_error _ i kappa Hi)).
      rewrite (nth_error_nth _ _ 0 (map_nth_error (metric_sigma_elem half ni na rdm1 (n, m)) j kappa Hj)).
      pose proof (Hk _ (nth_error_In _ _ Hi)) as [? ?]. pose proof (Hk _ (nth_error_In _ _ Hj)) as [? ?]. cbn [fst snd] in *.
      now apply (sigma_elem_ok N ni na psi HN Hs Hn rdm1 H1).
    Qed.

    (** The one-electron operator with the given coefficients. *)
    Definition Osum (L : list (K * (nat * nat))) (f : amps (K:=K)) : amps := fun x =>
      lsum L (fun c => fst c * Eact (fst (snd c)) (snd (snd c)) f x).

    Lemma Osum_ext L (f f' : amps) : (forall x, f x = f' x) -> forall x, Osum L f x = Osum L f' x.
    Proof. intros E x. apply lsum_ext. intros c _. f_equal. now apply Eact_ext. Qed.
    Lemma E_Osum p q L f x : Eact p q (Osum L f) x = lsum L (fun c => fst c * Eact p q (Eact (fst (snd c)) (snd (snd c)) f) x).
    Proof.
      unfold Osum. induction L as [|c L IH].
      - transitivity (Eact p q (fun _ => 0 * 0) x); [apply Eact_ext; intros; cbn; ring|]. rewrite (Eact_scale p q). cbn. ring.
      - rewrite lsum_cons, <- IH, <- Eact_scale, <- Eact_add. apply Eact_ext. intros e. now rewrite lsum_cons.
    Qed.
    Lemma ev_comm_Osum L L' :
      ev (comm (Osum L) (Osum L')) = lsum L (fun c => lsum L' (fun c' =>
        fst c * fst c' * ev (comm (Eact (fst (snd c)) (snd (snd c))) (Eact (fst (snd c')) (snd (snd c')))))).
    Proof.
      transitivity (ip (2 * N) psi (fun x => lsum L (fun c => lsum L' (fun c' =>
        fst c * fst c' * comm (Eact (fst (snd c)) (snd (snd c))) (Eact (fst (snd c')) (snd (snd c'))) psi x)))).
      - apply ip_ext; [reflexivity|]. intros x. unfold comm.
        rewrite (lsum_ext L _ (fun c => fst c * Eact (fst (snd c)) (snd (snd c)) (Osum L' psi) x
          - fst c * lsum L' (fun c' => fst c' * Eact (fst (snd c')) (snd (snd c')) (Eact (fst (snd c)) (snd (snd c)) psi) x))).
        2:{ intros c _. rewrite E_Osum.
            transitivity (lsum L' (fun c' => fst c * (fst c' * Eact (fst (snd c)) (snd (snd c)) (Eact (fst (snd c')) (snd (snd c')) psi) x)
               + (- (1)) * (fst c * (fst c' * Eact (fst (snd c')) (snd (snd c')) (Eact (fst (snd c)) (snd (snd c)) psi) x)))).
            - apply lsum_ext. intros c' _. ring.
            - rewrite lsum_add, !lsum_scale. ring. }
        transitivity (lsum L (fun c => fst c * Eact (fst (snd c)) (snd (snd c)) (Osum L' psi) x)
          + (- (1)) * lsum L (fun c => fst c * lsum L' (fun c' => fst c' * Eact (fst (snd c')) (snd (snd c')) (Eact (fst (snd c)) (snd (snd c)) psi) x))).
        + change (Osum L (Osum L' psi) x) with (lsum L (fun c => fst c * Eact (fst (snd c)) (snd (snd c)) (Osum L' psi) x)).
          assert (Osum L' (Osum L psi) x = lsum L (fun c => fst c * lsum L' (fun c' => fst c' * Eact (fst (snd c')) (snd (snd c')) (Eact (fst (snd c)) (snd (snd c)) psi) x))) as ->; [|ring].
          unfold Osum at 1.
          transitivity (lsum L' (fun c' => lsum L (fun c => fst c' * (fst c * Eact (fst (snd c')) (snd (snd c')) (Eact (fst (snd c)) (snd (snd c)) psi) x)))).
          * apply lsum_ext. intros c' _. rewrite E_Osum, lsum_scale. reflexivity.
          * rewrite lsum_swap. apply lsum_ext. intros c _. rewrite <- lsum_scale. apply lsum_ext. intros c' _. ring.
        + rewrite <- lsum_scale, <- lsum_add. apply lsum_ext. intros c _. ring.
      - rewrite (ip_lsum (2 * N) psi L (fun c x => lsum L' (fun c' =>
          fst c * fst c' * comm (Eact (fst (snd c)) (snd (snd c))) (Eact (fst (snd c')) (snd (snd c'))) psi x))).
        apply lsum_ext. intros c _.
        rewrite (ip_lsum (2 * N) psi L' (fun c' x =>
          fst c * fst c' * comm (Eact (fst (snd c)) (snd (snd c))) (Eact (fst (snd c')) (snd (snd c'))) psi x)).
        apply lsum_ext. intros c' _. apply (ip_scale (2 * N)).
    Qed.

    (** The excitation operator described by the column [rv]:
        [sum_i Z_i q_i + Y_i q_i^+] with [q_i = E_mn / sqrt 2]. *)
    Definition exc (s2 : K) (z y : nat -> K) (kappa : list (nat * nat)) : list (K * (nat * nat)) :=
      map (fun imn => (s2 * z (fst imn), snd imn)) (enumerate kappa)
      ++ map (fun imn => (s2 * y (fst imn), swp (snd imn))) (enumerate kappa).

    (** C58: the norm [<[O, O^+]>] of an orbital excitation operator, when no
        pair rotates two active orbitals among themselves. *)
    Theorem C58_norm s2 kappa (rv : nat -> K) ne : s2 * s2 = half -> pairs_in kappa ->
      (forall m n, In (m, n) kappa -> (m < ni /\ ni <= n \/ ni <= m < ni + na /\ ni + na <= n)%nat) ->
      get_orbital_response_vector_norm half kappa ni na rdm1 rv ne
      = ev (comm (Osum (exc s2 rv (fun i => rv (i + ne)%nat) kappa)) (Osum (exc s2 (fun i => rv (i + ne)%nat) rv kappa))).
    Proof.
      intros Hs2 Hk Hpart. rewrite ev_comm_Osum. unfold exc. rewrite lsum_app, !lsum_map. cbn [fst snd].
      rewrite (norm_ok N ni na psi HN Hs Hn rdm1 H1) by exact Hk.
      rewrite <- lsum_scale, <- lsum_add. apply lsum_ext. intros [i [m n]] Hi.
      rewrite !lsum_app, !lsum_map. cbn [fst snd swp].
      rewrite <- lsum_scale, <- !lsum_add. apply lsum_ext. intros [j [t u]] Hj. cbn [fst snd].
      apply in_enumerate in Hi, Hj. destruct (Hk _ Hi) as [Hm Hn']. destruct (Hk _ Hj) as [Ht Hu]. cbn [fst snd] in *.
      assert (ev (comm (Eact m n) (Eact t u)) = 0 /\ ev (comm (Eact n m) (Eact u t)) = 0) as [-> ->].
      { rewrite !(ev_comm_EE N psi). apply Hpart in Hi, Hj.
        assert (kdelta n t * G1 N psi m u = 0) as A1.
        { unfold kdelta. destruct (Nat.eqb_spec n t); [|ring]. rewrite (G1_virtual N ni na psi HN Hs) by (auto; lia). ring. }
        assert (kdelta m u * G1 N psi t n = 0) as A2.
        { unfold kdelta. destruct (Nat.eqb_spec m u); [|ring]. rewrite (G1_virtual N ni na psi HN Hs) by (auto; lia). ring. }
        rewrite A1, A2. rewrite (G1_sym N psi n t), (G1_sym N psi u m) by auto. rewrite A1, A2. split; ring. }
      rewrite <- Hs2. ring.
    Qed.

    (** C58: the property gradient is [<[O, X]>] with [O = sum_i Y_i q_i + Z_i q_i^+]. *)
    Theorem C58_property_gradient s2 x kappa (rv : nat -> K) ne : pairs_in kappa ->
      (forall p q, (p < N)%nat -> (q < N)%nat -> x p q = x q p) ->
      get_orbital_response_property_gradient s2 x kappa ni na rdm1 rv ne
      = lsum (exc s2 (fun i => rv (i + ne)%nat) rv kappa) (fun c => fst c * ev (comm (Eact (fst (snd c)) (snd (snd c))) (Xact x N))).
    Proof.
      intros Hk Hx. rewrite (property_ok N ni na psi HN Hs Hn rdm1 H1) by auto. unfold exc. rewrite lsum_app, !lsum_map. cbn [fst snd swp].
      rewrite <- lsum_scale, <- lsum_add. apply lsum_ext. intros [i [m n]] _. cbn [fst snd]. ring.
    Qed.
  End OneState.

  (** ** Density matrices computed by the wave function *)
  Section WaveFunction.
    Variables (tiny : K -> bool) (sp : @space) (th : threads) (ansatz : bool -> list K -> Res (list K)) (nalpha nbeta : Z) (st : list K).
    (** The parameters of a wave function: threshold below which amplitudes
        count as zero, orbital partition, number of active electrons of each
        spin, and a CI vector over the resulting determinants. *)
    Definition wf_setup : Prop :=
      (forall c, tiny c = true -> c = 0) /\ exact_small K /\ (0 < sp_na sp)%nat /\
      get_indexing (sp_na sp) nalpha nbeta = Ok (sp_ci sp) /\
      (forall order, th = Some order -> Permutation order (seq 0 (length (idx2det (sp_ci sp))))) /\
      length st = length (idx2det (sp_ci sp)).
    Hypothesis Hw : wf_setup.
    Notation ni := (sp_ni sp).
    Notation na := (sp_na sp).
    Notation N := (sp_ni sp + sp_na sp + sp_nv sp)%nat.
    (** The state in the full orbital space. *)
    Notation Psi := (fket sp st).

    Ltac setup := destruct Hw as (Hex & Hsm & Hpos & Hidx & Hth & Hlen).

    Lemma gk2 p q r s : Gk N Psi [(p, q); (r, s)] = ip (2 * N) Psi (eact p q r s Psi).
    Proof. symmetry. apply G2_ek. Qed.

    (** C28: [rdm1] and [rdm2] succeed and every entry is the expectation value,
        for the state with filled inactive and empty virtual orbitals. *)
    Theorem C28_rdm1_rdm2 : exists r1 r2,
      wf_rdm1 tiny sp th ansatz st = Ok r1 /\ wf_rdm2 tiny sp th ansatz st = Ok r2 /\
      active_dms N ni na Psi (fun i j => r1 [i; j]) (fun i j k l => r2 [i; j; k; l]).
    Proof.
      setup. destruct (wf_rdm1_ok tiny sp th false ansatz nalpha nbeta Hex Hsm Hpos Hidx Hth st Hlen eq_refl) as (r1 & E1 & A1).
      destruct (wf_rdm2_ok tiny sp th false ansatz nalpha nbeta Hex Hsm Hpos Hidx Hth st Hlen eq_refl) as (r2 & E2 & A2).
      exists r1, r2. split; [exact E1|]. split; [exact E2|]. split; [exact A1|].
      intros i j k l Hi Hj Hk Hl. rewrite A2 by auto. apply gk2.
    Qed.

    (** The state is an active-space state, normalised when the vector is. *)
    Theorem C28_state : dot st st = 1 -> active_state N ni na Psi.
    Proof.
      setup. intros Hn. split; [lia|]. split; [exact (fket_supp sp Hpos st)|].
      rewrite (norm_fket sp nalpha nbeta Hpos Hidx st Hlen). exact Hn.
    Qed.

    (** C59: three- and four-electron density matrices. *)
    Theorem C59_rdm3_rdm4 : exists r3 r4,
      wf_rdm3 tiny sp th ansatz st = Ok r3 /\ wf_rdm4 tiny sp th ansatz st = Ok r4 /\
      (forall i j k l m n, (i < na)%nat -> (j < na)%nat -> (k < na)%nat -> (l < na)%nat -> (m < na)%nat -> (n < na)%nat ->
        r3 [i; j; k; l; m; n] = ip (2 * N) Psi (ek [(ni + i, ni + j); (ni + k, ni + l); (ni + m, ni + n)]%nat Psi)) /\
      (forall i j k l m n a b, (i < na)%nat -> (j < na)%nat -> (k < na)%nat -> (l < na)%nat -> (m < na)%nat -> (n < na)%nat ->
        (a < na)%nat -> (b < na)%nat ->
        r4 [i; j; k; l; m; n; a; b]
        = ip (2 * N) Psi (ek [(ni + i, ni + j); (ni + k, ni + l); (ni + m, ni + n); (ni + a, ni + b)]%nat Psi)).
    Proof.
      setup. destruct (wf_rdm3_ok tiny sp th false ansatz nalpha nbeta Hex Hsm Hpos Hidx Hth st Hlen eq_refl) as (r3 & E3 & A3).
      destruct (wf_rdm4_ok tiny sp th false ansatz nalpha nbeta Hex Hsm Hpos Hidx Hth st Hlen eq_refl) as (r4 & E4 & A4).
      exists r3, r4. auto.
    Qed.

    (** C27: the two ways the optimiser evaluates the energy, from the density
        matrices and as an expectation value of the active-space Hamiltonian,
        agree. *)
    Theorem C27_energy_paths half h g : dot st st = 1 ->
      exists D e, hamiltonian_0i_0a half h g ni na = Ok D /\
        expectation_value tiny sp th true false ansatz st [SOp D] st = Ok e /\
        wf_rdm_energy half tiny h g sp th ansatz st = Ok e /\
        e = ip (2 * N) Psi (Hact half h g N Psi).
    Proof.
      setup. intros Hn.
      destruct (hamiltonian_expectation tiny sp th false ansatz nalpha nbeta Hex Hsm Hpos Hidx Hth st Hlen half h g) as (D & E1 & E2).
      exists D, (ip (2 * N) Psi (Hact half h g N Psi)). split; [exact E1|]. split; [exact E2|]. split; [|reflexivity].
      now apply (rdm_energy_ok tiny sp th false ansatz nalpha nbeta Hex Hsm Hpos Hidx Hth st Hlen eq_refl).
    Qed.
  End WaveFunction.
End Density.

(** Rational coefficients for the examples. *)
#[export] Instance Qc_CRing : CRing Qc := {
  rO := 0%Qc; rI := 1%Qc; radd := Qcplus; rmul := Qcmult; rsub := Qcminus; ropp := Qcopp;
  rth := Qcrt;
  small := fun q => Qc_eq_bool q 0%Qc
}.
Definition qc (a : Z) (b : positive) : Qc := Q2Qc (a # b).

(** Two electrons in two active orbitals, one inactive and one virtual orbital;
    the vector (3/5, 0, 0, 4/5). *)
Definition ex_ci : ci_info := match get_indexing 2 1 1 with Ok c => c | _ => {| idx2det := []; det2idx := [] |} end.
Definition ex_sp : @space := {| sp_ni := 1; sp_na := 2; sp_nv := 1; sp_ci := ex_ci |}.
Definition ex_st : list Qc := [qc 3 5; qc 0 1; qc 0 1; qc 4 5].
Definition ex_tiny (q : Qc) : bool := Qc_eq_bool q 0%Qc.
Definition ex_anz (b : bool) (s : list Qc) : Res (list Qc) := Ok s.
Example C28_example_setup : wf_setup ex_tiny ex_sp (Some [2; 0; 3; 1]) 1 1 ex_st /\ dot ex_st ex_st = 1%Qc.
Proof.
  assert (forall q, Qc_eq_bool q 0%Qc = true -> q = 0%Qc) as H by (intros q Hq; now apply Qc_eq_bool_correct).
  split; [|apply Qc_is_canon; vm_compute; reflexivity].
  split; [exact H|]. split; [exact H|]. split; [cbn; lia|]. split; [vm_compute; reflexivity|]. split; [|reflexivity].
  intros order E. injection E as <-. replace (length (idx2det (sp_ci ex_sp))) with 4 by (vm_compute; reflexivity). cbn [seq].
  change [0; 1; 2; 3] with ([0; 1] ++ 2 :: [3]). apply Permutation_cons_app. cbn [app]. apply perm_skip.
  apply (Permutation_cons_app [1] [] 3). apply Permutation_refl.
Qed.
Example C28_example : exists r1 r2,
  wf_rdm1 ex_tiny ex_sp None ex_anz ex_st = Ok r1 /\ wf_rdm2 ex_tiny ex_sp None ex_anz ex_st = Ok r2 /\
  this (r1 [0; 0]) = (18 # 25)%Q /\ this (r1 [1; 1]) = (32 # 25)%Q /\ this (r2 [0; 1; 0; 1]) = (24 # 25)%Q /\
  this (r2 [1; 1; 1; 1]) = (32 # 25)%Q.
Proof.
  eexists. eexists. split; [vm_compute; reflexivity|]. split; [vm_compute; reflexivity|]. vm_compute. auto.
Qed.

(** The hypotheses of C26, C27 and C56 to C58 hold for this state, with
    integrals that are not constant and the rotation list of one inactive, two
    active and one virtual orbital. *)
Definition ex_h (p q : nat) : Qc := qc (Z.of_nat (p + q)) 3.
Definition ex_g (p q r s : nat) : Qc := qc (Z.of_nat ((p + q) * (r + s))) 7.
Definition ex_kappa : list (nat * nat) := [(0, 1); (0, 2); (0, 3); (1, 3); (2, 3)].
Example C56_example :
  active_state 4 1 2 (fket ex_sp ex_st) /\
  (exists r1 r2, active_dms 4 1 2 (fket ex_sp ex_st) r1 r2 /\
    map this (get_orbital_gradient ex_h ex_g ex_kappa 1 2 r1 r2) = [-32 # 525; 204 # 175; 1884 # 175; 1236 # 175; 6656 # 525]%Q) /\
  real_integrals 4 (qc 1 2) ex_h ex_g /\ pairs_in 4 ex_kappa /\
  (forall m n, In (m, n) ex_kappa -> m < 1 /\ 1 <= n \/ 1 <= m < 1 + 2 /\ 1 + 2 <= n).
Proof.
  assert (wf_setup ex_tiny ex_sp None 1 1 ex_st) as Hw.
  { destruct C28_example_setup as [(A & B & D & E & _ & G) _]. repeat split; auto. discriminate. }
  split; [exact (C28_state ex_tiny ex_sp None 1 1 ex_st Hw (proj2 C28_example_setup))|].
  split; [|split; [|split]].
  - destruct (C28_rdm1_rdm2 ex_tiny ex_sp None ex_anz 1 1 ex_st Hw) as (r1 & r2 & E1 & E2 & Hd).
    exists (fun i j => r1 [i; j]), (fun i j k l => r2 [i; j; k; l]). split; [exact Hd|].
    vm_compute in E1. vm_compute in E2. 
    match type of E1 with Ok ?x = _ => assert (r1 = x) as -> by congruence end.
    match type of E2 with Ok ?x = _ => assert (r2 = x) as -> by congruence end.
    vm_compute. reflexivity.
  - split; [apply Qc_is_canon; vm_compute; reflexivity|]. unfold ex_h, ex_g. split; [|split]; intros; f_equal; lia.
  - intros mn. cbn. intros [<-|[<-|[<-|[<-|[<-|[]]]]]]; cbn; lia.
  - intros m n. cbn. intros [E|[E|[E|[E|[E|[]]]]]]; injection E as <- <-; lia.
Qed.

Print Assumptions C26_RDM1.
Print Assumptions C26_RDM2.
Print Assumptions C27_energy.
Print Assumptions C27_energy_paths.
Print Assumptions C28_rdm1_rdm2.
Print Assumptions C28_state.
Print Assumptions C56_orbital_gradient.
Print Assumptions C57_response_gradient.
Print Assumptions C57_hessian_block.
Print Assumptions C57_hessian_block_bounds.
Print Assumptions C58_metric.
Print Assumptions C58_norm.
Print Assumptions C58_property_gradient.
Print Assumptions C59_rdm3_rdm4.
