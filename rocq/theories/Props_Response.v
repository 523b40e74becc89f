(** Linear response with the naive parametrisation: what the constructor puts
    in the matrices A, B, Sigma and Delta, and when it refuses. *)
From Coq Require Import List Bool Arith NArith ZArith Ascii String Lia Ring Permutation.
From Coq Require Import QArith Qcanon.
From Verif Require Import Base Fock FockMore FermiModel FermiProofs FermiFold FermiAlgebra OperatorsModel OperatorsProofs OperatorsSums OperatorsActs
  OperatorsActive OperatorsGen OperatorsKeys OperatorsOne Props_Operators CIModel CIProofs StateModel StateProofs StateMore Props_State
  FockInner DensityModel DensityProofs DensityExpect DensityResponse DensityFill DensityState StructModel LRModel LRAlgebra LRProofs LRPools Props_Density Props_Qubit SpaceModel SpaceProofs Props_Space.
Import ListNotations.
Local Open Scope nat_scope.
Local Open Scope list_scope.

(** * The lists of the wave function *)
(** The orbital lists the response class reads, as natural numbers. *)
Definition orbitals_of (s : spaces) : orbitals :=
  let n := map Z.to_nat in
  let n2 := map (fun pq : Z * Z => (Z.to_nat (fst pq), Z.to_nat (snd pq))) in
  {| o_occ := n (active_occ_idx s); o_unocc := n (active_unocc_idx s);
     o_occ_spin := n (active_occ_spin (sp_spin s)); o_unocc_spin := n (active_unocc_spin (sp_spin s));
     o_kappa := n2 (kappa_noaa (sp_kappas s)); o_kappa_dagger := n2 (kappa_noaa_dagger (sp_kappas s)) |}.
(** C55: whatever (even) active space is requested, the lists a constructed wave
    function holds satisfy the condition the other theorems put on them. *)
Theorem C55_lists include ne no cas0 cas1 s : (0 <= ne <= no)%Z -> (cas0 <= 2 * ne \/ Z.even cas0 = true)%Z ->
  init_spaces true include (2 * ne) no cas0 cas1 = Ok s ->
  orbs_ok (Z.to_nat (num_inactive_orbs s)) (Z.to_nat (num_active_orbs s)) (Z.to_nat (num_virtual_orbs s)) (Z.to_nat ne) (orbitals_of s).
Proof.
  intros H Hc E. destruct (C31_pairs _ _ _ _ _ _ H Hc E) as (_ & _ & _ & _ & _ & _ & KN & KD & _).
  pose proof (accepted_even _ _ _ _ _ _ H E) as He.
  destruct (init_spec _ _ _ _ _ _ _ H Hc He E) as (l & h & Hl & Hh & L1 & L2 & E1 & E2 & E3 & E4 & E5 & E6 & E7 & E8 & _).
  assert (ES : active_occ_spin (sp_spin s) = zrange (2 * l) (2 * ne) /\ active_unocc_spin (sp_spin s) = zrange (2 * ne) (2 * h)).
  { unfold init_spaces in E. rewrite spin_partition_spec in E by lia. destruct (true && _); [discriminate|]. cbn [bind] in E.
    match type of E with Ok ?a = _ => assert (s = a) as -> by (symmetry; exact (f_equal (fun r => match r with Ok x => x | _ => s end) E)) end.
    cbn [sp_spin active_occ_spin active_unocc_spin]. now rewrite L1, L2. }
  destruct ES as [F1 F2]. rewrite E6, E7, E8. unfold orbs_ok, orbitals_of. cbn [o_occ o_unocc o_occ_spin o_unocc_spin o_kappa o_kappa_dagger].
  rewrite E4, E5, F1, F2, KD. rewrite E1, E2, E3 in KN.
  assert (R : forall a b p, In p (map Z.to_nat (zrange a b)) -> exists z, p = Z.to_nat z /\ (a <= z < b)%Z).
  { intros a b p Hp. apply in_map_iff in Hp as (z & <- & Hz). apply in_zrange in Hz. eauto. }
  split; [lia|]. split; [|split; [|split; [|split; [|split]]]].
  - intros p Hp. apply R in Hp as (z & -> & Hz). lia.
  - intros p Hp. apply R in Hp as (z & -> & Hz). lia.
  - intros p Hp. apply R in Hp as (z & -> & Hz). lia.
  - intros p Hp. apply R in Hp as (z & -> & Hz). lia.
  - intros p q Hi. apply in_map_iff in Hi as ([a b] & Eab & Hab). cbn [fst snd] in Eab. injection Eab as <- <-.
    apply KN in Hab. destruct Hab as (Ha & Hb & Hs). rewrite !in_zrange in Hs. lia.
  - rewrite !map_map. reflexivity.
Qed.

(** * Truncated Hamiltonians *)
Section Truncated.
  Context {K : Type} {C : CRing K}.
  Local Open Scope K_scope.
  Add Ring KringTr : (@rth K C).
  Hypothesis Hex : exact_small K.
  Variables (half : K) (h : nat -> nat -> K) (g : nat -> nat -> nat -> nat -> K) (ni na nv : nat).

  Lemma basis_support (Y : det -> Prop) y : Y y -> forall z, ~ Y z -> basis (K:=K) y z = 0.
  Proof. intros Hy z Hz. unfold basis. destruct (N.eqb_spec y z) as [->|]; [destruct (Hz Hy)|reflexivity]. Qed.

  (** C82: [hamiltonian_1i_1a] has the matrix elements of the full Hamiltonian
      between the active space (inactive orbitals filled, virtual ones empty) and
      the determinants with at most one electron missing from the inactive and at
      most one in the virtual orbitals. *)
  Theorem C82_hamiltonian_1i_1a : exists D1 D, hamiltonian_1i_1a half h g ni na nv = Ok D1 /\ hamiltonian_full_space half h g (ni + na + nv) = Ok D /\
    forall x y, asp ni na x /\ asp1 ni na y \/ asp1 ni na x /\ asp ni na y -> mel D1 x y = mel D x y.
  Proof.
    destruct (hamiltonian_1i_1a_rep Hex (fun _ => True) stable_true half h g ni na nv (TT_PEon _)) as (F & (D1 & E1 & _ & A1) & B1 & B2).
    destruct (C13_hamiltonian_action half h g (ni + na + nv) Hex) as (D & E & _ & A). exists D1, D. split; [exact E1|]. split; [exact E|].
    intros x y Hxy. unfold mel. rewrite A1, A. destruct Hxy as [[Hx Hy]|[Hx Hy]]; [apply B1|apply B2]; auto; intros z Hz; now apply (basis_support _ y Hy).
  Qed.
  (** C82: [hamiltonian_2i_2a] has them between any two such determinants. *)
  Theorem C82_hamiltonian_2i_2a : exists D2 D, hamiltonian_2i_2a half h g ni na nv = Ok D2 /\ hamiltonian_full_space half h g (ni + na + nv) = Ok D /\
    forall x y, asp1 ni na x -> asp1 ni na y -> mel D2 x y = mel D x y.
  Proof.
    destruct (hamiltonian_2i_2a_rep Hex (fun _ => True) stable_true half h g ni na nv (TT_PEon _)) as (F & (D1 & E1 & _ & A1) & B1).
    destruct (C13_hamiltonian_action half h g (ni + na + nv) Hex) as (D & E & _ & A). exists D1, D. split; [exact E1|]. split; [exact E|].
    intros x y Hx Hy. unfold mel. rewrite A1, A. apply B1; auto; intros z Hz; now apply (basis_support _ y Hy).
  Qed.
  (** C82: the same for one-electron operators. *)
  Theorem C82_one_electron : exists D0 D1 D, one_elec_op_0i_0a h ni na = Ok D0 /\ one_elec_op_1i_1a h ni na nv = Ok D1 /\ one_elec_op_full_space h (ni + na + nv) = Ok D /\
    (forall x y, asp ni na x -> asp ni na y -> mel D0 x y = mel D x y) /\
    (forall x y, asp ni na x /\ asp1 ni na y \/ asp1 ni na x /\ asp ni na y -> mel D1 x y = mel D x y).
  Proof.
    destruct (one_elec_full_rep Hex (fun _ => True) stable_true h (ni + na + nv) (TT_PEon _)) as (D & E & _ & A).
    destruct (one_elec_1i_1a_rep Hex (fun _ => True) stable_true h ni na nv (TT_PEon _)) as (F & (D1 & E1 & _ & A1) & B1 & B2).
    destruct (one_elec_0i_0a_rep Hex (fun _ => True) stable_true h ni na nv (TT_PEon _)) as (G & (D0 & E0 & _ & A0) & B0).
    exists D0, D1, D. split; [exact E0|]. split; [exact E1|]. split; [exact E|]. split.
    - intros x y Hx Hy. unfold mel. rewrite A0, A. apply B0; auto; intros z Hz; now apply (basis_support _ y Hy).
    - intros x y Hxy. unfold mel. rewrite A1, A. destruct Hxy as [[Hx Hy]|[Hx Hy]]; [apply B1|apply B2]; auto; intros z Hz; now apply (basis_support _ y Hy).
  Qed.
End Truncated.

Section Response.
  Context {K : Type} {C : CRing K}.
  Local Open Scope K_scope.
  Add Ring KringRs : (@rth K C).
  Notation act := (amps (K:=K) -> amps (K:=K)).
  Notation lc := (list (fstring * K)).

  Definition ext (F : act) : Prop := forall f g, (forall x, f x = g x) -> forall x, F f x = F g x.
  Definition peq (F G : act) : Prop := forall u x, F u x = G u x.
  Lemma ext_opapp (D : lc) : ext (opapp D).
  Proof. exact (proj1 (linear_opapp D)). Qed.
  Lemma ext_comm F G : ext F -> ext G -> ext (comm F G).
  Proof. intros HF HG f g E x. unfold comm. f_equal; [apply HF, HG, E|apply HG, HF, E]. Qed.
  Lemma peq_comm F F' G G' : ext F' -> ext G' -> peq F F' -> peq G G' -> peq (comm F G) (comm F' G').
  Proof.
    intros XF XG EF EG u x. unfold comm. f_equal.
    - rewrite EF. apply XF. intros. apply EG.
    - rewrite EG. apply XG. intros. apply EF.
  Qed.
  Lemma peq_refl F : peq F F.
  Proof. intros u x. reflexivity. Qed.
  Lemma existsb_pairs (large : K -> bool) {A} (a b : A -> K) l : existsb large (map a l ++ map b l) = existsb large (flat_map (fun x => [a x; b x]) l).
  Proof.
    rewrite existsb_app. induction l as [|x l IH]; [reflexivity|]. cbn [map flat_map app existsb]. rewrite <- IH.
    destruct (large (a x)), (large (b x)), (existsb large (map a l)), (existsb large (map b l)); reflexivity.
  Qed.

  Variables (tiny : K -> bool) (sp : @space) (th : threads) (ansatz : bool -> list K -> Res (list K)) (nalpha nbeta : Z) (st : list K).
  Variables (large : K -> bool) (L : @literals K) (O : orbitals) (m : nat) (h : nat -> nat -> K) (g : nat -> nat -> nat -> nat -> K) (excitations : string).
  Notation ni := (sp_ni sp).
  Notation na := (sp_na sp).
  Notation N := (sp_ni sp + sp_na sp + sp_nv sp)%nat.
  Notation half := (l_half L).
  Notation H := (Hact half h g N).
  Notation Psi := (fket sp st).
  (** Expectation value in the state of the wave function. *)
  Notation E F := (ip (2 * N) Psi (F Psi)).
  Notation orb := (x_orbital L O).
  Notation ops := (x_orbital L O ++ x_active L O excitations).
  (** The [i]-th operator of the response equations and its adjoint. *)
  Notation X i := (opapp (nth i ops [])).
  Notation Xd i := (opapp (lc_adj (nth i ops []))).
  (** Gradients of the energy with respect to all the response parameters. *)
  Definition gradients (l : list lc) : list K := flat_map (fun A => [E (comm (opapp (lc_adj A)) H); E (comm (opapp A) H)]) l.

  Definition response_setup : Prop :=
    wf_setup tiny sp th nalpha nbeta st /\ dot st st = 1 /\ real_integrals N half h g /\ l_s2 L * l_s2 L = half /\
    orbs_ok ni na (sp_nv sp) m O /\ (forall x, large (- x) = large x).
  Hypothesis Hset : response_setup.

  Let Hw : wf_setup tiny sp th nalpha nbeta st := proj1 Hset.
  Let Hn : dot st st = 1 := proj1 (proj2 Hset).
  Let Hr : real_integrals N half h g := proj1 (proj2 (proj2 Hset)).
  Let Hs2 := proj1 (proj2 (proj2 (proj2 Hset))).
  Let HO : orbs_ok ni na (sp_nv sp) m O := proj1 (proj2 (proj2 (proj2 (proj2 Hset)))).
  Let Hop := proj2 (proj2 (proj2 (proj2 (proj2 Hset)))).
  Let Hex := proj1 Hw.
  Let Hsm := proj1 (proj2 Hw).
  Let Hpos := proj1 (proj2 (proj2 Hw)).
  Let Hidx := proj1 (proj2 (proj2 (proj2 Hw))).
  Let Hth := proj1 (proj2 (proj2 (proj2 (proj2 Hw)))).
  Let Hlen := proj2 (proj2 (proj2 (proj2 (proj2 Hw)))).
  Let Hhalf := proj1 Hr.
  Let Hh := proj1 (proj2 Hr).
  Let Hg := proj2 (proj2 (proj2 Hr)).
  Let AH : adjp N H H := adjp_H half h g N Hh Hg.
  Lemma ext_H : ext H.
  Proof. intros u v E'. now apply Hact_ext. Qed.
  Lemma E_peq F G : peq F G -> E F = E G.
  Proof. intros HE. apply ip_ext; [reflexivity|]. apply HE. Qed.
  Lemma ip_sc u c (F F' : act) w : (forall v x, F' v x = c * F v x) -> ip (2 * N) u (F' w) = c * ip (2 * N) u (F w).
  Proof. intros HF. rewrite <- ip_scale. apply ip_ext; [reflexivity|]. intros. apply HF. Qed.

  Let A2 := proj2 (proj2 (proj2 Hset)).

  (** Scaling of the commutators with a rotation. *)
  Lemma ev1_scale c (F Fd F' : act) : (forall v x, F' v x = c * F v x) -> adjp N F Fd -> E (comm F' H) = c * E (comm F H).
  Proof.
    intros HF A. rewrite !ev_comm. rewrite (ip_sc _ c F F' _ HF). rewrite (AH Psi (F' Psi)), (ip_sc _ c F F' _ HF), <- (AH Psi (F Psi)). ring.
  Qed.
  Lemma ev2_scale c (F Fd F' G Gd G' : act) : (forall v x, F' v x = c * F v x) -> (forall v x, G' v x = c * G v x) -> adjp N F Fd -> adjp N G Gd -> linear F -> linear F' ->
    E (comm F' (comm H G')) = c * c * E (comm F (comm H G)).
  Proof.
    intros HF HG AF AG LF LF'. rewrite (ev_comm_l _ Psi F' H G' LF'), (ev_comm_l _ Psi F H G LF).
    rewrite !(ip_sc Psi c F F' _ HF), !(ip_sc Psi c G G' _ HG).
    rewrite (AF Psi (H (G' Psi))), (AH (Fd Psi) (G' Psi)), (ip_sc _ c G G' _ HG), <- (AH (Fd Psi) (G Psi)), <- (AF Psi (H (G Psi))).
    rewrite (AF Psi (G' (H Psi))), (ip_sc _ c G G' _ HG), <- (AF Psi (G (H Psi))).
    rewrite (AH Psi (G' (F' Psi))), (ip_sc _ c G G' _ HG), (AG (H Psi) (F' Psi)), (ip_sc _ c F F' _ HF), <- (AG (H Psi) (F Psi)), <- (AH Psi (G (F Psi))).
    rewrite (AG Psi (H (F' Psi))), (AH (Gd Psi) (F' Psi)), (ip_sc _ c F F' _ HF), <- (AH (Gd Psi) (F Psi)), <- (AG Psi (H (F Psi))).
    ring.
  Qed.
  Lemma ev0_scale c (F Fd F' G Gd G' : act) : (forall v x, F' v x = c * F v x) -> (forall v x, G' v x = c * G v x) -> adjp N F Fd -> adjp N G Gd ->
    E (comm F' G') = c * c * E (comm F G).
  Proof.
    intros HF HG AF AG. rewrite !ev_comm. rewrite !(ip_sc Psi c F F' _ HF), !(ip_sc Psi c G G' _ HG).
    rewrite (AF Psi (G' Psi)), (ip_sc _ c G G' _ HG), <- (AF Psi (G Psi)). rewrite (AG Psi (F' Psi)), (ip_sc _ c F F' _ HF), <- (AG Psi (F Psi)). ring.
  Qed.

  Lemma kappa_pairs : pairs_in N (o_kappa O).
  Proof. destruct HO as (_ & _ & _ & _ & _ & HK & _). intros [p q] Hi. destruct (HK p q Hi) as [A B]. cbn [fst snd]. lia. Qed.
  Lemma kappa_pairs_d : pairs_in N (o_kappa_dagger O).
  Proof.
    destruct HO as (_ & _ & _ & _ & _ & _ & ->). intros pq Hi. apply in_map_iff in Hi as (x & <- & Hx). cbn [fst snd]. destruct (kappa_pairs x Hx). auto.
  Qed.
  Lemma nth_kappa_d i p q : nth_error (o_kappa O) i = Some (p, q) -> nth_error (o_kappa_dagger O) i = Some (q, p).
  Proof. destruct HO as (_ & _ & _ & _ & _ & _ & ->). intros E'. rewrite (map_nth_error _ _ _ E'). reflexivity. Qed.

  Lemma check_orbital_ok : check_orbital large L tiny sp th ansatz O h g st = if existsb large (gradients orb) then Raise ValueError else Ok tt.
  Proof.
    unfold check_orbital. destruct (o_kappa O) as [|k0 kr] eqn:Ek; [unfold x_orbital; rewrite Ek; reflexivity|]. rewrite <- Ek. clear Ek k0 kr.
    destruct (C28_rdm1_rdm2 tiny sp th ansatz nalpha nbeta st Hw) as (r1 & r2 & -> & -> & Hdm). cbn [bind].
    rewrite (C57_response_gradient N ni na Psi _ _ (C28_state tiny sp th nalpha nbeta st Hw Hn) Hdm half h g (l_s2 L) (o_kappa O) Hr kappa_pairs).
    rewrite existsb_pairs. unfold gradients, x_orbital. rewrite flat_map_concat_map, (flat_map_concat_map _ (map _ _)), map_map.
    match goal with |- (if existsb _ (List.concat ?a) then _ else _) = (if existsb _ (List.concat ?b) then _ else _) => assert (a = b) as ->; [|reflexivity] end.
    apply map_ext_in. intros [p q] Hpq. cbn [fst snd]. destruct (kappa_pairs _ Hpq) as [Hp Hq]. cbn [fst snd] in Hp, Hq. f_equal; [|f_equal].
    - symmetry. apply (ev1_scale (l_s2 L) (Eact p q) (Eact q p)); [|now apply adjp_E]. intros v x. rewrite adj_single. apply single_act.
    - symmetry. apply (ev1_scale (l_s2 L) (Eact q p) (Eact p q)); [|now apply adjp_E]. intros v x. apply single_act.
  Qed.

  Section Mats.
    Variables (Q G : list lc) (H1 H0 : lc) (H00 : list K).
    Hypothesis FQ : Forall2 (oact sp) Q orb.
    Hypothesis FG : Forall2 (gact ni na (sp_nv sp) m) G (x_active L O excitations).

    Lemma F2_in_l {A B} (R : A -> B -> Prop) l l' x : Forall2 R l l' -> In x l -> exists y, In y l' /\ R x y.
    Proof. intros HF. induction HF as [|a b l l' Hab HF IH]; intros Hi; [destruct Hi|]. destruct Hi as [->|Hi]; [exists b; split; [now left|exact Hab]|]. destruct (IH Hi) as (y & Hy & HR). exists y. split; [now right|exact HR]. Qed.
    Lemma F2_impl {A B} (R R' : A -> B -> Prop) l l' : (forall x y, R x y -> R' x y) -> Forall2 R l l' -> Forall2 R' l l'.
    Proof. intros HR HF. induction HF; constructor; auto. Qed.
    Lemma F2_len {A B} (R : A -> B -> Prop) l l' : Forall2 R l l' -> List.length l = List.length l'.
    Proof. induction 1; cbn; congruence. Qed.
    Lemma G_dag D A : gact ni na (sp_nv sp) m D A -> peq (opapp (dg D)) (opapp (lc_adj A)).
    Proof. intros (OD & FD & _) u x. exact (dag_lc Hsm _ (actP_stable ni na N) D A OD FD u x). Qed.
    Lemma all_acts : Forall2 (fun D A => peq (opapp D) (opapp A) /\ peq (opapp (dg D)) (opapp (lc_adj A))) (Q ++ G) ops.
    Proof.
      apply Forall2_app.
      - eapply F2_impl; [|exact FQ]. intros D A (_ & A1 & A2'). split; [exact A1|exact A2'].
      - eapply F2_impl; [|exact FG]. intros D A HD. split; [exact (proj1 (proj2 HD))|now apply G_dag].
    Qed.
    Lemma nth_acts i : peq (opapp (nth i (Q ++ G) [])) (X i) /\ peq (opapp (dg (nth i (Q ++ G) []))) (Xd i).
    Proof.
      revert i. induction all_acts as [|D A l l' HDA HF IH]; intros i; [|destruct i as [|i]; [exact HDA|apply IH]].
      destruct i; split; intros u x; cbn; try reflexivity; unfold dg; cbn; reflexivity.
    Qed.

    Hypothesis HH1 : H1ok sp L h g H1.
    Hypothesis HH0 : H0ok sp L h g H0.
    Hypothesis L00 : List.length H00 = dim (sp_ci sp).
    Hypothesis F00 : forall x, asp ni na x -> fket sp H00 x = H Psi x.
    Lemma HQok q : In q Q -> qok sp q.
    Proof. intros Hq. destruct (F2_in_l _ _ _ _ FQ Hq) as (A & _ & HA & _). exact HA. Qed.
    Lemma HGok D : In D G -> OPS (actP ni na N) D.
    Proof. intros Hq. destruct (F2_in_l _ _ _ _ FG Hq) as (A & _ & HA & _). exact HA. Qed.
    Lemma HGcomm D D' : In D G -> In D' G -> forall u x, opapp D (opapp D' u) x = opapp D' (opapp D u) x.
    Proof. exact (G_comm ni na (sp_nv sp) m G _ FG D D'). Qed.
    Lemma lenQ : List.length Q = List.length (o_kappa O).
    Proof. rewrite (F2_len _ _ _ FQ). apply map_length. Qed.
    Lemma len_all : (List.length Q + List.length G)%nat = List.length ops.
    Proof. rewrite app_length, (F2_len _ _ _ FQ), (F2_len _ _ _ FG). reflexivity. Qed.

    Lemma check_active_ok : check_active large tiny sp th ansatz st H00 G = if existsb large (gradients (x_active L O excitations)) then Raise ValueError else Ok tt.
    Proof.
      unfold check_active.
      rewrite (rlist_ok _ (fun D => (E (comm H (opapp D)), E (comm (opapp (dg D)) H)))).
      2:{ intros D HD. destruct (dag_ok sp Hsm D (HGok D HD)) as (ED & OD & AD).
          exact (grad_pair_ok tiny sp th ansatz nalpha nbeta st Hex Hpos Hidx Hth Hlen L h g Hh Hg H00 D (dg D) L00 F00 (HGok D HD) ED OD AD). }
      cbn [bind]. rewrite !map_map. cbn [fst snd].
      assert (EX : existsb large (map (fun x => E (comm H (opapp x))) G ++ map (fun x => E (comm (opapp (dg x)) H)) G) = existsb large (gradients (x_active L O excitations))); [|now rewrite EX].
      rewrite existsb_app, orb_comm, <- existsb_app. rewrite existsb_pairs. unfold gradients.
      clear HH1 HH0 L00 F00. induction FG as [|D A l l' HD HF IH]; [reflexivity|].
      cbn [flat_map app existsb]. rewrite (IH HF). f_equal; [|f_equal].
      - f_equal. apply E_peq. apply peq_comm; [apply ext_opapp|apply ext_H|now apply G_dag|apply peq_refl].
      - rewrite <- Hop. f_equal. rewrite !ev_comm. destruct HD as (_ & FD & _).
        rewrite (ip_ext _ Psi Psi (H (opapp D Psi)) (H (opapp A Psi)) (fun _ => eq_refl) (Hact_ext half h g N _ _ (FD Psi))).
        rewrite (ip_ext _ Psi Psi (opapp D (H Psi)) (opapp A (H Psi)) (fun _ => eq_refl) (FD (H Psi))). ring.
    Qed.

    Lemma orb_nth i p q : nth_error (o_kappa O) i = Some (p, q) -> nth i ops [] = x_single (l_s2 L) q p.
    Proof.
      intros Ei. assert (nth_error orb i = Some (x_single (l_s2 L) q p)) as En by (unfold x_orbital; now rewrite (map_nth_error _ _ _ Ei)).
      rewrite app_nth1 by (apply nth_error_Some; congruence). now apply nth_error_nth.
    Qed.
    Lemma orbital_ok : exists M, orbital_blocks L tiny sp th ansatz O h g st (List.length Q) (fun _ => 0) = Ok M /\
      (forall c i j, ~ (i < List.length Q /\ j < List.length Q)%nat \/ (3 <= c)%nat -> M [c; i; j] = 0) /\
      (forall i j, (i < List.length Q)%nat -> (j < List.length Q)%nat ->
         M [0; i; j]%nat = E (comm (Xd i) (comm H (X j))) /\ M [1; i; j]%nat = E (comm (Xd i) (comm H (Xd j))) /\ M [2; i; j]%nat = E (comm (Xd i) (X j))).
    Proof.
      rewrite lenQ. unfold orbital_blocks.
      destruct (o_kappa O) as [|k0 kr] eqn:Ek.
      { eexists. split; [reflexivity|]. split; [reflexivity|]. cbn [List.length]. intros; lia. }
      rewrite <- Ek. clear Ek k0 kr.
      destruct (C28_rdm1_rdm2 tiny sp th ansatz nalpha nbeta st Hw) as (r1 & r2 & -> & -> & Hdm). cbn [bind].
      pose proof (C28_state tiny sp th nalpha nbeta st Hw Hn) as Hst.
      assert (Lk : List.length (o_kappa_dagger O) = List.length (o_kappa O)) by (destruct HO as (_ & _ & _ & _ & _ & _ & ->); apply map_length).
      destruct (C57_hessian_block N ni na Psi _ _ Hst Hdm half h g (o_kappa_dagger O) (o_kappa O) kappa_pairs_d kappa_pairs ltac:(lia)) as (a & Ea & La & Ha).
      destruct (C57_hessian_block N ni na Psi _ _ Hst Hdm half h g (o_kappa_dagger O) (o_kappa_dagger O) kappa_pairs_d kappa_pairs_d ltac:(lia)) as (b & Eb & Lb & Hb).
      destruct (C58_metric N ni na Psi _ _ Hst Hdm half (o_kappa O) kappa_pairs) as (Ls & Hsg).
      rewrite Ea, Eb. cbn [bind]. eexists. split; [reflexivity|]. split.
      - intros c i j Hc. unfold set_block. set (n := List.length (o_kappa O)) in *.
        destruct (Nat.ltb_spec i n), (Nat.ltb_spec j n); rewrite ?andb_false_r; try reflexivity. destruct Hc as [Hc|Hc]; [exfalso; apply Hc; auto|].
        destruct (Nat.eqb_spec c 2), (Nat.eqb_spec c 1), (Nat.eqb_spec c 0); try lia. reflexivity.
      - intros i j Hi Hj. unfold set_block.
        apply Nat.ltb_lt in Hi as Hi'. apply Nat.ltb_lt in Hj as Hj'. rewrite Hi', Hj'. cbn [Nat.eqb andb].
        destruct (nth_error (o_kappa O) i) as [[p q]|] eqn:Ei; [|apply nth_error_None in Ei; lia].
        destruct (nth_error (o_kappa O) j) as [[r t]|] eqn:Ej; [|apply nth_error_None in Ej; lia].
        destruct (kappa_pairs _ (nth_error_In _ _ Ei)) as [Hp Hq]. destruct (kappa_pairs _ (nth_error_In _ _ Ej)) as [Hr' Ht]. cbn [fst snd] in *.
        rewrite (Ha i j q p r t (nth_kappa_d _ _ _ Ei) Ej), (Hb i j q p t r (nth_kappa_d _ _ _ Ei) (nth_kappa_d _ _ _ Ej)), (Hsg i j p q r t Ei Ej).
        rewrite (orb_nth i p q Ei), (orb_nth j r t Ej), !adj_single.
        assert (SA : forall a b v x, opapp (x_single (l_s2 L) a b) v x = l_s2 L * Eact a b v x) by (intros; apply single_act).
        assert (LE : forall a b, linear (Eact (K:=K) a b)).
        { intros a' b'. destruct (linear_opapp (lc_E (K:=K) a' b')) as [Z1 Z2]. split; [intros u v Huv x; rewrite <- !lc_E_act; now apply Z1|intros u v x; rewrite <- !lc_E_act; apply Z2]. }
        split; [|split].
        + rewrite <- Hs2 at 1. etransitivity; [symmetry; apply (ev2_scale (l_s2 L) (Eact q p) (Eact p q) (opapp (x_single (l_s2 L) q p)) (Eact r t) (Eact t r) (opapp (x_single (l_s2 L) r t))); auto using adjp_E, linear_opapp|].
          apply (ev2_tr sp st L h g Hh Hg); auto using linear_opapp; intros u w; rewrite (ip_sc _ _ _ _ _ (SA _ _)), (ip_sym _ (opapp _ u)), (ip_sc _ _ _ _ _ (SA _ _)), (ip_sym _ w); f_equal; now apply adjp_E.
        + rewrite <- Hs2 at 1. etransitivity; [symmetry; apply (ev2_scale (l_s2 L) (Eact q p) (Eact p q) (opapp (x_single (l_s2 L) q p)) (Eact t r) (Eact r t) (opapp (x_single (l_s2 L) t r))); auto using adjp_E, linear_opapp|].
          apply (ev2_tr sp st L h g Hh Hg); auto using linear_opapp; intros u w; rewrite (ip_sc _ _ _ _ _ (SA _ _)), (ip_sym _ (opapp _ u)), (ip_sc _ _ _ _ _ (SA _ _)), (ip_sym _ w); f_equal; now apply adjp_E.
        + rewrite <- Hs2 at 1. etransitivity; [symmetry; apply (ev0_scale (l_s2 L) (Eact r t) (Eact t r) (opapp (x_single (l_s2 L) r t)) (Eact q p) (Eact p q) (opapp (x_single (l_s2 L) q p))); auto using adjp_E|].
          apply (ev1_tr sp st); intros u w; rewrite (ip_sc _ _ _ _ _ (SA _ _)), (ip_sym _ (opapp _ u)), (ip_sc _ _ _ _ _ (SA _ _)), (ip_sym _ w); f_equal; now apply adjp_E.
    Qed.
  End Mats.

  Notation run := (naive_init large L tiny sp th ansatz O h g st excitations).
  Notation nq := (List.length (o_kappa O)).
  Lemma run_ok : exists M, run = (if existsb large (gradients ops) then Raise ValueError else Ok M) /\
    forall i j, (i < List.length ops)%nat -> (j < List.length ops)%nat ->
      M [2; i; j]%nat = E (comm (Xd i) (X j)) /\ M [3; i; j]%nat = 0 /\ E (comm (Xd i) (Xd j)) = 0 /\
      ((i < nq /\ j < nq)%nat -> M [0; i; j]%nat = E (comm (Xd i) (comm H (X j))) /\ M [1; i; j]%nat = E (comm (Xd i) (comm H (Xd j)))) /\
      (~ (i < nq /\ j < nq)%nat ->
        M [0; i; j]%nat = half * (E (comm (Xd i) (comm H (X j))) + E (comm (comm (Xd i) H) (X j))) /\
        M [1; i; j]%nat = half * (E (comm (Xd i) (comm H (Xd j))) + E (comm (comm (Xd i) H) (Xd j)))) /\
      ((i < nq <= j \/ j < nq <= i)%nat -> M [2; i; j]%nat = 0).
  Proof.
    unfold naive_init. destruct (G_ops_ok Hsm ni na (sp_nv sp) m L O HO excitations) as (G & EG & FG). rw EG.
    destruct (q_ops_ok Hsm sp m L O HO) as (Q & EQ & FQ). rw EQ.
    destruct (H1_ex sp Hsm L h g) as (H1 & E1 & HH1). rw E1. destruct (H0_ex sp st Hsm Hpos Hlen L h g) as (H0 & E0 & HH0). rw E0.
    unfold naive_matrices. rewrite check_orbital_ok.
    destruct (H0apply tiny sp th ansatz nalpha nbeta Hex Hpos Hidx Hth L h g H0 st HH0 Hlen) as (H00 & E00 & L00 & F00).
    destruct (orbital_ok Q H00 FQ L00) as (M1 & EM1 & M1z & M1o).
    destruct (blocks_ok tiny sp th ansatz nalpha nbeta st Hex Hsm Hpos Hidx Hth Hlen L h g Hh Hg Hhalf H1 H0 Q G HH1 HH0 (HQok Q FQ) (HGok G FG) (HGcomm G FG) H00 L00 F00 M1)
      as (M & EM & MQ & MX & M3).
    exists M. split.
    - replace (gradients ops) with (gradients orb ++ gradients (x_active L O excitations)) by (symmetry; apply flat_map_app). rewrite existsb_app.
      destruct (existsb large (gradients orb)); [reflexivity|]. cbn [bind orb]. rw E00. rewrite (check_active_ok G H00 FG L00 F00).
      destruct (existsb large (gradients (x_active L O excitations))); [reflexivity|]. cbn [bind]. rw EM1. exact EM.
    - intros i j Hi Hj. pose proof (len_all Q G FQ FG) as LA. rewrite <- LA in Hi, Hj. rewrite <- (lenQ Q FQ).
      destruct (nth_acts Q G FQ FG i) as [Pi Pid]. destruct (nth_acts Q G FQ FG j) as [Pj Pjd].
      assert (R2 : resp sp st L h g Q G [2; i; j]%nat = E (comm (Xd i) (X j))) by (apply E_peq, peq_comm; try apply ext_opapp; assumption).
      assert (R3 : resp sp st L h g Q G [3; i; j]%nat = E (comm (Xd i) (Xd j))) by (apply E_peq, peq_comm; try apply ext_opapp; assumption).
      assert (R0 : resp sp st L h g Q G [0; i; j]%nat = half * (E (comm (Xd i) (comm H (X j))) + E (comm (comm (Xd i) H) (X j)))).
      { unfold resp, dsym. f_equal. f_equal; apply E_peq; repeat (apply peq_comm || apply ext_comm || apply ext_opapp || apply ext_H || apply peq_refl); assumption. }
      assert (R1 : resp sp st L h g Q G [1; i; j]%nat = half * (E (comm (Xd i) (comm H (Xd j))) + E (comm (comm (Xd i) H) (Xd j)))).
      { unfold resp, dsym. f_equal. f_equal; apply E_peq; repeat (apply peq_comm || apply ext_comm || apply ext_opapp || apply ext_H || apply peq_refl); assumption. }
      split; [|split; [|split; [|split; [|split]]]].
      + destruct (Nat.lt_ge_cases i (List.length Q)) as [Li|Li], (Nat.lt_ge_cases j (List.length Q)) as [Lj|Lj].
        * rewrite MQ by assumption. apply M1o; assumption.
        * rewrite MX by (try assumption; lia). apply Nat.ltb_lt in Li as Li'. rewrite Li'. cbn [orb andb Nat.eqb]. rewrite M1z by (left; lia). rewrite <- R2. symmetry.
          apply (resp2_mixed sp st Hsm Hpos Hlen L h g Q G (HQok Q FQ) (HGok G FG) H00 L00); try assumption; lia.
        * rewrite MX by (try assumption; lia). apply Nat.ltb_lt in Lj as Lj'. rewrite Lj', orb_true_r. cbn [orb andb Nat.eqb]. rewrite M1z by (left; lia). rewrite <- R2. symmetry.
          apply (resp2_mixed sp st Hsm Hpos Hlen L h g Q G (HQok Q FQ) (HGok G FG) H00 L00); try assumption; lia.
        * rewrite MX by (try assumption; lia). apply Nat.ltb_ge in Lj as Lj'. apply Nat.ltb_ge in Li as Li'. rewrite Li', Lj'. cbn [orb andb]. exact R2.
      + rewrite M3 by lia. apply M1z. right. lia.
      + rewrite <- R3. apply (resp3_zero sp st Hsm Hpos Hlen L h g Q G (HQok Q FQ) (HGok G FG) (HGcomm G FG) H00 L00); assumption.
      + intros [Li Lj]. rewrite !MQ by assumption. split; apply M1o; assumption.
      + intros Hn'. rewrite !MX by (assumption || lia). rewrite !andb_false_r. split; [exact R0|exact R1].
      + intros Hij. rewrite MX by (try assumption; lia). destruct Hij as [Hij|Hij]; destruct Hij as [Li Lj]; apply Nat.ltb_lt in Li as Li'; rewrite Li', ?orb_true_r;
          cbn [orb andb Nat.eqb]; apply M1z; left; lia.
  Qed.

  Lemma ops_adj i : (i < List.length ops)%nat -> adjp N (X i) (Xd i).
  Proof.
    intros Hi. destruct (G_ops_ok Hsm ni na (sp_nv sp) m L O HO excitations) as (G & _ & FG). destruct (q_ops_ok Hsm sp m L O HO) as (Q & _ & FQ).
    destruct (nth_acts Q G FQ FG i) as [P1 P2]. rewrite <- (len_all Q G FQ FG) in Hi.
    pose proof (X_adj sp st Hsm Hpos Hlen Q G (HQok Q FQ) (HGok G FG) i Hi) as A. intros u w.
    rewrite <- (ip_ext _ u u _ _ (fun _ => eq_refl) (P1 w)), <- (ip_ext _ _ _ w w (P2 u) (fun _ => eq_refl)). apply A.
  Qed.

  (** C55: with no large gradient the constructor succeeds, and the matrices hold
      the expectation values of the naive response equations: the metric is
      [<[X_i†, X_j]>], the electronic Hessian is the symmetrised double commutator
      (unsymmetrised between two orbital rotations), and the entries left at zero
      are zero. *)
  Theorem C55_matrices : (forall x, In x (gradients ops) -> large x = false) ->
    exists M, run = Ok M /\
    forall i j, (i < List.length ops)%nat -> (j < List.length ops)%nat ->
      M [2; i; j]%nat = E (comm (Xd i) (X j)) /\ M [3; i; j]%nat = 0 /\ E (comm (Xd i) (Xd j)) = 0 /\
      ((i < nq /\ j < nq)%nat -> M [0; i; j]%nat = E (comm (Xd i) (comm H (X j))) /\ M [1; i; j]%nat = E (comm (Xd i) (comm H (Xd j)))) /\
      (~ (i < nq /\ j < nq)%nat ->
        M [0; i; j]%nat = half * (E (comm (Xd i) (comm H (X j))) + E (comm (comm (Xd i) H) (X j))) /\
        M [1; i; j]%nat = half * (E (comm (Xd i) (comm H (Xd j))) + E (comm (comm (Xd i) H) (Xd j)))) /\
      ((i < nq <= j \/ j < nq <= i)%nat -> M [2; i; j]%nat = 0).
  Proof.
    intros Hl. destruct run_ok as (M & ER & HM). exists M. split; [|exact HM]. rewrite ER.
    destruct (existsb large (gradients ops)) eqn:EX; [|reflexivity]. apply existsb_exists in EX as (x & Hx & Hlx). rewrite (Hl x Hx) in Hlx. discriminate.
  Qed.
  (** C55: it raises ValueError exactly when some gradient is large. *)
  Theorem C55_gradient_check : run = Raise ValueError <-> exists x, In x (gradients ops) /\ large x = true.
  Proof.
    destruct run_ok as (M & ER & _). rewrite ER, <- existsb_exists. destruct (existsb large (gradients ops)); split; congruence.
  Qed.
End Response.

(** * Examples *)
(** One inactive, two active and one virtual orbital; a correlated state
    (3/5, 0, 0, 4/5) stationary for integrals with pair hopping. *)
Definition q2q (a : Z) (b : positive) : q2 := {| qa := Q2Qc (a # b); qb := 0%Qc |}.
Definition r_lit : @literals q2 := {| l_half := q2q 1 2; l_s2 := q2s; l_f1 := q2q 1 2; l_f2 := q2s; l_f4 := q2s; l_f5 := q2s |}.
Definition r_st : list q2 := [q2q 3 5; q2q 0 1; q2q 0 1; q2q 4 5].
Definition r_tiny (x : q2) : bool := Qc_eq_bool (qa x) 0%Qc && Qc_eq_bool (qb x) 0%Qc.
Definition r_large (x : q2) : bool := negb (r_tiny x).
Definition r_O : orbitals := {| o_occ := [1]; o_unocc := [2]; o_occ_spin := [2; 3]; o_unocc_spin := [4; 5];
  o_kappa := [(0, 1); (0, 2); (0, 3); (1, 3); (2, 3)]; o_kappa_dagger := [(1, 0); (2, 0); (3, 0); (3, 1); (3, 2)] |}.
Definition r_h (p q : nat) : q2 := if p =? q then q2n (nth p [-5; 0; 3; 10]%Z 0%Z) else q2n 0.
Definition r_h' (p q : nat) : q2 := q2n (Z.of_nat (p + q)).
Definition r_g (p q r s : nat) : q2 :=
  if (p + q + r + s =? 6) && (p * q * r * s =? 4) && negb (p =? q) && negb (r =? s) then q2n 12
  else if (p + q + r + s =? 8) && (p * q * r * s =? 16) then q2n 1 else q2n 0.
Definition r_run h := naive_init r_large r_lit r_tiny ex_sp None (fun _ s => Ok s) r_O h r_g r_st "sd".
Lemma r_tiny_zero x : r_tiny x = true -> x = rO.
Proof. destruct x as [a b]. unfold r_tiny. cbn [qa qb]. intros E. apply andb_true_iff in E as [E1 E2]. apply Qc_eq_bool_correct in E1, E2. now subst. Qed.
Lemma Qc_eq_bool_opp a : Qc_eq_bool (- a)%Qc 0%Qc = Qc_eq_bool a 0%Qc.
Proof.
  destruct (Qc_eq_bool a 0%Qc) eqn:E.
  - apply Qc_eq_bool_correct in E. subst. reflexivity.
  - destruct (Qc_eq_bool (- a)%Qc 0%Qc) eqn:E'; [|reflexivity]. apply Qc_eq_bool_correct in E'.
    assert (a = 0%Qc) as -> by (rewrite <- (Qcopp_involutive a), E'; reflexivity). discriminate.
Qed.
Example C55_example_setup h : (h = r_h \/ h = r_h') -> response_setup r_tiny ex_sp None 1 1 r_st r_large r_lit r_O 2 h r_g.
Proof.
  intros Hh. split; [|split; [|split; [|split; [|split]]]].
  - destruct C28_example_setup as [(_ & _ & D & E & _ & _) _].
    split; [exact r_tiny_zero|]. split; [exact r_tiny_zero|]. split; [exact D|]. split; [exact E|]. split; [discriminate|reflexivity].
  - apply (f_equal2 Build_q2); apply Qc_is_canon; vm_compute; reflexivity.
  - split; [apply (f_equal2 Build_q2); apply Qc_is_canon; vm_compute; reflexivity|]. split.
    + intros p q _ _. destruct Hh as [->| ->]; unfold r_h, r_h'.
      * rewrite Nat.eqb_sym. destruct (Nat.eqb_spec q p) as [->|]; reflexivity.
      * do 2 f_equal. lia.
    + unfold r_g. split; intros.
      * replace (r + s + p + q) with (p + q + r + s) by lia. replace (r * s * p * q) with (p * q * r * s) by lia.
        rewrite <- !andb_assoc, (andb_comm (negb (p =? q))). reflexivity.
      * replace (q + p + s + r) with (p + q + r + s) by lia. replace (q * p * s * r) with (p * q * r * s) by lia.
        now rewrite (Nat.eqb_sym q p), (Nat.eqb_sym s r).
  - apply (f_equal2 Build_q2); apply Qc_is_canon; vm_compute; reflexivity.
  - clear Hh. unfold orbs_ok, r_O. cbn [o_occ o_unocc o_occ_spin o_unocc_spin o_kappa o_kappa_dagger sp_ni sp_na sp_nv ex_sp]. split; [lia|]. repeat split; cbn [In] in *; try lia; try reflexivity;
    repeat match goal with H : _ \/ _ |- _ => destruct H as [H|H] end; try (injection H as <- <-); try lia; try contradiction.
  - intros [a b]. unfold r_large, r_tiny. cbn [ropp Q2_CRing q2_opp qa qb]. now rewrite !Qc_eq_bool_opp.
Qed.
(** The stationary integrals give matrices with entries that are not zero in all
    the blocks; with the others the constructor refuses. *)
Example C55_example : exists M, r_run r_h = Ok M /\
  map (fun idx => this (qa (M idx))) [[0; 0; 0]; [2; 0; 0]; [0; 5; 5]; [2; 5; 5]; [0; 6; 6]; [2; 6; 6]] =
    [-256 # 25; 16 # 25; -1 # 1; -7 # 25; -2696 # 25; -56 # 25]%Q.
Proof. eexists. split; [vm_compute; reflexivity|]. vm_compute. reflexivity. Qed.
Example C55_example_refuses : r_run r_h' = Raise ValueError.
Proof. vm_compute. reflexivity. Qed.
Example C55_lists_example : match init_spaces true false 4 4 2 2 with Ok s => orbitals_of s = r_O | _ => False end.
Proof. vm_compute. reflexivity. Qed.

(** One inactive, one active and one virtual orbital: determinants 7 (active
    space) and 22 (one hole, one particle); the truncated Hamiltonians differ
    from the full one and are exact where claimed only. *)
Example C82_example : exists D1 D2 D, hamiltonian_1i_1a 1%Z exh exg 1 1 1 = Ok D1 /\ hamiltonian_2i_2a 1%Z exh exg 1 1 1 = Ok D2 /\ exH = Ok D /\
  asp 1 1 7%N /\ asp1 1 1 22%N /\ mel D1 7%N 22%N = mel D 7%N 22%N /\ mel D 7%N 22%N <> 0%Z /\
  mel D1 22%N 22%N <> mel D 22%N 22%N /\ mel D2 22%N 22%N = mel D 22%N 22%N.
Proof.
  unfold exH. eexists. eexists. eexists. split; [vm_compute; reflexivity|]. split; [vm_compute; reflexivity|]. split; [reflexivity|].
  split; [|split; [|split; [vm_compute; reflexivity|split; [vm_compute; discriminate|split; [vm_compute; discriminate|vm_compute; reflexivity]]]]].
  - split.
    + intros [|[|p]] H; [reflexivity|reflexivity|lia].
    + intros p Hp. do 4 (destruct p as [|p]; [lia|]). unfold occ. apply N.bits_above_log2. simpl. lia.
  - split.
    + intros [|[|p]] [|[|p']] H H'; try lia; vm_compute; congruence.
    + intros p p' Hp Hp'. do 4 (destruct p as [|p]; [lia|]). do 4 (destruct p' as [|p']; [lia|]).
      assert (Z : forall k, occ 22%N (S (S (S (S (S k))))) = false) by (intros k; unfold occ; apply N.bits_above_log2; simpl; lia).
      destruct p as [|p], p' as [|p']; auto; rewrite ?Z; discriminate.
Qed.

Print Assumptions C55_lists.
Print Assumptions C55_matrices.
Print Assumptions C55_gradient_check.
Print Assumptions C82_hamiltonian_1i_1a.
Print Assumptions C82_hamiltonian_2i_2a.
Print Assumptions C82_one_electron.
