(** C93: norms and transition dipoles of the state-transfer linear response classes. *)
From Coq Require Import List Bool Arith NArith ZArith Ascii String Lia Ring Permutation.
From Coq Require Import QArith Qcanon.
From Verif Require Import Base Fock FockMore FermiModel FermiProofs FermiFold FermiAlgebra OperatorsModel OperatorsProofs OperatorsSums OperatorsActs
  OperatorsActive OperatorsGen OperatorsKeys OperatorsOne Props_Operators CIModel CIProofs StateModel StateProofs StateMore Props_State
  FockInner DensityModel DensityProofs DensityExpect DensityResponse DensityFill DensityState StructModel LRModel LRAlgebra LRProofs LRPools LRPropModel LRProjModel LRProjProofs
  Props_Density Props_Qubit Props_Response Props_Excited Props_Projected LRAllProjModel Props_AllProjected LRProjPropModel Props_ProjExcited
  LRTransferModel Props_Transfer LRProjTransferModel Props_ProjTransfer LRTransferPropModel.
Import ListNotations.
Local Open Scope nat_scope.
Local Open Scope list_scope.

Section TransferExcited.
  Context {K : Type} {C : CRing K}.
  Local Open Scope K_scope.
  Add Ring KringTe : (@rth K C).
  Notation act := (amps (K:=K) -> amps (K:=K)).
  Notation lc := (list (fstring * K)).
  Variables (tiny : K -> bool) (sp : @space) (th : threads) (ansatz : bool -> list K -> Res (list K)) (nalpha nbeta : Z) (st csf : list K).
  Variables (large : K -> bool) (L : @literals K) (O : orbitals) (m : nat) (h : nat -> nat -> K) (g : nat -> nat -> nat -> nat -> K) (excitations : string).
  Hypothesis Hset : response_setup tiny sp th nalpha nbeta st large L O m h g.
  Notation ni := (sp_ni sp).
  Notation na := (sp_na sp).
  Notation d := (dim (sp_ci sp)).
  Hypothesis Huni : unitary_ansatz ansatz d.
  Hypothesis Hcsf : List.length csf = d.
  Hypothesis Hst : ansatz false csf = Ok st.
  Notation N := (sp_ni sp + sp_na sp + sp_nv sp)%nat.
  Notation Psi := (fket sp st).
  Notation I u w := (ip (2 * N) u w).
  Notation E F := (ip (2 * N) Psi (F Psi)).
  Notation ops := (x_orbital L O ++ x_active L O excitations).
  Notation size := (List.length ops).
  Notation X i := (opapp (nth i ops [])).
  Notation nq := (List.length (o_kappa O)).
  Notation t_run := (transfer_init large L tiny sp th ansatz O h g st csf excitations).
  Notation s_run := (pst_init large L tiny sp th ansatz O h g st csf excitations).
  Variable phi : nat -> list K.
  Hypothesis Hphi : transfer_kets sp ansatz csf L O excitations phi.
  Hypothesis Hort : orthonormal_excitations sp csf L O excitations.

  (** The operators of the two classes: [U G_i |CSF><0|] for the excitations, and
      the rotations as they are, or projected. *)
  Notation TX := (TX sp st L O excitations phi).
  Notation TXd := (TXd sp st L O excitations phi).
  Notation SX := (SX sp st L O excitations phi).
  Notation SXd := (SXd sp st L O excitations phi).
  Notation chi := (chi sp st L O excitations phi).
  Notation t_T := (fam_T size TX TXd).
  Notation t_Td := (fam_Td size TX TXd).
  Notation s_T := (fam_T size SX SXd).
  Notation s_Td := (fam_Td size SX SXd).

  Let Hw : wf_setup tiny sp th nalpha nbeta st := proj1 Hset.
  Let HO : orbs_ok ni na (sp_nv sp) m O := proj1 (proj2 (proj2 (proj2 (proj2 Hset)))).
  Let Hex := proj1 Hw.
  Let Hsm : exact_small K := proj1 (proj2 Hw).
  Let Hpos := proj1 (proj2 (proj2 Hw)).
  Let Hidx := proj1 (proj2 (proj2 (proj2 Hw))).
  Let Hth := proj1 (proj2 (proj2 (proj2 (proj2 Hw)))).
  Let Hlen := proj2 (proj2 (proj2 (proj2 (proj2 Hw)))).
  Notation sup := (sup sp).
  Notation prop := (prop tiny sp th ansatz).
  Notation expv := (expv tiny sp th ansatz).
  Notation props := (props tiny sp th ansatz).
  Let expv_nil' a b := expv_nil tiny sp th ansatz nalpha nbeta Hpos Hidx a b.
  Let N1' : I Psi Psi = 1 := N1 tiny sp th nalpha nbeta st large L O m h g Hset.

  Section Pools.
    Variables (Q G : list lc).
    Hypothesis FQ : Forall2 (oact sp) Q (x_orbital L O).
    Hypothesis FG : Forall2 (gact ni na (sp_nv sp) m) G (x_active L O excitations).
    Let LQ : List.length Q = nq := lenQ sp L O Q FQ.
    Let LA : (List.length Q + List.length G)%nat = size := len_all sp L O m excitations Q G FQ FG.
    Lemma te_adj i : (i < size)%nat -> adjp N (TX i) (TXd i).
    Proof. intros Hi. apply (TX_adj tiny sp th nalpha nbeta st csf large L O m h g excitations Hset Hcsf phi Q G FQ FG i). lia. Qed.
    Lemma te_kill i : (i < size)%nat -> forall x, TXd i Psi x = 0.
    Proof. intros Hi. apply (TX_kill tiny sp th ansatz nalpha nbeta st csf large L O m h g excitations Hset Huni Hcsf Hst phi Hphi Q G FQ FG Hort i). lia. Qed.
    Lemma se_adj i : (i < size)%nat -> adjp N (SX i) (SXd i).
    Proof. intros _. apply SX_adj. Qed.
    Lemma se_kill i : (i < size)%nat -> forall x, SXd i Psi x = 0.
    Proof. intros Hi. apply (SX_kill tiny sp th ansatz nalpha nbeta st csf large L O m h g excitations Hset Huni Hcsf Hst phi Hphi Hort Q G FQ FG i). lia. Qed.
    Lemma te_psi i e : TX i Psi e = chi i e.
    Proof.
      unfold Props_Transfer.TX, Props_ProjTransfer.chi. destruct (i <? nq)%nat; [reflexivity|]. rewrite N1'. ring.
    Qed.
    Lemma se_psi i e : SX i Psi e = chi i e.
    Proof. apply (SX_psi tiny sp th nalpha nbeta st large L O m h g excitations Hset phi i e). Qed.
    Lemma e_mixed i j : (i < nq <= j \/ j < nq <= i)%nat -> (i < size)%nat -> (j < size)%nat -> I (chi i) (chi j) = 0.
    Proof.
      assert (Z : forall a b, (a < nq <= b)%nat -> (b < size)%nat -> I (chi a) (chi b) = 0).
      { intros a b Hab Hb. replace b with (b - List.length Q + List.length Q)%nat by lia.
        apply (sS_mixed tiny sp th nalpha nbeta st csf large L O m h g excitations Hset Hcsf phi Q G FQ FG a (b - List.length Q)); lia. }
      intros [Hij|Hij] Hi Hj; [apply Z; lia|rewrite ip_sym; apply Z; lia].
    Qed.
  End Pools.

  (** C93: the norm of an excitation is [<[T, T^+]>] with the transfer operators in
      [T = sum_i Z_i R_i^+ + Y_i R_i]. *)
  Theorem C93_transfer_norm M : t_run = Ok M -> forall v, excited_norm (lr_metric M size) nq (size - nq) v = E (comm (t_T v) (t_Td v)).
  Proof.
    intros ER v. destruct (transfer_run tiny sp th ansatz nalpha nbeta st csf large L O m h g excitations Hset Huni Hcsf Hst phi Hphi Hort) as (M' & ER' & HM).
    assert (M' = M) as ->. { rewrite ER in ER'. destruct (existsb _ _); [discriminate|]. congruence. }
    destruct (G_ops_ok Hsm ni na (sp_nv sp) m L O HO excitations) as (G & _ & FG). destruct (q_ops_ok Hsm sp m L O HO) as (Q & _ & FQ).
    apply (fam_excited_norm N Psi size TX TXd (te_adj Q G FQ FG) (te_kill Q G FQ FG) M nq v (size_nq L O excitations)). intros i j Hi Hj. destruct (HM i j Hi Hj) as (S & _). split; [exact S|].
    intros Hij. rewrite S, (kill_5 N Psi (TX i) (TXd i) (TX j) (TXd j) (te_adj Q G FQ FG i Hi) (te_adj Q G FQ FG j Hj) (te_kill Q G FQ FG i Hi)).
    rewrite (ip_ext _ _ _ _ _ (te_psi i) (te_psi j)). now apply (e_mixed Q G FQ FG).
  Qed.
  (** C93: the same for the class with projected rotations. *)
  Theorem C93_projected_transfer_norm M : s_run = Ok M -> forall v, excited_norm (lr_metric M size) nq (size - nq) v = E (comm (s_T v) (s_Td v)).
  Proof.
    intros ER v. destruct (pst_run tiny sp th ansatz nalpha nbeta st csf large L O m h g excitations Hset Huni Hcsf Hst phi Hphi Hort) as (M' & ER' & HM).
    assert (M' = M) as ->. { rewrite ER in ER'. destruct (existsb _ _); [discriminate|]. congruence. }
    destruct (G_ops_ok Hsm ni na (sp_nv sp) m L O HO excitations) as (G & _ & FG). destruct (q_ops_ok Hsm sp m L O HO) as (Q & _ & FQ).
    apply (fam_excited_norm N Psi size SX SXd se_adj (se_kill Q G FQ FG) M nq v (size_nq L O excitations)). intros i j Hi Hj. destruct (HM i j Hi Hj) as (_ & _ & _ & _ & S & _). split; [exact S|].
    intros Hij. rewrite S, (kill_5 N Psi (SX i) (SXd i) (SX j) (SXd j) (se_adj i Hi) (se_adj j Hj) (se_kill Q G FQ FG i Hi)).
    rewrite (ip_ext _ _ _ _ _ (se_psi i) (se_psi j)). now apply (e_mixed Q G FQ FG).
  Qed.
  (** C93: a vector that can be normalised is, in either class. *)
  Theorem C93_normalised M tiny_norm rsq v :
    let n := excited_norm (lr_metric M size) nq (size - nq) v in
    tiny_norm n = false -> rsq n * rsq n * n = 1 ->
    let u := normed tiny_norm rsq n v in
    (t_run = Ok M -> E (comm (t_T u) (t_Td u)) = 1) /\ (s_run = Ok M -> E (comm (s_T u) (s_Td u)) = 1).
  Proof.
    intros n Ht Hr u. split; intros ER; [rewrite <- (C93_transfer_norm M ER)|rewrite <- (C93_projected_transfer_norm M ER)];
      rewrite <- Hr; unfold u, normed; rewrite Ht, norm_scaled; fold n; reflexivity.
  Qed.

  (** ** Transition dipoles *)
  Section Dipole.
    Variable x : nat -> nat -> K.
    Hypothesis Hxs : forall p q, (p < N)%nat -> (q < N)%nat -> x p q = x q p.
    Notation Mu := (Xact x N).
    Let AM : adjp N Mu Mu := adj_Mu sp x Hxs.
    Variables (Q G : list lc).
    Hypothesis FQ : Forall2 (oact sp) Q (x_orbital L O).
    Hypothesis FG : Forall2 (gact ni na (sp_nv sp) m) G (x_active L O excitations).
    Let LQ : List.length Q = nq := lenQ sp L O Q FQ.
    Let LA : (List.length Q + List.length G)%nat = size := len_all sp L O m excitations Q G FQ FG.
    Notation val i := (I (chi i) (Mu Psi)).
    Lemma t_dipole_sum v : t_transition_dipole L tiny sp th ansatz O st csf Q G x size v = Ok (lsum (seq 0 size) (fun i => (v (size + i)%nat - v i) * val i)).
    Proof.
      pose proof (size_nq L O excitations) as SN.
      assert (SP : lsum (seq 0 size) (fun i => (v (size + i)%nat - v i) * val i) =
        lsum (seq 0 nq) (fun i => (v (size + i)%nat - v i) * val i) + lsum (seq 0 (List.length G)) (fun i => (v (size + (nq + i))%nat - v (nq + i)%nat) * val (nq + i)%nat)).
      { rewrite <- LA at 1. rewrite LQ. apply (lsum_seq_app nq (List.length G)). }
      rewrite SP. clear SP.
      destruct (mu_kets tiny sp th ansatz nalpha nbeta st large L O m h g excitations Hset x Hxs Q G FQ FG) as (D & mk & mdk & Dd & ED & Emk & EDd & Emdk & Lmk & Lmdk & Fm & Fmd).
      destruct (ud_ket tiny sp th ansatz nalpha nbeta st large L O m h g Hset Huni mk Lmk) as (um & Eum & Lum & Ium).
      destruct (ud_ket tiny sp th ansatz nalpha nbeta st large L O m h g Hset Huni mdk Lmdk) as (umd & Eumd & Lumd & Iumd).
      assert (P1 : props [SU true; SOp D] st = Ok um).
      { change (props [SU true; SOp D] st) with (bind (prop [D] st) (ansatz true)). rewrite Emk. exact Eum. }
      assert (P2 : props [SU true; SOp Dd] st = Ok umd).
      { change (props [SU true; SOp Dd] st) with (bind (prop [Dd] st) (ansatz true)). rewrite Emdk. exact Eumd. }
      unfold t_transition_dipole. rw ED. rw EDd. rw P2. rw P1.
      rw (q_part_val tiny sp th ansatz nalpha nbeta st large L O m h g excitations Hset x Hxs Q G FQ FG v).
      assert (QV : lsum (seq 0 nq) (fun i => (v (size + i)%nat - v i) * (I (X i Psi) (Mu Psi) - E (X i) * E Mu)) = lsum (seq 0 nq) (fun i => (v (size + i)%nat - v i) * val i)).
      { apply lsum_ext. intros i Hi. apply in_seq in Hi. rewrite (chi_q sp st L O excitations phi Q FQ i ltac:(lia)).
        rewrite (proj2 (q_x tiny sp th nalpha nbeta st large L O m h g excitations Hset Q G FQ FG i ltac:(lia))). ring. }
      rewrite QV. unfold t_g_part.
      rewrite (eloop_sum [] 0 G _ (fun i => (v (size + (nq + i))%nat - v (nq + i)%nat) * val (nq + i)%nat)).
      - cbn [bind]. f_equal. ring.
      - intros i c Hi. cbn [Nat.add].
        destruct (g_ket tiny sp th ansatz nalpha nbeta st csf large L O m h g excitations Hset Huni Hcsf phi Hphi G FG i Hi) as (_ & _ & _ & _ & gk & p3 & l3 & _ & _ & ug & lp).
        rw p3. rewrite (expv_nil' umd gk Lumd l3), (expv_nil' gk um l3 Lum). cbn [bind].
        rewrite (ip_sym _ (fket sp umd)), (Iumd gk (phi i) l3 ug lp), (Ium gk (phi i) l3 ug lp), (ip_sym _ (fket sp (phi i)) (fket sp mdk)), (Fmd (phi i) lp), (Fm _ (sup_ket sp Hpos (phi i))).
        rewrite <- (chi_g tiny sp th nalpha nbeta st csf large L O m h g excitations Hset Hcsf phi Q FQ i). rewrite LQ, (Nat.add_comm i nq).
        replace (2 * nq + (size - nq) + i)%nat with (size + (nq + i))%nat by lia. f_equal. ring.
    Qed.
    Lemma t_dip v : E (comm Mu (t_T v)) = lsum (seq 0 size) (fun i => (v (size + i)%nat - v i) * val i).
    Proof.
      rewrite (fam_dip N Psi size TX TXd (te_adj Q G FQ FG) (te_kill Q G FQ FG) v Mu AM). apply lsum_ext. intros i _. f_equal. apply (ip_ext _ _ _ _ _ (te_psi i) (fun _ => eq_refl)).
    Qed.
    Lemma s_dip v : E (comm Mu (s_T v)) = lsum (seq 0 size) (fun i => (v (size + i)%nat - v i) * val i).
    Proof.
      rewrite (fam_dip N Psi size SX SXd se_adj (se_kill Q G FQ FG) v Mu AM). apply lsum_ext. intros i _. f_equal. apply (ip_ext _ _ _ _ _ (se_psi i) (fun _ => eq_refl)).
    Qed.
  End Dipole.

  (** C93: every component of every transition dipole is [<[Mu, T]>] with the
      one-electron operator [Mu] of all orbitals, whichever of the two classes [T]
      belongs to. *)
  Theorem C93_dipoles (mus : list (nat -> nat -> K)) (vs : list (nat -> K)) :
    (forall x, In x mus -> forall p q, (p < N)%nat -> (q < N)%nat -> x p q = x q p) ->
    t_transition_dipoles L tiny sp th ansatz O st csf excitations mus size vs = Ok (map (fun v => map (fun x => E (comm (Xact x N) (t_T v))) mus) vs) /\
    forall x v, In x mus -> E (comm (Xact x N) (s_T v)) = E (comm (Xact x N) (t_T v)).
  Proof.
    intros Hx. destruct (G_ops_ok Hsm ni na (sp_nv sp) m L O HO excitations) as (G & EG & FG). destruct (q_ops_ok Hsm sp m L O HO) as (Q & EQ & FQ). split.
    - unfold t_transition_dipoles, dipoles_with. rw EG. rw EQ. apply rlist_ok. intros v _. apply rlist_ok. intros x Hi.
      rewrite (t_dip x (Hx x Hi) Q G FQ FG v). apply t_dipole_sum; auto.
    - intros x v Hi. rewrite (t_dip x (Hx x Hi) Q G FQ FG v). apply (s_dip x (Hx x Hi) Q G FQ FG v).
  Qed.
End TransferExcited.

(** ** The hypotheses are met: the setting of [C91_example_setup] *)
Example C93_example_norm : exists M M', t_run r_large r_h = Ok M /\ pst_run_ex r_large r_h = Ok M' /\
  this (qa (excited_norm (lr_metric M 7) 5 2 x_v)) = (-429 # 25)%Q /\ this (qa (excited_norm (lr_metric M' 7) 5 2 x_v)) = (-429 # 25)%Q.
Proof. eexists. eexists. split; [vm_compute; reflexivity|]. split; [vm_compute; reflexivity|]. split; vm_compute; reflexivity. Qed.
Example C93_example_dipole : exists D D', t_transition_dipoles t_lit r_tiny ex_sp None t_anz r_O r_st t_csf "sd" [x_mu; r_h] 7 [x_v] = Ok [[D; D']] /\
  this (qa D) = (72 # 5)%Q /\ this (qb D) = (-397 # 25)%Q /\ this (qa D') = (216 # 25)%Q.
Proof. eexists. eexists. split; [vm_compute; reflexivity|]. repeat split; vm_compute; reflexivity. Qed.

Print Assumptions C93_transfer_norm.
Print Assumptions C93_projected_transfer_norm.
Print Assumptions C93_normalised.
Print Assumptions C93_dipoles.
