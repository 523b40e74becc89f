(** C92: linear response with projected rotations and state-transfer excitations:
    what the constructor puts in the matrices, and when it refuses. *)
From Coq Require Import List Bool Arith NArith ZArith Ascii String Lia Ring Permutation.
From Coq Require Import QArith Qcanon.
From Verif Require Import Base Fock FockMore FermiModel FermiProofs FermiFold FermiAlgebra OperatorsModel OperatorsProofs OperatorsSums OperatorsActs
  OperatorsActive OperatorsGen OperatorsKeys OperatorsOne Props_Operators CIModel CIProofs StateModel StateProofs StateMore Props_State
  FockInner DensityModel DensityProofs DensityExpect DensityResponse DensityFill DensityState StructModel LRModel LRAlgebra LRProofs LRPools LRProjModel LRProjProofs
  Props_Density Props_Qubit Props_Response Props_Projected LRAllProjModel Props_AllProjected LRTransferModel Props_Transfer LRProjTransferModel SpaceModel.
Import ListNotations.
Local Open Scope nat_scope.
Local Open Scope list_scope.

Section ProjTransfer.
  Context {K : Type} {C : CRing K}.
  Local Open Scope K_scope.
  Add Ring KringPt : (@rth K C).
  Notation act := (amps (K:=K) -> amps (K:=K)).
  Notation lc := (list (fstring * K)).
  Variables (tiny : K -> bool) (sp : @space) (th : threads) (ansatz : bool -> list K -> Res (list K)) (nalpha nbeta : Z) (st csf : list K).
  Variables (large : K -> bool) (L : @literals K) (O : orbitals) (m : nat) (h : nat -> nat -> K) (g : nat -> nat -> nat -> nat -> K) (excitations : string).
  Hypothesis Hset : response_setup tiny sp th nalpha nbeta st large L O m h g.
  Notation ni := (sp_ni sp).
  Notation na := (sp_na sp).
  Notation d := (dim (sp_ci sp)).
  Hypothesis Huni : unitary_ansatz ansatz d.
  Hypothesis Hcsf : List.length csf = d.
  Hypothesis Hst : ansatz false csf = Ok st.
  Notation N := (sp_ni sp + sp_na sp + sp_nv sp)%nat.
  Notation half := (l_half L).
  Notation H := (Hact half h g N).
  Notation Psi := (fket sp st).
  Notation Ref := (fket sp csf).
  Notation I u w := (ip (2 * N) u w).
  Notation E F := (ip (2 * N) Psi (F Psi)).
  Notation orb := (x_orbital L O).
  Notation actv := (x_active L O excitations).
  Notation ops := (x_orbital L O ++ x_active L O excitations).
  Notation X i := (opapp (nth i ops [])).
  Notation Xd i := (opapp (lc_adj (nth i ops []))).
  Notation nq := (List.length (o_kappa O)).
  Notation run := (pst_init large L tiny sp th ansatz O h g st csf excitations).
  Variable phi : nat -> list K.
  Hypothesis Hphi : transfer_kets sp ansatz csf L O excitations phi.
  Hypothesis Hort : orthonormal_excitations sp csf L O excitations.
  Notation P i := (fket sp (phi i)).

  (** The operators of the response equations carry the state to the rotated state,
      or to the transferred one: [q_i |0><0|] and [U G_i |CSF><0|]. *)
  Definition chi (i : nat) : amps := if (i <? nq)%nat then X i Psi else P (i - nq).
  Definition SX (i : nat) : act := fun u x => I Psi u * chi i x.
  Definition SXd (i : nat) : act := fun u x => I (chi i) u * Psi x.
  Definition pst_gradients : list K := flat_map (fun i => [E (comm (SXd i) H); E (comm (SX i) H)]) (seq 0 (List.length ops)).

  Let Hw : wf_setup tiny sp th nalpha nbeta st := proj1 Hset.
  Let Hn : dot st st = 1 := proj1 (proj2 Hset).
  Let Hr : real_integrals N half h g := proj1 (proj2 (proj2 Hset)).
  Let HO : orbs_ok ni na (sp_nv sp) m O := proj1 (proj2 (proj2 (proj2 (proj2 Hset)))).
  Let Hop := proj2 (proj2 (proj2 (proj2 (proj2 Hset)))).
  Let Hex := proj1 Hw.
  Let Hsm : exact_small K := proj1 (proj2 Hw).
  Let Hpos := proj1 (proj2 (proj2 Hw)).
  Let Hidx := proj1 (proj2 (proj2 (proj2 Hw))).
  Let Hth := proj1 (proj2 (proj2 (proj2 (proj2 Hw)))).
  Let Hlen := proj2 (proj2 (proj2 (proj2 (proj2 Hw)))).
  Let AH : adjp N H H := adjp_H half h g N (proj1 (proj2 Hr)) (proj2 (proj2 (proj2 Hr))).
  Notation aP := (actP ni na N).
  Notation sup := (sup sp).
  Notation prop := (prop tiny sp th ansatz).
  Notation expv := (expv tiny sp th ansatz).
  Notation props := (props tiny sp th ansatz).
  Let expv_nil' a b := expv_nil tiny sp th ansatz nalpha nbeta Hpos Hidx a b.
  Let N1' : I Psi Psi = 1 := N1 tiny sp th nalpha nbeta st large L O m h g Hset.
  Notation e0 := (I Psi (H Psi)).
  Notation er := (fun _ => eq_refl).

  Lemma s_ip_r c u w : I u (fun x => c * w x) = c * I u w.
  Proof. transitivity (I u (fun x => c * w x - 0 * w x)); [apply ip_ext; [reflexivity|intros x; ring]|]. rewrite (ip_comb N c 0 u w w). ring. Qed.
  Lemma s_ip_l c u w : I (fun x => c * w x) u = c * I w u.
  Proof. rewrite ip_sym, s_ip_r, ip_sym. reflexivity. Qed.
  Lemma SX_adj i : adjp N (SX i) (SXd i).
  Proof. intros u w. unfold SX, SXd. rewrite s_ip_r, s_ip_l, (ip_sym _ u). ring. Qed.
  Lemma SX_psi i x : SX i Psi x = chi i x.
  Proof. unfold SX. rewrite N1'. ring. Qed.
  Lemma SH_psi i x : H (SX i Psi) x = H (chi i) x.
  Proof. apply Hact_ext. apply SX_psi. Qed.

  Section Values.
    Variables (Q G : list lc) (H2 H1 H0 : lc).
    Hypothesis FQ : Forall2 (oact sp) Q orb.
    Hypothesis FG : Forall2 (gact ni na (sp_nv sp) m) G actv.
    Hypothesis HH2 : H2ok sp L h g H2.
    Hypothesis HH1 : H1ok sp L h g H1.
    Hypothesis HH0 : H0ok sp L h g H0.
    Notation s := (List.length Q).
    Notation ng := (List.length G).
    Let HQok' := HQok sp L O Q FQ.
    Let LQ : s = nq := t_lenQ sp L O Q FQ.
    Let p_orth' := p_orth tiny sp th ansatz nalpha nbeta st csf large L O m h g excitations Hset Huni Hcsf Hst phi Hphi G FG Hort.
    Let q_orth' := t_q_orth tiny sp th nalpha nbeta st csf large L O m h g excitations Hset Hcsf Q G FQ FG.
    Let q_kill' := t_q_kill tiny sp th nalpha nbeta st large L O m h g excitations Hset Q G FQ FG.
    Let q_nth' := t_q_nth tiny sp th nalpha nbeta st large L O m h g excitations Hset Q G FQ FG.
    Let x_adj' := t_x_adj tiny sp th nalpha nbeta st large L O m h g excitations Hset Q G FQ FG.
    Let gr_q' := gr_q tiny sp th nalpha nbeta st large L O m h g excitations Hset Q G FQ FG.
    Let g_ket' := g_ket tiny sp th ansatz nalpha nbeta st csf large L O m h g excitations Hset Huni Hcsf phi Hphi G FG.

    Lemma chi_q j : (j < s)%nat -> chi j = X j Psi.
    Proof. intros Hj. unfold chi. rewrite <- LQ. apply Nat.ltb_lt in Hj. now rewrite Hj. Qed.
    Lemma chi_g i : chi (i + s) = P i.
    Proof. unfold chi. rewrite <- LQ. assert (Z : (i + s <? s)%nat = false) by (apply Nat.ltb_ge; lia). rewrite Z. now replace (i + s - s)%nat with i by lia. Qed.
    Lemma chi_orth i : (i < s + ng)%nat -> I (chi i) Psi = 0.
    Proof.
      intros Hi. rewrite ip_sym. destruct (Nat.lt_ge_cases i s) as [Li|Li].
      - rewrite (chi_q i Li). apply gr_q', Li.
      - replace i with (i - s + s)%nat by lia. rewrite chi_g. apply p_orth'. lia.
    Qed.
    Lemma SX_kill i : (i < s + ng)%nat -> forall x, SXd i Psi x = 0.
    Proof. intros Hi x. unfold SXd. rewrite (chi_orth i Hi). ring. Qed.

    Definition sA (i j : nat) : K := I (chi i) (H (chi j)) - I (chi i) (chi j) * e0.
    Definition sS (i j : nat) : K := I (chi i) (chi j).
    Lemma sS_sym i j : sS i j = sS j i.
    Proof. apply ip_sym. Qed.
    Lemma sA_sym i j : sA i j = sA j i.
    Proof. unfold sA. rewrite (AH (chi i) (chi j)), (ip_sym _ (H (chi i))), (ip_sym _ (chi i) (chi j)). reflexivity. Qed.
    Lemma sS_mixed j i : (j < s)%nat -> (i < ng)%nat -> sS j (i + s) = 0.
    Proof. intros Hj Hi. unfold sS. rewrite ip_sym, (chi_q j Hj), chi_g. apply q_orth'; [exact Hj|apply (sup_ket sp Hpos)]. Qed.
    Lemma sS_act i j : (i < ng)%nat -> (j < ng)%nat -> sS (i + s) (j + s) = if (i =? j)%nat then 1 else 0.
    Proof. intros Hi Hj. unfold sS. rewrite !chi_g. now apply p_orth'. Qed.

    (** The commutators. *)
    Lemma s_vals i j : (i < s + ng)%nat -> (j < s + ng)%nat ->
      E (comm (SXd i) (comm H (SX j))) = sA i j /\ E (comm (comm (SXd i) H) (SX j)) = sA i j /\
      E (comm (SXd i) (comm H (SXd j))) = 0 /\ E (comm (comm (SXd i) H) (SXd j)) = 0 /\
      E (comm (SXd i) (SX j)) = sS i j /\ E (comm (SXd i) (SXd j)) = 0.
    Proof.
      intros Hi Hj. pose proof (SX_adj i) as Ai. pose proof (SX_adj j) as Aj. pose proof (SX_kill i Hi) as Ki. pose proof (SX_kill j Hj) as Kj.
      rewrite (kill_1 N Psi H AH _ _ _ _ Ai Aj Ki), (kill_2 N Psi H AH _ _ _ _ Ai Aj Kj).
      rewrite (kill_3 N Psi H AH _ _ _ _ Ai Aj Ki Kj), (kill_4 N Psi H AH _ _ _ _ Ai Aj Ki Kj), (kill_5 N Psi _ _ _ _ Ai Aj Ki), (kill_6 N Psi _ _ _ _ Ai Aj Ki Kj).
      assert (C1 : forall a b, I (SX a Psi) (H (SX b Psi)) = I (chi a) (H (chi b))) by (intros a b; apply (ip_ext _ _ _ _ _ (SX_psi a) (SH_psi b))).
      assert (C2 : forall a b, I (SXd b (SX a Psi)) (H Psi) = I (chi b) (chi a) * e0).
      { intros a b. unfold SXd at 1. rewrite s_ip_l. f_equal. apply (ip_ext _ _ _ _ _ er (SX_psi a)). }
      assert (C3 : forall a b, I (chi a) Psi = 0 -> I (SX b (SX a Psi)) (H Psi) = 0).
      { intros a b Z. unfold SX at 1. rewrite s_ip_l, (ip_ext _ _ _ _ _ er (SX_psi a)), ip_sym, Z. ring. }
      rewrite !C1, !C2, (C3 i j (chi_orth i Hi)), (C3 j i (chi_orth j Hj)), (ip_ext _ _ _ _ _ (SX_psi i) (SX_psi j)).
      unfold sA, sS. rewrite (AH (chi j) (chi i)), (ip_sym _ (H (chi j))), (ip_sym _ (chi j) (chi i)). repeat split; ring.
    Qed.
    Lemma s_grad i : (i < s + ng)%nat -> E (comm (SXd i) H) = I (chi i) (H Psi) /\ E (comm (SX i) H) = - I (chi i) (H Psi).
    Proof.
      intros Hi. pose proof (SX_adj i) as Ai. pose proof (SX_kill i Hi) as Ki. rewrite !ev_comm.
      assert (A1 : I Psi (SXd i (H Psi)) = I (chi i) (H Psi)) by (rewrite (adjp_flip _ _ _ Ai Psi (H Psi)); apply (ip_ext _ _ _ _ _ (SX_psi i) er)).
      assert (A2 : I Psi (H (SXd i Psi)) = 0) by (rewrite (AH Psi _); apply ip_zero; exact Ki).
      assert (A3 : I Psi (SX i (H Psi)) = 0) by (rewrite (Ai Psi (H Psi)), ip_sym; apply ip_zero; exact Ki).
      assert (A4 : I Psi (H (SX i Psi)) = I (chi i) (H Psi)) by (rewrite (ip_ext _ _ _ _ _ er (SH_psi i)), (AH Psi (chi i)); apply ip_sym).
      rewrite A1, A2, A3, A4. split; ring.
    Qed.
    (** The gradient of a rotation is that of its projected form. *)
    Lemma q_grad j : (j < s)%nat -> E (comm (Xd j) H) = I (chi j) (H Psi) /\ E (comm (X j) H) = - I (chi j) (H Psi).
    Proof.
      intros Hj. pose proof (x_adj' j ltac:(lia)) as Aj. assert (Kj : forall x, Xd j Psi x = 0) by (apply q_kill'; [exact Hj|apply (sup_ket sp Hpos)]). rewrite !ev_comm, (chi_q j Hj).
      assert (A1 : I Psi (Xd j (H Psi)) = I (X j Psi) (H Psi)) by apply (adjp_flip _ _ _ Aj Psi (H Psi)).
      assert (A2 : I Psi (H (Xd j Psi)) = 0) by (rewrite (AH Psi _); apply ip_zero; exact Kj).
      assert (A3 : I Psi (X j (H Psi)) = 0) by (rewrite (Aj Psi (H Psi)), ip_sym; apply ip_zero; exact Kj).
      assert (A4 : I Psi (H (X j Psi)) = I (X j Psi) (H Psi)) by (rewrite (AH Psi _); apply ip_sym).
      rewrite A1, A2, A3, A4. split; ring.
    Qed.

    Notation va := (fun j i => I (P i) (H (X j Psi))).
    Definition px (j i : nat) : list (list nat * K) := [([0; j; i + s]%nat, va j i); ([0; i + s; j]%nat, va j i)].
    Lemma pst_mixed_ok M : pst_mixed_blocks tiny sp th ansatz st csf H1 Q G M = Ok (applyw (flat_map (fun j => flat_map (px j) (seq 0 ng)) (seq 0 s)) M).
    Proof.
      unfold pst_mixed_blocks. apply (eloop_idx [] 0 Q). intros j M' Hj. cbn [Nat.add]. set (q := nth j Q []).
      destruct (q_nth' j Hj) as (Hq & P1 & P2). fold q in Hq, P1, P2.
      destruct (HQok' q Hq) as (OQ & EQ & OQd & AQ & Q1 & Q0). pose proof HH1 as (O1 & Ha & Hb).
      assert (R : forall A, OPS (bal N) A -> rep (bal N) (Ok A) (opapp A)) by (intros A HA; exists A; auto).
      destruct (rep_mul Hsm (bal N) (bal_stable N) _ _ _ _ (R _ O1) (R _ OQ)) as (Hq' & e1 & O2 & S2). cbn [bind] in e1.
      rw e1. destruct (papply tiny sp th ansatz nalpha nbeta Hex Hpos Hidx Hth Hq' st O2 Hlen) as (hqk & p1 & l1 & F1).
      destruct (ud_ket tiny sp th ansatz nalpha nbeta st large L O m h g Hset Huni hqk l1) as (uq & u1 & ul1 & I1).
      assert (pu1 : props [SU true; SOp Hq'] st = Ok uq).
      { change (props [SU true; SOp Hq'] st) with (bind (prop [Hq'] st) (ansatz true)). rewrite p1. exact u1. }
      rw pu1. apply (eloop_idx [] 0 G). intros i M'' Hi. cbn [Nat.add]. set (D := nth i G []).
      destruct (g_ket' i Hi) as (ED & OD & OD' & AD & gk & p3 & l3 & F3 & F3' & ug & lp). fold D in ED, OD, OD', AD, p3, F3. rw p3.
      rewrite !expv_nil' by assumption. cbn [bind]. rewrite (I1 gk (phi i) l3 ug lp).
      assert (a : I (P i) (fket sp hqk) = va j i).
      { apply (ip_asp sp); [apply (sup_ket sp Hpos)|]. intros x Hx.
        rewrite F1, S2, Ha by (assumption || apply Q1, (sup_ket sp Hpos)). apply Hact_ext. apply P1. }
      rewrite a. reflexivity.
    Qed.

    (** The entries after all the loops. *)
    Notation ua := (fun j i => I (P i) (H (P j)) - (if (i =? j)%nat then e0 else 0)).
    Notation pq := (pq sp st L O h g excitations).
    Definition s_writes : list (list nat * K) :=
      flat_map (fun j => flat_map (pq j) (seq j (s - j))) (seq 0 s) ++ flat_map (fun j => flat_map (px j) (seq 0 ng)) (seq 0 s) ++
      flat_map (fun j => flat_map (pt s ua j) (seq j (ng - j))) (seq 0 ng).
    Definition s_target (c : list nat) : K := match c with [0; i; j]%nat => sA i j | [2; i; j]%nat => sS i j | _ => 0 end.
    Lemma in_s c v : In (c, v) s_writes <->
      (exists j i, (j <= i < s)%nat /\ In (c, v) (pq j i)) \/ (exists j i, (j < s)%nat /\ (i < ng)%nat /\ In (c, v) (px j i)) \/ (exists j i, (j <= i < ng)%nat /\ In (c, v) (pt s ua j i)).
    Proof.
      unfold s_writes. rewrite !in_app_iff, !in_flat_map. split.
      - intros [(j & Hj & HI)|[(j & Hj & HI)|(j & Hj & HI)] ]; apply in_flat_map in HI as (i & Hi & HI); apply in_seq in Hj, Hi; [left|right; left|right; right]; exists j, i; repeat split; auto; lia.
      - intros [(j & i & Hi & HI)|[(j & i & Hj & Hi & HI)|(j & i & Hi & HI)] ]; [left|right; left|right; right]; exists j; (split; [apply in_seq; lia|]); apply in_flat_map; exists i; (split; [apply in_seq; lia|exact HI]).
    Qed.
    Lemma s_writes_target c v : In (c, v) s_writes -> v = s_target c.
    Proof.
      rewrite in_s. intros [(j & i & Hi & HI)|[(j & i & Hj & Hi & HI)|(j & i & Hi & HI)] ].
      - assert (VA : vA sp st L O h g excitations i j = sA i j).
        { unfold vA, sA. rewrite !chi_q by lia. rewrite (gr_q' i ltac:(lia)), (gr_q' j ltac:(lia)). ring. }
        assert (VS : vS sp st L O excitations i j = sS i j).
        { unfold vS, sS. rewrite !chi_q by lia. rewrite (gr_q' i ltac:(lia)), (gr_q' j ltac:(lia)). ring. }
        unfold Props_AllProjected.pq in HI. rewrite VA, VS in HI.
        repeat (destruct HI as [HI|HI]; [injection HI as <- <-; cbn [s_target]; first [reflexivity|apply sA_sym|apply sS_sym]|]). destruct HI.
      - assert (VA : va j i = sA (i + s) j).
        { unfold sA. fold (sS (i + s) j). rewrite sS_sym, sS_mixed, chi_g, (chi_q j) by assumption. ring. }
        unfold px in HI. cbv beta in VA. rewrite VA in HI.
        repeat (destruct HI as [HI|HI]; [injection HI as <- <-; cbn [s_target]; first [reflexivity|apply sA_sym]|]). destruct HI.
      - assert (VA : ua j i = sA (i + s) (j + s)).
        { unfold sA. fold (sS (i + s) (j + s)). rewrite (sS_act i j), !chi_g by lia. destruct (i =? j)%nat; ring. }
        unfold pt in HI. cbv beta in VA. rewrite VA in HI. apply in_app_iff in HI as [HI|HI].
        + repeat (destruct HI as [HI|HI]; [injection HI as <- <-; cbn [s_target]; first [reflexivity|apply sA_sym]|]). destruct HI.
        + destruct (i =? j)%nat eqn:Eij; [|destruct HI]. destruct HI as [HI|[] ]. injection HI as <- <-. cbn [s_target]. rewrite (sS_act i j), Eij by lia. reflexivity.
    Qed.
    Lemma s_entries i j : (i < s + ng)%nat -> (j < s + ng)%nat -> let M := applyw s_writes (fun _ => 0) in
      M [0; i; j]%nat = sA i j /\ M [1; i; j]%nat = 0 /\ M [2; i; j]%nat = sS i j /\ M [3; i; j]%nat = 0.
    Proof.
      intros Hi Hj M.
      assert (ALL : forall c, (In c (map fst s_writes) \/ s_target c = 0) -> M c = s_target c).
      { intros c Hc. destruct (in_dec (list_eq_dec Nat.eq_dec) c (map fst s_writes)) as [HI|HI].
        - apply applyw_in; [exact s_writes_target|exact HI].
        - unfold M. rewrite applyw_out by exact HI. destruct Hc as [Hc|Hc]; [contradiction|]. now symmetry. }
      assert (W : forall c v, In (c, v) s_writes -> In c (map fst s_writes)) by (intros c v Hc; now apply (in_map fst) in Hc).
      assert (CS : forall k, (k < s + ng)%nat -> (k < s)%nat \/ exists a, k = (a + s)%nat /\ (a < ng)%nat).
      { intros k Hk. destruct (Nat.lt_ge_cases k s); [now left|right]. exists (k - s)%nat. lia. }
      split; [|split; [|split] ].
      - apply (ALL [0; i; j]%nat). left. destruct (CS i Hi) as [Li|(a & -> & La)], (CS j Hj) as [Lj|(b & -> & Lb)].
        + destruct (Nat.le_ge_cases j i) as [HL|HL]; eapply W; apply in_s; left; [exists j, i|exists i, j]; (split; [lia|]); unfold Props_AllProjected.pq; cbn [In]; eauto.
        + eapply W. apply in_s. right. left. exists i, b. split; [exact Li|]. split; [exact Lb|]. unfold px. cbn [In]. eauto.
        + eapply W. apply in_s. right. left. exists j, a. split; [exact Lj|]. split; [exact La|]. unfold px. cbn [In]. eauto.
        + destruct (Nat.le_ge_cases b a) as [HL|HL]; eapply W; apply in_s; right; right; [exists b, a|exists a, b]; (split; [lia|]); unfold pt; apply in_app_iff; left; cbn [In]; eauto.
      - apply (ALL [1; i; j]%nat). right. reflexivity.
      - apply (ALL [2; i; j]%nat). destruct (CS i Hi) as [Li|(a & -> & La)], (CS j Hj) as [Lj|(b & -> & Lb)].
        + left. destruct (Nat.le_ge_cases j i) as [HL|HL]; eapply W; apply in_s; left; [exists j, i|exists i, j]; (split; [lia|]); unfold Props_AllProjected.pq; cbn [In]; eauto.
        + right. now apply sS_mixed.
        + right. cbn [s_target]. rewrite sS_sym. now apply sS_mixed.
        + destruct (Nat.eqb_spec a b) as [->|Hab].
          * left. apply (W _ 1). apply in_s. right. right. exists b, b. split; [lia|]. unfold pt. rewrite Nat.eqb_refl. apply in_app_iff. right. now left.
          * right. cbn [s_target]. rewrite (sS_act a b La Lb). apply Nat.eqb_neq in Hab. now rewrite Hab.
      - apply (ALL [3; i; j]%nat). right. reflexivity.
    Qed.

    Lemma s_gradients : existsb large pst_gradients =
      existsb large (gradients sp st L h g orb) || existsb large (flat_map (fun i => [- I (P i) (H Psi); I (P i) (H Psi)]) (seq 0 ng)).
    Proof.
      unfold pst_gradients. rewrite <- (len_all sp L O m excitations Q G FQ FG), seq_app, flat_map_app, existsb_app. f_equal.
      - unfold gradients. assert (LO : List.length orb = s) by (symmetry; apply (F2_len _ _ _ FQ)).
        assert (EO : orb = map (fun k => nth k ops []) (seq 0 s)).
        { rewrite <- LO. assert (ZZ : forall (l l' : list lc), l = map (fun k => nth k (l ++ l') []) (seq 0 (List.length l))).
          { induction l as [|A l IH]; intros l'; [reflexivity|]. cbn [List.length seq map]. rewrite <- seq_shift, map_map. cbn [app nth]. f_equal. apply IH. }
          apply ZZ. }
        rewrite EO at 1. assert (SQ : forall k, In k (seq 0 s) -> (k < s)%nat) by (intros k Hk; apply in_seq in Hk; lia). revert SQ. generalize (seq 0 s). intros l SQ.
        induction l as [|k l IH]; [reflexivity|]. cbn [map flat_map]. rewrite !existsb_app, IH by (intros; apply SQ; now right). f_equal.
        pose proof (SQ k (or_introl eq_refl)) as Hk. destruct (s_grad k ltac:(lia)) as [-> ->]. destruct (q_grad k Hk) as [-> ->]. reflexivity.
      - cbn [Nat.add]. assert (SQ : forall k, In k (seq 0 ng) -> (k < ng)%nat) by (intros k Hk; apply in_seq in Hk; lia).
        assert (ES : seq s ng = map (fun i => (i + s)%nat) (seq 0 ng)).
        { generalize ng, s. intros n. induction n as [|n IH]; intros a; [reflexivity|]. cbn [seq map]. f_equal. rewrite IH, <- (seq_shift n 0), map_map.
          apply map_ext. intros; lia. }
        rewrite ES. revert SQ. generalize (seq 0 ng). intros l SQ. induction l as [|k l IH]; [reflexivity|]. cbn [map flat_map]. rewrite !existsb_app, IH by (intros; apply SQ; now right). f_equal.
        pose proof (SQ k (or_introl eq_refl)) as Hk. destruct (s_grad (k + s) ltac:(lia)) as [-> ->]. rewrite chi_g. cbn [existsb]. rewrite Hop. reflexivity.
    Qed.
  End Values.

  Lemma pst_run : exists M, run = (if existsb large pst_gradients then Raise ValueError else Ok M) /\
    forall i j, (i < List.length ops)%nat -> (j < List.length ops)%nat ->
      M [0; i; j]%nat = E (comm (SXd i) (comm H (SX j))) /\ M [0; i; j]%nat = E (comm (comm (SXd i) H) (SX j)) /\
      M [1; i; j]%nat = E (comm (SXd i) (comm H (SXd j))) /\ M [1; i; j]%nat = E (comm (comm (SXd i) H) (SXd j)) /\
      M [2; i; j]%nat = E (comm (SXd i) (SX j)) /\ M [3; i; j]%nat = E (comm (SXd i) (SXd j)) /\
      M [1; i; j]%nat = 0 /\ M [3; i; j]%nat = 0 /\
      ((nq <= i /\ nq <= j)%nat -> M [2; i; j]%nat = if (i =? j)%nat then 1 else 0).
  Proof.
    unfold pst_init. destruct (G_ops_ok Hsm ni na (sp_nv sp) m L O HO excitations) as (G & EG & FG). rw EG.
    destruct (q_ops_ok Hsm sp m L O HO) as (Q & EQ & FQ). rw EQ.
    destruct (H1_ex sp Hsm L h g) as (H1 & E1 & HH1). rw E1. destruct (H0_ex sp st Hsm Hpos Hlen L h g) as (H0 & E0 & HH0). rw E0.
    destruct (H2_ex tiny sp th nalpha nbeta st large L O m h g Hset) as (H2 & E2 & HH2). rw E2.
    rw (t_energy_ok tiny sp th ansatz nalpha nbeta st large L O m h g Hset H0 HH0).
    destruct (H0apply tiny sp th ansatz nalpha nbeta Hex Hpos Hidx Hth L h g H0 st HH0 Hlen) as (H00 & E00 & L00 & F00).
    destruct (ud_ket tiny sp th ansatz nalpha nbeta st large L O m h g Hset Huni H00 L00) as (UH & EU & LU & _).
    assert (EUH : props [SU true; SOp H0] st = Ok UH).
    { change (props [SU true; SOp H0] st) with (bind (prop [H0] st) (ansatz true)). rewrite E00. exact EU. }
    unfold pst_matrices. rewrite (check_orbital_ok tiny sp th ansatz nalpha nbeta st large L O m h g Hset).
    exists (applyw (s_writes Q G) (fun _ => 0)). split.
    - rewrite (s_gradients Q G FQ FG). destruct (existsb large (gradients sp st L h g orb)); [reflexivity|]. cbn [bind Datatypes.orb]. rw EUH.
      rewrite (t_check_ok tiny sp th ansatz nalpha nbeta st csf large L O m h g excitations Hset Huni Hcsf phi Hphi G H0 FG HH0 UH EUH).
      match goal with |- context [if ?b then Raise ValueError else Ok tt] => destruct b end; [reflexivity|]. cbn [bind].
      rw (ap_orbital_ok tiny sp th ansatz nalpha nbeta st large L O m h g excitations Hset Q G H2 H00 FQ FG HH2 L00 (fun _ => 0)).
      match goal with |- context [pst_mixed_blocks _ _ _ _ _ _ _ _ _ ?M1] => rw (pst_mixed_ok Q G H1 FQ FG HH1 M1) end.
      match goal with |- context [t_active_blocks _ _ _ _ _ _ _ _ _ ?M2] =>
        rewrite (t_active_ok tiny sp th ansatz nalpha nbeta st csf large L O m h g excitations Hset Huni Hcsf phi Hphi Q G H0 FG HH0 M2) end.
      unfold s_writes. rewrite !applyw_app. reflexivity.
    - intros i j Hi Hj. pose proof (t_lenQ sp L O Q FQ) as LQ. pose proof (len_all sp L O m excitations Q G FQ FG) as LA. rewrite <- LA in Hi, Hj. rewrite <- LQ.
      destruct (s_vals Q G FQ FG i j Hi Hj) as (V1 & V2 & V3 & V4 & V5 & V6). destruct (s_entries Q G FQ FG i j Hi Hj) as (M0 & M1 & M2 & M3).
      rewrite V1, V2, V3, V4, V5, V6, M0, M1, M2, M3. repeat (split; [reflexivity|]). intros [Li Lj].
      replace i with (i - List.length Q + List.length Q)%nat by lia. replace j with (j - List.length Q + List.length Q)%nat by lia.
      rewrite (sS_act Q G FQ FG) by lia.
      destruct (Nat.eqb_spec (i - List.length Q) (j - List.length Q)), (Nat.eqb_spec (i - List.length Q + List.length Q) (j - List.length Q + List.length Q)); try reflexivity; lia.
  Qed.

  (** C92: with no large gradient the constructor succeeds, and every entry of the
      four matrices is the commutator expectation value of the response equations
      for the operators [q_i |0><0|] and [U G_i |CSF><0|].  The nesting of the double
      commutator does not matter, nor does it take a stationary state; [B] and
      [Delta] vanish. *)
  Theorem C92_matrices : (forall x, In x pst_gradients -> large x = false) ->
    exists M, run = Ok M /\
    forall i j, (i < List.length ops)%nat -> (j < List.length ops)%nat ->
      M [0; i; j]%nat = E (comm (SXd i) (comm H (SX j))) /\ M [0; i; j]%nat = E (comm (comm (SXd i) H) (SX j)) /\
      M [1; i; j]%nat = E (comm (SXd i) (comm H (SXd j))) /\ M [1; i; j]%nat = E (comm (comm (SXd i) H) (SXd j)) /\
      M [2; i; j]%nat = E (comm (SXd i) (SX j)) /\ M [3; i; j]%nat = E (comm (SXd i) (SXd j)) /\
      M [1; i; j]%nat = 0 /\ M [3; i; j]%nat = 0 /\
      ((nq <= i /\ nq <= j)%nat -> M [2; i; j]%nat = if (i =? j)%nat then 1 else 0).
  Proof.
    intros Hl. destruct pst_run as (M & ER & HM). exists M. split; [|exact HM]. rewrite ER.
    destruct (existsb large pst_gradients) eqn:EX; [|reflexivity]. apply existsb_exists in EX as (x & Hx & Hlx). rewrite (Hl x Hx) in Hlx. discriminate.
  Qed.
  (** C92: it raises ValueError exactly when the gradient of some of these operators
      is large. *)
  Theorem C92_gradient_check : run = Raise ValueError <-> exists x, In x pst_gradients /\ large x = true.
  Proof. destruct pst_run as (M & ER & _). rewrite ER, <- existsb_exists. destruct (existsb large pst_gradients); split; congruence. Qed.
  (** C92: so the response equations are those of the Hamiltonian among the states
      the operators make: the Hessian is the energy of these states relative to that
      of the wave function, the metric their overlaps. *)
  Theorem C92_configuration_interaction : (forall x, In x pst_gradients -> large x = false) ->
    exists M, run = Ok M /\
    forall i j, (i < List.length ops)%nat -> (j < List.length ops)%nat ->
      M [0; i; j]%nat = I (chi i) (H (chi j)) - I (chi i) (chi j) * e0 /\ M [2; i; j]%nat = I (chi i) (chi j) /\ I (chi i) Psi = 0.
  Proof.
    intros Hl. destruct (C92_matrices Hl) as (M & ER & HM). exists M. split; [exact ER|]. intros i j Hi Hj. destruct (HM i j Hi Hj) as (M0 & _ & _ & _ & M2 & _).
    destruct (G_ops_ok Hsm ni na (sp_nv sp) m L O HO excitations) as (G & EG & FG). destruct (q_ops_ok Hsm sp m L O HO) as (Q & EQ & FQ).
    pose proof (len_all sp L O m excitations Q G FQ FG) as LA. rewrite <- LA in Hi, Hj. destruct (s_vals Q G FQ FG i j Hi Hj) as (V1 & _ & _ & _ & V5 & _).
    rewrite M0, M2, V1, V5. split; [reflexivity|]. split; [reflexivity|]. exact (chi_orth Q G FQ FG i Hi).
  Qed.
End ProjTransfer.

(** * Examples *)
Definition pst_run_ex large h := pst_init large t_lit r_tiny ex_sp None t_anz r_O h r_g r_st t_csf "sd".
(** The setting of [C91_example_setup], which meets the hypotheses. *)
Example C92_example : exists M, pst_run_ex r_large r_h = Ok M /\
  map (fun idx => this (qa (M idx))) [[0; 0; 0]; [2; 0; 0]; [1; 0; 0]; [0; 5; 5]; [2; 5; 5]; [0; 6; 6]; [2; 6; 6]; [0; 5; 6] ] =
    [-256 # 25; 16 # 25; 0; -1; 1; -25; 1; 0]%Q.
Proof. eexists. split; [vm_compute; reflexivity|]. vm_compute. reflexivity. Qed.
Example C92_example_refuses : pst_run_ex r_large r_h' = Raise ValueError.
Proof. vm_compute. reflexivity. Qed.

Print Assumptions C92_matrices.
Print Assumptions C92_gradient_check.
Print Assumptions C92_configuration_interaction.
