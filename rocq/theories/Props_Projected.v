(** Linear response with projected operators: what the constructor puts in the
    matrices, and when it refuses. *)
From Coq Require Import List Bool Arith NArith ZArith Ascii String Lia Ring Permutation.
From Coq Require Import QArith Qcanon.
From Verif Require Import Base Fock FockMore FermiModel FermiProofs FermiFold FermiAlgebra OperatorsModel OperatorsProofs OperatorsSums OperatorsActs
  OperatorsActive OperatorsGen OperatorsKeys OperatorsOne Props_Operators CIModel CIProofs StateModel StateProofs StateMore Props_State
  FockInner DensityModel DensityProofs DensityExpect DensityResponse DensityFill DensityState StructModel LRModel LRAlgebra LRProofs LRPools LRProjModel LRProjProofs
  Props_Density Props_Qubit Props_Response.
Import ListNotations.
Local Open Scope nat_scope.
Local Open Scope list_scope.

Lemma nth_skip_p {A} j (l : list A) k d : nth k (skipn j l) d = nth (j + k) l d.
Proof. revert l. induction j as [|j IH]; intros l; [reflexivity|]. destruct l as [|x l]; cbn [skipn Nat.add nth]; [now destruct k|apply IH]. Qed.

Section Projected.
  Context {K : Type} {C : CRing K}.
  Local Open Scope K_scope.
  Add Ring KringPj : (@rth K C).
  Notation act := (amps (K:=K) -> amps (K:=K)).
  Notation lc := (list (fstring * K)).
  Variables (tiny : K -> bool) (sp : @space) (th : threads) (ansatz : bool -> list K -> Res (list K)) (nalpha nbeta : Z) (st : list K).
  Variables (large : K -> bool) (L : @literals K) (O : orbitals) (m : nat) (h : nat -> nat -> K) (g : nat -> nat -> nat -> nat -> K) (excitations : string).
  Hypothesis Hset : response_setup tiny sp th nalpha nbeta st large L O m h g.
  Notation ni := (sp_ni sp).
  Notation na := (sp_na sp).
  Notation N := (sp_ni sp + sp_na sp + sp_nv sp)%nat.
  Notation half := (l_half L).
  Notation H := (Hact half h g N).
  Notation Psi := (fket sp st).
  Notation I u w := (ip (2 * N) u w).
  Notation E F := (ip (2 * N) Psi (F Psi)).
  Notation orb := (x_orbital L O).
  Notation actv := (x_active L O excitations).
  Notation ops := (x_orbital L O ++ x_active L O excitations).
  Notation X i := (opapp (nth i ops [])).
  Notation Xd i := (opapp (lc_adj (nth i ops []))).
  Notation nq := (List.length (o_kappa O)).
  Notation run := (proj_init large L tiny sp th ansatz O h g st excitations).

  (** The projected operator [A |0><0| - <A>] and its adjoint. *)
  Definition Rp (A : lc) : act := fun u x => I Psi u * opapp A Psi x - E (opapp A) * u x.
  Definition Rpd (A : lc) : act := fun u x => I Psi (opapp (lc_adj A) u) * Psi x - E (opapp A) * u x.
  (** The operators of the response equations: orbital rotations as they are,
      excitations projected. *)
  Definition PX (i : nat) : act := if (i <? nq)%nat then X i else Rp (nth i ops []).
  Definition PXd (i : nat) : act := if (i <? nq)%nat then Xd i else Rpd (nth i ops []).
  Definition proj_gradients : list K :=
    gradients sp st L h g orb ++ flat_map (fun A => [E (comm (Rpd A) H); E (comm (Rp A) H)]) actv.

  Let Hw : wf_setup tiny sp th nalpha nbeta st := proj1 Hset.
  Let Hn : dot st st = 1 := proj1 (proj2 Hset).
  Let Hr : real_integrals N half h g := proj1 (proj2 (proj2 Hset)).
  Let HO : orbs_ok ni na (sp_nv sp) m O := proj1 (proj2 (proj2 (proj2 (proj2 Hset)))).
  Let Hop := proj2 (proj2 (proj2 (proj2 (proj2 Hset)))).
  Let Hex := proj1 Hw.
  Let Hsm : exact_small K := proj1 (proj2 Hw).
  Let Hpos := proj1 (proj2 (proj2 Hw)).
  Let Hidx := proj1 (proj2 (proj2 (proj2 Hw))).
  Let Hth := proj1 (proj2 (proj2 (proj2 (proj2 Hw)))).
  Let Hlen := proj2 (proj2 (proj2 (proj2 (proj2 Hw)))).
  Let Hhalf := proj1 Hr.
  Let Hh := proj1 (proj2 Hr).
  Let Hg := proj2 (proj2 (proj2 Hr)).
  Let AH : adjp N H H := adjp_H half h g N Hh Hg.
  Notation aP := (actP ni na N).
  Notation sup := (sup sp).
  Notation prop := (prop tiny sp th ansatz).
  Notation expv := (expv tiny sp th ansatz).
  Let gapply' D v := gapply tiny sp th ansatz nalpha nbeta Hex Hpos Hidx Hth D v.
  Let expv_nil' a b := expv_nil tiny sp th ansatz nalpha nbeta Hpos Hidx a b.

  Lemma N1 : I Psi Psi = 1.
  Proof. rewrite <- Hn. symmetry. apply (dot_fket sp nalpha nbeta Hpos Hidx st st Hlen Hlen). Qed.

  Section Values.
    Variables (Q G : list lc) (H1 H0 : lc) (H00 : list K).
    Hypothesis FQ : Forall2 (oact sp) Q orb.
    Hypothesis FG : Forall2 (gact ni na (sp_nv sp) m) G actv.
    Hypothesis HH1 : H1ok sp L h g H1.
    Hypothesis HH0 : H0ok sp L h g H0.
    Hypothesis E00 : prop [H0] st = Ok H00.
    Hypothesis L00 : List.length H00 = dim (sp_ci sp).
    Hypothesis F00 : forall x, asp ni na x -> fket sp H00 x = H Psi x.
    Notation s := (List.length Q).
    Notation ng := (List.length G).
    Notation e0 := (I Psi (H Psi)).
    Let HGok' := HGok sp L O m excitations G FG.
    Let HQok' := HQok sp L O Q FQ.

    Lemma energy_ok : expv st [H0] st = Ok e0.
    Proof.
      destruct HH0 as [O0 A0]. rewrite (expv_one tiny sp th ansatz nalpha nbeta Hex Hpos Hidx Hth H0 st st O0 Hlen Hlen). f_equal.
      apply (ip_asp sp); [apply (sup_ket sp Hpos)|]. intros x Hx. apply A0; [exact Hx|apply (sup_ket sp Hpos)].
    Qed.
    Lemma I00 u : sup u -> I u (fket sp H00) = I u (H Psi).
    Proof. intros Hu. now apply (ip_asp sp). Qed.

    (** One active-space operator: its kets. *)
    Lemma g_nth i : (i < ng)%nat -> let D := nth i G [] in
      In D G /\ (forall u x, opapp D u x = X (i + s) u x) /\ (forall u x, opapp (dg D) u x = Xd (i + s) u x) /\ op_dagger D = Ok (dg D) /\ OPS aP D /\ OPS aP (dg D) /\ sup (X (i + s) Psi).
    Proof.
      intros Hi D. assert (In D G) as HD by now apply nth_In. split; [exact HD|].
      destruct (nth_acts tiny sp th nalpha nbeta st large L O m h g excitations Hset Q G FQ FG (i + s)) as [P1 P2].
      assert (EN : nth (i + s) (Q ++ G) [] = D) by (rewrite Nat.add_comm; apply app_nth2_plus). rewrite EN in P1, P2.
      destruct (dag_ok sp Hsm D (HGok' D HD)) as (ED & OD & _).
      split; [exact P1|]. split; [exact P2|]. split; [exact ED|]. split; [now apply HGok'|]. split; [exact OD|].
      intros x Hx. rewrite <- P1. apply (sup_op sp D Psi (HGok' D HD)); [apply (sup_ket sp Hpos)|exact Hx].
    Qed.
    Lemma q_nth j : (j < s)%nat -> let D := nth j Q [] in
      In D Q /\ (forall u x, opapp D u x = X j u x) /\ (forall u x, opapp (dg D) u x = Xd j u x).
    Proof.
      intros Hj D. assert (In D Q) as HD by now apply nth_In. split; [exact HD|].
      destruct (nth_acts tiny sp th nalpha nbeta st large L O m h g excitations Hset Q G FQ FG j) as [P1 P2].
      assert (EN : nth j (Q ++ G) [] = D) by (now apply app_nth1). rewrite EN in P1, P2. split; assumption.
    Qed.
    Lemma x_adj i : (i < s + ng)%nat -> adjp N (X i) (Xd i).
    Proof. intros Hi. apply (ops_adj tiny sp th nalpha nbeta st large L O m h g excitations Hset). rewrite <- (len_all sp L O m excitations Q G FQ FG). exact Hi. Qed.

    Notation va := (fun j i => I (X (i + s) Psi) (H (X j Psi))).
    Notation vb := (fun j i => - half * I (X (i + s) Psi) (Xd j (H Psi))).
    Lemma p_mixed_ok M : p_mixed_blocks L tiny sp th ansatz st H1 Q G M = Ok (applyw (flat_map (fun j => flat_map (pm s va vb j) (seq 0 ng)) (seq 0 s)) M).
    Proof.
      unfold p_mixed_blocks. apply (eloop_idx [] 0 Q). intros j M' Hj. cbn [Nat.add]. set (q := nth j Q []).
      destruct (q_nth j Hj) as (Hq & P1 & P2). fold q in Hq, P1, P2.
      destruct (HQok' q Hq) as (OQ & EQ & OQd & AQ & Q1 & Q0). pose proof HH1 as (O1 & Ha & Hb).
      assert (R : forall A, OPS (bal N) A -> rep (bal N) (Ok A) (opapp A)) by (intros A HA; exists A; auto).
      destruct (rep_mul Hsm (bal N) (bal_stable N) _ _ _ _ (R _ O1) (R _ OQ)) as (Hq' & e1 & O2 & S2).
      destruct (rep_mul Hsm (bal N) (bal_stable N) _ _ _ _ (R _ OQd) (R _ O1)) as (qH & e2 & O3 & S3). cbn [bind] in e1, e2.
      rw e1. destruct (papply tiny sp th ansatz nalpha nbeta Hex Hpos Hidx Hth Hq' st O2 Hlen) as (hqk & p1 & l1 & F1). rw p1. rw EQ. rw e2.
      destruct (papply tiny sp th ansatz nalpha nbeta Hex Hpos Hidx Hth qH st O3 Hlen) as (qhk & p2 & l2 & F2). rw p2.
      apply (eloop_idx [] 0 G). intros i M'' Hi. cbn [Nat.add]. set (D := nth i G []).
      destruct (g_nth i Hi) as (HD & G1 & G2 & ED & OD & ODd & SD). fold D in HD, G1, G2, ED, OD, ODd.
      destruct (gapply' D st OD Hlen) as (gk & p3 & l3 & F3). rw p3.
      rewrite !expv_nil' by assumption. cbn [bind].
      assert (FG' : forall x, fket sp gk x = X (i + s) Psi x) by (intros x; rewrite F3; apply G1).
      assert (a : I (fket sp gk) (fket sp hqk) = I (X (i + s) Psi) (H (X j Psi))).
      { rewrite (ip_ext _ _ _ _ _ FG' (fun _ => eq_refl)). apply (ip_asp sp); [exact SD|]. intros x Hx.
        rewrite F1, S2, Ha by (assumption || apply Q1, (sup_ket sp Hpos)). apply Hact_ext. apply P1. }
      assert (b : I (fket sp gk) (fket sp qhk) = I (X (i + s) Psi) (Xd j (H Psi))).
      { rewrite (ip_ext _ _ _ _ _ FG' (fun _ => eq_refl)).
        transitivity (I (X (i + s) Psi) (opapp (dg q) (opapp H1 Psi))); [apply (ip_asp sp); [exact SD|]; intros x Hx; now rewrite F2, S3|].
        rewrite <- (ip_ext _ _ _ _ _ (fun _ => eq_refl) (P2 (H Psi))). pose proof (adjp_flip _ _ _ AQ) as AQ'. rewrite !AQ'.
        apply (ip_supp _ (asp1 ni na) (asp1_dec ni na)); [now apply Q1|]. intros x Hx. apply Hb; [exact Hx|apply (sup_ket sp Hpos)]. }
      rewrite a, b. reflexivity.
    Qed.

    Notation gr i := (E (X (i + s))).
    Notation ee i := (I (X (i + s) Psi) (H Psi)).
    Notation ss i j := (I (X (i + s) Psi) (X (j + s) Psi)).
    Notation hh i j := (I (X (i + s) Psi) (H (X (j + s) Psi))).
    Notation ua := (fun j i => hh i j + gr i * gr j * e0 - ss i j * e0 - half * gr i * ee j - half * gr j * ee i).
    Notation ub := (fun j i => half * ee i * gr j + half * ee j * gr i - gr i * gr j * e0).
    Notation ue := (fun j i => ss i j - gr i * gr j).
    Lemma p_active_ok M : p_active_blocks L tiny sp th ansatz st e0 H0 s G M = Ok (applyw (flat_map (fun j => flat_map (pa s ua ub ue j) (seq j (ng - j))) (seq 0 ng)) M).
    Proof.
      unfold p_active_blocks. apply (eloop_idx [] 0 G). intros j M' Hj. cbn [Nat.add]. set (D := nth j G []).
      destruct (g_nth j Hj) as (HD & G1 & G2 & ED & OD & ODd & SD). fold D in HD, G1, G2, ED, OD, ODd.
      destruct (gapply' D st OD Hlen) as (gk & p1 & l1 & F1). rw p1.
      destruct (H0apply tiny sp th ansatz nalpha nbeta Hex Hpos Hidx Hth L h g H0 gk HH0 l1) as (hk & p2 & l2 & F2). rw p2.
      replace (ng - j)%nat with (List.length (skipn j G)) by apply skipn_length.
      apply (eloop_idx [] j (skipn j G)). intros k M'' Hk. rewrite skipn_length in Hk. rewrite nth_skip_p.
      assert (Hi : (j + k < ng)%nat) by lia. set (i := (j + k)%nat) in *. clearbody i. clear k Hk. set (D' := nth i G []).
      destruct (g_nth i Hi) as (HD' & G1' & G2' & ED' & OD' & ODd' & SD'). fold D' in HD', G1', G2', ED', OD', ODd'.
      unfold p_active_values. destruct (gapply' D' st OD' Hlen) as (gk' & p3 & l3 & F3). rw p3.
      pose proof HH0 as [O0 A0]. pose proof (OPS_weaken _ (bal N) _ (fun s H => proj1 H) ODd) as Wd. pose proof (OPS_weaken _ (bal N) _ (fun s H => proj1 H) ODd') as Wd'.
      assert (EX2 : forall Z, OPS aP Z -> expv st [Z; H0] st = Ok (I Psi (opapp Z (fket sp H00)))).
      { intros Z OZ. destruct (gapply' Z H00 OZ L00) as (zk & pz & lz & Fz).
        assert (PZ : prop [Z; H0] st = Ok zk) by (rewrite (prop2 tiny sp th ansatz); rewrite E00; exact pz).
        unfold LRModel.expv, expectation_value. unfold LRModel.prop in PZ. rewrite PZ. cbn [bind]. f_equal.
        rewrite (dot_fket sp nalpha nbeta Hpos Hidx st zk Hlen lz). now apply ip_ext. }
      rewrite !expv_nil' by assumption. cbn [bind].
      rewrite (expv_one tiny sp th ansatz nalpha nbeta Hex Hpos Hidx Hth H0 gk' st O0 l3 Hlen). cbn [bind]. rw ED'. rw ED.
      rw (EX2 _ ODd'). rw (expv_one tiny sp th ansatz nalpha nbeta Hex Hpos Hidx Hth (dg D) st st Wd Hlen Hlen).
      rw (EX2 _ ODd). rw (expv_one tiny sp th ansatz nalpha nbeta Hex Hpos Hidx Hth (dg D') st st Wd' Hlen Hlen). cbn [fst snd].
      assert (FJ : forall x, fket sp gk x = X (j + s) Psi x) by (intros x; rewrite F1; apply G1).
      assert (FI : forall x, fket sp gk' x = X (i + s) Psi x) by (intros x; rewrite F3; apply G1').
      assert (FH : forall x, asp ni na x -> fket sp hk x = H (X (j + s) Psi) x) by (intros x Hx; rewrite F2 by exact Hx; apply Hact_ext; exact FJ).
      assert (a1 : I (fket sp gk') (fket sp hk) = hh i j) by (rewrite (ip_ext _ _ _ _ _ FI (fun _ => eq_refl)); now apply (ip_asp sp)).
      assert (gi : I (fket sp gk') Psi = gr i) by (rewrite (ip_ext _ _ _ _ _ FI (fun _ => eq_refl)); apply ip_sym).
      assert (gj : I Psi (fket sp gk) = gr j) by (now apply ip_ext).
      assert (gj' : I (fket sp gk) Psi = gr j) by (rewrite ip_sym; exact gj).
      assert (s1 : I (fket sp gk') (fket sp gk) = ss i j) by (now apply ip_ext).
      assert (a4 : I Psi (fket sp hk) = ee j).
      { transitivity (I Psi (H (X (j + s) Psi))); [apply (ip_asp sp); [apply (sup_ket sp Hpos)|exact FH]|]. rewrite (AH Psi (X (j + s) Psi)). apply ip_sym. }
      assert (a5 : I (fket sp gk') (opapp H0 Psi) = ee i).
      { rewrite (ip_ext _ _ _ _ _ FI (fun _ => eq_refl)). apply (ip_asp sp); [exact SD'|]. intros x Hx. apply A0; [exact Hx|apply (sup_ket sp Hpos)]. }
      assert (B1 : forall k D, (forall u x, opapp (dg D) u x = Xd (k + s) u x) -> (k < ng)%nat -> sup (X (k + s) Psi) -> I Psi (opapp (dg D) (fket sp H00)) = ee k).
      { intros k D0 G0 Hk S0. rewrite (ip_ext _ _ _ _ _ (fun _ => eq_refl) (G0 (fket sp H00))), (adjp_flip _ _ _ (x_adj (k + s) ltac:(lia)) Psi). now apply I00. }
      assert (B2 : forall k D, (forall u x, opapp (dg D) u x = Xd (k + s) u x) -> (k < ng)%nat -> I Psi (opapp (dg D) Psi) = gr k).
      { intros k D0 G0 Hk. rewrite (ip_ext _ _ _ _ _ (fun _ => eq_refl) (G0 Psi)), (adjp_flip _ _ _ (x_adj (k + s) ltac:(lia)) Psi). apply ip_sym. }
      rewrite a1, gi, gj, gj', s1, a4, a5, (B1 i D' G2' Hi SD'), (B1 j D G2 Hj SD), (B2 i D' G2' Hi), (B2 j D G2 Hj). reflexivity.
    Qed.

    Lemma p_check_ok : p_check_active large tiny sp th ansatz st e0 H00 G =
      if existsb large (flat_map (fun A => [E (comm (Rpd A) H); E (comm (Rp A) H)]) actv) then Raise ValueError else Ok tt.
    Proof.
      unfold p_check_active.
      rewrite (rlist_ok _ (fun D => (I (opapp D Psi) (H Psi) - e0 * E (opapp D), I (opapp D Psi) (H Psi) - e0 * E (opapp D)))).
      2:{ intros D HD. unfold p_grad_pair. destruct (gapply' D st (HGok' D HD) Hlen) as (gk & p1 & l1 & F1). rw p1.
          rewrite !expv_nil' by assumption. cbn [bind]. assert (SD : sup (opapp D Psi)) by (apply (sup_op sp D Psi (HGok' D HD)), (sup_ket sp Hpos)).
          rewrite (ip_sym _ (fket sp H00)), !(ip_ext _ _ _ _ _ F1 (fun _ => eq_refl)), (I00 _ SD), (ip_ext _ Psi Psi _ _ (fun _ => eq_refl) F1), (ip_sym _ (opapp D Psi) Psi). reflexivity. }
      cbn [bind]. rewrite !map_map. cbn [fst snd]. rewrite existsb_pairs.
      match goal with |- (if ?a then _ else _) = (if ?b then _ else _) => assert (a = b) as ->; [|reflexivity] end.
      pose proof FG as FG'. clear - FG' Hop Hsm AH Hn Hlen Hidx Hpos. induction FG' as [|D A l l' HD HF IH]; [reflexivity|]. cbn [flat_map app existsb]. rewrite IH.
      destruct HD as (OD & FD & XD). assert (AA : adjp N (opapp A) (opapp (lc_adj A))).
      { pose proof (proj2 (proj2 (dag_ok sp Hsm D OD))) as AD. intros u w. rewrite <- (ip_ext _ u u _ _ (fun _ => eq_refl) (FD w)), (AD u w).
        apply ip_ext; [|reflexivity]. apply (dag_lc Hsm _ (actP_stable ni na N) D A OD FD). }
      assert (V : E (comm (Rpd A) H) = I (opapp D Psi) (H Psi) - e0 * E (opapp D)).
      { rewrite ev_comm. change (Rpd A) with (proj_adj N Psi (opapp A) (opapp (lc_adj A))).
        rewrite (adjp_flip _ _ _ (proj_adjp N Psi (opapp A) (opapp (lc_adj A)) AA) Psi (H Psi)), (proj_l N Psi (opapp A) N1).
        rewrite (AH Psi (proj_adj N Psi (opapp A) (opapp (lc_adj A)) Psi)), (ip_zero _ _ _ (proj_kill N Psi (opapp A) (opapp (lc_adj A)) AA)).
        rewrite (ip_ext _ _ _ (H Psi) (H Psi) (FD Psi) (fun _ => eq_refl)), (ip_ext _ Psi Psi _ _ (fun _ => eq_refl) (FD Psi)). ring. }
      assert (V' : E (comm (Rp A) H) = - (I (opapp D Psi) (H Psi) - e0 * E (opapp D))).
      { rewrite <- V, !ev_comm. change (Rpd A) with (proj_adj N Psi (opapp A) (opapp (lc_adj A))). change (Rp A) with (proj N Psi (opapp A)).
        rewrite (adjp_flip _ _ _ (proj_adjp N Psi (opapp A) (opapp (lc_adj A)) AA) Psi (H Psi)), (proj_adjp N Psi (opapp A) (opapp (lc_adj A)) AA Psi (H Psi)).
        rewrite (AH Psi (proj_adj N Psi (opapp A) (opapp (lc_adj A)) Psi)), (AH Psi (proj N Psi (opapp A) Psi)), (ip_sym _ (proj_adj _ _ _ _ _) (H Psi)), (ip_sym _ (proj _ _ _ _) (H Psi)). ring. }
      rewrite V, V', Hop. reflexivity.
    Qed.

    Lemma lenQ' : s = nq.
    Proof. apply (lenQ sp L O Q FQ). Qed.
    Lemma PX_q j : (j < s)%nat -> PX j = X j /\ PXd j = Xd j.
    Proof. intros Hj. unfold PX, PXd. rewrite <- lenQ'. apply Nat.ltb_lt in Hj. rewrite Hj. split; reflexivity. Qed.
    Lemma PX_g i : PX (i + s) = proj N Psi (X (i + s)) /\ PXd (i + s) = proj_adj N Psi (X (i + s)) (Xd (i + s)).
    Proof. unfold PX, PXd. rewrite <- lenQ'. assert (Z : (i + s <? s)%nat = false) by (apply Nat.ltb_ge; lia). rewrite Z. split; reflexivity. Qed.
    Lemma q_kill j u : (j < s)%nat -> sup u -> forall x, Xd j u x = 0.
    Proof. intros Hj Hu x. destruct (q_nth j Hj) as (Hq & P1 & P2). destruct (HQok' _ Hq) as (_ & _ & _ & _ & _ & Z). rewrite <- P2. now apply Z. Qed.
    Lemma q_orth j u w : (j < s)%nat -> sup u -> I u (X j w) = 0.
    Proof. intros Hj Hu. rewrite (x_adj j ltac:(lia) u w), ip_sym. apply ip_zero. now apply q_kill. Qed.
    Lemma PX_adj i : (i < s + ng)%nat -> adjp N (PX i) (PXd i).
    Proof.
      intros Hi. destruct (Nat.lt_ge_cases i s) as [Li|Li].
      - destruct (PX_q i Li) as [-> ->]. now apply x_adj.
      - replace i with (i - s + s)%nat in * by lia. destruct (PX_g (i - s)) as [-> ->]. now apply proj_adjp, x_adj.
    Qed.
    Lemma PX_kill i : (i < s + ng)%nat -> forall x, PXd i Psi x = 0.
    Proof.
      intros Hi. destruct (Nat.lt_ge_cases i s) as [Li|Li].
      - destruct (PX_q i Li) as [_ ->]. apply q_kill; [exact Li|apply (sup_ket sp Hpos)].
      - replace i with (i - s + s)%nat in * by lia. destruct (PX_g (i - s)) as [_ ->]. now apply proj_kill, x_adj.
    Qed.
    Lemma PX_sup i : (i < ng)%nat -> sup (proj N Psi (X (i + s)) Psi).
    Proof.
      intros Hi x Hx. rewrite (proj_f N Psi _ N1). destruct (g_nth i Hi) as (_ & _ & _ & _ & _ & _ & SD). rewrite (SD x Hx), (sup_ket sp Hpos st x Hx). ring.
    Qed.
    (** Entries between an orbital rotation and a projected excitation. *)
    Notation oo j := (E (comm H (X j))).
    Lemma oo_val j : (j < s)%nat -> oo j = I (X j Psi) (H Psi).
    Proof.
      intros Hj. rewrite ev_comm, (AH Psi (X j Psi)), (x_adj j ltac:(lia) Psi (H Psi)), (ip_sym _ (Xd j Psi)).
      rewrite (ip_zero _ _ _ (q_kill j Psi Hj (sup_ket sp Hpos st))), (ip_sym _ (H Psi)). ring.
    Qed.
    Section Mixed.
      Variables (j i : nat).
      Hypothesis Hj : (j < s)%nat.
      Hypothesis Hi : (i < ng)%nat.
      Let g_sup := proj2 (proj2 (proj2 (proj2 (proj2 (proj2 (g_nth i Hi)))))).
      Lemma m_1 : I (X j Psi) (H (PX (i + s) Psi)) - I (PXd (i + s) (X j Psi)) (H Psi) = va j i.
      Proof.
        destruct (PX_g i) as [-> ->]. rewrite (proj_H N Psi H AH _ N1). unfold proj_adj. rewrite ip_comb_l, (adjp_flip _ _ _ (x_adj (i + s) ltac:(lia)) Psi (X j Psi)).
        rewrite (q_orth j _ Psi Hj g_sup), (AH (X j Psi) (X (i + s) Psi)), (ip_sym _ (H (X j Psi))). ring.
      Qed.
      Lemma m_2 : I (PX (i + s) Psi) (H (X j Psi)) - I (Xd j (PX (i + s) Psi)) (H Psi) = va j i - gr i * oo j.
      Proof.
        destruct (PX_g i) as [-> _]. rewrite (ip_sym _ (Xd j _)), (ip_zero _ _ _ (q_kill j _ Hj (PX_sup i Hi))), (proj_l N Psi _ N1), (oo_val j Hj), (AH Psi (X j Psi)), (ip_sym _ (H Psi)). ring.
      Qed.
      Lemma m_3 : - I (PX (i + s) (X j Psi)) (H Psi) = gr i * oo j.
      Proof.
        destruct (PX_g i) as [-> _]. unfold proj. rewrite ip_comb_l, (q_orth j Psi Psi Hj (sup_ket sp Hpos st)), (oo_val j Hj). ring.
      Qed.
      Lemma m_4 : - I (X j (PX (i + s) Psi)) (H Psi) = gr i * oo j - I (X (i + s) Psi) (Xd j (H Psi)).
      Proof.
        destruct (PX_g i) as [-> _]. rewrite <- (adjp_flip _ _ _ (x_adj j ltac:(lia)) _ (H Psi)), (proj_l N Psi _ N1), (adjp_flip _ _ _ (x_adj j ltac:(lia)) Psi (H Psi)), (oo_val j Hj). ring.
      Qed.
    End Mixed.
    (** Entries between two projected excitations. *)
    Lemma act_vals a b : (a < ng)%nat -> (b < ng)%nat -> let i := (a + s)%nat in let j := (b + s)%nat in
      half * (E (comm (PXd i) (comm H (PX j))) + E (comm (comm (PXd i) H) (PX j))) = ua b a /\
      half * (E (comm (PXd i) (comm H (PXd j))) + E (comm (comm (PXd i) H) (PXd j))) = ub b a /\
      E (comm (PXd i) (PX j)) = ue b a.
    Proof.
      intros Ha Hb i j. pose proof (PX_adj i ltac:(lia)) as Ai. pose proof (PX_adj j ltac:(lia)) as Aj.
      pose proof (PX_kill i ltac:(lia)) as Ki. pose proof (PX_kill j ltac:(lia)) as Kj.
      pose proof (x_adj i ltac:(lia)) as Xi. pose proof (x_adj j ltac:(lia)) as Xj.
      assert (S2 : E (comm (comm (PXd i) H) (PX j)) = E (comm (PXd j) (comm H (PX i)))) by (now rewrite (kill_2 N Psi H AH _ _ _ _ Ai Aj Kj), (kill_1 N Psi H AH _ _ _ _ Aj Ai Kj)).
      assert (S4 : E (comm (comm (PXd i) H) (PXd j)) = E (comm (PXd j) (comm H (PXd i)))) by (now rewrite (kill_4 N Psi H AH _ _ _ _ Ai Aj Ki Kj), (kill_3 N Psi H AH _ _ _ _ Aj Ai Kj Ki)).
      rewrite S2, S4. clear S2 S4 Ai Aj Ki Kj. unfold i, j in *. destruct (PX_g a) as [-> ->]. destruct (PX_g b) as [-> ->].
      rewrite !(proj_1 N Psi H AH _ _ _ _ Xi Xj N1), !(proj_1 N Psi H AH _ _ _ _ Xj Xi N1), !(proj_3 N Psi H AH _ _ _ _ Xi Xj N1), !(proj_3 N Psi H AH _ _ _ _ Xj Xi N1), (proj_5 N Psi _ _ _ _ Xi Xj N1).
      rewrite (AH (X (b + s) Psi) (X (a + s) Psi)), (ip_sym _ (H (X (b + s) Psi))), (AH Psi (X (b + s) Psi)), (AH Psi (X (a + s) Psi)), !(ip_sym _ (H Psi)), (ip_sym _ (X (b + s) Psi) (X (a + s) Psi)).
      assert (D : forall y, half * (y + y) = y) by (intros y; transitivity ((half + half) * y); [ring|rewrite Hhalf; ring]).
      split; [|split; [|ring] ].
      - match goal with |- half * (?p - ?gi * ?ej + ?gij * ?e - ?sij * ?e + (_ - ?gj * ?ei + _ - _)) = _ => transitivity (half * ((p + gij * e - sij * e) + (p + gij * e - sij * e)) - half * gi * ej - half * gj * ei) end; [ring|].
        rewrite D. ring.
      - match goal with |- half * (?gj * (?ei - ?gi * ?e) + ?gi * (?ej - ?gj * ?e)) = _ => transitivity (half * ei * gj + half * ej * gi - half * (gi * gj * e + gi * gj * e)) end; [ring|].
        rewrite D. ring.
    Qed.
  End Values.

  Definition sym_A (i j : nat) : K := half * (E (comm (PXd i) (comm H (PX j))) + E (comm (comm (PXd i) H) (PX j))).
  Definition sym_B (i j : nat) : K := half * (E (comm (PXd i) (comm H (PXd j))) + E (comm (comm (PXd i) H) (PXd j))).
  Lemma proj_run : exists M, run = (if existsb large proj_gradients then Raise ValueError else Ok M) /\
    forall i j, (i < List.length ops)%nat -> (j < List.length ops)%nat ->
      M [2; i; j]%nat = E (comm (PXd i) (PX j)) /\ M [3; i; j]%nat = 0 /\ E (comm (PXd i) (PXd j)) = 0 /\
      ((i < nq /\ j < nq)%nat -> M [0; i; j]%nat = E (comm (PXd i) (comm H (PX j))) /\ M [1; i; j]%nat = E (comm (PXd i) (comm H (PXd j)))) /\
      ((nq <= i /\ nq <= j)%nat -> M [0; i; j]%nat = sym_A i j /\ M [1; i; j]%nat = sym_B i j) /\
      ((i < nq <= j)%nat -> M [2; i; j]%nat = 0 /\
        M [0; i; j]%nat = sym_A i j + half * E (X j) * E (comm H (X i)) /\ M [1; i; j]%nat = sym_B i j - E (X j) * E (comm H (X i))) /\
      ((j < nq <= i)%nat -> M [2; i; j]%nat = 0 /\
        M [0; i; j]%nat = sym_A i j + half * E (X i) * E (comm H (X j)) /\ M [1; i; j]%nat = sym_B i j - E (X i) * E (comm H (X j))).
  Proof.
    unfold proj_init. destruct (G_ops_ok Hsm ni na (sp_nv sp) m L O HO excitations) as (G & EG & FG). rw EG.
    destruct (q_ops_ok Hsm sp m L O HO) as (Q & EQ & FQ). rw EQ.
    destruct (H1_ex sp Hsm L h g) as (H1 & E1 & HH1). rw E1. destruct (H0_ex sp st Hsm Hpos Hlen L h g) as (H0 & E0 & HH0). rw E0.
    rw (energy_ok H0 HH0).
    destruct (H0apply tiny sp th ansatz nalpha nbeta Hex Hpos Hidx Hth L h g H0 st HH0 Hlen) as (H00 & E00 & L00 & F00).
    destruct (orbital_ok tiny sp th ansatz nalpha nbeta st large L O m h g excitations Hset Q H00 FQ L00) as (M1 & EM1 & M1z & M1o).
    unfold proj_matrices. rewrite (check_orbital_ok tiny sp th ansatz nalpha nbeta st large L O m h g Hset).
    set (s := List.length Q) in *. set (ng := List.length G) in *.
    pose proof (p_mixed_ok Q G H1 FQ FG HH1 M1) as PM.
    match type of PM with _ = Ok ?x => pose proof (p_active_ok Q G H0 H00 FQ FG HH0 E00 L00 F00 x) as PA end. fold s ng in PM, PA.
    rewrite <- applyw_app in PA.
    match type of PA with _ = Ok (applyw (flat_map (fun _ => flat_map (pm ?s' ?va ?vb _) _) _ ++ flat_map (fun _ => flat_map (pa _ ?ua ?ub ?ue _) _) _) _) =>
      change (flat_map (fun j => flat_map (pm s' va vb j) (seq 0 ng)) (seq 0 s) ++ flat_map (fun j => flat_map (pa s' ua ub ue j) (seq j (ng - j))) (seq 0 ng)) with (writes s ng va vb ua ub ue) in PA;
      destruct (loops_entries s ng va vb ua ub ue M1) as (W1 & W2 & W3 & W4);
      set (M := applyw (writes s ng va vb ua ub ue) M1) in * end.
    exists M. split.
    - unfold proj_gradients. rewrite existsb_app. destruct (existsb large (gradients sp st L h g orb)); [reflexivity|]. cbn [bind orb]. rw E00.
      rewrite (p_check_ok G H00 FG L00 F00). destruct (existsb large (flat_map _ actv)); [reflexivity|]. cbn [bind]. rw EM1. rw PM. exact PA.
    - clearbody M. intros i j Hi Hj. pose proof (len_all sp L O m excitations Q G FQ FG) as LA. fold s ng in LA. rewrite <- LA in Hi, Hj. rewrite <- (lenQ sp L O Q FQ). fold s.
      pose proof (PX_adj Q G H00 FQ FG L00 i Hi) as Ai. pose proof (PX_adj Q G H00 FQ FG L00 j Hj) as Aj. pose proof (PX_kill Q G H00 FQ FG L00 i Hi) as Ki. pose proof (PX_kill Q G H00 FQ FG L00 j Hj) as Kj.
      assert (T3 : M [3; i; j]%nat = 0) by (rewrite W2 by lia; apply M1z; right; lia). pose proof (kill_6 N Psi _ _ _ _ Ai Aj Ki Kj) as T6.
      match goal with |- ?a /\ _ /\ _ /\ ?r => enough (a /\ r) as [Ta Tr] by (split; [exact Ta|split; [exact T3|split; [exact T6|exact Tr] ] ]) end. clear T3 T6.
      assert (D : forall y, half * (y + y) = y) by (intros y; transitivity ((half + half) * y); [ring|rewrite Hhalf; ring]).
      assert (DA : forall v w, v = half * (v + (v - w)) + half * w) by (intros v w; transitivity (half * (v + v)); [now rewrite D|ring]).
      assert (DA' : forall v w, v = half * (v - w + v) + half * w) by (intros v w; transitivity (half * (v + v)); [now rewrite D|ring]).
      assert (DB : forall v w, - half * v = half * (w + (w - v)) - w) by (intros v w; transitivity (half * (w + w) - half * v - w); [rewrite D; ring|ring]).
      assert (DB' : forall v w, - half * v = half * (w - v + w) - w) by (intros v w; transitivity (half * (w + w) - half * v - w); [rewrite D; ring|ring]).
      destruct (Nat.lt_ge_cases i s) as [Li|Li], (Nat.lt_ge_cases j s) as [Lj|Lj].
      + (* two orbital rotations *)
        destruct (PX_q Q FQ i Li) as [Ei Eid]. destruct (PX_q Q FQ j Lj) as [Ej Ejd]. rewrite Eid, Ej, Ejd. rewrite !W1 by assumption. destruct (M1o i j Li Lj) as (O1 & O2 & O3).
        split; [exact O3|]. split; [intros _; split; assumption|]. split; [intros; lia|]. split; intros; lia.
      + (* rotation, excitation *)
        assert (exists b, j = (b + s)%nat /\ (b < ng)%nat) as (b & -> & Hb) by (exists (j - s)%nat; lia).
        destruct (W3 i b Li Hb) as (A1 & _ & B1 & _ & S1 & _). rewrite (M1z 2%nat) in S1 by (left; lia).
        pose proof (kill_5 N Psi _ _ _ _ Ai Aj Ki) as K5. destruct (PX_q Q FQ i Li) as [Ei Eid].
        assert (Z : M [2; i; (b + s)%nat]%nat = E (comm (PXd i) (PX (b + s)))).
        { rewrite S1, K5, Ei, ip_sym. symmetry. apply (q_orth Q G H00 FQ FG L00 i _ Psi Li). pose proof (proj1 (PX_g Q H00 FQ L00 b)) as PG. fold s in PG. rewrite PG. apply (PX_sup Q G FQ FG b Hb). }
        split; [exact Z|]. split; [intros; lia|]. split; [intros; lia|]. split; [|intros; lia]. intros _. split; [exact S1|]. rewrite A1, B1. unfold sym_A, sym_B.
        rewrite (kill_1 N Psi H AH _ _ _ _ Ai Aj Ki), (kill_2 N Psi H AH _ _ _ _ Ai Aj Kj), (kill_3 N Psi H AH _ _ _ _ Ai Aj Ki Kj), (kill_4 N Psi H AH _ _ _ _ Ai Aj Ki Kj).
        pose proof (m_1 Q G H00 FQ FG L00 i b Li Hb) as P1. pose proof (m_2 Q G H00 FQ FG L00 i b Li Hb) as P2. pose proof (m_3 Q G H00 FQ FG L00 i b Li) as P3. pose proof (m_4 Q G H00 FQ FG L00 i b Li Hb) as P4. fold s in P1, P2, P3, P4.
        rewrite Ei, Eid, P1, P2, P3, P4.
        split; [etransitivity; [apply (DA _ (E (X (b + s)) * E (comm H (X i))))|ring]|etransitivity; [apply (DB _ (E (X (b + s)) * E (comm H (X i))))|ring] ].
      + (* excitation, rotation *)
        assert (exists b, i = (b + s)%nat /\ (b < ng)%nat) as (b & -> & Hb) by (exists (i - s)%nat; lia).
        destruct (W3 j b Lj Hb) as (_ & A1 & _ & B1 & _ & S1). rewrite (M1z 2%nat) in S1 by (left; lia).
        pose proof (kill_5 N Psi _ _ _ _ Ai Aj Ki) as K5. destruct (PX_q Q FQ j Lj) as [Ej Ejd].
        assert (Z : M [2; (b + s)%nat; j]%nat = E (comm (PXd (b + s)) (PX j))).
        { rewrite S1, K5, Ej. symmetry. apply (q_orth Q G H00 FQ FG L00 j _ Psi Lj). pose proof (proj1 (PX_g Q H00 FQ L00 b)) as PG. fold s in PG. rewrite PG. apply (PX_sup Q G FQ FG b Hb). }
        split; [exact Z|]. split; [intros; lia|]. split; [intros; lia|]. split; [intros; lia|]. intros _. split; [exact S1|]. rewrite A1, B1. unfold sym_A, sym_B.
        rewrite (kill_1 N Psi H AH _ _ _ _ Ai Aj Ki), (kill_2 N Psi H AH _ _ _ _ Ai Aj Kj), (kill_3 N Psi H AH _ _ _ _ Ai Aj Ki Kj), (kill_4 N Psi H AH _ _ _ _ Ai Aj Ki Kj).
        pose proof (m_1 Q G H00 FQ FG L00 j b Lj Hb) as P1. pose proof (m_2 Q G H00 FQ FG L00 j b Lj Hb) as P2. pose proof (m_3 Q G H00 FQ FG L00 j b Lj) as P3. pose proof (m_4 Q G H00 FQ FG L00 j b Lj Hb) as P4. fold s in P1, P2, P3, P4.
        rewrite Ej, Ejd, P1, P2, P3, P4.
        split; [etransitivity; [apply (DA' _ (E (X (b + s)) * E (comm H (X j))))|ring]|etransitivity; [apply (DB' _ (E (X (b + s)) * E (comm H (X j))))|ring] ].
      + (* two excitations *)
        assert (exists b, i = (b + s)%nat /\ (b < ng)%nat) as (a & -> & Ha) by (exists (i - s)%nat; lia).
        assert (exists b, j = (b + s)%nat /\ (b < ng)%nat) as (b & -> & Hb) by (exists (j - s)%nat; lia).
        destruct (act_vals Q G H00 FQ FG L00 a b Ha Hb) as (V0 & V1 & V2). fold s in V0, V1, V2.
        assert (T : M [0; a + s; b + s]%nat = sym_A (a + s) (b + s) /\ M [1; a + s; b + s]%nat = sym_B (a + s) (b + s) /\ M [2; a + s; b + s]%nat = E (comm (PXd (a + s)) (PX (b + s)))).
        { unfold sym_A, sym_B. rewrite V0, V1, V2. destruct (Nat.le_ge_cases b a) as [Hab|Hab].
          - destruct (W4 b a ltac:(lia)) as (R1 & _ & R2 & _ & R3 & _). rewrite R1, R2, R3. repeat split; reflexivity.
          - destruct (W4 a b ltac:(lia)) as (_ & R1 & _ & R2 & _ & R3). rewrite R1, R2, R3.
            rewrite (AH (X (b + s) Psi) (X (a + s) Psi)), (ip_sym _ (H (X (b + s) Psi))), (ip_sym _ (X (b + s) Psi) (X (a + s) Psi)). repeat split; ring. }
        destruct T as (T0 & T1 & T2). split; [exact T2|]. split; [intros; lia|]. split; [intros _; split; assumption|]. split; intros; lia.
  Qed.

  (** C84: with no large gradient the constructor succeeds.  With the excitations
      replaced by their projected forms the metric is [<[R_i†, R_j]>], the Hessian
      blocks of two excitations are the symmetrised double commutators and those of
      two rotations the plain ones.  Between a rotation and an excitation the
      entries differ from the symmetrised double commutators by a multiple of the
      orbital gradient, so they agree at a stationary point. *)
  Theorem C84_matrices : (forall x, In x proj_gradients -> large x = false) ->
    exists M, run = Ok M /\
    forall i j, (i < List.length ops)%nat -> (j < List.length ops)%nat ->
      M [2; i; j]%nat = E (comm (PXd i) (PX j)) /\ M [3; i; j]%nat = 0 /\ E (comm (PXd i) (PXd j)) = 0 /\
      ((i < nq /\ j < nq)%nat -> M [0; i; j]%nat = E (comm (PXd i) (comm H (PX j))) /\ M [1; i; j]%nat = E (comm (PXd i) (comm H (PXd j)))) /\
      ((nq <= i /\ nq <= j)%nat -> M [0; i; j]%nat = sym_A i j /\ M [1; i; j]%nat = sym_B i j) /\
      ((i < nq <= j)%nat -> M [2; i; j]%nat = 0 /\
        M [0; i; j]%nat = sym_A i j + half * E (X j) * E (comm H (X i)) /\ M [1; i; j]%nat = sym_B i j - E (X j) * E (comm H (X i))) /\
      ((j < nq <= i)%nat -> M [2; i; j]%nat = 0 /\
        M [0; i; j]%nat = sym_A i j + half * E (X i) * E (comm H (X j)) /\ M [1; i; j]%nat = sym_B i j - E (X i) * E (comm H (X j))).
  Proof.
    intros Hl. destruct proj_run as (M & ER & HM). exists M. split; [|exact HM]. rewrite ER.
    destruct (existsb large proj_gradients) eqn:EX; [|reflexivity]. apply existsb_exists in EX as (x & Hx & Hlx). rewrite (Hl x Hx) in Hlx. discriminate.
  Qed.
  (** C84: it raises ValueError exactly when some gradient is large. *)
  Theorem C84_gradient_check : run = Raise ValueError <-> exists x, In x proj_gradients /\ large x = true.
  Proof.
    destruct proj_run as (M & ER & _). rewrite ER, <- existsb_exists. destruct (existsb large proj_gradients); split; congruence.
  Qed.
  (** C84: the projected operators: the adjoint of each annihilates the state, so
      an excitation never has a component along it. *)
  Theorem C84_killers i : (i < List.length ops)%nat -> adjp N (PX i) (PXd i) /\ (forall x, PXd i Psi x = 0) /\ I Psi (PX i Psi) = 0.
  Proof.
    intros Hi. destruct (G_ops_ok Hsm ni na (sp_nv sp) m L O HO excitations) as (G & _ & FG). destruct (q_ops_ok Hsm sp m L O HO) as (Q & _ & FQ).
    destruct (H0_ex sp st Hsm Hpos Hlen L h g) as (H0 & E0 & HH0).
    destruct (H0apply tiny sp th ansatz nalpha nbeta Hex Hpos Hidx Hth L h g H0 st HH0 Hlen) as (H00 & E00 & L00 & F00).
    rewrite <- (len_all sp L O m excitations Q G FQ FG) in Hi.
    pose proof (PX_adj Q G H00 FQ FG L00 i Hi) as A. pose proof (PX_kill Q G H00 FQ FG L00 i Hi) as Z. split; [exact A|]. split; [exact Z|]. rewrite (A Psi Psi), ip_sym. now apply ip_zero.
  Qed.
End Projected.

(** * Examples *)
Add Ring q2ring_pj : (@rth q2 _).
Definition p_run large h := proj_init large r_lit r_tiny ex_sp None (fun _ s => Ok s) r_O h r_g r_st "sd".
(** The stationary state and integrals of [C55_example]: the projected metric is
    the square of a sine, and both off-diagonal corrections enter the Hessian. *)
Example C84_example : exists M, p_run r_large r_h = Ok M /\
  map (fun idx => this (qa (M idx))) [[0; 0; 0]; [2; 0; 0]; [0; 5; 5]; [2; 5; 5]; [0; 6; 6]; [2; 6; 6]] =
    [-256 # 25; 16 # 25; -9 # 25; 9 # 25; -648 # 25; 648 # 625]%Q.
Proof. eexists. split; [vm_compute; reflexivity|]. vm_compute. reflexivity. Qed.
Example C84_example_refuses : p_run r_large r_h' = Raise ValueError.
Proof. vm_compute. reflexivity. Qed.
(** C84, refuted: where the gradient check lets an orbital gradient through (here
    it lets everything through), the mixed entry of the Hessian is not the
    symmetrised double commutator of the projected operators. *)
Theorem C84_mixed_refuted : response_setup r_tiny ex_sp None 1 1 r_st (fun _ => false) r_lit r_O 2 r_h' r_g /\
  exists M, p_run (fun _ => false) r_h' = Ok M /\
    M [0; 0; 6] <> sym_A ex_sp r_st r_lit r_O r_h' r_g "sd" 0 6 /\ M [1; 0; 6] <> sym_B ex_sp r_st r_lit r_O r_h' r_g "sd" 0 6.
Proof.
  assert (S : response_setup r_tiny ex_sp None 1 1 r_st (fun _ => false) r_lit r_O 2 r_h' r_g).
  { destruct (C55_example_setup r_h' (or_intror eq_refl)) as (S1 & S2 & S3 & S4 & S5 & _). repeat (split; [assumption|]). reflexivity. }
  split; [exact S|]. unfold p_run.
  destruct (C84_matrices r_tiny ex_sp None (fun _ s => Ok s) 1 1 r_st (fun _ => false) r_lit r_O 2 r_h' r_g "sd" S (fun _ _ => eq_refl)) as (M & EM & HM).
  exists M. split; [exact EM|].
  assert (LO : List.length (x_orbital r_lit r_O ++ x_active r_lit r_O "sd") = 7) by (vm_compute; reflexivity). rewrite LO in HM.
  destruct (HM 0 6 ltac:(lia) ltac:(lia)) as (_ & _ & _ & _ & _ & D & _). clear HM. destruct D as (_ & D0 & D1); [vm_compute; lia|].
  match type of D0 with _ = (_ + _ * ?a * ?b)%K => set (u := a) in *; set (v := b) in * end.
  assert (V : u = {| qa := 0%Qc; qb := Q2Qc (24 # 25) |}) by (apply (f_equal2 Build_q2); apply Qc_is_canon; vm_compute; reflexivity).
  assert (W : v = {| qa := 0%Qc; qb := Q2Qc (16 # 25) |}) by (apply (f_equal2 Build_q2); apply Qc_is_canon; vm_compute; reflexivity).
  clearbody u v. subst u v.
  split.
  - rewrite D0. intros Z. match type of Z with (?x + ?y)%K = _ => assert (Y : y = rO) by (transitivity (x + y - x)%K; [ring|rewrite Z; ring]) end. apply (f_equal qa) in Y. vm_compute in Y. discriminate.
  - rewrite D1. intros Z. match type of Z with (?x - ?y)%K = _ => assert (Y : y = rO) by (transitivity (x - (x - y))%K; [ring|rewrite Z; ring]) end. apply (f_equal qa) in Y. vm_compute in Y. discriminate.
Qed.

Print Assumptions C84_matrices.
Print Assumptions C84_gradient_check.
Print Assumptions C84_killers.
Print Assumptions C84_mixed_refuted.
