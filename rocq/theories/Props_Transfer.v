(** C91: linear response with state-transfer operators: what the constructor puts
    in the matrices, and when it refuses. *)
From Coq Require Import List Bool Arith NArith ZArith Ascii String Lia Ring Permutation.
From Coq Require Import QArith Qcanon.
From Verif Require Import Base Fock FockMore FermiModel FermiProofs FermiFold FermiAlgebra OperatorsModel OperatorsProofs OperatorsSums OperatorsActs
  OperatorsActive OperatorsGen OperatorsKeys OperatorsOne Props_Operators CIModel CIProofs StateModel StateProofs StateMore Props_State
  FockInner DensityModel DensityProofs DensityExpect DensityResponse DensityFill DensityState StructModel LRModel LRAlgebra LRProofs LRPools LRProjModel LRProjProofs
  Props_Density Props_Qubit Props_Response Props_Projected LRTransferModel SpaceModel.
Import ListNotations.
Local Open Scope nat_scope.
Local Open Scope list_scope.

(** What the theorems assume about the ansatz: it maps coefficient vectors to
    coefficient vectors, preserves scalar products, and ["Ud"] is its adjoint. *)
Definition unitary_ansatz {K} {C : CRing K} (ansatz : bool -> list K -> Res (list K)) (d : nat) : Prop :=
  (forall dg v, List.length v = d -> exists o, ansatz dg v = Ok o /\ List.length o = d) /\
  (forall a b a' b', List.length a = d -> List.length b = d -> ansatz false a = Ok a' -> ansatz true b = Ok b' -> dot a' b = dot a b') /\
  (forall a b a' b', List.length a = d -> List.length b = d -> ansatz false a = Ok a' -> ansatz false b = Ok b' -> dot a' b' = dot a b).

Lemma F2_nth {A B} (R : A -> B -> Prop) l l' : Forall2 R l l' -> forall i a b, (i < List.length l)%nat -> R (nth i l a) (nth i l' b).
Proof. induction 1 as [|x y l l' Hxy HF IH]; intros i a b Hi; [cbn in Hi; lia|]. destruct i as [|i]; [exact Hxy|]. cbn [nth]. apply IH. cbn in Hi. lia. Qed.

(** Entries written by the two loops. *)
Section TLoops.
  Context {K : Type} {C : CRing K}.
  Local Open Scope K_scope.
  Variables (s ng : nat) (va vb ua : nat -> nat -> K).
  Definition pt (j i : nat) : list (list nat * K) :=
    [([0; i + s; j + s]%nat, ua j i); ([0; j + s; i + s]%nat, ua j i)] ++ (if (i =? j)%nat then [([2; i + s; j + s]%nat, 1)] else []).
  Notation pm := (pm s va vb).
  Notation dl := (fun j i => if (i =? j)%nat then 1 else 0).
  Notation full := (writes s ng va vb ua (fun _ _ => 0) dl).
  Definition twrites : list (list nat * K) :=
    flat_map (fun j => flat_map (pm j) (seq 0 ng)) (seq 0 s) ++ flat_map (fun j => flat_map (pt j) (seq j (ng - j))) (seq 0 ng).
  Lemma in_twrites c v : In (c, v) twrites <->
    (exists j i, (j < s)%nat /\ (i < ng)%nat /\ In (c, v) (pm j i)) \/ (exists j i, (j <= i < ng)%nat /\ In (c, v) (pt j i)).
  Proof.
    unfold twrites. rewrite in_app_iff, !in_flat_map. split.
    - intros [(j & Hj & H)|(j & Hj & H)]; apply in_flat_map in H as (i & Hi & H); apply in_seq in Hj, Hi; [left|right]; exists j, i; repeat split; auto; lia.
    - intros [(j & i & Hj & Hi & H)|(j & i & Hi & H)]; [left|right]; exists j; (split; [apply in_seq; lia|]); apply in_flat_map; exists i; (split; [apply in_seq; lia|exact H]).
  Qed.
  Lemma pt_pa j i c v : In (c, v) (pt j i) -> In (c, v) (pa s ua (fun _ _ => 0) dl j i).
  Proof.
    unfold pt, pa. rewrite in_app_iff. cbn [In]. intros [[H|[H|[]]]|H]; [tauto|tauto|]. destruct (i =? j)%nat eqn:E; [|destruct H]. destruct H as [H|[]]. tauto.
  Qed.
  Lemma twrites_full c v : In (c, v) twrites -> In (c, v) full.
  Proof. rewrite in_twrites, in_writes. intros [H|(j & i & Hi & H)]; [now left|right]. exists j, i. split; [exact Hi|now apply pt_pa]. Qed.
  Lemma t_entries (M : arr) : (forall c i j, ~ (i < s /\ j < s)%nat -> M [c; i; j] = 0) -> let M' := applyw twrites M in
    (forall c i j, (i < s)%nat -> (j < s)%nat -> M' [c; i; j] = M [c; i; j]) /\
    (forall c i j, (3 <= c)%nat -> M' [c; i; j] = M [c; i; j]) /\
    (forall j i, (j < s)%nat -> (i < ng)%nat -> M' [0; j; i + s]%nat = va j i /\ M' [0; i + s; j]%nat = va j i /\ M' [1; j; i + s]%nat = vb j i /\ M' [1; i + s; j]%nat = vb j i /\
       M' [2; j; i + s]%nat = 0 /\ M' [2; i + s; j]%nat = 0) /\
    (forall j i, (j <= i < ng)%nat -> M' [0; i + s; j + s]%nat = ua j i /\ M' [0; j + s; i + s]%nat = ua j i /\ M' [1; i + s; j + s]%nat = 0 /\ M' [1; j + s; i + s]%nat = 0 /\
       M' [2; i + s; j + s]%nat = dl j i /\ M' [2; j + s; i + s]%nat = dl j i).
  Proof.
    intros Hz. cbv zeta.
    assert (OUT : forall c, (forall v, ~ In (c, v) twrites) -> applyw twrites M c = M c).
    { intros c Hc. apply applyw_out. intros Hi. apply in_map_iff in Hi as ([c' v] & <- & Hi). exact (Hc v Hi). }
    assert (TG : forall c v, In (c, v) twrites -> v = target s va vb ua (fun _ _ => 0) dl c) by (intros c v Hc; apply (writes_target s ng), twrites_full, Hc).
    assert (INN : forall c v, In (c, v) twrites -> applyw twrites M c = v).
    { intros c v Hc. rewrite (TG c v Hc). apply applyw_in; [exact TG|]. now apply (in_map fst) in Hc. }
    assert (PT : forall c v j i, In (c, v) (pt j i) -> (c = [0; i + s; j + s]%nat \/ c = [0; j + s; i + s]%nat \/ (c = [2; i + s; j + s]%nat /\ i = j))).
    { intros c v j i H. unfold pt in H. apply in_app_iff in H. cbn [In] in H. destruct H as [[H|[H|[]]]|H]; [injection H as <- _; tauto|injection H as <- _; tauto|].
      destruct (Nat.eqb_spec i j) as [Eij|Eij]; [|destruct H]. destruct H as [H|[]]. injection H as <- _. tauto. }
    split; [|split; [|split] ].
    - intros c i j Hi Hj. apply OUT. intros v H. apply in_twrites in H as [(j' & i' & Hj' & Hi' & H)|(j' & i' & Hi' & H)].
      + repeat (destruct H as [H|H]; [injection H as; lia|]); destruct H.
      + apply PT in H as [H|[H|[H _]]]; injection H; intros; lia.
    - intros c i j Hc. apply OUT. intros v H. apply in_twrites in H as [(j' & i' & Hj' & Hi' & H)|(j' & i' & Hi' & H)].
      + repeat (destruct H as [H|H]; [injection H as; lia|]); destruct H.
      + apply PT in H as [H|[H|[H _]]]; injection H; intros; lia.
    - intros j i Hj Hi. assert (Z : forall c v, In (c, v) (pm j i) -> applyw twrites M c = v) by (intros c v H; apply INN, in_twrites; left; eauto).
      do 4 (split; [apply Z; unfold LRProjProofs.pm; cbn [In]; tauto|]).
      split; (rewrite OUT; [apply Hz; lia|]); intros v H; apply in_twrites in H as [(j' & i' & Hj' & Hi' & H)|(j' & i' & Hi' & H)];
        try (repeat (destruct H as [H|H]; [injection H as; lia|]); destruct H; fail); apply PT in H as [H|[H|[H _]]]; injection H; intros; lia.
    - intros j i Hi. assert (Z : forall c v, In (c, v) (pt j i) -> applyw twrites M c = v) by (intros c v H; apply INN, in_twrites; right; eauto).
      assert (B : forall i' j', (s <= i')%nat -> (s <= j')%nat -> applyw twrites M [1; i'; j']%nat = 0).
      { intros i' j' H1 H2. rewrite OUT; [apply Hz; lia|]. intros v H. apply in_twrites in H as [(j1 & i1 & Hj1 & Hi1 & H)|(j1 & i1 & Hi1 & H)];
          try (repeat (destruct H as [H|H]; [injection H as; lia|]); destruct H; fail). apply PT in H as [H|[H|[H _]]]; discriminate H. }
      split; [apply Z; unfold pt; apply in_app_iff; left; cbn [In]; tauto|]. split; [apply Z; unfold pt; apply in_app_iff; left; cbn [In]; tauto|].
      split; [apply B; lia|]. split; [apply B; lia|].
      destruct (Nat.eqb_spec i j) as [->|Hij].
      + split; apply Z; unfold pt; rewrite Nat.eqb_refl; apply in_app_iff; right; cbn [In]; tauto.
      + split; (rewrite OUT; [apply Hz; lia|]); intros v H; apply in_twrites in H as [(j' & i' & Hj' & Hi' & H)|(j' & i' & Hi' & H)];
          try (repeat (destruct H as [H|H]; [injection H as; lia|]); destruct H; fail); apply PT in H as [H|[H|[H ->]]]; injection H; intros; lia.
  Qed.
End TLoops.

Section Transfer.
  Context {K : Type} {C : CRing K}.
  Local Open Scope K_scope.
  Add Ring KringTr : (@rth K C).
  Notation act := (amps (K:=K) -> amps (K:=K)).
  Notation lc := (list (fstring * K)).
  Variables (tiny : K -> bool) (sp : @space) (th : threads) (ansatz : bool -> list K -> Res (list K)) (nalpha nbeta : Z) (st csf : list K).
  Variables (large : K -> bool) (L : @literals K) (O : orbitals) (m : nat) (h : nat -> nat -> K) (g : nat -> nat -> nat -> nat -> K) (excitations : string).
  Hypothesis Hset : response_setup tiny sp th nalpha nbeta st large L O m h g.
  Notation ni := (sp_ni sp).
  Notation na := (sp_na sp).
  Notation d := (dim (sp_ci sp)).
  Hypothesis Huni : unitary_ansatz ansatz d.
  Hypothesis Hcsf : List.length csf = d.
  (** The state is the reference propagated with the ansatz. *)
  Hypothesis Hst : ansatz false csf = Ok st.
  Notation N := (sp_ni sp + sp_na sp + sp_nv sp)%nat.
  Notation half := (l_half L).
  Notation H := (Hact half h g N).
  Notation Psi := (fket sp st).
  Notation Ref := (fket sp csf).
  Notation I u w := (ip (2 * N) u w).
  Notation E F := (ip (2 * N) Psi (F Psi)).
  Notation orb := (x_orbital L O).
  Notation actv := (x_active L O excitations).
  Notation ops := (x_orbital L O ++ x_active L O excitations).
  Notation X i := (opapp (nth i ops [])).
  Notation Xd i := (opapp (lc_adj (nth i ops []))).
  Notation nq := (List.length (o_kappa O)).
  Notation run := (transfer_init large L tiny sp th ansatz O h g st csf excitations).

  Let Hw : wf_setup tiny sp th nalpha nbeta st := proj1 Hset.
  Let Hn : dot st st = 1 := proj1 (proj2 Hset).
  Let Hr : real_integrals N half h g := proj1 (proj2 (proj2 Hset)).
  Let HO : orbs_ok ni na (sp_nv sp) m O := proj1 (proj2 (proj2 (proj2 (proj2 Hset)))).
  Let Hop := proj2 (proj2 (proj2 (proj2 (proj2 Hset)))).
  Let Hex := proj1 Hw.
  Let Hsm : exact_small K := proj1 (proj2 Hw).
  Let Hpos := proj1 (proj2 (proj2 Hw)).
  Let Hidx := proj1 (proj2 (proj2 (proj2 Hw))).
  Let Hth := proj1 (proj2 (proj2 (proj2 (proj2 Hw)))).
  Let Hlen := proj2 (proj2 (proj2 (proj2 (proj2 Hw)))).
  Let Hhalf := proj1 Hr.
  Let Hh := proj1 (proj2 Hr).
  Let Hg := proj2 (proj2 (proj2 Hr)).
  Let AH : adjp N H H := adjp_H half h g N Hh Hg.
  Notation aP := (actP ni na N).
  Notation sup := (sup sp).
  Notation prop := (prop tiny sp th ansatz).
  Notation expv := (expv tiny sp th ansatz).
  Notation props := (props tiny sp th ansatz).
  Let gapply' D v := gapply tiny sp th ansatz nalpha nbeta Hex Hpos Hidx Hth D v.
  Let expv_nil' a b := expv_nil tiny sp th ansatz nalpha nbeta Hpos Hidx a b.
  Let dotk a b := dot_fket sp nalpha nbeta Hpos Hidx a b.

  (** The kets [U G_i |CSF>], by their number among the excitations. *)
  Definition transfer_kets (phi : nat -> list K) : Prop :=
    forall i, (i < List.length actv)%nat -> forall v, List.length v = d -> (forall x, fket sp v x = opapp (nth i actv []) Ref x) -> ansatz false v = Ok (phi i).

  Lemma fket_inj v w : List.length v = d -> List.length w = d -> (forall x, fket sp v x = fket sp w x) -> v = w.
  Proof.
    intros Lv Lw Hx. apply (ket_inj na (sp_ci sp)); auto.
    - exact (wfci sp nalpha nbeta Hpos Hidx).
    - intros x _. rewrite <- !(fket_embed sp). apply Hx.
  Qed.

  Lemma ud_ket v : List.length v = d -> exists o, ansatz true v = Ok o /\ List.length o = d /\
    forall a a', List.length a = d -> ansatz false a = Ok a' -> List.length a' = d -> I (fket sp a) (fket sp o) = I (fket sp a') (fket sp v).
  Proof.
    intros Lv. destruct Huni as (U1 & U2 & _). destruct (U1 true v Lv) as (o & Eo & Lo). exists o. split; [exact Eo|]. split; [exact Lo|].
    intros a a' La Ea La'. rewrite <- (dotk a o La Lo), <- (dotk a' v La' Lv). symmetry. now apply U2.
  Qed.
  Lemma iso a b a' b' : List.length a = d -> List.length b = d -> ansatz false a = Ok a' -> ansatz false b = Ok b' -> I (fket sp a') (fket sp b') = I (fket sp a) (fket sp b).
  Proof.
    intros La Lb Ea Eb. destruct Huni as (U1 & _ & U3). destruct (U1 false a La) as (oa & Ea' & Loa). destruct (U1 false b Lb) as (ob & Eb' & Lob).
    assert (oa = a') as -> by congruence. assert (ob = b') as -> by congruence. rewrite <- (dotk a' b' Loa Lob), <- (dotk a b La Lb). now apply U3.
  Qed.

  Section Kets.
  Variable phi : nat -> list K.
  Hypothesis Hphi : transfer_kets phi.
  Notation P i := (fket sp (phi i)).

  (** The operators of the response equations: orbital rotations as they are,
      [U G_i |CSF><0|] for the excitations. *)
  Definition TX (i : nat) : act := if (i <? nq)%nat then X i else fun u x => I Psi u * P (i - nq) x.
  Definition TXd (i : nat) : act := if (i <? nq)%nat then Xd i else fun u x => I (P (i - nq)) u * Psi x.
  Definition transfer_gradients : list K :=
    gradients sp st L h g orb ++ flat_map (fun i => [E (comm (TXd (i + nq)) H); E (comm (TX (i + nq)) H)]) (seq 0 (List.length actv)).
  (** The reference, and the excitations of it, are orthonormal. *)
  Definition orthonormal_excitations : Prop :=
    forall i, (i < List.length actv)%nat -> I Ref (opapp (nth i actv []) Ref) = 0 /\
      forall j, (j < List.length actv)%nat -> I (opapp (nth i actv []) Ref) (opapp (nth j actv []) Ref) = if (i =? j)%nat then 1 else 0.

  Section Values.
    Variables (Q G : list lc) (H1 H0 : lc).
    Hypothesis FQ : Forall2 (oact sp) Q orb.
    Hypothesis FG : Forall2 (gact ni na (sp_nv sp) m) G actv.
    Hypothesis HH1 : H1ok sp L h g H1.
    Hypothesis HH0 : H0ok sp L h g H0.
    Notation s := (List.length Q).
    Notation ng := (List.length G).
    Notation e0 := (I Psi (H Psi)).
    Let HQok' := HQok sp L O Q FQ.
    Lemma lenG : ng = List.length actv.
    Proof. exact (F2_len _ _ _ FG). Qed.
    Lemma t_lenQ : s = nq.
    Proof. apply (lenQ sp L O Q FQ). Qed.

    (** One excitation: its ket before and after the ansatz. *)
    Lemma g_ket i : (i < ng)%nat -> let D := nth i G [] in
      op_dagger D = Ok (dg D) /\ OPS aP D /\ OPS aP (dg D) /\ adjp N (opapp D) (opapp (dg D)) /\
      exists gk, prop [D] csf = Ok gk /\ List.length gk = d /\ (forall x, fket sp gk x = opapp D Ref x) /\ (forall x, fket sp gk x = opapp (nth i actv []) Ref x) /\
        ansatz false gk = Ok (phi i) /\ List.length (phi i) = d.
    Proof.
      intros Hi D. assert (In D G) as HD by now apply nth_In. pose proof (HGok sp L O m excitations G FG D HD) as OD.
      destruct (dag_ok sp Hsm D OD) as (ED & OD' & AD). split; [exact ED|]. split; [exact OD|]. split; [exact OD'|]. split; [exact AD|].
      destruct (gapply' D csf OD Hcsf) as (gk & p & l & F). exists gk. split; [exact p|]. split; [exact l|]. split; [exact F|].
      assert (F' : forall x, fket sp gk x = opapp (nth i actv []) Ref x).
      { intros x. rewrite F. destruct (F2_nth _ _ _ FG i [] [] Hi) as (_ & FF & _). apply FF. }
      split; [exact F'|]. assert (EP : ansatz false gk = Ok (phi i)) by (apply Hphi; [rewrite <- lenG; exact Hi|exact l|exact F']).
      split; [exact EP|]. destruct (proj1 Huni false gk l) as (o & Eo & Lo). congruence.
    Qed.

    Lemma t_q_nth j : (j < s)%nat -> let D := nth j Q [] in
      In D Q /\ (forall u x, opapp D u x = X j u x) /\ (forall u x, opapp (dg D) u x = Xd j u x).
    Proof.
      intros Hj D. assert (In D Q) as HD by now apply nth_In. split; [exact HD|].
      destruct (nth_acts tiny sp th nalpha nbeta st large L O m h g excitations Hset Q G FQ FG j) as [P1 P2].
      assert (EN : nth j (Q ++ G) [] = D) by (now apply app_nth1). rewrite EN in P1, P2. split; assumption.
    Qed.
    Lemma t_x_adj i : (i < s + ng)%nat -> adjp N (X i) (Xd i).
    Proof. intros Hi. apply (ops_adj tiny sp th nalpha nbeta st large L O m h g excitations Hset). rewrite <- (len_all sp L O m excitations Q G FQ FG). exact Hi. Qed.
    Lemma t_q_kill j u : (j < s)%nat -> sup u -> forall x, Xd j u x = 0.
    Proof. intros Hj Hu x. destruct (t_q_nth j Hj) as (Hq & P1 & P2). destruct (HQok' _ Hq) as (_ & _ & _ & _ & _ & Z). rewrite <- P2. now apply Z. Qed.
    Lemma t_q_orth j u w : (j < s)%nat -> sup u -> I u (X j w) = 0.
    Proof. intros Hj Hu. rewrite (t_x_adj j ltac:(lia) u w), ip_sym. apply ip_zero. now apply t_q_kill. Qed.
    Lemma props_ud A v w : prop [A] v = Ok w -> props [SU true; SOp A] v = ansatz true w.
    Proof. intros EA. change (props [SU true; SOp A] v) with (bind (prop [A] v) (ansatz true)). now rewrite EA. Qed.
    Lemma t_energy_ok : expv st [H0] st = Ok e0.
    Proof.
      destruct HH0 as [O0 A0]. rewrite (expv_one tiny sp th ansatz nalpha nbeta Hex Hpos Hidx Hth H0 st st O0 Hlen Hlen). f_equal.
      apply (ip_asp sp); [apply (sup_ket sp Hpos)|]. intros x Hx. apply A0; [exact Hx|apply (sup_ket sp Hpos)].
    Qed.

    Notation va := (fun j i => I (P i) (H (X j Psi))).
    Notation vb := (fun j i => - half * I (P i) (Xd j (H Psi))).
    Lemma t_mixed_ok M : t_mixed_blocks L tiny sp th ansatz st csf H1 Q G M = Ok (applyw (flat_map (fun j => flat_map (pm s va vb j) (seq 0 ng)) (seq 0 s)) M).
    Proof.
      unfold t_mixed_blocks. apply (eloop_idx [] 0 Q). intros j M' Hj. cbn [Nat.add]. set (q := nth j Q []).
      destruct (t_q_nth j Hj) as (Hq & P1 & P2). fold q in Hq, P1, P2.
      destruct (HQok' q Hq) as (OQ & EQ & OQd & AQ & Q1 & Q0). pose proof HH1 as (O1 & Ha & Hb).
      assert (R : forall A, OPS (bal N) A -> rep (bal N) (Ok A) (opapp A)) by (intros A HA; exists A; auto).
      destruct (rep_mul Hsm (bal N) (bal_stable N) _ _ _ _ (R _ O1) (R _ OQ)) as (Hq' & e1 & O2 & S2).
      destruct (rep_mul Hsm (bal N) (bal_stable N) _ _ _ _ (R _ OQd) (R _ O1)) as (qH & e2 & O3 & S3). cbn [bind] in e1, e2.
      rw e1. destruct (papply tiny sp th ansatz nalpha nbeta Hex Hpos Hidx Hth Hq' st O2 Hlen) as (hqk & p1 & l1 & F1).
      destruct (ud_ket hqk l1) as (uq & u1 & ul1 & I1). pose proof (eq_trans (props_ud _ _ _ p1) u1) as pu1. rw pu1. rw EQ. rw e2.
      destruct (papply tiny sp th ansatz nalpha nbeta Hex Hpos Hidx Hth qH st O3 Hlen) as (qhk & p2 & l2 & F2).
      destruct (ud_ket qhk l2) as (uh & u2 & ul2 & I2). pose proof (eq_trans (props_ud _ _ _ p2) u2) as pu2. rw pu2.
      apply (eloop_idx [] 0 G). intros i M'' Hi. cbn [Nat.add]. set (D := nth i G []).
      destruct (g_ket i Hi) as (ED & OD & OD' & AD & gk & p3 & l3 & F3 & F3' & ug & lp). fold D in ED, OD, OD', AD, p3, F3. rw p3.
      rewrite !expv_nil' by assumption. cbn [bind]. rewrite (I1 gk (phi i) l3 ug lp), (I2 gk (phi i) l3 ug lp).
      assert (a : I (P i) (fket sp hqk) = I (P i) (H (X j Psi))).
      { apply (ip_asp sp); [apply (sup_ket sp Hpos)|]. intros x Hx.
        rewrite F1, S2, Ha by (assumption || apply Q1, (sup_ket sp Hpos)). apply Hact_ext. apply P1. }
      assert (b : I (P i) (fket sp qhk) = I (P i) (Xd j (H Psi))).
      { transitivity (I (P i) (opapp (dg q) (opapp H1 Psi))); [apply (ip_asp sp); [apply (sup_ket sp Hpos)|]; intros x Hx; now rewrite F2, S3|].
        rewrite <- (ip_ext _ _ _ _ _ (fun _ => eq_refl) (P2 (H Psi))). pose proof (adjp_flip _ _ _ AQ) as AQ'. rewrite !AQ'.
        apply (ip_supp _ (asp1 ni na) (asp1_dec ni na)); [apply Q1, (sup_ket sp Hpos)|]. intros x Hx. apply Hb; [exact Hx|apply (sup_ket sp Hpos)]. }
      rewrite a, b. reflexivity.
    Qed.

    Notation ua := (fun j i => I (P i) (H (P j)) - (if (i =? j)%nat then e0 else 0)).
    Lemma t_active_ok M : t_active_blocks tiny sp th ansatz csf e0 H0 s G M = Ok (applyw (flat_map (fun j => flat_map (pt s ua j) (seq j (ng - j))) (seq 0 ng)) M).
    Proof.
      unfold t_active_blocks. apply (eloop_idx [] 0 G). intros j M' Hj. cbn [Nat.add]. set (D := nth j G []).
      destruct (g_ket j Hj) as (ED & OD & OD' & AD & gk & p1 & l1 & F1 & F1' & ug & lp). fold D in ED, OD, OD', AD, p1, F1.
      destruct (H0apply tiny sp th ansatz nalpha nbeta Hex Hpos Hidx Hth L h g H0 (phi j) HH0 lp) as (hk & p2 & l2 & F2).
      destruct (ud_ket hk l2) as (uh & u2 & ul2 & I2).
      assert (PP : props [SU true; SOp H0; SU false; SOp D] csf = Ok uh).
      { change (props [SU true; SOp H0; SU false; SOp D] csf) with (bind (bind (bind (prop [D] csf) (ansatz false)) (prop [H0])) (ansatz true)).
        rewrite p1. cbn [bind]. rewrite ug. cbn [bind]. rewrite p2. exact u2. }
      rw PP. replace (ng - j)%nat with (List.length (skipn j G)) by apply skipn_length.
      apply (eloop_idx [] j (skipn j G)). intros k M'' Hk. rewrite skipn_length in Hk. rewrite nth_skip_p.
      assert (Hi : (j + k < ng)%nat) by lia. set (i := (j + k)%nat) in *. clearbody i. clear k Hk. set (D1 := nth i G []).
      destruct (g_ket i Hi) as (EE & OE & OEd & AE & ge & p3 & l3 & F3 & F3' & ue & le). fold D1 in EE, OE, OEd, AE, p3, F3. rw EE.
      pose proof (OPS_weaken _ (bal N) _ (fun s H => proj1 H) OEd) as Wd. rw (expv_one tiny sp th ansatz nalpha nbeta Hex Hpos Hidx Hth (dg D1) csf uh Wd Hcsf ul2).
      assert (V : I Ref (opapp (dg D1) (fket sp uh)) = I (P i) (H (P j))).
      { rewrite (adjp_flip _ _ _ AE Ref (fket sp uh)). rewrite <- (ip_ext _ _ _ (fket sp uh) (fket sp uh) F3 (fun _ => eq_refl)), (I2 ge (phi i) l3 ue le).
        apply (ip_asp sp); [apply (sup_ket sp Hpos)|exact F2]. }
      rewrite V. unfold pt. destruct (i =? j)%nat; [reflexivity|]. cbn [app].
      assert (Z : I (P i) (H (P j)) - 0 = I (P i) (H (P j))) by ring. rewrite Z. reflexivity.
    Qed.

    Lemma t_check_ok UH : props [SU true; SOp H0] st = Ok UH ->
      t_check_active large tiny sp th ansatz csf UH G =
      if existsb large (flat_map (fun i => [- I (P i) (H Psi); I (P i) (H Psi)]) (seq 0 ng)) then Raise ValueError else Ok tt.
    Proof.
      intros EU. destruct (H0apply tiny sp th ansatz nalpha nbeta Hex Hpos Hidx Hth L h g H0 st HH0 Hlen) as (H00 & E00 & L00 & F00).
      destruct (ud_ket H00 L00) as (o & Eo & LU & IU). rewrite (props_ud _ _ _ E00), Eo in EU. injection EU as ->.
      assert (GG : G = map (fun i => nth i G []) (seq 0 ng)).
      { clear. induction G as [|D l IH]; [reflexivity|]. cbn [List.length seq map nth]. f_equal. rewrite <- seq_shift, map_map. exact IH. }
      assert (RL : rlist (t_grad_pair tiny sp th ansatz csf UH) G = Ok (map (fun i => (- I (P i) (H Psi), I (P i) (H Psi))) (seq 0 ng))).
      { transitivity (rlist (t_grad_pair tiny sp th ansatz csf UH) (map (fun i => nth i G []) (seq 0 ng))); [now rewrite <- GG|].
        assert (HS : forall i, In i (seq 0 ng) -> t_grad_pair tiny sp th ansatz csf UH (nth i G []) = Ok (- I (P i) (H Psi), I (P i) (H Psi))).
        { intros i Hi. apply in_seq in Hi. unfold t_grad_pair. destruct (g_ket i ltac:(lia)) as (_ & _ & _ & _ & gk & p3 & l3 & F3 & F3' & ug & lp). rw p3.
          rewrite !expv_nil' by assumption. cbn [bind]. rewrite (ip_sym _ (fket sp UH)), (IU gk (phi i) l3 ug lp).
          assert (V : I (P i) (fket sp H00) = I (P i) (H Psi)) by (apply (ip_asp sp); [apply (sup_ket sp Hpos)|exact F00]). rewrite V. reflexivity. }
        clear GG. induction (seq 0 ng) as [|i l IH]; [reflexivity|]. cbn [map]. unfold rlist in *. cbn [fold_right].
        rewrite (HS i (or_introl eq_refl)), IH by (intros; apply HS; now right). reflexivity. }
      unfold t_check_active. rewrite RL. cbn [bind]. rewrite !map_map. cbn [fst snd]. rewrite existsb_pairs. reflexivity.
    Qed.

    Hypothesis Hort : orthonormal_excitations.
    Lemma p_orth i : (i < ng)%nat -> I Psi (P i) = 0 /\ forall j, (j < ng)%nat -> I (P i) (P j) = if (i =? j)%nat then 1 else 0.
    Proof.
      intros Hi. destruct (g_ket i Hi) as (_ & _ & _ & _ & gi & _ & li & _ & Fi & ui & _). pose proof Hi as Hi'. rewrite lenG in Hi'. destruct (Hort i Hi') as [Z1 Z2]. split.
      - rewrite (iso csf gi st (phi i) Hcsf li Hst ui), (ip_ext _ _ _ _ _ (fun _ => eq_refl) Fi). exact Z1.
      - intros j Hj. destruct (g_ket j Hj) as (_ & _ & _ & _ & gj & _ & lj & _ & Fj & uj & _). rewrite (iso gi gj (phi i) (phi j) li lj ui uj), (ip_ext _ _ _ _ _ Fi Fj).
        apply Z2. rewrite <- lenG. exact Hj.
    Qed.
    Lemma TX_q j : (j < s)%nat -> TX j = X j /\ TXd j = Xd j.
    Proof. intros Hj. unfold TX, TXd. rewrite <- t_lenQ. apply Nat.ltb_lt in Hj. rewrite Hj. split; reflexivity. Qed.
    Lemma TX_g i : TX (i + s) = (fun u x => I Psi u * P i x) /\ TXd (i + s) = (fun u x => I (P i) u * Psi x).
    Proof.
      unfold TX, TXd. rewrite <- t_lenQ. assert (Z : (i + s <? s)%nat = false) by (apply Nat.ltb_ge; lia). rewrite Z.
      replace (i + s - s)%nat with i by lia. split; reflexivity.
    Qed.
    Lemma ip_r c u w : I u (fun x => c * w x) = c * I u w.
    Proof. transitivity (I u (fun x => c * w x - 0 * w x)); [apply ip_ext; [reflexivity|intros x; ring]|]. rewrite (ip_comb N c 0 u w w). ring. Qed.
    Lemma ip_l c u w : I (fun x => c * w x) u = c * I w u.
    Proof. rewrite ip_sym, ip_r, ip_sym. reflexivity. Qed.
    Lemma TX_adj i : (i < s + ng)%nat -> adjp N (TX i) (TXd i).
    Proof.
      intros Hi. destruct (Nat.lt_ge_cases i s) as [Li|Li].
      - destruct (TX_q i Li) as [-> ->]. now apply t_x_adj.
      - replace i with (i - s + s)%nat by lia. destruct (TX_g (i - s)) as [-> ->]. intros u w. rewrite ip_r, ip_l, (ip_sym _ u). ring.
    Qed.
    Lemma TX_kill i : (i < s + ng)%nat -> forall x, TXd i Psi x = 0.
    Proof.
      intros Hi x. destruct (Nat.lt_ge_cases i s) as [Li|Li].
      - destruct (TX_q i Li) as [_ ->]. apply t_q_kill; [exact Li|apply (sup_ket sp Hpos)].
      - replace i with (i - s + s)%nat by lia. destruct (TX_g (i - s)) as [_ ->]. rewrite ip_sym, (proj1 (p_orth (i - s) ltac:(lia))). ring.
    Qed.
    Lemma T1 : I Psi Psi = 1.
    Proof. rewrite <- Hn. symmetry. apply (dotk st st Hlen Hlen). Qed.
    Lemma TX_psi i x : TX (i + s) Psi x = P i x.
    Proof. destruct (TX_g i) as [-> _]. rewrite T1. ring. Qed.
    Lemma H_psi i x : H (TX (i + s) Psi) x = H (P i) x.
    Proof. apply Hact_ext. apply TX_psi. Qed.
    Notation er := (fun _ => eq_refl).
    (** An orbital rotation and an excitation. *)
    Lemma mixed_vals j b : (j < s)%nat -> (b < ng)%nat -> let i := (b + s)%nat in
      E (comm (TXd j) (comm H (TX i))) = va j b /\ E (comm (comm (TXd j) H) (TX i)) = va j b /\
      E (comm (TXd i) (comm H (TX j))) = va j b /\ E (comm (comm (TXd i) H) (TX j)) = va j b /\
      E (comm (TXd j) (comm H (TXd i))) = 0 /\ E (comm (comm (TXd j) H) (TXd i)) = - I (P b) (Xd j (H Psi)) /\
      E (comm (TXd i) (comm H (TXd j))) = - I (P b) (Xd j (H Psi)) /\ E (comm (comm (TXd i) H) (TXd j)) = 0 /\
      E (comm (TXd j) (TX i)) = 0 /\ E (comm (TXd i) (TX j)) = 0.
    Proof.
      intros Hj Hb i. pose proof (TX_adj j ltac:(lia)) as Aj. pose proof (TX_adj i ltac:(lia)) as Ai.
      pose proof (TX_kill j ltac:(lia)) as Kj. pose proof (TX_kill i ltac:(lia)) as Ki.
      rewrite (kill_1 N Psi H AH _ _ _ _ Aj Ai Kj), (kill_2 N Psi H AH _ _ _ _ Aj Ai Ki), (kill_1 N Psi H AH _ _ _ _ Ai Aj Ki), (kill_2 N Psi H AH _ _ _ _ Ai Aj Kj).
      rewrite (kill_3 N Psi H AH _ _ _ _ Aj Ai Kj Ki), (kill_4 N Psi H AH _ _ _ _ Aj Ai Kj Ki), (kill_3 N Psi H AH _ _ _ _ Ai Aj Ki Kj), (kill_4 N Psi H AH _ _ _ _ Ai Aj Ki Kj).
      rewrite (kill_5 N Psi _ _ _ _ Aj Ai Kj), (kill_5 N Psi _ _ _ _ Ai Aj Ki).
      destruct (TX_q j Hj) as [-> ->].
      assert (SP : sup (P b)) by apply (sup_ket sp Hpos).
      assert (B1 : I (X j Psi) (H (TX i Psi)) = va j b).
      { rewrite (ip_ext _ _ _ _ _ er (H_psi b)), (AH (X j Psi) (P b)). apply ip_sym. }
      assert (B2 : I (TXd i (X j Psi)) (H Psi) = 0).
      { unfold i. destruct (TX_g b) as [_ ->]. rewrite ip_l, (t_q_orth j (P b) Psi Hj SP). ring. }
      assert (B3 : I (TX i Psi) (H (X j Psi)) = va j b) by apply (ip_ext _ _ _ _ _ (TX_psi b) er).
      assert (ST : sup (TX i Psi)) by (intros x Hx; unfold i; rewrite TX_psi; now apply SP).
      assert (B4 : I (Xd j (TX i Psi)) (H Psi) = 0) by (rewrite ip_sym; apply ip_zero, t_q_kill; assumption).
      assert (B5 : I (TX i (X j Psi)) (H Psi) = 0).
      { unfold i. destruct (TX_g b) as [-> _]. rewrite ip_l, (t_q_orth j Psi Psi Hj (sup_ket sp Hpos st)). ring. }
      assert (B6 : I (X j (TX i Psi)) (H Psi) = I (P b) (Xd j (H Psi))).
      { rewrite <- (adjp_flip _ _ _ (t_x_adj j ltac:(lia)) (TX i Psi) (H Psi)). apply (ip_ext _ _ _ _ _ (TX_psi b) er). }
      assert (B7 : I (TX i Psi) (X j Psi) = 0) by (apply t_q_orth; assumption).
      assert (B8 : I (X j Psi) (TX i Psi) = 0) by (rewrite ip_sym; exact B7).
      rewrite B1, B2, B3, B4, B5, B6, B7, B8. repeat split; ring.
    Qed.
    (** Two excitations. *)
    Lemma act_vals_t a b : (a < ng)%nat -> (b < ng)%nat -> let i := (a + s)%nat in let j := (b + s)%nat in
      E (comm (TXd i) (comm H (TX j))) = ua b a /\ E (comm (comm (TXd i) H) (TX j)) = ua b a /\
      E (comm (TXd i) (comm H (TXd j))) = 0 /\ E (comm (comm (TXd i) H) (TXd j)) = 0 /\
      E (comm (TXd i) (TX j)) = if (a =? b)%nat then 1 else 0.
    Proof.
      intros Ha Hb i j. pose proof (TX_adj j ltac:(lia)) as Aj. pose proof (TX_adj i ltac:(lia)) as Ai.
      pose proof (TX_kill j ltac:(lia)) as Kj. pose proof (TX_kill i ltac:(lia)) as Ki.
      rewrite (kill_1 N Psi H AH _ _ _ _ Ai Aj Ki), (kill_2 N Psi H AH _ _ _ _ Ai Aj Kj).
      rewrite (kill_3 N Psi H AH _ _ _ _ Ai Aj Ki Kj), (kill_4 N Psi H AH _ _ _ _ Ai Aj Ki Kj), (kill_5 N Psi _ _ _ _ Ai Aj Ki).
      destruct (p_orth a Ha) as [A0 A1]. destruct (p_orth b Hb) as [B0 B1].
      assert (C1 : forall a b, I (TX (a + s) Psi) (H (TX (b + s) Psi)) = I (P a) (H (P b))) by (intros a0 b0; apply (ip_ext _ _ _ _ _ (TX_psi a0) (H_psi b0))).
      assert (C2 : forall a b, I (TXd (b + s) (TX (a + s) Psi)) (H Psi) = I (P b) (P a) * e0).
      { intros a0 b0. destruct (TX_g b0) as [_ ->]. rewrite ip_l. f_equal. apply (ip_ext _ _ _ _ _ er (TX_psi a0)). }
      assert (C3 : forall a b, I Psi (P a) = 0 -> I (TX (b + s) (TX (a + s) Psi)) (H Psi) = 0).
      { intros a0 b0 Z. destruct (TX_g b0) as [-> _]. rewrite ip_l, (ip_ext _ _ _ _ _ er (TX_psi a0)), Z. ring. }
      unfold i, j. rewrite !C1, !C2, (C3 a b A0), (C3 b a B0), (ip_ext _ _ _ _ _ (TX_psi a) (TX_psi b)), (A1 b Hb), (B1 a Ha), (Nat.eqb_sym b a).
      rewrite (AH (P b) (P a)), (ip_sym _ (H (P b))). cbv beta. destruct (a =? b)%nat; repeat split; ring.
    Qed.
    (** The gradient entries are those of the transfer operators. *)
    Lemma grad_vals i : (i < ng)%nat -> E (comm (TXd (i + s)) H) = I (P i) (H Psi) /\ E (comm (TX (i + s)) H) = - I (P i) (H Psi).
    Proof.
      intros Hi. pose proof (TX_adj (i + s) ltac:(lia)) as Ai. pose proof (TX_kill (i + s) ltac:(lia)) as Ki. rewrite !ev_comm.
      assert (A1 : I Psi (TXd (i + s) (H Psi)) = I (P i) (H Psi)) by (rewrite (adjp_flip _ _ _ Ai Psi (H Psi)); apply (ip_ext _ _ _ _ _ (TX_psi i) er)).
      assert (A2 : I Psi (H (TXd (i + s) Psi)) = 0) by (rewrite (AH Psi _); apply ip_zero; exact Ki).
      assert (A3 : I Psi (TX (i + s) (H Psi)) = 0) by (rewrite (Ai Psi (H Psi)), ip_sym; apply ip_zero; exact Ki).
      assert (A4 : I Psi (H (TX (i + s) Psi)) = I (P i) (H Psi)) by (rewrite (ip_ext _ _ _ _ _ er (H_psi i)), (AH Psi (P i)); apply ip_sym).
      rewrite A1, A2, A3, A4. split; ring.
    Qed.
  End Values.

  (** The symmetrised double commutators. *)
  Definition t_A (i j : nat) : K := half * (E (comm (TXd i) (comm H (TX j))) + E (comm (comm (TXd i) H) (TX j))).
  Definition t_B (i j : nat) : K := half * (E (comm (TXd i) (comm H (TXd j))) + E (comm (comm (TXd i) H) (TXd j))).

  Lemma transfer_run : orthonormal_excitations -> exists M, run = (if existsb large transfer_gradients then Raise ValueError else Ok M) /\
    forall i j, (i < List.length ops)%nat -> (j < List.length ops)%nat ->
      M [2; i; j]%nat = E (comm (TXd i) (TX j)) /\ M [3; i; j]%nat = 0 /\ E (comm (TXd i) (TXd j)) = 0 /\
      ((i < nq /\ j < nq)%nat -> M [0; i; j]%nat = E (comm (TXd i) (comm H (TX j))) /\ M [1; i; j]%nat = E (comm (TXd i) (comm H (TXd j)))) /\
      ((nq <= i \/ nq <= j)%nat -> M [0; i; j]%nat = E (comm (TXd i) (comm H (TX j))) /\ M [0; i; j]%nat = t_A i j /\ M [1; i; j]%nat = t_B i j) /\
      ((nq <= i /\ nq <= j)%nat -> M [1; i; j]%nat = 0 /\ M [2; i; j]%nat = if (i =? j)%nat then 1 else 0).
  Proof.
    intros Hort. unfold transfer_init. destruct (G_ops_ok Hsm ni na (sp_nv sp) m L O HO excitations) as (G & EG & FG). rw EG.
    destruct (q_ops_ok Hsm sp m L O HO) as (Q & EQ & FQ). rw EQ.
    destruct (H1_ex sp Hsm L h g) as (H1 & E1 & HH1). rw E1. destruct (H0_ex sp st Hsm Hpos Hlen L h g) as (H0 & E0 & HH0). rw E0.
    rw (t_energy_ok H0 HH0).
    destruct (H0apply tiny sp th ansatz nalpha nbeta Hex Hpos Hidx Hth L h g H0 st HH0 Hlen) as (H00 & E00 & L00 & F00).
    destruct (ud_ket H00 L00) as (UH & EU & LU & _). pose proof (eq_trans (props_ud _ _ _ E00) EU) as EUH.
    destruct (orbital_ok tiny sp th ansatz nalpha nbeta st large L O m h g excitations Hset Q H00 FQ L00) as (M1 & EM1 & M1z & M1o).
    unfold transfer_matrices. rewrite (check_orbital_ok tiny sp th ansatz nalpha nbeta st large L O m h g Hset).
    pose proof (t_lenQ Q FQ) as LQ. pose proof (lenG G FG) as LG.
    pose proof (t_check_ok G H0 FG HH0 UH EUH) as TC.
    pose proof (mixed_vals Q G FQ FG Hort) as MV. pose proof (act_vals_t Q G FQ FG Hort) as AV. pose proof (grad_vals Q G FQ FG Hort) as GV.
    pose proof (TX_adj Q G FQ FG) as AA. pose proof (TX_kill Q G FQ FG Hort) as KK. pose proof (TX_q Q FQ) as TQ.
    pose proof (t_mixed_ok Q G H1 FQ FG HH1 M1) as PM.
    match type of PM with _ = Ok ?x => pose proof (t_active_ok Q G H0 FG HH0 x) as PA end.
    set (s := List.length Q) in *. set (ng := List.length G) in *.
    rewrite <- applyw_app in PA.
    match type of PA with _ = Ok (applyw (flat_map (fun _ => flat_map (pm _ ?va ?vb _) _) _ ++ flat_map (fun _ => flat_map (pt _ ?ua _) _) _) _) =>
      change (flat_map (fun j => flat_map (pm s va vb j) (seq 0 ng)) (seq 0 s) ++ flat_map (fun j => flat_map (pt s ua j) (seq j (ng - j))) (seq 0 ng)) with (twrites s ng va vb ua) in PA;
      destruct (t_entries s ng va vb ua M1 (fun c i j Hn => M1z c i j (or_introl Hn))) as (W1 & W2 & W3 & W4);
      set (M := applyw (twrites s ng va vb ua) M1) in * end.
    exists M. split.
    - unfold transfer_gradients. rewrite existsb_app. destruct (existsb large (gradients sp st L h g orb)); [reflexivity|]. cbn [bind orb]. rw EUH.
      rewrite TC. rewrite <- LG, <- LQ.
      assert (EX : existsb large (flat_map (fun i => [- I (P i) (H Psi); I (P i) (H Psi)]) (seq 0 ng)) =
        existsb large (flat_map (fun i => [E (comm (TXd (i + s)) H); E (comm (TX (i + s)) H)]) (seq 0 ng))).
      { assert (SQ : forall i, In i (seq 0 ng) -> (i < ng)%nat) by (intros i Hi; apply in_seq in Hi; lia). clear - GV Hop SQ.
        induction (seq 0 ng) as [|i l IH]; [reflexivity|]. cbn [flat_map app existsb]. rewrite IH by (intros; apply SQ; now right).
        destruct (GV i (SQ i (or_introl eq_refl))) as [-> ->]. rewrite Hop. reflexivity. }
      rewrite EX. cbv beta. match goal with |- context [if ?b then Raise ValueError else Ok tt] => destruct b end; [reflexivity|]. cbn [bind]. rw EM1. rw PM. exact PA.
    - clearbody M. clear PA PM TC EUH. intros i j Hi Hj. pose proof (len_all sp L O m excitations Q G FQ FG) as LA. fold s ng in LA. rewrite <- LA in Hi, Hj. rewrite <- LQ.
      assert (T3 : M [3; i; j]%nat = 0) by (rewrite W2 by lia; apply M1z; right; lia).
      pose proof (kill_6 N Psi _ _ _ _ (AA i Hi) (AA j Hj) (KK i Hi) (KK j Hj)) as T6.
      match goal with |- ?a /\ _ /\ _ /\ ?r => enough (a /\ r) as [Ta Tr] by (split; [exact Ta|split; [exact T3|split; [exact T6|exact Tr] ] ]) end. clear T3 T6.
      assert (D : forall y, half * (y + y) = y) by (intros y; transitivity ((half + half) * y); [ring|rewrite Hhalf; ring]).
      destruct (Nat.lt_ge_cases i s) as [Li|Li], (Nat.lt_ge_cases j s) as [Lj|Lj].
      + destruct (TQ i Li) as [Ei Eid]. destruct (TQ j Lj) as [Ej Ejd]. rewrite Eid, Ej, Ejd, !W1 by assumption. destruct (M1o i j Li Lj) as (O1 & O2 & O3).
        split; [exact O3|]. split; [intros _; split; assumption|]. split; intros; lia.
      + assert (exists b, j = (b + s)%nat /\ (b < ng)%nat) as (b & -> & Hb) by (exists (j - s)%nat; lia).
        destruct (W3 i b Li Hb) as (A1 & _ & B1 & _ & S1 & _). destruct (MV i b Li Hb) as (V1 & V2 & _ & _ & V5 & V6 & _ & _ & V9 & _).
        split; [rewrite S1, V9; reflexivity|]. split; [intros; lia|]. split; [|intros; lia]. intros _. unfold t_A, t_B. rewrite A1, B1, V1, V2, V5, V6.
        split; [reflexivity|]. split; [symmetry; apply D|ring].
      + assert (exists b, i = (b + s)%nat /\ (b < ng)%nat) as (b & -> & Hb) by (exists (i - s)%nat; lia).
        destruct (W3 j b Lj Hb) as (_ & A1 & _ & B1 & _ & S1). destruct (MV j b Lj Hb) as (_ & _ & V3 & V4 & _ & _ & V7 & V8 & _ & V10).
        split; [rewrite S1, V10; reflexivity|]. split; [intros; lia|]. split; [|intros; lia]. intros _. unfold t_A, t_B. rewrite A1, B1, V3, V4, V7, V8.
        split; [reflexivity|]. split; [symmetry; apply D|ring].
      + assert (exists b, i = (b + s)%nat /\ (b < ng)%nat) as (a & -> & Ha) by (exists (i - s)%nat; lia).
        assert (exists b, j = (b + s)%nat /\ (b < ng)%nat) as (b & -> & Hb) by (exists (j - s)%nat; lia).
        destruct (AV a b Ha Hb) as (V0 & V0' & V1 & V1' & V2). unfold t_A, t_B. rewrite V0, V0', V1, V1', V2.
        assert (EQB : (a + s =? b + s)%nat = (a =? b)%nat) by (destruct (Nat.eqb_spec a b), (Nat.eqb_spec (a + s) (b + s)); lia). rewrite EQB.
        assert (T : M [0; a + s; b + s]%nat = I (P a) (H (P b)) - (if (a =? b)%nat then I Psi (H Psi) else 0) /\ M [1; a + s; b + s]%nat = 0 /\ M [2; a + s; b + s]%nat = if (a =? b)%nat then 1 else 0).
        { destruct (Nat.le_ge_cases b a) as [Hab|Hab].
          - destruct (W4 b a ltac:(lia)) as (R1 & _ & R2 & _ & R3 & _). rewrite R1, R2, R3. repeat split; reflexivity.
          - destruct (W4 a b ltac:(lia)) as (_ & R1 & _ & R2 & _ & R3). rewrite R1, R2, R3, (Nat.eqb_sym b a).
            rewrite (AH (P b) (P a)), (ip_sym _ (H (P b))). repeat split; reflexivity. }
        destruct T as (T0 & T1 & T2). rewrite T0, T1, T2. split; [reflexivity|]. split; [intros; lia|]. split; [|intros _; split; reflexivity].
        intros _. split; [reflexivity|]. split; [symmetry; apply D|ring].
  Qed.

  (** C91: with no large gradient the constructor succeeds.  The excitations are the
      transfer operators [U G_i |CSF><0|]: if these carry the reference to orthonormal
      states orthogonal to it, the metric is [<[R_i†, R_j]>] with an identity block,
      the Hessian is the double commutators of the transfer operators (for [B], which
      vanishes between excitations, the symmetrised one). *)
  Theorem C91_matrices : orthonormal_excitations -> (forall x, In x transfer_gradients -> large x = false) ->
    exists M, run = Ok M /\
    forall i j, (i < List.length ops)%nat -> (j < List.length ops)%nat ->
      M [2; i; j]%nat = E (comm (TXd i) (TX j)) /\ M [3; i; j]%nat = 0 /\ E (comm (TXd i) (TXd j)) = 0 /\
      ((i < nq /\ j < nq)%nat -> M [0; i; j]%nat = E (comm (TXd i) (comm H (TX j))) /\ M [1; i; j]%nat = E (comm (TXd i) (comm H (TXd j)))) /\
      ((nq <= i \/ nq <= j)%nat -> M [0; i; j]%nat = E (comm (TXd i) (comm H (TX j))) /\ M [0; i; j]%nat = t_A i j /\ M [1; i; j]%nat = t_B i j) /\
      ((nq <= i /\ nq <= j)%nat -> M [1; i; j]%nat = 0 /\ M [2; i; j]%nat = if (i =? j)%nat then 1 else 0).
  Proof.
    intros Ho Hl. destruct (transfer_run Ho) as (M & ER & HM). exists M. split; [|exact HM]. rewrite ER.
    destruct (existsb large transfer_gradients) eqn:EX; [|reflexivity]. apply existsb_exists in EX as (x & Hx & Hlx). rewrite (Hl x Hx) in Hlx. discriminate.
  Qed.
  (** C91: it raises ValueError exactly when some gradient is large. *)
  Theorem C91_gradient_check : orthonormal_excitations -> (run = Raise ValueError <-> exists x, In x transfer_gradients /\ large x = true).
  Proof.
    intros Ho. destruct (transfer_run Ho) as (M & ER & _). rewrite ER, <- existsb_exists. destruct (existsb large transfer_gradients); split; congruence.
  Qed.
  End Kets.

  (** C91: the states [U G_i |CSF>] exist and are determined by the ansatz. *)
  Theorem C91_kets : exists phi, transfer_kets phi /\ (forall i, (i < List.length actv)%nat -> List.length (phi i) = d) /\
    forall phi', transfer_kets phi' -> forall i, (i < List.length actv)%nat -> phi' i = phi i.
  Proof.
    destruct (G_ops_ok Hsm ni na (sp_nv sp) m L O HO excitations) as (G & EG & FG). pose proof (F2_len _ _ _ FG) as LG.
    assert (KG : forall i, (i < List.length actv)%nat -> exists gk, List.length gk = d /\ forall x, fket sp gk x = opapp (nth i actv []) Ref x).
    { intros i Hi. rewrite <- LG in Hi. pose proof (HGok sp L O m excitations G FG (nth i G []) (nth_In _ _ Hi)) as OD.
      destruct (gapply' (nth i G []) csf OD Hcsf) as (gk & p & l & F). exists gk. split; [exact l|]. intros x. rewrite F.
      destruct (F2_nth _ _ _ FG i [] [] Hi) as (_ & FF & _). apply FF. }
    assert (KK : exists ph, (forall i, (i < List.length actv)%nat -> List.length (ph i) = d /\ forall x, fket sp (ph i) x = opapp (nth i actv []) Ref x)).
    { revert KG. generalize (List.length actv). intros n Kn. clear - Kn. induction n as [|n IH]; [exists (fun _ => []); intros; lia|].
      destruct IH as (ph & Hp); [intros i Hi; apply Kn; lia|]. destruct (Kn n ltac:(lia)) as (gk & l & F). exists (fun i => if (i =? n)%nat then gk else ph i).
      intros i Hi. destruct (Nat.eqb_spec i n) as [->|Hne]; [split; assumption|apply Hp; lia]. }
    destruct KK as (ph & Hp). exists (fun i => match ansatz false (ph i) with Ok o => o | _ => [] end).
    assert (TK : transfer_kets (fun i => match ansatz false (ph i) with Ok o => o | _ => [] end)).
    { intros i Hi v Lv Fv. destruct (Hp i Hi) as [Lp Fp]. assert (v = ph i) as -> by (apply fket_inj; auto; intros x; rewrite Fp; apply Fv).
      destruct (proj1 Huni false (ph i) Lp) as (o & -> & _). reflexivity. }
    split; [exact TK|]. split.
    - intros i Hi. destruct (Hp i Hi) as [Lp Fp]. destruct (proj1 Huni false (ph i) Lp) as (o & -> & Lo). exact Lo.
    - intros phi' Hphi' i Hi. destruct (Hp i Hi) as [Lp Fp]. pose proof (Hphi' i Hi (ph i) Lp Fp) as E'. rewrite E'. reflexivity.
  Qed.
End Transfer.

(** * Examples *)
Add Ring q2ring_tr : (@rth q2 _).
(** A rotation by an angle with cosine 3/5 between the two closed-shell determinants. *)
Definition t_anz (dg : bool) (v : list q2) : Res (list q2) :=
  let c := q2q 3 5 in let s := if dg then (- q2q 4 5)%K else q2q 4 5 in
  match v with [a; b; e; f] => Ok [c * a - s * f; b; e; s * a + c * f]%K | _ => Raise ValueError end.
Definition t_csf : list q2 := [q2q 1 1; q2q 0 1; q2q 0 1; q2q 0 1].
Lemma t_anz_unitary : unitary_ansatz t_anz 4.
Proof.
  assert (U : forall v : list q2, List.length v = 4 -> exists a b e f, v = [a; b; e; f]).
  { intros [|a [|b [|e [|f [|]]]]] Hv; try discriminate Hv. now exists a, b, e, f. }
  assert (CS : (q2q 3 5 * q2q 3 5 + q2q 4 5 * q2q 4 5 = 1)%K) by (apply (f_equal2 Build_q2); apply Qc_is_canon; vm_compute; reflexivity).
  unfold unitary_ansatz, t_anz. set (c := q2q 3 5) in *. set (s := q2q 4 5) in *. clearbody c s. split; [|split].
  - intros dg v Hv. destruct (U v Hv) as (a & b & e & f & ->). eexists. split; [reflexivity|reflexivity].
  - intros x y x' y' Hx Hy. destruct (U x Hx) as (a & b & e & f & ->). destruct (U y Hy) as (a1 & b1 & e1 & f1 & ->). intros E1 E2. injection E1 as <-. injection E2 as <-.
    cbn [dot]. change q2_mul with (@rmul q2 _). change q2_add with (@radd q2 _). change q2_sub with (@rsub q2 _). change q2_opp with (@ropp q2 _). ring.
  - intros x y x' y' Hx Hy. destruct (U x Hx) as (a & b & e & f & ->). destruct (U y Hy) as (a1 & b1 & e1 & f1 & ->). intros E1 E2. injection E1 as <-. injection E2 as <-.
    cbn [dot]. change q2_mul with (@rmul q2 _). change q2_add with (@radd q2 _). change q2_sub with (@rsub q2 _). change q2_opp with (@ropp q2 _).
    transitivity ((c * c + s * s) * (a * a1 + f * f1) + b * b1 + e * e1)%K; [ring|]. rewrite CS. ring.
Qed.
(** The literals of the code where the excitations of the example use them. *)
Definition t_lit : @literals q2 := {| l_half := q2q 1 2; l_s2 := q2s; l_f1 := q2q 1 2; l_f2 := (q2q 1 2 * q2s)%K; l_f4 := q2q 1 4; l_f5 := q2s |}.
Definition t_run large h := transfer_init large t_lit r_tiny ex_sp None t_anz r_O h r_g r_st t_csf "sd".
(** The stationary state of [C55_example] as the rotated reference: the hypotheses
    of [C91_matrices] hold, and the excitation energies appear on the diagonal. *)
Example C91_example_setup : response_setup r_tiny ex_sp None 1 1 r_st r_large t_lit r_O 2 r_h r_g /\ t_anz false t_csf = Ok r_st /\ orthonormal_excitations ex_sp t_csf t_lit r_O "sd".
Proof.
  split; [exact (C55_example_setup r_h (or_introl eq_refl))|]. split.
  - vm_compute. reflexivity.
  - assert (LA : List.length (x_active t_lit r_O "sd") = 2) by (vm_compute; reflexivity). intros i Hi. rewrite LA in *.
    assert (i = 0 \/ i = 1) as [-> | ->] by lia; (split; [apply (f_equal2 Build_q2); apply Qc_is_canon; vm_compute; reflexivity|]);
      intros j Hj; assert (j = 0 \/ j = 1) as [-> | ->] by lia; apply (f_equal2 Build_q2); apply Qc_is_canon; vm_compute; reflexivity.
Qed.
Example C91_example : exists M, t_run r_large r_h = Ok M /\
  map (fun idx => this (qa (M idx))) [[0; 0; 0]; [2; 0; 0]; [0; 5; 5]; [2; 5; 5]; [1; 5; 5]; [0; 6; 6]; [2; 6; 6]; [0; 5; 6] ] =
    [-256 # 25; 16 # 25; -1; 1; 0; -25; 1; 0]%Q.
Proof. eexists. split; [vm_compute; reflexivity|]. vm_compute. reflexivity. Qed.
Example C91_example_refuses : t_run r_large r_h' = Raise ValueError.
Proof. vm_compute. reflexivity. Qed.

(** C91, refuted for a perfect-pairing reference (ups_wavefunction.py 215-261): four
    electrons in four active orbitals, as the wave function sets them up.  The
    reference occupies the first and third orbital but the excitations are still taken out of the
    first two, so some annihilate it; the metric is 1 for these too. *)
Definition pp_ci : ci_info := match get_indexing 4 2 2 with Ok c => c | _ => {| idx2det := []; det2idx := [] |} end.
Definition pp_sp : @space := {| sp_ni := 0; sp_na := 4; sp_nv := 0; sp_ci := pp_ci |}.
Definition pp_O : orbitals := match init_spaces true false 4 4 4 4 with Ok s => orbitals_of s | _ => r_O end.
Definition pp_st : list q2 := map (fun i => if (i =? 7)%nat then q2q 1 1 else q2q 0 1) (seq 0 36).
Definition zero1 (p q : nat) : q2 := rO.
Definition zero2 (p q r s : nat) : q2 := rO.
Definition pp_run := transfer_init r_large t_lit r_tiny pp_sp None (fun _ v => Ok v) pp_O zero1 zero2 pp_st pp_st "s".
(** The determinant of the reference is the one the constructor finds. *)
Example C91_pp_reference : exists p n, pp_det 8 4 8 = Ok p /\ int2 p = Ok n /\ lookup n (det2idx pp_ci) = Some 7%nat.
Proof. eexists. eexists. split; [vm_compute; reflexivity|]. split; vm_compute; reflexivity. Qed.
Lemma id_unitary {K} {C : CRing K} d : unitary_ansatz (fun _ (v : list K) => Ok v) d.
Proof. split; [|split]; [intros dg v Hv; exists v; auto|intros a b a' b' _ _ E1 E2; injection E1 as <-; injection E2 as <-; reflexivity|intros a b a' b' _ _ E1 E2; injection E1 as <-; injection E2 as <-; reflexivity]. Qed.
Section ZeroMetric.
  Context {K : Type} {C : CRing K}.
  Local Open Scope K_scope.
  Add Ring KringZm : (@rth K C).
  Lemma zero_metric (sp : @space) (st : list K) (L : literals) (O : orbitals) exs (phi : nat -> list K) i :
    (i <? List.length (o_kappa O))%nat = false -> (forall x, fket sp (phi (i - List.length (o_kappa O))%nat) x = 0) ->
    ip (2 * (sp_ni sp + sp_na sp + sp_nv sp)) (fket sp st) (comm (TXd sp st L O exs phi i) (TX sp st L O exs phi i) (fket sp st)) = 0.
  Proof.
    intros Hi Hz. rewrite ev_comm. unfold TX, TXd. rewrite Hi.
    match goal with |- ip ?m ?u ?v - ip _ _ ?w = _ => assert (A : ip m u v = 0); [|assert (B : ip m u w = 0); [|rewrite A, B; ring] ] end.
    - apply ip_zero. intros x. rewrite ip_sym, ip_zero by exact Hz. ring.
    - apply ip_zero. intros x. rewrite Hz. ring.
  Qed.
  Lemma zero_fket (sp : @space) (v : list K) : (forall c, In c v -> c = 0) -> forall x, fket sp v x = 0.
  Proof.
    intros Hv x. unfold fket. apply lsum_zero. intros [a c] Hi. apply in_combine_r in Hi. cbn [fst snd]. rewrite (Hv c Hi). now destruct (_ =? _)%N.
  Qed.
End ZeroMetric.
Definition pp_check : bool := match pp_run with Ok M => forallb (fun i => r_tiny (M [2; i; i] - rI)%K) [0; 2; 3] | _ => false end.
Definition pp_kets : bool := match lr_G_ops t_lit pp_O "s" with
  | Ok G => forallb (fun i => match prop r_tiny pp_sp None (fun _ v => Ok v) [nth i G []] pp_st with Ok v => forallb r_tiny v | _ => false end) [0; 2; 3]
  | _ => false end.
Theorem C91_metric_refuted : response_setup r_tiny pp_sp None 2 2 pp_st r_large t_lit pp_O 2 zero1 zero2 /\
  unitary_ansatz (fun _ (v : list q2) => Ok v) (dim (sp_ci pp_sp)) /\
  exists phi, transfer_kets pp_sp (fun _ v => Ok v) pp_st t_lit pp_O "s" phi /\
  exists M, pp_run = Ok M /\ forall i, In i [0; 2; 3] -> M [2; i; i] = rI /\
    ip 8 (fket pp_sp pp_st) (comm (TXd pp_sp pp_st t_lit pp_O "s" phi i) (TX pp_sp pp_st t_lit pp_O "s" phi i) (fket pp_sp pp_st)) = rO.
Proof.
  assert (S : response_setup r_tiny pp_sp None 2 2 pp_st r_large t_lit pp_O 2 zero1 zero2).
  { destruct (C55_example_setup r_h (or_introl eq_refl)) as (_ & _ & (Hf & _) & Hs2 & _ & Hl). split; [|split; [|split; [|split; [|split] ] ] ].
    - split; [exact r_tiny_zero|]. split; [exact r_tiny_zero|]. split; [cbn; lia|]. split; [vm_compute; reflexivity|]. split; [discriminate|vm_compute; reflexivity].
    - apply (f_equal2 Build_q2); apply Qc_is_canon; vm_compute; reflexivity.
    - split; [exact Hf|]. split; [reflexivity|]. split; reflexivity.
    - exact Hs2.
    - unfold orbs_ok. set (o := pp_O). vm_compute in o. subst o. cbn [o_occ o_unocc o_occ_spin o_unocc_spin o_kappa o_kappa_dagger sp_ni sp_na sp_nv pp_sp]. split; [lia|].
      repeat split; cbn [In] in *; try lia; try reflexivity; try contradiction.
    - exact Hl. }
  split; [exact S|]. split; [apply id_unitary|].
  destruct (C91_kets r_tiny pp_sp None (fun _ v => Ok v) 2 2 pp_st pp_st r_large t_lit pp_O 2 zero1 zero2 "s" S (id_unitary _) ltac:(vm_compute; reflexivity)) as (phi & Hphi & _).
  exists phi. split; [exact Hphi|].
  assert (LQ : List.length (o_kappa pp_O) = 0%nat) by (vm_compute; reflexivity).
  assert (LA : List.length (x_active t_lit pp_O "s") = 4%nat) by (vm_compute; reflexivity).
  assert (PC : pp_check = true) by (vm_compute; reflexivity). assert (PK : pp_kets = true) by (vm_compute; reflexivity).
  unfold pp_check in PC. unfold pp_kets in PK. destruct pp_run as [M| | ]; try discriminate PC. exists M. split; [reflexivity|].
  rewrite forallb_forall in PC.
  destruct S as ((Hex & Hsm & Hpos & Hidx & Hth & Hlen) & _ & _ & _ & HO & _).
  destruct (G_ops_ok Hsm 0 4 0 2 t_lit pp_O HO "s") as (G & EG & FG). rewrite EG in PK. rewrite forallb_forall in PK.
  assert (LG : List.length G = 4) by (rewrite (F2_len _ _ _ FG); exact LA).
  intros i Hi. split.
  - specialize (PC i Hi). apply r_tiny_zero in PC. transitivity (M [2; i; i] - rI + rI)%K; [ring|]. rewrite PC. ring.
  - assert (Hi4 : i < 4) by (cbn [In] in Hi; lia). specialize (PK i Hi).
    apply (zero_metric pp_sp pp_st t_lit pp_O "s" phi i); [rewrite LQ; reflexivity|]. rewrite LQ, Nat.sub_0_r.
    assert (OD : OPS (actP (sp_ni pp_sp) (sp_na pp_sp) (sp_ni pp_sp + sp_na pp_sp + sp_nv pp_sp)) (nth i G [])) by (apply (HGok pp_sp t_lit pp_O 2 "s" G FG), nth_In; lia).
    destruct (gapply r_tiny pp_sp None (fun _ v => Ok v) 2 2 Hex Hpos Hidx Hth (nth i G []) pp_st OD Hlen) as (gk & p & l & F).
    rewrite p in PK. rewrite forallb_forall in PK.
    assert (EP : Ok gk = Ok (phi i)).
    { apply Hphi; [rewrite LA; exact Hi4|exact l|]. intros x. rewrite F. destruct (F2_nth _ _ _ FG i [] [] ltac:(lia)) as (_ & FF & _). apply FF. }
    injection EP as <-. apply zero_fket. intros c Hc. apply r_tiny_zero, PK, Hc.
Qed.

(** C91: every unitary product state ansatz of ups_wavefunction.py meets the
    hypothesis on the ansatz. *)
From Coq Require Import Reals.
From Verif Require Import RRing SaPoly GateAlgebra UPSModel UPSProofs UPSSingle UPSState UPSAnsatz UPSRows Props_UPS.
Theorem C91_ups_unitary tiny sp th off struct thetas : sector tiny sp th -> List.Forall (gate_ok (sp_na sp) off) struct -> List.length thetas = List.length struct ->
  unitary_ansatz (fun dagger v => ups_state tiny sp th off struct thetas dagger v) (dim (sp_ci sp)).
Proof.
  intros HS Hg Hl. split; [|split].
  - intros dg v Hv. destruct (C23_dagger_is_inverse tiny sp th off struct thetas v HS Hg Hl Hv dg) as (o & E & Lo & _). exists o. split; [exact E|congruence].
  - intros a b a' b' Ha Hb Ea Eb.
    destruct (C23_dagger_is_inverse tiny sp th off struct thetas b HS Hg Hl Hb true) as (o & Eo & Lo & Ei). cbn [negb] in Ei. rewrite Eb in Eo. injection Eo as <-.
    destruct (C23_scalar_product tiny sp th off struct thetas false a b' HS Hg Ha ltac:(congruence)) as (u & w & Eu & Ew & D).
    rewrite Ea in Eu. injection Eu as <-. rewrite Ei in Ew. injection Ew as <-. exact D.
  - intros a b a' b' Ha Hb Ea Eb. destruct (C23_scalar_product tiny sp th off struct thetas false a b HS Hg Ha Hb) as (u & w & Eu & Ew & D). congruence.
Qed.
Example C91_ups_unitary_case : unitary_ansatz (fun dagger v => ups_state rtiny Props_UPS.ex_sp None 0 Props_UPS.ex_struct (repeat (1 / 3)%R 10) dagger v) 36.
Proof. apply (C91_ups_unitary rtiny Props_UPS.ex_sp None 0 Props_UPS.ex_struct (repeat (1 / 3)%R 10)); try apply C21_example; reflexivity. Qed.

Print Assumptions C91_matrices.
Print Assumptions C91_gradient_check.
Print Assumptions C91_kets.
Print Assumptions C91_metric_refuted.
Print Assumptions C91_ups_unitary.
