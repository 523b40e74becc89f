(** Linear response with every operator projected: what the constructor puts in
    the matrices, and when it refuses. *)
From Coq Require Import List Bool Arith NArith ZArith Ascii String Lia Ring Permutation.
From Coq Require Import QArith Qcanon.
From Verif Require Import Base Fock FockMore FermiModel FermiProofs FermiFold FermiAlgebra OperatorsModel OperatorsProofs OperatorsSums OperatorsActs
  OperatorsActive OperatorsGen OperatorsKeys OperatorsOne Props_Operators CIModel CIProofs StateModel StateProofs StateMore Props_State
  FockInner DensityModel DensityProofs DensityExpect DensityResponse DensityFill DensityState StructModel LRModel LRAlgebra LRProofs LRPools LRProjModel LRProjProofs
  Props_Density Props_Qubit Props_Response Props_Projected LRAllProjModel.
Import ListNotations.
Local Open Scope nat_scope.
Local Open Scope list_scope.

Section AllProjected.
  Context {K : Type} {C : CRing K}.
  Local Open Scope K_scope.
  Add Ring KringAp : (@rth K C).
  Notation act := (amps (K:=K) -> amps (K:=K)).
  Notation lc := (list (fstring * K)).
  Variables (tiny : K -> bool) (sp : @space) (th : threads) (ansatz : bool -> list K -> Res (list K)) (nalpha nbeta : Z) (st : list K).
  Variables (large : K -> bool) (L : @literals K) (O : orbitals) (m : nat) (h : nat -> nat -> K) (g : nat -> nat -> nat -> nat -> K) (excitations : string).
  Hypothesis Hset : response_setup tiny sp th nalpha nbeta st large L O m h g.
  Notation ni := (sp_ni sp).
  Notation na := (sp_na sp).
  Notation N := (sp_ni sp + sp_na sp + sp_nv sp)%nat.
  Notation half := (l_half L).
  Notation H := (Hact half h g N).
  Notation Psi := (fket sp st).
  Notation I u w := (ip (2 * N) u w).
  Notation E F := (ip (2 * N) Psi (F Psi)).
  Notation orb := (x_orbital L O).
  Notation actv := (x_active L O excitations).
  Notation ops := (x_orbital L O ++ x_active L O excitations).
  Notation X i := (opapp (nth i ops [])).
  Notation Xd i := (opapp (lc_adj (nth i ops []))).
  Notation nq := (List.length (o_kappa O)).
  Notation run := (allproj_init large L tiny sp th ansatz O h g st excitations).

  (** The operators of the response equations: [R = X |0><0| - <X>] and its
      adjoint, for orbital rotations and excitations alike. *)
  Notation Rp := (Rp sp st).
  Notation Rpd := (Rpd sp st).
  Notation R i := (Rp (nth i ops [])).
  Notation Rd i := (Rpd (nth i ops [])).
  Definition ap_gradients : list K := flat_map (fun A => [E (comm (Rpd A) H); E (comm (Rp A) H)]) ops.
  Definition ap_A (i j : nat) : K := half * (E (comm (Rd i) (comm H (R j))) + E (comm (comm (Rd i) H) (R j))).
  Definition ap_B (i j : nat) : K := half * (E (comm (Rd i) (comm H (Rd j))) + E (comm (comm (Rd i) H) (Rd j))).

  Let Hw : wf_setup tiny sp th nalpha nbeta st := proj1 Hset.
  Let Hr : real_integrals N half h g := proj1 (proj2 (proj2 Hset)).
  Let HO : orbs_ok ni na (sp_nv sp) m O := proj1 (proj2 (proj2 (proj2 (proj2 Hset)))).
  Let Hex := proj1 Hw.
  Let Hsm : exact_small K := proj1 (proj2 Hw).
  Let Hpos := proj1 (proj2 (proj2 Hw)).
  Let Hidx := proj1 (proj2 (proj2 (proj2 Hw))).
  Let Hth := proj1 (proj2 (proj2 (proj2 (proj2 Hw)))).
  Let Hlen := proj2 (proj2 (proj2 (proj2 (proj2 Hw)))).
  Let Hhalf := proj1 Hr.
  Let AH : adjp N H H := adjp_H half h g N (proj1 (proj2 Hr)) (proj2 (proj2 (proj2 Hr))).
  Notation aP := (actP ni na N).
  Notation sup := (sup sp).
  Notation prop := (prop tiny sp th ansatz).
  Notation expv := (expv tiny sp th ansatz).
  Let gapply' D v := gapply tiny sp th ansatz nalpha nbeta Hex Hpos Hidx Hth D v.
  Let expv_nil' a b := expv_nil tiny sp th ansatz nalpha nbeta Hpos Hidx a b.
  Let expv_one' D a b := expv_one tiny sp th ansatz nalpha nbeta Hex Hpos Hidx Hth D a b.
  Let N1' : I Psi Psi = 1 := N1 tiny sp th nalpha nbeta st large L O m h g Hset.

  Definition H2ok (H2 : lc) : Prop := OPS (bal N) H2 /\ forall f x, asp1 ni na x -> supp1 ni na f -> opapp H2 f x = H f x.
  Lemma H2_ex : exists D, hamiltonian_2i_2a half h g ni na (sp_nv sp) = Ok D /\ H2ok D.
  Proof.
    destruct (hamiltonian_2i_2a_rep Hsm (bal N) (bal_stable N) half h g ni na (sp_nv sp) (PEon_bal N)) as (F & (D & ED & HD & HF) & A).
    exists D. split; [exact ED|]. split; [exact HD|]. intros f x Hx' Hf. rewrite HF. auto.
  Qed.

  Section Values.
    Variables (Q G : list lc) (H2 H1 H0 : lc) (H00 : list K).
    Hypothesis FQ : Forall2 (oact sp) Q orb.
    Hypothesis FG : Forall2 (gact ni na (sp_nv sp) m) G actv.
    Hypothesis HH2 : H2ok H2.
    Hypothesis HH1 : H1ok sp L h g H1.
    Hypothesis HH0 : H0ok sp L h g H0.
    Hypothesis E00 : prop [H0] st = Ok H00.
    Hypothesis L00 : List.length H00 = dim (sp_ci sp).
    Hypothesis F00 : forall x, asp ni na x -> fket sp H00 x = H Psi x.
    Notation s := (List.length Q).
    Notation ng := (List.length G).
    Notation e0 := (I Psi (H Psi)).
    Let HQok' := HQok sp L O Q FQ.
    Let g_nth' i := g_nth tiny sp th nalpha nbeta st large L O m h g excitations Hset Q G FQ FG i.
    Let q_nth' i := q_nth tiny sp th nalpha nbeta st large L O m h g excitations Hset Q G FQ FG i.
    Let x_adj' i : (i < s + ng)%nat -> adjp N (X i) (Xd i) := x_adj tiny sp th nalpha nbeta st large L O m h g excitations Hset Q G FQ FG i.

    Notation gr i := (E (X i)).
    Notation ee i := (I (X i Psi) (H Psi)).
    Notation ss i j := (I (X i Psi) (X j Psi)).
    Notation hh i j := (I (X i Psi) (H (X j Psi))).
    Definition vA (i j : nat) : K := hh i j + gr i * gr j * e0 - ss i j * e0 - half * gr i * ee j - half * gr j * ee i.
    Definition vB (i j : nat) : K := half * ee i * gr j + half * ee j * gr i - gr i * gr j * e0.
    Definition vS (i j : nat) : K := ss i j - gr i * gr j.
    Lemma hh_sym i j : hh i j = hh j i.
    Proof. rewrite (AH (X i Psi) (X j Psi)). apply ip_sym. Qed.
    Lemma vA_sym i j : vA i j = vA j i.
    Proof. unfold vA. rewrite (hh_sym i j), (ip_sym _ (X i Psi) (X j Psi)). ring. Qed.
    Lemma vB_sym i j : vB i j = vB j i.
    Proof. unfold vB. ring. Qed.
    Lemma vS_sym i j : vS i j = vS j i.
    Proof. unfold vS. rewrite (ip_sym _ (X i Psi) (X j Psi)). ring. Qed.

    (** The commutators of the projected operators. *)
    Lemma ap_vals i j : (i < s + ng)%nat -> (j < s + ng)%nat -> ap_A i j = vA i j /\ ap_B i j = vB i j /\ E (comm (Rd i) (R j)) = vS i j /\ E (comm (Rd i) (Rd j)) = 0.
    Proof.
      intros Hi Hj. pose proof (x_adj' i Hi) as Xi. pose proof (x_adj' j Hj) as Xj. unfold ap_A, ap_B.
      change (R i) with (proj N Psi (X i)). change (R j) with (proj N Psi (X j)).
      change (Rd i) with (proj_adj N Psi (X i) (Xd i)). change (Rd j) with (proj_adj N Psi (X j) (Xd j)).
      pose proof (proj_adjp N Psi _ _ Xi) as Ai. pose proof (proj_adjp N Psi _ _ Xj) as Aj.
      pose proof (proj_kill N Psi _ _ Xi) as Ki. pose proof (proj_kill N Psi _ _ Xj) as Kj.
      rewrite (kill_2 N Psi H AH _ _ _ _ Ai Aj Kj), <- (kill_1 N Psi H AH _ _ _ _ Aj Ai Kj).
      rewrite (kill_4 N Psi H AH _ _ _ _ Ai Aj Ki Kj), <- (kill_3 N Psi H AH _ _ _ _ Aj Ai Kj Ki).
      rewrite !(proj_1 N Psi H AH _ _ _ _ Xi Xj N1'), !(proj_1 N Psi H AH _ _ _ _ Xj Xi N1'), !(proj_3 N Psi H AH _ _ _ _ Xi Xj N1'), !(proj_3 N Psi H AH _ _ _ _ Xj Xi N1'), (proj_5 N Psi _ _ _ _ Xi Xj N1').
      rewrite (hh_sym j i), (AH Psi (X i Psi)), (AH Psi (X j Psi)), !(ip_sym _ (H Psi)), (ip_sym _ (X j Psi) (X i Psi)).
      assert (D : forall y, half * (y + y) = y) by (intros y; transitivity ((half + half) * y); [ring|rewrite Hhalf; ring]).
      unfold vA, vB, vS. split; [|split; [|split; [ring|exact (kill_6 N Psi _ _ _ _ Ai Aj Ki Kj)] ] ].
      - match goal with |- half * (?p - ?gi * ?ej + ?gij * ?e - ?sij * ?e + (_ - ?gj * ?ei + _ - _)) = _ => transitivity (half * ((p + gij * e - sij * e) + (p + gij * e - sij * e)) - half * gi * ej - half * gj * ei) end; [ring|].
        rewrite D. ring.
      - match goal with |- half * (?gj * (?ei - ?gi * ?e) + ?gi * (?ej - ?gj * ?e)) = _ => transitivity (half * ei * gj + half * ej * gi - half * (gi * gj * e + gi * gj * e)) end; [ring|].
        rewrite D. ring.
    Qed.

    Lemma aq_kill j u : (j < s)%nat -> sup u -> forall x, Xd j u x = 0.
    Proof. exact (q_kill tiny sp th nalpha nbeta st large L O m h g excitations Hset Q G FQ FG j u). Qed.
    Lemma aq_orth j u w : (j < s)%nat -> sup u -> I u (X j w) = 0.
    Proof. exact (q_orth tiny sp th nalpha nbeta st large L O m h g excitations Hset Q G st FQ FG Hlen j u w). Qed.
    Lemma gr_q j : (j < s)%nat -> gr j = 0.
    Proof. intros Hj. apply aq_orth; [exact Hj|apply (sup_ket sp Hpos)]. Qed.

    (** Rotations with rotations. *)
    Definition pq (j i : nat) : list (list nat * K) := [([0; i; j]%nat, vA i j); ([0; j; i]%nat, vA i j); ([2; i; j]%nat, vS i j); ([2; j; i]%nat, vS i j)].
    Lemma ap_orbital_ok M : ap_orbital_blocks tiny sp th ansatz st e0 H2 Q M = Ok (applyw (flat_map (fun j => flat_map (pq j) (seq j (s - j))) (seq 0 s)) M).
    Proof.
      unfold ap_orbital_blocks. apply (eloop_idx [] 0 Q). intros j M' Hj. cbn [Nat.add]. set (q := nth j Q []).
      destruct (q_nth' j Hj) as (Hq & P1 & P2). fold q in Hq, P1, P2. destruct (HQok' q Hq) as (OQ & _ & _ & _ & Q1 & _).
      replace (s - j)%nat with (List.length (skipn j Q)) by apply skipn_length.
      apply (eloop_idx [] j (skipn j Q)). intros k M'' Hk. rewrite skipn_length in Hk. rewrite nth_skip_p.
      assert (Hi : (j + k < s)%nat) by lia. set (i := (j + k)%nat) in *. clearbody i. clear k Hk. set (q' := nth i Q []).
      destruct (q_nth' i Hi) as (Hq' & P1' & P2'). fold q' in Hq', P1', P2'. destruct (HQok' q' Hq') as (OQ' & EQ' & OQd' & AQ' & Q1' & _).
      pose proof HH2 as (O2 & A2).
      assert (RR : forall A, OPS (bal N) A -> rep (bal N) (Ok A) (opapp A)) by (intros A HA; exists A; auto).
      destruct (rep_mul Hsm (bal N) (bal_stable N) _ _ _ _ (RR _ OQd') (RR _ O2)) as (qH & e1 & O3 & S3). cbn [bind] in e1.
      destruct (rep_mul Hsm (bal N) (bal_stable N) _ _ _ _ (RR _ O3) (RR _ OQ)) as (qHq & e2 & O4 & S4). cbn [bind] in e2.
      destruct (rep_mul Hsm (bal N) (bal_stable N) _ _ _ _ (RR _ OQd') (RR _ OQ)) as (qq & e3 & O5 & S5). cbn [bind] in e3.
      rw EQ'. rw e1. rw e2. rw (expv_one' qHq st st O4 Hlen Hlen). rw e3. rw (expv_one' qq st st O5 Hlen Hlen).
      assert (a : I Psi (opapp qHq Psi) = hh i j).
      { rewrite (ip_ext _ Psi Psi _ _ (fun _ => eq_refl) (S4 Psi)), (ip_ext _ Psi Psi _ _ (fun _ => eq_refl) (S3 (opapp q Psi))), (adjp_flip _ _ _ AQ' Psi).
        rewrite (ip_ext _ _ _ _ _ (fun x => eq_sym (P1' Psi x)) (fun x => Hact_ext half h g N _ _ (fun y => eq_sym (P1 Psi y)) x)).
        apply (ip_supp _ (asp1 ni na) (asp1_dec ni na)); [apply Q1', (sup_ket sp Hpos)|]. intros x Hx. apply A2; [exact Hx|apply Q1, (sup_ket sp Hpos)]. }
      assert (b : I Psi (opapp qq Psi) = ss i j).
      { rewrite (ip_ext _ Psi Psi _ _ (fun _ => eq_refl) (S5 Psi)), (adjp_flip _ _ _ AQ' Psi). now apply ip_ext. }
      rewrite a, b.
      assert (EA : hh i j - ss i j * e0 = vA i j) by (unfold vA; rewrite (gr_q i Hi), (gr_q j Hj); ring).
      assert (ES : ss i j = vS i j) by (unfold vS; rewrite (gr_q i Hi), (gr_q j Hj); ring).
      rewrite EA, ES. reflexivity.
    Qed.
    (** Rotations with excitations. *)
    Definition pmx (j i : nat) : list (list nat * K) := [([0; j; i + s]%nat, hh j (i + s)); ([0; i + s; j]%nat, hh j (i + s))].
    Lemma ap_mixed_ok M : ap_mixed_blocks tiny sp th ansatz st H1 Q G M = Ok (applyw (flat_map (fun j => flat_map (pmx j) (seq 0 ng)) (seq 0 s)) M).
    Proof.
      unfold ap_mixed_blocks. apply (eloop_idx [] 0 Q). intros j M' Hj. cbn [Nat.add]. set (q := nth j Q []).
      destruct (q_nth' j Hj) as (Hq & P1 & P2). fold q in Hq, P1, P2.
      destruct (HQok' q Hq) as (OQ & EQ & OQd & AQ & Q1 & Q0). pose proof HH1 as (O1 & Ha & Hb).
      assert (RR : forall A, OPS (bal N) A -> rep (bal N) (Ok A) (opapp A)) by (intros A HA; exists A; auto).
      destruct (rep_mul Hsm (bal N) (bal_stable N) _ _ _ _ (RR _ O1) (RR _ OQ)) as (Hq' & e1 & O2 & S2). cbn [bind] in e1.
      rw e1. destruct (papply tiny sp th ansatz nalpha nbeta Hex Hpos Hidx Hth Hq' st O2 Hlen) as (hqk & p1 & l1 & F1). rw p1.
      apply (eloop_idx [] 0 G). intros i M'' Hi. cbn [Nat.add]. set (D := nth i G []).
      destruct (g_nth' i Hi) as (HD & G1 & G2 & ED & OD & ODd & SD). fold D in HD, G1, G2, ED, OD, ODd.
      rw ED. rw (expv_one' (dg D) st hqk (OPS_weaken _ (bal N) _ (fun s H => proj1 H) ODd) Hlen l1).
      assert (a : I Psi (opapp (dg D) (fket sp hqk)) = hh j (i + s)).
      { rewrite (ip_ext _ _ _ _ _ (fun _ => eq_refl) (G2 (fket sp hqk))), (adjp_flip _ _ _ (x_adj' (i + s)%nat ltac:(lia)) Psi), (hh_sym j (i + s)%nat).
        apply (ip_asp sp); [exact SD|]. intros x Hx. rewrite F1, S2, Ha by (assumption || apply Q1, (sup_ket sp Hpos)). apply Hact_ext. apply P1. }
      rewrite a. reflexivity.
    Qed.
    (** Excitations with excitations. *)
    Definition pax (j i : nat) : list (list nat * K) :=
      [([0; i + s; j + s]%nat, vA (i + s) (j + s)); ([0; j + s; i + s]%nat, vA (i + s) (j + s));
       ([1; i + s; j + s]%nat, vB (i + s) (j + s)); ([1; j + s; i + s]%nat, vB (i + s) (j + s));
       ([2; i + s; j + s]%nat, vS (i + s) (j + s)); ([2; j + s; i + s]%nat, vS (i + s) (j + s))].
    Lemma ap_active_ok M : ap_active_blocks L tiny sp th ansatz st e0 H1 H0 s G M = Ok (applyw (flat_map (fun j => flat_map (pax j) (seq j (ng - j))) (seq 0 ng)) M).
    Proof.
      unfold ap_active_blocks. apply (eloop_idx [] 0 G). intros j M' Hj. cbn [Nat.add]. set (D := nth j G []).
      destruct (g_nth' j Hj) as (HD & G1 & G2 & ED & OD & ODd & SD). fold D in HD, G1, G2, ED, OD, ODd.
      destruct (gapply' D st OD Hlen) as (gk & p1 & l1 & F1). rw p1.
      destruct (H0apply tiny sp th ansatz nalpha nbeta Hex Hpos Hidx Hth L h g H0 gk HH0 l1) as (hk & p2 & l2 & F2). rw p2.
      replace (ng - j)%nat with (List.length (skipn j G)) by apply skipn_length.
      apply (eloop_idx [] j (skipn j G)). intros k M'' Hk. rewrite skipn_length in Hk. rewrite nth_skip_p.
      assert (Hi : (j + k < ng)%nat) by lia. set (i := (j + k)%nat) in *. clearbody i. clear k Hk. set (D' := nth i G []).
      destruct (g_nth' i Hi) as (HD' & G1' & G2' & ED' & OD' & ODd' & SD'). fold D' in HD', G1', G2', ED', OD', ODd'.
      unfold ap_active_values. destruct (gapply' D' st OD' Hlen) as (gk' & p3 & l3 & F3). rw p3.
      pose proof HH0 as [O0 A0]. pose proof HH1 as (O1 & A1 & A1').
      pose proof (OPS_weaken _ (bal N) _ (fun s H => proj1 H) ODd) as Wd. pose proof (OPS_weaken _ (bal N) _ (fun s H => proj1 H) ODd') as Wd'.
      assert (EX2 : forall Z, OPS aP Z -> expv st [Z; H0] st = Ok (I Psi (opapp Z (fket sp H00)))).
      { intros Z OZ. destruct (gapply' Z H00 OZ L00) as (zk & pz & lz & Fz).
        assert (PZ : prop [Z; H0] st = Ok zk) by (rewrite (prop2 tiny sp th ansatz); rewrite E00; exact pz).
        unfold LRModel.expv, expectation_value. unfold LRModel.prop in PZ. rewrite PZ. cbn [bind]. f_equal.
        rewrite (dot_fket sp nalpha nbeta Hpos Hidx st zk Hlen lz). now apply ip_ext. }
      rewrite !expv_nil' by assumption. cbn [bind].
      rw (expv_one' H1 gk' st O1 l3 Hlen). rw ED'. rw ED.
      rw (EX2 _ ODd'). rw (expv_one' (dg D) st st Wd Hlen Hlen).
      rw (EX2 _ ODd). rw (expv_one' (dg D') st st Wd' Hlen Hlen). cbn [fst snd].
      assert (FJ : forall x, fket sp gk x = X (j + s) Psi x) by (intros x; rewrite F1; apply G1).
      assert (FI : forall x, fket sp gk' x = X (i + s) Psi x) by (intros x; rewrite F3; apply G1').
      assert (FH : forall x, asp ni na x -> fket sp hk x = H (X (j + s) Psi) x) by (intros x Hx; rewrite F2 by exact Hx; apply Hact_ext; exact FJ).
      assert (a1 : I (fket sp gk') (fket sp hk) = hh (i + s) (j + s)) by (rewrite (ip_ext _ _ _ _ _ FI (fun _ => eq_refl)); now apply (ip_asp sp)).
      assert (gi : I (fket sp gk') Psi = gr (i + s)) by (rewrite (ip_ext _ _ _ _ _ FI (fun _ => eq_refl)); apply ip_sym).
      assert (gj : I Psi (fket sp gk) = gr (j + s)) by (now apply ip_ext).
      assert (gj' : I (fket sp gk) Psi = gr (j + s)) by (rewrite ip_sym; exact gj).
      assert (s1 : I (fket sp gk') (fket sp gk) = ss (i + s) (j + s)) by (now apply ip_ext).
      assert (a4 : I Psi (fket sp hk) = ee (j + s)).
      { transitivity (I Psi (H (X (j + s) Psi))); [apply (ip_asp sp); [apply (sup_ket sp Hpos)|exact FH]|]. rewrite (AH Psi (X (j + s) Psi)). apply ip_sym. }
      assert (a5 : I (fket sp gk') (opapp H1 Psi) = ee (i + s)).
      { rewrite (ip_ext _ _ _ _ _ FI (fun _ => eq_refl)). apply (ip_asp sp); [exact SD'|]. intros x Hx. apply A1; [exact Hx|]. apply supp_supp1, (sup_ket sp Hpos). }
      assert (B1 : forall k D, (forall u x, opapp (dg D) u x = Xd (k + s) u x) -> (k < ng)%nat -> sup (X (k + s) Psi) -> I Psi (opapp (dg D) (fket sp H00)) = ee (k + s)).
      { intros k D0 G0 Hk S0. rewrite (ip_ext _ _ _ _ _ (fun _ => eq_refl) (G0 (fket sp H00))), (adjp_flip _ _ _ (x_adj' (k + s)%nat ltac:(lia)) Psi). now apply (ip_asp sp). }
      assert (B2 : forall k D, (forall u x, opapp (dg D) u x = Xd (k + s) u x) -> (k < ng)%nat -> I Psi (opapp (dg D) Psi) = gr (k + s)).
      { intros k D0 G0 Hk. rewrite (ip_ext _ _ _ _ _ (fun _ => eq_refl) (G0 Psi)), (adjp_flip _ _ _ (x_adj' (k + s)%nat ltac:(lia)) Psi). apply ip_sym. }
      rewrite a1, gi, gj, gj', s1, a4, a5, (B1 i D' G2' Hi SD'), (B1 j D G2 Hj SD), (B2 i D' G2' Hi), (B2 j D G2 Hj). reflexivity.
    Qed.

    (** The entries after all the loops. *)
    Definition ap_writes : list (list nat * K) :=
      flat_map (fun j => flat_map (pq j) (seq j (s - j))) (seq 0 s) ++ flat_map (fun j => flat_map (pmx j) (seq 0 ng)) (seq 0 s) ++
      flat_map (fun j => flat_map (pax j) (seq j (ng - j))) (seq 0 ng).
    Definition ap_target (c : list nat) : K :=
      match c with
      | [0; i; j]%nat => if Bool.eqb (i <? s)%nat (j <? s)%nat then vA i j else hh i j
      | [1; i; j]%nat => vB i j
      | [2; i; j]%nat => vS i j
      | _ => 0
      end.
    Lemma in_ap c v : In (c, v) ap_writes <->
      (exists j i, (j <= i < s)%nat /\ In (c, v) (pq j i)) \/ (exists j i, (j < s)%nat /\ (i < ng)%nat /\ In (c, v) (pmx j i)) \/ (exists j i, (j <= i < ng)%nat /\ In (c, v) (pax j i)).
    Proof.
      unfold ap_writes. rewrite !in_app_iff, !in_flat_map. split.
      - intros [(j & Hj & HI)|[(j & Hj & HI)|(j & Hj & HI)] ]; apply in_flat_map in HI as (i & Hi & HI); apply in_seq in Hj, Hi; [left|right; left|right; right]; exists j, i; repeat split; auto; lia.
      - intros [(j & i & Hi & HI)|[(j & i & Hj & Hi & HI)|(j & i & Hi & HI)] ]; [left|right; left|right; right]; exists j; (split; [apply in_seq; lia|]); apply in_flat_map; exists i; (split; [apply in_seq; lia|exact HI]).
    Qed.
    Lemma ap_writes_target c v : In (c, v) ap_writes -> v = ap_target c.
    Proof.
      rewrite in_ap. intros [(j & i & Hi & HI)|[(j & i & Hj & Hi & HI)|(j & i & Hi & HI)] ].
      - assert (A : (j <? s)%nat = true) by (apply Nat.ltb_lt; lia). assert (B : (i <? s)%nat = true) by (apply Nat.ltb_lt; lia).
        repeat (destruct HI as [HI|HI]; [injection HI as <- <-; unfold ap_target; rewrite ?A, ?B; cbn [Bool.eqb]; first [reflexivity|apply vA_sym|apply vS_sym]|]). destruct HI.
      - assert (A : (j <? s)%nat = true) by (apply Nat.ltb_lt; lia). assert (B : (i + s <? s)%nat = false) by (apply Nat.ltb_ge; lia).
        repeat (destruct HI as [HI|HI]; [injection HI as <- <-; unfold ap_target; rewrite ?A, ?B; cbn [Bool.eqb]; first [reflexivity|apply hh_sym]|]). destruct HI.
      - assert (A : (j + s <? s)%nat = false) by (apply Nat.ltb_ge; lia). assert (B : (i + s <? s)%nat = false) by (apply Nat.ltb_ge; lia).
        repeat (destruct HI as [HI|HI]; [injection HI as <- <-; unfold ap_target; rewrite ?A, ?B; cbn [Bool.eqb]; first [reflexivity|apply vA_sym|apply vB_sym|apply vS_sym]|]). destruct HI.
    Qed.
    Lemma ap_entries i j : (i < s + ng)%nat -> (j < s + ng)%nat -> let M := applyw ap_writes (fun _ => 0) in
      M [0; i; j]%nat = (if Bool.eqb (i <? s)%nat (j <? s)%nat then vA i j else hh i j) /\
      M [1; i; j]%nat = (if (i <? s)%nat || (j <? s)%nat then 0 else vB i j) /\
      M [2; i; j]%nat = (if Bool.eqb (i <? s)%nat (j <? s)%nat then vS i j else 0) /\ M [3; i; j]%nat = 0.
    Proof.
      intros Hi Hj M.
      assert (OUT : forall c, (forall v, ~ In (c, v) ap_writes) -> M c = 0).
      { intros c Hc. apply (applyw_out ap_writes (fun _ => 0)). intros HI. apply in_map_iff in HI as ([c' v] & <- & HI). exact (Hc v HI). }
      assert (INN : forall c, (exists v, In (c, v) ap_writes) -> M c = ap_target c).
      { intros c (v & Hc). apply applyw_in; [exact ap_writes_target|]. now apply (in_map fst) in Hc. }
      assert (T3 : M [3; i; j]%nat = 0).
      { apply OUT. intros v HI. apply in_ap in HI as [(j' & i' & Hi' & HI)|[(j' & i' & Hj' & Hi' & HI)|(j' & i' & Hi' & HI)] ]; repeat (destruct HI as [HI|HI]; [discriminate HI|]); destruct HI. }
      clearbody M.
      assert (WQ : (i < s)%nat -> (j < s)%nat -> (exists v, In ([0; i; j]%nat, v) ap_writes) /\ (exists v, In ([2; i; j]%nat, v) ap_writes)).
      { intros Li Lj. destruct (Nat.le_ge_cases j i) as [Hij|Hij]; split; eexists; apply in_ap; left;
          [exists j, i|exists j, i|exists i, j|exists i, j]; (split; [lia|]); unfold pq; cbn [In]; tauto. }
      assert (WG : (s <= i)%nat -> (s <= j)%nat -> forall c, (c < 3)%nat -> exists v, In ([c; i; j]%nat, v) ap_writes).
      { intros Li Lj c Hc. assert (EI : i = (i - s + s)%nat) by lia. assert (EJ : j = (j - s + s)%nat) by lia. rewrite EI, EJ.
        assert (Z : exists v, (exists b a, (b <= a < ng)%nat /\ In ([c; i - s + s; j - s + s]%nat, v) (pax b a))).
        { destruct (Nat.le_ge_cases (j - s) (i - s)) as [Hij|Hij]; destruct c as [|[|[|c]]]; try lia; eexists;
            [exists (j - s)%nat, (i - s)%nat|exists (j - s)%nat, (i - s)%nat|exists (j - s)%nat, (i - s)%nat|exists (i - s)%nat, (j - s)%nat|exists (i - s)%nat, (j - s)%nat|exists (i - s)%nat, (j - s)%nat];
            (split; [lia|]); unfold pax; cbn [In]; tauto. }
        destruct Z as (v & Z). exists v. apply in_ap. right. right. exact Z. }
      assert (WM1 : (i < s)%nat -> (s <= j)%nat -> exists v, In ([0; i; j]%nat, v) ap_writes).
      { intros Li Lj. assert (EJ : j = (j - s + s)%nat) by lia. rewrite EJ. eexists. apply in_ap. right. left. exists i, (j - s)%nat. split; [lia|]. split; [lia|]. unfold pmx; cbn [In]; tauto. }
      assert (WM2 : (s <= i)%nat -> (j < s)%nat -> exists v, In ([0; i; j]%nat, v) ap_writes).
      { intros Li Lj. assert (EI : i = (i - s + s)%nat) by lia. rewrite EI. eexists. apply in_ap. right. left. exists j, (i - s)%nat. split; [lia|]. split; [lia|]. unfold pmx; cbn [In]; tauto. }
      assert (O1 : (i < s \/ j < s)%nat -> M [1; i; j]%nat = 0).
      { intros Hl. apply OUT. intros v HI. apply in_ap in HI as [(j' & i' & Hi' & HI)|[(j' & i' & Hj' & Hi' & HI)|(j' & i' & Hi' & HI)] ];
          repeat (destruct HI as [HI|HI]; [first [discriminate HI|injection HI as; lia]|]); destruct HI. }
      assert (O2 : (i < s <= j \/ j < s <= i)%nat -> M [2; i; j]%nat = 0).
      { intros Hl. apply OUT. intros v HI. apply in_ap in HI as [(j' & i' & Hi' & HI)|[(j' & i' & Hj' & Hi' & HI)|(j' & i' & Hi' & HI)] ];
          repeat (destruct HI as [HI|HI]; [first [discriminate HI|injection HI as; lia]|]); destruct HI. }
      split; [|split; [|split; [|exact T3] ] ].
      - rewrite INN; [reflexivity|]. destruct (Nat.lt_ge_cases i s) as [Li|Li], (Nat.lt_ge_cases j s) as [Lj|Lj]; [now apply WQ|now apply WM1|now apply WM2|apply WG; lia].
      - destruct (Nat.ltb_spec i s) as [Li|Li], (Nat.ltb_spec j s) as [Lj|Lj]; cbn [Datatypes.orb]; [apply O1; lia|apply O1; lia|apply O1; lia|]. rewrite INN; [reflexivity|]. apply WG; lia.
      - destruct (Nat.ltb_spec i s) as [Li|Li], (Nat.ltb_spec j s) as [Lj|Lj]; cbn [Bool.eqb]; [|apply O2; lia|apply O2; lia|]; (rewrite INN; [reflexivity|]); [now apply WQ|apply WG; lia].
    Qed.
  End Values.

  Lemma R_grad A : adjp N (opapp A) (opapp (lc_adj A)) -> (forall x, opapp (lc_adj A) Psi x = 0) ->
    E (comm (Rpd A) H) = E (comm (opapp (lc_adj A)) H) /\ E (comm (Rp A) H) = E (comm (opapp A) H).
  Proof.
    intros AA KA. assert (Z : E (opapp A) = 0) by (rewrite (AA Psi Psi), ip_sym; now apply ip_zero).
    change (Rpd A) with (proj_adj N Psi (opapp A) (opapp (lc_adj A))). change (Rp A) with (proj N Psi (opapp A)).
    pose proof (proj_adjp N Psi _ _ AA) as PA. pose proof (proj_kill N Psi _ _ AA) as PK.
    rewrite !ev_comm. rewrite (adjp_flip _ _ _ PA Psi (H Psi)), (PA Psi (H Psi)), (AH Psi (proj_adj _ _ _ _ _)), (AH Psi (proj _ _ _ _)), (AH Psi (opapp (lc_adj A) Psi)), (AH Psi (opapp A Psi)).
    rewrite (ip_zero _ _ _ PK), (ip_zero _ _ _ KA), (ip_sym _ (proj_adj N Psi (opapp A) (opapp (lc_adj A)) Psi)), (ip_zero _ _ _ PK).
    rewrite (adjp_flip _ _ _ AA Psi (H Psi)), (AA Psi (H Psi)), (ip_sym _ (opapp (lc_adj A) Psi)), (ip_zero _ _ _ KA), (proj_l N Psi _ N1'), (proj_r N Psi _ N1'), Z. split; ring.
  Qed.

  Lemma allproj_run : exists M, run = (if existsb large ap_gradients then Raise ValueError else Ok M) /\
    forall i j, (i < List.length ops)%nat -> (j < List.length ops)%nat ->
      M [2; i; j]%nat = E (comm (Rd i) (R j)) /\ M [3; i; j]%nat = 0 /\ E (comm (Rd i) (Rd j)) = 0 /\
      ((i < nq <-> j < nq)%nat -> M [0; i; j]%nat = ap_A i j /\ M [1; i; j]%nat = ap_B i j) /\
      ((i < nq <= j)%nat -> M [0; i; j]%nat = ap_A i j + half * E (X j) * E (comm H (X i)) /\ M [1; i; j]%nat = ap_B i j - half * E (X j) * E (comm H (X i))) /\
      ((j < nq <= i)%nat -> M [0; i; j]%nat = ap_A i j + half * E (X i) * E (comm H (X j)) /\ M [1; i; j]%nat = ap_B i j - half * E (X i) * E (comm H (X j))).
  Proof.
    unfold allproj_init. destruct (G_ops_ok Hsm ni na (sp_nv sp) m L O HO excitations) as (G & EG & FG). rw EG.
    destruct (q_ops_ok Hsm sp m L O HO) as (Q & EQ & FQ). rw EQ.
    destruct (H1_ex sp Hsm L h g) as (H1 & E1 & HH1). rw E1. destruct (H0_ex sp st Hsm Hpos Hlen L h g) as (H0 & E0 & HH0). rw E0.
    destruct H2_ex as (H2 & E2 & HH2). rw E2.
    rw (energy_ok tiny sp th ansatz nalpha nbeta st large L O m h g Hset H0 HH0).
    destruct (H0apply tiny sp th ansatz nalpha nbeta Hex Hpos Hidx Hth L h g H0 st HH0 Hlen) as (H00 & E00 & L00 & F00).
    unfold allproj_matrices. rewrite (check_orbital_ok tiny sp th ansatz nalpha nbeta st large L O m h g Hset).
    exists (applyw (ap_writes Q G) (fun _ => 0)). pose proof (lenQ sp L O Q FQ) as LQ. pose proof (len_all sp L O m excitations Q G FQ FG) as LA. split.
    - assert (EG' : existsb large ap_gradients = existsb large (gradients sp st L h g orb) || existsb large (flat_map (fun A => [E (comm (Rpd A) H); E (comm (Rp A) H)]) actv)).
      { unfold ap_gradients. rewrite flat_map_app, existsb_app. f_equal. unfold gradients.
        assert (P : forall A, In A orb -> [E (comm (Rpd A) H); E (comm (Rp A) H)] = [E (comm (opapp (lc_adj A)) H); E (comm (opapp A) H)]).
        { intros A HA. destruct (In_nth _ _ [] HA) as (k & Hk & EK). assert (Hk' : (k < List.length Q)%nat) by (unfold x_orbital in Hk; rewrite map_length in Hk; lia).
          assert (EN : nth k ops [] = A) by (rewrite app_nth1 by exact Hk; exact EK).
          pose proof (x_adj tiny sp th nalpha nbeta st large L O m h g excitations Hset Q G FQ FG k ltac:(lia)) as AK. rewrite EN in AK.
          pose proof (aq_kill Q G FQ FG k Psi Hk' (sup_ket sp Hpos st)) as KK. rewrite EN in KK. destruct (R_grad A AK KK) as [-> ->]. reflexivity. }
        revert P. generalize orb. intros l. induction l as [|A l IH]; intros P; [reflexivity|]. cbn [flat_map]. rewrite !existsb_app, (P A (or_introl eq_refl)), IH; [reflexivity|]. intros B HB. apply P. now right. }
      rewrite EG'. destruct (existsb large (gradients sp st L h g orb)); [reflexivity|]. cbn [bind Datatypes.orb]. rw E00.
      rewrite (p_check_ok tiny sp th ansatz nalpha nbeta st large L O m h g excitations Hset G H00 FG L00 F00). destruct (existsb large (flat_map _ actv)); [reflexivity|]. cbn [bind].
      rw (ap_orbital_ok Q G H2 H00 FQ FG HH2 L00 (fun _ => 0)).
      match goal with |- context [ap_mixed_blocks _ _ _ _ _ _ _ _ ?M1] => rw (ap_mixed_ok Q G H1 H00 FQ FG HH1 L00 M1) end.
      match goal with |- context [ap_active_blocks _ _ _ _ _ _ _ _ _ _ _ ?M2] => rewrite (ap_active_ok Q G H1 H0 H00 FQ FG HH1 HH0 E00 L00 F00 M2) end.
      unfold ap_writes. rewrite !applyw_app. reflexivity.
    - intros i j Hi Hj. rewrite <- LA in Hi, Hj. rewrite <- LQ. set (s := List.length Q) in *.
      destruct (ap_vals Q G FQ FG i j Hi Hj) as (VA & VB & VS & V3). destruct (ap_entries Q G st Hlen i j Hi Hj) as (M0 & M1 & M2 & M3). fold s in M0, M1, M2.
      set (M := applyw (ap_writes Q G) (fun _ => 0)) in *. clearbody M.
      assert (GQ : forall k, (k < s)%nat -> E (X k) = 0) by (intros k Hk; apply (gr_q Q G FQ FG k Hk)).
      assert (OO : forall k, (k < s)%nat -> E (comm H (X k)) = I (X k Psi) (H Psi)).
      { intros k Hk. exact (oo_val tiny sp th nalpha nbeta st large L O m h g excitations Hset Q G st FQ FG Hlen k Hk). }
      assert (SG : forall k, (s <= k < s + List.length G)%nat -> sup (X k Psi)).
      { intros k Hk. destruct (g_nth tiny sp th nalpha nbeta st large L O m h g excitations Hset Q G FQ FG (k - s)%nat ltac:(lia)) as (_ & _ & _ & _ & _ & _ & SD).
        fold s in SD. replace (k - s + s)%nat with k in SD by lia. exact SD. }
      assert (SZ : forall a b, (a < s)%nat -> (s <= b < s + List.length G)%nat -> I (X b Psi) (X a Psi) = 0) by (intros a b Ha Hb; apply (aq_orth Q G FQ FG a _ Psi Ha), SG, Hb).
      assert (ZS : M [2; i; j]%nat = E (comm (Rd i) (R j))).
      { rewrite VS, M2. destruct (Nat.ltb_spec i s) as [Li|Li], (Nat.ltb_spec j s) as [Lj|Lj]; cbn [Bool.eqb]; try reflexivity; unfold vS.
        - rewrite (ip_sym _ (X i Psi)), SZ by lia. rewrite (GQ i Li). ring.
        - rewrite SZ by lia. rewrite (GQ j Lj). ring. }
      split; [exact ZS|]. split; [exact M3|]. split; [exact V3|]. rewrite VA, VB, M0, M1. clear VA VB VS V3 M0 M1 M2 M3 ZS. unfold vA, vB.
      split; [|split].
      + intros Hij. destruct (Nat.ltb_spec i s) as [Li|Li], (Nat.ltb_spec j s) as [Lj|Lj]; cbn [Bool.eqb Datatypes.orb]; try (exfalso; lia); (split; [reflexivity|]); [|reflexivity].
        rewrite (GQ i Li), (GQ j Lj). ring.
      + intros [Li Lj]. apply Nat.ltb_lt in Li as Ti. apply Nat.ltb_ge in Lj as Tj. rewrite Ti, Tj. cbn [Bool.eqb Datatypes.orb]. rewrite (ip_sym _ (X i Psi) (X j Psi)), SZ, (GQ i Li), (OO i Li) by lia. split; ring.
      + intros [Lj Li]. apply Nat.ltb_ge in Li as Ti. apply Nat.ltb_lt in Lj as Tj. rewrite Ti, Tj. cbn [Bool.eqb Datatypes.orb]. rewrite SZ, (GQ j Lj), (OO j Lj) by lia. split; ring.
  Qed.

  (** C87: with no large gradient the constructor succeeds.  With every operator
      replaced by its projected form the metric is [<[R_i†, R_j]>], and the Hessian
      blocks of two rotations or two excitations are the symmetrised double
      commutators.  Between a rotation and an excitation the entries differ from
      them by a multiple of the orbital gradient, so they agree at a stationary
      point. *)
  Theorem C87_matrices : (forall x, In x ap_gradients -> large x = false) ->
    exists M, run = Ok M /\
    forall i j, (i < List.length ops)%nat -> (j < List.length ops)%nat ->
      M [2; i; j]%nat = E (comm (Rd i) (R j)) /\ M [3; i; j]%nat = 0 /\ E (comm (Rd i) (Rd j)) = 0 /\
      ((i < nq <-> j < nq)%nat -> M [0; i; j]%nat = ap_A i j /\ M [1; i; j]%nat = ap_B i j) /\
      ((i < nq <= j)%nat -> M [0; i; j]%nat = ap_A i j + half * E (X j) * E (comm H (X i)) /\ M [1; i; j]%nat = ap_B i j - half * E (X j) * E (comm H (X i))) /\
      ((j < nq <= i)%nat -> M [0; i; j]%nat = ap_A i j + half * E (X i) * E (comm H (X j)) /\ M [1; i; j]%nat = ap_B i j - half * E (X i) * E (comm H (X j))).
  Proof.
    intros Hl. destruct allproj_run as (M & ER & HM). exists M. split; [|exact HM]. rewrite ER.
    destruct (existsb large ap_gradients) eqn:EX; [|reflexivity]. apply existsb_exists in EX as (x & Hx & Hlx). rewrite (Hl x Hx) in Hlx. discriminate.
  Qed.
  (** C87: it raises ValueError exactly when the gradient of some projected
      operator is large. *)
  Theorem C87_gradient_check : run = Raise ValueError <-> exists x, In x ap_gradients /\ large x = true.
  Proof.
    destruct allproj_run as (M & ER & _). rewrite ER, <- existsb_exists. destruct (existsb large ap_gradients); split; congruence.
  Qed.
  (** C87: where the orbital gradient vanishes every entry of the Hessian is the
      symmetrised double commutator, and [B] vanishes wherever a rotation is
      involved. *)
  Theorem C87_stationary : (forall x, In x ap_gradients -> large x = false) -> (forall i, (i < nq)%nat -> E (comm H (X i)) = 0) ->
    exists M, run = Ok M /\ forall i j, (i < List.length ops)%nat -> (j < List.length ops)%nat ->
      M [0; i; j]%nat = ap_A i j /\ M [1; i; j]%nat = ap_B i j /\ M [2; i; j]%nat = E (comm (Rd i) (R j)).
  Proof.
    intros Hl Hs. destruct (C87_matrices Hl) as (M & ER & HM). exists M. split; [exact ER|]. intros i j Hi Hj.
    destruct (HM i j Hi Hj) as (M2 & _ & _ & D & M01 & M10). destruct (Nat.lt_ge_cases i nq) as [Li|Li], (Nat.lt_ge_cases j nq) as [Lj|Lj].
    - destruct D as [D0 D1]; [lia|]. repeat split; assumption.
    - destruct M01 as [D0 D1]; [lia|]. rewrite D0, D1, (Hs i Li). repeat split; [ring|ring|exact M2].
    - destruct M10 as [D0 D1]; [lia|]. rewrite D0, D1, (Hs j Lj). repeat split; [ring|ring|exact M2].
    - destruct D as [D0 D1]; [lia|]. repeat split; assumption.
  Qed.
End AllProjected.

(** * Examples *)
Add Ring q2ring_ap : (@rth q2 _).
Definition ap_run large h := allproj_init large r_lit r_tiny ex_sp None (fun _ s => Ok s) r_O h r_g r_st "sd".
(** The stationary state and integrals of [C55_example]. *)
Example C87_example : exists M, ap_run r_large r_h = Ok M /\
  map (fun idx => this (qa (M idx))) [[0; 0; 0]; [2; 0; 0]; [0; 5; 5]; [2; 5; 5]; [0; 6; 6]; [2; 6; 6]] =
    [-256 # 25; 16 # 25; -9 # 25; 9 # 25; -648 # 25; 648 # 625]%Q.
Proof. eexists. split; [vm_compute; reflexivity|]. vm_compute. reflexivity. Qed.
(** The hypotheses of [C87_stationary] hold there. *)
Example C87_example_stationary : (forall x, In x (ap_gradients ex_sp r_st r_lit r_O r_h r_g "sd") -> r_large x = false) /\
  forall i, (i < List.length (o_kappa r_O)) ->
    ip (2 * 4) (fket ex_sp r_st) (comm (Hact (l_half r_lit) r_h r_g 4) (opapp (nth i (x_orbital r_lit r_O ++ x_active r_lit r_O "sd") [])) (fket ex_sp r_st)) = rO.
Proof.
  split.
  - intros x Hx. destruct (r_large x) eqn:EX; [|reflexivity]. exfalso.
    assert (P : ap_run r_large r_h = Raise ValueError).
    { apply (C87_gradient_check r_tiny ex_sp None (fun _ s => Ok s) 1 1 r_st r_large r_lit r_O 2 r_h r_g "sd" (C55_example_setup r_h (or_introl eq_refl))). exists x. split; [exact Hx|exact EX]. }
    destruct C87_example as (M & EM & _). pose proof (eq_trans (eq_sym EM) P) as Z. clear - Z. discriminate Z.
  - intros i Hi. assert (LK : List.length (o_kappa r_O) = 5) by reflexivity. rewrite LK in Hi.
    do 5 (destruct i as [|i]; [clear; (match goal with |- ?a = _ => set (v := a) end; assert (W : v = {| qa := 0%Qc; qb := 0%Qc |}) by (apply (f_equal2 Build_q2); apply Qc_is_canon; vm_compute; reflexivity); exact W)|]). lia.
Qed.
Example C87_example_refuses : ap_run r_large r_h' = Raise ValueError.
Proof. vm_compute. reflexivity. Qed.
(** C87, refuted: where the gradient check lets an orbital gradient through (here
    it lets everything through), the mixed entries of the Hessian are not the
    symmetrised double commutators of the projected operators: the code leaves
    [B] at zero there although it is not. *)
Theorem C87_mixed_refuted : response_setup r_tiny ex_sp None 1 1 r_st (fun _ => false) r_lit r_O 2 r_h' r_g /\
  exists M, ap_run (fun _ => false) r_h' = Ok M /\
    M [0; 0; 6] <> ap_A ex_sp r_st r_lit r_O r_h' r_g "sd" 0 6 /\ M [1; 0; 6] = rO /\ M [1; 0; 6] <> ap_B ex_sp r_st r_lit r_O r_h' r_g "sd" 0 6.
Proof.
  assert (S : response_setup r_tiny ex_sp None 1 1 r_st (fun _ => false) r_lit r_O 2 r_h' r_g).
  { destruct (C55_example_setup r_h' (or_intror eq_refl)) as (S1 & S2 & S3 & S4 & S5 & _). repeat (split; [assumption|]). reflexivity. }
  split; [exact S|]. unfold ap_run.
  destruct (C87_matrices r_tiny ex_sp None (fun _ s => Ok s) 1 1 r_st (fun _ => false) r_lit r_O 2 r_h' r_g "sd" S (fun _ _ => eq_refl)) as (M & EM & HM).
  exists M. split; [exact EM|].
  assert (LO : List.length (x_orbital r_lit r_O ++ x_active r_lit r_O "sd") = 7) by (vm_compute; reflexivity). rewrite LO in HM.
  destruct (HM 0 6 ltac:(lia) ltac:(lia)) as (_ & _ & _ & _ & D & _). clear HM. destruct D as (D0 & D1); [vm_compute; lia|].
  assert (B0 : M [1; 0; 6] = rO).
  { assert (EX : exists M', allproj_init (fun _ => false) r_lit r_tiny ex_sp None (fun _ s => Ok s) r_O r_h' r_g r_st "sd" = Ok M' /\ M' [1; 0; 6] = rO).
    { eexists. split; [vm_compute; reflexivity|]. apply (f_equal2 Build_q2); apply Qc_is_canon; vm_compute; reflexivity. }
    destruct EX as (M' & EM' & Z). assert (M' = M) by congruence. now subst M'. }
  match type of D0 with _ = (_ + _ * ?a * ?b)%K => set (u := a) in *; set (v := b) in * end.
  assert (V : u = {| qa := 0%Qc; qb := Q2Qc (24 # 25) |}) by (apply (f_equal2 Build_q2); apply Qc_is_canon; vm_compute; reflexivity).
  assert (W : v = {| qa := 0%Qc; qb := Q2Qc (16 # 25) |}) by (apply (f_equal2 Build_q2); apply Qc_is_canon; vm_compute; reflexivity).
  clearbody u v. subst u v.
  split; [|split; [exact B0|] ].
  - rewrite D0. intros Z. match type of Z with (?x + ?y)%K = _ => assert (Y : y = rO) by (transitivity (x + y - x)%K; [ring|rewrite Z; ring]) end. apply (f_equal qa) in Y. vm_compute in Y. discriminate.
  - rewrite D1. intros Z. match type of Z with (?x - ?y)%K = _ => assert (Y : y = rO) by (transitivity (x - (x - y))%K; [ring|rewrite Z; ring]) end. apply (f_equal qa) in Y. vm_compute in Y. discriminate.
Qed.

Print Assumptions C87_matrices.
Print Assumptions C87_gradient_check.
Print Assumptions C87_stationary.
Print Assumptions C87_mixed_refuted.
