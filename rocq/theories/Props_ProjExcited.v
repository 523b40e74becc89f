(** Norms and transition dipoles of the projected linear response classes. *)
From Coq Require Import List Bool Arith NArith ZArith Ascii String Lia Ring Permutation.
From Coq Require Import QArith Qcanon.
From Verif Require Import Base Fock FockMore FermiModel FermiProofs FermiFold FermiAlgebra OperatorsModel OperatorsProofs OperatorsSums OperatorsActs
  OperatorsActive OperatorsGen OperatorsKeys OperatorsOne Props_Operators CIModel CIProofs StateModel StateProofs StateMore Props_State
  FockInner DensityModel DensityProofs DensityExpect DensityResponse DensityFill DensityState StructModel LRModel LRAlgebra LRProofs LRPools LRPropModel LRProjModel LRProjProofs
  Props_Density Props_Qubit Props_Response Props_Excited Props_Projected LRAllProjModel Props_AllProjected LRProjPropModel.
Import ListNotations.
Local Open Scope nat_scope.
Local Open Scope list_scope.

(** ** Families of operators whose adjoints annihilate a state *)
Section Family.
  Context {K : Type} {C : CRing K}.
  Local Open Scope K_scope.
  Add Ring KringPe : (@rth K C).
  Notation act := (amps (K:=K) -> amps (K:=K)).
  Variables (n : nat) (f : amps (K:=K)) (size : nat) (R Rd : nat -> act).
  Notation I u w := (ip (2 * n) u w).
  Notation E F := (I f (F f)).
  (** The operator of a column [(Z, Y)]: [sum_i Z_i R_i^+ + Y_i R_i], and its adjoint. *)
  Definition fam_T (v : nat -> K) : act := fun u x => lsum (seq 0 size) (fun i => v i * Rd i u x + v (size + i)%nat * R i u x).
  Definition fam_Td (v : nat -> K) : act := fun u x => lsum (seq 0 size) (fun i => v i * R i u x + v (size + i)%nat * Rd i u x).
  Hypothesis HA : forall i, (i < size)%nat -> adjp n (R i) (Rd i).
  Hypothesis HK : forall i, (i < size)%nat -> forall x, Rd i f x = 0.

  Lemma ip_two (u : amps) l (a b : nat -> K) (F G : nat -> amps) :
    I u (fun e => lsum l (fun i => a i * F i e + b i * G i e)) = lsum l (fun i => a i * I u (F i) + b i * I u (G i)).
  Proof.
    rewrite (ip_ext _ u u _ (fun e => lsum l (fun i => a i * F i e) + lsum l (fun i => b i * G i e)) (fun _ => eq_refl)) by (intros; now rewrite <- lsum_add).
    rewrite (ip_add _ u (fun e => lsum l (fun i => a i * F i e)) (fun e => lsum l (fun i => b i * G i e))), !Props_Excited.ip_lsum, <- lsum_add. reflexivity.
  Qed.
  Lemma fam_adj v : adjp n (fam_T v) (fam_Td v).
  Proof.
    intros u w. unfold fam_T, fam_Td. rewrite (ip_two u _ v (fun i => v (size + i)%nat) (fun i => Rd i w) (fun i => R i w)).
    rewrite (ip_sym _ _ w), (ip_two w _ v (fun i => v (size + i)%nat) (fun i => R i u) (fun i => Rd i u)). apply lsum_ext. intros i Hi. apply in_seq in Hi.
    rewrite (adjp_flip _ _ _ (HA i ltac:(lia)) u w), (HA i ltac:(lia) u w), (ip_sym _ (R i u)), (ip_sym _ (Rd i u)). reflexivity.
  Qed.
  Lemma fam_f v u : I u (fam_T v f) = lsum (seq 0 size) (fun i => v (size + i)%nat * I u (R i f)) /\ I u (fam_Td v f) = lsum (seq 0 size) (fun i => v i * I u (R i f)).
  Proof.
    unfold fam_T, fam_Td. rewrite (ip_two u _ v (fun i => v (size + i)%nat) (fun i => Rd i f) (fun i => R i f)), (ip_two u _ v (fun i => v (size + i)%nat) (fun i => R i f) (fun i => Rd i f)).
    split; apply lsum_ext; intros i Hi; apply in_seq in Hi; rewrite (ip_zero _ u _ (HK i ltac:(lia))); ring.
  Qed.
  Lemma fam_norm v : E (comm (fam_T v) (fam_Td v)) =
    lsum (seq 0 size) (fun i => lsum (seq 0 size) (fun j => E (comm (Rd i) (R j)) * (v i * v j - v (size + i)%nat * v (size + j)%nat))).
  Proof.
    rewrite ev_comm, (fam_adj v f (fam_Td v f)), (adjp_flip _ _ _ (fam_adj v) f (fam_T v f)), (proj1 (fam_f v _)), (proj2 (fam_f v _)).
    match goal with |- ?a - ?b = _ => replace (a - b) with (a + (- (1)) * b) by ring end. rewrite <- lsum_scale, <- lsum_add. apply lsum_ext. intros i Hi. apply in_seq in Hi.
    rewrite (ip_sym _ (fam_Td v f)), (ip_sym _ (fam_T v f)), (proj1 (fam_f v _)), (proj2 (fam_f v _)).
    match goal with |- ?x * ?a + - (1) * (?y * ?b) = _ => replace (x * a + - (1) * (y * b)) with (x * a + (- y) * b) by ring end.
    rewrite <- !lsum_scale, <- lsum_add. apply lsum_ext. intros j Hj. apply in_seq in Hj.
    rewrite (kill_5 n f (R i) (Rd i) (R j) (Rd j) (HA i ltac:(lia)) (HA j ltac:(lia)) (HK i ltac:(lia))). ring.
  Qed.
  Lemma fam_dip v Mu : adjp n Mu Mu -> E (comm Mu (fam_T v)) = lsum (seq 0 size) (fun i => (v (size + i)%nat - v i) * I (R i f) (Mu f)).
  Proof.
    intros AM. rewrite ev_comm, (AM f (fam_T v f)), (fam_adj v f (Mu f)), (proj1 (fam_f v _)), (ip_sym _ (fam_Td v f)), (proj2 (fam_f v _)).
    match goal with |- ?a - ?b = _ => replace (a - b) with (a + (- (1)) * b) by ring end. rewrite <- lsum_scale, <- lsum_add. apply lsum_ext. intros i _.
    rewrite (ip_sym _ (Mu f) (R i f)). ring.
  Qed.
  (** The norm the code computes, when the metric has no mixed blocks. *)
  Lemma fam_excited_norm (M : list nat -> K) nq v : (nq <= size)%nat ->
    (forall i j, (i < size)%nat -> (j < size)%nat -> M [2; i; j]%nat = E (comm (Rd i) (R j)) /\ ((i < nq <= j \/ j < nq <= i)%nat -> M [2; i; j]%nat = 0)) ->
    excited_norm (lr_metric M size) nq (size - nq) v = E (comm (fam_T v) (fam_Td v)).
  Proof.
    intros Hnq HM. rewrite fam_norm. unfold excited_norm. set (nG := (size - nq)%nat). assert (ES : size = (nq + nG)%nat) by (unfold nG; lia).
    assert (HMet : forall i j, (i < size)%nat -> (j < size)%nat -> lr_metric M size i j = E (comm (Rd i) (R j))).
    { intros i j Hi Hj. unfold lr_metric, block2. apply Nat.ltb_lt in Hi as Hi', Hj as Hj'. rewrite Hi', Hj'. now apply HM. }
    assert (HX : forall i j, (i < nq <= j \/ j < nq <= i)%nat -> (i < size)%nat -> (j < size)%nat -> E (comm (Rd i) (R j)) = 0).
    { intros i j Hij Hi Hj. destruct (HM i j Hi Hj) as [<- Z]. now apply Z. }
    clearbody nG. clear HM.
    assert (SP : forall F : nat -> K, lsum (seq 0 size) F = lsum (seq 0 nq) F + lsum (seq 0 nG) (fun i => F (nq + i)%nat)) by (intros F; rewrite ES; apply lsum_seq_app).
    rewrite SP. f_equal.
    - apply lsum_ext. intros i Hi. apply in_seq in Hi. rewrite SP. rewrite (lsum_zero (seq 0 nG)).
      2:{ intros j Hj. apply in_seq in Hj. rewrite HX by lia. ring. }
      match goal with |- ?a = ?b + 0 => transitivity b; [|ring] end. apply lsum_ext.
      intros j Hj. apply in_seq in Hj. rewrite HMet by lia. do 3 f_equal; f_equal; lia.
    - apply lsum_ext. intros i Hi. apply in_seq in Hi. rewrite SP. rewrite (lsum_zero (seq 0 nq)).
      2:{ intros j Hj. apply in_seq in Hj. rewrite HX by lia. ring. }
      match goal with |- ?a = 0 + ?b => transitivity b; [|ring] end. apply lsum_ext.
      intros j Hj. apply in_seq in Hj. rewrite HMet by lia. do 3 f_equal; f_equal; lia.
  Qed.
  Lemma eloop_sum {A} (d : A) start (l : list A) (body : nat -> A -> K -> Res K) (F : nat -> K) a :
    (forall i c, (i < List.length l)%nat -> body (start + i)%nat (nth i l d) c = Ok (c + F (start + i)%nat)) ->
    eloop start l body a = Ok (a + lsum (seq start (List.length l)) F).
  Proof.
    unfold eloop. revert start a. induction l as [|x l IH]; intros start a H.
    - cbn [List.length seq combine fold_left]. change (lsum [] F) with (0 : K). f_equal. ring.
    - cbn [List.length seq combine fold_left bind fst snd]. pose proof (H 0%nat a ltac:(cbn; lia)) as H0. rewrite Nat.add_0_r in H0. cbn [nth] in H0. rewrite H0.
      rewrite (IH (S start) (a + F start)).
      + f_equal. rewrite lsum_cons. ring.
      + intros i c Hi. specialize (H (S i) c ltac:(cbn; lia)). cbn [nth] in H. replace (S start + i)%nat with (start + S i)%nat by lia. exact H.
  Qed.
End Family.

Section ProjExcited.
  Context {K : Type} {C : CRing K}.
  Local Open Scope K_scope.
  Add Ring KringPf : (@rth K C).
  Notation act := (amps (K:=K) -> amps (K:=K)).
  Notation lc := (list (fstring * K)).
  Variables (tiny : K -> bool) (sp : @space) (th : threads) (ansatz : bool -> list K -> Res (list K)) (nalpha nbeta : Z) (st : list K).
  Variables (large : K -> bool) (L : @literals K) (O : orbitals) (m : nat) (h : nat -> nat -> K) (g : nat -> nat -> nat -> nat -> K) (excitations : string).
  Hypothesis Hset : response_setup tiny sp th nalpha nbeta st large L O m h g.
  Notation ni := (sp_ni sp).
  Notation na := (sp_na sp).
  Notation N := (sp_ni sp + sp_na sp + sp_nv sp)%nat.
  Notation Psi := (fket sp st).
  Notation I u w := (ip (2 * N) u w).
  Notation E F := (ip (2 * N) Psi (F Psi)).
  Notation ops := (x_orbital L O ++ x_active L O excitations).
  Notation size := (List.length ops).
  Notation X i := (opapp (nth i ops [])).
  Notation Xd i := (opapp (lc_adj (nth i ops []))).
  Notation nq := (List.length (o_kappa O)).
  Notation p_run := (proj_init large L tiny sp th ansatz O h g st excitations).
  Notation ap_run := (allproj_init large L tiny sp th ansatz O h g st excitations).

  (** The operators of the two classes: excitations projected, or everything. *)
  Notation PX := (PX sp st L O excitations).
  Notation PXd := (PXd sp st L O excitations).
  Notation R := (fun i => Rp sp st (nth i ops [])).
  Notation Rd := (fun i => Rpd sp st (nth i ops [])).
  Notation p_T := (fam_T size PX PXd).
  Notation p_Td := (fam_Td size PX PXd).
  Notation ap_T := (fam_T size R Rd).
  Notation ap_Td := (fam_Td size R Rd).

  Let Hw : wf_setup tiny sp th nalpha nbeta st := proj1 Hset.
  Let HO : orbs_ok ni na (sp_nv sp) m O := proj1 (proj2 (proj2 (proj2 (proj2 Hset)))).
  Let Hex := proj1 Hw.
  Let Hsm : exact_small K := proj1 (proj2 Hw).
  Let Hpos := proj1 (proj2 (proj2 Hw)).
  Let Hidx := proj1 (proj2 (proj2 (proj2 Hw))).
  Let Hth := proj1 (proj2 (proj2 (proj2 (proj2 Hw)))).
  Let Hlen := proj2 (proj2 (proj2 (proj2 (proj2 Hw)))).
  Notation aP := (actP ni na N).
  Notation sup := (sup sp).
  Notation prop := (prop tiny sp th ansatz).
  Notation expv := (expv tiny sp th ansatz).
  Let expv_nil' a b := expv_nil tiny sp th ansatz nalpha nbeta Hpos Hidx a b.
  Let N1' : I Psi Psi = 1 := N1 tiny sp th nalpha nbeta st large L O m h g Hset.

  Lemma size_nq : (nq <= size)%nat.
  Proof. apply nq_size. Qed.
  Lemma r_adj i : (i < size)%nat -> adjp N (X i) (Xd i).
  Proof. apply (ops_adj tiny sp th nalpha nbeta st large L O m h g excitations Hset). Qed.
  Lemma R_adj i : (i < size)%nat -> adjp N (R i) (Rd i).
  Proof. intros Hi. exact (proj_adjp N Psi _ _ (r_adj i Hi)). Qed.
  Lemma R_kill i : (i < size)%nat -> forall x, Rd i Psi x = 0.
  Proof. intros Hi. exact (proj_kill N Psi _ _ (r_adj i Hi)). Qed.
  Lemma P_adj i : (i < size)%nat -> adjp N (PX i) (PXd i).
  Proof. intros Hi. now apply (C84_killers tiny sp th ansatz nalpha nbeta st large L O m h g excitations Hset i). Qed.
  Lemma P_kill i : (i < size)%nat -> forall x, PXd i Psi x = 0.
  Proof. intros Hi. now apply (C84_killers tiny sp th ansatz nalpha nbeta st large L O m h g excitations Hset i). Qed.

  (** C88: the norm of an excitation is [<[T, T^+]>] with the projected operators
      in [T = sum_i Z_i R_i^+ + Y_i R_i]: projected class. *)
  Theorem C88_projected_norm M : p_run = Ok M -> forall v, excited_norm (lr_metric M size) nq (size - nq) v = E (comm (p_T v) (p_Td v)).
  Proof.
    intros ER v. destruct (proj_run tiny sp th ansatz nalpha nbeta st large L O m h g excitations Hset) as (M' & ER' & HM).
    assert (M' = M) as ->. { rewrite ER in ER'. destruct (existsb _ _); [discriminate|]. congruence. }
    apply (fam_excited_norm N Psi size PX PXd P_adj P_kill M nq v size_nq). intros i j Hi Hj. destruct (HM i j Hi Hj) as (S & _ & _ & _ & _ & Z1 & Z2). split; [exact S|].
    intros [Hij|Hij]; [now apply Z1|now apply Z2].
  Qed.
  (** C88: the same for the all-projected class. *)
  Theorem C88_all_projected_norm M : ap_run = Ok M -> forall v, excited_norm (lr_metric M size) nq (size - nq) v = E (comm (ap_T v) (ap_Td v)).
  Proof.
    intros ER v. destruct (allproj_run tiny sp th ansatz nalpha nbeta st large L O m h g excitations Hset) as (M' & ER' & HM).
    assert (M' = M) as ->. { rewrite ER in ER'. destruct (existsb _ _); [discriminate|]. congruence. }
    apply (fam_excited_norm N Psi size R Rd R_adj R_kill M nq v size_nq). intros i j Hi Hj. destruct (HM i j Hi Hj) as (S & _). split; [exact S|]. intros Hij. rewrite S.
    rewrite (kill_5 N Psi (R i) (Rd i) (R j) (Rd j) (R_adj i Hi) (R_adj j Hj) (R_kill i Hi)).
    destruct (G_ops_ok Hsm ni na (sp_nv sp) m L O HO excitations) as (G & _ & FG). destruct (q_ops_ok Hsm sp m L O HO) as (Q & _ & FQ).
    pose proof (lenQ sp L O Q FQ) as LQ. pose proof (len_all sp L O m excitations Q G FQ FG) as LA.
    assert (ZZ : forall a b, (a < nq)%nat -> (nq <= b < size)%nat -> I (R a Psi) (R b Psi) = 0).
    { intros a b Ha Hb. transitivity (I (proj N Psi (X a) Psi) (proj N Psi (X b) Psi)); [reflexivity|]. rewrite (proj_l N Psi _ N1'), !(proj_r N Psi _ N1').
      assert (Ga : E (X a) = 0) by (apply (gr_q tiny sp th nalpha nbeta st large L O m h g excitations Hset Q G FQ FG a); lia).
      assert (Sb : sup (X b Psi)).
      { destruct (g_nth tiny sp th nalpha nbeta st large L O m h g excitations Hset Q G FQ FG (b - List.length Q)%nat ltac:(lia)) as (_ & _ & _ & _ & _ & _ & SD).
        replace (b - List.length Q + List.length Q)%nat with b in SD by lia. exact SD. }
      assert (Sab : I (X a Psi) (X b Psi) = 0).
      { rewrite ip_sym. apply (aq_orth tiny sp th nalpha nbeta st large L O m h g excitations Hset Q G FQ FG a _ Psi); [lia|exact Sb]. }
      rewrite Ga, Sab, (ip_sym _ (X a Psi) Psi), Ga. ring. }
    destruct Hij as [Hij|Hij]; [apply ZZ; lia|rewrite ip_sym; apply ZZ; lia].
  Qed.

  (** ** Transition dipoles *)
  Section Dipole.
    Variable x : nat -> nat -> K.
    Hypothesis Hxs : forall p q, (p < N)%nat -> (q < N)%nat -> x p q = x q p.
    Notation Mu := (Xact x N).
    Let AM : adjp N Mu Mu := adj_Mu sp x Hxs.
    Variables (Q G : list lc).
    Hypothesis FQ : Forall2 (oact sp) Q (x_orbital L O).
    Hypothesis FG : Forall2 (gact ni na (sp_nv sp) m) G (x_active L O excitations).
    Let LQ : List.length Q = nq := lenQ sp L O Q FQ.
    Let LA : (List.length Q + List.length G)%nat = size := len_all sp L O m excitations Q G FQ FG.
    Notation val i := (I (X i Psi) (Mu Psi) - E (X i) * E Mu).

    Lemma q_x i : (i < nq)%nat -> (forall e, Xd i Psi e = 0) /\ E (X i) = 0.
    Proof.
      intros Hi. split.
      - apply (aq_kill tiny sp th nalpha nbeta st large L O m h g excitations Hset Q G FQ FG i Psi); [lia|apply (sup_ket sp Hpos)].
      - apply (gr_q tiny sp th nalpha nbeta st large L O m h g excitations Hset Q G FQ FG i). lia.
    Qed.
    Lemma q_part_val v : q_part L tiny sp th ansatz O st Q x size v = Ok (lsum (seq 0 nq) (fun i => (v (size + i)%nat - v i) * val i)).
    Proof.
      unfold q_part. destruct (q_part_ok tiny sp th ansatz nalpha nbeta st large L O m h g excitations Hset x Hxs Q v FQ) as (qp & EQ & ->).
      etransitivity; [exact EQ|]. f_equal. apply lsum_ext. intros i Hi. apply in_seq in Hi. destruct (q_x i ltac:(lia)) as [KX Z]. pose proof size_nq as SN.
      rewrite !ev_comm, (AM Psi (Xd i Psi)), (AM Psi (X i Psi)), (ip_zero _ _ _ KX), (r_adj i ltac:(lia) Psi (Mu Psi)), (ip_sym _ (Xd i Psi)), (ip_zero _ _ _ KX).
      rewrite (adjp_flip _ _ _ (r_adj i ltac:(lia)) Psi (Mu Psi)), (ip_sym _ (Mu Psi) (X i Psi)), Z. ring.
    Qed.
    Lemma split_val v : lsum (seq 0 size) (fun i => (v (size + i)%nat - v i) * val i) =
      lsum (seq 0 nq) (fun i => (v (size + i)%nat - v i) * val i) + lsum (seq 0 (List.length G)) (fun i => (v (size + (nq + i))%nat - v (nq + i)%nat) * val (nq + i)%nat).
    Proof. rewrite <- LA at 1. rewrite LQ. apply (lsum_seq_app nq (List.length G)). Qed.

    Lemma val_R i : (i < size)%nat -> I (R i Psi) (Mu Psi) = val i.
    Proof. intros _. transitivity (I (proj N Psi (X i) Psi) (Mu Psi)); [reflexivity|]. now rewrite (proj_l N Psi _ N1'). Qed.
    Lemma val_P i : (i < size)%nat -> I (PX i Psi) (Mu Psi) = val i.
    Proof.
      intros Hi. unfold Props_Projected.PX. destruct (Nat.ltb_spec i nq) as [Li|Li]; [|now apply val_R]. destruct (q_x i Li) as [_ ->]. ring.
    Qed.
    Lemma mu_kets : exists D mk mdk Dd, one_elec_op_0i_0a x ni na = Ok D /\ prop [D] st = Ok mk /\ op_dagger D = Ok Dd /\ prop [Dd] st = Ok mdk /\
      List.length mk = dim (sp_ci sp) /\ List.length mdk = dim (sp_ci sp) /\
      (forall u, sup u -> I u (fket sp mk) = I u (Mu Psi)) /\ (forall u, List.length u = dim (sp_ci sp) -> I (fket sp mdk) (fket sp u) = I (fket sp u) (Mu Psi)).
    Proof.
      destruct (one_elec_0i_0a_rep Hsm (bal N) (bal_stable N) x ni na (sp_nv sp)
         (fun p q Hp Hq => PE_bal N p q (ltac:(apply in_seq in Hp; lia)) (ltac:(apply in_seq in Hq; lia)))) as (F0 & (D0 & E0 & O0 & A0) & B0).
      destruct (dagger_adjp N (bal N) (bal_stable N) Hsm D0 O0 (fun s Hs => proj2 Hs)) as (Dd & Ed & Od & Ad).
      destruct (papply tiny sp th ansatz nalpha nbeta Hex Hpos Hidx Hth D0 st O0 Hlen) as (mk & Emk & Lmk & Fmk).
      destruct (papply tiny sp th ansatz nalpha nbeta Hex Hpos Hidx Hth Dd st Od Hlen) as (mdk & Emdk & Lmdk & Fmdk).
      exists D0, mk, mdk, Dd. repeat (split; [assumption|]). split.
      - intros u Hu. apply (ip_asp sp); [exact Hu|]. intros e He. rewrite (Fmk e He), A0, (B0 _ e He (sup_ket sp Hpos st)). apply Mu_onesum.
      - intros u Lu. rewrite (ip_asp_l sp _ (opapp Dd Psi) _ (sup_ket sp Hpos u) Fmdk), <- Ad.
        transitivity (I Psi (Mu (fket sp u))); [|rewrite (AM Psi (fket sp u)); apply ip_sym].
        apply (ip_asp sp); [apply (sup_ket sp Hpos)|]. intros e He. rewrite A0, (B0 _ e He (sup_ket sp Hpos u)). apply Mu_onesum.
    Qed.
    Lemma g_kets i : (i < List.length G)%nat -> exists gk, prop [nth i G []] st = Ok gk /\ List.length gk = dim (sp_ci sp) /\ (forall e, fket sp gk e = X (nq + i)%nat Psi e) /\ sup (X (nq + i)%nat Psi).
    Proof.
      intros Hi. destruct (g_nth tiny sp th nalpha nbeta st large L O m h g excitations Hset Q G FQ FG i Hi) as (_ & G1 & _ & _ & OD & _ & SD).
      rewrite LQ, (Nat.add_comm i nq) in *. destruct (gapply tiny sp th ansatz nalpha nbeta Hex Hpos Hidx Hth _ st OD Hlen) as (gk & E1 & L1 & F1).
      exists gk. split; [exact E1|]. split; [exact L1|]. split; [|exact SD]. intros e. rewrite F1. apply G1.
    Qed.

    Lemma p_dipole_ok v : p_transition_dipole L tiny sp th ansatz O st Q G x size v = Ok (E (comm Mu (p_T v))).
    Proof.
      rewrite (fam_dip N Psi size PX PXd P_adj P_kill v Mu AM). rewrite (lsum_ext _ _ (fun i => (v (size + i)%nat - v i) * val i)) by (intros i Hi; apply in_seq in Hi; now rewrite val_P by lia).
      rewrite split_val. destruct mu_kets as (D & mk & mdk & Dd & ED & Emk & _ & _ & Lmk & _ & Fm & _).
      unfold p_transition_dipole. rw ED. rw Emk. rewrite (expv_nil' st mk Hlen Lmk). cbn [bind]. rewrite (Fm Psi (sup_ket sp Hpos st)). rw (q_part_val v).
      unfold p_g_part. pose proof size_nq as SN.
      rewrite (eloop_sum [] 0 G _ (fun i => (v (size + (nq + i))%nat - v (nq + i)%nat) * val (nq + i)%nat)).
      - cbn [bind]. f_equal. ring.
      - intros i c Hi. cbn [Nat.add]. destruct (g_kets i Hi) as (gk & E1 & L1 & F1 & S1). rw E1. rewrite (expv_nil' st gk Hlen L1), (expv_nil' gk mk L1 Lmk). cbn [bind].
        rewrite (ip_ext _ _ _ _ _ F1 (fun _ => eq_refl)), (ip_ext _ Psi Psi _ _ (fun _ => eq_refl) F1), (Fm _ S1). rewrite LQ.
        replace (2 * nq + (size - nq) + i)%nat with (size + (nq + i))%nat by lia. f_equal. ring.
    Qed.
    Lemma ap_dipole_ok v : ap_transition_dipole L tiny sp th ansatz O st Q G x size v = Ok (E (comm Mu (ap_T v))).
    Proof.
      rewrite (fam_dip N Psi size R Rd R_adj R_kill v Mu AM). rewrite (lsum_ext _ _ (fun i => (v (size + i)%nat - v i) * val i)) by (intros i Hi; apply in_seq in Hi; now rewrite val_R by lia).
      rewrite split_val. destruct mu_kets as (D & mk & mdk & Dd & ED & Emk & EDd & Emdk & Lmk & Lmdk & Fm & Fmd).
      unfold ap_transition_dipole. rw ED. rw Emk. rw EDd. rw Emdk. rw (q_part_val v).
      unfold ap_g_part. pose proof size_nq as SN.
      rewrite (eloop_sum [] 0 G _ (fun i => (v (size + (nq + i))%nat - v (nq + i)%nat) * val (nq + i)%nat)).
      - cbn [bind]. f_equal. ring.
      - intros i c Hi. cbn [Nat.add]. destruct (g_kets i Hi) as (gk & E1 & L1 & F1 & S1). rw E1.
        rewrite (expv_nil' st gk Hlen L1), (expv_nil' gk st L1 Hlen), (expv_nil' st mk Hlen Lmk), (expv_nil' gk mk L1 Lmk), (expv_nil' mdk gk Lmdk L1). cbn [bind].
        rewrite (Fmd gk L1), (Fm Psi (sup_ket sp Hpos st)), !(ip_ext _ _ _ _ _ F1 (fun _ => eq_refl)), (ip_ext _ Psi Psi _ _ (fun _ => eq_refl) F1), (Fm _ S1), (ip_sym _ (X (nq + i)%nat Psi) Psi). rewrite LQ.
        replace (2 * nq + (size - nq) + i)%nat with (size + (nq + i))%nat by lia. f_equal. ring.
    Qed.
  End Dipole.

  (** C88: every component of every transition dipole is [<[Mu, T]>] with the
      one-electron operator [Mu] of all orbitals: projected class. *)
  Theorem C88_projected_dipoles (mus : list (nat -> nat -> K)) (vs : list (nat -> K)) :
    (forall x, In x mus -> forall p q, (p < N)%nat -> (q < N)%nat -> x p q = x q p) ->
    p_transition_dipoles L tiny sp th ansatz O st excitations mus size vs = Ok (map (fun v => map (fun x => E (comm (Xact x N) (p_T v))) mus) vs).
  Proof.
    intros Hx. unfold p_transition_dipoles, dipoles_with. destruct (G_ops_ok Hsm ni na (sp_nv sp) m L O HO excitations) as (G & EG & FG). rw EG.
    destruct (q_ops_ok Hsm sp m L O HO) as (Q & EQ & FQ). rw EQ.
    apply rlist_ok. intros v _. apply rlist_ok. intros x Hi. apply p_dipole_ok; auto.
  Qed.
  (** C88: the same for the all-projected class. *)
  Theorem C88_all_projected_dipoles (mus : list (nat -> nat -> K)) (vs : list (nat -> K)) :
    (forall x, In x mus -> forall p q, (p < N)%nat -> (q < N)%nat -> x p q = x q p) ->
    ap_transition_dipoles L tiny sp th ansatz O st excitations mus size vs = Ok (map (fun v => map (fun x => E (comm (Xact x N) (ap_T v))) mus) vs).
  Proof.
    intros Hx. unfold ap_transition_dipoles, dipoles_with. destruct (G_ops_ok Hsm ni na (sp_nv sp) m L O HO excitations) as (G & EG & FG). rw EG.
    destruct (q_ops_ok Hsm sp m L O HO) as (Q & EQ & FQ). rw EQ.
    apply rlist_ok. intros v _. apply rlist_ok. intros x Hi. apply ap_dipole_ok; auto.
  Qed.
  (** C88: the two classes give the same transition dipole for the same vector. *)
  Theorem C88_same_dipoles mus vs : (forall x, In x mus -> forall p q, (p < N)%nat -> (q < N)%nat -> x p q = x q p) ->
    p_transition_dipoles L tiny sp th ansatz O st excitations mus size vs = ap_transition_dipoles L tiny sp th ansatz O st excitations mus size vs.
  Proof.
    intros Hx. rewrite (C88_projected_dipoles mus vs Hx), (C88_all_projected_dipoles mus vs Hx). f_equal. apply map_ext. intros v. apply map_ext_in. intros x Hi.
    destruct (G_ops_ok Hsm ni na (sp_nv sp) m L O HO excitations) as (G & _ & FG). destruct (q_ops_ok Hsm sp m L O HO) as (Q & _ & FQ).
    rewrite (fam_dip N Psi size PX PXd P_adj P_kill v _ (adj_Mu sp x (Hx x Hi))), (fam_dip N Psi size R Rd R_adj R_kill v _ (adj_Mu sp x (Hx x Hi))). apply lsum_ext. intros i Hi'. apply in_seq in Hi'.
    rewrite (val_P x Q G FQ FG i ltac:(lia)), (val_R x i ltac:(lia)). reflexivity.
  Qed.
  (** C88: a vector that can be normalised is, in either class. *)
  Theorem C88_normalised M tiny_norm rsq v :
    let n := excited_norm (lr_metric M size) nq (size - nq) v in
    tiny_norm n = false -> rsq n * rsq n * n = 1 ->
    let u := normed tiny_norm rsq n v in
    (p_run = Ok M -> E (comm (p_T u) (p_Td u)) = 1) /\ (ap_run = Ok M -> E (comm (ap_T u) (ap_Td u)) = 1).
  Proof.
    intros n Ht Hr u. split; intros ER; [rewrite <- (C88_projected_norm M ER)|rewrite <- (C88_all_projected_norm M ER)];
      rewrite <- Hr; unfold u, normed; rewrite Ht, norm_scaled; fold n; reflexivity.
  Qed.
End ProjExcited.

(** ** The hypotheses are met *)
Example C88_example_norm : exists M M', proj_init r_large r_lit r_tiny ex_sp None (fun _ s => Ok s) r_O r_h r_g r_st "sd" = Ok M /\
  allproj_init r_large r_lit r_tiny ex_sp None (fun _ s => Ok s) r_O r_h r_g r_st "sd" = Ok M' /\
  this (qa (excited_norm (lr_metric M 7) 5 2 x_v)) = (-10008 # 625)%Q /\ this (qa (excited_norm (lr_metric M' 7) 5 2 x_v)) = (-10008 # 625)%Q.
Proof. eexists. eexists. split; [vm_compute; reflexivity|]. split; [vm_compute; reflexivity|]. split; vm_compute; reflexivity. Qed.
Example C88_example_dipole : exists D D', p_transition_dipoles r_lit r_tiny ex_sp None (fun _ s => Ok s) r_O r_st "sd" [x_mu; r_h] 7 [x_v] = Ok [[D; D']] /\
  this (qb D) = (-1109 # 125)%Q /\ this (qb D') = (3888 # 625)%Q.
Proof. eexists. eexists. split; [vm_compute; reflexivity|]. split; vm_compute; reflexivity. Qed.
Example C88_example_all_dipole : exists D D', ap_transition_dipoles r_lit r_tiny ex_sp None (fun _ s => Ok s) r_O r_st "sd" [x_mu; r_h] 7 [x_v] = Ok [[D; D']] /\
  this (qb D) = (-1109 # 125)%Q /\ this (qb D') = (3888 # 625)%Q.
Proof. eexists. eexists. split; [vm_compute; reflexivity|]. split; vm_compute; reflexivity. Qed.

Print Assumptions C88_projected_norm.
Print Assumptions C88_all_projected_norm.
Print Assumptions C88_normalised.
Print Assumptions C88_projected_dipoles.
Print Assumptions C88_all_projected_dipoles.
Print Assumptions C88_same_dipoles.
