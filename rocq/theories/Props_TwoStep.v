(** C94: the two-step optimisation of the wave function. *)
From Coq Require Import List Bool Arith NArith ZArith Reals Lra Lia.
From Verif Require Import Base RRing Fock FockMore FermiModel OperatorsModel OperatorsProofs OperatorsSums OperatorsActs
  OperatorsActive OperatorsKeys Props_Operators CIModel StateModel StateProofs StateMore Props_State UPSModel UPSState UPSSingle UPSAnsatz Props_UPS
  FockInner DensityModel DensityProofs DensityExpect DensityResponse DensityState Props_Density MatModel MatProofs MatExp Props_Transform
  WaveModel WaveProofs GradProofs Props_Wave Props_Gradient Props_Optimise TwoStepModel.
Import ListNotations.
Local Open Scope R_scope.

Section TwoStepProps.
  Variables (kappa_idx : list (nat * nat)) (h_ao : nat -> nat -> R) (g_ao : nat -> nat -> nat -> nat -> R).
  Variables (tiny : R -> bool) (sp : space) (th : threads).
  Variables (struct : list UPSModel.exc) (csf : list R).
  Notation N := (sp_ni sp + sp_na sp + sp_nv sp)%nat.
  Hypothesis HS : sector tiny sp th.
  Hypothesis H0 : tiny 0 = true.
  Hypothesis Hgates : Forall (gate_ok (sp_na sp) 0) struct.
  Hypothesis Hcsf : length csf = length (idx2det (sp_ci sp)).
  Hypothesis Hnorm : dot csf csf = 1.
  Hypothesis Hpairs : rotation_pairs N kappa_idx.
  Variable mo_coeffs : mat.
  Hypothesis Hmo : square N mo_coeffs.
  Hypothesis Hh : forall a b, (a < N)%nat -> (b < N)%nat -> h_ao a b = h_ao b a.
  Hypothesis Hg : forall a b c d, (a < N)%nat -> (b < N)%nat -> (c < N)%nat -> (d < N)%nat ->
    g_ao a b c d = g_ao b a c d /\ g_ao a b c d = g_ao a b d c /\ g_ao a b c d = g_ao c d a b.
  Notation obj := (init kappa_idx struct csf mo_coeffs).
  Notation hist := (history N kappa_idx h_ao g_ao tiny sp th struct csf).
  Notation Inv := (inv N kappa_idx h_ao g_ao tiny sp th struct csf).
  Notation nk := (length kappa_idx).
  Notation energy_at := (energy_at h_ao g_ao tiny sp th struct csf).
  Notation trace := (trace kappa_idx h_ao g_ao tiny sp th struct csf).
  Notation well_sized := (well_sized kappa_idx struct).
  Notation calls := (calls N kappa_idx h_ao g_ao tiny sp th struct csf).
  Section Run.
  Variables (plans : nat -> plan) (orb : bool) (tol : R).
  Notation run := (run_2step N kappa_idx h_ao g_ao tiny sp th struct csf plans orb tol).
  Notation iterations := (iterations N kappa_idx h_ao g_ao tiny sp th struct csf plans orb tol).
  Notation zeros := (map (fun _ : nat * nat => 0) kappa_idx).
  Notation far l := (map (fun _ => 10 ^ 20) l).
  Notation oo := (orb && negb (Nat.eqb nk 0)).
  (** Every iteration calls its functions with vectors of the right size and returns one. *)
  Definition fit : Prop := forall it,
    (forall t, well_sized true false (pl_theta (plans it) t)) /\ (forall k, well_sized false true (pl_kappa (plans it) k)) /\ length (pl_x (plans it)) = length struct.

  (** ** What the run should be *)
  (** The ansatz optimisation moves the ansatz parameters only: the optimiser is given
      the parameters held, is told exact energies and gradients at the orbitals held,
      and its point is kept. *)
  Definition ansatz_step (pl : plan) (r : ref) (out : list (list R)) (r' : ref) : Prop :=
    exists r1, trace true false r (far (r_t r)) 0 (pl_theta pl (r_t r)) out r1 /\ r' = with_thetas r (pl_x pl).
  (** The orbital optimisation starts from no rotation, is told exact energies and
      gradients at the ansatz parameters held; the orbitals of the last evaluation are
      kept as the new origin. *)
  Definition rotation_step (pl : plan) (r : ref) (out : list (list R)) (r' : ref) : Prop :=
    exists r1, trace false true r (far kappa_idx) 0 (pl_kappa pl zeros) out r1 /\ r' = {| r_k := zeros; r_C := r_C r1; r_t := r_t r |}.
  Fixpoint rounds (n it : nat) (r : ref) (outs : list (list (list R))) (r' : ref) : Prop :=
    match n with
    | O => outs = [] /\ r' = r
    | S n => exists ot o rest r1 r2, outs = ot :: o :: rest /\ ansatz_step (plans it) r ot r1 /\ rotation_step (plans it) r1 o r2 /\ rounds n (S it) r2 rest r'
    end.
  (** The energy before iteration [it]. *)
  Definition before (it : nat) : R := match it with O => 10 ^ 12 | S j => pl_g (plans j) end.
  Definition converged (it : nat) : Prop := Rabs (pl_g (plans it) - before it) < tol.

  Lemma trace_theta_only r q e cs out r' : trace true false r q e cs out r' -> r_k r' = r_k r /\ r_C r' = r_C r.
  Proof. induction 1; auto. Qed.
  Lemma trace_kappa_only r q e cs out r' : trace false true r q e cs out r' -> r_t r' = r_t r.
  Proof. induction 1; auto. Qed.

  Lemma theta_step_ok b r s pl : Inv b r s -> (forall t, well_sized true false (pl_theta pl t)) -> length (pl_x pl) = length struct ->
    exists s' out r', theta_step N kappa_idx h_ao g_ao tiny sp th struct csf pl s = (s', Ok out) /\ ansatz_step pl r out r' /\ Inv true r' s'.
  Proof.
    intros HI HW Lx. unfold theta_step, mbind at 1, gets at 1. rewrite (i_t _ _ _ _ _ _ _ _ _ _ _ _ HI). unfold mbind at 1, modify at 1.
    assert (Lt := i_tl _ _ _ _ _ _ _ _ _ _ _ _ HI).
    destruct (calls_ok kappa_idx h_ao g_ao tiny sp th struct csf HS Hgates Hcsf Hnorm Hpairs Hh Hg true false (pl_theta pl (r_t r)) b r
      (set_memo (far (r_t r)) 0 s) (length struct)) as (s1 & b1 & out & r1 & E1 & I1 & T1).
    - apply inv_memo, HI.
    - apply HW.
    - intros c Hc. specialize (HW (r_t r)). unfold Props_Optimise.well_sized in HW. rewrite Forall_forall in HW. destruct (HW c Hc) as [HP _]. exact HP.
    - cbn. now rewrite map_length.
    - unfold mbind at 1. rewrite E1.
      destruct (set_thetas_ok N kappa_idx h_ao g_ao tiny sp th struct csf (ups_ok' tiny sp th struct csf HS Hgates Hcsf Hnorm) b1 r1 _ false Lx s1 I1) as (s2 & E2 & I2 & _).
      unfold mbind. rewrite E2. exists s2, out, (with_thetas r (pl_x pl)). split; [reflexivity|]. split; [exists r1; split; [exact T1|reflexivity]|].
      destruct (trace_theta_only _ _ _ _ _ _ T1) as [K C]. unfold with_thetas. rewrite <- K, <- C. exact I2.
  Qed.
  (** Once created, the attributes of the higher density matrices stay. *)
  Definition full (s : wf) : Prop := w_rdm3 s <> None /\ w_rdm4 s <> None.
  Lemma full_case {A B} (o : wf -> option A) (x : A -> M B) (y : M B) :
    (forall a, stays full (x a)) -> stays full y -> stays full (fun s => match o s with Some a => x a s | None => y s end).
  Proof. intros Hx Hy s Hs. destruct (o s) as [a|]; [apply Hx|apply Hy]; exact Hs. Qed.
  Lemma full_ret {A} (a : A) : stays full (ret a).
  Proof. intros s Hs. exact Hs. Qed.
  Lemma full_gets {A} (f : wf -> A) : stays full (gets f).
  Proof. intros s Hs. exact Hs. Qed.
  Lemma full_lift {A} (f : Res A) : stays full (lift f).
  Proof. intros s Hs. exact Hs. Qed.
  Lemma full_c : stays full (get_c_mo N kappa_idx).
  Proof. intros s Hs. exact Hs. Qed.
  Ltac fl := repeat first [apply full_ret|apply full_gets|apply full_lift|apply full_c|apply stays_bind; [|intros ?]|apply stays_modify; intros s Hs; exact Hs].
  Lemma full_h : stays full (get_h N kappa_idx h_ao).
  Proof. apply (full_case w_h (fun x => ret x)); intros; fl. Qed.
  Lemma full_g : stays full (get_g N kappa_idx g_ao).
  Proof. apply (full_case w_g (fun x => ret x)); intros; fl. Qed.
  Lemma full_r1 : stays full (get_rdm1 tiny sp th).
  Proof. apply (full_case w_rdm1 (fun x => ret x)); intros; fl. Qed.
  Lemma full_r2 : stays full (get_rdm2 tiny sp th).
  Proof. apply (full_case w_rdm2 (fun x => ret x)); intros; fl. apply full_r1. Qed.
  Ltac fls := repeat first [apply full_h|apply full_g|apply full_r1|apply full_r2|progress fl].
  Lemma full_params p : stays full (set_params N kappa_idx tiny sp th struct csf p false true).
  Proof. unfold set_params, set_kappa. fls. Qed.
  Lemma full_calls cs : stays full (calls false true cs).
  Proof.
    induction cs as [|c cs IH]; cbn [WaveModel.calls]; [fl|]. apply stays_bind; [|intros; apply stays_bind; [exact IH|intros; fl] ].
    destruct c as [p|p]; cbn [one_call].
    - apply stays_bind; [|intros; fl]. unfold calc_energy, memo_hit. apply stays_bind; [fl|]. intros []; [fl|]. apply stays_bind; [apply full_params|intros; fls].
    - unfold calc_gradient. apply stays_bind; [apply full_params|intros; fls].
  Qed.
  Lemma inv_full b r s : Inv b r s -> full s -> Inv true r s.
  Proof.
    intros HI [F3 F4]. constructor; try apply HI.
    - pose proof (i_r3 _ _ _ _ _ _ _ _ _ _ _ _ HI) as X. destruct (w_rdm3 s); [exact X|easy].
    - pose proof (i_r4 _ _ _ _ _ _ _ _ _ _ _ _ HI) as X. destruct (w_rdm4 s); [exact X|easy].
  Qed.
  Lemma full_inv r s : Inv true r s -> full s.
  Proof.
    intros HI. split; intros X.
    - pose proof (i_r3 _ _ _ _ _ _ _ _ _ _ _ _ HI) as Y. rewrite X in Y. discriminate.
    - pose proof (i_r4 _ _ _ _ _ _ _ _ _ _ _ _ HI) as Y. rewrite X in Y. discriminate.
  Qed.

  Lemma zeros_len (A : Type) (u : list A) : length u = nk -> map (fun _ => 0) u = zeros.
  Proof. generalize kappa_idx. induction u as [|a u IH]; intros [|y w] H; try discriminate; cbn; [reflexivity|]. f_equal. apply IH. cbn in H. congruence. Qed.
  Lemma orbital_step_ok r s pl : Inv true r s -> (forall k, well_sized false true (pl_kappa pl k)) ->
    exists s' out r', orbital_step N kappa_idx h_ao g_ao tiny sp th struct csf pl s = (s', Ok out) /\ rotation_step pl r out r' /\ Inv true r' s'.
  Proof.
    intros HI HW. unfold orbital_step, mbind at 1, modify at 1.
    destruct (calls_ok kappa_idx h_ao g_ao tiny sp th struct csf HS Hgates Hcsf Hnorm Hpairs Hh Hg false true (pl_kappa pl zeros) true r
      (set_memo (far kappa_idx) 0 s) nk) as (s1 & b1 & out & r1 & E1 & I1 & T1).
    - apply inv_memo, HI.
    - apply HW.
    - intros c Hc. specialize (HW zeros). unfold Props_Optimise.well_sized in HW. rewrite Forall_forall in HW. destruct (HW c Hc) as [HP _].
      unfold plen in HP. lia.
    - cbn. now rewrite map_length.
    - assert (F1 : full s1).
      { pose proof (full_calls (pl_kappa pl zeros) (set_memo (far kappa_idx) 0 s) (full_inv r s HI)) as X. rewrite E1 in X. exact X. }
      apply (inv_full b1 r1 s1) in F1; [|exact I1]. clear I1. rename F1 into I1.
      unfold mbind at 1. rewrite E1. unfold mbind, zero_kappa.
      assert (EK := i_k _ _ _ _ _ _ _ _ _ _ _ _ I1). assert (EO := i_ko _ _ _ _ _ _ _ _ _ _ _ _ I1). assert (L1 := i_kl _ _ _ _ _ _ _ _ _ _ _ _ I1).
      rewrite EK, EO, Nat.leb_refl, skipn_all, app_nil_r. eexists. exists out, {| r_k := zeros; r_C := r_C r1; r_t := r_t r |}.
      split; [reflexivity|]. split; [exists r1; split; [exact T1|reflexivity]|].
      rewrite <- (trace_kappa_only _ _ _ _ _ _ T1).
      constructor; cbn [r_k r_C r_t w_kappa w_kold w_cmo w_h w_g w_thetas w_ci w_rdm1 w_rdm2 w_rdm3 w_rdm4 w_energy set_kold set_k]; try apply I1.
      + apply zeros_len, L1. + apply zeros_len, L1. + apply map_length.
  Qed.

  (** The run from a coherent object. *)
  Lemma iterations_alone todo it b r s e_old e_new outs : fit -> Inv b r s -> oo = false -> (0 < todo)%nat ->
    exists s' ot r', iterations todo it e_old e_new outs s = (set_energy (Some (pl_f (plans it))) s', Ok (Finished (outs ++ [ot]))) /\
      ansatz_step (plans it) r ot r' /\ Inv true r' s'.
  Proof.
    intros HF HI HO Hl. destruct todo as [|todo]; [lia|]. destruct (HF it) as (F1 & _ & F3). cbn [TwoStepModel.iterations].
    destruct (theta_step_ok b r s (plans it) HI F1 F3) as (s1 & ot & r1 & E1 & A1 & I1). unfold mbind at 1. rewrite E1.
    unfold mbind at 1, gets at 1. rewrite (i_k _ _ _ _ _ _ _ _ _ _ _ _ I1), (i_kl _ _ _ _ _ _ _ _ _ _ _ _ I1), HO.
    exists s1, ot, r1. split; [reflexivity|]. auto.
  Qed.
  Lemma iterations_ok todo : forall it b r s e_new outs, fit -> Inv b r s -> oo = true -> (0 < todo)%nat ->
    exists n s' new r', (n < todo)%nat /\
      iterations todo it (before it) e_new outs s = (set_energy (Some (pl_g (plans (it + n)%nat))) s', Ok (Finished (outs ++ new))) /\
      rounds (S n) it r new r' /\ Inv true r' s' /\
      (forall j, (j < n)%nat -> ~ converged (it + j)) /\ (n = (todo - 1)%nat \/ converged (it + n)).
  Proof.
    induction todo as [|todo IH]; intros it b r s e_new outs HF HI HO Hl; [lia|]. destruct (HF it) as (F1 & F2 & F3). cbn [TwoStepModel.iterations].
    destruct (theta_step_ok b r s (plans it) HI F1 F3) as (s1 & ot & r1 & E1 & A1 & I1). unfold mbind at 1. rewrite E1.
    unfold mbind at 1, gets at 1. rewrite (i_k _ _ _ _ _ _ _ _ _ _ _ _ I1), (i_kl _ _ _ _ _ _ _ _ _ _ _ _ I1), HO.
    destruct (orbital_step_ok r1 s1 (plans it) I1 F2) as (s2 & o & r2 & E2 & A2 & I2). unfold mbind at 1. rewrite E2. cbv zeta.
    destruct (Rlt_dec (Rabs (pl_g (plans it) - before it)) tol) as [HC|HC].
    - exists 0%nat, s2, [ot; o], r2. split; [lia|]. rewrite Nat.add_0_r. split; [reflexivity|]. split.
      { exists ot, o, [], r1, r2. repeat split; auto. }
      split; [exact I2|]. split; [intros j Hj; lia|]. right. exact HC.
    - destruct todo as [|todo].
      + cbn [TwoStepModel.iterations]. exists 0%nat, s2, [ot; o], r2. split; [lia|]. rewrite Nat.add_0_r. split; [reflexivity|]. split.
        { exists ot, o, [], r1, r2. repeat split; auto. }
        split; [exact I2|]. split; [intros j Hj; lia|]. left. reflexivity.
      + destruct (IH (S it) true r2 s2 (Some (pl_g (plans it))) (outs ++ [ot; o]) HF I2 HO ltac:(lia)) as (n & s' & new & r' & Hn & ER & RD & I' & HJ & HE).
        exists (S n), s', (ot :: o :: new), r'. split; [lia|]. replace (it + S n)%nat with (S it + n)%nat by lia. split.
        { refine (eq_trans ER _). rewrite <- app_assoc. reflexivity. }
        split. { exists ot, o, new, r1, r2. repeat split; auto. }
        split; [exact I'|]. split.
        * intros [|j] Hj; [rewrite Nat.add_0_r; exact HC|]. replace (it + S j)%nat with (S it + j)%nat by lia. apply HJ. lia.
        * destruct HE as [HE|HE]; [left; lia|right; exact HE].
  Qed.

  Notation held l := (fst (plain N kappa_idx h_ao g_ao tiny sp th struct csf l (start kappa_idx struct mo_coeffs))).
  Notation object l := (fst (hist l obj)).
  Definition shows (s : wf) (r : ref) (f : R) : Prop :=
    snd (hist [Read AThetas; Read AKappa; Read AC; Read AEnergy] s) = [Ok (VVec (r_t r)); Ok (VVec (r_k r)); Ok (VMat (r_C r)); Ok (VNum f)] /\
    (energy_at r = Ok f -> forall l', admissible kappa_idx struct true l' -> snd (hist l' s) = snd (plain N kappa_idx h_ao g_ao tiny sp th struct csf l' r)).
  Lemma shows_inv r s f : Inv true r s -> shows (set_energy (Some f) s) r f.
  Proof.
    intros HI. split; [apply (reads_after kappa_idx h_ao g_ao tiny sp th struct csf true r s f HI)|].
    intros Ef l' HA'. apply (history_ok N kappa_idx h_ao g_ao tiny sp th struct csf HS Hgates Hcsf Hpairs l' true _ _ HA'). apply inv_energy; assumption.
  Qed.
  Lemma object_inv l : admissible kappa_idx struct false l -> exists b, Inv b (held l) (object l).
  Proof.
    intros HA. destruct (history_ok N kappa_idx h_ao g_ao tiny sp th struct csf HS Hgates Hcsf Hpairs l false (start kappa_idx struct mo_coeffs) obj HA) as (_ & b & I0); [|eauto].
    apply init_inv; auto.
  Qed.

  (** C94: with orbital optimisation, on an object with any history and for optimisers
      that make any finite sequences of calls, the run makes rounds of an ansatz and an
      orbital optimisation, each told exact energies and gradients at the parameters the
      other one left, until the energy changes by less than [tol] or the number of
      iterations is used up, no earlier and no later; afterwards thetas is the last
      returned point, kappa is zero, the energy is the last returned value, and if that
      is the energy of what the object holds, every later read is coherent. *)
  Theorem C94_run_2step (l : list op) maxiter : admissible kappa_idx struct false l -> fit -> (0 < maxiter)%nat -> orb = true -> kappa_idx <> [] ->
    exists n s' outs r', (n < maxiter)%nat /\ run maxiter (object l) = (s', Ok (Finished outs)) /\ rounds (S n) 0 (held l) outs r' /\
      (forall j, (j < n)%nat -> ~ converged j) /\ (n = (maxiter - 1)%nat \/ converged n) /\
      shows s' r' (pl_g (plans n)) /\ r_k r' = zeros /\ r_t r' = pl_x (plans n).
  Proof.
    intros HA HF Hm HO HK. destruct (object_inv l HA) as [b I0].
    assert (HOO : oo = true). { rewrite HO. destruct kappa_idx; [easy|reflexivity]. }
    destruct (iterations_ok maxiter 0 b (held l) (object l) None [] HF I0 HOO Hm) as (n & s' & new & r' & Hn & ER & RD & I' & HJ & HE).
    exists n, (set_energy (Some (pl_g (plans n))) s'), new, r'. split; [exact Hn|]. split; [exact ER|]. split; [exact RD|]. split; [exact HJ|]. split; [exact HE|].
    split; [apply shows_inv, I'|].
    assert (RR : forall n it r outs r', rounds (S n) it r outs r' -> r_k r' = zeros /\ r_t r' = pl_x (plans (it + n)%nat)).
    { clear. induction n as [|n IH]; intros it r outs r' (ot & o & rest & r1 & r2 & -> & (ra & _ & ->) & (rb & _ & ->) & H).
      - destruct H as [_ ->]. rewrite Nat.add_0_r. split; reflexivity.
      - destruct (IH _ _ _ _ H) as [A B]. split; [exact A|]. rewrite B. do 2 f_equal. lia. }
    apply (RR n 0%nat _ _ _ RD).
  Qed.
  (** C94: without orbital optimisation, or with nothing to rotate, one optimisation of the
      ansatz parameters is made and the orbitals do not change. *)
  Theorem C94_ansatz_only (l : list op) maxiter : admissible kappa_idx struct false l -> fit -> (0 < maxiter)%nat -> orb = false \/ kappa_idx = [] ->
    exists s' ot r1, run maxiter (object l) = (s', Ok (Finished [ot])) /\
      trace true false (held l) (far (r_t (held l))) 0 (pl_theta (plans 0%nat) (r_t (held l))) ot r1 /\
      (bounded (pl_theta (plans 0%nat) (r_t (held l))) ->
       Forall2 (answers kappa_idx h_ao g_ao tiny sp th struct csf (held l)) (pl_theta (plans 0%nat) (r_t (held l))) ot) /\
      shows s' (with_thetas (held l) (pl_x (plans 0%nat))) (pl_f (plans 0%nat)).
  Proof.
    intros HA HF Hm HO. destruct (object_inv l HA) as [b I0].
    assert (HOO : oo = false). { destruct HO as [-> | ->]; [reflexivity|apply andb_false_r]. }
    destruct (iterations_alone maxiter 0 b (held l) (object l) (10 ^ 12) None [] HF I0 HOO Hm) as (s' & ot & r' & ER & (r1 & T & ->) & I').
    exists (set_energy (Some (pl_f (plans 0%nat))) s'), ot, r1. split; [exact ER|]. split; [exact T|]. split; [|apply shows_inv, I'].
    intros HB. destruct (HF 0%nat) as (F1 & _).
    apply (theta_trace kappa_idx h_ao g_ao tiny sp th struct csf _ _ _ _ _ _ T (held l)).
    - exists (r_t (held l)). now destruct (held l).
    - apply F1.
    - exact HB.
    - left. eauto.
  Qed.
  (** C94: no iteration allowed: UnboundLocalError instead of returning. *)
  Theorem C94_no_iterations_refuted s : run 0 s = (s, Ok Unbound).
  Proof. reflexivity. Qed.
  (** C94: an ansatz without parameters: the first energy evaluation raises ValueError (the
      maximum of an empty array), so the orbitals are never optimised. *)
  Theorem C94_no_parameters_refuted (l : list op) maxiter cs : admissible kappa_idx struct false l -> struct = [] -> (0 < maxiter)%nat ->
    pl_theta (plans 0%nat) [] = CallE [] :: cs -> exists s', run maxiter (object l) = (s', Raise ValueError).
  Proof.
    intros HA Hs Hm HP. destruct (object_inv l HA) as [b I0]. destruct maxiter as [|k]; [lia|].
    assert (T0 : w_thetas (object l) = []).
    { rewrite (i_t _ _ _ _ _ _ _ _ _ _ _ _ I0). pose proof (i_tl _ _ _ _ _ _ _ _ _ _ _ _ I0) as L. apply length_zero_iff_nil. rewrite L. now apply length_zero_iff_nil. }
    unfold run_2step. cbn [TwoStepModel.iterations]. unfold mbind at 1. unfold theta_step. unfold mbind at 1, gets at 1. rewrite T0. unfold mbind at 1, modify at 1.
    rewrite HP. eexists. reflexivity.
  Qed.
  (** The object after a run that ended with the energy of what it holds. *)
  Lemma run_inv b r s maxiter : Inv b r s -> fit -> (0 < maxiter)%nat ->
    exists s' outs r' f, run maxiter s = (s', Ok (Finished outs)) /\ shows s' r' f /\ (energy_at r' = Ok f -> Inv true r' s').
  Proof.
    intros I0 HF Hm. destruct oo eqn:HOO.
    - destruct (iterations_ok maxiter 0 b r s None [] HF I0 HOO Hm) as (n & s' & new & r' & Hn & ER & RD & I' & HJ & HE).
      eexists. exists new, r', (pl_g (plans n)). split; [exact ER|]. split; [apply shows_inv, I'|]. intros Ef. now apply inv_energy.
    - destruct (iterations_alone maxiter 0 b r s (10 ^ 12) None [] HF I0 HOO Hm) as (s' & ot & r' & ER & _ & I').
      eexists. exists [ot], r', (pl_f (plans 0%nat)). split; [exact ER|]. split; [apply shows_inv, I'|]. intros Ef. now apply inv_energy.
  Qed.
  End Run.

  (** C94: unlike the one-step optimisation ([C69_second_run_refuted]), the run can be
      repeated: after a run that ended with the energy of what the object holds and any
      later assignments and reads, another run (with or without orbital optimisation)
      ends normally. *)
  Theorem C94_again (l l' : list op) plans orb tol maxiter plans' orb' tol' maxiter' :
    admissible kappa_idx struct false l -> fit plans -> (0 < maxiter)%nat -> fit plans' -> (0 < maxiter')%nat -> admissible kappa_idx struct true l' ->
    exists s' outs r' f, run_2step N kappa_idx h_ao g_ao tiny sp th struct csf plans orb tol maxiter (fst (hist l obj)) = (s', Ok (Finished outs)) /\ shows s' r' f /\
      (energy_at r' = Ok f ->
       exists s'' outs' r'' f'', run_2step N kappa_idx h_ao g_ao tiny sp th struct csf plans' orb' tol' maxiter' (fst (hist l' s')) = (s'', Ok (Finished outs')) /\ shows s'' r'' f'').
  Proof.
    intros HA HF Hm HF' Hm' HA'. destruct (object_inv l HA) as [b I0].
    destruct (run_inv plans orb tol b _ _ maxiter I0 HF Hm) as (s' & outs & r' & f & ER & SH & I'). exists s', outs, r', f. split; [exact ER|]. split; [exact SH|].
    intros Ef. specialize (I' Ef).
    destruct (history_ok N kappa_idx h_ao g_ao tiny sp th struct csf HS Hgates Hcsf Hpairs l' true r' s' HA' I') as (_ & b2 & I2).
    destruct (run_inv plans' orb' tol' b2 _ _ maxiter' I2 HF' Hm') as (s'' & outs' & r'' & f'' & ER2 & SH2 & _). eauto 8.
  Qed.
End TwoStepProps.

(** ** The hypotheses are met: ten ansatz parameters and four orbital rotations, an object with
    a history, optimisers that evaluate energies and a gradient; the second iteration
    changes the energy by less than the tolerance, so two of five are made. *)
Definition tw_plan (it : nat) : plan :=
  {| pl_theta := fun _ => [CallE (repeat 1 10); CallG (repeat 1 10); CallE (repeat 2 10)]; pl_x := repeat 2 10; pl_f := 3;
     pl_kappa := fun k => [CallE [0; 0; 0; 0]; CallG [1; 0; 0; 0]; CallE [1; 0; 0; 1]]; pl_g := 7 |}.
Lemma tw_fit : fit exg_idx ex_struct tw_plan.
Proof. intros it. repeat split; intros; repeat constructor; discriminate. Qed.
Example C94_example : exists s' outs,
  run_2step 6 exg_idx exg_h exg_g rtiny Props_UPS.ex_sp None ex_struct (1 :: repeat 0 35) tw_plan true (1 / 10) 5
    (fst (history 6 exg_idx exg_h exg_g rtiny Props_UPS.ex_sp None ex_struct (1 :: repeat 0 35) exo_l
       (init exg_idx ex_struct (1 :: repeat 0 35) (tab 6 mid)))) = (s', Ok (Finished outs)) /\ length outs = 4%nat /\ map (@length (list R)) outs = [3; 3; 3; 3]%nat.
Proof.
  destruct C29_example_ansatz as (A & B & C & D & E).
  destruct (C94_run_2step exg_idx exg_h exg_g rtiny Props_UPS.ex_sp None ex_struct (1 :: repeat 0 35) A rtiny_0 B C) with
    (mo_coeffs := tab 6 (@mid R R_CRing)) (l := exo_l) (plans := tw_plan) (orb := true) (tol := 1 / 10) (maxiter := 5%nat) as (n & s' & outs & r' & Hn & H1 & H2 & H3 & H4 & _).
  - cbn. ring.
  - exact D.
  - exact E.
  - intros a b _ _. unfold exg_h. f_equal. lia.
  - intros a b c d _ _ _ _. unfold exg_g. repeat split; f_equal; lia.
  - cbn. repeat split; discriminate.
  - exact tw_fit.
  - lia.
  - reflexivity.
  - discriminate.
  - exists s', outs. split; [exact H1|].
    assert (n = 1%nat) as ->.
    { unfold converged, before in *. cbn [tw_plan pl_g] in *. destruct n as [|[|n] ]; [|reflexivity|].
      - destruct H4 as [H4|H4]; [discriminate|]. exfalso. rewrite Rabs_left in H4 by lra. lra.
      - exfalso. apply (H3 1%nat); [lia|]. rewrite Rminus_diag_eq by reflexivity. rewrite Rabs_R0. lra. }
    assert (L : forall theta kappa r q e cs out r', trace exg_idx exg_h exg_g rtiny Props_UPS.ex_sp None ex_struct (1 :: repeat 0 35) theta kappa r q e cs out r' ->
       length out = length cs) by (induction 1; cbn; auto).
    destruct H2 as (ot & o & rest & r1 & r2 & -> & (ra & T1 & _) & (rb & T2 & _) & (ot' & o' & rest' & r3 & r4 & -> & (rc & T3 & _) & (rd & T4 & _) & -> & _)).
    apply L in T1, T2, T3, T4. split; [reflexivity|]. cbn [map]. rewrite T1, T2, T3, T4. reflexivity.
Qed.
(** The two-orbital setting of [C69_orbitals_left_refuted], whose ansatz has no parameters. *)
Definition tw_none (it : nat) : plan :=
  {| pl_theta := fun t => [CallE t]; pl_x := []; pl_f := 0; pl_kappa := fun k => [CallE k]; pl_g := 0 |}.
Example C94_example_no_parameters : exists s',
  run_2step 2 ex2_idx ex2_h ex2_g rtiny ex2_sp None [] [1] tw_none true (1 / 10) 5 (init ex2_idx [] [1] ex2_c) = (s', Raise ValueError).
Proof.
  apply (C94_no_parameters_refuted ex2_idx ex2_h ex2_g rtiny ex2_sp None [] [1] ex2_sector rtiny_0 (Forall_nil _) eq_refl ex2_pairs ex2_c (tab_square 2 mid))
    with (l := @nil op) (cs := []); try reflexivity.
  - lia.
Qed.

Print Assumptions C94_run_2step.
Print Assumptions C94_ansatz_only.
Print Assumptions C94_no_iterations_refuted.
Print Assumptions C94_no_parameters_refuted.
Print Assumptions C94_again.
