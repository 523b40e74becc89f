(** C68: the energy function of the optimisation and the effect of the one-step
    optimisation on the object; C69: repeated runs. *)
From Coq Require Import List Bool Arith NArith ZArith Reals Lra Lia.
From Verif Require Import Base RRing Fock FockMore FermiModel OperatorsModel OperatorsProofs OperatorsSums OperatorsActs
  OperatorsActive OperatorsKeys Props_Operators CIModel StateModel StateProofs StateMore Props_State UPSModel UPSState UPSSingle UPSAnsatz Props_UPS
  FockInner DensityModel DensityProofs DensityExpect DensityResponse DensityState Props_Density MatModel MatProofs MatExp Props_Transform
  WaveModel WaveProofs GradProofs Props_Wave Props_Gradient.
Import ListNotations.
Local Open Scope R_scope.

(** ** Parameter vectors that the memo identifies *)
Definition close (q p : list R) : Prop := Forall2 (fun x y => Rabs (x - y) < / 10 ^ 14) q p.

Lemma fold_max_lt l : forall m eps, fold_left (fun m y => Rmax m (Rabs y)) l m < eps <-> m < eps /\ Forall (fun y => Rabs y < eps) l.
Proof.
  induction l as [|a l IH]; intros m eps; cbn [fold_left].
  - split; [intros; split; auto|intros [H _]; exact H].
  - rewrite IH. rewrite Rmax_Rlt. split.
    + intros [[H1 H2] H3]. split; auto.
    + intros [H1 H2]. inversion_clear H2. auto.
Qed.
Lemma forall_map2 eps a : forall b, length a = length b ->
  (Forall (fun y => Rabs y < eps) (map2 Rminus a b) <-> Forall2 (fun x y => Rabs (x - y) < eps) a b).
Proof.
  induction a as [|x a IH]; intros [|y b] HL; try discriminate; cbn [map2]; [split; constructor|].
  split; intros H; inversion_clear H; constructor; auto; apply IH; auto.
Qed.
Lemma memo_hit_ok p s : length (w_oldp s) = length p -> p <> [] ->
  exists b, memo_hit p s = (s, Ok b) /\ (b = true <-> close (w_oldp s) p).
Proof.
  intros HL Hp. unfold memo_hit, mbind, gets, lift, ret, np_op. rewrite HL, Nat.eqb_refl.
  destruct (w_oldp s) as [|x q] eqn:Eq; [destruct p; [easy|discriminate]|]. destruct p as [|y p]; [easy|].
  cbn [map2 np_max_abs].
  eexists. split; [reflexivity|]. unfold close. rewrite <- (forall_map2 _ (x :: q) (y :: p)) by auto. cbn [map2].
  destruct (Rlt_dec _ _) as [H|H].
  - split; [intros _|reflexivity]. apply fold_max_lt in H as [H1 H2]. constructor; auto.
  - split; [discriminate|]. intros HF. inversion_clear HF. exfalso. apply H. apply fold_max_lt. auto.
Qed.

(** ** Attributes that a method leaves alone *)
Definition keeps {X A} (pi : wf -> X) (m : M A) : Prop := forall s, pi (fst (m s)) = pi s.
Section Keep.
  Context {X : Type} (pi : wf -> X).
  Lemma keeps_bind {A B} (m : M A) (k : A -> M B) : keeps pi m -> (forall a, keeps pi (k a)) -> keeps pi (mbind m k).
  Proof.
    intros Hm Hk s. unfold mbind. specialize (Hm s). destruct (m s) as [s1 [a|e|]]; cbn [fst] in *; auto. rewrite Hk. exact Hm.
  Qed.
  Lemma keeps_modify f : (forall s, pi (f s) = pi s) -> keeps pi (modify f).
  Proof. intros H s. apply H. Qed.
  Lemma keeps_same {A} (m : M A) : (forall s, fst (m s) = s) -> keeps pi m.
  Proof. intros H s. rewrite H. reflexivity. Qed.
  Lemma keeps_case {A B} (o : wf -> option A) (x : A -> M B) (y : M B) :
    (forall a, keeps pi (x a)) -> keeps pi y -> keeps pi (fun s => match o s with Some a => x a s | None => y s end).
  Proof. intros H1 H2 s. destruct (o s); [apply H1|apply H2]. Qed.
  Variables (N : nat) (kappa_idx : list (nat * nat)).
  Variables (h_ao : nat -> nat -> R) (g_ao : nat -> nat -> nat -> nat -> R).
  Variables (tiny : R -> bool) (sp : space) (th : threads).
  Variables (struct : list UPSModel.exc) (csf : list R).
  (** [pi] does not look at the caches. *)
  Hypothesis Ph : forall x s, pi (set_h x s) = pi s.
  Hypothesis Pg : forall x s, pi (set_g x s) = pi s.
  Hypothesis P1 : forall x s, pi (set_r1 x s) = pi s.
  Hypothesis P2 : forall x s, pi (set_r2 x s) = pi s.
  Hypothesis P3 : forall x s, pi (set_r3 x s) = pi s.
  Hypothesis P4 : forall x s, pi (set_r4 x s) = pi s.
  Hypothesis Pe : forall x s, pi (set_energy x s) = pi s.
  Ltac kp := repeat first [apply keeps_bind; [|intros] | solve [apply keeps_same; reflexivity] | solve [apply keeps_modify; auto]].
  Lemma keeps_h : keeps pi (get_h N kappa_idx h_ao).
  Proof. apply (keeps_case w_h (fun x => ret x)); [intros; kp|]. kp. Qed.
  Lemma keeps_g : keeps pi (get_g N kappa_idx g_ao).
  Proof. apply (keeps_case w_g (fun x => ret x)); [intros; kp|]. kp. Qed.
  Lemma keeps_r1 : keeps pi (get_rdm1 tiny sp th).
  Proof. apply (keeps_case w_rdm1 (fun x => ret x)); [intros; kp|]. kp. Qed.
  Lemma keeps_r2 : keeps pi (get_rdm2 tiny sp th).
  Proof. apply (keeps_case w_rdm2 (fun x => ret x)); [intros; kp|]. apply keeps_bind; [apply keeps_r1|intros]. kp. Qed.
  Lemma keeps_r3 : keeps pi (get_rdm3 tiny sp th).
  Proof.
    apply (keeps_case w_rdm3 (fun o s => match o with Some x => (s, Ok x) | None =>
       mbind (get_rdm1 tiny sp th) (fun r1 => mbind (get_rdm2 tiny sp th) (fun r2 => mbind (gets w_ci) (fun ci =>
              mbind (lift (rdm3_loop (fun p q r s t u => ev tiny sp th ci [Epq p q; Epq r s; Epq t u]) r1 r2 (sp_ni sp) (sp_na sp))) (fun x =>
              mbind (modify (set_r3 (Some (Some x)))) (fun _ => ret x))))) s end)); [|kp].
    intros [x|]; [kp|]. apply keeps_bind; [apply keeps_r1|intros]. apply keeps_bind; [apply keeps_r2|intros]. kp.
  Qed.
  Lemma keeps_r4 : keeps pi (get_rdm4 tiny sp th).
  Proof.
    apply (keeps_case w_rdm4 (fun o s => match o with Some x => (s, Ok x) | None =>
       mbind (get_rdm1 tiny sp th) (fun r1 => mbind (get_rdm2 tiny sp th) (fun r2 => mbind (get_rdm3 tiny sp th) (fun r3 => mbind (gets w_ci) (fun ci =>
              mbind (lift (rdm4_loop (fun p q r s t u m n => ev tiny sp th ci [Epq p q; Epq r s; Epq t u; Epq m n]) r1 r2 r3 (sp_ni sp) (sp_na sp))) (fun x =>
              mbind (modify (set_r4 (Some (Some x)))) (fun _ => ret x)))))) s end)); [|kp].
    intros [x|]; [kp|]. apply keeps_bind; [apply keeps_r1|intros]. apply keeps_bind; [apply keeps_r2|intros].
    apply keeps_bind; [apply keeps_r3|intros]. kp.
  Qed.
  Lemma keeps_e : keeps pi (get_energy N kappa_idx h_ao g_ao tiny sp th).
  Proof.
    apply (keeps_case w_energy (fun x => ret x)); [intros; kp|]. apply keeps_bind; [apply keeps_h|intros].
    apply keeps_bind; [apply keeps_g|intros]. kp.
  Qed.
  Lemma keeps_read a : keeps pi (read N kappa_idx h_ao g_ao tiny sp th a).
  Proof.
    destruct a; unfold read, tag; (apply keeps_bind; [|intros; kp]); auto using keeps_h, keeps_g, keeps_r1, keeps_r2, keeps_r3, keeps_r4, keeps_e; kp.
  Qed.
  (** ... nor at the parameters. *)
  Hypothesis Pk : forall k a s, pi (set_k k a s) = pi s.
  Hypothesis Pko : forall k s, pi (set_kold k s) = pi s.
  Hypothesis Pc : forall c s, pi (set_cmo c s) = pi s.
  Hypothesis Pt : forall t a s, pi (set_th t a s) = pi s.
  Hypothesis Pci : forall c s, pi (set_ci c s) = pi s.
  Lemma keeps_set_params p theta kappa : keeps pi (set_params N kappa_idx tiny sp th struct csf p theta kappa).
  Proof.
    unfold set_params. apply keeps_bind; [|intros _].
    - destruct kappa; [|kp]. unfold set_kappa. kp.
    - destruct theta; [|kp]. unfold set_thetas. apply keeps_bind; [kp|intros old]. destruct (negb _); kp.
  Qed.
  Lemma keeps_gradient theta kappa p : keeps pi (calc_gradient N kappa_idx h_ao g_ao tiny sp th struct csf theta kappa p).
  Proof.
    unfold calc_gradient. apply keeps_bind; [apply keeps_set_params|intros _]. apply keeps_bind; [|intros gk; apply keeps_bind; [|intros; kp]].
    - destruct kappa; [|kp]. apply keeps_bind; [apply keeps_h|intros]. apply keeps_bind; [apply keeps_g|intros].
      apply keeps_bind; [apply keeps_r1|intros]. apply keeps_bind; [apply keeps_r2|intros]. kp.
    - destruct theta; [|kp]. apply keeps_bind; [apply keeps_h|intros]. apply keeps_bind; [apply keeps_g|intros]. kp.
  Qed.
End Keep.

Section Optimise.
  Variables (kappa_idx : list (nat * nat)) (h_ao : nat -> nat -> R) (g_ao : nat -> nat -> nat -> nat -> R).
  Variables (tiny : R -> bool) (sp : space) (th : threads).
  Variables (struct : list UPSModel.exc) (csf : list R).
  Notation N := (sp_ni sp + sp_na sp + sp_nv sp)%nat.
  Hypothesis HS : sector tiny sp th.
  Hypothesis H0 : tiny 0 = true.
  Hypothesis Hgates : Forall (gate_ok (sp_na sp) 0) struct.
  Hypothesis Hcsf : length csf = length (idx2det (sp_ci sp)).
  Hypothesis Hnorm : dot csf csf = 1.
  Hypothesis Hpairs : rotation_pairs N kappa_idx.
  Variable mo_coeffs : mat.
  Hypothesis Hmo : square N mo_coeffs.
  Hypothesis Hh : forall a b, (a < N)%nat -> (b < N)%nat -> h_ao a b = h_ao b a.
  Hypothesis Hg : forall a b c d, (a < N)%nat -> (b < N)%nat -> (c < N)%nat -> (d < N)%nat ->
    g_ao a b c d = g_ao b a c d /\ g_ao a b c d = g_ao a b d c /\ g_ao a b c d = g_ao c d a b.
  Notation obj := (init kappa_idx struct csf mo_coeffs).
  Notation hist := (history N kappa_idx h_ao g_ao tiny sp th struct csf).
  Notation Inv := (inv N kappa_idx h_ao g_ao tiny sp th struct csf).
  Notation ho c := (one_electron_integral_transform N (ent c) h_ao).
  Notation go c := (two_electron_integral_transform N (ent c) g_ao).
  Notation half := (1 / 2).
  Notation nk := (length kappa_idx).
  Notation energy_at := (energy_at h_ao g_ao tiny sp th struct csf).
  Notation moved := (moved kappa_idx sp).
  Notation is_gradient := (is_gradient kappa_idx h_ao g_ao tiny sp th struct csf).
  Notation plen := (plen kappa_idx struct).
  Notation energy_fun := (calc_energy N kappa_idx h_ao g_ao tiny sp th struct csf).
  Notation run := (run_1step N kappa_idx h_ao g_ao tiny sp th struct csf).

  Lemma inv_memo b r s p e : Inv b r s -> Inv b r (set_memo p e s).
  Proof. intros H. constructor; apply H. Qed.
  Lemma inv_energy b r s e : Inv b r s -> energy_at r = Ok e -> Inv b r (set_energy (Some e) s).
  Proof.
    intros H E. constructor; try apply H. unfold Props_Gradient.energy_at in E. rewrite (i_ci _ _ _ _ _ _ _ _ _ _ _ _ H) in E. exact E.
  Qed.

  Lemma rdm_energy c v : length v = length (idx2det (sp_ci sp)) -> dot v v = 1 ->
    exists r1 r2, wf_rdm1 tiny sp th no_ansatz v = Ok r1 /\ wf_rdm2 tiny sp th no_ansatz v = Ok r2 /\
      energy_of tiny sp th (ho c) (go c) v
      = Ok (get_electronic_energy half (ho c) (go c) (sp_ni sp) (sp_na sp) (fun i j => r1 [i; j]) (fun i j k l => r2 [i; j; k; l])).
  Proof.
    intros Lv Nv. pose proof HS as [Ht Hp (na' & nb' & Hi) Hth].
    assert (HW : wf_setup tiny sp th na' nb' v) by (repeat split; auto; exact R_exact_small).
    destruct (C28_rdm1_rdm2 tiny sp th no_ansatz na' nb' v HW) as (r1 & r2 & E1 & E2 & DM).
    pose proof (C28_state tiny sp th na' nb' v HW Nv) as ST.
    exists r1, r2. split; [exact E1|]. split; [exact E2|]. rewrite (energy_of_ip tiny sp th HS _ _ v Lv).
    rewrite (C27_energy N (sp_ni sp) (sp_na sp) (fket sp v) (fun i j => r1 [i; j]) (fun i j k l => r2 [i; j; k; l]) ST DM half). reflexivity.
  Qed.

  (** [_calc_energy_optimization]. *)
  Lemma calc_energy_hit b r s theta kappa p : Inv b r s -> p <> [] -> length (w_oldp s) = length p -> close (w_oldp s) p ->
    energy_fun theta kappa p s = (s, Ok (w_eold s)).
  Proof.
    intros HI Hp HL HC. destruct (memo_hit_ok p s HL Hp) as (hit & E & Hh'). unfold calc_energy, mbind at 1. rewrite E.
    apply Hh' in HC. rewrite HC. reflexivity.
  Qed.
  Lemma calc_energy_miss b r s theta kappa p : Inv b r s -> p <> [] -> length (w_oldp s) = length p -> plen theta kappa p ->
    ~ close (w_oldp s) p ->
    exists s' b' e, energy_fun theta kappa p s = (s', Ok e) /\ Inv b' (moved theta kappa p r) s' /\
      energy_at (moved theta kappa p r) = Ok e /\ w_oldp s' = p /\ w_eold s' = e.
  Proof.
    intros HI Hp HL HP HC. destruct (memo_hit_ok p s HL Hp) as (hit & E & Hh'). unfold calc_energy, mbind at 1. rewrite E.
    destruct hit; [exfalso; apply HC, Hh'; reflexivity|].
    destruct (set_params_ok kappa_idx h_ao g_ao tiny sp th struct csf HS Hgates Hcsf Hnorm Hpairs b r s theta kappa p HP HI) as (s1 & b1 & E1 & I1).
    unfold mbind at 1. rewrite E1. set (r' := moved theta kappa p r) in *.
    destruct (ups_ok tiny sp th struct csf HS Hgates Hcsf Hnorm (r_t r') (i_tl _ _ _ _ _ _ _ _ _ _ _ _ I1)) as (v & Ev & Lv & Nv).
    destruct (rdm_energy (r_C r') v Lv Nv) as (r1 & r2 & R1 & R2 & RE).
    match goal with |- context[mbind (if kappa then ?a else ?c) ?f s1] =>
      assert (exists s2 e, (if kappa then a else c) s1 = (s2, Ok e) /\ Inv b1 r' s2 /\ energy_at r' = Ok e) as (s2 & e & E2 & I2 & EA) end.
    { unfold Props_Gradient.energy_at. rewrite Ev. cbn [bind]. rewrite RE. destruct kappa.
      - destruct (good_h N kappa_idx h_ao g_ao tiny sp th struct csf b1 r' s1 I1) as (sa & Ea & Ia). unfold mbind at 1. rewrite Ea.
        destruct (good_g N kappa_idx h_ao g_ao tiny sp th struct csf b1 r' sa Ia) as (sb & Eb & Ib). unfold mbind at 1. rewrite Eb.
        destruct (good_r1 N kappa_idx h_ao g_ao tiny sp th struct csf b1 r' v Ev sb Ib) as (sc & Ec & Ic). unfold mbind at 1. rewrite Ec, R1.
        destruct (good_r2 N kappa_idx h_ao g_ao tiny sp th struct csf b1 r' v Ev sc Ic) as (sd & Ed & Id). unfold mbind at 1. rewrite Ed, R2.
        eexists. eexists. split; [reflexivity|]. split; [exact Id|reflexivity].
      - destruct (good_h N kappa_idx h_ao g_ao tiny sp th struct csf b1 r' s1 I1) as (sa & Ea & Ia). unfold mbind at 1. rewrite Ea.
        destruct (good_g N kappa_idx h_ao g_ao tiny sp th struct csf b1 r' sa Ia) as (sb & Eb & Ib). unfold mbind at 1. rewrite Eb.
        unfold mbind, gets, lift. pose proof (i_ci _ _ _ _ _ _ _ _ _ _ _ _ Ib) as EC. rewrite Ev in EC. injection EC as EC. rewrite <- EC, RE.
        eexists. eexists. split; [reflexivity|]. split; [exact Ib|reflexivity]. }
    unfold mbind at 1. rewrite E2. unfold mbind, modify, ret. eexists. exists b1, e. split; [reflexivity|].
    split; [apply inv_memo, I2|]. split; [exact EA|]. split; reflexivity.
  Qed.

  (** ** Sequences of calls *)
  (** What the optimiser receives: [r] the parameters and orbitals of the object,
      [q], [e] the last evaluated point and its energy. *)
  Inductive trace (theta kappa : bool) : ref -> list R -> R -> list call -> list (list R) -> ref -> Prop :=
  | tr_nil r q e : trace theta kappa r q e [] [] r
  | tr_again r q e p cs out r' : close q p -> trace theta kappa r q e cs out r' ->
      trace theta kappa r q e (CallE p :: cs) ([e] :: out) r'
  | tr_energy r q e p e' cs out r' : ~ close q p -> energy_at (moved theta kappa p r) = Ok e' ->
      trace theta kappa (moved theta kappa p r) p e' cs out r' ->
      trace theta kappa r q e (CallE p :: cs) ([e'] :: out) r'
  | tr_gradient r q e p G cs out r' : is_gradient theta kappa p (moved theta kappa p r) G ->
      trace theta kappa (moved theta kappa p r) q e cs out r' ->
      trace theta kappa r q e (CallG p :: cs) (G :: out) r'.
  Lemma trace_miss theta kappa r q e p cs out r' : trace theta kappa r q e (CallE p :: cs) out r' -> ~ close q p ->
    exists e' o, out = [e'] :: o /\ energy_at (moved theta kappa p r) = Ok e' /\ trace theta kappa (moved theta kappa p r) p e' cs o r'.
  Proof. intros T HC. inversion T; subst; [easy|]. eauto. Qed.
  Lemma trace_nil theta kappa r q e out r' : trace theta kappa r q e [] out r' -> out = [] /\ r' = r.
  Proof. intros T. inversion T; subst. auto. Qed.
  Definition point (c : call) : list R := match c with CallE p => p | CallG p => p end.
  Definition well_sized (theta kappa : bool) (cs : list call) : Prop :=
    Forall (fun c => plen theta kappa (point c) /\ point c <> []) cs.

  Lemma calls_ok theta kappa cs : forall b r s n, Inv b r s -> well_sized theta kappa cs ->
    (forall c, In c cs -> length (point c) = n) -> length (w_oldp s) = n ->
    exists s' b' out r', calls N kappa_idx h_ao g_ao tiny sp th struct csf theta kappa cs s = (s', Ok out) /\ Inv b' r' s' /\
      trace theta kappa r (w_oldp s) (w_eold s) cs out r'.
  Proof.
    induction cs as [|c cs IH]; intros b r s n HI HW Hn HL.
    - exists s, b, [], r. split; [reflexivity|]. split; [exact HI|constructor].
    - inversion_clear HW as [|? ? [HP Hne] HW']. pose proof (Hn c (or_introl eq_refl)) as Hc. cbn [calls].
      assert (Hn' : forall c, In c cs -> length (point c) = n) by (intros; apply Hn; right; auto).
      destruct c as [p|p]; cbn [one_call point] in *.
      + assert (D : close (w_oldp s) p \/ ~ close (w_oldp s) p).
        { destruct (memo_hit_ok p s ltac:(congruence) Hne) as (hit & _ & Hx). destruct hit; [left; apply Hx; reflexivity|right; intros X; apply Hx in X; discriminate]. }
        destruct D as [D|D].
        * assert (E := calc_energy_hit b r s theta kappa p HI Hne ltac:(congruence) D).
          destruct (IH b r s n HI HW' Hn' HL) as (s' & b' & out & r' & E' & I' & T').
          exists s', b', ([w_eold s] :: out), r'. split; [|split; [exact I'|now constructor]].
          unfold mbind. rewrite E. unfold ret. rewrite E'. reflexivity.
        * destruct (calc_energy_miss b r s theta kappa p HI Hne ltac:(congruence) HP D) as (s1 & b1 & e & E & I1 & EA & Q & W).
          destruct (IH b1 _ s1 n I1 HW' Hn' ltac:(congruence)) as (s' & b' & out & r' & E' & I' & T').
          exists s', b', ([e] :: out), r'. split; [|split; [exact I'|]].
          -- unfold mbind. rewrite E. unfold ret. rewrite E'. reflexivity.
          -- rewrite Q, W in T'. now constructor.
      + destruct (calc_gradient_ok kappa_idx h_ao g_ao tiny sp th struct csf HS Hgates Hcsf Hnorm Hpairs Hh Hg b r s theta kappa p HI HP) as (s1 & b1 & G & E & I1 & HG).
        assert (K1 : keeps w_oldp (calc_gradient N kappa_idx h_ao g_ao tiny sp th struct csf theta kappa p)) by (apply keeps_gradient; reflexivity).
        assert (K2 : keeps w_eold (calc_gradient N kappa_idx h_ao g_ao tiny sp th struct csf theta kappa p)) by (apply keeps_gradient; reflexivity).
        specialize (K1 s). specialize (K2 s).
        rewrite E in K1, K2. cbn [fst] in K1, K2.
        destruct (IH b1 _ s1 n I1 HW' Hn' ltac:(congruence)) as (s' & b' & out & r' & E' & I' & T').
        exists s', b', (G :: out), r'. split; [|split; [exact I'|]].
        * unfold mbind. rewrite E. unfold ret. rewrite E'. reflexivity.
        * rewrite K1, K2 in T'. now constructor.
  Qed.

  (** Flags of the object: whether kappa and thetas are lists or arrays. *)
  Definition stays {A} (P : wf -> Prop) (m : M A) : Prop := forall s, P s -> P (fst (m s)).
  Lemma stays_bind {A B} (P : wf -> Prop) (m : M A) (k : A -> M B) : stays P m -> (forall a, stays P (k a)) -> stays P (mbind m k).
  Proof.
    intros Hm Hk s H. unfold mbind. specialize (Hm s H). destruct (m s) as [s1 [a|e|]]; cbn [fst] in *; auto. apply Hk, Hm.
  Qed.
  Lemma stays_modify (P : wf -> Prop) f : (forall s, P s -> P (f s)) -> stays P (modify f).
  Proof. intros H s. apply H. Qed.
  Lemma stays_same {A} (P : wf -> Prop) (m : M A) : (forall s, fst (m s) = s) -> stays P m.
  Proof. intros H s. rewrite H. auto. Qed.
  Ltac st := repeat first [apply stays_bind; [|intros] | solve [apply stays_same; reflexivity] | solve [apply stays_modify; cbn; auto]].
  Definition lists (s : wf) : Prop := w_karr s = false /\ w_tarr s = false.
  (** All assignments of a history assign lists. *)
  Definition list_assignments (l : list op) : Prop :=
    Forall (fun o => match o with SetKappa _ a => a = false | SetThetas _ a => a = false | Read _ => True end) l.
  Lemma history_lists l : list_assignments l -> forall s, lists s -> lists (fst (hist l s)).
  Proof.
    induction l as [|o l IH]; intros HF s Hs; [exact Hs|]. inversion_clear HF as [|? ? Ho HF']. cbn [history].
    assert (L1 : lists (fst (do_op N kappa_idx h_ao g_ao tiny sp th struct csf o s))).
    { revert s Hs. change (stays lists (do_op N kappa_idx h_ao g_ao tiny sp th struct csf o)). destruct o as [k a|t a|a]; cbn [do_op]; subst.
      - unfold tag, set_kappa. st; apply stays_modify; intros s []; split; auto.
      - unfold tag, set_thetas. apply stays_bind; [apply stays_bind; [st|intros old; destruct (negb _); st]|intros; st];
          apply stays_modify; intros s []; split; auto.
      - intros s [A B]. split.
        + rewrite (keeps_read w_karr) by reflexivity. exact A.
        + rewrite (keeps_read w_tarr) by reflexivity. exact B. }
    destruct (do_op _ _ _ _ _ _ _ _ _ o s) as [s1 v]. cbn [fst] in L1. specialize (IH HF' s1 L1).
    destruct (hist l s1) as [s2 vs]. exact IH.
  Qed.

  Lemma reads_after b r s f : Inv b r s ->
    snd (hist [Read AThetas; Read AKappa; Read AC; Read AEnergy] (set_energy (Some f) s))
    = [Ok (VVec (r_t r)); Ok (VVec (r_k r)); Ok (VMat (r_C r)); Ok (VNum f)].
  Proof.
    intros HI. cbn [history do_op read]. unfold tag, mbind, gets, ret. cbn [w_thetas w_kappa set_energy].
    unfold get_c_mo. cbn [w_kappa w_kold w_cmo set_energy].
    rewrite (i_k _ _ _ _ _ _ _ _ _ _ _ _ HI), (i_ko _ _ _ _ _ _ _ _ _ _ _ _ HI), (i_c _ _ _ _ _ _ _ _ _ _ _ _ HI), (i_t _ _ _ _ _ _ _ _ _ _ _ _ HI).
    destruct (kappa_mat_same kappa_idx N (r_C r) (r_k r) (i_sq _ _ _ _ _ _ _ _ _ _ _ _ HI)) as (km & E & RR). rewrite E. cbn [bind]. rewrite RR.
    unfold get_energy. cbn [w_energy set_energy snd]. reflexivity.
  Qed.

  (** [run_wf_optimization_1step] from a state with coherent caches. *)
  Lemma run_ok b r s (orb : bool) opt x f p0 : Inv b r s -> start_params orb s = (s, Ok p0) -> length p0 = ((if orb then nk else 0) + length struct)%nat ->
    well_sized (negb orb || Nat.ltb 0 (length struct)) orb (opt p0) ->
    length x = ((if orb then nk else 0) + length struct)%nat ->
    exists s' b1 out r1, run orb opt x f s = (set_energy (Some f) s', Ok out) /\
      trace (negb orb || Nat.ltb 0 (length struct)) orb r (map (fun _ => 10 ^ 20) p0) 0 (opt p0) out r1 /\
      Inv b1 {| r_k := if orb then map (fun _ => 0) kappa_idx else r_k r1; r_C := r_C r1; r_t := skipn (if orb then nk else 0) x |} s' /\ b1 = true.
  Proof.
    intros HI E0 L0 HW Lx. unfold run_1step, mbind at 1, gets at 1. rewrite (i_t _ _ _ _ _ _ _ _ _ _ _ _ HI), (i_tl _ _ _ _ _ _ _ _ _ _ _ _ HI).
    unfold mbind at 1. rewrite E0. unfold mbind at 1, modify at 1.
    set (theta := negb orb || Nat.ltb 0 (length struct)) in *.
    assert (Ln : forall c, In c (opt p0) -> length (point c) = length p0).
    { intros c Hc. unfold well_sized in HW. rewrite Forall_forall in HW. destruct (HW c Hc) as [HP _]. unfold Props_Gradient.plen in HP. rewrite HP, L0.
      unfold theta. destruct orb; cbn [negb Datatypes.orb]; [|reflexivity]. destruct (Nat.ltb_spec 0 (length struct)); lia. }
    destruct (calls_ok theta orb (opt p0) b r (set_memo (map (fun _ => 10 ^ 20) p0) 0 s) (length p0) (inv_memo _ _ _ _ _ HI) HW Ln) as (s1 & b1 & out & r1 & E1 & I1 & T1).
    { cbn. apply map_length. }
    unfold mbind at 1. rewrite E1. unfold mbind at 1, gets at 1.
    assert (Lk : length (w_kappa s1) = nk) by (rewrite (i_k _ _ _ _ _ _ _ _ _ _ _ _ I1); apply I1).
    assert (exists s2, (if orb then mbind (set_thetas tiny sp th struct csf (skipn (length (w_kappa s1)) x) false) (fun _ => zero_kappa)
           else set_thetas tiny sp th struct csf x false) s1 = (s2, Ok tt) /\
       Inv true {| r_k := if orb then map (fun _ => 0) kappa_idx else r_k r1; r_C := r_C r1; r_t := skipn (if orb then nk else 0) x |} s2) as (s2 & E2 & I2).
    { destruct orb.
      - assert (L2 : length (skipn (length (w_kappa s1)) x) = length struct) by (rewrite skipn_length; lia).
        destruct (set_thetas_ok N kappa_idx h_ao g_ao tiny sp th struct csf (ups_ok' tiny sp th struct csf HS Hgates Hcsf Hnorm) b1 r1 _ false L2 s1 I1) as (s2 & E2 & I2 & _).
        unfold mbind. rewrite E2. unfold zero_kappa.
        assert (EK : w_kappa s2 = r_k r1) by exact (i_k _ _ _ _ _ _ _ _ _ _ _ _ I2).
        assert (EO : w_kold s2 = r_k r1) by exact (i_ko _ _ _ _ _ _ _ _ _ _ _ _ I2).
        assert (L1 : length (r_k r1) = nk) by exact (i_kl _ _ _ _ _ _ _ _ _ _ _ _ I1).
        rewrite EK, EO, Nat.leb_refl, skipn_all, app_nil_r. eexists. split; [reflexivity|].
        assert (Z : forall (A B : Type) (u : list A) (w : list B), length u = length w -> map (fun _ => 0) u = map (fun _ => 0) w).
        { intros A B. induction u; intros [|y w] H; try discriminate; cbn; [reflexivity|]. f_equal. apply IHu. cbn in H. congruence. }
        constructor; cbn [r_k r_C r_t w_kappa w_kold w_cmo w_h w_g w_thetas w_ci w_rdm1 w_rdm2 w_rdm3 w_rdm4 w_energy set_kold set_k]; try apply I2.
        + apply Z, L1. + apply Z, L1. + apply map_length.
        + rewrite (i_t _ _ _ _ _ _ _ _ _ _ _ _ I2). cbn [r_t]. rewrite Lk. reflexivity.
        + rewrite skipn_length. lia.
        + rewrite <- Lk. apply I2.
      - destruct (set_thetas_ok N kappa_idx h_ao g_ao tiny sp th struct csf (ups_ok' tiny sp th struct csf HS Hgates Hcsf Hnorm) b1 r1 x false Lx s1 I1) as (s2 & E2 & I2 & _).
        exists s2. split; [exact E2|exact I2]. }
    exists s2, true, out, r1. split; [|split; [exact T1|split; [exact I2|reflexivity]]].
    unfold mbind at 1. rewrite E2. reflexivity.
  Qed.
  Lemma start_ok b r s (orb : bool) : Inv b r s -> (orb = true -> lists s) ->
    start_params orb s = (s, Ok ((if orb then r_k r else []) ++ r_t r)).
  Proof.
    intros HI HL. unfold start_params. rewrite (i_t _ _ _ _ _ _ _ _ _ _ _ _ HI), (i_k _ _ _ _ _ _ _ _ _ _ _ _ HI). destruct orb; [|reflexivity].
    destruct (HL eq_refl) as [-> ->]. cbn [Datatypes.orb]. destruct (r_t r); cbn; [rewrite app_nil_r|]; reflexivity.
  Qed.

  (** C68: [run_wf_optimization_1step] on an object with any history, for an
      optimiser that makes any finite sequence of calls (of the right size) and
      returns [x] and [f].  The optimiser receives exact energies and gradients
      ([trace]); afterwards thetas is [x], kappa is reset, the stored energy is
      [f], and the orbitals are those of the last evaluation.  If [f] is the
      energy at that point, the object is coherent for every later history. *)
  Theorem C68_run_1step (l : list op) (orb : bool) opt x f :
    let s0 := fst (hist l obj) in
    let r0 := fst (plain N kappa_idx h_ao g_ao tiny sp th struct csf l (start kappa_idx struct mo_coeffs)) in
    let theta := negb orb || Nat.ltb 0 (length struct) in
    let p0 := (if orb then r_k r0 else []) ++ r_t r0 in
    admissible kappa_idx struct false l -> (orb = true -> list_assignments l) ->
    well_sized theta orb (opt p0) -> length x = ((if orb then nk else 0) + length struct)%nat ->
    exists s' out r1, run orb opt x f s0 = (s', Ok out) /\ trace theta orb r0 (map (fun _ => 10 ^ 20) p0) 0 (opt p0) out r1 /\
      let r2 := {| r_k := if orb then map (fun _ => 0) kappa_idx else r_k r1; r_C := r_C r1; r_t := skipn (if orb then nk else 0) x |} in
      snd (hist [Read AThetas; Read AKappa; Read AC; Read AEnergy] s')
        = [Ok (VVec (r_t r2)); Ok (VVec (r_k r2)); Ok (VMat (r_C r2)); Ok (VNum f)] /\
      (energy_at r2 = Ok f -> forall l', admissible kappa_idx struct true l' ->
         snd (hist l' s') = snd (plain N kappa_idx h_ao g_ao tiny sp th struct csf l' r2)).
  Proof.
    intros s0 r0 theta p0 HA HF HW Lx.
    destruct (history_ok N kappa_idx h_ao g_ao tiny sp th struct csf HS Hgates Hcsf Hpairs l false
       (start kappa_idx struct mo_coeffs) obj HA) as (_ & b & I0). { apply init_inv; auto. }
    fold r0 s0 in I0.
    assert (E0 : start_params orb s0 = (s0, Ok p0)).
    { apply (start_ok b r0 s0 orb I0). intros Ho. apply history_lists; [auto|split; reflexivity]. }
    assert (L0 : length p0 = ((if orb then nk else 0) + length struct)%nat).
    { unfold p0. rewrite app_length, (i_tl _ _ _ _ _ _ _ _ _ _ _ _ I0). destruct orb; [rewrite (i_kl _ _ _ _ _ _ _ _ _ _ _ _ I0)|]; reflexivity. }
    destruct (run_ok b r0 s0 orb opt x f p0 I0 E0 L0 HW Lx) as (s' & b1 & out & r1 & E & T & I & ->).
    exists (set_energy (Some f) s'), out, r1. split; [exact E|]. split; [exact T|]. cbv zeta. split.
    - apply (reads_after _ _ _ f I).
    - intros Ef l' HA'. apply (history_ok N kappa_idx h_ao g_ao tiny sp th struct csf HS Hgates Hcsf Hpairs l' true _ _ HA').
      apply inv_energy; assumption.
  Qed.

  (** ** Optimisation of the ansatz parameters only *)
  Notation with_thetas := Props_Gradient.with_thetas.
  Definition answers (r : ref) (c : call) (o : list R) : Prop :=
    match c with
    | CallE p => exists p' e, o = [e] /\ close p' p /\ energy_at (with_thetas r p') = Ok e
    | CallG p => is_gradient true false p (with_thetas r p) o
    end.
  Definition bounded (cs : list call) : Prop := Forall (fun c => Forall (fun y => Rabs y <= 10 ^ 19) (point c)) cs.
  Lemma eps_pos : 0 < / 10 ^ 14. Proof. apply Rinv_0_lt_compat. apply pow_lt. lra. Qed.
  Lemma close_refl p : close p p.
  Proof. induction p; constructor; auto. unfold Rminus. rewrite Rplus_opp_r, Rabs_R0. apply eps_pos. Qed.
  Lemma not_close_big (B b : R) (n : list R) p : b + 1 <= B -> Forall (fun y => Rabs y <= b) p -> p <> [] -> ~ close (map (fun _ => B) n) p.
  Proof.
    intros HBb HB Hp HC. destruct p as [|y p]; [easy|]. destruct n as [|z n]; inversion HC as [|x z' q w Hx Hr E1 E2]; subst.
    inversion_clear HB as [|? ? Hy _].
    assert (Hs : / 10 ^ 14 < 1) by (rewrite <- Rinv_1; apply Rinv_lt_contravar; cbn; lra).
    assert (A := Rle_abs y). assert (B' := Rle_abs (B - y)). lra.
  Qed.
  Lemma not_close_start (n : list R) p : Forall (fun y => Rabs y <= 10 ^ 19) p -> p <> [] -> ~ close (map (fun _ => 10 ^ 20) n) p.
  Proof.
    apply not_close_big. replace (10 ^ 20) with (10 * 10 ^ 19) by ring.
    assert (P19 : 1 <= 10 ^ 19) by (apply pow_R1_Rle; lra). lra.
  Qed.
  Lemma theta_trace r q e cs out r' : trace true false r q e cs out r' ->
    forall r0, (exists t, r = with_thetas r0 t) -> well_sized true false cs -> bounded cs ->
    ((exists n : list R, q = map (fun _ => 10 ^ 20) n) \/ energy_at (with_thetas r0 q) = Ok e) ->
    Forall2 (answers r0) cs out /\ exists t, r' = with_thetas r0 t.
  Proof.
    induction 1 as [r q e|r q e p cs out r' HC T IH|r q e p e' cs out r' HC HE T IH|r q e p G cs out r' HG T IH];
      intros r0 [t ->] HW HB HQ; [split; [constructor|eauto]|inversion_clear HW as [|? ? [HP Hp] HW']; inversion_clear HB as [|? ? Hb HB']..].
    - cbn [point] in *. destruct (IH r0 (ex_intro _ t eq_refl) HW' HB' HQ) as [H1 H2]. split; [|exact H2]. constructor; [|exact H1]. exists q, e.
      split; [reflexivity|]. split; [exact HC|]. destruct HQ as [[n ->]|HQ]; [|exact HQ]. exfalso. now apply (not_close_start n p).
    - cbn [point] in *. assert (EM : moved true false p (with_thetas r0 t) = with_thetas r0 p) by reflexivity. rewrite EM in *.
      destruct (IH r0 (ex_intro _ p eq_refl) HW' HB' (or_intror HE)) as [H1 H2]. split; [|exact H2]. constructor; [|exact H1]. exists p, e'. auto using close_refl.
    - cbn [point] in *. assert (EM : moved true false p (with_thetas r0 t) = with_thetas r0 p) by reflexivity. rewrite EM in *.
      destruct (IH r0 (ex_intro _ p eq_refl) HW' HB' HQ) as [H1 H2]. split; [|exact H2]. constructor; auto.
  Qed.

  (** C68, without orbital optimisation: every energy the optimiser receives is
      the exact energy at the point asked for, up to a change of each parameter
      by less than 1e-14, every gradient is exact, and the orbitals do not
      change. *)
  Theorem C68_theta_run (l : list op) opt x f :
    let s0 := fst (hist l obj) in
    let r0 := fst (plain N kappa_idx h_ao g_ao tiny sp th struct csf l (start kappa_idx struct mo_coeffs)) in
    admissible kappa_idx struct false l -> (forall p, well_sized true false (opt p) /\ bounded (opt p)) -> length x = length struct ->
    exists s' out, run false opt x f s0 = (s', Ok out) /\ Forall2 (answers r0) (opt (r_t r0)) out /\
      snd (hist [Read AThetas; Read AKappa; Read AC; Read AEnergy] s')
        = [Ok (VVec x); Ok (VVec (r_k r0)); Ok (VMat (r_C r0)); Ok (VNum f)] /\
      (In (CallE x, [f]) (combine (opt (r_t r0)) out) -> exists x', close x' x /\ energy_at (with_thetas r0 x') = Ok f).
  Proof.
    intros s0 r0 HA HO Lx. destruct (HO (r_t r0)) as [HW HB].
    destruct (C68_run_1step l false opt x f HA ltac:(discriminate) HW Lx) as (s' & out & r1 & E & T & RR & _). cbn [negb Datatypes.orb app skipn] in *.
    fold s0 r0 in E, T, RR.
    assert (WT : r0 = with_thetas r0 (r_t r0)) by (destruct r0; reflexivity).
    destruct (theta_trace _ _ _ _ _ _ T r0 (ex_intro _ _ WT) HW HB (or_introl (ex_intro _ _ eq_refl))) as [HF [t Ht]].
    exists s', out. split; [exact E|]. split; [exact HF|]. split.
    - rewrite RR. cbn [r_t r_k r_C]. rewrite Ht. reflexivity.
    - intros Hin. clear - HF Hin. induction HF as [|c o cs os Hc HF IH]; [easy|]. destruct Hin as [H|H]; [|auto]. injection H as -> ->.
      destruct Hc as (p' & e & E1 & E2 & E3). injection E1 as <-. eauto.
  Qed.

  (** ** A second orbital-optimising run *)
  Definition spent (s : wf) : Prop := w_karr s = true /\ length (w_kappa s) = nk /\ length (w_thetas s) = length struct.
  Lemma set_kappa_raise k a s : exists s', w_thetas s' = w_thetas s /\
    (set_kappa N kappa_idx k a s = (s', Ok tt) \/ set_kappa N kappa_idx k a s = (s', Raise ValueError)).
  Proof.
    unfold set_kappa, mbind, modify, gets, get_c_mo. cbn [w_kappa w_kold w_cmo set_k set_energy set_g set_h].
    assert (HK : (exists m, kappa_mat kappa_idx k (w_kold s) = Ok m) \/ kappa_mat kappa_idx k (w_kold s) = Raise ValueError).
    { unfold kappa_mat. destruct k as [|x k]; [eauto|]. generalize (x :: k). intros u. unfold np_op.
      assert (HM : forall d : list R, (exists m, np_max_abs d = Ok m) \/ np_max_abs d = Raise ValueError) by (intros [|]; cbn; eauto).
      assert (HB : forall d, (exists m, bind (np_max_abs d) (fun m => Ok (if Rlt_dec 0 m then fill_kappa u (w_kold s) kappa_idx zero_mat else zero_mat)) = Ok m) \/
         bind (np_max_abs d) (fun m => Ok (if Rlt_dec 0 m then fill_kappa u (w_kold s) kappa_idx zero_mat else zero_mat)) = Raise ValueError).
      { intros d. destruct (HM d) as [[m ->]| ->]; cbn [bind]; eauto. }
      destruct (Nat.eqb _ _); [apply HB|]. destruct u as [|y [|y' u]]; destruct (w_kold s) as [|z [|z' w]]; cbn [bind]; auto; apply HB. }
    destruct HK as [[m ->]| ->]; cbn [bind]; eexists; (split; [|eauto]); reflexivity.
  Qed.
  Lemma set_params_raise p s : (length p - nk)%nat <> length (w_thetas s) ->
    exists s', set_params N kappa_idx tiny sp th struct csf p true true s = (s', Raise ValueError).
  Proof.
    intros H. unfold set_params, mbind at 1. destruct (set_kappa_raise (firstn nk p) true s) as (s1 & ET & [->| ->]); [|eauto].
    exists s1. unfold set_thetas, mbind at 1, gets at 1. rewrite ET.
    destruct (Nat.eqb_spec (length (skipn nk p)) (length (w_thetas s))) as [E|_]; [rewrite skipn_length in E; easy|]. reflexivity.
  Qed.
  Lemma map2_le g a : forall b, (length (map2 g a b) <= length a)%nat.
  Proof. induction a as [|u0 u IHu]; intros [|w0 w]; cbn; try lia. specialize (IHu w). lia. Qed.
  (** C69: once [kappa] is a numpy array, an orbital-optimising run fails. *)
  Lemma run_raise s (opt : list R -> list call) x f : spent s -> (0 < length struct)%nat ->
    (forall p0, exists c cs, opt p0 = c :: cs /\ length (point c) = length p0 /\ Forall (fun y => Rabs y <= 10 ^ 19) (point c)) ->
    exists s', run true opt x f s = (s', Raise ValueError).
  Proof.
    intros (HA & HK & HT) Hn HO. unfold run_1step, mbind at 1, gets at 1. rewrite HT.
    destruct (Nat.ltb_spec 0 (length struct)) as [_|X]; [|lia]. cbn [negb Datatypes.orb].
    unfold mbind at 1, start_params. rewrite HT. destruct (Nat.ltb_spec 0 (length struct)) as [_|X]; [|lia]. rewrite HA. cbn [Datatypes.orb].
    assert (HP : np_op Rplus (w_kappa s) (w_thetas s) = Raise ValueError \/
      exists p0, np_op Rplus (w_kappa s) (w_thetas s) = Ok p0 /\ (length p0 - nk)%nat <> length (w_thetas s)).
    { rewrite HT. unfold np_op. rewrite HK, HT. destruct (Nat.eqb_spec nk (length struct)) as [E|E].
      - right. eexists. split; [reflexivity|]. assert (HL : (length (map2 Rplus (w_kappa s) (w_thetas s)) <= nk)%nat).
        { rewrite <- HK. apply map2_le. }
        lia.
      - rewrite <- HK, <- HT in *. destruct (w_kappa s) as [|a [|a' u]]; destruct (w_thetas s) as [|y [|y' w]]; cbn [length] in *; try lia; auto;
          right; eexists; (split; [reflexivity|]); cbn [length map]; rewrite ?map_length; lia. }
    destruct HP as [->|(p0 & -> & HL)]; [eauto|]. unfold mbind at 1, modify at 1.
    destruct (HO p0) as (c & cs & -> & Hc & Hb). cbn [calls].
    match goal with |- context[mbind (mbind ?o _) _ ?s1] => assert (exists s', o s1 = (s', Raise ValueError)) as (s' & E) end.
    2: { unfold mbind. rewrite E. eauto. }
    set (s1 := set_memo _ _ s). assert (HP : exists s', set_params N kappa_idx tiny sp th struct csf (point c) true true s1 = (s', Raise ValueError)).
    { apply set_params_raise. rewrite Hc. exact HL. }
    destruct HP as (s2 & E2). destruct c as [p|p]; cbn [one_call point] in *.
    - unfold mbind at 1, calc_energy, mbind at 1. destruct p as [|y p].
      + unfold memo_hit, mbind, gets, lift, s1. cbn [w_oldp set_memo]. destruct p0; [|discriminate]. cbn. eauto.
      + destruct (memo_hit_ok (y :: p) s1) as (hit & -> & Hx); [cbn; rewrite map_length; auto|easy|].
        destruct hit; [exfalso; apply (not_close_start p0 (y :: p) Hb ltac:(easy)), Hx; reflexivity|].
        unfold mbind. rewrite E2. eauto.
    - unfold calc_gradient, mbind at 1. rewrite E2. eauto.
  Qed.

  Definition karr (s : wf) : Prop := w_karr s = true.
  Lemma karr_params p theta s : karr (fst (set_params N kappa_idx tiny sp th struct csf p theta true s)).
  Proof.
    assert (S1 : stays karr (set_thetas tiny sp th struct csf (skipn nk p) true)).
    { unfold set_thetas. apply stays_bind; [st|intros old; destruct (negb _); st]. }
    assert (H1 : karr (fst (set_kappa N kappa_idx (firstn nk p) true s))).
    { unfold set_kappa, mbind, modify, gets, get_c_mo. cbn [w_kappa w_kold w_cmo set_k set_energy set_g set_h].
      destruct (kappa_mat _ _ _); reflexivity. }
    unfold set_params, mbind. destruct (set_kappa N kappa_idx (firstn nk p) true s) as [s1 [[]|e|]]; cbn [fst] in *; auto.
    destruct theta; [apply S1, H1|exact H1].
  Qed.
  Lemma karr_keeps {A} (m : M A) : keeps w_karr m -> stays karr m.
  Proof. intros H s K. unfold karr. rewrite H. exact K. Qed.
  Lemma karr_energy theta p s : (forall s', memo_hit p s <> (s', Ok true)) -> forall s' e, energy_fun theta true p s = (s', Ok e) -> karr s'.
  Proof.
    intros HM s' e E. unfold calc_energy, mbind at 1 in E. destruct (memo_hit p s) as [s0 [hit|e0|]]; try discriminate.
    destruct hit; [exfalso; now apply (HM s0)|]. pose proof (karr_params p theta s0) as K. unfold mbind at 1 in E.
    destruct (set_params N kappa_idx tiny sp th struct csf p theta true s0) as [s1 [[]|e1|]]; try discriminate. cbn [fst] in K.
    apply (f_equal fst) in E. cbn [fst] in E. rewrite <- E. clear E. revert s1 K.
    match goal with |- forall s1, karr s1 -> karr (fst (?m s1)) => change (stays karr m) end.
    repeat (apply stays_bind; [|intros]); try st; apply karr_keeps;
      first [apply keeps_h; reflexivity|apply keeps_g; reflexivity|apply keeps_r1; reflexivity|apply keeps_r2; reflexivity].
  Qed.
  Lemma karr_stays_energy theta p : stays karr (energy_fun theta true p).
  Proof.
    unfold calc_energy. apply stays_bind; [unfold memo_hit; st|]. intros [|]; [st|]. apply stays_bind; [intros s _; apply karr_params|intros _].
    repeat (apply stays_bind; [|intros]); try st; apply karr_keeps;
      first [apply keeps_h; reflexivity|apply keeps_g; reflexivity|apply keeps_r1; reflexivity|apply keeps_r2; reflexivity].
  Qed.
  Lemma karr_gradient theta p s : karr (fst (calc_gradient N kappa_idx h_ao g_ao tiny sp th struct csf theta true p s)).
  Proof.
    unfold calc_gradient, mbind at 1. pose proof (karr_params p theta s) as K.
    destruct (set_params N kappa_idx tiny sp th struct csf p theta true s) as [s1 [[]|e1|]]; try exact K. cbn [fst] in K. revert s1 K.
    match goal with |- forall s1, karr s1 -> karr (fst (?m s1)) => change (stays karr m) end.
    repeat (apply stays_bind; [|intros]); try st; try destruct theta; repeat (apply stays_bind; [|intros]); try st; apply karr_keeps;
      first [apply keeps_h; reflexivity|apply keeps_g; reflexivity|apply keeps_r1; reflexivity|apply keeps_r2; reflexivity].
  Qed.
  Lemma karr_calls theta cs : stays karr (calls N kappa_idx h_ao g_ao tiny sp th struct csf theta true cs).
  Proof.
    induction cs as [|c cs IH]; [st|]. cbn [calls]. apply stays_bind; [|intros; apply stays_bind; [exact IH|intros; st]].
    destruct c as [p|p]; cbn [one_call]; [apply stays_bind; [apply karr_stays_energy|intros; st]|intros s _; apply karr_gradient].
  Qed.
  Lemma karr_run b r s opt x f p0 : Inv b r s -> start_params true s = (s, Ok p0) ->
    opt p0 <> [] -> (forall c, In c (opt p0) -> length (point c) = length p0 /\ point c <> []) -> bounded (opt p0) ->
    forall s' out, run true opt x f s = (s', Ok out) -> karr s'.
  Proof.
    intros HI E0 Hne HL HB s' out E. unfold run_1step, mbind at 1, gets at 1 in E. cbn [negb Datatypes.orb] in E.
    set (theta := Nat.ltb 0 _) in E. unfold mbind at 1 in E. rewrite E0 in E. unfold mbind at 1, modify at 1 in E.
    set (s1 := set_memo _ _ s) in E.
    assert (K : forall s2 o, calls N kappa_idx h_ao g_ao tiny sp th struct csf theta true (opt p0) s1 = (s2, Ok o) -> karr s2).
    { destruct (opt p0) as [|c cs]; [easy|]. intros s2 o E2. destruct (HL c (or_introl eq_refl)) as [Hc Hc0]. inversion_clear HB as [|? ? Hb _].
      cbn [calls] in E2. unfold mbind at 1 in E2. assert (K1 : forall s3 a, one_call N kappa_idx h_ao g_ao tiny sp th struct csf theta true c s1 = (s3, Ok a) -> karr s3).
      { intros s3 a E3. destruct c as [p|p]; cbn [one_call point] in *.
        - unfold mbind at 1 in E3. destruct (energy_fun theta true p s1) as [s4 [e|e|]] eqn:E4; try discriminate. injection E3 as <- _.
          apply (karr_energy theta p s1) with (e := e); [|exact E4]. intros s5 E5.
          destruct (memo_hit_ok p s1) as (hit & E6 & Hx); [cbn; rewrite map_length; auto|exact Hc0|].
          rewrite E6 in E5. injection E5 as _ ->. apply (not_close_start p0 p Hb Hc0), Hx. reflexivity.
        - pose proof (karr_gradient theta p s1) as K. rewrite E3 in K. exact K. }
      destruct (one_call _ _ _ _ _ _ _ _ _ theta true c s1) as [s3 [a|e|]]; try discriminate. specialize (K1 s3 a eq_refl).
      unfold mbind at 1 in E2. pose proof (karr_calls theta cs s3 K1) as K2.
      destruct (calls _ _ _ _ _ _ _ _ _ theta true cs s3) as [s4 [o4|e|]]; try discriminate. injection E2 as <- _. exact K2. }
    unfold mbind at 1 in E. destruct (calls _ _ _ _ _ _ _ _ _ theta true (opt p0) s1) as [s2 [o|e|]]; try discriminate.
    specialize (K s2 o eq_refl). apply (f_equal fst) in E. cbn [fst] in E. rewrite <- E. clear E. revert s2 K.
    match goal with |- forall s1, karr s1 -> karr (fst (?m s1)) => change (stays karr m) end.
    apply stays_bind; [st|intros k]. apply stays_bind; [|intros; st]. apply stays_bind; [|intros].
    - unfold set_thetas. apply stays_bind; [st|intros old; destruct (negb _); st].
    - intros s2 K. unfold zero_kappa. destruct (Nat.leb _ _); exact K.
  Qed.

  (** C69: an orbital-optimising run can be made only once on an object with
      ansatz parameters.  The first run leaves the orbital-rotation parameters
      as a numpy array; the next run adds them elementwise to the ansatz
      parameters instead of concatenating, and fails with ValueError whatever
      the numbers of parameters are and whatever is read in between. *)
  Theorem C69_second_run_refuted (l : list op) (opt : list R -> list call) x f reads opt' x' f' :
    let s0 := fst (hist l obj) in
    let r0 := fst (plain N kappa_idx h_ao g_ao tiny sp th struct csf l (start kappa_idx struct mo_coeffs)) in
    let p0 := r_k r0 ++ r_t r0 in
    admissible kappa_idx struct false l -> list_assignments l -> (0 < length struct)%nat ->
    well_sized true true (opt p0) -> bounded (opt p0) -> opt p0 <> [] -> length x = (nk + length struct)%nat ->
    (forall p, exists c cs, opt' p = c :: cs /\ length (point c) = length p /\ bounded [c]) ->
    exists s1 out s3, run true opt x f s0 = (s1, Ok out) /\
      run true opt' x' f' (fst (hist (map Read reads) s1)) = (s3, Raise ValueError).
  Proof.
    intros s0 r0 p0 HA HF Hn HW HB Hne Lx HO.
    destruct (history_ok N kappa_idx h_ao g_ao tiny sp th struct csf HS Hgates Hcsf Hpairs l false
       (start kappa_idx struct mo_coeffs) obj HA) as (_ & b & I0). { apply init_inv; auto. }
    fold r0 s0 in I0.
    assert (E0 : start_params true s0 = (s0, Ok p0)).
    { apply (start_ok b r0 s0 true I0). intros _. apply history_lists; [auto|split; reflexivity]. }
    assert (L0 : length p0 = (nk + length struct)%nat).
    { unfold p0. rewrite app_length, (i_tl _ _ _ _ _ _ _ _ _ _ _ _ I0), (i_kl _ _ _ _ _ _ _ _ _ _ _ _ I0). reflexivity. }
    assert (TT : (negb true || Nat.ltb 0 (length struct))%bool = true) by (destruct (Nat.ltb_spec 0 (length struct)); [reflexivity|lia]).
    destruct (run_ok b r0 s0 true opt x f p0 I0 E0 L0) as (s' & b1 & out & r1 & E & T & I & ->); [rewrite TT; exact HW|exact Lx|].
    exists (set_energy (Some f) s'), out.
    assert (K : karr (set_energy (Some f) s')).
    { apply (karr_run b r0 s0 opt x f p0 I0 E0 Hne) with (out := out); auto.
      intros c Hc. unfold well_sized in HW. rewrite Forall_forall in HW. destruct (HW c Hc) as [HP Hp]. split; [|exact Hp].
      rewrite HP, L0. reflexivity. }
    assert (S : spent (set_energy (Some f) s')).
    { split; [exact K|]. cbn [w_kappa w_thetas set_energy]. split.
      - rewrite (i_k _ _ _ _ _ _ _ _ _ _ _ _ I). apply map_length.
      - rewrite (i_t _ _ _ _ _ _ _ _ _ _ _ _ I). exact (i_tl _ _ _ _ _ _ _ _ _ _ _ _ I). }
    assert (S' : spent (fst (hist (map Read reads) (set_energy (Some f) s')))).
    { revert S. generalize (set_energy (Some f) s'). clear. induction reads as [|a reads IH]; intros s S; [exact S|]. cbn [map history do_op].
      assert (S1 : spent (fst (read N kappa_idx h_ao g_ao tiny sp th a s))).
      { destruct S as (A & B & C). unfold spent. rewrite (keeps_read w_karr), (keeps_read w_kappa), (keeps_read w_thetas) by reflexivity. auto. }
      destruct (read _ _ _ _ _ _ _ a s) as [s1 v]. specialize (IH s1 S1). destruct (hist (map Read reads) s1). exact IH. }
    destruct (run_raise _ opt' x' f' S' Hn) as (s3 & E3).
    - intros p. destruct (HO p) as (c & cs & A & B & C). inversion_clear C. eauto.
    - exists s3. split; [exact E|exact E3].
  Qed.
End Optimise.

(** ** Orbitals of the last evaluation *)
(** Two electrons in one active orbital, one virtual orbital, the rotation
    between them; h = diag(1, 0), no repulsion. *)
Definition ex2_sp : space :=
  {| sp_ni := 0; sp_na := 1; sp_nv := 1; sp_ci := match get_indexing 1 1 1 with Ok c => c | _ => {| det2idx := []; idx2det := [] |} end |}.
Definition ex2_idx : list (nat * nat) := [(0, 1)]%nat.
Definition ex2_h (a b : nat) : R := match a, b with 0%nat, 0%nat => 1 | _, _ => 0 end.
Definition ex2_g (a b c d : nat) : R := 0.
Definition ex2_c : mat := tab 2 mid.

Lemma ex2_sector : sector rtiny ex2_sp None.
Proof. constructor; [intros c; apply rtiny_spec|cbn; lia|exists 1%Z, 1%Z; vm_compute; reflexivity|discriminate]. Qed.
Lemma ex2_pairs : rotation_pairs 2 ex2_idx.
Proof. split; [repeat constructor; cbn; intuition congruence|repeat constructor; cbn; lia]. Qed.

Lemma ex2_energy r : r_t r = [] ->
  Props_Gradient.energy_at ex2_h ex2_g rtiny ex2_sp None [] [1] r = Ok (2 * (ent (r_C r) 0 0 * ent (r_C r) 0 0)).
Proof.
  intros Ht. unfold Props_Gradient.energy_at. rewrite Ht.
  assert (E0 : ups_state rtiny ex2_sp None 0 [] [] false [1] = Ok [1]) by reflexivity. rewrite E0. cbn [bind].
  rewrite (energy_of_ip rtiny ex2_sp None ex2_sector _ _ [1] ltac:(vm_compute; reflexivity)). f_equal.
  assert (G0 : forall p q u w, two_electron_integral_transform 2 (ent (r_C r)) ex2_g p q u w = 0).
  { intros. cbn. unfold ex2_g. ring. }
  change (sp_ni ex2_sp + sp_na ex2_sp + sp_nv ex2_sp)%nat with 2%nat in *.
  set (h := one_electron_integral_transform 2 (ent (r_C r)) ex2_h).
  set (g := two_electron_integral_transform 2 (ent (r_C r)) ex2_g) in *.
  assert (E1 : ip (2 * 2) (fket ex2_sp [1]) (Hact (1 / 2) h g 2 (fket ex2_sp [1]))
             = ip (2 * 2) (fket ex2_sp [1]) (fun x => sumn 2 (fun p => sumn 2 (fun q => h p q * Eop p q (fket ex2_sp [1]) x)))).
  { apply ip_ext; [reflexivity|]. intros x. unfold Hact. cbn [radd rmul R_CRing].
    assert (S0 : forall F : nat -> R, (forall i, F i = 0) -> sumn 2 F = 0).
    { intros F HF. cbn. rewrite !HF. ring. }
    rewrite (S0 (fun p => sumn 2 (fun q => sumn 2 (fun r0 => sumn 2 (fun s => g p q r0 s * eop p q r0 s (fket ex2_sp [1]) x))))); [ring|].
    intros p. apply S0. intros q. apply S0. intros u. apply S0. intros w. rewrite G0. ring. }
  rewrite E1. clear E1.
  transitivity (2 * h 0%nat 0%nat).
  - generalize h. clear. intros h. vm_compute. ring.
  - unfold h. cbn. unfold ex2_h. ring.
Qed.

Lemma plane2_exp (A : nat -> nat -> R) t : meq 2 A (fun a b => t * match a, b with 0%nat, 1%nat => 1 | 1%nat, 0%nat => - 1 | _, _ => 0 end) ->
  forall a b, (a < 2)%nat -> (b < 2)%nat -> expm 2 (fun x y => - A x y) a b
   = if Nat.eqb a b then cos t else if Nat.eqb a 0 then - sin t else sin t.
Proof.
  intros HA a b Ha Hb.
  set (G := fun a b : nat => match a, b with 0%nat, 1%nat => 1 | 1%nat, 0%nat => - 1 | _, _ => 0 end).
  rewrite (expm_ext 2 _ (mscal (- t) G)) by (auto; intros x y Hx Hy; unfold mscal, G; rewrite HA by auto; ring).
  rewrite (expm_rotation 2 G (- t)); auto.
  - rewrite sin_neg, cos_neg. destruct a as [|[|]]; [| |lia]; (destruct b as [|[|]]; [| |lia]); cbn; unfold G, mid; cbn; ring.
  - intros x y Hx Hy. destruct x as [|[|]]; [| |lia]; (destruct y as [|[|]]; [| |lia]); unfold mscal; cbn; unfold G; cbn; ring.
Qed.
Lemma ex2_turn (c : mat) (k k0 : R) a b : (a < 2)%nat -> (b < 2)%nat ->
  ent (times_exp 2 c (kmat ex2_idx (sub [k] [k0]))) a b
  = if Nat.eqb b 0 then ent c a 0 * cos (k - k0) + ent c a 1 * sin (k - k0) else - (ent c a 0 * sin (k - k0)) + ent c a 1 * cos (k - k0).
Proof.
  intros Ha Hb. unfold times_exp. rewrite ent_tab by lia. cbn [tsum].
  rewrite !(plane2_exp _ (k - k0)) by (try lia; intros x y Hx Hy; destruct x as [|[|]]; try lia; destruct y as [|[|]]; try lia; cbn; ring).
  destruct b as [|[|]]; [| |lia]; cbn; ring.
Qed.

(** C69: after an orbital-optimising run the object need not be at the point
    that the optimiser returned.  The optimiser evaluates the minimum [PI/2]
    (energy 0), then the origin (energy 2), and returns the minimum: the object
    reports the energy 0 of the minimum, but holds the orbitals of the origin;
    a new object with these orbitals has energy 2. *)
Theorem C69_orbitals_left_refuted :
  let run := run_1step 2 ex2_idx ex2_h ex2_g rtiny ex2_sp None [] [1] in
  let hist := history 2 ex2_idx ex2_h ex2_g rtiny ex2_sp None [] [1] in
  let obj := init ex2_idx [] [1] in
  exists s' c, run true (fun _ => [CallE [PI / 2]; CallE [0]]) [PI / 2] 0 (obj ex2_c) = (s', Ok [[0]; [2]]) /\
    snd (hist [Read AThetas; Read AKappa; Read AC; Read AEnergy] s') = [Ok (VVec []); Ok (VVec [0]); Ok (VMat c); Ok (VNum 0)] /\
    snd (hist [Read AEnergy] (obj c)) = [Ok (VNum 2)].
Proof.
  intros run hist obj.
  assert (PI4 : 0 < PI <= 4) by (split; [apply PI_RGT_0|apply PI_4]).
  destruct (C68_run_1step ex2_idx ex2_h ex2_g rtiny ex2_sp None [] [1] ex2_sector rtiny_0 (Forall_nil _) eq_refl ltac:(cbn; ring) ex2_pairs ex2_c (tab_square 2 mid))
    with (l := @nil op) (orb := true) (opt := fun _ : list R => [CallE [PI / 2]; CallE [0]]) (x := [PI / 2]) (f := 0)
    as (s' & out & r1 & E & T & RR & _).
  - intros a b _ _. unfold ex2_h. destruct a, b; reflexivity.
  - intros; unfold ex2_g; auto.
  - exact I.
  - intros _. constructor.
  - repeat constructor; discriminate.
  - reflexivity.
  - cbn [history plain fst negb Datatypes.orb length Nat.ltb Nat.leb start map ex2_idx] in *.
    apply trace_miss in T as (e1 & o1 & -> & HE & T'); fold ex2_idx in *.
    2: { apply (not_close_start [0] [PI / 2]); [|easy]. constructor; [|constructor]. rewrite Rabs_right by lra.
      apply Rle_trans with 10; [lra|]. rewrite <- (pow_1 10) at 1. apply Rle_pow; [lra|lia]. }
    apply trace_miss in T' as (e2 & o2 & -> & HE2 & T2).
    2: { intros HC2. inversion_clear HC2 as [|? ? ? ? H2 _]. rewrite Rminus_0_r, Rabs_right in H2 by lra.
      assert (Hs : / 10 ^ 14 < 1) by (rewrite <- Rinv_1; apply Rinv_lt_contravar; cbn; lra).
      assert (P3 : 2 < PI) by (pose proof PI2_3_2; lra). lra. }
    apply trace_nil in T2 as [-> ->].
    rewrite ex2_energy in HE by reflexivity. rewrite ex2_energy in HE2 by reflexivity.
    set (rr := moved ex2_idx ex2_sp false true [0] (moved ex2_idx ex2_sp false true [PI / 2] (start ex2_idx [] ex2_c))) in *.
    assert (C1 : forall a b, (a < 2)%nat -> (b < 2)%nat -> ent (r_C (moved ex2_idx ex2_sp false true [PI / 2] (start ex2_idx [] ex2_c))) a b
       = match a, b with 0%nat, 1%nat => - 1 | 1%nat, 0%nat => 1 | _, _ => 0 end).
    { intros a b Ha Hb. unfold moved. cbn [r_C r_k start map ex2_idx firstn length]. fold ex2_idx. rewrite ex2_turn by auto.
      rewrite Rminus_0_r, sin_PI2, cos_PI2. unfold ex2_c. rewrite !ent_tab by lia. destruct a as [|[|]]; try lia; destruct b as [|[|]]; try lia; cbn; ring. }
    assert (C2 : forall a b, (a < 2)%nat -> (b < 2)%nat -> ent (r_C rr) a b = if Nat.eqb a b then 1 else 0).
    { intros a b Ha Hb. unfold rr. set (q := moved ex2_idx ex2_sp false true [PI / 2] _) in *. unfold moved. cbn [r_C r_k start map ex2_idx firstn length]. fold ex2_idx.
      change (r_k q) with [PI / 2]. rewrite ex2_turn by auto.
      rewrite Rminus_0_l, sin_neg, cos_neg, sin_PI2, cos_PI2. rewrite !C1 by lia. destruct a as [|[|]]; try lia; destruct b as [|[|]]; try lia; cbn; ring. }
    rewrite C1 in HE by lia. rewrite C2 in HE2 by lia.
    exists s', (r_C rr). split; [|split].
    + unfold run, obj. refine (eq_trans E _). apply (f_equal (fun x => match x with Ok y => y | _ => 0 end)) in HE, HE2. cbn in HE, HE2.
            match goal with |- (_, Ok [[?a]; [?b]]) = _ => assert (Ha : a = 0) by lra; assert (Hb : b = 2) by lra; rewrite Ha, Hb end. reflexivity.
    + exact RR.
    + unfold hist, obj. pose proof (C29_cache_coherence 2 ex2_idx ex2_h ex2_g rtiny ex2_sp None [] [1] ex2_sector rtiny_0 (Forall_nil _) eq_refl ex2_pairs
        (r_C rr) (tab_square 2 _) [Read AEnergy] ltac:(repeat split; discriminate)) as X.
      refine (eq_trans X _). cbn [plain plain_step snd fresh].
      change (bind _ _) with (bind (Props_Gradient.energy_at ex2_h ex2_g rtiny ex2_sp None [] [1] (start ex2_idx [] (r_C rr))) (fun e => Ok (VNum e))).
      rewrite ex2_energy by reflexivity. cbn [bind r_C start]. rewrite C2 by lia. cbn [Nat.eqb]. do 3 f_equal. ring.
Qed.

(** The hypotheses are met by an object with ten ansatz parameters and four
    orbital rotations: an optimiser that evaluates the energy twice and the
    gradient once, started after a history of assignments and reads. *)
Definition exo_l : list op := [Read AEnergy; SetKappa [1; 1; 1; 0] false; SetThetas (repeat 2 10) false; Read ARdm4].
Definition exo_calls (p : list R) : list call := [CallE exg_p; CallG exg_p; CallE exg_p].
Lemma exg_bounded : Forall (fun y => Rabs y <= 10 ^ 19) exg_p.
Proof.
  assert (T : forall y, Rabs y <= 2 -> Rabs y <= 10 ^ 19).
  { intros y Hy. apply Rle_trans with 10; [lra|]. rewrite <- (pow_1 10) at 1. apply Rle_pow; [lra|lia]. }
  unfold exg_p. cbn [app repeat]. repeat (apply Forall_cons; [apply T; unfold Rabs; destruct (Rcase_abs _); lra|]). constructor.
Qed.
Example C68_example : exists s' out,
  run_1step 6 exg_idx exg_h exg_g rtiny Props_UPS.ex_sp None ex_struct (1 :: repeat 0 35) true exo_calls exg_p 7
    (fst (history 6 exg_idx exg_h exg_g rtiny Props_UPS.ex_sp None ex_struct (1 :: repeat 0 35) exo_l
       (init exg_idx ex_struct (1 :: repeat 0 35) (tab 6 mid)))) = (s', Ok out) /\ length out = 3%nat.
Proof.
  destruct C29_example_ansatz as (A & B & C & D & E).
  destruct (C68_run_1step exg_idx exg_h exg_g rtiny Props_UPS.ex_sp None ex_struct (1 :: repeat 0 35) A rtiny_0 B C) with
    (mo_coeffs := tab 6 (@mid R R_CRing)) (l := exo_l) (orb := true) (opt := exo_calls) (x := exg_p) (f := 7) as (s' & out & r1 & H1 & H2 & _).
  - cbn. ring.
  - exact D.
  - exact E.
  - intros a b _ _. unfold exg_h. f_equal. lia.
  - intros a b c d _ _ _ _. unfold exg_g. repeat split; f_equal; lia.
  - cbn. repeat split; discriminate.
  - intros _. repeat constructor.
  - repeat constructor; discriminate.
  - reflexivity.
  - exists s', out. split; [exact H1|]. clear - H2. unfold exo_calls in H2.
    assert (L : forall theta kappa r q e cs out r', trace exg_idx exg_h exg_g rtiny Props_UPS.ex_sp None ex_struct (1 :: repeat 0 35) theta kappa r q e cs out r' ->
       length out = length cs) by (induction 1; cbn; auto).
    apply L in H2. exact H2.
Qed.
Example C69_example : exists s1 out s3,
  run_1step 6 exg_idx exg_h exg_g rtiny Props_UPS.ex_sp None ex_struct (1 :: repeat 0 35) true exo_calls exg_p 7
    (fst (history 6 exg_idx exg_h exg_g rtiny Props_UPS.ex_sp None ex_struct (1 :: repeat 0 35) exo_l
       (init exg_idx ex_struct (1 :: repeat 0 35) (tab 6 mid)))) = (s1, Ok out) /\
  run_1step 6 exg_idx exg_h exg_g rtiny Props_UPS.ex_sp None ex_struct (1 :: repeat 0 35) true (fun p => [CallE (map (fun _ => 0) p)]) exg_p 7
    (fst (history 6 exg_idx exg_h exg_g rtiny Props_UPS.ex_sp None ex_struct (1 :: repeat 0 35) (map Read [AEnergy; ARdm1]) s1)) = (s3, Raise ValueError).
Proof.
  destruct C29_example_ansatz as (A & B & C & D & E).
  apply (C69_second_run_refuted exg_idx exg_h exg_g rtiny Props_UPS.ex_sp None ex_struct (1 :: repeat 0 35) A rtiny_0 B C) with
    (mo_coeffs := tab 6 (@mid R R_CRing)) (l := exo_l) (opt := exo_calls).
  - cbn. ring.
  - exact D.
  - exact E.
  - intros a b _ _. unfold exg_h. f_equal. lia.
  - intros a b c d _ _ _ _. unfold exg_g. repeat split; f_equal; lia.
  - cbn. repeat split; discriminate.
  - repeat constructor.
  - cbn. lia.
  - repeat constructor; discriminate.
  - unfold bounded, exo_calls. do 3 (apply Forall_cons; [exact exg_bounded|]). constructor.
  - discriminate.
  - reflexivity.
  - intros p. eexists. exists []. split; [reflexivity|]. cbn [point]. split; [apply map_length|]. constructor; [|constructor].
    cbn [point]. apply Forall_forall. intros y Hy. apply in_map_iff in Hy as (? & <- & _). rewrite Rabs_R0. apply pow_le. lra.
Qed.

Print Assumptions C68_run_1step.
Print Assumptions C68_theta_run.
Print Assumptions C69_second_run_refuted.
Print Assumptions C69_orbitals_left_refuted.
