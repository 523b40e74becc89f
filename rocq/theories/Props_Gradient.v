(** C66: gradient of the energy with respect to the ansatz parameters;
    C67: orbital gradient as the derivative with respect to an orbital rotation. *)
From Coq Require Import List Bool Arith NArith ZArith Reals Lra Lia.
From Verif Require Import Base RRing Fock FockMore FermiModel OperatorsModel OperatorsProofs OperatorsSums OperatorsActs
  OperatorsActive OperatorsKeys Props_Operators CIModel StateModel StateProofs StateMore Props_State UPSModel UPSState UPSSingle UPSAnsatz Props_UPS
  FockInner DensityModel DensityProofs DensityExpect DensityResponse DensityState Props_Density MatModel MatProofs MatExp Props_Transform WaveModel WaveProofs GradProofs Props_Wave.
Import ListNotations.
Local Open Scope R_scope.

Lemma dot_comm (a b : list R) : dot a b = dot b a.
Proof. revert b. induction a as [|x a IH]; intros [|y b]; cbn; auto. rewrite IH. ring. Qed.

(** Changing one entry of kappa changes the antisymmetric matrix in one plane. *)
Lemma kmat_same idx : forall l a b, kmat idx (sub l l) a b = 0.
Proof.
  induction idx as [|[p q] idx IH]; intros [|x l] a b; cbn [sub map2 kmat]; auto. fold (sub l l). rewrite IH.
  destruct (_ && _); [ring|]. destruct (_ && _); ring.
Qed.
Lemma kmat_bump idx : forall k1 x y k2 m k a b, nth_error idx (length k1) = Some (m, k) ->
  kmat idx (sub (k1 ++ y :: k2) (k1 ++ x :: k2)) a b = (y - x) * plane m k a b.
Proof.
  induction idx as [|[p q] idx IH]; intros [|z k1] x y k2 m k a b H; cbn in H; try discriminate.
  - injection H as -> ->. cbn [app sub map2 kmat]. fold (sub k2 k2). rewrite kmat_same. unfold plane.
    destruct (_ && _); [ring|]. destruct (_ && _); ring.
  - cbn [app sub map2 kmat]. fold (sub (k1 ++ y :: k2) (k1 ++ x :: k2)). rewrite (IH _ _ _ _ m k) by auto.
    destruct (_ && _); [ring|]. destruct (_ && _); ring.
Qed.

(** The rotation in one plane and its derivative. *)
Section Plane.
  Variables (n m k : nat).
  Hypothesis Hm : (m < n)%nat.
  Hypothesis Hk : (k < n)%nat.
  Hypothesis Hmk : m <> k.
  Notation P := (plane m k).
  Definition plane2 (a b : nat) : R := if Nat.eqb a b && (Nat.eqb a m || Nat.eqb a k) then - 1 else 0.
  Lemma plane_mul (F : nat -> nat -> R) a b :
    matmul n P F a b = (if Nat.eqb a m then F k b else 0) - (if Nat.eqb a k then F m b else 0).
  Proof.
    rewrite matmulE. rewrite (tsum_ext n _ (fun l => (if Nat.eqb l k then 1 else 0) * ((if Nat.eqb a m then 1 else 0) * F l b)
      + (if Nat.eqb l m then 1 else 0) * (- (if Nat.eqb a k then 1 else 0) * F l b))).
    - rewrite tplus. rewrite (tdelta n k (fun l => (if Nat.eqb a m then 1 else 0) * F l b)) by auto.
      rewrite (tdelta n m (fun l => - (if Nat.eqb a k then 1 else 0) * F l b)) by auto.
      destruct (Nat.eqb a m), (Nat.eqb a k); ring.
    - intros l Hl. unfold plane. destruct (Nat.eqb_spec a m), (Nat.eqb_spec l k), (Nat.eqb_spec a k), (Nat.eqb_spec l m); subst; cbn [andb]; try lia; ring.
  Qed.
  Lemma plane_sq a b : matmul n P P a b = plane2 a b.
  Proof.
    rewrite plane_mul. unfold plane, plane2.
    destruct (Nat.eqb_spec a m), (Nat.eqb_spec b k), (Nat.eqb_spec a k), (Nat.eqb_spec b m), (Nat.eqb_spec k m), (Nat.eqb_spec m k), (Nat.eqb_spec a b);
      subst; rewrite ?Nat.eqb_refl; cbn [andb orb]; try lia; try ring.
  Qed.
  Lemma plane_cube : meq n (matmul n P (matmul n P P)) (mscal (-1) P).
  Proof.
    intros a b _ _. rewrite plane_mul, !plane_sq. unfold plane, plane2, mscal.
    destruct (Nat.eqb_spec a m), (Nat.eqb_spec b k), (Nat.eqb_spec a k), (Nat.eqb_spec b m), (Nat.eqb_spec k m), (Nat.eqb_spec m k), (Nat.eqb_spec k b), (Nat.eqb_spec m b);
      subst; rewrite ?Nat.eqb_refl; cbn [andb orb]; try lia; try ring.
  Qed.
  Definition Urot (s : R) : nat -> nat -> R := expm n (fun a b => - (s * P a b)).
  Lemma Urot_eq s a b : (a < n)%nat -> (b < n)%nat -> Urot s a b = mid a b - sin s * P a b + (1 - cos s) * plane2 a b.
  Proof.
    intros Ha Hb. unfold Urot. rewrite (expm_ext n _ (mscal (- s) P)) by (auto; intros x y _ _; unfold mscal; ring).
    rewrite (expm_rotation n P (- s) plane_cube) by auto. rewrite sin_neg, cos_neg, plane_sq. ring.
  Qed.
  Lemma Urot_0 a b : (a < n)%nat -> (b < n)%nat -> Urot 0 a b = if Nat.eqb a b then 1 else 0.
  Proof. intros Ha Hb. rewrite Urot_eq by auto. rewrite sin_0, cos_0. unfold mid. cbn [rI rO R_CRing]. destruct (Nat.eqb a b); ring. Qed.
  Lemma Urot_d a b : (a < n)%nat -> (b < n)%nat -> derivable_pt_lim (fun s => Urot s a b) 0 (- P a b).
  Proof.
    intros Ha Hb. apply (dlim_ext (fun s => mid a b - sin s * P a b + (1 - cos s) * plane2 a b)); [intros s; symmetry; apply Urot_eq; auto|].
    replace (- P a b) with ((0 - (cos 0 * P a b + sin 0 * 0)) + ((0 - - sin 0) * plane2 a b + (1 - cos 0) * 0)) by (rewrite sin_0, cos_0; ring).
    apply (derivable_pt_lim_plus (fun s => mid a b - sin s * P a b) (fun s => (1 - cos s) * plane2 a b)).
    - apply (derivable_pt_lim_minus (fun s => mid a b) (fun s => sin s * P a b)); [apply derivable_pt_lim_const|].
      apply (derivable_pt_lim_mult sin (fun _ => P a b)); [apply derivable_pt_lim_sin|apply derivable_pt_lim_const].
    - apply (derivable_pt_lim_mult (fun s => 1 - cos s) (fun _ => plane2 a b)); [|apply derivable_pt_lim_const].
      apply (derivable_pt_lim_minus (fun _ => 1) cos); [apply derivable_pt_lim_const|apply derivable_pt_lim_cos].
  Qed.

  (** Energy of a fixed state in rotated orbitals. *)
  Variables (psi : ramps) (half : R) (c : mat) (h_ao : nat -> nat -> R) (g_ao : nat -> nat -> nat -> nat -> R).
  Notation ho c := (one_electron_integral_transform n (ent c) h_ao).
  Notation go c := (two_electron_integral_transform n (ent c) g_ao).
  Notation cs s := (times_exp n c (fun a b => s * P a b)).
  Lemma cs_ent s a b : (a < n)%nat -> (b < n)%nat -> ent (cs s) a b = matmul n (ent c) (Urot s) a b.
  Proof. intros Ha Hb. unfold times_exp. rewrite ent_tab by auto. reflexivity. Qed.
  Lemma ho_s s p q : (p < n)%nat -> (q < n)%nat -> ho (cs s) p q = one_electron_integral_transform n (Urot s) (ho c) p q.
  Proof.
    intros Hp Hq. rewrite (@one_comp R R_CRing). rewrite !(@one_sum R R_CRing). apply tsum_ext. intros a Ha. apply tsum_ext. intros b Hb.
    rewrite !cs_ent by auto. reflexivity.
  Qed.
  Lemma go_s s p q r t : (p < n)%nat -> (q < n)%nat -> (r < n)%nat -> (t < n)%nat ->
    go (cs s) p q r t = two_electron_integral_transform n (Urot s) (go c) p q r t.
  Proof.
    intros Hp Hq Hr Ht. destruct (@C51_compose R R_CRing n n (ent c) (Urot s) h_ao g_ao p q r t) as [_ ->].
    rewrite !(proj2 (@C51_defining_sums R R_CRing n _ h_ao g_ao p q r t)).
    apply tsum_ext. intros a1 H1. apply tsum_ext. intros a2 H2. apply tsum_ext. intros a3 H3. apply tsum_ext. intros a4 H4.
    rewrite !cs_ent by auto. reflexivity.
  Qed.
  Lemma rotated_energy : derivable_pt_lim (fun s => ip (2 * n) psi (Hact half (ho (cs s)) (go (cs s)) n psi)) 0
    (ip (2 * n) psi (comm (fun f x => Eact m k f x - Eact k m f x) (Hact half (ho c) (go c) n) psi)).
  Proof.
    rewrite <- (energy_dot n psi half (ho c) (go c) m k Hm Hk Hmk).
    eapply dlim_ext; [intros s; symmetry; apply ip_Hact_t|].
    apply (derivable_pt_lim_plus (fun s => tsum n (fun p => tsum n (fun q => ho (cs s) p q * ip (2 * n) psi (Eop p q psi))))).
    - apply dlim_tsum. intros p Hp. apply dlim_tsum. intros q Hq.
      replace (h_dot n (ho c) m k p q * ip (2 * n) psi (Eop p q psi))
        with (h_dot n (ho c) m k p q * ip (2 * n) psi (Eop p q psi) + ho (cs 0) p q * 0) by ring.
      apply (derivable_pt_lim_mult (fun s => ho (cs s) p q) (fun _ => ip (2 * n) psi (Eop p q psi))); [|apply derivable_pt_lim_const].
      eapply dlim_ext; [intros s; symmetry; apply ho_s; auto|].
      replace (h_dot n (ho c) m k p q) with (h_dot n (ho c) m k p q + 0) by ring.
      apply (d_one n Urot _ Urot_0 Urot_d (fun _ => ho c) (fun _ _ => 0) p q Hp Hq). intros. apply derivable_pt_lim_const.
    - apply dlim_scal. apply dlim_tsum. intros p Hp. apply dlim_tsum. intros q Hq. apply dlim_tsum. intros r Hr. apply dlim_tsum. intros t Ht.
      replace (g_dot n (go c) m k p q r t * ip (2 * n) psi (eop p q r t psi))
        with (g_dot n (go c) m k p q r t * ip (2 * n) psi (eop p q r t psi) + go (cs 0) p q r t * 0) by ring.
      apply (derivable_pt_lim_mult (fun s => go (cs s) p q r t) (fun _ => ip (2 * n) psi (eop p q r t psi))); [|apply derivable_pt_lim_const].
      eapply dlim_ext; [intros s; symmetry; apply go_s; auto|].
      apply (d_two n Urot _ Urot_0 Urot_d (go c) p q r t Hp Hq Hr Ht).
  Qed.
End Plane.

Section Gradient.
  Variables (tiny : R -> bool) (sp : space) (th : threads).
  Hypothesis HS : sector tiny sp th.
  Notation N := (sp_ni sp + sp_na sp + sp_nv sp)%nat.
  Notation d := (length (idx2det (sp_ci sp))).
  Notation fk := (fket sp).
  Notation half := (1 / 2).

  (** Matrix elements of the Hamiltonian between CI vectors. *)
  Lemma ham_element h g v : length v = d -> exists D out, hamiltonian_0i_0a half h g (sp_ni sp) (sp_na sp) = Ok D /\
    propagate_state tiny sp th true false no_ansatz [SOp D] v = Ok out /\ length out = d /\
    forall u, length u = d -> dot u out = ip (2 * N) (fk u) (Hact half h g N (fk v)).
  Proof.
    intros Hv. destruct HS as [Ht Hp (na & nb & Hi) Hth].
    assert (REP := hamiltonian_0i_0a_rep R_exact_small (bal N) (bal_stable N) half h g (sp_ni sp) (sp_na sp)
         (fun p q Hp Hq => PE_bal N p q (ltac:(apply in_seq in Hp; lia)) (ltac:(apply in_seq in Hq; lia)))).
    destruct REP as (D & E1 & HD & HF).
    destruct (@apply_nth R R_CRing tiny sp th false no_ansatz na nb Ht Hp Hi Hth D v HD Hv) as (out & Eo & Lo & Hn).
    exists D, out. split; [exact E1|]. split; [exact Eo|]. split; [exact Lo|]. intros u Hu.
    rewrite (@dot_ip R R_CRing sp na nb Hp Hi u (opapp D (fk v)) out Hu Lo Hn).
    unfold ip. apply lsum_ext. intros x _.
    destruct (asp_dec (sp_ni sp) (sp_na sp) x) as [Hx|Hx].
    - rewrite HF. f_equal. rewrite (active_equal half h g (sp_ni sp) (sp_na sp) (sp_nv sp) (fk v) x Hx (fket_supp sp Hp v)). apply Hact_lsum.
    - rewrite (fket_supp sp Hp u x Hx). cbn [rmul R_CRing]. rewrite !Rmult_0_l. reflexivity.
  Qed.
  Lemma energy_of_ip h g v : length v = d -> energy_of tiny sp th h g v = Ok (ip (2 * N) (fk v) (Hact half h g N (fk v))).
  Proof.
    intros Hv. destruct (ham_element h g v Hv) as (D & out & E1 & E2 & L & V). unfold energy_of. rewrite E1. cbn [bind].
    unfold expectation_value. rewrite E2. cbn [bind]. f_equal. apply V, Hv.
  Qed.

  Variables (struct : list UPSModel.exc) (csf : list R).
  Hypothesis Hgates : Forall (gate_ok (sp_na sp) 0) struct.
  Hypothesis Hcsf : length csf = d.
  Variables (h : nat -> nat -> R) (g : nat -> nat -> nat -> nat -> R).
  Hypothesis Hh : forall p q, (p < N)%nat -> (q < N)%nat -> h p q = h q p.
  Hypothesis Hg : forall p q r s, (p < N)%nat -> (q < N)%nat -> (r < N)%nat -> (s < N)%nat -> g p q r s = g q p s r.

  (** C66: [_calc_gradient_optimization] returns, for every ansatz parameter, the
      derivative of the energy with respect to that parameter. *)
  Theorem C66_theta_gradient thetas : length thetas = length struct ->
    exists v G, ups_state tiny sp th 0 struct thetas false csf = Ok v /\
      theta_gradient tiny sp th struct csf h g v thetas = Ok G /\ length G = length thetas /\
      forall t1 t t2, thetas = t1 ++ t :: t2 -> exists energy : R -> R,
        (forall s, bind (ups_state tiny sp th 0 struct (t1 ++ s :: t2) false csf) (energy_of tiny sp th h g) = Ok (energy s)) /\
        derivable_pt_lim energy t (nth (length t1) G 0).
  Proof.
    intros HL.
    destruct (ups_total' tiny sp th HS struct thetas csf Hgates HL Hcsf) as (v & Ev & Lv).
    destruct (ham_element h g v Lv) as (D & hp & E1 & E2 & Lhp & V).
    destruct (C23_dagger_is_inverse tiny sp th 0 struct thetas hp HS Hgates HL Lhp true) as (bra & Eb & Lb & Ei). cbn [negb] in Ei.
    destruct (loop_ok tiny sp th HS csf Hcsf struct thetas [] [] bra csf [] hp Hgates eq_refl HL eq_refl Hcsf ltac:(congruence) Ei)
      as (b' & k' & gs & EF & LG & PG).
    exists v, gs. split; [exact Ev|]. split; [|split].
    - unfold theta_gradient. rewrite E1. cbn [bind]. rewrite E2. cbn [bind]. rewrite Eb. cbn [bind]. unfold theta_loop.
      fold (loop_step tiny sp th struct thetas). cbn [app length] in EF. rewrite HL, EF. reflexivity.
    - congruence.
    - intros t1 t t2 ->.
      assert (exists s1 e s2, struct = s1 ++ e :: s2 /\ length t1 = length s1 /\ length t2 = length s2) as (s1 & e & s2 & -> & L1 & L2).
      { rewrite app_length in HL. cbn in HL. exists (firstn (length t1) struct).
        destruct (skipn (length t1) struct) as [|e s2] eqn:Es.
        - exfalso. apply (f_equal (@length _)) in Es. rewrite skipn_length in Es. cbn in Es. lia.
        - exists e, s2. split; [rewrite <- Es; symmetry; apply firstn_skipn|]. split; [rewrite firstn_length; lia|].
          apply (f_equal (@length _)) in Es. rewrite skipn_length in Es. cbn in Es. lia. }
      destruct (PG s1 e s2 t1 t t2 eq_refl eq_refl L1) as (out & (a & gg & D1 & D2 & D3) & Lo & Vn).
      cbn [app] in D1, D2.
      destruct (C23_parameter_derivative tiny sp th 0 s1 e s2 t1 t t2 csf HS Hgates L1 L2 Hcsf) as (W & a' & g' & out' & W1 & W2 & W3 & W4 & W5 & W6).
      assert (a' = a) as -> by congruence. assert (g' = gg) as -> by congruence. assert (out' = out) as -> by congruence.
      assert (LW : forall s, length (W s) = d).
      { intros s. destruct (ups_total' tiny sp th HS (s1 ++ e :: s2) (t1 ++ s :: t2) csf Hgates) as (w & Ew & Lw); auto.
        - rewrite !app_length. cbn. congruence. - rewrite W1 in Ew. congruence. }
      exists (fun s => ip (2 * N) (fk (W s)) (Hact half h g N (fk (W s)))). split.
      + intros s. rewrite W1. cbn [bind]. apply energy_of_ip, LW.
      + assert (DV : dv (fun s => fk (W s)) t (fk out)).
        { intros y. destruct HS as [Ht Hp Hi Hth]. destruct (asp_dec (sp_ni sp) (sp_na sp) y) as [Hy|Hy].
          - destruct (asp_is_embed sp Hp y Hy) as (x & -> & Hx). rewrite fket_embed.
            eapply dlim_ext; [|apply (W6 x)]. intros s. symmetry. apply fket_embed.
          - rewrite (fket_supp sp Hp out y Hy). eapply dlim_ext; [|apply derivable_pt_lim_const]. intros s. symmetry. apply (fket_supp sp Hp _ y Hy). }
        assert (Wt : W t = v) by (rewrite W1 in Ev; congruence).
        pose proof (dlim_ip (2 * N) _ _ t _ _ DV (dv_Hact half h g N _ t _ DV)) as DE. cbv beta in DE. rewrite Wt in DE.
        replace (nth (length t1) gs 0) with (ip (2 * N) (fk out) (Hact half h g N (fk v)) + ip (2 * N) (fk v) (Hact half h g N (fk out))); [exact DE|].
        rewrite (Hact_sym half h g N Hh Hg (fk v) (fk out)), <- (V out Lo), L1, Vn.
        rewrite (dot_comm hp out). ring.
  Qed.
End Gradient.

Lemma dlim_shift (f : R -> R) x l : derivable_pt_lim f 0 l -> derivable_pt_lim (fun y => f (y - x)) x l.
Proof.
  intros H eps He. destruct (H eps He) as (del & Hd). exists del. intros h H1 H2. specialize (Hd h H1 H2).
  replace (x - x) with 0 by ring. replace (x + h - x) with (0 + h) by ring. exact Hd.
Qed.

Section ObjectGradient.
  Variables (kappa_idx : list (nat * nat)) (h_ao : nat -> nat -> R) (g_ao : nat -> nat -> nat -> nat -> R).
  Variables (tiny : R -> bool) (sp : space) (th : threads).
  Variables (struct : list UPSModel.exc) (csf : list R).
  Notation N := (sp_ni sp + sp_na sp + sp_nv sp)%nat.
  Hypothesis HS : sector tiny sp th.
  Hypothesis H0 : tiny 0 = true.
  Hypothesis Hgates : Forall (gate_ok (sp_na sp) 0) struct.
  Hypothesis Hcsf : length csf = length (idx2det (sp_ci sp)).
  Hypothesis Hnorm : dot csf csf = 1.
  Hypothesis Hpairs : rotation_pairs N kappa_idx.
  Variable mo_coeffs : mat.
  Hypothesis Hmo : square N mo_coeffs.
  (** Real orbitals: the integrals have the usual symmetries. *)
  Hypothesis Hh : forall a b, (a < N)%nat -> (b < N)%nat -> h_ao a b = h_ao b a.
  Hypothesis Hg : forall a b c d, (a < N)%nat -> (b < N)%nat -> (c < N)%nat -> (d < N)%nat ->
    g_ao a b c d = g_ao b a c d /\ g_ao a b c d = g_ao a b d c /\ g_ao a b c d = g_ao c d a b.
  Notation obj := (init kappa_idx struct csf mo_coeffs).
  Notation hist := (history N kappa_idx h_ao g_ao tiny sp th struct csf).
  Notation Inv := (inv N kappa_idx h_ao g_ao tiny sp th struct csf).
  Notation ho c := (one_electron_integral_transform N (ent c) h_ao).
  Notation go c := (two_electron_integral_transform N (ent c) g_ao).
  Notation half := (1 / 2).
  Notation nk := (length kappa_idx).

  Lemma mo_sym c : (forall p q, ho c p q = ho c q p) /\
    (forall p q r s, go c p q r s = go c q p s r /\ go c p q r s = go c r s p q).
  Proof.
    destruct (@C51_symmetry R R_CRing N (ent c) h_ao g_ao Hh Hg) as [S1 S2]. split; [exact S1|]. intros p q r s. split.
    - destruct (S2 p q r s) as (E1 & _). destruct (S2 q p r s) as (_ & E2 & _). congruence.
    - apply S2.
  Qed.
  Lemma ups_ok t : length t = length struct -> exists v, ups_state tiny sp th 0 struct t false csf = Ok v /\
    length v = length (idx2det (sp_ci sp)) /\ dot v v = 1.
  Proof.
    intros HL. destruct (ups_total' tiny sp th HS struct t csf Hgates HL Hcsf) as (v & E & L). exists v. split; [exact E|]. split; [exact L|].
    destruct (C23_scalar_product tiny sp th 0 struct t false csf csf HS Hgates Hcsf Hcsf) as (u & w & E1 & E2 & D). congruence.
  Qed.

  Lemma ups_ok' t : length t = length struct -> exists v, ups_state tiny sp th 0 struct t false csf = Ok v.
  Proof. intros HL. destruct (ups_ok t HL) as (v & E & _). eauto. Qed.

  (** The orbital part: derivative of the energy with respect to one entry of kappa. *)
  Lemma orbital_derivative c v : length v = length (idx2det (sp_ci sp)) -> dot v v = 1 ->
    exists r1 r2, wf_rdm1 tiny sp th no_ansatz v = Ok r1 /\ wf_rdm2 tiny sp th no_ansatz v = Ok r2 /\
    forall k1 x k2, length (k1 ++ x :: k2) = nk -> exists E : R -> R,
      (forall y, let c' := times_exp N c (kmat kappa_idx (sub (k1 ++ y :: k2) (k1 ++ x :: k2))) in
         energy_of tiny sp th (ho c') (go c') v = Ok (E y)) /\
      derivable_pt_lim E x (nth (length k1) (get_orbital_gradient (ho c) (go c) kappa_idx (sp_ni sp) (sp_na sp)
         (fun i j => r1 [i; j]) (fun i j k l => r2 [i; j; k; l])) 0).
  Proof.
    intros Lv Nv. pose proof HS as [Ht Hp (na' & nb' & Hi) Hth].
    assert (HW : wf_setup tiny sp th na' nb' v) by (repeat split; auto; exact R_exact_small).
    destruct (C28_rdm1_rdm2 tiny sp th no_ansatz na' nb' v HW) as (r1 & r2 & E1 & E2 & DM).
    pose proof (C28_state tiny sp th na' nb' v HW Nv) as ST.
    exists r1, r2. split; [exact E1|]. split; [exact E2|]. intros k1 x k2 HL.
    destruct (nth_error kappa_idx (length k1)) as [[m k]|] eqn:Em.
    2:{ exfalso. apply nth_error_None in Em. rewrite app_length in HL. cbn in HL. lia. }
    assert (HP : (m < k < N)%nat).
    { destruct Hpairs as [_ HF]. rewrite Forall_forall in HF. apply (HF (m, k)). eapply nth_error_In, Em. }
    set (F := fun s => ip (2 * N) (fket sp v) (Hact half (ho (times_exp N c (fun a b => s * plane m k a b))) (go (times_exp N c (fun a b => s * plane m k a b))) N (fket sp v))).
    exists (fun y => F (y - x)). split.
    - intros y. cbv zeta.
      assert (EC : times_exp N c (kmat kappa_idx (sub (k1 ++ y :: k2) (k1 ++ x :: k2))) = times_exp N c (fun a b => (y - x) * plane m k a b)).
      { unfold times_exp. apply tab_ext. intros i j Hi' Hj'. apply tsum_ext. intros l Hl. cbn [rmul R_CRing]. f_equal. apply expm_ext; auto.
        intros a b _ _. now rewrite (kmat_bump kappa_idx k1 x y k2 m k a b Em). }
      rewrite EC. apply (energy_of_ip tiny sp th HS _ _ v Lv).
    - apply dlim_shift.
      destruct (mo_sym c) as [S1 S2].
      assert (RI : real_integrals N half (ho c) (go c)).
      { split; [cbn; field|]. split; [intros; apply S1|]. split; intros; apply S2. }
      assert (PI : pairs_in N kappa_idx).
      { intros mn Hin. destruct Hpairs as [_ HF]. rewrite Forall_forall in HF. specialize (HF mn Hin). lia. }
      pose proof (C56_orbital_gradient N (sp_ni sp) (sp_na sp) (fket sp v) (fun i j => r1 [i; j]) (fun i j k l => r2 [i; j; k; l]) ST DM half (ho c) (go c) kappa_idx RI PI) as EG.
      rewrite EG.
      match goal with |- derivable_pt_lim _ _ (nth _ (map ?f _) _) => rewrite (nth_error_nth _ _ 0 (map_nth_error f _ _ Em)) end.
      cbn [fst snd]. apply (rotated_energy N m k); lia.
  Qed.

  (** The parameters after a call of an objective function. *)
  Definition moved (theta kappa : bool) (p : list R) (r : ref) : ref :=
    let n := if kappa then nk else 0%nat in
    {| r_k := if kappa then firstn n p else r_k r;
       r_C := if kappa then times_exp N (r_C r) (kmat kappa_idx (sub (firstn n p) (r_k r))) else r_C r;
       r_t := if theta then skipn n p else r_t r |}.
  Definition plen (theta kappa : bool) (p : list R) : Prop :=
    length p = ((if kappa then nk else 0) + (if theta then length struct else 0))%nat.
  Lemma set_params_ok b r s theta kappa p : plen theta kappa p -> Inv b r s ->
    exists s' b', set_params N kappa_idx tiny sp th struct csf p theta kappa s = (s', Ok tt) /\ Inv b' (moved theta kappa p r) s'.
  Proof.
    intros HL HI. unfold set_params, moved, plen in *.
    set (n := if kappa then nk else 0%nat) in *.
    assert (exists s1, (if kappa then set_kappa N kappa_idx (firstn n p) true else ret tt) s = (s1, Ok tt) /\
      Inv b {| r_k := if kappa then firstn n p else r_k r;
       r_C := if kappa then times_exp N (r_C r) (kmat kappa_idx (sub (firstn n p) (r_k r))) else r_C r; r_t := r_t r |} s1) as (s1 & E1 & I1).
    { destruct kappa; [|exists s; split; [reflexivity|]; destruct r; exact HI].
      assert (L1 : length (firstn n p) = nk) by (rewrite firstn_length; unfold n; lia).
      destruct (set_kappa_ok N kappa_idx h_ao g_ao tiny sp th struct csf b r (firstn n p) true L1 s HI) as (s1 & E & I & _).
      rewrite (rotate_times N) in I by (auto; apply HI). eauto. }
    unfold mbind at 1. rewrite E1. destruct theta.
    - assert (L2 : length (skipn n p) = length struct) by (rewrite skipn_length; unfold n in *; destruct kappa; lia).
      destruct (set_thetas_ok N kappa_idx h_ao g_ao tiny sp th struct csf
        ups_ok' b _ (skipn n p) true L2 s1 I1) as (s2 & E2 & I2 & _).
      exists s2, true. split; [exact E2|exact I2].
    - exists s1, b. split; [reflexivity|exact I1].
  Qed.

  (** The energy at given parameters, computed from scratch. *)
  Definition energy_at (r : ref) : Res R :=
    bind (ups_state tiny sp th 0 struct (r_t r) false csf) (energy_of tiny sp th (ho (r_C r)) (go (r_C r))).
  (** One assignment of kappa, of thetas. *)
  Definition with_kappa (r : ref) (k : list R) : ref :=
    {| r_k := k; r_C := times_exp N (r_C r) (kmat kappa_idx (sub k (r_k r))); r_t := r_t r |}.
  Definition with_thetas (r : ref) (t : list R) : ref := {| r_k := r_k r; r_C := r_C r; r_t := t |}.
  (** [G] is the vector of partial derivatives of the energy at [p]; [r] holds the
      orbitals and parameters at [p]. *)
  Definition is_gradient (theta kappa : bool) (p : list R) (r : ref) (G : list R) : Prop :=
    length G = length p /\
    (kappa = true -> forall k1 x k2 rest, p = (k1 ++ x :: k2) ++ rest -> length (k1 ++ x :: k2) = nk ->
       exists energy : R -> R, (forall y, energy_at (with_kappa r (k1 ++ y :: k2)) = Ok (energy y)) /\
         derivable_pt_lim energy x (nth (length k1) G 0)) /\
    (theta = true -> forall front t1 t t2, p = front ++ t1 ++ t :: t2 -> length front = (if kappa then nk else 0%nat) ->
       exists energy : R -> R, (forall y, energy_at (with_thetas r (t1 ++ y :: t2)) = Ok (energy y)) /\
         derivable_pt_lim energy t (nth (length front + length t1) G 0)).

  Lemma energy_after_kappa b r s k arr e : Inv b r s -> length k = nk -> energy_at (with_kappa r k) = Ok e ->
    snd (hist [SetKappa k arr; Read AEnergy] s) = [Ok VUnit; Ok (VNum e)].
  Proof.
    intros HI HL Ee.
    destruct (history_ok N kappa_idx h_ao g_ao tiny sp th struct csf HS Hgates Hcsf Hpairs [SetKappa k arr; Read AEnergy] b r s
      ltac:(cbn; repeat split; auto; discriminate) HI) as (V & _).
    rewrite V. unfold energy_at, with_kappa in Ee. cbn [plain plain_step snd fresh r_t r_C] in *.
    destruct (ups_state tiny sp th 0 struct (r_t r) false csf) as [v| |]; cbn [bind] in *; [|discriminate|discriminate]. rewrite Ee. reflexivity.
  Qed.
  Lemma energy_after_thetas b r s t arr e : Inv b r s -> length t = length struct -> energy_at (with_thetas r t) = Ok e ->
    snd (hist [SetThetas t arr; Read AEnergy] s) = [Ok VUnit; Ok (VNum e)].
  Proof.
    intros HI HL Ee.
    destruct (history_ok N kappa_idx h_ao g_ao tiny sp th struct csf HS Hgates Hcsf Hpairs [SetThetas t arr; Read AEnergy] b r s
      ltac:(cbn; repeat split; auto; discriminate) HI) as (V & _).
    rewrite V. cbn [plain plain_step snd]. rewrite HL, Nat.eqb_refl. unfold energy_at, with_thetas in Ee. cbn [fresh r_t r_C] in *.
    destruct (ups_state tiny sp th 0 struct t false csf) as [v| |]; cbn [bind] in *; [|discriminate|discriminate]. rewrite Ee. reflexivity.
  Qed.

  Lemma calc_gradient_ok b r0 s0 (theta kappa : bool) (p : list R) : Inv b r0 s0 -> plen theta kappa p ->
    exists s' b' G, calc_gradient N kappa_idx h_ao g_ao tiny sp th struct csf theta kappa p s0 = (s', Ok G) /\
      Inv b' (moved theta kappa p r0) s' /\ is_gradient theta kappa p (moved theta kappa p r0) G.
  Proof.
    intros I0 HL.
    destruct (set_params_ok b r0 s0 theta kappa p HL I0) as (s1 & b1 & E1 & I1). set (r := moved theta kappa p r0) in *.
    destruct (ups_ok (r_t r) (i_tl _ _ _ _ _ _ _ _ _ _ _ _ I1)) as (v & Ev & Lv & Nv).
    destruct (orbital_derivative (r_C r) v Lv Nv) as (r1 & r2 & R1 & R2 & DK).
    destruct (mo_sym (r_C r)) as [S1 S2].
    destruct (C66_theta_gradient tiny sp th HS struct csf Hgates Hcsf (ho (r_C r)) (go (r_C r)) (fun p q _ _ => S1 p q)
       (fun p q a s _ _ _ _ => proj1 (S2 p q a s)) (r_t r) (i_tl _ _ _ _ _ _ _ _ _ _ _ _ I1)) as (v' & Gt & Ev' & EGt & LGt & DT).
    assert (v' = v) by congruence. subst v'.
    set (Gk := get_orbital_gradient (ho (r_C r)) (go (r_C r)) kappa_idx (sp_ni sp) (sp_na sp) (fun i j => r1 [i; j]) (fun i j k l => r2 [i; j; k; l])) in *.
    assert (LGk : length Gk = nk) by (unfold Gk, get_orbital_gradient; apply map_length).
    (* the kappa part *)
    assert (exists s2, (if kappa
           then mbind (get_h N kappa_idx h_ao) (fun h => mbind (get_g N kappa_idx g_ao) (fun g => mbind (get_rdm1 tiny sp th) (fun r1 => mbind (get_rdm2 tiny sp th) (fun r2 =>
                ret (get_orbital_gradient h g kappa_idx (sp_ni sp) (sp_na sp) (fun i j => r1 [i; j]) (fun i j k l => r2 [i; j; k; l]))))))
           else ret []) s1 = (s2, Ok (if kappa then Gk else [])) /\ Inv b1 r s2) as (s2 & E2 & I2).
    { destruct kappa; [|exists s1; split; [reflexivity|exact I1]].
      destruct (good_h N kappa_idx h_ao g_ao tiny sp th struct csf b1 r s1 I1) as (sa & Ea & Ia). unfold mbind at 1. rewrite Ea.
      destruct (good_g N kappa_idx h_ao g_ao tiny sp th struct csf b1 r sa Ia) as (sb & Eb & Ib). unfold mbind at 1. rewrite Eb.
      destruct (good_r1 N kappa_idx h_ao g_ao tiny sp th struct csf b1 r v Ev sb Ib) as (sc & Ec & Ic). unfold mbind at 1. rewrite Ec, R1.
      destruct (good_r2 N kappa_idx h_ao g_ao tiny sp th struct csf b1 r v Ev sc Ic) as (sd & Ed & Id). unfold mbind at 1. rewrite Ed, R2.
      exists sd. split; [reflexivity|exact Id]. }
    (* the theta part *)
    assert (exists s3, (if theta
           then mbind (get_h N kappa_idx h_ao) (fun h => mbind (get_g N kappa_idx g_ao) (fun g => mbind (gets w_ci) (fun ci => mbind (gets w_thetas) (fun t =>
                lift (theta_gradient tiny sp th struct csf h g ci t)))))
           else ret []) s2 = (s3, Ok (if theta then Gt else [])) /\ Inv b1 r s3) as (s3 & E3 & I3).
    { destruct theta; [|exists s2; split; [reflexivity|exact I2]].
      destruct (good_h N kappa_idx h_ao g_ao tiny sp th struct csf b1 r s2 I2) as (sa & Ea & Ia). unfold mbind at 1. rewrite Ea.
      destruct (good_g N kappa_idx h_ao g_ao tiny sp th struct csf b1 r sa Ia) as (sb & Eb & Ib). unfold mbind at 1. rewrite Eb.
      unfold mbind, gets, lift. exists sb. split; [|exact Ib].
      rewrite (i_t _ _ _ _ _ _ _ _ _ _ _ _ Ib). pose proof (i_ci _ _ _ _ _ _ _ _ _ _ _ _ Ib) as EC. rewrite Ev in EC.
      injection EC as <-. rewrite EGt. reflexivity. }
    exists s3, b1, ((if kappa then Gk else []) ++ (if theta then Gt else [])). split; [|split; [exact I3|split; [|split]]].
    - unfold calc_gradient. unfold mbind at 1. rewrite E1. unfold mbind at 1. rewrite E2. unfold mbind at 1. rewrite E3. reflexivity.
    - unfold plen in HL. rewrite HL, app_length. pose proof (i_tl _ _ _ _ _ _ _ _ _ _ _ _ I1). destruct kappa, theta; cbn [length]; lia.
    - intros -> k1 x k2 rest Ep Lk. destruct (DK k1 x k2 Lk) as (E & HE & HD). exists E. split.
      + intros y. unfold energy_at, with_kappa. cbn [r_t r_C]. rewrite Ev. cbn [bind].
        assert (r_k r = k1 ++ x :: k2) as ->. { unfold r, moved. cbn [r_k]. rewrite Ep, firstn_app, <- Lk, Nat.sub_diag, firstn_all. cbn. apply app_nil_r. }
        apply HE.
      + rewrite app_nth1 by (rewrite LGk, <- Lk, app_length; cbn; lia). exact HD.
    - intros -> front t1 t t2 Ep Lf.
      assert (ET : r_t r = t1 ++ t :: t2). { unfold r, moved. cbn [r_t]. rewrite Ep, <- Lf, skipn_app, Nat.sub_diag, skipn_all. reflexivity. }
      destruct (DT t1 t t2 ET) as (E & HE & HD). exists E. split; [exact HE|].
      rewrite app_nth2; destruct kappa; cbn [length] in *; rewrite ?LGk; try lia.
      * replace (length front + length t1 - nk)%nat with (length t1) by lia. exact HD.
      * replace (length front + length t1 - 0)%nat with (length t1) by lia. exact HD.
  Qed.

  (** C67: after any admissible history, [_calc_gradient_optimization] returns
      the derivatives of the energy that the object itself reports when one entry
      of kappa, or one entry of thetas, is assigned a different value. *)
  Theorem C67_object_gradient (l : list op) (theta kappa : bool) (p : list R) :
    admissible kappa_idx struct false l -> plen theta kappa p ->
    exists s' G, calc_gradient N kappa_idx h_ao g_ao tiny sp th struct csf theta kappa p (fst (hist l obj)) = (s', Ok G) /\
      length G = length p /\
      (kappa = true -> forall k1 x k2 rest, p = (k1 ++ x :: k2) ++ rest -> length (k1 ++ x :: k2) = nk ->
         exists energy : R -> R,
           (forall y, snd (hist [SetKappa (k1 ++ y :: k2) true; Read AEnergy] s') = [Ok VUnit; Ok (VNum (energy y))]) /\
           derivable_pt_lim energy x (nth (length k1) G 0)) /\
      (theta = true -> forall front t1 t t2, p = front ++ t1 ++ t :: t2 -> length front = (if kappa then nk else 0%nat) ->
         exists energy : R -> R,
           (forall y, snd (hist [SetThetas (t1 ++ y :: t2) true; Read AEnergy] s') = [Ok VUnit; Ok (VNum (energy y))]) /\
           derivable_pt_lim energy t (nth (length front + length t1) G 0)).
  Proof.
    intros HA HL.
    destruct (history_ok N kappa_idx h_ao g_ao tiny sp th struct csf HS Hgates Hcsf Hpairs l false
       (start kappa_idx struct mo_coeffs) obj HA) as (_ & b & I0). { apply init_inv; auto. }
    set (s0 := fst (hist l obj)) in *. set (r0 := fst (plain N kappa_idx h_ao g_ao tiny sp th struct csf l (start kappa_idx struct mo_coeffs))) in *.
    destruct (calc_gradient_ok b r0 s0 theta kappa p I0 HL) as (s' & b' & G & EG & I' & LG & DK & DT).
    exists s', G. split; [exact EG|]. split; [exact LG|]. split.
    - intros Hk k1 x k2 rest Ep Lk. destruct (DK Hk k1 x k2 rest Ep Lk) as (E & HE & HD). exists E. split; [|exact HD].
      intros y. eapply energy_after_kappa; [exact I'| |apply HE]. rewrite app_length in *. exact Lk.
    - intros Ht front t1 t t2 Ep Lf. destruct (DT Ht front t1 t t2 Ep Lf) as (E & HE & HD). exists E. split; [|exact HD].
      intros y. eapply energy_after_thetas; [exact I'| |apply HE].
      unfold plen in HL. rewrite Ht, Ep in HL. rewrite !app_length in HL. rewrite app_length. cbn [length] in *. destruct kappa; lia.
  Qed.
End ObjectGradient.

(** ** Concrete cases *)
(** Six orbitals (one inactive, four active, one virtual), ten gates, four
    rotation pairs, integrals that are not constant, a history of assignments
    and reads, and a point with non-zero parameters. *)
Definition exg_h (a b : nat) : R := INR (a + b).
Definition exg_g (a b c d : nat) : R := INR ((a + b) * (c + d)).
Definition exg_idx : list (nat * nat) := [(0, 1); (0, 2); (0, 5); (1, 5)]%nat.
Definition exg_p : list R := [1; - 2; 0; 1 / 3] ++ repeat (1 / 5) 10.
Example C67_example : exists s' G,
  calc_gradient 6 exg_idx exg_h exg_g rtiny Props_UPS.ex_sp None ex_struct (1 :: repeat 0 35) true true exg_p
    (fst (history 6 exg_idx exg_h exg_g rtiny Props_UPS.ex_sp None ex_struct (1 :: repeat 0 35)
       [Read AEnergy; SetKappa [1; 1; 1; 0] false; SetThetas (repeat 2 10) true; Read ARdm4] (init exg_idx ex_struct (1 :: repeat 0 35) (tab 6 mid))))
  = (s', Ok G) /\ length G = 14%nat.
Proof.
  destruct C29_example_ansatz as (A & B & C & D & E).
  destruct (C67_object_gradient exg_idx exg_h exg_g rtiny Props_UPS.ex_sp None ex_struct (1 :: repeat 0 35) A rtiny_0 B C) with
    (mo_coeffs := tab 6 (@mid R R_CRing)) (l := [Read AEnergy; SetKappa [1; 1; 1; 0] false; SetThetas (repeat 2 10) true; Read ARdm4])
    (theta := true) (kappa := true) (p := exg_p) as (s' & G & H1 & H2 & _).
  - cbn. ring.
  - exact D.
  - exact E.
  - intros a b _ _. unfold exg_h. f_equal. lia.
  - intros a b c d _ _ _ _. unfold exg_g. repeat split; f_equal; lia.
  - cbn. repeat split; discriminate.
  - reflexivity.
  - exists s', G. split; [exact H1|]. rewrite H2. reflexivity.
Qed.

Print Assumptions C66_theta_gradient.
Print Assumptions C67_object_gradient.
