(** Derivatives of energies with respect to ansatz and orbital parameters. *)
From Coq Require Import List Bool Arith NArith ZArith Reals Lra Lia.
From Verif Require Import Base RRing Fock FockMore FermiModel FermiProofs OperatorsModel OperatorsProofs OperatorsSums OperatorsActs
  OperatorsActive OperatorsKeys Props_Operators CIModel CIProofs StateModel StateProofs StateMore Props_State SaPoly GateAlgebra UPSModel UPSState UPSSingle UPSAnsatz Props_UPS
  FockInner DensityModel DensityProofs DensityExpect DensityResponse DensityState MatModel MatProofs MatExp Props_Transform WaveModel.
Import ListNotations.
Local Open Scope R_scope.

(** ** Derivatives of states *)
Notation ramps := (amps (K:=R)).
Definition dv (F : R -> ramps) (t : R) (G : ramps) : Prop := forall x, derivable_pt_lim (fun s => F s x) t (G x).

Lemma dlim_ext (f g : R -> R) t l : (forall s, f s = g s) -> derivable_pt_lim f t l -> derivable_pt_lim g t l.
Proof. intros H D eps He. destruct (D eps He) as (del & Hd). exists del. intros h H1 H2. rewrite <- !H. auto. Qed.
Lemma dlim_lsum {I} (l : list I) (f : R -> I -> R) (f' : I -> R) t :
  (forall i, derivable_pt_lim (fun s => f s i) t (f' i)) -> derivable_pt_lim (fun s => lsum l (f s)) t (lsum l f').
Proof.
  intros H. induction l as [|i l IH]; [apply derivable_pt_lim_const|].
  apply (derivable_pt_lim_plus (fun s => f s i) (fun s => lsum l (f s)) t (f' i) (lsum l f')); auto.
Qed.
Lemma dv_app1 o F t G : dv F t G -> dv (fun s => app1 o (F s)) t (app1 o G).
Proof.
  intros H x. unfold app1. destruct (Bool.eqb _ _); [|apply derivable_pt_lim_const].
  destruct (below x (fst o)); cbn [sgn]; [apply (derivable_pt_lim_opp (fun s => F s (flip x (fst o))))|]; apply H.
Qed.
Lemma dv_add F G t F' G' : dv F t F' -> dv G t G' -> dv (fun s x => F s x + G s x) t (fun x => F' x + G' x).
Proof. intros H1 H2 x. apply (derivable_pt_lim_plus (fun s => F s x) (fun s => G s x)); auto. Qed.
Lemma dv_sub F G t F' G' : dv F t F' -> dv G t G' -> dv (fun s x => F s x - G s x) t (fun x => F' x - G' x).
Proof. intros H1 H2 x. apply (derivable_pt_lim_minus (fun s => F s x) (fun s => G s x)); auto. Qed.
Lemma dlim_scal (c : R) f t l : derivable_pt_lim f t l -> derivable_pt_lim (fun s => c * f s) t (c * l).
Proof. intros H. apply (derivable_pt_lim_scal f c t l H). Qed.
Lemma dv_Eop p q F t G : dv F t G -> dv (fun s => Eop p q (F s)) t (Eop p q G).
Proof. intros H. unfold Eop. apply dv_add; cbn [appstr]; do 2 apply dv_app1; exact H. Qed.
Lemma dv_eop p q r s F t G : dv F t G -> dv (fun z => eop p q r s (F z)) t (eop p q r s G).
Proof.
  intros H. unfold eop. apply dv_sub; [do 2 apply dv_Eop; exact H|]. destruct (Nat.eqb q r); [apply dv_Eop, H|]. intros x. apply derivable_pt_lim_const.
Qed.
Lemma dv_Hact half h g n F t G : dv F t G -> dv (fun s => Hact half h g n (F s)) t (Hact half h g n G).
Proof.
  intros H x. unfold Hact. apply (derivable_pt_lim_plus (fun s => sumn n (fun p => sumn n (fun q => h p q * Eop p q (F s) x)))).
  - unfold sumn. apply dlim_lsum. intros p. apply dlim_lsum. intros q. apply dlim_scal, dv_Eop, H.
  - apply dlim_scal. unfold sumn. do 4 (apply dlim_lsum; intros). apply dlim_scal, dv_eop, H.
Qed.
Lemma dlim_ip m F G t F' G' : dv F t F' -> dv G t G' -> derivable_pt_lim (fun s => ip m (F s) (G s)) t (ip m F' (G t) + ip m (F t) G').
Proof.
  intros H1 H2. unfold ip. change (@rmul R R_CRing) with Rmult.
  assert (E : lsum (alldets m) (fun x => F' x * G t x) + lsum (alldets m) (fun x => F t x * G' x)
            = lsum (alldets m) (fun x => F' x * G t x + F t x * G' x)).
  { symmetry. apply (@lsum_add R R_CRing). }
  rewrite E. apply dlim_lsum. intros x. apply (derivable_pt_lim_mult (fun s => F s x) (fun s => G s x)); auto.
Qed.

(** ** The Hamiltonian is symmetric *)
Section Symmetric.
  Variables (half : R) (h : nat -> nat -> R) (g : nat -> nat -> nat -> nat -> R) (n : nat).
  Hypothesis Hh : forall p q, (p < n)%nat -> (q < n)%nat -> h p q = h q p.
  Hypothesis Hg : forall p q r s, (p < n)%nat -> (q < n)%nat -> (r < n)%nat -> (s < n)%nat -> g p q r s = g q p s r.

  Lemma ip_sumn_r m (u : ramps) k (F : nat -> ramps) : ip m u (fun x => sumn k (fun i => F i x)) = sumn k (fun i => ip m u (F i)).
  Proof. apply (@ip_lsum R R_CRing). Qed.
  Lemma Eop_adj p q (u v : ramps) : (p < n)%nat -> (q < n)%nat -> ip (2 * n) u (Eop p q v) = ip (2 * n) v (Eop q p u).
  Proof.
    intros Hp Hq. transitivity (ip (2 * n) u (ek [(p, q)] v)).
    { apply ip_ext; [reflexivity|]. intros x. rewrite ek_one. apply Eop_Eact. }
    rewrite ip_ek by (intros pq [<-|[]]; auto). rewrite ip_sym. apply ip_ext; [reflexivity|]. intros x. cbn [map]; unfold swp; cbn [fst snd].
    rewrite ek_one. symmetry. apply Eop_Eact.
  Qed.
  Lemma eop_adj p q r s (u v : ramps) : (p < n)%nat -> (q < n)%nat -> (r < n)%nat -> (s < n)%nat ->
    ip (2 * n) u (eop p q r s v) = ip (2 * n) v (eop q p s r u).
  Proof.
    intros Hp Hq Hr Hs. transitivity (ip (2 * n) u (ek [(p, q); (r, s)] v)).
    { apply ip_ext; [reflexivity|]. intros x. rewrite ek_two. apply eop_eact. }
    rewrite ip_ek by (intros pq [<-|[<-|[]]]; auto). rewrite ip_sym. apply ip_ext; [reflexivity|]. intros x. cbn [map]; unfold swp; cbn [fst snd].
    rewrite ek_two. symmetry. apply eop_eact.
  Qed.
  Lemma ip_Hact (u v : ramps) : ip (2 * n) u (Hact half h g n v)
    = sumn n (fun p => sumn n (fun q => h p q * ip (2 * n) u (Eop p q v)))
    + half * sumn n (fun p => sumn n (fun q => sumn n (fun r => sumn n (fun s => g p q r s * ip (2 * n) u (eop p q r s v))))).
  Proof.
    unfold Hact. rewrite (@ip_add R R_CRing), (@ip_scale R R_CRing), !ip_sumn_r. cbn [radd rmul R_CRing]. f_equal; [|f_equal]; apply sumn_ext; intros p _; rewrite ip_sumn_r;
      apply sumn_ext; intros q _.
    - apply (@ip_scale R R_CRing).
    - rewrite ip_sumn_r. apply sumn_ext. intros r _. rewrite ip_sumn_r. apply sumn_ext. intros s _. apply (@ip_scale R R_CRing).
  Qed.
  Lemma Hact_sym (u v : ramps) : ip (2 * n) u (Hact half h g n v) = ip (2 * n) v (Hact half h g n u).
  Proof.
    rewrite !ip_Hact. f_equal; [|f_equal].
    - rewrite sumn_swap. apply sumn_ext. intros p Hp. apply sumn_ext. intros q Hq. rewrite Hh, Eop_adj by auto. reflexivity.
    - rewrite sumn_swap. apply sumn_ext. intros p Hp. apply sumn_ext. intros q Hq. rewrite sumn_swap. apply sumn_ext. intros r Hr.
      apply sumn_ext. intros s Hs. rewrite Hg, eop_adj by auto. reflexivity.
  Qed.
End Symmetric.

(** ** The gradient loop over the ansatz parameters *)
Section Loop.
  Variables (tiny : R -> bool) (sp : space) (th : threads).
  Hypothesis HS : sector tiny sp th.
  Notation ups s t v := (ups_state tiny sp th 0 s t false v).
  Notation d := (length (idx2det (sp_ci sp))).
  Notation ok := (gate_ok (sp_na sp) 0).
  Notation kt := (ket (K:=R) (sp_na sp) (sp_ci sp)).

  Lemma ups_app s1 t1 s2 t2 v : length t1 = length s1 -> ups (s1 ++ s2) (t1 ++ t2) v = bind (ups s1 t1 v) (fun w => ups s2 t2 w).
  Proof.
    intros H. unfold ups_state, construct_ups_state. rewrite combine_app by congruence. rewrite fold_left_app.
    destruct (fold_left _ (combine s1 t1) (Ok v)) as [w|e|]; [reflexivity| |]; cbn [bind]; clear; induction (combine s2 t2) as [|a l IH]; auto.
  Qed.
  Lemma ups_total' s t v : Forall ok s -> length t = length s -> length v = d -> exists w, ups s t v = Ok w /\ length w = d.
  Proof.
    intros H1 H2 H3. destruct (C23_dagger_is_inverse tiny sp th 0 s t v HS H1 H2 H3 false) as (o & E & L & _). exists o. split; [exact E|congruence].
  Qed.
  Lemma ups_unitary_one struct thetas i e t v : nth_error struct i = Some e -> nth_error thetas i = Some t ->
    ups_unitary tiny sp th 0 struct thetas i v = ups [e] [t] v.
  Proof. intros H1 H2. unfold ups_unitary, propagate_unitary. rewrite H1, H2. reflexivity. Qed.
  Lemma ups_dot s t u w u' w' : Forall ok s -> length u = d -> length w = d ->
    ups s t u = Ok u' -> ups s t w = Ok w' -> dot u' w' = dot u w.
  Proof.
    intros H Hu Hw E1 E2. destruct (C23_scalar_product tiny sp th 0 s t false u w HS H Hu Hw) as (a & b & Ea & Eb & Ed). congruence.
  Qed.

  (** A gate commutes with its generator. *)
  Lemma gen_commutes e D F : gate_sem tiny sp th 0 e D F -> forall t v x, opapp D (F t v) x = F t (opapp D v) x.
  Proof.
    intros G t v x.
    assert (Hid : linear (fun v : vec => v)) by (constructor; auto).
    pose proof (gs_deriv _ _ _ _ _ _ _ G (fun v => v) Hid (F t v) 0 x) as D1.
    pose proof (gs_deriv _ _ _ _ _ _ _ G (F t) (gs_lin _ _ _ _ _ _ _ G t) v 0 x) as D2. cbv beta in D1.
    assert (E1 : opapp D (F 0 (F t v)) x = opapp D (F t v) x) by (apply opapp_ext; intros y; apply (gs_zero _ _ _ _ _ _ _ G)).
    assert (E2 : F t (opapp D (F 0 v)) x = F t (opapp D v) x).
    { apply (lin_ext _ (gs_lin _ _ _ _ _ _ _ G t)). intros y. apply opapp_ext. intros z. apply (gs_zero _ _ _ _ _ _ _ G). }
    rewrite E1 in D1. rewrite E2 in D2.
    apply (uniqueness_limite (fun s => F s (F t v) x) 0); [exact D1|].
    eapply dlim_ext; [|exact D2]. intros s. rewrite !(gs_group _ _ _ _ _ _ _ G). f_equal. ring.
  Qed.
  Lemma grad_commutes struct i e t b a : nth_error struct i = Some e -> ok e -> length b = d -> ups [e] [t] b = Ok a ->
    exists tmp g, ups_grad tiny sp th 0 struct i b = Ok tmp /\ length tmp = d /\ ups_grad tiny sp th 0 struct i a = Ok g /\ ups [e] [t] tmp = Ok g.
  Proof.
    intros Hn He Hb Ha. destruct (gate_sem_ok tiny sp th HS 0 e He) as (D & F & G).
    destruct (step_run tiny sp th HS 0 e D F false t b G Hb) as (a' & Ea & La & Sa).
    assert (a' = a) as -> by (change (ups [e] [t] b = Ok a') in Ea; congruence).
    destruct (grad_run tiny sp th HS 0 e D F b struct i G Hn Hb) as (tmp & E1 & L1 & S1).
    destruct (grad_run tiny sp th HS 0 e D F a struct i G Hn La) as (g & E2 & L2 & S2).
    destruct (step_run tiny sp th HS 0 e D F false t tmp G L1) as (g' & E3 & L3 & S3).
    exists tmp, g. split; [exact E1|]. split; [exact L1|]. split; [exact E2|]. change (ups [e] [t] tmp = Ok g') in E3. rewrite E3. f_equal.
    apply (kt_eq tiny sp th HS); auto. intros x. rewrite S3, S2.
    rewrite (lin_ext _ (gs_lin _ _ _ _ _ _ _ G t) _ _ S1 x), (opapp_ext D _ _ Sa x). symmetry. apply (gen_commutes e D F G).
  Qed.

  Variable csf : list R.
  Hypothesis Hcsf : length csf = d.
  (** The state whose scalar product with [H psi] is needed. *)
  Definition deriv_state s1 e s2 t1 t t2 (out : list R) : Prop := exists a g,
    ups (s1 ++ [e]) (t1 ++ [t]) csf = Ok a /\ ups_grad tiny sp th 0 (s1 ++ e :: s2) (length s1) a = Ok g /\ ups s2 t2 g = Ok out.
  Definition loop_step struct thetas := fun (acc : Res (list R * list R * list R)) (i : nat) => bind acc (fun bkg : (list R * list R) * list R =>
    let '(bra, ket, grad) := bkg in
    bind (ups_grad tiny sp th 0 struct i ket) (fun tmp =>
    bind (ups_unitary tiny sp th 0 struct thetas i bra) (fun bra' =>
    bind (ups_unitary tiny sp th 0 struct thetas i ket) (fun ket' =>
    Ok (bra', ket', grad ++ [2 * dot bra tmp]))))).
  Lemma loop_ok s2 : forall t2 s1 t1 bra ket grad hpsi, Forall ok (s1 ++ s2) -> length t1 = length s1 -> length t2 = length s2 ->
    ups s1 t1 csf = Ok ket -> length ket = d -> length bra = d -> ups s2 t2 bra = Ok hpsi ->
    exists b' k' gs, fold_left (loop_step (s1 ++ s2) (t1 ++ t2)) (seq (length s1) (length s2)) (Ok (bra, ket, grad)) = Ok (b', k', grad ++ gs)
      /\ length gs = length s2
      /\ forall a e b ta t tb, s2 = a ++ e :: b -> t2 = ta ++ t :: tb -> length ta = length a ->
         exists out, deriv_state (s1 ++ a) e b (t1 ++ ta) t tb out /\ length out = d /\ nth (length a) gs 0 = 2 * dot hpsi out.
  Proof.
    induction s2 as [|e s2 IH]; intros [|t t2] s1 t1 bra ket grad hpsi H L1 L2 Ek Lk Lb Eb; try discriminate.
    - exists bra, ket, []. rewrite !app_nil_r. split; [reflexivity|]. split; [reflexivity|]. intros [|a0 a] e0 b ta t0 tb E; discriminate.
    - assert (He : ok e). { rewrite Forall_forall in H. apply H. apply in_or_app. right. left. reflexivity. }
      assert (H2 : Forall ok s2). { apply Forall_app in H as [_ H]. inversion H; auto. }
      assert (N1 : nth_error (s1 ++ e :: s2) (length s1) = Some e) by (rewrite nth_error_app2, Nat.sub_diag by lia; reflexivity).
      assert (N2 : nth_error (t1 ++ t :: t2) (length s1) = Some t) by (rewrite nth_error_app2, L1, Nat.sub_diag by lia; reflexivity).
      destruct (ups_total' [e] [t] ket ltac:(auto) eq_refl Lk) as (ket' & Ek' & Lk').
      destruct (ups_total' [e] [t] bra ltac:(auto) eq_refl Lb) as (bra' & Eb' & Lb').
      destruct (grad_commutes (s1 ++ e :: s2) (length s1) e t ket ket' N1 He Lk Ek') as (tmp & g & E1 & Lt & E2 & E3).
      assert (Eb2 : ups s2 t2 bra' = Ok hpsi). { change (e :: s2) with ([e] ++ s2) in Eb. change (t :: t2) with ([t] ++ t2) in Eb. rewrite ups_app, Eb' in Eb by reflexivity. exact Eb. }
      assert (Ek2 : ups (s1 ++ [e]) (t1 ++ [t]) csf = Ok ket'). { rewrite ups_app, Ek by auto. exact Ek'. }
      assert (EQs : s1 ++ e :: s2 = (s1 ++ [e]) ++ s2) by (rewrite <- app_assoc; reflexivity).
      assert (EQt : t1 ++ t :: t2 = (t1 ++ [t]) ++ t2) by (rewrite <- app_assoc; reflexivity).
      destruct (IH t2 (s1 ++ [e]) (t1 ++ [t]) bra' ket' (grad ++ [2 * dot bra tmp]) hpsi) as (b' & k' & gs & EF & LG & PG); auto.
      { rewrite <- EQs. exact H. } { rewrite !app_length. cbn. congruence. }
      exists b', k', (2 * dot bra tmp :: gs). split; [|split].
      + cbn [length seq fold_left].
        assert (ES : loop_step (s1 ++ e :: s2) (t1 ++ t :: t2) (Ok (bra, ket, grad)) (length s1) = Ok (bra', ket', grad ++ [2 * dot bra tmp])).
        { unfold loop_step. cbn [bind]. rewrite E1. cbn [bind]. rewrite !(ups_unitary_one _ _ _ e t) by auto. rewrite Eb', Ek'. reflexivity. }
        rewrite ES. replace (Datatypes.S (length s1)) with (length (s1 ++ [e])) by (rewrite app_length; cbn; lia).
        rewrite EQs, EQt, EF, <- app_assoc. reflexivity.
      + cbn. congruence.
      + intros [|a0 a] e0 b [|ta0 ta] t0 tb Q1 Q2 LA; try discriminate.
        * cbn [app] in Q1, Q2. injection Q1 as <- <-. injection Q2 as <- <-.
          destruct (ups_total' [e] [t] tmp ltac:(auto) eq_refl Lt) as (g' & Eg' & Lg). assert (g' = g) as -> by congruence.
          cbn in L2. destruct (ups_total' s2 t2 g H2 ltac:(congruence) Lg) as (out & Eo & Lo).
          exists out. split; [|split; [exact Lo|]].
          -- rewrite !app_nil_r. exists ket', g. auto.
          -- cbn [length nth]. f_equal. symmetry. apply (ups_dot (e :: s2) (t :: t2)); auto.
             change (e :: s2) with ([e] ++ s2). change (t :: t2) with ([t] ++ t2). rewrite ups_app by reflexivity. rewrite Eg'. exact Eo.
        * cbn [app] in Q1, Q2. injection Q1 as <- ->. injection Q2 as <- ->. cbn in LA.
          destruct (PG a e0 b ta t0 tb eq_refl eq_refl ltac:(congruence)) as (out & (x & y & D1 & D2 & D3) & Lo & V). exists out. split; [|split; [exact Lo|exact V]].
          exists x, y. rewrite <- !app_assoc in D1. rewrite <- !app_assoc, !app_length in D2. cbn [app length] in D1, D2.
          rewrite <- !app_assoc, !app_length. cbn [app length]. split; [exact D1|]. split; [|exact D3].
          match type of D2 with ups_grad _ _ _ _ _ ?n _ = _ => replace (length s1 + Datatypes.S (length a))%nat with n by lia end. exact D2.
  Qed.
End Loop.

(** ** Orbital rotations *)
Lemma tsum_sumn n (f : nat -> R) : tsum n f = sumn n f.
Proof.
  unfold sumn. induction n as [|n IH]; [reflexivity|]. rewrite seq_S, lsum_app. cbn [tsum Nat.add]. rewrite IH.
  unfold lsum at 3. cbn [fold_right]. cbn [radd R_CRing]. change (@rO R R_CRing) with 0. ring.
Qed.
Lemma tdelta n j (f : nat -> R) : (j < n)%nat -> tsum n (fun k => (if Nat.eqb k j then 1 else 0) * f k) = f j.
Proof.
  induction n as [|n IH]; intros H; [lia|]. rewrite tsum_S. destruct (Nat.eqb_spec n j) as [->|Hn].
  - rewrite (@tsum_0 R R_CRing); [cbn; ring|]. intros k Hk. destruct (Nat.eqb_spec k j); [lia|cbn; ring].
  - rewrite IH by lia. ring.
Qed.
Lemma dlim_tsum n (f : R -> nat -> R) (f' : nat -> R) t :
  (forall k, (k < n)%nat -> derivable_pt_lim (fun s => f s k) t (f' k)) -> derivable_pt_lim (fun s => tsum n (f s)) t (tsum n f').
Proof.
  induction n as [|n IH]; intros H; [apply derivable_pt_lim_const|]. cbn [tsum].
  apply (derivable_pt_lim_plus (fun s => tsum n (f s)) (fun s => f s n)); [apply IH; intros; apply H; lia|apply H; lia].
Qed.
Section Rotation.
  Variables (n : nat) (U : R -> nat -> nat -> R) (X : nat -> nat -> R).
  Hypothesis U0 : forall a b, (a < n)%nat -> (b < n)%nat -> U 0 a b = if Nat.eqb a b then 1 else 0.
  Hypothesis DU : forall a b, (a < n)%nat -> (b < n)%nat -> derivable_pt_lim (fun s => U s a b) 0 (X a b).

  Lemma d_one (h : R -> nat -> nat -> R) h' p q : (p < n)%nat -> (q < n)%nat ->
    (forall a b, (a < n)%nat -> (b < n)%nat -> derivable_pt_lim (fun s => h s a b) 0 (h' a b)) ->
    derivable_pt_lim (fun s => one_electron_integral_transform n (U s) (h s) p q) 0
      (tsum n (fun a => X a p * h 0 a q) + tsum n (fun b => X b q * h 0 p b) + h' p q).
  Proof.
    intros Hp Hq Dh. eapply dlim_ext; [intros s; symmetry; apply (@one_sum R R_CRing)|].
    replace (tsum n (fun a => X a p * h 0 a q) + tsum n (fun b => X b q * h 0 p b) + h' p q)
      with (tsum n (fun a => tsum n (fun b => (X a p * U 0 b q + U 0 a p * X b q) * h 0 a b + (U 0 a p * U 0 b q) * h' a b))).
    - apply dlim_tsum. intros a Ha. apply dlim_tsum. intros b Hb.
      apply (derivable_pt_lim_mult (fun s => U s a p * U s b q) (fun s => h s a b)); [|auto].
      apply (derivable_pt_lim_mult (fun s => U s a p) (fun s => U s b q)); auto.
    - rewrite (tsum_ext n _ (fun a => X a p * h 0 a q + ((if Nat.eqb a p then 1 else 0) * tsum n (fun b => X b q * h 0 a b) + (if Nat.eqb a p then 1 else 0) * h' a q))).
      + rewrite !tplus. rewrite <- Rplus_assoc. f_equal; [f_equal|].
        * apply (tdelta n p (fun a => tsum n (fun b => X b q * h 0 a b)) Hp).
        * apply (tdelta n p (fun a => h' a q) Hp).
      + intros a Ha. rewrite (U0 a p) by auto.
        rewrite (tsum_ext n _ (fun b => (if Nat.eqb b q then 1 else 0) * (X a p * h 0 a b)
           + ((if Nat.eqb a p then 1 else 0) * (X b q * h 0 a b) + (if Nat.eqb b q then 1 else 0) * ((if Nat.eqb a p then 1 else 0) * h' a b))))
          by (intros b Hb; rewrite (U0 b q) by auto; ring).
        rewrite !tplus. f_equal; [apply (tdelta n q (fun b => X a p * h 0 a b) Hq)|]. f_equal.
        * symmetry. apply tscal_l.
        * apply (tdelta n q (fun b => (if Nat.eqb a p then 1 else 0) * h' a b) Hq).
  Qed.
  Lemma one_at_0 (h : nat -> nat -> R) p q : (p < n)%nat -> (q < n)%nat -> one_electron_integral_transform n (U 0) h p q = h p q.
  Proof.
    intros Hp Hq. rewrite (@one_sum R R_CRing).
    rewrite (tsum_ext n _ (fun a => (if Nat.eqb a p then 1 else 0) * tsum n (fun b => (if Nat.eqb b q then 1 else 0) * h a b))).
    - rewrite (tdelta n p (fun a => tsum n (fun b => (if Nat.eqb b q then 1 else 0) * h a b)) Hp). apply (tdelta n q (fun b => h p b) Hq).
    - intros a Ha. cbn [rmul R_CRing]. rewrite tscal_l. apply tsum_ext. intros b Hb. rewrite !U0 by auto. ring.
  Qed.
  Lemma d_two (g : nat -> nat -> nat -> nat -> R) p q r s : (p < n)%nat -> (q < n)%nat -> (r < n)%nat -> (s < n)%nat ->
    derivable_pt_lim (fun z => two_electron_integral_transform n (U z) g p q r s) 0
      (tsum n (fun a => X a p * g a q r s) + tsum n (fun a => X a q * g p a r s)
       + tsum n (fun a => X a r * g p q a s) + tsum n (fun a => X a s * g p q r a)).
  Proof.
    intros Hp Hq Hr Hs.
    pose proof (d_one (fun z c d => one_electron_integral_transform n (U z) (fun a b => g a b c d) p q)
      (fun c d => tsum n (fun a => X a p * g a q c d) + tsum n (fun b => X b q * g p b c d) + 0) r s Hr Hs) as DD.
    match type of DD with ?P -> derivable_pt_lim ?f ?x ?l => assert (HP : P) end.
    { intros c d Hc Hd. apply (d_one (fun _ a b => g a b c d) (fun _ _ => 0) p q Hp Hq). intros. apply derivable_pt_lim_const. }
    specialize (DD HP). eapply eq_rect; [exact DD|].
    rewrite (tsum_ext n (fun a => X a r * _) (fun a => X a r * g p q a s)) by (intros; rewrite one_at_0 by auto; reflexivity).
    rewrite (tsum_ext n (fun a => X a s * _) (fun a => X a s * g p q r a)) by (intros; rewrite one_at_0 by auto; reflexivity).
    ring.
  Qed.
End Rotation.

Lemma tminus n (f g : nat -> R) : tsum n (fun k => f k - g k) = tsum n f - tsum n g.
Proof. induction n; [cbn; ring|]. rewrite !tsum_S, IHn. ring. Qed.
Section OrbitalGradient.
  Variables (n : nat) (psi : ramps) (half : R) (h : nat -> nat -> R) (g : nat -> nat -> nat -> nat -> R).
  Notation A p q := (ip (2 * n) psi (Eop p q psi)).
  Notation B p q r s := (ip (2 * n) psi (eop p q r s psi)).
  Lemma ip_Hact_t : ip (2 * n) psi (Hact half h g n psi)
    = tsum n (fun p => tsum n (fun q => h p q * A p q))
    + half * tsum n (fun p => tsum n (fun q => tsum n (fun r => tsum n (fun s => g p q r s * B p q r s)))).
  Proof.
    rewrite ip_Hact. f_equal; [|f_equal]; rewrite tsum_sumn; apply sumn_ext; intros p _; rewrite tsum_sumn; apply sumn_ext; intros q _; [reflexivity|].
    rewrite tsum_sumn; apply sumn_ext; intros r _; rewrite tsum_sumn; apply sumn_ext; intros s _. reflexivity.
  Qed.
  Variables m k : nat.
  Hypothesis Hm : (m < n)%nat.
  Hypothesis Hk : (k < n)%nat.
  Hypothesis Hmk : m <> k.
  Definition plane : nat -> nat -> R := fun a b => if Nat.eqb a m && Nat.eqb b k then 1 else if Nat.eqb a k && Nat.eqb b m then - 1 else 0.
  Notation X a b := (- plane a b).

  Lemma collapse_plane (f : nat -> nat -> R) : tsum n (fun p => tsum n (fun a => X a p * f a p)) = f k m - f m k.
  Proof.
    rewrite (tsum_ext n _ (fun p => (if Nat.eqb p k then 1 else 0) * - f m k + (if Nat.eqb p m then 1 else 0) * f k m)).
    - rewrite tplus, !tdelta by auto. ring.
    - intros p Hp. unfold plane.
      rewrite (tsum_ext n _ (fun a => (if Nat.eqb a m then 1 else 0) * ((if Nat.eqb p k then 1 else 0) * - f a k)
         + (if Nat.eqb a k then 1 else 0) * ((if Nat.eqb p m then 1 else 0) * f a m))).
      + rewrite tplus, (tdelta n m (fun a => (if Nat.eqb p k then 1 else 0) * - f a k)) by auto.
        rewrite (tdelta n k (fun a => (if Nat.eqb p m then 1 else 0) * f a m)) by auto. ring.
      + intros a Ha. destruct (Nat.eqb_spec a m), (Nat.eqb_spec p k), (Nat.eqb_spec a k), (Nat.eqb_spec p m); subst; cbn [andb]; try lia; ring.
  Qed.
  Lemma tsum_swap_R a b (f : nat -> nat -> R) : tsum a (fun i => tsum b (fun j => f i j)) = tsum b (fun j => tsum a (fun i => f i j)).
  Proof. apply (@tsum_swap R R_CRing). Qed.

  Definition h_dot p q : R := tsum n (fun a => X a p * h a q) + tsum n (fun b => X b q * h p b).
  Definition g_dot p q r s : R := tsum n (fun a => X a p * g a q r s) + tsum n (fun a => X a q * g p a r s)
       + tsum n (fun a => X a r * g p q a s) + tsum n (fun a => X a s * g p q r a).

  Lemma one_dot : tsum n (fun p => tsum n (fun q => h_dot p q * A p q))
    = tsum n (fun p => h k p * A m p - h p m * A p k) - tsum n (fun p => h m p * A k p - h p k * A p m).
  Proof.
    unfold h_dot.
    rewrite (tsum_ext n _ (fun p => tsum n (fun q => tsum n (fun a => X a p * (h a q * A p q))) + tsum n (fun q => tsum n (fun b => X b q * (h p b * A p q))))).
    2:{ intros p _. rewrite <- tplus. apply tsum_ext. intros q _. rewrite Rmult_plus_distr_r, !tscal_r. f_equal; apply tsum_ext; intros; ring. }
    rewrite tplus.
    assert (E1 : tsum n (fun p => tsum n (fun q => tsum n (fun a => X a p * (h a q * A p q)))) = tsum n (fun q => h k q * A m q - h m q * A k q)).
    { rewrite tsum_swap_R. apply tsum_ext. intros q _. apply (collapse_plane (fun a p => h a q * A p q)). }
    assert (E2 : tsum n (fun p => tsum n (fun q => tsum n (fun b => X b q * (h p b * A p q)))) = tsum n (fun p => h p k * A p m - h p m * A p k)).
    { apply tsum_ext. intros p _. apply (collapse_plane (fun b q => h p b * A p q)). }
    rewrite E1, E2, !tminus. ring.
  Qed.

  Lemma two_dot : tsum n (fun p => tsum n (fun q => tsum n (fun r => tsum n (fun s => g_dot p q r s * B p q r s))))
    = tsum n (fun p => tsum n (fun q => tsum n (fun r =>
        g k p q r * B m p q r - g p m q r * B p k q r + g p q k r * B p q m r - g p q r m * B p q r k)))
    - tsum n (fun p => tsum n (fun q => tsum n (fun r =>
        g m p q r * B k p q r - g p k q r * B p m q r + g p q m r * B p q k r - g p q r k * B p q r m))).
  Proof.
    set (T1 := tsum n (fun q => tsum n (fun r => tsum n (fun s => tsum n (fun p => tsum n (fun a => X a p * (g a q r s * B p q r s))))))).
    set (T2 := tsum n (fun p => tsum n (fun r => tsum n (fun s => tsum n (fun q => tsum n (fun a => X a q * (g p a r s * B p q r s))))))).
    set (T3 := tsum n (fun p => tsum n (fun q => tsum n (fun s => tsum n (fun r => tsum n (fun a => X a r * (g p q a s * B p q r s))))))).
    set (T4 := tsum n (fun p => tsum n (fun q => tsum n (fun r => tsum n (fun s => tsum n (fun a => X a s * (g p q r a * B p q r s))))))).
    transitivity (T1 + T2 + T3 + T4).
    - transitivity (tsum n (fun p => tsum n (fun q => tsum n (fun r => tsum n (fun s => tsum n (fun a => X a p * (g a q r s * B p q r s))))))
        + tsum n (fun p => tsum n (fun q => tsum n (fun r => tsum n (fun s => tsum n (fun a => X a q * (g p a r s * B p q r s))))))
        + tsum n (fun p => tsum n (fun q => tsum n (fun r => tsum n (fun s => tsum n (fun a => X a r * (g p q a s * B p q r s))))))
        + T4).
      + unfold T4. rewrite <- !tplus. apply tsum_ext. intros p _. rewrite <- !tplus. apply tsum_ext. intros q _. rewrite <- !tplus.
        apply tsum_ext. intros r _. rewrite <- !tplus. apply tsum_ext. intros s _. unfold g_dot.
        rewrite !Rmult_plus_distr_r, !tscal_r. f_equal; [f_equal; [f_equal|]|]; apply tsum_ext; intros; ring.
      + f_equal. f_equal; [f_equal|].
        * unfold T1. rewrite tsum_swap_R. apply tsum_ext. intros q _. rewrite tsum_swap_R. apply tsum_ext. intros r _. rewrite tsum_swap_R. reflexivity.
        * unfold T2. apply tsum_ext. intros p _. rewrite tsum_swap_R. apply tsum_ext. intros r _. rewrite tsum_swap_R. reflexivity.
        * unfold T3. apply tsum_ext. intros p _. apply tsum_ext. intros q _. rewrite tsum_swap_R. reflexivity.
    - assert (E1 : T1 = tsum n (fun p => tsum n (fun q => tsum n (fun r => g k p q r * B m p q r - g m p q r * B k p q r)))).
      { unfold T1. apply tsum_ext. intros p _. apply tsum_ext. intros q _. apply tsum_ext. intros r _.
        apply (collapse_plane (fun a b => g a p q r * B b p q r)). }
      assert (E2 : T2 = tsum n (fun p => tsum n (fun q => tsum n (fun r => g p k q r * B p m q r - g p m q r * B p k q r)))).
      { unfold T2. apply tsum_ext. intros p _. apply tsum_ext. intros q _. apply tsum_ext. intros r _.
        apply (collapse_plane (fun a b => g p a q r * B p b q r)). }
      assert (E3 : T3 = tsum n (fun p => tsum n (fun q => tsum n (fun r => g p q k r * B p q m r - g p q m r * B p q k r)))).
      { unfold T3. apply tsum_ext. intros p _. apply tsum_ext. intros q _. apply tsum_ext. intros r _.
        apply (collapse_plane (fun a b => g p q a r * B p q b r)). }
      assert (E4 : T4 = tsum n (fun p => tsum n (fun q => tsum n (fun r => g p q r k * B p q r m - g p q r m * B p q r k)))).
      { unfold T4. apply tsum_ext. intros p _. apply tsum_ext. intros q _. apply tsum_ext. intros r _.
        apply (collapse_plane (fun a b => g p q r a * B p q r b)). }
      rewrite E1, E2, E3, E4. rewrite <- tminus, <- !tplus. apply tsum_ext. intros p _.
      rewrite <- tminus, <- !tplus. apply tsum_ext. intros q _. rewrite <- tminus, <- !tplus. apply tsum_ext. intros r _. ring.
  Qed.

  (** Together: the derivative of the energy is the expectation value of the
      commutator of [E_mk - E_km] with the Hamiltonian. *)
  Lemma energy_dot : tsum n (fun p => tsum n (fun q => h_dot p q * A p q))
    + half * tsum n (fun p => tsum n (fun q => tsum n (fun r => tsum n (fun s => g_dot p q r s * B p q r s))))
    = ip (2 * n) psi (comm (fun f x => Eact m k f x - Eact k m f x) (Hact half h g n) psi).
  Proof.
    rewrite one_dot, two_dot.
    transitivity (ip (2 * n) psi (hcomm half h g n m k psi) - ip (2 * n) psi (hcomm half h g n k m psi)).
    - assert (HC : forall a b, ip (2 * n) psi (hcomm half h g n a b psi)
        = tsum n (fun p => h b p * A a p - h p a * A p b)
        + half * tsum n (fun p => tsum n (fun q => tsum n (fun r =>
           g b p q r * B a p q r - g p a q r * B p b q r + g p q b r * B p q a r - g p q r a * B p q r b)))).
      { intros a b. unfold hcomm. rewrite ip_add, (ip_scale (2 * n)), !ip_sumn. apply (f_equal2 Rplus); [|apply (f_equal (Rmult half))].
        - rewrite tsum_sumn. apply sumn_ext. intros p _. rewrite ip_sub, !(ip_scale (2 * n)). reflexivity.
        - rewrite tsum_sumn. apply sumn_ext. intros p _. rewrite ip_sumn, tsum_sumn. apply sumn_ext. intros q _.
          rewrite ip_sumn, tsum_sumn. apply sumn_ext. intros r _.
          rewrite ip_sub, ip_add, ip_sub, !(ip_scale (2 * n)).
          assert (EE : forall w x y z, ip (2 * n) psi (eact w x y z psi) = B w x y z).
          { intros. apply ip_ext; [reflexivity|]. intros u. now rewrite eop_eact. }
          rewrite !EE. reflexivity. }
      rewrite !HC. ring.
    - symmetry. transitivity (ip (2 * n) psi (fun x => hcomm half h g n m k psi x - hcomm half h g n k m psi x)).
      + apply ip_ext; [reflexivity|]. intros x. unfold comm. rewrite <- !hcomm_spec by auto.
        change (Eact m k (Hact half h g n psi) x - Eact k m (Hact half h g n psi) x - Hact half h g n (fun y => (Eact m k psi y - Eact k m psi y)%K) x
          = Eact m k (Hact half h g n psi) x - Hact half h g n (Eact m k psi) x - (Eact k m (Hact half h g n psi) x - Hact half h g n (Eact k m psi) x)).
        rewrite (Hact_sub half h g n). cbn [rsub R_CRing]. ring.
      + apply (@ip_sub R R_CRing).
  Qed.
End OrbitalGradient.
