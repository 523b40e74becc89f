(** C86: the parameter-shift gradient is the derivative of the energy, and the
    energies sampled by RotoSolve are energies of ansatz states. *)
From Coq Require Import List Bool Arith NArith ZArith Reals Lra Lia String.
From Verif Require Import Base RRing Fock FermiModel OperatorsModel OperatorsKeys Props_Operators CIModel StateModel StateProofs StateMore Props_State
  UPSModel UPSProofs UPSSingle UPSState UPSAnsatz Props_UPS StructModel StructInv Props_Struct WaveModel GradProofs Props_Gradient
  QubitModel CircuitModel Props_Circuit RotoModel RotoProofs Props_Roto ShiftModel ShiftTrig ShiftProofs ShiftRows.
Import ListNotations.
Local Open Scope R_scope.

(** For any function of the parameters that is, in each of them, a trigonometric
    polynomial of the degree that the table gives for its name, the parameter-shift sum
    is the derivative. *)
Theorem C86_shift_gradient (qev : list R -> Res R) Rdict names p (f : nat -> R -> R) :
  (forall i, (i < List.length p)%nat -> exists name r, nth_error names i = Some name /\ Rdict name = Some r /\ (0 < r)%nat /\ trigonometric r (f i)) ->
  (forall i t, (i < List.length p)%nat -> qev (firstn i p ++ t :: skipn (S i) p) = Ok (f i t)) ->
  exists G, shift_gradient qev Rdict names p = Ok G /\ List.length G = List.length p /\
    forall i, (i < List.length p)%nat -> derivable_pt_lim (f i) (nth i p 0) (nth i G 0).
Proof. intros H1 H2. apply shift_gradient_ok; [exact H1|]. intros i t Hi. rewrite put_split by exact Hi. now apply H2. Qed.

(** State-averaged: the derivative of the mean of the energies of the states. *)
Theorem C86_state_averaged (qevs : list (list R -> Res R)) Rdict names p (F : nat -> nat -> R -> R) : qevs <> [] ->
  (forall i, (i < List.length p)%nat -> exists name r, nth_error names i = Some name /\ Rdict name = Some r /\ (0 < r)%nat /\
     forall k, (k < List.length qevs)%nat -> trigonometric r (F k i)) ->
  (forall k i t, (k < List.length qevs)%nat -> (i < List.length p)%nat -> nth k qevs (fun _ => Hang) (firstn i p ++ t :: skipn (S i) p) = Ok (F k i t)) ->
  exists G, shift_gradient (mean_qev qevs) Rdict names p = Ok G /\ List.length G = List.length p /\
    forall i, (i < List.length p)%nat ->
      derivable_pt_lim (fun t => rsum (map (fun k => F k i t) (seq 0 (List.length qevs))) / INR (List.length qevs)) (nth i p 0) (nth i G 0).
Proof.
  intros Hne H1 H2. set (n := List.length qevs) in *.
  apply (C86_shift_gradient (mean_qev qevs) Rdict names p (fun i t => rsum (map (fun k => F k i t) (seq 0 n)) / INR n)).
  - intros i Hi. destruct (H1 i Hi) as (name & r & E1 & E2 & Hr & HF). exists name, r. repeat split; auto.
    apply (tp_ext r (fun t => / INR n * rsum (map (fun k => F k i t) (seq 0 n)))); [intros; unfold Rdiv; ring|]. apply tp_scal.
    assert (Q : forall l, (forall k, In k l -> (k < n)%nat) -> trigonometric r (fun t => rsum (map (fun k => F k i t) l))).
    { induction l as [|k l IH]; intros Hl; [apply (tp_const r 0)|].
      apply (tp_ext r (fun t => F k i t + rsum (map (fun k => F k i t) l))); [reflexivity|]. apply tp_add; [apply HF, Hl; now left|apply IH; intros; apply Hl; now right]. }
    apply Q. intros k Hk. apply in_seq in Hk. lia.
  - intros i t Hi. apply (is_mean qevs _ (map (fun k => F k i t) (seq 0 n))); [now rewrite map_length, seq_length| |exact Hne].
    intros k Hk. rewrite H2 by assumption. f_equal. symmetry. rewrite (nth_indep _ 0 (F 0%nat i t)) by (rewrite map_length, seq_length; exact Hk).
    rewrite (map_nth (fun k => F k i t)), seq_nth by exact Hk. reflexivity.
Qed.

(** The energy of a product ansatz is, in each parameter, a trigonometric polynomial: of
    degree two, and of degree four for the spin-adapted singles. *)
Lemma degree_amp ty r : R_of ty = Some r -> exists k, amp_degree ty = Some k /\ r = (k + k)%nat /\ (0 < r)%nat.
Proof. destruct ty; cbn; intros H; try discriminate; injection H as <-; eexists; (split; [reflexivity|lia]). Qed.
Theorem C86_energy_trigonometric tiny sp th struct csf h g thetas s1 e s2 t1 t t2 :
  sector tiny sp th -> List.Forall (gate_ok (sp_na sp) 0) struct -> List.length csf = dim (sp_ci sp) ->
  struct = s1 ++ e :: s2 -> thetas = t1 ++ t :: t2 -> List.length t1 = List.length s1 -> List.length t2 = List.length s2 ->
  match fst e with SaDouble2 | SaDouble3 | SaDouble4 | SaDouble5 | Other => True | _ =>
    exists energy : R -> R, trigonometric (match fst e with SaSingle => 4 | _ => 2 end) energy /\
      forall s, bind (ups_state tiny sp th 0 struct (t1 ++ s :: t2) false csf) (energy_of tiny sp th h g) = Ok (energy s)
  end.
Proof.
  intros HS Hg Hc -> -> L1 L2.
  pose proof (energy_trig tiny sp th HS (s1 ++ e :: s2) csf Hg Hc h g (t1 ++ t :: t2) (List.length t1) e) as Q.
  assert (E1 : List.length (t1 ++ t :: t2) = List.length (s1 ++ e :: s2)) by (rewrite !app_length; cbn; lia).
  assert (E2 : nth_error (s1 ++ e :: s2) (List.length t1) = Some e) by (rewrite nth_error_app2, L1, Nat.sub_diag by lia; reflexivity).
  destruct (fst e) eqn:Ee; auto; cbn [amp_degree] in Q;
    destruct (Q _ E1 E2 eq_refl) as (en & T & V); exists en; (split; [exact T|]); intros s; specialize (V s); now rewrite put_app in V.
Qed.

Lemma rget_spec (Rd : list (list nat * nat)) name r : NoDup (map fst Rd) -> (rget Rd name = Some r <-> In (name, r) Rd).
Proof.
  intros HN. unfold rget. rewrite <- (rev_involutive Rd), <- in_rev. rewrite rev_involutive.
  assert (HN' : NoDup (map fst (rev Rd))) by (rewrite map_rev; now apply NoDup_rev). clear HN.
  induction (rev Rd) as [|[n x] l IH]; cbn [find In fst]; [split; [discriminate|intros []]|].
  inversion_clear HN' as [|? ? Hn HN2]. destruct (list_eq_dec Nat.eq_dec n name) as [->|Ne].
  - cbn [snd]. split; [intros E; injection E as ->; now left|]. intros [E|Hin]; [congruence|]. exfalso. apply Hn. change name with (fst (name, r)). now apply in_map.
  - rewrite (IH HN2). split; [now right|]. intros [E|Hin]; [congruence|exact Hin].
Qed.

(** The table of shift orders that the layouts carry fits: for every history of calls,
    every parameter with an entry has an energy of that degree.  This is the hypothesis
    of C34 on the objective. *)
Theorem C86_layout_objective tiny sp th cs csf h g (f : list R -> R) :
  sector tiny sp th -> List.Forall (Props_Struct.call_ok (sp_na sp)) cs -> List.length csf = dim (sp_ci sp) ->
  let s := Props_Struct.history cs in
  (forall x, List.length x = s_n s -> bind (ups_state tiny sp th 0 (combine (s_type s) (s_idx s)) x false csf) (energy_of tiny sp th h g) = Ok (f x)) ->
  forall x i name r, List.length x = List.length (s_names s) -> nth_error (s_names s) i = Some name -> rget (s_R s) name = Some r ->
    trigonometric r (fun t => f (firstn i x ++ t :: skipn (S i) x)).
Proof.
  intros HS Hcs Hc s Hf x i name r Lx Hi Hr.
  assert (Hn : List.Forall no_sds_pair cs) by (eapply Forall_impl; [|exact Hcs]; intros [| |]; cbn; tauto).
  destruct (C25_counts_and_names cs) as (C1 & C2 & C3 & _ & C4 & _). destruct (C25_arity_partial cs Hn) as (_ & A2 & A3). fold s in C1, C2, C3, C4, A2, A3.
  assert (Hlt : (i < s_n s)%nat) by (rewrite <- C3; apply nth_error_Some; congruence).
  rewrite (C4 i Hlt) in Hi. injection Hi as <-. apply (rget_spec _ _ _ A3) in Hr. apply A2 in Hr as (ty & Ety & Er).
  destruct (degree_amp ty r Er) as (k & Ek & -> & _).
  pose proof (C25_layouts_are_valid (sp_na sp) 0 cs Hcs) as HG. rewrite Nat.add_0_r in HG. fold s in HG.
  assert (LL : List.length (combine (s_type s) (s_idx s)) = s_n s) by (rewrite combine_length; lia).
  assert (exists idx, nth_error (combine (s_type s) (s_idx s)) i = Some (ty, idx)) as (idx & Ei).
  { destruct (nth_error (s_idx s) i) as [idx|] eqn:E; [|apply nth_error_None in E; lia]. exists idx. revert Ety E. generalize (s_type s) (s_idx s). clear. intros a.
    revert i. induction a as [|y a IH]; intros [|i] [|z b] H1 H2; cbn in *; try discriminate; [congruence|]. now apply IH. }
  destruct (energy_trig tiny sp th HS (combine (s_type s) (s_idx s)) csf HG Hc h g x i (ty, idx) k) as (en & T & V); auto; [rewrite Lx, C3; symmetry; exact LL|].
  apply (tp_ext (k + k) en); [|exact T]. intros t. specialize (V t). rewrite put_split in V by lia.
  rewrite Hf in V; [congruence|]. rewrite <- put_split by lia. rewrite put_length. lia.
Qed.

(** Layouts with a spin-adapted double have no entry for it: the gradient raises. *)
Theorem C86_missing_order_refuted cs qev thetas ty : List.Forall no_sds_pair cs -> let s := Props_Struct.history cs in
  nth_error (s_type s) 0 = Some ty -> R_of ty = None -> thetas <> [] ->
  shift_gradient qev (rget (s_R s)) (s_names s) thetas = Raise KeyError.
Proof.
  intros Hn s E0 ER Hne. destruct (C25_counts_and_names cs) as (C1 & _ & _ & _ & C4 & _). destruct (C25_arity_partial cs Hn) as (_ & A2 & A3). fold s in C1, C4, A2, A3.
  destruct thetas as [|t ts]; [contradiction|]. unfold shift_gradient. cbn [List.length seq fold_left bind].
  rewrite (C4 0%nat) by (rewrite <- C1; apply nth_error_Some; congruence).
  assert (rget (s_R s) (pname 0) = None) as ->.
  { destruct (rget (s_R s) (pname 0)) as [r|] eqn:E; [|reflexivity]. apply (rget_spec _ _ _ A3) in E. apply A2 in E as (ty' & E' & Er). congruence. }
  clear. induction (seq 1 (List.length ts)); cbn; auto.
Qed.

(** The circuit of a layout, with the table built beside it and the parameter names in
    its order, and exact expectation values: the parameter-shift gradient is the list
    that the state-vector code computes with [get_grad_action], and the derivative of
    the energy. *)
Theorem C86_circuit_gradient tiny sp th struct thetas csf h g qc Rd :
  sector tiny sp th -> let es := combine (s_type struct) (s_idx struct) in
  List.Forall (fun e => gate_ok (sp_na sp) 0 e /\ NoDup (snd e)) es -> List.length thetas = List.length es -> (List.length thetas <= 10 ^ 9)%nat ->
  List.length csf = dim (sp_ci sp) ->
  (forall p q, (p < sp_ni sp + sp_na sp + sp_nv sp)%nat -> (q < sp_ni sp + sp_na sp + sp_nv sp)%nat -> h p q = h q p) ->
  (forall p q r s, (p < sp_ni sp + sp_na sp + sp_nv sp)%nat -> (q < sp_ni sp + sp_na sp + sp_nv sp)%nat ->
     (r < sp_ni sp + sp_na sp + sp_nv sp)%nat -> (s < sp_ni sp + sp_na sp + sp_nv sp)%nat -> g p q r s = g q p s r) ->
  circuit_of struct (sp_na sp) thetas = Ok (qc, Rd) ->
  exists v G, ups_state tiny sp th 0 es thetas false csf = Ok v /\
    shift_gradient (fun x => bind (ups_state tiny sp th 0 es x false csf) (energy_of tiny sp th h g)) (rget Rd) (map fst Rd) thetas = Ok G /\
    theta_gradient tiny sp th es csf h g v thetas = Ok G /\
    forall t1 t t2, thetas = t1 ++ t :: t2 -> exists energy : R -> R,
      (forall s, bind (ups_state tiny sp th 0 es (t1 ++ s :: t2) false csf) (energy_of tiny sp th h g) = Ok (energy s)) /\
      derivable_pt_lim energy t (nth (List.length t1) G 0).
Proof.
  intros HS es Hes HL H9 Hc Hh Hg Eq. assert (Hgates : List.Forall (gate_ok (sp_na sp) 0) es) by (eapply Forall_impl; [|exact Hes]; cbn; tauto).
  pose proof (C62_circuit_is_ansatz tiny sp th struct thetas HS Hes HL H9) as Q. rewrite Eq in Q. destruct Q as (Hfit & Q1 & Q2 & _).
  destruct (C66_theta_gradient tiny sp th HS es csf Hgates Hc h g Hh Hg thetas HL) as (v & G & Ev & EG & LG & D).
  assert (LR : List.length Rd = List.length thetas) by (apply (f_equal (@List.length _)) in Q1; now rewrite !map_length, seq_length in Q1).
  assert (HN : NoDup (map fst Rd)) by (rewrite Q1; apply FinFun.Injective_map_NoDup; [intros a b; apply pname_inj|apply seq_NoDup]).
  set (qev := fun x => bind (ups_state tiny sp th 0 es x false csf) (energy_of tiny sp th h g)).
  set (f := fun i t => match qev (firstn i thetas ++ t :: skipn (S i) thetas) with Ok e => e | _ => 0 end).
  assert (K : forall i, (i < List.length thetas)%nat -> exists name r, nth_error (map fst Rd) i = Some name /\ rget Rd name = Some r /\ (0 < r)%nat /\ trigonometric r (f i) /\
     forall t, qev (firstn i thetas ++ t :: skipn (S i) thetas) = Ok (f i t)).
  { intros i Hi. destruct (nth_error Rd i) as [[name r]|] eqn:Ei; [|apply nth_error_None in Ei; lia].
    destruct (nth_error es i) as [e|] eqn:Ee; [|apply nth_error_None in Ee; lia].
    exists name, r. split; [rewrite nth_error_map, Ei; reflexivity|]. split; [apply rget_spec; [exact HN|]; eapply nth_error_In, Ei|].
    assert (Er : nth_error (map snd Rd) i = Some r) by (rewrite nth_error_map, Ei; reflexivity). rewrite Q2, nth_error_map in Er. fold es in Er. rewrite Ee in Er. cbn in Er. injection Er as Er.
    assert (exists k, amp_degree (fst e) = Some k /\ r = (k + k)%nat /\ (0 < r)%nat) as (k & Ek & -> & Hk).
    { pose proof (proj1 (Forall_forall _ _) Hfit e (nth_error_In _ _ Ee)) as F. destruct e as [ty idx]. cbn [fst] in *. subst r. destruct ty; try contradiction; cbn; eexists; (split; [reflexivity|lia]). }
    split; [exact Hk|].
    destruct (energy_trig tiny sp th HS es csf Hgates Hc h g thetas i e k HL Ee Ek) as (en & T & V).
    assert (V' : forall t, qev (firstn i thetas ++ t :: skipn (S i) thetas) = Ok (en t)) by (intros t; rewrite <- put_split by exact Hi; apply V).
    split; [apply (tp_ext (k + k) en); [intros t; unfold f; now rewrite V'|exact T]|]. intros t. unfold f. now rewrite V'. }
  destruct (C86_shift_gradient qev (rget Rd) (map fst Rd) thetas f) as (G' & EG' & LG' & D').
  { intros i Hi. destruct (K i Hi) as (name & r & K1 & K2 & K3 & K4 & _). exists name, r. auto. }
  { intros i t Hi. destruct (K i Hi) as (name & r & _ & _ & _ & _ & K5). apply K5. }
  assert (G' = G) as ->.
  { apply (nth_ext _ _ 0 0); [congruence|]. intros i Hi. rewrite LG' in Hi.
    destruct (split_at thetas i Hi) as (t1 & t & t2 & Et & Li). destruct (D t1 t t2 Et) as (en & V & De). subst i.
    specialize (D' (List.length t1) Hi). rewrite Et in D' at 1. rewrite app_nth2, Nat.sub_diag in D' by lia. cbn [nth] in D'.
    apply (uniqueness_limite (f (List.length t1)) t); [exact D'|].
    apply (dlim_ext en); [|exact De]. intros s. destruct (K _ Hi) as (_ & _ & _ & _ & _ & _ & K5). specialize (K5 s). rewrite <- put_split in K5 by exact Hi.
    rewrite Et, put_app in K5. unfold qev in K5. rewrite V in K5. congruence. }
  exists v, G. split; [exact Ev|]. split; [exact EG'|]. split; [exact EG|exact D].
Qed.

(** The energies computed at once for RotoSolve are the energies of the ansatz with one
    parameter replaced by each of the values. *)
Theorem C86_rotosolve_energies tiny tiny_le sp th struct csf h g parameters diffs i :
  sector tiny sp th -> (forall c, tiny c = true <-> c = 0) -> (forall c, tiny_le c = true <-> c = 0) ->
  List.Forall (gate_ok (sp_na sp) 0) struct -> List.length csf = dim (sp_ci sp) -> List.length parameters = List.length struct ->
  (i < List.length struct)%nat -> diffs <> [] ->
  exists es, rotosolve_energies tiny tiny_le sp th struct h g csf parameters diffs i = Ok es /\ List.length es = List.length diffs /\
    forall j, (j < List.length diffs)%nat ->
      bind (ups_state tiny sp th 0 struct (firstn i parameters ++ nth j diffs 0 :: skipn (S i) parameters) false csf) (energy_of tiny sp th h g) = Ok (nth j es 0).
Proof.
  intros HS Ht Hle Hg Hc HL Hi Hd. destruct (rotosolve_ok tiny tiny_le sp th HS Ht Hle h g struct csf parameters diffs i Hg Hc HL Hi Hd) as (es & E & L & P).
  exists es. split; [exact E|]. split; [exact L|]. intros j Hj. rewrite <- put_split by lia. now apply P.
Qed.

(** State-averaged: every entry is the sum over the states, the number of states times
    the average energy that the wave function reports. *)
Theorem C86_rotosolve_state_averaged tiny tiny_le sp th struct csfs h g parameters diffs i :
  sector tiny sp th -> (forall c, tiny c = true <-> c = 0) -> (forall c, tiny_le c = true <-> c = 0) ->
  List.Forall (gate_ok (sp_na sp) 0) struct -> (forall c, In c csfs -> List.length c = dim (sp_ci sp)) -> csfs <> [] -> List.length parameters = List.length struct ->
  (i < List.length struct)%nat -> diffs <> [] ->
  exists es, rotosolve_energies_SA tiny tiny_le sp th struct h g csfs (List.length parameters) parameters diffs i = Ok es /\ List.length es = List.length diffs /\
    forall j, (j < List.length diffs)%nat -> exists E : list R, List.length E = List.length csfs /\
      (forall r, (r < List.length csfs)%nat ->
         bind (ups_state tiny sp th 0 struct (firstn i parameters ++ nth j diffs 0 :: skipn (S i) parameters) false (nth r csfs [])) (energy_of tiny sp th h g) = Ok (nth r E 0)) /\
      nth j es 0 = rsum E.
Proof.
  intros HS Ht Hle Hg Hc Hne HL Hi Hd.
  destruct (rotosolve_SA_ok tiny tiny_le sp th HS Ht Hle h g struct csfs parameters diffs i Hg Hc Hne HL Hi Hd) as (es & E & L & P).
  exists es. split; [exact E|]. split; [exact L|]. intros j Hj. rewrite <- put_split by lia. now apply P.
Qed.

(** Non-vacuity: a circuit of four excitations on four orbitals with 36 determinants. *)
Definition ex86_h (p q : nat) : R := if Nat.eqb p q then INR p else 1.
Lemma ex86_sym p q : ex86_h p q = ex86_h q p.
Proof. unfold ex86_h. rewrite (Nat.eqb_sym q p). destruct (Nat.eqb_spec p q) as [->|]; reflexivity. Qed.
Example C86_example : exists qc Rd G, circuit_of ex62 4 [1; 2; 3; 4] = Ok (qc, Rd) /\
  map snd Rd = [2; 2; 4; 2]%nat /\
  shift_gradient (fun x => bind (ups_state rtiny ex_sp None 0 (combine (s_type ex62) (s_idx ex62)) x false (1 :: repeat 0 35)) (energy_of rtiny ex_sp None ex86_h (fun _ _ _ _ => 0)))
    (rget Rd) (map fst Rd) [1; 2; 3; 4] = Ok G /\ List.length G = 4%nat.
Proof.
  destruct C62_example as (HS & Hes & qc & Eq). set (Rd := map _ (seq 0 4)) in Eq. exists qc, Rd.
  destruct (C86_circuit_gradient rtiny ex_sp None ex62 [1; 2; 3; 4] (1 :: repeat 0 35) ex86_h (fun _ _ _ _ => 0) qc Rd HS Hes eq_refl)
    as (v & G & E1 & E2 & E3 & _).
  - pose proof (Nat.pow_gt_lin_r 10 9 ltac:(lia)) as H. set (n9 := (10 ^ 9)%nat) in *. clearbody n9. cbn [List.length]. lia.
  - vm_compute. reflexivity.
  - intros p q _ _. apply ex86_sym.
  - reflexivity.
  - exact Eq.
  - exists G. split; [exact Eq|]. split; [reflexivity|]. split; [exact E2|].
    assert (Hg : List.Forall (gate_ok (sp_na ex_sp) 0) (combine (s_type ex62) (s_idx ex62))) by (eapply Forall_impl; [|exact Hes]; cbn; tauto).
    destruct (C66_theta_gradient rtiny ex_sp None HS (combine (s_type ex62) (s_idx ex62)) (1 :: repeat 0 35) Hg ltac:(vm_compute; reflexivity)
      ex86_h (fun _ _ _ _ => 0)
      (fun p q _ _ => ex86_sym p q) (fun _ _ _ _ _ _ _ _ => eq_refl) [1; 2; 3; 4] eq_refl) as (v' & G' & F1 & F2 & F3 & _).
    assert (v' = v) as -> by congruence. assert (G' = G) as -> by congruence. exact F3.
Qed.
(** The derivative of [1 + sin 2x] at 0 from four samples. *)
Example C86_example_rule : exists G, shift_gradient (fun x => Ok (1 + sin (2 * nth 0 x 0))) (fun _ => Some 2%nat) [[0%nat]] [0] = Ok [G] /\ G = 2.
Proof.
  destruct (C86_shift_gradient (fun x => Ok (1 + sin (2 * nth 0 x 0))) (fun _ => Some 2%nat) [[0%nat]] [0] (fun _ t => 1 + sin (2 * t))) as (G & E & L & D).
  - intros [|i] Hi; [|cbn in Hi; lia]. exists [0%nat], 2%nat. repeat split; auto.
    apply tp_add; [apply tp_const|]. apply (tp_ext 2 (fun t => sin (INR 2 * t))); [intros t; f_equal; cbn; ring|]. apply tp_sin. lia.
  - intros [|i] t Hi; [reflexivity|cbn in Hi; lia].
  - destruct G as [|G [|? ?]]; try discriminate. exists G. split; [exact E|]. specialize (D 0%nat ltac:(cbn; lia)). cbn [nth] in D.
    apply (uniqueness_limite (fun t => 1 + sin (2 * t)) 0); [exact D|].
    assert (D2 : derivable_pt_lim (fun t => 1 + sin (2 * t)) 0 (0 + cos (2 * 0) * (0 * 0 + 2 * 1))).
    { apply (derivable_pt_lim_plus (fun _ => 1) (fun t => sin (2 * t))); [apply derivable_pt_lim_const|].
      apply (derivable_pt_lim_comp (fun t => 2 * t) sin); [|apply derivable_pt_lim_sin].
      apply (derivable_pt_lim_mult (fun _ => 2) (fun t => t)); [apply derivable_pt_lim_const|apply derivable_pt_lim_id]. }
    rewrite Rmult_0_r, cos_0 in D2. replace (0 + 1 * (0 * 0 + 2 * 1)) with 2 in D2 by ring. exact D2.
Qed.
Example C86_example_missing : exists s, Props_Struct.history [FUCC [0%nat] [1%nat] [0; 1]%nat [2; 3]%nat 2 [("n_layers", 1%Z); ("SAD", 1%Z)]%string] = s /\
  nth_error (s_type s) 0 = Some SaDouble1 /\ R_of SaDouble1 = None.
Proof. eexists. split; [reflexivity|]. split; vm_compute; reflexivity. Qed.

Print Assumptions C86_shift_gradient.
Print Assumptions C86_state_averaged.
Print Assumptions C86_energy_trigonometric.
Print Assumptions C86_layout_objective.
Print Assumptions C86_missing_order_refuted.
Print Assumptions C86_circuit_gradient.
Print Assumptions C86_rotosolve_energies.
Print Assumptions C86_rotosolve_state_averaged.
