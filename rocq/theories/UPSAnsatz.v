(** Products of gates: inverse, step-by-step application, gradient, rows. *)
From Coq Require Import List Bool Arith NArith ZArith Reals Lra Lia.
From Verif Require Import Base RRing Fock FockMore FermiModel FermiProofs FermiAlgebra OperatorsModel OperatorsProofs
  OperatorsGen OperatorsKeys CIModel CIProofs StateModel StateBits StateProofs StateMore Props_State
  SaPoly GateAlgebra UPSModel UPSProofs UPSSingle UPSState.
Import ListNotations.
Local Open Scope R_scope.

(** A CI space of fixed electron numbers over [sp_na] orbitals, one of the two
    kernels, and exact thresholds. *)
Record sector (tiny : R -> bool) (sp : space) (th : threads) : Prop := {
  sec_tiny : forall c, tiny c = true -> c = 0;
  sec_pos : (0 < sp_na sp)%nat;
  sec_ci : exists na nb, get_indexing (sp_na sp) na nb = Ok (sp_ci sp);
  sec_th : forall order, th = Some order -> schedule (sp_ci sp) order
}.

Section Products.
  Variables tiny : R -> bool.
  Variable sp : space.
  Variable th : threads.
  Hypothesis HS : sector tiny sp th.
  Notation n := (sp_na sp).
  Notation d := (dim (sp_ci sp)).
  Notation kt := (ket (K:=R) (sp_na sp) (sp_ci sp)).

  (** Everything about one gate in one statement. *)
  Record gate_sem (off : nat) (e : exc) (D : rdict) (F : R -> vec -> vec) : Prop := {
    gs_op : gate_op off e = Ok D;
    gs_keys : OPS (bal n) D;
    gs_anti : forall x y, mel D x y = - mel D y x;
    gs_act : forall v x, opapp D v x = gen_spec off e v x;
    gs_lin : forall t, linear (F t);
    gs_run : forall t st, length st = d -> exists out, ups_gate tiny sp th off e t st = Ok out /\ length out = d /\
               forall x, kt out x = F t (kt st) x;
    gs_zero : forall v x, F 0 v x = v x;
    gs_group : forall s t v x, F s (F t v) x = F (s + t) v x;
    gs_deriv : forall L, linear L -> forall v t x, derivable_pt_lim (fun s => L (F s v) x) t (L (opapp D (F t v)) x);
    gs_series : forall t v x, infinite_sum (fun k => t ^ k / INR (fact k) * Nat.iter k (gen_spec off e) v x) (F t v x);
    gs_adj : forall t u w, length u = d -> length w = d -> pr sp (F t (kt u)) (kt w) = pr sp (kt u) (F (- t) (kt w))
  }.

  Theorem gate_sem_ok off e : gate_ok n off e -> exists D F, gate_sem off e D F.
  Proof.
    destruct HS as [Ht Hp (na & nb & Hc) Hth]. intros H.
    destruct (gate_state tiny sp th na nb Ht Hp Hc Hth off e H) as (D & E & G & S & Rn).
    exists D, (fun t => gact (opapp D) (gate_cs (fst e) t)). destruct G as [Gk Ga Gn Gd Gp Gi Gr].
    assert (Dec : forall v, exists v0 vs, decomp (opapp D) (gate_nodes (fst e)) v v0 vs).
    { intros v. apply decompose; auto. apply opapp_linear. }
    constructor; auto.
    - intros t. apply gact_linear, opapp_linear.
    - intros v x. eapply gate_zero; eauto. apply opapp_linear.
    - intros s t v x. eapply gate_group; eauto. apply opapp_linear.
    - intros L HL v t x. eapply gate_deriv_lin; eauto. apply opapp_linear.
    - intros t v x. pose proof (gate_series (opapp D) (opapp_linear D) _ _ v t Gn Gi (Dec v) x) as HSe.
      assert (EI : forall k y, Tn (opapp D) k v y = Nat.iter k (gen_spec off e) v y).
      { induction k as [|k IH]; intros y; [reflexivity|]. cbn [Tn]. change (Nat.iter (Datatypes.S k) (gen_spec off e) v) with (gen_spec off e (Nat.iter k (gen_spec off e) v)). rewrite (opapp_ext D _ _ IH). apply S. }
      intros eps He. destruct (HSe eps He) as (N & HN). exists N. intros m Hm. specialize (HN m Hm).
      rewrite (sum_eq _ (fun k => t ^ k / INR (fact k) * Tn (opapp D) k v x)); [exact HN|]. intros i _. now rewrite EI.
    - intros t u w Hu Hw. rewrite (pr_gact tiny sp th na nb Ht Hp Hc Hth D _ u w Gk Ga Hu Hw). now rewrite Gr.
  Qed.

  Lemma kt_eq a b : length a = d -> length b = d -> (forall x, kt a x = kt b x) -> a = b.
  Proof. destruct HS as [Ht Hp (na & nb & Hc) Hth]. apply (kt_ext sp na nb Hp Hc). Qed.
  Lemma dot_kt a b : length a = d -> length b = d -> dot a b = pr sp (kt a) (kt b).
  Proof. destruct HS as [Ht Hp (na & nb & Hc) Hth]. apply (dot_pr sp na nb Hp Hc). Qed.

  (** ** Products *)
  Notation step off dag := (fun acc (et : exc * R) => bind acc (fun out =>
                 if tiny (snd et) then Ok out
                 else apply_gate (list R) (app1v tiny sp th) axpy1 off (fst et) (if dag : bool then - snd et else snd et) out)).

  Lemma step_run off e (D : rdict) F dag t st : gate_sem off e D F -> length st = d ->
    exists out, step off dag (Ok st) (e, t) = Ok out /\ length out = d /\
      forall x, kt out x = F (if dag then - t else t) (kt st) x.
  Proof.
    intros G Hl. cbn [bind fst snd]. destruct (tiny t) eqn:E.
    - apply (sec_tiny _ _ _ HS) in E. subst t. exists st. split; [reflexivity|]. split; [exact Hl|].
      intros x. replace (if dag then - 0 else 0) with 0 by (destruct dag; ring). now rewrite (gs_zero _ _ _ _ G).
    - apply (gs_run _ _ _ _ G _ _ Hl).
  Qed.

  (** The product acts on kets as a linear map. *)
  Theorem product_run off dag l : List.Forall (fun et => gate_ok n off (fst et)) l ->
    exists P, linear P /\ forall st, length st = d ->
    exists out, fold_left (step off dag) l (Ok st) = Ok out /\ length out = d /\ forall x, kt out x = P (kt st) x.
  Proof.
    induction l as [|[e t] l IH]; intros H.
    - exists (fun v => v). split; [constructor; auto|]. intros st Hl. exists st. auto.
    - inversion_clear H as [|? ? H1 H2]. destruct (IH H2) as (P & LP & RP). destruct (gate_sem_ok off e H1) as (D & F & G).
      exists (fun v => P (F (if dag then - t else t) v)). split.
      + constructor.
        * intros v w E. apply (lin_ext P LP). now apply (lin_ext _ (gs_lin _ _ _ _ G _)).
        * intros a b v w x. rewrite (lin_ext P LP _ _ (lin_comb _ (gs_lin _ _ _ _ G _) a b v w)). apply (lin_comb P LP).
      + intros st Hl. cbn [fold_left]. destruct (step_run off e D F dag t st G Hl) as (o1 & E1 & L1 & S1).
        rewrite E1. destruct (RP o1 L1) as (o2 & E2 & L2 & S2). exists o2. split; [exact E2|]. split; [exact L2|].
        intros x. rewrite S2. now apply (lin_ext P LP).
  Qed.

  Theorem product_inverse off dag l st : List.Forall (fun et => gate_ok n off (fst et)) l -> length st = d ->
    exists out, fold_left (step off dag) l (Ok st) = Ok out /\ length out = d /\
      fold_left (step off (negb dag)) (rev l) (Ok out) = Ok st.
  Proof.
    revert st. induction l as [|[e t] l IH]; intros st H Hl.
    - exists st. auto.
    - inversion_clear H as [|? ? H1 H2]. destruct (gate_sem_ok off e H1) as (D & F & G).
      cbn [fold_left rev]. destruct (step_run off e D F dag t st G Hl) as (o1 & E1 & L1 & S1).
      rewrite E1. destruct (IH o1 H2 L1) as (o2 & E2 & L2 & S2). exists o2. split; [exact E2|]. split; [exact L2|].
      rewrite fold_left_app, S2. cbn [fold_left].
      destruct (step_run off e D F (negb dag) t o1 G L1) as (o3 & E3 & L3 & S3). rewrite E3. f_equal.
      apply kt_eq; auto. intros x. rewrite S3, (lin_ext _ (gs_lin _ _ _ _ G _) _ _ S1 x), (gs_group _ _ _ _ G).
      replace ((if negb dag then - t else t) + (if dag then - t else t)) with 0 by (destruct dag; cbn; ring).
      apply (gs_zero _ _ _ _ G).
  Qed.

  Theorem product_dot off dag l u w : List.Forall (fun et => gate_ok n off (fst et)) l -> length u = d -> length w = d ->
    exists u' w', fold_left (step off dag) l (Ok u) = Ok u' /\ fold_left (step off dag) l (Ok w) = Ok w' /\ dot u' w' = dot u w.
  Proof.
    revert u w. induction l as [|[e t] l IH]; intros u w H Hu Hw.
    - exists u, w. auto.
    - inversion_clear H as [|? ? H1 H2]. destruct (gate_sem_ok off e H1) as (D & F & G).
      cbn [fold_left]. destruct (step_run off e D F dag t u G Hu) as (u1 & E1 & L1 & S1).
      destruct (step_run off e D F dag t w G Hw) as (w1 & E1' & L1' & S1'). rewrite E1, E1'.
      destruct (IH u1 w1 H2 L1 L1') as (u' & w' & Eu & Ew & Ed). exists u', w'. split; [exact Eu|]. split; [exact Ew|].
      rewrite Ed, !dot_kt by auto. set (t' := if dag then - t else t) in *.
      rewrite (pr_ext sp _ (kt w1) _ (kt w1) S1 ltac:(reflexivity)), (gs_adj _ _ _ _ G) by auto.
      apply pr_ext; [reflexivity|]. intros x.
      rewrite (lin_ext _ (gs_lin _ _ _ _ G _) _ _ S1' x), (gs_group _ _ _ _ G), Rplus_opp_l. apply (gs_zero _ _ _ _ G).
  Qed.

  (** ** Gradient *)
  Lemma grad_run off e (D : rdict) F st struct idx : gate_sem off e D F -> nth_error struct idx = Some e -> length st = d ->
    exists out, ups_grad tiny sp th off struct idx st = Ok out /\ length out = d /\ forall x, kt out x = opapp D (kt st) x.
  Proof.
    destruct HS as [Ht Hp (na & nb & Hc) Hth]. intros G Hn Hl.
    destruct (app_ok tiny sp th na nb Ht Hp Hc Hth D st (gs_keys _ _ _ _ G) Hl) as (out & E & L & S).
    exists out. split; [|auto]. unfold ups_grad, get_grad_action. rewrite Hn. pose proof (gs_op _ _ _ _ G) as Ho.
    destruct e as [g idx']. unfold gate_op in Ho.
    destruct g; try (rewrite Ho; cbn [bind]; exact E).
    destruct (sa_single_generators off idx') as [T|ex|]; cbn [bind] in *; try discriminate. rewrite Ho. exact E.
  Qed.
End Products.
