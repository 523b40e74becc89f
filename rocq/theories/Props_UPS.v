(** Properties C21-C23: the gates of the unitary product state ansatz.

    Hypotheses used throughout: [sector tiny sp th] (a CI space of fixed numbers
    of alpha and beta electrons as returned by get_indexing, either kernel with
    any iteration order, thresholds idealised to "exactly zero") and [gate_ok n
    off e] (the excitation has the arity and index pattern of its type).
    [ket n ci st x] is the amplitude of determinant [x] in the state vector
    [st]; [gen_spec off e] is the anti-Hermitian generator written with creation
    and annihilation operators, independently of the operator dictionaries. *)
From Coq Require Import List Bool Arith NArith ZArith Reals Lra Lia.
From Verif Require Import Base RRing Fock FermiModel OperatorsModel OperatorsGen CIModel StateModel StateProofs Props_State
  SaPoly GateAlgebra UPSModel UPSProofs UPSSingle UPSState UPSAnsatz UPSRows.
Import ListNotations.
Local Open Scope R_scope.

(** ** Abstract closed forms *)

(** C21 for any linear operator with [T^3 = -T]. *)
Definition closed_form (T : vec -> vec) (t : R) (v : vec) : vec := fun x => v x + sin t * T v x + (1 - cos t) * T (T v) x.

Theorem C21_closed_form (T : vec -> vec) : linear T -> (forall v x, T (T (T v)) x = - T v x) ->
  (forall v x, closed_form T 0 v x = v x) /\
  (forall s t v x, closed_form T s (closed_form T t v) x = closed_form T (s + t) v x) /\
  (forall t v x, closed_form T (- t) (closed_form T t v) x = v x) /\
  (forall t v x, derivable_pt_lim (fun s => closed_form T s v x) t (T (closed_form T t v) x)) /\
  (forall t v x, infinite_sum (fun k => t ^ k / INR (fact k) * Nat.iter k T v x) (closed_form T t v x)).
Proof.
  intros HT H3.
  assert (E : forall t v x, gact T (closed_cs t) v x = closed_form T t v x).
  { intros t v x. unfold gact, closed_form. cbn [closed_cs gsum]. ring. }
  assert (N1 : Forall (fun l => l <> 0) [1]) by (repeat constructor; lra).
  assert (Dec : forall v, exists v0 vs, decomp T [1] v v0 vs).
  { intros v. apply decompose; auto.
    - repeat constructor. intros [].
    - intros x. change (map (fun l => l * l) [1]) with (map sq [1]). rewrite sq1. now apply cube_mpoly. }
  assert (Z : forall v x, closed_form T 0 v x = v x).
  { intros v x. rewrite <- E. eapply gate_zero; eauto. apply closed_interp. }
  assert (G : forall s t v x, closed_form T s (closed_form T t v) x = closed_form T (s + t) v x).
  { intros s t v x. rewrite <- !E. rewrite (lin_ext _ (gact_linear T HT _) (closed_form T t v) (gact T (closed_cs t) v)).
    - apply (gate_group T HT [1] closed_cs s t v N1 closed_interp (Dec v)).
    - intros y. now rewrite E. }
  split; [exact Z|]. split; [exact G|]. split; [intros t v x; rewrite G, Rplus_opp_l; apply Z|]. split.
  - intros t v x. rewrite <- (lin_ext T HT _ _ (E t v) x).
    pose proof (gate_deriv T HT [1] closed_cs v t N1 closed_interp (Dec v) x) as Hd.
    intros eps He. destruct (Hd eps He) as (del & Hdel). exists del. intros h Hh Hl. rewrite <- !E. now apply Hdel.
  - intros t v x. rewrite <- E. pose proof (gate_series T HT [1] closed_cs v t N1 closed_interp (Dec v) x) as HSr.
    assert (EI : forall k, Tn T k v = Nat.iter k T v) by (induction k as [|k IH]; [reflexivity|]; cbn; now rewrite IH).
    intros eps He. destruct (HSr eps He) as (M & HM). exists M. intros m Hm.
    rewrite (sum_eq _ (fun k => t ^ k / INR (fact k) * Tn T k v x)); [now apply HM|]. intros i _. now rewrite EI.
Qed.

(** C22 for any linear operator annihilated by [T prod_l (T^2 + l^2)], [l] in
    the table of the gate: the polynomial applied by the program is exp(tT). *)
Fixpoint poly_of (T : vec -> vec) (cs : list R) (w : vec) : vec :=
  match cs with [] => fun _ => 0 | c :: r => fun x => c * T w x + poly_of T r (T w) x end.
Definition poly_form (T : vec -> vec) (cs : list R) (v : vec) : vec := fun x => v x + poly_of T cs v x.
(** [prod_l (T^2 + l^2) v]. *)
Fixpoint annihilator (T : vec -> vec) (ls : list R) (v : vec) : vec :=
  match ls with [] => v | l :: r => fun x => T (T (annihilator T r v)) x + l * l * annihilator T r v x end.

Definition table_of (g : gtype) : option (list R * list (list R)) :=
  match g with
  | SaDouble2 | SaDouble3 => Some (S23, k23) | SaDouble4 => Some (S4, k4) | SaDouble5 => Some (S5, k5) | _ => None
  end.

Theorem C22_interpolation_polynomials g S k (T : vec -> vec) : table_of g = Some (S, k) -> linear T ->
  (forall v x, T (annihilator T S v) x = 0) ->
  (forall t v x, infinite_sum (fun j => t ^ j / INR (fact j) * Nat.iter j T v x) (poly_form T (alternate S k true t) v x)) /\
  (forall t v x, derivable_pt_lim (fun s => poly_form T (alternate S k true s) v x) t (T (poly_form T (alternate S k true t) v) x)).
Proof.
  intros Hg HT Ha.
  assert (E : forall cs v x, gact T cs v x = poly_form T cs v x).
  { intros cs v x. unfold gact, poly_form. f_equal. revert v. induction cs as [|c cs IH]; intros v; cbn [gsum poly_of]; auto.
    now rewrite IH. }
  assert (Nz : Forall (fun l => l <> 0) S).
  { destruct g; inversion Hg; subst; unfold S23, S4, S5; nz_tac. }
  assert (Nd : NoDup (map (fun l => l * l) S)).
  { change (fun l => l * l) with sq. destruct g; inversion Hg; subst; rewrite ?sq23, ?sq4, ?sq5; nodup_tac. }
  assert (Hi : interp S (alternate S k true)).
  { destruct g; inversion Hg; subst; [apply interp23|apply interp23|apply interp4|apply interp5]. }
  assert (Dec : forall v, exists v0 vs, decomp T S v v0 vs).
  { intros v. apply decompose; auto. intros x. rewrite <- (Ha v x). unfold mpoly. apply (lin_ext T HT). clear.
    intros y. assert (Eq : forall l v, qpoly T (map (fun l => l * l) l) v = annihilator T l v).
    { clear. induction l as [|c l IH]; intros v; [reflexivity|]. cbn [map qpoly annihilator]. now rewrite IH. }
    now rewrite Eq. }
  split.
  - intros t v x. rewrite <- E. pose proof (gate_series T HT S _ v t Nz Hi (Dec v) x) as HSr.
    assert (EI : forall k, Tn T k v = Nat.iter k T v) by (induction k0 as [|k0 IH]; [reflexivity|]; cbn; now rewrite IH).
    intros eps He. destruct (HSr eps He) as (M & HM). exists M. intros m Hm.
    rewrite (sum_eq _ (fun k => t ^ k / INR (fact k) * Tn T k v x)); [now apply HM|]. intros i _. now rewrite EI.
  - intros t v x. rewrite <- (lin_ext T HT _ _ (E _ v) x).
    pose proof (gate_deriv T HT S _ v t Nz Hi (Dec v) x) as Hd.
    intros eps He. destruct (Hd eps He) as (del & Hdel). exists del. intros h Hh Hl. rewrite <- !E. now apply Hdel.
Qed.

(** ** Gates on state vectors *)

Definition spin_or_closed (g : gtype) : Prop :=
  match g with SaDouble2 | SaDouble3 | SaDouble4 | SaDouble5 | Other => False | _ => True end.
Definition interpolated (g : gtype) : Prop :=
  match g with SaDouble2 | SaDouble3 | SaDouble4 | SaDouble5 => True | _ => False end.

(** What "the gate is the exponential of its generator" means for the program:
    one-parameter family [U] of state vectors. *)
Definition exact_exponential (tiny : R -> bool) (sp : space) (th : threads) (off : nat) (e : exc) : Prop :=
  forall st, length st = dim (sp_ci sp) -> exists U : R -> list R,
    let amp t x := ket (sp_na sp) (sp_ci sp) (U t) x in
    (forall t, ups_gate tiny sp th off e t st = Ok (U t) /\ length (U t) = length st) /\
    (** power series of exp(t T) applied to the state *)
    (forall t x, infinite_sum (fun k => t ^ k / INR (fact k) * Nat.iter k (gen_spec off e) (ket (sp_na sp) (sp_ci sp) st) x) (amp t x)) /\
    (** derivative T U(t), which is what get_grad_action computes *)
    (forall t x, derivable_pt_lim (fun s => amp s x) t (gen_spec off e (ket (sp_na sp) (sp_ci sp) (U t)) x)) /\
    (forall t, exists g, ups_grad tiny sp th off [e] 0 (U t) = Ok g /\
       forall x, derivable_pt_lim (fun s => amp s x) t (ket (sp_na sp) (sp_ci sp) g x)) /\
    (** one-parameter group, inverse, norm *)
    U 0 = st /\
    (forall s t, ups_gate tiny sp th off e s (U t) = Ok (U (s + t))) /\
    (forall t, ups_gate tiny sp th off e (- t) (U t) = Ok st) /\
    (forall t, dot (U t) (U t) = dot st st).

Lemma gate_exact tiny sp th off e : sector tiny sp th -> gate_ok (sp_na sp) off e -> exact_exponential tiny sp th off e.
Proof.
  intros HS H st Hl. destruct (gate_sem_ok tiny sp th HS off e H) as (D & F & G).
  set (U := fun t => match ups_gate tiny sp th off e t st with Ok o => o | _ => [] end).
  assert (HU : forall t, ups_gate tiny sp th off e t st = Ok (U t) /\ length (U t) = dim (sp_ci sp) /\
     forall x, ket (sp_na sp) (sp_ci sp) (U t) x = F t (ket (sp_na sp) (sp_ci sp) st) x).
  { intros t. destruct (gs_run _ _ _ _ _ _ _ G t st Hl) as (o & E & L & S). unfold U. rewrite E. auto. }
  assert (Hst : forall s t, ups_gate tiny sp th off e s (U t) = Ok (U (s + t))).
  { intros s t. destruct (HU t) as (_ & L & S). destruct (gs_run _ _ _ _ _ _ _ G s (U t) L) as (o & E & Lo & So). rewrite E. f_equal.
    destruct (HU (s + t)) as (_ & L' & S'). apply (kt_eq tiny sp th HS); auto.
    intros x. rewrite So, S', (lin_ext _ (gs_lin _ _ _ _ _ _ _ G s) _ _ S x). apply (gs_group _ _ _ _ _ _ _ G). }
  assert (H0 : U 0 = st).
  { destruct (HU 0) as (_ & L & S). apply (kt_eq tiny sp th HS); auto. intros x. rewrite S. apply (gs_zero _ _ _ _ _ _ _ G). }
  assert (HD : forall t x, derivable_pt_lim (fun s => ket (sp_na sp) (sp_ci sp) (U s) x) t
                (opapp D (ket (sp_na sp) (sp_ci sp) (U t)) x)).
  { intros t x. destruct (HU t) as (_ & _ & S). rewrite (opapp_ext D _ _ S x).
    pose proof (gs_deriv _ _ _ _ _ _ _ G (fun v => v) ltac:(constructor; auto) (ket (sp_na sp) (sp_ci sp) st) t x) as Hd.
    intros eps He. destruct (Hd eps He) as (del & Hdel). exists del. intros h Hh Hl'.
    destruct (HU (t + h)) as (_ & _ & ->). rewrite S. now apply Hdel. }
  exists U. cbv zeta. split; [|split; [|split; [|split; [|split; [|split; [|split]]]]]].
  - intros t. destruct (HU t) as (E & L & _). split; [exact E|congruence].
  - intros t x. destruct (HU t) as (_ & _ & ->). apply (gs_series _ _ _ _ _ _ _ G).
  - intros t x. rewrite <- (gs_act _ _ _ _ _ _ _ G). apply HD.
  - intros t. destruct (HU t) as (_ & L & _).
    destruct (grad_run tiny sp th HS off e D F (U t) [e] 0 G eq_refl L) as (g & E & _ & S). exists g. split; [exact E|].
    intros x. rewrite S. apply HD.
  - exact H0.
  - exact Hst.
  - intros t. rewrite Hst, Rplus_opp_l. now rewrite H0.
  - intros t. destruct (HU t) as (_ & L & S). rewrite !(dot_kt tiny sp th HS) by auto.
    rewrite (pr_ext sp _ _ _ (ket (sp_na sp) (sp_ci sp) (U t)) S ltac:(reflexivity)), (gs_adj _ _ _ _ _ _ _ G) by auto.
    apply pr_ext; [reflexivity|]. intros x. rewrite (lin_ext _ (gs_lin _ _ _ _ _ _ _ G _) _ _ S x), (gs_group _ _ _ _ _ _ _ G), Rplus_opp_l.
    apply (gs_zero _ _ _ _ _ _ _ G).
Qed.

(** C21: spin-orbital excitations of order 1 to 6, "sa_single" and "sa_double_1". *)
Theorem C21_gate_exponential tiny sp th off e : sector tiny sp th -> spin_or_closed (fst e) ->
  gate_ok (sp_na sp) off e -> exact_exponential tiny sp th off e.
Proof. intros HS _. now apply gate_exact. Qed.

(** C22: "sa_double_2" to "sa_double_5". *)
Theorem C22_sa_double_exponential tiny sp th off e : sector tiny sp th -> interpolated (fst e) ->
  gate_ok (sp_na sp) off e -> exact_exponential tiny sp th off e.
Proof. intros HS _. now apply gate_exact. Qed.

(** ** C23 *)

Lemma forall_combine {A B} (P : A -> Prop) (l : list A) (m : list B) : Forall P l -> Forall (fun et => P (fst et)) (combine l m).
Proof.
  intros H. apply Forall_forall. intros [a b] Hi. apply in_combine_l in Hi. rewrite Forall_forall in H. now apply H.
Qed.
Lemma combine_app {A B} (l l' : list A) (m m' : list B) : length l = length m ->
  combine (l ++ l') (m ++ m') = combine l m ++ combine l' m'.
Proof. revert m. induction l as [|a l IH]; intros [|b m] H; cbn in *; try discriminate; auto. f_equal. apply IH. congruence. Qed.
Lemma rev_combine {A B} (l : list A) (m : list B) : length l = length m -> combine (rev l) (rev m) = rev (combine l m).
Proof.
  revert m. induction l as [|a l IH]; intros [|b m] H; cbn in *; try discriminate; auto.
  rewrite combine_app by (rewrite !rev_length; congruence). cbn. rewrite IH by congruence. reflexivity.
Qed.

(** Applying the ansatz and then its dagger, or the dagger first, restores the
    state; the ansatz never fails; scalar products are preserved. *)
Theorem C23_dagger_is_inverse tiny sp th off struct thetas st :
  sector tiny sp th -> Forall (gate_ok (sp_na sp) off) struct -> length thetas = length struct ->
  length st = dim (sp_ci sp) ->
  forall dagger, exists out, ups_state tiny sp th off struct thetas dagger st = Ok out /\ length out = length st /\
    ups_state tiny sp th off struct thetas (negb dagger) out = Ok st.
Proof.
  intros HS H Hlen Hl dagger. unfold ups_state, construct_ups_state.
  pose proof (forall_combine _ struct thetas H) as Hf.
  destruct dagger; cbn [negb].
  - destruct (product_inverse tiny sp th HS off true (combine (rev struct) (rev thetas)) st) as (o & E & L & S); auto.
    { apply forall_combine. apply Forall_rev. exact H. }
    exists o. split; [exact E|]. split; [congruence|]. rewrite rev_combine, rev_involutive in S by congruence. exact S.
  - destruct (product_inverse tiny sp th HS off false (combine struct thetas) st) as (o & E & L & S); auto.
    exists o. split; [exact E|]. split; [congruence|]. rewrite rev_combine by congruence. exact S.
Qed.

Theorem C23_scalar_product tiny sp th off struct thetas dagger u w :
  sector tiny sp th -> Forall (gate_ok (sp_na sp) off) struct ->
  length u = dim (sp_ci sp) -> length w = dim (sp_ci sp) ->
  exists u' w', ups_state tiny sp th off struct thetas dagger u = Ok u' /\
                ups_state tiny sp th off struct thetas dagger w = Ok w' /\ dot u' w' = dot u w.
Proof.
  intros HS H Hu Hw. unfold ups_state, construct_ups_state.
  apply product_dot; auto. apply forall_combine. destruct dagger; [now apply Forall_rev|exact H].
Qed.

(** Stepping through the layout with [propagate_unitary] is [construct_ups_state],
    including failures, for any kind of state and of operator application. *)
Theorem C23_propagate_unitary (St : Type) apT axpy tiny off struct thetas (st : St) :
  length thetas = length struct ->
  fold_left (fun acc i => bind acc (propagate_unitary St apT axpy tiny off struct thetas i)) (seq 0 (length struct)) (Ok st)
  = construct_ups_state St apT axpy tiny off struct thetas false st.
Proof.
  intros Hlen. unfold construct_ups_state.
  assert (G : forall s1 t1 s2 t2 acc, length s1 = length t1 -> length s2 = length t2 ->
    fold_left (fun acc i => bind acc (propagate_unitary St apT axpy tiny off (s1 ++ s2) (t1 ++ t2) i)) (seq (length s1) (length s2)) acc
    = fold_left (fun acc (et : exc * R) => bind acc (fun out =>
                 if tiny (snd et) then Ok out else apply_gate St apT axpy off (fst et) (snd et) out)) (combine s2 t2) acc).
  { intros s1 t1 s2. revert s1 t1. induction s2 as [|e s2 IH]; intros s1 t1 [|t t2] acc H1 H2; cbn in H2; try discriminate; [reflexivity|].
    cbn [length seq fold_left combine].
    replace (s1 ++ e :: s2) with ((s1 ++ [e]) ++ s2) by (rewrite <- app_assoc; reflexivity).
    replace (t1 ++ t :: t2) with ((t1 ++ [t]) ++ t2) by (rewrite <- app_assoc; reflexivity).
    replace (Datatypes.S (length s1)) with (length (s1 ++ [e])) by (rewrite app_length; cbn; lia).
    rewrite IH by (rewrite ?app_length; cbn; congruence). f_equal.
    destruct acc as [o|ex|]; cbn [bind]; try reflexivity.
    unfold propagate_unitary. rewrite <- !app_assoc. cbn [app]. rewrite !nth_error_app2 by lia.
    rewrite Nat.sub_diag. rewrite H1, Nat.sub_diag. cbn [nth_error fst snd]. reflexivity. }
  exact (G [] [] struct thetas (Ok st) eq_refl (eq_sym Hlen)).
Qed.

(** The state-averaged ansatz is the single-state ansatz on every row. *)
Theorem C23_state_averaged tiny tiny_le sp th off struct thetas dagger sts :
  sector tiny sp th -> (forall c, tiny c = true <-> c = 0) -> (forall c, tiny_le c = true <-> c = 0) ->
  Forall (gate_ok (sp_na sp) off) struct -> (0 < length sts)%nat -> (forall row, In row sts -> length row = dim (sp_ci sp)) ->
  exists outs, ups_state_SA tiny tiny_le sp th off struct thetas dagger sts = Ok outs /\ length outs = length sts /\
    forall r, (r < length sts)%nat -> ups_state tiny sp th off struct thetas dagger (nth r sts []) = Ok (nth r outs []).
Proof.
  intros HS H1 H2 H Hp Hr. unfold ups_state_SA, ups_state, construct_ups_state.
  assert (V : valid sp (length sts) sts) by (split; auto).
  assert (Hf : Forall (fun et : exc * R => gate_ok (sp_na sp) off (fst et))
     (combine (if dagger then rev struct else struct) (if dagger then rev thetas else thetas))).
  { apply forall_combine. destruct dagger; [now apply Forall_rev|exact H]. }
  destruct (rows_product tiny tiny_le sp th HS H1 H2 (length sts) Hp off dagger _ Hf sts V) as (o & E & [L _] & S).
  exists o. split; [exact E|]. split; [exact L|exact S].
Qed.

(** Gradient: the derivative of the ansatz state with respect to one parameter
    is obtained by stopping after that gate, applying [get_grad_action], and
    applying the remaining gates. *)
Theorem C23_parameter_derivative tiny sp th off s1 e s2 t1 t t2 st :
  sector tiny sp th -> Forall (gate_ok (sp_na sp) off) (s1 ++ e :: s2) ->
  length t1 = length s1 -> length t2 = length s2 -> length st = dim (sp_ci sp) ->
  exists W : R -> list R, exists a g out,
    (forall s, ups_state tiny sp th off (s1 ++ e :: s2) (t1 ++ s :: t2) false st = Ok (W s)) /\
    ups_state tiny sp th off (s1 ++ [e]) (t1 ++ [t]) false st = Ok a /\
    ups_grad tiny sp th off (s1 ++ e :: s2) (length s1) a = Ok g /\
    ups_state tiny sp th off s2 t2 false g = Ok out /\
    length out = length st /\
    forall x, derivable_pt_lim (fun s => ket (sp_na sp) (sp_ci sp) (W s) x) t (ket (sp_na sp) (sp_ci sp) out x).
Proof.
  intros HS H L1 L2 Hl. apply Forall_app in H as [Ha Hb]. inversion_clear Hb as [|? ? He Hc].
  destruct (gate_sem_ok tiny sp th HS off e He) as (D & F & G).
  unfold ups_state, construct_ups_state.
  destruct (product_run tiny sp th HS off false (combine s1 t1) (forall_combine _ _ _ Ha)) as (P1 & LP1 & R1).
  destruct (product_run tiny sp th HS off false (combine s2 t2) (forall_combine _ _ _ Hc)) as (P2 & LP2 & R2).
  destruct (R1 st Hl) as (b & Eb & Lb & Sb).
  set (run2 := fun o => fold_left (fun acc (et : exc * R) => bind acc (fun out =>
                 if tiny (snd et) then Ok out
                 else apply_gate (list R) (app1v tiny sp th) axpy1 off (fst et) (snd et) out)) (combine s2 t2) (Ok o)) in *.
  set (one := fun s : R => bind (Ok b) (fun out => if tiny s then Ok out
                 else apply_gate (list R) (app1v tiny sp th) axpy1 off e s out)) in *.
  assert (Hone : forall s, exists o, one s = Ok o /\ length o = dim (sp_ci sp) /\
      forall x, ket (sp_na sp) (sp_ci sp) o x = F s (ket (sp_na sp) (sp_ci sp) b) x).
  { intros s. destruct (step_run tiny sp th HS off e D F false s b G Lb) as (o & E & L & S). exists o. auto. }
  set (W := fun s => match bind (one s) run2 with Ok o => o | _ => [] end).
  assert (HW : forall s, bind (one s) run2 = Ok (W s) /\
      forall x, ket (sp_na sp) (sp_ci sp) (W s) x = P2 (F s (ket (sp_na sp) (sp_ci sp) b)) x).
  { intros s. destruct (Hone s) as (o & E & L & S). destruct (R2 o L) as (o2 & E2 & L2' & S2).
    assert (bind (one s) run2 = Ok o2) as EE by (rewrite E; exact E2).
    unfold W. rewrite EE. split; [reflexivity|]. intros x. rewrite S2. now apply (lin_ext P2 LP2). }
  destruct (Hone t) as (a & E & L & S).
  destruct (grad_run tiny sp th HS off e D F a (s1 ++ e :: s2) (length s1) G) as (g & Eg & Lg & Sg); auto.
  { rewrite nth_error_app2, Nat.sub_diag by lia. reflexivity. }
  destruct (R2 g Lg) as (out & Eo & Lo & So).
  exists W, a, g, out. split; [|split; [|split; [|split; [|split]]]].
  - intros s. rewrite combine_app by congruence. rewrite fold_left_app, Eb. destruct (HW s) as [<- _].
    cbn [combine fold_left fst snd]. unfold one, run2. destruct (Hone s) as (o & Es & _). unfold one in Es. cbn [bind] in Es |- *.
    rewrite Es. reflexivity.
  - rewrite combine_app by congruence. rewrite fold_left_app, Eb. cbn [combine fold_left fst snd]. exact E.
  - exact Eg.
  - exact Eo.
  - congruence.
  - intros x. rewrite So. 
    assert (Q : forall y, ket (sp_na sp) (sp_ci sp) g y = opapp D (F t (ket (sp_na sp) (sp_ci sp) b)) y).
    { intros y. rewrite Sg. now apply opapp_ext. }
    rewrite (lin_ext P2 LP2 _ _ Q x).
    pose proof (gs_deriv _ _ _ _ _ _ _ G P2 LP2 (ket (sp_na sp) (sp_ci sp) b) t x) as Hd.
    intros eps Hep. destruct (Hd eps Hep) as (del & Hdel). exists del. intros h Hh Hl'.
    destruct (HW (t + h)) as [_ ->]. destruct (HW t) as [_ ->]. now apply Hdel.
Qed.

(** ** A concrete case: 4 orbitals, 2 + 2 electrons, every kind of gate *)
Definition rtiny (c : R) : bool := if Req_EM_T c 0 then true else false.
Lemma rtiny_spec c : rtiny c = true <-> c = 0.
Proof. unfold rtiny. destruct (Req_EM_T c 0); split; auto; discriminate. Qed.
Definition ex_ci : ci_info := match get_indexing 4 2 2 with Ok ci => ci | _ => {| idx2det := []; det2idx := [] |} end.
Definition ex_sp : space := {| sp_ni := 1; sp_na := 4; sp_nv := 1; sp_ci := ex_ci |}.
Definition ex_struct : list exc :=
  [(Single, [0; 4]); (Double, [0; 1; 4; 5]); (Triple, [0; 1; 2; 4; 5; 6]); (Quadruple, [0; 1; 2; 3; 4; 5; 6; 7]);
   (SaSingle, [0; 2]); (SaDouble1, [0; 0; 2; 2]); (SaDouble2, [0; 0; 2; 3]); (SaDouble3, [0; 1; 2; 2]);
   (SaDouble4, [0; 1; 2; 3]); (SaDouble5, [0; 1; 2; 3])]%nat.
Ltac gate_tac :=
  repeat match goal with
  | |- Forall _ _ => constructor
  | |- gate_ok _ _ _ => cbn [gate_ok order_of]
  | |- _ /\ _ => split
  | |- NoDup _ => constructor
  | |- ~ In _ _ => cbn [In]; lia
  | |- forall p, In p _ -> ~ In p _ => let Hp := fresh in intros p Hp; cbn [In firstn skipn] in Hp |- *; lia
  | |- forall p, In p _ -> _ => let Hp := fresh in intros p Hp; cbn [In] in Hp; lia
  | |- _ => reflexivity
  | |- _ => cbn; lia
  end.
Example C21_example : sector rtiny ex_sp None /\ dim ex_ci = 36%nat /\ Forall (gate_ok 4 0) ex_struct.
Proof.
  split; [|split; [vm_compute; reflexivity|]].
  - constructor.
    + intros c. apply rtiny_spec.
    + cbn. lia.
    + exists 2%Z, 2%Z. vm_compute. reflexivity.
    + discriminate.
  - gate_tac.
Qed.
Example C22_example : exact_exponential rtiny ex_sp None 0 (SaDouble5, [0; 1; 2; 3]%nat).
Proof. apply gate_exact; [apply C21_example|]. gate_tac. Qed.
Example C23_example : exists out,
  ups_state rtiny ex_sp None 0 ex_struct (repeat (1 / 3) 10) false (1 :: repeat 0 35) = Ok out /\
  ups_state rtiny ex_sp None 0 ex_struct (repeat (1 / 3) 10) true out = Ok (1 :: repeat 0 35).
Proof.
  destruct (C23_dagger_is_inverse rtiny ex_sp None 0 ex_struct (repeat (1 / 3) 10) (1 :: repeat 0 35)) with (dagger := false)
    as (out & E1 & _ & E2); try apply C21_example; try reflexivity.
  exists out. auto.
Qed.

Print Assumptions C21_closed_form.
Print Assumptions C21_gate_exponential.
Print Assumptions C22_interpolation_polynomials.
Print Assumptions C22_sa_double_exponential.
Print Assumptions C23_dagger_is_inverse.
Print Assumptions C23_scalar_product.
Print Assumptions C23_propagate_unitary.
Print Assumptions C23_state_averaged.
Print Assumptions C23_parameter_derivative.
