(** Proofs about the parameter-shift gradient and the energies of RotoSolve. *)
From Coq Require Import List Bool Arith NArith ZArith Reals Lra Lia.
From Verif Require Import Base RRing Fock FockMore FermiModel OperatorsModel OperatorsProofs OperatorsSums OperatorsActs OperatorsActive OperatorsKeys Props_Operators
  CIModel StateModel StateProofs StateMore Props_State GateAlgebra UPSModel UPSProofs UPSSingle UPSState UPSAnsatz UPSRows Props_UPS
  FockInner DensityState WaveModel GradProofs Props_Gradient RotoModel RotoProofs Props_Roto ShiftModel ShiftTrig.
From Coquelicot Require Derive.
Import ListNotations.
Local Open Scope R_scope.

(** ** The loop over the samples *)
Lemma fold_evals (qev : list R -> Res R) (f : R -> R) p i r (l : list nat) : (i < length p)%nat -> (forall t, qev (put p i t) = Ok (f t)) ->
  forall x es, (exists t, x = put p i t) -> exists x',
  fold_left (fun acc mu => bind acc (fun st : list R * list R =>
     bind (set_at (fst st) i (shift_angle r mu + nth i p 0)) (fun x => bind (qev x) (fun e => Ok (x, snd st ++ [e]))))) l (Ok (x, es))
  = Ok (x', es ++ map (fun mu => f (shift_angle r mu + nth i p 0)) l).
Proof.
  intros Hi Hq. induction l as [|mu l IH]; intros x es (t & ->).
  - exists (put p i t). cbn. now rewrite app_nil_r.
  - cbn [fold_left bind fst snd]. rewrite set_at_put by (rewrite put_length; exact Hi). cbn [bind]. rewrite put_put, Hq. cbn [bind].
    destruct (IH (put p i (shift_angle r mu + nth i p 0)) (es ++ [f (shift_angle r mu + nth i p 0)]) ltac:(eauto)) as (x' & E).
    exists x'. rewrite E. cbn [map]. now rewrite <- app_assoc.
Qed.
Lemma evals_ok qev f p i r : (i < length p)%nat -> (forall t, qev (put p i t) = Ok (f t)) ->
  energy_evals_for_grad qev p i r = Ok (map (fun mu => f (shift_angle r mu + nth i p 0)) (seq 1 (2 * r))).
Proof.
  intros Hi Hq. unfold energy_evals_for_grad. rewrite (nth_error_nth' p 0 Hi).
  destruct (fold_evals qev f p i r (seq 1 (2 * r)) Hi Hq p []) as (x' & E); [exists (nth i p 0); symmetry; now apply put_nth|].
  rewrite E. reflexivity.
Qed.
Lemma shift_sum_ok r (F : nat -> R) : shift_sum r (map F (seq 1 (2 * r)))
  = Ok (rsum (map (fun mu => F mu * (-1) ^ (mu - 1) / (4 * INR r * sin (1 / 2 * shift_angle r mu) ^ 2)) (seq 1 (2 * r)))).
Proof.
  unfold shift_sum. set (G := fun mu => _ / _).
  assert (K : forall n a b pre acc, length pre = a ->
    fold_left (fun acc jmu => bind acc (fun grad => match nth_error (pre ++ map F (seq b n)) (fst jmu) with None => Raise IndexError
        | Some e => Ok (grad + e * (-1) ^ (snd jmu - 1) / (4 * INR r * sin (1 / 2 * shift_angle r (snd jmu)) ^ 2)) end))
      (combine (seq a n) (seq b n)) (Ok acc) = Ok (acc + rsum (map G (seq b n)))).
  { induction n as [|n IH]; intros a b pre acc H; [cbn; f_equal; ring|].
    cbn [seq combine fold_left map bind fst snd]. rewrite nth_error_app2 by lia. rewrite H, Nat.sub_diag. cbn [nth_error].
    replace (pre ++ F b :: map F (seq (S b) n)) with ((pre ++ [F b]) ++ map F (seq (S b) n)) by now rewrite <- app_assoc.
    rewrite IH by (rewrite app_length; cbn; lia). rewrite rsum_cons. f_equal. unfold G. ring. }
  pose proof (K (2 * r)%nat 0%nat 1%nat [] 0 eq_refl) as Q. cbn [app] in Q. rewrite Rplus_0_l in Q. exact Q.
Qed.
Lemma shift_gradient_ok qev Rdict names p (f : nat -> R -> R) :
  (forall i, (i < length p)%nat -> exists name r, nth_error names i = Some name /\ Rdict name = Some r /\ (0 < r)%nat /\ trigonometric r (f i)) ->
  (forall i t, (i < length p)%nat -> qev (put p i t) = Ok (f i t)) ->
  exists G, shift_gradient qev Rdict names p = Ok G /\ length G = length p /\ forall i, (i < length p)%nat -> derivable_pt_lim (f i) (nth i p 0) (nth i G 0).
Proof.
  intros HR Hq. unfold shift_gradient.
  assert (K : forall n, (n <= length p)%nat -> exists G,
    fold_left (fun acc i => bind acc (fun gradient => match nth_error names i with None => Raise IndexError | Some name =>
      match Rdict name with None => Raise KeyError | Some r => bind (energy_evals_for_grad qev p i r) (fun e => bind (shift_sum r e) (fun x => Ok (gradient ++ [x]))) end end))
      (seq 0 n) (Ok []) = Ok G /\ length G = n /\ forall i, (i < n)%nat -> derivable_pt_lim (f i) (nth i p 0) (nth i G 0)).
  { induction n as [|n IH]; intros H; [exists []; repeat split; intros; lia|].
    destruct IH as (G & E & L & D); [lia|]. rewrite seq_S, fold_left_app, E. cbn [fold_left bind plus].
    destruct (HR n ltac:(lia)) as (name & r & -> & -> & Hr & Ht). rewrite (evals_ok qev (f n) p n r) by (auto; intros; apply Hq; lia). cbn [bind].
    rewrite (shift_sum_ok r (fun mu => f n (shift_angle r mu + nth n p 0))). cbn [bind]. eexists. split; [reflexivity|]. split; [rewrite app_length; cbn; lia|].
    intros i Hi. destruct (Nat.eq_dec i n) as [->|N].
    - rewrite app_nth2, L, Nat.sub_diag by lia. cbn [nth]. apply Coquelicot.Derive.is_derive_Reals. apply (rule r Hr (f n) (nth n p 0) Ht).
    - rewrite app_nth1 by lia. apply D. lia. }
  apply K. lia.
Qed.
Lemma is_mean qevs x : forall es, length es = length qevs -> (forall k, (k < length qevs)%nat -> nth k qevs (fun _ => Hang) x = Ok (nth k es 0)) -> qevs <> [] ->
  mean_qev qevs x = Ok (rsum es / INR (length qevs)).
Proof.
  intros es L H N. unfold mean_qev.
  assert (K : forall qs fs acc, length fs = length qs -> (forall k, (k < length qs)%nat -> nth k qs (fun _ => Hang) x = Ok (nth k fs 0)) ->
    fold_left (fun acc q => bind acc (fun l => bind (q x) (fun e => Ok (l ++ [e])))) qs (Ok acc) = Ok (acc ++ fs)).
  { induction qs as [|q qs IH]; intros [|e fs] acc Lf Hf; cbn in Lf; try discriminate; [cbn; now rewrite app_nil_r|].
    cbn [fold_left bind]. pose proof (Hf 0%nat ltac:(cbn; lia)) as E. cbn [nth] in E. rewrite E. cbn [bind].
    rewrite (IH fs) by (try congruence; intros k Hk; apply (Hf (S k)); cbn; lia). now rewrite <- app_assoc. }
  rewrite (K qevs es [] L H). cbn [bind app]. destruct es as [|e es]; [destruct qevs; [contradiction|discriminate]|]. now rewrite L.
Qed.

(** ** Ansatz states are trigonometric in each parameter *)
(** Degree of the amplitudes and twice that, the degree of the energy. *)
Definition amp_degree (g : gtype) : option nat :=
  match g with
  | SaSingle => Some 2%nat
  | Single | Double | Triple | Quadruple | Quintuple | Sextuple | SaDouble1 => Some 1%nat
  | _ => None
  end.
Lemma tp_sin1 d : (1 <= d)%nat -> trigonometric d sin.
Proof. intros H. apply (tp_ext d (fun x => sin (INR 1 * x))); [intros x; cbn [INR]; now rewrite Rmult_1_l|now apply tp_sin]. Qed.
Lemma tp_vers d : (1 <= d)%nat -> trigonometric d (fun x => 1 - cos x).
Proof.
  intros H. apply (tp_ext d (fun x => 1 + -1 * cos (INR 1 * x))); [intros x; cbn [INR]; rewrite Rmult_1_l; ring|].
  apply tp_add; [apply tp_const|apply tp_scal; now apply tp_cos].
Qed.
Lemma gate_cs_trig g k : amp_degree g = Some k -> exists cs : list (R -> R), Forall (trigonometric k) cs /\ forall t, gate_cs g t = map (fun c => c t) cs.
Proof.
  assert (C : exists cs, Forall (trigonometric 1) cs /\ forall t, closed_cs t = map (fun c => c t) cs).
  { exists [sin; fun t => 1 - cos t]. split; [|reflexivity]. repeat constructor; [apply tp_sin1|apply tp_vers]; lia. }
  destruct g; cbn; intros H; try discriminate; injection H as <-; try exact C.
  set (s := sin). set (c := fun t => 1 - cos t).
  exists [fun t => s t + / 3 * (s t * c t); fun t => c t + / 6 * (c t * c t); fun t => / 3 * (s t * c t); fun t => / 6 * (c t * c t)]. split.
  - assert (S1 : trigonometric 1 s) by (apply tp_sin1; lia). assert (C1 : trigonometric 1 c) by (apply tp_vers; lia).
    assert (S2 : trigonometric 2 s) by (apply tp_sin1; lia). assert (C2 : trigonometric 2 c) by (apply tp_vers; lia).
    pose proof (tp_mul 1 1 s c S1 C1). pose proof (tp_mul 1 1 c c C1 C1).
    repeat constructor; try apply tp_add; try apply tp_scal; auto.
  - intros t. unfold sas_cs, s, c. cbn [map]. f_equal; [field|]. f_equal; [field|]. f_equal; [field|]. f_equal. field.
Qed.
Lemma gact_trig (L T : vec -> vec) (HL : linear L) (HT : linear T) k (cs : list (R -> R)) v x : Forall (trigonometric k) cs ->
  trigonometric k (fun s => L (gact T (map (fun c => c s) cs) v) x).
Proof.
  intros H. unfold gact.
  assert (G : forall w, trigonometric k (fun s => L (gsum T (map (fun c => c s) cs) w) x)).
  { induction H as [|c cs Hc H IH]; intros w; cbn [map gsum].
    - apply (tp_ext k (fun _ => 0)); [|apply tp_const]. intros s. symmetry. apply (T_zero L HL). reflexivity.
    - apply (tp_ext k (fun s => L (T w) x * c s + L (gsum T (map (fun c => c s) cs) (T w)) x)); [|apply tp_add; [apply tp_scal, Hc|apply IH]].
      intros s. transitivity (L (fun y => c s * T w y + 1 * gsum T (map (fun c => c s) cs) (T w) y) x).
      + rewrite (lin_comb L HL). ring.
      + apply (lin_ext L HL). intros y. ring. }
  apply (tp_ext k (fun s => L v x + L (gsum T (map (fun c => c s) cs) v) x)); [|apply tp_add; [apply tp_const|apply G]].
  intros s. symmetry. apply (T_plus L HL).
Qed.

Section Ansatz.
  Variables (tiny : R -> bool) (sp : space) (th : threads).
  Hypothesis HS : sector tiny sp th.
  Notation kt := (ket (K:=R) (sp_na sp) (sp_ci sp)).
  Notation d := (dim (sp_ci sp)).
  Lemma state_trig off s1 e s2 t1 t2 st k : Forall (gate_ok (sp_na sp) off) (s1 ++ e :: s2) -> amp_degree (fst e) = Some k ->
    length t1 = length s1 -> length t2 = length s2 -> length st = d ->
    exists W : R -> list R, (forall s, ups_state tiny sp th off (s1 ++ e :: s2) (t1 ++ s :: t2) false st = Ok (W s)) /\
      (forall s, length (W s) = d) /\ forall x, trigonometric k (fun s => kt (W s) x).
  Proof.
    intros H Hk L1 L2 Hl. apply Forall_app in H as [Ha Hb]. inversion_clear Hb as [|? ? He Hc].
    destruct (gate_sem_ok tiny sp th HS off e He) as (D0 & F & G). 
    pose proof HS as [Ht Hp (na & nb & Hci) Hth].
    destruct (gate_state tiny sp th na nb Ht Hp Hci Hth off e He) as (D & _ & _ & _ & Rn).
    destruct (gate_cs_trig (fst e) k Hk) as (cs & Hcs & Ecs).
    unfold ups_state, construct_ups_state.
    destruct (product_run tiny sp th HS off false (combine s1 t1) (forall_combine _ _ _ Ha)) as (P1 & LP1 & R1).
    destruct (product_run tiny sp th HS off false (combine s2 t2) (forall_combine _ _ _ Hc)) as (P2 & LP2 & R2).
    destruct (R1 st Hl) as (b & Eb & Lb & Sb).
    set (run2 := fun o => fold_left (fun acc (et : exc * R) => bind acc (fun out =>
                   if tiny (snd et) then Ok out
                   else apply_gate (list R) (app1v tiny sp th) axpy1 off (fst et) (snd et) out)) (combine s2 t2) (Ok o)) in *.
    set (one := fun s : R => bind (Ok b) (fun out => if tiny s then Ok out
                   else apply_gate (list R) (app1v tiny sp th) axpy1 off e s out)) in *.
    assert (Hone : forall s, exists o, one s = Ok o /\ length o = d /\
        forall x, kt o x = gact (opapp D) (map (fun c => c s) cs) (kt b) x).
    { intros s. destruct (step_run tiny sp th HS off e D0 F false s b G Lb) as (o & E & L & S). exists o. split; [exact E|]. split; [exact L|].
      intros x. rewrite S. destruct (gs_run _ _ _ _ _ _ _ G s b Lb) as (o1 & E1 & _ & S1). destruct (Rn s b Lb) as (o2 & E2 & _ & S2).
      assert (o1 = o2) as -> by congruence. rewrite <- Ecs, <- S2, S1. reflexivity. }
    set (W := fun s => match bind (one s) run2 with Ok o => o | _ => [] end).
    assert (HW : forall s, bind (one s) run2 = Ok (W s) /\ length (W s) = d /\
        forall x, kt (W s) x = P2 (gact (opapp D) (map (fun c => c s) cs) (kt b)) x).
    { intros s. destruct (Hone s) as (o & E & L & S). destruct (R2 o L) as (o2 & E2 & L2' & S2).
      assert (bind (one s) run2 = Ok o2) as EE by (rewrite E; exact E2).
      unfold W. rewrite EE. split; [reflexivity|]. split; [exact L2'|]. intros x. rewrite S2. now apply (lin_ext P2 LP2). }
    exists W. split; [|split].
    - intros s. rewrite combine_app by congruence. rewrite fold_left_app, Eb. destruct (HW s) as [<- _].
      cbn [combine fold_left fst snd]. unfold one, run2. destruct (Hone s) as (o & Es & _). unfold one in Es. cbn [bind] in Es |- *.
      rewrite Es. reflexivity.
    - intros s. apply HW.
    - intros x. apply (tp_ext k (fun s => P2 (gact (opapp D) (map (fun c => c s) cs) (kt b)) x)); [intros s; symmetry; apply HW|].
      apply gact_trig; auto. apply opapp_linear.
  Qed.
End Ansatz.

(** ** Closure of the energy *)
Definition tv (k : nat) (F : R -> ramps) : Prop := forall x, trigonometric k (fun s => F s x).
Lemma tp_opp k p : trigonometric k p -> trigonometric k (fun x => - p x).
Proof. intros H. apply (tp_ext k (fun x => -1 * p x)); [intros; ring|]. now apply tp_scal. Qed.
Lemma tp_sub k p q : trigonometric k p -> trigonometric k q -> trigonometric k (fun x => p x - q x).
Proof. intros H1 H2. apply (tp_add k p (fun x => - q x) H1). now apply tp_opp. Qed.
Lemma tp_lsum {I} k (l : list I) (f : R -> I -> R) : (forall i, trigonometric k (fun s => f s i)) -> trigonometric k (fun s => lsum l (f s)).
Proof.
  intros H. induction l as [|i l IH]; [apply (tp_ext k (fun _ => 0)); [reflexivity|apply tp_const]|].
  apply (tp_ext k (fun s => f s i + lsum l (f s))); [reflexivity|]. now apply tp_add.
Qed.
Lemma tv_app1 k o F : tv k F -> tv k (fun s => app1 o (F s)).
Proof.
  intros H x. unfold app1. destruct (Bool.eqb _ _); [|apply (tp_const k 0)].
  destruct (below x (fst o)); cbn [sgn]; [apply (tp_opp k (fun s => F s (flip x (fst o)))), H|apply H].
Qed.
Lemma tv_Eop k p q F : tv k F -> tv k (fun s => Eop p q (F s)).
Proof.
  intros H x. unfold Eop.
  apply (tp_add k (fun s => appstr [(2 * p, true); (2 * q, false)]%nat (F s) x) (fun s => appstr [(2 * p + 1, true); (2 * q + 1, false)]%nat (F s) x));
    cbn [appstr]; revert x; do 2 apply tv_app1; exact H.
Qed.
Lemma tv_eop k p q r s F : tv k F -> tv k (fun z => eop p q r s (F z)).
Proof.
  intros H x. unfold eop.
  apply (tp_sub k (fun z => Eop p q (Eop r s (F z)) x) (fun z => if Nat.eqb q r then Eop p s (F z) x else 0)); [revert x; do 2 apply tv_Eop; exact H|].
  destruct (Nat.eqb q r); [apply tv_Eop, H|apply tp_const].
Qed.
Lemma tv_Hact k half h g n F : tv k F -> tv k (fun s => Hact half h g n (F s)).
Proof.
  intros H x. unfold Hact. apply (tp_add k (fun s => sumn n (fun p => sumn n (fun q => h p q * Eop p q (F s) x)))).
  - unfold sumn. apply tp_lsum. intros p. apply tp_lsum. intros q. apply tp_scal, tv_Eop, H.
  - apply tp_scal. unfold sumn. do 4 (apply tp_lsum; intros). apply tp_scal, tv_eop, H.
Qed.
Lemma tp_ip k m F G : tv k F -> tv k G -> trigonometric (k + k) (fun s => ip m (F s) (G s)).
Proof. intros HF HG. unfold ip. apply tp_lsum. intros x. apply (tp_mul k k (fun s => F s x) (fun s => G s x)); auto. Qed.

Lemma split_at {A} (l : list A) i : (i < length l)%nat -> exists l1 x l2, l = l1 ++ x :: l2 /\ length l1 = i.
Proof.
  intros H. exists (firstn i l). destruct (skipn i l) as [|x l2] eqn:E.
  - exfalso. apply (f_equal (@length _)) in E. rewrite skipn_length in E. cbn in E. lia.
  - exists x, l2. split; [rewrite <- E; symmetry; apply firstn_skipn|]. rewrite firstn_length. lia.
Qed.
Lemma put_app t1 (x s : R) t2 : put (t1 ++ x :: t2) (length t1) s = t1 ++ s :: t2.
Proof. induction t1 as [|a t1 IH]; cbn; [reflexivity|]. now rewrite IH. Qed.


Section Energy.
  Variables (tiny : R -> bool) (sp : space) (th : threads).
  Hypothesis HS : sector tiny sp th.
  Variables (struct : list UPSModel.exc) (csf : list R).
  Hypothesis Hgates : Forall (gate_ok (sp_na sp) 0) struct.
  Hypothesis Hcsf : length csf = dim (sp_ci sp).
  Variables (h : nat -> nat -> R) (g : nat -> nat -> nat -> nat -> R).

  Lemma energy_trig thetas i e k : length thetas = length struct -> nth_error struct i = Some e -> amp_degree (fst e) = Some k ->
    exists energy : R -> R, trigonometric (k + k) energy /\
      forall s, bind (ups_state tiny sp th 0 struct (put thetas i s) false csf) (energy_of tiny sp th h g) = Ok (energy s).
  Proof.
    intros HL Hi Hk.
    apply nth_error_split in Hi as (s1 & s2 & -> & L1).
    destruct (split_at thetas i) as (t1 & x & t2 & -> & Lt); [rewrite HL, app_length; cbn; lia|].
    rewrite !app_length in HL. cbn in HL.
    destruct (state_trig tiny sp th HS 0 s1 e s2 t1 t2 csf k Hgates Hk ltac:(lia) ltac:(lia) Hcsf) as (W & W1 & W2 & W3).
    exists (fun s => ip (2 * (sp_ni sp + sp_na sp + sp_nv sp)) (fket sp (W s)) (Hact (1 / 2) h g (sp_ni sp + sp_na sp + sp_nv sp) (fket sp (W s)))). split.
    - assert (TV : tv k (fun s => fket sp (W s))).
      { intros y. pose proof HS as [Ht Hp Hi Hth]. destruct (asp_dec (sp_ni sp) (sp_na sp) y) as [Hy|Hy].
        - destruct (asp_is_embed sp Hp y Hy) as (z & -> & Hz). apply (tp_ext k (fun s => ket (sp_na sp) (sp_ci sp) (W s) z)); [|apply (W3 z)]. intros s. symmetry. apply fket_embed.
        - apply (tp_ext k (fun _ => 0)); [|apply tp_const]. intros s. symmetry. exact (fket_supp sp Hp (W s) y Hy). }
      apply tp_ip; [exact TV|]. apply tv_Hact, TV.
    - intros s. rewrite <- Lt, put_app, W1. cbn [bind]. apply (energy_of_ip tiny sp th HS). apply W2.
  Qed.
End Energy.
