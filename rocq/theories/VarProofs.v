(** Facts for the variance of grouped measurements. *)
From Coq Require Import List Bool Arith NArith ZArith Lia Ring String Permutation.
From Verif Require Import Base Fock FockMore OperatorsSums FockInner CliqueModel CliqueProofs CliquePost QubitModel QubitProofs CliqueSampler VarModel.
Import ListNotations.
Local Open Scope list_scope.

(** Product of two letters one of which is the identity, or that are equal. *)
Definition pm (a b : letter) : letter := match a, b with LI, _ => b | _, LI => a | _, _ => LI end.
Definition pmul (l m : pauli) : pauli := map (fun ab => pm (fst ab) (snd ab)) (combine l m).
Definition compatible (a b : letter) : Prop := a = LI \/ b = LI \/ a = b.

Section Var.
  Context {K : Type} {C : CRing K}.
  Local Open Scope K_scope.
  Add Ring KringVa : (@rth K C).
  Notation cx := (K * K)%type.
  Add Ring CxringVa : (@rth cx Cx_CRing).
  Notation qstate := (qstate (K:=K)).
  Notation dist := (dist (K:=K)).
  Notation chead := (chead (K:=K)).
  Notation mat := (bool -> bool -> cx).
  Infix "~~" := qeq (at level 70).

  (** ** Products *)
  Lemma pm_mat a b : compatible a b -> forall r c, mmul (mletter a) (mletter b) r c = mletter (K:=K) (pm a b) r c.
  Proof.
    intros H r c. destruct a, b; try (destruct H as [H|[H|H]]; discriminate);
      destruct r, c; unfold mmul, mletter, pm, mid, mX, mY, mZ, ci; cbn [Bool.eqb]; apply pair_eq; cbn; ring.
  Qed.
  Lemma ops_mats (A B : list mat) (L : list nat) : Forall2 (fun m m' : mat => forall r c, m r c = m' r c) A B ->
    forall a, ops (combine L A) a ~~ ops (combine L B) a.
  Proof.
    intros H. revert L. induction H as [|m m' A B Hm _ IH]; intros [|i L] a; try (apply qeq_refl). cbn [combine ops fold_left fst snd].
    change (fold_left _ ?l ?s) with (ops l s). eapply qeq_trans; [apply IH|]. apply ops_ext. now apply app1q_mat.
  Qed.
  Lemma ops_zip (A B : list mat) (L : list nat) : NoDup L -> List.length A = List.length B ->
    forall a, ops (combine L A) (ops (combine L B) a) ~~ ops (combine L (map (fun mm => mmul (fst mm) (snd mm)) (combine A B))) a.
  Proof.
    intros Hnd. revert A B. induction Hnd as [|i L Hi _ IH]; intros A B Hl a; [apply qeq_refl|].
    destruct A as [|m A], B as [|m' B]; cbn in Hl; try lia; [apply qeq_refl|]. cbn [combine map ops fold_left fst snd]. change (fold_left _ ?l ?s) with (ops l s).
    assert (forall (M : list mat), ~ In i (map fst (combine L M))) as Hn.
    { intros M H. apply in_map_iff in H as ([j x] & E & H). cbn in E. subst. apply in_combine_l in H. contradiction. }
    eapply qeq_trans; [|apply IH; lia]. apply ops_ext.
    eapply qeq_trans; [apply app1q_ext, ops_comm, Hn|]. eapply qeq_trans; [apply app1q_mul|]. apply qeq_sym, ops_comm, Hn.
  Qed.
  Lemma rev_combine {A B} (l : list A) (m : list B) : List.length l = List.length m -> rev (combine l m) = combine (rev l) (rev m).
  Proof.
    revert m. induction l as [|a l IH]; intros [|b m] H; cbn in H; try lia; [reflexivity|]. cbn [combine rev]. rewrite IH by lia.
    assert (forall (x : list A) (y : list B), List.length x = List.length y -> combine x y ++ [(a, b)] = combine (x ++ [a]) (y ++ [b])) as E.
    { induction x as [|u x IHx]; intros [|v y] Hxy; cbn in Hxy; try lia; [reflexivity|]. cbn. f_equal. apply IHx. lia. }
    apply E. rewrite !rev_length. lia.
  Qed.
  Definition compat (l m : pauli) : Prop := List.length l = List.length m /\ Forall (fun ab => compatible (fst ab) (snd ab)) (combine l m).
  Lemma pmul_length l m : List.length l = List.length m -> List.length (pmul l m) = List.length l.
  Proof. intros H. unfold pmul. rewrite map_length, combine_length. lia. Qed.
  Lemma pmul_rev l m : List.length l = List.length m -> rev (pmul l m) = pmul (rev l) (rev m).
  Proof. intros H. unfold pmul. rewrite <- map_rev, rev_combine by assumption. reflexivity. Qed.
  Lemma pauli_app_mul l m (a : qstate) : compat l m -> pauli_app l (pauli_app m a) ~~ pauli_app (pmul l m) a.
  Proof.
    intros [Hl Hc]. unfold pauli_app. rewrite pmul_length, pmul_rev, <- Hl by assumption. eapply qeq_trans.
    - apply ops_zip; [apply seq_NoDup|]. now rewrite !map_length, !rev_length.
    - apply ops_mats. assert (Forall (fun ab => compatible (fst ab) (snd ab)) (combine (rev l) (rev m))) as Hr by (rewrite <- rev_combine by assumption; now apply Forall_rev).
      clear - Hr. revert Hr. generalize (rev l) (rev m). unfold pmul. induction l0 as [|x l0 IH]; intros [|y l1] Hr; try constructor.
      + cbn [fst snd]. apply pm_mat. now inversion Hr.
      + apply IH. now inversion Hr.
  Qed.
  Lemma parity_mul l m x : compat l m -> parity (pmul l m) x = xorb (parity l x) (parity m x).
  Proof.
    intros [Hl Hc]. unfold parity. rewrite pmul_length, pmul_rev, <- Hl by assumption.
    assert (Forall (fun ab => compatible (fst ab) (snd ab)) (combine (rev l) (rev m))) as Hr by (rewrite <- rev_combine by assumption; now apply Forall_rev).
    rewrite <- (rev_length l) in *. rewrite <- (rev_length m) in Hl. clear Hc. revert Hr Hl. generalize (rev l) (rev m) 0%nat.
    clear. unfold pmul. induction l as [|a l IH]; intros [|b m] t Hr Hl; cbn in Hl; try lia; [reflexivity|].
    cbn [combine map List.length seq fold_right fst snd]. inversion_clear Hr as [|? ? Hab Hr']. rewrite IH by (assumption || lia). cbn [fst snd] in Hab.
    set (p := fold_right _ _ _). set (q := fold_right _ _ _). destruct a, b; try (destruct Hab as [H|[H|H]]; discriminate); cbn [pm letter_eqb negb andb];
      destruct (occ x t), p, q; reflexivity.
  Qed.
  Lemma measured_compat l m h : measured_by l h -> measured_by m h -> compat l m /\ measured_by (pmul l m) h.
  Proof.
    intros [L1 H1] [L2 H2]. assert (List.length l = List.length m) as Hl by congruence.
    assert (forall i, compatible (nth i l LI) (nth i m LI)) as Hn.
    { intros i. unfold compatible. destruct (nth i l LI) eqn:E1; auto; destruct (nth i m LI) eqn:E2; auto; right; right;
        rewrite <- E1, <- E2; rewrite <- (H1 i), <- (H2 i) by congruence; reflexivity. }
    split; [split; [exact Hl|]|split; [rewrite pmul_length; congruence|]].
    - apply Forall_forall. intros [a b] Hab. apply (In_nth _ _ (LI, LI)) in Hab as (i & Hi & E). rewrite combine_nth in E by assumption. injection E as <- <-. apply Hn.
    - intros i. assert (nth i (pmul l m) LI = pm (nth i l LI) (nth i m LI)) as ->.
      { unfold pmul. pose proof (map_nth (fun ab => pm (fst ab) (snd ab)) (combine l m) (LI, LI) i) as E. rewrite combine_nth in E by assumption. exact E. }
      specialize (Hn i). specialize (H1 i). specialize (H2 i). destruct (nth i l LI), (nth i m LI); cbn [pm] in *; intros Hne; first [now elim Hne|now apply H1|now apply H2].
  Qed.

  (** ** Sums of Pauli strings *)
  Definition pauli_sum (obs : list (pauli * K)) (psi : qstate) : qstate := fun x => lsum obs (fun pc => cre (snd pc) * pauli_app (fst pc) psi x).
  Lemma app1q_lin {A} m q (L : list A) (c : A -> cx) (f : A -> qstate) x :
    app1q m q (fun x => lsum L (fun e => c e * f e x)) x = lsum L (fun e => c e * app1q m q (f e) x).
  Proof.
    unfold app1q. rewrite <- !lsum_scale, <- lsum_add. apply lsum_ext. intros e _. ring.
  Qed.
  Lemma ops_lin {A} l (L : list A) (c : A -> cx) : forall (f : A -> qstate) x,
    ops l (fun x => lsum L (fun e => c e * f e x)) x = lsum L (fun e => c e * ops l (f e) x).
  Proof.
    induction l as [|[i m] l IH]; intros f x; [reflexivity|]. cbn [ops fold_left fst snd]. change (fold_left _ ?l ?s) with (ops l s).
    rewrite <- (IH (fun e => app1q m i (f e))). apply ops_ext. intros y. apply app1q_lin.
  Qed.
  Lemma cip_lin {A} n a (L : list A) (c : A -> cx) (f : A -> qstate) : cip n a (fun x => lsum L (fun e => c e * f e x)) = lsum L (fun e => c e * cip n a (f e)).
  Proof.
    unfold cip. rewrite (lsum_ext (alldets n) _ (fun x => lsum L (fun e => c e * (cconj (a x) * f e x)))).
    - rewrite lsum_swap. apply lsum_ext. intros e _. now rewrite lsum_scale.
    - intros x _. rewrite <- lsum_scale. apply lsum_ext. intros e _. ring.
  Qed.
  (** The variance of an observable in a state that need not be normalised. *)
  Definition variance (n : nat) (psi : qstate) (obs : list (pauli * K)) : cx :=
    let mean := cip n psi (pauli_sum obs psi) in cip n psi (pauli_sum obs (pauli_sum obs psi)) - mean * mean.

  Lemma cre_lsum {A} (L : list A) (F : A -> K) : lsum L (fun e => cre (F e)) = cre (lsum L F).
  Proof. induction L as [|a L IH]; [reflexivity|]. rewrite !lsum_cons, IH. apply pair_eq; cbn; ring. Qed.
  Lemma cre_mul (a b : K) : cre a * cre b = cre (a * b).
  Proof. apply pair_eq; cbn; ring. Qed.
  Lemma cre_sub (a b : K) : cre a - cre b = cre (a - b).
  Proof. apply pair_eq; cbn; ring. Qed.
  Lemma sgn_xor a b : sgn (xorb a b) 1 = sgn a 1 * sgn b 1 :> K.
  Proof. destruct a, b; cbn; ring. Qed.

  Variables (s2 : K) (n : nat).
  Hypothesis (Hs2 : s2 * s2 + s2 * s2 = 1) (Hn : (0 < n)%nat).
  Notation prob h psi x := (cnorm2 (run s2 (to_CBS_measurement h) psi x)).
  (** The value of the random variable of a group on an outcome. *)
  Definition gval (obs : list (pauli * K)) (x : N) : K := lsum obs (fun pc => snd pc * sgn (parity (fst pc) x) 1).
  Lemma pair_exact l m h psi : measured_by l h -> measured_by m h -> List.length h = n ->
    cip n psi (pauli_app l (pauli_app m psi)) = cre (lsum (alldets n) (fun x => prob h psi x * (sgn (parity l x) 1 * sgn (parity m x) 1))).
  Proof.
    intros H1 H2 Hh. destruct (measured_compat l m h H1 H2) as [Hc Hm]. rewrite (cip_ext n psi psi _ (pauli_app (pmul l m) psi) (qeq_refl _) (pauli_app_mul l m psi Hc)).
    assert (List.length (pmul l m) = n) as El by (destruct Hm; congruence).
    pose proof (measurement_exact s2 (pmul l m) h psi Hs2 Hm) as E. cbv zeta in E. rewrite El in E. rewrite E. f_equal. apply lsum_ext. intros x _. now rewrite (parity_mul l m x Hc), sgn_xor.
  Qed.
  Lemma mean_exact obs h psi : Forall (fun pc => measured_by (fst pc) h) obs -> List.length h = n ->
    cip n psi (pauli_sum obs psi) = cre (lsum (alldets n) (fun x => prob h psi x * gval obs x)).
  Proof.
    intros Hm Hh. unfold pauli_sum. rewrite (cip_lin n psi obs (fun pc => cre (snd pc)) (fun pc => pauli_app (fst pc) psi)).
    rewrite (lsum_ext obs _ (fun pc => cre (lsum (alldets n) (fun x => snd pc * (prob h psi x * sgn (parity (fst pc) x) 1))))).
    - rewrite cre_lsum, lsum_swap. f_equal. apply lsum_ext. intros x _. unfold gval. rewrite <- lsum_scale. apply lsum_ext. intros e _. ring.
    - intros pc Hpc. rewrite Forall_forall in Hm. specialize (Hm pc Hpc). pose proof (measurement_exact s2 (fst pc) h psi Hs2 Hm) as E. cbv zeta in E.
      assert (List.length (fst pc) = n) as El by (destruct Hm; congruence). rewrite El in E. rewrite E, cre_mul, lsum_scale. reflexivity.
  Qed.
  Lemma square_exact obs h psi : Forall (fun pc => measured_by (fst pc) h) obs -> List.length h = n ->
    cip n psi (pauli_sum obs (pauli_sum obs psi)) = cre (lsum (alldets n) (fun x => prob h psi x * (gval obs x * gval obs x))).
  Proof.
    intros Hm Hh. rewrite Forall_forall in Hm. unfold pauli_sum at 1. rewrite (cip_lin n psi obs (fun pc => cre (snd pc)) (fun pc => pauli_app (fst pc) (pauli_sum obs psi))).
    rewrite (lsum_ext obs _ (fun pc => lsum obs (fun qc => cre (lsum (alldets n) (fun x => snd pc * snd qc * (prob h psi x * (sgn (parity (fst pc) x) 1 * sgn (parity (fst qc) x) 1))))))).
    - rewrite (lsum_ext obs _ (fun pc => cre (lsum (alldets n) (fun x => lsum obs (fun qc => snd pc * snd qc * (prob h psi x * (sgn (parity (fst pc) x) 1 * sgn (parity (fst qc) x) 1))))))).
      + rewrite cre_lsum, lsum_swap. f_equal. apply lsum_ext. intros x _. unfold gval. rewrite <- lsum_scale, <- lsum_scale. apply lsum_ext. intros pc _.
        transitivity (lsum obs (fun qc => (prob h psi x * (snd pc * sgn (parity (fst pc) x) 1)) * (snd qc * sgn (parity (fst qc) x) 1))); [apply lsum_ext; intros; ring|].
        rewrite lsum_scale. ring.
      + intros pc _. rewrite cre_lsum, lsum_swap. reflexivity.
    - intros pc Hpc. rewrite (cip_ext n psi psi _ (fun x => lsum obs (fun qc => cre (snd qc) * pauli_app (fst pc) (pauli_app (fst qc) psi) x)) (qeq_refl _)).
      + rewrite (cip_lin n psi obs (fun qc => cre (snd qc)) (fun qc => pauli_app (fst pc) (pauli_app (fst qc) psi))). rewrite <- lsum_scale. apply lsum_ext. intros qc Hqc.
        rewrite (pair_exact _ _ h) by auto. rewrite !cre_mul, lsum_scale. f_equal. ring.
      + intros x. unfold pauli_app at 1. unfold pauli_sum. rewrite (ops_lin _ obs (fun qc => cre (snd qc)) (fun qc => pauli_app (fst qc) psi)). reflexivity.
  Qed.
  Lemma variance_exact obs h psi : Forall (fun pc => measured_by (fst pc) h) obs -> List.length h = n ->
    variance n psi obs = cre (lsum (alldets n) (fun x => prob h psi x * (gval obs x * gval obs x))
                              - lsum (alldets n) (fun x => prob h psi x * gval obs x) * lsum (alldets n) (fun x => prob h psi x * gval obs x)).
  Proof. intros Hm Hh. unfold variance. cbv zeta. rewrite (mean_exact obs h), (square_exact obs h) by assumption. now rewrite cre_mul, cre_sub. Qed.

  Lemma pauli_app_id (a : qstate) k : pauli_app (repeat LI k) a ~~ a.
  Proof.
    clear Hn.
    unfold pauli_app. rewrite repeat_length. assert (rev (repeat LI k) = repeat LI k) as ->.
    { apply (nth_ext _ _ LI LI); [now rewrite rev_length|]. intros i Hi. rewrite rev_length, repeat_length in Hi. rewrite rev_nth by (rewrite repeat_length; lia). now rewrite !nth_repeat. }
    generalize 0%nat. revert a. induction k as [|k IH]; intros a t; [apply qeq_refl|]. cbn [repeat map seq combine ops fold_left fst snd mletter].
    change (fold_left _ ?l ?s) with (ops l s). eapply qeq_trans; [apply IH|]. apply app1q_mid.
  Qed.
  Lemma parity_id k x : parity (repeat LI k) x = false.
  Proof.
    clear Hn.
    unfold parity. rewrite repeat_length. assert (rev (repeat LI k) = repeat LI k) as ->.
    { apply (nth_ext _ _ LI LI); [now rewrite rev_length|]. intros i Hi. rewrite rev_length, repeat_length in Hi. rewrite rev_nth by (rewrite repeat_length; lia). now rewrite !nth_repeat. }
    generalize 0%nat. induction k as [|k IH]; intros t; [reflexivity|]. cbn [repeat map seq combine fold_right fst snd letter_eqb negb andb]. now rewrite IH.
  Qed.
  Lemma prob_total h psi : List.length h = n -> lsum (alldets n) (fun x => cnorm2 (psi x)) = 1 -> lsum (alldets n) (fun x => prob h psi x) = 1.
  Proof.
    intros Hh H1. assert (measured_by (repeat LI n) h) as Hm by (split; [now rewrite repeat_length|intros i Hi; rewrite nth_repeat in Hi; now elim Hi]).
    pose proof (measurement_exact s2 (repeat LI n) h psi Hs2 Hm) as E. cbv zeta in E. rewrite repeat_length in E. rewrite (cip_ext n psi psi _ psi (qeq_refl _) (pauli_app_id psi n)) in E.
    apply (f_equal fst) in E. cbn [fst cre] in E. transitivity (fst (cip n psi psi)).
    - rewrite E. apply lsum_ext. intros x _. rewrite parity_id. cbn. ring.
    - rewrite <- H1. unfold cip. rewrite (proj1 (lsum_re _ _)). apply lsum_ext. intros x _. unfold cnorm2. cbn. ring.
  Qed.

  (** ** The loops *)
  Lemma sign_one op x : op <> [] -> sign_is_one op x = Ok (negb (parity op x)).
  Proof.
    intros H. pose proof (bitstring_sign (K:=Z) op x H) as E. destruct op as [|l op]; [easy|]. unfold get_bitstring_sign in E. unfold sign_is_one.
    destruct (_ =? 1)%nat, (parity (l :: op) x); try reflexivity; discriminate E.
  Qed.
  Lemma p_one_eq p (d : dist) : p <> [] -> p_one p d = Ok (lsum d (fun kv => snd kv * (if parity p (fst kv) then 0 else 1))).
  Proof.
    intros Hp. unfold p_one.
    match goal with |- fold_left ?f d _ = _ => assert (forall d r, fold_left f d (Ok r) = Ok (r + lsum d (fun kv : N * K => snd kv * (if parity p (fst kv) then 0 else 1)))) as H end.
    { clear d. induction d as [|kv d IH]; intros r; [cbn; f_equal; ring|]. cbn [fold_left bind]. rewrite sign_one by assumption. cbn [bind]. rewrite IH, lsum_cons. f_equal. destruct (parity p (fst kv)); cbn [negb]; ring. }
    rewrite H. f_equal. ring.
  Qed.
  Lemma var_p_exact c p h psi (d : dist) : measured_by p h -> List.length h = n -> faithful s2 n psi h d -> lsum (alldets n) (fun x => cnorm2 (psi x)) = 1 ->
    exists p1, p_one p d = Ok p1 /\ cre (var_p c p1) = variance n psi [(p, c)].
  Proof.
    intros Hm Hh (Hne & Hnd & Hin & Hv) H1. assert (p <> []) as Hp by (intros ->; destruct Hm; cbn in *; lia).
    eexists. split; [now apply p_one_eq|]. rewrite (variance_exact [(p, c)] h) by (auto; repeat constructor; exact Hm).
    rewrite (lsum_keys d (alldets n) (fun x => if parity p x then 0 else 1)) by (assumption || apply alldets_NoDup).
    rewrite (lsum_ext (alldets n) _ (fun x => prob h psi x * (if parity p x then 0 else 1))) by (intros x Hx; now rewrite Hv).
    set (P1 := lsum (alldets n) (fun x => prob h psi x * (if parity p x then 0 else 1))).
    assert (forall x, gval [(p, c)] x = c * sgn (parity p x) 1) as Eg by (intros x; unfold gval; rewrite lsum_cons; change (lsum [] _) with (0 : K); cbn [fst snd]; ring).
    rewrite (lsum_ext (alldets n) (fun x => prob h psi x * (gval [(p, c)] x * gval [(p, c)] x)) (fun x => c * c * prob h psi x)).
    2: { intros x _. rewrite Eg. destruct (parity p x); cbn; ring. }
    rewrite lsum_scale, prob_total by assumption.
    rewrite (lsum_ext (alldets n) (fun x => prob h psi x * gval [(p, c)] x) (fun x => c * ((1 + 1) * (prob h psi x * (if parity p x then 0 else 1)) + (- (1)) * prob h psi x))).
    2: { intros x _. rewrite Eg. destruct (parity p x); cbn; ring. }
    rewrite lsum_scale, lsum_add, !lsum_scale, prob_total by assumption. fold P1. f_equal. unfold var_p. ring.
  Qed.
  Lemma var_independent_exact nc distr psi (obs : list (pauli * K)) : lsum (alldets n) (fun x => cnorm2 (psi x)) = 1 ->
    Forall (fun pc => exists h d, distr (fst pc) = Ok d /\ measured_by (fst pc) h /\ List.length h = n /\ faithful s2 n psi h d) obs ->
    exists v, var_independent nc distr obs = Ok v /\ cre v = lsum obs (fun pc => variance n psi [(fst pc, if nc then 1 else snd pc)]).
  Proof.
    intros H1 H. unfold var_independent.
    match goal with |- exists v, fold_left ?f obs _ = _ /\ _ => assert (forall r, exists v, fold_left f obs (Ok r) = Ok v /\ cre v = cre r + lsum obs (fun pc => variance n psi [(fst pc, if nc then 1 else snd pc)])) as G end.
    { induction H as [|pc obs (h & d & Ed & Hm & Hh & Hf) _ IH]; intros r; [exists r; split; [reflexivity|]; change (lsum [] _) with (0 : cx); ring|].
      cbn [fold_left bind]. rewrite Ed. cbn [bind]. destruct (var_p_exact (if nc then 1 else snd pc) (fst pc) h psi d Hm Hh Hf H1) as (p1 & E1 & E2). rewrite E1. cbn [bind].
      destruct (IH (r + var_p (if nc then 1 else snd pc) p1)) as (v & Ev & Evv). exists v. split; [exact Ev|]. rewrite Evv, lsum_cons, <- E2.
      transitivity (cre r + cre (var_p (if nc then 1 else snd pc) p1) + lsum obs (fun pc => variance n psi [(fst pc, if nc then 1 else snd pc)])); [f_equal; apply pair_eq; cbn; ring|ring]. }
    destruct (G 0) as (v & Ev & Evv). exists v. split; [exact Ev|]. rewrite Evv. change (cre (0 : K)) with (0 : cx). ring.
  Qed.

  Lemma to_dict_eq (obs : list (pauli * K)) : NoDup (map fst obs) -> pauliop_to_dict obs = obs.
  Proof.
    unfold pauliop_to_dict. intros Hnd.
    assert (forall l d : list (pauli * K), NoDup (map fst (d ++ l)) -> fold_left (fun d pc => cset (fst pc) (snd pc) d) l d = d ++ l) as H; [|now apply (H obs [])].
    clear. induction l as [|[p c] l IH]; intros d Hnd; [now rewrite app_nil_r|]. cbn [fold_left fst snd].
    assert (cset p c d = d ++ [(p, c)]) as ->.
    { assert (~ In p (map fst d)) as Hp. { rewrite map_app in Hnd. cbn in Hnd. apply NoDup_remove_2 in Hnd. intros H. apply Hnd. apply in_or_app. now left. }
      clear - Hp. induction d as [|[q c'] d IH]; [reflexivity|]. cbn. destruct (pauli_eqb p q) eqn:E; [apply pauli_eqb_eq in E as ->; elim Hp; now left|]. f_equal. apply IH. intros H. apply Hp. now right. }
    rewrite IH; rewrite <- app_assoc; [reflexivity|exact Hnd].
  Qed.
  Lemma cget_in p c (d : list (pauli * K)) : NoDup (map fst d) -> In (p, c) d -> cget p d = Ok c.
  Proof.
    induction d as [|[q c'] d IH]; intros Hnd H; [destruct H|]. inversion_clear Hnd as [|? ? Hq Hd]. cbn. destruct H as [H|H].
    - injection H as -> ->. now rewrite pauli_eqb_refl.
    - destruct (pauli_eqb p q) eqn:E; [apply pauli_eqb_eq in E as ->; elim Hq; now apply (in_map fst) in H|auto].
  Qed.
  Lemma group_var_eq cd (grp : list (pauli * K)) x : NoDup (map fst cd) -> incl grp cd -> Forall (fun pc => fst pc <> []) grp ->
    group_var cd (map fst grp) x = Ok (gval grp x).
  Proof.
    intros Hnd. unfold group_var.
    match goal with |- _ -> _ -> fold_left ?f _ _ = _ => assert (forall grp r, incl grp cd -> Forall (fun pc => fst pc <> []) grp -> fold_left f (map fst grp) (Ok r) = Ok (r + gval grp x)) as H end.
    { clear grp. induction grp as [|[p c] grp IH]; intros r Hi Hp; [cbn; f_equal; unfold gval; change (lsum [] _) with (0 : K); ring|].
      inversion_clear Hp as [|? ? Hp0 Hp']. cbn [map fold_left fst bind]. rewrite (cget_in p c) by (auto; apply Hi; now left). cbn [bind]. cbn [fst] in Hp0. rewrite bitstring_sign by assumption. cbn [bind].
      rewrite IH by (auto; intros y Hy; apply Hi; now right). unfold gval. rewrite lsum_cons. cbn [fst snd]. f_equal. ring. }
    intros Hi Hp. rewrite H by assumption. f_equal. ring.
  Qed.
  Lemma group_moments_exact cd (grp : list (pauli * K)) h psi d : NoDup (map fst cd) -> incl grp cd -> Forall (fun pc => measured_by (fst pc) h) grp -> List.length h = n -> faithful s2 n psi h d ->
    exists m, group_moments cd (map fst grp) d = Ok m /\ cre (snd m - fst m * fst m) = variance n psi grp.
  Proof.
    intros Hnd Hi Hm Hh (Hne & Hnd' & Hin & Hv).
    assert (Forall (fun pc : pauli * K => fst pc <> []) grp) as Hp by (eapply Forall_impl; [|exact Hm]; intros pc [Hl _] E; rewrite E in Hl; cbn in Hl; lia).
    unfold group_moments.
    match goal with |- exists m, fold_left ?f _ _ = _ /\ _ => assert (forall d r, fold_left f d (Ok r) = Ok (fst r + lsum d (fun kv => snd kv * gval grp (fst kv)), snd r + lsum d (fun kv => snd kv * (gval grp (fst kv) * gval grp (fst kv))))) as H end.
    { clear Hne Hnd' Hin Hv d. induction d as [|kv d IH]; intros [a b]; [cbn; f_equal; f_equal; ring|]. cbn [fold_left bind]. rewrite group_var_eq by assumption. cbn [bind].
      rewrite IH, !lsum_cons. cbn [fst snd]. f_equal. f_equal; ring. }
    rewrite H. eexists. split; [reflexivity|]. cbn [fst snd]. rewrite (variance_exact grp h) by assumption.
    rewrite (lsum_keys d (alldets n) (fun x => gval grp x)), (lsum_keys d (alldets n) (fun x => gval grp x * gval grp x)) by (assumption || apply alldets_NoDup).
    rewrite (lsum_ext (alldets n) (fun x => at_key x d * gval grp x) (fun x => prob h psi x * gval grp x)) by (intros x Hx; now rewrite Hv).
    rewrite (lsum_ext (alldets n) (fun x => at_key x d * (gval grp x * gval grp x)) (fun x => prob h psi x * (gval grp x * gval grp x))) by (intros x Hx; now rewrite Hv).
    f_equal. ring.
  Qed.

  (** ** Groups *)
  Lemma group_add_heads h p g : NoDup (map fst g) -> NoDup (map fst (group_add h p g)) /\ (forall h', In h' (map fst (group_add h p g)) -> h' = h \/ In h' (map fst g)).
  Proof.
    induction g as [|[h0 l0] g IH]; intros Hnd; cbn [group_add].
    - split; [repeat constructor; auto|]. cbn. intuition.
    - inversion_clear Hnd as [|? ? H0 Hg]. destruct (pauli_eqb h h0) eqn:E; cbn [map fst].
      + split; [now constructor|]. cbn. tauto.
      + destruct (IH Hg) as [A B]. split; [|cbn; intros h' [<-|H]; auto; destruct (B h' H); auto]. constructor; [|exact A]. intros H. destruct (B h0 H) as [->|H']; [|contradiction].
        now rewrite pauli_eqb_refl in E.
  Qed.
  Lemma group_add_perm h p g : Permutation (flat_map snd (group_add h p g)) (p :: flat_map snd g).
  Proof.
    induction g as [|[h' l] g IH]; [reflexivity|]. cbn [group_add]. destruct (pauli_eqb h h'); cbn [flat_map snd].
    - rewrite <- app_assoc. apply Permutation_sym, Permutation_middle.
    - rewrite IH. apply Permutation_sym, Permutation_middle.
  Qed.
  Lemma group_add_in h p g h' l : In (h', l) (group_add h p g) -> forall q, In q l -> (h' = h /\ q = p) \/ exists l', In (h', l') g /\ In q l'.
  Proof.
    induction g as [|[h0 l0] g IH]; cbn [group_add].
    - intros [E|[]] q Hq. injection E as <- <-. destruct Hq as [<- |[]]. auto.
    - destruct (pauli_eqb h h0) eqn:E0.
      + apply pauli_eqb_eq in E0 as <-. intros [E|Hi] q Hq.
        * injection E as <- <-. apply in_app_or in Hq as [Hq|[<- |[]]]; [right; exists l0; cbn; auto|auto].
        * right. exists l. cbn. auto.
      + intros [E|Hi] q Hq.
        * injection E as <- <-. right. exists l0. cbn. auto.
        * destruct (IH Hi q Hq) as [H|(l' & H1 & H2)]; [auto|]. right. exists l'. cbn. auto.
  Qed.
  Lemma groups_exist (ps : list pauli) (cl : list chead) : Forall (fun p => exists h, get_head p cl = Ok h /\ In h (map (ch_head (K:=K)) cl)) ps ->
    exists g, get_groups ps cl = Ok g /\ Permutation (flat_map snd g) ps /\ NoDup (map fst g) /\ (forall h, In h (map fst g) -> In h (map (ch_head (K:=K)) cl)) /\
      forall h l, In (h, l) g -> forall p, In p l -> get_head p cl = Ok h.
  Proof.
    intros H. unfold get_groups.
    assert (Forall (fun p => exists h, get_head p cl = Ok h /\ In h (map (ch_head (K:=K)) cl)) (sorted_rev ps)) as Hs.
    { apply Forall_forall. intros p Hp. rewrite Forall_forall in H. apply H. apply (Permutation_in p (sorted_rev_perm ps)). exact Hp. }
    assert (forall l g, Forall (fun p => exists h, get_head p cl = Ok h /\ In h (map (ch_head (K:=K)) cl)) l ->
       NoDup (map fst g) -> (forall h, In h (map fst g) -> In h (map (ch_head (K:=K)) cl)) -> (forall h l, In (h, l) g -> forall p, In p l -> get_head p cl = Ok h) ->
       exists g', fold_left (fun g p => bind g (fun g => bind (get_head p cl) (fun h => Ok (group_add h p g)))) l (Ok g) = Ok g' /\ Permutation (flat_map snd g') (flat_map snd g ++ l) /\
         NoDup (map fst g') /\ (forall h, In h (map fst g') -> In h (map (ch_head (K:=K)) cl)) /\ forall h l, In (h, l) g' -> forall p, In p l -> get_head p cl = Ok h) as G.
    { induction l as [|p l IH]; intros g Hl Hnd Hc Hg; [exists g; rewrite app_nil_r; repeat split; auto|].
      inversion_clear Hl as [|? ? (h & Eh & Hh) Hl']. cbn [fold_left bind]. rewrite Eh. cbn [bind]. destruct (group_add_heads h p g Hnd) as [A B].
      destruct (IH (group_add h p g) Hl' A) as (g' & E & HP & N & Hc' & Hg').
      - intros h' Hh'. destruct (B h' Hh') as [->|]; auto.
      - intros h' l' Hi q Hq. destruct (group_add_in h p g h' l' Hi q Hq) as [[-> ->]|(l1 & H1 & H2)]; [exact Eh|]. now apply (Hg h' l1).
      - exists g'. split; [exact E|]. split; [|auto]. rewrite HP, group_add_perm. cbn. apply Permutation_middle. }
    destruct (G (sorted_rev ps) [] Hs) as (g & E & HP & Hr); [constructor|intros ? []|intros ? ? []|]. exists g. split; [exact E|]. split; [|exact Hr]. rewrite HP. cbn. apply sorted_rev_perm.
  Qed.

  (** [cl] holds an exact distribution for each head. *)
  Definition exact_heads (fl : flags) (psi : qstate) (cl : list chead) : Prop :=
    Forall (fun c : chead => exists d, zget (to_int fl) (ch_distr c) = Some d /\ faithful s2 n psi (ch_head c) d) cl.
  Lemma find_head_in h (cl : list chead) : In h (map (ch_head (K:=K)) cl) -> exists c, find_head h cl = Some c /\ In c cl /\ ch_head c = h.
  Proof.
    induction cl as [|c cl IH]; intros H; [destruct H|]. cbn. destruct (pauli_eqb (ch_head c) h) eqn:E.
    - apply pauli_eqb_eq in E. exists c. auto.
    - destruct H as [H|H]; [rewrite H, pauli_eqb_refl in E; discriminate|]. destruct (IH H) as (c' & A & B & D). exists c'. auto.
  Qed.
  Lemma group_distr fl psi cl h : exact_heads fl psi cl -> In h (map (ch_head (K:=K)) cl) -> exists d, get_distr_heads [h] (Some fl) cl = Ok [d] /\ faithful s2 n psi h d.
  Proof.
    intros He Hh. destruct (find_head_in h cl Hh) as (c & Ef & Hc & <-). unfold exact_heads in He. rewrite Forall_forall in He. destruct (He c Hc) as (d & Ed & Fd).
    exists d. split; [|exact Fd]. unfold get_distr_heads. cbn [fold_right]. rewrite Ef. unfold saver_get. cbn [mit_int]. now rewrite Ed.
  Qed.
  Lemma var_grouped_exact fl psi cl (obs : list (pauli * K)) : cinv n cl -> exact_heads fl psi cl -> NoDup (map fst obs) ->
    Forall (fun pc => List.length (fst pc) = n /\ served (fst pc) cl) obs ->
    exists v groups, var_grouped fl cl obs = Ok v /\ Permutation (flat_map snd groups) obs /\ NoDup (map fst groups) /\
      (forall h grp, In (h, grp) groups -> In h (map (ch_head (K:=K)) cl) /\ List.length h = n /\ Forall (fun pc => measured_by (fst pc) h /\ get_head (fst pc) cl = Ok h) grp) /\
      cre v = lsum groups (fun g => variance n psi (snd g)).
  Proof.
    intros Hinv He Hnd Hobs.
    assert (forall p, In p (map fst obs) -> exists c, In c cl /\ measured_by p (ch_head c) /\ get_head p cl = Ok (ch_head c)) as Hlook.
    { intros p Hp. apply in_map_iff in Hp as (pc & <- & Hpc). rewrite Forall_forall in Hobs. destruct (Hobs pc Hpc) as [Hl Hs].
      destruct (served_lookup n (fst pc) cl Hinv Hl Hs) as (c & A & B & D & _). eauto. }
    destruct (groups_exist (map fst obs) cl) as (g & Eg & HP & Hgn & Hgc & Hgh).
    { apply Forall_forall. intros p Hp. destruct (Hlook p Hp) as (c & A & _ & B). exists (ch_head c). split; [exact B|]. now apply in_map. }
    unfold var_grouped. rewrite Eg. cbn [bind]. rewrite to_dict_eq by assumption.
    set (co := fun p => match cget p obs with Ok c => c | _ => 0 end).
    set (groups := map (fun hl : pauli * list pauli => (fst hl, map (fun p => (p, co p)) (snd hl))) g).
    assert (forall p, In p (map fst obs) -> In (p, co p) obs) as Hco.
    { intros p Hp. apply in_map_iff in Hp as ([q c] & <- & Hpc). unfold co. cbn [fst]. now rewrite (cget_in q c) by assumption. }
    assert (map (fun p => (p, co p)) (map fst obs) = obs) as Eobs.
    { rewrite map_map. rewrite <- (map_id obs) at 2. apply map_ext_in. intros [p c] Hpc. cbn [fst]. f_equal. unfold co. now rewrite (cget_in p c). }
    assert (forall h l, In (h, l) g -> forall p, In p l -> In p (map fst obs)) as Hin.
    { intros h l Hhl p Hp. apply (Permutation_in p HP). apply in_flat_map. exists (h, l). auto. }
    assert (forall h l, In (h, l) g -> In h (map (ch_head (K:=K)) cl) /\ List.length h = n /\ Forall (fun p => measured_by p h) l) as Hg.
    { intros h l Hhl. assert (In h (map (ch_head (K:=K)) cl)) as Hh by (apply Hgc; now apply (in_map fst) in Hhl). split; [exact Hh|]. split.
      - apply in_map_iff in Hh as (c & <- & Hc). destruct Hinv as [Hl _]. rewrite Forall_forall in Hl. now apply Hl.
      - apply Forall_forall. intros p Hp. destruct (Hlook p (Hin h l Hhl p Hp)) as (c & _ & Hm & E). rewrite (Hgh h l Hhl p Hp) in E. injection E as ->. exact Hm. }
    assert (forall gs r, incl gs g -> exists v,
      fold_left (fun r g => bind r (fun r => bind (get_distr_heads [fst g] (Some fl) cl) (fun ds => match ds with [] => Raise IndexError
         | d :: _ => bind (group_moments obs (snd g) d) (fun m => Ok (r + (snd m - fst m * fst m))) end))) gs (Ok r) = Ok v /\
      cre v = cre r + lsum gs (fun hl : pauli * list pauli => variance n psi (map (fun p => (p, co p)) (snd hl)))) as Hrun.
    { induction gs as [|[h l] gs IH]; intros r Hi; [exists r; split; [reflexivity|]; change (lsum [] _) with (0 : cx); ring|].
      assert (In (h, l) g) as Hhl by (apply Hi; now left). destruct (Hg h l Hhl) as (Hh & Hlen & Hm). cbn [fold_left bind fst snd].
      destruct (group_distr fl psi cl h He Hh) as (d & Ed & Fd). rewrite Ed. cbn [bind].
      destruct (group_moments_exact obs (map (fun p => (p, co p)) l) h psi d Hnd) as (m & Em & Evar); [| |exact Hlen|exact Fd|].
      - intros y Hy. apply in_map_iff in Hy as (p & <- & Hp). apply Hco. now apply (Hin h l).
      - apply Forall_map. exact Hm.
      - rewrite map_map, map_id in Em. rewrite Em. cbn [bind].
        destruct (IH (r + (snd m - fst m * fst m)) ltac:(intros y Hy; apply Hi; now right)) as (v & Ev & Evv). exists v. split; [exact Ev|].
        rewrite Evv, lsum_cons. cbn [snd]. rewrite <- Evar.
        transitivity (cre r + cre (snd m - fst m * fst m) + lsum gs (fun hl : pauli * list pauli => variance n psi (map (fun p => (p, co p)) (snd hl)))); [f_equal; apply pair_eq; cbn; ring|ring]. }
    destruct (Hrun g 0 (incl_refl g)) as (v & Ev & Evv). exists v, groups. split; [exact Ev|]. split; [|split; [|split]].
    - rewrite <- Eobs. rewrite <- HP. unfold groups. clear. induction g as [|[h l] g IH]; [reflexivity|]. cbn. rewrite map_app. now apply Permutation_app_head.
    - unfold groups. now rewrite map_map.
    - intros h grp Hi. apply in_map_iff in Hi as ([h' l] & E & Hi). cbn [fst snd] in E. injection E as <- <-. destruct (Hg h' l Hi) as (A & B & D). split; [exact A|]. split; [exact B|]. apply Forall_map. apply Forall_forall. intros p Hp. rewrite Forall_forall in D. cbn [fst]. split; [now apply D|]. now apply (Hgh h' l).
    - rewrite Evv. unfold groups. rewrite lsum_map. change (cre (0 : K)) with (0 : cx). cbn [snd]. ring.
  Qed.
End Var.
