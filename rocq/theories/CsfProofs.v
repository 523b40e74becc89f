(** Lemmas about the matrix elements between configuration state functions. *)
From Coq Require Import List Bool Arith NArith ZArith Lia Ring Permutation.
From Verif Require Import Base Fock FockMore OperatorsSums FockInner CliqueModel CliqueProofs QubitModel QubitProofs QubitCirc QubitRef
  CliqueSampler Props_Circuit CsfModel.
Import ListNotations.
Local Open Scope list_scope.

(** ** Strings *)
Lemma det_eqb_spec a b : reflect (a = b) (det_eqb a b).
Proof.
  revert b. induction a as [|x a IH]; intros [|y b]; cbn; try (constructor; congruence).
  destruct (Bool.eqb_spec x y) as [->|H]; cbn [andb]; [|constructor; congruence]. destruct (IH b) as [->|H]; constructor; congruence.
Qed.
Lemma pair_eqb_spec p q : reflect (p = q) (pair_eqb p q).
Proof.
  destruct p as [a b], q as [c d]. unfold pair_eqb. cbn [fst snd]. destruct (det_eqb_spec a c) as [->|H]; cbn [andb]; [|constructor; congruence].
  destruct (det_eqb_spec b d) as [->|H]; constructor; congruence.
Qed.
Lemma det_int_snoc d b : det_int (d ++ [b]) = (2 * det_int d + (if b then 1 else 0))%N.
Proof. unfold det_int. now rewrite fold_left_app. Qed.
Lemma det_int_app d e : det_int (d ++ e) = (det_int d * 2 ^ N.of_nat (List.length e) + det_int e)%N.
Proof.
  induction e as [|b e IH] using rev_ind; [cbn; rewrite app_nil_r; lia|]. rewrite app_assoc, !det_int_snoc, IH, app_length. cbn [List.length].
  replace (N.of_nat (List.length e + 1)) with (N.succ (N.of_nat (List.length e))) by lia. rewrite N.pow_succ_r'. lia.
Qed.
Lemma det_int_lt d : (det_int d < 2 ^ N.of_nat (List.length d))%N.
Proof.
  induction d as [|b d IH] using rev_ind; [cbn; lia|]. rewrite det_int_snoc, app_length. cbn [List.length].
  replace (N.of_nat (List.length d + 1)) with (N.succ (N.of_nat (List.length d))) by lia. rewrite N.pow_succ_r'. destruct b; lia.
Qed.
Fixpoint to_det (m : nat) (k : N) : dstr := match m with 0 => [] | S m => to_det m (N.div2 k) ++ [N.odd k] end.
Lemma to_det_int d : to_det (List.length d) (det_int d) = d.
Proof.
  induction d as [|b d IH] using rev_ind; [reflexivity|]. rewrite app_length, det_int_snoc. cbn [List.length]. rewrite Nat.add_1_r. cbn [to_det].
  assert (N.div2 (2 * det_int d + (if b then 1 else 0)) = det_int d) as ->.
  { rewrite N.div2_div. destruct b; [|rewrite N.add_0_r, N.mul_comm; apply N.div_mul; lia]. symmetry. apply (N.div_unique _ 2 _ 1); lia. }
  rewrite IH. f_equal. f_equal. destruct b; [rewrite N.odd_add, N.odd_mul; reflexivity|rewrite N.add_0_r, N.odd_mul; reflexivity].
Qed.
Lemma det_int_pos d : In true d -> (0 < det_int d)%N.
Proof.
  induction d as [|b d IH] using rev_ind; [intros []|]. intros H. rewrite det_int_snoc. destruct b; [lia|].
  apply in_app_or in H as [H|[H|[]]]; [specialize (IH H); lia|discriminate].
Qed.
(** An ascending pair of different strings of the same length has a place where
    only the second has an electron. *)
Lemma ltb_place a b : List.length a = List.length b -> det_ltb a b = true -> exists p, nth p b false = true /\ nth p a false = false.
Proof.
  revert b. induction a as [|x a IH]; intros [|y b] Hl H; try discriminate. cbn [det_ltb] in H. destruct (Bool.eqb_spec x y) as [->|Hne].
  - destruct (IH b) as (p & Hp); [cbn in Hl; lia|exact H|]. exists (S p). exact Hp.
  - exists 0. destruct x, y; try discriminate. auto.
Qed.
Lemma ltb_total a b : List.length a = List.length b -> a <> b -> det_ltb a b = negb (det_ltb b a).
Proof.
  revert b. induction a as [|x a IH]; intros [|y b] Hl Hne; try discriminate; [congruence|]. cbn [det_ltb].
  destruct (Bool.eqb_spec x y) as [->|H].
  - rewrite Bool.eqb_reflx. apply IH; [cbn in Hl; lia|congruence].
  - destruct x, y; try reflexivity; congruence.
Qed.
Lemma sorted_pair_cases r a b : sorted_pair r a b = (a, b) \/ sorted_pair r a b = (b, a).
Proof. unfold sorted_pair. destruct (if r then _ else _); auto. Qed.
Lemma sorted_pair_asc a b : List.length a = List.length b -> a <> b ->
  exists p, nth p (snd (sorted_pair false a b)) false = true /\ nth p (fst (sorted_pair false a b)) false = false.
Proof.
  intros Hl Hne. unfold sorted_pair. destruct (det_ltb b a) eqn:E; cbn [fst snd]; apply ltb_place; auto. rewrite ltb_total by auto. now rewrite E.
Qed.

Section Proofs.
  Context {K : Type} {C : CRing K}.
  Local Open Scope K_scope.
  Add Ring KringCsf : (@rth K C).
  Notation cx := (K * K)%type.
  Add Ring KringCsfx : (@rth cx Cx_CRing).
  Notation qstate := (qstate (K:=K)).
  Notation gate := (gate (K:=K)).
  Notation dist := (dist (K:=K)).
  Local Notation "a ~~ b" := (qeq a b) (at level 70).

  (** ** Linearity *)
  Lemma gate_lin s2 g (a b : cx) (f h : qstate) : gate_sem s2 g (fun x => a * f x + b * h x) ~~ (fun x => a * gate_sem s2 g f x + b * gate_sem s2 g h x).
  Proof.
    intros x. destruct g; cbn [gate_sem]; unfold app1q; try ring.
    - destruct (occ x c); reflexivity.
    - destruct (occ x c && occ x t); [ring|reflexivity].
    
  Qed.
  Lemma run_lin s2 gs (a b : cx) (f h : qstate) : run s2 gs (fun x => a * f x + b * h x) ~~ (fun x => a * run s2 gs f x + b * run s2 gs h x).
  Proof.
    revert f h. induction gs as [|g gs IH]; intros f h; [apply qeq_refl|]. rewrite !run_cons.
    eapply qeq_trans; [apply run_ext; apply gate_lin|]. apply IH.
  Qed.
  Lemma run_zero s2 gs : run s2 gs (fun _ => 0 : cx) ~~ (fun _ => 0).
  Proof.
    intros x. rewrite (run_ext s2 gs (fun _ => 0) (fun _ => 0 * 0 + 0 * 0)) by (intros y; cbv beta; ring). rewrite run_lin. cbv beta. ring.
  Qed.
  Lemma run_sum s2 gs {I} (l : list I) (c : I -> cx) (f : I -> qstate) :
    run s2 gs (fun x => lsum l (fun i => c i * f i x)) ~~ (fun x => lsum l (fun i => c i * run s2 gs (f i) x)).
  Proof.
    induction l as [|i l IH]; intros x; [apply run_zero|].
    rewrite (run_ext s2 gs _ (fun y => c i * f i y + 1 * lsum l (fun i => c i * f i y))) by (intros y; rewrite lsum_cons; ring).
    rewrite run_lin, lsum_cons, IH. ring.
  Qed.
  Lemma app1q_lin m q (a b : cx) (f h : qstate) : app1q m q (fun x => a * f x + b * h x) ~~ (fun x => a * app1q m q f x + b * app1q m q h x).
  Proof. intros x. unfold app1q. ring. Qed.
  Lemma ops_lin l (a b : cx) (f h : qstate) : ops l (fun x => a * f x + b * h x) ~~ (fun x => a * ops l f x + b * ops l h x).
  Proof.
    revert f h. induction l as [|[i m] l IH]; intros f h; [apply qeq_refl|]. cbn [ops fold_left fst snd]. change (fold_left _ l ?s) with (ops l s).
    eapply qeq_trans; [apply ops_ext; apply app1q_lin|]. apply IH.
  Qed.
  Lemma pauli_lin p (a b : cx) (f h : qstate) : pauli_app p (fun x => a * f x + b * h x) ~~ (fun x => a * pauli_app p f x + b * pauli_app p h x).
  Proof. apply ops_lin. Qed.
  Lemma pauli_ext p (f h : qstate) : f ~~ h -> pauli_app p f ~~ pauli_app p h.
  Proof. apply ops_ext. Qed.
  Lemma pauli_sum p {I} (l : list I) (c : I -> cx) (f : I -> qstate) :
    pauli_app p (fun x => lsum l (fun i => c i * f i x)) ~~ (fun x => lsum l (fun i => c i * pauli_app p (f i) x)).
  Proof.
    induction l as [|i l IH]; intros x.
    - rewrite (pauli_ext p _ (fun _ => 0 * 0 + 0 * 0)) by (intros y; change (lsum [] _) with (0 : cx); ring). rewrite pauli_lin. change (lsum [] _) with (0 : cx). ring.
    - rewrite (pauli_ext p _ (fun y => c i * f i y + 1 * lsum l (fun i => c i * f i y))) by (intros y; rewrite lsum_cons; ring).
      rewrite pauli_lin, lsum_cons, IH. ring.
  Qed.
  Lemma cip_lin_r n (a b : cx) (v f h : qstate) : cip n v (fun x => a * f x + b * h x) = a * cip n v f + b * cip n v h.
  Proof. unfold cip. rewrite <- !lsum_scale, <- lsum_add. apply lsum_ext. intros x _. ring. Qed.
  Lemma cip_conj n (f h : qstate) : cip n f h = cconj (cip n h f).
  Proof.
    unfold cip. induction (alldets n) as [|x l IH].
    - cbn. unfold cconj. cbn. unfold cre. f_equal. ring.
    - rewrite !lsum_cons, cconj_add, <- IH, cconj_mul, cconj_invol. f_equal. ring.
  Qed.
  Lemma cip_lin_l n (a b : K) (v f h : qstate) : cip n (fun x => cre a * f x + cre b * h x) v = cre a * cip n f v + cre b * cip n h v.
  Proof.
    rewrite cip_conj, cip_lin_r, cconj_add, !cconj_mul, <- !cip_conj. f_equal; f_equal; unfold cconj, cre; cbn; f_equal; ring.
  Qed.
  (** Pauli strings are Hermitian. *)
  Lemma mletter_dag (l : letter) r c : mdag (mletter (K:=K) l) r c = mletter l r c.
  Proof. destruct l, r, c; unfold mdag, cconj; cbn; unfold copp, cre, ci; cbn; f_equal; ring. Qed.
  Lemma ops_adjoint n (l : list (nat * (bool -> bool -> cx))) : NoDup (map fst l) -> Forall (fun e => (fst e < n)%nat) l ->
    Forall (fun e => forall r c, mdag (snd e) r c = snd e r c) l -> forall a b, cip n (ops l a) b = cip n a (ops l b).
  Proof.
    induction l as [|[i m] l IH]; intros Hnd Hn Hm a b; [reflexivity|]. inversion_clear Hnd as [|? ? Hi Hnd']. inversion_clear Hn as [|? ? Hin Hn'].
    inversion_clear Hm as [|? ? Hmm Hm']. cbn [fst snd] in *. cbn [ops fold_left fst snd]. change (fold_left _ l ?s) with (ops l s).
    rewrite IH by assumption. rewrite cip_adjoint by assumption. apply cip_ext; [apply qeq_refl|].
    eapply qeq_trans; [apply app1q_mat; exact Hmm|]. apply qeq_sym. now apply ops_comm.
  Qed.
  Lemma combine_fst {A B} (l : list A) (m : list B) : List.length l = List.length m -> map fst (combine l m) = l.
  Proof. revert m. induction l as [|x l IH]; intros [|y m] H; try discriminate; [reflexivity|]. cbn. f_equal. apply IH. cbn in H. lia. Qed.
  Lemma pauli_adjoint n p (a b : qstate) : List.length p = n -> cip n (pauli_app p a) b = cip n a (pauli_app p b).
  Proof.
    intros Hl. unfold pauli_app. assert (List.length (seq 0 (List.length p)) = List.length (map (mletter (K:=K)) (rev p))) as HL by (rewrite seq_length, map_length, rev_length; reflexivity).
    apply ops_adjoint.
    - rewrite combine_fst by exact HL. apply seq_NoDup.
    - apply Forall_forall. intros [i m] H. apply in_combine_l in H. apply in_seq in H. cbn. lia.
    - apply Forall_forall. intros [i m] H. apply in_combine_r in H. apply in_map_iff in H as (l & <- & _). apply mletter_dag.
  Qed.

  (** ** Real parts of matrix elements *)
  Definition element (n : nat) (obs : list (pauli * K)) (f h : qstate) : K :=
    lsum obs (fun pc => fst (cip n f (pauli_app (fst pc) h)) * snd pc).
  Lemma element_ext n obs f f' h h' : f ~~ f' -> h ~~ h' -> element n obs f h = element n obs f' h'.
  Proof. intros H1 H2. apply lsum_ext. intros pc _. do 2 f_equal. apply cip_ext; [exact H1|]. now apply pauli_ext. Qed.
  Lemma fst_add (a b : cx) : fst (a + b) = fst a + fst b. Proof. reflexivity. Qed.
  Lemma fst_cre (a : K) (b : cx) : fst (cre a * b) = a * fst b.
  Proof. destruct b. cbn. ring. Qed.
  Lemma element_sym n obs f h : Forall (fun pc : pauli * K => List.length (fst pc) = n) obs -> element n obs f h = element n obs h f.
  Proof.
    intros H. apply lsum_ext. intros pc Hpc. rewrite Forall_forall in H. rewrite cip_conj. cbn [fst cconj]. now rewrite (pauli_adjoint n) by (now apply H).
  Qed.
  Lemma element_lin_r n obs v (a b : K) f h :
    element n obs v (fun x => cre a * f x + cre b * h x) = a * element n obs v f + b * element n obs v h.
  Proof.
    unfold element. rewrite <- !lsum_scale, <- lsum_add. apply lsum_ext. intros pc _.
    rewrite (cip_ext n v v _ (fun x => cre a * pauli_app (fst pc) f x + cre b * pauli_app (fst pc) h x)); [|apply qeq_refl|apply pauli_lin].
    rewrite cip_lin_r, fst_add, !fst_cre. ring.
  Qed.
  Lemma element_lin_l n obs v (a b : K) f h :
    element n obs (fun x => cre a * f x + cre b * h x) v = a * element n obs f v + b * element n obs h v.
  Proof.
    unfold element. rewrite <- !lsum_scale, <- lsum_add. apply lsum_ext. intros pc _. rewrite cip_lin_l, fst_add, !fst_cre. ring.
  Qed.
  Lemma element_zero_r n obs v : element n obs v (fun _ => 0) = 0.
  Proof.
    rewrite (element_ext n obs v v _ (fun x => cre 0 * (0 : cx) + cre 0 * 0)); [|apply qeq_refl|intros x; ring]. rewrite (element_lin_r n obs v 0 0 (fun _ => 0) (fun _ => 0)). ring.
  Qed.
  Lemma element_zero_l n obs v : element n obs (fun _ => 0) v = 0.
  Proof.
    rewrite (element_ext n obs _ (fun x => cre 0 * (0 : cx) + cre 0 * 0) v v); [|intros x; ring|apply qeq_refl]. rewrite (element_lin_l n obs v 0 0 (fun _ => 0) (fun _ => 0)). ring.
  Qed.
  Lemma element_sum_r n obs v {I} (l : list I) (c : I -> K) (f : I -> qstate) :
    element n obs v (fun x => lsum l (fun i => cre (c i) * f i x)) = lsum l (fun i => c i * element n obs v (f i)).
  Proof.
    induction l as [|i l IH]; [apply element_zero_r|]. rewrite lsum_cons, <- IH.
    rewrite (element_ext n obs v v _ (fun x => cre (c i) * f i x + cre 1 * lsum l (fun i => cre (c i) * f i x))).
    - rewrite element_lin_r. ring.
    - apply qeq_refl.
    - intros x. rewrite lsum_cons. change (cre (1 : K)) with (1 : cx). ring.
  Qed.
  Lemma element_sum_l n obs v {I} (l : list I) (c : I -> K) (f : I -> qstate) :
    element n obs (fun x => lsum l (fun i => cre (c i) * f i x)) v = lsum l (fun i => c i * element n obs (f i) v).
  Proof.
    induction l as [|i l IH]; [apply element_zero_l|]. rewrite lsum_cons, <- IH.
    rewrite (element_ext n obs _ (fun x => cre (c i) * f i x + cre 1 * lsum l (fun i => cre (c i) * f i x)) v v).
    - rewrite element_lin_l. ring.
    - intros x. rewrite lsum_cons. change (cre (1 : K)) with (1 : cx). ring.
    - apply qeq_refl.
  Qed.
End Proofs.

(** ** Creating the electrons of a determinant *)
Definition Dof (n : nat) (d : dstr) : N := from_occ (2 * n) (fun q => nth (q2f q n) d false).
(** The electrons of [d] in the interleaved order of its spin orbitals, each on
    the qubit of its spin orbital. *)
Definition creators_of (n : nat) (d : dstr) : fstring :=
  map (fun p => (f2q p n, true)) (filter (fun p => nth p d false) (seq 0 (2 * n))).

Section Create.
  Context {K : Type} {C : CRing K}.
  Local Open Scope K_scope.
  Add Ring KringCsf2 : (@rth K C).
  Lemma appstr_away m s q (f : amps (K:=K)) : (forall o, In o s -> (fst o < m)%nat) -> (m <= q)%nat -> (forall x, occ x q = true -> f x = 0) ->
    forall e, occ e q = true -> appstr s f e = 0.
  Proof.
    intros Hs Hq Hf. induction s as [|o s IH]; intros e He; [now apply Hf|]. cbn [appstr]. unfold app1.
    destruct (Bool.eqb (occ e (fst o)) (snd o)); [|reflexivity]. rewrite IH; [apply sgn_0|intros; apply Hs; now right|].
    rewrite occ_flip_other; [exact He|]. specialize (Hs o (or_introl eq_refl)). lia.
  Qed.
  Lemma register_dec m e : register m e \/ exists q, (m <= q)%nat /\ occ e q = true.
  Proof.
    destruct (N.lt_ge_cases e (2 ^ N.of_nat m)) as [H|H].
    - left. intros q Hq. unfold occ. destruct (N.eq_dec e 0) as [->|He]; [apply N.bits_0|]. apply N.bits_above_log2.
      apply N.log2_lt_pow2 in H; lia.
    - right. assert (e <> 0%N) as He. { intros ->. pose proof (N.pow_nonzero 2 (N.of_nat m)). lia. }
      exists (N.to_nat (N.log2 e)). split; [|unfold occ; rewrite N2Nat.id; now apply N.bit_log2].
      assert (N.of_nat m <= N.log2 e)%N as Hl by (apply N.log2_le_pow2; lia). lia.
  Qed.
  Lemma create_interleaved n d e : List.length d = (2 * n)%nat ->
    appstr (K:=K) (creators_of n d) (basis 0%N) e = sign_num (get_reordering_sign d) * basis (Dof n d) e.
  Proof.
    intros Hl. pose proof (blocked_exists n d) as HB. fold (Dof n d) in HB.
    assert (forall o, In o (creators_of n d) -> (fst o < 2 * n)%nat) as Ho.
    { intros o Ho. apply in_map_iff in Ho as (p & <- & Hp). apply filter_In in Hp as [Hp _]. apply in_seq in Hp. cbn [fst]. apply f2q_lt. lia. }
    destruct (register_dec (2 * n) e) as [He|(q & Hq & He)].
    2: { rewrite (appstr_away (2 * n) _ q); auto.
         - unfold basis. destruct (N.eqb_spec (Dof n d) e) as [E|_]; [|ring]. rewrite <- E in He. rewrite (proj2 HB q Hq) in He. discriminate.
         - intros x Hx. unfold basis. destruct (N.eqb_spec 0 x) as [<-|_]; [rewrite occ_zero in Hx; discriminate|reflexivity]. }
    rewrite (sign_toblock n d (Dof n d) Hl HB).
    assert (Hi : appstr (K:=K) (creators_of n d) (basis 0%N) e = toblock n (appstr (K:=K) (crea (fun p => nth p d false) 0 (2 * n)) (basis 0%N)) e).
    { rewrite toblock_appstr.
      - unfold creators_of, crea. rewrite map_map. cbn [fst snd]. apply (appstr_low (2 * n)); [|exact Ho|exact He].
        intros x Hx. unfold toblock. unfold basis. destruct (N.eqb_spec 0 x) as [<-|Hne].
        + assert (unblock n 0%N = 0%N) as ->.
          { apply det_ext. intros q. unfold unblock. rewrite occ_from, !occ_zero. apply andb_false_r. }
          assert (bsign n 0%N = false) as ->; [|reflexivity].
          unfold bsign. rewrite (rs_ext _ (fun _ => false) _ (fun _ => false)) by (intros; rewrite !occ_zero; auto).
          apply rs_false.
        + destruct (N.eqb_spec 0 (unblock n x)) as [E|_]; [|symmetry; apply sgn_0]. exfalso. apply Hne. apply det_ext. intros q. rewrite occ_zero.
          destruct (Nat.lt_ge_cases q (2 * n)) as [Hqn|Hqn]; [|now rewrite Hx]. destruct (f2q_q2f q n Hqn) as [Eq Hp].
          rewrite <- Eq. rewrite <- occ_unblock by exact Hp. now rewrite <- E, occ_zero.
      - intros o Hc. unfold crea in Hc. apply in_map_iff in Hc as (p & <- & Hp). apply filter_In in Hp as [Hp _]. apply in_seq in Hp. cbn. lia. }
    rewrite Hi. unfold toblock at 1.
    rewrite (crea_basis _ (2 * n) 0 (2 * n) eq_refl).
    assert (basis (K:=K) (from_occ (2 * n) (fun q => (0 <=? q)%nat && nth q d false)) (unblock n e) = basis (Dof n d) e) as ->.
    { unfold basis. destruct (N.eqb_spec (Dof n d) e) as [<-|Hne].
      - assert (from_occ (2 * n) (fun q => (0 <=? q)%nat && nth q d false) = unblock n (Dof n d)) as ->; [|now rewrite N.eqb_refl].
        apply det_ext. intros q. rewrite occ_from. destruct (Nat.ltb_spec q (2 * n)) as [Hqn|Hqn].
        + rewrite occ_unblock by exact Hqn. now rewrite (proj1 HB) by exact Hqn.
        + unfold unblock. rewrite occ_from. apply Nat.ltb_ge in Hqn as ->. reflexivity.
      - destruct (N.eqb_spec (from_occ (2 * n) (fun q => (0 <=? q)%nat && nth q d false)) (unblock n e)) as [E|_]; [|reflexivity].
        exfalso. apply Hne. apply (blocked_unique n d); [exact HB|]. split; [|exact He]. intros p Hp.
        rewrite <- occ_unblock, <- E, occ_from by exact Hp. apply Nat.ltb_lt in Hp as ->. reflexivity. }
    unfold basis. destruct (N.eqb_spec (Dof n d) e) as [<-|_].
    - destruct (bsign n (Dof n d)); cbn; ring.
    - rewrite sgn_0. ring.
  Qed.
End Create.

(** ** The loop *)
Section Loop.
  Context {K : Type} {C : CRing K} {St : Type}.
  Local Open Scope K_scope.
  Add Ring KringCsf3 : (@rth K C).
  Notation gate := (gate (K:=K)).
  Variables (ev : list gate -> N -> nat -> SR (St:=St) K) (half : K) (ansatz : list gate) (n opt : nat).
  Variables (B : dstr -> dstr -> K) (good : dstr -> Prop) (Inv : St -> Prop).
  Hypothesis Hhalf : half + half = 1.
  Hypothesis Bsym : forall d e, good d -> good e -> B d e = B e d.
  Hypothesis Hlen : forall d, good d -> List.length d = (2 * n)%nat.
  Hypothesis Hdet : forall s d, Inv s -> good d ->
    exists s', ev (x_gates d n ++ ansatz) (det_int d) 1 s = (s', Ok (B d d)) /\ Inv s'.
  Hypothesis Hpair : forall s d e c, Inv s -> good d -> good e -> d <> e ->
    get_determinant_superposition_reference d e n JordanWigner = Ok c ->
    exists s', ev (c ++ ansatz) (det_int (d ++ e)) opt s = (s', Ok (half * (B d d + B d e + B e d + B e e))) /\ Inv s'.

  Definition item_ok (e : (dstr * dstr) * K) : Prop :=
    good (fst (fst e)) /\ good (snd (fst e)) /\
    (fst (fst e) = snd (fst e) \/ exists p, nth p (snd (fst e)) false = true /\ nth p (fst (fst e)) false = false).
  Definition Bi (e : (dstr * dstr) * K) : K := snd e * B (fst (fst e)) (snd (fst e)).

  Lemma super_ok d e : good d -> good e -> (exists p, nth p e false = true /\ nth p d false = false) ->
    exists c, get_determinant_superposition_reference (K:=K) d e n JordanWigner = Ok c.
  Proof.
    intros Hd He (p & P1 & P2). pose proof (C45_superposition (K:=K) 0 n d e (Dof n d) (Dof n e) JordanWigner (Hlen d Hd) (Hlen e He) (blocked_exists n d) (blocked_exists n e)) as H.
    destruct (get_determinant_superposition_reference d e n JordanWigner) as [c|x|]; [eauto| |contradiction].
    exfalso. destruct x; try contradiction; try congruence. destruct H as [_ H]. rewrite (H p P1) in P2. discriminate.
  Qed.
  Lemma term_value e val s : item_ok e -> Inv s ->
    exists s', csf_term ev half ansatz n JordanWigner opt e val s = (s', Ok (val + Bi e)) /\ Inv s'.
  Proof.
    destruct e as [[d e] w]. intros (G1 & G2 & Hp) Hs. cbn [fst snd] in *. unfold csf_term, Bi. cbn [fst snd].
    destruct (det_eqb_spec d e) as [<-|Hne].
    - unfold det_value, get_determinant_reference, slift, sbind, compose_front. destruct (Hdet s d Hs G1) as (s' & -> & Hs').
      exists s'. split; [reflexivity|exact Hs'].
    - destruct Hp as [Hp|Hp]; [contradiction|]. destruct (super_ok d e G1 G2 Hp) as [c Hc]. rewrite Hc.
      unfold det_value, get_determinant_reference, slift, sbind, compose_front, sret.
      destruct (Hpair s d e c Hs G1 G2 Hne Hc) as (s1 & -> & H1).
      destruct (Hdet s1 d H1 G1) as (s2 & -> & H2). destruct (Hdet s2 e H2 G2) as (s3 & -> & H3).
      exists s3. split; [|exact H3]. f_equal. f_equal. rewrite (Bsym e d G2 G1).
      transitivity (val + w * ((half + half) * B d e)); [ring|]. rewrite Hhalf. ring.
  Qed.
  Lemma loop_value l : forall val s, Forall item_ok l -> Inv s ->
    exists s', csf_loop ev half ansatz n JordanWigner opt l val s = (s', Ok (val + lsum l Bi)) /\ Inv s'.
  Proof.
    induction l as [|e l IH]; intros val s Hl Hs.
    - exists s. split; [|exact Hs]. cbn. unfold sret. do 2 f_equal. unfold lsum. cbn. ring.
    - inversion_clear Hl as [|? ? He Hl']. destruct (term_value e val s He Hs) as (s1 & E & H1). destruct (IH (val + Bi e) s1 Hl' H1) as (s2 & E2 & H2).
      exists s2. split; [|exact H2]. cbn [csf_loop]. unfold sbind. rewrite E, E2. do 2 f_equal. rewrite lsum_cons. ring.
  Qed.

  Lemma lsum_add_comb p w l : lsum (add_combination p w l) Bi = lsum l Bi + w * B (fst p) (snd p).
  Proof.
    induction l as [|[q v] l IH]; cbn [add_combination].
    - rewrite lsum_cons. change (Bi (p, 0 + w)) with ((0 + w) * B (fst p) (snd p)). change (lsum [] Bi) with (0 : K). ring.
    - destruct (pair_eqb_spec p q) as [->|_]; rewrite !lsum_cons; [change (Bi (q, v + w)) with ((v + w) * B (fst q) (snd q)); change (Bi (q, v)) with (v * B (fst q) (snd q)); ring|rewrite IH; ring].
  Qed.
  Lemma lsum_unique l : lsum (unique_combinations l) Bi = lsum l Bi.
  Proof.
    unfold unique_combinations.
    assert (forall l acc, lsum (fold_left (fun acc e => add_combination (fst e) (snd e) acc) l acc) Bi = lsum acc Bi + lsum l Bi) as H.
    { clear l. induction l as [|e l IH]; intros acc; cbn [fold_left]; [change (lsum [] Bi) with (0 : K); ring|].
      rewrite IH, lsum_add_comb, lsum_cons. change (Bi e) with (snd e * B (fst (fst e)) (snd (fst e))). ring. }
    rewrite H. change (lsum [] Bi) with (0 : K). ring.
  Qed.
  Lemma unique_ok l : Forall item_ok l -> Forall item_ok (unique_combinations l).
  Proof.
    unfold unique_combinations.
    assert (forall l acc, Forall item_ok l -> Forall item_ok acc -> Forall item_ok (fold_left (fun acc e => add_combination (fst e) (snd e) acc) l acc)) as H; [|intros Hl; now apply H].
    clear l. induction l as [|[p w] l IH]; intros acc Hl Ha; [exact Ha|]. inversion_clear Hl as [|? ? Hp Hl']. cbn [fold_left fst snd]. apply IH; [exact Hl'|].
    induction Ha as [|[q v] acc Hq Ha IHa]; cbn [add_combination]; [constructor; [exact Hp|constructor]|].
    destruct (pair_eqb p q); constructor; assumption.
  Qed.
End Loop.

Section Combos.
  Context {K : Type} {C : CRing K}.
  Local Open Scope K_scope.
  Add Ring KringCsf4 : (@rth K C).
  Definition combo (reverse : bool) (bra ket : csf (K:=K)) (ij : nat * nat) : (dstr * dstr) * K :=
    let bi := nth (fst ij) (snd bra) [] in let kj := nth (snd ij) (snd ket) [] in
    (sorted_pair reverse bi kj, nth (fst ij) (fst bra) 0 * nth (snd ij) (fst ket) 0 * sign_num (get_reordering_sign bi) * sign_num (get_reordering_sign kj)).
  Lemma all_combinations_ok reverse (bra ket : csf (K:=K)) :
    (List.length (snd bra) <= List.length (fst bra))%nat -> (List.length (snd ket) <= List.length (fst ket))%nat ->
    all_combinations reverse bra ket = Ok (map (combo reverse bra ket) (list_prod (seq 0 (List.length (snd bra))) (seq 0 (List.length (snd ket))))).
  Proof.
    intros H1 H2. unfold all_combinations.
    assert (forall l acc, (forall ij, In ij l -> (fst ij < List.length (fst bra))%nat /\ (snd ij < List.length (fst ket))%nat) ->
      fold_left (fun acc ij => bind acc (fun acc => bind (combination reverse bra ket (fst ij) (snd ij)) (fun e => Ok (acc ++ [e])))) l (Ok acc)
      = Ok (acc ++ map (combo reverse bra ket) l)) as H.
    { induction l as [|[i j] l IH]; intros acc Hl; [cbn; now rewrite app_nil_r|]. cbn [fold_left bind fst snd]. destruct (Hl (i, j) (or_introl eq_refl)) as [Hi Hj]. cbn [fst snd] in *.
      unfold combination, get_coeff. rewrite (nth_error_nth' (fst bra) 0 Hi), (nth_error_nth' (fst ket) 0 Hj). cbn [bind].
      rewrite IH by (intros; apply Hl; now right). cbn [map]. rewrite <- app_assoc. reflexivity. }
    rewrite H; [reflexivity|]. intros [i j] Hin. apply in_prod_iff in Hin as [Hi Hj]. apply in_seq in Hi, Hj. cbn. lia.
  Qed.
  Lemma lsum_combine (c : csf (K:=K)) (F : K * dstr -> K) : (List.length (snd c) <= List.length (fst c))%nat ->
    lsum (combine (fst c) (snd c)) F = lsum (seq 0 (List.length (snd c))) (fun i => F (nth i (fst c) 0, nth i (snd c) [])).
  Proof.
    destruct c as [cs ds]. cbn [fst snd]. revert cs. induction ds as [|d ds IH]; intros [|c cs] Hl; cbn [List.length] in Hl; try lia; try reflexivity.
    cbn [combine List.length seq]. rewrite !lsum_cons. cbn [nth]. rewrite IH by lia. f_equal. rewrite <- seq_shift, lsum_map. reflexivity.
  Qed.
  Lemma lsum_prod {I J} (l : list I) (m : list J) (F : I * J -> K) : lsum (list_prod l m) F = lsum l (fun i => lsum m (fun j => F (i, j))).
  Proof.
    induction l as [|i l IH]; [reflexivity|]. cbn [list_prod]. rewrite lsum_app, lsum_cons, lsum_map, IH. reflexivity.
  Qed.
End Combos.
