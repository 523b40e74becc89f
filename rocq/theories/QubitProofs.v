(** Facts about one-qubit operations and the measurement circuits. *)
From Coq Require Import List Bool Arith NArith ZArith Lia Ring Permutation.
From Verif Require Import Base Fock FockMore OperatorsSums FockInner CliqueModel CliqueProofs CliquePost QubitModel.
Import ListNotations.
Local Open Scope list_scope.

Section OneQubit.
  Context {K : Type} {C : CRing K}.
  Local Open Scope K_scope.
  Add Ring KringQP : (@rth K C).
  Notation cx := (K * K)%type.
  Add Ring CxringQP : (@rth cx Cx_CRing).
  Notation qstate := (qstate (K:=K)).
  Notation mat := (bool -> bool -> cx).

  Definition qeq (a b : qstate) : Prop := forall x, a x = b x.
  Infix "~~" := qeq (at level 70).
  Lemma qeq_refl a : a ~~ a. Proof. intros x; reflexivity. Qed.
  Lemma qeq_sym a b : a ~~ b -> b ~~ a. Proof. intros H x; now rewrite H. Qed.
  Lemma qeq_trans a b c : a ~~ b -> b ~~ c -> a ~~ c. Proof. intros H H' x; now rewrite H. Qed.

  Lemma setq_same x q : setq x q (occ x q) = x.
  Proof. unfold setq. now rewrite eqb_reflx. Qed.
  Lemma setq_other x q : setq x q (negb (occ x q)) = flip x q.
  Proof. unfold setq. now destruct (occ x q). Qed.
  Lemma occ_setq x q b q' : occ (setq x q b) q' = if (q' =? q)%nat then b else occ x q'.
  Proof.
    unfold setq. destruct (Bool.eqb (occ x q) b) eqn:E.
    - apply eqb_prop in E. destruct (Nat.eqb_spec q' q) as [->|]; [exact E|reflexivity].
    - destruct (Nat.eqb_spec q' q) as [->|H]; [rewrite occ_flip_same; now destruct (occ x q), b|]. apply occ_flip_other. auto.
  Qed.
  Lemma app1q_eq m q (psi : qstate) x :
    app1q m q psi x = m (occ x q) (occ x q) * psi x + m (occ x q) (negb (occ x q)) * psi (flip x q).
  Proof.
    unfold app1q, setq. destruct (occ x q) eqn:E; cbn [Bool.eqb negb].
    - ring.
    - reflexivity.
  Qed.
  Lemma app1q_ext m q (a b : qstate) : a ~~ b -> app1q m q a ~~ app1q m q b.
  Proof. intros H x. unfold app1q. now rewrite !H. Qed.
  Lemma app1q_mat m m' q (a : qstate) : (forall r c, m r c = m' r c) -> app1q m q a ~~ app1q m' q a.
  Proof. intros H x. unfold app1q. now rewrite !H. Qed.

  Definition mid : mat := fun r c => if Bool.eqb r c then 1 else 0.
  Definition mmul (a b : mat) : mat := fun r c => a r false * b false c + a r true * b true c.
  Definition mdag (a : mat) : mat := fun r c => cconj (a c r).
  Lemma app1q_mid q a : app1q mid q a ~~ a.
  Proof. intros x. rewrite app1q_eq. unfold mid. destruct (occ x q); cbn [Bool.eqb negb]; ring. Qed.
  Lemma app1q_mul m m' q a : app1q m q (app1q m' q a) ~~ app1q (mmul m m') q a.
  Proof.
    intros x. rewrite app1q_eq, !app1q_eq, occ_flip_same, flip_flip. unfold mmul. destruct (occ x q); cbn [negb]; ring.
  Qed.
  Lemma app1q_comm m m' q q' a : q <> q' -> app1q m q (app1q m' q' a) ~~ app1q m' q' (app1q m q a).
  Proof.
    intros H x. rewrite !app1q_eq, !(occ_flip_other x q q'), !(occ_flip_other x q' q), (flip_comm x q q') by auto. ring.
  Qed.

  (** Inner product over [n] qubits. *)
  Definition cip (n : nat) (a b : qstate) : cx := lsum (alldets n) (fun x => cconj (a x) * b x).
  Lemma cip_ext n a a' b b' : a ~~ a' -> b ~~ b' -> cip n a b = cip n a' b'.
  Proof. intros H1 H2. apply lsum_ext. intros x _. now rewrite H1, H2. Qed.
  Lemma cconj_add (a b : cx) : cconj (a + b) = cconj a + cconj b.
  Proof. destruct a, b. unfold cconj; cbn. unfold cadd; cbn. f_equal. ring. Qed.
  Lemma cconj_mul (a b : cx) : cconj (a * b) = cconj a * cconj b.
  Proof. destruct a, b. unfold cconj; cbn. unfold cmul; cbn. f_equal; ring. Qed.
  Lemma cconj_invol (a : cx) : cconj (cconj a) = a.
  Proof. destruct a. unfold cconj; cbn. f_equal. ring. Qed.
  Lemma alldets_flip n q : (q < n)%nat -> Permutation (alldets n) (map (fun d => flip d q) (alldets n)).
  Proof.
    intros Hq. apply NoDup_Permutation; [apply alldets_NoDup| |].
    - apply NoDup_map_inj; [intros ? ?; apply flip_inj|apply alldets_NoDup].
    - intros d. rewrite in_map_iff. split.
      + intros H. exists (flip d q). split; [apply flip_flip|]. apply in_alldets. intros q' Hq'.
        rewrite occ_flip_other by lia. now apply (in_alldets n).
      + intros (e & <- & He). apply in_alldets. intros q' Hq'. rewrite occ_flip_other by lia. now apply (in_alldets n).
  Qed.
  Lemma cip_adjoint n m q a b : (q < n)%nat -> cip n (app1q m q a) b = cip n a (app1q (mdag m) q b).
  Proof.
    intros Hq. unfold cip.
    transitivity (lsum (alldets n) (fun x => cconj (m (occ x q) (occ x q) * a x) * b x) + lsum (alldets n) (fun x => cconj (m (occ x q) (negb (occ x q)) * a (flip x q)) * b x)).
    { rewrite <- lsum_add. apply lsum_ext. intros x _. rewrite app1q_eq, cconj_add. ring. }
    rewrite (lsum_perm _ _ (fun x => cconj (m (occ x q) (negb (occ x q)) * a (flip x q)) * b x) (alldets_flip n q Hq)), lsum_map.
    rewrite <- lsum_add. apply lsum_ext. intros x _. rewrite flip_flip, occ_flip_same, negb_involutive, app1q_eq, !cconj_mul. unfold mdag. ring.
  Qed.

  (** Products of one-qubit operations. *)
  Definition ops (l : list (nat * mat)) (psi : qstate) : qstate := fold_left (fun psi im => app1q (snd im) (fst im) psi) l psi.
  Lemma ops_ext l a b : a ~~ b -> ops l a ~~ ops l b.
  Proof. revert a b. induction l as [|[i m] l IH]; intros a b H; [exact H|]. cbn. apply IH. now apply app1q_ext. Qed.
  Lemma ops_comm l m i a : ~ In i (map fst l) -> ops l (app1q m i a) ~~ app1q m i (ops l a).
  Proof.
    revert a. induction l as [|[j m'] l IH]; intros a H; [apply qeq_refl|]. cbn [ops fold_left fst snd]. change (fold_left _ l ?s) with (ops l s).
    apply qeq_trans with (ops l (app1q m i (app1q m' j a))).
    - apply ops_ext. apply app1q_comm. intros E. apply H. now left.
    - apply IH. intros Hi. apply H. now right.
  Qed.

  (** A rotated diagonal measurement of a product operator. *)
  Lemma cip_rotated n (l : list (nat * (mat * (mat * mat)))) : NoDup (map fst l) -> Forall (fun e => (fst e < n)%nat) l ->
    Forall (fun e => forall r c, mmul (mdag (fst (snd e))) (mmul (fst (snd (snd e))) (fst (snd e))) r c = snd (snd (snd e)) r c) l ->
    let U := map (fun e => (fst e, fst (snd e))) l in
    let Z := map (fun e => (fst e, fst (snd (snd e)))) l in
    let P := map (fun e => (fst e, snd (snd (snd e)))) l in
    forall a b, cip n (ops U a) (ops Z (ops U b)) = cip n a (ops P b).
  Proof.
    induction l as [|[i [u [z p]]] l IH]; intros Hnd Hn Hm U Z P a b; [reflexivity|]. cbn [map fst snd] in U, Z, P.
    inversion_clear Hnd as [|? ? Hi Hnd']. inversion_clear Hn as [|? ? Hin Hn']. inversion_clear Hm as [|? ? Hup Hm']. cbn [fst snd] in *.
    specialize (IH Hnd' Hn' Hm'). cbv zeta in IH. set (U' := map (fun e => (fst e, fst (snd e))) l) in *. set (Z' := map (fun e => (fst e, fst (snd (snd e)))) l) in *.
    set (P' := map (fun e => (fst e, snd (snd (snd e)))) l) in *.
    assert (~ In i (map fst U')) as HU by (unfold U'; rewrite map_map; exact Hi).
    assert (~ In i (map fst Z')) as HZ by (unfold Z'; rewrite map_map; exact Hi).
    unfold U, Z, P. cbn [ops fold_left fst snd]. change (fold_left _ ?l ?s) with (ops l s).
    rewrite (cip_ext n _ (app1q u i (ops U' a)) _ (app1q (mmul z u) i (ops Z' (ops U' b)))).
    - rewrite cip_adjoint by assumption.
      rewrite (cip_ext n (ops U' a) (ops U' a) _ (ops Z' (ops U' (app1q p i b)))).
      + apply IH.
      + apply qeq_refl.
      + apply qeq_trans with (app1q p i (ops Z' (ops U' b))).
        * eapply qeq_trans; [apply app1q_mul|]. now apply app1q_mat.
        * apply qeq_sym. eapply qeq_trans; [apply ops_ext; apply ops_comm; exact HU|]. now apply ops_comm.
    - now apply ops_comm.
    - eapply qeq_trans; [apply ops_comm; exact HZ|]. eapply qeq_trans; [apply app1q_ext; apply ops_ext; apply ops_comm; exact HU|].
      eapply qeq_trans; [apply app1q_ext; apply ops_comm; exact HZ|]. apply app1q_mul.
  Qed.

  (** ** Pauli operators *)
  Definition mY : mat := fun r c => if Bool.eqb r c then 0 else if r then ci else - ci.
  Definition mZ : mat := fun r c => if Bool.eqb r c then (if r then - (1) else 1) else 0.
  Definition mletter (l : letter) : mat := match l with LI => mid | LX => mX | LY => mY | LZ => mZ end.
  (** The Pauli string [p]: its last letter acts on qubit 0. *)
  Definition pauli_app (p : pauli) (psi : qstate) : qstate :=
    ops (combine (seq 0 (List.length p)) (map mletter (rev p))) psi.

  Definition rot (s2 : K) (l : letter) : mat :=
    match l with LX => mH s2 | LY => mmul (mH s2) mSdg | _ => mid end.
  Lemma run_app s2 g g' (psi : qstate) : run s2 (g ++ g') psi = run s2 g' (run s2 g psi).
  Proof. unfold run. apply fold_left_app. Qed.
  Lemma run_measurement s2 (h : pauli) psi :
    run s2 (to_CBS_measurement h) psi ~~ ops (combine (seq 0 (List.length h)) (map (rot s2) (rev h))) psi.
  Proof.
    unfold to_CBS_measurement. rewrite <- (rev_length h). generalize (rev h) 0%nat. intros l. revert psi.
    assert (forall g (a b : qstate), a ~~ b -> run s2 g a ~~ run s2 g b) as Hext.
    { induction g as [|g gs IH]; intros a b H; [exact H|]. cbn. apply IH. intros x.
      destruct g; cbn [gate_sem]; try (now apply app1q_ext); rewrite ?H; try (destruct (occ x c); now rewrite ?H); try (destruct (occ x c && occ x t); now rewrite ?H); reflexivity. }
    induction l as [|c l IH]; intros psi s; [apply qeq_refl|]. cbn [List.length seq combine map flat_map fst snd ops fold_left].
    rewrite run_app. change (fold_left _ ?l ?s) with (ops l s).
    eapply qeq_trans; [apply Hext|apply IH]. destruct c; cbn [run fold_left gate_sem rot].
    - apply qeq_sym, app1q_mid.
    - apply qeq_refl.
    - apply app1q_mul.
    - apply qeq_sym, app1q_mid.
  Qed.
  Lemma pair_eq (a b : cx) : fst a = fst b -> snd a = snd b -> a = b.
  Proof. destruct a, b. cbn. intros -> ->. reflexivity. Qed.
  (** The measurement basis of a head diagonalises every letter that fits. *)
  Lemma rot_letter s2 (lp lh : letter) : s2 * s2 + s2 * s2 = 1 -> (lp <> LI -> lh = lp) ->
    forall r c, mmul (mdag (rot s2 lh)) (mmul (if letter_eqb lp LI then mid else mZ) (rot s2 lh)) r c = mletter lp r c.
  Proof.
    intros Hs Hl r c.
    destruct lp; [clear Hl; destruct lh|rewrite Hl by discriminate|rewrite Hl by discriminate|rewrite Hl by discriminate]; cbn [letter_eqb rot mletter];
      destruct r, c; unfold mmul, mdag, mid, mZ, mH, mX, mY, mSdg, ci; cbn [Bool.eqb andb]; apply pair_eq; cbn;
      match goal with |- ?L = ?R =>
        first [ring | transitivity (R + (s2 * s2 + s2 * s2 - 1)); [ring|rewrite Hs; ring]
              | transitivity (R - (s2 * s2 + s2 * s2 - 1)); [ring|rewrite Hs; ring]] end.
  Qed.

  (** ** Signs *)
  Definition parity (op : pauli) (x : N) : bool :=
    fold_right xorb false (map (fun il => negb (letter_eqb (snd il) LI) && occ x (fst il)) (combine (seq 0 (List.length op)) (rev op))).
  Lemma ops_diag l (a : qstate) : Forall (fun e : nat * letter => True) l ->
    forall x, ops (map (fun e : nat * letter => (fst e, if letter_eqb (snd e) LI then mid else mZ)) l) a x
      = cre (sgn (fold_right xorb false (map (fun il => negb (letter_eqb (snd il) LI) && occ x (fst il)) l)) 1) * a x.
  Proof.
    intros _. revert a. induction l as [|[i c] l IH]; intros a x.
    - cbn. apply pair_eq; cbn; ring.
    - cbn [map ops fold_left fst snd fold_right]. change (fold_left _ ?l ?s) with (ops l s). rewrite IH.
      rewrite app1q_eq. set (s := fold_right xorb false _). unfold mid, mZ. apply pair_eq; destruct (letter_eqb c LI), (occ x i), s; cbn; ring.
  Qed.

  Lemma filter_seq_trunc (g : nat -> bool) a b : (a <= b)%nat -> (forall i, (a <= i < b)%nat -> g i = false) ->
    List.length (filter g (seq 0 b)) = List.length (filter g (seq 0 a)).
  Proof.
    intros Hab H. replace b with (a + (b - a))%nat by lia. rewrite seq_app, filter_app, app_length. cbn [Nat.add].
    replace (filter g (seq a (b - a))) with (@nil nat); [cbn; lia|]. symmetry.
    assert (forall l, (forall i, In i l -> g i = false) -> filter g l = []) as HF by (induction l as [|y l IH]; intros Hl; [reflexivity|]; cbn; rewrite (Hl y (or_introl eq_refl)); apply IH; intros; apply Hl; now right).
    apply HF. intros i Hi. apply in_seq in Hi. apply H. lia.
  Qed.
  Lemma bit_count_bits (y : N) m : (forall i, (m <= i)%nat -> N.testbit y (N.of_nat i) = false) ->
    bit_count y = List.length (filter (fun i => N.testbit y (N.of_nat i)) (seq 0 m)).
  Proof.
    intros H. unfold bit_count. set (g i := N.testbit y (N.of_nat i)). destruct (Nat.le_gt_cases (N.size_nat y) m).
    - symmetry. apply filter_seq_trunc; [assumption|]. intros i Hi. apply testbit_high. lia.
    - apply filter_seq_trunc; [lia|]. intros i Hi. apply H. lia.
  Qed.
  Lemma odd_filter {A} (g : A -> bool) l : Nat.odd (List.length (filter g l)) = fold_right xorb false (map g l).
  Proof.
    induction l as [|a l IH]; [reflexivity|]. cbn [filter map fold_right]. destruct (g a); cbn [List.length]; rewrite <- IH; [|now rewrite xorb_false_l].
    rewrite Nat.odd_succ, <- Nat.negb_odd. now destruct (Nat.odd _).
  Qed.
  Lemma bitstring_sign op x : op <> [] -> get_bitstring_sign (K:=K) op x = Ok (sgn (parity op x) 1).
  Proof.
    intros Hne. unfold get_bitstring_sign. destruct op as [|l0 op0]; [easy|]. set (op := l0 :: op0) in *. clearbody op. clear l0 op0.
    set (s := map (fun l => negb (letter_eqb l LI)) op).
    assert (forall j, N.testbit (N.land (int_of_bits s) x) (N.of_nat j) = nth j (rev s) false && occ x j) as Hb.
    { intros j. rewrite N.land_spec, int_of_bits_testbit. unfold occ. f_equal. destruct (Nat.ltb_spec j (List.length s)).
      - rewrite rev_nth by assumption. f_equal. lia.
      - now rewrite nth_overflow by (rewrite rev_length; lia). }
    assert (List.length s = List.length op) as Hl by (unfold s; apply map_length).
    rewrite (bit_count_bits _ (List.length op)).
    2: { intros i Hi. rewrite Hb, nth_overflow by (rewrite rev_length; lia). reflexivity. }
    rewrite mod2_odd, odd_filter. unfold parity. rewrite (map_ext _ _ Hb).
    assert (fold_right xorb false (map (fun a => nth a (rev s) false && occ x a) (seq 0 (List.length op)))
            = fold_right xorb false (map (fun il => negb (letter_eqb (snd il) LI) && occ x (fst il)) (combine (seq 0 (List.length op)) (rev op)))) as ->.
    { f_equal. unfold s. rewrite <- map_rev. rewrite <- (rev_length op). clear. generalize (rev op) as l.
      assert (forall l t, map (fun a => nth (a - t) (map (fun l => negb (letter_eqb l LI)) l) false && occ x a) (seq t (List.length l))
                = map (fun il : nat * letter => negb (letter_eqb (snd il) LI) && occ x (fst il)) (combine (seq t (List.length l)) l)) as H.
      { induction l as [|c l IH]; intros t; [reflexivity|]. cbn [List.length seq combine map fst snd]. rewrite Nat.sub_diag. cbn [nth]. f_equal.
        rewrite <- (IH (S t)). apply map_ext_in. intros a Ha. apply in_seq in Ha. replace (a - t)%nat with (S (a - S t)) by lia. reflexivity. }
      intros l. rewrite <- (H l 0%nat). apply map_ext. intros a. now rewrite Nat.sub_0_r. }
    destruct (fold_right xorb false _); reflexivity.
  Qed.

  Lemma lsum_re {A} (l : list A) (F : A -> cx) : fst (lsum l F) = lsum l (fun a => fst (F a)) /\ snd (lsum l F) = lsum l (fun a => snd (F a)).
  Proof. induction l as [|a l [IH1 IH2]]; [split; reflexivity|]. rewrite !lsum_cons. cbn. rewrite IH1, IH2. auto. Qed.

  Lemma in_combine_seq {A} (l : list A) t i c : In (i, c) (combine (seq t (List.length l)) l) -> (t <= i < t + List.length l)%nat /\ nth_error l (i - t) = Some c.
  Proof.
    revert t. induction l as [|a l IH]; intros t H; [destruct H|]. cbn [List.length seq combine In] in *. destruct H as [H|H].
    - injection H as <- <-. rewrite Nat.sub_diag. split; [lia|reflexivity].
    - destruct (IH _ H) as [Hr Hn]. split; [lia|]. replace (i - t)%nat with (S (i - S t)) by lia. exact Hn.
  Qed.

  (** Measuring in the basis of the head gives the expectation value of every
      Pauli string that fits. *)
  Lemma measurement_exact s2 (p h : pauli) (psi : qstate) : s2 * s2 + s2 * s2 = 1 -> measured_by p h ->
    let n := List.length p in
    let phi := run s2 (to_CBS_measurement h) psi in
    cip n psi (pauli_app p psi) = cre (lsum (alldets n) (fun x => cnorm2 (phi x) * sgn (parity p x) 1)).
  Proof.
    intros Hs [Hl Hm] n phi.
    set (L := combine (seq 0 n) (combine (rev p) (rev h))).
    set (l := map (fun e : nat * (letter * letter) => (fst e, (rot s2 (snd (snd e)), (if letter_eqb (fst (snd e)) LI then mid else mZ, mletter (fst (snd e)))))) L).
    assert (Lr : List.length (rev p) = n) by (unfold n; apply rev_length).
    assert (Lrh : List.length (rev h) = n) by (rewrite rev_length; unfold n; auto).
    assert (forall (a b : list letter) t, List.length a = List.length b ->
       map (fun e : nat * (letter * letter) => (fst e, snd (snd e))) (combine (seq t (List.length a)) (combine a b)) = combine (seq t (List.length b)) b /\
       map (fun e : nat * (letter * letter) => (fst e, fst (snd e))) (combine (seq t (List.length a)) (combine a b)) = combine (seq t (List.length a)) a /\
       map fst (combine (seq t (List.length a)) (combine a b)) = seq t (List.length a)) as Hproj.
    { induction a as [|x a IH]; intros [|y b] t Hab; cbn in Hab; try lia; [repeat split|]. cbn [List.length seq combine map fst snd].
      destruct (IH b (S t) ltac:(lia)) as (H1 & H2 & H3). rewrite H1, H2, H3. auto. }
    destruct (Hproj (rev p) (rev h) 0%nat ltac:(congruence)) as (J1 & J2 & J3). rewrite Lr in J1, J2, J3. rewrite Lrh in J1. fold L in J1, J2, J3.
    assert (map fst l = seq 0 n) as Hfst by (unfold l; rewrite map_map; exact J3).
    pose proof (cip_rotated n l) as R. rewrite Hfst in R. specialize (R (seq_NoDup n 0)).
    assert (Forall (fun e : nat * (mat * (mat * mat)) => (fst e < n)%nat) l) as Hlt.
    { apply Forall_forall. intros e He. apply (in_map fst) in He. rewrite Hfst in He. apply in_seq in He. lia. }
    specialize (R Hlt).
    assert (Forall (fun e : nat * (mat * (mat * mat)) => forall r c, mmul (mdag (fst (snd e))) (mmul (fst (snd (snd e))) (fst (snd e))) r c = snd (snd (snd e)) r c) l) as Hrot.
    { apply Forall_forall. intros e He. unfold l in He. apply in_map_iff in He as ([i [lp lh]] & <- & He). cbn [fst snd]. apply rot_letter; [exact Hs|].
      intros Hp. unfold L in He.
      pose proof He as He'. replace n with (List.length (combine (rev p) (rev h))) in He' by (rewrite combine_length; lia).
      apply in_combine_seq in He' as [Hr Hn]. rewrite Nat.sub_0_r in Hn.
      assert (forall (a b : list letter) i x y, nth_error (combine a b) i = Some (x, y) -> nth_error a i = Some x /\ nth_error b i = Some y) as Hce.
      { clear. induction a as [|u a IH]; intros [|v b] [|i] x y H; cbn in H; try discriminate; [injection H as <- <-; auto|]. cbn. now apply IH. }
      apply Hce in Hn as [Hn1 Hn2]. rewrite combine_length, Lr, Lrh, Nat.min_id in Hr.
      apply nth_error_nth with (d := LI) in Hn1, Hn2. rewrite rev_nth in Hn1 by (fold n; lia). rewrite rev_nth in Hn2 by (rewrite <- Hl; fold n; lia).
      rewrite <- Hl in Hn2. rewrite <- Hn1, <- Hn2. apply Hm. now rewrite Hn1. }
    specialize (R Hrot). cbv zeta in R. unfold l in R. rewrite !map_map in R. cbn [fst snd] in R. specialize (R psi psi).
    assert (map (fun x : nat * (letter * letter) => (fst x, mletter (fst (snd x)))) L = combine (seq 0 n) (map mletter (rev p))) as E1.
    { transitivity (map (fun e : nat * letter => (fst e, mletter (snd e))) (combine (seq 0 n) (rev p))); [rewrite <- J2, map_map; reflexivity|].
      clear. generalize 0%nat. generalize n. generalize (rev p). induction l as [|a l IH]; intros [|k] t; try reflexivity. cbn. f_equal. apply IH. }
    assert (map (fun x : nat * (letter * letter) => (fst x, rot s2 (snd (snd x)))) L = combine (seq 0 n) (map (rot s2) (rev h))) as E2.
    { transitivity (map (fun e : nat * letter => (fst e, rot s2 (snd e))) (combine (seq 0 n) (rev h))); [rewrite <- J1, map_map; reflexivity|].
      clear. generalize 0%nat. generalize n. generalize (rev h). induction l as [|a l IH]; intros [|k] t; try reflexivity. cbn. f_equal. apply IH. }
    rewrite E1, E2 in R. unfold pauli_app. fold n. rewrite <- R.
    assert (phi ~~ ops (combine (seq 0 n) (map (rot s2) (rev h))) psi) as Ephi.
    { unfold phi. eapply qeq_trans; [apply run_measurement|]. rewrite <- Hl. apply qeq_refl. }
    set (chi := ops (combine (seq 0 n) (map (rot s2) (rev h))) psi) in *.
    unfold cip. apply pair_eq.
    all: rewrite ?(proj1 (lsum_re _ _)), ?(proj2 (lsum_re _ _)); unfold cre; cbn [fst snd].
    - apply lsum_ext. intros x _. rewrite Ephi.
      assert (ops (map (fun x0 : nat * (letter * letter) => (fst x0, if letter_eqb (fst (snd x0)) LI then mid else mZ)) L) chi x = cre (sgn (parity p x) 1) * chi x) as ->.
      { replace (map (fun x0 : nat * (letter * letter) => (fst x0, if letter_eqb (fst (snd x0)) LI then mid else mZ)) L) with
          (map (fun e : nat * letter => (fst e, if letter_eqb (snd e) LI then mid else mZ)) (combine (seq 0 n) (rev p))) by (rewrite <- J2, map_map; reflexivity).
        rewrite ops_diag by now apply Forall_forall. reflexivity. }
      cbn. unfold cnorm2. ring.
    - apply lsum_zero. intros x _.
      assert (ops (map (fun x0 : nat * (letter * letter) => (fst x0, if letter_eqb (fst (snd x0)) LI then mid else mZ)) L) chi x = cre (sgn (parity p x) 1) * chi x) as ->.
      { replace (map (fun x0 : nat * (letter * letter) => (fst x0, if letter_eqb (fst (snd x0)) LI then mid else mZ)) L) with
          (map (fun e : nat * letter => (fst e, if letter_eqb (snd e) LI then mid else mZ)) (combine (seq 0 n) (rev p))) by (rewrite <- J2, map_map; reflexivity).
        rewrite ops_diag by now apply Forall_forall. reflexivity. }
      cbn. ring.
  Qed.
End OneQubit.
