(** Proofs about the circuits for single excitations. *)
From Coq Require Import List Bool Arith NArith ZArith Lia Ring.
From Verif Require Import Base Fock FockMore OperatorsSums CliqueModel QubitModel QubitProofs.
Import ListNotations.
Local Open Scope list_scope.

Section Gen.
  Context {K : Type} {C : CRing K}.
  Local Open Scope K_scope.
  Add Ring KringQG : (@rth K C).
  (** Parity of the occupations of the positions [lo, lo + len). *)
  Fixpoint par (x : N) (lo len : nat) : bool := match len with O => false | S m => xorb (occ x lo) (par x (S lo) m) end.
  Lemma par_below x lo len : xorb (below x lo) (below x (lo + len)) = par x lo len.
  Proof.
    revert lo. induction len as [|len IH]; intros lo; cbn [par]; [rewrite Nat.add_0_r; apply xorb_nilpotent|].
    rewrite <- IH. replace (lo + S len)%nat with (S lo + len)%nat by lia. cbn [below]. destruct (occ x lo), (below x lo), (below x (S lo + len)); reflexivity.
  Qed.
  (** ** The generator of a single excitation *)
  Definition gen1 (k i : nat) : list (list (nat * bool) * K) := [([(k, true); (i, false)], 1); ([(i, true); (k, false)], - (1))].
  Lemma gen1_eq k i (psi : amps) x : (i < k)%nat ->
    opapp (gen1 k i) psi x =
      if Bool.eqb (occ x k) (occ x i) then 0
      else sgn (negb (occ x k)) (sgn (par x (i + 1) (k - i - 1)) (psi (flip (flip x k) i))).
  Proof.
    intros H. unfold gen1. cbn [opapp appstr]. unfold app1. cbn [fst snd].
    rewrite !(occ_flip_other x k i), !(occ_flip_other x i k) by lia.
    assert (below (flip x k) i = below x i) as -> by (apply below_flip_ge; lia).
    assert (below (flip x i) k = negb (below x k)) as -> by (apply below_flip_lt; lia).
    rewrite (flip_comm x i k). replace (below x k) with (xorb (xorb (occ x i) (below x i)) (par x (i + 1) (k - i - 1))).
    2: { rewrite <- par_below. replace (i + 1 + (k - i - 1))%nat with k by lia. replace (i + 1)%nat with (S i) by lia. cbn [below]. destruct (occ x i), (below x i), (below x k); reflexivity. }
    destruct (occ x k) eqn:Ek, (occ x i) eqn:Ei; cbn [Bool.eqb negb xorb sgn]; try ring;
      destruct (below x i), (par x (i + 1) (k - i - 1)); cbn [xorb negb sgn]; ring.
  Qed.
  Lemma par_ext x y lo len : (forall q, (lo <= q < lo + len)%nat -> occ x q = occ y q) -> par x lo len = par y lo len.
  Proof.
    revert lo. induction len as [|len IH]; intros lo H; [reflexivity|]. cbn [par]. rewrite H by lia. f_equal. apply IH. intros q Hq. apply H. lia.
  Qed.
  Lemma gen1_cube k i (psi : amps) x : (i < k)%nat ->
    opapp (gen1 k i) (opapp (gen1 k i) (opapp (gen1 k i) psi)) x = - opapp (gen1 k i) psi x.
  Proof.
    intros H. rewrite !gen1_eq by assumption. repeat (rewrite ?occ_flip_same, ?(occ_flip_other _ i k), ?(occ_flip_other _ k i) by lia).
    assert (par (flip (flip x k) i) (i + 1) (k - i - 1) = par x (i + 1) (k - i - 1)) as E by (apply par_ext; intros q Hq; now rewrite !occ_flip_other by lia).
    rewrite (flip_comm (flip x k) i k), (flip_flip x k), flip_flip. rewrite E.
    destruct (occ x k), (occ x i); cbn [Bool.eqb negb]; try ring; destruct (par x (i + 1) (k - i - 1)); cbn [sgn]; ring.
  Qed.
End Gen.

Section Circ.
  Context {K : Type} {C : CRing K}.
  Local Open Scope K_scope.
  Add Ring KringQC : (@rth K C).
  Notation cx := (K * K)%type.
  Add Ring CxringQC : (@rth cx Cx_CRing).
  Notation qstate := (qstate (K:=K)).
  Notation gate := (gate (K:=K)).
  Infix "~~" := (qeq (K:=K)) (at level 70).

  Lemma gate_ext s2 g (a b : qstate) : a ~~ b -> gate_sem s2 g a ~~ gate_sem s2 g b.
  Proof.
    intros H x. destruct g; cbn [gate_sem]; try (now apply app1q_ext); rewrite ?H; reflexivity.
  Qed.
  Lemma run_ext s2 gs (a b : qstate) : a ~~ b -> run s2 gs a ~~ run s2 gs b.
  Proof. revert a b. induction gs as [|g gs IH]; intros a b H; [exact H|]. cbn. apply IH. now apply gate_ext. Qed.
  Lemma run_cons s2 g gs (a : qstate) : run s2 (g :: gs) a = run s2 gs (gate_sem s2 g a).
  Proof. reflexivity. Qed.

  (** ** Controlled-not gates *)
  Definition cxf (c t : nat) (x : N) : N := if occ x c then flip x t else x.
  Lemma cxf_invol c t x : c <> t -> cxf c t (cxf c t x) = x.
  Proof. intros H. unfold cxf. destruct (occ x c) eqn:E; [rewrite occ_flip_other by auto; rewrite E; apply flip_flip|now rewrite E]. Qed.
  Lemma occ_cxf c t x q : occ (cxf c t x) q = if (q =? t)%nat then xorb (occ x t) (occ x c) else occ x q.
  Proof.
    unfold cxf. destruct (occ x c) eqn:E; destruct (Nat.eqb_spec q t) as [->|H]; rewrite ?occ_flip_same, ?occ_flip_other by auto; rewrite ?xorb_false_r, ?xorb_true_r; reflexivity.
  Qed.
  Lemma cxf_flip c t x q : q <> c -> cxf c t (flip x q) = flip (cxf c t x) q.
  Proof. intros H. unfold cxf. rewrite occ_flip_other by auto. destruct (occ x c); [apply flip_comm|reflexivity]. Qed.
  Lemma cxf_flip_control c t x : c <> t -> cxf c t (flip x c) = flip (flip (cxf c t x) c) t.
  Proof.
    intros H. unfold cxf. rewrite occ_flip_same. destruct (occ x c); cbn [negb]; [|reflexivity].
    rewrite (flip_comm (flip x t) c t), flip_flip. reflexivity.
  Qed.
  (** The permutation made by a list of controlled-not gates, as it acts on the
      argument of the state. *)
  Definition cxs (l : list (nat * nat)) (x : N) : N := fold_right (fun ct x => cxf (fst ct) (snd ct) x) x l.
  Lemma run_cxs s2 (l : list (nat * nat)) (psi : qstate) x : run s2 (map (fun ct => GCX (fst ct) (snd ct)) l) psi x = psi (cxs l x).
  Proof.
    revert psi. induction l as [|[c t] l IH]; intros psi; [reflexivity|]. cbn [map]. rewrite run_cons, IH. cbn [gate_sem cxs fold_right fst snd].
    change (fold_right _ x l) with (cxs l x). unfold cxf. now destruct (occ (cxs l x) c).
  Qed.
  Lemma cxs_app a b x : cxs (a ++ b) x = cxs a (cxs b x).
  Proof. unfold cxs. apply fold_right_app. Qed.
  Lemma cxs_rev l x : Forall (fun ct => fst ct <> snd ct) l -> cxs l (cxs (rev l) x) = x.
  Proof.
    intros H. revert x. induction H as [|[c t] l Hct _ IH]; intros x; [reflexivity|]. cbn [rev]. rewrite cxs_app.
    change (cxs ((c, t) :: l) ?y) with (cxf c t (cxs l y)). rewrite IH. cbn. now apply cxf_invol.
  Qed.
  Lemma cxs_rev' l x : Forall (fun ct => fst ct <> snd ct) l -> cxs (rev l) (cxs l x) = x.
  Proof. intros H. rewrite <- (rev_involutive l) at 2. apply cxs_rev. now apply Forall_rev. Qed.
  Lemma cxs_flip l q x : Forall (fun ct => fst ct <> q) l -> cxs l (flip x q) = flip (cxs l x) q.
  Proof.
    induction 1 as [|[c t] l Hc _ IH]; [reflexivity|]. change (cxs ((c, t) :: l) ?y) with (cxf c t (cxs l y)). rewrite IH. apply cxf_flip. cbn in Hc. auto.
  Qed.
  Lemma occ_cxs_other l q x : Forall (fun ct => snd ct <> q) l -> occ (cxs l x) q = occ x q.
  Proof.
    induction 1 as [|[c t] l Hc _ IH]; [reflexivity|]. change (cxs ((c, t) :: l) ?y) with (cxf c t (cxs l y)). rewrite occ_cxf.
    destruct (Nat.eqb_spec q t) as [->|]; [now elim Hc|]. exact IH.
  Qed.

  Definition ladder (lo len : nat) : list (nat * nat) := map (fun t => (t + 1, t)%nat) (seq lo len).
  (** After the ladder position [lo] holds the parity of [len + 1] positions. *)
  Lemma occ_ladder lo len x : occ (cxs (ladder lo len) x) lo = par x lo (S len).
  Proof.
    revert lo. induction len as [|len IH]; intros lo; [cbn; now rewrite xorb_false_r|]. unfold ladder. cbn [seq map].
    change (map _ (seq (S lo) len)) with (ladder (S lo) len). change (cxs ((lo + 1, lo)%nat :: ?l) ?y) with (cxf (lo + 1) lo (cxs l y)).
    rewrite occ_cxf, Nat.eqb_refl. replace (lo + 1)%nat with (S lo) by lia. rewrite IH. rewrite occ_cxs_other; [reflexivity|].
    unfold ladder. apply Forall_forall. intros ct H. apply in_map_iff in H as (t & <- & Ht). apply in_seq in Ht. cbn. lia.
  Qed.
  Lemma ladder_gates lo len : map (fun t => GCX (t + 1) t) (seq lo len) = map (fun ct => GCX (K:=K) (fst ct) (snd ct)) (ladder lo len).
  Proof. unfold ladder. now rewrite map_map. Qed.
  Lemma ladder_gates_rev lo len : map (fun t => GCX (t + 1) t) (rev (seq lo len)) = map (fun ct => GCX (K:=K) (fst ct) (snd ct)) (rev (ladder lo len)).
  Proof. unfold ladder. now rewrite <- map_rev, map_map. Qed.
  Lemma ladder_props lo len : Forall (fun ct => fst ct <> snd ct /\ (lo <= snd ct < lo + len)%nat /\ (lo < fst ct <= lo + len)%nat) (ladder lo len).
  Proof. apply Forall_forall. intros ct H. apply in_map_iff in H as (t & <- & Ht). apply in_seq in Ht. cbn. lia. Qed.

  (** [psi + sin A psi + (1 - cos) A A psi]. *)
  Definition closed (ct st : K) (A : list (list (nat * bool) * cx)) (psi : qstate) : qstate :=
    fun x => psi x + cre st * opapp A psi x + (1 - cre ct) * opapp A (opapp A psi) x.
  Lemma closed1_eq ct st k i psi x : (i < k)%nat ->
    closed ct st (gen1 k i) psi x =
      if Bool.eqb (occ x k) (occ x i) then psi x
      else cre ct * psi x + cre st * sgn (negb (occ x k)) (sgn (par x (i + 1) (k - i - 1)) (psi (flip (flip x k) i))).
  Proof.
    intros H. unfold closed. rewrite !gen1_eq by assumption. rewrite occ_flip_same, !(occ_flip_other _ i k), occ_flip_same, (occ_flip_other x k i) by lia.
    assert (par (flip (flip x k) i) (i + 1) (k - i - 1) = par x (i + 1) (k - i - 1)) as ->.
    { assert (forall lo len, (i < lo)%nat -> (lo + len <= k)%nat -> par (flip (flip x k) i) lo len = par x lo len) as Hp; [|apply Hp; lia].
      intros lo len; revert lo. induction len as [|len IH]; intros lo H1 H2; [reflexivity|]. cbn [par]. rewrite IH by lia. now rewrite !occ_flip_other by lia. }
    rewrite (flip_comm (flip x k) i k), (flip_flip x k), flip_flip.
    destruct (occ x k), (occ x i); cbn [Bool.eqb negb]; try (ring); destruct (par x (i + 1) (k - i - 1)); cbn [sgn]; ring.
  Qed.

  (** ** The ladder circuit *)
  Lemma occ_flip_if x c t : (if occ x c then flip x t else x) = cxf c t x.
  Proof. reflexivity. Qed.
  (** The block of gates between the ladders: a rotation of qubit [k] controlled by
      qubit [i], with the sign of qubit [z]. *)
  Lemma middle s2 ch sh z k i (psi : qstate) y : ch * ch + sh * sh = 1 -> z <> k -> i <> k -> z <> i ->
    run s2 [GCZ z k; GRY ch sh k; GCX i k; GRY ch (- sh) k; GCX i k; GCZ z k] psi y =
      if occ y i then cre (ch * ch - sh * sh) * psi y + cre (ch * sh + ch * sh) * sgn (negb (occ y k)) (sgn (occ y z) (psi (flip y k))) else psi y.
  Proof.
    intros H1 Hzk Hik Hzi. cbn [run fold_left gate_sem]. rewrite !app1q_eq.
    repeat (rewrite ?occ_flip_same, ?(occ_flip_other _ k z), ?(occ_flip_other _ k i), ?flip_flip by auto).
    assert (forall a b : cx, cre ch * cre ch + cre sh * cre sh = 1 -> True) as _ by auto.
    assert (cre (K:=K) ch * cre ch + cre sh * cre sh = 1) as HC. { unfold cre; cbn. unfold cmul, cadd; cbn. unfold cre. f_equal; [|ring]. transitivity (ch * ch + sh * sh); [ring|exact H1]. }
    assert (cre (ch * ch - sh * sh) = cre ch * cre ch - cre sh * cre sh) as -> by (unfold cre; cbn; unfold cmul, csub; cbn; f_equal; ring).
    assert (cre (ch * sh + ch * sh) = cre ch * cre sh + cre ch * cre sh) as -> by (unfold cre; cbn; unfold cmul, cadd; cbn; f_equal; ring).
    assert (cre (- sh) = - cre sh) as Eo by (unfold cre; cbn; unfold copp; cbn; f_equal; ring).
    destruct (occ y i) eqn:Ei, (occ y k) eqn:Ek, (occ y z) eqn:Ez; cbn [andb negb Bool.eqb mRY sgn]; rewrite ?Eo;
      repeat (rewrite ?occ_flip_same, ?(occ_flip_other _ k z), ?(occ_flip_other _ k i), ?flip_flip, ?Ei, ?Ek, ?Ez by auto; cbn [andb negb Bool.eqb mRY sgn]);
      rewrite ?Eo; try ring; try (transitivity ((cre ch * cre ch + cre sh * cre sh) * psi y); [ring|rewrite HC; ring]).
  Qed.

  Lemma run_app' s2 g g' (psi : qstate) x : run s2 (g ++ g') psi x = run s2 g' (run s2 g psi) x.
  Proof. now rewrite run_app. Qed.

  (** The ladder branch of [_single_excitation_efficient]. *)
  Lemma ladder_branch s2 ch sh k i (psi : qstate) x : ch * ch + sh * sh = 1 -> (i + 2 <= k)%nat ->
    run s2 ([GCX k i] ++ map (fun t => GCX (t + 1) t) (down_from (k - 2) i)
          ++ [GCZ (i + 1) k; GRY ch sh k; GCX i k; GRY ch (- sh) k; GCX i k; GCZ (i + 1) k]
          ++ map (fun t => GCX (t + 1) t) (range (i + 1) (k - 1)) ++ [GCX k i]) psi x
    = closed (ch * ch - sh * sh) (ch * sh + ch * sh) (gen1 k i) psi x.
  Proof.
    intros H1 Hik. set (L := ladder (i + 1) (k - 2 - i)).
    assert (map (fun t => GCX (K:=K) (t + 1) t) (down_from (k - 2) i) = map (fun ct => GCX (fst ct) (snd ct)) (rev L)) as -> by (unfold down_from, L; apply ladder_gates_rev).
    assert (map (fun t => GCX (K:=K) (t + 1) t) (range (i + 1) (k - 1)) = map (fun ct => GCX (fst ct) (snd ct)) L) as ->.
    { unfold range, L. replace (k - 1 - (i + 1))%nat with (k - 2 - i)%nat by lia. apply ladder_gates. }
    set (M := [GCZ (i + 1) k; GRY ch sh k; GCX i k; GRY ch (- sh) k; GCX i k; GCZ (i + 1) k]).
    set (G := map (fun ct => GCX (K:=K) (fst ct) (snd ct))).
    replace ([GCX k i] ++ G (rev L) ++ M ++ G L ++ [GCX k i]) with (G ((k, i) :: rev L) ++ M ++ G (L ++ [(k, i)])).
    2: { unfold G. rewrite map_app. reflexivity. }
    rewrite !run_app'. unfold G at 1. rewrite run_cxs. set (y := cxs (L ++ [(k, i)]) x).
    pose proof (ladder_props (i + 1) (k - 2 - i)) as HL. fold L in HL.
    assert (Forall (fun ct : nat * nat => fst ct <> snd ct) (L ++ [(k, i)])) as Hne.
    { apply Forall_app. split; [eapply Forall_impl; [|exact HL]; cbn; tauto|]. repeat constructor. cbn. lia. }
    assert (forall z, cxs ((k, i) :: rev L) (cxs (L ++ [(k, i)]) z) = z) as Hback.
    { intros z. replace ((k, i) :: rev L) with (rev (L ++ [(k, i)])) by (now rewrite rev_app_distr).
      rewrite <- (rev_involutive (L ++ [(k, i)])) at 2. apply cxs_rev. apply Forall_rev. exact Hne. }
    assert (y = cxs L (cxf k i x)) as Ey by (unfold y; now rewrite cxs_app).
    assert (occ y k = occ x k) as Yk.
    { rewrite Ey, occ_cxs_other; [rewrite occ_cxf; destruct (Nat.eqb_spec k i); [lia|reflexivity]|]. eapply Forall_impl; [|exact HL]. cbn. intros; lia. }
    assert (occ y i = xorb (occ x i) (occ x k)) as Yi.
    { rewrite Ey, occ_cxs_other; [now rewrite occ_cxf, Nat.eqb_refl|]. eapply Forall_impl; [|exact HL]. cbn. intros; lia. }
    assert (occ y (i + 1) = par x (i + 1) (k - i - 1)) as Yz.
    { rewrite Ey. unfold L. rewrite occ_ladder. replace (S (k - 2 - i)) with (k - i - 1)%nat by lia.
      assert (forall lo len, (i < lo)%nat -> par (cxf k i x) lo len = par x lo len) as Hp; [|apply Hp; lia].
      intros lo len; revert lo. induction len as [|len IH]; intros lo Hlo; [reflexivity|]. cbn [par]. rewrite IH by lia. rewrite occ_cxf.
      destruct (Nat.eqb_spec lo i); [lia|reflexivity]. }
    unfold M. rewrite middle by (assumption || lia). rewrite closed1_eq by lia. rewrite Yi, Yk, Yz.
    replace (run s2 (G ((k, i) :: rev L)) psi y) with (psi x) by (unfold G; rewrite run_cxs; unfold y; now rewrite Hback).
    replace (run s2 (G ((k, i) :: rev L)) psi (flip y k)) with (psi (flip (flip x k) i)).
    - destruct (occ x k), (occ x i); reflexivity.
    - unfold G. rewrite run_cxs. f_equal. change (cxs ((k, i) :: rev L) ?z) with (cxf k i (cxs (rev L) z)).
      rewrite cxs_flip by (apply Forall_rev; eapply Forall_impl; [|exact HL]; cbn; intros; lia).
      rewrite cxf_flip_control by lia. change (cxf k i (cxs (rev L) y)) with (cxs ((k, i) :: rev L) y). unfold y. now rewrite Hback.
  Qed.

  (** ** The circuit for neighbouring qubits *)
  Section Pair.
    Variables (x : N) (i k : nat).
    Hypothesis Hik : i <> k.
    Definition at2 (a b : bool) : N := setq (setq x i a) k b.
    Lemma at2_self : at2 (occ x i) (occ x k) = x.
    Proof. unfold at2. rewrite (setq_same x i). apply setq_same. Qed.
    Lemma at2_flip : flip (flip x k) i = at2 (negb (occ x i)) (negb (occ x k)).
    Proof.
      apply det_ext. intros q. unfold at2. rewrite !occ_setq. destruct (Nat.eqb_spec q k) as [->|Hk]; [rewrite occ_flip_other by auto; apply occ_flip_same|].
      destruct (Nat.eqb_spec q i) as [->|Hi]; [now rewrite occ_flip_same, occ_flip_other by auto|]. now rewrite !occ_flip_other by auto.
    Qed.
    Lemma at2_occ_i a b : occ (at2 a b) i = a.
    Proof. unfold at2. rewrite !occ_setq, Nat.eqb_refl. destruct (Nat.eqb_spec i k); [contradiction|reflexivity]. Qed.
    Lemma at2_occ_k a b : occ (at2 a b) k = b.
    Proof. unfold at2. now rewrite !occ_setq, Nat.eqb_refl. Qed.
    Lemma at2_set_i a b a' : setq (at2 a b) i a' = at2 a' b.
    Proof. apply det_ext. intros q. unfold at2. rewrite !occ_setq. destruct (Nat.eqb_spec q i), (Nat.eqb_spec q k); subst; try contradiction; reflexivity. Qed.
    Lemma at2_set_k a b b' : setq (at2 a b) k b' = at2 a b'.
    Proof. apply det_ext. intros q. unfold at2. rewrite !occ_setq. destruct (Nat.eqb_spec q i), (Nat.eqb_spec q k); subst; try contradiction; reflexivity. Qed.
    Lemma at2_flip_k a b : flip (at2 a b) k = at2 a (negb b).
    Proof. rewrite <- (at2_occ_k a b) at 2. rewrite <- setq_other. apply at2_set_k. Qed.
    Lemma at2_app_i m (psi : qstate) a b : app1q m i psi (at2 a b) = m a false * psi (at2 false b) + m a true * psi (at2 true b).
    Proof. unfold app1q. now rewrite at2_occ_i, !at2_set_i. Qed.
    Lemma at2_app_k m (psi : qstate) a b : app1q m k psi (at2 a b) = m b false * psi (at2 a false) + m b true * psi (at2 a true).
    Proof. unfold app1q. now rewrite at2_occ_k, !at2_set_k. Qed.
    Lemma at2_cx s2 (psi : qstate) a b : gate_sem s2 (GCX i k) psi (at2 a b) = psi (at2 a (xorb a b)).
    Proof. cbn [gate_sem]. rewrite at2_occ_i. destruct a, b; try reflexivity; now rewrite at2_flip_k. Qed.
  End Pair.

  Lemma adjacent_branch s2 ch sh cq k i (psi : qstate) x : ch * ch + sh * sh = 1 -> cq * cq + cq * cq = 1 -> (k = i + 1)%nat ->
    run s2 [GRZ cq cq i; GRX cq cq i; GRX cq cq k; GCX i k; GRX ch sh i; GRZ ch sh k; GCX i k;
          GRX cq (- cq) k; GRX cq (- cq) i; GRZ cq (- cq) i] psi x
    = closed (ch * ch - sh * sh) (ch * sh + ch * sh) (gen1 k i) psi x.
  Proof.
    intros H1 H2 Hk. rewrite closed1_eq by lia. replace (k - i - 1)%nat with 0%nat by lia. cbn [par sgn].
    assert (i <> k) as Hik by lia. rewrite (at2_flip x i k Hik).
    assert (forall a b, run s2 [GRZ cq cq i; GRX cq cq i; GRX cq cq k; GCX i k; GRX ch sh i; GRZ ch sh k; GCX i k;
          GRX cq (- cq) k; GRX cq (- cq) i; GRZ cq (- cq) i] psi (at2 x i k a b) =
       if Bool.eqb b a then psi (at2 x i k a b)
       else cre (ch * ch - sh * sh) * psi (at2 x i k a b) + cre (ch * sh + ch * sh) * sgn (negb b) (psi (at2 x i k (negb a) (negb b)))) as H.
    2: { specialize (H (occ x i) (occ x k)). rewrite at2_self in H. exact H. }
    cbn [run fold_left]. change (gate_sem s2 (GRZ ?c ?s ?q)) with (app1q (mRZ c s) q). change (gate_sem s2 (GRX ?c ?s ?q)) with (app1q (mRX c s) q).
    set (v := app1q (mRX cq cq) k (app1q (mRX cq cq) i (app1q (mRZ cq cq) i psi))).
    set (w := gate_sem s2 (GCX i k) (app1q (mRZ ch sh) k (app1q (mRX ch sh) i (gate_sem s2 (GCX i k) v)))).
    assert (ci * ci = - (1 : cx)) as Hi by (unfold ci; cbn; unfold cmul, copp, cre; cbn; f_equal; ring).
    assert (forall a b, w (at2 x i k a b) = (if xorb a b then cre ch + ci * cre sh else cre ch - ci * cre sh) * (cre ch * v (at2 x i k a b) - ci * cre sh * v (at2 x i k (negb a) (negb b)))) as Hw.
    { intros a b. unfold w. rewrite (at2_cx x i k Hik), (at2_app_k x i k Hik), !(at2_app_i x i k Hik), !(at2_cx x i k Hik). unfold mRZ, mRX.
      destruct a, b; cbn [xorb Bool.eqb negb]; ring. }
    set (q := cre cq) in *.
    assert (forall a b, v (at2 x i k a b) = q * q * q * (
        (if b then 1 else - ci) * ((if a then - (ci * (1 - ci)) else (1 - ci)) * psi (at2 x i k false true) + (if a then (1 + ci) else - (ci * (1 + ci))) * psi (at2 x i k true true))
      + (if b then - ci else 1) * ((if a then - (ci * (1 - ci)) else (1 - ci)) * psi (at2 x i k false false) + (if a then (1 + ci) else - (ci * (1 + ci))) * psi (at2 x i k true false)))) as Hv.
    { intros a b. unfold v. rewrite (at2_app_k x i k Hik), !(at2_app_i x i k Hik). unfold mRZ, mRX.
      destruct a, b; cbn [xorb Bool.eqb negb]; fold q; ring. }
    assert (cre (K:=K) (- cq) = - q) as Eo by (unfold q, cre; cbn; unfold copp; cbn; f_equal; ring).
    assert (q * q + q * q = 1) as Hq. { unfold q, cre; cbn. unfold cmul, cadd, cre; cbn. f_equal; [|ring]. transitivity (cq * cq + cq * cq); [ring|exact H2]. }
    assert (cre (ch * ch - sh * sh) = cre ch * cre ch - cre sh * cre sh) as -> by (unfold cre; cbn; unfold cmul, csub; cbn; f_equal; ring).
    assert (cre (ch * sh + ch * sh) = cre ch * cre sh + cre ch * cre sh) as -> by (unfold cre; cbn; unfold cmul, cadd; cbn; f_equal; ring).
    assert (cre (K:=K) ch * cre ch + cre sh * cre sh = 1) as HC. { unfold cre; cbn. unfold cmul, cadd; cbn. unfold cre. f_equal; [|ring]. transitivity (ch * ch + sh * sh); [ring|exact H1]. }
    intros a b. rewrite !(at2_app_i x i k Hik), !(at2_app_k x i k Hik), !Hw, !Hv. unfold mRZ, mRX. rewrite !Eo. fold q. clearbody q. clear v w Hw Hv.
    generalize dependent (cre (K:=K) ch). generalize dependent (cre (K:=K) sh). intros s c HC.
    destruct a, b; cbn [xorb Bool.eqb negb sgn];
      generalize (psi (at2 x i k true true)) (psi (at2 x i k true false)) (psi (at2 x i k false true)) (psi (at2 x i k false false)); intros p1 p2 p3 p4.
    - transitivity ((q * q + q * q) * (q * q + q * q) * (q * q + q * q) * ((c * c + s * s) * p1)); [ring [Hi]|rewrite Hq, HC; ring].
    - transitivity ((q * q + q * q) * (q * q + q * q) * (q * q + q * q) * ((c * c - s * s) * p2 + (c * s + c * s) * - p3)); [ring [Hi]|rewrite Hq; ring].
    - transitivity ((q * q + q * q) * (q * q + q * q) * (q * q + q * q) * ((c * c - s * s) * p3 + (c * s + c * s) * p2)); [ring [Hi]|rewrite Hq; ring].
    - transitivity ((q * q + q * q) * (q * q + q * q) * (q * q + q * q) * ((c * c + s * s) * p4)); [ring [Hi]|rewrite Hq, HC; ring].
  Qed.
End Circ.
