(** Excited states of naive linear response: eigenpairs, norms, transition
    dipoles and oscillator strengths. *)
From Coq Require Import List Bool Arith NArith ZArith Ascii String Lia Ring Permutation.
From Coq Require Import QArith Qcanon.
From Verif Require Import Base Fock FockMore FermiModel FermiProofs FermiFold FermiAlgebra OperatorsModel OperatorsProofs OperatorsSums OperatorsActs
  OperatorsActive OperatorsGen OperatorsKeys OperatorsOne Props_Operators CIModel CIProofs StateModel StateProofs StateMore Props_State
  FockInner DensityModel DensityProofs DensityExpect DensityResponse DensityFill DensityState StructModel LRModel LRAlgebra LRProofs LRPools LRPropModel
  Props_Density Props_Qubit Props_Response.
Import ListNotations.
Local Open Scope nat_scope.
Local Open Scope list_scope.

Section Combination.
  Context {K : Type} {C : CRing K}.
  Local Open Scope K_scope.
  Add Ring KringEx : (@rth K C).
  Notation lc := (list (fstring * K)).
  (** Linear combination of operators. *)
  Definition comb (l : list (K * lc)) : lc := flat_map (fun cA => lc_scale (fst cA) (snd cA)) l.
  Lemma comb_act l (f : amps) x : opapp (comb l) f x = lsum l (fun cA => fst cA * opapp (snd cA) f x).
  Proof. induction l as [|[c A] l IH]; [reflexivity|]. unfold comb in *. cbn [flat_map]. rewrite opapp_app, lc_scale_act, IH. reflexivity. Qed.
  Lemma opapp_lsum {I} (A : lc) (l : list I) (b : I -> K) (F : I -> amps) x :
    opapp A (fun e => lsum l (fun i => b i * F i e)) x = lsum l (fun i => b i * opapp A (F i) x).
  Proof.
    induction l as [|i l IH].
    - change (lsum [] _) with (0 : K). rewrite (opapp_ext A _ (fun e => 0 * 0)) by (intros; cbn; ring). rewrite (opapp_scale A 0 (fun _ => 0)). ring.
    - rewrite lsum_cons, <- IH, <- opapp_scale, <- opapp_add. apply opapp_ext. reflexivity.
  Qed.
  Lemma ip_lsum {I} m (u : amps) (l : list I) (b : I -> K) (F : I -> amps) :
    ip m u (fun e => lsum l (fun i => b i * F i e)) = lsum l (fun i => b i * ip m u (F i)).
  Proof.
    induction l as [|i l IH]; [apply ip_zero; reflexivity|]. rewrite lsum_cons, <- IH, <- ip_scale, <- ip_add. apply ip_ext; reflexivity.
  Qed.
  Lemma ip_comb2 m (u w : amps) l l' : ip m u (opapp (comb l) (opapp (comb l') w)) =
    lsum l (fun p => lsum l' (fun q => fst p * fst q * ip m u (opapp (snd p) (opapp (snd q) w)))).
  Proof.
    rewrite (ip_ext m u u _ (fun e => lsum l (fun p => fst p * opapp (snd p) (opapp (comb l') w) e)) (fun _ => eq_refl)) by (intros; apply comb_act).
    rewrite (ip_lsum m u l fst (fun p => opapp (snd p) (opapp (comb l') w))). apply lsum_ext. intros p _.
    rewrite (ip_ext m u u _ (fun e => lsum l' (fun q => fst q * opapp (snd p) (opapp (snd q) w) e)) (fun _ => eq_refl)).
    - rewrite (ip_lsum m u l' fst (fun q => opapp (snd p) (opapp (snd q) w))), <- lsum_scale. apply lsum_ext. intros q _. cbv beta. ring.
    - intros e. rewrite <- (opapp_lsum (snd p) l' fst (fun q => opapp (snd q) w)). apply opapp_ext. intros. apply comb_act.
  Qed.
  Lemma ev_comb m (u : amps) l l' : ip m u (comm (opapp (comb l)) (opapp (comb l')) u) =
    lsum l (fun p => lsum l' (fun q => fst p * fst q * ip m u (comm (opapp (snd p)) (opapp (snd q)) u))).
  Proof.
    rewrite ev_comm, !ip_comb2. rewrite (lsum_swap l' l).
    replace (lsum l (fun p => lsum l' (fun q => fst p * fst q * ip m u (opapp (snd p) (opapp (snd q) u)))) -
             lsum l (fun j => lsum l' (fun i => fst i * fst j * ip m u (opapp (snd i) (opapp (snd j) u)))))
      with (lsum l (fun p => lsum l' (fun q => fst p * fst q * ip m u (opapp (snd p) (opapp (snd q) u)))) +
            (- (1)) * lsum l (fun j => lsum l' (fun i => fst i * fst j * ip m u (opapp (snd i) (opapp (snd j) u))))) by ring.
    rewrite <- lsum_scale, <- lsum_add. apply lsum_ext. intros p _. rewrite <- lsum_scale, <- lsum_add. apply lsum_ext. intros q _. rewrite ev_comm. ring.
  Qed.
  Lemma lsum_seq_app a b (F : nat -> K) : lsum (seq 0 (a + b)) F = lsum (seq 0 a) F + lsum (seq 0 b) (fun i => F (a + i)%nat).
  Proof.
    rewrite seq_app, lsum_app. f_equal. cbn [Nat.add]. rewrite <- (map_id (seq a b)). replace (seq a b) with (map (fun i => (a + i)%nat) (seq 0 b)).
    - rewrite map_id, lsum_map. reflexivity.
    - clear. revert a. induction b as [|b IH]; intros a; [reflexivity|]. cbn [seq map]. rewrite Nat.add_0_r. f_equal. rewrite <- (IH (S a)), <- seq_shift, map_map.
      apply map_ext. intros. lia.
  Qed.
End Combination.

Section Excited.
  Context {K : Type} {C : CRing K}.
  Local Open Scope K_scope.
  Add Ring KringEy : (@rth K C).
  Notation lc := (list (fstring * K)).
  Notation dict := (list (fstring * K)).
  Variables (tiny : K -> bool) (sp : @space) (th : threads) (ansatz : bool -> list K -> Res (list K)) (nalpha nbeta : Z) (st : list K).
  Variables (large : K -> bool) (L : @literals K) (O : orbitals) (m : nat) (h : nat -> nat -> K) (g : nat -> nat -> nat -> nat -> K) (excitations : string).
  Hypothesis Hset : response_setup tiny sp th nalpha nbeta st large L O m h g.
  Notation ni := (sp_ni sp).
  Notation na := (sp_na sp).
  Notation N := (sp_ni sp + sp_na sp + sp_nv sp)%nat.
  Notation half := (l_half L).
  Notation Psi := (fket sp st).
  Notation E F := (ip (2 * N) Psi (F Psi)).
  Notation ops := (x_orbital L O ++ x_active L O excitations).
  Notation X i := (opapp (nth i ops [])).
  Notation Xd i := (opapp (lc_adj (nth i ops []))).
  Notation nq := (List.length (o_kappa O)).
  Notation size := (List.length ops).
  Notation run := (naive_init large L tiny sp th ansatz O h g st excitations).

  (** The operator of a column [(Z, Y)]: [T = sum_i Z_i X_i^+ + Y_i X_i], and its adjoint. *)
  Definition T_of (v : nat -> K) : lc :=
    comb (map (fun i => (v i, lc_adj (nth i ops []))) (seq 0 size) ++ map (fun i => (v (size + i)%nat, nth i ops [])) (seq 0 size)).
  Definition Td_of (v : nat -> K) : lc :=
    comb (map (fun i => (v i, nth i ops [])) (seq 0 size) ++ map (fun i => (v (size + i)%nat, lc_adj (nth i ops []))) (seq 0 size)).

  Lemma nq_size : (nq <= size)%nat.
  Proof. rewrite app_length. unfold x_orbital. rewrite map_length. lia. Qed.

  (** C83: the norm the code computes, from two diagonal blocks of the metric
      only, is [<[T, T^+]>] for every vector. *)
  Theorem C83_norm M : run = Ok M -> forall v, excited_norm (lr_metric M size) nq (size - nq) v = E (comm (opapp (T_of v)) (opapp (Td_of v))).
  Proof.
    intros ER v. destruct (run_ok tiny sp th ansatz nalpha nbeta st large L O m h g excitations Hset) as (M' & ER' & HM).
    assert (M' = M) as ->. { rewrite ER in ER'. destruct (existsb _ _); [discriminate|]. congruence. }
    pose proof nq_size as Hnq. pose proof (fun i Hi => ops_adj tiny sp th nalpha nbeta st large L O m h g excitations Hset i Hi) as HA.
    assert (S1 : forall i j, (i < size)%nat -> (j < size)%nat -> E (comm (Xd i) (X j)) = M [2; i; j]%nat) by (intros i j Hi Hj; destruct (HM i j Hi Hj) as (A & _); congruence).
    assert (S2 : forall i j, (i < size)%nat -> (j < size)%nat -> E (comm (Xd i) (Xd j)) = 0) by (intros i j Hi Hj; destruct (HM i j Hi Hj) as (_ & _ & A & _); exact A).
    assert (S3 : forall i j, (i < size)%nat -> (j < size)%nat -> E (comm (X i) (X j)) = 0).
    { intros i j Hi Hj. rewrite <- (S2 j i Hj Hi). apply (ev1_tr sp st); auto. }
    assert (S4 : forall i j, (i < size)%nat -> (j < size)%nat -> E (comm (X i) (Xd j)) = - M [2; i; j]%nat).
    { intros i j Hi Hj. rewrite <- (S1 i j Hi Hj). assert (Q : ev sp st (comm (Xd i) (X j)) = ev sp st (comm (Xd j) (X i))) by (apply ev1_tr; auto using adjp_flip). unfold ev in Q. rewrite Q, !ev_comm. ring. }
    unfold T_of, Td_of. rewrite ev_comb, lsum_app, !lsum_map. cbn [fst snd].
    transitivity (lsum (seq 0 size) (fun i => lsum (seq 0 size) (fun j => M [2; i; j]%nat * (v i * v j - v (size + i)%nat * v (size + j)%nat)))).
    2:{ rewrite <- lsum_add. apply lsum_ext. intros i Hi. apply in_seq in Hi. rewrite !lsum_app, !lsum_map. cbn [fst snd]. rewrite <- !lsum_add.
        apply lsum_ext. intros j Hj. apply in_seq in Hj. rewrite S1, S2, S3, S4 by lia. ring. }
    unfold excited_norm. set (nG := (size - nq)%nat). assert (ES : size = (nq + nG)%nat) by (unfold nG; lia).
    assert (HMet : forall i j, (i < size)%nat -> (j < size)%nat -> lr_metric M size i j = M [2; i; j]%nat).
    { intros i j Hi Hj. unfold lr_metric, block2. apply Nat.ltb_lt in Hi, Hj. now rewrite Hi, Hj. }
    assert (HX : forall i j, (i < nq <= j \/ j < nq <= i)%nat -> (i < size)%nat -> (j < size)%nat -> M [2; i; j]%nat = 0) by (intros i j Hij Hi Hj; now apply (HM i j Hi Hj)).
    clearbody nG. clear HM S1 S2 S3 S4 HA. remember (List.length ops) as s eqn:Es. clear Es. subst s.
    rewrite (lsum_seq_app nq nG). f_equal.
    - apply lsum_ext. intros i Hi. apply in_seq in Hi. rewrite (lsum_seq_app nq nG). rewrite (lsum_zero (seq 0 nG)).
      2:{ intros j Hj. apply in_seq in Hj. rewrite HX by lia. ring. }
      match goal with |- ?a = ?b + 0 => transitivity b; [|ring] end. apply lsum_ext.
      intros j Hj. apply in_seq in Hj. now rewrite HMet by lia.
    - apply lsum_ext. intros i Hi. apply in_seq in Hi. rewrite (lsum_seq_app nq nG). rewrite (lsum_zero (seq 0 nq)).
      2:{ intros j Hj. apply in_seq in Hj. rewrite HX by lia. ring. }
      match goal with |- ?a = 0 + ?b => transitivity b; [|ring] end. apply lsum_ext.
      intros j Hj. apply in_seq in Hj. rewrite HMet by lia. do 3 f_equal; f_equal; lia.
  Qed.

  Lemma norm_scaled (metric : nat -> nat -> K) a b v c : excited_norm metric a b (fun i => v i * c) = c * c * excited_norm metric a b v.
  Proof.
    unfold excited_norm. cbv zeta.
    match goal with |- _ = c * c * (?x + ?y) => transitivity (c * c * x + c * c * y); [|ring] end.
    f_equal; rewrite <- lsum_scale; apply lsum_ext; intros i _; rewrite <- lsum_scale; apply lsum_ext; intros j _; ring.
  Qed.

  (** C83: a vector that can be normalised is: [<[T, T^+]> = 1]. *)
  Theorem C83_normalised M tiny_norm rsq v : run = Ok M ->
    let n := excited_norm (lr_metric M size) nq (size - nq) v in
    tiny_norm n = false -> rsq n * rsq n * n = 1 ->
    let u := normed tiny_norm rsq n v in E (comm (opapp (T_of u)) (opapp (Td_of u))) = 1.
  Proof.
    intros ER n Ht Hr u. rewrite <- (C83_norm M ER). rewrite <- Hr. unfold u, normed. rewrite Ht. rewrite norm_scaled. fold n. reflexivity.
  Qed.

  (** ** Transition dipoles *)
  Let Hw : wf_setup tiny sp th nalpha nbeta st := proj1 Hset.
  Let Hn : dot st st = 1 := proj1 (proj2 Hset).
  Let HO : orbs_ok ni na (sp_nv sp) m O := proj1 (proj2 (proj2 (proj2 (proj2 Hset)))).
  Let Hex := proj1 Hw.
  Let Hsm : exact_small K := proj1 (proj2 Hw).
  Let Hpos := proj1 (proj2 (proj2 Hw)).
  Let Hidx := proj1 (proj2 (proj2 (proj2 Hw))).
  Let Hth := proj1 (proj2 (proj2 (proj2 (proj2 Hw)))).
  Let Hlen := proj2 (proj2 (proj2 (proj2 (proj2 Hw)))).
  Notation aP := (actP ni na N).
  Notation prop := (prop tiny sp th ansatz).
  Notation expv := (expv tiny sp th ansatz).

  Lemma transfer_ok (G : list dict) Z Y : (forall D, In D G -> OPS aP D) ->
    exists T, transfer_op G Z Y = Ok T /\ OPS aP T /\
      forall f x, opapp T f x = lsum (combine (seq 0 (List.length G)) G) (fun iD => Z (fst iD) * opapp (dg (snd iD)) f x + Y (fst iD) * opapp (snd iD) f x).
  Proof.
    intros HG. unfold transfer_op, eloop.
    assert (IH : forall start (G : list dict) T0, (forall D, In D G -> OPS aP D) -> OPS aP T0 ->
      exists T, fold_left (fun s ix => bind s ((fun i D T => bind (op_dagger D) (fun Dd => Ok (op_add T (op_add (op_scale (Z i) Dd) (op_scale (Y i) D))))) (fst ix) (snd ix)))
        (combine (seq start (List.length G)) G) (Ok T0) = Ok T /\ OPS aP T /\
      forall f x, opapp T f x = opapp T0 f x + lsum (combine (seq start (List.length G)) G) (fun iD => Z (fst iD) * opapp (dg (snd iD)) f x + Y (fst iD) * opapp (snd iD) f x)).
    { clear HG G. intros start G. revert start. induction G as [|D G IH]; intros start T0 HG HT0.
      - exists T0. split; [reflexivity|]. split; [exact HT0|]. intros. cbn. ring.
      - cbn [List.length seq combine fold_left fst snd bind]. destruct (dag_ok sp Hsm D (HG D (or_introl eq_refl))) as (ED & OD & _). rewrite ED. cbn [bind].
        assert (R0 : forall A, OPS aP A -> rep aP (Ok A) (opapp A)) by (intros A HA; exists A; auto).
        destruct (rep_add Hsm aP _ _ _ _ (R0 T0 HT0) (rep_add Hsm aP _ _ _ _ (rep_scale aP (Z start) _ _ (R0 _ OD)) (rep_scale aP (Y start) _ _ (R0 _ (HG D (or_introl eq_refl))))))
          as (T1 & E1 & O1 & A1). cbn [madd mscale bind] in E1. injection E1 as E1. rewrite E1.
        destruct (IH (S start) T1 (fun D' HD' => HG D' (or_intror HD')) O1) as (T & ET & OT & AT). exists T. split; [exact ET|]. split; [exact OT|].
        intros f x. rewrite AT, A1, lsum_cons. cbn [fst snd]. ring. }
    destruct (IH 0%nat G [] HG) as (T & ET & OT & AT).
    { split; constructor. }
    exists T. split; [exact ET|]. split; [exact OT|]. intros f x. rewrite AT. cbn [opapp]. ring.
  Qed.

  Section Dipole.
    Variable x : nat -> nat -> K.
    Hypothesis Hxs : forall p q, (p < N)%nat -> (q < N)%nat -> x p q = x q p.
    Notation Mu := (Xact x N).
    Lemma Mu_H f e : Mu f e = Hact 0 x (fun _ _ _ _ => 0) N f e.
    Proof.
      unfold Xact, Hact.
      change (sumn N (fun p => sumn N (fun q => x p q * Eact p q f e)) = sumn N (fun p => sumn N (fun q => x p q * Eact p q f e))
            + 0 * sumn N (fun p => sumn N (fun q => sumn N (fun r => sumn N (fun s => 0 * eop p q r s f e))))). ring.
    Qed.
    Lemma adj_Mu : adjp N Mu Mu.
    Proof.
      intros u w. rewrite (ip_ext _ u u _ _ (fun _ => eq_refl) (Mu_H w)), (ip_ext _ _ _ w w (Mu_H u) (fun _ => eq_refl)).
      apply adjp_H; [exact Hxs|reflexivity].
    Qed.
    Lemma Mu_onesum f e : onesum x N f e = Mu f e.
    Proof. unfold onesum, Xact, sumn, pairs. rewrite lsum_flat_map. apply lsum_ext. intros p _. rewrite lsum_map. reflexivity. Qed.

    (** [<[Mu, F]>] is linear in [F]. *)
    Lemma ev_Mu_comb l : E (comm Mu (opapp (comb l))) = lsum l (fun cA => fst cA * E (comm Mu (opapp (snd cA)))).
    Proof.
      rewrite ev_comm, (adj_Mu Psi (opapp (comb l) Psi)).
      rewrite (ip_ext _ (Mu Psi) (Mu Psi) _ (fun e => lsum l (fun p => fst p * opapp (snd p) Psi e)) (fun _ => eq_refl)) by (intros; apply comb_act).
      rewrite (ip_ext _ Psi Psi _ (fun e => lsum l (fun p => fst p * opapp (snd p) (Mu Psi) e)) (fun _ => eq_refl)) by (intros; apply comb_act).
      rewrite (ip_lsum _ (Mu Psi) l fst (fun p => opapp (snd p) Psi)), (ip_lsum _ Psi l fst (fun p => opapp (snd p) (Mu Psi))).
      match goal with |- ?a - ?b = _ => replace (a - b) with (a + (- (1)) * b) by ring end. rewrite <- lsum_scale, <- lsum_add. apply lsum_ext. intros p _.
      rewrite ev_comm, (adj_Mu Psi (opapp (snd p) Psi)). ring.
    Qed.
    Lemma ev_Mu_peq F F' : (forall u e, F u e = F' u e) -> E (comm Mu F) = E (comm Mu F').
    Proof.
      intros HF. rewrite !ev_comm, (adj_Mu Psi (F Psi)), (adj_Mu Psi (F' Psi)). f_equal; apply ip_ext; auto.
    Qed.

    (** The contribution of the orbital rotations. *)
    Lemma q_part_ok Q v : Forall2 (oact sp) Q (x_orbital L O) ->
      exists qp, match Q with [] => Ok 0 | _ => bind (wf_rdm1 tiny sp th ansatz st) (fun r1 => Ok (get_orbital_response_property_gradient (l_s2 L) x (o_kappa O) ni na (fun i j => r1 [i; j]) v size)) end = Ok qp /\
                qp = lsum (seq 0 nq) (fun i => v i * E (comm Mu (Xd i)) + v (size + i)%nat * E (comm Mu (X i))).
    Proof.
      intros FQ. pose proof (lenQ sp L O Q FQ) as LQ.
      assert (EX : forall i p q, nth_error (o_kappa O) i = Some (p, q) ->
        E (comm Mu (Xd i)) = l_s2 L * E (comm (Eact q p) Mu) /\ E (comm Mu (X i)) = l_s2 L * E (comm (Eact p q) Mu)).
      { intros i p q Ei. destruct (kappa_pairs tiny sp th nalpha nbeta st large L O m h g Hset _ (nth_error_In _ _ Ei)) as [Hp Hq]. cbn [fst snd] in Hp, Hq.
        rewrite (orb_nth L O excitations i p q Ei), adj_single.
        assert (SC : forall a b, (a < N)%nat -> (b < N)%nat -> E (comm Mu (opapp (x_single (l_s2 L) a b))) = l_s2 L * E (comm (Eact b a) Mu)).
        { intros a b Ha Hb. rewrite ev_comm, (adj_Mu Psi (opapp _ Psi)).
          rewrite (ip_ext _ (Mu Psi) (Mu Psi) _ _ (fun _ => eq_refl) (single_act (l_s2 L) a b Psi)), (ip_ext _ Psi Psi _ _ (fun _ => eq_refl) (single_act (l_s2 L) a b (Mu Psi))), !ip_scale.
          rewrite ev_comm. rewrite (adjp_E N b a Hb Ha Psi (Mu Psi)), (adj_Mu Psi (Eact b a Psi)), (ip_sym _ (Eact a b Psi)), (adjp_E N a b Ha Hb Psi (Mu Psi)), (ip_sym _ (Eact b a Psi)). ring. }
        split; apply SC; assumption. }
      destruct (o_kappa O) as [|k0 kr] eqn:Ek.
      - cbn [List.length] in LQ. destruct Q; [|discriminate]. exists 0. split; reflexivity.
      - destruct Q as [|Q0 Qr]; [discriminate|]. rewrite <- Ek in *. clear Ek k0 kr.
        destruct (C28_rdm1_rdm2 tiny sp th ansatz nalpha nbeta st Hw) as (r1 & r2 & -> & _ & Hdm). cbn [bind]. eexists. split; [reflexivity|].
        rewrite (C58_property_gradient N ni na Psi _ _ (C28_state tiny sp th nalpha nbeta st Hw Hn) Hdm (l_s2 L) x (o_kappa O) v size
                   (kappa_pairs tiny sp th nalpha nbeta st large L O m h g Hset) Hxs).
        unfold exc. rewrite lsum_app, !lsum_map. cbn [fst snd]. rewrite <- lsum_add.
        unfold enumerate. clear - EX. revert EX. generalize (o_kappa O) as l.
        assert (G : forall l start, (forall i p q, nth_error l i = Some (p, q) -> E (comm Mu (Xd (start + i)%nat)) = l_s2 L * E (comm (Eact q p) Mu) /\ E (comm Mu (X (start + i)%nat)) = l_s2 L * E (comm (Eact p q) Mu)) ->
          lsum (combine (seq start (List.length l)) l) (fun i => l_s2 L * v (fst i + size)%nat * E (comm (Eact (fst (snd i)) (snd (snd i))) Mu) + l_s2 L * v (fst i) * E (comm (Eact (fst (swp (snd i))) (snd (swp (snd i)))) Mu)) =
          lsum (seq start (List.length l)) (fun i => v i * E (comm Mu (Xd i)) + v (size + i)%nat * E (comm Mu (X i)))).
        { induction l as [|[p q] l IH]; intros start HE; [reflexivity|]. cbn [List.length seq combine]. rewrite !lsum_cons. cbn [fst snd swp]. f_equal.
          - destruct (HE 0%nat p q eq_refl) as [H1 H2]. rewrite Nat.add_0_r in H1, H2. rewrite H1, H2, (Nat.add_comm start size). ring.
          - apply IH. intros i p' q' Hi. replace (S start + i)%nat with (start + S i)%nat by lia. now apply HE. }
        intros l EX. apply (G l 0%nat). exact EX.
    Qed.

    Lemma dipole_ok Q G v : Forall2 (oact sp) Q (x_orbital L O) -> Forall2 (gact ni na (sp_nv sp) m) G (x_active L O excitations) ->
      transition_dipole L tiny sp th ansatz O st Q G x size v = Ok (E (comm Mu (opapp (T_of v)))).
    Proof.
      intros FQ FG. pose proof (lenQ sp L O Q FQ) as LQ. pose proof (len_all sp L O m excitations Q G FQ FG) as LA. pose proof nq_size as Hnq.
      unfold transition_dipole.
      destruct (one_elec_0i_0a_rep Hsm (bal N) (bal_stable N) x ni na (sp_nv sp)
         (fun p q Hp Hq => PE_bal N p q (ltac:(apply in_seq in Hp; lia)) (ltac:(apply in_seq in Hq; lia)))) as (F0 & (D0 & E0 & O0 & A0) & B0).
      rewrite E0. cbn [bind].
      destruct (dagger_adjp N (bal N) (bal_stable N) Hsm D0 O0 (fun s Hs => proj2 Hs)) as (Dd & Ed & Od & Ad).
      destruct (papply tiny sp th ansatz nalpha nbeta Hex Hpos Hidx Hth D0 st O0 Hlen) as (mk & Emk & Lmk & Fmk). rewrite Emk. cbn [bind].
      rewrite Ed. cbn [bind]. destruct (papply tiny sp th ansatz nalpha nbeta Hex Hpos Hidx Hth Dd st Od Hlen) as (mdk & Emdk & Lmdk & Fmdk). unfold FermiModel.dict in *. rewrite Emdk. cbn [bind].
      destruct (transfer_ok G (fun i => v (List.length Q + i)%nat) (fun i => v (2 * List.length Q + (size - List.length Q) + i)%nat) (HGok sp L O m excitations G FG)) as (T & ET & OT & AT).
      rewrite ET. cbn [bind].
      destruct (dag_ok sp Hsm T OT) as (ETd & OTd & AdT).
      destruct (gapply tiny sp th ansatz nalpha nbeta Hex Hpos Hidx Hth T st OT Hlen) as (Tk & ETk & LTk & FTk).
      destruct (gapply tiny sp th ansatz nalpha nbeta Hex Hpos Hidx Hth (dg T) st OTd Hlen) as (Tdk & ETdk & LTdk & FTdk).
      destruct (q_part_ok Q v FQ) as (qp & -> & ->). cbn [bind]. rewrite ETk. cbn [bind]. rewrite ETd. cbn [bind]. rewrite ETdk. cbn [bind].
      rewrite (expv_nil tiny sp th ansatz nalpha nbeta Hpos Hidx mdk Tk Lmdk LTk). cbn [bind].
      rewrite (expv_nil tiny sp th ansatz nalpha nbeta Hpos Hidx Tdk mk LTdk Lmk). cbn [bind]. f_equal.
      assert (sT : sup sp (opapp T Psi)) by (apply (sup_op sp T Psi OT), (sup_ket sp Hpos)).
      assert (EA : ip (2 * N) (fket sp mdk) (fket sp Tk) - ip (2 * N) (fket sp Tdk) (fket sp mk) = E (comm Mu (opapp T))).
      { rewrite ev_comm. f_equal.
        - rewrite (ip_asp_l sp _ (opapp Dd Psi) _ (sup_ket sp Hpos Tk) Fmdk), (ip_ext _ _ _ _ _ (fun _ => eq_refl) FTk). rewrite <- Ad.
          apply (ip_asp sp); [apply (sup_ket sp Hpos)|]. intros e He. rewrite A0, (B0 _ e He sT). apply Mu_onesum.
        - rewrite (ip_ext _ _ _ _ _ FTdk (fun _ => eq_refl)), (AdT Psi (Mu Psi)). apply (ip_asp sp).
          + apply (sup_op sp _ Psi OTd), (sup_ket sp Hpos).
          + intros e He. rewrite (Fmk e He), A0, (B0 _ e He (sup_ket sp Hpos st)). apply Mu_onesum. }
      rewrite EA. unfold T_of. rewrite ev_Mu_comb, lsum_app, !lsum_map. cbn [fst snd]. rewrite <- lsum_add.
      replace (seq 0 size) with (seq 0 (nq + List.length G)) by (rewrite <- LA, LQ; reflexivity).
      rewrite (lsum_seq_app nq (List.length G)). f_equal.
      (* the active part *)
      transitivity (E (comm Mu (opapp (comb (flat_map (fun iD => [(v (nq + fst iD)%nat, dg (snd iD)); (v (size + nq + fst iD)%nat, snd iD)]) (combine (seq 0 (List.length G)) G)))))).
      { apply ev_Mu_peq. intros u e. rewrite AT, comb_act, lsum_flat_map. apply lsum_ext. intros [i D] _. cbn [fst snd lsum fold_right].
        rewrite LQ. replace (2 * nq + (size - nq) + i)%nat with (size + nq + i)%nat by lia. ring. }
      rewrite ev_Mu_comb, lsum_flat_map.
      assert (AC : forall i D, nth_error G i = Some D -> (forall u e, opapp (dg D) u e = Xd (nq + i)%nat u e) /\ (forall u e, opapp D u e = X (nq + i)%nat u e)).
      { intros i D Ei. destruct (nth_acts tiny sp th nalpha nbeta st large L O m h g excitations Hset Q G FQ FG (nq + i)%nat) as [P1 P2].
        assert (nth (nq + i) (Q ++ G) [] = D) as ED by (rewrite app_nth2 by lia; replace (nq + i - List.length Q)%nat with i by lia; now apply nth_error_nth). rewrite ED in P1, P2. split; assumption. }
      clear - AC Hxs. revert AC. generalize G as l.
      assert (IH : forall l start, (forall i D, nth_error l i = Some D -> (forall u e, opapp (dg D) u e = Xd (nq + (start + i))%nat u e) /\ (forall u e, opapp D u e = X (nq + (start + i))%nat u e)) ->
        lsum (combine (seq start (List.length l)) l) (fun iD => lsum [(v (nq + fst iD)%nat, dg (snd iD)); (v (size + nq + fst iD)%nat, snd iD)] (fun cA => fst cA * E (comm Mu (opapp (snd cA))))) =
        lsum (seq start (List.length l)) (fun i => v (nq + i)%nat * E (comm Mu (Xd (nq + i)%nat)) + v (size + (nq + i))%nat * E (comm Mu (X (nq + i)%nat)))).
      { induction l as [|D l IH]; intros start HE; [reflexivity|]. cbn [List.length seq combine]. rewrite (lsum_cons (start, D)), (lsum_cons start). f_equal.
        - destruct (HE 0%nat D eq_refl) as [H1 H2]. rewrite Nat.add_0_r in H1, H2. cbn [fst snd lsum fold_right].
          rewrite (ev_Mu_peq _ _ H1), (ev_Mu_peq _ _ H2). rewrite (Nat.add_assoc size). ring.
        - apply IH. intros i D' Hi. replace (S start + i)%nat with (start + S i)%nat by lia. now apply HE. }
      intros l AC. apply (IH l 0%nat). exact AC.
    Qed.
  End Dipole.

  (** C83: every component of every transition dipole is [<[Mu, T]>] with the
      one-electron operator [Mu] of all orbitals. *)
  Theorem C83_transition_dipoles (mus : list (nat -> nat -> K)) (vs : list (nat -> K)) :
    (forall x, In x mus -> forall p q, (p < N)%nat -> (q < N)%nat -> x p q = x q p) ->
    transition_dipoles L tiny sp th ansatz O st excitations mus size vs
    = Ok (map (fun v => map (fun x => E (comm (Xact x N) (opapp (T_of v)))) mus) vs).
  Proof.
    intros Hx. unfold transition_dipoles. destruct (G_ops_ok Hsm ni na (sp_nv sp) m L O HO excitations) as (G & EG & FG). rewrite EG. cbn [bind].
    destruct (q_ops_ok Hsm sp m L O HO) as (Q & EQ & FQ). rewrite EQ. cbn [bind].
    apply rlist_ok. intros v _. apply rlist_ok. intros x Hi. apply dipole_ok; auto.
  Qed.
End Excited.

(** ** Eigenpairs *)
Section Eigen.
  Context {K : Type} {C : CRing K}.
  Local Open Scope K_scope.
  Add Ring KringEz : (@rth K C).
  Variables (unstable : (nat -> nat -> K) -> nat -> bool)
    (geig : (nat -> nat -> K) -> (nat -> nat -> K) -> nat -> list (K * (nat -> K)))
    (argsort : list K -> list nat) (tiny_norm : K -> bool) (rsq : K -> K) (M : list nat -> K) (nq size : nat).
  Notation A i j := (M [0; i; j]%nat).
  Notation B i j := (M [1; i; j]%nat).
  Notation Sigma i j := (M [2; i; j]%nat).
  Notation Delta i j := (M [3; i; j]%nat).
  Notation S2 F := (lsum (seq 0 size) F).
  (** [(w, (Z, Y))] solves the response equations. *)
  Definition solves (w : K) (y : nat -> K) : Prop := forall i, (i < size)%nat ->
    S2 (fun j => A i j * y j + B i j * y (size + j)%nat) = w * S2 (fun j => Sigma i j * y j + Delta i j * y (size + j)%nat) /\
    S2 (fun j => B i j * y j + A i j * y (size + j)%nat) = - (w * S2 (fun j => Delta i j * y j + Sigma i j * y (size + j)%nat)).
  (** What is assumed of the library: [geig] returns as many solutions of
      [E v = w S v] as the matrices have rows, [argsort] the indices in some order. *)
  Definition geig_sound : Prop :=
    let n := (2 * size)%nat in let H := lr_hessian M size in let S := lr_metric M size in
    List.length (geig H S n) = n /\
    forall w v, In (w, v) (geig H S n) -> forall i, (i < n)%nat -> lsum (seq 0 n) (fun j => H i j * v j) = w * lsum (seq 0 n) (fun j => S i j * v j).

  Lemma solves_scale w y c : solves w y -> solves w (fun i => y i * c).
  Proof.
    intros H i Hi. destruct (H i Hi) as [H1 H2].
    assert (G : forall F G : nat -> K, S2 (fun j => F j * (y j * c) + G j * (y (size + j)%nat * c)) = S2 (fun j => F j * y j + G j * y (size + j)%nat) * c).
    { intros F G. transitivity (c * S2 (fun j => F j * y j + G j * y (size + j)%nat)); [|ring]. rewrite <- lsum_scale. apply lsum_ext. intros. ring. }
    rewrite (G (fun j => A i j) (fun j => B i j)), (G (fun j => Sigma i j) (fun j => Delta i j)), (G (fun j => B i j) (fun j => A i j)), (G (fun j => Delta i j) (fun j => Sigma i j)), H1, H2.
    split; ring.
  Qed.
  Lemma solves_zero w : solves w (fun _ => 0).
  Proof. intros i Hi. rewrite !lsum_zero by (intros; ring). split; ring. Qed.

  Lemma block_row (a b c d : nat -> nat -> K) v i : (i < size)%nat ->
    lsum (seq 0 (2 * size)) (fun j => block2 size a b c d i j * v j) = S2 (fun j => a i j * v j + b i j * v (size + j)%nat) /\
    lsum (seq 0 (2 * size)) (fun j => block2 size a b c d (size + i)%nat j * v j) = S2 (fun j => c i j * v j + d i j * v (size + j)%nat).
  Proof.
    intros Hi. replace (2 * size)%nat with (size + size)%nat by lia.
    split; rewrite lsum_seq_app, lsum_add; f_equal; apply lsum_ext; intros j Hj; apply in_seq in Hj; unfold block2.
    - apply Nat.ltb_lt in Hi. rewrite Hi. replace (j <? size)%nat with true by (symmetry; apply Nat.ltb_lt; lia). reflexivity.
    - apply Nat.ltb_lt in Hi. rewrite Hi. replace (size + j <? size)%nat with false by (symmetry; apply Nat.ltb_ge; lia).
      replace (size + j - size)%nat with j by lia. reflexivity.
    - replace (size + i <? size)%nat with false by (symmetry; apply Nat.ltb_ge; lia). replace (j <? size)%nat with true by (symmetry; apply Nat.ltb_lt; lia).
      replace (size + i - size)%nat with i by lia. reflexivity.
    - replace (size + i <? size)%nat with false by (symmetry; apply Nat.ltb_ge; lia). replace (size + j <? size)%nat with false by (symmetry; apply Nat.ltb_ge; lia).
      replace (size + i - size)%nat with i by lia. replace (size + j - size)%nat with j by lia. reflexivity.
  Qed.

  (** C83: an unstable Hessian is refused; otherwise there is one energy and one
      vector per excitation, the energies are the upper half of the sorted ones,
      and energy and vector of the same position solve the response equations,
      before and after normalisation. *)
  Theorem C83_excitations : Permutation (argsort (map fst (geig (lr_hessian M size) (lr_metric M size) (2 * size)))) (seq 0 (2 * size)) -> geig_sound ->
    (unstable (lr_hessian M size) (2 * size)%nat = true ->
       calc_excitation_energies unstable geig argsort tiny_norm rsq M nq size = Raise ValueError) /\
    (unstable (lr_hessian M size) (2 * size)%nat = false ->
       exists r, calc_excitation_energies unstable geig argsort tiny_norm rsq M nq size = Ok r /\
         List.length (x_energies r) = size /\ List.length (x_vectors r) = size /\ List.length (x_normed r) = size /\
         (exists low, Permutation (low ++ x_energies r) (map fst (geig (lr_hessian M size) (lr_metric M size) (2 * size)))) /\
         forall k w v u, nth_error (x_energies r) k = Some w -> nth_error (x_vectors r) k = Some v -> nth_error (x_normed r) k = Some u ->
           In (w, v) (geig (lr_hessian M size) (lr_metric M size) (2 * size)) /\ solves w v /\ solves w u /\
           (let n := excited_norm (lr_metric M size) nq (size - nq) v in
            if tiny_norm n then forall i, u i = 0 else forall i, u i = v i * rsq n)).
  Proof.
    intros HP [Hlen HS]. split; intros Hu; unfold calc_excitation_energies; rewrite Hu; [reflexivity|].
    set (eig := geig (lr_hessian M size) (lr_metric M size) (2 * size)) in *. set (ord := argsort (map fst eig)) in *.
    eexists. split; [reflexivity|]. cbn [x_energies x_vectors x_normed].
    assert (Hord : List.length ord = (2 * size)%nat) by (rewrite (Permutation_length HP), seq_length; reflexivity).
    rewrite !map_length, !skipn_length, !map_length, Hord. do 3 (split; [lia|]). split.
    - exists (firstn size (map (fun k => nth k (map fst eig) 0) ord)). rewrite firstn_skipn.
      rewrite (Permutation_map (fun k => nth k (map fst eig) 0) HP), <- Hlen, <- (map_length fst eig). clear.
      generalize (map fst eig) as l. intros l.
      assert (G : forall (pre l : list K), map (fun k => nth k (pre ++ l) 0) (seq (List.length pre) (List.length l)) = l).
      { intros pre l0. revert pre. induction l0 as [|a l0 IH]; intros pre; [reflexivity|]. cbn [List.length seq map]. f_equal.
        - rewrite app_nth2, Nat.sub_diag by lia. reflexivity.
        - specialize (IH (pre ++ [a])). rewrite app_length in IH. cbn [List.length] in IH. rewrite Nat.add_1_r in IH. rewrite <- app_assoc in IH. exact IH. }
      pose proof (G [] l) as GL. cbn [List.length app] in GL. rewrite GL. reflexivity.
    - intros k w v u Hw Hv Hu'.
      rewrite nth_error_map, Hv in Hu'. cbn [option_map] in Hu'. injection Hu' as Hu'.
      assert (SK : forall {A} n (l : list A) k, nth_error (skipn n l) k = nth_error l (n + k)%nat).
      { clear. intros A0 n. induction n as [|n IH]; intros l k; [reflexivity|]. destruct l; [now destruct k|]. cbn. apply IH. }
      rewrite SK, nth_error_map in Hw, Hv. destruct (nth_error ord (size + k)) as [p|] eqn:Ep; [|discriminate]. cbn [option_map] in Hw, Hv.
      injection Hw as Hw. injection Hv as Hv.
      assert (Hp : (p < List.length eig)%nat).
      { apply nth_error_In in Ep. apply (Permutation_in _ HP) in Ep. apply in_seq in Ep. lia. }
      assert (Hin : In (w, v) eig).
      { rewrite <- Hw, <- Hv, (nth_indep _ 0 (fst (0, fun _ : nat => 0))), (nth_indep _ (fun _ => 0) (snd (0, fun _ : nat => 0))) by (rewrite map_length; exact Hp).
        rewrite !map_nth, <- surjective_pairing. now apply nth_In. }
      assert (Sv : solves w v).
      { intros i Hi. pose proof (HS w v Hin) as HE. unfold lr_hessian, lr_metric in HE. cbv zeta in HE.
        split.
        - specialize (HE i ltac:(lia)). rewrite !(fun a b c d => proj1 (block_row a b c d v i Hi)) in HE. exact HE.
        - specialize (HE (size + i)%nat ltac:(lia)). rewrite !(fun a b c d => proj2 (block_row a b c d v i Hi)) in HE. rewrite HE.
          transitivity (w * ((- (1)) * S2 (fun j => Delta i j * v j + Sigma i j * v (size + j)%nat))); [|ring].
          f_equal. rewrite <- lsum_scale. apply lsum_ext. intros. ring. }
      split; [exact Hin|]. split; [exact Sv|]. unfold normed in Hu'. cbv zeta.
      destruct (tiny_norm _); subst u; (split; [|intros; reflexivity]); [apply solves_zero|apply solves_scale; exact Sv].
  Qed.
End Eigen.

(** ** Oscillator strengths *)
Section Oscillator.
  Context {K : Type} {C : CRing K}.
  Local Open Scope K_scope.
  Add Ring KringEo : (@rth K C).
  Variables (tiny : K -> bool) (sp : @space) (th : threads) (ansatz : bool -> list K -> Res (list K)) (nalpha nbeta : Z) (st : list K).
  Variables (large : K -> bool) (L : @literals K) (O : orbitals) (m : nat) (h : nat -> nat -> K) (g : nat -> nat -> nat -> nat -> K) (excitations : string).
  Hypothesis Hset : response_setup tiny sp th nalpha nbeta st large L O m h g.
  Notation N := (sp_ni sp + sp_na sp + sp_nv sp)%nat.
  Notation size := (List.length (x_orbital L O ++ x_active L O excitations)).
  Notation moment x v := (ip (2 * N) (fket sp st) (comm (Xact x N) (opapp (T_of L O excitations v)) (fket sp st))).
  (** C83: the oscillator strength of state [k] is [2/3 w_k] times the squared
      length of its transition dipole. *)
  Theorem C83_oscillator_strength (two_thirds : K) (mx my mz : nat -> nat -> K) (energies : list K) (vs : list (nat -> K)) :
    (forall x, In x [mx; my; mz] -> forall p q, (p < N)%nat -> (q < N)%nat -> x p q = x q p) ->
    exists dip, transition_dipoles L tiny sp th ansatz O st excitations [mx; my; mz] size vs = Ok dip /\
      forall k w v, nth_error energies k = Some w -> nth_error vs k = Some v ->
        nth_error (oscillator_strengths two_thirds energies dip) k =
          Some (two_thirds * w * lsum [mx; my; mz] (fun x => moment x v * moment x v)).
  Proof.
    intros Hx. rewrite (C83_transition_dipoles tiny sp th ansatz nalpha nbeta st large L O m h g excitations Hset [mx; my; mz] vs Hx).
    eexists. split; [reflexivity|]. intros k. unfold oscillator_strengths. revert vs energies.
    induction k as [|k IH]; intros [|v0 vs] [|e0 es] w v Hw Hv; try discriminate.
    - injection Hw as ->. injection Hv as ->. cbn [map combine nth_error fst snd nth lsum fold_right]. f_equal. ring.
    - cbn [map combine nth_error] in *. now apply IH.
  Qed.
End Oscillator.

(** * Examples *)
(** The run of [Props_Response] has 7 excitations (5 of orbitals).  A vector with
    entries in every block; a dipole integral that is not diagonal. *)
Local Open Scope string_scope.
Local Open Scope nat_scope.
Local Open Scope list_scope.
Definition x_v (i : nat) : q2 := q2n (Z.of_nat (nth i [1; 2; 0; 1; 3; 1; 2; 0; 1; 1; 0; 0; 2; 5] 0)).
Definition x_mu (p q : nat) : q2 := q2n (Z.of_nat (p * q + p + q + 1)).
Example C83_example_norm : exists M, r_run r_h = Ok M /\
  this (qa (excited_norm (lr_metric M 7) 5 2 x_v)) <> (0 # 1)%Q.
Proof. eexists. split; [vm_compute; reflexivity|]. vm_compute. discriminate. Qed.
Example C83_example_dipole : exists D D', transition_dipoles r_lit r_tiny ex_sp None (fun _ s => Ok s) r_O r_st "sd" [x_mu; r_h] 7 [x_v] = Ok [[D; D']] /\
  this (qb D) = (71 # 25)%Q /\ this (qb D') = (432 # 25)%Q.
Proof. eexists. eexists. split; [vm_compute; reflexivity|]. split; vm_compute; reflexivity. Qed.
Example C83_example_symmetric : forall p q, x_mu p q = x_mu q p.
Proof. intros. unfold x_mu. do 2 f_equal. lia. Qed.

(** One excitation with [A = 5], [B = 3], [Sigma = 1], [Delta = 0]: energies 4 and
    -4 with the vectors (3, -1) and (-1, 3), of norms 8 and -8. *)
Local Open Scope Z_scope.
Definition x_M (i : list nat) : Z := match i with [0; 0; 0]%nat => 5 | [1; 0; 0]%nat => 3 | [2; 0; 0]%nat => 1 | _ => 0 end.
Definition x_geig (H S : nat -> nat -> Z) (n : nat) : list (Z * (nat -> Z)) :=
  [(4, fun i => match i with O => 3 | _ => -1 end); (-4, fun i => match i with O => -1 | _ => 3 end)].
Definition x_sort (l : list Z) : list nat := [1; 0]%nat.
Example C83_example_excitations : geig_sound x_geig x_M 1 /\ Permutation (x_sort (map fst (x_geig (lr_hessian x_M 1) (lr_metric x_M 1) 2))) (seq 0 2) /\
  exists r, calc_excitation_energies (fun _ _ => false) x_geig x_sort (fun _ => false) (fun n => n) x_M 1 1 = Ok r /\
    x_energies r = [4] /\ map (fun v => (v 0%nat, v 1%nat)) (x_vectors r) = [(3, -1)] /\ map (fun v => (v 0%nat, v 1%nat)) (x_normed r) = [(24, -8)].
Proof.
  split; [|split].
  - split; [reflexivity|]. intros w v [E|[E|[]]]; injection E as <- <-; intros [|[|i]] Hi; try reflexivity; cbn in Hi; lia.
  - apply perm_swap.
  - eexists. split; [reflexivity|]. vm_compute. auto.
Qed.
(** Over a ring with the root of 1/8 = (1/4 sqrt 2)^2 the norm becomes one. *)
Example C83_example_normalised : let n := q2n 8 in let rsq (_ : q2) := {| qa := 0%Qc; qb := Q2Qc (1 # 4) |} in rmul (rmul (rsq n) (rsq n)) n = q2n 1.
Proof. apply (f_equal2 Build_q2); apply Qc_is_canon; vm_compute; reflexivity. Qed.

Print Assumptions C83_norm.
Print Assumptions C83_normalised.
Print Assumptions C83_transition_dipoles.
Print Assumptions C83_excitations.
Print Assumptions C83_oscillator_strength.
