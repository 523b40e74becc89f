(** C29, C30: the object state of the wave function. *)
From Coq Require Import List Bool Arith NArith ZArith Reals Lra Lia.
From Verif Require Import Base RRing Fock FermiModel OperatorsModel CIModel StateModel UPSModel UPSSingle UPSAnsatz
  DensityModel MatModel MatProofs MatExp WaveModel WaveProofs Props_UPS Props_Density.
Import ListNotations.
Local Open Scope R_scope.

(** ** Specification of orbital rotations *)
(** The antisymmetric matrix with [d_i] at the [i]-th pair of [idx]. *)
Fixpoint kmat (idx : list (nat * nat)) (d : list R) (i j : nat) : R :=
  match idx, d with
  | (p, q) :: idx', x :: d' =>
      (if Nat.eqb i p && Nat.eqb j q then x else if Nat.eqb i q && Nat.eqb j p then - x else 0) + kmat idx' d' i j
  | _, _ => 0
  end.
(** The rotation indices of the class: distinct pairs [p < q] of orbitals. *)
Definition rotation_pairs (N : nat) (idx : list (nat * nat)) : Prop :=
  NoDup idx /\ Forall (fun pq => fst pq < snd pq < N)%nat idx.
Definition sub (a b : list R) : list R := map2 Rminus a b.
(** [C exp(-kappa)]. *)
Definition times_exp (N : nat) (c : mat) (A : nat -> nat -> R) : mat :=
  tab N (fun i j => tsum N (fun k => ent c i k * expm N (fun a b => - A a b) k j)).

Lemma kmat_none idx d i j : (forall p q, In (p, q) idx -> (i, j) <> (p, q) /\ (i, j) <> (q, p)) -> kmat idx d i j = 0.
Proof.
  revert d. induction idx as [|[p q] idx IH]; intros [|x d] H; cbn [kmat]; auto. rewrite IH by (intros; apply H; right; auto).
  destruct (H p q (or_introl eq_refl)) as [H1 H2].
  destruct (Nat.eqb_spec i p), (Nat.eqb_spec j q), (Nat.eqb_spec i q), (Nat.eqb_spec j p); subst; cbn [andb]; try ring; congruence.
Qed.
Lemma fill_kmat N idx : rotation_pairs N idx -> forall k ko M i j, length k = length idx -> length ko = length idx ->
  fill_kappa k ko idx M i j
  = (if existsb (fun pq => (Nat.eqb i (fst pq) && Nat.eqb j (snd pq)) || (Nat.eqb i (snd pq) && Nat.eqb j (fst pq))) idx
     then 0 else M i j) + kmat idx (sub k ko) i j.
Proof.
  induction idx as [|[p q] idx IH]; intros [ND HP] [|x k] [|y ko] M i j H1 H2; try discriminate; cbn in *.
  - ring.
  - inversion_clear ND as [|? ? Hn ND']. inversion_clear HP as [|? ? Hpq HP']. cbn [fst snd] in Hpq.
    rewrite IH; [|split; auto|congruence|congruence]. unfold upd2. cbn [existsb fst snd]. fold (sub k ko).
    assert (NO : forall a b, (i, j) = (a, b) \/ (i, j) = (b, a) -> (a, b) = (p, q) ->
      existsb (fun pq => (Nat.eqb i (fst pq) && Nat.eqb j (snd pq)) || (Nat.eqb i (snd pq) && Nat.eqb j (fst pq))) idx = false).
    { intros a b Hij Hab. inversion Hab; subst a b. clear Hab. destruct (existsb _ idx) eqn:E; [|reflexivity]. exfalso. apply existsb_exists in E as ([a b] & Hin & Ht). cbn [fst snd] in Ht.
      rewrite Forall_forall in HP'. pose proof (HP' _ Hin) as Hab. cbn [fst snd] in Hab.
      apply orb_true_iff in Ht. rewrite !andb_true_iff, !Nat.eqb_eq in Ht.
      assert ((a, b) = (p, q)); [|congruence].
      destruct Hij as [Hij|Hij]; injection Hij as -> ->; destruct Ht as [[-> ->]|[-> ->]]; auto; lia. }
    destruct (Nat.eqb_spec i p) as [Ep|Ep], (Nat.eqb_spec j q) as [Eq|Eq]; cbn [andb orb].
    + subst. rewrite (NO p q) by auto. destruct (Nat.eqb_spec p q); [lia|]. cbn [andb]. ring.
    + destruct (Nat.eqb_spec i q); [lia|]. cbn [andb orb]. destruct (existsb _ idx); ring.
    + destruct (Nat.eqb_spec i q) as [Eiq|Eiq], (Nat.eqb_spec j p) as [Ejp|Ejp]; cbn [andb orb]; try lia; destruct (existsb _ idx); ring.
    + destruct (Nat.eqb_spec i q) as [Eiq|Eiq], (Nat.eqb_spec j p) as [Ejp|Ejp]; cbn [andb orb];
        try (destruct (existsb _ idx); ring). subst. rewrite (NO p q) by auto. ring.
Qed.
Lemma fill_is_kmat N idx k ko i j : rotation_pairs N idx -> length k = length idx -> length ko = length idx ->
  fill_kappa k ko idx zero_mat i j = kmat idx (sub k ko) i j.
Proof. intros HP H1 H2. rewrite (fill_kmat N idx HP) by auto. unfold zero_mat. destruct (existsb _ _); ring. Qed.
Lemma rotate_times N idx c k ko : rotation_pairs N idx -> length k = length idx -> length ko = length idx ->
  rotate N c (fill_kappa k ko idx zero_mat) = times_exp N c (kmat idx (sub k ko)).
Proof.
  intros HP H1 H2. unfold rotate, times_exp. apply tab_ext. intros i j Hi Hj. rewrite matmulE. apply tsum_ext. intros l Hl.
  cbn [rmul R_CRing]. f_equal. apply expm_ext; auto. intros a b _ _. unfold mscal. rewrite (fill_is_kmat N) by auto. ring.
Qed.

Lemma kmat_sub idx : forall a b i j, length a = length idx -> length b = length idx ->
  kmat idx (sub a b) i j = kmat idx a i j - kmat idx b i j.
Proof.
  induction idx as [|[p q] idx IH]; intros [|x a] [|y b] i j H1 H2; try discriminate; [cbn; ring|].
  cbn [sub map2 kmat]. fold (sub a b). rewrite IH by (cbn in *; congruence).
  destruct (Nat.eqb i p && Nat.eqb j q); [ring|]. destruct (Nat.eqb i q && Nat.eqb j p); ring.
Qed.
Lemma kmat_antisym N idx d : forall i j, Forall (fun pq => fst pq < snd pq < N)%nat idx -> kmat idx d j i = - kmat idx d i j.
Proof.
  revert d. induction idx as [|[p q] idx IH]; intros [|x d] i j H; cbn [kmat]; try ring.
  inversion_clear H as [|? ? Hpq H']. cbn [fst snd] in Hpq. rewrite IH by auto.
  destruct (Nat.eqb_spec i p), (Nat.eqb_spec j q), (Nat.eqb_spec i q), (Nat.eqb_spec j p); cbn [andb]; try ring; lia.
Qed.

Section Histories.
  Variables (N : nat) (kappa_idx : list (nat * nat)).
  Variables (h_ao : nat -> nat -> R) (g_ao : nat -> nat -> nat -> nat -> R).
  Variables (tiny : R -> bool) (sp : space) (th : threads).
  Variables (struct : list UPSModel.exc) (csf : list R).
  (** The object was built: valid determinant space, valid gates, reference
      vector of the right length, square orbital coefficients, rotation pairs. *)
  Hypothesis HS : sector tiny sp th.
  Hypothesis H0 : tiny 0 = true.
  Hypothesis Hgates : Forall (gate_ok (sp_na sp) 0) struct.
  Hypothesis Hcsf : length csf = length (idx2det (sp_ci sp)).
  Hypothesis Hpairs : rotation_pairs N kappa_idx.
  Variable mo_coeffs : mat.
  Hypothesis Hmo : square N mo_coeffs.
  Notation obj := (init kappa_idx struct csf mo_coeffs).
  Notation hist := (history N kappa_idx h_ao g_ao tiny sp th struct csf).
  Notation rd := (fresh N h_ao g_ao tiny sp th struct csf).

  Lemma ups_total t : length t = length struct -> exists v, ups_state tiny sp th 0 struct t false csf = Ok v.
  Proof.
    intros HL. destruct (C23_dagger_is_inverse tiny sp th 0 struct t csf HS Hgates HL Hcsf false) as (o & E & _). eauto.
  Qed.

  (** A machine without any cache: it keeps the parameters and the orbitals, and
      recomputes everything that is read. *)
  Definition plain_step (o : op) (r : ref) : ref * Res val :=
    match o with
    | SetKappa k _ => ({| r_k := k; r_C := times_exp N (r_C r) (kmat kappa_idx (sub k (r_k r))); r_t := r_t r |}, Ok VUnit)
    | SetThetas t _ => if Nat.eqb (length t) (length struct) then ({| r_k := r_k r; r_C := r_C r; r_t := t |}, Ok VUnit)
                       else (r, Raise ValueError)
    | Read a => (r, rd a r)
    end.
  Fixpoint plain (l : list op) (r : ref) : ref * list (Res val) :=
    match l with
    | [] => (r, [])
    | o :: l' => let '(r', v) := plain_step o r in let '(r'', vs) := plain l' r' in (r'', v :: vs)
    end.
  Definition start : ref := {| r_k := map (fun _ => 0) kappa_idx; r_C := mo_coeffs; r_t := map (fun _ => 0) struct |}.

  (** Histories: every kappa has one value per rotation pair; the three- and
      four-particle density matrices are read only after thetas have been set
      (see [C29_rdm3_before_thetas_refuted]). *)
  Fixpoint admissible (b : bool) (l : list op) : Prop :=
    match l with
    | [] => True
    | SetKappa k _ :: l' => length k = length kappa_idx /\ admissible b l'
    | SetThetas t _ :: l' => admissible (b || Nat.eqb (length t) (length struct)) l'
    | Read a :: l' => (needs_thetas a = true -> b = true) /\ admissible b l'
    end.

  Notation Inv := (inv N kappa_idx h_ao g_ao tiny sp th struct csf).
  Lemma step_ok b o r s : admissible b [o] -> Inv b r s ->
    exists s', do_op N kappa_idx h_ao g_ao tiny sp th struct csf o s = (s', snd (plain_step o r)) /\
      Inv (match o with SetThetas t _ => b || Nat.eqb (length t) (length struct) | _ => b end) (fst (plain_step o r)) s'.
  Proof.
    intros HA HI. destruct o as [k arr|t arr|a]; cbn [admissible do_op plain_step fst snd] in *.
    - destruct HA as [HL _].
      destruct (set_kappa_ok N kappa_idx h_ao g_ao tiny sp th struct csf b r k arr HL s HI) as (s' & E & I & _).
      rewrite (rotate_times N) in I by (auto; apply HI).
      exists s'. unfold tag, mbind. rewrite E. split; [reflexivity|exact I].
    - destruct (Nat.eqb_spec (length t) (length struct)) as [HL|HL].
      + destruct (set_thetas_ok N kappa_idx h_ao g_ao tiny sp th struct csf ups_total b r t arr HL s HI) as (s' & E & I & _).
        exists s'. unfold tag, mbind. rewrite E. rewrite orb_true_r. split; [reflexivity|exact I].
      + exists s. unfold tag, mbind. rewrite (set_thetas_bad N kappa_idx h_ao g_ao tiny sp th struct csf b r t arr HL s HI).
        rewrite orb_false_r. auto.
    - destruct HA as [Hb _].
      assert (EC : exists ci, ups_state tiny sp th 0 struct (r_t r) false csf = Ok ci) by (apply ups_total, HI).
      destruct (good_read N kappa_idx h_ao g_ao tiny sp th struct csf b r a Hb EC s HI) as (s' & E & I).
      exists s'. rewrite E. split; [reflexivity|exact I].
  Qed.
  Lemma admissible_1 b o l : admissible b (o :: l) -> admissible b [o] /\
    admissible (match o with SetThetas t _ => b || Nat.eqb (length t) (length struct) | _ => b end) l.
  Proof. destruct o; cbn; tauto. Qed.
  Lemma history_ok l : forall b r s, admissible b l -> Inv b r s ->
    snd (hist l s) = snd (plain l r) /\ exists b', Inv b' (fst (plain l r)) (fst (hist l s)).
  Proof.
    induction l as [|o l IH]; intros b r s HA HI; [cbn; eauto|]. apply admissible_1 in HA as [Ha Hl].
    destruct (step_ok b o r s Ha HI) as (s' & E & I). destruct (IH _ _ _ Hl I) as (V & b' & I').
    cbn [history plain]. rewrite E. destruct (plain_step o r) as [r' v]. cbn [fst snd] in *.
    destruct (hist l s') as [s'' vs]. destruct (plain l r') as [r'' vs']. cbn [fst snd] in *. subst. eauto.
  Qed.

  (** C29: every history of assignments and reads on a new object returns exactly
      what the machine without caches returns. *)
  Theorem C29_cache_coherence (l : list op) : admissible false l -> snd (hist l obj) = snd (plain l start).
  Proof.
    intros HA. apply (history_ok l false start obj HA). apply init_inv; auto.
  Qed.

  (** In particular, after any such history, any attribute that is read has the
      freshly computed value. *)
  Theorem C29_read_is_fresh (l : list op) (a : attr) : admissible false (l ++ [Read a]) ->
    last (snd (hist (l ++ [Read a]) obj)) Hang = rd a (fst (plain l start)).
  Proof.
    intros HA. rewrite C29_cache_coherence by exact HA. clear. generalize start. induction l as [|o l IH]; intros r; [reflexivity|].
    cbn [app plain]. destruct (plain_step o r) as [r' v]. specialize (IH r'). destruct (plain l r') as [r1 v1] eqn:E1.
    destruct (plain (l ++ [Read a]) r') as [r2 v2] eqn:E2. cbn [fst snd] in *. destruct v2; [|exact IH].
    exfalso. destruct l as [|o' l']; cbn in E2; [discriminate|]. destruct (plain_step o' r'). destruct (plain (l' ++ [Read a]) r0). discriminate.
  Qed.

  (** The missing initialisation of [_rdm3] and [_rdm4]: reading them on a new
      object raises AttributeError, although the fresh value exists. *)
  Theorem C29_rdm3_before_thetas_refuted :
    snd (hist [Read ARdm3] obj) = [Raise AttributeError] /\ snd (hist [Read ARdm4] obj) = [Raise AttributeError]
    /\ exists x y, rd ARdm3 start = Ok (VArr x) /\ rd ARdm4 start = Ok (VArr y).
  Proof.
    split; [reflexivity|]. split; [reflexivity|].
    pose proof (init_inv N kappa_idx h_ao g_ao tiny sp th struct csf mo_coeffs Hmo H0) as HI.
    pose proof (i_ci _ _ _ _ _ _ _ _ _ _ _ _ HI) as Hci. cbn [r_t init w_ci] in Hci.
    destruct HS as [Ht Hp (na' & nb' & Hi) Hth].
    destruct (C59_rdm3_rdm4 tiny sp th no_ansatz na' nb' csf) as (r3 & r4 & E3 & E4 & _).
    { repeat split; auto. exact R_exact_small. }
    exists r3, r4. cbn [fresh start r_t]. rewrite Hci. cbn [bind]. rewrite E3, E4. split; reflexivity.
  Qed.

  (** ** C30: orbital coefficients *)
  (** One assignment multiplies by [exp(-(kappa_new - kappa_old))]; this holds
      after every history. *)
  Theorem C30_step (l : list op) (k : list R) (arr : bool) : admissible false l -> length k = length kappa_idx ->
    exists c ko, snd (hist [Read AC; Read AKappa] (fst (hist l obj))) = [Ok (VMat c); Ok (VVec ko)] /\
      snd (hist [SetKappa k arr; Read AC; Read AKappa] (fst (hist l obj)))
      = [Ok VUnit; Ok (VMat (times_exp N c (kmat kappa_idx (sub k ko)))); Ok (VVec k)].
  Proof.
    intros HA HL. destruct (history_ok l false start obj HA) as (_ & b & I). { apply init_inv; auto. }
    set (r := fst (plain l start)) in *. exists (r_C r), (r_k r). split.
    - destruct (history_ok [Read AC; Read AKappa] b r _ ltac:(cbn; repeat split; discriminate) I) as (V & _). exact V.
    - destruct (history_ok [SetKappa k arr; Read AC; Read AKappa] b r _ ltac:(cbn; repeat split; auto; discriminate) I) as (V & _). exact V.
  Qed.

  (** A sequence of kappa assignments in which each matrix commutes with the next
      gives [C exp(-kappa)] for the last one; in particular a single assignment. *)
  Definition commuting (a b : list R) : Prop := forall i j, (i < N)%nat -> (j < N)%nat ->
    tsum N (fun m => kmat kappa_idx a i m * kmat kappa_idx b m j) = tsum N (fun m => kmat kappa_idx b i m * kmat kappa_idx a m j).
  Fixpoint commuting_path (k0 : list R) (ks : list (list R)) : Prop :=
    match ks with [] => True | k :: r => length k = length kappa_idx /\ commuting k0 k /\ commuting_path k r end.
  Lemma times_exp_exp c k k' : length k = length kappa_idx -> length k' = length kappa_idx -> commuting k k' ->
    times_exp N (times_exp N c (kmat kappa_idx k)) (kmat kappa_idx (sub k' k)) = times_exp N c (kmat kappa_idx k').
  Proof.
    intros H1 H2 HC. unfold times_exp at 1 3. apply tab_ext. intros i j Hi Hj.
    set (A := fun a b => - kmat kappa_idx k a b). set (B := fun a b => - kmat kappa_idx (sub k' k) a b).
    transitivity (matmul N (matmul N (ent c) (expm N A)) (expm N B) i j).
    { apply tsum_ext. intros m Hm. unfold times_exp. rewrite ent_tab by auto. reflexivity. }
    rewrite <- matmul_assoc. apply tsum_ext. intros m Hm. cbn [rmul R_CRing]. f_equal.
    rewrite <- (expm_plus N A B) by (auto; intros a b Ha Hb; unfold A, B; rewrite !matmulE;
      rewrite (tsum_ext N _ (fun m => kmat kappa_idx k a m * kmat kappa_idx k' m b + - (kmat kappa_idx k a m * kmat kappa_idx k m b)))
        by (intros; rewrite kmat_sub by auto; ring);
      rewrite (tsum_ext N (fun l => - kmat kappa_idx (sub k' k) a l * - kmat kappa_idx k l b)
               (fun m => kmat kappa_idx k' a m * kmat kappa_idx k m b + - (kmat kappa_idx k a m * kmat kappa_idx k m b)))
        by (intros; rewrite kmat_sub by auto; ring);
      rewrite !tplus; rewrite (HC a b Ha Hb); reflexivity).
    apply expm_ext; auto. intros a b _ _. unfold madd2, A, B. rewrite kmat_sub by auto. ring.
  Qed.
  Theorem C30_commuting_path (ks : list (list R)) : ks <> [] -> commuting_path (map (fun _ => 0) kappa_idx) ks ->
    last (snd (hist (map (fun k => SetKappa k false) ks ++ [Read AC]) obj)) Hang
    = Ok (VMat (times_exp N mo_coeffs (kmat kappa_idx (last ks [])))).
  Proof.
    intros Hne HP.
    assert (HA : forall ks k0, commuting_path k0 ks -> admissible false (map (fun k => SetKappa k false) ks ++ [Read AC])).
    { clear. induction ks as [|k ks IH]; intros k0 H; [cbn; split; [discriminate|trivial]|]. destruct H as (H1 & _ & H2). cbn. eauto. }
    rewrite C29_read_is_fresh by eauto. cbn [fresh]. do 2 f_equal.
    assert (G : forall ks k0 r, ks <> [] -> length k0 = length kappa_idx -> commuting_path k0 ks -> r_k r = k0 ->
       r_C r = times_exp N mo_coeffs (kmat kappa_idx k0) ->
       r_C (fst (plain (map (fun k => SetKappa k false) ks) r)) = times_exp N mo_coeffs (kmat kappa_idx (last ks []))).
    { clear - Hpairs. induction ks as [|k ks IH]; intros k0 r Hne HL H Hk HC; [easy|]. destruct H as (H1 & H2 & H3).
      cbn [map plain plain_step].
      set (r' := {| r_k := k; r_C := times_exp N (r_C r) (kmat kappa_idx (sub k (r_k r))); r_t := r_t r |}).
      assert (HC' : r_C r' = times_exp N mo_coeffs (kmat kappa_idx k)).
      { cbn [r_C r']. rewrite HC, Hk. apply times_exp_exp; auto. }
      destruct (plain (map (fun k => SetKappa k false) ks) r') as [r'' vs] eqn:E. cbn [fst].
      destruct ks as [|k' ks']; [cbn in E; injection E as <- _; exact HC'|].
      specialize (IH k r' ltac:(discriminate) H1 H3 eq_refl HC'). rewrite E in IH. exact IH. }
    apply (G ks (map (fun _ => 0) kappa_idx) start); auto; [apply map_length|].
    cbn [start r_C]. unfold times_exp. rewrite <- (tab_ent N mo_coeffs Hmo) at 1. apply tab_ext. intros i j Hi Hj.
    rewrite <- (matmul_1_r N (ent mo_coeffs) i j Hj), matmulE. apply tsum_ext. intros m Hm. cbn [rmul R_CRing]. f_equal.
    symmetry. apply expm_0; auto. intros a b _ _.
    assert (Z : forall idx a b, kmat idx (map (fun _ => 0) idx) a b = 0).
    { clear. induction idx as [|[p q] idx IH]; intros a b; cbn; [reflexivity|]. rewrite IH. destruct (_ && _); [ring|]. destruct (_ && _); ring. }
    rewrite Z. ring.
  Qed.
  Theorem C30_single_step (k : list R) : length k = length kappa_idx ->
    last (snd (hist [SetKappa k false; Read AC] obj)) Hang = Ok (VMat (times_exp N mo_coeffs (kmat kappa_idx k))).
  Proof.
    intros HL. apply (C30_commuting_path [k]); [discriminate|]. cbn. repeat split; auto.
    assert (Z : forall idx a b, kmat idx (map (fun _ => 0) idx) a b = 0).
    { clear. induction idx as [|[p q] idx IH]; intros a b; cbn; [reflexivity|]. rewrite IH. destruct (_ && _); [ring|]. destruct (_ && _); ring. }
    intros i j _ _. rewrite !tsum_0; [reflexivity| |]; intros m _; rewrite Z; cbn; ring.
  Qed.

  (** Orthonormality of the orbitals survives every history. *)
  Definition orthonormal (S : nat -> nat -> R) (c : mat) : Prop := forall i j, (i < N)%nat -> (j < N)%nat ->
    tsum N (fun a => tsum N (fun b => ent c a i * S a b * ent c b j)) = if Nat.eqb i j then 1 else 0.
  Lemma ortho_transform S c : orthonormal S c <-> meq N (one_electron_integral_transform N (ent c) S) mid.
  Proof.
    unfold orthonormal, meq. split; intros H i j Hi Hj; specialize (H i j Hi Hj).
    - rewrite transform1_matmul. transitivity (if Nat.eqb i j then 1 else 0); [|reflexivity]. rewrite <- H.
      apply tsum_ext. intros a _. cbn [rmul R_CRing]. unfold mtr. rewrite matmulE, tscal_l. apply tsum_ext. intros. ring.
    - rewrite transform1_matmul in H. transitivity (@mid R R_CRing i j); [|reflexivity]. rewrite <- H.
      apply tsum_ext. intros a _. cbn [rmul R_CRing]. unfold mtr. rewrite matmulE, tscal_l. apply tsum_ext. intros. ring.
  Qed.
  Lemma ortho_step S c A : (forall i j, (i < N)%nat -> (j < N)%nat -> A j i = - A i j) -> orthonormal S c -> orthonormal S (times_exp N c A).
  Proof.
    intros HA. rewrite !ortho_transform. intros H i j Hi Hj.
    set (U := expm N (fun a b => - A a b)). rewrite transform1_matmul.
    assert (E : forall a j, (a < N)%nat -> (j < N)%nat -> ent (times_exp N c A) a j = matmul N (ent c) U a j).
    { intros. unfold times_exp. rewrite ent_tab by auto. reflexivity. }
    transitivity (matmul N (mtr (matmul N (ent c) U)) (matmul N S (matmul N (ent c) U)) i j).
    { apply matmul_ext; intros k Hk.
      - unfold mtr. apply E; auto.
      - apply matmul_ext; [reflexivity|]. intros. apply E; auto. }
    transitivity (matmul N (mtr U) (matmul N (matmul N (mtr (ent c)) (matmul N S (ent c))) U) i j).
    { transitivity (matmul N (matmul N (mtr U) (mtr (ent c))) (matmul N S (matmul N (ent c) U)) i j).
      { apply matmul_ext; [|reflexivity]. intros. apply mtr_matmul. }
      rewrite <- matmul_assoc. apply matmul_ext; [reflexivity|]. intros k Hk. rewrite <- matmul_assoc.
      apply matmul_ext; [reflexivity|]. intros. rewrite matmul_assoc. reflexivity. }
    transitivity (matmul N (mtr U) U i j).
    { apply matmul_ext; [reflexivity|]. intros k Hk. transitivity (matmul N mid U k j).
      - apply matmul_ext; [|reflexivity]. intros l Hl. rewrite <- transform1_matmul. apply H; auto.
      - apply matmul_1_l; auto. }
    apply expm_orthogonal; auto. intros a b Ha Hb. rewrite HA by auto. ring.
  Qed.
  Theorem C30_orthonormality (S : nat -> nat -> R) (l : list op) : orthonormal S mo_coeffs -> admissible false l ->
    exists c, snd (hist [Read AC] (fst (hist l obj))) = [Ok (VMat c)] /\ orthonormal S c.
  Proof.
    intros HO HA. exists (r_C (fst (plain l start))). split.
    - destruct (history_ok l false start obj HA) as (_ & b & I). { apply init_inv; auto. }
      destruct (history_ok [Read AC] b _ _ ltac:(cbn; repeat split; discriminate) I) as (V & _). exact V.
    - assert (G : forall l r, orthonormal S (r_C r) -> orthonormal S (r_C (fst (plain l r)))).
      { clear - Hpairs. induction l as [|o l IH]; intros r H; [exact H|]. cbn [plain].
        assert (H' : orthonormal S (r_C (fst (plain_step o r)))).
        { destruct o as [k a|t a|a]; cbn [plain_step fst r_C]; auto.
          - apply ortho_step; auto. intros i j _ _. apply (kmat_antisym N). apply Hpairs.
          - destruct (Nat.eqb _ _); exact H. }
        destruct (plain_step o r) as [r' v]. specialize (IH r' H'). destruct (plain l r'). exact IH. }
      apply G. exact HO.
  Qed.
End Histories.

(** ** The orbitals depend on the path, not only on the final kappa *)
(** Three orbitals: one inactive, one active, one virtual; two active electrons. *)
Definition ex3_ci : ci_info := match get_indexing 1 1 1 with Ok c => c | _ => {| det2idx := []; idx2det := [] |} end.
Definition ex3_sp : space := {| sp_ni := 1; sp_na := 1; sp_nv := 1; sp_ci := ex3_ci |}.
Definition ex3_idx : list (nat * nat) := [(0, 1); (0, 2); (1, 2)]%nat.
Definition ex3_c : mat := tab 3 mid.
Lemma ex3_sector : sector rtiny ex3_sp None.
Proof.
  constructor; [intros c; apply rtiny_spec|cbn; lia|exists 1%Z, 1%Z; vm_compute; reflexivity|discriminate].
Qed.
Lemma ex3_pairs : rotation_pairs 3 ex3_idx.
Proof. split; [repeat constructor; cbn; intuition congruence|repeat constructor; cbn; lia]. Qed.
Lemma rtiny_0 : rtiny 0 = true. Proof. apply rtiny_spec. reflexivity. Qed.

Lemma plane_exp (i j : nat) (A : nat -> nat -> R) t : (i < j < 3)%nat ->
  meq 3 A (fun a b => t * (if Nat.eqb a i && Nat.eqb b j then 1 else if Nat.eqb a j && Nat.eqb b i then - 1 else 0)) ->
  forall a b, (a < 3)%nat -> (b < 3)%nat -> expm 3 (fun x y => - A x y) a b
   = if Nat.eqb a b then (if Nat.eqb a i || Nat.eqb a j then cos t else 1)
     else if Nat.eqb a i && Nat.eqb b j then - sin t else if Nat.eqb a j && Nat.eqb b i then sin t else 0.
Proof.
  intros Hij HA a b Ha Hb.
  set (G := fun a b : nat => (if Nat.eqb a i && Nat.eqb b j then 1 else if Nat.eqb a j && Nat.eqb b i then - 1 else 0)).
  rewrite (expm_ext 3 _ (mscal (- t) G)) by (auto; intros x y Hx Hy; unfold mscal, G; rewrite HA by auto; ring).
  rewrite (expm_rotation 3 G (- t)); auto.
  - rewrite sin_neg, cos_neg. assert (C : (i = 0 /\ j = 1 \/ i = 0 /\ j = 2 \/ i = 1 /\ j = 2)%nat) by lia.
    destruct a as [|[|[|]]]; [| | |lia]; (destruct b as [|[|[|]]]; [| | |lia]);
      destruct C as [[-> ->]|[[-> ->]|[-> ->]]]; cbn; unfold G, mid; cbn; ring.
  - intros x y Hx Hy. assert (C : (i = 0 /\ j = 1 \/ i = 0 /\ j = 2 \/ i = 1 /\ j = 2)%nat) by lia.
    destruct x as [|[|[|]]]; [| | |lia]; (destruct y as [|[|[|]]]; [| | |lia]);
      destruct C as [[-> ->]|[[-> ->]|[-> ->]]]; unfold mscal; cbn; unfold G; cbn; ring.
Qed.

Theorem C30_path_dependence_refuted h_ao g_ao :
  let hist l := last (snd (history 3 ex3_idx h_ao g_ao rtiny ex3_sp None [] [1] l (init ex3_idx [] [1] ex3_c))) Hang in
  let a := PI / 2 in
  hist [SetKappa [a; 0; 0] false; SetKappa [a; a; 0] false; Read AKappa]
  = hist [SetKappa [0; a; 0] false; SetKappa [a; a; 0] false; Read AKappa] /\
  hist [SetKappa [a; 0; 0] false; SetKappa [a; a; 0] false; Read AC]
  <> hist [SetKappa [0; a; 0] false; SetKappa [a; a; 0] false; Read AC].
Proof.
  intros hist a.
  assert (R : forall l at_, admissible ex3_idx [] false (l ++ [Read at_]) ->
     hist (l ++ [Read at_]) = fresh 3 h_ao g_ao rtiny ex3_sp None [] [1] at_ (fst (plain 3 ex3_idx h_ao g_ao rtiny ex3_sp None [] [1] l (start ex3_idx [] ex3_c)))).
  { intros l at_ HA. exact (C29_read_is_fresh 3 ex3_idx h_ao g_ao rtiny ex3_sp None [] [1] ex3_sector rtiny_0 (Forall_nil _) eq_refl ex3_pairs
      ex3_c (tab_square 3 mid) l at_ HA). }
  split.
  - let E := fresh in pose proof (R [SetKappa [a; 0; 0] false; SetKappa [a; a; 0] false] AKappa ltac:(cbn; repeat split; discriminate)) as E; cbn [app] in E; rewrite E; clear E.
    let E := fresh in pose proof (R [SetKappa [0; a; 0] false; SetKappa [a; a; 0] false] AKappa ltac:(cbn; repeat split; discriminate)) as E; cbn [app] in E; rewrite E; clear E. reflexivity.
  - let E := fresh in pose proof (R [SetKappa [a; 0; 0] false; SetKappa [a; a; 0] false] AC ltac:(cbn; repeat split; discriminate)) as E; cbn [app] in E; rewrite E; clear E.
    let E := fresh in pose proof (R [SetKappa [0; a; 0] false; SetKappa [a; a; 0] false] AC ltac:(cbn; repeat split; discriminate)) as E; cbn [app] in E; rewrite E; clear E.
    cbn [plain plain_step fst fresh r_C r_k start map length ex3_idx]. intros E.
    assert (G : forall c1 c2, Ok (VMat c1) = Ok (VMat c2) -> ent c1 0 1 = ent c2 0 1) by (intros c1 c2 HG; congruence).
    apply G in E. unfold times_exp in E. rewrite !ent_tab in E by lia.
    cbn [tsum] in E. rewrite !ent_tab in E by lia. unfold ex3_c in E. rewrite !ent_tab in E by lia.
    cbn [radd rmul rO R_CRing] in E. fold ex3_idx in E.
    assert (P1 : forall k, (k = sub [a; 0; 0] [0; 0; 0] \/ k = sub [a; a; 0] [0; a; 0]) ->
      meq 3 (kmat ex3_idx k) (fun x y => a * (if Nat.eqb x 0 && Nat.eqb y 1 then 1 else if Nat.eqb x 1 && Nat.eqb y 0 then - 1 else 0))).
    { intros k [->| ->] x y Hx Hy; destruct x as [|[|[|]]]; try lia; destruct y as [|[|[|]]]; try lia; cbn; ring. }
    assert (P2 : forall k, (k = sub [0; a; 0] [0; 0; 0] \/ k = sub [a; a; 0] [a; 0; 0]) ->
      meq 3 (kmat ex3_idx k) (fun x y => a * (if Nat.eqb x 0 && Nat.eqb y 2 then 1 else if Nat.eqb x 2 && Nat.eqb y 0 then - 1 else 0))).
    { intros k [->| ->] x y Hx Hy; destruct x as [|[|[|]]]; try lia; destruct y as [|[|[|]]]; try lia; cbn; ring. }
    rewrite !(plane_exp 0 1 _ a ltac:(lia) (P1 _ (or_introl eq_refl))) in E by lia.
    rewrite !(plane_exp 0 1 _ a ltac:(lia) (P1 _ (or_intror eq_refl))) in E by lia.
    rewrite !(plane_exp 0 2 _ a ltac:(lia) (P2 _ (or_introl eq_refl))) in E by lia.
    rewrite !(plane_exp 0 2 _ a ltac:(lia) (P2 _ (or_intror eq_refl))) in E by lia.
    cbn in E. unfold a in E. rewrite sin_PI2, cos_PI2 in E. lra.
Qed.

(** ** Values of the wrong length *)
(** The [thetas] setter rejects a value of the wrong length and changes nothing
    ([set_thetas_bad], part of [C29_cache_coherence]).  The [kappa] setter does
    not: the object below keeps the rejected value, and every later read that
    needs the orbitals raises. *)
Theorem C29_rejected_kappa_refuted h_ao g_ao :
  snd (history 3 ex3_idx h_ao g_ao rtiny ex3_sp None [] [1]
    [SetKappa [1; 1] false; Read AKappa; Read AC; Read AH; Read AEnergy] (init ex3_idx [] [1] ex3_c))
  = [Raise ValueError; Ok (VVec [1; 1]); Raise ValueError; Raise ValueError; Raise ValueError].
Proof. reflexivity. Qed.
(** One value for three pairs is accepted, and the assignment after it loses
    the rotations of the second and third pair. *)
Theorem C29_short_kappa_refuted h_ao g_ao :
  snd (history 3 ex3_idx h_ao g_ao rtiny ex3_sp None [] [1]
    [SetKappa [0] false; SetKappa [0; PI / 2; 0] false; Read AKappa; Read AC] (init ex3_idx [] [1] ex3_c))
  = [Ok VUnit; Ok VUnit; Ok (VVec [0; PI / 2; 0]); Ok (VMat ex3_c)].
Proof.
  cbn [history do_op].
  assert (K1 : kappa_mat ex3_idx [0] [0; 0; 0] = Ok zero_mat).
  { unfold kappa_mat. cbn. destruct (Rlt_dec 0 _) as [H|H]; [|reflexivity]. exfalso. revert H.
    rewrite !Rminus_0_r, !Rabs_R0. unfold Rmax. destruct (Rle_dec 0 0); [|lra]. destruct (Rle_dec 0 0); lra. }
  assert (K2 : exists km, kappa_mat ex3_idx [0; PI / 2; 0] [0] = Ok km /\ meq 3 km (fun _ _ => 0)).
  { unfold kappa_mat. cbn. destruct (Rlt_dec 0 _) as [H|H]; eexists; (split; [reflexivity|]); [|intros i j _ _; reflexivity].
    intros i j Hi Hj. unfold upd2, zero_mat. destruct (_ && _); [ring|]. destruct (_ && _); ring. }
  destruct K2 as (km & K2 & Hkm).
  unfold tag, set_kappa, mbind, modify, gets, get_c_mo, ret.
  cbn [w_kappa w_kold w_cmo set_k set_energy set_g set_h set_cmo set_kold init map ex3_idx]. fold ex3_idx. rewrite K1. cbn [bind].
  cbn [w_kappa w_kold w_cmo set_k set_energy set_g set_h set_cmo set_kold]. rewrite K2. cbn [bind].
  unfold read, tag, mbind, gets, get_c_mo, ret. cbn [w_kappa w_kold w_cmo set_k set_energy set_g set_h set_cmo set_kold snd].
  rewrite (rotate_0 3 ex3_c zero_mat) by (try apply tab_square; intros i j _ _; reflexivity).
  rewrite (rotate_0 3 ex3_c km) by (try apply tab_square; auto).
  destruct (kappa_mat_same ex3_idx 3 ex3_c [0; PI / 2; 0] (tab_square 3 mid)) as (k3 & E3 & R3). rewrite E3. cbn [bind]. rewrite R3.
  reflexivity.
Qed.

(** ** Concrete cases *)
Definition ex_history : list op :=
  [Read AEnergy; SetKappa [1; 0; PI] false; Read AH; SetThetas [2] false; SetThetas [] true; Read ARdm4; Read AEnergy;
   SetKappa [0; 0; 0] true; Read AEnergy].
Example C29_example h_ao g_ao : admissible ex3_idx [] false ex_history /\
  nth 3 (snd (history 3 ex3_idx h_ao g_ao rtiny ex3_sp None [] [1] ex_history (init ex3_idx [] [1] ex3_c))) (Ok VUnit) = Raise ValueError.
Proof.
  assert (HA : admissible ex3_idx [] false ex_history) by (cbn; repeat split; discriminate). split; [exact HA|].
  rewrite (C29_cache_coherence 3 ex3_idx h_ao g_ao rtiny ex3_sp None [] [1] ex3_sector rtiny_0 (Forall_nil _) eq_refl ex3_pairs
    ex3_c (tab_square 3 mid) ex_history HA). reflexivity.
Qed.
(** The hypotheses are also met by an object with ten ansatz parameters. *)
Example C29_example_ansatz : sector rtiny Props_UPS.ex_sp None /\ Forall (gate_ok (sp_na Props_UPS.ex_sp) 0) ex_struct /\
  length (1 :: repeat 0 35) = length (idx2det (sp_ci Props_UPS.ex_sp)) /\ rotation_pairs 6 [(0, 1); (0, 2); (0, 5); (1, 5)]%nat /\ square 6 (tab 6 mid).
Proof.
  split; [apply C21_example|]. split; [apply C21_example|]. split; [symmetry; apply C21_example|]. split; [|apply tab_square].
  split; [repeat constructor; cbn; intuition congruence|repeat constructor; cbn; lia].
Qed.
Example C30_example : commuting_path 3 ex3_idx [0; 0; 0] [[1; 0; 0]; [- 2; 0; 0]] /\ orthonormal 3 mid ex3_c /\
  kmat ex3_idx [5; 6; 7] 2 1 = - 7.
Proof.
  split; [|split].
  - cbn [commuting_path]. repeat split; intros i j Hi Hj; destruct i as [|[|[|]]]; try lia; destruct j as [|[|[|]]]; try lia; cbn; ring.
  - intros i j Hi Hj. destruct i as [|[|[|]]]; try lia; destruct j as [|[|[|]]]; try lia; cbn; unfold mid; cbn; ring.
  - cbn. ring.
Qed.

Print Assumptions C29_cache_coherence.
Print Assumptions C29_read_is_fresh.
Print Assumptions C29_rdm3_before_thetas_refuted.
Print Assumptions C29_rejected_kappa_refuted.
Print Assumptions C29_short_kappa_refuted.
Print Assumptions C30_step.
Print Assumptions C30_commuting_path.
Print Assumptions C30_single_step.
Print Assumptions C30_orthonormality.
Print Assumptions C30_path_dependence_refuted.
