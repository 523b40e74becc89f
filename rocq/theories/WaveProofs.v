(** The caches of the wave-function object are coherent. *)
From Coq Require Import List Bool Arith NArith ZArith Reals Lra Lia.
From Verif Require Import Base RRing Fock FermiModel OperatorsModel CIModel StateModel UPSModel DensityModel MatModel MatProofs MatExp WaveModel.
Import ListNotations.
Local Open Scope R_scope.

(** Lists as matrices. *)
Definition square (n : nat) (c : mat) : Prop := length c = n /\ Forall (fun r => length r = n) c.
Lemma nth_map_seq {A} (f : nat -> A) n d k : (k < n)%nat -> nth k (map f (seq 0 n)) d = f k.
Proof. intros H. rewrite nth_indep with (d' := f 0%nat) by (rewrite map_length, seq_length; lia). rewrite map_nth, seq_nth by lia. reflexivity. Qed.
Lemma ent_tab n f i j : (i < n)%nat -> (j < n)%nat -> ent (tab n f) i j = f i j.
Proof. intros Hi Hj. unfold ent, tab. rewrite nth_map_seq, nth_map_seq by auto. reflexivity. Qed.
Lemma tab_square n f : square n (tab n f).
Proof.
  unfold tab. split; [rewrite map_length, seq_length; reflexivity|]. apply Forall_forall. intros r H.
  apply in_map_iff in H as (i & <- & _). rewrite map_length, seq_length. reflexivity.
Qed.
Lemma tab_ext n f g : meq n f g -> tab n f = tab n g.
Proof.
  intros H. unfold tab. apply map_ext_in. intros i Hi. apply in_seq in Hi. apply map_ext_in. intros j Hj. apply in_seq in Hj.
  apply H; lia.
Qed.
Lemma tab_ent n c : square n c -> tab n (ent c) = c.
Proof.
  intros [H1 H2]. unfold tab, ent. apply nth_ext with (d := []) (d' := []); [rewrite map_length, seq_length; auto|].
  intros i Hi. rewrite map_length, seq_length in Hi. rewrite nth_map_seq by auto.
  assert (Hr : length (nth i c []) = n). { rewrite Forall_forall in H2. apply H2, nth_In. lia. }
  apply nth_ext with (d := 0) (d' := 0); [rewrite map_length, seq_length; auto|].
  intros j Hj. rewrite map_length, seq_length in Hj. rewrite nth_map_seq by auto. reflexivity.
Qed.

(** Rotation matrices. *)
Lemma fill_same k idx : forall M, (forall i j, M i j = 0) -> forall i j, fill_kappa k k idx M i j = 0.
Proof.
  revert idx. induction k as [|x k IH]; intros [|[p q] idx] M HM i j; cbn; auto.
  apply IH. intros a b. unfold upd2. destruct (_ && _); [ring|]. destruct (_ && _); [ring|auto].
Qed.
Lemma rotate_ext N c A B : meq N A B -> rotate N c A = rotate N c B.
Proof.
  intros H. unfold rotate. apply tab_ext. intros i j Hi Hj. apply matmul_ext; [reflexivity|]. intros k Hk.
  apply expm_ext; auto. intros a b Ha Hb. unfold mscal. rewrite H; auto.
Qed.
Lemma rotate_0 N c A : square N c -> meq N A zero_mat -> rotate N c A = c.
Proof.
  intros Hc H. unfold rotate. rewrite <- (tab_ent N c Hc) at 2. apply tab_ext. intros i j Hi Hj.
  transitivity (matmul N (ent c) mid i j).
  - apply matmul_ext; [reflexivity|]. intros k Hk. apply expm_0; auto. intros a b Ha Hb. unfold mscal. rewrite H by auto.
    unfold zero_mat. ring.
  - apply matmul_1_r; auto.
Qed.

Lemma map2_length f a b : length a = length b -> length (map2 f a b) = length a.
Proof. revert b. induction a; intros [|y b] H; cbn in *; try discriminate; auto. Qed.
Lemma fold_max_ge l : forall m, m <= fold_left (fun m y => Rmax m (Rabs y)) l m.
Proof. induction l; intros m; cbn; [lra|]. eapply Rle_trans; [apply (Rmax_l m (Rabs a))|apply IHl]. Qed.
Lemma fold_max_in l : forall m y, In y l -> Rabs y <= fold_left (fun m y => Rmax m (Rabs y)) l m.
Proof.
  induction l; intros m y H; [easy|]. cbn. destruct H as [<-|H].
  - eapply Rle_trans; [apply (Rmax_r m (Rabs a))|apply fold_max_ge].
  - apply IHl, H.
Qed.
Lemma fold_max_0 l : forall m, m = 0 -> (forall y, In y l -> y = 0) -> fold_left (fun m y => Rmax m (Rabs y)) l m = 0.
Proof.
  induction l; intros m Hm H; cbn; [auto|]. apply IHl.
  - rewrite (H a) by (left; auto). rewrite Hm, Rabs_R0. apply Rmax_left. lra.
  - intros. apply H. right; auto.
Qed.
Lemma map2_minus_0 a b : length a = length b -> (forall y, In y (map2 Rminus a b) -> y = 0) -> a = b.
Proof.
  revert b. induction a; intros [|y b] HL H; cbn in *; try discriminate; auto.
  f_equal; [|apply IHa; auto]. specialize (H _ (or_introl eq_refl)). lra.
Qed.
Lemma map2_minus_same a y : In y (map2 Rminus a a) -> y = 0.
Proof. induction a; cbn; [easy|]. intros [<-|H]; [ring|auto]. Qed.
Lemma np_max_abs_0 l m : np_max_abs l = Ok m -> ~ 0 < m -> forall y, In y l -> y = 0.
Proof.
  destruct l as [|x r]; cbn; [discriminate|]. intros E Hm y Hy. assert (E' : fold_left (fun m y => Rmax m (Rabs y)) r (Rabs x) = m) by congruence.
  assert (Rabs y <= m). { rewrite <- E'. destruct Hy as [<-|Hy]; [apply fold_max_ge|apply fold_max_in, Hy]. }
  destruct (Req_dec y 0) as [|Hn]; [auto|]. apply Rabs_pos_lt in Hn. lra.
Qed.

(** The antisymmetric matrix of a parameter change. *)
Lemma kappa_mat_ok idx N c k kold : length k = length kold -> square N c ->
  exists km, kappa_mat idx k kold = Ok km /\ rotate N c km = rotate N c (fill_kappa k kold idx zero_mat).
Proof.
  intros HL Hc. unfold kappa_mat. destruct k as [|x k].
  - exists zero_mat. split; [reflexivity|]. destruct kold; [|discriminate]. reflexivity.
  - unfold np_op. rewrite HL, Nat.eqb_refl. set (d := map2 Rminus (x :: k) kold).
    assert (exists m, np_max_abs d = Ok m) as [m Em].
    { unfold d. destruct kold; [discriminate|]. cbn. eexists; reflexivity. }
    cbn [bind]. rewrite Em. cbn [bind]. destruct (Rlt_dec 0 m) as [Hm|Hm]; [eauto|].
    exists zero_mat. split; [reflexivity|].
    assert (x :: k = kold) as <-. { apply map2_minus_0; auto. apply (np_max_abs_0 _ _ Em Hm). }
    apply rotate_ext. intros i j _ _. rewrite fill_same; reflexivity.
Qed.
Lemma kappa_mat_same idx N c k : square N c -> exists km, kappa_mat idx k k = Ok km /\ rotate N c km = c.
Proof.
  intros Hc. destruct (kappa_mat_ok idx N c k k eq_refl Hc) as (km & E & R). exists km. split; [exact E|].
  rewrite R. apply rotate_0; auto. intros i j _ _. apply fill_same. reflexivity.
Qed.

Section Coherence.
  Variables (N : nat) (kappa_idx : list (nat * nat)).
  Variables (h_ao : nat -> nat -> R) (g_ao : nat -> nat -> nat -> nat -> R).
  Variables (tiny : R -> bool) (sp : space) (th : threads).
  Variables (struct : list exc) (csf : list R).
  Notation ups t := (ups_state tiny sp th 0 struct t false csf).
  Notation rdm1_of := (wf_rdm1 tiny sp th no_ansatz).
  Notation rdm2_of := (wf_rdm2 tiny sp th no_ansatz).
  Notation rdm3_of := (wf_rdm3 tiny sp th no_ansatz).
  Notation rdm4_of := (wf_rdm4 tiny sp th no_ansatz).
  Notation h_of c := (one_electron_integral_transform N (ent c) h_ao).
  Notation g_of c := (two_electron_integral_transform N (ent c) g_ao).
  Notation e_of c v := (energy_of tiny sp th (h_of c) (g_of c) v).
  Hypothesis Hups : forall t, length t = length struct -> exists v, ups t = Ok v.

  (** What the caches must agree with: current parameters, orbitals, CI vector. *)
  Record ref := { r_k : list R; r_C : mat; r_t : list R }.
  Definition cached {A} (o : option A) (v : Res A) : Prop := match o with None => True | Some x => v = Ok x end.
  (** [b]: the thetas have been assigned at least once. *)
  Record inv (b : bool) (r : ref) (s : wf) : Prop := {
    i_k : w_kappa s = r_k r; i_ko : w_kold s = r_k r; i_kl : length (r_k r) = length kappa_idx;
    i_c : w_cmo s = r_C r; i_sq : square N (r_C r);
    i_t : w_thetas s = r_t r; i_tl : length (r_t r) = length struct; i_ci : ups (r_t r) = Ok (w_ci s);
    i_h : cached (w_h s) (Ok (h_of (r_C r))); i_g : cached (w_g s) (Ok (g_of (r_C r)));
    i_r1 : cached (w_rdm1 s) (rdm1_of (w_ci s)); i_r2 : cached (w_rdm2 s) (rdm2_of (w_ci s));
    i_r3 : match w_rdm3 s with None => b = false | Some o => cached o (rdm3_of (w_ci s)) end;
    i_r4 : match w_rdm4 s with None => b = false | Some o => cached o (rdm4_of (w_ci s)) end;
    i_e : cached (w_energy s) (e_of (r_C r) (w_ci s))
  }.
  Definition goodat {A} (b : bool) (r : ref) (m : M A) (v : Res A) : Prop :=
    forall s, inv b r s -> exists s', m s = (s', v) /\ inv b r s'.

  Lemma good_ret {A} b r (a : A) : goodat b r (ret a) (Ok a).
  Proof. intros s H. exists s. auto. Qed.
  Lemma good_lift {A} b r (v : Res A) : goodat b r (lift v) v.
  Proof. intros s H. exists s. auto. Qed.
  Lemma good_bind {A B} b r (m : M A) (k : A -> M B) v w :
    goodat b r m v -> (forall a, v = Ok a -> goodat b r (k a) (w a)) -> goodat b r (mbind m k) (bind v w).
  Proof.
    intros Hm Hk s H. destruct (Hm s H) as (s1 & E1 & I1). unfold mbind. rewrite E1.
    destruct v as [a|e|]; cbn [bind]; [apply (Hk a eq_refl s1 I1)|eauto|eauto].
  Qed.
  Lemma good_tag {A} b r (f : A -> val) m v : goodat b r m v -> goodat b r (tag f m) (bind v (fun a => Ok (f a))).
  Proof. intros H. apply good_bind; auto. intros. apply good_ret. Qed.
  Lemma good_ci {A} b r (k : list R -> M A) w :
    (forall ci, ups (r_t r) = Ok ci -> goodat b r (k ci) (w ci)) -> goodat b r (mbind (gets w_ci) k) (bind (ups (r_t r)) w).
  Proof.
    intros Hk s H. unfold mbind, gets. rewrite (i_ci _ _ _ H). cbn [bind]. apply (Hk _ (i_ci _ _ _ H) s H).
  Qed.

  Lemma good_c b r : goodat b r (get_c_mo N kappa_idx) (Ok (r_C r)).
  Proof.
    intros s H. exists s. split; [|auto]. unfold get_c_mo. rewrite (i_k _ _ _ H), (i_ko _ _ _ H), (i_c _ _ _ H).
    destruct (kappa_mat_same kappa_idx N (r_C r) (r_k r) (i_sq _ _ _ H)) as (km & E & R). rewrite E. cbn [bind]. rewrite R. reflexivity.
  Qed.
  Ltac keep H := constructor; try apply H; cbn [w_rdm1 w_rdm2 w_rdm3 w_rdm4 w_ci w_h w_g w_energy cached set_h set_g set_r1 set_r2 set_r3 set_r4 set_energy]; auto.
  Lemma good_h b r : goodat b r (get_h N kappa_idx h_ao) (Ok (h_of (r_C r))).
  Proof.
    intros s H. unfold get_h. pose proof (i_h _ _ _ H) as Hh. destruct (w_h s) as [x|] eqn:E; cbn [cached] in Hh.
    - exists s. rewrite Hh. auto.
    - destruct (good_c b r s H) as (s1 & E1 & I1). unfold mbind. rewrite E1. unfold modify, ret.
      eexists. split; [reflexivity|]. keep I1.
  Qed.
  Lemma good_g b r : goodat b r (get_g N kappa_idx g_ao) (Ok (g_of (r_C r))).
  Proof.
    intros s H. unfold get_g. pose proof (i_g _ _ _ H) as Hh. destruct (w_g s) as [x|] eqn:E; cbn [cached] in Hh.
    - exists s. rewrite Hh. auto.
    - destruct (good_c b r s H) as (s1 & E1 & I1). unfold mbind. rewrite E1. unfold modify, ret.
      eexists. split; [reflexivity|]. keep I1.
  Qed.

  Lemma good_r1 b r ci : ups (r_t r) = Ok ci -> goodat b r (get_rdm1 tiny sp th) (rdm1_of ci).
  Proof.
    intros Hci s H. assert (ci = w_ci s) as -> by (pose proof (i_ci _ _ _ H); congruence).
    unfold get_rdm1. pose proof (i_r1 _ _ _ H) as Hr. destruct (w_rdm1 s) as [x|] eqn:E; cbn [cached] in Hr.
    - exists s. rewrite Hr. auto.
    - unfold mbind, gets, lift. change (rdm1_loop (fun p q => ev tiny sp th (w_ci s) [Epq p q]) (sp_ni sp) (sp_na sp)) with (rdm1_of (w_ci s)).
      destruct (rdm1_of (w_ci s)) as [x|e|] eqn:V; [|exists s; auto|exists s; auto].
      unfold modify, ret. eexists. split; [reflexivity|]. keep H.
  Qed.
  Lemma good_r2 b r ci : ups (r_t r) = Ok ci -> goodat b r (get_rdm2 tiny sp th) (rdm2_of ci).
  Proof.
    intros Hci s H. assert (ci = w_ci s) as -> by (pose proof (i_ci _ _ _ H); congruence).
    unfold get_rdm2. pose proof (i_r2 _ _ _ H) as Hr. destruct (w_rdm2 s) as [x|] eqn:E; cbn [cached] in Hr.
    - exists s. rewrite Hr. auto.
    - destruct (good_r1 b r _ (i_ci _ _ _ H) s H) as (s1 & E1 & I1). unfold mbind. rewrite E1.
      unfold wf_rdm2. destruct (rdm1_of (w_ci s)) as [r1|e|] eqn:V1; cbn [bind]; [|eauto|eauto].
      assert (EC : w_ci s1 = w_ci s) by (pose proof (i_ci _ _ _ I1); pose proof (i_ci _ _ _ H); congruence).
      unfold gets, lift. rewrite EC.
      match goal with |- context[match ?x with Ok _ => _ | _ => _ end] => change x with (rdm2_loop (fun p q r s0 => ev_ops tiny sp th no_ansatz (w_ci s) [mmul (Epq p q) (Epq r s0)]) r1 (sp_ni sp) (sp_na sp)) end.
      destruct (rdm2_loop _ _ _ _) as [x|e|] eqn:V; [|eauto|eauto].
      unfold modify, ret. eexists. split; [reflexivity|]. keep I1. rewrite EC. unfold wf_rdm2. rewrite V1. cbn [bind]. exact V.
  Qed.
  Lemma good_r3 r ci : ups (r_t r) = Ok ci -> goodat true r (get_rdm3 tiny sp th) (rdm3_of ci).
  Proof.
    intros Hci s H. assert (ci = w_ci s) as -> by (pose proof (i_ci _ _ _ H); congruence).
    unfold get_rdm3. pose proof (i_r3 _ _ _ H) as Hr. destruct (w_rdm3 s) as [[x|]|] eqn:E; cbn [cached] in Hr; [| |discriminate].
    - exists s. rewrite Hr. auto.
    - destruct (good_r1 _ r _ (i_ci _ _ _ H) s H) as (s1 & E1 & I1). unfold mbind at 1. rewrite E1.
      unfold wf_rdm3. destruct (rdm1_of (w_ci s)) as [r1|e|] eqn:V1; cbn [bind]; [|eauto|eauto].
      destruct (good_r2 _ r _ (i_ci _ _ _ H) s1 I1) as (s2 & E2 & I2). unfold mbind at 1. rewrite E2.
      destruct (rdm2_of (w_ci s)) as [r2|e|] eqn:V2; cbn [bind]; [|eauto|eauto].
      assert (EC : w_ci s2 = w_ci s) by (pose proof (i_ci _ _ _ I2); pose proof (i_ci _ _ _ H); congruence).
      unfold mbind, gets, lift. rewrite EC.
      match goal with |- context[match ?x with Ok _ => _ | _ => _ end] => change x with (rdm3_loop (fun p q r s0 t u => ev_ops tiny sp th no_ansatz (w_ci s) [Epq p q; Epq r s0; Epq t u]) r1 r2 (sp_ni sp) (sp_na sp)) end.
      destruct (rdm3_loop _ _ _ _ _) as [x|e|] eqn:V; [|eauto|eauto].
      unfold modify, ret. eexists. split; [reflexivity|]. keep I2. rewrite EC. unfold wf_rdm3. rewrite V1, V2. cbn [bind]. exact V.
  Qed.
  Lemma good_r4 r ci : ups (r_t r) = Ok ci -> goodat true r (get_rdm4 tiny sp th) (rdm4_of ci).
  Proof.
    intros Hci s H. assert (ci = w_ci s) as -> by (pose proof (i_ci _ _ _ H); congruence).
    unfold get_rdm4. pose proof (i_r4 _ _ _ H) as Hr. destruct (w_rdm4 s) as [[x|]|] eqn:E; cbn [cached] in Hr; [| |discriminate].
    - exists s. rewrite Hr. auto.
    - destruct (good_r1 _ r _ (i_ci _ _ _ H) s H) as (s1 & E1 & I1). unfold mbind at 1. rewrite E1.
      unfold wf_rdm4. destruct (rdm1_of (w_ci s)) as [r1|e|] eqn:V1; cbn [bind]; [|eauto|eauto].
      destruct (good_r2 _ r _ (i_ci _ _ _ H) s1 I1) as (s2 & E2 & I2). unfold mbind at 1. rewrite E2.
      destruct (rdm2_of (w_ci s)) as [r2|e|] eqn:V2; cbn [bind]; [|eauto|eauto].
      destruct (good_r3 r _ (i_ci _ _ _ H) s2 I2) as (s3 & E3 & I3). unfold mbind at 1. rewrite E3.
      destruct (rdm3_of (w_ci s)) as [r3|e|] eqn:V3; cbn [bind]; [|eauto|eauto].
      assert (EC : w_ci s3 = w_ci s) by (pose proof (i_ci _ _ _ I3); pose proof (i_ci _ _ _ H); congruence).
      unfold mbind, gets, lift. rewrite EC.
      match goal with |- context[match ?x with Ok _ => _ | _ => _ end] => change x with (rdm4_loop (fun p q r s0 t u m n => ev_ops tiny sp th no_ansatz (w_ci s) [Epq p q; Epq r s0; Epq t u; Epq m n]) r1 r2 r3 (sp_ni sp) (sp_na sp)) end.
      destruct (rdm4_loop _ _ _ _ _ _) as [x|e|] eqn:V; [|eauto|eauto].
      unfold modify, ret. eexists. split; [reflexivity|]. keep I3. rewrite EC. unfold wf_rdm4. rewrite V1, V2, V3. cbn [bind]. exact V.
  Qed.
  Lemma good_e b r ci : ups (r_t r) = Ok ci -> goodat b r (get_energy N kappa_idx h_ao g_ao tiny sp th) (e_of (r_C r) ci).
  Proof.
    intros Hci s H. assert (ci = w_ci s) as -> by (pose proof (i_ci _ _ _ H); congruence).
    unfold get_energy. pose proof (i_e _ _ _ H) as Hr. destruct (w_energy s) as [x|] eqn:E; cbn [cached] in Hr.
    - exists s. rewrite Hr. auto.
    - destruct (good_h _ r s H) as (s1 & E1 & I1). unfold mbind at 1. rewrite E1.
      destruct (good_g _ r s1 I1) as (s2 & E2 & I2). unfold mbind at 1. rewrite E2.
      assert (EC : w_ci s2 = w_ci s) by (pose proof (i_ci _ _ _ I2); pose proof (i_ci _ _ _ H); congruence).
      unfold mbind, gets, lift. rewrite EC.
      destruct (energy_of _ _ _ _ _ _) as [x|e|] eqn:V; [|eauto|eauto].
      unfold modify, ret. eexists. split; [reflexivity|]. keep I2. rewrite EC. exact V.
  Qed.

  (** What a fresh recomputation gives. *)
  Definition fresh (a : attr) (r : ref) : Res val :=
    match a with
    | AC => Ok (VMat (r_C r))
    | AH => Ok (V2 (h_of (r_C r)))
    | AG => Ok (V4 (g_of (r_C r)))
    | AKappa => Ok (VVec (r_k r))
    | AThetas => Ok (VVec (r_t r))
    | ACi => bind (ups (r_t r)) (fun v => Ok (VVec v))
    | ARdm1 => bind (ups (r_t r)) (fun v => bind (rdm1_of v) (fun x => Ok (VArr x)))
    | ARdm2 => bind (ups (r_t r)) (fun v => bind (rdm2_of v) (fun x => Ok (VArr x)))
    | ARdm3 => bind (ups (r_t r)) (fun v => bind (rdm3_of v) (fun x => Ok (VArr x)))
    | ARdm4 => bind (ups (r_t r)) (fun v => bind (rdm4_of v) (fun x => Ok (VArr x)))
    | AEnergy => bind (ups (r_t r)) (fun v => bind (e_of (r_C r) v) (fun x => Ok (VNum x)))
    end.
  Definition needs_thetas (a : attr) : bool := match a with ARdm3 | ARdm4 => true | _ => false end.
  Lemma good_read b r a : (needs_thetas a = true -> b = true) -> (exists ci, ups (r_t r) = Ok ci) ->
    goodat b r (read N kappa_idx h_ao g_ao tiny sp th a) (fresh a r).
  Proof.
    intros Hb [ci Hci]. destruct a; cbn [read fresh]; try rewrite Hci; cbn [bind].
    - apply (good_tag b r VMat _ (Ok (r_C r))), good_c.
    - apply (good_tag b r V2 _ (Ok _)), good_h.
    - apply (good_tag b r V4 _ (Ok _)), good_g.
    - intros s H. exists s. split; [|auto]. unfold tag, mbind, gets, ret. rewrite (i_k _ _ _ H). reflexivity.
    - intros s H. exists s. split; [|auto]. unfold tag, mbind, gets, ret. rewrite (i_t _ _ _ H). reflexivity.
    - intros s H. exists s. split; [|auto]. unfold tag, mbind, gets, ret. pose proof (i_ci _ _ _ H). congruence.
    - apply good_tag, good_r1, Hci.
    - apply good_tag, good_r2, Hci.
    - rewrite Hb in * by reflexivity. apply good_tag, good_r3, Hci.
    - rewrite Hb in * by reflexivity. apply good_tag, good_r4, Hci.
    - apply good_tag, good_e, Hci.
  Qed.

  (** Assignments. *)
  Lemma set_kappa_ok b r k arr : length k = length kappa_idx ->
    forall s, inv b r s -> exists s', set_kappa N kappa_idx k arr s = (s', Ok tt) /\
      inv b {| r_k := k; r_C := rotate N (r_C r) (fill_kappa k (r_k r) kappa_idx zero_mat); r_t := r_t r |} s' /\ w_karr s' = arr.
  Proof.
    intros HL s H. unfold set_kappa, mbind, modify, gets, get_c_mo. cbn [w_kappa w_kold w_cmo set_k set_energy set_g set_h].
    rewrite (i_ko _ _ _ H), (i_c _ _ _ H).
    destruct (kappa_mat_ok kappa_idx N (r_C r) k (r_k r)) as (km & E & R).
    { rewrite (i_kl _ _ _ H). exact HL. } { apply H. }
    rewrite E. cbn [bind]. rewrite R. eexists. split; [reflexivity|]. split; [|reflexivity].
    constructor; cbn [r_k r_C r_t w_kappa w_kold w_cmo w_h w_g w_thetas w_ci w_rdm1 w_rdm2 w_rdm3 w_rdm4 w_energy set_kold set_cmo set_k set_energy set_g set_h cached]; auto; try apply H.
    apply tab_square.
  Qed.
  Lemma set_thetas_ok b r t arr : length t = length struct ->
    forall s, inv b r s -> exists s', set_thetas tiny sp th struct csf t arr s = (s', Ok tt) /\
      inv true {| r_k := r_k r; r_C := r_C r; r_t := t |} s' /\ w_karr s' = w_karr s /\ w_tarr s' = arr.
  Proof.
    intros HL s H. unfold set_thetas, mbind, modify, gets, lift. rewrite (i_t _ _ _ H), (i_tl _ _ _ H), HL, Nat.eqb_refl. cbn [negb].
    cbn [w_thetas set_th]. destruct (Hups t HL) as [v Ev]. rewrite Ev. eexists. split; [reflexivity|]. split; [|split; reflexivity].
    constructor; cbn; auto; apply H.
  Qed.
  Lemma set_thetas_bad b r t arr : length t <> length struct ->
    forall s, inv b r s -> set_thetas tiny sp th struct csf t arr s = (s, Raise ValueError).
  Proof.
    intros HL s H. unfold set_thetas, mbind, gets, lift. rewrite (i_t _ _ _ H), (i_tl _ _ _ H).
    destruct (Nat.eqb_spec (length t) (length struct)); [contradiction|]. reflexivity.
  Qed.

  Lemma init_inv c : square N c -> tiny 0 = true ->
    inv false {| r_k := map (fun _ => 0) kappa_idx; r_C := c; r_t := map (fun _ => 0) struct |} (init kappa_idx struct csf c).
  Proof.
    intros Hc H0. constructor; cbn; auto; try (rewrite map_length; reflexivity).
    unfold ups_state, construct_ups_state. clear Hups. induction struct as [|e l IH]; [reflexivity|].
    cbn [map combine fold_left fst snd]. cbn [bind]. rewrite H0. exact IH.
  Qed.
End Coherence.
