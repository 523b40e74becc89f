(** C90: state-averaged density matrices and orbital gradient. *)
From Coq Require Import List Bool Arith NArith ZArith Reals Lra Lia.
From Verif Require Import Base RRing Fock FockMore FermiModel OperatorsModel OperatorsProofs OperatorsSums OperatorsActs OperatorsActive OperatorsKeys OperatorsOne Props_Operators
  CIModel StateModel StateProofs StateMore Props_State GateAlgebra UPSModel UPSProofs UPSSingle UPSState UPSAnsatz UPSRows Props_UPS
  FockInner DensityModel DensityProofs DensityExpect DensityFill DensityResponse DensityState Props_Density LRAlgebra IntegralModel MatModel WaveModel WaveProofs Props_Wave GradProofs Props_Gradient Props_Excited SAModel Props_SA SARdmModel.
Import ListNotations.
Local Open Scope R_scope.

(** ** Averages *)
Section Mean.
  Variable k : nat.
  Hypothesis Hk : (0 < k)%nat.
  Definition mean (F : nat -> R) : R := lsum (seq 0 k) F / INR k.
  Lemma mean_ext F G : (forall r, (r < k)%nat -> F r = G r) -> mean F = mean G.
  Proof. intros E. unfold mean. f_equal. apply lsum_ext. intros r Hr. apply in_seq in Hr. apply E. lia. Qed.
  Lemma mean_add F G : mean (fun r => F r + G r) = mean F + mean G.
  Proof. unfold mean. rewrite lsumR_add. unfold Rdiv. ring. Qed.
  Lemma mean_scale c F : mean (fun r => c * F r) = c * mean F.
  Proof. unfold mean. rewrite lsumR_scale. unfold Rdiv. ring. Qed.
  Lemma mean_sub F G : mean (fun r => F r - G r) = mean F - mean G.
  Proof. unfold Rminus. rewrite mean_add. f_equal. transitivity (-1 * mean G); [|ring]. rewrite <- mean_scale. apply mean_ext. intros. ring. Qed.
  Lemma mean_opp F : mean (fun r => - F r) = - mean F.
  Proof. transitivity (-1 * mean F); [|ring]. rewrite <- mean_scale. apply mean_ext. intros. ring. Qed.
  Lemma mean_const c : mean (fun _ => c) = c.
  Proof.
    unfold mean. assert (E : forall l : list nat, lsum l (fun _ => c) = INR (length l) * c).
    { induction l as [|a l IH]; [cbn; unfold lsum; cbn; ring|]. change (lsum (a :: l) (fun _ => c)) with (c + lsum l (fun _ => c)). rewrite IH. cbn [length]. rewrite S_INR. ring. }
    rewrite E, seq_length. field. apply not_0_INR. lia.
  Qed.

  Lemma loop_mean n (F : nat -> R -> R) (Fr : nat -> nat -> R -> R) : forall a (ar : nat -> R), a = mean ar ->
    (forall p b (br : nat -> R), (p < n)%nat -> b = mean br -> F p b = mean (fun r => Fr r p (br r))) ->
    loop n F a = mean (fun r => loop n (Fr r) (ar r)).
  Proof.
    intros a ar Ha HF. unfold loop.
    assert (G : forall l a (ar : nat -> R), (forall p, In p l -> (p < n)%nat) -> a = mean ar -> fold_left (fun a p => F p a) l a = mean (fun r => fold_left (fun a p => Fr r p a) l (ar r))).
    { induction l as [|p l IH]; intros b br Hl Hb; [exact Hb|]. cbn [fold_left]. apply (IH (F p b) (fun r => Fr r p (br r))); [intros q Hq; apply Hl; now right|].
      apply HF; [apply Hl; now left|exact Hb]. }
    apply G; [intros p Hp; apply in_seq in Hp; lia|exact Ha].
  Qed.

  Section Arrays.
  Variables (ni na : nat) (r1 : nat -> nat -> R) (r2 : nat -> nat -> nat -> nat -> R).
  Variables (R1 : nat -> nat -> nat -> R) (R2 : nat -> nat -> nat -> nat -> nat -> R).
  Hypothesis H1 : forall i j, (i < na)%nat -> (j < na)%nat -> r1 i j = mean (fun r => R1 r i j).
  Hypothesis H2 : forall i j a b, (i < na)%nat -> (j < na)%nat -> (a < na)%nat -> (b < na)%nat -> r2 i j a b = mean (fun r => R2 r i j a b).
  Lemma RDM1_mean p q : RDM1 p q ni na r1 = mean (fun r => RDM1 p q ni na (R1 r)).
  Proof.
    unfold RDM1. destruct (Nat.leb_spec (ni + na) p), (Nat.leb_spec (ni + na) q); cbn [orb]; try (symmetry; apply mean_const).
    destruct (Nat.leb_spec ni p), (Nat.leb_spec ni q); cbn [andb]; [apply H1; lia| | |];
      destruct (Nat.ltb_spec p ni), (Nat.ltb_spec q ni), (p =? q)%nat; cbn [andb]; symmetry; apply mean_const.
  Qed.
  Lemma RDM2_mean p q r s : RDM2 p q r s ni na r1 r2 = mean (fun x => RDM2 p q r s ni na (R1 x) (R2 x)).
  Proof.
    unfold RDM2. destruct (Nat.leb_spec (ni + na) p), (Nat.leb_spec (ni + na) q), (Nat.leb_spec (ni + na) r), (Nat.leb_spec (ni + na) s); cbn [orb]; try (symmetry; apply mean_const).
    destruct (Nat.leb_spec ni p), (Nat.ltb_spec p ni); try lia; destruct (Nat.leb_spec ni q), (Nat.ltb_spec q ni); try lia;
      destruct (Nat.leb_spec ni r), (Nat.ltb_spec r ni); try lia; destruct (Nat.leb_spec ni s), (Nat.ltb_spec s ni); try lia; cbn [andb];
      try (apply H2; lia); try (symmetry; apply mean_const);
      match goal with |- context [if Nat.eqb ?a ?b then _ else _] => destruct (Nat.eqb a b) | _ => idtac end; try (symmetry; apply mean_const);
      try (rewrite H1 by lia; first [now rewrite <- mean_opp | now rewrite <- mean_scale]).
  Qed.
  Lemma energy_mean half h g : get_electronic_energy half h g ni na r1 r2 = mean (fun r => get_electronic_energy half h g ni na (R1 r) (R2 r)).
  Proof.
    unfold get_electronic_energy.
    apply (loop_mean _ _ (fun x p => loop (ni + na) (fun q => loop (ni + na) (fun r => loop (ni + na) (fun s a => a + half * g p q r s * RDM2 p q r s ni na (R1 x) (R2 x)))))
      _ (fun x => loop (ni + na) (fun p => loop (ni + na) (fun q a => a + h p q * RDM1 p q ni na (R1 x))) 0)).
    - apply (loop_mean _ _ (fun x p => loop (ni + na) (fun q a => a + h p q * RDM1 p q ni na (R1 x))) 0 (fun _ => 0)); [symmetry; apply mean_const|]. intros p b br Hp Hb.
      apply (loop_mean _ _ (fun x q a => a + h p q * RDM1 p q ni na (R1 x)) b br Hb). intros q c cr Hq Hc. rewrite mean_add, mean_scale, <- RDM1_mean, <- Hc. reflexivity.
    - intros p b br Hp Hb. apply (loop_mean _ _ (fun x q => loop (ni + na) (fun r => loop (ni + na) (fun s a => a + half * g p q r s * RDM2 p q r s ni na (R1 x) (R2 x)))) b br Hb).
      intros q b1 br1 Hq Hb1. apply (loop_mean _ _ (fun x r => loop (ni + na) (fun s a => a + half * g p q r s * RDM2 p q r s ni na (R1 x) (R2 x))) b1 br1 Hb1).
      intros r b2 br2 Hr Hb2. apply (loop_mean _ _ (fun x s a => a + half * g p q r s * RDM2 p q r s ni na (R1 x) (R2 x)) b2 br2 Hb2).
      intros s b3 br3 Hs Hb3. rewrite mean_add, mean_scale, <- RDM2_mean, <- Hb3. reflexivity.
  Qed.
  Lemma gradient_mean h g mn : orbital_gradient_elem h g ni na r1 r2 mn = mean (fun r => orbital_gradient_elem h g ni na (R1 r) (R2 r) mn).
  Proof.
    destruct mn as [m n]. unfold orbital_gradient_elem.
    apply (loop_mean _ _ (fun x p => loop (ni + na) (fun q => loop (ni + na) (fun r a =>
      a + g n p q r * RDM2 m p q r ni na (R1 x) (R2 x) - g p m q r * RDM2 p n q r ni na (R1 x) (R2 x) - g m p q r * RDM2 n p q r ni na (R1 x) (R2 x)
      + g p n q r * RDM2 p m q r ni na (R1 x) (R2 x))))
      _ (fun x => loop (ni + na) (fun p a => a + k2 * h n p * RDM1 m p ni na (R1 x) - k2 * h p m * RDM1 p n ni na (R1 x)) 0)).
    - apply (loop_mean _ _ (fun x p a => a + k2 * h n p * RDM1 m p ni na (R1 x) - k2 * h p m * RDM1 p n ni na (R1 x)) 0 (fun _ => 0)); [symmetry; apply mean_const|]. intros p b br Hp Hb.
      rewrite mean_sub, mean_add, !mean_scale, <- !RDM1_mean, <- Hb. reflexivity.
    - intros p b br Hp Hb. apply (loop_mean _ _ (fun x q => loop (ni + na) (fun r a =>
      a + g n p q r * RDM2 m p q r ni na (R1 x) (R2 x) - g p m q r * RDM2 p n q r ni na (R1 x) (R2 x) - g m p q r * RDM2 n p q r ni na (R1 x) (R2 x)
      + g p n q r * RDM2 p m q r ni na (R1 x) (R2 x))) b br Hb).
      intros q b1 br1 Hq Hb1. apply (loop_mean _ _ (fun x r a =>
      a + g n p q r * RDM2 m p q r ni na (R1 x) (R2 x) - g p m q r * RDM2 p n q r ni na (R1 x) (R2 x) - g m p q r * RDM2 n p q r ni na (R1 x) (R2 x)
      + g p n q r * RDM2 p m q r ni na (R1 x) (R2 x)) b1 br1 Hb1).
      intros r b2 br2 Hr Hb2. rewrite mean_add, !mean_sub, mean_add, !mean_scale, <- !RDM2_mean, <- Hb2. reflexivity.
  Qed.
  End Arrays.

  (** The loops that fill the arrays commute with averaging. *)
  Notation rel A As := (forall c : list nat, A c = mean (fun r => As r c)).
  Definition sim (body : arr -> Res arr) (bodies : nat -> arr -> Res arr) : Prop :=
    forall A As, rel A As -> exists A' As', body A = Ok A' /\ (forall r, bodies r (As r) = Ok (As' r)) /\ rel A' As'.
  Lemma rloop_sim lo hi body (bodies : nat -> nat -> arr -> Res arr) : (forall p, (lo <= p < hi)%nat -> sim (body p) (fun r => bodies r p)) ->
    sim (rloop lo hi body) (fun r => rloop lo hi (bodies r)).
  Proof.
    intros Hb. unfold rloop. assert (Hl : forall p, In p (seq lo (hi - lo)) -> sim (body p) (fun r => bodies r p)) by (intros p Hp; apply in_seq in Hp; apply Hb; lia).
    revert Hl. generalize (seq lo (hi - lo)). induction l as [|p l IH]; intros Hl A As HA.
    - exists A, As. auto.
    - destruct (Hl p (or_introl eq_refl) A As HA) as (A1 & As1 & E1 & E2 & HA1). destruct (IH (fun q Hq => Hl q (or_intror Hq)) A1 As1 HA1) as (A2 & As2 & E3 & E4 & HA2).
      exists A2, As2. cbn [fold_left bind]. rewrite E1. split; [exact E3|]. split; [|exact HA2]. intros r. rewrite (E2 r). apply E4.
  Qed.
  Lemma upds_sim cs v vr : v = mean vr -> forall A As, rel A As -> rel (upds cs v A) (fun r => upds cs (vr r) (As r)).
  Proof.
    intros Hv. unfold upds. induction cs as [|c0 cs IH]; intros A As HA c; cbn [fold_left]; [apply HA|].
    apply (IH (upd c0 v A) (fun r => upd c0 (vr r) (As r))). intros c'. unfold upd. destruct (list_eq_dec Nat.eq_dec c' c0); [exact Hv|apply HA].
  Qed.
  Lemma rdm1_sim val (V : nat -> nat -> nat -> R) ni na :
    (forall p q, (ni <= p < ni + na)%nat -> (ni <= q < ni + na)%nat -> val p q = Ok (mean (fun r => V r p q))) ->
    exists A As, rdm1_loop val ni na = Ok A /\ (forall r, rdm1_loop (fun p q => Ok (V r p q)) ni na = Ok (As r)) /\ rel A As.
  Proof.
    intros Hv. unfold rdm1_loop.
    apply (rloop_sim ni (ni + na) _ (fun r p => rloop ni (p + 1) (fun q A => bind (Ok (V r p q)) (fun v => Ok (upds [[p - ni; q - ni]; [q - ni; p - ni]]%nat v A))))) with (As := fun _ _ => 0).
    - intros p Hp. apply (rloop_sim ni (p + 1) _ (fun r q A => bind (Ok (V r p q)) (fun v => Ok (upds [[p - ni; q - ni]; [q - ni; p - ni]]%nat v A)))). intros q Hq A As HA. rewrite Hv by lia. cbn [bind].
      eexists. exists (fun r => upds [[p - ni; q - ni]; [q - ni; p - ni]]%nat (V r p q) (As r)). split; [reflexivity|]. split; [reflexivity|]. now apply upds_sim.
    - intros c. symmetry. apply mean_const.
  Qed.
  Lemma rdm2_sim val (V : nat -> nat -> nat -> nat -> nat -> R) (r1 : arr) (R1 : nat -> arr) ni na : rel r1 R1 ->
    (forall p q r s, (ni <= p < ni + na)%nat -> (ni <= q < ni + na)%nat -> (ni <= r < ni + na)%nat -> (ni <= s < ni + na)%nat -> val p q r s = Ok (mean (fun x => V x p q r s))) ->
    exists A As, rdm2_loop val r1 ni na = Ok A /\ (forall x, rdm2_loop (fun p q r s => Ok (V x p q r s)) (R1 x) ni na = Ok (As x)) /\ rel A As.
  Proof.
    intros H1 Hv. unfold rdm2_loop.
    pose (body := fun x p q r s (A : arr) => bind (Ok (V x p q r s)) (fun v =>
       Ok (upds [[p - ni; q - ni; r - ni; s - ni]; [r - ni; s - ni; p - ni; q - ni]; [q - ni; p - ni; s - ni; r - ni]; [s - ni; r - ni; q - ni; p - ni]]%nat
             (sub_if (q - ni =? r - ni)%nat (R1 x [p - ni; s - ni]%nat) v) A))).
    apply (rloop_sim ni (ni + na) _ (fun x p => rloop ni (p + 1) (fun q => rloop ni (p + 1) (fun r => rloop ni (s_lim p q r) (fun s => body x p q r s))))) with (As := fun _ _ => 0).
    - intros p Hp. apply (rloop_sim ni (p + 1) _ (fun x q => rloop ni (p + 1) (fun r => rloop ni (s_lim p q r) (fun s => body x p q r s)))). intros q Hq.
      apply (rloop_sim ni (p + 1) _ (fun x r => rloop ni (s_lim p q r) (fun s => body x p q r s))). intros r Hr.
      apply (rloop_sim ni (s_lim p q r) _ (fun x s => body x p q r s)). intros s Hs A As HA.
      assert (s < p + 1)%nat as Hs'. { unfold s_lim in Hs. destruct (p =? q)%nat; [lia|]. destruct (p =? r)%nat; [lia|]. destruct (q <? r)%nat; lia. }
      rewrite Hv by lia. cbn [bind]. eexists. eexists. split; [reflexivity|]. split; [intros x; unfold body; cbn [bind]; reflexivity|]. cbv beta. apply upds_sim; [|exact HA].
      unfold sub_if. destruct (q - ni =? r - ni)%nat; [|reflexivity]. rewrite H1. cbn [rsub]. rewrite mean_sub. reflexivity.
    - intros c. symmetry. apply mean_const.
  Qed.
End Mean.

(** ** Operators with active-space indices *)
Definition Edict (p q : nat) : list (fstring * R) :=
  [([(2 * p, true); (2 * q, false)]%nat, 1 * 1); ([(2 * p + 1, true); (2 * q + 1, false)]%nat, 1 * 1)].
Lemma two_keys p q (c : R) : dget [(2 * p + 1, true); (2 * q + 1, false)]%nat [([(2 * p, true); (2 * q, false)]%nat, c)] = None.
Proof. cbn [dget key_eqb]. unfold fop_eqb. cbn [fst snd]. destruct (Nat.eqb_spec (2 * p + 1) (2 * p)); [lia|]. reflexivity. Qed.
Lemma Epq_dict p q : Epq (K:=R) p q = Ok (Edict p q).
Proof.
  unfold Edict. transitivity (Ok (dacc [(2 * p + 1, true); (2 * q + 1, false)]%nat (1 * 1) [([(2 * p + 0, true); (2 * q + 0, false)]%nat, 1 * 1)])); [reflexivity|].
  rewrite !Nat.add_0_r. unfold dacc. rewrite two_keys. reflexivity.
Qed.
Lemma Edict_fold ni na nv p q : (ni <= p < ni + na)%nat -> (ni <= q < ni + na)%nat -> op_fold ni na nv (Edict p q) = Edict (p - ni) (q - ni).
Proof.
  intros Hp Hq.
  assert (F : forall b, (b < 2)%nat -> fold_key ni na nv [(2 * p + b, true); (2 * q + b, false)]%nat = Some ([(2 * (p - ni) + b, true); (2 * (q - ni) + b, false)]%nat, false)).
  { intros b Hb. unfold fold_key, fold_classify.
    destruct (Nat.ltb_spec (2 * q + b) (2 * ni)); [lia|]. destruct (Nat.ltb_spec (2 * q + b) (2 * ni + 2 * na)); [|lia].
    destruct (Nat.ltb_spec (2 * p + b) (2 * ni)); [lia|]. destruct (Nat.ltb_spec (2 * p + b) (2 * ni + 2 * na)); [|lia]. cbn [natlist_eqb negb app length].
    do 2 f_equal. f_equal; [f_equal; lia|]. f_equal. f_equal. lia. }
  unfold op_fold, Edict. cbn [fold_left fst snd]. pose proof (F 0%nat ltac:(lia)) as F0. pose proof (F 1%nat ltac:(lia)) as F1. rewrite !Nat.add_0_r in F0. rewrite F0, F1.
  unfold dacc_keep at 2. cbn [dget sgn app]. unfold dacc_keep. rewrite two_keys. reflexivity.
Qed.

Section SARdm.
  Variables (tiny tiny_le : R -> bool) (sp : space) (th : threads).
  Hypothesis HS : sector tiny sp th.
  Hypothesis Hti : forall c, tiny c = true <-> c = 0.
  Hypothesis Hle : forall c, tiny_le c = true <-> c = 0.
  Notation ni := (sp_ni sp).
  Notation na := (sp_na sp).
  Notation N := (sp_ni sp + sp_na sp + sp_nv sp)%nat.
  Notation d := (dim (sp_ci sp)).
  Notation fk := (fket sp).
  Notation half := (1 / 2).
  Notation I u w := (ip (2 * N) u w).
  Notation act p := (ni <= p < ni + na)%nat.

  Lemma prop_fold L st : (forall pq, In pq L -> act (fst pq) /\ act (snd pq)) ->
    propagate_state tiny sp th false false no_ansatz (map (fun pq => SOp (Edict (fst pq - ni) (snd pq - ni))) L) st
    = propagate_state tiny sp th true false no_ansatz (map (fun pq => SOp (Edict (fst pq) (snd pq))) L) st.
  Proof.
    intros HL. unfold propagate_state. rewrite <- !map_rev. assert (HL' : forall pq, In pq (rev L) -> act (fst pq) /\ act (snd pq)) by (intros pq Hq; apply HL, in_rev, Hq).
    revert HL'. generalize (Ok st). induction (rev L) as [|pq l IH]; intros r Hl; [reflexivity|]. cbn [map fold_left].
    destruct (Hl pq (or_introl eq_refl)) as [Hp Hq].
    assert (E : forall s, apply_op tiny sp th false false (Edict (fst pq - ni) (snd pq - ni)) s = apply_op tiny sp th true false (Edict (fst pq) (snd pq)) s).
    { intros s. unfold apply_op, folded. rewrite (Edict_fold _ _ _ _ _ Hp Hq). reflexivity. }
    rewrite <- IH by (intros; apply Hl; now right). f_equal. destruct r as [s|e|]; cbn [bind]; auto.
  Qed.

  Variable ci : list (list R).
  Notation k := (length ci).
  Hypothesis Hpos : (0 < k)%nat.
  Hypothesis Hrow : forall row, In row ci -> length row = d.
  Notation psi r := (fk (nth r ci [])).

  Lemma ev_SA_ok L : (forall pq, In pq L -> act (fst pq) /\ act (snd pq)) ->
    ev_SA tiny_le sp th ci (map (fun pq => Epq (fst pq - ni) (snd pq - ni)) L)
    = Ok (mean k (fun r => I (psi r) (fold_right (fun pq f => Eact (fst pq) (snd pq) f) (psi r) L))).
  Proof.
    intros HL. destruct HS as [Ht Hp (na' & nb' & Hi) Hth]. unfold ev_SA.
    assert (C1 : forall f : nat * nat -> nat * nat, fold_right (fun r acc => bind r (fun D => bind acc (fun l => Ok (SOp D :: l)))) (Ok []) (map (fun pq => Epq (K:=R) (fst (f pq)) (snd (f pq))) L) = Ok (map (fun pq => SOp (Edict (fst (f pq)) (snd (f pq)))) L)).
    { intros f. clear HL. induction L as [|pq L IH]; [reflexivity|]. cbn [map fold_right]. rewrite Epq_dict. cbn [bind]. rewrite IH. reflexivity. }
    pose proof (C1 (fun pq => (fst pq - ni, snd pq - ni)%nat)) as C2. cbn [fst snd] in C2. rewrite C2. clear C2. cbn [bind].
    assert (RW : rowwise (K:=R) d no_ansatz no_ansatz).
    { intros dg s Hs Hr. split; [|discriminate]. unfold no_ansatz. cbn. exists 0%nat. split; [exact Hs|reflexivity]. }
    set (ops := map (fun pq : nat * nat => SOp (Edict (fst pq - ni) (snd pq - ni))) L).
    assert (PR : forall r, (r < k)%nat -> exists o, propagate_state tiny sp th false false no_ansatz ops (nth r ci []) = Ok o /\ length o = d /\
       dot (nth r ci []) o = I (psi r) (fold_right (fun pq f => Eact (fst pq) (snd pq) f) (psi r) L)).
    { intros r Hr. assert (Lr : length (nth r ci []) = d) by (apply Hrow, nth_In, Hr).
      destruct (@apply_list R R_CRing tiny sp th false no_ansatz na' nb' Ht Hp Hi Hth (map (fun pq => Epq (fst pq) (snd pq)) L) (map (fun pq => Eact (fst pq) (snd pq)) L) (nth r ci [])) as (Ds & o & E1 & E2 & E3 & E4); auto.
      { clear C1 ops. induction L as [|pq L IH]; [constructor|]. cbn [map]. constructor; [|apply IH; intros x Hx; apply HL; now right].
        destruct (HL pq (or_introl eq_refl)) as [A1 A2]. apply (@E_item R R_CRing sp R_exact_small Hp); auto. }
      rewrite (C1 (fun pq => pq)) in E1. injection E1 as <-. exists o. split; [unfold ops; rewrite prop_fold by exact HL; exact E2|]. split; [exact E3|].
      rewrite (@dot_fket R R_CRing sp na' nb' Hp Hi _ _ Lr E3). apply ip_ext; [reflexivity|]. intros x. rewrite E4. clear. induction L as [|pq L IH] in x |- *; [reflexivity|].
      cbn [map fold_right]. apply Eact_ext. exact IH. }
    pose proof (C19_state_averaged_rows (K:=R) (C:=R_CRing) tiny tiny_le sp th false false no_ansatz no_ansatz ops ci Hti Hle RW Hpos Hrow) as Q.
    unfold expectation_value_SA. destruct (propagate_state_SA tiny_le sp th false false no_ansatz ops ci) as [out|ex|].
    - destruct Q as [Q1 Q2]. cbn [bind]. destruct ci as [|c ci']; [cbn in Hpos; lia|]. f_equal. unfold mean, Rdiv. change (@rmul R R_CRing) with Rmult. f_equal.
      rewrite (ksum_combine_seq (K:=R) _ (c :: ci') out eq_refl Q1). rewrite <- lsum_ksum. apply lsum_ext. intros r Hr. apply in_seq in Hr.
      destruct (PR r ltac:(lia)) as (o & P1 & _ & P2). rewrite (Q2 r ltac:(lia)) in P1. injection P1 as ->. exact P2.
    - destruct Q as (r & Hr & Q). destruct (PR r Hr) as (o & P1 & _). congruence.
    - destruct Q as (r & Hr & Q). destruct (PR r Hr) as (o & P1 & _). congruence.
  Qed.

  Lemma rdms_ok : exists r1 r2 (R1 R2 : nat -> arr), sa_rdm1 tiny_le sp th ci = Ok r1 /\ sa_rdm2 tiny_le sp th ci = Ok r2 /\
    (forall c, r1 c = mean k (fun r => R1 r c)) /\ (forall c, r2 c = mean k (fun r => R2 r c)) /\
    forall r, active_dms N ni na (psi r) (fun i j => R1 r [i; j]) (fun i j a b => R2 r [i; j; a; b]).
  Proof.
    destruct (rdm1_sim k Hpos (fun p q => ev_SA tiny_le sp th ci [Epq (p - ni) (q - ni)]) (fun r p q => I (psi r) (Eact p q (psi r))) ni na) as (r1 & R1 & E1 & F1 & H1).
    { intros p q Hp Hq. apply (ev_SA_ok [(p, q)]). intros pq [<-|[]]. auto. }
    destruct (rdm2_sim k Hpos (fun p q r s => ev_SA tiny_le sp th ci [Epq (p - ni) (q - ni); Epq (r - ni) (s - ni)]) (fun x p q r s => I (psi x) (Eact p q (Eact r s (psi x)))) r1 R1 ni na H1) as (r2 & R2 & E2 & F2 & H2).
    { intros p q r s Hp Hq Hr Hs. apply (ev_SA_ok [(p, q); (r, s)]). intros pq [<-|[<-|[]]]; auto. }
    exists r1, r2, R1, R2. split; [exact E1|]. split; [unfold sa_rdm2; unfold sa_rdm1; rewrite E1; exact E2|]. split; [exact H1|]. split; [exact H2|]. intros r.
    assert (HN : (ni + na <= N)%nat) by lia.
    destruct (rdm1_fill N ni na (psi r) HN (fun p q => Ok (I (psi r) (Eact p q (psi r))))) as (A1 & G1 & V1); [reflexivity|].
    assert (A1 = R1 r) as -> by (rewrite (F1 r) in G1; congruence).
    destruct (rdm2_fill N ni na (psi r) HN (fun p q a b => Ok (I (psi r) (Eact p q (Eact a b (psi r))))) (R1 r)) as (A2 & G2 & V2); [reflexivity|exact V1|].
    assert (A2 = R2 r) as -> by (rewrite (F2 r) in G2; congruence).
    split; [exact V1|]. intros i j a b Hi Hj Ha Hb. rewrite V2 by auto. apply gk2.
  Qed.

  (** C90: the entries of the state-averaged density matrices are the means over
      the states of the expectation values. *)
  Theorem C90_rdms : exists r1 r2, sa_rdm1 tiny_le sp th ci = Ok r1 /\ sa_rdm2 tiny_le sp th ci = Ok r2 /\
    (forall i j, (i < na)%nat -> (j < na)%nat -> r1 [i; j] = lsum (seq 0 k) (fun r => I (psi r) (Eact (ni + i) (ni + j) (psi r))) / INR k) /\
    (forall i j a b, (i < na)%nat -> (j < na)%nat -> (a < na)%nat -> (b < na)%nat ->
       r2 [i; j; a; b] = lsum (seq 0 k) (fun r => I (psi r) (eact (ni + i) (ni + j) (ni + a) (ni + b) (psi r))) / INR k).
  Proof.
    destruct rdms_ok as (r1 & r2 & R1 & R2 & E1 & E2 & H1 & H2 & DM). exists r1, r2. split; [exact E1|]. split; [exact E2|]. split.
    - intros i j Hi Hj. rewrite H1. refine (mean_ext k Hpos _ _ _). intros r _. apply (proj1 (DM r) i j Hi Hj).
    - intros i j a b Hi Hj Ha Hb. rewrite H2. refine (mean_ext k Hpos _ _ _). intros r _. apply (proj2 (DM r) i j a b Hi Hj Ha Hb).
  Qed.

  Hypothesis Hnorm : forall row, In row ci -> dot row row = 1.
  Lemma row_setup r : (r < k)%nat -> exists na' nb', wf_setup tiny sp th na' nb' (nth r ci []) /\ active_state N ni na (psi r).
  Proof.
    intros Hr. pose proof HS as [Ht Hp (na' & nb' & Hi) Hth]. exists na', nb'.
    assert (Lr : length (nth r ci []) = length (idx2det (sp_ci sp))) by (apply Hrow, nth_In, Hr).
    assert (HW : wf_setup tiny sp th na' nb' (nth r ci [])) by (repeat split; auto; exact R_exact_small).
    split; [exact HW|]. exact (C28_state tiny sp th na' nb' _ HW (Hnorm _ (nth_In _ [] Hr))).
  Qed.

  (** C90: the energy formula evaluated with the averaged density matrices is the
      state-averaged energy. *)
  Theorem C90_rdm_energy h g : exists r1 r2 e, sa_rdm1 tiny_le sp th ci = Ok r1 /\ sa_rdm2 tiny_le sp th ci = Ok r2 /\
    sa_energy tiny_le sp th h g ci = Ok e /\
    get_electronic_energy half h g ni na (fun i j => r1 [i; j]) (fun i j a b => r2 [i; j; a; b]) = e.
  Proof.
    destruct rdms_ok as (r1 & r2 & R1 & R2 & E1 & E2 & H1 & H2 & DM). exists r1, r2. eexists. split; [exact E1|]. split; [exact E2|].
    split; [exact (proj1 (C89_energy tiny tiny_le sp th HS Hti Hle h g ci Hpos Hrow))|].
    rewrite (energy_mean k Hpos ni na _ _ (fun r i j => R1 r [i; j]) (fun r i j a b => R2 r [i; j; a; b])) by (intros; first [apply H1|apply H2]).
    refine (mean_ext k Hpos _ _ _). intros r Hr. destruct (row_setup r Hr) as (na' & nb' & _ & ST). exact (C27_energy N ni na (psi r) _ _ ST (DM r) half h g).
  Qed.

  Section Orbital.
  Variables (kappa_idx : list (nat * nat)) (h_ao : nat -> nat -> R) (g_ao : nat -> nat -> nat -> nat -> R).
  Hypothesis Hpairs : rotation_pairs N kappa_idx.
  Hypothesis Hh : forall a b, (a < N)%nat -> (b < N)%nat -> h_ao a b = h_ao b a.
  Hypothesis Hg : forall a b c d, (a < N)%nat -> (b < N)%nat -> (c < N)%nat -> (d < N)%nat ->
    g_ao a b c d = g_ao b a c d /\ g_ao a b c d = g_ao a b d c /\ g_ao a b c d = g_ao c d a b.
  Notation ho c := (one_electron_integral_transform N (ent c) h_ao).
  Notation go c := (two_electron_integral_transform N (ent c) g_ao).
  Notation nk := (length kappa_idx).

  (** C90: the orbital part of the state-averaged gradient consists of the
      derivatives of the state-averaged energy with respect to the entries of
      kappa. *)
  Theorem C90_kappa_gradient c : exists G, sa_kappa_gradient tiny_le sp th (ho c) (go c) kappa_idx ci = Ok G /\ length G = nk /\
    forall k1 x k2, length (k1 ++ x :: k2) = nk -> exists E : R -> R,
      (forall y, let c' := times_exp N c (kmat kappa_idx (sub (k1 ++ y :: k2) (k1 ++ x :: k2))) in
         sa_energy_opt tiny_le sp th (ho c') (go c') ci = Ok (E y)) /\
      derivable_pt_lim E x (nth (length k1) G 0).
  Proof.
    destruct rdms_ok as (r1 & r2 & R1 & R2 & E1 & E2 & H1 & H2 & DM).
    exists (get_orbital_gradient (ho c) (go c) kappa_idx ni na (fun i j => r1 [i; j]) (fun i j k l => r2 [i; j; k; l])).
    split; [unfold sa_kappa_gradient; rewrite E1; cbn [bind]; rewrite E2; reflexivity|].
    split; [unfold get_orbital_gradient; apply map_length|]. intros k1 x k2 HL.
    set (cy := fun y => times_exp N c (kmat kappa_idx (sub (k1 ++ y :: k2) (k1 ++ x :: k2)))).
    set (er := fun r y => match energy_of tiny sp th (ho (cy y)) (go (cy y)) (nth r ci []) with Ok e => e | _ => 0 end).
    set (gr := fun r => nth (length k1) (get_orbital_gradient (ho c) (go c) kappa_idx ni na (fun i j => R1 r [i; j]) (fun i j k l => R2 r [i; j; k; l])) 0).
    exists (fun y => / INR k * lsum (seq 0 k) (fun r => er r y)). split.
    - intros y. cbv zeta. fold (cy y).
      destruct (C89_energy tiny tiny_le sp th HS Hti Hle (ho (cy y)) (go (cy y)) ci Hpos Hrow) as [A1 A2]. rewrite A2, A1. f_equal. unfold Rdiv. rewrite Rmult_comm. f_equal.
      apply lsum_ext. intros r Hr. apply in_seq in Hr. unfold er. rewrite (energy_of_ip tiny sp th HS) by (apply Hrow, nth_In; lia). reflexivity.
    - assert (HE : nth (length k1) (get_orbital_gradient (ho c) (go c) kappa_idx ni na (fun i j => r1 [i; j]) (fun i j k l => r2 [i; j; k; l])) 0 = / INR k * lsum (seq 0 k) gr).
      { destruct (nth_error kappa_idx (length k1)) as [mn|] eqn:Em.
        2:{ exfalso. apply nth_error_None in Em. rewrite app_length in HL. cbn in HL. lia. }
        transitivity (mean k gr); [|unfold mean, Rdiv; ring]. unfold get_orbital_gradient at 1.
        rewrite (nth_error_nth _ _ 0 (map_nth_error _ _ _ Em)).
        rewrite (gradient_mean k Hpos ni na _ _ (fun r i j => R1 r [i; j]) (fun r i j a b => R2 r [i; j; a; b])) by (intros; first [apply H1|apply H2]).
        apply (mean_ext k Hpos). intros r Hr. unfold gr, get_orbital_gradient. now rewrite (nth_error_nth _ _ 0 (map_nth_error _ _ _ Em)). }
      rewrite HE. apply dlim_scal.
      assert (Q : forall r, In r (seq 0 k) -> derivable_pt_lim (er r) x (gr r)).
      { intros r Hr. apply in_seq in Hr. destruct (row_setup r ltac:(lia)) as (na' & nb' & HW & ST).
        assert (Hin : In (nth r ci []) ci) by (apply nth_In; lia).
        destruct (orbital_derivative kappa_idx h_ao g_ao tiny sp th (nth r ci []) HS (Hrow _ Hin) Hpairs Hh Hg c (nth r ci []) (Hrow _ Hin) (Hnorm _ Hin)) as (w1 & w2 & W1 & W2 & DK).
        destruct (C28_rdm1_rdm2 tiny sp th no_ansatz na' nb' (nth r ci []) HW) as (w1' & w2' & W1' & W2' & DW).
        assert (w1' = w1) as -> by congruence. assert (w2' = w2) as -> by congruence.
        destruct (DK k1 x k2 HL) as (en & En & Dn).
        destruct (mo_sym h_ao g_ao sp Hh Hg c) as [S1 S2].
        assert (RI : real_integrals N half (ho c) (go c)).
        { split; [cbn; field|]. split; [intros; apply S1|]. split; intros; apply S2. }
        assert (PI : pairs_in N kappa_idx).
        { intros mn Hmn. destruct Hpairs as [_ HF]. rewrite Forall_forall in HF. specialize (HF mn Hmn). lia. }
        assert (EG : get_orbital_gradient (ho c) (go c) kappa_idx ni na (fun i j => R1 r [i; j]) (fun i j k l => R2 r [i; j; k; l])
                   = get_orbital_gradient (ho c) (go c) kappa_idx ni na (fun i j => w1 [i; j]) (fun i j k l => w2 [i; j; k; l])).
        { rewrite (C56_orbital_gradient N ni na (psi r) _ _ ST (DM r) half _ _ kappa_idx RI PI). symmetry. exact (C56_orbital_gradient N ni na (psi r) _ _ ST DW half _ _ kappa_idx RI PI). }
        unfold gr. rewrite EG. eapply dlim_ext; [|exact Dn]. intros y. unfold er, cy. rewrite (En y). reflexivity. }
      clear - Q. induction (seq 0 k) as [|r l IH]; [apply derivable_pt_lim_const|].
      apply (derivable_pt_lim_plus (er r) (fun s => lsum l (fun r => er r s)) x (gr r) (lsum l gr)).
      * apply Q. now left.
      * apply IH. intros z Hz. apply Q. now right.
  Qed.
  End Orbital.
End SARdm.

(** The two states of [C89_example]: density matrices, energy and four entries of
    the orbital gradient. *)
Example C90_example : exists ci r1 r2 e G, ups_state_SA rtiny rtiny Props_UPS.ex_sp None 0 ex_struct ex89_t false ex89_csf = Ok ci /\ length ci = 2%nat /\
  sa_rdm1 rtiny Props_UPS.ex_sp None ci = Ok r1 /\ sa_rdm2 rtiny Props_UPS.ex_sp None ci = Ok r2 /\
  sa_energy rtiny Props_UPS.ex_sp None exg_h exg_g ci = Ok e /\
  get_electronic_energy (1 / 2) exg_h exg_g 1 4 (fun i j => r1 [i; j]) (fun i j a b => r2 [i; j; a; b]) = e /\
  sa_kappa_gradient rtiny Props_UPS.ex_sp None (one_electron_integral_transform 6 (ent (tab 6 mid)) exg_h) (two_electron_integral_transform 6 (ent (tab 6 mid)) exg_g) exg_idx ci = Ok G /\
  length G = 4%nat.
Proof.
  destruct C21_example as (HS & Hd & Hgt).
  destruct (C89_orthonormal rtiny rtiny Props_UPS.ex_sp None HS rtiny_spec rtiny_spec ex_struct ex89_t ex89_csf Hgt ltac:(cbn; lia) ex89_rows ex89_on) as (ci & E & L & Hrow & Hon).
  change (length ex89_csf) with 2%nat in L.
  assert (Hn : forall row, In row ci -> dot row row = 1).
  { intros row Hr. destruct (In_nth _ _ [] Hr) as (i & Hi & <-). rewrite (Hon i i Hi Hi), Nat.eqb_refl. reflexivity. }
  destruct (C90_rdm_energy rtiny rtiny Props_UPS.ex_sp None HS rtiny_spec rtiny_spec ci ltac:(lia) Hrow Hn exg_h exg_g) as (r1 & r2 & e & E1 & E2 & E3 & E4).
  destruct (C90_kappa_gradient rtiny rtiny Props_UPS.ex_sp None HS rtiny_spec rtiny_spec ci ltac:(lia) Hrow Hn exg_idx exg_h exg_g) with (c := tab 6 mid) as (G & EG & LG & _).
  - split; [repeat constructor; cbn; intuition congruence|repeat constructor; cbn; lia].
  - intros a b _ _. unfold exg_h. f_equal. lia.
  - intros a b c d _ _ _ _. unfold exg_g. repeat split; f_equal; lia.
  - exists ci, r1, r2, e, G. repeat (split; [assumption|]). exact LG.
Qed.

Print Assumptions C90_rdms.
Print Assumptions C90_rdm_energy.
Print Assumptions C90_kappa_gradient.
Print Assumptions C90_example.
