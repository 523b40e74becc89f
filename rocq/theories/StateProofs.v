(** State-vector lemmas about the kernels of StateModel.v. *)
From Coq Require Import List Bool Arith NArith ZArith Lia Permutation Sorted Ring.
From Verif Require Import Base Fock FockMore FermiModel FermiProofs FermiUnique OperatorsProofs OperatorsKeys CIModel CIProofs StateModel StateBits.
Import ListNotations.

(** A consistent CI space over [n] spatial orbitals. *)
Definition wf_ci (n : nat) (ci : ci_info) : Prop :=
  NoDup (idx2det ci) /\ (forall d, In d (idx2det ci) -> (d < 2 ^ N.of_nat (2 * n))%N) /\
  (forall d i, lookup d (det2idx ci) = Some i <-> nth_error (idx2det ci) i = Some d).

(** The determinant belongs to the space. *)
Definition inspace (n : nat) (ci : ci_info) (x : det) : Prop := exists d, In d (idx2det ci) /\ todet (2 * n) d = x.

Lemma inspace_lookup n ci y : wf_ci n ci -> (y < 2 ^ N.of_nat (2 * n))%N ->
  inspace n ci y <-> exists j, lookup (todet (2 * n) y) (det2idx ci) = Some j.
Proof.
  intros (H1 & H2 & H3) Hy. split.
  - intros (d & Hd & <-). rewrite todet_invol by auto. destruct (In_nth_error _ _ Hd) as [j Hj]. exists j. now apply H3.
  - intros (j & Hj). apply H3 in Hj. exists (todet (2 * n) y). split; [eapply nth_error_In; eauto|now apply todet_invol].
Qed.

Lemma inspace_dec n ci y : wf_ci n ci -> (y < 2 ^ N.of_nat (2 * n))%N -> inspace n ci y \/ ~ inspace n ci y.
Proof.
  intros H Hy. rewrite (inspace_lookup n ci y H Hy). destruct (lookup (todet (2 * n) y) (det2idx ci)) as [j|].
  - left. eauto.
  - right. intros [j E]. discriminate.
Qed.

Lemma actdet_small n s y sg e : inr n s -> (y < 2 ^ N.of_nat (2 * n))%N -> actdet s y = Some (sg, e) ->
  (e < 2 ^ N.of_nat (2 * n))%N.
Proof.
  intros Hs Hy. revert sg e. induction s as [|[p a] s IH]; intros sg e H; cbn [actdet] in H.
  - injection H as <- <-. exact Hy.
  - destruct (actdet s y) as [[sg1 e1]|]; [|discriminate].
    assert (e1 < 2 ^ N.of_nat (2 * n))%N as He1 by (eapply IH; eauto; intros o Ho; apply Hs; now right).
    destruct (Bool.eqb (occ e1 p) a); [discriminate|]. injection H as <- <-.
    apply bits_small. intros k Hk. unfold flip. rewrite N.lxor_spec, (small_bit (2 * n) e1 k) by assumption.
    assert (p < 2 * n) as Hp by (apply (Hs (p, a)); now left).
    rewrite N.shiftl_1_l, N.pow2_bits_eqb. destruct (N.eqb_spec (N.of_nat p) k); [lia|reflexivity].
Qed.

Section Vectors.
  Context {K : Type} {C : CRing K}.
  Local Open Scope K_scope.
  Add Ring KringS : (@rth K C).
  Variable tiny : K -> bool.
  Notation dict := (list (fstring * K)).

  (** The Fock-space state denoted by a state vector on the listed determinants. *)
  Fixpoint ketp (m : nat) (l : list (N * K)) (x : det) : K :=
    match l with
    | [] => 0
    | (d, c) :: l' => (if N.eqb (todet m d) x then c else 0) + ketp m l' x
    end.
  Definition ket (n : nat) (ci : ci_info) (st : list K) : amps := ketp (2 * n) (combine (idx2det ci) st).

  Lemma ketp_notin m l x : (forall d c, In (d, c) l -> todet m d <> x) -> ketp m l x = 0.
  Proof.
    induction l as [|[d c] l IH]; intros H; cbn [ketp]; [reflexivity|].
    destruct (N.eqb_spec (todet m d) x) as [E|E].
    - exfalso. apply (H d c); [now left|exact E].
    - rewrite IH; [ring|]. intros d' c' Hi. apply (H d' c'). now right.
  Qed.

  Lemma ket_outside n ci st x : ~ inspace n ci x -> ket n ci st x = 0.
  Proof.
    intros H. apply ketp_notin. intros d c Hi E. apply H. exists d. split; auto.
    now apply in_combine_l in Hi.
  Qed.

  Lemma ketp_nth m ds st i d : NoDup ds -> (forall d, In d ds -> (d < 2 ^ N.of_nat m)%N) -> length st = length ds ->
    nth_error ds i = Some d -> ketp m (combine ds st) (todet m d) = nth i st 0.
  Proof.
    intros Hn. revert st i. induction Hn as [|e ds He Hn IH]; intros st i Hb Hl Hi; [destruct i; discriminate|].
    destruct st as [|c st]; [discriminate|]. cbn [combine ketp]. destruct i as [|i]; cbn [nth_error nth] in *.
    - injection Hi as ->. rewrite N.eqb_refl. rewrite ketp_notin; [ring|].
      intros d' c' Hi E. apply in_combine_l in Hi. apply He.
      apply (todet_inj m) in E; [now subst| |]; apply Hb; [now right|now left].
    - destruct (N.eqb_spec (todet m e) (todet m d)) as [E|E].
      + exfalso. apply He. apply nth_error_In in Hi. apply (todet_inj m) in E; [now subst| |]; apply Hb; [now left|now right].
      + rewrite (IH st i); [ring| | |exact Hi].
        * intros d' Hd'. apply Hb. now right.
        * cbn in Hl. lia.
  Qed.

  Lemma ket_nth n ci st i d : wf_ci n ci -> length st = length (idx2det ci) ->
    nth_error (idx2det ci) i = Some d -> ket n ci st (todet (2 * n) d) = nth i st 0.
  Proof. intros (H1 & H2 & _). now apply ketp_nth. Qed.

  Lemma ket_inj n ci st st' : wf_ci n ci -> length st = length (idx2det ci) -> length st' = length (idx2det ci) ->
    (forall x, inspace n ci x -> ket n ci st x = ket n ci st' x) -> st = st'.
  Proof.
    intros Hw L1 L2 H. apply (nth_ext _ _ 0 0); [congruence|]. intros i Hi.
    destruct (nth_error (idx2det ci) i) as [d|] eqn:E.
    - rewrite <- (ket_nth n ci st i d Hw L1 E), <- (ket_nth n ci st' i d Hw L2 E). apply H.
      exists d. split; [eapply nth_error_In; eauto|reflexivity].
    - apply nth_error_None in E. lia.
  Qed.

  Lemma add_at_length {A} (f : A -> A) i l : length (add_at f i l) = length l.
  Proof. revert i. induction l as [|x l IH]; intros [|i]; cbn; auto. Qed.
  Lemma add_at_nth {A} (f : A -> A) i l j dflt : (i < length l)%nat ->
    nth j (add_at f i l) dflt = if Nat.eqb i j then f (nth j l dflt) else nth j l dflt.
  Proof.
    revert i j. induction l as [|x l IH]; intros i j H; [cbn in H; lia|].
    destruct i as [|i], j as [|j]; cbn [add_at nth Nat.eqb]; try reflexivity.
    apply IH. cbn in H. lia.
  Qed.

  Lemma ketp_add_at m ds st j d v x : length st = length ds -> nth_error ds j = Some d ->
    ketp m (combine ds (add_at (fun w => w + v) j st)) x =
    ketp m (combine ds st) x + (if N.eqb (todet m d) x then v else 0).
  Proof.
    revert st j. induction ds as [|e ds IH]; intros st j Hl Hj; [destruct j; discriminate|].
    destruct st as [|c st]; [discriminate|]. destruct j as [|j]; cbn [nth_error] in Hj.
    - injection Hj as ->. cbn [add_at combine ketp]. destruct (N.eqb (todet m d) x); ring.
    - cbn [add_at combine ketp]. rewrite IH; [ring| |exact Hj]. cbn in Hl. lia.
  Qed.

  (** Amplitudes below the threshold are treated as zero by the serial kernel. *)
  Definition chop (c : K) : K := if tiny c then 0 else c.

  (** Contribution of one amplitude to determinant [x] under a string. *)
  Definition contrib (m : nat) (s : fstring) (x : det) (d : N) (c : K) : K :=
    match actdet s (todet m d) with
    | Some (sg, y) => if N.eqb y x then sgn sg c else 0
    | None => 0
    end.
  Fixpoint contribs (m : nat) (s : fstring) (x : det) (l : list (N * K)) : K :=
    match l with
    | [] => 0
    | (d, c) :: l' => contrib m s x d c + contribs m s x l'
    end.

  Lemma sgn_mul1 b (c : K) : sgn b c = sgn b 1 * c.
  Proof. destruct b; cbn [sgn]; ring. Qed.

  Lemma appstr_ketp m s l x : appstr s (ketp m l) x = contribs m s x l.
  Proof.
    induction l as [|[d c] l IH]; cbn [contribs].
    - apply appstr_zero. reflexivity.
    - rewrite <- IH.
      rewrite (appstr_ext s _ (fun e => c * basis (todet m d) e + ketp m l e)).
      2:{ intros e. cbn [ketp]. unfold basis. destruct (N.eqb (todet m d) e); ring. }
      rewrite (appstr_add s (fun e => c * basis (todet m d) e)), appstr_scale. f_equal.
      change (appstr s (basis (todet m d)) x) with (melstr s x (todet m d)). rewrite melstr_actdet.
      unfold contrib. destruct (actdet s (todet m d)) as [[sg y]|]; [|ring].
      destruct (N.eqb y x); [|ring]. rewrite (sgn_mul1 sg c). ring.
  Qed.

  (** ** Serial kernel *)

  (** Some amplitude above the threshold reaches a determinant outside the space. *)
  Definition leaves (n : nat) (ci : ci_info) (s : fstring) (l : list (N * K)) : Prop :=
    exists d c sg y, In (d, c) l /\ tiny c = false /\ actdet s (todet (2 * n) d) = Some (sg, y) /\ ~ inspace n ci y.

  Lemma leaves_dec n ci s l : wf_ci n ci -> inr n s -> (forall d c, In (d, c) l -> (d < 2 ^ N.of_nat (2 * n))%N) ->
    leaves n ci s l \/ ~ leaves n ci s l.
  Proof.
    intros Hw Hs. induction l as [|[d c] l IH]; intros Hb.
    - right. intros (? & ? & ? & ? & [] & _).
    - destruct IH as [H|H].
      + intros d' c' Hi. apply (Hb d' c'). now right.
      + left. destruct H as (d' & c' & sg & y & A & B). exists d', c', sg, y. split; [now right|exact B].
      + assert (tiny c = false /\ (exists sg y, actdet s (todet (2 * n) d) = Some (sg, y) /\ ~ inspace n ci y)
               \/ ~ (tiny c = false /\ (exists sg y, actdet s (todet (2 * n) d) = Some (sg, y) /\ ~ inspace n ci y))) as [X|X].
        { destruct (tiny c); [right; intros [? _]; discriminate|].
          destruct (actdet s (todet (2 * n) d)) as [[sg y]|] eqn:E.
          - destruct (inspace_dec n ci y Hw) as [I|I].
            + eapply actdet_small; eauto. apply todet_small.
            + right. intros (_ & sg' & y' & E' & I'). injection E' as <- <-. contradiction.
            + left. split; [reflexivity|]. eauto.
          - right. intros (_ & ? & ? & E' & _). discriminate. }
        * left. destruct X as (T & sg & y & E & I). exists d, c, sg, y. split; [now left|]. auto.
        * right. intros (d' & c' & sg & y & [A|A] & T & E & I).
          { injection A as -> ->. apply X. split; auto. eauto. }
          { apply H. exists d', c', sg, y. auto. }
  Qed.

  Lemma serial_raise n pc ci u s f l e :
    fold_left (serial_step tiny n pc ci u s f) l (Raise e) = Raise e.
  Proof. induction l as [|x l IH]; [reflexivity|]. exact IH. Qed.

  Lemma serial_fold n ci u s f l : wf_ci n ci -> normal s -> inr n s ->
    (forall d c, In (d, c) l -> (d < 2 ^ N.of_nat (2 * n))%N) ->
    forall tmp, length tmp = length (idx2det ci) ->
    ((u = false /\ leaves n ci s l) ->
       fold_left (serial_step tiny n (parity_check n) ci u s f) l (Ok tmp) = Raise KeyError) /\
    (~ (u = false /\ leaves n ci s l) ->
       exists tmp', fold_left (serial_step tiny n (parity_check n) ci u s f) l (Ok tmp) = Ok tmp' /\
         length tmp' = length (idx2det ci) /\
         forall x, inspace n ci x ->
           ket n ci tmp' x = ket n ci tmp x +
             sgn (rsgn s) f * contribs (2 * n) s x (map (fun dc => (fst dc, chop (snd dc))) l)).
  Proof.
    intros Hw Hn Hr. induction l as [|[d c] l IH]; intros Hb tmp Ht.
    - split; [intros [_ (? & ? & ? & ? & [] & _)]|]. intros _. exists tmp. cbn. repeat split; auto.
      intros x _. ring.
    - assert (d < 2 ^ N.of_nat (2 * n))%N as Hd by (apply (Hb d c); now left).
      assert (forall d c, In (d, c) l -> (d < 2 ^ N.of_nat (2 * n))%N) as Hb' by (intros d' c' Hi; apply (Hb d' c'); now right).
      specialize (IH Hb').
      assert (leaves n ci s ((d, c) :: l) <-> leaves n ci s l \/
              (tiny c = false /\ exists sg y, actdet s (todet (2 * n) d) = Some (sg, y) /\ ~ inspace n ci y)) as HL.
      { split.
        - intros (d' & c' & sg & y & [A|A] & T & E & I).
          + injection A as <- <-. right. eauto.
          + left. exists d', c', sg, y. auto.
        - intros [(d' & c' & sg & y & A & T & E & I)|(T & sg & y & E & I)].
          + exists d', c', sg, y. split; [now right|auto].
          + exists d, c, sg, y. split; [now left|auto]. }
      cbn [fold_left map fst snd contribs].
      remember (serial_step tiny n (parity_check n) ci u s f (Ok tmp) (d, c)) as r eqn:Er.
      unfold serial_step in Er. cbn [bind fst snd] in Er. rewrite kernel_serial in Er by assumption.
      unfold contrib. destruct (actdet s (todet (2 * n) d)) as [[sg y]|] eqn:E.
      2:{ subst r. destruct (IH tmp Ht) as [I1 I2]. split.
          - intros [Hu Hlv]. apply I1. split; auto. apply HL in Hlv as [Hlv|(_ & ? & ? & Hx & _)]; [exact Hlv|discriminate].
          - intros Hnl. destruct I2 as (tmp' & A & B & D).
            { intros [Hu Hlv]. apply Hnl. split; auto. apply HL. now left. }
            exists tmp'. repeat split; auto. intros x Hx. rewrite D by exact Hx. ring. }
      assert (y < 2 ^ N.of_nat (2 * n))%N as Hy by (eapply actdet_small; [exact Hr|apply todet_small|exact E]).
      assert (chop c = if tiny c then 0 else c) as Hch by reflexivity. rewrite Hch. clear Hch.
      destruct (tiny c) eqn:Tc.
      + subst r. destruct (IH tmp Ht) as [I1 I2]. split.
        * intros [Hu Hlv]. apply I1. split; auto. apply HL in Hlv as [Hlv|(T & _)]; [exact Hlv|congruence].
        * intros Hnl. destruct I2 as (tmp' & A & B & D).
          { intros [Hu Hlv]. apply Hnl. split; auto. apply HL. now left. }
          exists tmp'. repeat split; auto. intros x Hx. rewrite D by exact Hx.
          destruct (N.eqb y x); [rewrite sgn_0|]; ring.
      + destruct (lookup (todet (2 * n) y) (det2idx ci)) as [j|] eqn:El.
        * assert (nth_error (idx2det ci) j = Some (todet (2 * n) y)) as Hj by now apply Hw.
          assert (inspace n ci y) as Hin by (apply inspace_lookup; eauto).
          subst r. set (tmp1 := add_at _ j tmp).
          assert (length tmp1 = length (idx2det ci)) as Ht1 by (unfold tmp1; now rewrite add_at_length).
          destruct (IH tmp1 Ht1) as [I1 I2]. split.
          { intros [Hu Hlv]. apply I1. split; auto. apply HL in Hlv as [Hlv|(_ & sg' & y' & E' & I')]; [exact Hlv|].
            injection E' as <- <-. contradiction. }
          intros Hnl. destruct I2 as (tmp' & A & B & D).
          { intros [Hu Hlv]. apply Hnl. split; auto. apply HL. now left. }
          exists tmp'. repeat split; auto. intros x Hx. rewrite D by exact Hx.
          unfold tmp1, ket. rewrite (ketp_add_at (2 * n) _ _ j (todet (2 * n) y)) by assumption.
          rewrite todet_invol by exact Hy.
          destruct (N.eqb y x); [|ring]. destruct (rsgn s), sg; cbn [xorb sgn]; ring.
        * assert (~ inspace n ci y) as Hout.
          { intros Hin. apply inspace_lookup in Hin as [j Hj]; auto. congruence. }
          destruct u.
          { subst r. destruct (IH tmp Ht) as [I1 I2]. split; [intros [? _]; discriminate|].
            intros _. destruct I2 as (tmp' & A & B & D); [intros [? _]; discriminate|].
            exists tmp'. repeat split; auto. intros x Hx. rewrite D by exact Hx.
            destruct (N.eqb_spec y x) as [->|]; [contradiction|ring]. }
          { subst r. split.
            - intros _. apply serial_raise.
            - intros Hnl. exfalso. apply Hnl. split; auto. apply HL. right. eauto. }
  Qed.

  Lemma combine_chop ds (st : list K) :
    map (fun dc : N * K => (fst dc, chop (snd dc))) (combine ds st) = combine ds (map chop st).
  Proof. revert st. induction ds as [|d ds IH]; intros [|c st]; cbn; auto. now rewrite IH. Qed.

  Lemma combine_in_bound n ci st : wf_ci n ci ->
    forall d c, In (d, c) (combine (idx2det ci) (st : list K)) -> (d < 2 ^ N.of_nat (2 * n))%N.
  Proof. intros (_ & H & _) d c Hi. apply in_combine_l in Hi. auto. Qed.

  (** Strings of an operator and the signs of the serial kernel. *)
  Definition signed (D : dict) : dict := map (fun sc => (fst sc, sgn (rsgn (fst sc)) (snd sc))) D.
  Definition op_leaves (n : nat) (ci : ci_info) (D : dict) (st : list K) : Prop :=
    exists s c, In (s, c) D /\ leaves n ci s (combine (idx2det ci) st).
  Definition wf_op (n : nat) (D : dict) : Prop := forall s c, In (s, c) D -> normal s /\ inr n s.

  Lemma op_leaves_dec n ci D st : wf_ci n ci -> wf_op n D -> op_leaves n ci D st \/ ~ op_leaves n ci D st.
  Proof.
    intros Hw. induction D as [|[s c] D IH]; intros Ho.
    - right. intros (? & ? & [] & _).
    - destruct IH as [H|H].
      + intros s' c' Hi. apply (Ho s' c'). now right.
      + left. destruct H as (s' & c' & A & B). exists s', c'. split; [now right|exact B].
      + destruct (leaves_dec n ci s (combine (idx2det ci) st) Hw) as [L|L].
        * apply (Ho s c). now left.
        * now apply combine_in_bound.
        * left. exists s, c. split; [now left|exact L].
        * right. intros (s' & c' & [A|A] & B).
          { injection A as -> ->. contradiction. }
          { apply H. exists s', c'. auto. }
  Qed.

  Lemma serial_op n ci u D st : wf_ci n ci -> wf_op n D -> length st = length (idx2det ci) ->
    forall tmp, length tmp = length (idx2det ci) ->
    let r := fold_left (fun acc kc => apply_operator_serial tiny n (parity_check n) ci u (fst kc) (snd kc) st acc) D (Ok tmp) in
    ((u = false /\ op_leaves n ci D st) -> r = Raise KeyError) /\
    (~ (u = false /\ op_leaves n ci D st) ->
       exists tmp', r = Ok tmp' /\ length tmp' = length (idx2det ci) /\
         forall x, inspace n ci x ->
           ket n ci tmp' x = ket n ci tmp x + opapp (signed D) (ket n ci (map chop st)) x).
  Proof.
    intros Hw. induction D as [|[s f] D IH]; intros Ho Hst tmp Ht r.
    - split; [intros [_ (? & ? & [] & _)]|]. intros _. exists tmp. cbn in *. repeat split; auto. intros; ring.
    - assert (normal s /\ inr n s) as [Hn Hr] by (apply (Ho s f); now left).
      assert (wf_op n D) as Ho' by (intros s' c' Hi; apply (Ho s' c'); now right).
      assert (op_leaves n ci ((s, f) :: D) st <-> leaves n ci s (combine (idx2det ci) st) \/ op_leaves n ci D st) as HL.
      { split.
        - intros (s' & c' & [A|A] & B).
          + injection A as <- <-. now left.
          + right. exists s', c'. auto.
        - intros [L|(s' & c' & A & B)].
          + exists s, f. split; [now left|auto].
          + exists s', c'. split; [now right|auto]. }
      destruct (serial_fold n ci u s f (combine (idx2det ci) st) Hw Hn Hr (combine_in_bound n ci st Hw) tmp Ht) as [S1 S2].
      unfold r. cbn [fold_left fst snd]. unfold apply_operator_serial at 2 4.
      assert (forall e, fold_left (fun acc kc => apply_operator_serial tiny n (parity_check n) ci u (fst kc) (snd kc) st acc)
                D (Raise e) = Raise e) as Hraise.
      { intros e. clear. induction D as [|kc D IH]; [reflexivity|]. cbn [fold_left]. unfold apply_operator_serial at 2.
        rewrite serial_raise. exact IH. }
      destruct (leaves_dec n ci s (combine (idx2det ci) st) Hw Hr (combine_in_bound n ci st Hw)) as [L|L].
      + destruct u.
        * destruct S2 as (t1 & E1 & L1 & F1); [intros [? _]; discriminate|]. rewrite E1.
          destruct (IH Ho' Hst t1 L1) as [I1 I2]. split; [intros [? _]; discriminate|].
          intros _. destruct I2 as (t2 & E2 & L2 & F2); [intros [? _]; discriminate|].
          exists t2. repeat split; auto. intros x Hx. rewrite F2, F1 by exact Hx. cbn [signed map opapp fst snd].
          rewrite combine_chop, <- appstr_ketp. unfold ket, signed. ring.
        * rewrite S1 by auto. split; [auto|]. intros H. exfalso. apply H. split; auto. apply HL. now left.
      + destruct S2 as (t1 & E1 & L1 & F1); [tauto|]. rewrite E1.
        destruct (IH Ho' Hst t1 L1) as [I1 I2]. split.
        * intros [Hu H]. apply I1. split; auto. apply HL in H. tauto.
        * intros H. destruct I2 as (t2 & E2 & L2 & F2).
          { intros [Hu H']. apply H. split; auto. apply HL. now right. }
          exists t2. repeat split; auto. intros x Hx. rewrite F2, F1 by exact Hx. cbn [signed map opapp fst snd].
          rewrite combine_chop, <- appstr_ketp. unfold ket, signed. ring.
  Qed.

  (** ** Threaded kernel *)

  (** Some determinant of the space receives amplitude from outside the space. *)
  Definition enters (n : nat) (ci : ci_info) (s : fstring) (order : list nat) : Prop :=
    exists i sg y, In i order /\ actdet (adjstr s) (todet (2 * n) (nth i (idx2det ci) 0%N)) = Some (sg, y) /\
                   ~ inspace n ci y.

  Lemma inr_adj n s : inr n s -> inr n (adjstr s).
  Proof.
    intros H o Ho. unfold adjstr in Ho. apply in_rev in Ho. apply in_map_iff in Ho as (o' & <- & Ho). cbn. now apply H.
  Qed.

  Lemma threaded_raise n pc ci u s f st l e :
    fold_left (threaded_step n pc ci u s f st) l (Raise e) = Raise e.
  Proof. induction l as [|x l IH]; [reflexivity|]. exact IH. Qed.

  Lemma threaded_fold n ci u s f st order : wf_ci n ci -> normal s -> inr n s -> length st = length (idx2det ci) ->
    NoDup order -> (forall i, In i order -> (i < length (idx2det ci))%nat) ->
    forall tmp, length tmp = length (idx2det ci) ->
    ((u = false /\ enters n ci s order) ->
       fold_left (threaded_step n (parity_check n) ci u s f st) order (Ok tmp) = Raise KeyError) /\
    (~ (u = false /\ enters n ci s order) ->
       exists tmp', fold_left (threaded_step n (parity_check n) ci u s f st) order (Ok tmp) = Ok tmp' /\
         length tmp' = length (idx2det ci) /\
         forall i, nth i tmp' 0 = nth i tmp 0 +
           (if in_dec Nat.eq_dec i order
            then f * appstr s (ket n ci st) (todet (2 * n) (nth i (idx2det ci) 0%N)) else 0)).
  Proof.
    intros Hw Hn Hr Hst Hnd. induction Hnd as [|i order Hi Hnd IH]; intros Hb tmp Ht.
    - split; [intros [_ (? & ? & ? & [] & _)]|]. intros _. exists tmp. cbn. repeat split; auto. intros; ring.
    - assert (i < length (idx2det ci))%nat as Hil by (apply Hb; now left).
      assert (forall j, In j order -> (j < length (idx2det ci))%nat) as Hb' by (intros j Hj; apply Hb; now right).
      specialize (IH Hb'). set (d := nth i (idx2det ci) 0%N) in *.
      assert (In d (idx2det ci)) as Hin by now apply nth_In.
      assert (d < 2 ^ N.of_nat (2 * n))%N as Hd by now apply Hw.
      assert (enters n ci s (i :: order) <-> enters n ci s order \/
              (exists sg y, actdet (adjstr s) (todet (2 * n) d) = Some (sg, y) /\ ~ inspace n ci y)) as HL.
      { split.
        - intros (i' & sg & y & [->|A] & E & I).
          + right. eauto.
          + left. exists i', sg, y. auto.
        - intros [(i' & sg & y & A & E & I)|(sg & y & E & I)].
          + exists i', sg, y. split; [now right|auto].
          + exists i, sg, y. split; [now left|auto]. }
      assert (forall tmp1 (v : K), length tmp1 = length (idx2det ci) ->
                (forall k, nth k tmp1 0 = nth k tmp 0 + (if Nat.eqb i k then v else 0)) ->
                v = f * appstr s (ket n ci st) (todet (2 * n) d) ->
                fold_left (threaded_step n (parity_check n) ci u s f st) order (Ok tmp1) =
                fold_left (threaded_step n (parity_check n) ci u s f st) (i :: order) (Ok tmp) ->
                ((exists sg y, actdet (adjstr s) (todet (2 * n) d) = Some (sg, y) /\ ~ inspace n ci y) -> u = true) ->
         ((u = false /\ enters n ci s (i :: order)) ->
            fold_left (threaded_step n (parity_check n) ci u s f st) (i :: order) (Ok tmp) = Raise KeyError) /\
         (~ (u = false /\ enters n ci s (i :: order)) ->
         exists tmp', fold_left (threaded_step n (parity_check n) ci u s f st) (i :: order) (Ok tmp) = Ok tmp' /\
           length tmp' = length (idx2det ci) /\
           forall k, nth k tmp' 0 = nth k tmp 0 +
           (if in_dec Nat.eq_dec k (i :: order)
            then f * appstr s (ket n ci st) (todet (2 * n) (nth k (idx2det ci) 0%N)) else 0))) as Hstep.
      { intros tmp1 v L1 Hk Hv <- Hu1. destruct (IH tmp1 L1) as [I1 I2]. split.
        - intros [Hu He]. apply I1. split; auto. apply HL in He as [He|He]; [exact He|]. apply Hu1 in He. congruence.
        - intros Hne. destruct I2 as (t2 & E2 & L2 & F2).
          { intros [Hu He]. apply Hne. split; auto. apply HL. now left. }
          exists t2. repeat split; auto. intros k. rewrite F2, Hk.
          destruct (Nat.eqb_spec i k) as [<-|Hik].
          + fold d. rewrite <- Hv.
            destruct (in_dec Nat.eq_dec i order) as [X|_]; [contradiction|].
            destruct (in_dec Nat.eq_dec i (i :: order)) as [_|X]; [ring|exfalso; apply X; now left].
          + destruct (in_dec Nat.eq_dec k order) as [X|X], (in_dec Nat.eq_dec k (i :: order)) as [Y|Y]; try ring.
            * exfalso. apply Y. now right.
            * destruct Y as [Y|Y]; contradiction. }
      pose proof (kernel_threaded n s d Hn Hr Hd) as Hker.
      pose proof (appstr_gather s (ket n ci st) (todet (2 * n) d)) as Hga.
      destruct (actdet (adjstr s) (todet (2 * n) d)) as [[sg y]|] eqn:E.
      + assert (y < 2 ^ N.of_nat (2 * n))%N as Hy.
        { eapply actdet_small; [apply inr_adj; exact Hr|apply todet_small|exact E]. }
        destruct (lookup (todet (2 * n) y) (det2idx ci)) as [j|] eqn:El.
        * assert (nth_error (idx2det ci) j = Some (todet (2 * n) y)) as Hj by now apply Hw.
          assert (inspace n ci y) as Hys by (apply inspace_lookup; eauto).
          pose proof (ket_nth n ci st j _ Hw Hst Hj) as Hkn. rewrite todet_invol in Hkn by exact Hy.
          apply (Hstep (add_at (fun v => v + sgn sg 1 * f * nth j st 0) i tmp) (sgn sg 1 * f * nth j st 0)).
          { now rewrite add_at_length. }
          { intros k. rewrite add_at_nth by lia. destruct (Nat.eqb i k); [reflexivity|ring]. }
          { rewrite Hga, Hkn. rewrite (sgn_mul1 sg (nth j st 0)). ring. }
          { cbn [fold_left]. unfold threaded_step at 3. cbn [bind]. fold d. rewrite Hker, El. reflexivity. }
          { intros (sg' & y' & E' & I'). injection E' as <- <-. contradiction. }
        * assert (~ inspace n ci y) as Hout.
          { intros X. apply inspace_lookup in X as [j Hj]; auto. congruence. }
          destruct u.
          { apply (Hstep tmp 0 Ht).
            - intros k. destruct (Nat.eqb i k); ring.
            - rewrite Hga, (ket_outside n ci st y Hout), sgn_0. ring.
            - cbn [fold_left]. unfold threaded_step at 3. cbn [bind]. fold d. rewrite Hker, El. reflexivity.
            - reflexivity. }
          { split.
            - intros _. cbn [fold_left]. unfold threaded_step at 2. cbn [bind]. fold d. rewrite Hker, El. apply threaded_raise.
            - intros H. exfalso. apply H. split; auto. apply HL. right. eauto. }
      + apply (Hstep tmp 0 Ht).
        * intros k. destruct (Nat.eqb i k); ring.
        * rewrite Hga. ring.
        * cbn [fold_left]. unfold threaded_step at 3. cbn [bind]. fold d. rewrite Hker. reflexivity.
        * intros (? & ? & E' & _). discriminate.
  Qed.

  Definition op_enters (n : nat) (ci : ci_info) (D : dict) : Prop :=
    exists s c x sg y, In (s, c) D /\ inspace n ci x /\ actdet (adjstr s) x = Some (sg, y) /\ ~ inspace n ci y.

  Lemma enters_perm n ci s order : Permutation order (seq 0 (length (idx2det ci))) ->
    (enters n ci s order <-> exists x sg y, inspace n ci x /\ actdet (adjstr s) x = Some (sg, y) /\ ~ inspace n ci y).
  Proof.
    intros Hp. split.
    - intros (i & sg & y & Hi & E & I). eexists _, sg, y. split; [|split; [exact E|exact I]].
      exists (nth i (idx2det ci) 0%N). split; [|reflexivity]. apply nth_In.
      apply (Permutation_in _ Hp) in Hi. apply in_seq in Hi. lia.
    - intros (x & sg & y & (d & Hd & <-) & E & I).
      destruct (In_nth _ _ 0%N Hd) as (i & Hi & Ei). exists i, sg, y. split; [|rewrite Ei; auto].
      apply (Permutation_in _ (Permutation_sym Hp)). apply in_seq. lia.
  Qed.

  Lemma threaded_op n ci u D st order : wf_ci n ci -> wf_op n D -> length st = length (idx2det ci) ->
    Permutation order (seq 0 (length (idx2det ci))) ->
    forall tmp, length tmp = length (idx2det ci) ->
    let r := fold_left (fun acc kc => apply_operator_threaded n (parity_check n) ci u (fst kc) (snd kc) st order acc) D (Ok tmp) in
    ((u = false /\ op_enters n ci D) -> r = Raise KeyError) /\
    (~ (u = false /\ op_enters n ci D) ->
       exists tmp', r = Ok tmp' /\ length tmp' = length (idx2det ci) /\
         forall x, inspace n ci x ->
           ket n ci tmp' x = ket n ci tmp x + opapp D (ket n ci st) x).
  Proof.
    intros Hw. induction D as [|[s f] D IH]; intros Ho Hst Hp tmp Ht r.
    - split; [intros [_ (? & ? & ? & ? & ? & [] & _)]|]. intros _. exists tmp. cbn in *. repeat split; auto. intros; ring.
    - assert (normal s /\ inr n s) as [Hn Hr] by (apply (Ho s f); now left).
      assert (wf_op n D) as Ho' by (intros s' c' Hi; apply (Ho s' c'); now right).
      assert (NoDup order) as Hnd by (eapply Permutation_NoDup; [apply Permutation_sym; exact Hp|apply seq_NoDup]).
      assert (forall i, In i order -> (i < length (idx2det ci))%nat) as Hb.
      { intros i Hi. apply (Permutation_in _ Hp) in Hi. apply in_seq in Hi. lia. }
      assert (op_enters n ci ((s, f) :: D) <-> enters n ci s order \/ op_enters n ci D) as HL.
      { rewrite (enters_perm n ci s order Hp). split.
        - intros (s' & c' & x & sg & y & [A|A] & B).
          + injection A as <- <-. left. eauto.
          + right. exists s', c', x, sg, y. auto.
        - intros [(x & sg & y & B)|(s' & c' & x & sg & y & A & B)].
          + exists s, f, x, sg, y. split; [now left|exact B].
          + exists s', c', x, sg, y. split; [now right|exact B]. }
      destruct (threaded_fold n ci u s f st order Hw Hn Hr Hst Hnd Hb tmp Ht) as [S1 S2].
      assert (forall e, fold_left (fun acc kc => apply_operator_threaded n (parity_check n) ci u (fst kc) (snd kc) st order acc)
                D (Raise e) = Raise e) as Hraise.
      { intros e. clear. induction D as [|kc D IH]; [reflexivity|]. cbn [fold_left]. unfold apply_operator_threaded at 2.
        rewrite threaded_raise. exact IH. }
      assert (forall t1, length t1 = length (idx2det ci) ->
         (forall i, nth i t1 0 = nth i tmp 0 +
           (if in_dec Nat.eq_dec i order
            then f * appstr s (ket n ci st) (todet (2 * n) (nth i (idx2det ci) 0%N)) else 0)) ->
         forall x, inspace n ci x -> ket n ci t1 x = ket n ci tmp x + f * appstr s (ket n ci st) x) as Hconv.
      { intros t1 L1 F1 x (d & Hd & <-). destruct (In_nth_error _ _ Hd) as [i Hi].
        rewrite (ket_nth n ci t1 i d Hw L1 Hi), (ket_nth n ci tmp i d Hw Ht Hi), F1.
        rewrite (nth_error_nth _ _ 0%N Hi).
        destruct (in_dec Nat.eq_dec i order) as [_|X]; [reflexivity|]. exfalso. apply X.
        apply (Permutation_in _ (Permutation_sym Hp)). apply in_seq.
        assert (i < length (idx2det ci))%nat by (apply nth_error_Some; congruence). lia. }
      unfold r. cbn [fold_left fst snd]. unfold apply_operator_threaded at 2 4.
      assert (enters n ci s order \/ ~ enters n ci s order) as [L|L].
      { clear - Hw Hr Hb. induction order as [|i order IH].
        - right. intros (? & ? & ? & [] & _).
        - destruct IH as [H|H].
          + intros j Hj. apply Hb. now right.
          + left. destruct H as (i' & sg & y & A & B). exists i', sg, y. split; [now right|exact B].
          + destruct (actdet (adjstr s) (todet (2 * n) (nth i (idx2det ci) 0%N))) as [[sg y]|] eqn:E.
            * destruct (inspace_dec n ci y Hw) as [I|I].
              { eapply actdet_small; [apply inr_adj; exact Hr|apply todet_small|exact E]. }
              { right. intros (i' & sg' & y' & [<-|A] & E' & I').
                - rewrite E in E'. injection E' as <- <-. contradiction.
                - apply H. exists i', sg', y'. auto. }
              { left. exists i, sg, y. split; [now left|auto]. }
            * right. intros (i' & sg' & y' & [<-|A] & E' & I'); [congruence|]. apply H. exists i', sg', y'. auto. }
      + destruct u.
        * destruct S2 as (t1 & E1 & L1 & F1); [intros [? _]; discriminate|]. rewrite E1.
          destruct (IH Ho' Hst Hp t1 L1) as [I1 I2]. split; [intros [? _]; discriminate|].
          intros _. destruct I2 as (t2 & E2 & L2 & F2); [intros [? _]; discriminate|].
          exists t2. repeat split; auto. intros x Hx. rewrite F2, (Hconv t1 L1 F1) by exact Hx. cbn [opapp]. ring.
        * rewrite S1 by auto. split; [auto|]. intros H. exfalso. apply H. split; auto. apply HL. now left.
      + destruct S2 as (t1 & E1 & L1 & F1); [tauto|]. rewrite E1.
        destruct (IH Ho' Hst Hp t1 L1) as [I1 I2]. split.
        * intros [Hu H]. apply I1. split; auto. apply HL in H. tauto.
        * intros H. destruct I2 as (t2 & E2 & L2 & F2).
          { intros [Hu H']. apply H. split; auto. apply HL. now right. }
          exists t2. repeat split; auto. intros x Hx. rewrite F2, (Hconv t1 L1 F1) by exact Hx. cbn [opapp]. ring.
  Qed.
End Vectors.
