(** Properties C17-C20: action of operators on CI vectors. *)
From Coq Require Import List Bool Arith NArith ZArith Lia Permutation Ring.
From Verif Require Import Base Fock FockMore FermiModel FermiProofs FermiUnique FermiAlgebra FermiFold
  OperatorsProofs OperatorsKeys CIModel CIProofs CIExtended StateModel StateBits StateProofs StateMore Props_CI.
Import ListNotations.

(** Vocabulary (StateProofs.v).  [ket n ci st] is the Fock-space vector with
    amplitude [st[i]] on the i-th determinant of the space and zero elsewhere;
    [inspace n ci x]: determinant [x] is listed; [opapp D f]: the operator [D]
    applied to [f] by the canonical anticommutation rules of Fock.v. *)

(** ** C20 *)

(** The loop terminates (within the number of binary digits plus one rounds)
    and returns the number of one bits. *)
Theorem C20_bitcount_terminates x : exists b, bitcount_loop (S (N.size_nat x)) x 0 = Some b /\
  forall m, (x < 2 ^ N.of_nat m)%N -> b = length (filter (fun k => N.testbit x (N.of_nat k)) (seq 0 m)).
Proof.
  exists (bitcount x). split.
  - unfold bitcount. rewrite (bitcount_loop_spec (N.size_nat x)); [reflexivity|apply size_nat_lt|].
    pose proof (setbits_le (N.size_nat x) x); lia.
  - intros m Hm. now apply bitcount_spec.
Qed.

(** Running longer does not change the answer (the loop has stopped). *)
Theorem C20_bitcount_stable x fuel : N.size_nat x < fuel -> bitcount_loop fuel x 0 = Some (bitcount x).
Proof.
  intros H. rewrite (bitcount_spec (N.size_nat x)) by apply size_nat_lt.
  apply (bitcount_loop_spec (N.size_nat x)); [apply size_nat_lt|].
  pose proof (setbits_le (N.size_nat x) x); lia.
Qed.

Theorem C20_parity_check n d k : k <= 2 * n -> (d < 2 ^ N.of_nat (2 * n))%N ->
  bitcount (N.land d (nth k (parity_check n) 0%N)) = length (filter (occ (todet (2 * n) d)) (seq 0 k)).
Proof. apply bitcount_parity. Qed.

Example C20_example : bitcount 11%N = 3 /\ bitcount (N.land 11 (nth 3 (parity_check 2) 0%N)) = 2.
Proof. vm_compute. auto. Qed.

(** ** Spaces *)

Lemma get_indexing_extended_wf ni nact nv na nb order ci : 0 < ni + nact + nv -> (order <= 2)%Z ->
  get_indexing_extended ni nact nv na nb order = Ok ci -> wf_ci (ni + nact + nv) ci.
Proof.
  intros Hn Ho H. destruct (get_indexing_extended_spec ni nact nv na nb order Ho Hn) as (ci' & H' & (_ & Hnd & Hl) & Hi).
  assert (ci' = ci) as -> by congruence. split; [exact Hnd|]. split; [|exact Hl].
  intros d Hd. apply Hi in Hd. apply (in_map_toN (ni + nact + nv)) in Hd; [tauto|].
  intros a b Hab. apply in_ext_pairs in Hab as [[H1 _] [[H2 _] _]]. split; assumption.
Qed.

Lemma tri_spec k : tri k = Nat.odd (k * (k - 1) / 2).
Proof.
  assert (forall k, k * (k - 1) / 2 + k = S k * (S k - 1) / 2) as Hs.
  { intros j. replace (S j * (S j - 1)) with (j * (j - 1) + j * 2) by (destruct j; cbn; lia).
    rewrite Nat.div_add by lia. reflexivity. }
  induction k as [|k IH]; [reflexivity|]. cbn [tri]. rewrite <- Hs, Nat.odd_add, IH. reflexivity.
Qed.

Lemma balanced_idx s : balanced s <-> length (create_idx s) = length (anni_idx s).
Proof. unfold balanced, create_idx, anni_idx. now rewrite !map_length. Qed.

Lemma in_space_or_not n ci x : inspace n ci x \/ ~ inspace n ci x.
Proof.
  unfold inspace. induction (idx2det ci) as [|d l IH].
  - right. intros (? & [] & _).
  - destruct (N.eq_dec (todet (2 * n) d) x) as [<-|Hne]; [left; exists d; split; [now left|reflexivity]|].
    destruct IH as [(e & H & E)|H]; [left; exists e; split; [now right|exact E]|].
    right. intros (e & [->|He] & E); [contradiction|]. apply H. eauto.
Qed.

Lemma op_enters_dec {K} n ci (D : list (fstring * K)) : wf_ci n ci -> wf_op n D -> op_enters n ci D \/ ~ op_enters n ci D.
Proof.
  intros Hw. induction D as [|[s c] D IH]; intros Ho.
  - right. intros (? & ? & ? & ? & ? & [] & _).
  - destruct IH as [(s' & c' & x & sg & y & A & B)|H].
    { intros s' c' Hi. apply (Ho s' c'). now right. }
    { left. exists s', c', x, sg, y. split; [now right|exact B]. }
    destruct (mleaves_dec n ci (adjstr s) Hw) as [(x & sg & y & A)|L].
    { apply inr_adj. apply (Ho s c). now left. }
    { left. exists s, c, x, sg, y. split; [now left|exact A]. }
    right. intros (s' & c' & x & sg & y & [E|A] & B).
    + injection E as <- <-. apply L. exists x, sg, y. exact B.
    + apply H. exists s', c', x, sg, y. auto.
Qed.

Lemma mleaves_op_dec {K} n ci (D : list (fstring * K)) : wf_ci n ci -> wf_op n D ->
  (exists s c, In (s, c) D /\ mleaves n ci s) \/ ~ (exists s c, In (s, c) D /\ mleaves n ci s).
Proof.
  intros Hw. induction D as [|[s c] D IH]; intros Ho.
  - right. intros (? & ? & [] & _).
  - destruct IH as [(s' & c' & A & B)|H].
    { intros s' c' Hi. apply (Ho s' c'). now right. }
    { left. exists s', c'. split; [now right|exact B]. }
    destruct (mleaves_dec n ci s Hw) as [L|L].
    { apply (Ho s c). now left. }
    { left. exists s, c. split; [now left|exact L]. }
    right. intros (s' & c' & [E|A] & B).
    + injection E as <- <-. contradiction.
    + apply H. exists s', c'. auto.
Qed.

Section Claims.
  Context {K : Type} {C : CRing K}.
  Local Open Scope K_scope.
  Add Ring KringPS : (@rth K C).
  Notation dict := (list (fstring * K)).
  Variables tiny tiny_le : K -> bool.

  (** Well-formed inputs: labels are normal ordered (as produced by the
      operator class) with indices inside the space; the vector has one entry
      per determinant. *)
  Definition op_ok (n : nat) (D : dict) : Prop := forall s c, In (s, c) D -> normal s /\ forall o, In o s -> (fst o < 2 * n)%nat.
  Definition op_balanced (D : dict) : Prop := forall s c, In (s, c) D -> balanced s.

  (** Some amplitude above the threshold is sent outside the space. *)
  Definition reaches_outside (n : nat) (ci : ci_info) (D : dict) (st : list K) : Prop :=
    exists s c i d a sg y, In (s, c) D /\ nth_error (idx2det ci) i = Some d /\ nth_error st i = Some a /\ tiny a = false /\
      actdet s (todet (2 * n) d) = Some (sg, y) /\ ~ inspace n ci y.

  Lemma in_combine_nth {A B} (l : list A) (m : list B) a b :
    In (a, b) (combine l m) <-> exists i, nth_error l i = Some a /\ nth_error m i = Some b.
  Proof.
    revert m. induction l as [|x l IH]; intros [|y m]; cbn [combine In].
    - split; [tauto|]. intros ([|i] & H & _); discriminate.
    - split; [tauto|]. intros ([|i] & H & _); discriminate.
    - split; [tauto|]. intros ([|i] & _ & H); discriminate.
    - rewrite IH. split.
      + intros [E|(i & H1 & H2)]; [exists 0%nat; cbn; split; congruence|exists (S i); auto].
      + intros ([|i] & H1 & H2); cbn in *; [left; congruence|right; eauto].
  Qed.

  Lemma reaches_leaves n ci D st : reaches_outside n ci D st <-> op_leaves tiny n ci D st.
  Proof.
    unfold reaches_outside, op_leaves, leaves. split.
    - intros (s & c & i & d & a & sg & y & H1 & H2 & H3 & H4 & H5 & H6). exists s, c. split; [exact H1|].
      exists d, a, sg, y. split; [apply in_combine_nth; eauto|auto].
    - intros (s & c & H1 & d & a & sg & y & H2 & H4 & H5 & H6). apply in_combine_nth in H2 as (i & H2 & H3).
      exists s, c, i, d, a, sg, y. auto 8.
  Qed.

  Lemma no_leave_outside n ci D st x : ~ op_leaves tiny n ci D st -> ~ inspace n ci x ->
    opapp D (ket n ci (map (chop tiny) st)) x = 0.
  Proof.
    intros Hn Hx. unfold opapp, ket. induction D as [|[s c] D IH]; [reflexivity|]. cbn [map ksum fst snd].
    rewrite IH by (intros (s' & c' & H & L); apply Hn; exists s', c'; split; [now right|exact L]).
    rewrite appstr_ketp.
    assert (contribs (2 * n) s x (combine (idx2det ci) (map (chop tiny) st)) = 0) as ->; [|ring].
    assert (~ leaves tiny n ci s (combine (idx2det ci) st)) as Hl.
    { intros L. apply Hn. exists s, c. split; [now left|exact L]. }
    clear -Hl Hx. revert st Hl. generalize (idx2det ci). intros ds. induction ds as [|d ds IH]; intros [|a st] Hl; try reflexivity.
    cbn [map combine contribs]. rewrite IH.
    2:{ intros (d' & a' & sg & y & H & R). apply Hl. exists d', a', sg, y. split; [now right|exact R]. }
    unfold contrib. destruct (actdet s (todet (2 * n) d)) as [[sg y]|] eqn:E; [|ring].
    destruct (N.eqb_spec y x) as [->|]; [|ring]. unfold chop. destruct (tiny a) eqn:T; [rewrite sgn_0; ring|].
    exfalso. apply Hl. exists d, a, sg, x. repeat split; auto. now left.
  Qed.

  Lemma op_balanced_signed D : op_balanced D -> signed D = D.
  Proof. intros H. apply signed_balanced. intros s c Hi. apply balanced_idx. eauto. Qed.

  (** ** C17 *)

  (** C17, one thread.  KeyError exactly when an amplitude is sent outside the
      space; otherwise the result is the operator acting on the state, on every
      determinant of Fock space.  Amplitudes below the threshold count as zero. *)
  Theorem C17_propagate_state_serial sp ansatz (D : dict) st :
    wf_ci (sp_na sp) (sp_ci sp) -> op_ok (sp_na sp) D -> op_balanced D -> length st = length (idx2det (sp_ci sp)) ->
    (reaches_outside (sp_na sp) (sp_ci sp) D st ->
       propagate_state tiny sp None false false ansatz [SOp D] st = Raise KeyError) /\
    (~ reaches_outside (sp_na sp) (sp_ci sp) D st ->
       exists out, propagate_state tiny sp None false false ansatz [SOp D] st = Ok out /\ length out = length st /\
       forall x, ket (sp_na sp) (sp_ci sp) out x = opapp D (ket (sp_na sp) (sp_ci sp) (map (chop tiny) st)) x).
  Proof.
    intros Hw Ho Hb Hl. rewrite reaches_leaves. cbn [propagate_state rev app fold_left bind apply_op folded].
    destruct (serial_op tiny (sp_na sp) (sp_ci sp) false D st Hw Ho Hl (repeat 0 (length st))) as [H1 H2].
    { now rewrite repeat_length. }
    split.
    - intros L. apply H1. auto.
    - intros L. destruct H2 as (out & E & Lo & Hk); [tauto|]. exists out. split; [exact E|]. split; [congruence|].
      intros x. destruct (op_leaves_dec tiny (sp_na sp) (sp_ci sp) D st Hw Ho) as [L'|_]; [contradiction|].
      rewrite op_balanced_signed in Hk by exact Hb.
      destruct (in_space_or_not (sp_na sp) (sp_ci sp) x) as [Hi|Hi].
      + rewrite Hk by exact Hi. unfold ket at 1. rewrite ketp_zero. ring.
      + rewrite ket_outside by exact Hi. now rewrite no_leave_outside.
  Qed.

  Definition dim (ci : ci_info) : nat := length (idx2det ci).
  (** The iterations of the parallel loop in some order. *)
  Definition schedule (ci : ci_info) (order : list nat) : Prop := Permutation order (seq 0 (dim ci)).

  (** C17, several threads: the kernel gathers, so the KeyError is raised when
      a determinant of the space would receive from outside the space; labels
      need not conserve the particle number. *)
  Theorem C17_propagate_state_threaded sp ansatz order (D : dict) st :
    wf_ci (sp_na sp) (sp_ci sp) -> op_ok (sp_na sp) D -> length st = dim (sp_ci sp) -> schedule (sp_ci sp) order ->
    ((exists s c x sg y, In (s, c) D /\ inspace (sp_na sp) (sp_ci sp) x /\ actdet (adjstr s) x = Some (sg, y) /\
        ~ inspace (sp_na sp) (sp_ci sp) y) ->
       propagate_state tiny sp (Some order) false false ansatz [SOp D] st = Raise KeyError) /\
    (~ (exists s c x sg y, In (s, c) D /\ inspace (sp_na sp) (sp_ci sp) x /\ actdet (adjstr s) x = Some (sg, y) /\
        ~ inspace (sp_na sp) (sp_ci sp) y) ->
       exists out, propagate_state tiny sp (Some order) false false ansatz [SOp D] st = Ok out /\ length out = length st /\
       forall x, inspace (sp_na sp) (sp_ci sp) x ->
         ket (sp_na sp) (sp_ci sp) out x = opapp D (ket (sp_na sp) (sp_ci sp) st) x).
  Proof.
    intros Hw Ho Hl Hs. cbn [propagate_state rev app fold_left bind apply_op folded].
    destruct (threaded_op tiny (sp_na sp) (sp_ci sp) false D st order Hw Ho Hl Hs (repeat 0 (length st))) as [H1 H2].
    { now rewrite repeat_length. }
    split.
    - intros L. apply H1. split; [reflexivity|exact L].
    - intros L. destruct H2 as (out & E & Lo & Hk); [intros [_ L']; exact (L L')|]. exists out.
      split; [exact E|]. split; [now rewrite Hl|]. intros x Hx. rewrite Hk by exact Hx.
      unfold ket at 1. rewrite ketp_zero. ring.
  Qed.

  (** C17, [do_unsafe=True]: never an error; exactly the components outside the
      space are dropped. *)
  Theorem C17_unsafe_drops_outside sp ansatz (D : dict) st :
    wf_ci (sp_na sp) (sp_ci sp) -> op_ok (sp_na sp) D -> op_balanced D -> length st = dim (sp_ci sp) ->
    exists out, propagate_state tiny sp None false true ansatz [SOp D] st = Ok out /\ length out = length st /\
    (forall x, inspace (sp_na sp) (sp_ci sp) x ->
       ket (sp_na sp) (sp_ci sp) out x = opapp D (ket (sp_na sp) (sp_ci sp) (map (chop tiny) st)) x) /\
    (forall x, ~ inspace (sp_na sp) (sp_ci sp) x -> ket (sp_na sp) (sp_ci sp) out x = 0).
  Proof.
    intros Hw Ho Hb Hl. cbn [propagate_state rev app fold_left bind apply_op folded].
    destruct (serial_op tiny (sp_na sp) (sp_ci sp) true D st Hw Ho Hl (repeat 0 (length st))) as [_ H2].
    { now rewrite repeat_length. }
    destruct H2 as (out & E & Lo & Hk); [intros [? _]; discriminate|]. exists out.
    split; [exact E|]. split; [now rewrite Hl|]. split.
    - intros x Hx. rewrite Hk by exact Hx. rewrite op_balanced_signed by exact Hb. unfold ket at 1. rewrite ketp_zero. ring.
    - intros x Hx. now apply ket_outside.
  Qed.

  Lemma bal_balanced n s : bal n s -> balanced s.
  Proof.
    intros [[Ha Hb] _]. unfold balanced.
    assert (forall t, Z.of_nat (length (filter (fun o : fop => snd o) t)) - Z.of_nat (length (filter (fun o : fop => negb (snd o)) t))
                      = chg alpha_w t + chg beta_w t)%Z as H.
    { clear. induction t as [|[p a] t IH]; [reflexivity|].
      assert (alpha_w p + beta_w p = 1)%Z as Hw by (unfold alpha_w, beta_w; destruct (Nat.even p); reflexivity).
      cbn [filter chg fst snd]. destruct a; cbn [negb length]; lia. }
    specialize (H s). lia.
  Qed.

  (** C17 on a complete spin sector: a spin-conserving operator never raises and
      both kernels return the exact action, whatever the schedule. *)
  Theorem C17_spin_sector sp ansatz na nb (D : dict) st th unsafe :
    (forall c, tiny c = true -> c = 0) ->
    (0 < sp_na sp)%nat -> get_indexing (sp_na sp) na nb = Ok (sp_ci sp) ->
    (forall s c, In (s, c) D -> normal s /\ bal (sp_na sp) s) -> length st = dim (sp_ci sp) ->
    (forall order, th = Some order -> schedule (sp_ci sp) order) ->
    exists out, propagate_state tiny sp th false unsafe ansatz [SOp D] st = Ok out /\ length out = length st /\
    forall x, ket (sp_na sp) (sp_ci sp) out x = opapp D (ket (sp_na sp) (sp_ci sp) st) x.
  Proof.
    intros Hex Hn Hg HD Hl Hth. pose proof (get_indexing_wf _ _ _ _ Hn Hg) as Hw.
    assert (op_ok (sp_na sp) D) as Ho.
    { intros s c Hi. split; [apply (HD s c Hi)|]. apply (proj2 (HD s c Hi)). }
    assert (op_balanced D) as Hb by (intros s c Hi; eapply bal_balanced; apply (HD s c Hi)).
    assert (forall s c, In (s, c) D -> bal (sp_na sp) s) as Hbal by (intros s c Hi; apply (HD s c Hi)).
    assert (forall x, ~ inspace (sp_na sp) (sp_ci sp) x -> opapp D (ket (sp_na sp) (sp_ci sp) st) x = 0) as Hout.
    { intros x Hx. pose proof (no_leave_outside (sp_na sp) (sp_ci sp) D st x
        (bal_no_leave tiny _ _ _ _ D st Hn Hg Hbal) Hx) as H. now rewrite chop_id in H. }
    cbn [propagate_state rev app fold_left bind apply_op folded]. destruct th as [order|].
    - destruct (threaded_op tiny (sp_na sp) (sp_ci sp) unsafe D st order Hw Ho Hl (Hth _ eq_refl) (repeat 0 (length st))) as [_ H2].
      { now rewrite repeat_length. }
      destruct H2 as (out & E & Lo & Hk).
      { intros [_ L]. revert L. now apply (bal_no_enter _ na nb). }
      exists out. split; [exact E|]. split; [now rewrite Hl|]. intros x.
      destruct (in_space_or_not (sp_na sp) (sp_ci sp) x) as [Hi|Hi].
      + rewrite Hk by exact Hi. unfold ket at 1. rewrite ketp_zero. ring.
      + rewrite ket_outside by exact Hi. now rewrite Hout.
    - destruct (serial_op tiny (sp_na sp) (sp_ci sp) unsafe D st Hw Ho Hl (repeat 0 (length st))) as [_ H2].
      { now rewrite repeat_length. }
      destruct H2 as (out & E & Lo & Hk).
      { intros [_ L]. revert L. now apply (bal_no_leave _ _ na nb). }
      exists out. split; [exact E|]. split; [now rewrite Hl|]. intros x. rewrite op_balanced_signed in Hk by exact Hb.
      rewrite chop_id in Hk by exact Hex.
      destruct (in_space_or_not (sp_na sp) (sp_ci sp) x) as [Hi|Hi].
      + rewrite Hk by exact Hi. unfold ket at 1. rewrite ketp_zero. ring.
      + rewrite ket_outside by exact Hi. now rewrite Hout.
  Qed.

  Lemma folded_ket sp ansatz na nb (A : dict) st th unsafe :
    (forall c, tiny c = true -> c = 0) ->
    (0 < sp_na sp)%nat -> get_indexing (sp_na sp) na nb = Ok (sp_ci sp) ->
    (forall s c, In (s, c) A -> normal s /\ bal (sp_ni sp + sp_na sp + sp_nv sp) s) -> length st = dim (sp_ci sp) ->
    (forall order, th = Some order -> schedule (sp_ci sp) order) ->
    exists out, propagate_state tiny sp th true unsafe ansatz [SOp A] st = Ok out /\ length out = length st /\
    forall x, within (2 * sp_na sp) x ->
      ket (sp_na sp) (sp_ci sp) out x = ksum (map (fun dc => snd dc * mel A (embed (sp_ni sp) x)
                                                        (embed (sp_ni sp) (todet (2 * sp_na sp) (fst dc))))
                              (combine (idx2det (sp_ci sp)) st)).
  Proof.
    intros Hex Hn Hg HA Hl Hth. pose proof (get_indexing_wf _ _ _ _ Hn Hg) as Hw.
    set (ni := sp_ni sp) in *. set (nact := sp_na sp) in *. set (nv := sp_nv sp) in *.
    assert (forall s c, In (s, c) (op_fold ni nact nv A) -> normal s /\ bal nact s) as HD.
    { assert (Forall (fun s => normal s /\ bal nact s) (dkeys (op_fold ni nact nv A))) as HF.
      { apply (op_fold_keys (fun s => normal s /\ bal (ni + nact + nv) s)).
        - intros s k sg [Hs [[Ha Hb] Hi]] E.
          destruct (fold_key_shape ni nact nv s k sg Hs) as (H1 & H2 & H3); [|exact E|].
          + intros o Ho. specialize (Hi o Ho). lia.
          + split; [exact H1|]. split; [|exact H2]. split.
            * rewrite H3; [exact Ha|]. intros p. unfold alpha_w.
              rewrite Nat.even_add, Nat.even_mul. cbn. now destruct (Nat.even p).
            * rewrite H3; [exact Hb|]. intros p. unfold beta_w.
              rewrite Nat.even_add, Nat.even_mul. cbn. now destruct (Nat.even p).
        - apply Forall_forall. intros s Hs. unfold dkeys in Hs. apply in_map_iff in Hs as ([s' c] & <- & Hs). eauto. }
      intros s c Hi. rewrite Forall_forall in HF. apply HF. unfold dkeys. apply in_map_iff. exists (s, c). auto. }
    destruct (C17_spin_sector sp ansatz na nb (op_fold ni nact nv A) st th unsafe Hex Hn Hg HD Hl Hth) as (out & E & Lo & Hk).
    exists out. split; [exact E|]. split; [exact Lo|]. intros x Hx.
    unfold nact. rewrite Hk. unfold ket. rewrite opapp_ketp. f_equal. apply map_ext_in. intros [d' c] Hi. cbn [fst snd].
    f_equal. apply op_fold_spec.
    - apply Forall_forall. intros s Hs. unfold dkeys in Hs. apply in_map_iff in Hs as ([s' c'] & <- & Hs).
      destruct (HA _ _ Hs) as [H1 H2]. split; [exact H1|]. split; [eapply bal_balanced; exact H2|].
      intros o Ho. pose proof (proj2 H2 o Ho). cbn [fst] in *. lia.
    - exact Hx.
    - intros p Hp. unfold occ. apply (small_bit (2 * sp_na sp)); [apply todet_small|lia].
  Qed.

  (** C17 with folding: a spin-conserving operator of the whole orbital space
      applied with [do_folding=True] to a state of the active space gives the
      projection of its action onto the active space, with the inactive
      orbitals doubly occupied and the virtual ones empty. *)
  Theorem C17_folded_action sp ansatz na nb (A : dict) st th unsafe :
    (forall c, tiny c = true -> c = 0) ->
    (0 < sp_na sp)%nat -> get_indexing (sp_na sp) na nb = Ok (sp_ci sp) ->
    (forall s c, In (s, c) A -> normal s /\ bal (sp_ni sp + sp_na sp + sp_nv sp) s) -> length st = dim (sp_ci sp) ->
    (forall order, th = Some order -> schedule (sp_ci sp) order) ->
    exists out, propagate_state tiny sp th true unsafe ansatz [SOp A] st = Ok out /\ length out = length st /\
    forall i d, nth_error (idx2det (sp_ci sp)) i = Some d ->
      nth i out 0 = ksum (map (fun dc => snd dc * mel A (embed (sp_ni sp) (todet (2 * sp_na sp) d))
                                                        (embed (sp_ni sp) (todet (2 * sp_na sp) (fst dc))))
                              (combine (idx2det (sp_ci sp)) st)).
  Proof.
    intros Hex Hn Hg HA Hl Hth. pose proof (get_indexing_wf _ _ _ _ Hn Hg) as Hw.
    destruct (folded_ket sp ansatz na nb A st th unsafe Hex Hn Hg HA Hl Hth) as (out & E & Lo & Hk).
    exists out. split; [exact E|]. split; [exact Lo|]. intros i d Hd.
    rewrite <- (ket_nth (sp_na sp) (sp_ci sp) out i d Hw) by (unfold dim in Hl; first [assumption|congruence]).
    apply Hk. intros p Hp. unfold occ. apply (small_bit (2 * sp_na sp)); [apply todet_small|lia].
  Qed.

  (** ** C18 *)

  (** C18: the two kernels return the same vector for number-conserving labels
      whenever neither raises (always, with [do_unsafe]). *)
  Theorem C18_serial_threaded_agree sp ansatz order (D : dict) st unsafe out1 out2 :
    (forall c, tiny c = true -> c = 0) ->
    wf_ci (sp_na sp) (sp_ci sp) -> op_ok (sp_na sp) D -> op_balanced D -> length st = dim (sp_ci sp) ->
    schedule (sp_ci sp) order ->
    propagate_state tiny sp None false unsafe ansatz [SOp D] st = Ok out1 ->
    propagate_state tiny sp (Some order) false unsafe ansatz [SOp D] st = Ok out2 -> out1 = out2.
  Proof.
    intros Hex Hw Ho Hb Hl Hs. cbn [propagate_state rev app fold_left bind apply_op folded]. intros E1 E2.
    destruct (serial_op tiny (sp_na sp) (sp_ci sp) unsafe D st Hw Ho Hl (repeat 0 (length st))) as [F1 G1].
    { now rewrite repeat_length. }
    destruct (threaded_op tiny (sp_na sp) (sp_ci sp) unsafe D st order Hw Ho Hl Hs (repeat 0 (length st))) as [F2 G2].
    { now rewrite repeat_length. }
    destruct G1 as (o1 & P1 & L1 & K1). { intros L. apply F1 in L. rewrite L in E1. discriminate. }
    destruct G2 as (o2 & P2 & L2 & K2). { intros L. apply F2 in L. rewrite L in E2. discriminate. }
    assert (o1 = out1) as -> by congruence. assert (o2 = out2) as -> by congruence.
    apply (ket_inj (sp_na sp) (sp_ci sp)); auto. intros x Hx. rewrite K1, K2 by exact Hx.
    rewrite op_balanced_signed by exact Hb. now rewrite chop_id.
  Qed.

  (** C18: the outcome of the threaded kernel, exception included, does not
      depend on the order in which the iterations run. *)
  Theorem C18_schedule_independent sp ansatz order order' fold (D : dict) st unsafe :
    wf_ci (sp_na sp) (sp_ci sp) -> op_ok (sp_na sp) (folded sp fold D) -> length st = dim (sp_ci sp) ->
    schedule (sp_ci sp) order -> schedule (sp_ci sp) order' ->
    propagate_state tiny sp (Some order) fold unsafe ansatz [SOp D] st =
    propagate_state tiny sp (Some order') fold unsafe ansatz [SOp D] st.
  Proof.
    intros Hw Ho Hl Hs Hs'. cbn [propagate_state rev app fold_left bind apply_op].
    destruct (threaded_op tiny (sp_na sp) (sp_ci sp) unsafe (folded sp fold D) st order Hw Ho Hl Hs (repeat 0 (length st))) as [F1 G1].
    { now rewrite repeat_length. }
    destruct (threaded_op tiny (sp_na sp) (sp_ci sp) unsafe (folded sp fold D) st order' Hw Ho Hl Hs' (repeat 0 (length st))) as [F2 G2].
    { now rewrite repeat_length. }
    cbv zeta in *.
    destruct (op_enters_dec (sp_na sp) (sp_ci sp) (folded sp fold D) Hw Ho) as [L|L].
    - destruct unsafe.
      + destruct G1 as (o1 & P1 & L1 & K1); [intros [? _]; discriminate|].
        destruct G2 as (o2 & P2 & L2 & K2); [intros [? _]; discriminate|].
        eapply eq_trans; [exact P1|]. symmetry. eapply eq_trans; [exact P2|]. f_equal. symmetry.
        apply (ket_inj (sp_na sp) (sp_ci sp)); auto. intros x Hx. now rewrite K1, K2.
      + eapply eq_trans; [apply F1; auto|]. symmetry. apply F2; auto.
    - destruct G1 as (o1 & P1 & L1 & K1); [tauto|]. destruct G2 as (o2 & P2 & L2 & K2); [tauto|].
      eapply eq_trans; [exact P1|]. symmetry. eapply eq_trans; [exact P2|]. f_equal. symmetry.
      apply (ket_inj (sp_na sp) (sp_ci sp)); auto. intros x Hx. now rewrite K1, K2.
  Qed.

  (** C18: for a label with [nc] creation and [na] annihilation operators the
      serial kernel applies each group in reverse order, so the results differ
      by the sign of the two reversals. *)
  Theorem C18_sign_of_unbalanced_labels sp ansatz order s (c : K) st :
    (forall c, tiny c = true -> c = 0) ->
    wf_ci (sp_na sp) (sp_ci sp) -> op_ok (sp_na sp) [(s, c)] -> length st = dim (sp_ci sp) -> schedule (sp_ci sp) order ->
    let nc := length (filter (fun o : fop => snd o) s) in
    let na := length (filter (fun o : fop => negb (snd o)) s) in
    exists out1 out2,
    propagate_state tiny sp None false true ansatz [SOp [(s, c)]] st = Ok out1 /\
    propagate_state tiny sp (Some order) false true ansatz [SOp [(s, c)]] st = Ok out2 /\
    out1 = map (sgn (xorb (Nat.odd (na * (na - 1) / 2)) (Nat.odd (nc * (nc - 1) / 2)))) out2.
  Proof.
    intros Hex Hw Ho Hl Hs nc na. cbn [propagate_state rev app fold_left bind apply_op folded].
    destruct (serial_op tiny (sp_na sp) (sp_ci sp) true [(s, c)] st Hw Ho Hl (repeat 0 (length st))) as [_ G1].
    { now rewrite repeat_length. }
    destruct (threaded_op tiny (sp_na sp) (sp_ci sp) true [(s, c)] st order Hw Ho Hl Hs (repeat 0 (length st))) as [_ G2].
    { now rewrite repeat_length. }
    destruct G1 as (o1 & P1 & L1 & K1); [intros [? _]; discriminate|].
    destruct G2 as (o2 & P2 & L2 & K2); [intros [? _]; discriminate|].
    exists o1, o2. split; [exact P1|]. split; [exact P2|].
    replace (xorb (Nat.odd (na * (na - 1) / 2)) (Nat.odd (nc * (nc - 1) / 2))) with (rsgn s).
    2:{ unfold rsgn, na, nc, anni_idx, create_idx. now rewrite !map_length, !tri_spec. }
    apply (ket_inj (sp_na sp) (sp_ci sp)); auto; [now rewrite map_length|]. intros x Hx.
    assert (ket (sp_na sp) (sp_ci sp) (map (sgn (rsgn s)) o2) x = sgn (rsgn s) (ket (sp_na sp) (sp_ci sp) o2 x)) as ->.
    { unfold ket. clear. generalize (idx2det (sp_ci sp)). intros ds. revert o2.
      induction ds as [|d ds IH]; intros [|a o2]; cbn [map combine ketp]; try (now rewrite sgn_0).
      rewrite IH, sgn_add. destruct (N.eqb (todet (2 * sp_na sp) d) x); [reflexivity|now rewrite sgn_0]. }
    rewrite K1, K2 by exact Hx. rewrite chop_id by exact Hex. unfold signed, opapp. cbn [map ksum fst snd].
    unfold ket at 1 3. rewrite ketp_zero. destruct (rsgn s); cbn [sgn]; ring.
  Qed.

  (** ** C19 *)

  Lemma square_zero k : square (K:=K) k (repeat (repeat 0 k) k).
  Proof.
    split; [apply repeat_length|]. intros row Hr. apply repeat_spec in Hr. subst. apply repeat_length.
  Qed.
  Lemma entry_zero k r i : entry (K:=K) (repeat (repeat 0 k) k) r i = 0.
  Proof.
    unfold entry. destruct (nth_in_or_default r (repeat (repeat (0:K) k) k) []) as [H| ->].
    - apply repeat_spec in H. rewrite H. destruct (nth_in_or_default i (repeat (0:K) k) 0) as [H'| ->]; [|reflexivity].
      now apply repeat_spec in H'.
    - now destruct i.
  Qed.

  (** C19: for number-conserving labels the entries of [build_operator_matrix]
      are the matrix elements of the operator between the determinants. *)
  Theorem C19_matrix_elements n ci unsafe (D : dict) M :
    wf_ci n ci -> op_ok n D -> op_balanced D ->
    build_operator_matrix n ci unsafe D = Ok M ->
    length M = dim ci /\ (forall row, In row M -> length row = dim ci) /\
    forall i j di dj, nth_error (idx2det ci) i = Some di -> nth_error (idx2det ci) j = Some dj ->
      nth j (nth i M []) 0 = mel D (todet (2 * n) di) (todet (2 * n) dj).
  Proof.
    intros Hw Ho Hb E. destruct (matrix_op n ci unsafe D Hw Ho _ (square_zero (dim ci))) as [H1 H2].
    destruct H2 as (M' & E' & [S1 S2] & He). { intros L. apply H1 in L. unfold build_operator_matrix, dim in *. congruence. }
    assert (M' = M) as -> by (unfold build_operator_matrix, dim in *; congruence).
    split; [exact S1|]. split; [exact S2|]. intros i j di dj Hi Hj.
    assert (i < length (idx2det ci))%nat by (apply nth_error_Some; congruence).
    assert (j < length (idx2det ci))%nat by (apply nth_error_Some; congruence).
    change (nth j (nth i M []) 0) with (entry M i j). rewrite He by assumption. rewrite entry_zero, op_balanced_signed by exact Hb.
    rewrite (nth_error_nth _ _ 0%N Hi), (nth_error_nth _ _ 0%N Hj). ring.
  Qed.

  (** C19: the matrix is built exactly when no determinant of the space is sent
      outside it ([do_unsafe]: always). *)
  Theorem C19_matrix_keyerror n ci (D : dict) :
    wf_ci n ci -> op_ok n D ->
    (build_operator_matrix n ci false D = Raise KeyError <->
     exists s c x sg y, In (s, c) D /\ inspace n ci x /\ actdet s x = Some (sg, y) /\ ~ inspace n ci y) /\
    (exists M, build_operator_matrix n ci true D = Ok M).
  Proof.
    intros Hw Ho. split.
    - destruct (matrix_op n ci false D Hw Ho _ (square_zero (dim ci))) as [H1 H2].
      assert ((exists s c x sg y, In (s, c) D /\ inspace n ci x /\ actdet s x = Some (sg, y) /\ ~ inspace n ci y) <->
              (exists s c, In (s, c) D /\ mleaves n ci s)) as Heq.
      { unfold mleaves. split.
        - intros (s & c & x & sg & y & A & B). exists s, c. split; [exact A|]. exists x, sg, y. exact B.
        - intros (s & c & A & x & sg & y & B). exists s, c, x, sg, y. auto. }
      rewrite Heq. split.
      + intros E. destruct (mleaves_op_dec n ci D Hw Ho) as [L|L]; [exact L|].
        destruct H2 as (M' & E' & _); [tauto|]. unfold build_operator_matrix, dim in *. congruence.
      + intros L. apply H1. auto.
    - destruct (matrix_op n ci true D Hw Ho _ (square_zero (dim ci))) as [_ H2].
      destruct H2 as (M & E & _); [intros [? _]; discriminate|]. exists M. exact E.
  Qed.

  (** C19: matrix times state is [propagate_state] (every label, conserving or
      not, with the same [do_unsafe] flag). *)
  Theorem C19_matrix_times_state sp ansatz unsafe (D : dict) M st :
    (forall c, tiny c = true -> c = 0) ->
    wf_ci (sp_na sp) (sp_ci sp) -> op_ok (sp_na sp) D -> length st = dim (sp_ci sp) ->
    build_operator_matrix (sp_na sp) (sp_ci sp) unsafe D = Ok M ->
    propagate_state tiny sp None false unsafe ansatz [SOp D] st = Ok (map (fun row => dot row st) M).
  Proof.
    intros Hex Hw Ho Hl E. destruct (matrix_op (sp_na sp) (sp_ci sp) unsafe D Hw Ho _ (square_zero (dim (sp_ci sp)))) as [H1 H2].
    assert (~ (unsafe = false /\ exists s c, In (s, c) D /\ mleaves (sp_na sp) (sp_ci sp) s)) as Hnl.
    { intros L. apply H1 in L. unfold build_operator_matrix, dim in *. congruence. }
    destruct (H2 Hnl) as (M' & E' & S & He).
    assert (M' = M) as -> by (unfold build_operator_matrix, dim in *; congruence).
    cbn [propagate_state rev app fold_left bind apply_op folded].
    destruct (serial_op tiny (sp_na sp) (sp_ci sp) unsafe D st Hw Ho Hl (repeat 0 (length st))) as [_ G1].
    { now rewrite repeat_length. }
    destruct G1 as (out & P & Lo & Hk).
    { intros [Hu (s & c & Hi & d & a & sg & y & Hd & _ & A & B)]. apply Hnl. split; [exact Hu|]. exists s, c. split; [exact Hi|].
      eexists _, sg, y. split; [|split; [exact A|exact B]]. exists d. split; [now apply in_combine_l in Hd|reflexivity]. }
    eapply eq_trans; [exact P|]. f_equal.
    destruct (mvec_ket (sp_na sp) (sp_ci sp) (signed D) M st Hw S Hl) as [Lm Hm].
    { intros j i Hj Hi. rewrite He by assumption. rewrite entry_zero. ring. }
    apply (ket_inj (sp_na sp) (sp_ci sp)); auto. intros x Hx. fold (mvec M st). rewrite Hm, Hk by exact Hx.
    rewrite chop_id by exact Hex. unfold ket at 1. rewrite ketp_zero. ring.
  Qed.

  (** C19: expectation values are the bilinear form of the matrices applied
      from right to left. *)
  Theorem C19_expectation_value sp ansatz unsafe (Ds : list dict) Ms bra st :
    (forall c, tiny c = true -> c = 0) ->
    wf_ci (sp_na sp) (sp_ci sp) -> Forall (op_ok (sp_na sp)) Ds -> length st = dim (sp_ci sp) ->
    Forall2 (fun D M => build_operator_matrix (sp_na sp) (sp_ci sp) unsafe D = Ok M) Ds Ms ->
    expectation_value tiny sp None false unsafe ansatz bra (map SOp Ds) st =
    Ok (dot bra (fold_right (fun M v => map (fun row => dot row v) M) st Ms)).
  Proof.
    intros Hex Hw HD Hl H2. unfold expectation_value.
    assert (exists out, propagate_state tiny sp None false unsafe ansatz (map SOp Ds) st = Ok out /\
             length out = dim (sp_ci sp) /\ out = fold_right (fun M v => map (fun row => dot row v) M) st Ms) as (out & E & _ & ->).
    { unfold propagate_state. induction H2 as [|D M Ds Ms HM H2 IH].
      - exists st. auto.
      - inversion HD as [|? ? HD1 HD2]; subst. destruct (IH HD2) as (out & E & L & Eo). cbn [map rev fold_right].
        rewrite fold_left_app. rewrite E. pose proof (C19_matrix_times_state sp ansatz unsafe D M out Hex Hw HD1 L HM) as T.
        cbn [propagate_state rev app fold_left] in T |- *. eexists. split; [exact T|]. split.
        + cbn [bind] in T. apply apply_op_length in T. now rewrite T.
        + now rewrite <- Eo. }
    rewrite E. reflexivity.
  Qed.

  (** C19: the state-averaged propagation is the single-state propagation of
      every row, for both kernels and with the same schedule; it fails exactly
      when some row fails, with the same exception. *)
  Theorem C19_state_averaged_rows sp th fold unsafe f F ops state :
    (forall c, tiny c = true <-> c = 0) -> (forall c, tiny_le c = true <-> c = 0) ->
    rowwise (dim (sp_ci sp)) f F -> (0 < length state)%nat -> (forall row, In row state -> length row = dim (sp_ci sp)) ->
    match propagate_state_SA tiny_le sp th fold unsafe F ops state with
    | Ok out => length out = length state /\
                forall r, (r < length state)%nat -> propagate_state tiny sp th fold unsafe f ops (nth r state []) = Ok (nth r out [])
    | Raise e => exists r, (r < length state)%nat /\ propagate_state tiny sp th fold unsafe f ops (nth r state []) = Raise e
    | Hang => exists r, (r < length state)%nat /\ propagate_state tiny sp th fold unsafe f ops (nth r state []) = Hang
    end.
  Proof. intros H1 H2. now apply propagate_rows. Qed.

  Lemma ksum_combine_seq k (bra : list (list K)) (out : list (list K)) : length bra = k -> length out = k ->
    ksum (map (fun ab => dot (fst ab) (snd ab)) (combine bra out)) =
    ksum (map (fun r => dot (nth r bra []) (nth r out [])) (seq 0 k)).
  Proof.
    revert k out. induction bra as [|a bra IH]; intros k [|b out] H1 H2; cbn [length] in *; subst; try discriminate; [reflexivity|].
    cbn [combine map ksum seq nth fst snd]. f_equal. rewrite (IH (length bra)) by (auto; congruence).
    rewrite <- seq_shift, map_map. reflexivity.
  Qed.

  (** C19: the state-averaged expectation value is the mean of the single-state
      ones (an empty bra is a ZeroDivisionError). *)
  Theorem C19_state_averaged_expectation (recip : nat -> K) sp th fold f F ops bra state v :
    (forall c, tiny c = true <-> c = 0) -> (forall c, tiny_le c = true <-> c = 0) ->
    rowwise (dim (sp_ci sp)) f F -> length bra = length state -> (forall row, In row state -> length row = dim (sp_ci sp)) ->
    expectation_value_SA tiny_le recip sp th fold F bra ops state = Ok v ->
    exists vals, length vals = length state /\
      (forall r, (r < length state)%nat ->
         expectation_value tiny sp th fold false f (nth r bra []) ops (nth r state []) = Ok (nth r vals 0)) /\
      v = ksum vals * recip (length state).
  Proof.
    intros H1 H2 Hf Hb Hrow. unfold expectation_value_SA, expectation_value.
    destruct state as [|row state].
    { destruct bra; [|discriminate]. destruct (propagate_state_SA tiny_le sp th fold false F ops []) as [out|e|]; cbn [bind]; discriminate. }
    pose proof (C19_state_averaged_rows sp th fold false f F ops (row :: state) H1 H2 Hf ltac:(cbn; lia) Hrow) as R.
    destruct (propagate_state_SA tiny_le sp th fold false F ops (row :: state)) as [out|e|]; [|discriminate|discriminate].
    destruct R as [R1 R2]. cbn [bind]. destruct bra as [|b bra]; [discriminate|]. intros E. injection E as <-.
    exists (map (fun r => dot (nth r (b :: bra) []) (nth r out [])) (seq 0 (length (row :: state)))).
    split; [now rewrite map_length, seq_length|]. split.
    - intros r Hr. rewrite R2 by exact Hr. cbn [bind]. f_equal.
      rewrite (nth_map_seq (fun r => dot (nth r (b :: bra) []) (nth r out []))) by exact Hr. reflexivity.
    - rewrite <- (ksum_combine_seq (length (row :: state)) (b :: bra) out Hb R1). rewrite <- Hb. reflexivity.
  Qed.
End Claims.

(** ** Concrete cases *)

Definition ztiny (c : Z) : bool := Z.eqb c 0.
Lemma ztiny_exact c : ztiny c = true <-> c = 0%Z.
Proof. apply Z.eqb_eq. Qed.

(** Two orbitals, one alpha and one beta electron; the operator
    [2 a+_2 a_0 + 3 a+_3 a+_2 a_1 a_0]. *)
Definition ex_space : space :=
  match get_indexing 2 1 1 with
  | Ok ci => {| sp_ni := 0; sp_na := 2; sp_nv := 0; sp_ci := ci |}
  | _ => {| sp_ni := 0; sp_na := 2; sp_nv := 0; sp_ci := {| idx2det := []; det2idx := [] |} |}
  end.
Definition ex_op : list (fstring * Z) :=
  [([(2, true); (0, false)], 2%Z); ([(3, true); (2, true); (1, false); (0, false)], 3%Z)].

Example C17_spin_sector_hypotheses :
  get_indexing (sp_na ex_space) 1 1 = Ok (sp_ci ex_space) /\ idx2det (sp_ci ex_space) = [12; 9; 6; 3]%N /\
  (forall s c, In (s, c) ex_op -> normal s /\ bal (sp_na ex_space) s).
Proof.
  split; [reflexivity|]. split; [reflexivity|]. intros s c [E|[E|[]]]; injection E as <- <-.
  - split.
    + exists [2], [0]. split; [reflexivity|]. split; repeat constructor.
    + split; [split; reflexivity|]. change (sp_na ex_space) with 2. intros o Ho. cbn in Ho. intuition subst; cbn; lia.
  - split.
    + exists [3; 2], [1; 0]. split; [reflexivity|]. split; repeat constructor.
    + split; [split; reflexivity|]. change (sp_na ex_space) with 2. intros o Ho. cbn in Ho. intuition subst; cbn; lia.
Qed.

Example C17_example :
  propagate_state ztiny ex_space None false false (fun _ st => Ok st) [SOp ex_op] [5; 7; 0; 0]%Z = Ok [0; 0; -10; -1]%Z /\
  propagate_state ztiny ex_space (Some [2; 0; 3; 1]) false false (fun _ st => Ok st) [SOp ex_op] [5; 7; 0; 0]%Z
    = Ok [0; 0; -10; -1]%Z /\
  build_operator_matrix 2 (sp_ci ex_space) false ex_op = Ok [[0;0;0;0]; [0;0;0;0]; [-2;0;0;0]; [-3;2;0;0]]%Z.
Proof. vm_compute. auto. Qed.

(** Folding: one inactive orbital; [a+_4 a+_0 a_0 a_2] acts as [- a+_2 a_0] on the
    active space. *)
Definition ex_fold_space : space := {| sp_ni := 1; sp_na := 2; sp_nv := 0; sp_ci := sp_ci ex_space |}.
Example C17_folded_example :
  propagate_state ztiny ex_fold_space None true false (fun _ st => Ok st)
    [SOp [([(4, true); (0, true); (2, false); (0, false)], 2%Z)]] [5; 7; 0; 0]%Z = Ok [0; 0; 10; -14]%Z.
Proof. vm_compute. auto. Qed.

(** C18: the two kernels do not raise in the same situations.  The excitation
    [a+_2 a_0] leaves the one-determinant space {|1100>}: the serial kernel
    raises KeyError, the threaded one returns the zero vector. *)
Definition one_det : ci_info := {| idx2det := [12%N]; det2idx := [(12%N, 0)] |}.
Definition one_space : space := {| sp_ni := 0; sp_na := 2; sp_nv := 0; sp_ci := one_det |}.
Theorem C18_error_conditions_agree_refuted :
  ~ (forall (D : list (fstring * Z)) st order, op_ok 2 D -> op_balanced D -> length st = 1 -> schedule one_det order ->
      propagate_state ztiny one_space None false false (fun _ st => Ok st) [SOp D] st =
      propagate_state ztiny one_space (Some order) false false (fun _ st => Ok st) [SOp D] st).
Proof.
  intros H. specialize (H [([(2, true); (0, false)], 1%Z)] [1%Z] [0]).
  assert (Raise KeyError = Ok [0%Z]); [|discriminate].
  apply H; auto.
  - intros s c [E|[]]. injection E as <- <-. split.
    + exists [2], [0]. split; [reflexivity|]. split; repeat constructor.
    + intros o Ho. cbn in *. intuition subst; cbn; lia.
  - intros s c [E|[]]. injection E as <- <-. reflexivity.
  - apply Permutation_refl.
Qed.

(** C18: a pair annihilator [a_2 a_0] shows the sign. *)
Definition two_sectors : space :=
  {| sp_ni := 0; sp_na := 2; sp_nv := 0;
     sp_ci := {| idx2det := [10; 0]%N; det2idx := [(10%N, 0); (0%N, 1)] |} |}.
Example C18_sign_example :
  propagate_state ztiny two_sectors None false true (fun _ st => Ok st) [SOp [([(2, false); (0, false)], 1%Z)]] [1; 0]%Z
    = Ok [0; -1]%Z /\
  propagate_state ztiny two_sectors (Some [1; 0]) false true (fun _ st => Ok st) [SOp [([(2, false); (0, false)], 1%Z)]] [1; 0]%Z
    = Ok [0; 1]%Z.
Proof. vm_compute. auto. Qed.

Example C19_example :
  expectation_value ztiny ex_space None false false (fun _ st => Ok st) [0; 0; 1; 1]%Z [SOp ex_op] [5; 7; 0; 0]%Z = Ok (-11)%Z /\
  propagate_state_SA ztiny ex_space None false false (fun _ st => Ok st) [SOp ex_op] [[5; 7; 0; 0]; [1; 0; 0; 1]]%Z
    = Ok [[0; 0; -10; -1]; [0; 0; -2; -3]]%Z.
Proof. vm_compute. auto. Qed.
Example C19_rowwise_identity k : rowwise (K:=Z) k (fun _ st => Ok st) (fun _ st => Ok st).
Proof. intros dg state Hp Hr. split; [cbn; auto|]. intros out E. injection E as <-. exact Hr. Qed.

Print Assumptions C17_propagate_state_serial.
Print Assumptions C17_propagate_state_threaded.
Print Assumptions C17_unsafe_drops_outside.
Print Assumptions C17_spin_sector.
Print Assumptions C17_folded_action.
Print Assumptions C18_serial_threaded_agree.
Print Assumptions C18_schedule_independent.
Print Assumptions C18_sign_of_unbalanced_labels.
Print Assumptions C18_error_conditions_agree_refuted.
Print Assumptions C19_matrix_elements.
Print Assumptions C19_matrix_keyerror.
Print Assumptions C19_matrix_times_state.
Print Assumptions C19_expectation_value.
Print Assumptions C19_state_averaged_rows.
Print Assumptions C19_state_averaged_expectation.
Print Assumptions C20_bitcount_terminates.
Print Assumptions C20_parity_check.
