(** From CI vectors to Fock space: expectation values computed by the library as
    expectation values in the full orbital space, and the resulting density
    matrices. *)
From Coq Require Import List Bool Arith NArith ZArith Lia Ring Permutation.
From Verif Require Import Base Fock FockMore FermiModel FermiProofs FermiFold OperatorsModel OperatorsProofs OperatorsSums OperatorsActs
  OperatorsActive OperatorsKeys Props_Operators CIModel CIProofs StateModel StateBits StateProofs StateMore Props_State
  FockInner DensityModel DensityProofs DensityExpect DensityFill.
Import ListNotations.

Section State.
  Context {K : Type} {C : CRing K}.
  Local Open Scope K_scope.
  Add Ring KringDS : (@rth K C).
  Notation dict := (list (fstring * K)).

  Variables (tiny : K -> bool) (sp : space) (th : threads) (unsafe : bool).
  Variable ansatz : bool -> list K -> Res (list K).
  Variables (nalpha nbeta : Z).
  Hypothesis Hex : forall c : K, tiny c = true -> c = 0.
  Hypothesis Hsm : exact_small K.
  Hypothesis Hpos : (0 < sp_na sp)%nat.
  Hypothesis Hidx : get_indexing (sp_na sp) nalpha nbeta = Ok (sp_ci sp).
  Hypothesis Hth : forall order, th = Some order -> schedule (sp_ci sp) order.
  Notation ni := (sp_ni sp).
  Notation na := (sp_na sp).
  Notation nv := (sp_nv sp).
  Notation ci := (sp_ci sp).
  Notation N := (ni + na + nv)%nat.

  (** The state of the full orbital space described by a CI vector: inactive
      orbitals doubly occupied, virtual orbitals empty. *)
  Definition fket (st : list K) : amps := fun x =>
    lsum (combine (idx2det ci) st) (fun dc => if N.eqb (embed ni (todet (2 * na) (fst dc))) x then snd dc else 0).

  Lemma fket_embed st x : fket st (embed ni x) = ket na ci st x.
  Proof.
    unfold fket, ket. induction (combine (idx2det ci) st) as [|[d c] l IH]; [reflexivity|].
    rewrite lsum_cons, IH. cbn [ketp fst snd]. f_equal.
    destruct (N.eqb_spec (embed ni (todet (2 * na) d)) (embed ni x)) as [E|E], (N.eqb_spec (todet (2 * na) d) x) as [E'|E']; auto.
    - apply embed_inj in E. contradiction.
    - subst. contradiction.
  Qed.

  Lemma asp_embed d : asp ni na (embed ni (todet (2 * na) d)).
  Proof.
    split; intros p Hp; rewrite occ_embed.
    - destruct (Nat.ltb_spec p (2 * ni)); [reflexivity|lia].
    - destruct (Nat.ltb_spec p (2 * ni)); [lia|]. unfold occ. apply (small_bit (2 * na)); [apply todet_small|lia].
  Qed.
  Lemma asp_is_embed y : asp ni na y -> exists x, y = embed ni x /\ within (2 * na) x.
  Proof.
    intros [H1 H2]. exists (N.shiftr y (N.of_nat (2 * ni))).
    assert (forall p, occ (N.shiftr y (N.of_nat (2 * ni))) p = occ y (p + 2 * ni)) as Hsh.
    { intros p. unfold occ. rewrite N.shiftr_spec by lia. f_equal. lia. }
    split.
    - apply det_ext. intros p. rewrite occ_embed. destruct (Nat.ltb_spec p (2 * ni)) as [L|L]; [now apply H1|].
      rewrite Hsh. f_equal. lia.
    - intros p Hp. rewrite Hsh. apply H2. lia.
  Qed.

  Lemma fket_supp st : supp ni na (fket st).
  Proof.
    intros y Hy. unfold fket. apply lsum_zero. intros [d c] _. cbn [fst snd].
    destruct (N.eqb_spec (embed ni (todet (2 * na) d)) y) as [E|]; [|reflexivity]. exfalso. apply Hy. rewrite <- E. apply asp_embed.
  Qed.

  Lemma opapp_lsum {I} (A : dict) (l : list I) (F : I -> amps) x :
    opapp A (fun e => lsum l (fun i => F i e)) x = lsum l (fun i => opapp A (F i) x).
  Proof.
    induction l as [|i l IH].
    - apply opapp_zero. reflexivity.
    - rewrite lsum_cons, <- IH, <- opapp_add. apply opapp_ext. intros d. exact (lsum_cons i l (fun j => F j d)).
  Qed.
  Lemma opapp_fket (A : dict) st x :
    opapp A (fket st) x = lsum (combine (idx2det ci) st) (fun dc => snd dc * mel A x (embed ni (todet (2 * na) (fst dc)))).
  Proof.
    unfold fket.
    rewrite (opapp_lsum A (combine (idx2det ci) st) (fun dc e => if N.eqb (embed ni (todet (2 * na) (fst dc))) e then snd dc else 0)).
    apply lsum_ext. intros [d c] _. cbn [fst snd]. unfold mel. rewrite <- opapp_scale. apply opapp_ext. intros e.
    unfold basis. destruct (N.eqb _ e); ring.
  Qed.
  Lemma lsum_ksum {I} (l : list I) (F : I -> K) : lsum l F = ksum (map F l).
  Proof. induction l as [|i l IH]; [reflexivity|]. rewrite lsum_cons, IH. reflexivity. Qed.

  (** The inner product of two CI vectors is that of the states. *)
  Lemma lsum_dot (ds : list BinNums.N) (a b : list K) (F : BinNums.N -> K) : length a = length ds -> length b = length ds ->
    (forall i d, nth_error ds i = Some d -> F d = nth i a 0 * nth i b 0) -> lsum ds F = dot a b.
  Proof.
    revert a b. induction ds as [|d ds IH]; intros [|x a] [|y b] Ha Hb H; try discriminate; [reflexivity|].
    rewrite lsum_cons. cbn [dot]. rewrite (H 0%nat d eq_refl). cbn [nth]. f_equal. apply IH; [cbn in *; lia|cbn in *; lia|].
    intros i e He. exact (H (S i) e He).
  Qed.

  Lemma wfci : wf_ci na ci.
  Proof. exact (get_indexing_wf _ _ _ _ Hpos Hidx). Qed.

  Lemma ip_fket_l st (w : amps) : ip (2 * N) (fket st) w
    = lsum (idx2det ci) (fun d => ket na ci st (todet (2 * na) d) * w (embed ni (todet (2 * na) d))).
  Proof.
    unfold ip. destruct wfci as (Hnd & Hb & _).
    transitivity (lsum (map (fun d => embed ni (todet (2 * na) d)) (idx2det ci)) (fun y => fket st y * w y)).
    - apply (lsum_support N.eq_dec).
      + apply alldets_NoDup.
      + clear -Hnd Hb. induction (idx2det ci) as [|d l IH]; cbn; constructor.
        * inversion Hnd; subst. intros H. apply in_map_iff in H. destruct H as (e & E & He). apply embed_inj, todet_inj in E.
          -- subst. contradiction.
          -- apply Hb. now right.
          -- apply Hb. now left.
        * inversion Hnd; subst. apply IH; auto. intros e He. apply Hb. now right.
      + intros y _ Hy. assert (fket st y = 0) as ->; [|ring].
        unfold fket. apply lsum_zero. intros [d c] Hd. cbn [fst snd].
        destruct (N.eqb_spec (embed ni (todet (2 * na) d)) y) as [E|]; [|reflexivity].
        exfalso. apply Hy. apply in_map_iff. exists d. split; [exact E|]. now apply in_combine_l in Hd.
      + intros y Hy Hn. exfalso. apply Hn. apply in_map_iff in Hy. destruct Hy as (d & <- & Hd). apply in_alldets.
        intros p Hp. apply (asp_embed d). lia.
    - rewrite lsum_map. apply lsum_ext. intros d _. now rewrite fket_embed.
  Qed.

  Lemma dot_ip a (w : amps) b : length a = dim ci -> length b = dim ci ->
    (forall i d, nth_error (idx2det ci) i = Some d -> nth i b 0 = w (embed ni (todet (2 * na) d))) ->
    dot a b = ip (2 * N) (fket a) w.
  Proof.
    intros Ha Hb Hw. rewrite ip_fket_l. symmetry. apply lsum_dot; auto. intros i d Hd.
    rewrite (ket_nth na ci a i d wfci Ha Hd), (Hw i d Hd). reflexivity.
  Qed.

  Lemma dot_fket a b : length a = dim ci -> length b = dim ci -> dot a b = ip (2 * N) (fket a) (fket b).
  Proof.
    intros Ha Hb. apply dot_ip; auto. intros i d Hd. rewrite fket_embed. symmetry. now apply (ket_nth na ci b i d wfci).
  Qed.

  (** *** one operator *)
  Lemma ops_keys (A : dict) : OPS (bal N) A -> forall s c, In (s, c) A -> normal s /\ bal N s.
  Proof.
    intros [_ HK] s c Hi. rewrite Forall_forall in HK.
    assert (In s (dkeys A)) as Hin by (unfold dkeys; apply in_map_iff; exists (s, c); auto).
    specialize (HK s Hin). unfold okey in HK. tauto.
  Qed.

  Lemma apply_nth (A : dict) st : OPS (bal N) A -> length st = dim ci ->
    exists out, propagate_state tiny sp th true unsafe ansatz [SOp A] st = Ok out /\ length out = dim ci /\
      forall i d, nth_error (idx2det ci) i = Some d -> nth i out 0 = opapp A (fket st) (embed ni (todet (2 * na) d)).
  Proof.
    intros HA Hl.
    destruct (C17_folded_action tiny sp ansatz nalpha nbeta A st th unsafe Hex Hpos Hidx (ops_keys A HA) Hl Hth) as (out & E & Lo & Hn).
    exists out. split; [exact E|]. split; [congruence|]. intros i d Hd. rewrite (Hn i d Hd), opapp_fket, lsum_ksum. reflexivity.
  Qed.

  Lemma expect_one r F a b : rep (bal N) r F -> length a = dim ci -> length b = dim ci ->
    exists D, r = Ok D /\ expectation_value tiny sp th true unsafe ansatz a [SOp D] b = Ok (ip (2 * N) (fket a) (F (fket b))).
  Proof.
    intros (D & E & HD & HF) Ha Hb. exists D. split; [exact E|]. unfold expectation_value.
    destruct (apply_nth D b HD Hb) as (out & Eo & Lo & Hn). rewrite Eo. cbn [bind]. f_equal.
    apply dot_ip; auto. intros i d Hd. rewrite (Hn i d Hd). apply HF.
  Qed.

  (** *** several operators *)
  Definition keeps (F : amps (K:=K) -> amps) : Prop := forall f, supp ni na f -> supp ni na (F f).

  Lemma apply_full (A : dict) st : OPS (bal N) A -> keeps (opapp A) -> length st = dim ci ->
    exists out, propagate_state tiny sp th true unsafe ansatz [SOp A] st = Ok out /\ length out = dim ci /\
      forall x, fket out x = opapp A (fket st) x.
  Proof.
    intros HA Hk Hl.
    destruct (folded_ket tiny sp ansatz nalpha nbeta A st th unsafe Hex Hpos Hidx (ops_keys A HA) Hl Hth) as (out & E & Lo & Hn).
    exists out. split; [exact E|]. split; [congruence|]. intros y.
    destruct (asp_dec ni na y) as [Hy|Hy].
    - destruct (asp_is_embed y Hy) as (x & -> & Hx). rewrite fket_embed, (Hn x Hx), opapp_fket, lsum_ksum. reflexivity.
    - rewrite fket_supp by exact Hy. symmetry. apply Hk; [apply fket_supp|exact Hy].
  Qed.

  Lemma propagate_cons (A : @sop K) ops st :
    propagate_state tiny sp th true unsafe ansatz (A :: ops) st
    = bind (propagate_state tiny sp th true unsafe ansatz ops st) (propagate_state tiny sp th true unsafe ansatz [A]).
  Proof.
    unfold propagate_state. cbn [rev app]. rewrite fold_left_app. cbn [fold_left].
    destruct (fold_left _ (rev ops) (Ok st)); reflexivity.
  Qed.

  Lemma opapp_rep (A : dict) (F : amps -> amps) : (forall f x, opapp A f x = F f x) -> keeps F -> keeps (opapp A).
  Proof. intros H1 H2 f Hf y Hy. rewrite H1. now apply H2. Qed.

  Lemma apply_list (rs : list (Res dict)) (Fs : list (amps -> amps)) st :
    Forall2 (fun r F => rep (bal N) r F /\ keeps F /\ (forall f g, (forall x, f x = g x) -> forall x, F f x = F g x)) rs Fs ->
    length st = dim ci ->
    exists Ds out, fold_right (fun r acc => bind r (fun D => bind acc (fun l => Ok (SOp D :: l)))) (Ok []) rs = Ok Ds /\
      propagate_state tiny sp th true unsafe ansatz Ds st = Ok out /\ length out = dim ci /\
      forall x, fket out x = fold_right (fun F f => F f) (fket st) Fs x.
  Proof.
    intros H Hl. induction H as [|r F rs Fs ((D & -> & HD & HF) & Hk & He) _ (Ds & out & E1 & E2 & E3 & E4)].
    - exists [], st. split; [reflexivity|]. split; [reflexivity|]. split; [exact Hl|]. reflexivity.
    - destruct (apply_full D out HD (opapp_rep D F HF Hk) E3) as (out' & E5 & E6 & E7).
      exists (SOp D :: Ds), out'. cbn [fold_right bind]. rewrite E1. split; [reflexivity|].
      rewrite propagate_cons, E2. cbn [bind]. split; [exact E5|]. split; [exact E6|].
      intros x. rewrite E7, HF. apply He. exact E4.
  Qed.

  (** *** excitation operators of the active space *)
  Lemma supp_app1 p b (f : amps) : (2 * ni <= p < 2 * (ni + na))%nat -> supp ni na f -> supp ni na (app1 (p, b) f).
  Proof.
    intros Hp Hf y Hy. unfold app1. cbn [fst snd]. destruct (Bool.eqb (occ y p) b); [|reflexivity].
    rewrite Hf; [apply sgn_0|]. intros [H1 H2]. apply Hy. split; intros q Hq.
    - rewrite <- (H1 q Hq). symmetry. apply occ_flip_other. lia.
    - rewrite <- (H2 q Hq). symmetry. apply occ_flip_other. lia.
  Qed.
  Lemma keeps_E p q : (ni <= p < ni + na)%nat -> (ni <= q < ni + na)%nat -> keeps (Eact p q).
  Proof.
    intros Hp Hq f Hf y Hy. unfold Eact, pairop.
    rewrite (supp_app1 (2 * p)), (supp_app1 (2 * p + 1)); [ring|lia| |exact Hy|lia| |exact Hy]; apply supp_app1; auto; lia.
  Qed.

  Notation act p := (ni <= p < ni + na)%nat.
  Lemma E_item p q : act p -> act q -> rep (bal N) (Epq p q) (Eact p q) /\ keeps (Eact p q) /\
    (forall f g : amps, (forall x, f x = g x) -> forall x, Eact p q f x = Eact p q g x).
  Proof.
    intros Hp Hq. split; [|split].
    - apply Epq_rep; auto using bal_stable. apply PE_bal; lia.
    - now apply keeps_E.
    - intros f g. apply Eact_ext.
  Qed.
  Lemma EE_item p q r s : act p -> act q -> act r -> act s ->
    rep (bal N) (mmul (Epq p q) (Epq r s)) (fun f => Eact p q (Eact r s f)) /\ keeps (fun f => Eact p q (Eact r s f)) /\
    (forall f g : amps, (forall x, f x = g x) -> forall x, Eact p q (Eact r s f) x = Eact p q (Eact r s g) x).
  Proof.
    intros Hp Hq Hr Hs. split; [|split].
    - apply rep_mul; auto using bal_stable; now apply E_item.
    - intros f Hf. apply keeps_E; auto. now apply keeps_E.
    - intros f g H. apply Eact_ext. now apply Eact_ext.
  Qed.

  Lemma ev_ops_list (rs : list (Res dict)) (Fs : list (amps -> amps)) st : unsafe = false ->
    Forall2 (fun r F => rep (bal N) r F /\ keeps F /\ (forall f g, (forall x, f x = g x) -> forall x, F f x = F g x)) rs Fs ->
    length st = dim ci ->
    ev_ops tiny sp th ansatz st rs = Ok (ip (2 * N) (fket st) (fold_right (fun F f => F f) (fket st) Fs)).
  Proof.
    intros Hu H Hl. unfold ev_ops. rewrite <- Hu.
    destruct (apply_list rs Fs st H Hl) as (Ds & out & E1 & E2 & E3 & E4). rewrite E1. cbn [bind].
    unfold expectation_value. rewrite E2. cbn [bind]. f_equal. rewrite (dot_fket st out Hl E3).
    apply ip_ext; [reflexivity|exact E4].
  Qed.

  Variable st : list K.
  Hypothesis Hlen : length st = dim ci.
  Hypothesis Hsafe : unsafe = false.
  Notation psi := (fket st).
  Let HN : (ni + na <= N)%nat. Proof. lia. Qed.

  Lemma wf_rdm1_ok : exists A, wf_rdm1 tiny sp th ansatz st = Ok A /\ R1ok N ni na psi A.
  Proof.
    apply rdm1_fill; [exact HN|]. intros p q Hp Hq.
    rewrite (ev_ops_list [Epq p q] [Eact p q]); auto. repeat constructor; now apply E_item.
  Qed.
  Lemma wf_rdm2_ok : exists A, wf_rdm2 tiny sp th ansatz st = Ok A /\ R2ok N ni na psi A.
  Proof.
    unfold wf_rdm2. destruct wf_rdm1_ok as (r1 & E1 & H1). rewrite E1. cbn [bind].
    apply rdm2_fill; [exact HN| |exact H1]. intros p q r s Hp Hq Hr Hs.
    rewrite (ev_ops_list [mmul (Epq p q) (Epq r s)] [fun f => Eact p q (Eact r s f)]); auto. constructor; [|constructor].
    now apply EE_item.
  Qed.
  Lemma wf_rdm3_ok : exists A, wf_rdm3 tiny sp th ansatz st = Ok A /\ R3ok N ni na psi A.
  Proof.
    unfold wf_rdm3. destruct wf_rdm1_ok as (r1 & E1 & H1). destruct wf_rdm2_ok as (r2 & E2 & H2). rewrite E1, E2. cbn [bind].
    apply rdm3_fill; [exact HN| |exact H1|exact H2]. intros p q r s t u Hp Hq Hr Hs Ht Hu.
    rewrite (ev_ops_list [Epq p q; Epq r s; Epq t u] [Eact p q; Eact r s; Eact t u]); auto. repeat constructor; now apply E_item.
  Qed.
  Lemma wf_rdm4_ok : exists A, wf_rdm4 tiny sp th ansatz st = Ok A /\ R4ok N ni na psi A.
  Proof.
    unfold wf_rdm4. destruct wf_rdm1_ok as (r1 & E1 & H1). destruct wf_rdm2_ok as (r2 & E2 & H2).
    destruct wf_rdm3_ok as (r3 & E3 & H3). rewrite E1, E2, E3. cbn [bind].
    apply rdm4_fill; [exact HN| |exact H1|exact H2|exact H3]. intros p q r s t u m n Hp Hq Hr Hs Ht Hu Hm Hn.
    rewrite (ev_ops_list [Epq p q; Epq r s; Epq t u; Epq m n] [Eact p q; Eact r s; Eact t u; Eact m n]); auto.
    repeat constructor; now apply E_item.
  Qed.

  Lemma norm_fket : ip (2 * N) psi psi = dot st st.
  Proof. symmetry. now apply dot_fket. Qed.

  (** The energy from the density matrices and the expectation value of the
      active-space Hamiltonian are the same number. *)
  Lemma rdm_energy_ok half h g : dot st st = 1 ->
    wf_rdm_energy half tiny h g sp th ansatz st = Ok (ip (2 * N) psi (Hact half h g N psi)).
  Proof.
    intros Hn. unfold wf_rdm_energy. destruct wf_rdm1_ok as (r1 & E1 & H1). destruct wf_rdm2_ok as (r2 & E2 & H2). rewrite E1, E2. cbn [bind].
    f_equal. apply energy_ok; auto.
    - apply fket_supp.
    - now rewrite norm_fket.
    - intros i j k l Hi Hj Hk Hl. rewrite H2 by auto. symmetry. apply G2_ek.
  Qed.

  Lemma hamiltonian_expectation half h g :
    exists D, hamiltonian_0i_0a half h g ni na = Ok D /\
      expectation_value tiny sp th true unsafe ansatz st [SOp D] st = Ok (ip (2 * N) psi (Hact half h g N psi)).
  Proof.
    destruct (expect_one (hamiltonian_0i_0a half h g ni na) _ st st
      (hamiltonian_0i_0a_rep Hsm (bal N) (bal_stable N) half h g ni na
         (fun p q Hp Hq => PE_bal N p q (ltac:(apply in_seq in Hp; lia)) (ltac:(apply in_seq in Hq; lia)))) Hlen Hlen) as (D & E1 & E2).
    exists D. split; [exact E1|]. rewrite E2. f_equal. unfold ip. apply lsum_ext. intros x _.
    destruct (asp_dec ni na x) as [Hx|Hx]; [|rewrite fket_supp by exact Hx; ring].
    f_equal. rewrite (active_equal half h g ni na nv psi x Hx (fket_supp st)). apply Hact_lsum.
  Qed.
End State.
