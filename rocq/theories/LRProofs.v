(** Linear response: the values computed by the constructor of the naive
    response class as expectation values of (double) commutators. *)
From Coq Require Import List Bool Arith NArith ZArith Lia Ring Permutation.
From Verif Require Import Base Fock FockMore FermiModel FermiProofs FermiFold FermiAlgebra OperatorsModel OperatorsProofs OperatorsSums OperatorsActs
  OperatorsActive OperatorsGen OperatorsKeys OperatorsOne Props_Operators CIModel CIProofs StateModel StateBits StateProofs StateMore Props_State
  FockInner DensityModel DensityProofs DensityExpect DensityResponse DensityFill DensityState StructModel LRModel LRAlgebra.
Import ListNotations.
Local Open Scope nat_scope.
Local Open Scope list_scope.

(** Rewriting of the next step of a computation, up to conversion. *)
Ltac rw E := lazymatch type of E with ?a = ?b =>
  match goal with |- context [bind ?x ?k] => change (bind x k) with (bind a k) end; rewrite E; cbn [bind] end.

(** ** Loops that only write entries *)
Section Writes.
  Context {K : Type} {C : CRing K}.
  Local Open Scope K_scope.
  Notation arr := (@arr K).
  Definition applyw (W : list (list nat * K)) (M : arr) : arr := fold_left (fun M cv => upd (fst cv) (snd cv) M) W M.
  Lemma applyw_app W1 W2 M : applyw (W1 ++ W2) M = applyw W2 (applyw W1 M).
  Proof. unfold applyw. apply fold_left_app. Qed.
  Lemma eloop_writes {A} start (l : list A) (body : nat -> A -> arr -> Res arr) (W : nat -> A -> list (list nat * K)) M :
    (forall i x M, In (i, x) (combine (seq start (List.length l)) l) -> body i x M = Ok (applyw (W i x) M)) ->
    eloop start l body M = Ok (applyw (flat_map (fun ix => W (fst ix) (snd ix)) (combine (seq start (List.length l)) l)) M).
  Proof.
    unfold eloop. intros H. assert (forall ix M, In ix (combine (seq start (List.length l)) l) -> body (fst ix) (snd ix) M = Ok (applyw (W (fst ix) (snd ix)) M)) as H'.
    { intros [i x] M' Hi. now apply H. }
    clear H. revert M. induction (combine (seq start (List.length l)) l) as [|ix r IH]; intros M; [reflexivity|].
    cbn [fold_left flat_map bind]. rewrite H' by now left. rewrite applyw_app. apply IH. intros ix' M' Hi. apply H'. now right.
  Qed.
  Lemma applyw_spec W M (F : list nat -> K) c : (forall c' v, In (c', v) W -> v = F c') ->
    applyw W M c = if in_dec (list_eq_dec Nat.eq_dec) c (map fst W) then F c else M c.
  Proof.
    revert M. induction W as [|[c' v] W IH]; intros M H; [reflexivity|].
    cbn [applyw fold_left fst snd]. fold (applyw W (upd c' v M)). rewrite IH by (intros c'' v' Hi; apply (H c'' v'); now right).
    destruct (in_dec (list_eq_dec Nat.eq_dec) c (map fst W)) as [Hi|Hi], (in_dec (list_eq_dec Nat.eq_dec) c (map fst ((c', v) :: W))) as [Hj|Hj]; auto.
    - exfalso. apply Hj. now right.
    - unfold upd. destruct (list_eq_dec Nat.eq_dec c c') as [->|Hne]; [apply (H c' v); now left|]. exfalso. destruct Hj as [E|E]; [now apply Hne|contradiction].
    - unfold upd. destruct (list_eq_dec Nat.eq_dec c c') as [->|Hne]; [|reflexivity]. exfalso. apply Hj. now left.
  Qed.
  Lemma applyw_in W M (F : list nat -> K) c : (forall c' v, In (c', v) W -> v = F c') -> In c (map fst W) -> applyw W M c = F c.
  Proof. intros H Hi. rewrite (applyw_spec W M F c H). destruct (in_dec _ c (map fst W)); [reflexivity|contradiction]. Qed.
  Lemma applyw_out W M c : ~ In c (map fst W) -> applyw W M c = M c.
  Proof.
    revert M. induction W as [|[c' v] W IH]; intros M H; [reflexivity|]. cbn [applyw fold_left fst snd]. fold (applyw W (upd c' v M)).
    rewrite IH by (intros Hi; apply H; now right). unfold upd. destruct (list_eq_dec Nat.eq_dec c c') as [->|]; [|reflexivity]. exfalso. apply H. now left.
  Qed.
  Lemma set_sym_w c i j v M : set_sym c i j v M = applyw [([c; i; j], v); ([c; j; i], v)] M.
  Proof. reflexivity. Qed.
  Lemma rlist_ok {A B} (f : A -> Res B) (g : A -> B) l : (forall x, In x l -> f x = Ok (g x)) -> rlist f l = Ok (map g l).
  Proof.
    induction l as [|x l IH]; intros H; [reflexivity|]. cbn [rlist fold_right map]. fold (rlist f l). rewrite (H x (or_introl eq_refl)), IH; [reflexivity|].
    intros y Hy. apply H. now right.
  Qed.
  Lemma rlist_ex {A B} (f : A -> Res B) (R : A -> B -> Prop) l : (forall x, In x l -> exists y, f x = Ok y /\ R x y) ->
    exists ys, rlist f l = Ok ys /\ Forall2 R l ys.
  Proof.
    induction l as [|x l IH]; intros H; [exists []; split; [reflexivity|constructor]|].
    destruct (H x (or_introl eq_refl)) as (y & E & Hy). destruct IH as (ys & E' & Hys); [intros z Hz; apply H; now right|].
    exists (y :: ys). cbn [rlist fold_right]. fold (rlist f l). rewrite E, E'. split; [reflexivity|constructor; auto].
  Qed.
End Writes.

Section Values.
  Context {K : Type} {C : CRing K}.
  Local Open Scope K_scope.
  Add Ring KringLP : (@rth K C).
  Notation dict := (list (fstring * K)).

  Variables (tiny : K -> bool) (sp : @space) (th : threads) (ansatz : bool -> list K -> Res (list K)) (nalpha nbeta : Z) (st : list K).
  Hypothesis Hex : forall c : K, tiny c = true -> c = 0.
  Hypothesis Hsm : exact_small K.
  Hypothesis Hpos : (0 < sp_na sp)%nat.
  Hypothesis Hidx : get_indexing (sp_na sp) nalpha nbeta = Ok (sp_ci sp).
  Hypothesis Hth : forall order, th = Some order -> schedule (sp_ci sp) order.
  Hypothesis Hlen : List.length st = dim (sp_ci sp).
  Notation ni := (sp_ni sp).
  Notation na := (sp_na sp).
  Notation N := (sp_ni sp + sp_na sp + sp_nv sp)%nat.
  Notation I u w := (ip (2 * N) u w).
  Notation "[[ v ]]" := (fket sp v).
  Notation prop := (prop tiny sp th ansatz).
  Notation expv := (expv tiny sp th ansatz).
  Notation vlen v := (List.length v = dim (sp_ci sp)).
  Notation aP := (actP ni na N).

  Lemma papply (D : dict) v : OPS (bal N) D -> vlen v ->
    exists out, prop [D] v = Ok out /\ vlen out /\ forall x, asp ni na x -> [[out]] x = opapp D [[v]] x.
  Proof.
    intros HA Hl.
    destruct (folded_ket tiny sp ansatz nalpha nbeta D v th false Hex Hpos Hidx (DensityState.ops_keys sp false ansatz D HA) Hl Hth) as (out & E & Lo & Hn).
    exists out. split; [exact E|]. split; [congruence|]. intros y Hy.
    destruct (asp_is_embed sp Hpos y Hy) as (x & -> & Hx). rewrite (fket_embed sp), (Hn x Hx), (opapp_fket sp), lsum_ksum. reflexivity.
  Qed.
  Lemma gapply (D : dict) v : OPS aP D -> vlen v -> exists out, prop [D] v = Ok out /\ vlen out /\ forall x, [[out]] x = opapp D [[v]] x.
  Proof.
    intros HD Hv. destruct (papply D v (OPS_weaken _ _ _ (fun s H => proj1 H) HD) Hv) as (out & E & L & H). exists out. split; [exact E|]. split; [exact L|].
    intros x. destruct (asp_dec ni na x) as [Hx|Hx]; [now apply H|]. rewrite (fket_supp sp Hpos out x Hx). symmetry.
    apply (keeps_opapp ni na N (asp ni na) D [[v]] (invar_asp ni na) HD); [exact (fket_supp sp Hpos v)|exact Hx].
  Qed.
  Lemma expv_nil a b : vlen a -> vlen b -> expv a [] b = Ok (I [[a]] [[b]]).
  Proof. intros Ha Hb. unfold LRModel.expv, expectation_value. cbn [map propagate_state rev fold_left bind]. f_equal. now apply (dot_fket sp nalpha nbeta). Qed.
  Lemma expv_one (D : dict) a b : OPS (bal N) D -> vlen a -> vlen b -> expv a [D] b = Ok (I [[a]] (opapp D [[b]])).
  Proof.
    intros HD Ha Hb. unfold LRModel.expv, expectation_value. destruct (papply D b HD Hb) as (out & E & L & H). unfold LRModel.prop in E. rewrite E. cbn [bind].
    f_equal. rewrite (dot_fket sp nalpha nbeta Hpos Hidx a out Ha L). apply (ip_supp _ (asp ni na) (asp_dec ni na)); [exact (fket_supp sp Hpos a)|exact H].
  Qed.
  Lemma prop2 (A B : dict) v : prop [A; B] v = bind (prop [B] v) (prop [A]).
  Proof. apply propagate_cons. Qed.

  Definition sup (u : amps (K:=K)) : Prop := supp ni na u.
  Lemma ip_asp (u w w' : amps) : sup u -> (forall x, asp ni na x -> w x = w' x) -> I u w = I u w'.
  Proof. apply (ip_supp _ (asp ni na) (asp_dec ni na)). Qed.
  Lemma ip_asp_l (u u' w : amps) : sup w -> (forall x, asp ni na x -> u x = u' x) -> I u w = I u' w.
  Proof. intros H1 H2. rewrite ip_sym, (ip_sym _ u'). now apply ip_asp. Qed.
  Lemma ipx (u u' w w' : amps) : (forall x, u x = u' x) -> (forall x, w x = w' x) -> I u w = I u' w'.
  Proof. apply ip_ext. Qed.
  Lemma sup_op D (u : amps) : OPS aP D -> sup u -> sup (opapp D u).
  Proof. intros HD Hu. exact (keeps_opapp ni na N (asp ni na) D u (invar_asp ni na) HD Hu). Qed.
  Lemma sup1_op D (u : amps) : OPS aP D -> supp1 ni na u -> supp1 ni na (opapp D u).
  Proof. intros HD Hu. exact (keeps_opapp ni na N (asp1 ni na) D u (invar_asp1 ni na) HD Hu). Qed.
  Lemma sup_ket v : sup [[v]].
  Proof. exact (fket_supp sp Hpos v). Qed.
  Lemma dag_ex (D : dict) : OPS aP D -> exists Dd, op_dagger D = Ok Dd /\ OPS aP Dd /\ adjp N (opapp D) (opapp Dd).
  Proof. intros HD. apply (dagger_adjp N aP (actP_stable ni na N) Hsm D HD). intros s [(_ & H) _] o Ho. now apply H. Qed.

  (** The Hamiltonian: [H] in the full space; [H0] acts as [H] inside the active space. *)
  Variables (L : @literals K) (h : nat -> nat -> K) (g : nat -> nat -> nat -> nat -> K).
  Notation half := (l_half L).
  Hypothesis Hh : forall p q, (p < N)%nat -> (q < N)%nat -> h p q = h q p.
  Hypothesis Hg : forall p q r s, (p < N)%nat -> (q < N)%nat -> (r < N)%nat -> (s < N)%nat -> g p q r s = g q p s r.
  Notation H := (Hact half h g N).
  Let AH : adjp N H H := adjp_H half h g N Hh Hg.
  Lemma Hx (f f' : amps) : (forall x, f x = f' x) -> forall x, H f x = H f' x.
  Proof. intros E. now apply Hact_ext. Qed.
  Definition H0ok (H0 : dict) : Prop := OPS (bal N) H0 /\ forall f x, asp ni na x -> sup f -> opapp H0 f x = H f x.
  Definition H1ok (H1 : dict) : Prop := OPS (bal N) H1 /\
    (forall f x, asp ni na x -> supp1 ni na f -> opapp H1 f x = H f x) /\ (forall f x, asp1 ni na x -> sup f -> opapp H1 f x = H f x).
  Lemma H0_ex : exists D, hamiltonian_0i_0a half h g ni na = Ok D /\ H0ok D.
  Proof.
    destruct (hamiltonian_0i_0a_rep Hsm (bal N) (bal_stable N) half h g ni na
         (fun p q Hp Hq => PE_bal N p q (ltac:(apply in_seq in Hp; lia)) (ltac:(apply in_seq in Hq; lia)))) as (D & E & HD & HF).
    exists D. split; [exact E|]. split; [exact HD|]. intros f x Hx' Hf. rewrite HF, (active_equal half h g ni na (sp_nv sp) f x Hx' Hf). apply Hact_lsum.
  Qed.
  Lemma H1_ex : exists D, hamiltonian_1i_1a half h g ni na (sp_nv sp) = Ok D /\ H1ok D.
  Proof.
    destruct (hamiltonian_1i_1a_rep Hsm (bal N) (bal_stable N) half h g ni na (sp_nv sp) (PEon_bal N)) as (F & (D & E & HD & HF) & A & B).
    exists D. split; [exact E|]. split; [exact HD|]. split; intros f x Hx' Hf; rewrite HF; auto.
  Qed.
  Lemma H0apply H0 v : H0ok H0 -> vlen v -> exists out, prop [H0] v = Ok out /\ vlen out /\ forall x, asp ni na x -> [[out]] x = H [[v]] x.
  Proof.
    intros [HD HF] Hv. destruct (papply H0 v HD Hv) as (out & E & Lo & Ho). exists out. split; [exact E|]. split; [exact Lo|].
    intros x Hx'. rewrite Ho by exact Hx'. apply HF; [exact Hx'|apply sup_ket].
  Qed.

  Notation f := [[st]].
  Definition ev (F : amps (K:=K) -> amps) : K := I f (F f).

  (** Gradient of one operator. *)
  Lemma grad_pair_ok H00 (D Dd : dict) : vlen H00 -> (forall x, asp ni na x -> [[H00]] x = H f x) ->
    OPS aP D -> op_dagger D = Ok Dd -> OPS aP Dd -> adjp N (opapp D) (opapp Dd) ->
    grad_pair tiny sp th ansatz st H00 D = Ok (ev (comm H (opapp D)), ev (comm (opapp Dd) H)).
  Proof.
    intros L0 E0 HD ED HDd AD. pose proof (adjp_flip _ _ _ AD) as AD'.
    unfold grad_pair. destruct (gapply D st HD Hlen) as (gk & E1 & L1 & F1). rw E1. rw ED.
    destruct (gapply Dd st HDd Hlen) as (gdk & E2 & L2 & F2). rw E2. rewrite !expv_nil by assumption. cbn [bind].
    unfold ev. rewrite !ev_comm.
    assert (forall u, sup u -> I [[H00]] u = I (H f) u) as Z by (intros u Hu; apply ip_asp_l; auto).
    f_equal. f_equal.
    - rewrite Z, (ip_sym _ [[gdk]]), Z by apply sup_ket. f_equal.
      + rewrite AH. now apply ipx.
      + rewrite AD. rewrite (ip_sym _ _ (H f)). now apply ipx.
    - rewrite (ip_sym _ [[gk]]), !Z by apply sup_ket. f_equal.
      + rewrite AD'. rewrite ip_sym. now apply ipx.
      + rewrite AH. now apply ipx.
  Qed.

  Hypothesis Hhalf : half + half = 1.
  Notation T X Y Z := (I f (X (Y (Z f)))).
  (** The symmetrised double commutator of the response equations. *)
  Definition dsym (X Y : amps (K:=K) -> amps) : K := half * (ev (comm X (comm H Y)) + ev (comm (comm X H) Y)).
  Lemma half_mul (a : K) : half * (a + a) = a.
  Proof. transitivity ((half + half) * a); [ring|]. rewrite Hhalf. ring. Qed.
  Lemma dsym_exp X Y : linear X -> linear Y ->
    dsym X Y = T X H Y + T Y H X - half * T X Y H - half * T H Y X - half * T Y X H - half * T H X Y.
  Proof.
    intros LX LY. unfold dsym, ev. rewrite (ev_comm_l _ f X H Y LX), (ev_comm_r _ f X H Y LY).
    transitivity (half * (T X H Y + T X H Y) + half * (T Y H X + T Y H X) - half * T X Y H - half * T H Y X - half * T Y X H - half * T H X Y); [ring|].
    now rewrite !half_mul.
  Qed.

  Section ActivePair.
    Variables (D Dd E Ed : dict) (H00 GJH GJdH HGJd HGJ GJk GJdk : list K).
    Hypothesis HD : OPS aP D.
    Hypothesis HDd : OPS aP Dd.
    Hypothesis HE : OPS aP E.
    Hypothesis HEd : OPS aP Ed.
    Hypothesis AD : adjp N (opapp D) (opapp Dd).
    Hypothesis AE : adjp N (opapp E) (opapp Ed).
    Hypothesis EE : op_dagger E = Ok Ed.
    Hypothesis LH : vlen H00.
    Hypothesis LGH : vlen GJH.
    Hypothesis LGdH : vlen GJdH.
    Hypothesis LHGd : vlen HGJd.
    Hypothesis LHG : vlen HGJ.
    Hypothesis LG : vlen GJk.
    Hypothesis LGd : vlen GJdk.
    Hypothesis FH : forall x, asp ni na x -> [[H00]] x = H f x.
    Hypothesis FGH : forall x, [[GJH]] x = opapp D [[H00]] x.
    Hypothesis FGdH : forall x, [[GJdH]] x = opapp Dd [[H00]] x.
    Hypothesis FHGd : forall x, asp ni na x -> [[HGJd]] x = H (opapp Dd f) x.
    Hypothesis FHG : forall x, asp ni na x -> [[HGJ]] x = H (opapp D f) x.
    Hypothesis FG : forall x, [[GJk]] x = opapp D f x.
    Hypothesis FGd : forall x, [[GJdk]] x = opapp Dd f x.

    Let AD' := adjp_flip _ _ _ AD.
    Let AE' := adjp_flip _ _ _ AE.
    Lemma active_values_ok : active_values L tiny sp th ansatz st H00 GJH GJdH HGJd HGJ GJk GJdk E
      = Ok (dsym (opapp Ed) (opapp D), ev (comm (opapp Ed) (comm H (opapp Dd))), ev (comm (opapp Ed) (opapp D))).
    Proof.
      unfold active_values. destruct (gapply E st HE Hlen) as (ek & E1 & L1 & F1). rw E1. rw EE.
      destruct (gapply Ed st HEd Hlen) as (edk & E2 & L2 & F2). rw E2.
      pose proof (OPS_weaken _ (bal N) _ (fun s H => proj1 H) HEd) as HEb.
      rewrite !expv_nil by assumption. rewrite !expv_one by assumption. cbn [bind].
      assert (SE : sup (opapp E f)) by (apply sup_op; [exact HE|apply sup_ket]).
      assert (SEd : sup (opapp Ed f)) by (apply sup_op; [exact HEd|apply sup_ket]).
      assert (Z : forall u, sup u -> I [[H00]] u = I (H f) u) by (intros u Hu; apply ip_asp_l; auto).
      assert (a1 : I [[ek]] [[HGJ]] = T (opapp Ed) H (opapp D)).
      { rewrite (ipx _ (opapp E f) _ [[HGJ]]) by (auto; reflexivity). rewrite (ip_asp _ _ (H (opapp D f))) by auto. now rewrite AE'. }
      assert (a2 : I [[HGJd]] [[edk]] = T (opapp D) H (opapp Ed)).
      { rewrite (ipx [[HGJd]] [[HGJd]] _ (opapp Ed f)) by auto. rewrite (ip_asp_l _ (H (opapp Dd f))) by auto. rewrite AD, AH. reflexivity. }
      assert (a3 : I [[ek]] [[GJH]] = T (opapp Ed) (opapp D) H).
      { rewrite (ipx _ (opapp E f) _ (opapp D [[H00]])) by auto. rewrite AD, ip_sym, Z, ip_sym by (apply sup_op; auto). rewrite AE', AD. reflexivity. }
      assert (a4 : I [[GJdH]] [[edk]] = T H (opapp D) (opapp Ed)).
      { rewrite (ipx _ (opapp Dd [[H00]]) _ (opapp Ed f)) by auto. rewrite <- AD, Z by (apply sup_op; auto). now rewrite AH. }
      assert (a5 : I [[GJdk]] (opapp Ed [[H00]]) = T (opapp D) (opapp Ed) H).
      { rewrite (ipx _ (opapp Dd f) _ (opapp Ed [[H00]])) by auto. rewrite AE', ip_sym, Z, ip_sym by (repeat apply sup_op; auto; apply sup_ket). now rewrite AD, AE'. }
      assert (a6 : I [[H00]] (opapp Ed [[GJk]]) = T H (opapp Ed) (opapp D)).
      { rewrite (ipx _ [[H00]] _ (opapp Ed (opapp D f))) by (auto; intros; apply opapp_ext; auto). rewrite Z by (repeat apply sup_op; auto; apply sup_ket). now rewrite AH. }
      assert (b1 : I [[ek]] [[HGJd]] = T (opapp Ed) H (opapp Dd)).
      { rewrite (ipx _ (opapp E f) _ [[HGJd]]) by (auto; reflexivity). rewrite (ip_asp _ _ (H (opapp Dd f))) by auto. now rewrite AE'. }
      assert (b2 : I [[ek]] [[GJdH]] = T (opapp Ed) (opapp Dd) H).
      { rewrite (ipx _ (opapp E f) _ (opapp Dd [[H00]])) by auto. rewrite AD', ip_sym, Z, ip_sym by (apply sup_op; auto). rewrite AE', AD'. reflexivity. }
      assert (b3 : I [[GJH]] [[edk]] = T H (opapp Dd) (opapp Ed)).
      { rewrite (ipx _ (opapp D [[H00]]) _ (opapp Ed f)) by auto. rewrite <- AD', Z by (apply sup_op; auto). now rewrite AH. }
      assert (b4 : I [[HGJ]] [[edk]] = T (opapp Dd) H (opapp Ed)).
      { rewrite (ipx [[HGJ]] [[HGJ]] _ (opapp Ed f)) by auto. rewrite (ip_asp_l _ (H (opapp D f))) by auto. rewrite AD', AH. reflexivity. }
      assert (s1 : I [[ek]] [[GJk]] = I f (opapp Ed (opapp D f))) by (rewrite (ipx _ (opapp E f) _ (opapp D f)) by auto; now rewrite AE').
      assert (s2 : I [[GJdk]] [[edk]] = I f (opapp D (opapp Ed f))) by (rewrite (ipx _ (opapp Dd f) _ (opapp Ed f)) by auto; now rewrite AD).
      rewrite a1, a2, a3, a4, a5, a6, b1, b2, b3, b4, s1, s2.
      rewrite (dsym_exp _ _ (linear_opapp Ed) (linear_opapp D)).
      unfold ev. rewrite (ev_comm_l _ f (opapp Ed) H (opapp Dd) (linear_opapp Ed)), ev_comm. reflexivity.
    Qed.
  End ActivePair.

  (** Mixed entries.  [Q] acts as an excitation out of the active-space states,
      [Qd] annihilates them. *)
  Section MixedPair.
    Variables (H1 Q Qd E Ed : dict) (Hq_ket qdH_ket : list K).
    Hypothesis HH : H1ok H1.
    Hypothesis HQ : OPS (bal N) Q.
    Hypothesis HQd : OPS (bal N) Qd.
    Hypothesis HE : OPS aP E.
    Hypothesis HEd : OPS aP Ed.
    Hypothesis AQ : adjp N (opapp Q) (opapp Qd).
    Hypothesis AE : adjp N (opapp E) (opapp Ed).
    Hypothesis EE : op_dagger E = Ok Ed.
    Hypothesis EQ : op_dagger Q = Ok Qd.
    Hypothesis Q1 : forall u, sup u -> supp1 ni na (opapp Q u).
    Hypothesis Q0 : forall u, sup u -> forall x, opapp Qd u x = 0.
    Hypothesis LHq : vlen Hq_ket.
    Hypothesis LqH : vlen qdH_ket.
    Hypothesis FHq : forall x, asp ni na x -> [[Hq_ket]] x = H (opapp Q f) x.
    Hypothesis FqH : forall u, sup u -> I u [[qdH_ket]] = I u (opapp Qd (H f)).

    Let AQ' := adjp_flip _ _ _ AQ.
    Let AE' := adjp_flip _ _ _ AE.
    Lemma kill_l u w : sup u -> I u (opapp Q w) = 0.
    Proof. intros Hu. rewrite AQ, ip_sym. apply ip_zero. now apply Q0. Qed.
    Lemma opapp0 (A : dict) (u : amps) : (forall x, u x = 0) -> forall x, opapp A u x = 0.
    Proof. intros Hu x. now apply opapp_zero. Qed.
    Lemma H_0 (u : amps) : (forall x, u x = 0) -> forall x, H u x = 0.
    Proof. intros Hu x. rewrite (Hx u (fun e => u e - u e)) by (intros; rewrite Hu; ring). rewrite Hact_sub. ring. Qed.

    Lemma mixed_mul : exists HG HGq qG qGH, op_mul H1 Ed = Ok HG /\ op_mul HG Q = Ok HGq /\ op_mul Qd Ed = Ok qG /\ op_mul qG H1 = Ok qGH /\
      OPS (bal N) HGq /\ OPS (bal N) qGH /\ (forall v x, opapp HGq v x = opapp H1 (opapp Ed (opapp Q v)) x) /\ (forall v x, opapp qGH v x = opapp Qd (opapp Ed (opapp H1 v)) x).
    Proof.
      destruct HH as [HH1 _]. pose proof (OPS_weaken _ (bal N) _ (fun s H => proj1 H) HEd) as HEb.
      assert (R : forall A, OPS (bal N) A -> rep (bal N) (Ok A) (opapp A)) by (intros A HA; exists A; auto).
      destruct (rep_mul Hsm (bal N) (bal_stable N) _ _ _ _ (R _ HH1) (R _ HEb)) as (HG & e1 & O1 & S1).
      destruct (rep_mul Hsm (bal N) (bal_stable N) _ _ _ _ (R _ O1) (R _ HQ)) as (HGq & e2 & O2 & S2).
      destruct (rep_mul Hsm (bal N) (bal_stable N) _ _ _ _ (R _ HQd) (R _ HEb)) as (qG & e3 & O3 & S3).
      destruct (rep_mul Hsm (bal N) (bal_stable N) _ _ _ _ (R _ O3) (R _ HH1)) as (qGH & e4 & O4 & S4).
      exists HG, HGq, qG, qGH. repeat (split; [assumption|]). split; intros v x; [rewrite S2, S1|rewrite S4, S3]; reflexivity.
    Qed.

    Lemma mixed_values_ok :
      mixed_values L tiny sp th ansatz st H1 Q E Hq_ket qdH_ket
      = Ok (dsym (opapp Ed) (opapp Q), dsym (opapp Ed) (opapp Qd)).
    Proof.
      unfold mixed_values. destruct (gapply E st HE Hlen) as (ek & E1 & L1 & F1). rw E1. rw EE.
      destruct (gapply Ed st HEd Hlen) as (edk & E2 & L2 & F2). rw E2.
      destruct mixed_mul as (HG & HGq & qG & qGH & m1 & m2 & m3 & m4 & O2 & O4 & S2 & S4).
      rewrite !expv_nil by assumption. cbn [bind]. rw m1. rw m2. rewrite expv_one by assumption. cbn [bind].
      rw EQ. rw m3. rw m4. rewrite expv_one by assumption. cbn [bind].
      destruct HH as (HH1 & HHa & HHb).
      assert (SE : sup (opapp E f)) by (apply sup_op; [exact HE|apply sup_ket]).
      assert (SEd : sup (opapp Ed f)) by (apply sup_op; [exact HEd|apply sup_ket]).
      assert (a1 : I [[ek]] [[Hq_ket]] = T (opapp Ed) H (opapp Q)).
      { rewrite (ipx _ (opapp E f) _ [[Hq_ket]]) by (auto; reflexivity). rewrite (ip_asp _ _ (H (opapp Q f))) by auto. now rewrite AE'. }
      assert (a2 : I [[qdH_ket]] [[edk]] = T H (opapp Q) (opapp Ed)).
      { rewrite ip_sym, FqH by apply sup_ket. rewrite (ipx _ (opapp Ed f) _ (opapp Qd (H f))) by auto. rewrite AQ', ip_sym, AH. reflexivity. }
      assert (a3 : I f (opapp HGq f) = T H (opapp Ed) (opapp Q)).
      { rewrite (ipx f f _ _ (fun _ => eq_refl) (S2 f)). apply ip_asp; [apply sup_ket|]. intros x Hx'. apply HHa; [exact Hx'|]. apply sup1_op; [exact HEd|]. apply Q1, sup_ket. }
      assert (b1 : I [[Hq_ket]] [[edk]] = T (opapp Qd) H (opapp Ed)).
      { rewrite (ipx [[Hq_ket]] [[Hq_ket]] _ (opapp Ed f)) by auto. rewrite (ip_asp_l _ (H (opapp Q f))) by auto. rewrite AQ', AH. reflexivity. }
      assert (b2 : I [[ek]] [[qdH_ket]] = T (opapp Ed) (opapp Qd) H).
      { rewrite FqH by apply sup_ket. rewrite (ipx _ (opapp E f) _ (opapp Qd (H f))) by auto. now rewrite AE'. }
      assert (b3 : I f (opapp qGH f) = T (opapp Qd) (opapp Ed) H).
      { rewrite (ipx f f _ _ (fun _ => eq_refl) (S4 f)). rewrite AQ', AE'. rewrite (AQ' f), (AE' (opapp Q f)).
        apply (ip_supp _ (asp1 ni na) (asp1_dec ni na)); [apply sup1_op; [exact HE|apply Q1, sup_ket]|]. intros x Hx'. apply HHb; [exact Hx'|apply sup_ket]. }
      rewrite a1, a2, a3, b1, b2, b3.
      rewrite (dsym_exp _ _ (linear_opapp Ed) (linear_opapp Q)), (dsym_exp _ _ (linear_opapp Ed) (linear_opapp Qd)).
      assert (z1 : T (opapp Q) H (opapp Ed) = 0) by (apply kill_l, sup_ket).
      assert (z2 : T (opapp Ed) (opapp Q) H = 0) by (rewrite AE'; apply kill_l; exact SE).
      assert (z3 : T (opapp Q) (opapp Ed) H = 0) by (apply kill_l, sup_ket).
      assert (z4 : T (opapp Ed) H (opapp Qd) = 0) by (apply ip_zero, opapp0, H_0, Q0, sup_ket).
      assert (z5 : T H (opapp Qd) (opapp Ed) = 0) by (apply ip_zero, H_0, Q0; exact SEd).
      assert (z6 : T H (opapp Ed) (opapp Qd) = 0) by (apply ip_zero, H_0, opapp0, Q0, sup_ket).
      rewrite z1, z2, z3, z4, z5, z6. f_equal. f_equal; ring.
    Qed.
  End MixedPair.

  (** Symmetries of the commutator expectation values. *)
  Lemma T_tr X Xd Y Yd Z Zd : adjp N X Xd -> adjp N Y Yd -> adjp N Z Zd -> T X Y Z = T Zd Yd Xd.
  Proof. intros A B D'. rewrite A, B, D'. apply ip_sym. Qed.
  Lemma dsym_comm X Y : linear X -> linear Y -> dsym X Y = dsym Y X.
  Proof. intros LX LY. rewrite !dsym_exp by assumption. ring. Qed.
  Lemma dsym_tr X Xd Y Yd : linear X -> linear Y -> linear Xd -> linear Yd -> adjp N X Xd -> adjp N Y Yd -> dsym X Y = dsym Xd Yd.
  Proof.
    intros LX LY LXd LYd A B. rewrite !dsym_exp by assumption.
    rewrite (T_tr X Xd H H Y Yd), (T_tr Y Yd H H X Xd), (T_tr X Xd Y Yd H H), (T_tr H H Y Yd X Xd), (T_tr Y Yd X Xd H H), (T_tr H H X Xd Y Yd) by assumption. ring.
  Qed.
  Lemma ev2_tr X Xd Y Yd : linear X -> linear Xd -> adjp N X Xd -> adjp N Y Yd -> ev (comm X (comm H Y)) = ev (comm Xd (comm H Yd)).
  Proof.
    intros LX LXd A B. unfold ev. rewrite (ev_comm_l _ f X H Y LX), (ev_comm_l _ f Xd H Yd LXd).
    rewrite (T_tr X Xd H H Y Yd), (T_tr Y Yd H H X Xd), (T_tr X Xd Y Yd H H), (T_tr H H Y Yd X Xd) by assumption. ring.
  Qed.
  Lemma ev1_tr X Xd Y Yd : adjp N X Xd -> adjp N Y Yd -> ev (comm X Y) = ev (comm Yd Xd).
  Proof.
    intros A B. unfold ev. rewrite !ev_comm. f_equal.
    - rewrite A, B, ip_sym. reflexivity.
    - rewrite B, A, ip_sym. reflexivity.
  Qed.

  Definition dg (D : dict) : dict := match op_dagger D with Ok d => d | _ => [] end.
  Lemma dag_ok D : OPS aP D -> op_dagger D = Ok (dg D) /\ OPS aP (dg D) /\ adjp N (opapp D) (opapp (dg D)).
  Proof. intros HD. destruct (dag_ex D HD) as (Dd & E & O' & A). unfold dg. rewrite E. auto. Qed.
  Definition qok (Q : dict) : Prop := OPS (bal N) Q /\ op_dagger Q = Ok (dg Q) /\ OPS (bal N) (dg Q) /\ adjp N (opapp Q) (opapp (dg Q)) /\
    (forall u, sup u -> supp1 ni na (opapp Q u)) /\ (forall u, sup u -> forall x, opapp (dg Q) u x = 0).

  Lemma in_combine_seq {A} start (l : list A) i x : In (i, x) (combine (seq start (List.length l)) l) <-> (start <= i)%nat /\ nth_error l (i - start) = Some x.
  Proof.
    revert start. induction l as [|y l IH]; intros start; cbn [List.length seq combine].
    - split; [intros []|]. intros [_ E]. destruct (i - start)%nat; discriminate.
    - cbn [In]. rewrite IH. split.
      + intros [E|[Hi E] ]; [injection E as -> ->; rewrite Nat.sub_diag; split; [lia|reflexivity]|]. split; [lia|].
        replace (i - start)%nat with (S (i - S start)) by lia. exact E.
      + intros [Hi E]. destruct (Nat.eq_dec i start) as [->|Hne]; [left; rewrite Nat.sub_diag in E; cbn in E; injection E as ->; reflexivity|].
        right. split; [lia|]. replace (i - start)%nat with (S (i - S start)) in E by lia. exact E.
  Qed.
  Lemma nth_error_skip {A} j (l : list A) k : nth_error (skipn j l) k = nth_error l (j + k).
  Proof. revert l. induction j as [|j IH]; intros l; [reflexivity|]. destruct l as [|x l]; [now destruct k|]. cbn. apply IH. Qed.

  Section Blocks.
    Variables (H1 H0 : dict) (Q G : list dict).
    Hypothesis HH1 : H1ok H1.
    Hypothesis HH0 : H0ok H0.
    Hypothesis HQ : forall q, In q Q -> qok q.
    Hypothesis HG : forall D, In D G -> OPS aP D.
    Hypothesis HGc : forall D E, In D G -> In E G -> forall u x, opapp D (opapp E u) x = opapp E (opapp D u) x.
    Notation s := (List.length Q).
    Notation ng := (List.length G).
    (** The operators [X_i] of the response equations: orbital rotations, then excitations. *)
    Definition Xo (i : nat) : amps (K:=K) -> amps := opapp (nth i (Q ++ G) []).
    Definition Xd (i : nat) : amps (K:=K) -> amps := opapp (dg (nth i (Q ++ G) [])).
    Definition resp (c : list nat) : K :=
      match c with
      | [0; i; j]%nat => dsym (Xd i) (Xo j)
      | [1; i; j]%nat => dsym (Xd i) (Xd j)
      | [2; i; j]%nat => ev (comm (Xd i) (Xo j))
      | [3; i; j]%nat => ev (comm (Xd i) (Xd j))
      | _ => 0
      end.
    Lemma Xo_q j q : nth_error Q j = Some q -> nth j (Q ++ G) [] = q.
    Proof. intros E. rewrite app_nth1 by (apply nth_error_Some; congruence). now apply nth_error_nth. Qed.
    Lemma Xo_g i D : nth_error G i = Some D -> nth (i + s) (Q ++ G) [] = D.
    Proof. intros E. rewrite app_nth2 by lia. replace (i + s - s)%nat with i by lia. now apply nth_error_nth. Qed.

    Lemma X_adj i : (i < s + ng)%nat -> adjp N (Xo i) (Xd i).
    Proof.
      intros Hi. unfold Xo, Xd. assert (In (nth i (Q ++ G) []) (Q ++ G)) as Hin by (apply nth_In; rewrite app_length; lia).
      apply in_app_iff in Hin. destruct Hin as [Hin|Hin]; [apply (HQ _ Hin)|apply (dag_ok _ (HG _ Hin))].
    Qed.
    Lemma resp0_sym i j : (i < s + ng)%nat -> (j < s + ng)%nat -> resp [0; i; j]%nat = resp [0; j; i]%nat.
    Proof.
      intros Hi Hj. cbn [resp]. rewrite (dsym_tr (Xd i) (Xo i) (Xo j) (Xd j)) by first [apply linear_opapp|apply adjp_flip; now apply X_adj|now apply X_adj].
      apply dsym_comm; apply linear_opapp.
    Qed.
    Lemma resp1_sym i j : resp [1; i; j]%nat = resp [1; j; i]%nat.
    Proof. apply dsym_comm; apply linear_opapp. Qed.
    Lemma resp2_sym i j : (i < s + ng)%nat -> (j < s + ng)%nat -> resp [2; i; j]%nat = resp [2; j; i]%nat.
    Proof. intros Hi Hj. cbn [resp]. apply ev1_tr; [apply adjp_flip|]; now apply X_adj. Qed.

    Definition Wm (j : nat) (q : dict) : list (list nat * K) :=
      flat_map (fun iD => [([0; fst iD + s; j]%nat, dsym (opapp (dg (snd iD))) (opapp q)); ([0; j; fst iD + s]%nat, dsym (opapp (dg (snd iD))) (opapp q));
                           ([1; fst iD + s; j]%nat, dsym (opapp (dg (snd iD))) (opapp (dg q))); ([1; j; fst iD + s]%nat, dsym (opapp (dg (snd iD))) (opapp (dg q)))])
        (combine (seq 0 ng) G).
    Lemma mixed_ok M : mixed_blocks L tiny sp th ansatz st H1 Q G M
      = Ok (applyw (flat_map (fun jq => Wm (fst jq) (snd jq)) (combine (seq 0 s) Q)) M).
    Proof.
      unfold mixed_blocks. apply (eloop_writes 0 Q _ Wm). intros j q M' Hj. apply in_combine_seq in Hj. destruct Hj as [_ Hj].
      destruct (HQ q (nth_error_In _ _ Hj)) as (OQ & EQ & OQd & AQ & Q1 & Q0). pose proof HH1 as (O1 & Ha & Hb).
      assert (R : forall A, OPS (bal N) A -> rep (bal N) (Ok A) (opapp A)) by (intros A HA; exists A; auto).
      destruct (rep_mul Hsm (bal N) (bal_stable N) _ _ _ _ (R _ O1) (R _ OQ)) as (Hq & e1 & O2 & S2).
      destruct (rep_mul Hsm (bal N) (bal_stable N) _ _ _ _ (R _ OQd) (R _ O1)) as (qH & e2 & O3 & S3). cbn [bind] in e1, e2.
      rw e1. destruct (papply Hq st O2 Hlen) as (hqk & p1 & l1 & F1). rw p1. rw EQ. rw e2.
      destruct (papply qH st O3 Hlen) as (qhk & p2 & l2 & F2). rw p2.
      unfold Wm. apply (eloop_writes 0 G _ (fun i D => [([0; i + s; j]%nat, dsym (opapp (dg D)) (opapp q)); ([0; j; i + s]%nat, dsym (opapp (dg D)) (opapp q));
                           ([1; i + s; j]%nat, dsym (opapp (dg D)) (opapp (dg q))); ([1; j; i + s]%nat, dsym (opapp (dg D)) (opapp (dg q)))])).
      intros i D M'' Hi. apply in_combine_seq in Hi. destruct Hi as [_ Hi]. rewrite Nat.sub_0_r in *.
      pose proof (HG D (nth_error_In _ _ Hi)) as OD. destruct (dag_ok D OD) as (ED & ODd & ADd).
      rewrite (mixed_values_ok H1 q (dg q) D (dg D) hqk qhk); auto.
      - intros x Hx'. rewrite F1, S2 by exact Hx'. apply Ha; [exact Hx'|]. apply Q1, sup_ket.
      - intros u Hu. rewrite (ip_asp u _ (opapp (dg q) (opapp H1 f))); [|exact Hu|intros x Hx'; now rewrite F2, S3].
        pose proof (adjp_flip _ _ _ AQ) as AQ'. rewrite !AQ'.
        apply (ip_supp _ (asp1 ni na) (asp1_dec ni na)); [now apply Q1|]. intros x Hx'. apply Hb; [exact Hx'|apply sup_ket].
    Qed.
    Lemma mixed_W c v : In (c, v) (flat_map (fun jq => Wm (fst jq) (snd jq)) (combine (seq 0 s) Q)) -> v = resp c.
    Proof.
      intros Hi. apply in_flat_map in Hi. destruct Hi as ([j q] & Hj & Hi). apply in_combine_seq in Hj. destruct Hj as [_ Hj]. cbn [fst snd] in Hi.
      unfold Wm in Hi. apply in_flat_map in Hi. destruct Hi as ([i D] & Hd & Hi). apply in_combine_seq in Hd. destruct Hd as [_ Hd]. cbn [fst snd] in Hi.
      rewrite Nat.sub_0_r in *. pose proof (Xo_q j q Hj) as Eq. pose proof (Xo_g i D Hd) as Eg.
      assert (j < s)%nat as Lj by (apply nth_error_Some; congruence). assert (i < ng)%nat as Li by (apply nth_error_Some; congruence).
      assert (B0 : dsym (opapp (dg D)) (opapp q) = resp [0; i + s; j]%nat) by (cbn [resp]; unfold Xo, Xd; now rewrite Eq, Eg).
      assert (B1 : dsym (opapp (dg D)) (opapp (dg q)) = resp [1; i + s; j]%nat) by (cbn [resp]; unfold Xo, Xd; now rewrite Eq, Eg).
      destruct Hi as [E|[E|[E|[E|[] ] ] ] ]; injection E as <- <-; auto.
      - rewrite B0. apply resp0_sym; lia.
      - rewrite B1. apply resp1_sym.
    Qed.
    Lemma mixed_keys c : In c (map fst (flat_map (fun jq => Wm (fst jq) (snd jq)) (combine (seq 0 s) Q))) <->
      exists k i j, (k < 2)%nat /\ (i < ng)%nat /\ (j < s)%nat /\ (c = [k; i + s; j]%nat \/ c = [k; j; i + s]%nat).
    Proof.
      rewrite in_map_iff. split.
      - intros ([c' v] & <- & Hi). cbn [fst]. apply in_flat_map in Hi. destruct Hi as ([j q] & Hj & Hi). apply in_combine_seq in Hj. destruct Hj as [_ Hj]. cbn [fst snd] in Hi.
        unfold Wm in Hi. apply in_flat_map in Hi. destruct Hi as ([i D] & Hd & Hi). apply in_combine_seq in Hd. destruct Hd as [_ Hd]. cbn [fst snd] in Hi.
        rewrite Nat.sub_0_r in *. assert (j < s)%nat as Lj by (apply nth_error_Some; congruence). assert (i < ng)%nat as Li by (apply nth_error_Some; congruence).
        destruct Hi as [E|[E|[E|[E|[] ] ] ] ]; injection E as <- <-; [exists 0%nat|exists 0%nat|exists 1%nat|exists 1%nat]; exists i, j; repeat split; auto; lia.
      - intros (k & i & j & Hk & Li & Lj & Hc). destruct (nth_error Q j) as [q|] eqn:Eq; [|apply nth_error_None in Eq; lia].
        destruct (nth_error G i) as [D|] eqn:Eg; [|apply nth_error_None in Eg; lia].
        exists (c, if (k =? 0)%nat then dsym (opapp (dg D)) (opapp q) else dsym (opapp (dg D)) (opapp (dg q))). split; [reflexivity|]. apply in_flat_map. exists (j, q).
        split; [apply in_combine_seq; rewrite Nat.sub_0_r; split; [lia|exact Eq]|]. cbn [fst snd]. unfold Wm. apply in_flat_map. exists (i, D).
        split; [apply in_combine_seq; rewrite Nat.sub_0_r; split; [lia|exact Eg]|]. cbn [fst snd].
        destruct k as [|[|k] ]; [| |lia]; cbn [Nat.eqb]; destruct Hc as [->| ->]; [left|right; left|right; right; left|right; right; right; left]; reflexivity.
    Qed.

    Variable H00 : list K.
    Hypothesis L00 : vlen H00.
    Hypothesis F00 : forall x, asp ni na x -> [[H00]] x = H f x.
    Definition wa (j : nat) (GJ : dict) (i : nat) (GI : dict) : list (list nat * K) :=
      let a := dsym (opapp (dg GI)) (opapp GJ) in let b := ev (comm (opapp (dg GI)) (comm H (opapp (dg GJ)))) in let e := ev (comm (opapp (dg GI)) (opapp GJ)) in
      [([0; i + s; j + s]%nat, a); ([0; j + s; i + s]%nat, a); ([1; i + s; j + s]%nat, b); ([1; j + s; i + s]%nat, b); ([2; i + s; j + s]%nat, e); ([2; j + s; i + s]%nat, e)].
    Definition Wa (j : nat) (GJ : dict) : list (list nat * K) :=
      flat_map (fun iD => wa j GJ (fst iD) (snd iD)) (combine (seq j (List.length (skipn j G))) (skipn j G)).
    Lemma active_ok M : active_blocks L tiny sp th ansatz st H0 H00 s G M
      = Ok (applyw (flat_map (fun jq => Wa (fst jq) (snd jq)) (combine (seq 0 ng) G)) M).
    Proof.
      unfold active_blocks. apply (eloop_writes 0 G _ Wa). intros j GJ M' Hj. apply in_combine_seq in Hj. destruct Hj as [_ Hj]. rewrite Nat.sub_0_r in Hj.
      pose proof (HG GJ (nth_error_In _ _ Hj)) as OJ. destruct (dag_ok GJ OJ) as (EJ & OJd & AJ). rw EJ.
      destruct (gapply GJ H00 OJ L00) as (k1 & p1 & l1 & F1). rw p1. destruct (gapply (dg GJ) H00 OJd L00) as (k2 & p2 & l2 & F2). rw p2.
      destruct (gapply GJ st OJ Hlen) as (k5 & p5 & l5 & F5). destruct (gapply (dg GJ) st OJd Hlen) as (k6 & p6 & l6 & F6).
      destruct (H0apply H0 k6 HH0 l6) as (k3 & p3 & l3 & F3). destruct (H0apply H0 k5 HH0 l5) as (k4 & p4 & l4 & F4).
      assert (P3 : prop [H0; dg GJ] st = Ok k3) by (rewrite prop2; rw p6; exact p3).
      assert (P4 : prop [H0; GJ] st = Ok k4) by (rewrite prop2; rw p5; exact p4).
      rw P3. rw P4. rw p5. rw p6.
      apply (eloop_writes j (skipn j G) _ (wa j GJ)). intros i GI M'' Hi. apply in_combine_seq in Hi. destruct Hi as [Hij Hi].
      rewrite nth_error_skip in Hi. replace (j + (i - j))%nat with i in Hi by lia.
      pose proof (HG GI (nth_error_In _ _ Hi)) as OI. destruct (dag_ok GI OI) as (EI & OId & AI).
      rewrite (active_values_ok GJ (dg GJ) GI (dg GI) H00 k1 k2 k3 k4 k5 k6); auto.
      - intros x Hx'. rewrite F3 by exact Hx'. apply Hx, F6.
      - intros x Hx'. rewrite F4 by exact Hx'. apply Hx, F5.
    Qed.
    Lemma dag_comm D E u w : In D G -> In E G -> I u (opapp (dg D) (opapp (dg E) w)) = I u (opapp (dg E) (opapp (dg D) w)).
    Proof.
      intros HD HE. pose proof (adjp_flip _ _ _ (proj2 (proj2 (dag_ok D (HG D HD))))) as AD. pose proof (adjp_flip _ _ _ (proj2 (proj2 (dag_ok E (HG E HE))))) as AE.
      rewrite AD, AE, AE, AD. apply ipx; [|reflexivity]. now apply HGc.
    Qed.
    Lemma active_W c v : In (c, v) (flat_map (fun jq => Wa (fst jq) (snd jq)) (combine (seq 0 ng) G)) -> v = resp c.
    Proof.
      intros Hi. apply in_flat_map in Hi. destruct Hi as ([j GJ] & Hj & Hi). apply in_combine_seq in Hj. destruct Hj as [_ Hj]. cbn [fst snd] in Hi.
      unfold Wa in Hi. apply in_flat_map in Hi. destruct Hi as ([i GI] & Hd & Hi). apply in_combine_seq in Hd. destruct Hd as [Hij Hd]. cbn [fst snd] in Hi.
      rewrite nth_error_skip in Hd. replace (j + (i - j))%nat with i in Hd by lia. rewrite Nat.sub_0_r in *.
      pose proof (Xo_g j GJ Hj) as Ej. pose proof (Xo_g i GI Hd) as Ei.
      assert (j < ng)%nat as Lj by (apply nth_error_Some; congruence). assert (i < ng)%nat as Li by (apply nth_error_Some; congruence).
      assert (B0 : dsym (opapp (dg GI)) (opapp GJ) = resp [0; i + s; j + s]%nat) by (cbn [resp]; unfold Xo, Xd; now rewrite Ej, Ei).
      assert (B2 : ev (comm (opapp (dg GI)) (opapp GJ)) = resp [2; i + s; j + s]%nat) by (cbn [resp]; unfold Xo, Xd; now rewrite Ej, Ei).
      assert (B1 : ev (comm (opapp (dg GI)) (comm H (opapp (dg GJ)))) = resp [1; i + s; j + s]%nat).
      { cbn [resp]. unfold Xd. rewrite Ej, Ei. rewrite dsym_exp by apply linear_opapp. unfold ev. rewrite (ev_comm_l _ f _ _ _ (linear_opapp (dg GI))).
        pose proof (nth_error_In _ _ Hj) as Ij. pose proof (nth_error_In _ _ Hd) as Ii.
        rewrite (dag_comm GJ GI f (H f) Ij Ii).
        assert (E2 : T H (opapp (dg GI)) (opapp (dg GJ)) = T H (opapp (dg GJ)) (opapp (dg GI))) by (rewrite !AH; now apply dag_comm).
        rewrite E2. rewrite <- (half_mul (T (opapp (dg GI)) (opapp (dg GJ)) H)) at 1. rewrite <- (half_mul (T H (opapp (dg GJ)) (opapp (dg GI)))) at 1. ring. }
      unfold wa in Hi. cbv zeta in Hi. destruct Hi as [E|[E|[E|[E|[E|[E|[] ] ] ] ] ] ]; injection E as <- <-; auto.
      - rewrite B0. apply resp0_sym; lia.
      - rewrite B1. apply resp1_sym.
      - rewrite B2. apply resp2_sym; lia.
    Qed.
    Lemma active_keys c : In c (map fst (flat_map (fun jq => Wa (fst jq) (snd jq)) (combine (seq 0 ng) G))) <->
      exists k i j, (k < 3)%nat /\ (i < ng)%nat /\ (j < ng)%nat /\ c = [k; i + s; j + s]%nat.
    Proof.
      rewrite in_map_iff. split.
      - intros ([c' v] & <- & Hi). cbn [fst]. apply in_flat_map in Hi. destruct Hi as ([j GJ] & Hj & Hi). apply in_combine_seq in Hj. destruct Hj as [_ Hj]. cbn [fst snd] in Hi.
        unfold Wa in Hi. apply in_flat_map in Hi. destruct Hi as ([i GI] & Hd & Hi). apply in_combine_seq in Hd. destruct Hd as [Hij Hd]. cbn [fst snd] in Hi.
        rewrite nth_error_skip in Hd. replace (j + (i - j))%nat with i in Hd by lia. rewrite Nat.sub_0_r in *.
        assert (j < ng)%nat as Lj by (apply nth_error_Some; congruence). assert (i < ng)%nat as Li by (apply nth_error_Some; congruence).
        unfold wa in Hi. cbv zeta in Hi. destruct Hi as [E|[E|[E|[E|[E|[E|[] ] ] ] ] ] ]; injection E as <- <-;
          [exists 0%nat, i, j|exists 0%nat, j, i|exists 1%nat, i, j|exists 1%nat, j, i|exists 2%nat, i, j|exists 2%nat, j, i]; repeat split; auto; lia.
      - assert (W : forall k i j, (k < 3)%nat -> (i < ng)%nat -> (j <= i)%nat -> exists v, In ([k; i + s; j + s]%nat, v) (flat_map (fun jq => Wa (fst jq) (snd jq)) (combine (seq 0 ng) G)) /\
             In ([k; j + s; i + s]%nat, v) (flat_map (fun jq => Wa (fst jq) (snd jq)) (combine (seq 0 ng) G))).
        { intros k i j Hk Li Lj. destruct (nth_error G j) as [GJ|] eqn:Ej; [|apply nth_error_None in Ej; lia].
          destruct (nth_error G i) as [GI|] eqn:Ei; [|apply nth_error_None in Ei; lia].
          assert (forall c v, In (c, v) (wa j GJ i GI) -> In (c, v) (flat_map (fun jq => Wa (fst jq) (snd jq)) (combine (seq 0 ng) G))) as Z.
          { intros c' v Hc. apply in_flat_map. exists (j, GJ). split; [apply in_combine_seq; rewrite Nat.sub_0_r; split; [lia|exact Ej]|].
            cbn [fst snd]. unfold Wa. apply in_flat_map. exists (i, GI). split; [apply in_combine_seq; split; [exact Lj|]; rewrite nth_error_skip; replace (j + (i - j))%nat with i by lia; exact Ei|exact Hc]. }
          destruct k as [|[|[|k] ] ]; [| | |lia]; eexists; split; apply Z; unfold wa; cbv zeta;
            [left|right; left|do 2 right; left|do 3 right; left|do 4 right; left|do 5 right; left]; reflexivity. }
        intros (k & i & j & Hk & Li & Lj & ->). destruct (Nat.le_ge_cases j i) as [Hji|Hji].
        + destruct (W k i j Hk Li Hji) as (v & Hv & _). eexists (_, v). split; [|exact Hv]; reflexivity.
        + destruct (W k j i Hk Lj Hji) as (v & _ & Hv). eexists (_, v). split; [|exact Hv]; reflexivity.
    Qed.

    (** Everything outside the orbital-orbital block. *)
    Lemma blocks_ok M : exists M', bind (mixed_blocks L tiny sp th ansatz st H1 Q G M) (fun M => active_blocks L tiny sp th ansatz st H0 H00 s G M) = Ok M' /\
      (forall c i j, (i < s)%nat -> (j < s)%nat -> M' [c; i; j] = M [c; i; j]) /\
      (forall c i j, (c < 3)%nat -> (i < s + ng)%nat -> (j < s + ng)%nat -> ~ (i < s /\ j < s)%nat ->
         M' [c; i; j] = if ((i <? s) || (j <? s)) && (c =? 2)%nat then M [c; i; j] else resp [c; i; j]) /\
      (forall c i j, (3 <= c)%nat -> M' [c; i; j] = M [c; i; j]).
    Proof.
      rewrite mixed_ok. cbn [bind]. rewrite active_ok. eexists. split; [reflexivity|]. split; [|split].
      - intros c i j Hi Hj. rewrite !applyw_out; [reflexivity| |].
        + rewrite mixed_keys. intros (k & i' & j' & _ & _ & _ & [E|E]); injection E as -> -> ->; lia.
        + rewrite active_keys. intros (k & i' & j' & _ & _ & _ & E); injection E as -> -> ->; lia.
      - intros c i j Hc Hi Hj Hn. destruct (Nat.lt_ge_cases i s) as [Li|Li], (Nat.lt_ge_cases j s) as [Lj|Lj]; [tauto| | |].
        + replace (i <? s)%nat with true by (symmetry; now apply Nat.ltb_lt). cbn [orb andb]. rewrite applyw_out by (rewrite active_keys; intros (k & i' & j' & _ & _ & _ & E); injection E as -> -> ->; lia).
          destruct c as [|[|[|c] ] ]; [| | |lia]; cbn [Nat.eqb].
          * apply applyw_in; [exact mixed_W|]. apply mixed_keys. exists 0%nat, (j - s)%nat, i. replace (j - s + s)%nat with j by lia. repeat split; auto; lia.
          * apply applyw_in; [exact mixed_W|]. apply mixed_keys. exists 1%nat, (j - s)%nat, i. replace (j - s + s)%nat with j by lia. repeat split; auto; lia.
          * apply applyw_out. rewrite mixed_keys. intros (k & i' & j' & Hk & _ & _ & [E|E]); injection E as E _ _; lia.
        + replace (j <? s)%nat with true by (symmetry; now apply Nat.ltb_lt). rewrite orb_true_r. cbn [andb]. rewrite applyw_out by (rewrite active_keys; intros (k & i' & j' & _ & _ & _ & E); injection E as -> -> ->; lia).
          destruct c as [|[|[|c] ] ]; [| | |lia]; cbn [Nat.eqb].
          * apply applyw_in; [exact mixed_W|]. apply mixed_keys. exists 0%nat, (i - s)%nat, j. replace (i - s + s)%nat with i by lia. repeat split; auto; lia.
          * apply applyw_in; [exact mixed_W|]. apply mixed_keys. exists 1%nat, (i - s)%nat, j. replace (i - s + s)%nat with i by lia. repeat split; auto; lia.
          * apply applyw_out. rewrite mixed_keys. intros (k & i' & j' & Hk & _ & _ & [E|E]); injection E as E _ _; lia.
        + replace (i <? s)%nat with false by (symmetry; now apply Nat.ltb_ge). replace (j <? s)%nat with false by (symmetry; now apply Nat.ltb_ge). cbn [orb andb].
          apply applyw_in; [exact active_W|]. apply active_keys. exists c, (i - s)%nat, (j - s)%nat. replace (i - s + s)%nat with i by lia. replace (j - s + s)%nat with j by lia. repeat split; auto; lia.
      - intros c i j Hc. rewrite !applyw_out; [reflexivity| |].
        + rewrite mixed_keys. intros (k & i' & j' & Hk & _ & _ & [E|E]); injection E as E _ _; lia.
        + rewrite active_keys. intros (k & i' & j' & Hk & _ & _ & E); injection E as E _ _; lia.
    Qed.
    (** The entries that are never written are zero, as they should be. *)
    Lemma resp2_mixed i j : (i < s + ng)%nat -> (j < s + ng)%nat -> ~ (i < s /\ j < s)%nat -> ((i < s) \/ (j < s))%nat -> resp [2; i; j]%nat = 0.
    Proof.
      assert (Z : forall i j, (i < s)%nat -> (s <= j < s + ng)%nat -> resp [2; j; i]%nat = 0).
      { intros i' j' Hi Hj. cbn [resp]. unfold Xo, Xd. rewrite (app_nth1 Q G [] Hi), (app_nth2 Q G [] (proj1 Hj)).
        assert (In (nth i' Q []) Q) as Iq by now apply nth_In. assert (In (nth (j' - s) G []) G) as Ig by (apply nth_In; lia).
        destruct (HQ _ Iq) as (_ & _ & _ & AQ & _ & Q0). destruct (dag_ok _ (HG _ Ig)) as (_ & Od & Ad).
        unfold ev. rewrite ev_comm. rewrite (adjp_flip _ _ _ Ad), !AQ.
        rewrite (ip_sym _ (opapp (dg (nth i' Q [])) f)), (ip_sym _ (opapp (dg (nth i' Q [])) (opapp (nth (j' - s) G []) f))). rewrite (ip_zero _ _ (opapp (dg (nth i' Q [])) f)), (ip_zero _ _ (opapp (dg (nth i' Q [])) (opapp (nth (j' - s) G []) f))); [ring| |].
        - apply Q0. apply sup_op; [now apply HG|apply sup_ket].
        - apply Q0, sup_ket. }
      intros Hi Hj Hn [Hs|Hs]; [rewrite resp2_sym by assumption|]; apply Z; lia.
    Qed.
    Lemma resp3_zero i j : (i < s + ng)%nat -> (j < s + ng)%nat -> resp [3; i; j]%nat = 0.
    Proof.
      intros Hi Hj. cbn [resp].
      assert (D : forall i, (i < s + ng)%nat -> (exists q, In q Q /\ Xd i = opapp (dg q)) \/ (exists g, In g G /\ Xd i = opapp (dg g))).
      { intros k Hk. unfold Xd. assert (In (nth k (Q ++ G) []) (Q ++ G)) as Hin by (apply nth_In; rewrite app_length; lia). apply in_app_iff in Hin. destruct Hin; [left|right]; eauto. }
      assert (ZQ : forall q, In q Q -> forall u, sup u -> forall x, opapp (dg q) u x = 0) by (intros q Hq; apply (HQ q Hq)).
      unfold ev. rewrite ev_comm. destruct (D i Hi) as [(q & Hq & ->)|(q & Hq & ->)], (D j Hj) as [(q' & Hq' & ->)|(q' & Hq' & ->)].
      - rewrite !ip_zero; [ring| |]; apply opapp0; now apply ZQ, sup_ket.
      - rewrite !ip_zero; [ring| |].
        + apply opapp0. now apply ZQ, sup_ket.
        + apply ZQ; [exact Hq|]. apply sup_op; [apply (dag_ok _ (HG _ Hq'))|apply sup_ket].
      - rewrite !ip_zero; [ring| |].
        + apply ZQ; [exact Hq'|]. apply sup_op; [apply (dag_ok _ (HG _ Hq))|apply sup_ket].
        + apply opapp0. now apply ZQ, sup_ket.
      - rewrite (dag_comm q q' f f Hq Hq'). ring.
    Qed.
  End Blocks.
End Values.
