(** Linear response: the operator pools built by the constructor, as linear
    combinations of strings of creation and annihilation operators. *)
From Coq Require Import List Bool Arith NArith ZArith Ascii String Lia Ring.
From Verif Require Import Base Fock FockMore FermiModel FermiProofs FermiFold FermiAlgebra OperatorsModel OperatorsProofs OperatorsSums OperatorsActs
  OperatorsActive OperatorsGen OperatorsKeys OperatorsOne Props_Operators CIModel CIProofs StateModel
  FockInner DensityModel DensityProofs DensityResponse DensityState StructModel StructProofs UPSSingle LRModel LRAlgebra LRProofs.
Import ListNotations.
Local Open Scope nat_scope.
Local Open Scope list_scope.

Lemma sum_alpha0 l : fold_right (fun p acc => alpha_w p + acc)%Z 0%Z l = Z.of_nat (List.length (filter Nat.even l)).
Proof. rewrite <- (sum_alpha 0 l). f_equal. rewrite <- (map_id l) at 1. apply map_ext. intros. lia. Qed.
Lemma sum_beta0 l : fold_right (fun p acc => beta_w p + acc)%Z 0%Z l = (Z.of_nat (List.length l) - Z.of_nat (List.length (filter Nat.even l)))%Z.
Proof. rewrite <- (sum_beta 0 l). f_equal. rewrite <- (map_id l) at 1. apply map_ext. intros. lia. Qed.

Section Spec.
  Context {K : Type} {C : CRing K}.
  Local Open Scope K_scope.
  (** Linear combinations of strings: the singlet excitation operator [E_pq],
      scaling, products, adjoints. *)
  Notation lc := (list (fstring * K)).
  Definition lc_E (p q : nat) : lc := [([(2 * p, true); (2 * q, false)]%nat, 1); ([(2 * p + 1, true); (2 * q + 1, false)]%nat, 1)].
  Definition lc_scale (c : K) (A : lc) : lc := map (fun t => (fst t, c * snd t)) A.
  Definition lc_mul (A B : lc) : lc := flat_map (fun t => map (fun u => (fst t ++ fst u, snd t * snd u)) B) A.
  Definition lc_adj (A : lc) : lc := map (fun t => (adjstr (fst t), snd t)) A.

  (** The operators of the response equations. *)
  Definition x_single (s2 : K) (a i : nat) : lc := lc_scale s2 (lc_E a i).
  Definition x_double (L : literals) (a i b j case : nat) : lc :=
    if (case =? 5)%nat then lc_scale (l_f5 L) (lc_mul (lc_E a i) (lc_E b j) ++ lc_scale (- (1)) (lc_mul (lc_E a j) (lc_E b i)))
    else lc_scale (if (a =? b)%nat then (if (i =? j)%nat then l_f4 L else l_f2 L) else (if (i =? j)%nat then l_f2 L else l_f1 L))
           (lc_mul (lc_E a i) (lc_E b j) ++ lc_mul (lc_E a j) (lc_E b i)).
  Definition x_string (creators annihilators : list nat) : lc :=
    [(map (fun a => (a, true)) creators ++ map (fun i => (i, false)) (rev annihilators), 1)].
  Definition x_orbital (L : literals) (O : orbitals) : list lc := map (fun pq => x_single (l_s2 L) (snd pq) (fst pq)) (o_kappa O).
  Definition x_active (L : literals) (O : orbitals) (excitations : string) : list lc :=
    let has c := char_in c (lower excitations) in
    let strings l := map (fun t => x_string (evens t) (odds t)) l in
    (if has "s"%char then map (fun t => x_single (l_s2 L) (nth 0 t 0%nat) (nth 1 t 0%nat)) (iterate_t1_sa (o_occ O) (o_unocc O)) else []) ++
    (if has "d"%char then map (fun tc => let t := fst tc in x_double L (nth 0 t 0%nat) (nth 1 t 0%nat) (nth 2 t 0%nat) (nth 3 t 0%nat) (snd tc)) (iterate_t2_sa (o_occ O) (o_unocc O)) else []) ++
    (if has "t"%char then strings (iterate_t3 (o_occ_spin O) (o_unocc_spin O)) else []) ++
    (if has "q"%char then strings (iterate_t4 (o_occ_spin O) (o_unocc_spin O)) else []) ++
    (if has "5"%char then strings (iterate_t5 (o_occ_spin O) (o_unocc_spin O)) else []) ++
    (if has "6"%char then strings (iterate_t6 (o_occ_spin O) (o_unocc_spin O)) else []).
  (** Closed-shell orbital lists: active orbitals below [m] are occupied, the
      others empty; rotations join different spaces. *)
  Definition orbs_ok (ni na nv m : nat) (O : orbitals) : Prop :=
    (ni <= m <= ni + na)%nat /\
    (forall p, In p (o_occ O) -> ni <= p < m)%nat /\ (forall p, In p (o_unocc O) -> m <= p < ni + na)%nat /\
    (forall p, In p (o_occ_spin O) -> 2 * ni <= p < 2 * m)%nat /\ (forall p, In p (o_unocc_spin O) -> 2 * m <= p < 2 * (ni + na))%nat /\
    (forall p q, In (p, q) (o_kappa O) -> (p < ni /\ ni <= q \/ p < ni + na /\ ni + na <= q) /\ q < ni + na + nv)%nat /\
    o_kappa_dagger O = map (fun pq => (snd pq, fst pq)) (o_kappa O).
End Spec.

Section Pools.
  Context {K : Type} {C : CRing K}.
  Local Open Scope K_scope.
  Add Ring KringPl : (@rth K C).
  Notation lc := (list (fstring * K)).
  Notation dict := (list (fstring * K)).

  Lemma lc_E_act p q (f : amps) x : opapp (lc_E p q) f x = Eact p q f x.
  Proof. unfold lc_E, Eact. rewrite !pairop_str. cbn [opapp]. ring. Qed.
  Lemma lc_scale_act c (A : lc) (f : amps) x : opapp (lc_scale c A) f x = c * opapp A f x.
  Proof. unfold lc_scale. induction A as [|[s k] A IH]; cbn [map opapp fst snd]; [ring|]. rewrite IH. ring. Qed.
  Lemma lc_mul_act (A B : lc) (f : amps) x : opapp (lc_mul A B) f x = opapp A (opapp B f) x.
  Proof.
    induction A as [|[s k] A IH]; [reflexivity|]. change (lc_mul ((s, k) :: A) B) with (map (fun u : fstring * K => (s ++ fst u, k * snd u)) B ++ lc_mul A B).
    rewrite opapp_app, IH. cbn [opapp]. f_equal. rewrite appstr_opapp.
    clear IH. induction B as [|[t c] B IH]; cbn [map opapp fst snd]; [ring|]. rewrite IH. ring.
  Qed.
  Lemma lc_adj_dag (A : lc) : lc_adj A = map (fun kc => (dag_key (fst kc), snd kc)) A.
  Proof. unfold lc_adj. apply map_ext. intros [s c]. cbn [fst snd]. now rewrite dag_key_adjstr. Qed.

  Variables (Hex : exact_small K) (ni na nv m : nat).
  Notation N := (ni + na + nv)%nat.
  Notation aP := (actP ni na N).
  Definition Uo (p : nat) : Prop := (2 * m <= p)%nat.
  Definition Vo (p : nat) : Prop := (p < 2 * m)%nat.
  Definition exl (A : lc) : Prop := forall t c, In (t, c) A -> exs Uo Vo t.

  Lemma dag_lc P (HP : stable P) (D : dict) (A : lc) : OPS P D -> (forall f x, opapp D f x = opapp A f x) -> forall f x, opapp (dg D) f x = opapp (lc_adj A) f x.
  Proof.
    intros HD E. destruct (rep_dagger_mel Hex P HP D HD) as (Dd & Ed & _ & Hm). unfold dg. rewrite Ed. apply mel_determines. intros x y.
    rewrite Hm, lc_adj_dag, mel_dag. unfold mel. apply E.
  Qed.

  Lemma exl_scale c A : exl A -> exl (lc_scale c A).
  Proof. intros H t k Hi. unfold lc_scale in Hi. apply in_map_iff in Hi as ([t' k'] & E & Hi). injection E as <- _. exact (H _ _ Hi). Qed.
  Lemma exl_app A B : exl A -> exl B -> exl (A ++ B).
  Proof. intros H1 H2 t k Hi. apply in_app_or in Hi as [Hi|Hi]; [exact (H1 _ _ Hi)|exact (H2 _ _ Hi)]. Qed.
  Lemma exl_mul A B : exl A -> exl B -> exl (lc_mul A B).
  Proof.
    intros H1 H2 t k Hi. unfold lc_mul in Hi. apply in_flat_map in Hi as ([s c] & Hs & Hi). apply in_map_iff in Hi as ([s' c'] & E & Hs'). injection E as <- _. cbn [fst].
    destruct (H1 _ _ Hs) as [A1 B1], (H2 _ _ Hs') as [A2 B2]. split; [now rewrite app_length, Nat.even_add, A1, A2|].
    intros o Ho. apply in_app_or in Ho as [Ho|Ho]; [exact (B1 o Ho)|exact (B2 o Ho)].
  Qed.
  Lemma exl_E p q : (m <= p)%nat -> (q < m)%nat -> exl (lc_E p q).
  Proof.
    intros Hp Hq t c [E|[E|[]]]; injection E as <- <-; (split; [reflexivity|]); intros o [<-|[<-|[]]]; cbn; unfold Uo, Vo; lia.
  Qed.

  (** A computation that yields an active operator acting as a given excitation. *)
  Definition gen (r : Res dict) (A : lc) : Prop := rep aP r (opapp A) /\ exl A.
  Lemma PE_act p q : (ni <= p < ni + na)%nat -> (ni <= q < ni + na)%nat -> PE aP p q.
  Proof.
    intros Hp Hq. destruct (PE_bal N p q ltac:(lia) ltac:(lia)) as [A B]. split; (split; [assumption|]); intros o [<-|[<-|[]]]; cbn; lia.
  Qed.
  Lemma gen_single s2 i a : (ni <= i < m)%nat -> (m <= a < ni + na)%nat -> gen (G1_sa s2 i a false) (x_single s2 a i).
  Proof.
    intros Hi Ha. split; [|apply exl_scale, exl_E; lia]. unfold G1_sa, antiherm.
    eapply (rep_ext aP); [apply (rep_scale aP), (Epq_rep Hex aP (actP_stable ni na N)), PE_act; lia|].
    intros f x. unfold x_single. now rewrite lc_scale_act, lc_E_act.
  Qed.
  Lemma gen_double L i j a b c : (ni <= i < m)%nat -> (ni <= j < m)%nat -> (m <= a < ni + na)%nat -> (m <= b < ni + na)%nat -> (1 <= c <= 5)%nat ->
    gen (G2_sa (l_f1 L) (l_f2 L) (l_f4 L) (l_f5 L) i j a b c false) (x_double L a i b j c).
  Proof.
    intros Hi Hj Ha Hb Hc. pose proof (actP_stable ni na N) as HP.
    assert (EE : forall p q, (m <= p < ni + na)%nat -> (ni <= q < m)%nat -> rep aP (Epq p q) (opapp (K:=K) (lc_E p q))).
    { intros p q Hp Hq. eapply (rep_ext aP); [apply (Epq_rep Hex aP HP), PE_act; lia|]. intros f x. now rewrite lc_E_act. }
    assert (MM : forall p q r s, (m <= p < ni + na)%nat -> (ni <= q < m)%nat -> (m <= r < ni + na)%nat -> (ni <= s < m)%nat ->
       rep aP (mmul (Epq p q) (Epq r s)) (opapp (K:=K) (lc_mul (lc_E p q) (lc_E r s)))).
    { intros p q r s Hp Hq Hr Hs. eapply (rep_ext aP); [apply (rep_mul Hex aP HP); apply EE; assumption|]. intros f x. symmetry. apply lc_mul_act. }
    assert (XM : forall p q r s, (m <= p)%nat -> (q < m)%nat -> (m <= r)%nat -> (s < m)%nat -> exl (lc_mul (lc_E p q) (lc_E r s))) by (intros; apply exl_mul; apply exl_E; assumption).
    split.
    - assert (S4 : forall k, rep aP (mscale k (madd (mmul (Epq a i) (Epq b j)) (mmul (Epq a j) (Epq b i)))) (opapp (lc_scale k (lc_mul (lc_E a i) (lc_E b j) ++ lc_mul (lc_E a j) (lc_E b i))))).
      { intros k. eapply (rep_ext aP); [apply (rep_scale aP), (rep_add Hex aP); apply MM; lia|]. intros f x. cbv beta. now rewrite lc_scale_act, opapp_app. }
      unfold x_double. destruct (Nat.eqb_spec c 5) as [->|Hc5].
      + unfold G2_sa, antiherm. eapply (rep_ext aP); [apply (rep_scale aP), (rep_sub Hex aP); apply MM; lia|]. intros f x. cbv beta. rewrite lc_scale_act, opapp_app, lc_scale_act. ring.
      + destruct c as [|[|[|[|[|c]]]]]; try lia; unfold G2_sa, antiherm; apply S4.
    - unfold x_double. destruct (c =? 5)%nat; apply exl_scale, exl_app; try apply exl_scale; apply XM; lia.
  Qed.
  Lemma gen_string v o : v <> [] -> List.length v = List.length o -> same_spin v o -> (forall p, In p o -> 2 * ni <= p < 2 * m)%nat -> (forall p, In p v -> 2 * m <= p < 2 * (ni + na))%nat ->
    (ni <= m <= ni + na)%nat -> gen (Gn o v false) (x_string v o).
  Proof.
    intros Hne Hl Hs Ho Hv Hm. assert (Hin : forall p, In p (gstr o v) -> (2 * ni <= fst p < 2 * (ni + na))%nat /\ (if snd p then Uo (fst p) else Vo (fst p))).
    { intros p Hp. unfold gstr in Hp. apply in_app_or in Hp as [Hp|Hp]; apply in_map_iff in Hp as (y & <- & Hy); cbn.
      - specialize (Hv y Hy). unfold Uo. lia.
      - apply in_rev in Hy. specialize (Ho y Hy). unfold Vo. lia. }
    split.
    - eapply (rep_ext aP); [apply (Gn_rep Hex aP (actP_stable ni na N) o v); [destruct o; [destruct v; [congruence|discriminate]|discriminate]|exact Hl|]|].
      + split; [split; [|intros p Hp; destruct (Hin p Hp); lia]|intros p Hp; apply (Hin p Hp)].
        rewrite !chg_gstr. destruct Hs as [S1 S2]. rewrite !sum_alpha0, !sum_beta0. lia.
      + intros f x. unfold x_string. cbn [opapp]. unfold gstr. ring.
    - intros t c [E|[]]. injection E as <- _. change (exs Uo Vo (gstr o v)). split; [|intros p Hp; apply (Hin p Hp)].
      rewrite gstr_length, Hl. rewrite Nat.even_add. now destruct (Nat.even (List.length o)).
  Qed.

  Lemma F2_app {A B} (R : A -> B -> Prop) l1 l2 m1 m2 : Forall2 R l1 m1 -> Forall2 R l2 m2 -> Forall2 R (l1 ++ l2) (m1 ++ m2).
  Proof. apply Forall2_app. Qed.
  Definition gact (D : dict) (A : lc) : Prop := OPS aP D /\ (forall f x, opapp D f x = opapp A f x) /\ exl A.
  Lemma rlist_gen {A} (f : A -> Res dict) (S : A -> lc) l : (forall x, In x l -> gen (f x) (S x)) -> exists G, rlist f l = Ok G /\ Forall2 gact G (map S l).
  Proof.
    induction l as [|x l IH]; intros H; [exists []; split; [reflexivity|constructor]|].
    destruct IH as (G & EG & HG); [intros y Hy; apply H; now right|]. destruct (H x (or_introl eq_refl)) as [(D & ED & HD & FD) HX].
    exists (D :: G). cbn [rlist fold_right map]. fold (rlist f l). rewrite ED, EG. split; [reflexivity|]. constructor; [|exact HG]. split; auto.
  Qed.

  Section WithO.
  Variables (L : @literals K) (O : orbitals).
  Hypothesis HO : orbs_ok ni na nv m O.
  Lemma G_ops_ok excitations : exists G, lr_G_ops L O excitations = Ok G /\ Forall2 gact G (x_active L O excitations).
  Proof.
    destruct HO as (Hm & H1 & H2 & H3 & H4 & _ & _). unfold lr_G_ops, x_active. set (e := lower excitations). clearbody e.
    assert (P : forall c (r : Res (list dict)) (S : list lc), (exists G, r = Ok G /\ Forall2 gact G S) ->
      exists G, (if char_in c e then r else Ok []) = Ok G /\ Forall2 gact G (if char_in c e then S else [])).
    { intros c r S (G & E & HG). destruct (char_in c e); [exists G; auto|]. exists []. split; [reflexivity|constructor]. }
    assert (AP : forall r1 r2 S1 S2, (exists G, r1 = Ok G /\ Forall2 gact G S1) -> (exists G, r2 = Ok G /\ Forall2 gact G S2) ->
      exists G, bind r1 (fun x => bind r2 (fun y => Ok (x ++ y))) = Ok G /\ Forall2 gact G (S1 ++ S2)).
    { intros r1 r2 S1 S2 (G1 & E1 & F1) (G2 & E2 & F2). exists (G1 ++ G2). rewrite E1, E2. split; [reflexivity|]. now apply F2_app. }
    assert (ST : forall k l, (1 <= k)%nat -> (forall t, In t l -> In t (iter_k k (o_occ_spin O) (o_unocc_spin O))) ->
      exists G, rlist spin_op l = Ok G /\ Forall2 gact G (map (fun t => x_string (evens t) (odds t)) l)).
    { intros k l Hk Hl. apply rlist_gen. intros t Ht. apply Hl, in_iter_k in Ht. destruct Ht as (v & o & -> & Sv & So & Lv & Lo & SS).
      unfold spin_op. rewrite evens_interleave, odds_interleave by congruence. apply gen_string; auto; try congruence.
      - intros ->. cbn in Lv. lia.
      - intros p Hp. apply H3. exact (sublist_in _ _ So p Hp).
      - intros p Hp. apply H4. exact (sublist_in _ _ Sv p Hp). }
    cbv zeta. repeat apply AP; apply P.
    - apply rlist_gen. intros t Ht. unfold iterate_t1_sa in Ht. apply in_flat_map in Ht as (i & Hi & Ht). apply in_flat_map in Ht as (a & Ha & [<-|[]]).
      cbn [nth sa_single]. apply gen_single; [now apply H1|now apply H2].
    - apply rlist_gen. intros [t c] Ht. rewrite iterate_t2_sa_list in Ht. apply in_sa_list in Ht as (i & j & a & b & -> & Hp & Hq & Hc).
      apply rpairs_in in Hp, Hq. unfold sa_double. cbn [fst snd nth]. apply gen_double; try (now apply H1); try (now apply H2). unfold sa_case_ok in Hc. lia.
    - apply (ST 3%nat); [lia|]. now rewrite iterate_t3_k.
    - apply (ST 4%nat); [lia|]. now rewrite iterate_t4_k.
    - apply (ST 5%nat); [lia|]. now rewrite iterate_t5_k.
    - apply (ST 6%nat); [lia|]. now rewrite iterate_t6_k.
  Qed.

  Lemma G_comm G S : Forall2 gact G S -> forall D E, In D G -> In E G -> forall u x, opapp D (opapp E u) x = opapp E (opapp D u) x.
  Proof.
    intros HF. assert (Z : forall D, In D G -> exop Uo Vo (opapp D)).
    { intros D HD. destruct (In_nth_error _ _ HD) as [k Hk]. revert k Hk. induction HF as [|D' A G' S' HA HF IH]; [intros [|k]; discriminate|].
      intros [|k] Hk; cbn in Hk.
      - injection Hk as ->. destruct HA as (_ & E & X). exists A. auto.
      - apply (IH ltac:(eapply nth_error_In; eauto) k Hk). }
    intros D E HD HE. apply (exop_comm Uo Vo); [|now apply Z|now apply Z]. unfold Uo, Vo. intros. lia.
  Qed.
  End WithO.
End Pools.

Section Orbital.
  Context {K : Type} {C : CRing K}.
  Local Open Scope K_scope.
  Add Ring KringPl2 : (@rth K C).
  Notation lc := (list (fstring * K)).
  Variables (Hex : exact_small K) (sp : @space).
  Notation ni := (sp_ni sp).
  Notation na := (sp_na sp).
  Notation N := (sp_ni sp + sp_na sp + sp_nv sp)%nat.
  Lemma adj_single s2 p q : lc_adj (x_single (K:=K) s2 q p) = x_single s2 p q.
  Proof. reflexivity. Qed.
  Lemma single_act s2 p q (f : amps) x : opapp (x_single (K:=K) s2 p q) f x = s2 * Eact p q f x.
  Proof. unfold x_single. now rewrite lc_scale_act, lc_E_act. Qed.
  Definition oact (D A : lc) : Prop := qok sp D /\ (forall f x, opapp D f x = opapp A f x) /\ (forall f x, opapp (dg D) f x = opapp (lc_adj A) f x).
  Lemma orb_ok s2 p q : (p < ni /\ ni <= q \/ p < ni + na /\ ni + na <= q)%nat -> (q < N)%nat ->
    exists D, G1_sa s2 p q false = Ok D /\ oact D (x_single s2 q p).
  Proof.
    intros Hpq Hq. assert (Hp : (p < N)%nat) by lia.
    destruct (rep_scale (bal N) s2 _ _ (Epq_rep Hex (bal N) (bal_stable N) q p (PE_bal N q p Hq Hp))) as (D & ED & OD & FD).
    exists D. split; [exact ED|]. assert (FA : forall f x, opapp D f x = opapp (x_single s2 q p) f x) by (intros; now rewrite FD, single_act).
    pose proof (dag_lc Hex (bal N) (bal_stable N) D _ OD FA) as FDd. split; [|split; [exact FA|exact FDd]].
    destruct (dagger_adjp N (bal N) (bal_stable N) Hex D OD) as (Dd & EDd & ODd & AD); [intros s [_ Hs]; exact Hs|].
    unfold qok. unfold dg in FDd |- *. rewrite EDd in FDd |- *. repeat (split; [assumption || reflexivity|]). split.
    - intros u Hu x Hx. rewrite FD. rewrite (Eact_supp1 ni na q p u Hu x Hx). ring.
    - intros u Hu x. rewrite FDd, adj_single, single_act, (Eact_kill ni na p q u x Hpq Hu). ring.
  Qed.
  Lemma q_ops_ok m (L : @literals K) O : orbs_ok ni na (sp_nv sp) m O -> exists Q, lr_q_ops L O = Ok Q /\ Forall2 oact Q (x_orbital L O).
  Proof.
    intros (_ & _ & _ & _ & _ & HK & _). unfold lr_q_ops, x_orbital.
    assert (Z : forall x, In x (o_kappa O) -> exists y, G1_sa (l_s2 L) (fst x) (snd x) false = Ok y /\ oact y (x_single (l_s2 L) (snd x) (fst x))).
    { intros [p q] Hx. destruct (HK p q Hx) as [H1 H2]. now apply orb_ok. }
    destruct (rlist_ex _ (fun pq D => oact D (x_single (l_s2 L) (snd pq) (fst pq))) _ Z) as (Q & E & HF). exists Q. split; [exact E|].
    clear E Z HK. induction HF; cbn [map]; constructor; auto.
  Qed.
End Orbital.
