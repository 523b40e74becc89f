(** Algebra behind linear response: adjoints of operators in the inner product,
    operators acting inside the active space, commuting excitation operators,
    inactive/virtual rotations, symmetry of the Hamiltonian. *)
From Coq Require Import List Bool Arith NArith ZArith Lia Ring Permutation.
From Verif Require Import Base Fock FockMore FermiModel FermiProofs FermiAlgebra OperatorsModel OperatorsProofs OperatorsSums OperatorsActs
  OperatorsActive OperatorsGen OperatorsKeys OperatorsOne Props_Operators FockInner DensityResponse.
Import ListNotations.

(** Strings that create in [U] and annihilate in [V], even length. *)
Definition exs (U V : nat -> Prop) (s : fstring) : Prop :=
  Nat.even (length s) = true /\ forall o, In o s -> if snd o then U (fst o) else V (fst o).

Section Alg.
  Context {K : Type} {C : CRing K}.
  Local Open Scope K_scope.
  Add Ring KringLA : (@rth K C).
  Notation dict := (list (fstring * K)).
  Notation act := (amps (K:=K) -> amps (K:=K)).

  (** Respecting pointwise equality and differences. *)
  Definition linear (F : act) : Prop :=
    (forall f g, (forall x, f x = g x) -> forall x, F f x = F g x) /\
    (forall f g x, F (fun e => f e - g e) x = F f x - F g x).

  Lemma linear_opapp (D : dict) : linear (opapp D).
  Proof.
    split; [intros; now apply opapp_ext|]. intros f g x.
    rewrite (opapp_ext D _ (fun e => f e + (- (1)) * g e)) by (intros; ring).
    rewrite opapp_add, opapp_scale. ring.
  Qed.
  Lemma linear_Hact half h g n : linear (Hact half h g n).
  Proof. split; [intros; now apply Hact_ext|intros; apply Hact_sub]. Qed.

  Definition adjp (n : nat) (F Fd : act) : Prop := forall u w, ip (2 * n) u (F w) = ip (2 * n) (Fd u) w.
  Lemma adjp_flip n F Fd : adjp n F Fd -> adjp n Fd F.
  Proof. intros H u w. rewrite ip_sym, <- H. apply ip_sym. Qed.

  Lemma ip_opapp n (D : dict) (u w : amps) : (forall s c, In (s, c) D -> forall o, In o s -> (fst o < 2 * n)%nat) ->
    ip (2 * n) u (opapp D w) = ip (2 * n) (opapp (map (fun kc => (dag_key (fst kc), snd kc)) D) u) w.
  Proof.
    induction D as [|[s c] D IH]; intros H.
    - cbn [map]. rewrite (ip_zero _ u) by reflexivity. rewrite ip_sym. symmetry. apply ip_zero. reflexivity.
    - cbn [map fst snd]. transitivity (c * ip (2 * n) u (appstr s w) + ip (2 * n) u (opapp D w)).
      { rewrite <- ip_scale, <- ip_add. apply ip_ext; reflexivity. }
      rewrite IH by (intros s' c' Hi; apply (H s' c'); now right). rewrite ip_appstr by (intros o Ho; apply (H s c (or_introl eq_refl) o Ho)).
      rewrite (ip_sym _ _ w), (ip_sym _ (opapp (map _ D) u) w), (ip_sym _ _ w). rewrite <- ip_scale, <- ip_add. apply ip_ext; [reflexivity|].
      intros x. cbn [opapp]. now rewrite dag_key_adjstr.
  Qed.

  Lemma dagger_adjp n P (HP : stable P) (Hex : exact_small K) (D : dict) : OPS P D -> (forall s, P s -> forall o, In o s -> (fst o < 2 * n)%nat) ->
    exists Dd, op_dagger D = Ok Dd /\ OPS P Dd /\ adjp n (opapp D) (opapp Dd).
  Proof.
    intros HD Hb. destruct (rep_dagger_mel Hex P HP D HD) as (Dd & E & HDd & Hm). exists Dd. split; [exact E|]. split; [exact HDd|].
    intros u w. rewrite ip_opapp.
    - apply ip_ext; [|reflexivity]. intros x. apply mel_determines. intros a b. now rewrite mel_dag, Hm.
    - intros s c Hi. apply Hb. destruct HD as [_ HK]. rewrite Forall_forall in HK.
      assert (In s (dkeys D)) as Hin by (unfold dkeys; apply in_map_iff; exists (s, c); auto).
      specialize (HK s Hin). unfold okey in HK. tauto.
  Qed.

  (** ** Active operators *)
  Definition actP (ni na n : nat) (s : fstring) : Prop := bal n s /\ forall o, In o s -> (2 * ni <= fst o < 2 * (ni + na))%nat.
  Lemma actP_stable ni na n : stable (actP ni na n).
  Proof. apply stable_and; [apply bal_stable|apply (stable_in (fun p => 2 * ni <= p < 2 * (ni + na))%nat)]. Qed.
  Lemma OPS_weaken (P Q : fstring -> Prop) (D : dict) : (forall s, P s -> Q s) -> OPS P D -> OPS Q D.
  Proof.
    intros H [H1 H2]. split; [exact H1|]. eapply Forall_impl; [|exact H2]. intros k [(A & B & D') N]. repeat split; auto. 
  Qed.
  Lemma OPS_keys (P : fstring -> Prop) (D : dict) s c : OPS P D -> In (s, c) D -> P s.
  Proof.
    intros [_ HK] Hi. rewrite Forall_forall in HK.
    assert (In s (dkeys D)) as Hin by (unfold dkeys; apply in_map_iff; exists (s, c); auto).
    specialize (HK s Hin). unfold okey in HK. tauto.
  Qed.

  Definition invar (ni na : nat) (Y : det -> Prop) : Prop := forall p y, (2 * ni <= p < 2 * (ni + na))%nat -> Y (flip y p) -> Y y.
  Lemma invar_asp ni na : invar ni na (asp ni na).
  Proof.
    intros p y Hp [H1 H2]. split; intros q Hq.
    - rewrite <- (H1 q Hq). symmetry. apply occ_flip_other. lia.
    - rewrite <- (H2 q Hq). symmetry. apply occ_flip_other. lia.
  Qed.
  Lemma invar_asp1 ni na : invar ni na (asp1 ni na).
  Proof.
    intros p y Hp [H1 H2]. split; intros q q' Hq Hq' O O'.
    - apply (H1 q q'); auto; rewrite occ_flip_other by lia; auto.
    - apply (H2 q q'); auto; rewrite occ_flip_other by lia; auto.
  Qed.
  Lemma keeps_app1 ni na Y p b (f : amps) : invar ni na Y -> (2 * ni <= p < 2 * (ni + na))%nat -> suppP Y f -> suppP Y (app1 (p, b) f).
  Proof.
    intros HY Hp Hf y Hy. unfold app1. cbn [fst snd]. destruct (Bool.eqb (occ y p) b); [|reflexivity].
    rewrite Hf; [apply sgn_0|]. intros H. apply Hy. exact (HY p y Hp H).
  Qed.
  Lemma keeps_appstr ni na Y s (f : amps) : invar ni na Y -> (forall o, In o s -> 2 * ni <= fst o < 2 * (ni + na))%nat -> suppP Y f -> suppP Y (appstr s f).
  Proof.
    intros HY. induction s as [|[p b] s IH]; intros Hs Hf; cbn [appstr]; [exact Hf|].
    apply (keeps_app1 ni na); auto; [apply (Hs (p, b)); now left|]. apply IH; auto. intros o Ho. apply Hs. now right.
  Qed.
  Lemma keeps_opapp ni na n Y (D : dict) (f : amps) : invar ni na Y -> OPS (actP ni na n) D -> suppP Y f -> suppP Y (opapp D f).
  Proof.
    intros HY HD Hf. assert (forall s c, In (s, c) D -> forall o, In o s -> (2 * ni <= fst o < 2 * (ni + na))%nat) as HK.
    { intros s c Hi. pose proof (OPS_keys _ _ _ _ HD Hi) as [_ H]. exact H. }
    clear HD. induction D as [|[s c] D IH]; intros y Hy; cbn [opapp]; [reflexivity|].
    rewrite IH by (auto; intros s' c' Hi; apply (HK s' c'); now right).
    rewrite (keeps_appstr ni na Y s f HY (HK s c (or_introl eq_refl)) Hf y Hy). ring.
  Qed.

  (** ** Commuting excitations *)
  Section Commute.
    Variables (U V : nat -> Prop).
    Hypothesis HUV : forall p, U p -> V p -> False.

    Lemma anti1 (o o' : fop) (f : amps) x : (if snd o then U (fst o) else V (fst o)) -> (if snd o' then U (fst o') else V (fst o')) ->
      app1 o (app1 o' f) x = - app1 o' (app1 o f) x.
    Proof.
      intros H H'. rewrite car_gen. replace (cdelta o o') with (0 : K); [ring|].
      unfold cdelta. destruct o as [p a], o' as [q b]. cbn [fst snd] in *.
      destruct (Nat.eqb_spec p q) as [->|]; [|reflexivity]. destruct a, b; try reflexivity; exfalso; eauto.
    Qed.
    Lemma anti_str (o : fop) s (f : amps) x : (if snd o then U (fst o) else V (fst o)) -> (forall o' : fop, In o' s -> if snd o' then U (fst o') else V (fst o')) ->
      app1 o (appstr s f) x = sgn (Nat.odd (length s)) (appstr s (app1 o f) x).
    Proof.
      intros Ho. revert f x. induction s as [|o' s IH]; intros f x Hs; [reflexivity|].
      cbn [appstr]. rewrite anti1 by (auto; apply Hs; now left).
      rewrite (app1_ext o' _ (fun e => sgn (Nat.odd (length s)) (appstr s (app1 o f) e))) by (intros y; apply IH; intros; apply Hs; now right).
      cbn [length]. rewrite Nat.odd_succ, <- Nat.negb_odd. destruct (Nat.odd (length s)); cbn [negb sgn].
      - rewrite (app1_ext o' _ (fun e => (- (1)) * appstr s (app1 o f) e)) by (intros; ring). rewrite app1_scale. ring.
      - reflexivity.
    Qed.
    Lemma comm_str s t (f : amps) x : exs U V s -> exs U V t -> appstr s (appstr t f) x = appstr t (appstr s f) x.
    Proof.
      intros [_ Hs] [Et Ht]. revert f x. induction s as [|o s IH]; intros f x; [reflexivity|].
      cbn [appstr]. rewrite (app1_ext o _ (appstr t (appstr s f))) by (intros y; apply IH; intros; apply Hs; now right).
      rewrite anti_str by (auto; apply Hs; now left). rewrite <- Nat.negb_even, Et. reflexivity.
    Qed.
    Lemma opapp_appstr_comm s (L : dict) (f : amps) x : exs U V s -> (forall t c, In (t, c) L -> exs U V t) ->
      appstr s (opapp L f) x = opapp L (appstr s f) x.
    Proof.
      intros Hs. induction L as [|[t c] L IH]; intros HL; cbn [opapp]; [apply appstr_zero; reflexivity|].
      rewrite (appstr_add s (fun e => c * appstr t f e) (opapp L f)), appstr_scale, IH by (intros t' c' Hi; apply (HL t' c'); now right).
      rewrite comm_str; auto. apply (HL t c). now left.
    Qed.
    Lemma opapp_comm (L M : dict) (f : amps) x : (forall t c, In (t, c) L -> exs U V t) -> (forall t c, In (t, c) M -> exs U V t) ->
      opapp L (opapp M f) x = opapp M (opapp L f) x.
    Proof.
      intros HL HM. induction L as [|[s c] L IH]; cbn [opapp]; [symmetry; apply opapp_zero; reflexivity|].
      rewrite (opapp_add M (fun e => c * appstr s f e) (opapp L f)), opapp_scale.
      rewrite IH by (intros t' c' Hi; apply (HL t' c'); now right).
      rewrite opapp_appstr_comm; auto. apply (HL s c). now left.
    Qed.

    (** Operators acting as a combination of excitation strings. *)
    Definition exop (F : act) : Prop := exists L, (forall t c, In (t, c) L -> exs U V t) /\ forall f x, F f x = opapp L f x.
    Lemma exop_comm F G : exop F -> exop G -> forall f x, F (G f) x = G (F f) x.
    Proof.
      intros (L & HL & EF) (M & HM & EG) f x. rewrite EF, EG.
      rewrite (opapp_ext L _ (opapp M f)) by (intros; apply EG). rewrite (opapp_ext M _ (opapp L f)) by (intros; apply EF). now apply opapp_comm.
    Qed.
    Lemma exop_ext F G : exop F -> (forall f x, F f x = G f x) -> exop G.
    Proof. intros (L & HL & E) H. exists L. split; [exact HL|]. intros. now rewrite <- H. Qed.
    Lemma exop_add F G : exop F -> exop G -> exop (fun f x => F f x + G f x).
    Proof.
      intros (L & HL & EF) (M & HM & EG). exists (L ++ M). split; [intros t c Hi; apply in_app_or in Hi as [Hi|Hi]; eauto|].
      intros. now rewrite opapp_app, EF, EG.
    Qed.
    Lemma opapp_mapc (L : dict) k (f : amps) x : opapp (map (fun p => (fst p, k * snd p)) L) f x = k * opapp L f x.
    Proof. induction L as [|[s c] L IH]; cbn [map opapp fst snd]; [ring|]. rewrite IH. ring. Qed.
    Lemma exop_scale c F : exop F -> exop (fun f x => c * F f x).
    Proof.
      intros (L & HL & EF). exists (map (fun p => (fst p, c * snd p)) L). split.
      - intros t c' Hi. apply in_map_iff in Hi as ([t' c''] & E & Hi). injection E as <- _. exact (HL _ _ Hi).
      - intros. rewrite opapp_mapc. now rewrite EF.
    Qed.
    Lemma exop_sub F G : exop F -> exop G -> exop (fun f x => F f x - G f x).
    Proof.
      intros HF HG. eapply exop_ext; [exact (exop_add _ _ HF (exop_scale (- (1)) _ HG))|]. intros. cbv beta. ring.
    Qed.
    Lemma exop_str s : exs U V s -> exop (appstr s).
    Proof. intros H. exists [(s, 1)]. split; [intros t c [E|[]]; injection E as <- _; exact H|]. intros. cbn [opapp]. ring. Qed.
    Lemma exop_mul F G : exop F -> exop G -> exop (fun f x => F (G f) x).
    Proof.
      intros (L & HL & EF) HG. eapply exop_ext; [|intros f x; symmetry; apply EF]. cbv beta. clear EF.
      induction L as [|[s c] L IH].
      - exists []. split; [intros t c []|reflexivity].
      - cbn [opapp]. apply (exop_add (fun f x => c * appstr s (G f) x)).
        + apply (exop_scale c (fun f x => appstr s (G f) x)). destruct HG as (M & HM & EG).
          exists (map (fun p => (s ++ fst p, snd p)) M). split.
          * intros t c' Hi. apply in_map_iff in Hi as ([t' c''] & E & Hi). injection E as <- _.
            pose proof (HL s c (or_introl eq_refl)) as [A B]. pose proof (HM _ _ Hi) as [A' B']. split.
            -- cbn [fst]. now rewrite app_length, Nat.even_add, A, A'.
            -- intros o Ho. apply in_app_or in Ho as [Ho|Ho]; [exact (B o Ho)|exact (B' o Ho)].
          * intros f x. rewrite <- appstr_opapp. apply appstr_ext. intros. apply EG.
        + apply IH. intros t c' Hi. apply (HL t c'). now right.
    Qed.
    Lemma exop_E p q : U (2 * p) -> U (2 * p + 1) -> V (2 * q) -> V (2 * q + 1) -> exop (Eact p q).
    Proof.
      intros H1 H2 H3 H4.
      eapply exop_ext; [apply (exop_add (appstr [(2 * p, true); (2 * q, false)]%nat) (appstr [(2 * p + 1, true); (2 * q + 1, false)]%nat))|];
        [apply exop_str; split; [reflexivity|]; intros o [<-|[<-|[]]]; assumption..|reflexivity].
    Qed.
  End Commute.

  (** ** Rotations between spaces *)
  Lemma Eact_kill ni na p q (f : amps) x : (p < ni /\ ni <= q \/ p < ni + na /\ ni + na <= q)%nat -> supp ni na f -> Eact p q f x = 0.
  Proof.
    intros H Hf. apply (Eact_zero (asp ni na) (asp_dec ni na)); [exact Hf|]. intros b y sg Hb [Y1 Y2] E.
    assert (Hc := fun i => actdet_chg _ _ _ _ i E). cbn [chg] in Hc. unfold dw in Hc.
    assert (occ x (2 * p + b) = true) as Op by (cbn [actdet fst snd] in E; destruct (occ x (2 * p + b)); auto; discriminate).
    assert (p <> q) as Npq by lia.
    pose proof (Hc (2 * p + b)%nat) as C1. pose proof (Hc (2 * q + b)%nat) as C2.
    rewrite Nat.eqb_refl in C1, C2. rewrite Op in C1.
    destruct (Nat.eqb_spec (2 * p + b) (2 * q + b)); [lia|]. destruct (Nat.eqb_spec (2 * q + b) (2 * p + b)); [lia|].
    destruct H as [H|H].
    - rewrite (Y1 (2 * p + b)%nat) in C1 by lia. cbn [b2z] in C1. lia.
    - rewrite (Y2 (2 * q + b)%nat) in C2 by lia. destruct (occ x (2 * q + b)); cbn [b2z] in C2; lia.
  Qed.

  Lemma Eact_supp1 ni na p q (f : amps) : supp ni na f -> supp1 ni na (Eact p q f).
  Proof.
    intros Hf x Hx. apply (Eact_zero (asp ni na) (asp_dec ni na)); [exact Hf|]. intros b y sg Hb [Y1 Y2] E. apply Hx.
    assert (Hc := fun i => actdet_chg _ _ _ _ i E). cbn [chg] in Hc. unfold dw in Hc.
    assert (forall i, (i < 2 * ni)%nat -> occ x i = false -> i = (2 * q + b)%nat) as A.
    { intros i Hi O. specialize (Hc i). rewrite O, (Y1 i Hi) in Hc. cbn [b2z] in Hc.
      destruct (Nat.eqb_spec i (2 * q + b)); [assumption|]. destruct (Nat.eqb_spec i (2 * p + b)); lia. }
    assert (forall i, (2 * (ni + na) <= i)%nat -> occ x i = true -> i = (2 * p + b)%nat) as B.
    { intros i Hi O. specialize (Hc i). rewrite O, (Y2 i Hi) in Hc. cbn [b2z] in Hc.
      destruct (Nat.eqb_spec i (2 * p + b)); [assumption|]. destruct (Nat.eqb_spec i (2 * q + b)); lia. }
    split; intros i i' Hi Hi' O O'.
    - rewrite (A i Hi O). symmetry. now apply A.
    - rewrite (B i Hi O). symmetry. now apply B.
  Qed.

  Lemma adjp_E n p q : (p < n)%nat -> (q < n)%nat -> adjp n (Eact (K:=K) p q) (Eact q p).
  Proof.
    intros Hp Hq u w. change (ip (2 * n) u (ek [(p, q)] w) = ip (2 * n) (Eact q p u) w).
    rewrite ip_ek by (intros pq [<-|[]]; auto). reflexivity.
  Qed.

  (** ** The Hamiltonian is symmetric *)
  Section Symmetric.
    Variables (half : K) (h : nat -> nat -> K) (g : nat -> nat -> nat -> nat -> K) (n : nat).
    Hypothesis Hh : forall p q, (p < n)%nat -> (q < n)%nat -> h p q = h q p.
    Hypothesis Hg : forall p q r s, (p < n)%nat -> (q < n)%nat -> (r < n)%nat -> (s < n)%nat -> g p q r s = g q p s r.

    Lemma ip_sumn_r m (u : amps) k (F : nat -> amps) : ip m u (fun x => sumn k (fun i => F i x)) = sumn k (fun i => ip m u (F i)).
    Proof. apply ip_lsum. Qed.
    Lemma Eop_adj p q (u v : amps) : (p < n)%nat -> (q < n)%nat -> ip (2 * n) u (Eop p q v) = ip (2 * n) v (Eop q p u).
    Proof.
      intros Hp Hq. transitivity (ip (2 * n) u (ek [(p, q)] v)).
      { apply ip_ext; [reflexivity|]. intros x. rewrite ek_one. apply Eop_Eact. }
      rewrite ip_ek by (intros pq [<-|[]]; auto). rewrite ip_sym. apply ip_ext; [reflexivity|]. intros x. cbn [map]; unfold swp; cbn [fst snd].
      rewrite ek_one. symmetry. apply Eop_Eact.
    Qed.
    Lemma eop_adj p q r s (u v : amps) : (p < n)%nat -> (q < n)%nat -> (r < n)%nat -> (s < n)%nat ->
      ip (2 * n) u (eop p q r s v) = ip (2 * n) v (eop q p s r u).
    Proof.
      intros Hp Hq Hr Hs. transitivity (ip (2 * n) u (ek [(p, q); (r, s)] v)).
      { apply ip_ext; [reflexivity|]. intros x. rewrite ek_two. apply eop_eact. }
      rewrite ip_ek by (intros pq [<-|[<-|[]]]; auto). rewrite ip_sym. apply ip_ext; [reflexivity|]. intros x. cbn [map]; unfold swp; cbn [fst snd].
      rewrite ek_two. symmetry. apply eop_eact.
    Qed.
    Lemma ip_Hact (u v : amps) : ip (2 * n) u (Hact half h g n v)
      = sumn n (fun p => sumn n (fun q => h p q * ip (2 * n) u (Eop p q v)))
      + half * sumn n (fun p => sumn n (fun q => sumn n (fun r => sumn n (fun s => g p q r s * ip (2 * n) u (eop p q r s v))))).
    Proof.
      unfold Hact. rewrite ip_add, ip_scale, !ip_sumn_r. f_equal; [|f_equal]; apply sumn_ext; intros p _; rewrite ip_sumn_r;
        apply sumn_ext; intros q _.
      - apply ip_scale.
      - rewrite ip_sumn_r. apply sumn_ext. intros r _. rewrite ip_sumn_r. apply sumn_ext. intros s _. apply ip_scale.
    Qed.
    Lemma Hact_sym (u v : amps) : ip (2 * n) u (Hact half h g n v) = ip (2 * n) v (Hact half h g n u).
    Proof.
      rewrite !ip_Hact. f_equal; [|f_equal].
      - rewrite sumn_swap. apply sumn_ext. intros p Hp. apply sumn_ext. intros q Hq. rewrite Hh, Eop_adj by auto. reflexivity.
      - rewrite sumn_swap. apply sumn_ext. intros p Hp. apply sumn_ext. intros q Hq. rewrite sumn_swap. apply sumn_ext. intros r Hr.
        apply sumn_ext. intros s Hs. rewrite Hg, eop_adj by auto. reflexivity.
    Qed.
    Lemma adjp_H : adjp n (Hact half h g n) (Hact half h g n).
    Proof. intros u w. rewrite Hact_sym. apply ip_sym. Qed.
  End Symmetric.

  (** ** Expansion of expectation values of commutators *)
  Lemma ip_supp m (Y : det -> Prop) (Ydec : forall y, Y y \/ ~ Y y) (u w w' : amps) : suppP Y u -> (forall x, Y x -> w x = w' x) -> ip m u w = ip m u w'.
  Proof.
    intros Hu H. apply lsum_ext. intros x _. destruct (Ydec x) as [Hx|Hx]; [now rewrite H|]. rewrite Hu by exact Hx. ring.
  Qed.
  Lemma ev_comm m (u : amps) F G : ip m u (comm F G u) = ip m u (F (G u)) - ip m u (G (F u)).
  Proof. rewrite <- ip_sub. reflexivity. Qed.
  Lemma ev_comm_l m (u : amps) X Y Z : linear X ->
    ip m u (comm X (comm Y Z) u) = ip m u (X (Y (Z u))) - ip m u (X (Z (Y u))) - ip m u (Y (Z (X u))) + ip m u (Z (Y (X u))).
  Proof.
    intros [_ Hs]. rewrite ev_comm. unfold comm.
    rewrite (ip_ext m u u (X _) (fun x => X (Y (Z u)) x - X (Z (Y u)) x)) by (auto; intros; apply Hs). rewrite !ip_sub. ring.
  Qed.
  Lemma ev_comm_r m (u : amps) X Y Z : linear Z ->
    ip m u (comm (comm X Y) Z u) = ip m u (X (Y (Z u))) - ip m u (Y (X (Z u))) - ip m u (Z (X (Y u))) + ip m u (Z (Y (X u))).
  Proof.
    intros [_ Hs]. rewrite ev_comm. unfold comm.
    rewrite (ip_ext m u u (Z _) (fun x => Z (X (Y u)) x - Z (Y (X u)) x)) by (auto; intros; apply Hs). rewrite !ip_sub. ring.
  Qed.
End Alg.
