(** Properties C09-C14: operators built by operators.py. *)
From Coq Require Import List Bool Arith NArith ZArith Lia Ring Sorted Permutation.
From Verif Require Import Base Fock FockMore FermiModel FermiProofs FermiAlgebra OperatorsModel
  OperatorsProofs OperatorsSums OperatorsActs OperatorsActive OperatorsGen OperatorsKeys.
Import ListNotations.

Section Props.
  Context {K : Type} {C : CRing K}.
  Local Open Scope K_scope.
  Add Ring KringPO : (@rth K C).
  Notation dict := (list (fstring * K)).

  Let TT : fstring -> Prop := fun _ => True.
  Lemma TT_PE p q : PE TT p q. Proof. split; exact I. Qed.
  Lemma TT_PEon l : PEon TT l. Proof. intros p q _ _. apply TT_PE. Qed.
  Let HT : stable TT := stable_true.

  (** Operators the library builds: duplicate-free normal-ordered non-empty
      strings, each with as many creators as annihilators. *)
  Definition library_op (D : dict) : Prop :=
    NoDup (dkeys D) /\
    Forall (fun k => normal k /\ k <> [] /\ length (filter snd k) = length (filter (fun o => negb (snd o)) k))
           (dkeys D).

  Lemma chg_one_count s :
    chg one_w s = (Z.of_nat (length (filter snd s)) - Z.of_nat (length (filter (fun o : fop => negb (snd o)) s)))%Z.
  Proof.
    induction s as [|[p a] s IH]; [reflexivity|]. cbn [chg filter snd]. rewrite IH.
    unfold one_w. destruct a; cbn [negb length]; rewrite Nat2Z.inj_succ; lia.
  Qed.

  Lemma library_OPS D : library_op D <-> OPS TT D.
  Proof.
    unfold library_op, OPS, okey. split; intros [H1 H2]; split; auto;
      (eapply Forall_impl; [|exact H2]); intros k; cbn beta; rewrite chg_one_count; unfold TT; intuition lia.
  Qed.

  Lemma rep_library r F : rep TT r F ->
    exists D, r = Ok D /\ library_op D /\ forall psi x, opapp D psi x = F psi x.
  Proof.
    intros (D & H1 & H2 & H3). exists D. split; auto. split; [now apply library_OPS|auto].
  Qed.

  Lemma library_rep D : library_op D -> rep TT (Ok D) (opapp D).
  Proof. intros H. exists D. split; auto. split; [now apply library_OPS|auto]. Qed.

  (** C09: action of E_pq. *)
  Theorem C09_Epq_action (p q : nat) : exact_small K ->
    exists D, Epq (K:=K) p q = Ok D /\ library_op D /\ forall psi x,
      opapp D psi x = appstr [(2 * p, true); (2 * q, false)]%nat psi x
                    + appstr [(2 * p + 1, true); (2 * q + 1, false)]%nat psi x.
  Proof. intros Hex. apply rep_library. apply (Epq_rep Hex TT HT p q (TT_PE p q)). Qed.

  (** C09: [E_pq, E_rs] = delta_qr E_ps - delta_ps E_rq. *)
  Theorem C09_Epq_commutator (p q r s : nat) : exact_small K ->
    exists Dc Dps Drq,
      commutator (K:=K) (Epq p q) (Epq r s) = Ok Dc /\ Epq (K:=K) p s = Ok Dps /\ Epq (K:=K) r q = Ok Drq /\
      forall psi x, opapp Dc psi x
        = (if Nat.eqb q r then opapp Dps psi x else 0) - (if Nat.eqb p s then opapp Drq psi x else 0).
  Proof.
    intros Hex.
    destruct (commutator_rep Hex TT HT _ _ _ _ (Epq_rep Hex TT HT p q (TT_PE p q)) (Epq_rep Hex TT HT r s (TT_PE r s)))
      as (Dc & E1 & _ & S1).
    destruct (Epq_rep Hex TT HT p s (TT_PE p s)) as (Dps & E2 & _ & S2).
    destruct (Epq_rep Hex TT HT r q (TT_PE r q)) as (Drq & E3 & _ & S3).
    exists Dc, Dps, Drq. do 3 (split; [assumption|]). intros psi x.
    rewrite S1, S2, S3, Eact_commutator. unfold kdelta.
    destruct (Nat.eqb q r), (Nat.eqb p s); ring.
  Qed.

  (** C09: E_pq^dagger = E_qp. *)
  Theorem C09_Epq_dagger (p q : nat) : exact_small K ->
    exists Dd Dqp, mdagger (Epq (K:=K) p q) = Ok Dd /\ Epq (K:=K) q p = Ok Dqp /\
      forall psi x, opapp Dd psi x = opapp Dqp psi x.
  Proof.
    intros Hex. destruct (Epq_dagger_rep Hex TT HT p q (TT_PE p q)) as (Dd & E1 & _ & S1).
    destruct (Epq_rep Hex TT HT q p (TT_PE q p)) as (Dq & E2 & _ & S2).
    exists Dd, Dq. do 2 (split; [assumption|]). intros psi x. now rewrite S1, S2.
  Qed.

  (** C09: e_pqrs is the sum over both spins of a+_p a+_r a_s a_q; it equals
      E_pq E_rs - delta_qr E_ps and is symmetric under exchange of the pairs. *)
  Theorem C09_epqrs_action (p q r s : nat) : exact_small K ->
    exists D Dx Dpq Drs Dps,
      epqrs (K:=K) p q r s = Ok D /\ epqrs (K:=K) r s p q = Ok Dx /\ library_op D /\
      Epq (K:=K) p q = Ok Dpq /\ Epq (K:=K) r s = Ok Drs /\ Epq (K:=K) p s = Ok Dps /\
      forall psi x,
        opapp D psi x =
          ksum (map (fun st : nat * nat => let (a, b) := st in
                 appstr [(2 * p + a, true); (2 * r + b, true); (2 * s + b, false); (2 * q + a, false)]%nat psi x)
               [(0, 0); (0, 1); (1, 0); (1, 1)]%nat) /\
        opapp D psi x = opapp Dpq (opapp Drs psi) x - (if Nat.eqb q r then opapp Dps psi x else 0) /\
        opapp D psi x = opapp Dx psi x.
  Proof.
    intros Hex.
    destruct (epqrs_rep Hex TT HT p q r s (TT_PE _ _) (TT_PE _ _) (TT_PE _ _)) as (D & E1 & O1 & S1).
    destruct (epqrs_rep Hex TT HT r s p q (TT_PE _ _) (TT_PE _ _) (TT_PE _ _)) as (Dx & E2 & _ & S2).
    destruct (Epq_rep Hex TT HT p q (TT_PE p q)) as (Dpq & E3 & _ & S3).
    destruct (Epq_rep Hex TT HT r s (TT_PE r s)) as (Drs & E4 & _ & S4).
    destruct (Epq_rep Hex TT HT p s (TT_PE p s)) as (Dps & E5 & _ & S5).
    exists D, Dx, Dpq, Drs, Dps. do 2 (split; [assumption|]). split; [now apply library_OPS|].
    do 3 (split; [assumption|]). intros psi x. rewrite S1. split; [|split].
    - cbn [map ksum]. rewrite !Nat.add_0_r. unfold eact. rewrite !quadop_str. ring.
    - rewrite (opapp_ext Dpq _ (Eact r s psi)) by (intros; apply S4). rewrite S3, S5, Eact_comp.
      unfold kdelta. destruct (Nat.eqb q r); ring.
    - rewrite S2. apply eact_exchange.
  Qed.

  (** Eminuspq is the difference. *)
  Theorem C09_Eminuspq (p q : nat) : exact_small K ->
    exists D Dpq Dqp, Eminuspq (K:=K) p q = Ok D /\ Epq (K:=K) p q = Ok Dpq /\ Epq (K:=K) q p = Ok Dqp /\
      forall psi x, opapp D psi x = opapp Dpq psi x - opapp Dqp psi x.
  Proof.
    intros Hex. destruct (Eminuspq_rep Hex TT HT p q (TT_PE p q) (TT_PE q p)) as (D & E1 & _ & S1).
    destruct (Epq_rep Hex TT HT q p (TT_PE q p)) as (Dq & E2 & _ & S2).
    destruct (Epq_rep Hex TT HT p q (TT_PE p q)) as (Dp & E3 & _ & S3).
    exists D, Dp, Dq. do 3 (split; [assumption|]). intros psi x. now rewrite S1, S2, S3.
  Qed.

  (** C10: commutators of arbitrary library operators. *)
  Theorem C10_commutator (A B : dict) : exact_small K -> library_op A -> library_op B ->
    exists D, commutator (Ok A) (Ok B) = Ok D /\ library_op D /\
      forall psi x, opapp D psi x = opapp A (opapp B psi) x - opapp B (opapp A psi) x.
  Proof.
    intros Hex HA HB. apply rep_library.
    apply (commutator_rep Hex TT HT _ _ _ _ (library_rep A HA) (library_rep B HB)).
  Qed.

  Theorem C10_double_commutator (half : K) (A B D : dict) :
    exact_small K -> library_op A -> library_op B -> library_op D ->
    exists N BD, commutator (Ok B) (Ok D) = Ok BD /\
      double_commutator half (Ok A) (Ok B) (Ok D) false = Ok N /\ library_op N /\
      forall psi x, opapp N psi x = opapp A (opapp BD psi) x - opapp BD (opapp A psi) x.
  Proof.
    intros Hex HA HB HD.
    destruct (C10_commutator B D Hex HB HD) as (BD & E1 & _ & S1).
    destruct (rep_library _ _ (double_commutator_rep Hex TT HT half _ _ _ _ _ _
                (library_rep A HA) (library_rep B HB) (library_rep D HD))) as (N & E2 & L2 & S2).
    exists N, BD. do 3 (split; [assumption|]). intros psi x. rewrite S2.
    rewrite S1.
    rewrite (opapp_ext A (opapp BD psi) (fun e => opapp B (opapp D psi) e + (- (1)) * opapp D (opapp B psi) e))
      by (intros d; rewrite S1; ring).
    rewrite (opapp_add A (opapp B (opapp D psi)) (fun e => - (1) * opapp D (opapp B psi) e)), opapp_scale. ring.
  Qed.

  Theorem C10_double_commutator_symmetrized (half : K) (A B D : dict) :
    exact_small K -> library_op A -> library_op B -> library_op D ->
    exists N, double_commutator half (Ok A) (Ok B) (Ok D) true = Ok N /\ library_op N /\
      forall psi x, opapp N psi x =
        opapp A (opapp B (opapp D psi)) x + opapp D (opapp B (opapp A psi)) x
        - half * (opapp A (opapp D (opapp B psi)) x + opapp B (opapp D (opapp A psi)) x
                  + opapp D (opapp A (opapp B psi)) x + opapp B (opapp A (opapp D psi)) x).
  Proof.
    intros Hex HA HB HD. apply rep_library.
    apply (double_commutator_sym_rep Hex TT HT half _ _ _ _ _ _ (library_rep A HA) (library_rep B HB) (library_rep D HD)).
  Qed.

  (** With half = 1/2 this is the average of [A,[B,D]] and [[A,B],D]. *)
  Theorem C10_symmetrized_is_average (half : K) (A B D : dict) :
    half + half = 1 ->
    exact_small K -> library_op A -> library_op B -> library_op D ->
    exists N L R AB, double_commutator half (Ok A) (Ok B) (Ok D) true = Ok N /\
      double_commutator half (Ok A) (Ok B) (Ok D) false = Ok L /\
      commutator (Ok A) (Ok B) = Ok AB /\ commutator (Ok AB) (Ok D) = Ok R /\
      forall psi x, opapp N psi x = half * (opapp L psi x + opapp R psi x).
  Proof.
    intros Hh Hex HA HB HD.
    destruct (C10_double_commutator_symmetrized half A B D Hex HA HB HD) as (N & E1 & _ & S1).
    destruct (rep_library _ _ (double_commutator_rep Hex TT HT half _ _ _ _ _ _
                (library_rep A HA) (library_rep B HB) (library_rep D HD))) as (L & E2 & _ & S2).
    destruct (C10_commutator A B Hex HA HB) as (AB & E3 & LAB & S3).
    destruct (C10_commutator AB D Hex LAB HD) as (R & E4 & _ & S4).
    exists N, L, R, AB. do 4 (split; [assumption|]). intros psi x.
    rewrite S1, S2, S4, S3.
    rewrite (opapp_ext D (opapp AB psi) (fun e => opapp A (opapp B psi) e + (- (1)) * opapp B (opapp A psi) e))
      by (intros d; rewrite S3; ring).
    rewrite (opapp_add D (opapp A (opapp B psi)) (fun e => - (1) * opapp B (opapp A psi) e)), opapp_scale.
    set (a := opapp A (opapp B (opapp D psi)) x). set (b := opapp D (opapp B (opapp A psi)) x).
    transitivity ((half + half) * a + (half + half) * b
        - half * (opapp A (opapp D (opapp B psi)) x + opapp B (opapp D (opapp A psi)) x
                  + opapp D (opapp A (opapp B psi)) x + opapp B (opapp A (opapp D psi)) x)); [rewrite Hh; ring|ring].
  Qed.

  (** C11: G1..G6 and every higher rank.  The excitation string is
      a+_{a1} ... a+_{an} a_{in} ... a_{i1}. *)
  Theorem C11_generator_action (iocc avirt : list nat) :
    exact_small K -> iocc <> [] -> length avirt = length iocc ->
    exists D, Gn (K:=K) iocc avirt true = Ok D /\ library_op D /\
      forall psi x,
        let s := map (fun a => (a, true)) avirt ++ map (fun i => (i, false)) (rev iocc) in
        opapp D psi x = appstr s psi x - appstr (adjstr s) psi x.
  Proof.
    intros Hex H1 H2. apply rep_library. apply (Gn_anti_rep Hex TT HT iocc avirt H1 H2 I).
  Qed.

  Theorem C11_generator_antihermitian (iocc avirt : list nat) :
    exact_small K -> iocc <> [] -> length avirt = length iocc ->
    exists D Dd, Gn (K:=K) iocc avirt true = Ok D /\ op_dagger D = Ok Dd /\
      (forall x y, mel D x y = - mel D y x) /\
      forall psi x, opapp Dd psi x = - opapp D psi x.
  Proof.
    intros Hex H1 H2.
    destruct (Gn_anti_rep Hex TT HT iocc avirt H1 H2 I) as (D & E1 & O1 & S1).
    destruct (rep_dagger_mel Hex TT HT D O1) as (Dd & E2 & _ & S2).
    assert (Hm : forall x y, mel D x y = - mel D y x).
    { intros x y. unfold mel. rewrite !S1. apply Tact_adj. }
    exists D, Dd. do 3 (split; [assumption|]). intros psi x.
    rewrite <- op_neg_opapp. apply mel_determines. intros u v.
    rewrite S2, Hm. unfold mel. now rewrite op_neg_opapp.
  Qed.

  Theorem C11_generator_cube (iocc avirt : list nat) :
    exact_small K -> iocc <> [] -> length avirt = length iocc -> NoDup (iocc ++ avirt) ->
    exists D D3, Gn (K:=K) iocc avirt true = Ok D /\
      mmul (mmul (Ok D) (Ok D)) (Ok D) = Ok D3 /\
      forall psi x, opapp D3 psi x = - opapp D psi x /\
                    opapp D (opapp D (opapp D psi)) x = - opapp D psi x.
  Proof.
    intros Hex H1 H2 Hn.
    destruct (Gn_anti_rep Hex TT HT iocc avirt H1 H2 I) as (D & E1 & O1 & S1).
    assert (HD : library_op D) by now apply library_OPS.
    destruct (mul3_rep Hex TT HT _ _ _ _ _ _ (library_rep D HD) (library_rep D HD) (library_rep D HD)) as (D3 & E3 & _ & S3).
    exists D, D3. do 2 (split; [assumption|]). intros psi x.
    assert (Hc : opapp D (opapp D (opapp D psi)) x = - opapp D psi x).
    { rewrite (opapp_ext D (opapp D (opapp D psi)) (opapp D (Tact (gstr iocc avirt) psi))).
      2: { intros d. apply opapp_ext. intros e. apply S1. }
      rewrite (opapp_ext D (opapp D (Tact (gstr iocc avirt) psi)) (Tact (gstr iocc avirt) (Tact (gstr iocc avirt) psi)))
        by (intros; apply S1).
      rewrite !S1. apply Tact_cube.
      - now apply gstr_nodup.
      - intros E. apply (f_equal (@length _)) in E. rewrite gstr_length in E. destruct iocc; [congruence|]. simpl in E. lia. }
    split; [rewrite S3; exact Hc|exact Hc].
  Qed.

  (** C12: conservation of the numbers of alpha and beta electrons. *)
  Definition conserves (n : nat) (r : Res dict) : Prop :=
    exists D, r = Ok D /\ forall x y,
      (nalpha n x <> nalpha n y \/ nbeta n x <> nbeta n y)%nat -> mel D x y = 0.

  Lemma kok_conserves n r : kok (bal n) r -> conserves n r.
  Proof. intros (D & E & H). exists D. split; auto. intros x y. now apply bal_conserves. Qed.

  Theorem C12_singlet_operators_conserve (n p q r s : nat) :
    (p < n -> q < n -> r < n -> s < n ->
    conserves n (Epq p q) /\ conserves n (Eminuspq p q) /\ conserves n (epqrs p q r s))%nat.
  Proof.
    intros Hp Hq Hr Hs. split; [|split]; apply kok_conserves.
    - apply kok_Epq; [apply bal_stable|now apply PE_bal].
    - apply kok_sub; apply kok_Epq; (apply bal_stable || now apply PE_bal).
    - apply kok_epqrs; (apply bal_stable || now apply PE_bal).
  Qed.

  Theorem C12_spin_adapted_generators_conserve (n : nat) (s2 f1 f2 f4 f5 : K) (i j a b case : nat) (ah : bool) :
    (i < n -> j < n -> a < n -> b < n -> 1 <= case <= 5 ->
    conserves n (G1_sa s2 i a ah) /\ conserves n (G2_sa f1 f2 f4 f5 i j a b case ah))%nat.
  Proof.
    intros Hi Hj Ha Hb Hc. split; apply kok_conserves.
    - apply kok_G1_sa; [apply bal_stable|now apply PE_bal].
    - apply kok_G2_sa; (apply bal_stable || assumption || now apply PE_bal).
  Qed.

  Theorem C12_hamiltonians_conserve (half : K) h g (ni na nv : nat) :
    conserves (ni + na + nv) (hamiltonian_full_space half h g (ni + na + nv)) /\
    conserves (ni + na) (hamiltonian_0i_0a half h g ni na) /\
    conserves (ni + na + nv) (hamiltonian_1i_1a half h g ni na nv) /\
    conserves (ni + na + nv) (hamiltonian_2i_2a half h g ni na nv).
  Proof.
    repeat split; apply kok_conserves.
    - apply kok_hamiltonian_full; [apply bal_stable|apply PEon_bal].
    - apply kok_hamiltonian_0i_0a; [apply bal_stable|apply PEon_bal].
    - apply kok_hamiltonian_1i_1a; [apply bal_stable|apply PEon_bal].
    - apply kok_hamiltonian_2i_2a; [apply bal_stable|apply PEon_bal].
  Qed.

  Theorem C12_property_operators_conserve h (ni na nv : nat) :
    conserves (ni + na + nv) (one_elec_op_full_space h (ni + na + nv)) /\
    conserves (ni + na) (one_elec_op_0i_0a h ni na) /\
    conserves (ni + na + nv) (one_elec_op_1i_1a h ni na nv).
  Proof.
    repeat split; apply kok_conserves.
    - apply kok_one_elec_full; [apply bal_stable|apply PEon_bal].
    - apply kok_one_elec_0i_0a; [apply bal_stable|apply PEon_bal].
    - apply kok_one_elec_1i_1a; [apply bal_stable|apply PEon_bal].
  Qed.

  (** Spin-orbital generators: balanced when as many alpha (even) orbitals are
      emptied as are filled. *)
  Theorem C12_generators_conserve (n : nat) (iocc avirt : list nat) (ah : bool) :
    iocc <> [] -> length avirt = length iocc ->
    length (filter Nat.even avirt) = length (filter Nat.even iocc) ->
    (forall p, In p (iocc ++ avirt) -> p < 2 * n)%nat ->
    conserves n (Gn iocc avirt ah).
  Proof.
    intros H1 H2 H3 H4. apply kok_conserves, kok_Gn; auto; [apply bal_stable|].
    assert (Hc : forall w, (forall l, fold_right Z.add 0%Z (map w (rev l)) = fold_right Z.add 0%Z (map w l)) ->
       chg w (gstr iocc avirt) = (fold_right Z.add 0%Z (map w avirt) - fold_right Z.add 0%Z (map w iocc))%Z).
    { intros w Hr. unfold gstr. rewrite chg_app. change (map (fun a => (a, true)) avirt) with (creators avirt).
      rewrite chg_creators, <- (Hr iocc). clear. induction (rev iocc) as [|i l IH]; simpl in *; lia. }
    assert (Hr : forall (w : nat -> Z) (l : list nat), fold_right Z.add 0%Z (map w (rev l)) = fold_right Z.add 0%Z (map w l)).
    { intros w l. rewrite map_rev. generalize (map w l) as m. clear. intros m.
      assert (G : forall a b, fold_right Z.add 0%Z (a ++ b) = (fold_right Z.add 0 a + fold_right Z.add 0 b)%Z)
        by (induction a; simpl; intros; [|rewrite IHa]; lia).
      induction m as [|z m IH]; simpl; auto. rewrite G, IH. simpl. lia. }
    assert (Ha : forall l, fold_right Z.add 0%Z (map alpha_w l) = Z.of_nat (length (filter Nat.even l))).
    { induction l as [|z l IH]; auto. cbn [map fold_right filter]. rewrite IH. unfold alpha_w.
      destruct (Nat.even z); cbn [length]; lia. }
    assert (Hb : forall l, fold_right Z.add 0%Z (map beta_w l) = (Z.of_nat (length l) - Z.of_nat (length (filter Nat.even l)))%Z).
    { induction l as [|z l IH]; auto. cbn [map fold_right filter]. rewrite IH. unfold beta_w.
      destruct (Nat.even z); cbn [length]; lia. }
    split; [split|].
    - rewrite Hc by apply Hr. rewrite !Ha. lia.
    - rewrite Hc by apply Hr. rewrite !Hb. lia.
    - intros o Ho. unfold gstr in Ho. apply in_app_or in Ho.
      destruct Ho as [Ho|Ho]; apply in_map_iff in Ho; destruct Ho as (p & <- & Hp); simpl; apply H4, in_or_app; auto.
      left. now apply in_rev.
  Qed.

  (** C13. *)
  Definition Eop (p q : nat) (psi : amps) : amps := fun x =>
    appstr [(2 * p, true); (2 * q, false)]%nat psi x + appstr [(2 * p + 1, true); (2 * q + 1, false)]%nat psi x.
  Definition eop (p q r s : nat) (psi : amps) : amps := fun x =>
    Eop p q (Eop r s psi) x - (if Nat.eqb q r then Eop p s psi x else 0).

  Lemma Eop_Eact p q (psi : amps) x : Eop p q psi x = Eact p q psi x.
  Proof. reflexivity. Qed.
  Lemma eop_eact p q r s (psi : amps) x : eop p q r s psi x = eact p q r s psi x.
  Proof.
    unfold eop. change (Eact p q (Eact r s psi) x - (if Nat.eqb q r then Eact p s psi x else 0) = eact p q r s psi x).
    rewrite Eact_comp. unfold kdelta. destruct (Nat.eqb q r); ring.
  Qed.

  Definition sumn (n : nat) (F : nat -> K) : K := lsum (seq 0 n) F.

  Definition Hact (half : K) h g (n : nat) (psi : amps) : amps := fun x =>
    sumn n (fun p => sumn n (fun q => h p q * Eop p q psi x))
    + half * sumn n (fun p => sumn n (fun q => sumn n (fun r => sumn n (fun s =>
               g p q r s * eop p q r s psi x)))).

  Lemma Hact_lsum half h g n psi x :
    lsum (pairs (seq 0 n) (seq 0 n)) (fun pq => oneF h pq psi x)
    + lsum (quads (seq 0 n)) (fun t => twoF half g t psi x) = Hact half h g n psi x.
  Proof.
    unfold Hact, sumn. f_equal.
    - unfold pairs. rewrite lsum_flat_map. apply lsum_ext. intros p _. rewrite lsum_map. reflexivity.
    - unfold quads. rewrite lsum_flat_map. unfold pairs at 1. rewrite lsum_flat_map.
      rewrite <- lsum_scale. apply lsum_ext. intros p _. rewrite lsum_map.
      rewrite <- lsum_scale. apply lsum_ext. intros q _. rewrite lsum_map. unfold pairs.
      rewrite lsum_flat_map. rewrite <- lsum_scale. apply lsum_ext. intros r _. rewrite lsum_map.
      rewrite <- lsum_scale. apply lsum_ext. intros s _. unfold twoF. cbn [fst snd]. rewrite eop_eact. ring.
  Qed.

  Theorem C13_hamiltonian_action (half : K) h g n : exact_small K ->
    exists D, hamiltonian_full_space half h g n = Ok D /\ library_op D /\
      forall psi x, opapp D psi x = Hact half h g n psi x.
  Proof.
    intros Hex. apply rep_library. eapply rep_ext; [apply (hamiltonian_full_space_rep Hex TT HT half h g n (TT_PEon _))|].
    intros f x. apply Hact_lsum.
  Qed.

  Lemma sumn_swap n (F : nat -> nat -> K) :
    sumn n (fun p => sumn n (fun q => F p q)) = sumn n (fun p => sumn n (fun q => F q p)).
  Proof. unfold sumn. apply (lsum_swap (seq 0 n) (seq 0 n)). Qed.
  Lemma sumn_ext n (F G : nat -> K) : (forall p, (p < n)%nat -> F p = G p) -> sumn n F = sumn n G.
  Proof. intros H. apply lsum_ext. intros i Hi. apply in_seq in Hi. apply H. lia. Qed.

  Theorem C13_hamiltonian_hermitian (half : K) h g n : exact_small K ->
    (forall p q, p < n -> q < n -> h p q = h q p)%nat ->
    (forall p q r s, p < n -> q < n -> r < n -> s < n -> g p q r s = g q p s r)%nat ->
    exists D, hamiltonian_full_space half h g n = Ok D /\ forall x y, mel D x y = mel D y x.
  Proof.
    intros Hex Hh Hg. destruct (C13_hamiltonian_action half h g n Hex) as (D & E & _ & S).
    exists D. split; auto. intros x y. unfold mel. rewrite !S. unfold Hact. f_equal; [|f_equal].
    - rewrite sumn_swap. apply sumn_ext. intros p Hp. apply sumn_ext. intros q Hq.
      rewrite Hh by auto. f_equal. rewrite !Eop_Eact. apply Eact_adj.
    - rewrite sumn_swap. apply sumn_ext. intros p Hp. apply sumn_ext. intros q Hq.
      rewrite sumn_swap. apply sumn_ext. intros r Hr. apply sumn_ext. intros s Hs.
      rewrite (Hg q p s r) by auto. f_equal. rewrite !eop_eact. apply eact_adj.
  Qed.

  (** C14: on states of the active space (inactive orbitals filled, virtual
      orbitals empty) both Hamiltonians have the same projection onto the active
      space, hence the same expectation value. *)
  Theorem C14_active_hamiltonian_projection (half : K) h g ni na nv : exact_small K ->
    exists D0 D, hamiltonian_0i_0a half h g ni na = Ok D0 /\
      hamiltonian_full_space half h g (ni + na + nv) = Ok D /\
      forall psi x, asp ni na x -> (forall y, ~ asp ni na y -> psi y = 0) ->
        opapp D0 psi x = opapp D psi x.
  Proof.
    intros Hex.
    destruct (hamiltonian_0i_0a_rep Hex TT HT half h g ni na (TT_PEon _)) as (D0 & E0 & _ & S0).
    destruct (hamiltonian_full_space_rep Hex TT HT half h g (ni + na + nv) (TT_PEon _)) as (D & E & _ & S).
    exists D0, D. do 2 (split; [assumption|]). intros psi x Hx Hpsi. rewrite S0, S.
    now apply active_equal.
  Qed.

  (** Expectation value of a term list over a finite list of determinants. *)
  Definition expect (dets : list det) (D : dict) (psi : amps) : K :=
    lsum dets (fun x => psi x * opapp D psi x).

  Theorem C14_active_hamiltonian_expectation (half : K) h g ni na nv : exact_small K ->
    exists D0 D, hamiltonian_0i_0a half h g ni na = Ok D0 /\
      hamiltonian_full_space half h g (ni + na + nv) = Ok D /\
      forall psi dets, (forall y, ~ asp ni na y -> psi y = 0) -> expect dets D0 psi = expect dets D psi.
  Proof.
    intros Hex. destruct (C14_active_hamiltonian_projection half h g ni na nv Hex) as (D0 & D & E0 & E & H).
    exists D0, D. do 2 (split; [assumption|]). intros psi dets Hpsi. unfold expect. apply lsum_ext.
    intros x _. destruct (asp_dec ni na x) as [Hx|Hx]; [now rewrite H|].
    rewrite Hpsi by auto. ring.
  Qed.
End Props.

(** Non-vacuity: concrete instances over the integers (half = 1 for an integer
    ring stands for a doubled two-electron part). *)
Example C11_example_hypotheses :
  exact_small Z /\ [0; 2]%nat <> [] /\ length [5; 7]%nat = length [0; 2]%nat /\ NoDup ([0; 2] ++ [5; 7])%nat.
Proof.
  split; [exact Z_exact_small|]. split; [discriminate|]. split; [reflexivity|].
  simpl. repeat constructor; simpl; intuition discriminate.
Qed.
Example C11_example_double :
  G2 (K:=Z) 0 2 5 7 true =
  Ok [([(7, true); (5, true); (2, false); (0, false)], (-1)%Z); ([(2, true); (0, true); (7, false); (5, false)], (1)%Z)].
Proof. vm_compute. reflexivity. Qed.
Example C09_example_epqrs :
  epqrs (K:=Z) 0 1 1 0 =
  Ok [([(2, true); (0, true); (2, false); (0, false)], (1)%Z); ([(2, true); (1, true); (3, false); (0, false)], (1)%Z);
      ([(3, true); (0, true); (2, false); (1, false)], (1)%Z); ([(3, true); (1, true); (3, false); (1, false)], (1)%Z)].
Proof. vm_compute. reflexivity. Qed.

(** One inactive, one active, one virtual orbital; integrals without zeros. *)
Definition exh (p q : nat) : Z := Z.of_nat (1 + p + q).
Definition exg (p q r s : nat) : Z := Z.of_nat (2 + (p + q) * (r + s)).
Definition exH0 := Eval vm_compute in hamiltonian_0i_0a 1%Z exh exg 1 1.
Definition exH := Eval vm_compute in hamiltonian_full_space 1%Z exh exg 3.
Example C13_C14_example :
  exists D0 D, exH0 = Ok D0 /\ exH = Ok D /\ mel D0 7%N 7%N = 11%Z /\ mel D 7%N 7%N = 11%Z /\
    mel D 7%N 19%N <> 0%Z /\ (length D0 < length D)%nat /\ asp 1 1 7%N.
Proof.
  unfold exH0, exH. eexists. eexists. split; [reflexivity|]. split; [reflexivity|].
  split; [vm_compute; reflexivity|]. split; [vm_compute; reflexivity|]. split; [vm_compute; discriminate|].
  split; [vm_compute; lia|]. split.
  - intros [|[|p]] H; [reflexivity|reflexivity|lia].
  - intros p Hp. do 4 (destruct p as [|p]; [lia|]). unfold occ. apply N.bits_above_log2. simpl. lia.
Qed.
Example C12_example : nalpha 3 7%N = 2%nat /\ nbeta 3 7%N = 1%nat /\ nalpha 3 19%N = 2%nat /\ nbeta 3 11%N = 2%nat.
Proof. vm_compute. auto. Qed.
Example C10_example : library_op [([(2, true); (0, false)], (1)%Z)] /\
  commutator (K:=Z) (Ok [([(2, true); (0, false)], (1)%Z)]) (Ok [([(0, true); (2, false)], (1)%Z)]) =
  Ok [([(2, true); (2, false)], (1)%Z); ([(0, true); (0, false)], (-1)%Z)].
Proof.
  split; [|vm_compute; reflexivity]. split; [repeat constructor; auto|].
  constructor; [|constructor]. split; [|split; [discriminate|reflexivity]].
  exists [2], [0]. split; [reflexivity|split; repeat constructor].
Qed.

Print Assumptions C09_Epq_action.
Print Assumptions C09_Epq_commutator.
Print Assumptions C09_Epq_dagger.
Print Assumptions C09_epqrs_action.
Print Assumptions C09_Eminuspq.
Print Assumptions C10_commutator.
Print Assumptions C10_double_commutator.
Print Assumptions C10_double_commutator_symmetrized.
Print Assumptions C10_symmetrized_is_average.
Print Assumptions C11_generator_action.
Print Assumptions C11_generator_antihermitian.
Print Assumptions C11_generator_cube.
Print Assumptions C12_singlet_operators_conserve.
Print Assumptions C12_spin_adapted_generators_conserve.
Print Assumptions C12_hamiltonians_conserve.
Print Assumptions C12_property_operators_conserve.
Print Assumptions C12_generators_conserve.
Print Assumptions C13_hamiltonian_action.
Print Assumptions C13_hamiltonian_hermitian.
Print Assumptions C14_active_hamiltonian_projection.
Print Assumptions C14_active_hamiltonian_expectation.
