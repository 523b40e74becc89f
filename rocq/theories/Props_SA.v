(** C89: the state-averaged wave function: energies, subspace diagonalisation,
    transition properties and the gradient of the ansatz parameters. *)
From Coq Require Import List Bool Arith NArith ZArith Reals Lra Lia Permutation Sorted.
From Verif Require Import Base RRing Fock FockMore FermiModel OperatorsModel OperatorsProofs OperatorsSums OperatorsActs OperatorsActive OperatorsKeys OperatorsOne Props_Operators
  CIModel StateModel StateProofs StateMore Props_State GateAlgebra UPSModel UPSProofs UPSSingle UPSState UPSAnsatz UPSRows Props_UPS
  FockInner DensityModel DensityProofs DensityExpect DensityResponse DensityState LRAlgebra WaveModel GradProofs Props_Gradient Props_Excited SAModel.
Import ListNotations.
Local Open Scope R_scope.

Lemma fill_sym (val : nat -> nat -> Res R) (S : nat -> nat -> R) : forall l M0,
  (forall i j, In (i, j) l -> val i j = Ok (S i j) /\ S i j = S j i) ->
  exists M, fold_left (fun acc (ij : nat * nat) => bind acc (fun M => let '(i, j) := ij in
      if Nat.ltb i j then Ok M else bind (val i j) (fun v => Ok (put2 (put2 M j i v) i j v)))) l (Ok M0) = Ok M /\
    (forall a b, M0 a b = S a b -> M a b = S a b) /\ forall a b, (b <= a)%nat -> In (a, b) l -> M a b = S a b /\ M b a = S b a.
Proof.
  induction l as [|[i j] l IH]; intros M0 H.
  - exists M0. split; [reflexivity|]. split; [auto|]. intros a b _ [].
  - cbn [fold_left bind]. destruct (H i j (or_introl eq_refl)) as [E Sy]. destruct (Nat.ltb_spec i j) as [Hij|Hij].
    + destruct (IH M0 (fun a b Hab => H a b (or_intror Hab))) as (M & EM & P1 & P2). exists M. split; [exact EM|]. split; [exact P1|].
      intros a b Hab [Q|Q]; [injection Q as -> ->; lia|auto].
    + rewrite E. cbn [bind]. set (M1 := put2 (put2 M0 j i (S i j)) i j (S i j)).
      destruct (IH M1 (fun a b Hab => H a b (or_intror Hab))) as (M & EM & P1 & P2). exists M. split; [exact EM|].
      assert (W : forall a b, M0 a b = S a b \/ (a = i /\ b = j) \/ (a = j /\ b = i) -> M1 a b = S a b).
      { intros a b Q. unfold M1, put2. destruct (Nat.eqb_spec a i), (Nat.eqb_spec b j); subst; cbn [andb]; auto;
          repeat match goal with |- context [Nat.eqb ?x ?y] => destruct (Nat.eqb_spec x y); subst; cbn [andb] end; auto; try congruence; destruct Q as [Q|[[? ?]|[? ?]]]; congruence. }
      split; [intros a b Q; apply P1, W; auto|]. intros a b Hab [Q|Q]; [injection Q as -> ->|auto]. split; apply P1, W; auto.
Qed.
Lemma fill_all (val : nat -> nat -> Res R) (S : nat -> nat -> R) : forall l M0,
  (forall i j, In (i, j) l -> val i j = Ok (S i j)) ->
  exists M, fold_left (fun acc (ij : nat * nat) => bind acc (fun M => let '(i, j) := ij in bind (val i j) (fun v => Ok (put2 M i j v)))) l (Ok M0) = Ok M /\
    (forall a b, M0 a b = S a b -> M a b = S a b) /\ forall a b, In (a, b) l -> M a b = S a b.
Proof.
  induction l as [|[i j] l IH]; intros M0 H.
  - exists M0. split; [reflexivity|]. split; [auto|]. intros a b [].
  - cbn [fold_left bind]. rewrite (H i j (or_introl eq_refl)). cbn [bind].
    destruct (IH (put2 M0 i j (S i j)) (fun a b Hab => H a b (or_intror Hab))) as (M & EM & P1 & P2). exists M. split; [exact EM|].
    assert (W : forall a b, M0 a b = S a b \/ (a = i /\ b = j) -> put2 M0 i j (S i j) a b = S a b).
    { intros a b Q. unfold put2. destruct (Nat.eqb_spec a i), (Nat.eqb_spec b j); subst; cbn [andb]; auto; destruct Q as [Q|[? ?]]; congruence. }
    split; [intros a b Q; apply P1, W; auto|]. intros a b [Q|Q]; [injection Q as -> ->|auto]. apply P1, W; auto.
Qed.
Lemma frs (l : list nat) (F : nat -> R) : fold_right Rplus 0 (map F l) = lsum l F.
Proof. induction l as [|x l IH]; [reflexivity|]. cbn [map fold_right]. rewrite lsum_cons, IH. reflexivity. Qed.

Lemma lsumR_scale {J} (c : R) (l : list J) F : lsum l (fun i => c * F i) = c * lsum l F.
Proof. exact (lsum_scale l c F). Qed.
Lemma lsumR_add {J} (l : list J) (F G : J -> R) : lsum l (fun i => F i + G i) = lsum l F + lsum l G.
Proof. exact (lsum_add l F G). Qed.
Lemma lsumR_swap {J L} (l : list J) (m : list L) (F : J -> L -> R) : lsum l (fun i => lsum m (fun j => F i j)) = lsum m (fun j => lsum l (fun i => F i j)).
Proof. exact (lsum_swap l m F). Qed.

(** What is assumed of the eigensolver and of [np.argsort] for [n] states: as many
    pairs as rows, each a solution with a normalised vector; the permutation
    returned puts the numbers in ascending order. *)
Definition eig_solves (eig : (nat -> nat -> R) -> nat -> list (R * (nat -> R))) (n : nat) (M : nat -> nat -> R) : Prop :=
  length (eig M n) = n /\
  forall w v, In (w, v) (eig M n) -> (forall i, (i < n)%nat -> lsum (seq 0 n) (fun j => M i j * v j) = w * v i) /\ lsum (seq 0 n) (fun i => v i * v i) = 1.
Definition argsort_sound (argsort : list R -> list nat) (n : nat) : Prop :=
  forall l, length l = n -> Permutation (argsort l) (seq 0 n) /\ StronglySorted Rle (map (fun k => nth k l 0) (argsort l)).

Section SA.
  Variables (tiny tiny_le : R -> bool) (sp : space) (th : threads).
  Hypothesis HS : sector tiny sp th.
  Notation N := (sp_ni sp + sp_na sp + sp_nv sp)%nat.
  Notation d := (dim (sp_ci sp)).
  Notation fk := (fket sp).
  Notation half := (1 / 2).
  Notation I u w := (ip (2 * N) u w).
  Variables (h : nat -> nat -> R) (g : nat -> nat -> nat -> nat -> R).
  Hypothesis Hh : forall p q, (p < N)%nat -> (q < N)%nat -> h p q = h q p.
  Hypothesis Hg : forall p q r s, (p < N)%nat -> (q < N)%nat -> (r < N)%nat -> (s < N)%nat -> g p q r s = g q p s r.
  Notation H := (Hact half h g N).

  (** The state with the coefficients [c] over the rows of [ci]. *)
  Definition sket (ci : list (list R)) (c : nat -> R) : det -> R := fun x => lsum (seq 0 (length ci)) (fun i => c i * fk (nth i ci []) x).

  Lemma ham_ev : exists D, hamiltonian_0i_0a half h g (sp_ni sp) (sp_na sp) = Ok D /\
    forall u v, length u = d -> length v = d -> ev_nofold tiny sp th (op_fold (sp_ni sp) (sp_na sp) (sp_nv sp) D) u v = Ok (I (fk u) (H (fk v))).
  Proof.
    destruct (ham_element tiny sp th HS h g (repeat 0 d) (repeat_length _ _)) as (D & _ & E1 & _). exists D. split; [exact E1|]. intros u v Hu Hv.
    destruct (ham_element tiny sp th HS h g v Hv) as (D' & out & E1' & E2 & L & V). assert (D' = D) as -> by congruence.
    unfold ev_nofold, expectation_value. transitivity (bind (propagate_state tiny sp th true false no_ansatz [SOp D] v) (fun op_ket => Ok (dot u op_ket))); [reflexivity|].
    rewrite E2. cbn [bind]. f_equal. now apply V.
  Qed.
  Lemma one_ev (x : nat -> nat -> R) : exists D, one_elec_op_0i_0a x (sp_ni sp) (sp_na sp) = Ok D /\
    forall u v, length u = d -> length v = d -> ev_nofold tiny sp th (op_fold (sp_ni sp) (sp_na sp) (sp_nv sp) D) u v = Ok (I (fk u) (Xact x N (fk v))).
  Proof.
    destruct HS as [Ht Hp (na & nb & Hi) Hth].
    destruct (one_elec_0i_0a_rep R_exact_small (bal N) (bal_stable N) x (sp_ni sp) (sp_na sp) (sp_nv sp)
         (fun p q Hp Hq => PE_bal N p q (ltac:(apply in_seq in Hp; lia)) (ltac:(apply in_seq in Hq; lia)))) as (F0 & (D & E0 & O0 & A0) & B0).
    exists D. split; [exact E0|]. intros u v Hu Hv.
    destruct (@apply_nth R R_CRing tiny sp th false no_ansatz na nb Ht Hp Hi Hth D v O0 Hv) as (out & Eo & Lo & Hn).
    unfold ev_nofold, expectation_value. transitivity (bind (propagate_state tiny sp th true false no_ansatz [SOp D] v) (fun op_ket => Ok (dot u op_ket))); [reflexivity|].
    rewrite Eo. cbn [bind]. f_equal. rewrite (@dot_ip R R_CRing sp na nb Hp Hi u (opapp D (fk v)) out Hu Lo Hn).
    unfold ip. apply lsum_ext. intros e _. destruct (asp_dec (sp_ni sp) (sp_na sp) e) as [He|He].
    - rewrite A0, (B0 _ e He (fket_supp sp Hp v)). f_equal. apply (@Mu_onesum R R_CRing sp x).
    - rewrite (fket_supp sp Hp u e He). cbn [rmul R_CRing]. rewrite !Rmult_0_l. reflexivity.
  Qed.

  Variable ci : list (list R).
  Hypothesis Hci : forall row, In row ci -> length row = d.
  Notation n := (length ci).
  Notation row i := (nth i ci []).
  Let Lrow i : (i < n)%nat -> length (row i) = d.
  Proof. intros Hi. apply Hci, nth_In, Hi. Qed.
  Let AH : adjp N H H := adjp_H half h g N Hh Hg.

  Lemma in_square i j : In (i, j) (list_prod (seq 0 n) (seq 0 n)) <-> (i < n)%nat /\ (j < n)%nat.
  Proof. rewrite in_prod_iff, !in_seq. lia. Qed.
  Lemma state_H_ok : exists D S, hamiltonian_0i_0a half h g (sp_ni sp) (sp_na sp) = Ok D /\ state_H tiny sp th (op_fold (sp_ni sp) (sp_na sp) (sp_nv sp) D) ci = Ok S /\
    forall i j, (i < n)%nat -> (j < n)%nat -> S i j = I (fk (row i)) (H (fk (row j))).
  Proof.
    destruct ham_ev as (D & ED & V). exists D. set (S := fun i j => I (fk (row i)) (H (fk (row j)))).
    destruct (fill_sym (fun i j => ev_nofold tiny sp th (op_fold (sp_ni sp) (sp_na sp) (sp_nv sp) D) (row i) (row j)) S (list_prod (seq 0 n) (seq 0 n)) (fun _ _ => 0)) as (M & EM & _ & P).
    - intros i j Hij. apply in_square in Hij as [Hi Hj]. split; [apply V; auto|]. unfold S. rewrite (AH (fk (row i))). apply ip_sym.
    - exists M. split; [exact ED|]. split; [exact EM|]. intros i j Hi Hj. destruct (Nat.le_gt_cases j i) as [L|L].
      + apply (P i j L). apply in_square. auto.
      + apply (P j i ltac:(lia)). apply in_square. auto.
  Qed.
  Lemma state_op_ok x : exists D M, one_elec_op_0i_0a x (sp_ni sp) (sp_na sp) = Ok D /\ state_op tiny sp th (op_fold (sp_ni sp) (sp_na sp) (sp_nv sp) D) ci = Ok M /\
    forall i j, (i < n)%nat -> (j < n)%nat -> M i j = I (fk (row i)) (Xact x N (fk (row j))).
  Proof.
    destruct (one_ev x) as (D & ED & V). exists D.
    destruct (fill_all (fun i j => ev_nofold tiny sp th (op_fold (sp_ni sp) (sp_na sp) (sp_nv sp) D) (row i) (row j)) (fun i j => I (fk (row i)) (Xact x N (fk (row j)))) (list_prod (seq 0 n) (seq 0 n)) (fun _ _ => 0)) as (M & EM & _ & P).
    - intros i j Hij. apply in_square in Hij as [Hi Hj]. apply V; auto.
    - exists M. split; [exact ED|]. split; [exact EM|]. intros i j Hi Hj. apply P, in_square. auto.
  Qed.

  (** Bilinear forms of states over the rows. *)
  Lemma sket_r u c : I u (sket ci c) = lsum (seq 0 n) (fun i => c i * I u (fk (row i))).
  Proof. apply (@Props_Excited.ip_lsum R R_CRing nat (2 * N) u (seq 0 n) c (fun i => fk (row i))). Qed.
  Lemma sket_op (A : (det -> R) -> det -> R) u c : adjp N A A -> I u (A (sket ci c)) = lsum (seq 0 n) (fun i => c i * I u (A (fk (row i)))).
  Proof. intros HA. rewrite (HA u), sket_r. apply lsum_ext. intros i _. now rewrite <- (HA u). Qed.
  Lemma sket_two (A : (det -> R) -> det -> R) a c : adjp N A A ->
    I (sket ci a) (A (sket ci c)) = lsum (seq 0 n) (fun i => lsum (seq 0 n) (fun j => a i * I (fk (row i)) (A (fk (row j))) * c j)).
  Proof.
    intros HA. rewrite (ip_sym _ (sket ci a)), sket_r. apply lsum_ext. intros i _. rewrite (ip_sym _ (A _)), (sket_op A _ c HA), <- lsumR_scale. apply lsum_ext. intros j _.
    cbn [rmul R_CRing]. ring.
  Qed.

  (** ** Energies and states of the subspace diagonalisation *)
  Variables (eig : (nat -> nat -> R) -> nat -> list (R * (nat -> R))) (argsort : list R -> list nat).
  Notation subspace M := (forall i j, (i < n)%nat -> (j < n)%nat -> M i j = I (fk (row i)) (H (fk (row j)))).
  Hypothesis Heig : forall M, subspace M -> eig_solves eig n M.
  Hypothesis Hsort : argsort_sound argsort n.
  Definition orthonormal (v : list (list R)) : Prop :=
    forall i j, (i < length v)%nat -> (j < length v)%nat -> dot (nth i v []) (nth j v []) = if Nat.eqb i j then 1 else 0.
  Hypothesis Hon : orthonormal ci.
  Notation energy s k := (nth k (s_energies s) 0).
  Notation coeff s k := (nth k (s_coeffs s) (fun _ => 0)).
  Notation psi s k := (sket ci (coeff s k)).

  Lemma row_overlap i j : (i < n)%nat -> (j < n)%nat -> I (fk (row i)) (fk (row j)) = if Nat.eqb i j then 1 else 0.
  Proof.
    intros Hi Hj. rewrite <- (Hon i j Hi Hj). destruct HS as [Ht Hp (na & nb & Hx) Hth]. symmetry. apply (@dot_fket R R_CRing sp na nb Hp Hx); auto.
  Qed.
  Lemma pick i (F : nat -> R) : (i < n)%nat -> lsum (seq 0 n) (fun j => (if Nat.eqb i j then 1 else 0) * F j) = F i.
  Proof. intros Hi. exact (@sumn_kdelta R R_CRing n i F Hi). Qed.
  Lemma sket_row i c : (i < n)%nat -> I (fk (row i)) (sket ci c) = c i.
  Proof.
    intros Hi. rewrite sket_r. rewrite (lsum_ext _ _ (fun j => (if Nat.eqb i j then 1 else 0) * c j)); [now apply pick|].
    intros j Hj. apply in_seq in Hj. rewrite row_overlap by lia. cbn [rmul R_CRing]. ring.
  Qed.
  Lemma sket_sket a c : I (sket ci a) (sket ci c) = lsum (seq 0 n) (fun i => a i * c i).
  Proof. rewrite (ip_sym _ (sket ci a)), sket_r. apply lsum_ext. intros i Hi. apply in_seq in Hi. rewrite (ip_sym _ (sket ci c)), sket_row by lia. reflexivity. Qed.

  Lemma ci_ok : exists s, do_state_ci tiny sp th eig argsort h g ci = Ok s /\ length (s_energies s) = n /\ length (s_coeffs s) = n /\
    StronglySorted Rle (s_energies s) /\
    forall k, (k < n)%nat -> (forall i, (i < n)%nat -> lsum (seq 0 n) (fun j => I (fk (row i)) (H (fk (row j))) * coeff s k j) = energy s k * coeff s k i) /\
      lsum (seq 0 n) (fun i => coeff s k i * coeff s k i) = 1.
  Proof.
    destruct state_H_ok as (D & S & ED & ES & VS). unfold do_state_ci. rewrite ED. cbn [bind]. rewrite ES. cbn [bind]. eexists. split; [reflexivity|]. cbn [s_energies s_coeffs].
    destruct (Heig S VS) as [Le Pe]. set (e := eig S n) in *. destruct (Hsort (map fst e)) as [Pm Ss]; [rewrite map_length; exact Le|]. set (so := argsort (map fst e)) in *. assert (Ls : length so = n) by (rewrite (Permutation_length Pm); apply seq_length).
    split; [now rewrite map_length|]. split; [now rewrite map_length|]. split; [exact Ss|]. intros k Hk.
    assert (Hkk : (nth k so 0 < n)%nat). { assert (Q : In (nth k so 0%nat) so) by (apply nth_In; lia). apply (Permutation_in _ Pm) in Q. apply in_seq in Q. lia. }
    set (kk := nth k so 0%nat) in *.
    assert (E1 : nth k (map (fun k => nth k (map fst e) 0) so) 0 = fst (nth kk e (0, fun _ => 0))).
    { rewrite (nth_indep _ 0 ((fun k => nth k (map fst e) 0) 0%nat)) by (rewrite map_length; lia). rewrite (map_nth (fun k => nth k (map fst e) 0)). fold kk. change 0 with (fst (0, fun _ : nat => 0)) at 1. apply map_nth. }
    assert (E2 : nth k (map (fun k => nth k (map snd e) (fun _ => 0)) so) (fun _ => 0) = snd (nth kk e (0, fun _ => 0))).
    { rewrite (nth_indep _ (fun _ => 0) ((fun k => nth k (map snd e) (fun _ => 0)) 0%nat)) by (rewrite map_length; lia). rewrite (map_nth (fun k => nth k (map snd e) (fun _ => 0))). fold kk. change (fun _ : nat => 0) with (snd (0, fun _ : nat => 0)) at 1. apply map_nth. }
    rewrite E1, E2. assert (Q : In (nth kk e (0, fun _ => 0)) e) by (apply nth_In; lia). destruct (nth kk e (0, fun _ => 0)) as [w v]. cbn [fst snd].
    destruct (Pe w v Q) as [P1 P2]. split; [|exact P2]. intros i Hi. rewrite <- (P1 i Hi). apply lsum_ext. intros j Hj. apply in_seq in Hj. rewrite VS by lia. reflexivity.
  Qed.

  (** C89: the subspace diagonalisation returns, in ascending order, energies of
      normalised states spanned by the given ones: each state solves the
      eigenvalue problem of the Hamiltonian of all orbitals projected on the
      subspace, its expectation value is its energy, and states of different
      energy are orthogonal and do not interact. *)
  Theorem C89_state_ci : exists s, do_state_ci tiny sp th eig argsort h g ci = Ok s /\ length (s_energies s) = n /\ length (s_coeffs s) = n /\
    StronglySorted Rle (s_energies s) /\
    forall k, (k < n)%nat ->
      I (psi s k) (psi s k) = 1 /\ I (psi s k) (H (psi s k)) = energy s k /\
      (forall i, (i < n)%nat -> I (fk (row i)) (H (psi s k)) = energy s k * I (fk (row i)) (psi s k)) /\
      (forall l, (l < n)%nat -> energy s k <> energy s l -> I (psi s k) (psi s l) = 0 /\ I (psi s k) (H (psi s l)) = 0).
  Proof.
    destruct ci_ok as (s & E & L1 & L2 & Ss & P). exists s. repeat (split; [assumption|]).
    assert (A1 : forall k i, (k < n)%nat -> (i < n)%nat -> I (fk (row i)) (H (psi s k)) = energy s k * coeff s k i).
    { intros k i Hk Hi. rewrite (sket_op H _ _ AH). rewrite <- (proj1 (P k Hk) i Hi). apply lsum_ext. intros j _. cbn [rmul R_CRing]. ring. }
    assert (A2 : forall k l, (k < n)%nat -> (l < n)%nat -> I (psi s k) (H (psi s l)) = energy s l * I (psi s k) (psi s l)).
    { intros k l Hk Hl. rewrite sket_sket, (ip_sym _ (psi s k)), sket_r, <- lsumR_scale. apply lsum_ext. intros i Hi. apply in_seq in Hi.
      rewrite (ip_sym _ (H _)), A1 by lia. cbn [rmul R_CRing]. ring. }
    assert (A3 : forall k, (k < n)%nat -> I (psi s k) (psi s k) = 1) by (intros k Hk; rewrite sket_sket; apply (P k Hk)).
    intros k Hk. split; [now apply A3|]. split; [rewrite A2 by auto; rewrite A3 by auto; ring|]. split.
    - intros i Hi. rewrite A1, sket_row by auto. reflexivity.
    - intros l Hl Hne. assert (Z : I (psi s k) (psi s l) = 0).
      { pose proof (A2 k l Hk Hl) as Q1. pose proof (A2 l k Hl Hk) as Q2. rewrite (AH (psi s l)), (ip_sym _ (H (psi s l))), (ip_sym _ (psi s l) (psi s k)) in Q2.
        rewrite Q1 in Q2. assert (Q3 : (energy s k - energy s l) * I (psi s k) (psi s l) = 0) by lra. apply Rmult_integral in Q3 as [Q3|Q3]; [lra|exact Q3]. }
      split; [exact Z|]. rewrite A2 by auto. rewrite Z. ring.
  Qed.

  (** C89: if the vectors of the eigensolver resolve the identity, the energies sum
      up to the energies of the given states. *)
  Theorem C89_average : (forall M, subspace M -> forall i j, (i < n)%nat -> (j < n)%nat -> lsum (eig M n) (fun wv => snd wv i * snd wv j) = if Nat.eqb i j then 1 else 0) ->
    exists s, do_state_ci tiny sp th eig argsort h g ci = Ok s /\
      lsum (seq 0 n) (fun k => energy s k) = lsum (seq 0 n) (fun i => I (fk (row i)) (H (fk (row i)))).
  Proof.
    intros Hc. destruct state_H_ok as (D & S & ED & ES & VS). unfold do_state_ci. rewrite ED. cbn [bind]. rewrite ES. cbn [bind]. eexists. split; [reflexivity|]. cbn [s_energies].
    destruct (Heig S VS) as [Le Pe]. specialize (Hc S VS). set (e := eig S n) in *. destruct (Hsort (map fst e)) as [Pm _]; [rewrite map_length; exact Le|]. set (so := argsort (map fst e)) in *.
    assert (Ls : length so = n) by (rewrite (Permutation_length Pm); apply seq_length).
    assert (Q1 : lsum (seq 0 n) (fun k => nth k (map (fun k => nth k (map fst e) 0) so) 0) = lsum e fst).
    { transitivity (lsum so (fun k => nth k (map fst e) 0)).
      - rewrite <- Ls. clear. induction so as [|a so IH]; [reflexivity|]. cbn [length seq map].
        change (lsum (0%nat :: seq 1 (length so)) (fun k => nth k (nth a (map fst e) 0 :: map (fun k => nth k (map fst e) 0) so) 0))
          with (nth a (map fst e) 0 + lsum (seq 1 (length so)) (fun k => nth k (nth a (map fst e) 0 :: map (fun k => nth k (map fst e) 0) so) 0)).
        change (lsum (a :: so) (fun k => nth k (map fst e) 0)) with (nth a (map fst e) 0 + lsum so (fun k => nth k (map fst e) 0)). f_equal.
        rewrite <- IH, <- seq_shift. unfold lsum. generalize (seq 0 (length so)). clear. induction l as [|x l IH]; [reflexivity|]. cbn [map fold_right]. rewrite IH. reflexivity.
      - transitivity (lsum (seq 0 n) (fun k => nth k (map fst e) 0)).
        + apply (lsum_perm _ _ _ Pm).
        + rewrite <- Le. clear. induction e as [|a e IH]; [reflexivity|]. cbn [length seq map].
          change (lsum (0%nat :: seq 1 (length e)) (fun k => nth k (fst a :: map fst e) 0)) with (fst a + lsum (seq 1 (length e)) (fun k => nth k (fst a :: map fst e) 0)).
          change (lsum (a :: e) fst) with (fst a + lsum e fst). f_equal. rewrite <- IH, <- seq_shift. unfold lsum. generalize (seq 0 (length e)). clear.
          induction l as [|x l IH]; [reflexivity|]. cbn [map fold_right]. rewrite IH. reflexivity. }
    rewrite Q1. transitivity (lsum e (fun wv => lsum (seq 0 n) (fun i => lsum (seq 0 n) (fun j => S i j * (snd wv i * snd wv j))))).
    - apply lsum_ext. intros [w v] Hw. destruct (Pe w v Hw) as [P1 P2]. cbn [fst snd]. transitivity (w * lsum (seq 0 n) (fun i => v i * v i)); [rewrite P2; ring|].
      rewrite <- lsumR_scale. apply lsum_ext. intros i Hi. apply in_seq in Hi. transitivity (v i * (w * v i)); [ring|]. rewrite <- (P1 i ltac:(lia)), <- lsumR_scale. apply lsum_ext. intros j _. ring.
    - rewrite lsumR_swap. apply lsum_ext. intros i Hi. apply in_seq in Hi. rewrite lsumR_swap. rewrite (lsum_ext _ _ (fun j => (if Nat.eqb i j then 1 else 0) * S i j)).
      + rewrite pick by lia. apply VS; lia.
      + intros j Hj. apply in_seq in Hj. rewrite lsumR_scale, Hc by lia. ring.
  Qed.

  (** C89: the transition property between the ground and the [k + 1]-st state is the
      matrix element of the one-electron operator of all orbitals. *)
  Lemma transition_ok x (s : state_ci) : (forall p q, (p < N)%nat -> (q < N)%nat -> x p q = x q p) ->
    sa_transition_property tiny sp th x s ci = Ok (map (fun k => I (psi s (S k)) (Xact x N (psi s 0))) (seq 0 (n - 1))).
  Proof.
    intros Hx. destruct (state_op_ok x) as (D & M & ED & EM & V). unfold sa_transition_property. rewrite ED. cbn [bind]. rewrite EM. cbn [bind]. f_equal.
    apply map_ext. intros k. rewrite (sket_two (Xact x N) _ _ (adj_Mu sp x Hx)). unfold vMv. rewrite frs. apply lsum_ext. intros i Hi. apply in_seq in Hi. rewrite frs.
    apply lsum_ext. intros j Hj. apply in_seq in Hj. rewrite V by lia. reflexivity.
  Qed.
  Theorem C89_transition_property x (s : state_ci) : (forall p q, (p < N)%nat -> (q < N)%nat -> x p q = x q p) ->
    exists t, sa_transition_property tiny sp th x s ci = Ok t /\ length t = (n - 1)%nat /\
      forall k, (k < n - 1)%nat -> nth k t 0 = I (psi s (S k)) (Xact x N (psi s 0)) /\ nth k t 0 = I (psi s 0) (Xact x N (psi s (S k))).
  Proof.
    intros Hx. rewrite (transition_ok x s Hx). eexists. split; [reflexivity|]. split; [now rewrite map_length, seq_length|]. intros k Hk.
    rewrite (nth_indep _ 0 ((fun k => I (psi s (S k)) (Xact x N (psi s 0))) 0%nat)) by (rewrite map_length, seq_length; exact Hk).
    rewrite (map_nth (fun k => I (psi s (S k)) (Xact x N (psi s 0)))), seq_nth by exact Hk. split; [reflexivity|].
    cbn [Nat.add]. rewrite (adj_Mu sp x Hx (psi s (S k))). apply ip_sym.
  Qed.
  (** C89: oscillator strengths. *)
  Theorem C89_oscillator_strengths mx my mz s : (forall x, In x [mx; my; mz] -> forall p q, (p < N)%nat -> (q < N)%nat -> x p q = x q p) ->
    length (s_energies s) = n ->
    exists f, sa_oscillator_strengths tiny sp th mx my mz s ci = Ok f /\ length f = (n - 1)%nat /\
      forall k, (k < n - 1)%nat -> nth k f 0 = 2 / 3 * (energy s (S k) - energy s 0) *
        (I (psi s (S k)) (Xact mx N (psi s 0)) ^ 2 + I (psi s (S k)) (Xact my N (psi s 0)) ^ 2 + I (psi s (S k)) (Xact mz N (psi s 0)) ^ 2).
  Proof.
    intros Hx Ln. unfold sa_oscillator_strengths. rewrite (transition_ok mx s (Hx mx ltac:(cbn; auto))), (transition_ok my s (Hx my ltac:(cbn; auto))), (transition_ok mz s (Hx mz ltac:(cbn; auto))).
    cbn [bind]. eexists. split; [reflexivity|].
    set (T := fun x k => I (psi s (S k)) (Xact x N (psi s 0))).
    assert (LE : length (sa_excitation_energies s) = (n - 1)%nat) by (unfold sa_excitation_energies; rewrite map_length; destruct (s_energies s); cbn in *; lia).
    assert (LT : forall x, length (map (T x) (seq 0 (n - 1))) = (n - 1)%nat) by (intros; now rewrite map_length, seq_length).
    fold (T mx) (T my) (T mz).
    split. { rewrite map_length, !combine_length, LE, !LT. lia. }
    intros k Hk. set (F := fun ed : R * (R * (R * R)) => let '(e, (x, (y, z))) := ed in 2 / 3 * e * (x ^ 2 + y ^ 2 + z ^ 2)).
    rewrite (nth_indep _ 0 (F (0, (T mx 0%nat, (T my 0%nat, T mz 0%nat))))) by (rewrite map_length, !combine_length, LE, !LT; lia).
    rewrite (map_nth F), combine_nth by (rewrite !combine_length, LE, !LT; lia). rewrite combine_nth by (rewrite combine_length, !LT; lia). rewrite combine_nth by (rewrite !LT; lia).
    rewrite !map_nth, seq_nth by exact Hk. cbn [Nat.add F]. unfold F. do 2 f_equal.
    unfold sa_excitation_energies. rewrite (nth_indep _ 0 ((fun e => e - energy s 0) 0)) by (rewrite map_length; destruct (s_energies s); cbn in *; lia).
    rewrite (map_nth (fun e => e - energy s 0)). f_equal. destruct (s_energies s); [cbn in Ln; lia|reflexivity].
  Qed.
End SA.

(** ** State averages *)
Section Average.
  Variables (tiny tiny_le : R -> bool) (sp : space) (th : threads).
  Hypothesis HS : sector tiny sp th.
  Hypothesis Hti : forall c, tiny c = true <-> c = 0.
  Hypothesis Hle : forall c, tiny_le c = true <-> c = 0.
  Notation N := (sp_ni sp + sp_na sp + sp_nv sp)%nat.
  Notation d := (dim (sp_ci sp)).
  Notation fk := (fket sp).
  Notation half := (1 / 2).
  Notation I u w := (ip (2 * N) u w).
  Variables (h : nat -> nat -> R) (g : nat -> nat -> nat -> nat -> R).
  Notation H := (Hact half h g N).

  Lemma ham_rows ci : (0 < length ci)%nat -> (forall row, In row ci -> length row = d) ->
    exists D out, hamiltonian_0i_0a half h g (sp_ni sp) (sp_na sp) = Ok D /\ propagate_state_SA tiny_le sp th true false no_ansatz [SOp D] ci = Ok out /\
      length out = length ci /\ forall r, (r < length ci)%nat -> propagate_state tiny sp th true false no_ansatz [SOp D] (nth r ci []) = Ok (nth r out []) /\
        length (nth r out []) = d /\ forall u, length u = d -> dot u (nth r out []) = I (fk u) (H (fk (nth r ci []))).
  Proof.
    intros Hp Hci.
    assert (RW : rowwise (K:=R) d no_ansatz no_ansatz).
    { intros dg s Hs Hrow. split; [|discriminate]. unfold no_ansatz. cbn. exists 0%nat. split; [exact Hs|reflexivity]. }
    destruct (ham_element tiny sp th HS h g (repeat 0 d) (repeat_length _ _)) as (D & _ & E1 & _). exists D.
    assert (PR : forall r, (r < length ci)%nat -> exists o, propagate_state tiny sp th true false no_ansatz [SOp D] (nth r ci []) = Ok o /\ length o = d /\
       forall u, length u = d -> dot u o = I (fk u) (H (fk (nth r ci [])))).
    { intros r Hr. destruct (ham_element tiny sp th HS h g (nth r ci []) (Hci _ (nth_In _ _ Hr))) as (D' & o & E1' & E2 & L & V). assert (D' = D) as -> by congruence. exists o. auto. }
    pose proof (C19_state_averaged_rows (K:=R) (C:=R_CRing) tiny tiny_le sp th true false no_ansatz no_ansatz [SOp D] ci Hti Hle RW Hp Hci) as Q.
    destruct (propagate_state_SA tiny_le sp th true false no_ansatz [SOp D] ci) as [out|ex|].
    - destruct Q as [Q1 Q2]. exists out. split; [exact E1|]. split; [reflexivity|]. split; [exact Q1|]. intros r Hr. destruct (PR r Hr) as (o & P1 & P2).
      pose proof (Q2 r Hr) as P3. split; [exact P3|]. rewrite P3 in P1. injection P1 as ->. exact P2.
    - destruct Q as (r & Hrr & Q). destruct (PR r Hrr) as (o & P1 & _). congruence.
    - destruct Q as (r & Hrr & Q). destruct (PR r Hrr) as (o & P1 & _). congruence.
  Qed.

  (** C89: both ways of computing the state-averaged energy give the mean of the
      energies of the states. *)
  Theorem C89_energy ci : (0 < length ci)%nat -> (forall row, In row ci -> length row = d) ->
    sa_energy tiny_le sp th h g ci = Ok (lsum (seq 0 (length ci)) (fun i => I (fk (nth i ci [])) (H (fk (nth i ci [])))) / INR (length ci)) /\
    sa_energy_opt tiny_le sp th h g ci = sa_energy tiny_le sp th h g ci.
  Proof.
    intros Hp Hci. split.
    - destruct (ham_rows ci Hp Hci) as (D & out & E1 & E2 & L & P). unfold sa_energy. rewrite E1. cbn [bind]. unfold expectation_value_SA. rewrite E2. cbn [bind].
      destruct ci as [|c ci']; [cbn in Hp; lia|]. set (ci := c :: ci') in *. unfold Rdiv. f_equal. change (@rmul R R_CRing) with Rmult. f_equal.
      rewrite (ksum_combine_seq (K:=R) (length ci) ci out eq_refl L). rewrite <- lsum_ksum. apply lsum_ext. intros r Hr. apply in_seq in Hr. apply (P r ltac:(lia)). apply Hci, nth_In. lia.
    - reflexivity.
  Qed.

  (** C89: orthonormal reference states stay orthonormal under the ansatz. *)
  Theorem C89_orthonormal struct thetas csf : List.Forall (gate_ok (sp_na sp) 0) struct -> (0 < length csf)%nat -> (forall row, In row csf -> length row = d) -> orthonormal csf ->
    exists ci, ups_state_SA tiny tiny_le sp th 0 struct thetas false csf = Ok ci /\ length ci = length csf /\ (forall row, In row ci -> length row = d) /\ orthonormal ci.
  Proof.
    intros Hg Hp Hc Ho. destruct (C23_state_averaged tiny tiny_le sp th 0 struct thetas false csf HS Hti Hle Hg Hp Hc) as (ci & E & L & P). exists ci. split; [exact E|]. split; [exact L|].
    assert (V : valid sp (length csf) csf) by (split; auto).
    destruct (rows_product tiny tiny_le sp th HS Hti Hle (length csf) Hp 0 false (combine struct thetas) (forall_combine _ struct thetas Hg) csf V) as (ci' & E' & [_ V'] & _).
    assert (ci' = ci) as ->. { unfold ups_state_SA, construct_ups_state in E. rewrite E' in E. congruence. }
    split; [exact V'|]. intros i j Hi Hj. rewrite L in Hi, Hj.
    destruct (C23_scalar_product tiny sp th 0 struct thetas false (nth i csf []) (nth j csf []) HS Hg (Hc _ (nth_In _ _ Hi)) (Hc _ (nth_In _ _ Hj))) as (u & w & E1 & E2 & E3).
    rewrite (P i Hi) in E1. rewrite (P j Hj) in E2. injection E1 as ->. injection E2 as ->. rewrite E3. now apply Ho.
  Qed.
End Average.

(** ** Gradient of the state-averaged energy *)
Section SAGradient.
  Variables (tiny tiny_le : R -> bool) (sp : space) (th : threads).
  Hypothesis HS : sector tiny sp th.
  Hypothesis Hti : forall c, tiny c = true <-> c = 0.
  Hypothesis Hle : forall c, tiny_le c = true <-> c = 0.
  Notation N := (sp_ni sp + sp_na sp + sp_nv sp)%nat.
  Notation d := (dim (sp_ci sp)).
  Notation fk := (fket sp).
  Notation half := (1 / 2).
  Notation I u w := (ip (2 * N) u w).
  Variable struct : list UPSModel.exc.
  Hypothesis Hgates : List.Forall (gate_ok (sp_na sp) 0) struct.

  Section K.
  Variable k : nat.
  Hypothesis Hk : (0 < k)%nat.
  Notation rows := (rowsof sp k).
  Lemma rows_grad i : (i < length struct)%nat -> rows (ups_grad_SA tiny_le sp th 0 struct i) (ups_grad tiny sp th 0 struct i).
  Proof.
    intros Hi. destruct (nth_error struct i) as [e|] eqn:En; [|apply nth_error_None in En; lia].
    assert (He : gate_ok (sp_na sp) 0 e) by (rewrite Forall_forall in Hgates; apply Hgates; eapply nth_error_In; eauto).
    destruct (gate_generator (sp_na sp) 0 e He) as (D & E & G & _). pose proof (gd_keys _ _ _ _ G) as HK.
    pose proof (rows_app tiny tiny_le sp th HS Hti Hle k Hk D HK) as RA.
    intros st V. destruct (RA st V) as (out & E1 & V1 & R1). exists out.
    assert (Q : forall St app (s : St), get_grad_action St app 0 struct i s = app D s).
    { intros St app s. unfold get_grad_action. rewrite En. destruct e as [gt l]. unfold gate_op in E. destruct gt; try (rewrite E; reflexivity).
      destruct (sa_single_generators 0 l) as [T|ex|]; cbn [bind] in E |- *; try discriminate. rewrite E. reflexivity. }
    split; [unfold ups_grad_SA; rewrite Q; exact E1|]. split; [exact V1|]. intros r Hr. unfold ups_grad. rewrite Q. apply R1, Hr.
  Qed.
  Lemma rows_unitary thetas i : (i < length struct)%nat -> (i < length thetas)%nat ->
    rows (ups_unitary_SA tiny tiny_le sp th 0 struct thetas i) (ups_unitary tiny sp th 0 struct thetas i).
  Proof.
    intros Hi Hj. destruct (nth_error struct i) as [e|] eqn:En; [|apply nth_error_None in En; lia].
    destruct (nth_error thetas i) as [t|] eqn:Et; [|apply nth_error_None in Et; lia].
    assert (He : gate_ok (sp_na sp) 0 e) by (rewrite Forall_forall in Hgates; apply Hgates; eapply nth_error_In; eauto).
    intros st V. unfold ups_unitary_SA, ups_unitary, propagate_unitary. rewrite En, Et. destruct (tiny t).
    - exists st. auto.
    - apply (rows_gate tiny tiny_le sp th HS Hti Hle k Hk 0 e t He st V).
  Qed.

  Lemma grad_entry (bra tmp : list (list R)) : length bra = k -> length tmp = k ->
    fold_left (fun a (bk : list R * list R) => a + 2 * dot (fst bk) (snd bk) / INR (length bra)) (combine bra tmp) 0
    = lsum (seq 0 k) (fun r => 2 * dot (nth r bra []) (nth r tmp [])) / INR k.
  Proof.
    intros Lb Lt. rewrite Lb. generalize (INR k) as c. intros c. clear Hk.
    assert (Q : forall l a0, fold_left (fun a (bk : list R * list R) => a + 2 * dot (fst bk) (snd bk) / c) l a0 = a0 + lsum l (fun bk => 2 * dot (fst bk) (snd bk)) / c).
    { induction l as [|x l IH]; intros a0; cbn [fold_left]; [unfold lsum; cbn; unfold Rdiv; ring|]. rewrite IH.
      change (lsum (x :: l) (fun bk : list R * list R => 2 * dot (fst bk) (snd bk))) with (2 * dot (fst x) (snd x) + lsum l (fun bk => 2 * dot (fst bk) (snd bk))). unfold Rdiv. ring. }
    rewrite Q, Rplus_0_l. f_equal. rewrite <- Lb. rewrite <- Lb in Lt. clear Lb Q k c. revert tmp Lt.
    induction bra as [|b bra IH]; intros [|t tmp] Lt; try discriminate; [reflexivity|]. cbn [combine length seq].
    change (lsum ((b, t) :: combine bra tmp) (fun bk : list R * list R => 2 * dot (fst bk) (snd bk))) with (2 * dot b t + lsum (combine bra tmp) (fun bk => 2 * dot (fst bk) (snd bk))).
    rewrite IH by (cbn in Lt; congruence).
    change (lsum (0%nat :: seq 1 (length bra)) (fun r => 2 * dot (nth r (b :: bra) []) (nth r (t :: tmp) [])))
      with (2 * dot b t + lsum (seq 1 (length bra)) (fun r => 2 * dot (nth r (b :: bra) []) (nth r (t :: tmp) []))).
    f_equal. rewrite <- seq_shift. unfold lsum. generalize (seq 0 (length bra)). clear. induction l as [|x l IH]; [reflexivity|]. cbn [map fold_right]. rewrite IH. reflexivity.
  Qed.

  Notation sa_step thetas := (fun acc i => bind acc (fun bkg : (list (list R) * list (list R)) * list R =>
            let '(bra, ket, grad) := bkg in
            bind (ups_grad_SA tiny_le sp th 0 struct i ket) (fun tmp =>
            let gi := fold_left (fun a (bk : list R * list R) => a + 2 * dot (fst bk) (snd bk) / INR (length bra)) (combine bra tmp) 0 in
            bind (ups_unitary_SA tiny tiny_le sp th 0 struct thetas i bra) (fun bra' =>
            bind (ups_unitary_SA tiny tiny_le sp th 0 struct thetas i ket) (fun ket' =>
            Ok (bra', ket', grad ++ [gi])))))).

  Lemma sa_loop thetas : forall L, (forall i, In i L -> (i < length struct)%nat /\ (i < length thetas)%nat) -> forall bra ket grad, valid sp k bra -> valid sp k ket ->
    exists bra' ket' gs (gr : nat -> list R), fold_left (sa_step thetas) L (Ok (bra, ket, grad)) = Ok (bra', ket', grad ++ gs) /\ length gs = length L /\
      (forall r, (r < k)%nat -> forall g0, fold_left (loop_step tiny sp th struct thetas) L (Ok (nth r bra [], nth r ket [], g0)) = Ok (nth r bra' [], nth r ket' [], g0 ++ gr r)) /\
      forall j, nth j gs 0 = lsum (seq 0 k) (fun r => nth j (gr r) 0) / INR k.
  Proof.
    induction L as [|i L IH]; intros HL bra ket grad Vb Vk.
    - exists bra, ket, [], (fun _ => []). rewrite app_nil_r. split; [reflexivity|]. split; [reflexivity|]. split; [intros r Hr g0; rewrite app_nil_r; reflexivity|].
      intros j. destruct j; cbn [nth]; (rewrite (lsum_ext _ _ (fun _ => 0 * 1)) by (intros; cbn; ring)); rewrite lsumR_scale; unfold Rdiv; ring.
    - destruct (HL i (or_introl eq_refl)) as [H1 H2].
      destruct (rows_grad i H1 ket Vk) as (tmp & E1 & V1 & R1). destruct (rows_unitary thetas i H1 H2 bra Vb) as (bra1 & E2 & V2 & R2).
      destruct (rows_unitary thetas i H1 H2 ket Vk) as (ket1 & E3 & V3 & R3).
      set (gi := lsum (seq 0 k) (fun r => 2 * dot (nth r bra []) (nth r tmp [])) / INR k).
      destruct (IH (fun a Ha => HL a (or_intror Ha)) bra1 ket1 (grad ++ [gi]) V2 V3) as (bra' & ket' & gs & gr & EF & LG & PR & PG).
      exists bra', ket', (gi :: gs), (fun r => 2 * dot (nth r bra []) (nth r tmp []) :: gr r). split; [|split; [|split]].
      + cbn [fold_left bind]. rewrite E1. cbn [bind]. rewrite E2. cbn [bind]. rewrite E3. cbn [bind]. cbv zeta. rewrite (grad_entry bra tmp (proj1 Vb) (proj1 V1)). fold gi.
        rewrite <- app_assoc in EF. exact EF.
      + cbn. congruence.
      + intros r Hr g0. cbn [fold_left]. unfold loop_step at 2. cbn [bind]. rewrite (R1 r Hr). cbn [bind]. rewrite (R2 r Hr). cbn [bind]. rewrite (R3 r Hr). cbn [bind].
        rewrite PR by auto. rewrite <- app_assoc. reflexivity.
      + intros [|j]; cbn [nth]; [reflexivity|apply PG].
  Qed.
  End K.

  Variables (h : nat -> nat -> R) (g : nat -> nat -> nat -> nat -> R) (csf : list (list R)).
  Hypothesis Hh : forall p q, (p < N)%nat -> (q < N)%nat -> h p q = h q p.
  Hypothesis Hg : forall p q r s, (p < N)%nat -> (q < N)%nat -> (r < N)%nat -> (s < N)%nat -> g p q r s = g q p s r.
  Hypothesis Hpos : (0 < length csf)%nat.
  Hypothesis Hcsf : forall row, In row csf -> length row = d.

  Lemma sa_state thetas dag sts : valid sp (length csf) sts -> exists ci, ups_state_SA tiny tiny_le sp th 0 struct thetas dag sts = Ok ci /\ valid sp (length csf) ci /\
    forall r, (r < length csf)%nat -> ups_state tiny sp th 0 struct thetas dag (nth r sts []) = Ok (nth r ci []).
  Proof.
    intros V. unfold ups_state_SA, ups_state, construct_ups_state.
    assert (Hf : List.Forall (gate_ok (sp_na sp) 0) (if dag then rev struct else struct)) by (destruct dag; [now apply Forall_rev|exact Hgates]).
    apply (rows_product tiny tiny_le sp th HS Hti Hle (length csf) Hpos 0 dag _ (forall_combine _ _ _ Hf) sts V).
  Qed.

  (** C89: the gradient over the ansatz parameters is the derivative of the
      state-averaged energy. *)
  Theorem C89_gradient thetas : length thetas = length struct ->
    exists ci G, ups_state_SA tiny tiny_le sp th 0 struct thetas false csf = Ok ci /\
      sa_theta_gradient tiny tiny_le sp th struct csf h g ci thetas = Ok G /\ length G = length thetas /\
      forall t1 t t2, thetas = t1 ++ t :: t2 -> exists energy : R -> R,
        (forall s, bind (ups_state_SA tiny tiny_le sp th 0 struct (t1 ++ s :: t2) false csf) (sa_energy_opt tiny_le sp th h g) = Ok (energy s)) /\
        derivable_pt_lim energy t (nth (length t1) G 0).
  Proof.
    intros HL. set (k := length csf) in *. assert (Vc : valid sp k csf) by (split; auto).
    destruct (sa_state thetas false csf Vc) as (ci & Eci & Vci & Rci).
    destruct (ham_rows tiny tiny_le sp th HS Hti Hle h g ci ltac:(rewrite (proj1 Vci); exact Hpos) (proj2 Vci)) as (D & out & E1 & E2 & L & P). rewrite (proj1 Vci) in L, P. fold k in L, P.
    assert (Vo : valid sp k out). { split; [exact L|]. intros row Hr. destruct (In_nth _ _ [] Hr) as (r & Hrl & <-). apply (P r). lia. }
    destruct (sa_state thetas true out Vo) as (bra & Eb & Vb & Rb).
    destruct (sa_loop k Hpos thetas (seq 0 (length thetas)) ltac:(intros i Hi; apply in_seq in Hi; lia) bra csf [] Vb Vc) as (bra' & ket' & gs & gr & EF & LG & PR & PG).
    exists ci, gs. split; [exact Eci|]. split; [|split].
    - unfold sa_theta_gradient. rewrite E1. cbn [bind]. rewrite E2. cbn [bind]. rewrite Eb. cbn [bind]. unfold sa_theta_loop.
      exact (f_equal (fun z => bind z (fun bkg => Ok (snd bkg))) EF).
    - rewrite LG, seq_length. reflexivity.
    - intros t1 t t2 Ht.
      set (er := fun r s => match bind (ups_state tiny sp th 0 struct (t1 ++ s :: t2) false (nth r csf [])) (energy_of tiny sp th h g) with Ok x => x | _ => 0 end).
      exists (fun s => / INR k * lsum (seq 0 k) (fun r => er r s)). split.
      + intros s. destruct (sa_state (t1 ++ s :: t2) false csf Vc) as (cs & Ecs & Vcs & Rcs). fold k in Vcs, Rcs. rewrite Ecs. cbn [bind].
        destruct (C89_energy tiny tiny_le sp th HS Hti Hle h g cs ltac:(rewrite (proj1 Vcs); exact Hpos) (proj2 Vcs)) as [A1 A2].
        rewrite A2, A1, (proj1 Vcs). f_equal. unfold Rdiv. rewrite Rmult_comm. f_equal. apply lsum_ext. intros r Hr. apply in_seq in Hr.
        unfold er. rewrite (Rcs r ltac:(lia)). cbn [bind]. rewrite (energy_of_ip tiny sp th HS h g) by (apply (valid_row sp k Hpos cs r Vcs); lia). reflexivity.
      + replace (nth (length t1) gs 0) with (/ INR k * lsum (seq 0 k) (fun r => nth (length t1) (gr r) 0)) by (rewrite PG; unfold Rdiv; ring).
        apply dlim_scal.
        assert (Q : forall r, (r < k)%nat -> derivable_pt_lim (er r) t (nth (length t1) (gr r) 0)).
        { intros r Hr.
          destruct (C66_theta_gradient tiny sp th HS struct (nth r csf []) Hgates (valid_row sp k Hpos csf r Vc Hr) h g Hh Hg thetas HL) as (v & G & Ev & EG & LGr & PGr).
          assert (v = nth r ci []) as -> by (rewrite (Rci r Hr) in Ev; congruence).
          assert (G = gr r) as ->.
          { unfold theta_gradient in EG. rewrite E1 in EG. cbn [bind] in EG. rewrite (proj1 (P r Hr)) in EG. cbn [bind] in EG. rewrite (Rb r Hr) in EG. cbn [bind] in EG.
            unfold theta_loop in EG. fold (loop_step tiny sp th struct thetas) in EG. rewrite (PR r Hr []) in EG. cbn [bind snd app] in EG. congruence. }
          destruct (PGr t1 t t2 Ht) as (en & En & Dn). eapply dlim_ext; [|exact Dn]. intros s. unfold er. rewrite (En s). reflexivity. }
        clear - Q. assert (forall r, In r (seq 0 k) -> derivable_pt_lim (er r) t (nth (length t1) (gr r) 0)) as Q' by (intros r Hr; apply in_seq in Hr; apply Q; lia).
        clear Q. induction (seq 0 k) as [|r l IH]; [apply derivable_pt_lim_const|].
        apply (derivable_pt_lim_plus (er r) (fun s => lsum l (fun r => er r s)) t (nth (length t1) (gr r) 0) (lsum l (fun r => nth (length t1) (gr r) 0))).
        * apply Q'. now left.
        * apply IH. intros x Hx. apply Q'. now right.
  Qed.
End SAGradient.

(** ** Concrete cases *)
(** A solver for two states, and the two reference states of the examples carried
    through ten gates of every kind. *)
Definition eig2 (M : nat -> nat -> R) (n : nat) : list (R * (nat -> R)) :=
  let a := M 0%nat 0%nat in let b := M 0%nat 1%nat in let c := M 1%nat 1%nat in
  if Req_EM_T b 0 then [(a, fun i => if Nat.eqb i 0 then 1 else 0); (c, fun i => if Nat.eqb i 0 then 0 else 1)]
  else let p := ((c - a) + sqrt ((a - c) * (a - c) + 4 * (b * b))) / 2 in let m := sqrt (b * b + p * p) in
       [(a + p, fun i => if Nat.eqb i 0 then b / m else p / m); (c - p, fun i => if Nat.eqb i 0 then - p / m else b / m)].
Definition argsort2 (l : list R) : list nat := if Rle_dec (nth 0 l 0) (nth 1 l 0) then [0; 1]%nat else [1; 0]%nat.
Lemma argsort2_sound : argsort_sound argsort2 2.
Proof.
  intros [|a [|b [|? ?]]] L; try discriminate. unfold argsort2. cbn [nth]. destruct (Rle_dec a b) as [Hab|Hab]; cbn [map nth seq].
  - split; [apply Permutation_refl|]. apply SSorted_cons; [repeat constructor|]. apply Forall_cons; [exact Hab|constructor].
  - split; [apply perm_swap|]. apply SSorted_cons; [repeat constructor|]. apply Forall_cons; [lra|constructor].
Qed.
Lemma eig2_facts a b c : b <> 0 -> let p := ((c - a) + sqrt ((a - c) * (a - c) + 4 * (b * b))) / 2 in
  p * p = b * b - (a - c) * p /\ 0 < sqrt (b * b + p * p) /\ sqrt (b * b + p * p) * sqrt (b * b + p * p) = b * b + p * p.
Proof.
  intros Hb p. assert (Hbb : 0 < b * b) by (apply Rsqr_pos_lt in Hb; exact Hb).
  assert (H1 : 0 <= (a - c) * (a - c)) by apply Rle_0_sqr. assert (H2 : 0 <= p * p) by apply Rle_0_sqr. split.
  - assert (H3 : 0 <= (a - c) * (a - c) + 4 * (b * b)) by lra. pose proof (sqrt_sqrt _ H3) as Q. unfold p. set (r := sqrt _) in *. clearbody r.
    transitivity (((c - a) * (c - a) + 2 * (c - a) * r + r * r) / 4); [field|]. rewrite Q. field.
  - split; [apply sqrt_lt_R0; lra|apply sqrt_sqrt; lra].
Qed.
Lemma eig2_solves M : M 1%nat 0%nat = M 0%nat 1%nat -> eig_solves eig2 2 M /\
  forall i j, (i < 2)%nat -> (j < 2)%nat -> lsum (eig2 M 2) (fun wv => snd wv i * snd wv j) = if Nat.eqb i j then 1 else 0.
Proof.
  intros Sy. unfold eig_solves, eig2. cbv zeta. destruct (Req_EM_T (M 0%nat 1%nat) 0) as [Hb|Hb].
  - split; [split; [reflexivity|]|].
    + intros w v [E|[E|[]]]; injection E as <- <-; (split; [intros [|[|i]] Hi; [| |lia]|]); unfold lsum; cbn; rewrite ?Sy, ?Hb; ring.
    + intros [|[|i]] [|[|j]] Hi Hj; try lia; unfold lsum; cbn; ring.
  - destruct (eig2_facts (M 0%nat 0%nat) (M 0%nat 1%nat) (M 1%nat 1%nat) Hb) as (P1 & P2 & P3). set (a := M 0%nat 0%nat) in *. set (b := M 0%nat 1%nat) in *. set (c := M 1%nat 1%nat) in *.
    set (p := _ / 2) in *. set (m := sqrt (b * b + p * p)) in *. assert (Hm : m <> 0) by lra. clearbody m p.
    assert (N1 : (b * b + p * p) / (m * m) = 1) by (rewrite <- P3; field; auto).
    split; [split; [reflexivity|]|].
    + intros w v [E|[E|[]]]; injection E as <- <-; (split; [intros [|[|i]] Hi; [| |lia]|]); unfold lsum; cbn; fold a b c; rewrite ?Sy; fold b.
      * field. auto.
      * transitivity ((b * b + c * p) / m); [field; auto|]. replace (b * b) with (p * p + (a - c) * p) by (rewrite P1; ring). field. auto.
      * rewrite <- N1. field. auto.
      * transitivity ((b * b - a * p) / m); [field; auto|]. replace (b * b) with (p * p + (a - c) * p) by (rewrite P1; ring). field. auto.
      * field. auto.
      * rewrite <- N1. field. auto.
    + intros [|[|i]] [|[|j]] Hi Hj; try lia; unfold lsum; cbn; rewrite <- ?N1; field; auto.
Qed.

Definition ex89_csf : list (list R) := [1 :: repeat 0 35; 0 :: 1 :: repeat 0 34].
Definition ex89_t : list R := [1; 2; 3; 4; 5; 1 / 2; 1 / 3; 1 / 4; 1 / 5; 0].
Lemma ex89_rows row : In row ex89_csf -> length row = dim (sp_ci Props_UPS.ex_sp).
Proof. intros Hr. rewrite (proj1 (proj2 C21_example) : dim (sp_ci Props_UPS.ex_sp) = 36%nat). destruct Hr as [<-|[<-|[]]]; reflexivity. Qed.
Lemma ex89_on : orthonormal ex89_csf.
Proof. intros [|[|i]] [|[|j]] Hi Hj; cbn in Hi, Hj; try lia; cbn; ring. Qed.
Example C89_example : exists ci s G t, ups_state_SA rtiny rtiny Props_UPS.ex_sp None 0 ex_struct ex89_t false ex89_csf = Ok ci /\ length ci = 2%nat /\ orthonormal ci /\
  do_state_ci rtiny Props_UPS.ex_sp None eig2 argsort2 exg_h exg_g ci = Ok s /\ length (s_energies s) = 2%nat /\
  sa_energy rtiny Props_UPS.ex_sp None exg_h exg_g ci = Ok ((nth 0 (s_energies s) 0 + nth 1 (s_energies s) 0) / 2) /\
  sa_transition_property rtiny Props_UPS.ex_sp None exg_h s ci = Ok t /\ length t = 1%nat /\
  sa_theta_gradient rtiny rtiny Props_UPS.ex_sp None ex_struct ex89_csf exg_h exg_g ci ex89_t = Ok G /\ length G = 10%nat.
Proof.
  destruct C21_example as (HS & Hd & Hgt).
  assert (Hh : forall p q, (p < 6)%nat -> (q < 6)%nat -> exg_h p q = exg_h q p) by (intros; unfold exg_h; f_equal; lia).
  assert (Hg : forall p q r s, (p < 6)%nat -> (q < 6)%nat -> (r < 6)%nat -> (s < 6)%nat -> exg_g p q r s = exg_g q p s r) by (intros; unfold exg_g; f_equal; lia).
  destruct (C89_orthonormal rtiny rtiny Props_UPS.ex_sp None HS rtiny_spec rtiny_spec ex_struct ex89_t ex89_csf Hgt ltac:(cbn; lia) ex89_rows ex89_on) as (ci & E & L & Hrow & Hon).
  change (length ex89_csf) with 2%nat in L.
  assert (Sub : forall M, (forall i j, (i < length ci)%nat -> (j < length ci)%nat -> M i j = ip (2 * 6) (fket Props_UPS.ex_sp (nth i ci [])) (Hact (1 / 2) exg_h exg_g 6 (fket Props_UPS.ex_sp (nth j ci [])))) ->
    M 1%nat 0%nat = M 0%nat 1%nat).
  { intros M HM. rewrite !HM by lia. rewrite (Hact_sym (1 / 2) exg_h exg_g 6 Hh Hg). reflexivity. }
  assert (Heig : forall M, (forall i j, (i < length ci)%nat -> (j < length ci)%nat -> M i j = ip (2 * 6) (fket Props_UPS.ex_sp (nth i ci [])) (Hact (1 / 2) exg_h exg_g 6 (fket Props_UPS.ex_sp (nth j ci [])))) ->
    eig_solves eig2 (length ci) M) by (intros M HM; rewrite L; apply eig2_solves, Sub, HM).
  assert (Hso : argsort_sound argsort2 (length ci)) by (rewrite L; apply argsort2_sound).
  destruct (C89_state_ci rtiny Props_UPS.ex_sp None HS exg_h exg_g Hh Hg ci Hrow eig2 argsort2 Heig Hso Hon) as (s & Es & Le & _).
  destruct (C89_average rtiny Props_UPS.ex_sp None HS exg_h exg_g Hh Hg ci Hrow eig2 argsort2 Heig Hso) as (s' & Es' & Av).
  { intros M HM. rewrite L. apply eig2_solves, Sub, HM. }
  assert (s' = s) as -> by congruence.
  destruct (C89_transition_property rtiny Props_UPS.ex_sp None HS ci Hrow exg_h s Hh) as (t & Et & Lt & _).
  destruct (C89_gradient rtiny rtiny Props_UPS.ex_sp None HS rtiny_spec rtiny_spec ex_struct Hgt exg_h exg_g ex89_csf Hh Hg ltac:(cbn; lia) ex89_rows ex89_t eq_refl) as (ci' & G & Ec & EG & LG & _).
  assert (ci' = ci) as -> by congruence.
  exists ci, s, G, t. repeat (split; [assumption|]). split; [congruence|]. split.
  - destruct (C89_energy rtiny rtiny Props_UPS.ex_sp None HS rtiny_spec rtiny_spec exg_h exg_g ci ltac:(lia) Hrow) as [-> _]. f_equal.
    etransitivity; [apply (f_equal (fun z => z / INR (length ci))); symmetry; exact Av|]. rewrite L. unfold lsum. cbn [seq fold_right radd R_CRing]. change (@rO R R_CRing) with 0. cbn [INR]. f_equal; ring.
  - split; [exact Et|]. split; [rewrite Lt, L; reflexivity|]. split; [exact EG|exact LG].
Qed.

Print Assumptions C89_state_ci.
Print Assumptions C89_average.
Print Assumptions C89_transition_property.
Print Assumptions C89_oscillator_strengths.
Print Assumptions C89_energy.
Print Assumptions C89_orthonormal.
Print Assumptions C89_gradient.
