(** Proofs about the Hartree-Fock model. *)
From Coq Require Import List Bool Arith ZArith Lia Reals Lra Psatz Setoid Morphisms.
Require Import Verif.IntegralModel Verif.IntegralProofs Verif.HFModel.
Import ListNotations.
Local Open Scope R_scope.

(** ** Finite sums *)
Lemma sm_delta n j (F : nat -> R) : (j < n)%nat -> sm n (fun k => (if Nat.eqb k j then 1 else 0) * F k) = F j.
Proof.
  induction n as [|n IH]; intros H; [lia|]. cbn [sm]. destruct (Nat.eq_dec j n) as [->|N].
  - rewrite Nat.eqb_refl, (sm_zero n); [ring|]. intros i Hi. destruct (Nat.eqb_spec i n); [lia|ring].
  - rewrite IH by lia. destruct (Nat.eqb_spec n j); [lia|ring].
Qed.
Lemma sm_opp n F : sm n (fun i => - F i) = - sm n F.
Proof. induction n as [|n IH]; cbn [sm]; [ring|rewrite IH; ring]. Qed.
Lemma sm_minus n F G : sm n (fun i => F i - G i) = sm n F - sm n G.
Proof. induction n as [|n IH]; cbn [sm]; [ring|rewrite IH; ring]. Qed.
Lemma sm_nonneg n F : (forall i, (i < n)%nat -> 0 <= F i) -> 0 <= sm n F.
Proof. induction n as [|n IH]; intros H; cbn [sm]; [lra|]. pose proof (H n ltac:(lia)). assert (0 <= sm n F) by (apply IH; intros; apply H; lia). lra. Qed.
Lemma sm_le n F G : (forall i, (i < n)%nat -> F i <= G i) -> sm n F <= sm n G.
Proof. induction n as [|n IH]; intros H; cbn [sm]; [lra|]. pose proof (H n ltac:(lia)). assert (sm n F <= sm n G) by (apply IH; intros; apply H; lia). lra. Qed.
Lemma sm_cut o n F : (o <= n)%nat -> sm n (fun k => (if Nat.ltb k o then 1 else 0) * F k) = sm o F.
Proof.
  intros H. rewrite (sm_tail o n); [|exact H|].
  - apply sm_ext. intros i Hi. destruct (Nat.ltb_spec i o); [ring|lia].
  - intros i Hi. destruct (Nat.ltb_spec i o); [lia|ring].
Qed.
Lemma sm_const n c : sm n (fun _ => c) = INR n * c.
Proof. induction n as [|n IH]; [cbn; ring|]. cbn [sm]. rewrite IH, S_INR. ring. Qed.

(** ** Matrices up to size [n] *)
Definition meq (n : nat) (A B : mat) : Prop := forall i j, (i < n)%nat -> (j < n)%nat -> A i j = B i j.
#[global] Instance meq_equiv n : Equivalence (meq n).
Proof. split; [intros A i j _ _; reflexivity|intros A B H i j Hi Hj; symmetry; apply H; assumption|intros A B D H1 H2 i j Hi Hj; rewrite H1, H2 by assumption; reflexivity]. Qed.
#[global] Instance dot_proper n : Proper (meq n ==> meq n ==> meq n) (dot n).
Proof. intros A A' HA B B' HB i j Hi Hj. unfold dot. apply sm_ext. intros k Hk. rewrite HA, HB by assumption. reflexivity. Qed.
#[global] Instance tr_proper n : Proper (meq n ==> meq n) tr_.
Proof. intros A A' HA i j Hi Hj. unfold tr_. apply HA; assumption. Qed.
#[global] Instance add_proper n : Proper (meq n ==> meq n ==> meq n) add_.
Proof. intros A A' HA B B' HB i j Hi Hj. unfold add_. rewrite HA, HB by assumption. reflexivity. Qed.
Definition one_ : mat := diag_ (fun _ => 1).
Lemma dot_assoc n A B D : meq n (dot n (dot n A B) D) (dot n A (dot n B D)).
Proof.
  intros i j _ _. unfold dot.
  rewrite (sm_ext n _ (fun k => sm n (fun l => A i l * B l k * D k j))) by (intros k _; rewrite <- sm_scal_r; reflexivity).
  rewrite sm_swap. apply sm_ext. intros l _. rewrite <- sm_scal. apply sm_ext. intros k _. ring.
Qed.
Lemma dot_1_l n A : meq n (dot n one_ A) A.
Proof.
  intros i j Hi Hj. unfold dot, one_, diag_. rewrite (sm_ext n _ (fun k => (if Nat.eqb k i then 1 else 0) * A k j)); [apply (sm_delta n i (fun k => A k j)); exact Hi|].
  intros k _. rewrite Nat.eqb_sym. destruct (Nat.eqb k i); reflexivity.
Qed.
Lemma dot_1_r n A : meq n (dot n A one_) A.
Proof.
  intros i j Hi Hj. unfold dot, one_, diag_. rewrite (sm_ext n _ (fun k => (if Nat.eqb k j then 1 else 0) * A i k)); [apply (sm_delta n j (fun k => A i k)); exact Hj|].
  intros k _. ring.
Qed.
Lemma dot_diag_r n A d i j : (j < n)%nat -> dot n A (diag_ d) i j = A i j * d j.
Proof.
  intros Hj. unfold dot, diag_. rewrite (sm_ext n _ (fun k => (if Nat.eqb k j then 1 else 0) * (A i k * d k))); [apply (sm_delta n j (fun k => A i k * d k)); exact Hj|].
  intros k _. destruct (Nat.eqb k j); ring.
Qed.
Lemma diag_mul n a b : meq n (dot n (diag_ a) (diag_ b)) (diag_ (fun i => a i * b i)).
Proof. intros i j Hi Hj. rewrite dot_diag_r by exact Hj. unfold diag_. destruct (Nat.eqb_spec i j) as [->|]; ring. Qed.
Lemma diag_ext n a b : (forall i, (i < n)%nat -> a i = b i) -> meq n (diag_ a) (diag_ b).
Proof. intros H i j Hi Hj. unfold diag_. destruct (Nat.eqb i j); [apply H; exact Hi|reflexivity]. Qed.
Lemma tr_dot n A B : meq n (tr_ (dot n A B)) (dot n (tr_ B) (tr_ A)).
Proof. intros i j _ _. unfold tr_, dot. apply sm_ext. intros k _. ring. Qed.
Lemma tr_diag n d : meq n (tr_ (diag_ d)) (diag_ d).
Proof. intros i j _ _. unfold tr_, diag_. rewrite Nat.eqb_sym. destruct (Nat.eqb_spec i j) as [->|]; reflexivity. Qed.
Lemma tr_tr n A : meq n (tr_ (tr_ A)) A.
Proof. intros i j _ _. reflexivity. Qed.
Definition symm (n : nat) (A : mat) : Prop := meq n (tr_ A) A.

(** ** What eigh returns *)
Definition eig_ok (n : nat) (A : mat) (r : (nat -> R) * mat) : Prop :=
  meq n (dot n (tr_ (snd r)) (snd r)) one_ /\ meq n (dot n (snd r) (tr_ (snd r))) one_
  /\ meq n (dot n A (snd r)) (dot n (snd r) (diag_ (fst r)))
  /\ (forall i j, (i <= j < n)%nat -> fst r i <= fst r j).
(** [np.linalg.solve] returns solutions. *)
Definition solve_ok (solve : nat -> mat -> (nat -> R) -> option (nat -> R)) : Prop :=
  forall k B b x, solve k B b = Some x -> forall i, (i < k)%nat -> sm k (fun j => B i j * x j) = b i.

Section Basis.
  Variable eigh : mat -> (nat -> R) * mat.
  Variable n : nat.
  Hypothesis Heig : forall A, symm n A -> eig_ok n A (eigh A).
  Variable Sm : mat.
  Hypothesis Ssym : symm n Sm.
  Hypothesis Spos : forall i, (i < n)%nat -> 0 < fst (eigh Sm) i.
  Notation X := (inv_sqrt eigh n Sm).

  Lemma X_form : X = dot n (dot n (snd (eigh Sm)) (diag_ (fun i => / sqrt (fst (eigh Sm) i)))) (tr_ (snd (eigh Sm))).
  Proof. unfold inv_sqrt. destruct (eigh Sm). reflexivity. Qed.
  Lemma X_sym : symm n X.
  Proof.
    unfold symm. rewrite X_form. set (L := snd (eigh Sm)). set (d := diag_ _). rewrite tr_dot, tr_dot, tr_tr. unfold d. rewrite tr_diag. symmetry. apply dot_assoc.
  Qed.
  Lemma X_tr : meq n (tr_ X) X.
  Proof. exact X_sym. Qed.
  Lemma X_S_X : meq n (dot n (dot n X Sm) X) one_.
  Proof.
    destruct (Heig Sm Ssym) as (LL & LL' & SL & _). rewrite X_form. set (L := snd (eigh Sm)) in *. set (lam := fst (eigh Sm)) in *.
    rewrite !dot_assoc. rewrite <- (dot_assoc n Sm L). rewrite SL. rewrite !dot_assoc. rewrite <- (dot_assoc n (tr_ L) L). rewrite LL, dot_1_l.
    rewrite <- (dot_assoc n (diag_ lam)), diag_mul. rewrite <- (dot_assoc n (diag_ _) (diag_ _)), diag_mul.
    transitivity (dot n L (dot n one_ (tr_ L))); [|rewrite dot_1_l; exact LL'].
    apply dot_proper; [reflexivity|]. apply dot_proper; [|reflexivity]. apply diag_ext. intros i Hi. pose proof (Spos i Hi) as P. fold lam in P.
    assert (Q := sqrt_sqrt (lam i) ltac:(lra)). assert (0 < sqrt (lam i)) by (apply sqrt_lt_R0; exact P). transitivity (lam i / (sqrt (lam i) * sqrt (lam i))); [field; lra|rewrite Q; field; lra].
  Qed.
  Lemma S_X_X : meq n (dot n Sm (dot n X X)) one_.
  Proof.
    destruct (Heig Sm Ssym) as (LL & LL' & SL & _). rewrite X_form. set (L := snd (eigh Sm)) in *. set (lam := fst (eigh Sm)) in *.
    rewrite !dot_assoc. rewrite <- (dot_assoc n Sm L). rewrite SL. rewrite !dot_assoc. rewrite <- (dot_assoc n (tr_ L) L). rewrite LL, dot_1_l.
    rewrite <- (dot_assoc n (diag_ _) (diag_ _)), diag_mul. rewrite <- (dot_assoc n (diag_ _) (diag_ _)), diag_mul.
    transitivity (dot n L (dot n one_ (tr_ L))); [|rewrite dot_1_l; exact LL'].
    apply dot_proper; [reflexivity|]. apply dot_proper; [|reflexivity]. apply diag_ext. intros i Hi. pose proof (Spos i Hi) as P. fold lam in P.
    assert (Q := sqrt_sqrt (lam i) ltac:(lra)). assert (0 < sqrt (lam i)) by (apply sqrt_lt_R0; exact P). transitivity (lam i / (sqrt (lam i) * sqrt (lam i))); [field; lra|rewrite Q; field; lra].
  Qed.
  Lemma X_X_S : meq n (dot n (dot n X X) Sm) one_.
  Proof.
    assert (E : meq n (tr_ (dot n (dot n X X) Sm)) one_).
    { rewrite tr_dot. transitivity (dot n Sm (dot n X X)); [|apply S_X_X]. apply dot_proper; [exact Ssym|]. rewrite tr_dot. apply dot_proper; apply X_sym. }
    rewrite <- (tr_tr n (dot n (dot n X X) Sm)). rewrite E. apply tr_diag.
  Qed.
  (** Orbitals [X C'] with orthogonal [C']. *)
  Definition ortho (C : mat) : Prop := meq n (dot n (dot n (tr_ C) Sm) C) one_ /\ meq n (dot n (dot n C (tr_ C)) Sm) one_.
  Lemma X_ortho A : symm n A -> ortho (dot n X (snd (eigh A))).
  Proof.
    intros HA. destruct (Heig A HA) as (LL & LL' & _ & _). set (L := snd (eigh A)) in *. split.
    - rewrite tr_dot, X_tr. rewrite !dot_assoc. rewrite <- (dot_assoc n Sm X L), <- (dot_assoc n X (dot n Sm X) L), <- (dot_assoc n X Sm X). rewrite X_S_X, dot_1_l. exact LL.
    - rewrite tr_dot, X_tr. rewrite !dot_assoc. rewrite <- (dot_assoc n L (tr_ L)), LL', dot_1_l, <- dot_assoc. apply X_X_S.
  Qed.
  (** The Roothaan equations. *)
  Definition roothaan (F C : mat) : Prop := exists eps : nat -> R, meq n (dot n F C) (dot n (dot n Sm C) (diag_ eps)) /\ (forall i j, (i <= j < n)%nat -> eps i <= eps j).
  Lemma conj_sym F : symm n F -> symm n (dot n (dot n (tr_ X) F) X).
  Proof. intros HF. unfold symm. unfold symm in HF. rewrite tr_dot, tr_dot, tr_tr, HF. symmetry. apply dot_assoc. Qed.
  Lemma orbitals_ok F : symm n F -> ortho (orbitals eigh n X F) /\ roothaan F (orbitals eigh n X F).
  Proof.
    intros HF. split; [apply X_ortho, conj_sym, HF|]. unfold orbitals.
    destruct (Heig _ (conj_sym F HF)) as (LL & LL' & SL & As). set (Fp := dot n (dot n (tr_ X) F) X) in *. set (L := snd (eigh Fp)) in *.
    exists (fst (eigh Fp)). split; [|exact As]. set (eps := fst (eigh Fp)) in *.
    assert (E : meq n (dot n X (dot n F (dot n X L))) (dot n L (diag_ eps))).
    { rewrite <- SL. unfold Fp. rewrite !dot_assoc. apply dot_proper; [symmetry; apply X_sym|reflexivity]. }
    rewrite <- (dot_1_l n (dot n F (dot n X L))). rewrite <- S_X_X. rewrite (dot_assoc n Sm (dot n X X)), (dot_assoc n X X), E.
    rewrite !dot_assoc. reflexivity.
  Qed.
End Basis.

(** ** Densities *)
Lemma density_form n f m C : meq n (density n f m C) (fun i j => f * dot n (dot n C (diag_ (fun k => if Nat.ltb k (occupied n m) then 1 else 0))) (tr_ C) i j).
Proof.
  intros i j Hi Hj. unfold density. f_equal. rewrite <- (sm_cut (occupied n m) n) by apply Nat.le_min_r. unfold dot at 1. apply sm_ext. intros k Hk.
  rewrite dot_diag_r by exact Hk. unfold tr_. ring.
Qed.
Lemma density_sym n f m C : symm n (density n f m C).
Proof. intros i j _ _. unfold tr_, density. f_equal. apply sm_ext. intros. ring. Qed.
Lemma scal_proper n f A B : meq n A B -> meq n (fun i j => f * A i j) (fun i j => f * B i j).
Proof. intros H i j Hi Hj. rewrite H by assumption. reflexivity. Qed.
Lemma dot_scal_l n f A B : meq n (dot n (fun i j => f * A i j) B) (fun i j => f * dot n A B i j).
Proof. intros i j _ _. unfold dot. rewrite <- sm_scal. apply sm_ext. intros. ring. Qed.
Lemma dot_scal_r n f A B : meq n (dot n A (fun i j => f * B i j)) (fun i j => f * dot n A B i j).
Proof. intros i j _ _. unfold dot. rewrite <- sm_scal. apply sm_ext. intros. ring. Qed.
Lemma density_idem n f m C Sm : meq n (dot n (dot n (tr_ C) Sm) C) one_ ->
  meq n (dot n (dot n (density n f m C) Sm) (density n f m C)) (fun i j => f * density n f m C i j).
Proof.
  intros O. pose proof (density_form n f m C) as E. set (P := diag_ (fun k => if Nat.ltb k (occupied n m) then 1 else 0)) in *. set (D := density n f m C) in *.
  set (A := dot n (dot n C P) (tr_ C)) in *. rewrite E.
  transitivity (fun i j => f * dot n (dot n A Sm) (fun i j => f * A i j) i j); [rewrite (dot_scal_l n f A Sm); apply dot_scal_l|].
  apply scal_proper. transitivity (fun i j => f * dot n (dot n A Sm) A i j); [apply dot_scal_r|]. transitivity (fun i j => f * A i j); [|symmetry; exact E].
  apply scal_proper. unfold A.
  rewrite !dot_assoc. rewrite <- (dot_assoc n Sm C), <- (dot_assoc n (tr_ C) (dot n Sm C)), <- (dot_assoc n (tr_ C) Sm C). rewrite O, dot_1_l.
  rewrite <- (dot_assoc n P P). unfold P. rewrite diag_mul. apply dot_proper; [reflexivity|]. apply dot_proper; [|reflexivity].
  apply diag_ext. intros i _. destruct (Nat.ltb i (occupied n m)); ring.
Qed.
Lemma inner_trace n A B : symm n B -> inner n A B = sm n (fun i => dot n A B i i).
Proof. intros H. unfold inner, dot. apply sm_ext. intros i Hi. apply sm_ext. intros j Hj. rewrite <- (H i j Hi Hj). reflexivity. Qed.
Lemma density_trace n f m C Sm : symm n Sm -> meq n (dot n (dot n (tr_ C) Sm) C) one_ -> inner n (density n f m C) Sm = f * INR (occupied n m).
Proof.
  intros HS O. unfold inner, density.
  rewrite (sm_ext n _ (fun i => f * sm (occupied n m) (fun k => sm n (fun j => C i k * Sm i j * C j k)))).
  2:{ intros i _. transitivity (sm n (fun j => f * sm (occupied n m) (fun k => C i k * Sm i j * C j k))).
      - apply sm_ext. intros j _. rewrite Rmult_assoc. f_equal. rewrite <- sm_scal_r. apply sm_ext. intros; ring.
      - rewrite sm_scal. f_equal. apply sm_swap. }
  rewrite sm_scal. f_equal. rewrite sm_swap. rewrite (sm_ext _ _ (fun _ => 1)); [rewrite sm_const; ring|].
  intros k Hk. assert (Kn : (k < n)%nat) by (unfold occupied in Hk; lia). pose proof (O k k Kn Kn) as E. unfold one_, diag_ in E. rewrite Nat.eqb_refl in E. rewrite <- E.
  unfold dot, tr_. rewrite sm_swap. apply sm_ext. intros j _. rewrite <- sm_scal_r. reflexivity.
Qed.

(** ** Fock matrices *)
Definition sym_eri (n : nat) (g : ten) : Prop := forall p q r s, (p < n)%nat -> (q < n)%nat -> (r < n)%nat -> (s < n)%nat ->
  g p q r s = g q p r s /\ g p q r s = g p q s r /\ g p q r s = g r s p q.
Lemma coulomb_sym n g D : sym_eri n g -> symm n (coulomb n g D).
Proof. intros H p q Hp Hq. unfold tr_, coulomb. apply sm_ext. intros r Hr. apply sm_ext. intros s Hs. destruct (H p q r s Hp Hq Hr Hs) as (-> & _). reflexivity. Qed.
Lemma exchange_sym n g D : sym_eri n g -> symm n D -> symm n (exchange n g D).
Proof.
  intros H HD p q Hp Hq. unfold tr_, exchange. rewrite sm_swap. apply sm_ext. intros s Hs. apply sm_ext. intros r Hr.
  destruct (H q s p r Hq Hs Hp Hr) as (_ & _ & ->). rewrite <- (HD s r Hs Hr). unfold tr_. reflexivity.
Qed.
Lemma fock_rhf_sym n H g D : symm n H -> sym_eri n g -> symm n D -> symm n (fock_rhf n H g D).
Proof.
  intros HH Hg HD p q Hp Hq. unfold tr_, fock_rhf. pose proof (HH p q Hp Hq) as E1. pose proof (coulomb_sym n g D Hg p q Hp Hq) as E2. pose proof (exchange_sym n g D Hg HD p q Hp Hq) as E3.
  unfold tr_ in *. rewrite E1, E2, E3. reflexivity.
Qed.
Lemma fock_uhf_sym n H g D D' : symm n H -> sym_eri n g -> symm n D -> symm n (fock_uhf n H g D D').
Proof.
  intros HH Hg HD p q Hp Hq. unfold tr_, fock_uhf. pose proof (HH p q Hp Hq) as E1. pose proof (coulomb_sym n g D Hg p q Hp Hq) as E2. pose proof (coulomb_sym n g D' Hg p q Hp Hq) as E4. pose proof (exchange_sym n g D Hg HD p q Hp Hq) as E3.
  unfold tr_ in *. rewrite E1, E2, E3, E4. reflexivity.
Qed.
(** Linear combinations. *)
Definition lin (m : nat) (c : nat -> R) (A : nat -> mat) : mat := fun p q => sm m (fun i => c i * A i p q).
Lemma lin_sym n m c A : (forall i, (i < m)%nat -> symm n (A i)) -> symm n (lin m c A).
Proof. intros H p q Hp Hq. unfold tr_, lin. apply sm_ext. intros i Hi. rewrite <- (H i Hi p q Hp Hq). reflexivity. Qed.
Lemma lin_two n m c (W : nat -> nat -> R) A : sm n (fun r => sm n (fun s => W r s * lin m c A s r)) = sm m (fun i => c i * sm n (fun r => sm n (fun s => W r s * A i s r))).
Proof.
  unfold lin. transitivity (sm n (fun r => sm m (fun i => sm n (fun s => c i * (W r s * A i s r))))).
  - apply sm_ext. intros r _. rewrite sm_swap. apply sm_ext. intros s _. rewrite <- sm_scal. apply sm_ext. intros; ring.
  - rewrite sm_swap. apply sm_ext. intros i _. rewrite <- sm_scal. apply sm_ext. intros r _. apply sm_scal.
Qed.
Lemma fock_rhf_lin n m c H g A p q : sm m c = 1 -> fock_rhf n H g (lin m c A) p q = lin m c (fun i => fock_rhf n H g (A i)) p q.
Proof.
  intros E. unfold fock_rhf, coulomb, exchange. rewrite !lin_two. unfold lin. replace (H p q) with (sm m (fun i => c i * H p q)) at 1 by (rewrite sm_scal_r, E; ring).
  rewrite <- sm_scal, <- sm_plus, <- sm_minus. apply sm_ext. intros. ring.
Qed.
Lemma fock_uhf_lin n m c H g A B p q : sm m c = 1 -> fock_uhf n H g (lin m c A) (lin m c B) p q = lin m c (fun i => fock_uhf n H g (A i) (B i)) p q.
Proof.
  intros E. unfold fock_uhf, coulomb, exchange. rewrite !lin_two. unfold lin. replace (H p q) with (sm m (fun i => c i * H p q)) at 1 by (rewrite sm_scal_r, E; ring).
  rewrite <- !sm_plus, <- sm_minus. apply sm_ext. intros. ring.
Qed.

(** ** DIIS *)
Section Diis.
  Variable solve : nat -> mat -> (nat -> R) -> option (nat -> R).
  Hypothesis Hsolve : solve_ok solve.
  Variable n : nat.
  Lemma diis_ok saved st F D S F' st' : get_extrapolated_fock_matrix solve n saved st F D S = Some (F', st') ->
    exists m c (pairs : nat -> mat * mat), sm m c = 1 /\ (1 <= m)%nat /\ (forall i, (i < m)%nat -> In (pairs i) (st ++ [(F, D)]))
      /\ (forall p q, F' p q = lin m c (fun i => fst (pairs i)) p q) /\ (forall x, In x st' -> In x (st ++ [(F, D)])).
  Proof.
    unfold get_extrapolated_fock_matrix. destruct (Nat.eqb n 2).
    - intros H. injection H as <- <-. exists 1%nat, (fun _ => 1), (fun _ => (F, D)). split; [cbn; ring|]. split; [lia|]. split; [intros; apply in_or_app; right; left; reflexivity|].
      split; [intros; unfold lin; cbn; ring|intros; apply in_or_app; left; assumption].
    - set (st1 := st ++ [(F, D)]). destruct (Nat.eqb (length st1) 1).
      + intros H. injection H as <- <-. exists 1%nat, (fun _ => 1), (fun _ => (F, D)). split; [cbn; ring|]. split; [lia|]. split; [intros; apply in_or_app; right; left; reflexivity|].
        split; [intros; unfold lin; cbn; ring|intros; assumption].
      + set (st2 := if Nat.ltb saved (length st1) then tl st1 else st1). set (z := (zero_mat, zero_mat)). set (B := fun i j => _ : R).
        destruct (solve (length st2 + 1)%nat B _) as [c|] eqn:E; [|discriminate]. intros H. injection H as <- <-.
        assert (I2 : forall x, In x st2 -> In x st1) by (intros x; unfold st2; destruct (Nat.ltb saved (length st1)); [destruct st1; [intros []|intros; right; assumption]|auto]).
        assert (SC : sm (length st2) c = 1).
        { pose proof (Hsolve _ _ _ _ E (length st2) ltac:(lia)) as R. cbv beta in R. rewrite Nat.eqb_refl in R. rewrite Nat.add_1_r in R. cbn [sm] in R.
          unfold B in R at 2. rewrite Nat.eqb_refl in R. cbn [andb] in R.
          rewrite (sm_ext _ _ (fun j => - c j)) in R; [rewrite sm_opp in R; lra|].
          intros j Hj. unfold B. rewrite Nat.eqb_refl. destruct (Nat.eqb_spec j (length st2)); [lia|]. cbn [andb orb]. ring. }
        exists (length st2), c, (fun i => nth i st2 z). split; [exact SC|]. split.
        { destruct (length st2); [cbn in SC; lra|lia]. }
        split; [intros i Hi; apply I2, nth_In; exact Hi|]. split; [reflexivity|exact I2].
  Qed.
End Diis.

(** ** The restricted loop *)
Section Scf.
  Variable eigh : mat -> (nat -> R) * mat.
  Variable solve : nat -> mat -> (nat -> R) -> option (nat -> R).
  Variable n : nat.
  Hypothesis Heig : forall A, symm n A -> eig_ok n A (eigh A).
  Hypothesis Hsolve : solve_ok solve.
  Variables (Sm H : mat) (g : ten).
  Hypothesis Ssym : symm n Sm.
  Hypothesis Spos : forall i, (i < n)%nat -> 0 < fst (eigh Sm) i.
  Hypothesis Hsym : symm n H.
  Hypothesis Hg : sym_eri n g.
  Notation X := (inv_sqrt eigh n Sm).
  Notation ortho := (ortho n Sm).

  Definition dens_ok (f : R) (m : nat) (D : mat) : Prop := exists C, ortho C /\ D = density n f m C.
  Lemma dens_sym f m D : dens_ok f m D -> symm n D.
  Proof. intros (C & _ & ->). apply density_sym. Qed.
  Definition good (use_diis : bool) (nocc : nat) (thr : R) (r : R * mat * mat * mat) (conv : bool) : Prop :=
    let '(E, C, F, D) := r in
    ortho C /\ roothaan n Sm F C /\ D = density n 2 nocc C /\ E = 1 / 2 * inner n D (add_ H F)
    /\ exists m c (Ds : nat -> mat), sm m c = 1 /\ (forall i, (i < m)%nat -> dens_ok 2 nocc (Ds i))
       /\ (forall p q, F p q = fock_rhf n H g (lin m c Ds) p q)
       /\ (use_diis = false -> m = 1%nat /\ (conv = true -> rms n D (Ds 0%nat) < thr)).
  Lemma fock_of_lin nocc m c Ds : (forall i, (i < m)%nat -> dens_ok 2 nocc (Ds i)) -> symm n (fock_rhf n H g (lin m c Ds)).
  Proof. intros HD. apply fock_rhf_sym; [exact Hsym|exact Hg|]. apply lin_sym. intros i Hi. apply (dens_sym 2 nocc), HD, Hi. Qed.
  Lemma symm_ext A B : (forall p q, A p q = B p q) -> symm n B -> symm n A.
  Proof. intros E HB p q Hp Hq. unfold tr_. rewrite !E. apply (HB p q Hp Hq). Qed.
  Definition stored nocc (x : mat * mat) : Prop := exists D, dens_ok 2 nocc D /\ fst x = fock_rhf n H g D.
  Lemma scf_good use_diis nocc dthr rthr : forall rem D0 E0 st last,
    dens_ok 2 nocc D0 -> List.Forall (stored nocc) st -> (match last with Some r => good use_diis nocc rthr r false | None => True end) ->
    forall r conv, scf eigh solve n use_diis X Sm H g nocc dthr rthr rem D0 E0 st last = Done r conv -> good use_diis nocc rthr r conv.
  Proof.
    induction rem as [|rem IH]; intros D0 E0 st last HD0 Hst Hl r conv; cbn [scf].
    - destruct last as [r'|]; [|discriminate]. intros E. injection E as <- <-. exact Hl.
    - set (F0 := fock_rhf n H g D0).
      assert (Step : forall F st', (if use_diis then get_extrapolated_fock_matrix solve n 6 st F0 D0 Sm else Some (F0, st)) = Some (F, st') ->
        List.Forall (stored nocc) st' /\ exists m c Ds, sm m c = 1 /\ (forall i, (i < m)%nat -> dens_ok 2 nocc (Ds i))
          /\ (forall p q, F p q = fock_rhf n H g (lin m c Ds) p q) /\ (use_diis = false -> m = 1%nat /\ Ds 0%nat = D0)).
      { intros F st' E. destruct use_diis.
        - destruct (diis_ok solve Hsolve n 6 st F0 D0 Sm F st' E) as (m & c & pr & Sc & M1 & In1 & EF & In2).
          assert (All : List.Forall (stored nocc) (st ++ [(F0, D0)])).
          { apply List.Forall_app. split; [exact Hst|]. apply List.Forall_cons; [exists D0; split; [exact HD0|reflexivity]|apply List.Forall_nil]. }
          rewrite List.Forall_forall in All. split; [apply List.Forall_forall; intros x Hx; apply All, In2, Hx|].
          assert (Ch : forall i, exists D, (i < m)%nat -> dens_ok 2 nocc D /\ fst (pr i) = fock_rhf n H g D).
          { intros i. destruct (le_lt_dec m i) as [L|L]; [exists D0; lia|]. destruct (All (pr i) (In1 i L)) as (D & K1 & K2). exists D. auto. }
          assert (Fin : exists Ds : nat -> mat, forall i, (i < m)%nat -> dens_ok 2 nocc (Ds i) /\ fst (pr i) = fock_rhf n H g (Ds i)).
          { clear - Ch. induction m as [|m IHm]; [exists (fun _ => zero_mat); lia|].
            destruct IHm as (Ds & HDs). { intros i. destruct (Ch i) as (D & K). exists D. intros; apply K; lia. }
            destruct (Ch m) as (D & K). exists (fun i => if Nat.eqb i m then D else Ds i). intros i Hi. destruct (Nat.eqb_spec i m) as [->|]; [apply K; lia|apply HDs; lia]. }
          destruct Fin as (Ds & HDs). exists m, c, Ds. split; [exact Sc|]. split; [intros i Hi; apply HDs, Hi|]. split; [|discriminate].
          intros p q. rewrite EF, fock_rhf_lin by exact Sc. unfold lin. apply sm_ext. intros i Hi. destruct (HDs i Hi) as [_ ->]. reflexivity.
        - injection E as <- <-. split; [exact Hst|]. exists 1%nat, (fun _ => 1), (fun _ => D0). split; [cbn; ring|]. split; [intros; exact HD0|]. split; [|auto].
          intros p q. rewrite fock_rhf_lin by (cbn; ring). unfold lin. cbn [sm]. unfold F0. ring. }
      destruct (if use_diis then _ else _) as [[F st']|] eqn:EF; [|discriminate]. destruct (Step F st' eq_refl) as (Hst' & m & c & Ds & Sc & HDs & FD & ND). clear Step.
      set (C := orbitals eigh n X F). set (D := density n 2 nocc C). set (En := 1 / 2 * inner n D (add_ H F)).
      destruct (orbitals_ok eigh n Heig Sm Ssym Spos F (symm_ext _ _ FD (fock_of_lin nocc m c Ds HDs))) as [OC RC]. fold C in OC, RC.
      assert (HD : dens_ok 2 nocc D) by (exists C; split; [exact OC|reflexivity]).
      assert (G : forall conv, (conv = true -> rms n D D0 < rthr) -> good use_diis nocc rthr (En, C, F, D) conv).
      { intros cv Hcv. split; [exact OC|]. split; [exact RC|]. split; [reflexivity|]. split; [reflexivity|]. exists m, c, Ds. split; [exact Sc|]. split; [exact HDs|]. split; [exact FD|].
        intros U. destruct (ND U) as [-> ->]. split; [reflexivity|exact Hcv]. }
      assert (Gf : good use_diis nocc rthr (En, C, F, D) false) by (apply G; discriminate).
      destruct (Rlt_dec (Rabs (En - E0)) dthr) as [_|_]; [|intros E; exact (IH D En st' (Some (En, C, F, D)) HD Hst' Gf r conv E)].
      destruct (Rlt_dec (rms n D D0) rthr) as [Rm|_]; [|intros E; exact (IH D En st' (Some (En, C, F, D)) HD Hst' Gf r conv E)].
      intros E. injection E as <- <-. apply G. intros _. exact Rm.
  Qed.
  Lemma scf_bound use_diis nocc dthr rthr : forall rem D0 E0 st last, (rem > 0)%nat \/ last <> None ->
    scf eigh solve n use_diis X Sm H g nocc dthr rthr rem D0 E0 st last <> Unbound.
  Proof.
    induction rem as [|rem IH]; intros D0 E0 st last Hl; cbn [scf].
    - destruct last; [discriminate|destruct Hl; [lia|contradiction]].
    - destruct (if use_diis then _ else _) as [[F st']|]; [|discriminate].
      destruct (Rlt_dec _ dthr); [destruct (Rlt_dec _ rthr); [discriminate|]|]; apply IH; right; discriminate.
  Qed.
  Lemma start_sym : symm n (dot n (dot n (tr_ X) H) (tr_ X)).
  Proof.
    assert (XT := X_tr eigh n Sm Spos). assert (HT : meq n (tr_ H) H) by exact Hsym. assert (E : meq n (dot n (dot n (tr_ X) H) (tr_ X)) (dot n (dot n X H) X)).
    { apply dot_proper; [apply dot_proper; [exact XT|reflexivity]|exact XT]. }
    unfold symm. transitivity (tr_ (dot n (dot n X H) X)); [apply tr_proper; exact E|]. transitivity (dot n (dot n X H) X); [|symmetry; exact E].
    rewrite tr_dot. transitivity (dot n X (dot n H X)); [|symmetry; apply dot_assoc]. apply dot_proper; [exact XT|]. rewrite tr_dot. apply dot_proper; assumption.
  Qed.
  Lemma start_ortho : ortho (dot n X (snd (eigh (dot n (dot n (tr_ X) H) (tr_ X))))).
  Proof. apply (X_ortho eigh n Heig Sm Ssym Spos). exact start_sym. Qed.
End Scf.

(** ** The unrestricted loop *)
Section Uscf.
  Variable eigh : mat -> (nat -> R) * mat.
  Variable solve : nat -> mat -> (nat -> R) -> option (nat -> R).
  Variable n : nat.
  Hypothesis Heig : forall A, symm n A -> eig_ok n A (eigh A).
  Hypothesis Hsolve : solve_ok solve.
  Variables (Sm H : mat) (g : ten).
  Hypothesis Ssym : symm n Sm.
  Hypothesis Spos : forall i, (i < n)%nat -> 0 < fst (eigh Sm) i.
  Hypothesis Hsym : symm n H.
  Hypothesis Hg : sym_eri n g.
  Notation X := (inv_sqrt eigh n Sm).
  Notation ortho := (ortho n Sm).
  (** [P] and [Q]: what the two densities are known to satisfy. *)
  Definition one_spin (P Q : mat -> Prop) (use_diis : bool) (F Da0 Db0 : mat) : Prop :=
    exists m c (As Bs : nat -> mat), sm m c = 1 /\ (forall i, (i < m)%nat -> P (As i) /\ Q (Bs i))
      /\ (forall p q, F p q = fock_uhf n H g (lin m c As) (lin m c Bs) p q)
      /\ (use_diis = false -> m = 1%nat /\ As 0%nat = Da0 /\ Bs 0%nat = Db0).
  Definition ustored (P Q : mat -> Prop) (x : mat * mat) : Prop := exists A B, P A /\ Q B /\ fst x = fock_uhf n H g A B.
  Lemma ustep (P Q : mat -> Prop) (use_diis : bool) st Da0 Db0 F st' : P Da0 -> Q Db0 -> List.Forall (ustored P Q) st ->
    (if use_diis then get_extrapolated_fock_matrix solve n 6 st (fock_uhf n H g Da0 Db0) Da0 Sm else Some (fock_uhf n H g Da0 Db0, st)) = Some (F, st') ->
    List.Forall (ustored P Q) st' /\ one_spin P Q use_diis F Da0 Db0.
  Proof.
    intros HA HB Hst E. set (F0 := fock_uhf n H g Da0 Db0) in *. destruct use_diis.
    - destruct (diis_ok solve Hsolve n 6 st F0 Da0 Sm F st' E) as (m & c & pr & Sc & M1 & In1 & EF & In2).
      assert (All : List.Forall (ustored P Q) (st ++ [(F0, Da0)])).
      { apply List.Forall_app. split; [exact Hst|]. apply List.Forall_cons; [exists Da0, Db0; split; [exact HA|split; [exact HB|reflexivity]]|apply List.Forall_nil]. }
      rewrite List.Forall_forall in All. split; [apply List.Forall_forall; intros x Hx; apply All, In2, Hx|].
      assert (Ch : forall i, exists A B, (i < m)%nat -> (P A /\ Q B) /\ fst (pr i) = fock_uhf n H g A B).
      { intros i. destruct (le_lt_dec m i) as [L|L]; [exists Da0, Db0; lia|]. destruct (All (pr i) (In1 i L)) as (A & B & K1 & K2 & K3). exists A, B. auto. }
      assert (Fin : exists As Bs : nat -> mat, forall i, (i < m)%nat -> (P (As i) /\ Q (Bs i)) /\ fst (pr i) = fock_uhf n H g (As i) (Bs i)).
      { clear - Ch. induction m as [|m IHm]; [exists (fun _ => zero_mat), (fun _ => zero_mat); lia|].
        destruct IHm as (As & Bs & HDs). { intros i. destruct (Ch i) as (A & B & K). exists A, B. intros; apply K; lia. }
        destruct (Ch m) as (A & B & K). exists (fun i => if Nat.eqb i m then A else As i), (fun i => if Nat.eqb i m then B else Bs i).
        intros i Hi. destruct (Nat.eqb_spec i m) as [->|]; [apply K; lia|apply HDs; lia]. }
      destruct Fin as (As & Bs & HDs). exists m, c, As, Bs. split; [exact Sc|]. split; [intros i Hi; apply HDs, Hi|]. split; [|discriminate].
      intros p q. rewrite EF, fock_uhf_lin by exact Sc. unfold lin. apply sm_ext. intros i Hi. destruct (HDs i Hi) as [_ ->]. reflexivity.
    - injection E as <- <-. split; [exact Hst|]. exists 1%nat, (fun _ => 1), (fun _ => Da0), (fun _ => Db0). split; [cbn; ring|]. split; [intros; auto|]. split; [|auto].
      intros p q. rewrite fock_uhf_lin by (cbn; ring). unfold lin. cbn [sm]. unfold F0. ring.
  Qed.
  Lemma one_spin_sym (P Q : mat -> Prop) u F A B : (forall D, P D -> symm n D) -> one_spin P Q u F A B -> symm n F.
  Proof.
    intros HP (m & c & As & Bs & Sc & HD & E & _). apply (symm_ext n _ _ E). apply fock_uhf_sym; [exact Hsym|exact Hg|]. apply lin_sym. intros i Hi. apply HP, HD, Hi.
  Qed.
  (** The densities known before the first iteration are only symmetric. *)
  Definition ugood (use_diis : bool) (na nb : nat) (thr : R) (r : uhf_values) (conv : bool) : Prop :=
    let '(E, (Ca, Cb), (Fa, Fb), (Da, Db)) := r in
    ortho Ca /\ ortho Cb /\ roothaan n Sm Fa Ca /\ roothaan n Sm Fb Cb /\ Da = density n 1 na Ca /\ Db = density n 1 nb Cb
    /\ E = 1 / 2 * inner n Da (add_ H Fa) + 1 / 2 * inner n Db (add_ H Fb)
    /\ exists Da0 Db0, one_spin (symm n) (symm n) use_diis Fa Da0 Db0 /\ one_spin (symm n) (symm n) use_diis Fb Db0 Da0
       /\ (conv = true -> rms n Da Da0 < thr /\ rms n Db Db0 < thr).
  Lemma uscf_good use_diis na nb dthr rthr : forall rem Da0 Db0 E0 sta stb last,
    symm n Da0 -> symm n Db0 -> List.Forall (ustored (symm n) (symm n)) sta -> List.Forall (ustored (symm n) (symm n)) stb ->
    (match last with Some r => ugood use_diis na nb rthr r false | None => True end) ->
    forall r conv, uscf eigh solve n use_diis X Sm H g na nb dthr rthr rem Da0 Db0 E0 sta stb last = Done r conv -> ugood use_diis na nb rthr r conv.
  Proof.
    induction rem as [|rem IH]; intros Da0 Db0 E0 sta stb last HA HB Hsa Hsb Hl r conv; cbn [uscf].
    - destruct last as [r'|]; [|discriminate]. intros E. injection E as <- <-. exact Hl.
    - pose proof (fun F st' => ustep (symm n) (symm n) use_diis sta Da0 Db0 F st' HA HB Hsa) as StA.
      pose proof (fun F st' => ustep (symm n) (symm n) use_diis stb Db0 Da0 F st' HB HA Hsb) as StB.
      destruct (if use_diis then get_extrapolated_fock_matrix solve n 6 sta _ _ _ else _) as [[Fa sta']|]; [|discriminate].
      destruct (if use_diis then get_extrapolated_fock_matrix solve n 6 stb _ _ _ else _) as [[Fb stb']|]; [|discriminate].
      destruct (StA Fa sta' eq_refl) as [Hsa' OA]. destruct (StB Fb stb' eq_refl) as [Hsb' OB]. clear StA StB.
      set (Ca := orbitals eigh n X Fa). set (Cb := orbitals eigh n X Fb). set (Da := density n 1 na Ca). set (Db := density n 1 nb Cb).
      set (En := 1 / 2 * inner n Da (add_ H Fa) + 1 / 2 * inner n Db (add_ H Fb)). set (res := (En, (Ca, Cb), (Fa, Fb), (Da, Db))).
      destruct (orbitals_ok eigh n Heig Sm Ssym Spos Fa (one_spin_sym _ _ _ _ _ _ (fun D K => K) OA)) as [OCa RCa]. fold Ca in OCa, RCa.
      destruct (orbitals_ok eigh n Heig Sm Ssym Spos Fb (one_spin_sym _ _ _ _ _ _ (fun D K => K) OB)) as [OCb RCb]. fold Cb in OCb, RCb.
      assert (SA : symm n Da) by apply density_sym. assert (SB : symm n Db) by apply density_sym.
      assert (G : forall cv, (cv = true -> rms n Da Da0 < rthr /\ rms n Db Db0 < rthr) -> ugood use_diis na nb rthr res cv).
      { intros cv Hcv. unfold ugood, res. repeat (split; [first [assumption|reflexivity]|]). exists Da0, Db0. split; [exact OA|]. split; [exact OB|exact Hcv]. }
      assert (Gf : ugood use_diis na nb rthr res false) by (apply G; discriminate).
      destruct (Rlt_dec (Rabs (En - E0)) dthr) as [_|_]; [|intros E; exact (IH Da Db En sta' stb' (Some res) SA SB Hsa' Hsb' Gf r conv E)].
      destruct (Rlt_dec (rms n Da Da0) rthr) as [R1|_]; [|intros E; exact (IH Da Db En sta' stb' (Some res) SA SB Hsa' Hsb' Gf r conv E)].
      destruct (Rlt_dec (rms n Db Db0) rthr) as [R2|_]; [|intros E; exact (IH Da Db En sta' stb' (Some res) SA SB Hsa' Hsb' Gf r conv E)].
      intros E. injection E as <- <-. apply G. auto.
  Qed.
End Uscf.

(** ** Spin contamination *)
Lemma overlap_form n Sm Ca Cb i j : sm n (fun a => sm n (fun b => Ca a i * Cb b j * Sm a b)) = dot n (dot n (tr_ Ca) Sm) Cb i j.
Proof.
  unfold dot, tr_. rewrite sm_swap. apply sm_ext. intros b _. rewrite <- sm_scal_r. apply sm_ext. intros; ring.
Qed.
Lemma overlap_column n Sm Ca Cb j : symm n Sm -> ortho n Sm Ca -> ortho n Sm Cb -> (j < n)%nat ->
  sm n (fun i => dot n (dot n (tr_ Ca) Sm) Cb i j ^ 2) = 1.
Proof.
  intros HS [_ CA] [CB _] Hj. set (U := dot n (dot n (tr_ Ca) Sm) Cb).
  assert (E : meq n (dot n (tr_ U) U) one_).
  { assert (TU : meq n (tr_ U) (dot n (dot n (tr_ Cb) Sm) Ca)).
    { unfold U. rewrite tr_dot. transitivity (dot n (tr_ Cb) (dot n Sm Ca)); [|symmetry; apply dot_assoc]. apply dot_proper; [reflexivity|]. rewrite tr_dot.
      apply dot_proper; [exact HS|apply tr_tr]. }
    rewrite TU. unfold U.
    transitivity (dot n (tr_ Cb) (dot n Sm (dot n (dot n (dot n Ca (tr_ Ca)) Sm) Cb))); [rewrite !dot_assoc; reflexivity|].
    rewrite CA, dot_1_l, <- dot_assoc. exact CB. }
  pose proof (E j j Hj Hj) as D. unfold one_, diag_ in D. rewrite Nat.eqb_refl in D. rewrite <- D.
  change (dot n (tr_ U) U j j) with (sm n (fun i => U i j * U i j)). apply sm_ext. intros i _. cbn [pow]. ring.
Qed.
Lemma sm_part n m F : (m <= n)%nat -> (forall i, (i < n)%nat -> 0 <= F i) -> sm m F <= sm n F.
Proof.
  intros L P. induction L as [|n L IH]; [lra|]. cbn [sm]. pose proof (P n ltac:(lia)). assert (sm m F <= sm n F) by (apply IH; intros; apply P; lia). lra.
Qed.
Lemma spin_contamination_bounds n Sm Ca Cb na nb : symm n Sm -> ortho n Sm Ca -> ortho n Sm Cb -> (na <= n)%nat -> (nb <= n)%nat ->
  0 <= spin_contamination n Sm Ca Cb na nb <= INR nb.
Proof.
  intros HS OA OB Ha Hb. unfold spin_contamination. cbv zeta.
  assert (B : 0 <= sm na (fun i => sm nb (fun j => sm n (fun a => sm n (fun b => Ca a i * Cb b j * Sm a b)) ^ 2)) <= INR nb).
  { split.
    - apply sm_nonneg. intros i _. apply sm_nonneg. intros j _. rewrite <- Rsqr_pow2. apply Rle_0_sqr.
    - rewrite sm_swap. replace (INR nb) with (sm nb (fun _ => 1)) by (rewrite sm_const; ring). apply sm_le. intros j Hj.
      rewrite <- (overlap_column n Sm Ca Cb j HS OA OB ltac:(lia)).
      rewrite (sm_ext na _ (fun i => dot n (dot n (tr_ Ca) Sm) Cb i j ^ 2)) by (intros i _; rewrite overlap_form; reflexivity).
      apply sm_part; [exact Ha|]. intros i _. rewrite <- Rsqr_pow2. apply Rle_0_sqr. }
  lra.
Qed.
Lemma spin_contamination_closed n Sm C na nb : ortho n Sm C -> (nb <= na)%nat -> (na <= n)%nat -> spin_contamination n Sm C C na nb = 0.
Proof.
  intros [O _] Hb Ha. unfold spin_contamination. cbv zeta. rewrite sm_swap. apply Rminus_diag_eq. replace (INR nb) with (sm nb (fun _ => 1)) by (rewrite sm_const; ring).
  apply sm_ext. intros j Hj. rewrite (sm_ext na _ (fun i => (if Nat.eqb i j then 1 else 0) * (fun _ => 1) i)); [symmetry; apply (sm_delta na j (fun _ => 1)); lia|].
  intros i Hi. rewrite overlap_form, (O i j) by lia. unfold one_, diag_. destruct (Nat.eqb i j); cbn [pow]; ring.
Qed.

(** ** Mixing of the frontier orbitals *)
Lemma mix_rows n c na C0T A Sm : mix n c na C0T = Some A -> (0 < na)%nat ->
  (forall i j, (i < n)%nat -> (j < n)%nat -> sm n (fun a => sm n (fun b => C0T i a * Sm a b * C0T j b)) = if Nat.eqb i j then 1 else 0) ->
  forall i j, (i < na)%nat -> (j < na)%nat -> sm n (fun a => sm n (fun b => A i a * Sm a b * A j b)) = if Nat.eqb i j then 1 else 0.
Proof.
  unfold mix. destruct (Nat.leb_spec n na) as [L|L]; [discriminate|]. intros E Ha O. injection E as <-. destruct (Nat.eqb_spec na 0) as [|_]; [lia|].
  set (k := 1 / sqrt (1 + c ^ 2)). set (h := (na - 1)%nat).
  assert (K2 : k * k * (1 + c ^ 2) = 1).
  { assert (P : 0 < 1 + c ^ 2) by nra. assert (Q := sqrt_sqrt (1 + c ^ 2) ltac:(lra)). assert (0 < sqrt (1 + c ^ 2)) by (apply sqrt_lt_R0; exact P).
    unfold k. transitivity ((1 + c ^ 2) / (sqrt (1 + c ^ 2) * sqrt (1 + c ^ 2))); [field; lra|rewrite Q; field; lra]. }
  (* [form u v] for linear combinations of rows *)
  set (q := fun (u v : nat -> R) => sm n (fun a => sm n (fun b => u a * Sm a b * v b))).
  assert (Ql : forall x u v w, q (fun a => x * (u a + c * v a)) w = x * (q u w + c * q v w)).
  { intros x u v w. unfold q. rewrite <- !sm_scal, <- sm_plus, <- sm_scal. apply sm_ext. intros a _. rewrite <- !sm_scal, <- sm_plus, <- sm_scal. apply sm_ext. intros; ring. }
  assert (Qr : forall x u v w, q w (fun a => x * (u a + c * v a)) = x * (q w u + c * q w v)).
  { intros x u v w. unfold q. rewrite <- !sm_scal, <- sm_plus, <- sm_scal. apply sm_ext. intros a _. rewrite <- !sm_scal, <- sm_plus, <- sm_scal. apply sm_ext. intros; ring. }
  assert (Od : forall i j, (i < n)%nat -> (j < n)%nat -> q (C0T i) (C0T j) = if Nat.eqb i j then 1 else 0) by (intros; apply O; assumption).
  intros i j Hi Hj.
  destruct (Nat.eqb_spec i na) as [|_]; [lia|]. destruct (Nat.eqb_spec j na) as [|_]; [lia|].
  destruct (Nat.eqb_spec i h) as [Ei|Ei]; destruct (Nat.eqb_spec j h) as [Ej|Ej].
  - subst i j. rewrite Nat.eqb_refl. change (q (fun a => k * (C0T h a + c * C0T na a)) (fun b => k * (C0T h b + c * C0T na b)) = 1).
    rewrite Ql, !Qr, !Od by lia. rewrite !Nat.eqb_refl. destruct (Nat.eqb_spec h na); [lia|]. destruct (Nat.eqb_spec na h); [lia|]. transitivity (k * k * (1 + c ^ 2)); [cbn [pow]; ring|exact K2].
  - subst i. change (q (fun a => k * (C0T h a + c * C0T na a)) (C0T j) = if Nat.eqb h j then 1 else 0).
    rewrite Ql, !Od by lia. destruct (Nat.eqb_spec h j); [lia|]. destruct (Nat.eqb_spec na j); [lia|]. ring.
  - subst j. change (q (C0T i) (fun a => k * (C0T h a + c * C0T na a)) = if Nat.eqb i h then 1 else 0).
    rewrite Qr, !Od by lia. destruct (Nat.eqb_spec i h); [lia|]. destruct (Nat.eqb_spec i na); [lia|]. ring.
  - apply Od; lia.
Qed.
