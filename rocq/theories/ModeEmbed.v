(** Relabelling of orbitals.  An order-preserving map [f] of the orbitals
    [0..m-1] into the orbitals of a larger system turns operator identities on
    [m] orbitals into identities on the larger system: for every determinant of
    the remaining orbitals there is a linear map [pull] from the large to the
    small Fock space that intertwines every product of operators. *)
From Coq Require Import List Bool Arith NArith Lia Ring.
From Verif Require Import Base Fock.
Import ListNotations.

Section Embed.
  Variable m : nat.
  Variable f : nat -> nat.
  Hypothesis Hf : forall p q, p < q -> q < m -> f p < f q.

  Lemma f_inj p q : p < m -> q < m -> f p = f q -> p = q.
  Proof.
    intros Hp Hq E. destruct (Nat.lt_total p q) as [H|[H|H]]; auto.
    - pose proof (Hf p q H Hq). lia.
    - pose proof (Hf q p H Hp). lia.
  Qed.

  (** The bits [f 0 .. f (k-1)] of [D] replaced by the bits of [x]. *)
  Fixpoint place (k : nat) (D x : det) : det :=
    match k with
    | O => D
    | S j => let d := place j D x in if Bool.eqb (occ d (f j)) (occ x j) then d else flip d (f j)
    end.

  Lemma place_other k D x P : (forall p, p < k -> f p <> P) -> occ (place k D x) P = occ D P.
  Proof.
    induction k as [|k IH]; cbn [place]; auto. intros H.
    assert (E : occ (place k D x) P = occ D P) by (apply IH; intros; apply H; lia).
    destruct (Bool.eqb _ _); auto. rewrite occ_flip_other; auto.
  Qed.

  Lemma place_in k D x p : k <= m -> p < k -> occ (place k D x) (f p) = occ x p.
  Proof.
    induction k as [|k IH]; [lia|]. intros Hk Hp. cbn [place].
    destruct (Nat.eq_dec p k) as [->|Hne].
    - destruct (Bool.eqb (occ (place k D x) (f k)) (occ x k)) eqn:E.
      + now apply Bool.eqb_prop.
      + rewrite occ_flip_same. apply Bool.eqb_false_iff in E.
        destruct (occ _ _), (occ x k); simpl; congruence.
    - destruct (Bool.eqb _ _); [apply IH; lia|].
      rewrite occ_flip_other; [apply IH; lia|].
      intros E. apply Hne. symmetry. apply f_inj; auto; lia.
  Qed.

  Lemma in_image P : (exists p, p < m /\ f p = P) \/ (forall p, p < m -> f p <> P).
  Proof.
    clear Hf. induction m as [|k IH]; [right; lia|].
    destruct IH as [(p & H & E)|H]; [left; exists p; split; auto|].
    destruct (Nat.eq_dec (f k) P) as [E|E]; [left; exists k; split; auto|].
    right. intros p Hp. destruct (Nat.eq_dec p k) as [->|]; auto. apply H. lia.
  Qed.

  Definition pl := place m.

  Lemma pl_flip D x p : p < m -> pl D (flip x p) = flip (pl D x) (f p).
  Proof.
    intros Hp. apply det_ext. intros P. destruct (in_image P) as [(q & Hq & <-)|H].
    - unfold pl. rewrite place_in by auto. destruct (Nat.eq_dec p q) as [->|Hne].
      + now rewrite !occ_flip_same, place_in.
      + rewrite !occ_flip_other; auto. { now rewrite place_in. }
        intros E. apply Hne. now apply f_inj.
    - unfold pl. rewrite place_other by auto. rewrite occ_flip_other by auto. now rewrite place_other.
  Qed.

  (** The small configuration of a determinant. *)
  Fixpoint loc (k : nat) (D : det) : det :=
    match k with
    | O => vacuum
    | S j => let d := loc j D in if occ D (f j) then flip d j else d
    end.
  Lemma occ_loc k D p : occ (loc k D) p = (p <? k) && occ D (f p).
  Proof.
    induction k as [|k IH]; cbn [loc]; [apply occ_vacuum|].
    destruct (occ D (f k)) eqn:E; destruct (Nat.eq_dec k p) as [->|Hne].
    - rewrite occ_flip_same, IH. replace (p <? p) with false by (symmetry; apply Nat.ltb_ge; lia).
      replace (p <? S p) with true by (symmetry; apply Nat.ltb_lt; lia). now rewrite E.
    - rewrite occ_flip_other, IH by auto. f_equal. destruct (Nat.ltb_spec p k), (Nat.ltb_spec p (S k)); auto; lia.
    - rewrite IH, E. now rewrite !andb_false_r.
    - rewrite IH. f_equal. destruct (Nat.ltb_spec p k), (Nat.ltb_spec p (S k)); auto; lia.
  Qed.
  Lemma pl_loc D : pl D (loc m D) = D.
  Proof.
    apply det_ext. intros P. destruct (in_image P) as [(q & Hq & <-)|H]; unfold pl.
    - rewrite place_in by auto. rewrite occ_loc. now replace (q <? m) with true by (symmetry; now apply Nat.ltb_lt).
    - now rewrite place_other.
  Qed.

  (** Small configurations only use the orbitals below [m]. *)
  Definition sm (x : det) : Prop := forall p, m <= p -> occ x p = false.
  Lemma sm_loc D : sm (loc m D).
  Proof. intros p Hp. rewrite occ_loc. now replace (p <? m) with false by (symmetry; apply Nat.ltb_ge; lia). Qed.
  Lemma sm_flip x p : p < m -> sm x -> sm (flip x p).
  Proof. intros Hp H q Hq. rewrite occ_flip_other by lia. auto. Qed.

  (** Induction over small configurations by adding orbitals. *)
  Lemma sm_ind (P : det -> Prop) : P vacuum -> (forall x p, p < m -> P x -> P (flip x p)) -> forall x, sm x -> P x.
  Proof.
    intros H0 HS x Hx.
    assert (forall k, k <= m -> forall y, (forall p, k <= p -> occ y p = false) -> P y) as G.
    2: { apply (G m); auto. }
    induction k as [|k IH]; intros Hk y Hy.
    - replace y with vacuum; auto. apply det_ext. intros p. rewrite occ_vacuum, Hy; auto. lia.
    - destruct (occ y k) eqn:E.
      + rewrite <- (flip_flip y k). apply HS; [lia|]. apply IH; [lia|]. intros p Hp.
        destruct (Nat.eq_dec k p) as [<-|]; [now rewrite occ_flip_same, E|]. rewrite occ_flip_other by auto. apply Hy. lia.
      + apply IH; [lia|]. intros p Hp. destruct (Nat.eq_dec k p) as [<-|]; auto. apply Hy. lia.
  Qed.

  (** Parity of the spectators below [f p]. *)
  Definition spec (D : det) (p : nat) : bool := below (pl D vacuum) (f p).

  Lemma below_vacuum p : below vacuum p = false.
  Proof. induction p; auto. cbn [below]. now rewrite occ_vacuum, IHp. Qed.

  Lemma below_pl D x p : sm x -> p < m -> below (pl D x) (f p) = xorb (spec D p) (below x p).
  Proof.
    intros Hx Hp. revert x Hx. apply sm_ind.
    - unfold spec. now rewrite below_vacuum, xorb_false_r.
    - intros x q Hq IH. rewrite pl_flip by auto.
      destruct (Nat.lt_ge_cases q p) as [H|H].
      + rewrite !below_flip_lt; auto. rewrite IH. now destruct (spec D p), (below x p).
      + rewrite !below_flip_ge; auto. destruct (Nat.eq_dec p q) as [->|]; auto.
        pose proof (Hf p q ltac:(lia) Hq). lia.
  Qed.

  Fixpoint chi (D : det) (k : nat) (x : det) : bool :=
    match k with O => false | S j => xorb (chi D j x) (occ x j && spec D j) end.
  Lemma chi_flip_ge D k x p : k <= p -> chi D k (flip x p) = chi D k x.
  Proof. induction k as [|k IH]; intros H; cbn [chi]; auto. rewrite IH, occ_flip_other by lia. reflexivity. Qed.
  Lemma chi_flip D k x p : p < k -> chi D k (flip x p) = xorb (chi D k x) (spec D p).
  Proof.
    induction k as [|k IH]; [lia|]. intros H. cbn [chi]. destruct (Nat.eq_dec p k) as [->|Hne].
    - rewrite chi_flip_ge by lia. rewrite occ_flip_same. now destruct (chi D k x), (occ x k), (spec D k).
    - rewrite IH by lia. rewrite occ_flip_other by auto. now destruct (chi D k x), (spec D p), (occ x k), (spec D k).
  Qed.

  Context {K : Type} {C : CRing K}.
  Local Open Scope K_scope.
  Add Ring KringME : (@rth K C).

  Definition pull (D : det) (v : amps (K:=K)) : amps (K:=K) := fun x => sgn (chi D m x) (v (pl D x)).

  Definition ren (s : fstring) : fstring := map (fun o => (f (fst o), snd o)) s.
  Definition below_m (s : fstring) : Prop := forall o, In o s -> (fst o < m)%nat.

  Lemma pull_app1 D p a v x : (p < m)%nat -> sm x ->
    pull D (app1 (f p, a) v) x = app1 (p, a) (pull D v) x.
  Proof.
    intros Hp Hx. unfold pull, app1. cbn [fst snd]. unfold pl at 1. rewrite place_in by auto.
    destruct (Bool.eqb (occ x p) a); [|now destruct (chi D m x); cbn; ring].
    rewrite below_pl, pl_flip, chi_flip by auto.
    destruct (chi D m x), (spec D p), (below x p); cbn; ring.
  Qed.

  Lemma app1_sm_ext o (v w : amps (K:=K)) : (fst o < m)%nat -> (forall x, sm x -> v x = w x) ->
    forall x, sm x -> app1 o v x = app1 o w x.
  Proof. intros Ho H x Hx. unfold app1. rewrite H; auto. now apply sm_flip. Qed.

  Theorem pull_appstr D s v x : below_m s -> sm x -> pull D (appstr (ren s) v) x = appstr s (pull D v) x.
  Proof.
    revert x. induction s as [|[p a] s IH]; intros x Hs Hx; [reflexivity|].
    cbn [ren map appstr fst snd].
    rewrite pull_app1; auto. 2: { apply (Hs (p, a)). now left. }
    apply app1_sm_ext; auto. { apply (Hs (p, a)). now left. }
    intros y Hy. apply IH; auto. intros o Ho. apply Hs. now right.
  Qed.

  (** A vector is recovered from its pulled-back pieces. *)
  Lemma pull_at (D : det) (v : amps (K:=K)) : v D = sgn (chi D m (loc m D)) (pull D v (loc m D)).
  Proof. unfold pull. rewrite pl_loc. destruct (chi D m (loc m D)); cbn; ring. Qed.
  Lemma pull_zero D (v : amps (K:=K)) : (forall x, sm x -> pull D v x = 0) -> v D = 0.
  Proof. intros H. rewrite (pull_at D v), H by apply sm_loc. destruct (chi D m (loc m D)); cbn; ring. Qed.
  Lemma pull_lin D (a b : K) (v w : amps (K:=K)) x :
    pull D (fun y => a * v y + b * w y) x = a * pull D v x + b * pull D w x.
  Proof. unfold pull. destruct (chi D m x); cbn; ring. Qed.
End Embed.
