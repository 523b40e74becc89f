(** Independent specification: occupation-number (Fock) space.

    A determinant is the set of occupied spin orbitals, given as a binary number:
    spin orbital [p] is occupied when bit [p] is set.  There is no bound on the
    number of orbitals.  A state assigns an amplitude to every determinant.
    Creation and annihilation operators act with the usual sign, minus one to the
    number of occupied orbitals before the one acted on.  Nothing in this file
    refers to the modelled program. *)
From Coq Require Import List Bool Arith NArith Lia Ring.
From Verif Require Import Base.
Import ListNotations.

Definition det := N.

Definition occ (d : det) (p : nat) : bool := N.testbit d (N.of_nat p).
Definition flip (d : det) (p : nat) : det := N.lxor d (N.shiftl 1 (N.of_nat p)).

(** Parity of the number of occupied orbitals with index below [p]. *)
Fixpoint below (d : det) (p : nat) : bool :=
  match p with
  | O => false
  | S k => xorb (occ d k) (below d k)
  end.

(** No orbital occupied. *)
Definition vacuum : det := 0%N.

(** Elementary operator: orbital index, and [true] for creation. *)
Notation fop := (nat * bool)%type (only parsing).
(** Product of elementary operators; the rightmost acts first. *)
Notation fstring := (list (nat * bool)) (only parsing).

Section Amplitudes.
  Context {K : Type} `{CRing K}.
  Local Open Scope K_scope.

  Definition amps := det -> K.

  Definition sgn (b : bool) (x : K) : K := if b then - x else x.

  (** [(a_p^+ psi)(d) = [p in d] (-1)^{d below p} psi (d - p)] and
      [(a_p psi)(d) = [p not in d] (-1)^{d below p} psi (d + p)]. *)
  Definition app1 (o : fop) (psi : amps) : amps :=
    fun d => if Bool.eqb (occ d (fst o)) (snd o)
             then sgn (below d (fst o)) (psi (flip d (fst o)))
             else 0.

  Fixpoint appstr (s : fstring) (psi : amps) : amps :=
    match s with
    | [] => psi
    | o :: s' => app1 o (appstr s' psi)
    end.

  (** A linear combination of strings acting on a state. *)
  Fixpoint opapp (l : list (fstring * K)) (psi : amps) : amps :=
    fun d => match l with
             | [] => 0
             | (s, c) :: l' => c * appstr s psi d + opapp l' psi d
             end.

  (** Basis state. *)
  Definition basis (d : det) : amps := fun e => if N.eqb d e then 1 else 0.

  (** Matrix elements. *)
  Definition melstr (s : fstring) (x y : det) : K := appstr s (basis y) x.
  Definition mel (l : list (fstring * K)) (x y : det) : K := opapp l (basis y) x.

  (** Vacuum expectation value. *)
  Definition vev (l : list (fstring * K)) : K := mel l vacuum vacuum.
  Definition vevstr (s : fstring) : K := melstr s vacuum vacuum.
End Amplitudes.

(** Formal adjoint of a string. *)
Definition adjstr (s : fstring) : fstring := rev (map (fun o => (fst o, negb (snd o))) s).

(** * Facts about occupation *)

Lemma occ_flip_same d p : occ (flip d p) p = negb (occ d p).
Proof.
  unfold occ, flip. rewrite N.lxor_spec, N.shiftl_1_l, N.pow2_bits_true.
  now rewrite xorb_true_r.
Qed.

Lemma occ_flip_other d p q : p <> q -> occ (flip d p) q = occ d q.
Proof.
  intros Hne. unfold occ, flip. rewrite N.lxor_spec, N.shiftl_1_l.
  rewrite N.pow2_bits_false by lia. now rewrite xorb_false_r.
Qed.

Lemma det_ext d e : (forall p, occ d p = occ e p) -> d = e.
Proof.
  intros Hp. apply N.bits_inj. intros n. specialize (Hp (N.to_nat n)).
  unfold occ in Hp. now rewrite N2Nat.id in Hp.
Qed.

Lemma flip_flip d p : flip (flip d p) p = d.
Proof.
  apply det_ext. intros q. destruct (Nat.eq_dec p q) as [<-|Hne].
  - rewrite !occ_flip_same. now rewrite negb_involutive.
  - now rewrite !occ_flip_other.
Qed.

Lemma flip_comm d p q : flip (flip d p) q = flip (flip d q) p.
Proof.
  unfold flip. rewrite !N.lxor_assoc. f_equal. apply N.lxor_comm.
Qed.

Lemma below_flip_ge d p q : q <= p -> below (flip d p) q = below d q.
Proof.
  induction q as [|q IH]; intros Hle; simpl; auto.
  rewrite IH by lia. rewrite occ_flip_other by lia. reflexivity.
Qed.

Lemma below_flip_lt d p q : p < q -> below (flip d p) q = negb (below d q).
Proof.
  induction q as [|q IH]; intros Hlt; [lia|]. simpl.
  destruct (Nat.eq_dec p q) as [<-|Hne].
  - rewrite occ_flip_same, below_flip_ge by lia.
    destruct (occ d p), (below d p); reflexivity.
  - rewrite IH by lia. rewrite occ_flip_other by lia.
    destruct (occ d q), (below d q); reflexivity.
Qed.

Lemma occ_vacuum p : occ vacuum p = false.
Proof. unfold occ, vacuum. apply N.bits_0. Qed.

Lemma below_vacuum p : below vacuum p = false.
Proof. induction p; cbn [below]; auto. now rewrite occ_vacuum, IHp. Qed.

Section Facts.
  Context {K : Type} {C : CRing K}.
  Local Open Scope K_scope.
  Add Ring Kring : (@rth K C).

  Lemma sgn_opp b (x : K) : sgn b (- x) = - sgn b x.
  Proof. destruct b; simpl; ring. Qed.
  Lemma sgn_negb b (x : K) : sgn (negb b) x = - sgn b x.
  Proof. destruct b; simpl; ring. Qed.
  Lemma sgn_0 b : sgn b (0 : K) = 0.
  Proof. destruct b; simpl; ring. Qed.
  Lemma sgn_sgn a b (x : K) : sgn a (sgn b x) = sgn (xorb a b) x.
  Proof. destruct a, b; simpl; ring. Qed.
  Lemma sgn_add b (x y : K) : sgn b (x + y) = sgn b x + sgn b y.
  Proof. destruct b; simpl; ring. Qed.
  Lemma sgn_mul_r b (c x : K) : sgn b (c * x) = c * sgn b x.
  Proof. destruct b; simpl; ring. Qed.

  (** ** Congruence and linearity *)
  Lemma app1_ext o (f g : amps) : (forall d, f d = g d) -> forall d, app1 o f d = app1 o g d.
  Proof. intros E d. unfold app1. destruct (Bool.eqb _ _); auto. now rewrite E. Qed.

  Lemma appstr_ext s (f g : amps) : (forall d, f d = g d) -> forall d, appstr s f d = appstr s g d.
  Proof. revert f g; induction s; simpl; intros; auto. apply app1_ext; auto. Qed.

  Lemma opapp_ext l (f g : amps) : (forall d, f d = g d) -> forall d, opapp l f d = opapp l g d.
  Proof.
    intros E d. induction l as [|[s c] l IH]; simpl; auto.
    rewrite IH. now rewrite (appstr_ext s f g E).
  Qed.

  Lemma app1_add o (f g : amps) d : app1 o (fun e => f e + g e) d = app1 o f d + app1 o g d.
  Proof. unfold app1. destruct (Bool.eqb _ _); [apply sgn_add|ring]. Qed.

  Lemma app1_scale o c (f : amps) d : app1 o (fun e => c * f e) d = c * app1 o f d.
  Proof. unfold app1. destruct (Bool.eqb _ _); [apply sgn_mul_r|ring]. Qed.

  Lemma app1_opp o (f : amps) d : app1 o (fun e => - f e) d = - app1 o f d.
  Proof. unfold app1. destruct (Bool.eqb _ _); [apply sgn_opp|ring]. Qed.

  Lemma app1_zero o (f : amps) d : (forall e, f e = 0) -> app1 o f d = 0.
  Proof. intros E. unfold app1. rewrite E. destruct (Bool.eqb _ _); auto. apply sgn_0. Qed.

  Lemma appstr_add s (f g : amps) d :
    appstr s (fun e => f e + g e) d = appstr s f d + appstr s g d.
  Proof.
    revert d; induction s as [|o s IH]; intros d; simpl; auto.
    rewrite (app1_ext o _ (fun e => appstr s f e + appstr s g e)); auto. apply app1_add.
  Qed.

  Lemma appstr_scale s c (f : amps) d : appstr s (fun e => c * f e) d = c * appstr s f d.
  Proof.
    revert d; induction s as [|o s IH]; intros d; simpl; auto.
    rewrite (app1_ext o _ (fun e => c * appstr s f e)); auto. apply app1_scale.
  Qed.

  Lemma appstr_zero s (f : amps) d : (forall e, f e = 0) -> appstr s f d = 0.
  Proof.
    intros E. revert d. induction s as [|o s IH]; simpl; intros d; auto. apply app1_zero; auto.
  Qed.

  Lemma appstr_app s t (f : amps) d : appstr (s ++ t) f d = appstr s (appstr t f) d.
  Proof.
    revert d; induction s as [|o s IH]; intros d; simpl; auto. apply app1_ext. apply IH.
  Qed.

  Lemma opapp_app l m (f : amps) d : opapp (l ++ m) f d = opapp l f d + opapp m f d.
  Proof. induction l as [|[s c] l IH]; simpl; [ring|rewrite IH; ring]. Qed.

  Lemma opapp_add l (f g : amps) d :
    opapp l (fun e => f e + g e) d = opapp l f d + opapp l g d.
  Proof.
    induction l as [|[s c] l IH]; simpl; [ring|]. rewrite IH, appstr_add. ring.
  Qed.

  Lemma opapp_scale l c (f : amps) d : opapp l (fun e => c * f e) d = c * opapp l f d.
  Proof.
    induction l as [|[s c'] l IH]; simpl; [ring|]. rewrite IH, appstr_scale. ring.
  Qed.

  Lemma opapp_zero l (f : amps) d : (forall e, f e = 0) -> opapp l f d = 0.
  Proof.
    intros E. induction l as [|[s c] l IH]; simpl; auto. rewrite IH, appstr_zero by auto. ring.
  Qed.

  (** A string applied to a linear combination of strings. *)
  Lemma appstr_opapp s l (f : amps) d :
    appstr s (opapp l f) d = opapp (map (fun p => (s ++ fst p, snd p)) l) f d.
  Proof.
    induction l as [|[t c] l IH]; simpl.
    - apply appstr_zero. reflexivity.
    - rewrite <- IH. rewrite appstr_app.
      etransitivity; [apply (appstr_add s (fun e => c * appstr t f e) (opapp l f))|].
      now rewrite appstr_scale.
  Qed.

  (** ** Canonical anticommutation relations *)

  (** Same kind or different orbitals: the operators anticommute. *)
  Lemma car_swap p q a b (f : amps) d :
    (p <> q \/ a = b) ->
    app1 (p, a) (app1 (q, b) f) d = - app1 (q, b) (app1 (p, a) f) d.
  Proof.
    intros Hc. unfold app1; simpl.
    destruct (Nat.eq_dec p q) as [<-|Hne].
    - destruct Hc as [Hc|<-]; [congruence|].
      rewrite !occ_flip_same.
      destruct (occ d p), a; simpl; rewrite ?sgn_0; ring.
    - rewrite !(occ_flip_other d) by auto.
      destruct (Bool.eqb (occ d p) a) eqn:Ea, (Bool.eqb (occ d q) b) eqn:Eb;
        rewrite ?sgn_0; try ring.
      rewrite (flip_comm d p q).
      destruct (Nat.lt_ge_cases p q) as [Hlt|Hge].
      + rewrite (below_flip_lt d p q) by auto. rewrite (below_flip_ge d q p) by lia.
        rewrite sgn_negb, sgn_opp. rewrite !sgn_sgn. now rewrite xorb_comm.
      + rewrite (below_flip_ge d p q) by lia. rewrite (below_flip_lt d q p) by lia.
        rewrite sgn_negb, sgn_opp, !sgn_sgn. rewrite xorb_comm. ring.
  Qed.

  (** [a_p a_p^+ + a_p^+ a_p = 1]. *)
  Lemma car_contract p (f : amps) d :
    app1 (p, false) (app1 (p, true) f) d = f d - app1 (p, true) (app1 (p, false) f) d.
  Proof.
    unfold app1; simpl. rewrite !occ_flip_same, flip_flip.
    rewrite (below_flip_ge d p p) by lia.
    destruct (occ d p); simpl; rewrite ?sgn_0, ?sgn_sgn, ?xorb_nilpotent; simpl; ring.
  Qed.

  (** Two equal elementary operators in a row vanish. *)
  Lemma car_square o (f : amps) d : app1 o (app1 o f) d = 0.
  Proof.
    destruct o as [p a]. unfold app1; simpl. rewrite occ_flip_same.
    destruct (occ d p), a; simpl; auto using sgn_0.
  Qed.

  (** ** Scattering view: a string maps a basis determinant to plus or minus one
      basis determinant or to zero, as on paper. *)
  Fixpoint actdet (s : fstring) (d : det) : option (bool * det) :=
    match s with
    | [] => Some (false, d)
    | (p, a) :: s' =>
        match actdet s' d with
        | Some (sg, e) => if Bool.eqb (occ e p) a then None
                          else Some (xorb sg (below e p), flip e p)
        | None => None
        end
    end.

  Lemma melstr_actdet s x y :
    melstr (K:=K) s x y =
    match actdet s y with
    | Some (sg, e) => if N.eqb e x then sgn sg 1 else 0
    | None => 0
    end.
  Proof.
    unfold melstr. revert x. induction s as [|[p a] s IH]; intros x; simpl.
    - unfold basis. reflexivity.
    - unfold app1; simpl. rewrite IH. destruct (actdet s y) as [[sg e]|].
      + destruct (N.eqb_spec e (flip x p)) as [->|Hne].
        * rewrite occ_flip_same, flip_flip.
          rewrite below_flip_ge by lia.
          destruct (occ x p), a; simpl; try reflexivity;
            rewrite N.eqb_refl, sgn_sgn; now rewrite xorb_comm.
        * rewrite sgn_0.
          destruct (Bool.eqb (occ e p) a); destruct (Bool.eqb (occ x p) a); try reflexivity;
            destruct (N.eqb_spec (flip e p) x) as [Hf|]; try reflexivity;
            exfalso; apply Hne; rewrite <- Hf; now rewrite flip_flip.
      + rewrite sgn_0. now destruct (Bool.eqb (occ x p) a).
  Qed.

  (** The formal adjoint is the transpose. *)
  Lemma actdet_app s t d :
    actdet (s ++ t) d =
    match actdet t d with
    | Some (sg, e) => match actdet s e with
                      | Some (sg', e') => Some (xorb sg sg', e')
                      | None => None
                      end
    | None => None
    end.
  Proof.
    induction s as [|[p a] s IH]; simpl.
    - destruct (actdet t d) as [[sg e]|]; auto. now rewrite xorb_false_r.
    - rewrite IH. destruct (actdet t d) as [[sg e]|]; auto.
      destruct (actdet s e) as [[sg' e']|]; auto.
      destruct (Bool.eqb (occ e' p) a); auto. now rewrite xorb_assoc.
  Qed.

  Lemma actdet_adj s d sg e : actdet s d = Some (sg, e) -> actdet (adjstr s) e = Some (sg, d).
  Proof.
    unfold adjstr. revert sg e. induction s as [|[p a] s IH]; simpl; intros sg e Hs.
    - inversion Hs; subst; auto.
    - destruct (actdet s d) as [[sg1 e1]|] eqn:E; [|discriminate].
      destruct (Bool.eqb (occ e1 p) a) eqn:Eo; inversion Hs; subst; clear Hs.
      rewrite actdet_app. simpl. rewrite occ_flip_same.
      assert (Hx : Bool.eqb (negb (occ e1 p)) (negb a) = false).
      { destruct (occ e1 p), a; simpl in *; congruence. }
      rewrite Hx. rewrite flip_flip, below_flip_ge by lia.
      rewrite (IH _ _ eq_refl). f_equal. f_equal.
      destruct sg1, (below e1 p); reflexivity.
  Qed.

  Lemma adjstr_involutive s : adjstr (adjstr s) = s.
  Proof.
    unfold adjstr. rewrite map_rev, rev_involutive, map_map.
    rewrite <- (map_id s) at 2. apply map_ext. intros [p a]. simpl. now rewrite negb_involutive.
  Qed.

  Lemma melstr_adj s x y : melstr (K:=K) (adjstr s) x y = melstr s y x.
  Proof.
    rewrite !melstr_actdet.
    destruct (actdet (adjstr s) y) as [[sg e]|] eqn:E1.
    - pose proof (actdet_adj _ _ _ _ E1) as E2. rewrite adjstr_involutive in E2.
      destruct (N.eqb_spec e x) as [->|Hne].
      + rewrite E2. now rewrite N.eqb_refl.
      + destruct (actdet s x) as [[sg' e']|] eqn:E3; auto.
        destruct (N.eqb_spec e' y) as [->|]; auto.
        apply actdet_adj in E3. congruence.
    - destruct (actdet s x) as [[sg' e']|] eqn:E3; auto.
      destruct (N.eqb_spec e' y) as [->|]; auto.
      apply actdet_adj in E3. congruence.
  Qed.

  Lemma mel_cons s c l x y : mel (K:=K) ((s, c) :: l) x y = c * melstr s x y + mel l x y.
  Proof. reflexivity. Qed.
End Facts.
