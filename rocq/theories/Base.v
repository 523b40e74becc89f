(** Shared vocabulary of the model: results of Python calls, the coefficient
    ring that stands for Python floats, and a bounded-iteration combinator used
    to model [while] loops. *)
From Coq Require Import List Bool Arith ZArith Lia Ring Ring_theory.
Import ListNotations.

(** Python exceptions that the modelled code can raise. *)
Inductive Exn : Type :=
| IndexError | KeyError | ValueError | RuntimeError | TypeError
| AttributeError | ZeroDivisionError | NotImplementedErr.

(** Outcome of a modelled call.  [Hang] is the out-of-fuel value: a theorem
    "never [Hang]" is a termination theorem about the modelled loop. *)
Inductive Res (A : Type) : Type :=
| Ok (a : A)
| Raise (e : Exn)
| Hang.
Arguments Ok {A} a.
Arguments Raise {A} e.
Arguments Hang {A}.

Definition bind {A B} (r : Res A) (f : A -> Res B) : Res B :=
  match r with Ok a => f a | Raise e => Raise e | Hang => Hang end.

(** The coefficient domain.  Python uses floats; the model uses any commutative
    ring together with a test [small] standing for [abs(x) < 10**-14]
    (fermionic_operator.py lines 101, 142, 160, 180, 199, 235, 270).
    Simplification: rounding is not modelled. *)
Class CRing (K : Type) := {
  rO : K; rI : K;
  radd : K -> K -> K; rmul : K -> K -> K; rsub : K -> K -> K; ropp : K -> K;
  rth : ring_theory rO rI radd rmul rsub ropp (@eq K);
  small : K -> bool
}.

Declare Scope K_scope.
Delimit Scope K_scope with K.
Notation "x + y" := (radd x y) : K_scope.
Notation "x * y" := (rmul x y) : K_scope.
Notation "x - y" := (rsub x y) : K_scope.
Notation "- x" := (ropp x) : K_scope.
Notation "0" := rO : K_scope.
Notation "1" := rI : K_scope.

(** "Only exact zeros are below the deletion threshold": holds e.g. for integer
    coefficients, and for floats whenever no coefficient lies strictly between 0
    and 1e-14 in absolute value. *)
Definition exact_small (K : Type) `{CRing K} : Prop :=
  forall c : K, small c = true -> c = rO.

(** Integer coefficients: used for the concrete examples. *)
#[export] Instance Z_CRing : CRing Z := {
  rO := 0%Z; rI := 1%Z; radd := Z.add; rmul := Z.mul; rsub := Z.sub; ropp := Z.opp;
  rth := Zth;
  small := fun z => Z.eqb z 0
}.

Lemma Z_exact_small : exact_small Z.
Proof. intros c H. apply Z.eqb_eq in H. exact H. Qed.

(** Sum of a list of ring elements. *)
Fixpoint ksum {K} `{CRing K} (l : list K) : K :=
  match l with [] => rO | x :: r => radd x (ksum r) end.

(** Bounded iteration with early exit: [iterp n step s] performs at most [2^n]
    steps.  [inl s'] means "still running in state s'", [inr r] means finished.
    Used to model [while] loops whose number of rounds is not bounded by the
    size of the input in an obvious way. *)
Fixpoint iterp {S R : Type} (n : nat) (step : S -> S + R) (s : S) : S + R :=
  match n with
  | O => step s
  | Datatypes.S m => match iterp m step s with
           | inl s' => iterp m step s'
           | inr r => inr r
           end
  end.

(** Invariant principle for [iterp]. *)
Lemma iterp_inv {S R : Type} (P : S -> Prop) (Q : R -> Prop) (step : S -> S + R) :
  (forall s, P s -> match step s with inl s' => P s' | inr r => Q r end) ->
  forall n s, P s -> match iterp n step s with inl s' => P s' | inr r => Q r end.
Proof.
  intros Hstep n; induction n as [|n IH]; intros s Hs; simpl.
  - apply Hstep; exact Hs.
  - specialize (IH s Hs) as IH1. destruct (iterp n step s) as [s'|r].
    + apply IH; exact IH1.
    + exact IH1.
Qed.

(** Termination principle for [iterp]: a measure that drops at every step and is
    at most [2^n - 1] at the start forces the loop to finish. *)
Lemma iterp_measure {S R : Type} (P : S -> Prop) (m : S -> nat) (step : S -> S + R) :
  (forall s, P s -> match step s with inl s' => P s' /\ m s' < m s | inr _ => True end) ->
  forall n s, P s ->
    match iterp n step s with
    | inl s' => P s' /\ m s' + 2 ^ n <= m s
    | inr _ => True
    end.
Proof.
  intros Hstep n; induction n as [|n IH]; intros s Hs; simpl.
  - specialize (Hstep s Hs). destruct (step s) as [s'|]; auto.
    destruct Hstep; split; auto. lia.
  - specialize (IH s Hs) as IH1. destruct (iterp n step s) as [s'|r]; auto.
    destruct IH1 as [H1 H2].
    specialize (IH s' H1) as IH2. destruct (iterp n step s') as [s''|]; auto.
    destruct IH2 as [H3 H4]. split; auto. lia.
Qed.

Lemma iterp_terminates {S R : Type} (P : S -> Prop) (m : S -> nat) (step : S -> S + R) n s :
  (forall s, P s -> match step s with inl s' => P s' /\ m s' < m s | inr _ => True end) ->
  P s -> m s < 2 ^ n -> exists r, iterp n step s = inr r.
Proof.
  intros Hstep Hs Hm. pose proof (iterp_measure P m step Hstep n s Hs) as HH.
  destruct (iterp n step s) as [s'|r]; [lia|eauto].
Qed.
