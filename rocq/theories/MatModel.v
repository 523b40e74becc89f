(** Model of the integral transformations of
    slowquant/molecularintegrals/integralfunctions.py:186-211.

    Matrices and four-index arrays are functions on indices; all axes have a
    length that is passed explicitly.  Entries lie in an arbitrary commutative
    ring (no rounding). *)
From Coq Require Import List Bool Arith.
From Verif Require Import Base.
Import ListNotations.

Section Mat.
  Context {K : Type} {C : CRing K}.
  Local Open Scope K_scope.

  (** [sum_{k<n} f(k)]. *)
  Fixpoint tsum (n : nat) (f : nat -> K) : K :=
    match n with 0 => 0 | S m => tsum m f + f m end.

  Definition mx := nat -> nat -> K.
  Definition mx4 := nat -> nat -> nat -> nat -> K.

  (** [np.matmul] with inner dimension [n]. *)
  Definition matmul (n : nat) (A B : mx) : mx := fun i j => tsum n (fun k => A i k * B k j).
  Definition mid : mx := fun i j => if Nat.eqb i j then 1 else 0.
  Definition mtr (A : mx) : mx := fun i j => A j i.

  (** [one_electron_integral_transform], line 196:
      [np.einsum("ai,bj,ab->ij", C, C, int1e, optimize=[..., (0, 2), (0, 1)])].
      The first contraction takes operands 0 ("ai") and 2 ("ab"); its result is
      appended to the remaining operand "bj"; the second contracts these two. *)
  Definition one_electron_integral_transform (n : nat) (Cm int1e : mx) : mx :=
    let T := fun b i => tsum n (fun a => Cm a i * int1e a b) in
    fun i j => tsum n (fun b => Cm b j * T b i).

  (** [two_electron_integral_transform], lines 209-211:
      path (0, 4), (0, 3), (0, 2), (0, 1): the coefficient matrices are
      contracted one after the other, from the first index to the last. *)
  Definition two_electron_integral_transform (n : nat) (Cm : mx) (int2e : mx4) : mx4 :=
    let T1 := fun b c d i => tsum n (fun a => Cm a i * int2e a b c d) in
    let T2 := fun c d i j => tsum n (fun b => Cm b j * T1 b c d i) in
    let T3 := fun d i j k => tsum n (fun c => Cm c k * T2 c d i j) in
    fun i j k l => tsum n (fun d => Cm d l * T3 d i j k).
End Mat.
