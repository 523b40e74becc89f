(** Real coefficients.  The deletion threshold is idealised to "exactly zero". *)
From Coq Require Import Reals.
From Verif Require Import Base.

#[export] Instance R_CRing : CRing R := {
  rO := 0%R; rI := 1%R; radd := Rplus; rmul := Rmult; rsub := Rminus; ropp := Ropp;
  rth := RTheory;
  small := fun c => if Req_EM_T c 0 then true else false
}.

Lemma R_exact_small : exact_small R.
Proof. intros c. cbn. destruct (Req_EM_T c 0); [auto|discriminate]. Qed.
