(** State-averaged density matrices and the orbital part of the state-averaged
    gradient, sa_ups_wavefunction.py lines 397-480 and 939-948. *)
From Coq Require Import List Bool Arith NArith Reals.
From Verif Require Import Base RRing Fock FermiModel OperatorsModel CIModel StateModel UPSModel DensityModel.
Import ListNotations.
Local Open Scope R_scope.

Section SARdm.
  Variable tiny_le : R -> bool.
  Variable sp : space.
  Variable th : threads.
  Notation ni := (sp_ni sp).
  Notation na := (sp_na sp).
  (** [expectation_value_SA(ci, ops, ci, ci_info, do_folding=False)]; the operators
      are built before the call and may raise. *)
  Definition ev_SA (ci : list (list R)) (ops : list (Res (list (fstring * R)))) : Res R :=
    bind (fold_right (fun r acc => bind r (fun D => bind acc (fun l => Ok (SOp D :: l)))) (Ok []) ops) (fun l =>
    expectation_value_SA tiny_le (fun k => / INR k) sp th false no_ansatz ci l ci).
  (** [rdm1], lines 397-424: the loops are those of the single-state class, the
      operators carry active-space indices. *)
  Definition sa_rdm1 (ci : list (list R)) : Res arr :=
    rdm1_loop (fun p q => ev_SA ci [Epq (p - ni) (q - ni)]) ni na.
  (** [rdm2], lines 426-480. *)
  Definition sa_rdm2 (ci : list (list R)) : Res arr :=
    bind (sa_rdm1 ci) (fun r1 =>
    rdm2_loop (fun p q r s => ev_SA ci [Epq (p - ni) (q - ni); Epq (r - ni) (s - ni)]) r1 ni na).
  (** The part of [_calc_gradient_optimization] over the orbital rotations, lines
      939-948. *)
  Definition sa_kappa_gradient (h : nat -> nat -> R) (g : nat -> nat -> nat -> nat -> R) (kappa_idx : list (nat * nat)) (ci : list (list R)) : Res (list R) :=
    bind (sa_rdm1 ci) (fun r1 =>
    bind (sa_rdm2 ci) (fun r2 =>
    Ok (get_orbital_gradient h g kappa_idx ni na (fun i j => r1 [i; j]) (fun i j k l => r2 [i; j; k; l])))).
End SARdm.
