(** Transition dipoles of the state-transfer linear response classes:
    linear_response/statetransfer.py 157-279 and, word for word the same,
    projected_statetransfer.py 147-269. *)
From Coq Require Import List Bool Arith NArith ZArith Ascii String.
From Verif Require Import Base Fock FermiModel OperatorsModel OperatorsSums CIModel StateModel DensityModel StructModel LRModel LRPropModel LRProjPropModel LRTransferModel.
Import ListNotations.
Local Open Scope nat_scope.
Local Open Scope list_scope.

Section LRTransferProp.
  Context {K : Type} {C : CRing K}.
  Local Open Scope K_scope.
  Notation dict := (list (fstring * K)).
  Notation "x <- a ;; b" := (bind a (fun x => b)) (at level 61, a at next level, right associativity).
  Variables (L : @literals K) (tiny : K -> bool) (sp : @space) (th : threads)
    (ansatz : bool -> list K -> Res (list K)) (O : orbitals) (st csf : list K).
  Notation ni := (sp_ni sp).
  Notation na := (sp_na sp).
  Notation prop := (prop tiny sp th ansatz).
  Notation expv := (expv tiny sp th ansatz).
  Notation props := (props tiny sp th ansatz).

  (** [g_part], statetransfer.py:225-275, one component; [Z] and [Y] are
      [Z_G_normed] and [Y_G_normed] of the state. *)
  Definition t_g_part (G : list dict) (Udmud_ket Udmu_ket : list K) (Z Y : nat -> K) : Res K :=
    eloop 0 G (fun i D acc =>
      G_ket <- prop [D] csf ;;
      a <- expv Udmud_ket [] G_ket ;;
      b <- expv G_ket [] Udmu_ket ;;
      Ok (acc - Z i * a + Y i * b)) 0.
  (** One component for one state, statetransfer.py:157-279. *)
  Definition t_transition_dipole (Q G : list dict) (x : nat -> nat -> K) (size : nat) (v : nat -> K) : Res K :=
    let nq := List.length Q in
    let nG := (size - nq)%nat in
    mu <- one_elec_op_0i_0a x ni na ;;
    mud <- op_dagger mu ;;
    Udmud_ket <- props [SU true; SOp mud] st ;;
    Udmu_ket <- props [SU true; SOp mu] st ;;
    q <- q_part L tiny sp th ansatz O st Q x size v ;;
    gp <- t_g_part G Udmud_ket Udmu_ket (fun i => v (nq + i)%nat) (fun i => v (2 * nq + nG + i)%nat) ;;
    Ok (q + gp).
  (** All components and states. *)
  Definition t_transition_dipoles := dipoles_with L O t_transition_dipole.
End LRTransferProp.
