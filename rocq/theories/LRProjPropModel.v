(** Transition dipoles of the projected linear response classes:
    linear_response/projected.py 285-396 and allprojected.py 288-486. *)
From Coq Require Import List Bool Arith NArith ZArith Ascii String.
From Verif Require Import Base Fock FermiModel OperatorsModel OperatorsSums CIModel StateModel DensityModel StructModel LRModel LRPropModel.
Import ListNotations.
Local Open Scope nat_scope.
Local Open Scope list_scope.

Section LRProjProp.
  Context {K : Type} {C : CRing K}.
  Local Open Scope K_scope.
  Notation dict := (list (fstring * K)).
  Notation "x <- a ;; b" := (bind a (fun x => b)) (at level 61, a at next level, right associativity).
  Variables (L : @literals K) (tiny : K -> bool) (sp : @space) (th : threads)
    (ansatz : bool -> list K -> Res (list K)) (O : orbitals) (st : list K).
  Notation ni := (sp_ni sp).
  Notation na := (sp_na sp).
  Notation prop := (prop tiny sp th ansatz).
  Notation expv := (expv tiny sp th ansatz).

  (** [q_part], projected.py:322-355 and allprojected.py:322-355, one component. *)
  Definition q_part (Q : list dict) (x : nat -> nat -> K) (size : nat) (v : nat -> K) : Res K :=
    match Q with
    | [] => Ok 0
    | _ => r1 <- wf_rdm1 tiny sp th ansatz st ;;
           Ok (get_orbital_response_property_gradient (l_s2 L) x (o_kappa O) ni na (fun i j => r1 [i; j]) v size)
    end.
  (** [g_part], projected.py:356-391, one component; [Z] and [Y] are [Z_G_normed]
      and [Y_G_normed] of the state. *)
  Definition p_g_part (G : list dict) (mu_ket : list K) (exp_mu : K) (Z Y : nat -> K) : Res K :=
    eloop 0 G (fun i D acc =>
      G_ket <- prop [D] st ;;
      exp_G <- expv st [] G_ket ;;
      exp_Gmu <- expv G_ket [] mu_ket ;;
      Ok (acc + Z i * exp_G * exp_mu - Z i * exp_Gmu - Y i * exp_G * exp_mu + Y i * exp_Gmu)) 0.
  (** One component for one state, projected.py:285-396. *)
  Definition p_transition_dipole (Q G : list dict) (x : nat -> nat -> K) (size : nat) (v : nat -> K) : Res K :=
    let nq := List.length Q in
    let nG := (size - nq)%nat in
    mu <- one_elec_op_0i_0a x ni na ;;
    mu_ket <- prop [mu] st ;;
    exp_mu <- expv st [] mu_ket ;;
    q <- q_part Q x size v ;;
    gp <- p_g_part G mu_ket exp_mu (fun i => v (nq + i)%nat) (fun i => v (2 * nq + nG + i)%nat) ;;
    Ok (q + gp).

  (** [g_part], allprojected.py:356-482, one component. *)
  Definition ap_g_part (G : list dict) (mu_ket mud_ket : list K) (Z Y : nat -> K) : Res K :=
    eloop 0 G (fun i D acc =>
      G_ket <- prop [D] st ;;
      exp_G <- expv st [] G_ket ;;
      exp_G_dagger <- expv G_ket [] st ;;
      exp_mu <- expv st [] mu_ket ;;
      Gmu <- expv G_ket [] mu_ket ;;
      muG <- expv mud_ket [] G_ket ;;
      Ok (acc + Z i * exp_G_dagger * exp_mu - Z i * Gmu - Y i * exp_G * exp_mu + Y i * muG)) 0.
  (** One component for one state, allprojected.py:288-486. *)
  Definition ap_transition_dipole (Q G : list dict) (x : nat -> nat -> K) (size : nat) (v : nat -> K) : Res K :=
    let nq := List.length Q in
    let nG := (size - nq)%nat in
    mu <- one_elec_op_0i_0a x ni na ;;
    mu_ket <- prop [mu] st ;;
    mud <- op_dagger mu ;;
    mud_ket <- prop [mud] st ;;
    q <- q_part Q x size v ;;
    gp <- ap_g_part G mu_ket mud_ket (fun i => v (nq + i)%nat) (fun i => v (2 * nq + nG + i)%nat) ;;
    Ok (q + gp).

  (** All components and states, with the operators of the constructor. *)
  Definition dipoles_with (dip : list dict -> list dict -> (nat -> nat -> K) -> nat -> (nat -> K) -> Res K)
      (excitations : string) (mu : list (nat -> nat -> K)) (size : nat) (vs : list (nat -> K)) : Res (list (list K)) :=
    G <- lr_G_ops L O excitations ;;
    Q <- lr_q_ops L O ;;
    rlist (fun v => rlist (fun x => dip Q G x size v) mu) vs.
  Definition p_transition_dipoles := dipoles_with p_transition_dipole.
  Definition ap_transition_dipoles := dipoles_with ap_transition_dipole.
End LRProjProp.
