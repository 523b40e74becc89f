(** State-averaged wave function, sa_ups_wavefunction.py: energies, subspace
    diagonalisation, transition properties and the gradient of the ansatz
    parameters (lines 313-327, 495-515 and 741-1003).

    Floats are idealised to real numbers.  The caches are not modelled here: the
    setters of [kappa] and [thetas] drop the cached energies and states. *)
From Coq Require Import List Bool Arith NArith Reals.
From Verif Require Import Base RRing Fock FermiModel OperatorsModel CIModel StateModel UPSModel.
Import ListNotations.
Local Open Scope R_scope.

Section SA.
  Variables tiny tiny_le : R -> bool.
  Variable sp : space.
  Variable th : threads.
  Notation half := (1 / 2).
  Notation ni := (sp_ni sp).
  Notation na := (sp_na sp).
  Notation nv := (sp_nv sp).
  (** [expectation_value(bra, [op], ket, ci_info, do_folding=False)]. *)
  Definition ev_nofold (op : list (fstring * R)) (bra ket : list R) : Res R :=
    expectation_value tiny sp th false false no_ansatz bra [SOp op] ket.

  Definition put2 (M : nat -> nat -> R) (i j : nat) (v : R) : nat -> nat -> R :=
    fun a b => if Nat.eqb a i && Nat.eqb b j then v else M a b.
  (** The double loop with [if j > i: continue], lines 748-762. *)
  Definition state_H (op : list (fstring * R)) (ci : list (list R)) : Res (nat -> nat -> R) :=
    fold_left (fun acc (ij : nat * nat) => bind acc (fun M =>
        let '(i, j) := ij in
        if Nat.ltb i j then Ok M else
        bind (ev_nofold op (nth i ci []) (nth j ci [])) (fun v => Ok (put2 (put2 M j i v) i j v))))
      (list_prod (seq 0 (length ci)) (seq 0 (length ci))) (Ok (fun _ _ => 0)).
  (** The double loop of [get_transition_property], lines 821-829. *)
  Definition state_op (op : list (fstring * R)) (ci : list (list R)) : Res (nat -> nat -> R) :=
    fold_left (fun acc (ij : nat * nat) => bind acc (fun M =>
        let '(i, j) := ij in
        bind (ev_nofold op (nth i ci []) (nth j ci [])) (fun v => Ok (put2 M i j v))))
      (list_prod (seq 0 (length ci)) (seq 0 (length ci))) (Ok (fun _ _ => 0)).

  (** [scipy.linalg.eig] of a real matrix of the given size (eigenvalues and
      vectors, their real parts) and [np.argsort]. *)
  Variable eig : (nat -> nat -> R) -> nat -> list (R * (nat -> R)).
  Variable argsort : list R -> list nat.
  Record state_ci := { s_energies : list R; s_coeffs : list (nat -> R) }.
  (** [_do_state_ci], lines 741-769. *)
  Definition do_state_ci (h : nat -> nat -> R) (g : nat -> nat -> nat -> nat -> R) (ci : list (list R)) : Res state_ci :=
    bind (hamiltonian_0i_0a half h g ni na) (fun H =>
    bind (state_H (op_fold ni na nv H) ci) (fun S =>
    let e := eig S (length ci) in
    let sorting := argsort (map fst e) in
    Ok {| s_energies := map (fun k => nth k (map fst e) 0) sorting;
          s_coeffs := map (fun k => nth k (map snd e) (fun _ => 0)) sorting |})).

  (** [excitation_energies], lines 782-795. *)
  Definition sa_excitation_energies (s : state_ci) : list R := map (fun e => e - nth 0 (s_energies s) 0) (tl (s_energies s)).
  (** [a @ M @ b] for vectors of length [n]. *)
  Definition vMv (n : nat) (a : nat -> R) (M : nat -> nat -> R) (b : nat -> R) : R :=
    fold_right Rplus 0 (map (fun i => fold_right Rplus 0 (map (fun j => a i * M i j * b j) (seq 0 n))) (seq 0 n)).
  (** [get_transition_property], lines 797-833; [x] is [mo_integral]. *)
  Definition sa_transition_property (x : nat -> nat -> R) (s : state_ci) (ci : list (list R)) : Res (list R) :=
    bind (one_elec_op_0i_0a x ni na) (fun D =>
    bind (state_op (op_fold ni na nv D) ci) (fun M =>
    Ok (map (fun i => vMv (length ci) (nth (S i) (s_coeffs s) (fun _ => 0)) M (nth 0 (s_coeffs s) (fun _ => 0)))
            (seq 0 (length ci - 1))))).
  (** [get_oscillator_strenghts], lines 835-853. *)
  Definition sa_oscillator_strengths (mux muy muz : nat -> nat -> R) (s : state_ci) (ci : list (list R)) : Res (list R) :=
    bind (sa_transition_property mux s ci) (fun tx =>
    bind (sa_transition_property muy s ci) (fun ty =>
    bind (sa_transition_property muz s ci) (fun tz =>
    Ok (map (fun ed : R * (R * (R * R)) => let '(e, (x, (y, z))) := ed in 2 / 3 * e * (x ^ 2 + y ^ 2 + z ^ 2))
            (combine (sa_excitation_energies s) (combine tx (combine ty tz))))))).

  (** [sa_energy], lines 495-515, and the value of [_calc_energy_optimization],
      lines 884-914 (there the operator is folded beforehand). *)
  Definition sa_energy (h : nat -> nat -> R) (g : nat -> nat -> nat -> nat -> R) (ci : list (list R)) : Res R :=
    bind (hamiltonian_0i_0a half h g ni na) (fun H =>
    expectation_value_SA tiny_le (fun k => / INR k) sp th true no_ansatz ci [SOp H] ci).
  Definition sa_energy_opt (h : nat -> nat -> R) (g : nat -> nat -> nat -> nat -> R) (ci : list (list R)) : Res R :=
    bind (hamiltonian_0i_0a half h g ni na) (fun H =>
    expectation_value_SA tiny_le (fun k => / INR k) sp th false no_ansatz ci [SOp (op_fold ni na nv H)] ci).

  Variable struct : list UPSModel.exc.
  (** The loop over the ansatz parameters, lines 973-998. *)
  Definition sa_theta_loop (thetas : list R) (bra ket : list (list R)) : Res (list R) :=
    bind (fold_left (fun acc i => bind acc (fun bkg : (list (list R) * list (list R)) * list R =>
            let '(bra, ket, grad) := bkg in
            bind (ups_grad_SA tiny_le sp th 0 struct i ket) (fun tmp =>
            let gi := fold_left (fun a (bk : list R * list R) => a + 2 * dot (fst bk) (snd bk) / INR (length bra)) (combine bra tmp) 0 in
            bind (ups_unitary_SA tiny tiny_le sp th 0 struct thetas i bra) (fun bra' =>
            bind (ups_unitary_SA tiny tiny_le sp th 0 struct thetas i ket) (fun ket' =>
            Ok (bra', ket', grad ++ [gi]))))))
          (seq 0 (length thetas)) (Ok (bra, ket, []))) (fun bkg => Ok (snd bkg)).
  (** The part of [_calc_gradient_optimization] over the ansatz parameters, lines
      949-998; [csf] are the reference states, [ci] the current ones. *)
  Definition sa_theta_gradient (csf : list (list R)) (h : nat -> nat -> R) (g : nat -> nat -> nat -> nat -> R) (ci : list (list R)) (thetas : list R) : Res (list R) :=
    bind (hamiltonian_0i_0a half h g ni na) (fun H =>
    bind (propagate_state_SA tiny_le sp th true false no_ansatz [SOp H] ci) (fun bra =>
    bind (ups_state_SA tiny tiny_le sp th 0 struct thetas true bra) (fun bra =>
    sa_theta_loop thetas bra csf))).
End SA.
