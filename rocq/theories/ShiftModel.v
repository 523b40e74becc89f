(** Model of the evaluations of the energy at shifted ansatz parameters: the
    parameter-shift gradient of qiskit_interface/circuit_wavefunction.py and
    sa_circuit_wavefunction.py, and the energies that ups_wavefunction.py and
    sa_ups_wavefunction.py hand to RotoSolve.

    Floats are idealised to real numbers. *)
From Coq Require Import List Bool Arith NArith Reals.
From Verif Require Import Base RRing Fock FermiModel OperatorsModel CIModel StateModel UPSModel RotoModel.
Import ListNotations.
Local Open Scope R_scope.

(** [(2 * mu - 1) / (2 * R) * np.pi], circuit_wavefunction.py:1205 and 1240. *)
Definition shift_angle (r mu : nat) : R := (2 * INR mu - 1) / (2 * INR r) * PI.

Section Shift.
  (** [quantum_interface.quantum_expectation_value(operator, custom_parameters=x)]. *)
  Variable qev : list R -> Res R.

  (** [_get_energy_evals_for_grad], circuit_wavefunction.py:1214-1243.  [x] is a copy
      that keeps the last value written. *)
  Definition energy_evals_for_grad (parameters : list R) (idx r : nat) : Res (list R) :=
    match nth_error parameters idx with
    | None => Raise IndexError
    | Some x_shift =>
        bind (fold_left (fun acc mu => bind acc (fun st : list R * list R =>
                bind (set_at (fst st) idx (shift_angle r mu + x_shift)) (fun x =>
                bind (qev x) (fun e => Ok (x, snd st ++ [e])))))
              (seq 1 (2 * r)) (Ok (parameters, []))) (fun st => Ok (snd st))
    end.

  (** The loop over [j, mu], circuit_wavefunction.py:1203-1206. *)
  Definition shift_sum (r : nat) (e_vals_grad : list R) : Res R :=
    fold_left (fun acc jmu => bind acc (fun grad =>
                 match nth_error e_vals_grad (fst jmu) with
                 | None => Raise IndexError
                 | Some e => Ok (grad + e * (-1) ^ (snd jmu - 1) / (4 * INR r * sin (1 / 2 * shift_angle r (snd jmu)) ^ 2))
                 end))
              (combine (seq 0 (2 * r)) (seq 1 (2 * r))) (Ok 0).

  (** The part of [_calc_gradient_optimization] over the ansatz parameters,
      circuit_wavefunction.py:1200-1207.  [Rdict] is [QI.grad_param_R], names are those
      of StructModel.v; [parameters] is [parameters[num_kappa:]]. *)
  Definition shift_gradient (Rdict : list nat -> option nat) (names : list (list nat)) (parameters : list R) : Res (list R) :=
    fold_left (fun acc i => bind acc (fun gradient =>
                 match nth_error names i with
                 | None => Raise IndexError
                 | Some name =>
                     match Rdict name with
                     | None => Raise KeyError
                     | Some r => bind (energy_evals_for_grad parameters i r) (fun e =>
                                 bind (shift_sum r e) (fun x => Ok (gradient ++ [x])))
                     end
                 end))
              (seq 0 (length parameters)) (Ok []).
End Shift.

(** [np.mean] of the energies of the states, sa_circuit_wavefunction.py:943-951: [qevs]
    holds [quantum_expectation_value_csfs] of every state.  The state-averaged
    [get_energy_evals_for_grad] (914-952) and the loop around it (899-908) are those above
    with this function.  The mean of no energies is nan in numpy; the model raises. *)
Definition mean_qev (qevs : list (list R -> Res R)) (x : list R) : Res R :=
  bind (fold_left (fun acc q => bind acc (fun l => bind (q x) (fun e => Ok (l ++ [e])))) qevs (Ok [])) (fun l =>
  match l with [] => Raise ZeroDivisionError | _ => Ok (rsum l / INR (length l)) end).

(** A dictionary built by assignments, the last one of a key counts. *)
Definition rget (R : list (list nat * nat)) (name : list nat) : option nat :=
  match find (fun kr => if list_eq_dec Nat.eq_dec (fst kr) name then true else false) (rev R) with
  | Some kr => Some (snd kr) | None => None
  end.

Section Roto.
  Variables tiny tiny_le : R -> bool.
  Variable sp : space.
  Variable th : threads.
  Variable struct : list UPSModel.exc.
  Variables (h : nat -> nat -> R) (g : nat -> nat -> nat -> nat -> R).
  Notation half := (1 / 2).

  (** All rows after the gates [theta_idx + 1, ...] and the Hamiltonian applied to them,
      ups_wavefunction.py:1181-1186 and sa_ups_wavefunction.py:1053-1072; [n] is
      [len(thetas_local)] or [len(self.thetas)]. *)
  Definition finish (thetas_local : list R) (theta_idx n : nat) (state_vecs : list (list R)) : Res (list (list R) * list (list R)) :=
    bind (fold_left (fun acc i => bind acc (ups_unitary_SA tiny tiny_le sp th 0 struct thetas_local i))
            (seq (S theta_idx) (n - S theta_idx)) (Ok state_vecs)) (fun state_vecs =>
    bind (hamiltonian_0i_0a half h g (sp_ni sp) (sp_na sp)) (fun H =>
    bind (propagate_state_SA tiny_le sp th true false no_ansatz [SOp H] state_vecs) (fun bra_vec =>
    Ok (bra_vec, state_vecs)))).

  (** [_calc_energy_rotosolve_optimization], ups_wavefunction.py:1144-1194. *)
  Definition rotosolve_energies (csf : list R) (parameters theta_diffs : list R) (theta_idx : nat) : Res (list R) :=
    bind (fold_left (fun acc i => bind acc (ups_unitary tiny sp th 0 struct parameters i)) (seq 0 theta_idx) (Ok csf)) (fun state_vec =>
    bind (fold_left (fun acc theta_diff => bind acc (fun rows =>
            bind (set_at parameters theta_idx theta_diff) (fun theta_tmp =>
            bind (ups_unitary tiny sp th 0 struct theta_tmp theta_idx state_vec) (fun row => Ok (rows ++ [row])))))
          theta_diffs (Ok [])) (fun state_vecs =>
    bind (finish parameters theta_idx (length parameters) state_vecs) (fun bk =>
    Ok (map (fun bk => dot (fst bk) (snd bk)) (combine (fst bk) (snd bk)))))).

  (** [_calc_energy_rotosolve_optimization] of the state-averaged class,
      sa_ups_wavefunction.py:1005-1082.  The accumulation (1074-1079) moves to the next
      entry of [energies] whenever [i % len(csf_coeffs) == 0]. *)
  Definition rotosolve_energies_SA (csfs : list (list R)) (n : nat) (parameters theta_diffs : list R) (theta_idx : nat) : Res (list R) :=
    bind (fold_left (fun acc i => bind acc (ups_unitary_SA tiny tiny_le sp th 0 struct parameters i)) (seq 0 theta_idx) (Ok csfs)) (fun state_vec =>
    bind (fold_left (fun acc theta_diff => bind acc (fun rows =>
            bind (set_at parameters theta_idx theta_diff) (fun theta_tmp =>
            bind (ups_unitary_SA tiny tiny_le sp th 0 struct theta_tmp theta_idx state_vec) (fun state_tmp => Ok (rows ++ state_tmp)))))
          theta_diffs (Ok [])) (fun state_vecs =>
    bind (finish parameters theta_idx n state_vecs) (fun bk =>
    bind (fold_left (fun acc (ibk : nat * (list R * list R)) => bind acc (fun st : nat * list R =>
            (* [idx] starts at -1: the counter here is [idx + 1] *)
            let idx := if Nat.eqb (fst ibk mod length csfs) 0 then S (fst st) else fst st in
            match nth_error (snd st) (idx - 1) with
            | None => Raise IndexError
            | Some e => bind (set_at (snd st) (idx - 1) (e + dot (fst (snd ibk)) (snd (snd ibk)))) (fun l => Ok (idx, l))
            end))
          (combine (seq 0 (length (combine (fst bk) (snd bk)))) (combine (fst bk) (snd bk)))
          (Ok (0%nat, repeat 0 (length theta_diffs)))) (fun st => Ok (snd st))))).
End Roto.
