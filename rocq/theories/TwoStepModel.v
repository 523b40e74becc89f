(** Model of [run_wf_optimization_2step], ups_wavefunction.py:799-918, on the object
    state of [WaveModel].  Not modelled: printing, timing, [num_energy_evals], and the
    RotoSolve branch, which evaluates another energy function. *)
From Coq Require Import List Bool Arith Reals.
From Verif Require Import Base RRing Fock FermiModel OperatorsModel CIModel StateModel UPSModel DensityModel MatModel MatExp WaveModel.
Import ListNotations.
Local Open Scope R_scope.

(** What the two optimisers of one iteration do: the calls they make from the starting
    point they are given, and what they return ([res.x] and [res.fun] for the ansatz,
    [res.fun] for the orbitals, whose [res.x] the code does not read). *)
Record plan := { pl_theta : list R -> list call; pl_x : list R; pl_f : R; pl_kappa : list R -> list call; pl_g : R }.
(** How a run ends: normally, with everything the optimisers were told, one list for
    each optimisation, or with UnboundLocalError when [e_new] was never assigned
    (line 918). *)
Inductive ended := Finished (outs : list (list (list R))) | Unbound.

Section TwoStep.
  Variables (N : nat) (kappa_idx : list (nat * nat)).
  Variables (h_ao : nat -> nat -> R) (g_ao : nat -> nat -> nat -> nat -> R).
  Variables (tiny : R -> bool) (sp : space) (th : threads).
  Variables (struct : list exc) (csf : list R).
  Variables (plans : nat -> plan) (orb : bool) (tol : R).
  Notation calls := (calls N kappa_idx h_ao g_ao tiny sp th struct csf).

  (** The ansatz optimisation, lines 832-866. *)
  Definition theta_step (pl : plan) : M (list (list R)) :=
    mbind (gets w_thetas) (fun t0 =>
    mbind (modify (set_memo (map (fun _ => 10 ^ 20) t0) 0)) (fun _ =>
    mbind (calls true false (pl_theta pl t0)) (fun out =>
    mbind (set_thetas tiny sp th struct csf (pl_x pl) false) (fun _ => ret out)))).
  (** The orbital optimisation, lines 868-899. *)
  Definition orbital_step (pl : plan) : M (list (list R)) :=
    mbind (modify (set_memo (map (fun _ => 10 ^ 20) kappa_idx) 0)) (fun _ =>
    mbind (calls false true (pl_kappa pl (map (fun _ => 0) kappa_idx))) (fun out =>
    mbind zero_kappa (fun _ => ret out))).
  Definition finish (e : R) (outs : list (list (list R))) : M ended :=
    mbind (modify (set_energy (Some e))) (fun _ => ret (Finished outs)).
  (** The loop, lines 823-918: [todo] iterations may still be made, [it] is [full_iter],
      [e_new] the variable of that name, [outs] what was told so far. *)
  Fixpoint iterations (todo it : nat) (e_old : R) (e_new : option R) (outs : list (list (list R))) : M ended :=
    match todo with
    | O => match e_new with None => ret Unbound | Some e => finish e outs end
    | S todo =>
        mbind (theta_step (plans it)) (fun ot =>
        mbind (gets w_kappa) (fun k =>
        if orb && negb (Nat.eqb (length k) 0)
        then mbind (orbital_step (plans it)) (fun oo =>
             let e := pl_g (plans it) in
             if Rlt_dec (Rabs (e - e_old)) tol then finish e (outs ++ [ot; oo])
             else iterations todo (S it) e (Some e) (outs ++ [ot; oo]))
        else finish (pl_f (plans it)) (outs ++ [ot])))
    end.
  Definition run_2step (maxiter : nat) : M ended := iterations maxiter 0 (10 ^ 12) None [].
End TwoStep.
