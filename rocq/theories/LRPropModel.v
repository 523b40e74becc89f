(** Excitation energies, normalisation, transition dipoles and oscillator strengths
    of the linear response classes: lr_baseclass.py 110-216 and naive.py 306-429. *)
From Coq Require Import List Bool Arith NArith ZArith Ascii String.
From Verif Require Import Base Fock FermiModel OperatorsModel OperatorsSums CIModel StateModel DensityModel StructModel LRModel.
Import ListNotations.
Local Open Scope nat_scope.
Local Open Scope list_scope.

Section LRProp.
  Context {K : Type} {C : CRing K}.
  Local Open Scope K_scope.
  Notation dict := (list (fstring * K)).
  Notation "x <- a ;; b" := (bind a (fun x => b)) (at level 61, a at next level, right associativity).

  (** [E2] and [S], lr_baseclass.py:113-117 and 129-133.  [M] holds the arrays
      A, B, Sigma, Delta under the leading indices 0, 1, 2, 3 as in [LRModel]. *)
  Definition block2 (size : nat) (a b c d : nat -> nat -> K) (i j : nat) : K :=
    if (i <? size)%nat then if (j <? size)%nat then a i j else b i (j - size)%nat
    else if (j <? size)%nat then c (i - size)%nat j else d (i - size)%nat (j - size)%nat.
  Definition lr_hessian (M : arr) (size : nat) : nat -> nat -> K :=
    let A i j := M [0; i; j]%nat in let B i j := M [1; i; j]%nat in block2 size A B B A.
  Definition lr_metric (M : arr) (size : nat) : nat -> nat -> K :=
    let Sigma i j := M [2; i; j]%nat in let Delta i j := M [3; i; j]%nat in
    block2 size Sigma Delta (fun i j => - Delta i j) (fun i j => - Sigma i j).

  (** [get_excited_state_norm] for one column, lr_baseclass.py:166-185: only the
      blocks [q q] and [G G] of the upper left quarter of the metric are used. *)
  Definition excited_norm (metric : nat -> nat -> K) (nq nG : nat) (v : nat -> K) : K :=
    let Zq i := v i in
    let ZG i := v (nq + i)%nat in
    let Yq i := v (nq + nG + i)%nat in
    let YG i := v (2 * nq + nG + i)%nat in
    lsum (seq 0 nq) (fun i => lsum (seq 0 nq) (fun j => metric i j * (Zq i * Zq j - Yq i * Yq j)))
    + lsum (seq 0 nG) (fun i => lsum (seq 0 nG) (fun j => metric (nq + i)%nat (nq + j)%nat * (ZG i * ZG j - YG i * YG j))).

  (** The solver and the numerical tests are parameters: [unstable E2 n] is the
      test on the smallest eigenvalue of the Hessian (lines 118-126), [geig] stands
      for [scipy.linalg.eig] on the pair of matrices (real eigenvalues and
      vectors; the code drops the imaginary parts), [argsort] for [np.argsort],
      [tiny_norm] for [norm < 10**-10] and [rsq x] for [(1 / x) ** 0.5]. *)
  Variables (unstable : (nat -> nat -> K) -> nat -> bool)
    (geig : (nat -> nat -> K) -> (nat -> nat -> K) -> nat -> list (K * (nat -> K)))
    (argsort : list K -> list nat) (tiny_norm : K -> bool) (rsq : K -> K).

  Record excitations_found := { x_energies : list K; x_vectors : list (nat -> K); x_normed : list (nat -> K) }.
  (** Lines 151-164: a vector that cannot be normalised stays zero. *)
  Definition normed (norm : K) (v : nat -> K) : nat -> K := if tiny_norm norm then fun _ => 0 else fun i => v i * rsq norm.
  (** [calc_excitation_energies], lines 110-164 (without printing). *)
  Definition calc_excitation_energies (M : arr) (nq size : nat) : Res excitations_found :=
    let E2 := lr_hessian M size in
    if unstable E2 (2 * size)%nat then Raise ValueError else
    let metric := lr_metric M size in
    let eig := geig E2 metric (2 * size)%nat in
    let sorting := argsort (map fst eig) in
    let energies := skipn size (map (fun k => nth k (map fst eig) 0) sorting) in
    let vectors := skipn size (map (fun k => nth k (map snd eig) (fun _ => 0)) sorting) in
    Ok {| x_energies := energies; x_vectors := vectors;
          x_normed := map (fun v => normed (excited_norm metric nq (size - nq)%nat v) v) vectors |}.

  Variables (L : @literals K) (tiny : K -> bool) (sp : @space) (th : threads)
    (ansatz : bool -> list K -> Res (list K)) (O : orbitals) (st : list K).
  Notation ni := (sp_ni sp).
  Notation na := (sp_na sp).
  Notation prop := (prop tiny sp th ansatz).
  Notation expv := (expv tiny sp th ansatz).

  (** The loop building [transfer_op], naive.py:342-346. *)
  Definition transfer_op (G : list dict) (Z Y : nat -> K) : Res dict :=
    eloop 0 G (fun i D T => Dd <- op_dagger D ;; Ok (op_add T (op_add (op_scale (Z i) Dd) (op_scale (Y i) D)))) [].
  (** One component of [get_transition_dipole] for one state, naive.py:306-429:
      [x] is the dipole integral in the molecular orbitals, [v] the normalised
      column, [size] the number of excitations. *)
  Definition transition_dipole (Q G : list dict) (x : nat -> nat -> K) (size : nat) (v : nat -> K) : Res K :=
    mu <- one_elec_op_0i_0a x ni na ;;
    mu_ket <- prop [mu] st ;;
    mud <- op_dagger mu ;;
    mud_ket <- prop [mud] st ;;
    let nq := List.length Q in
    let nG := (size - nq)%nat in
    T <- transfer_op G (fun i => v (nq + i)%nat) (fun i => v (2 * nq + nG + i)%nat) ;;
    q_part <- match Q with
              | [] => Ok 0
              | _ => r1 <- wf_rdm1 tiny sp th ansatz st ;;
                     Ok (get_orbital_response_property_gradient (l_s2 L) x (o_kappa O) ni na (fun i j => r1 [i; j]) v size)
              end ;;
    T_ket <- prop [T] st ;;
    Td <- op_dagger T ;;
    Td_ket <- prop [Td] st ;;
    a <- expv mud_ket [] T_ket ;;
    b <- expv Td_ket [] mu_ket ;;
    Ok (q_part + (a - b)).
  (** The same with the operators of the constructor; all components and states. *)
  Definition transition_dipoles (excitations : string) (mu : list (nat -> nat -> K)) (size : nat) (vs : list (nat -> K)) : Res (list (list K)) :=
    G <- lr_G_ops L O excitations ;;
    Q <- lr_q_ops L O ;;
    rlist (fun v => rlist (fun x => transition_dipole Q G x size v) mu) vs.

  (** [get_oscillator_strength], lr_baseclass.py:195-216; [two_thirds] is 2 / 3. *)
  Definition oscillator_strengths (two_thirds : K) (energies : list K) (dipoles : list (list K)) : list K :=
    map (fun ed => let t := snd ed in
      two_thirds * fst ed * (nth 0 t 0 * nth 0 t 0 + nth 1 t 0 * nth 1 t 0 + nth 2 t 0 * nth 2 t 0)) (combine energies dipoles).
End LRProp.
