(** Linear response with state-transfer excitation operators:
    linear_response/statetransfer.py [LinearResponse.__init__] 25-170. *)
From Coq Require Import List Bool Arith NArith ZArith Ascii String.
From Verif Require Import Base Fock FermiModel OperatorsModel CIModel StateModel DensityModel StructModel LRModel.
Import ListNotations.
Local Open Scope nat_scope.
Local Open Scope list_scope.

Section LRTransfer.
  Context {K : Type} {C : CRing K}.
  Local Open Scope K_scope.
  Notation dict := (list (fstring * K)).
  Notation "x <- a ;; b" := (bind a (fun x => b)) (at level 61, a at next level, right associativity).
  (** [st] is [self.wf.ci_coeffs], [csf] is [self.wf.csf_coeffs]; [ansatz] is what
      propagating ["U"] and ["Ud"] does. *)
  Variables (large : K -> bool) (L : @literals K) (tiny : K -> bool) (sp : @space) (th : threads)
    (ansatz : bool -> list K -> Res (list K)) (O : orbitals) (h : nat -> nat -> K) (g : nat -> nat -> nat -> nat -> K) (st csf : list K).
  Notation half := (l_half L).
  Notation prop := (prop tiny sp th ansatz).
  Notation expv := (expv tiny sp th ansatz).
  (** [propagate_state] with operators and ["U"], ["Ud"] in the list. *)
  Definition props (ops : list sop) (ket : list K) : Res (list K) :=
    propagate_state tiny sp th true false ansatz ops ket.
  (** [E] is [self.wf.energy_elec]. *)
  Variable E : K.

  (** Gradient entries of one operator, statetransfer.py:56-75. *)
  Definition t_grad_pair (UdH00_ket : list K) (op : dict) : Res (K * K) :=
    G_ket <- prop [op] csf ;;
    v <- expv UdH00_ket [] G_ket ;;
    w <- expv G_ket [] UdH00_ket ;;
    Ok (- v, w).
  (** Lines 54-79. *)
  Definition t_check_active (UdH00_ket : list K) (G : list dict) : Res unit :=
    gs <- rlist (t_grad_pair UdH00_ket) G ;;
    if existsb large (map fst gs ++ map snd gs) then Raise ValueError else Ok tt.

  (** The loops over the mixed blocks, statetransfer.py:107-137. *)
  Definition t_mixed_blocks (H1 : dict) (Q G : list dict) (M : arr) : Res arr :=
    let s := List.length Q in
    eloop 0 Q (fun j qJ M =>
      Hq <- op_mul H1 qJ ;;
      UdHq_ket <- props [SU true; SOp Hq] st ;;
      qJd <- op_dagger qJ ;;
      qdH <- op_mul qJd H1 ;;
      UdqdH_ket <- props [SU true; SOp qdH] st ;;
      eloop 0 G (fun i GI M =>
        G_ket <- prop [GI] csf ;;
        a <- expv G_ket [] UdHq_ket ;;
        b <- expv G_ket [] UdqdH_ket ;;
        Ok (set_sym 1 j (i + s) (- half * b) (set_sym 0 j (i + s) a M))) M) M.

  (** The loops over the active blocks, statetransfer.py:138-160.  [B] is not
      written, [Sigma] only on the diagonal. *)
  Definition t_active_blocks (H0 : dict) (s : nat) (G : list dict) (M : arr) : Res arr :=
    eloop 0 G (fun j GJ M =>
      UdHUGJ <- props [SU true; SOp H0; SU false; SOp GJ] csf ;;
      eloop j (skipn j G) (fun i GI M =>
        GId <- op_dagger GI ;;
        v <- expv csf [GId] UdHUGJ ;;
        let M := set_sym 0 (i + s) (j + s) (if (i =? j)%nat then v - E else v) M in
        Ok (if (i =? j)%nat then upd [2; i + s; j + s]%nat 1 M else M)) M) M.

  Definition transfer_matrices (Q G : list dict) (H1 H0 : dict) : Res arr :=
    _ <- check_orbital large L tiny sp th ansatz O h g st ;;
    UdH00_ket <- props [SU true; SOp H0] st ;;
    _ <- t_check_active UdH00_ket G ;;
    M <- orbital_blocks L tiny sp th ansatz O h g st (List.length Q) (fun _ => 0) ;;
    M <- t_mixed_blocks H1 Q G M ;;
    t_active_blocks H0 (List.length Q) G M.
End LRTransfer.

(** [LinearResponse(wave_function, excitations)] of statetransfer.py, with
    [energy_elec] as ups_wavefunction.py:770-784 computes it. *)
Definition transfer_init {K} {C : CRing K} (large : K -> bool) (L : @literals K) (tiny : K -> bool) (sp : @space) (th : threads)
    (ansatz : bool -> list K -> Res (list K)) (O : orbitals) (h : nat -> nat -> K) (g : nat -> nat -> nat -> nat -> K) (st csf : list K) (excitations : string) : Res arr :=
  bind (lr_G_ops L O excitations) (fun G =>
  bind (lr_q_ops L O) (fun Q =>
  bind (hamiltonian_1i_1a (l_half L) h g (sp_ni sp) (sp_na sp) (sp_nv sp)) (fun H1 =>
  bind (hamiltonian_0i_0a (l_half L) h g (sp_ni sp) (sp_na sp)) (fun H0 =>
  bind (expv tiny sp th ansatz st [H0] st) (fun E =>
  transfer_matrices large L tiny sp th ansatz O h g st csf E Q G H1 H0))))).
