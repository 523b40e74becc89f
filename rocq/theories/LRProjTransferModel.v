(** Linear response with projected orbital rotations and state-transfer excitations:
    linear_response/projected_statetransfer.py [LinearResponse.__init__] 25-145. *)
From Coq Require Import List Bool Arith NArith ZArith Ascii String.
From Verif Require Import Base Fock FermiModel OperatorsModel CIModel StateModel DensityModel StructModel LRModel LRAllProjModel LRTransferModel.
Import ListNotations.
Local Open Scope nat_scope.
Local Open Scope list_scope.

Section LRProjTransfer.
  Context {K : Type} {C : CRing K}.
  Local Open Scope K_scope.
  Notation dict := (list (fstring * K)).
  Notation "x <- a ;; b" := (bind a (fun x => b)) (at level 61, a at next level, right associativity).
  Variables (large : K -> bool) (L : @literals K) (tiny : K -> bool) (sp : @space) (th : threads)
    (ansatz : bool -> list K -> Res (list K)) (O : orbitals) (h : nat -> nat -> K) (g : nat -> nat -> nat -> nat -> K) (st csf : list K).
  Notation prop := (prop tiny sp th ansatz).
  Notation expv := (expv tiny sp th ansatz).
  Notation props := (props tiny sp th ansatz).
  (** [E] is [self.wf.energy_elec]. *)
  Variable E : K.

  (** The loops over the mixed blocks, projected_statetransfer.py:112-124: only [A]
      is written. *)
  Definition pst_mixed_blocks (H1 : dict) (Q G : list dict) (M : arr) : Res arr :=
    let s := List.length Q in
    eloop 0 Q (fun j qJ M =>
      Hq <- op_mul H1 qJ ;;
      UdHq_ket <- props [SU true; SOp Hq] st ;;
      eloop 0 G (fun i GI M =>
        G_ket <- prop [GI] csf ;;
        a <- expv G_ket [] UdHq_ket ;;
        Ok (set_sym 0 j (i + s) a M)) M) M.

  (** Lines 50-88 are the gradient checks: that of the orbitals is the one of
      naive.py, that of the excitations the one of statetransfer.py.  The orbital
      loops (89-111) are those of allprojected.py, the active loops (125-145) those
      of statetransfer.py. *)
  Definition pst_matrices (Q G : list dict) (H2 H1 H0 : dict) : Res arr :=
    _ <- check_orbital large L tiny sp th ansatz O h g st ;;
    UdH00_ket <- props [SU true; SOp H0] st ;;
    _ <- t_check_active large tiny sp th ansatz csf UdH00_ket G ;;
    M <- ap_orbital_blocks tiny sp th ansatz st E H2 Q (fun _ => 0) ;;
    M <- pst_mixed_blocks H1 Q G M ;;
    t_active_blocks tiny sp th ansatz csf E H0 (List.length Q) G M.
End LRProjTransfer.

(** [LinearResponse(wave_function, excitations)] of projected_statetransfer.py, with
    [energy_elec] as ups_wavefunction.py:770-784 computes it. *)
Definition pst_init {K} {C : CRing K} (large : K -> bool) (L : @literals K) (tiny : K -> bool) (sp : @space) (th : threads)
    (ansatz : bool -> list K -> Res (list K)) (O : orbitals) (h : nat -> nat -> K) (g : nat -> nat -> nat -> nat -> K) (st csf : list K) (excitations : string) : Res arr :=
  bind (lr_G_ops L O excitations) (fun G =>
  bind (lr_q_ops L O) (fun Q =>
  bind (hamiltonian_1i_1a (l_half L) h g (sp_ni sp) (sp_na sp) (sp_nv sp)) (fun H1 =>
  bind (hamiltonian_0i_0a (l_half L) h g (sp_ni sp) (sp_na sp)) (fun H0 =>
  bind (hamiltonian_2i_2a (l_half L) h g (sp_ni sp) (sp_na sp) (sp_nv sp)) (fun H2 =>
  bind (expv tiny sp th ansatz st [H0] st) (fun E =>
  pst_matrices large L tiny sp th ansatz O h g st csf E Q G H2 H1 H0)))))).
