(** Linear response with all operators projected:
    linear_response/allprojected.py [LinearResponse.__init__] 26-286. *)
From Coq Require Import List Bool Arith NArith ZArith Ascii String.
From Verif Require Import Base Fock FermiModel OperatorsModel CIModel StateModel DensityModel StructModel LRModel LRProjModel.
Import ListNotations.
Local Open Scope nat_scope.
Local Open Scope list_scope.

Section LRAllProj.
  Context {K : Type} {C : CRing K}.
  Local Open Scope K_scope.
  Notation dict := (list (fstring * K)).
  Notation "x <- a ;; b" := (bind a (fun x => b)) (at level 61, a at next level, right associativity).
  Variables (large : K -> bool) (L : @literals K) (tiny : K -> bool) (sp : @space) (th : threads)
    (ansatz : bool -> list K -> Res (list K)) (O : orbitals) (h : nat -> nat -> K) (g : nat -> nat -> nat -> nat -> K) (st : list K).
  Notation half := (l_half L).
  Notation prop := (prop tiny sp th ansatz).
  Notation expv := (expv tiny sp th ansatz).
  (** [E] is [self.wf.energy_elec]. *)
  Variable E : K.

  (** The loops over the orbital blocks, allprojected.py:99-127.  The value of
      [<0| qId qJ |0>], which the code computes twice, is computed once. *)
  Definition ap_orbital_blocks (H2 : dict) (Q : list dict) (M : arr) : Res arr :=
    eloop 0 Q (fun j qJ M =>
      eloop j (skipn j Q) (fun i qI M =>
        qId <- op_dagger qI ;;
        qH <- op_mul qId H2 ;;
        qHq <- op_mul qH qJ ;;
        a <- expv st [qHq] st ;;
        qq <- op_mul qId qJ ;;
        sg <- expv st [qq] st ;;
        Ok (set_sym 2 i j sg (set_sym 0 i j (a - sg * E) M))) M) M.
  (** The loops over the mixed blocks, allprojected.py:128-139. *)
  Definition ap_mixed_blocks (H1 : dict) (Q G : list dict) (M : arr) : Res arr :=
    let s := List.length Q in
    eloop 0 Q (fun j qJ M =>
      Hq <- op_mul H1 qJ ;;
      Hq_ket <- prop [Hq] st ;;
      eloop 0 G (fun i GI M =>
        GId <- op_dagger GI ;;
        a <- expv st [GId] Hq_ket ;;
        Ok (set_sym 0 j (i + s) a M)) M) M.
  (** One entry of the active blocks, allprojected.py:144-285; returns the values
      for [A], [B] and [Sigma].  Expectation values the code repeats are computed
      once. *)
  Definition ap_active_values (H1 H0 GJ : dict) (GJ_ket HGJ_ket : list K) (GI : dict) : Res (K * K * K) :=
    GI_ket <- prop [GI] st ;;
    a1 <- expv GI_ket [] HGJ_ket ;;
    gi <- expv GI_ket [] st ;;
    gj <- expv st [] GJ_ket ;;
    s1 <- expv GI_ket [] GJ_ket ;;
    a4 <- expv st [] HGJ_ket ;;
    a5 <- expv GI_ket [H1] st ;;
    GId <- op_dagger GI ;;
    GJd <- op_dagger GJ ;;
    b1 <- expv st [GId; H0] st ;;
    b2 <- expv st [GJd] st ;;
    b3 <- expv st [GJd; H0] st ;;
    b4 <- expv st [GId] st ;;
    b5 <- expv GJ_ket [] st ;;
    Ok (a1 + gi * gj * E - s1 * E - half * gi * a4 - half * gj * a5,
        half * b1 * b2 + half * b3 * b4 - gi * b5 * E,
        s1 - gi * gj).
  (** The loops over the active blocks, allprojected.py:140-286. *)
  Definition ap_active_blocks (H1 H0 : dict) (s : nat) (G : list dict) (M : arr) : Res arr :=
    eloop 0 G (fun j GJ M =>
      GJ_ket <- prop [GJ] st ;;
      HGJ_ket <- prop [H0] GJ_ket ;;
      eloop j (skipn j G) (fun i GI M =>
        v <- ap_active_values H1 H0 GJ GJ_ket HGJ_ket GI ;;
        Ok (set_sym 2 (i + s) (j + s) (snd v)
             (set_sym 1 (i + s) (j + s) (snd (fst v))
               (set_sym 0 (i + s) (j + s) (fst (fst v)) M)))) M) M.

  (** Lines 47-98 are the gradient checks; that of the orbitals is the one of
      naive.py, that of the excitations the one of projected.py. *)
  Definition allproj_matrices (Q G : list dict) (H2 H1 H0 : dict) : Res arr :=
    _ <- check_orbital large L tiny sp th ansatz O h g st ;;
    H00_ket <- prop [H0] st ;;
    _ <- p_check_active large tiny sp th ansatz st E H00_ket G ;;
    M <- ap_orbital_blocks H2 Q (fun _ => 0) ;;
    M <- ap_mixed_blocks H1 Q G M ;;
    ap_active_blocks H1 H0 (List.length Q) G M.
End LRAllProj.

(** [LinearResponse(wave_function, excitations)] of allprojected.py, with
    [energy_elec] as ups_wavefunction.py:770-784 computes it. *)
Definition allproj_init {K} {C : CRing K} (large : K -> bool) (L : @literals K) (tiny : K -> bool) (sp : @space) (th : threads)
    (ansatz : bool -> list K -> Res (list K)) (O : orbitals) (h : nat -> nat -> K) (g : nat -> nat -> nat -> nat -> K) (st : list K) (excitations : string) : Res arr :=
  bind (lr_G_ops L O excitations) (fun G =>
  bind (lr_q_ops L O) (fun Q =>
  bind (hamiltonian_1i_1a (l_half L) h g (sp_ni sp) (sp_na sp) (sp_nv sp)) (fun H1 =>
  bind (hamiltonian_0i_0a (l_half L) h g (sp_ni sp) (sp_na sp)) (fun H0 =>
  bind (hamiltonian_2i_2a (l_half L) h g (sp_ni sp) (sp_na sp) (sp_nv sp)) (fun H2 =>
  bind (expv tiny sp th ansatz st [H0] st) (fun E =>
  allproj_matrices large L tiny sp th ansatz O h g st E Q G H2 H1 H0)))))).
