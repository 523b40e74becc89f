(** Linear response with projected excitation operators:
    linear_response/projected.py [LinearResponse.__init__] 25-285. *)
From Coq Require Import List Bool Arith NArith ZArith Ascii String.
From Verif Require Import Base Fock FermiModel OperatorsModel CIModel StateModel DensityModel StructModel LRModel.
Import ListNotations.
Local Open Scope nat_scope.
Local Open Scope list_scope.

Section LRProj.
  Context {K : Type} {C : CRing K}.
  Local Open Scope K_scope.
  Notation dict := (list (fstring * K)).
  Notation "x <- a ;; b" := (bind a (fun x => b)) (at level 61, a at next level, right associativity).
  Variables (large : K -> bool) (L : @literals K) (tiny : K -> bool) (sp : @space) (th : threads)
    (ansatz : bool -> list K -> Res (list K)) (O : orbitals) (h : nat -> nat -> K) (g : nat -> nat -> nat -> nat -> K) (st : list K).
  Notation half := (l_half L).
  Notation ni := (sp_ni sp).
  Notation na := (sp_na sp).
  Notation prop := (prop tiny sp th ansatz).
  Notation expv := (expv tiny sp th ansatz).
  (** [E] is [self.wf.energy_elec]. *)
  Variable E : K.

  (** Gradient entries of one operator, projected.py:59-82. *)
  Definition p_grad_pair (H00_ket : list K) (op : dict) : Res (K * K) :=
    G_ket <- prop [op] st ;;
    v1 <- expv H00_ket [] G_ket ;;
    v2 <- expv st [] G_ket ;;
    w1 <- expv G_ket [] H00_ket ;;
    w2 <- expv G_ket [] st ;;
    Ok (v1 - E * v2, w1 - E * w2).
  (** Lines 57-86. *)
  Definition p_check_active (H00_ket : list K) (G : list dict) : Res unit :=
    gs <- rlist (p_grad_pair H00_ket) G ;;
    if existsb large (map fst gs ++ map snd gs) then Raise ValueError else Ok tt.

  (** The loops over the mixed blocks, projected.py:115-143. *)
  Definition p_mixed_blocks (H1 : dict) (Q G : list dict) (M : arr) : Res arr :=
    let s := List.length Q in
    eloop 0 Q (fun j qJ M =>
      Hq <- op_mul H1 qJ ;;
      Hq_ket <- prop [Hq] st ;;
      qJd <- op_dagger qJ ;;
      qdH <- op_mul qJd H1 ;;
      qdH_ket <- prop [qdH] st ;;
      eloop 0 G (fun i GI M =>
        G_ket <- prop [GI] st ;;
        a <- expv G_ket [] Hq_ket ;;
        b <- expv G_ket [] qdH_ket ;;
        Ok (set_sym 1 j (i + s) (- half * b) (set_sym 0 j (i + s) a M))) M) M.

  (** One entry of the active blocks, projected.py:148-279; returns the values for
      [A], [B] and [Sigma]. *)
  Definition p_active_values (H0 GJ : dict) (GJ_ket HGJ_ket : list K) (GI : dict) : Res (K * K * K) :=
    GI_ket <- prop [GI] st ;;
    a1 <- expv GI_ket [] HGJ_ket ;;
    gi <- expv GI_ket [] st ;;
    gj <- expv st [] GJ_ket ;;
    s1 <- expv GI_ket [] GJ_ket ;;
    a4 <- expv st [] HGJ_ket ;;
    a5 <- expv GI_ket [H0] st ;;
    GId <- op_dagger GI ;;
    GJd <- op_dagger GJ ;;
    b1 <- expv st [GId; H0] st ;;
    b2 <- expv st [GJd] st ;;
    b3 <- expv st [GJd; H0] st ;;
    b4 <- expv st [GId] st ;;
    b5 <- expv GJ_ket [] st ;;
    Ok (a1 + gi * gj * E - s1 * E - half * gi * a4 - half * gj * a5,
        half * b1 * b2 + half * b3 * b4 - gi * b5 * E,
        s1 - gi * gj).
  (** The loops over the active blocks, projected.py:144-279. *)
  Definition p_active_blocks (H0 : dict) (s : nat) (G : list dict) (M : arr) : Res arr :=
    eloop 0 G (fun j GJ M =>
      GJ_ket <- prop [GJ] st ;;
      HGJ_ket <- prop [H0] GJ_ket ;;
      eloop j (skipn j G) (fun i GI M =>
        v <- p_active_values H0 GJ GJ_ket HGJ_ket GI ;;
        Ok (set_sym 2 (i + s) (j + s) (snd v)
             (set_sym 1 (i + s) (j + s) (snd (fst v))
               (set_sym 0 (i + s) (j + s) (fst (fst v)) M)))) M) M.

  Definition proj_matrices (Q G : list dict) (H1 H0 : dict) : Res arr :=
    _ <- check_orbital large L tiny sp th ansatz O h g st ;;
    H00_ket <- prop [H0] st ;;
    _ <- p_check_active H00_ket G ;;
    M <- orbital_blocks L tiny sp th ansatz O h g st (List.length Q) (fun _ => 0) ;;
    M <- p_mixed_blocks H1 Q G M ;;
    p_active_blocks H0 (List.length Q) G M.
End LRProj.

(** [LinearResponse(wave_function, excitations)] of projected.py, with
    [energy_elec] as ups_wavefunction.py:770-784 computes it. *)
Definition proj_init {K} {C : CRing K} (large : K -> bool) (L : @literals K) (tiny : K -> bool) (sp : @space) (th : threads)
    (ansatz : bool -> list K -> Res (list K)) (O : orbitals) (h : nat -> nat -> K) (g : nat -> nat -> nat -> nat -> K) (st : list K) (excitations : string) : Res arr :=
  bind (lr_G_ops L O excitations) (fun G =>
  bind (lr_q_ops L O) (fun Q =>
  bind (hamiltonian_1i_1a (l_half L) h g (sp_ni sp) (sp_na sp) (sp_nv sp)) (fun H1 =>
  bind (hamiltonian_0i_0a (l_half L) h g (sp_ni sp) (sp_na sp)) (fun H0 =>
  bind (expv tiny sp th ansatz st [H0] st) (fun E =>
  proj_matrices large L tiny sp th ansatz O h g st E Q G H1 H0))))).
