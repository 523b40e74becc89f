(** Model of slowquant/hartreefock (hartreefock_in_memory.py,
    unrestricted_hartreefock_in_memory.py, diis.py, the run and property methods
    of hartreefockclass.py) and of the electron counts and nuclear repulsion of
    slowquant/molecule/moleculeclass.py.

    Matrices are functions on indices, [n] is the number of basis functions.
    Real numbers instead of floats.  [np.linalg.eigh] and [np.linalg.solve]
    are arguments.  Logging is left out (see ObjectModel.v). *)
From Coq Require Import List Bool Arith ZArith Reals.
Require Import Verif.IntegralModel.
Import ListNotations.
Local Open Scope R_scope.

Definition mat := nat -> nat -> R.
Definition ten := nat -> nat -> nat -> nat -> R.
(** [np.dot] of two matrices with inner dimension [n]. *)
Definition dot (n : nat) (A B : mat) : mat := fun i j => sm n (fun k => A i k * B k j).
Definition tr_ (A : mat) : mat := fun i j => A j i.
Definition add_ (A B : mat) : mat := fun i j => A i j + B i j.
(** [np.einsum("ij,ij->", A, B)]. *)
Definition inner (n : nat) (A B : mat) : R := sm n (fun i => sm n (fun j => A i j * B i j)).
(** [np.einsum("ij->", (A - B) ** 2) ** 0.5]. *)
Definition rms (n : nat) (A B : mat) : R := sqrt (sm n (fun i => sm n (fun j => (A i j - B i j) ^ 2))).
(** [np.diag(v)]. *)
Definition diag_ (v : nat -> R) : mat := fun i j => if Nat.eqb i j then v i else 0.

Section HF.
  (** [np.linalg.eigh]: eigenvalues and matrix of eigenvectors (columns). *)
  Variable eigh : mat -> (nat -> R) * mat.
  (** [np.linalg.solve] on a system of the given size; [None] is LinAlgError. *)
  Variable solve : nat -> mat -> (nat -> R) -> option (nat -> R).
  Variable n : nat.

  (** ** diis.py *)
  (** [DIIS.get_extrapolated_fock_matrix], lines 18-66; the state is the pair of
      lists [fock_matrices], [density_matrices], kept as one list of pairs in
      the order of appending; [number_fock_saved = 6]. *)
  Definition error_matrix (S F D : mat) : mat := fun i j => dot n (dot n F D) S i j - dot n (dot n S D) F i j.
  Definition zero_mat : mat := fun _ _ => 0.
  Definition get_extrapolated_fock_matrix (saved : nat) (st : list (mat * mat)) (fock density S : mat) : option (mat * list (mat * mat)) :=
    if Nat.eqb n 2 then Some (fock, st)
    else
      let st := st ++ [(fock, density)] in
      if Nat.eqb (length st) 1 then Some (fock, st)
      else
        let st := if Nat.ltb saved (length st) then tl st else st in
        let m := length st in
        let e := fun i => error_matrix S (fst (nth i st (zero_mat, zero_mat))) (snd (nth i st (zero_mat, zero_mat))) in
        let B : mat := fun i j => if Nat.eqb i m && Nat.eqb j m then 0
                                  else if Nat.eqb i m || Nat.eqb j m then -1
                                  else sm n (fun k => dot n (e i) (e j) k k) in
        let b0 : nat -> R := fun i => if Nat.eqb i m then -1 else 0 in
        match solve (m + 1)%nat B b0 with
        | None => None
        | Some c => Some ((fun p q => sm m (fun i => c i * fst (nth i st (zero_mat, zero_mat)) p q)), st)
        end.

  (** ** hartreefock_in_memory.py *)
  (** [S_sqrt], lines 28-30: [L diag(Lambda ** (-1/2)) L^T]. *)
  Definition inv_sqrt (S : mat) : mat :=
    let '(lam, L) := eigh S in dot n (dot n L (diag_ (fun i => / sqrt (lam i)))) (tr_ L).
  (** [CT[0 : m]] keeps [min m n] rows; [D = f * Cocc . CTocc]. *)
  Definition occupied (m : nat) : nat := Nat.min m n.
  Definition density (f : R) (m : nat) (C : mat) : mat := fun i j => f * sm (occupied m) (fun k => C i k * C j k).
  (** [np.einsum("pqrs,sr->pq", ERI, D)], [np.einsum("psqr,sr->pq", ERI, D)]. *)
  Definition coulomb (ERI : ten) (D : mat) : mat := fun p q => sm n (fun r => sm n (fun s => ERI p q r s * D s r)).
  Definition exchange (ERI : ten) (D : mat) : mat := fun p q => sm n (fun r => sm n (fun s => ERI p s q r * D s r)).
  (** Lines 53-56. *)
  Definition fock_rhf (Hcore : mat) (ERI : ten) (D : mat) : mat := fun p q => Hcore p q + coulomb ERI D p q - 1 / 2 * exchange ERI D p q.
  (** Lines 62-65: orbitals from a Fock matrix. *)
  Definition orbitals (X F : mat) : mat := dot n X (snd (eigh (dot n (dot n (tr_ X) F) X))).

  (** How a run ends: with the returned tuple (and whether the loop was left by
      [break]), with UnboundLocalError at the [return] statement when the loop
      body never ran, or with LinAlgError. *)
  Inductive outcome (A : Type) := Done (a : A) (converged : bool) | Unbound | LinAlg | IndexErr.
  Arguments Done {A} a converged.
  Arguments Unbound {A}.
  Arguments LinAlg {A}.
  Arguments IndexErr {A}.

  (** Lines 50-92, the loop; [remaining] iterations remain; [last] is what the
      variables [E, C, F, D] hold. *)
  Fixpoint scf (use_diis : bool) (X S Hcore : mat) (ERI : ten) (nocc : nat) (dE_thr rmsd_thr : R) (remaining : nat)
      (D0 : mat) (E0 : R) (st : list (mat * mat)) (last : option (R * mat * mat * mat)) : outcome (R * mat * mat * mat) :=
    match remaining with
    | O => match last with None => Unbound | Some r => Done r false end
    | S remaining =>
        let F := fock_rhf Hcore ERI D0 in
        match (if use_diis then get_extrapolated_fock_matrix 6 st F D0 S else Some (F, st)) with
        | None => LinAlg
        | Some (F, st) =>
            let C := orbitals X F in
            let D := density 2 nocc C in
            let E := 1 / 2 * inner n D (add_ Hcore F) in
            if Rlt_dec (Rabs (E - E0)) dE_thr then
              if Rlt_dec (rms n D D0) rmsd_thr then Done (E, C, F, D) true
              else scf use_diis X S Hcore ERI nocc dE_thr rmsd_thr remaining D E st (Some (E, C, F, D))
            else scf use_diis X S Hcore ERI nocc dE_thr rmsd_thr remaining D E st (Some (E, C, F, D))
        end
    end.
  (** [run_hartree_fock], lines 7-94.  [int(number_electrons / 2)] for a
      non-negative number of electrons. *)
  Definition run_hartree_fock (S T V : mat) (ERI : ten) (number_electrons : nat) (dE_thr rmsd_thr : R) (max_scf_iterations : nat) (use_diis : bool)
    : outcome (R * mat * mat * mat) :=
    let Hcore := add_ T V in
    let X := inv_sqrt S in
    let F0prime := dot n (dot n (tr_ X) Hcore) (tr_ X) in
    let C0 := dot n X (snd (eigh F0prime)) in
    let D0 := density 2 (number_electrons / 2) C0 in
    let E0 := inner n D0 Hcore in
    scf use_diis X S Hcore ERI (number_electrons / 2) dE_thr rmsd_thr max_scf_iterations D0 E0 [] None.

  (** ** unrestricted_hartreefock_in_memory.py *)
  (** Lines 38-53, on the transposed coefficients (rows are orbitals).
      [C_HOMO] and [C_LUMO] are views of rows of [C0_alpha]: the second
      assignment reads the row that the first one wrote.  Row [-1] is the last
      row.  [None] is IndexError. *)
  Definition mix (c : R) (na : nat) (C0T : mat) : option mat :=
    if Nat.leb n na then None
    else
      let h := (if Nat.eqb na 0 then n - 1 else na - 1)%nat in
      let k := 1 / sqrt (1 + c ^ 2) in
      let A1 : mat := fun i j => if Nat.eqb i h then k * (C0T h j + c * C0T na j) else C0T i j in
      Some (fun i j => if Nat.eqb i na then k * (- c * A1 h j + A1 na j) else A1 i j).
  Definition fock_uhf (Hcore : mat) (ERI : ten) (D D' : mat) : mat := fun p q => Hcore p q + coulomb ERI D p q + coulomb ERI D' p q - exchange ERI D p q.
  Definition uhf_values := (R * (mat * mat) * (mat * mat) * (mat * mat))%type.
  (** Lines 70-123. *)
  Fixpoint uscf (use_diis : bool) (X S Hcore : mat) (ERI : ten) (na nb : nat) (dE_thr rmsd_thr : R) (remaining : nat)
      (Da0 Db0 : mat) (E0 : R) (sta stb : list (mat * mat)) (last : option uhf_values) : outcome uhf_values :=
    match remaining with
    | O => match last with None => Unbound | Some r => Done r false end
    | S remaining =>
        let Fa := fock_uhf Hcore ERI Da0 Db0 in
        let Fb := fock_uhf Hcore ERI Db0 Da0 in
        match (if use_diis then get_extrapolated_fock_matrix 6 sta Fa Da0 S else Some (Fa, sta)) with
        | None => LinAlg
        | Some (Fa, sta) =>
        match (if use_diis then get_extrapolated_fock_matrix 6 stb Fb Db0 S else Some (Fb, stb)) with
        | None => LinAlg
        | Some (Fb, stb) =>
            let Ca := orbitals X Fa in let Cb := orbitals X Fb in
            let Da := density 1 na Ca in let Db := density 1 nb Cb in
            let E := 1 / 2 * inner n Da (add_ Hcore Fa) + 1 / 2 * inner n Db (add_ Hcore Fb) in
            let r := (E, (Ca, Cb), (Fa, Fb), (Da, Db)) in
            if Rlt_dec (Rabs (E - E0)) dE_thr then
              if Rlt_dec (rms n Da Da0) rmsd_thr then
                if Rlt_dec (rms n Db Db0) rmsd_thr then Done r true
                else uscf use_diis X S Hcore ERI na nb dE_thr rmsd_thr remaining Da Db E sta stb (Some r)
              else uscf use_diis X S Hcore ERI na nb dE_thr rmsd_thr remaining Da Db E sta stb (Some r)
            else uscf use_diis X S Hcore ERI na nb dE_thr rmsd_thr remaining Da Db E sta stb (Some r)
        end end
    end.
  (** Rows [0 : m] of a matrix whose rows are orbitals. *)
  Definition run_unrestricted_hartree_fock (S T V : mat) (ERI : ten) (na nb : nat) (c : R) (dE_thr rmsd_thr : R) (max_scf_iterations : nat) (use_diis : bool)
    : outcome uhf_values :=
    let Hcore := add_ T V in
    let X := inv_sqrt S in
    let F0prime := dot n (dot n (tr_ X) Hcore) (tr_ X) in
    let C0T := tr_ (dot n X (snd (eigh F0prime))) in
    match (if Nat.eqb na nb then mix c na C0T else Some C0T) with
    | None => IndexErr
    | Some CaT =>
        let Da0 := density 1 na (tr_ CaT) in
        let Db0 := density 1 nb (tr_ C0T) in
        let E0 := inner n Da0 Hcore + inner n Db0 Hcore in
        uscf use_diis X S Hcore ERI na nb dE_thr rmsd_thr max_scf_iterations Da0 Db0 E0 [] [] None
    end.
  (** hartreefockclass.py lines 115-135, [spin_contamination]. *)
  Definition spin_contamination (S Ca Cb : mat) (na nb : nat) : R :=
    let Sab : mat := fun i j => sm n (fun a => sm n (fun b => Ca a i * Cb b j * S a b)) in
    INR nb - sm na (fun i => sm nb (fun j => Sab i j ^ 2)).
End HF.
Arguments Done {A} a converged.
Arguments Unbound {A}.
Arguments LinAlg {A}.
Arguments IndexErr {A}.

(** ** moleculeclass.py *)
(** [number_electrons], [number_electrons_alpha], [number_electrons_beta], lines
    132-168: Python's [//] is the floor division of [Z]. *)
Definition number_electrons (charge : Z) (charges : list Z) : Z := fold_left Z.add charges (- charge)%Z.
Definition number_electrons_alpha (charge : Z) (charges : list Z) : Z := ((number_electrons charge charges + 1) / 2)%Z.
Definition number_electrons_beta (charge : Z) (charges : list Z) : Z := (number_electrons charge charges / 2)%Z.
(** [nuclear_repulsion], lines 170-189; nuclei at the same place (a division by
    zero in numpy) are outside the model: [/ 0] is an unspecified number. *)
Definition distance (a b : v3) : R := sqrt ((vx a - vx b) ^ 2 + (vy a - vy b) ^ 2 + (vz a - vz b) ^ 2).
Definition nuclear_repulsion (atoms : list (v3 * R)) : R :=
  let d := ({| vx := 0; vy := 0; vz := 0 |}, 0) in
  sm (length atoms) (fun i => sm (length atoms) (fun j =>
    if Nat.leb j i then 0 else snd (nth i atoms d) * snd (nth j atoms d) / distance (fst (nth i atoms d)) (fst (nth j atoms d)))).
