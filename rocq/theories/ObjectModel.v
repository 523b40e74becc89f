(** Model of the objects that hold the input of a calculation: slowquant/logger.py,
    slowquant/SlowQuant.py, slowquant/molecularintegrals/integralclass.py, the
    mutation of [_Molecule] by [_set_basis_set], [_HartreeFock]'s references and
    slowquant/unitary_coupled_cluster/integral_manager.py. *)
From Coq Require Import List Bool Arith String Ascii.
Import ListNotations.

(** ** logger.py *)
Record logger := { log : string; print_output : bool; print_warnings : bool }.
(** Lines 2-6. *)
Definition new_logger : logger := {| log := EmptyString; print_output := true; print_warnings := true |}.
(** Python's [sep.join(content)] for a string [content]: its characters with
    [sep] between them; a new string. *)
Fixpoint py_join (sep content : string) : string :=
  match content with
  | EmptyString => EmptyString
  | String a EmptyString => String a EmptyString
  | String a rest => String a (append sep (py_join sep rest))
  end.
Definition newline : string := String (ascii_of_nat 10) EmptyString.
(** [add_to_log], lines 8-24: the new logger, and what is printed.  The results
    of the three calls of [join] are not used. *)
Definition add_to_log (l : logger) (content : string) (is_warning : bool) : logger * string :=
  let content := append content newline in
  let content := if is_warning then append "WARNING: " content else content in
  let printed := if print_output l then let _ := py_join (log l) content in content
                 else if is_warning && print_warnings l then let _ := py_join (log l) content in content else EmptyString in
  let _ := py_join (log l) content in (l, printed).
Inductive log_op := Add (content : string) (is_warning : bool) | PrintOutput (b : bool) | PrintWarnings (b : bool).
Definition log_step (l : logger) (o : log_op) : logger * string :=
  match o with
  | Add c w => add_to_log l c w
  | PrintOutput b => ({| log := log l; print_output := b; print_warnings := print_warnings l |}, EmptyString)
  | PrintWarnings b => ({| log := log l; print_output := print_output l; print_warnings := b |}, EmptyString)
  end.
Fixpoint log_run (l : logger) (os : list log_op) : logger * string :=
  match os with [] => (l, EmptyString) | o :: os => let '(l, p) := log_step l o in let '(l, q) := log_run l os in (l, append p q) end.

(** ** SlowQuant.py, integralclass.py *)
Inductive kind := Overlap | Kinetic | Nuclear.
Section Objects.
  (** Atoms and charge; basis sets; one- and two-electron tables; Schwarz
      matrices; thresholds. *)
  Variables (geometry basis T1 T2 schwarz threshold : Type).
  (** moleculeclass.py: [atoms] and [molecular_charge]; [shells] is unset until
      [_set_basis_set] (lines 78-108), which replaces it. *)
  Record molecule := { geom : geometry; shells : option basis }.
  (** The integral drivers, as functions of the molecule (IntegralModel.v has the
      functions themselves). *)
  Variables (one_electron : kind -> molecule -> T1) (two_electron : molecule -> schwarz -> threshold -> T2) (schwarz_matrix : molecule -> schwarz).
  Variable default_threshold : threshold.
  (** integralclass.py lines 16-39; [mol] is a reference. *)
  Record integral := { mol : nat; store_1e : bool; store_2e : bool; force_recompute : bool; c1 : kind -> option T1; c2 : option T2; cs : schwarz; thr : threshold }.
  Record state := { mols : list molecule; ints : list integral; sq_molecule : option nat; sq_integral : option nat; hf : option (nat * nat) }.
  Definition new_state : state := {| mols := []; ints := []; sq_molecule := None; sq_integral := None; hf := None |}.
  Definition upd {A} (l : list A) (i : nat) (x : A) : list A := firstn i l ++ match skipn i l with [] => [] | _ :: r => x :: r end.
  Definition kind_eqb (a b : kind) : bool := match a, b with Overlap, Overlap | Kinetic, Kinetic | Nuclear, Nuclear => true | _, _ => false end.
  (** [_Integral(molecule)] *)
  Definition new_integral (m : nat) (M : molecule) : integral :=
    {| mol := m; store_1e := true; store_2e := true; force_recompute := false; c1 := fun _ => None; c2 := None; cs := schwarz_matrix M; thr := default_threshold |}.
  (** [overlap_matrix], [kinetic_energy_matrix], [nuclear_attraction_matrix],
      lines 41-80. *)
  Definition read1 (M : molecule) (o : integral) (k : kind) : integral * T1 :=
    if store_1e o then
      match c1 o k, force_recompute o with
      | Some v, false => (o, v)
      | _, _ => let v := one_electron k M in
        ({| mol := mol o; store_1e := store_1e o; store_2e := store_2e o; force_recompute := force_recompute o;
            c1 := fun k' => if kind_eqb k k' then Some v else c1 o k'; c2 := c2 o; cs := cs o; thr := thr o |}, v)
      end
    else (o, one_electron k M).
  (** [electron_repulsion_tensor], lines 82-97. *)
  Definition read2 (M : molecule) (o : integral) : integral * T2 :=
    if store_2e o then
      match c2 o, force_recompute o with
      | Some v, false => (o, v)
      | _, _ => let v := two_electron M (cs o) (thr o) in
        ({| mol := mol o; store_1e := store_1e o; store_2e := store_2e o; force_recompute := force_recompute o; c1 := c1 o; c2 := Some v; cs := cs o; thr := thr o |}, v)
      end
    else (o, two_electron M (cs o) (thr o)).
  (** What a user can do: the methods of SlowQuant, and reads and assignments of
      public attributes of any integral object still referenced. *)
  Inductive op :=
  | SetMolecule (g : geometry) (b : option basis) | SetBasis (b : basis) | InitHF
  | Read1 (i : nat) (k : kind) | Read2 (i : nat)
  | SetStore1 (i : nat) (b : bool) | SetStore2 (i : nat) (b : bool) | SetForce (i : nat) (b : bool) | SetThreshold (i : nat) (t : threshold).
  Inductive result := Unit | V1 (v : T1) | V2 (v : T2) | NoAttribute | NoObject.
  Definition set_int (s : state) (i : nat) (o : integral) : state :=
    {| mols := mols s; ints := upd (ints s) i o; sq_molecule := sq_molecule s; sq_integral := sq_integral s; hf := hf s |}.
  (** [_set_basis_set] on molecule [m] followed by [self.integral = _Integral(...)]. *)
  Definition with_basis (s : state) (m : nat) (b : basis) : state * result :=
    match nth_error (mols s) m with
    | None => (s, NoObject)
    | Some M => let M' := {| geom := geom M; shells := Some b |} in
        ({| mols := upd (mols s) m M'; ints := ints s ++ [new_integral m M']; sq_molecule := sq_molecule s; sq_integral := Some (List.length (ints s)); hf := hf s |}, Unit)
    end.
  Definition on_int (s : state) (i : nat) (f : integral -> molecule -> integral * result) : state * result :=
    match nth_error (ints s) i with
    | None => (s, NoObject)
    | Some o => match nth_error (mols s) (mol o) with
                | None => (s, NoObject)
                | Some M => let '(o, r) := f o M in (set_int s i o, r)
                end
    end.
  Definition step (s : state) (o : op) : state * result :=
    match o with
    | SetMolecule g b =>  (* SlowQuant.py lines 15-33 *)
        let s := {| mols := mols s ++ [{| geom := g; shells := None |}]; ints := ints s; sq_molecule := Some (List.length (mols s)); sq_integral := sq_integral s; hf := hf s |} in
        match b with None => (s, Unit) | Some b => with_basis s (List.length (mols s) - 1) b end
    | SetBasis b =>       (* lines 35-45: a warning when there is no molecule *)
        match sq_molecule s with None => (s, Unit) | Some m => with_basis s m b end
    | InitHF =>           (* lines 47-49: AttributeError when an attribute is unset *)
        match sq_molecule s, sq_integral s with
        | Some m, Some i => ({| mols := mols s; ints := ints s; sq_molecule := sq_molecule s; sq_integral := sq_integral s; hf := Some (m, i) |}, Unit)
        | _, _ => (s, NoAttribute)
        end
    | Read1 i k => on_int s i (fun o M => match shells M with None => (o, NoAttribute) | Some _ => let '(o, v) := read1 M o k in (o, V1 v) end)
    | Read2 i => on_int s i (fun o M => match shells M with None => (o, NoAttribute) | Some _ => let '(o, v) := read2 M o in (o, V2 v) end)
    | SetStore1 i b => on_int s i (fun o _ => ({| mol := mol o; store_1e := b; store_2e := store_2e o; force_recompute := force_recompute o; c1 := c1 o; c2 := c2 o; cs := cs o; thr := thr o |}, Unit))
    | SetStore2 i b => on_int s i (fun o _ => ({| mol := mol o; store_1e := store_1e o; store_2e := b; force_recompute := force_recompute o; c1 := c1 o; c2 := c2 o; cs := cs o; thr := thr o |}, Unit))
    | SetForce i b => on_int s i (fun o _ => ({| mol := mol o; store_1e := store_1e o; store_2e := store_2e o; force_recompute := b; c1 := c1 o; c2 := c2 o; cs := cs o; thr := thr o |}, Unit))
    | SetThreshold i t => on_int s i (fun o _ => ({| mol := mol o; store_1e := store_1e o; store_2e := store_2e o; force_recompute := force_recompute o; c1 := c1 o; c2 := c2 o; cs := cs o; thr := t |}, Unit))
    end.
  Definition run (s : state) (os : list op) : state := fold_left (fun s o => fst (step s o)) os s.

  (** ** integral_manager.py, with a SlowQuant object *)
  (** Lines 19-30: [copy.deepcopy] is a copy of the whole state. *)
  Record manager := { snap : state; m_kin : option T1; m_nuc : option T1; m_rep : option T2; m_h : option T1 }.
  Definition new_manager (s : state) : manager := {| snap := s; m_kin := None; m_nuc := None; m_rep := None; m_h := None |}.
  Definition attr1 (s : state) (k : kind) : state * result := match sq_integral s with None => (s, NoAttribute) | Some i => step s (Read1 i k) end.
  Definition attr2 (s : state) : state * result := match sq_integral s with None => (s, NoAttribute) | Some i => step s (Read2 i) end.
  (** [kinetic_energy], lines 42-54. *)
  Definition get_kin (m : manager) : manager * result :=
    match m_kin m with
    | Some v => (m, V1 v)
    | None => let '(s, r) := attr1 (snap m) Kinetic in
        ({| snap := s; m_kin := match r with V1 v => Some v | _ => None end; m_nuc := m_nuc m; m_rep := m_rep m; m_h := m_h m |}, r)
    end.
  (** [nuclear_electron_attraction], lines 56-68. *)
  Definition get_nuc (m : manager) : manager * result :=
    match m_nuc m with
    | Some v => (m, V1 v)
    | None => let '(s, r) := attr1 (snap m) Nuclear in
        ({| snap := s; m_kin := m_kin m; m_nuc := match r with V1 v => Some v | _ => None end; m_rep := m_rep m; m_h := m_h m |}, r)
    end.
  (** [electron_electron_repulsion], lines 70-82. *)
  Definition get_rep (m : manager) : manager * result :=
    match m_rep m with
    | Some v => (m, V2 v)
    | None => let '(s, r) := attr2 (snap m) in
        ({| snap := s; m_kin := m_kin m; m_nuc := m_nuc m; m_rep := match r with V2 v => Some v | _ => None end; m_h := m_h m |}, r)
    end.
  Variable plus : T1 -> T1 -> T1.
  (** [h_ao], lines 113-125. *)
  Definition get_h (m : manager) : manager * result :=
    match m_h m with
    | Some v => (m, V1 v)
    | None => let '(m, r) := get_nuc m in
        match r with
        | V1 a => let '(m, r) := get_kin m in
            match r with
            | V1 b => ({| snap := snap m; m_kin := m_kin m; m_nuc := m_nuc m; m_rep := m_rep m; m_h := Some (plus a b) |}, V1 (plus a b))
            | _ => (m, r)
            end
        | _ => (m, r)
        end
    end.
  Inductive mop := GetKin | GetNuc | GetRep | GetH.
  Definition mstep (m : manager) (o : mop) : manager * result := match o with GetKin => get_kin m | GetNuc => get_nuc m | GetRep => get_rep m | GetH => get_h m end.
  Definition mrun (m : manager) (os : list mop) : manager := fold_left (fun m o => fst (mstep m o)) os m.
End Objects.
