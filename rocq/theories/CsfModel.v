(** Model of the matrix elements between configuration state functions in
    slowquant/qiskit_interface/interface.py.

    Determinants are strings of 0 and 1 in the interleaved order of the spin
    orbitals; the model uses lists of booleans, as in QubitModel.v.  Circuits are
    not transpiled ([self.ISA] is False). *)
From Coq Require Import List Bool Arith NArith ZArith.
From Verif Require Import Base Fock CliqueModel QubitModel.
Import ListNotations.
Local Open Scope list_scope.

Definition dstr := list bool.
(** [int(det, 2)]. *)
Definition det_int (d : dstr) : N := fold_left (fun a b => (2 * a + (if b : bool then 1 else 0))%N) d 0%N.
Fixpoint det_eqb (a b : dstr) : bool :=
  match a, b with [], [] => true | x :: a, y :: b => Bool.eqb x y && det_eqb a b | _, _ => false end.
(** The comparison of strings that [sorted] uses. *)
Fixpoint det_ltb (a b : dstr) : bool :=
  match a, b with
  | _, [] => false
  | [], _ :: _ => true
  | x :: a, y :: b => if Bool.eqb x y then det_ltb a b else negb x && y
  end.
(** [sorted((a, b), reverse=reverse)], a stable sort. *)
Definition sorted_pair (reverse : bool) (a b : dstr) : dstr * dstr :=
  if (if reverse then det_ltb a b else det_ltb b a) then (b, a) else (a, b).
Definition pair_eqb (p q : dstr * dstr) : bool := det_eqb (fst p) (fst q) && det_eqb (snd p) (snd q).

Section Csf.
  Context {K : Type} {C : CRing K}.
  Local Open Scope K_scope.

  Definition csf := (list K * list dstr)%type.
  (** The sign of a reordering as a number. *)
  Definition sign_num (z : Z) : K := if (z =? 1)%Z then 1 else - (1).
  Definition get_coeff (l : list K) (i : nat) : Res K := match nth_error l i with Some c => Ok c | None => Raise IndexError end.

  (** interface.py, [quantum_expectation_value_csfs], the list [all_combinations]
      (lines 806-816). *)
  Definition combination (reverse : bool) (bra ket : csf) (i j : nat) : Res ((dstr * dstr) * K) :=
    let bi := nth i (snd bra) [] in let kj := nth j (snd ket) [] in
    bind (get_coeff (fst bra) i) (fun b => bind (get_coeff (fst ket) j) (fun k =>
      Ok (sorted_pair reverse bi kj, b * k * sign_num (get_reordering_sign bi) * sign_num (get_reordering_sign kj)))).
  Definition all_combinations (reverse : bool) (bra ket : csf) : Res (list ((dstr * dstr) * K)) :=
    fold_left (fun acc ij => bind acc (fun acc => bind (combination reverse bra ket (fst ij) (snd ij)) (fun e => Ok (acc ++ [e]))))
      (list_prod (seq 0 (List.length (snd bra))) (seq 0 (List.length (snd ket)))) (Ok []).

  (** [unique_combinations[combo] += weight] on a [defaultdict(float)], lines
      818-820: an association list in the order of insertion. *)
  Fixpoint add_combination (p : dstr * dstr) (w : K) (l : list ((dstr * dstr) * K)) : list ((dstr * dstr) * K) :=
    match l with
    | [] => [(p, 0 + w)]
    | (q, v) :: r => if pair_eqb p q then (q, v + w) :: r else (q, v) :: add_combination p w r
    end.
  Definition unique_combinations (l : list ((dstr * dstr) * K)) : list ((dstr * dstr) * K) :=
    fold_left (fun acc e => add_combination (fst e) (snd e) acc) l [].

  (** Computations that may raise and that change the interface. *)
  Section Loop.
    Context {St : Type}.
    Definition SR (A : Type) := St -> St * Res A.
    Definition sbind {A B} (m : SR A) (f : A -> SR B) : SR B := fun s =>
      match m s with
      | (s', Ok a) => f a s'
      | (s', Raise e) => (s', Raise e)
      | (s', Hang) => (s', Hang)
      end.
    Definition sret {A} (a : A) : SR A := fun s => (s, Ok a).
    Definition slift {A} (r : Res A) : SR A := fun s => (s, r).

    (** [ev circuit det_int csfs_option] is one call of
        [_sampler_quantum_expectation_value] or of [..._nosave]. *)
    Variable ev : list (gate (K:=K)) -> N -> nat -> SR K.
    Variables (half : K) (ansatz : list (gate (K:=K))) (num_orbs : nat) (m : mapper) (opt : nat).

    (** [self.ansatz_circuit.compose(circuit, front=True)]. *)
    Definition compose_front (circuit : list (gate (K:=K))) : list (gate (K:=K)) := circuit ++ ansatz.
    (** The value of one determinant: lines 825-838, 916-936 and 939-959. *)
    Definition det_value (d : dstr) : SR K :=
      sbind (slift (get_determinant_reference d num_orbs m)) (fun circuit => ev (compose_front circuit) (det_int d) 1).
    (** One pass of the loop, lines 823-959, without ISA and without
        [do_M_ansatz0_plus]. *)
    Definition csf_term (e : (dstr * dstr) * K) (val : K) : SR K :=
      let '((bra_det, ket_det), w) := e in
      if det_eqb bra_det ket_det then
        sbind (det_value bra_det) (fun v => sret (val + w * v))
      else
        sbind (slift (get_determinant_superposition_reference bra_det ket_det num_orbs m)) (fun state =>
        sbind (ev (compose_front state) (det_int (bra_det ++ ket_det)) opt) (fun v =>
        let val := val + w * v in
        sbind (det_value bra_det) (fun v =>
        let val := val - half * w * v in
        sbind (det_value ket_det) (fun v => sret (val - half * w * v))))).
    Fixpoint csf_loop (l : list ((dstr * dstr) * K)) (val : K) : SR K :=
      match l with
      | [] => sret val
      | e :: r => sbind (csf_term e val) (csf_loop r)
      end.

    (** The whole method, lines 718-960 (a sampler primitive, not ISA). *)
    Definition quantum_expectation_value_csfs (bra ket : csf) (reverse : bool) : SR K :=
      match m with
      | JordanWigner =>
          sbind (slift (all_combinations reverse bra ket)) (fun all => csf_loop (unique_combinations all) 0)
      | _ => slift (Raise TypeError)
      end.
  End Loop.

  (** Without ISA the layout of the ansatz circuit is [None]: option 0 becomes 1
      (lines 784-793). *)
  Definition resolve_option (opt : nat) : nat := if (opt =? 0)%nat then 1%nat else opt.

  (** [device par circuit h]: the call of the sampler for a circuit and a head. *)
  Variable cf : config (K:=K).
  Variable device : list K -> list (gate (K:=K)) -> pauli -> dist (K:=K).

  (** [_sampler_quantum_expectation_value(op, run_circuit, det, csfs_option)],
      lines 978-1080. *)
  Definition ev_save (obs : list (pauli * K)) (circuit : list (gate (K:=K))) (key : N) (opt : nat) : SR (St:=qi (K:=K)) K := fun s =>
    let '(e, r) := sampler_value cf (qi_flags s) (device (qi_par s) circuit) opt obs (zget key (qi_saver s)) in
    ({| qi_par := qi_par s; qi_flags := qi_flags s; qi_saver := zset key e (qi_saver s) |}, r).

  (** [_sampler_quantum_expectation_value_nosave], lines 1082-1166. *)
  Definition nosave_value (fl : flags) (dev : pauli -> dist (K:=K)) (do_cliques : bool) (obs : list (pauli * K)) : Res K :=
    let mitigate := fun hds : list (pauli * dist (K:=K)) =>
      bind (if do_M_mitigation fl then cf_M cf hds else Ok hds) (fun hds =>
        if do_postselection fl then apply_postselection (cf_div cf) (cf_mapper cf) (cf_elec cf) (cf_qubits cf) hds else Ok hds) in
    let paulis_str := map fst obs in
    if do_cliques then
      let '(cl, rh) := add_paulis paulis_str [] in
      bind rh (fun new_heads =>
      bind (mitigate (combine new_heads (map dev new_heads))) (fun hds =>
      let '(cl, ro) := update_distr (map fst hds) (map snd hds) None cl in
      bind ro (fun _ =>
        fold_left (fun values pc => bind values (fun values =>
          bind (get_distr (fst pc) None cl) (fun d =>
          bind (signed_sum (fst pc) d) (fun result => Ok (values + result * snd pc))))) obs (Ok 0))))
    else
      bind (mitigate (combine paulis_str (map dev paulis_str))) (fun hds =>
        fold_left (fun values pcd => bind values (fun values =>
          bind (signed_sum (fst (fst pcd)) (snd pcd)) (fun result => Ok (values + result * snd (fst pcd)))))
          (combine obs (map snd hds)) (Ok 0)).
  Definition ev_nosave (par : list K) (do_cliques : bool) (obs : list (pauli * K)) (circuit : list (gate (K:=K))) (key : N) (opt : nat) : SR (St:=qi (K:=K)) K := fun s =>
    (s, nosave_value (qi_flags s) (device par circuit) do_cliques obs).

  (** The reference circuit of the interface, qiskit_nature's [HartreeFock] with
      the Jordan-Wigner mapper: alpha orbitals first. *)
  Definition hf_reference (num_elec : nat * nat) (num_orbs : nat) : list (gate (K:=K)) :=
    map GX (seq 0 (fst num_elec) ++ seq num_orbs (snd num_elec)).
  (** [det] when it is [None], lines 1014-1017. *)
  Definition hf_det (num_elec : nat * nat) (num_orbs : nat) : dstr :=
    repeat true (fst num_elec + snd num_elec) ++ repeat false (2 * num_orbs - (fst num_elec + snd num_elec)).

  (** Histories of calls of one interface: matrix elements between configuration
      state functions, expectation values of the reference ansatz, and the calls
      that change parameters, flags and saver. *)
  Inductive csf_call :=
  | CallCsf (bra ket : csf) (obs : list (pauli * K)) (opt : nat) (reverse : bool)
  | CallHF (obs : list (pauli * K))
  | CallSet (new : list K)
  | CallMitigation (kw : list (String.string * pyval))
  | CallClear.
  Definition csf_step (keq : K -> K -> bool) (npars : nat) (half : K) (ansatz : list K -> list (gate (K:=K))) (num_orbs : nat)
      (c : csf_call) : SR (St:=qi (K:=K)) (option K) := fun s =>
    let other := fun c => qi_step cf keq npars (fun _ _ _ _ => []) c s in
    match c with
    | CallCsf bra ket obs opt reverse =>
        sbind (quantum_expectation_value_csfs (ev_save obs) half (ansatz (qi_par s)) num_orbs (cf_mapper cf) (resolve_option opt) bra ket reverse)
              (fun v => sret (Some v)) s
    | CallHF obs =>
        sbind (ev_save obs (compose_front (ansatz (qi_par s)) (hf_reference (cf_elec cf) num_orbs)) (det_int (hf_det (cf_elec cf) num_orbs)) 1)
              (fun v => sret (Some v)) s
    | CallSet new => other (CallParams new)
    | CallMitigation kw => other (CallFlags kw)
    | CallClear => other CallReset
    end.
  Definition csf_run (keq : K -> K -> bool) (npars : nat) (half : K) (ansatz : list K -> list (gate (K:=K))) (num_orbs : nat)
      (cs : list csf_call) (s : qi (K:=K)) : qi :=
    fold_left (fun s c => fst (csf_step keq npars half ansatz num_orbs c s)) cs s.
End Csf.
