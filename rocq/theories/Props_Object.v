(** C54 (logger), C80 (integral objects), C81 (integral manager). *)
From Coq Require Import List Bool Arith String Ascii Lia.
Require Import Verif.ObjectModel Verif.ObjectProofs.
Import ListNotations.
Local Open Scope string_scope.

(** ** C54 *)
(** The messages of a history as they should appear. *)
Fixpoint messages (os : list log_op) : string :=
  match os with
  | [] => ""
  | Add c w :: os => (if w then "WARNING: " ++ c else c) ++ newline ++ messages os
  | _ :: os => messages os
  end.
(** The log stays what it was, whatever is logged: for a new logger, empty. *)
Theorem C54_log_never_changes l os : log (fst (log_run l os)) = log l.
Proof.
  revert l. induction os as [|o os IH]; intros l; [reflexivity|]. cbn [log_run]. destruct (log_step l o) as [l' p] eqn:E. specialize (IH l'). destruct (log_run l' os) as [l'' q]. cbn [fst] in *. rewrite IH.
  destruct o; cbn in E; injection E as <- _; reflexivity.
Qed.
Theorem C54_log_refuted os : (exists c w, In (Add c w) os) -> log (fst (log_run new_logger os)) <> messages os.
Proof.
  intros (c & w & H). rewrite C54_log_never_changes. cbn [new_logger log]. intros E. symmetry in E. revert E. induction os as [|o os IH]; [destruct H|].
  destruct H as [->|H]; [|specialize (IH H)].
  - cbn [messages]. rewrite append_assoc. destruct w; [discriminate|]. destruct c; discriminate.
  - destruct o as [c' w'|b|b]; cbn [messages]; [|exact IH|exact IH]. destruct w'; [discriminate|]. destruct c'; discriminate.
Qed.
(** What is printed: every message while printing is on, otherwise the warnings
    while those are on. *)
Fixpoint printed (out warn : bool) (os : list log_op) : string :=
  match os with
  | [] => ""
  | Add c w :: os => (if out || (w && warn) then (if w then "WARNING: " ++ c else c) ++ newline else "") ++ printed out warn os
  | PrintOutput b :: os => printed b warn os
  | PrintWarnings b :: os => printed out b os
  end.
Theorem C54_printed l os : snd (log_run l os) = printed (print_output l) (print_warnings l) os.
Proof.
  revert l. induction os as [|o os IH]; intros l; [reflexivity|]. cbn [log_run]. destruct (log_step l o) as [l' p] eqn:E. specialize (IH l'). destruct (log_run l' os) as [l'' q]. cbn [snd] in *. subst q.
  destruct o as [c w|b|b]; cbn in E; injection E as <- <-; cbn [printed print_output print_warnings]; try reflexivity.
  f_equal. destruct (print_output l); destruct w; destruct (print_warnings l); cbn [orb andb]; try reflexivity; try apply append_assoc; cbn; rewrite ?append_assoc; reflexivity.
Qed.
Example ex_C54 : snd (log_run new_logger [Add "a" false; PrintOutput false; Add "b" false; Add "c" true]) = "a" ++ newline ++ "WARNING: c" ++ newline.
Proof. reflexivity. Qed.

(** ** C80 *)
Section C80.
  Context {geometry basis T1 T2 schwarz threshold : Type}.
  Notation molecule := (molecule geometry basis).
  Variables (one_electron : kind -> molecule -> T1) (two_electron : molecule -> schwarz -> threshold -> T2) (schwarz_matrix : molecule -> schwarz).
  Variable default_threshold : threshold.
  Notation op := (op geometry basis threshold).
  Notation run := (run geometry basis T1 T2 schwarz threshold one_electron two_electron schwarz_matrix default_threshold (new_state _ _ _ _ _ _)).
  Notation attr1 := (attr1 geometry basis T1 T2 schwarz threshold one_electron two_electron schwarz_matrix default_threshold).
  Notation attr2 := (attr2 geometry basis T1 T2 schwarz threshold one_electron two_electron schwarz_matrix default_threshold).
  Notation Mol g b := (Build_molecule geometry basis g (Some b)).
  (** Geometry of the molecule last set, and the geometry and basis for which
      the integral object was last made; written from the history alone. *)
  Fixpoint last_geometry (os : list op) (g : option geometry) : option geometry :=
    match os with [] => g | SetMolecule _ _ _ g' _ :: os => last_geometry os (Some g') | _ :: os => last_geometry os g end.
  Fixpoint last_basis (os : list op) (g : option geometry) (x : option (geometry * basis)) : option (geometry * basis) :=
    match os with
    | [] => x
    | SetMolecule _ _ _ g' (Some b) :: os => last_basis os (Some g') (Some (g', b))
    | SetMolecule _ _ _ g' None :: os => last_basis os (Some g') x
    | SetBasis _ _ _ b :: os => last_basis os g (match g with Some g => Some (g, b) | None => x end)
    | _ :: os => last_basis os g x
    end.
  Lemma spec_last os : spec geometry basis threshold os = (last_geometry os None, last_basis os None None).
  Proof.
    unfold spec. change (@None geometry, @None (geometry * basis)) with (@None geometry, @None (geometry * basis)).
    generalize (@None (geometry * basis)) as x. generalize (@None geometry) as g. induction os as [|o os IH]; intros g x; [reflexivity|]. cbn [fold_left].
    destruct o as [g' [b|]|b| | | | | | |]; cbn [last_geometry last_basis spec_step fst snd]; try apply IH. destruct g; apply IH.
  Qed.
  (** One-electron matrices read through the SlowQuant object are those of the
      geometry and basis last given together, after any history of reads, cache
      switches and replacements. *)
  Theorem C80_one_electron (os : list op) k :
    snd (attr1 (run os) k) = match last_basis os None None with None => NoAttribute _ _ | Some (g, b) => V1 _ _ (one_electron k (Mol g b)) end.
  Proof.
    pose proof (attr1_ok geometry basis T1 T2 schwarz threshold one_electron two_electron schwarz_matrix default_threshold os _ _ k (run_inv _ _ _ _ _ _ one_electron two_electron schwarz_matrix default_threshold os)) as [_ A].
    rewrite spec_last in A. exact A.
  Qed.
  (** The two-electron tensor is that of the same molecule, screened with its own
      Schwarz matrix, and with a threshold that was in force at some time. *)
  Theorem C80_two_electron (os : list op) :
    match last_basis os None None with
    | None => snd (attr2 (run os)) = NoAttribute _ _
    | Some (g, b) => exists i t, sq_integral _ _ _ _ _ _ (run os) = Some i /\ (t = default_threshold \/ In (SetThreshold _ _ _ i t) os)
        /\ snd (attr2 (run os)) = V2 _ _ (two_electron (Mol g b) (schwarz_matrix (Mol g b)) t)
    end.
  Proof.
    pose proof (attr2_ok geometry basis T1 T2 schwarz threshold one_electron two_electron schwarz_matrix default_threshold os _ _ (run_inv _ _ _ _ _ _ one_electron two_electron schwarz_matrix default_threshold os)) as [_ A].
    rewrite spec_last in A. cbn [snd] in A. destruct (last_basis os None None) as [[g b]|]; [|exact A]. destruct A as (i & o & t & A1 & _ & A2 & A3 & _). exists i, t. auto.
  Qed.
  (** With [force_recompute] set, or without storing, it is the present threshold. *)
  Theorem C80_present_threshold (os : list op) g b i o :
    last_basis os None None = Some (g, b) -> sq_integral _ _ _ _ _ _ (run os) = Some i -> nth_error (ints _ _ _ _ _ _ (run os)) i = Some o ->
    store_2e _ _ _ _ o = false \/ force_recompute _ _ _ _ o = true ->
    snd (attr2 (run os)) = V2 _ _ (two_electron (Mol g b) (schwarz_matrix (Mol g b)) (thr _ _ _ _ o)).
  Proof.
    intros E Ei Eo H. pose proof (attr2_ok geometry basis T1 T2 schwarz threshold one_electron two_electron schwarz_matrix default_threshold os _ _ (run_inv _ _ _ _ _ _ one_electron two_electron schwarz_matrix default_threshold os)) as [_ A].
    rewrite spec_last in A. cbn [snd] in A. rewrite E in A. destruct A as (i' & o' & t & A1 & A2 & _ & A3 & A4). rewrite Ei in A1. injection A1 as <-. rewrite Eo in A2. injection A2 as <-. rewrite A3, (A4 H). reflexivity.
  Qed.

  (** ** C81 *)
  Variable plus : T1 -> T1 -> T1.
  Notation mstep := (mstep geometry basis T1 T2 schwarz threshold one_electron two_electron schwarz_matrix default_threshold plus).
  Notation mrun := (mrun geometry basis T1 T2 schwarz threshold one_electron two_electron schwarz_matrix default_threshold plus).
  (** A manager made after history [os] answers, after any reads, with the
      integrals of the geometry and basis of that history. *)
  Theorem C81_manager (os : list op) (l : list mop) :
    let m := mrun (new_manager _ _ _ _ _ _ (run os)) l in
    match last_basis os None None with
    | None => forall o, snd (mstep m o) = NoAttribute _ _
    | Some (g, b) => snd (mstep m GetKin) = V1 _ _ (one_electron Kinetic (Mol g b)) /\ snd (mstep m GetNuc) = V1 _ _ (one_electron Nuclear (Mol g b))
        /\ snd (mstep m GetH) = V1 _ _ (plus (one_electron Nuclear (Mol g b)) (one_electron Kinetic (Mol g b)))
        /\ exists i t, (t = default_threshold \/ In (SetThreshold _ _ _ i t) os) /\ snd (mstep m GetRep) = V2 _ _ (two_electron (Mol g b) (schwarz_matrix (Mol g b)) t)
    end.
  Proof.
    intros m. assert (V : minv geometry basis T1 T2 schwarz threshold one_electron two_electron schwarz_matrix default_threshold plus os m (spec _ _ _ os)).
    { apply mrun_ok, new_manager_ok, run_inv. }
    pose proof (fun o => proj2 (mstep_ok _ _ _ _ _ _ _ _ _ _ _ os m _ o V)) as A. rewrite spec_last in A. cbn [snd] in A. destruct (last_basis os None None) as [[g b]|].
    - split; [exact (A GetKin)|]. split; [exact (A GetNuc)|]. split; [exact (A GetH)|]. destruct (A GetRep) as (i & t & Ht & E). exists i, t. auto.
    - intros o. exact (A o).
  Qed.
  (** Answers repeat: a second read gives what the first gave. *)
  Theorem C81_repeat (os : list op) (l l' : list mop) o :
    snd (mstep (mrun (new_manager _ _ _ _ _ _ (run os)) (l ++ o :: l')) o) = snd (mstep (mrun (new_manager _ _ _ _ _ _ (run os)) l) o).
  Proof.
    pose proof (C81_manager os l) as A. pose proof (C81_manager os (l ++ o :: l')) as B. cbv zeta in A, B. destruct (last_basis os None None) as [[g b]|]; [|rewrite A; apply B].
    destruct A as (A1 & A2 & A3 & i & t & _ & A4), B as (B1 & B2 & B3 & _). destruct o; try congruence. rewrite A4.
    rewrite mrun_app. cbn [ObjectModel.mstep] in *. unfold get_rep at 1. rewrite (m_rep_kept _ _ _ _ _ _ _ _ _ _ _ l' _ _ (get_rep_cached _ _ _ _ _ _ _ _ _ _ _ _ A4)). reflexivity.
  Qed.
End C80.

(** Concrete instance: a table is the molecule it was computed from. *)
Definition mol_nat := molecule nat nat.
Definition ex_run (os : list (op nat nat nat)) :=
  run nat nat (kind * mol_nat) (mol_nat * mol_nat * nat) mol_nat nat (fun k m => (k, m)) (fun m c t => (m, c, t)) (fun m => m) 12 (new_state _ _ _ _ _ _) os.
Definition ex_step := step nat nat (kind * mol_nat) (mol_nat * mol_nat * nat) mol_nat nat (fun k m => (k, m)) (fun m c t => (m, c, t)) (fun m => m) 12.
Definition mk (g b : nat) : mol_nat := Build_molecule nat nat g (Some b).
(** A history with reads between two basis sets: the SlowQuant object gives the
    second one. *)
Example ex_C80 : snd (attr1 _ _ _ _ _ _ (fun k m => (k, m)) (fun m c t => (m, c, t)) (fun m => m) 12 (ex_run [SetMolecule _ _ _ 1 (Some 7); Read1 _ _ _ 0 Overlap; SetBasis _ _ _ 8; Read1 _ _ _ 1 Overlap]) Overlap) = V1 _ _ (Overlap, mk 1 8).
Proof. reflexivity. Qed.
(** [set_molecule] without a basis leaves the integrals of the previous molecule
    in place, and a Hartree-Fock object made then combines the two. *)
Theorem C80_other_molecule_refuted : exists os m i,
  let s := ex_run os in
  hf _ _ _ _ _ _ s = Some (m, i) /\ nth_error (mols _ _ _ _ _ _ s) m = Some (Build_molecule nat nat 2 None) /\ snd (ex_step s (Read1 _ _ _ i Kinetic)) = V1 _ _ (Kinetic, mk 1 7).
Proof. exists [SetMolecule _ _ _ 1 (Some 7); SetMolecule _ _ _ 2 None; InitHF _ _ _], 1, 0. repeat split. Qed.
(** A Hartree-Fock object made before [set_basis_set] reads the overlap of the
    old basis, the kinetic energy of the new one, and a two-electron tensor of the
    new one screened with the Schwarz matrix of the old one. *)
Theorem C80_mixed_basis_refuted : exists os m i,
  let s := ex_run os in
  hf _ _ _ _ _ _ s = Some (m, i) /\ snd (ex_step s (Read1 _ _ _ i Overlap)) = V1 _ _ (Overlap, mk 1 7) /\ snd (ex_step s (Read1 _ _ _ i Kinetic)) = V1 _ _ (Kinetic, mk 1 8)
  /\ snd (ex_step s (Read2 _ _ _ i)) = V2 _ _ (mk 1 8, mk 1 7, 12).
Proof. exists [SetMolecule _ _ _ 1 (Some 7); InitHF _ _ _; Read1 _ _ _ 0 Overlap; SetBasis _ _ _ 8], 0, 0. repeat split. Qed.
(** A threshold assigned after the first read has no effect. *)
Theorem C80_threshold_refuted : exists os i o, let s := ex_run os in
  sq_integral _ _ _ _ _ _ s = Some i /\ nth_error (ints _ _ _ _ _ _ s) i = Some o /\ thr _ _ _ _ o = 5 /\ snd (ex_step s (Read2 _ _ _ i)) = V2 _ _ (mk 1 7, mk 1 7, 12).
Proof. exists [SetMolecule _ _ _ 1 (Some 7); Read2 _ _ _ 0; SetThreshold _ _ _ 0 5], 0. eexists. repeat split. Qed.
Print Assumptions C54_log_never_changes.
Print Assumptions C54_log_refuted.
Print Assumptions C54_printed.
Print Assumptions C80_one_electron.
Print Assumptions C80_two_electron.
Print Assumptions C80_present_threshold.
Print Assumptions C80_other_molecule_refuted.
Print Assumptions C80_mixed_basis_refuted.
Print Assumptions C80_threshold_refuted.
Print Assumptions C81_manager.
Print Assumptions C81_repeat.
