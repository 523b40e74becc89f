(** Model of slowquant/unitary_coupled_cluster/ucc_wavefunction.py: the choice of excitation
    operators from the string given by the caller (lines 211-230) and the parameter counts
    that both optimisations print before they start (lines 741-764 and 873-896, the same
    code twice). *)
From Coq Require Import List Bool Arith Ascii String.
From Verif Require Import Base UPSModel StructModel.
Import ListNotations.
Local Open Scope nat_scope.

(** [excitations.lower()] for one character; strings of eight-bit characters, of which the
    26 capital letters change (Python also changes letters outside this range, none of them
    to a letter tested here). *)
Definition lower (c : ascii) : ascii :=
  let n := nat_of_ascii c in if (65 <=? n) && (n <=? 90) then ascii_of_nat (n + 32) else c.
(** [c in excitations.lower()] for a one-character [c]. *)
Fixpoint has (c : ascii) (e : string) : bool :=
  match e with EmptyString => false | String x e => Ascii.eqb (lower x) c || has c e end.

(** Lines 212-230; [occ], [unocc] are the shifted active spatial indices, [socc], [sunocc]
    the shifted active spin-orbital indices. *)
Definition layout (e : string) (occ unocc socc sunocc : list nat) : ucc_struct :=
  let s := ucc_empty in
  let s := if has "s" e then add_sa_singles occ unocc s else s in
  let s := if has "d" e then add_sa_doubles occ unocc s else s in
  let s := if has "t" e then add_triples socc sunocc s else s in
  let s := if has "q" e then add_quadruples socc sunocc s else s in
  let s := if has "5" e then add_quintuples socc sunocc s else s in
  if has "6" e then add_sextuples socc sunocc s else s.

(** [num_theta1], ..., [num_theta6]. *)
Record numbers := { t1 : nat; t2 : nat; t3 : nat; t4 : nat; t5 : nat; t6 : nat }.
Definition no_parameters : numbers := {| t1 := 0; t2 := 0; t3 := 0; t4 := 0; t5 := 0; t6 := 0 |}.
(** The body of the loop, lines 751-764. *)
Definition tally (n : numbers) (ty : gtype) : Res numbers :=
  match ty with
  | SaSingle => Ok {| t1 := t1 n + 1; t2 := t2 n; t3 := t3 n; t4 := t4 n; t5 := t5 n; t6 := t6 n |}
  | SaDouble1 | SaDouble2 | SaDouble3 | SaDouble4 | SaDouble5 =>
      Ok {| t1 := t1 n; t2 := t2 n + 1; t3 := t3 n; t4 := t4 n; t5 := t5 n; t6 := t6 n |}
  | Triple => Ok {| t1 := t1 n; t2 := t2 n; t3 := t3 n + 1; t4 := t4 n; t5 := t5 n; t6 := t6 n |}
  | Quadruple => Ok {| t1 := t1 n; t2 := t2 n; t3 := t3 n; t4 := t4 n + 1; t5 := t5 n; t6 := t6 n |}
  | Quintuple => Ok {| t1 := t1 n; t2 := t2 n; t3 := t3 n; t4 := t4 n; t5 := t5 n + 1; t6 := t6 n |}
  | Sextuple => Ok {| t1 := t1 n; t2 := t2 n; t3 := t3 n; t4 := t4 n; t5 := t5 n; t6 := t6 n + 1 |}
  | _ => Raise ValueError
  end.
Fixpoint tallies (n : numbers) (types : list gtype) : Res numbers :=
  match types with [] => Ok n | ty :: r => bind (tally n ty) (fun n => tallies n r) end.
(** Lines 741-764: the six numbers. *)
Definition count_parameters (types : list gtype) : Res numbers := tallies no_parameters types.
(** The last number printed (lines 774-776). *)
Definition total (num_kappa : nat) (n : numbers) : nat := num_kappa + t1 n + t2 n + t3 n + t4 n + t5 n + t6 n.
