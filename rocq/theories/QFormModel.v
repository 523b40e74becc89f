(** get_qiskit_form: model, proofs are in Props_QForm.v.
    fermionic_operator.py lines 7-24 (operator_to_qiskit_key) and 357-377
    (get_qiskit_form), with Python strings as Coq strings. *)
From Coq Require Import List Bool Arith String Ascii Decimal DecimalString.
Require Import Verif.Base Verif.Fock Verif.FermiModel.
Import ListNotations.

(** [f"{n}"] for a non-negative integer. *)
Definition dec10 (n : nat) : string := NilEmpty.string_of_uint (Nat.to_uint n).
(** A dict of integers, insertion order, [d[k] = v]. *)
Fixpoint iset (k v : nat) (d : list (nat * nat)) : list (nat * nat) :=
  match d with [] => [(k, v)] | (k', v') :: d => if Nat.eqb k k' then (k', v) :: d else (k', v') :: iset k v d end.
Fixpoint iget (k : nat) (d : list (nat * nat)) : option nat :=
  match d with [] => None | (k', v') :: d => if Nat.eqb k k' then Some v' else iget k d end.
(** Lines 367-373. *)
Definition remapping (num_orbs : nat) : list (nat * nat) :=
  fold_left (fun d i => if Nat.ltb i num_orbs then iset (2 * i) i d else iset (2 * i + 1 - 2 * num_orbs) i d) (seq 0 (2 * num_orbs)) [].
(** Lines 18-24: [op_key] grows on the right; [op_key[1:]]. *)
Fixpoint key_loop (s : fstring) (remap : list (nat * nat)) (op_key : string) : Res string :=
  match s with
  | [] => Ok op_key
  | (i, c) :: s =>
      match iget i remap with
      | None => Raise KeyError
      | Some j => key_loop s remap (append op_key (append (if c then " +_" else " -_") (dec10 j)))
      end
  end.
Definition tail1 (s : string) : string := match s with EmptyString => EmptyString | String _ r => r end.
Definition operator_to_qiskit_key (s : fstring) (remap : list (nat * nat)) : Res string :=
  match key_loop s remap EmptyString with Ok k => Ok (tail1 k) | Raise e => Raise e | Hang => Hang end.
Section Form.
  Context {K : Type}.
  Fixpoint sset (k : string) (v : K) (d : list (string * K)) : list (string * K) :=
    match d with [] => [(k, v)] | (k', v') :: d => if String.eqb k k' then (k', v) :: d else (k', v') :: sset k v d end.
  (** Lines 374-377. *)
  Fixpoint form_loop (ops : list (fstring * K)) (remap : list (nat * nat)) (d : list (string * K)) : Res (list (string * K)) :=
    match ops with
    | [] => Ok d
    | (s, c) :: ops => match operator_to_qiskit_key s remap with Ok k => form_loop ops remap (sset k c d) | Raise e => Raise e | Hang => Hang end
    end.
  Definition get_qiskit_form (ops : list (fstring * K)) (num_orbs : nat) : Res (list (string * K)) := form_loop ops (remapping num_orbs) [].
End Form.
