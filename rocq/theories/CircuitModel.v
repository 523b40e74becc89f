(** Model of slowquant/qiskit_interface/operators_circuits.py, lines 16-97 and
    441-475: the excitation wrappers and the circuit of a whole layout, for the
    Jordan-Wigner mapper.  The Trotterised circuits used with other mappers
    (lines 342-438) are not modelled.

    A circuit parameter is an angle of type [A]; [half] and [eighth] give the
    cosine and sine of half and of an eighth of it, [cq], [sq] those of pi/4. *)
From Coq Require Import List Bool Arith NArith ZArith.
From Verif Require Import Base UPSModel StructModel CliqueModel QubitModel.
Import ListNotations.

Section Layout.
  Context {K : Type} {C : CRing K}.
  Context {A : Type}.
  Variables half eighth : A -> K * K.
  Variables cq sq : K.
  Notation gate := (gate (K:=K)).

  (** [single_excitation], lines 16-39. *)
  Definition single_excitation (i a num_orbs : nat) (theta : A) : Res (list gate) :=
    single_excitation_efficient (fst (half theta)) (snd (half theta)) cq sq a i num_orbs.
  (** [double_excitation], lines 42-70. *)
  Definition double_excitation (i j a b num_orbs : nat) (theta : A) : Res (list gate) :=
    double_excitation_efficient (fst (eighth theta)) (snd (eighth theta)) a b i j num_orbs.
  (** [sa_single_excitation], lines 73-97. *)
  Definition sa_single_excitation (i a num_orbs : nat) (theta : A) : Res (list gate) :=
    sa_single_excitation_efficient (fst (half theta)) (snd (half theta)) cq sq a i num_orbs.

  (** One pass of the loop, lines 457-474: the state is [(qc, grad_param_R, idx)];
      [par] maps a parameter name [f"p{idx:09d}"] to the angle bound to it.  A
      tuple of the wrong length cannot be unpacked (ValueError). *)
  Definition layout_step (par : list nat -> A) (num_orbs : nat) (st : list gate * list (list nat * nat) * nat) (e : gtype * list nat)
      : Res (list gate * list (list nat * nat) * nat) :=
    let '(qc, grad_param_R, idx) := st in
    match fst e with
    | Single => match snd e with
                | [i; a] => bind (single_excitation i a num_orbs (par (pname idx))) (fun c =>
                              Ok (qc ++ c, grad_param_R ++ [(pname idx, 2)], idx + 1))
                | _ => Raise ValueError
                end
    | Double => match snd e with
                | [i; j; a; b] => bind (double_excitation i j a b num_orbs (par (pname idx))) (fun c =>
                              Ok (qc ++ c, grad_param_R ++ [(pname idx, 2)], idx + 1))
                | _ => Raise ValueError
                end
    | SaSingle => match snd e with
                | [i; a] => bind (sa_single_excitation i a num_orbs (par (pname idx))) (fun c =>
                              Ok (qc ++ c, grad_param_R ++ [(pname idx, 4)], idx + 1))
                | _ => Raise ValueError
                end
    | _ => Raise ValueError
    end.
  (** [upslayout2circuit], lines 441-475. *)
  Definition upslayout2circuit (par : list nat -> A) (upslayout : ups_struct) (num_orbs : nat)
      : Res (list gate * list (list nat * nat)) :=
    bind (fold_left (fun acc e => bind acc (fun st => layout_step par num_orbs st e))
                    (combine (s_type upslayout) (s_idx upslayout)) (Ok ([], [], 0)))
         (fun st => Ok (fst st)).
End Layout.

(** Binding of parameter values (Qiskit's [circuit.parameters]: sorted by name,
    compared as strings; values are assigned in that order, see interface.py,
    lines 430-448 and 1327-1458). *)
Fixpoint name_le (a b : list nat) : bool :=
  match a, b with
  | [], _ => true
  | _ :: _, [] => false
  | x :: a', y :: b' => (x <? y) || ((x =? y) && name_le a' b')
  end.
Fixpoint insert_name (x : list nat) (l : list (list nat)) : list (list nat) :=
  match l with [] => [x] | y :: r => if name_le x y then x :: l else y :: insert_name x r end.
Definition sort_names (l : list (list nat)) : list (list nat) := fold_right insert_name [] l.
Fixpoint name_eqb (a b : list nat) : bool :=
  match a, b with [], [] => true | x :: a', y :: b' => (x =? y) && name_eqb a' b' | _, _ => false end.
Definition bound_value {A} (default : A) (names : list (list nat)) (values : list A) (p : list nat) : A :=
  match find (fun nv => name_eqb p (fst nv)) (combine (sort_names names) values) with Some nv => snd nv | None => default end.
