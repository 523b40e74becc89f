(** Model of slowquant/unitary_coupled_cluster/ci_spaces.py.

    A determinant of the CI code is an integer whose most significant bit (of
    [2 * num_active_orbs] bits) is spin orbital 0; it is modelled in N (the
    int64 overflow beyond 31 orbitals is not modelled). *)
From Coq Require Import List Bool Arith NArith ZArith Lia.
From Verif Require Import Base Fock.
Import ListNotations.

(** [itertools.combinations(l, k)] in lexicographic order. *)
Fixpoint combs {A} (l : list A) (k : nat) : list (list A) :=
  match k with
  | O => [[]]
  | S k' => match l with
            | [] => []
            | x :: l' => map (cons x) (combs l' k') ++ combs l' k
            end
  end.

(** [string[idx] = v]. *)
Fixpoint upd {A} (i : nat) (v : A) (l : list A) : list A :=
  match l, i with
  | [], _ => []
  | _ :: l', O => v :: l'
  | x :: l', S i' => x :: upd i' v l'
  end.

(** [generate_spin_strings], lines 56-73 (the yielded lists in order; zeros and
    ones are booleans). *)
Definition spin_string (n : nat) (indices : list nat) : list bool :=
  fold_left (fun s idx => upd idx true s) indices (repeat false n).
Definition spin_strings (n : nat) (num_elec : Z) : list (list bool) :=
  if Z.ltb num_elec 0 then [] else map (spin_string n) (combs (seq 0 n) (Z.to_nat num_elec)).

(** [for a, b in zip(alpha, beta): det_str += str(a) + str(b)], lines 101-103. *)
Fixpoint interleave (a b : list bool) : list bool :=
  match a, b with
  | x :: a', y :: b' => x :: y :: interleave a' b'
  | _, _ => []
  end.

(** [int(det_str, 2)], line 104; the empty string is a ValueError. *)
Definition int2 (l : list bool) : Res N :=
  match l with
  | [] => Raise ValueError
  | _ => Ok (fold_left (fun acc (b : bool) => (2 * acc + (if b then 1 else 0))%N) l 0%N)
  end.

(** CI_Info, lines 9-53 (the counts are kept by the callers; [det2idx] is the
    insertion-ordered dictionary). *)
Record ci_info := { idx2det : list N; det2idx : list (N * nat) }.

Fixpoint lookup (d : N) (m : list (N * nat)) : option nat :=
  match m with
  | [] => None
  | (k, i) :: m' => if N.eqb k d then Some i else lookup d m'
  end.

(** [det2idx[det] = idx]. *)
Fixpoint insert (d : N) (i : nat) (m : list (N * nat)) : list (N * nat) :=
  match m with
  | [] => [(d, i)]
  | (k, j) :: m' => if N.eqb k d then (k, i) :: m' else (k, j) :: insert d i m'
  end.

(** Loop state: index counter, the two maps. *)
Definition ci_state := (nat * ci_info)%type.
Definition ci_empty : ci_state := (O, {| idx2det := []; det2idx := [] |}).

(** Lines 104-107. *)
Definition ci_push (st : ci_state) (d : N) : ci_state :=
  (S (fst st), {| idx2det := idx2det (snd st) ++ [d];
                  det2idx := insert d (fst st) (det2idx (snd st)) |}).
(** Lines 176-181 (also 202-207, 227-232, 253-258): skip if already listed. *)
Definition ci_push_new (st : ci_state) (d : N) : ci_state :=
  if existsb (N.eqb d) (idx2det (snd st)) then st else ci_push st d.

(** Loops over pairs of (full) alpha and beta strings. *)
Definition ci_loop (push : ci_state -> N -> ci_state) (l : list (list bool * list bool)) (st : Res ci_state)
  : Res ci_state :=
  fold_left (fun acc ab => bind acc (fun s => bind (int2 (interleave (fst ab) (snd ab))) (fun d => Ok (push s d))))
            l st.

Definition prod2 {A B} (l : list A) (m : list B) : list (A * B) := flat_map (fun a => map (fun b => (a, b)) m) l.

(** [get_indexing], lines 76-116. *)
Definition get_indexing (n : nat) (na nb : Z) : Res ci_info :=
  bind (ci_loop ci_push (prod2 (spin_strings n na) (spin_strings n nb)) (Ok ci_empty))
       (fun st => Ok (snd st)).

(** [inactive[i] = 0] unless [i] is the extra loop index; the value after the
    reset is the unmodified list, so the mutation is modelled functionally. *)
Definition flag (n i : nat) (v : bool) (l : list bool) : list bool := if Nat.eqb i n then l else upd i v l.

(** [generate_singles], lines 262-294. *)
Definition singles (ni nv : nat) : list (list bool * list bool) :=
  prod2 (map (fun i => flag ni i false (repeat true ni)) (seq 0 (ni + 1)))
        (map (fun j => flag nv j true (repeat false nv)) (seq 0 (nv + 1))).

(** Index pairs [i, i2 in range(min(i + 1, n), n + 1)] of lines 318-322. *)
Definition dpairs (n : nat) : list (nat * nat) :=
  flat_map (fun i => map (fun i2 => (i, i2)) (seq (Nat.min (i + 1) n) (n + 1 - Nat.min (i + 1) n)))
           (seq 0 (n + 1)).

(** [generate_doubles], lines 297-341. *)
Definition doubles (ni nv : nat) : list (list bool * list bool) :=
  prod2 (map (fun ii => flag ni (snd ii) false (flag ni (fst ii) false (repeat true ni))) (dpairs ni))
        (map (fun jj => flag nv (snd jj) true (flag nv (fst jj) true (repeat false nv))) (dpairs nv)).

Definition ones (l : list bool) : Z := Z.of_nat (length (filter (fun b => b) l)).

(** Electrons left for the active space, lines 187-189. *)
Definition act_elec (num_elec : Z) (ni : nat) (iv : list bool * list bool) : Z :=
  (num_elec - ones (snd iv) + Z.of_nat ni - ones (fst iv))%Z.

(** Full strings of one spin for one inactive/virtual pattern. *)
Definition full_strings (ni nact nv : nat) (num_elec : Z) (iv : list bool * list bool) : list (list bool) :=
  map (fun s => fst iv ++ s ++ snd iv) (spin_strings nact (act_elec num_elec ni iv)).
Definition ref_pat (ni nv : nat) : list bool * list bool := (repeat true ni, repeat false nv).
(** Reference strings: [num_elec] active electrons, line 166 (no recount). *)
Definition ref_strings (ni nact nv : nat) (num_elec : Z) : list (list bool) :=
  map (fun s => repeat true ni ++ s ++ repeat false nv) (spin_strings nact num_elec).

(** The four loop nests of [get_indexing_extended], lines 164-258. *)
Definition ext_pairs (ni nact nv : nat) (na nb : Z) (order2 : bool) : list (list bool * list bool) :=
  let sd := singles ni nv ++ (if order2 then doubles ni nv else []) in
  prod2 (ref_strings ni nact nv na) (ref_strings ni nact nv nb)
  ++ flat_map (fun iv => prod2 (full_strings ni nact nv na iv) (ref_strings ni nact nv nb)) sd
  ++ flat_map (fun iv => prod2 (ref_strings ni nact nv na) (full_strings ni nact nv nb iv)) sd
  ++ (if order2 then
        flat_map (fun iva => flat_map (fun ivb =>
          prod2 (full_strings ni nact nv na iva) (full_strings ni nact nv nb ivb)) (singles ni nv)) (singles ni nv)
      else []).

(** [get_indexing_extended], lines 119-259. *)
Definition get_indexing_extended (ni nact nv : nat) (na nb order : Z) : Res ci_info :=
  if Z.ltb 2 order then Raise ValueError
  else bind (ci_loop ci_push_new (ext_pairs ni nact nv na nb (Z.eqb order 2)) (Ok ci_empty))
            (fun st => Ok (snd st)).
