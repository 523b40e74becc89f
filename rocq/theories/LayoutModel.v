(** Model of the qubit-layout routines of slowquant/qiskit_interface/util.py
    (lines 98-149 and 595-783) and of the read-out calibration matrix of
    slowquant/qiskit_interface/interface.py (lines 1273-1314, 1532-1611).

    Distributions are dictionaries from bitstrings (integers) to probabilities, as
    association lists in insertion order; vectors and matrices are lists. *)
From Coq Require Import List Bool Arith NArith ZArith.
From Verif Require Import Base CliqueModel QubitModel.
Import ListNotations.
Local Open Scope list_scope.

(** [l[i] = v] *)
Fixpoint upd {A} (l : list A) (i : nat) (v : A) : list A :=
  match l, i with
  | [], _ => []
  | _ :: r, 0 => v :: r
  | x :: r, S j => x :: upd r j v
  end.
(** [l[a], l[b] = l[b], l[a]] ([None]: IndexError) *)
Definition list_swap {A} (l : list A) (a b : nat) : option (list A) :=
  match nth_error l a, nth_error l b with
  | Some x, Some y => Some (upd (upd l a y) b x)
  | _, _ => None
  end.
Definition of_opt {A} (e : Exn) (o : option A) : Res A := match o with Some a => Ok a | None => Raise e end.
(** [l.index(x, start)] *)
Fixpoint index_from (l : list nat) (x start k : nat) : option nat :=
  match l with
  | [] => None
  | y :: r => if (start <=? k) && (x =? y) then Some k else index_from r x start (S k)
  end.

(** ** util.py, [find_swaps], lines 128-149 *)
Definition find_swaps (new ref : list nat) : Res (list (nat * nat)) :=
  bind (fold_left (fun acc i => bind acc (fun st : list nat * list (nat * nat) =>
          let '(list_in, swaps) := st in
          bind (of_opt IndexError (nth_error list_in i)) (fun x =>
          bind (of_opt IndexError (nth_error ref i)) (fun r =>
          if x =? r then Ok (list_in, swaps)
          else bind (of_opt ValueError (index_from list_in r i 0)) (fun swap_idx =>
               bind (of_opt IndexError (list_swap list_in i swap_idx)) (fun list_in' =>
               Ok (list_in', swaps ++ [(i, swap_idx)])))))))
        (seq 0 (length new)) (Ok (new, [])))
       (fun st => Ok (snd st)).

(** ** util.py, [swap_indices], lines 98-125 *)

(** Row [x] of [binary_matrix]: the bits of [x], most significant first. *)
Definition binary_row (num_qubits : nat) (x : N) : list bool :=
  map (fun k => N.testbit x (N.of_nat (num_qubits - 1 - k))) (seq 0 num_qubits).
(** A row times [powers_of_two]. *)
Definition row_value (row : list bool) : N := fold_left (fun (acc : N) (b : bool) => 2 * acc + (if b then 1 else 0))%N row 0%N.
(** [np.argsort] (the values of [swap_indices] are distinct, so the result does
    not depend on the sorting algorithm). *)
Fixpoint insert_pair (p : N * N) (l : list (N * N)) : list (N * N) :=
  match l with [] => [p] | q :: r => if (fst p <=? fst q)%N then p :: l else q :: insert_pair p r end.
Definition range (m : nat) : list N := map N.of_nat (seq 0 m).
Definition argsort (l : list N) : list N := map snd (fold_right insert_pair [] (combine l (range (length l)))).
Definition swap_indices (num_qubits : nat) (swap : nat * nat) : Res (list N) :=
  bind (fold_left (fun acc x => bind acc (fun rows =>
          bind (of_opt IndexError (list_swap (binary_row num_qubits x) (fst swap) (snd swap))) (fun row =>
          Ok (rows ++ [row_value row])))) (range (2 ^ num_qubits)) (Ok []))
       (fun swapped_decimal_list => Ok (argsort swapped_decimal_list)).

Section Mitigation.
  Context {K : Type} {C : CRing K}.
  Local Open Scope K_scope.
  Definition distribution := list (N * K).

  (** [dist[key] = value] *)
  Fixpoint dict_set (d : distribution) (key : N) (v : K) : distribution :=
    match d with
    | [] => [(key, v)]
    | (k, w) :: r => if (k =? key)%N then (k, v) :: r else (k, w) :: dict_set r key v
    end.
  Fixpoint dict_get (d : distribution) (key : N) : option K :=
    match d with [] => None | (k, w) :: r => if (k =? key)%N then Some w else dict_get r key end.

  (** The column vector [C] of lines 605-608, 639-642 and 683-686. *)
  Definition to_vector (size : nat) (dist : distribution) : Res (list K) :=
    fold_left (fun acc kp => bind acc (fun v =>
        if (fst kp <? N.of_nat size)%N then Ok (upd v (N.to_nat (fst kp)) (snd kp)) else Raise IndexError))
      dist (Ok (repeat 0 size)).
  (** [M @ C] *)
  Definition dot (a b : list K) : K := ksum (map (fun p => fst p * snd p) (combine a b)).
  Definition matvec (M : list (list K)) (v : list K) : Res (list K) :=
    if forallb (fun row => length row =? length v)%nat M then Ok (map (fun row => dot row v) M) else Raise ValueError.
  (** [C[idx]] with an array of indices *)
  Definition take {A} (v : list A) (idx : list N) : Res (list A) :=
    fold_left (fun acc i => bind acc (fun out => bind (of_opt IndexError (nth_error v (N.to_nat i))) (fun x => Ok (out ++ [x])))) idx (Ok []).

  (** util.py, [correct_distribution], lines 595-614. *)
  Definition correct_distribution (dist : distribution) (M : list (list K)) : Res distribution :=
    bind (to_vector (length M) dist) (fun v =>
    bind (matvec M v) (fun w =>
    Ok (map (fun kp => (fst kp, nth (N.to_nat (fst kp)) w 0)) dist))).

  (** util.py, [correct_distribution_with_layout_v2], lines 617-653. *)
  Definition apply_swaps (num_qubits : nat) (swaps : list (nat * nat)) (v : list K) : Res (list K) :=
    fold_left (fun acc swap => bind acc (fun v => bind (swap_indices num_qubits swap) (fun idx => take v idx))) swaps (Ok v).
  Definition store (dist : distribution) (w : list K) : distribution :=
    fold_left (fun d kp => dict_set d (fst kp) (snd kp)) (combine (range (length w)) w) dist.
  Definition correct_distribution_with_layout_v2 (dist : distribution) (M : list (list K)) (ref_layout new_layout : list nat) : Res distribution :=
    bind (find_swaps (rev new_layout) (rev ref_layout)) (fun swaps =>
    let num_qubits := length ref_layout in
    bind (to_vector (length M) dist) (fun v =>
    bind (apply_swaps num_qubits swaps v) (fun v' =>
    bind (matvec M v') (fun w =>
    bind (apply_swaps num_qubits (rev swaps) w) (fun w' =>
    Ok (store dist w')))))).

  (** util.py, [correct_distribution_with_layout], lines 656-694.  [inv] stands for
      [np.linalg.inv]. *)
  Definition take_matrix (M : list (list K)) (idx : list N) : Res (list (list K)) :=
    bind (take M idx) (fun rows =>
    fold_left (fun acc row => bind acc (fun out => bind (take row idx) (fun r => Ok (out ++ [r])))) rows (Ok [])).
  Definition correct_distribution_with_layout (inv : list (list K) -> Res (list (list K)))
      (dist : distribution) (M_in : list (list K)) (ref_layout new_layout : list nat) : Res distribution :=
    bind (find_swaps (rev new_layout) (rev ref_layout)) (fun swaps =>
    let num_qubits := length ref_layout in
    bind (fold_left (fun acc swap => bind acc (fun M => bind (swap_indices num_qubits swap) (fun idx => take_matrix M idx))) swaps (Ok M_in)) (fun M =>
    bind (inv M) (fun M_inv =>
    bind (to_vector (length M) dist) (fun v =>
    bind (matvec M_inv v) (fun w =>
    Ok (store dist w)))))).

  (** interface.py, [_make_Minv], lines 1532-1611, without layout (lines 1588-1602):
      circuit [nr] is the ansatz followed by X gates on the qubits whose bit is set
      in the [nr]-th element of [itertools.product([0, 1], repeat=num_qubits)];
      [device] returns the distribution of outcomes measured for a circuit. *)
  Definition product_bits (num_qubits : nat) (nr : N) : list bool := binary_row num_qubits nr.
  Definition calibration_circuit (num_qubits : nat) (ansatz : list (gate (K:=K))) (nr : N) : list gate :=
    ansatz ++ flat_map (fun ib : nat * bool => if snd ib then [GX (fst ib)] else [])
                       (combine (seq 0 num_qubits) (rev (product_bits num_qubits nr))).
  Definition set_entry (M : list (list K)) (r c : N) (v : K) : Res (list (list K)) :=
    match nth_error M (N.to_nat r) with
    | Some row => if (N.to_nat c <? length row)%nat then Ok (upd M (N.to_nat r) (upd row (N.to_nat c) v)) else Raise IndexError
    | None => Raise IndexError
    end.
  Definition make_M (num_qubits : nat) (Px_list : list distribution) : Res (list (list K)) :=
    fold_left (fun acc cP => bind acc (fun M =>
        fold_left (fun acc rp => bind acc (fun M => set_entry M (fst rp) (fst cP) (snd rp))) (snd cP) (Ok M)))
      (combine (range (length Px_list)) Px_list) (Ok (repeat (repeat 0 (2 ^ num_qubits)) (2 ^ num_qubits))).
  Definition make_Minv (inv : list (list K) -> Res (list (list K))) (device : list (gate (K:=K)) -> distribution)
      (num_qubits : nat) (ansatz : list gate) : Res (list (list K)) :=
    if (8 <? num_qubits)%nat then Raise ValueError
    else bind (make_M num_qubits (map (fun nr => device (calibration_circuit num_qubits ansatz nr)) (range (2 ^ num_qubits)))) inv.
End Mitigation.
Arguments distribution K : clear implicits.

(** ** util.py, [find_best_path], lines 697-740 *)

(** [adjacency_map.setdefault(u, []).append(v)] *)
Fixpoint adj_add (adj : list (nat * list nat)) (u v : nat) : list (nat * list nat) :=
  match adj with
  | [] => [(u, [v])]
  | (w, l) :: r => if w =? u then (w, l ++ [v]) :: r else (w, l) :: adj_add r u v
  end.
Definition adjacency (edges : list (nat * nat)) : list (nat * list nat) :=
  fold_left (fun adj uv => adj_add (adj_add adj (fst uv) (snd uv)) (snd uv) (fst uv)) edges [].
(** [adjacency_map.get(u, [])] *)
Fixpoint neighbours (adj : list (nat * list nat)) (u : nat) : list nat :=
  match adj with [] => [] | (w, l) :: r => if w =? u then l else neighbours r u end.
Fixpoint parent_of (parent : list (nat * option nat)) (x : nat) : option (option nat) :=
  match parent with [] => None | (y, p) :: r => if y =? x then Some p else parent_of r x end.

(** One inner loop: the neighbours of [current]. *)
Definition visit (current : nat) (st : list nat * list (nat * option nat)) (neighbor : nat) : list nat * list (nat * option nat) :=
  match parent_of (snd st) neighbor with
  | Some _ => st
  | None => (fst st ++ [neighbor], snd st ++ [(neighbor, Some current)])
  end.
(** The [while queue] loop; the [else] branch raises. *)
Fixpoint bfs (fuel : nat) (adj : list (nat * list nat)) (target : nat) (queue : list nat) (parent : list (nat * option nat))
    : Res (list (nat * option nat)) :=
  match fuel with
  | 0 => Hang
  | S f => match queue with
           | [] => Raise ValueError
           | current :: queue' =>
               if current =? target then Ok parent
               else let st := fold_left (visit current) (neighbours adj current) (queue', parent) in
                    bfs f adj target (fst st) (snd st)
           end
  end.
(** The reconstruction loop, lines 734-739. *)
Fixpoint back (fuel : nat) (parent : list (nat * option nat)) (curr : option nat) (path : list nat) : Res (list nat) :=
  match curr with
  | None => Ok (rev path)
  | Some c => match fuel with
              | 0 => Hang
              | S f => match parent_of parent c with
                       | Some p => back f parent p (path ++ [c])
                       | None => Raise KeyError
                       end
              end
  end.
Definition find_best_path (edges : list (nat * nat)) (start target : nat) : Res (list nat) :=
  if start =? target then Ok [start]
  else bind (bfs (2 * length edges + 2) (adjacency edges) target [start] [(start, None)]) (fun parent =>
       back (length parent) parent (Some target) []).

(** ** util.py, [add_permutation_gate], lines 743-783 *)

(** The swaps along a path: the emitted gates and the new [current_positions]. *)
Definition swap_path (path : list nat) (st : list (nat * nat) * list nat) : Res (list (nat * nat) * list nat) :=
  fold_left (fun acc ab => bind acc (fun st : list (nat * nat) * list nat =>
      bind (of_opt IndexError (list_swap (snd st) (fst ab) (snd ab))) (fun cur =>
      Ok (fst st ++ [ab], cur))))
    (combine path (tl path)) (Ok st).
(** One pass of the [for] loop.  (Qiskit's [circuit.swap] refuses a qubit outside
    the circuit; the model reports that as the IndexError of the next line.) *)
Definition place (edges : list (nat * nat)) (permutation : list nat) (st : list (nat * nat) * list nat) (target_position : nat)
    : Res (list (nat * nat) * list nat) :=
  bind (of_opt IndexError (nth_error permutation target_position)) (fun correct_qubit =>
  bind (of_opt ValueError (index_from (snd st) correct_qubit 0 0)) (fun current_qubit_position =>
  if current_qubit_position =? target_position then Ok st
  else bind (find_best_path edges current_qubit_position target_position) (fun path => swap_path path st))).
Definition pass (edges : list (nat * nat)) (permutation : list nat) (st : list (nat * nat) * list nat) : Res (list (nat * nat) * list nat) :=
  fold_left (fun acc t => bind acc (fun st => place edges permutation st t)) (seq 0 (length permutation)) (Ok st).
Fixpoint perm_loop (fuel : nat) (edges : list (nat * nat)) (permutation : list nat) (st : list (nat * nat) * list nat)
    : Res (list (nat * nat) * list nat) :=
  if list_eq_dec Nat.eq_dec (snd st) permutation then Ok st
  else match fuel with
       | 0 => Hang
       | S f => bind (pass edges permutation st) (fun st' => perm_loop f edges permutation st')
       end.
(** The swaps appended to the circuit; [fuel] bounds the rounds of the [while]
    loop. *)
Definition add_permutation_gate (fuel : nat) (num_circuit_qubits : nat) (permutation : list nat) (edges : list (nat * nat)) : Res (list (nat * nat)) :=
  if negb (length permutation =? num_circuit_qubits) then Raise ValueError
  else bind (perm_loop fuel edges permutation ([], seq 0 (length permutation))) (fun st => Ok (fst st)).
