(** Model of the state-vector kernels of
    slowquant/unitary_coupled_cluster/operator_state_algebra.py.

    A state vector is a list of ring elements (one per determinant of the CI
    space), a state-averaged state a list of such rows, a determinant an
    integer of N (no int64 overflow).  [tiny] stands for [abs(x) < 10**-28] and
    [tiny_le] for [not abs(x) > 10**-28].  Orbital indices are assumed to be
    below [2 * num_active_orbs] (a larger one gives a negative shift, which is
    undefined in the compiled kernels); natural-number subtraction is only
    faithful under that assumption. *)
From Coq Require Import List Bool Arith NArith ZArith Lia.
From Verif Require Import Base Fock FermiModel CIModel.
Import ListNotations.

(** [bitcount], lines 34-50: Kernighan's loop.  [None] is "still running". *)
Fixpoint bitcount_loop (fuel : nat) (x : N) (b : nat) : option nat :=
  match fuel with
  | O => None
  | S f => if N.eqb x 0 then Some b else bitcount_loop f (N.land x (x - 1)) (S b)
  end.
Definition bitcount (x : N) : nat :=
  match bitcount_loop (S (N.size_nat x)) x 0 with Some b => b | None => O end.

(** [parity_check], lines 434-438 (also 514-518, 678-682): entry 0 is 0, and the
    loop over [i = 2n-1, ..., 0] appends the running sum of [2**i]. *)
Definition parity_check (n : nat) : list N :=
  snd (fold_left (fun (st : N * list N) i => let num := (fst st + 2 ^ N.of_nat i)%N in (num, snd st ++ [num]))
                 (rev (seq 0 (2 * n))) (0%N, [0%N])).

(** Bit of a spin orbital: [1 << (num_spin_orbs_m1 - orb_idx)]. *)
Definition orb_bit (n orb : nat) : N := N.shiftl 1 (N.of_nat (2 * n - 1 - orb)).

(** Mask loops, lines 102-107. *)
Definition mask (n : nat) (idx : list nat) : N :=
  fold_left (fun m orb => N.lor m (orb_bit n orb)) idx 0%N.

(** Inner loop, lines 117-120: flip the orbital, then count the occupied
    orbitals before it; returns the new determinant and the phase count. *)
Definition flip_loop (n : nat) (pc : list N) (a_string : list nat) (d : N) : N * nat :=
  fold_left (fun (st : N * nat) orb =>
               let d' := N.lxor (fst st) (orb_bit n orb) in
               (d', snd st + bitcount (N.land d' (nth orb pc 0%N)))) a_string (d, 0).

(** Screening and inner loop common to all kernels, lines 108-120 and 122-127
    ([None] is [continue]): [must] has to be occupied and [forbid] empty. *)
Definition kernel_det (n : nat) (pc : list N) (must forbid a_string : list nat) (d : N) : option (N * bool) :=
  let mm := mask n must in
  let fm := mask n forbid in
  if negb (N.eqb (N.land d mm) mm) then None
  else if negb (N.eqb (N.land d fm) 0) then None
  else let '(d', phase) := flip_loop n pc a_string d in Some (d', Nat.odd phase).

(** Splitting of a label into creation and annihilation indices, lines 441-448. *)
Definition create_idx (s : fstring) : list nat := map fst (filter (fun o : fop => snd o) s).
Definition anni_idx (s : fstring) : list nat := map fst (filter (fun o : fop => negb (snd o)) s).
(** Lines 452-455: entries of the first list that are not in the second. *)
Definition screen (l m : list nat) : list nat := filter (fun i => negb (existsb (Nat.eqb i) m)) l.

(** [l[i] += v]. *)
Fixpoint add_at {A} (f : A -> A) (i : nat) (l : list A) : list A :=
  match l, i with
  | [], _ => []
  | x :: l', O => f x :: l'
  | x :: l', S i' => x :: add_at f i' l'
  end.

Section Kernels.
  Context {K : Type} `{CRing K}.
  Variables tiny tiny_le : K -> bool.
  Local Open Scope K_scope.

  Notation dict := (list (fstring * K)).

  (** One iteration of [apply_operator_serial], lines 108-126. *)
  Definition serial_step (n : nat) (pc : list N) (ci : ci_info) (unsafe : bool) (s : fstring) (factor : K)
      (acc : Res (list K)) (di : N * K) : Res (list K) :=
    bind acc (fun tmp =>
      match kernel_det n pc (anni_idx s) (screen (create_idx s) (anni_idx s)) (anni_idx s ++ create_idx s) (fst di) with
      | None => Ok tmp
      | Some (d', odd) =>
          if tiny (snd di) then Ok tmp
          else match lookup d' (det2idx ci) with
               | None => if unsafe then Ok tmp else Raise KeyError
               | Some j => Ok (add_at (fun v => v + sgn odd 1 * factor * snd di) j tmp)
               end
      end).
  (** [apply_operator_serial], lines 54-127. *)
  Definition apply_operator_serial n pc ci unsafe s factor (state : list K) (tmp : Res (list K)) : Res (list K) :=
    fold_left (serial_step n pc ci unsafe s factor) (combine (idx2det ci) state) tmp.

  (** One iteration of [apply_operator_threaded], lines 199-218. *)
  Definition threaded_step (n : nat) (pc : list N) (ci : ci_info) (unsafe : bool) (s : fstring) (factor : K)
      (state : list K) (acc : Res (list K)) (i : nat) : Res (list K) :=
    bind acc (fun tmp =>
      match kernel_det n pc (create_idx s) (screen (anni_idx s) (create_idx s)) (create_idx s ++ anni_idx s)
                       (nth i (idx2det ci) 0%N) with
      | None => Ok tmp
      | Some (d', odd) =>
          match lookup d' (det2idx ci) with
          | None => if unsafe then Ok tmp else Raise KeyError
          | Some j => Ok (add_at (fun v => v + sgn odd 1 * factor * nth j state 0) i tmp)
          end
      end).
  (** [apply_operator_threaded], lines 140-219.  The iterations of the [prange]
      loop run in the order [order], a permutation of [range(len(idx2det))]. *)
  Definition apply_operator_threaded n pc ci unsafe s factor (state : list K) (order : list nat)
      (tmp : Res (list K)) : Res (list K) :=
    fold_left (threaded_step n pc ci unsafe s factor state) order tmp.

  (** One iteration of [add_operator_matrix], lines 261-278 (rows of the matrix). *)
  Definition matrix_step (n : nat) (pc : list N) (ci : ci_info) (unsafe : bool) (s : fstring) (factor : K)
      (acc : Res (list (list K))) (i : nat) : Res (list (list K)) :=
    bind acc (fun mat =>
      match kernel_det n pc (anni_idx s) (screen (create_idx s) (anni_idx s)) (anni_idx s ++ create_idx s)
                       (nth i (idx2det ci) 0%N) with
      | None => Ok mat
      | Some (d', odd) =>
          match lookup d' (det2idx ci) with
          | None => if unsafe then Ok mat else Raise KeyError
          | Some j => Ok (add_at (add_at (fun v => v + sgn odd 1 * factor) i) j mat)
          end
      end).
  Definition add_operator_matrix n pc ci unsafe s factor (mat : Res (list (list K))) : Res (list (list K)) :=
    fold_left (matrix_step n pc ci unsafe s factor) (seq 0 (length (idx2det ci))) mat.

  (** [build_operator_matrix], lines 413-469. *)
  Definition build_operator_matrix (n : nat) (ci : ci_info) (unsafe : bool) (op : dict) : Res (list (list K)) :=
    fold_left (fun acc kc => add_operator_matrix n (parity_check n) ci unsafe (fst kc) (snd kc) acc) op
              (Ok (repeat (repeat 0 (length (idx2det ci))) (length (idx2det ci)))).

  (** One iteration of [apply_operator_SA_serial], lines 322-347: [state[:, i]]
      is the column of the rows; skipped when no entry exceeds the threshold. *)
  Definition serial_SA_step (n : nat) (pc : list N) (ci : ci_info) (unsafe : bool) (s : fstring) (factor : K)
      (state : list (list K)) (acc : Res (list (list K))) (i : nat) : Res (list (list K)) :=
    bind acc (fun tmp =>
      match kernel_det n pc (anni_idx s) (screen (create_idx s) (anni_idx s)) (anni_idx s ++ create_idx s)
                       (nth i (idx2det ci) 0%N) with
      | None => Ok tmp
      | Some (d', odd) =>
          if forallb (fun row => tiny_le (nth i row 0)) state then Ok tmp
          else match lookup d' (det2idx ci) with
               | None => if unsafe then Ok tmp else Raise KeyError
               | Some j => Ok (map (fun rt => add_at (fun v => v + sgn odd 1 * factor * nth i (fst rt) 0) j (snd rt))
                                   (combine state tmp))
               end
      end).
  Definition apply_operator_SA_serial n pc ci unsafe s factor (state : list (list K)) (tmp : Res (list (list K))) :=
    fold_left (serial_SA_step n pc ci unsafe s factor state) (seq 0 (length (idx2det ci))) tmp.

  (** One iteration of [apply_operator_SA_threaded], lines 394-409. *)
  Definition threaded_SA_step (n : nat) (pc : list N) (ci : ci_info) (unsafe : bool) (s : fstring) (factor : K)
      (state : list (list K)) (acc : Res (list (list K))) (i : nat) : Res (list (list K)) :=
    bind acc (fun tmp =>
      match kernel_det n pc (create_idx s) (screen (anni_idx s) (create_idx s)) (create_idx s ++ anni_idx s)
                       (nth i (idx2det ci) 0%N) with
      | None => Ok tmp
      | Some (d', odd) =>
          match lookup d' (det2idx ci) with
          | None => if unsafe then Ok tmp else Raise KeyError
          | Some j => Ok (map (fun rt => add_at (fun v => v + sgn odd 1 * factor * nth j (fst rt) 0) i (snd rt))
                              (combine state tmp))
          end
      end).
  Definition apply_operator_SA_threaded n pc ci unsafe s factor (state : list (list K)) (order : list nat)
      (tmp : Res (list (list K))) :=
    fold_left (threaded_SA_step n pc ci unsafe s factor state) order tmp.

  (** An entry of the [operators] list: an operator, "U", "Ud" or another string. *)
  Inductive sop := SOp (op : dict) | SU (dagger : bool) | SBad.

  (** Space data used by [propagate_state]: the orbital partition and the maps. *)
  Record space := { sp_ni : nat; sp_na : nat; sp_nv : nat; sp_ci : ci_info }.

  (** Thread setting: [None] is one thread (serial kernel), [Some order] is the
      threaded kernel with the given iteration order. *)
  Definition threads := option (list nat).

  Definition folded (sp : space) (fold : bool) (op : dict) : dict :=
    if fold then op_fold (sp_ni sp) (sp_na sp) (sp_nv sp) op else op.

  (** Application of one FermionicOperator, lines 553-629. *)
  Definition apply_op (sp : space) (th : threads) (fold unsafe : bool) (op : dict) (state : list K) : Res (list K) :=
    let pc := parity_check (sp_na sp) in
    fold_left (fun acc kc =>
                 match th with
                 | None => apply_operator_serial (sp_na sp) pc (sp_ci sp) unsafe (fst kc) (snd kc) state acc
                 | Some order =>
                     apply_operator_threaded (sp_na sp) pc (sp_ci sp) unsafe (fst kc) (snd kc) state order acc
                 end)
              (folded sp fold op) (Ok (repeat 0 (length state))).

  (** [propagate_state], lines 472-630.  [ansatz dagger] stands for
      [construct_ups_state] or [construct_ucc_state] with the given parameters
      and structure (or the TypeError/ValueError raised when they are missing). *)
  Definition propagate_state (sp : space) (th : threads) (fold unsafe : bool)
      (ansatz : bool -> list K -> Res (list K)) (ops : list sop) (state : list K) : Res (list K) :=
    fold_left (fun acc op => bind acc (fun st =>
                 match op with
                 | SOp D => apply_op sp th fold unsafe D st
                 | SU dagger => ansatz dagger st
                 | SBad => Raise ValueError
                 end)) (rev ops) (Ok state).

  (** [bra @ ket]. *)
  Fixpoint dot (a b : list K) : K :=
    match a, b with x :: a', y :: b' => x * y + dot a' b' | _, _ => 0 end.

  (** [expectation_value], lines 784-824. *)
  Definition expectation_value sp th fold unsafe ansatz (bra : list K) (ops : list sop) (ket : list K) : Res K :=
    bind (propagate_state sp th fold unsafe ansatz ops ket) (fun op_ket => Ok (dot bra op_ket)).

  (** State-averaged application of one operator, lines 715-780. *)
  Definition apply_op_SA (sp : space) (th : threads) (fold unsafe : bool) (op : dict) (state : list (list K))
      : Res (list (list K)) :=
    let pc := parity_check (sp_na sp) in
    fold_left (fun acc kc =>
                 match th with
                 | None => apply_operator_SA_serial (sp_na sp) pc (sp_ci sp) unsafe (fst kc) (snd kc) state acc
                 | Some order =>
                     apply_operator_SA_threaded (sp_na sp) pc (sp_ci sp) unsafe (fst kc) (snd kc) state order acc
                 end)
              (folded sp fold op) (Ok (map (fun row => repeat 0 (length row)) state)).

  (** [propagate_state_SA], lines 633-781. *)
  Definition propagate_state_SA (sp : space) (th : threads) (fold unsafe : bool)
      (ansatz : bool -> list (list K) -> Res (list (list K))) (ops : list sop) (state : list (list K))
      : Res (list (list K)) :=
    fold_left (fun acc op => bind acc (fun st =>
                 match op with
                 | SOp D => apply_op_SA sp th fold unsafe D st
                 | SU dagger => ansatz dagger st
                 | SBad => Raise ValueError
                 end)) (rev ops) (Ok state).

  (** [expectation_value_SA], lines 827-867; [recip k] is the float [1 / k]. *)
  Definition expectation_value_SA (recip : nat -> K) sp th fold ansatz (bra : list (list K)) (ops : list sop)
      (ket : list (list K)) : Res K :=
    bind (propagate_state_SA sp th fold false ansatz ops ket)
         (fun op_ket => match bra with
                        | [] => Raise ZeroDivisionError
                        | _ => Ok (ksum (map (fun ab => dot (fst ab) (snd ab)) (combine bra op_ket))
                                   * recip (length bra))
                        end).
End Kernels.
