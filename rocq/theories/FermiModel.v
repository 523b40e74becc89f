(** Model of slowquant/unitary_coupled_cluster/fermionic_operator.py.

    A FermionicOperator is its dictionary [operators]: keys are tuples of
    (spin orbital index, is-creation) pairs, values are coefficients.  The
    dictionary is modelled as an insertion-ordered association list, as Python
    dictionaries are insertion ordered. *)
From Coq Require Import List Bool Arith NArith Lia.
From Verif Require Import Base Fock.
Import ListNotations.

(** Equality of dictionary keys (tuple equality in Python). *)
Definition fop_eqb (x y : fop) : bool := Nat.eqb (fst x) (fst y) && Bool.eqb (snd x) (snd y).
Fixpoint key_eqb (s t : fstring) : bool :=
  match s, t with
  | [], [] => true
  | x :: s', y :: t' => fop_eqb x y && key_eqb s' t'
  | _, _ => false
  end.

Section Model.
  Context {K : Type} {C : CRing K}.
  Local Open Scope K_scope.

  (** The [operators] attribute (fermionic_operator.py:123-124). *)
  Definition dict := list (fstring * K).

  (** [d[k]] / [k in d]. *)
  Fixpoint dget (k : fstring) (d : dict) : option K :=
    match d with
    | [] => None
    | (k', v) :: d' => if key_eqb k k' then Some v else dget k d'
    end.

  (** [d[k] = v] for a key already present (keeps its position). *)
  Fixpoint dset (k : fstring) (v : K) (d : dict) : dict :=
    match d with
    | [] => []
    | (k', v') :: d' => if key_eqb k k' then (k', v) :: d' else (k', v') :: dset k v d'
    end.

  (** [del d[k]]. *)
  Fixpoint ddel (k : fstring) (d : dict) : dict :=
    match d with
    | [] => []
    | (k', v') :: d' => if key_eqb k k' then d' else (k', v') :: ddel k d'
    end.

  Definition dkeys (d : dict) : list fstring := map fst d.

  (** Accumulation step shared by lines 97-102, 140-145, 158-163, 231-236 and
      266-271: add to the entry, delete it if the sum is negligible, create it if
      absent (in which case no threshold test is made). *)
  Definition dacc (k : fstring) (c : K) (d : dict) : dict :=
    match dget k d with
    | Some v => if small (v + c) then ddel k d else dset k (v + c) d
    | None => d ++ [(k, c)]
    end.

  (** Same for subtraction, lines 178-183 and 197-202. *)
  Definition dacc_sub (k : fstring) (c : K) (d : dict) : dict :=
    match dget k d with
    | Some v => if small (v - c) then ddel k d else dset k (v - c) d
    | None => d ++ [(k, - c)]
    end.

  (** [__add__], lines 128-146; [__iadd__] (148-164) when the argument is a
      different object. *)
  Definition op_add (a b : dict) : dict := fold_left (fun d kc => dacc (fst kc) (snd kc) d) b a.
  (** [__sub__], lines 166-184; [__isub__] (186-203) with a different object. *)
  Definition op_sub (a b : dict) : dict := fold_left (fun d kc => dacc_sub (fst kc) (snd kc) d) b a.

  (** [x += x] and [x -= x] (lines 157-164, 196-203 with [fermistring is self]):
      the loop iterates over the dictionary it mutates.  CPython raises
      RuntimeError at the next iteration step when the size has changed. *)
  Fixpoint alias_loop (f : K -> K -> K) (ks : list fstring) (n : nat) (d : dict) : Res dict :=
    if Nat.eqb (length d) n then
      match ks with
      | [] => Ok d
      | k :: ks' =>
          match dget k d with
          | Some v => alias_loop f ks' n (if small (f v v) then ddel k d else dset k (f v v) d)
          | None => Raise KeyError
          end
      end
    else Raise RuntimeError.
  Definition op_iadd_self (a : dict) : Res dict := alias_loop radd (dkeys a) (length a) a.
  Definition op_isub_self (a : dict) : Res dict := alias_loop rsub (dkeys a) (length a) a.

  (** [__neg__], lines 291-300. *)
  Definition op_neg (a : dict) : dict := map (fun kc => (fst kc, - snd kc)) a.
  (** [__rmul__] (277-289) and [__mul__]/[__imul__] with a number (214-218, 250-253). *)
  Definition op_scale (c : K) (a : dict) : dict := map (fun kc => (fst kc, snd kc * c)) a.

  (** Work queue of normal ordering: strings with their factors (lines 40-45). *)
  Definition queue := list (fstring * K).

  (** One inner pass (lines 54-93).  [rpre] is the already visited prefix,
      reversed, [a] the element at [current_idx], [tl] the rest.  Returns the new
      string, the new factor, the queue additions (in order), [changed] and
      [is_zero].  A one-element string makes [next_operator[current_idx + 1]]
      raise IndexError; this is handled in [sort_pass]. *)
  Fixpoint pass (rpre : list fop) (a : fop) (tl : list fop) (fac : K) (q : queue) (changed : bool)
    : fstring * K * queue * bool * bool :=
    match tl with
    | [] => (rev (a :: rpre), fac, q, changed, false)
    | b :: tl' =>
        match snd a, snd b with
        | true, true =>
            if Nat.eqb (fst a) (fst b) then (rev rpre ++ a :: b :: tl', fac, q, changed, true)
            else if Nat.ltb (fst a) (fst b) then pass (b :: rpre) a tl' (- fac) q true
            else pass (a :: rpre) b tl' fac q changed
        | false, true =>
            if Nat.eqb (fst a) (fst b) then
              let new_op := rev rpre ++ tl' in
              let q' := match new_op with [] => q | _ => q ++ [(new_op, fac)] end in
              pass (b :: rpre) a tl' (- fac) q' true
            else pass (b :: rpre) a tl' (- fac) q true
        | true, false => pass (a :: rpre) b tl' fac q changed
        | false, false =>
            if Nat.eqb (fst a) (fst b) then (rev rpre ++ a :: b :: tl', fac, q, changed, true)
            else if Nat.ltb (fst a) (fst b) then pass (b :: rpre) a tl' (- fac) q true
            else pass (a :: rpre) b tl' fac q changed
        end
    end.

  (** The [while True] around the passes (lines 50-103).  The result carries the
      queue additions and the finished string, [None] when it vanished. *)
  Fixpoint sort_loop (fuel : nat) (s : fstring) (fac : K) (q : queue)
    : Res (queue * option (fstring * K)) :=
    match fuel with
    | O => Hang
    | S fuel' =>
        match s with
        | [] => Ok (q, Some ([], fac))
        | [_] => Raise IndexError
        | a :: tl =>
            let '(s', fac', q', changed, is_zero) := pass [] a tl fac q false in
            if is_zero then Ok (q', None)
            else if changed then sort_loop fuel' s' fac' q'
            else Ok (q', Some (s', fac'))
        end
    end.

  (** Number of rounds granted to the sorting loop; proved sufficient. *)
  Definition sort_fuel (s : fstring) : nat := S (length s * length s).

  (** One round of the outer [while len(operator_queue) > 0] (lines 46-103). *)
  Definition no_step (st : queue * dict) : (queue * dict) + Res dict :=
    match fst st with
    | [] => inr (Ok (snd st))
    | (s, fac) :: q =>
        match sort_loop (sort_fuel s) s fac [] with
        | Ok (pushed, Some (s', fac')) => inl (q ++ pushed, dacc s' fac' (snd st))
        | Ok (pushed, None) => inl (q ++ pushed, snd st)
        | Raise e => inr (Raise e)
        | Hang => inr Hang
        end
    end.

  (** At most [2^no_fuel] rounds are granted; proved sufficient. *)
  Fixpoint no_fuel (d : dict) : nat :=
    match d with [] => 1 | (s, _) :: d' => S (length s * length s) + no_fuel d' end%nat.

  (** [do_extended_normal_ordering], lines 27-104. *)
  Definition normal_order (d : dict) : Res dict :=
    match iterp (no_fuel d) no_step (d, []) with
    | inl _ => Hang
    | inr r => r
    end.

  (** Body of the double loop of [__mul__], lines 222-236 (also 257-271). *)
  Definition mul_step (acc : Res dict) (kc1 kc2 : fstring * K) : Res dict :=
    bind acc (fun d =>
    bind (normal_order [(fst kc2 ++ fst kc1, snd kc2 * snd kc1)]) (fun new_ops =>
    Ok (op_add d new_ops))).

  (** [self * fermistring], lines 219-239; [__imul__] 254-272.  The outer loop runs
      over the right operand, the inner one over [self]. *)
  Definition op_mul (self other : dict) : Res dict :=
    fold_left (fun acc kc1 => fold_left (fun acc' kc2 => mul_step acc' kc1 kc2) self acc) other (Ok []).

  (** Key conjugation inside [dagger], lines 311-317. *)
  Definition dag_key (s : fstring) : fstring := map (fun o => (fst o, negb (snd o))) (rev s).
  (** [dagger], lines 302-321.  Conjugation is injective on keys, so building the
      intermediate dictionary by assignment keeps one entry per key. *)
  Definition op_dagger (a : dict) : Res dict :=
    normal_order (map (fun kc => (dag_key (fst kc), snd kc)) a).

  (** [operator_count], lines 323-337: number of strings of each length. *)
  Fixpoint count_upd (n : nat) (c : list (nat * nat)) : list (nat * nat) :=
    match c with
    | [] => [(n, 1%nat)]
    | (m, v) :: c' => if Nat.eqb n m then (m, S v) :: c' else (m, v) :: count_upd n c'
    end.
  Definition operator_count (a : dict) : list (nat * nat) :=
    fold_left (fun c kc => count_upd (length (fst kc)) c) a [].

  (** Classification of one string in [get_folded_operator], lines 425-447:
      returns (inactive_dagger, inactive, active_dagger, active, has_virtual).
      Indices beyond all spaces are silently skipped, as in the code. *)
  Fixpoint fold_classify (ni na nv : nat) (s : fstring)
    : list nat * list nat * fstring * fstring * bool :=
    match s with
    | [] => ([], [], [], [], false)
    | (p, dg) :: s' =>
        let '(idag, iann, adag, aann, virt) := fold_classify ni na nv s' in
        if dg then
          if Nat.ltb p (2 * ni) then (p :: idag, iann, adag, aann, virt)
          else if Nat.ltb p (2 * ni + 2 * na) then (idag, iann, ((p - 2 * ni)%nat, dg) :: adag, aann, virt)
          else if Nat.ltb p (2 * ni + 2 * na + 2 * nv) then (idag, iann, adag, aann, true)
          else (idag, iann, adag, aann, virt)
        else
          if Nat.ltb p (2 * ni) then (idag, p :: iann, adag, aann, virt)
          else if Nat.ltb p (2 * ni + 2 * na) then (idag, iann, adag, ((p - 2 * ni)%nat, dg) :: aann, virt)
          else if Nat.ltb p (2 * ni + 2 * na + 2 * nv) then (idag, iann, adag, aann, true)
          else (idag, iann, adag, aann, virt)
    end.

  Fixpoint natlist_eqb (a b : list nat) : bool :=
    match a, b with
    | [], [] => true
    | x :: a', y :: b' => Nat.eqb x y && natlist_eqb a' b'
    | _, _ => false
    end.

  (** [ket_flip_fac], lines 461-464: minus one for every even i in 1..n. *)
  Fixpoint ket_flip (n : nat) : bool :=
    match n with O => false | S m => xorb (Nat.even (S m)) (ket_flip m) end.

  (** Treatment of one string, lines 425-466: [None] is the [continue]. *)
  Definition fold_key (ni na nv : nat) (s : fstring) : option (fstring * bool) :=
    let '(idag, iann, adag, aann, virt) := fold_classify ni na nv s in
    if virt then None
    else if negb (natlist_eqb idag iann) then None
    else Some (adag ++ aann,
               xorb (Nat.odd (length idag) && Nat.odd (length adag)) (ket_flip (length iann))).

  (** Accumulation of lines 467-470 (no threshold test). *)
  Definition dacc_keep (k : fstring) (c : K) (d : dict) : dict :=
    match dget k d with
    | Some v => dset k (v + c) d
    | None => d ++ [(k, c)]
    end.

  (** [get_folded_operator], lines 379-471. *)
  Definition op_fold (ni na nv : nat) (a : dict) : dict :=
    fold_left (fun d kc => match fold_key ni na nv (fst kc) with
                           | None => d
                           | Some (k, sg) => dacc_keep k (sgn sg (snd kc)) d
                           end) a [].
End Model.
