(** Model of the Pauli-string bookkeeping of slowquant/qiskit_interface/util.py
    (measurement cliques, mitigation flags, post-selection) and of the sampler
    methods of slowquant/qiskit_interface/interface.py that use it.

    A Pauli string is a list of letters, leftmost letter first as in Python;
    distributions are insertion-ordered dictionaries from non-negative integers
    to elements of a commutative ring (floats without rounding).  Objects that
    Python mutates are passed in and returned; methods that may raise after
    having mutated the object return the object together with the outcome. *)
From Coq Require Import List Bool Arith NArith ZArith Lia Ring String.
From Verif Require Import Base.
Import ListNotations.
Local Open Scope nat_scope.
Local Open Scope list_scope.

Inductive letter := LI | LX | LY | LZ.
Definition pauli := list letter.

Definition letter_eqb (a b : letter) : bool :=
  match a, b with LI, LI | LX, LX | LY, LY | LZ, LZ => true | _, _ => false end.
Fixpoint pauli_eqb (a b : pauli) : bool :=
  match a, b with
  | [], [] => true
  | x :: a', y :: b' => letter_eqb x y && pauli_eqb a' b'
  | _, _ => false
  end.

(** Python string comparison [a < b]: the letters are ordered I < X < Y < Z. *)
Definition rank (l : letter) : nat := match l with LI => 0 | LX => 1 | LY => 2 | LZ => 3 end.
Fixpoint str_lt (a b : pauli) : bool :=
  match a, b with
  | _, [] => false
  | [], _ :: _ => true
  | x :: a', y :: b' => if rank x <? rank y then true else if rank x =? rank y then str_lt a' b' else false
  end.
(** [sorted(paulis, reverse=True)]. *)
Fixpoint insert_desc (x : pauli) (l : list pauli) : list pauli :=
  match l with
  | [] => [x]
  | y :: l' => if str_lt y x then x :: l else y :: insert_desc x l'
  end.
Definition sorted_rev (l : list pauli) : list pauli := fold_right insert_desc [] l.

(** [fit_in_clique], lines 566-592. *)
Fixpoint commuting_zip (head p : pauli) : bool :=
  match head, p with
  | c :: head', o :: p' =>
      if letter_eqb c LI || letter_eqb o LI then commuting_zip head' p'
      else if letter_eqb c o then commuting_zip head' p' else false
  | _, _ => true
  end.
Fixpoint head_zip (head p : pauli) : pauli :=
  match head, p with
  | c :: head', o :: p' => (if letter_eqb c LI then o else c) :: head_zip head' p'
  | _, _ => []
  end.
Definition fit_in_clique (p head : pauli) : bool * pauli :=
  if commuting_zip head p then (true, head_zip head p) else (false, []).

(** ** Mitigation flags, lines 152-259 *)
Record flags := { do_M_mitigation : bool; do_M_ansatz0 : bool; do_M_ansatz0_plus : bool; do_postselection : bool }.
(** Values given to keyword arguments: booleans or anything else. *)
Inductive pyval := PBool (b : bool) | POther.

(** [__init__], lines 155-184: the normalisation of the flags. *)
Definition flags_init (mm m0 m0p ps : bool) : flags :=
  let mm := if m0 then true else mm in
  let mm := if m0p then true else mm in
  let m0 := if m0p then true else m0 in
  {| do_M_mitigation := mm; do_M_ansatz0 := m0; do_M_ansatz0_plus := m0p; do_postselection := ps |}.
Definition flag_order : list string :=
  ["do_M_mitigation"; "do_M_ansatz0"; "do_M_ansatz0_plus"; "do_postselection"]%string.
(** [getattr] and [setattr] for the four names. *)
Definition flag_get (f : flags) (n : string) : bool :=
  if String.eqb n "do_M_mitigation" then do_M_mitigation f
  else if String.eqb n "do_M_ansatz0" then do_M_ansatz0 f
  else if String.eqb n "do_M_ansatz0_plus" then do_M_ansatz0_plus f
  else do_postselection f.
Definition flag_set (f : flags) (n : string) (b : bool) : flags :=
  let 'Build_flags mm m0 m0p ps := f in
  if String.eqb n "do_M_mitigation" then Build_flags b m0 m0p ps
  else if String.eqb n "do_M_ansatz0" then Build_flags mm b m0p ps
  else if String.eqb n "do_M_ansatz0_plus" then Build_flags mm m0 b ps
  else Build_flags mm m0 m0p b.
(** [_validate_flags], lines 186-200. *)
Definition validate_flags (kw : list (string * pyval)) : Res unit :=
  if forallb (fun nv => existsb (String.eqb (fst nv)) flag_order) kw then
    if forallb (fun nv => match snd nv with PBool _ => true | POther => false end) kw then Ok tt
    else Raise TypeError
  else Raise ValueError.
(** [update_flags], lines 202-217. *)
Definition update_flags (kw : list (string * pyval)) (f : flags) : Res flags :=
  bind (validate_flags kw) (fun _ =>
  let f := fold_left (fun f nv => match snd nv with PBool b => flag_set f (fst nv) b | POther => f end) kw f in
  let f := if do_M_ansatz0 f then flag_set f "do_M_mitigation" true else f in
  let f := if do_M_ansatz0_plus f then flag_set (flag_set f "do_M_mitigation" true) "do_M_ansatz0" true else f in
  Ok f).
(** [all_to_false], lines 219-223. *)
Definition all_to_false (f : flags) : flags := fold_left (fun f n => flag_set f n false) flag_order f.
(** [to_int], lines 225-235. *)
Definition to_int (f : flags) : N :=
  fold_left (fun r inm => if flag_get f (snd inm) then N.lor r (N.shiftl 1 (N.of_nat (fst inm))) else r)
    (combine (seq 0 (List.length flag_order)) flag_order) 0%N.
(** [is_enabled], lines 249-257. *)
Definition is_enabled (f : flags) : bool := if (to_int f =? 0)%N then false else true.

(** Dictionaries with integer keys. *)
Section Dict.
  Context {V : Type}.
  Fixpoint zget (k : N) (d : list (N * V)) : option V :=
    match d with [] => None | (k', v) :: d' => if N.eqb k k' then Some v else zget k d' end.
  Fixpoint zset (k : N) (v : V) (d : list (N * V)) : list (N * V) :=
    match d with
    | [] => [(k, v)]
    | (k', v') :: d' => if N.eqb k k' then (k', v) :: d' else (k', v') :: zset k v d'
    end.
End Dict.

Section Clique.
  Context {K : Type} {C : CRing K}.
  Local Open Scope K_scope.

  Definition dist := list (N * K).

  (** [CliqueSaver], lines 262-316. *)
  Definition csaver := list (N * dist).
  Definition saver_init : csaver := [(0%N, [])].
  Definition mit_int (f : option flags) : N := match f with Some f => to_int f | None => 0%N end.
  Definition is_nil {A} (l : list A) : bool := match l with [] => true | _ => false end.
  (** [is_empty], lines 276-294. *)
  Definition saver_is_empty (s : csaver) (f : option flags) : Res bool :=
    let k := mit_int f in
    match zget k s with
    | None => Ok true
    | Some d =>
        if negb (is_nil d) then Ok false
        else if N.eqb k 0 && (1 <? List.length s)%nat then
          if negb (forallb (fun e => is_nil (snd e)) s) then Raise ValueError else Ok true
        else Ok true
    end.
  (** [add_distr], lines 296-304. *)
  Definition saver_add (s : csaver) (d : dist) (f : option flags) : csaver := zset (mit_int f) d s.
  (** [get_distr], lines 306-316. *)
  Definition saver_get (s : csaver) (f : option flags) : Res dist :=
    match zget (mit_int f) s with Some d => Ok d | None => Raise KeyError end.

  (** [CliqueHead], lines 319-328. *)
  Record chead := { ch_head : pauli; ch_distr : csaver }.
  Definition new_chead (h : pauli) : chead := {| ch_head := h; ch_distr := saver_init |}.

  (** The body of the loop over the strings in [add_paulis], lines 359-371: the
      inner loop with its [break] and [else]. *)
  Fixpoint place (p : pauli) (cl : list chead) : list chead :=
    match cl with
    | [] => [new_chead p]
    | c :: cl' =>
        let '(do_fit, head_fit) := fit_in_clique p (ch_head c) in
        if do_fit then
          {| ch_head := head_fit;
             ch_distr := if negb (pauli_eqb head_fit (ch_head c)) then saver_init else ch_distr c |} :: cl'
        else c :: place p cl'
    end.
  (** [[c.head for c in cliques if c.distr.is_empty(f)]]; the loop stops at the
      first exception. *)
  Fixpoint empty_heads (f : option flags) (cl : list chead) : Res (list pauli) :=
    match cl with
    | [] => Ok []
    | c :: cl' => bind (saver_is_empty (ch_distr c) f) (fun e =>
                  bind (empty_heads f cl') (fun r => Ok (if e then ch_head c :: r else r)))
    end.
  (** [add_paulis], lines 342-377. *)
  Definition add_paulis (ps : list pauli) (cl : list chead) : list chead * Res (list pauli) :=
    match cl, ps with
    | [], [] => (cl, Raise IndexError)
    | _, _ =>
        let cl := match cl with [] => [new_chead (repeat LZ (List.length (hd [] ps)))] | _ => cl end in
        let cl := fold_left (fun cl p => place p cl) (sorted_rev ps) cl in
        (cl, empty_heads None cl)
    end.

  (** [get_head], lines 459-476. *)
  Fixpoint get_head (p : pauli) (cl : list chead) : Res pauli :=
    match cl with
    | [] => Raise ValueError
    | c :: cl' =>
        let '(do_fit, head_fit) := fit_in_clique p (ch_head c) in
        if do_fit then
          if negb (pauli_eqb (ch_head c) head_fit) then Raise ValueError else Ok (ch_head c)
        else get_head p cl'
    end.

  (** [get_groups], lines 379-404. *)
  Fixpoint group_add (h p : pauli) (g : list (pauli * list pauli)) : list (pauli * list pauli) :=
    match g with
    | [] => [(h, [p])]
    | (h', l) :: g' => if pauli_eqb h h' then (h', l ++ [p]) :: g' else (h', l) :: group_add h p g'
    end.
  Definition get_groups (ps : list pauli) (cl : list chead) : Res (list (pauli * list pauli)) :=
    fold_left (fun g p => bind g (fun g => bind (get_head p cl) (fun h => Ok (group_add h p g)))) (sorted_rev ps) (Ok []).

  (** [get_distr], lines 435-457. *)
  Fixpoint get_distr (p : pauli) (f : option flags) (cl : list chead) : Res dist :=
    match cl with
    | [] => Raise ValueError
    | c :: cl' =>
        let '(do_fit, head_fit) := fit_in_clique p (ch_head c) in
        if do_fit then
          if negb (pauli_eqb (ch_head c) head_fit) then Raise ValueError
          else bind (saver_is_empty (ch_distr c) f) (fun e =>
               if e then Raise ValueError else saver_get (ch_distr c) f)
        else get_distr p f cl'
    end.

  (** The inner loop of [update_distr], lines 420-426: it runs over all cliques,
      without [break]. *)
  Fixpoint upd_head (h : pauli) (d : dist) (f : option flags) (cl : list chead) : list chead * Res unit :=
    match cl with
    | [] => ([], Ok tt)
    | c :: cl' =>
        if pauli_eqb h (ch_head c) then
          match saver_is_empty (ch_distr c) f with
          | Ok true =>
              let '(r, o) := upd_head h d f cl' in
              ({| ch_head := ch_head c; ch_distr := saver_add (ch_distr c) d f |} :: r, o)
          | Ok false => (c :: cl', Raise ValueError)
          | Raise e => (c :: cl', Raise e)
          | Hang => (c :: cl', Hang)
          end
        else let '(r, o) := upd_head h d f cl' in (c :: r, o)
    end.
  (** [update_distr], lines 406-433. *)
  Definition update_distr (heads : list pauli) (ds : list dist) (f : option flags) (cl : list chead)
      : list chead * Res unit :=
    let '(cl, o) := fold_left (fun s hd => let '(cl, o) := s in
                      match o with Ok _ => upd_head (fst hd) (snd hd) f cl | _ => s end) (combine heads ds) (cl, Ok tt) in
    (cl, bind o (fun _ => bind (empty_heads f cl) (fun l => if is_nil l then Ok tt else Raise ValueError))).

  (** [get_distr_heads], lines 493-522. *)
  Fixpoint find_head (h : pauli) (cl : list chead) : option chead :=
    match cl with [] => None | c :: cl' => if pauli_eqb (ch_head c) h then Some c else find_head h cl' end.
  Definition get_distr_heads (heads : list pauli) (f : option flags) (cl : list chead) : Res (list dist) :=
    fold_right (fun h r => match find_head h cl with
                           | None => r
                           | Some c => bind (saver_get (ch_distr c) f) (fun d => bind r (fun r => Ok (d :: r)))
                           end) (Ok []) heads.

  (** [get_empty_heads_distr], lines 524-542. *)
  Fixpoint get_empty_heads_distr (f : flags) (cl : list chead) : Res (list (pauli * dist)) :=
    match cl with
    | [] => Ok []
    | c :: cl' => bind (saver_is_empty (ch_distr c) (Some f)) (fun e =>
                  if e then
                    bind (saver_get (ch_distr c) None) (fun d =>
                    bind (get_empty_heads_distr f cl') (fun r => Ok ((ch_head c, d) :: r)))
                  else get_empty_heads_distr f cl')
    end.

  (** ** Bitstrings *)

  (** [format(x, f"0{w}b")], most significant bit first. *)
  Definition format_b (w : nat) (x : N) : list bool :=
    let len := Nat.max w (Nat.max 1 (N.size_nat x)) in
    map (fun i => N.testbit x (N.of_nat (len - 1 - i))) (seq 0 len).
  (** [int(s, 2)]. *)
  Definition int_of_bits (s : list bool) : N := fold_left (fun (a : N) (b : bool) => (2 * a + (if b then 1 else 0))%N) s 0%N.
  (** [int.bit_count]. *)
  Definition bit_count (x : N) : nat := List.length (filter (fun i => N.testbit x (N.of_nat i)) (seq 0 (N.size_nat x))).

  (** [get_bitstring_sign], lines 54-95; [int("", 2)] raises. *)
  Definition get_bitstring_sign (op : pauli) (binary : N) : Res K :=
    match op with
    | [] => Raise ValueError
    | _ =>
        let opbit := int_of_bits (map (fun l => negb (letter_eqb l LI)) op) in
        let count := bit_count (N.land opbit binary) in
        if (count mod 2 =? 1)%nat then Ok (- (1)) else Ok 1
    end.

  (** [postselection], lines 886-973.  [kdiv] is Python's division, which raises
      for a zero divisor. *)
  Inductive mapper := JordanWigner | Parity | OtherMapper.
  Definition count1 (s : list bool) : nat := List.length (filter (fun b => b) s).
  Definition keep_jw (na nb : nat) (bitstr : list bool) : bool :=
    let num_a := (List.length bitstr / 2)%nat in
    let bitstr_a := skipn num_a bitstr in
    let bitstr_b := firstn num_a bitstr in
    (count1 bitstr_a =? na)%nat && (count1 bitstr_b =? nb)%nat.
  (** The loops over the bits: state is [(current_parity, change_counter)]. *)
  Definition parity_scan (s : list bool) (st : bool * nat) : bool * nat :=
    fold_left (fun st bit => if Bool.eqb bit (fst st) then st else (bit, S (snd st))) s st.
  Definition keep_parity (na nb : nat) (bitstr : list bool) : bool :=
    let num_a := (List.length bitstr / 2)%nat in
    let bitstr_a := skipn num_a bitstr in
    let bitstr_b := firstn num_a bitstr in
    let '(cur, cnt) := parity_scan bitstr_b (false, 0%nat) in
    let '(cur, cnt) :=
      if cur && (nb mod 2 =? 0)%nat then (false, S cnt)
      else if negb cur && (nb mod 2 =? 1)%nat then (true, S cnt)
      else (cur, cnt) in
    if negb (cnt =? na)%nat then false
    else
      let '(cur, cnt) := parity_scan bitstr_a (cur, 0%nat) in
      let cnt := if cur && ((na + nb) mod 2 =? 0)%nat then S cnt
                 else if negb cur && ((na + nb) mod 2 =? 1)%nat then S cnt
                 else cnt in
      (cnt =? nb)%nat.
  Definition postselection (kdiv : K -> K -> Res K) (d : dist) (m : mapper) (num_elec : nat * nat) (num_qubits : nat)
      : Res dist :=
    let run (keep : list bool -> bool) : dist * K :=
      fold_left (fun (s : dist * K) kv => let '(nd, ps) := s in
          let bitstr := format_b num_qubits (fst kv) in
          if keep bitstr then (zset (int_of_bits bitstr) (snd kv) nd, ps + snd kv) else s)
        d (([] : dist), 0) in
    let finish (s : dist * K) : Res dist :=
      let '(nd, ps) := s in
      fold_left (fun r kv => bind r (fun nd => bind (kdiv (snd kv) ps) (fun q => Ok (zset (fst kv) q nd)))) nd (Ok nd) in
    match m with
    | JordanWigner => finish (run (keep_jw (fst num_elec) (snd num_elec)))
    | Parity => finish (run (keep_parity (fst num_elec) (snd num_elec)))
    | OtherMapper => Raise ValueError
    end.

  (** interface.py, [_apply_postselection], lines 1316-1325. *)
  Definition apply_postselection (kdiv : K -> K -> Res K) (m : mapper) (num_elec : nat * nat) (num_qubits : nat)
      (hds : list (pauli * dist)) : Res (list (pauli * dist)) :=
    fold_right (fun hd r => bind r (fun r =>
      if negb (existsb (letter_eqb LX) (fst hd)) && negb (existsb (letter_eqb LY) (fst hd)) then
        bind (postselection kdiv (snd hd) m num_elec num_qubits) (fun d => Ok ((fst hd, d) :: r))
      else Ok (hd :: r))) (Ok []) hds.

  (** ** interface.py, [_sampler_quantum_expectation_value], lines 978-1080 *)

  (** Sum of one distribution with the signs of a Pauli string, lines 1067-1073. *)
  Definition signed_sum (p : pauli) (d : dist) : Res K :=
    fold_left (fun r kv => bind r (fun r => bind (get_bitstring_sign p (fst kv)) (fun s => Ok (r + snd kv * s)))) d (Ok 0).

  (** One entry of [self.saver]: the option and the cliques. *)
  Definition entry := (nat * list chead)%type.

  Record config := {
    cf_div : K -> K -> Res K;
    cf_mapper : mapper;
    cf_elec : nat * nat;
    cf_qubits : nat;
    cf_M : list (pauli * dist) -> Res (list (pauli * dist))  (* [_apply_M_mitigation], kept abstract *)
  }.

  (** Lines 1027-1080 for the determinant key [det_int]; [device] is the call of
      [_one_call_sampler_distributions] for one head.  The coefficients are the
      real parts of the coefficients of the observable; the branch that prints a
      warning for complex values is not modelled. *)
  Definition sampler_value (cf : config) (fl : flags) (device : pauli -> dist) (csfs_option : nat)
      (obs : list (pauli * K)) (old : option entry) : entry * Res K :=
    let cl := match old with
              | None => []
              | Some (opt, cl) => if (opt =? csfs_option)%nat then cl else []
              end in
    let paulis_str := map fst obs in
    let '(cl, rh) := add_paulis paulis_str cl in
    let '(cl, ro) :=
      match rh with
      | Ok new_heads =>
          if negb (List.length new_heads =? 0)%nat then update_distr new_heads (map device new_heads) None cl
          else (cl, Ok tt)
      | Raise e => (cl, Raise e)
      | Hang => (cl, Hang)
      end in
    let '(cl, ro) :=
      match ro with
      | Ok _ =>
          if is_enabled fl then
            match get_empty_heads_distr fl cl with
            | Ok hds =>
                if negb (List.length hds =? 0)%nat then
                  match bind (if do_M_mitigation fl then cf_M cf hds else Ok hds) (fun hds =>
                        if do_postselection fl then
                          apply_postselection (cf_div cf) (cf_mapper cf) (cf_elec cf) (cf_qubits cf) hds
                        else Ok hds) with
                  | Ok hds => update_distr (map fst hds) (map snd hds) (Some fl) cl
                  | Raise e => (cl, Raise e)
                  | Hang => (cl, Hang)
                  end
                else (cl, Ok tt)
            | Raise e => (cl, Raise e)
            | Hang => (cl, Hang)
            end
          else (cl, Ok tt)
      | _ => (cl, ro)
      end in
    ((csfs_option, cl),
     bind ro (fun _ =>
       fold_left (fun values pc => bind values (fun values =>
         bind (get_distr (fst pc) (Some fl) cl) (fun d =>
         bind (signed_sum (fst pc) d) (fun result => Ok (values + result * snd pc))))) obs (Ok 0))).

  (** The state of the interface that matters for Pauli saving: the ansatz
      parameters, the flags and the saver. *)
  Record qi := { qi_par : list K; qi_flags : flags; qi_saver : list (N * entry) }.
  (** Calls that change it: an expectation value (lines 978-1080, with the saver
      dictionary of line 1027), the parameter setter (lines 430-448; [npars] is
      [self.circuit.num_parameters]), [update_mitigation_flags] (lines 286-292)
      and the reset done by the setter of the shots (lines 622-630). *)
  Inductive qi_call :=
  | CallEv (det_int : N) (csfs_option : nat) (obs : list (pauli * K))
  | CallParams (new : list K)
  | CallFlags (kw : list (string * pyval))
  | CallReset.
  (** [np.array_equal]. *)
  Fixpoint keq_list (keq : K -> K -> bool) (a b : list K) : bool :=
    match a, b with
    | [], [] => true
    | x :: a', y :: b' => keq x y && keq_list keq a' b'
    | _, _ => false
    end.
  Definition qi_step (cf : config) (keq : K -> K -> bool) (npars : nat) (device : list K -> N -> nat -> pauli -> dist)
      (c : qi_call) (s : qi) : qi * Res (option K) :=
    match c with
    | CallEv det_int csfs_option obs =>
        let '(e, r) := sampler_value cf (qi_flags s) (device (qi_par s) det_int csfs_option) csfs_option obs
                         (zget det_int (qi_saver s)) in
        ({| qi_par := qi_par s; qi_flags := qi_flags s; qi_saver := zset det_int e (qi_saver s) |},
         bind r (fun v => Ok (Some v)))
    | CallParams new =>
        if negb (List.length new =? npars)%nat then (s, Raise ValueError)
        else ({| qi_par := new; qi_flags := qi_flags s;
                 qi_saver := if negb (keq_list keq (qi_par s) new) then [] else qi_saver s |}, Ok None)
    | CallFlags kw =>
        match update_flags kw (qi_flags s) with
        | Ok f => ({| qi_par := qi_par s; qi_flags := f; qi_saver := qi_saver s |}, Ok None)
        | Raise e => (s, Raise e)
        | Hang => (s, Hang)
        end
    | CallReset => ({| qi_par := qi_par s; qi_flags := qi_flags s; qi_saver := [] |}, Ok None)
    end.
  Definition qi_run (cf : config) (keq : K -> K -> bool) (npars : nat) (device : list K -> N -> nat -> pauli -> dist)
      (cs : list qi_call) (s : qi) : qi :=
    fold_left (fun s c => fst (qi_step cf keq npars device c s)) cs s.

  (** ** Shots, interface.py *)

  (** [_max_shots_per_run], [_shots] and [_circuit_multipl].  Shot numbers are
      natural numbers; [math.floor(shots / max)] is integer division (exact for
      the numbers a float can hold); a zero maximum raises. *)
  Record shot_state := { sh_max : nat; sh_shots : option nat; sh_mult : nat }.
  (** The setter [shots], lines 553-596; [v2] tells whether the primitive is a
      SamplerV2. *)
  Definition set_shots (v2 : bool) (shots : option nat) (st : shot_state) : shot_state * Res unit :=
    let shots := match shots with None => if v2 then Some (100 * 100)%nat else None | Some s => Some s end in
    match shots with
    | None => ({| sh_max := sh_max st; sh_shots := None; sh_mult := 1 |}, Ok tt)
    | Some s =>
        if (sh_max st <? s)%nat then
          if (sh_max st =? 0)%nat then ({| sh_max := sh_max st; sh_shots := Some s; sh_mult := 1 |}, Raise ZeroDivisionError)
          else
            let mult := (s / sh_max st)%nat in
            let s := if negb (s mod sh_max st =? 0)%nat then (mult * sh_max st)%nat else s in
            ({| sh_max := sh_max st; sh_shots := Some s; sh_mult := mult |}, Ok tt)
        else ({| sh_max := sh_max st; sh_shots := Some s; sh_mult := 1 |}, Ok tt)
    end.
  (** The setter [max_shots_per_run], lines 607-620 (after initialisation). *)
  Definition set_max_shots (v2 : bool) (m : nat) (st : shot_state) : shot_state * Res unit :=
    set_shots v2 (sh_shots st) {| sh_max := m; sh_shots := sh_shots st; sh_mult := sh_mult st |}.
  Inductive shot_call := SetShots (s : option nat) | SetMax (m : nat).
  Definition shot_step (v2 : bool) (c : shot_call) (st : shot_state) : shot_state :=
    match c with SetShots s => fst (set_shots v2 s st) | SetMax m => fst (set_max_shots v2 m st) end.
  (** The number of shots handed to the primitive, lines 1353-1356. *)
  Definition run_shots (st : shot_state) : option nat := if (1 <? sh_mult st)%nat then Some (sh_max st) else sh_shots st.
  (** The end of [_one_call_sampler_distributions], lines 1445-1458: the runs
      repeated because of the shot limit are averaged. *)
  Definition zadd (k : N) (v : K) (d : dist) : dist :=
    zset k (v + match zget k d with Some w => w | None => 0 end) d.
  Definition upd_at {A} (i : nat) (f : A -> A) (l : list A) : list A :=
    map (fun ix => if (fst ix =? i)%nat then f (snd ix) else snd ix) (combine (seq 0 (List.length l)) l).
  Definition combine_runs (kdiv : K -> Res K) (length mult : nat) (distr : list dist) : Res (list dist) :=
    if (mult =? 1)%nat then Ok distr
    else
      let comb := fold_left (fun comb nd => upd_at (fst nd mod length)
                    (fun d0 => fold_left (fun d kv => zadd (fst kv) (snd kv) d) (snd nd) d0) comb)
                  (combine (seq 0 (List.length distr - length)) (skipn length distr)) (firstn length distr) in
      fold_right (fun d r => bind (fold_right (fun kv r => bind (kdiv (snd kv)) (fun q => bind r (fun r => Ok ((fst kv, q) :: r)))) (Ok []) d)
                               (fun d => bind r (fun r => Ok (d :: r)))) (Ok []) comb.
End Clique.
