(** The variance of an expectation value:
    qiskit_interface/interface.py [quantum_variance] 1169-1271. *)
From Coq Require Import List Bool Arith NArith ZArith String.
From Verif Require Import Base CliqueModel.
Import ListNotations.
Local Open Scope list_scope.

Section Variance.
  Context {K : Type} {C : CRing K}.
  Local Open Scope K_scope.
  Notation dist := (dist (K:=K)).
  Notation chead := (chead (K:=K)).

  (** [get_bitstring_sign(pauli, key) == 1], util.py 54-95: the comparison is
      made on the integer that decides the sign. *)
  Definition sign_is_one (op : pauli) (binary : N) : Res bool :=
    match op with
    | [] => Raise ValueError
    | _ => Ok (negb (bit_count (N.land (int_of_bits (map (fun l => negb (letter_eqb l LI)) op)) binary) mod 2 =? 1)%nat)
    end.
  (** The probability of the sign plus: [_sampler_distribution_p1] lines
      1526-1530, and lines 1261-1264. *)
  Definition p_one (p : pauli) (d : dist) : Res K :=
    fold_left (fun r kv => bind r (fun r => bind (sign_is_one p (fst kv)) (fun b => Ok (if b then r + snd kv else r)))) d (Ok 0).
  (** Lines 1221 and 1265. *)
  Definition var_p (c p1 : K) : K := (1 + 1) * (1 + 1) * (c * c) * (p1 - p1 * p1).
  (** The loops of lines 1216-1222 and 1255-1266; [distr] is the device or the saver.
      The coefficients are the real parts. *)
  Definition var_independent (no_coeffs : bool) (distr : pauli -> Res dist) (obs : list (pauli * K)) : Res K :=
    fold_left (fun r pc => bind r (fun r =>
      let c := if no_coeffs then 1 else snd pc in
      bind (distr (fst pc)) (fun d => bind (p_one (fst pc) d) (fun p1 => Ok (r + var_p c p1))))) obs (Ok 0).

  (** [pauliop_to_dict], util.py 1119-1132. *)
  Fixpoint cset (p : pauli) (c : K) (d : list (pauli * K)) : list (pauli * K) :=
    match d with
    | [] => [(p, c)]
    | (p', c') :: d' => if pauli_eqb p p' then (p', c) :: d' else (p', c') :: cset p c d'
    end.
  Fixpoint cget (p : pauli) (d : list (pauli * K)) : Res K :=
    match d with [] => Raise KeyError | (p', c) :: d' => if pauli_eqb p p' then Ok c else cget p d' end.
  Definition pauliop_to_dict (obs : list (pauli * K)) : list (pauli * K) := fold_left (fun d pc => cset (fst pc) (snd pc) d) obs [].

  (** The random variable of a group, lines 1243-1247. *)
  Definition group_var (cd : list (pauli * K)) (ps : list pauli) (key : N) : Res K :=
    fold_left (fun r p => bind r (fun r => bind (cget p cd) (fun c => bind (get_bitstring_sign p key) (fun s => Ok (r + c * s))))) ps (Ok 0).
  (** One group, lines 1235-1251. *)
  Definition group_moments (cd : list (pauli * K)) (ps : list pauli) (d : dist) : Res (K * K) :=
    fold_left (fun r kv => bind r (fun r => bind (group_var cd ps (fst kv)) (fun v => Ok (fst r + snd kv * v, snd r + snd kv * (v * v))))) d (Ok (0, 0)).
  (** Lines 1227-1251. *)
  Definition var_grouped (fl : flags) (cl : list chead) (obs : list (pauli * K)) : Res K :=
    bind (get_groups (map fst obs) cl) (fun groups =>
    let cd := pauliop_to_dict obs in
    fold_left (fun r g => bind r (fun r =>
      bind (get_distr_heads [fst g] (Some fl) cl) (fun ds =>
      match ds with
      | [] => Raise IndexError
      | d :: _ => bind (group_moments cd (snd g) d) (fun m => Ok (r + (snd m - fst m * fst m)))
      end))) groups (Ok 0)).

  (** [quantum_variance]; [saved] is [self.saver.get(det_int)] and [device] the
      run of [_sampler_distributions] for one string. *)
  Definition quantum_variance (kdiv : K -> K -> Res K) (shots : option K) (fl : flags) (device : pauli -> dist)
      (saved : option (entry (K:=K))) (do_cliques no_coeffs do_no_corr : bool) (obs : list (pauli * K)) : Res K :=
    bind (if negb do_cliques then var_independent no_coeffs (fun p => Ok (device p)) obs
          else match saved with
               | None => if do_no_corr && is_nil obs then Ok 0 else Raise KeyError
               | Some (_, cl) => if negb do_no_corr then var_grouped fl cl obs
                                 else var_independent no_coeffs (fun p => get_distr p (Some fl) cl) obs
               end) (fun result =>
    match shots with Some k => kdiv result k | None => Ok result end).
End Variance.
