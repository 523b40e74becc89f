(** Model of slowquant/unitary_coupled_cluster/operators.py. *)
From Coq Require Import List Bool Arith NArith ZArith Lia.
From Verif Require Import Base Fock FermiModel.
Import ListNotations.

Section Model.
  Context {K : Type} {C : CRing K}.
  Local Open Scope K_scope.
  Notation op := (list (fstring * K)).

  (** Lifting of the operator methods to computations that may raise. *)
  Definition madd (a b : Res op) : Res op := bind a (fun x => bind b (fun y => Ok (op_add x y))).
  Definition msub (a b : Res op) : Res op := bind a (fun x => bind b (fun y => Ok (op_sub x y))).
  Definition mmul (a b : Res op) : Res op := bind a (fun x => bind b (fun y => op_mul x y)).
  Definition mscale (c : K) (a : Res op) : Res op := bind a (fun x => Ok (op_scale c x)).
  Definition mdagger (a : Res op) : Res op := bind a op_dagger.

  (** [a_op_spin], operators.py:27-37. *)
  Definition a_op_spin (p : nat) (dagger : bool) : Res op := Ok [([(p, dagger)], 1)].
  (** [a_op], operators.py:8-24; the spin string is a boolean, [true] for beta
      (an invalid string raises ValueError, not modelled). *)
  Definition a_op (p : nat) (beta dagger : bool) : Res op :=
    a_op_spin (2 * p + if beta then 1 else 0) dagger.

  (** [Epq], operators.py:40-58. *)
  Definition Epq (p q : nat) : Res op :=
    madd (mmul (a_op p false true) (a_op q false false))
         (mmul (a_op p true true) (a_op q true false)).

  (** [epqrs], operators.py:61-80. *)
  Definition epqrs (p q r s : nat) : Res op :=
    let o := mmul (Epq p q) (Epq r s) in
    if Nat.eqb q r then msub o (Epq p s) else o.

  (** [Eminuspq], operators.py:83-98. *)
  Definition Eminuspq (p q : nat) : Res op := msub (Epq p q) (Epq q p).

  (** [commutator], operators.py:101-114. *)
  Definition commutator (A B : Res op) : Res op := msub (mmul A B) (mmul B A).

  (** [double_commutator], operators.py:117-142; [half] is the literal [1 / 2]. *)
  Definition double_commutator (half : K) (A B D : Res op) (do_symmetrized : bool) : Res op :=
    if do_symmetrized then
      msub (madd (mmul (mmul A B) D) (mmul (mmul D B) A))
           (mscale half (madd (madd (madd (mmul (mmul A D) B) (mmul (mmul B D) A))
                                    (mmul (mmul D A) B)) (mmul (mmul B A) D)))
    else madd (msub (msub (mmul (mmul A B) D) (mmul (mmul A D) B)) (mmul (mmul B D) A))
              (mmul (mmul D B) A).

  (** Product built factor by factor with [op *= a_op_spin(...)]. *)
  Definition build (o : fop) (os : list fop) : Res op :=
    fold_left (fun acc x => mmul acc (a_op_spin (fst x) (snd x))) os (a_op_spin (fst o) (snd o)).

  (** [op -= op.dagger] when [return_anti_hermitian]. *)
  Definition antiherm (ah : bool) (o : Res op) : Res op :=
    if ah then msub o (mdagger o) else o.

  (** [G1] 145-163, [G2] 166-188, [G3] 191-219, [G4] 222-254, [G5] 257-303,
      [G6] 306-359: creators in argument order, then annihilators in reversed
      argument order.  One definition on lists; the six functions are its
      instances. *)
  Definition Gn (iocc : list nat) (avirt : list nat) (ah : bool) : Res op :=
    antiherm ah
      (match map (fun a => (a, true)) avirt ++ map (fun i => (i, false)) (rev iocc) with
       | [] => Ok []
       | o :: os => build o os
       end).
  Definition G1 i a := Gn [i] [a].
  Definition G2 i j a b := Gn [i; j] [a; b].
  Definition G3 i j k a b c := Gn [i; j; k] [a; b; c].
  Definition G4 i j k l a b c d := Gn [i; j; k; l] [a; b; c; d].
  Definition G5 i j k l m a b c d e := Gn [i; j; k; l; m] [a; b; c; d; e].
  Definition G6 i j k l m n a b c d e f := Gn [i; j; k; l; m; n] [a; b; c; d; e; f].

  (** [G1_sa], operators.py:362-379; [s2] is [2 ** (-1 / 2)]. *)
  Definition G1_sa (s2 : K) (i a : nat) (ah : bool) : Res op :=
    antiherm ah (mscale s2 (Epq a i)).

  (** [G2_sa], operators.py:382-443.  [fac1], [fac2], [fac4] are
      [1 / 2 * fac ** (-1 / 2)] for fac = 1, 2, 4 and [fac5] is
      [1 / (2 * 3 ** (1 / 2))]. *)
  Definition G2_sa (fac1 fac2 fac4 fac5 : K) (i j a b case : nat) (ah : bool) : Res op :=
    match case with
    | 1 | 2 | 3 | 4 =>
        let fac := if Nat.eqb a b then (if Nat.eqb i j then fac4 else fac2)
                   else (if Nat.eqb i j then fac2 else fac1) in
        antiherm ah (mscale fac (madd (mmul (Epq a i) (Epq b j)) (mmul (Epq a j) (Epq b i))))
    | 5 => antiherm ah (mscale fac5 (msub (mmul (Epq a i) (Epq b j)) (mmul (Epq a j) (Epq b i))))
    | _ => Raise ValueError
    end%nat.

  (** Loops: [acc += term] over a list of index tuples, where [None] is a skipped
      iteration. *)
  Definition accum {I} (term : I -> option (Res op)) (l : list I) (acc : Res op) : Res op :=
    fold_left (fun acc i => match term i with Some t => madd acc t | None => acc end) l acc.

  Definition pairs (l m : list nat) : list (nat * nat) :=
    flat_map (fun p => map (fun q => (p, q)) m) l.
  Definition quads (l : list nat) : list (nat * nat * (nat * nat)) :=
    flat_map (fun pq => map (fun rs => (pq, rs)) (pairs l l)) (pairs l l).

  (** One- and two-electron terms guarded by the 1e-14 test. *)
  Definition one_term (h : nat -> nat -> K) (pq : nat * nat) : option (Res op) :=
    let (p, q) := pq in
    if small (h p q) then None else Some (mscale (h p q) (Epq p q)).
  Definition two_term (half : K) (g : nat -> nat -> nat -> nat -> K) (pqrs : nat * nat * (nat * nat))
    : option (Res op) :=
    let '((p, q), (r, s)) := pqrs in
    if small (g p q r s) then None else Some (mscale (half * g p q r s) (epqrs p q r s)).

  (** [hamiltonian_full_space], operators.py:446-473.  (The order of the two
      comparisons [abs(x) < 1e-14: continue] and [abs(x) > 1e-14] differs only at
      equality and is not distinguished.) *)
  Definition hamiltonian_full_space half h g (num_orbs : nat) : Res op :=
    accum (two_term half g) (quads (seq 0 num_orbs))
      (accum (one_term h) (pairs (seq 0 num_orbs) (seq 0 num_orbs)) (Ok [])).

  (** [hamiltonian_0i_0a], operators.py:476-529. *)
  Definition hamiltonian_0i_0a half h g (ni na : nat) : Res op :=
    let inact := seq 0 ni in
    let act := seq ni na in
    let h0 := accum (one_term h) (map (fun i => (i, i)) inact) (Ok []) in
    let h1 := accum (one_term h) (pairs act act) h0 in
    let h2 := fold_left (fun acc ij => let '(i, j) := ij in
                 let acc1 := accum (two_term half g) [((i, i), (j, j))] acc in
                 if Nat.eqb i j then acc1
                 else accum (two_term half g) [((j, i), (i, j))] acc1)
               (pairs inact inact) h1 in
    let h3 := fold_left (fun acc ipq => let '(i, (p, q)) := ipq in
                 accum (two_term half g)
                   [((i, i), (p, q)); ((p, q), (i, i)); ((p, i), (i, q)); ((i, p), (q, i))] acc)
               (flat_map (fun i => map (fun pq => (i, pq)) (pairs act act)) inact) h2 in
    accum (two_term half g) (quads act) h3.

  (** Guards shared by [hamiltonian_1i_1a] (532-598), [hamiltonian_2i_2a] (601-663)
      and [one_elec_op_1i_1a] (711-736). *)
  Definition b2n (b : bool) : nat := if b then 1%nat else 0%nat.
  Definition num_virt (vs p q r s : nat) : nat :=
    (b2n (Nat.leb vs p) + b2n (Nat.leb vs q) + b2n (Nat.leb vs r) + b2n (Nat.leb vs s))%nat.
  (** [num_act] may become negative; modelled in Z. *)
  Definition num_act (ni p q r s : nat) : Z :=
    let i x := Nat.ltb x ni in
    let z b := Z.of_nat (b2n b) in
    (z (i p) + z (i q) + z (i r) + z (i s)
     - 2 * z (i p && i q && Nat.eqb p q) - 2 * z (i r && i s && Nat.eqb r s)
     - 2 * z (i p && i s && Nat.eqb p s) - 2 * z (i q && i r && Nat.eqb q r))%Z.
  Definition skip1 (ni vs : nat) (pq : nat * nat) : bool :=
    let (p, q) := pq in
    (Nat.leb vs p && Nat.leb vs q) ||
    (Nat.ltb p ni && Nat.ltb q ni && negb (Nat.eqb p q)).
  Definition skip2 (lim : nat) (ni vs : nat) (pqrs : nat * nat * (nat * nat)) : bool :=
    let '((p, q), (r, s)) := pqrs in
    Nat.ltb lim (num_virt vs p q r s) || Z.ltb (Z.of_nat lim) (num_act ni p q r s).
  Definition guarded {I} (skip : I -> bool) (term : I -> option (Res op)) (i : I) : option (Res op) :=
    if skip i then None else term i.

  Definition hamiltonian_1i_1a half h g (ni na nv : nat) : Res op :=
    let n := (ni + na + nv)%nat in
    accum (guarded (skip2 1 ni (ni + na)) (two_term half g)) (quads (seq 0 n))
      (accum (guarded (skip1 ni (ni + na)) (one_term h)) (pairs (seq 0 n) (seq 0 n)) (Ok [])).
  Definition hamiltonian_2i_2a half h g (ni na nv : nat) : Res op :=
    let n := (ni + na + nv)%nat in
    accum (guarded (skip2 2 ni (ni + na)) (two_term half g)) (quads (seq 0 n))
      (accum (one_term h) (pairs (seq 0 n) (seq 0 n)) (Ok [])).

  (** [one_elec_op_full_space] 666-684, [one_elec_op_0i_0a] 687-708,
      [one_elec_op_1i_1a] 711-736. *)
  Definition one_elec_op_full_space h (num_orbs : nat) : Res op :=
    accum (one_term h) (pairs (seq 0 num_orbs) (seq 0 num_orbs)) (Ok []).
  Definition one_elec_op_0i_0a h (ni na : nat) : Res op :=
    accum (one_term h) (pairs (seq ni na) (seq ni na))
      (accum (one_term h) (map (fun i => (i, i)) (seq 0 ni)) (Ok [])).
  Definition one_elec_op_1i_1a h (ni na nv : nat) : Res op :=
    let n := (ni + na + nv)%nat in
    accum (guarded (skip1 ni (ni + na)) (one_term h)) (pairs (seq 0 n) (seq 0 n)) (Ok []).
End Model.
