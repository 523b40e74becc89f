(** Model of slowquant/unitary_coupled_cluster/util.py: excitation iterators and
    the ansatz structure classes.

    A generator is the list of the tuples it yields; a tuple is a list of
    indices in the order of the [yield] statement.  The float factor yielded by
    the spin-adapted iterators is left out (every caller discards it). *)
From Coq Require Import List Bool Arith ZArith String.
From Verif Require Import Base UPSModel.
Import ListNotations.

(** [for idx, x in enumerate(l[start:], start): body]. *)
Definition loop_from {A B} (l : list A) (start : nat) (body : nat -> A -> list B) : list B :=
  flat_map (fun p => body (fst p) (snd p)) (combine (seq start (List.length l - start)) (skipn start l)).
(** [range(start, stop)]. *)
Definition range (start stop : nat) : list nat := seq start (stop - start).
(** [for x in range(start, stop): body]. *)
Definition loop_range {B} (start stop : nat) (body : nat -> list B) : list B := flat_map body (range start stop).

(** The counters [num_alpha], [num_beta]: the creation indices are added, the
    annihilation indices subtracted (lines 128-139 and the later copies). *)
Definition count_spin (cre ann : list nat) : Z * Z :=
  let up := fold_left (fun (nb : Z * Z) p => if p mod 2 =? 0 then (fst nb + 1, snd nb)%Z else (fst nb, snd nb + 1)%Z) cre (0, 0)%Z in
  fold_left (fun (nb : Z * Z) p => if p mod 2 =? 0 then (fst nb - 1, snd nb)%Z else (fst nb, snd nb - 1)%Z) ann up.
(** [if num_alpha != 0 or num_beta != 0: continue; yield t]. *)
Definition emit (cre ann t : list nat) : list (list nat) :=
  let '(num_alpha, num_beta) := count_spin cre ann in
  if negb (Z.eqb num_alpha 0) || negb (Z.eqb num_beta 0) then [] else [t].

(** Lines 5-21. *)
Definition iterate_t1_sa (occ unocc : list nat) : list (list nat) :=
  flat_map (fun i => flat_map (fun a => [[a; i]]) unocc) occ.

(** The tests of lines 47-58: the cases yielded for one index pattern. *)
Definition t2_sa_cases (a i b j : nat) : list nat :=
  (if (i =? j) && (a =? b) then [1] else if i =? j then [2] else if a =? b then [3] else [4])
  ++ (if (i =? j) || (a =? b) then [] else [5]).
(** Lines 24-58: [(a, i, b, j)] with the case number. *)
Definition iterate_t2_sa (occ unocc : list nat) : list (list nat * nat) :=
  loop_from occ 0 (fun idx_i i => loop_from occ idx_i (fun _ j =>
  loop_from unocc 0 (fun idx_a a => loop_from unocc idx_a (fun _ b =>
    map (fun case => ([a; i; b; j], case)) (t2_sa_cases a i b j))))).
(** Lines 61-75. *)
Definition iterate_t1_sa_generalized (num_orbs : nat) : list (list nat) :=
  loop_range 0 num_orbs (fun i => loop_range (i + 1) num_orbs (fun a => [[a; i]])).
(** Lines 78-110. *)
Definition iterate_t2_sa_generalized (num_orbs : nat) : list (list nat * nat) :=
  loop_range 0 num_orbs (fun i => loop_range i num_orbs (fun j =>
  loop_range (Nat.max i j + 1) num_orbs (fun a => loop_range a num_orbs (fun b =>
    map (fun case => ([a; i; b; j], case)) (t2_sa_cases a i b j))))).
(** Lines 113-140. *)
Definition iterate_t1 (occ unocc : list nat) : list (list nat) :=
  flat_map (fun a => flat_map (fun i => emit [a] [i] [a; i]) occ) unocc.
(** Lines 143-168. *)
Definition iterate_t1_generalized (num_spin_orbs : nat) : list (list nat) :=
  loop_range 0 num_spin_orbs (fun i => loop_range (i + 1) num_spin_orbs (fun a => emit [a] [i] [a; i])).
(** Lines 171-208. *)
Definition iterate_t2 (occ unocc : list nat) : list (list nat) :=
  loop_from unocc 0 (fun ia a => loop_from unocc (ia + 1) (fun _ b =>
  loop_from occ 0 (fun ii i => loop_from occ (ii + 1) (fun _ j =>
    emit [a; b] [i; j] [a; i; b; j])))).
(** Lines 211-246. *)
Definition iterate_t2_generalized (num_spin_orbs : nat) : list (list nat) :=
  loop_range 0 num_spin_orbs (fun i => loop_range i num_spin_orbs (fun j =>
  loop_range (Nat.max i j + 1) num_spin_orbs (fun a => loop_range a num_spin_orbs (fun b =>
    emit [a; b] [i; j] [a; i; b; j])))).
(** Lines 249-296. *)
Definition iterate_t3 (occ unocc : list nat) : list (list nat) :=
  loop_from unocc 0 (fun ia a => loop_from unocc (ia + 1) (fun ib b => loop_from unocc (ib + 1) (fun _ c =>
  loop_from occ 0 (fun ii i => loop_from occ (ii + 1) (fun ij j => loop_from occ (ij + 1) (fun _ k =>
    emit [a; b; c] [i; j; k] [a; i; b; j; c; k])))))).
(** Lines 299-356. *)
Definition iterate_t4 (occ unocc : list nat) : list (list nat) :=
  loop_from unocc 0 (fun ia a => loop_from unocc (ia + 1) (fun ib b => loop_from unocc (ib + 1) (fun ic c =>
  loop_from unocc (ic + 1) (fun _ d =>
  loop_from occ 0 (fun ii i => loop_from occ (ii + 1) (fun ij j => loop_from occ (ij + 1) (fun ik k =>
  loop_from occ (ik + 1) (fun _ l =>
    emit [a; b; c; d] [i; j; k; l] [a; i; b; j; c; k; d; l])))))))).
(** Lines 359-426. *)
Definition iterate_t5 (occ unocc : list nat) : list (list nat) :=
  loop_from unocc 0 (fun ia a => loop_from unocc (ia + 1) (fun ib b => loop_from unocc (ib + 1) (fun ic c =>
  loop_from unocc (ic + 1) (fun id d => loop_from unocc (id + 1) (fun _ e =>
  loop_from occ 0 (fun ii i => loop_from occ (ii + 1) (fun ij j => loop_from occ (ij + 1) (fun ik k =>
  loop_from occ (ik + 1) (fun il l => loop_from occ (il + 1) (fun _ m =>
    emit [a; b; c; d; e] [i; j; k; l; m] [a; i; b; j; c; k; d; l; e; m])))))))))).
(** Lines 429-510. *)
Definition iterate_t6 (occ unocc : list nat) : list (list nat) :=
  loop_from unocc 0 (fun ia a => loop_from unocc (ia + 1) (fun ib b => loop_from unocc (ib + 1) (fun ic c =>
  loop_from unocc (ic + 1) (fun id d => loop_from unocc (id + 1) (fun ie e => loop_from unocc (ie + 1) (fun _ f =>
  loop_from occ 0 (fun ii i => loop_from occ (ii + 1) (fun ij j => loop_from occ (ij + 1) (fun ik k =>
  loop_from occ (ik + 1) (fun il l => loop_from occ (il + 1) (fun im m => loop_from occ (im + 1) (fun _ n =>
    emit [a; b; c; d; e; f] [i; j; k; l; m; n] [a; i; b; j; c; k; d; l; e; m; f; n])))))))))))).
(** Lines 513-528. *)
Definition iterate_pair_t2 (occ unocc : list nat) : list (list nat) :=
  flat_map (fun i => flat_map (fun a => [[2 * a; 2 * i; 2 * a + 1; 2 * i + 1]]) unocc) occ.
(** Lines 531-544. *)
Definition iterate_pair_t2_generalized (num_orbs : nat) : list (list nat) :=
  loop_range 0 num_orbs (fun i => loop_range (i + 1) num_orbs (fun a => [[2 * a; 2 * i; 2 * a + 1; 2 * i + 1]])).

(** ** UccStructure, lines 547-639 *)
Record ucc_struct := { u_idx : list (list nat); u_type : list gtype; u_n : nat }.
Definition ucc_empty : ucc_struct := {| u_idx := []; u_type := []; u_n := 0 |}.

(** Unpacking [(a, i, b, j, ...)] and appending [(i, j, ..., a, b, ...)]: the
    annihilation indices first (lines 564, 576, 597, 611, 625, 637). *)
Fixpoint odds (l : list nat) : list nat := match l with _ :: i :: r => i :: odds r | _ => [] end.
Fixpoint evens (l : list nat) : list nat := match l with a :: _ :: r => a :: evens r | _ => [] end.
Definition occ_first (t : list nat) : list nat := odds t ++ evens t.

(** ["sa_double_" ++ op_type]. *)
Definition sa_double_type (case : nat) : gtype :=
  match case with 1 => SaDouble1 | 2 => SaDouble2 | 3 => SaDouble3 | 4 => SaDouble4 | 5 => SaDouble5 | _ => Other end.

Definition u_push (ty : gtype) (idx : list nat) (s : ucc_struct) : ucc_struct :=
  {| u_idx := u_idx s ++ [idx]; u_type := u_type s ++ [ty]; u_n := u_n s + 1 |}.
Definition u_add (ty : gtype) (ts : list (list nat)) (s : ucc_struct) : ucc_struct :=
  fold_left (fun s t => u_push ty (occ_first t) s) ts s.
(** Lines 556-566. *)
Definition add_sa_singles occ unocc := u_add SaSingle (iterate_t1_sa occ unocc).
(** Lines 568-587. *)
Definition add_sa_doubles occ unocc (s : ucc_struct) : ucc_struct :=
  fold_left (fun s (tc : list nat * nat) => u_push (sa_double_type (snd tc)) (occ_first (fst tc)) s) (iterate_t2_sa occ unocc) s.
(** Lines 589-639. *)
Definition add_triples occ unocc := u_add Triple (iterate_t3 occ unocc).
Definition add_quadruples occ unocc := u_add Quadruple (iterate_t4 occ unocc).
Definition add_quintuples occ unocc := u_add Quintuple (iterate_t5 occ unocc).
Definition add_sextuples occ unocc := u_add Sextuple (iterate_t6 occ unocc).

(** ** UpsStructure, lines 642-1073 *)

(** The name [f"p{n:09d}"]: the decimal digits, padded with zeros to nine
    places (the leading letter is left out). *)
Fixpoint digits_loop (fuel n : nat) : list nat :=
  match fuel with
  | O => []
  | S f => if n <? 10 then [n] else digits_loop f (n / 10) ++ [n mod 10]
  end.
Definition digits (n : nat) : list nat := digits_loop (S n) n.
Definition pname (n : nat) : list nat := repeat 0 (9 - List.length (digits n)) ++ digits n.

Record ups_struct := {
  s_idx : list (list nat); s_type : list gtype; s_n : nat;
  s_R : list (list nat * nat);   (* grad_param_R: an assignment appends, the last entry of a key counts *)
  s_names : list (list nat)
}.
Definition ups_empty : ups_struct := {| s_idx := []; s_type := []; s_n := 0; s_R := []; s_names := [] |}.

(** One block [type.append; indices.append; grad_param_R[...] = R;
    param_names.append; n_params += 1]; [None] is the SAD block (lines 947-953),
    which does not touch grad_param_R. *)
Definition push (ty : gtype) (idx : list nat) (r : option nat) (s : ups_struct) : ups_struct :=
  {| s_idx := s_idx s ++ [idx]; s_type := s_type s ++ [ty]; s_n := s_n s + 1;
     s_R := s_R s ++ match r with Some r => [(pname (s_n s), r)] | None => [] end;
     s_names := s_names s ++ [pname (s_n s)] |}.

(** Option dictionary: Python integers and booleans ([True] is 1). *)
Definition options := list (string * Z).
Fixpoint opt_get (k : string) (o : options) : option Z :=
  match o with [] => None | (k', v) :: r => if String.eqb k k' then Some v else opt_get k r end.
Definition opt_def (k : string) (o : options) : Z := match opt_get k o with Some v => v | None => 0%Z end.
Definition truthy (v : Z) : bool := negb (Z.eqb v 0).
Definition known (valid : list string) (o : options) : bool :=
  forallb (fun kv : string * Z => existsb (String.eqb (fst kv)) valid) o.

(** [range(start, stop, 2)]. *)
Fixpoint range2_loop (fuel start stop : nat) : list nat :=
  match fuel with O => [] | S f => if start <? stop then start :: range2_loop f (start + 2) stop else [] end.
Definition range2 (start stop : nat) : list nat := range2_loop stop start stop.

(** Body of both brick-wall columns (lines 695-721 and 722-745); [skip] is the
    condition of the [continue]. *)
Definition brick (do_tups do_qnp skip : bool) (s : ups_struct) (p : nat) : ups_struct :=
  let s := if do_tups then push SaSingle [p; p + 1] (Some 4) s else s in
  let s := push Double [2 * p; 2 * p + 1; 2 * p + 2; 2 * p + 3] (Some 2) s in
  if skip then s
  else if do_tups || do_qnp then push SaSingle [p; p + 1] (Some 4) s else s.

(** [create_tiled], lines 653-745. *)
Definition create_tiled (num_active_orbs : nat) (o : options) (s : ups_struct) : Res ups_struct :=
  if negb (known ["n_layers"; "do_qnp"; "skip_last_singles"; "do_tups"; "do_pp"]%string o) then Raise ValueError else
  match opt_get "n_layers" o with
  | None => Raise ValueError
  | Some n_layers =>
      let do_tups := opt_def "do_tups" o in
      let do_qnp := opt_def "do_qnp" o in
      if Z.eqb (do_tups + do_qnp) 0 then Raise ValueError
      else if Z.ltb 1 (do_tups + do_qnp) then Raise ValueError
      else
        let skip := truthy (opt_def "skip_last_singles" o) in
        Ok (fold_left (fun s n =>
              let last := (Z.of_nat n + 1 =? n_layers)%Z && skip in
              let s := fold_left (brick (truthy do_tups) (truthy do_qnp) (last && (num_active_orbs =? 2)))
                                 (range2 0 (num_active_orbs - 1)) s in
              fold_left (brick (truthy do_tups) (truthy do_qnp) last) (range2 1 (num_active_orbs - 1)) s)
            (seq 0 (Z.to_nat n_layers)) s)
  end.

Definition push_all (ty : gtype) (r : option nat) (ts : list (list nat)) (s : ups_struct) : ups_struct :=
  fold_left (fun s t => push ty (occ_first t) r s) ts s.
Definition push_sad (ts : list (list nat * nat)) (s : ups_struct) : ups_struct :=
  fold_left (fun s (tc : list nat * nat) => push (sa_double_type (snd tc)) (occ_first (fst tc)) None s) ts s.
Definition when {A} (b : bool) (f : A -> A) (x : A) : A := if b then f x else x.

(** [create_fUCC], lines 747-953. *)
Definition create_fUCC (occ unocc occ_spin unocc_spin : list nat) (num_orbs : nat) (o : options) (s : ups_struct) : Res ups_struct :=
  if negb (known ["n_layers"; "S"; "D"; "SAGS"; "pD"; "GpD"; "SAS"; "T"; "Q"; "5"; "6"; "SAD"; "GS"; "GD"]%string o) then Raise ValueError else
  match opt_get "n_layers" o with
  | None => Raise ValueError
  | Some n_layers =>
      let f k := opt_def k o in
      if negb (existsb (fun k => Z.eqb (f k) 1)
                 ["S"; "SAS"; "SAGS"; "D"; "pD"; "GpD"; "T"; "Q"; "5"; "6"; "SAD"; "GS"; "GD"]%string) then Raise ValueError
      else
        let d k := truthy (f k) in
        Ok (Nat.iter (Z.to_nat n_layers) (fun s =>
              when (d "SAD"%string) (push_sad (iterate_t2_sa occ unocc))
             (when (d "6"%string) (push_all Sextuple (Some 2) (iterate_t6 occ_spin unocc_spin))
             (when (d "5"%string) (push_all Quintuple (Some 2) (iterate_t5 occ_spin unocc_spin))
             (when (d "Q"%string) (push_all Quadruple (Some 2) (iterate_t4 occ_spin unocc_spin))
             (when (d "T"%string) (push_all Triple (Some 2) (iterate_t3 occ_spin unocc_spin))
             (when (d "GpD"%string) (push_all Double (Some 2) (iterate_pair_t2_generalized num_orbs))
             (when (d "pD"%string) (push_all Double (Some 2) (iterate_pair_t2 occ unocc))
             (when (d "GD"%string) (push_all Double (Some 2) (iterate_t2_generalized (2 * num_orbs)))
             (when (d "D"%string) (push_all Double (Some 2) (iterate_t2 occ_spin unocc_spin))
             (when (d "SAGS"%string) (push_all SaSingle (Some 4) (iterate_t1_sa_generalized num_orbs))
             (when (d "SAS"%string) (push_all SaSingle (Some 4) (iterate_t1_sa occ unocc))
             (when (d "GS"%string) (push_all Single (Some 2) (iterate_t1_generalized (2 * num_orbs)))
             (when (d "S"%string) (push_all Single (Some 2) (iterate_t1 occ_spin unocc_spin)) s)))))))))))))
           s)
  end.

(** One SDS block of the D branch (lines 1018-1039). *)
Definition sds_D (s : ups_struct) (t : list nat) : ups_struct :=
  match t with
  | [a; i; b; j] =>
      let same := (i mod 2 =? a mod 2) in
      let s := push Single (if same then [i; a] else [i; b]) (Some 2) s in
      let s := push Double [i; j; a; b] (Some 2) s in
      push Single (if same then [j; b] else [j; a]) (Some 2) s
  | _ => s
  end.
(** Pair blocks: lines 1041-1056 (the first entry is typed "double") and
    1058-1073 (typed "sa_single"). *)
Definition sds_pair (first : gtype) (s : ups_struct) (t : list nat) : ups_struct :=
  match t with
  | [a; i; b; j] =>
      let s := push first [i / 2; a / 2] (Some 4) s in
      let s := push Double [i; j; a; b] (Some 2) s in
      push SaSingle [i / 2; a / 2] (Some 4) s
  | _ => s
  end.

(** [create_SDSfUCC], lines 955-1073. *)
Definition create_SDSfUCC (occ unocc occ_spin unocc_spin : list nat) (num_orbs : nat) (o : options) (s : ups_struct) : Res ups_struct :=
  if negb (known ["n_layers"; "D"; "pD"; "GpD"]%string o) then Raise ValueError else
  match opt_get "n_layers" o with
  | None => Raise ValueError
  | Some n_layers =>
      let f k := opt_def k o in
      if negb (existsb (fun k => Z.eqb (f k) 1) ["D"; "pD"; "GpD"]%string) then Raise ValueError
      else
        let d k := truthy (f k) in
        Ok (Nat.iter (Z.to_nat n_layers) (fun s =>
              when (d "GpD"%string) (fun s => fold_left (sds_pair SaSingle) (iterate_pair_t2_generalized num_orbs) s)
             (when (d "pD"%string) (fun s => fold_left (sds_pair Double) (iterate_pair_t2 occ unocc) s)
             (when (d "D"%string) (fun s => fold_left sds_D (iterate_t2 occ_spin unocc_spin) s) s)))
           s)
  end.
