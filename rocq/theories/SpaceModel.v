(** Model of the orbital-space bookkeeping in the constructors of the wave-function
    classes: slowquant/unitary_coupled_cluster/ups_wavefunction.py, lines 91-262, the same
    in ucc_wavefunction.py, lines 88-197, and sa_ups_wavefunction.py, lines 100-210 (which
    omits the list without active-active pairs). *)
From Coq Require Import List Bool ZArith Lia.
From Verif Require Import Base.
Import ListNotations.
Local Open Scope Z_scope.

(** [range(a, b)] *)
Definition zrange (a b : Z) : list Z := map (fun i => a + Z.of_nat i) (seq 0 (Z.to_nat (b - a))).
(** [x in l] *)
Definition zmem (x : Z) (l : list Z) : bool := existsb (Z.eqb x) l.

(** Lines 91-99. *)
Definition active_space (num_elec cas0 cas1 : Z) : list Z :=
  let occ := zrange (num_elec - cas0) num_elec in
  let orbital_counter := Z.of_nat (length occ) in
  occ ++ zrange num_elec (num_elec + 2 * cas1 - orbital_counter).

Record spin_spaces := {
  inactive_spin : list Z; active_spin : list Z; virtual_spin : list Z;
  active_occ_spin : list Z; active_unocc_spin : list Z;
  num_active_elec : Z; num_active_spin_orbs : Z; num_inactive_spin_orbs : Z; num_virtual_spin_orbs : Z }.

(** Lines 100-107: one occupied index. *)
Definition step_occ (space : list Z) (s : spin_spaces) (i : Z) : spin_spaces :=
  if zmem i space
  then {| inactive_spin := inactive_spin s; active_spin := active_spin s ++ [i]; virtual_spin := virtual_spin s;
          active_occ_spin := active_occ_spin s ++ [i]; active_unocc_spin := active_unocc_spin s;
          num_active_elec := num_active_elec s + 1; num_active_spin_orbs := num_active_spin_orbs s + 1;
          num_inactive_spin_orbs := num_inactive_spin_orbs s; num_virtual_spin_orbs := num_virtual_spin_orbs s |}
  else {| inactive_spin := inactive_spin s ++ [i]; active_spin := active_spin s; virtual_spin := virtual_spin s;
          active_occ_spin := active_occ_spin s; active_unocc_spin := active_unocc_spin s;
          num_active_elec := num_active_elec s; num_active_spin_orbs := num_active_spin_orbs s;
          num_inactive_spin_orbs := num_inactive_spin_orbs s + 1; num_virtual_spin_orbs := num_virtual_spin_orbs s |}.
(** Lines 108-115: one unoccupied index. *)
Definition step_unocc (space : list Z) (s : spin_spaces) (i : Z) : spin_spaces :=
  if zmem i space
  then {| inactive_spin := inactive_spin s; active_spin := active_spin s ++ [i]; virtual_spin := virtual_spin s;
          active_occ_spin := active_occ_spin s; active_unocc_spin := active_unocc_spin s ++ [i];
          num_active_elec := num_active_elec s; num_active_spin_orbs := num_active_spin_orbs s + 1;
          num_inactive_spin_orbs := num_inactive_spin_orbs s; num_virtual_spin_orbs := num_virtual_spin_orbs s |}
  else {| inactive_spin := inactive_spin s; active_spin := active_spin s; virtual_spin := virtual_spin s ++ [i];
          active_occ_spin := active_occ_spin s; active_unocc_spin := active_unocc_spin s;
          num_active_elec := num_active_elec s; num_active_spin_orbs := num_active_spin_orbs s;
          num_inactive_spin_orbs := num_inactive_spin_orbs s; num_virtual_spin_orbs := num_virtual_spin_orbs s + 1 |}.
Definition empty_spaces : spin_spaces :=
  {| inactive_spin := []; active_spin := []; virtual_spin := []; active_occ_spin := []; active_unocc_spin := [];
     num_active_elec := 0; num_active_spin_orbs := 0; num_inactive_spin_orbs := 0; num_virtual_spin_orbs := 0 |}.
(** Lines 91-117.  [check] is the test of line 116, absent in ucc_wavefunction.py. *)
Definition spin_partition (check : bool) (num_elec num_spin_orbs cas0 cas1 : Z) : Res spin_spaces :=
  let space := active_space num_elec cas0 cas1 in
  let s := fold_left (step_occ space) (zrange 0 num_elec) empty_spaces in
  let s := fold_left (step_unocc space) (zrange num_elec num_spin_orbs) s in
  if check && negb (num_active_elec s mod 2 =? 0) then Raise ValueError else Ok s.

(** Lines 124-143: [if idx // 2 not in l: l.append(idx // 2)]. *)
Definition spatial (spin : list Z) : list Z :=
  fold_left (fun l idx => if zmem (idx / 2) l then l else l ++ [idx / 2]) spin [].

(** Lines 145-161: [np.min] and the shift. *)
Definition zmin (l : list Z) : Z := match l with [] => 0 | a :: t => fold_left Z.min t a end.
Definition shifted (all l : list Z) : list Z := match all with [] => [] | _ => map (fun i => i - zmin all) l end.

(** Lines 163-194: the rotation lists. *)
Record kappas := { kappa_idx : list (Z * Z); kappa_noaa : list (Z * Z); kappa_noaa_dagger : list (Z * Z); kappa_redundant : list (Z * Z) }.
Definition kappa_step (ina act vir : list Z) (include : bool) (k : kappas) (pq : Z * Z) : kappas :=
  let (p, q) := pq in
  let redundant := {| kappa_idx := kappa_idx k; kappa_noaa := kappa_noaa k; kappa_noaa_dagger := kappa_noaa_dagger k; kappa_redundant := kappa_redundant k ++ [(p, q)] |} in
  if zmem p ina && zmem q ina then redundant
  else if zmem p vir && zmem q vir then redundant
  else if negb include && (zmem p act && zmem q act) then redundant
  else if negb (zmem p act && zmem q act)
  then {| kappa_idx := kappa_idx k ++ [(p, q)]; kappa_noaa := kappa_noaa k ++ [(p, q)]; kappa_noaa_dagger := kappa_noaa_dagger k ++ [(q, p)]; kappa_redundant := kappa_redundant k |}
  else {| kappa_idx := kappa_idx k ++ [(p, q)]; kappa_noaa := kappa_noaa k; kappa_noaa_dagger := kappa_noaa_dagger k; kappa_redundant := kappa_redundant k |}.
(** [for p in range(0, n): for q in range(p + 1, n)] *)
Definition pairs (n : Z) : list (Z * Z) := flat_map (fun p => map (pair p) (zrange (p + 1) n)) (zrange 0 n).
Definition kappa_lists (ina act vir : list Z) (include : bool) (num_orbs : Z) : kappas :=
  fold_left (kappa_step ina act vir include) (pairs num_orbs) {| kappa_idx := []; kappa_noaa := []; kappa_noaa_dagger := []; kappa_redundant := [] |}.
(** Lines 196-204. *)
Definition kappa_hf_like (ina vir occ unocc : list Z) (num_orbs : Z) : list (Z * Z) :=
  fold_left (fun (l : list (Z * Z)) (pq : Z * Z) => let (p, q) := pq in
    if zmem p ina && zmem q vir then l ++ [(p, q)]
    else if zmem p ina && zmem q unocc then l ++ [(p, q)]
    else if zmem p occ && zmem q vir then l ++ [(p, q)]
    else l) (pairs num_orbs) [].

(** The whole block. *)
Record spaces := {
  sp_spin : spin_spaces; inactive_idx : list Z; active_idx : list Z; virtual_idx : list Z; active_occ_idx : list Z; active_unocc_idx : list Z;
  num_inactive_orbs : Z; num_active_orbs : Z; num_virtual_orbs : Z; num_active_elec_alpha : Z; num_active_elec_beta : Z;
  active_idx_shifted : list Z; active_occ_idx_shifted : list Z; active_unocc_idx_shifted : list Z;
  active_spin_idx_shifted : list Z; active_occ_spin_idx_shifted : list Z; active_unocc_spin_idx_shifted : list Z;
  sp_kappas : kappas; sp_hf_like : list (Z * Z) }.
Definition init_spaces (check include : bool) (num_elec num_orbs cas0 cas1 : Z) : Res spaces :=
  bind (spin_partition check num_elec (2 * num_orbs) cas0 cas1) (fun s =>
  let ina := spatial (inactive_spin s) in
  let act := spatial (active_spin s) in
  let vir := spatial (virtual_spin s) in
  let occ := spatial (active_occ_spin s) in
  let unocc := spatial (active_unocc_spin s) in
  Ok {| sp_spin := s; inactive_idx := ina; active_idx := act; virtual_idx := vir; active_occ_idx := occ; active_unocc_idx := unocc;
        num_inactive_orbs := num_inactive_spin_orbs s / 2; num_active_orbs := num_active_spin_orbs s / 2; num_virtual_orbs := num_virtual_spin_orbs s / 2;
        num_active_elec_alpha := num_active_elec s / 2; num_active_elec_beta := num_active_elec s / 2;
        active_idx_shifted := shifted act act; active_occ_idx_shifted := shifted act occ; active_unocc_idx_shifted := shifted act unocc;
        active_spin_idx_shifted := shifted (active_spin s) (active_spin s); active_occ_spin_idx_shifted := shifted (active_spin s) (active_occ_spin s);
        active_unocc_spin_idx_shifted := shifted (active_spin s) (active_unocc_spin s);
        sp_kappas := kappa_lists ina act vir include num_orbs; sp_hf_like := kappa_hf_like ina vir occ unocc num_orbs |}).

(** Lines 217, 226-244: the determinants, as lists of bits ("1" = [true]). *)
Definition hf_det (num_elec num_spin : Z) : list bool := repeat true (Z.to_nat num_elec) ++ repeat false (Z.to_nat (num_spin - num_elec)).
(** The [while] loop; [rem] is [num_active_spin_orbs - spin_orb]. *)
Fixpoint pp_loop (fuel : nat) (elec rem : Z) : Res (list bool) :=
  if 0 <? rem then
    match fuel with
    | O => Hang
    | S k =>
        if (2 <=? elec) && (4 <=? rem) && (elec <=? rem - 2) then bind (pp_loop k (elec - 2) (rem - 4)) (fun d => Ok ([true; true; false; false] ++ d))
        else if elec =? 0 then bind (pp_loop k elec (rem - 1)) (fun d => Ok (false :: d))
        else bind (pp_loop k (elec - 1) (rem - 1)) (fun d => Ok (true :: d))
    end
  else Ok [].
(** Line 246. *)
Definition pp_det (fuel : nat) (num_elec num_spin : Z) : Res (list bool) :=
  bind (pp_loop fuel num_elec num_spin) (fun d =>
  if negb (Z.of_nat (length d) =? num_spin) || negb (Z.of_nat (count_occ bool_dec d true) =? num_elec) then Raise ValueError else Ok d).
(** Lines 250-253. *)
Definition holes (h p : list bool) : list Z :=
  map fst (filter (fun x : Z * (bool * bool) => fst (snd x) && negb (snd (snd x))) (combine (zrange 0 (Z.of_nat (length h))) (combine h p))).
Definition parts (h p : list bool) : list Z :=
  map fst (filter (fun x : Z * (bool * bool) => negb (fst (snd x)) && snd (snd x)) (combine (zrange 0 (Z.of_nat (length h))) (combine h p))).
(** [sorted(set(i // 2 + num_inactive_orbs for i in l))]; [l] is increasing, so the
    first occurrences are already sorted. *)
Definition spatial_shift (nin : Z) (l : list Z) : list Z := map (fun i => i + nin) (spatial l).
(** Line 255: [m[:, hole + part] = m[:, part + hole]], on the list of columns.
    Simplification: indices are in range and non-negative. *)
Definition set_cols {A} (d : A) (cols : list A) (to from : list Z) : list A :=
  fold_left (fun acc tf => firstn (Z.to_nat (fst tf)) acc ++ nth (Z.to_nat (snd tf)) cols d :: skipn (S (Z.to_nat (fst tf))) acc) (combine to from) cols.
Definition pp_mo_coeffs {A} (d : A) (nin : Z) (h p : list bool) (cols : list A) : list A :=
  let hole := spatial_shift nin (holes h p) in
  let part := spatial_shift nin (parts h p) in
  set_cols d cols (hole ++ part) (part ++ hole).
