(** Model of slowquant/molecularintegrals (integralfunctions.py,
    multipole.py, kineticenergy.py, nuclearattraction.py, electronrepulsion.py,
    integralclass.py) and of the shells of slowquant/molecule/moleculeclass.py
    and moleculefunctions.py.

    Floats are real numbers (no rounding, no overflow).  A numpy array is a
    function from index lists to numbers.  The compiled functions do not check
    bounds: [zeros dims mem] is an array of zeros of the given dimensions, and
    [mem] is whatever a read outside of it would return; the theorems hold for
    every [mem].  Exponents are positive in all uses, so that the powers with
    fractional exponents are [Rpower] or [sqrt]. *)
From Coq Require Import List Bool Arith Reals.
Import ListNotations.
Local Open Scope R_scope.

Definition tbl := list nat -> R.
(** [T[k] = v] *)
Definition tset (k : list nat) (v : R) (T : tbl) : tbl := fun k' => if list_eq_dec Nat.eq_dec k k' then v else T k'.
Fixpoint insideb (k dims : list nat) : bool :=
  match k, dims with
  | [], [] => true
  | i :: k', n :: dims' => Nat.ltb i n && insideb k' dims'
  | _, _ => false
  end.
(** [np.zeros(dims)] *)
Definition zeros (dims : list nat) (mem : tbl) : tbl := fun k => if insideb k dims then 0 else mem k.
(** Nested loops [for i in range(n1): for j in range(n2): ...], as the list of
    the index tuples in the order visited. *)
Fixpoint box (dims : list nat) : list (list nat) :=
  match dims with
  | [] => [[]]
  | n :: dims' => flat_map (fun i => map (cons i) (box dims')) (seq 0 n)
  end.
(** The loops [T[k] = value(T, k)]. *)
Definition fill (value : tbl -> list nat -> R) (keys : list (list nat)) (T : tbl) : tbl :=
  fold_left (fun T k => tset k (value T k) T) keys T.
(** [value += x] over [range(n)]. *)
Fixpoint sm (n : nat) (F : nat -> R) : R := match n with O => 0 | S n' => sm n' F + F n' end.

(** ** integralfunctions.py *)
(** The body of the loops of [expansion_coefficients], lines 53-70. *)
Definition e_value (p X_PA X_PB E00 : R) (e : tbl) (k : list nat) : R :=
  match k with
  | [i; j; t] =>
      if Nat.eqb i 0 && Nat.eqb j 0 && Nat.eqb t 0 then E00
      else if Nat.eqb i 0 then
        let v := 0 in
        let v := if Nat.ltb 0 j && Nat.ltb 0 t then v + 1 / (2 * p) * e [i; (j - 1)%nat; (t - 1)%nat] else v in
        let v := if Nat.ltb 0 j then v + X_PB * e [i; (j - 1)%nat; t] else v in
        if Nat.ltb 0 j && Nat.leb (t + 1) (i + j) then v + INR (t + 1) * e [i; (j - 1)%nat; (t + 1)%nat] else v
      else
        let v := 0 in
        let v := if Nat.ltb 0 i && Nat.ltb 0 t then v + 1 / (2 * p) * e [(i - 1)%nat; j; (t - 1)%nat] else v in
        let v := if Nat.ltb 0 i then v + X_PA * e [(i - 1)%nat; j; t] else v in
        if Nat.ltb 0 i && Nat.leb (t + 1) (i + j) then v + INR (t + 1) * e [(i - 1)%nat; j; (t + 1)%nat] else v
  | _ => 0
  end.
(** [expansion_coefficients], lines 10-71. *)
Definition expansion_coefficients (mem : tbl) (A_x B_x a b : R) (la lb : nat) : tbl :=
  let X_AB := A_x - B_x in
  let p := a + b in
  let mu := a * b / (a + b) in
  let P_x := (a * A_x + b * B_x) / p in
  let X_PA := P_x - A_x in
  let X_PB := P_x - B_x in
  let dims := [S la; S lb; S (la + lb)] in
  fill (e_value p X_PA X_PB (exp (- mu * X_AB ^ 2))) (box dims) (zeros dims mem).

(** The body of the loops of [hermite_coulomb_integral], lines 129-147; [boys]
    stands for [boys_function] (lines 75-97, modelled in BoysModel.v). *)
Definition r_value (boys : nat -> R -> R) (p X Y Z : R) (r : tbl) (k : list nat) : R :=
  match k with
  | [t; u; v; n] =>
      if Nat.eqb t 0 && Nat.eqb u 0 && Nat.eqb v 0 then
        (-2 * p) ^ n * boys n (p * sqrt (X ^ 2 + Y ^ 2 + Z ^ 2) ^ 2)
      else if Nat.eqb t 0 && Nat.eqb u 0 then
        let x := 0 in
        let x := if Nat.ltb 1 v then x + INR (v - 1) * r [t; u; (v - 2)%nat; (n + 1)%nat] else x in
        if Nat.ltb 0 v then x + Z * r [t; u; (v - 1)%nat; (n + 1)%nat] else x
      else if Nat.eqb t 0 then
        let x := 0 in
        let x := if Nat.ltb 1 u then x + INR (u - 1) * r [t; (u - 2)%nat; v; (n + 1)%nat] else x in
        if Nat.ltb 0 u then x + Y * r [t; (u - 1)%nat; v; (n + 1)%nat] else x
      else
        let x := 0 in
        let x := if Nat.ltb 1 t then x + INR (t - 1) * r [(t - 2)%nat; u; v; (n + 1)%nat] else x in
        if Nat.ltb 0 t then x + X * r [(t - 1)%nat; u; v; (n + 1)%nat] else x
  | _ => 0
  end.
(** [hermite_coulomb_integral], lines 101-148: the loop over [n] stops one
    below the last entry of the table; the slice [n = 0] is returned. *)
Definition hermite_coulomb_integral (boys : nat -> R -> R) (mem : tbl) (lx ly lz : nat) (p X Y Z : R) : tbl :=
  let T := fill (r_value boys p X Y Z) (box [S lx; S ly; S lz; S (lx + ly + lz)])
                (zeros [S lx; S ly; S lz; S (S (lx + ly + lz))] mem) in
  fun k => T (k ++ [0%nat]).

(** The body of the loops of [hermite_multipole_integral], lines 171-182. *)
Definition m_value (p X_PC : R) (m : tbl) (k : list nat) : R :=
  match k with
  | [e; t] =>
      if Nat.eqb e 0 && Nat.eqb t 0 then sqrt (PI / p)
      else if Nat.eqb e 0 then 0
      else
        let v := 0 in
        let v := if Nat.ltb 0 t then v + INR t * m [(e - 1)%nat; (t - 1)%nat] else v in
        let v := v + X_PC * m [(e - 1)%nat; t] in
        if Nat.leb (t + 1) (e - 1) then v + 1 / (2 * p) * m [(e - 1)%nat; (t + 1)%nat] else v
  | _ => 0
  end.
(** [hermite_multipole_integral], lines 151-183: [t] runs up to [e]. *)
Definition hermite_multipole_integral (mem : tbl) (A_x B_x C_x a b : R) (order : nat) : tbl :=
  let p := a + b in
  let P_x := (a * A_x + b * B_x) / p in
  fill (m_value p (P_x - C_x)) (flat_map (fun e => map (fun t => [e; t]) (seq 0 (e + 1))) (seq 0 (order + 1)))
       (zeros [S order; S order] mem).

(** ** moleculefunctions.py *)
(** [factorial2], lines 8-26, for an integer (possibly negative) argument given
    as the difference [n - 1] or [2n - 1]: here for [2 l - 1], the only use:
    [range(0, (2 l) // 2)] has [l] elements, none for [l = 0]. *)
Definition factorial2_odd (l : nat) : R := fold_left (fun out i => out * (2 * INR l - 1 - 2 * INR i)) (seq 0 l) 1.
Definition ang := (nat * nat * nat)%type.
(** [primitive_normalization], lines 29-47. *)
Definition primitive_normalization (exponent : R) (m : ang) : R :=
  let '(l, m, n) := m in
  Rpower (2 / PI) (3 / 4) * (2 ^ (l + m + n) * Rpower exponent ((2 * INR l + 2 * INR m + 2 * INR n + 3) / 4))
  / sqrt (factorial2_odd l * factorial2_odd m * factorial2_odd n).
(** [contracted_normalization], lines 50-88. *)
Definition contracted_normalization (exps coefs : list R) (m : ang) : R :=
  let '(x, y, z) := m in
  let s := sm (length exps) (fun i => sm (length exps) (fun j =>
             nth i coefs 0 * nth j coefs 0 / Rpower (nth i exps 0 + nth j exps 0) (INR (x + y + z) + 3 / 2))) in
  Rpower (s * (Rpower PI (3 / 2) * factorial2_odd x * factorial2_odd y * factorial2_odd z / 2 ^ (x + y + z))) (- (1 / 2)).
(** [primitive_gauss], lines 91-111. *)
Definition primitive_gauss (x y z cx cy cz exponent : R) (m : ang) : R :=
  let '(i, j, k) := m in
  (x - cx) ^ i * (y - cy) ^ j * (z - cz) ^ k * exp (- exponent * ((x - cx) ^ 2 + (y - cy) ^ 2 + (z - cz) ^ 2)).

(** ** moleculeclass.py *)
Record v3 := { vx : R; vy : R; vz : R }.
(** [Shell], lines 269-301.  [s_bf] is [bf_idx[0]]; [bf_idx] is
    [range(s_bf, s_bf + len(angular_moments))]. *)
Record shell := { s_center : v3; s_exps : list R; s_contr : list R; s_norm : nat -> nat -> R; s_ang : list ang; s_bf : nat }.
Definition nbf (s : shell) : nat := length (s_ang s).
Definition angm (s : shell) (b : nat) : ang := nth b (s_ang s) (0, 0, 0)%nat.
Definition ex (s : shell) (i : nat) : R := nth i (s_exps s) 0.
Definition cc (s : shell) (i : nat) : R := nth i (s_contr s) 0.
(** [Shell.__init__], lines 289-301: the second statement of the loop body
    multiplies the row by the normalisation of the contracted function. *)
Definition make_shell (center : v3) (exps contr : list R) (ams : list ang) (bf_idx : nat) : shell :=
  {| s_center := center; s_exps := exps; s_contr := contr;
     s_norm := fun b i =>
       primitive_normalization (nth i exps 0) (nth b ams (0, 0, 0)%nat)
       * contracted_normalization exps
           (map (fun i => nth i contr 0 * primitive_normalization (nth i exps 0) (nth b ams (0, 0, 0)%nat)) (seq 0 (length exps)))
           (nth b ams (0, 0, 0)%nat);
     s_ang := ams; s_bf := bf_idx |}.
(** [_set_basis_set], lines 82-107: the shells of all atoms, one after the
    other; each gets the number of basis functions so far.  [basis] is what
    [read_basis] yields for all atoms together. *)
Fixpoint make_shells (basis : list (v3 * list R * list R * list ang)) (number_bf : nat) : list shell :=
  match basis with
  | [] => []
  | (c, e, k, m) :: r => make_shell c e k m number_bf :: make_shells r (number_bf + length m)
  end.
(** [get_basis_function_amplitude], lines 220-244: amplitude of one basis
    function at one point. *)
Definition amplitude (s : shell) (b : nat) (x y z : R) : R :=
  sm (length (s_contr s)) (fun i =>
    s_norm s b i * cc s i * primitive_gauss x y z (vx (s_center s)) (vy (s_center s)) (vz (s_center s)) (ex s i) (angm s b)).

(** [np.max(angular_moments)] *)
Definition max_ang (s : shell) : nat := fold_right (fun '(x, y, z) m => Nat.max x (Nat.max y (Nat.max z m))) 0%nat (s_ang s).

(** ** multipole.py *)
(** [multipole_integral], lines 48-135: one element of the slice.  [einsum]
    contracts over the primitives. *)
Definition multipole_primitive (mem : tbl) (s1 s2 : shell) (origin : v3) (mom : ang) (bi bj i j : nat) : R :=
  let E := fun (pr : v3 -> R) => expansion_coefficients mem (pr (s_center s1)) (pr (s_center s2)) (ex s1 i) (ex s2 j) (max_ang s1) (max_ang s2) in
  let '(mx, my, mz) := mom in
  let M := fun (pr : v3 -> R) m => hermite_multipole_integral mem (pr (s_center s1)) (pr (s_center s2)) (pr origin) (ex s1 i) (ex s2 j) m in
  let '(x1, y1, z1) := angm s1 bi in
  let '(x2, y2, z2) := angm s2 bj in
  sm (Nat.min (x1 + x2) mx + 1) (fun t1 => sm (Nat.min (y1 + y2) my + 1) (fun t2 => sm (Nat.min (z1 + z2) mz + 1) (fun t3 =>
    M vx mx [mx; t1] * M vy my [my; t2] * M vz mz [mz; t3] * E vx [x1; x2; t1] * E vy [y1; y2; t2] * E vz [z1; z2; t3])))
  * (s_norm s1 bi i * s_norm s2 bj j).
Definition contract2 (s1 s2 : shell) (prim : nat -> nat -> R) : R :=
  sm (length (s_exps s1)) (fun i => sm (length (s_exps s2)) (fun j => cc s1 i * cc s2 j * prim i j)).
Definition multipole_integral (mem : tbl) (origin : v3) (mom : ang) (s1 s2 : shell) (bi bj : nat) : R :=
  contract2 s1 s2 (multipole_primitive mem s1 s2 origin mom bi bj).

(** ** kineticenergy.py *)
(** [kinetic_energy_integral], lines 42-133.  [E[x1 - 2, x2, 0]] with [x1 < 2]
    wraps around to the last rows in Python (its factor is then zero); [wrap]
    gives the row read. *)
Definition wrap (size x d : nat) : nat := if Nat.leb d x then (x - d)%nat else (size + x - d)%nat.
Definition kinetic_primitive (mem : tbl) (s1 s2 : shell) (bi bj i j : nat) : R :=
  let la := (max_ang s1 + 2)%nat in
  let lb := (max_ang s2 + 2)%nat in
  let a := ex s1 i in
  let E := fun (pr : v3 -> R) => expansion_coefficients mem (pr (s_center s1)) (pr (s_center s2)) a (ex s2 j) la lb in
  let D2 := fun (E : tbl) (x1 x2 : nat) =>
    4 * a ^ 2 * E [(x1 + 2)%nat; x2; 0%nat] - 2 * a * (2 * INR x1 + 1) * E [x1; x2; 0%nat]
    + INR x1 * (INR x1 - 1) * E [wrap (la + 1) x1 2; x2; 0%nat] in
  let '(x1, y1, z1) := angm s1 bi in
  let '(x2, y2, z2) := angm s2 bj in
  s_norm s1 bi i * s_norm s2 bj j
  * (D2 (E vx) x1 x2 * E vy [y1; y2; 0%nat] * E vz [z1; z2; 0%nat]
     + E vx [x1; x2; 0%nat] * D2 (E vy) y1 y2 * E vz [z1; z2; 0%nat]
     + E vx [x1; x2; 0%nat] * E vy [y1; y2; 0%nat] * D2 (E vz) z1 z2)
  * (- 1 / 2 * Rpower (PI / (a + ex s2 j)) (3 / 2)).
Definition kinetic_energy_integral (mem : tbl) (s1 s2 : shell) (bi bj : nat) : R :=
  contract2 s1 s2 (kinetic_primitive mem s1 s2 bi bj).

(** ** nuclearattraction.py *)
(** [nuclear_attraction_integral], lines 47-135. *)
Definition nuclear_primitive (boys : nat -> R -> R) (mem : tbl) (atoms : list (v3 * R)) (s1 s2 : shell) (bi bj i j : nat) : R :=
  let l := (max_ang s1 + max_ang s2)%nat in
  let E := fun (pr : v3 -> R) => expansion_coefficients mem (pr (s_center s1)) (pr (s_center s2)) (ex s1 i) (ex s2 j) (max_ang s1) (max_ang s2) in
  let p := ex s1 i + ex s2 j in
  let P := fun (pr : v3 -> R) => (ex s1 i * pr (s_center s1) + ex s2 j * pr (s_center s2)) / p in
  let '(x1, y1, z1) := angm s1 bi in
  let '(x2, y2, z2) := angm s2 bj in
  fold_left (fun acc '(C, charge) =>
    let r := hermite_coulomb_integral boys mem l l l p (P vx - vx C) (P vy - vy C) (P vz - vz C) in
    acc + s_norm s1 bi i * charge * s_norm s2 bj j
      * sm (x1 + x2 + 1) (fun t => sm (y1 + y2 + 1) (fun u => sm (z1 + z2 + 1) (fun v =>
          E vx [x1; x2; t] * E vy [y1; y2; u] * E vz [z1; z2; v] * r [t; u; v])))) atoms 0
  * (- 2 * PI / p).
Definition nuclear_attraction_integral (boys : nat -> R -> R) (mem : tbl) (atoms : list (v3 * R)) (s1 s2 : shell) (bi bj : nat) : R :=
  contract2 s1 s2 (nuclear_primitive boys mem atoms s1 s2 bi bj).

(** ** electronrepulsion.py *)
(** [electron_repulsion_integral], lines 133-297. *)
Definition eri_primitive (boys : nat -> R -> R) (mem : tbl) (s1 s2 s3 s4 : shell) (bi bj bk bl i j k l : nat) : R :=
  let L := (max_ang s1 + max_ang s2 + max_ang s3 + max_ang s4)%nat in
  let Eb := fun (pr : v3 -> R) => expansion_coefficients mem (pr (s_center s1)) (pr (s_center s2)) (ex s1 i) (ex s2 j) (max_ang s1) (max_ang s2) in
  let Ek := fun (pr : v3 -> R) => expansion_coefficients mem (pr (s_center s3)) (pr (s_center s4)) (ex s3 k) (ex s4 l) (max_ang s3) (max_ang s4) in
  let p := ex s1 i + ex s2 j in
  let P := fun (pr : v3 -> R) => (ex s1 i * pr (s_center s1) + ex s2 j * pr (s_center s2)) / p in
  let q := ex s3 k + ex s4 l in
  let Q := fun (pr : v3 -> R) => (ex s3 k * pr (s_center s3) + ex s4 l * pr (s_center s4)) / q in
  let alpha := p * q / (p + q) in
  let r := hermite_coulomb_integral boys mem L L L alpha (P vx - Q vx) (P vy - Q vy) (P vz - Q vz) in
  let '(x1, y1, z1) := angm s1 bi in
  let '(x2, y2, z2) := angm s2 bj in
  let '(x3, y3, z3) := angm s3 bk in
  let '(x4, y4, z4) := angm s4 bl in
  sm (x3 + x4 + 1) (fun tau => sm (y3 + y4 + 1) (fun nu => sm (z3 + z4 + 1) (fun phi =>
    let E_temp := (-1) ^ (tau + nu + phi) * Ek vx [x3; x4; tau] * Ek vy [y3; y4; nu] * Ek vz [z3; z4; phi] in
    sm (x1 + x2 + 1) (fun t => sm (y1 + y2 + 1) (fun u => sm (z1 + z2 + 1) (fun v =>
      E_temp * Eb vx [x1; x2; t] * Eb vy [y1; y2; u] * Eb vz [z1; z2; v] * r [(t + tau)%nat; (u + nu)%nat; (v + phi)%nat]))))))
  * (s_norm s1 bi i * s_norm s2 bj j * s_norm s3 bk k * s_norm s4 bl l)
  * (2 * Rpower PI (5 / 2) / (p * q * sqrt (p + q))).
Definition electron_repulsion_integral (boys : nat -> R -> R) (mem : tbl) (s1 s2 s3 s4 : shell) (bi bj bk bl : nat) : R :=
  sm (length (s_exps s1)) (fun i => sm (length (s_exps s2)) (fun j => sm (length (s_exps s3)) (fun k => sm (length (s_exps s4)) (fun l =>
    cc s1 i * cc s2 j * cc s3 k * cc s4 l * eri_primitive boys mem s1 s2 s3 s4 bi bj bk bl i j k l)))).

(** ** The drivers *)
Definition sh (shells : list shell) (i : nat) : shell :=
  nth i shells {| s_center := {| vx := 0; vy := 0; vz := 0 |}; s_exps := []; s_contr := []; s_norm := fun _ _ => 0; s_ang := []; s_bf := 0 |}.
(** [V[s1:e1, s2:e2] = slice]; the slice has the size of the block. *)
Definition within (s : shell) (x : nat) : bool := Nat.leb (s_bf s) x && Nat.ltb x (s_bf s + nbf s).
Definition put2 (s1 s2 : shell) (slice : nat -> nat -> R) (V : nat -> nat -> R) : nat -> nat -> R := fun x y =>
  if within s1 x && within s2 y then slice (x - s_bf s1)%nat (y - s_bf s2)%nat else V x y.
(** [multipole_integral_driver] (multipole.py lines 10-45), [kinetic_energy_integral_driver]
    and [nuclear_attraction_integral_driver] (the same loops): the inner loop
    breaks as soon as [j > i]. *)
Definition driver2 (integral : shell -> shell -> nat -> nat -> R) (shells : list shell) : nat -> nat -> R :=
  fold_left (fun S i => fold_left (fun S j =>
      let slice := integral (sh shells i) (sh shells j) in
      put2 (sh shells j) (sh shells i) (fun x y => slice y x) (put2 (sh shells i) (sh shells j) slice S))
    (filter (fun j => negb (Nat.ltb i j)) (seq 0 (length shells))) S) (seq 0 (length shells)) (fun _ _ => 0).
Definition put4 (s1 s2 s3 s4 : shell) (slice : nat -> nat -> nat -> nat -> R) (V : nat -> nat -> nat -> nat -> R) : nat -> nat -> nat -> nat -> R :=
  fun x y z w => if within s1 x && within s2 y && within s3 z && within s4 w
    then slice (x - s_bf s1)%nat (y - s_bf s2)%nat (z - s_bf s3)%nat (w - s_bf s4)%nat else V x y z w.
(** The eight assignments, lines 80-103. *)
Definition put_all (s1 s2 s3 s4 : shell) (sl : nat -> nat -> nat -> nat -> R) V :=
  let V := put4 s1 s2 s3 s4 sl V in
  let V := put4 s2 s1 s3 s4 (fun x y z w => sl y x z w) V in
  let V := put4 s1 s2 s4 s3 (fun x y z w => sl x y w z) V in
  let V := put4 s2 s1 s4 s3 (fun x y z w => sl y x w z) V in
  let V := put4 s3 s4 s1 s2 (fun x y z w => sl z w x y) V in
  let V := put4 s3 s4 s2 s1 (fun x y z w => sl w z x y) V in
  let V := put4 s4 s3 s1 s2 (fun x y z w => sl z w y x) V in
  put4 s4 s3 s2 s1 (fun x y z w => sl w z y x) V.
(** [electron_repulsion_integral_driver], lines 11-104. *)
Definition compound (i j : nat) : nat := (i * (i + 1) / 2 + j)%nat.
Definition eri_driver (integral : shell -> shell -> shell -> shell -> nat -> nat -> nat -> nat -> R)
    (screen : option (nat -> nat -> R)) (threshold : R) (shells : list shell) : nat -> nat -> nat -> nat -> R :=
  let n := length shells in
  fold_left (fun V ijkl =>
    match ijkl with
    | [i; j; k; l] =>
        if Nat.ltb j i then V
        else if Nat.ltb l k then V
        else if Nat.ltb (compound i j) (compound k l) then V
        else if match screen with Some Q => if Rlt_dec (Q i j * Q k l) threshold then true else false | None => false end then V
        else let s := sh shells in put_all (s i) (s j) (s k) (s l) (integral (s i) (s j) (s k) (s l)) V
    | _ => V
    end) (box [n; n; n; n]) (fun _ _ _ _ => 0).
(** [get_cauchy_schwarz_matrix], lines 300-339.  [np.max] of a slice. *)
Definition smax (n : nat) (F : nat -> R) : R := fold_left (fun m i => Rmax m (F i)) (seq 1 (n - 1)) (F 0%nat).
Definition slice_max (s1 s2 s3 s4 : shell) (sl : nat -> nat -> nat -> nat -> R) : R :=
  smax (nbf s1) (fun a => smax (nbf s2) (fun b => smax (nbf s3) (fun c => smax (nbf s4) (fun d => sl a b c d)))).
Definition cauchy_schwarz_matrix (integral : shell -> shell -> shell -> shell -> nat -> nat -> nat -> nat -> R) (shells : list shell) : nat -> nat -> R :=
  let s := sh shells in
  fold_left (fun Q ij => match ij with
    | [i; j] => if Nat.ltb j i then Q else
        let v := sqrt (slice_max (s i) (s j) (s i) (s j) (integral (s i) (s j) (s i) (s j))) in
        fun a b => if (Nat.eqb a i && Nat.eqb b j) || (Nat.eqb a j && Nat.eqb b i) then v else Q a b
    | _ => Q end) (box [length shells; length shells]) (fun _ _ => 0).
