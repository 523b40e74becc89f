(** Model of the quantum circuits that slowquant/qiskit_interface builds.

    A circuit is the list of its gates in the order they were appended; its
    meaning is the usual matrix semantics of Qiskit's gates on state vectors,
    indexed by non-negative integers whose bit [q] is the value of qubit [q].
    Amplitudes are complex numbers over a commutative ring [K] standing for the
    reals; [s2] stands for [1 / sqrt 2].  Transpilation, measurement noise and
    sampling are not modelled. *)
From Coq Require Import List Bool Arith NArith ZArith Lia Ring.
From Verif Require Import Base Fock CliqueModel.
Import ListNotations.
Local Open Scope list_scope.

(** Complex numbers over a commutative ring. *)
Section Complex.
  Context {K : Type} {C : CRing K}.
  Local Open Scope K_scope.
  Add Ring KringCx : (@rth K C).
  Notation cx := (K * K)%type.
  Definition cadd (a b : cx) : cx := (fst a + fst b, snd a + snd b).
  Definition csub (a b : cx) : cx := (fst a - fst b, snd a - snd b).
  Definition copp (a : cx) : cx := (- fst a, - snd a).
  Definition cmul (a b : cx) : cx := (fst a * fst b - snd a * snd b, fst a * snd b + snd a * fst b).
  Definition cre (a : K) : cx := (a, 0).
  Definition ci : cx := (0, 1).
  Definition cconj (a : cx) : cx := (fst a, - snd a).
  (** Squared absolute value. *)
  Definition cnorm2 (a : cx) : K := fst a * fst a + snd a * snd a.
  Lemma cx_rth : ring_theory (cre 0) (cre 1) cadd cmul csub copp (@eq cx).
  Proof.
    constructor; intros; repeat match goal with x : cx |- _ => destruct x end;
      unfold cadd, csub, copp, cmul, cre; cbn [fst snd]; f_equal; ring.
  Qed.
End Complex.
#[export] Instance Cx_CRing {K} {C : CRing K} : CRing (K * K) := {
  rO := cre rO; rI := cre rI; radd := cadd; rmul := cmul; rsub := csub; ropp := copp;
  rth := cx_rth;
  small := fun a => small (fst a) && small (snd a)
}.

Section Circuits.
  Context {K : Type} {C : CRing K}.
  Local Open Scope K_scope.
  Notation cx := (K * K)%type.
  Definition qstate := N -> cx.

  (** Gates, with rotation angles given by the cosine and sine of half the
      angle. *)
  Inductive gate :=
  | GX (q : nat) | GH (q : nat) | GSdg (q : nat)
  | GRX (c s : K) (q : nat) | GRY (c s : K) (q : nat) | GRZ (c s : K) (q : nat)
  | GCX (c t : nat) | GCZ (c t : nat) | GSwap (a b : nat).

  (** [x] with bit [q] set to [b]. *)
  Definition setq (x : N) (q : nat) (b : bool) : N := if Bool.eqb (occ x q) b then x else flip x q.
  (** One-qubit gate with matrix [m]: entry [m row column]. *)
  Definition app1q (m : bool -> bool -> cx) (q : nat) (psi : qstate) : qstate := fun x =>
    m (occ x q) false * psi (setq x q false) + m (occ x q) true * psi (setq x q true).

  Definition mX (r c : bool) : cx := if Bool.eqb r c then 0 else 1.
  Definition mH (s2 : K) (r c : bool) : cx := if r && c then - cre s2 else cre s2.
  Definition mSdg (r c : bool) : cx := if Bool.eqb r c then (if r then - ci else 1) else 0.
  Definition mRX (c s : K) (r k : bool) : cx := if Bool.eqb r k then cre c else - (ci * cre s).
  Definition mRY (c s : K) (r k : bool) : cx := if Bool.eqb r k then cre c else if k then - cre s else cre s.
  Definition mRZ (c s : K) (r k : bool) : cx :=
    if Bool.eqb r k then (if r then cre c + ci * cre s else cre c - ci * cre s) else 0.

  Definition gate_sem (s2 : K) (g : gate) (psi : qstate) : qstate :=
    match g with
    | GX q => app1q mX q psi
    | GH q => app1q (mH s2) q psi
    | GSdg q => app1q mSdg q psi
    | GRX c s q => app1q (mRX c s) q psi
    | GRY c s q => app1q (mRY c s) q psi
    | GRZ c s q => app1q (mRZ c s) q psi
    | GCX c t => fun x => if occ x c then psi (flip x t) else psi x
    | GCZ c t => fun x => if occ x c && occ x t then - psi x else psi x
    | GSwap a b => fun x => psi (setq (setq x a (occ x b)) b (occ x a))
    end.
  (** Gates act in the order of the list. *)
  Definition run (s2 : K) (qc : list gate) (psi : qstate) : qstate := fold_left (fun psi g => gate_sem s2 g psi) qc psi.
  (** The state |0...0>. *)
  Definition zero_state : qstate := fun x => if N.eqb x 0 then 1 else 0.

  (** util.py, [to_CBS_measurement], lines 11-51, without transpiled gates. *)
  Definition to_CBS_measurement (op : pauli) : list gate :=
    flat_map (fun ip : nat * letter => match snd ip with
                        | LX => [GH (fst ip)]
                        | LY => [GSdg (fst ip); GH (fst ip)]
                        | _ => []
                        end) (combine (seq 0 (List.length op)) (rev op)).

  (** util.py, [f2q], lines 976-1000. *)
  Definition f2q (i num_orbs : nat) : nat :=
    if (i mod 2 =? 0)%nat then (i / 2)%nat else (i / 2 + num_orbs)%nat.

  (** Determinants are strings of 0 and 1; the model uses lists of booleans.
      [for i, occ in enumerate(det): if occ == "1": qc.x(f2q(i, num_orbs))]. *)
  Definition x_gates (det : list bool) (num_orbs : nat) : list gate :=
    flat_map (fun io : nat * bool => if snd io then [GX (f2q (fst io) num_orbs)] else []) (combine (seq 0 (List.length det)) det).

  (** util.py, [get_determinant_reference], lines 1074-1092 (Jordan-Wigner
      mapper; any other mapper raises TypeError). *)
  Definition get_determinant_reference (det : list bool) (num_orbs : nat) (m : mapper) : Res (list gate) :=
    match m with JordanWigner => Ok (x_gates det num_orbs) | _ => Raise TypeError end.

  (** The loop looking for the Hadamard qubit, lines 1023-1030. *)
  Definition enum2 (det1 det2 : list bool) : list (nat * (bool * bool)) :=
    combine (seq 0 (Nat.min (List.length det1) (List.length det2))) (combine det1 det2).
  Definition hadamard_index (det1 det2 : list bool) (num_orbs : nat) : option nat :=
    match find (fun e : nat * (bool * bool) => negb (fst (snd e)) && snd (snd e)) (enum2 det1 det2) with
    | Some e => Some (f2q (fst e) num_orbs)
    | None => None
    end.
  (** The loop appending the controlled gates, lines 1031-1037. *)
  Definition cx_gates (h : nat) (det1 det2 : list bool) (num_orbs : nat) : list gate :=
    flat_map (fun e : nat * (bool * bool) =>
      let '(i, (occ1, occ2)) := e in
      let idx := f2q i num_orbs in
      if Bool.eqb occ1 occ2 || (idx =? h)%nat then []
      else if occ1 || occ2 then [GCX h idx] else []) (enum2 det1 det2).

  (** util.py, [get_determinant_superposition_reference], lines 1003-1038. *)
  Definition get_determinant_superposition_reference (det1 det2 : list bool) (num_orbs : nat) (m : mapper) : Res (list gate) :=
    match m with
    | JordanWigner =>
        match hadamard_index det1 det2 num_orbs with
        | Some h => Ok (x_gates det1 num_orbs ++ GH h :: cx_gates h det1 det2 num_orbs)
        | None => Raise ValueError
        end
    | _ => Raise TypeError
    end.
  (** util.py, [get_determinant_superposition_reference_MAnsatz0], lines 1041-1071. *)
  Definition get_determinant_superposition_reference_MAnsatz0 (det1 det2 : list bool) (num_orbs : nat) (m : mapper)
      : Res (list gate) :=
    match m with
    | JordanWigner =>
        match hadamard_index det1 det2 num_orbs with
        | Some h => Ok (cx_gates h det1 det2 num_orbs)
        | None => Raise ValueError
        end
    | _ => Raise TypeError
    end.

  (** util.py, [get_reordering_sign], lines 1095-1116: state [(sign, alphas)],
      the sign being negative when the first component is [true]. *)
  Definition get_reordering_sign (det : list bool) : Z :=
    fst (fold_left (fun (st : Z * nat) (io : nat * bool) => let '(sign, alphas) := st in
           let '(i, occ) := io in
           if (i mod 2 =? 1)%nat && occ then (sign, S alphas)
           else if (i mod 2 =? 0)%nat && occ then (if (alphas mod 2 =? 1)%nat then ((sign * (-1))%Z, alphas) else (sign, alphas))
           else (sign, alphas))
         (combine (seq 0 (List.length det)) (rev det)) (1%Z, 0%nat)).

  (** operators_circuits.py, [_single_excitation_efficient], lines 101-156, after
      the two calls of [f2q] (lines 126-127).  [ch], [sh] are the cosine and sine
      of [theta / 2]; [cq], [sq] those of [pi / 4]. *)
  Definition down_from (hi lo : nat) : list nat := rev (seq (lo + 1) (hi - lo)).  (* range(hi, lo, -1) *)
  Definition range (lo hi : nat) : list nat := seq lo (hi - lo).
  Definition single_excitation_qubits (ch sh cq sq : K) (k i : nat) : Res (list gate) :=
    if (k <=? i)%nat then Raise ValueError
    else if (k - 1 =? i)%nat then
      Ok [GRZ cq sq i; GRX cq sq i; GRX cq sq k; GCX i k; GRX ch sh i; GRZ ch sh k; GCX i k;
          GRX cq (- sq) k; GRX cq (- sq) i; GRZ cq (- sq) i]
    else
      Ok ([GCX k i]
          ++ map (fun t => GCX (t + 1) t) (down_from (k - 2) i)
          ++ [GCZ (i + 1) k; GRY ch sh k; GCX i k; GRY ch (- sh) k; GCX i k; GCZ (i + 1) k]
          ++ map (fun t => GCX (t + 1) t) (range (i + 1) (k - 1))
          ++ [GCX k i]).
  Definition single_excitation_efficient (ch sh cq sq : K) (k i num_orbs : nat) : Res (list gate) :=
    single_excitation_qubits ch sh cq sq (f2q k num_orbs) (f2q i num_orbs).

  (** [_sa_single_excitation_efficient], lines 304-339. *)
  Definition sa_single_excitation_efficient (ch sh cq sq : K) (k i num_orbs : nat) : Res (list gate) :=
    bind (single_excitation_efficient ch sh cq sq (2 * k) (2 * i) num_orbs) (fun c1 =>
    bind (single_excitation_efficient ch sh cq sq (2 * k + 1) (2 * i + 1) num_orbs) (fun c2 => Ok (c1 ++ c2))).

  (** [_double_excitation_efficient], lines 159-301, split into the sign and index
      bookkeeping (lines 187-239) and the gates.  [ce], [se] are the cosine and
      sine of [theta / 8] (half of the angle [2 * theta * fac / 8], the sign of
      [fac] entering through the sine). *)
  Definition b2n (b : bool) : nat := if b then 1 else 0.
  Definition double_indices (k l i j num_orbs : nat) : Res (Z * (nat * nat * nat * nat)) :=
    if (k <? i)%nat || (k <? j)%nat then Raise ValueError
    else if (l <? i)%nat || (l <? j)%nat then Raise ValueError
    else
      let n_alpha := (b2n (i mod 2 =? 0) + b2n (j mod 2 =? 0) + b2n (k mod 2 =? 0) + b2n (l mod 2 =? 0))%nat in
      let n_beta := (4 - n_alpha)%nat in
      if negb (n_alpha mod 2 =? 0)%nat || negb (n_beta mod 2 =? 0)%nat then Raise ValueError
      else
        let fac := 1%Z in
        let fac := if (k mod 2 =? l mod 2)%nat && (k mod 2 =? 0)%nat && negb (i mod 2 =? 0)%nat then (- fac)%Z else fac in
        let k := f2q k num_orbs in let l := f2q l num_orbs in
        let i := f2q i num_orbs in let j := f2q j num_orbs in
        let '(k, l, fac) := if (l <? k)%nat then (l, k, (- fac)%Z) else (k, l, fac) in
        let '(i, j, fac) := if (j <? i)%nat then (j, i, (- fac)%Z) else (i, j, fac) in
        let '(l, j, fac) := if (l <? j)%nat then (j, l, (- fac)%Z) else (l, j, fac) in
        let '(k, i, fac) := if (k <? i)%nat then (i, k, (- fac)%Z) else (k, i, fac) in
        Ok (fac, (k, l, i, j)).
  (** [np.sort] of four indices. *)
  Fixpoint insert_asc (x : nat) (l : list nat) : list nat :=
    match l with [] => [x] | y :: l' => if (x <=? y)%nat then x :: l else y :: insert_asc x l' end.
  Definition np_sort (l : list nat) : list nat := fold_right insert_asc [] l.
  Definition double_core (ce se : K) (k l i j : nat) : list gate :=
    [GRY ce se l; GH k; GCX l k; GRY ce (- se) l; GH i; GCX l i; GRY ce se l; GCX l k; GRY ce (- se) l;
     GH j; GCX l j; GRY ce se l; GCX l k; GRY ce (- se) l; GCX l i; GRY ce se l; GH i; GCX l k;
     GRY ce (- se) l; GH k; GCX l j; GH j].
  Definition ladder_in (iz kz jz lz : nat) : list gate :=
    if negb (lz =? jz + 1)%nat then
      map (fun t => GCX t (t + 1)) (range (iz + 1) (kz - 1))
      ++ (if negb (iz + 1 =? kz)%nat then [GCX (kz - 1) (jz + 1)] else [])
      ++ map (fun t => GCX t (t + 1)) (range (jz + 1) (lz - 1))
      ++ [GCZ lz (lz - 1)]
    else if negb (iz =? kz - 1)%nat then
      map (fun t => GCX t (t + 1)) (range (iz + 1) (kz - 1)) ++ [GCZ lz (kz - 1)]
    else [].
  Definition ladder_out (iz kz jz lz : nat) : list gate :=
    if negb (lz =? jz + 1)%nat then
      [GCZ lz (lz - 1)]
      ++ map (fun t => GCX (t - 1) t) (down_from (lz - 1) (jz + 1))
      ++ (if negb (iz + 1 =? kz)%nat then [GCX (kz - 1) (jz + 1)] else [])
      ++ map (fun t => GCX (t - 1) t) (down_from (kz - 1) (iz + 1))
    else if negb (iz =? kz - 1)%nat then
      [GCZ lz (kz - 1)] ++ map (fun t => GCX (t - 1) t) (down_from (kz - 1) (iz + 1))
    else [].
  Definition double_excitation_efficient (ce se : K) (k l i j num_orbs : nat) : Res (list gate) :=
    bind (double_indices k l i j num_orbs) (fun r =>
      let '(fac, (k, l, i, j)) := r in
      let se := if (fac <? 0)%Z then - se else se in
      match np_sort [k; l; i; j] with
      | [iz; kz; jz; lz] =>
          Ok ([GCX l k; GCX j i; GCX l j] ++ ladder_in iz kz jz lz ++ [GX k; GX i]
              ++ double_core ce se k l i j
              ++ [GX k; GX i] ++ ladder_out iz kz jz lz ++ [GCX l j; GCX l k; GCX j i])
      | _ => Raise ValueError
      end).
End Circuits.
