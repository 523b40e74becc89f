(** Model of the ansatz part of
    slowquant/unitary_coupled_cluster/operator_state_algebra.py: products of
    exponentials of excitation generators applied to a state vector.

    Coefficients are real numbers (no rounding).  The four copies of the gate
    code (construct_ups_state, construct_ups_state_SA, propagate_unitary,
    propagate_unitary_SA) contain the same branches and the same numerical
    tables (compared textually); they are modelled by one function
    [apply_gate], used with a state vector or with a list of state vectors. *)
From Coq Require Import List Bool Arith NArith Reals.
From Verif Require Import Base RRing Fock FermiModel OperatorsModel CIModel StateModel.
Import ListNotations.
Local Open Scope R_scope.

(** [exc_type]: the strings tested by the code; [Other] is any other string. *)
Inductive gtype :=
| Single | Double | Triple | Quadruple | Quintuple | Sextuple
| SaSingle | SaDouble1 | SaDouble2 | SaDouble3 | SaDouble4 | SaDouble5 | Other.

(** One entry of [excitation_operator_type] / [excitation_indices]. *)
Definition exc := (gtype * list nat)%type.

Notation rdict := (list (fstring * R)).

(** The prefactors of [G2_sa] (operators.py:413-436) and [G1_sa]. *)
Definition fac1 : R := 1 / 2 * / sqrt 1.
Definition fac2 : R := 1 / 2 * / sqrt 2.
Definition fac4 : R := 1 / 2 * / sqrt 4.
Definition fac5 : R := 1 / (2 * sqrt 3).
Definition isq2 : R := / sqrt 2.

Definition g2sa (idx : list nat) (off case : nat) : Res rdict :=
  match idx with
  | [i; j; a; b] => G2_sa fac1 fac2 fac4 fac5 (i + off) (j + off) (a + off) (b + off) case true
  | _ => Raise ValueError
  end%nat.

(** Generator [T] of a gate, lines 1042-1070, 1087-1093, 1125-1126, 1236-1237
    (also 1944-1962 and 2815-2849).  [off] is [ci_info.space_extension_offset];
    a wrong number of indices cannot be unpacked (ValueError).  "sa_single" has
    two generators and is treated separately. *)
Definition generator (off : nat) (e : exc) : Res rdict :=
  match e with
  | (Single, [i; a]) => G1 (i + 2 * off) (a + 2 * off) true
  | (Double, [i; j; a; b]) => G2 (i + 2 * off) (j + 2 * off) (a + 2 * off) (b + 2 * off) true
  | (Triple, [i; j; k; a; b; c]) =>
      G3 (i + 2 * off) (j + 2 * off) (k + 2 * off) (a + 2 * off) (b + 2 * off) (c + 2 * off) true
  | (Quadruple, [i; j; k; l; a; b; c; d]) =>
      G4 (i + 2 * off) (j + 2 * off) (k + 2 * off) (l + 2 * off) (a + 2 * off) (b + 2 * off) (c + 2 * off) (d + 2 * off) true
  | (Quintuple, [i; j; k; l; m; a; b; c; d; e]) =>
      G5 (i + 2 * off) (j + 2 * off) (k + 2 * off) (l + 2 * off) (m + 2 * off)
         (a + 2 * off) (b + 2 * off) (c + 2 * off) (d + 2 * off) (e + 2 * off) true
  | (Sextuple, [i; j; k; l; m; n; a; b; c; d; e; f]) =>
      G6 (i + 2 * off) (j + 2 * off) (k + 2 * off) (l + 2 * off) (m + 2 * off) (n + 2 * off)
         (a + 2 * off) (b + 2 * off) (c + 2 * off) (d + 2 * off) (e + 2 * off) (f + 2 * off) true
  | (SaDouble1, idx) => g2sa idx off 1
  | (SaDouble2, idx) => g2sa idx off 2
  | (SaDouble3, idx) => g2sa idx off 3
  | (SaDouble4, idx) => g2sa idx off 4
  | (SaDouble5, idx) => g2sa idx off 5
  | _ => Raise ValueError
  end%nat.

(** The two generators of "sa_single", lines 1004-1007. *)
Definition sa_single_generators (off : nat) (idx : list nat) : Res (rdict * rdict) :=
  match idx with
  | [i; a] => bind (G1 ((i + off) * 2) ((a + off) * 2) true) (fun Ta =>
              bind (G1 ((i + off) * 2 + 1) ((a + off) * 2 + 1) true) (fun Tb => Ok (Ta, Tb)))
  | _ => Raise ValueError
  end%nat.

(** [k[0] * sin(S[0] * theta) + k[1] * sin(S[1] * theta) + ...]. *)
Fixpoint sin_terms (S k : list R) (theta : R) : R :=
  match S, k with s :: S', c :: k' => c * sin (s * theta) + sin_terms S' k' theta | _, _ => 0 end.
(** [k[0] * (cos(S[0] * theta) - 1) + ...]. *)
Fixpoint cos_terms (S k : list R) (theta : R) : R :=
  match S, k with s :: S', c :: k' => c * (cos (s * theta) - 1) + cos_terms S' k' theta | _, _ => 0 end.
(** Prefactors of [tmp] after one, two, three, ... applications of [T]. *)
Fixpoint alternate (S : list R) (ks : list (list R)) (odd : bool) (theta : R) : list R :=
  match ks with
  | [] => []
  | k :: ks' => (if odd then sin_terms S k theta else cos_terms S k theta) :: alternate S ks' (negb odd) theta
  end.

(** Tables, lines 1096-1100. *)
Definition S23 : list R := [1; sqrt 2 / 2].
Definition k23 : list (list R) := [[-1; 2 * sqrt 2]; [1; -4]; [-2; 2 * sqrt 2]; [2; -4]].
(** Lines 1127-1139. *)
Definition S4 : list R := [1; sqrt 2; sqrt 2 / 2; 1 / 2].
Definition k4 : list (list R) :=
  [[2 / 3; - sqrt 2 / 42; -8 * sqrt 2 / 3; 128 / 21];
   [-2 / 3; 1 / 42; 16 / 3; -256 / 21];
   [13 / 3; - sqrt 2 / 6; -44 * sqrt 2 / 3; 64 / 3];
   [-13 / 3; 1 / 6; 88 / 3; -128 / 3];
   [22 / 3; - sqrt 2 / 3; -52 * sqrt 2 / 3; 64 / 3];
   [-22 / 3; 1 / 3; 104 / 3; -128 / 3];
   [8 / 3; -4 * sqrt 2 / 21; -16 * sqrt 2 / 3; 128 / 21];
   [-8 / 3; 4 / 21; 32 / 3; -256 / 21]].
(** Lines 1238-1278. *)
Definition S5 : list R := [sqrt 2; sqrt 2 / 2; sqrt 3 / 3; sqrt 3 / 2; sqrt 3 / 6].
Definition k5 : list (list R) :=
  [[sqrt 2 / 1150; 8 * sqrt 2 / 5; -54 * sqrt 3 / 25; -16 * sqrt 3 / 75; 432 * sqrt 3 / 115];
   [-1 / 1150; -16 / 5; 162 / 25; 32 / 75; -2592 / 115];
   [11 * sqrt 2 / 690; 404 * sqrt 2 / 15; -171 * sqrt 3 / 5; -56 * sqrt 3 / 15; 2952 * sqrt 3 / 115];
   [-11 / 690; -808 / 15; 513 / 5; 112 / 15; -17712 / 115];
   [133 * sqrt 2 / 1725; 308 * sqrt 2 / 3; -2718 * sqrt 3 / 25; -1192 * sqrt 3 / 75; 1368 * sqrt 3 / 23];
   [-133 / 1725; -616 / 3; 8154 / 25; 2384 / 75; -8208 / 23];
   [16 * sqrt 2 / 115; 608 * sqrt 2 / 5; -576 * sqrt 3 / 5; -112 * sqrt 3 / 5; 6192 * sqrt 3 / 115];
   [-16 / 115; -1216 / 5; 1728 / 5; 224 / 5; -37152 / 115];
   [48 * sqrt 2 / 575; 192 * sqrt 2 / 5; -864 * sqrt 3 / 25; -192 * sqrt 3 / 25; 1728 * sqrt 3 / 115];
   [-48 / 575; -384 / 5; 2592 / 25; 384 / 25; -10368 / 115]].

Section Gates.
  (** [St] is a state vector or a list of them; [app T st] is
      [propagate_state([T], st, ci_info, do_folding=False)] and
      [axpy c tmp out] is [out + c * tmp]. *)
  Variable St : Type.
  Variable app : rdict -> St -> Res St.
  Variable axpy : R -> St -> St -> St.
  (** [abs(theta) < 10**-28]. *)
  Variable tiny : R -> bool.

  (** [out + sin(theta) T out + (1 - cos(theta)) T T out], lines 1072-1086. *)
  Definition closed_gate (T : rdict) (theta : R) (out : St) : Res St :=
    bind (app T out) (fun t1 =>
    bind (bind (app T out) (app T)) (fun t2 =>
    Ok (axpy (1 - cos theta) t2 (axpy (sin theta) t1 out)))).

  (** [tmp = T tmp; out += c * tmp] for each prefactor, lines 1101-1124. *)
  Definition poly_gate (T : rdict) (cs : list R) (out : St) : Res St :=
    bind (fold_left (fun acc c => bind acc (fun to : St * St =>
            bind (app T (fst to)) (fun tmp => Ok (tmp, axpy c tmp (snd to))))) cs (Ok (out, out)))
         (fun to => Ok (snd to)).

  (** One pass of the loop body of [construct_ups_state], lines 1001-1411. *)
  Definition apply_gate (off : nat) (e : exc) (theta : R) (out : St) : Res St :=
    match fst e with
    | SaSingle =>
        bind (sa_single_generators off (snd e)) (fun T =>
        bind (closed_gate (fst T) (1 * theta) out) (closed_gate (snd T) (1 * theta)))
    | Single | Double | Triple | Quadruple | Quintuple | Sextuple | SaDouble1 =>
        bind (generator off e) (fun T => closed_gate T theta out)
    | SaDouble2 | SaDouble3 => bind (generator off e) (fun T => poly_gate T (alternate S23 k23 true theta) out)
    | SaDouble4 => bind (generator off e) (fun T => poly_gate T (alternate S4 k4 true theta) out)
    | SaDouble5 => bind (generator off e) (fun T => poly_gate T (alternate S5 k5 true theta) out)
    | Other => Raise ValueError
    end.

  (** [construct_ups_state], lines 963-1412 ([_SA]: 1415-1864). *)
  Definition construct_ups_state (off : nat) (struct : list exc) (thetas : list R) (dagger : bool) (state : St) : Res St :=
    let rv {A} (l : list A) := if dagger then rev l else l in
    fold_left (fun acc (et : exc * R) => bind acc (fun out =>
                 if tiny (snd et) then Ok out
                 else apply_gate off (fst et) (if dagger then - snd et else snd et) out))
              (combine (rv struct) (rv thetas)) (Ok state).

  (** [propagate_unitary], lines 1867-2309 ([_SA]: 2312-2754). *)
  Definition propagate_unitary (off : nat) (struct : list exc) (thetas : list R) (idx : nat) (state : St) : Res St :=
    match nth_error struct idx, nth_error thetas idx with
    | Some e, Some theta => if tiny theta then Ok state else apply_gate off e theta state
    | _, _ => Raise IndexError
    end.

  (** [get_grad_action], lines 2757-2865 ([_SA]: 2868-2976). *)
  Definition get_grad_action (off : nat) (struct : list exc) (idx : nat) (state : St) : Res St :=
    match nth_error struct idx with
    | None => Raise IndexError
    | Some (SaSingle, idx) =>
        bind (sa_single_generators off idx) (fun T =>
        bind (mscale 1 (madd (Ok (fst T)) (Ok (snd T)))) (fun D => app D state))
    | Some e => bind (generator off e) (fun D => app D state)
    end.
End Gates.

(** State vectors. *)
Fixpoint axpy1 (c : R) (tmp out : list R) : list R :=
  match tmp, out with t :: tmp', o :: out' => (o + c * t) :: axpy1 c tmp' out' | _, _ => [] end.
(** State-averaged: one row per state. *)
Fixpoint axpy2 (c : R) (tmp out : list (list R)) : list (list R) :=
  match tmp, out with t :: tmp', o :: out' => axpy1 c t o :: axpy2 c tmp' out' | _, _ => [] end.

Section OnSpaces.
  Variables tiny tiny_le : R -> bool.
  Variable sp : space.
  Variable th : threads.
  Definition no_ansatz {A} (_ : bool) (_ : A) : Res A := Raise TypeError.
  Definition app1v (T : rdict) (st : list R) : Res (list R) :=
    propagate_state tiny sp th false false no_ansatz [SOp T] st.
  Definition app2v (T : rdict) (st : list (list R)) : Res (list (list R)) :=
    propagate_state_SA tiny_le sp th false false no_ansatz [SOp T] st.

  Definition ups_gate := apply_gate (list R) app1v axpy1.
  Definition ups_state := construct_ups_state (list R) app1v axpy1 tiny.
  Definition ups_unitary := propagate_unitary (list R) app1v axpy1 tiny.
  Definition ups_grad := get_grad_action (list R) app1v.
  Definition ups_state_SA := construct_ups_state (list (list R)) app2v axpy2 tiny.
  Definition ups_unitary_SA := propagate_unitary (list (list R)) app2v axpy2 tiny.
  Definition ups_grad_SA := get_grad_action (list (list R)) app2v.
End OnSpaces.

(** [get_ucc_T], lines 899-960. *)
Definition get_ucc_T (tiny : R -> bool) (off : nat) (struct : list exc) (thetas : list R) : Res rdict :=
  fold_left (fun acc (et : exc * R) => bind acc (fun T =>
               if tiny (snd et) then Ok T
               else madd (Ok T) (mscale (snd et)
                      (match fst et with
                       | (SaSingle, [i; a]) => G1_sa isq2 (i + off) (a + off) true
                       | e => generator off e
                       end)))%nat)
            (combine struct thetas) (Ok []).
