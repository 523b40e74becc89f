(** Model of slowquant/molecule/basis_reader.py, [read_basis] (lines 6-75): from the lines of
    the basis-set file to exponents, coefficients and angular moments.  Opening the file (lines
    16-20) is left out; a line is the list of its eight-bit characters, with the newline. *)
From Coq Require Import List Bool Arith ZArith Ascii String.
From Verif Require Import Base.
Import ListNotations.
Local Open Scope nat_scope.

Definition line := list ascii.
(** [str.lower] for one character. *)
Definition low (c : ascii) : ascii :=
  let n := nat_of_ascii c in if (65 <=? n) && (n <=? 90) then ascii_of_nat (n + 32) else c.
(** White space of [str.split]. *)
Definition blank (c : ascii) : bool := let n := nat_of_ascii c in ((9 <=? n) && (n <=? 13)) || ((28 <=? n) && (n <=? 32)).
(** [line.split()]; [cur] holds the characters of the current word in reverse. *)
Fixpoint split (cur l : line) : list line :=
  match l with
  | [] => match cur with [] => [] | _ => [rev cur] end
  | c :: r => if blank c then match cur with [] => split [] r | _ => rev cur :: split [] r end else split (c :: cur) r
  end.
(** [s.replace("D", "e")]. *)
Definition to_e (w : line) : line := map (fun c => if Ascii.eqb c "D" then "e"%char else c) w.
(** The test of line 39. *)
Definition spdf (l : line) : bool := existsb (fun c => existsb (Ascii.eqb c) ["s"; "p"; "d"; "f"]%char) l.
(** Lines 50-70. *)
Definition angulars (a : line) : Res (list (list nat)) :=
  match a with
  | ["s"]%char => Ok [[0; 0; 0] ]
  | ["p"]%char => Ok [[1; 0; 0]; [0; 1; 0]; [0; 0; 1] ]
  | ["d"]%char => Ok [[2; 0; 0]; [1; 1; 0]; [1; 0; 1]; [0; 2; 0]; [0; 1; 1]; [0; 0; 2] ]
  | ["f"]%char => Ok [[3; 0; 0]; [2; 1; 0]; [2; 0; 1]; [1; 2; 0]; [1; 1; 1]; [1; 0; 2]; [0; 3; 0]; [0; 2; 1]; [0; 1; 2]; [0; 0; 3] ]
  | _ => Raise ValueError
  end.
Definition word (k : nat) (ws : list line) : Res line := match nth_error ws k with Some w => Ok w | None => Raise IndexError end.

Section Basis.
  Context {V : Type}.
  (** [float] and [int] of a word; [None] is ValueError. *)
  Variables (float_of : line -> option V) (int_of : line -> option Z).
  Definition to_float (w : line) : Res V := match float_of (to_e w) with Some x => Ok x | None => Raise ValueError end.
  Definition to_int (w : line) : Res Z := match int_of w with Some x => Ok x | None => Raise ValueError end.

  (** The variables of the second loop: the three results, [number_primitives], [angular]
      and the primitives of the current shell. *)
  Record reader := { b_exp : list (list V); b_coef : list (list V); b_ang : list (list (list nat));
                     b_left : Z; b_angular : line; b_e : list V; b_c : list V }.
  Definition reader0 : reader := {| b_exp := []; b_coef := []; b_ang := []; b_left := -1; b_angular := []; b_e := []; b_c := [] |}.
  (** Lines 45-48. *)
  Definition take_primitive (l : line) (b : reader) : Res reader :=
    if (0 <? b_left b)%Z then
      bind (word 0 (split [] l)) (fun w0 => bind (to_float w0) (fun e =>
      bind (word 1 (split [] l)) (fun w1 => bind (to_float w1) (fun c =>
      Ok {| b_exp := b_exp b; b_coef := b_coef b; b_ang := b_ang b; b_left := b_left b - 1; b_angular := b_angular b;
            b_e := b_e b ++ [e]; b_c := b_c b ++ [c] |}))))
    else Ok b.
  (** Lines 49-74. *)
  Definition close_shell (b : reader) : Res reader :=
    if (b_left b =? 0)%Z then
      bind (angulars (b_angular b)) (fun a =>
      Ok {| b_exp := b_exp b ++ [b_e b]; b_coef := b_coef b ++ [b_c b]; b_ang := b_ang b ++ [a]; b_left := -1;
            b_angular := b_angular b; b_e := b_e b; b_c := b_c b |})
    else Ok b.
  (** The second loop, lines 33-74; a line without characters cannot come from a file. *)
  Fixpoint read_shells (ls : list line) (b : reader) : Res reader :=
    match ls with
    | [] => Ok b
    | [] :: _ => Raise IndexError
    | (c :: _) as l :: r =>
        if Ascii.eqb c "*" then read_shells r b
        else if negb (Ascii.eqb c " ") then Ok b
        else if spdf l then
          bind (word 1 (split [] l)) (fun a => bind (word 0 (split [] l)) (fun w => bind (to_int w) (fun n =>
          read_shells r {| b_exp := b_exp b; b_coef := b_coef b; b_ang := b_ang b; b_left := n; b_angular := a; b_e := []; b_c := [] |})))
        else bind (take_primitive l b) (fun b => bind (close_shell b) (fun b => read_shells r b))
    end.
  (** The first loop, lines 21-28, and the rest of the function; [atom] is [atom_name]. *)
  Definition tag (atom : line) : line := map low (if Nat.eqb (List.length atom) 1 then atom ++ [" "%char] else atom).
  Fixpoint after_tag (t : line) (ls : list line) : Res (list line) :=
    match ls with
    | [] => Raise ValueError
    | l :: r => if list_eq_dec ascii_dec (firstn 2 l) t then Ok r else after_tag t r
    end.
  Definition read_basis (atom : line) (ls : list line) : Res (list (list V) * list (list V) * list (list (list nat))) :=
    bind (after_tag (tag atom) ls) (fun r => bind (read_shells r reader0) (fun b => Ok (b_exp b, b_coef b, b_ang b))).
End Basis.
