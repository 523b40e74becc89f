(** Model of [boys_function], slowquant/molecularintegrals/integralfunctions.py
    lines 75-97. *)
From Coq Require Import List Arith Reals.
From Coquelicot Require Import Coquelicot.
Require Import Verif.IntegralModel.
Import ListNotations.
Local Open Scope R_scope.

(** [math.erf]: library function, taken to be exact. *)
Definition erf (x : R) : R := 2 / sqrt PI * RInt (fun t => exp (- t ^ 2)) 0 x.
(** The loop of lines 90-95 from iteration [i] on, with [fuel] iterations left
    and [F] accumulated.  [factorial2(2 * n + 2 * i + 1)] is the double factorial of
    [2 (n + i + 1) - 1].  Real numbers instead of floats. *)
Fixpoint boys_loop (threshold : R) (n : nat) (z : R) (fuel i : nat) (F : R) : R :=
  match fuel with
  | O => F
  | S fuel' =>
      let Fcheck := F in
      let F := F + (2 * z) ^ i / factorial2_odd (n + i + 1) in
      let Fcheck := Fcheck - F in
      if Rlt_dec (Rabs Fcheck) threshold then F else boys_loop threshold n z fuel' (S i) F
  end.
(** [boys_function], lines 75-97.  [** 0.5] is the square root;
    [z ** (2.0 * n + 1.0)] is a power with a natural exponent. *)
Definition boys_function (n : nat) (z : R) : R :=
  match n with
  | O => if Rlt_dec z (1 / 10 ^ 10) then 1 else sqrt (PI / (4 * z)) * erf (sqrt z)
  | _ =>
      if Rlt_dec 25 z then factorial2_odd n / 2 ^ (n + 1) * sqrt (PI / z ^ (2 * n + 1))
      else if Rlt_dec z (1 / 10 ^ 10) then 1 / (2 * INR n + 1)
      else boys_loop (1 / 10 ^ 12) n z 1000 0 0 * (exp (- z) * factorial2_odd n)
  end.
