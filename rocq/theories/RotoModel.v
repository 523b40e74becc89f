(** Model of the RotoSolve optimiser, slowquant/unitary_coupled_cluster/optimizers.py.

    Floats are idealised to real numbers.  The arrays [x_vals] over which
    [reconstructed_f] and its derivative work are treated one point at a time (the
    loops over [j] act on each entry separately).  [scipy.optimize.minimize] is a
    parameter. *)
From Coq Require Import Reals List ZArith Lra Lia.
From Verif Require Import Base.
Import ListNotations.
Local Open Scope R_scope.

Definition rsum (l : list R) : R := fold_right Rplus 0 l.

(** [np.sinc] *)
Definition npsinc (u : R) : R := if Req_EM_T u 0 then 1 else sin (PI * u) / (PI * u).

(** [list(range(-R, R + 1))] *)
Definition mus (r : nat) : list Z := map (fun i => (Z.of_nat i - Z.of_nat r)%Z) (seq 0 (2 * r + 1)).
(** [2 * mu / (2 * R + 1) * np.pi] *)
Definition x_mu (r : nat) (mu : Z) : R := 2 * IZR mu / (2 * INR r + 1) * PI.

(** optimizers.py, [reconstructed_f], lines 321-367, single-state case, one point
    of [x_vals].  [energy_vals[i]] is read for [i < 2 R + 1]; numba does not check
    bounds, the callers pass exactly [2 R + 1] values. *)
Definition term_f (r : nat) (x : R) (e : R) (mu : Z) : R :=
  e * npsinc ((2 * INR r + 1) / 2 * (x - x_mu r mu) / PI) / npsinc (1 / 2 * (x - x_mu r mu) / PI).
Definition reconstructed_f (energy_vals : list R) (r : nat) (x : R) : R :=
  rsum (map (fun im : nat * Z => term_f r x (nth (fst im) energy_vals 0) (snd im)) (combine (seq 0 (2 * r + 1)) (mus r))).
(** State-averaged case: [energy_vals[i][k]]; the sum is divided by
    [len(energy_vals)]. *)
Definition reconstructed_f_sa (energy_vals : list (list R)) (r : nat) (x : R) : R :=
  rsum (map (fun k => rsum (map (fun im : nat * Z => term_f r x (nth k (nth (fst im) energy_vals []) 0) (snd im))
                                (combine (seq 0 (2 * r + 1)) (mus r))))
            (seq 0 (length (nth 0 energy_vals []))))
  / INR (length energy_vals).

(** optimizers.py, [_sinc_derivative], lines 390-406.  [eps] is the cut-off
    [1e-12]. *)
Definition sinc_derivative (eps u : R) : R :=
  if Rlt_dec eps (Rabs u) then cos (PI * u) / u - sin (PI * u) / (PI * u ^ 2) else 0.
(** optimizers.py, [reconstructed_f_derivative], lines 409-492. *)
Definition term_df (eps : R) (r : nat) (x : R) (e : R) (mu : Z) : R :=
  let A := (2 * INR r + 1) / 2 in
  let B := / 2 in
  let delta := x - x_mu r mu in
  let u := A * delta / PI in
  let v := B * delta / PI in
  let s1 := npsinc u in
  let s2 := npsinc v in
  let s1' := sinc_derivative eps u * (A / PI) in
  let s2' := sinc_derivative eps v * (B / PI) in
  e * (s1' * s2 - s1 * s2') / s2 ^ 2.
Definition reconstructed_f_derivative (eps : R) (energy_vals : list R) (r : nat) (x : R) : R :=
  rsum (map (fun im : nat * Z => term_df eps r x (nth (fst im) energy_vals 0) (snd im)) (combine (seq 0 (2 * r + 1)) (mus r))).
(** State-averaged case, lines 471-491. *)
Definition reconstructed_f_derivative_sa (eps : R) (energy_vals : list (list R)) (r : nat) (x : R) : R :=
  rsum (map (fun k => rsum (map (fun im : nat * Z => term_df eps r x (nth k (nth (fst im) energy_vals []) 0) (snd im))
                                (combine (seq 0 (2 * r + 1)) (mus r))))
            (seq 0 (length (nth 0 energy_vals []))))
  / INR (length energy_vals).

(** [x[idx] = v] *)
Fixpoint set_at (x : list R) (idx : nat) (v : R) : Res (list R) :=
  match x, idx with
  | [], _ => Raise IndexError
  | _ :: t, O => Ok (v :: t)
  | a :: t, S i => bind (set_at t i v) (fun t' => Ok (a :: t'))
  end.
(** optimizers.py, [get_energy_evals], lines 298-318.  [x] is a copy that keeps the
    last value written. *)
Definition get_energy_evals (f : list R -> R) (x : list R) (idx r : nat) : Res (list R) :=
  bind (fold_left (fun acc mu => bind acc (fun st : list R * list R =>
          bind (set_at (fst st) idx (x_mu r mu)) (fun x' => Ok (x', snd st ++ [f x']))))
        (mus r) (Ok (x, []))) (fun st => Ok (snd st)).
(** optimizers.py, [get_energy_evals_optimized], lines 370-387. *)
Definition get_energy_evals_optimized (f : list R -> list R -> nat -> list R) (x : list R) (idx r : nat) : list R :=
  f x (map (x_mu r) (mus r)) idx.

(** The two wrapping loops, lines 268-271: [while x < pi: x += 2 pi] and
    [while x > pi: x -= 2 pi]; [fuel] bounds the rounds. *)
Fixpoint wrap_up (fuel : nat) (x : R) : Res R :=
  if Rlt_dec x PI then match fuel with O => Hang | S k => wrap_up k (x + 2 * PI) end else Ok x.
Fixpoint wrap_down (fuel : nat) (x : R) : Res R :=
  if Rlt_dec PI x then match fuel with O => Hang | S k => wrap_down k (x - 2 * PI) end else Ok x.
Definition wrap (fuel : nat) (x : R) : Res R := bind (wrap_up fuel x) (wrap_down fuel).

(** [np.linspace(-np.pi, np.pi, n)] and [np.argmin] (first smallest). *)
Definition linspace (n : nat) : list R := map (fun j => - PI + INR j * (2 * PI / (INR n - 1))) (seq 0 n).
Fixpoint argmin_from (l : list R) (k best : nat) (vbest : R) : nat :=
  match l with
  | [] => best
  | v :: t => if Rlt_dec v vbest then argmin_from t (S k) k v else argmin_from t (S k) best vbest
  end.
Definition argmin (l : list R) : nat := match l with [] => O | v :: t => argmin_from t 1 0 v end.

Section Minimize.
  (** [scipy.optimize.minimize(fun, x0=[theta], jac=...).x[0]] *)
  Variable scipy_minimize : (R -> R) -> (R -> R) -> R -> R.
  (** The cut-off of [_sinc_derivative] and the number of grid points. *)
  Variable eps : R.
  Variable grid : nat.
  Variable fuel : nat.
  (** The dictionary [R] and the list [param_names]; names are numbers. *)
  Variable Rdict : nat -> option nat.
  Variable param_names : list nat.
  Variable max_iterations : nat.
  Variable threshold : R.
  Variable max_fail : nat.
  Variable f : list R -> R.

  (** One coordinate, lines 246-271 (without [f_rotosolve_optimized]). *)
  Definition update_coordinate (x : list R) (i par_name : nat) : Res (list R) :=
    match Rdict par_name with
    | None => Raise KeyError
    | Some r =>
        bind (get_energy_evals f x i r) (fun e_vals =>
        let f_rec := reconstructed_f e_vals r in
        let values := map f_rec (linspace grid) in
        let theta := nth (argmin values) (linspace grid) 0 in
        let t := scipy_minimize f_rec (reconstructed_f_derivative eps e_vals r) theta in
        bind (wrap fuel t) (fun t' => set_at x i t'))
    end.
  Definition sweep (x : list R) : Res (list R) :=
    fold_left (fun acc ip => bind acc (fun x => update_coordinate x (fst ip) (snd ip)))
      (combine (seq 0 (length param_names)) param_names) (Ok x).

  (** The state of the outer loop, lines 237-291. *)
  Record rstate := { rs_fbest : R; rs_x : list R; rs_xbest : list R; rs_fails : nat }.
  (** Result: [x], [fun], [success]. *)
  Definition result := (list R * R * bool)%type.
  (** [for _ in range(k)]: the remaining [k] sweeps. *)
  Fixpoint rloop (k : nat) (st : rstate) : Res result :=
    match k with
    | O => Ok (rs_xbest st, rs_fbest st, false)
    | S k' =>
        bind (sweep (rs_x st)) (fun x =>
        let f_new := f x in
        if Rlt_dec (Rabs (rs_fbest st - f_new)) threshold then Ok (x, f_new, true)
        else let st' := if Rlt_dec 0 (f_new - rs_fbest st)
                        then {| rs_fbest := rs_fbest st; rs_x := x; rs_xbest := rs_xbest st; rs_fails := S (rs_fails st) |}
                        else {| rs_fbest := f_new; rs_x := x; rs_xbest := x; rs_fails := rs_fails st |} in
             if (rs_fails st' =? max_fail)%nat then Ok (rs_xbest st', rs_fbest st', false)
             else rloop k' st')
    end.
  (** optimizers.py, [RotoSolve.minimize], lines 220-295. *)
  Definition minimize (x0 : list R) : Res result :=
    rloop max_iterations {| rs_fbest := 10 ^ 20; rs_x := x0; rs_xbest := x0; rs_fails := 0 |}.
End Minimize.
