(** Model of the object state of
    slowquant/unitary_coupled_cluster/ups_wavefunction.py (class
    WaveFunctionUPS): orbital-rotation and ansatz parameters, the accumulated
    orbital coefficients, the cached integrals, density matrices and energy, and
    the optimisation drivers that use them.

    Real coefficients (no rounding).  Python exceptions are values; a method is
    a function from the object state to the new object state and a result, so
    that what a failing method leaves behind is visible.  Not modelled: printing,
    timing, [num_energy_evals], aliasing of returned arrays. *)
From Coq Require Import List Bool Arith NArith ZArith Reals.
From Verif Require Import Base RRing Fock FermiModel OperatorsModel CIModel StateModel UPSModel DensityModel MatModel MatExp.
Import ListNotations.
Local Open Scope R_scope.

(** Square matrices as lists of rows. *)
Definition mat := list (list R).
Definition ent (M : mat) : nat -> nat -> R := fun i j => nth j (nth i M []) 0.
Definition tab (n : nat) (f : nat -> nat -> R) : mat := map (fun i => map (f i) (seq 0 n)) (seq 0 n).

(** Elementwise numpy arithmetic on one-dimensional arrays: equal lengths, or one
    operand of length one (broadcast), otherwise ValueError. *)
Fixpoint map2 (f : R -> R -> R) (a b : list R) : list R :=
  match a, b with x :: a', y :: b' => f x y :: map2 f a' b' | _, _ => [] end.
Definition np_op (f : R -> R -> R) (a b : list R) : Res (list R) :=
  if Nat.eqb (length a) (length b) then Ok (map2 f a b)
  else match a, b with
       | [x], _ => Ok (map (f x) b)
       | _, [y] => Ok (map (fun x => f x y) a)
       | _, _ => Raise ValueError
       end.
(** [np.max(np.abs(l))]: ValueError on an empty array. *)
Definition np_max_abs (l : list R) : Res R :=
  match l with [] => Raise ValueError | x :: r => Ok (fold_left (fun m y => Rmax m (Rabs y)) r (Rabs x)) end.

Definition upd2 (p q : nat) (v : R) (M : nat -> nat -> R) : nat -> nat -> R :=
  fun i j => if Nat.eqb i p && Nat.eqb j q then v else M i j.

(** The loop of [c_mo], ups_wavefunction.py:381-383 ([zip] stops at the shortest). *)
Fixpoint fill_kappa (kappa kappa_old : list R) (idx : list (nat * nat)) (M : nat -> nat -> R) : nat -> nat -> R :=
  match kappa, kappa_old, idx with
  | kv :: kappa', ko :: old', (p, q) :: idx' =>
      fill_kappa kappa' old' idx' (upd2 q p (- (kv - ko)) (upd2 p q (kv - ko) M))
  | _, _, _ => M
  end.
Definition zero_mat : nat -> nat -> R := fun _ _ => 0.

(** Parameters of a call that the optimiser makes. *)
Inductive call := CallE (p : list R) | CallG (p : list R).

Section Wave.
  Variables (N : nat) (kappa_idx : list (nat * nat)).
  Variables (h_ao : nat -> nat -> R) (g_ao : nat -> nat -> nat -> nat -> R).
  Variables (tiny : R -> bool) (sp : space) (th : threads).
  Variables (struct : list exc) (csf : list R).
  Notation half := (1 / 2).
  Notation ni := (sp_ni sp).
  Notation na := (sp_na sp).

  (** The attributes.  [karr]/[tarr]: [_kappa]/[_thetas] holds a numpy array
      rather than a list.  [rdm3]/[rdm4]: [None] when the attribute does not
      exist yet ([__init__] creates [_rdm1] and [_rdm2] only, lines 82-83). *)
  Record wf := {
    w_kappa : list R; w_karr : bool; w_kold : list R; w_cmo : mat;
    w_h : option (nat -> nat -> R); w_g : option (nat -> nat -> nat -> nat -> R);
    w_thetas : list R; w_tarr : bool; w_ci : list R;
    w_rdm1 : option (@arr R); w_rdm2 : option (@arr R);
    w_rdm3 : option (option (@arr R)); w_rdm4 : option (option (@arr R));
    w_energy : option R;
    w_oldp : list R; w_eold : R
  }.

  Definition M (A : Type) := wf -> wf * Res A.
  Definition ret {A} (a : A) : M A := fun s => (s, Ok a).
  Definition lift {A} (r : Res A) : M A := fun s => (s, r).
  Definition mbind {A B} (m : M A) (f : A -> M B) : M B := fun s =>
    match m s with
    | (s', Ok a) => f a s'
    | (s', Raise e) => (s', Raise e)
    | (s', Hang) => (s', Hang)
    end.
  Definition modify (f : wf -> wf) : M unit := fun s => (f s, Ok tt).
  Definition gets {A} (f : wf -> A) : M A := fun s => (s, Ok (f s)).

  Definition set_h x s := {| w_kappa := w_kappa s; w_karr := w_karr s; w_kold := w_kold s; w_cmo := w_cmo s; w_h := x; w_g := w_g s; w_thetas := w_thetas s; w_tarr := w_tarr s; w_ci := w_ci s; w_rdm1 := w_rdm1 s; w_rdm2 := w_rdm2 s; w_rdm3 := w_rdm3 s; w_rdm4 := w_rdm4 s; w_energy := w_energy s; w_oldp := w_oldp s; w_eold := w_eold s |}.
  Definition set_g x s := {| w_kappa := w_kappa s; w_karr := w_karr s; w_kold := w_kold s; w_cmo := w_cmo s; w_h := w_h s; w_g := x; w_thetas := w_thetas s; w_tarr := w_tarr s; w_ci := w_ci s; w_rdm1 := w_rdm1 s; w_rdm2 := w_rdm2 s; w_rdm3 := w_rdm3 s; w_rdm4 := w_rdm4 s; w_energy := w_energy s; w_oldp := w_oldp s; w_eold := w_eold s |}.
  Definition set_energy x s := {| w_kappa := w_kappa s; w_karr := w_karr s; w_kold := w_kold s; w_cmo := w_cmo s; w_h := w_h s; w_g := w_g s; w_thetas := w_thetas s; w_tarr := w_tarr s; w_ci := w_ci s; w_rdm1 := w_rdm1 s; w_rdm2 := w_rdm2 s; w_rdm3 := w_rdm3 s; w_rdm4 := w_rdm4 s; w_energy := x; w_oldp := w_oldp s; w_eold := w_eold s |}.
  Definition set_k k arr s := {| w_kappa := k; w_karr := arr; w_kold := w_kold s; w_cmo := w_cmo s; w_h := w_h s; w_g := w_g s; w_thetas := w_thetas s; w_tarr := w_tarr s; w_ci := w_ci s; w_rdm1 := w_rdm1 s; w_rdm2 := w_rdm2 s; w_rdm3 := w_rdm3 s; w_rdm4 := w_rdm4 s; w_energy := w_energy s; w_oldp := w_oldp s; w_eold := w_eold s |}.
  Definition set_kold k s := {| w_kappa := w_kappa s; w_karr := w_karr s; w_kold := k; w_cmo := w_cmo s; w_h := w_h s; w_g := w_g s; w_thetas := w_thetas s; w_tarr := w_tarr s; w_ci := w_ci s; w_rdm1 := w_rdm1 s; w_rdm2 := w_rdm2 s; w_rdm3 := w_rdm3 s; w_rdm4 := w_rdm4 s; w_energy := w_energy s; w_oldp := w_oldp s; w_eold := w_eold s |}.
  Definition set_cmo c s := {| w_kappa := w_kappa s; w_karr := w_karr s; w_kold := w_kold s; w_cmo := c; w_h := w_h s; w_g := w_g s; w_thetas := w_thetas s; w_tarr := w_tarr s; w_ci := w_ci s; w_rdm1 := w_rdm1 s; w_rdm2 := w_rdm2 s; w_rdm3 := w_rdm3 s; w_rdm4 := w_rdm4 s; w_energy := w_energy s; w_oldp := w_oldp s; w_eold := w_eold s |}.
  Definition set_th t arr s := {| w_kappa := w_kappa s; w_karr := w_karr s; w_kold := w_kold s; w_cmo := w_cmo s; w_h := w_h s; w_g := w_g s; w_thetas := t; w_tarr := arr; w_ci := w_ci s; w_rdm1 := w_rdm1 s; w_rdm2 := w_rdm2 s; w_rdm3 := w_rdm3 s; w_rdm4 := w_rdm4 s; w_energy := w_energy s; w_oldp := w_oldp s; w_eold := w_eold s |}.
  Definition set_ci v s := {| w_kappa := w_kappa s; w_karr := w_karr s; w_kold := w_kold s; w_cmo := w_cmo s; w_h := w_h s; w_g := w_g s; w_thetas := w_thetas s; w_tarr := w_tarr s; w_ci := v; w_rdm1 := w_rdm1 s; w_rdm2 := w_rdm2 s; w_rdm3 := w_rdm3 s; w_rdm4 := w_rdm4 s; w_energy := w_energy s; w_oldp := w_oldp s; w_eold := w_eold s |}.
  Definition set_r1 x s := {| w_kappa := w_kappa s; w_karr := w_karr s; w_kold := w_kold s; w_cmo := w_cmo s; w_h := w_h s; w_g := w_g s; w_thetas := w_thetas s; w_tarr := w_tarr s; w_ci := w_ci s; w_rdm1 := x; w_rdm2 := w_rdm2 s; w_rdm3 := w_rdm3 s; w_rdm4 := w_rdm4 s; w_energy := w_energy s; w_oldp := w_oldp s; w_eold := w_eold s |}.
  Definition set_r2 x s := {| w_kappa := w_kappa s; w_karr := w_karr s; w_kold := w_kold s; w_cmo := w_cmo s; w_h := w_h s; w_g := w_g s; w_thetas := w_thetas s; w_tarr := w_tarr s; w_ci := w_ci s; w_rdm1 := w_rdm1 s; w_rdm2 := x; w_rdm3 := w_rdm3 s; w_rdm4 := w_rdm4 s; w_energy := w_energy s; w_oldp := w_oldp s; w_eold := w_eold s |}.
  Definition set_r3 x s := {| w_kappa := w_kappa s; w_karr := w_karr s; w_kold := w_kold s; w_cmo := w_cmo s; w_h := w_h s; w_g := w_g s; w_thetas := w_thetas s; w_tarr := w_tarr s; w_ci := w_ci s; w_rdm1 := w_rdm1 s; w_rdm2 := w_rdm2 s; w_rdm3 := x; w_rdm4 := w_rdm4 s; w_energy := w_energy s; w_oldp := w_oldp s; w_eold := w_eold s |}.
  Definition set_r4 x s := {| w_kappa := w_kappa s; w_karr := w_karr s; w_kold := w_kold s; w_cmo := w_cmo s; w_h := w_h s; w_g := w_g s; w_thetas := w_thetas s; w_tarr := w_tarr s; w_ci := w_ci s; w_rdm1 := w_rdm1 s; w_rdm2 := w_rdm2 s; w_rdm3 := w_rdm3 s; w_rdm4 := x; w_energy := w_energy s; w_oldp := w_oldp s; w_eold := w_eold s |}.
  Definition set_memo p e s := {| w_kappa := w_kappa s; w_karr := w_karr s; w_kold := w_kold s; w_cmo := w_cmo s; w_h := w_h s; w_g := w_g s; w_thetas := w_thetas s; w_tarr := w_tarr s; w_ci := w_ci s; w_rdm1 := w_rdm1 s; w_rdm2 := w_rdm2 s; w_rdm3 := w_rdm3 s; w_rdm4 := w_rdm4 s; w_energy := w_energy s; w_oldp := p; w_eold := e |}.

  (** [__init__], lines 82-86, 163-187, 258-266, 314: no rotation yet, no
      cache filled, parameters zero, CI vector equal to the reference. *)
  Definition init (mo_coeffs : mat) : wf := {|
    w_kappa := map (fun _ => 0) kappa_idx; w_karr := false; w_kold := map (fun _ => 0) kappa_idx; w_cmo := mo_coeffs;
    w_h := None; w_g := None;
    w_thetas := map (fun _ => 0) struct; w_tarr := false; w_ci := csf;
    w_rdm1 := None; w_rdm2 := None; w_rdm3 := None; w_rdm4 := None;
    w_energy := None; w_oldp := []; w_eold := 0
  |}.

  (** [c_mo], lines 367-385.  Rotation indices outside the matrix would raise
      IndexError; the model ignores them (C31 shows that they are inside). *)
  Definition kappa_mat (kappa kappa_old : list R) : Res (nat -> nat -> R) :=
    match kappa with
    | [] => Ok zero_mat
    | _ => bind (np_op Rminus kappa kappa_old) (fun d => bind (np_max_abs d) (fun m =>
           Ok (if Rlt_dec 0 m then fill_kappa kappa kappa_old kappa_idx zero_mat else zero_mat)))
    end.
  Definition rotate (c : mat) (km : nat -> nat -> R) : mat := tab N (matmul N (ent c) (expm N (mscal (-1) km))).
  Definition get_c_mo : M mat := fun s =>
    (s, bind (kappa_mat (w_kappa s) (w_kold s)) (fun km => Ok (rotate (w_cmo s) km))).

  (** The [kappa] setter, lines 321-334. *)
  Definition set_kappa (k : list R) (is_array : bool) : M unit :=
    mbind (modify (set_h None)) (fun _ => mbind (modify (set_g None)) (fun _ => mbind (modify (set_energy None)) (fun _ =>
    mbind (modify (set_k k is_array)) (fun _ =>
    mbind get_c_mo (fun c => mbind (modify (set_cmo c)) (fun _ =>
    mbind (gets w_kappa) (fun k' => modify (set_kold k')))))))).

  (** The [thetas] setter, lines 345-365. *)
  Definition set_thetas (t : list R) (is_array : bool) : M unit :=
    mbind (gets w_thetas) (fun old =>
    if negb (Nat.eqb (length t) (length old)) then lift (Raise ValueError)
    else mbind (modify (set_r1 None)) (fun _ => mbind (modify (set_r2 None)) (fun _ =>
         mbind (modify (set_r3 (Some None))) (fun _ => mbind (modify (set_r4 (Some None))) (fun _ =>
         mbind (modify (set_energy None)) (fun _ => mbind (modify (set_th t is_array)) (fun _ =>
         mbind (gets w_thetas) (fun t' =>
         mbind (lift (ups_state tiny sp th 0 struct t' false csf)) (fun v => modify (set_ci v)))))))))).

  (** [h_mo], [g_mo], lines 387-407. *)
  Definition get_h : M (nat -> nat -> R) := fun s =>
    match w_h s with
    | Some x => (s, Ok x)
    | None => mbind get_c_mo (fun c => let x := one_electron_integral_transform N (ent c) h_ao in
              mbind (modify (set_h (Some x))) (fun _ => ret x)) s
    end.
  Definition get_g : M (nat -> nat -> nat -> nat -> R) := fun s =>
    match w_g s with
    | Some x => (s, Ok x)
    | None => mbind get_c_mo (fun c => let x := two_electron_integral_transform N (ent c) g_ao in
              mbind (modify (set_g (Some x))) (fun _ => ret x)) s
    end.

  (** [rdm1] ... [rdm4], lines 409-754.  Simplification: when an expectation
      value raises, the real code has already stored a partly filled array; the
      model leaves the cache unchanged (C28 and C59 show that nothing raises on
      the spaces that the class builds). *)
  Definition ev (ci : list R) (ops : list (Res dict)) : Res R := ev_ops tiny sp th no_ansatz ci ops.
  Definition get_rdm1 : M arr := fun s =>
    match w_rdm1 s with
    | Some x => (s, Ok x)
    | None => mbind (gets w_ci) (fun ci =>
              mbind (lift (rdm1_loop (fun p q => ev ci [Epq p q]) ni na)) (fun x =>
              mbind (modify (set_r1 (Some x))) (fun _ => ret x))) s
    end.
  Definition get_rdm2 : M arr := fun s =>
    match w_rdm2 s with
    | Some x => (s, Ok x)
    | None => mbind get_rdm1 (fun r1 => mbind (gets w_ci) (fun ci =>
              mbind (lift (rdm2_loop (fun p q r s => ev ci [mmul (Epq p q) (Epq r s)]) r1 ni na)) (fun x =>
              mbind (modify (set_r2 (Some x))) (fun _ => ret x)))) s
    end.
  Definition get_rdm3 : M arr := fun s =>
    match w_rdm3 s with
    | None => (s, Raise AttributeError)
    | Some (Some x) => (s, Ok x)
    | Some None => mbind get_rdm1 (fun r1 => mbind get_rdm2 (fun r2 => mbind (gets w_ci) (fun ci =>
              mbind (lift (rdm3_loop (fun p q r s t u => ev ci [Epq p q; Epq r s; Epq t u]) r1 r2 ni na)) (fun x =>
              mbind (modify (set_r3 (Some (Some x)))) (fun _ => ret x))))) s
    end.
  Definition get_rdm4 : M arr := fun s =>
    match w_rdm4 s with
    | None => (s, Raise AttributeError)
    | Some (Some x) => (s, Ok x)
    | Some None => mbind get_rdm1 (fun r1 => mbind get_rdm2 (fun r2 => mbind get_rdm3 (fun r3 => mbind (gets w_ci) (fun ci =>
              mbind (lift (rdm4_loop (fun p q r s t u m n => ev ci [Epq p q; Epq r s; Epq t u; Epq m n]) r1 r2 r3 ni na)) (fun x =>
              mbind (modify (set_r4 (Some (Some x)))) (fun _ => ret x)))))) s
    end.

  (** [expectation_value(ci, [hamiltonian_0i_0a(h, g, ni, na)], ci, ci_info)]. *)
  Definition energy_of (h : nat -> nat -> R) (g : nat -> nat -> nat -> nat -> R) (ci : list R) : Res R :=
    bind (hamiltonian_0i_0a half h g ni na) (fun H => expectation_value tiny sp th true false no_ansatz ci [SOp H] ci).
  (** [energy_elec], lines 770-784. *)
  Definition get_energy : M R := fun s =>
    match w_energy s with
    | Some x => (s, Ok x)
    | None => mbind get_h (fun h => mbind get_g (fun g => mbind (gets w_ci) (fun ci =>
              mbind (lift (energy_of h g ci)) (fun x =>
              mbind (modify (set_energy (Some x))) (fun _ => ret x))))) s
    end.

  (** [_calc_energy_optimization], lines 1019-1058. *)
  Definition memo_hit (p : list R) : M bool :=
    mbind (gets w_oldp) (fun o => mbind (lift (np_op Rminus o p)) (fun d => mbind (lift (np_max_abs d)) (fun m =>
    ret (if Rlt_dec m (/ 10 ^ 14) then true else false)))).
  Definition set_params (p : list R) (theta kappa : bool) : M unit :=
    let nk := if kappa then length kappa_idx else 0%nat in
    mbind (if kappa then set_kappa (firstn nk p) true else ret tt) (fun _ =>
           if theta then set_thetas (skipn nk p) true else ret tt).
  Definition calc_energy (theta kappa : bool) (p : list R) : M R :=
    mbind (memo_hit p) (fun hit =>
    if hit then gets w_eold
    else mbind (set_params p theta kappa) (fun _ =>
         mbind (if kappa
                then mbind get_h (fun h => mbind get_g (fun g => mbind get_rdm1 (fun r1 => mbind get_rdm2 (fun r2 =>
                     ret (get_electronic_energy half h g ni na (fun i j => r1 [i; j]) (fun i j k l => r2 [i; j; k; l]))))))
                else mbind get_h (fun h => mbind get_g (fun g => mbind (gets w_ci) (fun ci => lift (energy_of h g ci))))) (fun E =>
         mbind (modify (set_memo p E)) (fun _ => ret E)))).

  (** The loop over the ansatz parameters in [_calc_gradient_optimization], lines 1111-1137. *)
  Definition theta_loop (thetas : list R) (bra ket : list R) : Res (list R) :=
    bind (fold_left (fun acc i => bind acc (fun bkg : (list R * list R) * list R =>
            let '(bra, ket, grad) := bkg in
            bind (ups_grad tiny sp th 0 struct i ket) (fun tmp =>
            bind (ups_unitary tiny sp th 0 struct thetas i bra) (fun bra' =>
            bind (ups_unitary tiny sp th 0 struct thetas i ket) (fun ket' =>
            Ok (bra', ket', grad ++ [2 * dot bra tmp]))))))
          (seq 0 (length thetas)) (Ok (bra, ket, []))) (fun bkg => Ok (snd bkg)).
  (** Lines 1092-1110: [bra = U^dagger H ci]. *)
  Definition theta_gradient (h : nat -> nat -> R) (g : nat -> nat -> nat -> nat -> R) (ci thetas : list R) : Res (list R) :=
    bind (hamiltonian_0i_0a half h g ni na) (fun H =>
    bind (propagate_state tiny sp th true false no_ansatz [SOp H] ci) (fun bra =>
    bind (ups_state tiny sp th 0 struct thetas true bra) (fun bra =>
    theta_loop thetas bra csf))).
  (** [_calc_gradient_optimization], lines 1060-1142. *)
  Definition calc_gradient (theta kappa : bool) (p : list R) : M (list R) :=
    mbind (set_params p theta kappa) (fun _ =>
    mbind (if kappa
           then mbind get_h (fun h => mbind get_g (fun g => mbind get_rdm1 (fun r1 => mbind get_rdm2 (fun r2 =>
                ret (get_orbital_gradient h g kappa_idx ni na (fun i j => r1 [i; j]) (fun i j k l => r2 [i; j; k; l]))))))
           else ret []) (fun gk =>
    mbind (if theta
           then mbind get_h (fun h => mbind get_g (fun g => mbind (gets w_ci) (fun ci => mbind (gets w_thetas) (fun t =>
                lift (theta_gradient h g ci t)))))
           else ret []) (fun gt => ret (gk ++ gt)))).

  (** What [Optimizers.minimize] does with the object: an arbitrary finite
      sequence of calls of the energy and gradient functions.  Their results
      are collected. *)
  Definition one_call (theta kappa : bool) (c : call) : M (list R) :=
    match c with
    | CallE p => mbind (calc_energy theta kappa p) (fun e => ret [e])
    | CallG p => calc_gradient theta kappa p
    end.
  Fixpoint calls (theta kappa : bool) (l : list call) : M (list (list R)) :=
    match l with
    | [] => ret []
    | c :: r => mbind (one_call theta kappa c) (fun a => mbind (calls theta kappa r) (fun b => ret (a :: b)))
    end.
  (** [for i in range(len(self.kappa)): self._kappa[i] = 0.0; self._kappa_old[i] = 0.0]. *)
  Definition zero_kappa : M unit := fun s =>
    if Nat.leb (length (w_kappa s)) (length (w_kold s))
    then (set_kold (map (fun _ => 0) (w_kappa s) ++ skipn (length (w_kappa s)) (w_kold s))
            (set_k (map (fun _ => 0) (w_kappa s)) (w_karr s) s), Ok tt)
    else (s, Raise IndexError).
  (** [self.kappa + self.thetas]: concatenation of lists, but elementwise
      addition as soon as one of them is a numpy array. *)
  Definition start_params (orb : bool) : M (list R) := fun s =>
    (s, if orb then
          if Nat.ltb 0 (length (w_thetas s)) then
            if w_karr s || w_tarr s then np_op Rplus (w_kappa s) (w_thetas s) else Ok (w_kappa s ++ w_thetas s)
          else Ok (w_kappa s)
        else Ok (w_thetas s)).
  (** [run_wf_optimization_1step], lines 920-1017, for a gradient-based or
      gradient-free optimiser that makes the calls [optimiser x0] and returns the
      point [x] with value [f]. *)
  Definition run_1step (orb : bool) (optimiser : list R -> list call) (x : list R) (f : R) : M (list (list R)) :=
    mbind (gets w_thetas) (fun t0 =>
    let theta := negb orb || Nat.ltb 0 (length t0) in
    mbind (start_params orb) (fun p0 =>
    mbind (modify (set_memo (map (fun _ => 10 ^ 20) p0) 0)) (fun _ =>
    mbind (calls theta orb (optimiser p0)) (fun out =>
    mbind (gets w_kappa) (fun k =>
    mbind (if orb then mbind (set_thetas (skipn (length k) x) false) (fun _ => zero_kappa)
           else set_thetas x false) (fun _ =>
    mbind (modify (set_energy (Some f))) (fun _ => ret out))))))).

  (** User-visible operations. *)
  Inductive attr := AC | AH | AG | AKappa | AThetas | ACi | ARdm1 | ARdm2 | ARdm3 | ARdm4 | AEnergy.
  Inductive val :=
  | VUnit | VMat (m : mat) | V2 (a : nat -> nat -> R) | V4 (a : nat -> nat -> nat -> nat -> R)
  | VArr (a : @arr R) | VVec (l : list R) | VNum (x : R).
  Inductive op := SetKappa (k : list R) (is_array : bool) | SetThetas (t : list R) (is_array : bool) | Read (a : attr).
  Definition tag {A} (f : A -> val) (m : M A) : M val := mbind m (fun a => ret (f a)).
  Definition read (a : attr) : M val :=
    match a with
    | AC => tag VMat get_c_mo | AH => tag V2 get_h | AG => tag V4 get_g
    | AKappa => tag VVec (gets w_kappa) | AThetas => tag VVec (gets w_thetas) | ACi => tag VVec (gets w_ci)
    | ARdm1 => tag VArr get_rdm1 | ARdm2 => tag VArr get_rdm2 | ARdm3 => tag VArr get_rdm3 | ARdm4 => tag VArr get_rdm4
    | AEnergy => tag VNum get_energy
    end.
  Definition do_op (o : op) : M val :=
    match o with
    | SetKappa k b => tag (fun _ => VUnit) (set_kappa k b)
    | SetThetas t b => tag (fun _ => VUnit) (set_thetas t b)
    | Read a => read a
    end.
  (** A history: the caller may catch exceptions and go on. *)
  Fixpoint history (l : list op) (s : wf) : wf * list (Res val) :=
    match l with
    | [] => (s, [])
    | o :: r => let '(s', v) := do_op o s in let '(s'', vs) := history r s' in (s'', v :: vs)
    end.
End Wave.
