(** Model of slowquant/unitary_coupled_cluster/density_matrix.py and of the
    active-space density matrices of ups_wavefunction.py.

    Arrays are modelled as functions of their indices; indices outside an array
    are never read by the code below when the orbital indices given to it lie in
    the orbital space.  Floats are elements of an arbitrary commutative ring
    with an element [half] standing for [1 / 2] and [s2] for [2 ** (-1 / 2)].
    The [numba] decorators have no counterpart. *)
From Coq Require Import List Bool Arith NArith Lia Ring.
From Verif Require Import Base Fock FermiModel OperatorsModel CIModel StateModel.
Import ListNotations.

Section Density.
  Context {K : Type} {C : CRing K}.
  Local Open Scope K_scope.
  Notation dict := (list (fstring * K)).
  Notation arr1 := (nat -> K).
  Notation arr2 := (nat -> nat -> K).
  Notation arr4 := (nat -> nat -> nat -> nat -> K).

  (** The integer literals 2 and 4. *)
  Definition k2 : K := 1 + 1.
  Definition k4 : K := k2 + k2.

  (** [for p in range(n): acc += F p]. *)
  Definition loop (n : nat) (F : nat -> K -> K) (acc : K) : K := fold_left (fun a p => F p a) (seq 0 n) acc.

  (** [RDM1], lines 6-43. *)
  Definition RDM1 (p q ni na : nat) (rdm1 : arr2) : K :=
    let virt_start := (ni + na)%nat in
    if (virt_start <=? p)%nat || (virt_start <=? q)%nat then 0
    else if (ni <=? p)%nat && (ni <=? q)%nat then rdm1 (p - ni)%nat (q - ni)%nat
    else if (p <? ni)%nat && (q <? ni)%nat then (if (p =? q)%nat then k2 else 0)
    else 0.

  (** [RDM2], lines 47-136. *)
  Definition RDM2 (p q r s ni na : nat) (rdm1 : arr2) (rdm2 : arr4) : K :=
    let virt_start := (ni + na)%nat in
    if (virt_start <=? p)%nat || (virt_start <=? q)%nat || (virt_start <=? r)%nat || (virt_start <=? s)%nat then 0
    else if (ni <=? p)%nat && (ni <=? q)%nat && (ni <=? r)%nat && (ni <=? s)%nat then
      rdm2 (p - ni)%nat (q - ni)%nat (r - ni)%nat (s - ni)%nat
    else if (p <? ni)%nat && (ni <=? q)%nat && (ni <=? r)%nat && (s <? ni)%nat then
      (if (p =? s)%nat then - rdm1 (q - ni)%nat (r - ni)%nat else 0)
    else if (ni <=? p)%nat && (q <? ni)%nat && (r <? ni)%nat && (ni <=? s)%nat then
      (if (q =? r)%nat then - rdm1 (p - ni)%nat (s - ni)%nat else 0)
    else if (ni <=? p)%nat && (ni <=? q)%nat && (r <? ni)%nat && (s <? ni)%nat then
      (if (r =? s)%nat then k2 * rdm1 (p - ni)%nat (q - ni)%nat else 0)
    else if (p <? ni)%nat && (q <? ni)%nat && (ni <=? r)%nat && (ni <=? s)%nat then
      (if (p =? q)%nat then k2 * rdm1 (r - ni)%nat (s - ni)%nat else 0)
    else if (p <? ni)%nat && (q <? ni)%nat && (r <? ni)%nat && (s <? ni)%nat then
      let val := 0 in
      let val := if (p =? q)%nat && (r =? s)%nat then val + k4 else val in
      let val := if (q =? r)%nat && (p =? s)%nat then val - k2 else val in
      val
    else 0.

  (** [get_electronic_energy], lines 140-178. *)
  Definition get_electronic_energy (half : K) (h_int : arr2) (g_int : arr4) (ni na : nat)
      (rdm1 : arr2) (rdm2 : arr4) : K :=
    let n := (ni + na)%nat in
    let energy := 0 in
    let energy := loop n (fun p => loop n (fun q a => a + h_int p q * RDM1 p q ni na rdm1)) energy in
    loop n (fun p => loop n (fun q => loop n (fun r => loop n (fun s a =>
      a + half * g_int p q r s * RDM2 p q r s ni na rdm1 rdm2)))) energy.

  (** [get_orbital_gradient], lines 182-230: the body of the loop over
      [kappa_idx], then the loop. *)
  Definition orbital_gradient_elem (h_int : arr2) (g_int : arr4) (ni na : nat) (rdm1 : arr2) (rdm2 : arr4)
      (mn : nat * nat) : K :=
    let '(m, n) := mn in
    let N := (ni + na)%nat in
    let a := loop N (fun p a =>
               let a := a + k2 * h_int n p * RDM1 m p ni na rdm1 in
               a - k2 * h_int p m * RDM1 p n ni na rdm1) 0 in
    loop N (fun p => loop N (fun q => loop N (fun r a =>
      let a := a + g_int n p q r * RDM2 m p q r ni na rdm1 rdm2 in
      let a := a - g_int p m q r * RDM2 p n q r ni na rdm1 rdm2 in
      let a := a - g_int m p q r * RDM2 n p q r ni na rdm1 rdm2 in
      a + g_int p n q r * RDM2 p m q r ni na rdm1 rdm2))) a.
  Definition get_orbital_gradient (h_int : arr2) (g_int : arr4) (kappa_idx : list (nat * nat)) (ni na : nat)
      (rdm1 : arr2) (rdm2 : arr4) : list K :=
    map (orbital_gradient_elem h_int g_int ni na rdm1 rdm2) kappa_idx.

  (** [get_orbital_gradient_response], lines 234-328: one entry of the first half
      (lines 261-293); the second half (lines 295-327) repeats the same body with
      the two orbital indices of the pair exchanged. *)
  Definition orbital_gradient_response_elem (half : K) (h_int : arr2) (g_int : arr4) (ni na : nat) (rdm1 : arr2)
      (rdm2 : arr4) (mn : nat * nat) : K :=
    let '(m, n) := mn in
    let N := (ni + na)%nat in
    let a := loop N (fun p a =>
               let a := a + h_int n p * RDM1 m p ni na rdm1 in
               a - h_int p m * RDM1 p n ni na rdm1) 0 in
    loop N (fun p => loop N (fun q => loop N (fun r a =>
      let a := a + half * g_int n p q r * RDM2 m p q r ni na rdm1 rdm2 in
      let a := a - half * g_int p m q r * RDM2 p n q r ni na rdm1 rdm2 in
      let a := a - half * g_int m p q r * RDM2 n p q r ni na rdm1 rdm2 in
      a + half * g_int p n q r * RDM2 p m q r ni na rdm1 rdm2))) a.
  Definition get_orbital_gradient_response (half s2 : K) (h_int : arr2) (g_int : arr4) (kappa_idx : list (nat * nat))
      (ni na : nat) (rdm1 : arr2) (rdm2 : arr4) : list K :=
    map (fun x => s2 * x)
      (map (orbital_gradient_response_elem half h_int g_int ni na rdm1 rdm2) kappa_idx
       ++ map (fun nm => orbital_gradient_response_elem half h_int g_int ni na rdm1 rdm2 (snd nm, fst nm)) kappa_idx).

  (** [get_orbital_response_metric_sigma], lines 332-359. *)
  Definition metric_sigma_elem (half : K) (ni na : nat) (rdm1 : arr2) (nm pq : nat * nat) : K :=
    let '(n, m) := nm in
    let '(p, q) := pq in
    let a := 0 in
    let a := if (p =? n)%nat then a + RDM1 m q ni na rdm1 else a in
    let a := if (m =? q)%nat then a - RDM1 p n ni na rdm1 else a in
    - half * a.
  Definition get_orbital_response_metric_sigma (half : K) (kappa_idx : list (nat * nat)) (ni na : nat) (rdm1 : arr2)
      : list (list K) :=
    map (fun nm => map (metric_sigma_elem half ni na rdm1 nm) kappa_idx) kappa_idx.

  (** [enumerate]. *)
  Definition enumerate {A} (l : list A) : list (nat * A) := combine (seq 0 (length l)) l.

  (** [get_orbital_response_vector_norm], lines 363-416; [rv] is the column
      [response_vectors[:, state_number]]. *)
  Definition get_orbital_response_vector_norm (half : K) (kappa_idx : list (nat * nat)) (ni na : nat) (rdm1 : arr2)
      (rv : arr1) (number_excitations : nat) : K :=
    half * fold_left (fun norm imn =>
      let '(i, (m, n)) := imn in
      fold_left (fun norm jtu =>
        let '(j, (t, u)) := jtu in
        let norm := if (n =? u)%nat then norm + rv i * rv j * RDM1 m t ni na rdm1 else norm in
        let norm := if (m =? t)%nat then norm - rv i * rv j * RDM1 n u ni na rdm1 else norm in
        let norm := if (m =? t)%nat then
                      norm + rv (i + number_excitations)%nat * rv (j + number_excitations)%nat * RDM1 n u ni na rdm1
                    else norm in
        if (n =? u)%nat then
          norm - rv (i + number_excitations)%nat * rv (j + number_excitations)%nat * RDM1 m t ni na rdm1
        else norm) (enumerate kappa_idx) norm) (enumerate kappa_idx) 0.

  (** [get_orbital_response_property_gradient], lines 420-461. *)
  Definition get_orbital_response_property_gradient (s2 : K) (x_mo : arr2) (kappa_idx : list (nat * nat)) (ni na : nat)
      (rdm1 : arr2) (rv : arr1) (number_excitations : nat) : K :=
    s2 * fold_left (fun pg imn =>
      let '(i, (m, n)) := imn in
      loop (ni + na) (fun p pg =>
        let pg := pg + (rv (i + number_excitations)%nat - rv i) * x_mo n p * RDM1 m p ni na rdm1 in
        pg + (rv i - rv (i + number_excitations)%nat) * x_mo m p * RDM1 n p ni na rdm1) pg) (enumerate kappa_idx) 0.

  (** [get_orbital_response_hessian_block], lines 465-563: the body for one pair
      of index pairs. *)
  Definition hessian_A1e (h : arr2) (ni na : nat) (rdm1 : arr2) (tu mn : nat * nat) : K :=
    let '(t, u) := tu in
    let '(m, n) := mn in
    let a := 0 in
    let a := a + h n t * RDM1 m u ni na rdm1 in
    let a := a + h u m * RDM1 t n ni na rdm1 in
    loop (ni + na) (fun p a =>
      let a := if (m =? u)%nat then a - h n p * RDM1 t p ni na rdm1 else a in
      if (t =? n)%nat then a - h p m * RDM1 p u ni na rdm1 else a) a.
  Definition hessian_A2e (g : arr4) (ni na : nat) (rdm1 : arr2) (rdm2 : arr4) (tu mn : nat * nat) : K :=
    let '(t, u) := tu in
    let '(m, n) := mn in
    let N := (ni + na)%nat in
    let G := fun p q r s => RDM2 p q r s ni na rdm1 rdm2 in
    let a := loop N (fun p => loop N (fun q a =>
      let a := a + g n t p q * G m u p q in
      let a := a - g n p u q * G m p t q in
      let a := a + g n p q t * G m p q u in
      let a := a + g u m p q * G t n p q in
      let a := a + g p m u q * G p n t q in
      let a := a - g p m q t * G p n q u in
      let a := a - g u p n q * G t p m q in
      let a := a + g p t n q * G p u m q in
      let a := a + g p q n t * G p q m u in
      let a := a + g u p q m * G t p q n in
      let a := a - g p t q m * G p u q n in
      a + g p q u m * G p q t n)) 0 in
    loop N (fun p => loop N (fun q => loop N (fun r a =>
      let a := if (m =? u)%nat then a - g n p q r * G t p q r else a in
      let a := if (t =? n)%nat then a - g p m q r * G p u q r else a in
      let a := if (m =? u)%nat then a - g p q n r * G p q t r else a in
      if (t =? n)%nat then a - g p q r m * G p q r u else a))) a.
  Definition hessian_elem (half : K) (h : arr2) (g : arr4) (ni na : nat) (rdm1 : arr2) (rdm2 : arr4)
      (tu mn : nat * nat) : K :=
    half * hessian_A1e h ni na rdm1 tu mn + half * half * hessian_A2e g ni na rdm1 rdm2 tu mn.
  (** The arrays have [len(kappa_idx1)] columns: entries for further elements of
      [kappa_idx2] do not exist (an out-of-bounds write, modelled as an
      exception); missing ones stay zero. *)
  Definition get_orbital_response_hessian_block (half : K) (h : arr2) (g : arr4) (kappa_idx1 kappa_idx2 : list (nat * nat))
      (ni na : nat) (rdm1 : arr2) (rdm2 : arr4) : Res (list (list K)) :=
    if (length kappa_idx1 <? length kappa_idx2)%nat && negb (length kappa_idx1 =? 0)%nat then Raise IndexError
    else Ok (map (fun tu => map (hessian_elem half h g ni na rdm1 rdm2 tu) kappa_idx2
                            ++ repeat 0 (length kappa_idx1 - length kappa_idx2)) kappa_idx1).

  (** ** Active-space density matrices *)

  (** A [k]-dimensional array is a function of the list of its [k] indices;
      [upd c v A] is the assignment [A[c] = v]. *)
  Definition arr := list nat -> K.
  Definition upd (c : list nat) (v : K) (A : arr) : arr := fun c' =>
    if list_eq_dec Nat.eq_dec c' c then v else A c'.

  (** [for p in range(lo, hi)] with a body that may raise. *)
  Definition rloop {S} (lo hi : nat) (body : nat -> S -> Res S) (s : S) : Res S :=
    fold_left (fun s p => bind s (body p)) (seq lo (hi - lo)) (Ok s).

  (** [if b: val -= x]. *)
  Definition sub_if (b : bool) (x val : K) : K := if b then val - x else val.

  (** Consecutive assignments [A[c] = v] of the same value. *)
  Definition upds (cs : list (list nat)) (v : K) (A : arr) : arr := fold_left (fun A c => upd c v A) cs A.

  (** ups_wavefunction.py, [rdm1], lines 409-430, for a given way [val] of
      evaluating the expectation value of [Epq(p, q)].  The cache
      ([_rdm1 is None]) is modelled with the wave function. *)
  Definition rdm1_loop (val : nat -> nat -> Res K) (ni na : nat) : Res arr :=
    rloop ni (ni + na) (fun p => rloop ni (p + 1) (fun q A =>
      bind (val p q) (fun v =>
        let p := (p - ni)%nat in let q := (q - ni)%nat in
        Ok (upds [[p; q]; [q; p]] v A))))
      (fun _ => 0).

  (** [s_lim], lines 452-459. *)
  Definition s_lim (p q r : nat) : nat :=
    if (p =? q)%nat then (r + 1)%nat
    else if (p =? r)%nat then (q + 1)%nat
    else if (q <? r)%nat then p
    else (p + 1)%nat.

  (** [rdm2], lines 432-476; [val p q r s] evaluates [Epq(p, q) * Epq(r, s)]. *)
  Definition rdm2_loop (val : nat -> nat -> nat -> nat -> Res K) (rdm1 : arr) (ni na : nat) : Res arr :=
    rloop ni (ni + na) (fun p => rloop ni (p + 1) (fun q => rloop ni (p + 1) (fun r =>
      rloop ni (s_lim p q r) (fun s A =>
        bind (val p q r s) (fun v =>
          let p := (p - ni)%nat in let q := (q - ni)%nat in let r := (r - ni)%nat in let s := (s - ni)%nat in
          let v := sub_if (q =? r)%nat (rdm1 [p; s]) v in
          Ok (upds [[p; q; r; s]; [r; s; p; q]; [q; p; s; r]; [s; r; q; p]] v A))))))
      (fun _ => 0).

  (** [rdm3], lines 478-536. *)
  Definition rdm3_writes (p q r s t u : nat) : list (list nat) :=
    [[p; q; r; s; t; u];
     [p; q; t; u; r; s];
     [r; s; p; q; t; u];
     [r; s; t; u; p; q];
     [t; u; p; q; r; s];
     [t; u; r; s; p; q];
     [q; p; s; r; u; t];
     [q; p; u; t; s; r];
     [s; r; q; p; u; t];
     [s; r; u; t; q; p];
     [u; t; q; p; s; r];
     [u; t; s; r; q; p]].
  Definition rdm3_loop (val : nat -> nat -> nat -> nat -> nat -> nat -> Res K) (rdm1 rdm2 : arr) (ni na : nat) : Res arr :=
    rloop ni (ni + na) (fun p => rloop ni (p + 1) (fun q => rloop ni (p + 1) (fun r => rloop ni (p + 1) (fun s =>
      rloop ni (r + 1) (fun t => rloop ni (p + 1) (fun u A =>
        bind (val p q r s t u) (fun v =>
          let p := (p - ni)%nat in let q := (q - ni)%nat in let r := (r - ni)%nat in
          let s := (s - ni)%nat in let t := (t - ni)%nat in let u := (u - ni)%nat in
          let v := sub_if (t =? s)%nat (rdm2 [p; q; r; u]) v in
          let v := sub_if (r =? q)%nat (rdm2 [p; s; t; u]) v in
          let v := sub_if (t =? q)%nat (rdm2 [p; u; r; s]) v in
          let v := sub_if ((t =? s) && (r =? q))%nat (rdm1 [p; u]) v in
          Ok (upds (rdm3_writes p q r s t u) v A))))))))
      (fun _ => 0).

  (** [rdm4], lines 538-754. *)
  Definition rdm4_writes (p q r s t u m n : nat) : list (list nat) :=
    [[p; q; r; s; t; u; m; n];
     [p; q; r; s; m; n; t; u];
     [p; q; t; u; r; s; m; n];
     [p; q; t; u; m; n; r; s];
     [p; q; m; n; r; s; t; u];
     [p; q; m; n; t; u; r; s];
     [r; s; p; q; t; u; m; n];
     [r; s; p; q; m; n; t; u];
     [r; s; t; u; p; q; m; n];
     [r; s; t; u; m; n; p; q];
     [r; s; m; n; p; q; t; u];
     [r; s; m; n; t; u; p; q];
     [t; u; p; q; r; s; m; n];
     [t; u; p; q; m; n; r; s];
     [t; u; r; s; p; q; m; n];
     [t; u; r; s; m; n; p; q];
     [t; u; m; n; p; q; r; s];
     [t; u; m; n; r; s; p; q];
     [m; n; p; q; r; s; t; u];
     [m; n; p; q; t; u; r; s];
     [m; n; r; s; p; q; t; u];
     [m; n; r; s; t; u; p; q];
     [m; n; t; u; p; q; r; s];
     [m; n; t; u; r; s; p; q];
     [q; p; s; r; u; t; n; m];
     [q; p; s; r; n; m; u; t];
     [q; p; u; t; s; r; n; m];
     [q; p; u; t; n; m; s; r];
     [q; p; n; m; s; r; u; t];
     [q; p; n; m; u; t; s; r];
     [s; r; q; p; u; t; n; m];
     [s; r; q; p; n; m; u; t];
     [s; r; u; t; q; p; n; m];
     [s; r; u; t; n; m; q; p];
     [s; r; n; m; q; p; u; t];
     [s; r; n; m; u; t; q; p];
     [u; t; q; p; s; r; n; m];
     [u; t; q; p; n; m; s; r];
     [u; t; s; r; q; p; n; m];
     [u; t; s; r; n; m; q; p];
     [u; t; n; m; q; p; s; r];
     [u; t; n; m; s; r; q; p];
     [n; m; q; p; s; r; u; t];
     [n; m; q; p; u; t; s; r];
     [n; m; s; r; q; p; u; t];
     [n; m; s; r; u; t; q; p];
     [n; m; u; t; q; p; s; r];
     [n; m; u; t; s; r; q; p]].
  Definition rdm4_loop (val : nat -> nat -> nat -> nat -> nat -> nat -> nat -> nat -> Res K) (rdm1 rdm2 rdm3 : arr)
      (ni na : nat) : Res arr :=
    rloop ni (ni + na) (fun p => rloop ni (p + 1) (fun q => rloop ni (p + 1) (fun r => rloop ni (p + 1) (fun s =>
      rloop ni (r + 1) (fun t => rloop ni (p + 1) (fun u => rloop ni (t + 1) (fun m => rloop ni (p + 1) (fun n A =>
        bind (val p q r s t u m n) (fun v =>
          let p := (p - ni)%nat in let q := (q - ni)%nat in let r := (r - ni)%nat in let s := (s - ni)%nat in
          let t := (t - ni)%nat in let u := (u - ni)%nat in let m := (m - ni)%nat in let n := (n - ni)%nat in
          let v := sub_if (r =? q)%nat (rdm3 [p; s; t; u; m; n]) v in
          let v := sub_if (t =? q)%nat (rdm3 [p; u; r; s; m; n]) v in
          let v := sub_if (m =? q)%nat (rdm3 [p; n; r; s; t; u]) v in
          let v := sub_if (m =? u)%nat (rdm3 [p; q; r; s; t; n]) v in
          let v := sub_if (t =? s)%nat (rdm3 [p; q; r; u; m; n]) v in
          let v := sub_if (m =? s)%nat (rdm3 [p; q; r; n; t; u]) v in
          let v := sub_if ((m =? u) && (r =? q))%nat (rdm2 [p; s; t; n]) v in
          let v := sub_if ((m =? u) && (t =? q))%nat (rdm2 [p; n; r; s]) v in
          let v := sub_if ((t =? s) && (m =? u))%nat (rdm2 [p; q; r; n]) v in
          let v := sub_if ((t =? s) && (r =? q))%nat (rdm2 [p; u; m; n]) v in
          let v := sub_if ((t =? s) && (m =? q))%nat (rdm2 [p; n; r; u]) v in
          let v := sub_if ((m =? s) && (r =? q))%nat (rdm2 [p; n; t; u]) v in
          let v := sub_if ((m =? s) && (t =? q))%nat (rdm2 [p; u; r; n]) v in
          let v := sub_if ((m =? u) && (t =? s) && (r =? q))%nat (rdm1 [p; n]) v in
          Ok (upds (rdm4_writes p q r s t u m n) v A))))))))))
      (fun _ => 0).

  (** The four properties with [expectation_value] (default [do_folding=True],
      [do_unsafe=False]); [self.rdm1], [self.rdm2] and [self.rdm3] are evaluated
      on first use. *)
  Definition ev_ops (tiny : K -> bool) sp th ansatz (ci_coeffs : list K) (ops : list (Res dict)) : Res K :=
    bind (fold_right (fun r acc => bind r (fun D => bind acc (fun l => Ok (SOp D :: l)))) (Ok []) ops) (fun l =>
      expectation_value tiny sp th true false ansatz ci_coeffs l ci_coeffs).
  Definition wf_rdm1 (tiny : K -> bool) sp th ansatz (ci_coeffs : list K) : Res arr :=
    rdm1_loop (fun p q => ev_ops tiny sp th ansatz ci_coeffs [Epq p q]) (sp_ni sp) (sp_na sp).
  Definition wf_rdm2 (tiny : K -> bool) sp th ansatz (ci_coeffs : list K) : Res arr :=
    bind (wf_rdm1 tiny sp th ansatz ci_coeffs) (fun rdm1 =>
    rdm2_loop (fun p q r s => ev_ops tiny sp th ansatz ci_coeffs [mmul (Epq p q) (Epq r s)])
      rdm1 (sp_ni sp) (sp_na sp)).
  Definition wf_rdm3 (tiny : K -> bool) sp th ansatz (ci_coeffs : list K) : Res arr :=
    bind (wf_rdm1 tiny sp th ansatz ci_coeffs) (fun rdm1 =>
    bind (wf_rdm2 tiny sp th ansatz ci_coeffs) (fun rdm2 =>
    rdm3_loop (fun p q r s t u => ev_ops tiny sp th ansatz ci_coeffs [Epq p q; Epq r s; Epq t u])
      rdm1 rdm2 (sp_ni sp) (sp_na sp))).
  Definition wf_rdm4 (tiny : K -> bool) sp th ansatz (ci_coeffs : list K) : Res arr :=
    bind (wf_rdm1 tiny sp th ansatz ci_coeffs) (fun rdm1 =>
    bind (wf_rdm2 tiny sp th ansatz ci_coeffs) (fun rdm2 =>
    bind (wf_rdm3 tiny sp th ansatz ci_coeffs) (fun rdm3 =>
    rdm4_loop (fun p q r s t u m n => ev_ops tiny sp th ansatz ci_coeffs [Epq p q; Epq r s; Epq t u; Epq m n])
      rdm1 rdm2 rdm3 (sp_ni sp) (sp_na sp)))).

  (** ups_wavefunction.py, [_calc_energy_optimization] in the orbital-optimisation
      branch, lines 1043-1052: the energy from the reduced density matrices. *)
  Definition wf_rdm_energy (half : K) (tiny : K -> bool) h g sp th ansatz ci_coeffs : Res K :=
    bind (wf_rdm1 tiny sp th ansatz ci_coeffs) (fun rdm1 =>
    bind (wf_rdm2 tiny sp th ansatz ci_coeffs) (fun rdm2 =>
    Ok (get_electronic_energy half h g (sp_ni sp) (sp_na sp)
          (fun i j => rdm1 [i; j]) (fun i j k l => rdm2 [i; j; k; l])))).
End Density.
