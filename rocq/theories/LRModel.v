(** Model of slowquant/unitary_coupled_cluster/linear_response/lr_baseclass.py
    ([LinearResponseBaseClass.__init__]) and naive.py
    ([LinearResponse.__init__]).

    The four matrices [A], [B], [Sigma], [Delta] are one array with a leading
    index 0, 1, 2, 3.  [large x] stands for [abs(x) > 10**-3]; the tests
    [np.max(np.abs(grad)) > 10**-3] on non-empty arrays are [existsb large].
    Printing is not modelled. *)
From Coq Require Import List Bool Arith NArith ZArith Ascii String Lia.
From Verif Require Import Base Fock FermiModel CIModel OperatorsModel StateModel StructModel DensityModel.
Import ListNotations.
Local Open Scope nat_scope.
Local Open Scope list_scope.

(** [str.lower] on ASCII strings. *)
Definition lower_ascii (c : ascii) : ascii :=
  let n := nat_of_ascii c in if (65 <=? n) && (n <=? 90) then ascii_of_nat (n + 32) else c.
Fixpoint lower (s : string) : string :=
  match s with EmptyString => EmptyString | String c s' => String (lower_ascii c) (lower s') end.
(** [c in s] for a one-character string [c]. *)
Fixpoint char_in (c : ascii) (s : string) : bool :=
  match s with EmptyString => false | String c' s' => Ascii.eqb c c' || char_in c s' end.

(** [for i, x in enumerate(l, start)] with a body that may raise. *)
Definition eloop {A S} (start : nat) (l : list A) (body : nat -> A -> S -> Res S) (s : S) : Res S :=
  fold_left (fun s ix => bind s (body (fst ix) (snd ix))) (combine (seq start (List.length l)) l) (Ok s).

(** A list comprehension whose entries may raise. *)
Definition rlist {A B} (f : A -> Res B) (l : list A) : Res (list B) :=
  fold_right (fun x acc => bind (f x) (fun y => bind acc (fun ys => Ok (y :: ys)))) (Ok []) l.

Section LR.
  Context {K : Type} {C : CRing K}.
  Local Open Scope K_scope.
  Notation dict := (list (fstring * K)).

  (** Orbital lists of the wave function used by the constructor. *)
  Record orbitals := {
    o_occ : list nat;          (** active_occ_idx *)
    o_unocc : list nat;        (** active_unocc_idx *)
    o_occ_spin : list nat;     (** active_occ_spin_idx *)
    o_unocc_spin : list nat;   (** active_unocc_spin_idx *)
    o_kappa : list (nat * nat);        (** kappa_no_activeactive_idx *)
    o_kappa_dagger : list (nat * nat)  (** kappa_no_activeactive_idx_dagger *)
  }.
  (** Irrational literals of operators.py: [2 ** (-1 / 2)] and the factors of [G2_sa]. *)
  Record literals := { l_half : K; l_s2 : K; l_f1 : K; l_f2 : K; l_f4 : K; l_f5 : K }.

  (** One entry of [G_ops] from a tuple of the spin-adapted iterators
      (lr_baseclass.py:62-67) or of [iterate_t3] ... [iterate_t6] (68-90). *)
  Definition sa_single (L : literals) (t : list nat) : Res dict :=
    G1_sa (l_s2 L) (nth 1 t 0%nat) (nth 0 t 0%nat) false.
  Definition sa_double (L : literals) (tc : list nat * nat) : Res dict :=
    let t := fst tc in
    G2_sa (l_f1 L) (l_f2 L) (l_f4 L) (l_f5 L) (nth 1 t 0%nat) (nth 3 t 0%nat) (nth 0 t 0%nat) (nth 2 t 0%nat) (snd tc) false.
  Definition spin_op (t : list nat) : Res dict := Gn (odds t) (evens t) false.

  (** [G_ops], lr_baseclass.py:58-90. *)
  Definition lr_G_ops (L : literals) (O : orbitals) (excitations : string) : Res (list dict) :=
    let e := lower excitations in
    let part (c : string) (r : Res (list dict)) := match c with String a _ => if char_in a e then r else Ok [] | _ => Ok [] end in
    let app (a b : Res (list dict)) := bind a (fun x => bind b (fun y => Ok (x ++ y))) in
    app (part "s"%string (rlist (sa_single L) (iterate_t1_sa (o_occ O) (o_unocc O))))
   (app (part "d"%string (rlist (sa_double L) (iterate_t2_sa (o_occ O) (o_unocc O))))
   (app (part "t"%string (rlist spin_op (iterate_t3 (o_occ_spin O) (o_unocc_spin O))))
   (app (part "q"%string (rlist spin_op (iterate_t4 (o_occ_spin O) (o_unocc_spin O))))
   (app (part "5"%string (rlist spin_op (iterate_t5 (o_occ_spin O) (o_unocc_spin O))))
        (part "6"%string (rlist spin_op (iterate_t6 (o_occ_spin O) (o_unocc_spin O)))))))).
  (** [q_ops], lr_baseclass.py:91-92. *)
  Definition lr_q_ops (L : literals) (O : orbitals) : Res (list dict) :=
    rlist (fun pq => G1_sa (l_s2 L) (fst pq) (snd pq) false) (o_kappa O).

  (** [M[i, j] = M[j, i] = v] on the array with leading index [c]. *)
  Definition set_sym (c i j : nat) (v : K) (M : arr) : arr := upds [[c; i; j]; [c; j; i]] v M.
  (** [M[:n, :n] = rows] on the array with leading index [c]. *)
  Definition set_block (c n : nat) (rows : list (list K)) (M : arr) : arr := fun idx =>
    match idx with
    | [c'; i; j] => if (c' =? c)%nat && (i <? n)%nat && (j <? n)%nat then nth j (nth i rows []) 0 else M idx
    | _ => M idx
    end.

  Variables (large : K -> bool) (L : literals) (tiny : K -> bool) (sp : @space) (th : threads)
    (ansatz : bool -> list K -> Res (list K)) (O : orbitals) (h : nat -> nat -> K) (g : nat -> nat -> nat -> nat -> K) (st : list K).
  Notation half := (l_half L).
  Notation ni := (sp_ni sp).
  Notation na := (sp_na sp).
  (** [propagate_state(ops, ket, *self.index_info)] and [expectation_value]. *)
  Definition prop (ops : list dict) (ket : list K) : Res (list K) :=
    propagate_state tiny sp th true false ansatz (map SOp ops) ket.
  Definition expv (bra : list K) (ops : list dict) (ket : list K) : Res K :=
    expectation_value tiny sp th true false ansatz bra (map SOp ops) ket.
  Notation "x <- a ;; b" := (bind a (fun x => b)) (at level 61, a at next level, right associativity).

  (** Gradient entries of one active-space operator, naive.py:59-88. *)
  Definition grad_pair (H00_ket : list K) (op : dict) : Res (K * K) :=
    G_ket <- prop [op] st ;;
    opd <- op_dagger op ;;
    Gd_ket <- prop [opd] st ;;
    v1 <- expv H00_ket [] G_ket ;;
    v2 <- expv Gd_ket [] H00_ket ;;
    w1 <- expv G_ket [] H00_ket ;;
    w2 <- expv H00_ket [] Gd_ket ;;
    Ok (v1 - v2, w1 - w2).

  (** Orbital gradient check, naive.py:42-55. *)
  Definition check_orbital : Res unit :=
    match o_kappa O with
    | [] => Ok tt
    | _ => r1 <- wf_rdm1 tiny sp th ansatz st ;;
           r2 <- wf_rdm2 tiny sp th ansatz st ;;
           if existsb large (get_orbital_gradient_response half (l_s2 L) h g (o_kappa O) ni na
                               (fun i j => r1 [i; j]) (fun i j k l => r2 [i; j; k; l]))
           then Raise ValueError else Ok tt
    end.
  (** Active gradient check, naive.py:57-92. *)
  Definition check_active (H00_ket : list K) (G : list dict) : Res unit :=
    gs <- rlist (grad_pair H00_ket) G ;;
    if existsb large (map fst gs ++ map snd gs) then Raise ValueError else Ok tt.

  (** Orbital-orbital blocks, naive.py:93-120. *)
  Definition orbital_blocks (nq : nat) (M : arr) : Res arr :=
    match o_kappa O with
    | [] => Ok M
    | _ =>
      r1 <- wf_rdm1 tiny sp th ansatz st ;;
      r2 <- wf_rdm2 tiny sp th ansatz st ;;
      let d1 := fun i j => r1 [i; j] in
      let d2 := fun i j k l => r2 [i; j; k; l] in
      a <- get_orbital_response_hessian_block half h g (o_kappa_dagger O) (o_kappa O) ni na d1 d2 ;;
      b <- get_orbital_response_hessian_block half h g (o_kappa_dagger O) (o_kappa_dagger O) ni na d1 d2 ;;
      Ok (set_block 2 nq (get_orbital_response_metric_sigma half (o_kappa O) ni na d1)
           (set_block 1 nq b (set_block 0 nq a M)))
    end.

  (** One entry of the mixed blocks, naive.py:124-178; returns the new [A] and [B] values. *)
  Definition mixed_values (H1 qJ GI : dict) (Hq_ket qdH_ket : list K) : Res (K * K) :=
    G_ket <- prop [GI] st ;;
    GId <- op_dagger GI ;;
    Gd_ket <- prop [GId] st ;;
    a1 <- expv G_ket [] Hq_ket ;;
    a2 <- expv qdH_ket [] Gd_ket ;;
    HG <- op_mul H1 GId ;;
    HGq <- op_mul HG qJ ;;
    a3 <- expv st [HGq] st ;;
    b1 <- expv Hq_ket [] Gd_ket ;;
    b2 <- expv G_ket [] qdH_ket ;;
    qJd <- op_dagger qJ ;;
    qG <- op_mul qJd GId ;;
    qGH <- op_mul qG H1 ;;
    b3 <- expv st [qGH] st ;;
    Ok (a1 - half * a2 - half * a3, b1 - half * b2 - half * b3).
  (** The loops over the mixed blocks, naive.py:121-179. *)
  Definition mixed_blocks (H1 : dict) (Q G : list dict) (M : arr) : Res arr :=
    let s := List.length Q in
    eloop 0 Q (fun j qJ M =>
      Hq <- op_mul H1 qJ ;;
      Hq_ket <- prop [Hq] st ;;
      qJd <- op_dagger qJ ;;
      qdH <- op_mul qJd H1 ;;
      qdH_ket <- prop [qdH] st ;;
      eloop 0 G (fun i GI M =>
        v <- mixed_values H1 qJ GI Hq_ket qdH_ket ;;
        Ok (set_sym 1 (i + s) j (snd v) (set_sym 0 (i + s) j (fst v) M))) M) M.

  (** One entry of the active blocks, naive.py:187-303; returns the new [A], [B]
      and [Sigma] values. *)
  Definition active_values (H00_ket GJH_ket GJdH_ket HGJd_ket HGJ_ket GJ_ket GJd_ket : list K) (GI : dict) : Res (K * K * K) :=
    GI_ket <- prop [GI] st ;;
    GId <- op_dagger GI ;;
    GId_ket <- prop [GId] st ;;
    a1 <- expv GI_ket [] HGJ_ket ;;
    a2 <- expv HGJd_ket [] GId_ket ;;
    a3 <- expv GI_ket [] GJH_ket ;;
    a4 <- expv GJdH_ket [] GId_ket ;;
    a5 <- expv GJd_ket [GId] H00_ket ;;
    a6 <- expv H00_ket [GId] GJ_ket ;;
    b1 <- expv GI_ket [] HGJd_ket ;;
    b2 <- expv GI_ket [] GJdH_ket ;;
    b3 <- expv GJH_ket [] GId_ket ;;
    b4 <- expv HGJ_ket [] GId_ket ;;
    s1 <- expv GI_ket [] GJ_ket ;;
    s2 <- expv GJd_ket [] GId_ket ;;
    Ok (a1 + a2 - half * a3 - half * a4 - half * a5 - half * a6, b1 - b2 - b3 + b4, s1 - s2).
  (** The loops over the active blocks, naive.py:180-304. *)
  Definition active_blocks (H0 : dict) (H00_ket : list K) (s : nat) (G : list dict) (M : arr) : Res arr :=
    eloop 0 G (fun j GJ M =>
      GJd <- op_dagger GJ ;;
      GJH_ket <- prop [GJ] H00_ket ;;
      GJdH_ket <- prop [GJd] H00_ket ;;
      HGJd_ket <- prop [H0; GJd] st ;;
      HGJ_ket <- prop [H0; GJ] st ;;
      GJ_ket <- prop [GJ] st ;;
      GJd_ket <- prop [GJd] st ;;
      eloop j (skipn j G) (fun i GI M =>
        v <- active_values H00_ket GJH_ket GJdH_ket HGJd_ket HGJ_ket GJ_ket GJd_ket GI ;;
        Ok (set_sym 2 (i + s) (j + s) (snd v)
             (set_sym 1 (i + s) (j + s) (snd (fst v))
               (set_sym 0 (i + s) (j + s) (fst (fst v)) M)))) M) M.

  (** The rest of naive.py:26-304 after the operator pools are built. *)
  Definition naive_matrices (Q G : list dict) (H1 H0 : dict) : Res arr :=
    _ <- check_orbital ;;
    H00_ket <- prop [H0] st ;;
    _ <- check_active H00_ket G ;;
    M <- orbital_blocks (List.length Q) (fun _ => 0) ;;
    M <- mixed_blocks H1 Q G M ;;
    active_blocks H0 H00_ket (List.length Q) G M.

  (** [LinearResponse(wave_function, excitations)]: lr_baseclass.py:33-108 and
      naive.py:26-304. *)
  Definition naive_init (excitations : string) : Res arr :=
    G <- lr_G_ops L O excitations ;;
    Q <- lr_q_ops L O ;;
    H1 <- hamiltonian_1i_1a half h g ni na (sp_nv sp) ;;
    H0 <- hamiltonian_0i_0a half h g ni na ;;
    naive_matrices Q G H1 H0.
End LR.
