(** Properties of the Hartree-Fock code (C76 - C78) and of the molecule's
    electron counts and nuclear repulsion (C79). *)
From Coq Require Import List Bool Arith ZArith Lia Reals Lra Psatz Permutation.
Require Import Verif.IntegralModel Verif.IntegralProofs Verif.HFModel Verif.HFProofs.
Import ListNotations.
Local Open Scope R_scope.

(** What is assumed of the input: a symmetric overlap matrix with positive
    eigenvalues, symmetric one-electron matrices, eight-fold symmetric
    two-electron integrals; what is assumed of the numpy functions: [eigh]
    diagonalises symmetric matrices with ascending eigenvalues, [solve] returns
    solutions. *)
Definition input_ok (eigh : mat -> (nat -> R) * mat) (n : nat) (S T V : mat) (ERI : ten) : Prop :=
  (forall i j, (i < n)%nat -> (j < n)%nat -> S i j = S j i /\ T i j = T j i /\ V i j = V j i)
  /\ (forall i, (i < n)%nat -> 0 < fst (eigh S) i)
  /\ (forall p q r s, (p < n)%nat -> (q < n)%nat -> (r < n)%nat -> (s < n)%nat -> ERI p q r s = ERI q p r s /\ ERI p q r s = ERI p q s r /\ ERI p q r s = ERI r s p q).
Definition eigh_ok (n : nat) (eigh : mat -> (nat -> R) * mat) : Prop := forall A, (forall i j, (i < n)%nat -> (j < n)%nat -> A i j = A j i) ->
  let '(lam, L) := eigh A in
  (forall i j, (i < n)%nat -> (j < n)%nat -> sm n (fun k => L k i * L k j) = if Nat.eqb i j then 1 else 0)
  /\ (forall i j, (i < n)%nat -> (j < n)%nat -> sm n (fun k => L i k * L j k) = if Nat.eqb i j then 1 else 0)
  /\ (forall i j, (i < n)%nat -> (j < n)%nat -> sm n (fun k => A i k * L k j) = L i j * lam j)
  /\ (forall i j, (i <= j < n)%nat -> lam i <= lam j).
Lemma diag_1 i j : one_ i j = if Nat.eqb i j then 1 else 0.
Proof. unfold one_, diag_. destruct (Nat.eqb i j); reflexivity. Qed.
Lemma eigh_eig n eigh : eigh_ok n eigh -> forall A, symm n A -> eig_ok n A (eigh A).
Proof.
  intros H A HA. pose proof (H A (fun i j Hi Hj => eq_sym (HA i j Hi Hj))) as K. destruct (eigh A) as [lam L]. destruct K as (K1 & K2 & K3 & K4). unfold eig_ok. cbn [fst snd]. split; [|split; [|split]].
  - intros i j Hi Hj. rewrite diag_1. apply K1; assumption.
  - intros i j Hi Hj. rewrite diag_1. apply K2; assumption.
  - intros i j Hi Hj. rewrite dot_diag_r by exact Hj. apply K3; assumption.
  - exact K4.
Qed.
Lemma input_sym eigh n S T V ERI : input_ok eigh n S T V ERI -> symm n S /\ symm n (add_ T V) /\ sym_eri n ERI.
Proof.
  intros (Y & _ & G). split; [|split].
  - intros i j Hi Hj. unfold tr_. symmetry. apply Y; assumption.
  - intros i j Hi Hj. unfold tr_, add_. destruct (Y i j Hi Hj) as (_ & -> & ->). reflexivity.
  - exact G.
Qed.

(** An [eigh] for two basis functions that meets the contract. *)
Definition eigh2_abc (a b c : R) : (nat -> R) * mat :=
  if Req_EM_T b 0 then
    if Rle_dec a c then ((fun i => match i with O => a | _ => c end), fun i j => if Nat.eqb i j then 1 else 0)
    else ((fun i => match i with O => c | _ => a end), fun i j => if Nat.eqb i j then 0 else 1)
  else
    let l1 := (a + c) / 2 - sqrt (((a - c) / 2) ^ 2 + b ^ 2) in
    let l2 := (a + c) / 2 + sqrt (((a - c) / 2) ^ 2 + b ^ 2) in
    let k := sqrt (b ^ 2 + (l1 - a) ^ 2) in
    ((fun i => match i with O => l1 | _ => l2 end),
     fun i j => match i, j with O, O => b / k | O, _ => (a - l1) / k | _, O => (l1 - a) / k | _, _ => b / k end).
Definition eigh2 (A : mat) : (nat -> R) * mat := eigh2_abc (A 0%nat 0%nat) (A 0%nat 1%nat) (A 1%nat 1%nat).
Ltac two i Hi := destruct i as [|[|i]]; [| |exfalso; lia].
Example eigh2_ok : eigh_ok 2 eigh2.
Proof.
  intros A HA. pose proof (HA 0%nat 1%nat ltac:(lia) ltac:(lia)) as Y. unfold eigh2, eigh2_abc. set (a := A 0%nat 0%nat). set (b := A 0%nat 1%nat) in *. set (c := A 1%nat 1%nat).
  assert (EA : forall i j, (i < 2)%nat -> (j < 2)%nat -> A i j = match i, j with O, O => a | O, _ => b | _, O => b | _, _ => c end).
  { intros i j Hi Hj. two i Hi; two j Hj; try reflexivity. symmetry. exact Y. }
  destruct (Req_EM_T b 0) as [B0|B0]; [destruct (Rle_dec a c) as [AC|AC]|].
  - split; [|split; [|split]]; intros i j Hi Hj || intros i j Hij.
    + two i Hi; two j Hj; cbn; ring.
    + two i Hi; two j Hj; cbn; ring.
    + cbn [sm]. rewrite !EA by lia. rewrite B0. two i Hi; two j Hj; cbn; ring.
    + destruct i as [|[|i]]; destruct j as [|[|j]]; try lia; cbn; lra.
  - split; [|split; [|split]]; intros i j Hi Hj || intros i j Hij.
    + two i Hi; two j Hj; cbn; ring.
    + two i Hi; two j Hj; cbn; ring.
    + cbn [sm]. rewrite !EA by lia. rewrite B0. two i Hi; two j Hj; cbn; ring.
    + destruct i as [|[|i]]; destruct j as [|[|j]]; try lia; cbn; lra.
  - set (r := sqrt (((a - c) / 2) ^ 2 + b ^ 2)). assert (B2 : 0 < b ^ 2) by (rewrite <- Rsqr_pow2; apply Rsqr_pos_lt; exact B0).
    assert (R0 : 0 <= r) by apply sqrt_pos.
    assert (R2 : r * r = ((a - c) / 2) ^ 2 + b ^ 2) by (apply sqrt_sqrt; pose proof (Rle_0_sqr ((a - c) / 2)) as Q; rewrite Rsqr_pow2 in Q; lra).
    set (l1 := (a + c) / 2 - r). set (l2 := (a + c) / 2 + r). set (k := sqrt (b ^ 2 + (l1 - a) ^ 2)).
    assert (KP : 0 < b ^ 2 + (l1 - a) ^ 2) by (pose proof (Rle_0_sqr (l1 - a)) as Q; rewrite Rsqr_pow2 in Q; lra).
    assert (K0 : 0 < k) by (apply sqrt_lt_R0; exact KP). assert (K2 : k * k = b ^ 2 + (l1 - a) ^ 2) by (apply sqrt_sqrt; lra).
    assert (E1 : b * b = (l1 - a) * (l1 - c)) by (unfold l1; nra). assert (E2 : l2 = a + c - l1) by (unfold l1, l2; lra).
    assert (E3 : l1 <= l2) by (unfold l1, l2; lra).
    assert (N1 : b / k * (b / k) + (l1 - a) / k * ((l1 - a) / k) = 1).
    { transitivity ((b ^ 2 + (l1 - a) ^ 2) / (k * k)); [field; lra|rewrite K2; field; lra]. }
    clearbody k l1 l2 r.
    split; [|split; [|split]]; intros i j Hi Hj || intros i j Hij.
    + two i Hi; two j Hj; cbn; try (rewrite <- N1); field; lra.
    + two i Hi; two j Hj; cbn; try (rewrite <- N1); field; lra.
    + cbn [sm]. rewrite !EA by lia. two i Hi; two j Hj; cbn.
      * field; lra.
      * rewrite E2. replace (0 + a * ((a - l1) / k) + b * (b / k)) with ((a * (a - l1) + b * b) / k) by (field; lra). rewrite E1. field. lra.
      * replace (0 + b * (b / k) + c * ((l1 - a) / k)) with ((b * b + c * (l1 - a)) / k) by (field; lra). rewrite E1. field. lra.
      * rewrite E2. field. lra.
    + destruct i as [|[|i]]; destruct j as [|[|j]]; try lia; cbn; lra.
Qed.

(** ** C76: restricted Hartree-Fock *)
(** Every returned tuple: orthonormal orbitals, an idempotent density with the
    right number of electrons, the Roothaan equations between the returned Fock
    matrix and the returned orbitals, in ascending order of energies. *)
Theorem C76_orbitals eigh solve n S T V ERI N dthr rthr maxit diis E C F D conv :
  eigh_ok n eigh -> solve_ok solve -> input_ok eigh n S T V ERI ->
  run_hartree_fock eigh solve n S T V ERI N dthr rthr maxit diis = Done (E, C, F, D) conv ->
  (forall i j, (i < n)%nat -> (j < n)%nat -> sm n (fun a => sm n (fun b => C a i * S a b * C b j)) = if Nat.eqb i j then 1 else 0)
  /\ (forall i j, (i < n)%nat -> (j < n)%nat -> D i j = 2 * sm (Nat.min (N / 2) n) (fun k => C i k * C j k))
  /\ (forall i j, (i < n)%nat -> (j < n)%nat -> sm n (fun b => sm n (fun a => D i a * S a b) * D b j) = 2 * D i j)
  /\ sm n (fun i => sm n (fun j => D i j * S i j)) = 2 * INR (Nat.min (N / 2) n)
  /\ (exists eps, (forall i j, (i < n)%nat -> (j < n)%nat -> sm n (fun k => F i k * C k j) = sm n (fun k => S i k * C k j) * eps j)
                  /\ forall i j, (i <= j < n)%nat -> eps i <= eps j)
  /\ E = 1 / 2 * sm n (fun i => sm n (fun j => D i j * (T i j + V i j + F i j))).
Proof.
  intros He Hs Hi R. destruct (input_sym _ _ _ _ _ _ Hi) as (HS & HH & HG). pose proof (eigh_eig n eigh He) as Heig.
  destruct (scf_good eigh solve n Heig Hs S (add_ T V) ERI HS (proj1 (proj2 Hi)) HH HG diis (N / 2) dthr rthr maxit _ _ [] None
    (ex_intro _ _ (conj (start_ortho eigh n Heig S (add_ T V) HS (proj1 (proj2 Hi)) HH) eq_refl)) (List.Forall_nil _) I _ _ R) as (O & (eps & RE & As) & ED & EE & _).
  split; [|split; [|split; [|split; [|split]]]].
  - intros i j Hi' Hj'. destruct O as [O _]. rewrite <- diag_1, <- (O i j Hi' Hj'). unfold dot, tr_. rewrite sm_swap. apply sm_ext. intros b _. rewrite <- sm_scal_r. reflexivity.
  - intros i j _ _. rewrite ED. reflexivity.
  - intros i j Hi' Hj'. rewrite ED. apply (density_idem n 2 (N / 2) C S (proj1 O) i j Hi' Hj').
  - rewrite ED. apply (density_trace n 2 (N / 2) C S HS (proj1 O)).
  - exists eps. split; [|exact As]. intros i j Hi' Hj'. pose proof (RE i j Hi' Hj') as Q. rewrite dot_diag_r in Q by exact Hj'. exact Q.
  - exact EE.
Qed.
(** The Fock matrix of a density, and the Hartree-Fock energy of a density. *)
Definition fock_of (n : nat) (h : mat) (g : ten) (D : mat) (p q : nat) : R :=
  h p q + sm n (fun r => sm n (fun s => (g p q r s - 1 / 2 * g p s q r) * D s r)).
Definition hf_energy (n : nat) (h : mat) (g : ten) (D : mat) : R :=
  sm n (fun p => sm n (fun q => D p q * h p q)) + 1 / 2 * sm n (fun p => sm n (fun q => sm n (fun r => sm n (fun s => D p q * D s r * (g p q r s - 1 / 2 * g p s q r))))).
Lemma fock_of_ok n h g D p q : fock_rhf n h g D p q = fock_of n h g D p q.
Proof.
  unfold fock_rhf, fock_of, coulomb, exchange. unfold Rminus at 1. rewrite Rplus_assoc. f_equal. rewrite <- sm_scal, <- sm_opp, <- sm_plus. apply sm_ext. intros r _.
  rewrite <- sm_scal, <- sm_opp, <- sm_plus. apply sm_ext. intros s _. ring.
Qed.
(** Without DIIS: the returned Fock matrix is that of the density of the previous
    iteration [Dp], and the returned energy differs from the Hartree-Fock energy
    of the returned density by half the inner product of [D] with the change of
    the Fock matrix; at self-consistency it is the Hartree-Fock energy. *)
Theorem C76_energy eigh solve n S T V ERI N dthr rthr maxit E C F D conv :
  eigh_ok n eigh -> solve_ok solve -> input_ok eigh n S T V ERI ->
  run_hartree_fock eigh solve n S T V ERI N dthr rthr maxit false = Done (E, C, F, D) conv ->
  exists Dp, (forall p q, F p q = fock_of n (fun p q => T p q + V p q) ERI Dp p q)
    /\ E = hf_energy n (fun p q => T p q + V p q) ERI D
           + 1 / 2 * sm n (fun p => sm n (fun q => D p q * (fock_of n (fun p q => T p q + V p q) ERI Dp p q - fock_of n (fun p q => T p q + V p q) ERI D p q)))
    /\ (conv = true -> sqrt (sm n (fun i => sm n (fun j => (D i j - Dp i j) ^ 2))) < rthr)
    /\ ((forall i j, (i < n)%nat -> (j < n)%nat -> D i j = Dp i j) -> E = hf_energy n (fun p q => T p q + V p q) ERI D).
Proof.
  intros He Hs Hi R. destruct (input_sym _ _ _ _ _ _ Hi) as (HS & HH & HG). pose proof (eigh_eig n eigh He) as Heig.
  destruct (scf_good eigh solve n Heig Hs S (add_ T V) ERI HS (proj1 (proj2 Hi)) HH HG false (N / 2) dthr rthr maxit _ _ [] None
    (ex_intro _ _ (conj (start_ortho eigh n Heig S (add_ T V) HS (proj1 (proj2 Hi)) HH) eq_refl)) (List.Forall_nil _) I _ _ R) as (O & _ & ED & EE & m & c & Ds & Sc & _ & FF & ND).
  destruct (ND eq_refl) as [-> Cv]. exists (Ds 0%nat). cbn [sm] in Sc.
  assert (FD : forall p q, F p q = fock_of n (fun p q => T p q + V p q) ERI (Ds 0%nat) p q).
  { intros p q. rewrite FF, fock_rhf_lin by (cbn [sm]; lra). unfold lin. cbn [sm]. rewrite <- fock_of_ok. unfold add_. replace (c 0%nat) with 1 by lra. ring. }
  set (h := fun p q => T p q + V p q) in *.
  assert (EH : E = hf_energy n h ERI D + 1 / 2 * sm n (fun p => sm n (fun q => D p q * (fock_of n h ERI (Ds 0%nat) p q - fock_of n h ERI D p q)))).
  { rewrite EE. unfold inner, hf_energy.
    transitivity (1 / 2 * sm n (fun p => sm n (fun q => D p q * (h p q + fock_of n h ERI (Ds 0%nat) p q)))).
    { f_equal. apply sm_ext. intros p _. apply sm_ext. intros q _. unfold add_ at 1. rewrite FD. unfold add_, h. ring. }
    rewrite Rplus_assoc, <- Rmult_plus_distr_l. rewrite <- (Rmult_1_l (sm n (fun p => sm n (fun q => D p q * h p q)))). replace 1 with (1 / 2 * 2) at 2 by field. rewrite Rmult_assoc, <- Rmult_plus_distr_l. f_equal.
    rewrite <- sm_scal, <- !sm_plus. apply sm_ext. intros p _. rewrite <- sm_scal, <- !sm_plus. apply sm_ext. intros q _.
    unfold fock_of at 3.
    replace (sm n (fun r => sm n (fun s => D p q * D s r * (ERI p q r s - 1 / 2 * ERI p s q r)))) with (D p q * sm n (fun r => sm n (fun s => (ERI p q r s - 1 / 2 * ERI p s q r) * D s r))).
    - ring.
    - rewrite <- sm_scal. apply sm_ext. intros r _. rewrite <- sm_scal. apply sm_ext. intros s _. ring. }
  split; [exact FD|]. split; [exact EH|]. split; [exact Cv|]. intros Eq. rewrite EH. rewrite (sm_zero n (fun p => _)); [ring|]. intros p Hp. apply sm_zero. intros q Hq.
  rewrite (Rminus_diag_eq (fock_of n h ERI (Ds 0%nat) p q)); [ring|]. unfold fock_of. f_equal. apply sm_ext. intros r Hr. apply sm_ext. intros s Hs'. rewrite (Eq s r Hs' Hr). reflexivity.
Qed.
(** With DIIS: the returned Fock matrix is that of an affine combination of
    densities of earlier iterations, each idempotent with the right number of
    electrons. *)
Theorem C76_diis eigh solve n S T V ERI N dthr rthr maxit diis E C F D conv :
  eigh_ok n eigh -> solve_ok solve -> input_ok eigh n S T V ERI ->
  run_hartree_fock eigh solve n S T V ERI N dthr rthr maxit diis = Done (E, C, F, D) conv ->
  exists m c Ds, sm m c = 1
    /\ (forall k, (k < m)%nat -> (forall i j, (i < n)%nat -> (j < n)%nat -> sm n (fun b => sm n (fun a => Ds k i a * S a b) * Ds k b j) = 2 * Ds k i j)
                                /\ sm n (fun i => sm n (fun j => Ds k i j * S i j)) = 2 * INR (Nat.min (N / 2) n))
    /\ forall p q, F p q = fock_of n (fun p q => T p q + V p q) ERI (fun i j => sm m (fun k => c k * Ds k i j)) p q.
Proof.
  intros He Hs Hi R. destruct (input_sym _ _ _ _ _ _ Hi) as (HS & HH & HG). pose proof (eigh_eig n eigh He) as Heig.
  destruct (scf_good eigh solve n Heig Hs S (add_ T V) ERI HS (proj1 (proj2 Hi)) HH HG diis (N / 2) dthr rthr maxit _ _ [] None
    (ex_intro _ _ (conj (start_ortho eigh n Heig S (add_ T V) HS (proj1 (proj2 Hi)) HH) eq_refl)) (List.Forall_nil _) I _ _ R) as (_ & _ & _ & _ & m & c & Ds & Sc & HD & FF & _).
  exists m, c, Ds. split; [exact Sc|]. split.
  - intros k Hk. destruct (HD k Hk) as (C' & [O _] & E'). rewrite E'. split; [intros i j Hi' Hj'; apply (density_idem n 2 (N / 2) C' S O i j Hi' Hj')|].
    apply (density_trace n 2 (N / 2) C' S HS O).
  - intros p q. rewrite FF, fock_of_ok. reflexivity.
Qed.
(** The run ends with UnboundLocalError exactly when no iteration is allowed. *)
Theorem C76_iterations eigh solve n S T V ERI N dthr rthr maxit diis :
  run_hartree_fock eigh solve n S T V ERI N dthr rthr maxit diis = Unbound <-> maxit = 0%nat.
Proof.
  split.
  - intros E. destruct maxit as [|maxit]; [reflexivity|]. exfalso. unfold run_hartree_fock in E. revert E. apply scf_bound. left. lia.
  - intros ->. reflexivity.
Qed.
(** An odd number of electrons is silently rounded down. *)
Theorem C76_odd_electrons_refuted eigh solve n S T V ERI N dthr rthr maxit diis E C F D conv :
  eigh_ok n eigh -> solve_ok solve -> input_ok eigh n S T V ERI -> Nat.Odd N ->
  run_hartree_fock eigh solve n S T V ERI N dthr rthr maxit diis = Done (E, C, F, D) conv ->
  sm n (fun i => sm n (fun j => D i j * S i j)) <> INR N.
Proof.
  intros He Hs Hi (k & ->) R. destruct (C76_orbitals _ _ _ _ _ _ _ _ _ _ _ _ _ _ _ _ _ He Hs Hi R) as (_ & _ & _ & -> & _).
  intros EN. assert (E2 : 2 * INR (Nat.min ((2 * k + 1) / 2) n) = INR (2 * Nat.min ((2 * k + 1) / 2) n)) by (rewrite mult_INR; reflexivity).
  rewrite E2 in EN. apply INR_eq in EN. lia.
Qed.
(** The returned energy is not the Hartree-Fock energy of the returned density:
    two orthonormal basis functions of energies 0 and 1, two electrons, repulsion
    5 on the first and 1 on the second function, one iteration. *)
Definition ex_S : mat := fun i j => if Nat.eqb i j then 1 else 0.
Definition ex_T : mat := fun i j => if Nat.eqb i 1 && Nat.eqb j 1 then 1 else 0.
Definition ex_V : mat := fun _ _ => 0.
Definition ex_ERI : ten := fun p q r s => if Nat.eqb p q && Nat.eqb q r && Nat.eqb r s then (if Nat.eqb p 0 then 5 else 1) else 0.
Lemma eigh2_up A a c : A 0%nat 0%nat = a -> A 0%nat 1%nat = 0 -> A 1%nat 1%nat = c -> a <= c -> eigh2 A = ((fun i => match i with O => a | _ => c end), fun i j => if Nat.eqb i j then 1 else 0).
Proof. intros E1 E2 E3 L. unfold eigh2. rewrite E1, E2, E3. unfold eigh2_abc. destruct (Req_EM_T 0 0); [|lra]. destruct (Rle_dec a c); [reflexivity|lra]. Qed.
Lemma eigh2_down A a c : A 0%nat 0%nat = a -> A 0%nat 1%nat = 0 -> A 1%nat 1%nat = c -> c < a -> eigh2 A = ((fun i => match i with O => c | _ => a end), fun i j => if Nat.eqb i j then 0 else 1).
Proof. intros E1 E2 E3 L. unfold eigh2. rewrite E1, E2, E3. unfold eigh2_abc. destruct (Req_EM_T 0 0); [|lra]. destruct (Rle_dec a c); [lra|reflexivity]. Qed.
Definition ex_solve (k : nat) (B : mat) (b : nat -> R) : option (nat -> R) := None.
Example ex_solve_ok : solve_ok ex_solve.
Proof. intros k B b x E. discriminate. Qed.
Example ex_input : input_ok eigh2 2 ex_S ex_T ex_V ex_ERI.
Proof.
  split; [|split].
  - intros i j Hi Hj. two i Hi; two j Hj; repeat split; reflexivity.
  - intros i Hi. rewrite (eigh2_up ex_S 1 1) by (reflexivity || lra). two i Hi; cbn; lra.
  - intros p q r s Hp Hq Hr Hs. two p Hp; two q Hq; two r Hr; two s Hs; repeat split; reflexivity.
Qed.
Lemma ex_X i j : (i < 2)%nat -> (j < 2)%nat -> inv_sqrt eigh2 2 ex_S i j = if Nat.eqb i j then 1 else 0.
Proof.
  intros Hi Hj. unfold inv_sqrt. rewrite (eigh2_up ex_S 1 1) by (reflexivity || lra). unfold dot, tr_, diag_. two i Hi; two j Hj; cbn; rewrite ?sqrt_1; field.
Qed.
Example ex_run : exists C F D, run_hartree_fock eigh2 ex_solve 2 ex_S ex_T ex_V ex_ERI 2 (1 / 10) (1 / 10) 1 false = Done (2, C, F, D) false
  /\ hf_energy 2 (fun p q => ex_T p q + ex_V p q) ex_ERI D = 3.
Proof.
  unfold run_hartree_fock. set (X := inv_sqrt eigh2 2 ex_S).
  assert (X00 : X 0%nat 0%nat = 1) by (apply (ex_X 0 0); lia). assert (X01 : X 0%nat 1%nat = 0) by (apply (ex_X 0 1); lia).
  assert (X10 : X 1%nat 0%nat = 0) by (apply (ex_X 1 0); lia). assert (X11 : X 1%nat 1%nat = 1) by (apply (ex_X 1 1); lia). clearbody X.
  rewrite (eigh2_up (dot 2 (dot 2 (tr_ X) (add_ ex_T ex_V)) (tr_ X)) 0 1); [|unfold dot, tr_, add_, ex_T, ex_V; cbn; rewrite ?X00, ?X01, ?X10, ?X11; ring..|lra].
  cbn [snd]. set (C0 := dot 2 X _).
  assert (C00 : C0 0%nat 0%nat = 1) by (unfold C0, dot; cbn; rewrite X00; ring). assert (C10 : C0 1%nat 0%nat = 0) by (unfold C0, dot; cbn; rewrite X10, X11; ring). clearbody C0.
  set (D0 := density 2 2 (2 / 2) C0).
  assert (D00 : D0 0%nat 0%nat = 2) by (unfold D0, density; cbn; rewrite C00; ring). assert (D01 : D0 0%nat 1%nat = 0) by (unfold D0, density; cbn; rewrite C00, C10; ring).
  assert (D10 : D0 1%nat 0%nat = 0) by (unfold D0, density; cbn; rewrite C00, C10; ring). assert (D11 : D0 1%nat 1%nat = 0) by (unfold D0, density; cbn; rewrite C10; ring). clearbody D0.
  cbn [scf]. set (F := fock_rhf 2 (add_ ex_T ex_V) ex_ERI D0).
  assert (F00 : F 0%nat 0%nat = 5) by (unfold F, fock_rhf, coulomb, exchange, add_, ex_T, ex_V, ex_ERI; cbn; rewrite D00, D01, D10, D11; field).
  assert (F01 : F 0%nat 1%nat = 0) by (unfold F, fock_rhf, coulomb, exchange, add_, ex_T, ex_V, ex_ERI; cbn; rewrite D00, D01, D10, D11; field).
  assert (F10 : F 1%nat 0%nat = 0) by (unfold F, fock_rhf, coulomb, exchange, add_, ex_T, ex_V, ex_ERI; cbn; rewrite D00, D01, D10, D11; field).
  assert (F11 : F 1%nat 1%nat = 1) by (unfold F, fock_rhf, coulomb, exchange, add_, ex_T, ex_V, ex_ERI; cbn; rewrite D00, D01, D10, D11; field).
  clearbody F. unfold orbitals. rewrite (eigh2_down (dot 2 (dot 2 (tr_ X) F) X) 5 1); [|unfold dot, tr_; cbn; rewrite ?X00, ?X01, ?X10, ?X11, ?F00, ?F01, ?F10, ?F11; ring..|lra].
  cbn [snd]. set (C := dot 2 X _).
  assert (K00 : C 0%nat 0%nat = 0) by (unfold C, dot; cbn; rewrite X00, X01; ring). assert (K10 : C 1%nat 0%nat = 1) by (unfold C, dot; cbn; rewrite X10, X11; ring). clearbody C.
  set (D := density 2 2 (2 / 2) C).
  assert (E00 : D 0%nat 0%nat = 0) by (unfold D, density; cbn; rewrite K00; ring). assert (E01 : D 0%nat 1%nat = 0) by (unfold D, density; cbn; rewrite K00, K10; ring).
  assert (E10 : D 1%nat 0%nat = 0) by (unfold D, density; cbn; rewrite K00, K10; ring). assert (E11 : D 1%nat 1%nat = 2) by (unfold D, density; cbn; rewrite K10; ring). clearbody D.
  assert (EE : 1 / 2 * inner 2 D (add_ (add_ ex_T ex_V) F) = 2) by (unfold inner, add_, ex_T, ex_V; cbn; rewrite E00, E01, E10, E11, F11; field).
  rewrite EE. exists C, F, D. split.
  - destruct (Rlt_dec _ (1 / 10)) as [_|_]; [|reflexivity]. destruct (Rlt_dec (rms 2 D D0) (1 / 10)) as [L|_]; [|reflexivity]. exfalso.
    assert (Q : rms 2 D D0 = sqrt 8) by (unfold rms; f_equal; cbn; rewrite E00, E01, E10, E11, D00, D01, D10, D11; ring).
    rewrite Q in L. assert (sqrt 1 <= sqrt 8) by (apply sqrt_le_1; lra). rewrite sqrt_1 in H. lra.
  - unfold hf_energy, ex_T, ex_V, ex_ERI. cbn. rewrite E00, E01, E10, E11. field.
Qed.
Theorem C76_energy_refuted : ~ (forall eigh solve n S T V ERI N dthr rthr maxit E C F D conv,
  eigh_ok n eigh -> solve_ok solve -> input_ok eigh n S T V ERI ->
  run_hartree_fock eigh solve n S T V ERI N dthr rthr maxit false = Done (E, C, F, D) conv ->
  E = hf_energy n (fun p q => T p q + V p q) ERI D).
Proof.
  intros K. destruct ex_run as (C & F & D & R & E). pose proof (K eigh2 ex_solve 2%nat ex_S ex_T ex_V ex_ERI 2%nat (1 / 10) (1 / 10) 1%nat 2 C F D false eigh2_ok ex_solve_ok ex_input R) as Q.
  rewrite E in Q. lra.
Qed.

(** ** C77: DIIS *)
(** The stored pairs are the last six offered; the returned matrix is an affine
    combination of the stored Fock matrices, and among all affine combinations
    its residual [F D S - S D F] (combined with the same coefficients) has the
    smallest norm. *)
Definition residual (n : nat) (S : mat) (x : mat * mat) (p q : nat) : R :=
  sm n (fun b => sm n (fun a => fst x p a * snd x a b) * S b q) - sm n (fun b => sm n (fun a => S p a * snd x a b) * fst x b q).
Definition normsq (n : nat) (A : mat) : R := sm n (fun p => sm n (fun q => A p q ^ 2)).
Lemma residual_anti n S x : symm n S -> symm n (fst x) -> symm n (snd x) -> forall p q, (p < n)%nat -> (q < n)%nat -> residual n S x q p = - residual n S x p q.
Proof.
  intros HS HF HD p q Hp Hq. change (residual n S x) with (error_matrix n S (fst x) (snd x)). unfold error_matrix.
  assert (K : forall A B C, symm n A -> symm n B -> symm n C -> dot n (dot n A B) C q p = dot n (dot n C B) A p q).
  { intros A B C HA HB HC. assert (M : meq n (tr_ (dot n (dot n A B) C)) (dot n (dot n C B) A)).
    { rewrite tr_dot. transitivity (dot n C (dot n B A)); [|symmetry; apply dot_assoc]. apply dot_proper; [exact HC|]. rewrite tr_dot. apply dot_proper; [exact HB|exact HA]. }
    exact (M p q Hp Hq). }
  rewrite (K (fst x) (snd x) S HF HD HS), (K S (snd x) (fst x) HS HD HF). ring.
Qed.
Lemma diis_least n m (e : nat -> mat) (c c' : nat -> R) lam :
  sm m c = 1 -> sm m c' = 1 ->
  (forall i, (i < m)%nat -> sm m (fun j => c j * sm n (fun p => sm n (fun q => e i p q * e j p q))) = lam) ->
  normsq n (fun p q => sm m (fun i => c i * e i p q)) <= normsq n (fun p q => sm m (fun i => c' i * e i p q)).
Proof.
  intros S1 S2 St. set (r := fun p q => sm m (fun i => c i * e i p q)). set (r' := fun p q => sm m (fun i => c' i * e i p q)).
  assert (Ir : forall i, (i < m)%nat -> sm n (fun p => sm n (fun q => e i p q * r p q)) = lam).
  { intros i Hi. rewrite <- (St i Hi). unfold r. transitivity (sm n (fun p => sm m (fun j => c j * sm n (fun q => e i p q * e j p q)))).
    - apply sm_ext. intros p _. transitivity (sm n (fun q => sm m (fun j => c j * (e i p q * e j p q)))).
      + apply sm_ext. intros q _. rewrite <- sm_scal. apply sm_ext. intros; ring.
      + rewrite sm_swap. apply sm_ext. intros j _. apply sm_scal.
    - rewrite sm_swap. apply sm_ext. intros j _. apply sm_scal. }
  assert (Id : forall d : nat -> R, sm n (fun p => sm n (fun q => sm m (fun i => d i * e i p q) * r p q)) = sm m d * lam).
  { intros d. rewrite <- sm_scal_r. rewrite (sm_ext m (fun i => d i * lam) (fun i => sm n (fun p => sm n (fun q => d i * e i p q * r p q)))).
    - symmetry. rewrite sm_swap. apply sm_ext. intros p _. rewrite sm_swap. apply sm_ext. intros q _. rewrite sm_scal_r. reflexivity.
    - intros i Hi. rewrite <- (Ir i Hi), <- sm_scal. apply sm_ext. intros p _. rewrite <- sm_scal. apply sm_ext. intros; ring. }
  pose proof (Id c) as I1. pose proof (Id c') as I2. fold r in I1. change (sm n (fun p => sm n (fun q => r p q * r p q)) = sm m c * lam) in I1. change (sm n (fun p => sm n (fun q => r' p q * r p q)) = sm m c' * lam) in I2.
  rewrite S1 in I1. rewrite S2 in I2.
  assert (P : 0 <= sm n (fun p => sm n (fun q => (r' p q - r p q) ^ 2))) by (apply sm_nonneg; intros p _; apply sm_nonneg; intros q _; rewrite <- Rsqr_pow2; apply Rle_0_sqr).
  assert (Ex : normsq n r' = normsq n r + sm n (fun p => sm n (fun q => (r' p q - r p q) ^ 2)) + 2 * (sm n (fun p => sm n (fun q => r' p q * r p q)) - sm n (fun p => sm n (fun q => r p q * r p q)))).
  { unfold normsq. rewrite <- sm_minus, <- sm_scal, <- !sm_plus. apply sm_ext. intros p _. rewrite <- sm_minus, <- sm_scal, <- !sm_plus. apply sm_ext. intros q _. ring. }
  rewrite Ex. rewrite I1, I2. lra.
Qed.
Definition pair_sym (n : nat) (x : mat * mat) : Prop := forall i j, (i < n)%nat -> (j < n)%nat -> fst x i j = fst x j i /\ snd x i j = snd x j i.
Theorem C77_extrapolation solve n st F0 D0 S F st' :
  solve_ok solve -> n <> 2%nat -> (0 < length st <= 6)%nat -> List.Forall (pair_sym n) (st ++ [(F0, D0)]) ->
  (forall i j, (i < n)%nat -> (j < n)%nat -> S i j = S j i) ->
  get_extrapolated_fock_matrix solve n 6 st F0 D0 S = Some (F, st') ->
  st' = skipn (length st + 1 - 6) (st ++ [(F0, D0)])
  /\ exists c, sm (length st') c = 1
     /\ (forall p q, F p q = sm (length st') (fun i => c i * fst (nth i st' (F0, D0)) p q))
     /\ forall c', sm (length st') c' = 1 ->
          normsq n (fun p q => sm (length st') (fun i => c i * residual n S (nth i st' (F0, D0)) p q))
          <= normsq n (fun p q => sm (length st') (fun i => c' i * residual n S (nth i st' (F0, D0)) p q)).
Proof.
  intros Hs N2 Ln Sy HS E. unfold get_extrapolated_fock_matrix in E. destruct (Nat.eqb_spec n 2) as [|_]; [contradiction|].
  rewrite app_length in E. cbn [length] in E. destruct (Nat.eqb_spec (length st + 1) 1) as [|_]; [lia|].
  set (l := if Nat.ltb 6 (length st + 1) then tl (st ++ [(F0, D0)]) else st ++ [(F0, D0)]) in E.
  assert (EL : l = skipn (length st + 1 - 6) (st ++ [(F0, D0)])).
  { unfold l. destruct (Nat.ltb_spec 6 (length st + 1)) as [L|L].
    - replace (length st + 1 - 6)%nat with 1%nat by lia. destruct (st ++ [(F0, D0)]); reflexivity.
    - replace (length st + 1 - 6)%nat with 0%nat by lia. reflexivity. }
  assert (SL : List.Forall (pair_sym n) l).
  { rewrite EL. rewrite <- (firstn_skipn (length st + 1 - 6)) in Sy. apply List.Forall_app in Sy. apply Sy. }
  set (m := length l) in E. cbv zeta in E.
  match type of E with context [solve _ ?B ?b] => destruct (solve (m + 1)%nat B b) as [c|] eqn:ES; [|discriminate]; pose proof (Hs _ _ _ _ ES) as Q end.
  injection E as <- <-. split; [exact EL|]. fold m.
  assert (Eq : forall i, (i < m)%nat -> nth i l (F0, D0) = nth i l (zero_mat, zero_mat)) by (intros; apply nth_indep; assumption).
  exists c. rewrite Nat.add_1_r in Q.
  assert (Sc : sm m c = 1).
  { pose proof (Q m ltac:(lia)) as Q1. cbn [sm] in Q1. rewrite !Nat.eqb_refl in Q1. cbn [andb] in Q1. rewrite (sm_ext m _ (fun j => -1 * c j)) in Q1.
    - rewrite sm_scal in Q1. lra.
    - intros j Hj. destruct (Nat.eqb_spec j m); [lia|]. reflexivity. }
  split; [exact Sc|]. split; [intros p q; apply sm_ext; intros i Hi; rewrite (Eq i Hi); reflexivity|].
  intros c' S'. apply (diis_least n m (fun i => residual n S (nth i l (F0, D0))) c c' (- c m) Sc S'). intros i Hi.
  pose proof (Q i ltac:(lia)) as Q1. cbn [sm] in Q1. rewrite Nat.eqb_refl in Q1. destruct (Nat.eqb_spec i m); [lia|]. cbn [andb orb] in Q1.
  rewrite (sm_ext m _ (fun j => -1 * (c j * sm n (fun p => sm n (fun q => residual n S (nth i l (F0, D0)) p q * residual n S (nth j l (F0, D0)) p q))))) in Q1.
  - rewrite sm_scal in Q1. lra.
  - intros j Hj. destruct (Nat.eqb_spec j m); [lia|]. cbn [andb orb]. rewrite <- !Eq by assumption.
    change (error_matrix n S (fst ?x) (snd ?x)) with (residual n S x).
    assert (An : forall p q, (p < n)%nat -> (q < n)%nat -> residual n S (nth j l (F0, D0)) q p = - residual n S (nth j l (F0, D0)) p q).
    { rewrite List.Forall_forall in SL. pose proof (SL (nth j l (F0, D0)) (nth_In l _ Hj)) as Y. apply residual_anti.
      - intros a b Ha Hb. symmetry. apply HS; assumption.
      - intros a b Ha Hb. symmetry. apply Y; assumption.
      - intros a b Ha Hb. symmetry. apply Y; assumption. }
    replace (-1 * (c j * sm n (fun p => sm n (fun q => residual n S (nth i l (F0, D0)) p q * residual n S (nth j l (F0, D0)) p q))))
      with (sm n (fun p => sm n (fun q => residual n S (nth i l (F0, D0)) p q * (- residual n S (nth j l (F0, D0)) p q))) * c j).
    + f_equal. apply sm_ext. intros p Hp. unfold dot. apply sm_ext. intros q Hq.
      change (error_matrix n S (fst (nth i l (F0, D0))) (snd (nth i l (F0, D0))) p q * residual n S (nth j l (F0, D0)) q p = residual n S (nth i l (F0, D0)) p q * - residual n S (nth j l (F0, D0)) p q).
      rewrite (An p q Hp Hq). reflexivity.
    + rewrite (sm_ext n _ (fun p => -1 * sm n (fun q => residual n S (nth i l (F0, D0)) p q * residual n S (nth j l (F0, D0)) p q))).
      * rewrite sm_scal. ring.
      * intros p _. rewrite <- sm_scal. apply sm_ext. intros; ring.
Qed.
(** With two basis functions nothing is extrapolated or stored; the first matrix
    offered is returned as it is. *)
Theorem C77_first solve n st F0 D0 S : n = 2%nat \/ st = [] -> exists st', get_extrapolated_fock_matrix solve n 6 st F0 D0 S = Some (F0, st') /\ (n = 2%nat -> st' = st).
Proof.
  intros K. unfold get_extrapolated_fock_matrix. destruct (Nat.eqb_spec n 2) as [E|E]; [exists st; auto|]. destruct K as [K| ->]; [contradiction|]. exists [(F0, D0)]. split; [reflexivity|contradiction].
Qed.
(** Three stored pairs of 1 x 1 matrices and a [solve] that is exact for
    the systems it answers: the hypotheses of [C77_extrapolation] can be met. *)
Definition ex_solve1 (k : nat) (B : mat) (b : nat -> R) : option (nat -> R) :=
  if Nat.eqb k 3 then
    let x : nat -> R := fun i => match i with 2%nat => 0 | _ => 1 / 2 end in
    if Req_EM_T (sm 3 (fun j => B 0%nat j * x j)) (b 0%nat) then if Req_EM_T (sm 3 (fun j => B 1%nat j * x j)) (b 1%nat) then
    if Req_EM_T (sm 3 (fun j => B 2%nat j * x j)) (b 2%nat) then Some x else None else None else None
  else None.
Example ex_solve1_ok : solve_ok ex_solve1.
Proof.
  intros k B b x E. unfold ex_solve1 in E. destruct (Nat.eqb_spec k 3) as [->|]; [|discriminate].
  destruct (Req_EM_T _ (b 0%nat)) as [E0|]; [|discriminate]. destruct (Req_EM_T _ (b 1%nat)) as [E1|]; [|discriminate]. destruct (Req_EM_T _ (b 2%nat)) as [E2|]; [|discriminate].
  injection E as <-. intros [|[|[|i]]] Hi; [exact E0|exact E1|exact E2|lia].
Qed.
Example ex_C77 : exists F st', get_extrapolated_fock_matrix ex_solve1 1 6 [((fun _ _ => 1), (fun _ _ => 2))] (fun _ _ => 3) (fun _ _ => 2) (fun _ _ => 1) = Some (F, st')
  /\ F 0%nat 0%nat = 2 /\ length st' = 2%nat.
Proof.
  unfold get_extrapolated_fock_matrix, ex_solve1, error_matrix, dot. cbn.
  repeat (match goal with |- context [Req_EM_T ?a ?b] => destruct (Req_EM_T a b) as [_|N]; [|exfalso; apply N; field] end).
  eexists. eexists. split; [reflexivity|]. split; [cbn; field|reflexivity].
Qed.

(** ** C78: unrestricted Hartree-Fock *)
Definition fock_of_spin (n : nat) (h : mat) (g : ten) (D D' : mat) (p q : nat) : R :=
  h p q + sm n (fun r => sm n (fun s => g p q r s * (D s r + D' s r) - g p s q r * D s r)).
Lemma fock_of_spin_ok n h g D D' p q : fock_uhf n h g D D' p q = fock_of_spin n h g D D' p q.
Proof.
  unfold fock_uhf, fock_of_spin, coulomb, exchange. unfold Rminus at 1. rewrite !Rplus_assoc. f_equal. rewrite <- sm_opp, <- !sm_plus. apply sm_ext. intros r _.
  rewrite <- sm_opp, <- !sm_plus. apply sm_ext. intros s _. ring.
Qed.
Theorem C78_orbitals eigh solve n S T V ERI na nb c dthr rthr maxit diis E Ca Cb Fa Fb Da Db conv :
  eigh_ok n eigh -> solve_ok solve -> input_ok eigh n S T V ERI ->
  run_unrestricted_hartree_fock eigh solve n S T V ERI na nb c dthr rthr maxit diis = Done (E, (Ca, Cb), (Fa, Fb), (Da, Db)) conv ->
  let spin := fun (C F D : mat) m =>
    (forall i j, (i < n)%nat -> (j < n)%nat -> sm n (fun a => sm n (fun b => C a i * S a b * C b j)) = if Nat.eqb i j then 1 else 0)
    /\ (forall i j, (i < n)%nat -> (j < n)%nat -> D i j = sm (Nat.min m n) (fun k => C i k * C j k))
    /\ (forall i j, (i < n)%nat -> (j < n)%nat -> sm n (fun b => sm n (fun a => D i a * S a b) * D b j) = D i j)
    /\ sm n (fun i => sm n (fun j => D i j * S i j)) = INR (Nat.min m n)
    /\ (exists eps, (forall i j, (i < n)%nat -> (j < n)%nat -> sm n (fun k => F i k * C k j) = sm n (fun k => S i k * C k j) * eps j)
                    /\ forall i j, (i <= j < n)%nat -> eps i <= eps j) in
  spin Ca Fa Da na /\ spin Cb Fb Db nb
  /\ E = 1 / 2 * sm n (fun i => sm n (fun j => Da i j * (T i j + V i j + Fa i j))) + 1 / 2 * sm n (fun i => sm n (fun j => Db i j * (T i j + V i j + Fb i j)))
  /\ (diis = false -> exists Pa Pb,
        (forall p q, Fa p q = fock_of_spin n (fun p q => T p q + V p q) ERI Pa Pb p q /\ Fb p q = fock_of_spin n (fun p q => T p q + V p q) ERI Pb Pa p q)
        /\ (conv = true -> sqrt (sm n (fun i => sm n (fun j => (Da i j - Pa i j) ^ 2))) < rthr /\ sqrt (sm n (fun i => sm n (fun j => (Db i j - Pb i j) ^ 2))) < rthr)).
Proof.
  intros He Hs Hi R spin. destruct (input_sym _ _ _ _ _ _ Hi) as (HS & HH & HG). pose proof (eigh_eig n eigh He) as Heig.
  unfold run_unrestricted_hartree_fock in R.
  destruct (if Nat.eqb na nb then _ else _) as [CaT|]; [|discriminate].
  pose proof (uscf_good eigh solve n Heig Hs S (add_ T V) ERI HS (proj1 (proj2 Hi)) HH HG diis na nb dthr rthr maxit _ _ _ [] [] None
    (density_sym n 1 na _) (density_sym n 1 nb _) (List.Forall_nil _) (List.Forall_nil _) I _ _ R) as G.
  destruct G as (Oa & Ob & Ra & Rb & Ea & Eb & EE & Pa & Pb & SA & SB & Cv).
  assert (Sp : forall C F D m, ortho n S C -> roothaan n S F C -> D = density n 1 m C -> spin C F D m).
  { intros C F D m O (eps & RE & As) ->. unfold spin. split; [|split; [|split; [|split]]].
    - intros i j Hi' Hj'. destruct O as [O _]. rewrite <- diag_1, <- (O i j Hi' Hj'). unfold dot, tr_. rewrite sm_swap. apply sm_ext. intros b _. rewrite <- sm_scal_r. reflexivity.
    - intros i j _ _. unfold density, occupied. ring.
    - intros i j Hi' Hj'. pose proof (density_idem n 1 m C S (proj1 O) i j Hi' Hj') as Q. cbv beta in Q. rewrite Rmult_1_l in Q. exact Q.
    - pose proof (density_trace n 1 m C S HS (proj1 O)) as Q. rewrite Rmult_1_l in Q. exact Q.
    - exists eps. split; [|exact As]. intros i j Hi' Hj'. pose proof (RE i j Hi' Hj') as Q. rewrite dot_diag_r in Q by exact Hj'. exact Q. }
  split; [apply Sp; assumption|]. split; [apply Sp; assumption|]. split; [exact EE|].
  intros U. exists Pa, Pb. split; [|exact Cv].
  assert (One : forall F A B, one_spin n (add_ T V) ERI (symm n) (symm n) diis F A B -> forall p q, F p q = fock_of_spin n (fun p q => T p q + V p q) ERI A B p q).
  { intros F A B (m & w & As & Bs & Sc & _ & EF & Nd) p q. destruct (Nd U) as (-> & EA & EB). rewrite EF, fock_uhf_lin by exact Sc. unfold lin. cbn [sm] in *. rewrite EA, EB, <- fock_of_spin_ok.
    replace (w 0%nat) with 1 by lra. unfold add_. ring. }
  intros p q. split; [apply (One Fa Pa Pb SA)|apply (One Fb Pb Pa SB)].
Qed.
(** The spin contamination of returned orbitals is between 0 and the number of
    beta electrons, and vanishes when both spins have the same orbitals. *)
Theorem C78_spin_contamination eigh solve n S T V ERI na nb c dthr rthr maxit diis E Ca Cb Fa Fb Da Db conv :
  eigh_ok n eigh -> solve_ok solve -> input_ok eigh n S T V ERI -> (nb <= na <= n)%nat ->
  run_unrestricted_hartree_fock eigh solve n S T V ERI na nb c dthr rthr maxit diis = Done (E, (Ca, Cb), (Fa, Fb), (Da, Db)) conv ->
  0 <= spin_contamination n S Ca Cb na nb <= INR nb
  /\ spin_contamination n S Ca Cb na nb = INR nb - sm n (fun p => sm n (fun q => sm n (fun r => sm n (fun s => Da p q * S q r * Db r s * S s p))))
  /\ ((forall i k, (i < n)%nat -> (k < n)%nat -> Ca i k = Cb i k) -> spin_contamination n S Ca Cb na nb = 0).
Proof.
  intros He Hs Hi Hn R. destruct (input_sym _ _ _ _ _ _ Hi) as (HS & HH & HG). pose proof (eigh_eig n eigh He) as Heig.
  unfold run_unrestricted_hartree_fock in R.
  destruct (if Nat.eqb na nb then _ else _) as [CaT|]; [|discriminate].
  pose proof (uscf_good eigh solve n Heig Hs S (add_ T V) ERI HS (proj1 (proj2 Hi)) HH HG diis na nb dthr rthr maxit _ _ _ [] [] None
    (density_sym n 1 na _) (density_sym n 1 nb _) (List.Forall_nil _) (List.Forall_nil _) I _ _ R) as G.
  destruct G as (Oa & Ob & Ra & Rb & Ea & Eb & _). clear R.
  split; [apply spin_contamination_bounds; try assumption; lia|]. split.
  - unfold spin_contamination. cbv zeta. f_equal.
    transitivity (sm na (fun i => sm nb (fun j => sm n (fun p => sm n (fun q => sm n (fun r => sm n (fun s => Ca p i * Ca q i * S q r * (Cb r j * Cb s j) * S s p))))))).
    + apply sm_ext. intros i _. apply sm_ext. intros j _. cbn [pow]. rewrite Rmult_1_r.
      set (u := fun p => sm n (fun s => Ca p i * Cb s j * S p s)).
      transitivity (sm n (fun p => u p * sm n (fun q => u q))); [rewrite sm_scal_r; reflexivity|]. apply sm_ext. intros p Hp. rewrite <- sm_scal. apply sm_ext. intros q Hq.
      unfold u. rewrite <- sm_scal. apply sm_ext. intros r Hr. rewrite <- sm_scal_r. apply sm_ext. intros s Hs'. rewrite <- (HS s p Hs' Hp). unfold tr_. ring.
    + rewrite Ea, Eb. unfold density, occupied. rewrite !Nat.min_l by lia.
      rewrite (sm_ext na _ (fun i => sm n (fun p => sm n (fun q => sm n (fun r => sm n (fun s => sm nb (fun j => Ca p i * Ca q i * S q r * (Cb r j * Cb s j) * S s p))))))).
      2:{ intros i _. rewrite sm_swap. apply sm_ext. intros p _. rewrite sm_swap. apply sm_ext. intros q _. rewrite sm_swap. apply sm_ext. intros r _. apply sm_swap. }
      rewrite sm_swap. apply sm_ext. intros p _. rewrite sm_swap. apply sm_ext. intros q _. rewrite sm_swap. apply sm_ext. intros r _. rewrite sm_swap. apply sm_ext. intros s _.
      rewrite !Rmult_1_l. transitivity (sm na (fun i => Ca p i * Ca q i) * (S q r * sm nb (fun j => Cb r j * Cb s j) * S s p)); [|ring]. rewrite <- sm_scal_r. apply sm_ext. intros i _.
      rewrite <- sm_scal, <- sm_scal_r, <- sm_scal. apply sm_ext. intros; ring.
  - intros EC. rewrite <- (spin_contamination_closed n S Cb na nb Ob) by lia. unfold spin_contamination. cbv zeta. f_equal. apply sm_ext. intros i Hi'. apply sm_ext. intros j _. f_equal.
    apply sm_ext. intros a Ha. apply sm_ext. intros b _. rewrite EC by lia. reflexivity.
Qed.
(** Mixing of the frontier orbitals of equal numbers of electrons: the occupied
    alpha orbitals stay orthonormal, and all of the others but the lowest virtual
    one are untouched. *)
Theorem C78_mixing n c na C0T A S : mix n c na C0T = Some A -> (0 < na)%nat ->
  (forall i j, (i < n)%nat -> (j < n)%nat -> sm n (fun a => sm n (fun b => C0T i a * S a b * C0T j b)) = if Nat.eqb i j then 1 else 0) ->
  (forall i j, (i < na)%nat -> (j < na)%nat -> sm n (fun a => sm n (fun b => A i a * S a b * A j b)) = if Nat.eqb i j then 1 else 0)
  /\ forall i a, i <> (na - 1)%nat -> i <> na -> A i a = C0T i a.
Proof.
  intros E Ha O. split; [exact (mix_rows n c na C0T A S E Ha O)|]. intros i a N1 N2. unfold mix in E. destruct (Nat.leb n na); [discriminate|]. injection E as <-.
  destruct (Nat.eqb_spec i na); [contradiction|]. destruct (Nat.eqb_spec na 0); [lia|]. destruct (Nat.eqb_spec i (na - 1)); [contradiction|]. reflexivity.
Qed.
(** The lowest virtual orbital after mixing is not orthogonal to the mixed
    occupied one, because the second assignment reads the row that the first one
    overwrote. *)
Theorem C78_mixing_refuted : ~ (forall n c na C0T A, mix n c na C0T = Some A -> (0 < na)%nat ->
  (forall i j, (i < n)%nat -> (j < n)%nat -> sm n (fun a => C0T i a * C0T j a) = if Nat.eqb i j then 1 else 0) ->
  forall i j, (i < n)%nat -> (j < n)%nat -> sm n (fun a => A i a * A j a) = if Nat.eqb i j then 1 else 0).
Proof.
  intros K. pose proof (K 2%nat (3 / 4) 1%nat (fun i j => if Nat.eqb i j then 1 else 0) _ eq_refl ltac:(lia)) as Q.
  assert (Q1 := Q ltac:(intros i j Hi Hj; two i Hi; two j Hj; cbn; ring) 0%nat 1%nat ltac:(lia) ltac:(lia)). clear K Q. cbn in Q1.
  replace (1 + 3 / 4 * (3 / 4 * 1)) with (5 / 4 * (5 / 4)) in Q1 by field. rewrite sqrt_square in Q1 by lra. lra.
Qed.
(** As many alpha as beta electrons and no virtual orbital: IndexError. *)
Theorem C78_full_shell eigh solve n S T V ERI na nb c dthr rthr maxit diis :
  run_unrestricted_hartree_fock eigh solve n S T V ERI na nb c dthr rthr maxit diis = IndexErr <-> na = nb /\ (n <= na)%nat.
Proof.
  unfold run_unrestricted_hartree_fock. destruct (Nat.eqb_spec na nb) as [<-|N].
  - unfold mix. destruct (Nat.leb_spec n na) as [L|L]; [intuition|]. split; [|lia]. intros E. exfalso. revert E. generalize (@nil (mat * mat)) at 1 as sta. generalize (@nil (mat * mat)) as stb.
    match goal with |- context [uscf _ _ _ _ _ _ _ _ _ _ _ _ _ ?Da ?Db ?E0 _ _ ?last] => generalize last; generalize E0; generalize Da; generalize Db end.
    induction maxit as [|maxit IH]; intros Db Da E0 last stb sta; cbn [uscf]; [destruct last; discriminate|].
    destruct (if diis then get_extrapolated_fock_matrix _ _ _ sta _ _ _ else _) as [[? ?]|]; [|discriminate]. destruct (if diis then get_extrapolated_fock_matrix _ _ _ stb _ _ _ else _) as [[? ?]|]; [|discriminate].
    repeat (destruct (Rlt_dec _ _); [|apply IH]). discriminate.
  - split; [|intros [? _]; contradiction]. intros E. exfalso. revert E. generalize (@nil (mat * mat)) at 1 as sta. generalize (@nil (mat * mat)) as stb.
    match goal with |- context [uscf _ _ _ _ _ _ _ _ _ _ _ _ _ ?Da ?Db ?E0 _ _ ?last] => generalize last; generalize E0; generalize Da; generalize Db end.
    induction maxit as [|maxit IH]; intros Db Da E0 last stb sta; cbn [uscf]; [destruct last; discriminate|].
    destruct (if diis then get_extrapolated_fock_matrix _ _ _ sta _ _ _ else _) as [[? ?]|]; [|discriminate]. destruct (if diis then get_extrapolated_fock_matrix _ _ _ stb _ _ _ else _) as [[? ?]|]; [|discriminate].
    repeat (destruct (Rlt_dec _ _); [|apply IH]). discriminate.
Qed.
(** The example of C76 with one electron of each spin runs. *)
Example ex_C78 : exists r, run_unrestricted_hartree_fock eigh2 ex_solve 2 ex_S ex_T ex_V ex_ERI 1 1 (15 / 100) (1 / 10) (1 / 10) 1 false = Done r false \/
  run_unrestricted_hartree_fock eigh2 ex_solve 2 ex_S ex_T ex_V ex_ERI 1 1 (15 / 100) (1 / 10) (1 / 10) 1 false = Done r true.
Proof.
  unfold run_unrestricted_hartree_fock, mix. change (Nat.eqb 1 1) with true. change (Nat.leb 2 1) with false. cbv iota.
  set (Da := density _ _ _ _). set (Db := density _ _ _ _). set (E0 := inner _ _ _ + _). clearbody Da Db E0. cbn [uscf].
  repeat (destruct (Rlt_dec _ _)); eexists; first [left; reflexivity|right; reflexivity].
Qed.

(** ** C79: electron counts and nuclear repulsion *)
Theorem C79_electrons charge charges :
  (number_electrons_alpha charge charges + number_electrons_beta charge charges = number_electrons charge charges)%Z
  /\ (0 <= number_electrons_alpha charge charges - number_electrons_beta charge charges <= 1)%Z
  /\ number_electrons charge charges = (fold_right Z.add 0 charges - charge)%Z.
Proof.
  assert (E : number_electrons charge charges = (fold_right Z.add 0 charges - charge)%Z).
  { unfold number_electrons. rewrite <- (Z.add_opp_r (fold_right _ _ _)). generalize (- charge)%Z as z. induction charges as [|c l IH]; intros z; cbn; [lia|]. rewrite IH. lia. }
  unfold number_electrons_alpha, number_electrons_beta. set (N := number_electrons charge charges) in *.
  pose proof (Z.div_mod N 2 ltac:(lia)). pose proof (Z.mod_pos_bound N 2 ltac:(lia)). pose proof (Z.div_mod (N + 1) 2 ltac:(lia)). pose proof (Z.mod_pos_bound (N + 1) 2 ltac:(lia)). lia.
Qed.
Definition origin : v3 * R := ({| vx := 0; vy := 0; vz := 0 |}, 0).
Definition pair_energy (a b : v3 * R) : R := snd a * snd b / sqrt ((vx (fst a) - vx (fst b)) ^ 2 + (vy (fst a) - vy (fst b)) ^ 2 + (vz (fst a) - vz (fst b)) ^ 2).
Lemma pair_energy_sym a b : pair_energy a b = pair_energy b a.
Proof. unfold pair_energy. rewrite (Rmult_comm (snd a)). do 2 f_equal. ring. Qed.
Fixpoint lsum (f : v3 * R -> R) (l : list (v3 * R)) : R := match l with [] => 0 | a :: l => f a + lsum f l end.
Fixpoint pairs_energy (l : list (v3 * R)) : R := match l with [] => 0 | a :: l => lsum (pair_energy a) l + pairs_energy l end.
Lemma lsum_sm f l : sm (length l) (fun i => f (nth i l origin)) = lsum f l.
Proof. induction l as [|a l IH]; [reflexivity|]. cbn [length lsum]. rewrite sm_S_first. cbn [nth]. f_equal. exact IH. Qed.
Lemma nuclear_repulsion_pairs l : nuclear_repulsion l = pairs_energy l.
Proof.
  unfold nuclear_repulsion. fold origin. induction l as [|a l IH]; [reflexivity|]. cbn [length pairs_energy]. rewrite sm_S_first. f_equal.
  - rewrite sm_S_first. cbn [nth Nat.leb]. rewrite Rplus_0_l. apply (lsum_sm (pair_energy a)).
  - rewrite <- IH. apply sm_ext. intros i _. rewrite sm_S_first. cbn [Nat.leb]. rewrite Rplus_0_l. apply sm_ext. intros j _. reflexivity.
Qed.
(** The nuclear repulsion is half the sum over ordered pairs of different nuclei,
    does not depend on the order of the nuclei, and is unchanged when all nuclei
    are moved by a map that preserves distances. *)
Theorem C79_nuclear_repulsion atoms :
  nuclear_repulsion atoms = 1 / 2 * sm (length atoms) (fun i => sm (length atoms) (fun j => if Nat.eqb i j then 0 else pair_energy (nth i atoms origin) (nth j atoms origin))).
Proof.
  unfold nuclear_repulsion. fold origin. set (n := length atoms). set (U := fun i j : nat => pair_energy (nth i atoms origin) (nth j atoms origin)).
  change (sm n (fun i => sm n (fun j => if Nat.leb j i then 0 else U i j)) = 1 / 2 * sm n (fun i => sm n (fun j => if Nat.eqb i j then 0 else U i j))).
  set (A := sm n _) at 1. enough (E : sm n (fun i => sm n (fun j => if Nat.eqb i j then 0 else U i j)) = A + A) by (rewrite E; field).
  assert (B : A = sm n (fun i => sm n (fun j => if Nat.leb i j then 0 else U j i))) by (unfold A; apply sm_swap).
  rewrite B at 2. unfold A. rewrite <- sm_plus. apply sm_ext. intros i _. rewrite <- sm_plus. apply sm_ext. intros j _.
  destruct (Nat.eqb_spec i j) as [->|N]; [rewrite Nat.leb_refl; symmetry; apply Rplus_0_l|]. destruct (Nat.leb_spec j i); destruct (Nat.leb_spec i j); try lia; [rewrite Rplus_0_l; apply pair_energy_sym|symmetry; apply Rplus_0_r].
Qed.
Theorem C79_order atoms atoms' : Permutation atoms atoms' -> nuclear_repulsion atoms = nuclear_repulsion atoms'.
Proof.
  intros P. rewrite !nuclear_repulsion_pairs. induction P as [|a l l' P IH|a b l|l1 l2 l3 _ IH1 _ IH2]; [reflexivity| | |congruence].
  - cbn [pairs_energy]. rewrite IH. f_equal. clear IH. induction P as [|x l l' P IH|x y l|l1 l2 l3 _ IH1 _ IH2]; cbn [lsum]; [reflexivity|rewrite IH; reflexivity|ring|congruence].
  - cbn [pairs_energy]. cbn [lsum]. rewrite (pair_energy_sym b a). ring.
Qed.
Theorem C79_isometry atoms (f : v3 -> v3) :
  (forall a b, distance (f a) (f b) = distance a b) -> nuclear_repulsion (map (fun a => (f (fst a), snd a)) atoms) = nuclear_repulsion atoms.
Proof.
  intros H. rewrite !nuclear_repulsion_pairs. induction atoms as [|a l IH]; [reflexivity|]. cbn [map pairs_energy]. rewrite IH. f_equal. clear IH. induction l as [|b l IH]; [reflexivity|].
  cbn [map lsum]. rewrite IH. f_equal. unfold pair_energy. cbn [fst snd]. specialize (H (fst a) (fst b)). unfold distance in H. rewrite H. reflexivity.
Qed.
Example ex_C79 : nuclear_repulsion [({| vx := 0; vy := 0; vz := 0 |}, 1); ({| vx := 0; vy := 0; vz := 2 |}, 3)] = 3 / 2 /\
  (number_electrons_alpha 1 [8; 1; 1] = 5 /\ number_electrons_beta 1 [8; 1; 1] = 4)%Z.
Proof.
  split; [|split; reflexivity]. rewrite nuclear_repulsion_pairs. cbn. unfold pair_energy. cbn. match goal with |- context [sqrt ?x] => replace x with (2 * 2) by ring end. rewrite sqrt_square by lra. field.
Qed.
Print Assumptions C76_orbitals.
Print Assumptions C76_energy.
Print Assumptions C76_diis.
Print Assumptions C76_iterations.
Print Assumptions C76_odd_electrons_refuted.
Print Assumptions C76_energy_refuted.
Print Assumptions C77_extrapolation.
Print Assumptions C77_first.
Print Assumptions C78_orbitals.
Print Assumptions C78_spin_contamination.
Print Assumptions C78_mixing.
Print Assumptions C78_mixing_refuted.
Print Assumptions C78_full_shell.
Print Assumptions C79_electrons.
Print Assumptions C79_nuclear_repulsion.
Print Assumptions C79_order.
Print Assumptions C79_isometry.
