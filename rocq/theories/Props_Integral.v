(** Properties of the molecular integrals (C48, C49, C50, C70 - C75). *)
From Coq Require Import List Bool Arith Lia Reals Lra Psatz.
From Coquelicot Require Import Coquelicot.
Require Import Verif.IntegralModel Verif.IntegralProofs Verif.GaussProofs Verif.OneElectron Verif.TwoElectron Verif.Coulomb Verif.Normalise Verif.CoulombInt.
Import ListNotations.
Local Open Scope R_scope.

(** A small basis: an s function with two primitives, and a p shell. *)
Definition ex_basis : list (v3 * list R * list R * list ang) :=
  [({| vx := 0; vy := 0; vz := 0 |}, [1; 3], [1; 2], [(0, 0, 0)%nat]);
   ({| vx := 0; vy := 1; vz := 2 |}, [2], [1], [(1, 0, 0)%nat; (0, 1, 0)%nat; (0, 0, 1)%nat])].
Definition ex_shells : list shell := make_shells ex_basis 0.
Definition all_positive (shells : list shell) : Prop := forall i, (i < length shells)%nat -> positive (sh shells i).
Example ex_positive : all_positive ex_shells.
Proof.
  intros [|[|i]] H; cbn in H; try lia; (split; [|reflexivity]); cbn.
  - apply List.Forall_cons; [lra|]. apply List.Forall_cons; [lra|]. apply List.Forall_nil.
  - apply List.Forall_cons; [lra|]. apply List.Forall_nil.
Qed.

(** ** C48 *)
(** The product of two Cartesian Gaussians is the sum of the table entries
    times the derivatives of one Gaussian at the product centre. *)
Theorem C48_expansion mem A B a b la lb i j x : a + b <> 0 -> (i <= la)%nat -> (j <= lb)%nat ->
  sm (S (i + j)) (fun t => expansion_coefficients mem A B a b la lb [i; j; t]
                           * Derive_n (fun P => exp (- (a + b) * (x - P) ^ 2)) t ((a * A + b * B) / (a + b)))
  = ((x - A) ^ i * exp (- a * (x - A) ^ 2)) * ((x - B) ^ j * exp (- b * (x - B) ^ 2)).
Proof.
  intros H Hi Hj. transitivity ((x - A) ^ i * (x - B) ^ j * (exp (- a * (x - A) ^ 2) * exp (- b * (x - B) ^ 2))); [|ring].
  rewrite <- Esp_expands by exact H. apply sm_ext. intros t Ht. rewrite lam_Derive_n, Esp_tbl by lia. reflexivity.
Qed.
Theorem C48_zero mem A B a b la lb i j t : (i <= la)%nat -> (j <= lb)%nat -> (i + j < t <= la + lb)%nat ->
  expansion_coefficients mem A B a b la lb [i; j; t] = 0.
Proof. intros Hi Hj Ht. rewrite Esp_tbl by lia. apply Esp_zero. lia. Qed.
Theorem C48_exchange mem mem' A B a b la lb i j t : (i <= la)%nat -> (j <= lb)%nat -> (t <= la + lb)%nat ->
  expansion_coefficients mem A B a b la lb [i; j; t] = expansion_coefficients mem' B A b a lb la [j; i; t].
Proof. intros Hi Hj Ht. rewrite !Esp_tbl by lia. apply Esp_sym. Qed.
Example C48_example : let E := expansion_coefficients (fun _ => 7) 0 1 2 2 1 1 in
  E [1; 1; 0]%nat = - exp (-1) / 8 /\ E [1; 1; 2]%nat = exp (-1) / 64 /\ E [0; 1; 2]%nat = 0.
Proof.
  cbv zeta. unfold expansion_coefficients.
  replace (exp (- (2 * 2 / (2 + 2)) * (0 - 1) ^ 2)) with (exp (-1)) by (f_equal; field).
  repeat split; cbn -[exp Rdiv]; field.
Qed.

(** ** C49 *)
Theorem C49_hermite_coulomb boys mem lx ly lz p X Y Z t u v :
  (forall n z, is_derive (boys n) z (- boys (S n) z)) -> (t <= lx)%nat -> (u <= ly)%nat -> (v <= lz)%nat ->
  hermite_coulomb_integral boys mem lx ly lz p X Y Z [t; u; v]
  = Derive_n (fun X => Derive_n (fun Y => Derive_n (fun Z => boys 0%nat (p * (X ^ 2 + Y ^ 2 + Z ^ 2))) v Z) u Y) t X.
Proof.
  intros H Ht Hu Hv. rewrite hermite_ok by assumption. rewrite Rsp_Derive by exact H.
  apply Derive_n_ext. intros X'. apply Derive_n_ext. intros Y'. apply Derive_n_ext. intros Z'. cbn [pow]. ring.
Qed.
(** The Boys functions [int_0^1 s^2n exp (- z s^2) ds] meet the hypothesis. *)
Theorem C49_boys_derivative n z : is_derive (fun z => RInt (fun s => s ^ (2 * n) * exp (- z * s ^ 2)) 0 1) z
  (- RInt (fun s => s ^ (2 * S n) * exp (- z * s ^ 2)) 0 1).
Proof. exact (boys_derive n z). Qed.
(** Nothing of what was in memory before reaches the returned entries. *)
Theorem C49_independent boys mem mem' lx ly lz lx' ly' lz' p X Y Z t u v :
  (t <= lx)%nat -> (u <= ly)%nat -> (v <= lz)%nat -> (t <= lx')%nat -> (u <= ly')%nat -> (v <= lz')%nat ->
  hermite_coulomb_integral boys mem lx ly lz p X Y Z [t; u; v] = hermite_coulomb_integral boys mem' lx' ly' lz' p X Y Z [t; u; v].
Proof. intros. rewrite !hermite_ok by assumption. reflexivity. Qed.
Example C49_example boys : hermite_coulomb_integral boys (fun _ => 5) 1 0 1 2 3 0 1 [1; 0; 1]%nat
  = 48 * boys 2%nat (2 * sqrt (3 ^ 2 + 0 ^ 2 + 1 ^ 2) ^ 2).
Proof. cbn -[sqrt pow]. cbn [pow]. ring. Qed.

(** ** C50 *)
(** Every index of the tensor belongs to a function of a shell. *)
Fixpoint count_bf (basis : list (v3 * list R * list R * list ang)) : nat :=
  match basis with [] => 0%nat | (_, _, _, m) :: r => (length m + count_bf r)%nat end.
Lemma cover basis : forall n x, (n <= x < n + count_bf basis)%nat ->
  exists i a, (i < length (make_shells basis n))%nat /\ (a < nbf (sh (make_shells basis n) i))%nat /\ x = (s_bf (sh (make_shells basis n) i) + a)%nat.
Proof.
  induction basis as [|[[[c e] k] m] r IH]; intros n x H; cbn [count_bf] in H; [lia|].
  destruct (Nat.lt_ge_cases x (n + length m)) as [L|L].
  - exists 0%nat, (x - n)%nat. unfold nbf. cbn. repeat split; lia.
  - destruct (IH (n + length m)%nat x ltac:(lia)) as (i & a & Hi & Ha & E). exists (S i), a. cbn [make_shells length]. split; [lia|]. split; [exact Ha|exact E].
Qed.
Theorem C50_every_index basis x : (x < count_bf basis)%nat ->
  exists i a, (i < length basis)%nat /\ (a < nbf (sh (make_shells basis 0) i))%nat /\ x = (s_bf (sh (make_shells basis 0) i) + a)%nat.
Proof. intros H. destruct (cover basis 0 x ltac:(lia)) as (i & a & Hi & R). rewrite make_shells_length in Hi. exists i, a. split; [exact Hi|exact R]. Qed.
Lemma eri_sym8 boys mem shells : sym8 shells (electron_repulsion_integral boys mem).
Proof. intros i j k l a b c d Hi Hj Hk Hl Ha Hb Hc Hd. split; [|split]; [apply eri_swap12|apply eri_swap34|apply eri_swap]; assumption. Qed.
(** Without screening, for any eight-fold symmetric shell integral. *)
Theorem C50_driver_fills integral threshold basis i j k l a b c d :
  let shells := make_shells basis 0 in let s := sh shells in
  (forall i j k l a b c d, (i < length shells)%nat -> (j < length shells)%nat -> (k < length shells)%nat -> (l < length shells)%nat ->
     (a < nbf (s i))%nat -> (b < nbf (s j))%nat -> (c < nbf (s k))%nat -> (d < nbf (s l))%nat ->
     integral (s i) (s j) (s k) (s l) a b c d = integral (s j) (s i) (s k) (s l) b a c d
     /\ integral (s i) (s j) (s k) (s l) a b c d = integral (s i) (s j) (s l) (s k) a b d c
     /\ integral (s i) (s j) (s k) (s l) a b c d = integral (s k) (s l) (s i) (s j) c d a b) ->
  (i < length shells)%nat -> (j < length shells)%nat -> (k < length shells)%nat -> (l < length shells)%nat ->
  (a < nbf (s i))%nat -> (b < nbf (s j))%nat -> (c < nbf (s k))%nat -> (d < nbf (s l))%nat ->
  eri_driver integral None threshold shells (s_bf (s i) + a)%nat (s_bf (s j) + b)%nat (s_bf (s k) + c)%nat (s_bf (s l) + d)%nat
  = integral (s i) (s j) (s k) (s l) a b c d.
Proof.
  intros shells s H8 Hi Hj Hk Hl Ha Hb Hc Hd.
  apply (eri_driver_kept shells (make_shells_laid basis 0) integral H8 i j k l a b c d Hi Hj Hk Hl Ha Hb Hc Hd None threshold). discriminate.
Qed.
(** The integrals of the code meet the symmetry hypothesis, whatever Boys
    function is used. *)
Theorem C50_eightfold boys mem s1 s2 s3 s4 a b c d : (a < nbf s1)%nat -> (b < nbf s2)%nat -> (c < nbf s3)%nat -> (d < nbf s4)%nat ->
  let g := electron_repulsion_integral boys mem in
  g s1 s2 s3 s4 a b c d = g s2 s1 s3 s4 b a c d /\ g s1 s2 s3 s4 a b c d = g s1 s2 s4 s3 a b d c /\ g s1 s2 s3 s4 a b c d = g s3 s4 s1 s2 c d a b.
Proof. intros A B C D g. split; [|split]; [apply eri_swap12|apply eri_swap34|apply eri_swap]; assumption. Qed.
(** Screening with the matrix of the code, with exact Boys functions: every
    element of the tensor is the integral, or zero where the integral is
    smaller than the threshold. *)
Theorem C50_screening mem threshold basis i j k l a b c d :
  let shells := make_shells basis 0 in let s := sh shells in
  let g := electron_repulsion_integral boysF mem in
  all_positive shells ->
  (i < length shells)%nat -> (j < length shells)%nat -> (k < length shells)%nat -> (l < length shells)%nat ->
  (a < nbf (s i))%nat -> (b < nbf (s j))%nat -> (c < nbf (s k))%nat -> (d < nbf (s l))%nat ->
  let V := eri_driver g (Some (cauchy_schwarz_matrix g shells)) threshold shells
             (s_bf (s i) + a)%nat (s_bf (s j) + b)%nat (s_bf (s k) + c)%nat (s_bf (s l) + d)%nat in
  V = g (s i) (s j) (s k) (s l) a b c d \/ (V = 0 /\ Rabs (g (s i) (s j) (s k) (s l) a b c d) < threshold).
Proof.
  intros shells s g Pos Hi Hj Hk Hl Ha Hb Hc Hd V. set (Q := cauchy_schwarz_matrix g shells) in *.
  assert (H8 : sym8 shells g) by apply eri_sym8.
  assert (Sy : forall x y, Q x y = Q y x) by (intros; apply cs_sym).
  destruct (Rlt_dec (Q i j * Q k l) threshold) as [T|T].
  - right. split.
    + apply (eri_driver_dropped shells (make_shells_laid basis 0) g H8 i j k l a b c d Hi Hj Hk Hl Ha Hb Hc Hd Q threshold Sy T).
    + eapply Rle_lt_trans; [|exact T].
      destruct (eri_cauchy_schwarz mem (s i) (s j) (s k) (s l) a b c d (Pos i Hi) (Pos j Hj) (Pos k Hk) (Pos l Hl) Ha Hb Hc Hd) as [N1 CS].
      destruct (eri_cauchy_schwarz mem (s k) (s l) (s k) (s l) c d c d (Pos k Hk) (Pos l Hl) (Pos k Hk) (Pos l Hl) Hc Hd Hc Hd) as [N2 _].
      fold g in N1, N2, CS. pose proof (cs_diag shells g H8 i j a b Hi Hj Ha Hb) as D1. pose proof (cs_diag shells g H8 k l c d Hk Hl Hc Hd) as D2.
      fold Q in D1, D2. fold s in D1, D2.
      apply Rle_trans with (sqrt (g (s i) (s j) (s i) (s j) a b a b) * sqrt (g (s k) (s l) (s k) (s l) c d c d)).
      * rewrite <- sqrt_mult by assumption. rewrite <- sqrt_Rsqr_abs. apply sqrt_le_1_alt. exact CS.
      * apply Rmult_le_compat; try apply sqrt_pos; assumption.
  - left. apply (eri_driver_kept shells (make_shells_laid basis 0) g H8 i j k l a b c d Hi Hj Hk Hl Ha Hb Hc Hd (Some Q) threshold).
    intros Q' E. injection E as <-. split; [exact Sy|apply Rnot_lt_le; exact T].
Qed.
(** The Cauchy-Schwarz inequality itself. *)
Theorem C50_cauchy_schwarz mem s1 s2 s3 s4 a b c d : positive s1 -> positive s2 -> positive s3 -> positive s4 ->
  (a < nbf s1)%nat -> (b < nbf s2)%nat -> (c < nbf s3)%nat -> (d < nbf s4)%nat ->
  let g := electron_repulsion_integral boysF mem in
  0 <= g s1 s2 s1 s2 a b a b /\ g s1 s2 s3 s4 a b c d * g s1 s2 s3 s4 a b c d <= g s1 s2 s1 s2 a b a b * g s3 s4 s3 s4 c d c d.
Proof. exact (eri_cauchy_schwarz mem s1 s2 s3 s4 a b c d). Qed.
(** The compound index of the loop is not injective on the pairs [i <= j]. *)
Theorem C50_compound_not_injective : compound 0 2 = compound 1 1 /\ compound 0 3 = compound 1 2.
Proof. split; reflexivity. Qed.
Example C50_example : length ex_shells = 2%nat /\ nbf (sh ex_shells 1) = 3%nat /\ s_bf (sh ex_shells 1) = 1%nat /\ count_bf ex_basis = 4%nat.
Proof. repeat split. Qed.

(** ** C70: multipole integrals *)
(** The element computed for two basis functions is the iterated improper
    integral of the product of their amplitudes and the moment. *)
Theorem C70_multipole mem origin mx my mz s1 s2 a b : positive s1 -> positive s2 -> (a < nbf s1)%nat -> (b < nbf s2)%nat ->
  int3 (fun x y z => amplitude s1 a x y z * ((x - vx origin) ^ mx * (y - vy origin) ^ my * (z - vz origin) ^ mz) * amplitude s2 b x y z)
       (multipole_integral mem origin (mx, my, mz) s1 s2 a b).
Proof. intros. apply multipole_int; assumption. Qed.
(** The matrix returned by the driver: every element is the integral over the
    two basis functions, and the matrix is symmetric. *)
Theorem C70_multipole_matrix mem origin mx my mz basis i j a b :
  let shells := make_shells basis 0 in let s := sh shells in
  let M := driver2 (multipole_integral mem origin (mx, my, mz)) shells in
  all_positive shells -> (i < length shells)%nat -> (j < length shells)%nat -> (a < nbf (s i))%nat -> (b < nbf (s j))%nat ->
  int3 (fun x y z => amplitude (s i) a x y z * ((x - vx origin) ^ mx * (y - vy origin) ^ my * (z - vz origin) ^ mz) * amplitude (s j) b x y z)
       (M (s_bf (s i) + a)%nat (s_bf (s j) + b)%nat)
  /\ M (s_bf (s i) + a)%nat (s_bf (s j) + b)%nat = M (s_bf (s j) + b)%nat (s_bf (s i) + a)%nat.
Proof.
  intros shells s M Pos Hi Hj Ha Hb. unfold M, s in *. clear M s.
  rewrite (driver2_ok shells (make_shells_laid basis 0) _ i j a b Hi Hj Ha Hb (multipole_sym mem origin (mx, my, mz) (sh shells i) (sh shells j) a b (Pos i Hi) (Pos j Hj) Ha Hb)).
  rewrite (driver2_ok shells (make_shells_laid basis 0) _ j i b a Hj Hi Hb Ha (multipole_sym mem origin (mx, my, mz) (sh shells j) (sh shells i) b a (Pos j Hj) (Pos i Hi) Hb Ha)).
  split; [apply multipole_int; auto|]. apply multipole_sym; auto.
Qed.
(** ** C71: kinetic energy integrals *)
Theorem C71_kinetic mem s1 s2 a b : positive s1 -> positive s2 -> (a < nbf s1)%nat -> (b < nbf s2)%nat ->
  int3 (fun x y z => - (1 / 2) * (Derive_n (fun x => amplitude s1 a x y z) 2 x + Derive_n (fun y => amplitude s1 a x y z) 2 y + Derive_n (fun z => amplitude s1 a x y z) 2 z)
                     * amplitude s2 b x y z)
       (kinetic_energy_integral mem s1 s2 a b).
Proof. exact (kinetic_int mem s1 s2 a b). Qed.
Theorem C71_kinetic_matrix mem basis i j a b :
  let shells := make_shells basis 0 in let s := sh shells in
  let T := driver2 (kinetic_energy_integral mem) shells in
  all_positive shells -> (i < length shells)%nat -> (j < length shells)%nat -> (a < nbf (s i))%nat -> (b < nbf (s j))%nat ->
  int3 (fun x y z => - (1 / 2) * (Derive_n (fun x => amplitude (s i) a x y z) 2 x + Derive_n (fun y => amplitude (s i) a x y z) 2 y + Derive_n (fun z => amplitude (s i) a x y z) 2 z)
                     * amplitude (s j) b x y z)
       (T (s_bf (s i) + a)%nat (s_bf (s j) + b)%nat)
  /\ T (s_bf (s i) + a)%nat (s_bf (s j) + b)%nat = T (s_bf (s j) + b)%nat (s_bf (s i) + a)%nat.
Proof.
  intros shells s T Pos Hi Hj Ha Hb. unfold T, s in *. clear T s.
  rewrite (driver2_ok shells (make_shells_laid basis 0) _ i j a b Hi Hj Ha Hb (kinetic_sym mem (sh shells i) (sh shells j) a b (Pos i Hi) (Pos j Hj) Ha Hb)).
  rewrite (driver2_ok shells (make_shells_laid basis 0) _ j i b a Hj Hi Hb Ha (kinetic_sym mem (sh shells j) (sh shells i) b a (Pos j Hj) (Pos i Hi) Hb Ha)).
  split; [exact (kinetic_int mem (sh shells i) (sh shells j) a b (Pos i Hi) (Pos j Hj) Ha Hb)|]. apply kinetic_sym; auto.
Qed.
(** ** C72: nuclear attraction integrals *)
(** [1 / r] is the integral of [2 / sqrt PI * exp (- w^2 r^2)] over [w > 0]. *)
Theorem C72_coulomb_kernel r : 0 < r -> is_RInt_gen (fun w => 2 / sqrt PI * exp (- w ^ 2 * r ^ 2)) (at_point 0) (Rbar_locally p_infty) (/ r).
Proof. exact (coulomb_kernel r). Qed.
(** With exact Boys functions, the nuclear attraction integral is minus the sum
    over the nuclei of charge times the integral of the product of the two
    amplitudes with that form of [1 / |r - C|]. *)
Theorem C72_nuclear_attraction mem atoms s1 s2 a b : positive s1 -> positive s2 -> (a < nbf s1)%nat -> (b < nbf s2)%nat ->
  exists one : v3 -> R,
    nuclear_attraction_integral boysF mem atoms s1 s2 a b = fold_left (fun acc c => acc + - (snd c) * one (fst c)) atoms 0
    /\ forall C, exists J : R -> R,
       (forall w, 0 < w -> int3 (fun x y z => amplitude s1 a x y z * exp (- w ^ 2 * ((x - vx C) ^ 2 + (y - vy C) ^ 2 + (z - vz C) ^ 2)) * amplitude s2 b x y z) (J w))
       /\ is_RInt_gen (fun w => 2 / sqrt PI * J w) (at_point 0) (Rbar_locally p_infty) (one C).
Proof.
  intros P1 P2 A B. exists (nuc_one s1 s2 a b). split; [apply nuclear_sum; assumption|]. intros C. exact (nuc_one_int s1 s2 a b C P1 P2).
Qed.
Theorem C72_nuclear_matrix boys mem atoms basis i j a b :
  let shells := make_shells basis 0 in let s := sh shells in
  let N := driver2 (nuclear_attraction_integral boys mem atoms) shells in
  (i < length shells)%nat -> (j < length shells)%nat -> (a < nbf (s i))%nat -> (b < nbf (s j))%nat ->
  N (s_bf (s i) + a)%nat (s_bf (s j) + b)%nat = nuclear_attraction_integral boys mem atoms (s i) (s j) a b
  /\ N (s_bf (s i) + a)%nat (s_bf (s j) + b)%nat = N (s_bf (s j) + b)%nat (s_bf (s i) + a)%nat.
Proof.
  intros shells s N Hi Hj Ha Hb. unfold N, s in *. clear N s.
  rewrite (driver2_ok shells (make_shells_laid basis 0) _ i j a b Hi Hj Ha Hb (nuclear_sym boys mem atoms (sh shells i) (sh shells j) a b Ha Hb)).
  rewrite (driver2_ok shells (make_shells_laid basis 0) _ j i b a Hj Hi Hb Ha (nuclear_sym boys mem atoms (sh shells j) (sh shells i) b a Hb Ha)).
  split; [reflexivity|]. apply nuclear_sym; assumption.
Qed.
(** ** C73: electron repulsion integrals *)
Theorem C73_electron_repulsion mem s1 s2 s3 s4 a b c d : positive s1 -> positive s2 -> positive s3 -> positive s4 ->
  (a < nbf s1)%nat -> (b < nbf s2)%nat -> (c < nbf s3)%nat -> (d < nbf s4)%nat ->
  exists J : R -> R,
    (forall w, 0 < w ->
       exists g, (forall x y z, int3 (fun x' y' z' => amplitude s1 a x y z * amplitude s2 b x y z * exp (- w ^ 2 * ((x - x') ^ 2 + (y - y') ^ 2 + (z - z') ^ 2))
                                     * (amplitude s3 c x' y' z' * amplitude s4 d x' y' z')) (g x y z)) /\ int3 g (J w))
    /\ is_RInt_gen (fun w => 2 / sqrt PI * J w) (at_point 0) (Rbar_locally p_infty) (electron_repulsion_integral boysF mem s1 s2 s3 s4 a b c d).
Proof. exact (eri_int mem s1 s2 s3 s4 a b c d). Qed.
(** ** C74: normalisation *)
Theorem C74_primitive cx cy cz a m : 0 < a ->
  int3 (fun x y z => (primitive_normalization a m * primitive_gauss x y z cx cy cz a m) ^ 2) 1.
Proof. exact (primitive_unit cx cy cz a m). Qed.
(** A basis function of a constructed shell has unit norm, provided that the
    contraction of the normalised primitives is not the zero function. *)
Theorem C74_contracted center exps contr ams n b v :
  let s := make_shell center exps contr ams n in
  positive s ->
  int3 (fun x y z => (sm (length contr) (fun i => nth i contr 0 * (primitive_normalization (nth i exps 0) (nth b ams (0, 0, 0)%nat)
      * primitive_gauss x y z (vx center) (vy center) (vz center) (nth i exps 0) (nth b ams (0, 0, 0)%nat)))) ^ 2) v -> v <> 0 ->
  int3 (fun x y z => amplitude s b x y z ^ 2) 1.
Proof. intros s Hp. exact (basis_function_unit center exps contr ams n b Hp v). Qed.
(** The diagonal of the overlap matrix. *)
Theorem C74_overlap_diagonal mem origin center exps contr ams n b v :
  let s := make_shell center exps contr ams n in
  positive s -> (b < length ams)%nat ->
  int3 (fun x y z => (sm (length contr) (fun i => nth i contr 0 * (primitive_normalization (nth i exps 0) (nth b ams (0, 0, 0)%nat)
      * primitive_gauss x y z (vx center) (vy center) (vz center) (nth i exps 0) (nth b ams (0, 0, 0)%nat)))) ^ 2) v -> v <> 0 ->
  multipole_integral mem origin (0, 0, 0)%nat s s b b = 1.
Proof.
  intros s Hp Hb Hv NZ. pose proof (C74_contracted center exps contr ams n b v Hp Hv NZ) as U. fold s in U.
  apply (int3_unique (fun x y z => amplitude s b x y z ^ 2)); [|exact U].
  eapply int3_ext; [|apply (multipole_int mem s s origin 0 0 0 b b Hp Hp Hb Hb)]. intros x y z. cbn [pow]. ring.
Qed.
Example C74_example center a n : 0 < a -> let s := make_shell center [a] [1] [(2, 0, 0)%nat; (1, 1, 0)%nat] n in
  positive s /\ int3 (fun x y z => amplitude s 1 x y z ^ 2) 1.
Proof.
  intros Ha s. assert (Hp : positive s) by (split; [apply List.Forall_cons; [exact Ha|apply List.Forall_nil]|reflexivity]).
  split; [exact Hp|]. apply (C74_contracted center [a] [1] [(2, 0, 0)%nat; (1, 1, 0)%nat] n 1 1 Hp); [|lra].
  eapply int3_ext; [|apply (primitive_unit (vx center) (vy center) (vz center) a (1, 1, 0)%nat Ha)]. intros x y z. cbn [length sm nth]. ring.
Qed.

Print Assumptions C48_expansion.
Print Assumptions C48_zero.
Print Assumptions C48_exchange.
Print Assumptions C49_hermite_coulomb.
Print Assumptions C49_boys_derivative.
Print Assumptions C49_independent.
Print Assumptions C50_every_index.
Print Assumptions C50_driver_fills.
Print Assumptions C50_eightfold.
Print Assumptions C50_screening.
Print Assumptions C50_cauchy_schwarz.
Print Assumptions C50_compound_not_injective.
Print Assumptions C70_multipole.
Print Assumptions C70_multipole_matrix.
Print Assumptions C71_kinetic.
Print Assumptions C71_kinetic_matrix.
Print Assumptions C72_coulomb_kernel.
Print Assumptions C72_nuclear_attraction.
Print Assumptions C72_nuclear_matrix.
Print Assumptions C73_electron_repulsion.
Print Assumptions C74_primitive.
Print Assumptions C74_contracted.
Print Assumptions C74_overlap_diagonal.
