(** Proofs about the symmetries of the shell integrals and about the drivers
    that assemble the matrices and the tensor. *)
From Coq Require Import List Bool Arith Lia Reals Lra Psatz.
From Coquelicot Require Import Coquelicot.
Require Import Verif.IntegralModel Verif.IntegralProofs Verif.GaussProofs Verif.OneElectron.
Import ListNotations.
Local Open Scope R_scope.

(** ** Symmetry of the one-electron integrals *)
Lemma multipole_sym mem o m s1 s2 bi bj : positive s1 -> positive s2 -> (bi < nbf s1)%nat -> (bj < nbf s2)%nat ->
  multipole_integral mem o m s1 s2 bi bj = multipole_integral mem o m s2 s1 bj bi.
Proof.
  intros P1 P2 B1 B2. destruct m as [[mx my] mz].
  apply (int3_unique (fun x y z => amplitude s1 bi x y z * ((x - vx o) ^ mx * (y - vy o) ^ my * (z - vz o) ^ mz) * amplitude s2 bj x y z)).
  - apply multipole_int; assumption.
  - eapply int3_ext; [|apply (multipole_int mem s2 s1 o mx my mz bj bi); assumption]. intros; cbn beta. ring.
Qed.
Lemma contract2_sym s1 s2 F G : (forall i j, (i < length (s_exps s1))%nat -> (j < length (s_exps s2))%nat -> F i j = G j i) -> contract2 s1 s2 F = contract2 s2 s1 G.
Proof.
  intros H. unfold contract2. rewrite sm_swap. apply sm_ext. intros j Lj. apply sm_ext. intros i Li. rewrite (H i j Li Lj). ring.
Qed.
Lemma kinetic_sym mem s1 s2 bi bj : positive s1 -> positive s2 -> (bi < nbf s1)%nat -> (bj < nbf s2)%nat ->
  kinetic_energy_integral mem s1 s2 bi bj = kinetic_energy_integral mem s2 s1 bj bi.
Proof.
  intros P1 P2 B1 B2. destruct (angm s1 bi) as [[x1 y1] z1] eqn:E1, (angm s2 bj) as [[x2 y2] z2] eqn:E2.
  apply contract2_sym. intros i j Li Lj. pose proof (ex_pos _ _ P1 Li) as A1. pose proof (ex_pos _ _ P2 Lj) as A2.
  rewrite (kinetic_terms mem s1 s2 bi bj i j _ _ _ _ _ _ B1 B2 E1 E2), (kinetic_terms mem s2 s1 bj bi j i _ _ _ _ _ _ B2 B1 E2 E1).
  rewrite !(kd_sym _ _ (ex s2 j)) by assumption. rewrite !(Esp_sym _ _ (ex s2 j)), (Rplus_comm (ex s2 j)). ring.
Qed.
Section Nuc.
Variables (boys : nat -> R -> R) (mem : tbl).
Definition nuc_term (s1 s2 : shell) (i j : nat) (m1 m2 : ang) (C : v3) : R :=
  let p := ex s1 i + ex s2 j in
  let P := fun (pr : v3 -> R) => (ex s1 i * pr (s_center s1) + ex s2 j * pr (s_center s2)) / p in
  let E := fun (pr : v3 -> R) => Esp (pr (s_center s1)) (pr (s_center s2)) (ex s1 i) (ex s2 j) in
  let '(x1, y1, z1) := m1 in let '(x2, y2, z2) := m2 in
  sm (x1 + x2 + 1) (fun t => sm (y1 + y2 + 1) (fun u => sm (z1 + z2 + 1) (fun v =>
    E vx x1 x2 t * E vy y1 y2 u * E vz z1 z2 v * Rsp boys p (P vx - vx C) (P vy - vy C) (P vz - vz C) t u v 0))).
Lemma nuclear_terms atoms s1 s2 bi bj i j : (bi < nbf s1)%nat -> (bj < nbf s2)%nat ->
  nuclear_primitive boys mem atoms s1 s2 bi bj i j
  = fold_left (fun acc '(C, charge) => acc + s_norm s1 bi i * charge * s_norm s2 bj j * nuc_term s1 s2 i j (angm s1 bi) (angm s2 bj) C) atoms 0
    * (- 2 * PI / (ex s1 i + ex s2 j)).
Proof.
  intros B1 B2. unfold nuclear_primitive, nuc_term. destruct (angm s1 bi) as [[x1 y1] z1] eqn:E1, (angm s2 bj) as [[x2 y2] z2] eqn:E2.
  destruct (max_ang_ok _ _ _ _ _ B1 E1) as (X1 & Y1 & Z1), (max_ang_ok _ _ _ _ _ B2 E2) as (X2 & Y2 & Z2).
  f_equal. generalize 0 as acc. induction atoms as [|[C q] atoms IH]; intros acc; cbn [fold_left]; [reflexivity|].
  rewrite IH. do 3 f_equal. apply sm_ext. intros t Ht. apply sm_ext. intros u Hu. apply sm_ext. intros v Hv.
  rewrite !Esp_tbl by lia. rewrite hermite_ok by lia. reflexivity.
Qed.
Lemma nuc_term_sym s1 s2 i j m1 m2 C : nuc_term s1 s2 i j m1 m2 C = nuc_term s2 s1 j i m2 m1 C.
Proof.
  unfold nuc_term. destruct m1 as [[x1 y1] z1], m2 as [[x2 y2] z2]. rewrite (Nat.add_comm x2), (Nat.add_comm y2), (Nat.add_comm z2).
  apply sm_ext. intros t _. apply sm_ext. intros u _. apply sm_ext. intros v _.
  rewrite !(Esp_sym _ _ (ex s2 j)). rewrite (Rplus_comm (ex s2 j)), !(Rplus_comm (ex s2 j * _)). reflexivity.
Qed.
Lemma nuclear_sym atoms s1 s2 bi bj : (bi < nbf s1)%nat -> (bj < nbf s2)%nat ->
  nuclear_attraction_integral boys mem atoms s1 s2 bi bj = nuclear_attraction_integral boys mem atoms s2 s1 bj bi.
Proof.
  intros B1 B2. apply contract2_sym. intros i j _ _. rewrite !nuclear_terms by assumption. rewrite (Rplus_comm (ex s2 j)). f_equal.
  generalize 0 as acc. induction atoms as [|[C q] atoms IH]; intros acc; cbn [fold_left]; [reflexivity|].
  rewrite IH, (nuc_term_sym s1). f_equal. ring.
Qed.
(** ** Symmetry of the two-electron integrals *)
Definition eri_term (s1 s2 s3 s4 : shell) (i j k l : nat) (m1 m2 m3 m4 : ang) : R :=
  let p := ex s1 i + ex s2 j in
  let P := fun (pr : v3 -> R) => (ex s1 i * pr (s_center s1) + ex s2 j * pr (s_center s2)) / p in
  let q := ex s3 k + ex s4 l in
  let Q := fun (pr : v3 -> R) => (ex s3 k * pr (s_center s3) + ex s4 l * pr (s_center s4)) / q in
  let E := fun (pr : v3 -> R) => Esp (pr (s_center s1)) (pr (s_center s2)) (ex s1 i) (ex s2 j) in
  let F := fun (pr : v3 -> R) => Esp (pr (s_center s3)) (pr (s_center s4)) (ex s3 k) (ex s4 l) in
  let '(x1, y1, z1) := m1 in let '(x2, y2, z2) := m2 in let '(x3, y3, z3) := m3 in let '(x4, y4, z4) := m4 in
  sm (x3 + x4 + 1) (fun tau => sm (y3 + y4 + 1) (fun nu => sm (z3 + z4 + 1) (fun phi =>
    sm (x1 + x2 + 1) (fun t => sm (y1 + y2 + 1) (fun u => sm (z1 + z2 + 1) (fun v =>
      (-1) ^ (tau + nu + phi) * (F vx x3 x4 tau * F vy y3 y4 nu * F vz z3 z4 phi) * (E vx x1 x2 t * E vy y1 y2 u * E vz z1 z2 v)
      * Rsp boys (p * q / (p + q)) (P vx - Q vx) (P vy - Q vy) (P vz - Q vz) (t + tau) (u + nu) (v + phi) 0)))))).
Definition eri_norm (s1 s2 s3 s4 : shell) (bi bj bk bl i j k l : nat) : R :=
  (s_norm s1 bi i * s_norm s2 bj j * s_norm s3 bk k * s_norm s4 bl l)
  * (2 * Rpower PI (5 / 2) / ((ex s1 i + ex s2 j) * (ex s3 k + ex s4 l) * sqrt (ex s1 i + ex s2 j + (ex s3 k + ex s4 l)))).
Lemma eri_terms s1 s2 s3 s4 bi bj bk bl i j k l : (bi < nbf s1)%nat -> (bj < nbf s2)%nat -> (bk < nbf s3)%nat -> (bl < nbf s4)%nat ->
  eri_primitive boys mem s1 s2 s3 s4 bi bj bk bl i j k l
  = eri_term s1 s2 s3 s4 i j k l (angm s1 bi) (angm s2 bj) (angm s3 bk) (angm s4 bl) * eri_norm s1 s2 s3 s4 bi bj bk bl i j k l.
Proof.
  intros B1 B2 B3 B4. unfold eri_primitive, eri_term, eri_norm.
  destruct (angm s1 bi) as [[x1 y1] z1] eqn:E1, (angm s2 bj) as [[x2 y2] z2] eqn:E2, (angm s3 bk) as [[x3 y3] z3] eqn:E3, (angm s4 bl) as [[x4 y4] z4] eqn:E4.
  destruct (max_ang_ok _ _ _ _ _ B1 E1) as (X1 & Y1 & Z1), (max_ang_ok _ _ _ _ _ B2 E2) as (X2 & Y2 & Z2),
    (max_ang_ok _ _ _ _ _ B3 E3) as (X3 & Y3 & Z3), (max_ang_ok _ _ _ _ _ B4 E4) as (X4 & Y4 & Z4).
  rewrite Rmult_assoc. f_equal. apply sm_ext. intros tau H1. apply sm_ext. intros nu H2. apply sm_ext. intros phi H3.
  apply sm_ext. intros t H4. apply sm_ext. intros u H5. apply sm_ext. intros v H6.
  rewrite !Esp_tbl by lia. rewrite hermite_ok by lia. ring.
Qed.
Lemma eri_term_swap12 s1 s2 s3 s4 i j k l m1 m2 m3 m4 : eri_term s1 s2 s3 s4 i j k l m1 m2 m3 m4 = eri_term s2 s1 s3 s4 j i k l m2 m1 m3 m4.
Proof.
  unfold eri_term. destruct m1 as [[x1 y1] z1], m2 as [[x2 y2] z2], m3 as [[x3 y3] z3], m4 as [[x4 y4] z4].
  rewrite (Nat.add_comm x2), (Nat.add_comm y2), (Nat.add_comm z2).
  apply sm_ext. intros tau H1. apply sm_ext. intros nu H2. apply sm_ext. intros phi H3.
  apply sm_ext. intros t H4. apply sm_ext. intros u H5. apply sm_ext. intros v H6.
  rewrite !(Esp_sym _ _ (ex s2 j)). rewrite (Rplus_comm (ex s2 j)), !(Rplus_comm (ex s2 j * _)). reflexivity.
Qed.
Lemma eri_term_swap34 s1 s2 s3 s4 i j k l m1 m2 m3 m4 : eri_term s1 s2 s3 s4 i j k l m1 m2 m3 m4 = eri_term s1 s2 s4 s3 i j l k m1 m2 m4 m3.
Proof.
  unfold eri_term. destruct m1 as [[x1 y1] z1], m2 as [[x2 y2] z2], m3 as [[x3 y3] z3], m4 as [[x4 y4] z4].
  rewrite (Nat.add_comm x4), (Nat.add_comm y4), (Nat.add_comm z4).
  apply sm_ext. intros tau H1. apply sm_ext. intros nu H2. apply sm_ext. intros phi H3.
  apply sm_ext. intros t H4. apply sm_ext. intros u H5. apply sm_ext. intros v H6.
  rewrite !(Esp_sym _ _ (ex s4 l)). rewrite (Rplus_comm (ex s4 l)), !(Rplus_comm (ex s4 l * _)). reflexivity.
Qed.
Lemma sm6_swap a b c d e f (F : nat -> nat -> nat -> nat -> nat -> nat -> R) :
  sm a (fun i => sm b (fun j => sm c (fun k => sm d (fun l => sm e (fun m => sm f (fun n => F i j k l m n))))))
  = sm d (fun l => sm e (fun m => sm f (fun n => sm a (fun i => sm b (fun j => sm c (fun k => F i j k l m n)))))).
Proof.
  assert (S1 : forall G : nat -> nat -> nat -> nat -> R, sm a (fun i => sm b (fun j => sm c (fun k => sm d (fun l => G i j k l))))
     = sm d (fun l => sm a (fun i => sm b (fun j => sm c (fun k => G i j k l))))).
  { clear. intros G. rewrite (sm_ext a _ (fun i => sm d (fun l => sm b (fun j => sm c (fun k => G i j k l))))); [apply sm_swap|].
    intros i _. rewrite (sm_ext b _ (fun j => sm d (fun l => sm c (fun k => G i j k l)))); [apply sm_swap|]. intros j _. apply sm_swap. }
  assert (S2 : forall G : nat -> nat -> nat -> nat -> R, sm a (fun i => sm b (fun j => sm c (fun k => sm e (fun l => G i j k l))))
     = sm e (fun l => sm a (fun i => sm b (fun j => sm c (fun k => G i j k l))))).
  { clear. intros G. rewrite (sm_ext a _ (fun i => sm e (fun l => sm b (fun j => sm c (fun k => G i j k l))))); [apply sm_swap|].
    intros i _. rewrite (sm_ext b _ (fun j => sm e (fun l => sm c (fun k => G i j k l)))); [apply sm_swap|]. intros j _. apply sm_swap. }
  assert (S3 : forall G : nat -> nat -> nat -> nat -> R, sm a (fun i => sm b (fun j => sm c (fun k => sm f (fun l => G i j k l))))
     = sm f (fun l => sm a (fun i => sm b (fun j => sm c (fun k => G i j k l))))).
  { clear. intros G. rewrite (sm_ext a _ (fun i => sm f (fun l => sm b (fun j => sm c (fun k => G i j k l))))); [apply sm_swap|].
    intros i _. rewrite (sm_ext b _ (fun j => sm f (fun l => sm c (fun k => G i j k l)))); [apply sm_swap|]. intros j _. apply sm_swap. }
  rewrite S1. apply sm_ext. intros l _. rewrite S2. apply sm_ext. intros m _. rewrite S3. reflexivity.
Qed.
Lemma eri_term_swap s1 s2 s3 s4 i j k l m1 m2 m3 m4 : eri_term s1 s2 s3 s4 i j k l m1 m2 m3 m4 = eri_term s3 s4 s1 s2 k l i j m3 m4 m1 m2.
Proof.
  unfold eri_term. destruct m1 as [[x1 y1] z1], m2 as [[x2 y2] z2], m3 as [[x3 y3] z3], m4 as [[x4 y4] z4].
  rewrite sm6_swap.
  apply sm_ext. intros tau H1. apply sm_ext. intros nu H2. apply sm_ext. intros phi H3.
  apply sm_ext. intros t H4. apply sm_ext. intros u H5. apply sm_ext. intros v H6.
  set (p := ex s1 i + ex s2 j). set (q := ex s3 k + ex s4 l).
  rewrite (Rmult_comm q p), (Rplus_comm q p), (Nat.add_comm t tau), (Nat.add_comm u nu), (Nat.add_comm v phi).
  set (Xc := (ex s1 i * vx (s_center s1) + ex s2 j * vx (s_center s2)) / p - (ex s3 k * vx (s_center s3) + ex s4 l * vx (s_center s4)) / q).
  set (Yc := (ex s1 i * vy (s_center s1) + ex s2 j * vy (s_center s2)) / p - (ex s3 k * vy (s_center s3) + ex s4 l * vy (s_center s4)) / q).
  set (Zc := (ex s1 i * vz (s_center s1) + ex s2 j * vz (s_center s2)) / p - (ex s3 k * vz (s_center s3) + ex s4 l * vz (s_center s4)) / q).
  replace ((ex s3 k * vx (s_center s3) + ex s4 l * vx (s_center s4)) / q - (ex s1 i * vx (s_center s1) + ex s2 j * vx (s_center s2)) / p) with (- Xc) by (unfold Xc; ring).
  replace ((ex s3 k * vy (s_center s3) + ex s4 l * vy (s_center s4)) / q - (ex s1 i * vy (s_center s1) + ex s2 j * vy (s_center s2)) / p) with (- Yc) by (unfold Yc; ring).
  replace ((ex s3 k * vz (s_center s3) + ex s4 l * vz (s_center s4)) / q - (ex s1 i * vz (s_center s1) + ex s2 j * vz (s_center s2)) / p) with (- Zc) by (unfold Zc; ring).
  rewrite Rsp_parity. replace (tau + t + (nu + u) + (phi + v))%nat with ((tau + nu + phi) + (t + u + v))%nat by lia.
  rewrite (pow_add (-1) (tau + nu + phi) (t + u + v)). assert (S1 : (-1) ^ (tau + nu + phi) * (-1) ^ (tau + nu + phi) = 1).
  { rewrite <- pow_add. replace (tau + nu + phi + (tau + nu + phi))%nat with (2 * (tau + nu + phi))%nat by lia. apply pow_1_even. }
  set (s := (-1) ^ (tau + nu + phi)) in *. set (rr := Rsp _ _ _ _ _ _ _ _ _).
  match goal with |- _ = s * ?a * ?b * (s * ?c * rr) => transitivity ((s * s) * (a * b * c * rr)); [rewrite S1|]; ring end.
Qed.
End Nuc.
Section Eri.
Variables (boys : nat -> R -> R) (mem : tbl).
Notation eri := (electron_repulsion_integral boys mem).
Lemma eri_swap12 s1 s2 s3 s4 a b c d : (a < nbf s1)%nat -> (b < nbf s2)%nat -> (c < nbf s3)%nat -> (d < nbf s4)%nat -> eri s1 s2 s3 s4 a b c d = eri s2 s1 s3 s4 b a c d.
Proof.
  intros A B C D. unfold electron_repulsion_integral. rewrite sm_swap. apply sm_ext. intros j _. apply sm_ext. intros i _.
  apply sm_ext. intros k _. apply sm_ext. intros l _. rewrite !eri_terms by assumption. rewrite eri_term_swap12. unfold eri_norm. rewrite (Rplus_comm (ex s2 j)). ring.
Qed.
Lemma eri_swap34 s1 s2 s3 s4 a b c d : (a < nbf s1)%nat -> (b < nbf s2)%nat -> (c < nbf s3)%nat -> (d < nbf s4)%nat -> eri s1 s2 s3 s4 a b c d = eri s1 s2 s4 s3 a b d c.
Proof.
  intros A B C D. unfold electron_repulsion_integral. apply sm_ext. intros i _. apply sm_ext. intros j _.
  rewrite sm_swap. apply sm_ext. intros l _. apply sm_ext. intros k _. rewrite !eri_terms by assumption. rewrite eri_term_swap34. unfold eri_norm. rewrite (Rplus_comm (ex s4 l)). ring.
Qed.
Lemma eri_swap s1 s2 s3 s4 a b c d : (a < nbf s1)%nat -> (b < nbf s2)%nat -> (c < nbf s3)%nat -> (d < nbf s4)%nat -> eri s1 s2 s3 s4 a b c d = eri s3 s4 s1 s2 c d a b.
Proof.
  intros A B C D. unfold electron_repulsion_integral.
  transitivity (sm (length (s_exps s3)) (fun k => sm (length (s_exps s1)) (fun i => sm (length (s_exps s2)) (fun j => sm (length (s_exps s4)) (fun l =>
    cc s1 i * cc s2 j * cc s3 k * cc s4 l * eri_primitive boys mem s1 s2 s3 s4 a b c d i j k l))))).
  { rewrite (sm_ext _ _ (fun i => sm (length (s_exps s3)) (fun k => sm (length (s_exps s2)) (fun j => sm (length (s_exps s4)) (fun l =>
      cc s1 i * cc s2 j * cc s3 k * cc s4 l * eri_primitive boys mem s1 s2 s3 s4 a b c d i j k l))))); [apply sm_swap|]. intros i _. apply sm_swap. }
  apply sm_ext. intros k _.
  transitivity (sm (length (s_exps s4)) (fun l => sm (length (s_exps s1)) (fun i => sm (length (s_exps s2)) (fun j =>
    cc s1 i * cc s2 j * cc s3 k * cc s4 l * eri_primitive boys mem s1 s2 s3 s4 a b c d i j k l)))).
  { rewrite (sm_ext _ _ (fun i => sm (length (s_exps s4)) (fun l => sm (length (s_exps s2)) (fun j =>
      cc s1 i * cc s2 j * cc s3 k * cc s4 l * eri_primitive boys mem s1 s2 s3 s4 a b c d i j k l)))); [apply sm_swap|]. intros i _. apply sm_swap. }
  apply sm_ext. intros l _. apply sm_ext. intros i _. apply sm_ext. intros j _.
  rewrite !eri_terms by assumption. rewrite eri_term_swap. unfold eri_norm.
  rewrite (Rplus_comm (ex s3 k + ex s4 l) (ex s1 i + ex s2 j)), (Rmult_comm (ex s3 k + ex s4 l) (ex s1 i + ex s2 j)). ring.
Qed.
End Eri.

(** ** Drivers *)
Lemma fold_reach (X Y : Type) (step : Y -> X -> Y) (good : Y -> Prop) l k0 :
  In k0 l -> (forall V, good (step V k0)) -> (forall V k, In k l -> good V -> good (step V k)) -> forall V, good (fold_left step l V).
Proof.
  intros I H0 HS V. assert (K : forall l', incl l' l -> forall V, good V -> good (fold_left step l' V)).
  { induction l' as [|k l' IH]; intros J W G; cbn; [exact G|]. apply IH; [intros z Z; apply J; right; exact Z|]. apply HS; [apply J; left; reflexivity|exact G]. }
  apply in_split in I. destruct I as (l1 & l2 & E). rewrite E, fold_left_app. cbn [fold_left]. apply K; [|apply H0].
  rewrite E. intros z Z. apply in_or_app. right. right. exact Z.
Qed.
Lemma fold_keep (X Y : Type) (step : Y -> X -> Y) (good : Y -> Prop) l : (forall V k, In k l -> good V -> good (step V k)) -> forall V, good V -> good (fold_left step l V).
Proof.
  induction l as [|k l IH]; intros H V G; cbn; [exact G|]. apply IH; [intros; apply H; [right|]; assumption|]. apply H; [left; reflexivity|exact G].
Qed.
(** Shells that occupy disjoint ranges of basis functions. *)
Definition laid (shells : list shell) : Prop :=
  forall i j x, (i < length shells)%nat -> (j < length shells)%nat -> within (sh shells i) x = true -> within (sh shells j) x = true -> i = j.
Lemma within_ok s x : within s x = true <-> (s_bf s <= x < s_bf s + nbf s)%nat.
Proof. unfold within. rewrite andb_true_iff, Nat.leb_le, Nat.ltb_lt. reflexivity. Qed.
Lemma make_shells_length basis n : length (make_shells basis n) = length basis.
Proof. revert n. induction basis as [|[[[c e] k] m] r IH]; intros n; cbn; [reflexivity|]. rewrite IH. reflexivity. Qed.
Lemma make_shells_low basis : forall n j, (j < length basis)%nat -> (n <= s_bf (sh (make_shells basis n) j))%nat.
Proof.
  induction basis as [|[[[c e] k] m] r IH]; intros n j H; [cbn in H; lia|]. destruct j as [|j]; cbn [make_shells sh nth]; [cbn; lia|].
  specialize (IH (n + length m)%nat j ltac:(cbn in H; lia)). unfold sh in IH. lia.
Qed.
Lemma make_shells_order basis : forall n i j, (i < j)%nat -> (j < length basis)%nat ->
  (s_bf (sh (make_shells basis n) i) + nbf (sh (make_shells basis n) i) <= s_bf (sh (make_shells basis n) j))%nat.
Proof.
  induction basis as [|[[[c e] k] m] r IH]; intros n i j H L; [cbn in L; lia|]. destruct j as [|j]; [lia|]. destruct i as [|i].
  - change (sh (make_shells ((c, e, k, m) :: r) n) (S j)) with (sh (make_shells r (n + length m)) j).
    cbn [make_shells sh nth]. unfold nbf; cbn [make_shell s_bf s_ang]. apply make_shells_low. cbn in L; lia.
  - apply (IH (n + length m)%nat i j); [lia|cbn in L; lia].
Qed.
Lemma make_shells_laid basis n : laid (make_shells basis n).
Proof.
  intros i j x Hi Hj Wi Wj. rewrite make_shells_length in *. apply within_ok in Wi, Wj.
  destruct (Nat.lt_trichotomy i j) as [L|[E|L]]; [|exact E|].
  - pose proof (make_shells_order basis n i j L Hj). lia.
  - pose proof (make_shells_order basis n j i L Hi). lia.
Qed.

Section Drivers.
Variable shells : list shell.
Hypothesis Hl : laid shells.
Notation s := (sh shells).
Lemma within_idx i j a : (i < length shells)%nat -> (j < length shells)%nat -> (a < nbf (s i))%nat -> within (s j) (s_bf (s i) + a) = true -> j = i.
Proof. intros Hi Hj Ha W. apply (Hl j i (s_bf (s i) + a)%nat Hj Hi W). apply within_ok. lia. Qed.
Lemma driver2_ok (integral : shell -> shell -> nat -> nat -> R) i j a b :
  (i < length shells)%nat -> (j < length shells)%nat -> (a < nbf (s i))%nat -> (b < nbf (s j))%nat ->
  integral (s i) (s j) a b = integral (s j) (s i) b a ->
  driver2 integral shells (s_bf (s i) + a)%nat (s_bf (s j) + b)%nat = integral (s i) (s j) a b.
Proof.
  intros Hi Hj Ha Hb Sym. set (x := (s_bf (s i) + a)%nat). set (y := (s_bf (s j) + b)%nat).
  set (good := fun V : nat -> nat -> R => V x y = integral (s i) (s j) a b).
  assert (Wx : within (s i) x = true) by (apply within_ok; unfold x; lia).
  assert (Wy : within (s j) y = true) by (apply within_ok; unfold y; lia).
  assert (Ex : (x - s_bf (s i))%nat = a) by (unfold x; lia). assert (Ey : (y - s_bf (s j))%nat = b) by (unfold y; lia).
  set (step := fun i' (V : nat -> nat -> R) j' => put2 (s j') (s i') (fun x y => integral (s i') (s j') y x) (put2 (s i') (s j') (integral (s i') (s j')) V)).
  assert (Keep : forall i' j' V, (i' < length shells)%nat -> (j' < length shells)%nat -> good V -> good (step i' V j')).
  { intros i' j' V Hi' Hj' G. unfold good, step, put2.
    destruct (within (s j') x) eqn:W1, (within (s i') y) eqn:W2; cbn [andb].
    - assert (j' = i) by (apply (within_idx i j' a); assumption). assert (i' = j) by (apply (within_idx j i' b); assumption). subst i' j'. rewrite Ex, Ey. symmetry. exact Sym.
    - destruct (within (s i') x) eqn:W3, (within (s j') y) eqn:W4; cbn [andb]; try exact G.
      assert (i' = i) by (apply (within_idx i i' a); assumption). assert (j' = j) by (apply (within_idx j j' b); assumption). subst i' j'. rewrite Ex, Ey. reflexivity.
    - destruct (within (s i') x) eqn:W3, (within (s j') y) eqn:W4; cbn [andb]; try exact G.
      assert (i' = i) by (apply (within_idx i i' a); assumption). assert (j' = j) by (apply (within_idx j j' b); assumption). subst i' j'. rewrite Ex, Ey. reflexivity.
    - destruct (within (s i') x) eqn:W3, (within (s j') y) eqn:W4; cbn [andb]; try exact G.
      assert (i' = i) by (apply (within_idx i i' a); assumption). assert (j' = j) by (apply (within_idx j j' b); assumption). subst i' j'. rewrite Ex, Ey. reflexivity. }
  assert (Hit : forall V, good (step i V j)).
  { intros V. unfold good, step, put2. destruct (within (s j) x && within (s i) y) eqn:W.
    - apply andb_true_iff in W. destruct W as [W1 W2]. assert (j = i) by (apply (within_idx i j a); assumption). subst j. rewrite Ex, Ey. symmetry. exact Sym.
    - rewrite Wx, Wy. cbn [andb]. rewrite Ex, Ey. reflexivity. }
  assert (Hit' : forall V, good (step j V i)).
  { intros V. unfold good, step, put2. rewrite Wx, Wy. cbn [andb]. rewrite Ex, Ey. symmetry. exact Sym. }
  change (good (driver2 integral shells)). unfold driver2.
  assert (In2 : forall i' j', In j' (filter (fun j' => negb (Nat.ltb i' j')) (seq 0 (length shells))) <-> (j' < length shells /\ j' <= i')%nat).
  { intros i' j'. rewrite filter_In, in_seq, negb_true_iff, Nat.ltb_ge. lia. }
  destruct (Nat.le_gt_cases j i) as [L|L].
  - apply (fold_reach _ _ _ good _ i).
    + apply in_seq; lia.
    + intros V. apply (fold_reach _ _ (step i) good _ j); [apply In2; lia|exact Hit|]. intros W k K G. apply In2 in K. apply Keep; [lia|lia|exact G].
    + intros V k K G. apply in_seq in K. apply (fold_keep _ _ (step k) good); [|exact G]. intros W k' K' G'. apply In2 in K'. apply Keep; [lia|lia|exact G'].
  - apply (fold_reach _ _ _ good _ j).
    + apply in_seq; lia.
    + intros V. apply (fold_reach _ _ (step j) good _ i); [apply In2; lia|exact Hit'|]. intros W k K G. apply In2 in K. apply Keep; [lia|lia|exact G].
    + intros V k K G. apply in_seq in K. apply (fold_keep _ _ (step k) good); [|exact G]. intros W k' K' G'. apply In2 in K'. apply Keep; [lia|lia|exact G'].
Qed.

(** The eight-fold symmetry of a shell integral, for given shells. *)
Variable integral : shell -> shell -> shell -> shell -> nat -> nat -> nat -> nat -> R.
Definition sym8 : Prop := forall i j k l a b c d,
  (i < length shells)%nat -> (j < length shells)%nat -> (k < length shells)%nat -> (l < length shells)%nat ->
  (a < nbf (s i))%nat -> (b < nbf (s j))%nat -> (c < nbf (s k))%nat -> (d < nbf (s l))%nat ->
  integral (s i) (s j) (s k) (s l) a b c d = integral (s j) (s i) (s k) (s l) b a c d
  /\ integral (s i) (s j) (s k) (s l) a b c d = integral (s i) (s j) (s l) (s k) a b d c
  /\ integral (s i) (s j) (s k) (s l) a b c d = integral (s k) (s l) (s i) (s j) c d a b.
Hypothesis H8 : sym8.
Lemma put4_keep i j k l a b c d i' j' k' l' sl V v :
  (i < length shells)%nat -> (j < length shells)%nat -> (k < length shells)%nat -> (l < length shells)%nat ->
  (a < nbf (s i))%nat -> (b < nbf (s j))%nat -> (c < nbf (s k))%nat -> (d < nbf (s l))%nat ->
  (i' < length shells)%nat -> (j' < length shells)%nat -> (k' < length shells)%nat -> (l' < length shells)%nat ->
  (i' = i -> j' = j -> k' = k -> l' = l -> sl a b c d = v) ->
  V (s_bf (s i) + a)%nat (s_bf (s j) + b)%nat (s_bf (s k) + c)%nat (s_bf (s l) + d)%nat = v ->
  put4 (s i') (s j') (s k') (s l') sl V (s_bf (s i) + a)%nat (s_bf (s j) + b)%nat (s_bf (s k) + c)%nat (s_bf (s l) + d)%nat = v.
Proof.
  intros Hi Hj Hk Hl' Ha Hb Hc Hd Hi' Hj' Hk' Hl'' E G. unfold put4. destruct (_ && _ && _ && _) eqn:W; [|exact G].
  rewrite !andb_true_iff in W. destruct W as [[[W1 W2] W3] W4].
  assert (i' = i) by (apply (within_idx i i' a); assumption). assert (j' = j) by (apply (within_idx j j' b); assumption).
  assert (k' = k) by (apply (within_idx k k' c); assumption). assert (l' = l) by (apply (within_idx l l' d); assumption). subst.
  rewrite <- (E eq_refl eq_refl eq_refl eq_refl). f_equal; lia.
Qed.
Lemma put4_hit i j k l a b c d sl V v :
  (a < nbf (s i))%nat -> (b < nbf (s j))%nat -> (c < nbf (s k))%nat -> (d < nbf (s l))%nat -> sl a b c d = v ->
  put4 (s i) (s j) (s k) (s l) sl V (s_bf (s i) + a)%nat (s_bf (s j) + b)%nat (s_bf (s k) + c)%nat (s_bf (s l) + d)%nat = v.
Proof.
  intros Ha Hb Hc Hd <-. unfold put4. rewrite !(proj2 (within_ok _ _)) by lia. cbn [andb]. f_equal; lia.
Qed.
Section At.
Variables i j k l a b c d : nat.
Hypotheses (Hi : (i < length shells)%nat) (Hj : (j < length shells)%nat) (Hk : (k < length shells)%nat) (Hl4 : (l < length shells)%nat)
  (Ha : (a < nbf (s i))%nat) (Hb : (b < nbf (s j))%nat) (Hc : (c < nbf (s k))%nat) (Hd : (d < nbf (s l))%nat).
Let v := integral (s i) (s j) (s k) (s l) a b c d.
Let good (V : nat -> nat -> nat -> nat -> R) (w : R) := V (s_bf (s i) + a)%nat (s_bf (s j) + b)%nat (s_bf (s k) + c)%nat (s_bf (s l) + d)%nat = w.
(** The eight orders of the four shells. *)
Definition perm8 (i' j' k' l' : nat) : Prop :=
  In (i', j', k', l') [(i, j, k, l); (j, i, k, l); (i, j, l, k); (j, i, l, k); (k, l, i, j); (l, k, i, j); (k, l, j, i); (l, k, j, i)].
Lemma syms : v = integral (s j) (s i) (s k) (s l) b a c d /\ v = integral (s i) (s j) (s l) (s k) a b d c /\ v = integral (s j) (s i) (s l) (s k) b a d c
  /\ v = integral (s k) (s l) (s i) (s j) c d a b /\ v = integral (s l) (s k) (s i) (s j) d c a b /\ v = integral (s k) (s l) (s j) (s i) c d b a /\ v = integral (s l) (s k) (s j) (s i) d c b a.
Proof.
  unfold v. destruct (H8 i j k l a b c d Hi Hj Hk Hl4 Ha Hb Hc Hd) as (E1 & E2 & E3).
  destruct (H8 j i k l b a c d Hj Hi Hk Hl4 Hb Ha Hc Hd) as (F1 & F2 & F3).
  destruct (H8 k l i j c d a b Hk Hl4 Hi Hj Hc Hd Ha Hb) as (G1 & G2 & G3).
  destruct (H8 l k i j d c a b Hl4 Hk Hi Hj Hd Hc Ha Hb) as (K1 & K2 & K3).
  repeat split; congruence.
Qed.
Lemma put_all_keep i' j' k' l' V w :
  (i' < length shells)%nat -> (j' < length shells)%nat -> (k' < length shells)%nat -> (l' < length shells)%nat ->
  (perm8 i' j' k' l' -> w = v) -> good V w -> good (put_all (s i') (s j') (s k') (s l') (integral (s i') (s j') (s k') (s l')) V) w.
Proof.
  intros Hi' Hj' Hk' Hl' W G. destruct syms as (S1 & S2 & S3 & S4 & S5 & S6 & S7).
  unfold put_all, good. 
  repeat (apply put4_keep; try assumption; [intros; subst; rewrite W by (unfold perm8; cbn; tauto); symmetry; solve [assumption|reflexivity]|]).
  apply put4_keep; try assumption. intros -> -> -> ->. rewrite W by (left; reflexivity). reflexivity.
Qed.
Lemma put_all_hit i' j' k' l' V :
  (i' < length shells)%nat -> (j' < length shells)%nat -> (k' < length shells)%nat -> (l' < length shells)%nat ->
  perm8 i' j' k' l' -> good (put_all (s i') (s j') (s k') (s l') (integral (s i') (s j') (s k') (s l')) V) v.
Proof.
  intros Hi' Hj' Hk' Hl' Pm. destruct syms as (S1 & S2 & S3 & S4 & S5 & S6 & S7).
  assert (K : forall sl V i' j' k' l', (i' < length shells)%nat -> (j' < length shells)%nat -> (k' < length shells)%nat -> (l' < length shells)%nat ->
     (i' = i -> j' = j -> k' = k -> l' = l -> sl a b c d = v) -> good V v -> good (put4 (s i') (s j') (s k') (s l') sl V) v)
    by (intros; apply put4_keep; assumption).
  unfold put_all.
  unfold perm8 in Pm. cbn [In] in Pm.
  repeat match type of Pm with _ \/ _ => destruct Pm as [Pm|Pm] end; [..|destruct Pm]; injection Pm as <- <- <- <-;
  repeat first [ solve [apply put4_hit; try assumption; symmetry; solve [assumption|reflexivity]]
               | apply K; try assumption; [intros; subst; symmetry; solve [assumption|reflexivity]|] ].
Qed.
End At.
End Drivers.
Section EriDriver.
Variable shells : list shell.
Hypothesis Hl : laid shells.
Notation s := (sh shells).
Variable integral : shell -> shell -> shell -> shell -> nat -> nat -> nat -> nat -> R.
Hypothesis H8 : sym8 shells integral.
Variables i j k l a b c d : nat.
Hypotheses (Hi : (i < length shells)%nat) (Hj : (j < length shells)%nat) (Hk : (k < length shells)%nat) (Hl4 : (l < length shells)%nat)
  (Ha : (a < nbf (s i))%nat) (Hb : (b < nbf (s j))%nat) (Hc : (c < nbf (s k))%nat) (Hd : (d < nbf (s l))%nat).
Lemma visited : exists i' j' k' l', perm8 i j k l i' j' k' l' /\ (i' <= j')%nat /\ (k' <= l')%nat /\ (compound k' l' <= compound i' j')%nat.
Proof.
  destruct (Nat.le_ge_cases i j) as [A|A], (Nat.le_ge_cases k l) as [B|B].
  - destruct (Nat.le_ge_cases (compound k l) (compound i j)); [exists i, j, k, l|exists k, l, i, j]; unfold perm8; cbn; tauto.
  - destruct (Nat.le_ge_cases (compound l k) (compound i j)); [exists i, j, l, k|exists l, k, i, j]; unfold perm8; cbn; tauto.
  - destruct (Nat.le_ge_cases (compound k l) (compound j i)); [exists j, i, k, l|exists k, l, j, i]; unfold perm8; cbn; tauto.
  - destruct (Nat.le_ge_cases (compound l k) (compound j i)); [exists j, i, l, k|exists l, k, j, i]; unfold perm8; cbn; tauto.
Qed.
Lemma perm8_range i' j' k' l' : perm8 i j k l i' j' k' l' -> (i' < length shells /\ j' < length shells /\ k' < length shells /\ l' < length shells)%nat.
Proof. unfold perm8. cbn. intros H. repeat destruct H as [H|H]; try (injection H as <- <- <- <-; tauto). destruct H. Qed.
Lemma perm8_screen Q i' j' k' l' : (forall x y : nat, Q x y = Q y x :> R) -> perm8 i j k l i' j' k' l' -> Q i' j' * Q k' l' = Q i j * Q k l.
Proof.
  intros S. unfold perm8. cbn. intros H. repeat destruct H as [H|H]; try (injection H as <- <- <- <-); try contradiction;
    rewrite ?(S j i), ?(S l k); ring.
Qed.
Let at_ (V : nat -> nat -> nat -> nat -> R) := V (s_bf (s i) + a)%nat (s_bf (s j) + b)%nat (s_bf (s k) + c)%nat (s_bf (s l) + d)%nat.
Let v := integral (s i) (s j) (s k) (s l) a b c d.
Lemma box4 x : In x (box [length shells; length shells; length shells; length shells]) ->
  exists i' j' k' l', x = [i'; j'; k'; l'] /\ (i' < length shells)%nat /\ (j' < length shells)%nat /\ (k' < length shells)%nat /\ (l' < length shells)%nat.
Proof.
  intros H. apply in_box in H. inversion H as [|? ? ? ? A1 B1]; subst. inversion B1 as [|? ? ? ? A2 B2]; subst. inversion B2 as [|? ? ? ? A3 B3]; subst.
  inversion B3 as [|? ? ? ? A4 B4]; subst. inversion B4; subst. eauto 10.
Qed.
Lemma eri_driver_kept screen threshold : (forall Q, screen = Some Q -> (forall x y, Q x y = Q y x) /\ threshold <= Q i j * Q k l) ->
  at_ (eri_driver integral screen threshold shells) = v.
Proof.
  intros HQ. destruct visited as (i' & j' & k' & l' & Pm & L1 & L2 & L3). destruct (perm8_range _ _ _ _ Pm) as (R1 & R2 & R3 & R4).
  unfold eri_driver.
  apply (fold_reach _ _ _ (fun V => at_ V = v) _ [i'; j'; k'; l']).
  - apply in_box. f2; assumption.
  - intros V. rewrite (proj2 (Nat.ltb_ge _ _) L1), (proj2 (Nat.ltb_ge _ _) L2), (proj2 (Nat.ltb_ge _ _) L3).
    replace (match screen with Some Q => if Rlt_dec (Q i' j' * Q k' l') threshold then true else false | None => false end) with false.
    + apply (put_all_hit shells Hl integral H8 i j k l a b c d); assumption.
    + destruct screen as [Q|]; [|reflexivity]. destruct (HQ Q eq_refl) as [S T]. rewrite (perm8_screen Q _ _ _ _ S Pm). destruct (Rlt_dec _ _); [lra|reflexivity].
  - intros V x Hx G. destruct (box4 _ Hx) as (i2 & j2 & k2 & l2 & -> & Q1 & Q2 & Q3 & Q4). cbn zeta.
    destruct (Nat.ltb j2 i2); [exact G|]. destruct (Nat.ltb l2 k2); [exact G|]. destruct (Nat.ltb _ _); [exact G|]. match goal with |- context [if match screen with Some _ => _ | None => false end then _ else _] => destruct (match screen with Some Q => if Rlt_dec (Q i2 j2 * Q k2 l2) threshold then true else false | None => false end); [exact G|] end.
    apply (put_all_keep shells Hl integral H8 i j k l a b c d); try assumption. reflexivity.
Qed.
Lemma eri_driver_dropped Q threshold : (forall x y, Q x y = Q y x) -> Q i j * Q k l < threshold -> at_ (eri_driver integral (Some Q) threshold shells) = 0.
Proof.
  intros S T. unfold eri_driver. apply (fold_keep _ _ _ (fun V => at_ V = 0)); [|reflexivity].
  intros V x Hx G. destruct (box4 _ Hx) as (i2 & j2 & k2 & l2 & -> & Q1 & Q2 & Q3 & Q4). cbn zeta.
  destruct (Nat.ltb j2 i2); [exact G|]. destruct (Nat.ltb l2 k2); [exact G|]. destruct (Nat.ltb _ _); [exact G|].
  destruct (Rlt_dec (Q i2 j2 * Q k2 l2) threshold) as [_|N]; [exact G|].
  apply (put_all_keep shells Hl integral H8 i j k l a b c d); try assumption. intros Pm. rewrite (perm8_screen Q _ _ _ _ S Pm) in N. contradiction.
Qed.
End EriDriver.
(** ** The Cauchy-Schwarz matrix *)
Lemma smax_ge n F i : (i < n)%nat -> F i <= smax n F.
Proof.
  intros H. unfold smax. assert (M : forall l m, m <= fold_left (fun m i => Rmax m (F i)) l m).
  { induction l as [|x l IH]; intros m; cbn; [apply Rle_refl|]. eapply Rle_trans; [apply Rmax_l|apply IH]. }
  assert (K : forall l m, In i l -> F i <= fold_left (fun m i => Rmax m (F i)) l m).
  { induction l as [|x l IH]; intros m I; [destruct I|]. cbn. destruct I as [->|I]; [|apply IH; exact I]. eapply Rle_trans; [|apply M]. apply Rmax_r. }
  destruct i as [|i]; [apply M|]. apply K. apply in_seq. lia.
Qed.
Lemma slice_max_ge s1 s2 s3 s4 sl a b c d : (a < nbf s1)%nat -> (b < nbf s2)%nat -> (c < nbf s3)%nat -> (d < nbf s4)%nat -> sl a b c d <= slice_max s1 s2 s3 s4 sl.
Proof.
  intros A B C D. unfold slice_max.
  eapply Rle_trans; [|apply (smax_ge _ _ a A)]. eapply Rle_trans; [|apply (smax_ge _ _ b B)]. eapply Rle_trans; [|apply (smax_ge _ _ c C)]. apply (smax_ge _ (fun d => sl a b c d) d D).
Qed.
Section CSMatrix.
Variable shells : list shell.
Notation s := (sh shells).
Variable integral : shell -> shell -> shell -> shell -> nat -> nat -> nat -> nat -> R.
Let Q := cauchy_schwarz_matrix integral shells.
Let q i j := sqrt (slice_max (s i) (s j) (s i) (s j) (integral (s i) (s j) (s i) (s j))).
Lemma cs_value i j : (i <= j)%nat -> (j < length shells)%nat -> Q i j = q i j /\ Q j i = q i j.
Proof.
  intros L H. unfold Q, cauchy_schwarz_matrix.
  apply (fold_reach _ _ _ (fun V : nat -> nat -> R => V i j = q i j /\ V j i = q i j) _ [i; j]).
  - apply in_box. f2; lia.
  - intros V. rewrite (proj2 (Nat.ltb_ge _ _) L). cbn zeta. rewrite !Nat.eqb_refl, orb_true_r. split; reflexivity.
  - intros V x Hx [G1 G2]. apply in_box in Hx. inversion Hx as [|i2 ? ? ? A1 B1]; subst. inversion B1 as [|j2 ? ? ? A2 B2]; subst. inversion B2; subst.
    destruct (Nat.ltb j2 i2) eqn:E; [split; assumption|]. cbn zeta. apply Nat.ltb_ge in E.
    assert (K : forall x y, (i <= j)%nat -> (x = i /\ y = j) \/ (x = j /\ y = i) -> forall V : nat -> nat -> R, V x y = q i j ->
       (if (Nat.eqb x i2 && Nat.eqb y j2) || (Nat.eqb x j2 && Nat.eqb y i2) then q i2 j2 else V x y) = q i j).
    { intros x y _ D V' G. destruct (_ || _) eqn:B; [|exact G]. apply orb_true_iff in B. rewrite !andb_true_iff, !Nat.eqb_eq in B.
      assert (i2 = i /\ j2 = j)%nat as [-> ->] by lia. reflexivity. }
    split; apply K; auto.
Qed.
Lemma cs_outside_sym i j : (i < length shells)%nat -> (j < length shells)%nat -> Q i j = Q j i.
Proof.
  intros A B. destruct (Nat.le_ge_cases i j) as [L|L]; [destruct (cs_value i j L B)|destruct (cs_value j i L A)]; congruence.
Qed.
Lemma cs_sym i j : Q i j = Q j i.
Proof.
  unfold Q, cauchy_schwarz_matrix. apply (fold_keep _ _ _ (fun V : nat -> nat -> R => V i j = V j i)); [|reflexivity].
  intros V [|i2 [|j2 [|? ?]]] _ G; try exact G. destruct (Nat.ltb j2 i2); [exact G|]. cbn zeta.
  rewrite (orb_comm (Nat.eqb j i2 && _)), (andb_comm (Nat.eqb j j2)), (andb_comm (Nat.eqb j i2)). rewrite G. reflexivity.
Qed.
Hypothesis H8 : sym8 shells integral.
Lemma cs_diag i j a b : (i < length shells)%nat -> (j < length shells)%nat -> (a < nbf (s i))%nat -> (b < nbf (s j))%nat ->
  sqrt (integral (s i) (s j) (s i) (s j) a b a b) <= Q i j.
Proof.
  intros Hi Hj Ha Hb. destruct (Nat.le_ge_cases i j) as [L|L].
  - rewrite (proj1 (cs_value i j L Hj)). apply sqrt_le_1_alt. apply slice_max_ge; assumption.
  - rewrite (proj2 (cs_value j i L Hi)). apply sqrt_le_1_alt.
    destruct (H8 i j i j a b a b Hi Hj Hi Hj Ha Hb Ha Hb) as (E1 & _). destruct (H8 j i i j b a a b Hj Hi Hi Hj Hb Ha Ha Hb) as (_ & E2 & _).
    rewrite E1, E2. apply slice_max_ge; assumption.
Qed.
End CSMatrix.
