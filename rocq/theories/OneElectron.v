(** Proofs about the one-electron integrals: what the code computes is the
    integral of the product of the basis functions. *)
From Coq Require Import List Bool Arith Lia Reals Lra Psatz.
From Coquelicot Require Import Coquelicot.
Require Import Verif.IntegralModel Verif.IntegralProofs Verif.GaussProofs.
Import ListNotations.
Local Open Scope R_scope.

(** Iterated integral over the three coordinates. *)
Definition int3 (f : R -> R -> R -> R) (v : R) : Prop :=
  exists (g : R -> R -> R) (h : R -> R),
    (forall x y, intR (f x y) (g x y)) /\ (forall x, intR (g x) (h x)) /\ intR h v.
Lemma int3_ext f f' v : (forall x y z, f x y z = f' x y z) -> int3 f v -> int3 f' v.
Proof. intros E (g & h & H1 & H2 & H3). exists g, h. split; [|split; assumption]. intros x y. apply (intR_ext (f x y)); [apply E|apply H1]. Qed.
Lemma int3_plus f f' v v' : int3 f v -> int3 f' v' -> int3 (fun x y z => f x y z + f' x y z) (v + v').
Proof.
  intros (g & h & H1 & H2 & H3) (g' & h' & H1' & H2' & H3'). exists (fun x y => g x y + g' x y), (fun x => h x + h' x).
  split; [|split].
  - intros x y. exact (intR_plus _ _ _ _ (H1 x y) (H1' x y)).
  - intros x. exact (intR_plus _ _ _ _ (H2 x) (H2' x)).
  - exact (intR_plus _ _ _ _ H3 H3').
Qed.
Lemma int3_scal c f v : int3 f v -> int3 (fun x y z => c * f x y z) (c * v).
Proof.
  intros (g & h & H1 & H2 & H3). exists (fun x y => c * g x y), (fun x => c * h x). split; [|split].
  - intros x y. exact (intR_scal c _ _ (H1 x y)).
  - intros x. exact (intR_scal c _ _ (H2 x)).
  - exact (intR_scal c _ _ H3).
Qed.
Lemma int3_zero : int3 (fun _ _ _ => 0) 0.
Proof. exists (fun _ _ => 0), (fun _ => 0). split; [|split]; intros; apply intR_zero. Qed.
Lemma int3_sm n F v : (forall i, (i < n)%nat -> int3 (F i) (v i)) -> int3 (fun x y z => sm n (fun i => F i x y z)) (sm n v).
Proof.
  induction n as [|n IH]; intros H; cbn [sm]; [apply int3_zero|].
  apply (int3_plus (fun x y z => sm n (fun i => F i x y z)) (F n)); [apply IH; intros; apply H; lia|apply H; lia].
Qed.
Lemma int3_prod f g h u v w : intR f u -> intR g v -> intR h w -> int3 (fun x y z => f x * g y * h z) (u * v * w).
Proof.
  intros F G H. exists (fun x y => w * (f x * g y)), (fun x => v * w * f x). split; [|split].
  - intros x y. apply (intR_ext (fun z => (f x * g y) * h z)); [reflexivity|]. rewrite (Rmult_comm w). apply intR_scal, H.
  - intros x. apply (intR_ext (fun y => (w * f x) * g y)); [intros; ring|]. replace (v * w * f x) with ((w * f x) * v) by ring. apply intR_scal, G.
  - replace (u * v * w) with (v * w * u) by ring. apply intR_scal, F.
Qed.
Lemma int3_unique f u v : int3 f u -> int3 f v -> u = v.
Proof.
  intros (g & h & H1 & H2 & H3) (g' & h' & H1' & H2' & H3').
  assert (E : forall x y, g x y = g' x y) by (intros x y; exact (intR_unique _ _ _ (H1 x y) (H1' x y))).
  assert (E' : forall x, h x = h' x).
  { intros x. apply (intR_unique (g x)); [apply H2|]. apply (intR_ext (g' x)); [intros; symmetry; apply E|apply H2']. }
  apply (intR_unique h); [exact H3|]. apply (intR_ext h'); [intros; symmetry; apply E'|exact H3'].
Qed.

(** ** One coordinate *)
(** The primitive in one coordinate. *)
Definition gau (i : nat) (a A x : R) : R := (x - A) ^ i * exp (- a * (x - A) ^ 2).
Lemma gau_prod A B a b i j x : a + b <> 0 ->
  gau i a A x * gau j b B x = sm (S (i + j)) (fun t => Esp A B a b i j t * lam (a + b) t ((a * A + b * B) / (a + b)) x).
Proof. intros H. rewrite Esp_expands by exact H. unfold gau. ring. Qed.
Lemma gau_van A B a b i j : 0 < a -> 0 < b -> vanishes (fun x => gau i a A x * gau j b B x).
Proof.
  intros Ha Hb. eapply van_ext; [intros x; symmetry; apply gau_prod; lra|]. generalize (S (i + j)). induction n as [|n IH]; cbn [sm].
  - intros eps He. exists 0. intros. rewrite Rabs_R0. exact He.
  - apply (van_plus (fun x => sm n (fun t => Esp A B a b i j t * lam (a + b) t ((a * A + b * B) / (a + b)) x))); [exact IH|]. apply van_scal, lam_van0. lra.
Qed.
Lemma gau_cont i a A x : continuous (gau i a A) x.
Proof. apply @ex_derive_continuous. unfold gau. auto_derive. exact I. Qed.
(** Moments of a product of two primitives. *)
Lemma moment_int A B Cx a b i j e : 0 < a -> 0 < b ->
  intR (fun x => gau i a A x * (x - Cx) ^ e * gau j b B x)
       (sm (Nat.min (i + j) e + 1) (fun t => Msp (a + b) ((a * A + b * B) / (a + b) - Cx) e t * Esp A B a b i j t)).
Proof.
  intros Ha Hb. set (p := a + b). set (P := (a * A + b * B) / p). assert (Hp : 0 < p) by (unfold p; lra).
  rewrite <- (sm_tail (Nat.min (i + j) e + 1) (S (i + j))).
  - apply (intR_ext (fun x => sm (S (i + j)) (fun t => Esp A B a b i j t * ((x - Cx) ^ e * lam p t P x)))).
    + intros x. rewrite (sm_ext _ _ (fun t => (x - Cx) ^ e * (Esp A B a b i j t * lam p t P x))) by (intros; ring).
      rewrite sm_scal. replace (gau i a A x * (x - Cx) ^ e * gau j b B x) with ((x - Cx) ^ e * (gau i a A x * gau j b B x)) by ring.
      rewrite gau_prod by lra. reflexivity.
    + apply intR_sm. intros t _. rewrite (Rmult_comm (Msp _ _ _ _)). apply intR_scal. apply Msp_int. exact Hp.
  - lia.
  - intros t Ht. destruct (Nat.le_gt_cases (i + j) e).
    + rewrite Esp_zero by lia. ring.
    + rewrite Msp_zero by lia. ring.
Qed.
Lemma overlap_int A B a b i j : 0 < a -> 0 < b -> intR (fun x => gau i a A x * gau j b B x) (sqrt (PI / (a + b)) * Esp A B a b i j 0).
Proof.
  intros Ha Hb. pose proof (moment_int A B 0 a b i j 0 Ha Hb) as H. rewrite Nat.min_0_r in H. cbn [Nat.add sm Msp Nat.eqb] in H. rewrite Rplus_0_l in H.
  apply (intR_ext (fun x => gau i a A x * (x - 0) ^ 0 * gau j b B x)); [intros; cbn [pow]; ring|exact H].
Qed.
(** First and second derivative of a primitive. *)
Definition gau1 (i : nat) (a A x : R) : R := INR i * gau (i - 1) a A x - 2 * a * gau (S i) a A x.
Definition gau2 (i : nat) (a A x : R) : R :=
  4 * a ^ 2 * gau (i + 2) a A x - 2 * a * (2 * INR i + 1) * gau i a A x + INR i * (INR i - 1) * gau (i - 2) a A x.
Lemma gau_derive (i : nat) (a A x : R) : is_derive (gau i a A) x (gau1 i a A x).
Proof.
  unfold gau, gau1. auto_derive; [exact I|]. unfold gau. replace (i - 1)%nat with (pred i) by lia. cbn [pow]. unfold Rminus. ring.
Qed.
Lemma gau1_derive (i : nat) (a A x : R) : is_derive (gau1 i a A) x (gau2 i a A x).
Proof.
  unfold gau1 at 1. evar_last.
  { apply @is_derive_minus; apply is_derive_scal; apply gau_derive. }
  unfold gau1, gau2, minus, plus, opp. cbn -[INR gau Nat.sub]. destruct i as [|[|i]].
  - cbn [Nat.sub Nat.add INR]. ring.
  - cbn [Nat.sub Nat.add INR]. ring.
  - replace (S (S i) - 1)%nat with (S i) by lia. replace (S i - 1)%nat with i by lia. replace (S (S i) - 2)%nat with i by lia.
    replace (S (S (S i)) - 1)%nat with (S (S i)) by lia. replace (S (S i) + 2)%nat with (S (S (S (S i)))) by lia. rewrite !S_INR. ring.
Qed.
Definition kd (A B a b : R) (i j : nat) : R :=
  4 * a ^ 2 * Esp A B a b (i + 2) j 0 - 2 * a * (2 * INR i + 1) * Esp A B a b i j 0 + INR i * (INR i - 1) * Esp A B a b (i - 2) j 0.
Lemma kd_int A B a b i j : 0 < a -> 0 < b -> intR (fun x => gau2 i a A x * gau j b B x) (sqrt (PI / (a + b)) * kd A B a b i j).
Proof.
  intros Ha Hb. unfold gau2, kd.
  apply (intR_ext (fun x => (4 * a ^ 2) * (gau (i + 2) a A x * gau j b B x) + (- (2 * a * (2 * INR i + 1))) * (gau i a A x * gau j b B x)
       + (INR i * (INR i - 1)) * (gau (i - 2) a A x * gau j b B x))); [intros; ring|].
  replace (sqrt (PI / (a + b)) * _) with ((4 * a ^ 2) * (sqrt (PI / (a + b)) * Esp A B a b (i + 2) j 0)
    + (- (2 * a * (2 * INR i + 1))) * (sqrt (PI / (a + b)) * Esp A B a b i j 0) + (INR i * (INR i - 1)) * (sqrt (PI / (a + b)) * Esp A B a b (i - 2) j 0)) by ring.
  exact (intR_plus _ _ _ _ (intR_plus _ _ _ _ (intR_scal _ _ _ (overlap_int A B a b (i + 2) j Ha Hb)) (intR_scal _ _ _ (overlap_int A B a b i j Ha Hb)))
    (intR_scal _ _ _ (overlap_int A B a b (i - 2) j Ha Hb))).
Qed.
Lemma gau1_van A B a b i j : 0 < a -> 0 < b -> vanishes (fun x => gau1 i a A x * gau j b B x).
Proof.
  intros Ha Hb. unfold gau1.
  apply (van_ext (fun x => INR i * (gau (i - 1) a A x * gau j b B x) + (- (2 * a)) * (gau (S i) a A x * gau j b B x))); [intros; ring|].
  apply van_plus; apply van_scal; apply gau_van; assumption.
Qed.
Lemma kd_sym A B a b i j : 0 < a -> 0 < b -> kd A B a b i j = kd B A b a j i.
Proof.
  intros Ha Hb. assert (S0 : 0 < sqrt (PI / (a + b))) by (apply sqrt_lt_R0, Rdiv_lt_0_compat; [apply PI_RGT_0|lra]).
  apply Rmult_eq_reg_l with (sqrt (PI / (a + b))); [|lra].
  apply Rminus_diag_uniq. replace (_ - _) with (sqrt (PI / (a + b)) * kd A B a b i j + (-1) * (sqrt (PI / (b + a)) * kd B A b a j i)) by (rewrite (Rplus_comm b a); ring).
  apply (intR_unique (fun x => gau2 i a A x * gau j b B x + (-1) * (gau2 j b B x * gau i a A x))).
  - exact (intR_plus _ _ _ _ (kd_int A B a b i j Ha Hb) (intR_scal _ _ _ (kd_int B A b a j i Hb Ha))).
  - apply (intR_by_parts (fun x => gau1 i a A x * gau j b B x + (-1) * (gau1 j b B x * gau i a A x))).
    + intros x. evar_last.
      { apply @is_derive_plus; [|apply is_derive_scal]; (apply @is_derive_mult; [apply gau1_derive|apply gau_derive|intros; apply Rmult_comm]). }
      unfold plus, mult; cbn -[gau1 gau2 gau]. ring.
    + intros x. apply @ex_derive_continuous. unfold gau2, gau. auto_derive. exact I.
    + apply van_plus; [|apply van_scal]; apply gau1_van; assumption.
Qed.
(** [int y^(2l) exp(-p y^2) dy = (2l-1)!! / (2p)^l sqrt(pi/p)] *)
Lemma fact2_S l : factorial2_odd (S l) = (2 * INR l + 1) * factorial2_odd l.
Proof.
  unfold factorial2_odd. cbn [seq fold_left]. rewrite <- seq_shift. 
  assert (G : forall ks c d n, (forall k, n k = INR k) -> fold_left (fun out i => out * (2 * INR (S l) - 1 - 2 * INR i)) (map S ks) (c * d)
     = c * fold_left (fun out i => out * (2 * INR l - 1 - 2 * n i)) ks d).
  { induction ks as [|k ks IH]; intros c d n Hn; cbn [map fold_left]; [reflexivity|].
    rewrite Rmult_assoc. rewrite IH with (n := n) by exact Hn. do 2 f_equal. rewrite Hn, !S_INR. ring. }
  replace (1 * (2 * INR (S l) - 1 - 2 * INR 0)) with ((2 * INR l + 1) * 1) by (rewrite S_INR; cbn [INR]; ring).
  rewrite (G _ _ _ INR) by reflexivity. reflexivity.
Qed.
Lemma fact2_pos l : 0 < factorial2_odd l.
Proof. induction l as [|l IH]; [cbn; lra|]. rewrite fact2_S. pose proof (pos_INR l). nra. Qed.
Lemma even_moment p A l : 0 < p -> intR (fun x => gau (2 * l) p A x) (factorial2_odd l / (2 * p) ^ l * sqrt (PI / p)).
Proof.
  intros Hp. induction l as [|l IH].
  - cbn [Nat.mul Nat.add pow factorial2_odd seq fold_left]. replace (1 / 1 * sqrt (PI / p)) with (sqrt (PI / p)) by field.
    apply (intR_ext (fun x => lam p 0 A x)); [|apply gauss_int; exact Hp]. intros x. rewrite lam_0. unfold gau. cbn [pow]. ring.
  - rewrite fact2_S. replace ((2 * INR l + 1) * factorial2_odd l / (2 * p) ^ S l * sqrt (PI / p)) with
      ((2 * INR l + 1) / (2 * p) * (factorial2_odd l / (2 * p) ^ l * sqrt (PI / p)) + (- / (2 * p)) * 0).
    2:{ cbn [pow]. field. split; [apply pow_nonzero|]; lra. }
    apply (intR_ext (fun x => (2 * INR l + 1) / (2 * p) * gau (2 * l) p A x + (- / (2 * p)) * gau1 (S (2 * l)) p A x)).
    { intros x. unfold gau1. replace (S (2 * l) - 1)%nat with (2 * l)%nat by lia. replace (2 * S l)%nat with (S (S (2 * l))) by lia.
      rewrite S_INR, mult_INR. cbn [INR]. field. lra. }
    apply (intR_plus (fun x => (2 * INR l + 1) / (2 * p) * gau (2 * l) p A x) (fun x => - / (2 * p) * gau1 (S (2 * l)) p A x)); [apply intR_scal; exact IH|].
    apply intR_scal. apply (intR_by_parts (gau (S (2 * l)) p A)).
    + intros x. apply gau_derive.
    + intros x. apply @ex_derive_continuous. eexists. apply gau1_derive.
    + apply (van_shift A (fun y => y ^ S (2 * l) * exp (- p * y ^ 2))). apply gauss_van. exact Hp.
Qed.
Lemma self_overlap A a b l : 0 < a -> 0 < b -> Esp A A a b l l 0 = factorial2_odd l / (2 * (a + b)) ^ l.
Proof.
  intros Ha Hb. assert (S0 : 0 < sqrt (PI / (a + b))) by (apply sqrt_lt_R0, Rdiv_lt_0_compat; [apply PI_RGT_0|lra]).
  apply Rmult_eq_reg_l with (sqrt (PI / (a + b))); [|lra]. rewrite (Rmult_comm _ (factorial2_odd l / _)).
  apply (intR_unique (fun x => gau l a A x * gau l b A x)); [apply overlap_int; assumption|].
  apply (intR_ext (fun x => gau (2 * l) (a + b) A x)); [|apply even_moment; lra].
  intros x. unfold gau. replace (2 * l)%nat with (l + l)%nat by lia. rewrite pow_add.
  replace (- (a + b) * (x - A) ^ 2) with (- a * (x - A) ^ 2 + - b * (x - A) ^ 2) by ring. rewrite exp_plus. ring.
Qed.

(** ** Shells *)
Definition positive (s : shell) : Prop := List.Forall (fun e => 0 < e) (s_exps s) /\ length (s_contr s) = length (s_exps s).
Lemma ex_pos s i : positive s -> (i < length (s_exps s))%nat -> 0 < ex s i.
Proof. intros [H _] L. unfold ex. apply (proj1 (Forall_forall _ _) H). apply nth_In. exact L. Qed.
Lemma max_ang_ok s b x y z : (b < nbf s)%nat -> angm s b = (x, y, z) -> (x <= max_ang s /\ y <= max_ang s /\ z <= max_ang s)%nat.
Proof.
  unfold nbf, angm, max_ang. revert b. induction (s_ang s) as [|[[x' y'] z'] l IH]; intros b H E; [cbn in H; lia|].
  cbn [fold_right]. destruct b as [|b]; cbn [nth] in E.
  - injection E as <- <- <-. lia.
  - specialize (IH b ltac:(cbn in H; lia) E). lia.
Qed.
Lemma amplitude_gau s b x y z ax ay az : positive s -> angm s b = (ax, ay, az) ->
  amplitude s b x y z = sm (length (s_exps s)) (fun i => s_norm s b i * cc s i
    * (gau ax (ex s i) (vx (s_center s)) x * gau ay (ex s i) (vy (s_center s)) y * gau az (ex s i) (vz (s_center s)) z)).
Proof.
  intros [_ L] E. unfold amplitude. rewrite E, L. apply sm_ext. intros i _. f_equal. unfold primitive_gauss, gau.
  replace (- ex s i * ((x - vx (s_center s)) ^ 2 + (y - vy (s_center s)) ^ 2 + (z - vz (s_center s)) ^ 2)) with
    (- ex s i * (x - vx (s_center s)) ^ 2 + (- ex s i * (y - vy (s_center s)) ^ 2 + - ex s i * (z - vz (s_center s)) ^ 2)) by ring.
  rewrite !exp_plus. ring.
Qed.
Lemma sm_prod2 n m F G : sm n F * sm m G = sm n (fun i => sm m (fun j => F i * G j)).
Proof. rewrite <- sm_scal_r. apply sm_ext. intros i _. symmetry. apply sm_scal. Qed.
Lemma sm_prod3 n m k (A1 A2 A3 : nat -> R) : sm n (fun i => sm m (fun j => sm k (fun l => A1 i * A2 j * A3 l))) = sm n A1 * sm m A2 * sm k A3.
Proof.
  rewrite Rmult_assoc, (sm_prod2 m k), (sm_prod2 n m). apply sm_ext. intros i _. apply sm_ext. intros j _. rewrite <- sm_scal.
  apply sm_ext. intros; ring.
Qed.
Definition moment (A B Cx a b : R) (e i j : nat) : R :=
  sm (Nat.min (i + j) e + 1) (fun t => Msp (a + b) ((a * A + b * B) / (a + b) - Cx) e t * Esp A B a b i j t).
Lemma multipole_moments mem s1 s2 o mx my mz bi bj i j x1 y1 z1 x2 y2 z2 :
  (bi < nbf s1)%nat -> (bj < nbf s2)%nat -> angm s1 bi = (x1, y1, z1) -> angm s2 bj = (x2, y2, z2) ->
  multipole_primitive mem s1 s2 o (mx, my, mz) bi bj i j
  = moment (vx (s_center s1)) (vx (s_center s2)) (vx o) (ex s1 i) (ex s2 j) mx x1 x2
    * moment (vy (s_center s1)) (vy (s_center s2)) (vy o) (ex s1 i) (ex s2 j) my y1 y2
    * moment (vz (s_center s1)) (vz (s_center s2)) (vz o) (ex s1 i) (ex s2 j) mz z1 z2
    * (s_norm s1 bi i * s_norm s2 bj j).
Proof.
  intros B1 B2 E1 E2. unfold multipole_primitive. rewrite E1, E2. f_equal. unfold moment. rewrite <- sm_prod3.
  destruct (max_ang_ok _ _ _ _ _ B1 E1) as (X1 & Y1 & Z1), (max_ang_ok _ _ _ _ _ B2 E2) as (X2 & Y2 & Z2).
  apply sm_ext. intros t1 T1. apply sm_ext. intros t2 T2. apply sm_ext. intros t3 T3.
  rewrite !hermite_multipole_ok, !Esp_tbl by lia. ring.
Qed.
Lemma multipole_int mem s1 s2 o mx my mz bi bj : positive s1 -> positive s2 -> (bi < nbf s1)%nat -> (bj < nbf s2)%nat ->
  int3 (fun x y z => amplitude s1 bi x y z * ((x - vx o) ^ mx * (y - vy o) ^ my * (z - vz o) ^ mz) * amplitude s2 bj x y z)
       (multipole_integral mem o (mx, my, mz) s1 s2 bi bj).
Proof.
  intros P1 P2 B1 B2. destruct (angm s1 bi) as [[x1 y1] z1] eqn:E1, (angm s2 bj) as [[x2 y2] z2] eqn:E2.
  set (g := fun i j (x y z : R) => cc s1 i * cc s2 j * (s_norm s1 bi i * s_norm s2 bj j) *
     ((gau x1 (ex s1 i) (vx (s_center s1)) x * (x - vx o) ^ mx * gau x2 (ex s2 j) (vx (s_center s2)) x)
      * (gau y1 (ex s1 i) (vy (s_center s1)) y * (y - vy o) ^ my * gau y2 (ex s2 j) (vy (s_center s2)) y)
      * (gau z1 (ex s1 i) (vz (s_center s1)) z * (z - vz o) ^ mz * gau z2 (ex s2 j) (vz (s_center s2)) z))).
  apply (int3_ext (fun x y z => sm (length (s_exps s1)) (fun i => sm (length (s_exps s2)) (fun j => g i j x y z)))).
  - intros x y z. rewrite (amplitude_gau s1 bi x y z _ _ _ P1 E1), (amplitude_gau s2 bj x y z _ _ _ P2 E2).
    rewrite <- sm_scal_r, sm_prod2. apply sm_ext. intros i _. apply sm_ext. intros j _. unfold g. ring.
  - unfold multipole_integral, contract2. apply int3_sm. intros i Li. apply int3_sm. intros j Lj. unfold g.
    rewrite (multipole_moments mem s1 s2 o mx my mz bi bj i j _ _ _ _ _ _ B1 B2 E1 E2).
    match goal with |- int3 _ (?c * (?m * ?n)) => replace (c * (m * n)) with (c * n * m) by ring end. apply int3_scal. apply int3_prod; apply moment_int; apply ex_pos; assumption.
Qed.
Lemma sqrt3 x : 0 < x -> Rpower x (3 / 2) = sqrt x * sqrt x * sqrt x.
Proof.
  intros H. replace (3 / 2) with (/ 2 + (/ 2 + / 2)) by lra. rewrite !Rpower_plus, !Rpower_sqrt by exact H. ring.
Qed.
Lemma kinetic_terms mem s1 s2 bi bj i j x1 y1 z1 x2 y2 z2 :
  (bi < nbf s1)%nat -> (bj < nbf s2)%nat -> angm s1 bi = (x1, y1, z1) -> angm s2 bj = (x2, y2, z2) ->
  let S := fun (pr : v3 -> R) k l => Esp (pr (s_center s1)) (pr (s_center s2)) (ex s1 i) (ex s2 j) k l 0 in
  let D := fun (pr : v3 -> R) k l => kd (pr (s_center s1)) (pr (s_center s2)) (ex s1 i) (ex s2 j) k l in
  kinetic_primitive mem s1 s2 bi bj i j
  = s_norm s1 bi i * s_norm s2 bj j * (D vx x1 x2 * S vy y1 y2 * S vz z1 z2 + S vx x1 x2 * D vy y1 y2 * S vz z1 z2 + S vx x1 x2 * S vy y1 y2 * D vz z1 z2)
    * (- 1 / 2 * Rpower (PI / (ex s1 i + ex s2 j)) (3 / 2)).
Proof.
  intros B1 B2 E1 E2 S D. unfold kinetic_primitive. rewrite E1, E2.
  destruct (max_ang_ok _ _ _ _ _ B1 E1) as (X1 & Y1 & Z1), (max_ang_ok _ _ _ _ _ B2 E2) as (X2 & Y2 & Z2).
  assert (W : forall (pr : v3 -> R) k l, (k <= max_ang s1)%nat -> (l <= max_ang s2)%nat ->
     let E := expansion_coefficients mem (pr (s_center s1)) (pr (s_center s2)) (ex s1 i) (ex s2 j) (max_ang s1 + 2) (max_ang s2 + 2) in
     INR k * (INR k - 1) * E [wrap (max_ang s1 + 2 + 1) k 2; l; 0%nat] = INR k * (INR k - 1) * S pr (k - 2)%nat l).
  { intros pr k l Hk Hl. cbv zeta. destruct k as [|[|k]]; [cbn [INR]; ring|cbn [INR]; ring|]. f_equal. unfold wrap. cbn [Nat.leb].
    rewrite Esp_tbl by lia. reflexivity. }
  f_equal. f_equal.
  rewrite (W vx x1 x2 X1 X2), (W vy y1 y2 Y1 Y2), (W vz z1 z2 Z1 Z2). rewrite !Esp_tbl by lia. unfold S, D, kd. ring.
Qed.
Lemma is_derive_sm n (F : nat -> R -> R) (dF : nat -> R) (x : R) : (forall i, is_derive (F i) x (dF i)) -> is_derive (fun x => sm n (fun i => F i x)) x (sm n dF).
Proof.
  intros H. induction n as [|n IH]; cbn [sm]; [apply @is_derive_const|]. apply (is_derive_plus (fun x => sm n (fun i => F i x)) (F n)); [exact IH|apply H].
Qed.
Lemma second_derive n (c e : nat -> R) k A (x : R) :
  Derive_n (fun x => sm n (fun i => c i * gau k (e i) A x)) 2 x = sm n (fun i => c i * gau2 k (e i) A x).
Proof.
  cbn [Derive_n]. rewrite (Derive_ext _ (fun x => sm n (fun i => c i * gau1 k (e i) A x))).
  - apply is_derive_unique. apply is_derive_sm. intros i. apply is_derive_scal, gau1_derive.
  - intros y. apply is_derive_unique. apply is_derive_sm. intros i. apply is_derive_scal, gau_derive.
Qed.
Definition laplace (f : R -> R -> R -> R) (x y z : R) : R :=
  Derive_n (fun x => f x y z) 2 x + Derive_n (fun y => f x y z) 2 y + Derive_n (fun z => f x y z) 2 z.
Lemma laplace_amplitude s b x y z ax ay az : positive s -> angm s b = (ax, ay, az) ->
  laplace (amplitude s b) x y z = sm (length (s_exps s)) (fun i => s_norm s b i * cc s i *
    (gau2 ax (ex s i) (vx (s_center s)) x * gau ay (ex s i) (vy (s_center s)) y * gau az (ex s i) (vz (s_center s)) z
     + gau ax (ex s i) (vx (s_center s)) x * gau2 ay (ex s i) (vy (s_center s)) y * gau az (ex s i) (vz (s_center s)) z
     + gau ax (ex s i) (vx (s_center s)) x * gau ay (ex s i) (vy (s_center s)) y * gau2 az (ex s i) (vz (s_center s)) z)).
Proof.
  intros Ps E. unfold laplace.
  rewrite (Derive_n_ext _ (fun x => sm (length (s_exps s)) (fun i => (s_norm s b i * cc s i * (gau ay (ex s i) (vy (s_center s)) y * gau az (ex s i) (vz (s_center s)) z)) * gau ax (ex s i) (vx (s_center s)) x)) 2 x).
  2:{ intros w. rewrite (amplitude_gau s b w y z _ _ _ Ps E). apply sm_ext. intros; ring. }
  rewrite (Derive_n_ext _ (fun y => sm (length (s_exps s)) (fun i => (s_norm s b i * cc s i * (gau ax (ex s i) (vx (s_center s)) x * gau az (ex s i) (vz (s_center s)) z)) * gau ay (ex s i) (vy (s_center s)) y)) 2 y).
  2:{ intros w. rewrite (amplitude_gau s b x w z _ _ _ Ps E). apply sm_ext. intros; ring. }
  rewrite (Derive_n_ext _ (fun z => sm (length (s_exps s)) (fun i => (s_norm s b i * cc s i * (gau ax (ex s i) (vx (s_center s)) x * gau ay (ex s i) (vy (s_center s)) y)) * gau az (ex s i) (vz (s_center s)) z)) 2 z).
  2:{ intros w. rewrite (amplitude_gau s b x y w _ _ _ Ps E). apply sm_ext. intros; ring. }
  rewrite !second_derive, <- !sm_plus. apply sm_ext. intros; ring.
Qed.
Lemma kinetic_int mem s1 s2 bi bj : positive s1 -> positive s2 -> (bi < nbf s1)%nat -> (bj < nbf s2)%nat ->
  int3 (fun x y z => - (1 / 2) * laplace (amplitude s1 bi) x y z * amplitude s2 bj x y z) (kinetic_energy_integral mem s1 s2 bi bj).
Proof.
  intros P1 P2 B1 B2. destruct (angm s1 bi) as [[x1 y1] z1] eqn:E1, (angm s2 bj) as [[x2 y2] z2] eqn:E2.
  set (gg := fun (pr : v3 -> R) i j k l (x : R) => gau k (ex s1 i) (pr (s_center s1)) x * gau l (ex s2 j) (pr (s_center s2)) x).
  set (hh := fun (pr : v3 -> R) i j k l (x : R) => gau2 k (ex s1 i) (pr (s_center s1)) x * gau l (ex s2 j) (pr (s_center s2)) x).
  set (g := fun i j (x y z : R) => (cc s1 i * cc s2 j * (s_norm s1 bi i * s_norm s2 bj j) * - (1 / 2)) *
     (hh vx i j x1 x2 x * gg vy i j y1 y2 y * gg vz i j z1 z2 z + gg vx i j x1 x2 x * hh vy i j y1 y2 y * gg vz i j z1 z2 z
      + gg vx i j x1 x2 x * gg vy i j y1 y2 y * hh vz i j z1 z2 z)).
  apply (int3_ext (fun x y z => sm (length (s_exps s1)) (fun i => sm (length (s_exps s2)) (fun j => g i j x y z)))).
  - intros x y z. rewrite (laplace_amplitude s1 bi x y z _ _ _ P1 E1), (amplitude_gau s2 bj x y z _ _ _ P2 E2).
    rewrite Rmult_assoc, sm_prod2, <- sm_scal. apply sm_ext. intros i _. rewrite <- sm_scal. apply sm_ext. intros j _. unfold g, gg, hh. ring.
  - unfold kinetic_energy_integral, contract2. apply int3_sm. intros i Li. apply int3_sm. intros j Lj. unfold g.
    rewrite (kinetic_terms mem s1 s2 bi bj i j _ _ _ _ _ _ B1 B2 E1 E2).
    pose proof (ex_pos _ _ P1 Li) as A1. pose proof (ex_pos _ _ P2 Lj) as A2.
    rewrite sqrt3 by (apply Rdiv_lt_0_compat; [apply PI_RGT_0|lra]). set (q := sqrt (PI / (ex s1 i + ex s2 j))).
    set (S := fun (pr : v3 -> R) k l => Esp (pr (s_center s1)) (pr (s_center s2)) (ex s1 i) (ex s2 j) k l 0).
    set (D := fun (pr : v3 -> R) k l => kd (pr (s_center s1)) (pr (s_center s2)) (ex s1 i) (ex s2 j) k l).
    assert (IS : forall pr k l, intR (gg pr i j k l) (q * S pr k l)) by (intros; apply overlap_int; assumption).
    assert (ID : forall pr k l, intR (hh pr i j k l) (q * D pr k l)) by (intros; apply kd_int; assumption).
    match goal with |- int3 _ ?v => replace v with ((cc s1 i * cc s2 j * (s_norm s1 bi i * s_norm s2 bj j) * - (1 / 2)) *
       ((q * D vx x1 x2) * (q * S vy y1 y2) * (q * S vz z1 z2) + (q * S vx x1 x2) * (q * D vy y1 y2) * (q * S vz z1 z2)
        + (q * S vx x1 x2) * (q * S vy y1 y2) * (q * D vz z1 z2))) by (unfold S, D; field) end.
    apply int3_scal. refine (int3_plus _ _ _ _ (int3_plus _ _ _ _ _ _) _); apply int3_prod; auto.
Qed.
