(** Proofs about the normalisation of the primitives and of the contracted
    basis functions. *)
From Coq Require Import List Bool Arith Lia Reals Lra Psatz.
From Coquelicot Require Import Coquelicot.
Require Import Verif.IntegralModel Verif.IntegralProofs Verif.GaussProofs Verif.OneElectron Verif.TwoElectron Verif.Coulomb.
Import ListNotations.
Local Open Scope R_scope.

Definition facts (m : ang) : R := let '(x, y, z) := m in factorial2_odd x * factorial2_odd y * factorial2_odd z.
Definition total (m : ang) : nat := let '(x, y, z) := m in (x + y + z)%nat.
Lemma facts_pos m : 0 < facts m.
Proof. destruct m as [[x y] z]. cbn. repeat apply Rmult_lt_0_compat; apply fact2_pos. Qed.
(** Overlap of two primitives on the same centre. *)
Lemma prim_overlap cx cy cz a b m : 0 < a -> 0 < b ->
  int3 (fun x y z => primitive_gauss x y z cx cy cz a m * primitive_gauss x y z cx cy cz b m)
       (Rpower PI (3 / 2) * facts m / 2 ^ total m / Rpower (a + b) (INR (total m) + 3 / 2)).
Proof.
  intros Ha Hb. destruct m as [[i j] k].
  apply (int3_ext (fun x y z => (gau i a cx x * gau i b cx x) * (gau j a cy y * gau j b cy y) * (gau k a cz z * gau k b cz z))).
  { intros x y z. unfold primitive_gauss, gau.
    replace (- a * ((x - cx) ^ 2 + (y - cy) ^ 2 + (z - cz) ^ 2)) with (- a * (x - cx) ^ 2 + (- a * (y - cy) ^ 2 + - a * (z - cz) ^ 2)) by ring.
    replace (- b * ((x - cx) ^ 2 + (y - cy) ^ 2 + (z - cz) ^ 2)) with (- b * (x - cx) ^ 2 + (- b * (y - cy) ^ 2 + - b * (z - cz) ^ 2)) by ring.
    rewrite !exp_plus. ring. }
  pose proof (int3_prod _ _ _ _ _ _ (overlap_int cx cx a b i i Ha Hb) (overlap_int cy cy a b j j Ha Hb) (overlap_int cz cz a b k k Ha Hb)) as K.
  match type of K with int3 _ ?v => match goal with |- int3 _ ?w => replace w with v; [exact K|] end end.
  rewrite !self_overlap by assumption. cbn [facts total]. assert (P : 0 < a + b) by lra. pose proof PI_RGT_0 as PI0.
  rewrite sqrt_div by lra. rewrite Rpower_plus, Rpower_pow by exact P. rewrite !sqrt3 by assumption.
  pose proof (sqrt_lt_R0 _ P) as S0. rewrite !Rpow_mult_distr, !pow_add.
  field. repeat split; try (apply pow_nonzero); apply Rgt_not_eq; lra.
Qed.
Theorem primitive_unit cx cy cz a m : 0 < a ->
  int3 (fun x y z => (primitive_normalization a m * primitive_gauss x y z cx cy cz a m) ^ 2) 1.
Proof.
  intros Ha. apply (int3_ext (fun x y z => primitive_normalization a m ^ 2 * (primitive_gauss x y z cx cy cz a m * primitive_gauss x y z cx cy cz a m))); [intros; ring|].
  pose proof (int3_scal (primitive_normalization a m ^ 2) _ _ (prim_overlap cx cy cz a a m Ha Ha)) as K.
  match type of K with int3 _ ?v => replace 1 with v; [exact K|] end.
  pose proof (facts_pos m) as F. destruct m as [[i j] k]. unfold primitive_normalization. cbn [facts total] in *. pose proof PI_RGT_0 as PI0.
  set (f := factorial2_odd i * factorial2_odd j * factorial2_odd k) in *. pose proof (sqrt_lt_R0 _ F) as SF.
  assert (SQ : sqrt f ^ 2 = f) by (rewrite <- Rsqr_pow2; apply Rsqr_sqrt; lra).
  assert (sq : forall x y, (Rpower x y) ^ 2 = Rpower x (2 * y)).
  { intros x y. replace (2 * y) with (y + y) by ring. rewrite Rpower_plus. ring. }
  assert (Q0 : 0 < 2 / PI) by (apply Rdiv_lt_0_compat; lra).
  unfold Rdiv at 1 2. rewrite !Rpow_mult_distr, pow_inv, SQ, !sq.
  replace (2 * (3 / 4)) with (3 / 2) by field.
  replace (2 * ((2 * INR i + 2 * INR j + 2 * INR k + 3) / 4)) with (INR (i + j + k) + 3 / 2) by (rewrite !plus_INR; field).
  replace (a + a) with (2 * a) by ring. rewrite <- (Rpower_mult_distr 2 a) by lra.
  rewrite !Rpower_plus, !Rpower_pow by lra. unfold Rdiv. rewrite <- (Rpower_mult_distr 2 (/ PI)) by (try apply Rinv_0_lt_compat; lra).
  assert (IP : forall y, Rpower (/ PI) y = / Rpower PI y).
  { intros y. unfold Rpower. rewrite ln_Rinv by exact PI0. rewrite <- exp_Ropp. f_equal. ring. }
  rewrite IP. assert (N : forall x y, Rpower x y <> 0) by (intros; apply Rgt_not_eq, exp_pos).
  field. repeat split; try apply N; try (apply pow_nonzero; lra); apply Rgt_not_eq; lra.
Qed.

(** A contracted function before the normalisation of the contraction. *)
Definition raw (s : shell) (b : nat) (x y z : R) : R :=
  sm (length (s_contr s)) (fun i => cc s i * (primitive_normalization (ex s i) (angm s b) *
    primitive_gauss x y z (vx (s_center s)) (vy (s_center s)) (vz (s_center s)) (ex s i) (angm s b))).
Lemma contracted_eq exps coefs m :
  contracted_normalization exps coefs m
  = Rpower (sm (length exps) (fun i => sm (length exps) (fun j => nth i coefs 0 * nth j coefs 0 / Rpower (nth i exps 0 + nth j exps 0) (INR (total m) + 3 / 2)))
            * (Rpower PI (3 / 2) * facts m / 2 ^ total m)) (- (1 / 2)).
Proof. destruct m as [[x y] z]. unfold contracted_normalization, facts, total. f_equal. f_equal. unfold Rdiv. ring. Qed.
Section Unit.
Variables (center : v3) (exps contr : list R) (ams : list ang) (n b : nat).
Let s := make_shell center exps contr ams n.
Hypothesis Hp : positive s.
Let m := nth b ams (0, 0, 0)%nat.
Let d := map (fun i => nth i contr 0 * primitive_normalization (nth i exps 0) m) (seq 0 (length exps)).
Let W := sm (length exps) (fun i => sm (length exps) (fun j => nth i d 0 * nth j d 0 / Rpower (nth i exps 0 + nth j exps 0) (INR (total m) + 3 / 2)))
         * (Rpower PI (3 / 2) * facts m / 2 ^ total m).
Lemma d_nth i : (i < length exps)%nat -> nth i d 0 = nth i contr 0 * primitive_normalization (nth i exps 0) m.
Proof.
  intros H. unfold d. erewrite nth_indep by (rewrite map_length, seq_length; exact H). rewrite (map_nth (fun i => _) _ 0%nat). rewrite seq_nth by exact H. reflexivity.
Qed.
Lemma raw_int : int3 (fun x y z => raw s b x y z ^ 2) W.
Proof.
  assert (LC : length contr = length exps) by (apply (proj2 Hp)).
  apply (int3_ext (fun x y z => sm (length exps) (fun i => sm (length exps) (fun j => nth i d 0 * nth j d 0 *
     (primitive_gauss x y z (vx center) (vy center) (vz center) (nth i exps 0) m * primitive_gauss x y z (vx center) (vy center) (vz center) (nth j exps 0) m))))).
  - intros x y z. unfold raw. change (s_contr s) with contr. rewrite LC.
    match goal with |- _ = ?q ^ 2 => replace (q ^ 2) with (q * q) by ring end. rewrite sm_prod2.
    apply sm_ext. intros i Hi. apply sm_ext. intros j Hj. rewrite !d_nth by assumption. change (cc s i) with (nth i contr 0). change (cc s j) with (nth j contr 0). change (ex s i) with (nth i exps 0). change (ex s j) with (nth j exps 0).
    change (angm s b) with m. change (s_center s) with center. ring.
  - unfold W. rewrite <- sm_scal_r. apply int3_sm. intros i Hi. rewrite <- sm_scal_r. apply int3_sm. intros j Hj.
    pose proof (ex_pos s i Hp Hi) as P1. pose proof (ex_pos s j Hp Hj) as P2. unfold ex in P1, P2. cbn [s make_shell s_exps] in P1, P2.
    match goal with |- int3 _ ?v => replace v with (nth i d 0 * nth j d 0 * (Rpower PI (3 / 2) * facts m / 2 ^ total m / Rpower (nth i exps 0 + nth j exps 0) (INR (total m) + 3 / 2))) by (unfold Rdiv; ring) end.
    apply int3_scal. apply prim_overlap; assumption.
Qed.
Lemma amplitude_raw x y z : amplitude s b x y z = Rpower W (- (1 / 2)) * raw s b x y z.
Proof.
  unfold amplitude, raw. rewrite <- sm_scal. apply sm_ext. intros i _. change (s_norm s b i) with (primitive_normalization (nth i exps 0) m * contracted_normalization exps d m).
  change (ex s i) with (nth i exps 0). change (angm s b) with m. rewrite contracted_eq. fold W. ring.
Qed.
Theorem basis_function_unit v : int3 (fun x y z => raw s b x y z ^ 2) v -> v <> 0 -> int3 (fun x y z => amplitude s b x y z ^ 2) 1.
Proof.
  intros Hv NZ. pose proof (int3_unique _ _ _ Hv raw_int) as ->.
  assert (W0 : 0 <= W) by (apply (int3_nonneg _ _ (fun x y z => pow2_ge_0 (raw s b x y z)) raw_int)).
  apply (int3_ext (fun x y z => Rpower W (- (1 / 2)) ^ 2 * raw s b x y z ^ 2)); [intros; rewrite amplitude_raw; ring|].
  enough (E : Rpower W (- (1 / 2)) ^ 2 * W = 1) by (refine (eq_ind _ (int3 _) (int3_scal (Rpower W (- (1 / 2)) ^ 2) _ _ raw_int) _ E)).
  replace (Rpower W (- (1 / 2)) ^ 2) with (Rpower W (- (1 / 2) + - (1 / 2))) by (rewrite Rpower_plus; ring).
  replace (- (1 / 2) + - (1 / 2)) with (- (1)) by field. rewrite Rpower_Ropp, Rpower_1 by lra. field. exact NZ.
Qed.
End Unit.
