(** The Gaussian integral and improper integrals over the real line, used to
    state what the one-electron integrals are. *)
From Coq Require Import List Bool Arith Lia Reals Lra Psatz Sorted.
From Coquelicot Require Import Coquelicot.
Require Import Verif.IntegralModel Verif.IntegralProofs.
Import ListNotations.
Local Open Scope R_scope.

Definition intR (f : R -> R) (v : R) : Prop := is_RInt_gen f (Rbar_locally m_infty) (Rbar_locally p_infty) v.
Lemma intR_ext f g v : (forall x, f x = g x) -> intR f v -> intR g v.
Proof. intros E H. apply (is_RInt_gen_ext f); [|exact H]. apply filter_forall. intros; apply E. Qed.
Lemma intR_plus f g u v : intR f u -> intR g v -> intR (fun x => f x + g x) (u + v).
Proof. intros F G. exact (is_RInt_gen_plus f g u v F G). Qed.
Lemma intR_scal c f v : intR f v -> intR (fun x => c * f x) (c * v).
Proof. intros F. exact (is_RInt_gen_scal f c v F). Qed.
Lemma intR_unique f u v : intR f u -> intR f v -> u = v.
Proof. intros F G. rewrite <- (is_RInt_gen_unique f u F). apply (is_RInt_gen_unique f v G). Qed.
Lemma intR_zero : intR (fun _ => 0) 0.
Proof.
  intros P [e H]. exists (fun _ => True) (fun _ => True); [exists 0; auto|exists 0; auto|]. intros x y _ _. exists 0. split.
  - evar_last; [apply @is_RInt_const|]. unfold scal; cbn. unfold mult; cbn. ring.
  - apply H. apply ball_center.
Qed.
Lemma intR_sm n (F : nat -> R -> R) (v : nat -> R) : (forall i, (i < n)%nat -> intR (F i) (v i)) -> intR (fun x => sm n (fun i => F i x)) (sm n v).
Proof.
  induction n as [|n IH]; intros H; cbn [sm]; [apply intR_zero|]. apply intR_plus; [apply IH; intros; apply H; lia|apply H; lia].
Qed.
(** From an antiderivative with limits at both ends. *)
Lemma intR_derive (F f : R -> R) lm lp :
  (forall x, is_derive F x (f x)) -> (forall x, continuous f x) ->
  filterlim F (Rbar_locally m_infty) (locally lm) -> filterlim F (Rbar_locally p_infty) (locally lp) -> intR f (lp - lm).
Proof.
  intros D Cf Lm Lp. assert (E : forall x, Derive F x = f x) by (intros; apply is_derive_unique; apply D).
  apply (intR_ext (Derive F)); [exact E|]. apply (is_RInt_gen_Derive F lm lp).
  - apply filter_forall. intros ab x _. exists (f x). apply D.
  - apply filter_forall. intros ab x _. apply (continuous_ext f); [intros; symmetry; apply E|apply Cf].
  - exact Lm.
  - exact Lp.
Qed.
(** Vanishing at both ends. *)
Definition vanishes (f : R -> R) : Prop := forall eps, 0 < eps -> exists M, forall x, M < Rabs x -> Rabs (f x) < eps.
Lemma van_m f : vanishes f -> filterlim f (Rbar_locally m_infty) (locally 0).
Proof.
  intros V P [e H]. destruct (V e (cond_pos e)) as (M & HM). exists (- Rabs M). intros x X. apply H.
  unfold ball; cbn. unfold AbsRing_ball, minus, plus, opp, abs; cbn. replace (f x + - 0) with (f x) by ring. apply HM.
  apply Rle_lt_trans with (Rabs M); [apply Rle_abs|]. rewrite (Rabs_left1 x); [lra|]. pose proof (Rabs_pos M). lra.
Qed.
Lemma van_p f : vanishes f -> filterlim f (Rbar_locally p_infty) (locally 0).
Proof.
  intros V P [e H]. destruct (V e (cond_pos e)) as (M & HM). exists (Rabs M). intros x X. apply H.
  unfold ball; cbn. unfold AbsRing_ball, minus, plus, opp, abs; cbn. replace (f x + - 0) with (f x) by ring. apply HM.
  apply Rle_lt_trans with (Rabs M); [apply Rle_abs|]. rewrite (Rabs_right x); [lra|]. pose proof (Rabs_pos M). lra.
Qed.
Lemma van_ext f g : (forall x, f x = g x) -> vanishes f -> vanishes g.
Proof. intros E V eps He. destruct (V eps He) as (M & H). exists M. intros x X. rewrite <- E. apply H. exact X. Qed.
Lemma van_plus f g : vanishes f -> vanishes g -> vanishes (fun x => f x + g x).
Proof.
  intros F G eps He. destruct (F (eps / 2) ltac:(lra)) as (M & HM), (G (eps / 2) ltac:(lra)) as (N & HN). exists (Rmax M N). intros x X.
  pose proof (Rmax_l M N). pose proof (Rmax_r M N). pose proof (HM x ltac:(lra)). pose proof (HN x ltac:(lra)).
  eapply Rle_lt_trans; [apply Rabs_triang|]. lra.
Qed.
Lemma van_scal c f : vanishes f -> vanishes (fun x => c * f x).
Proof.
  intros F eps He. assert (0 < Rabs c + 1) by (pose proof (Rabs_pos c); lra).
  destruct (F (eps / (Rabs c + 1))) as (M & HM); [apply Rdiv_lt_0_compat; lra|]. exists M. intros x X. rewrite Rabs_mult.
  specialize (HM x X). apply Rle_lt_trans with ((Rabs c + 1) * Rabs (f x)).
  - apply Rmult_le_compat_r; [apply Rabs_pos|lra].
  - apply Rlt_le_trans with ((Rabs c + 1) * (eps / (Rabs c + 1))); [apply Rmult_lt_compat_l; lra|]. right. field. lra.
Qed.
Lemma van_shift c f : vanishes f -> vanishes (fun x => f (x - c)).
Proof.
  intros F eps He. destruct (F eps He) as (M & HM). exists (M + Rabs c). intros x X. apply HM.
  pose proof (Rabs_triang (x - c) c). replace (x - c + c) with x in H by ring. lra.
Qed.
Lemma intR_by_parts (F f : R -> R) : (forall x, is_derive F x (f x)) -> (forall x, continuous f x) -> vanishes F -> intR f 0.
Proof. intros D Cf V. replace 0 with (0 - 0) by ring. apply (intR_derive F); [exact D|exact Cf|apply van_m|apply van_p]; exact V. Qed.

(** [z ^ n / n! <= exp z] *)
Lemma exp_pow z n : 0 <= z -> z ^ n <= INR (fact n) * exp z.
Proof.
  intros Hz. enough (H : z ^ n / INR (fact n) <= exp z).
  { apply Rmult_le_reg_r with (/ INR (fact n)); [apply Rinv_0_lt_compat, INR_fact_lt_0|].
    replace (INR (fact n) * exp z * / INR (fact n)) with (exp z) by (field; apply INR_fact_neq_0). exact H. }
  eapply Rle_trans; [|apply (exp_ge_taylor z n Hz)].
  assert (Pos : forall k, 0 <= z ^ k / INR (fact k)).
  { intros k. apply Rmult_le_pos; [apply pow_le; exact Hz|left; apply Rinv_0_lt_compat, INR_fact_lt_0]. }
  destruct n as [|n]; [cbn [sum_f_R0]; right; reflexivity|]. rewrite tech5.
  enough (0 <= sum_f_R0 (fun k => z ^ k / INR (fact k)) n) by lra. apply cond_pos_sum. exact Pos.
Qed.
Lemma gauss_van p k : 0 < p -> vanishes (fun y => y ^ k * exp (- p * y ^ 2)).
Proof.
  intros Hp eps He. set (Cst := INR (fact (S k)) / p ^ S k).
  assert (PP : 0 < p ^ S k) by (apply pow_lt; exact Hp).
  assert (HC : 0 < Cst) by (apply Rdiv_lt_0_compat; [apply INR_fact_lt_0|exact PP]).
  exists (Rmax 1 (Cst / eps)). intros y Y.
  assert (Y1 : 1 < Rabs y) by (eapply Rle_lt_trans; [apply Rmax_l|exact Y]).
  assert (Y2 : Cst / eps < Rabs y) by (eapply Rle_lt_trans; [apply Rmax_r|exact Y]).
  assert (B : Rabs y ^ (2 * S k) * exp (- p * y ^ 2) <= Cst).
  { assert (E := exp_pow (p * y ^ 2) (S k) ltac:(nra)). rewrite Rpow_mult_distr in E.
    replace (Rabs y ^ (2 * S k)) with ((y ^ 2) ^ S k).
    2:{ rewrite <- pow_mult, RPow_abs, Rabs_right; [reflexivity|]. rewrite pow_mult. apply Rle_ge, pow_le. nra. }
    replace (- p * y ^ 2) with (- (p * y ^ 2)) by ring. rewrite exp_Ropp. unfold Cst.
    apply Rmult_le_reg_r with (exp (p * y ^ 2) * p ^ S k); [apply Rmult_lt_0_compat; [apply exp_pos|exact PP]|].
    apply Rle_trans with (p ^ S k * (y ^ 2) ^ S k); [right; field; apply Rgt_not_eq, exp_pos|].
    eapply Rle_trans; [exact E|]. right. field. lra. }
  rewrite Rabs_mult, <- RPow_abs, (Rabs_right (exp _)) by (apply Rle_ge; left; apply exp_pos).
  apply Rle_lt_trans with (Cst / Rabs y).
  - apply Rmult_le_reg_r with (Rabs y); [lra|]. unfold Rdiv. rewrite Rmult_assoc, (Rmult_comm (exp _)), <- Rmult_assoc.
    replace (Cst * / Rabs y * Rabs y) with Cst by (field; lra). eapply Rle_trans; [|exact B].
    apply Rmult_le_compat_r; [left; apply exp_pos|]. rewrite Rmult_comm. change (Rabs y * Rabs y ^ k) with (Rabs y ^ S k).
    apply Rle_pow; [lra|lia].
  - apply Rmult_lt_reg_r with (Rabs y); [lra|]. replace (Cst / Rabs y * Rabs y) with Cst by (field; lra).
    apply Rmult_lt_reg_r with (/ eps); [apply Rinv_0_lt_compat; exact He|]. replace (eps * Rabs y * / eps) with (Rabs y) by (field; lra). exact Y2.
Qed.

(** ** The Gaussian integral *)
Definition gerf (x : R) : R := RInt (fun t => exp (- t ^ 2)) 0 x.
Lemma RInt_scal_R (f : R -> R) (a b c : R) : ex_RInt f a b -> RInt (fun t => c * f t) a b = c * RInt f a b.
Proof. exact (@RInt_scal R_CompleteNormedModule f a b c). Qed.
Lemma RInt_lin_R (f : R -> R) (u v a b : R) : ex_RInt f (u * a + v) (u * b + v) -> RInt (fun y => u * f (u * y + v)) a b = RInt f (u * a + v) (u * b + v).
Proof. exact (@RInt_comp_lin R_CompleteNormedModule f u v a b). Qed.
Lemma gcont x : continuous (fun t => exp (- t ^ 2)) x.
Proof. apply @ex_derive_continuous. auto_derive. exact I. Qed.
Lemma gerf_derive (x : R) : is_derive gerf x (exp (- x ^ 2)).
Proof.
  apply (is_derive_RInt (fun t => exp (- t ^ 2)) gerf 0 x).
  - apply filter_forall. intros y. unfold gerf. apply (@RInt_correct R_CompleteNormedModule). apply (@ex_RInt_continuous R_CompleteNormedModule). intros; apply gcont.
  - apply gcont.
Qed.
Definition gpar (x t : R) : R := exp (- x ^ 2 * (1 + t ^ 2)) / (1 + t ^ 2).
Lemma gpar_dx (t x : R) : is_derive (fun x => gpar x t) x (- 2 * x * exp (- x ^ 2 * (1 + t ^ 2))).
Proof. unfold gpar. auto_derive; [nra|]. cbn [pow]. unfold Rminus. field. nra. Qed.
Lemma gpar_derive (x : R) : is_derive (fun x => RInt (gpar x) 0 1) x (- 2 * exp (- x ^ 2) * gerf x).
Proof.
  assert (E : RInt (fun t => Derive (fun u => gpar u t) x) 0 1 = - 2 * exp (- x ^ 2) * gerf x).
  { rewrite (RInt_ext _ (fun t => - 2 * exp (- x ^ 2) * (x * exp (- (x * t + 0) ^ 2)))).
    - rewrite RInt_scal_R.
      + rewrite (RInt_lin_R (fun t => exp (- t ^ 2))) by (apply (@ex_RInt_continuous R_CompleteNormedModule); intros; apply gcont).
        unfold gerf. do 2 f_equal; ring.
      + apply (@ex_RInt_continuous R_CompleteNormedModule). intros. apply @ex_derive_continuous. auto_derive. exact I.
    - intros t _. refine (eq_trans (is_derive_unique _ _ _ (gpar_dx t x)) _).
      replace (- x ^ 2 * (1 + t ^ 2)) with (- x ^ 2 + - (x * t + 0) ^ 2) by ring.
      rewrite exp_plus. ring. }
  rewrite <- E. apply (is_derive_RInt_param gpar 0 1 x).
  - apply filter_forall. intros y t _. eexists. apply gpar_dx.
  - intros t _. apply (continuity_2d_pt_ext (fun u v => - 2 * u * exp (- u ^ 2 * (1 + v ^ 2)))).
    + intros u v. symmetry. apply is_derive_unique, gpar_dx.
    + apply continuity_2d_pt_mult.
      * apply continuity_2d_pt_mult; [apply continuity_2d_pt_const|apply continuity_2d_pt_id1].
      * apply (continuity_1d_2d_pt_comp exp (fun u v => - u ^ 2 * (1 + v ^ 2))).
        { apply derivable_continuous_pt, derivable_pt_exp. }
        apply continuity_2d_pt_mult.
        { apply continuity_2d_pt_opp. apply (continuity_2d_pt_ext (fun u v => u * u)); [intros; ring|].
          apply continuity_2d_pt_mult; apply continuity_2d_pt_id1. }
        apply continuity_2d_pt_plus; [apply continuity_2d_pt_const|]. apply (continuity_2d_pt_ext (fun u v => v * v)); [intros; ring|].
        apply continuity_2d_pt_mult; apply continuity_2d_pt_id2.
  - apply filter_forall. intros y. apply (@ex_RInt_continuous R_CompleteNormedModule). intros z _. apply @ex_derive_continuous. unfold gpar. auto_derive. nra.
Qed.
Lemma gerf_0 : gerf 0 = 0.
Proof. unfold gerf. rewrite RInt_point. reflexivity. Qed.
Lemma gpar_0 : RInt (gpar 0) 0 1 = PI / 4.
Proof.
  apply is_RInt_unique. apply (is_RInt_ext (fun t => / (1 + t²))).
  - intros t _. change (/ (1 + t²) = gpar 0 t :> R). unfold gpar. replace (- 0 ^ 2 * (1 + t ^ 2)) with 0 by ring. rewrite exp_0. unfold Rsqr. field. nra.
  - evar_last.
    + apply (is_RInt_derive atan).
      * intros x _. apply is_derive_atan.
      * intros x _. apply @ex_derive_continuous. unfold Rsqr. auto_derive. nra.
    + unfold minus, plus, opp; cbn. rewrite atan_1, atan_0. ring.
Qed.
Lemma gerf_sq x : gerf x * gerf x + RInt (gpar x) 0 1 = PI / 4.
Proof.
  set (F := fun x => gerf x * gerf x + RInt (gpar x) 0 1).
  assert (D : forall x : R, is_derive F x 0).
  { intros y. unfold F. evar_last.
    - apply @is_derive_plus; [apply @is_derive_mult; [apply gerf_derive|apply gerf_derive|intros; apply Rmult_comm]|apply gpar_derive].
    - unfold plus, mult; cbn. ring. }
  assert (F0 : F 0 = PI / 4) by (unfold F; rewrite gerf_0, gpar_0; ring).
  change (F x = PI / 4). rewrite <- F0. destruct (Rtotal_order x 0) as [L|[->|L]]; [|reflexivity|].
  - apply (eq_is_derive F x 0); [intros; apply D|exact L].
  - symmetry. apply (eq_is_derive F 0 x); [intros; apply D|exact L].
Qed.
Lemma gpar_bound x : 0 <= RInt (gpar x) 0 1 <= exp (- x ^ 2).
Proof.
  assert (Ex : ex_RInt (gpar x) 0 1).
  { apply (@ex_RInt_continuous R_CompleteNormedModule). intros z _. apply @ex_derive_continuous. unfold gpar. auto_derive. nra. }
  split.
  - apply RInt_ge_0; [lra|exact Ex|]. intros t _. unfold gpar. apply Rmult_le_pos; [left; apply exp_pos|]. left. apply Rinv_0_lt_compat. nra.
  - apply Rle_trans with (RInt (fun _ => exp (- x ^ 2)) 0 1).
    + apply RInt_le; [lra|exact Ex|apply ex_RInt_const|]. intros t _. unfold gpar.
      apply Rmult_le_reg_r with (1 + t ^ 2); [nra|]. replace (exp (- x ^ 2 * (1 + t ^ 2)) / (1 + t ^ 2) * (1 + t ^ 2)) with (exp (- x ^ 2 * (1 + t ^ 2))) by (field; nra).
      apply Rle_trans with (exp (- x ^ 2) * 1).
      * rewrite Rmult_1_r. destruct (Rle_lt_or_eq_dec 0 (x ^ 2 * t ^ 2)) as [L|L]; [nra| |].
        { left. apply exp_increasing. nra. } { right. f_equal. nra. }
      * apply Rmult_le_compat_l; [left; apply exp_pos|nra].
    + rewrite RInt_const. unfold scal; cbn. unfold mult; cbn. lra.
Qed.
Lemma gerf_pos x : 0 <= x -> 0 <= gerf x.
Proof.
  intros H. apply RInt_ge_0; [exact H| |intros; left; apply exp_pos]. apply (@ex_RInt_continuous R_CompleteNormedModule). intros; apply gcont.
Qed.
Lemma gerf_odd x : gerf (- x) = - gerf x.
Proof.
  unfold gerf. rewrite <- (Rmult_0_r (-1)) at 1. replace (- x) with (-1 * x) by ring.
  replace (-1 * 0) with (-1 * 0 + 0) by ring. replace (-1 * x) with (-1 * x + 0) by ring.
  rewrite <- (RInt_lin_R (fun t => exp (- t ^ 2))) by (apply (@ex_RInt_continuous R_CompleteNormedModule); intros; apply gcont).
  rewrite (RInt_ext _ (fun t => -1 * exp (- t ^ 2))).
  - rewrite RInt_scal_R by (apply (@ex_RInt_continuous R_CompleteNormedModule); intros; apply gcont). ring.
  - intros t _. do 2 f_equal. ring.
Qed.
Lemma gerf_near eps : 0 < eps -> exists M, forall x, M < x -> Rabs (gerf x - sqrt PI / 2) < eps.
Proof.
  intros He. assert (P0 : 0 < sqrt PI) by (apply sqrt_lt_R0, PI_RGT_0).
  destruct (gauss_van 1 0 ltac:(lra) (eps * (sqrt PI / 2)) ltac:(nra)) as (M & HM). exists (Rmax 0 M). intros x X.
  assert (X0 : 0 < x) by (eapply Rle_lt_trans; [apply Rmax_l|exact X]).
  assert (XM : M < Rabs x) by (rewrite Rabs_right by lra; eapply Rle_lt_trans; [apply Rmax_r|exact X]).
  specialize (HM x XM). rewrite pow_O, Rmult_1_l in HM. replace (- (1) * x ^ 2) with (- x ^ 2) in HM by ring.
  rewrite Rabs_right in HM by (apply Rle_ge; left; apply exp_pos).
  pose proof (gerf_sq x) as Q. pose proof (gpar_bound x) as [B0 B1]. pose proof (gerf_pos x ltac:(lra)) as G0.
  assert (SQ : sqrt PI * sqrt PI = PI) by (apply sqrt_sqrt; left; apply PI_RGT_0).
  set (g := gerf x) in *. set (s := sqrt PI) in *. set (r := RInt (gpar x) 0 1) in *.
  assert (E : (s / 2 - g) * (s / 2 + g) = r) by nra.
  assert (0 <= s / 2 - g) by nra. rewrite Rabs_left1 by lra.
  assert ((s / 2 - g) * (s / 2) <= r) by nra. nra.
Qed.
Lemma gerf_lim_p : filterlim gerf (Rbar_locally p_infty) (locally (sqrt PI / 2)).
Proof.
  intros Q [e H]. destruct (gerf_near e (cond_pos e)) as (M & HM). exists M. intros x X. apply H. apply HM. exact X.
Qed.
Lemma gerf_lim_m : filterlim gerf (Rbar_locally m_infty) (locally (- (sqrt PI / 2))).
Proof.
  intros Q [e H]. destruct (gerf_near e (cond_pos e)) as (M & HM). exists (- M). intros x X. apply H.
  change (Rabs (gerf x - - (sqrt PI / 2)) < e). replace x with (- - x) by ring. rewrite gerf_odd.
  replace (- gerf (- x) - - (sqrt PI / 2)) with (- (gerf (- x) - sqrt PI / 2)) by ring. rewrite Rabs_Ropp. apply HM. lra.
Qed.

(** ** Hermite Gaussians *)
Section Gauss.
Variables (p P : R).
Hypothesis Hp : 0 < p.
Lemma lam_van t k : vanishes (fun x => (x - P) ^ k * lam p t P x).
Proof.
  revert k. induction t as [|t I1 I2] using nat_ind2; intros k.
  - apply (van_shift P (fun y => y ^ k * exp (- p * y ^ 2))). apply gauss_van. exact Hp.
  - destruct t as [|t].
    + apply (van_ext (fun x => 2 * p * ((x - P) ^ S k * lam p 0 P x))); [|apply van_scal, I1].
      intros x. rewrite (lam_S p 0). cbn [INR pow]. ring.
    + replace (S t - 1)%nat with t in I2 by lia.
      apply (van_ext (fun x => 2 * p * ((x - P) ^ S k * lam p (S t) P x) + (- (2 * p) * INR (S t)) * ((x - P) ^ k * lam p t P x))).
      * intros x. rewrite (lam_S p (S t)). cbn [pow]. ring.
      * apply van_plus; apply van_scal; [apply I1|apply I2].
Qed.
Lemma lam_van0 t : vanishes (fun x => lam p t P x).
Proof. apply (van_ext (fun x => (x - P) ^ 0 * lam p t P x)); [intros; cbn; ring|apply lam_van]. Qed.
Lemma lam_cont t x : continuous (fun x => lam p t P x) x.
Proof. apply @ex_derive_continuous. eexists. apply lam_derive_x. Qed.
Lemma gauss_int : intR (fun x => lam p 0 P x) (sqrt (PI / p)).
Proof.
  assert (S0 : 0 < sqrt p) by (apply sqrt_lt_R0; exact Hp).
  assert (SS : sqrt p * sqrt p = p) by (apply sqrt_sqrt; lra).
  replace (sqrt (PI / p)) with (/ sqrt p * (sqrt PI / 2) - / sqrt p * (- (sqrt PI / 2))).
  2:{ rewrite sqrt_div_alt by exact Hp. field. lra. }
  apply (intR_derive (fun x => / sqrt p * gerf (sqrt p * (x - P)))).
  - intros x. evar_last.
    + apply is_derive_scal. apply (is_derive_comp gerf (fun x => sqrt p * (x - P))); [apply gerf_derive|]. auto_derive; [exact I|reflexivity].
    + rewrite lam_0. unfold scal; cbn; unfold mult; cbn.
      replace (- (sqrt p * (x - P) * (sqrt p * (x - P) * 1))) with (- p * ((x - P) * ((x - P) * 1))) by (rewrite <- SS at 1; ring). field. lra.
  - apply lam_cont.
  - apply (filterlim_comp _ _ _ (fun x => gerf (sqrt p * (x - P))) (fun y => / sqrt p * y) _ (locally (- (sqrt PI / 2)))).
    + apply (filterlim_comp _ _ _ (fun x => sqrt p * (x - P)) gerf _ (Rbar_locally m_infty)); [|apply gerf_lim_m].
      intros Q [M HM]. exists (M / sqrt p + P). intros x X. apply HM.
      apply Rmult_lt_reg_r with (/ sqrt p); [apply Rinv_0_lt_compat; exact S0|]. replace (sqrt p * (x - P) * / sqrt p) with (x - P) by (field; lra).
      unfold Rdiv in X. lra.
    + apply (@ex_derive_continuous R_AbsRing R_NormedModule (fun y => / sqrt p * y) (- (sqrt PI / 2))). auto_derive. exact I.
  - apply (filterlim_comp _ _ _ (fun x => gerf (sqrt p * (x - P))) (fun y => / sqrt p * y) _ (locally (sqrt PI / 2))).
    + apply (filterlim_comp _ _ _ (fun x => sqrt p * (x - P)) gerf _ (Rbar_locally p_infty)); [|apply gerf_lim_p].
      intros Q [M HM]. exists (M / sqrt p + P). intros x X. apply HM.
      apply Rmult_lt_reg_r with (/ sqrt p); [apply Rinv_0_lt_compat; exact S0|]. replace (sqrt p * (x - P) * / sqrt p) with (x - P) by (field; lra).
      unfold Rdiv in X. lra.
    + apply (@ex_derive_continuous R_AbsRing R_NormedModule (fun y => / sqrt p * y) (sqrt PI / 2)). auto_derive. exact I.
Qed.
Lemma lam_int t : intR (fun x => lam p (S t) P x) 0.
Proof.
  apply (intR_by_parts (fun x => -1 * lam p t P x)).
  - intros x. evar_last; [apply is_derive_scal, lam_derive_x|]. ring.
  - apply lam_cont.
  - apply van_scal, lam_van0.
Qed.
(** The multipole recursion. *)
Fixpoint Msp (X : R) (e t : nat) : R :=
  match e with
  | O => if Nat.eqb t 0 then sqrt (PI / p) else 0
  | S e' => INR t * Msp X e' (t - 1) + X * Msp X e' t + 1 / (2 * p) * Msp X e' (t + 1)
  end.
Lemma Msp_int (Cx : R) e t : intR (fun x => (x - Cx) ^ e * lam p t P x) (Msp (P - Cx) e t).
Proof.
  revert t. induction e as [|e IH]; intros t.
  - cbn [Msp]. apply (intR_ext (fun x => lam p t P x)); [intros; cbn; ring|]. destruct t as [|t]; cbn [Nat.eqb]; [apply gauss_int|apply lam_int].
  - cbn [Msp].
    apply (intR_ext (fun x => INR t * ((x - Cx) ^ e * lam p (t - 1) P x) + (P - Cx) * ((x - Cx) ^ e * lam p t P x) + 1 / (2 * p) * ((x - Cx) ^ e * lam p (t + 1) P x))).
    + intros x. replace (t + 1)%nat with (S t) by lia. cbn [pow].
      replace ((x - Cx) * (x - Cx) ^ e * lam p t P x) with ((x - Cx) ^ e * ((x - P) * lam p t P x + (P - Cx) * lam p t P x)) by ring.
      rewrite (lam_mul p t P x) by lra. destruct t as [|t]; [cbn [INR]; field; lra|]. replace (S t - 1)%nat with t by lia. ring.
    + exact (intR_plus _ _ _ _ (intR_plus _ _ _ _ (intR_scal _ _ _ (IH (t - 1)%nat)) (intR_scal _ _ _ (IH t))) (intR_scal _ _ _ (IH (t + 1)%nat))).
Qed.
Lemma Msp_zero X e : forall t, (e < t)%nat -> Msp X e t = 0.
Proof.
  induction e as [|e IH]; intros t H; cbn [Msp].
  - destruct (Nat.eqb_spec t 0); [lia|reflexivity].
  - rewrite !IH by lia. ring.
Qed.
End Gauss.

Lemma m_sorted n : StronglySorted lexlt (flat_map (fun e => map (fun t => [e; t]) (seq 0 (e + 1))) (seq 0 n)).
Proof.
  apply sorted_flat.
  - intros i. generalize (i + 1)%nat as m. intros m. generalize 0%nat. induction m as [|m IH]; intros a; cbn [seq map]; constructor; [apply IH|].
    apply Forall_forall. intros y Y. apply in_map_iff in Y. destruct Y as (z & <- & Z). apply in_seq in Z. cbn. right. split; [reflexivity|left; lia].
  - intros i k H. apply in_map_iff in H. destruct H as (r & <- & _). eauto.
Qed.
Lemma hermite_multipole_ok mem A_x B_x C_x a b order e t : (t <= e)%nat -> (e <= order)%nat ->
  hermite_multipole_integral mem A_x B_x C_x a b order [e; t] = Msp (a + b) ((a * A_x + b * B_x) / (a + b) - C_x) e t.
Proof.
  intros Ht He. unfold hermite_multipole_integral. set (p := a + b). set (X := (a * A_x + b * B_x) / p - C_x).
  set (keys := flat_map _ _). set (T0 := zeros _ mem). set (T := fill _ keys T0).
  assert (K : forall e t, In [e; t] keys <-> (e <= order /\ t <= e)%nat).
  { clear. intros e t. unfold keys. rewrite in_flat_map. split.
    - intros (i & I & H). apply in_seq in I. apply in_map_iff in H. destruct H as (s & E & H). apply in_seq in H. injection E as <- <-. lia.
    - intros H. exists e. split; [apply in_seq; lia|]. apply in_map_iff. exists t. split; [reflexivity|apply in_seq; lia]. }
  assert (F : forall e t, (e <= order)%nat -> (t <= e)%nat -> T [e; t] = m_value p X T [e; t]).
  { intros e' t' H1 H2. unfold T. apply fill_fix.
    - apply m_sorted.
    - intros U U' k H. unfold m_value. destruct k as [|i [|s [|]]]; try reflexivity.
      destruct (Nat.eqb_spec i 0) as [->|Ni]; [destruct (Nat.eqb s 0); reflexivity|]. cbn [andb].
      rewrite !(H [(i - 1)%nat; _]) by (cbn; lia). reflexivity.
    - apply K. lia. }
  assert (O : forall e, (e < order)%nat -> T [e; S e] = 0).
  { intros e' H. unfold T. rewrite fill_other by (rewrite K; lia). apply zeros_in. f2; lia. }
  revert t Ht. induction e as [|e IH]; intros t Ht.
  - replace t with 0%nat by lia. rewrite F by lia. cbn. reflexivity.
  - rewrite F by lia. cbn [m_value Nat.eqb andb Msp]. replace (S e - 1)%nat with e by lia.
    assert (R1 : T [e; t] = Msp p X e t).
    { destruct (Nat.eq_dec t (S e)) as [->|N]; [rewrite O by lia; symmetry; apply Msp_zero; lia|apply IH; lia]. }
    rewrite R1. destruct (Nat.leb_spec (t + 1) e) as [L|L].
    + rewrite (IH ltac:(lia) (t + 1)%nat) by lia. destruct t as [|t]; cbn [Nat.ltb Nat.leb]; [cbn [INR]; ring|].
      replace (S t - 1)%nat with t by lia. rewrite (IH ltac:(lia) t) by lia. ring.
    + rewrite (Msp_zero p X e (t + 1)) by lia. destruct t as [|t]; cbn [Nat.ltb Nat.leb]; [cbn [INR]; ring|].
      replace (S t - 1)%nat with t by lia. rewrite (IH ltac:(lia) t) by lia. ring.
Qed.
