(** Proofs that the nuclear attraction and electron repulsion integrals built on
    the exact Boys functions are Coulomb integrals, with [1 / r] written as
    [2 / sqrt PI * int_0^oo exp (- w^2 r^2) dw]. *)
From Coq Require Import List Bool Arith Lia Reals Lra Psatz.
From Coquelicot Require Import Coquelicot.
Require Import Verif.IntegralModel Verif.IntegralProofs Verif.GaussProofs Verif.OneElectron Verif.TwoElectron Verif.Coulomb.
Import ListNotations.
Local Open Scope R_scope.

(** Integral over the half line. *)
Definition int0 (f : R -> R) (v : R) : Prop := is_RInt_gen f (at_point 0) (Rbar_locally p_infty) v.
Lemma int0_ext f g v : (forall x, f x = g x) -> int0 f v -> int0 g v.
Proof. intros E H. apply (is_RInt_gen_ext f); [|exact H]. apply filter_forall. intros; apply E. Qed.
Lemma int0_plus f g u v : int0 f u -> int0 g v -> int0 (fun x => f x + g x) (u + v).
Proof. intros F G. exact (is_RInt_gen_plus f g u v F G). Qed.
Lemma int0_scal c f v : int0 f v -> int0 (fun x => c * f x) (c * v).
Proof. intros F. exact (is_RInt_gen_scal f c v F). Qed.
Lemma int0_zero : int0 (fun _ => 0) 0.
Proof.
  intros P [e H]. exists (fun _ => True) (fun _ => True); [exact I|exists 0; auto|]. intros x y _ _. exists 0. split.
  - evar_last; [apply @is_RInt_const|]. unfold scal; cbn. unfold mult; cbn. ring.
  - apply H. apply ball_center.
Qed.
Lemma int0_lsum X (F : X -> R -> R) (v : X -> R) L : (forall m, In m L -> int0 (F m) (v m)) -> int0 (fun w => lsum (fun m => F m w) L) (lsum v L).
Proof.
  induction L as [|m L IH]; intros H; cbn [lsum]; [apply int0_zero|].
  apply (int0_plus (F m) (fun w => lsum (fun m => F m w) L)); [apply H; left; reflexivity|apply IH; intros; apply H; right; assumption].
Qed.
Lemma int0_unique f u v : int0 f u -> int0 f v -> u = v.
Proof. intros F G. rewrite <- (is_RInt_gen_unique f u F). apply (is_RInt_gen_unique f v G). Qed.
Section Subst.
Variable al : R.
Hypothesis Hal : 0 < al.
Let A (w : R) : R := al + w ^ 2.
Let s (w : R) : R := w / sqrt (A w).
Lemma A_pos w : 0 < A w.
Proof. unfold A. nra. Qed.
Lemma s_derive (w : R) : is_derive s w (al / (A w * sqrt (A w))).
Proof.
  pose proof (A_pos w) as P. unfold s, A in *. pose proof (sqrt_lt_R0 _ P) as S.
  auto_derive. { split; [|split; [|exact I]]; cbn [pow] in *; [lra|apply Rgt_not_eq; exact S]. }
  replace (al + w * (w * 1)) with (al + w ^ 2) by ring. set (q := sqrt (al + w ^ 2)) in *.
  assert (Q : q * q = al + w ^ 2) by (apply sqrt_sqrt; lra). rewrite <- Q.
  assert (E : q * q - w ^ 2 = al) by (rewrite Q; ring).
  replace (al / (q * q * q)) with ((q * q - w ^ 2) / (q * q * q)) by (rewrite E; reflexivity). field. apply Rgt_not_eq; exact S.
Qed.
Lemma s_lim : filterlim s (Rbar_locally p_infty) (locally 1).
Proof.
  intros P [e H]. exists (Rmax 1 (al / e)). intros w Hw. apply H. change (Rabs (s w - 1) < e).
  pose proof (Rmax_l 1 (al / e)). pose proof (Rmax_r 1 (al / e)). pose proof (A_pos w) as PA. pose proof (sqrt_lt_R0 _ PA) as S.
  assert (Q : sqrt (A w) * sqrt (A w) = A w) by (apply sqrt_sqrt; lra). set (q := sqrt (A w)) in *. unfold A in Q.
  assert (qw : w < q) by nra. assert (He : 0 < e) by apply cond_pos.
  assert (B : al < w * e). { apply (Rmult_lt_reg_r (/ e)); [apply Rinv_0_lt_compat; exact He|]. replace (w * e * / e) with w by (field; lra). unfold Rdiv in *. lra. }
  unfold s. fold q. rewrite Rabs_left; [|apply (Rmult_lt_reg_r q); [exact S|]; replace ((w / q - 1) * q) with (w - q) by (field; lra); lra].
  apply (Rmult_lt_reg_r q); [exact S|]. replace (- (w / q - 1) * q) with (q - w) by (field; lra).
  assert (E : (q - w) * (q + w) = al) by nra. nra.
Qed.
Lemma int0_subst K : nice K -> int0 (fun w => al / (A w * sqrt (A w)) * K (s w)) (RInt K 0 1).
Proof.
  intros NK. set (G := fun x => RInt K 0 x).
  assert (GD : forall x : R, is_derive G x (K x)).
  { intros x. apply (is_derive_RInt K G 0 x).
    - apply filter_forall. intros y. apply (@RInt_correct R_CompleteNormedModule). apply nice_ex, NK.
    - apply NK. }
  assert (D : forall w : R, is_derive (fun w => G (s w)) w (al / (A w * sqrt (A w)) * K (s w))).
  { intros w. apply (is_derive_comp G s w (K (s w))); [apply GD|apply s_derive]. }
  assert (Cn : nice (fun w => al / (A w * sqrt (A w)) * K (s w))).
  { apply nice_mult.
    - intros w. apply @ex_derive_continuous. pose proof (A_pos w) as PA. pose proof (sqrt_lt_R0 _ PA). unfold A in *. auto_derive.
      cbn [pow] in *. split; [lra|]. split; [|exact I]. apply Rgt_not_eq, Rmult_lt_0_compat; lra.
    - intros w. apply (continuous_comp s K); [apply @ex_derive_continuous; eexists; apply s_derive|apply NK]. }
  intros P HP.
  assert (L1 : filterlim (fun w => G (s w)) (Rbar_locally p_infty) (locally (G 1))).
  { apply (filterlim_comp _ _ _ s G _ (locally 1)); [apply s_lim|]. apply (@ex_derive_continuous _ R_NormedModule G 1). eexists. apply GD. }
  pose proof (L1 P HP) as E. unfold filtermap in E.
  exists (fun x => x = 0) (fun w => P (G (s w))); [reflexivity|exact E|]. intros x y -> Hy. cbn. exists (G (s y)). split; [|exact Hy].
  assert (Z : G (s 0) = 0). { unfold s, G. replace (0 / sqrt (A 0)) with 0 by (unfold Rdiv; ring). rewrite RInt_point. reflexivity. }
  replace (G (s y)) with (minus (G (s y)) (G (s 0))) by (rewrite Z; unfold minus, plus, opp; cbn; ring).
  apply (is_RInt_derive (fun w => G (s w))); intros w _; [apply D|apply Cn].
Qed.
End Subst.
(** [1 / r] as an integral over Gaussians. *)
Lemma coulomb_kernel r : 0 < r -> int0 (fun w => 2 / sqrt PI * exp (- w ^ 2 * r ^ 2)) (/ r).
Proof.
  intros Hr. assert (P0 : 0 < sqrt PI) by (apply sqrt_lt_R0, PI_RGT_0).
  intros P HP.
  set (G := fun w => 2 / sqrt PI * (/ r * gerf (r * w))).
  assert (D : forall w : R, is_derive G w (2 / sqrt PI * exp (- w ^ 2 * r ^ 2))).
  { intros w. unfold G. evar_last; [apply is_derive_scal, is_derive_scal; apply (is_derive_comp gerf (fun w => r * w) w); [apply gerf_derive|auto_derive; [exact I|reflexivity]]|].
    unfold scal; cbn. unfold mult; cbn. replace (- (r * w * (r * w * 1))) with (- (w * (w * 1)) * (r * (r * 1))) by ring. field. lra. }
  assert (L1 : filterlim G (Rbar_locally p_infty) (locally (/ r))).
  { intros Q [e H]. assert (H2 : 0 < e * r * sqrt PI / 2) by (pose proof (cond_pos e); apply Rdiv_lt_0_compat; [repeat apply Rmult_lt_0_compat; lra|lra]).
    destruct (gerf_near _ H2) as (M & HM). exists (M / r). intros w Hw. apply H. change (Rabs (G w - / r) < e). unfold G.
    replace (2 / sqrt PI * (/ r * gerf (r * w)) - / r) with (2 / (sqrt PI * r) * (gerf (r * w) - sqrt PI / 2)) by (field; split; lra).
    assert (C0 : 0 < 2 / (sqrt PI * r)) by (apply Rdiv_lt_0_compat; [lra|apply Rmult_lt_0_compat; lra]).
    rewrite Rabs_mult, (Rabs_pos_eq (2 / (sqrt PI * r))) by lra.
    assert (K : Rabs (gerf (r * w) - sqrt PI / 2) < e * r * sqrt PI / 2).
    { apply HM. apply (Rmult_lt_reg_r (/ r)); [apply Rinv_0_lt_compat; exact Hr|]. replace (r * w * / r) with w by (field; lra). exact Hw. }
    apply (Rmult_lt_compat_l _ _ _ C0) in K. replace (2 / (sqrt PI * r) * (e * r * sqrt PI / 2)) with (pos e) in K by (field; split; lra). exact K. }
  pose proof (L1 P HP) as E. unfold filtermap in E.
  exists (fun x => x = 0) (fun w => P (G w)); [reflexivity|exact E|]. intros x y -> Hy. cbn -[pow]. exists (G y). split; [|exact Hy].
  assert (Z : G 0 = 0). { unfold G. rewrite Rmult_0_r, gerf_0. ring. }
  replace (G y) with (minus (G y) (G 0)) by (rewrite Z; unfold minus, plus, opp; cbn; ring).
  apply (is_RInt_derive G); intros w _; [apply D|]. apply @ex_derive_continuous. auto_derive. exact I.
Qed.

(** A product of two basis functions as a sum of Hermite Gaussians. *)
Definition hval (m : hterm) (x y z : R) : R := hw m * (lam (hp m) (ht m) (hx m) x * lam (hp m) (hu m) (hy m) y * lam (hp m) (hv m) (hz m) z).
Lemma dens_ok s1 s2 a b x y z : positive s1 -> positive s2 -> amplitude s1 a x y z * amplitude s2 b x y z = lsum (fun m => hval m x y z) (dens s1 s2 a b).
Proof.
  intros P1 P2. destruct (angm s1 a) as [[x1 y1] z1] eqn:E1, (angm s2 b) as [[x2 y2] z2] eqn:E2.
  rewrite (lsum_dens s1 s2 a b _ _ _ _ _ _ _ E1 E2). cbv zeta.
  rewrite (amplitude_gau s1 a x y z _ _ _ P1 E1), (amplitude_gau s2 b x y z _ _ _ P2 E2), sm_prod2.
  apply sm_ext. intros i Hi. apply sm_ext. intros j Hj. pose proof (ex_pos s1 i P1 Hi). pose proof (ex_pos s2 j P2 Hj).
  assert (N : ex s1 i + ex s2 j <> 0) by lra.
  transitivity (cc s1 i * cc s2 j * (s_norm s1 a i * s_norm s2 b j)
    * ((gau x1 (ex s1 i) (vx (s_center s1)) x * gau x2 (ex s2 j) (vx (s_center s2)) x)
      * (gau y1 (ex s1 i) (vy (s_center s1)) y * gau y2 (ex s2 j) (vy (s_center s2)) y)
      * (gau z1 (ex s1 i) (vz (s_center s1)) z * gau z2 (ex s2 j) (vz (s_center s2)) z))); [ring|].
  rewrite !gau_prod by exact N. rewrite <- sm_prod3, <- sm_scal. replace (S (x1 + x2)) with (x1 + x2 + 1)%nat by lia. replace (S (y1 + y2)) with (y1 + y2 + 1)%nat by lia. replace (S (z1 + z2)) with (z1 + z2 + 1)%nat by lia. apply sm_ext. intros t _.
  rewrite <- sm_scal. apply sm_ext. intros u _. rewrite <- sm_scal. apply sm_ext. intros v _. unfold hval. cbn [hw hp hx hy hz ht hu hv]. ring.
Qed.
(** One Hermite Gaussian against a Gaussian centred on the nucleus. *)
Definition nuc_kern (C : v3) (m : hterm) (s : R) : R :=
  lam (hp m * s ^ 2) (ht m) (hx m - vx C) 0 * lam (hp m * s ^ 2) (hu m) (hy m - vy C) 0 * lam (hp m * s ^ 2) (hv m) (hz m - vz C) 0.
Lemma nice_nuc C m : nice (nuc_kern C m).
Proof. unfold nuc_kern. repeat apply nice_mult; apply nice_lam. Qed.
Definition nucJ (C : v3) (m : hterm) (w : R) : R :=
  hw m * (sqrt PI ^ 3 / hp m) * (hp m / ((hp m + w ^ 2) * sqrt (hp m + w ^ 2)) * nuc_kern C m (w / sqrt (hp m + w ^ 2))).
Lemma nuc_gauss C m w : 0 < hp m -> 0 < w ->
  int3 (fun x y z => hval m x y z * exp (- w ^ 2 * ((x - vx C) ^ 2 + (y - vy C) ^ 2 + (z - vz C) ^ 2))) (nucJ C m w).
Proof.
  intros Hp Hw. assert (W : 0 < w ^ 2) by nra.
  apply (int3_ext (fun x y z => hw m * ((lam (hp m) (ht m) (hx m) x * lam (w ^ 2) 0 (vx C) x) * (lam (hp m) (hu m) (hy m) y * lam (w ^ 2) 0 (vy C) y)
     * (lam (hp m) (hv m) (hz m) z * lam (w ^ 2) 0 (vz C) z)))).
  { intros x y z. unfold hval. rewrite !(lam_0 (w ^ 2)).
    replace (- w ^ 2 * ((x - vx C) ^ 2 + (y - vy C) ^ 2 + (z - vz C) ^ 2)) with (- w ^ 2 * (x - vx C) ^ 2 + (- w ^ 2 * (y - vy C) ^ 2 + - w ^ 2 * (z - vz C) ^ 2)) by ring.
    rewrite !exp_plus. ring. }
  pose proof (int3_prod _ _ _ _ _ _ (gram_T (hp m) (w ^ 2) (hx m) (vx C) Hp W (ht m)) (gram_T (hp m) (w ^ 2) (hy m) (vy C) Hp W (hu m)) (gram_T (hp m) (w ^ 2) (hz m) (vz C) Hp W (hv m))) as K.
  apply (int3_scal (hw m)) in K. match type of K with int3 _ ?v => match goal with |- int3 _ ?u => replace u with v; [exact K|] end end.
  unfold nucJ, nuc_kern. assert (P : 0 < hp m + w ^ 2) by lra. pose proof (sqrt_lt_R0 _ P) as S. pose proof PI_RGT_0.
  assert (Q : sqrt (hp m + w ^ 2) * sqrt (hp m + w ^ 2) = hp m + w ^ 2) by (apply sqrt_sqrt; lra).
  rewrite (lam_shift _ _ _ (vx C)), (lam_shift _ _ _ (vy C)), (lam_shift _ _ _ (vz C)).
  replace (hp m * (w / sqrt (hp m + w ^ 2)) ^ 2) with (hp m * w ^ 2 / (hp m + w ^ 2)).
  2:{ unfold Rdiv. rewrite Rpow_mult_distr, pow_inv. rewrite <- (Rsqr_pow2 (sqrt _)), Rsqr_sqrt by lra. ring. }
  rewrite sqrt_div by lra.
  replace ((hp m + w ^ 2) * sqrt (hp m + w ^ 2)) with (sqrt (hp m + w ^ 2) ^ 3) by (transitivity ((sqrt (hp m + w ^ 2) * sqrt (hp m + w ^ 2)) * sqrt (hp m + w ^ 2)); [ring|rewrite Q; reflexivity]).
  field. split; lra.
Qed.
Lemma nucJ_int C m : 0 < hp m -> int0 (fun w => 2 / sqrt PI * nucJ C m w)
   (hw m * (2 * PI / hp m * Rsp boysF (hp m) (hx m - vx C) (hy m - vy C) (hz m - vz C) (ht m) (hu m) (hv m) 0)).
Proof.
  intros Hp. pose proof PI_RGT_0 as PI0. assert (P0 : 0 < sqrt PI) by (apply sqrt_lt_R0; exact PI0). assert (Q : sqrt PI * sqrt PI = PI) by (apply sqrt_sqrt; lra).
  pose proof (int0_scal (2 / sqrt PI * (hw m * (sqrt PI ^ 3 / hp m))) _ _ (int0_subst (hp m) Hp (nuc_kern C m) (nice_nuc C m))) as K.
  match type of K with int0 _ ?v => match goal with |- int0 _ ?u => replace u with v end end.
  - eapply int0_ext; [|exact K]. intros w. unfold nucJ. cbv beta. ring.
  - rewrite Rsp_int. rewrite (RInt_ext_R (fun s => _ ^ 0 * _) (nuc_kern C m)); [|intros s; unfold nuc_kern; rewrite pow_O; ring].
    replace (2 * PI) with (2 * (sqrt PI * sqrt PI)) by (rewrite Q; ring). field. split; lra.
Qed.

(** The attraction of the product of two basis functions by one nucleus. *)
Definition nuc_one (s1 s2 : shell) (a b : nat) (C : v3) : R :=
  lsum (fun m => hw m * (2 * PI / hp m * Rsp boysF (hp m) (hx m - vx C) (hy m - vy C) (hz m - vz C) (ht m) (hu m) (hv m) 0)) (dens s1 s2 a b).
Lemma nuc_one_int s1 s2 a b C : positive s1 -> positive s2 ->
  exists J, (forall w, 0 < w -> int3 (fun x y z => amplitude s1 a x y z * exp (- w ^ 2 * ((x - vx C) ^ 2 + (y - vy C) ^ 2 + (z - vz C) ^ 2)) * amplitude s2 b x y z) (J w))
    /\ int0 (fun w => 2 / sqrt PI * J w) (nuc_one s1 s2 a b C).
Proof.
  intros P1 P2. exists (fun w => lsum (fun m => nucJ C m w) (dens s1 s2 a b)).
  assert (HP : forall m, In m (dens s1 s2 a b) -> 0 < hp m) by (intros m; apply (proj1 (List.Forall_forall _ _) (dens_pos s1 s2 a b P1 P2))).
  split.
  - intros w Hw. apply (int3_ext (fun x y z => lsum (fun m => hval m x y z * exp (- w ^ 2 * ((x - vx C) ^ 2 + (y - vy C) ^ 2 + (z - vz C) ^ 2))) (dens s1 s2 a b))).
    + intros x y z. set (e := exp _). transitivity (e * (amplitude s1 a x y z * amplitude s2 b x y z)); [|ring]. rewrite dens_ok by assumption.
      rewrite <- lsum_scal. apply lsum_ext. intros; ring.
    + apply (int3_lsum _ (fun m x y z => hval m x y z * exp _)). intros m Hm. apply nuc_gauss; [apply HP; exact Hm|exact Hw].
  - apply (int0_ext (fun w => lsum (fun m => 2 / sqrt PI * nucJ C m w) (dens s1 s2 a b))); [intros; apply lsum_scal|].
    apply (int0_lsum _ (fun m w => 2 / sqrt PI * nucJ C m w)). intros m Hm. apply nucJ_int. apply HP; exact Hm.
Qed.
Lemma sm_fold {X} n (F : nat -> X -> R) (l : list X) : sm n (fun i => fold_left (fun acc c => acc + F i c) l 0) = fold_left (fun acc c => acc + sm n (fun i => F i c)) l 0.
Proof.
  enough (H : forall acc, sm n (fun i => fold_left (fun acc c => acc + F i c) l (acc i)) = fold_left (fun acc c => acc + sm n (fun i => F i c)) l (sm n acc)).
  { rewrite (H (fun _ => 0)). rewrite sm_zero by reflexivity. reflexivity. }
  induction l as [|c l IH]; intros acc; cbn [fold_left]; [reflexivity|]. rewrite IH. rewrite sm_plus. reflexivity.
Qed.
Lemma fold_scal {X} k (F : X -> R) l : forall acc, k * fold_left (fun acc c => acc + F c) l acc = fold_left (fun acc c => acc + k * F c) l (k * acc).
Proof. induction l as [|c l IH]; intros acc; cbn [fold_left]; [reflexivity|]. rewrite IH. f_equal. ring. Qed.
Lemma fold_ext {X} (F G : X -> R) l : (forall c, F c = G c) -> forall acc, fold_left (fun acc c => acc + F c) l acc = fold_left (fun acc c => acc + G c) l acc.
Proof. intros E. induction l as [|c l IH]; intros acc; cbn [fold_left]; [reflexivity|]. rewrite E. apply IH. Qed.
Lemma nuclear_sum mem atoms s1 s2 a b : (a < nbf s1)%nat -> (b < nbf s2)%nat ->
  nuclear_attraction_integral boysF mem atoms s1 s2 a b = fold_left (fun acc c => acc + - (snd c) * nuc_one s1 s2 a b (fst c)) atoms 0.
Proof.
  intros A B. destruct (angm s1 a) as [[x1 y1] z1] eqn:E1, (angm s2 b) as [[x2 y2] z2] eqn:E2.
  unfold nuclear_attraction_integral, contract2.
  rewrite (sm_ext _ _ (fun i => fold_left (fun acc c => acc + sm (length (s_exps s2)) (fun j => cc s1 i * cc s2 j * (- 2 * PI / (ex s1 i + ex s2 j))
     * (s_norm s1 a i * snd c * s_norm s2 b j * nuc_term boysF s1 s2 i j (x1, y1, z1) (x2, y2, z2) (fst c)))) atoms 0)).
  2:{ intros i _. rewrite <- (sm_fold (length (s_exps s2)) (fun j c => cc s1 i * cc s2 j * (- 2 * PI / (ex s1 i + ex s2 j))
     * (s_norm s1 a i * snd c * s_norm s2 b j * nuc_term boysF s1 s2 i j (x1, y1, z1) (x2, y2, z2) (fst c)))).
      apply sm_ext. intros j _. rewrite nuclear_terms by assumption. rewrite E1, E2.
      rewrite (Rmult_comm (fold_left _ _ _)), <- Rmult_assoc. rewrite <- (Rmult_0_r (cc s1 i * cc s2 j * (- 2 * PI / (ex s1 i + ex s2 j)))) at 2.
      rewrite <- (fold_scal _ (fun c => s_norm s1 a i * snd c * s_norm s2 b j * nuc_term boysF s1 s2 i j (x1, y1, z1) (x2, y2, z2) (fst c))).
      f_equal. generalize 0 as acc. induction atoms as [|[C q] atoms IH]; intros acc; cbn [fold_left fst snd]; [reflexivity|apply IH]. }
  rewrite (sm_fold (length (s_exps s1)) (fun i c => sm (length (s_exps s2)) (fun j => _))). apply fold_ext. intros [C q]. cbn [fst snd].
  unfold nuc_one. rewrite (lsum_dens s1 s2 a b _ _ _ _ _ _ _ E1 E2). cbv zeta. cbn [hw hp hx hy hz ht hu hv].
  rewrite <- sm_scal. apply sm_ext. intros i _. rewrite <- sm_scal. apply sm_ext. intros j _. unfold nuc_term.
  match goal with |- ?k * (?u * ?S) = _ => replace (k * (u * S)) with ((k * u) * S) by ring end.
  rewrite <- sm_scal, <- sm_scal. apply sm_ext. intros t _. rewrite <- sm_scal, <- sm_scal. apply sm_ext. intros u _. rewrite <- sm_scal, <- sm_scal. apply sm_ext. intros v _.
  unfold Rdiv. ring.
Qed.

(** ** Electron repulsion *)
(** Iterated integral over two points. *)
Definition int6 (f : R -> R -> R -> R -> R -> R -> R) (v : R) : Prop :=
  exists g, (forall x y z, int3 (f x y z) (g x y z)) /\ int3 g v.
Lemma int6_ext f f' v : (forall x y z x' y' z', f x y z x' y' z' = f' x y z x' y' z') -> int6 f v -> int6 f' v.
Proof. intros E (g & H1 & H2). exists g. split; [|exact H2]. intros x y z. apply (int3_ext (f x y z)); [apply E|apply H1]. Qed.
Lemma int6_lsum X (F : X -> R -> R -> R -> R -> R -> R -> R) (v : X -> R) L : (forall m, In m L -> int6 (F m) (v m)) ->
  int6 (fun x y z x' y' z' => lsum (fun m => F m x y z x' y' z') L) (lsum v L).
Proof.
  induction L as [|m L IH]; intros H; cbn [lsum].
  - exists (fun _ _ _ => 0). split; [intros; apply int3_zero|apply int3_zero].
  - destruct (H m (or_introl eq_refl)) as (g & G1 & G2). destruct (IH ltac:(intros; apply H; right; assumption)) as (g' & G1' & G2').
    exists (fun x y z => g x y z + g' x y z). split; [intros; apply int3_plus; [apply G1|apply G1']|apply int3_plus; assumption].
Qed.
Definition eriJ (m n : hterm) (w : R) : R :=
  let al := hp m * hp n / (hp m + hp n) in
  hw m * hw n * (sqrt PI ^ 6 * sgn n / (hp m * hp n * sqrt (hp m + hp n))) * (al / ((al + w ^ 2) * sqrt (al + w ^ 2)) * kern m n (w / sqrt (al + w ^ 2))).
Lemma eri_gauss m n w : 0 < hp m -> 0 < hp n -> 0 < w ->
  int6 (fun x y z x' y' z' => hval m x y z * exp (- w ^ 2 * ((x - x') ^ 2 + (y - y') ^ 2 + (z - z') ^ 2)) * hval n x' y' z') (eriJ m n w).
Proof.
  intros Hp Hq Hw. assert (W : 0 < w ^ 2) by nra. set (be := hp n * w ^ 2 / (hp n + w ^ 2)). assert (Hb : 0 < be) by (apply Rdiv_lt_0_compat; [apply Rmult_lt_0_compat; assumption|lra]).
  exists (fun x y z => hw n * sqrt (PI / (hp n + w ^ 2)) ^ 3 * (hval m x y z * (lam be (ht n) (hx n) x * lam be (hu n) (hy n) y * lam be (hv n) (hz n) z))). split.
  - intros x y z.
    apply (int3_ext (fun x' y' z' => hval m x y z * hw n * ((lam (hp n) (ht n) (hx n) x' * lam (w ^ 2) 0 x x') * (lam (hp n) (hu n) (hy n) y' * lam (w ^ 2) 0 y y') * (lam (hp n) (hv n) (hz n) z' * lam (w ^ 2) 0 z z')))).
    { intros x' y' z'. unfold hval. rewrite !(lam_0 (w ^ 2)).
      replace (- w ^ 2 * ((x - x') ^ 2 + (y - y') ^ 2 + (z - z') ^ 2)) with (- w ^ 2 * (x' - x) ^ 2 + (- w ^ 2 * (y' - y) ^ 2 + - w ^ 2 * (z' - z) ^ 2)) by ring.
      rewrite !exp_plus. ring. }
    pose proof (int3_prod _ _ _ _ _ _ (gram_T (hp n) (w ^ 2) (hx n) x Hq W (ht n)) (gram_T (hp n) (w ^ 2) (hy n) y Hq W (hu n)) (gram_T (hp n) (w ^ 2) (hz n) z Hq W (hv n))) as K.
    apply (int3_scal (hval m x y z * hw n)) in K. match type of K with int3 _ ?v => match goal with |- int3 _ ?u => replace u with v; [exact K|] end end.
    fold be. ring.
  - apply (int3_ext (fun x y z => hw n * sqrt (PI / (hp n + w ^ 2)) ^ 3 * hw m * ((lam (hp m) (ht m) (hx m) x * lam be (ht n) (hx n) x) * (lam (hp m) (hu m) (hy m) y * lam be (hu n) (hy n) y)
      * (lam (hp m) (hv m) (hz m) z * lam be (hv n) (hz n) z)))).
    { intros x y z. unfold hval. ring. }
    pose proof (int3_prod _ _ _ _ _ _ (gram (hp m) be (hx m) (hx n) Hp Hb (ht m) (ht n)) (gram (hp m) be (hy m) (hy n) Hp Hb (hu m) (hu n)) (gram (hp m) be (hz m) (hz n) Hp Hb (hv m) (hv n))) as K.
    apply (int3_scal (hw n * sqrt (PI / (hp n + w ^ 2)) ^ 3 * hw m)) in K. match type of K with int3 _ ?v => match goal with |- int3 _ ?u => replace u with v; [exact K|] end end.
    unfold eriJ, kern, sgn. cbv zeta. set (al := hp m * hp n / (hp m + hp n)).
    assert (A0 : 0 < al) by (apply Rdiv_lt_0_compat; [apply Rmult_lt_0_compat; assumption|lra]).
    assert (Aw : 0 < al + w ^ 2) by lra. pose proof (sqrt_lt_R0 _ Aw) as S1. assert (Pq : 0 < hp m + hp n) by lra. pose proof (sqrt_lt_R0 _ Pq) as S2. pose proof PI_RGT_0 as PI0.
    assert (Q1 : sqrt (al + w ^ 2) * sqrt (al + w ^ 2) = al + w ^ 2) by (apply sqrt_sqrt; lra).
    assert (Q2 : sqrt (hp m + hp n) * sqrt (hp m + hp n) = hp m + hp n) by (apply sqrt_sqrt; lra).
    rewrite !(lam_shift _ _ _ (hx n)), !(lam_shift _ _ _ (hy n)), !(lam_shift _ _ _ (hz n)).
    assert (D : hp m * (hp n + w ^ 2) + hp n * w ^ 2 <> 0) by nra.
    assert (E1 : hp m * be / (hp m + be) = al * (w / sqrt (al + w ^ 2)) ^ 2).
    { replace ((w / sqrt (al + w ^ 2)) ^ 2) with (w ^ 2 / (al + w ^ 2)).
      - unfold be, al. field. repeat split; nra.
      - unfold Rdiv. rewrite Rpow_mult_distr, pow_inv. rewrite <- (Rsqr_pow2 (sqrt _)), Rsqr_sqrt by lra. reflexivity. }
    rewrite E1. clear E1.
    assert (E2 : sqrt (PI / (hp n + w ^ 2)) * sqrt (PI / (hp m + be)) = sqrt PI * sqrt PI / (sqrt (hp m + hp n) * sqrt (al + w ^ 2))).
    { assert (0 < hp n + w ^ 2) by lra. assert (0 < hp m + be) by lra.
      rewrite <- sqrt_mult by (apply Rlt_le, Rdiv_lt_0_compat; assumption). rewrite <- (sqrt_mult PI PI), <- (sqrt_mult (hp m + hp n)) by lra.
      rewrite <- sqrt_div by (try (apply Rmult_lt_0_compat; assumption); nra). f_equal. unfold be, al. field. repeat split; nra. }
    transitivity (hw n * hw m * (sqrt (PI / (hp n + w ^ 2)) * sqrt (PI / (hp m + be))) ^ 3 * ((-1) ^ ht n * (-1) ^ hu n * (-1) ^ hv n)
      * (lam (al * (w / sqrt (al + w ^ 2)) ^ 2) (ht m + ht n) (hx m - hx n) 0 * lam (al * (w / sqrt (al + w ^ 2)) ^ 2) (hu m + hu n) (hy m - hy n) 0 * lam (al * (w / sqrt (al + w ^ 2)) ^ 2) (hv m + hv n) (hz m - hz n) 0)); [ring|].
    rewrite E2, <- !pow_add. set (kk := _ * _ * lam _ (hv m + hv n) _ _). clearbody kk.
    replace ((al + w ^ 2) * sqrt (al + w ^ 2)) with (sqrt (al + w ^ 2) ^ 3) by (transitivity ((sqrt (al + w ^ 2) * sqrt (al + w ^ 2)) * sqrt (al + w ^ 2)); [ring|rewrite Q1; reflexivity]).
    set (r1 := sqrt (al + w ^ 2)) in *. clearbody r1.
    replace (al / r1 ^ 3) with (hp m * hp n / (sqrt (hp m + hp n) * sqrt (hp m + hp n)) / r1 ^ 3) by (rewrite Q2; reflexivity).
    set (r2 := sqrt (hp m + hp n)) in *. clearbody r2. field. repeat split; lra.
Qed.
Lemma eriJ_int m n : 0 < hp m -> 0 < hp n -> int0 (fun w => 2 / sqrt PI * eriJ m n w) (hw m * hw n * coul boysF m n).
Proof.
  intros Hp Hq. pose proof PI_RGT_0 as PI0. assert (P0 : 0 < sqrt PI) by (apply sqrt_lt_R0; exact PI0). assert (Q : sqrt PI * sqrt PI = PI) by (apply sqrt_sqrt; lra).
  assert (A0 : 0 < hp m * hp n / (hp m + hp n)) by (apply Rdiv_lt_0_compat; [apply Rmult_lt_0_compat; assumption|lra]).
  assert (Pq : 0 < hp m + hp n) by lra. pose proof (sqrt_lt_R0 _ Pq) as S2.
  pose proof (int0_scal (2 / sqrt PI * (hw m * hw n * (sqrt PI ^ 6 * sgn n / (hp m * hp n * sqrt (hp m + hp n))))) _ _ (int0_subst _ A0 (kern m n) (nice_kern m n))) as K.
  match type of K with int0 _ ?v => match goal with |- int0 _ ?u => replace u with v end end.
  - eapply int0_ext; [|exact K]. intros w. unfold eriJ. cbv zeta. ring.
  - rewrite coul_int. replace (5 / 2) with (/ 2 + (1 + 1)) by field. rewrite !Rpower_plus, Rpower_1, Rpower_sqrt by exact PI0.
    replace (sqrt PI * (PI * PI)) with (sqrt PI ^ 5) by (transitivity (sqrt PI * ((sqrt PI * sqrt PI) * (sqrt PI * sqrt PI))); [ring|rewrite Q; reflexivity]).
    field. repeat split; lra.
Qed.
Theorem eri_int mem s1 s2 s3 s4 a b c d : positive s1 -> positive s2 -> positive s3 -> positive s4 ->
  (a < nbf s1)%nat -> (b < nbf s2)%nat -> (c < nbf s3)%nat -> (d < nbf s4)%nat ->
  exists J, (forall w, 0 < w -> int6 (fun x y z x' y' z' => amplitude s1 a x y z * amplitude s2 b x y z * exp (- w ^ 2 * ((x - x') ^ 2 + (y - y') ^ 2 + (z - z') ^ 2))
        * (amplitude s3 c x' y' z' * amplitude s4 d x' y' z')) (J w))
    /\ int0 (fun w => 2 / sqrt PI * J w) (electron_repulsion_integral boysF mem s1 s2 s3 s4 a b c d).
Proof.
  intros P1 P2 P3 P4 A B C D. set (L := dens s1 s2 a b). set (L' := dens s3 s4 c d).
  assert (HL : forall m, In m L -> 0 < hp m) by (intros m; apply (proj1 (List.Forall_forall _ _) (dens_pos s1 s2 a b P1 P2))).
  assert (HL' : forall m, In m L' -> 0 < hp m) by (intros m; apply (proj1 (List.Forall_forall _ _) (dens_pos s3 s4 c d P3 P4))).
  exists (fun w => lsum (fun m => lsum (fun n => eriJ m n w) L') L). split.
  - intros w Hw.
    apply (int6_ext (fun x y z x' y' z' => lsum (fun m => lsum (fun n => hval m x y z * exp (- w ^ 2 * ((x - x') ^ 2 + (y - y') ^ 2 + (z - z') ^ 2)) * hval n x' y' z') L') L)).
    { intros x y z x' y' z'. rewrite !dens_ok by assumption. fold L L'. set (e := exp _).
      rewrite (lsum_ext _ _ (fun m => (e * lsum (fun n => hval n x' y' z') L') * hval m x y z)).
      - rewrite lsum_scal. ring.
      - intros m _. transitivity (lsum (fun n => (hval m x y z * e) * hval n x' y' z') L'); [reflexivity|]. rewrite lsum_scal. ring. }
    apply (int6_lsum _ (fun m x y z x' y' z' => lsum (fun n => hval m x y z * _ * hval n x' y' z') L')). intros m Hm.
    apply (int6_lsum _ (fun n x y z x' y' z' => hval m x y z * _ * hval n x' y' z')). intros n Hn. apply eri_gauss; [apply HL|apply HL'|]; assumption.
  - rewrite eri_form by assumption. unfold form. fold L L'.
    apply (int0_ext (fun w => lsum (fun m => lsum (fun n => 2 / sqrt PI * eriJ m n w) L') L)).
    { intros w. rewrite <- lsum_scal. apply lsum_ext. intros m _. apply lsum_scal. }
    apply (int0_lsum _ (fun m w => lsum (fun n => 2 / sqrt PI * eriJ m n w) L')). intros m Hm.
    apply (int0_lsum _ (fun n w => 2 / sqrt PI * eriJ m n w)). intros n Hn. apply eriJ_int; [apply HL|apply HL']; assumption.
Qed.
