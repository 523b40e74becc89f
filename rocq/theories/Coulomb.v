(** Proofs about the Coulomb integrals built on the exact Boys functions: their
    form as derivatives, and the Cauchy-Schwarz bound of the two-electron
    integrals. *)
From Coq Require Import List Bool Arith Lia Reals Lra Psatz.
From Coquelicot Require Import Coquelicot.
Require Import Verif.IntegralModel Verif.IntegralProofs Verif.GaussProofs Verif.OneElectron Verif.TwoElectron.
Import ListNotations.
Local Open Scope R_scope.

Lemma RInt_ext_R (f g : R -> R) (a b : R) : (forall s : R, f s = g s :> R) -> RInt f a b = RInt g a b :> R.
Proof. intros E. apply RInt_ext. intros s _. apply E. Qed.
(** ** The exact Boys functions *)
Definition boysF (n : nat) (z : R) : R := RInt (fun s => s ^ (2 * n) * exp (- z * s ^ 2)) 0 1.
Lemma boys_cont n z (s : R) : continuous (fun s => s ^ (2 * n) * exp (- z * s ^ 2)) s.
Proof. apply @ex_derive_continuous. auto_derive. exact I. Qed.
Lemma boys_dz (m : nat) (s z : R) : is_derive (fun u => s ^ m * exp (- u * s ^ 2)) z (- s ^ 2 * (s ^ m * exp (- z * s ^ 2))).
Proof. auto_derive; [exact I|]. generalize (s ^ m). intros. cbn [pow]. ring. Qed.
Lemma boys_derive (n : nat) (z : R) : is_derive (boysF n) z (- boysF (S n) z).
Proof.
  assert (E : RInt (fun s => Derive (fun u => s ^ (2 * n) * exp (- u * s ^ 2)) z) 0 1 = - boysF (S n) z).
  { unfold boysF. replace (- RInt (fun s => s ^ (2 * S n) * exp (- z * s ^ 2)) 0 1) with (-1 * RInt (fun s => s ^ (2 * S n) * exp (- z * s ^ 2)) 0 1) by ring.
    rewrite <- (RInt_scal_R (fun s => s ^ (2 * S n) * exp (- z * s ^ 2)) 0 1 (-1)) by (apply (@ex_RInt_continuous R_CompleteNormedModule); intros; apply boys_cont).
    apply RInt_ext_R. intros s. refine (eq_trans (is_derive_unique _ _ (- s ^ 2 * (s ^ (2 * n) * exp (- z * s ^ 2))) _) _).
    - apply boys_dz.
    - change (- s ^ 2 * (s ^ (2 * n) * exp (- z * s ^ 2)) = -1 * (s ^ (2 * S n) * exp (- z * s ^ 2)) :> R). replace (2 * S n)%nat with (2 + 2 * n)%nat by lia. rewrite pow_add. ring. }
  rewrite <- E. unfold boysF. apply is_derive_RInt_param.
  - apply filter_forall. intros y t _. auto_derive. exact I.
  - intros t _. apply (continuity_2d_pt_ext (fun u v => - v ^ 2 * (v ^ (2 * n) * exp (- u * v ^ 2)))).
    { intros u v. symmetry. apply is_derive_unique, boys_dz. }
    assert (PW : forall k, continuity_2d_pt (fun _ v => v ^ k) z t).
    { intros k. apply (continuity_1d_2d_pt_comp (fun v => v ^ k) (fun _ v => v)); [apply derivable_continuous_pt, derivable_pt_pow|apply continuity_2d_pt_id2]. }
    apply continuity_2d_pt_mult; [apply continuity_2d_pt_opp, PW|]. apply continuity_2d_pt_mult; [apply PW|].
    apply (continuity_1d_2d_pt_comp exp (fun u v => - u * v ^ 2)); [apply derivable_continuous_pt, derivable_pt_exp|].
    apply continuity_2d_pt_mult; [apply continuity_2d_pt_opp, continuity_2d_pt_id1|apply PW].
  - apply filter_forall. intros y. apply (@ex_RInt_continuous R_CompleteNormedModule). intros; apply boys_cont.
Qed.

(** The Hermite Coulomb integrals as integrals over the Boys parameter. *)
Lemma RInt_plus_R (f g : R -> R) a b : ex_RInt f a b -> ex_RInt g a b -> RInt (fun x => f x + g x) a b = RInt f a b + RInt g a b.
Proof. exact (@RInt_plus R_CompleteNormedModule f g a b). Qed.
Definition nice (g : R -> R) : Prop := forall s : R, continuous g s.
Lemma nice_ex g a b : nice g -> ex_RInt g a b.
Proof. intros H. apply (@ex_RInt_continuous R_CompleteNormedModule). intros; apply H. Qed.
Lemma nice_mult f g : nice f -> nice g -> nice (fun s => f s * g s).
Proof. intros F G s. apply (continuous_mult f g); [apply F|apply G]. Qed.
Lemma nice_c (c : R) : nice (fun _ => c).
Proof. intros s. apply continuous_const. Qed.
Lemma nice_plus f g : nice f -> nice g -> nice (fun s => f s + g s).
Proof. intros F G s. apply (continuous_plus f g); [apply F|apply G]. Qed.
Lemma nice_pow f n : nice f -> nice (fun s => f s ^ n).
Proof. intros F. induction n as [|n IH]; cbn [pow]; [apply nice_c|apply nice_mult; assumption]. Qed.
Lemma nice_ext f g : (forall s, f s = g s) -> nice f -> nice g.
Proof. intros E F s. apply (continuous_ext f); [exact E|apply F]. Qed.
Lemma lam_S' (p : R) (t : nat) (P x : R) : lam p (S t) P x = 2 * p * ((x - P) * lam p t P x - INR t * lam p (t - 1) P x).
Proof. rewrite lam_S. destruct t as [|t]; [cbn [INR]; ring|]. replace (S t - 1)%nat with t by lia. reflexivity. Qed.
Lemma nice_lam (p : R) t P x : nice (fun s => lam (p * s ^ 2) t P x).
Proof.
  induction t as [|t I1 I2] using nat_ind2.
  - apply (nice_ext (fun s => exp (- (p * s ^ 2) * (x - P) ^ 2))); [reflexivity|]. intros s. apply @ex_derive_continuous. auto_derive. exact I.
  - apply (nice_ext (fun s => 2 * (p * s ^ 2) * ((x - P) * lam (p * s ^ 2) t P x + - INR t * lam (p * s ^ 2) (t - 1) P x))); [intros; rewrite lam_S'; ring|].
    assert (A : nice (fun s => 2 * (p * s ^ 2))) by (intros s; apply @ex_derive_continuous; auto_derive; exact I).
    apply nice_mult; [exact A|]. apply nice_plus; (apply nice_mult; [apply nice_c|assumption]).
Qed.
Lemma herm_int p X (g : R -> R) b : nice g ->
  (forall n, b n = RInt (fun s => (-2 * (p * s ^ 2)) ^ n * (g s * exp (- (p * s ^ 2) * X ^ 2))) 0 1) ->
  forall t n, herm X b t n = RInt (fun s => (-2 * (p * s ^ 2)) ^ n * (g s * lam (p * s ^ 2) t X 0)) 0 1.
Proof.
  intros G B. assert (Q : forall n, nice (fun s => (-2 * (p * s ^ 2)) ^ n)).
  { intros n. apply nice_pow. intros s. apply @ex_derive_continuous. auto_derive. exact I. }
  assert (K : forall n t, nice (fun s => (-2 * (p * s ^ 2)) ^ n * (g s * lam (p * s ^ 2) t X 0))).
  { intros n t. apply nice_mult; [apply Q|]. apply nice_mult; [exact G|apply nice_lam]. }
  induction t as [|t I1 I2] using nat_ind2; intros n.
  - cbn [herm]. rewrite B. apply RInt_ext_R. intros s. rewrite lam_0. do 3 f_equal. ring.
  - rewrite herm_S. rewrite I1, I2, <- !RInt_scal_R by (apply nice_ex, K).
    rewrite <- RInt_plus_R by (apply nice_ex; apply nice_mult; [apply nice_c|apply K]). apply RInt_ext_R. intros s. rewrite lam_S'. cbn [pow]. ring.
Qed.
Lemma Rsp_int p X Y Z t u v n :
  Rsp boysF p X Y Z t u v n = RInt (fun s => (-2 * (p * s ^ 2)) ^ n * (lam (p * s ^ 2) v Z 0 * lam (p * s ^ 2) u Y 0 * lam (p * s ^ 2) t X 0)) 0 1.
Proof.
  assert (EX : forall W : R, nice (fun s => exp (- (p * s ^ 2) * W ^ 2))) by (intros W s; apply @ex_derive_continuous; auto_derive; exact I).
  unfold Rsp. apply herm_int; [apply nice_mult; apply nice_lam|]. intros m.
  rewrite (herm_int p Y (fun s => exp (- (p * s ^ 2) * X ^ 2) * lam (p * s ^ 2) v Z 0)).
  - apply RInt_ext_R. intros s. ring.
  - apply nice_mult; [apply EX|apply nice_lam].
  - intros k. rewrite (herm_int p Z (fun s => exp (- (p * s ^ 2) * X ^ 2) * exp (- (p * s ^ 2) * Y ^ 2))).
    + apply RInt_ext_R. intros s. ring.
    + apply nice_mult; apply EX.
    + intros l. unfold boysF. rewrite <- RInt_scal_R by (apply (@ex_RInt_continuous R_CompleteNormedModule); intros; apply boys_cont).
      apply RInt_ext_R. intros s. rewrite <- !exp_plus.
      replace (- (p * (X ^ 2 + Y ^ 2 + Z ^ 2)) * s ^ 2) with (- (p * s ^ 2) * X ^ 2 + - (p * s ^ 2) * Y ^ 2 + - (p * s ^ 2) * Z ^ 2) by ring.
      rewrite pow_mult. replace (-2 * (p * s ^ 2)) with ((-2 * p) * s ^ 2) by ring. rewrite (Rpow_mult_distr (-2 * p) (s ^ 2)). ring.
Qed.

(** ** Overlaps of Hermite Gaussians *)
Lemma lam_prod_van p q t u P Q : 0 < p -> 0 < q -> vanishes (fun x => lam p t P x * lam q u Q x).
Proof.
  intros Hp Hq eps He. destruct (lam_van0 p P Hp t 1 ltac:(lra)) as (M & HM), (lam_van0 q Q Hq u eps He) as (N & HN).
  exists (Rmax M N). intros x X. pose proof (Rmax_l M N). pose proof (Rmax_r M N). rewrite Rabs_mult.
  pose proof (HM x ltac:(lra)). pose proof (HN x ltac:(lra)). pose proof (Rabs_pos (lam p t P x)). pose proof (Rabs_pos (lam q u Q x)). nra.
Qed.
Lemma is_derive_prod (f g : R -> R) (x df dg : R) : is_derive f x df -> is_derive g x dg -> is_derive (fun x => f x * g x) x (df * g x + f x * dg).
Proof. intros F G. apply (is_derive_mult f g x df dg F G). intros; apply Rmult_comm. Qed.
Section Gram.
Variables p q P Q : R.
Hypotheses (Hp : 0 < p) (Hq : 0 < q).
Let be := p * q / (p + q).
Lemma lam_prod_cont t u x : continuous (fun x => lam p t P x * lam q u Q x) x.
Proof. apply (continuous_mult (fun x => lam p t P x) (fun x => lam q u Q x)); apply lam_cont. Qed.
Lemma gram0 : intR (fun x => lam p 0 P x * lam q 0 Q x) (sqrt (PI / (p + q)) * lam be 0 P Q).
Proof.
  apply (intR_ext (fun x => lam be 0 P Q * lam (p + q) 0 ((p * P + q * Q) / (p + q)) x)).
  - intros x. rewrite !lam_0, <- !exp_plus. f_equal. unfold be. field. lra.
  - rewrite (Rmult_comm (sqrt _)). apply intR_scal. apply gauss_int. lra.
Qed.
Lemma gram_T t : intR (fun x => lam p t P x * lam q 0 Q x) (sqrt (PI / (p + q)) * lam be t P Q).
Proof.
  assert (Step : forall t, (match t with O => True | S t' => intR (fun x => lam p t' P x * lam q 0 Q x) (sqrt (PI / (p + q)) * lam be t' P Q) end) ->
    intR (fun x => lam p t P x * lam q 0 Q x) (sqrt (PI / (p + q)) * lam be t P Q) -> intR (fun x => lam p (S t) P x * lam q 0 Q x) (sqrt (PI / (p + q)) * lam be (S t) P Q)).
  { clear t. intros t H0 H1.
    assert (D : intR (fun x => - lam p (S t) P x * lam q 0 Q x + lam p t P x * - lam q 1 Q x) 0).
    { apply (intR_by_parts (fun x => lam p t P x * lam q 0 Q x)).
      - intros x. apply (is_derive_prod (fun x => lam p t P x) (fun x => lam q 0 Q x)); apply lam_derive_x.
      - refine (nice_ext (fun x => -1 * (lam p (S t) P x * lam q 0 Q x) + -1 * (lam p t P x * lam q 1 Q x)) _ _ _); [intros; ring|].
        apply nice_plus; (apply nice_mult; [apply nice_c|intros y; apply lam_prod_cont]).
      - apply lam_prod_van; assumption. }
    set (prev := fun x => match t with O => 0 | S t' => lam p t' P x * lam q 0 Q x end).
    set (pv := match t with O => 0 | S t' => sqrt (PI / (p + q)) * lam be t' P Q end).
    assert (HP : intR prev pv) by (unfold prev, pv; destruct t; [apply intR_zero|exact H0]).
    apply (intR_ext (fun x => q / (p + q) * (2 * p * (Q - P) * (lam p t P x * lam q 0 Q x) + - (2 * p * INR t) * prev x
        + - (p / q) * (- lam p (S t) P x * lam q 0 Q x + lam p t P x * - lam q 1 Q x)))).
    { intros x. unfold prev. rewrite (lam_S q 0), (lam_S p t). destruct t; cbn [INR]; field; lra. }
    match goal with |- intR _ ?v => replace v with (q / (p + q) * (2 * p * (Q - P) * (sqrt (PI / (p + q)) * lam be t P Q) + - (2 * p * INR t) * pv + - (p / q) * 0)) end.
    - apply intR_scal. apply intR_plus; [apply intR_plus|]; apply intR_scal; assumption.
    - rewrite (lam_S be t). unfold pv, be. destruct t; cbn [INR]; field; lra. }
  enough (H : (match t with O => True | S t' => intR (fun x => lam p t' P x * lam q 0 Q x) (sqrt (PI / (p + q)) * lam be t' P Q) end)
     /\ intR (fun x => lam p t P x * lam q 0 Q x) (sqrt (PI / (p + q)) * lam be t P Q)) by apply H.
  induction t as [|t [IH1 IH2]]; [split; [exact I|apply gram0]|]. split; [exact IH2|]. apply Step; assumption.
Qed.
Lemma gram t u : intR (fun x => lam p t P x * lam q u Q x) ((-1) ^ u * (sqrt (PI / (p + q)) * lam be (t + u) P Q)).
Proof.
  revert t. induction u as [|u IH]; intros t.
  - rewrite Nat.add_0_r, pow_O, Rmult_1_l. apply gram_T.
  - specialize (IH (S t)). replace (t + S u)%nat with (S t + u)%nat by lia.
    assert (D : intR (fun x => - lam p (S t) P x * lam q u Q x + lam p t P x * - lam q (S u) Q x) 0).
    { apply (intR_by_parts (fun x => lam p t P x * lam q u Q x)).
      - intros x. apply (is_derive_prod (fun x => lam p t P x) (fun x => lam q u Q x)); apply lam_derive_x.
      - refine (nice_ext (fun x => -1 * (lam p (S t) P x * lam q u Q x) + -1 * (lam p t P x * lam q (S u) Q x)) _ _ _); [intros; ring|].
        apply nice_plus; (apply nice_mult; [apply nice_c|intros y; apply lam_prod_cont]).
      - apply lam_prod_van; assumption. }
    apply (intR_ext (fun x => -1 * (- lam p (S t) P x * lam q u Q x + lam p t P x * - lam q (S u) Q x) + -1 * (lam p (S t) P x * lam q u Q x))); [intros; ring|].
    match goal with |- intR _ ?v => replace v with (-1 * 0 + -1 * ((-1) ^ u * (sqrt (PI / (p + q)) * lam be (S t + u) P Q))) by (cbn [pow]; ring) end.
    apply intR_plus; apply intR_scal; assumption.
Qed.
End Gram.

(** ** The Coulomb form on Hermite Gaussians *)
(** A Hermite Gaussian with a weight: exponent, centre and orders. *)
Record hterm := { hw : R; hp : R; hx : R; hy : R; hz : R; ht : nat; hu : nat; hv : nat }.
Fixpoint lsum {X} (f : X -> R) (L : list X) : R := match L with [] => 0 | m :: L' => f m + lsum f L' end.
Lemma lsum_ext X (f g : X -> R) L : (forall m, In m L -> f m = g m) -> lsum f L = lsum g L.
Proof. induction L as [|m L IH]; intros H; cbn; [reflexivity|]. rewrite IH by (intros; apply H; right; assumption). rewrite H by (left; reflexivity). reflexivity. Qed.
Lemma lsum_zero X (f : X -> R) L : (forall m, In m L -> f m = 0) -> lsum f L = 0.
Proof. induction L as [|m L IH]; intros H; cbn; [reflexivity|]. rewrite IH by (intros; apply H; right; assumption). rewrite H by (left; reflexivity). ring. Qed.
Lemma lsum_scal X c (f : X -> R) L : lsum (fun m => c * f m) L = c * lsum f L.
Proof. induction L as [|m L IH]; cbn; [ring|rewrite IH; ring]. Qed.
Lemma lsum_plus X (f g : X -> R) L : lsum (fun m => f m + g m) L = lsum f L + lsum g L.
Proof. induction L as [|m L IH]; cbn; [ring|rewrite IH; ring]. Qed.
Lemma lsum_app X (f : X -> R) L L' : lsum f (L ++ L') = lsum f L + lsum f L'.
Proof. induction L as [|m L IH]; cbn; [ring|rewrite IH; ring]. Qed.
Lemma lsum_map X Y (g : X -> Y) (f : Y -> R) L : lsum f (map g L) = lsum (fun m => f (g m)) L.
Proof. induction L as [|m L IH]; cbn; [reflexivity|rewrite IH; reflexivity]. Qed.
Lemma lsum_swap X Y (f : X -> Y -> R) L L' : lsum (fun m => lsum (f m) L') L = lsum (fun n => lsum (fun m => f m n) L) L'.
Proof.
  induction L as [|m L IH]; cbn. { symmetry. induction L' as [|n L' IH]; cbn; [reflexivity|rewrite IH; ring]. }
  rewrite IH, <- lsum_plus. reflexivity.
Qed.
Lemma lsum_square (f : hterm -> R) L : lsum f L * lsum f L = lsum (fun m => lsum (fun n => f m * f n) L) L.
Proof.
  rewrite (lsum_ext _ (fun m => lsum (fun n => f m * f n) L) (fun m => lsum f L * f m)) by (intros; rewrite lsum_scal; ring).
  rewrite lsum_scal. reflexivity.
Qed.
Definition sgn (n : hterm) : R := (-1) ^ (ht n + hu n + hv n).
Definition kern (m n : hterm) (s : R) : R :=
  let al := hp m * hp n / (hp m + hp n) in
  lam (al * s ^ 2) (ht m + ht n) (hx m - hx n) 0 * lam (al * s ^ 2) (hu m + hu n) (hy m - hy n) 0 * lam (al * s ^ 2) (hv m + hv n) (hz m - hz n) 0.
(** [(Lambda_m | Lambda_n)], without the weights. *)
Definition coul (boys : nat -> R -> R) (m n : hterm) : R :=
  2 * Rpower PI (5 / 2) / (hp m * hp n * sqrt (hp m + hp n))
  * (sgn n * Rsp boys (hp m * hp n / (hp m + hp n)) (hx m - hx n) (hy m - hy n) (hz m - hz n) (ht m + ht n) (hu m + hu n) (hv m + hv n) 0).
Definition form (boys : nat -> R -> R) (L L' : list hterm) : R := lsum (fun m => lsum (fun n => hw m * hw n * coul boys m n) L') L.
Lemma lam_shift (p : R) t P x : lam p t P x = lam p t (P - x) 0.
Proof.
  unfold lam. assert (H : lam2 p t P x = lam2 p t (P - x) 0); [|rewrite H; reflexivity].
  induction t as [|t IH]; cbn [lam2]. { do 2 f_equal. ring. } rewrite IH. destruct (lam2 p t (P - x) 0). f_equal. ring.
Qed.
Lemma nice_kern m n : nice (kern m n).
Proof. unfold kern. cbv zeta. repeat apply nice_mult; apply nice_lam. Qed.
Lemma coul_int m n : coul boysF m n = 2 * Rpower PI (5 / 2) * (sgn n / (hp m * hp n * sqrt (hp m + hp n)) * RInt (kern m n) 0 1).
Proof.
  unfold coul. rewrite Rsp_int. unfold Rdiv.
  rewrite (RInt_ext_R (fun s => _ ^ 0 * _) (kern m n)); [ring|]. intros s. unfold kern. cbv zeta. rewrite pow_O. unfold Rdiv. ring.
Qed.

(** Non-negative integrals. *)
Lemma intR_nonneg f v : (forall x, 0 <= f x) -> intR f v -> 0 <= v.
Proof.
  intros H I. pose proof (RInt_gen_norm (Fa := Rbar_locally m_infty) (Fb := Rbar_locally p_infty) (V := R_CompleteNormedModule) (fun _ => 0) f 0 v) as K.
  assert (N : @norm _ R_CompleteNormedModule 0 = 0) by (apply (@norm_zero _ R_CompleteNormedModule)). rewrite N in K. apply K.
  - exists (fun x => x < 0) (fun x => 0 < x); [exists 0; auto|exists 0; auto|]. intros x y X Y. cbn. lra.
  - apply filter_forall. intros [a b] x _. exact (eq_ind_r (fun z => z <= f x) (H x) N).
  - exact intR_zero.
  - exact I.
Qed.
Lemma int3_nonneg f v : (forall x y z, 0 <= f x y z) -> int3 f v -> 0 <= v.
Proof.
  intros H (g & h & H1 & H2 & H3). apply (intR_nonneg h); [|exact H3]. intros x. apply (intR_nonneg (g x)); [|apply H2]. intros y.
  apply (intR_nonneg (f x y)); [apply H|apply H1].
Qed.
Lemma int3_lsum X (F : X -> R -> R -> R -> R) (v : X -> R) L : (forall m, In m L -> int3 (F m) (v m)) -> int3 (fun x y z => lsum (fun m => F m x y z) L) (lsum v L).
Proof.
  induction L as [|m L IH]; intros H; cbn [lsum]; [apply int3_zero|].
  apply int3_plus; [apply H; left; reflexivity|apply IH; intros; apply H; right; assumption].
Qed.
Section Positive.
Variable L : list hterm.
Hypothesis HL : List.Forall (fun m => 0 < hp m) L.
Lemma Lpos m : In m L -> 0 < hp m.
Proof. intros H. rewrite List.Forall_forall in HL. apply HL. exact H. Qed.
Section Rho.
Variable rho : R.
Hypothesis Hr : 0 < rho < 1.
Let dd (m : hterm) : R := hp m * (1 - rho ^ 2) + 2 * rho ^ 2.
Let pp (m : hterm) : R := 2 * hp m * rho ^ 2 / dd m.
Let MM (m n : hterm) : R := hp m * hp n * (1 - rho ^ 2) + (hp m + hp n) * rho ^ 2.
Let AA (m n : hterm) : R := hp m * hp n / (hp m + hp n) * (1 - rho ^ 2) + rho ^ 2.
Lemma rho2 : 0 < rho ^ 2 < 1.
Proof. destruct Hr. split; [nra|]. nra. Qed.
Lemma dd_pos m : 0 < hp m -> 0 < dd m.
Proof. intros H. unfold dd. pose proof rho2. nra. Qed.
Lemma pp_pos m : 0 < hp m -> 0 < pp m.
Proof. intros H. unfold pp. pose proof rho2. apply Rdiv_lt_0_compat; [nra|apply dd_pos; exact H]. Qed.
Lemma MM_pos m n : 0 < hp m -> 0 < hp n -> 0 < MM m n.
Proof.
  intros H H'. unfold MM. pose proof rho2 as [A B].
  apply Rplus_lt_0_compat; apply Rmult_lt_0_compat; try lra. apply Rmult_lt_0_compat; assumption.
Qed.
Lemma AA_MM m n : 0 < hp m -> 0 < hp n -> MM m n = (hp m + hp n) * AA m n.
Proof. intros H H'. unfold MM, AA. field. lra. Qed.
Lemma AA_pos m n : 0 < hp m -> 0 < hp n -> 0 < AA m n.
Proof. intros H H'. pose proof (MM_pos m n H H') as M. rewrite AA_MM in M by assumption. nra. Qed.
(** The overlap of two smeared Hermite Gaussians. *)
Let ff (m : hterm) (x y z : R) : R :=
  hw m / (sqrt (dd m)) ^ 3 * (lam (pp m) (ht m) (hx m) x * lam (pp m) (hu m) (hy m) y * lam (pp m) (hv m) (hz m) z).
Lemma beta_ok m n : 0 < hp m -> 0 < hp n -> pp m * pp n / (pp m + pp n) = hp m * hp n / (hp m + hp n) * (rho / sqrt (AA m n)) ^ 2.
Proof.
  intros H H'. pose proof (AA_pos m n H H') as A. pose proof (dd_pos m H). pose proof (dd_pos n H'). pose proof rho2. pose proof (MM_pos m n H H') as M.
  replace ((rho / sqrt (AA m n)) ^ 2) with (rho ^ 2 / AA m n).
  2:{ unfold Rdiv. rewrite Rpow_mult_distr, pow_inv. f_equal. rewrite <- Rsqr_pow2, Rsqr_sqrt by lra. reflexivity. }
  assert (E : AA m n = MM m n / (hp m + hp n)) by (rewrite AA_MM by assumption; field; lra). rewrite E. 
  assert (S : pp m + pp n = 4 * rho ^ 2 * MM m n / (dd m * dd n)).
  { unfold pp, MM. unfold dd in *. field. split; apply Rgt_not_eq; assumption. }
  rewrite S. unfold pp. field. repeat split; try (apply Rgt_not_eq; first [assumption|lra]).
Qed.
Lemma pre_ok m n : 0 < hp m -> 0 < hp n -> sqrt (PI / (pp m + pp n)) = sqrt (PI / (4 * rho ^ 2)) * (sqrt (dd m) * sqrt (dd n)) / sqrt (MM m n).
Proof.
  intros H H'. pose proof (dd_pos m H). pose proof (dd_pos n H'). pose proof rho2. pose proof (MM_pos m n H H') as M. pose proof PI_RGT_0.
  assert (S : pp m + pp n = 4 * rho ^ 2 * MM m n / (dd m * dd n)).
  { unfold pp, MM. unfold dd in *. field. split; apply Rgt_not_eq; assumption. }
  rewrite S. replace (PI / (4 * rho ^ 2 * MM m n / (dd m * dd n))) with (PI / (4 * rho ^ 2) * (dd m * dd n) / MM m n) by (field; repeat split; try (apply Rgt_not_eq; assumption); destruct Hr; lra).
  assert (0 < PI / (4 * rho ^ 2)) by (apply Rdiv_lt_0_compat; lra). assert (0 < dd m * dd n) by (apply Rmult_lt_0_compat; assumption).
  rewrite sqrt_div by (try exact M; apply Rlt_le, Rmult_lt_0_compat; assumption). rewrite sqrt_mult by lra. rewrite (sqrt_mult (dd m)) by lra. reflexivity.
Qed.
Lemma ff_int m n : 0 < hp m -> 0 < hp n ->
  int3 (fun x y z => ff m x y z * ff n x y z)
       (sqrt (PI / (4 * rho ^ 2)) ^ 3 * (hw m * hw n * (sgn n / (MM m n * sqrt (MM m n)) * kern m n (rho / sqrt (AA m n))))).
Proof.
  intros H H'. pose proof (pp_pos m H) as P1. pose proof (pp_pos n H') as P2. pose proof (dd_pos m H) as D1. pose proof (dd_pos n H') as D2. pose proof (MM_pos m n H H') as M.
  pose proof (sqrt_lt_R0 _ D1) as E1. pose proof (sqrt_lt_R0 _ D2) as E2. pose proof (sqrt_lt_R0 _ M) as E3.
  assert (SM : sqrt (MM m n) * sqrt (MM m n) = MM m n) by (apply sqrt_sqrt; lra).
  apply (int3_ext (fun x y z => (hw m / (sqrt (dd m)) ^ 3 * (hw n / (sqrt (dd n)) ^ 3)) *
    ((lam (pp m) (ht m) (hx m) x * lam (pp n) (ht n) (hx n) x) * (lam (pp m) (hu m) (hy m) y * lam (pp n) (hu n) (hy n) y) * (lam (pp m) (hv m) (hz m) z * lam (pp n) (hv n) (hz n) z)))).
  { intros x y z. unfold ff. ring. }
  pose proof (int3_prod _ _ _ _ _ _ (gram (pp m) (pp n) (hx m) (hx n) P1 P2 (ht m) (ht n)) (gram (pp m) (pp n) (hy m) (hy n) P1 P2 (hu m) (hu n)) (gram (pp m) (pp n) (hz m) (hz n) P1 P2 (hv m) (hv n))) as K.
  apply (int3_scal (hw m / (sqrt (dd m)) ^ 3 * (hw n / (sqrt (dd n)) ^ 3))) in K.
  match type of K with int3 _ ?v => match goal with |- int3 _ ?w => replace w with v; [exact K|] end end.
  rewrite !(lam_shift _ _ _ (hx n)), !(lam_shift _ _ _ (hy n)), !(lam_shift _ _ _ (hz n)), beta_ok, pre_ok by assumption.
  unfold kern, sgn. cbv zeta. rewrite !pow_add. replace (MM m n * sqrt (MM m n)) with (sqrt (MM m n) ^ 3) by (transitivity ((sqrt (MM m n) * sqrt (MM m n)) * sqrt (MM m n)); [ring|rewrite SM; reflexivity]). clear SM.
  set (sm_ := sqrt (MM m n)) in *. clearbody sm_. set (s1 := sqrt (dd m)) in *. clearbody s1. set (s2 := sqrt (dd n)) in *. clearbody s2.
  field. repeat split; apply Rgt_not_eq; assumption.
Qed.
Lemma integrand_nonneg :
  0 <= lsum (fun m => lsum (fun n => hw m * hw n * (sgn n / (MM m n * sqrt (MM m n)) * kern m n (rho / sqrt (AA m n)))) L) L.
Proof.
  assert (C0 : 0 < sqrt (PI / (4 * rho ^ 2)) ^ 3) by (apply pow_lt, sqrt_lt_R0, Rdiv_lt_0_compat; [apply PI_RGT_0|pose proof rho2; lra]).
  apply (Rmult_le_reg_l _ _ _ C0). rewrite Rmult_0_r, <- lsum_scal.
  apply (int3_nonneg (fun x y z => lsum (fun m => ff m x y z) L * lsum (fun m => ff m x y z) L)).
  - intros x y z. apply Rle_0_sqr.
  - apply (int3_ext (fun x y z => lsum (fun m => lsum (fun n => ff m x y z * ff n x y z) L) L)); [intros; symmetry; apply (lsum_square (fun m => ff m x y z))|].
    apply (int3_lsum _ (fun m x y z => lsum (fun n => ff m x y z * ff n x y z) L)). intros m Hm. rewrite <- lsum_scal.
    apply (int3_lsum _ (fun n x y z => ff m x y z * ff n x y z)). intros n Hn. apply ff_int; apply Lpos; assumption.
Qed.
End Rho.
(** The form as the value at the end of a path with a non-negative derivative. *)
Let al (m n : hterm) : R := hp m * hp n / (hp m + hp n).
Let Ar (m n : hterm) (r : R) : R := al m n * (1 - r ^ 2) + r ^ 2.
Let sr (m n : hterm) (r : R) : R := r / sqrt (Ar m n r).
Lemma Ar_pos m n r : 0 < hp m -> 0 < hp n -> 0 <= r <= 1 -> 0 < Ar m n r.
Proof.
  intros H H' Hr. unfold Ar. assert (0 < al m n) by (unfold al; apply Rdiv_lt_0_compat; [apply Rmult_lt_0_compat; assumption|lra]).
  assert (0 <= r ^ 2 <= 1) by nra. destruct (Rlt_dec (r ^ 2) 1); [|nra]. pose proof (Rmult_lt_0_compat (al m n) (1 - r ^ 2)). lra.
Qed.
Lemma sr_derive (m n : hterm) (r : R) : 0 < hp m -> 0 < hp n -> 0 <= r <= 1 -> is_derive (sr m n) r (al m n / (Ar m n r * sqrt (Ar m n r))).
Proof.
  intros H H' Hr. pose proof (Ar_pos m n r H H' Hr) as A. unfold sr, Ar in *. pose proof (sqrt_lt_R0 _ A) as S.
  auto_derive. { split; [|split; [|exact I]]; cbn [pow] in *; [lra|apply Rgt_not_eq; exact S]. }
  replace (al m n * (1 + - (r * (r * 1))) + r * (r * 1)) with (al m n * (1 - r ^ 2) + r ^ 2) by ring.
  set (q := sqrt (al m n * (1 - r ^ 2) + r ^ 2)) in *.
  assert (Q : q * q = al m n * (1 - r ^ 2) + r ^ 2) by (apply sqrt_sqrt; lra). rewrite <- Q.
  assert (E : q * q - r ^ 2 * (1 - al m n) = al m n) by (rewrite Q; ring).
  replace (al m n / (q * q * q)) with ((q * q - r ^ 2 * (1 - al m n)) / (q * q * q)) by (rewrite E; reflexivity). field. apply Rgt_not_eq; exact S.
Qed.
Let Phi (r : R) : R := lsum (fun m => lsum (fun n => hw m * hw n * (sgn n / (hp m * hp n * sqrt (hp m + hp n)) * RInt (kern m n) 0 (sr m n r))) L) L.
Lemma is_derive_lsum X (F : X -> R -> R) (dF : X -> R) (l : list X) (r : R) : (forall m, In m l -> is_derive (F m) r (dF m)) -> is_derive (fun r => lsum (fun m => F m r) l) r (lsum dF l).
Proof.
  induction l as [|m l IH]; intros H; cbn [lsum]; [apply @is_derive_const|].
  apply (is_derive_plus (F m) (fun r => lsum (fun m => F m r) l)); [apply H; left; reflexivity|apply IH; intros; apply H; right; assumption].
Qed.
Lemma Phi_derive (r : R) : 0 <= r <= 1 -> is_derive Phi r
  (lsum (fun m => lsum (fun n => hw m * hw n * (sgn n / ((hp m * hp n * (1 - r ^ 2) + (hp m + hp n) * r ^ 2) * sqrt (hp m * hp n * (1 - r ^ 2) + (hp m + hp n) * r ^ 2)) * kern m n (sr m n r))) L) L).
Proof.
  intros Hr. unfold Phi. apply (is_derive_lsum _ (fun m r => lsum _ L)). intros m Hm. apply (is_derive_lsum _ (fun n r => _)). intros n Hn.
  pose proof (Lpos m Hm) as H. pose proof (Lpos n Hn) as H'. pose proof (Ar_pos m n r H H' Hr) as A.
  assert (D : is_derive (fun r => RInt (kern m n) 0 (sr m n r)) r (al m n / (Ar m n r * sqrt (Ar m n r)) * kern m n (sr m n r))).
  { apply (is_derive_comp (fun s => RInt (kern m n) 0 s) (sr m n) r (kern m n (sr m n r))); [|apply sr_derive; assumption].
    apply (is_derive_RInt (kern m n) _ 0).
    - apply filter_forall. intros y. apply (@RInt_correct R_CompleteNormedModule). apply nice_ex, nice_kern.
    - apply nice_kern. }
  evar_last; [apply is_derive_scal, is_derive_scal; exact D|].
  replace (hp m * hp n * (1 - r ^ 2) + (hp m + hp n) * r ^ 2) with ((hp m + hp n) * Ar m n r) by (unfold Ar, al; field; lra).
  rewrite sqrt_mult by lra. assert (S1 : 0 < sqrt (hp m + hp n)) by (apply sqrt_lt_R0; lra). pose proof (sqrt_lt_R0 _ A) as S2.
  set (k := kern m n _). clearbody k. unfold al. field. repeat split; apply Rgt_not_eq; first [assumption|lra].
Qed.
Lemma Phi_nonneg : 0 <= Phi 1.
Proof.
  destruct (MVT_cor2 Phi (fun r => lsum (fun m => lsum (fun n => hw m * hw n * (sgn n / ((hp m * hp n * (1 - r ^ 2) + (hp m + hp n) * r ^ 2) * sqrt (hp m * hp n * (1 - r ^ 2) + (hp m + hp n) * r ^ 2)) * kern m n (sr m n r))) L) L) 0 1)
    as (c & E & Hc); [lra|intros c Hc; apply is_derive_Reals, Phi_derive; exact Hc|].
  assert (Z : Phi 0 = 0).
  { unfold Phi. apply lsum_zero. intros m _. apply lsum_zero. intros n _. unfold sr. replace (0 / sqrt (Ar m n 0)) with 0 by (unfold Rdiv; ring). rewrite RInt_point. unfold zero; cbn. ring. }
  pose proof (integrand_nonneg c Hc) as K. cbv beta in E. rewrite Z in E. unfold sr, Ar, al in E. rewrite !Rminus_0_r, Rmult_1_r in E. rewrite E. exact K.
Qed.
Lemma form_nonneg : 0 <= form boysF L L.
Proof.
  assert (E : form boysF L L = 2 * Rpower PI (5 / 2) * Phi 1).
  { unfold form, Phi. rewrite <- lsum_scal. apply lsum_ext. intros m Hm. rewrite <- lsum_scal. apply lsum_ext. intros n Hn. rewrite coul_int.
    unfold sr, Ar. replace (al m n * (1 - 1 ^ 2) + 1 ^ 2) with 1 by ring. rewrite sqrt_1. unfold Rdiv. rewrite Rinv_1, Rmult_1_r. ring. }
  rewrite E. apply Rmult_le_pos; [|apply Phi_nonneg]. apply Rmult_le_pos; [lra|]. left. apply exp_pos.
Qed.
End Positive.
(** ** The Cauchy-Schwarz inequality of the form *)
Lemma sgn_sq n : sgn n * sgn n = 1.
Proof. unfold sgn. rewrite <- pow_add. replace (ht n + hu n + hv n + (ht n + hu n + hv n))%nat with (2 * (ht n + hu n + hv n))%nat by lia. apply pow_1_even. Qed.
Lemma coul_sym boys m n : coul boys m n = coul boys n m.
Proof.
  unfold coul. rewrite (Rplus_comm (hp n)), (Rmult_comm (hp n)). f_equal.
  rewrite (Nat.add_comm (ht n)), (Nat.add_comm (hu n)), (Nat.add_comm (hv n)).
  replace (hx n - hx m) with (- (hx m - hx n)) by ring. replace (hy n - hy m) with (- (hy m - hy n)) by ring. replace (hz n - hz m) with (- (hz m - hz n)) by ring.
  rewrite Rsp_parity. replace (ht m + ht n + (hu m + hu n) + (hv m + hv n))%nat with ((ht m + hu m + hv m) + (ht n + hu n + hv n))%nat by lia.
  rewrite (pow_add (-1) (ht m + hu m + hv m)). fold (sgn m) (sgn n). set (r := Rsp _ _ _ _ _ _ _ _ _).
  transitivity (1 * (sgn n * r)); [ring|]. rewrite <- (sgn_sq m). ring.
Qed.
Lemma form_sym boys L L' : form boys L L' = form boys L' L.
Proof. unfold form. rewrite lsum_swap. apply lsum_ext. intros n _. apply lsum_ext. intros m _. rewrite coul_sym. ring. Qed.
Definition scale (c : R) (m : hterm) : hterm :=
  {| hw := c * hw m; hp := hp m; hx := hx m; hy := hy m; hz := hz m; ht := ht m; hu := hu m; hv := hv m |}.
Lemma form_app boys L1 L2 L : form boys (L1 ++ L2) L = form boys L1 L + form boys L2 L.
Proof. apply lsum_app. Qed.
Lemma form_scale boys c L L' : form boys (map (scale c) L) L' = c * form boys L L'.
Proof.
  unfold form. rewrite lsum_map, <- lsum_scal. apply lsum_ext. intros m _. rewrite <- lsum_scal. apply lsum_ext. intros n _.
  cbn [scale hw]. change (coul boys (scale c m) n) with (coul boys m n). ring.
Qed.
Lemma form_cs L L' : List.Forall (fun m => 0 < hp m) L -> List.Forall (fun m => 0 < hp m) L' ->
  form boysF L L' * form boysF L L' <= form boysF L L * form boysF L' L'.
Proof.
  intros H H'. set (A := form boysF L L). set (B := form boysF L L'). set (D := form boysF L' L').
  assert (Q : forall x y, 0 <= x * x * A + 2 * (x * y) * B + y * y * D).
  { intros x y. assert (F : List.Forall (fun m => 0 < hp m) (map (scale x) L ++ map (scale y) L')).
    { apply List.Forall_app. rewrite !List.Forall_map. split; assumption. }
    pose proof (form_nonneg _ F) as N. rewrite form_app, !form_scale in N. rewrite (form_sym _ L), (form_sym _ L'), !form_app, !form_scale in N.
    fold A D in N. rewrite (form_sym _ L' L) in N. fold B in N. lra. }
  assert (A0 : 0 <= A) by (apply form_nonneg; exact H). assert (D0 : 0 <= D) by (apply form_nonneg; exact H').
  destruct (Req_dec D 0) as [Z|NZ].
  - assert (B = 0); [|nra]. destruct (Req_dec B 0) as [|NB]; [assumption|]. pose proof (Q 1 (- (A + 1) / (2 * B))) as K.
    rewrite Z in K. replace (2 * (1 * (- (A + 1) / (2 * B))) * B) with (- (A + 1)) in K by (field; exact NB). lra.
  - pose proof (Q D (- B)) as K. assert (0 < D) by lra. nra.
Qed.
(** ** The two-electron integrals as values of the form *)
Lemma lsum_flat X Y (f : Y -> R) (g : X -> list Y) L : lsum f (flat_map g L) = lsum (fun i => lsum f (g i)) L.
Proof. induction L as [|m L IH]; cbn; [reflexivity|]. rewrite lsum_app, IH. reflexivity. Qed.
Lemma lsum_seq (f : nat -> R) n : lsum f (seq 0 n) = sm n f.
Proof. induction n as [|n IH]; [reflexivity|]. rewrite seq_S, lsum_app, IH. cbn. ring. Qed.
(** The product of two basis functions as a list of weighted Hermite Gaussians. *)
Definition dens (s1 s2 : shell) (a b : nat) : list hterm :=
  let '(x1, y1, z1) := angm s1 a in let '(x2, y2, z2) := angm s2 b in
  flat_map (fun i => flat_map (fun j => flat_map (fun t => flat_map (fun u => map (fun v =>
    let p := ex s1 i + ex s2 j in
    let P := fun (pr : v3 -> R) => (ex s1 i * pr (s_center s1) + ex s2 j * pr (s_center s2)) / p in
    let E := fun (pr : v3 -> R) => Esp (pr (s_center s1)) (pr (s_center s2)) (ex s1 i) (ex s2 j) in
    {| hw := cc s1 i * cc s2 j * (s_norm s1 a i * s_norm s2 b j) * (E vx x1 x2 t * E vy y1 y2 u * E vz z1 z2 v);
       hp := p; hx := P vx; hy := P vy; hz := P vz; ht := t; hu := u; hv := v |})
    (seq 0 (z1 + z2 + 1))) (seq 0 (y1 + y2 + 1))) (seq 0 (x1 + x2 + 1))) (seq 0 (length (s_exps s2)))) (seq 0 (length (s_exps s1))).
Lemma lsum_dens s1 s2 a b (f : hterm -> R) x1 y1 z1 x2 y2 z2 : angm s1 a = (x1, y1, z1) -> angm s2 b = (x2, y2, z2) ->
  lsum f (dens s1 s2 a b) = sm (length (s_exps s1)) (fun i => sm (length (s_exps s2)) (fun j => sm (x1 + x2 + 1) (fun t => sm (y1 + y2 + 1) (fun u => sm (z1 + z2 + 1) (fun v =>
    let p := ex s1 i + ex s2 j in
    let P := fun (pr : v3 -> R) => (ex s1 i * pr (s_center s1) + ex s2 j * pr (s_center s2)) / p in
    let E := fun (pr : v3 -> R) => Esp (pr (s_center s1)) (pr (s_center s2)) (ex s1 i) (ex s2 j) in
    f {| hw := cc s1 i * cc s2 j * (s_norm s1 a i * s_norm s2 b j) * (E vx x1 x2 t * E vy y1 y2 u * E vz z1 z2 v);
       hp := p; hx := P vx; hy := P vy; hz := P vz; ht := t; hu := u; hv := v |}))))).
Proof.
  intros E1 E2. unfold dens. rewrite E1, E2. rewrite lsum_flat, lsum_seq. apply sm_ext. intros i _. rewrite lsum_flat, lsum_seq. apply sm_ext. intros j _.
  rewrite lsum_flat, lsum_seq. apply sm_ext. intros t _. rewrite lsum_flat, lsum_seq. apply sm_ext. intros u _. rewrite lsum_map, lsum_seq. reflexivity.
Qed.
Lemma dens_pos s1 s2 a b : positive s1 -> positive s2 -> List.Forall (fun m => 0 < hp m) (dens s1 s2 a b).
Proof.
  intros P1 P2. apply List.Forall_forall. intros m. unfold dens. destruct (angm s1 a) as [[x1 y1] z1], (angm s2 b) as [[x2 y2] z2].
  rewrite in_flat_map. intros (i & Hi & H). apply in_flat_map in H. destruct H as (j & Hj & H). apply in_flat_map in H. destruct H as (t & _ & H).
  apply in_flat_map in H. destruct H as (u & _ & H). apply in_map_iff in H. destruct H as (v & <- & _). cbn [hp].
  apply in_seq in Hi, Hj. pose proof (ex_pos s1 i P1 ltac:(lia)). pose proof (ex_pos s2 j P2 ltac:(lia)). lra.
Qed.
Lemma sm_out3 a b c d (F : nat -> nat -> nat -> nat -> R) :
  sm a (fun i => sm b (fun j => sm c (fun k => sm d (fun l => F i j k l)))) = sm d (fun l => sm a (fun i => sm b (fun j => sm c (fun k => F i j k l)))).
Proof.
  rewrite (sm_ext a _ (fun i => sm d (fun l => sm b (fun j => sm c (fun k => F i j k l))))); [apply sm_swap|].
  intros i _. rewrite (sm_ext b _ (fun j => sm d (fun l => sm c (fun k => F i j k l)))); [apply sm_swap|]. intros j _. apply sm_swap.
Qed.
Lemma eri_form boys mem s1 s2 s3 s4 a b c d : (a < nbf s1)%nat -> (b < nbf s2)%nat -> (c < nbf s3)%nat -> (d < nbf s4)%nat ->
  electron_repulsion_integral boys mem s1 s2 s3 s4 a b c d = form boys (dens s1 s2 a b) (dens s3 s4 c d).
Proof.
  intros A B C D. destruct (angm s1 a) as [[x1 y1] z1] eqn:E1, (angm s2 b) as [[x2 y2] z2] eqn:E2, (angm s3 c) as [[x3 y3] z3] eqn:E3, (angm s4 d) as [[x4 y4] z4] eqn:E4.
  unfold electron_repulsion_integral, form. rewrite (lsum_dens s1 s2 a b _ _ _ _ _ _ _ E1 E2). cbv zeta.
  apply sm_ext. intros i _. apply sm_ext. intros j _.
  rewrite (sm_ext (x1 + x2 + 1) _ (fun t => sm (y1 + y2 + 1) (fun u => sm (z1 + z2 + 1) (fun v => sm (length (s_exps s3)) (fun k => sm (length (s_exps s4)) (fun l =>
     sm (x3 + x4 + 1) (fun tau => sm (y3 + y4 + 1) (fun nu => sm (z3 + z4 + 1) (fun phi =>
     let p := ex s1 i + ex s2 j in
     let P := fun (pr : v3 -> R) => (ex s1 i * pr (s_center s1) + ex s2 j * pr (s_center s2)) / p in
     let q := ex s3 k + ex s4 l in
     let Q := fun (pr : v3 -> R) => (ex s3 k * pr (s_center s3) + ex s4 l * pr (s_center s4)) / q in
     let E := fun (pr : v3 -> R) => Esp (pr (s_center s1)) (pr (s_center s2)) (ex s1 i) (ex s2 j) in
     let F := fun (pr : v3 -> R) => Esp (pr (s_center s3)) (pr (s_center s4)) (ex s3 k) (ex s4 l) in
     cc s1 i * cc s2 j * cc s3 k * cc s4 l * eri_norm s1 s2 s3 s4 a b c d i j k l
     * ((-1) ^ (tau + nu + phi) * (F vx x3 x4 tau * F vy y3 y4 nu * F vz z3 z4 phi) * (E vx x1 x2 t * E vy y1 y2 u * E vz z1 z2 v)
        * Rsp boys (p * q / (p + q)) (P vx - Q vx) (P vy - Q vy) (P vz - Q vz) (t + tau) (u + nu) (v + phi) 0)))))))))).
  2:{ intros t _. apply sm_ext. intros u _. apply sm_ext. intros v _. rewrite (lsum_dens s3 s4 c d _ _ _ _ _ _ _ E3 E4). cbv zeta.
      apply sm_ext. intros k _. apply sm_ext. intros l _. apply sm_ext. intros tau _. apply sm_ext. intros nu _. apply sm_ext. intros phi _.
      unfold coul, sgn, eri_norm. cbn [hw hp hx hy hz ht hu hv]. unfold Rdiv. ring. }
  cbv zeta.
  rewrite sm_out3. apply sm_ext. intros k _. rewrite sm_out3. apply sm_ext. intros l _.
  rewrite eri_terms by assumption. rewrite E1, E2, E3, E4. unfold eri_term. rewrite sm6_swap.
  match goal with |- ?k * (?S * ?n) = _ => replace (k * (S * n)) with ((k * n) * S) by ring end.
  rewrite <- sm_scal. apply sm_ext. intros t _. rewrite <- sm_scal. apply sm_ext. intros u _. rewrite <- sm_scal. apply sm_ext. intros v _. rewrite <- sm_scal. apply sm_ext. intros tau _. rewrite <- sm_scal. apply sm_ext. intros nu _. rewrite <- sm_scal. apply sm_ext. intros phi _.
  ring.
Qed.
Theorem eri_cauchy_schwarz mem s1 s2 s3 s4 a b c d : positive s1 -> positive s2 -> positive s3 -> positive s4 ->
  (a < nbf s1)%nat -> (b < nbf s2)%nat -> (c < nbf s3)%nat -> (d < nbf s4)%nat ->
  let g := electron_repulsion_integral boysF mem in
  0 <= g s1 s2 s1 s2 a b a b /\ g s1 s2 s3 s4 a b c d * g s1 s2 s3 s4 a b c d <= g s1 s2 s1 s2 a b a b * g s3 s4 s3 s4 c d c d.
Proof.
  intros P1 P2 P3 P4 A B C D g. unfold g. rewrite !eri_form by assumption. split.
  - apply form_nonneg, dens_pos; assumption.
  - apply form_cs; apply dens_pos; assumption.
Qed.
