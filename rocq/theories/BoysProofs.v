(** Proofs about [boys_function]: exact values, remainders and error bounds. *)
From Coq Require Import List Bool Arith ZArith Lia Reals Lra Psatz.
From Coquelicot Require Import Coquelicot.
Require Import Verif.IntegralModel Verif.IntegralProofs Verif.GaussProofs Verif.OneElectron Verif.Coulomb Verif.BoysModel.
Import ListNotations.
Local Open Scope R_scope.

Lemma bF_ex n z a b : ex_RInt (fun s => s ^ (2 * n) * exp (- z * s ^ 2)) a b.
Proof. apply (@ex_RInt_continuous R_CompleteNormedModule). intros; apply boys_cont. Qed.
Lemma spow_split (s : R) n : s ^ (2 * S n) = s ^ 2 * s ^ (2 * n).
Proof. replace (2 * S n)%nat with (2 + 2 * n)%nat by lia. apply pow_add. Qed.
Lemma pexp_derive m z (s : R) : is_derive (fun s => s ^ m * exp (- z * s ^ 2)) s (INR m * s ^ pred m * exp (- z * s ^ 2) + s ^ m * (- z * (2 * s)) * exp (- z * s ^ 2)).
Proof. auto_derive; [exact I|]. generalize (s ^ m) (s ^ pred m). intros. cbn [pow]. ring. Qed.
Lemma ppow_derive m (c s : R) : is_derive (fun s => s ^ m / c) s (INR m * s ^ pred m / c).
Proof. auto_derive; [exact I|]. generalize (s ^ m) (s ^ pred m). intros. unfold Rdiv. ring. Qed.
(** Integration by parts between any two points. *)
Lemma part_ibp n z (a b : R) : (2 * INR n + 1) * RInt (fun s => s ^ (2 * n) * exp (- z * s ^ 2)) a b
  - 2 * z * RInt (fun s => s ^ (2 * S n) * exp (- z * s ^ 2)) a b
  = b ^ (2 * n + 1) * exp (- z * b ^ 2) - a ^ (2 * n + 1) * exp (- z * a ^ 2).
Proof.
  set (G := fun s : R => s ^ (2 * n + 1) * exp (- z * s ^ 2)).
  set (g := fun s : R => (2 * INR n + 1) * (s ^ (2 * n) * exp (- z * s ^ 2)) + (-2 * z) * (s ^ (2 * S n) * exp (- z * s ^ 2))).
  assert (D : forall s, is_derive G s (g s)).
  { intros s. unfold G, g. evar_last; [apply (pexp_derive (2 * n + 1))|]. rewrite spow_split. replace (pred (2 * n + 1)) with (2 * n)%nat by lia.
    replace (INR (2 * n + 1)) with (2 * INR n + 1) by (rewrite plus_INR, mult_INR; cbn; ring).
    rewrite (pow_add s (2 * n) 1). generalize (s ^ (2 * n)). intros. cbn [pow]. ring. }
  assert (E : is_RInt g a b (G b - G a)).
  { apply (is_RInt_derive G g); [intros; apply D|]. intros s _. unfold g. apply @ex_derive_continuous. auto_derive. repeat split. }
  apply (@is_RInt_unique R_CompleteNormedModule) in E. unfold g in E.
  rewrite (RInt_plus_R (fun s => (2 * INR n + 1) * (s ^ (2 * n) * exp (- z * s ^ 2))) (fun s => (-2 * z) * (s ^ (2 * S n) * exp (- z * s ^ 2)))) in E.
  - rewrite (RInt_scal_R (fun s => s ^ (2 * n) * exp (- z * s ^ 2))) in E by apply bF_ex.
    rewrite (RInt_scal_R (fun s => s ^ (2 * S n) * exp (- z * s ^ 2))) in E by apply bF_ex. fold (G b) (G a). lra.
  - apply (@ex_RInt_scal R_NormedModule (fun s => s ^ (2 * n) * exp (- z * s ^ 2))). apply bF_ex.
  - apply (@ex_RInt_scal R_NormedModule (fun s => s ^ (2 * S n) * exp (- z * s ^ 2))). apply bF_ex.
Qed.
Lemma boysF_rec n z : (2 * INR n + 1) * boysF n z = exp (- z) + 2 * z * boysF (S n) z.
Proof.
  pose proof (part_ibp n z 0 1) as E. fold (boysF n z) in E. fold (boysF (S n) z) in E.
  rewrite pow1 in E. rewrite (pow_ne_zero (2 * n + 1)) in E by lia. replace (- z * 1 ^ 2) with (- z) in E by ring. lra.
Qed.
Lemma boysF_pos n z : 0 <= boysF n z.
Proof.
  apply RInt_ge_0; [lra|apply bF_ex|]. intros s Hs. apply Rmult_le_pos; [apply pow_le; lra|left; apply exp_pos].
Qed.
Lemma pow_int n : RInt (fun s => s ^ (2 * n)) 0 1 = / (2 * INR n + 1).
Proof.
  apply is_RInt_unique. assert (N : 2 * INR n + 1 <> 0) by (pose proof (pos_INR n); lra).
  replace (/ (2 * INR n + 1)) with ((fun s : R => s ^ (2 * n + 1) / (2 * INR n + 1)) 1 - (fun s : R => s ^ (2 * n + 1) / (2 * INR n + 1)) 0).
  2:{ cbv beta. rewrite pow1, pow_ne_zero by lia. field. exact N. }
  apply (is_RInt_derive (fun s : R => s ^ (2 * n + 1) / (2 * INR n + 1))).
  - intros s _. evar_last; [apply (ppow_derive (2 * n + 1))|]. replace (pred (2 * n + 1)) with (2 * n)%nat by lia.
    replace (INR (2 * n + 1)) with (2 * INR n + 1) by (rewrite plus_INR, mult_INR; cbn; ring). field. exact N.
  - intros s _. apply @ex_derive_continuous. auto_derive. exact I.
Qed.
Lemma pow_ex n a b : ex_RInt (fun s : R => s ^ (2 * n)) a b.
Proof. apply (@ex_RInt_continuous R_CompleteNormedModule). intros s _. apply @ex_derive_continuous. auto_derive. exact I. Qed.
Lemma exp_mono x y : x <= y -> exp x <= exp y.
Proof. intros [H|H]; [left; apply exp_increasing; exact H|right; rewrite H; reflexivity]. Qed.
Lemma boysF_le n z : 0 <= z -> boysF n z <= / (2 * INR n + 1).
Proof.
  intros Hz. rewrite <- pow_int. apply RInt_le; [lra|apply bF_ex|apply pow_ex|]. intros s Hs.
  rewrite <- (Rmult_1_r (s ^ (2 * n))) at 2. apply Rmult_le_compat_l; [apply pow_le; lra|].
  rewrite <- exp_0. apply exp_mono. nra.
Qed.
(** For small [z]. *)
Lemma boysF_small n z : 0 <= z -> 0 <= / (2 * INR n + 1) - boysF n z <= z / (2 * INR n + 3).
Proof.
  intros Hz. split; [pose proof (boysF_le n z Hz); lra|]. rewrite <- pow_int.
  replace (2 * INR n + 3) with (2 * INR (S n) + 1) by (rewrite S_INR; ring). unfold Rdiv. rewrite <- pow_int.
  rewrite <- (RInt_scal_R (fun s => s ^ (2 * S n))) by apply pow_ex. 
  enough (RInt (fun s : R => s ^ (2 * n)) 0 1 <= RInt (fun t : R => t ^ (2 * n) * exp (- z * t ^ 2) + z * t ^ (2 * S n)) 0 1).
  { rewrite (RInt_plus_R (fun t => t ^ (2 * n) * exp (- z * t ^ 2)) (fun t => z * t ^ (2 * S n))) in H; [unfold boysF; lra|apply bF_ex|].
    apply (@ex_RInt_scal R_NormedModule (fun s => s ^ (2 * S n))). apply pow_ex. }
  apply RInt_le; [lra|apply pow_ex| |].
  - apply (@ex_RInt_plus R_NormedModule (fun t => t ^ (2 * n) * exp (- z * t ^ 2)) (fun t => z * t ^ (2 * S n))); [apply bF_ex|].
    apply (@ex_RInt_scal R_NormedModule (fun s => s ^ (2 * S n))). apply pow_ex.
  - intros s Hs. rewrite spow_split. pose proof (pow_le s (2 * n) ltac:(lra)) as P. pose proof (exp_ineq1_le (- z * s ^ 2)). 
    generalize dependent (s ^ (2 * n)). intros q P. apply Rle_trans with (q * (1 + - z * s ^ 2) + z * (s ^ 2 * q)); [right; ring|].
    apply Rplus_le_compat_r. apply Rmult_le_compat_l; assumption.
Qed.
(** ** [n = 0] *)
Lemma boysF_0_erf z : 0 < z -> boysF 0 z = / sqrt z * gerf (sqrt z).
Proof.
  intros Hz. assert (S0 : 0 < sqrt z) by (apply sqrt_lt_R0; exact Hz). unfold boysF.
  transitivity (RInt (fun s => / sqrt z * (sqrt z * exp (- (sqrt z * s + 0) ^ 2))) 0 1).
  - apply RInt_ext_R. intros s. rewrite <- Rmult_assoc, Rinv_l, Rmult_1_l by lra. cbn [Nat.mul pow]. rewrite Rmult_1_l. f_equal.
    replace (- ((sqrt z * s + 0) * ((sqrt z * s + 0) * 1))) with (- (sqrt z * sqrt z) * (s * (s * 1))) by ring. rewrite sqrt_sqrt by lra. reflexivity.
  - rewrite (RInt_scal_R (fun s => sqrt z * exp (- (sqrt z * s + 0) ^ 2))).
    + f_equal. rewrite (RInt_lin_R (fun t => exp (- t ^ 2))) by (apply (@ex_RInt_continuous R_CompleteNormedModule); intros; apply gcont).
      unfold gerf. f_equal; ring.
    + apply (@ex_RInt_continuous R_CompleteNormedModule). intros s _. apply @ex_derive_continuous. auto_derive. exact I.
Qed.
Lemma boys_function_zero z : 1 / 10 ^ 10 <= z -> boys_function 0 z = boysF 0 z.
Proof.
  intros Hz. assert (Z0 : 0 < z) by (eapply Rlt_le_trans; [|exact Hz]; apply Rdiv_lt_0_compat; [lra|apply pow_lt; lra]).
  unfold boys_function. destruct (Rlt_dec z (1 / 10 ^ 10)) as [L|_]; [lra|]. rewrite boysF_0_erf by exact Z0.
  assert (S0 : 0 < sqrt z) by (apply sqrt_lt_R0; exact Z0). assert (P0 : 0 < sqrt PI) by (apply sqrt_lt_R0, PI_RGT_0).
  rewrite sqrt_div_alt by lra. rewrite sqrt_mult by lra. replace (sqrt 4) with 2 by (rewrite <- (sqrt_square 2) by lra; f_equal; ring).
  change (erf (sqrt z)) with (2 / sqrt PI * gerf (sqrt z)). generalize dependent (sqrt PI). generalize dependent (sqrt z). intros. field. split; lra.
Qed.
(** ** Series *)
Definition term n z i : R := (2 * z) ^ i / factorial2_odd (n + i + 1).
Lemma boysF_series n z N : boysF n z = sm N (term n z) * (exp (- z) * factorial2_odd n)
  + (2 * z) ^ N * factorial2_odd n / factorial2_odd (n + N) * boysF (n + N) z.
Proof.
  induction N as [|N IH].
  - cbn [sm pow]. rewrite Nat.add_0_r. field. pose proof (fact2_pos n). lra.
  - rewrite IH. cbn [sm]. unfold term at 3. replace (n + S N)%nat with (S (n + N)) by lia. replace (n + N + 1)%nat with (S (n + N)) by lia.
    rewrite !fact2_S. pose proof (boysF_rec (n + N) z) as E. pose proof (fact2_pos (n + N)) as F. pose proof (pos_INR (n + N)) as Q.
    assert (V : boysF (n + N) z = (exp (- z) + 2 * z * boysF (S (n + N)) z) / (2 * INR (n + N) + 1)) by (field_simplify_eq; lra).
    rewrite V. generalize (sm N (term n z)). intros. cbn [pow]. field. lra.
Qed.
Lemma boys_loop_run th n z : forall fuel i F, 0 <= z -> (1 <= fuel)%nat -> exists N, (i < N <= i + fuel)%nat /\
  boys_loop th n z fuel i F = F + (sm N (term n z) - sm i (term n z)) /\ (forall k, (i <= k)%nat -> (S k < N)%nat -> th <= term n z k)
  /\ (term n z (N - 1) < th \/ N = (i + fuel)%nat).
Proof.
  induction fuel as [|fuel IH]; intros i F Hz Hf; [lia|]. cbn [boys_loop]. fold (term n z i).
  assert (T0 : 0 <= term n z i) by (apply Rmult_le_pos; [apply pow_le; lra|left; apply Rinv_0_lt_compat, fact2_pos]).
  replace (F - (F + term n z i)) with (- term n z i) by ring. rewrite Rabs_Ropp, (Rabs_pos_eq _ T0).
  destruct (Rlt_dec (term n z i) th) as [L|L].
  - exists (S i). split; [lia|]. split; [cbn [sm]; ring|]. split; [intros; lia|]. left. replace (S i - 1)%nat with i by lia. exact L.
  - destruct fuel as [|fuel].
    + exists (S i). split; [lia|]. split; [cbn [boys_loop sm]; ring|]. split; [intros; lia|]. right. lia.
    + destruct (IH (S i) (F + term n z i) Hz ltac:(lia)) as (N & HN & E & M & B). exists N. split; [lia|]. split; [rewrite E; cbn [sm]; ring|].
      split; [intros k K1 K2; destruct (Nat.eq_dec k i) as [->|]; [lra|apply M; lia]|]. destruct B as [B| ->]; [left; exact B|right; lia].
Qed.
(** The terms become small long before the thousandth. *)
Fixpoint zfact2 (l : nat) : Z := match l with O => 1%Z | S l => ((2 * Z.of_nat l + 1) * zfact2 l)%Z end.
Lemma zfact2_ok l : IZR (zfact2 l) = factorial2_odd l.
Proof. induction l as [|l IH]; [reflexivity|]. cbn [zfact2]. rewrite fact2_S, mult_IZR, plus_IZR, mult_IZR, IH, <- INR_IZR_INZ. reflexivity. Qed.
Lemma fact2_mono l k : factorial2_odd l <= factorial2_odd (l + k).
Proof.
  induction k as [|k IH]; [rewrite Nat.add_0_r; lra|]. rewrite Nat.add_succ_r, fact2_S. pose proof (fact2_pos (l + k)). pose proof (pos_INR (l + k)).
  eapply Rle_trans; [exact IH|]. nra.
Qed.
Lemma cross u f t : 0 < f -> 0 < t -> u * t < f -> u / f < 1 / t.
Proof.
  intros F T H. apply Rmult_lt_reg_r with (t * f); [nra|]. replace (u / f * (t * f)) with (u * t) by (field; lra). replace (1 / t * (t * f)) with f by (field; lra). exact H.
Qed.
Lemma term_120 n z : 0 <= z <= 25 -> term n z 120 < 1 / 10 ^ 12.
Proof.
  intros Hz. unfold term. apply Rle_lt_trans with (50 ^ 120 / factorial2_odd 121).
  - apply Rmult_le_compat; [apply pow_le; lra|left; apply Rinv_0_lt_compat, fact2_pos|apply pow_incr; lra|].
    apply Rinv_le_contravar; [apply fact2_pos|]. replace (n + 120 + 1)%nat with (121 + n)%nat by lia. apply fact2_mono.
  - apply cross; [apply fact2_pos|apply pow_lt; lra|]. rewrite <- zfact2_ok, !pow_IZR, <- mult_IZR. apply IZR_lt. vm_compute. reflexivity.
Qed.
(** The series branch: what it returns, and the remainder. *)
Lemma boys_series_branch n z : (0 < n)%nat -> 1 / 10 ^ 10 <= z <= 25 -> exists N, (1 <= N <= 121)%nat /\
  boysF n z - boys_function n z = (2 * z) ^ N * factorial2_odd n / factorial2_odd (n + N) * boysF (n + N) z
  /\ term n z (N - 1) < 1 / 10 ^ 12 /\ (forall k, (S k < N)%nat -> 1 / 10 ^ 12 <= term n z k).
Proof.
  intros Hn Hz. assert (Z0 : 0 < z) by (eapply Rlt_le_trans; [|apply Hz]; apply Rdiv_lt_0_compat; [lra|apply pow_lt; lra]).
  unfold boys_function. destruct n as [|n]; [lia|]. destruct (Rlt_dec 25 z) as [L|_]; [lra|]. destruct (Rlt_dec z (1 / 10 ^ 10)) as [L|_]; [lra|].
  destruct (boys_loop_run (1 / 10 ^ 12) (S n) z 1000 0 0 ltac:(lra) ltac:(lia)) as (N & HN & E & M & B).
  assert (N121 : (N <= 121)%nat).
  { destruct (le_lt_dec N 121) as [|G]; [assumption|]. exfalso. pose proof (M 120%nat ltac:(lia) ltac:(lia)). pose proof (term_120 (S n) z ltac:(lra)). lra. }
  exists N. split; [lia|]. split.
  - rewrite E. cbn [sm]. rewrite (boysF_series (S n) z N) at 1. ring.
  - split; [destruct B as [B|B]; [exact B|lia]|]. intros k K. apply M; lia.
Qed.
Lemma boys_series_error n z : (0 < n)%nat -> 1 / 10 ^ 10 <= z <= 25 ->
  0 <= boysF n z - boys_function n z <= 2 * z * factorial2_odd n / (2 * INR n + 3) / 10 ^ 12.
Proof.
  intros Hn Hz. assert (Z0 : 0 < z) by (eapply Rlt_le_trans; [|apply Hz]; apply Rdiv_lt_0_compat; [lra|apply pow_lt; lra]).
  destruct (boys_series_branch n z Hn Hz) as (N & HN & E & T & _). rewrite E. pose proof (fact2_pos n) as F1. pose proof (fact2_pos (n + N)) as F2.
  pose proof (boysF_pos (n + N) z) as B0. pose proof (boysF_le (n + N) z ltac:(lra)) as B1. split.
  - apply Rmult_le_pos; [|exact B0]. apply Rmult_le_pos; [apply Rmult_le_pos; [apply pow_le|]; lra|]. left. apply Rinv_0_lt_compat. exact F2.
  - replace ((2 * z) ^ N * factorial2_odd n / factorial2_odd (n + N) * boysF (n + N) z) with (2 * z * factorial2_odd n * (term n z (N - 1) * boysF (n + N) z)).
    + replace (2 * z * factorial2_odd n / (2 * INR n + 3) / 10 ^ 12) with (2 * z * factorial2_odd n * (1 / 10 ^ 12 * / (2 * INR n + 3))).
      2:{ pose proof (pos_INR n). assert (T12 : 10 ^ 12 <> 0) by (apply pow_nonzero; lra). revert T12. generalize (10 ^ 12). intros. field. split; lra. }
      apply Rmult_le_compat_l; [nra|]. apply Rmult_le_compat; [|exact B0|lra|].
      * apply Rmult_le_pos; [apply pow_le; lra|left; apply Rinv_0_lt_compat, fact2_pos].
      * eapply Rle_trans; [exact B1|]. pose proof (pos_INR n). apply Rinv_le_contravar; [lra|]. rewrite plus_INR.
        assert (1 <= INR N) by (change 1 with (INR 1); apply le_INR; lia). lra.
    + unfold term. replace (n + (N - 1) + 1)%nat with (n + N)%nat by lia. destruct N as [|N]; [lia|]. replace (S N - 1)%nat with N by lia. cbn [pow]. generalize ((2 * z) ^ N). intros. field. lra.
Qed.
(** For [n >= 12] the first term is already below the threshold. *)
Lemma boys_first_term n z : (12 <= n)%nat -> 1 / 10 ^ 10 <= z <= 25 -> boys_function n z = exp (- z) / (2 * INR n + 1).
Proof.
  intros Hn Hz. unfold boys_function. destruct n as [|n]; [lia|]. destruct (Rlt_dec 25 z) as [L|_]; [lra|]. destruct (Rlt_dec z (1 / 10 ^ 10)) as [L|_]; [lra|].
  change 1000%nat with (S 999). generalize 999%nat. intros fuel. cbn [boys_loop]. fold (term (S n) z 0).
  assert (T0 : term (S n) z 0 = / factorial2_odd (S (S n))).
  { unfold term. cbn [pow]. replace (S n + 0 + 1)%nat with (S (S n)) by lia. unfold Rdiv. ring. }
  assert (TS : 0 < term (S n) z 0 < 1 / 10 ^ 12).
  { rewrite T0. split; [apply Rinv_0_lt_compat, fact2_pos|]. apply Rle_lt_trans with (/ factorial2_odd 13).
    - apply Rinv_le_contravar; [apply fact2_pos|]. replace (S (S n)) with (13 + (n - 11))%nat by lia. apply fact2_mono.
    - rewrite <- zfact2_ok. unfold Rdiv. rewrite Rmult_1_l. apply Rinv_lt_contravar.
      + apply Rmult_lt_0_compat; [apply pow_lt; lra|]. rewrite zfact2_ok. apply fact2_pos.
      + rewrite pow_IZR. apply IZR_lt. vm_compute. reflexivity. }
  replace (0 - (0 + term (S n) z 0)) with (- term (S n) z 0) by ring. rewrite Rabs_Ropp, Rabs_pos_eq by lra.
  destruct (Rlt_dec (term (S n) z 0) (1 / 10 ^ 12)) as [_|L]; [|lra]. rewrite T0, (fact2_S (S n)). pose proof (fact2_pos (S n)). pose proof (pos_INR (S n)). field. lra.
Qed.
Lemma boysF_lower n z : 0 <= z -> (1 + 2 * z / (2 * INR n + 3)) * (exp (- z) / (2 * INR n + 1)) <= boysF n z.
Proof.
  intros Hz. pose proof (boysF_rec n z) as E1. pose proof (boysF_rec (S n) z) as E2. pose proof (boysF_pos (S (S n)) z) as P. pose proof (pos_INR n). rewrite S_INR in E2.
  assert (L : exp (- z) / (2 * INR n + 3) <= boysF (S n) z).
  { apply Rmult_le_reg_l with (2 * INR n + 3); [lra|]. replace (2 * (INR n + 1) + 1) with (2 * INR n + 3) in E2 by ring. rewrite E2.
    replace ((2 * INR n + 3) * (exp (- z) / (2 * INR n + 3))) with (exp (- z)) by (field; lra). nra. }
  apply Rmult_le_reg_l with (2 * INR n + 1); [lra|]. rewrite E1.
  replace ((2 * INR n + 1) * ((1 + 2 * z / (2 * INR n + 3)) * (exp (- z) / (2 * INR n + 1)))) with (exp (- z) + 2 * z * (exp (- z) / (2 * INR n + 3))) by (field; lra).
  apply Rplus_le_compat_l. apply Rmult_le_compat_l; lra.
Qed.
(** ** Long range *)
Lemma gcont_R (s : R) : continuous (fun t => exp (- t ^ 2)) s.
Proof. apply @ex_derive_continuous. auto_derive. exact I. Qed.
Lemma gerf_gap x y : 0 < x <= y -> 0 <= gerf y - gerf x <= exp (- x ^ 2) / (2 * x).
Proof.
  intros Hx. assert (EX : forall a b, ex_RInt (fun t => exp (- t ^ 2)) a b) by (intros; apply (@ex_RInt_continuous R_CompleteNormedModule); intros; apply gcont_R).
  assert (C : gerf y - gerf x = RInt (fun t => exp (- t ^ 2)) x y).
  { unfold gerf. pose proof (@RInt_Chasles R_CompleteNormedModule (fun t => exp (- t ^ 2)) 0 x y (EX 0 x) (EX x y)) as E. unfold plus in E; cbn [AbelianGroup.plus] in E; cbn in E. 
    change (RInt (fun t => exp (- t ^ 2)) 0 x + RInt (fun t => exp (- t ^ 2)) x y = RInt (fun t => exp (- t ^ 2)) 0 y) in E. lra. }
  rewrite C. split; [apply RInt_ge_0; [lra|apply EX|intros; left; apply exp_pos]|].
  assert (V : is_RInt (fun t => / x * (t * exp (- t ^ 2))) x y ((fun t => - / (2 * x) * exp (- t ^ 2)) y - (fun t => - / (2 * x) * exp (- t ^ 2)) x)).
  { apply (is_RInt_derive (fun t => - / (2 * x) * exp (- t ^ 2))).
    - intros t _. auto_derive; [exact I|]. cbn [pow]. field. lra.
    - intros t _. apply @ex_derive_continuous. auto_derive. exact I. }
  apply Rle_trans with (RInt (fun t => / x * (t * exp (- t ^ 2))) x y).
  - apply RInt_le; [lra|apply EX|eexists; exact V|]. intros t Ht. rewrite <- Rmult_assoc. rewrite <- (Rmult_1_l (exp (- t ^ 2))) at 1.
    apply Rmult_le_compat_r; [left; apply exp_pos|]. apply Rmult_le_reg_l with x; [lra|]. rewrite <- Rmult_assoc, Rinv_r, Rmult_1_l by lra. lra.
  - rewrite (@is_RInt_unique R_CompleteNormedModule _ _ _ _ V). cbv beta.
    assert (0 <= / (2 * x) * exp (- y ^ 2)) by (apply Rmult_le_pos; left; [apply Rinv_0_lt_compat; lra|apply exp_pos]). unfold Rdiv. lra.
Qed.
Lemma gerf_tail x : 0 < x -> 0 <= sqrt PI / 2 - gerf x <= exp (- x ^ 2) / (2 * x).
Proof.
  intros Hx. split.
  - apply Rnot_lt_le. intros H. destruct (gerf_near (gerf x - sqrt PI / 2) ltac:(lra)) as (M & HM).
    pose proof (Rmax_l M x). pose proof (Rmax_r M x). specialize (HM (Rmax M x + 1) ltac:(lra)). destruct (gerf_gap x (Rmax M x + 1) ltac:(lra)) as [G _].
    apply Rabs_def2 in HM. lra.
  - apply Rnot_lt_le. intros H. destruct (gerf_near (sqrt PI / 2 - gerf x - exp (- x ^ 2) / (2 * x)) ltac:(lra)) as (M & HM).
    pose proof (Rmax_l M x). pose proof (Rmax_r M x). specialize (HM (Rmax M x + 1) ltac:(lra)). destruct (gerf_gap x (Rmax M x + 1) ltac:(lra)) as [_ G].
    apply Rabs_def2 in HM. lra.
Qed.
Definition boysG n z : R := factorial2_odd n / 2 ^ (n + 1) * sqrt (PI / z ^ (2 * n + 1)).
Lemma boysG_S n z : 0 < z -> boysG (S n) z = (2 * INR n + 1) / (2 * z) * boysG n z.
Proof.
  intros Hz. unfold boysG. rewrite fact2_S. replace (PI / z ^ (2 * S n + 1)) with (/ z ^ 2 * (PI / z ^ (2 * n + 1))).
  - rewrite sqrt_mult.
    + replace (sqrt (/ z ^ 2)) with (/ z).
      * replace (S n + 1)%nat with (S (n + 1)) by lia. cbn [pow]. assert (T : 2 ^ (n + 1) <> 0) by (apply pow_nonzero; lra). revert T. generalize (2 ^ (n + 1)) (sqrt (PI / z ^ (2 * n + 1))). intros. field. split; lra.
      * rewrite <- (sqrt_square (/ z)) by (left; apply Rinv_0_lt_compat; exact Hz). f_equal. field. lra.
    + left. apply Rinv_0_lt_compat, pow_lt, Hz.
    + left. apply Rdiv_lt_0_compat; [apply PI_RGT_0|apply pow_lt, Hz].
  - replace (2 * S n + 1)%nat with (2 + (2 * n + 1))%nat by lia. rewrite (pow_add z 2 (2 * n + 1)). assert (T : z ^ (2 * n + 1) <> 0) by (apply pow_nonzero; lra). revert T. generalize (z ^ (2 * n + 1)). intros. field. split; lra.
Qed.
Lemma boysG_0 z : 0 < z -> 0 <= boysG 0 z - boysF 0 z <= exp (- z) / (2 * z).
Proof.
  intros Hz. assert (S0 : 0 < sqrt z) by (apply sqrt_lt_R0; exact Hz). rewrite boysF_0_erf by exact Hz.
  assert (E : boysG 0 z = / sqrt z * (sqrt PI / 2)).
  { unfold boysG. replace (PI / z ^ (2 * 0 + 1)) with (PI / z) by (cbn [Nat.mul Nat.add pow]; field; lra). rewrite sqrt_div_alt by exact Hz.
    change (factorial2_odd 0) with 1. cbn [Nat.add pow]. clear Hz. generalize dependent (sqrt z). intros. field. lra. }
  rewrite E. pose proof (gerf_tail (sqrt z) S0) as [T0 T1]. rewrite <- Rmult_minus_distr_l. split.
  - apply Rmult_le_pos; [left; apply Rinv_0_lt_compat; exact S0|lra].
  - replace (exp (- z) / (2 * z)) with (/ sqrt z * (exp (- sqrt z ^ 2) / (2 * sqrt z))).
    + apply Rmult_le_compat_l; [left; apply Rinv_0_lt_compat; exact S0|exact T1].
    + replace (sqrt z ^ 2) with z by (cbn [pow]; rewrite Rmult_1_r, sqrt_sqrt by lra; reflexivity).
      replace (2 * z) with (2 * (sqrt z * sqrt z)) by (rewrite sqrt_sqrt by lra; reflexivity). generalize dependent (sqrt z). intros. field. lra.
Qed.
Lemma boysG_gap n z : 0 < z -> boysG (S n) z - boysF (S n) z = ((2 * INR n + 1) * (boysG n z - boysF n z) + exp (- z)) / (2 * z).
Proof.
  intros Hz. rewrite boysG_S by exact Hz. pose proof (boysF_rec n z) as E.
  assert (V : boysF (S n) z = ((2 * INR n + 1) * boysF n z - exp (- z)) / (2 * z)) by (rewrite E; field; lra). rewrite V. field. lra.
Qed.
Lemma boysG_low n z : 0 < z -> 0 <= boysG n z - boysF n z.
Proof.
  intros Hz. induction n as [|n IH]; [apply boysG_0; exact Hz|]. rewrite boysG_gap by exact Hz. pose proof (pos_INR n). pose proof (exp_pos (- z)).
  apply Rmult_le_pos; [|left; apply Rinv_0_lt_compat; lra]. nra.
Qed.
Lemma boysG_error n z : (0 < n)%nat -> 2 * INR n - 1 < 2 * z -> 0 <= boysG n z - boysF n z <= exp (- z) / (2 * z - 2 * INR n + 1).
Proof.
  intros Hn Hz. assert (1 <= INR n) by (change 1 with (INR 1); apply le_INR; lia). assert (Z0 : 0 < z) by lra. split; [apply boysG_low; exact Z0|].
  destruct n as [|n]; [lia|]. clear Hn H. induction n as [|n IH].
  - rewrite boysG_gap by exact Z0. pose proof (boysG_0 z Z0) as [_ U]. cbn [INR] in *. pose proof (exp_pos (- z)) as X.
    apply Rle_trans with ((exp (- z) / (2 * z) + exp (- z)) / (2 * z)); [apply Rmult_le_compat_r; [left; apply Rinv_0_lt_compat; lra|]; lra|].
    apply Rmult_le_reg_r with ((2 * z) * (2 * z) * (2 * z - 2 * 1 + 1)); [apply Rmult_lt_0_compat; nra|].
    replace ((exp (- z) / (2 * z) + exp (- z)) / (2 * z) * ((2 * z) * (2 * z) * (2 * z - 2 * 1 + 1))) with (exp (- z) * ((2 * z + 1) * (2 * z - 2 * 1 + 1))) by (field; lra).
    replace (exp (- z) / (2 * z - 2 * 1 + 1) * ((2 * z) * (2 * z) * (2 * z - 2 * 1 + 1))) with (exp (- z) * ((2 * z) * (2 * z))) by (field; lra).
    apply Rmult_le_compat_l; nra.
  - rewrite boysG_gap by exact Z0. rewrite (S_INR (S n)) in *. set (m := INR (S n)) in *. specialize (IH ltac:(lra)). pose proof (exp_pos (- z)) as X.
    assert (M0 : 0 <= m) by apply pos_INR.
    apply Rle_trans with (((2 * m + 1) * (exp (- z) / (2 * z - 2 * m + 1)) + exp (- z)) / (2 * z)).
    + apply Rmult_le_compat_r; [left; apply Rinv_0_lt_compat; lra|]. apply Rplus_le_compat_r. apply Rmult_le_compat_l; lra.
    + apply Rmult_le_reg_r with ((2 * z) * (2 * z - 2 * m + 1) * (2 * z - 2 * (m + 1) + 1)); [apply Rmult_lt_0_compat; nra|].
      replace (((2 * m + 1) * (exp (- z) / (2 * z - 2 * m + 1)) + exp (- z)) / (2 * z) * ((2 * z) * (2 * z - 2 * m + 1) * (2 * z - 2 * (m + 1) + 1)))
        with (exp (- z) * ((2 * z + 2) * (2 * z - 2 * (m + 1) + 1))) by (field; lra).
      replace (exp (- z) / (2 * z - 2 * (m + 1) + 1) * ((2 * z) * (2 * z - 2 * m + 1) * (2 * z - 2 * (m + 1) + 1))) with (exp (- z) * ((2 * z) * (2 * z - 2 * m + 1))) by (field; lra).
      apply Rmult_le_compat_l; nra.
Qed.
