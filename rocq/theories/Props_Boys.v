(** Properties of [boys_function] (C75): [boysF n z] is
    [int_0^1 s^2n exp (- z s^2) ds]. *)
From Coq Require Import List Bool Arith ZArith Lia Reals Lra Psatz.
From Coquelicot Require Import Coquelicot.
Require Import Verif.IntegralModel Verif.IntegralProofs Verif.GaussProofs Verif.OneElectron Verif.Coulomb Verif.BoysModel Verif.BoysProofs.
Import ListNotations.
Local Open Scope R_scope.

Lemma exp_nat n : exp (INR n) = exp 1 ^ n.
Proof. induction n as [|n IH]; [apply exp_0|]. rewrite S_INR, exp_plus, IH. cbn [pow]. ring. Qed.
Theorem C75_zeroth_exact z : 1 / 10 ^ 10 <= z -> boys_function 0 z = RInt (fun s => exp (- z * s ^ 2)) 0 1.
Proof. intros H. rewrite boys_function_zero by exact H. unfold boysF. apply RInt_ext_R. intros s. change (2 * 0)%nat with 0%nat. cbn [pow]. ring. Qed.
Theorem C75_small n z : 0 <= z < 1 / 10 ^ 10 ->
  0 <= boys_function n z - RInt (fun s => s ^ (2 * n) * exp (- z * s ^ 2)) 0 1 <= 1 / 10 ^ 10.
Proof.
  intros H. fold (boysF n z). assert (E : boys_function n z = / (2 * INR n + 1)).
  { unfold boys_function. destruct n as [|n].
    - destruct (Rlt_dec z (1 / 10 ^ 10)); [|lra]. cbn [INR]. field.
    - destruct (Rlt_dec 25 z); [exfalso; assert (1 / 10 ^ 10 < 1) by (apply Rmult_lt_reg_r with (10 ^ 10); lra); lra|].
      destruct (Rlt_dec z (1 / 10 ^ 10)); [|lra]. pose proof (pos_INR (S n)). unfold Rdiv. ring. }
  rewrite E. destruct (boysF_small n z ltac:(lra)) as [L U]. split; [exact L|]. eapply Rle_trans; [exact U|]. pose proof (pos_INR n).
  apply Rle_trans with (z / 1); [|lra]. apply Rmult_le_compat_l; [lra|]. apply Rinv_le_contravar; lra.
Qed.
(** The series: never too large, and the error bound after the loop's break. *)
Theorem C75_series n z : (0 < n)%nat -> 1 / 10 ^ 10 <= z <= 25 ->
  0 <= RInt (fun s => s ^ (2 * n) * exp (- z * s ^ 2)) 0 1 - boys_function n z
    <= 2 * z * fold_left Rmult (map (fun k => 2 * INR k + 1) (seq 0 n)) 1 / (2 * INR n + 3) / 10 ^ 12.
Proof.
  intros Hn Hz. replace (fold_left Rmult (map (fun k => 2 * INR k + 1) (seq 0 n)) 1) with (factorial2_odd n); [exact (boys_series_error n z Hn Hz)|].
  clear. induction n as [|n IH]; [reflexivity|]. rewrite fact2_S, IH, seq_S, map_app, fold_left_app. cbn. ring.
Qed.
Theorem C75_long_range n z : (0 < n)%nat -> 25 < z -> 2 * INR n - 1 < 2 * z ->
  0 <= boys_function n z - RInt (fun s => s ^ (2 * n) * exp (- z * s ^ 2)) 0 1 <= exp (- z) / (2 * z - 2 * INR n + 1).
Proof.
  intros Hn Hz B. replace (boys_function n z) with (boysG n z); [exact (boysG_error n z Hn B)|].
  unfold boys_function, boysG. destruct n as [|n]; [lia|]. destruct (Rlt_dec 25 z); [reflexivity|lra].
Qed.
(** Shells up to p need the functions up to [n = 4]: a uniform absolute error
    bound. *)
Theorem C75_sp_accuracy n z : (n <= 4)%nat -> 0 <= z ->
  Rabs (boys_function n z - RInt (fun s => s ^ (2 * n) * exp (- z * s ^ 2)) 0 1) <= 1 / 10 ^ 9.
Proof.
  intros Hn Hz. fold (boysF n z). assert (I4 : 0 <= INR n <= 4) by (split; [apply pos_INR|replace 4 with (INR 4) by (cbn; ring); apply le_INR; exact Hn]).
  assert (T : 1 / 10 ^ 10 <= 1 / 10 ^ 9) by (apply Rmult_le_compat_l; [lra|]; apply Rinv_le_contravar; lra).
  destruct (Rlt_dec z (1 / 10 ^ 10)) as [S|S].
  - destruct (C75_small n z ltac:(lra)) as [L U]. fold (boysF n z) in L, U. apply Rabs_le. lra.
  - destruct (Nat.eq_dec n 0) as [->|N0].
    + rewrite boys_function_zero by lra. rewrite Rminus_diag_eq, Rabs_R0 by reflexivity. lra.
    + destruct (Rlt_dec 25 z) as [G|G].
      * destruct (C75_long_range n z ltac:(lia) G ltac:(lra)) as [L U]. fold (boysF n z) in L, U. apply Rabs_le. split; [lra|]. eapply Rle_trans; [exact U|].
        assert (X : exp (- z) <= / 2 ^ 25).
        { rewrite exp_Ropp. apply Rinv_le_contravar; [apply pow_lt; lra|]. apply Rle_trans with (exp 25); [|apply exp_mono; lra].
          replace (exp 25) with (exp 1 ^ 25) by (rewrite <- exp_nat; f_equal; cbn; ring). apply pow_incr. split; [lra|]. pose proof (exp_ineq1 1). lra. }
        apply Rle_trans with (/ 2 ^ 25 * / 43); [|lra]. apply Rmult_le_compat; [left; apply exp_pos|left; apply Rinv_0_lt_compat; lra|exact X|]. apply Rinv_le_contravar; lra.
      * destruct (boys_series_error n z ltac:(lia) ltac:(lra)) as [L U]. rewrite Rabs_minus_sym. apply Rabs_le. split; [lra|]. eapply Rle_trans; [exact U|].
        assert (F : 0 <= factorial2_odd n / (2 * INR n + 3) <= 10).
        { split; [apply Rmult_le_pos; [left; apply fact2_pos|left; apply Rinv_0_lt_compat; lra]|].
          destruct n as [|[|[|[|[|n]]]]]; try lia; rewrite !fact2_S; change (factorial2_odd 0) with 1; cbn [INR]; lra. }
        apply Rle_trans with (2 * 25 * 10 / 10 ^ 12); [|lra]. unfold Rdiv. apply Rmult_le_compat_r; [left; apply Rinv_0_lt_compat, pow_lt; lra|].
        rewrite Rmult_assoc. apply Rmult_le_compat; [lra|apply F|lra|apply F].
Qed.
(** From [n = 12] on (four f shells) the loop stops after its first term, and
    the returned value is too small by a factor of at least
    [1 + 2 z / (2 n + 3)]; at [n = 12], [z = 1] the error exceeds [9 * 10^-4]. *)
Theorem C75_early_break n z : (12 <= n)%nat -> 1 / 10 ^ 10 <= z <= 25 ->
  boys_function n z = exp (- z) / (2 * INR n + 1)
  /\ (1 + 2 * z / (2 * INR n + 3)) * boys_function n z <= RInt (fun s => s ^ (2 * n) * exp (- z * s ^ 2)) 0 1.
Proof.
  intros Hn Hz. assert (E := boys_first_term n z Hn Hz). split; [exact E|]. rewrite E. apply boysF_lower.
  eapply Rle_trans; [|apply Hz]. left. apply Rdiv_lt_0_compat; [lra|apply pow_lt; lra].
Qed.
Theorem C75_accuracy_refuted :
  9 / 10 ^ 4 < RInt (fun s => s ^ (2 * 12) * exp (- 1 * s ^ 2)) 0 1 - boys_function 12 1.
Proof.
  destruct (C75_early_break 12 1 ltac:(lia) ltac:(lra)) as [E L]. rewrite E in *. replace (INR 12) with 12 in * by (cbn; ring).
  assert (X : / 3 <= exp (- (1))) by (replace (exp (- (1))) with (/ exp 1) by (rewrite <- exp_Ropp; f_equal; ring); apply Rinv_le_contravar; [apply exp_pos|apply exp_le_3]).
  eapply Rlt_le_trans; [|apply Rplus_le_compat_r; exact L]. lra.
Qed.
Example C75_example : boys_function 3 0 = 1 / 7 /\ boys_function 0 4 = RInt (fun s => exp (- 4 * s ^ 2)) 0 1.
Proof.
  split.
  - unfold boys_function. destruct (Rlt_dec 25 0); [lra|]. destruct (Rlt_dec 0 (1 / 10 ^ 10)); [cbn [INR]; field|lra].
  - apply C75_zeroth_exact. lra.
Qed.
Print Assumptions C75_zeroth_exact.
Print Assumptions C75_small.
Print Assumptions C75_series.
Print Assumptions C75_long_range.
Print Assumptions C75_sp_accuracy.
Print Assumptions C75_early_break.
Print Assumptions C75_accuracy_refuted.
