(** Proofs about the tables of IntegralModel.v: filled in the order of the
    nested loops, every table is a fixed point of its recursion. *)
From Coq Require Import List Bool Arith Lia Reals Lra Sorted.
From Coquelicot Require Import Coquelicot.
Require Import Verif.IntegralModel.
Import ListNotations.
Local Open Scope R_scope.

(** ** Loop order *)
Fixpoint lexlt (a b : list nat) : Prop :=
  match a, b with
  | x :: a', y :: b' => (x < y)%nat \/ (x = y /\ lexlt a' b')
  | _, _ => False
  end.
Lemma lexlt_irrefl a : ~ lexlt a a.
Proof. induction a as [|x a IH]; cbn; [auto|intros [H|[_ H]]; [lia|auto]]. Qed.
Lemma lexlt_trans a b c : lexlt a b -> lexlt b c -> lexlt a c.
Proof.
  revert b c. induction a as [|x a IH]; intros [|y b] [|z c]; cbn; try tauto.
  intros [H|[E H]] [H'|[E' H']]; subst; [left; lia|left; lia|left; lia|right; split; [auto|eauto]].
Qed.
Lemma sorted_app (A : Type) (lt : A -> A -> Prop) l1 l2 :
  StronglySorted lt l1 -> StronglySorted lt l2 -> (forall x y, In x l1 -> In y l2 -> lt x y) -> StronglySorted lt (l1 ++ l2).
Proof.
  induction 1 as [|x l1 S1 IH F]; cbn; [auto|]. intros S2 H. constructor.
  - apply IH; [exact S2|intros; apply H; auto].
  - apply Forall_app; split; [exact F|]. apply Forall_forall. intros y Y. apply H; auto.
Qed.
Lemma sorted_flat (f : nat -> list (list nat)) a n :
  (forall i, StronglySorted lexlt (f i)) -> (forall i k, In k (f i) -> exists r, k = i :: r) ->
  StronglySorted lexlt (flat_map f (seq a n)).
Proof.
  intros S Hd. revert a. induction n as [|n IH]; intros a; cbn [seq flat_map]; [constructor|].
  apply sorted_app; [apply S|apply IH|]. intros x y X Y. apply in_flat_map in Y. destruct Y as (i & I & Y). apply in_seq in I.
  destruct (Hd _ _ X) as (r & ->), (Hd _ _ Y) as (r' & ->). cbn. left. lia.
Qed.
Lemma box_sorted dims : StronglySorted lexlt (box dims).
Proof.
  induction dims as [|n dims IH]; cbn [box]; [repeat constructor|]. apply sorted_flat.
  - intros i. induction IH as [|k l S IH2 F]; cbn [map]; constructor; [exact IH2|].
    apply Forall_forall. intros y Y. apply in_map_iff in Y. destruct Y as (z & <- & Z). cbn. right. split; [reflexivity|].
    exact (proj1 (Forall_forall _ _) F z Z).
  - intros i k H. apply in_map_iff in H. destruct H as (r & <- & _). eauto.
Qed.
Lemma in_box dims k : In k (box dims) <-> Forall2 lt k dims.
Proof.
  revert k. induction dims as [|n dims IH]; intros k; cbn [box].
  - split; [intros [<-|[]]; constructor|intros H; inversion H; left; reflexivity].
  - rewrite in_flat_map. split.
    + intros (i & I & H). apply in_seq in I. apply in_map_iff in H. destruct H as (r & <- & H). constructor; [lia|apply IH; exact H].
    + intros H. inversion H as [|i r' n' dims' Hi Hr]; subst. exists i. split; [apply in_seq; lia|]. apply in_map. apply IH. exact Hr.
Qed.

Ltac f2 := repeat match goal with |- Forall2 _ _ _ => constructor end.

Lemma tset_same k v T : tset k v T k = v.
Proof. unfold tset. destruct (list_eq_dec _ _ _); congruence. Qed.
Lemma tset_other k v T k' : k <> k' -> tset k v T k' = T k'.
Proof. unfold tset. destruct (list_eq_dec _ _ _); congruence. Qed.
Lemma fill_other value keys : forall T k, ~ In k keys -> fill value keys T k = T k.
Proof.
  induction keys as [|q keys IH]; intros T k H; cbn; [reflexivity|]. unfold fill in IH.
  rewrite IH; [apply tset_other; intros ->; apply H; left; reflexivity|intros I; apply H; right; exact I].
Qed.
(** The values read are the final ones. *)
Lemma fill_fix value keys :
  StronglySorted lexlt keys ->
  (forall T T' k, (forall k', lexlt k' k -> T k' = T' k') -> value T k = value T' k) ->
  forall T k, In k keys -> fill value keys T k = value (fill value keys T) k.
Proof.
  intros S loc. induction S as [|q keys S IH F]; intros T k I; [destruct I|].
  change (fill value (q :: keys) T) with (fill value keys (tset q (value T q) T)).
  destruct I as [<-|I]; [|apply IH; exact I].
  assert (N : ~ In q keys) by (intros N; exact (lexlt_irrefl q (proj1 (Forall_forall _ _) F q N))).
  rewrite fill_other by exact N. rewrite tset_same. apply loc. intros k' L. symmetry.
  rewrite fill_other. { apply tset_other. intros <-. exact (lexlt_irrefl q L). }
  intros I. exact (lexlt_irrefl q (lexlt_trans _ _ _ (proj1 (Forall_forall _ _) F k' I) L)).
Qed.

Lemma zeros_in dims mem k : Forall2 lt k dims -> zeros dims mem k = 0.
Proof.
  unfold zeros. intros H. assert (E : insideb k dims = true).
  { induction H as [|i n k dims L H IH]; cbn [insideb]; [reflexivity|]. rewrite IH, (proj2 (Nat.ltb_lt i n) L). reflexivity. }
  rewrite E. reflexivity.
Qed.

(** ** Sums *)
Lemma sm_ext n F G : (forall i, (i < n)%nat -> F i = G i) -> sm n F = sm n G.
Proof. induction n as [|n IH]; cbn; [auto|]. intros H. rewrite IH by (intros; apply H; lia). rewrite H by lia. reflexivity. Qed.
Lemma sm_plus n F G : sm n (fun i => F i + G i) = sm n F + sm n G.
Proof. induction n as [|n IH]; cbn; [ring|rewrite IH; ring]. Qed.
Lemma sm_scal c n F : sm n (fun i => c * F i) = c * sm n F.
Proof. induction n as [|n IH]; cbn; [ring|rewrite IH; ring]. Qed.
Lemma sm_scal_r c n F : sm n (fun i => F i * c) = sm n F * c.
Proof. induction n as [|n IH]; cbn; [ring|rewrite IH; ring]. Qed.
Lemma sm_zero n F : (forall i, (i < n)%nat -> F i = 0) -> sm n F = 0.
Proof. intros H. induction n as [|n IH]; cbn; [reflexivity|]. rewrite IH by (intros; apply H; lia). rewrite H by lia. ring. Qed.
Lemma sm_swap n m F : sm n (fun i => sm m (fun j => F i j)) = sm m (fun j => sm n (fun i => F i j)).
Proof.
  induction n as [|n IH]; cbn [sm]; [symmetry; apply sm_zero; reflexivity|]. rewrite IH, <- sm_plus. reflexivity.
Qed.
Lemma sm_S_first n F : sm (S n) F = F 0%nat + sm n (fun i => F (S i)).
Proof. induction n as [|n IH]; [cbn; ring|]. cbn [sm] in *. rewrite IH. ring. Qed.
Lemma sm_tail n m F : (n <= m)%nat -> (forall i, (n <= i)%nat -> F i = 0) -> sm m F = sm n F.
Proof. intros L H. induction L as [|m L IH]; [reflexivity|]. cbn. rewrite IH, H by lia. ring. Qed.

(** ** Hermite Gaussians *)
(** [lam p t P x] is the [t]-th derivative with respect to [P] of
    [exp (-p (x - P)^2)]. *)
Fixpoint lam2 (p : R) (t : nat) (P x : R) : R * R :=
  match t with
  | O => (0, exp (- p * (x - P) ^ 2))
  | S t' => let '(l', l) := lam2 p t' P x in (l, 2 * p * ((x - P) * l - INR t' * l'))
  end.
Definition lam (p : R) (t : nat) (P x : R) : R := snd (lam2 p t P x).
Lemma lam_fst (p : R) (t : nat) (P x : R) : fst (lam2 p (S t) P x) = lam p t P x.
Proof. cbn. unfold lam. destruct (lam2 p t P x). reflexivity. Qed.
Lemma lam_S (p : R) (t : nat) (P x : R) : lam p (S t) P x = 2 * p * ((x - P) * lam p t P x - INR t * (match t with O => 0 | S t' => lam p t' P x end)).
Proof.
  unfold lam at 1. cbn [lam2]. destruct t as [|t]; [cbn; ring|].
  rewrite <- (lam_fst p t). unfold lam. destruct (lam2 p (S t) P x). reflexivity.
Qed.
Lemma lam_0 (p P x : R) : lam p 0 P x = exp (- p * (x - P) ^ 2).
Proof. reflexivity. Qed.
(** [x_P Lambda_t = Lambda_{t+1} / 2p + t Lambda_{t-1}] *)
Lemma lam_mul (p : R) (t : nat) (P x : R) : p <> 0 ->
  (x - P) * lam p t P x = 1 / (2 * p) * lam p (S t) P x + INR t * (match t with O => 0 | S t' => lam p t' P x end).
Proof. intros H. rewrite lam_S. field. exact H. Qed.
Lemma lam_derive_P (p : R) (t : nat) (P x : R) : is_derive (fun P => lam p t P x) P (lam p (S t) P x).
Proof.
  enough (H : (match t with O => True | S t' => is_derive (fun P => lam p t' P x) P (lam p t P x) end)
              /\ is_derive (fun P => lam p t P x) P (lam p (S t) P x)) by apply H.
  induction t as [|t [IH1 IH2]]; split; [exact I| |exact IH2|].
  - rewrite lam_S. cbn [INR]. eapply is_derive_ext; [intros; symmetry; apply lam_0|].
    rewrite lam_0. auto_derive; [exact I|]. cbn [pow]. unfold Rminus. ring.
  - eapply is_derive_ext; [intros; symmetry; apply lam_S|].
    rewrite (lam_S p (S t)). destruct t as [|t].
    + evar_last. { apply is_derive_scal. apply @is_derive_minus; [apply @is_derive_mult; [|exact IH2|intros; apply Rmult_comm]|apply is_derive_const].
        auto_derive; [exact I|reflexivity]. }
      rewrite !lam_S. cbn [INR]. unfold minus, plus, opp, mult, zero; cbn. ring.
    + evar_last. { apply is_derive_scal. apply @is_derive_minus; [apply @is_derive_mult; [|exact IH2|intros; apply Rmult_comm]|apply is_derive_scal; exact IH1].
        auto_derive; [exact I|reflexivity]. }
      unfold minus, plus, opp, mult, zero; cbn [AbelianGroup.opp R_AbelianGroup]. cbn -[INR lam]. rewrite !S_INR. ring.
Qed.
Lemma lam_derive_x (p : R) (t : nat) (P x : R) : is_derive (fun x => lam p t P x) x (- lam p (S t) P x).
Proof.
  assert (E : forall x, lam p t P x = lam p t (P - x) 0).
  { intros y. unfold lam. assert (H : lam2 p t P y = lam2 p t (P - y) 0); [|rewrite H; reflexivity].
    induction t as [|t IH]; cbn [lam2]. { do 2 f_equal. ring. } rewrite IH. destruct (lam2 p t (P - y) 0). f_equal. ring. }
  assert (E' : lam p (S t) P x = lam p (S t) (P - x) 0).
  { unfold lam. assert (H : lam2 p (S t) P x = lam2 p (S t) (P - x) 0); [|rewrite H; reflexivity].
    generalize (S t). clear E t. induction n as [|t IH]; cbn [lam2]. { do 2 f_equal. ring. } rewrite IH. destruct (lam2 p t (P - x) 0). f_equal. ring. }
  eapply is_derive_ext; [intros; symmetry; apply E|]. rewrite E'. evar_last.
  { apply (is_derive_comp (fun Q => lam p t Q 0) (fun x => P - x)); [apply lam_derive_P|]. auto_derive; [exact I|reflexivity]. }
  unfold scal; cbn. unfold mult; cbn. ring.
Qed.
Lemma lam_Derive_n (p : R) (t : nat) (P x : R) : Derive_n (fun P => exp (- p * (x - P) ^ 2)) t P = lam p t P x.
Proof.
  revert P. induction t as [|t IH]; intros P; [reflexivity|]. cbn [Derive_n].
  rewrite (Derive_ext _ (fun P => lam p t P x)) by exact IH. apply is_derive_unique. apply lam_derive_P.
Qed.

(** ** expansion_coefficients *)
Lemma fill_e mem A_x B_x a b la lb : let T := expansion_coefficients mem A_x B_x a b la lb in
  let p := a + b in let P := (a * A_x + b * B_x) / p in
  forall i j t, (i <= la)%nat -> (j <= lb)%nat -> (t <= la + lb)%nat ->
  T [i; j; t] = e_value p (P - A_x) (P - B_x) (exp (- (a * b / (a + b)) * (A_x - B_x) ^ 2)) T [i; j; t].
Proof.
  intros T p P i j t Hi Hj Ht. unfold T, expansion_coefficients. apply fill_fix.
  - apply box_sorted.
  - intros U U' k H. unfold e_value. destruct k as [|i' [|j' [|t' [|]]]]; try reflexivity.
    destruct (Nat.eqb i' 0 && Nat.eqb j' 0 && Nat.eqb t' 0); [reflexivity|]. destruct (Nat.eqb_spec i' 0) as [->|Ni].
    + destruct (Nat.ltb_spec 0 j'); cbn [andb]; [|reflexivity].
      assert (Q : forall x, U [0%nat; (j' - 1)%nat; x] = U' [0%nat; (j' - 1)%nat; x]) by (intros; apply H; cbn; right; split; [reflexivity|left; lia]).
      rewrite !Q. reflexivity.
    + destruct (Nat.ltb_spec 0 i'); cbn [andb]; [|reflexivity].
      assert (Q : forall x, U [(i' - 1)%nat; j'; x] = U' [(i' - 1)%nat; j'; x]) by (intros; apply H; cbn; left; lia).
      rewrite !Q. reflexivity.
  - apply in_box. f2; lia.
Qed.

(** The entries extended by zero beyond the last index [t]. *)
Definition ecoef (T : tbl) (la lb i j t : nat) : R := if Nat.leb t (la + lb) then T [i; j; t] else 0.
Section Expansion.
Variables (mem : tbl) (A B a b : R) (la lb : nat).
Let T := expansion_coefficients mem A B a b la lb.
Let p := a + b.
Let P := (a * A + b * B) / p.
Let G := ecoef T la lb.
Lemma e_00 t : G 0 0 t = if Nat.eqb t 0 then exp (- (a * b / (a + b)) * (A - B) ^ 2) else 0.
Proof.
  unfold G, ecoef. destruct (Nat.leb_spec t (la + lb)) as [L|L].
  - unfold T. rewrite fill_e by lia. unfold e_value. cbn [Nat.eqb andb Nat.ltb Nat.leb]. destruct (Nat.eqb t 0); reflexivity.
  - destruct (Nat.eqb_spec t 0); [lia|reflexivity].
Qed.
(** Entries with [t > i + j] are zero, and both recursions hold. *)
Lemma e_rec : forall i j, (i <= la)%nat -> (j <= lb)%nat ->
  (forall t, (i + j < t)%nat -> G i j t = 0)
  /\ (forall t, i = 0%nat -> (0 < j)%nat ->
        G i j t = 1 / (2 * p) * (match t with O => 0 | S t' => G i (j - 1) t' end) + (P - B) * G i (j - 1) t + INR (t + 1) * G i (j - 1) (t + 1))
  /\ (forall t, (0 < i)%nat ->
        G i j t = 1 / (2 * p) * (match t with O => 0 | S t' => G (i - 1) j t' end) + (P - A) * G (i - 1) j t + INR (t + 1) * G (i - 1) j (t + 1)).
Proof.
  induction i as [|i IHi].
  - induction j as [|j IHj]; intros Hi Hj.
    + split; [|split; intros; lia]. intros t Ht. rewrite e_00. destruct (Nat.eqb_spec t 0); [lia|reflexivity].
    + destruct (IHj Hi ltac:(lia)) as (Z & _ & _).
      assert (R1 : forall t, G 0 (S j) t = 1 / (2 * p) * (match t with O => 0 | S t' => G 0 j t' end) + (P - B) * G 0 j t + INR (t + 1) * G 0 j (t + 1)).
      { intros t. destruct (Nat.le_gt_cases t (la + lb)) as [L|L].
        - unfold G at 1, ecoef at 1. rewrite (proj2 (Nat.leb_le _ _) L). unfold T. rewrite fill_e by lia. fold T. unfold e_value.
          cbn [Nat.eqb andb]. cbn [Nat.ltb Nat.leb andb]. replace (S j - 1)%nat with j by lia.
          assert (Q : forall s, (s <= la + lb)%nat -> T [0%nat; j; s] = G 0 j s).
          { intros s Hs. unfold G, ecoef. rewrite (proj2 (Nat.leb_le _ _) Hs). reflexivity. }
          rewrite (Q t L). fold p. fold P.
          destruct (Nat.leb_spec (t + 1) (0 + S j)) as [L1|L1].
          + rewrite (Q (t + 1)%nat) by lia. destruct t as [|t]; cbn [Nat.ltb Nat.leb].
            * ring.
            * replace (S t - 1)%nat with t by lia. rewrite (Q t) by lia. ring.
          + rewrite (Z (t + 1)%nat) by lia. destruct t as [|t]; cbn [Nat.ltb Nat.leb].
            * ring.
            * replace (S t - 1)%nat with t by lia. rewrite (Q t) by lia. ring.
        - unfold G at 1, ecoef at 1. destruct (Nat.leb_spec t (la + lb)); [lia|]. rewrite (Z t), (Z (t + 1)%nat) by lia.
          destruct t as [|t]; [ring|]. rewrite (Z t) by lia. ring. }
      split; [|split].
      * intros t Ht. rewrite R1. rewrite (Z t), (Z (t + 1)%nat) by lia. destruct t as [|t]; [ring|]. rewrite (Z t) by lia. ring.
      * intros t _ _. replace (S j - 1)%nat with j by lia. apply R1.
      * intros; lia.
  - intros j Hi Hj. destruct (IHi j ltac:(lia) Hj) as (Z & _ & _).
    assert (R1 : forall t, G (S i) j t = 1 / (2 * p) * (match t with O => 0 | S t' => G i j t' end) + (P - A) * G i j t + INR (t + 1) * G i j (t + 1)).
    { intros t. destruct (Nat.le_gt_cases t (la + lb)) as [L|L].
      - unfold G at 1, ecoef at 1. rewrite (proj2 (Nat.leb_le _ _) L). unfold T. rewrite fill_e by lia. fold T. unfold e_value.
        cbn [Nat.eqb andb]. cbn [Nat.ltb Nat.leb andb]. replace (S i - 1)%nat with i by lia.
        assert (Q : forall s, (s <= la + lb)%nat -> T [i; j; s] = G i j s).
        { intros s Hs. unfold G, ecoef. rewrite (proj2 (Nat.leb_le _ _) Hs). reflexivity. }
        rewrite (Q t L). fold p. fold P.
        destruct (Nat.leb_spec (t + 1) (S i + j)) as [L1|L1].
        + rewrite (Q (t + 1)%nat) by lia. destruct t as [|t]; cbn [Nat.ltb Nat.leb].
          * ring.
          * replace (S t - 1)%nat with t by lia. rewrite (Q t) by lia. ring.
        + rewrite (Z (t + 1)%nat) by lia. destruct t as [|t]; cbn [Nat.ltb Nat.leb].
          * ring.
          * replace (S t - 1)%nat with t by lia. rewrite (Q t) by lia. ring.
      - unfold G at 1, ecoef at 1. destruct (Nat.leb_spec t (la + lb)); [lia|]. rewrite (Z t), (Z (t + 1)%nat) by lia.
        destruct t as [|t]; [ring|]. rewrite (Z t) by lia. ring. }
    split; [|split].
    * intros t Ht. rewrite R1. rewrite (Z t), (Z (t + 1)%nat) by lia. destruct t as [|t]; [ring|]. rewrite (Z t) by lia. ring.
    * intros; lia.
    * intros t _. replace (S i - 1)%nat with i by lia. apply R1.
Qed.
End Expansion.

(** One step of the recursion multiplies by [x - P + X]. *)
Lemma e_step p P X x (g h : nat -> R) n : p <> 0 ->
  (forall t, (n <= t)%nat -> g t = 0) ->
  (forall t, h t = 1 / (2 * p) * (match t with O => 0 | S t' => g t' end) + X * g t + INR (t + 1) * g (t + 1)%nat) ->
  sm (S n) (fun t => h t * lam p t P x) = (x - P + X) * sm n (fun t => g t * lam p t P x).
Proof.
  intros Hp Z H.
  assert (Q : forall m, sm (S m) (fun t => h t * lam p t P x)
     = sm (S m) (fun t => g t * ((x - P + X) * lam p t P x)) + INR (S m) * g (S m) * lam p m P x - 1 / (2 * p) * g m * lam p (S m) P x).
  { induction m as [|m IH].
    - cbn [sm]. rewrite H. replace ((x - P + X) * lam p 0 P x) with ((x - P) * lam p 0 P x + X * lam p 0 P x) by ring.
      rewrite (lam_mul p 0) by exact Hp. cbn [Nat.add INR]. ring.
    - change (sm (S (S m)) ?F) with (sm (S m) F + F (S m)). rewrite IH. cbn beta. rewrite (H (S m)).
      replace ((x - P + X) * lam p (S m) P x) with ((x - P) * lam p (S m) P x + X * lam p (S m) P x) by ring.
      rewrite (lam_mul p (S m)) by exact Hp. replace (S m + 1)%nat with (S (S m)) by lia. ring. }
  rewrite Q, (Z n), (Z (S n)) by lia. cbn [sm]. rewrite (Z n) by lia. rewrite <- sm_scal.
  rewrite (sm_ext n _ (fun i => (x - P + X) * (g i * lam p i P x))) by (intros; ring). ring.
Qed.

Lemma expansion_ok mem A B a b la lb x : a + b <> 0 ->
  forall i j, (i <= la)%nat -> (j <= lb)%nat ->
  sm (S (i + j)) (fun t => ecoef (expansion_coefficients mem A B a b la lb) la lb i j t * lam (a + b) t ((a * A + b * B) / (a + b)) x)
  = (x - A) ^ i * (x - B) ^ j * (exp (- a * (x - A) ^ 2) * exp (- b * (x - B) ^ 2)).
Proof.
  intros Hp. set (p := a + b) in *. set (P := (a * A + b * B) / p). induction i as [|i IHi].
  - induction j as [|j IHj]; intros Hi Hj.
    + cbn [Nat.add sm pow]. rewrite e_00. cbn [Nat.eqb]. rewrite lam_0. rewrite Rplus_0_l, <- !exp_plus, !Rmult_1_l. f_equal.
      unfold P. fold p. replace (a * b / p) with (a * (p - a) / p) by (unfold p; f_equal; ring). replace b with (p - a) by (unfold p; ring). field. exact Hp.
    + destruct (e_rec mem A B a b la lb 0 j Hi ltac:(lia)) as (Z & _ & _).
      destruct (e_rec mem A B a b la lb 0 (S j) Hi Hj) as (_ & R1 & _). fold p in R1. fold P in R1.
      specialize (fun t => R1 t eq_refl (Nat.lt_0_succ j)). replace (S j - 1)%nat with j in R1 by lia.
      replace (S (0 + S j)) with (S (S (0 + j))) by lia.
      rewrite (e_step p P (P - B) x (ecoef (expansion_coefficients mem A B a b la lb) la lb 0 j) _ (S (0 + j)) Hp (fun t L => Z t L) R1).
      rewrite IHj by lia. cbn [pow]. ring.
  - intros j Hi Hj. destruct (e_rec mem A B a b la lb i j ltac:(lia) Hj) as (Z & _ & _).
    destruct (e_rec mem A B a b la lb (S i) j Hi Hj) as (_ & _ & R1). fold p in R1. fold P in R1.
    specialize (fun t => R1 t (Nat.lt_0_succ i)). replace (S i - 1)%nat with i in R1 by lia.
    replace (S (S i + j)) with (S (S (i + j))) by lia.
    rewrite (e_step p P (P - A) x (ecoef (expansion_coefficients mem A B a b la lb) la lb i j) _ (S (i + j)) Hp (fun t L => Z t L) R1).
    rewrite IHi by lia. cbn [pow]. ring.
Qed.
Lemma ecoef_in T la lb i j t : (t <= la + lb)%nat -> ecoef T la lb i j t = T [i; j; t].
Proof. intros H. unfold ecoef. rewrite (proj2 (Nat.leb_le _ _) H). reflexivity. Qed.

(** The coefficients as a recursion of their own. *)
Section Espec.
Variables (A B a b : R).
Let p := a + b.
Let P := (a * A + b * B) / p.
Definition eop (X : R) (g : nat -> R) : nat -> R := fun t =>
  1 / (2 * p) * (match t with O => 0 | S t' => g t' end) + X * g t + INR (t + 1) * g (t + 1)%nat.
Fixpoint Esp0 (j : nat) : nat -> R :=
  match j with
  | O => fun t => if Nat.eqb t 0 then exp (- (a * b / (a + b)) * (A - B) ^ 2) else 0
  | S j' => eop (P - B) (Esp0 j')
  end.
Fixpoint Esp (i j : nat) : nat -> R := match i with O => Esp0 j | S i' => eop (P - A) (Esp i' j) end.
Lemma eop_ext X g h : (forall t, g t = h t) -> forall t, eop X g t = eop X h t.
Proof. intros E t. unfold eop. rewrite !E. destruct t as [|t]; [|rewrite E]; reflexivity. Qed.
Lemma eop_comm X Y g t : eop X (eop Y g) t = eop Y (eop X g) t.
Proof. unfold eop. destruct t as [|[|t]]; cbn [Nat.add]; ring. Qed.
Lemma Esp_ok mem la lb i j t : (i <= la)%nat -> (j <= lb)%nat ->
  ecoef (expansion_coefficients mem A B a b la lb) la lb i j t = Esp i j t.
Proof.
  intros Hi Hj. revert t. induction i as [|i IHi].
  - induction j as [|j IHj]; intros t; [apply e_00|].
    destruct (e_rec mem A B a b la lb 0 (S j) Hi Hj) as (_ & R1 & _). rewrite (R1 t eq_refl (Nat.lt_0_succ j)).
    replace (S j - 1)%nat with j by lia. exact (eop_ext (P - B) _ _ (IHj ltac:(lia)) t).
  - intros t. destruct (e_rec mem A B a b la lb (S i) j Hi Hj) as (_ & _ & R1). rewrite (R1 t (Nat.lt_0_succ i)).
    replace (S i - 1)%nat with i by lia. exact (eop_ext (P - A) _ _ (IHi ltac:(lia)) t).
Qed.
Lemma Esp_tbl mem la lb i j t : (i <= la)%nat -> (j <= lb)%nat -> (t <= la + lb)%nat ->
  expansion_coefficients mem A B a b la lb [i; j; t] = Esp i j t.
Proof. intros Hi Hj Ht. rewrite <- (Esp_ok mem la lb i j t Hi Hj). symmetry. apply ecoef_in. exact Ht. Qed.
Lemma Esp_Sj i j t : Esp i (S j) t = eop (P - B) (Esp i j) t.
Proof.
  revert t. induction i as [|i IH]; intros t; [reflexivity|]. cbn [Esp]. rewrite (eop_ext _ _ _ IH). apply eop_comm.
Qed.
Lemma Esp_zero i j t : (i + j < t)%nat -> Esp i j t = 0.
Proof. intros H. rewrite <- (Esp_ok (fun _ => 0) i j) by lia. apply (e_rec (fun _ => 0) A B a b i j i j); lia. Qed.
End Espec.
Lemma Esp_sym A B a b : forall i j t, Esp A B a b i j t = Esp B A b a j i t.
Proof.
  assert (E : (a * A + b * B) / (a + b) = (b * B + a * A) / (b + a)) by (f_equal; ring).
  assert (O : forall X g t, eop a b X g t = eop b a X g t).
  { intros. unfold eop. rewrite (Rplus_comm b a). reflexivity. }
  induction i as [|i IHi]; [induction j as [|j IHj]; intros t|intros j t].
  - cbn. rewrite (Rplus_comm b a), (Rmult_comm b a). replace ((B - A) * ((B - A) * 1)) with ((A - B) * ((A - B) * 1)) by ring. reflexivity.
  - rewrite Esp_Sj. cbn [Esp]. rewrite <- E, <- O. apply eop_ext. exact IHj.
  - rewrite Esp_Sj. cbn [Esp]. rewrite <- E, <- O. apply eop_ext. intros. apply IHi.
Qed.
Lemma Esp_expands A B a b i j x : a + b <> 0 ->
  sm (S (i + j)) (fun t => Esp A B a b i j t * lam (a + b) t ((a * A + b * B) / (a + b)) x)
  = (x - A) ^ i * (x - B) ^ j * (exp (- a * (x - A) ^ 2) * exp (- b * (x - B) ^ 2)).
Proof.
  intros H. rewrite <- (expansion_ok (fun _ => 0) A B a b i j x H i j) by lia. apply sm_ext. intros t _.
  rewrite Esp_ok by lia. reflexivity.
Qed.

(** ** hermite_coulomb_integral *)
Fixpoint herm (X : R) (base : nat -> R) (t n : nat) : R :=
  match t with
  | O => base n
  | S t' => (match t' with O => 0 | S t'' => INR t' * herm X base t'' (S n) end) + X * herm X base t' (S n)
  end.
Lemma herm_S X base t n : herm X base (S t) n = INR t * herm X base (t - 1) (S n) + X * herm X base t (S n).
Proof. destruct t as [|t]; [cbn; ring|]. replace (S t - 1)%nat with t by lia. reflexivity. Qed.
Lemma nat_ind2 (Q : nat -> Prop) : Q 0%nat -> (forall t, Q t -> Q (t - 1)%nat -> Q (S t)) -> forall t, Q t.
Proof.
  intros H0 HS t. enough (H : Q t /\ Q (t - 1)%nat) by apply H. induction t as [|t [I1 I2]]; [split; exact H0|].
  split; [apply HS; assumption|]. replace (S t - 1)%nat with t by lia. exact I1.
Qed.
Lemma herm_ext X b b' t : (forall n, b n = b' n) -> forall n, herm X b t n = herm X b' t n.
Proof. intros E. induction t as [|t I1 I2] using nat_ind2; intros n; [apply E|]. rewrite !herm_S, I1, I2. reflexivity. Qed.
Lemma herm_parity X b b' c : (forall n, b' n = c * b n) -> forall t n, herm (- X) b' t n = (-1) ^ t * c * herm X b t n.
Proof.
  intros E. enough (H : forall t, (forall n, herm (- X) b' t n = (-1) ^ t * c * herm X b t n) /\ forall n, herm (- X) b' (S t) n = (-1) ^ (S t) * c * herm X b (S t) n)
    by (intros; apply H).
  induction t as [|t [I1 I2]]; (split; [|]).
  - intros n. cbn. rewrite E. ring.
  - intros n. cbn. rewrite E. ring.
  - exact I2.
  - intros n. rewrite (herm_S (- X)), (herm_S X b (S t)). replace (S t - 1)%nat with t by lia. rewrite I1, I2. cbn [pow]. ring.
Qed.
Lemma herm_derive_own (base : nat -> R -> R) (t n : nat) (X : R) :
  (forall n X, is_derive (base n) X (X * base (S n) X)) ->
  is_derive (fun X => herm X (fun n => base n X) t n) X (herm X (fun n => base n X) (S t) n).
Proof.
  intros H. revert n. induction t as [|t I1 I2] using nat_ind2; intros n.
  - cbn [herm]. rewrite Rplus_0_l. apply H.
  - destruct t as [|t].
    + eapply is_derive_ext; [intros; symmetry; apply herm_S|]. rewrite herm_S. evar_last.
      { apply @is_derive_plus; [apply is_derive_scal; apply I1|apply @is_derive_mult; [apply is_derive_id|apply I1|intros; apply Rmult_comm]]. }
      unfold plus, mult, one; cbn. ring.
    + eapply is_derive_ext; [intros; symmetry; apply herm_S|]. rewrite herm_S. evar_last.
      { apply @is_derive_plus; [apply is_derive_scal; apply I2|apply @is_derive_mult; [apply is_derive_id|apply I1|intros; apply Rmult_comm]]. }
      replace (S (S t - 1)) with (S t) by lia. replace (S (S t) - 1)%nat with (S t) by lia.
      unfold plus, mult, one; cbn [R_AbelianGroup AbelianGroup.plus]; cbn -[herm INR]. rewrite !S_INR. ring.
Qed.
Lemma herm_derive_other (base : nat -> R -> R) (Y : R) (u n : nat) (W : R) :
  (forall n W, is_derive (base n) W (W * base (S n) W)) ->
  is_derive (fun W => herm Y (fun n => base n W) u n) W (W * herm Y (fun n => base n W) u (S n)).
Proof.
  intros H. revert n. induction u as [|u I1 I2] using nat_ind2; intros n; [apply H|].
  eapply is_derive_ext; [intros; symmetry; apply herm_S|]. rewrite herm_S. evar_last.
  { apply @is_derive_plus; apply is_derive_scal; [apply I2|apply I1]. }
  unfold plus; cbn -[herm INR]. ring.
Qed.

Lemma r_fix boys mem lx ly lz p X Y Z : let L := (lx + ly + lz)%nat in
  let T := fill (r_value boys p X Y Z) (box [S lx; S ly; S lz; S L]) (zeros [S lx; S ly; S lz; S (S L)] mem) in
  forall t u v n, (t <= lx)%nat -> (u <= ly)%nat -> (v <= lz)%nat -> (n <= L)%nat ->
  T [t; u; v; n] = r_value boys p X Y Z T [t; u; v; n].
Proof.
  intros L T t u v n Ht Hu Hv Hn. unfold T. apply fill_fix.
  - apply box_sorted.
  - intros U U' k H. unfold r_value. destruct k as [|t' [|u' [|v' [|n' [|]]]]]; try reflexivity.
    destruct (Nat.eqb_spec t' 0) as [->|Nt], (Nat.eqb_spec u' 0) as [->|Nu], (Nat.eqb_spec v' 0) as [->|Nv]; cbn [andb]; try reflexivity;
    (repeat match goal with |- context [Nat.ltb ?x ?y] => destruct (Nat.ltb_spec x y) end; try lia;
     repeat match goal with |- context [U ?k] => rewrite (H k) by (cbn; lia) end; reflexivity).
  - apply in_box. f2; lia.
Qed.
Definition Rsp (boys : nat -> R -> R) (p X Y Z : R) (t u v n : nat) : R :=
  herm X (herm Y (herm Z (fun n => (-2 * p) ^ n * boys n (p * (X ^ 2 + Y ^ 2 + Z ^ 2))) v) u) t n.
Lemma hermite_ok boys mem lx ly lz p X Y Z t u v : (t <= lx)%nat -> (u <= ly)%nat -> (v <= lz)%nat ->
  hermite_coulomb_integral boys mem lx ly lz p X Y Z [t; u; v] = Rsp boys p X Y Z t u v 0.
Proof.
  intros Ht Hu Hv. unfold hermite_coulomb_integral. cbn [app]. set (T := fill _ _ _).
  pose proof (r_fix boys mem lx ly lz p X Y Z) as F. cbv zeta in F. fold T in F.
  assert (SQ : sqrt (X ^ 2 + Y ^ 2 + Z ^ 2) ^ 2 = X ^ 2 + Y ^ 2 + Z ^ 2).
  { apply pow2_sqrt. nra. }
  unfold Rsp. set (f := fun n => _).
  assert (L0 : forall v, (v <= lz)%nat -> forall n, (v + n <= lx + ly + lz)%nat -> T [0; 0; v; n]%nat = herm Z f v n).
  { clear v Hv. induction v as [|v I1 I2] using nat_ind2; intros Hv n Hn.
    - rewrite F by lia. cbn [r_value Nat.eqb andb]. rewrite SQ. reflexivity.
    - rewrite F by lia. cbn [r_value Nat.eqb andb]. rewrite herm_S.
      replace (S v - 1)%nat with v by lia. replace (S v - 2)%nat with (v - 1)%nat by lia. replace (n + 1)%nat with (S n) by lia.
      destruct v as [|v]; cbn [Nat.ltb Nat.leb].
      + rewrite I1 by lia. cbn [INR]. ring.
      + replace (S v - 1)%nat with v by lia. rewrite I1 by lia. replace (S v - 1)%nat with v in I2 by lia. rewrite I2 by lia. ring. }
  assert (L1 : forall u, (u <= ly)%nat -> forall v n, (v <= lz)%nat -> (u + v + n <= lx + ly + lz)%nat -> T [0%nat; u; v; n] = herm Y (herm Z f v) u n).
  { clear u v Hu Hv. induction u as [|u I1 I2] using nat_ind2; intros Hu v n Hv Hn; [apply L0; lia|].
    rewrite F by lia. cbn [r_value Nat.eqb andb]. rewrite (herm_S Y).
    replace (S u - 1)%nat with u by lia. replace (S u - 2)%nat with (u - 1)%nat by lia. replace (n + 1)%nat with (S n) by lia.
    destruct u as [|u]; cbn [Nat.ltb Nat.leb].
    + rewrite I1 by lia. cbn [INR]. ring.
    + replace (S u - 1)%nat with u by lia. rewrite I1 by lia. replace (S u - 1)%nat with u in I2 by lia. rewrite I2 by lia. ring. }
  assert (L2 : forall t, (t <= lx)%nat -> forall u v n, (u <= ly)%nat -> (v <= lz)%nat -> (t + u + v + n <= lx + ly + lz)%nat -> T [t; u; v; n] = herm X (herm Y (herm Z f v) u) t n).
  { clear t u v Ht Hu Hv. induction t as [|t I1 I2] using nat_ind2; intros Ht u v n Hu Hv Hn; [apply L1; lia|].
    rewrite F by lia. cbn [r_value Nat.eqb andb]. rewrite (herm_S X).
    replace (S t - 1)%nat with t by lia. replace (S t - 2)%nat with (t - 1)%nat by lia. replace (n + 1)%nat with (S n) by lia.
    destruct t as [|t]; cbn [Nat.ltb Nat.leb].
    + rewrite I1 by lia. cbn [INR]. ring.
    + replace (S t - 1)%nat with t by lia. rewrite I1 by lia. replace (S t - 1)%nat with t in I2 by lia. rewrite I2 by lia. ring. }
  apply L2; lia.
Qed.
Lemma Rsp_parity boys p X Y Z t u v n : Rsp boys p (- X) (- Y) (- Z) t u v n = (-1) ^ (t + u + v) * Rsp boys p X Y Z t u v n.
Proof.
  unfold Rsp. replace ((- X) ^ 2 + (- Y) ^ 2 + (- Z) ^ 2) with (X ^ 2 + Y ^ 2 + Z ^ 2) by ring.
  set (f := fun n => _).
  rewrite (herm_parity X (herm Y (herm Z f v) u) _ ((-1) ^ u * ((-1) ^ v * 1))).
  - rewrite !pow_add. ring.
  - intros m. rewrite (herm_parity Y (herm Z f v) _ ((-1) ^ v * 1)); [reflexivity|]. intros k.
    apply (herm_parity Z f f 1). intros. ring.
Qed.

(** Derivatives, for base functions with the property of the Boys functions. *)
Section Deriv.
Variables (boys : nat -> R -> R) (p : R).
Hypothesis H : forall n z, is_derive (boys n) z (- boys (S n) z).
Lemma base_derive (n : nat) (c X : R) :
  is_derive (fun X => (-2 * p) ^ n * boys n (p * (c + X ^ 2))) X (X * ((-2 * p) ^ S n * boys (S n) (p * (c + X ^ 2)))).
Proof.
  evar_last. { apply is_derive_scal. apply (is_derive_comp (boys n) (fun X => p * (c + X ^ 2))); [apply H|]. auto_derive; [exact I|reflexivity]. }
  unfold scal; cbn. unfold mult; cbn. ring.
Qed.
Lemma Rsp_Derive (t u v n : nat) (X Y Z : R) :
  Rsp boys p X Y Z t u v n
  = Derive_n (fun X => Derive_n (fun Y => Derive_n (fun Z => (-2 * p) ^ n * boys n (p * (X ^ 2 + Y ^ 2 + Z ^ 2))) v Z) u Y) t X.
Proof.
  assert (ZD : forall v n X Y Z, Derive_n (fun Z => (-2 * p) ^ n * boys n (p * (X ^ 2 + Y ^ 2 + Z ^ 2))) v Z
     = herm Z (fun n => (-2 * p) ^ n * boys n (p * (X ^ 2 + Y ^ 2 + Z ^ 2))) v n).
  { clear - H. intros v n X Y. induction v as [|v IH]; intros Z; [reflexivity|]. cbn [Derive_n]. rewrite (Derive_ext _ _ _ IH).
    apply is_derive_unique. apply (herm_derive_own (fun n Z => (-2 * p) ^ n * boys n (p * (X ^ 2 + Y ^ 2 + Z ^ 2)))).
    intros m W. apply base_derive. }
  assert (YD : forall u v n X Y Z, Derive_n (fun Y => herm Z (fun n => (-2 * p) ^ n * boys n (p * (X ^ 2 + Y ^ 2 + Z ^ 2))) v n) u Y
     = herm Y (herm Z (fun n => (-2 * p) ^ n * boys n (p * (X ^ 2 + Y ^ 2 + Z ^ 2))) v) u n).
  { clear - H. intros u v n X Y Z. revert Y. induction u as [|u IH]; intros Y; [reflexivity|]. cbn [Derive_n]. rewrite (Derive_ext _ _ _ IH).
    apply is_derive_unique. apply (herm_derive_own (fun n Y => herm Z (fun n => (-2 * p) ^ n * boys n (p * (X ^ 2 + Y ^ 2 + Z ^ 2))) v n)).
    intros m W. apply (herm_derive_other (fun n Y => (-2 * p) ^ n * boys n (p * (X ^ 2 + Y ^ 2 + Z ^ 2)))). intros k V.
    eapply is_derive_ext; [|rewrite (Rplus_comm (X ^ 2)), Rplus_assoc, Rplus_comm; apply (base_derive k (X ^ 2 + Z ^ 2))].
    intros; cbn beta. do 3 f_equal. ring. }
  assert (XD : forall t u v n X Y Z, Derive_n (fun X => herm Y (herm Z (fun n => (-2 * p) ^ n * boys n (p * (X ^ 2 + Y ^ 2 + Z ^ 2))) v) u n) t X
     = Rsp boys p X Y Z t u v n).
  { clear - H. intros t u v n X Y Z. unfold Rsp. revert X. induction t as [|t IH]; intros X; [reflexivity|]. cbn [Derive_n]. rewrite (Derive_ext _ _ _ IH).
    apply is_derive_unique. apply (herm_derive_own (fun n X => herm Y (herm Z (fun n => (-2 * p) ^ n * boys n (p * (X ^ 2 + Y ^ 2 + Z ^ 2))) v) u n)).
    intros m W. apply (herm_derive_other (fun n X => herm Z (fun n => (-2 * p) ^ n * boys n (p * (X ^ 2 + Y ^ 2 + Z ^ 2))) v n)). intros k V.
    apply (herm_derive_other (fun n X => (-2 * p) ^ n * boys n (p * (X ^ 2 + Y ^ 2 + Z ^ 2)))). intros k' V'.
    replace (V' ^ 2 + Y ^ 2 + Z ^ 2) with (Y ^ 2 + Z ^ 2 + V' ^ 2) by ring.
    eapply is_derive_ext; [|apply (base_derive k' (Y ^ 2 + Z ^ 2))]. intros; cbn beta. do 3 f_equal. ring. }
  rewrite <- XD. apply Derive_n_ext. intros W. rewrite <- YD. apply Derive_n_ext. intros V. symmetry. apply ZD.
Qed.
End Deriv.
