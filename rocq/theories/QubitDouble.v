(** Proofs about the circuit for double excitations. *)
From Coq Require Import List Bool Arith NArith ZArith Lia Ring.
From Verif Require Import Base Fock FockMore OperatorsSums CliqueModel QubitModel QubitProofs QubitCirc QubitRef.
Import ListNotations.
Local Open Scope list_scope.

(** ** The generator of a double excitation *)
Section Gen2.
  Context {K : Type} {C : CRing K}.
  Local Open Scope K_scope.
  Add Ring KringD1 : (@rth K C).
  Definition gen2 (k l i j : nat) : list (list (nat * bool) * K) :=
    [([(k, true); (l, true); (j, false); (i, false)], 1); ([(i, true); (j, true); (l, false); (k, false)], - (1))].
  Definition flip4 (x : N) (k l i j : nat) : N := flip (flip (flip (flip x k) l) j) i.
  Definition bsum (x : N) (k l i j : nat) : bool := xorb (xorb (below x k) (below x l)) (xorb (below x j) (below x i)).
  Definition inv4 (k l i j : nat) : bool :=
    xorb (xorb (k <? l)%nat (xorb (k <? j)%nat (l <? j)%nat)) (xorb (k <? i)%nat (xorb (l <? i)%nat (j <? i)%nat)).
  Definition pattern (x : N) (k l i j : nat) : bool := Bool.eqb (occ x k) (occ x l) && Bool.eqb (occ x i) (occ x j) && xorb (occ x k) (occ x i).
  Lemma below_flip_xor x p q : below (flip x p) q = xorb (below x q) (p <? q)%nat.
  Proof. destruct (Nat.ltb_spec p q); [rewrite below_flip_lt by lia|rewrite below_flip_ge by lia]; now destruct (below x q). Qed.
  Lemma gen2_eq k l i j (psi : amps) x : k <> l -> k <> i -> k <> j -> l <> i -> l <> j -> i <> j ->
    opapp (gen2 k l i j) psi x =
      if pattern x k l i j then sgn (xorb (negb (occ x k)) (xorb (bsum x k l i j) (inv4 k l i j))) (psi (flip4 x k l i j)) else 0.
  Proof.
    intros H1 H2 H3 H4 H5 H6. unfold gen2. cbn [opapp appstr]. unfold app1. cbn [fst snd].
    rewrite !below_flip_xor. repeat rewrite occ_flip_other by auto.
    replace (flip (flip (flip (flip x i) j) l) k) with (flip4 x k l i j).
    2: { unfold flip4. rewrite (flip_comm (flip (flip x k) l) j i), (flip_comm (flip x k) l i), (flip_comm x k i), (flip_comm (flip (flip x i) k) l j), (flip_comm (flip x i) k j), (flip_comm (flip (flip x i) j) k l). reflexivity. }
    change (flip (flip (flip (flip x k) l) j) i) with (flip4 x k l i j). unfold pattern, bsum, inv4.
    assert (forall a b, a <> b -> (b <? a)%nat = negb (a <? b)%nat) as Hab by (intros a b Hne; destruct (Nat.ltb_spec b a), (Nat.ltb_spec a b); try lia; reflexivity).
    rewrite (Hab j i), (Hab l j), (Hab l i), (Hab k l), (Hab k j), (Hab k i) by auto.
    assert (forall a, sgn a 0 = (0 : K)) as H0 by (intros []; cbn [sgn]; ring).
    assert (forall a b (v : K), sgn a (sgn b v) = sgn (xorb a b) v) as Hs by (intros [] [] v; cbn [xorb sgn]; ring).
    destruct (occ x k), (occ x l), (occ x i), (occ x j); cbn [Bool.eqb andb xorb negb]; rewrite ?Hs, ?H0; try ring.
    all: generalize (psi (flip4 x k l i j)); intros v.
    - match goal with |- _ * sgn ?a v + _ = sgn ?b v => replace b with a; [ring|] end.
      generalize (below x k) (below x l) (below x i) (below x j) (k <? l)%nat (k <? j)%nat (l <? j)%nat (k <? i)%nat (l <? i)%nat (j <? i)%nat.
      intros [] [] [] [] [] [] [] [] [] []; reflexivity.
    - match goal with |- _ + (_ * sgn ?a v + _) = sgn ?b v => replace b with (negb a); [destruct a; cbn [negb sgn]; ring|] end.
      generalize (below x k) (below x l) (below x i) (below x j) (k <? l)%nat (k <? j)%nat (l <? j)%nat (k <? i)%nat (l <? i)%nat (j <? i)%nat.
      intros [] [] [] [] [] [] [] [] [] []; reflexivity.
  Qed.
  (** The sign for sorted indices: parities of the gaps. *)
  Lemma gap_below x a b : (a < b)%nat -> xorb (below x b) (below x a) = xorb (occ x a) (par x (a + 1) (b - a - 1)).
  Proof.
    intros H. rewrite <- par_below. replace (a + 1 + (b - a - 1))%nat with b by lia. replace (a + 1)%nat with (S a) by lia. cbn [below].
    destruct (occ x a), (below x a), (below x b); reflexivity.
  Qed.
  Definition gaps (x : N) (iz kz jz lz : nat) : bool := xorb (par x (iz + 1) (kz - iz - 1)) (par x (jz + 1) (lz - jz - 1)).
  Definition sorted4 (k l i j : nat) : nat * nat * nat * nat := if (k <? j)%nat then (i, k, j, l) else (i, j, k, l).
  Definition gaps4 (x : N) (k l i j : nat) : bool := let '(iz, kz, jz, lz) := sorted4 k l i j in gaps x iz kz jz lz.
  Lemma sorted_sign x k l i j : (k < l)%nat -> (i < j)%nat -> (j < l)%nat -> (i < k)%nat -> k <> j -> pattern x k l i j = true ->
    xorb (bsum x k l i j) (inv4 k l i j) = gaps4 x k l i j.
  Proof.
    intros H1 H2 H3 H4 H5 Hp. unfold pattern in Hp. apply andb_prop in Hp as [Hp Hki]. apply andb_prop in Hp as [Hkl Hij].
    apply eqb_prop in Hkl, Hij. unfold gaps4, sorted4, gaps, bsum, inv4.
    destruct (Nat.ltb_spec k l), (Nat.ltb_spec l j), (Nat.ltb_spec k i), (Nat.ltb_spec l i), (Nat.ltb_spec j i); try lia.
    destruct (Nat.ltb_spec k j).
    - pose proof (gap_below x i k ltac:(lia)) as E1. pose proof (gap_below x j l ltac:(lia)) as E2.
      destruct (par x (i + 1) (k - i - 1)), (par x (j + 1) (l - j - 1)), (below x k), (below x i), (below x l), (below x j), (occ x i), (occ x j); cbn in *; congruence.
    - pose proof (gap_below x i j ltac:(lia)) as E1. pose proof (gap_below x k l ltac:(lia)) as E2.
      destruct (par x (i + 1) (j - i - 1)), (par x (k + 1) (l - k - 1)), (below x k), (below x i), (below x l), (below x j), (occ x i), (occ x k); cbn in *; congruence.
  Qed.
  Lemma gen2_sorted k l i j (psi : amps) x : (k < l)%nat -> (i < j)%nat -> (j < l)%nat -> (i < k)%nat -> k <> j ->
    opapp (gen2 k l i j) psi x = if pattern x k l i j then sgn (negb (occ x k)) (sgn (gaps4 x k l i j) (psi (flip4 x k l i j))) else 0.
  Proof.
    intros. rewrite gen2_eq by lia. destruct (pattern x k l i j) eqn:E; [|reflexivity]. rewrite sorted_sign by assumption.
    destruct (negb (occ x k)), (gaps4 x k l i j); cbn [xorb sgn]; ring.
  Qed.
  (** Antisymmetry. *)
  Lemma flip4_swap1 x k l i j : flip4 x k l i j = flip4 x l k i j.
  Proof. unfold flip4. now rewrite (flip_comm x k l). Qed.
  Lemma flip4_swap2 x k l i j : flip4 x k l i j = flip4 x k l j i.
  Proof. unfold flip4. now rewrite (flip_comm _ i j). Qed.
  Lemma flip4_swap3 x k l i j : flip4 x k l i j = flip4 x i j k l.
  Proof.
    unfold flip4. rewrite (flip_comm (flip (flip x k) l) j i), (flip_comm (flip x k) l i), (flip_comm x k i), (flip_comm (flip (flip x i) k) l j), (flip_comm (flip x i) k j). apply flip_comm.
  Qed.
  Lemma occ_flip4 x k l i j q : k <> l -> k <> i -> k <> j -> l <> i -> l <> j -> i <> j ->
    occ (flip4 x k l i j) q = xorb (occ x q) ((q =? k)%nat || (q =? l)%nat || (q =? i)%nat || (q =? j)%nat).
  Proof.
    intros. unfold flip4. destruct (Nat.eqb_spec q k) as [->|]; [rewrite !(occ_flip_other _ _ k) by auto; rewrite occ_flip_same; now destruct (occ x k)|].
    destruct (Nat.eqb_spec q l) as [->|]; [rewrite !(occ_flip_other _ _ l) by auto; rewrite occ_flip_same, occ_flip_other by auto; now destruct (occ x l)|].
    destruct (Nat.eqb_spec q i) as [->|]; [rewrite occ_flip_same, !occ_flip_other by auto; now destruct (occ x i)|].
    rewrite (occ_flip_other _ i q) by auto.
    destruct (Nat.eqb_spec q j) as [->|]; [rewrite occ_flip_same, !occ_flip_other by auto; now destruct (occ x j)|].
    rewrite !occ_flip_other by auto. now rewrite xorb_false_r.
  Qed.
  Lemma ltb_neg a b : a <> b -> (b <? a)%nat = negb (a <? b)%nat.
  Proof. intros Hne; destruct (Nat.ltb_spec b a), (Nat.ltb_spec a b); try lia; reflexivity. Qed.
  Definition distinct4 (k l i j : nat) : Prop := k <> l /\ k <> i /\ k <> j /\ l <> i /\ l <> j /\ i <> j.
  Lemma gen2_swap1 k l i j (psi : amps) x : distinct4 k l i j -> opapp (gen2 k l i j) psi x = - opapp (gen2 l k i j) psi x.
  Proof.
    intros (? & ? & ? & ? & ? & ?). rewrite !gen2_eq by auto. rewrite (flip4_swap1 x l k). unfold pattern, bsum, inv4. rewrite (ltb_neg k l) by auto.
    destruct (occ x k), (occ x l), (occ x i), (occ x j); cbn [Bool.eqb andb xorb negb]; try ring;
    generalize (psi (flip4 x k l i j)) (below x k) (below x l) (below x i) (below x j) (k <? l)%nat (k <? j)%nat (l <? j)%nat (k <? i)%nat (l <? i)%nat (j <? i)%nat;
    intros v b1 b2 b3 b4 b5 b6 b7 b8 b9 b10; match goal with |- sgn ?a v = - sgn ?b v => replace b with (negb a); [destruct a; cbn [negb sgn]; ring|] end;
    destruct b1, b2, b3, b4, b5, b6, b7, b8, b9, b10; reflexivity.
  Qed.
  Lemma gen2_swap2 k l i j (psi : amps) x : distinct4 k l i j -> opapp (gen2 k l i j) psi x = - opapp (gen2 k l j i) psi x.
  Proof.
    intros (? & ? & ? & ? & ? & ?). rewrite !gen2_eq by auto. rewrite (flip4_swap2 x k l j i). unfold pattern, bsum, inv4. rewrite (ltb_neg j i) by auto.
    destruct (occ x k), (occ x l), (occ x i), (occ x j); cbn [Bool.eqb andb xorb negb]; try ring;
    generalize (psi (flip4 x k l i j)) (below x k) (below x l) (below x i) (below x j) (k <? l)%nat (k <? j)%nat (l <? j)%nat (k <? i)%nat (l <? i)%nat (j <? i)%nat;
    intros v b1 b2 b3 b4 b5 b6 b7 b8 b9 b10; match goal with |- sgn ?a v = - sgn ?b v => replace b with (negb a); [destruct a; cbn [negb sgn]; ring|] end;
    destruct b1, b2, b3, b4, b5, b6, b7, b8, b9, b10; reflexivity.
  Qed.
  Lemma gen2_adj k l i j (psi : amps) x : distinct4 k l i j -> opapp (gen2 k l i j) psi x = - opapp (gen2 i j k l) psi x.
  Proof. intros _. unfold gen2. cbn [opapp]. ring. Qed.
End Gen2.

(** ** Moving Hadamard gates through a circuit *)
Section Push.
  Context {K : Type} {C : CRing K}.
  Local Open Scope K_scope.
  Add Ring KringD2 : (@rth K C).
  Notation cx := (K * K)%type.
  Add Ring CxringD2 : (@rth cx Cx_CRing).
  Notation qstate := (qstate (K:=K)).
  Notation gate := (gate (K:=K)).
  Infix "~~" := (qeq (K:=K)) (at level 70).

  Lemma cre_add a b : cre (a + b) = cre a + cre b :> cx.
  Proof. unfold cre; cbn; unfold cadd; cbn; f_equal; ring. Qed.
  Lemma cre_sub a b : cre (a - b) = cre a - cre b :> cx.
  Proof. unfold cre; cbn; unfold csub; cbn; f_equal; ring. Qed.
  Lemma cre_mul a b : cre (a * b) = cre a * cre b :> cx.
  Proof. unfold cre; cbn; unfold cmul; cbn; f_equal; ring. Qed.
  Lemma cre_opp a : cre (- a) = - cre a :> cx.
  Proof. unfold cre; cbn; unfold copp; cbn; f_equal; ring. Qed.
  Lemma cre_1 : cre 1 = (1 : cx).
  Proof. reflexivity. Qed.
  Lemma cre_0 : cre 0 = (0 : cx).
  Proof. reflexivity. Qed.

  Definition avoids (q : nat) (g : gate) : Prop :=
    match g with
    | GX p | GH p | GSdg p | GRX _ _ p | GRY _ _ p | GRZ _ _ p => p <> q
    | GCX a b | GCZ a b => a <> q /\ b <> q
    | GSwap _ _ => False
    end.
  Lemma avoids_comm s2 g m q (psi : qstate) : avoids q g -> gate_sem s2 g (app1q m q psi) ~~ app1q m q (gate_sem s2 g psi).
  Proof.
    intros H x. destruct g; cbn [avoids gate_sem] in *; try (now apply app1q_comm); try contradiction; destruct H as [Ha Hb].
    - rewrite app1q_eq. rewrite !app1q_eq. rewrite !occ_flip_other by auto. rewrite (flip_comm x q t). destruct (occ x c); reflexivity.
    - rewrite !app1q_eq. rewrite !occ_flip_other by auto. destruct (occ x c && occ x t); [ring|reflexivity].
  Qed.
  Lemma h_h s2 q (psi : qstate) : s2 * s2 + s2 * s2 = 1 -> gate_sem s2 (GH q) (gate_sem s2 (GH q) psi) ~~ psi.
  Proof.
    intros H x. cbn [gate_sem]. rewrite !app1q_eq, occ_flip_same, flip_flip. unfold mH.
    assert (cre s2 * cre s2 + cre s2 * cre s2 = (1 : cx)) as Hc by (rewrite <- cre_mul, <- cre_add, H; reflexivity).
    destruct (occ x q); cbn [andb negb]; transitivity ((cre s2 * cre s2 + cre s2 * cre s2) * psi x); try ring; rewrite Hc; ring.
  Qed.
  Lemma h_cx s2 c q (psi : qstate) : c <> q -> gate_sem s2 (GCX c q) (gate_sem s2 (GH q) psi) ~~ gate_sem s2 (GH q) (gate_sem s2 (GCZ c q) psi).
  Proof.
    intros H x. cbn [gate_sem]. rewrite !app1q_eq, !occ_flip_same, !flip_flip, !(occ_flip_other _ q c) by auto. unfold mH.
    destruct (occ x c), (occ x q); cbn [andb negb]; ring.
  Qed.
  Inductive pushH (q : nat) : list gate -> list gate -> Prop :=
  | push_cancel gs : pushH q (GH q :: gs) gs
  | push_cx c gs gs' : c <> q -> pushH q gs gs' -> pushH q (GCX c q :: gs) (GCZ c q :: gs')
  | push_skip g gs gs' : avoids q g -> pushH q gs gs' -> pushH q (g :: gs) (g :: gs').
  Lemma pushH_run s2 q gs gs' : s2 * s2 + s2 * s2 = 1 -> pushH q gs gs' -> forall psi, run s2 (GH q :: gs) psi ~~ run s2 gs' psi.
  Proof.
    intros H2 H. induction H as [gs|c gs gs' Hc _ IH|g gs gs' Hg _ IH]; intros psi.
    - rewrite !run_cons. apply run_ext. now apply h_h.
    - rewrite !run_cons. eapply qeq_trans; [apply run_ext; apply h_cx; exact Hc|]. apply (IH (gate_sem s2 (GCZ c q) psi)).
    - rewrite !run_cons. eapply qeq_trans; [apply run_ext; apply (avoids_comm s2 g (mH s2) q psi Hg)|]. apply (IH (gate_sem s2 g psi)).
  Qed.

  (** The rotations with the Hadamard gates removed. *)
  Definition core_cz (ce se : K) (k l i j : nat) : list gate :=
    [GRY ce se l; GCZ l k; GRY ce (- se) l; GCZ l i; GRY ce se l; GCZ l k; GRY ce (- se) l;
     GCZ l j; GRY ce se l; GCZ l k; GRY ce (- se) l; GCZ l i; GRY ce se l; GCZ l k; GRY ce (- se) l; GCZ l j].
  Ltac push := repeat first [apply push_cancel | (apply push_cx; [auto; fail|]) | (apply push_skip; [cbn [avoids]; auto; fail|])].
  Lemma run_congr s2 g gs gs' : (forall psi, run s2 gs psi ~~ run s2 gs' psi) -> forall psi, run s2 (g :: gs) psi ~~ run s2 (g :: gs') psi.
  Proof. intros H psi. rewrite !run_cons. apply H. Qed.
  Lemma core_cz_run s2 ce se k l i j : s2 * s2 + s2 * s2 = 1 -> distinct4 k l i j -> forall psi : qstate,
    run s2 (double_core ce se k l i j) psi ~~ run s2 (core_cz ce se k l i j) psi.
  Proof.
    intros H2 (D1 & D2 & D3 & D4 & D5 & D6). unfold double_core, core_cz.
    apply run_congr. intros psi. eapply qeq_trans; [apply (pushH_run s2 k); [exact H2|push]|]. revert psi.
    do 2 apply run_congr. intros psi. eapply qeq_trans; [apply (pushH_run s2 i); [exact H2|push]|]. revert psi.
    do 4 apply run_congr. intros psi. eapply qeq_trans; [apply (pushH_run s2 j); [exact H2|push]|]. revert psi.
    repeat apply run_congr. intros psi. apply qeq_refl.
  Qed.

  (** The rotations as an angle that depends on the other three qubits. *)
  Definition stage (x : N) (l : nat) (psi phi : qstate) (c s : K) (z : bool) : Prop :=
    forall y, y = x \/ y = flip x l ->
      phi y = sgn (z && occ y l) (cre c * psi y + cre s * sgn (negb (occ y l)) (psi (flip y l))).
  Lemma stage_start x l psi : stage x l psi psi 1 0 false.
  Proof. intros y _. cbn [andb sgn]. rewrite cre_1, cre_0. ring. Qed.
  Lemma stage_ry s2 x l psi phi c s z c' s' : stage x l psi phi c s z ->
    stage x l psi (gate_sem s2 (GRY c' s' l) phi) (if z then c * c' + s * s' else c * c' - s * s') (if z then s * c' - c * s' else s * c' + c * s') z.
  Proof.
    intros H y Hy. cbn [gate_sem]. rewrite app1q_eq. rewrite (H y Hy). rewrite (H (flip y l)) by (destruct Hy as [-> | ->]; rewrite ?flip_flip; auto).
    rewrite occ_flip_same, flip_flip. unfold mRY. destruct (occ y l), z; cbn [Bool.eqb negb andb sgn]; rewrite ?cre_add, ?cre_sub, ?cre_mul; ring.
  Qed.
  Lemma stage_cz s2 x l q psi phi c s z : q <> l -> stage x l psi phi c s z -> stage x l psi (gate_sem s2 (GCZ l q) phi) c s (xorb z (occ x q)).
  Proof.
    intros Hq H y Hy. cbn [gate_sem]. rewrite (H y Hy). replace (occ y q) with (occ x q) by (destruct Hy as [-> | ->]; [reflexivity|now rewrite occ_flip_other by auto]).
    destruct (occ y l), (occ x q), z; cbn [andb xorb negb sgn]; ring.
  Qed.
  (** Doubling an angle. *)
  Definition dbl (cs : K * K) : K * K := (fst cs * fst cs - snd cs * snd cs, fst cs * snd cs + fst cs * snd cs).
  Definition oct (cs : K * K) : K * K := dbl (dbl (dbl cs)).
  Lemma stage_eq x l psi phi c s z c' s' z' : stage x l psi phi c s z -> c = c' -> s = s' -> z = z' -> stage x l psi phi c' s' z'.
  Proof. now intros H <- <- <-. Qed.
  Lemma core_stage s2 ce se k l i j (psi : qstate) x : ce * ce + se * se = 1 -> distinct4 k l i j ->
    stage x l psi (run s2 (core_cz ce se k l i j) psi)
      (if occ x k && occ x i && occ x j then fst (oct (ce, se)) else 1) (if occ x k && occ x i && occ x j then snd (oct (ce, se)) else 0) false.
  Proof.
    intros H1 (D1 & D2 & D3 & D4 & D5 & D6). unfold core_cz. cbn [run fold_left].
    eapply stage_eq; [repeat first [apply stage_start | apply stage_ry | (apply stage_cz; [now auto|])]|..].
    - unfold oct, dbl. destruct (occ x k), (occ x i), (occ x j); cbn [xorb andb fst snd]; try ring;
        (transitivity ((ce * ce + se * se) * (ce * ce + se * se) * (ce * ce + se * se) * (ce * ce + se * se)); [ring|rewrite H1; ring]).
    - unfold oct, dbl. destruct (occ x k), (occ x i), (occ x j); cbn [xorb andb fst snd]; ring.
    - destruct (occ x k), (occ x i), (occ x j); reflexivity.
  Qed.
  Lemma core_sem s2 ce se k l i j (psi : qstate) x : s2 * s2 + s2 * s2 = 1 -> ce * ce + se * se = 1 -> distinct4 k l i j ->
    run s2 (double_core ce se k l i j) psi x =
      if occ x k && occ x i && occ x j then cre (fst (oct (ce, se))) * psi x + cre (snd (oct (ce, se))) * sgn (negb (occ x l)) (psi (flip x l)) else psi x.
  Proof.
    intros H2 H1 HD. rewrite (core_cz_run s2 ce se k l i j H2 HD psi x). rewrite (core_stage s2 ce se k l i j psi x H1 HD x (or_introl eq_refl)).
    cbn [andb sgn]. destruct (occ x k && occ x i && occ x j); [reflexivity|]. rewrite cre_1, cre_0. ring.
  Qed.

  (** The part between the ladders. *)
  Definition czo (l : nat) (zo : option nat) : list gate := match zo with Some z => [GCZ l z] | None => [] end.
  Definition zpar (y : N) (zo : option nat) : bool := match zo with Some z => occ y z | None => false end.
  Lemma core_x_sem s2 ce se k l i j (psi : qstate) x : s2 * s2 + s2 * s2 = 1 -> ce * ce + se * se = 1 -> distinct4 k l i j ->
    run s2 ([GX k; GX i] ++ double_core ce se k l i j ++ [GX k; GX i]) psi x =
      if negb (occ x k) && negb (occ x i) && occ x j then cre (fst (oct (ce, se))) * psi x + cre (snd (oct (ce, se))) * sgn (negb (occ x l)) (psi (flip x l)) else psi x.
  Proof.
    intros H2 H1 HD. pose proof HD as (D1 & D2 & D3 & D4 & D5 & D6). rewrite !run_app'.
    assert (forall (phi : qstate) y, run s2 [GX k; GX i] phi y = phi (flip (flip y i) k)) as HX by (intros; cbn [run fold_left]; now rewrite !x_sem).
    rewrite HX, core_sem by assumption. rewrite !HX.
    rewrite !(occ_flip_other _ k i), occ_flip_same, occ_flip_same, !(occ_flip_other _ k j), !(occ_flip_other _ i j), !(occ_flip_other _ k l), !(occ_flip_other _ i l), !(occ_flip_other _ i k) by auto.
    assert (flip (flip (flip (flip x i) k) i) k = x) as E1 by (rewrite (flip_comm (flip x i) k i), !flip_flip; reflexivity).
    assert (flip (flip (flip (flip (flip x i) k) l) i) k = flip x l) as E2.
    { rewrite (flip_comm (flip (flip x i) k) l i), (flip_comm (flip x i) k i), flip_flip, (flip_comm (flip x k) l k), flip_flip. reflexivity. }
    rewrite E1, E2. reflexivity.
  Qed.
  Lemma mid_sem s2 ce se k l i j zo (psi : qstate) x : s2 * s2 + s2 * s2 = 1 -> ce * ce + se * se = 1 -> distinct4 k l i j -> zo <> Some l ->
    run s2 (czo l zo ++ ([GX k; GX i] ++ double_core ce se k l i j ++ [GX k; GX i]) ++ czo l zo) psi x =
      if negb (occ x k) && negb (occ x i) && occ x j
      then cre (fst (oct (ce, se))) * psi x + cre (snd (oct (ce, se))) * sgn (negb (occ x l)) (sgn (zpar x zo) (psi (flip x l))) else psi x.
  Proof.
    intros H2 H1 HD Hz. rewrite run_app', (run_app' s2 ([GX k; GX i] ++ _)). destruct zo as [z|]; cbn [czo zpar].
    - assert (z <> l) as Hzl by congruence. cbn [run fold_left]. cbn [gate_sem]. fold (run (K:=K) s2). 
      change (fold_left (fun psi g => gate_sem s2 g psi) ?l ?p) with (run s2 l p). rewrite !core_x_sem by assumption. rewrite !occ_flip_same, !(occ_flip_other _ l z) by auto.
      destruct (negb (occ x k) && negb (occ x i) && occ x j); destruct (occ x l), (occ x z); cbn [andb negb sgn]; ring.
    - cbn [run fold_left]. change (fold_left (fun psi g => gate_sem s2 g psi) ?l ?p) with (run s2 l p). now rewrite !core_x_sem by assumption.
  Qed.
End Push.

(** ** The ladders of the double excitation *)
Section Ladders.
  Context {K : Type} {C : CRing K}.
  Local Open Scope K_scope.
  Add Ring KringD3 : (@rth K C).
  Notation cx := (K * K)%type.
  Add Ring CxringD3 : (@rth cx Cx_CRing).
  Notation qstate := (qstate (K:=K)).
  Notation gate := (gate (K:=K)).
  Notation G := (map (fun ct => GCX (K:=K) (fst ct) (snd ct))).

  Definition upl (lo len : nat) : list (nat * nat) := map (fun t => (t, t + 1)%nat) (seq lo len).
  Lemma upl_gates lo len : map (fun t => GCX (K:=K) t (t + 1)) (seq lo len) = G (upl lo len).
  Proof. unfold upl. now rewrite map_map. Qed.
  Lemma upl_gates_rev lo len : map (fun t => GCX (K:=K) (t - 1) t) (rev (seq (lo + 1) len)) = G (rev (upl lo len)).
  Proof.
    unfold upl. replace (lo + 1)%nat with (S lo) by lia. rewrite <- seq_shift, <- map_rev, map_map, <- map_rev, map_map. apply map_ext. intros t. cbn [fst snd]. f_equal; lia.
  Qed.
  Lemma upl_props lo len : Forall (fun ct => (lo <= fst ct < lo + len)%nat /\ snd ct = (fst ct + 1)%nat) (upl lo len).
  Proof. apply Forall_forall. intros ct H. apply in_map_iff in H as (t & <- & Ht). apply in_seq in Ht. cbn. lia. Qed.
  Lemma par_snoc w lo len : par w lo (S len) = xorb (par w lo len) (occ w (lo + len)).
  Proof.
    revert lo. induction len as [|len IH]; intros lo; [cbn [par]; rewrite Nat.add_0_r; now destruct (occ w lo)|].
    change (par w lo (S (S len))) with (xorb (occ w lo) (par w (S lo) (S len))). rewrite IH.
    change (par w lo (S len)) with (xorb (occ w lo) (par w (S lo) len)). replace (lo + S len)%nat with (S lo + len)%nat by lia. now rewrite xorb_assoc.
  Qed.
  Lemma occ_upl lo len w : occ (cxs (rev (upl lo len)) w) (lo + len) = par w lo (S len).
  Proof.
    induction len as [|len IH]; [cbn [par upl seq map rev cxs fold_right]; rewrite Nat.add_0_r; now destruct (occ w lo)|].
    unfold upl. rewrite seq_S, map_app, rev_app_distr. cbn [map rev List.app]. change (rev (map (fun t => (t, (t + 1)%nat)) (seq lo len))) with (rev (upl lo len)).
    change (cxs ((?a, ?b) :: ?l) ?y) with (cxf a b (cxs l y)). rewrite occ_cxf. replace (lo + len + 1)%nat with (lo + S len)%nat by lia. rewrite Nat.eqb_refl, IH.
    rewrite occ_cxs_other.
    - rewrite xorb_comm. symmetry. apply par_snoc.
    - apply Forall_rev. eapply Forall_impl; [|apply upl_props]. cbn. intros; lia.
  Qed.
  (** The ladder as a list of controlled gates and the qubit holding the parity of
      the two gaps. *)
  Definition lad (iz kz jz lz : nat) : list (nat * nat) :=
    if negb (lz =? jz + 1)%nat then upl (iz + 1) (kz - 1 - (iz + 1)) ++ (if negb (iz + 1 =? kz)%nat then [(kz - 1, jz + 1)%nat] else []) ++ upl (jz + 1) (lz - 1 - (jz + 1))
    else if negb (iz =? kz - 1)%nat then upl (iz + 1) (kz - 1 - (iz + 1)) else [].
  Definition ladz (iz kz jz lz : nat) : option nat :=
    if negb (lz =? jz + 1)%nat then Some (lz - 1)%nat else if negb (iz =? kz - 1)%nat then Some (kz - 1)%nat else None.
  Lemma ladder_in_eq iz kz jz lz : ladder_in iz kz jz lz = G (lad iz kz jz lz) ++ czo lz (ladz iz kz jz lz).
  Proof.
    unfold ladder_in, lad, ladz, range. destruct (negb (lz =? jz + 1)%nat); [|destruct (negb (iz =? kz - 1)%nat); [|reflexivity]]; cbn [czo].
    - rewrite !map_app, !upl_gates, <- !app_assoc. destruct (negb (iz + 1 =? kz)%nat); reflexivity.
    - now rewrite upl_gates.
  Qed.
  Lemma ladder_out_eq iz kz jz lz : ladder_out iz kz jz lz = czo lz (ladz iz kz jz lz) ++ G (rev (lad iz kz jz lz)).
  Proof.
    unfold ladder_out, lad, ladz, down_from. destruct (negb (lz =? jz + 1)%nat); [|destruct (negb (iz =? kz - 1)%nat); [|reflexivity]]; cbn [czo].
    - rewrite !rev_app_distr, !map_app, !upl_gates_rev, <- !app_assoc. destruct (negb (iz + 1 =? kz)%nat); reflexivity.
    - now rewrite upl_gates_rev.
  Qed.
  Lemma lad_props iz kz jz lz : (iz < kz)%nat -> (kz < jz)%nat -> (jz < lz)%nat ->
    Forall (fun ct => fst ct <> snd ct /\ (forall q, q = iz \/ q = kz \/ q = jz \/ q = lz -> fst ct <> q /\ snd ct <> q)) (lad iz kz jz lz) /\
    ladz iz kz jz lz <> Some lz /\
    forall w, zpar (cxs (rev (lad iz kz jz lz)) w) (ladz iz kz jz lz) = gaps w iz kz jz lz.
  Proof.
    intros H1 H2 H3.
    assert (Forall (fun ct : nat * nat => fst ct <> snd ct /\ (forall q, q = iz \/ q = kz \/ q = jz \/ q = lz -> fst ct <> q /\ snd ct <> q)) (upl (iz + 1) (kz - 1 - (iz + 1)))) as P1.
    { eapply Forall_impl; [|apply upl_props]. intros [c t] [Hc Ht]. cbn [fst snd] in *. split; [lia|]. intros q Hq; lia. }
    assert (Forall (fun ct : nat * nat => fst ct <> snd ct /\ (forall q, q = iz \/ q = kz \/ q = jz \/ q = lz -> fst ct <> q /\ snd ct <> q)) (upl (jz + 1) (lz - 1 - (jz + 1)))) as P2.
    { eapply Forall_impl; [|apply upl_props]. intros [c t] [Hc Ht]. cbn [fst snd] in *. split; [lia|]. intros q Hq; lia. }
    unfold lad, ladz, gaps. destruct (Nat.eqb_spec lz (jz + 1)) as [E|E]; cbn [negb].
    - replace (lz - jz - 1)%nat with 0%nat by lia. cbn [par]. destruct (Nat.eqb_spec iz (kz - 1)) as [E'|E']; cbn [negb].
      + split; [constructor|]. split; [discriminate|]. intros w. cbn [zpar]. replace (kz - iz - 1)%nat with 0%nat by lia. reflexivity.
      + split; [exact P1|]. split; [intros HH; injection HH; lia|]. intros w. cbn [zpar]. replace (kz - 1)%nat with (iz + 1 + (kz - 1 - (iz + 1)))%nat at 2 by lia.
        rewrite occ_upl, xorb_false_r. f_equal. lia.
    - split; [|split; [intros HH; injection HH; lia|]].
      + apply Forall_app. split; [exact P1|]. apply Forall_app. split; [|exact P2]. destruct (Nat.eqb_spec (iz + 1) kz); cbn [negb]; [constructor|].
        constructor; [|constructor]. cbn [fst snd]. split; [lia|]. intros q Hq; lia.
      + intros w. cbn [zpar]. rewrite !rev_app_distr, !cxs_app. replace (lz - 1)%nat with (jz + 1 + (lz - 1 - (jz + 1)))%nat at 2 by lia. rewrite occ_upl.
        set (w1 := cxs (rev (upl (iz + 1) (kz - 1 - (iz + 1)))) w). set (O := if negb (iz + 1 =? kz)%nat then [((kz - 1)%nat, (jz + 1)%nat)] else []).
        assert (forall q, (jz < q)%nat -> occ w1 q = occ w q) as Hw1.
        { intros q Hq. unfold w1. apply occ_cxs_other. apply Forall_rev. eapply Forall_impl; [|apply upl_props]. intros [c t] [Hc Ht]. cbn [fst snd] in *. lia. }
        cbn [par]. assert (occ (cxs (rev O) w1) (jz + 1) = xorb (occ w (jz + 1)) (par w (iz + 1) (kz - iz - 1))) as ->.
        { unfold O. destruct (Nat.eqb_spec (iz + 1) kz) as [E'|E']; cbn [negb].
          - replace (kz - iz - 1)%nat with 0%nat by lia. cbn [rev cxs fold_right par]. rewrite xorb_false_r. apply Hw1. lia.
          - cbn [rev List.app cxs fold_right fst snd]. rewrite occ_cxf, Nat.eqb_refl. rewrite Hw1 by lia. f_equal.
            replace (kz - 1)%nat with (iz + 1 + (kz - 1 - (iz + 1)))%nat by lia. unfold w1.
            replace (iz + 1 + (kz - 1 - (iz + 1)))%nat with (kz - 1)%nat at 1 by lia. replace (kz - 1)%nat with (iz + 1 + (kz - 1 - (iz + 1)))%nat at 2 by lia.
            rewrite occ_upl. f_equal. lia. }
        replace (lz - jz - 1)%nat with (S (lz - 1 - (jz + 1))) by lia. cbn [par].
        rewrite (par_ext (cxs (rev O) w1) w); [destruct (occ w (jz + 1)), (par w (iz + 1) (kz - iz - 1)), (par w (S (jz + 1)) (lz - 1 - (jz + 1))); reflexivity|].
        intros q Hq. rewrite occ_cxs_other; [apply Hw1; lia|]. unfold O. destruct (negb (iz + 1 =? kz)%nat); cbn [rev List.app]; constructor; [cbn; lia|constructor].
  Qed.

  (** ** The circuit for sorted indices *)
  Definition double_circ (ce se : K) (k l i j iz kz jz lz : nat) : list gate :=
    [GCX l k; GCX j i; GCX l j] ++ ladder_in iz kz jz lz ++ [GX k; GX i] ++ double_core ce se k l i j
      ++ [GX k; GX i] ++ ladder_out iz kz jz lz ++ [GCX l j; GCX l k; GCX j i].
  Lemma double_circ_sem s2 ce se k l i j iz kz jz lz (psi : qstate) x :
    s2 * s2 + s2 * s2 = 1 -> ce * ce + se * se = 1 -> (k < l)%nat -> (i < j)%nat -> (j < l)%nat -> (i < k)%nat -> k <> j ->
    sorted4 k l i j = (iz, kz, jz, lz) ->
    run s2 (double_circ ce se k l i j iz kz jz lz) psi x =
      if pattern x k l i j
      then cre (fst (oct (ce, se))) * psi x + cre (snd (oct (ce, se))) * sgn (negb (occ x k)) (sgn (gaps4 x k l i j) (psi (flip4 x k l i j)))
      else psi x.
  Proof.
    intros H2 H1 Hkl Hij Hjl Hik Hkj Hs. assert (distinct4 k l i j) as HD by (unfold distinct4; repeat split; lia).
    assert (lz = l /\ (iz < kz)%nat /\ (kz < jz)%nat /\ (jz < lz)%nat /\ forall q, q = k \/ q = l \/ q = i \/ q = j <-> q = iz \/ q = kz \/ q = jz \/ q = lz) as (-> & S1 & S2 & S3 & Sq).
    { unfold sorted4 in Hs. destruct (Nat.ltb_spec k j); injection Hs as <- <- <- <-; repeat split; lia || tauto. }
    destruct (lad_props iz kz jz l S1 S2 S3) as (PL & PZ & PG).
    set (L := lad iz kz jz l) in *. set (zo := ladz iz kz jz l) in *.
    set (A := [(l, k); (j, i); (l, j)]). set (A' := [(l, j); (l, k); (j, i)]).
    assert (double_circ ce se k l i j iz kz jz l = G (A ++ L) ++ (czo l zo ++ ([GX k; GX i] ++ double_core ce se k l i j ++ [GX k; GX i]) ++ czo l zo) ++ G (rev L ++ A')) as ->.
    { unfold double_circ. rewrite ladder_in_eq, ladder_out_eq. fold L zo. rewrite !map_app, <- !app_assoc. reflexivity. }
    set (w := cxs A' x). set (y := cxs (rev L ++ A') x).
    rewrite (run_app' s2 (G (A ++ L))), (run_app' s2 (czo l zo ++ _)), run_cxs. fold y.
    assert (y = cxs (rev L) w) as Ey by (unfold y, w; apply cxs_app).
    rewrite mid_sem by assumption. rewrite !run_cxs.
    assert (forall q, q = k \/ q = l \/ q = i \/ q = j -> occ y q = occ w q) as Hyw.
    { intros q Hq. rewrite Ey. apply occ_cxs_other. apply Forall_rev. eapply Forall_impl; [|exact PL]. intros ct [_ Hc]. now apply Hc, Sq. }
    assert (forall a b : nat, a <> b -> (a =? b)%nat = false) as Hne by (intros a b; apply Nat.eqb_neq).
    pose proof (Hne j k ltac:(lia)) as Ejk. pose proof (Hne j i ltac:(lia)) as Eji. pose proof (Hne l k ltac:(lia)) as Elk. pose proof (Hne l i ltac:(lia)) as Eli.
    pose proof (Hne k i ltac:(lia)) as Eki. pose proof (Hne l j ltac:(lia)) as Elj. pose proof (Hne k j ltac:(lia)) as Ekj. pose proof (Hne i j ltac:(lia)) as Eij. pose proof (Hne i k ltac:(lia)) as Eik.
    assert (forall q, occ w q = if (q =? j)%nat then xorb (occ x j) (occ x l) else if (q =? k)%nat then xorb (occ x k) (occ x l) else if (q =? i)%nat then xorb (occ x i) (occ x j) else occ x q) as Hw.
    { intros q. unfold w, A'. cbn [cxs fold_right fst snd]. rewrite !occ_cxf. now rewrite ?Ejk, ?Eji, ?Elk, ?Eli, ?Eki, ?Elj. }
    assert (cxs L y = w) as B0 by (rewrite Ey; apply cxs_rev; eapply Forall_impl; [|exact PL]; cbn; tauto).
    assert (forall u q, occ (cxs A u) q = if (q =? j)%nat then xorb (occ u j) (occ u l) else if (q =? k)%nat then xorb (occ u k) (occ u l)
               else if (q =? i)%nat then xorb (occ u i) (xorb (occ u j) (occ u l)) else occ u q) as HA.
    { intros u q. unfold A. cbn [cxs fold_right fst snd]. rewrite !occ_cxf. rewrite ?Nat.eqb_refl, ?Ejk, ?Eji, ?Elk, ?Eli, ?Eki, ?Elj, ?Ekj, ?Eij, ?Eik.
      destruct (Nat.eqb_spec q k) as [->|]; [now rewrite ?Ekj|]. destruct (Nat.eqb_spec q i) as [->|]; [now rewrite ?Eij|]. reflexivity. }
    assert (cxs (A ++ L) y = x) as B1.
    { rewrite cxs_app, B0. apply det_ext. intros q. rewrite HA, !Hw. rewrite ?Nat.eqb_refl, ?Ejk, ?Eji, ?Elk, ?Eli, ?Eki, ?Elj, ?Ekj, ?Eij, ?Eik.
      destruct (Nat.eqb_spec q j) as [->|]; [now destruct (occ x j), (occ x l)|]. destruct (Nat.eqb_spec q k) as [->|]; [now destruct (occ x k), (occ x l)|].
      destruct (Nat.eqb_spec q i) as [->|]; [now destruct (occ x i), (occ x j), (occ x l)|]. reflexivity. }
    assert (cxs (A ++ L) (flip y l) = flip4 x k l i j) as B2.
    { rewrite cxs_app. rewrite cxs_flip by (eapply Forall_impl; [|exact PL]; cbn; intros ct [_ Hc]; apply (Hc l); tauto). rewrite B0.
      apply det_ext. intros q. rewrite HA, occ_flip4 by lia. rewrite !occ_flip_same, !(occ_flip_other _ l j), !(occ_flip_other _ l k), !(occ_flip_other _ l i), !Hw by lia.
      rewrite ?Nat.eqb_refl, ?Ejk, ?Eji, ?Elk, ?Eli, ?Eki, ?Elj, ?Ekj, ?Eij, ?Eik.
      destruct (Nat.eqb_spec q j) as [->|]; [rewrite ?orb_true_r; now destruct (occ x j), (occ x l)|].
      destruct (Nat.eqb_spec q k) as [->|]; [cbn [orb]; now destruct (occ x k), (occ x l)|].
      destruct (Nat.eqb_spec q i) as [->|]; [rewrite ?orb_true_r; cbn [orb]; now destruct (occ x i), (occ x j), (occ x l)|]. cbn [orb]. rewrite !orb_false_r.
      destruct (Nat.eqb_spec q l) as [->|]; [rewrite occ_flip_same, Hw, Elj, Elk, Eli; now destruct (occ x l)|].
      rewrite occ_flip_other, Hw by auto. destruct (Nat.eqb_spec q j), (Nat.eqb_spec q k), (Nat.eqb_spec q i); try contradiction. now rewrite xorb_false_r. }
    rewrite B1, B2. rewrite !Hyw by tauto. rewrite !Hw. rewrite ?Nat.eqb_refl, ?Ejk, ?Eji, ?Elk, ?Eli, ?Eki, ?Elj, ?Ekj, ?Eij, ?Eik.
    assert (zpar y zo = gaps4 x k l i j) as ->.
    { rewrite Ey, PG. unfold gaps4. rewrite Hs. unfold gaps. f_equal; apply par_ext; intros q Hq; rewrite Hw;
        destruct (Nat.eqb_spec q j), (Nat.eqb_spec q k), (Nat.eqb_spec q i); try reflexivity; exfalso;
        assert (q = iz \/ q = kz \/ q = jz \/ q = l) as Hin by (apply Sq; tauto); lia. }
    unfold pattern. destruct (occ x k), (occ x l), (occ x i), (occ x j); reflexivity.
  Qed.
End Ladders.

(** ** The exponential and the index bookkeeping *)
Section DoubleExp.
  Context {K : Type} {C : CRing K}.
  Local Open Scope K_scope.
  Add Ring KringD4 : (@rth K C).
  Lemma gaps4_flip x k l i j : (k < l)%nat -> (i < j)%nat -> (j < l)%nat -> (i < k)%nat -> k <> j -> gaps4 (flip4 x k l i j) k l i j = gaps4 x k l i j.
  Proof.
    intros. unfold gaps4, sorted4. destruct (Nat.ltb_spec k j); unfold gaps; f_equal; apply par_ext; intros q Hq; rewrite occ_flip4 by lia;
      destruct (Nat.eqb_spec q k), (Nat.eqb_spec q l), (Nat.eqb_spec q i), (Nat.eqb_spec q j); try lia; cbn [orb]; apply xorb_false_r.
  Qed.
  Lemma pattern_flip x k l i j : distinct4 k l i j -> pattern (flip4 x k l i j) k l i j = pattern x k l i j.
  Proof.
    intros (? & ? & ? & ? & ? & ?). unfold pattern. rewrite !occ_flip4 by assumption. rewrite !Nat.eqb_refl, !orb_true_r. cbn [orb].
    rewrite ?orb_true_r. cbn [orb]. destruct (occ x k), (occ x l), (occ x i), (occ x j); reflexivity.
  Qed.
  Lemma flip4_invol x k l i j : distinct4 k l i j -> flip4 (flip4 x k l i j) k l i j = x.
  Proof. intros (? & ? & ? & ? & ? & ?). apply det_ext. intros q. rewrite !occ_flip4 by assumption. destruct (occ x q), ((q =? k)%nat || (q =? l)%nat || (q =? i)%nat || (q =? j)%nat); reflexivity. Qed.
  Lemma gen2_square k l i j (psi : amps) x : (k < l)%nat -> (i < j)%nat -> (j < l)%nat -> (i < k)%nat -> k <> j ->
    opapp (gen2 k l i j) (opapp (gen2 (K:=K) k l i j) psi) x = if pattern x k l i j then - psi x else 0.
  Proof.
    intros. assert (distinct4 k l i j) as HD by (unfold distinct4; repeat split; lia). rewrite !gen2_sorted by assumption.
    rewrite pattern_flip, gaps4_flip, flip4_invol by assumption. destruct (pattern x k l i j); [|reflexivity].
    rewrite occ_flip4 by lia. rewrite Nat.eqb_refl. cbn [orb]. destruct (occ x k), (gaps4 x k l i j); cbn [negb xorb sgn]; ring.
  Qed.
  Lemma opapp_neg A B (psi : amps) : (forall (f : amps) x, opapp (K:=K) A f x = - opapp B f x) ->
    forall x, opapp A (opapp A psi) x = opapp B (opapp B psi) x.
  Proof.
    intros H x. rewrite H. rewrite (opapp_ext B (opapp A psi) (fun e => - (1) * opapp B psi e)) by (intros; rewrite H; ring). rewrite opapp_scale. ring.
  Qed.
  Ltac distinct := unfold distinct4; repeat split; lia.
  (** The meaning of the index bookkeeping of the circuit. *)
  Lemma double_indices_spec k l i j n : distinct4 k l i j -> (k < 2 * n)%nat -> (l < 2 * n)%nat -> (i < 2 * n)%nat -> (j < 2 * n)%nat ->
    match double_indices k l i j n with
    | Ok (fac, (k', l', i', j')) =>
        (i < k)%nat /\ (j < k)%nat /\ (i < l)%nat /\ (j < l)%nat /\ Nat.even (k + l + i + j) = true /\
        (k' < l')%nat /\ (i' < j')%nat /\ (j' < l')%nat /\ (i' < k')%nat /\ k' <> j' /\
        forall (psi : amps) x, opapp (gen2 (f2q k n) (f2q l n) (f2q i n) (f2q j n)) psi x = sgn (fac <? 0)%Z (opapp (gen2 (K:=K) k' l' i' j') psi x)
    | Raise ValueError => ~ ((i < k)%nat /\ (j < k)%nat /\ (i < l)%nat /\ (j < l)%nat /\ Nat.even (k + l + i + j) = true)
    | _ => False
    end.
  Proof.
    intros (D1 & D2 & D3 & D4 & D5 & D6) Hk Hl Hi Hj. unfold double_indices.
    destruct (Nat.ltb_spec k i); [cbn [orb]; lia|]. destruct (Nat.ltb_spec k j); [cbn [orb]; lia|]. cbn [orb].
    destruct (Nat.ltb_spec l i); [cbn [orb]; lia|]. destruct (Nat.ltb_spec l j); [cbn [orb]; lia|]. cbn [orb].
    assert (forall r, ((2 * r) mod 2 = 0)%nat) as M0 by (intros r; rewrite Nat.mul_comm; apply Nat.mod_mul; lia).
    assert (forall r, ((2 * r + 1) mod 2 = 1)%nat) as M1 by (intros r; rewrite Nat.add_comm, Nat.mul_comm, Nat.mod_add by lia; reflexivity).
    assert (Nat.even (k + l + i + j) = Nat.even ((k mod 2) + (l mod 2) + (i mod 2) + (j mod 2))) as Eev.
    { rewrite !Nat.even_add. assert (forall a, Nat.even a = Nat.even (a mod 2)) as E.
      { intros a. destruct (even_odd a) as [[r ->]|[r ->]]; rewrite ?M0, ?M1; rewrite ?Nat.even_add, Nat.even_mul; reflexivity. }
      rewrite (E k), (E l), (E i), (E j). reflexivity. }
    rewrite Eev. clear Eev.
    destruct (even_odd k) as [[a ->]|[a ->]], (even_odd l) as [[b ->]|[b ->]], (even_odd i) as [[c ->]|[c ->]], (even_odd j) as [[d ->]|[d ->]];
      rewrite ?M0, ?M1; cbn [b2n Nat.eqb Nat.add Nat.sub Nat.even andb negb orb]; change (4 mod 2)%nat with 0%nat; change (3 mod 2)%nat with 1%nat; change (2 mod 2)%nat with 0%nat; change (1 mod 2)%nat with 1%nat; change (0 mod 2)%nat with 0%nat;
      cbn [Nat.eqb negb orb andb]; try (intros (_ & _ & _ & _ & F); discriminate F); rewrite ?f2q_even, ?f2q_odd; clear M0 M1.
    all: match goal with |- context [if (?x <? ?y)%nat then (?x, _, _) else _] => destruct (Nat.ltb_spec x y) | |- context [if (?x <? ?y)%nat then _ else _] => destruct (Nat.ltb_spec x y) end; try (exfalso; lia).
    all: match goal with |- context [if (?x <? ?y)%nat then _ else _] => destruct (Nat.ltb_spec x y) end; try (exfalso; lia).
    all: match goal with |- context [if (?x <? ?y)%nat then _ else _] => destruct (Nat.ltb_spec x y) end; try (exfalso; lia).
    all: match goal with |- context [if (?x <? ?y)%nat then _ else _] => destruct (Nat.ltb_spec x y) end; try (exfalso; lia).
    all: repeat match goal with |- _ /\ _ => split end; try lia; try reflexivity.
    all: intros psi x; cbn [Z.opp Z.ltb Z.compare sgn].
    all: try reflexivity.
    all: first [ apply gen2_swap1; distinct | apply gen2_swap2; distinct | (apply gen2_adj; distinct)
               | (rewrite gen2_adj, gen2_swap1 by distinct; ring) | (rewrite gen2_adj, gen2_swap2 by distinct; ring)
               | (rewrite gen2_swap1, gen2_swap2 by distinct; ring) | (rewrite gen2_adj, gen2_swap1, gen2_swap2 by distinct; ring) ].
  Qed.
End DoubleExp.

Section DoubleCirc.
  Context {K : Type} {C : CRing K}.
  Local Open Scope K_scope.
  Add Ring KringD5 : (@rth K C).
  Notation cx := (K * K)%type.
  Add Ring CxringD5 : (@rth cx Cx_CRing).
  Notation qstate := (qstate (K:=K)).
  Lemma closed2_sorted ct st k l i j (psi : qstate) x : (k < l)%nat -> (i < j)%nat -> (j < l)%nat -> (i < k)%nat -> k <> j ->
    closed ct st (gen2 k l i j) psi x =
      if pattern x k l i j then cre ct * psi x + cre st * sgn (negb (occ x k)) (sgn (gaps4 x k l i j) (psi (flip4 x k l i j))) else psi x.
  Proof.
    intros. unfold closed. rewrite gen2_square, gen2_sorted by assumption. destruct (pattern x k l i j); ring.
  Qed.
  Lemma closed_neg ct st A B (psi : qstate) x : (forall (f : qstate) y, opapp A f y = - opapp B f y) -> closed ct st A psi x = closed ct (- st) B psi x.
  Proof. intros H. unfold closed. rewrite (opapp_neg A B psi H), H, cre_opp. ring. Qed.
  Lemma closed_same ct st A B (psi : qstate) x : (forall (f : qstate) y, opapp A f y = opapp B f y) -> closed ct st A psi x = closed ct st B psi x.
  Proof. intros H. unfold closed. rewrite H, (H (opapp A psi)). now rewrite (opapp_ext B (opapp A psi) (opapp B psi)) by (intros; apply H). Qed.
  Lemma sort_four k l i j : (k < l)%nat -> (i < j)%nat -> (j < l)%nat -> (i < k)%nat -> k <> j ->
    np_sort [k; l; i; j] = let '(iz, kz, jz, lz) := sorted4 k l i j in [iz; kz; jz; lz].
  Proof.
    intros. unfold sorted4, np_sort. cbn [fold_right insert_asc].
    destruct (Nat.leb_spec i j); [|lia]. cbn [insert_asc]. destruct (Nat.leb_spec l i); [lia|]. destruct (Nat.leb_spec l j); [lia|]. cbn [insert_asc].
    destruct (Nat.leb_spec k i); [lia|]. destruct (Nat.leb_spec k j), (Nat.ltb_spec k j); try lia; [reflexivity|]. destruct (Nat.leb_spec k l); [reflexivity|lia].
  Qed.
  Lemma oct_neg c s : oct (K:=K) (c, - s) = (fst (oct (c, s)), - snd (oct (c, s))).
  Proof. unfold oct, dbl. cbn [fst snd]. f_equal; ring. Qed.
  (** The circuit of [_double_excitation_efficient]. *)
  Lemma double_spec s2 ce se k l i j n : s2 * s2 + s2 * s2 = 1 -> ce * ce + se * se = 1 ->
    distinct4 k l i j -> (k < 2 * n)%nat -> (l < 2 * n)%nat -> (i < 2 * n)%nat -> (j < 2 * n)%nat ->
    match double_excitation_efficient (K:=K) ce se k l i j n with
    | Ok c => (i < k)%nat /\ (j < k)%nat /\ (i < l)%nat /\ (j < l)%nat /\ Nat.even (k + l + i + j) = true /\
        forall (psi : qstate) x, run s2 c psi x = closed (fst (oct (ce, se))) (snd (oct (ce, se))) (gen2 (f2q k n) (f2q l n) (f2q i n) (f2q j n)) psi x
    | Raise ValueError => ~ ((i < k)%nat /\ (j < k)%nat /\ (i < l)%nat /\ (j < l)%nat /\ Nat.even (k + l + i + j) = true)
    | _ => False
    end.
  Proof.
    intros H2 H1 HD Hk Hl Hi Hj. unfold double_excitation_efficient.
    pose proof (double_indices_spec (K:=K*K) k l i j n HD Hk Hl Hi Hj) as Hs. destruct (double_indices k l i j n) as [[fac [[[k' l'] i'] j']]|e|]; cbn [bind]; [|exact Hs|exact Hs].
    destruct Hs as (A1 & A2 & A3 & A4 & A5 & S1 & S2 & S3 & S4 & S5 & Hg). rewrite sort_four by assumption.
    destruct (sorted4 k' l' i' j') as [[[iz kz] jz] lz] eqn:Es. do 5 (split; [assumption|]). intros psi x.
    change (run s2 ([GCX l' k'; GCX j' i'; GCX l' j'] ++ ?r) psi x) with (run s2 (double_circ ce (if (fac <? 0)%Z then - se else se) k' l' i' j' iz kz jz lz) psi x).
    rewrite double_circ_sem by first [assumption | destruct (fac <? 0)%Z; [transitivity (ce * ce + se * se); [ring|assumption]|assumption]].
    destruct (fac <? 0)%Z.
    - rewrite (closed_neg _ _ _ (gen2 k' l' i' j')) by (intros f y; rewrite Hg; reflexivity). rewrite closed2_sorted by assumption. rewrite oct_neg. reflexivity.
    - rewrite (closed_same _ _ _ (gen2 k' l' i' j')) by (intros f y; rewrite Hg; reflexivity). rewrite closed2_sorted by assumption. reflexivity.
  Qed.
End DoubleCirc.
