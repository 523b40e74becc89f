(** Projected linear response: loops over the blocks and the algebra of
    operators whose adjoints annihilate the state. *)
From Coq Require Import List Bool Arith NArith ZArith Lia Ring Permutation.
From Verif Require Import Base Fock FockMore FermiModel FermiProofs FermiFold FermiAlgebra OperatorsModel OperatorsProofs OperatorsSums OperatorsActs
  OperatorsActive OperatorsGen OperatorsKeys OperatorsOne Props_Operators CIModel CIProofs StateModel StateBits StateProofs StateMore Props_State
  FockInner DensityModel DensityProofs DensityExpect DensityResponse DensityFill DensityState StructModel LRModel LRAlgebra LRProofs LRProjModel.
Import ListNotations.
Local Open Scope nat_scope.
Local Open Scope list_scope.

Section Loops.
  Context {K : Type} {C : CRing K}.
  Local Open Scope K_scope.
  Notation arr := (@arr K).
  Lemma in_combine_idx {A} start (l : list A) i x : In (i, x) (combine (seq start (List.length l)) l) -> (start <= i)%nat /\ nth_error l (i - start) = Some x.
  Proof.
    revert start. induction l as [|y l IH]; intros start; cbn [List.length seq combine]; [intros []|].
    intros [E|H]; [injection E as -> ->; rewrite Nat.sub_diag; split; [lia|reflexivity]|]. destruct (IH _ H) as [Hi E]. split; [lia|].
    replace (i - start)%nat with (S (i - S start)) by lia. exact E.
  Qed.
  Lemma eloop_idx {A} (d : A) start (l : list A) (body : nat -> A -> arr -> Res arr) (W : nat -> list (list nat * K)) M :
    (forall i M, (i < List.length l)%nat -> body (start + i)%nat (nth i l d) M = Ok (applyw (W (start + i)%nat) M)) ->
    eloop start l body M = Ok (applyw (flat_map W (seq start (List.length l))) M).
  Proof.
    intros H. rewrite (eloop_writes start l body (fun i _ => W i)).
    - do 2 f_equal. clear H. revert start. induction l as [|x l IH]; intros start; [reflexivity|]. cbn [List.length seq combine flat_map fst]. f_equal. apply IH.
    - intros i x M' Hi. apply in_combine_idx in Hi as [Hi E]. assert (i - start < List.length l)%nat by (apply nth_error_Some; congruence).
      specialize (H (i - start)%nat M' H0). replace (start + (i - start))%nat with i in H by lia. rewrite (nth_error_nth _ _ _ E) in H. exact H.
  Qed.

  Variables (s ng : nat) (va vb ua ub ue : nat -> nat -> K).
  Definition pm (j i : nat) : list (list nat * K) :=
    [([0; j; i + s]%nat, va j i); ([0; i + s; j]%nat, va j i); ([1; j; i + s]%nat, vb j i); ([1; i + s; j]%nat, vb j i)].
  Definition pa (j i : nat) : list (list nat * K) :=
    [([0; i + s; j + s]%nat, ua j i); ([0; j + s; i + s]%nat, ua j i); ([1; i + s; j + s]%nat, ub j i); ([1; j + s; i + s]%nat, ub j i);
     ([2; i + s; j + s]%nat, ue j i); ([2; j + s; i + s]%nat, ue j i)].
  Definition writes : list (list nat * K) :=
    flat_map (fun j => flat_map (pm j) (seq 0 ng)) (seq 0 s) ++ flat_map (fun j => flat_map (pa j) (seq j (ng - j))) (seq 0 ng).
  (** The value of every entry that is written. *)
  Definition target (c : list nat) : K :=
    match c with
    | [k; i; j] =>
      if (i <? s)%nat then match k with 0%nat => va i (j - s)%nat | _ => vb i (j - s)%nat end
      else if (j <? s)%nat then match k with 0%nat => va j (i - s)%nat | _ => vb j (i - s)%nat end
      else let a := (Nat.min i j - s)%nat in let b := (Nat.max i j - s)%nat in match k with 0%nat => ua a b | 1%nat => ub a b | _ => ue a b end
    | _ => 0
    end.
  Lemma in_writes c v : In (c, v) writes <->
    (exists j i, (j < s)%nat /\ (i < ng)%nat /\ In (c, v) (pm j i)) \/ (exists j i, (j <= i < ng)%nat /\ In (c, v) (pa j i)).
  Proof.
    unfold writes. rewrite in_app_iff, !in_flat_map. split.
    - intros [(j & Hj & H)|(j & Hj & H)]; apply in_flat_map in H as (i & Hi & H); apply in_seq in Hj, Hi; [left|right]; exists j, i; repeat split; auto; lia.
    - intros [(j & i & Hj & Hi & H)|(j & i & Hi & H)]; [left|right]; exists j; (split; [apply in_seq; lia|]); apply in_flat_map; exists i; (split; [apply in_seq; lia|exact H]).
  Qed.
  Lemma writes_target c v : In (c, v) writes -> v = target c.
  Proof.
    rewrite in_writes. intros [(j & i & Hj & Hi & H)|(j & i & Hi & H)].
    - assert (A : (j <? s)%nat = true) by (apply Nat.ltb_lt; lia). assert (B : (i + s <? s)%nat = false) by (apply Nat.ltb_ge; lia).
      repeat (destruct H as [H|H]; [injection H as <- <-; unfold target; rewrite ?A, ?B; replace (i + s - s)%nat with i by lia; reflexivity|]). destruct H.
    - assert (A : (j + s <? s)%nat = false) by (apply Nat.ltb_ge; lia). assert (B : (i + s <? s)%nat = false) by (apply Nat.ltb_ge; lia).
      assert (Z1 : (Nat.min (i + s) (j + s) - s = j)%nat) by lia. assert (Z2 : (Nat.max (i + s) (j + s) - s = i)%nat) by lia.
      assert (Z3 : (Nat.min (j + s) (i + s) - s = j)%nat) by lia. assert (Z4 : (Nat.max (j + s) (i + s) - s = i)%nat) by lia.
      repeat (destruct H as [H|H]; [injection H as <- <-; unfold target; rewrite A, B; cbv zeta; rewrite ?Z1, ?Z2, ?Z3, ?Z4; reflexivity|]). destruct H.
  Qed.
  Lemma loops_entries M : let M' := applyw writes M in
    (forall c i j, (i < s)%nat -> (j < s)%nat -> M' [c; i; j] = M [c; i; j]) /\
    (forall c i j, (3 <= c)%nat -> M' [c; i; j] = M [c; i; j]) /\
    (forall j i, (j < s)%nat -> (i < ng)%nat -> M' [0; j; i + s]%nat = va j i /\ M' [0; i + s; j]%nat = va j i /\ M' [1; j; i + s]%nat = vb j i /\ M' [1; i + s; j]%nat = vb j i /\
       M' [2; j; i + s]%nat = M [2; j; i + s]%nat /\ M' [2; i + s; j]%nat = M [2; i + s; j]%nat) /\
    (forall j i, (j <= i < ng)%nat -> M' [0; i + s; j + s]%nat = ua j i /\ M' [0; j + s; i + s]%nat = ua j i /\ M' [1; i + s; j + s]%nat = ub j i /\ M' [1; j + s; i + s]%nat = ub j i /\
       M' [2; i + s; j + s]%nat = ue j i /\ M' [2; j + s; i + s]%nat = ue j i).
  Proof.
    cbv zeta.
    assert (OUT : forall c, (forall v, ~ In (c, v) writes) -> applyw writes M c = M c).
    { intros c Hc. apply applyw_out. intros Hi. apply in_map_iff in Hi as ([c' v] & <- & Hi). exact (Hc v Hi). }
    assert (INN : forall c v, In (c, v) writes -> applyw writes M c = v).
    { intros c v Hc. rewrite (writes_target c v Hc). apply applyw_in; [exact writes_target|]. now apply (in_map fst) in Hc. }
    split; [|split; [|split]].
    - intros c i j Hi Hj. apply OUT. intros v H. apply in_writes in H as [(j' & i' & Hj' & Hi' & H)|(j' & i' & Hi' & H)];
        repeat (destruct H as [H|H]; [injection H as; lia|]); destruct H.
    - intros c i j Hc. apply OUT. intros v H. apply in_writes in H as [(j' & i' & Hj' & Hi' & H)|(j' & i' & Hi' & H)];
        repeat (destruct H as [H|H]; [injection H as; lia|]); destruct H.
    - intros j i Hj Hi. assert (Z : forall c v, In (c, v) (pm j i) -> applyw writes M c = v) by (intros c v H; apply INN, in_writes; left; eauto).
      do 4 (split; [apply Z; unfold pm; cbn [In]; tauto|]).
      split; apply OUT; intros v H; apply in_writes in H as [(j' & i' & Hj' & Hi' & H)|(j' & i' & Hi' & H)];
        repeat (destruct H as [H|H]; [injection H as; lia|]); destruct H.
    - intros j i Hi. assert (Z : forall c v, In (c, v) (pa j i) -> applyw writes M c = v) by (intros c v H; apply INN, in_writes; right; eauto).
      repeat split; apply Z; unfold pa; cbn [In]; tauto.
  Qed.
End Loops.

(** ** Operators whose adjoints annihilate the state *)
Section Killers.
  Context {K : Type} {C : CRing K}.
  Local Open Scope K_scope.
  Add Ring KringPk : (@rth K C).
  Notation act := (amps (K:=K) -> amps (K:=K)).
  Variables (n : nat) (f : amps (K:=K)) (H : act) (half : K).
  Hypothesis AH : adjp n H H.
  Notation I u w := (ip (2 * n) u w).
  Notation E F := (I f (F f)).

  Lemma adjp_comm (X Xd Y Yd : act) : adjp n X Xd -> adjp n Y Yd -> adjp n (comm X Y) (comm Yd Xd).
  Proof.
    intros A B u w. unfold comm. rewrite (ip_sub _ u (X (Y w)) (Y (X w))), (ip_sym _ _ w), (ip_sub _ w (Yd (Xd u)) (Xd (Yd u))).
    rewrite (A u (Y w)), (B (Xd u) w), (B u (X w)), (A (Yd u) w), (ip_sym _ (Yd (Xd u))), (ip_sym _ (Xd (Yd u))). reflexivity.
  Qed.
  Section Pair.
    Variables X Xd Y Yd : act.
    Hypothesis AX : adjp n X Xd.
    Hypothesis AY : adjp n Y Yd.
    Hypothesis KX : forall x, Xd f x = 0.
    Hypothesis KY : forall x, Yd f x = 0.
    Lemma r0 u : I u (Xd f) = 0.
    Proof. now apply ip_zero. Qed.
    Lemma r0' u : I u (Yd f) = 0.
    Proof. now apply ip_zero. Qed.
    Lemma kill_1 : E (comm Xd (comm H Y)) = I (X f) (H (Y f)) - I (Yd (X f)) (H f).
    Proof.
      rewrite ev_comm, (adjp_flip _ _ _ AX f). unfold comm at 1. rewrite (ip_sub _ (X f) (H (Y f)) (Y (H f))), (AY (X f) (H f)).
      rewrite (adjp_comm H H Y Yd AH AY f (Xd f)), r0. ring.
    Qed.
    Lemma kill_2 : E (comm (comm Xd H) Y) = I (Y f) (H (X f)) - I (Xd (Y f)) (H f).
    Proof.
      rewrite ev_comm, (AY f (comm Xd H f)), (ip_sym _ (Yd f)), r0'.
      rewrite (adjp_comm Xd X H H (adjp_flip _ _ _ AX) AH f (Y f)). unfold comm. rewrite ip_sym, (ip_sub _ (Y f) (H (X f)) (X (H f))), (AX (Y f) (H f)). ring.
    Qed.
    Lemma kill_3 : E (comm Xd (comm H Yd)) = - I (Y (X f)) (H f).
    Proof.
      rewrite ev_comm, (adjp_flip _ _ _ AX f). unfold comm at 1. rewrite (ip_sub _ (X f) (H (Yd f)) (Yd (H f))).
      rewrite (AH (X f) (Yd f)), r0', (adjp_flip _ _ _ AY (X f) (H f)).
      rewrite (adjp_comm H H Yd Y AH (adjp_flip _ _ _ AY) f (Xd f)), r0. ring.
    Qed.
    Lemma kill_4 : E (comm (comm Xd H) Yd) = - I (X (Y f)) (H f).
    Proof.
      rewrite ev_comm, (adjp_comm Xd X H H (adjp_flip _ _ _ AX) AH f (Yd f)), r0'.
      rewrite (adjp_flip _ _ _ AY f). unfold comm. rewrite (ip_sub _ (Y f) (Xd (H f)) (H (Xd f))), (AH (Y f) (Xd f)), r0, (adjp_flip _ _ _ AX (Y f) (H f)). ring.
    Qed.
    Lemma kill_5 : E (comm Xd Y) = I (X f) (Y f).
    Proof. rewrite ev_comm, (adjp_flip _ _ _ AX f), (AY f), r0. ring. Qed.
    Lemma kill_6 : E (comm Xd Yd) = 0.
    Proof. rewrite ev_comm, (adjp_flip _ _ _ AX f), (adjp_flip _ _ _ AY f), r0, r0'. ring. Qed.
  End Pair.

  (** Projected operators. *)
  Definition proj (A : act) : act := fun u x => I f u * A f x - I f (A f) * u x.
  Definition proj_adj (A Ad : act) : act := fun u x => I f (Ad u) * f x - I f (A f) * u x.
  Lemma ip_comb c d u v w : I u (fun x => c * v x - d * w x) = c * I u v - d * I u w.
  Proof. rewrite (ip_sub _ u (fun x => c * v x) (fun x => d * w x)), !ip_scale. reflexivity. Qed.
  Lemma ip_comb_l c d u v w : I (fun x => c * v x - d * w x) u = c * I v u - d * I w u.
  Proof. rewrite ip_sym, ip_comb, (ip_sym _ u v), (ip_sym _ u w). reflexivity. Qed.
  Section Proj.
    Variables A Ad : act.
    Hypothesis AA : adjp n A Ad.
    Hypothesis N1 : I f f = 1.
    Lemma proj_adjp : adjp n (proj A) (proj_adj A Ad).
    Proof.
      intros u w. unfold proj, proj_adj. rewrite ip_comb, ip_comb_l, (adjp_flip _ _ _ AA f u), (ip_sym _ u (A f)). ring.
    Qed.
    Lemma proj_kill x : proj_adj A Ad f x = 0.
    Proof. unfold proj_adj. rewrite (adjp_flip _ _ _ AA f f), (ip_sym _ (A f)). ring. Qed.
    Lemma proj_f x : proj A f x = A f x - I f (A f) * f x.
    Proof. unfold proj. rewrite N1. ring. Qed.
    (** Inner products with projected kets. *)
    Lemma proj_l u : I (proj A f) u = I (A f) u - I f (A f) * I f u.
    Proof. unfold proj. rewrite ip_comb_l, N1. ring. Qed.
    Lemma proj_r u : I u (proj A f) = I u (A f) - I f (A f) * I u f.
    Proof. unfold proj. rewrite ip_comb, N1. ring. Qed.
    Lemma proj_H u : I u (H (proj A f)) = I u (H (A f)) - I f (A f) * I u (H f).
    Proof. rewrite (AH u (proj A f)), proj_r, <- (AH u (A f)), <- (AH u f). reflexivity. Qed.
  End Proj.
  Section Two.
    Variables A Ad B Bd : act.
    Hypothesis AA : adjp n A Ad.
    Hypothesis AB : adjp n B Bd.
    Hypothesis N1 : I f f = 1.
    Notation a := (I f (A f)).
    Notation b := (I f (B f)).
    Notation e0 := (I f (H f)).
    Lemma proj_b_a : I (proj_adj B Bd (proj A f)) (H f) = (I (A f) (B f) - a * b) * e0 - b * (I (A f) (H f) - a * e0).
    Proof.
      unfold proj_adj. rewrite ip_comb_l, (adjp_flip _ _ _ AB f (proj A f)), !(proj_r A N1), !(proj_l A N1). rewrite (ip_sym _ (B f) (A f)), (ip_sym _ (B f) f). ring.
    Qed.
    Lemma proj_a_b : I (proj B (proj A f)) (H f) = - (b * (I (A f) (H f) - a * e0)).
    Proof. unfold proj at 1. rewrite ip_comb_l, !(proj_r A N1), !(proj_l A N1), N1. ring. Qed.
    Lemma proj_1 : E (comm (proj_adj A Ad) (comm H (proj B))) = I (A f) (H (B f)) - a * I f (H (B f)) + a * b * e0 - I (A f) (B f) * e0.
    Proof.
      rewrite (kill_1 (proj A) _ (proj B) (proj_adj B Bd) (proj_adjp A Ad AA) (proj_adjp B Bd AB) (proj_kill A Ad AA)).
      rewrite proj_b_a, (proj_l A N1), !(proj_H B N1). ring.
    Qed.
    Lemma proj_3 : E (comm (proj_adj A Ad) (comm H (proj_adj B Bd))) = b * (I (A f) (H f) - a * e0).
    Proof. rewrite (kill_3 (proj A) _ (proj B) _ (proj_adjp A Ad AA) (proj_adjp B Bd AB) (proj_kill A Ad AA) (proj_kill B Bd AB)), proj_a_b. ring. Qed.
    Lemma proj_5 : E (comm (proj_adj A Ad) (proj B)) = I (A f) (B f) - a * b.
    Proof.
      rewrite (kill_5 (proj A) _ (proj B) (proj_adj B Bd) (proj_adjp A Ad AA) (proj_adjp B Bd AB) (proj_kill A Ad AA)).
      rewrite (proj_l A N1), !(proj_r B N1), N1, (ip_sym _ (A f) f). ring.
    Qed.
  End Two.
End Killers.
