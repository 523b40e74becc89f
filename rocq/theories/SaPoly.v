(** Minimal polynomials of the spin-adapted double-excitation generators, for
    all orbital indices: the identity is checked with integer arithmetic on the
    at most four spatial orbitals involved and carried over by relabelling. *)
From Coq Require Import List Bool Arith NArith ZArith Reals Lra Lia Ring.
From Verif Require Import Base RRing Fock ModeEmbed.
Import ListNotations.

(** ** Integer combinations of strings, and rows *)
Definition zop := list (fstring * Z).
Definition rop (L : zop) : list (fstring * R) := map (fun kc => (fst kc, IZR (snd kc))) L.

Fixpoint rowstr (s : fstring) (x : det) : option (bool * det) :=
  match s with
  | [] => Some (false, x)
  | (p, a) :: s' =>
      if Bool.eqb (occ x p) a
      then match rowstr s' (flip x p) with Some (sg, y) => Some (xorb (below x p) sg, y) | None => None end
      else None
  end.

Section RowSpec.
  Context {K : Type} {C : CRing K}.
  Local Open Scope K_scope.
  Add Ring KringRS : (@rth K C).
  Lemma rowstr_spec s (w : amps (K:=K)) x :
    appstr s w x = match rowstr s x with Some (sg, y) => sgn sg (w y) | None => rO end.
  Proof.
    revert x. induction s as [|[p a] s IH]; intros x; cbn [appstr rowstr]; [reflexivity|].
    unfold app1. cbn [fst snd]. destruct (Bool.eqb (occ x p) a); auto. rewrite IH.
    destruct (rowstr s (flip x p)) as [[sg y]|].
    - destruct (below x p), sg; cbn; ring.
    - destruct (below x p); cbn; ring.
  Qed.
End RowSpec.

Definition row := list (N * Z).
Fixpoint rins (y : N) (c : Z) (r : row) : row :=
  match r with
  | [] => if Z.eqb c 0 then [] else [(y, c)]
  | (z, e) :: r' => match N.compare y z with
                    | Eq => if Z.eqb (c + e) 0 then r' else (z, (c + e)%Z) :: r'
                    | Lt => (y, c) :: r
                    | Gt => (z, e) :: rins y c r'
                    end
  end.
Definition rowadd (c : Z) (r acc : row) : row :=
  fold_left (fun acc yc => rins (fst yc) (c * snd yc) acc) r acc.
Definition rowapp (L : zop) (r : row) : row :=
  fold_left (fun acc xc =>
    fold_left (fun acc se =>
      match rowstr (fst se) (fst xc) with
      | Some (sg, y) => rins y (if sg then - (snd xc * snd se) else snd xc * snd se)%Z acc
      | None => acc
      end) L acc) r [].

Local Open Scope R_scope.

Fixpoint ev (r : row) (w : amps (K:=R)) : R :=
  match r with [] => 0 | (y, c) :: r' => IZR c * w y + ev r' w end.

Lemma ev_rins y c r w : ev (rins y c r) w = IZR c * w y + ev r w.
Proof.
  induction r as [|[z e] r IH]; cbn [rins ev].
  - destruct (Z.eqb_spec c 0) as [->|]; cbn [ev]; lra.
  - destruct (N.compare_spec y z) as [->|H|H]; cbn [ev].
    + destruct (Z.eqb_spec (c + e) 0) as [E|E]; cbn [ev].
      * assert (IZR c = - IZR e) as -> by (rewrite <- opp_IZR; f_equal; lia). ring.
      * rewrite plus_IZR. ring.
    + ring.
    + rewrite IH. ring.
Qed.

Lemma ev_rowadd c r acc w : ev (rowadd c r acc) w = IZR c * ev r w + ev acc w.
Proof.
  unfold rowadd. revert acc. induction r as [|[y e] r IH]; intros acc; cbn [fold_left ev fst snd]; [ring|].
  rewrite IH, ev_rins, mult_IZR. ring.
Qed.

Lemma ev_rowapp L r w : ev (rowapp L r) w = ev r (opapp (rop L) w).
Proof.
  unfold rowapp.
  assert (forall acc, ev (fold_left (fun acc xc =>
    fold_left (fun acc se =>
      match rowstr (fst se) (fst xc) with
      | Some (sg, y) => rins y (if sg then - (snd xc * snd se) else snd xc * snd se)%Z acc
      | None => acc
      end) L acc) r acc) w = ev r (opapp (rop L) w) + ev acc w) as G.
  2: { rewrite G. cbn [ev]. ring. }
  induction r as [|[x c] r IH]; intros acc; cbn [fold_left ev fst snd]; [ring|].
  rewrite IH. clear IH.
  match goal with |- _ + ev ?f w = _ => enough (ev f w = IZR c * opapp (rop L) w x + ev acc w) as -> by ring end.
  revert acc. induction L as [|[s e] L IHL]; intros acc; cbn [fold_left rop map opapp fst snd]; [cbn; ring|].
  fold (rop L). rewrite IHL. rewrite rowstr_spec. destruct (rowstr s x) as [[sg y]|].
  - rewrite ev_rins. destruct sg; cbn [sgn]; rewrite ?opp_IZR, mult_IZR; cbn; ring.
  - cbn; ring.
Qed.

(** [N (N^2 + c_1) ... (N^2 + c_k)]. *)
Section Poly.
  Variable T : amps (K:=R) -> amps (K:=R).
  Fixpoint qpoly (cs : list R) (w : amps (K:=R)) : amps (K:=R) :=
    match cs with
    | [] => w
    | c :: cs' => fun x => T (T (qpoly cs' w)) x + c * qpoly cs' w x
    end.
  Definition mpoly (cs : list R) (w : amps (K:=R)) : amps (K:=R) := T (qpoly cs w).
End Poly.

Definition rowpoly (L : zop) (cs : list Z) (r : row) : row :=
  fold_left (fun r c => rowadd c r (rowapp L (rowapp L r))) cs (rowapp L r).

Lemma ev_ext r v w : (forall x, v x = w x) -> ev r v = ev r w.
Proof. intros H. induction r as [|[y c] r IH]; cbn [ev]; auto. now rewrite H, IH. Qed.

Lemma ev_lin r (v w : amps (K:=R)) c : ev r (fun x => v x + c * w x) = ev r v + c * ev r w.
Proof. induction r as [|[y e] r IH]; cbn [ev]; [ring|]. rewrite IH. ring. Qed.

Lemma ev_rowpoly L cs r w : ev (rowpoly L cs r) w = ev r (mpoly (opapp (rop L)) (map IZR cs) w).
Proof.
  unfold rowpoly, mpoly. rewrite <- ev_rowapp. generalize (rowapp L r). clear r.
  induction cs as [|c cs IH]; intros r; [reflexivity|]. cbn [fold_left map qpoly].
  rewrite IH. rewrite ev_rowadd, !ev_rowapp.
  rewrite ev_lin. ring.
Qed.

(** ** Local check *)
Definition Estr (p q : nat) : list fstring :=
  [[(2 * p, true); (2 * q, false)]; [(2 * p + 1, true); (2 * q + 1, false)]]%nat.
Definition Eprod (p q r s : nat) : list fstring :=
  flat_map (fun u => map (fun v => u ++ v) (Estr r s)) (Estr p q).
(** [E_ai E_bj + e E_aj E_bi] minus its adjoint. *)
Definition Nsa (e : Z) (i j a b : nat) : zop :=
  map (fun s => (s, 1%Z)) (Eprod a i b j) ++ map (fun s => (s, e)) (Eprod a j b i)
  ++ map (fun s => (s, (-1)%Z)) (Eprod j b i a) ++ map (fun s => (s, (- e)%Z)) (Eprod i b j a).

Definition local_check (k : nat) (L : zop) (cs : list Z) : bool :=
  forallb (fun x => match rowpoly L cs [(N.of_nat x, 1%Z)] with [] => true | _ => false end) (seq 0 (2 ^ (2 * k))).

Fixpoint perms_of (l : list nat) (n : nat) : list (list nat) :=
  match n with
  | O => [[]]
  | S n' => flat_map (fun p => map (cons p) (filter (fun r => negb (existsb (Nat.eqb p) r)) (perms_of l n'))) l
  end.

Definition tuples4 : list (list nat) := perms_of (seq 0 4) 4.
Definition tuples3 : list (list nat) := perms_of (seq 0 3) 3.
Definition tuples2 : list (list nat) := perms_of (seq 0 2) 2.

Definition check4 (e : Z) (cs : list Z) : bool :=
  forallb (fun t => match t with [i; j; a; b] => local_check 4 (Nsa e i j a b) cs | _ => false end) tuples4.
Definition check3v cs : bool :=
  forallb (fun t => match t with [i; a; b] => local_check 3 (Nsa 1 i i a b) cs | _ => false end) tuples3.
Definition check3o cs : bool :=
  forallb (fun t => match t with [i; j; a] => local_check 3 (Nsa 1 i j a a) cs | _ => false end) tuples3.
Definition check2 cs : bool :=
  forallb (fun t => match t with [i; a] => local_check 2 (Nsa 1 i i a a) cs | _ => false end) tuples2.

Lemma check2_ok : check2 [16]%Z = true.
Proof. vm_compute. reflexivity. Qed.
Lemma check3v_ok : check3v [8; 4]%Z = true.
Proof. vm_compute. reflexivity. Qed.
Lemma check3o_ok : check3o [8; 4]%Z = true.
Proof. vm_compute. reflexivity. Qed.
Lemma check4_ok : check4 1 [4; 8; 2; 1]%Z = true.
Proof. vm_compute. reflexivity. Qed.
Lemma check5_ok : check4 (-1) [24; 6; 4; 9; 1]%Z = true.
Proof. vm_compute. reflexivity. Qed.

(** ** Lifting *)
Section Lift.
  Variable k : nat.
  Variable g : nat -> nat.
  Hypothesis Hg : forall p q, (p < q)%nat -> (q < k)%nat -> (g p < g q)%nat.

  Definition gmode (P : nat) : nat := (2 * g (P / 2) + P mod 2)%nat.

  Lemma gmode_even p : gmode (2 * p) = (2 * g p)%nat.
  Proof.
    unfold gmode. replace (2 * p)%nat with (p * 2)%nat by lia. rewrite Nat.div_mul, Nat.mod_mul by lia. lia.
  Qed.
  Lemma gmode_odd p : gmode (2 * p + 1) = (2 * g p + 1)%nat.
  Proof.
    unfold gmode. replace (2 * p + 1)%nat with (1 + p * 2)%nat by lia.
    rewrite Nat.div_add, Nat.mod_add by lia. reflexivity.
  Qed.
  Lemma gmode_mono p q : (p < q)%nat -> (q < 2 * k)%nat -> (gmode p < gmode q)%nat.
  Proof.
    intros H1 H2. unfold gmode.
    pose proof (Nat.div_mod p 2 ltac:(lia)). pose proof (Nat.div_mod q 2 ltac:(lia)).
    pose proof (Nat.mod_upper_bound p 2 ltac:(lia)). pose proof (Nat.mod_upper_bound q 2 ltac:(lia)).
    destruct (Nat.eq_dec (p / 2) (q / 2)) as [E|E].
    - rewrite E in *. lia.
    - pose proof (Hg (p / 2) (q / 2) ltac:(lia) ltac:(lia)). lia.
  Qed.

  Definition renop (L : zop) : zop := map (fun kc => (ren gmode (fst kc), snd kc)) L.
  Definition zbelow (m : nat) (L : zop) : Prop := forall s c, In (s, c) L -> below_m m s.

  Lemma pull_opapp D L v x : zbelow (2 * k) L -> sm (2 * k) x ->
    pull (2 * k) gmode D (opapp (rop (renop L)) v) x = opapp (rop L) (pull (2 * k) gmode D v) x.
  Proof.
    intros HL Hx. induction L as [|[s c] L IH].
    - cbn [renop rop map opapp]. unfold pull. cbn. destruct (chi _ _ _ _ _); cbn; ring.
    - cbn [renop rop map opapp fst snd].
      rewrite <- (pull_appstr (2 * k) gmode gmode_mono D s v x); auto. 2: { apply (HL s c). now left. }
      fold (rop L). fold (renop L). fold (rop (renop L)).
      rewrite <- IH. 2: { intros s' c' H. apply (HL s' c'). now right. }
      unfold pull. destruct (chi _ _ _ _ _); cbn; ring.
  Qed.

  Lemma opapp_sm_ext L v w : zbelow (2 * k) L -> (forall x, sm (2 * k) x -> v x = w x) ->
    forall x, sm (2 * k) x -> opapp (rop L) v x = opapp (rop L) w x.
  Proof.
    intros HL H. induction L as [|[s c] L IH]; intros x Hx; [reflexivity|]. cbn [rop map opapp fst snd].
    fold (rop L). rewrite IH; auto. 2: { intros s' c' Hi. apply (HL s' c'). now right. }
    f_equal. f_equal. assert (Hs : below_m (2 * k) s) by (apply (HL s c); now left).
    clear - H Hs Hx. revert x Hx. induction s as [|o s IH]; intros x Hx; cbn [appstr]; auto.
    apply (app1_sm_ext (2 * k)); auto.
    - apply Hs. now left.
    - intros y Hy. apply IH; auto. intros o' Ho. apply Hs. now right.
  Qed.

  Lemma pull_qpoly D L cs v : zbelow (2 * k) L -> forall x, sm (2 * k) x ->
    pull (2 * k) gmode D (qpoly (opapp (rop (renop L))) cs v) x = qpoly (opapp (rop L)) cs (pull (2 * k) gmode D v) x.
  Proof.
    intros HL. induction cs as [|c cs IH]; intros x Hx; [reflexivity|]. cbn [qpoly].
    set (q := qpoly (opapp (rop (renop L))) cs v) in *.
    transitivity (1 * pull (2 * k) gmode D (opapp (rop (renop L)) (opapp (rop (renop L)) q)) x + c * pull (2 * k) gmode D q x).
    { unfold pull. cbn. destruct (chi _ _ _ _ _); cbn; ring. }
    rewrite IH by auto. rewrite pull_opapp by auto. f_equal. rewrite Rmult_1_l.
    apply opapp_sm_ext; auto. intros y Hy. rewrite pull_opapp by auto. apply opapp_sm_ext; auto.
  Qed.

  Lemma sm_lt m x : sm m x -> (x < 2 ^ N.of_nat m)%N.
  Proof.
    intros H. destruct (N.eq_dec x 0) as [->|Hne]; [apply N.neq_0_lt_0, N.pow_nonzero; lia|].
    apply N.log2_lt_pow2; [lia|]. destruct (N.lt_ge_cases (N.log2 x) (N.of_nat m)) as [|Hge]; auto.
    pose proof (N.bit_log2 x Hne) as Hb. specialize (H (N.to_nat (N.log2 x)) ltac:(lia)).
    unfold occ in H. rewrite N2Nat.id in H. congruence.
  Qed.

  Theorem lift_poly L cs : zbelow (2 * k) L -> local_check k L cs = true ->
    forall v D, mpoly (opapp (rop (renop L))) (map IZR cs) v D = 0.
  Proof.
    intros HL Hc v D. apply (pull_zero (C:=R_CRing) (2 * k) gmode gmode_mono D (mpoly (opapp (rop (renop L))) (map IZR cs) v)). intros x Hx. unfold mpoly.
    rewrite pull_opapp by auto.
    rewrite (opapp_sm_ext L _ (qpoly (opapp (rop L)) (map IZR cs) (pull (2 * k) gmode D v))); auto.
    2: { intros y Hy. now apply pull_qpoly. }
    change (mpoly (opapp (rop L)) (map IZR cs) (pull (2 * k) gmode D v) x = 0).
    pose proof (sm_lt _ _ Hx) as Hlt.
    unfold local_check in Hc. rewrite forallb_forall in Hc. specialize (Hc (N.to_nat x)).
    rewrite N2Nat.id in Hc. destruct (rowpoly L cs [@pair N Z x 1%Z]) eqn:E.
    - assert (Hev : ev [@pair N Z x 1%Z] (mpoly (opapp (rop L)) (map IZR cs) (pull (2 * k) gmode D v)) = 0).
      { rewrite <- ev_rowpoly, E. reflexivity. }
      cbn [ev] in Hev. lra.
    - exfalso. enough (false = true) by discriminate. apply Hc. apply in_seq. split; [lia|].
      cbn [Nat.add]. assert (E2 : N.of_nat (2 ^ (2 * k)) = (2 ^ N.of_nat (2 * k))%N) by now rewrite Nat2N.inj_pow.
      unfold det in *. lia.
  Qed.

  Lemma Nsa_ren e i j a b : Nsa e (g i) (g j) (g a) (g b) = renop (Nsa e i j a b).
  Proof.
    unfold Nsa, renop, Eprod, Estr.
    cbn -[Nat.mul Nat.add gmode]. rewrite !gmode_even, !gmode_odd. reflexivity.
  Qed.
  Lemma Nsa_below e i j a b : (i < k)%nat -> (j < k)%nat -> (a < k)%nat -> (b < k)%nat ->
    zbelow (2 * k) (Nsa e i j a b).
  Proof.
    intros Hi Hj Ha Hb s c H. unfold Nsa, Eprod, Estr in H. cbn -[Nat.mul Nat.add] in H.
    repeat match type of H with _ \/ _ => destruct H as [H|H] end; try contradiction;
      injection H as <- _; intros o Ho; cbn -[Nat.mul Nat.add] in Ho;
      repeat match type of Ho with _ \/ _ => destruct Ho as [Ho|Ho] end; try contradiction;
      subst o; cbn -[Nat.mul Nat.add]; lia.
  Qed.
End Lift.

(** Sorting the indices. *)
Definition sel (l : list nat) (s : nat) : nat := nth s l 0%nat.

Lemma sel4_mono a b c d : (a < b)%nat -> (b < c)%nat -> (c < d)%nat ->
  forall p q, (p < q)%nat -> (q < 4)%nat -> (sel [a; b; c; d] p < sel [a; b; c; d] q)%nat.
Proof.
  intros H1 H2 H3 p q Hp Hq. unfold sel.
  destruct q as [|[|[|[|q]]]]; try lia; destruct p as [|[|[|[|p]]]]; try lia; cbn; lia.
Qed.
Lemma sel3_mono a b c : (a < b)%nat -> (b < c)%nat ->
  forall p q, (p < q)%nat -> (q < 3)%nat -> (sel [a; b; c] p < sel [a; b; c] q)%nat.
Proof.
  intros H1 H2 p q Hp Hq. unfold sel.
  destruct q as [|[|[|q]]]; try lia; destruct p as [|[|[|p]]]; try lia; cbn; lia.
Qed.
Lemma sel2_mono a b : (a < b)%nat ->
  forall p q, (p < q)%nat -> (q < 2)%nat -> (sel [a; b] p < sel [a; b] q)%nat.
Proof.
  intros H1 p q Hp Hq. unfold sel. destruct q as [|[|q]]; try lia; destruct p as [|[|p]]; try lia; cbn; lia.
Qed.

Lemma order4 (i j a b : nat) : NoDup [i; j; a; b] ->
  exists g t, (forall p q, (p < q)%nat -> (q < 4)%nat -> (g p < g q)%nat) /\ In t tuples4 /\
    exists i0 j0 a0 b0, t = [i0; j0; a0; b0] /\ i = g i0 /\ j = g j0 /\ a = g a0 /\ b = g b0 /\
      (i0 < 4 /\ j0 < 4 /\ a0 < 4 /\ b0 < 4)%nat.
Proof.
  intros H.
  assert (D : i <> j /\ i <> a /\ i <> b /\ j <> a /\ j <> b /\ a <> b).
  { inversion_clear H as [|? ? N1 H1]. inversion_clear H1 as [|? ? N2 H2]. inversion_clear H2 as [|? ? N3 H3].
    cbn in *. repeat split; intros ->; tauto. }
  destruct D as (D1 & D2 & D3 & D4 & D5 & D6).
  destruct (Nat.lt_gt_cases i j) as [C1 _]; specialize (C1 D1).
  destruct (Nat.lt_gt_cases i a) as [C2 _]; specialize (C2 D2).
  destruct (Nat.lt_gt_cases i b) as [C3 _]; specialize (C3 D3).
  destruct (Nat.lt_gt_cases j a) as [C4 _]; specialize (C4 D4).
  destruct (Nat.lt_gt_cases j b) as [C5 _]; specialize (C5 D5).
  destruct (Nat.lt_gt_cases a b) as [C6 _]; specialize (C6 D6).
  clear H D1 D2 D3 D4 D5 D6.
  Ltac fin4 w x y z t :=
    exists (sel [w; x; y; z]), t; split;
    [apply sel4_mono; lia|split; [vm_compute; tauto|
     do 4 eexists; split; [reflexivity|]; cbn; repeat split; lia]].
  destruct C1, C2, C3, C4, C5, C6; try lia.
  all: match goal with
       | |- _ => fin4 i j a b [0;1;2;3]%nat | |- _ => fin4 i j b a [0;1;3;2]%nat
       | |- _ => fin4 i a j b [0;2;1;3]%nat | |- _ => fin4 i b j a [0;2;3;1]%nat
       | |- _ => fin4 i a b j [0;3;1;2]%nat | |- _ => fin4 i b a j [0;3;2;1]%nat
       | |- _ => fin4 j i a b [1;0;2;3]%nat | |- _ => fin4 j i b a [1;0;3;2]%nat
       | |- _ => fin4 a i j b [1;2;0;3]%nat | |- _ => fin4 b i j a [1;2;3;0]%nat
       | |- _ => fin4 a i b j [1;3;0;2]%nat | |- _ => fin4 b i a j [1;3;2;0]%nat
       | |- _ => fin4 j a i b [2;0;1;3]%nat | |- _ => fin4 j b i a [2;0;3;1]%nat
       | |- _ => fin4 a j i b [2;1;0;3]%nat | |- _ => fin4 b j i a [2;1;3;0]%nat
       | |- _ => fin4 a b i j [2;3;0;1]%nat | |- _ => fin4 b a i j [2;3;1;0]%nat
       | |- _ => fin4 j a b i [3;0;1;2]%nat | |- _ => fin4 j b a i [3;0;2;1]%nat
       | |- _ => fin4 a j b i [3;1;0;2]%nat | |- _ => fin4 b j a i [3;1;2;0]%nat
       | |- _ => fin4 a b j i [3;2;0;1]%nat | |- _ => fin4 b a j i [3;2;1;0]%nat
       end.
Qed.

Lemma order3 (i j a : nat) : NoDup [i; j; a] ->
  exists g t, (forall p q, (p < q)%nat -> (q < 3)%nat -> (g p < g q)%nat) /\ In t tuples3 /\
    exists i0 j0 a0, t = [i0; j0; a0] /\ i = g i0 /\ j = g j0 /\ a = g a0 /\ (i0 < 3 /\ j0 < 3 /\ a0 < 3)%nat.
Proof.
  intros H.
  assert (D : i <> j /\ i <> a /\ j <> a).
  { inversion_clear H as [|? ? N1 H1]. inversion_clear H1 as [|? ? N2 H2].
    cbn in *. repeat split; intros ->; tauto. }
  destruct D as (D1 & D2 & D4).
  destruct (Nat.lt_gt_cases i j) as [C1 _]; specialize (C1 D1).
  destruct (Nat.lt_gt_cases i a) as [C2 _]; specialize (C2 D2).
  destruct (Nat.lt_gt_cases j a) as [C4 _]; specialize (C4 D4).
  clear H D1 D2 D4.
  Ltac fin3 w x y t :=
    exists (sel [w; x; y]), t; split;
    [apply sel3_mono; lia|split; [vm_compute; tauto|
     do 3 eexists; split; [reflexivity|]; cbn; repeat split; lia]].
  destruct C1, C2, C4; try lia.
  all: match goal with
       | |- _ => fin3 i j a [0;1;2]%nat | |- _ => fin3 i a j [0;2;1]%nat
       | |- _ => fin3 j i a [1;0;2]%nat | |- _ => fin3 a i j [1;2;0]%nat
       | |- _ => fin3 j a i [2;0;1]%nat | |- _ => fin3 a j i [2;1;0]%nat
       end.
Qed.

Lemma order2 (i a : nat) : i <> a ->
  exists g t, (forall p q, (p < q)%nat -> (q < 2)%nat -> (g p < g q)%nat) /\ In t tuples2 /\
    exists i0 a0, t = [i0; a0] /\ i = g i0 /\ a = g a0 /\ (i0 < 2 /\ a0 < 2)%nat.
Proof.
  intros H. destruct (Nat.lt_gt_cases i a) as [C1 _]. destruct (C1 H).
  - exists (sel [i; a]), [0; 1]%nat. split; [now apply sel2_mono|]. split; [vm_compute; tauto|].
    do 2 eexists. split; [reflexivity|]. cbn. repeat split; lia.
  - exists (sel [a; i]), [1; 0]%nat. split; [now apply sel2_mono|]. split; [vm_compute; tauto|].
    do 2 eexists. split; [reflexivity|]. cbn. repeat split; lia.
Qed.

Lemma check4_in e cs t : check4 e cs = true -> In t tuples4 ->
  match t with [i; j; a; b] => local_check 4 (Nsa e i j a b) cs = true | _ => False end.
Proof.
  unfold check4. rewrite forallb_forall. intros H Ht. specialize (H t Ht).
  destruct t as [|? [|? [|? [|? [|? ?]]]]]; auto; discriminate.
Qed.
Lemma check3v_in cs t : check3v cs = true -> In t tuples3 ->
  match t with [i; a; b] => local_check 3 (Nsa 1 i i a b) cs = true | _ => False end.
Proof.
  unfold check3v. rewrite forallb_forall. intros H Ht. specialize (H t Ht).
  destruct t as [|? [|? [|? [|? ?]]]]; auto; discriminate.
Qed.
Lemma check3o_in cs t : check3o cs = true -> In t tuples3 ->
  match t with [i; j; a] => local_check 3 (Nsa 1 i j a a) cs = true | _ => False end.
Proof.
  unfold check3o. rewrite forallb_forall. intros H Ht. specialize (H t Ht).
  destruct t as [|? [|? [|? [|? ?]]]]; auto; discriminate.
Qed.
Lemma check2_in cs t : check2 cs = true -> In t tuples2 ->
  match t with [i; a] => local_check 2 (Nsa 1 i i a a) cs = true | _ => False end.
Proof.
  unfold check2. rewrite forallb_forall. intros H Ht. specialize (H t Ht).
  destruct t as [|? [|? [|? ?]]]; auto; discriminate.
Qed.

Theorem Nsa4_poly e cs i j a b : check4 e cs = true -> NoDup [i; j; a; b] ->
  forall v D, mpoly (opapp (rop (Nsa e i j a b))) (map IZR cs) v D = 0.
Proof.
  intros Hc Hn v D. destruct (order4 i j a b Hn) as (g & t & Hg & Ht & i0 & j0 & a0 & b0 & -> & -> & -> & -> & -> & L).
  rewrite Nsa_ren. apply (lift_poly 4 g Hg).
  - apply Nsa_below; lia.
  - exact (check4_in e cs _ Hc Ht).
Qed.
Theorem Nsa3v_poly cs i a b : check3v cs = true -> NoDup [i; a; b] ->
  forall v D, mpoly (opapp (rop (Nsa 1 i i a b))) (map IZR cs) v D = 0.
Proof.
  intros Hc Hn v D. destruct (order3 i a b Hn) as (g & t & Hg & Ht & i0 & a0 & b0 & -> & -> & -> & -> & L).
  rewrite Nsa_ren. apply (lift_poly 3 g Hg).
  - apply Nsa_below; lia.
  - exact (check3v_in cs _ Hc Ht).
Qed.
Theorem Nsa3o_poly cs i j a : check3o cs = true -> NoDup [i; j; a] ->
  forall v D, mpoly (opapp (rop (Nsa 1 i j a a))) (map IZR cs) v D = 0.
Proof.
  intros Hc Hn v D. destruct (order3 i j a Hn) as (g & t & Hg & Ht & i0 & j0 & a0 & -> & -> & -> & -> & L).
  rewrite Nsa_ren. apply (lift_poly 3 g Hg).
  - apply Nsa_below; lia.
  - exact (check3o_in cs _ Hc Ht).
Qed.
Theorem Nsa2_poly cs i a : check2 cs = true -> i <> a ->
  forall v D, mpoly (opapp (rop (Nsa 1 i i a a))) (map IZR cs) v D = 0.
Proof.
  intros Hc Hn v D. destruct (order2 i a Hn) as (g & t & Hg & Ht & i0 & a0 & -> & -> & -> & L).
  rewrite Nsa_ren. apply (lift_poly 2 g Hg).
  - apply Nsa_below; lia.
  - exact (check2_in cs _ Hc Ht).
Qed.
