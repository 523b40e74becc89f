(** Semantics of the ansatz gates. *)
From Coq Require Import List Bool Arith NArith ZArith Reals Lra Lia Psatz.
From Verif Require Import Base RRing Fock FockMore FermiModel FermiProofs FermiAlgebra OperatorsModel OperatorsProofs
  OperatorsGen OperatorsKeys SaPoly GateAlgebra UPSModel.
Import ListNotations.
Local Open Scope R_scope.

Lemma opapp_linear (D : rdict) : linear (opapp D).
Proof.
  constructor.
  - intros v w H x. now apply opapp_ext.
  - intros a b v w x.
    pose proof (opapp_add D (fun e => a * v e) (fun e => b * w e) x) as E.
    pose proof (opapp_scale D a v x) as E1. pose proof (opapp_scale D b w x) as E2.
    cbn in E, E1, E2. rewrite E1, E2 in E. exact E.
Qed.

(** Operators with the action [F] have the same polynomials. *)
Lemma qpoly_ext2 (F G : vec -> vec) : linear F -> (forall v x, F v x = G v x) ->
  forall cs v x, qpoly F cs v x = qpoly G cs v x.
Proof.
  intros HF H cs. induction cs as [|c cs IH]; intros v x; cbn [qpoly]; auto.
  rewrite IH. f_equal. rewrite <- !H. apply (lin_ext F HF). intros y. rewrite <- H. apply (lin_ext F HF). intros z. apply IH.
Qed.
Lemma mpoly_ext2 (F G : vec -> vec) : linear F -> (forall v x, F v x = G v x) ->
  forall cs v x, mpoly F cs v x = mpoly G cs v x.
Proof.
  intros HF H cs v x. unfold mpoly. rewrite <- H. apply (lin_ext F HF). intros y. now apply qpoly_ext2.
Qed.

(** Scaling: [T = f N] with [f^2 c' = c]. *)
Lemma qpoly_scale (N : vec -> vec) f : linear N -> forall cs v x,
  qpoly (fun w y => f * N w y) (map (fun c => f * f * c) cs) v x = (f * f) ^ length cs * qpoly N cs v x.
Proof.
  intros HN. induction cs as [|c cs IH]; intros v x; cbn [map qpoly length pow]; [ring|].
  rewrite IH.
  rewrite (lin_ext N HN _ (fun y => (f * (f * f) ^ length cs) * N (qpoly N cs v) y)).
  2: { intros y. rewrite (lin_ext N HN _ (fun z => (f * f) ^ length cs * qpoly N cs v z)) by (intros z; apply IH).
       rewrite (T_scal N HN). ring. }
  rewrite (T_scal N HN). ring.
Qed.
Lemma mpoly_scale (N : vec -> vec) f : linear N -> forall cs v,
  (forall x, mpoly N cs v x = 0) -> forall x, mpoly (fun w y => f * N w y) (map (fun c => f * f * c) cs) v x = 0.
Proof.
  intros HN cs v H x. unfold mpoly.
  rewrite (lin_ext N HN _ (fun z => (f * f) ^ length cs * qpoly N cs v z)) by (intros z; now apply qpoly_scale).
  rewrite (T_scal N HN). unfold mpoly in H. rewrite H. ring.
Qed.

(** ** Strings: adjoints and products *)
Definition adjop (L : rdict) : rdict := map (fun kc => (adjstr (fst kc), snd kc)) L.
Lemma adjop_mel (L : rdict) x y : opapp L (basis y) x = opapp (adjop L) (basis x) y.
Proof.
  induction L as [|[s c] L IH]; [reflexivity|]. cbn [adjop map opapp fst snd]. fold (adjop L). rewrite IH.
  pose proof (melstr_adj (K:=R) s y x) as E. unfold melstr in E. rewrite E. reflexivity.
Qed.

Definition EL (p q : nat) : rdict :=
  [([(2 * p, true); (2 * q, false)]%nat, 1); ([(2 * p + 1, true); (2 * q + 1, false)]%nat, 1)].
Lemma EL_spec p q v x : opapp (EL p q) v x = Eact p q v x.
Proof. unfold EL, Eact, pairop. cbn. ring. Qed.

Definition scl (c : R) (L : rdict) : rdict := map (fun kc => (fst kc, c * snd kc)) L.
Lemma scl_spec c L v x : opapp (scl c L) v x = c * opapp L v x.
Proof.
  induction L as [|[s e] L IH]; cbn [scl map opapp fst snd]; [cbn; ring|]. fold (scl c L). rewrite IH. cbn. ring.
Qed.

(** [fac (E_ai E_bj + e E_aj E_bi)]. *)
Definition saL (fac e : R) (i j a b : nat) : rdict :=
  scl fac (prodl (EL a i) (EL b j) ++ scl e (prodl (EL a j) (EL b i))).

Lemma saL_spec fac e i j a b v x :
  opapp (saL fac e i j a b) v x = fac * (Eact a i (Eact b j v) x + e * Eact a j (Eact b i v) x).
Proof.
  assert (E : forall p q r s, opapp (EL p q) (opapp (EL r s) v) x = Eact p q (Eact r s v) x).
  { intros p q r s. rewrite (opapp_ext (EL p q) (opapp (EL r s) v) (Eact r s v)) by (intros; apply EL_spec). apply EL_spec. }
  unfold saL. rewrite scl_spec. f_equal. rewrite opapp_app, scl_spec, !opapp_prodl, !E. reflexivity.
Qed.

Lemma saL_Nsa fac (e : Z) i j a b v x :
  opapp (saL fac (IZR e) i j a b) v x - opapp (adjop (saL fac (IZR e) i j a b)) v x
  = fac * opapp (rop (Nsa e i j a b)) v x.
Proof.
  unfold saL, scl, prodl, EL, adjop, adjstr, Nsa, Eprod, Estr, rop.
  cbn -[Nat.mul Nat.add opapp appstr IZR Rmult]. cbn [opapp].
  rewrite !opp_IZR. cbn -[Nat.mul Nat.add opapp appstr IZR Rmult]. 
  match goal with |- ?l = ?r => idtac end.
  cbn [radd rmul rO R_CRing rI]. ring.
Qed.

Definition fac_of (i j a b case : nat) : R :=
  match case with
  | 5%nat => fac5
  | _ => if Nat.eqb a b then (if Nat.eqb i j then fac4 else fac2) else (if Nat.eqb i j then fac2 else fac1)
  end.
Definition sgn_of (case : nat) : Z := match case with 5%nat => (-1)%Z | _ => 1%Z end.

Section Reps.
  Variable n : nat.
  Notation P := (bal n).
  Let HP := bal_stable n.

  Lemma EE_rep p q r s : (p < n)%nat -> (q < n)%nat -> (r < n)%nat -> (s < n)%nat ->
    rep P (mmul (Epq (K:=R) p q) (Epq r s)) (fun f => Eact p q (Eact r s f)).
  Proof. intros. apply (rep_mul R_exact_small P HP); apply (Epq_rep R_exact_small P HP); apply PE_bal; auto. Qed.

  Theorem G2sa_rep i j a b case : (1 <= case <= 5)%nat -> (i < n)%nat -> (j < n)%nat -> (a < n)%nat -> (b < n)%nat ->
    rep P (G2_sa fac1 fac2 fac4 fac5 i j a b case true)
        (fun f x => fac_of i j a b case * opapp (rop (Nsa (sgn_of case) i j a b)) f x).
  Proof.
    intros Hc Hi Hj Ha Hb.
    assert (A : forall fac, rep P (antiherm true (mscale fac (madd (mmul (Epq a i) (Epq b j)) (mmul (Epq a j) (Epq b i)))))
              (fun f x => fac * opapp (rop (Nsa 1 i j a b)) f x)).
    { intros fac. eapply rep_ext.
      - apply (antiherm_rep R_exact_small P HP _ (opapp (saL fac 1 i j a b)) (opapp (adjop (saL fac 1 i j a b)))).
        + eapply rep_ext; [apply (rep_scale P), (rep_add R_exact_small P); apply EE_rep; auto|].
          intros f x. rewrite saL_spec. cbn. ring.
        + intros x y. apply adjop_mel.
        + eexists. reflexivity.
      - intros f x. apply (saL_Nsa fac 1). }
    assert (B : rep P (antiherm true (mscale fac5 (msub (mmul (Epq a i) (Epq b j)) (mmul (Epq a j) (Epq b i)))))
              (fun f x => fac5 * opapp (rop (Nsa (-1) i j a b)) f x)).
    { eapply rep_ext.
      - apply (antiherm_rep R_exact_small P HP _ (opapp (saL fac5 (-1) i j a b)) (opapp (adjop (saL fac5 (-1) i j a b)))).
        + eapply rep_ext; [apply (rep_scale P), (rep_sub R_exact_small P); apply EE_rep; auto|].
          intros f x. rewrite saL_spec. cbn. ring.
        + intros x y. apply adjop_mel.
        + eexists. reflexivity.
      - intros f x. apply (saL_Nsa fac5 (-1)). }
    unfold G2_sa, fac_of, sgn_of. destruct case as [|[|[|[|[|[|k]]]]]]; try lia; auto.
  Qed.
End Reps.

(** ** Data of a gate: generator, nodes, coefficient functions *)
Fixpoint altneg (odd : bool) (l : list R) : list R :=
  match l with [] => [] | c :: r => (if odd then - c else c) :: altneg (negb odd) r end.

Definition sq (l : R) : R := l * l.

Record gate_data (n : nat) (T : rdict) (ls : list R) (cs : R -> list R) : Prop := {
  gd_keys : OPS (bal n) T;
  gd_anti : forall x y, mel T x y = - mel T y x;
  gd_nz : Forall (fun l => l <> 0) ls;
  gd_nd : NoDup (map sq ls);
  gd_poly : forall v x, mpoly (opapp T) (map sq ls) v x = 0;
  gd_interp : interp ls cs;
  gd_par : forall t, cs (- t) = altneg true (cs t)
}.

Definition closed_cs (t : R) : list R := [sin t; 1 - cos t].
Lemma closed_interp : interp [1] closed_cs.
Proof.
  intros l t [<-|[]]. unfold closed_cs. cbn [coe]. rewrite !Rmult_1_l. f_equal; [ring|]. field.
Qed.
Lemma closed_par t : closed_cs (- t) = altneg true (closed_cs t).
Proof. unfold closed_cs. cbn. now rewrite sin_neg, cos_neg. Qed.

Lemma alternate_par S ks b t : alternate S ks b (- t) = altneg b (alternate S ks b t).
Proof.
  revert b. induction ks as [|k ks IH]; intros b; cbn [alternate altneg]; auto. rewrite IH. f_equal.
  destruct b.
  - clear. revert k. induction S as [|s S IH]; intros [|c k]; cbn [sin_terms]; try ring.
    rewrite IH. replace (s * - t) with (- (s * t)) by ring. rewrite sin_neg. ring.
  - clear. revert k. induction S as [|s S IH]; intros [|c k]; cbn [cos_terms]; auto.
    rewrite IH. replace (s * - t) with (- (s * t)) by ring. now rewrite cos_neg.
Qed.

Lemma sqrt2_sq : sqrt 2 * sqrt 2 = 2. Proof. apply sqrt_sqrt. lra. Qed.
Lemma sqrt3_sq : sqrt 3 * sqrt 3 = 3. Proof. apply sqrt_sqrt. lra. Qed.
Lemma sqrt2_nz : sqrt 2 <> 0. Proof. intros H. pose proof sqrt2_sq. rewrite H in *. lra. Qed.
Lemma sqrt3_nz : sqrt 3 <> 0. Proof. intros H. pose proof sqrt3_sq. rewrite H in *. lra. Qed.

(** Square and inverse of a node, as rational number and rational multiple. *)
Ltac node_case q inv :=
  match goal with |- coe (- (?l * ?l)) _ = (_, ?s / ?l) =>
    assert (Hq : l * l = q) by (pose proof sqrt2_sq; pose proof sqrt3_sq; nra);
    assert (Hi : s / l = s * inv) by
      (unfold Rdiv; f_equal; apply (Rmult_eq_reg_l l); [|pose proof sqrt2_nz; pose proof sqrt3_nz; nra];
       rewrite Rinv_r by (pose proof sqrt2_nz; pose proof sqrt3_nz; nra);
       pose proof sqrt2_sq; pose proof sqrt3_sq; nra);
    rewrite Hq, Hi
  end;
  cbn [alternate sin_terms cos_terms negb coe]; f_equal; field.

Lemma interp23 : interp S23 (alternate S23 k23 true).
Proof.
  intros l t H. unfold S23 in H. destruct H as [<-|[<-|[]]]; unfold S23, k23.
  - node_case 1 1.
  - node_case (1 / 2) (sqrt 2).
Qed.
Lemma interp4 : interp S4 (alternate S4 k4 true).
Proof.
  intros l t H. unfold S4 in H. destruct H as [<-|[<-|[<-|[<-|[]]]]]; unfold S4, k4.
  - node_case 1 1.
  - node_case 2 (sqrt 2 / 2).
  - node_case (1 / 2) (sqrt 2).
  - node_case (1 / 4) 2.
Qed.
Lemma interp5 : interp S5 (alternate S5 k5 true).
Proof.
  intros l t H. unfold S5 in H. destruct H as [<-|[<-|[<-|[<-|[<-|[]]]]]]; unfold S5, k5.
  - node_case 2 (sqrt 2 / 2).
  - node_case (1 / 2) (sqrt 2).
  - node_case (1 / 3) (sqrt 3).
  - node_case (3 / 4) (2 / 3 * sqrt 3).
  - node_case (1 / 12) (2 * sqrt 3).
Qed.

Lemma sq1 : map sq [1] = [1]. Proof. cbn. unfold sq. f_equal. ring. Qed.
Lemma sq23 : map sq S23 = [1; 1 / 2].
Proof. pose proof sqrt2_sq. cbn. unfold sq. repeat (apply f_equal2; [nra|]); reflexivity. Qed.
Lemma sq4 : map sq S4 = [1; 2; 1 / 2; 1 / 4].
Proof. pose proof sqrt2_sq. cbn. unfold sq. repeat (apply f_equal2; [nra|]); reflexivity. Qed.
Lemma sq5 : map sq S5 = [2; 1 / 2; 1 / 3; 3 / 4; 1 / 12].
Proof. pose proof sqrt2_sq. pose proof sqrt3_sq. cbn. unfold sq. repeat (apply f_equal2; [nra|]); reflexivity. Qed.

Ltac nodup_tac := repeat (constructor; [cbn; intros HH; repeat (destruct HH as [HH|HH]; [lra|]); exact HH|]); constructor.
Ltac nz_tac := repeat (constructor; [pose proof sqrt2_nz; pose proof sqrt3_nz; lra|]); constructor.

(** Generators with [T^3 = -T]. *)
Lemma cube_mpoly (T : vec -> vec) : linear T -> (forall v x, T (T (T v)) x = - T v x) ->
  forall v x, mpoly T [1] v x = 0.
Proof.
  intros HT H v x. unfold mpoly. cbn [qpoly].
  rewrite (lin_ext T HT _ (fun y => 1 * T (T v) y + 1 * v y)) by (intros y; ring).
  rewrite (lin_comb T HT), H. ring.
Qed.

Lemma rep_gate n (r : Res rdict) F ls cs : rep (bal n) r F -> linear F ->
  (forall x y, F (basis y) x = - F (basis x) y) ->
  Forall (fun l => l <> 0) ls -> NoDup (map sq ls) -> (forall v x, mpoly F (map sq ls) v x = 0) ->
  interp ls cs -> (forall t, cs (- t) = altneg true (cs t)) ->
  exists T, r = Ok T /\ gate_data n T ls cs /\ forall v x, opapp T v x = F v x.
Proof.
  intros (T & E & O & S) HF Ha H1 H2 H3 H4 H5. exists T. split; [exact E|]. split; [|exact S].
  constructor; auto.
  - intros x y. unfold mel. rewrite !S. apply Ha.
  - intros v x. rewrite <- (H3 v x). apply mpoly_ext2; auto. apply opapp_linear.
Qed.

Lemma Tact_linear s : linear (Tact (K:=R) s).
Proof.
  constructor.
  - intros v w H x. unfold Tact. now rewrite (appstr_ext s v w H), (appstr_ext (adjstr s) v w H).
  - intros a b v w x. unfold Tact.
    assert (E : forall t, appstr t (fun y => a * v y + b * w y) x = a * appstr t v x + b * appstr t w x).
    { intros t. pose proof (appstr_add t (fun e => a * v e) (fun e => b * w e) x) as E0.
      pose proof (appstr_scale t a v x) as E1. pose proof (appstr_scale t b w x) as E2.
      cbn in E0, E1, E2. rewrite E1, E2 in E0. exact E0. }
    rewrite !E. cbn. ring.
Qed.

(** A repeated index among the creators (or among the annihilators) makes the
    operator vanish. *)
Lemma block_repeat (b : bool) p l (f : amps (K:=R)) x : In p l ->
  app1 (p, b) (appstr (map (fun a => (a, b)) l) f) x = 0.
Proof.
  revert x. induction l as [|q l IH]; intros x; [intros []|]. intros H. cbn [map appstr].
  destruct (Nat.eq_dec q p) as [->|Hne]; [exact (car_square (K:=R) (p, b) _ x)|].
  destruct H as [H|H]; [congruence|].
  pose proof (car_swap (K:=R) p q b b (appstr (map (fun a => (a, b)) l) f) x (or_intror eq_refl)) as E.
  rewrite E. rewrite (app1_zero (K:=R) (q, b) (app1 (p, b) (appstr (map (fun a => (a, b)) l) f)) x).
  - cbn. ring.
  - intros e. now apply IH.
Qed.
Lemma block_zero (b : bool) l (f : amps (K:=R)) x : ~ NoDup l -> appstr (map (fun a => (a, b)) l) f x = 0.
Proof.
  revert x. induction l as [|p l IH]; intros x H; [exfalso; apply H; constructor|].
  destruct (in_dec Nat.eq_dec p l) as [Hi|Hi]; [now apply block_repeat|].
  cbn [map appstr]. refine (app1_zero (K:=R) (p, b) _ x _). intros e. apply IH. intros Hn. apply H. now constructor.
Qed.
Lemma NoDup_rev_iff {A} (l : list A) : NoDup (rev l) <-> NoDup l.
Proof.
  split; intros H.
  - eapply Permutation.Permutation_NoDup; [|exact H]. apply Permutation.Permutation_sym, Permutation.Permutation_rev.
  - eapply Permutation.Permutation_NoDup; [|exact H]. apply Permutation.Permutation_rev.
Qed.
Lemma gstr_zero b iocc avirt (f : amps (K:=R)) x : ~ (NoDup iocc /\ NoDup avirt) ->
  appstr (map (fun a => (a, b)) avirt ++ map (fun i => (i, negb b)) (rev iocc)) f x = 0.
Proof.
  intros H. rewrite appstr_app.
  destruct (ListDec.NoDup_dec Nat.eq_dec avirt) as [Hv|Hv]; [|now apply block_zero].
  refine (appstr_zero (K:=R) _ _ x _). intros e. apply block_zero. rewrite NoDup_rev_iff. tauto.
Qed.
Lemma Tact_zero iocc avirt (f : amps (K:=R)) x : ~ (NoDup iocc /\ NoDup avirt) -> Tact (gstr iocc avirt) f x = 0.
Proof.
  intros H. unfold Tact, gstr. rewrite (gstr_zero true) by auto.
  assert (E : adjstr (map (fun a => (a, true)) avirt ++ map (fun i => (i, false)) (rev iocc))
            = map (fun a => (a, true)) iocc ++ map (fun i => (i, negb true)) (rev avirt)).
  { unfold adjstr. rewrite map_app, rev_app_distr, !map_map, <- !map_rev, rev_involutive. reflexivity. }
  rewrite E, gstr_zero by tauto. cbn. ring.
Qed.

Theorem Gn_gate n iocc avirt : iocc <> [] -> length avirt = length iocc -> (forall p, In p iocc -> ~ In p avirt) ->
  bal n (gstr iocc avirt) ->
  exists T, Gn (K:=R) iocc avirt true = Ok T /\ gate_data n T [1] closed_cs /\
    forall v x, opapp T v x = Tact (gstr iocc avirt) v x.
Proof.
  intros H1 H2 H3 H4.
  assert (Hne : gstr iocc avirt <> []).
  { unfold gstr. destruct avirt; [destruct iocc; [congruence|discriminate]|discriminate]. }
  eapply rep_gate.
  - apply (Gn_anti_rep R_exact_small (bal n) (bal_stable n)); auto.
  - apply Tact_linear.
  - intros x y. exact (Tact_adj (K:=R) (gstr iocc avirt) x y).
  - repeat constructor; lra.
  - repeat constructor. intros [].
  - rewrite sq1. apply cube_mpoly; [apply Tact_linear|]. intros v x.
    destruct (ListDec.NoDup_dec Nat.eq_dec iocc) as [No|No]; [destruct (ListDec.NoDup_dec Nat.eq_dec avirt) as [Nv|Nv]|].
    + refine (Tact_cube (K:=R) (gstr iocc avirt) v x _ Hne).
      unfold gstr. rewrite map_app, !map_map. cbn. rewrite !map_id.
      apply OperatorsSums.NoDup_app_disj; [assumption|now apply NoDup_rev_iff|]. intros p Hp Hq. apply in_rev in Hq. exact (H3 p Hq Hp).
    + rewrite !Tact_zero by tauto. ring.
    + rewrite !Tact_zero by tauto. ring.
  - apply closed_interp.
  - apply closed_par.
Qed.

Lemma Nsa_linear e i j a b : linear (opapp (rop (Nsa e i j a b))).
Proof. apply opapp_linear. Qed.
Lemma scaled_linear (F : vec -> vec) c : linear F -> linear (fun v x => c * F v x).
Proof.
  intros H. constructor.
  - intros v w E x. now rewrite (lin_ext F H v w E x).
  - intros a b v w x. rewrite (lin_comb F H). ring.
Qed.

Lemma Nsa_anti fac e i j a b x y :
  fac * opapp (rop (Nsa e i j a b)) (basis y) x = - (fac * opapp (rop (Nsa e i j a b)) (basis x) y).
Proof.
  rewrite <- !saL_Nsa. pose proof (adjop_mel (saL fac (IZR e) i j a b) x y). pose proof (adjop_mel (saL fac (IZR e) i j a b) y x). lra.
Qed.

Theorem G2sa_gate n i j a b case f cs zs :
  (1 <= case <= 5)%nat -> (i < n)%nat -> (j < n)%nat -> (a < n)%nat -> (b < n)%nat ->
  Forall (fun l => l <> 0) f -> NoDup (map sq f) -> interp f cs -> (forall t, cs (- t) = altneg true (cs t)) ->
  map sq f = map (fun c => fac_of i j a b case * fac_of i j a b case * c) (map IZR zs) ->
  (forall v D, mpoly (opapp (rop (Nsa (sgn_of case) i j a b))) (map IZR zs) v D = 0) ->
  exists T, G2_sa fac1 fac2 fac4 fac5 i j a b case true = Ok T /\ gate_data n T f cs.
Proof.
  intros Hc Hi Hj Ha Hb H1 H2 H3 H4 Hs Hp.
  destruct (rep_gate n _ _ f cs (G2sa_rep n i j a b case Hc Hi Hj Ha Hb)) as (T & E & G & _); eauto.
  - apply scaled_linear, Nsa_linear.
  - intros x y. apply Nsa_anti.
  - intros v x. rewrite Hs. apply (mpoly_scale (opapp (rop (Nsa (sgn_of case) i j a b)))); [apply Nsa_linear|]. apply Hp.
Qed.

Lemma fac1_sq : fac1 * fac1 = 1 / 4.
Proof. unfold fac1. rewrite sqrt_1. field. Qed.
Lemma fac2_sq : fac2 * fac2 = 1 / 8.
Proof.
  unfold fac2. pose proof sqrt2_nz. apply (Rmult_eq_reg_l 2); [|lra]. rewrite <- sqrt2_sq at 1. field. auto.
Qed.
Lemma fac4_sq : fac4 * fac4 = 1 / 16.
Proof. unfold fac4. replace 4 with (2 * 2) by ring. rewrite sqrt_square by lra. field. Qed.
Lemma fac5_sq : fac5 * fac5 = 1 / 12.
Proof.
  unfold fac5. pose proof sqrt3_nz. apply (Rmult_eq_reg_l 3); [|lra]. rewrite <- sqrt3_sq at 1. field. auto.
Qed.

Theorem sa1_gate n i a : i <> a -> (i < n)%nat -> (a < n)%nat ->
  exists T, G2_sa fac1 fac2 fac4 fac5 i i a a 1 true = Ok T /\ gate_data n T [1] closed_cs.
Proof.
  intros Hne Hi Ha. apply (G2sa_gate n i i a a 1 [1] closed_cs [16%Z]); try lia; try assumption.
  - nz_tac. 
  - rewrite sq1. nodup_tac.
  - apply closed_interp.
  - apply closed_par.
  - unfold fac_of. rewrite !Nat.eqb_refl, fac4_sq. cbn. unfold sq. f_equal. field.
  - apply (Nsa2_poly [16%Z]); [apply check2_ok|assumption].
Qed.
Theorem sa2_gate n i a b : NoDup [i; a; b] -> (i < n)%nat -> (a < n)%nat -> (b < n)%nat ->
  exists T, G2_sa fac1 fac2 fac4 fac5 i i a b 2 true = Ok T /\ gate_data n T S23 (alternate S23 k23 true).
Proof.
  intros Hne Hi Ha Hb. apply (G2sa_gate n i i a b 2 S23 _ [8; 4]%Z); try lia; try assumption.
  - unfold S23. nz_tac.
  - rewrite sq23. nodup_tac.
  - apply interp23.
  - intros t. apply alternate_par.
  - unfold fac_of. rewrite Nat.eqb_refl. replace (a =? b)%nat with false.
    + rewrite fac2_sq, sq23. cbn. repeat (apply f_equal2; [field|]); reflexivity.
    + symmetry. apply Nat.eqb_neq. intros ->. inversion_clear Hne as [|? ? _ Hb']. inversion_clear Hb' as [|? ? Hc _]. cbn in Hc. tauto.
  - apply (Nsa3v_poly [8; 4]%Z); [apply check3v_ok|assumption].
Qed.
Theorem sa3_gate n i j a : NoDup [i; j; a] -> (i < n)%nat -> (j < n)%nat -> (a < n)%nat ->
  exists T, G2_sa fac1 fac2 fac4 fac5 i j a a 3 true = Ok T /\ gate_data n T S23 (alternate S23 k23 true).
Proof.
  intros Hne Hi Hj Ha. apply (G2sa_gate n i j a a 3 S23 _ [8; 4]%Z); try lia; try assumption.
  - unfold S23. nz_tac.
  - rewrite sq23. nodup_tac.
  - apply interp23.
  - intros t. apply alternate_par.
  - unfold fac_of. rewrite Nat.eqb_refl. replace (i =? j)%nat with false.
    + rewrite fac2_sq, sq23. cbn. repeat (apply f_equal2; [field|]); reflexivity.
    + symmetry. apply Nat.eqb_neq. intros ->. inversion_clear Hne as [|? ? Hb' _]. cbn in Hb'. tauto.
  - apply (Nsa3o_poly [8; 4]%Z); [apply check3o_ok|assumption].
Qed.
Theorem sa4_gate n i j a b : NoDup [i; j; a; b] -> (i < n)%nat -> (j < n)%nat -> (a < n)%nat -> (b < n)%nat ->
  exists T, G2_sa fac1 fac2 fac4 fac5 i j a b 4 true = Ok T /\ gate_data n T S4 (alternate S4 k4 true).
Proof.
  intros Hne Hi Hj Ha Hb. apply (G2sa_gate n i j a b 4 S4 _ [4; 8; 2; 1]%Z); try lia; try assumption.
  - unfold S4. nz_tac.
  - rewrite sq4. nodup_tac.
  - apply interp4.
  - intros t. apply alternate_par.
  - unfold fac_of. replace (i =? j)%nat with false. replace (a =? b)%nat with false.
    + rewrite fac1_sq, sq4. cbn. repeat (apply f_equal2; [field|]); reflexivity.
    + symmetry. apply Nat.eqb_neq. intros ->. inversion_clear Hne as [|? ? _ H1]. inversion_clear H1 as [|? ? _ H2].
      inversion_clear H2 as [|? ? H3 _]. cbn in H3. tauto.
    + symmetry. apply Nat.eqb_neq. intros ->. inversion_clear Hne as [|? ? H1 _]. cbn in H1. tauto.
  - apply (Nsa4_poly 1 [4; 8; 2; 1]%Z); [apply check4_ok|assumption].
Qed.
Theorem sa5_gate n i j a b : NoDup [i; j; a; b] -> (i < n)%nat -> (j < n)%nat -> (a < n)%nat -> (b < n)%nat ->
  exists T, G2_sa fac1 fac2 fac4 fac5 i j a b 5 true = Ok T /\ gate_data n T S5 (alternate S5 k5 true).
Proof.
  intros Hne Hi Hj Ha Hb. apply (G2sa_gate n i j a b 5 S5 _ [24; 6; 4; 9; 1]%Z); try lia; try assumption.
  - unfold S5. nz_tac.
  - rewrite sq5. nodup_tac.
  - apply interp5.
  - intros t. apply alternate_par.
  - unfold fac_of. rewrite fac5_sq, sq5. cbn. repeat (apply f_equal2; [field|]); reflexivity.
  - apply (Nsa4_poly (-1) [24; 6; 4; 9; 1]%Z); [apply check5_ok|assumption].
Qed.
