(** Linear algebra behind the closed-form exponentials: a linear operator [T] on
    real vectors indexed by determinants whose polynomial
    [T (T^2 + l_1^2) ... (T^2 + l_k^2)] vanishes, and polynomials in [T] whose
    coefficients interpolate sine and cosine at the [l_j]. *)
From Coq Require Import List Bool Arith Reals Lra Lia Psatz.
From Coquelicot Require Import Coquelicot.
From Verif Require Import Base RRing Fock SaPoly.
Import ListNotations.
Local Open Scope R_scope.

Notation vec := (det -> R).
Definition veq (v w : vec) : Prop := forall x, v x = w x.

Record linear (T : vec -> vec) : Prop := {
  lin_ext : forall v w, veq v w -> veq (T v) (T w);
  lin_comb : forall a b v w x, T (fun y => a * v y + b * w y) x = a * T v x + b * T w x
}.

Section Gate.
  Variable T : vec -> vec.
  Hypothesis HT : linear T.

  Lemma T_ext v w : veq v w -> veq (T v) (T w). Proof. apply (lin_ext T HT). Qed.
  Lemma T_comb a b v w x : T (fun y => a * v y + b * w y) x = a * T v x + b * T w x.
  Proof. apply (lin_comb T HT). Qed.
  Lemma T_zero v : (forall x, v x = 0) -> forall x, T v x = 0.
  Proof.
    intros H x. rewrite (T_ext v (fun y => 0 * v y + 0 * v y)), T_comb; [ring|]. intros y. rewrite H. ring.
  Qed.
  Lemma T_scal a v x : T (fun y => a * v y) x = a * T v x.
  Proof. rewrite (T_ext _ (fun y => a * v y + 0 * v y)), T_comb; [ring|]. intros y. ring. Qed.
  Lemma T_plus v w x : T (fun y => v y + w y) x = T v x + T w x.
  Proof. rewrite (T_ext _ (fun y => 1 * v y + 1 * w y)), T_comb; [ring|]. intros y. ring. Qed.

  (** [Tn n v] is [T^n v]. *)
  Fixpoint Tn (n : nat) (v : vec) : vec := match n with O => v | S k => T (Tn k v) end.

  (** [gact cs v = v + sum_k cs[k] T^(k+1) v], computed as the program does. *)
  Fixpoint gsum (cs : list R) (tmp : vec) : vec :=
    match cs with [] => fun _ => 0 | c :: r => fun x => c * T tmp x + gsum r (T tmp) x end.
  Definition gact (cs : list R) (v : vec) : vec := fun x => v x + gsum cs v x.

  Lemma gsum_ext cs v w : veq v w -> veq (gsum cs v) (gsum cs w).
  Proof.
    revert v w. induction cs as [|c cs IH]; intros v w H x; cbn [gsum]; auto.
    rewrite (T_ext v w H x), (IH (T v) (T w)); auto. now apply T_ext.
  Qed.
  Lemma gsum_comb cs a b v w x : gsum cs (fun y => a * v y + b * w y) x = a * gsum cs v x + b * gsum cs w x.
  Proof.
    revert v w x. induction cs as [|c cs IH]; intros v w x; cbn [gsum]; [ring|].
    rewrite T_comb. rewrite (gsum_ext cs _ (fun y => a * T v y + b * T w y)), IH; [ring|]. intros y. apply T_comb.
  Qed.
  Lemma gact_linear cs : linear (gact cs).
  Proof.
    constructor.
    - intros v w H x. unfold gact. now rewrite H, (gsum_ext cs v w H x).
    - intros a b v w x. unfold gact. rewrite gsum_comb. ring.
  Qed.

  Definition eig (r : R) (u : vec) : Prop := forall x, T (T u) x = r * u x.
  Definition ker (u : vec) : Prop := forall x, T u x = 0.

  Lemma eig_T r u : eig r u -> eig r (T u).
  Proof. intros H x. rewrite (T_ext (T (T u)) (fun y => r * u y)); auto. apply T_scal. Qed.
  Lemma eig_comb r a b u w : eig r u -> eig r w -> eig r (fun x => a * u x + b * w x).
  Proof.
    intros Hu Hw x. rewrite (T_ext _ (fun y => a * T u y + b * T w y)) by (intros y; apply T_comb).
    rewrite T_comb, Hu, Hw. ring.
  Qed.

  (** Values of the coefficient polynomial at an eigenvalue [r] of [T^2]:
      coefficient of [u] and of [T u]. *)
  Fixpoint coe (r : R) (cs : list R) : R * R :=
    match cs with [] => (0, 0) | c :: cs' => let (e, o) := coe r cs' in (r * o, c + e) end.

  Lemma gsum_eig r cs u x : eig r u -> gsum cs u x = fst (coe r cs) * u x + snd (coe r cs) * T u x.
  Proof.
    revert u x. induction cs as [|c cs IH]; intros u x H; cbn [gsum coe]; [cbn; ring|].
    rewrite IH by now apply eig_T. destruct (coe r cs) as [e o]. cbn [fst snd]. rewrite H. ring.
  Qed.
  Lemma gsum_ker cs u x : ker u -> gsum cs u x = 0.
  Proof.
    revert u x. induction cs as [|c cs IH]; intros u x H; cbn [gsum]; auto.
    rewrite IH, (H x); [ring|]. exact (T_zero _ H).
  Qed.

  (** ** Decomposition into eigenvectors of [T^2] *)
  Fixpoint vsum (vs : list vec) : vec := match vs with [] => fun _ => 0 | v :: r => fun x => v x + vsum r x end.

  Definition decomp (ls : list R) (v v0 : vec) (vs : list vec) : Prop :=
    ker v0 /\ Forall2 (fun l u => eig (- (l * l)) u) ls vs /\ forall x, v x = v0 x + vsum vs x.

  Lemma qpoly_ext cs v w : veq v w -> veq (qpoly T cs v) (qpoly T cs w).
  Proof.
    intros H. induction cs as [|c cs IH]; cbn [qpoly]; auto. intros x. rewrite (IH x). f_equal.
    apply T_ext. now apply T_ext.
  Qed.
  Lemma qpoly_comb cs a b v w x :
    qpoly T cs (fun y => a * v y + b * w y) x = a * qpoly T cs v x + b * qpoly T cs w x.
  Proof.
    revert x. induction cs as [|c cs IH]; intros x; cbn [qpoly]; auto. rewrite IH.
    rewrite (T_ext _ (fun y => a * T (qpoly T cs v) y + b * T (qpoly T cs w) y)), T_comb; [ring|].
    intros y. rewrite (T_ext _ (fun y => a * qpoly T cs v y + b * qpoly T cs w y)), T_comb by exact IH. ring.
  Qed.
  Lemma qpoly_T cs v x : qpoly T cs (T v) x = T (qpoly T cs v) x.
  Proof.
    revert x. induction cs as [|c cs IH]; intros x; cbn [qpoly]; auto.
    rewrite IH. rewrite (T_ext (fun y => T (T (qpoly T cs v)) y + c * qpoly T cs v y)
                           (fun y => 1 * T (T (qpoly T cs v)) y + c * qpoly T cs v y)) by (intros y; ring).
    rewrite T_comb, Rmult_1_l. f_equal. apply T_ext, T_ext. exact IH.
  Qed.

  Theorem decompose ls v : List.Forall (fun l => l <> 0) ls -> NoDup (map (fun l => l * l) ls) ->
    (forall x, mpoly T (map (fun l => l * l) ls) v x = 0) -> exists v0 vs, decomp ls v v0 vs.
  Proof.
    revert v. induction ls as [|l ls IH]; intros v Hnz Hnd Hp.
    - exists v, []. split; [exact Hp|]. split; [constructor|]. intros x. cbn. ring.
    - inversion_clear Hnz as [|? ? Hl Hnz']. cbn [map] in Hnd. inversion_clear Hnd as [|? ? Hni Hnd'].
      set (c := l * l) in *. set (cs := map (fun l => l * l) ls) in *.
      set (u := fun x => T (T v) x + c * v x).
      destruct (IH u Hnz' Hnd') as (u0 & us & Hk & He & Hs).
      { intros x. rewrite <- (Hp x). cbn [map]. fold cs. unfold mpoly. apply T_ext. intros y. cbn [qpoly].
        unfold u. transitivity (1 * qpoly T cs (T (T v)) y + c * qpoly T cs v y).
        - rewrite <- qpoly_comb. apply qpoly_ext. intros z. ring.
        - rewrite qpoly_T, Rmult_1_l. unfold c. f_equal. apply T_ext. intros z. apply qpoly_T. }
      assert (Hc : c <> 0) by (unfold c; nra).
      set (ws := map (fun lu => fun x => / (c - fst lu * fst lu) * snd lu x) (combine ls us)).
      set (w0 := fun x => / c * u0 x).
      set (w := fun x => v x - w0 x - vsum ws x).
      exists w0, (w :: ws). split; [|split].
      + intros x. unfold w0. rewrite T_scal, (Hk x). ring.
      + constructor.
        * assert (HD : forall ls us, Forall2 (fun l u => eig (- (l * l)) u) ls us ->
                    (forall l', In l' ls -> c - l' * l' <> 0) ->
                    forall x, T (T (vsum (map (fun lu => fun x => / (c - fst lu * fst lu) * snd lu x) (combine ls us)))) x
                      = vsum us x - c * vsum (map (fun lu => fun x => / (c - fst lu * fst lu) * snd lu x) (combine ls us)) x).
          { clear - HT. intros ls us H. induction H as [|l' u ls us Hu H IH]; intros Hne x.
            - cbn. rewrite (T_zero _ (T_zero _ (fun _ => eq_refl))). ring.
            - cbn [combine map vsum fst snd].
              rewrite (T_ext _ (fun y => / (c - l' * l') * T u y + T (vsum (map (fun lu => fun x => / (c - fst lu * fst lu) * snd lu x) (combine ls us))) y)).
              2: { intros y. rewrite T_plus, T_scal. reflexivity. }
              rewrite T_plus, T_scal, (Hu x), IH.
              2: { intros. apply Hne. now right. }
              pose proof (Hne l' (or_introl eq_refl)). field. assumption. }
          assert (Hws : forall x, T (T (vsum ws)) x = vsum us x - c * vsum ws x).
          { apply HD; auto. intros l' Hl' E. apply Hni. unfold cs. apply in_map_iff. exists l'. split; [lra|auto]. }
          assert (Hw0 : forall x, T (T w0) x = 0).
          { apply T_zero. intros x. unfold w0. rewrite T_scal, (Hk x). ring. }
          intros x. unfold w.
          rewrite (T_ext _ (fun y => T v y + (-1 * T w0 y + -1 * T (vsum ws) y))).
          2: { intros y. rewrite (T_ext _ (fun z => v z + (-1 * w0 z + -1 * vsum ws z))) by (intros z; ring).
               rewrite T_plus, T_comb. reflexivity. }
          rewrite T_plus, T_comb, Hws, Hw0.
          pose proof (Hs x) as E. unfold u in E. unfold w0.
          replace (T (T v) x) with (u0 x + vsum us x - c * v x) by lra. fold c. field. exact Hc.
        * unfold ws. clear - He HT. induction He as [|l' u ls us Hu H IH]; cbn [combine map fst snd]; constructor; auto.
          intros x. rewrite (T_ext _ (fun y => / (c - l' * l') * T u y)), T_scal, (Hu x) by (intros y; apply T_scal). ring.
      + intros x. cbn [vsum]. unfold w. ring.
  Qed.

  (** ** Gates whose coefficients interpolate sine and cosine at the nodes *)
  Definition interp (ls : list R) (cs : R -> list R) : Prop :=
    forall l t, In l ls -> coe (- (l * l)) (cs t) = (cos (l * t) - 1, sin (l * t) / l).

  (** Explicit form: [v0 + sum_j cos(l_j t) v_j + sin(l_j t)/l_j T v_j]. *)
  Definition rot (t : R) (lu : R * vec) : vec :=
    fun x => cos (fst lu * t) * snd lu x + sin (fst lu * t) / fst lu * T (snd lu) x.
  Definition rots (t : R) (ls : list R) (vs : list vec) : list vec := map (rot t) (combine ls vs).

  Lemma T_vsum vs x : T (vsum vs) x = vsum (map T vs) x.
  Proof.
    revert x. induction vs as [|v vs IH]; intros x; cbn [vsum map]; [now apply T_zero|]. now rewrite T_plus, IH.
  Qed.

  Lemma rots_eig t ls vs : Forall2 (fun l u => eig (- (l * l)) u) ls vs ->
    Forall2 (fun l u => eig (- (l * l)) u) ls (rots t ls vs).
  Proof.
    intros H. unfold rots. induction H as [|l u ls vs Hu H IH]; cbn [combine map]; constructor; auto.
    unfold rot. cbn [fst snd]. apply eig_comb; auto. now apply eig_T.
  Qed.

  Lemma gact_decomp ls cs t v v0 vs : interp ls cs -> decomp ls v v0 vs ->
    decomp ls (gact (cs t) v) v0 (rots t ls vs).
  Proof.
    intros Hi (Hk & He & Hs). split; [exact Hk|]. split; [now apply rots_eig|]. intros x.
    unfold gact. rewrite (Hs x).
    rewrite (gsum_ext (cs t) v (fun y => 1 * v0 y + 1 * vsum vs y)) by (intros y; rewrite Hs; ring).
    rewrite gsum_comb, (gsum_ker _ _ _ Hk).
    enough (vsum vs x + gsum (cs t) (vsum vs) x = vsum (rots t ls vs) x) by lra.
    clear Hs. revert x. induction He as [|l u ls vs Hu He IH]; intros x; cbn [vsum rots combine map].
    - rewrite gsum_ker; [ring|]. intros y. now apply T_zero.
    - rewrite (gsum_ext (cs t) _ (fun y => 1 * u y + 1 * vsum vs y)) by (intros y; ring).
      rewrite gsum_comb, (gsum_eig (- (l * l)) _ _ _ Hu), (Hi l t) by now left. cbn [fst snd].
      fold (rots t ls vs). rewrite <- IH by (intros l' t' H'; apply Hi; now right).
      unfold rot. cbn [fst snd]. ring.
  Qed.

  Lemma rots_add s t ls vs : List.Forall (fun l => l <> 0) ls -> Forall2 (fun l u => eig (- (l * l)) u) ls vs ->
    forall x, vsum (rots s ls (rots t ls vs)) x = vsum (rots (s + t) ls vs) x.
  Proof.
    intros Hnz H. induction H as [|l u ls vs Hu H IH]; intros x; cbn [rots combine map vsum]; auto.
    inversion_clear Hnz as [|? ? Hl Hnz'].
    fold (rots t ls vs). fold (rots s ls (rots t ls vs)). fold (rots (s + t) ls vs). rewrite IH by auto. f_equal.
    unfold rot. cbn [fst snd]. rewrite T_comb, (Hu x).
    replace (l * (s + t)) with (l * s + l * t) by ring. rewrite cos_plus, sin_plus. field. exact Hl.
  Qed.

  Theorem gate_group ls cs s t v : List.Forall (fun l => l <> 0) ls -> interp ls cs ->
    (exists v0 vs, decomp ls v v0 vs) ->
    forall x, gact (cs s) (gact (cs t) v) x = gact (cs (s + t)) v x.
  Proof.
    intros Hnz Hi (v0 & vs & Hd) x.
    pose proof (gact_decomp ls cs t v v0 vs Hi Hd) as H1.
    destruct (gact_decomp ls cs s _ _ _ Hi H1) as (_ & _ & E1).
    destruct (gact_decomp ls cs (s + t) v v0 vs Hi Hd) as (_ & _ & E2).
    rewrite E1, E2. f_equal. apply rots_add; auto. apply Hd.
  Qed.

  Theorem gate_zero ls cs v : List.Forall (fun l => l <> 0) ls -> interp ls cs -> (exists v0 vs, decomp ls v v0 vs) ->
    forall x, gact (cs 0) v x = v x.
  Proof.
    intros Hnz Hi (v0 & vs & Hd) x.
    destruct (gact_decomp ls cs 0 v v0 vs Hi Hd) as (_ & _ & E). destruct Hd as (_ & He & Hs).
    rewrite E, Hs. f_equal. clear - He. induction He as [|l u ls vs Hu He IH]; cbn [rots combine map vsum]; auto.
    fold (rots 0 ls vs). rewrite IH. unfold rot. cbn [fst snd]. rewrite Rmult_0_r, cos_0, sin_0. lra.
  Qed.

  Theorem gate_deriv ls cs v t : List.Forall (fun l => l <> 0) ls -> interp ls cs -> (exists v0 vs, decomp ls v v0 vs) ->
    forall x, derivable_pt_lim (fun s => gact (cs s) v x) t (T (gact (cs t) v) x).
  Proof.
    intros Hnz Hi (v0 & vs & Hd) x.
    destruct (gact_decomp ls cs t v v0 vs Hi Hd) as (Hk & _ & Et).
    rewrite (T_ext _ (fun y => v0 y + vsum (rots t ls vs) y) Et), T_plus, (Hk x), Rplus_0_l, T_vsum.
    apply is_derive_Reals.
    apply (is_derive_ext (fun s => v0 x + vsum (rots s ls vs) x)).
    { intros s. destruct (gact_decomp ls cs s v v0 vs Hi Hd) as (_ & _ & Es). now rewrite Es. }
    rewrite <- (Rplus_0_l (vsum _ x)). apply (is_derive_plus (fun _ => v0 x)); [apply @is_derive_const|].
    destruct Hd as (_ & He & _). clear - He Hnz HT.
    induction He as [|l u ls vs Hu He IH]; cbn [rots combine map vsum]; [apply @is_derive_const|].
    inversion_clear Hnz as [|? ? Hl Hnz'].
    apply @is_derive_plus; [|fold (rots t ls vs); apply IH; auto].
    unfold rot. cbn [fst snd]. rewrite T_comb, (Hu x).
    evar_last; [auto_derive; auto|]. cbn. unfold scal. cbn. field. exact Hl.
  Qed.

  (** ** Power series *)
  Lemma Tn_ext n v w : veq v w -> veq (Tn n v) (Tn n w).
  Proof. intros H. induction n; cbn [Tn]; auto. now apply T_ext. Qed.
  Lemma Tn_plus n v w x : Tn n (fun y => v y + w y) x = Tn n v x + Tn n w x.
  Proof.
    revert x. induction n as [|n IH]; intros x; cbn [Tn]; auto.
    rewrite (T_ext _ (fun y => Tn n v y + Tn n w y)) by exact IH. apply T_plus.
  Qed.
  Lemma Tn_eig_even r u k x : eig r u -> Tn (2 * k) u x = r ^ k * u x.
  Proof.
    intros H. revert x. induction k as [|k IH]; intros x; [cbn; ring|].
    replace (2 * S k)%nat with (S (S (2 * k))) by lia. cbn [Tn].
    rewrite (T_ext _ (fun y => r ^ k * T u y)).
    2: { intros y. rewrite (T_ext _ (fun z => r ^ k * u z)) by exact IH. apply T_scal. }
    rewrite T_scal, H. cbn [pow]. ring.
  Qed.
  Lemma Tn_eig_odd r u k x : eig r u -> Tn (2 * k + 1) u x = r ^ k * T u x.
  Proof.
    intros H. rewrite Nat.add_1_r. cbn [Tn].
    rewrite (T_ext _ (fun z => r ^ k * u z)) by (intros z; now apply Tn_eig_even). apply T_scal.
  Qed.
  Lemma Tn_ker u n x : ker u -> Tn n u x = match n with O => u x | S _ => 0 end.
  Proof.
    intros H. revert x. destruct n as [|n]; auto. induction n as [|n IH]; intros x; [apply H|].
    change (Tn (S (S n)) u) with (T (Tn (S n) u)). now apply T_zero.
  Qed.

  Lemma cos_series l t : is_pseries (fun k => (- (l * l)) ^ k / INR (fact (2 * k))) (t ^ 2) (cos (l * t)).
  Proof.
    unfold is_pseries. unfold cos. destruct (exist_cos (Rsqr (l * t))) as [a Ha]. unfold cos_in in Ha.
    apply is_series_Reals in Ha. eapply is_series_ext; [|exact Ha]. intros k. rewrite pow_n_pow.
    change (scal ?a ?b) with (a * b). match goal with |- ?a = ?b => change (@eq R a b) end. unfold cos_n, Rsqr.
    replace (l * t * (l * t)) with ((l * l) * t ^ 2) by ring.
    replace (- (l * l)) with ((-1) * (l * l)) by ring. rewrite !Rpow_mult_distr. unfold Rdiv. ring.
  Qed.
  Lemma sin_series l t : l <> 0 -> exists a, is_pseries (fun k => (- (l * l)) ^ k / INR (fact (2 * k + 1))) (t ^ 2) a /\
    t * a = sin (l * t) / l.
  Proof.
    intros Hl. unfold sin. destruct (exist_sin (Rsqr (l * t))) as [a Ha]. unfold sin_in in Ha.
    exists a. split; [|field; exact Hl].
    apply is_series_Reals in Ha. eapply is_series_ext; [|exact Ha]. intros k. rewrite pow_n_pow.
    change (scal ?a ?b) with (a * b). match goal with |- ?a = ?b => change (@eq R a b) end. unfold sin_n, Rsqr.
    replace (l * t * (l * t)) with ((l * l) * t ^ 2) by ring.
    replace (- (l * l)) with ((-1) * (l * l)) by ring. rewrite !Rpow_mult_distr. unfold Rdiv. ring.
  Qed.

  Lemma series_eig l t u x : l <> 0 -> eig (- (l * l)) u ->
    is_series (fun n => t ^ n / INR (fact n) * Tn n u x) (rot t (l, u) x).
  Proof.
    intros Hl Hu. destruct (sin_series l t Hl) as (a & Ha & Ea).
    assert (He : is_pseries (fun n => Tn (2 * n) u x / INR (fact (2 * n))) (t ^ 2) (cos (l * t) * u x)).
    { apply (is_pseries_ext (fun k => scal (u x) ((- (l * l)) ^ k / INR (fact (2 * k))))).
      - intros k. unfold scal. cbn -[fact Nat.mul]. unfold mult. cbn -[fact Nat.mul].
        rewrite (Tn_eig_even _ _ _ _ Hu). unfold Rdiv. ring.
      - rewrite (Rmult_comm (cos _)). apply (is_pseries_scal (K:=R_AbsRing) (V:=R_NormedModule) (u x) _ (t ^ 2) (cos (l * t)));
          [exact (Rmult_comm _ _)|apply cos_series]. }
    assert (Ho : is_pseries (fun n => Tn (2 * n + 1) u x / INR (fact (2 * n + 1))) (t ^ 2) (a * T u x)).
    { apply (is_pseries_ext (fun k => scal (T u x) ((- (l * l)) ^ k / INR (fact (2 * k + 1))))).
      - intros k. unfold scal. cbn -[fact Nat.mul]. unfold mult. cbn -[fact Nat.mul].
        rewrite (Tn_eig_odd _ _ _ _ Hu). unfold Rdiv. ring.
      - rewrite (Rmult_comm a). apply (is_pseries_scal (K:=R_AbsRing) (V:=R_NormedModule) (T u x) _ (t ^ 2) a);
          [exact (Rmult_comm _ _)|exact Ha]. }
    pose proof (is_pseries_odd_even (fun n => Tn n u x / INR (fact n)) t _ _ He Ho) as H.
    unfold is_pseries in H. unfold rot. cbn [fst snd].
    replace (cos (l * t) * u x + sin (l * t) / l * T u x) with (cos (l * t) * u x + t * (a * T u x))
      by (rewrite <- Ea; ring).
    eapply is_series_ext; [|exact H]. intros n. cbv beta. rewrite pow_n_pow.
    change (scal ?a ?b) with (a * b). match goal with |- ?a = ?b => change (@eq R a b) end. unfold Rdiv. ring.
  Qed.

  Lemma series_zero : is_series (fun _ : nat => 0) 0.
  Proof.
    apply is_series_Reals. intros eps He. exists 0%nat. intros n _.
    rewrite sum_eq_R0; [|auto]. unfold R_dist. rewrite Rminus_0_r, Rabs_R0. exact He.
  Qed.

  Lemma series_ker t u x : ker u -> is_series (fun n => t ^ n / INR (fact n) * Tn n u x) (u x).
  Proof.
    intros H.
    assert (E : is_series (fun n => match n with O => u x | S _ => 0 end) (u x)).
    { apply is_series_Reals. intros eps He. exists 0%nat. intros n _.
      replace (sum_f_R0 _ n) with (u x).
      - unfold R_dist. rewrite Rminus_diag_eq, Rabs_R0; auto.
      - induction n as [|n IH]; cbn [sum_f_R0]; auto. rewrite <- IH. ring. }
    eapply is_series_ext; [|exact E]. intros [|n]; rewrite (Tn_ker _ _ _ H); cbn -[fact]; [|ring].
    change (fact 0) with 1%nat. cbn. field.
  Qed.

  Theorem gate_series ls cs v t : List.Forall (fun l => l <> 0) ls -> interp ls cs -> (exists v0 vs, decomp ls v v0 vs) ->
    forall x, infinite_sum (fun n => t ^ n / INR (fact n) * Tn n v x) (gact (cs t) v x).
  Proof.
    intros Hnz Hi (v0 & vs & Hd) x.
    destruct (gact_decomp ls cs t v v0 vs Hi Hd) as (Hk & _ & Et). destruct Hd as (_ & He & Hs).
    apply is_series_Reals. rewrite Et.
    apply (is_series_ext (fun n => t ^ n / INR (fact n) * Tn n v0 x + t ^ n / INR (fact n) * Tn n (vsum vs) x)).
    { intros n. rewrite (Tn_ext n v _ Hs x), Tn_plus. match goal with |- ?a = ?b => change (@eq R a b) end. ring. }
    apply @is_series_plus; [now apply series_ker|].
    clear - He Hnz HT. revert Hnz. induction He as [|l u ls vs Hu He IH]; intros Hnz; cbn [rots combine map vsum].
    - eapply is_series_ext; [|apply series_zero]. intros n.
      rewrite (Tn_ker (fun _ => 0)); [match goal with |- ?a = ?b => change (@eq R a b) end; destruct n; ring|]. intros y. now apply T_zero.
    - inversion_clear Hnz as [|? ? Hl Hnz'].
      apply (is_series_ext (fun n => t ^ n / INR (fact n) * Tn n u x + t ^ n / INR (fact n) * Tn n (vsum vs) x)).
      { intros n. rewrite Tn_plus. match goal with |- ?a = ?b => change (@eq R a b) end. ring. }
      apply @is_series_plus; [now apply series_eig|]. now apply IH.
  Qed.
End Gate.

(** The derivative commutes with a linear map applied afterwards. *)
Theorem gate_deriv_lin (T F : vec -> vec) : linear T -> linear F -> forall ls cs v t,
  List.Forall (fun l => l <> 0) ls -> interp ls cs -> (exists v0 vs, decomp T ls v v0 vs) ->
  forall x, derivable_pt_lim (fun s => F (gact T (cs s) v) x) t (F (T (gact T (cs t) v)) x).
Proof.
  intros HT HF ls cs v t Hnz Hi (v0 & vs & Hd) x.
  assert (ET : forall y, T (gact T (cs t) v) y = vsum (map T (rots T t ls vs)) y).
  { intros y. destruct (gact_decomp T HT ls cs t v v0 vs Hi Hd) as (Hk & _ & Et).
    rewrite (T_ext T HT _ (fun y => v0 y + vsum (rots T t ls vs) y) Et), (T_plus T HT), (Hk y), Rplus_0_l, (T_vsum T HT).
    reflexivity. }
  rewrite (T_ext F HF _ _ ET x), (T_vsum F HF).
  apply is_derive_Reals.
  apply (is_derive_ext (fun s => F v0 x + vsum (map F (rots T s ls vs)) x)).
  { intros s. destruct (gact_decomp T HT ls cs s v v0 vs Hi Hd) as (_ & _ & Es).
    rewrite (T_ext F HF _ (fun y => v0 y + vsum (rots T s ls vs) y) Es), (T_plus F HF), (T_vsum F HF). reflexivity. }
  rewrite <- (Rplus_0_l (vsum _ x)). apply (is_derive_plus (fun _ => F v0 x)); [apply @is_derive_const|].
  destruct Hd as (_ & He & _). clear - He Hnz HT HF.
  induction He as [|l u ls vs Hu He IH]; cbn [rots combine map vsum]; [apply @is_derive_const|].
  inversion_clear Hnz as [|? ? Hl Hnz'].
  apply @is_derive_plus; [|fold (rots T t ls vs); apply IH; auto].
  unfold rot. cbn [fst snd].
  apply (is_derive_ext (fun s => cos (l * s) * F u x + sin (l * s) / l * F (T u) x)).
  { intros s. now rewrite (T_comb F HF). }
  assert (ET : F (T (fun x => cos (l * t) * u x + sin (l * t) / l * T u x)) x
             = cos (l * t) * F (T u) x - sin (l * t) * l * F u x).
  { rewrite (T_ext F HF _ (fun y => cos (l * t) * T u y + (- (sin (l * t) * l)) * u y)).
    - rewrite (T_comb F HF). ring.
    - intros y. rewrite (T_comb T HT), (Hu y). field. exact Hl. }
  rewrite ET.
  evar_last; [auto_derive; auto|]. cbn. unfold scal. cbn. field. exact Hl.
Qed.
