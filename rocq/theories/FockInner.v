(** Inner products on the occupation-number space of [m] spin orbitals, adjoints
    and excitation operators of any rank.  Specification and facts about it;
    nothing here refers to the modelled program. *)
From Coq Require Import List Bool Arith NArith Lia Ring Permutation.
From Verif Require Import Base Fock FockMore OperatorsSums OperatorsProofs OperatorsActs.
Import ListNotations.

(** All determinants of [m] spin orbitals. *)
Fixpoint alldets (m : nat) : list det :=
  match m with
  | O => [vacuum]
  | S k => alldets k ++ map (fun d => flip d k) (alldets k)
  end.

Lemma in_alldets m d : In d (alldets m) <-> forall p, m <= p -> occ d p = false.
Proof.
  revert d. induction m as [|m IH]; intros d; cbn [alldets].
  - split.
    + intros [<-|[]] p _. apply occ_vacuum.
    + intros H. left. apply det_ext. intros p. rewrite H by lia. apply occ_vacuum.
  - rewrite in_app_iff, in_map_iff. split.
    + intros [H|(e & <- & He)] p Hp.
      * apply (proj1 (IH d) H). lia.
      * rewrite occ_flip_other by lia. apply (proj1 (IH e) He). lia.
    + intros H. destruct (occ d m) eqn:E.
      * right. exists (flip d m). split; [apply flip_flip|]. apply IH. intros p Hp.
        destruct (Nat.eq_dec p m) as [->|Hne]; [rewrite occ_flip_same, E; reflexivity|].
        rewrite occ_flip_other by lia. apply H. lia.
      * left. apply IH. intros p Hp. destruct (Nat.eq_dec p m) as [->|Hne]; [exact E|apply H; lia].
Qed.

Lemma flip_inj p d e : flip d p = flip e p -> d = e.
Proof. intros H. rewrite <- (flip_flip d p), H. apply flip_flip. Qed.

Lemma alldets_NoDup m : NoDup (alldets m).
Proof.
  induction m as [|m IH]; cbn [alldets]; [repeat constructor; intros []|].
  apply OperatorsSums.NoDup_app_disj; [exact IH|apply NoDup_map_inj; [intros ? ?; apply flip_inj|exact IH]|].
  intros d H1 H2. apply in_map_iff in H2 as (e & <- & He).
  pose proof (proj1 (in_alldets m _) H1 m (le_n m)) as A. pose proof (proj1 (in_alldets m _) He m (le_n m)) as B.
  rewrite occ_flip_same, B in A. discriminate.
Qed.

Section Inner.
  Context {K : Type} {C : CRing K}.
  Local Open Scope K_scope.
  Add Ring KringIn : (@rth K C).
  Notation amps := (amps (K:=K)).

  (** Real inner product over the determinants of [m] spin orbitals. *)
  Definition ip (m : nat) (u w : amps) : K := lsum (alldets m) (fun x => u x * w x).

  Lemma ip_ext m (u u' w w' : amps) : (forall x, u x = u' x) -> (forall x, w x = w' x) -> ip m u w = ip m u' w'.
  Proof. intros H1 H2. apply lsum_ext. intros x _. now rewrite H1, H2. Qed.
  Lemma ip_sym m (u w : amps) : ip m u w = ip m w u.
  Proof. apply lsum_ext. intros x _. ring. Qed.
  Lemma ip_add m (u v w : amps) : ip m u (fun x => v x + w x) = ip m u v + ip m u w.
  Proof. unfold ip. rewrite <- lsum_add. apply lsum_ext. intros x _. ring. Qed.
  Lemma ip_scale m c (u v : amps) : ip m u (fun x => c * v x) = c * ip m u v.
  Proof. unfold ip. rewrite <- lsum_scale. apply lsum_ext. intros x _. ring. Qed.
  Lemma ip_sub m (u v w : amps) : ip m u (fun x => v x - w x) = ip m u v - ip m u w.
  Proof.
    rewrite (ip_ext m u u _ (fun x => v x + (- (1)) * w x)) by (auto; intros; ring).
    rewrite ip_add, ip_scale. ring.
  Qed.
  Lemma ip_zero m (u w : amps) : (forall x, w x = 0) -> ip m u w = 0.
  Proof. intros H. apply lsum_zero. intros x _. rewrite H. ring. Qed.
  Lemma ip_lsum {I} m (u : amps) (l : list I) (F : I -> amps) :
    ip m u (fun x => lsum l (fun i => F i x)) = lsum l (fun i => ip m u (F i)).
  Proof.
    unfold ip. rewrite <- lsum_swap. apply lsum_ext. intros x _. now rewrite lsum_scale.
  Qed.

  Lemma ip_app1 m p b (u w : amps) : (p < m)%nat -> ip m u (app1 (p, b) w) = ip m (app1 (p, negb b) u) w.
  Proof.
    intros Hp. unfold ip.
    assert (Permutation (alldets m) (map (fun d => flip d p) (alldets m))) as HP.
    { apply NoDup_Permutation; [apply alldets_NoDup| |].
      - apply NoDup_map_inj; [intros ? ?; apply flip_inj|apply alldets_NoDup].
      - intros d. rewrite in_map_iff. split.
        + intros H. exists (flip d p). split; [apply flip_flip|]. apply in_alldets. intros q Hq.
          rewrite occ_flip_other by lia. now apply (in_alldets m).
        + intros (e & <- & He). apply in_alldets. intros q Hq. rewrite occ_flip_other by lia. now apply (in_alldets m). }
    rewrite (lsum_perm _ _ _ HP), lsum_map. apply lsum_ext. intros x _. unfold app1. cbn [fst snd].
    rewrite occ_flip_same, below_flip_ge by lia. rewrite flip_flip.
    destruct (occ x p), b; cbn [Bool.eqb negb]; try ring; destruct (below x p); unfold sgn; ring.
  Qed.

  Lemma adjstr_cons o s : adjstr (o :: s) = adjstr s ++ [(fst o, negb (snd o))].
  Proof. reflexivity. Qed.

  Lemma ip_appstr m s (u w : amps) : (forall o, In o s -> (fst o < m)%nat) ->
    ip m u (appstr s w) = ip m (appstr (adjstr s) u) w.
  Proof.
    revert u. induction s as [|[p b] s IH]; intros u H; [reflexivity|].
    cbn [appstr]. rewrite ip_app1 by (apply (H (p, b)); now left).
    rewrite IH by (intros; apply H; now right). apply ip_ext; [|reflexivity].
    intros x. rewrite adjstr_cons, appstr_app. reflexivity.
  Qed.

  Lemma lsum_cons {I} (i : I) l (F : I -> K) : lsum (i :: l) F = F i + lsum l F.
  Proof. reflexivity. Qed.
  Lemma app1_lsum {I} o (l : list I) (F : I -> amps) x :
    app1 o (fun e => lsum l (fun i => F i e)) x = lsum l (fun i => app1 o (F i) x).
  Proof.
    induction l as [|i l IH]; cbn [lsum fold_right].
    - apply app1_zero. reflexivity.
    - change (app1 o (fun e => F i e + lsum l (fun j => F j e)) x = app1 o (F i) x + lsum l (fun j => app1 o (F j) x)).
      rewrite (app1_add o (F i) (fun e => lsum l (fun j => F j e))), IH. reflexivity.
  Qed.

  (** Spin orbital of spatial orbital [p] with spin [s]. *)
  Definition so (p : nat) (s : bool) : nat := if s then (2 * p + 1)%nat else (2 * p)%nat.

  (** Spin-summed excitation operator of any rank:
      [sum_{s1..sk} a^+_{p1 s1} ... a^+_{pk sk} a_{qk sk} ... a_{q1 s1}]. *)
  Fixpoint ek (L : list (nat * nat)) (f : amps) : amps :=
    match L with
    | [] => f
    | (p, q) :: L' => fun x => app1 (so p false, true) (ek L' (app1 (so q false, false) f)) x
                             + app1 (so p true, true) (ek L' (app1 (so q true, false) f)) x
    end.

  Lemma ek_ext L (f g : amps) : (forall x, f x = g x) -> forall x, ek L f x = ek L g x.
  Proof.
    revert f g. induction L as [|[p q] L IH]; intros f g H x; cbn [ek]; [apply H|].
    f_equal; apply app1_ext; intros y; apply IH; intros z; now apply app1_ext.
  Qed.
  Lemma ek_add L (f g : amps) x : ek L (fun e => f e + g e) x = ek L f x + ek L g x.
  Proof.
    revert f g x. induction L as [|[p q] L IH]; intros f g x; cbn [ek]; [reflexivity|].
    assert (forall b, app1 (so p b, true) (ek L (app1 (so q b, false) (fun e => f e + g e))) x
             = app1 (so p b, true) (ek L (app1 (so q b, false) f)) x + app1 (so p b, true) (ek L (app1 (so q b, false) g)) x) as H.
    { intros b. rewrite <- app1_add. apply app1_ext. intros y. rewrite <- IH. apply ek_ext. intros z. apply app1_add. }
    rewrite !H. ring.
  Qed.
  Lemma ek_scale L c (f : amps) x : ek L (fun e => c * f e) x = c * ek L f x.
  Proof.
    revert f x. induction L as [|[p q] L IH]; intros f x; cbn [ek]; [reflexivity|].
    assert (forall b, app1 (so p b, true) (ek L (app1 (so q b, false) (fun e => c * f e))) x
             = c * app1 (so p b, true) (ek L (app1 (so q b, false) f)) x) as H.
    { intros b. rewrite <- app1_scale. apply app1_ext. intros y. rewrite <- IH. apply ek_ext. intros z. apply app1_scale. }
    rewrite !H. ring.
  Qed.
  Lemma ek_zero L (f : amps) : (forall x, f x = 0) -> forall x, ek L f x = 0.
  Proof.
    intros H x. rewrite (ek_ext L f (fun e => 0 * f e)) by (intros; rewrite H; ring). rewrite ek_scale. ring.
  Qed.

  Lemma ek_one p q (f : amps) x : ek [(p, q)] f x = Eact p q f x.
  Proof. reflexivity. Qed.
  Lemma ek_two p q r s (f : amps) x : ek [(p, q); (r, s)] f x = eact p q r s f x.
  Proof.
    cbn [ek]. unfold eact, quadop, so.
    rewrite !app1_add. ring.
  Qed.

  (** Exchanging two neighbouring pairs. *)
  Lemma ek_swap a b L (f : amps) x : ek (a :: b :: L) f x = ek (b :: a :: L) f x.
  Proof.
    destruct a as [p q], b as [r s]. cbn [ek].
    assert (forall c d, app1 (so p c, true) (app1 (so r d, true) (ek L (app1 (so s d, false) (app1 (so q c, false) f)))) x
        = app1 (so r d, true) (app1 (so p c, true) (ek L (app1 (so q c, false) (app1 (so s d, false) f)))) x) as H.
    { intros c d. rewrite car_gen. unfold cdelta. cbn [fst snd xorb]. rewrite andb_false_r.
      rewrite (app1_ext (so r d, true) _ (fun e => (- (1)) * app1 (so p c, true) (ek L (app1 (so q c, false) (app1 (so s d, false) f))) e)).
      - rewrite app1_scale. ring.
      - intros y. rewrite (app1_ext (so p c, true) _ (fun e => (- (1)) * ek L (app1 (so q c, false) (app1 (so s d, false) f)) e)).
        + apply app1_scale.
        + intros z. rewrite <- ek_scale. apply ek_ext. intros w. rewrite car_gen. unfold cdelta. cbn [fst snd xorb].
          rewrite andb_false_r. ring. }
    rewrite !app1_add, !H. ring.
  Qed.

  Lemma ek_cons_ext a L L' (f : amps) : (forall g y, ek L g y = ek L' g y) -> forall x, ek (a :: L) f x = ek (a :: L') f x.
  Proof. intros H x. destruct a as [p q]. cbn [ek]. f_equal; apply app1_ext; intros y; apply H. Qed.

  Lemma ek_perm L L' (f : amps) x : Permutation L L' -> ek L f x = ek L' f x.
  Proof.
    intros P. revert f x. induction P as [|a L L' P IH|a b L|L M N P1 IH1 P2 IH2]; intros f x.
    - reflexivity.
    - apply ek_cons_ext. exact IH.
    - apply ek_swap.
    - now rewrite IH1.
  Qed.

  Definition swp (pq : nat * nat) : nat * nat := (snd pq, fst pq).

  (** Adjoint: every pair is reversed. *)
  Lemma ip_ek n L (u w : amps) : (forall pq, In pq L -> (fst pq < n)%nat /\ (snd pq < n)%nat) ->
    ip (2 * n) u (ek L w) = ip (2 * n) (ek (map swp L) u) w.
  Proof.
    revert u w. induction L as [|[p q] L IH]; intros u w H; [reflexivity|].
    destruct (H (p, q) (or_introl eq_refl)) as [Hp Hq]. cbn [fst snd] in *.
    cbn [map]. change (swp (p, q)) with (q, p). cbn [ek].
    rewrite ip_add, (ip_sym _ _ w), ip_add.
    assert (forall b, ip (2 * n) u (app1 (so p b, true) (ek L (app1 (so q b, false) w)))
                    = ip (2 * n) w (app1 (so q b, true) (ek (map swp L) (app1 (so p b, false) u)))) as E.
    { intros b. assert (forall p, (p < n)%nat -> (so p b < 2 * n)%nat) as Hso by (intros k Hk; unfold so; destruct b; lia).
      rewrite ip_app1 by auto. rewrite IH by (intros; apply H; now right).
      rewrite ip_app1 by auto. cbn [negb]. apply ip_sym. }
    now rewrite !E.
  Qed.

  (** Moving an annihilation operator to the right through an excitation operator. *)
  Lemma kdelta_so a b s t : kdelta (K:=K) (so a s) (so b t) = if Bool.eqb s t then kdelta a b else 0.
  Proof.
    destruct s, t; cbn [so Bool.eqb]; first [apply kdelta_double|apply kdelta_double1|apply kdelta_01|apply kdelta_10].
  Qed.


  (** [E_pq e_L = e_{pq,L} + sum_i delta_{q, p_i} e_{L with p_i replaced by p}]. *)
  Lemma app1_ek_anni q b L (f : amps) x :
    app1 (so q b, false) (ek L f) x
    = ek L (app1 (so q b, false) f) x
      + lsum (seq 0 (length L)) (fun i =>
          kdelta q (fst (nth i L (0, 0)%nat)) *
          ek (firstn i L ++ skipn (S i) L) (app1 (so (snd (nth i L (0, 0)%nat)) b, false) f) x).
  Proof.
    revert f x. induction L as [|[r s] L IH]; intros f x.
    - cbn. ring.
    - cbn [length seq]. rewrite lsum_cons, <- seq_shift, lsum_map. cbn [nth fst snd firstn skipn app ek].
      rewrite app1_add.
      assert (forall c, app1 (so q b, false) (app1 (so r c, true) (ek L (app1 (so s c, false) f))) x
        = (if Bool.eqb b c then kdelta q r * ek L (app1 (so s c, false) f) x else 0)
          + app1 (so r c, true) (ek L (app1 (so s c, false) (app1 (so q b, false) f))) x
          + lsum (seq 0 (length L)) (fun i => kdelta q (fst (nth i L (0, 0)%nat)) *
              app1 (so r c, true) (ek (firstn i L ++ skipn (S i) L) (app1 (so s c, false) (app1 (so (snd (nth i L (0, 0)%nat)) b, false) f))) x)) as H.
      { intros c. rewrite car_gen.
        replace (cdelta (so q b, false) (so r c, true)) with (kdelta (K:=K) (so q b) (so r c))
          by (unfold cdelta, kdelta; cbn [fst snd xorb]; now rewrite andb_true_r).
        rewrite kdelta_so.
        rewrite (app1_ext (so r c, true) _ (fun y => (- (1)) * (ek L (app1 (so s c, false) (app1 (so q b, false) f)) y
           + lsum (seq 0 (length L)) (fun i => kdelta q (fst (nth i L (0, 0)%nat)) *
               ek (firstn i L ++ skipn (S i) L) (app1 (so s c, false) (app1 (so (snd (nth i L (0, 0)%nat)) b, false) f)) y)))).
        - rewrite (app1_scale (so r c, true)), app1_add.
          rewrite (app1_lsum (so r c, true) (seq 0 (length L))).
          replace (lsum (seq 0 (length L)) (fun i => app1 (so r c, true) (fun e => kdelta q (fst (nth i L (0, 0)%nat)) *
               ek (firstn i L ++ skipn (S i) L) (app1 (so s c, false) (app1 (so (snd (nth i L (0, 0)%nat)) b, false) f)) e) x))
            with (lsum (seq 0 (length L)) (fun i => kdelta q (fst (nth i L (0, 0)%nat)) *
              app1 (so r c, true) (ek (firstn i L ++ skipn (S i) L) (app1 (so s c, false) (app1 (so (snd (nth i L (0, 0)%nat)) b, false) f))) x))
            by (apply lsum_ext; intros i _; now rewrite app1_scale).
          destruct (Bool.eqb b c); ring.
        - intros y. rewrite IH.
          rewrite (ek_ext L (app1 (so q b, false) (app1 (so s c, false) f)) (fun e => (- (1)) * app1 (so s c, false) (app1 (so q b, false) f) e))
            by (intros z; rewrite car_gen; unfold cdelta; cbn [fst snd xorb]; rewrite andb_false_r; ring).
          rewrite ek_scale.
          rewrite (lsum_ext _ _ (fun i => (- (1)) * (kdelta q (fst (nth i L (0, 0)%nat)) *
            ek (firstn i L ++ skipn (S i) L) (app1 (so s c, false) (app1 (so (snd (nth i L (0, 0)%nat)) b, false) f)) y))).
          + rewrite lsum_scale. ring.
          + intros i _.
            rewrite (ek_ext _ (app1 (so (snd (nth i L (0, 0)%nat)) b, false) (app1 (so s c, false) f))
               (fun e => (- (1)) * app1 (so s c, false) (app1 (so (snd (nth i L (0, 0)%nat)) b, false) f) e))
            by (intros z; rewrite car_gen; unfold cdelta; cbn [fst snd xorb]; rewrite andb_false_r; ring).
            rewrite ek_scale. ring. }
      rewrite !H.
      rewrite (lsum_ext (seq 0 (length L)) (fun i => kdelta q (fst (nth i L (0, 0)%nat)) *
         (app1 (so r false, true) (ek (firstn i L ++ skipn (S i) L) (app1 (so s false, false) (app1 (so (snd (nth i L (0, 0)%nat)) b, false) f))) x
          + app1 (so r true, true) (ek (firstn i L ++ skipn (S i) L) (app1 (so s true, false) (app1 (so (snd (nth i L (0, 0)%nat)) b, false) f))) x))
         (fun i => kdelta q (fst (nth i L (0, 0)%nat)) * app1 (so r false, true) (ek (firstn i L ++ skipn (S i) L) (app1 (so s false, false) (app1 (so (snd (nth i L (0, 0)%nat)) b, false) f))) x
          + kdelta q (fst (nth i L (0, 0)%nat)) * app1 (so r true, true) (ek (firstn i L ++ skipn (S i) L) (app1 (so s true, false) (app1 (so (snd (nth i L (0, 0)%nat)) b, false) f))) x))
        by (intros i _; ring).
      rewrite lsum_add. destruct b; cbn [Bool.eqb]; ring.
  Qed.

  Lemma Eact_ek p q L (f : amps) x :
    Eact p q (ek L f) x
    = ek ((p, q) :: L) f x
      + lsum (seq 0 (length L)) (fun i =>
          kdelta q (fst (nth i L (0, 0)%nat)) *
          ek ((p, snd (nth i L (0, 0)%nat)) :: firstn i L ++ skipn (S i) L) f x).
  Proof.
    unfold Eact. change (2 * p + 1)%nat with (so p true). change (2 * q + 1)%nat with (so q true).
    change (2 * p)%nat with (so p false). change (2 * q)%nat with (so q false). unfold pairop.
    assert (forall b, app1 (so p b, true) (app1 (so q b, false) (ek L f)) x
      = app1 (so p b, true) (ek L (app1 (so q b, false) f)) x
        + lsum (seq 0 (length L)) (fun i => kdelta q (fst (nth i L (0, 0)%nat)) *
           app1 (so p b, true) (ek (firstn i L ++ skipn (S i) L) (app1 (so (snd (nth i L (0, 0)%nat)) b, false) f)) x)) as H.
    { intros b. erewrite app1_ext by (intros y; apply app1_ek_anni).
      rewrite app1_add, (app1_lsum (so p b, true) (seq 0 (length L))). f_equal. apply lsum_ext. intros i _. apply app1_scale. }
    rewrite !H. cbn [ek].
    rewrite (lsum_ext (seq 0 (length L)) (fun i => kdelta q (fst (nth i L (0, 0)%nat)) *
       (app1 (so p false, true) (ek (firstn i L ++ skipn (S i) L) (app1 (so (snd (nth i L (0, 0)%nat)) false, false) f)) x
       + app1 (so p true, true) (ek (firstn i L ++ skipn (S i) L) (app1 (so (snd (nth i L (0, 0)%nat)) true, false) f)) x))
      (fun i => kdelta q (fst (nth i L (0, 0)%nat)) * app1 (so p false, true) (ek (firstn i L ++ skipn (S i) L) (app1 (so (snd (nth i L (0, 0)%nat)) false, false) f)) x
       + kdelta q (fst (nth i L (0, 0)%nat)) * app1 (so p true, true) (ek (firstn i L ++ skipn (S i) L) (app1 (so (snd (nth i L (0, 0)%nat)) true, false) f)) x))
      by (intros i _; ring).
    rewrite lsum_add. ring.
  Qed.
End Inner.
