(** Correctness of get_folded_operator. *)
From Coq Require Import List Bool Arith NArith ZArith Lia Ring Sorted Permutation.
From Verif Require Import Base Fock FermiModel FermiProofs FermiAlgebra FermiUnique.
Import ListNotations.

(** The full-space determinant of an active-space one: inactive spin orbitals
    filled, virtual ones empty. *)
Definition embed (ni : nat) (d : det) : det :=
  N.lor (N.ones (N.of_nat (2 * ni))) (N.shiftl d (N.of_nat (2 * ni))).

Lemma occ_embed ni d p : occ (embed ni d) p = if Nat.ltb p (2 * ni) then true else occ d (p - 2 * ni).
Proof.
  unfold occ, embed. rewrite N.lor_spec.
  destruct (Nat.ltb_spec p (2 * ni)) as [H|H].
  - rewrite N.ones_spec_low by lia. reflexivity.
  - rewrite N.ones_spec_high by lia. rewrite N.shiftl_spec_high' by lia. simpl.
    f_equal. lia.
Qed.

Lemma embed_inj ni x y : embed ni x = embed ni y -> x = y.
Proof.
  intros E. apply det_ext. intros p. pose proof (occ_embed ni x (p + 2 * ni)) as H1.
  pose proof (occ_embed ni y (p + 2 * ni)) as H2. rewrite E in H1. rewrite H1 in H2.
  destruct (Nat.ltb_spec (p + 2 * ni) (2 * ni)); [lia|].
  replace (p + 2 * ni - 2 * ni) with p in H2 by lia. exact H2.
Qed.

Lemma flip_embed ni d p : flip (embed ni d) (p + 2 * ni) = embed ni (flip d p).
Proof.
  apply det_ext. intros q. rewrite occ_embed. destruct (Nat.eq_dec q (p + 2 * ni)) as [->|Hne].
  - rewrite occ_flip_same, occ_embed. destruct (Nat.ltb_spec (p + 2 * ni) (2 * ni)); [lia|].
    replace (p + 2 * ni - 2 * ni) with p by lia. now rewrite occ_flip_same.
  - rewrite occ_flip_other by auto. rewrite occ_embed. destruct (Nat.ltb_spec q (2 * ni)); auto.
    rewrite occ_flip_other by lia. reflexivity.
Qed.

Lemma below_all d n : (forall p, p < n -> occ d p = true) -> below d n = Nat.odd n.
Proof.
  induction n as [|n IH]; intros H; [reflexivity|]. cbn [below]. rewrite IH by (intros; apply H; lia).
  rewrite H by lia. rewrite Nat.odd_succ, <- Nat.negb_odd. now destruct (Nat.odd n).
Qed.

Lemma below_embed ni d p : below (embed ni d) (p + 2 * ni) = below d p.
Proof.
  induction p as [|p IH].
  - change (0 + 2 * ni) with (2 * ni). rewrite below_all; [|intros p Hp; rewrite occ_embed; destruct (Nat.ltb_spec p (2 * ni)); auto; lia].
    rewrite Nat.odd_mul. reflexivity.
  - change (S p + 2 * ni) with (S (p + 2 * ni)). cbn [below]. rewrite IH. f_equal.
    rewrite occ_embed. destruct (Nat.ltb_spec (p + 2 * ni) (2 * ni)); [lia|]. f_equal. lia.
Qed.

Definition shift (n : nat) (s : fstring) : fstring := map (fun o => (fst o + n, snd o)) s.

(** The five lists computed by [fold_classify]. *)
Definition isI ni (p : nat) : bool := Nat.ltb p (2 * ni).
Definition isA ni na (p : nat) : bool := negb (Nat.ltb p (2 * ni)) && Nat.ltb p (2 * ni + 2 * na).
Definition isV ni na nv (p : nat) : bool :=
  negb (Nat.ltb p (2 * ni + 2 * na)) && Nat.ltb p (2 * ni + 2 * na + 2 * nv).

Lemma fold_classify_app ni na nv s t :
  fold_classify ni na nv (s ++ t) =
  let '(a1, b1, c1, d1, v1) := fold_classify ni na nv s in
  let '(a2, b2, c2, d2, v2) := fold_classify ni na nv t in
  (a1 ++ a2, b1 ++ b2, c1 ++ c2, d1 ++ d2, v1 || v2).
Proof.
  induction s as [|[p dg] s IH]; cbn [app fold_classify].
  - now destruct (fold_classify ni na nv t) as [[[[? ?] ?] ?] ?].
  - rewrite IH. destruct (fold_classify ni na nv s) as [[[[a1 b1] c1] d1] v1].
    destruct (fold_classify ni na nv t) as [[[[a2 b2] c2] d2] v2].
    destruct dg; repeat (match goal with |- context [if ?b then _ else _] => destruct b end); reflexivity.
Qed.

Lemma fold_classify_creators ni na nv cs :
  fold_classify ni na nv (creators cs) =
  (filter (isI ni) cs, [], creators (map (fun p => p - 2 * ni) (filter (isA ni na) cs)), [],
   existsb (isV ni na nv) cs).
Proof.
  induction cs as [|p cs IH]; [reflexivity|]. cbn [creators map fold_classify]. fold (creators cs). rewrite IH.
  cbn [filter existsb].
  change (isI ni p) with (Nat.ltb p (2 * ni)).
  change (isA ni na p) with (negb (Nat.ltb p (2 * ni)) && Nat.ltb p (2 * ni + 2 * na)).
  change (isV ni na nv p) with (negb (Nat.ltb p (2 * ni + 2 * na)) && Nat.ltb p (2 * ni + 2 * na + 2 * nv)).
  destruct (Nat.ltb_spec p (2 * ni)); destruct (Nat.ltb_spec p (2 * ni + 2 * na));
    destruct (Nat.ltb_spec p (2 * ni + 2 * na + 2 * nv)); try lia; reflexivity.
Qed.

Lemma fold_classify_annihilators ni na nv qs :
  fold_classify ni na nv (annihilators qs) =
  ([], filter (isI ni) qs, [], annihilators (map (fun p => p - 2 * ni) (filter (isA ni na) qs)),
   existsb (isV ni na nv) qs).
Proof.
  induction qs as [|p qs IH]; [reflexivity|]. cbn [annihilators map fold_classify]. fold (annihilators qs). rewrite IH.
  cbn [filter existsb].
  change (isI ni p) with (Nat.ltb p (2 * ni)).
  change (isA ni na p) with (negb (Nat.ltb p (2 * ni)) && Nat.ltb p (2 * ni + 2 * na)).
  change (isV ni na nv p) with (negb (Nat.ltb p (2 * ni + 2 * na)) && Nat.ltb p (2 * ni + 2 * na + 2 * nv)).
  destruct (Nat.ltb_spec p (2 * ni)); destruct (Nat.ltb_spec p (2 * ni + 2 * na));
    destruct (Nat.ltb_spec p (2 * ni + 2 * na + 2 * nv)); try lia; reflexivity.
Qed.

Lemma natlist_eqb_spec a b : natlist_eqb a b = true <-> a = b.
Proof.
  revert b; induction a as [|x a IH]; intros [|y b]; simpl; try (split; congruence).
  rewrite andb_true_iff, Nat.eqb_eq, IH. split; [intros [-> ->]; auto|intros E; inversion E; auto].
Qed.

Lemma filter_sorted f l : StronglySorted gt l -> StronglySorted gt (filter f l).
Proof.
  induction 1 as [|x l Hs IH Hall]; simpl; [constructor|]. destruct (f x); auto. constructor; auto.
  rewrite Forall_forall in *. intros y Hy. apply filter_In in Hy. apply Hall; tauto.
Qed.

Lemma sorted_split n l : StronglySorted gt l ->
  l = filter (fun p => negb (Nat.ltb p n)) l ++ filter (fun p => Nat.ltb p n) l.
Proof.
  induction 1 as [|x l Hs IH Hall]; [reflexivity|]. cbn [filter].
  destruct (Nat.ltb_spec x n) as [Hx|Hx]; cbn [negb].
  - assert (filter (fun p => negb (p <? n)) l = []) as ->.
    { rewrite Forall_forall in Hall. clear -Hall Hx. induction l as [|y l IH]; auto. simpl.
      destruct (Nat.ltb_spec y n); [apply IH; intros; apply Hall; now right|].
      specialize (Hall y (or_introl eq_refl)). lia. }
    simpl. f_equal. 
    assert (E : filter (fun p => negb (p <? n)) l = []).
    { rewrite Forall_forall in Hall. clear -Hall Hx. induction l as [|y l IH]; auto. simpl.
      destruct (Nat.ltb_spec y n); [apply IH; intros; apply Hall; now right|].
      specialize (Hall y (or_introl eq_refl)). lia. }
    rewrite E in IH. exact IH.
  - simpl. f_equal. exact IH.
Qed.

Section Fold.
  Context {K : Type} {C : CRing K}.
  Local Open Scope K_scope.
  Add Ring Kring5 : (@rth K C).
  Notation dict := (list (fstring * K)).

  (** Anticommutation of blocks. *)
  Definition anti (a b : fop) : Prop := fst a <> fst b \/ snd a = snd b.

  Lemma appstr_move (pre t post : fstring) (a : fop) (f : amps) d :
    Forall (anti a) t ->
    appstr (pre ++ t ++ a :: post) f d =
    sgn (Nat.odd (length t)) (appstr (K:=K) (pre ++ a :: t ++ post) f d).
  Proof.
    intros Ht. revert pre. induction Ht as [|b t Hb Ht IH]; intros pre; [reflexivity|].
    cbn [length app]. rewrite Nat.odd_succ, <- Nat.negb_odd, sgn_negb.
    replace (pre ++ b :: t ++ a :: post) with ((pre ++ [b]) ++ t ++ a :: post)
      by (rewrite <- app_assoc; reflexivity).
    rewrite IH. rewrite <- app_assoc. cbn [app].
    rewrite (appstr_swap pre b a) by (destruct Hb; auto).
    now rewrite sgn_opp.
  Qed.

  Lemma appstr_move_block (pre t u post : fstring) (f : amps) d :
    Forall (fun a => Forall (anti a) t) u ->
    appstr (pre ++ t ++ u ++ post) f d =
    sgn (Nat.odd (length t) && Nat.odd (length u)) (appstr (K:=K) (pre ++ u ++ t ++ post) f d).
  Proof.
    intros Hu. revert pre. induction Hu as [|a u Ha Hu IH]; intros pre.
    - cbn [length app]. now rewrite andb_false_r.
    - cbn [app]. rewrite appstr_move by auto.
      replace (pre ++ a :: t ++ u ++ post) with ((pre ++ [a]) ++ t ++ u ++ post)
        by (rewrite <- app_assoc; reflexivity).
      rewrite IH, sgn_sgn. rewrite <- app_assoc. cbn [app length].
      rewrite Nat.odd_succ, <- Nat.negb_odd. f_equal.
      now destruct (Nat.odd (length t)), (Nat.odd (length u)).
  Qed.

  Lemma appstr_number p (f : amps) d :
    appstr (K:=K) [(p, true); (p, false)] f d = if occ d p then f d else 0.
  Proof.
    simpl. unfold app1. cbn [fst snd]. destruct (occ d p) eqn:E; simpl; auto.
    rewrite occ_flip_same, E. simpl. rewrite flip_flip, below_flip_ge by lia.
    rewrite sgn_sgn, xorb_nilpotent. reflexivity.
  Qed.

  Lemma creators_length l : length (creators l) = length l.
  Proof. apply map_length. Qed.
  Lemma annihilators_length l : length (annihilators l) = length l.
  Proof. apply map_length. Qed.

  (** A block C_L Q_L is plus or minus a product of number operators. *)
  Lemma appstr_numbers l (f : amps) d : NoDup l ->
    appstr (K:=K) (creators l ++ annihilators l) f d =
    if forallb (occ d) l then sgn (ket_flip (length l)) (f d) else 0.
  Proof.
    intros Hn. induction Hn as [|p l Hp Hn IH]; [reflexivity|].
    cbn [creators annihilators map]. fold (creators l) (annihilators l).
    change (((p, true) :: creators l) ++ (p, false) :: annihilators l)
      with ([(p, true)] ++ creators l ++ (p, false) :: annihilators l).
    rewrite appstr_move.
    2: { apply Forall_forall. intros o Ho. unfold creators in Ho. apply in_map_iff in Ho.
         destruct Ho as (q & <- & Hq). left. simpl. intros ->. contradiction. }
    change ([(p, true)] ++ (p, false) :: creators l ++ annihilators l)
      with ([(p, true); (p, false)] ++ (creators l ++ annihilators l)).
    rewrite appstr_app, appstr_number. cbn [forallb length ket_flip].
    rewrite creators_length.
    destruct (occ d p); [|now rewrite sgn_0].
    rewrite IH. cbn [andb]. destruct (forallb (occ d) l); [|now rewrite sgn_0].
    rewrite sgn_sgn. rewrite Nat.even_succ. reflexivity.
  Qed.

  Lemma appstr_shift ni k (F : amps) x :
    appstr (K:=K) (shift (2 * ni) k) F (embed ni x) = appstr k (fun e => F (embed ni e)) x.
  Proof.
    revert x. induction k as [|[p b] k IH]; intros x; [reflexivity|].
    cbn [shift map appstr]. fold (shift (2 * ni) k). unfold app1. cbn [fst snd].
    rewrite below_embed, flip_embed, IH, occ_embed.
    destruct (Nat.ltb_spec (p + 2 * ni) (2 * ni)); [lia|].
    replace (p + 2 * ni - 2 * ni)%nat with p by lia. reflexivity.
  Qed.

  Lemma shift_unshift_c ni na l :
    shift (2 * ni) (creators (map (fun p => p - 2 * ni)%nat (filter (isA ni na) l))) =
    creators (filter (isA ni na) l).
  Proof.
    unfold shift, creators. rewrite !map_map. cbn [fst snd].
    apply map_ext_in. intros p Hp. apply filter_In in Hp. destruct Hp as [_ Hp].
    unfold isA in Hp. destruct (Nat.ltb_spec p (2 * ni)); [discriminate|]. f_equal. lia.
  Qed.
  Lemma shift_unshift_a ni na l :
    shift (2 * ni) (annihilators (map (fun p => p - 2 * ni)%nat (filter (isA ni na) l))) =
    annihilators (filter (isA ni na) l).
  Proof.
    unfold shift, annihilators. rewrite !map_map. cbn [fst snd].
    apply map_ext_in. intros p Hp. apply filter_In in Hp. destruct Hp as [_ Hp].
    unfold isA in Hp. destruct (Nat.ltb_spec p (2 * ni)); [discriminate|]. f_equal. lia.
  Qed.

  Definition inrange (n : nat) (s : fstring) : Prop := forall o, In o s -> fst o < n.

  (** Active determinants live on 2*na spin orbitals. *)
  Definition within (n : nat) (d : det) : Prop := forall p, (n <= p)%nat -> occ d p = false.

  (** The sign rule of the code is exact for number-conserving strings. *)
  Definition balanced (s : fstring) : Prop :=
    length (filter (fun o : fop => snd o) s) = length (filter (fun o : fop => negb (snd o)) s).

  Lemma filter_creators_t l : filter (fun o : fop => snd o) (creators l) = creators l.
  Proof. induction l; simpl; congruence. Qed.
  Lemma filter_creators_f l : filter (fun o : fop => negb (snd o)) (creators l) = [].
  Proof. induction l; simpl; congruence. Qed.
  Lemma filter_annihilators_t l : filter (fun o : fop => snd o) (annihilators l) = [].
  Proof. induction l; simpl; congruence. Qed.
  Lemma filter_annihilators_f l : filter (fun o : fop => negb (snd o)) (annihilators l) = annihilators l.
  Proof. induction l; simpl; congruence. Qed.

  Lemma balanced_lengths cs qs : balanced (creators cs ++ annihilators qs) -> length cs = length qs.
  Proof.
    unfold balanced. rewrite !filter_app, filter_creators_t, filter_creators_f,
      filter_annihilators_t, filter_annihilators_f, app_nil_r. simpl.
    now rewrite creators_length, annihilators_length.
  Qed.

  Lemma existsb_virtual ni na nv l : (forall p, In p l -> (p < 2 * ni + 2 * na + 2 * nv)%nat) ->
    existsb (isV ni na nv) l = false ->
    StronglySorted gt l ->
    l = filter (isA ni na) l ++ filter (isI ni) l.
  Proof.
    intros Hr Hv Hs. rewrite (sorted_split (2 * ni) l Hs) at 1. f_equal.
    apply filter_ext_in. intros p Hp. unfold isA.
    assert (Hlt : (p <? 2 * ni + 2 * na) = true).
    { destruct (Nat.ltb_spec p (2 * ni + 2 * na)); auto. exfalso.
      assert (existsb (isV ni na nv) l = true); [|congruence].
      apply existsb_exists. exists p. split; auto. unfold isV.
      destruct (Nat.ltb_spec p (2 * ni + 2 * na)); [lia|].
      specialize (Hr p Hp). destruct (Nat.ltb_spec p (2 * ni + 2 * na + 2 * nv)); auto; lia. }
    rewrite Hlt. now rewrite andb_true_r.
  Qed.

  Lemma fold_key_spec ni na nv s x y : normal s -> balanced s ->
    inrange (2 * ni + 2 * na + 2 * nv) s -> within (2 * na) x -> within (2 * na) y ->
    melstr (K:=K) s (embed ni x) (embed ni y) =
    match fold_key ni na nv s with
    | Some (k, sg) => sgn sg (melstr k x y)
    | None => 0
    end.
  Proof.
    intros (cs & qs & -> & Hcs & Hqs) Hbal Hr Hx Hy.
    pose proof (sorted_gt_nodup _ Hcs) as Ncs. pose proof (sorted_gt_nodup _ Hqs) as Nqs.
    unfold fold_key. rewrite fold_classify_app, fold_classify_creators, fold_classify_annihilators.
    rewrite !app_nil_r. cbn [app].
    assert (Hrc : forall p, In p cs -> (p < 2 * ni + 2 * na + 2 * nv)%nat).
    { intros p Hp. apply (Hr (p, true)). apply in_or_app. left. unfold creators. apply in_map_iff. eauto. }
    assert (Hrq : forall p, In p qs -> (p < 2 * ni + 2 * na + 2 * nv)%nat).
    { intros p Hp. apply (Hr (p, false)). apply in_or_app. right. unfold annihilators. apply in_map_iff. eauto. }
    (* necessary conditions for a nonzero matrix element *)
    assert (Hnec : melstr (K:=K) (creators cs ++ annihilators qs) (embed ni x) (embed ni y) = 0 \/
       ((forall p, In p qs -> occ (embed ni y) p = true) /\
        (forall p, In p cs -> occ (embed ni x) p = true) /\
        (forall p, occ (embed ni x) p = (occ (embed ni y) p && negb (mem p qs)) || mem p cs) /\
        (forall p, In p cs -> occ (embed ni y) p && negb (mem p qs) = false))).
    { rewrite melstr_actdet, actdet_app.
      destruct (actdet (annihilators qs) (embed ni y)) as [[sg1 e1]|] eqn:E1; auto.
      destruct (actdet (creators cs) e1) as [[sg2 e2]|] eqn:E2; auto.
      destruct (ann_act _ _ _ _ Nqs E1) as [A1 A2]. destruct (cre_act _ _ _ _ Ncs E2) as [B1 B2].
      destruct (N.eqb_spec e2 (embed ni x)) as [->|]; auto. right. repeat split; auto.
      - intros p Hp. rewrite B2. apply mem_In in Hp. rewrite Hp. apply orb_true_r.
      - intros p. now rewrite B2, A2.
      - intros p Hp. rewrite <- A2. auto. }
    assert (Hvirt : forall z p, within (2 * na) z -> isV ni na nv p = true -> occ (embed ni z) p = false).
    { intros z p Hz Hp. rewrite occ_embed. unfold isV in Hp.
      destruct (Nat.ltb_spec p (2 * ni + 2 * na)); [discriminate|].
      destruct (Nat.ltb_spec p (2 * ni)); [lia|]. apply Hz. lia. }
    destruct (existsb (isV ni na nv) cs) eqn:Ev.
    { simpl. apply existsb_exists in Ev. destruct Ev as (p & Hp & Hv).
      destruct Hnec as [|(_ & H & _)]; auto. specialize (H p Hp). rewrite Hvirt in H by auto. discriminate. }
    destruct (existsb (isV ni na nv) qs) eqn:Ev'.
    { simpl. apply existsb_exists in Ev'. destruct Ev' as (p & Hp & Hv).
      destruct Hnec as [|(H & _)]; auto. specialize (H p Hp). rewrite Hvirt in H by auto. discriminate. }
    cbn [orb].
    pose proof (existsb_virtual ni na nv cs Hrc Ev Hcs) as Ecs.
    pose proof (existsb_virtual ni na nv qs Hrq Ev' Hqs) as Eqs.
    set (cA := filter (isA ni na) cs) in *. set (cI := filter (isI ni) cs) in *.
    set (qA := filter (isA ni na) qs) in *. set (qI := filter (isI ni) qs) in *.
    destruct (natlist_eqb cI qI) eqn:Ei; cbn [negb].
    2: { destruct Hnec as [|(H1 & H2 & H3 & H4)]; auto. exfalso.
         assert (cI = qI); [|apply natlist_eqb_spec in H; congruence].
         apply sorted_gt_ext; [now apply filter_sorted|now apply filter_sorted|].
         intros p. unfold cI, qI. rewrite !filter_In. split; intros [Hp Hi]; split; auto.
         - specialize (H4 p Hp). rewrite occ_embed in H4. unfold isI in Hi. rewrite Hi in H4.
           apply mem_In. destruct (mem p qs); auto.
         - specialize (H3 p). rewrite !occ_embed in H3. unfold isI in Hi. rewrite Hi in H3.
           apply mem_In in Hp. rewrite Hp in H3. simpl in H3. now apply mem_In. }
    apply natlist_eqb_spec in Ei. fold cA qA.
    (* sign computation *)
    unfold melstr. rewrite Ecs at 1. rewrite Eqs at 1.
    unfold creators at 1, annihilators at 1. rewrite !map_app.
    fold (creators cA) (creators cI) (annihilators qA) (annihilators qI).
    rewrite <- app_assoc.
    rewrite (appstr_move_block (creators cA) (creators cI) (annihilators qA) (annihilators qI)).
    2: { apply Forall_forall. intros a Ha. apply Forall_forall. intros b Hb. left.
         unfold annihilators in Ha. apply in_map_iff in Ha. destruct Ha as (p & <- & Hp).
         unfold creators in Hb. apply in_map_iff in Hb. destruct Hb as (q & <- & Hq). simpl.
         unfold qA in Hp. unfold cI in Hq. apply filter_In in Hp, Hq. destruct Hp as [_ Hp], Hq as [_ Hq].
         unfold isA in Hp. unfold isI in Hq.
         destruct (Nat.ltb_spec p (2 * ni)); [discriminate|]. apply Nat.ltb_lt in Hq. lia. }
    rewrite creators_length, annihilators_length.
    rewrite app_assoc. rewrite (appstr_app (creators cA ++ annihilators qA)).
    assert (NI : NoDup cI) by (apply NoDup_filter; auto).
    rewrite <- Ei.
    rewrite (appstr_ext _ _ (fun e => sgn (ket_flip (length cI)) (1) * basis (embed ni y) e)).
    2: { intros e. rewrite appstr_numbers by auto. unfold basis.
         destruct (N.eqb_spec (embed ni y) e) as [<-|Hne].
         - assert (forallb (occ (embed ni y)) cI = true) as ->.
           { apply forallb_forall. intros p Hp. unfold cI in Hp. apply filter_In in Hp.
             rewrite occ_embed. unfold isI in Hp. now rewrite (proj2 Hp). }
           destruct (ket_flip (length cI)); simpl; ring.
         - rewrite sgn_0. destruct (forallb _ _); destruct (ket_flip (length cI)); simpl; ring. }
    rewrite appstr_scale.
    assert (Esh : creators cA ++ annihilators qA =
      shift (2 * ni) (creators (map (fun p => p - 2 * ni)%nat cA) ++ annihilators (map (fun p => p - 2 * ni)%nat qA))).
    { unfold shift at 1. rewrite map_app. unfold cA, qA.
      fold (shift (2 * ni) (creators (map (fun p : nat => (p - 2 * ni)%nat) (filter (isA ni na) cs)))).
      fold (shift (2 * ni) (annihilators (map (fun p : nat => (p - 2 * ni)%nat) (filter (isA ni na) qs)))).
      now rewrite shift_unshift_c, shift_unshift_a. }
    rewrite Esh, appstr_shift.
    rewrite (appstr_ext _ (fun e => basis (embed ni y) (embed ni e)) (basis y)).
    2: { intros e. unfold basis. destruct (N.eqb_spec y e) as [->|Hne]; [now rewrite N.eqb_refl|].
         destruct (N.eqb_spec (embed ni y) (embed ni e)) as [E|]; auto. apply embed_inj in E. congruence. }
    assert (Hlen : Nat.odd (length cA) = Nat.odd (length qA)).
    { pose proof (balanced_lengths _ _ Hbal) as Hb. rewrite Ecs, Eqs, !app_length in Hb.
      rewrite Ei in Hb. f_equal. lia. }
    rewrite creators_length, map_length, Hlen.
    set (m := appstr (creators _ ++ annihilators _) (basis y) x).
    destruct (Nat.odd (length cI)), (Nat.odd (length qA)), (ket_flip (length cI)); cbn [andb xorb sgn]; ring.
  Qed.

  Lemma dacc_keep_opapp k c (d : dict) (f : amps) x :
    opapp (dacc_keep k c d) f x = opapp d f x + c * appstr k f x.
  Proof.
    unfold dacc_keep. destruct (dget k d) as [v|] eqn:E.
    - rewrite (dset_opapp _ _ _ _ f x E). ring.
    - rewrite opapp_app. simpl. ring.
  Qed.

  Definition foldable ni na nv (s : fstring) : Prop :=
    normal s /\ balanced s /\ inrange (2 * ni + 2 * na + 2 * nv) s.

  Lemma op_fold_spec ni na nv (A : dict) x y :
    Forall (foldable ni na nv) (dkeys A) -> within (2 * na) x -> within (2 * na) y ->
    mel (op_fold ni na nv A) x y = mel A (embed ni x) (embed ni y).
  Proof.
    intros HA Hx Hy. unfold op_fold.
    assert (H : forall A' D, Forall (foldable ni na nv) (dkeys A') ->
      mel (fold_left (fun d kc => match fold_key ni na nv (fst kc) with
                           | None => d
                           | Some (k, sg) => dacc_keep k (sgn sg (snd kc)) d
                           end) A' D) x y = mel D x y + mel A' (embed ni x) (embed ni y)).
    { induction A' as [|[s c] A' IH]; intros D H.
      - simpl. unfold mel at 3. simpl. ring.
      - cbn [fold_left fst snd]. inversion H as [|? ? (H1 & H2 & H3) H4]; subst. rewrite IH by auto.
        rewrite mel_cons. rewrite (fold_key_spec ni na nv s x y H1 H2 H3 Hx Hy).
        destruct (fold_key ni na nv s) as [[k sg]|].
        + unfold mel at 1. rewrite dacc_keep_opapp. fold (mel D x y). unfold melstr.
          destruct sg; simpl; ring.
        + ring. }
    rewrite H by auto. unfold mel at 1. simpl. ring.
  Qed.
End Fold.
