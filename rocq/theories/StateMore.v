(** Folded keys, matrices, state-averaged kernels and operator lists. *)
From Coq Require Import List Bool Arith NArith ZArith Lia Permutation Sorted Ring.
From Verif Require Import Base Fock FockMore FermiModel FermiProofs FermiUnique FermiAlgebra FermiFold
  OperatorsProofs OperatorsKeys CIModel CIProofs StateModel StateBits StateProofs.
Import ListNotations.

(** ** Keys of a folded operator *)

Lemma chg_annihilators w l : chg w (annihilators l) = (- chg w (creators l))%Z.
Proof.
  unfold annihilators, creators. induction l as [|p l IH]; [reflexivity|]. cbn [map chg]. rewrite IH. lia.
Qed.
Lemma chg_creators_app w l m : chg w (creators (l ++ m)) = (chg w (creators l) + chg w (creators m))%Z.
Proof. unfold creators. now rewrite map_app, chg_app. Qed.

Lemma chg_creators_shift w ni na l : (forall p, w (p + 2 * ni)%nat = w p) ->
  chg w (creators (map (fun p => p - 2 * ni) (filter (isA ni na) l))) = chg w (creators (filter (isA ni na) l)).
Proof.
  intros Hw. induction l as [|p l IH]; [reflexivity|]. cbn [filter]. destruct (isA ni na p) eqn:E; [|exact IH].
  unfold creators in *. cbn [map chg]. rewrite IH. unfold isA in E. destruct (Nat.ltb_spec p (2 * ni)); [discriminate|].
  rewrite <- (Hw (p - 2 * ni)). replace (p - 2 * ni + 2 * ni) with p by lia. reflexivity.
Qed.

Lemma sorted_unshift ni na l : StronglySorted gt l -> StronglySorted gt (map (fun p => p - 2 * ni) (filter (isA ni na) l)).
Proof.
  intros H. apply (filter_sorted (isA ni na)) in H.
  assert (forall p, In p (filter (isA ni na) l) -> 2 * ni <= p) as Hge.
  { intros p Hp. apply filter_In in Hp as [_ Hp]. unfold isA in Hp. destruct (Nat.ltb_spec p (2 * ni)); [discriminate|lia]. }
  induction H as [|x m Hs IH Hall]; cbn [map]; constructor.
  - apply IH. intros p Hp. apply Hge. now right.
  - rewrite Forall_forall in *. intros y Hy. apply in_map_iff in Hy as (z & <- & Hz).
    specialize (Hall z Hz). assert (2 * ni <= z) by (apply Hge; now right). lia.
Qed.

Lemma fold_key_shape ni na nv s k sg : normal s -> (forall o, In o s -> fst o < 2 * ni + 2 * na + 2 * nv) ->
  fold_key ni na nv s = Some (k, sg) ->
  normal k /\ inr na k /\ (forall w, (forall p, w (p + 2 * ni)%nat = w p) -> chg w k = chg w s).
Proof.
  intros (cs & qs & -> & Hcs & Hqs) Hr. unfold fold_key.
  rewrite fold_classify_app, fold_classify_creators, fold_classify_annihilators. rewrite !app_nil_r. cbn [app].
  destruct (existsb (isV ni na nv) cs) eqn:Ev; [discriminate|].
  destruct (existsb (isV ni na nv) qs) eqn:Ev'; [discriminate|]. cbn [orb].
  assert (Hrc : forall p, In p cs -> p < 2 * ni + 2 * na + 2 * nv).
  { intros p Hp. apply (Hr (p, true)). apply in_or_app. left. unfold creators. apply in_map_iff. eauto. }
  assert (Hrq : forall p, In p qs -> p < 2 * ni + 2 * na + 2 * nv).
  { intros p Hp. apply (Hr (p, false)). apply in_or_app. right. unfold annihilators. apply in_map_iff. eauto. }
  destruct (natlist_eqb (filter (isI ni) cs) (filter (isI ni) qs)) eqn:Ei; cbn [negb]; [|discriminate].
  apply natlist_eqb_spec in Ei.
  pose proof (existsb_virtual ni na nv cs Hrc Ev Hcs) as Ecs.
  pose proof (existsb_virtual ni na nv qs Hrq Ev' Hqs) as Eqs.
  intros E. match type of E with Some (?a, _) = _ => assert (k = a) as -> by (now inversion E) end. clear E.
  split; [|split].
  - exists (map (fun p => p - 2 * ni) (filter (isA ni na) cs)), (map (fun p => p - 2 * ni) (filter (isA ni na) qs)).
    split; [reflexivity|]. split; now apply sorted_unshift.
  - assert (forall l p, In p (map (fun p => p - 2 * ni) (filter (isA ni na) l)) -> p < 2 * na) as Hb.
    { intros l p Hp. apply in_map_iff in Hp as (q & <- & Hq). apply filter_In in Hq as [_ Hq]. unfold isA in Hq.
      apply andb_true_iff in Hq as [H1 H2]. apply Nat.ltb_lt in H2. destruct (Nat.ltb_spec q (2 * ni)); [discriminate|]. lia. }
    intros o Ho. apply in_app_iff in Ho as [Ho|Ho]; apply in_map_iff in Ho as (p & <- & Hp); cbn [fst]; eauto.
  - intros w Hw. rewrite !chg_app, !chg_annihilators, !chg_creators_shift by exact Hw.
    rewrite Ecs at 2. rewrite Eqs at 2. rewrite !chg_creators_app, Ei. lia.
Qed.

Section More.
  Context {K : Type} {C : CRing K}.
  Local Open Scope K_scope.
  Add Ring KringSM : (@rth K C).
  Notation dict := (list (fstring * K)).

  Lemma dset_in k (v : K) (d : dict) s c : In (s, c) (dset k v d) -> In s (dkeys d).
  Proof.
    unfold dkeys. induction d as [|[k' c'] d IH]; cbn [dset map In]; [tauto|].
    destruct (key_eqb k k'); cbn [In]; intros [E|E].
    - left. cbn. congruence.
    - right. apply in_map_iff. exists (s, c). auto.
    - left. cbn. congruence.
    - right. now apply IH.
  Qed.

  Lemma op_fold_keys (P Q : fstring -> Prop) ni na nv (A : dict) :
    (forall s k sg, P s -> fold_key ni na nv s = Some (k, sg) -> Q k) ->
    Forall P (dkeys A) -> Forall Q (dkeys (op_fold ni na nv A)).
  Proof.
    intros HPQ HA. unfold op_fold.
    assert (forall A' D, Forall P (dkeys A') -> Forall Q (dkeys D) ->
      Forall Q (dkeys (fold_left (fun d kc => match fold_key ni na nv (fst kc) with
                           | None => d
                           | Some (k, sg) => dacc_keep k (sgn sg (snd kc)) d
                           end) A' D))) as H.
    { induction A' as [|[s c] A' IH]; intros D H1 H2; [exact H2|]. inversion H1 as [|? ? Hs H1']; subst.
      cbn [fold_left fst snd]. apply IH; [exact H1'|]. destruct (fold_key ni na nv s) as [[k sg]|] eqn:E; [|exact H2].
      unfold dacc_keep. destruct (dget k D) as [v|] eqn:G.
      - rewrite Forall_forall in *. intros s' Hs'. unfold dkeys in Hs'. apply in_map_iff in Hs' as ([s1 c1] & <- & Hs').
        apply dset_in in Hs'. now apply H2.
      - unfold dkeys. rewrite map_app. apply Forall_app. split; [exact H2|]. constructor; [|constructor].
        cbn. eapply HPQ; eauto. }
    apply H; [exact HA|constructor].
  Qed.

  (** ** Balanced strings: the serial sign is absent *)

  Lemma rsgn_balanced s : length (create_idx s) = length (anni_idx s) -> rsgn s = false.
  Proof. intros H. unfold rsgn. rewrite H. apply xorb_nilpotent. Qed.

  Lemma signed_balanced (D : dict) :
    (forall s c, In (s, c) D -> length (create_idx s) = length (anni_idx s)) -> signed D = D.
  Proof.
    intros H. unfold signed. rewrite <- (map_id D) at 2. apply map_ext_in. intros [s c] Hi. cbn [fst snd].
    rewrite rsgn_balanced; [reflexivity|]. eauto.
  Qed.

  Lemma chop_id tiny (st : list K) : (forall c, tiny c = true -> c = 0) -> map (chop tiny) st = st.
  Proof.
    intros H. rewrite <- (map_id st) at 2. apply map_ext. intros c. unfold chop.
    destruct (tiny c) eqn:E; [symmetry; now apply H|reflexivity].
  Qed.

  Lemma ketp_zero m ds k x : ketp (K:=K) m (combine ds (repeat 0 k)) x = 0.
  Proof.
    revert k. induction ds as [|d ds IH]; intros [|k]; cbn [repeat combine ketp]; try reflexivity.
    rewrite IH. destruct (N.eqb (todet m d) x); ring.
  Qed.

  (** ** Spaces closed under balanced strings *)

  Lemma get_indexing_wf n na nb ci : (0 < n)%nat -> get_indexing n na nb = Ok ci -> wf_ci n ci.
  Proof.
    intros Hn H. destruct (get_indexing_spec n na nb Hn) as (ci' & H' & (_ & Hnd & Hl) & Hi).
    assert (ci' = ci) as -> by congruence. split; [exact Hnd|]. split; [|exact Hl].
    intros d Hd. rewrite Hi in Hd. apply (in_map_toN n) in Hd; [tauto|].
    intros a b Hab. apply get_indexing_pairs in Hab. tauto.
  Qed.

  Lemma get_indexing_in n na nb ci x : (0 < n)%nat -> get_indexing n na nb = Ok ci ->
    (inspace n ci x <-> (x < 2 ^ N.of_nat (2 * n))%N /\ Z.of_nat (nalpha n x) = na /\ Z.of_nat (nbeta n x) = nb).
  Proof.
    intros Hn H. destruct (get_indexing_spec n na nb Hn) as (ci' & H' & _ & Hi).
    assert (ci' = ci) as -> by congruence.
    assert (forall d, In d (idx2det ci) <-> (d < 2 ^ N.of_nat (2 * n))%N /\
       Z.of_nat (nalpha n (todet (2 * n) d)) = na /\ Z.of_nat (nbeta n (todet (2 * n) d)) = nb) as Hm.
    { intros d. rewrite Hi, (in_map_toN n).
      - rewrite get_indexing_pairs, abits_len, bbits_len, ones_abits, ones_bbits. tauto.
      - intros a b Hab. apply get_indexing_pairs in Hab. tauto. }
    split.
    - intros (d & Hd & <-). split; [apply todet_small|]. now apply Hm in Hd.
    - intros (Hx & Hc). exists (todet (2 * n) x). split; [|now apply todet_invol].
      apply Hm. rewrite todet_invol by exact Hx. split; [apply todet_small|exact Hc].
  Qed.

  Lemma bal_actdet n s x sg y : bal n s -> actdet s x = Some (sg, y) ->
    nalpha n y = nalpha n x /\ nbeta n y = nbeta n x.
  Proof.
    intros [[Ha Hb] Hi] E. pose proof (actdet_wsum alpha_w (2 * n) _ _ _ _ Hi E) as W1.
    pose proof (actdet_wsum beta_w (2 * n) _ _ _ _ Hi E) as W2.
    rewrite !wsum_alpha in W1. rewrite !wsum_beta in W2. lia.
  Qed.

  Lemma bal_adj n s : bal n s -> bal n (adjstr s).
  Proof.
    intros [[Ha Hb] Hi]. split; [split; rewrite chg_adj; lia|]. now apply (inr_adj n s).
  Qed.

  Lemma bal_closed n na nb ci s x sg y : (0 < n)%nat -> get_indexing n na nb = Ok ci -> bal n s ->
    inspace n ci x -> actdet s x = Some (sg, y) -> inspace n ci y.
  Proof.
    intros Hn H Hb Hx E. rewrite (get_indexing_in n na nb) in * by assumption.
    destruct (bal_actdet n s x sg y Hb E) as [-> ->]. destruct Hx as [Hx Hc]. split; [|exact Hc].
    eapply actdet_small; [exact (proj2 Hb)|exact Hx|exact E].
  Qed.

  Lemma bal_no_leave tiny n na nb ci (D : dict) st : (0 < n)%nat -> get_indexing n na nb = Ok ci ->
    (forall s c, In (s, c) D -> bal n s) -> ~ op_leaves tiny n ci D st.
  Proof.
    intros Hn H HD (s & c & Hs & d & c' & sg & y & Hd & _ & E & Hout). apply Hout.
    eapply bal_closed; eauto. exists d. split; [now apply in_combine_l in Hd|reflexivity].
  Qed.
  Lemma bal_no_enter n na nb ci (D : dict) : (0 < n)%nat -> get_indexing n na nb = Ok ci ->
    (forall s c, In (s, c) D -> bal n s) -> ~ op_enters n ci D.
  Proof.
    intros Hn H HD (s & c & x & sg & y & Hs & Hx & E & Hout). apply Hout.
    eapply (bal_closed n na nb ci (adjstr s)); eauto. apply bal_adj. eauto.
  Qed.

  (** ** Operator matrices *)

  Definition entry (M : list (list K)) (r i : nat) : K := nth i (nth r M []) 0.
  Definition square (k : nat) (M : list (list K)) : Prop := length M = k /\ forall row, In row M -> length row = k.

  Lemma add_at_In {A} (f : A -> A) i l x : In x (add_at f i l) -> In x l \/ exists y, In y l /\ x = f y.
  Proof.
    revert i. induction l as [|y l IH]; intros [|i]; cbn [add_at In]; [tauto|tauto| |].
    - intros [<-|H]; eauto.
    - intros [<-|H]; [auto|]. apply IH in H as [H|(z & H1 & H2)]; eauto.
  Qed.

  Lemma entry_add M k r i j c (v : K) : square k M -> (r < k)%nat -> (i < k)%nat ->
    square k (add_at (add_at (fun w => w + v) i) r M) /\
    entry (add_at (add_at (fun w => w + v) i) r M) j c =
    entry M j c + (if Nat.eqb r j && Nat.eqb i c then v else 0).
  Proof.
    intros [H1 H2] Hr Hi. split.
    - split; [now rewrite add_at_length|]. intros row Hrow. apply add_at_In in Hrow as [Hrow|(row' & Hrow & ->)]; auto.
      rewrite add_at_length. auto.
    - unfold entry. rewrite add_at_nth by lia. destruct (Nat.eqb_spec r j) as [->|]; cbn [andb]; [|ring].
      rewrite add_at_nth.
      + destruct (Nat.eqb i c); ring.
      + rewrite H2; [exact Hi|]. apply nth_In. lia.
  Qed.

  Definition mleaves (n : nat) (ci : ci_info) (s : fstring) : Prop :=
    exists x sg y, inspace n ci x /\ actdet s x = Some (sg, y) /\ ~ inspace n ci y.

  Lemma matrix_raise n pc ci u s (f : K) l e : fold_left (matrix_step n pc ci u s f) l (Raise e) = Raise e.
  Proof. induction l as [|x l IH]; [reflexivity|]. exact IH. Qed.

  Lemma actdet_melstr s x y sg z : actdet s y = Some (sg, z) -> melstr (K:=K) s x y = if N.eqb z x then sgn sg 1 else 0.
  Proof. intros H. now rewrite melstr_actdet, H. Qed.

  Lemma nth_todet_eq n ci r j y : wf_ci n ci -> (r < length (idx2det ci))%nat ->
    nth_error (idx2det ci) j = Some (todet (2 * n) y) -> (y < 2 ^ N.of_nat (2 * n))%N ->
    N.eqb y (todet (2 * n) (nth r (idx2det ci) 0%N)) = Nat.eqb j r.
  Proof.
    intros (Hnd & Hb & Hl) Hr Hj Hy. apply eq_true_iff_eq. rewrite N.eqb_eq, Nat.eqb_eq.
    assert (nth_error (idx2det ci) r = Some (nth r (idx2det ci) 0%N)) as Hr' by now apply nth_error_nth'.
    split.
    - intros E. rewrite E, todet_invol in Hj by (apply Hb, nth_In, Hr). apply Hl in Hj, Hr'. congruence.
    - intros ->. rewrite Hr' in Hj. injection Hj as ->. now rewrite todet_invol.
  Qed.

  Lemma matrix_fold n ci u s f l : wf_ci n ci -> normal s -> inr n s -> NoDup l ->
    (forall i, In i l -> (i < length (idx2det ci))%nat) ->
    forall M, square (length (idx2det ci)) M ->
    let ds := idx2det ci in
    ((u = false /\ exists i sg y, In i l /\ actdet s (todet (2 * n) (nth i ds 0%N)) = Some (sg, y) /\ ~ inspace n ci y) ->
       fold_left (matrix_step n (parity_check n) ci u s f) l (Ok M) = Raise KeyError) /\
    (~ (u = false /\ exists i sg y, In i l /\ actdet s (todet (2 * n) (nth i ds 0%N)) = Some (sg, y) /\ ~ inspace n ci y) ->
       exists M', fold_left (matrix_step n (parity_check n) ci u s f) l (Ok M) = Ok M' /\ square (length ds) M' /\
       forall r i, (r < length ds)%nat -> entry M' r i = entry M r i +
         (if in_dec Nat.eq_dec i l
          then sgn (rsgn s) f * melstr s (todet (2 * n) (nth r ds 0%N)) (todet (2 * n) (nth i ds 0%N)) else 0)).
  Proof.
    intros Hw Hn Hr Hnd Hb M HM ds. revert M HM. induction Hnd as [|i l Hi Hnd IH]; intros M HM.
    - split; [intros [_ (? & ? & ? & [] & _)]|]. intros _. exists M. cbn. repeat split; auto; try apply HM. intros; ring.
    - assert (i < length ds)%nat as Hil by (apply Hb; now left).
      assert (forall j, In j l -> (j < length ds)%nat) as Hb' by (intros j Hj; apply Hb; now right).
      specialize (IH Hb'). set (d := nth i ds 0%N) in *.
      assert (d < 2 ^ N.of_nat (2 * n))%N as Hd by (apply Hw, nth_In; exact Hil).
      set (bad l := exists i sg y, In i l /\ actdet s (todet (2 * n) (nth i ds 0%N)) = Some (sg, y) /\ ~ inspace n ci y) in *.
      assert (bad (i :: l) <-> bad l \/ (exists sg y, actdet s (todet (2 * n) d) = Some (sg, y) /\ ~ inspace n ci y)) as HL.
      { unfold bad. split.
        - intros (i' & sg & y & [->|A] & E & I).
          + right. eauto.
          + left. exists i', sg, y. auto.
        - intros [(i' & sg & y & A & E & I)|(sg & y & E & I)].
          + exists i', sg, y. split; [now right|auto].
          + exists i, sg, y. split; [now left|auto]. }
      assert (forall M1, square (length ds) M1 ->
                (forall r k, (r < length ds)%nat -> entry M1 r k = entry M r k +
                   (if Nat.eqb i k then sgn (rsgn s) f * melstr s (todet (2 * n) (nth r ds 0%N)) (todet (2 * n) d) else 0)) ->
                fold_left (matrix_step n (parity_check n) ci u s f) l (Ok M1) =
                fold_left (matrix_step n (parity_check n) ci u s f) (i :: l) (Ok M) ->
                ((exists sg y, actdet s (todet (2 * n) d) = Some (sg, y) /\ ~ inspace n ci y) -> u = true) ->
         ((u = false /\ bad (i :: l)) ->
            fold_left (matrix_step n (parity_check n) ci u s f) (i :: l) (Ok M) = Raise KeyError) /\
         (~ (u = false /\ bad (i :: l)) ->
         exists M', fold_left (matrix_step n (parity_check n) ci u s f) (i :: l) (Ok M) = Ok M' /\
           square (length ds) M' /\
           forall r k, (r < length ds)%nat -> entry M' r k = entry M r k +
           (if in_dec Nat.eq_dec k (i :: l)
            then sgn (rsgn s) f * melstr s (todet (2 * n) (nth r ds 0%N)) (todet (2 * n) (nth k ds 0%N)) else 0))) as Hstep.
      { intros M1 S1 Hk <- Hu1. destruct (IH M1 S1) as [I1 I2]. split.
        - intros [Hu He]. apply I1. split; auto. apply HL in He as [He|He]; [exact He|]. apply Hu1 in He. congruence.
        - intros Hne. destruct I2 as (t2 & E2 & L2 & F2).
          { intros [Hu He]. apply Hne. split; auto. apply HL. now left. }
          exists t2. split; [exact E2|]. split; [exact L2|]. intros r k Hrk. rewrite F2, Hk by exact Hrk.
          destruct (Nat.eqb_spec i k) as [<-|Hik].
          + fold d.
            destruct (in_dec Nat.eq_dec i l) as [X|_]; [contradiction|].
            destruct (in_dec Nat.eq_dec i (i :: l)) as [_|X]; [ring|exfalso; apply X; now left].
          + destruct (in_dec Nat.eq_dec k l) as [X|X], (in_dec Nat.eq_dec k (i :: l)) as [Y|Y]; try ring.
            * exfalso. apply Y. now right.
            * destruct Y as [Y|Y]; contradiction. }
      pose proof (kernel_serial n s d Hn Hr Hd) as Hker.
      destruct (actdet s (todet (2 * n) d)) as [[sg y]|] eqn:E.
      + assert (y < 2 ^ N.of_nat (2 * n))%N as Hy.
        { eapply actdet_small; [exact Hr|apply todet_small|exact E]. }
        destruct (lookup (todet (2 * n) y) (det2idx ci)) as [j|] eqn:El.
        * assert (nth_error ds j = Some (todet (2 * n) y)) as Hj by now apply Hw.
          assert (j < length ds)%nat as Hjl by (apply nth_error_Some; congruence).
          assert (inspace n ci y) as Hys by (apply inspace_lookup; eauto).
          apply (Hstep (add_at (add_at (fun v => v + sgn (xorb (rsgn s) sg) 1 * f) i) j M)).
          { apply (entry_add M (length ds) j i 0 0); auto. }
          { intros r k Hrk. destruct (entry_add M (length ds) j i r k (sgn (xorb (rsgn s) sg) 1 * f) HM Hjl Hil) as [_ ->].
            rewrite (actdet_melstr _ _ _ _ _ E). unfold ds. rewrite (nth_todet_eq n ci r j y) by assumption.
            destruct (Nat.eqb j r), (Nat.eqb i k); cbn [andb]; try ring. destruct (rsgn s), sg; cbn [xorb sgn]; ring. }
          { cbn [fold_left]. unfold matrix_step at 3. cbn [bind]. fold ds d. rewrite Hker, El. reflexivity. }
          { intros (sg' & y' & E' & I'). injection E' as <- <-. contradiction. }
        * assert (~ inspace n ci y) as Hout.
          { intros X. apply inspace_lookup in X as [j Hj]; auto. congruence. }
          destruct u.
          { apply (Hstep M HM).
            - intros r k Hrk. rewrite (actdet_melstr _ _ _ _ _ E).
              destruct (N.eqb_spec y (todet (2 * n) (nth r ds 0%N))) as [->|_].
              + exfalso. apply Hout. exists (nth r ds 0%N). split; [now apply nth_In|reflexivity].
              + destruct (Nat.eqb i k); ring.
            - cbn [fold_left]. unfold matrix_step at 3. cbn [bind]. fold ds d. rewrite Hker, El. reflexivity.
            - reflexivity. }
          { split.
            - intros _. cbn [fold_left]. unfold matrix_step at 2. cbn [bind]. fold ds d. rewrite Hker, El. apply matrix_raise.
            - intros H. exfalso. apply H. split; auto. apply HL. right. eauto. }
      + apply (Hstep M HM).
        * intros r k Hrk. rewrite melstr_actdet, E. destruct (Nat.eqb i k); ring.
        * cbn [fold_left]. unfold matrix_step at 3. cbn [bind]. fold ds d. rewrite Hker. reflexivity.
        * intros (? & ? & E' & _). discriminate.
  Qed.

  Lemma in_seq_space n ci s :
    (exists i sg y, In i (seq 0 (length (idx2det ci))) /\
        actdet s (todet (2 * n) (nth i (idx2det ci) 0%N)) = Some (sg, y) /\ ~ inspace n ci y) <-> mleaves n ci s.
  Proof.
    split.
    - intros (i & sg & y & Hi & E & I). eexists _, sg, y. split; [|split; [exact E|exact I]].
      exists (nth i (idx2det ci) 0%N). split; [|reflexivity]. apply nth_In. apply in_seq in Hi. lia.
    - intros (x & sg & y & (d & Hd & <-) & E & I).
      destruct (In_nth _ _ 0%N Hd) as (i & Hi & Ei). exists i, sg, y. split; [apply in_seq; lia|rewrite Ei; auto].
  Qed.

  Lemma mleaves_dec n ci s : wf_ci n ci -> inr n s -> mleaves n ci s \/ ~ mleaves n ci s.
  Proof.
    intros Hw Hr. rewrite <- in_seq_space. induction (seq 0 (length (idx2det ci))) as [|i l IH].
    - right. intros (? & ? & ? & [] & _).
    - destruct IH as [H|H].
      + left. destruct H as (i' & sg & y & A & B). exists i', sg, y. split; [now right|exact B].
      + destruct (actdet s (todet (2 * n) (nth i (idx2det ci) 0%N))) as [[sg y]|] eqn:E.
        * destruct (inspace_dec n ci y Hw) as [I|I].
          { eapply actdet_small; [exact Hr|apply todet_small|exact E]. }
          { right. intros (i' & sg' & y' & [<-|A] & E' & I').
            - rewrite E in E'. injection E' as <- <-. contradiction.
            - apply H. exists i', sg', y'. auto. }
          { left. exists i, sg, y. split; [now left|auto]. }
        * right. intros (i' & sg' & y' & [<-|A] & E' & I'); [congruence|]. apply H. exists i', sg', y'. auto.
  Qed.

  Lemma matrix_op n ci u (D : dict) : wf_ci n ci -> wf_op n D ->
    forall M, square (length (idx2det ci)) M ->
    let ds := idx2det ci in
    let r := fold_left (fun acc kc => add_operator_matrix n (parity_check n) ci u (fst kc) (snd kc) acc) D (Ok M) in
    ((u = false /\ exists s c, In (s, c) D /\ mleaves n ci s) -> r = Raise KeyError) /\
    (~ (u = false /\ exists s c, In (s, c) D /\ mleaves n ci s) ->
       exists M', r = Ok M' /\ square (length ds) M' /\
       forall j i, (j < length ds)%nat -> (i < length ds)%nat ->
         entry M' j i = entry M j i + mel (signed D) (todet (2 * n) (nth j ds 0%N)) (todet (2 * n) (nth i ds 0%N))).
  Proof.
    intros Hw. induction D as [|[s f] D IH]; intros Ho M HM ds r.
    - split; [intros [_ (? & ? & [] & _)]|]. intros _. exists M. cbn in *. repeat split; auto; try apply HM.
      intros. unfold mel. cbn. ring.
    - assert (normal s /\ inr n s) as [Hn Hr] by (apply (Ho s f); now left).
      assert (wf_op n D) as Ho' by (intros s' c' Hi; apply (Ho s' c'); now right).
      set (lv := fun D : dict => exists s c, In (s, c) D /\ mleaves n ci s) in *.
      assert (lv ((s, f) :: D) <-> mleaves n ci s \/ lv D) as HL.
      { unfold lv. split.
        - intros (s' & c' & [A|A] & B).
          + injection A as <- <-. now left.
          + right. exists s', c'. auto.
        - intros [B|(s' & c' & A & B)].
          + exists s, f. split; [now left|exact B].
          + exists s', c'. split; [now right|exact B]. }
      destruct (matrix_fold n ci u s f (seq 0 (length (idx2det ci))) Hw Hn Hr (seq_NoDup _ _)) with (M := M) as [S1 S2].
      { intros i Hi. apply in_seq in Hi. lia. }
      { exact HM. }
      rewrite in_seq_space in S1, S2.
      assert (forall e, fold_left (fun acc kc => add_operator_matrix n (parity_check n) ci u (fst kc) (snd kc) acc)
                D (Raise e) = Raise e) as Hraise.
      { intros e. clear. induction D as [|kc D IH]; [reflexivity|]. cbn [fold_left]. unfold add_operator_matrix at 2.
        rewrite matrix_raise. exact IH. }
      unfold r. cbn [fold_left fst snd]. unfold add_operator_matrix at 2 4.
      destruct (mleaves_dec n ci s Hw Hr) as [L|L].
      + destruct u.
        * destruct S2 as (t1 & E1 & L1 & F1); [intros [? _]; discriminate|]. rewrite E1.
          destruct (IH Ho' t1 L1) as [I1 I2]. split; [intros [? _]; discriminate|].
          intros _. destruct I2 as (t2 & E2 & L2 & F2); [intros [? _]; discriminate|].
          exists t2. split; [exact E2|]. split; [exact L2|]. intros j i Hj Hi. rewrite F2, F1 by assumption.
          destruct (in_dec Nat.eq_dec i (seq 0 (length (idx2det ci)))) as [_|X]; [|exfalso; apply X, in_seq; fold ds; lia].
          cbn [signed map fst snd]. rewrite mel_cons. fold (signed D). unfold ds. ring.
        * rewrite S1 by auto. split; [auto|]. intros H. exfalso. apply H. split; auto. apply HL. now left.
      + destruct S2 as (t1 & E1 & L1 & F1); [tauto|]. rewrite E1.
        destruct (IH Ho' t1 L1) as [I1 I2]. split.
        * intros [Hu H]. apply I1. split; auto. apply HL in H. tauto.
        * intros H. destruct I2 as (t2 & E2 & L2 & F2).
          { intros [Hu H']. apply H. split; auto. apply HL. now right. }
          exists t2. split; [exact E2|]. split; [exact L2|]. intros j i Hj Hi. rewrite F2, F1 by assumption.
          destruct (in_dec Nat.eq_dec i (seq 0 (length (idx2det ci)))) as [_|X]; [|exfalso; apply X, in_seq; fold ds; lia].
          cbn [signed map fst snd]. rewrite mel_cons. fold (signed D). unfold ds. ring.
  Qed.

  (** Matrix times vector. *)
  Definition mvec (M : list (list K)) (v : list K) : list K := map (fun row => dot row v) M.

  Lemma opapp_ketp m (L : dict) l x :
    opapp L (ketp m l) x = ksum (map (fun dc => snd dc * mel L x (todet m (fst dc))) l).
  Proof.
    induction l as [|[d c] l IH]; cbn [map ksum fst snd].
    - apply opapp_zero. reflexivity.
    - rewrite <- IH.
      rewrite (opapp_ext L _ (fun e => c * basis (todet m d) e + ketp m l e)).
      2:{ intros e. cbn [ketp]. unfold basis. destruct (N.eqb (todet m d) e); ring. }
      rewrite (opapp_add L (fun e => c * basis (todet m d) e)), opapp_scale. reflexivity.
  Qed.

  Lemma dot_sum m (L : dict) x row ds st : length row = length ds -> length st = length ds ->
    (forall i, (i < length ds)%nat -> nth i row 0 = mel L x (todet m (nth i ds 0%N))) ->
    dot row st = ksum (map (fun dc => snd dc * mel L x (todet m (fst dc))) (combine ds st)).
  Proof.
    revert row st. induction ds as [|d ds IH]; intros [|a row] [|c st] H1 H2 H; try discriminate; [reflexivity|].
    cbn [dot combine map ksum fst snd]. rewrite (IH row st).
    - pose proof (H 0%nat ltac:(cbn; lia)) as H0. cbn [nth] in H0. rewrite H0. ring.
    - now injection H1.
    - now injection H2.
    - intros i Hi. apply (H (S i)). cbn. lia.
  Qed.

  Lemma mvec_ket n ci (L : dict) M st : wf_ci n ci -> square (length (idx2det ci)) M -> length st = length (idx2det ci) ->
    (forall j i, (j < length (idx2det ci))%nat -> (i < length (idx2det ci))%nat ->
       entry M j i = mel L (todet (2 * n) (nth j (idx2det ci) 0%N)) (todet (2 * n) (nth i (idx2det ci) 0%N))) ->
    length (mvec M st) = length (idx2det ci) /\
    forall x, inspace n ci x -> ket n ci (mvec M st) x = opapp L (ket n ci st) x.
  Proof.
    intros Hw [HM1 HM2] Hst H. assert (length (mvec M st) = length (idx2det ci)) as Hl.
    { unfold mvec. now rewrite map_length. }
    split; [exact Hl|]. intros x (d & Hd & <-). destruct (In_nth_error _ _ Hd) as [j Hj].
    rewrite (ket_nth n ci _ j d Hw Hl Hj). unfold ket. rewrite opapp_ketp.
    assert (j < length (idx2det ci))%nat as Hjl by (apply nth_error_Some; congruence).
    unfold mvec. rewrite (nth_indep _ 0 (dot [] st)) by (rewrite map_length; lia).
    rewrite (map_nth (fun row => dot row st)). apply dot_sum.
    - rewrite HM2; [reflexivity|]. apply nth_In. lia.
    - exact Hst.
    - intros i Hi. fold (entry M j i). rewrite H by assumption. now rewrite (nth_error_nth _ _ 0%N Hj).
  Qed.

  (** ** State-averaged kernels, row by row *)

  Lemma combine_map_seq (ds : list N) (st : list K) : length st = length ds ->
    combine ds st = map (fun i => (nth i ds 0%N, nth i st 0)) (seq 0 (length ds)).
  Proof.
    revert st. induction ds as [|d ds IH]; intros [|c st] H; try discriminate; [reflexivity|].
    cbn [length seq combine map nth]. f_equal. rewrite <- seq_shift, map_map. apply IH. now injection H.
  Qed.

  Lemma add_at_id {A} (f : A -> A) i l : (forall x, f x = x) -> add_at f i l = l.
  Proof. intros H. revert i. induction l as [|x l IH]; intros [|i]; cbn; auto; [now rewrite H|now rewrite IH]. Qed.

  Lemma nth_map_combine {A B} (g : A * B -> B) (l : list A) (m : list B) r a b : length l = length m ->
    (r < length l)%nat -> nth r (map g (combine l m)) b = g (nth r l a, nth r m b).
  Proof.
    revert m r. induction l as [|x l IH]; intros [|y m] r H1 H2; cbn [length] in *; try lia.
    destruct r as [|r]; cbn [combine map nth]; [reflexivity|]. apply IH; lia.
  Qed.

  (** Row-wise correspondence of outcomes. *)
  Definition rowres (k : nat) (R : Res (list (list K))) (f : nat -> Res (list K)) : Prop :=
    match R with
    | Ok out => length out = k /\ forall r, (r < k)%nat -> f r = Ok (nth r out [])
    | Raise e => exists r, (r < k)%nat /\ f r = Raise e
    | Hang => exists r, (r < k)%nat /\ f r = Hang
    end.

  Lemma SA_serial_rows tiny tle n pc ci u s f state :
    (forall c : K, tle c = true <-> c = 0) -> (forall c : K, tiny c = true <-> c = 0) ->
    forall l tmp, length tmp = length state ->
    rowres (length state) (fold_left (serial_SA_step tle n pc ci u s f state) l (Ok tmp))
      (fun r => fold_left (serial_step tiny n pc ci u s f)
                  (map (fun i => (nth i (idx2det ci) 0%N, nth i (nth r state []) 0)) l) (Ok (nth r tmp []))).
  Proof.
    intros Hex Hex'. induction l as [|i l IH]; intros tmp Ht.
    - cbn. split; [exact Ht|]. reflexivity.
    - cbn [fold_left map]. unfold serial_SA_step at 2. unfold serial_step at 2. cbn [bind fst snd].
      assert (forall e, fold_left (serial_SA_step tle n pc ci u s f state) l (Raise e) = Raise e) as Hraise.
      { intros e. clear. induction l as [|x l IH]; [reflexivity|]. exact IH. }
      assert (forall r c, fold_left (serial_step tiny n pc ci u s f) c (Raise r) = Raise r) as Hraise'.
      { intros. apply serial_raise. }
      destruct (kernel_det n pc (anni_idx s) (screen (create_idx s) (anni_idx s)) (anni_idx s ++ create_idx s)
                 (nth i (idx2det ci) 0%N)) as [[d' odd]|]; [|now apply IH].
      assert (forall tmp1, length tmp1 = length state ->
                (forall r, (r < length state)%nat ->
                   (if tiny (nth i (nth r state []) 0) then Ok (nth r tmp [])
                    else match lookup d' (det2idx ci) with
                         | None => if u then Ok (nth r tmp []) else Raise KeyError
                         | Some j => Ok (add_at (fun v => v + sgn odd 1 * f * nth i (nth r state []) 0) j (nth r tmp []))
                         end) = Ok (nth r tmp1 [])) ->
        rowres (length state) (fold_left (serial_SA_step tle n pc ci u s f state) l (Ok tmp1))
          (fun r => fold_left (serial_step tiny n pc ci u s f)
             (map (fun i => (nth i (idx2det ci) 0%N, nth i (nth r state []) 0)) l)
             (if tiny (nth i (nth r state []) 0) then Ok (nth r tmp [])
              else match lookup d' (det2idx ci) with
                   | None => if u then Ok (nth r tmp []) else Raise KeyError
                   | Some j => Ok (add_at (fun v => v + sgn odd 1 * f * nth i (nth r state []) 0) j (nth r tmp []))
                   end))) as Hstep.
      { intros tmp1 H1 H2. specialize (IH tmp1 H1). unfold rowres in *.
        destruct (fold_left (serial_SA_step tle n pc ci u s f state) l (Ok tmp1)) as [out|e|].
        - destruct IH as [I1 I2]. split; [exact I1|]. intros r Hr. rewrite H2 by exact Hr. now apply I2.
        - destruct IH as (r & Hr & I). exists r. split; [exact Hr|]. now rewrite H2.
        - destruct IH as (r & Hr & I). exists r. split; [exact Hr|]. now rewrite H2. }
      destruct (forallb (fun row => tle (nth i row 0)) state) eqn:F.
      + apply Hstep; [exact Ht|]. intros r Hr. rewrite forallb_forall in F.
        assert (nth i (nth r state []) 0 = 0) as E0 by (apply Hex, (F (nth r state [])), nth_In, Hr).
        rewrite (proj2 (Hex' _) E0). reflexivity.
      + destruct (lookup d' (det2idx ci)) as [j|].
        * apply Hstep; [rewrite map_length, combine_length; lia|]. intros r Hr.
          rewrite (nth_map_combine _ state tmp r []) by lia. cbn [fst snd].
          destruct (tiny (nth i (nth r state []) 0)) eqn:E0; [|reflexivity].
          apply Hex' in E0. rewrite add_at_id; [reflexivity|]. intros v. rewrite E0. ring.
        * destruct u.
          { apply Hstep; [exact Ht|]. intros r Hr. destruct (tiny _); reflexivity. }
          rewrite Hraise. cbn [rowres].
          assert (exists row, In row state /\ tle (nth i row 0) = false) as (row & Hrow & Hnt).
          { clear -F. induction state as [|a l IH]; cbn [forallb] in F; [discriminate|].
            destruct (tle (nth i a 0)) eqn:E; [|exists a; split; [now left|exact E]].
            destruct (IH F) as (row & H1 & H2). exists row. split; [now right|exact H2]. }
          destruct (In_nth _ _ [] Hrow) as (r & Hr & Er). exists r. split; [exact Hr|]. rewrite Er.
          destruct (tiny (nth i row 0)) eqn:E0; [|apply Hraise'].
          exfalso. apply Hex' in E0. rewrite (proj2 (Hex _) E0) in Hnt. discriminate.
  Qed.

  Lemma SA_threaded_rows n pc ci u s f state order : (0 < length state)%nat ->
    forall tmp, length tmp = length state ->
    rowres (length state) (fold_left (threaded_SA_step n pc ci u s f state) order (Ok tmp))
      (fun r => fold_left (threaded_step n pc ci u s f (nth r state [])) order (Ok (nth r tmp []))).
  Proof.
    intros Hpos. induction order as [|i l IH]; intros tmp Ht.
    - cbn. split; [exact Ht|]. reflexivity.
    - cbn [fold_left]. unfold threaded_SA_step at 2. unfold threaded_step at 2. cbn [bind].
      assert (forall e, fold_left (threaded_SA_step n pc ci u s f state) l (Raise e) = Raise e) as Hraise.
      { intros e. clear. induction l as [|x l IH]; [reflexivity|]. exact IH. }
      destruct (kernel_det n pc (create_idx s) (screen (anni_idx s) (create_idx s)) (create_idx s ++ anni_idx s)
                 (nth i (idx2det ci) 0%N)) as [[d' odd]|]; [|now apply IH].
      destruct (lookup d' (det2idx ci)) as [j|].
      + set (tmp1 := map (fun rt => add_at (fun v => v + sgn odd 1 * f * nth j (fst rt) 0) i (snd rt)) (combine state tmp)).
        assert (length tmp1 = length state) as H1 by (unfold tmp1; rewrite map_length, combine_length; lia).
        assert (forall r, (r < length state)%nat ->
                 add_at (fun v => v + sgn odd 1 * f * nth j (nth r state []) 0) i (nth r tmp []) = nth r tmp1 []) as H2.
        { intros r Hr. unfold tmp1. rewrite (nth_map_combine _ state tmp r []) by lia. reflexivity. }
        specialize (IH tmp1 H1). unfold rowres in *.
        destruct (fold_left (threaded_SA_step n pc ci u s f state) l (Ok tmp1)) as [out|e|].
        * destruct IH as [I1 I2]. split; [exact I1|]. intros r Hr. rewrite H2 by exact Hr. now apply I2.
        * destruct IH as (r & Hr & I). exists r. split; [exact Hr|]. now rewrite H2.
        * destruct IH as (r & Hr & I). exists r. split; [exact Hr|]. now rewrite H2.
      + destruct u; [now apply IH|]. rewrite Hraise. exists 0%nat. split; [exact Hpos|]. apply threaded_raise.
  Qed.

  (** ** Folds over strict steps *)

  Definition strict {A B} (step : Res A -> B -> Res A) : Prop :=
    (forall e b, step (Raise e) b = Raise e) /\ (forall b, step Hang b = Hang).

  Lemma strict_fold {A B} (step : Res A -> B -> Res A) : strict step -> strict (fun r l => fold_left step l r).
  Proof.
    intros [H1 H2]. split.
    - intros e b. induction b as [|x b IH]; cbn [fold_left]; [reflexivity|]. now rewrite H1.
    - intros b. induction b as [|x b IH]; cbn [fold_left]; [reflexivity|]. now rewrite H2.
  Qed.

  Lemma fold_pres {A B} (P : A -> Prop) (step : Res A -> B -> Res A) : strict step ->
    (forall a b a', P a -> step (Ok a) b = Ok a' -> P a') ->
    forall l a a', P a -> fold_left step l (Ok a) = Ok a' -> P a'.
  Proof.
    intros Hs Hp. pose proof (strict_fold step Hs) as [F1 F2].
    induction l as [|x l IH]; intros a a' Ha H; cbn [fold_left] in H; [injection H as <-; exact Ha|].
    destruct (step (Ok a) x) as [a1|e|] eqn:E.
    - eapply IH; [|exact H]. eapply Hp; eauto.
    - rewrite F1 in H. discriminate.
    - rewrite F2 in H. discriminate.
  Qed.

  Lemma rows_fold {B} k (P : list (list K) -> Prop) (STEP : Res (list (list K)) -> B -> Res (list (list K)))
      (step : nat -> Res (list K) -> B -> Res (list K)) :
    strict STEP -> (forall r, strict (step r)) ->
    (forall b tmp, length tmp = k -> P tmp ->
       rowres k (STEP (Ok tmp) b) (fun r => step r (Ok (nth r tmp [])) b) /\
       (forall out, STEP (Ok tmp) b = Ok out -> P out)) ->
    forall l tmp, length tmp = k -> P tmp ->
    rowres k (fold_left STEP l (Ok tmp)) (fun r => fold_left (step r) l (Ok (nth r tmp []))).
  Proof.
    intros HS Hs H. induction l as [|b l IH]; intros tmp Ht Hp.
    - cbn. auto.
    - cbn [fold_left]. destruct (H b tmp Ht Hp) as [H1 H2]. destruct (STEP (Ok tmp) b) as [t1|e|] eqn:E.
      + destruct H1 as [L1 R1]. specialize (IH t1 L1 (H2 _ eq_refl)). unfold rowres in *.
        destruct (fold_left STEP l (Ok t1)) as [out|e|].
        * destruct IH as [I1 I2]. split; [exact I1|]. intros r Hr. rewrite R1 by exact Hr. now apply I2.
        * destruct IH as (r & Hr & I). exists r. split; [exact Hr|]. now rewrite R1.
        * destruct IH as (r & Hr & I). exists r. split; [exact Hr|]. now rewrite R1.
      + rewrite (proj1 (strict_fold STEP HS)). destruct H1 as (r & Hr & R). exists r. split; [exact Hr|].
        rewrite R. apply (proj1 (strict_fold (step r) (Hs r))).
      + rewrite (proj2 (strict_fold STEP HS)). destruct H1 as (r & Hr & R). exists r. split; [exact Hr|].
        rewrite R. apply (proj2 (strict_fold (step r) (Hs r))).
  Qed.

  Lemma rowres_ext k R f g : (forall r, (r < k)%nat -> f r = g r) -> rowres k R f -> rowres k R g.
  Proof.
    intros H. destruct R; cbn [rowres].
    - intros [H1 H2]. split; [exact H1|]. intros r Hr. rewrite <- H; auto.
    - intros (r & Hr & E). exists r. rewrite <- H; auto.
    - intros (r & Hr & E). exists r. rewrite <- H; auto.
  Qed.

  (** Kernels are strict and keep the vector length. *)
  Lemma serial_strict tiny n pc ci u s f : strict (serial_step (K:=K) tiny n pc ci u s f).
  Proof. split; reflexivity. Qed.
  Lemma threaded_strict n pc ci u s f st : strict (threaded_step (K:=K) n pc ci u s f st).
  Proof. split; reflexivity. Qed.
  Lemma serial_length tiny n pc ci u s f k l tmp out : length tmp = k ->
    fold_left (serial_step tiny n pc ci u s f) l (Ok tmp) = Ok out -> length out = k.
  Proof.
    apply (fold_pres (fun t : list K => length t = k)); [apply serial_strict|].
    intros a b a' Ha. unfold serial_step. cbn [bind].
    destruct (kernel_det _ _ _ _ _ _) as [[d' odd]|]; [|congruence]. destruct (tiny (snd b)); [congruence|].
    destruct (lookup d' (det2idx ci)); [intros H; injection H as <-; now rewrite add_at_length|].
    destruct u; congruence.
  Qed.
  Lemma threaded_length n pc ci u s f st k l tmp out : length tmp = k ->
    fold_left (threaded_step n pc ci u s f st) l (Ok tmp) = Ok out -> length out = k.
  Proof.
    apply (fold_pres (fun t : list K => length t = k)); [apply threaded_strict|].
    intros a b a' Ha. unfold threaded_step. cbn [bind].
    destruct (kernel_det _ _ _ _ _ _) as [[d' odd]|]; [|congruence].
    destruct (lookup d' (det2idx ci)); [intros H; injection H as <-; now rewrite add_at_length|].
    destruct u; congruence.
  Qed.

  Section Rows.
    Variables tiny tle : K -> bool.
    Hypothesis Htle : forall c : K, tle c = true <-> c = 0.
    Hypothesis Htiny : forall c : K, tiny c = true <-> c = 0.

    Definition op_step sp (th : threads) u st (acc : Res (list K)) (kc : fstring * K) : Res (list K) :=
      match th with
      | None => apply_operator_serial tiny (sp_na sp) (parity_check (sp_na sp)) (sp_ci sp) u (fst kc) (snd kc) st acc
      | Some order => apply_operator_threaded (sp_na sp) (parity_check (sp_na sp)) (sp_ci sp) u (fst kc) (snd kc) st order acc
      end.
    Definition op_step_SA sp (th : threads) u st (acc : Res (list (list K))) (kc : fstring * K) : Res (list (list K)) :=
      match th with
      | None => apply_operator_SA_serial tle (sp_na sp) (parity_check (sp_na sp)) (sp_ci sp) u (fst kc) (snd kc) st acc
      | Some order => apply_operator_SA_threaded (sp_na sp) (parity_check (sp_na sp)) (sp_ci sp) u (fst kc) (snd kc) st order acc
      end.

    Lemma op_step_strict sp th u st : strict (op_step sp th u st).
    Proof.
      destruct th as [o|]; split; intros; unfold op_step, apply_operator_threaded, apply_operator_serial.
      - apply (proj1 (strict_fold _ (threaded_strict _ _ _ _ _ _ _))).
      - apply (proj2 (strict_fold _ (threaded_strict _ _ _ _ _ _ _))).
      - apply (proj1 (strict_fold _ (serial_strict _ _ _ _ _ _ _))).
      - apply (proj2 (strict_fold _ (serial_strict _ _ _ _ _ _ _))).
    Qed.
    Lemma op_step_SA_strict sp th u st : strict (op_step_SA sp th u st).
    Proof.
      destruct th as [o|]; split; intros; unfold op_step_SA, apply_operator_SA_threaded, apply_operator_SA_serial.
      - apply (proj1 (strict_fold (threaded_SA_step _ _ _ _ _ _ _) (conj (fun _ _ => eq_refl) (fun _ => eq_refl)))).
      - apply (proj2 (strict_fold (threaded_SA_step _ _ _ _ _ _ _) (conj (fun _ _ => eq_refl) (fun _ => eq_refl)))).
      - apply (proj1 (strict_fold (serial_SA_step _ _ _ _ _ _ _ _) (conj (fun _ _ => eq_refl) (fun _ => eq_refl)))).
      - apply (proj2 (strict_fold (serial_SA_step _ _ _ _ _ _ _ _) (conj (fun _ _ => eq_refl) (fun _ => eq_refl)))).
    Qed.

    Lemma op_step_length sp th u st k tmp kc out : length tmp = k -> op_step sp th u st (Ok tmp) kc = Ok out -> length out = k.
    Proof. destruct th as [o|]; [apply threaded_length|apply serial_length]. Qed.

    Lemma apply_op_length sp th fold u D st out : apply_op tiny sp th fold u D st = Ok out -> length out = length st.
    Proof.
      apply (fold_pres (fun t => length t = length st) (op_step sp th u st)).
      - apply op_step_strict.
      - intros a b a'. apply op_step_length.
      - apply repeat_length.
    Qed.

    Lemma op_step_rows sp th u state kc tmp : (0 < length state)%nat ->
      (forall row, In row state -> length row = length (idx2det (sp_ci sp))) -> length tmp = length state ->
      rowres (length state) (op_step_SA sp th u state (Ok tmp) kc)
        (fun r => op_step sp th u (nth r state []) (Ok (nth r tmp [])) kc).
    Proof.
      intros Hpos Hrow Ht. destruct th as [o|].
      - now apply SA_threaded_rows.
      - unfold op_step_SA, op_step, apply_operator_SA_serial, apply_operator_serial.
        eapply rowres_ext; [|apply (SA_serial_rows tiny); auto].
        intros r Hr. cbn beta. rewrite combine_map_seq; [reflexivity|]. apply Hrow, nth_In, Hr.
    Qed.

    Lemma apply_op_rows sp th fold u D state : (0 < length state)%nat ->
      (forall row, In row state -> length row = length (idx2det (sp_ci sp))) ->
      rowres (length state) (apply_op_SA tle sp th fold u D state) (fun r => apply_op tiny sp th fold u D (nth r state [])).
    Proof.
      intros Hpos Hrow. unfold apply_op_SA, apply_op. cbv zeta.
      pose proof (rows_fold (length state) (fun _ => True) (op_step_SA sp th u state)
        (fun r => op_step sp th u (nth r state [])) (op_step_SA_strict sp th u state)
        (fun r => op_step_strict sp th u (nth r state []))) as RF.
      eapply rowres_ext; [|apply RF].
      - intros r Hr. cbn beta. f_equal. f_equal.
        exact (map_nth (fun row : list K => repeat 0 (length row)) state [] r).
      - intros b tmp Ht _. split; [|auto]. now apply op_step_rows.
      - now rewrite map_length.
      - exact I.
    Qed.

    (** A list of operators. *)
    Definition list_step sp th fold u ansatz (acc : Res (list K)) (op : sop (K:=K)) : Res (list K) :=
      bind acc (fun st => match op with
                          | SOp D => apply_op tiny sp th fold u D st
                          | SU dagger => ansatz dagger st
                          | SBad => Raise ValueError
                          end).
    Definition list_step_SA sp th fold u ansatz (acc : Res (list (list K))) (op : sop (K:=K)) : Res (list (list K)) :=
      bind acc (fun st => match op with
                          | SOp D => apply_op_SA tle sp th fold u D st
                          | SU dagger => ansatz dagger st
                          | SBad => Raise ValueError
                          end).

    (** A state-averaged ansatz that acts on every row as the single-state one. *)
    Definition rowwise (dim : nat) (f : bool -> list K -> Res (list K)) (F : bool -> list (list K) -> Res (list (list K))) : Prop :=
      forall dagger state, (0 < length state)%nat -> (forall row, In row state -> length row = dim) ->
        rowres (length state) (F dagger state) (fun r => f dagger (nth r state [])) /\
        (forall out, F dagger state = Ok out -> forall row, In row out -> length row = dim).

    Lemma propagate_rows sp th fold u f F ops state : rowwise (length (idx2det (sp_ci sp))) f F -> (0 < length state)%nat ->
      (forall row, In row state -> length row = length (idx2det (sp_ci sp))) ->
      rowres (length state) (propagate_state_SA tle sp th fold u F ops state)
        (fun r => propagate_state tiny sp th fold u f ops (nth r state [])).
    Proof.
      intros Hf Hpos Hrow. unfold propagate_state_SA, propagate_state.
      apply (rows_fold (length state) (fun st => forall row, In row st -> length row = length (idx2det (sp_ci sp)))
        (list_step_SA sp th fold u F) (fun _ => list_step sp th fold u f)); auto.
      - split; reflexivity.
      - intros r. split; reflexivity.
      - intros op tmp Ht Hp. unfold list_step_SA, list_step. cbn [bind]. destruct op as [D|dg|].
        + rewrite <- Ht in Hpos |- *. pose proof (apply_op_rows sp th fold u D tmp Hpos Hp) as R. split; [exact R|].
          intros out E. rewrite E in R. destruct R as [R1 R2]. intros row Hi.
          destruct (In_nth _ _ [] Hi) as (r & Hr & <-). rewrite R1 in Hr. apply R2 in Hr as Hr'.
          apply apply_op_length in Hr'. rewrite Hr'. apply Hp, nth_In. exact Hr.
        + rewrite <- Ht in Hpos |- *. now apply Hf.
        + split; [|discriminate]. exists 0%nat. auto.
    Qed.
  End Rows.
End More.
