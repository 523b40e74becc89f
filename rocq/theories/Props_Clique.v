(** Properties of the measurement cliques, the mitigation flags, the
    post-selection and the shot accounting: C35, C36, C38, C39, C40, C47. *)
From Coq Require Import List Bool Arith NArith ZArith Lia Ring String Sorting.Permutation Sorting.Sorted.
From Verif Require Import Base CliqueModel CliqueProofs OperatorsSums FockInner CliquePost.
Import ListNotations.
Local Open Scope nat_scope.
Local Open Scope list_scope.

(** ** Histories of a clique object *)
Section Histories.
  Context {K : Type} {C : CRing K}.
  Notation chead := (chead (K:=K)).
  Notation dist := (dist (K:=K)).
  Notation heads := (map (ch_head (K:=K))).

  (** One call: [add_paulis(ps)] or [update_distr(heads, distr, flags)].  The
      object keeps its mutations when the call raises. *)
  Inductive clique_call := Add (ps : list pauli) | Upd (hs : list pauli) (ds : list dist) (f : option flags).
  Definition clique_step (cl : list chead) (c : clique_call) : list chead :=
    match c with Add ps => fst (add_paulis ps cl) | Upd hs ds f => fst (update_distr hs ds f cl) end.
  Definition clique_run (cs : list clique_call) : list chead := fold_left clique_step cs [].
  (** All strings added have [n] letters. *)
  Definition uniform (n : nat) (c : clique_call) : Prop :=
    match c with Add ps => Forall (fun p => List.length p = n) ps | Upd _ _ _ => True end.
  Definition added (cs : list clique_call) (p : pauli) : Prop := exists ps, In (Add ps) cs /\ In p ps.

  Lemma run_inv n cs : Forall (uniform n) cs ->
    cinv n (clique_run cs) /\ forall p, added cs p -> served p (clique_run cs).
  Proof.
    induction cs as [|c cs IH] using rev_ind; intros Hu.
    - split; [repeat constructor|]. intros p (ps & [] & _).
    - apply Forall_app in Hu as [Hu Hc]. inversion_clear Hc as [|? ? Hc' _]. destruct (IH Hu) as [I S].
      unfold clique_run. rewrite fold_left_app. cbn [fold_left]. change (fold_left clique_step cs []) with (clique_run cs).
      assert (forall p, added (cs ++ [c]) p -> served p (clique_run cs) \/ exists ps, c = Add ps /\ In p ps) as Hadd.
      { intros p (ps & Hi & Hp). apply in_app_or in Hi as [Hi|[Hi|[]]]; [left; apply S; exists ps; auto|right; eauto]. }
      destruct c as [ps|hs ds f]; cbn [clique_step uniform] in *.
      + destruct (add_paulis_inv n ps (clique_run cs) Hc' I) as [I' S']. split; [exact I'|].
        intros p Hp. apply S'. destruct (Hadd p Hp) as [H|(ps' & E & H)]; [now right|left]. now injection E as ->.
      + split; [apply (cinv_heads n (clique_run cs)); [now rewrite update_distr_heads|exact I]|].
        intros p Hp. apply (served_evolves p (clique_run cs)); [|apply evolves_heads; now rewrite update_distr_heads].
        destruct (Hadd p Hp) as [H|(ps' & E & H)]; [exact H|discriminate].
  Qed.
  Lemma added_length n cs p : Forall (uniform n) cs -> added cs p -> List.length p = n.
  Proof.
    intros Hu (ps & Hi & Hp). rewrite Forall_forall in Hu. specialize (Hu _ Hi). cbn in Hu. rewrite Forall_forall in Hu. auto.
  Qed.

  (** C35: after any history the head found for a string that was added has the
      same length and carries every non-identity letter of the string; after an
      update of the distributions that did not raise, a non-empty distribution is
      found for the string. *)
  Theorem C35_lookup n cs p : Forall (uniform n) cs -> added cs p ->
    exists h, get_head p (clique_run cs) = Ok h /\ In h (heads (clique_run cs)) /\ List.length h = n /\
      forall i, nth i p LI <> LI -> nth i h LI = nth i p LI.
  Proof.
    intros Hu Ha. destruct (run_inv n cs Hu) as [I S].
    destruct (served_lookup n p (clique_run cs) I (added_length n cs p Hu Ha) (S p Ha)) as (c & Hc & Hm & Hh & _).
    exists (ch_head c). split; [exact Hh|]. split; [now apply in_map|]. destruct Hm as [Hl Hm].
    split; [rewrite <- Hl; now apply (added_length n cs)|exact Hm].
  Qed.
  Theorem C35_distribution n cs hs ds f p : Forall (uniform n) cs -> added cs p ->
    snd (update_distr hs ds f (clique_run cs)) = Ok tt ->
    exists d, get_distr p f (clique_run (cs ++ [Upd hs ds f])) = Ok d /\ d <> [].
  Proof.
    intros Hu Ha Hok. set (cs' := cs ++ [Upd hs ds f]).
    assert (Forall (uniform n) cs') as Hu' by (apply Forall_app; split; [exact Hu|repeat constructor]).
    assert (added cs' p) as Ha' by (destruct Ha as (ps & Hi & Hp); exists ps; split; [apply in_or_app; now left|exact Hp]).
    destruct (run_inv n cs' Hu') as [I S].
    destruct (served_lookup n p (clique_run cs') I (added_length n cs' p Hu' Ha') (S p Ha')) as (c & Hc & Hm & Hh & Hd).
    assert (update_distr hs ds f (clique_run cs) = (clique_run cs', Ok tt)) as E.
    { unfold cs', clique_run. rewrite fold_left_app. cbn [fold_left clique_step].
      rewrite <- Hok. unfold clique_run. now destruct (update_distr hs ds f (fold_left clique_step cs [])). }
    pose proof (update_ok _ _ _ _ _ E) as HF. rewrite Forall_forall in HF. specialize (HF c Hc).
    destruct (saver_nonempty_get _ _ HF) as (d & Hg & Hne & _). exists d. split; [|exact Hne]. rewrite Hd, HF. exact Hg.
  Qed.
  (** The heads are pairwise conflicting, have the common length, and the first
      one is all Z. *)
  Theorem C35_heads n cs : Forall (uniform n) cs ->
    Forall (fun h => List.length h = n) (heads (clique_run cs)) /\
    (forall i j, i < j < List.length (clique_run cs) ->
       exists q, nth q (nth i (heads (clique_run cs)) []) LI <> LI /\ nth q (nth j (heads (clique_run cs)) []) LI <> LI /\
                 nth q (nth i (heads (clique_run cs)) []) LI <> nth q (nth j (heads (clique_run cs)) []) LI) /\
    (clique_run cs <> [] -> hd [] (heads (clique_run cs)) = repeat LZ n).
  Proof.
    intros Hu. destruct (run_inv n cs Hu) as [(A & B & D) _]. split; [|split].
    - rewrite Forall_map. exact A.
    - intros i j Hij. rewrite <- (map_length (ch_head (K:=K)) (clique_run cs)) in Hij. revert B i j Hij.
      induction (heads (clique_run cs)) as [|h hs IH]; cbn [all_conflict]; intros B i j [Hi Hj]; [cbn in Hj; lia|].
      destruct B as [B1 B2].
      destruct j as [|j]; [lia|]. cbn [List.length] in Hj. destruct i as [|i]; cbn [nth].
      + rewrite Forall_forall in B1. apply (B1 (nth j hs [])). apply nth_In. lia.
      + apply IH; [exact B2|lia].
    - intros Hne. destruct (clique_run cs) as [|c cl]; [easy|]. exact D.
  Qed.
  (** The result of a batch does not depend on the order of its strings. *)
  Theorem C35_batch_order n ps ps' cl : Forall (fun p => List.length p = n) ps -> Permutation ps ps' ->
    add_paulis ps cl = add_paulis (K:=K) ps' cl.
  Proof.
    intros Hn HP. assert (Forall (fun p => List.length p = n) ps') as Hn'.
    { rewrite Forall_forall in *. intros p Hp. apply Hn. now apply (Permutation_in _ (Permutation_sym HP)). }
    destruct ps as [|p ps]; [apply Permutation_nil in HP as ->; reflexivity|].
    rewrite (add_paulis_eq n) by (discriminate || assumption). rewrite (add_paulis_eq n); [|intros ->; now apply Permutation_sym, Permutation_nil in HP|assumption].
    now rewrite (sorted_rev_permuted _ _ HP).
  Qed.
  (** [get_groups] splits the strings among their heads without loss. *)
  Lemma group_add_perm h p g : Permutation (flat_map snd (group_add h p g)) (p :: flat_map snd g).
  Proof.
    induction g as [|[h' l] g IH]; [reflexivity|]. cbn [group_add]. destruct (pauli_eqb h h'); cbn [flat_map snd].
    - rewrite <- app_assoc. apply Permutation_sym, Permutation_middle.
    - rewrite IH. apply Permutation_sym, Permutation_middle.
  Qed.
  Lemma group_add_in h p g h' l : In (h', l) (group_add h p g) -> forall q, In q l -> (h' = h /\ q = p) \/ exists l', In (h', l') g /\ In q l'.
  Proof.
    induction g as [|[h0 l0] g IH]; cbn [group_add].
    - intros [E|[]] q Hq. injection E as <- <-. destruct Hq as [<- |[]]. auto.
    - destruct (pauli_eqb h h0) eqn:E0.
      + apply pauli_eqb_eq in E0 as <-. intros [E|Hi] q Hq.
        * injection E as <- <-. apply in_app_or in Hq as [Hq|[<- |[]]]; [right; exists l0; cbn; auto|auto].
        * right. exists l. cbn. auto.
      + intros [E|Hi] q Hq.
        * injection E as <- <-. right. exists l0. cbn. auto.
        * destruct (IH Hi q Hq) as [H|(l' & H1 & H2)]; [auto|right; exists l'; cbn; auto].
  Qed.
  Theorem C35_groups n cs ps : Forall (uniform n) cs -> Forall (added cs) ps ->
    exists g, get_groups ps (clique_run cs) = Ok g /\ Permutation (flat_map snd g) ps /\
      forall h l, In (h, l) g -> forall p, In p l -> get_head p (clique_run cs) = Ok h.
  Proof.
    intros Hu Ha. unfold get_groups.
    assert (Forall (fun p => exists h, get_head p (clique_run cs) = Ok h) (sorted_rev ps)) as Hh.
    { apply Forall_forall. intros p Hp. rewrite in_sorted_rev in Hp. rewrite Forall_forall in Ha.
      destruct (C35_lookup n cs p Hu (Ha p Hp)) as (h & Hh & _). eauto. }
    assert (forall l g, Forall (fun p => exists h, get_head p (clique_run cs) = Ok h) l ->
              (forall h l, In (h, l) g -> forall p, In p l -> get_head p (clique_run cs) = Ok h) ->
              exists g', fold_left (fun g p => bind g (fun g => bind (get_head p (clique_run cs)) (fun h => Ok (group_add h p g)))) l (Ok g) = Ok g' /\
                Permutation (flat_map snd g') (flat_map snd g ++ l) /\
                forall h l, In (h, l) g' -> forall p, In p l -> get_head p (clique_run cs) = Ok h) as H.
    { intros l. induction l as [|p l IH]; intros g Hl Hg; cbn [fold_left].
      - exists g. split; [reflexivity|]. split; [now rewrite app_nil_r|exact Hg].
      - inversion_clear Hl as [|? ? [h Eh] Hl']. cbn [bind]. rewrite Eh. cbn [bind].
        destruct (IH (group_add h p g) Hl') as (g' & E & HP & Hg').
        + intros h0 l0 Hi q Hq. destruct (group_add_in h p g h0 l0 Hi q Hq) as [[-> ->]|(l' & H1 & H2)]; [exact Eh|now apply (Hg h0 l')].
        + exists g'. split; [exact E|]. split; [|exact Hg']. rewrite HP, group_add_perm. cbn. apply Permutation_middle. }
    destruct (H (sorted_rev ps) [] Hh) as (g & E & HP & Hg); [intros ? ? []|].
    exists g. split; [exact E|]. split; [|exact Hg]. rewrite HP. cbn. apply sorted_rev_perm.
  Qed.

  (** ** C36 *)

  (** Everything an [update_distr] call was given, with its key. *)
  Definition given (cs : list clique_call) (h : pauli) (k : N) (d : dist) : Prop :=
    exists hs ds f, In (Upd hs ds f) cs /\ In (h, d) (combine hs ds) /\ k = mit_int f.
  Definition from (cs : list clique_call) (cl : list chead) : Prop :=
    Forall (fun c : chead => forall k d, In (k, d) (ch_distr c) -> (k = 0%N /\ d = []) \/ given cs (ch_head c) k d) cl.

  Lemma given_app cs cs' h k d : given cs h k d -> given (cs ++ cs') h k d.
  Proof. intros (hs & ds & f & H & R). exists hs, ds, f. split; [apply in_or_app; now left|exact R]. Qed.
  Lemma from_app cs cs' cl : from cs cl -> from (cs ++ cs') cl.
  Proof. unfold from. apply Forall_impl. intros c H k d Hi. destruct (H k d Hi) as [E|E]; [now left|right; now apply given_app]. Qed.
  Lemma place_from cs p cl : from cs cl -> from cs (place p cl).
  Proof.
    assert (forall h, forall k d, In (k, d) (ch_distr (K:=K) (new_chead h)) -> k = 0%N /\ d = []) as Hnew.
    { intros h k d [E|[]]. injection E as <- <-. auto. }
    induction cl as [|c cl IH]; intros Hf; cbn [place].
    - constructor; [|constructor]. intros k d Hi. left. now apply (Hnew p).
    - inversion_clear Hf as [|? ? Hc Hcl]. destruct (fit_in_clique p (ch_head c)) as [do_fit head_fit]. destruct do_fit.
      + constructor; [|exact Hcl]. cbn [ch_head ch_distr]. destruct (pauli_eqb head_fit (ch_head c)) eqn:E; cbn [negb].
        * apply pauli_eqb_eq in E as ->. exact Hc.
        * intros k d Hi. left. now apply (Hnew p).
      + constructor; [exact Hc|]. now apply IH.
  Qed.
  Lemma upd_head_from cs h d f cl : given cs h (mit_int f) d -> from cs cl -> from cs (fst (upd_head h d f cl)).
  Proof.
    intros Hg. induction cl as [|c cl IH]; intros Hf; [constructor|]. inversion_clear Hf as [|? ? Hc Hcl]. specialize (IH Hcl).
    cbn [upd_head]. destruct (pauli_eqb h (ch_head c)) eqn:E.
    - apply pauli_eqb_eq in E. destruct (saver_is_empty (ch_distr c) f) as [[]| |]; try (constructor; assumption).
      destruct (upd_head h d f cl) as [r o]. constructor; [|exact IH]. cbn [ch_head ch_distr]. intros k d' Hi.
      apply in_zset in Hi as [E'|Hi]; [|now apply Hc]. injection E' as -> ->. right. now rewrite <- E.
    - destruct (upd_head h d f cl) as [r o]. constructor; assumption.
  Qed.
  Lemma update_from cs hs ds f cl : In (Upd hs ds f) cs -> from cs cl -> from cs (fst (update_distr hs ds f cl)).
  Proof.
    intros Hin Hf. unfold update_distr.
    assert (forall l s, incl l (combine hs ds) -> from cs (fst s) ->
              from cs (fst (fold_left (fun (s : list chead * Res unit) (hd : pauli * dist) => let '(cl, o) := s in
                      match o with Ok _ => upd_head (fst hd) (snd hd) f cl | _ => s end) l s))) as H.
    { induction l as [|hd l IH]; intros [cl' o] Hl Hs; [exact Hs|]. cbn [fold_left]. apply IH; [intros x Hx; apply Hl; now right|].
      destruct o; try exact Hs. apply upd_head_from; [|exact Hs]. exists hs, ds, f. split; [exact Hin|]. split; [|reflexivity].
      destruct hd. apply Hl. now left. }
    specialize (H (combine hs ds) (cl, Ok tt) (incl_refl _) Hf).
    destruct (fold_left _ (combine hs ds) (cl, Ok tt)) as [cl' o]. exact H.
  Qed.
  Lemma run_from cs : from cs (clique_run cs).
  Proof.
    induction cs as [|c cs IH] using rev_ind; [constructor|]. unfold clique_run. rewrite fold_left_app. cbn [fold_left].
    change (fold_left clique_step cs []) with (clique_run cs). apply (from_app cs [c]) in IH.
    destruct c as [ps|hs ds f]; cbn [clique_step].
    - unfold add_paulis.
      assert (forall l cl, from (cs ++ [Add ps]) cl -> from (cs ++ [Add ps]) (fold_left (fun cl p => place p cl) l cl)) as H.
      { induction l as [|p l IHl]; intros cl Hcl; [exact Hcl|]. cbn. apply IHl. now apply place_from. }
      destruct (clique_run cs) as [|c0 cl0] eqn:E; [destruct ps as [|p ps]; [constructor|]|]; cbn [fst]; apply H; [|exact IH].
      constructor; [|constructor]. intros k d [Ek|[]]. left. injection Ek as <- <-. auto.
    - apply update_from; [apply in_or_app; right; now left|exact IH].
  Qed.

  (** C36: a distribution that [get_distr] returns for a string is one that some
      call of [update_distr] stored, with the same flags, for exactly the head
      that [get_head] now returns for the string. *)
  Theorem C36_provenance n cs p f d : Forall (uniform n) cs -> added cs p -> get_distr p f (clique_run cs) = Ok d ->
    exists h, get_head p (clique_run cs) = Ok h /\
      exists hs ds f', In (Upd hs ds f') cs /\ mit_int f' = mit_int f /\ In (h, d) (combine hs ds).
  Proof.
    intros Hu Ha Hd. destruct (run_inv n cs Hu) as [I S].
    destruct (served_lookup n p (clique_run cs) I (added_length n cs p Hu Ha) (S p Ha)) as (c & Hc & Hm & Hh & Hg).
    exists (ch_head c). split; [exact Hh|]. rewrite Hg in Hd.
    destruct (saver_is_empty (ch_distr c) f) as [[]| |] eqn:E; cbn [bind] in Hd; try discriminate.
    destruct (saver_nonempty_get _ _ E) as (d' & Hd' & Hne & Hz). rewrite Hd in Hd'. injection Hd' as <-.
    pose proof (run_from cs) as HF. unfold from in HF. rewrite Forall_forall in HF.
    destruct (HF c Hc (mit_int f) d (zget_in _ _ _ Hz)) as [[_ E0]|(hs & ds & f' & H1 & H2 & H3)]; [easy|].
    exists hs, ds, f'. auto.
  Qed.
  (** [add_paulis] returns exactly the heads without raw data. *)
  Definition raw (c : chead) : dist := match zget 0%N (ch_distr c) with Some d => d | None => [] end.
  Definition has_raw (c : chead) : bool := negb (is_nil (raw c)).
  Theorem C36_new_heads ps cl cl' l : add_paulis ps cl = (cl', Ok l) ->
    l = heads (filter (fun c => negb (has_raw c)) cl').
  Proof.
    intros E. assert (empty_heads None cl' = Ok l) as H.
    { unfold add_paulis in E. destruct cl as [|c0 cl0]; [destruct ps as [|p ps]; [discriminate|]|]; injection E as <- E'; exact E'. }
    clear E. revert l H. induction cl' as [|c cl' IH]; cbn [empty_heads]; intros l H; [now injection H as <-|].
    destruct (saver_is_empty (ch_distr c) None) as [e| |] eqn:E; cbn [bind] in H; try discriminate.
    destruct (empty_heads None cl') as [r| |]; cbn [bind] in H; try discriminate. specialize (IH r eq_refl).
    assert (e = negb (has_raw c)) as ->.
    { unfold saver_is_empty in E. cbn [mit_int] in E. unfold has_raw, raw. destruct (zget 0%N (ch_distr c)) as [d|]; [|now injection E as <-].
      destruct d; cbn [is_nil negb] in *; [|now injection E as <-].
      destruct (N.eqb 0 0 && (1 <? List.length (ch_distr c))); [destruct (negb _)|]; try discriminate; now injection E as <-. }
    injection H as <-. cbn [filter]. destruct (negb (has_raw c)); cbn [map]; now rewrite IH.
  Qed.
  (** It raises ValueError exactly when a head has mitigated but no raw data
      (apart from the IndexError for an empty first batch). *)
  Lemma is_empty_raises (s : csaver (K:=K)) e : saver_is_empty s None = Raise e -> e = ValueError /\ zget 0%N s = Some [] /\ exists k d, In (k, d) s /\ d <> [].
  Proof.
    unfold saver_is_empty. cbn [mit_int]. destruct (zget 0%N s) as [d|]; [|discriminate]. destruct d; cbn [is_nil negb]; [|discriminate].
    destruct (N.eqb 0 0 && (1 <? List.length s)); [|discriminate]. destruct (forallb (fun e0 => is_nil (snd e0)) s) eqn:E; cbn [negb]; [discriminate|].
    intros H. injection H as <-. split; [reflexivity|]. split; [reflexivity|].
    assert (exists x, In x s /\ is_nil (snd x) = false) as ([k d] & Hi & Hd).
    { clear - E. induction s as [|x s IH]; [discriminate|]. cbn in E. apply andb_false_iff in E as [E|E]; [exists x; cbn; auto|].
      destruct (IH E) as (y & Hy & Ey). exists y. cbn. auto. }
    exists k, d. split; [exact Hi|]. intros ->. discriminate.
  Qed.
  Theorem C36_add_raises ps cl cl' e : ps <> [] -> add_paulis ps cl = (cl', Raise e) ->
    e = ValueError /\ exists c k d, In c cl' /\ raw c = [] /\ In (k, d) (ch_distr c) /\ d <> [].
  Proof.
    intros Hne E. assert (empty_heads None cl' = Raise e) as H.
    { unfold add_paulis in E. destruct cl as [|c0 cl0]; [destruct ps as [|p ps]; [easy|]|]; injection E as <- E'; exact E'. }
    clear E. revert H. induction cl' as [|c cl' IH]; cbn [empty_heads]; intros H; [discriminate|].
    destruct (saver_is_empty (ch_distr c) None) as [b|e'|] eqn:E; cbn [bind] in H; [|injection H as ->|discriminate].
    - destruct (empty_heads None cl') as [r|e'|]; cbn [bind] in H; try discriminate. injection H as ->.
      destruct (IH eq_refl) as (He & c' & k & d & Hc & R). split; [exact He|]. exists c', k, d. cbn. auto.
    - destruct (is_empty_raises _ _ E) as (-> & Hz & k & d & Hi & Hd). split; [reflexivity|]. exists c, k, d.
      split; [now left|]. split; [unfold raw; now rewrite Hz|]. auto.
  Qed.
End Histories.

Definition ps_ex : list pauli := [[LX; LI; LZ]; [LI; LZ; LZ]; [LX; LY; LI]; [LY; LI; LI]].
Example C35_example_hyp : Forall (uniform (K:=Z) 3) [Add ps_ex; Add [[LI; LI; LX]]].
Proof. repeat constructor. Qed.
Example C35_example_heads : map (ch_head (K:=Z)) (clique_run [Add ps_ex; Add [[LI; LI; LX]]]) =
  [[LZ; LZ; LZ]; [LY; LI; LX]; [LX; LY; LZ]].
Proof. vm_compute. reflexivity. Qed.
Example C36_example :
  let d1 := [(0%N, 3%Z); (5%N, 1%Z)] in let d2 := [(1%N, 2%Z)] in
  let cs := [Add [[LZ; LI]]; Upd [[LZ; LZ]] [d1] None; Add [[LX; LI]]; Upd [[LX; LI]] [d2] None; Add [[LI; LX]]] in
  get_distr [LI; LZ] None (clique_run cs) = Ok d1 /\ get_distr [LX; LI] None (clique_run cs) = Raise ValueError /\
  snd (add_paulis (K:=Z) [[LI; LX]] (clique_run (firstn 4 cs))) = Ok [[LX; LX]].
Proof. vm_compute. auto. Qed.

(** ** C38: mitigation flags *)
Inductive flag_call := FUpdate (kw : list (string * pyval)) | FAllFalse.
Definition flag_step (f : flags) (c : flag_call) : flags :=
  match c with
  | FUpdate kw => match update_flags kw f with Ok f' => f' | _ => f end
  | FAllFalse => all_to_false f
  end.
Definition consistent (f : flags) : Prop :=
  (do_M_ansatz0_plus f = true -> do_M_ansatz0 f = true) /\ (do_M_ansatz0 f = true -> do_M_mitigation f = true).
Theorem C38_consistent mm m0 m0p ps cs : consistent (fold_left flag_step cs (flags_init mm m0 m0p ps)).
Proof.
  assert (consistent (flags_init mm m0 m0p ps)) as H0 by (destruct mm, m0, m0p, ps; split; intros; reflexivity || discriminate).
  revert H0. generalize (flags_init mm m0 m0p ps). induction cs as [|c cs IH]; intros f Hf; [exact Hf|]. cbn [fold_left]. apply IH.
  destruct c as [kw|]; cbn [flag_step].
  - unfold update_flags. destruct (validate_flags kw); cbn [bind]; try exact Hf.
    generalize (fold_left (fun f nv => match snd nv with PBool b => flag_set f (fst nv) b | POther => f end) kw f).
    intros [[] [] [] p]; split; intros; reflexivity || discriminate.
  - destruct f as [a b d e]; split; discriminate.
Qed.
(** [kw] as a dictionary: the value given last to a name, if any. *)
Definition requested (kw : list (string * pyval)) (n : string) (old : bool) : bool :=
  match find (fun nv => String.eqb (fst nv) n) (rev kw) with Some (_, PBool b) => b | _ => old end.
(** Every flag ends at the requested (or old) value, with the implied flags
    switched on; unknown names raise ValueError, values that are not booleans
    TypeError. *)
Lemma flag_get_set f m n b : In m flag_order -> In n flag_order -> flag_get (flag_set f m b) n = if String.eqb m n then b else flag_get f n.
Proof.
  intros Hm Hn. destruct f as [a0 a1 a2 a3].
  destruct Hm as [<- |[<- |[<- |[<- |[]]]]]; destruct Hn as [<- |[<- |[<- |[<- |[]]]]]; reflexivity.
Qed.
Theorem C38_update kw f :
  match update_flags kw f with
  | Ok f' =>
      (forall n v, In (n, v) kw -> In n flag_order /\ exists b, v = PBool b) /\
      let want n := requested kw n (flag_get f n) in
      do_M_ansatz0_plus f' = want "do_M_ansatz0_plus"%string /\
      do_M_ansatz0 f' = want "do_M_ansatz0"%string || want "do_M_ansatz0_plus"%string /\
      do_M_mitigation f' = want "do_M_mitigation"%string || want "do_M_ansatz0"%string || want "do_M_ansatz0_plus"%string /\
      do_postselection f' = want "do_postselection"%string
  | Raise ValueError => exists n v, In (n, v) kw /\ ~ In n flag_order
  | Raise TypeError => exists n, In (n, POther) kw
  | _ => False
  end.
Proof.
  unfold update_flags, validate_flags. destruct (forallb (fun nv => existsb (String.eqb (fst nv)) flag_order) kw) eqn:E1; cbn [bind].
  2: { assert (exists x, In x kw /\ existsb (String.eqb (fst x)) flag_order = false) as ([n v] & Hi & Hx).
       { clear - E1. induction kw as [|x s IH]; [discriminate|]. cbn [forallb] in E1. destruct (existsb (String.eqb (fst x)) flag_order) eqn:Ex; [|exists x; split; [now left|exact Ex]].
         destruct (IH E1) as (y & Hy & Ey). exists y. split; [now right|exact Ey]. }
       exists n, v. split; [exact Hi|]. intros Hn. cbn [fst] in Hx.
       enough (existsb (String.eqb n) flag_order = true) by congruence. apply existsb_exists. exists n. split; [exact Hn|apply String.eqb_refl]. }
  destruct (forallb (fun nv => match snd nv with PBool _ => true | POther => false end) kw) eqn:E2; cbn [bind].
  2: { clear E1. induction kw as [|[n v] s IH]; [discriminate|]. cbn [forallb snd] in E2. destruct v; [|exists n; now left].
       destruct (IH E2) as (m & Hm). exists m. now right. }
  assert (forall n v, In (n, v) kw -> In n flag_order /\ exists b, v = PBool b) as Hkw.
  { rewrite forallb_forall in E1, E2. intros n v Hi. specialize (E1 _ Hi). specialize (E2 _ Hi). cbn [fst snd] in *. split.
    + apply existsb_exists in E1 as (m & Hm & Em). apply String.eqb_eq in Em as ->. exact Hm.
    + destruct v; [eauto|discriminate]. }
  split; [exact Hkw|]. cbv zeta.
  set (g := fold_left (fun f nv => match snd nv with PBool b => flag_set f (fst nv) b | POther => f end) kw f).
  assert (forall n, In n flag_order -> flag_get g n = requested kw n (flag_get f n)) as Hg.
  { intros n Hn. unfold g, requested. clear g E1 E2. revert Hkw. induction kw as [|[m v] l IH] using rev_ind; intros Hkw; [reflexivity|].
    rewrite fold_left_app, rev_app_distr. cbn [fold_left rev List.app find fst snd].
    destruct (Hkw m v ltac:(apply in_or_app; right; now left)) as [Hm [b ->]]. rewrite flag_get_set by assumption.
    destruct (String.eqb m n); [reflexivity|]. apply IH. intros n' v' Hi. apply Hkw. apply in_or_app. now left. }
  rewrite <- !Hg by (cbn; tauto). destruct g as [[] [] [] []]; auto.
Qed.
(** Distinct settings have distinct keys, and the key is zero exactly when all
    flags are off. *)
Theorem C38_key_injective f f' : to_int f = to_int f' -> f = f'.
Proof. destruct f as [[] [] [] []], f' as [[] [] [] []]; intros H; reflexivity || discriminate. Qed.
Theorem C38_enabled f : is_enabled f = do_M_mitigation f || do_M_ansatz0 f || do_M_ansatz0_plus f || do_postselection f.
Proof. destruct f as [[] [] [] []]; reflexivity. Qed.
(** [all_to_false] clears every flag. *)
Theorem C38_all_false f :
  let g := all_to_false f in
  do_M_mitigation g = false /\ do_M_ansatz0 g = false /\ do_M_ansatz0_plus g = false /\ do_postselection g = false.
Proof. destruct f as [a b d e]. repeat split. Qed.
Example C38_example :
  fold_left flag_step [FUpdate [("do_M_ansatz0_plus", PBool true)]; FUpdate [("do_M_mitigation", PBool false)]; FUpdate [("nonsense", PBool true)]]%string
    (flags_init false false false true) = Build_flags true true true true.
Proof. reflexivity. Qed.

(** ** C39, C40: post-selection *)
Section PostSelection.
  Context {K : Type} {C : CRing K}.
  Local Open Scope K_scope.
  Add Ring KringPS : (@rth K C).
  Notation dist := (dist (K:=K)).

  (** With the Jordan-Wigner mapper exactly the bitstrings with [na] bits set
      among the low [n] (alpha) qubits and [nb] among the high [n] (beta) ones
      are kept, each divided by the weight kept, so that the result sums to
      one. *)
  Theorem C39_postselection kdiv (d : dist) n na nb : divides kdiv -> (0 < n)%nat -> NoDup (map fst d) ->
    Forall (fun kv : N * K => (fst kv < 2 ^ N.of_nat (2 * n))%N) d ->
    let kept := filter (fun kv : N * K => (electrons (fst kv) 0 n =? na)%nat && (electrons (fst kv) n n =? nb)%nat) d in
    let W := lsum kept snd in
    W <> 0 ->
    exists d', postselection kdiv d JordanWigner (na, nb) (2 * n) = Ok d' /\
      map fst d' = map fst kept /\
      Forall2 (fun kv' kv : N * K => snd kv' * W = snd kv) d' kept /\
      lsum d' snd = 1.
  Proof.
    intros Hdiv Hn Hnd Hd kept W HW.
    assert (kept = filter (fun kv : N * K => keeps JordanWigner (na, nb) (2 * n) (fst kv)) d) as Ek.
    { unfold kept. apply filter_ext_in. intros kv Hkv. rewrite Forall_forall in Hd. cbn [keeps fst snd]. symmetry. apply keep_jw_spec; auto. }
    destruct (postselection_ok kdiv d JordanWigner (na, nb) (2 * n) Hdiv Hnd ltac:(discriminate)) as (inv & Hi & E); [rewrite <- Ek; exact HW|].
    rewrite <- Ek in *. change (weight kept) with W in Hi. eexists. split; [exact E|]. split; [now rewrite map_map|]. split.
    - clear - Hi. clearbody W. clearbody kept. induction kept as [|[k v] l IH]; constructor; [|exact IH]. cbn. transitivity (v * (inv * W)); [ring|]. rewrite Hi. ring.
    - change (weight (map (fun kv : N * K => (fst kv, snd kv * inv)) kept) = 1). rewrite weight_scaled. change (weight kept) with W.
      rewrite <- Hi. ring.
  Qed.
  (** When nothing is kept the result is empty; when the kept weight is zero the
      division raises. *)
  Theorem C39_nothing_kept kdiv (d : dist) n na nb : (0 < n)%nat -> NoDup (map fst d) ->
    Forall (fun kv : N * K => (fst kv < 2 ^ N.of_nat (2 * n))%N) d ->
    let kept := filter (fun kv : N * K => (electrons (fst kv) 0 n =? na)%nat && (electrons (fst kv) n n =? nb)%nat) d in
    (kept = [] -> postselection kdiv d JordanWigner (na, nb) (2 * n) = Ok []) /\
    (kept <> [] -> lsum kept snd = 0 -> (forall a, kdiv a 0 = Raise ZeroDivisionError) ->
       postselection kdiv d JordanWigner (na, nb) (2 * n) = Raise ZeroDivisionError).
  Proof.
    intros Hn Hnd Hd kept.
    assert (kept = filter (fun kv : N * K => keeps JordanWigner (na, nb) (2 * n) (fst kv)) d) as Ek.
    { unfold kept. apply filter_ext_in. intros kv Hkv. rewrite Forall_forall in Hd. cbn [keeps fst snd]. symmetry. apply keep_jw_spec; auto. }
    rewrite postselection_eq by (assumption || discriminate). rewrite <- Ek. split.
    - intros ->. reflexivity.
    - intros Hne H0 Hz. change (weight kept) with (lsum kept snd). rewrite H0. destruct kept as [|kv l]; [easy|]. cbn [fold_left bind]. rewrite Hz.
      clear. cbn [bind]. induction l; [reflexivity|exact IHl].
  Qed.
  (** With the parity mapper and equal numbers of alpha and beta electrons
      exactly the encodings of determinants with those numbers are kept. *)
  Theorem C40_equal_numbers kdiv (d : dist) n m : divides kdiv -> (2 <= n)%nat -> NoDup (map fst d) ->
    Forall (fun kv : N * K => (fst kv < 2 ^ N.of_nat (2 * n - 2))%N) d ->
    let kept := filter (fun kv : N * K => keep_parity m m (format_b (2 * n - 2) (fst kv))) d in
    (forall kv, In kv kept <-> In kv d /\ exists f, List.length f = (2 * n)%nat /\ count1 (firstn n f) = m /\ count1 (skipn n f) = m /\
                                                format_b (2 * n - 2) (fst kv) = encode n f) /\
    (lsum kept snd <> 0 -> exists d', postselection kdiv d Parity (m, m) (2 * n - 2) = Ok d' /\ map fst d' = map fst kept /\
      Forall2 (fun kv' kv : N * K => snd kv' * lsum kept snd = snd kv) d' kept /\ lsum d' snd = 1).
  Proof.
    intros Hdiv Hn Hnd Hd kept. split.
    - intros kv. unfold kept. rewrite filter_In. split; intros [Hi H]; split; try exact Hi.
      + rewrite Forall_forall in Hd. destruct (keep_parity_complete n m (format_b (2 * n - 2) (fst kv))) as (f & H1 & H2 & H3 & H4); [lia| |exact H|].
        * apply format_length; [now apply Hd|lia].
        * exists f. auto.
      + destruct H as (f & H1 & H2 & H3 & ->). rewrite (keep_parity_encode n f m m) by (assumption || lia). apply Nat.eqb_refl.
    - intros HW. destruct (postselection_ok kdiv d Parity (m, m) (2 * n - 2) Hdiv Hnd ltac:(discriminate)) as (inv & Hi & E); [exact HW|].
      change (filter _ d) with kept in E, Hi. change (weight kept) with (lsum kept snd) in Hi. eexists. split; [exact E|]. split; [now rewrite map_map|]. split.
      + clear - Hi. revert Hi. generalize (lsum kept snd). intros W Hi. clearbody kept. induction kept as [|[k v] l IH]; constructor; [|exact IH].
        cbn. transitivity (v * (inv * W)); [ring|]. rewrite Hi. ring.
      + change (weight (map (fun kv : N * K => (fst kv, snd kv * inv)) kept) = 1). rewrite weight_scaled. change (weight kept) with (lsum kept snd).
        rewrite <- Hi. ring.
  Qed.
End PostSelection.
(** For unequal numbers of electrons every physical bitstring is rejected. *)
Theorem C40_unequal_numbers_refuted n f na nb : (1 <= n)%nat -> List.length f = (2 * n)%nat ->
  count1 (firstn n f) = na -> count1 (skipn n f) = nb -> na <> nb -> keep_parity na nb (encode n f) = false.
Proof. intros Hn Hl Ha Hb Hne. rewrite (keep_parity_encode n f na nb) by assumption. now apply Nat.eqb_neq. Qed.

Definition zdiv_ex (a b : Z) : Res Z := if Z.eqb b 0 then Raise ZeroDivisionError else Ok (a / b)%Z.
Example C39_example : postselection zdiv_ex [(5%N, 3%Z); (6%N, 4%Z); (9%N, (-3)%Z); (10%N, (-3)%Z); (3%N, 7%Z)] JordanWigner (1, 1) 4
  = Ok [(5%N, 3%Z); (6%N, 4%Z); (9%N, (-3)%Z); (10%N, (-3)%Z)].
Proof. reflexivity. Qed.
Example C40_example : encode 3 [true; false; true; false; true; true] = [true; false; true; true] /\
  keep_parity 2 2 (encode 3 [true; false; true; false; true; true]) = true.
Proof. split; reflexivity. Qed.
Example C40_example_unequal : keep_parity 1 0 (encode 2 [true; false; false; false]) = false /\
  keep_parity 2 0 (encode 2 [true; true; false; false]) = false /\ keep_parity 2 0 (encode 2 [false; false; true; true]) = true.
Proof. repeat split; reflexivity. Qed.

(** ** C47: shots *)

(** What holds after any history of assignments with positive maxima: a run
    never has more shots than the maximum, and the repetitions together have
    exactly the number of shots that the object reports. *)
Definition shots_ok (st : shot_state) : Prop :=
  0 < sh_max st /\ 1 <= sh_mult st /\
  match sh_shots st with
  | None => sh_mult st = 1
  | Some s => exists r, run_shots st = Some r /\ r <= sh_max st /\ sh_mult st * r = s
  end.
Lemma set_shots_spec v2 s st : 0 < sh_max st ->
  let st' := fst (set_shots v2 s st) in
  snd (set_shots v2 s st) = Ok tt /\ shots_ok st' /\ sh_max st' = sh_max st /\
  forall n, s = Some n -> exists r, run_shots st' = Some r /\ sh_shots st' = Some (sh_mult st' * r) /\ sh_mult st' * r <= n /\ (0 < n -> n < sh_mult st' * r + r).
Proof.
  intros Hm. unfold set_shots. set (s' := match s with None => if v2 then Some (100 * 100) else None | Some s => Some s end).
  assert (forall n, s = Some n -> s' = Some n) as Hs by (intros n ->; reflexivity). destruct s' as [t|].
  2: { cbn [fst snd sh_max]. split; [reflexivity|]. split; [repeat split; cbn; lia|]. split; [reflexivity|]. intros n Hn. specialize (Hs n Hn). discriminate. }
  assert (forall (P : nat -> Prop), P t -> forall n, s = Some n -> P n) as HP by (intros P Hp n Hn; specialize (Hs n Hn); congruence).
  destruct (Nat.ltb_spec (sh_max st) t) as [Hlt|Hle].
  - destruct (Nat.eqb_spec (sh_max st) 0) as [E|_]; [lia|].
    pose proof (Nat.div_mod t (sh_max st) ltac:(lia)) as Hdm. pose proof (Nat.mod_upper_bound t (sh_max st) ltac:(lia)) as Hub.
    assert (1 <= t / sh_max st) as Hd by (apply Nat.div_le_lower_bound; lia).
    set (q := t / sh_max st) in *. set (m := sh_max st) in *. set (rr := t mod m) in *.
    assert ((if negb (rr =? 0) then q * m else t) = q * m) as Es by (destruct (Nat.eqb_spec rr 0); cbn; [nia|reflexivity]).
    rewrite Es. cbn [fst snd sh_max sh_mult sh_shots]. split; [reflexivity|].
    assert (exists r, run_shots {| sh_max := m; sh_shots := Some (q * m); sh_mult := q |} = Some r /\ r = m) as (r & Hr & ->).
    { unfold run_shots. cbn [sh_mult sh_max sh_shots]. destruct (1 <? q) eqn:E; [exists m; auto|]. apply Nat.ltb_ge in E. exists (q * m). split; [reflexivity|]. nia. }
    split; [|split; [reflexivity|]].
    + split; [exact Hm|]. cbn. split; [exact Hd|]. exists m. auto.
    + apply HP. exists m. split; [exact Hr|]. split; [reflexivity|]. split; [nia|nia].
  - cbn [fst snd sh_max sh_mult sh_shots]. split; [reflexivity|]. split; [|split; [reflexivity|]].
    + split; [exact Hm|]. cbn. split; [lia|]. exists t. split; [reflexivity|]. lia.
    + apply HP. exists t. split; [reflexivity|]. split; [f_equal; lia|]. lia.
Qed.
Definition positive_max (c : shot_call) : Prop := match c with SetMax m => 0 < m | SetShots _ => True end.
Lemma shot_step_ok v2 c st : positive_max c -> 0 < sh_max st -> shots_ok (shot_step v2 c st).
Proof.
  intros Hc Hst. destruct c as [s|m]; cbn [shot_step positive_max] in *.
  - now destruct (set_shots_spec v2 s st Hst) as (_ & H & _).
  - unfold set_max_shots. now destruct (set_shots_spec v2 (sh_shots st) {| sh_max := m; sh_shots := sh_shots st; sh_mult := sh_mult st |} Hc) as (_ & H & _).
Qed.
Theorem C47_history v2 cs st : shots_ok st -> Forall positive_max cs ->
  shots_ok (fold_left (fun st c => shot_step v2 c st) cs st).
Proof.
  revert st. induction cs as [|c cs IH]; intros st Hst Hcs; [exact Hst|]. inversion_clear Hcs. cbn [fold_left]. apply IH; [|assumption].
  apply shot_step_ok; [assumption|apply Hst].
Qed.
(** Right after an assignment of [n > 0] shots the runs together have at most
    [n] shots and miss it by less than one run. *)
Theorem C47_assignment v2 cs st n : shots_ok st -> Forall positive_max cs -> 0 < n ->
  let st' := shot_step v2 (SetShots (Some n)) (fold_left (fun st c => shot_step v2 c st) cs st) in
  exists r, run_shots st' = Some r /\ sh_shots st' = Some (sh_mult st' * r) /\ sh_mult st' * r <= n < sh_mult st' * r + r.
Proof.
  intros Hst Hcs Hn st'. pose proof (C47_history v2 cs st Hst Hcs) as Hok.
  destruct (set_shots_spec v2 (Some n) (fold_left (fun st c => shot_step v2 c st) cs st) (proj1 Hok)) as (_ & _ & _ & H).
  destruct (H n eq_refl) as (r & H1 & H2 & H3 & H4). exists r. unfold st'. cbn [shot_step]. auto.
Qed.
(** Changing the maximum never increases the number of shots, so shots lost to
    rounding are not recovered when the maximum is raised afterwards. *)
Theorem C47_change_max v2 m st n : 0 < m -> sh_shots st = Some n ->
  exists n', sh_shots (shot_step v2 (SetMax m) st) = Some n' /\ n' <= n.
Proof.
  intros Hm Hs. cbn [shot_step]. unfold set_max_shots.
  destruct (set_shots_spec v2 (sh_shots st) {| sh_max := m; sh_shots := sh_shots st; sh_mult := sh_mult st |} Hm) as (_ & _ & _ & H).
  destruct (H n Hs) as (r & _ & H2 & H3 & _). eexists. split; [exact H2|exact H3].
Qed.
Theorem C47_raise_max_refuted : exists cs : list shot_call, Forall positive_max cs /\
  let st' := fold_left (fun st c => shot_step false c st) cs {| sh_max := 100; sh_shots := None; sh_mult := 1 |} in
  In (SetShots (Some 10)) cs /\ sh_max st' = 100 /\ sh_shots st' = Some 7.
Proof. exists [SetShots (Some 10); SetMax 7; SetMax 100]. cbn. split; [repeat constructor|]. auto. Qed.

(** The averaged distribution of a circuit is, key by key, the mean over the
    repeated runs of that circuit. *)
Theorem C47_average {K} {C : CRing K} (kdiv : K -> Res K) (g : K -> K) (one_run : list (dist (K:=K))) (more : list (list (dist (K:=K)))) :
  let n := List.length one_run in
  let runs := one_run :: more in
  (0 < n) -> more <> [] -> Forall (fun r => List.length r = n) runs -> Forall (Forall (fun d : dist (K:=K) => NoDup (map fst d))) runs ->
  (forall a, kdiv a = Ok (g a)) -> g rO = rO ->
  exists ds, combine_runs kdiv n (List.length runs) (List.concat runs) = Ok ds /\ List.length ds = n /\
    forall j k, j < n -> at_key k (nth j ds []) = g (lsum runs (fun r => at_key k (nth j r []))).
Proof.
  intros n runs Hn Hmore Hlen Hnd Hdiv Hg0. unfold combine_runs.
  replace (List.length runs =? 1) with false by (symmetry; apply Nat.eqb_neq; unfold runs; destruct more; [easy|]; cbn; lia).
  unfold runs at 1 2 3. cbn [List.concat]. rewrite app_length. fold n. rewrite Nat.add_sub_swap by lia. rewrite Nat.sub_diag. cbn [Nat.add].
  rewrite skipn_app, firstn_app. fold n. rewrite Nat.sub_diag, (firstn_all2 one_run (le_n n)), (skipn_all2 one_run (le_n n)). cbn [firstn skipn]. rewrite app_nil_r. cbn [List.app].
  inversion_clear Hlen as [|? ? _ Hlen']. inversion_clear Hnd as [|? ? Hnd1 Hnd'].
  set (l := combine (seq 0 (List.length (List.concat more))) (List.concat more)).
  assert (Forall (fun nd : nat * dist => NoDup (map fst (snd nd))) l) as Hl.
  { apply Forall_forall. intros [i d] Hi. apply in_combine_r in Hi. apply in_concat in Hi as (r & Hr & Hd). cbn.
    rewrite Forall_forall in Hnd'. specialize (Hnd' r Hr). rewrite Forall_forall in Hnd'. now apply Hnd'. }
  destruct (fold_merge n l one_run eq_refl Hl) as [L V]. change (fold_left _ l one_run) with (fold_left (merge n) l one_run).
  rewrite (divide_all kdiv g) by assumption. eexists. split; [reflexivity|]. split; [now rewrite map_length|].
  intros j k Hj. change (@nil (N * K)) with (map (fun kv : N * K => (fst kv, g (snd kv))) []). rewrite map_nth, at_map_key by assumption. f_equal.
  rewrite V by assumption. unfold l. rewrite (flat_filter n more 0 Hn Hlen' (Nat.mod_0_l n ltac:(lia)) j (at_key k) Hj). reflexivity.
Qed.
Example C47_example : combine_runs (fun a => Ok (a / 2)%Z) 2 2 [[(0%N, 2%Z)]; [(1%N, 4%Z)]; [(3%N, 6%Z); (0%N, 4%Z)]; [(1%N, 2%Z)]]
  = Ok [[(0%N, 3%Z); (3%N, 3%Z)]; [(1%N, 3%Z)]].
Proof. reflexivity. Qed.
Example C47_example_hyp : shots_ok {| sh_max := 100; sh_shots := None; sh_mult := 1 |}.
Proof. repeat split; cbn; lia. Qed.

Print Assumptions C35_lookup.
Print Assumptions C35_distribution.
Print Assumptions C35_heads.
Print Assumptions C35_batch_order.
Print Assumptions C35_groups.
Print Assumptions C36_provenance.
Print Assumptions C36_new_heads.
Print Assumptions C36_add_raises.
Print Assumptions C38_consistent.
Print Assumptions C38_update.
Print Assumptions C38_key_injective.
Print Assumptions C38_enabled.
Print Assumptions C38_all_false.
Print Assumptions C39_postselection.
Print Assumptions C39_nothing_kept.
Print Assumptions C40_equal_numbers.
Print Assumptions C40_unequal_numbers_refuted.
Print Assumptions C47_history.
Print Assumptions C47_assignment.
Print Assumptions C47_change_max.
Print Assumptions C47_raise_max_refuted.
Print Assumptions C47_average.
