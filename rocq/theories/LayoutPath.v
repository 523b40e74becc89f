(** Proofs about [find_best_path] and [add_permutation_gate]. *)
From Coq Require Import List Bool Arith NArith ZArith Lia Permutation Sorted.
From Verif Require Import Base Fock CliqueModel QubitModel QubitProofs QubitCirc LayoutModel.
Import ListNotations.
Local Open Scope list_scope.

Definition adjE (edges : list (nat * nat)) (a b : nat) : Prop := In (a, b) edges \/ In (b, a) edges.

Lemma neighbours_add adj u v u' v' : In v' (neighbours (adj_add adj u v) u') <-> (u' = u /\ v' = v) \/ In v' (neighbours adj u').
Proof.
  induction adj as [|[w l] r IH]; cbn [adj_add neighbours].
  - destruct (Nat.eqb_spec u u') as [->|H]; cbn [In]; intuition congruence.
  - destruct (Nat.eqb_spec w u) as [->|Hw]; cbn [neighbours].
    + destruct (Nat.eqb_spec u u') as [->|Hu]; [rewrite in_app_iff; cbn [In]; intuition congruence|intuition congruence].
    + destruct (Nat.eqb_spec w u') as [->|Hu]; [intuition congruence|exact IH].
Qed.
Lemma neighbours_fold edges adj u v : In v (neighbours (fold_left (fun adj uv => adj_add (adj_add adj (fst uv) (snd uv)) (snd uv) (fst uv)) edges adj) u) <->
  adjE edges u v \/ In v (neighbours adj u).
Proof.
  revert adj. induction edges as [|[a b] es IH]; intros adj; cbn [fold_left].
  - unfold adjE. cbn [In]. tauto.
  - rewrite IH, !neighbours_add. cbn [fst snd]. unfold adjE. cbn [In]. intuition (try congruence); subst; auto.
Qed.
Lemma neighbours_spec edges u v : In v (neighbours (adjacency edges) u) <-> adjE edges u v.
Proof. unfold adjacency. rewrite neighbours_fold. cbn [neighbours In]. tauto. Qed.

(** Walks with their number of edges. *)
Inductive wk (E : list (nat * nat)) (s : nat) : nat -> nat -> Prop :=
| wk0 : wk E s s 0
| wkS u v n : wk E s u n -> adjE E u v -> wk E s v (S n).

Lemma parent_of_in P c p : NoDup (map fst P) -> In (c, p) P -> parent_of P c = Some p.
Proof.
  induction P as [|[y q] P IH]; cbn [map fst parent_of]; intros Hn Hi; [destruct Hi|].
  inversion_clear Hn as [|? ? Hy Hn']. destruct Hi as [E|Hi].
  - injection E as -> ->. now rewrite Nat.eqb_refl.
  - destruct (Nat.eqb_spec y c) as [->|_]; [|auto]. exfalso. apply Hy. apply in_map_iff. exists (c, p). auto.
Qed.
Lemma parent_of_none P c : parent_of P c = None <-> ~ In c (map fst P).
Proof.
  induction P as [|[y q] P IH]; cbn [map fst parent_of]; [cbn; tauto|].
  destruct (Nat.eqb_spec y c) as [->|H]; cbn [In].
  - split; [discriminate|]. intros H. exfalso. apply H. now left.
  - rewrite IH. intuition.
Qed.

Section Search.
  Variable E : list (nat * nat).
  Variables s target : nat.
  (** An entry of [parent] with the (ghost) number of edges from [s]. *)
  Notation entry := (nat * option nat * nat)%type.
  Notation node e := (fst (fst e)).
  Notation depth e := (snd e).
  Definition nodes (G : list entry) : list nat := map fst (map fst G).

  Record rooted (G : list entry) : Prop := {
    ro_nodup : NoDup (nodes G);
    ro_s : In (s, None, 0) G;
    ro_par : forall x p d, In (x, p, d) G -> match p with
      | None => x = s /\ d = 0
      | Some q => exists pq d', In (q, pq, d') G /\ d = S d' /\ adjE E q x end;
    ro_len : forall e, In e G -> depth e < length G;
    ro_in : forall e, In e G -> In (node e) (s :: flat_map (fun uv => [fst uv; snd uv]) E)
  }.
  Record searching (don todo : list entry) : Prop := {
    se_root : rooted (don ++ todo);
    se_sort : StronglySorted (fun a b : entry => depth a <= depth b) todo;
    se_head : forall h r e, todo = h :: r -> In e todo -> depth e <= S (depth h);
    se_le : forall e f, In e don -> In f todo -> depth e <= depth f;
    se_closed : forall e v, In e don -> adjE E (node e) v -> exists f, In f (don ++ todo) /\ node f = v /\ depth f <= S (depth e);
    se_target : forall e, In e don -> node e <> target
  }.

  Lemma nodes_app a b : nodes (a ++ b) = nodes a ++ nodes b.
  Proof. unfold nodes. now rewrite !map_app. Qed.
  Lemma in_nodes e G : In e G -> In (node e) (nodes G).
  Proof. intros H. unfold nodes. now apply in_map, in_map. Qed.
  Lemma nodes_in x G : In x (nodes G) -> exists e, In e G /\ node e = x.
  Proof. unfold nodes. rewrite map_map. intros H. apply in_map_iff in H as (e & <- & H). eauto. Qed.
  Lemma same_node e f G : NoDup (nodes G) -> In e G -> In f G -> node e = node f -> e = f.
  Proof.
    unfold nodes. rewrite map_map. induction G as [|g G IH]; cbn [map]; intros Hn He Hf Heq; [destruct He|].
    inversion_clear Hn as [|? ? Hg Hn']. destruct He as [->|He], Hf as [->|Hf]; auto.
    - exfalso. apply Hg. rewrite Heq. exact (in_map (fun x : entry => node x) _ _ Hf).
    - exfalso. apply Hg. rewrite <- Heq. exact (in_map (fun x : entry => node x) _ _ He).
  Qed.

  Lemma visit_fold c D nbs q G : NoDup (nodes G) ->
    exists extra, fold_left (visit c) nbs (q, map fst G) = (q ++ nodes extra, map fst (G ++ extra)) /\
      (forall e, In e extra -> exists v, In v nbs /\ e = (v, Some c, S D)) /\
      NoDup (nodes (G ++ extra)) /\ (forall v, In v nbs -> In v (nodes (G ++ extra))).
  Proof.
    revert q G. induction nbs as [|v nbs IH]; intros q G Hn; cbn [fold_left].
    - exists []. rewrite !app_nil_r. cbn [In]. firstorder.
    - unfold visit at 2. cbn [fst snd]. destruct (parent_of (map fst G) v) eqn:Ep.
      + destruct (IH q G Hn) as (extra & Ef & He & Hn' & Hv). exists extra. split; [exact Ef|]. split; [|split; [exact Hn'|]].
        * intros e Hi. destruct (He e Hi) as (w & Hw & ->). exists w. cbn [In]. auto.
        * intros w [<-|Hw]; [|auto]. rewrite nodes_app, in_app_iff. left. unfold nodes.
          destruct (in_dec Nat.eq_dec v (map fst (map fst G))) as [Hi|Ho]; [exact Hi|]. apply parent_of_none in Ho. congruence.
      + apply parent_of_none in Ep.
        assert (NoDup (nodes (G ++ [(v, Some c, S D)]))) as Hn1.
        { rewrite nodes_app. cbn [nodes map fst]. apply (Permutation_NoDup (Permutation_cons_append (nodes G) v)). constructor; auto. }
        destruct (IH (q ++ [v]) (G ++ [(v, Some c, S D)]) Hn1) as (extra & Ef & He & Hn' & Hv).
        exists ((v, Some c, S D) :: extra). rewrite <- !app_assoc in *. cbn [app] in *. rewrite map_app in Ef. cbn [map fst] in Ef. rewrite map_app in *. cbn [map fst] in *.
        split; [exact Ef|]. split; [|split; [exact Hn'|]].
        * intros e [<-|Hi]; [exists v; cbn [In]; auto|]. destruct (He e Hi) as (w & Hw & ->). exists w. cbn [In]. auto.
        * intros w [<-|Hw]; [|auto]. rewrite nodes_app, in_app_iff. right. now left.
  Qed.

  Lemma walk_lemma don todo v n : searching don todo -> wk E s v n ->
    (exists e, In e (don ++ todo) /\ node e = v /\ depth e <= n) \/ (exists e, In e todo /\ depth e <= n).
  Proof.
    intros HS Hw. induction Hw as [|u v n Hw IH Ha].
    - left. exists (s, None, 0). split; [apply (ro_s _ (se_root _ _ HS))|]. cbn. auto.
    - destruct IH as [(e & He & Eu & Hd)|(e & He & Hd)]; [|right; exists e; split; [exact He|lia]].
      apply in_app_or in He as [He|He]; [|right; exists e; split; [exact He|lia]].
      left. subst u. destruct (se_closed _ _ HS e v He Ha) as (f & Hf & Ev & Hfd). exists f. split; [exact Hf|]. split; [exact Ev|]. lia.
  Qed.

  Lemma rooted_bound G : rooted G -> length G <= 2 * length E + 1.
  Proof.
    intros HR. assert (length (nodes G) <= length (s :: flat_map (fun uv => [fst uv; snd uv]) E)) as H.
    { apply NoDup_incl_length; [apply (ro_nodup _ HR)|]. intros x Hx. apply nodes_in in Hx as (e & He & <-). now apply (ro_in _ HR). }
    unfold nodes in H. rewrite !map_length in H. cbn [length] in H.
    assert (length (flat_map (fun uv : nat * nat => [fst uv; snd uv]) E) = 2 * length E) as Hl.
    { clear. induction E as [|e es IH]; [reflexivity|]. cbn [flat_map length app]. lia. }
    lia.
  Qed.

  Lemma sorted_app (a b : list entry) : StronglySorted (fun a b : entry => depth a <= depth b) a -> StronglySorted (fun a b : entry => depth a <= depth b) b ->
    (forall x y, In x a -> In y b -> depth x <= depth y) -> StronglySorted (fun a b : entry => depth a <= depth b) (a ++ b).
  Proof.
    induction a as [|x a IH]; intros Ha Hb H; [exact Hb|]. inversion_clear Ha as [|? ? Ha' Hx]. cbn [app]. constructor.
    - apply IH; auto. intros u v Hu Hv. apply H; [now right|exact Hv].
    - apply Forall_app. split; [exact Hx|]. apply Forall_forall. intros y Hy. apply H; [now left|exact Hy].
  Qed.

  Lemma step_lemma don h r : searching don (h :: r) -> node h <> target ->
    exists extra, fold_left (visit (node h)) (neighbours (adjacency E) (node h)) (nodes r, map fst (don ++ h :: r)) =
        (nodes (r ++ extra), map fst ((don ++ [h]) ++ r ++ extra)) /\ searching (don ++ [h]) (r ++ extra).
  Proof.
    intros HS Ht. pose proof (se_root _ _ HS) as HR.
    destruct (visit_fold (node h) (depth h) (neighbours (adjacency E) (node h)) (nodes r) (don ++ h :: r) (ro_nodup _ HR)) as (extra & Ef & He & Hn & Hv).
    exists extra. assert ((don ++ [h]) ++ r ++ extra = (don ++ h :: r) ++ extra) as EG by (rewrite <- !app_assoc; reflexivity).
    rewrite EG, nodes_app. split; [exact Ef|].
    assert (In h (don ++ h :: r)) as Hh by (apply in_or_app; right; now left).
    assert (forall e, In e (don ++ h :: r) -> depth e <= S (depth h)) as Hle.
    { intros e Hi. apply in_app_or in Hi as [Hi|Hi]; [pose proof (se_le _ _ HS e h Hi (or_introl eq_refl)); lia|]. now apply (se_head _ _ HS h r e eq_refl). }
    assert (Hhead : forall e, In e r -> depth h <= depth e).
    { intros e Hi. pose proof (se_sort _ _ HS) as Hs. inversion_clear Hs as [|? ? _ Hx]. rewrite Forall_forall in Hx. now apply Hx. }
    constructor.
    - rewrite EG. constructor.
      + exact Hn.
      + apply in_or_app. left. apply (ro_s _ HR).
      + intros x p d Hi. apply in_app_or in Hi as [Hi|Hi].
        * pose proof (ro_par _ HR x p d Hi) as Hp. destruct p as [q|]; [|exact Hp]. destruct Hp as (pq & d' & Hq & Hd & Ha). exists pq, d'. split; [apply in_or_app; now left|auto].
        * destruct (He _ Hi) as (v & Hvn & Ee). injection Ee as -> -> ->. destruct h as [[hn hp] hd]. cbn [fst snd] in *. exists hp, hd. split; [apply in_or_app; now left|]. split; [reflexivity|].
          now apply neighbours_spec.
      + intros e Hi. rewrite app_length. apply in_app_or in Hi as [Hi|Hi]; [pose proof (ro_len _ HR e Hi); lia|].
        destruct (He _ Hi) as (v & _ & ->). cbn [snd]. pose proof (ro_len _ HR h Hh). destruct extra; [destruct Hi|]. cbn [length]. lia.
      + intros e Hi. apply in_app_or in Hi as [Hi|Hi]; [now apply (ro_in _ HR)|]. destruct (He _ Hi) as (v & Hvn & ->). cbn [fst]. right.
        apply neighbours_spec in Hvn. apply in_flat_map. destruct Hvn as [Hvn|Hvn]; eexists; (split; [exact Hvn|]); cbn; auto.
    - pose proof (se_sort _ _ HS) as Hs. inversion_clear Hs as [|? ? Hs' _]. apply sorted_app; [exact Hs'| |].
      + clear - He. induction extra as [|e extra IH]; constructor.
        * apply IH. intros f Hf. apply He. now right.
        * apply Forall_forall. intros f Hf. destruct (He e (or_introl eq_refl)) as (? & _ & ->), (He f (or_intror Hf)) as (? & _ & ->). reflexivity.
      + intros x y Hx Hy. destruct (He y Hy) as (? & _ & ->). cbn [snd]. apply Hle. apply in_or_app. right. now right.
    - intros h' r' e Er Hi. assert (depth e <= S (depth h)) as H1.
      { apply in_app_or in Hi as [Hi|Hi]; [apply Hle; apply in_or_app; right; now right|]. destruct (He _ Hi) as (? & _ & ->). cbn. lia. }
      assert (In h' (r ++ extra)) as Hh' by (rewrite Er; now left). apply in_app_or in Hh' as [Hh'|Hh'].
      + pose proof (Hhead h' Hh'). lia.
      + destruct (He _ Hh') as (? & _ & ->). cbn [snd]. lia.
    - intros e f Hi Hf. assert (depth e <= depth h) as H1.
      { apply in_app_or in Hi as [Hi|[<-|[]]]; [|lia]. now apply (se_le _ _ HS e h Hi (or_introl eq_refl)). }
      apply in_app_or in Hf as [Hf|Hf]; [pose proof (Hhead f Hf); lia|]. destruct (He _ Hf) as (? & _ & ->). cbn. lia.
    - intros e v Hi Ha. rewrite EG. apply in_app_or in Hi as [Hi|[<-|[]]].
      + destruct (se_closed _ _ HS e v Hi Ha) as (f & Hf & Ev & Hd). exists f. split; [apply in_or_app; now left|auto].
      + apply neighbours_spec in Ha. destruct (nodes_in _ _ (Hv v Ha)) as (f & Hf & Ev). exists f. split; [exact Hf|]. split; [exact Ev|].
        apply in_app_or in Hf as [Hf|Hf]; [now apply Hle|]. destruct (He _ Hf) as (? & _ & ->). cbn. lia.
    - intros e Hi. apply in_app_or in Hi as [Hi|[<-|[]]]; [now apply (se_target _ _ HS)|exact Ht].
  Qed.

  Lemma bfs_spec fuel don todo : searching don todo -> 2 * length E + 1 < fuel + length don ->
    match bfs fuel (adjacency E) target (nodes todo) (map fst (don ++ todo)) with
    | Ok P => exists G p d, P = map fst G /\ rooted G /\ In (target, p, d) G /\ forall n, wk E s target n -> d <= n
    | Raise ValueError => forall n, ~ wk E s target n
    | _ => False
    end.
  Proof.
    revert don todo. induction fuel as [|fuel IH]; intros don todo HS Hf.
    - exfalso. pose proof (rooted_bound _ (se_root _ _ HS)) as H. rewrite app_length in H. lia.
    - cbn [bfs]. destruct todo as [|h r].
      + cbn [nodes map]. intros n Hw. destruct (walk_lemma _ _ _ _ HS Hw) as [(e & He & Et & _)|(e & [] & _)].
        rewrite app_nil_r in He. now apply (se_target _ _ HS e He).
      + change (nodes (h :: r)) with (node h :: nodes r). cbv iota. destruct (Nat.eqb_spec (node h) target) as [Et|Ht].
        * exists (don ++ h :: r), (snd (fst h)), (depth h). split; [reflexivity|]. split; [apply (se_root _ _ HS)|].
          assert (In h (don ++ h :: r)) as Hh by (apply in_or_app; right; now left).
          split; [rewrite <- Et; destruct h as [[? ?] ?]; exact Hh|].
          intros n Hw. destruct (walk_lemma _ _ _ _ HS Hw) as [(e & He & Ee & Hd)|(e & He & Hd)].
          -- assert (e = h) as -> by (apply (same_node e h (don ++ h :: r)); auto; [apply (ro_nodup _ (se_root _ _ HS))|congruence]). exact Hd.
          -- destruct He as [->|He]; [exact Hd|]. pose proof (se_sort _ _ HS) as Hs. inversion_clear Hs as [|? ? _ Hx]. rewrite Forall_forall in Hx. pose proof (Hx e He). lia.
        * destruct (step_lemma don h r HS Ht) as (extra & Ef & HS'). cbv zeta. rewrite Ef. cbn [fst snd]. apply IH; [exact HS'|]. rewrite app_length. cbn [length]. lia.
  Qed.

  (** A list of qubits is a walk along edges. *)
  Fixpoint chain (w : list nat) : Prop :=
    match w with a :: (b :: _) as r => adjE E a b /\ chain r | _ => True end.
  Lemma chain_snoc w a b : chain (w ++ [a]) -> adjE E a b -> chain ((w ++ [a]) ++ [b]).
  Proof.
    induction w as [|x w IH]; cbn [app chain].
    - auto.
    - destruct w as [|y w]; cbn [app chain] in *; [intuition|]. intros [H1 H2] H3. split; [exact H1|]. apply IH; auto.
  Qed.

  Lemma back_spec G : rooted G -> forall fuel c p d path, In (c, p, d) G -> d < fuel ->
    exists w, back fuel (map fst G) (Some c) path = Ok ((w ++ [c]) ++ rev path) /\ chain (w ++ [c]) /\ hd c (w ++ [c]) = s /\ length w = d.
  Proof.
    intros HR fuel. induction fuel as [|fuel IH]; intros c p d path Hi Hd; [lia|]. cbn [back].
    assert (parent_of (map fst G) c = Some p) as Ep.
    { apply parent_of_in; [apply (ro_nodup _ HR)|]. exact (in_map fst G (c, p, d) Hi). }
    rewrite Ep. pose proof (ro_par _ HR c p d Hi) as Hp. destruct p as [q|].
    - destruct Hp as (pq & d' & Hq & -> & Ha). destruct (IH q pq d' (path ++ [c]) Hq ltac:(lia)) as (w & Eb & Hc & Hh & Hl).
      exists (w ++ [q]). split; [|split; [|split]].
      + rewrite Eb, rev_app_distr. cbn [rev app]. now rewrite <- !app_assoc.
      + now apply chain_snoc.
      + destruct w; exact Hh.
      + rewrite app_length. cbn [length]. lia.
    - destruct Hp as [-> ->]. exists []. cbn [app chain hd length].
      split; [|auto]. destruct fuel; cbn [back]; rewrite rev_app_distr; reflexivity.
  Qed.

  Lemma wk_chain w a : chain (w ++ [a]) -> hd a (w ++ [a]) = s -> wk E s a (length w).
  Proof.
    revert a. induction w as [|x w IH] using rev_ind; intros a Hc Hh.
    - cbn in Hh. subst. constructor.
    - rewrite app_length. cbn [length]. rewrite Nat.add_1_r. apply wkS with x.
      + apply IH; [|destruct w; exact Hh]. clear - Hc. revert Hc. generalize [a]. intros l.
        revert l. induction w as [|y w IH]; intros l; cbn [app chain].
        * trivial.
        * destruct w as [|z w]; cbn [app chain] in *; intros [H1 H2]; (split; [exact H1|]); [trivial|]. now apply (IH l).
      + clear - Hc. induction w as [|y w IH]; cbn [app chain] in Hc; [tauto|].
        destruct w as [|z w]; cbn [app] in *; cbn [chain] in Hc; [destruct Hc as [_ Hc]; exact (proj1 Hc)|]. apply IH. exact (proj2 Hc).
  Qed.
  Lemma start_searching : searching [] [(s, None, 0)].
  Proof.
    constructor; cbn [app].
    - constructor.
      + cbn. constructor; [auto|constructor].
      + now left.
      + intros x p d [Ei|[]]. injection Ei as <- <- <-. auto.
      + intros e [<-|[]]. cbn. lia.
      + intros e [<-|[]]. now left.
    - repeat constructor.
    - intros h r e Eh [<-|[]]. injection Eh as <- <-. lia.
    - intros e f [].
    - intros e v [].
    - intros e [].
  Qed.
  Lemma find_best_path_spec :
    match find_best_path E s target with
    | Ok path => exists w, path = w ++ [target] /\ chain path /\ hd target path = s /\ forall n, wk E s target n -> length w <= n
    | Raise ValueError => forall n, ~ wk E s target n
    | _ => False
    end.
  Proof.
    unfold find_best_path. destruct (Nat.eqb_spec s target) as [->|Hne].
    - exists []. cbn. auto with arith.
    - pose proof (bfs_spec (2 * length E + 2) [] [(s, None, 0)] start_searching ltac:(cbn; lia)) as H.
      cbn [nodes map fst app] in H. destruct (bfs _ _ _ _ _) as [P|e|]; cbn [bind]; [|exact H|exact H].
      destruct H as (G & p & d & -> & HR & Hi & Hmin).
      destruct (back_spec G HR (length (map fst G)) target p d [] Hi) as (w & Eb & Hc & Hh & Hl).
      { rewrite map_length. exact (ro_len _ HR _ Hi). }
      rewrite Eb. cbn [rev]. rewrite app_nil_r. exists w. split; [reflexivity|]. split; [exact Hc|]. split; [exact Hh|].
      intros n Hw. rewrite Hl. now apply Hmin.
  Qed.
End Search.

(** ** [list_swap] *)
Definition transp (a b k : nat) : nat := if k =? a then b else if k =? b then a else k.
Lemma nth_error_upd {A} (l : list A) i v k : nth_error (upd l i v) k = if (k =? i) && (i <? length l) then Some v else nth_error l k.
Proof.
  revert i k. induction l as [|x l IH]; intros i k.
  - cbn [upd length]. replace (i <? 0) with false by (symmetry; apply Nat.ltb_ge; lia). now rewrite andb_false_r.
  - destruct i as [|i], k as [|k]; cbn [upd nth_error length]; try reflexivity. now rewrite IH.
Qed.
Lemma upd_length {A} (l : list A) i v : length (upd l i v) = length l.
Proof. revert i. induction l as [|x l IH]; intros [|i]; cbn [upd length]; auto. Qed.
Lemma list_swap_some {A} (l : list A) a b : a < length l -> b < length l -> exists l', list_swap l a b = Some l'.
Proof.
  intros Ha Hb. unfold list_swap. destruct (nth_error l a) eqn:Ea; [|apply nth_error_None in Ea; lia].
  destruct (nth_error l b) eqn:Eb; [|apply nth_error_None in Eb; lia]. eauto.
Qed.
Lemma list_swap_nth {A} (l l' : list A) a b : list_swap l a b = Some l' ->
  a < length l /\ b < length l /\ length l' = length l /\ forall k, nth_error l' k = nth_error l (transp a b k).
Proof.
  unfold list_swap. destruct (nth_error l a) as [x|] eqn:Ea; [|discriminate]. destruct (nth_error l b) as [y|] eqn:Eb; [|discriminate].
  intros E. injection E as <-. assert (a < length l) as Ha by (apply nth_error_Some; congruence). assert (b < length l) as Hb by (apply nth_error_Some; congruence).
  split; [exact Ha|]. split; [exact Hb|]. split; [now rewrite !upd_length|]. intros k. rewrite !nth_error_upd, upd_length. unfold transp.
  apply Nat.ltb_lt in Ha, Hb. rewrite Ha, Hb. destruct (Nat.eqb_spec k a) as [Ka|Ka], (Nat.eqb_spec k b) as [Kb|Kb]; cbn [andb]; congruence.
Qed.
Lemma transp_invol a b k : transp a b (transp a b k) = k.
Proof.
  unfold transp. destruct (Nat.eqb_spec k a) as [Ka|Ka].
  - subst k. destruct (Nat.eqb_spec b a) as [Hb|Hb]; [now subst|]. now rewrite Nat.eqb_refl.
  - destruct (Nat.eqb_spec k b) as [Kb|Kb]; [subst k; now rewrite Nat.eqb_refl|].
    destruct (Nat.eqb_spec k a); [contradiction|]. destruct (Nat.eqb_spec k b); [contradiction|reflexivity].
Qed.
Lemma transp_lt n a b k : a < n -> b < n -> k < n -> transp a b k < n.
Proof. intros. unfold transp. destruct (k =? a); [lia|]. destruct (k =? b); lia. Qed.
Lemma list_swap_NoDup {A} (l l' : list A) a b : list_swap l a b = Some l' -> NoDup l -> NoDup l'.
Proof.
  intros E Hn. destruct (list_swap_nth l l' a b E) as (Ha & Hb & Hl & H). apply NoDup_nth_error. intros i j Hi Hij. rewrite !H in Hij.
  rewrite Hl in Hi. assert (transp a b i = transp a b j) as Et.
  { apply (proj1 (NoDup_nth_error l) Hn); [now apply transp_lt|exact Hij]. }
  rewrite <- (transp_invol a b i), Et. apply transp_invol.
Qed.

Lemma index_from_spec l x start k : match index_from l x start k with
  | Some p => start <= p /\ k <= p /\ nth_error l (p - k) = Some x
  | None => forall p, start <= p -> k <= p -> nth_error l (p - k) <> Some x
  end.
Proof.
  revert k. induction l as [|y l IH]; intros k; cbn [index_from].
  - intros p _ _ E. destruct (p - k); discriminate.
  - destruct ((start <=? k) && (x =? y)) eqn:E.
    + apply andb_true_iff in E as [E1 E2]. apply Nat.leb_le in E1. apply Nat.eqb_eq in E2 as ->. rewrite Nat.sub_diag. cbn. auto.
    + specialize (IH (S k)). destruct (index_from l x start (S k)) as [p|].
      * destruct IH as (H1 & H2 & H3). split; [exact H1|]. split; [lia|]. replace (p - k) with (S (p - S k)) by lia. exact H3.
      * intros p Hp Hk. destruct (Nat.eq_dec p k) as [->|Hne].
        -- rewrite Nat.sub_diag. cbn [nth_error]. intros E'. injection E' as ->. rewrite Nat.eqb_refl, andb_true_r in E. apply Nat.leb_gt in E. lia.
        -- replace (p - k) with (S (p - S k)) by lia. cbn [nth_error]. apply IH; lia.
Qed.

Lemma nth_error_ext {A} (l l' : list A) : (forall k, nth_error l k = nth_error l' k) -> l = l'.
Proof.
  revert l'. induction l as [|x l IH]; intros [|y l'] H; auto; try discriminate (H 0). f_equal.
  - specialize (H 0). cbn in H. congruence.
  - apply IH. intros k. exact (H (S k)).
Qed.
Lemma last_indep (l : list nat) : forall x d d', last (x :: l) d = last (x :: l) d'.
Proof. induction l as [|y l IH]; intros x d d'; [reflexivity|exact (IH y d d')]. Qed.

(** ** [add_permutation_gate] *)
Section Permute.
  Variable E : list (nat * nat).
  Variable n : nat.

  (** What the loop maintains: the swaps are along edges, and [cur] says which
      original position's content sits where. *)
  Record routed (sw : list (nat * nat)) (cur : list nat) : Prop := {
    rt_edges : forall a b, In (a, b) sw -> adjE E a b /\ a < n /\ b < n;
    rt_len : length cur = n;
    rt_run : fold_left (fun o ab => match o with Some l => list_swap l (fst ab) (snd ab) | None => None end) sw (Some (seq 0 n)) = Some cur
  }.
  Lemma routed_start : routed [] (seq 0 n).
  Proof. constructor; [intros a b []|apply seq_length|reflexivity]. Qed.
  Lemma routed_step sw cur a b cur' : routed sw cur -> adjE E a b -> list_swap cur a b = Some cur' -> routed (sw ++ [(a, b)]) cur'.
  Proof.
    intros [H1 H2 H3] Ha Es. destruct (list_swap_nth _ _ _ _ Es) as (La & Lb & Ll & _). rewrite H2 in *. constructor.
    - intros x y Hi. apply in_app_or in Hi as [Hi|[Hi|[]]]; [now apply H1|]. injection Hi as <- <-. auto.
    - exact Ll.
    - rewrite fold_left_app, H3. exact Es.
  Qed.
  Notation foldP := (fold_left (fun acc ab => bind acc (fun st : list (nat * nat) * list nat =>
      bind (of_opt IndexError (list_swap (snd st) (fst ab) (snd ab))) (fun cur => Ok (fst st ++ [ab], cur))))).
  Lemma foldP_raise l e : foldP l (Raise e) = Raise e.
  Proof. induction l; [reflexivity|exact IHl]. Qed.
  Lemma swap_path_cons v0 v1 path sw cur : swap_path (v0 :: v1 :: path) (sw, cur) =
    match list_swap cur v0 v1 with Some cur' => swap_path (v1 :: path) (sw ++ [(v0, v1)], cur') | None => Raise IndexError end.
  Proof.
    unfold swap_path. change (tl (v0 :: v1 :: path)) with (v1 :: path). change (combine (v0 :: v1 :: path) (v1 :: path)) with ((v0, v1) :: combine (v1 :: path) path).
    cbn [fold_left bind fst snd tl]. destruct (list_swap cur v0 v1); cbn [of_opt bind]; [reflexivity|apply foldP_raise].
  Qed.
  Lemma swap_path_routed path sw cur st' : routed sw cur -> chain E path -> swap_path path (sw, cur) = Ok st' -> routed (fst st') (snd st').
  Proof.
    revert sw cur. induction path as [|v0 path IH]; intros sw cur HR Hc Es.
    - injection Es as <-. exact HR.
    - destruct path as [|v1 path]; [injection Es as <-; exact HR|]. rewrite swap_path_cons in Es. destruct (list_swap cur v0 v1) as [cur'|] eqn:El; [|discriminate].
      cbn [chain] in Hc. destruct Hc as [Ha Hc]. apply (IH _ _ (routed_step _ _ _ _ _ HR Ha El) Hc Es).
  Qed.
  Lemma path_spec s t path : find_best_path E s t = Ok path -> exists w, path = w ++ [t] /\ chain E path /\ hd t path = s /\ forall k, wk E s t k -> length w <= k.
  Proof. intros H. pose proof (find_best_path_spec E s t) as Hs. now rewrite H in Hs. Qed.
  Lemma place_routed perm sw cur t st' : routed sw cur -> place E perm (sw, cur) t = Ok st' -> routed (fst st') (snd st').
  Proof.
    intros HR. unfold place. destruct (nth_error perm t) as [q|]; [|discriminate]. cbn [of_opt bind snd].
    destruct (index_from cur q 0 0) as [p|]; [|discriminate]. cbn [of_opt bind]. destruct (p =? t); [intros H; injection H as <-; exact HR|].
    destruct (find_best_path E p t) as [path|e|] eqn:Ep; try discriminate. cbn [bind]. destruct (path_spec _ _ _ Ep) as (w & _ & Hc & _).
    now apply swap_path_routed.
  Qed.
  Notation foldQ perm := (fold_left (fun acc t => bind acc (fun st => place E perm st t))).
  Lemma foldQ_raise perm l e : foldQ perm l (Raise e) = Raise e.
  Proof. induction l; [reflexivity|exact IHl]. Qed.
  Lemma foldQ_hang perm l : foldQ perm l Hang = Hang.
  Proof. induction l; [reflexivity|exact IHl]. Qed.
  Lemma pass_routed perm sw cur st' : routed sw cur -> pass E perm (sw, cur) = Ok st' -> routed (fst st') (snd st').
  Proof.
    unfold pass. generalize (seq 0 (length perm)). intros ts. revert sw cur. induction ts as [|t ts IH]; intros sw cur HR; cbn [fold_left bind].
    - intros H. injection H as <-. exact HR.
    - destruct (place E perm (sw, cur) t) as [[sw' cur']|e|] eqn:Ep; [|rewrite foldQ_raise; discriminate|rewrite foldQ_hang; discriminate].
      apply IH. exact (place_routed perm sw cur t _ HR Ep).
  Qed.
  Lemma loop_routed fuel perm sw cur st' : routed sw cur -> perm_loop fuel E perm (sw, cur) = Ok st' -> routed (fst st') (snd st') /\ snd st' = perm.
  Proof.
    revert sw cur. induction fuel as [|fuel IH]; intros sw cur HR; cbn [perm_loop snd].
    - destruct (list_eq_dec Nat.eq_dec cur perm) as [->|_]; [|discriminate]. intros H. injection H as <-. auto.
    - destruct (list_eq_dec Nat.eq_dec cur perm) as [->|_]; [intros H; injection H as <-; auto|].
      destruct (pass E perm (sw, cur)) as [[sw' cur']|e|] eqn:Ep; try discriminate. cbn [bind].
      apply IH. exact (pass_routed perm sw cur _ HR Ep).
  Qed.

  (** Moving a qubit along a path. *)
  Lemma swap_path_moves path v0 sw cur : (forall v, In v (v0 :: path) -> v < length cur) ->
    exists sw' cur', swap_path (v0 :: path) (sw, cur) = Ok (sw', cur') /\ length cur' = length cur /\
      nth_error cur' (last (v0 :: path) v0) = nth_error cur v0 /\
      (forall k, ~ In k (v0 :: path) -> nth_error cur' k = nth_error cur k) /\ (NoDup cur -> NoDup cur').
  Proof.
    revert v0 sw cur. induction path as [|v1 path IH]; intros v0 sw cur Hv.
    - exists sw, cur. cbn. auto.
    - destruct (list_swap_some cur v0 v1) as (c1 & E1); [apply Hv; now left|apply Hv; right; now left|].
      destruct (list_swap_nth _ _ _ _ E1) as (_ & _ & L1 & N1).
      destruct (IH v1 (sw ++ [(v0, v1)]) c1) as (sw' & cur' & Es & Hl & Hm & Hk & Hn); [intros v Hi; rewrite L1; apply Hv; now right|].
      exists sw', cur'. rewrite swap_path_cons, E1. split; [exact Es|]. split; [congruence|]. split; [|split].
      + change (last (v0 :: v1 :: path) v0) with (last (v1 :: path) v0). transitivity (nth_error c1 v1).
        * rewrite <- Hm. f_equal. apply last_indep.
        * rewrite N1. unfold transp. rewrite Nat.eqb_refl. destruct (Nat.eqb_spec v1 v0) as [->|]; reflexivity.
      + intros k Hk'. rewrite Hk by (intros Hi; apply Hk'; now right). rewrite N1. f_equal. unfold transp.
        destruct (Nat.eqb_spec k v0) as [->|]; [exfalso; apply Hk'; now left|]. destruct (Nat.eqb_spec k v1) as [->|]; [exfalso; apply Hk'; right; now left|reflexivity].
      + intros Hd. apply Hn. exact (list_swap_NoDup _ _ _ _ E1 Hd).
  Qed.

  (** Maps on which positions, once right, are not disturbed. *)
  Definition orderly : Prop := forall t p, t < p -> p < n -> exists path, find_best_path E p t = Ok path /\ forall v, In v path -> t <= v < n.

  Section Perm.
    Variable perm : list nat.
    Hypothesis Hperm : Permutation perm (seq 0 n).
    Lemma perm_length : length perm = n.
    Proof. rewrite (Permutation_length Hperm). apply seq_length. Qed.
    Lemma perm_nodup : NoDup perm.
    Proof. apply (Permutation_NoDup (Permutation_sym Hperm)), seq_NoDup. Qed.
    Record sane (cur : list nat) : Prop := { sa_len : length cur = n; sa_nodup : NoDup cur; sa_in : forall q, q < n -> In q cur }.
    Lemma sane_seq : sane (seq 0 n).
    Proof. constructor; [apply seq_length|apply seq_NoDup|intros q Hq; apply in_seq; lia]. Qed.

    Lemma place_orderly sw cur t : orderly -> sane cur -> t < n -> (forall k, k < t -> nth_error cur k = nth_error perm k) ->
      (forall q, In q cur -> q < n) ->
      exists sw' cur', place E perm (sw, cur) t = Ok (sw', cur') /\ sane cur' /\ (forall q, In q cur' -> q < n) /\ (forall k, k < S t -> nth_error cur' k = nth_error perm k).
    Proof.
      intros HO HS Ht Hk Hlt. unfold place. destruct (nth_error perm t) as [q|] eqn:Eq; [|apply nth_error_None in Eq; rewrite perm_length in Eq; lia].
      cbn [of_opt bind snd]. assert (q < n) as Hq by (apply nth_error_In in Eq; apply (Permutation_in _ Hperm), in_seq in Eq; lia).
      pose proof (index_from_spec cur q 0 0) as Hi. destruct (index_from cur q 0 0) as [p|].
      2: { exfalso. pose proof (sa_in _ HS q Hq) as Hin. apply In_nth_error in Hin as (k & Ek). apply (Hi k); [lia|lia|]. now rewrite Nat.sub_0_r. }
      destruct Hi as (_ & _ & Hp). rewrite Nat.sub_0_r in Hp. cbn [of_opt bind].
      assert (p < n) as Hpn by (rewrite <- (sa_len _ HS); apply nth_error_Some; congruence).
      assert (t <= p) as Htp.
      { destruct (Nat.le_gt_cases t p) as [H|H]; [exact H|]. exfalso. rewrite Hk in Hp by exact H.
        assert (p = t); [|lia]. apply (proj1 (NoDup_nth_error perm) perm_nodup); [rewrite perm_length; exact Hpn|congruence]. }
      destruct (Nat.eqb_spec p t) as [->|Hne].
      - exists sw, cur. split; [reflexivity|]. split; [exact HS|]. split; [exact Hlt|]. intros k Hkt. destruct (Nat.eq_dec k t) as [->|]; [congruence|]. apply Hk. lia.
      - destruct (HO t p ltac:(lia) Hpn) as (path & Epath & Hrange). rewrite Epath. cbn [bind].
        destruct (path_spec _ _ _ Epath) as (w & Ew & _ & Hh & _).
        destruct path as [|v0 path]; [destruct w; discriminate|]. cbn [hd] in Hh. subst v0.
        destruct (swap_path_moves path p sw cur) as (sw' & cur' & Es & Hl & Hm & Hkk & Hnd); [intros v Hv; rewrite (sa_len _ HS); now apply Hrange|].
        assert (last (p :: path) p = t) as El by (rewrite Ew; apply last_last). rewrite El in Hm.
        exists sw', cur'. split; [exact Es|].
        assert (Hlt' : forall q, In q cur' -> q < n).
        { (* contents are only moved around *)
          intros z Hz. clear - Es Hz Hlt. revert Es Hz Hlt. generalize (p :: path). intros l. revert sw cur. induction l as [|a l IH]; intros sw cur Es Hz Hlt.
          - injection Es as <- <-. auto.
          - destruct l as [|b l]; [injection Es as <- <-; auto|]. rewrite swap_path_cons in Es. destruct (list_swap cur a b) as [c1|] eqn:E1; [|discriminate].
            apply (IH _ _ Es Hz). intros y Hy. apply In_nth_error in Hy as (k & Ek). destruct (list_swap_nth _ _ _ _ E1) as (_ & _ & _ & N1).
            rewrite N1 in Ek. apply nth_error_In in Ek. auto. }
        split; [|split; [exact Hlt'|]].
        + constructor; [rewrite Hl; apply (sa_len _ HS)|apply Hnd, (sa_nodup _ HS)|]. intros z Hz.
          assert (Permutation cur' (seq 0 n)) as HP.
          { apply NoDup_Permutation_bis; [apply Hnd, (sa_nodup _ HS)| |].
            - rewrite seq_length, Hl. rewrite (sa_len _ HS). reflexivity.
            - intros y Hy. apply in_seq. split; [lia|]. now apply Hlt'. }
          apply (Permutation_in _ (Permutation_sym HP)). apply in_seq. lia.
        + intros k Hkt. destruct (Nat.eq_dec k t) as [->|Hkne]; [rewrite Hm, Eq; exact Hp|].
          rewrite Hkk; [apply Hk; lia|]. intros Hin. apply Hrange in Hin. lia.
    Qed.
    Lemma pass_orderly sw cur : orderly -> sane cur -> (forall q, In q cur -> q < n) -> exists sw', pass E perm (sw, cur) = Ok (sw', perm).
    Proof.
      intros HO HS Hlt. unfold pass. rewrite perm_length.
      assert (forall m t sw cur, t + m = n -> sane cur -> (forall q, In q cur -> q < n) -> (forall k, k < t -> nth_error cur k = nth_error perm k) ->
        exists sw', foldQ perm (seq t m) (Ok (sw, cur)) = Ok (sw', perm)) as G.
      { clear sw cur HS Hlt. induction m as [|m IH]; intros t sw cur Htm HS Hlt Hk; cbn [seq fold_left].
        - exists sw. do 2 f_equal. apply nth_error_ext. intros k. destruct (Nat.lt_ge_cases k t) as [H|H]; [now apply Hk|].
          pose proof (sa_len _ HS). pose proof perm_length. rewrite (proj2 (nth_error_None cur k)), (proj2 (nth_error_None perm k)) by lia. reflexivity.
        - cbn [bind]. destruct (place_orderly sw cur t HO HS ltac:(lia) Hk Hlt) as (sw' & cur' & Ep & HS' & Hlt' & Hk'). rewrite Ep. apply IH; auto. lia. }
      apply (G n 0); auto. intros k Hk. lia.
    Qed.
    Lemma loop_orderly : orderly -> exists sw, forall fuel, perm_loop (S fuel) E perm ([], seq 0 n) = Ok (sw, perm).
    Proof.
      intros HO. cbn [perm_loop snd]. destruct (list_eq_dec Nat.eq_dec (seq 0 n) perm) as [Ee|Hne]; [exists []; intros fuel; now rewrite Ee|].
      destruct (pass_orderly [] (seq 0 n) HO sane_seq) as (sw & Es); [intros q Hq; apply in_seq in Hq; lia|].
      exists sw. intros fuel. rewrite Es. cbn [bind]. destruct fuel; cbn [perm_loop snd]; destruct (list_eq_dec Nat.eq_dec perm perm); congruence.
    Qed.
  End Perm.
End Permute.

(** The meaning of a list of swaps on register states. *)
Lemma occ_setq x q b p : Fock.occ (setq x q b) p = if p =? q then b else Fock.occ x p.
Proof.
  unfold setq. destruct (Bool.eqb (Fock.occ x q) b) eqn:E.
  - apply eqb_prop in E. destruct (Nat.eqb_spec p q) as [->|]; auto.
  - destruct (Nat.eqb_spec p q) as [->|H]; [rewrite Fock.occ_flip_same; destruct (Fock.occ x q), b; auto; discriminate|apply Fock.occ_flip_other; congruence].
Qed.
Lemma run_swaps {K} {C : CRing K} s2 n sw cur (psi : qstate (K:=K)) x :
  fold_left (fun o ab => match o with Some l => list_swap l (fst ab) (snd ab) | None => None end) sw (Some (seq 0 n)) = Some cur ->
  exists y, run s2 (map (fun ab => GSwap (fst ab) (snd ab)) sw) psi x = psi y /\ length cur = n /\
    (forall t q, nth_error cur t = Some q -> Fock.occ y q = Fock.occ x t) /\ (forall q, n <= q -> Fock.occ y q = Fock.occ x q).
Proof.
  revert cur x. induction sw as [|[a b] sw IH] using rev_ind; intros cur x H.
  - cbn in H. injection H as <-. exists x. split; [reflexivity|]. split; [apply seq_length|]. split; [|auto].
    intros t q Hq. assert (t < n) as Ht by (rewrite <- (seq_length n 0); apply nth_error_Some; congruence).
    assert (nth_error (seq 0 n) t = Some t) as Ht'.
    { rewrite (nth_error_nth' _ 0) by (rewrite seq_length; exact Ht). now rewrite seq_nth. }
    congruence.
  - rewrite fold_left_app in H. cbn [fold_left fst snd] in H. destruct (fold_left _ sw (Some (seq 0 n))) as [c|] eqn:Ec; [|discriminate].
    destruct (list_swap_nth _ _ _ _ H) as (La & Lb & Ll & N).
    set (x' := setq (setq x a (Fock.occ x b)) b (Fock.occ x a)).
    assert (forall p, Fock.occ x' p = Fock.occ x (transp a b p)) as Hx'.
    { intros p. unfold x', transp. rewrite !occ_setq. destruct (Nat.eqb_spec p b) as [Hb|Hb], (Nat.eqb_spec p a) as [Ha|Ha]; congruence. }
    destruct (IH c x' eq_refl) as (y & Er & Lc & Hy & Ho). exists y. split; [|split; [congruence|split]].
    + rewrite map_app, run_app. cbn [map run fold_left fst snd]. cbn [gate_sem]. exact Er.
    + intros t q Hq. rewrite N in Hq. apply Hy in Hq. rewrite Hq, Hx', transp_invol. reflexivity.
    + intros q Hq. rewrite Ho by exact Hq. rewrite Hx'. f_equal. unfold transp.
      destruct (Nat.eqb_spec q a) as [->|_]; [lia|]. destruct (Nat.eqb_spec q b) as [->|_]; [lia|reflexivity].
Qed.
