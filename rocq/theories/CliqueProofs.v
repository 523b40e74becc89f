(** Facts about the Pauli-string bookkeeping of CliqueModel.v. *)
From Coq Require Import List Bool Arith NArith ZArith Lia Ring String Permutation Sorting.Sorted.
From Verif Require Import Base CliqueModel.
Import ListNotations.
Local Open Scope nat_scope.
Local Open Scope list_scope.

(** ** Letters and strings *)
Lemma letter_eqb_eq a b : letter_eqb a b = true <-> a = b.
Proof. destruct a, b; cbn; split; congruence. Qed.
Lemma letter_eqb_refl a : letter_eqb a a = true.
Proof. now apply letter_eqb_eq. Qed.
Lemma letter_eqb_neq a b : letter_eqb a b = false <-> a <> b.
Proof. destruct a, b; cbn; split; congruence. Qed.
Lemma pauli_eqb_eq a b : pauli_eqb a b = true <-> a = b.
Proof.
  revert b. induction a as [|x a IH]; intros [|y b]; cbn; try (split; congruence).
  rewrite andb_true_iff, letter_eqb_eq, IH. split; [intros [-> ->]; reflexivity|]. intros E. injection E. auto.
Qed.
Lemma pauli_eqb_refl a : pauli_eqb a a = true.
Proof. now apply pauli_eqb_eq. Qed.
Lemma pauli_eqb_neq a b : pauli_eqb a b = false <-> a <> b.
Proof. rewrite <- pauli_eqb_eq. destruct (pauli_eqb a b); split; congruence. Qed.

(** [p] is measured by the head [h]: same length, and every letter of [p] that
    is not the identity is the letter of [h] at that position. *)
Definition measured_by (p h : pauli) : Prop :=
  List.length p = List.length h /\ forall i, nth i p LI <> LI -> nth i h LI = nth i p LI.
(** [p] and [h] disagree at some position where neither is the identity. *)
Definition conflict (p h : pauli) : Prop :=
  exists i, nth i p LI <> LI /\ nth i h LI <> LI /\ nth i p LI <> nth i h LI.

Lemma conflict_sym p h : conflict p h -> conflict h p.
Proof. intros (i & A & B & D). exists i. auto. Qed.

Lemma commuting_false h p : List.length h = List.length p -> commuting_zip h p = false <-> conflict p h.
Proof.
  revert p. induction h as [|c h IH]; intros [|o p] Hl; cbn in Hl; try discriminate.
  - cbn. split; [discriminate|]. intros (i & A & _). destruct i; now elim A.
  - cbn [commuting_zip]. injection Hl as Hl. specialize (IH p Hl).
    assert (conflict (o :: p) (c :: h) <-> (o <> LI /\ c <> LI /\ o <> c) \/ conflict p h) as ->.
    { split.
      - intros ([|i] & A & B & D); cbn in A, B, D; [left; auto|right; exists i; auto].
      - intros [(A & B & D)|(i & A & B & D)]; [exists 0|exists (S i)]; auto. }
    destruct (letter_eqb c LI) eqn:E1; cbn [orb].
    { apply letter_eqb_eq in E1. rewrite IH. split; [auto|]. intros [(_ & A & _)|A]; [now elim A|exact A]. }
    destruct (letter_eqb o LI) eqn:E2.
    { apply letter_eqb_eq in E2. rewrite IH. split; [auto|]. intros [(A & _ & _)|A]; [now elim A|exact A]. }
    apply letter_eqb_neq in E1, E2. destruct (letter_eqb c o) eqn:E3.
    + apply letter_eqb_eq in E3. rewrite IH. split; [auto|]. intros [(_ & _ & A)|A]; [now elim A|exact A].
    + apply letter_eqb_neq in E3. split; [intros _; left; auto|reflexivity].
Qed.
Lemma commuting_true h p : List.length h = List.length p -> commuting_zip h p = true <-> ~ conflict p h.
Proof. intros Hl. rewrite <- (commuting_false h p Hl). destruct (commuting_zip h p); split; congruence. Qed.

Lemma head_zip_length h p : List.length h = List.length p -> List.length (head_zip h p) = List.length h.
Proof.
  revert p. induction h as [|c h IH]; intros [|o p] Hl; cbn in *; try discriminate; [reflexivity|].
  injection Hl as Hl. now rewrite IH.
Qed.
Lemma head_zip_nth h p i : List.length h = List.length p ->
  nth i (head_zip h p) LI = if letter_eqb (nth i h LI) LI then nth i p LI else nth i h LI.
Proof.
  revert p i. induction h as [|c h IH]; intros [|o p] i Hl; cbn in Hl; try discriminate.
  - cbn. destruct i; reflexivity.
  - injection Hl as Hl. destruct i as [|i]; cbn [head_zip nth]; [reflexivity|]. now apply IH.
Qed.
Lemma pauli_ext (a b : pauli) : List.length a = List.length b -> (forall i, nth i a LI = nth i b LI) -> a = b.
Proof. intros Hl H. apply (nth_ext _ _ LI LI Hl). intros i _. apply H. Qed.

Lemma head_zip_measures h p : List.length h = List.length p -> ~ conflict p h -> measured_by p (head_zip h p).
Proof.
  intros Hl Hc. split; [rewrite head_zip_length; auto|]. intros i Hi. rewrite head_zip_nth by exact Hl.
  destruct (letter_eqb (nth i h LI) LI) eqn:E; [reflexivity|]. apply letter_eqb_neq in E.
  destruct (letter_eqb (nth i p LI) (nth i h LI)) eqn:E2; [now apply letter_eqb_eq in E2|].
  apply letter_eqb_neq in E2. elim Hc. exists i. auto.
Qed.
Lemma measured_fits p h : measured_by p h -> fit_in_clique p h = (true, h).
Proof.
  intros [Hl H]. unfold fit_in_clique. rewrite (proj2 (commuting_true h p (eq_sym Hl))).
  - f_equal. apply pauli_ext; [apply head_zip_length; auto|]. intros i. rewrite head_zip_nth by auto.
    destruct (letter_eqb (nth i h LI) LI) eqn:E; [|reflexivity]. apply letter_eqb_eq in E. rewrite E.
    destruct (letter_eqb (nth i p LI) LI) eqn:E2; [now apply letter_eqb_eq in E2|].
    apply letter_eqb_neq in E2. rewrite <- (H i E2). exact E.
  - intros (i & A & B & D). apply D. symmetry. now apply H.
Qed.

(** [h'] has grown from [h]: the letters of [h] are kept. *)
Definition grows (h h' : pauli) : Prop := measured_by h h'.
Lemma grows_refl h : grows h h.
Proof. split; auto. Qed.
Lemma measured_trans p h h' : measured_by p h -> measured_by h h' -> measured_by p h'.
Proof.
  intros [L1 H1] [L2 H2]. split; [congruence|]. intros i Hi. rewrite <- (H1 i Hi). apply H2. now rewrite (H1 i Hi).
Qed.
Lemma conflict_grows p h h' : conflict p h -> grows h h' -> conflict p h'.
Proof.
  intros (i & A & B & D) [_ H]. exists i. rewrite (H i B). auto.
Qed.
Lemma head_zip_grows h p : List.length h = List.length p -> grows h (head_zip h p).
Proof.
  intros Hl. split; [rewrite head_zip_length; auto|]. intros i Hi. rewrite head_zip_nth by exact Hl.
  apply letter_eqb_neq in Hi. now rewrite Hi.
Qed.

(** ** Sorting *)
Lemma insert_desc_perm x l : Permutation (insert_desc x l) (x :: l).
Proof.
  induction l as [|y l IH]; cbn; [apply Permutation_refl|]. destruct (str_lt y x); [apply Permutation_refl|].
  rewrite IH. apply perm_swap.
Qed.
Lemma sorted_rev_perm l : Permutation (sorted_rev l) l.
Proof. induction l as [|x l IH]; cbn; [constructor|]. rewrite insert_desc_perm. now constructor. Qed.
Lemma in_sorted_rev p l : In p (sorted_rev l) <-> In p l.
Proof.
  split; intros H.
  - exact (Permutation_in _ (sorted_rev_perm l) H).
  - exact (Permutation_in _ (Permutation_sym (sorted_rev_perm l)) H).
Qed.

Lemma rank_inj a b : rank a = rank b -> a = b.
Proof. destruct a, b; cbn; congruence. Qed.
Lemma str_lt_irrefl a : str_lt a a = false.
Proof. induction a as [|x a IH]; cbn [str_lt]; [reflexivity|]. now rewrite Nat.ltb_irrefl, Nat.eqb_refl. Qed.
Lemma str_lt_total a b : str_lt a b = false -> str_lt b a = false -> a = b.
Proof.
  revert b. induction a as [|x a IH]; intros [|y b]; cbn [str_lt]; try congruence.
  destruct (Nat.ltb_spec (rank x) (rank y)); [discriminate|]. destruct (Nat.eqb_spec (rank x) (rank y)) as [E|E].
  - rewrite E, Nat.ltb_irrefl, Nat.eqb_refl. intros H1 H2. f_equal; [now apply rank_inj|now apply IH].
  - intros _. destruct (Nat.ltb_spec (rank y) (rank x)); [discriminate|]. lia.
Qed.
Lemma str_lt_trans a b c : str_lt a b = true -> str_lt b c = true -> str_lt a c = true.
Proof.
  revert b c. induction a as [|x a IH]; intros [|y b] [|z c]; cbn [str_lt]; try congruence.
  destruct (Nat.ltb_spec (rank x) (rank y)).
  - intros _. destruct (Nat.ltb_spec (rank y) (rank z)).
    + intros _. now rewrite (proj2 (Nat.ltb_lt (rank x) (rank z)) ltac:(lia)).
    + destruct (Nat.eqb_spec (rank y) (rank z)); [|discriminate]. intros _.
      now rewrite (proj2 (Nat.ltb_lt (rank x) (rank z)) ltac:(lia)).
  - destruct (Nat.eqb_spec (rank x) (rank y)) as [E|]; [|discriminate]. intros H1. rewrite E.
    destruct (Nat.ltb_spec (rank y) (rank z)); [reflexivity|]. destruct (Nat.eqb_spec (rank y) (rank z)); [|discriminate].
    intros H2. now apply (IH b c).
Qed.

(** Descending order. *)
Definition desc (a b : pauli) : Prop := str_lt a b = false.
Lemma desc_trans a b c : desc a b -> desc b c -> desc a c.
Proof.
  unfold desc. intros H1 H2. destruct (str_lt a c) eqn:E; [|reflexivity].
  destruct (str_lt b a) eqn:E1.
  - now rewrite (str_lt_trans b a c E1 E) in H2.
  - pose proof (str_lt_total a b H1 E1) as ->. congruence.
Qed.
Lemma desc_antisym a b : desc a b -> desc b a -> a = b.
Proof. unfold desc. intros. now apply str_lt_total. Qed.
Lemma desc_total a b : desc a b \/ desc b a.
Proof.
  unfold desc. destruct (str_lt a b) eqn:E; [|auto]. right. destruct (str_lt b a) eqn:E2; [|reflexivity].
  rewrite <- (str_lt_irrefl a). symmetry. now apply (str_lt_trans a b a).
Qed.
Lemma insert_desc_sorted x l : StronglySorted desc l -> StronglySorted desc (insert_desc x l).
Proof.
  induction 1 as [|y l Hl IH Hy]; cbn; [repeat constructor|]. destruct (str_lt y x) eqn:E.
  - assert (desc x y) as Hxy by (destruct (desc_total x y) as [H|H]; [exact H|unfold desc in H; congruence]).
    constructor; [constructor; auto|]. constructor; [exact Hxy|]. eapply Forall_impl; [|exact Hy]. intros z Hz. now apply (desc_trans x y z).
  - constructor; [exact IH|]. apply Forall_forall. intros z Hz. apply (Permutation_in _ (insert_desc_perm x l)) in Hz as [<-|Hz].
    + exact E.
    + rewrite Forall_forall in Hy. now apply Hy.
Qed.
Lemma sorted_rev_sorted l : StronglySorted desc (sorted_rev l).
Proof. induction l as [|x l IH]; cbn; [constructor|]. now apply insert_desc_sorted. Qed.
Lemma sorted_unique l l' : StronglySorted desc l -> StronglySorted desc l' -> Permutation l l' -> l = l'.
Proof.
  intros H. revert l'. induction H as [|x l Hl IH Hx]; intros l' H' HP.
  - apply Permutation_nil in HP. now subst.
  - destruct l' as [|y l']; [apply Permutation_sym, Permutation_nil in HP; discriminate|]. inversion H' as [|? ? Hl' Hy]; subst.
    assert (x = y) as ->.
    { rewrite Forall_forall in Hx, Hy. pose proof (Permutation_in x HP (or_introl eq_refl)) as [E|Hi]; [auto|].
      pose proof (Permutation_in y (Permutation_sym HP) (or_introl eq_refl)) as [E|Hj]; [auto|]. apply desc_antisym; auto. }
    f_equal. apply IH; [exact Hl'|]. now apply Permutation_cons_inv in HP.
Qed.
Lemma sorted_rev_permuted l l' : Permutation l l' -> sorted_rev l = sorted_rev l'.
Proof.
  intros HP. apply sorted_unique; try apply sorted_rev_sorted.
  rewrite (sorted_rev_perm l), HP. symmetry. apply sorted_rev_perm.
Qed.

(** ** Dictionaries *)
Lemma zget_zset_same {V} k (v : V) d : zget k (zset k v d) = Some v.
Proof.
  induction d as [|[k' v'] d IH]; cbn; [now rewrite N.eqb_refl|].
  destruct (N.eqb k k') eqn:E; cbn; rewrite E; [reflexivity|exact IH].
Qed.
Lemma zget_zset_other {V} k k' (v : V) d : k <> k' -> zget k (zset k' v d) = zget k d.
Proof.
  intros Hne. induction d as [|[k0 v0] d IH]; cbn.
  - now rewrite (proj2 (N.eqb_neq k k') Hne).
  - destruct (N.eqb k' k0) eqn:E; cbn.
    + apply N.eqb_eq in E as <-. rewrite (proj2 (N.eqb_neq k k') Hne). reflexivity.
    + now rewrite IH.
Qed.
Lemma zget_in {V} k (v : V) d : zget k d = Some v -> In (k, v) d.
Proof.
  induction d as [|[k' v'] d IH]; cbn; [discriminate|]. destruct (N.eqb_spec k k') as [->|_]; [intros E; injection E as ->; auto|auto].
Qed.
Lemma in_zset {V} k (v : V) d k' v' : In (k', v') (zset k v d) -> (k', v') = (k, v) \/ In (k', v') d.
Proof.
  induction d as [|[k0 v0] d IH]; cbn; [intros [E|[]]; auto|].
  destruct (N.eqb_spec k k0) as [->|_]; cbn; intros [E|H]; auto. destruct (IH H); auto.
Qed.
Lemma zset_length {V} k (v : V) d : List.length (zset k v d) <= S (List.length d).
Proof. induction d as [|[k' v'] d IH]; cbn; [lia|]. destruct (N.eqb k k'); cbn; lia. Qed.

(** ** Cliques *)
Section Clique.
  Context {K : Type} {C : CRing K}.
  Notation chead := (chead (K:=K)).
  Notation heads := (map (ch_head (K:=K))).

  (** What a clique list guarantees for a string [p] it has been given. *)
  Definition served (p : pauli) (cl : list chead) : Prop :=
    exists pre c post, cl = pre ++ c :: post /\ measured_by p (ch_head c) /\ Forall (fun c' : chead => conflict p (ch_head c')) pre.

  Fixpoint all_conflict (hs : list pauli) : Prop :=
    match hs with [] => True | h :: hs' => Forall (conflict h) hs' /\ all_conflict hs' end.

  (** Pairwise conflicts are stable: [place] described by cases. *)
  Lemma place_cases n p (cl : list chead) : List.length p = n -> Forall (fun c : chead => List.length (ch_head c) = n) cl ->
    (exists pre c post, cl = pre ++ c :: post /\ Forall (fun c' : chead => conflict p (ch_head c')) pre /\ ~ conflict p (ch_head c) /\
       place p cl = pre ++ {| ch_head := head_zip (ch_head c) p;
                              ch_distr := if pauli_eqb (head_zip (ch_head c) p) (ch_head c) then ch_distr c else saver_init |} :: post)
    \/ (Forall (fun c' : chead => conflict p (ch_head c')) cl /\ place p cl = cl ++ [new_chead p]).
  Proof.
    intros Hp. induction 1 as [|c cl Hc Hcl IH]; [right; split; [constructor|reflexivity]|].
    cbn [place]. unfold fit_in_clique. destruct (commuting_zip (ch_head c) p) eqn:E.
    - left. exists [], c, cl. split; [reflexivity|]. split; [constructor|]. split; [apply (commuting_true (ch_head c) p); [congruence|exact E]|].
      cbn. destruct (pauli_eqb (head_zip (ch_head c) p) (ch_head c)); reflexivity.
    - apply (commuting_false (ch_head c) p) in E; [|congruence]. destruct IH as [(pre & c0 & post & -> & A & B & D)|[A D]].
      + left. exists (c :: pre), c0, post. rewrite D. repeat split; auto.
      + right. rewrite D. split; auto.
  Qed.

  Lemma place_length n p cl : List.length p = n -> Forall (fun c : chead => List.length (ch_head c) = n) cl ->
    Forall (fun c : chead => List.length (ch_head c) = n) (place p cl).
  Proof.
    intros Hp Hcl. destruct (place_cases n p cl Hp Hcl) as [(pre & c & post & -> & _ & _ & ->)|[_ ->]].
    - apply Forall_app in Hcl as [H1 H2]. inversion H2; subst. apply Forall_app. split; [exact H1|]. constructor; [|assumption].
      cbn. now rewrite head_zip_length by congruence.
    - apply Forall_app. split; [exact Hcl|]. repeat constructor. exact Hp.
  Qed.

  (** The list after [place] has the old heads, possibly grown, then new ones. *)
  Definition evolves (cl cl' : list chead) : Prop :=
    exists old new, cl' = old ++ new /\ Forall2 (fun c c' : chead => grows (ch_head c) (ch_head c')) cl old.
  Lemma evolves_refl cl : evolves cl cl.
  Proof. exists cl, []. split; [now rewrite app_nil_r|]. induction cl; constructor; auto using grows_refl. Qed.
  Lemma forall2_grows_refl (l : list chead) : Forall2 (fun c c' : chead => grows (ch_head c) (ch_head c')) l l.
  Proof. induction l; constructor; auto using grows_refl. Qed.
  Lemma place_evolves n p cl : List.length p = n -> Forall (fun c : chead => List.length (ch_head c) = n) cl -> evolves cl (place p cl).
  Proof.
    intros Hp Hcl. destruct (place_cases n p cl Hp Hcl) as [(pre & c & post & E & _ & _ & E2)|[_ E2]].
    - exists (place p cl), []. split; [now rewrite app_nil_r|]. rewrite E2, E. apply Forall2_app; [apply forall2_grows_refl|].
      constructor; [|apply forall2_grows_refl]. cbn. apply head_zip_grows. rewrite E in Hcl. apply Forall_app in Hcl as [_ H2].
      inversion H2; subst. congruence.
    - exists cl, [new_chead p]. split; [exact E2|]. apply forall2_grows_refl.
  Qed.

  Lemma served_evolves p cl cl' : served p cl -> evolves cl cl' -> served p cl'.
  Proof.
    intros (pre & c & post & -> & Hm & Hpre) (old & new & -> & HF).
    apply Forall2_app_inv_l in HF as (o1 & o2 & F1 & F2 & ->). inversion F2 as [|? c' ? o3 Hg F3]; subst.
    exists o1, c', (o3 ++ new). split; [now rewrite <- app_assoc|]. split; [now apply (measured_trans p (ch_head c))|].
    clear - Hpre F1. induction F1 as [|a b l l' Hab F IH]; [constructor|]. inversion Hpre; subst. constructor; auto.
    now apply (conflict_grows p (ch_head a)).
  Qed.
  Lemma place_served n p cl : List.length p = n -> Forall (fun c : chead => List.length (ch_head c) = n) cl -> served p (place p cl).
  Proof.
    intros Hp Hcl. destruct (place_cases n p cl Hp Hcl) as [(pre & c & post & E & H1 & H2 & ->)|[H1 ->]].
    - eexists pre, _, post. split; [reflexivity|]. split; [|exact H1]. cbn. apply head_zip_measures; [|exact H2].
      rewrite E in Hcl. apply Forall_app in Hcl as [_ H3]. inversion H3; subst. congruence.
    - exists cl, (new_chead p), []. split; [reflexivity|]. split; [apply grows_refl|exact H1].
  Qed.

  Lemma all_conflict_app hs hs' : all_conflict (hs ++ hs') <-> all_conflict hs /\ all_conflict hs' /\ Forall (fun h => Forall (conflict h) hs') hs.
  Proof.
    induction hs as [|h hs IH]; cbn; [intuition constructor|]. rewrite IH, Forall_app. split.
    - intros ((A & B) & D & E & F). repeat split; auto.
    - intros ((A & B) & D & F). inversion F; subst. repeat split; auto.
  Qed.
  Lemma place_conflict n p cl : List.length p = n -> Forall (fun c : chead => List.length (ch_head c) = n) cl ->
    all_conflict (heads cl) -> all_conflict (heads (place p cl)).
  Proof.
    intros Hp Hcl Hac. destruct (place_cases n p cl Hp Hcl) as [(pre & c & post & E & H1 & H2 & ->)|[H1 ->]].
    - subst cl. rewrite map_app in *. cbn [map ch_head] in *. apply all_conflict_app in Hac as (A & [B B'] & D).
      assert (grows (ch_head c) (head_zip (ch_head c) p)) as Hg.
      { apply head_zip_grows. apply Forall_app in Hcl as [_ H3]. inversion H3; subst. congruence. }
      apply all_conflict_app. split; [exact A|]. split.
      + split; [|exact B']. eapply Forall_impl; [|exact B]. intros h Hh. apply conflict_sym.
        now apply (conflict_grows h (ch_head c)); [apply conflict_sym|].
      + eapply Forall_impl; [|exact D]. intros h Hh. inversion Hh; subst. constructor; [now apply (conflict_grows h (ch_head c))|assumption].
    - rewrite map_app. cbn [map ch_head]. apply all_conflict_app. split; [exact Hac|]. split; [repeat constructor|].
      rewrite Forall_map. eapply Forall_impl; [|exact H1]. intros c Hc. repeat constructor. now apply conflict_sym.
  Qed.

  (** The invariant: equal lengths, pairwise conflicts, first head all Z. *)
  Definition cinv (n : nat) (cl : list chead) : Prop :=
    Forall (fun c : chead => List.length (ch_head c) = n) cl /\ all_conflict (heads cl) /\
    match cl with [] => True | c :: _ => ch_head c = repeat LZ n end.

  Lemma grows_full n h h' : h = repeat LZ n -> grows h h' -> h' = h.
  Proof.
    intros -> [Hl H]. apply pauli_ext; [congruence|]. intros i. destruct (Nat.lt_ge_cases i n) as [Hi|Hi].
    - apply H. rewrite (nth_indep _ LI LZ) by now rewrite repeat_length. rewrite nth_repeat. discriminate.
    - rewrite !nth_overflow; auto; [now rewrite repeat_length|]. rewrite <- Hl, repeat_length. exact Hi.
  Qed.
  Lemma place_first n p cl : List.length p = n -> Forall (fun c : chead => List.length (ch_head c) = n) cl -> cl <> [] ->
    match cl with [] => True | c :: _ => ch_head c = repeat LZ n end ->
    match place p cl with [] => True | c :: _ => ch_head c = repeat LZ n end.
  Proof.
    intros Hp Hcl Hne Hf. pose proof (place_evolves n p cl Hp Hcl) as (old & new & -> & HF).
    destruct cl as [|c cl]; [easy|]. inversion HF as [|? c' ? ? Hg _]; subst. cbn. rewrite <- Hf. now apply (grows_full (List.length p)).
  Qed.
  Lemma place_nonempty p cl : place p cl <> ([] : list chead).
  Proof. destruct cl as [|c cl]; cbn; [discriminate|]. destruct (fit_in_clique p (ch_head c)) as [[] ?]; discriminate. Qed.
  Lemma place_cinv n p cl : List.length p = n -> cl <> [] -> cinv n cl -> cinv n (place p cl).
  Proof.
    intros Hp Hne (A & B & D). split; [now apply place_length|]. split; [now apply (place_conflict n)|]. now apply place_first.
  Qed.

  Definition start (n : nat) (cl : list chead) : list chead := match cl with [] => [new_chead (repeat LZ n)] | _ => cl end.
  Lemma start_cinv n cl : cinv n cl -> cinv n (start n cl) /\ start n cl <> [].
  Proof.
    intros H. destruct cl as [|c cl]; [|split; [exact H|discriminate]]. split; [|discriminate]. split; [repeat constructor; apply repeat_length|].
    split; [repeat constructor|]. reflexivity.
  Qed.
  Lemma start_evolves n cl : evolves cl (start n cl).
  Proof. destruct cl as [|c cl]; [|apply evolves_refl]. exists [], [new_chead (repeat LZ n)]. split; [reflexivity|constructor]. Qed.

  Lemma fold_place n ps cl : Forall (fun p => List.length p = n) ps -> cl <> [] -> cinv n cl ->
    let cl' := fold_left (fun cl p => place p cl) ps cl in
    cinv n cl' /\ cl' <> [] /\ (forall p, In p ps \/ served p cl -> served p cl').
  Proof.
    intros Hps. revert cl. induction Hps as [|p ps Hp Hps IH]; intros cl Hne Hc; cbn [fold_left].
    - split; [exact Hc|]. split; [exact Hne|]. intros p [[]|H]. exact H.
    - destruct (IH (place p cl)) as (A & B & D).
      + apply place_nonempty.
      + now apply place_cinv.
      + split; [exact A|]. split; [exact B|]. intros q Hq. apply D. destruct Hc as (Hlen & _). destruct Hq as [[<-|Hq]|Hq]; auto.
        * right. now apply (place_served n).
        * right. apply (served_evolves q cl); [exact Hq|]. now apply (place_evolves n).
  Qed.

  Lemma add_paulis_eq n ps cl : ps <> [] -> Forall (fun p => List.length p = n) ps ->
    add_paulis ps cl = (fold_left (fun cl p => place p cl) (sorted_rev ps) (start n cl),
                        empty_heads None (fold_left (fun cl p => place p cl) (sorted_rev ps) (start n cl))).
  Proof.
    intros Hne HF. destruct ps as [|p ps]; [easy|]. inversion HF; subst. unfold add_paulis. destruct cl; reflexivity.
  Qed.
  Lemma Forall_sorted_rev (P : pauli -> Prop) ps : Forall P ps -> Forall P (sorted_rev ps).
  Proof. rewrite !Forall_forall. intros H p Hp. apply H. now apply in_sorted_rev. Qed.
  Lemma add_paulis_inv n ps cl : Forall (fun p => List.length p = n) ps -> cinv n cl ->
    let cl' := fst (add_paulis ps cl) in
    cinv n cl' /\ (forall p, In p ps \/ served p cl -> served p cl').
  Proof.
    intros Hps Hc. destruct ps as [|p0 ps0] eqn:E.
    - destruct cl as [|c cl]; cbn; (split; [exact Hc|]; intros p [[]|H]; exact H).
    - rewrite <- E in *. assert (ps <> []) as Hne by (rewrite E; discriminate). rewrite (add_paulis_eq n) by assumption. cbn [fst].
      destruct (start_cinv n cl Hc) as [H1 H2].
      destruct (fold_place n (sorted_rev ps) (start n cl) (Forall_sorted_rev _ ps Hps) H2 H1) as (A & _ & B).
      split; [exact A|]. intros p [Hp|Hp]; apply B.
      + left. now apply in_sorted_rev.
      + right. apply (served_evolves p cl); [exact Hp|]. apply start_evolves.
  Qed.

  (** ** Updates do not change the heads *)
  Lemma upd_head_heads h d f cl : heads (fst (upd_head h d f cl)) = heads cl.
  Proof.
    induction cl as [|c cl IH]; [reflexivity|]. cbn [upd_head].
    destruct (pauli_eqb h (ch_head c)).
    - destruct (saver_is_empty (ch_distr c) f) as [[]| |]; try reflexivity.
      destruct (upd_head h d f cl) as [r o]. cbn in *. now rewrite IH.
    - destruct (upd_head h d f cl) as [r o]. cbn in *. now rewrite IH.
  Qed.
  Lemma update_distr_fold_heads f l s :
    heads (fst (fold_left (fun (s : list chead * Res unit) (hd : pauli * dist) => let '(cl, o) := s in
                      match o with Ok _ => upd_head (fst hd) (snd hd) f cl | _ => s end) l s)) = heads (fst s).
  Proof.
    revert s. induction l as [|[h d] l IH]; intros [cl o]; [reflexivity|]. cbn [fold_left]. rewrite IH.
    destruct o; try reflexivity. cbn. apply upd_head_heads.
  Qed.
  Lemma update_distr_heads hs ds f cl : heads (fst (update_distr hs ds f cl)) = heads cl.
  Proof.
    unfold update_distr. pose proof (update_distr_fold_heads f (combine hs ds) (cl, Ok tt)) as H.
    destruct (fold_left _ (combine hs ds) (cl, Ok tt)) as [cl' o]. exact H.
  Qed.
  Lemma cinv_heads n (cl cl' : list chead) : heads cl = heads cl' -> cinv n cl -> cinv n cl'.
  Proof.
    intros E (A & B & D). split; [|split].
    - assert (Forall (fun h => List.length h = n) (heads cl)) as H by (rewrite Forall_map; exact A). rewrite E in H. now rewrite Forall_map in H.
    - now rewrite <- E.
    - destruct cl as [|c cl], cl' as [|c' cl']; cbn in E; try discriminate; auto. injection E as E1 _. congruence.
  Qed.
  Lemma evolves_heads (cl cl' : list chead) : heads cl = heads cl' -> evolves cl cl'.
  Proof.
    intros E. exists cl', []. split; [now rewrite app_nil_r|]. revert cl' E. induction cl as [|c cl IH]; intros [|c' cl'] E; cbn in E; try discriminate; constructor.
    - injection E as E1 _. rewrite E1. apply grows_refl.
    - injection E as _ E2. auto.
  Qed.

  (** ** Look-ups *)
  Lemma served_split p cl : served p cl -> forall n, List.length p = n -> Forall (fun c : chead => List.length (ch_head c) = n) cl ->
    exists pre c post, cl = pre ++ c :: post /\ measured_by p (ch_head c) /\
      Forall (fun c' : chead => fst (fit_in_clique p (ch_head c')) = false) pre.
  Proof.
    intros (pre & c & post & -> & Hm & Hpre) n Hn Hl. exists pre, c, post. split; [reflexivity|]. split; [exact Hm|].
    apply Forall_app in Hl as [Hl _]. rewrite Forall_forall in *. intros c' Hc'. unfold fit_in_clique.
    assert (commuting_zip (ch_head c') p = false) as ->; [|reflexivity].
    apply commuting_false; [rewrite (Hl c' Hc'); congruence|]. now apply Hpre.
  Qed.
  Lemma get_head_skip p pre cl : Forall (fun c' : chead => fst (fit_in_clique p (ch_head c')) = false) pre ->
    get_head p (pre ++ cl) = get_head (K:=K) p cl.
  Proof.
    induction 1 as [|c pre Hc _ IH]; [reflexivity|]. cbn [app get_head]. destruct (fit_in_clique p (ch_head c)) as [[] ?]; [discriminate|exact IH].
  Qed.
  Lemma get_distr_skip p f pre cl : Forall (fun c' : chead => fst (fit_in_clique p (ch_head c')) = false) pre ->
    get_distr p f (pre ++ cl) = get_distr (K:=K) p f cl.
  Proof.
    induction 1 as [|c pre Hc _ IH]; [reflexivity|]. cbn [app get_distr]. destruct (fit_in_clique p (ch_head c)) as [[] ?]; [discriminate|exact IH].
  Qed.
  Lemma served_lookup n p cl : cinv n cl -> List.length p = n -> served p cl ->
    exists c, In c cl /\ measured_by p (ch_head c) /\ get_head p cl = Ok (ch_head c) /\
      forall f, get_distr p f cl = bind (saver_is_empty (ch_distr c) f) (fun e => if e then Raise ValueError else saver_get (ch_distr c) f).
  Proof.
    intros (Hl & _) Hp Hs. destruct (served_split p cl Hs n Hp Hl) as (pre & c & post & -> & Hm & Hpre).
    exists c. split; [apply in_elt|]. split; [exact Hm|]. rewrite (get_head_skip p pre _ Hpre).
    cbn [get_head]. rewrite (measured_fits p _ Hm), pauli_eqb_refl. cbn. split; [reflexivity|]. intros f.
    rewrite (get_distr_skip p f pre _ Hpre). cbn [get_distr]. now rewrite (measured_fits p _ Hm), pauli_eqb_refl.
  Qed.

  Lemma empty_heads_nil f cl : empty_heads (K:=K) f cl = Ok [] -> Forall (fun c => saver_is_empty (ch_distr c) f = Ok false) cl.
  Proof.
    induction cl as [|c cl IH]; cbn; [constructor|]. destruct (saver_is_empty (ch_distr c) f) as [[]| |] eqn:E; cbn; try discriminate;
      destruct (empty_heads f cl) as [r| |]; cbn; try discriminate; intros H; injection H as ->. constructor; auto.
  Qed.
  Lemma update_ok hs ds f cl cl' : update_distr (K:=K) hs ds f cl = (cl', Ok tt) -> Forall (fun c => saver_is_empty (ch_distr c) f = Ok false) cl'.
  Proof.
    unfold update_distr. destruct (fold_left _ (combine hs ds) (cl, Ok tt)) as [cl0 o]. intros E. injection E as <- E.
    destruct o; cbn in E; try discriminate. destruct (empty_heads f cl0) as [l| |] eqn:E1; cbn in E; try discriminate.
    destruct l; [|discriminate]. now apply empty_heads_nil.
  Qed.
  Lemma saver_nonempty_get (s : csaver (K:=K)) f : saver_is_empty s f = Ok false -> exists d, saver_get s f = Ok d /\ d <> [] /\ zget (mit_int f) s = Some d.
  Proof.
    unfold saver_is_empty, saver_get. destruct (zget (mit_int f) s) as [d|]; [|discriminate]. intros H. exists d. split; [reflexivity|].
    split; [|reflexivity]. intros ->. revert H. cbn [is_nil negb]. destruct ((mit_int f =? 0)%N && (1 <? List.length s)); [|discriminate].
    destruct (negb (forallb (fun e => is_nil (snd e)) s)); discriminate.
  Qed.
End Clique.
