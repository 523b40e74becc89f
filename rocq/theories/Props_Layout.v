(** Read-out mitigation with qubit layouts, routing, permutation circuits
    (C41-C43, C63).  Python: qiskit_interface/util.py, qiskit_interface/interface.py. *)
From Coq Require Import List Bool Arith NArith ZArith Lia Ring Permutation QArith Qcanon.
From Verif Require Import Base Fock CIProofs CliqueModel QubitModel QubitProofs QubitCirc LayoutModel LayoutPath LayoutProofs Props_Density.
Import ListNotations.
Local Close Scope Qc_scope.
Local Close Scope Q_scope.
Local Open Scope nat_scope.
Local Open Scope list_scope.

(** ** C42: shortest paths *)

(** A path from [s] to [t] along the edges, in either direction. *)
Definition path_along (edges : list (nat * nat)) (s t : nat) (path : list nat) : Prop :=
  nth_error path 0 = Some s /\ nth_error path (length path - 1) = Some t /\
  forall i a b, nth_error path i = Some a -> nth_error path (S i) = Some b -> In (a, b) edges \/ In (b, a) edges.

Lemma path_wk E s path t : path_along E s t path -> exists n, length path = S n /\ wk E s t n.
Proof.
  intros (H0 & Hl & He). destruct path as [|x path]; [discriminate|]. cbn [nth_error] in H0. injection H0 as ->.
  exists (length path). split; [reflexivity|]. revert t Hl He. induction path as [|a path IH] using rev_ind; intros t Hl He.
  - cbn in Hl. injection Hl as ->. constructor.
  - rewrite app_length. cbn [length]. rewrite Nat.add_1_r. destruct (nth_error (s :: path) (length path)) as [u|] eqn:Eu; [|apply nth_error_None in Eu; cbn in Eu; lia].
    apply (wkS _ _ u).
    + apply IH; [cbn [length]; rewrite Nat.sub_succ, Nat.sub_0_r; exact Eu|].
      intros i c d Hc Hd. assert (S i < length (s :: path)) as Hi by (apply nth_error_Some; congruence).
      apply (He i c d); change (s :: path ++ [a]) with ((s :: path) ++ [a]); rewrite nth_error_app1 by lia; assumption.
    + apply (He (length path) u t); change (s :: path ++ [a]) with ((s :: path) ++ [a]).
      * rewrite nth_error_app1 by (cbn; lia). exact Eu.
      * rewrite <- Hl. f_equal. cbn [length]. rewrite app_length. cbn. lia.
Qed.
Lemma chain_edges E w : chain E w -> forall i a b, nth_error w i = Some a -> nth_error w (S i) = Some b -> adjE E a b.
Proof.
  induction w as [|x w IH]; intros Hc i a b Ha Hb; [now destruct i|]. destruct w as [|y w]; [destruct i; discriminate|].
  cbn [chain] in Hc. destruct Hc as [Hxy Hc]. destruct i as [|i].
  - cbn in Ha, Hb. injection Ha as <-. injection Hb as <-. exact Hxy.
  - exact (IH Hc i a b Ha Hb).
Qed.

(** [find_best_path] returns a path with the fewest edges, or raises ValueError
    when there is no path; it never fails otherwise and never loops. *)
Theorem C42_shortest_path edges s t :
  match find_best_path edges s t with
  | Ok path => path_along edges s t path /\ forall path', path_along edges s t path' -> length path <= length path'
  | Raise ValueError => forall path', ~ path_along edges s t path'
  | _ => False
  end.
Proof.
  pose proof (find_best_path_spec edges s t) as H. destruct (find_best_path edges s t) as [path|[]|]; try exact H.
  - destruct H as (w & -> & Hc & Hh & Hm). split; [split; [|split]|].
    + destruct w; cbn in *; congruence.
    + rewrite app_length, Nat.add_sub, nth_error_app2, Nat.sub_diag by lia. reflexivity.
    + exact (chain_edges edges _ Hc).
    + intros path' Hp. destruct (path_wk _ _ _ _ Hp) as (n & -> & Hw). apply Hm in Hw. rewrite app_length. cbn. lia.
  - intros path' Hp. destruct (path_wk _ _ _ _ Hp) as (n & _ & Hw). exact (H n Hw).
Qed.
(** Breadth-first search visits each node once: no repeated qubit on the path. *)
Theorem C42_simple_path edges s t path : find_best_path edges s t = Ok path -> NoDup path.
Proof.
  intros H. pose proof (C42_shortest_path edges s t) as Hs. rewrite H in Hs. destruct Hs as [(H0 & Hl & He) Hm].
  apply NoDup_nth_error. intros i j Hi Hij. destruct (Nat.lt_trichotomy i j) as [Hlt|[Heq|Hgt]]; [exfalso|exact Heq|exfalso].
  1: rename i into a, j into b. 2: rename j into a, i into b.
  all: destruct (nth_error path a) as [v|] eqn:Ea; [|try (apply nth_error_None in Ea; lia)].
  all: try (assert (b < length path) as Hb by (apply nth_error_Some; congruence)).
  all: try (symmetry in Hij; apply nth_error_None in Hij; lia).
  all: assert (path_along edges s t (firstn a path ++ skipn b path)) as Hp.
  1, 3: (assert (length (firstn a path) = a) as La by (rewrite firstn_length; lia);
    assert (forall k, nth_error (firstn a path ++ skipn b path) k = if k <? a then nth_error path k else nth_error path (b + (k - a))) as N
      by (intros k; destruct (Nat.ltb_spec k a) as [Hk|Hk]; [rewrite nth_error_app1, nth_error_firstn_lt by lia; reflexivity|
          rewrite nth_error_app2 by lia; rewrite La, nth_error_skipn; reflexivity]);
    split; [|split]).
  all: try (rewrite N; destruct (Nat.ltb_spec 0 a) as [Hk|Hk]; [exact H0|]; assert (a = 0) as -> by lia; rewrite Nat.sub_0_r, Nat.add_0_r; congruence).
  all: try (rewrite N, app_length, La, skipn_length; destruct (Nat.ltb_spec (a + (length path - b) - 1) a) as [Hk|Hk]; [lia|];
    rewrite <- Hl; f_equal; lia).
  all: try (intros k x y Hx Hy; rewrite N in Hx, Hy; destruct (Nat.ltb_spec k a) as [Hk|Hk], (Nat.ltb_spec (S k) a) as [Hk'|Hk']; try lia;
    [apply (He k); assumption
    |assert (a = S k) as -> by lia; rewrite Nat.sub_diag, Nat.add_0_r in Hy; apply (He k); [exact Hx|congruence]
    |apply (He (b + (k - a))); [exact Hx|rewrite <- Hy; f_equal; lia]]).
  all: apply Hm in Hp; rewrite app_length, firstn_length, skipn_length in Hp; lia.
Qed.
Example C42_example : find_best_path [(0, 1); (2, 1); (2, 3); (3, 4); (4, 0)] 0 3 = Ok [0; 4; 3] /\ find_best_path [(0, 1); (2, 3)] 0 3 = Raise ValueError.
Proof. split; reflexivity. Qed.

(** ** C43: routing a permutation *)

Lemma routed_facts {K} {C : CRing K} (s2 : K) fuel m permutation edges swaps : add_permutation_gate fuel m permutation edges = Ok swaps ->
  Permutation permutation (seq 0 m) /\
  (forall a b, In (a, b) swaps -> (In (a, b) edges \/ In (b, a) edges) /\ a < m /\ b < m) /\
  forall (psi : qstate (K:=K)) x, exists y, run s2 (map (fun ab => GSwap (fst ab) (snd ab)) swaps) psi x = psi y /\
    (forall t q, nth_error permutation t = Some q -> occ y q = occ x t) /\ (forall q, m <= q -> occ y q = occ x q).
Proof.
  unfold add_permutation_gate. destruct (Nat.eqb_spec (length permutation) m) as [Hm|]; [|discriminate]. cbn [negb].
  destruct (perm_loop fuel edges permutation ([], seq 0 (length permutation))) as [st|e|] eqn:El; try discriminate. cbn [bind]. intros H. injection H as <-.
  rewrite Hm in El. destruct (loop_routed edges m fuel permutation [] (seq 0 m) st (routed_start edges m) El) as [HR Hs]. rewrite Hs in HR.
  destruct HR as [He _ Hr].
  assert (Permutation permutation (seq 0 m)) as HP.
  { clear - Hr. revert Hr. generalize permutation. induction (fst st) as [|ab sw IH] using rev_ind; intros p Hr; [cbn in Hr; injection Hr as <-; reflexivity|].
    rewrite fold_left_app in Hr. cbn [fold_left] in Hr. destruct (fold_left _ sw _) as [c|] eqn:Ec; [|discriminate].
    rewrite <- (list_swap_perm _ _ _ _ Hr). now apply IH. }
  split; [exact HP|]. split; [intros a b Hab; apply He in Hab; exact Hab|].
  intros psi x. destruct (run_swaps s2 m (fst st) permutation psi x Hr) as (y' & E1 & _ & Hy' & Ho'). eauto.
Qed.

(** Whenever [add_permutation_gate] returns: the list was a permutation of the
    qubits, every emitted swap is along an edge of the map and inside the circuit,
    and the swaps move the content of qubit [permutation[t]] to qubit [t]: in the
    amplitude at [x] of the final state, bit [t] of [x] plays the role bit
    [permutation[t]] had. *)
Theorem C43_realises_permutation {K} {C : CRing K} (s2 : K) fuel m permutation edges swaps :
  add_permutation_gate fuel m permutation edges = Ok swaps ->
  Permutation permutation (seq 0 m) /\
  (forall a b, In (a, b) swaps -> (In (a, b) edges \/ In (b, a) edges) /\ a < m /\ b < m) /\
  forall (psi : qstate (K:=K)) x y,
    (forall t q, nth_error permutation t = Some q -> occ y q = occ x t) -> (forall q, m <= q -> occ y q = occ x q) ->
    run s2 (map (fun ab => GSwap (fst ab) (snd ab)) swaps) psi x = psi y.
Proof.
  intros H. destruct (routed_facts s2 _ _ _ _ _ H) as (HP & He & Hr). split; [exact HP|]. split; [exact He|].
  intros psi x y Hy Ho. destruct (Hr psi x) as (y' & -> & Hy' & Ho').
  f_equal. apply det_ext. intros q. destruct (Nat.lt_ge_cases q m) as [Hq|Hq]; [|rewrite Ho, Ho' by exact Hq; reflexivity].
  assert (In q permutation) as Hin by (apply (Permutation_in _ (Permutation_sym HP)), in_seq; lia). apply In_nth_error in Hin as (t & Et).
  now rewrite (Hy t q Et), (Hy' t q Et).
Qed.
(** So the gate undoes a routing permutation: if the content of qubit [i] of [psi]
    sits on qubit [permutation[i]] of [phi] (the meaning of Qiskit's
    [routing_permutation], with which [layout_conserving_compose] calls it), then
    running the swaps on [phi] gives [psi] back. *)
Theorem C43_undoes_routing {K} {C : CRing K} (s2 : K) fuel m permutation edges swaps (psi phi : qstate (K:=K)) :
  add_permutation_gate fuel m permutation edges = Ok swaps ->
  (forall x y, (forall i q, nth_error permutation i = Some q -> occ y q = occ x i) -> (forall q, m <= q -> occ y q = occ x q) -> phi y = psi x) ->
  forall x, run s2 (map (fun ab => GSwap (fst ab) (snd ab)) swaps) phi x = psi x.
Proof.
  intros H Hphi x. destruct (routed_facts s2 _ _ _ _ _ H) as (_ & _ & Hr). destruct (Hr phi x) as (y & -> & Hy & Ho). now apply Hphi.
Qed.
(** A size mismatch is refused. *)
Theorem C43_size_mismatch fuel m permutation edges : length permutation <> m -> add_permutation_gate fuel m permutation edges = Raise ValueError.
Proof. intros H. unfold add_permutation_gate. now rewrite (proj2 (Nat.eqb_neq _ _) H). Qed.

Definition step1 (a b : nat) : Prop := b = S a \/ a = S b.
Definition line_map (m : nat) (edges : list (nat * nat)) : Prop :=
  (forall a b, In (a, b) edges -> step1 a b) /\ forall a, S a < m -> In (a, S a) edges \/ In (S a, a) edges.
Definition full_map (m : nat) (edges : list (nat * nat)) : Prop :=
  forall a b, a < m -> b < m -> a <> b -> In (a, b) edges \/ In (b, a) edges.

Lemma chain_step E w : (forall a b, In (a, b) E -> step1 a b) -> forall p t, chain E (w ++ [t]) -> hd t (w ++ [t]) = p ->
  forall i v, nth_error (w ++ [t]) i = Some v -> p <= v + i /\ v <= t + (length w - i).
Proof.
  intros HE. induction w as [|a w IH]; intros p t Hc Hh i v Hv.
  - cbn in *. destruct i as [|i]; [|destruct i; discriminate]. injection Hv as <-. lia.
  - cbn [app hd] in Hh. subst a. cbn [app] in Hc. destruct (w ++ [t]) as [|b l] eqn:Ew; [destruct w; discriminate|].
    change (adjE E p b /\ chain E (b :: l)) in Hc. destruct Hc as [Hab Hc]. assert (step1 p b) as Hs by (destruct Hab as [H|H]; apply HE in H; unfold step1 in *; lia).
    assert (hd t (w ++ [t]) = b) as Hh by now rewrite Ew. rewrite <- Ew in Hc. destruct i as [|i].
    + cbn in Hv. injection Hv as <-. specialize (IH b t Hc Hh 0 b). rewrite Ew in IH. specialize (IH eq_refl). unfold step1 in Hs. cbn [length]. lia.
    + cbn [app nth_error] in Hv. specialize (IH b t Hc Hh i v Hv). unfold step1 in Hs. cbn [length]. lia.
Qed.
Lemma line_orderly m edges : line_map m edges -> orderly edges m.
Proof.
  intros [H1 H2] t p Htp Hp. assert (forall k, t + k < m -> wk edges (t + k) t k) as W.
  { assert (forall k u, t <= u -> u < m -> k <= u - t -> wk edges u (u - k) k) as W.
    { induction k as [|k IH]; intros u Hu Hm Hk; [rewrite Nat.sub_0_r; constructor|]. apply (wkS _ _ (u - k)); [apply IH; lia|].
      replace (u - k) with (S (u - S k)) by lia. destruct (H2 (u - S k)) as [H|H]; [lia|right; exact H|left; exact H]. }
    intros k Hk. specialize (W k (t + k)). replace (t + k - k) with t in W by lia. apply W; lia. }
  specialize (W (p - t)). replace (t + (p - t)) with p in W by lia. specialize (W Hp).
  pose proof (find_best_path_spec edges p t) as Hs. destruct (find_best_path edges p t) as [path|[]|]; try (destruct Hs; fail); [|destruct (Hs _ W)].
  exists path. split; [reflexivity|]. destruct Hs as (w & -> & Hc & Hh & Hm). specialize (Hm _ W). intros v Hv. apply In_nth_error in Hv as (i & Ei).
  assert (i < length (w ++ [t])) as Hi by (apply nth_error_Some; congruence). rewrite app_length in Hi. cbn in Hi.
  destruct (chain_step edges w H1 p t Hc Hh i v Ei). lia.
Qed.
Lemma full_orderly m edges : full_map m edges -> orderly edges m.
Proof.
  intros H t p Htp Hp. assert (wk edges p t 1) as W by (apply (wkS _ _ p); [constructor|apply H; lia]).
  pose proof (find_best_path_spec edges p t) as Hs. destruct (find_best_path edges p t) as [path|[]|]; try (destruct Hs; fail); [|destruct (Hs _ W)].
  exists path. split; [reflexivity|]. destruct Hs as (w & -> & Hc & Hh & Hm). specialize (Hm _ W). destruct w as [|a [|b w]]; cbn in Hh, Hm; [lia| |lia].
  subst a. cbn. intros v [<-|[<-|[]]]; lia.
Qed.
(** On maps whose qubits form a line in order, and on all-to-all maps, the loop
    ends after at most one round, for every permutation. *)
Theorem C43_returns_on_lines m permutation edges fuel : Permutation permutation (seq 0 m) -> line_map m edges \/ full_map m edges ->
  exists swaps, add_permutation_gate (S fuel) m permutation edges = Ok swaps.
Proof.
  intros HP H. assert (length permutation = m) as Hl by (rewrite (Permutation_length HP); apply seq_length).
  destruct (loop_orderly edges m permutation HP) as (sw & Es); [destruct H; [now apply line_orderly|now apply full_orderly]|].
  exists sw. unfold add_permutation_gate. rewrite Hl, Nat.eqb_refl, Es. reflexivity.
Qed.
(** On a connected map of the circuit's qubits the routine never raises. *)
Theorem C43_connected_never_raises m permutation edges fuel e : Permutation permutation (seq 0 m) ->
  (forall a b, In (a, b) edges -> a < m /\ b < m) ->
  (forall a b, a < m -> b < m -> exists path, path_along edges a b path) ->
  add_permutation_gate fuel m permutation edges <> Raise e.
Proof.
  intros HP H1 H2. assert (length permutation = m) as Hl by (rewrite (Permutation_length HP); apply seq_length).
  unfold add_permutation_gate. rewrite Hl, Nat.eqb_refl. cbn [negb].
  assert (forall a b, adjE edges a b -> a < m /\ b < m) as H1' by (intros a b [H|H]; apply H1 in H; lia).
  assert (forall a b, a < m -> b < m -> exists k, wk edges a b k) as H2'.
  { intros a b Ha Hb. destruct (H2 a b Ha Hb) as (path & Hp). destruct (path_wk _ _ _ _ Hp) as (n & _ & Hn). eauto. }
  destruct (loop_connected edges m H1' H2' permutation HP fuel [] (seq 0 m) (Permutation_refl _)) as [(st & ->)| ->]; discriminate.
Qed.
(** The loop does not end on every connected map: on a ring of five qubits this
    permutation is undone by every round, so no number of rounds suffices. *)
Theorem C43_termination_refuted : let ring := [(0, 1); (1, 2); (2, 3); (3, 4); (4, 0)] in
  (forall a b, a < 5 -> b < 5 -> exists path, path_along ring a b path) /\ Permutation [3; 0; 1; 2; 4] (seq 0 5) /\
  forall fuel, add_permutation_gate fuel 5 [3; 0; 1; 2; 4] ring = Hang.
Proof.
  intros ring. split; [|split].
  - assert (forallb (fun a => forallb (fun b => match find_best_path ring a b with Ok _ => true | _ => false end) (seq 0 5)) (seq 0 5) = true) as H by reflexivity.
    intros a b Ha Hb. rewrite forallb_forall in H. assert (In a (seq 0 5)) as Ha' by (apply in_seq; lia). specialize (H a Ha'). cbv beta in H. rewrite forallb_forall in H.
    assert (In b (seq 0 5)) as Hb' by (apply in_seq; lia). specialize (H b Hb'). pose proof (C42_shortest_path ring a b) as Hs.
    destruct (find_best_path ring a b) as [path| |]; try discriminate. exists path. apply Hs.
  - apply NoDup_Permutation; [repeat constructor; cbn; intuition lia|apply seq_NoDup|]. intros x. cbn. intuition.
  - intros fuel. unfold add_permutation_gate. cbn [length Nat.eqb negb]. change (seq 0 5) with [0; 1; 2; 3; 4].
    assert (forall sw, exists sw', pass ring [3; 0; 1; 2; 4] (sw, [0; 1; 2; 3; 4]) = Ok (sw', [0; 1; 2; 3; 4])) as Hp by (intros sw; eexists; reflexivity).
    assert (forall sw, perm_loop fuel ring [3; 0; 1; 2; 4] (sw, [0; 1; 2; 3; 4]) = Hang) as ->; [|reflexivity].
    induction fuel as [|fuel IH]; intros sw; [reflexivity|]. destruct (Hp sw) as (sw' & E'). cbn [perm_loop snd].
    destruct (list_eq_dec Nat.eq_dec [0; 1; 2; 3; 4] [3; 0; 1; 2; 4]) as [E0|_]; [discriminate|]. rewrite E'. cbn [bind]. apply IH.
Qed.
(** The docstring describes the opposite direction: with [2, 0, 1] it promises that
    qubit 0 goes to 2.  The basis state with only qubit 0 set goes to the one with
    only qubit 1 set. *)
Theorem C43_docstring_refuted : exists swaps, add_permutation_gate 1 3 [2; 0; 1] [(0, 1); (1, 2)] = Ok swaps /\
  (forall x, run (K:=Z) 0%Z (map (fun ab => GSwap (fst ab) (snd ab)) swaps) (basis 1%N) x = basis 2%N x).
Proof.
  eexists. split; [reflexivity|]. intros x. destruct (routed_facts (K:=Z) 0%Z 1 3 [2; 0; 1] [(0, 1); (1, 2)] _ eq_refl) as (_ & _ & Hr).
  destruct (Hr (basis 1%N) x) as (y & -> & Hy & Ho). unfold basis.
  pose proof (Hy 0 2 eq_refl) as H0. pose proof (Hy 1 0 eq_refl) as H1. pose proof (Hy 2 1 eq_refl) as H2.
  destruct (N.eqb_spec 1 y) as [<-|Hne], (N.eqb_spec 2 x) as [<-|Hne']; try reflexivity; exfalso.
  - apply Hne'. apply det_ext. intros q. destruct q as [|[|[|q]]]; [exact H0|exact H1|exact H2|]. rewrite <- Ho by lia. unfold occ. rewrite !N.bits_above_log2; [reflexivity|cbn; lia..].
  - apply Hne. apply det_ext. intros q. destruct q as [|[|[|q]]]; [symmetry; exact H1|symmetry; exact H2|symmetry; exact H0|]. rewrite Ho by lia. unfold occ. rewrite !N.bits_above_log2; [reflexivity|cbn; lia..].
Qed.
Example C43_example : line_map 4 [(0, 1); (2, 1); (2, 3)] /\
  add_permutation_gate 1 4 [2; 0; 3; 1] [(0, 1); (2, 1); (2, 3)] = Ok [(2, 1); (1, 0); (3, 2)].
Proof.
  split; [|reflexivity]. split.
  - intros a b H. unfold step1. cbn in H. repeat destruct H as [H|H]; try (injection H as <- <-; lia). destruct H.
  - intros a Ha. assert (a = 0 \/ a = 1 \/ a = 2) as [->|[->| ->]] by lia; cbn; auto.
Qed.

(** ** C41: layouts *)

(** [find_swaps new ref] returns swaps that turn [new] into [ref] exactly when one
    is a rearrangement of the other, and raises ValueError otherwise.  [moved swaps]
    is the composition of the transpositions. *)
Theorem C41_find_swaps new ref : length new = length ref ->
  match find_swaps new ref with
  | Ok swaps => Permutation new ref /\ (forall a b, In (a, b) swaps -> a < length ref /\ b < length ref) /\
                forall k, nth_error ref k = nth_error new (moved swaps k)
  | Raise ValueError => ~ Permutation new ref
  | _ => False
  end.
Proof.
  intros H. pose proof (find_swaps_total new ref H) as Hs. destruct (find_swaps new ref) as [sw|[]|]; try exact Hs.
  destruct Hs as [Hs Hr]. split; [exact (lswaps_perm _ _ _ Hs)|]. split; [|exact (lswaps_nth _ _ _ Hs)].
  rewrite Forall_forall in Hr. intros a b Hab. exact (Hr _ Hab).
Qed.
Example C41_find_swaps_example : find_swaps [3; 7; 5; 9] [9; 3; 7; 5] = Ok [(0, 3); (1, 3); (2, 3)].
Proof. reflexivity. Qed.

Section C41.
  Context {K : Type} {C : CRing K}.
  Local Open Scope K_scope.
  Add Ring KringPL : (@rth K C).

  (** Distributions as dictionaries with keys below [2^n]. *)
  Definition valid_dist (n : nat) (dist : distribution K) : Prop :=
    NoDup (map fst dist) /\ forall k v, In (k, v) dist -> (k < 2 ^ N.of_nat n)%N.
  (** [pi x] is [x] with every bit moved from its place in the layout [new] to the
      place of the same physical qubit in the layout [ref]. *)
  Definition bit_move (n : nat) (new ref : list nat) (pi : N -> N) : Prop :=
    forall x, (x < 2 ^ N.of_nat n)%N -> (pi x < 2 ^ N.of_nat n)%N /\ relabels new ref x (pi x).

  Lemma bit_move_fw n new ref pi sw : length ref = n -> NoDup new -> Permutation new ref -> lswaps sw (rev new) = Some (rev ref) -> Forall (inr n) sw ->
    bit_move n new ref pi -> forall x, (x < 2 ^ N.of_nat n)%N -> pi x = fw n (rev sw) x.
  Proof.
    intros Hn Hd HP Hs Hr Hpi x Hx. destruct (Hpi x Hx) as [H1 H2]. subst n. apply (relabels_unique new ref x _ _ HP H1); [apply fw_lt; auto using Forall_rev|exact H2|].
    now apply swaps_relabel.
  Qed.

  (** [correct_distribution_with_layout_v2] applies the calibration matrix
      conjugated by the permutation of bits between the two layouts, for every
      matrix, distribution, size and pair of layouts; the result has all [2^n]
      keys. *)
  Theorem C41_layout_correction n (pi : N -> N) (dist : distribution K) M ref new :
    length ref = n -> NoDup new -> Permutation new ref -> square (2 ^ n) M -> valid_dist n dist -> bit_move n new ref pi ->
    exists dist', correct_distribution_with_layout_v2 dist M ref new = Ok dist' /\
      forall x, dict_get dist' x = if (x <? 2 ^ N.of_nat n)%N then Some (sumr (2 ^ n) (fun y => entry M (pi x) (pi y) * get0 dist y)) else None.
  Proof.
    intros Hn Hd HP HM [Hk Hlt] Hpi. destruct (v2_spec n dist M ref new Hn HM Hd HP Hk) as (sw & _ & Hr & Hs & ->); [intros k v; rewrite pow_of_nat; apply Hlt|].
    eexists. split; [reflexivity|]. intros x. rewrite store_get, pow_of_nat. destruct (N.ltb_spec x (2 ^ N.of_nat n)) as [Hx|Hx].
    - f_equal. apply sumr_ext. intros y Hy. rewrite pow_of_nat in Hy. now rewrite !(bit_move_fw n new ref pi sw Hn Hd HP Hs Hr Hpi).
    - destruct (dict_get dist x) as [v|] eqn:E; [|reflexivity]. exfalso. assert (In (x, v) dist) as Hi; [|apply Hlt in Hi; lia].
      clear - E. induction dist as [|[a w] d IH]; cbn [dict_get] in E; [discriminate|]. destruct (N.eqb_spec a x) as [->|]; [injection E as ->; now left|right; auto].
  Qed.
  (** Such a permutation of bits exists and is a permutation of the bitstrings. *)
  Theorem C41_bit_move_exists n ref new : length ref = n -> NoDup new -> Permutation new ref ->
    exists pi tau, bit_move n new ref pi /\ bit_move n ref new tau /\ forall x, (x < 2 ^ N.of_nat n)%N -> pi (tau x) = x /\ tau (pi x) = x.
  Proof.
    intros Hn Hd HP. assert (NoDup ref) as Hdr by exact (Permutation_NoDup HP Hd).
    destruct (find_swaps_spec (rev new) (rev ref)) as (sw & _ & Hs & Hr); [rewrite <- !Permutation_rev; exact HP|now apply NoDup_rev|].
    rewrite rev_length, Hn in Hr. exists (fw n (rev sw)), (fw n sw). split; [|split].
    - intros x Hx. split; [auto using fw_lt, Forall_rev|]. rewrite <- Hn. apply swaps_relabel; auto. now rewrite Hn.
    - intros x Hx. split; [auto using fw_lt|]. intros i j q Hi Hj.
      pose proof (swaps_relabel new ref sw (fw n sw x) Hd HP Hs ltac:(now rewrite Hn) j i q Hj Hi) as H. rewrite Hn in H.
      rewrite (proj2 (fw_rev n sw x Hr Hx)) in H. symmetry. exact H.
    - intros x Hx. destruct (fw_rev n sw x Hr Hx). auto.
  Qed.

  (** Total weight is kept by the layout version when the columns of the matrix sum
      to one. *)
  Theorem C41_mass_kept n (dist : distribution K) M ref new :
    length ref = n -> NoDup new -> Permutation new ref -> square (2 ^ n) M -> valid_dist n dist ->
    (forall c, (c < 2 ^ N.of_nat n)%N -> sumr (2 ^ n) (fun r => entry M r c) = 1) ->
    exists dist', correct_distribution_with_layout_v2 dist M ref new = Ok dist' /\ sumr (2 ^ n) (get0 dist') = sumr (2 ^ n) (get0 dist).
  Proof.
    intros Hn Hd HP HM Hv Hc. destruct (C41_bit_move_exists n ref new Hn Hd HP) as (pi & tau & Hpi & Htau & Hinv).
    destruct (C41_layout_correction n pi dist M ref new Hn Hd HP HM Hv Hpi) as (dist' & E & Hg). exists dist'. split; [exact E|].
    transitivity (sumr (2 ^ n) (fun x => sumr (2 ^ n) (fun y => entry M (pi x) (pi y) * get0 dist y))).
    { apply sumr_ext. intros x Hx. rewrite pow_of_nat in Hx. unfold get0 at 1. rewrite Hg. now rewrite (proj2 (N.ltb_lt _ _) Hx). }
    rewrite sumr_comm. apply sumr_ext. intros y Hy. rewrite pow_of_nat in Hy.
    transitivity (get0 dist y * sumr (2 ^ n) (fun x => entry M (pi x) (pi y))).
    { rewrite <- sumr_scal. apply sumr_ext. intros x _. ring. }
    rewrite (sumr_reindex (2 ^ n) pi tau (fun z => entry M z (pi y))).
    - rewrite Hc by (now apply Hpi). ring.
    - intros x Hx. rewrite pow_of_nat in *. destruct (Hinv x Hx), (Hpi x Hx), (Htau x Hx). auto.
  Qed.

  (** Inverse matrices of size [2^n]. *)
  Definition left_inverse (n : nat) (W M : list (list K)) : Prop :=
    forall x z, (x < 2 ^ N.of_nat n)%N -> (z < 2 ^ N.of_nat n)%N -> sumr (2 ^ n) (fun y => entry W x y * entry M y z) = if (x =? z)%N then 1 else 0.

  (** The older [correct_distribution_with_layout] applies the permutation the other
      way round: it is what [_v2] would do with the two layouts exchanged. *)
  Theorem C41_v1_applies_inverse_permutation n (tau : N -> N) inv (dist dist' : distribution K) M Minv ref new :
    length ref = n -> NoDup new -> Permutation new ref -> square (2 ^ n) M -> square (2 ^ n) Minv -> valid_dist n dist -> bit_move n ref new tau ->
    left_inverse n M Minv ->
    (forall A W, inv A = Ok W -> square (2 ^ n) W /\ left_inverse n W A) ->
    correct_distribution_with_layout inv dist M ref new = Ok dist' ->
    forall x, (x < 2 ^ N.of_nat n)%N -> dict_get dist' x = Some (sumr (2 ^ n) (fun y => entry Minv (tau x) (tau y) * get0 dist y)).
  Proof.
    intros Hn Hd HP HM HMi [Hk Hlt] Htau I2 Hinv Ed x0 Hx0.
    destruct (v2_spec n dist M ref new Hn HM Hd HP Hk) as (sw & Ef & Hr & Hs & _); [intros k v; rewrite pow_of_nat; apply Hlt|].
    assert (NoDup ref) as Hdr by exact (Permutation_NoDup HP Hd).
    assert (forall x, (x < 2 ^ N.of_nat n)%N -> tau x = fw n sw x) as Ht.
    { intros x Hx. destruct (Htau x Hx) as [H1 H2]. assert (length new = n) as Hn' by (rewrite (Permutation_length HP); exact Hn).
      apply (relabels_unique ref new x); [now apply Permutation_sym|rewrite Hn'; exact H1|rewrite Hn'; auto using fw_lt|exact H2|].
      intros i j q Hi Hj. pose proof (swaps_relabel new ref sw (fw n sw x) Hd HP Hs ltac:(now rewrite Hn) j i q Hj Hi) as H. rewrite Hn in H.
      rewrite (proj2 (fw_rev n sw x Hr Hx)) in H. symmetry. exact H. }
    set (A := map (fun x => map (fun y => entry M (fw n sw x) (fw n sw y)) (range (2 ^ n))) (range (2 ^ n))).
    set (B := map (fun x => map (fun y => entry Minv (fw n sw x) (fw n sw y)) (range (2 ^ n))) (range (2 ^ n))).
    assert (square (2 ^ n) A) as HA by apply (mat_square (2 ^ n) (fun x y => entry M (fw n sw x) (fw n sw y))).
    assert (square (2 ^ n) B) as HB by apply (mat_square (2 ^ n) (fun x y => entry Minv (fw n sw x) (fw n sw y))).
    assert (forall x y, (x < 2 ^ N.of_nat n)%N -> (y < 2 ^ N.of_nat n)%N -> entry A x y = entry M (fw n sw x) (fw n sw y)) as EA.
    { intros x y Hx Hy. apply (mat_entry (2 ^ n) (fun x y => entry M (fw n sw x) (fw n sw y))); now rewrite pow_of_nat. }
    assert (forall x y, (x < 2 ^ N.of_nat n)%N -> (y < 2 ^ N.of_nat n)%N -> entry B x y = entry Minv (fw n sw x) (fw n sw y)) as EB.
    { intros x y Hx Hy. apply (mat_entry (2 ^ n) (fun x y => entry Minv (fw n sw x) (fw n sw y))); now rewrite pow_of_nat. }
    assert (forall x, (x < N.of_nat (2 ^ n))%N -> (fw n sw x < N.of_nat (2 ^ n))%N /\ (fw n (rev sw) x < N.of_nat (2 ^ n))%N /\ fw n sw (fw n (rev sw) x) = x /\ fw n (rev sw) (fw n sw x) = x) as Hb.
    { intros x Hx. rewrite pow_of_nat in *. destruct (fw_rev n sw x Hr Hx). auto using fw_lt, Forall_rev. }
    assert (forall F G : N -> N -> K, forall P Q, (forall x y, (x < 2 ^ N.of_nat n)%N -> (y < 2 ^ N.of_nat n)%N -> entry P x y = F (fw n sw x) (fw n sw y)) ->
      (forall x y, (x < 2 ^ N.of_nat n)%N -> (y < 2 ^ N.of_nat n)%N -> entry Q x y = G (fw n sw x) (fw n sw y)) ->
      (forall x z, (x < 2 ^ N.of_nat n)%N -> (z < 2 ^ N.of_nat n)%N -> sumr (2 ^ n) (fun y => F x y * G y z) = if (x =? z)%N then 1 else 0) -> left_inverse n P Q) as Conj.
    { intros F G P Q EP EQ Hinv' x z Hx Hz.
      rewrite (sumr_ext _ _ (fun y => F (fw n sw x) (fw n sw y) * G (fw n sw y) (fw n sw z))) by (intros y Hy; rewrite pow_of_nat in Hy; now rewrite EP, EQ).
      rewrite (sumr_reindex (2 ^ n) (fw n sw) (fw n (rev sw)) (fun y => F (fw n sw x) y * G y (fw n sw z))) by exact Hb.
      rewrite Hinv' by auto using fw_lt. destruct (N.eqb_spec x z) as [->|Hne]; [now rewrite N.eqb_refl|].
      destruct (N.eqb_spec (fw n sw x) (fw n sw z)) as [E|_]; [|reflexivity]. exfalso. apply Hne. apply (f_equal (fw n (rev sw))) in E.
      now rewrite (proj2 (fw_rev n sw x Hr Hx)), (proj2 (fw_rev n sw z Hr Hz)) in E. }
    destruct (v1_spec n inv dist M ref new sw Hn HM Ef Hr Hk ltac:(intros k v; rewrite pow_of_nat; apply Hlt) _ Ed) as (W & EW & ->); fold A in EW;
      destruct (Hinv A W EW) as [HW HWA]; [|exact HW].
    assert (left_inverse n A B) as HAB by exact (Conj _ _ A B EA EB I2).
    assert (forall x z, (x < 2 ^ N.of_nat n)%N -> (z < 2 ^ N.of_nat n)%N -> entry W x z = entry B x z) as Huniq.
    { intros x z Hx Hz.
      transitivity (sumr (2 ^ n) (fun u => sumr (2 ^ n) (fun y => entry W x y * (entry A y u * entry B u z)))).
      - rewrite sumr_comm. rewrite (sumr_ext _ _ (fun y => (if (y =? z)%N then 1 else 0) * entry W x y)).
        + symmetry. apply (sumr_delta (2 ^ n) z (fun y => entry W x y)). now rewrite pow_of_nat.
        + intros y Hy. rewrite pow_of_nat in Hy. rewrite sumr_scal, (HAB y z Hy Hz). ring.
      - rewrite (sumr_ext _ _ (fun u => (if (u =? x)%N then 1 else 0) * entry B u z)).
        + apply (sumr_delta (2 ^ n) x (fun u => entry B u z)). now rewrite pow_of_nat.
        + intros u Hu. rewrite pow_of_nat in Hu. transitivity (entry B u z * sumr (2 ^ n) (fun y => entry W x y * entry A y u)).
          * rewrite <- sumr_scal. apply sumr_ext. intros y _. ring.
          * rewrite (HWA x u Hx Hu), (N.eqb_sym x u). ring. }
    rewrite store_get, pow_of_nat, (proj2 (N.ltb_lt _ _) Hx0). f_equal. apply sumr_ext. intros y Hy. rewrite pow_of_nat in Hy.
    rewrite Huniq, EB, !Ht by auto. reflexivity.
  Qed.
  (** Hence the two agree when the permutation of bits is an involution. *)
  Theorem C41_v1_agrees_on_involutions n (pi : N -> N) inv (dist : distribution K) M Minv ref new d1 d2 :
    length ref = n -> NoDup new -> Permutation new ref -> square (2 ^ n) M -> square (2 ^ n) Minv -> valid_dist n dist -> bit_move n new ref pi ->
    (forall x, (x < 2 ^ N.of_nat n)%N -> pi (pi x) = x) ->
    left_inverse n M Minv ->
    (forall A W, inv A = Ok W -> square (2 ^ n) W /\ left_inverse n W A) ->
    correct_distribution_with_layout inv dist M ref new = Ok d1 -> correct_distribution_with_layout_v2 dist Minv ref new = Ok d2 ->
    forall x, (x < 2 ^ N.of_nat n)%N -> dict_get d1 x = dict_get d2 x.
  Proof.
    intros Hn Hd HP HM HMi Hv Hpi Hinvol I2 Hinv E1 E2 x Hx.
    assert (bit_move n ref new pi) as Htau.
    { destruct (C41_bit_move_exists n ref new Hn Hd HP) as (p & t & Hp & Ht & Hpt). intros y Hy. split; [now apply Hpi|].
      assert (forall z, (z < 2 ^ N.of_nat n)%N -> pi z = p z) as Hpp.
      { intros z Hz. destruct (Hpi z Hz), (Hp z Hz). apply (relabels_unique new ref z); auto; now rewrite Hn. }
      assert (pi y = t y) as ->; [|now apply Ht]. rewrite <- (Hinvol (t y)) by (now apply Ht). f_equal. rewrite Hpp by (now apply Ht). symmetry. now apply Hpt. }
    pose proof (C41_v1_applies_inverse_permutation n pi inv dist d1 M Minv ref new Hn Hd HP HM HMi Hv Htau I2 Hinv E1) as G1.
    destruct (C41_layout_correction n pi dist Minv ref new Hn Hd HP HMi Hv Hpi) as (d2' & E2' & G2).
    rewrite E2 in E2'. injection E2' as <-. rewrite (G1 x Hx), (G2 x), (proj2 (N.ltb_lt _ _) Hx). reflexivity.
  Qed.

  (** ** C63: exactness of read-out mitigation *)

  (** The probability of reading [x] from the ideal final state of a circuit. *)
  Definition ideal (s2 : K) (circuit : list (gate (K:=K))) (z : N) : K := cnorm2 (run s2 circuit zero_state z).
  (** A device whose read-out turns outcome [z] into [x] with probability [A x z],
      in the limit of many shots. *)
  Definition reads_through (s2 : K) (n : nat) (A : N -> N -> K) (device : list (gate (K:=K)) -> distribution K) : Prop :=
    forall circuit, valid_dist n (device circuit) /\
      forall x, (x < 2 ^ N.of_nat n)%N -> get0 (device circuit) x = sumr (2 ^ n) (fun z => A x z * ideal s2 circuit z).

  (** Calibration circuit [nr] prepares the basis state [nr]. *)
  Theorem C63_calibration_states (s2 : K) n nr x : (nr < 2 ^ N.of_nat n)%N -> run s2 (calibration_circuit n [] nr) zero_state x = basis (K:=K*K) nr x.
  Proof. intros H. rewrite calibration_state by exact H. unfold basis. now rewrite N.eqb_sym. Qed.
  Lemma calibration_matrix (s2 : K) n A device : reads_through s2 n A device ->
    exists M, make_M n (map (fun nr => device (calibration_circuit n [] nr)) (range (2 ^ n))) = Ok M /\ square (2 ^ n) M /\
      forall x z, (x < 2 ^ N.of_nat n)%N -> (z < 2 ^ N.of_nat n)%N -> entry M x z = A x z.
  Proof.
    intros H. rewrite make_M_spec.
    - eexists. split; [reflexivity|]. split; [apply mat_square|]. intros x z Hx Hz. rewrite mat_entry by now rewrite pow_of_nat.
      rewrite (proj2 (H _) x Hx). rewrite (sumr_ext _ _ (fun y => (if (y =? z)%N then 1 else 0) * A x y)).
      + apply sumr_delta. now rewrite pow_of_nat.
      + intros y Hy. unfold ideal. rewrite calibration_state by exact Hz. unfold cnorm2. destruct (y =? z)%N; cbn; ring.
    - intros c. apply (H (calibration_circuit n [] c)).
    - intros c k v Hi. rewrite pow_of_nat. exact (proj2 (proj1 (H (calibration_circuit n [] c))) k v Hi).
  Qed.
  (** With the calibration of [_make_Minv] and an invertible read-out, the mitigated
      distribution of any circuit is the ideal one, on every outcome that was
      observed at all; nothing else is stored. *)
  Theorem C63_mitigation_exact (s2 : K) n A device inv circuit Minv : n <= 8 -> reads_through s2 n A device ->
    (forall M W, inv M = Ok W -> square (2 ^ n) W /\ left_inverse n W M) ->
    make_Minv inv device n [] = Ok Minv ->
    exists dist, correct_distribution (device circuit) Minv = Ok dist /\ map fst dist = map fst (device circuit) /\
      forall x v, In (x, v) dist -> v = ideal s2 circuit x.
  Proof.
    intros Hn H Hinv E. unfold make_Minv in E. rewrite (proj2 (Nat.ltb_ge _ _) Hn) in E.
    destruct (calibration_matrix s2 n A device H) as (M & EM & HM & HA). rewrite EM in E. cbn [bind] in E. destruct (Hinv _ _ E) as [HW HI].
    destruct (H circuit) as [[Hk Hlt] Hg].
    rewrite (correct_spec (2 ^ n) _ Minv HW Hk) by (intros k v; rewrite pow_of_nat; apply Hlt).
    eexists. split; [reflexivity|]. split; [rewrite map_map; reflexivity|]. intros x v Hi. apply in_map_iff in Hi as ([k w] & Ek & Hi). cbn [fst] in Ek. injection Ek as <- <-.
    apply Hlt in Hi.
    transitivity (sumr (2 ^ n) (fun z => (if (z =? k)%N then 1 else 0) * ideal s2 circuit z)); [|apply sumr_delta; now rewrite pow_of_nat].
    transitivity (sumr (2 ^ n) (fun y => sumr (2 ^ n) (fun z => entry Minv k y * (A y z * ideal s2 circuit z)))).
    { apply sumr_ext. intros y Hy. rewrite pow_of_nat in Hy. rewrite sumr_scal, <- Hg by exact Hy. reflexivity. }
    rewrite sumr_comm. apply sumr_ext. intros z Hz. rewrite pow_of_nat in Hz. rewrite (N.eqb_sym z k), <- (HI k z Hi Hz).
    transitivity (ideal s2 circuit z * sumr (2 ^ n) (fun y => entry Minv k y * entry M y z)); [|ring].
    rewrite <- sumr_scal. apply sumr_ext. intros y Hy. rewrite pow_of_nat in Hy. rewrite HA by auto. ring.
  Qed.
  (** With a circuit measured in another order of the same physical qubits, the
      layout version recovers the ideal distribution on all outcomes. *)
  Theorem C63_mitigation_exact_with_layout (s2 : K) n A device inv Minv (pi : N -> N) ref new (dist : distribution K) p : n <= 8 -> reads_through s2 n A device ->
    (forall M W, inv M = Ok W -> square (2 ^ n) W /\ left_inverse n W M) ->
    make_Minv inv device n [] = Ok Minv ->
    length ref = n -> NoDup new -> Permutation new ref -> bit_move n new ref pi -> valid_dist n dist ->
    (forall x, (x < 2 ^ N.of_nat n)%N -> get0 dist x = sumr (2 ^ n) (fun z => A (pi x) (pi z) * p z)) ->
    exists dist', correct_distribution_with_layout_v2 dist Minv ref new = Ok dist' /\
      forall x, (x < 2 ^ N.of_nat n)%N -> dict_get dist' x = Some (p x).
  Proof.
    intros Hn H Hinv E Hr Hd HP Hpi Hv Hg. unfold make_Minv in E. rewrite (proj2 (Nat.ltb_ge _ _) Hn) in E.
    destruct (calibration_matrix s2 n A device H) as (M & EM & HM & HA). rewrite EM in E. cbn [bind] in E. destruct (Hinv _ _ E) as [HW HI].
    destruct (C41_layout_correction n pi dist Minv ref new Hr Hd HP HW Hv Hpi) as (dist' & Ed & Hgd). exists dist'. split; [exact Ed|]. intros x Hx.
    rewrite Hgd, (proj2 (N.ltb_lt _ _) Hx). f_equal.
    destruct (C41_bit_move_exists n ref new Hr Hd HP) as (p0 & tau & Hp0 & Htau & Hb0).
    assert (forall z, (z < 2 ^ N.of_nat n)%N -> pi z = p0 z) as Hpp.
    { intros z Hz. destruct (Hpi z Hz), (Hp0 z Hz). apply (relabels_unique new ref z); auto; now rewrite Hr. }
    transitivity (sumr (2 ^ n) (fun z => (if (z =? x)%N then 1 else 0) * p z)); [|apply sumr_delta; now rewrite pow_of_nat].
    transitivity (sumr (2 ^ n) (fun y => sumr (2 ^ n) (fun z => entry Minv (pi x) (pi y) * (A (pi y) (pi z) * p z)))).
    { apply sumr_ext. intros y Hy. rewrite pow_of_nat in Hy. rewrite sumr_scal, <- Hg by exact Hy. reflexivity. }
    rewrite sumr_comm. apply sumr_ext. intros z Hz. rewrite pow_of_nat in Hz.
    assert ((if (z =? x)%N then 1 else 0) = (if (pi x =? pi z)%N then 1 else 0 : K)) as ->.
    { destruct (N.eqb_spec z x) as [->|Hne]; [now rewrite N.eqb_refl|]. destruct (N.eqb_spec (pi x) (pi z)) as [Ee|_]; [|reflexivity]. exfalso. apply Hne.
      rewrite !Hpp in Ee by auto. apply (f_equal tau) in Ee. rewrite (proj2 (Hb0 x Hx)), (proj2 (Hb0 z Hz)) in Ee. auto. }
    rewrite <- (HI (pi x) (pi z)) by (now apply Hpi).
    rewrite <- (sumr_reindex (2 ^ n) pi tau (fun y => entry Minv (pi x) y * entry M y (pi z))).
    - transitivity (p z * sumr (2 ^ n) (fun y => entry Minv (pi x) (pi y) * entry M (pi y) (pi z))); [|ring].
      rewrite <- sumr_scal. apply sumr_ext. intros y Hy. rewrite pow_of_nat in Hy. rewrite HA by (now apply Hpi). ring.
    - intros y Hy. rewrite pow_of_nat in *. destruct (Hb0 y Hy) as [B1 B2], (Htau y Hy), (Hpi y Hy). rewrite (Hpp y Hy), (Hpp (tau y)) by auto. rewrite Hpp in * by auto. auto.
  Qed.
  (** More than eight qubits are refused. *)
  Theorem C63_size_limit inv device n (ansatz : list (gate (K:=K))) : 8 < n -> make_Minv inv device n ansatz = Raise ValueError.
  Proof. intros H. unfold make_Minv. now rewrite (proj2 (Nat.ltb_lt _ _) H). Qed.
End C41.

(** [correct_distribution] only updates outcomes that were observed: the ideal
    weight of an outcome that was never read is lost, so the total changes. *)
Theorem C63_mass_lost_refuted : exists (dist : distribution Z) M dist',
  valid_dist 1 dist /\ square 2 M /\ (forall c, (c < 2)%N -> sumr 2 (fun r => entry M r c) = 1%Z) /\
  correct_distribution dist M = Ok dist' /\ sumr 2 (get0 dist) = 1%Z /\ sumr 2 (get0 dist') <> 1%Z.
Proof.
  exists [(0%N, 1%Z)], [[2; 0]; [-1; 1]]%Z, [(0%N, 2%Z)]. repeat split; try reflexivity.
  - repeat constructor; cbn; tauto.
  - intros k v [H|[]]. injection H as <- _. reflexivity.
  - repeat constructor.
  - intros c Hc. destruct c as [|[p|p|]]; [reflexivity|destruct p; discriminate|destruct p; discriminate|reflexivity].
  - discriminate.
Qed.
(** For a cyclic shift of three qubits the two layout corrections differ: here the
    matrix flips the qubit in the first place of the calibration layout (and is its
    own inverse). *)
Definition flip0 : list (list Z) := map (fun x => map (fun y => if (y =? N.lxor x 1)%N then 1%Z else 0%Z) (range 8)) (range 8).
Definition self_inverse (M : list (list Z)) : bool :=
  (length M =? 8) && forallb (fun row => length row =? 8) M &&
  forallb (fun x => forallb (fun z => Z.eqb (sumr 8 (fun y => entry M x y * entry M y z)%Z) (if (x =? z)%N then 1 else 0)%Z) (range 8)) (range 8).
Definition inv_involution (M : list (list Z)) : Res (list (list Z)) := if self_inverse M then Ok M else Raise ValueError.
Theorem C41_v1_refuted :
  (forall A W, inv_involution A = Ok W -> square 8 W /\ left_inverse 3 W A) /\ inv_involution flip0 = Ok flip0 /\
  exists d1 d2, correct_distribution_with_layout inv_involution [(0%N, 1%Z)] flip0 [0; 1; 2] [1; 2; 0] = Ok d1 /\
    correct_distribution_with_layout_v2 [(0%N, 1%Z)] flip0 [0; 1; 2] [1; 2; 0] = Ok d2 /\
    dict_get d2 4 = Some 1%Z /\ dict_get d1 4 = Some 0%Z /\ dict_get d1 2 = Some 1%Z.
Proof.
  split; [|split].
  - intros A W. unfold inv_involution. destruct (self_inverse A) eqn:E; [|discriminate]. intros H. injection H as <-. unfold self_inverse in E.
    apply andb_prop in E as [E1 E3]. apply andb_prop in E1 as [E1 E2]. split.
    + split; [now apply Nat.eqb_eq|]. rewrite forallb_forall in E2. apply Forall_forall. intros row Hr. apply Nat.eqb_eq. now apply E2.
    + intros x z Hx Hz. rewrite forallb_forall in E3. assert (In x (range 8)) as Hx' by now apply in_range. specialize (E3 x Hx'). cbv beta in E3. rewrite forallb_forall in E3.
      assert (In z (range 8)) as Hz' by now apply in_range. specialize (E3 z Hz'). now apply Z.eqb_eq in E3.
  - vm_compute. reflexivity.
  - do 2 eexists. split; [vm_compute; reflexivity|]. split; [vm_compute; reflexivity|]. repeat split.
Qed.
Example C41_example : NoDup [4; 2; 9] /\ Permutation [4; 2; 9] [9; 4; 2] /\
  correct_distribution_with_layout_v2 [(1%N, 3%Z); (6%N, 5%Z)] flip0 [9; 4; 2] [4; 2; 9] =
  Ok [(1%N, 0%Z); (6%N, 0%Z); (0%N, 0%Z); (2%N, 5%Z); (3%N, 0%Z); (4%N, 0%Z); (5%N, 3%Z); (7%N, 0%Z)].
Proof.
  split; [repeat constructor; cbn; intuition lia|]. split; [|vm_compute; reflexivity].
  apply NoDup_Permutation; [repeat constructor; cbn; intuition lia..|]. intros x. cbn. intuition.
Qed.
(** A read-out error on one qubit over the rationals, and its mitigation. *)
Definition third : Qc := Q2Qc (1 # 3).
Definition noisy (x z : N) : Qc := if (x =? z)%N then Qcminus 1 third else third.
Definition noisy_device (circuit : list (gate (K:=Qc))) : distribution Qc :=
  map (fun x => (x, sumr 2 (fun z => Qcmult (noisy x z) (ideal (Q2Qc 0) circuit z)))) (range 2).
Definition inv2 (M : list (list Qc)) : Res (list (list Qc)) :=
  if list_eq_dec (list_eq_dec Qc_eq_dec) M [[Q2Qc (2 # 3); third]; [third; Q2Qc (2 # 3)]]
  then Ok [[Q2Qc 2; Q2Qc (-1)]; [Q2Qc (-1); Q2Qc 2]] else Raise ValueError.
Example C63_example : reads_through (Q2Qc 0) 1 noisy noisy_device /\
  (forall M W, inv2 M = Ok W -> square 2 W /\ left_inverse 1 W M) /\
  make_Minv inv2 noisy_device 1 [] = Ok [[Q2Qc 2; Q2Qc (-1)]; [Q2Qc (-1); Q2Qc 2]] /\
  noisy_device [GX 0] = [(0%N, third); (1%N, Q2Qc (2 # 3))] /\
  correct_distribution (noisy_device [GX 0]) [[Q2Qc 2; Q2Qc (-1)]; [Q2Qc (-1); Q2Qc 2]] = Ok [(0%N, Q2Qc 0); (1%N, Q2Qc 1)].
Proof.
  split; [|split; [|split; [|split]]].
  - intros circuit. split.
    + split; [unfold noisy_device; rewrite map_map; cbn [fst]; rewrite map_id; apply range_NoDup|]. intros k v Hi. apply in_map_iff in Hi as (x & E & Hx). injection E as <- _.
      apply in_range in Hx. exact Hx.
    + intros x Hx. unfold get0, noisy_device. assert (x = 0%N \/ x = 1%N) as [->| ->] by (change (2 ^ N.of_nat 1)%N with 2%N in Hx; lia); reflexivity.
  - intros M W. unfold inv2. destruct (list_eq_dec _ _ _) as [->|]; [|discriminate]. intros H. injection H as <-. split; [repeat constructor|].
    intros x z Hx Hz. assert (x = 0%N \/ x = 1%N) as [->| ->] by (change (2 ^ N.of_nat 1)%N with 2%N in Hx; lia);
      (assert (z = 0%N \/ z = 1%N) as [->| ->] by (change (2 ^ N.of_nat 1)%N with 2%N in Hz; lia)); apply Qc_is_canon; reflexivity.
  - unfold make_Minv. cbn [Nat.ltb Nat.leb].
    match goal with |- bind ?m _ = _ => assert (m = Ok [[Q2Qc (2 # 3); third]; [third; Q2Qc (2 # 3)]]) as -> end.
    { vm_compute. repeat first [apply Qc_is_canon; reflexivity | f_equal]. }
    cbn [bind]. unfold inv2. destruct (list_eq_dec _ _ _) as [_|H]; [reflexivity|congruence].
  - vm_compute. repeat first [apply Qc_is_canon; reflexivity | f_equal].
  - vm_compute. repeat first [apply Qc_is_canon; reflexivity | f_equal].
Qed.

Print Assumptions C41_find_swaps.
Print Assumptions C41_layout_correction.
Print Assumptions C41_bit_move_exists.
Print Assumptions C41_mass_kept.
Print Assumptions C41_v1_applies_inverse_permutation.
Print Assumptions C41_v1_agrees_on_involutions.
Print Assumptions C41_v1_refuted.
Print Assumptions C42_shortest_path.
Print Assumptions C42_simple_path.
Print Assumptions C43_realises_permutation.
Print Assumptions C43_undoes_routing.
Print Assumptions C43_size_mismatch.
Print Assumptions C43_returns_on_lines.
Print Assumptions C43_connected_never_raises.
Print Assumptions C43_termination_refuted.
Print Assumptions C43_docstring_refuted.
Print Assumptions C63_calibration_states.
Print Assumptions C63_mitigation_exact.
Print Assumptions C63_mitigation_exact_with_layout.
Print Assumptions C63_size_limit.
Print Assumptions C63_mass_lost_refuted.
