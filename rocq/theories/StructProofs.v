(** Proofs about the excitation iterators: every nested position loop runs over
    the sublists of its index list. *)
From Coq Require Import List Bool Arith ZArith Lia Permutation.
From Verif Require Import Base UPSModel StructModel.
From Verif Require OperatorsSums.
Import ListNotations.

(** ** Sublists of given length, in order *)
Fixpoint subs {A} (k : nat) (l : list A) : list (list A) :=
  match k, l with
  | O, _ => [[]]
  | S _, [] => []
  | S k', x :: r => map (cons x) (subs k' r) ++ subs k r
  end.

Lemma subs_0 {A} (l : list A) : subs 0 l = [[]].
Proof. now destruct l. Qed.
Lemma subs_cons {A} k (x : A) r : subs (S k) (x :: r) = map (cons x) (subs k r) ++ subs (S k) r.
Proof. reflexivity. Qed.

Inductive sublist {A} : list A -> list A -> Prop :=
| sub_nil l : sublist [] l
| sub_take x s l : sublist s l -> sublist (x :: s) (x :: l)
| sub_skip x s l : sublist s l -> sublist s (x :: l).

Lemma in_subs {A} k (l : list A) s : In s (subs k l) <-> sublist s l /\ length s = k.
Proof.
  revert k s. induction l as [|x l IH]; intros k s.
  - destruct k; cbn.
    + split; [intros [<-|[]]; split; [constructor|reflexivity]|]. intros [_ H]. destruct s; [now left|discriminate].
    + split; [tauto|]. intros [H E]. inversion H; subst. discriminate.
  - destruct k.
    + cbn. split; [intros [<-|[]]; split; [constructor|reflexivity]|]. intros [_ H]. destruct s; [now left|discriminate].
    + rewrite subs_cons, in_app_iff, in_map_iff. split.
      * intros [(u & <- & H)|H]; [apply IH in H as [H1 H2]|apply IH in H as [H1 H2]]; split; try (now constructor); cbn; lia.
      * intros [H E]. inversion H; subst; [discriminate| |].
        -- left. exists s0. split; [reflexivity|]. apply IH. split; [assumption|]. cbn in E. lia.
        -- right. apply IH. now split.
Qed.

Lemma sublist_in {A} (s l : list A) : sublist s l -> incl s l.
Proof. induction 1; intros y Hy; [destruct Hy|destruct Hy as [<-|Hy]; [now left|right; auto]|right; auto]. Qed.
Lemma sublist_NoDup {A} (s l : list A) : sublist s l -> NoDup l -> NoDup s.
Proof.
  induction 1; intros Hn; [constructor| |]; inversion Hn; subst; auto.
  constructor; [|auto]. intros Hx. apply sublist_in in H. auto.
Qed.

Lemma subs_NoDup {A} k (l : list A) : NoDup l -> NoDup (subs k l).
Proof.
  intros Hn. revert k. induction Hn as [|x l Hx Hn IH]; intros k.
  - destruct k; cbn; repeat constructor; auto.
  - destruct k; [cbn; repeat constructor; auto|]. rewrite subs_cons.
    apply OperatorsSums.NoDup_app_disj.
    + apply FinFun.Injective_map_NoDup; [intros a b E; congruence|apply IH].
    + apply IH.
    + intros s H1 H2. apply in_map_iff in H1 as (u & <- & _). apply in_subs in H2 as [H2 _].
      apply Hx, (sublist_in _ _ H2). now left.
Qed.

(** Every duplicate-free selection has exactly one ordered representative. *)
Lemma sublist_sort {A} (dec : forall x y : A, {x = y} + {x <> y}) (l X : list A) :
  NoDup l -> NoDup X -> incl X l -> exists s, sublist s l /\ Permutation X s.
Proof.
  intros Hn. revert X. induction Hn as [|x l Hx Hn IH]; intros X HX Hi.
  - destruct X as [|y X]; [exists []; split; constructor|]. destruct (Hi y (or_introl eq_refl)).
  - destruct (in_dec dec x X) as [H|H].
    + apply in_split in H as (X1 & X2 & ->).
      destruct (IH (X1 ++ X2)) as (s & H1 & H2).
      * now apply NoDup_remove_1 in HX.
      * intros y Hy. destruct (Hi y) as [<-|Hy']; auto.
        -- apply in_app_iff in Hy. apply in_app_iff. cbn. tauto.
        -- exfalso. now apply NoDup_remove_2 in HX.
      * exists (x :: s). split; [now constructor|]. rewrite <- H2. symmetry. apply Permutation_middle.
    + destruct (IH X HX) as (s & H1 & H2).
      * intros y Hy. destruct (Hi y Hy) as [<-|]; [contradiction|assumption].
      * exists s. split; [now constructor|assumption].
Qed.
Lemma sublist_perm_eq {A} (l s u : list A) : NoDup l -> sublist s l -> sublist u l -> Permutation s u -> s = u.
Proof.
  intros Hn. revert s u. induction Hn as [|x l Hx Hn IH]; intros s u Hs Hu P.
  - inversion Hs; inversion Hu; subst; reflexivity.
  - inversion Hs; subst.
    + apply Permutation_nil in P. congruence.
    + inversion Hu; subst.
      * now apply Permutation_sym, Permutation_nil in P.
      * f_equal. apply IH; auto. now apply Permutation_cons_inv in P.
      * exfalso. apply Hx. apply (sublist_in _ _ H2). eapply Permutation_in; [exact P|]. now left.
    + inversion Hu; subst.
      * now apply Permutation_sym, Permutation_nil in P.
      * exfalso. apply Hx. apply (sublist_in _ _ H1). eapply Permutation_in; [symmetry; exact P|]. now left.
      * auto.
Qed.

(** ** Nested loops *)
Fixpoint nest {A B} (k : nat) (l : list A) (start : nat) (body : list A -> list B) : list B :=
  match k with
  | O => body []
  | S k' => loop_from l start (fun ix x => nest k' l (ix + 1) (fun s => body (x :: s)))
  end.

Lemma flat_map_map {A B D} (f : B -> list D) (g : A -> B) l : flat_map f (map g l) = flat_map (fun x => f (g x)) l.
Proof. induction l; cbn; congruence. Qed.
Lemma flat_map_ext_in {A B} (f g : A -> list B) l : (forall x, In x l -> f x = g x) -> flat_map f l = flat_map g l.
Proof. induction l; cbn; intros H; [reflexivity|]. rewrite H by now left. f_equal. auto. Qed.

Lemma skipn_cons_skip {A} st (l : list A) x m : skipn st l = x :: m -> skipn (st + 1) l = m /\ (length l - st = S (length m)).
Proof.
  revert l. induction st; intros l H; cbn in *.
  - subst. cbn. auto.
  - destruct l; [discriminate|]. apply IHst in H as [H1 H2]. cbn. split; assumption.
Qed.

Lemma loop_from_spec {A B} (l : list A) st (f : nat -> A -> list B) (g : A -> list A -> list B) :
  (forall ix x, st <= ix -> f ix x = g x (skipn (ix + 1) l)) ->
  loop_from l st f = (fix go m := match m with [] => [] | x :: r => g x r ++ go r end) (skipn st l).
Proof.
  intros H. unfold loop_from.
  remember (skipn st l) as m eqn:E. symmetry in E. revert st E H. induction m as [|x m IH]; intros st E H.
  - now rewrite combine_nil.
  - destruct (skipn_cons_skip _ _ _ _ E) as [E1 E2]. rewrite E2. cbn [seq combine flat_map fst snd]. f_equal.
    + rewrite H by lia. now rewrite E1.
    + replace (length m) with (length l - (S st)) by lia. apply IH; [now rewrite Nat.add_1_r in E1|].
      intros ix y Hix. apply H. lia.
Qed.

Lemma nest_subs {A B} k (l : list A) st (body : list A -> list B) : nest k l st body = flat_map body (subs k (skipn st l)).
Proof.
  revert st body. induction k as [|k IH]; intros st body; cbn [nest].
  - rewrite subs_0. cbn. now rewrite app_nil_r.
  - rewrite (loop_from_spec l st _ (fun x r => flat_map body (map (cons x) (subs k r)))).
    + remember (skipn st l) as m. clear. induction m as [|x m IH]; [reflexivity|].
      rewrite subs_cons, flat_map_app, <- IH. reflexivity.
    + intros ix x _. now rewrite IH, flat_map_map.
Qed.

(** Interleaving [a, i, b, j, ...]. *)
Fixpoint interleave (v o : list nat) : list nat :=
  match v, o with a :: v', i :: o' => a :: i :: interleave v' o' | _, _ => [] end.
Lemma evens_interleave v o : length v = length o -> evens (interleave v o) = v.
Proof. revert o; induction v as [|a v IH]; intros [|i o] H; cbn in *; try lia; [reflexivity|]. now rewrite IH by lia. Qed.
Lemma odds_interleave v o : length v = length o -> odds (interleave v o) = o.
Proof. revert o; induction v as [|a v IH]; intros [|i o] H; cbn in *; try lia; [reflexivity|]. now rewrite IH by lia. Qed.
Lemma interleave_length v o : length v = length o -> length (interleave v o) = 2 * length v.
Proof. revert o; induction v as [|a v IH]; intros [|i o] H; cbn in *; try lia. rewrite IH; lia. Qed.

(** ** Spin counters *)
Definition nev (l : list nat) : Z := Z.of_nat (length (filter Nat.even l)).
Definition nod (l : list nat) : Z := Z.of_nat (length (filter Nat.odd l)).
Lemma mod2_even p : (p mod 2 =? 0) = Nat.even p.
Proof.
  destruct (Nat.even p) eqn:E.
  - apply Nat.even_spec in E as [m ->]. rewrite Nat.mul_comm, Nat.mod_mul by lia. reflexivity.
  - rewrite <- Nat.negb_odd in E. apply negb_false_iff, Nat.odd_spec in E as [m ->].
    rewrite Nat.add_comm, Nat.mul_comm, Nat.mod_add by lia. reflexivity.
Qed.
Lemma count_spin_spec cre ann : count_spin cre ann = (nev cre - nev ann, nod cre - nod ann)%Z.
Proof.
  unfold count_spin.
  assert (U : forall l x y, fold_left (fun (nb : Z * Z) p => if p mod 2 =? 0 then (fst nb + 1, snd nb)%Z else (fst nb, snd nb + 1)%Z) l (x, y)
            = (x + nev l, y + nod l)%Z).
  { induction l as [|p l IH]; intros x y; cbn [fold_left]; [unfold nev, nod; cbn; f_equal; lia|].
    rewrite mod2_even. unfold nev, nod in *. cbn [filter]. rewrite <- Nat.negb_even.
    destruct (Nat.even p); cbn [negb fst snd length]; rewrite IH; f_equal; lia. }
  assert (D : forall l x y, fold_left (fun (nb : Z * Z) p => if p mod 2 =? 0 then (fst nb - 1, snd nb)%Z else (fst nb, snd nb - 1)%Z) l (x, y)
            = (x - nev l, y - nod l)%Z).
  { induction l as [|p l IH]; intros x y; cbn [fold_left]; [unfold nev, nod; cbn; f_equal; lia|].
    rewrite mod2_even. unfold nev, nod in *. cbn [filter]. rewrite <- Nat.negb_even.
    destruct (Nat.even p); cbn [negb fst snd length]; rewrite IH; f_equal; lia. }
  rewrite U, D. f_equal; lia.
Qed.
Definition same_spin (cre ann : list nat) : Prop :=
  length (filter Nat.even cre) = length (filter Nat.even ann) /\ length (filter Nat.odd cre) = length (filter Nat.odd ann).
Lemma in_emit cre ann t u : In u (emit cre ann t) <-> u = t /\ same_spin cre ann.
Proof.
  unfold emit, same_spin. rewrite count_spin_spec. unfold nev, nod.
  destruct (Z.eqb_spec (Z.of_nat (length (filter Nat.even cre)) - Z.of_nat (length (filter Nat.even ann))) 0),
           (Z.eqb_spec (Z.of_nat (length (filter Nat.odd cre)) - Z.of_nat (length (filter Nat.odd ann))) 0);
    cbn [negb orb In]; split; intros H; try tauto; try lia.
  - destruct H as [<-|[]]. repeat split; lia.
  - destruct H as [-> _]. auto.
Qed.
Lemma emit_NoDup cre ann t : NoDup (emit cre ann t).
Proof. unfold emit. destruct (count_spin cre ann). destruct (_ || _); repeat constructor; auto. Qed.

(** ** Iterators as enumerations of pairs of sublists *)
Definition iter_k (k : nat) (occ unocc : list nat) : list (list nat) :=
  flat_map (fun v => flat_map (fun o => emit v o (interleave v o)) (subs k occ)) (subs k unocc).
Lemma iter_k_nest k occ unocc : iter_k k occ unocc =
  nest k unocc 0 (fun v => nest k occ 0 (fun o => emit v o (interleave v o))).
Proof. rewrite nest_subs. cbn [skipn]. unfold iter_k. apply flat_map_ext_in. intros v _. now rewrite nest_subs. Qed.

Lemma iterate_t2_k occ unocc : iterate_t2 occ unocc = iter_k 2 occ unocc.
Proof. rewrite iter_k_nest. reflexivity. Qed.
Lemma iterate_t3_k occ unocc : iterate_t3 occ unocc = iter_k 3 occ unocc.
Proof. rewrite iter_k_nest. reflexivity. Qed.
Lemma iterate_t4_k occ unocc : iterate_t4 occ unocc = iter_k 4 occ unocc.
Proof. rewrite iter_k_nest. reflexivity. Qed.
Lemma iterate_t5_k occ unocc : iterate_t5 occ unocc = iter_k 5 occ unocc.
Proof. rewrite iter_k_nest. reflexivity. Qed.
Lemma iterate_t6_k occ unocc : iterate_t6 occ unocc = iter_k 6 occ unocc.
Proof. rewrite iter_k_nest. reflexivity. Qed.
Lemma subs_1 {A} (l : list A) : subs 1 l = map (fun x => [x]) l.
Proof. induction l; [reflexivity|]. rewrite subs_cons, subs_0, IHl. reflexivity. Qed.
Lemma iterate_t1_k occ unocc : iterate_t1 occ unocc = iter_k 1 occ unocc.
Proof.
  unfold iterate_t1, iter_k. rewrite !subs_1, flat_map_map. apply flat_map_ext_in. intros a _.
  now rewrite flat_map_map.
Qed.

Lemma in_iter_k k occ unocc t : In t (iter_k k occ unocc) <->
  exists v o, t = interleave v o /\ sublist v unocc /\ sublist o occ /\ length v = k /\ length o = k /\ same_spin v o.
Proof.
  unfold iter_k. rewrite in_flat_map. split.
  - intros (v & Hv & H). apply in_flat_map in H as (o & Ho & H). apply in_emit in H as [-> Hs].
    apply in_subs in Hv as [? ?], Ho as [? ?]. exists v, o. auto 10.
  - intros (v & o & -> & H1 & H2 & H3 & H4 & H5). exists v. rewrite in_subs, in_flat_map. split; [auto|].
    exists o. rewrite in_subs, in_emit. auto.
Qed.

Lemma NoDup_flat_map {A B} (f : A -> list B) l : NoDup l -> (forall x, In x l -> NoDup (f x)) ->
  (forall x y z, In x l -> In y l -> In z (f x) -> In z (f y) -> x = y) -> NoDup (flat_map f l).
Proof.
  induction 1 as [|x l Hx Hn IH]; intros H1 H2; cbn [flat_map]; [constructor|].
  apply OperatorsSums.NoDup_app_disj.
  - apply H1. now left.
  - apply IH; [intros; apply H1; now right|]. intros a b z Ha Hb. apply H2; now right.
  - intros z Hz Hf. apply in_flat_map in Hf as (y & Hy & Hz'). apply Hx.
    replace x with y; [assumption|]. apply (H2 y x z); auto; [now right|now left].
Qed.

Lemma iter_k_NoDup k occ unocc : NoDup occ -> NoDup unocc -> NoDup (iter_k k occ unocc).
Proof.
  intros Ho Hu. unfold iter_k. apply NoDup_flat_map; [now apply subs_NoDup| |].
  - intros v Hv. apply NoDup_flat_map; [now apply subs_NoDup|intros; apply emit_NoDup|].
    intros o o' z H1 H2 Z1 Z2. apply in_emit in Z1 as [-> _], Z2 as [E _].
    apply in_subs in H1 as [_ L1], H2 as [_ L2], Hv as [_ L].
    rewrite <- (odds_interleave v o), E, odds_interleave; congruence.
  - intros v v' z H1 H2 Z1 Z2. apply in_flat_map in Z1 as (o & Ho1 & Z1), Z2 as (o' & Ho2 & Z2).
    apply in_emit in Z1 as [-> _], Z2 as [E _].
    apply in_subs in H1 as [_ L1], H2 as [_ L2], Ho1 as [_ L], Ho2 as [_ L'].
    rewrite <- (evens_interleave v o), E, evens_interleave; congruence.
Qed.

Lemma filter_perm_length (f : nat -> bool) l m : Permutation l m -> length (filter f l) = length (filter f m).
Proof. induction 1; cbn; try lia; repeat match goal with |- context[f ?x] => destruct (f x) end; cbn; lia. Qed.
Lemma same_spin_perm a b a' b' : Permutation a a' -> Permutation b b' -> same_spin a b -> same_spin a' b'.
Proof. intros P Q [H1 H2]. split; rewrite <- (filter_perm_length _ _ _ P), <- (filter_perm_length _ _ _ Q); assumption. Qed.

(** Completeness and uniqueness for unordered excitations. *)
Lemma iter_k_unique k occ unocc A I : NoDup occ -> NoDup unocc -> NoDup A -> NoDup I -> incl A unocc -> incl I occ ->
  length A = k -> length I = k -> same_spin A I ->
  exists! t, In t (iter_k k occ unocc) /\ Permutation A (evens t) /\ Permutation I (odds t).
Proof.
  intros No Nu NA NI iA iI lA lI S.
  destruct (sublist_sort Nat.eq_dec unocc A Nu NA iA) as (v & Hv & Pv).
  destruct (sublist_sort Nat.eq_dec occ I No NI iI) as (o & Ho & Po).
  pose proof (Permutation_length Pv) as Lv. pose proof (Permutation_length Po) as Lo.
  exists (interleave v o). split.
  - split; [|rewrite evens_interleave, odds_interleave by congruence; auto].
    apply in_iter_k. exists v, o. repeat (split; [congruence || assumption|]). eapply same_spin_perm; eauto.
  - intros t (Ht & P1 & P2). apply in_iter_k in Ht as (v' & o' & -> & Hv' & Ho' & Lv' & Lo' & _).
    rewrite evens_interleave in P1 by congruence. rewrite odds_interleave in P2 by congruence.
    f_equal; [apply (sublist_perm_eq unocc)|apply (sublist_perm_eq occ)]; auto;
      [transitivity A|transitivity I]; auto using Permutation_sym.
Qed.

(** ** Pairs with repetition *)
Fixpoint rpairs {A} (l : list A) : list (A * A) :=
  match l with [] => [] | x :: r => map (pair x) (x :: r) ++ rpairs r end.
Lemma loop_skipn {A B} (l : list A) st (f : A -> list B) : loop_from l st (fun _ => f) = flat_map f (skipn st l).
Proof.
  rewrite (loop_from_spec l st _ (fun x _ => f x)) by auto.
  induction (skipn st l) as [|x m IH]; [reflexivity|]. cbn. now rewrite IH.
Qed.
Lemma loop_pairs {A B} (l : list A) (f : A -> A -> list B) :
  loop_from l 0 (fun ix x => loop_from l ix (fun _ y => f x y)) = flat_map (fun p => f (fst p) (snd p)) (rpairs l).
Proof.
  unfold loop_from at 1. rewrite Nat.sub_0_r. cbn [skipn].
  assert (G : forall m st, skipn st l = m ->
    flat_map (fun p => loop_from l (fst p) (fun _ y => f (snd p) y)) (combine (seq st (length m)) m)
    = flat_map (fun p => f (fst p) (snd p)) (rpairs m)).
  { induction m as [|x m IH]; intros st E; [reflexivity|].
    destruct (skipn_cons_skip _ _ _ _ E) as [E1 E2]. cbn [length seq combine flat_map fst snd].
    change (rpairs (x :: m)) with (map (pair x) (x :: m) ++ rpairs m). rewrite flat_map_app. f_equal.
    - rewrite loop_skipn, E, flat_map_map. reflexivity.
    - apply IH. now rewrite <- Nat.add_1_r. }
  apply (G l 0 eq_refl).
Qed.
Lemma in_rpairs {A} (dec : forall x y : A, {x = y} + {x <> y}) (l : list A) x y : In x l -> In y l ->
  In (x, y) (rpairs l) \/ In (y, x) (rpairs l).
Proof.
  induction l as [|z l IH]; intros Hx Hy; [destruct Hx|]. 
  change (rpairs (z :: l)) with (map (pair z) (z :: l) ++ rpairs l). rewrite !in_app_iff, !in_map_iff.
  destruct Hx as [<-|Hx].
  - left. left. exists y. auto.
  - destruct Hy as [<-|Hy]; [right; left; exists x; split; [reflexivity|now right]|].
    destruct (IH Hx Hy); [left|right]; now right.
Qed.
Lemma rpairs_in {A} (l : list A) x y : In (x, y) (rpairs l) -> In x l /\ In y l.
Proof.
  induction l as [|z l IH]; [intros []|].
  change (rpairs (z :: l)) with (map (pair z) (z :: l) ++ rpairs l). rewrite in_app_iff, in_map_iff.
  intros [(w & E & Hw)|H].
  - inversion E; subst. split; [now left|assumption].
  - destruct (IH H). split; now right.
Qed.
Lemma rpairs_sym {A} (l : list A) x y : NoDup l -> In (x, y) (rpairs l) -> In (y, x) (rpairs l) -> x = y.
Proof.
  induction 1 as [|z l Hz Hn IH]; [intros []|].
  change (rpairs (z :: l)) with (map (pair z) (z :: l) ++ rpairs l). rewrite !in_app_iff, !in_map_iff.
  intros [(w & E & Hw)|H] [(w' & E' & Hw')|H'].
  - inversion E; inversion E'; subst. reflexivity.
  - inversion E; subst. apply rpairs_in in H'. tauto.
  - inversion E'; subst. apply rpairs_in in H. tauto.
  - auto.
Qed.
Lemma rpairs_NoDup {A} (l : list A) : NoDup l -> NoDup (rpairs l).
Proof.
  induction 1 as [|z l Hz Hn IH]; [constructor|].
  change (rpairs (z :: l)) with (map (pair z) (z :: l) ++ rpairs l). apply OperatorsSums.NoDup_app_disj; auto.
  - apply FinFun.Injective_map_NoDup; [intros a b E; congruence|now constructor].
  - intros [a b] H1 H2. apply in_map_iff in H1 as (w & E & _). inversion E; subst. apply rpairs_in in H2. tauto.
Qed.

Definition sa_list (ps : list (nat * nat)) (qs : list (nat * nat)) : list (list nat * nat) :=
  flat_map (fun p => flat_map (fun q => map (fun c => ([fst q; fst p; snd q; snd p], c)) (t2_sa_cases (fst q) (fst p) (snd q) (snd p))) qs) ps.
Lemma iterate_t2_sa_list occ unocc : iterate_t2_sa occ unocc = sa_list (rpairs occ) (rpairs unocc).
Proof.
  unfold iterate_t2_sa, sa_list.
  rewrite (loop_pairs occ (fun i j => loop_from unocc 0 (fun idx_a a => loop_from unocc idx_a (fun _ b =>
    map (fun case => ([a; i; b; j], case)) (t2_sa_cases a i b j))))).
  apply flat_map_ext_in. intros [i j] _. cbn [fst snd].
  now rewrite (loop_pairs unocc (fun a b => map (fun case => ([a; i; b; j], case)) (t2_sa_cases a i b j))).
Qed.

(** The cases allowed for an index pattern. *)
Definition sa_case_ok (a i b j c : nat) : Prop :=
  (c = 1 /\ i = j /\ a = b) \/ (c = 2 /\ i = j /\ a <> b) \/ (c = 3 /\ i <> j /\ a = b) \/ ((c = 4 \/ c = 5) /\ i <> j /\ a <> b).
Lemma in_cases a i b j c : In c (t2_sa_cases a i b j) <-> sa_case_ok a i b j c.
Proof.
  unfold t2_sa_cases, sa_case_ok.
  destruct (Nat.eqb_spec i j), (Nat.eqb_spec a b); cbn [andb orb app In];
    (split; intros H; [|repeat match type of H with _ \/ _ => destruct H as [H|H] | _ /\ _ => destruct H as [? H] end]); 
    intuition (subst; auto; try lia).
Qed.
Lemma cases_NoDup a i b j : NoDup (t2_sa_cases a i b j).
Proof.
  unfold t2_sa_cases. destruct (i =? j), (a =? b); cbn; repeat constructor; cbn; lia.
Qed.
Lemma in_sa_list ps qs t c : In (t, c) (sa_list ps qs) <->
  exists i j a b, t = [a; i; b; j] /\ In (i, j) ps /\ In (a, b) qs /\ sa_case_ok a i b j c.
Proof.
  unfold sa_list. rewrite in_flat_map. split.
  - intros ([i j] & Hp & H). apply in_flat_map in H as ([a b] & Hq & H). cbn [fst snd] in H.
    apply in_map_iff in H as (c' & E & H). inversion E; subst. apply in_cases in H. exists i, j, a, b. auto.
  - intros (i & j & a & b & -> & Hp & Hq & H). exists (i, j). split; [assumption|]. apply in_flat_map. exists (a, b).
    split; [assumption|]. cbn [fst snd]. apply in_map_iff. exists c. split; [reflexivity|]. now apply in_cases.
Qed.
Lemma sa_list_NoDup ps qs : NoDup ps -> NoDup qs -> NoDup (sa_list ps qs).
Proof.
  intros Hp Hq. unfold sa_list. apply NoDup_flat_map; auto.
  - intros [i j] _. cbn [fst snd]. apply NoDup_flat_map; auto.
    + intros [a b] _. cbn [fst snd]. apply FinFun.Injective_map_NoDup; [intros x y E; congruence|apply cases_NoDup].
    + intros [a b] [a' b'] z _ _ H1 H2. apply in_map_iff in H1 as (c & <- & _), H2 as (c' & E & _). cbn in E. congruence.
  - intros [i j] [i' j'] z _ _ H1 H2. apply in_flat_map in H1 as ([a b] & _ & H1), H2 as ([a' b'] & _ & H2).
    apply in_map_iff in H1 as (c & <- & _), H2 as (c' & E & _). cbn in E. congruence.
Qed.

(** ** Range loops *)
Lemma in_range s e x : In x (range s e) <-> s <= x < e.
Proof. unfold range. rewrite in_seq. lia. Qed.
Lemma range_NoDup s e : NoDup (range s e).
Proof. apply seq_NoDup. Qed.
Lemma in_loop_range {B} s e (f : nat -> list B) z : In z (loop_range s e f) <-> exists x, s <= x < e /\ In z (f x).
Proof.
  unfold loop_range. rewrite in_flat_map. split; intros (x & H1 & H2); exists x; split; auto; now apply in_range.
Qed.
Lemma loop_range_NoDup {B} s e (f : nat -> list B) : (forall x, s <= x < e -> NoDup (f x)) ->
  (forall x y z, s <= x < e -> s <= y < e -> In z (f x) -> In z (f y) -> x = y) -> NoDup (loop_range s e f).
Proof.
  intros H1 H2. apply NoDup_flat_map; [apply range_NoDup| |].
  - intros x Hx. apply H1. now apply in_range.
  - intros x y z Hx Hy. apply in_range in Hx, Hy. eauto.
Qed.
