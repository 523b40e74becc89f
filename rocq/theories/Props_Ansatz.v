(** Property C65: the ansatz layouts contain exactly the documented gates, in
    the documented order. *)
From Coq Require Import List Bool Arith ZArith Lia Permutation String.
From Verif Require Import Base UPSModel StructModel StructProofs StructInv Props_Struct.
Import ListNotations.
Local Open Scope nat_scope.

(** ** Statements *)

(** The gates of a structure, in order. *)
Definition gates (s : ups_struct) : list (gtype * list nat) := combine (s_type s) (s_idx s).
Definition aligned (s : ups_struct) : Prop := List.length (s_type s) = List.length (s_idx s).
(** Every call history leaves the two lists aligned. *)
Lemma aligned_history cs : aligned (history cs).
Proof. destruct (C25_counts_and_names cs) as (H1 & H2 & _). unfold aligned. congruence. Qed.

(** A block holding every spin-conserving excitation of [k] electrons from [occ]
    to [unocc] once; an entry lists the emptied spin orbitals first. *)
Definition exc_block (ty : gtype) (k : nat) (occ unocc : list nat) (B : list (gtype * list nat)) : Prop :=
  NoDup B /\
  (forall e, In e B -> exists I A, e = (ty, I ++ A) /\ List.length I = k /\ List.length A = k /\ NoDup I /\ NoDup A /\
     incl I occ /\ incl A unocc /\ conserves_spin A I) /\
  (forall I A, NoDup I -> NoDup A -> incl I occ -> incl A unocc -> List.length I = k -> List.length A = k -> conserves_spin A I ->
     exists! e, In e B /\ exists I' A', e = (ty, I' ++ A') /\ List.length I' = k /\ Permutation I I' /\ Permutation A A').
(** A block holding the entries described by [P] once each. *)
Definition set_block (P : gtype * list nat -> Prop) (B : list (gtype * list nat)) : Prop := NoDup B /\ forall e, In e B <-> P e.

Definition sa_single_entry (occ unocc : list nat) (e : gtype * list nat) : Prop :=
  exists i a, In i occ /\ In a unocc /\ e = (SaSingle, [i; a]).
Definition sa_single_gen_entry (n : nat) (e : gtype * list nat) : Prop := exists i a, i < a < n /\ e = (SaSingle, [i; a]).
Definition single_gen_entry (n : nat) (e : gtype * list nat) : Prop :=
  exists i a, i < a < n /\ i mod 2 = a mod 2 /\ e = (Single, [i; a]).
Definition double_gen_entry (n : nat) (e : gtype * list nat) : Prop :=
  exists i j a b, i <= j < a /\ a <= b < n /\ conserves_spin [a; b] [i; j] /\ e = (Double, [i; j; a; b]).
Definition pair_entry (occ unocc : list nat) (e : gtype * list nat) : Prop :=
  exists i a, In i occ /\ In a unocc /\ e = (Double, [2 * i; 2 * i + 1; 2 * a; 2 * a + 1]).
Definition pair_gen_entry (n : nat) (e : gtype * list nat) : Prop :=
  exists i a, i < a < n /\ e = (Double, [2 * i; 2 * i + 1; 2 * a; 2 * a + 1]).
(** The five spin-adapted doubles: unordered pairs with repetition. *)
Definition sad_type (ty : gtype) (i j a b : nat) : Prop :=
  match ty with
  | SaDouble1 => i = j /\ a = b
  | SaDouble2 => i = j /\ a <> b
  | SaDouble3 => i <> j /\ a = b
  | SaDouble4 | SaDouble5 => i <> j /\ a <> b
  | _ => False
  end.
Definition sad_block (occ unocc : list nat) (B : list (gtype * list nat)) : Prop :=
  NoDup B /\
  (forall e, In e B -> exists ty i j a b, e = (ty, [i; j; a; b]) /\ In i occ /\ In j occ /\ In a unocc /\ In b unocc /\ sad_type ty i j a b) /\
  (forall ty i j a b, In i occ -> In j occ -> In a unocc -> In b unocc -> sad_type ty i j a b ->
     exists! e, In e B /\ exists i' j' a' b', e = (ty, [i'; j'; a'; b']) /\ Permutation [i; j] [i'; j'] /\ Permutation [a; b] [a'; b']).

(** The blocks of one fUCC layer, in the order in which the options are read
    (lines 786-953). *)
Definition fUCC_blocks (occ unocc occs unoccs : list nat) (n : nat) : list (string * (list (gtype * list nat) -> Prop)) :=
  [("S", exc_block Single 1 occs unoccs); ("GS", set_block (single_gen_entry (2 * n)));
   ("SAS", set_block (sa_single_entry occ unocc)); ("SAGS", set_block (sa_single_gen_entry n));
   ("D", exc_block Double 2 occs unoccs); ("GD", set_block (double_gen_entry (2 * n)));
   ("pD", set_block (pair_entry occ unocc)); ("GpD", set_block (pair_gen_entry n));
   ("T", exc_block Triple 3 occs unoccs); ("Q", exc_block Quadruple 4 occs unoccs);
   ("5", exc_block Quintuple 5 occs unoccs); ("6", exc_block Sextuple 6 occs unoccs);
   ("SAD", sad_block occ unocc)]%string.

(** Blocks for the options that are switched on, nothing for the others. *)
Definition chosen (o : options) (specs : list (string * (list (gtype * list nat) -> Prop))) (Bs : list (list (gtype * list nat))) : Prop :=
  Forall2 (fun (sp : string * (list (gtype * list nat) -> Prop)) B => if Z.eqb (opt_def (fst sp) o) 0 then B = [] else snd sp B) specs Bs.

(** ** Lemmas *)

Lemma combine_app_eq {A B} (l1 l1' : list A) (l2 l2' : list B) : List.length l1 = List.length l2 ->
  combine (l1 ++ l1') (l2 ++ l2') = combine l1 l2 ++ combine l1' l2'.
Proof. revert l2. induction l1 as [|x l1 IH]; intros [|y l2] H; cbn in *; try lia; [reflexivity|]. now rewrite IH by lia. Qed.

(** [f] appends the gates [L]. *)
Definition adds (f : ups_struct -> ups_struct) (L : list (gtype * list nat)) : Prop :=
  forall s, aligned s -> aligned (f s) /\ gates (f s) = gates s ++ L.
Lemma adds_push ty idx r : adds (push ty idx r) [(ty, idx)].
Proof.
  intros s H. unfold aligned, gates in *. cbn [push s_type s_idx]. rewrite !app_length, combine_app_eq by assumption. cbn. split; [lia|reflexivity].
Qed.
Lemma adds_id : adds (fun s => s) [].
Proof. intros s H. rewrite app_nil_r. auto. Qed.
Lemma adds_comp f g L M : adds f L -> adds g M -> adds (fun s => g (f s)) (L ++ M).
Proof. intros Hf Hg s H. destruct (Hf s H) as [A1 E1]. destruct (Hg (f s) A1) as [A2 E2]. split; [assumption|]. now rewrite E2, E1, app_assoc. Qed.
Lemma adds_fold {X} (f : ups_struct -> X -> ups_struct) (L : X -> list (gtype * list nat)) l :
  (forall x, In x l -> adds (fun s => f s x) (L x)) -> adds (fold_left f l) (flat_map L l).
Proof.
  induction l as [|x l IH]; intros H; cbn [fold_left flat_map]; [apply adds_id|].
  apply (adds_comp (fun s => f s x) (fold_left f l)); [apply H; now left|]. apply IH. intros; apply H; now right.
Qed.
Lemma adds_iter n f L : adds f L -> adds (Nat.iter n f) (List.concat (repeat L n)).
Proof.
  intros H. induction n as [|n IH]; [apply adds_id|].
  assert (E : List.concat (repeat L (S n)) = List.concat (repeat L n) ++ L).
  { change (repeat L (S n)) with (L :: repeat L n). rewrite repeat_cons, List.concat_app. cbn [List.concat]. now rewrite app_nil_r. }
  rewrite E. apply (adds_comp (Nat.iter n f) f); assumption.
Qed.
Lemma adds_when b f L : (b = true -> adds f L) -> adds (when b f) (if b then L else []).
Proof. destruct b; cbn [when]; intros H; [auto|apply adds_id]. Qed.
Lemma adds_when_comp b f g L M : adds g L -> adds f M -> adds (fun s => when b f (g s)) (L ++ (if b then M else [])).
Proof. intros Hg Hf. apply (adds_comp g (when b f)); [assumption|]. apply adds_when. auto. Qed.
Lemma adds_all ty r ts : adds (push_all ty r ts) (map (fun t => (ty, occ_first t)) ts).
Proof.
  replace (map (fun t => (ty, occ_first t)) ts) with (flat_map (fun t => [(ty, occ_first t)]) ts)
    by (induction ts as [|t ts IH]; cbn; [reflexivity|now rewrite IH]).
  unfold push_all. apply (adds_fold (fun s t => push ty (occ_first t) r s) (fun t => [(ty, occ_first t)])). intros t _. apply adds_push.
Qed.
Lemma adds_sad ts : adds (push_sad ts) (map (fun tc : list nat * nat => (sa_double_type (snd tc), occ_first (fst tc))) ts).
Proof.
  replace (map _ ts) with (flat_map (fun tc : list nat * nat => [(sa_double_type (snd tc), occ_first (fst tc))]) ts)
    by (induction ts as [|t ts IH]; cbn; [reflexivity|now rewrite IH]).
  unfold push_sad. apply (adds_fold (fun s (tc : list nat * nat) => push (sa_double_type (snd tc)) (occ_first (fst tc)) None s)
    (fun tc => [(sa_double_type (snd tc), occ_first (fst tc))])). intros t _. apply adds_push.
Qed.

Lemma app_inj_length {A} (a b c d : list A) : a ++ b = c ++ d -> List.length a = List.length c -> a = c /\ b = d.
Proof.
  revert c. induction a as [|x a IH]; intros [|y c] H L; cbn in *; try lia; [auto|].
  injection H as -> H. destruct (IH c H) as [-> ->]; [lia|auto].
Qed.
Lemma NoDup_map_on {A B} (f : A -> B) l : (forall x y, In x l -> In y l -> f x = f y -> x = y) -> NoDup l -> NoDup (map f l).
Proof.
  induction l as [|x l IH]; intros H N; cbn; [constructor|]. inversion N as [|? ? Nx Nl]; subst. constructor.
  - intros Hx. apply in_map_iff in Hx as (y & E & Hy). apply Nx. rewrite <- (H y x); auto; [now right|now left].
  - apply IH; auto. intros; apply H; auto; now right.
Qed.

Lemma iter_k_block ty k it occ unocc : (forall occ unocc, it occ unocc = iter_k k occ unocc) -> NoDup occ -> NoDup unocc ->
  exc_block ty k occ unocc (map (fun t => (ty, occ_first t)) (it occ unocc)).
Proof.
  intros E Ho Hu. rewrite E.
  assert (D : forall t, In t (iter_k k occ unocc) -> exists v o, t = interleave v o /\ occ_first t = o ++ v /\ List.length o = k /\ List.length v = k /\ sublist v unocc /\ sublist o occ /\ same_spin v o).
  { intros t Ht. apply in_iter_k in Ht as (v & o & -> & Sv & So & Lv & Lo & Hs). exists v, o.
    rewrite occ_first_interleave by congruence. auto 10. }
  split; [|split].
  - apply NoDup_map_on; [|now apply iter_k_NoDup]. intros t u Ht Hu' Eq. injection Eq as Eq.
    destruct (D t Ht) as (v & o & -> & E1 & L1 & L2 & _), (D u Hu') as (v' & o' & -> & E2 & L1' & L2' & _).
    rewrite E1, E2 in Eq. apply app_inj_length in Eq; [|congruence]. destruct Eq as [-> ->]. reflexivity.
  - intros e He. apply in_map_iff in He as (t & <- & Ht). destruct (D t Ht) as (v & o & -> & E1 & L1 & L2 & Sv & So & Hs).
    exists o, v. rewrite E1. split; [reflexivity|]. repeat split; auto.
    + eapply sublist_NoDup; eassumption.
    + eapply sublist_NoDup; eassumption.
    + now apply sublist_in.
    + now apply sublist_in.
    + now apply conserves_iff.
  - intros I A NI NA iI iA lI lA S. apply conserves_iff in S.
    destruct (iter_k_unique k occ unocc A I) as (t & (Ht & P1 & P2) & U); auto.
    exists (ty, occ_first t). split.
    + split; [apply in_map_iff; eauto|]. destruct (D t Ht) as (v & o & -> & E1 & L1 & L2 & _).
      rewrite evens_interleave in P1 by congruence. rewrite odds_interleave in P2 by congruence. exists o, v. rewrite E1. auto.
    + intros e (He & I' & A' & -> & LI & PI & PA). apply in_map_iff in He as (u & Eu & Hu'). injection Eu as Eu.
      destruct (D u Hu') as (v & o & -> & E1 & L1 & L2 & _). rewrite E1 in Eu. apply app_inj_length in Eu; [|congruence]. destruct Eu as [-> ->].
      f_equal. rewrite (U (interleave A' I')), E1; [reflexivity|]. split; [assumption|].
      rewrite evens_interleave, odds_interleave by congruence. auto.
Qed.

Lemma set_block_map (P : gtype * list nat -> Prop) (ty : gtype) (ts : list (list nat)) :
  NoDup ts -> (forall t u, In t ts -> In u ts -> occ_first t = occ_first u -> t = u) ->
  (forall e, (exists t, In t ts /\ e = (ty, occ_first t)) <-> P e) -> set_block P (map (fun t => (ty, occ_first t)) ts).
Proof.
  intros N J H. split.
  - apply NoDup_map_on; [|assumption]. intros t u Ht Hu E. injection E as E. auto.
  - intros e. rewrite <- H, in_map_iff. split; intros (t & A & B); exists t; auto.
Qed.

Lemma case_of_sad i j a b ty : sad_type ty i j a b -> exists c, sa_double_type c = ty /\ case_fits c i j a b.
Proof. destruct ty; cbn; intros H; try contradiction; [exists 1|exists 2|exists 3|exists 4|exists 5]; cbn; tauto. Qed.
Lemma sad_of_case i j a b c : case_fits c i j a b -> sad_type (sa_double_type c) i j a b.
Proof. destruct c as [|[|[|[|[|[|?]]]]]]; cbn; tauto. Qed.
Lemma case_inj i j a b i' j' a' b' c c' : case_fits c i j a b -> case_fits c' i' j' a' b' -> sa_double_type c = sa_double_type c' -> c = c'.
Proof.
  destruct c as [|[|[|[|[|[|?]]]]]], c' as [|[|[|[|[|[|?]]]]]]; cbn; intros; try tauto; try discriminate; reflexivity.
Qed.

Lemma sad_block_ok occ unocc : NoDup occ -> NoDup unocc ->
  sad_block occ unocc (map (fun tc : list nat * nat => (sa_double_type (snd tc), occ_first (fst tc))) (iterate_t2_sa occ unocc)).
Proof.
  intros Ho Hu. destruct (C24_spin_adapted_iterators occ unocc Ho Hu) as (_ & N & H1 & H2).
  split; [|split].
  - apply NoDup_map_on; [|assumption]. intros [t c] [t' c'] Ht Ht' E. cbn [fst snd] in E.
    destruct (H1 _ _ Ht) as (i & j & a & b & -> & _ & _ & _ & _ & Hc). destruct (H1 _ _ Ht') as (i' & j' & a' & b' & -> & _ & _ & _ & _ & Hc').
    cbn [occ_first odds evens app] in E. injection E as E1 -> -> -> ->. now rewrite (case_inj _ _ _ _ _ _ _ _ _ _ Hc Hc' E1).
  - intros e He. apply in_map_iff in He as ([t c] & <- & Ht). destruct (H1 _ _ Ht) as (i & j & a & b & -> & Hi & Hj & Ha & Hb & Hc).
    exists (sa_double_type c), i, j, a, b. cbn [fst snd occ_first odds evens app]. auto 10 using sad_of_case.
  - intros ty i j a b Hi Hj Ha Hb Hty. destruct (case_of_sad _ _ _ _ _ Hty) as (c & <- & Hc).
    destruct (H2 i j a b c Hi Hj Ha Hb Hc) as (t & (Ht & P1 & P2) & U).
    destruct (H1 _ _ Ht) as (i0 & j0 & a0 & b0 & -> & _ & _ & _ & _ & Hc0).
    exists (sa_double_type c, [i0; j0; a0; b0]). split.
    + split; [apply in_map_iff; exists ([a0; i0; b0; j0], c); auto|]. exists i0, j0, a0, b0. auto.
    + intros e (He & i' & j' & a' & b' & -> & Q1 & Q2). apply in_map_iff in He as ([t' c'] & E & Ht').
      destruct (H1 _ _ Ht') as (i1 & j1 & a1 & b1 & -> & _ & _ & _ & _ & Hc1). cbn [fst snd occ_first odds evens app] in E.
      injection E as E0 <- <- <- <-. assert (c' = c) as -> by (eapply case_inj; eassumption).
      specialize (U [a1; i1; b1; j1]). cbn in U. assert (X : [a0; i0; b0; j0] = [a1; i1; b1; j1]) by (apply U; auto). now inversion X.
Qed.

(** ** Theorems *)
Theorem C65_fUCC_layout occ unocc occs unoccs n o s s' :
  NoDup occ -> NoDup unocc -> NoDup occs -> NoDup unoccs -> aligned s ->
  create_fUCC occ unocc occs unoccs n o s = Ok s' ->
  exists Bs, chosen o (fUCC_blocks occ unocc occs unoccs n) Bs /\
    gates s' = gates s ++ List.concat (repeat (List.concat Bs) (Z.to_nat (opt_def "n_layers" o))).
Proof.
  intros No Nu Nos Nus Hs. unfold create_fUCC. destruct (negb _); [discriminate|].
  assert (EN : opt_def "n_layers" o = match opt_get "n_layers" o with Some v => v | None => 0%Z end) by reflexivity.
  destruct (opt_get "n_layers" o) as [nl|]; [|discriminate]. rewrite EN. clear EN.
  destruct (negb _); [discriminate|]. intros E.
  match type of E with Ok ?x = Ok _ => assert (s' = x) as -> by congruence end. clear E.
  set (d := fun k => truthy (opt_def k o)).
  set (Bs := [if d "S"%string then map (fun t => (Single, occ_first t)) (iterate_t1 occs unoccs) else [];
    if d "GS"%string then map (fun t => (Single, occ_first t)) (iterate_t1_generalized (2 * n)) else [];
    if d "SAS"%string then map (fun t => (SaSingle, occ_first t)) (iterate_t1_sa occ unocc) else [];
    if d "SAGS"%string then map (fun t => (SaSingle, occ_first t)) (iterate_t1_sa_generalized n) else [];
    if d "D"%string then map (fun t => (Double, occ_first t)) (iterate_t2 occs unoccs) else [];
    if d "GD"%string then map (fun t => (Double, occ_first t)) (iterate_t2_generalized (2 * n)) else [];
    if d "pD"%string then map (fun t => (Double, occ_first t)) (iterate_pair_t2 occ unocc) else [];
    if d "GpD"%string then map (fun t => (Double, occ_first t)) (iterate_pair_t2_generalized n) else [];
    if d "T"%string then map (fun t => (Triple, occ_first t)) (iterate_t3 occs unoccs) else [];
    if d "Q"%string then map (fun t => (Quadruple, occ_first t)) (iterate_t4 occs unoccs) else [];
    if d "5"%string then map (fun t => (Quintuple, occ_first t)) (iterate_t5 occs unoccs) else [];
    if d "6"%string then map (fun t => (Sextuple, occ_first t)) (iterate_t6 occs unoccs) else [];
    if d "SAD"%string then map (fun tc : list nat * nat => (sa_double_type (snd tc), occ_first (fst tc))) (iterate_t2_sa occ unocc) else []]).
  exists Bs. split.
  - unfold chosen, fUCC_blocks, Bs.
    destruct (C24_generalized_iterators n) as ((G1 & G2) & _ & (G5 & G6) & _ & _).
    destruct (C24_generalized_iterators (2 * n)) as (_ & (G3 & G4) & _ & (G7 & G8) & _).
    destruct (C24_spin_adapted_iterators occ unocc No Nu) as ((S1 & S2) & _).
    destruct (C24_pair_iterators occ unocc No Nu) as (P1 & P2).
    repeat (apply Forall2_cons; [cbn [fst snd]; unfold d, truthy; match goal with |- context [opt_def ?k o] => destruct (Z.eqb (opt_def k o) 0); cbn [negb]; [reflexivity|] end|]);
      [apply iter_k_block; auto using iterate_t1_k| | | |apply iter_k_block; auto using iterate_t2_k| | | |apply iter_k_block; auto using iterate_t3_k
      |apply iter_k_block; auto using iterate_t4_k|apply iter_k_block; auto using iterate_t5_k|apply iter_k_block; auto using iterate_t6_k|apply sad_block_ok; auto|constructor].
    + apply set_block_map; auto.
      * intros t u Ht Hu. apply G4 in Ht as (i & a & _ & _ & ->), Hu as (i' & a' & _ & _ & ->). cbn. intros X. now inversion X.
      * intros e. split.
        -- intros (t & Ht & ->). apply G4 in Ht as (i & a & H1 & H2 & ->). exists i, a. auto.
        -- intros (i & a & H1 & H2 & ->). exists [a; i]. split; [|reflexivity]. apply G4. exists i, a. auto.
    + apply set_block_map; auto.
      * intros t u Ht Hu. apply S2 in Ht as (i & a & -> & _), Hu as (i' & a' & -> & _). cbn. intros X. now inversion X.
      * intros e. split.
        -- intros (t & Ht & ->). apply S2 in Ht as (i & a & -> & H1 & H2). exists i, a. auto.
        -- intros (i & a & H1 & H2 & ->). exists [a; i]. split; [|reflexivity]. apply S2. exists i, a. auto.
    + apply set_block_map; auto.
      * intros t u Ht Hu. apply G2 in Ht as (i & a & _ & ->), Hu as (i' & a' & _ & ->). cbn. intros X. now inversion X.
      * intros e. split.
        -- intros (t & Ht & ->). apply G2 in Ht as (i & a & H1 & ->). exists i, a. auto.
        -- intros (i & a & H1 & ->). exists [a; i]. split; [|reflexivity]. apply G2. exists i, a. auto.
    + apply set_block_map; auto.
      * intros t u Ht Hu. apply G8 in Ht as (i & j & a & b & _ & _ & _ & ->), Hu as (i' & j' & a' & b' & _ & _ & _ & ->). cbn. intros X. now inversion X.
      * intros e. split.
        -- intros (t & Ht & ->). apply G8 in Ht as (i & j & a & b & H1 & H2 & H3 & ->). exists i, j, a, b. auto.
        -- intros (i & j & a & b & H1 & H2 & H3 & ->). exists [a; i; b; j]. split; [|reflexivity]. apply G8. exists i, j, a, b. auto.
    + apply set_block_map; auto.
      * intros t u Ht Hu. apply P2 in Ht as (i & a & _ & _ & ->), Hu as (i' & a' & _ & _ & ->). cbn [occ_first odds evens app]. intros X. inversion X. assert (i = i') as -> by lia. assert (a = a') as -> by lia. reflexivity.
      * intros e. split.
        -- intros (t & Ht & ->). apply P2 in Ht as (i & a & H1 & H2 & ->). exists i, a. auto.
        -- intros (i & a & H1 & H2 & ->). exists [2 * a; 2 * i; 2 * a + 1; 2 * i + 1]. split; [|reflexivity]. apply P2. exists i, a. auto.
    + apply set_block_map; auto.
      * intros t u Ht Hu. apply G6 in Ht as (i & a & _ & ->), Hu as (i' & a' & _ & ->). cbn [occ_first odds evens app]. intros X. inversion X. assert (i = i') as -> by lia. assert (a = a') as -> by lia. reflexivity.
      * intros e. split.
        -- intros (t & Ht & ->). apply G6 in Ht as (i & a & H1 & ->). exists i, a. auto.
        -- intros (i & a & H1 & ->). exists [2 * a; 2 * i; 2 * a + 1; 2 * i + 1]. split; [|reflexivity]. apply G6. exists i, a. auto.
  - match goal with |- gates (Nat.iter _ ?f s) = _ => cut (adds f (List.concat Bs)) end.
    { intros A. destruct (adds_iter (Z.to_nat nl) _ _ A s Hs) as [_ ->]. reflexivity. }
    unfold Bs. cbn [List.concat]. rewrite app_nil_r.
    fold (d "S"%string) (d "GS"%string) (d "SAS"%string) (d "SAGS"%string) (d "D"%string) (d "GD"%string) (d "pD"%string) (d "GpD"%string)
      (d "T"%string) (d "Q"%string) (d "5"%string) (d "6"%string) (d "SAD"%string).
    rewrite !app_assoc.
    apply adds_when_comp; [|apply adds_sad].
    do 11 (apply adds_when_comp; [|apply adds_all]).
    apply adds_when. intros _. apply adds_all.
Qed.

(** The tiled layouts (tUPS and QNP): per layer the blocks at the even and then
    at the odd positions below [n - 1]. *)
Definition tile (tups skip : bool) (p : nat) : list (gtype * list nat) :=
  (if tups then [(SaSingle, [p; p + 1])] else []) ++ [(Double, [2 * p; 2 * p + 1; 2 * p + 2; 2 * p + 3])]
  ++ (if skip then [] else [(SaSingle, [p; p + 1])]).
Definition columns (n c : nat) : list nat := filter (fun p => p mod 2 =? c) (seq 0 (n - 1)).

Lemma range2_columns n c : c <= 1 -> range2 c (n - 1) = columns n c.
Proof.
  intros Hc. unfold range2, columns. set (m := n - 1). clearbody m. clear n.
  assert (G : forall f st, m <= 2 * f + st -> st <= m + 1 -> st mod 2 = c -> range2_loop f st m = filter (fun p => p mod 2 =? c) (seq st (m - st))).
  { induction f as [|f IH]; intros st H1 H2 H3; cbn [range2_loop]; [replace (m - st) with 0 by lia; reflexivity|].
    destruct (Nat.ltb_spec st m); [|replace (m - st) with 0 by lia; reflexivity].
    replace (m - st) with (S (m - (st + 1))) by lia. cbn [seq filter]. rewrite H3, Nat.eqb_refl. f_equal.
    assert (Hs : (st + 1) mod 2 <> c).
    { rewrite <- H3. rewrite Nat.add_mod by lia. pose proof (Nat.mod_upper_bound st 2). destruct (st mod 2) as [|[|?]]; cbn; lia. }
    destruct (Nat.eq_dec m (st + 1)) as [->|Hne].
    - replace (st + 1 - (st + 1)) with 0 by lia. destruct f; [reflexivity|]. cbn [range2_loop].
      destruct (Nat.ltb_spec (st + 2) (st + 1)); [lia|reflexivity].
    - replace (m - (st + 1)) with (S (m - (st + 2))) by lia. cbn [seq filter]. replace (S st) with (st + 1) by lia.
      destruct (Nat.eqb_spec ((st + 1) mod 2) c); [contradiction|]. replace (S (st + 1)) with (st + 2) by lia.
      apply IH; [lia|lia|]. replace (st + 2) with (st + 1 * 2) by lia. now rewrite Nat.mod_add by lia. }
  destruct c as [|[|?]]; [| |lia].
  - rewrite G by (try lia; reflexivity). now rewrite Nat.sub_0_r.
  - destruct m as [|m]; [reflexivity|]. rewrite G by (try lia; reflexivity). replace (S m - 1) with m by lia. reflexivity.
Qed.

Theorem C65_tiled_layout n layers (tups skip : bool) s : aligned s ->
  exists s', create_tiled n [("n_layers", Z.of_nat layers); (if tups then "do_tups" else "do_qnp", 1%Z); ("skip_last_singles", if skip then 1%Z else 0%Z)]%string s = Ok s' /\
    gates s' = gates s ++ flat_map (fun l =>
      let last := skip && (l + 1 =? layers) in
      flat_map (tile tups (last && (n =? 2))) (columns n 0) ++ flat_map (tile tups last) (columns n 1)) (seq 0 layers).
Proof.
  intros Hs.
  exists (fold_left (fun s k =>
     let last := (Z.of_nat k + 1 =? Z.of_nat layers)%Z && skip in
     fold_left (brick tups (negb tups) last) (range2 1 (n - 1))
       (fold_left (brick tups (negb tups) (last && (n =? 2))) (range2 0 (n - 1)) s)) (seq 0 layers) s).
  split.
  - destruct tups, skip; unfold create_tiled;
      cbn [known forallb existsb fst String.eqb Ascii.eqb Bool.eqb andb orb negb opt_get opt_def Z.eqb Pos.eqb truthy Z.add Pos.add Z.ltb Z.compare Pos.compare Pos.compare_cont];
      rewrite Nat2Z.id; reflexivity.
  - assert (B : forall sk p, adds (fun s => brick tups (negb tups) sk s p) (tile tups sk p)).
    { intros sk p. unfold brick, tile.
      assert (O : tups || negb tups = true) by (destruct tups; reflexivity). rewrite O. clear O.
      assert (A1 : adds (fun s => if tups then push SaSingle [p; p + 1] (Some 4) s else s) (if tups then [(SaSingle, [p; p + 1])] else []))
        by (destruct tups; [apply adds_push|apply adds_id]).
      assert (A2 : forall f L, adds f L -> adds (fun s => if sk then f s else push SaSingle [p; p + 1] (Some 4) (f s)) (L ++ if sk then [] else [(SaSingle, [p; p + 1])])).
      { intros f L Hf. destruct sk; [now rewrite app_nil_r|]. apply (adds_comp f _ L); [assumption|apply adds_push]. }
      rewrite app_assoc. apply A2. apply (adds_comp _ _ _ _ A1 (adds_push _ _ _)). }
    match goal with |- gates (fold_left ?f ?ll s) = _ => pose proof (adds_fold f (fun l =>
      let last := skip && (l + 1 =? layers) in
      flat_map (tile tups (last && (n =? 2))) (columns n 0) ++ flat_map (tile tups last) (columns n 1)) ll) as A end.
    destruct (A) with (s := s) as [_ ->]; [|assumption|reflexivity].
    intros l _. cbv zeta.
    replace ((Z.of_nat l + 1 =? Z.of_nat layers)%Z && skip) with (skip && (l + 1 =? layers)).
    2:{ rewrite andb_comm. f_equal. destruct (Nat.eqb_spec (l + 1) layers), (Z.eqb_spec (Z.of_nat l + 1) (Z.of_nat layers)); auto; lia. }
    rewrite !range2_columns by lia.
    apply (adds_comp (fold_left _ (columns n 0)) (fold_left _ (columns n 1)));
      (eapply adds_fold; intros; apply B).
Qed.

(** SDS layouts: every double excitation is enclosed between the two singles
    that realise it; for pairs between two spin-adapted singles (the option
    "pD" types the first one "double", see C25_sds_pair_arity_refuted). *)
Definition sds_triple (e : gtype * list nat) : list (gtype * list nat) :=
  match e with
  | (_, [i; j; a; b]) => if i mod 2 =? a mod 2 then [(Single, [i; a]); (Double, [i; j; a; b]); (Single, [j; b])]
                         else [(Single, [i; b]); (Double, [i; j; a; b]); (Single, [j; a])]
  | _ => []
  end.
Definition sds_pair_triple (first : gtype) (ia : nat * nat) : list (gtype * list nat) :=
  let '(i, a) := ia in [(first, [i; a]); (Double, [2 * i; 2 * i + 1; 2 * a; 2 * a + 1]); (SaSingle, [i; a])].
Definition sds_blocks (occ unocc occs unoccs : list nat) (n : nat) : list (string * (list (gtype * list nat) -> Prop)) :=
  [("D", fun B => exists E, exc_block Double 2 occs unoccs E /\ B = flat_map sds_triple E);
   ("pD", fun B => exists E, NoDup E /\ (forall i a, In (i, a) E <-> In i occ /\ In a unocc) /\ B = flat_map (sds_pair_triple Double) E);
   ("GpD", fun B => exists E, NoDup E /\ (forall i a, In (i, a) E <-> i < a < n) /\ B = flat_map (sds_pair_triple SaSingle) E)]%string.

Definition pair_of (t : list nat) : nat * nat := match t with [a; i; _; _] => (i / 2, a / 2) | _ => (0, 0) end.
Lemma adds_sds_pair first (ts : list (list nat)) :
  (forall t, In t ts -> exists i a, t = [2 * a; 2 * i; 2 * a + 1; 2 * i + 1]) ->
  adds (fun s => fold_left (sds_pair first) ts s) (flat_map (sds_pair_triple first) (map pair_of ts)).
Proof.
  intros H. rewrite flat_map_map. apply (adds_fold (sds_pair first) (fun t => sds_pair_triple first (pair_of t))).
  intros t Ht. destruct (H t Ht) as (i & a & ->). unfold pair_of, sds_pair, sds_pair_triple. rewrite !half_double.
  apply (adds_comp (fun s => push Double _ _ (push first _ _ s)) _ [_; _] [_]); [|apply adds_push].
  apply (adds_comp (push first _ _) _ [_] [_]); apply adds_push.
Qed.
Lemma pair_of_inj ts : (forall t, In t ts -> exists i a, t = [2 * a; 2 * i; 2 * a + 1; 2 * i + 1]) -> NoDup ts -> NoDup (map pair_of ts).
Proof.
  intros H N. apply NoDup_map_on; [|assumption]. intros t u Ht Hu. destruct (H t Ht) as (i & a & ->), (H u Hu) as (i' & a' & ->).
  unfold pair_of. rewrite !half_double. intros E. injection E as -> ->. reflexivity.
Qed.

Theorem C65_SDS_layout occ unocc occs unoccs n o s s' :
  NoDup occ -> NoDup unocc -> NoDup occs -> NoDup unoccs -> aligned s ->
  create_SDSfUCC occ unocc occs unoccs n o s = Ok s' ->
  exists Bs, chosen o (sds_blocks occ unocc occs unoccs n) Bs /\
    gates s' = gates s ++ List.concat (repeat (List.concat Bs) (Z.to_nat (opt_def "n_layers" o))).
Proof.
  intros No Nu Nos Nus Hs. unfold create_SDSfUCC. destruct (negb _); [discriminate|].
  assert (EN : opt_def "n_layers" o = match opt_get "n_layers" o with Some v => v | None => 0%Z end) by reflexivity.
  destruct (opt_get "n_layers" o) as [nl|]; [|discriminate]. rewrite EN. clear EN.
  destruct (negb _); [discriminate|]. intros E.
  match type of E with Ok ?x = Ok _ => assert (s' = x) as -> by congruence end. clear E.
  set (d := fun k => truthy (opt_def k o)).
  pose proof (iter_k_block Double 2 iterate_t2 occs unoccs iterate_t2_k Nos Nus) as BD.
  destruct (C24_generalized_iterators n) as (_ & _ & (G5 & G6) & _ & _).
  destruct (C24_pair_iterators occ unocc No Nu) as (P1 & P2).
  assert (P3 : forall t, In t (iterate_pair_t2 occ unocc) -> exists i a, t = [2 * a; 2 * i; 2 * a + 1; 2 * i + 1])
    by (intros t Ht; apply P2 in Ht as (i & a & _ & _ & ->); eauto).
  assert (G7 : forall t, In t (iterate_pair_t2_generalized n) -> exists i a, t = [2 * a; 2 * i; 2 * a + 1; 2 * i + 1])
    by (intros t Ht; apply G6 in Ht as (i & a & _ & ->); eauto).
  set (BsD := flat_map sds_triple (map (fun t => (Double, occ_first t)) (iterate_t2 occs unoccs))).
  set (Bs := [if d "D"%string then BsD else [];
    if d "pD"%string then flat_map (sds_pair_triple Double) (map pair_of (iterate_pair_t2 occ unocc)) else [];
    if d "GpD"%string then flat_map (sds_pair_triple SaSingle) (map pair_of (iterate_pair_t2_generalized n)) else []]).
  exists Bs. split.
  - unfold chosen, sds_blocks, Bs.
    repeat (apply Forall2_cons; [cbn [fst snd]; unfold d, truthy; match goal with |- context [opt_def ?k o] => destruct (Z.eqb (opt_def k o) 0); cbn [negb]; [reflexivity|] end|]);
      [| | |constructor].
    + eexists. split; [exact BD|reflexivity].
    + eexists. split; [|split; [|reflexivity]]; [now apply pair_of_inj|].
      intros i a. rewrite in_map_iff. split.
      * intros (t & E & Ht). apply P2 in Ht as (i' & a' & H1 & H2 & ->). unfold pair_of in E. rewrite !half_double in E. injection E as -> ->. auto.
      * intros [H1 H2]. exists [2 * a; 2 * i; 2 * a + 1; 2 * i + 1]. split; [unfold pair_of; now rewrite !half_double|]. apply P2. exists i, a. auto.
    + eexists. split; [|split; [|reflexivity]]; [now apply pair_of_inj|].
      intros i a. rewrite in_map_iff. split.
      * intros (t & E & Ht). apply G6 in Ht as (i' & a' & H1 & ->). unfold pair_of in E. rewrite !half_double in E. injection E as -> ->. auto.
      * intros H1. exists [2 * a; 2 * i; 2 * a + 1; 2 * i + 1]. split; [unfold pair_of; now rewrite !half_double|]. apply G6. exists i, a. auto.
  - match goal with |- gates (Nat.iter _ ?f s) = _ => cut (adds f (List.concat Bs)) end.
    { intros A. destruct (adds_iter (Z.to_nat nl) _ _ A s Hs) as [_ ->]. reflexivity. }
    unfold Bs. cbn [List.concat]. rewrite app_nil_r.
    fold (d "D"%string) (d "pD"%string) (d "GpD"%string). rewrite !app_assoc.
    apply adds_when_comp; [apply adds_when_comp|]; [|now apply adds_sds_pair|now apply adds_sds_pair].
    apply adds_when. intros _. unfold BsD. rewrite flat_map_map.
    apply (adds_fold sds_D (fun t => sds_triple (Double, occ_first t))). intros t Ht.
    rewrite iterate_t2_k in Ht. apply in_iter_k in Ht as (v & o' & -> & _ & _ & Lv & Lo & _).
    destruct v as [|a [|b [|? ?]]]; try discriminate. destruct o' as [|i [|j [|? ?]]]; try discriminate.
    cbn [interleave occ_first odds evens app sds_triple]. unfold sds_D.
    destruct (i mod 2 =? a mod 2);
      (apply (adds_comp (fun s => push Double _ _ (push Single _ _ s)) _ [_; _] [_]); [|apply adds_push];
       apply (adds_comp (push Single _ _) _ [_] [_]); apply adds_push).
Qed.

(** UccStructure. *)
Definition u_gates (s : ucc_struct) : list (gtype * list nat) := combine (u_type s) (u_idx s).
Definition ucc_block (occ unocc : list nat) (c : ucc_call) : list (gtype * list nat) -> Prop :=
  match c with
  | SaS => set_block (sa_single_entry occ unocc) | SaD => sad_block occ unocc
  | Trip => exc_block Triple 3 occ unocc | Quad => exc_block Quadruple 4 occ unocc
  | Quint => exc_block Quintuple 5 occ unocc | Sext => exc_block Sextuple 6 occ unocc
  end.
Theorem C65_ucc_layout occ unocc c s : NoDup occ -> NoDup unocc -> List.length (u_type s) = List.length (u_idx s) ->
  exists B, ucc_block occ unocc c B /\ u_gates (ucc_run occ unocc c s) = u_gates s ++ B.
Proof.
  intros No Nu Hs.
  assert (P : forall ty idx s, List.length (u_type s) = List.length (u_idx s) ->
    List.length (u_type (u_push ty idx s)) = List.length (u_idx (u_push ty idx s)) /\ u_gates (u_push ty idx s) = u_gates s ++ [(ty, idx)]).
  { intros ty idx s0 H. unfold u_gates. cbn [u_push u_type u_idx]. rewrite !app_length, combine_app_eq by assumption. cbn. split; [lia|reflexivity]. }
  assert (A : forall ty ts s, List.length (u_type s) = List.length (u_idx s) -> u_gates (u_add ty ts s) = u_gates s ++ map (fun t => (ty, occ_first t)) ts).
  { intros ty ts. unfold u_add. induction ts as [|t ts IH]; intros s0 H; cbn [fold_left map]; [now rewrite app_nil_r|].
    destruct (P ty (occ_first t) s0 H) as [H1 H2]. rewrite IH, H2, <- app_assoc by assumption. reflexivity. }
  destruct (C24_spin_adapted_iterators occ unocc No Nu) as ((S1 & S2) & _).
  destruct c; cbn [ucc_run ucc_block];
    try (eexists; split; [|unfold add_triples, add_quadruples, add_quintuples, add_sextuples; apply A; assumption];
         apply iter_k_block; auto using iterate_t3_k, iterate_t4_k, iterate_t5_k, iterate_t6_k).
  - eexists; split; [|apply A; assumption]. apply set_block_map; auto.
    + intros t u Ht Hu. apply S2 in Ht as (i & a & -> & _), Hu as (i' & a' & -> & _). cbn. intros X. now inversion X.
    + intros e. split.
      * intros (t & Ht & ->). apply S2 in Ht as (i & a & -> & H1 & H2). exists i, a. auto.
      * intros (i & a & H1 & H2 & ->). exists [a; i]. split; [|reflexivity]. apply S2. exists i, a. auto.
  - eexists; split; [apply sad_block_ok; assumption|]. unfold add_sa_doubles.
    generalize (iterate_t2_sa occ unocc). intros ts. revert s Hs. induction ts as [|t ts IH]; intros s Hs; cbn [fold_left map]; [now rewrite app_nil_r|].
    destruct (P (sa_double_type (snd t)) (occ_first (fst t)) s Hs) as [H1 H2]. rewrite IH, H2, <- app_assoc by assumption. reflexivity.
Qed.

(** Accepted options: only documented names, "n_layers" given, and one of the
    switches equal to 1; everything else is a ValueError. *)
Theorem C65_fUCC_options occ unocc occs unoccs n o s :
  let switches := ["S"; "D"; "SAGS"; "pD"; "GpD"; "SAS"; "T"; "Q"; "5"; "6"; "SAD"; "GS"; "GD"]%string in
  let accepted := (forall k v, In (k, v) o -> k = "n_layers"%string \/ In k switches) /\
    (exists v, In ("n_layers"%string, v) o) /\ (exists k, In k switches /\ opt_get k o = Some 1%Z) in
  (accepted -> exists s', create_fUCC occ unocc occs unoccs n o s = Ok s') /\
  (~ accepted -> create_fUCC occ unocc occs unoccs n o s = Raise ValueError).
Proof.
  intros switches accepted.
  assert (K : known ["n_layers"; "S"; "D"; "SAGS"; "pD"; "GpD"; "SAS"; "T"; "Q"; "5"; "6"; "SAD"; "GS"; "GD"]%string o = true <->
    forall k v, In (k, v) o -> k = "n_layers"%string \/ In k switches).
  { unfold known. rewrite forallb_forall. split.
    - intros H k v Hk. specialize (H (k, v) Hk). apply existsb_exists in H as (x & Hx & E). apply String.eqb_eq in E. cbn [fst] in E. subst x.
      destruct Hx as [<-|Hx]; [now left|now right].
    - intros H [k v] Hk. apply existsb_exists. exists k. split; [|apply String.eqb_refl]. destruct (H k v Hk) as [->|X]; [now left|now right]. }
  assert (L : (exists v, opt_get "n_layers" o = Some v) <-> exists v, In ("n_layers"%string, v) o).
  { clear. induction o as [|[k v] o IH]; cbn [opt_get].
    - split; intros (v & H); [discriminate|destruct H].
    - destruct (String.eqb_spec "n_layers" k) as [<-|Hk]; [split; intros _; eauto; exists v; now left|].
      rewrite IH. split; intros (w & H); exists w; [now right|]. destruct H as [H|H]; [congruence|assumption]. }
  assert (F : existsb (fun k => Z.eqb (opt_def k o) 1) ["S"; "SAS"; "SAGS"; "D"; "pD"; "GpD"; "T"; "Q"; "5"; "6"; "SAD"; "GS"; "GD"]%string = true <->
    exists k, In k switches /\ opt_get k o = Some 1%Z).
  { rewrite existsb_exists. unfold opt_def. split; intros (k & Hk & E); exists k; (split; [unfold switches in *; cbn [In] in *; tauto|]).
    - destruct (opt_get k o); [f_equal; now apply Z.eqb_eq|discriminate].
    - rewrite E. reflexivity. }
  unfold create_fUCC, accepted. clear accepted.
  destruct (known _ o) eqn:EK; cbn [negb].
  - pose proof (proj1 K eq_refl) as EK'. destruct (opt_get "n_layers" o) as [nl|] eqn:EL.
    + cbv zeta. destruct (existsb _ _) eqn:EF; cbn [negb].
      * pose proof (proj1 F eq_refl) as EF'. split; [eauto|]. intros H. exfalso. apply H. split; [assumption|]. split; [|assumption]. apply L. eauto.
      * split; [|reflexivity]. intros (_ & _ & H). apply F in H. discriminate.
    + split; [|reflexivity]. intros (_ & H & _). apply L in H as (v & H). discriminate.
  - split; [|reflexivity]. intros (H & _). apply K in H. discriminate.
Qed.

Example C65_example : exists s, create_fUCC [0] [1; 2] [0; 1] [2; 3; 4; 5] 3 [("n_layers", 2%Z); ("S", 1%Z); ("D", 1%Z); ("SAD", 1%Z)]%string ups_empty = Ok s /\
  aligned ups_empty /\ List.length (gates s) = 22 /\ nth 5 (gates s) (Other, []) = (Double, [0; 1; 2; 5]) /\
  flat_map (tile true false) (columns 4 0) = [(SaSingle, [0; 1]); (Double, [0; 1; 2; 3]); (SaSingle, [0; 1]); (SaSingle, [2; 3]); (Double, [4; 5; 6; 7]); (SaSingle, [2; 3])] /\
  columns 6 1 = [1; 3].
Proof. eexists. split; [vm_compute; reflexivity|]. vm_compute. auto. Qed.

Print Assumptions C65_fUCC_layout.
Print Assumptions C65_tiled_layout.
Print Assumptions C65_SDS_layout.
Print Assumptions C65_ucc_layout.
Print Assumptions C65_fUCC_options.
