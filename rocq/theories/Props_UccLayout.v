(** Property C95: the excitation string of the UCC wave function and the printed parameter counts. *)
From Coq Require Import List Bool Arith ZArith Lia Permutation Ascii String.
From Verif Require Import Base UPSModel StructModel StructProofs StructInv Props_Struct Props_Ansatz UccLayoutModel.
Import ListNotations.
Local Open Scope nat_scope.

(** A letter occurs in the string, as a small or a capital letter. *)
Definition occurs (small capital : ascii) (e : string) : Prop := exists k, String.get k e = Some small \/ String.get k e = Some capital.
Lemma has_spec small capital e : (forall x, Ascii.eqb (lower x) small = true <-> x = small \/ x = capital) ->
  has small e = true <-> occurs small capital e.
Proof.
  intros H. induction e as [|x e IH]; cbn [has].
  - split; [discriminate|]. intros [k [E|E] ]; destruct k; discriminate.
  - rewrite orb_true_iff, H, IH. split.
    + intros [[-> | ->]|(k & Hk)]; [exists 0; now left|exists 0; now right|exists (S k); exact Hk].
    + intros ([|k] & Hk); cbn in Hk; [left; destruct Hk as [Hk|Hk]; injection Hk; auto|right; exists k; exact Hk].
Qed.
Definition all_ascii : list ascii := map ascii_of_nat (seq 0 256).
Lemma in_all_ascii x : In x all_ascii.
Proof. apply in_map_iff. exists (nat_of_ascii x). split; [apply ascii_nat_embedding|]. apply in_seq. pose proof (nat_ascii_bounded x). lia. Qed.
Lemma letter small capital : forallb (fun x => Bool.eqb (Ascii.eqb (lower x) small) (Ascii.eqb x small || Ascii.eqb x capital)) all_ascii = true ->
  forall x, Ascii.eqb (lower x) small = true <-> x = small \/ x = capital.
Proof.
  intros H x. rewrite forallb_forall in H. specialize (H x (in_all_ascii x)). apply Bool.eqb_prop in H. rewrite H, orb_true_iff, !Ascii.eqb_eq. reflexivity.
Qed.

(** The six letters with the excitations each one stands for. *)
Definition blocks (occ unocc socc sunocc : list nat) : list (ascii * ascii * (list (gtype * list nat) -> Prop)) :=
  [("s", "S", set_block (sa_single_entry occ unocc)); ("d", "D", sad_block occ unocc);
   ("t", "T", exc_block Triple 3 socc sunocc); ("q", "Q", exc_block Quadruple 4 socc sunocc);
   ("5", "5", exc_block Quintuple 5 socc sunocc); ("6", "6", exc_block Sextuple 6 socc sunocc)]%char.

Definition even_lists (s : ucc_struct) : Prop := List.length (u_type s) = List.length (u_idx s).
Lemma run_even occ unocc c s : even_lists s -> even_lists (ucc_run occ unocc c s).
Proof.
  assert (P : forall ty idx s, even_lists s -> even_lists (u_push ty idx s)) by (intros ty idx s0 H; unfold even_lists in *; cbn; rewrite !app_length, H; reflexivity).
  assert (A : forall ty ts s, even_lists s -> even_lists (u_add ty ts s)) by (intros ty ts; unfold u_add; induction ts; cbn; auto).
  intros H. destruct c; try (apply A, H). cbn [ucc_run]. unfold add_sa_doubles. revert s H. generalize (iterate_t2_sa occ unocc).
  induction l; cbn; auto.
Qed.
Lemma step small capital occ unocc c s e : (forall x, Ascii.eqb (lower x) small = true <-> x = small \/ x = capital) -> NoDup occ -> NoDup unocc -> even_lists s ->
  exists B, (occurs small capital e -> ucc_block occ unocc c B) /\ (~ occurs small capital e -> B = []) /\
    u_gates (if has small e then ucc_run occ unocc c s else s) = u_gates s ++ B /\ even_lists (if has small e then ucc_run occ unocc c s else s).
Proof.
  intros HL No Nu Hs. pose proof (has_spec small capital e HL) as HH. destruct (has small e).
  - destruct (C65_ucc_layout occ unocc c s No Nu Hs) as (B & HB & E). exists B. split; [auto|]. split; [intros X; exfalso; apply X, HH; reflexivity|].
    split; [exact E|]. now apply run_even.
  - exists []. split; [intros X; apply HH in X; discriminate|]. split; [auto|]. split; [now rewrite app_nil_r|exact Hs].
Qed.

(** C95: the operators are, in this order and whatever the order, case and repetition of
    the letters, one block for each of s, d, t, q, 5 and 6 that occurs in the string; a block
    holds every excitation of its kind exactly once; other characters do nothing. *)
Theorem C95_layout e occ unocc socc sunocc : NoDup occ -> NoDup unocc -> NoDup socc -> NoDup sunocc ->
  exists Bs, u_gates (layout e occ unocc socc sunocc) = List.concat Bs /\
    Forall2 (fun (b : ascii * ascii * (list (gtype * list nat) -> Prop)) B =>
      (occurs (fst (fst b)) (snd (fst b)) e -> snd b B) /\ (~ occurs (fst (fst b)) (snd (fst b)) e -> B = [])) (blocks occ unocc socc sunocc) Bs.
Proof.
  intros N1 N2 N3 N4. unfold layout.
  destruct (step "s" "S" occ unocc SaS ucc_empty e (letter "s" "S" eq_refl) N1 N2 eq_refl) as (B1 & P1 & Q1 & E1 & L1). cbn [ucc_run] in E1, L1. set (s1 := if has "s" e then _ else _) in *.
  destruct (step "d" "D" occ unocc SaD s1 e (letter "d" "D" eq_refl) N1 N2 L1) as (B2 & P2 & Q2 & E2 & L2). cbn [ucc_run] in E2, L2. set (s2 := if has "d" e then _ else _) in *.
  destruct (step "t" "T" socc sunocc Trip s2 e (letter "t" "T" eq_refl) N3 N4 L2) as (B3 & P3 & Q3 & E3 & L3). cbn [ucc_run] in E3, L3. set (s3 := if has "t" e then _ else _) in *.
  destruct (step "q" "Q" socc sunocc Quad s3 e (letter "q" "Q" eq_refl) N3 N4 L3) as (B4 & P4 & Q4 & E4 & L4). cbn [ucc_run] in E4, L4. set (s4 := if has "q" e then _ else _) in *.
  destruct (step "5" "5" socc sunocc Quint s4 e (letter "5" "5" eq_refl) N3 N4 L4) as (B5 & P5 & Q5 & E5 & L5). cbn [ucc_run] in E5, L5. set (s5 := if has "5" e then _ else _) in *.
  destruct (step "6" "6" socc sunocc Sext s5 e (letter "6" "6" eq_refl) N3 N4 L5) as (B6 & P6 & Q6 & E6 & L6). cbn [ucc_run] in E6, L6.
  exists [B1; B2; B3; B4; B5; B6]. split.
  - rewrite E6, E5, E4, E3, E2, E1. cbn [List.concat]. rewrite app_nil_r, !app_assoc. reflexivity.
  - unfold blocks. repeat (apply Forall2_cons; [split; assumption|]). apply Forall2_nil.
Qed.

(** C95: two strings with the same of the six letters give the same operators. *)
Theorem C95_letters e e' occ unocc socc sunocc :
  (forall b, In b [("s", "S"); ("d", "D"); ("t", "T"); ("q", "Q"); ("5", "5"); ("6", "6")]%char -> occurs (fst b) (snd b) e <-> occurs (fst b) (snd b) e') ->
  layout e occ unocc socc sunocc = layout e' occ unocc socc sunocc.
Proof.
  intros H.
  assert (X : forall small capital, forallb (fun x => Bool.eqb (Ascii.eqb (lower x) small) (Ascii.eqb x small || Ascii.eqb x capital)) all_ascii = true ->
    In (small, capital) [("s", "S"); ("d", "D"); ("t", "T"); ("q", "Q"); ("5", "5"); ("6", "6")]%char -> has small e = has small e').
  { intros small capital HL HI. pose proof (has_spec small capital e (letter _ _ HL)) as A. pose proof (has_spec small capital e' (letter _ _ HL)) as B.
    specialize (H _ HI). cbn [fst snd] in H. apply eq_true_iff_eq. rewrite A, B. exact H. }
  unfold layout. rewrite (X "s" "S")%char, (X "d" "D")%char, (X "t" "T")%char, (X "q" "Q")%char, (X "5" "5")%char, (X "6" "6")%char; try reflexivity; cbn; tauto.
Qed.

(** The operators with [2 * k] indices. *)
Definition of_rank (k : nat) (s : ucc_struct) : nat := List.length (filter (fun i => List.length i =? 2 * k) (u_idx s)).
Definition counted (ty : gtype) : Prop := ~ In ty [Single; Double; Other].
Lemma tallies_ok types : forall idxs n, Forall2 (fun ty i => arity ty = Some (List.length i) /\ counted ty) types idxs ->
  exists n', tallies n types = Ok n' /\
    let r k := List.length (filter (fun i : list nat => List.length i =? 2 * k) idxs) in
    t1 n' = t1 n + r 1 /\ t2 n' = t2 n + r 2 /\ t3 n' = t3 n + r 3 /\ t4 n' = t4 n + r 4 /\ t5 n' = t5 n + r 5 /\ t6 n' = t6 n + r 6 /\
    total 0 n' = total 0 n + List.length idxs.
Proof.
  induction types as [|ty types IH]; intros idxs n H; inversion H as [|? i ? is' [A C] H']; subst.
  - exists n. split; [reflexivity|]. cbn. repeat split; lia.
  - assert (K : exists n1, tally n ty = Ok n1 /\ let r k := if List.length i =? 2 * k then 1 else 0 in
      t1 n1 = t1 n + r 1 /\ t2 n1 = t2 n + r 2 /\ t3 n1 = t3 n + r 3 /\ t4 n1 = t4 n + r 4 /\ t5 n1 = t5 n + r 5 /\ t6 n1 = t6 n + r 6).
    { unfold counted in C. destruct ty; cbn in C; try (exfalso; apply C; tauto); injection A as <-; eexists; (split; [reflexivity|]); cbn; repeat split; lia. }
    destruct K as (n1 & E1 & K). destruct (IH is' n1 H') as (n' & E & K').
    exists n'. cbn [tallies]. rewrite E1. cbn [bind]. split; [exact E|].
    assert (S1 : exists k, 1 <= k <= 6 /\ List.length i = 2 * k).
    { unfold counted in C. destruct ty; cbn in C; try (exfalso; apply C; tauto); injection A as A; rewrite <- A;
        [exists 3|exists 4|exists 5|exists 6|exists 1|exists 2|exists 2|exists 2|exists 2|exists 2]; lia. }
    destruct S1 as (k & Hk & Li). cbn zeta in *. unfold total in *. cbn [filter]. rewrite Li in *. cbn [List.length].
    destruct k as [|[|[|[|[|[|[|k] ] ] ] ] ] ]; try lia; cbn [Nat.mul Nat.add Nat.eqb List.length] in *; repeat split; lia.
Qed.
Definition listed (s : ucc_struct) : Prop :=
  Forall2 (fun ty i => arity ty = Some (List.length i) /\ counted ty) (u_type s) (u_idx s) /\ List.length (u_idx s) = u_n s.
Lemma listed_run occ unocc c s : listed s -> listed (ucc_run occ unocc c s).
Proof.
  assert (P : forall ty idx s, arity ty = Some (List.length idx) -> counted ty -> listed s -> listed (u_push ty idx s)).
  { intros ty idx s0 A C [H1 H2]. split; cbn [u_push u_type u_idx u_n]; [apply Forall2_app; auto|rewrite app_length, H2; reflexivity]. }
  assert (A : forall ty ts s, counted ty -> (forall t, In t ts -> arity ty = Some (List.length (occ_first t))) -> listed s -> listed (u_add ty ts s)).
  { intros ty ts. unfold u_add. induction ts as [|t ts IHt]; intros s0 C Ht Hs; cbn [fold_left]; [assumption|].
    apply IHt; [exact C|intros; apply Ht; now right|]. apply P; auto. apply Ht. now left. }
  intros H. destruct c; cbn [ucc_run].
  - apply A; [unfold counted; cbn; intuition discriminate| |exact H]. intros t Ht. apply in_t1_sa in Ht as (? & ? & -> & _). reflexivity.
  - unfold add_sa_doubles. pose proof (t2_sa_arity occ unocc) as B. revert s H. induction (iterate_t2_sa occ unocc) as [|[t c] ts IHt]; intros s0 Hs; cbn [fold_left]; [assumption|].
    apply IHt; [intros; apply B; now right|]. destruct (B _ _ (or_introl eq_refl)) as [X _]. cbn [fst snd]. apply P; [exact X| |exact Hs].
    intros [Y|[Y|[Y|[] ] ] ]; revert X Y; unfold sa_double_type; destruct c as [|[|[|[|[|[|c] ] ] ] ] ]; discriminate.
  - apply A; [unfold counted; cbn; intuition discriminate| |exact H]. intros t Ht. rewrite iterate_t3_k in Ht. apply iter_k_arity in Ht. now rewrite Ht.
  - apply A; [unfold counted; cbn; intuition discriminate| |exact H]. intros t Ht. rewrite iterate_t4_k in Ht. apply iter_k_arity in Ht. now rewrite Ht.
  - apply A; [unfold counted; cbn; intuition discriminate| |exact H]. intros t Ht. rewrite iterate_t5_k in Ht. apply iter_k_arity in Ht. now rewrite Ht.
  - apply A; [unfold counted; cbn; intuition discriminate| |exact H]. intros t Ht. rewrite iterate_t6_k in Ht. apply iter_k_arity in Ht. now rewrite Ht.
Qed.

(** C95: for every excitation string and index lists the counting before an optimisation
    does not raise; the six numbers are the numbers of operators with two, four, ...,
    twelve indices, and with the orbital parameters they add up to the number of parameters. *)
Theorem C95_counts e occ unocc socc sunocc num_kappa : let s := layout e occ unocc socc sunocc in
  exists n, count_parameters (u_type s) = Ok n /\
    [t1 n; t2 n; t3 n; t4 n; t5 n; t6 n] = map (fun k => of_rank k s) [1; 2; 3; 4; 5; 6] /\ total num_kappa n = num_kappa + u_n s.
Proof.
  assert (L : listed (layout e occ unocc socc sunocc)).
  { unfold layout. assert (G : forall small occ unocc c s, listed s -> listed (if has small e then ucc_run occ unocc c s else s))
      by (intros small o u c s H; destruct (has small e); [apply listed_run|]; exact H).
    apply (G "6"%char socc sunocc Sext), (G "5"%char socc sunocc Quint), (G "q"%char socc sunocc Quad), (G "t"%char socc sunocc Trip),
      (G "d"%char occ unocc SaD), (G "s"%char occ unocc SaS). split; [constructor|reflexivity]. }
  cbn zeta. destruct L as [L1 L2]. destruct (tallies_ok _ _ no_parameters L1) as (n & E & H1 & H2 & H3 & H4 & H5 & H6 & H7).
  exists n. split; [exact E|]. unfold of_rank. cbn in H1, H2, H3, H4, H5, H6. split; [cbn [map]; rewrite H1, H2, H3, H4, H5, H6; reflexivity|].
  unfold total in *. cbn in H7. lia.
Qed.
(** C95: the counting raises ValueError exactly when there is an operator of another type
    (such as the "single" and "double" of the other ansatz structures). *)
Theorem C95_unknown_type types :
  (count_parameters types = Raise ValueError <-> exists ty, In ty types /\ In ty [Single; Double; Other]) /\
  (count_parameters types = Raise ValueError \/ exists n, count_parameters types = Ok n).
Proof.
  unfold count_parameters. generalize no_parameters. induction types as [|ty types IH]; intros n; cbn [tallies].
  - split; [|eauto]. split; [discriminate|]. intros (ty & [] & _).
  - assert (K : In ty [Single; Double; Other] /\ tally n ty = Raise ValueError \/ ~ In ty [Single; Double; Other] /\ exists n1, tally n ty = Ok n1)
      by (destruct ty; cbn; solve [left; split; [tauto|reflexivity]|right; split; [intuition discriminate|eauto] ]).
    destruct K as [[K E]|[K [n1 E] ] ]; rewrite E; cbn [bind].
    + split; [|auto]. split; [intros _; exists ty; split; [now left|exact K]|reflexivity].
    + destruct (IH n1) as [A B]. split; [|exact B]. rewrite A. split; intros (ty' & H1 & H2); exists ty'; (split; [|exact H2]).
      * now right.
      * destruct H1 as [->|H1]; [contradiction|exact H1].
Qed.

(** ** Cases meeting the hypotheses: four electrons in four orbitals. *)
Example C95_example_layout : NoDup [0; 1] /\ NoDup [2; 3] /\ NoDup [0; 1; 2; 3] /\ NoDup [4; 5; 6; 7] /\
  u_n (layout "DS" [0; 1] [2; 3] [0; 1; 2; 3] [4; 5; 6; 7]) = 14 /\ u_n (layout "sdT q" [0; 1] [2; 3] [0; 1; 2; 3] [4; 5; 6; 7]) = 23 /\
  count_parameters (u_type (layout "sdT q" [0; 1] [2; 3] [0; 1; 2; 3] [4; 5; 6; 7])) = Ok {| t1 := 4; t2 := 10; t3 := 8; t4 := 1; t5 := 0; t6 := 0 |}.
Proof. repeat split; try reflexivity; repeat constructor; cbn; lia. Qed.
Example C95_example_letters : layout "SD" [0; 1] [2; 3] [0; 1; 2; 3] [4; 5; 6; 7] = layout "d-s" [0; 1] [2; 3] [0; 1; 2; 3] [4; 5; 6; 7].
Proof. reflexivity. Qed.
Example C95_example_unknown : count_parameters [SaSingle; Double] = Raise ValueError.
Proof. reflexivity. Qed.

Print Assumptions C95_layout.
Print Assumptions C95_letters.
Print Assumptions C95_counts.
Print Assumptions C95_unknown_type.
