(** Property C96: the basis-set reader returns the shells written in the file. *)
From Coq Require Import List Bool Arith ZArith Ascii String Lia.
From Verif Require Import Base BasisModel.
Import ListNotations.
Local Open Scope nat_scope.

(** ** Statements *)
Definition is_space (c : ascii) : Prop := In (nat_of_ascii c) [9; 10; 11; 12; 13; 28; 29; 30; 31; 32].
Definition spaces (l : line) : Prop := Forall is_space l.
Definition one_word (w : line) : Prop := w <> [] /\ Forall (fun c => ~ is_space c) w.
(** A line with two words, starting with a space; [x] is what follows the second word. *)
Definition two_words (w1 w2 l : line) : Prop := exists b0 b1 b2 x, l = " "%char :: b0 ++ w1 ++ b1 ++ w2 ++ b2 ++ x /\
  spaces b0 /\ spaces b1 /\ b1 <> [] /\ spaces b2 /\ b2 <> [] /\ one_word w1 /\ one_word w2.
(** All [i, j, k] with [i + j + k = l], the first index falling slowest. *)
Definition cartesian (l : nat) : list (list nat) :=
  flat_map (fun i => map (fun j => [l - i; i - j; j]) (seq 0 (i + 1))) (seq 0 (l + 1)).
Definition letter (l : nat) : line := match l with 0 => ["s"%char] | 1 => ["p"%char] | 2 => ["d"%char] | _ => ["f"%char] end.
Definition no_letters (l : line) : Prop := Forall (fun c => ~ In c ["s"; "p"; "d"; "f"]%char) l.

Section BasisProps.
  Context {V : Type}.
  Variables (float_of : line -> option V) (int_of : line -> option Z).
  Notation shells := (read_shells float_of int_of).
  (** The number [x] written as [w]: with [e] for every [D] it reads as [x]. *)
  Definition writes (w : line) (x : V) : Prop := exists w', float_of w' = Some x /\
    Forall2 (fun c c' => c' = if ascii_dec c "D" then "e"%char else c) w w'.
  Definition prim_line (ec : V * V) (l : line) : Prop := exists w1 w2, two_words w1 w2 l /\ writes w1 (fst ec) /\ writes w2 (snd ec) /\ no_letters l.
  Definition head_line (n : nat) (a : line) (l : line) : Prop := exists w, two_words w a l /\ int_of w = Some (Z.of_nat n).
  (** The lines of a shell: the header and one line for every primitive. *)
  Definition shell_lines (a : line) (ps : list (V * V)) (ls : list line) : Prop :=
    ps <> [] /\ exists h pl, ls = h :: pl /\ head_line (List.length ps) a h /\ Forall2 prim_line ps pl.
  (** The shells of an atom, with starred lines before, between and after them. *)
  Inductive body : list (nat * list (V * V)) -> list line -> Prop :=
  | B_nil : body [] []
  | B_star r sh ls : body sh ls -> body sh (("*"%char :: r) :: ls)
  | B_shell l ps sl sh ls : l <= 3 -> shell_lines (letter l) ps sl -> body sh ls -> body ((l, ps) :: sh) (sl ++ ls).
  (** The end of the file or the next atom. *)
  Definition ends (ls : list line) : Prop := ls = [] \/ exists c r rest, ls = (c :: r) :: rest /\ c <> "*"%char /\ c <> " "%char.

  Lemma blank_spec c : blank c = true <-> is_space c.
  Proof.
    unfold blank, is_space. rewrite orb_true_iff, !andb_true_iff, !Nat.leb_le. cbn [In]. split; intros H; lia.
  Qed.
  Lemma blank_false c : ~ is_space c -> blank c = false.
  Proof. intros H. destruct (blank c) eqn:E; [|reflexivity]. apply blank_spec in E. contradiction. Qed.
  Lemma split_spaces b l : spaces b -> split [] (b ++ l) = split [] l.
  Proof. induction 1 as [|c b Hc Hb IH]; [reflexivity|]. cbn [app split]. apply blank_spec in Hc. rewrite Hc. exact IH. Qed.
  Lemma split_word w : forall cur l, Forall (fun c => ~ is_space c) w -> split cur (w ++ l) = split (rev w ++ cur) l.
  Proof.
    induction w as [|c w IH]; intros cur l H; [reflexivity|]. inversion H; subst. cbn [app split rev]. rewrite blank_false by assumption.
    rewrite IH by assumption. now rewrite <- app_assoc.
  Qed.
  Lemma split_first w b l : one_word w -> spaces b -> b <> [] -> split [] (w ++ b ++ l) = w :: split [] l.
  Proof.
    intros [Hw H1] Hb Hn. rewrite split_word, app_nil_r by assumption. destruct b as [|c b]; [contradiction|]. inversion Hb; subst. cbn [app split].
    rewrite (proj2 (blank_spec c)) by assumption. destruct (rev w) as [|x r] eqn:E.
    - apply (f_equal (@rev ascii)) in E. rewrite rev_involutive in E. cbn in E. contradiction.
    - rewrite <- E, rev_involutive. f_equal. now apply split_spaces.
  Qed.
  Lemma split_two w1 w2 l : two_words w1 w2 l -> word 0 (split [] l) = Ok w1 /\ word 1 (split [] l) = Ok w2.
  Proof.
    intros (b0 & b1 & b2 & x & -> & S0 & S1 & N1 & S2 & N2 & W1 & W2).
    change (" "%char :: b0 ++ w1 ++ b1 ++ w2 ++ b2 ++ x) with ((" "%char :: b0) ++ w1 ++ b1 ++ w2 ++ b2 ++ x).
    rewrite split_spaces by (constructor; [unfold is_space; cbn; lia|exact S0]). rewrite !split_first by assumption. split; reflexivity.
  Qed.
  Lemma writes_float w x : writes w x -> to_float float_of w = Ok x.
  Proof.
    intros (w' & E & F). unfold to_float. replace (to_e w) with w'; [now rewrite E|].
    clear E. induction F as [|c c' w w' H F IH]; [reflexivity|]. cbn [to_e map]. fold (to_e w). rewrite <- IH, H. f_equal.
    destruct (ascii_dec c "D") as [->|N]; [reflexivity|]. apply Ascii.eqb_neq in N. now rewrite N.
  Qed.
  Lemma no_letters_spdf l : no_letters l -> spdf l = false.
  Proof.
    induction 1 as [|c l H _ IH]; [reflexivity|]. change (existsb (Ascii.eqb c) ["s"; "p"; "d"; "f"]%char || spdf l = false). rewrite IH, orb_false_r.
    apply not_true_is_false. intros E. apply existsb_exists in E as (y & Hy & E). apply Ascii.eqb_eq in E. subst y. contradiction.
  Qed.
  Lemma letters_spdf l c : In c l -> In c ["s"; "p"; "d"; "f"]%char -> spdf l = true.
  Proof. intros H1 H2. apply existsb_exists. exists c. split; [exact H1|]. apply existsb_exists. exists c. split; [exact H2|apply Ascii.eqb_refl]. Qed.
  Lemma two_words_shape w1 w2 l : two_words w1 w2 l -> exists r, l = " "%char :: r /\ incl w2 l.
  Proof.
    intros (b0 & b1 & b2 & x & -> & _). eexists. split; [reflexivity|]. intros c Hc. right. rewrite !in_app_iff. tauto.
  Qed.

  (** A line of a primitive while more than this one is missing, and while it is the last. *)
  Lemma read_prim ec l r b : prim_line ec l -> (1 < b_left b)%Z ->
    shells (l :: r) b = shells r {| b_exp := b_exp b; b_coef := b_coef b; b_ang := b_ang b; b_left := b_left b - 1; b_angular := b_angular b;
            b_e := b_e b ++ [fst ec]; b_c := b_c b ++ [snd ec] |}.
  Proof.
    intros (w1 & w2 & T & W1 & W2 & N) Hl. destruct (two_words_shape _ _ _ T) as (q & Eq & _). destruct (split_two _ _ _ T) as [S1 S2].
    apply no_letters_spdf in N. rewrite Eq in S1, S2, N |- *. cbn [read_shells]. change (Ascii.eqb " " "*") with false. change (Ascii.eqb " " " ") with true. cbn [negb].
    rewrite N. unfold take_primitive. destruct (Z.ltb_spec 0 (b_left b)); [|lia]. rewrite S1, S2. cbn [bind]. rewrite (writes_float _ _ W1), (writes_float _ _ W2). cbn [bind].
    unfold close_shell. cbn [b_left]. destruct (Z.eqb_spec (b_left b - 1) 0); [lia|]. reflexivity.
  Qed.
  Lemma read_last ec l r b a : prim_line ec l -> b_left b = 1%Z -> angulars (b_angular b) = Ok a ->
    shells (l :: r) b = shells r {| b_exp := b_exp b ++ [b_e b ++ [fst ec] ]; b_coef := b_coef b ++ [b_c b ++ [snd ec] ]; b_ang := b_ang b ++ [a]; b_left := -1;
            b_angular := b_angular b; b_e := b_e b ++ [fst ec]; b_c := b_c b ++ [snd ec] |}.
  Proof.
    intros (w1 & w2 & T & W1 & W2 & N) Hl Ha. destruct (two_words_shape _ _ _ T) as (q & Eq & _). destruct (split_two _ _ _ T) as [S1 S2].
    apply no_letters_spdf in N. rewrite Eq in S1, S2, N |- *. cbn [read_shells]. change (Ascii.eqb " " "*") with false. change (Ascii.eqb " " " ") with true. cbn [negb].
    rewrite N. unfold take_primitive. destruct (Z.ltb_spec 0 (b_left b)); [|lia]. rewrite S1, S2. cbn [bind]. rewrite (writes_float _ _ W1), (writes_float _ _ W2). cbn [bind].
    unfold close_shell. cbn [b_left]. rewrite Hl. cbn [Z.sub Z.eqb b_angular b_exp b_coef b_ang b_e b_c]. change (1 - 1 =? 0)%Z with true. cbn iota. rewrite Ha. reflexivity.
  Qed.
  Lemma read_prims a : forall ps pl r b, ps <> [] -> Forall2 prim_line ps pl -> b_left b = Z.of_nat (List.length ps) -> angulars (b_angular b) = Ok a ->
    shells (pl ++ r) b = shells r {| b_exp := b_exp b ++ [b_e b ++ map fst ps]; b_coef := b_coef b ++ [b_c b ++ map snd ps]; b_ang := b_ang b ++ [a]; b_left := -1;
            b_angular := b_angular b; b_e := b_e b ++ map fst ps; b_c := b_c b ++ map snd ps |}.
  Proof.
    induction ps as [|p ps IH]; intros pl r b Hn F HL HA; [contradiction|]. inversion F as [|? l ? pl' P F']; subst. cbn [app].
    destruct ps as [|p' ps].
    - inversion F'; subst. cbn [app map]. apply (read_last p l r b a P HL HA).
    - rewrite (read_prim p l _ b P) by (rewrite HL; cbn [List.length]; lia).
      rewrite IH; [|discriminate|exact F'|cbn [b_left]; rewrite HL; cbn [List.length]; lia|exact HA].
      cbn [b_exp b_coef b_ang b_angular b_e b_c map]. rewrite <- !app_assoc. reflexivity.
  Qed.
  Lemma read_head n a l r b : head_line n a l -> (exists c, In c a /\ In c ["s"; "p"; "d"; "f"]%char) ->
    shells (l :: r) b = shells r {| b_exp := b_exp b; b_coef := b_coef b; b_ang := b_ang b; b_left := Z.of_nat n; b_angular := a; b_e := []; b_c := [] |}.
  Proof.
    intros (w & T & Hw) (c & C1 & C2). destruct (two_words_shape _ _ _ T) as (q & Eq & Hi). destruct (split_two _ _ _ T) as [S1 S2].
    assert (N := letters_spdf l c (Hi c C1) C2). rewrite Eq in S1, S2, N |- *. cbn [read_shells]. change (Ascii.eqb " " "*") with false. change (Ascii.eqb " " " ") with true. cbn [negb].
    rewrite N, S1, S2. cbn [bind]. unfold to_int. rewrite Hw. reflexivity.
  Qed.
  Lemma letter_ok l : l <= 3 -> angulars (letter l) = Ok (cartesian l) /\ exists c, In c (letter l) /\ In c ["s"; "p"; "d"; "f"]%char.
  Proof. intros H. destruct l as [|[|[|[|l] ] ] ]; [| | | |lia]; (split; [reflexivity|eexists; split; [left; reflexivity|cbn; tauto] ]). Qed.
  Lemma read_body sh ls : body sh ls -> forall r b, exists b',
    shells (ls ++ r) b = shells r b' /\ b_exp b' = b_exp b ++ map (fun s => map fst (snd s)) sh /\ b_coef b' = b_coef b ++ map (fun s => map snd (snd s)) sh /\
    b_ang b' = b_ang b ++ map (fun s => cartesian (fst s)) sh /\ (b_left b = (-1)%Z -> b_left b' = (-1)%Z).
  Proof.
    induction 1 as [|q sh ls HB IH|l ps sl sh ls Hl (Hn & h & pl & -> & Hh & Hp) HB IH]; intros r b.
    - exists b. cbn [map app]. rewrite !app_nil_r. auto.
    - apply IH.
    - destruct (letter_ok l Hl) as [HA HC]. rewrite <- app_assoc. cbn [app]. rewrite (read_head _ _ _ _ _ Hh HC).
      rewrite (read_prims (cartesian l) ps pl) by (assumption || reflexivity). cbn [b_exp b_coef b_ang b_angular b_e b_c app].
      match goal with |- exists _, shells _ ?b1 = _ /\ _ => destruct (IH r b1) as (b' & E & H1 & H2 & H3 & H4) end.
      exists b'. split; [exact E|]. cbn [b_exp b_coef b_ang b_left] in *. cbn [map fst snd]. rewrite H1, H2, H3, <- !app_assoc. auto.
  Qed.
  Lemma read_ends r b : ends r -> shells r b = Ok b.
  Proof.
    intros [->|(c & q & rest & -> & N1 & N2)]; [reflexivity|]. cbn [read_shells]. apply Ascii.eqb_neq in N1, N2. rewrite N1, N2. reflexivity.
  Qed.
  Lemma find_tag t pre l r : Forall (fun x => firstn 2 x <> t) pre -> firstn 2 l = t -> after_tag t (pre ++ l :: r) = Ok r.
  Proof.
    intros H E. induction H as [|x pre Hx H IH]; cbn [app after_tag].
    - destruct (list_eq_dec ascii_dec (firstn 2 l) t); [reflexivity|contradiction].
    - destruct (list_eq_dec ascii_dec (firstn 2 x) t); [contradiction|exact IH].
  Qed.

  (** C96: whatever precedes the atom in the file and whatever follows it, the reader returns
      its shells: exponents and coefficients in the order of the file and all Cartesian
      components of the angular momentum. *)
  Theorem C96_read atom pre t ls sh after : Forall (fun x => firstn 2 x <> tag atom) pre -> firstn 2 t = tag atom -> body sh ls -> ends after ->
    read_basis float_of int_of atom (pre ++ t :: ls ++ after) =
    Ok (map (fun s => map fst (snd s)) sh, map (fun s => map snd (snd s)) sh, map (fun s => cartesian (fst s)) sh).
  Proof.
    intros H1 H2 HB HE. unfold read_basis. rewrite (find_tag _ _ _ _ H1 H2). cbn [bind].
    destruct (read_body sh ls HB after reader0) as (b' & E & E1 & E2 & E3 & _). rewrite E, (read_ends _ _ HE). cbn [bind]. rewrite E1, E2, E3. reflexivity.
  Qed.
  (** C96: an atom that is not in the file. *)
  Theorem C96_no_atom atom ls : Forall (fun x => firstn 2 x <> tag atom) ls -> read_basis float_of int_of atom ls = Raise ValueError.
  Proof.
    intros H. unfold read_basis. replace (after_tag (tag atom) ls) with (@Raise (list line) ValueError); [reflexivity|].
    induction H as [|x ls Hx H IH]; cbn [after_tag]; [reflexivity|]. destruct (list_eq_dec ascii_dec (firstn 2 x) (tag atom)); [contradiction|exact IH].
  Qed.
  (** C96: a combined shell such as "sp" raises ValueError. *)
  Theorem C96_unknown_shell atom pre t ls sh a ps sl after : Forall (fun x => firstn 2 x <> tag atom) pre -> firstn 2 t = tag atom -> body sh ls ->
    shell_lines a ps sl -> (exists c, In c a /\ In c ["s"; "p"; "d"; "f"]%char) -> (forall l, a <> letter l) ->
    read_basis float_of int_of atom (pre ++ t :: ls ++ sl ++ after) = Raise ValueError.
  Proof.
    intros H1 H2 HB (Hn & h & pl & -> & Hh & Hp) HC HA. unfold read_basis. rewrite (find_tag _ _ _ _ H1 H2). cbn [bind].
    destruct (read_body sh ls HB ((h :: pl) ++ after) reader0) as (b' & E & _). rewrite E. cbn [app]. rewrite (read_head _ _ _ _ _ Hh HC).
    match goal with |- bind (shells _ ?b1) _ = _ => assert (G : forall ps pl b, ps <> [] -> Forall2 prim_line ps pl -> b_left b = Z.of_nat (List.length ps) ->
      b_angular b = a -> shells (pl ++ after) b = Raise ValueError) end.
    { clear - HA. induction ps as [|p ps IH]; intros pl b Hn F HL Hb; [contradiction|]. inversion F as [|? l ? pl' P F']; subst. cbn [app].
      destruct ps as [|p' ps].
      - assert (P' := P). destruct P' as (w1 & w2 & T & W1 & W2 & N). destruct (two_words_shape _ _ _ T) as (q & Eq & _). destruct (split_two _ _ _ T) as [S1 S2].
        apply no_letters_spdf in N. rewrite Eq in S1, S2, N |- *. cbn [read_shells]. change (Ascii.eqb " " "*") with false. change (Ascii.eqb " " " ") with true. cbn [negb].
        rewrite N. unfold take_primitive. rewrite HL. cbn [List.length Z.of_nat Z.ltb Z.compare]. change (0 <? Z.pos (Pos.of_succ_nat 0))%Z with true. cbn iota.
        rewrite S1, S2. cbn [bind]. rewrite (writes_float _ _ W1), (writes_float _ _ W2). cbn [bind].
        unfold close_shell. cbn [b_left b_angular]. change (Z.pos (Pos.of_succ_nat 0) - 1 =? 0)%Z with true. cbn iota.
        replace (angulars (b_angular b)) with (@Raise (list (list nat)) ValueError); [reflexivity|].
        destruct (angulars (b_angular b)) as [x|e|] eqn:EA; [exfalso|f_equal|].
        + unfold angulars in EA. revert EA HA. generalize (b_angular b). intros u EA HA.
          assert (u = letter 0 \/ u = letter 1 \/ u = letter 2 \/ u = letter 3) as [?|[?|[?|?] ] ]; [|eapply HA; eassumption..].
          destruct u as [|[[] [] [] [] [] [] [] [] ] [|? ?] ]; try discriminate EA; cbn; tauto.
        + unfold angulars in EA. revert EA. generalize (b_angular b). intros u EA. destruct u as [|[[] [] [] [] [] [] [] [] ] [|? ?] ]; try discriminate EA; injection EA; auto.
        + unfold angulars in EA. revert EA. generalize (b_angular b). intros u EA. destruct u as [|[[] [] [] [] [] [] [] [] ] [|? ?] ]; discriminate EA.
      - rewrite (read_prim p l _ b P) by (rewrite HL; cbn [List.length]; lia). apply IH; [discriminate|exact F'|cbn [b_left]; rewrite HL; cbn [List.length]; lia|reflexivity]. }
    rewrite (G ps pl) by (assumption || reflexivity). reflexivity.
  Qed.
  (** C96: a shell of higher angular momentum is not reported: its lines are passed over and
      the shells around it are returned. *)
  Theorem C96_higher_shell_refuted atom pre t ls sh hl ls' sh' after : Forall (fun x => firstn 2 x <> tag atom) pre -> firstn 2 t = tag atom ->
    body sh ls -> Forall (fun l => no_letters l /\ exists r, l = " "%char :: r) hl -> body sh' ls' -> ends after ->
    read_basis float_of int_of atom (pre ++ t :: ls ++ hl ++ ls' ++ after) =
    Ok (map (fun s => map fst (snd s)) (sh ++ sh'), map (fun s => map snd (snd s)) (sh ++ sh'), map (fun s => cartesian (fst s)) (sh ++ sh')).
  Proof.
    intros H1 H2 HB HH HB' HE. unfold read_basis. rewrite (find_tag _ _ _ _ H1 H2). cbn [bind].
    destruct (read_body sh ls HB (hl ++ ls' ++ after) reader0) as (b' & E & E1 & E2 & E3 & E4). rewrite E. specialize (E4 eq_refl).
    assert (S : forall r, shells (hl ++ r) b' = shells r b').
    { intros r. clear - HH E4. induction HH as [|l hl (N & q & ->) HH IH]; [reflexivity|]. cbn [app read_shells]. change (Ascii.eqb " " "*") with false. change (Ascii.eqb " " " ") with true.
      cbn [negb]. rewrite (no_letters_spdf _ N). unfold take_primitive. rewrite E4. cbn [Z.ltb Z.compare bind]. unfold close_shell. rewrite E4. cbn [Z.eqb bind]. exact IH. }
    rewrite S. destruct (read_body sh' ls' HB' after b') as (b2 & F & F1 & F2 & F3 & _). rewrite F, (read_ends _ _ HE). cbn [bind].
    rewrite F1, F2, F3, E1, E2, E3, !map_app. reflexivity.
  Qed.
  (** C96: a file that ends inside a shell loses that shell without an error. *)
  Theorem C96_truncated_refuted atom pre t ls sh l n ps h pl : Forall (fun x => firstn 2 x <> tag atom) pre -> firstn 2 t = tag atom -> body sh ls ->
    l <= 3 -> head_line n (letter l) h -> Forall2 prim_line ps pl -> List.length ps < n ->
    read_basis float_of int_of atom (pre ++ t :: ls ++ h :: pl) =
    Ok (map (fun s => map fst (snd s)) sh, map (fun s => map snd (snd s)) sh, map (fun s => cartesian (fst s)) sh).
  Proof.
    intros H1 H2 HB Hl Hh Hp HL. unfold read_basis. rewrite (find_tag _ _ _ _ H1 H2). cbn [bind].
    destruct (read_body sh ls HB (h :: pl) reader0) as (b' & E & E1 & E2 & E3 & _). rewrite E, (read_head _ _ _ _ _ Hh (proj2 (letter_ok l Hl))).
    assert (G : forall ps pl b, Forall2 prim_line ps pl -> (Z.of_nat (List.length ps) < b_left b)%Z -> exists b1, shells pl b = Ok b1 /\
      b_exp b1 = b_exp b /\ b_coef b1 = b_coef b /\ b_ang b1 = b_ang b).
    { clear. induction ps as [|p ps IH]; intros pl b F HL; inversion F as [|? x ? pl' P F']; subst; [exists b; auto|].
      rewrite (read_prim p x _ b P) by (cbn [List.length] in HL; lia).
      match goal with |- exists _, shells _ ?c = _ /\ _ => destruct (IH pl' c F') as (b1 & A1 & A2); [cbn [b_left List.length] in *; lia|exists b1; split; [exact A1|exact A2] ] end. }
    match goal with |- bind (shells _ ?c) _ = _ => destruct (G ps pl c Hp) as (b1 & A1 & A2 & A3 & A4); [cbn [b_left]; lia|] end.
    rewrite A1. cbn [bind]. rewrite A2, A3, A4. cbn [b_exp b_coef b_ang]. rewrite E1, E2, E3. reflexivity.
  Qed.
End BasisProps.

(** ** Cases meeting the hypotheses.  Numbers are kept as the text that is read; [int] reads one digit. *)
Definition xb_float (w : line) : option line := Some w.
Definition xb_int (w : line) : option Z :=
  match w with [c] => if (48 <=? nat_of_ascii c) && (nat_of_ascii c <=? 57) then Some (Z.of_nat (nat_of_ascii c - 48)) else None | _ => None end.
Notation txt := list_ascii_of_string.
Definition xb_line (s : string) : line := txt s ++ ["010"%char].
Definition xb_head (n a : string) : line := txt "    " ++ txt n ++ txt "  " ++ txt a ++ ["010"%char].
Definition xb_prim (e c : string) : line := txt "     " ++ txt e ++ txt "       " ++ txt c ++ ["010"%char].
Definition xb_pre : list line := map xb_line ["$basis"; "*"; "he  small"; "*"; "    1  s"; "     9.0       1.0"; "*"]%string.
Definition xb_body : list line :=
  [xb_line "*"; xb_head "2" "s"; xb_prim "0.1D+02" "0.3"; xb_prim "0.2" "-0.7D+00"; xb_head "1" "p"; xb_prim "0.5" "1.0"; xb_line "*"].
Definition xb_g : list line := [xb_head "1" "g"; xb_prim "4.0" "1.0"].
Definition xb_shells : list (nat * list (line * line)) :=
  [(0, [(txt "0.1e+02", txt "0.3"); (txt "0.2", txt "-0.7e+00")]); (1, [(txt "0.5", txt "1.0")])].
Lemma spaces_b b : forallb blank b = true -> spaces b.
Proof. intros H. apply Forall_forall. intros c Hc. rewrite forallb_forall in H. apply blank_spec, H, Hc. Qed.
Lemma word_b w : forallb (fun c => negb (blank c)) w = true -> Forall (fun c => ~ is_space c) w.
Proof. intros H. apply Forall_forall. intros c Hc X. rewrite forallb_forall in H. apply blank_spec in X. specialize (H c Hc). rewrite X in H. discriminate. Qed.
Lemma no_letters_b l : spdf l = false -> no_letters l.
Proof. intros H. apply Forall_forall. intros c Hc X. rewrite (letters_spdf l c Hc X) in H. discriminate. Qed.
Lemma two_b b0 w1 b1 w2 b2 l : l = " "%char :: b0 ++ w1 ++ b1 ++ w2 ++ b2 -> forallb blank b0 && forallb blank b1 && forallb blank b2 = true ->
  forallb (fun c => negb (blank c)) w1 && forallb (fun c => negb (blank c)) w2 = true -> b1 <> [] -> b2 <> [] -> w1 <> [] -> w2 <> [] -> two_words w1 w2 l.
Proof.
  intros -> H G N1 N2 N3 N4. apply andb_true_iff in H as [H H2], G as [G1 G2]. apply andb_true_iff in H as [H0 H1].
  exists b0, b1, b2, []. rewrite app_nil_r. repeat split; auto using spaces_b, word_b.
Qed.
Definition xb_e (w : line) : line := map (fun c => if ascii_dec c "D" then "e"%char else c) w.
Lemma writes_b w : writes xb_float w (xb_e w).
Proof. exists (xb_e w). split; [reflexivity|]. induction w; cbn; constructor; auto. Qed.
Ltac two_ b0 b1 := apply (two_b (txt b0) _ (txt b1) _ ["010"%char]); [reflexivity|reflexivity|reflexivity|discriminate..].
Ltac prim_ w1 w2 := exists (txt w1), (txt w2); split; [two_ "    "%string "       "%string|]; split; [exact (writes_b (txt w1))|];
  split; [exact (writes_b (txt w2))|apply no_letters_b; reflexivity].
Ltac head_ w := exists (txt w); split; [two_ "   "%string "  "%string|reflexivity].
Lemma xb_body_ok : body xb_float xb_int xb_shells xb_body.
Proof.
  unfold xb_body, xb_shells. apply (B_star _ _ ["010"%char]).
  apply (B_shell _ _ 0 _ [xb_head "2" "s"; xb_prim "0.1D+02" "0.3"; xb_prim "0.2" "-0.7D+00"] _ [xb_head "1" "p"; xb_prim "0.5" "1.0"; xb_line "*"]); [lia| |].
  - split; [discriminate|]. eexists _, _. split; [reflexivity|]. split; [head_ "2"%string|]. constructor; [prim_ "0.1D+02"%string "0.3"%string|]. constructor; [prim_ "0.2"%string "-0.7D+00"%string|constructor].
  - apply (B_shell _ _ 1 _ [xb_head "1" "p"; xb_prim "0.5" "1.0"] _ [xb_line "*"]); [lia| |].
    + split; [discriminate|]. eexists _, _. split; [reflexivity|]. split; [head_ "1"%string|]. constructor; [prim_ "0.5"%string "1.0"%string|constructor].
    + apply (B_star _ _ ["010"%char]). constructor.
Qed.
Lemma xb_pre_ok : Forall (fun x => firstn 2 x <> tag (txt "Li")) xb_pre.
Proof. repeat constructor; discriminate. Qed.
(** The helium lines are passed over, the boron lines are not reached. *)
Example C96_example_read : read_basis xb_float xb_int (txt "Li") (xb_pre ++ xb_line "li  small" :: xb_body ++ [xb_line "b   small"; xb_head "x" "s"]) =
  Ok ([[txt "0.1e+02"; txt "0.2"]; [txt "0.5"] ], [[txt "0.3"; txt "-0.7e+00"]; [txt "1.0"] ], [[[0; 0; 0] ]; [[1; 0; 0]; [0; 1; 0]; [0; 0; 1] ] ]).
Proof.
  rewrite (C96_read xb_float xb_int (txt "Li") xb_pre (xb_line "li  small") xb_body xb_shells); [reflexivity|exact xb_pre_ok|reflexivity|exact xb_body_ok|].
  right. eexists _, _, _. split; [reflexivity|]. split; discriminate.
Qed.
Example C96_example_no_atom : read_basis xb_float xb_int (txt "Li") xb_pre = Raise ValueError.
Proof. exact (C96_no_atom _ _ _ _ xb_pre_ok). Qed.
Example C96_example_unknown : read_basis xb_float xb_int (txt "Li") (xb_pre ++ xb_line "li  small" :: xb_body ++ [xb_head "1" "sp"; xb_prim "4.0" "1.0"] ++ []) = Raise ValueError.
Proof.
  apply (C96_unknown_shell xb_float xb_int _ _ _ _ xb_shells (txt "sp") [(txt "4.0", txt "1.0")]); [exact xb_pre_ok|reflexivity|exact xb_body_ok| | |].
  - split; [discriminate|]. eexists _, _. split; [reflexivity|]. split; [head_ "1"%string|]. constructor; [prim_ "4.0"%string "1.0"%string|constructor].
  - exists "s"%char. cbn. tauto.
  - intros [|[|[|l] ] ]; discriminate.
Qed.
Example C96_example_higher : read_basis xb_float xb_int (txt "Li") (xb_pre ++ xb_line "li  small" :: xb_body ++ xb_g ++ [] ++ []) =
  read_basis xb_float xb_int (txt "Li") (xb_pre ++ xb_line "li  small" :: xb_body ++ []).
Proof.
  rewrite (C96_higher_shell_refuted xb_float xb_int _ _ _ _ xb_shells _ [] []); [|exact xb_pre_ok|reflexivity|exact xb_body_ok| |constructor|now left].
  - symmetry. apply C96_read; [exact xb_pre_ok|reflexivity|exact xb_body_ok|now left].
  - repeat (constructor; [split; [apply no_letters_b; reflexivity|eexists; reflexivity]|]). constructor.
Qed.
Example C96_example_truncated : read_basis xb_float xb_int (txt "Li") (xb_pre ++ xb_line "li  small" :: xb_body ++ xb_head "2" "d" :: [xb_prim "4.0" "1.0"]) =
  read_basis xb_float xb_int (txt "Li") (xb_pre ++ xb_line "li  small" :: xb_body ++ []).
Proof.
  rewrite (C96_truncated_refuted xb_float xb_int _ _ _ _ xb_shells 2 2 [(txt "4.0", txt "1.0")]); [|exact xb_pre_ok|reflexivity|exact xb_body_ok|lia| | |cbn; lia].
  - symmetry. apply C96_read; [exact xb_pre_ok|reflexivity|exact xb_body_ok|now left].
  - head_ "2"%string.
  - constructor; [prim_ "4.0"%string "1.0"%string|constructor].
Qed.

Print Assumptions C96_read.
Print Assumptions C96_no_atom.
Print Assumptions C96_unknown_shell.
Print Assumptions C96_higher_shell_refuted.
Print Assumptions C96_truncated_refuted.
