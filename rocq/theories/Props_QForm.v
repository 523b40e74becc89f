(** C52: the qiskit form of an operator. *)
From Coq Require Import List Bool Arith String Ascii Decimal DecimalString DecimalNat Permutation Lia.
Require Import Verif.Base Verif.Fock Verif.FermiModel Verif.QFormModel.
Import ListNotations.

(** ** The renaming *)
Definition blocked (num_orbs i : nat) : nat := i / 2 + num_orbs * (i mod 2).
Lemma iget_iset k v d k' : iget k' (iset k v d) = if Nat.eqb k' k then Some v else iget k' d.
Proof.
  induction d as [|[a b] d IH]; cbn; [reflexivity|]. destruct (Nat.eqb_spec k a) as [->|N]; cbn.
  - destruct (Nat.eqb k' a); reflexivity.
  - rewrite IH. destruct (Nat.eqb_spec k' a) as [->|N2]; [destruct (Nat.eqb_spec a k); [congruence|reflexivity]|reflexivity].
Qed.
Definition key_of (n i : nat) : nat := if Nat.ltb i n then 2 * i else 2 * i + 1 - 2 * n.
Lemma remap_prefix n m k : m <= 2 * n -> iget k (fold_left (fun d i => if Nat.ltb i n then iset (2 * i) i d else iset (2 * i + 1 - 2 * n) i d) (seq 0 m) []) =
  if Nat.ltb k (2 * n) && Nat.ltb (blocked n k) m then Some (blocked n k) else None.
Proof.
  induction m as [|m IH]; intros L.
  - cbn. rewrite andb_false_r. reflexivity.
  - rewrite seq_S, fold_left_app. cbn [fold_left plus]. set (d := fold_left _ _ _) in *.
    assert (E : (if Nat.ltb m n then iset (2 * m) m d else iset (2 * m + 1 - 2 * n) m d) = iset (key_of n m) m d) by (unfold key_of; destruct (Nat.ltb m n); reflexivity).
    rewrite E, iget_iset, IH by lia.
    assert (Bm : forall k, k < 2 * n -> (k = key_of n m <-> blocked n k = m)).
    { intros j Hj. unfold blocked, key_of. pose proof (Nat.div_mod j 2 ltac:(lia)). pose proof (Nat.mod_upper_bound j 2 ltac:(lia)).
      destruct (Nat.ltb_spec m n); assert (j mod 2 = 0 \/ j mod 2 = 1) as [Q|Q] by lia; rewrite Q; lia. }
    destruct (Nat.eqb_spec k (key_of n m)) as [Ek|N].
    + assert (Hk : k < 2 * n) by (rewrite Ek; unfold key_of; destruct (Nat.ltb_spec m n); lia). apply (Bm k Hk) in Ek. rewrite Ek. destruct (Nat.ltb_spec k (2 * n)); [|lia]. destruct (Nat.ltb_spec m (S m)); [reflexivity|lia].
    + destruct (Nat.ltb_spec k (2 * n)) as [Hk|Hk]; [|reflexivity]. cbn [andb]. assert (blocked n k <> m) by (intros Q; apply N, Bm; assumption).
      destruct (Nat.ltb_spec (blocked n k) m); destruct (Nat.ltb_spec (blocked n k) (S m)); try lia; reflexivity.
Qed.
(** Interleaved to blocked: spin orbital [2 p + spin] becomes [p + spin * num_orbs];
    this is a permutation of [0 .. 2 num_orbs - 1]; other indices are absent. *)
Theorem C52_renaming n :
  (forall p sp, p < n -> sp < 2 -> iget (2 * p + sp) (remapping n) = Some (p + sp * n))
  /\ (forall k, 2 * n <= k -> iget k (remapping n) = None)
  /\ (forall j, j < 2 * n -> exists k, k < 2 * n /\ iget k (remapping n) = Some j)
  /\ (forall k k' j, iget k (remapping n) = Some j -> iget k' (remapping n) = Some j -> k = k').
Proof.
  assert (G : forall k, iget k (remapping n) = if Nat.ltb k (2 * n) then Some (blocked n k) else None).
  { intros k. unfold remapping. rewrite remap_prefix by lia. destruct (Nat.ltb_spec k (2 * n)) as [L|L]; [|reflexivity]. cbn [andb].
    assert (blocked n k < 2 * n). { unfold blocked. pose proof (Nat.div_mod k 2 ltac:(lia)). pose proof (Nat.mod_upper_bound k 2 ltac:(lia)). assert (k mod 2 = 0 \/ k mod 2 = 1) as [Q|Q] by lia; rewrite Q; lia. }
    destruct (Nat.ltb_spec (blocked n k) (2 * n)); [reflexivity|lia]. }
  assert (Bl : forall p sp, sp < 2 -> blocked n (2 * p + sp) = p + sp * n).
  { intros p sp H. unfold blocked. assert (D : (2 * p + sp) / 2 = p /\ (2 * p + sp) mod 2 = sp) by (pose proof (Nat.div_mod (2 * p + sp) 2 ltac:(lia)); pose proof (Nat.mod_upper_bound (2 * p + sp) 2 ltac:(lia)); lia). destruct D as [-> ->]. nia. }
  split; [|split; [|split]].
  - intros p sp Hp Hs. rewrite G. destruct (Nat.ltb_spec (2 * p + sp) (2 * n)); [|lia]. rewrite Bl by exact Hs. reflexivity.
  - intros k L. rewrite G. destruct (Nat.ltb_spec k (2 * n)); [lia|reflexivity].
  - intros j Hj. destruct (lt_dec j n) as [L|L].
    + exists (2 * j + 0). split; [lia|]. rewrite G. destruct (Nat.ltb_spec (2 * j + 0) (2 * n)); [|lia]. rewrite Bl by lia. f_equal. lia.
    + exists (2 * (j - n) + 1). split; [lia|]. rewrite G. destruct (Nat.ltb_spec (2 * (j - n) + 1) (2 * n)); [|lia]. rewrite Bl by lia. f_equal. lia.
  - intros k k' j. rewrite !G. destruct (Nat.ltb_spec k (2 * n)); [|discriminate]. destruct (Nat.ltb_spec k' (2 * n)); [|discriminate]. intros E1 E2. injection E1 as E1. injection E2 as E2. rewrite <- E2 in E1. clear E2.
    unfold blocked in E1. pose proof (Nat.div_mod k 2 ltac:(lia)). pose proof (Nat.mod_upper_bound k 2 ltac:(lia)). pose proof (Nat.div_mod k' 2 ltac:(lia)). pose proof (Nat.mod_upper_bound k' 2 ltac:(lia)).
    assert (k mod 2 = 0 \/ k mod 2 = 1) as [Q|Q] by lia; assert (k' mod 2 = 0 \/ k' mod 2 = 1) as [Q'|Q'] by lia; rewrite Q, Q' in *; lia.
Qed.

(** ** The keys *)
(** A reader of qiskit labels, written independently: tokens separated by single
    spaces, a sign, an underscore and a decimal number. *)
Fixpoint split_space (s : string) : list string :=
  match s with
  | EmptyString => [EmptyString]
  | String c r => if Ascii.eqb c " " then EmptyString :: split_space r
                  else match split_space r with t :: ts => String c t :: ts | [] => [String c EmptyString] end
  end.
Definition read_token (t : string) : option fop :=
  match t with
  | String c (String "_" ds) =>
      match NilEmpty.uint_of_string ds with
      | Some d => if Ascii.eqb c "+" then Some (Nat.of_uint d, true) else if Ascii.eqb c "-" then Some (Nat.of_uint d, false) else None
      | None => None
      end
  | _ => None
  end.
Fixpoint read_all (ts : list string) : option fstring :=
  match ts with [] => Some [] | t :: ts => match read_token t, read_all ts with Some o, Some r => Some (o :: r) | _, _ => None end end.
Definition read_label (s : string) : option fstring := match s with EmptyString => Some [] | _ => read_all (split_space s) end.
Fixpoint no_space (s : string) : Prop := match s with EmptyString => True | String c r => c <> " "%char /\ no_space r end.
Lemma split_token t s : no_space t -> split_space (append t (String " " s)) = t :: split_space s.
Proof. induction t as [|c t IH]; [reflexivity|]. intros [N H]. cbn. destruct (Ascii.eqb_spec c " "); [contradiction|]. rewrite (IH H). reflexivity. Qed.
Lemma split_last t : no_space t -> split_space t = [t].
Proof. induction t as [|c t IH]; [reflexivity|]. intros [N H]. cbn. destruct (Ascii.eqb_spec c " "); [contradiction|]. rewrite (IH H). reflexivity. Qed.
Lemma dec_no_space n : no_space (dec10 n).
Proof. unfold dec10. generalize (Nat.to_uint n) as u. induction u; cbn; try exact I; split; (discriminate || assumption). Qed.
Definition token (o : fop) : string := append (if snd o then "+_" else "-_") (dec10 (fst o)).
Lemma token_no_space o : no_space (token o).
Proof. unfold token. destruct (snd o); cbn; repeat (split; [discriminate|]); apply dec_no_space. Qed.
Lemma token_read o : read_token (token o) = Some o.
Proof. destruct o as [i c]. unfold token. destruct c; unfold dec10, read_token; cbn [fst snd append]; rewrite NilEmpty.usu; cbn [Ascii.eqb]; rewrite Unsigned.of_to; reflexivity. Qed.
(** The label of a renamed string. *)
Fixpoint spaced (s : fstring) : string := match s with [] => EmptyString | o :: s => append (String " " (token o)) (spaced s) end.
Lemma append_assoc a b c : append a (append b c) = append (append a b) c.
Proof. induction a as [|x a IH]; cbn; [reflexivity|rewrite IH; reflexivity]. Qed.
Lemma append_nil s : append s EmptyString = s.
Proof. induction s as [|a s IH]; cbn; [reflexivity|rewrite IH; reflexivity]. Qed.
Lemma read_spaced o s : read_all (split_space (append (token o) (spaced s))) = Some (o :: s).
Proof.
  revert o. induction s as [|o' s IH]; intros o; cbn [spaced].
  - rewrite append_nil, split_last by apply token_no_space. cbn [read_all]. rewrite token_read. reflexivity.
  - change (append (String " " (token o')) (spaced s)) with (String " " (append (token o') (spaced s))). rewrite split_token by apply token_no_space. cbn [read_all]. rewrite token_read, IH. reflexivity.
Qed.
Fixpoint renamed (n : nat) (s : fstring) : fstring := match s with [] => [] | (i, c) :: s => (i / 2 + n * (i mod 2), c) :: renamed n s end.
Lemma key_loop_ok n s : forall acc, (forall o, In o s -> fst o < 2 * n) -> key_loop s (remapping n) acc = Ok (append acc (spaced (renamed n s))).
Proof.
  induction s as [|[i c] s IH]; intros acc H; cbn [key_loop renamed spaced]; [rewrite append_nil; reflexivity|].
  assert (E : iget i (remapping n) = Some (i / 2 + n * (i mod 2))).
  { unfold remapping. rewrite remap_prefix by lia. pose proof (H (i, c) (or_introl eq_refl)) as L. cbn in L. destruct (Nat.ltb_spec i (2 * n)); [|lia]. cbn [andb]. unfold blocked.
    pose proof (Nat.div_mod i 2 ltac:(lia)). pose proof (Nat.mod_upper_bound i 2 ltac:(lia)). assert (i mod 2 = 0 \/ i mod 2 = 1) as [Q|Q] by lia; rewrite Q; match goal with |- context [Nat.ltb ?a ?b] => destruct (Nat.ltb_spec a b) end; try reflexivity; lia. }
  rewrite E, IH by (intros o Ho; apply H; right; exact Ho). f_equal. unfold token. cbn [fst snd]. destruct c; rewrite <- !append_assoc; reflexivity.
Qed.
(** The label of a string reads back as the renamed string. *)
Theorem C52_label n s : (forall o, In o s -> fst o < 2 * n) ->
  exists k, operator_to_qiskit_key s (remapping n) = Ok k /\ read_label k = Some (renamed n s).
Proof.
  intros H. unfold operator_to_qiskit_key. rewrite key_loop_ok by exact H. eexists. split; [reflexivity|]. cbn [append]. destruct (renamed n s) as [|o r]; [reflexivity|]. cbn [spaced append tail1].
  pose proof (read_spaced o r) as R. unfold read_label. unfold token in *. destruct (snd o); exact R.
Qed.
(** An index outside the orbitals: KeyError, and only then. *)
Theorem C52_key_error n s : operator_to_qiskit_key s (remapping n) = Raise KeyError <-> exists o, In o s /\ 2 * n <= fst o.
Proof.
  split.
  - intros E. destruct (existsb (fun o => Nat.leb (2 * n) (fst o)) s) eqn:B.
    + apply existsb_exists in B. destruct B as (o & Ho & L). apply Nat.leb_le in L. eauto.
    + exfalso. destruct (C52_label n s) as (k & E2 & _); [|congruence]. intros o Ho. destruct (lt_dec (fst o) (2 * n)) as [L|L]; [exact L|].
      assert (existsb (fun o => Nat.leb (2 * n) (fst o)) s = true) by (apply existsb_exists; exists o; split; [exact Ho|apply Nat.leb_le; lia]). congruence.
  - intros (o & Ho & L). unfold operator_to_qiskit_key. assert (K : forall acc, key_loop s (remapping n) acc = Raise KeyError); [|rewrite K; reflexivity].
    induction s as [|[i c] s IH]; [destruct Ho|]. intros acc. cbn [key_loop]. destruct Ho as [<-|Ho]; [cbn in L; rewrite (proj1 (proj2 (C52_renaming n)) i L); reflexivity|]. destruct (iget i (remapping n)); [apply IH, Ho|reflexivity].
Qed.
Lemma renamed_inj n s t : (forall o, In o s -> fst o < 2 * n) -> (forall o, In o t -> fst o < 2 * n) -> renamed n s = renamed n t -> s = t.
Proof.
  revert t. induction s as [|[i c] s IH]; intros [|[j d] t] Hs Ht E; cbn [renamed] in E; try discriminate; [reflexivity|].
  assert (E1 := f_equal (fun l => match l with (a, _) :: _ => a | [] => 0 end) E). cbv beta iota in E1. injection E as _ E2 E3. f_equal.
  - f_equal; [|exact E2]. pose proof (Hs (i, c) (or_introl eq_refl)) as L1. pose proof (Ht (j, d) (or_introl eq_refl)) as L2. cbn in L1, L2.
    pose proof (Nat.div_mod i 2 ltac:(lia)). pose proof (Nat.mod_upper_bound i 2 ltac:(lia)). pose proof (Nat.div_mod j 2 ltac:(lia)). pose proof (Nat.mod_upper_bound j 2 ltac:(lia)).
    assert (i mod 2 = 0 \/ i mod 2 = 1) as [Q|Q] by lia; assert (j mod 2 = 0 \/ j mod 2 = 1) as [Q'|Q'] by lia; rewrite Q, Q' in *; lia.
  - apply IH; [intros o Ho; apply Hs; right; exact Ho|intros o Ho; apply Ht; right; exact Ho|exact E3].
Qed.
(** Different strings have different labels. *)
Theorem C52_injective n s t k : (forall o, In o s -> fst o < 2 * n) -> (forall o, In o t -> fst o < 2 * n) ->
  operator_to_qiskit_key s (remapping n) = Ok k -> operator_to_qiskit_key t (remapping n) = Ok k -> s = t.
Proof.
  intros Hs Ht Es Et. destruct (C52_label n s Hs) as (k1 & E1 & R1). destruct (C52_label n t Ht) as (k2 & E2 & R2). rewrite Es in E1. injection E1 as <-. rewrite Et in E2. injection E2 as <-.
  rewrite R1 in R2. injection R2 as R2. exact (renamed_inj n s t Hs Ht R2).
Qed.
(** The whole form: one entry per term, in order, with its coefficient. *)
Theorem C52_form {K} n (ops : list (fstring * K)) : NoDup (map fst ops) -> (forall s o, In s (map fst ops) -> In o s -> fst o < 2 * n) ->
  exists f, get_qiskit_form ops n = Ok f /\ map snd f = map snd ops /\ map (fun x => read_label (fst x)) f = map (fun x => Some (renamed n (fst x))) ops /\ NoDup (map fst f).
Proof.
  intros Nd Hi. unfold get_qiskit_form.
  assert (G : forall rest done d, ops = done ++ rest -> map snd d = map snd done -> map (fun x => read_label (fst x)) d = map (fun x => Some (renamed n (fst x))) done -> NoDup (map fst d) ->
    exists f, form_loop rest (remapping n) d = Ok f /\ map snd f = map snd ops /\ map (fun x => read_label (fst x)) f = map (fun x => Some (renamed n (fst x))) ops /\ NoDup (map fst f)).
  { induction rest as [|[s c] rest IH]; intros done d E Es El Nk; cbn [form_loop].
    - exists d. rewrite app_nil_r in E. subst done. auto.
    - assert (Hs : forall o, In o s -> fst o < 2 * n) by (intros o Ho; apply (Hi s o); [rewrite E, map_app; apply in_or_app; right; left; reflexivity|exact Ho]).
      destruct (C52_label n s Hs) as (k & Ek & Rk). rewrite Ek.
      assert (Fresh : ~ In k (map fst d)).
      { intros Hk. apply in_map_iff in Hk. destruct Hk as ([k' v] & Q & Hin). cbn in Q. subst k'.
        assert (Hr : In (read_label k) (map (fun x => read_label (fst x)) d)) by (apply in_map_iff; exists (k, v); split; [reflexivity|exact Hin]).
        rewrite El in Hr. apply in_map_iff in Hr. destruct Hr as ([s' c'] & Q & Hin'). cbn in Q. rewrite Rk in Q. injection Q as Q.
        assert (s' = s). { apply (renamed_inj n s' s); [|exact Hs|exact Q]. intros o Ho. apply (Hi s' o); [|exact Ho]. rewrite E, map_app. apply in_or_app. left. apply in_map_iff. exists (s', c'). auto. }
        subst s'. rewrite E, map_app in Nd. cbn [map fst] in Nd. apply NoDup_remove_2 in Nd. apply Nd. apply in_or_app. left. apply in_map_iff. exists (s, c'). auto. }
      assert (Ss : sset k c d = d ++ [(k, c)]).
      { clear - Fresh. induction d as [|[k' v'] d IHd]; [reflexivity|]. cbn. destruct (String.eqb_spec k k') as [->|N]; [exfalso; apply Fresh; left; reflexivity|]. rewrite IHd; [reflexivity|]. intros H. apply Fresh. right. exact H. }
      rewrite Ss. apply (IH (done ++ [(s, c)])).
      + rewrite <- app_assoc. exact E.
      + rewrite !map_app, Es. reflexivity.
      + rewrite !map_app, El. cbn. rewrite Rk. reflexivity.
      + rewrite map_app. cbn. apply (Permutation_NoDup (l := k :: map fst d)); [apply Permutation_cons_append|]. constructor; assumption. }
  apply (G ops [] []); try reflexivity. constructor.
Qed.
Example ex_C52 : get_qiskit_form [([(0, true); (3, false)], 5); ([], 7); ([(10, true)], 2)] 6 = Ok [("+_0 -_7"%string, 5); (EmptyString, 7); ("+_5"%string, 2)].
Proof. reflexivity. Qed.
Print Assumptions C52_renaming.
Print Assumptions C52_label.
Print Assumptions C52_key_error.
Print Assumptions C52_injective.
Print Assumptions C52_form.
