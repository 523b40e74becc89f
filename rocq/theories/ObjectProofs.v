(** Lemmas about ObjectModel.v. *)
From Coq Require Import List Bool Arith String Ascii Lia.
Require Import Verif.ObjectModel.
Import ListNotations.

Lemma append_nil s : append s EmptyString = s.
Proof. induction s as [|a s IH]; cbn; [reflexivity|rewrite IH; reflexivity]. Qed.
Lemma append_assoc a b c : append a (append b c) = append (append a b) c.
Proof. induction a as [|x a IH]; cbn; [reflexivity|rewrite IH; reflexivity]. Qed.

Lemma upd_same {A} (l : list A) i x : i < List.length l -> nth_error (upd l i x) i = Some x.
Proof.
  intros H. unfold upd. rewrite nth_error_app2 by (rewrite firstn_length; lia). rewrite firstn_length, Nat.min_l, Nat.sub_diag by lia.
  destruct (skipn i l) eqn:E; [|reflexivity]. apply (f_equal (@List.length A)) in E. rewrite skipn_length in E. cbn in E. lia.
Qed.
Lemma upd_other {A} (l : list A) i j x : i <> j -> nth_error (upd l i x) j = nth_error l j.
Proof.
  intros N. revert i j N. induction l as [|a l IH]; intros i j N; [unfold upd; rewrite firstn_nil, skipn_nil; reflexivity|].
  destruct i as [|i]; [destruct j; [contradiction|reflexivity]|]. destruct j as [|j]; [reflexivity|]. cbn. apply (IH i j). lia.
Qed.
Lemma upd_length {A} (l : list A) i x : List.length (upd l i x) = List.length l.
Proof. unfold upd. rewrite <- (firstn_skipn i l) at 3. rewrite !app_length. f_equal. destruct (skipn i l); reflexivity. Qed.

Section Objects.
  Variables (geometry basis T1 T2 schwarz threshold : Type).
  Notation molecule := (molecule geometry basis).
  Variables (one_electron : kind -> molecule -> T1) (two_electron : molecule -> schwarz -> threshold -> T2) (schwarz_matrix : molecule -> schwarz).
  Variable default_threshold : threshold.
  Notation state := (state geometry basis T1 T2 schwarz threshold).
  Notation integral := (integral T1 T2 schwarz threshold).
  Notation op := (op geometry basis threshold).
  Notation step := (step geometry basis T1 T2 schwarz threshold one_electron two_electron schwarz_matrix default_threshold).
  Notation run := (run geometry basis T1 T2 schwarz threshold one_electron two_electron schwarz_matrix default_threshold).
  Notation attr1 := (attr1 geometry basis T1 T2 schwarz threshold one_electron two_electron schwarz_matrix default_threshold).
  Notation attr2 := (attr2 geometry basis T1 T2 schwarz threshold one_electron two_electron schwarz_matrix default_threshold).
  Notation Mol g b := (Build_molecule geometry basis g (Some b)).

  (** Specification of a history: the molecule last set, and the geometry and
      basis for which integrals were last requested. *)
  Definition spec_step (x : option geometry * option (geometry * basis)) (o : op) : option geometry * option (geometry * basis) :=
    match o with
    | SetMolecule _ _ _ g (Some b) => (Some g, Some (g, b))
    | SetMolecule _ _ _ g None => (Some g, snd x)
    | SetBasis _ _ _ b => match fst x with Some g => (Some g, Some (g, b)) | None => x end
    | _ => x
    end.
  Definition spec (os : list op) : option geometry * option (geometry * basis) := fold_left spec_step os (None, None).
  (** Thresholds the history allows for object [i]. *)
  Definition offered (os : list op) (i : nat) (t : threshold) : Prop := t = default_threshold \/ In (SetThreshold _ _ _ i t) os.

  Definition coherent (os : list op) (i : nat) (o : integral) (M : molecule) : Prop :=
    (forall k v, c1 _ _ _ _ o k = Some v -> v = one_electron k M) /\ cs _ _ _ _ o = schwarz_matrix M
    /\ (forall v, c2 _ _ _ _ o = Some v -> exists t, offered os i t /\ v = two_electron M (schwarz_matrix M) t)
    /\ offered os i (thr _ _ _ _ o).
  Definition inv (os : list op) (s : state) (x : option geometry * option (geometry * basis)) : Prop :=
    (forall i o, nth_error (ints _ _ _ _ _ _ s) i = Some o -> exists M, nth_error (mols _ _ _ _ _ _ s) (mol _ _ _ _ o) = Some M)
    /\ (match fst x with None => sq_molecule _ _ _ _ _ _ s = None
        | Some g => exists m M, sq_molecule _ _ _ _ _ _ s = Some m /\ nth_error (mols _ _ _ _ _ _ s) m = Some M /\ geom _ _ M = g end)
    /\ (match snd x with None => sq_integral _ _ _ _ _ _ s = None
        | Some (g, b) => exists i o, sq_integral _ _ _ _ _ _ s = Some i /\ nth_error (ints _ _ _ _ _ _ s) i = Some o
                          /\ nth_error (mols _ _ _ _ _ _ s) (mol _ _ _ _ o) = Some (Mol g b) /\ coherent os i o (Mol g b) end).
  Lemma coherent_mono os os' i o M : incl os os' -> coherent os i o M -> coherent os' i o M.
  Proof.
    intros I (K1 & K2 & K3 & K4). assert (Mo : forall t, offered os i t -> offered os' i t) by (intros t [->|H]; [left; reflexivity|right; apply I, H]).
    split; [exact K1|]. split; [exact K2|]. split; [|apply Mo, K4]. intros v E. destruct (K3 v E) as (t & Ht & ->). exists t. auto.
  Qed.
  Lemma nth_error_snoc {A} (l : list A) a i x : nth_error l i = Some x -> nth_error (l ++ [a]) i = Some x.
  Proof. intros E. rewrite nth_error_app1; [exact E|]. apply nth_error_Some. rewrite E. discriminate. Qed.
  Lemma nth_error_last {A} (l : list A) a : nth_error (l ++ [a]) (List.length l) = Some a.
  Proof. rewrite nth_error_app2, Nat.sub_diag by lia. reflexivity. Qed.
  (** Replacing an integral object by one of the same molecule. *)
  Lemma inv_set_int os os' s x i o o' M : incl os os' -> inv os s x ->
    nth_error (ints _ _ _ _ _ _ s) i = Some o -> nth_error (mols _ _ _ _ _ _ s) (mol _ _ _ _ o) = Some M ->
    mol _ _ _ _ o' = mol _ _ _ _ o -> (coherent os i o M -> coherent os' i o' M) -> inv os' (set_int _ _ _ _ _ _ s i o') x.
  Proof.
    intros I (V1 & V2 & V3) Eo EM Em Co. assert (L : i < List.length (ints _ _ _ _ _ _ s)) by (apply nth_error_Some; rewrite Eo; discriminate).
    split; [|split].
    - cbn. intros j oj Ej. destruct (Nat.eq_dec i j) as [<-|N].
      + rewrite upd_same in Ej by exact L. injection Ej as <-. rewrite Em. exists M. exact EM.
      + rewrite upd_other in Ej by exact N. exact (V1 j oj Ej).
    - exact V2.
    - destruct (snd x) as [[g b]|]; [|exact V3]. destruct V3 as (j & oj & S1 & S2 & S3 & S4). cbn. destruct (Nat.eq_dec i j) as [<-|N].
      + rewrite Eo in S2. injection S2 as <-. rewrite EM in S3. injection S3 as ->. exists i, o'. rewrite upd_same by exact L. rewrite Em. auto.
      + exists j, oj. rewrite upd_other by exact N. split; [exact S1|]. split; [exact S2|]. split; [exact S3|]. exact (coherent_mono _ _ _ _ _ I S4).
  Qed.
  Lemma with_basis_inv os s x m M b : (forall i o, nth_error (ints _ _ _ _ _ _ s) i = Some o -> exists M, nth_error (mols _ _ _ _ _ _ s) (mol _ _ _ _ o) = Some M) ->
    sq_molecule _ _ _ _ _ _ s = Some m -> nth_error (mols _ _ _ _ _ _ s) m = Some M -> geom _ _ M = x ->
    inv os (fst (with_basis _ _ _ _ _ _ schwarz_matrix default_threshold s m b)) (Some x, Some (x, b)).
  Proof.
    intros V1 Sm EM Eg. unfold with_basis. rewrite EM. cbn [fst]. assert (L : m < List.length (mols _ _ _ _ _ _ s)) by (apply nth_error_Some; rewrite EM; discriminate). rewrite Eg.
    split; [|split].
    - cbn. intros i o E. destruct (lt_dec i (List.length (ints _ _ _ _ _ _ s))) as [Li|Li].
      + rewrite nth_error_app1 in E by exact Li. destruct (V1 i o E) as (M' & E'). destruct (Nat.eq_dec m (mol _ _ _ _ o)) as [<-|N]; [rewrite upd_same by exact L; eauto|rewrite upd_other by exact N; eauto].
      + rewrite nth_error_app2 in E by lia. destruct (i - List.length (ints _ _ _ _ _ _ s)) as [|k]; [|destruct k; discriminate]. injection E as <-. cbn. rewrite upd_same by exact L. eauto.
    - cbn. exists m, (Mol x b). rewrite upd_same by exact L. auto.
    - cbn. exists (List.length (ints _ _ _ _ _ _ s)), (new_integral _ _ _ _ _ _ schwarz_matrix default_threshold m (Mol x b)). rewrite nth_error_last. split; [reflexivity|]. split; [reflexivity|]. cbn. rewrite upd_same by exact L. split; [reflexivity|].
      split; [discriminate|]. split; [reflexivity|]. split; [discriminate|]. left. reflexivity.
  Qed.
  Lemma read1_ok M o k : mol _ _ _ _ (fst (read1 _ _ _ _ _ _ one_electron M o k)) = mol _ _ _ _ o
    /\ forall os i, coherent os i o M -> coherent os i (fst (read1 _ _ _ _ _ _ one_electron M o k)) M /\ snd (read1 _ _ _ _ _ _ one_electron M o k) = one_electron k M.
  Proof.
    unfold read1. destruct (store_1e _ _ _ _ o); [|split; auto].
    destruct (c1 _ _ _ _ o k) as [v|] eqn:E; [destruct (force_recompute _ _ _ _ o)|]; (split; [reflexivity|]); intros os i (K1 & K2 & K3 & K4);
      (split; [|first [exact (K1 k v E)|reflexivity]]); (split; [|split; [|split]]); cbn; try assumption;
      intros k' v'; destruct k, k'; cbn; intros E'; try (injection E' as <-; reflexivity); apply K1; exact E'.
  Qed.
  Lemma read2_ok M o : mol _ _ _ _ (fst (read2 _ _ _ _ _ _ two_electron M o)) = mol _ _ _ _ o
    /\ forall os i, coherent os i o M -> coherent os i (fst (read2 _ _ _ _ _ _ two_electron M o)) M
       /\ (exists t, offered os i t /\ snd (read2 _ _ _ _ _ _ two_electron M o) = two_electron M (schwarz_matrix M) t)
       /\ (store_2e _ _ _ _ o = false \/ force_recompute _ _ _ _ o = true -> snd (read2 _ _ _ _ _ _ two_electron M o) = two_electron M (schwarz_matrix M) (thr _ _ _ _ o)).
  Proof.
    unfold read2. destruct (store_2e _ _ _ _ o) eqn:Es.
    - destruct (c2 _ _ _ _ o) as [v|] eqn:E; [destruct (force_recompute _ _ _ _ o) eqn:Ef|]; (split; [reflexivity|]); intros os i (K1 & K2 & K3 & K4).
      + cbn. split; [split; [exact K1|split; [exact K2|split; [|exact K4]]]|].
        * intros v'. cbn. intros E'. injection E' as <-. exists (thr _ _ _ _ o). rewrite K2. auto.
        * rewrite K2. split; [exists (thr _ _ _ _ o); auto|auto].
      + cbn. split; [split; [exact K1|split; [exact K2|split; [exact K3|exact K4]]]|]. split; [apply K3, E|]. intros [H|H]; discriminate.
      + cbn. split; [split; [exact K1|split; [exact K2|split; [|exact K4]]]|].
        * intros v'. cbn. intros E'. injection E' as <-. exists (thr _ _ _ _ o). rewrite K2. auto.
        * rewrite K2. split; [exists (thr _ _ _ _ o); auto|auto].
    - split; [reflexivity|]. intros os i (K1 & K2 & K3 & K4). cbn. split; [split; [exact K1|split; [exact K2|split; [exact K3|exact K4]]]|]. rewrite K2. split; [exists (thr _ _ _ _ o); auto|auto].
  Qed.
  Lemma step_inv os s x o : inv os s x -> inv (os ++ [o]) (fst (step s o)) (spec_step x o).
  Proof.
    intros V. assert (I : incl os (os ++ [o])) by (apply incl_appl, incl_refl).
    assert (Id : inv (os ++ [o]) s x).
    { destruct V as (V1 & V2 & V3). split; [exact V1|]. split; [exact V2|]. destruct (snd x) as [[g b]|]; [|exact V3]. destruct V3 as (i & oi & S1 & S2 & S3 & S4). exists i, oi. split; [exact S1|]. split; [exact S2|]. split; [exact S3|].
      exact (coherent_mono _ _ _ _ _ I S4). }
    assert (OnInt : forall i f, (forall oi M, mol _ _ _ _ (fst (f oi M)) = mol _ _ _ _ oi /\ (coherent os i oi M -> coherent (os ++ [o]) i (fst (f oi M)) M)) ->
      inv (os ++ [o]) (fst (on_int _ _ _ _ _ _ s i f)) x).
    { intros i f Hf. unfold on_int. destruct (nth_error (ints _ _ _ _ _ _ s) i) as [oi|] eqn:Eo; [|exact Id]. destruct (nth_error (mols _ _ _ _ _ _ s) (mol _ _ _ _ oi)) as [M|] eqn:EM; [|exact Id].
      destruct (Hf oi M) as [H1 H2]. destruct (f oi M) as [o' r]. cbn [fst] in *. exact (inv_set_int _ _ _ _ i oi o' M I V Eo EM H1 H2). }
    assert (Thr : forall i t M oi, coherent os i oi M -> o = SetThreshold _ _ _ i t -> coherent (os ++ [o]) i
      {| mol := mol _ _ _ _ oi; store_1e := store_1e _ _ _ _ oi; store_2e := store_2e _ _ _ _ oi; force_recompute := force_recompute _ _ _ _ oi; c1 := c1 _ _ _ _ oi; c2 := c2 _ _ _ _ oi; cs := cs _ _ _ _ oi; thr := t |} M).
    { intros i t M oi K E. apply (coherent_mono _ _ _ _ _ I) in K. destruct K as (K1 & K2 & K3 & K4). split; [exact K1|]. split; [exact K2|]. split; [exact K3|]. right. rewrite E. apply in_or_app. right. left. reflexivity. }
    destruct o as [g [b|]|b| |i k|i|i b|i b|i b|i t]; cbn [step spec_step].
    - destruct V as (V1 & _ & _). set (s' := Build_state _ _ _ _ _ _ _ _ _ _ _). apply (with_basis_inv (os ++ [SetMolecule _ _ _ g (Some b)]) s' g _ (Build_molecule geometry basis g None) b).
      + intros i o E. destruct (V1 i o E) as (M & EM). exists M. exact (nth_error_snoc _ _ _ _ EM).
      + cbn. f_equal. rewrite app_length. cbn. lia.
      + cbn. rewrite app_length. cbn. rewrite Nat.add_sub. apply nth_error_last.
      + reflexivity.
    - destruct Id as (V1 & V2 & V3). cbn. split; [|split]; cbn.
      + intros i o E. destruct (V1 i o E) as (M & EM). exists M. exact (nth_error_snoc _ _ _ _ EM).
      + exists (List.length (mols _ _ _ _ _ _ s)), (Build_molecule geometry basis g None). split; [reflexivity|]. split; [apply nth_error_last|reflexivity].
      + destruct (snd x) as [[g' b]|]; [|exact V3]. destruct V3 as (i & oi & S1 & S2 & S3 & S4). exists i, oi. split; [exact S1|]. split; [exact S2|]. split; [exact (nth_error_snoc _ _ _ _ S3)|exact S4].
    - destruct V as (V1 & V2 & V3). destruct x as [[g|] y]; cbn [fst] in V2 |- *; [|rewrite V2; exact Id]. destruct V2 as (m & M & S1 & S2 & S3). rewrite S1. apply (with_basis_inv _ s g m M b V1 S1 S2 S3).
    - destruct (sq_molecule _ _ _ _ _ _ s) eqn:Em; [|exact Id]. destruct (sq_integral _ _ _ _ _ _ s) eqn:Ei; [|exact Id]. destruct Id as (V1 & V2 & V3). cbn. split; [exact V1|]. cbn. rewrite <- Em, <- Ei. split; [exact V2|exact V3].
    - apply OnInt. intros oi M. destruct (shells _ _ M); [|cbn; split; [reflexivity|apply coherent_mono, I]]. pose proof (read1_ok M oi k) as [R1 R2]. destruct (read1 _ _ _ _ _ _ _ M oi k) as [o' v]. cbn [fst snd] in *.
      split; [exact R1|]. intros K. apply (coherent_mono _ _ _ _ _ I), R2, K.
    - apply OnInt. intros oi M. destruct (shells _ _ M); [|cbn; split; [reflexivity|apply coherent_mono, I]]. pose proof (read2_ok M oi) as [R1 R2]. destruct (read2 _ _ _ _ _ _ _ M oi) as [o' v]. cbn [fst snd] in *.
      split; [exact R1|]. intros K. apply (coherent_mono _ _ _ _ _ I). apply (proj1 (R2 os i K)).
    - apply OnInt. intros oi M. cbn. split; [reflexivity|]. intros K. apply (coherent_mono _ _ _ _ _ I) in K. exact K.
    - apply OnInt. intros oi M. cbn. split; [reflexivity|]. intros K. apply (coherent_mono _ _ _ _ _ I) in K. exact K.
    - apply OnInt. intros oi M. cbn. split; [reflexivity|]. intros K. apply (coherent_mono _ _ _ _ _ I) in K. exact K.
    - apply OnInt. intros oi M. cbn. split; [reflexivity|]. intros K. apply (Thr i t M oi K eq_refl).
  Qed.
  Lemma run_inv os : inv os (run (new_state _ _ _ _ _ _) os) (spec os).
  Proof.
    induction os as [|o os IH] using rev_ind; [split; [intros [|i] o; discriminate|split; reflexivity]|].
    unfold run, spec. rewrite !fold_left_app. cbn [fold_left]. apply step_inv. exact IH.
  Qed.
  Lemma attr1_ok os s x k : inv os s x -> inv os (fst (attr1 s k)) x /\ snd (attr1 s k) = match snd x with None => NoAttribute _ _ | Some (g, b) => V1 _ _ (one_electron k (Mol g b)) end.
  Proof.
    intros V. destruct V as (V1 & V2 & V3) eqn:EV. clear EV. unfold attr1. destruct (snd x) as [[g b]|] eqn:Ex.
    - destruct V3 as (i & o & S1 & S2 & S3 & S4). rewrite S1. cbn [step]. unfold on_int. rewrite S2, S3. cbn [shells]. pose proof (read1_ok (Mol g b) o k) as [R1 R2]. destruct (R2 os i S4) as [R3 R4].
      destruct (read1 _ _ _ _ _ _ _ _ o k) as [o' v]. cbn [fst snd] in *. rewrite R4. split; [|reflexivity].
      apply (inv_set_int os os s x i o o' (Mol g b)); [apply incl_refl|split; [exact V1|split; [exact V2|rewrite Ex; exists i, o; auto]]|exact S2|exact S3|exact R1|intros _; exact R3].
    - rewrite V3. cbn. split; [|reflexivity]. split; [exact V1|]. split; [exact V2|]. rewrite Ex. exact V3.
  Qed.
  Lemma attr2_ok os s x : inv os s x -> inv os (fst (attr2 s)) x
    /\ match snd x with None => snd (attr2 s) = NoAttribute _ _
       | Some (g, b) => exists i o t, sq_integral _ _ _ _ _ _ s = Some i /\ nth_error (ints _ _ _ _ _ _ s) i = Some o /\ offered os i t /\ snd (attr2 s) = V2 _ _ (two_electron (Mol g b) (schwarz_matrix (Mol g b)) t)
             /\ (store_2e _ _ _ _ o = false \/ force_recompute _ _ _ _ o = true -> t = thr _ _ _ _ o) end.
  Proof.
    intros V. destruct V as (V1 & V2 & V3) eqn:EV. clear EV. unfold attr2. destruct (snd x) as [[g b]|] eqn:Ex.
    - destruct V3 as (i & o & S1 & S2 & S3 & S4). rewrite S1. cbn [step]. unfold on_int. rewrite S2, S3. cbn [shells]. pose proof (read2_ok (Mol g b) o) as [R1 R2]. destruct (R2 os i S4) as (R3 & (t & R4 & R5) & R6).
      destruct (read2 _ _ _ _ _ _ _ _ o) as [o' v]. cbn [fst snd] in *. split.
      + apply (inv_set_int os os s x i o o' (Mol g b)); [apply incl_refl|split; [exact V1|split; [exact V2|rewrite Ex; exists i, o; auto]]|exact S2|exact S3|exact R1|intros _; exact R3].
      + assert (Dc : (store_2e _ _ _ _ o = false \/ force_recompute _ _ _ _ o = true) \/ ~ (store_2e _ _ _ _ o = false \/ force_recompute _ _ _ _ o = true)).
        { destruct (store_2e _ _ _ _ o); destruct (force_recompute _ _ _ _ o); intuition discriminate. }
        destruct Dc as [Dc|Dc].
        * exists i, o, (thr _ _ _ _ o). split; [reflexivity|]. split; [exact S2|]. split; [apply S4|]. rewrite (R6 Dc). auto.
        * exists i, o, t. rewrite R5. split; [reflexivity|]. split; [exact S2|]. split; [exact R4|]. split; [reflexivity|]. intros K. contradiction.
    - rewrite V3. cbn. split; [|reflexivity]. split; [exact V1|]. split; [exact V2|]. rewrite Ex. exact V3.
  Qed.

  (** ** The integral manager *)
  Notation manager := (manager geometry basis T1 T2 schwarz threshold).
  Variable plus : T1 -> T1 -> T1.
  Notation mstep := (mstep geometry basis T1 T2 schwarz threshold one_electron two_electron schwarz_matrix default_threshold plus).
  Notation mrun := (mrun geometry basis T1 T2 schwarz threshold one_electron two_electron schwarz_matrix default_threshold plus).
  Definition answer (os : list op) (x : option (geometry * basis)) (o : mop) (r : result T1 T2) : Prop :=
    match x with
    | None => r = NoAttribute _ _
    | Some (g, b) =>
        match o with
        | GetKin => r = V1 _ _ (one_electron Kinetic (Mol g b))
        | GetNuc => r = V1 _ _ (one_electron Nuclear (Mol g b))
        | GetH => r = V1 _ _ (plus (one_electron Nuclear (Mol g b)) (one_electron Kinetic (Mol g b)))
        | GetRep => exists i t, offered os i t /\ r = V2 _ _ (two_electron (Mol g b) (schwarz_matrix (Mol g b)) t)
        end
    end.
  Definition minv (os : list op) (m : manager) (x : option geometry * option (geometry * basis)) : Prop :=
    inv os (snap _ _ _ _ _ _ m) x
    /\ match snd x with
       | None => m_kin _ _ _ _ _ _ m = None /\ m_nuc _ _ _ _ _ _ m = None /\ m_rep _ _ _ _ _ _ m = None /\ m_h _ _ _ _ _ _ m = None
       | Some (g, b) => (forall v, m_kin _ _ _ _ _ _ m = Some v -> v = one_electron Kinetic (Mol g b))
           /\ (forall v, m_nuc _ _ _ _ _ _ m = Some v -> v = one_electron Nuclear (Mol g b))
           /\ (forall v, m_rep _ _ _ _ _ _ m = Some v -> exists i t, offered os i t /\ v = two_electron (Mol g b) (schwarz_matrix (Mol g b)) t)
           /\ (forall v, m_h _ _ _ _ _ _ m = Some v -> v = plus (one_electron Nuclear (Mol g b)) (one_electron Kinetic (Mol g b)))
       end.
  Notation gkin := (get_kin geometry basis T1 T2 schwarz threshold one_electron two_electron schwarz_matrix default_threshold).
  Notation gnuc := (get_nuc geometry basis T1 T2 schwarz threshold one_electron two_electron schwarz_matrix default_threshold).
  Lemma get_kin_ok os m x : minv os m x -> minv os (fst (gkin m)) x /\ answer os (snd x) GetKin (snd (gkin m)).
  Proof.
    intros [V C]. unfold get_kin. destruct (m_kin _ _ _ _ _ _ m) as [v|] eqn:E.
    - cbn. split; [split; [exact V|rewrite E; exact C]|]. destruct (snd x) as [[g b]|]; [|destruct C; discriminate]. destruct C as [C _]. cbn. rewrite (C v eq_refl). reflexivity.
    - pose proof (attr1_ok os _ x Kinetic V) as [A1 A2]. destruct (attr1 (snap _ _ _ _ _ _ m) Kinetic) as [s r]. cbn [fst snd] in *. subst r. destruct x as [y [[g b]|]]; cbn [snd] in *.
      + split; [|reflexivity]. split; [exact A1|]. cbn. destruct C as (C1 & C2 & C3 & C4). split; [intros v Ev; injection Ev as <-; reflexivity|auto].
      + split; [|reflexivity]. split; [exact A1|]. cbn. tauto.
  Qed.
  Lemma get_nuc_ok os m x : minv os m x -> minv os (fst (gnuc m)) x /\ answer os (snd x) GetNuc (snd (gnuc m)).
  Proof.
    intros [V C]. unfold get_nuc. destruct (m_nuc _ _ _ _ _ _ m) as [v|] eqn:E.
    - cbn. split; [split; [exact V|rewrite E; exact C]|]. destruct (snd x) as [[g b]|]; [|destruct C as (_ & C & _); discriminate]. destruct C as (_ & C & _). cbn. rewrite (C v eq_refl). reflexivity.
    - pose proof (attr1_ok os _ x Nuclear V) as [A1 A2]. destruct (attr1 (snap _ _ _ _ _ _ m) Nuclear) as [s r]. cbn [fst snd] in *. subst r. destruct x as [y [[g b]|]]; cbn [snd] in *.
      + split; [|reflexivity]. split; [exact A1|]. cbn. destruct C as (C1 & C2 & C3 & C4). split; [exact C1|]. split; [intros v Ev; injection Ev as <-; reflexivity|auto].
      + split; [|reflexivity]. split; [exact A1|]. cbn. tauto.
  Qed.
  Lemma mstep_ok os m x o : minv os m x -> minv os (fst (mstep m o)) x /\ answer os (snd x) o (snd (mstep m o)).
  Proof.
    intros V. destruct o; cbn [mstep].
    - apply get_kin_ok, V.
    - apply get_nuc_ok, V.
    - destruct V as [V C]. unfold get_rep. destruct (m_rep _ _ _ _ _ _ m) as [v|] eqn:E.
      + cbn. split; [split; [exact V|rewrite E; exact C]|]. destruct (snd x) as [[g b]|]; [|destruct C as (_ & _ & C & _); discriminate]. destruct C as (_ & _ & C & _). cbn. destruct (C v eq_refl) as (i & t & Ht & ->). eauto.
      + pose proof (attr2_ok os _ x V) as [A1 A2]. destruct (attr2 (snap _ _ _ _ _ _ m)) as [s r]. cbn [fst snd] in *. destruct x as [y [[g b]|]]; cbn [snd] in *.
        * destruct A2 as (i & o & t & _ & _ & Ht & -> & _). split; [|exists i, t; auto]. split; [exact A1|]. cbn. destruct C as (C1 & C2 & C3 & C4). split; [exact C1|]. split; [exact C2|]. split; [|exact C4]. intros v Ev. injection Ev as <-. exists i, t. auto.
        * subst r. split; [|reflexivity]. split; [exact A1|]. cbn. tauto.
    - unfold get_h. destruct (m_h _ _ _ _ _ _ m) as [v|] eqn:E.
      + cbn. split; [exact V|]. destruct V as [V C]. destruct (snd x) as [[g b]|]; [|destruct C as (_ & _ & _ & C); rewrite C in E; discriminate]. destruct C as (_ & _ & _ & C). cbn. rewrite (C v E). reflexivity.
      + pose proof (get_nuc_ok os m x V) as [V1 A1]. destruct (gnuc m) as [m1 r1]. cbn [fst snd] in *. destruct x as [y [[g b]|]]; cbn [snd answer] in *; [|subst r1; split; [exact V1|reflexivity]]. subst r1.
        pose proof (get_kin_ok os m1 _ V1) as [V2 A2]. destruct (gkin m1) as [m2 r2]. cbn [fst snd answer] in *. subst r2. cbn [fst snd]. split; [|reflexivity]. destruct V2 as [V2 (C1 & C2 & C3 & C4)]. split; [exact V2|]. cbn.
        split; [exact C1|]. split; [exact C2|]. split; [exact C3|]. intros v Ev. injection Ev as <-. reflexivity.
  Qed.
  Lemma mrun_ok os m x l : minv os m x -> minv os (mrun m l) x.
  Proof. revert m. induction l as [|o l IH]; intros m V; [exact V|]. cbn. apply IH. apply mstep_ok, V. Qed.
  Lemma new_manager_ok os s x : inv os s x -> minv os (new_manager _ _ _ _ _ _ s) x.
  Proof. intros V. split; [exact V|]. cbn. destruct (snd x) as [[g b]|]; repeat split; discriminate. Qed.
  Lemma mrun_app m l o l' : mrun m (l ++ o :: l') = mrun (fst (mstep (mrun m l) o)) l'.
  Proof. unfold mrun. rewrite fold_left_app. reflexivity. Qed.
  Notation grep := (get_rep geometry basis T1 T2 schwarz threshold one_electron two_electron schwarz_matrix default_threshold).
  Lemma get_rep_cached m v : snd (grep m) = V2 _ _ v -> m_rep _ _ _ _ _ _ (fst (grep m)) = Some v.
  Proof.
    unfold get_rep. destruct (m_rep _ _ _ _ _ _ m) as [w|] eqn:E; cbn.
    - intros H. injection H as ->. exact E.
    - destruct (attr2 _) as [s r]. cbn. intros ->. reflexivity.
  Qed.
  Lemma m_rep_kept l m v : m_rep _ _ _ _ _ _ m = Some v -> m_rep _ _ _ _ _ _ (mrun m l) = Some v.
  Proof.
    revert m. induction l as [|o l IH]; intros m E; [exact E|]. cbn. apply IH.
    assert (N : forall m, m_rep _ _ _ _ _ _ m = Some v -> m_rep _ _ _ _ _ _ (fst (gnuc m)) = Some v) by (intros m' E'; unfold get_nuc; destruct (m_nuc _ _ _ _ _ _ m'); [exact E'|]; destruct (attr1 _ _); exact E').
    assert (K : forall m, m_rep _ _ _ _ _ _ m = Some v -> m_rep _ _ _ _ _ _ (fst (gkin m)) = Some v) by (intros m' E'; unfold get_kin; destruct (m_kin _ _ _ _ _ _ m'); [exact E'|]; destruct (attr1 _ _); exact E').
    destruct o; cbn [ObjectModel.mstep]; [apply K, E|apply N, E|unfold get_rep; rewrite E; exact E|].
    unfold get_h. destruct (m_h _ _ _ _ _ _ m); [exact E|]. apply N in E. destruct (gnuc m) as [m1 r1]. cbn [fst] in E. destruct r1; try exact E. apply K in E. destruct (gkin m1) as [m2 r2]. destruct r2; exact E.
  Qed.
End Objects.
