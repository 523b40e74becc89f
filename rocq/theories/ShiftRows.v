(** The energies handed to RotoSolve are energies of ansatz states. *)
From Coq Require Import List Bool Arith NArith ZArith Reals Lra Lia.
From Verif Require Import Base RRing Fock FockMore FermiModel OperatorsModel OperatorsProofs OperatorsSums OperatorsActs OperatorsActive OperatorsKeys Props_Operators
  CIModel StateModel StateProofs StateMore Props_State GateAlgebra UPSModel UPSProofs UPSSingle UPSState UPSAnsatz UPSRows Props_UPS
  FockInner DensityState WaveModel GradProofs Props_Gradient RotoModel RotoProofs Props_Roto ShiftModel ShiftTrig ShiftProofs.
Import ListNotations.
Local Open Scope R_scope.

Lemma steps_run (St : Type) apT axpy tiny off : forall s2 t2 (s1 : list exc) (t1 : list R) (acc : Res St), length s1 = length t1 -> length s2 = length t2 ->
  fold_left (fun acc i => bind acc (propagate_unitary St apT axpy tiny off (s1 ++ s2) (t1 ++ t2) i)) (seq (length s1) (length s2)) acc
  = fold_left (fun acc (et : exc * R) => bind acc (fun out =>
               if tiny (snd et) then Ok out else apply_gate St apT axpy off (fst et) (snd et) out)) (combine s2 t2) acc.
Proof.
  induction s2 as [|e s2 IH]; intros [|t t2] s1 t1 acc H1 H2; cbn in H2; try discriminate; [reflexivity|].
  cbn [length seq fold_left combine].
  replace (s1 ++ e :: s2) with ((s1 ++ [e]) ++ s2) by (rewrite <- app_assoc; reflexivity).
  replace (t1 ++ t :: t2) with ((t1 ++ [t]) ++ t2) by (rewrite <- app_assoc; reflexivity).
  replace (Datatypes.S (length s1)) with (length (s1 ++ [e])) by (rewrite app_length; cbn; lia).
  rewrite IH by (rewrite ?app_length; cbn; congruence). f_equal.
  destruct acc as [o|ex|]; cbn [bind]; try reflexivity.
  unfold propagate_unitary. rewrite <- !app_assoc. cbn [app]. rewrite !nth_error_app2 by lia.
  rewrite Nat.sub_diag. rewrite H1, Nat.sub_diag. cbn [nth_error fst snd]. reflexivity.
Qed.
Lemma steps_prefix (St : Type) apT axpy tiny off (s1 s2 : list exc) (t1 t2 : list R) (acc : Res St) : length s1 = length t1 ->
  fold_left (fun acc i => bind acc (propagate_unitary St apT axpy tiny off (s1 ++ s2) (t1 ++ t2) i)) (seq 0 (length s1)) acc
  = fold_left (fun acc (et : exc * R) => bind acc (fun out =>
               if tiny (snd et) then Ok out else apply_gate St apT axpy off (fst et) (snd et) out)) (combine s1 t1) acc.
Proof.
  intros H. rewrite <- (steps_run St apT axpy tiny off s1 t1 [] [] acc eq_refl H). cbn [app length].
  assert (K : forall l a, (forall i, In i l -> (i < length s1)%nat) ->
    fold_left (fun acc i => bind acc (propagate_unitary St apT axpy tiny off (s1 ++ s2) (t1 ++ t2) i)) l a
    = fold_left (fun acc i => bind acc (propagate_unitary St apT axpy tiny off s1 t1 i)) l a).
  { induction l as [|i l IH]; intros a Hl; [reflexivity|]. cbn [fold_left]. rewrite IH by (intros; apply Hl; now right). f_equal.
    destruct a; cbn [bind]; try reflexivity. unfold propagate_unitary. pose proof (Hl i (or_introl eq_refl)). now rewrite !nth_error_app1 by lia. }
  apply K. intros i Hi. apply in_seq in Hi. lia.
Qed.

Definition dotp (bk : list R * list R) : R := dot (fst bk) (snd bk).
Section Rows.
  Variables (tiny tiny_le : R -> bool) (sp : space) (th : threads).
  Hypothesis HS : sector tiny sp th.
  Hypothesis Hti : forall c, tiny c = true <-> c = 0.
  Hypothesis Hle : forall c, tiny_le c = true <-> c = 0.
  Variables (h : nat -> nat -> R) (g : nat -> nat -> nat -> nat -> R).
  Notation d := (dim (sp_ci sp)).
  Notation one off s t v := (ups_state tiny sp th off s t false v).

  Lemma one_app s1 s2 t1 t2 v : length s1 = length t1 -> one 0 (s1 ++ s2) (t1 ++ t2) v = bind (one 0 s1 t1 v) (fun w => one 0 s2 t2 w).
  Proof.
    intros H. unfold ups_state, construct_ups_state. rewrite combine_app by exact H. rewrite fold_left_app.
    set (F := fold_left _ (combine s1 t1) _). clearbody F. destruct F as [o|e|]; cbn [bind]; [reflexivity| |];
    induction (combine s2 t2) as [|et l IH]; cbn [fold_left bind]; auto.
  Qed.
  Lemma finish_ok s1 e s2 t1 t t2 rows : Forall (gate_ok (sp_na sp) 0) (s1 ++ e :: s2) -> length s1 = length t1 -> length s2 = length t2 ->
    (0 < length rows)%nat -> (forall row, In row rows -> length row = d) ->
    exists bra kets, finish tiny tiny_le sp th (s1 ++ e :: s2) h g (t1 ++ t :: t2) (length t1) (length (t1 ++ t :: t2)) rows = Ok (bra, kets) /\
      length bra = length rows /\ length kets = length rows /\
      forall r, (r < length rows)%nat -> one 0 s2 t2 (nth r rows []) = Ok (nth r kets []) /\
        energy_of tiny sp th h g (nth r kets []) = Ok (dot (nth r bra []) (nth r kets [])).
  Proof.
    intros Hg L1 L2 Hp Hr. apply Forall_app in Hg as [_ Hg]. inversion_clear Hg as [|? ? _ Hg2]. unfold finish.
    replace (length (t1 ++ t :: t2) - S (length t1))%nat with (length s2) by (rewrite app_length; cbn; lia).
    replace (s1 ++ e :: s2) with ((s1 ++ [e]) ++ s2) by (rewrite <- app_assoc; reflexivity).
    replace (t1 ++ t :: t2) with ((t1 ++ [t]) ++ t2) by (rewrite <- app_assoc; reflexivity).
    replace (S (length t1)) with (length (s1 ++ [e])) by (rewrite app_length; cbn; lia).
    unfold ups_unitary_SA. rewrite steps_run by (rewrite ?app_length; cbn; congruence).
    assert (V : valid sp (length rows) rows) by (split; auto).
    destruct (rows_product tiny tiny_le sp th HS Hti Hle (length rows) Hp 0 false (combine s2 t2) (forall_combine _ _ _ Hg2) rows V) as (kets & E & [LK VK] & Rw).
    rewrite E. cbn [bind].
    assert (EH : exists H, hamiltonian_0i_0a (1 / 2) h g (sp_ni sp) (sp_na sp) = Ok H).
    { assert (Lk : length (nth 0 kets []) = d) by (apply VK, nth_In; lia). pose proof (energy_of_ip tiny sp th HS h g _ Lk) as Q. unfold energy_of in Q.
      destruct (hamiltonian_0i_0a (1 / 2) h g (sp_ni sp) (sp_na sp)) as [H| |]; [eauto|discriminate|discriminate]. }
    destruct EH as (H & EH). rewrite EH. cbn [bind].
    assert (RW : rowwise (K:=R) d no_ansatz no_ansatz).
    { intros dg s Hs Hrow. split; [|discriminate]. unfold no_ansatz. cbn. exists 0%nat. split; [exact Hs|reflexivity]. }
    assert (PR : forall r, (r < length rows)%nat -> exists o, propagate_state tiny sp th true false no_ansatz [SOp H] (nth r kets []) = Ok o /\
      energy_of tiny sp th h g (nth r kets []) = Ok (dot (nth r kets []) o)).
    { intros r Hrr. assert (Lk : length (nth r kets []) = d) by (apply VK, nth_In; lia). pose proof (energy_of_ip tiny sp th HS h g _ Lk) as Q.
      unfold energy_of, expectation_value in *. rewrite EH in *. cbn [bind] in *.
      destruct (propagate_state tiny sp th true false no_ansatz [SOp H] (nth r kets [])) as [o| |]; [|discriminate|discriminate]. exists o. auto. }
    pose proof (C19_state_averaged_rows (K:=R) (C:=R_CRing) tiny tiny_le sp th true false no_ansatz no_ansatz [SOp H] kets Hti Hle RW ltac:(lia) VK) as Q.
    rewrite LK in Q.
    destruct (propagate_state_SA tiny_le sp th true false no_ansatz [SOp H] kets) as [bra|ex|].
    - destruct Q as [Q1 Q2]. cbn [bind]. exists bra, kets. split; [reflexivity|]. split; [exact Q1|]. split; [exact LK|]. intros r Hrr.
      split; [apply (Rw r Hrr)|]. destruct (PR r Hrr) as (o & P1 & P2). rewrite (Q2 r Hrr) in P1. injection P1 as <-. rewrite P2. f_equal. apply dot_comm.
    - destruct Q as (r & Hrr & Q). destruct (PR r Hrr) as (o & P1 & _). congruence.
    - destruct Q as (r & Hrr & Q). destruct (PR r Hrr) as (o & P1 & _). congruence.
  Qed.
  Lemma unitary_put s1 e s2 t1 x t2 t v : length s1 = length t1 -> 
    ups_unitary tiny sp th 0 (s1 ++ e :: s2) (put (t1 ++ x :: t2) (length t1) t) (length t1) v = one 0 [e] [t] v.
  Proof.
    intros H. rewrite put_app. apply ups_unitary_one; rewrite nth_error_app2 by lia; [rewrite <- H|]; now rewrite Nat.sub_diag.
  Qed.
  Lemma unitary_put_SA s1 e s2 t1 x t2 t v : length s1 = length t1 -> 
    ups_unitary_SA tiny tiny_le sp th 0 (s1 ++ e :: s2) (put (t1 ++ x :: t2) (length t1) t) (length t1) v = ups_state_SA tiny tiny_le sp th 0 [e] [t] false v.
  Proof.
    intros H. rewrite put_app. unfold ups_unitary_SA, propagate_unitary. rewrite !nth_error_app2 by lia. rewrite H, Nat.sub_diag. reflexivity.
  Qed.
  Lemma total s t v : Forall (gate_ok (sp_na sp) 0) s -> length t = length s -> length v = d -> exists w, one 0 s t v = Ok w /\ length w = d.
  Proof. intros. now apply (ups_total' tiny sp th HS). Qed.

  Lemma rotosolve_ok struct csf parameters diffs i : Forall (gate_ok (sp_na sp) 0) struct -> length csf = d -> length parameters = length struct ->
    (i < length struct)%nat -> diffs <> [] ->
    exists es, rotosolve_energies tiny tiny_le sp th struct h g csf parameters diffs i = Ok es /\ length es = length diffs /\
      forall j, (j < length diffs)%nat ->
        bind (one 0 struct (put parameters i (nth j diffs 0)) csf) (energy_of tiny sp th h g) = Ok (nth j es 0).
  Proof.
    intros Hg Hc HL Hi Hd.
    destruct (split_at struct i Hi) as (s1 & e & s2 & -> & Ls).
    destruct (split_at parameters i ltac:(lia)) as (t1 & x & t2 & -> & Lt). assert (L12 : length s1 = length t1) by congruence. clear Ls Hi. subst i. rename L12 into Lt.
    rewrite !app_length in HL. cbn in HL.
    pose proof Hg as Hg0. apply Forall_app in Hg0 as [G1 Hg0]. inversion_clear Hg0 as [|? ? Ge G2].
    destruct (total s1 t1 csf G1 ltac:(lia) Hc) as (v & Ev & Lv).
    unfold rotosolve_energies. unfold ups_unitary at 1. replace (seq 0 (length t1)) with (seq 0 (length s1)) by now rewrite Lt. rewrite steps_prefix by exact Lt.
    change (fold_left _ (combine s1 t1) (Ok csf)) with (one 0 s1 t1 csf). rewrite Ev. cbn [bind].
    set (row := fun t => match one 0 [e] [t] v with Ok w => w | _ => [] end).
    assert (ER : forall t, one 0 [e] [t] v = Ok (row t) /\ length (row t) = d).
    { intros t. destruct (total [e] [t] v ltac:(now repeat constructor) eq_refl Lv) as (w & E & L). unfold row. rewrite E. auto. }
    assert (EF : forall l acc, fold_left (fun acc theta_diff => bind acc (fun rows =>
            bind (set_at (t1 ++ x :: t2) (length t1) theta_diff) (fun theta_tmp =>
            bind (ups_unitary tiny sp th 0 (s1 ++ e :: s2) theta_tmp (length t1) v) (fun row => Ok (rows ++ [row]))))) l (Ok acc) = Ok (acc ++ map row l)).
    { induction l as [|t l IH]; intros acc; [cbn; now rewrite app_nil_r|]. cbn [fold_left bind]. rewrite set_at_put by (rewrite app_length; cbn; lia). cbn [bind].
      rewrite unitary_put by exact Lt. rewrite (proj1 (ER t)). cbn [bind]. rewrite IH. cbn [map]. now rewrite <- app_assoc. }
    rewrite EF. cbn [bind app].
    destruct (finish_ok s1 e s2 t1 x t2 (map row diffs) Hg Lt ltac:(lia)) as (bra & kets & E & LB & LK & P).
    { rewrite map_length. destruct diffs; [contradiction|cbn; lia]. }
    { intros w Hw. apply in_map_iff in Hw as (t & <- & _). apply ER. }
    rewrite E. cbn [bind]. eexists. split; [reflexivity|]. cbn [fst snd]. rewrite map_length in *. split; [rewrite combine_length; lia|].
    intros j Hj. rewrite put_app, one_app by exact Lt. rewrite Ev. cbn [bind].
    change (e :: s2) with ([e] ++ s2). change (nth j diffs 0 :: t2) with ([nth j diffs 0] ++ t2). rewrite one_app by reflexivity.
    rewrite (proj1 (ER _)). cbn [bind]. destruct (P j Hj) as [P1 P2].
    pose proof (map_nth row diffs 0 j) as Q. rewrite (nth_indep _ _ [] ltac:(rewrite map_length; exact Hj)) in Q. rewrite Q in P1. rewrite P1. cbn [bind]. rewrite P2. f_equal.
    change (dot (nth j bra []) (nth j kets []) = nth j (map dotp (combine bra kets)) 0).
    rewrite (nth_indep _ 0 (dotp ([], []))) by (rewrite map_length, combine_length; lia). rewrite map_nth, combine_nth by lia. reflexivity.
  Qed.

  (** *** State-averaged accumulation *)
  Definition accum (m : nat) (acc : Res (nat * list R)) (ibk : nat * (list R * list R)) : Res (nat * list R) :=
    bind acc (fun st => let idx := if Nat.eqb (fst ibk mod m) 0 then S (fst st) else fst st in
            match nth_error (snd st) (idx - 1) with
            | None => Raise IndexError
            | Some e => bind (set_at (snd st) (idx - 1) (e + dotp (snd ibk))) (fun l => Ok (idx, l))
            end).
  Lemma put_self es q v : put es q v = match nth_error es q with Some _ => put es q v | None => es end.
  Proof. revert q. induction es as [|a es IH]; intros [|q]; cbn; try reflexivity. rewrite IH at 1. destruct (nth_error es q); reflexivity. Qed.
  Lemma put_get es q v j : (q < length es)%nat -> nth j (put es q v) 0 = if Nat.eqb j q then v else nth j es 0.
  Proof. revert q j. induction es as [|a es IH]; intros [|q] [|j] H; cbn in *; try lia; try reflexivity. apply IH. lia. Qed.
  Lemma accum_tail m q : (0 < m)%nat -> forall l a r es, a = (q * m + r)%nat -> (0 < r)%nat -> (r + length l <= m)%nat -> (q < length es)%nat ->
    fold_left (accum m) (combine (seq a (length l)) l) (Ok (S q, es)) = Ok (S q, put es q (nth q es 0 + rsum (map dotp l))).
  Proof.
    intros Hm. induction l as [|bk l IH]; intros a r es -> Hr Hl Hq.
    - cbn [length seq combine fold_left map]. change (rsum []) with 0. rewrite Rplus_0_r, put_nth by exact Hq. reflexivity.
    - cbn [length] in Hl. cbn [length seq combine fold_left]. unfold accum at 2. cbn [bind fst snd].
      replace ((q * m + r) mod m)%nat with r by (rewrite Nat.add_comm, Nat.mod_add, Nat.mod_small by lia; reflexivity).
      destruct (Nat.eqb_spec r 0); [lia|]. replace (S q - 1)%nat with q by lia. rewrite (nth_error_nth' es 0 Hq), set_at_put by exact Hq. cbn [bind].
      rewrite (IH (S (q * m + r)) (S r)) by (rewrite ?put_length; lia). f_equal. f_equal. rewrite put_put, put_get, Nat.eqb_refl by exact Hq. cbn [map]. rewrite rsum_cons. f_equal. ring.
  Qed.
  Lemma accum_group m q bk l es : (S (length l) <= m)%nat -> (q < length es)%nat ->
    fold_left (accum m) (combine (seq (q * m) (S (length l))) (bk :: l)) (Ok (q, es)) = Ok (S q, put es q (nth q es 0 + rsum (map dotp (bk :: l)))).
  Proof.
    intros Hl Hq. cbn [length seq combine fold_left]. unfold accum at 2. cbn [bind fst snd].
    rewrite Nat.mod_mul, Nat.eqb_refl by lia. replace (S q - 1)%nat with q by lia. rewrite (nth_error_nth' es 0 Hq), set_at_put by exact Hq. cbn [bind].
    rewrite (accum_tail m q ltac:(lia) l (S (q * m)) 1) by (rewrite ?put_length; lia). f_equal. f_equal. rewrite put_put, put_get, Nat.eqb_refl by exact Hq. cbn [map]. rewrite rsum_cons. f_equal. ring.
  Qed.
  Lemma accum_all m : (0 < m)%nat -> forall (ll : list (list (list R * list R))) q es, Forall (fun l => length l = m) ll -> (q + length ll <= length es)%nat ->
    exists es', fold_left (accum m) (combine (seq (q * m) (length (concat ll))) (concat ll)) (Ok (q, es)) = Ok ((q + length ll)%nat, es') /\ length es' = length es /\
      forall j, nth j es' 0 = if Nat.ltb j q then nth j es 0 else nth j es 0 + rsum (map dotp (nth (j - q) ll [])).
  Proof.
    intros Hm. induction ll as [|l ll IH]; intros q es H Hl.
    - exists es. cbn [length concat seq combine fold_left]. rewrite Nat.add_0_r. split; [reflexivity|]. split; [reflexivity|]. intros j. destruct (Nat.ltb j q); [reflexivity|]. destruct (j - q)%nat; cbn; ring.
    - inversion_clear H as [|? ? H1 H2]. cbn [length] in Hl. destruct l as [|bk l]; [cbn in H1; lia|].
      cbn [concat]. rewrite app_length, seq_app, combine_app by now rewrite seq_length. rewrite fold_left_app. cbn [length] in H1 |- *.
      rewrite accum_group by lia. rewrite H1.
      destruct (IH (S q) (put es q (nth q es 0 + rsum (map dotp (bk :: l)))) H2) as (es' & E & L & P); [rewrite put_length; lia|].
      exists es'. split; [|split].
      + replace (q * m + m)%nat with (S q * m)%nat by lia. rewrite E. f_equal. f_equal. lia.
      + now rewrite L, put_length.
      + intros j. rewrite P, put_get by lia. destruct (Nat.ltb_spec j (S q)); destruct (Nat.ltb_spec j q); try lia.
        * destruct (Nat.eqb_spec j q); [lia|reflexivity].
        * assert (j = q) as -> by lia. rewrite Nat.eqb_refl, Nat.sub_diag. reflexivity.
        * destruct (Nat.eqb_spec j q); [lia|]. replace (j - q)%nat with (S (j - S q)) by lia. reflexivity.
  Qed.

  Lemma nth_concat {A} m (ll : list (list A)) (dflt : A) : Forall (fun l => length l = m) ll -> forall j r, (j < length ll)%nat -> (r < m)%nat ->
    nth (j * m + r) (concat ll) dflt = nth r (nth j ll []) dflt.
  Proof.
    intros H. induction H as [|l ll Hl H IH]; intros j r Hj Hr; cbn in Hj; [lia|]. destruct j as [|j]; cbn [concat nth].
    - rewrite app_nth1 by lia. reflexivity.
    - rewrite app_nth2 by lia. replace (S j * m + r - length l)%nat with (j * m + r)%nat by lia. apply IH; lia.
  Qed.
  Lemma concat_len {A} m (ll : list (list A)) : Forall (fun l => length l = m) ll -> length (concat ll) = (length ll * m)%nat.
  Proof. induction 1 as [|l ll Hl H IH]; cbn; [reflexivity|]. rewrite app_length. lia. Qed.
  Lemma chunks {A} m q : forall l : list A, length l = (q * m)%nat -> exists ll, l = concat ll /\ length ll = q /\ Forall (fun x => length x = m) ll.
  Proof.
    induction q as [|q IH]; intros l H; cbn in H; [destruct l; [exists []; repeat constructor|discriminate]|].
    destruct (IH (skipn m l)) as (ll & E & L & F); [rewrite skipn_length; lia|]. exists (firstn m l :: ll). cbn. rewrite <- E, firstn_skipn. split; [reflexivity|]. split; [now rewrite L|].
    constructor; [rewrite firstn_length; lia|exact F].
  Qed.

  Lemma rotosolve_SA_ok struct csfs parameters diffs i : Forall (gate_ok (sp_na sp) 0) struct -> (forall c, In c csfs -> length c = d) -> csfs <> [] ->
    length parameters = length struct -> (i < length struct)%nat -> diffs <> [] ->
    exists es, rotosolve_energies_SA tiny tiny_le sp th struct h g csfs (length parameters) parameters diffs i = Ok es /\ length es = length diffs /\
      forall j, (j < length diffs)%nat -> exists E : list R, length E = length csfs /\
        (forall r, (r < length csfs)%nat -> bind (one 0 struct (put parameters i (nth j diffs 0)) (nth r csfs [])) (energy_of tiny sp th h g) = Ok (nth r E 0)) /\
        nth j es 0 = rsum E.
  Proof.
    intros Hg Hc Hne HL Hi Hd.
    assert (Hm : (0 < length csfs)%nat) by (destruct csfs; [contradiction|cbn; lia]). set (m := length csfs) in *.
    destruct (split_at struct i Hi) as (s1 & e & s2 & -> & Ls).
    destruct (split_at parameters i ltac:(lia)) as (t1 & x & t2 & -> & Lt). assert (L12 : length s1 = length t1) by congruence. clear Ls Hi. subst i. rename L12 into Lt.
    pose proof HL as HL'. rewrite !app_length in HL. cbn in HL.
    pose proof Hg as Hg0. apply Forall_app in Hg0 as [G1 Hg0]. inversion_clear Hg0 as [|? ? Ge G2].
    destruct (C23_state_averaged tiny tiny_le sp th 0 s1 t1 false csfs HS Hti Hle G1 Hm Hc) as (vs & Ev & Lvs & Rv).
    assert (Hv : forall r, (r < m)%nat -> length (nth r vs []) = d).
    { intros r Hr. destruct (total s1 t1 (nth r csfs []) G1 ltac:(lia) ltac:(apply Hc, nth_In; exact Hr)) as (w & E & L). rewrite (Rv r Hr) in E. congruence. }
    assert (Hv' : forall row, In row vs -> length row = d).
    { intros row Hin. destruct (In_nth _ _ [] Hin) as (r & Hr & <-). apply Hv. fold m in Lvs. lia. }
    unfold rotosolve_energies_SA. unfold ups_unitary_SA at 1. replace (seq 0 (length t1)) with (seq 0 (length s1)) by now rewrite Lt. rewrite steps_prefix by exact Lt.
    change (fold_left _ (combine s1 t1) (Ok csfs)) with (ups_state_SA tiny tiny_le sp th 0 s1 t1 false csfs). rewrite Ev. cbn [bind].
    set (row := fun t => match ups_state_SA tiny tiny_le sp th 0 [e] [t] false vs with Ok w => w | _ => [] end).
    assert (ER : forall t, ups_state_SA tiny tiny_le sp th 0 [e] [t] false vs = Ok (row t) /\ length (row t) = m /\
       forall r, (r < m)%nat -> one 0 [e] [t] (nth r vs []) = Ok (nth r (row t) []) /\ length (nth r (row t) []) = d).
    { intros t. destruct (C23_state_averaged tiny tiny_le sp th 0 [e] [t] false vs HS Hti Hle ltac:(now repeat constructor) ltac:(lia) Hv') as (w & E & L & Rw).
      unfold row. rewrite E. split; [reflexivity|]. split; [lia|]. intros r Hr. split; [apply Rw; lia|].
      destruct (total [e] [t] (nth r vs []) ltac:(now repeat constructor) eq_refl (Hv r Hr)) as (w' & E' & L'). rewrite Rw in E' by lia. congruence. }
    assert (EF : forall l acc, fold_left (fun acc theta_diff => bind acc (fun rows =>
            bind (set_at (t1 ++ x :: t2) (length t1) theta_diff) (fun theta_tmp =>
            bind (ups_unitary_SA tiny tiny_le sp th 0 (s1 ++ e :: s2) theta_tmp (length t1) vs) (fun state_tmp => Ok (rows ++ state_tmp))))) l (Ok acc) = Ok (acc ++ concat (map row l))).
    { induction l as [|t l IH]; intros acc; [cbn; now rewrite app_nil_r|]. cbn [fold_left bind]. rewrite set_at_put by (rewrite app_length; cbn; lia). cbn [bind].
      rewrite unitary_put_SA by exact Lt. rewrite (proj1 (ER t)). cbn [bind]. rewrite IH. cbn [map concat]. now rewrite <- app_assoc. }
    rewrite EF. cbn [bind app].
    assert (FR : Forall (fun l => length l = m) (map row diffs)) by (apply Forall_forall; intros l Hin; apply in_map_iff in Hin as (t & <- & _); apply ER).
    assert (LC : length (concat (map row diffs)) = (length diffs * m)%nat) by (rewrite (concat_len m _ FR), map_length; reflexivity).
    destruct (finish_ok s1 e s2 t1 x t2 (concat (map row diffs)) Hg Lt ltac:(lia)) as (bra & kets & E & LB & LK & P).
    { rewrite LC. destruct diffs; [contradiction|cbn; lia]. }
    { intros w Hw. apply in_concat in Hw as (l & Hin & Hw). apply in_map_iff in Hin as (t & <- & _). destruct (In_nth _ _ [] Hw) as (r & Hr & <-). apply ER. now rewrite (proj1 (proj2 (ER t))) in Hr. }
    rewrite E. cbn [bind fst snd]. rewrite LC in *.
    destruct (chunks m (length diffs) (combine bra kets)) as (ll & EC & LLL & FL); [rewrite combine_length; lia|].
    rewrite EC. change (fold_left _ _ ?a) with (fold_left (accum m) (combine (seq 0 (length (concat ll))) (concat ll)) a).
    destruct (accum_all m Hm ll 0 (repeat 0 (length diffs)) FL ltac:(rewrite repeat_length; lia)) as (es & EA & LA & PA). cbn [Nat.mul] in EA. rewrite EA. cbn [bind snd].
    exists es. split; [reflexivity|]. split; [now rewrite LA, repeat_length|]. intros j Hj. exists (map dotp (nth j ll [])).
    assert (Lj : length (nth j ll []) = m) by (eapply Forall_forall in FL; [exact FL|apply nth_In; lia]).
    split; [now rewrite map_length|]. split.
    - intros r Hr. rewrite put_app, one_app by exact Lt. rewrite (Rv r Hr). cbn [bind].
      change (e :: s2) with ([e] ++ s2). change (nth j diffs 0 :: t2) with ([nth j diffs 0] ++ t2). rewrite one_app by reflexivity.
      destruct (ER (nth j diffs 0)) as (_ & _ & Rr). rewrite (proj1 (Rr r Hr)). cbn [bind].
      assert (Hk : (j * m + r < length diffs * m)%nat) by nia.
      destruct (P (j * m + r)%nat Hk) as [P1 P2]. rewrite (nth_concat m _ [] FR) in P1 by (rewrite ?map_length; lia).
      pose proof (map_nth row diffs 0 j) as Q. rewrite (nth_indep _ _ [] ltac:(rewrite map_length; exact Hj)) in Q. rewrite Q in P1. rewrite P1. cbn [bind]. rewrite P2. f_equal.
      rewrite (nth_indep _ 0 (dotp ([], []))) by (rewrite map_length; lia). rewrite map_nth. rewrite <- (nth_concat m ll ([], []) FL) by lia. rewrite <- EC, combine_nth by lia. reflexivity.
    - rewrite PA. cbn [Nat.ltb Nat.leb]. rewrite Nat.sub_0_r. rewrite nth_repeat. ring.
  Qed.
End Rows.
