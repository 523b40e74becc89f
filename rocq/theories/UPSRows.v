(** State-averaged ansatz: every row is transformed as a single state. *)
From Coq Require Import List Bool Arith NArith ZArith Reals Lra Lia.
From Verif Require Import Base RRing Fock FockMore FermiModel FermiProofs FermiAlgebra OperatorsModel OperatorsProofs
  OperatorsGen OperatorsKeys CIModel CIProofs StateModel StateBits StateProofs StateMore Props_State
  SaPoly GateAlgebra UPSModel UPSProofs UPSSingle UPSState UPSAnsatz.
Import ListNotations.
Local Open Scope R_scope.

Section Rows.
  Variables tiny tiny_le : R -> bool.
  Variable sp : space.
  Variable th : threads.
  Hypothesis HS : sector tiny sp th.
  Hypothesis Hti : forall c, tiny c = true <-> c = 0.
  Hypothesis Hle : forall c, tiny_le c = true <-> c = 0.
  Notation n := (sp_na sp).
  Notation d := (dim (sp_ci sp)).

  Variable k : nat.
  Hypothesis Hk : (0 < k)%nat.
  Definition valid (st : list (list R)) : Prop := length st = k /\ forall row, In row st -> length row = d.

  (** [F2] on rows is [F1] on each row. *)
  Definition rowsof (F2 : list (list R) -> Res (list (list R))) (F1 : list R -> Res (list R)) : Prop :=
    forall st, valid st -> exists out, F2 st = Ok out /\ valid out /\
      forall r, (r < k)%nat -> F1 (nth r st []) = Ok (nth r out []).

  Lemma valid_row st r : valid st -> (r < k)%nat -> length (nth r st []) = d.
  Proof. intros [H1 H2] Hr. apply H2, nth_In. lia. Qed.

  Lemma rows_app T : OPS (bal n) T -> rowsof (app2v tiny_le sp th T) (app1v tiny sp th T).
  Proof.
    destruct HS as [Ht Hp (na & nb & Hc) Hth]. intros HT st V. unfold app2v, app1v.
    assert (Hr : rowwise (K:=R) d no_ansatz no_ansatz).
    { intros dg s Hs Hrow. split; [|discriminate]. unfold no_ansatz. cbn. exists 0%nat. split; [exact Hs|reflexivity]. }
    assert (Hpos : (0 < length st)%nat) by (rewrite (proj1 V); exact Hk).
    pose proof (C19_state_averaged_rows (K:=R) (C:=R_CRing) tiny tiny_le sp th false false no_ansatz no_ansatz [SOp T] st
      Hti Hle Hr Hpos (proj2 V)) as Q.
    assert (Ok1 : forall r, (r < k)%nat -> exists o, propagate_state tiny sp th false false no_ansatz [SOp T] (nth r st []) = Ok o /\ length o = d).
    { intros r Hrk. destruct (app_ok tiny sp th na nb Ht Hp Hc Hth T (nth r st []) HT (valid_row st r V Hrk)) as (o & E & L & _).
      exists o. auto. }
    rewrite (proj1 V) in Q.
    destruct (propagate_state_SA tiny_le sp th false false no_ansatz [SOp T] st) as [out|e|].
    - exists out. split; [reflexivity|]. destruct Q as [Q1 Q2]. split; [|exact Q2]. split; [exact Q1|].
      intros row Hi. destruct (In_nth _ _ [] Hi) as (r & Hrl & <-). rewrite Q1 in Hrl.
      destruct (Ok1 r Hrl) as (o & E & L). rewrite (Q2 r Hrl) in E. injection E as ->. exact L.
    - destruct Q as (r & Hrk & Q). destruct (Ok1 r Hrk) as (o & E & _). congruence.
    - destruct Q as (r & Hrk & Q). destruct (Ok1 r Hrk) as (o & E & _). congruence.
  Qed.

  Lemma axpy2_valid c t o : valid t -> valid o -> valid (axpy2 c t o).
  Proof.
    intros [T1 T2] [O1 O2]. rewrite <- T1 in O1. unfold valid. rewrite <- T1. clear T1 Hk. revert o O1 O2.
    induction t as [|a t IH]; intros [|b o] O1 O2; cbn in O1; try discriminate.
    - split; [reflexivity|intros row []].
    - destruct (IH ltac:(intros; apply T2; now right) o) as [I1 I2]; [congruence|intros; apply O2; now right|].
      cbn [axpy2 length]. split; [now rewrite I1|]. intros row [<-|Hi]; [|auto].
      rewrite axpy1_length; [apply O2; now left|]. rewrite (T2 a), (O2 b); auto; now left.
  Qed.
  Lemma axpy2_nth c t o r : length t = length o -> (r < length o)%nat -> nth r (axpy2 c t o) [] = axpy1 c (nth r t []) (nth r o []).
  Proof.
    revert o r. induction t as [|a t IH]; intros [|b o] r H Hr; cbn in *; try lia. destruct r; auto. apply IH; lia.
  Qed.

  Lemma rows_closed T t : OPS (bal n) T ->
    rowsof (closed_gate (list (list R)) (app2v tiny_le sp th) axpy2 T t) (closed_gate (list R) (app1v tiny sp th) axpy1 T t).
  Proof.
    intros HT st V. destruct (rows_app T HT st V) as (t1 & E1 & V1 & R1). destruct (rows_app T HT t1 V1) as (t2 & E2 & V2 & R2).
    unfold closed_gate. rewrite E1. cbn [bind]. rewrite E2. cbn [bind]. eexists. split; [reflexivity|].
    assert (V3 : valid (axpy2 (sin t) t1 st)) by now apply axpy2_valid.
    split; [now apply axpy2_valid|]. intros r Hr. rewrite R1 by auto. cbn [bind]. rewrite R2 by auto. cbn [bind]. f_equal.
    destruct V, V1, V2, V3. rewrite !axpy2_nth by lia. reflexivity.
  Qed.

  Lemma rows_poly T cs : OPS (bal n) T ->
    rowsof (poly_gate (list (list R)) (app2v tiny_le sp th) axpy2 T cs) (poly_gate (list R) (app1v tiny sp th) axpy1 T cs).
  Proof.
    intros HT st V. unfold poly_gate.
    assert (G : forall cs tmp out, valid tmp -> valid out -> exists tmp' out',
      fold_left (fun acc c => bind acc (fun to : list (list R) * list (list R) =>
            bind (app2v tiny_le sp th T (fst to)) (fun tmp => Ok (tmp, axpy2 c tmp (snd to))))) cs (Ok (tmp, out)) = Ok (tmp', out') /\
      valid tmp' /\ valid out' /\ forall r, (r < k)%nat ->
      fold_left (fun acc c => bind acc (fun to : list R * list R =>
            bind (app1v tiny sp th T (fst to)) (fun tmp => Ok (tmp, axpy1 c tmp (snd to))))) cs (Ok (nth r tmp [], nth r out []))
      = Ok (nth r tmp' [], nth r out' [])).
    { clear cs st V. induction cs as [|c cs IH]; intros tmp out Vt Vo.
      - exists tmp, out. auto.
      - cbn [fold_left bind fst snd]. destruct (rows_app T HT tmp Vt) as (t1 & E1 & V1 & R1). rewrite E1. cbn [bind].
        destruct (IH t1 (axpy2 c t1 out) V1 (axpy2_valid c t1 out V1 Vo)) as (tmp' & out' & E & V' & V'' & Rr).
        exists tmp', out'. split; [exact E|]. split; [exact V'|]. split; [exact V''|]. intros r Hr. rewrite R1 by auto. cbn [bind].
        rewrite <- (Rr r Hr). destruct V1, Vo. rewrite axpy2_nth by lia. reflexivity. }
    destruct (G cs st st V V) as (tmp' & out' & E & _ & V' & Rr). exists out'. rewrite E. split; [reflexivity|]. split; [exact V'|].
    intros r Hr. now rewrite (Rr r Hr).
  Qed.

  Lemma rows_bind F2 F1 G2 G1 : rowsof F2 F1 -> rowsof G2 G1 ->
    rowsof (fun st => bind (F2 st) G2) (fun st => bind (F1 st) G1).
  Proof.
    intros HF HG st V. destruct (HF st V) as (o1 & E1 & V1 & R1). destruct (HG o1 V1) as (o2 & E2 & V2 & R2).
    exists o2. rewrite E1. cbn [bind]. split; [exact E2|]. split; [exact V2|]. intros r Hr. rewrite R1 by auto. cbn [bind]. now apply R2.
  Qed.

  Lemma rows_gate off e t : gate_ok n off e ->
    rowsof (apply_gate (list (list R)) (app2v tiny_le sp th) axpy2 off e t)
           (apply_gate (list R) (app1v tiny sp th) axpy1 off e t).
  Proof.
    intros H. destruct (gate_generator n off e H) as (D & E & G & _). pose proof (gd_keys _ _ _ _ G) as HK.
    destruct e as [g l]. unfold apply_gate. cbn [fst snd]. unfold gate_op in E.
    destruct g; cbn [gate_op] in E; try rewrite E; cbn [bind]; try (now apply rows_closed); try (now apply rows_poly).
    - destruct l as [|i [|a [|? ?]]]; try contradiction. destruct H as (H1 & H2 & H3).
      destruct (sa_single_gate n off i a H1 H2 H3) as (Ta & Tb & D' & E1 & _ & Oa & Ob & _). rewrite E1. cbn [bind fst snd].
      apply (rows_bind _ _ _ _ (rows_closed Ta (1 * t) Oa) (rows_closed Tb (1 * t) Ob)).
    - contradiction H.
  Qed.

  Notation step St app axpy off dag := (fun acc (et : exc * R) => bind acc (fun out =>
                 if tiny (snd et) then Ok out
                 else apply_gate St app axpy off (fst et) (if dag : bool then - snd et else snd et) out)).

  Lemma rows_product off dag l : List.Forall (fun et => gate_ok n off (fst et)) l ->
    rowsof (fun st => fold_left (step (list (list R)) (app2v tiny_le sp th) axpy2 off dag) l (Ok st))
           (fun st => fold_left (step (list R) (app1v tiny sp th) axpy1 off dag) l (Ok st)).
  Proof.
    induction l as [|[e t] l IH]; intros H st V.
    - exists st. cbn. auto.
    - inversion_clear H as [|? ? H1 H2]. cbn [fold_left bind fst snd]. destruct (tiny t).
      + apply (IH H2 st V).
      + destruct (rows_gate off e (if dag then - t else t) H1 st V) as (o1 & E1 & V1 & R1). cbn [fst] in E1. rewrite E1.
        destruct (IH H2 o1 V1) as (o2 & E2 & V2 & R2). exists o2. split; [exact E2|]. split; [exact V2|].
        intros r Hr. rewrite (R1 r Hr). now apply R2.
  Qed.
End Rows.
