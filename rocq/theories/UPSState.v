(** The ansatz gates on the state vectors of a CI space. *)
From Coq Require Import List Bool Arith NArith ZArith Reals Lra Lia.
From Verif Require Import Base RRing Fock FockMore FermiModel FermiProofs FermiAlgebra OperatorsModel OperatorsProofs
  OperatorsGen OperatorsKeys CIModel CIProofs StateModel StateBits StateProofs StateMore Props_State
  SaPoly GateAlgebra UPSModel UPSProofs UPSSingle.
Import ListNotations.
Local Open Scope R_scope.

Section Sector.
  Variables tiny : R -> bool.
  Variable sp : space.
  Variable th : threads.
  Variables na nb : Z.
  Hypothesis Htiny : forall c, tiny c = true -> c = 0.
  Hypothesis Hpos : (0 < sp_na sp)%nat.
  Hypothesis Hci : get_indexing (sp_na sp) na nb = Ok (sp_ci sp).
  Hypothesis Hth : forall order, th = Some order -> schedule (sp_ci sp) order.

  Notation n := (sp_na sp).
  Notation d := (dim (sp_ci sp)).
  Notation kt := (ket (K:=R) (sp_na sp) (sp_ci sp)).

  Lemma sector_wf : wf_ci n (sp_ci sp).
  Proof. exact (get_indexing_wf _ _ _ _ Hpos Hci). Qed.

  Lemma app_ok T st : OPS (bal n) T -> length st = d ->
    exists out, app1v tiny sp th T st = Ok out /\ length out = d /\ forall x, kt out x = opapp T (kt st) x.
  Proof.
    intros HT Hl. unfold app1v.
    destruct (C17_spin_sector (K:=R) (C:=R_CRing) tiny sp no_ansatz na nb T st th false Htiny Hpos Hci) as (out & E & L & S); auto.
    - intros s c Hi. destruct HT as [_ HF]. rewrite List.Forall_forall in HF.
      destruct (HF s) as [H1 H2]; [unfold dkeys; apply in_map_iff; exists (s, c); auto|]. split; [exact H2|apply H1].
    - exists out. rewrite <- Hl. auto.
  Qed.

  Lemma kt_ext a b : length a = d -> length b = d -> (forall x, kt a x = kt b x) -> a = b.
  Proof. intros Ha Hb H. apply (ket_inj n (sp_ci sp)); auto. apply sector_wf. Qed.

  Lemma axpy1_length c t o : length t = length o -> length (axpy1 c t o) = length o.
  Proof. revert o. induction t as [|x t IH]; intros [|y o] H; cbn in *; try discriminate; auto. Qed.
  Lemma axpy1_ketp m ds c t o x : length t = length o ->
    ketp (K:=R) m (combine ds (axpy1 c t o)) x = ketp m (combine ds o) x + c * ketp m (combine ds t) x.
  Proof.
    revert t o. induction ds as [|e ds IH]; intros t o H; [cbn; ring|].
    destruct t as [|a t], o as [|b o]; cbn in H; try discriminate; [cbn; ring|].
    cbn [axpy1 combine ketp]. rewrite IH by congruence. destruct (N.eqb (todet m e) x); cbn; ring.
  Qed.
  Lemma axpy1_ket c t o x : length t = d -> length o = d -> kt (axpy1 c t o) x = kt o x + c * kt t x.
  Proof. intros H1 H2. unfold ket. apply axpy1_ketp. congruence. Qed.

  Lemma closed_ok T t st : OPS (bal n) T -> length st = d ->
    exists out, closed_gate (list R) (app1v tiny sp th) axpy1 T t st = Ok out /\ length out = d /\
    forall x, kt out x = gact (opapp T) (closed_cs t) (kt st) x.
  Proof.
    intros HT Hl. destruct (app_ok T st HT Hl) as (t1 & E1 & L1 & S1). destruct (app_ok T t1 HT L1) as (t2 & E2 & L2 & S2).
    eexists. unfold closed_gate. rewrite E1. cbn [bind]. rewrite E2. cbn [bind]. split; [reflexivity|].
    assert (L3 : length (axpy1 (sin t) t1 st) = d) by (rewrite axpy1_length; congruence).
    split; [rewrite axpy1_length; congruence|]. intros x. rewrite !axpy1_ket by auto.
    unfold gact. cbn [closed_cs gsum]. rewrite S2, S1, (opapp_ext T (kt t1) (opapp T (kt st)) S1). ring.
  Qed.

  Lemma poly_ok T cs st : OPS (bal n) T -> length st = d ->
    exists out, poly_gate (list R) (app1v tiny sp th) axpy1 T cs st = Ok out /\ length out = d /\
    forall x, kt out x = gact (opapp T) cs (kt st) x.
  Proof.
    intros HT Hl. unfold poly_gate.
    assert (G : forall cs tmp out, length tmp = d -> length out = d -> exists tmp' out',
      fold_left (fun acc c => bind acc (fun to : list R * list R =>
            bind (app1v tiny sp th T (fst to)) (fun tmp => Ok (tmp, axpy1 c tmp (snd to))))) cs (Ok (tmp, out)) = Ok (tmp', out') /\
      length out' = d /\ forall x, kt out' x = kt out x + gsum (opapp T) cs (kt tmp) x).
    { clear cs. induction cs as [|c cs IH]; intros tmp out Lt Lo.
      - exists tmp, out. cbn. split; [reflexivity|]. split; [exact Lo|]. intros x. ring.
      - cbn [fold_left bind fst snd]. destruct (app_ok T tmp HT Lt) as (t1 & E1 & L1 & S1). rewrite E1. cbn [bind].
        destruct (IH t1 (axpy1 c t1 out)) as (tmp' & out' & E & L & S); [exact L1|rewrite axpy1_length; congruence|].
        exists tmp', out'. split; [exact E|]. split; [exact L|]. intros x. rewrite S, axpy1_ket by auto. cbn [gsum].
        rewrite S1. rewrite (gsum_ext (opapp T) (opapp_linear T) cs (kt t1) (opapp T (kt tmp)) S1 x). ring. }
    destruct (G cs st st Hl Hl) as (tmp' & out' & E & L & S). exists out'. rewrite E. cbn [bind snd].
    split; [reflexivity|]. split; [exact L|]. intros x. rewrite S. reflexivity.
  Qed.

  (** The gate of a valid excitation acts as its polynomial in the generator. *)
  Theorem gate_state off e : gate_ok n off e ->
    exists D, gate_op off e = Ok D /\ gate_data n D (gate_nodes (fst e)) (gate_cs (fst e)) /\
      (forall v x, opapp D v x = gen_spec off e v x) /\
      forall t st, length st = d -> exists out, ups_gate tiny sp th off e t st = Ok out /\ length out = d /\
        forall x, kt out x = gact (opapp D) (gate_cs (fst e) t) (kt st) x.
  Proof.
    intros H. destruct (gate_generator n off e H) as (D & E & G & S). exists D. split; [exact E|]. split; [exact G|].
    split; [exact S|]. intros t st Hl. pose proof (gd_keys _ _ _ _ G) as HK.
    destruct e as [g l]. unfold ups_gate, apply_gate. cbn [fst snd gate_cs] in *.
    destruct g; cbn [gate_op] in E; try rewrite E; cbn [bind].
    1-6: now apply closed_ok.
    - destruct l as [|i [|a [|? ?]]]; try contradiction. destruct H as (H1 & H2 & H3).
      destruct (sa_single_gate n off i a H1 H2 H3) as (Ta & Tb & D' & E1 & E2 & Oa & Ob & G' & S' & W).
      cbn [gate_op] in E2. assert (D' = D) as -> by (unfold gate_op in E, E2; congruence).
      rewrite E1. cbn [bind fst snd]. rewrite !Rmult_1_l.
      destruct (closed_ok Ta t st Oa Hl) as (o1 & F1 & L1 & K1). rewrite F1. cbn [bind].
      destruct (closed_ok Tb t o1 Ob L1) as (o2 & F2 & L2 & K2). rewrite F2. exists o2. split; [reflexivity|]. split; [exact L2|].
      intros x. rewrite K2. rewrite (lin_ext _ (gact_linear _ (opapp_linear Tb) (closed_cs t)) _ _ K1 x). apply W.
    - now apply closed_ok.
    - now apply poly_ok.
    - now apply poly_ok.
    - now apply poly_ok.
    - now apply poly_ok.
    - contradiction H.
  Qed.

  (** ** The scalar product *)
  Definition pr (v w : vec) : R := ksum (map (fun e => v (todet (2 * n) e) * w (todet (2 * n) e)) (idx2det (sp_ci sp))).

  Lemma dot_nth (a b : list R) : length a = length b ->
    dot a b = ksum (map (fun i => nth i a 0 * nth i b 0) (seq 0 (length a))).
  Proof.
    revert b. induction a as [|x a IH]; intros [|y b] H; cbn [length] in *; try discriminate; [reflexivity|].
    cbn [dot seq map ksum nth]. rewrite (IH b) by congruence. f_equal. rewrite <- seq_shift, map_map. reflexivity.
  Qed.
  Lemma map_nth_seq {A} (f : A -> R) (l : list A) (x0 : A) : map f l = map (fun i => f (nth i l x0)) (seq 0 (length l)).
  Proof.
    induction l as [|x l IH]; [reflexivity|]. cbn [length seq map nth]. f_equal. rewrite <- seq_shift, map_map. exact IH.
  Qed.
  Lemma dot_pr a b : length a = d -> length b = d -> dot a b = pr (kt a) (kt b).
  Proof.
    intros Ha Hb. rewrite dot_nth by congruence. unfold pr. rewrite (map_nth_seq _ (idx2det (sp_ci sp)) 0%N).
    rewrite Ha. f_equal. apply map_ext_in. intros i Hi. apply in_seq in Hi.
    assert (E : nth_error (idx2det (sp_ci sp)) i = Some (nth i (idx2det (sp_ci sp)) 0%N)).
    { apply nth_error_nth'. unfold dim in Hi. lia. }
    rewrite !(ket_nth n (sp_ci sp) _ i _ sector_wf) with (2 := E) by assumption. reflexivity.
  Qed.
  Lemma pr_ext v w v' w' : (forall x, v x = v' x) -> (forall x, w x = w' x) -> pr v w = pr v' w'.
  Proof. intros H1 H2. unfold pr. f_equal. apply map_ext. intros e. now rewrite H1, H2. Qed.
  Lemma pr_comb_l a b u v w : pr (fun x => a * u x + b * v x) w = a * pr u w + b * pr v w.
  Proof. unfold pr. induction (idx2det (sp_ci sp)) as [|e l IH]; cbn [map ksum]; [cbn; ring|]. rewrite IH. cbn. ring. Qed.
  Lemma pr_sym v w : pr v w = pr w v.
  Proof. unfold pr. f_equal. apply map_ext. intros e. cbn. ring. Qed.

  Lemma pr_plus_r a u v w : pr u (fun x => a * v x + w x) = a * pr u v + pr u w.
  Proof.
    rewrite pr_sym. rewrite (pr_ext _ u (fun x => a * v x + 1 * w x) u) by (intros; ring).
    rewrite pr_comb_l, (pr_sym v), (pr_sym w). ring.
  Qed.

  Lemma ksum_comm {A B} (f : A -> B -> R) l m :
    ksum (map (fun a => ksum (map (fun b => f a b) m)) l) = ksum (map (fun b => ksum (map (fun a => f a b) l)) m).
  Proof.
    induction l as [|a l IH]; cbn [map ksum].
    - induction m as [|b m IHm]; cbn [map ksum]; [reflexivity|]. rewrite <- IHm. cbn. ring.
    - rewrite IH. clear IH. induction m as [|b m IHm]; cbn [map ksum]; [cbn; ring|]. rewrite <- IHm. cbn. ring.
  Qed.
  Lemma ksum_scal {A} (c : R) (f : A -> R) l : ksum (map (fun a => c * f a) l) = c * ksum (map f l).
  Proof. induction l as [|a l IH]; cbn [map ksum]; [cbn; ring|]. rewrite IH. cbn. ring. Qed.

  Lemma opapp_kt T st x : length st = d -> opapp T (kt st) x =
    ksum (map (fun e => kt st (todet (2 * n) e) * mel T x (todet (2 * n) e)) (idx2det (sp_ci sp))).
  Proof.
    intros Hl. unfold ket at 1. rewrite opapp_ketp.
    rewrite (map_nth_seq _ (idx2det (sp_ci sp)) 0%N).
    rewrite (map_nth_seq _ (combine (idx2det (sp_ci sp)) st) (0%N, 0)).
    rewrite combine_length, Hl. unfold dim. rewrite Nat.min_id. f_equal. apply map_ext_in. intros i Hi. apply in_seq in Hi.
    assert (E : nth_error (idx2det (sp_ci sp)) i = Some (nth i (idx2det (sp_ci sp)) 0%N)).
    { apply nth_error_nth'. lia. }
    rewrite (ket_nth n (sp_ci sp) st i _ sector_wf) with (2 := E) by assumption.
    rewrite combine_nth by (symmetry; exact Hl). reflexivity.
  Qed.

  (** Antisymmetric operators. *)
  Lemma pr_anti T u w : (forall x y, mel T x y = - mel T y x) -> length u = d -> length w = d ->
    pr (opapp T (kt u)) (kt w) = - pr (kt u) (opapp T (kt w)).
  Proof.
    intros Ha Hu Hw. unfold pr.
    set (X := idx2det (sp_ci sp)).
    rewrite (map_ext (fun e => opapp T (kt u) (todet (2 * n) e) * kt w (todet (2 * n) e))
       (fun e => ksum (map (fun e' => kt u (todet (2 * n) e') * mel T (todet (2 * n) e) (todet (2 * n) e') * kt w (todet (2 * n) e)) X))).
    2:{ intros e. cbn [R_CRing rmul]. rewrite opapp_kt by auto. fold X. rewrite Rmult_comm, <- ksum_scal. f_equal. apply map_ext. intros e'. cbn. ring. }
    rewrite ksum_comm.
    rewrite (map_ext (fun e => kt u (todet (2 * n) e) * opapp T (kt w) (todet (2 * n) e))
       (fun e => ksum (map (fun e' => - (kt u (todet (2 * n) e) * mel T (todet (2 * n) e') (todet (2 * n) e) * kt w (todet (2 * n) e'))) X))).
    2:{ intros e. cbn [R_CRing rmul]. rewrite opapp_kt by auto. fold X. rewrite <- ksum_scal. f_equal. apply map_ext. intros e'. rewrite Ha. cbn. ring. }
    rewrite <- (Ropp_involutive (ksum _)). f_equal.
    match goal with |- - ksum (map ?f X) = ksum (map ?g X) => 
      assert (E : forall l, - ksum (map f l) = ksum (map (fun e => -1 * f e) l)) end.
    { intros l. rewrite ksum_scal. ring. }
    rewrite E. f_equal. apply map_ext. intros e. rewrite <- ksum_scal. f_equal. apply map_ext. intros e'. ring.
  Qed.

  (** [<G(c) u, w> = <u, G(c') w>] with alternating signs. *)
  Lemma pr_gsum T cs (b : bool) u w : OPS (bal n) T -> (forall x y, mel T x y = - mel T y x) -> length u = d -> length w = d ->
    pr (gsum (opapp T) cs (kt u)) (kt w) = (if b then 1 else -1) * pr (kt u) (gsum (opapp T) (altneg b cs) (kt w)).
  Proof.
    intros HT Ha. revert b u w. induction cs as [|c cs IH]; intros b u w Hu Hw.
    - cbn [gsum altneg]. unfold pr. induction (idx2det (sp_ci sp)) as [|e l IHl]; cbn [map ksum] in *; [cbn; destruct b; ring|].
      cbn in *. rewrite IHl. destruct b; ring.
    - cbn [gsum altneg].
      destruct (app_ok T u HT Hu) as (u1 & _ & Lu & Su). destruct (app_ok T w HT Hw) as (w1 & _ & Lw & Sw).
      rewrite (pr_ext _ (kt w) (fun x => c * opapp T (kt u) x + 1 * gsum (opapp T) cs (kt u1) x) (kt w)); auto.
      2:{ intros x. rewrite Rmult_1_l. f_equal. apply (gsum_ext (opapp T) (opapp_linear T)). intros y. now rewrite Su. }
      rewrite pr_comb_l. rewrite (IH (negb b) u1 w Lu Hw).
      rewrite (pr_anti T u w Ha Hu Hw).
      rewrite (pr_ext (kt u1) _ (opapp T (kt u)) (gsum (opapp T) (altneg (negb b) cs) (kt w)) Su ltac:(reflexivity)).
      assert (exists z, length z = d /\ forall x, kt z x = gsum (opapp T) (altneg (negb b) cs) (kt w) x) as (z & Lz & Sz).
      { destruct (poly_ok T (altneg (negb b) cs) w HT Hw) as (o & _ & Lo & So). exists (axpy1 (-1) w o).
        split; [rewrite axpy1_length; congruence|]. intros x. rewrite axpy1_ket, So by auto. unfold gact. ring. }
      rewrite <- (pr_ext (opapp T (kt u)) (kt z) (opapp T (kt u)) _ ltac:(reflexivity) Sz).
      rewrite (pr_anti T u z Ha Hu Lz).
      rewrite (pr_ext (kt u) (opapp T (kt z)) (kt u) (gsum (opapp T) (altneg (negb b) cs) (opapp T (kt w)))).
      2:{ reflexivity. }
      2:{ intros x. rewrite (opapp_ext T (kt z) _ Sz). 
          assert (Com : forall cs v y, opapp T (gsum (opapp T) cs v) y = gsum (opapp T) cs (opapp T v) y).
          { clear. induction cs as [|c cs IH]; intros v y; cbn [gsum].
            - apply (T_zero (opapp T) (opapp_linear T)). reflexivity.
            - rewrite (T_plus (opapp T) (opapp_linear T)), (T_scal (opapp T) (opapp_linear T)), IH. reflexivity. }
          apply Com. }
      set (g := gsum (opapp T) (altneg (negb b) cs) (opapp T (kt w))).
      rewrite (pr_plus_r (if b then - c else c) (kt u) (opapp T (kt w)) g). destruct b; cbn [negb]; ring.
  Qed.

  Theorem pr_gact T cs u w : OPS (bal n) T -> (forall x y, mel T x y = - mel T y x) -> length u = d -> length w = d ->
    pr (gact (opapp T) cs (kt u)) (kt w) = pr (kt u) (gact (opapp T) (altneg true cs) (kt w)).
  Proof.
    intros HT Ha Hu Hw. unfold gact.
    rewrite (pr_ext _ (kt w) (fun x => 1 * kt u x + 1 * gsum (opapp T) cs (kt u) x) (kt w)) by (intros; ring).
    rewrite pr_comb_l, (pr_gsum T cs true u w) by auto.
    rewrite (pr_ext (kt u) (fun x => kt w x + gsum (opapp T) (altneg true cs) (kt w) x) (kt u)
       (fun x => 1 * kt w x + gsum (opapp T) (altneg true cs) (kt w) x)); [|reflexivity|intros; ring].
    rewrite pr_plus_r. ring.
  Qed.
End Sector.
