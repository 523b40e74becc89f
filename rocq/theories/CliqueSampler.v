(** The sampler with Pauli saving over histories of calls. *)
From Coq Require Import List Bool Arith NArith ZArith Lia Ring String Permutation.
From Verif Require Import Base Fock FockMore OperatorsSums FockInner CliqueModel CliqueProofs CliquePost QubitModel QubitProofs.
Import ListNotations.
Local Open Scope list_scope.

Section Sampler.
  Context {K : Type} {C : CRing K}.
  Local Open Scope K_scope.
  Add Ring KringSa : (@rth K C).
  Notation qstate := (qstate (K:=K)).
  Notation dist := (dist (K:=K)).
  Notation chead := (chead (K:=K)).
  Notation csaver := (csaver (K:=K)).
  Notation heads := (map (ch_head (K:=K))).

  Variables (s2 : K) (n : nat).
  Hypothesis (Hs2 : s2 * s2 + s2 * s2 = 1) (Hn : (0 < n)%nat).

  (** [d] is the exact outcome distribution of the state [psi] measured in the
      basis of the head [h]; outcomes of probability zero may be missing. *)
  Definition faithful (psi : qstate) (h : pauli) (d : dist) : Prop :=
    d <> [] /\ NoDup (map fst d) /\ Forall (fun kv : N * K => In (fst kv) (alldets n)) d /\
    forall x, In x (alldets n) -> at_key x d = cnorm2 (run s2 (to_CBS_measurement h) psi x).

  Lemma lsum_keys (d : dist) (l : list N) (g : N -> K) : NoDup (map fst d) -> NoDup l -> Forall (fun kv : N * K => In (fst kv) l) d ->
    lsum d (fun kv => snd kv * g (fst kv)) = lsum l (fun x => at_key x d * g x).
  Proof.
    intros Hd Hl. induction d as [|[k v] d IH]; intros Hin.
    - rewrite (lsum_zero l); [reflexivity|]. intros x _. rewrite at_nil. ring.
    - inversion_clear Hd as [|? ? Hk Hd']. inversion_clear Hin as [|? ? Hkl Hin']. rewrite lsum_cons, IH by assumption. cbn [fst snd].
      assert (forall l, NoDup l -> In k l -> lsum l (fun x => at_key x ((k, v) :: d) * g x) = v * g k + lsum l (fun x => at_key x d * g x)) as H; [|now rewrite H].
      assert (at_key k d = 0) as H0 by (unfold at_key; now rewrite zget_none).
      clear - Hk H0. induction l as [|y l IH]; intros Hnd Hi; [destruct Hi|]. inversion_clear Hnd as [|? ? Hy Hnd']. rewrite !lsum_cons, !at_cons.
      destruct (N.eqb_spec y k) as [->|Hne].
      + rewrite H0. rewrite (lsum_ext l _ (fun x => at_key x d * g x)); [ring|]. intros x Hx. rewrite at_cons. destruct (N.eqb_spec x k); [congruence|reflexivity].
      + destruct Hi as [Hi|Hi]; [congruence|]. rewrite IH by assumption. ring.
  Qed.
  Lemma signed_sum_eq p (d : dist) : p <> [] -> signed_sum p d = Ok (lsum d (fun kv => snd kv * sgn (parity p (fst kv)) 1)).
  Proof.
    intros Hp. unfold signed_sum.
    assert (forall d r, fold_left (fun r kv => bind r (fun r => bind (get_bitstring_sign p (fst kv)) (fun s => Ok (r + snd kv * s)))) d (Ok r)
              = Ok (r + lsum d (fun kv : N * K => snd kv * sgn (parity p (fst kv)) 1))) as H; [|rewrite H; f_equal; ring].
    clear d. induction d as [|kv d IH]; intros r; [cbn; f_equal; ring|]. cbn [fold_left bind]. rewrite bitstring_sign by assumption. cbn [bind]. rewrite IH, lsum_cons. f_equal. ring.
  Qed.
  Definition expectation (psi : qstate) (p : pauli) : K := fst (cip n psi (pauli_app p psi)).
  Lemma signed_sum_faithful psi p h d : measured_by p h -> List.length p = n -> faithful psi h d -> signed_sum p d = Ok (expectation psi p).
  Proof.
    intros Hm Hl (Hne & Hnd & Hin & Hv). rewrite signed_sum_eq by (intros ->; cbn in Hl; lia). f_equal.
    rewrite (lsum_keys d (alldets n) (fun x => sgn (parity p x) 1)) by (assumption || apply alldets_NoDup). unfold expectation. rewrite <- Hl. rewrite (measurement_exact s2 p h psi) by assumption.
    cbn [fst cre]. apply lsum_ext. rewrite Hl. intros x Hx. now rewrite Hv.
  Qed.

  (** ** Invariant of the heads *)
  (** [P8] constrains the data stored under the key of post-selection alone. *)
  Variable P8 : qstate -> pauli -> dist -> Prop.
  Definition hinv (psi : qstate) (c : chead) : Prop :=
    (ch_distr c = saver_init \/ exists d, zget 0%N (ch_distr c) = Some d /\ faithful psi (ch_head c) d) /\
    forall d, zget 8%N (ch_distr c) = Some d -> d = [] \/ P8 psi (ch_head c) d.

  Definition full (psi : qstate) (c : chead) : Prop := (exists d, zget 0%N (ch_distr c) = Some d /\ faithful psi (ch_head c) d) /\
    forall d, zget 8%N (ch_distr c) = Some d -> d = [] \/ P8 psi (ch_head c) d.

  Lemma nonnil {A} (l : list A) : l <> [] -> is_nil l = false.
  Proof. now destruct l. Qed.
  Lemma hinv_init psi h : hinv psi (new_chead h).
  Proof. split; [now left|]. intros d Hd. discriminate. Qed.
  Lemma hinv_empty psi c : hinv psi c -> saver_is_empty (ch_distr c) None = Ok true /\ ch_distr c = saver_init \/ saver_is_empty (ch_distr c) None = Ok false /\ full psi c.
  Proof.
    intros [[E|(d & E & F)] H8]; [left; rewrite E; auto|right]. split; [|split; [eauto|exact H8]].
    unfold saver_is_empty. cbn [mit_int]. rewrite E, nonnil by apply F. reflexivity.
  Qed.
  Lemma place_hinv psi p cl : Forall (hinv psi) cl -> Forall (hinv psi) (place p cl).
  Proof.
    induction cl as [|c cl IH]; intros H; cbn [place]; [constructor; [apply hinv_init|constructor]|].
    inversion_clear H as [|? ? Hc Hcl]. destruct (fit_in_clique p (ch_head c)) as [b h]. destruct b; [|constructor; auto].
    constructor; [|exact Hcl]. destruct (pauli_eqb h (ch_head c)) eqn:E; cbn [negb].
    - apply pauli_eqb_eq in E as ->. now destruct c.
    - apply hinv_init.
  Qed.
  Lemma add_hinv psi ps cl : Forall (hinv psi) cl -> Forall (hinv psi) (fst (add_paulis ps cl)).
  Proof.
    intros H. unfold add_paulis.
    assert (forall l cl, Forall (hinv psi) cl -> Forall (hinv psi) (fold_left (fun cl p => place p cl) l cl)) as Hf.
    { induction l as [|p l IH]; intros cl0 H0; [exact H0|]. cbn. apply IH. now apply place_hinv. }
    destruct cl as [|c cl]; [destruct ps; [exact H|]|]; cbn [fst]; apply Hf; [|exact H]. constructor; [apply hinv_init|constructor].
  Qed.
  Definition empty_raw (c : chead) : bool := match saver_is_empty (ch_distr c) None with Ok b => b | _ => false end.
  Lemma empty_heads_hinv psi cl : Forall (hinv psi) cl -> empty_heads None cl = Ok (heads (filter empty_raw cl)).
  Proof.
    induction 1 as [|c cl Hc _ IH]; [reflexivity|]. cbn [empty_heads filter]. unfold empty_raw at 1.
    destruct (hinv_empty psi c Hc) as [[E _]|[E _]]; rewrite E, IH; reflexivity.
  Qed.

  (** ** Updating *)
  Definition put (f : option flags) (h : pauli) (d : dist) (c : chead) : chead :=
    if pauli_eqb h (ch_head c) then {| ch_head := ch_head c; ch_distr := saver_add (ch_distr c) d f |} else c.
  Lemma upd_head_eq h d f cl : Forall (fun c : chead => ch_head c = h -> saver_is_empty (ch_distr c) f = Ok true) cl ->
    upd_head h d f cl = (map (put f h d) cl, Ok tt).
  Proof.
    induction 1 as [|c cl Hc _ IH]; [reflexivity|]. cbn [upd_head map]. unfold put at 1. destruct (pauli_eqb h (ch_head c)) eqn:E.
    - apply pauli_eqb_eq in E. rewrite Hc by auto. now rewrite IH.
    - now rewrite IH.
  Qed.
  Definition puts (f : option flags) (hds : list (pauli * dist)) (cl : list chead) : list chead :=
    fold_left (fun cl hd => map (put f (fst hd) (snd hd)) cl) hds cl.
  Lemma put_head f h d c : ch_head (put f h d c) = ch_head c.
  Proof. unfold put. now destruct (pauli_eqb h (ch_head c)). Qed.
  Lemma fold_upd f hds : forall cl, NoDup (map fst hds) ->
    Forall (fun c : chead => In (ch_head c) (map fst hds) -> saver_is_empty (ch_distr c) f = Ok true) cl ->
    fold_left (fun (s : list chead * Res unit) hd => let '(cl, o) := s in
                      match o with Ok _ => upd_head (fst hd) (snd hd) f cl | _ => s end) hds (cl, Ok tt) = (puts f hds cl, Ok tt).
  Proof.
    induction hds as [|[h d] hds IH]; intros cl Hnd He; [reflexivity|]. inversion_clear Hnd as [|? ? Hh Hnd'].
    cbn [fold_left fst snd puts]. rewrite upd_head_eq.
    - apply IH; [exact Hnd'|]. apply Forall_forall. intros c Hc. apply in_map_iff in Hc as (c0 & <- & Hc0). rewrite put_head. intros Hi.
      unfold put. destruct (pauli_eqb h (ch_head c0)) eqn:E; [apply pauli_eqb_eq in E; rewrite <- E in Hi; elim Hh; exact Hi|].
      rewrite Forall_forall in He. apply He; [exact Hc0|]. now right.
    - apply Forall_forall. intros c Hc E. rewrite Forall_forall in He. apply He; [exact Hc|]. left. now symmetry.
  Qed.
  (** What a head stores after the update. *)
  Fixpoint lookup_head (h : pauli) (hds : list (pauli * dist)) : option dist :=
    match hds with [] => None | (h', d) :: r => if pauli_eqb h' h then Some d else lookup_head h r end.
  Definition putc (f : option flags) (hds : list (pauli * dist)) (c : chead) : chead :=
    match lookup_head (ch_head c) hds with Some d => {| ch_head := ch_head c; ch_distr := saver_add (ch_distr c) d f |} | None => c end.
  Lemma lookup_head_none h hds : ~ In h (map fst hds) -> lookup_head h hds = None.
  Proof.
    induction hds as [|[h' d] r IH]; cbn; intros H; [reflexivity|]. destruct (pauli_eqb h' h) eqn:E; [apply pauli_eqb_eq in E; elim H; auto|]. apply IH. auto.
  Qed.
  Lemma lookup_head_in h hds d : lookup_head h hds = Some d -> In (h, d) hds.
  Proof.
    induction hds as [|[h' d'] r IH]; cbn; [discriminate|]. destruct (pauli_eqb h' h) eqn:E; [apply pauli_eqb_eq in E as ->; intros H; injection H as ->; auto|auto].
  Qed.
  Lemma lookup_head_some h hds : In h (map fst hds) -> exists d, lookup_head h hds = Some d.
  Proof.
    induction hds as [|[h' d'] r IH]; cbn; [easy|]. intros [->|H]; [rewrite pauli_eqb_refl; eauto|]. destruct (pauli_eqb h' h); [eauto|auto].
  Qed.
  Lemma puts_map f hds : forall cl, NoDup (map fst hds) -> puts f hds cl = map (putc f hds) cl.
  Proof.
    induction hds as [|[h d] hds IH]; intros cl Hnd; [unfold putc; cbn; now rewrite map_id|]. inversion_clear Hnd as [|? ? Hh Hnd'].
    cbn [puts fold_left fst snd]. change (fold_left _ hds ?s) with (puts f hds s). rewrite IH, map_map by assumption. apply map_ext. intros c.
    unfold putc at 1. rewrite put_head. unfold putc, put. cbn [lookup_head]. destruct (pauli_eqb h (ch_head c)) eqn:E.
    - apply pauli_eqb_eq in E. rewrite lookup_head_none by (rewrite <- E; exact Hh). reflexivity.
    - reflexivity.
  Qed.
  Lemma update_distr_eq f hds cl : NoDup (map fst hds) ->
    Forall (fun c : chead => In (ch_head c) (map fst hds) -> saver_is_empty (ch_distr c) f = Ok true) cl ->
    update_distr (map fst hds) (map snd hds) f cl =
      (map (putc f hds) cl, bind (empty_heads f (map (putc f hds) cl)) (fun l => if is_nil l then Ok tt else Raise ValueError)).
  Proof.
    intros Hnd He. unfold update_distr.
    assert (combine (map fst hds) (map snd hds) = hds) as -> by (clear; induction hds as [|[h d] l IH]; cbn; congruence).
    rewrite fold_upd, puts_map by assumption. reflexivity.
  Qed.
  Lemma empty_heads_full f cl : Forall (fun c : chead => saver_is_empty (ch_distr c) f = Ok false) cl -> empty_heads f cl = Ok [].
  Proof. induction 1 as [|c cl Hc _ IH]; [reflexivity|]. cbn. now rewrite Hc, IH. Qed.

  Lemma conflict_irrefl h : ~ conflict h h.
  Proof. intros (i & _ & _ & H). now apply H. Qed.
  Lemma all_conflict_NoDup hs : all_conflict hs -> NoDup hs.
  Proof.
    induction hs as [|h hs IH]; cbn; [constructor|]. intros [H1 H2]. constructor; [|auto]. intros Hi. rewrite Forall_forall in H1. exact (conflict_irrefl h (H1 h Hi)).
  Qed.
  Lemma nodup_map_filter (P : chead -> bool) cl : NoDup (heads cl) -> NoDup (heads (filter P cl)).
  Proof.
    induction cl as [|c cl IH]; cbn; [constructor|]. intros H. inversion_clear H as [|? ? Hc Hcl]. destruct (P c); cbn; [|auto]. constructor; [|auto].
    intros Hi. apply Hc. apply in_map_iff in Hi as (y & Hy & Hi). apply filter_In in Hi as [Hi _]. apply in_map_iff. eauto.
  Qed.
  Lemma head_inj cl c c' : NoDup (heads cl) -> In c cl -> In c' cl -> ch_head c = ch_head c' -> c = c'.
  Proof.
    induction cl as [|a cl IH]; intros Hnd H H' E; [destruct H|]. inversion_clear Hnd as [|? ? Ha Hcl].
    destruct H as [<- |H], H' as [<- |H']; auto; [elim Ha; rewrite E; now apply in_map|elim Ha; rewrite <- E; now apply in_map].
  Qed.

  (** The raw step: every head ends with its own distribution. *)
  Lemma raw_step psi (device : pauli -> dist) ps cl : Forall (hinv psi) cl -> cinv n cl -> ps <> [] -> Forall (fun p => List.length p = n) ps ->
    (forall h, List.length h = n -> faithful psi h (device h)) ->
    let '(cl1, rh) := add_paulis ps cl in
    exists new_heads, rh = Ok new_heads /\
      let '(cl2, ro) := if negb (List.length new_heads =? 0)%nat then update_distr new_heads (map device new_heads) None cl1 else (cl1, Ok tt) in
      ro = Ok tt /\ heads cl2 = heads cl1 /\ Forall (full psi) cl2.
  Proof.
    intros Hcl Hinv Hps Hlen Hdev. pose proof (add_hinv psi ps cl Hcl) as H1. destruct (add_paulis_inv n ps cl Hlen Hinv) as [I1 _].
    rewrite (add_paulis_eq n) in * by assumption. cbn [fst] in *. set (cl1 := fold_left _ (sorted_rev ps) (start n cl)) in *. clearbody cl1.
    rewrite (empty_heads_hinv psi) by assumption. eexists. split; [reflexivity|]. set (E := filter empty_raw cl1).
    assert (Forall (fun c => In (ch_head c) (heads E) <-> empty_raw c = true) cl1) as HE.
    { apply Forall_forall. intros c Hc. split.
      - intros Hi. apply in_map_iff in Hi as (c' & E' & Hi). apply filter_In in Hi as [Hi He].
        rewrite (head_inj cl1 c c'); auto. apply all_conflict_NoDup. apply I1.
      - intros He. apply in_map. apply filter_In. auto. }
    assert (forall c, In c cl1 -> empty_raw c = false -> full psi c) as Hfull.
    { intros c Hc He. rewrite Forall_forall in H1. destruct (hinv_empty psi c (H1 c Hc)) as [[E1 _]|[_ Hf]]; [|exact Hf]. unfold empty_raw in He. rewrite E1 in He. discriminate. }
    destruct (Nat.eqb_spec (List.length (heads E)) 0) as [H0|H0]; cbn [negb].
    - split; [reflexivity|]. split; [reflexivity|]. apply Forall_forall. intros c Hc. apply Hfull; [exact Hc|].
      destruct (empty_raw c) eqn:Ec; [|reflexivity]. rewrite Forall_forall in HE. apply (HE c Hc) in Ec. destruct (heads E); [destruct Ec|discriminate].
    - set (hds := map (fun h => (h, device h)) (heads E)).
      assert (map fst hds = heads E) as F1 by (unfold hds; rewrite map_map; apply map_id).
      assert (map snd hds = map device (heads E)) as F2 by (unfold hds; now rewrite map_map).
      replace (update_distr (heads E) (map device (heads E)) None cl1) with (update_distr (map fst hds) (map snd hds) None cl1) by now rewrite F1, F2.
      rewrite update_distr_eq.
      + set (cl2 := map (putc None hds) cl1).
        assert (Forall (full psi) cl2) as Hcl2.
        { apply Forall_forall. intros c2 Hc2. apply in_map_iff in Hc2 as (c & <- & Hc). unfold putc.
          destruct (lookup_head (ch_head c) hds) as [d|] eqn:El.
          - apply lookup_head_in in El. unfold hds in El. apply in_map_iff in El as (h & Eh & Hh). injection Eh as -> <-.
            split; cbn [ch_distr ch_head].
            + exists (device (ch_head c)). unfold saver_add. cbn [mit_int]. rewrite zget_zset_same. split; [reflexivity|]. apply Hdev.
              destruct I1 as [Il _]. rewrite Forall_forall in Il. now apply Il.
            + intros d. unfold saver_add. cbn [mit_int]. rewrite zget_zset_other by discriminate. rewrite Forall_forall in H1. apply (H1 c Hc).
          - apply Hfull; [exact Hc|]. destruct (empty_raw c) eqn:Ec; [|reflexivity]. rewrite Forall_forall in HE. apply (HE c Hc) in Ec.
            rewrite <- F1 in Ec. apply lookup_head_some in Ec as (d & Ed). congruence. }
        split; [|split].
        * rewrite empty_heads_full; [reflexivity|]. apply Forall_forall. intros c Hc. rewrite Forall_forall in Hcl2. destruct (Hcl2 c Hc) as [(d & Ed & Hd) _].
          unfold saver_is_empty. cbn [mit_int]. rewrite Ed, nonnil by apply Hd. reflexivity.
        * unfold cl2. rewrite map_map. apply map_ext. intros c. unfold putc. now destruct (lookup_head (ch_head c) hds).
        * exact Hcl2.
      + rewrite F1. apply nodup_map_filter. apply all_conflict_NoDup. apply I1.
      + rewrite F1. apply Forall_forall. intros c Hc Hi. rewrite Forall_forall in HE. apply (HE c Hc) in Hi. unfold empty_raw in Hi.
        rewrite Forall_forall in H1. destruct (hinv_empty psi c (H1 c Hc)) as [[E1 _]|[E1 _]]; [exact E1|]. rewrite E1 in Hi. discriminate.
  Qed.

  (** ** Mitigation *)
  Variable cf : config (K:=K).
  Definition ps1 (hd : pauli * dist) : Res dist :=
    if negb (existsb (letter_eqb LX) (fst hd)) && negb (existsb (letter_eqb LY) (fst hd))
    then postselection (cf_div cf) (snd hd) (cf_mapper cf) (cf_elec cf) (cf_qubits cf) else Ok (snd hd).
  Notation aps := (apply_postselection (cf_div cf) (cf_mapper cf) (cf_elec cf) (cf_qubits cf)).
  Lemma aps_inv l : forall l', aps l = Ok l' -> Forall2 (fun hd hd' : pauli * dist => fst hd' = fst hd /\ ps1 hd = Ok (snd hd')) l l'.
  Proof.
    unfold apply_postselection. induction l as [|hd l IH]; intros l' H; cbn [fold_right] in H; [injection H as <-; constructor|].
    match type of H with bind ?x _ = _ => destruct x as [r|e|] eqn:E; [|discriminate|discriminate] end. cbn [bind] in H. specialize (IH r eq_refl).
    unfold ps1. destruct (negb _ && negb _) eqn:E2.
    - match type of H with bind ?x _ = _ => destruct x as [d|e|] eqn:E3; [|discriminate|discriminate] end. cbn [bind] in H. injection H as <-. constructor; [|exact IH]. cbn [fst snd]. split; [reflexivity|].
      match goal with |- (if ?b then _ else _) = _ => replace b with true by (symmetry; exact E2) end. exact E3.
    - injection H as <-. constructor; [|exact IH]. split; [reflexivity|].
      match goal with |- (if ?b then _ else _) = _ => replace b with false by (symmetry; exact E2) end. reflexivity.
  Qed.
  Lemma aps_ok (g : pauli * dist -> dist) l : Forall (fun hd => ps1 hd = Ok (g hd)) l -> aps l = Ok (map (fun hd => (fst hd, g hd)) l).
  Proof.
    unfold apply_postselection. induction 1 as [|hd l H _ IH]; [reflexivity|]. cbn [fold_right map]. rewrite IH. cbn [bind]. unfold ps1 in H.
    destruct hd as [h d]. cbn [fst snd] in *. revert H. unfold pauli in *. destruct (negb (existsb (letter_eqb LX) h) && negb (existsb (letter_eqb LY) h)); intros H; [now rewrite H|]. injection H as H. now rewrite <- H.
  Qed.

  Lemma upd_head_preserves (Q : chead -> Prop) h d f cl : Forall Q cl ->
    (forall c, Q c -> ch_head c = h -> Q {| ch_head := ch_head c; ch_distr := saver_add (ch_distr c) d f |}) -> Forall Q (fst (upd_head h d f cl)).
  Proof.
    intros H Hadd. induction H as [|c cl Hc Hcl IH]; [constructor|]. cbn [upd_head]. destruct (pauli_eqb h (ch_head c)) eqn:E.
    - apply pauli_eqb_eq in E. destruct (saver_is_empty (ch_distr c) f) as [[|]| |]; try (now constructor).
      destruct (upd_head h d f cl) as [r o]. cbn [fst] in *. constructor; [|exact IH]. apply Hadd; auto.
    - destruct (upd_head h d f cl) as [r o]. cbn [fst] in *. now constructor.
  Qed.
  Lemma update_preserves (Q : chead -> Prop) hds f cl : Forall Q cl ->
    (forall h d c, In (h, d) hds -> Q c -> ch_head c = h -> Q {| ch_head := ch_head c; ch_distr := saver_add (ch_distr c) d f |}) ->
    Forall Q (fst (update_distr (map fst hds) (map snd hds) f cl)).
  Proof.
    intros H Hadd. unfold update_distr.
    assert (combine (map fst hds) (map snd hds) = hds) as -> by (clear; induction hds as [|[h d] l IH]; cbn; congruence).
    assert (forall l (s : list chead * Res unit), (forall h d, In (h, d) l -> In (h, d) hds) -> Forall Q (fst s) -> Forall Q (fst (fold_left (fun (s : list chead * Res unit) hd => let '(cl, o) := s in
                      match o with Ok _ => upd_head (fst hd) (snd hd) f cl | _ => s end) l s))) as Hf.
    { induction l as [|[h d] l IH]; intros [cl0 o] Hin Hs; [exact Hs|]. cbn [fold_left]. apply IH; [intros; apply Hin; now right|].
      destruct o; [|exact Hs|exact Hs]. cbn [fst snd]. apply upd_head_preserves; [exact Hs|]. intros c Hc E. apply (Hadd h d c); auto. apply Hin. now left. }
    specialize (Hf hds (cl, Ok tt) (fun h d H => H) H). destruct (fold_left _ hds (cl, Ok tt)) as [cl' o]. exact Hf.
  Qed.

  Definition raw (c : chead) : dist := match zget 0%N (ch_distr c) with Some d => d | None => [] end.
  Definition empty_at (fl : flags) (c : chead) : bool := match zget (to_int fl) (ch_distr c) with Some d => is_nil d | None => true end.
  Lemma is_empty_at fl (c : chead) : to_int fl <> 0%N -> saver_is_empty (ch_distr c) (Some fl) = Ok (empty_at fl c).
  Proof.
    intros H. unfold saver_is_empty, empty_at. cbn [mit_int]. destruct (zget (to_int fl) (ch_distr c)) as [d|]; [|reflexivity].
    destruct d; cbn [is_nil negb]; [|reflexivity]. apply N.eqb_neq in H. now rewrite H.
  Qed.
  Lemma gehd_eq psi fl cl : to_int fl <> 0%N -> Forall (full psi) cl ->
    get_empty_heads_distr fl cl = Ok (map (fun c => (ch_head c, raw c)) (filter (empty_at fl) cl)).
  Proof.
    intros Hk. induction 1 as [|c cl Hc _ IH]; [reflexivity|]. cbn [get_empty_heads_distr filter]. rewrite is_empty_at by assumption. cbn [bind].
    destruct (empty_at fl c); [|exact IH]. destruct Hc as [(d & Ed & _) _]. unfold saver_get, raw at 1. cbn [mit_int]. rewrite Ed. cbn [bind]. rewrite IH. cbn [bind map].
    unfold raw. now rewrite Ed.
  Qed.
  (** The state of the device allows post-selection to keep the constraint [P8]. *)
  Definition ps_ok (psi : qstate) : Prop := forall h d d', List.length h = n -> faithful psi h d -> ps1 (h, d) = Ok d' -> P8 psi h d'.

  Lemma to_int_8 fl : to_int fl = 8%N -> do_M_mitigation fl = false /\ do_postselection fl = true.
  Proof. destruct fl as [[|] [|] [|] [|]]; vm_compute; intros H; try discriminate H; auto. Qed.
  Lemma full_add psi fl d c : full psi c -> to_int fl <> 0%N -> (to_int fl = 8%N -> P8 psi (ch_head c) d) ->
    full psi {| ch_head := ch_head c; ch_distr := saver_add (ch_distr c) d (Some fl) |}.
  Proof.
    intros [(d0 & E0 & F0) H8] Hk HP. split; cbn [ch_head ch_distr]; unfold saver_add; cbn [mit_int].
    - exists d0. rewrite zget_zset_other by congruence. auto.
    - intros d1. destruct (N.eq_dec (to_int fl) 8) as [E8|E8].
      + rewrite E8, zget_zset_same. intros H. injection H as <-. right. auto.
      + rewrite zget_zset_other by congruence. apply H8.
  Qed.
  Lemma full_raw psi c : full psi c -> zget 0%N (ch_distr c) = Some (raw c) /\ faithful psi (ch_head c) (raw c).
  Proof. intros [(d & Ed & Fd) _]. unfold raw. rewrite Ed. auto. Qed.

  (** The sampler, up to the evaluation of the observable. *)
  Definition mitigate (fl : flags) (cl : list chead) : list chead * Res unit :=
    if is_enabled fl then
      match get_empty_heads_distr fl cl with
      | Ok hds =>
          if negb (List.length hds =? 0)%nat then
            match bind (if do_M_mitigation fl then cf_M cf hds else Ok hds) (fun hds =>
                  if do_postselection fl then aps hds else Ok hds) with
            | Ok hds => update_distr (map fst hds) (map snd hds) (Some fl) cl
            | Raise e => (cl, Raise e)
            | Hang => (cl, Hang)
            end
          else (cl, Ok tt)
      | Raise e => (cl, Raise e)
      | Hang => (cl, Hang)
      end
    else (cl, Ok tt).
  Lemma enabled_int fl : is_enabled fl = true -> to_int fl <> 0%N.
  Proof. unfold is_enabled. destruct (N.eqb_spec (to_int fl) 0); [discriminate|auto]. Qed.

  Lemma mitigate_inv psi fl cl : ps_ok psi -> cinv n cl -> Forall (full psi) cl ->
    heads (fst (mitigate fl cl)) = heads cl /\ Forall (full psi) (fst (mitigate fl cl)).
  Proof.
    intros Hps Hinv Hcl. unfold mitigate. destruct (is_enabled fl) eqn:En; [|auto]. apply enabled_int in En.
    rewrite (gehd_eq psi) by assumption. destruct (negb _); [|auto]. set (hds0 := map (fun c : chead => (ch_head c, raw c)) _).
    destruct (bind _ _) as [hds| |] eqn:Eb; [|auto|auto]. split; [apply update_distr_heads|].
    apply update_preserves; [exact Hcl|]. intros h d c Hi Hc Eh. apply full_add; [exact Hc|exact En|]. intros E8.
    apply to_int_8 in E8 as [EM EP]. rewrite EM, EP in Eb. cbn [bind] in Eb. apply aps_inv in Eb.
    apply In_nth_error in Hi as [i Hi]. clear En.
    assert (exists hd, In hd hds0 /\ fst hd = h /\ ps1 hd = Ok d) as (hd & Hin & Ehd & Ed).
    { clear - Eb Hi. revert i Hi. induction Eb as [|x y l l' [E1 E2] _ IH]; intros [|i] Hi; cbn in Hi; try discriminate.
      - injection Hi as ->. exists x. cbn in *. auto.
      - destruct (IH i Hi) as (hd & A & B & D). exists hd. cbn. auto. }
    apply in_map_iff in Hin as (c0 & <- & Hc0). apply filter_In in Hc0 as [Hc0 _]. cbn [fst] in Ehd.
    rewrite Forall_forall in Hcl. destruct (full_raw psi c0 (Hcl c0 Hc0)) as [_ Hf]. rewrite Eh. rewrite Ehd in *. apply (Hps h (raw c0) d); [|exact Hf|exact Ed].
    destruct Hinv as [Hl _]. rewrite Forall_forall in Hl. rewrite <- Ehd. now apply Hl.
  Qed.

  Lemma sampler_eq fl device opt obs old :
    sampler_value cf fl device opt obs old =
      (let cl := match old with None => [] | Some (o, cl) => if (o =? opt)%nat then cl else [] end in
       let '(cl1, rh) := add_paulis (map fst obs) cl in
       let '(cl2, ro) := match rh with
         | Ok new_heads => if negb (List.length new_heads =? 0)%nat then update_distr new_heads (map device new_heads) None cl1 else (cl1, Ok tt)
         | Raise e => (cl1, Raise e) | Hang => (cl1, Hang) end in
       let '(cl3, ro) := match ro with Ok _ => mitigate fl cl2 | _ => (cl2, ro) end in
       ((opt, cl3), bind ro (fun _ => fold_left (fun values pc => bind values (fun values =>
         bind (get_distr (fst pc) (Some fl) cl3) (fun d => bind (signed_sum (fst pc) d) (fun result => Ok (values + result * snd pc))))) obs (Ok 0)))).
  Proof. reflexivity. Qed.

  Definition prev (opt : nat) (old : option entry) : list chead := match old with None => [] | Some (o, cl) => if (o =? opt)%nat then cl else [] end.

  (** Everything the sampler does, in one lemma. *)
  Lemma sampler_run psi fl device opt obs old : ps_ok psi -> Forall (hinv psi) (prev opt old) -> cinv n (prev opt old) ->
    obs <> [] -> Forall (fun pc : pauli * K => List.length (fst pc) = n) obs ->
    (forall h, List.length h = n -> faithful psi h (device h)) ->
    exists cl2, Forall (full psi) cl2 /\ cinv n cl2 /\ Forall (fun pc : pauli * K => served (fst pc) cl2) obs /\
      sampler_value cf fl device opt obs old =
        ((opt, fst (mitigate fl cl2)), bind (snd (mitigate fl cl2)) (fun _ => fold_left (fun values pc => bind values (fun values =>
         bind (get_distr (fst pc) (Some fl) (fst (mitigate fl cl2))) (fun d => bind (signed_sum (fst pc) d) (fun result => Ok (values + result * snd pc))))) obs (Ok 0))).
  Proof.
    intros Hps Hcl Hinv Hobs Hlen Hdev. rewrite sampler_eq. fold (prev opt old). set (cl := prev opt old) in *. clearbody cl. cbv zeta.
    assert (map fst obs <> []) as Hne by (now destruct obs).
    assert (Forall (fun p => List.length p = n) (map fst obs)) as Hl by (apply Forall_map; exact Hlen).
    pose proof (raw_step psi device (map fst obs) cl Hcl Hinv Hne Hl Hdev) as Hraw.
    pose proof (add_paulis_inv n (map fst obs) cl Hl Hinv) as Hadd.
    destruct (add_paulis (map fst obs) cl) as [cl1 rh]. destruct Hraw as (new & -> & Hraw).
    destruct (if negb _ then _ else _) as [cl2 ro]. destruct Hraw as (-> & Hh & Hfull). cbn [fst] in *. destruct Hadd as [I1 Hs].
    exists cl2. split; [exact Hfull|]. assert (cinv n cl2) as I2 by (apply (cinv_heads n cl1); [now symmetry|exact I1]). split; [exact I2|].
    split.
    - apply Forall_forall. intros pc Hpc. specialize (Hs (fst pc) (or_introl (in_map fst _ _ Hpc))).
      apply (served_evolves (fst pc) cl1); [exact Hs|]. apply evolves_heads. now symmetry.
    - destruct (mitigate fl cl2) as [cl3 ro3]. reflexivity.
  Qed.

  Lemma eval_obs psi fl cl obs : cinv n cl -> Forall (fun pc : pauli * K => served (fst pc) cl) obs -> Forall (fun pc : pauli * K => List.length (fst pc) = n) obs ->
    Forall (fun c : chead => exists d, zget (to_int fl) (ch_distr c) = Some d /\ faithful psi (ch_head c) d) cl ->
    fold_left (fun values pc => bind values (fun values =>
         bind (get_distr (fst pc) (Some fl) cl) (fun d => bind (signed_sum (fst pc) d) (fun result => Ok (values + result * snd pc))))) obs (Ok 0)
    = Ok (lsum obs (fun pc => expectation psi (fst pc) * snd pc)).
  Proof.
    intros Hinv Hs Hl Hcl.
    assert (forall obs r, Forall (fun pc : pauli * K => served (fst pc) cl) obs -> Forall (fun pc : pauli * K => List.length (fst pc) = n) obs ->
      fold_left (fun values pc => bind values (fun values =>
         bind (get_distr (fst pc) (Some fl) cl) (fun d => bind (signed_sum (fst pc) d) (fun result => Ok (values + result * snd pc))))) obs (Ok r)
      = Ok (r + lsum obs (fun pc => expectation psi (fst pc) * snd pc))) as H; [|rewrite H by assumption; f_equal; ring].
    clear obs Hs Hl. induction obs as [|[p c] obs IH]; intros r Hs Hl; [cbn; f_equal; ring|].
    inversion_clear Hs as [|? ? Hp Hs']. inversion_clear Hl as [|? ? Hlp Hl']. cbn [fst] in *. cbn [fold_left bind fst snd].
    destruct (served_lookup n p cl Hinv Hlp Hp) as (hc & Hin & Hm & _ & Hg). rewrite Hg.
    rewrite Forall_forall in Hcl. destruct (Hcl hc Hin) as (d & Ed & Fd). unfold saver_is_empty, saver_get. cbn [mit_int]. rewrite Ed. rewrite nonnil by apply Fd. cbn [negb bind].
    rewrite (signed_sum_faithful psi p (ch_head hc) d) by assumption. cbn [bind]. rewrite IH by assumption. rewrite lsum_cons. cbn [fst snd]. f_equal. ring.
  Qed.

  Lemma sampler_inv psi fl device opt obs old : ps_ok psi -> Forall (hinv psi) (prev opt old) -> cinv n (prev opt old) ->
    obs <> [] -> Forall (fun pc : pauli * K => List.length (fst pc) = n) obs ->
    (forall h, List.length h = n -> faithful psi h (device h)) ->
    let e := fst (sampler_value cf fl device opt obs old) in fst e = opt /\ Forall (hinv psi) (snd e) /\ cinv n (snd e).
  Proof.
    intros Hps Hcl Hinv Hobs Hlen Hdev. destruct (sampler_run psi fl device opt obs old Hps Hcl Hinv Hobs Hlen Hdev) as (cl2 & Hf & I2 & _ & ->). cbn [fst snd].
    destruct (mitigate_inv psi fl cl2 Hps I2 Hf) as [Hh Hf3]. split; [reflexivity|]. split.
    - eapply Forall_impl; [|exact Hf3]. intros c [A B]. split; [now right|exact B].
    - apply (cinv_heads n cl2); [now symmetry|exact I2].
  Qed.
  Lemma sampler_raw psi fl device opt obs old : ps_ok psi -> Forall (hinv psi) (prev opt old) -> cinv n (prev opt old) ->
    obs <> [] -> Forall (fun pc : pauli * K => List.length (fst pc) = n) obs ->
    (forall h, List.length h = n -> faithful psi h (device h)) -> is_enabled fl = false ->
    snd (sampler_value cf fl device opt obs old) = Ok (lsum obs (fun pc => expectation psi (fst pc) * snd pc)).
  Proof.
    intros Hps Hcl Hinv Hobs Hlen Hdev En. destruct (sampler_run psi fl device opt obs old Hps Hcl Hinv Hobs Hlen Hdev) as (cl2 & Hf & I2 & Hs & ->). cbn [fst snd].
    unfold mitigate. rewrite En. cbn [fst snd bind]. apply eval_obs; auto. eapply Forall_impl; [|exact Hf]. intros c [Hd _].
    unfold is_enabled in En. destruct (N.eqb_spec (to_int fl) 0) as [->|]; [exact Hd|discriminate].
  Qed.
End Sampler.

(** ** Post-selection of an exact distribution *)
Section PostSampler.
  Context {K : Type} {C : CRing K}.
  Local Open Scope K_scope.
  Add Ring KringSb : (@rth K C).
  Notation qstate := (qstate (K:=K)).
  Notation dist := (dist (K:=K)).
  Notation chead := (chead (K:=K)).
  Variables (s2 : K) (n : nat) (cf : config (K:=K)).
  Hypothesis (Hs2 : s2 * s2 + s2 * s2 = 1) (Hn : (0 < n)%nat) (H10 : (1 : K) <> 0).
  Hypothesis (Hdiv : forall a, cf_div cf a 1 = Ok a) (Hm : cf_mapper cf <> OtherMapper).
  Notation faithful := (faithful s2 n).
  Definition sector (psi : qstate) : Prop :=
    (forall x, In x (alldets n) -> keeps (cf_mapper cf) (cf_elec cf) (cf_qubits cf) x = false -> cnorm2 (psi x) = 0) /\
    lsum (alldets n) (fun x => cnorm2 (psi x)) = 1.

  Lemma no_rotation h : negb (existsb (letter_eqb LX) h) && negb (existsb (letter_eqb LY) h) = true -> to_CBS_measurement (K:=K) h = [].
  Proof.
    intros H. apply andb_prop in H as [HX HY]. apply negb_true_iff in HX, HY. unfold to_CBS_measurement.
    assert (Forall (fun ip : nat * letter => snd ip <> LX /\ snd ip <> LY) (combine (seq 0 (List.length h)) (rev h))) as HF.
    { apply Forall_forall. intros [i l] Hi. apply in_combine_r in Hi. apply in_rev in Hi. cbn. split; intros ->.
      - enough (existsb (letter_eqb LX) h = true) by congruence. apply existsb_exists. exists LX. auto.
      - enough (existsb (letter_eqb LY) h = true) by congruence. apply existsb_exists. exists LY. auto. }
    induction HF as [|[i l] L [A B] _ IH]; [reflexivity|]. cbn in *. destruct l; auto; congruence.
  Qed.
  Lemma at_filter (P : N -> bool) x (d : dist) : at_key x (filter (fun kv => P (fst kv)) d) = if P x then at_key x d else 0.
  Proof.
    induction d as [|[k v] d IH]; cbn [filter fst]; [rewrite at_nil; now destruct (P x)|]. rewrite at_cons. destruct (N.eqb_spec x k) as [->|Hne].
    - destruct (P k) eqn:E; [rewrite at_cons, N.eqb_refl; reflexivity|]. rewrite IH. now rewrite ?E.
    - destruct (P k); [rewrite at_cons|]; rewrite ?IH; [|reflexivity]. destruct (N.eqb_spec x k); [congruence|reflexivity].
  Qed.
  Lemma weight_filter (P : N -> bool) (d : dist) : weight (filter (fun kv => P (fst kv)) d) = lsum d (fun kv => snd kv * (if P (fst kv) then 1 else 0)).
  Proof.
    induction d as [|[k v] d IH]; [reflexivity|]. cbn [filter fst]. rewrite lsum_cons, <- IH. cbn [fst snd]. destruct (P k); [rewrite weight_cons; cbn [snd]; ring|ring].
  Qed.

  Lemma ps_live psi h d : sector psi -> faithful psi h d -> exists d', ps1 cf (h, d) = Ok d' /\ faithful psi h d'.
  Proof.
    intros [Hsec H1] Hf. unfold ps1. cbn [fst snd]. destruct (negb _ && negb _) eqn:E; [|eauto].
    apply no_rotation in E. destruct Hf as (Hne & Hnd & Hin & Hv). rewrite E in Hv. cbn [run fold_left] in Hv.
    set (P := keeps (cf_mapper cf) (cf_elec cf) (cf_qubits cf)) in *. set (kept := filter (fun kv : N * K => P (fst kv)) d).
    assert (weight kept = 1) as HW.
    { unfold kept. rewrite weight_filter. rewrite (lsum_keys d (alldets n) (fun x => if P x then 1 else 0)) by (assumption || apply alldets_NoDup).
      transitivity (lsum (alldets n) (fun x => cnorm2 (psi x))); [|exact H1]. apply lsum_ext. intros x Hx. rewrite Hv by assumption. destruct (P x) eqn:EP; [ring|]. rewrite (Hsec x Hx EP). ring. }
    assert (postselection (cf_div cf) d (cf_mapper cf) (cf_elec cf) (cf_qubits cf) = Ok (map (fun kv => (fst kv, snd kv * 1)) kept)) as Hp.
    { rewrite postselection_eq by assumption. fold P. fold kept. rewrite HW. apply (divide_run (cf_div cf) 1 (fun a => a * 1)); [now apply nodup_filter_keys|].
      intros a. rewrite Hdiv. f_equal. ring. }
    eexists. split; [exact Hp|]. split; [|split; [|split]].
    - intros Hk. apply map_eq_nil in Hk. rewrite Hk in HW. apply H10. rewrite <- HW. reflexivity.
    - rewrite map_map. cbn [fst]. now apply nodup_filter_keys.
    - apply Forall_forall. intros kv Hkv. apply in_map_iff in Hkv as (kv0 & <- & Hkv0). cbn [fst]. apply filter_In in Hkv0 as [Hkv0 _].
      rewrite Forall_forall in Hin. now apply Hin.
    - intros x Hx. rewrite (at_map_key (fun v => v * 1)) by (cbv beta; ring). unfold kept. rewrite at_filter, Hv by assumption. rewrite E. cbn [run fold_left].
      destruct (P x) eqn:EP; [ring|]. rewrite (Hsec x Hx EP). ring.
  Qed.

  Notation full := (full s2 n faithful).
  Notation hinv := (hinv s2 n faithful).
  Lemma mitigate_ps psi fl cl : sector psi -> to_int fl = 8%N -> cinv n cl -> Forall (full psi) cl ->
    snd (mitigate cf fl cl) = Ok tt /\
    Forall (fun c : chead => exists d, zget (to_int fl) (ch_distr c) = Some d /\ faithful psi (ch_head c) d) (fst (mitigate cf fl cl)).
  Proof.
    intros Hsec E8 Hinv Hcl. assert (to_int fl <> 0%N) as Hk by (rewrite E8; discriminate).
    assert (forall c, In c cl -> empty_at fl c = false -> exists d, zget (to_int fl) (ch_distr c) = Some d /\ faithful psi (ch_head c) d) as Hold.
    { intros c Hc. unfold empty_at. rewrite E8. destruct (zget 8%N (ch_distr c)) as [d|] eqn:Ed; [|discriminate]. intros Hd. exists d. split; [reflexivity|].
      rewrite Forall_forall in Hcl. destruct (Hcl c Hc) as [_ H8]. destruct (H8 d Ed) as [->|H]; [discriminate|exact H]. }
    unfold mitigate. assert (is_enabled fl = true) as -> by (unfold is_enabled; now rewrite E8). rewrite (gehd_eq s2 n faithful psi) by assumption.
    destruct (to_int_8 fl E8) as [EM EP]. rewrite EM, EP. cbn [bind]. set (L := filter (empty_at fl) cl). rewrite map_length.
    destruct (Nat.eqb_spec (List.length L) 0) as [H0|H0]; cbn [negb].
    - split; [reflexivity|]. cbn [fst]. apply Forall_forall. intros c Hc. apply Hold; [exact Hc|]. destruct (empty_at fl c) eqn:Ee; [|reflexivity].
      assert (In c L) as Hi by (apply filter_In; auto). destruct L; [destruct Hi|discriminate].
    - set (g := fun hd : pauli * dist => match ps1 cf hd with Ok d => d | _ => [] end).
      assert (forall c, In c L -> ps1 cf (ch_head c, raw c) = Ok (g (ch_head c, raw c)) /\ faithful psi (ch_head c) (g (ch_head c, raw c))) as Hg.
      { intros c Hc. apply filter_In in Hc as [Hc _]. rewrite Forall_forall in Hcl. destruct (full_raw s2 n faithful psi c (Hcl c Hc)) as [_ Hf].
        destruct (ps_live psi _ _ Hsec Hf) as (d & Ed & Fd). unfold g. rewrite Ed. auto. }
      rewrite (aps_ok cf g).
      2: { apply Forall_forall. intros hd Hhd. apply in_map_iff in Hhd as (c & <- & Hc). now apply Hg. }
      set (hds := map (fun c => (ch_head c, g (ch_head c, raw c))) L).
      replace (map (fun hd : pauli * dist => (fst hd, g hd)) (map (fun c : chead => (ch_head c, raw c)) L)) with hds by (unfold hds; now rewrite map_map).
      assert (map fst hds = map (ch_head (K:=K)) L) as F1 by (unfold hds; now rewrite map_map).
      assert (NoDup (map (ch_head (K:=K)) cl)) as Hnd by (apply all_conflict_NoDup; apply Hinv).
      assert (forall c, In c cl -> In (ch_head c) (map fst hds) -> In c L) as HL.
      { intros c Hc Hi. rewrite F1 in Hi. apply in_map_iff in Hi as (c' & E' & Hi). pose proof Hi as Hi'. apply filter_In in Hi as [Hi _]. now rewrite (head_inj cl c c' Hnd Hc Hi (eq_sym E')). }
      rewrite update_distr_eq.
      + cbn [fst snd]. assert (Forall (fun c : chead => exists d, zget (to_int fl) (ch_distr c) = Some d /\ faithful psi (ch_head c) d) (map (putc (Some fl) hds) cl)) as HF.
        { apply Forall_forall. intros c2 Hc2. apply in_map_iff in Hc2 as (c & <- & Hc). unfold putc. destruct (lookup_head (ch_head c) hds) as [d|] eqn:El; cbn [ch_distr ch_head].
          - exists d. unfold saver_add. cbn [mit_int]. rewrite zget_zset_same. split; [reflexivity|]. apply lookup_head_in in El. unfold hds in El.
            apply in_map_iff in El as (c' & Ec & Hc'). injection Ec as Eh <-. rewrite <- Eh. now apply Hg.
          - apply Hold; [exact Hc|]. destruct (empty_at fl c) eqn:Ee; [|reflexivity]. assert (In c L) as Hi by (apply filter_In; auto).
            destruct (lookup_head_some (ch_head c) hds) as (d & Ed); [|congruence]. rewrite F1. now apply in_map. }
        split; [|exact HF]. rewrite empty_heads_full; [reflexivity|]. eapply Forall_impl; [|exact HF]. intros c (d & Ed & Fd).
        rewrite is_empty_at by assumption. unfold empty_at. rewrite Ed. now rewrite nonnil by apply Fd.
      + rewrite F1. apply nodup_map_filter. exact Hnd.
      + apply Forall_forall. intros c Hc Hi. rewrite is_empty_at by assumption. apply HL in Hi; [|exact Hc]. apply filter_In in Hi as [_ ->]. reflexivity.
  Qed.
  Lemma sampler_ps psi fl device opt obs old : sector psi -> Forall (hinv psi) (prev opt old) -> cinv n (prev opt old) ->
    obs <> [] -> Forall (fun pc : pauli * K => List.length (fst pc) = n) obs ->
    (forall h, List.length h = n -> faithful psi h (device h)) -> to_int fl = 8%N ->
    snd (sampler_value cf fl device opt obs old) = Ok (lsum obs (fun pc => expectation n psi (fst pc) * snd pc)).
  Proof.
    intros Hsec Hcl Hinv Hobs Hlen Hdev E8.
    assert (ps_ok s2 n faithful cf psi) as Hps.
    { intros h d d' _ Hf E. destruct (ps_live psi h d Hsec Hf) as (d1 & E1 & F1). pose proof (eq_trans (eq_sym E) E1) as E2. injection E2 as ->. exact F1. }
    destruct (sampler_run s2 n faithful cf psi fl device opt obs old Hps Hcl Hinv Hobs Hlen Hdev) as (cl2 & Hf & I2 & Hs & ->). cbn [fst snd].
    destruct (mitigate_ps psi fl cl2 Hsec E8 I2 Hf) as [-> HF]. destruct (mitigate_inv s2 n faithful cf psi fl cl2 Hps I2 Hf) as [Hh _]. cbn [bind].
    apply (eval_obs s2 n Hs2 Hn); auto.
    - apply (cinv_heads n cl2); [now symmetry|exact I2].
    - eapply Forall_impl; [|exact Hs]. intros pc Hpc. apply (served_evolves (fst pc) cl2); [exact Hpc|]. apply evolves_heads. now symmetry.
  Qed.
End PostSampler.

(** ** Histories *)
Section History.
  Context {K : Type} {C : CRing K}.
  Local Open Scope K_scope.
  Notation qstate := (qstate (K:=K)).
  Notation dist := (dist (K:=K)).
  Variables (s2 : K) (n : nat) (cf : config (K:=K)) (keq : K -> K -> bool) (npars : nat).
  Variable psi : list K -> N -> nat -> qstate.
  Variable device : list K -> N -> nat -> pauli -> dist.
  Variable P8 : qstate -> pauli -> dist -> Prop.
  Hypothesis Hkeq : forall a b, keq a b = true -> a = b.
  Hypothesis Hdev : forall par det opt h, List.length h = n -> faithful s2 n (psi par det opt) h (device par det opt h).
  Hypothesis Hps : forall par det opt, ps_ok s2 n P8 cf (psi par det opt).
  (** The Pauli strings of a call have one letter per qubit. *)
  Definition call_ok (c : qi_call (K:=K)) : Prop :=
    match c with CallEv _ _ obs => obs <> [] /\ Forall (fun pc : pauli * K => List.length (fst pc) = n) obs | _ => True end.
  Definition saver_inv (s : qi (K:=K)) : Prop := forall det e, zget det (qi_saver s) = Some e ->
    Forall (hinv s2 n P8 (psi (qi_par s) det (fst e))) (snd e) /\ cinv n (snd e).
  Lemma keq_list_eq a b : keq_list keq a b = true -> a = b.
  Proof. revert b. induction a as [|x a IH]; intros [|y b]; cbn; intros H; try discriminate; [reflexivity|]. apply andb_prop in H as [H1 H2]. f_equal; auto. Qed.
  Lemma prev_inv s det opt : saver_inv s -> Forall (hinv s2 n P8 (psi (qi_par s) det opt)) (prev opt (zget det (qi_saver s))) /\ cinv n (prev opt (zget det (qi_saver s))).
  Proof.
    intros H. destruct (zget det (qi_saver s)) as [[o cl]|] eqn:E; cbn [prev].
    - destruct (Nat.eqb_spec o opt) as [->|_]; [exact (H det _ E)|]. split; [constructor|]. repeat split; constructor.
    - split; [constructor|]. repeat split; constructor.
  Qed.
  Lemma step_inv c s : call_ok c -> saver_inv s -> saver_inv (fst (qi_step cf keq npars device c s)).
  Proof.
    intros Hc Hs. destruct c as [det opt obs|new|kw|]; cbn [qi_step].
    - destruct Hc as [Hne Hlen]. destruct (prev_inv s det opt Hs) as [A B].
      pose proof (sampler_inv s2 n P8 cf (psi (qi_par s) det opt) (qi_flags s) (device (qi_par s) det opt) opt obs (zget det (qi_saver s))
                    (Hps _ _ _) A B Hne Hlen (Hdev _ _ _)) as (E & H1 & H2).
      destruct (sampler_value cf (qi_flags s) _ opt obs _) as [e r]. cbn [fst] in *. intros det' e' H. cbn [qi_saver qi_par] in *.
      destruct (N.eq_dec det det') as [<-|Hd].
      + rewrite zget_zset_same in H. injection H as <-. rewrite E. auto.
      + rewrite zget_zset_other in H by congruence. exact (Hs det' e' H).
    - destruct (negb (List.length new =? npars)%nat); cbn [fst]; [exact Hs|]. intros det e H. cbn [qi_saver qi_par] in *.
      destruct (keq_list keq (qi_par s) new) eqn:E; cbn [negb] in H; [|discriminate]. apply keq_list_eq in E. rewrite <- E. exact (Hs det e H).
    - destruct (update_flags kw (qi_flags s)); cbn [fst]; exact Hs.
    - intros det e H. discriminate.
  Qed.
  Lemma run_inv cs s : Forall call_ok cs -> saver_inv s -> saver_inv (qi_run cf keq npars device cs s).
  Proof.
    unfold qi_run. revert s. induction cs as [|c cs IH]; intros s H Hs; [exact Hs|]. inversion_clear H as [|? ? Hc Hcs]. cbn. apply IH; [exact Hcs|]. now apply step_inv.
  Qed.
End History.
