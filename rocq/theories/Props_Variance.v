(** Properties of the variance of a sampled expectation value (C85). *)
From Coq Require Import List Bool Arith NArith ZArith QArith Qcanon Lia Ring String Permutation.
From Verif Require Import Base Fock FockMore OperatorsSums FockInner CliqueModel CliqueProofs CliquePost QubitModel QubitProofs CliqueSampler VarModel VarProofs Props_Qubit.
Import ListNotations.
Local Open Scope list_scope.

Section Props.
  Context {K : Type} {C : CRing K}.
  Local Open Scope K_scope.
  Add Ring KringPv : (@rth K C).
  Notation qstate := (qstate (K:=K)).
  Notation dist := (dist (K:=K)).
  Notation cx := (K * K)%type.

  (** The observable with real coefficients [obs] applied to a state, and its
      variance <O^2> - <O>^2. *)
  Definition apply_obs (obs : list (pauli * K)) (psi : qstate) : qstate :=
    fun x => lsum obs (fun pc => cre (snd pc) * pauli_app (fst pc) psi x).
  Definition true_variance (n : nat) (psi : qstate) (obs : list (pauli * K)) : cx :=
    cip n psi (apply_obs obs (apply_obs obs psi)) - cip n psi (apply_obs obs psi) * cip n psi (apply_obs obs psi).
  Definition per_shot (kdiv : K -> K -> Res K) (shots : option K) (v : K) : Res K :=
    match shots with Some k => kdiv v k | None => Ok v end.

  (** After a call, the entry of the saver holds the exact distributions. *)
  Lemma after_call s2 n cf keq npars (psi : list K -> N -> nat -> qstate) (device : list K -> N -> nat -> pauli -> dist) cs par fl :
    s2 * s2 + s2 * s2 = 1 -> (0 < n)%nat -> (forall a b, keq a b = true -> a = b) ->
    (forall par det opt h, List.length h = n -> faithful s2 n (psi par det opt) h (device par det opt h)) ->
    Forall (call_ok n) cs ->
    let s := qi_run cf keq npars device cs {| qi_par := par; qi_flags := fl; qi_saver := [] |} in
    forall det opt obs, call_ok n (CallEv det opt obs) -> is_enabled (qi_flags s) = false ->
    let s' := fst (qi_step cf keq npars device (CallEv det opt obs) s) in
    qi_flags s' = qi_flags s /\
    exists cl, zget det (qi_saver s') = Some (opt, cl) /\ cinv n cl /\ exact_heads s2 n (qi_flags s) (psi (qi_par s) det opt) cl /\
      Forall (fun pc : pauli * K => served (fst pc) cl) obs.
  Proof.
    intros Hs Hn Hk Hd Hcs s det opt obs [Hne Hlen] Hfl s'.
    pose (P8 := fun (_ : qstate) (_ : pauli) (_ : dist) => True).
    assert (forall psi, ps_ok s2 n P8 cf psi) as Hps by (intros ? ? ? ? ? ? ?; exact I).
    assert (saver_inv s2 n psi P8 s) as Hinv.
    { apply (run_inv s2 n cf keq npars psi device P8 Hk Hd (fun par det opt => Hps _) cs); [exact Hcs|]. intros d e H. discriminate. }
    destruct (prev_inv s2 n psi P8 s det opt Hinv) as [A B].
    destruct (sampler_run s2 n P8 cf _ (qi_flags s) (device (qi_par s) det opt) opt obs (zget det (qi_saver s)) (Hps _) A B Hne Hlen (Hd _ _ _)) as (cl2 & Hf & I2 & Hsv & E).
    unfold s'. cbn [qi_step]. rewrite E. clear E. unfold mitigate. rewrite Hfl. cbn [fst snd bind].
    assert (to_int (qi_flags s) = 0%N) as E0 by (unfold is_enabled in Hfl; destruct (N.eqb_spec (to_int (qi_flags s)) 0); [assumption|discriminate]).
    split; [reflexivity|]. exists cl2. cbn [qi_saver]. rewrite zget_zset_same. split; [reflexivity|]. split; [exact I2|]. split; [|exact Hsv].
    unfold exact_heads. rewrite E0. eapply Forall_impl; [|exact Hf]. intros c [Hc _]. exact Hc.
  Qed.

  (** C85, grouped: after any history and a call without mitigation, the variance of
      an observable made of distinct strings of that call is the sum, over groups of
      strings, of the variances of the groups as quantum observables.  The groups
      partition the observable and have distinct heads; the head of a group is the
      stored head that serves each of its strings, and measures all of them. *)
  Theorem C85_grouped s2 n cf keq npars (psi : list K -> N -> nat -> qstate) (device : list K -> N -> nat -> pauli -> dist) cs par fl :
    s2 * s2 + s2 * s2 = 1 -> (0 < n)%nat -> (forall a b, keq a b = true -> a = b) ->
    (forall par det opt h, List.length h = n -> faithful s2 n (psi par det opt) h (device par det opt h)) ->
    Forall (call_ok n) cs ->
    let s := qi_run cf keq npars device cs {| qi_par := par; qi_flags := fl; qi_saver := [] |} in
    forall det opt obs, call_ok n (CallEv det opt obs) -> is_enabled (qi_flags s) = false ->
    let s' := fst (qi_step cf keq npars device (CallEv det opt obs) s) in
    forall obs', NoDup (map fst obs') -> incl (map fst obs') (map fst obs) ->
    forall kdiv shots no_coeffs dev, exists cl v groups,
      zget det (qi_saver s') = Some (opt, cl) /\
      quantum_variance kdiv shots (qi_flags s') dev (zget det (qi_saver s')) true no_coeffs false obs' = per_shot kdiv shots v /\
      Permutation (flat_map snd groups) obs' /\ NoDup (map fst groups) /\
      (forall h grp, In (h, grp) groups -> List.length h = n /\
         forall p c, In (p, c) grp -> get_head p cl = Ok h /\ List.length p = n /\ forall i, nth i p LI = LI \/ nth i p LI = nth i h LI) /\
      cre v = lsum groups (fun g => true_variance n (psi (qi_par s) det opt) (snd g)).
  Proof.
    intros Hs Hn Hk Hd Hcs s det opt obs Hc Hfl s' obs' Hnd Hi kdiv shots nc dev.
    destruct (after_call s2 n cf keq npars psi device cs par fl Hs Hn Hk Hd Hcs det opt obs Hc Hfl) as (Ef & cl & Ez & I2 & He & Hsv). fold s in Ef, Ez, He. fold s' in Ef, Ez.
    destruct (var_grouped_exact s2 n Hs Hn (qi_flags s) (psi (qi_par s) det opt) cl obs' I2 He Hnd) as (v & groups & Ev & HP & Hg & Hm & Evv).
    { apply Forall_forall. intros pc Hpc. apply (in_map fst) in Hpc. apply Hi in Hpc. apply in_map_iff in Hpc as (pc' & <- & Hpc'). destruct Hc as [_ Hlen].
      rewrite Forall_forall in Hlen, Hsv. auto. }
    exists cl, v, groups. split; [exact Ez|]. split; [unfold quantum_variance; rewrite Ez, Ef, Ev; reflexivity|]. split; [exact HP|]. split; [exact Hg|]. split; [|exact Evv].
    intros h grp Hh. destruct (Hm h grp Hh) as (_ & Hl & HF). split; [exact Hl|]. intros p c Hp. rewrite Forall_forall in HF. destruct (HF _ Hp) as [[L1 L2] L3]. cbn [fst] in *.
    split; [exact L3|]. split; [congruence|]. intros i. destruct (nth i p LI) eqn:E; auto; right; rewrite <- E; symmetry; apply L2; congruence.
  Qed.

  (** C85, strings measured independently: the sum of the variances of the single
      strings, with unit coefficients on request; from the saver ([do_no_corr]) or
      from the device ([do_cliques=False]).  The state is normalised. *)
  Theorem C85_independent_saver s2 n cf keq npars (psi : list K -> N -> nat -> qstate) (device : list K -> N -> nat -> pauli -> dist) cs par fl :
    s2 * s2 + s2 * s2 = 1 -> (0 < n)%nat -> (forall a b, keq a b = true -> a = b) ->
    (forall par det opt h, List.length h = n -> faithful s2 n (psi par det opt) h (device par det opt h)) ->
    Forall (call_ok n) cs ->
    let s := qi_run cf keq npars device cs {| qi_par := par; qi_flags := fl; qi_saver := [] |} in
    forall det opt obs, call_ok n (CallEv det opt obs) -> is_enabled (qi_flags s) = false ->
    lsum (alldets n) (fun x => cnorm2 (psi (qi_par s) det opt x)) = 1 ->
    let s' := fst (qi_step cf keq npars device (CallEv det opt obs) s) in
    forall obs', incl (map fst obs') (map fst obs) ->
    forall kdiv shots (no_coeffs : bool) dev, exists v,
      quantum_variance kdiv shots (qi_flags s') dev (zget det (qi_saver s')) true no_coeffs true obs' = per_shot kdiv shots v /\
      cre v = lsum obs' (fun pc => true_variance n (psi (qi_par s) det opt) [(fst pc, if no_coeffs then 1 else snd pc)]).
  Proof.
    intros Hs Hn Hk Hd Hcs s det opt obs Hc Hfl H1 s' obs' Hi kdiv shots nc dev.
    destruct (after_call s2 n cf keq npars psi device cs par fl Hs Hn Hk Hd Hcs det opt obs Hc Hfl) as (Ef & cl & Ez & I2 & He & Hsv). fold s in Ef, Ez, He. fold s' in Ef, Ez.
    destruct (var_independent_exact s2 n Hs Hn nc (fun p => get_distr p (Some (qi_flags s)) cl) (psi (qi_par s) det opt) obs' H1) as (v & Ev & Evv).
    { apply Forall_forall. intros pc Hpc. apply (in_map fst) in Hpc. apply Hi in Hpc. apply in_map_iff in Hpc as (pc' & <- & Hpc'). destruct Hc as [_ Hlen].
      rewrite Forall_forall in Hlen, Hsv. destruct (served_lookup n (fst pc') cl I2 (Hlen _ Hpc') (Hsv _ Hpc')) as (c & Hin & Hm & _ & Hg).
      unfold exact_heads in He. rewrite Forall_forall in He. destruct (He c Hin) as (d & Ed & Fd). exists (ch_head c), d. rewrite Hg.
      unfold saver_is_empty, saver_get. cbn [mit_int]. rewrite Ed. rewrite nonnil by apply Fd. cbn [negb bind]. split; [reflexivity|]. split; [exact Hm|]. split; [|exact Fd].
      destruct I2 as [Hl _]. rewrite Forall_forall in Hl. now apply Hl. }
    exists v. split; [|exact Evv]. unfold quantum_variance. rewrite Ez, Ef. cbn [negb]. rewrite Ev. reflexivity.
  Qed.
  Theorem C85_independent_device s2 n (psi : qstate) (device : pauli -> dist) fl saved obs :
    s2 * s2 + s2 * s2 = 1 -> (0 < n)%nat -> (forall h, List.length h = n -> faithful s2 n psi h (device h)) ->
    lsum (alldets n) (fun x => cnorm2 (psi x)) = 1 -> Forall (fun pc : pauli * K => List.length (fst pc) = n) obs ->
    forall kdiv shots (no_coeffs do_no_corr : bool), exists v,
      quantum_variance kdiv shots fl device saved false no_coeffs do_no_corr obs = per_shot kdiv shots v /\
      cre v = lsum obs (fun pc => true_variance n psi [(fst pc, if no_coeffs then 1 else snd pc)]).
  Proof.
    intros Hs Hn Hd H1 Hl kdiv shots nc dnc.
    destruct (var_independent_exact s2 n Hs Hn nc (fun p => Ok (device p)) psi obs H1) as (v & Ev & Evv).
    { eapply Forall_impl; [|exact Hl]. intros pc Hp. exists (fst pc), (device (fst pc)). split; [reflexivity|]. split; [split; auto|]. auto. }
    exists v. split; [|exact Evv]. unfold quantum_variance. cbn [negb]. rewrite Ev. reflexivity.
  Qed.
  (** The true variance of one string with coefficient [c] in a normalised state is
      [c^2 (1 - <P>^2)]; grouping therefore only changes the covariances. *)
  Theorem C85_single s2 n (psi : qstate) p c : s2 * s2 + s2 * s2 = 1 -> List.length p = n ->
    lsum (alldets n) (fun x => cnorm2 (psi x)) = 1 ->
    let mu := cip n psi (pauli_app p psi) in true_variance n psi [(p, c)] = cre (c * c) * (1 - mu * mu).
  Proof.
    intros Hs Hl H1 mu. assert (measured_by p p) as Hm by (split; auto).
    change (true_variance n psi [(p, c)]) with (variance n psi [(p, c)]). rewrite (variance_exact s2 n Hs [(p, c)] p) by (auto; repeat constructor; exact Hm).
    pose proof (measurement_exact s2 p p psi Hs Hm) as E. cbv zeta in E. rewrite Hl in E. fold mu in E. rewrite E.
    assert (forall x, gval [(p, c)] x = c * sgn (parity p x) 1) as Eg by (intros x; unfold gval; rewrite lsum_cons; change (lsum [] _) with (0 : K); cbn [fst snd]; ring).
    rewrite (lsum_ext (alldets n) (fun x => _ * (gval [(p, c)] x * gval [(p, c)] x)) (fun x => c * c * cnorm2 (run s2 (to_CBS_measurement p) psi x))).
    2: { intros x _. rewrite Eg. destruct (parity p x); cbn; ring. }
    rewrite lsum_scale, (prob_total s2 n Hs) by assumption.
    rewrite (lsum_ext (alldets n) (fun x => _ * gval [(p, c)] x) (fun x => c * (cnorm2 (run s2 (to_CBS_measurement p) psi x) * sgn (parity p x) 1))) by (intros x _; rewrite Eg; ring).
    rewrite lsum_scale. set (m := lsum (alldets n) _). apply pair_eq; cbn; ring.
  Qed.
End Props.

(** Non-vacuity and departures: the state and the history of C60 without the
    flags, four qubits. *)
Definition v_calls : list qi_call :=
  [CallEv 0 0 [([LI; LZ; LI; LZ], q2n 2); ([LX; LX; LI; LI], q2n 1)]; CallEv 0 1 [([LZ; LZ; LI; LI], q2n 1)]].
Definition v_s : qi := qi_run ex_cf (fun a b => Qc_eq_bool (qa a) (qa b) && Qc_eq_bool (qb a) (qb b)) 0 ex_device v_calls
  {| qi_par := []; qi_flags := flags_init false false false false; qi_saver := [] |}.
Definition v_obs : list (pauli * q2) := [([LZ; LI; LI; LI], q2n 1); ([LI; LZ; LI; LI], q2n 2); ([LX; LX; LX; LX], q2n 3); ([LI; LX; LX; LI], q2n 5)].
Definition v_run (shots : option q2) (grouped no_coeffs do_no_corr : bool) (obs : list (pauli * q2)) : Q * Q :=
  let s' := fst (qi_step ex_cf (fun _ _ => false) 0 ex_device (CallEv 0 0 v_obs) v_s) in
  match quantum_variance q2_div shots (qi_flags s') (ex_device [] 0 0) (zget 0%N (qi_saver s')) grouped no_coeffs do_no_corr obs with
  | Ok v => (this (qa v), this (qb v)) | _ => ((-1)%Q, 0%Q) end.
Definition q2pair (v : q2 * q2) : list Q := [this (qa (fst v)); this (qb (fst v)); this (qa (snd v)); this (qb (snd v))].
(** [Z1] and [Z2] are anticorrelated, so the variance of [Z1 + 2 Z2] is
    [(1 - 2)^2 = 1]; [3 XXXX + 5 IXXI] has variance [25]; independently measured
    the sum is [1 + 4 + 0 + 25 = 30]. *)
Example C85_example :
  Forall (call_ok 4) v_calls /\ call_ok 4 (CallEv 0 0 v_obs) /\ is_enabled (qi_flags v_s) = false /\
  v_run None true false false v_obs = (26, 0)%Q /\ v_run (Some (q2n 2)) true false false v_obs = (13, 0)%Q /\
  v_run None true false true v_obs = (30, 0)%Q /\ v_run None false false false v_obs = (30, 0)%Q /\ v_run None false true false v_obs = (3, 0)%Q /\
  q2pair (true_variance 4 ex_psi (firstn 2 v_obs)) = [1; 0; 0; 0]%Q /\ q2pair (true_variance 4 ex_psi (skipn 2 v_obs)) = [25; 0; 0; 0]%Q.
Proof.
  split; [repeat constructor; discriminate|]. split; [split; [discriminate|repeat constructor]|]. vm_compute. repeat split.
Qed.
(** Refuted: [no_coeffs] is documented to set all coefficients to one, but the
    grouped branch keeps them; the variance of [2 ZIII] is 4, that of [ZIII] is 1. *)
Theorem C85_no_coeffs_refuted : exists obs, NoDup (map fst obs) /\ incl (map fst obs) (map fst v_obs) /\
  v_run None true true false obs = (4, 0)%Q /\ v_run None true true false (map (fun pc => (fst pc, q2n 1)) obs) = (1, 0)%Q.
Proof. exists [([LZ; LI; LI; LI], q2n 2)]. split; [repeat constructor; auto|]. split; [intros p [<- |[]]; now left|]. vm_compute. auto. Qed.
(** Refuted: a string listed twice counts twice with its last coefficient:
    [ZIII + 2 ZIII] has variance 9, the grouped branch gives 16. *)
Theorem C85_duplicates_refuted : exists obs, incl (map fst obs) (map fst v_obs) /\
  v_run None true false false obs = (16, 0)%Q /\ q2pair (true_variance 4 ex_psi obs) = [9; 0; 0; 0]%Q.
Proof. exists [([LZ; LI; LI; LI], q2n 1); ([LZ; LI; LI; LI], q2n 2)]. split; [intros p [<- |[<- |[]]]; now left|]. vm_compute. auto. Qed.

Print Assumptions C85_grouped.
Print Assumptions C85_independent_saver.
Print Assumptions C85_independent_device.
Print Assumptions C85_single.
Print Assumptions C85_no_coeffs_refuted.
Print Assumptions C85_duplicates_refuted.
