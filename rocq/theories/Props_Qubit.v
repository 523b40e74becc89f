(** Properties of the measurement circuits and of the sampler (C37, C60). *)
From Coq Require Import List Bool Arith NArith ZArith QArith Qcanon Lia Ring String.
From Verif Require Import Base Fock FockMore OperatorsSums FockInner CliqueModel CliqueProofs CliquePost QubitModel QubitProofs CliqueSampler.
Import ListNotations.
Local Open Scope list_scope.

(** The numbers [a + b sqrt 2] with rational [a] and [b], for the examples. *)
Record q2 := { qa : Qc; qb : Qc }.
Section Q2.
  Local Open Scope Qc_scope.
  Definition q2_add (x y : q2) := {| qa := qa x + qa y; qb := qb x + qb y |}.
  Definition q2_sub (x y : q2) := {| qa := qa x - qa y; qb := qb x - qb y |}.
  Definition q2_opp (x : q2) := {| qa := - qa x; qb := - qb x |}.
  Definition q2_mul (x y : q2) := {| qa := qa x * qa y + (1 + 1) * qb x * qb y; qb := qa x * qb y + qb x * qa y |}.
  Lemma q2_rth : ring_theory {| qa := 0; qb := 0 |} {| qa := 1; qb := 0 |} q2_add q2_mul q2_sub q2_opp (@eq q2).
  Proof.
    constructor; intros; repeat match goal with x : q2 |- _ => destruct x end;
      unfold q2_add, q2_sub, q2_opp, q2_mul; cbn [qa qb]; f_equal; ring.
  Qed.
End Q2.
#[export] Instance Q2_CRing : CRing q2 := {
  rO := {| qa := 0; qb := 0 |}; rI := {| qa := 1; qb := 0 |};
  radd := q2_add; rmul := q2_mul; rsub := q2_sub; ropp := q2_opp; rth := q2_rth;
  small := fun a => Qc_eq_bool (qa a) 0 && Qc_eq_bool (qb a) 0
}.
(** [1 / sqrt 2]. *)
Definition q2s : q2 := {| qa := 0; qb := Q2Qc (1 # 2) |}.

Lemma alldets_lt n x : In x (alldets n) -> (x < 2 ^ N.of_nat n)%N.
Proof.
  intros H. destruct (N.lt_ge_cases x (2 ^ N.of_nat n)) as [|Hge]; [assumption|]. exfalso.
  assert (x <> 0%N) as Hx. { intros ->. apply N.le_0_r in Hge. pose proof (N.pow_nonzero 2 (N.of_nat n)). lia. }
  assert (N.of_nat n <= N.log2 x)%N as Hl by (apply N.log2_le_pow2; lia).
  pose proof (proj1 (in_alldets n x) H (N.to_nat (N.log2 x)) ltac:(lia)) as Hb. unfold occ in Hb. rewrite N2Nat.id in Hb. rewrite N.bit_log2 in Hb by exact Hx. discriminate.
Qed.
Section Props.
  Context {K : Type} {C : CRing K}.
  Local Open Scope K_scope.
  Add Ring KringPq : (@rth K C).
  Lemma cx_norm0 : (0 : K) * 0 + 0 * 0 = 0.
  Proof. ring. Qed.
  Notation qstate := (qstate (K:=K)).
  Notation dist := (dist (K:=K)).

  (** C37: for a Pauli string [p] and a head [h] of the same length that agrees
      with [p] wherever [p] is not the identity, the outcome probabilities of the
      measurement circuit of [h], weighted with the signs of [p], give the
      expectation value of [p] (its imaginary part is zero). *)
  Theorem C37_measurement s2 (p h : pauli) (psi : qstate) :
    s2 * s2 + s2 * s2 = 1 -> p <> [] -> List.length h = List.length p ->
    (forall i, nth i p LI = LI \/ nth i p LI = nth i h LI) ->
    let n := List.length p in
    let probabilities := map (fun x => (x, cnorm2 (run s2 (to_CBS_measurement h) psi x))) (alldets n) in
    exists v, signed_sum p probabilities = Ok v /\ cip n psi (pauli_app p psi) = (v, 0).
  Proof.
    intros Hs Hp Hl Hm n pr. exists (lsum (alldets n) (fun x => cnorm2 (run s2 (to_CBS_measurement h) psi x) * sgn (parity p x) 1)). split.
    - rewrite signed_sum_eq by assumption. f_equal. unfold pr. rewrite lsum_map. reflexivity.
    - rewrite (measurement_exact s2 p h psi); [reflexivity|exact Hs|]. split; [congruence|]. intros i Hi. destruct (Hm i) as [H|H]; [contradiction|now symmetry].
  Qed.

  (** The exact outcome distribution of any state is a possible answer of an ideal
      device. *)
  Lemma ideal_faithful s2 n (psi : qstate) h :
    faithful s2 n psi h (map (fun x => (x, cnorm2 (run s2 (to_CBS_measurement h) psi x))) (alldets n)).
  Proof.
    assert (map fst (map (fun x => (x, cnorm2 (run s2 (to_CBS_measurement h) psi x))) (alldets n)) = alldets n) as E by (rewrite map_map; apply map_id).
    split; [|split; [|split]].
    - intros H. apply map_eq_nil in H. assert (In 0%N (alldets n)) as H0 by (apply in_alldets; intros; apply N.bits_0). rewrite H in H0. destruct H0.
    - rewrite E. apply alldets_NoDup.
    - apply Forall_forall. intros kv Hkv. rewrite <- E. now apply in_map.
    - intros x Hx. generalize (alldets_NoDup n). revert Hx. generalize (alldets n). induction l as [|y l IH]; intros Hx Hnd; [destruct Hx|].
      cbn [map]. rewrite at_cons. destruct (N.eqb_spec x y) as [->|Hne]; [reflexivity|]. apply IH; [destruct Hx; congruence|]. now inversion Hnd.
  Qed.

  (** C60: the interface remembers distributions between calls.  Take any history
      of expectation values, parameter changes, flag changes and resets, starting
      from an empty saver, and a device that answers with the exact outcome
      distribution of the state [psi par det opt] (outcomes of probability zero may
      be missing).  A further expectation value without error mitigation is then
      exact for the current parameters. *)
  Theorem C60_history s2 n cf keq npars (psi : list K -> N -> nat -> qstate) (device : list K -> N -> nat -> pauli -> dist) cs par fl :
    s2 * s2 + s2 * s2 = 1 -> (0 < n)%nat -> (forall a b, keq a b = true -> a = b) ->
    (forall par det opt h, List.length h = n -> faithful s2 n (psi par det opt) h (device par det opt h)) ->
    Forall (call_ok n) cs ->
    let s := qi_run cf keq npars device cs {| qi_par := par; qi_flags := fl; qi_saver := [] |} in
    forall det opt obs, call_ok n (CallEv det opt obs) -> is_enabled (qi_flags s) = false ->
    snd (qi_step cf keq npars device (CallEv det opt obs) s)
    = Ok (Some (lsum obs (fun pc => fst (cip n (psi (qi_par s) det opt) (pauli_app (fst pc) (psi (qi_par s) det opt))) * snd pc))).
  Proof.
    intros Hs Hn Hk Hd Hcs s det opt obs [Hne Hlen] Hfl.
    pose (P8 := fun (_ : qstate) (_ : pauli) (_ : dist) => True).
    assert (forall psi, ps_ok s2 n P8 cf psi) as Hps by (intros ? ? ? ? ? ? ?; exact I).
    assert (saver_inv s2 n psi P8 s) as Hinv.
    { apply (run_inv s2 n cf keq npars psi device P8 Hk Hd (fun par det opt => Hps _) cs); [exact Hcs|]. intros d e H. discriminate. }
    destruct (prev_inv s2 n psi P8 s det opt Hinv) as [A B].
    pose proof (sampler_raw s2 n Hs Hn P8 cf _ (qi_flags s) (device (qi_par s) det opt) opt obs (zget det (qi_saver s)) (Hps _) A B Hne Hlen (Hd _ _ _) Hfl) as H.
    cbn [qi_step]. destruct (sampler_value cf (qi_flags s) _ opt obs _) as [e r]. cbn [snd] in *. rewrite H. reflexivity.
  Qed.

  (** With post-selection the value is still exact, provided the states have the
      right numbers of electrons (Jordan-Wigner mapping, [m] spatial orbitals). *)
  Theorem C60_postselected s2 m cf keq npars (psi : list K -> N -> nat -> qstate) (device : list K -> N -> nat -> pauli -> dist) cs par fl :
    s2 * s2 + s2 * s2 = 1 -> (1 : K) <> 0 -> (0 < m)%nat -> (forall a b, keq a b = true -> a = b) ->
    let n := (2 * m)%nat in
    cf_mapper cf = JordanWigner -> cf_qubits cf = n -> (forall a, cf_div cf a 1 = Ok a) ->
    (forall par det opt h, List.length h = n -> faithful s2 n (psi par det opt) h (device par det opt h)) ->
    (forall par det opt, lsum (alldets n) (fun x => cnorm2 (psi par det opt x)) = 1 /\
       forall x, In x (alldets n) -> electrons x 0 m <> fst (cf_elec cf) \/ electrons x m m <> snd (cf_elec cf) -> psi par det opt x = 0) ->
    Forall (call_ok n) cs ->
    let s := qi_run cf keq npars device cs {| qi_par := par; qi_flags := fl; qi_saver := [] |} in
    forall det opt obs, call_ok n (CallEv det opt obs) ->
    do_postselection (qi_flags s) = true -> do_M_mitigation (qi_flags s) = false ->
    do_M_ansatz0 (qi_flags s) = false -> do_M_ansatz0_plus (qi_flags s) = false ->
    snd (qi_step cf keq npars device (CallEv det opt obs) s)
    = Ok (Some (lsum obs (fun pc => fst (cip n (psi (qi_par s) det opt) (pauli_app (fst pc) (psi (qi_par s) det opt))) * snd pc))).
  Proof.
    intros Hs H10 Hm Hk n Emap Eq Hdiv Hd Hsec Hcs s det opt obs [Hne Hlen] F1 F2 F3 F4.
    assert (0 < n)%nat as Hn by (unfold n; lia).
    assert (cf_mapper cf <> OtherMapper) as Hmap by (rewrite Emap; discriminate).
    assert (forall par det opt, sector n cf (psi par det opt)) as HS.
    { intros par0 det0 opt0. destruct (Hsec par0 det0 opt0) as [S1 S2]. split; [|exact S1]. intros x Hx Hk'. rewrite S2; [unfold cnorm2; cbn; apply cx_norm0|exact Hx|].
      unfold keeps in Hk'. rewrite Emap, Eq in Hk'. unfold n in Hk'. rewrite keep_jw_spec in Hk'; [|exact Hm|].
      - apply andb_false_iff in Hk' as [E|E]; apply Nat.eqb_neq in E; auto.
      - apply alldets_lt. exact Hx. }
    pose (P8 := faithful s2 n).
    assert (forall par det opt, ps_ok s2 n P8 cf (psi par det opt)) as Hps.
    { intros par0 det0 opt0 h d d' _ Hf E. destruct (ps_live s2 n cf H10 Hdiv Hmap _ h d (HS par0 det0 opt0) Hf) as (d1 & E1 & G1).
      pose proof (eq_trans (eq_sym E) E1) as E2. injection E2 as ->. exact G1. }
    assert (saver_inv s2 n psi P8 s) as Hinv.
    { apply (run_inv s2 n cf keq npars psi device P8 Hk Hd Hps cs); [exact Hcs|]. intros d e H. discriminate. }
    destruct (prev_inv s2 n psi P8 s det opt Hinv) as [A B].
    assert (to_int (qi_flags s) = 8%N) as E8. { destruct (qi_flags s) as [a b c d]. cbn in F1, F2, F3, F4. subst. reflexivity. }
    pose proof (sampler_ps s2 n cf Hs Hn H10 Hdiv Hmap _ (qi_flags s) (device (qi_par s) det opt) opt obs (zget det (qi_saver s)) (HS _ _ _) A B Hne Hlen (Hd _ _ _) E8) as H.
    cbn [qi_step]. destruct (sampler_value cf (qi_flags s) _ opt obs _) as [e r]. cbn [snd] in *. rewrite H. reflexivity.
  Qed.
End Props.

(** Non-vacuity: two spatial orbitals, the state [(|0101> + |1010>) / sqrt 2]. *)
Definition ex_psi : qstate (K:=q2) := fun x => if N.eqb x 5 || N.eqb x 10 then cre q2s else cre rO.
Definition ex_device (par : list q2) (det : N) (opt : nat) (h : pauli) : dist :=
  map (fun x => (x, cnorm2 (run q2s (to_CBS_measurement h) ex_psi x))) (alldets 4).
Definition q2_is1 (a : q2) : bool := Qc_eq_bool (qa a) 1 && Qc_eq_bool (qb a) 0.
(** Division in the field: multiply with the conjugate. *)
Definition q2_inv (b : q2) : q2 :=
  let nrm := (qa b * qa b - (1 + 1) * qb b * qb b)%Qc in {| qa := (qa b / nrm)%Qc; qb := (- qb b / nrm)%Qc |}.
Definition q2_div (a b : q2) : Res q2 :=
  if small b then Raise ZeroDivisionError else Ok (q2_mul a (q2_inv b)).
Definition ex_cf : config (K:=q2) :=
  {| cf_div := q2_div; cf_mapper := JordanWigner; cf_elec := (1, 1)%nat; cf_qubits := 4; cf_M := fun l => Ok l |}.
Definition q2n (z : Z) : q2 := {| qa := Q2Qc (inject_Z z); qb := 0%Qc |}.
Definition ex_calls : list qi_call :=
  [CallEv 0 0 [([LI; LZ; LI; LZ], q2n 2); ([LX; LX; LI; LI], q2n 1)];
   CallFlags [("do_postselection"%string, PBool true)];
   CallEv 0 0 [([LX; LX; LX; LX], q2n 1); ([LI; LZ; LI; LZ], q2n 1)];
   CallEv 0 1 [([LZ; LZ; LI; LI], q2n 1)]].
Definition ex_s : qi := qi_run ex_cf (fun a b => Qc_eq_bool (qa a) (qa b) && Qc_eq_bool (qb a) (qb b)) 0 ex_device ex_calls
  {| qi_par := []; qi_flags := flags_init false false false false; qi_saver := [] |}.
Example C60_ex_s2 : radd (rmul q2s q2s) (rmul q2s q2s) = rI.
Proof. unfold radd, rmul, q2s, rI. cbn. unfold q2_add, q2_mul. cbn [qa qb]. f_equal; apply Qc_is_canon; reflexivity. Qed.
Example C60_ex_div a : q2_div a rI = Ok a.
Proof.
  unfold q2_div. change (small rI) with false. f_equal. destruct a as [a b]. unfold q2_mul, q2_inv. cbn [qa qb rI Q2_CRing].
  replace (1 * 1 - (1 + 1) * 0 * 0)%Qc with 1%Qc by ring. apply f_equal. change (Q2Qc 0) with 0%Qc. apply (f_equal2 Build_q2); field; discriminate.
Qed.
Example C60_ex_calls : Forall (call_ok 4) ex_calls.
Proof. repeat constructor; discriminate. Qed.
Example C60_ex_state : lsum (alldets 4) (fun x => cnorm2 (ex_psi x)) = rI /\
  forall x, In x (alldets 4) -> electrons x 0 2 <> 1%nat \/ electrons x 2 2 <> 1%nat -> ex_psi x = cre rO.
Proof.
  split; [vm_compute; f_equal; apply Qc_is_canon; reflexivity|].
  intros x Hx H. cbn in Hx. repeat (destruct Hx as [<-|Hx]; [first [reflexivity | (cbv in H; destruct H as [H|H]; now elim H)]|]). destruct Hx.
Qed.
(** The flags at the end of the history allow post-selection; the values: [XXXX],
    [YYXX] and [IZIZ] have expectation value one. *)
Example C60_ex_value :
  do_postselection (qi_flags ex_s) = true /\
  match snd (qi_step ex_cf (fun _ _ => false) 0 ex_device (CallEv 0 0 [([LX; LX; LX; LX], q2n 2); ([LY; LY; LX; LX], q2n 1); ([LI; LZ; LI; LZ], q2n 3)]) ex_s) with
  | Ok (Some v) => (this (qa v), this (qb v)) | _ => (0%Q, 0%Q) end = (6%Q, 0%Q).
Proof. vm_compute. auto. Qed.

Print Assumptions C37_measurement.
Print Assumptions C60_history.
Print Assumptions C60_postselected.
