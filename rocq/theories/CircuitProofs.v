(** Circuits against exponentials and against the state-vector ansatz. *)
From Coq Require Import List Bool Arith NArith ZArith Reals Lra Lia.
From Verif Require Import Base RRing Fock FockMore FermiModel FermiProofs FermiAlgebra OperatorsModel OperatorsProofs
  OperatorsGen OperatorsKeys CIModel CIProofs StateModel StateBits StateProofs StateMore Props_State
  SaPoly GateAlgebra UPSModel UPSProofs UPSSingle UPSState UPSAnsatz Props_UPS StructModel StructInv
  CliqueModel QubitModel QubitProofs QubitCirc QubitRef QubitDouble CircuitModel.
Import ListNotations.

(** ** Real operators on complex amplitudes *)
Section Parts.
  Context {K : Type} {C : CRing K}.
  Local Open Scope K_scope.
  Add Ring KringCP : (@rth K C).
  Notation cx := (K * K)%type.
  Definition creop (A : list (list (nat * bool) * K)) : list (list (nat * bool) * cx) := map (fun sc => (fst sc, cre (snd sc))) A.
  Lemma fst_sgn b (v : cx) : fst (sgn b v) = sgn b (fst v).
  Proof. destruct b; reflexivity. Qed.
  Lemma snd_sgn b (v : cx) : snd (sgn b v) = sgn b (snd v).
  Proof. destruct b; reflexivity. Qed.
  Lemma fst_appstr s (psi : amps (K:=cx)) : forall x, fst (appstr s psi x) = appstr s (fun y => fst (psi y)) x.
  Proof.
    induction s as [|[p b] s IH]; intros x; [reflexivity|]. cbn [appstr]. unfold app1. cbn [fst snd]. destruct (Bool.eqb (occ x p) b); [|reflexivity].
    rewrite fst_sgn. now rewrite IH.
  Qed.
  Lemma snd_appstr s (psi : amps (K:=cx)) : forall x, snd (appstr s psi x) = appstr s (fun y => snd (psi y)) x.
  Proof.
    induction s as [|[p b] s IH]; intros x; [reflexivity|]. cbn [appstr]. unfold app1. cbn [fst snd]. destruct (Bool.eqb (occ x p) b); [|reflexivity].
    rewrite snd_sgn. now rewrite IH.
  Qed.
  Lemma fst_creop A (psi : amps (K:=cx)) x : fst (opapp (creop A) psi x) = opapp A (fun y => fst (psi y)) x.
  Proof.
    induction A as [|[s c] A IH]; [reflexivity|]. unfold creop in *. cbn [map opapp fst snd].
    cbn [radd rmul Cx_CRing cadd cmul cre fst snd]. rewrite IH, fst_appstr, snd_appstr. ring.
  Qed.
  Lemma snd_creop A (psi : amps (K:=cx)) x : snd (opapp (creop A) psi x) = opapp A (fun y => snd (psi y)) x.
  Proof.
    induction A as [|[s c] A IH]; [reflexivity|]. unfold creop in *. cbn [map opapp fst snd].
    cbn [radd rmul Cx_CRing cadd cmul cre fst snd]. rewrite IH, fst_appstr, snd_appstr. ring.
  Qed.
  Lemma creop_gen1 k i : gen1 (K:=cx) k i = creop (gen1 k i).
  Proof. unfold gen1, creop. cbn. repeat f_equal. unfold cre. cbn. unfold copp. cbn. f_equal. ring. Qed.
  Lemma creop_gen2 k l i j : gen2 (K:=cx) k l i j = creop (gen2 k l i j).
  Proof. unfold gen2, creop. cbn. repeat f_equal. unfold cre. cbn. unfold copp. cbn. f_equal. ring. Qed.
  Lemma fst_closed ct st A psi x : fst (closed (K:=K) ct st (creop A) psi x)
    = fst (psi x) + st * opapp A (fun y => fst (psi y)) x + (1 - ct) * opapp A (opapp A (fun y => fst (psi y))) x.
  Proof.
    unfold closed. cbn [radd rsub rmul Cx_CRing cadd csub cmul cre fst snd]. rewrite !fst_creop.
    rewrite (opapp_ext A (fun y => fst (opapp (creop A) psi y)) (opapp A (fun y => fst (psi y)))) by (intros; apply fst_creop). cbn [rI Cx_CRing cre fst snd]. ring.
  Qed.
  Lemma snd_closed ct st A psi x : snd (closed (K:=K) ct st (creop A) psi x)
    = snd (psi x) + st * opapp A (fun y => snd (psi y)) x + (1 - ct) * opapp A (opapp A (fun y => snd (psi y))) x.
  Proof.
    unfold closed. cbn [radd rsub rmul Cx_CRing cadd csub cmul cre fst snd]. rewrite !snd_creop.
    rewrite (opapp_ext A (fun y => snd (opapp (creop A) psi y)) (opapp A (fun y => snd (psi y)))) by (intros; apply snd_creop). cbn [rI Cx_CRing cre fst snd]. ring.
  Qed.
  (** The single-excitation circuit, both branches. *)
  Lemma single_spec s2 ch sh cq k i : ch * ch + sh * sh = 1 -> cq * cq + cq * cq = 1 ->
    match single_excitation_qubits ch sh cq cq k i with
    | Ok c => (i < k)%nat /\ forall (psi : qstate (K:=K)) x, run s2 c psi x = closed (ch * ch - sh * sh) (ch * sh + ch * sh) (gen1 k i) psi x
    | Raise ValueError => (k <= i)%nat
    | _ => False
    end.
  Proof.
    intros H1 H2. unfold single_excitation_qubits. destruct (Nat.leb_spec k i); [assumption|]. destruct (Nat.eqb_spec (k - 1) i).
    - split; [assumption|]. intros. apply adjacent_branch; auto. lia.
    - split; [assumption|]. intros. apply ladder_branch; auto. lia.
  Qed.
End Parts.

Local Open Scope R_scope.

(** ** Angles *)
Lemma half_sq t : cos (t / 2) * cos (t / 2) + sin (t / 2) * sin (t / 2) = 1.
Proof. pose proof (sin2_cos2 (t / 2)). unfold Rsqr in *. lra. Qed.
Lemma half_cos t : cos (t / 2) * cos (t / 2) - sin (t / 2) * sin (t / 2) = cos t.
Proof. rewrite <- cos_plus. f_equal. lra. Qed.
Lemma half_sin t : cos (t / 2) * sin (t / 2) + cos (t / 2) * sin (t / 2) = sin t.
Proof. replace t with (t / 2 + t / 2) at 5 by lra. rewrite sin_plus. ring. Qed.
Lemma quarter_eq : sin (PI / 4) = cos (PI / 4).
Proof. apply sin_cos_PI4. Qed.
Lemma quarter_sq : cos (PI / 4) * cos (PI / 4) + cos (PI / 4) * cos (PI / 4) = 1.
Proof. rewrite <- quarter_eq at 1 2. pose proof (sin2_cos2 (PI / 4)). unfold Rsqr in *. lra. Qed.
Lemma s2_sq : / sqrt 2 * / sqrt 2 + / sqrt 2 * / sqrt 2 = 1.
Proof. rewrite <- Rinv_mult. rewrite sqrt_sqrt by lra. lra. Qed.
Lemma dbl_half t : dbl (K:=R) (cos (t / 2), sin (t / 2)) = (cos t, sin t).
Proof. unfold dbl. cbn [fst snd]. f_equal; [apply half_cos|apply half_sin]. Qed.
Lemma oct_eighth t : oct (K:=R) (cos (t / 8), sin (t / 8)) = (cos t, sin t).
Proof.
  unfold oct. replace (t / 8) with (t / 4 / 2) by lra. rewrite dbl_half. replace (t / 4) with (t / 2 / 2) by lra. rewrite dbl_half. apply dbl_half.
Qed.

(** ** Generators *)
Lemma gen1_Tact k i (v : vec) x : opapp (gen1 k i) v x = Tact [(k, true); (i, false)] v x.
Proof. unfold gen1, Tact, adjstr. cbn [opapp rev map app fst snd negb]. cbn. ring. Qed.
Lemma gen2_Tact k l i j (v : vec) x : opapp (gen2 k l i j) v x = Tact [(k, true); (l, true); (j, false); (i, false)] v x.
Proof. unfold gen2, Tact, adjstr. cbn [opapp rev map app fst snd negb]. cbn [rmul R_CRing rsub radd ropp rI rO]. ring. Qed.

(** [phi] is the exponential series of [t] times the real operator [A], applied
    to [psi], for the real and for the imaginary parts. *)
Definition is_exp (t : R) (A : rdict) (psi phi : N -> R * R) : Prop := forall x,
  infinite_sum (fun m => t ^ m / INR (fact m) * Nat.iter m (opapp A) (fun y => fst (psi y)) x) (fst (phi x)) /\
  infinite_sum (fun m => t ^ m / INR (fact m) * Nat.iter m (opapp A) (fun y => snd (psi y)) x) (snd (phi x)).

Lemma closed_is_exp t A psi phi : (forall (v : vec) x, opapp A (opapp A (opapp A v)) x = - opapp A v x) ->
  (forall x, phi x = closed (cos t) (sin t) (creop A) psi x) -> is_exp t A psi phi.
Proof.
  intros H3 H x. destruct (C21_closed_form (opapp A) (opapp_linear A) H3) as (_ & _ & _ & _ & S). rewrite H. split.
  - rewrite fst_closed. apply (S t (fun y => fst (psi y)) x).
  - rewrite snd_closed. apply (S t (fun y => snd (psi y)) x).
Qed.
Lemma gen1_cubeR k i : k <> i -> forall (v : vec) x, opapp (gen1 k i) (opapp (gen1 k i) (opapp (gen1 k i) v)) x = - opapp (gen1 k i) v x.
Proof.
  intros H v x. rewrite gen1_Tact. rewrite (lin_ext _ (Tact_linear _) _ (Tact [(k, true); (i, false)] (Tact [(k, true); (i, false)] v))).
  2: { intros y. rewrite gen1_Tact. apply (lin_ext _ (Tact_linear _)). intros z. apply gen1_Tact. }
  rewrite gen1_Tact. refine (Tact_cube (K:=R) [(k, true); (i, false)] v x _ ltac:(discriminate)). cbn. constructor; [cbn; intuition|]. constructor; [auto|constructor].
Qed.
Lemma gen2_cubeR k l i j : distinct4 k l i j -> forall (v : vec) x, opapp (gen2 k l i j) (opapp (gen2 k l i j) (opapp (gen2 k l i j) v)) x = - opapp (gen2 k l i j) v x.
Proof.
  intros (? & ? & ? & ? & ? & ?) v x. set (s := [(k, true); (l, true); (j, false); (i, false)]).
  rewrite gen2_Tact. rewrite (lin_ext _ (Tact_linear _) _ (Tact s (Tact s v))).
  2: { intros y. rewrite gen2_Tact. apply (lin_ext _ (Tact_linear _)). intros z. apply gen2_Tact. }
  rewrite gen2_Tact. refine (Tact_cube (K:=R) s v x _ ltac:(discriminate)). cbn. repeat (constructor; [cbn; intuition congruence|]). constructor.
Qed.

(** ** Signs of the reordering *)
Lemma toblock_comb n a b (f g : vec) D : toblock n (fun x => a * f x + b * g x) D = a * toblock n f D + b * toblock n g D.
Proof. unfold toblock. destruct (bsign n D); cbn [sgn ropp R_CRing]; ring. Qed.
Definition f2qs (n : nat) (s : list (nat * bool)) : list (nat * bool) := map (fun o => (f2q (fst o) n, snd o)) s.
Lemma toblock_Tact n s (v : vec) : (forall o, In o s -> (fst o < 2 * n)%nat) -> forall D,
  toblock n (Tact (K:=R) s v) D = Tact (f2qs n s) (toblock n v) D.
Proof.
  intros H D. unfold Tact.
  assert (toblock n (fun x => (appstr (K:=R) s v x - appstr (adjstr s) v x)%K) D = toblock n (appstr (K:=R) s v) D - toblock n (appstr (adjstr s) v) D) as ->.
  { unfold toblock. destruct (bsign n D); cbn [sgn ropp rsub R_CRing]; ring. }
  rewrite !toblock_appstr; auto.
  - cbn [rsub R_CRing]. f_equal. f_equal. unfold adjstr, f2qs. rewrite map_rev, !map_map. reflexivity.
  - intros o Ho. unfold adjstr in Ho. apply in_rev in Ho. apply in_map_iff in Ho as ([p b] & <- & Ho). apply (H _ Ho).
Qed.

(** The encoding of a state of the active space in the register of [2 n] qubits:
    amplitudes at the blocked determinants, with the reordering sign. *)
Definition toreg (n : nat) (f : vec) : vec := fun D => if (D <? 2 ^ N.of_nat (2 * n))%N then toblock n f D else 0.
Definition enc (n : nat) (f : vec) : N -> R * R := fun D => cre (toreg n f D).
Lemma low_flip m q D : (q < m)%nat -> (flip D q <? 2 ^ N.of_nat m)%N = (D <? 2 ^ N.of_nat m)%N.
Proof.
  intros Hq.
  assert (G : forall D, (D < 2 ^ N.of_nat m)%N -> (flip D q < 2 ^ N.of_nat m)%N).
  { intros E HE. apply bits_small. intros k Hk. unfold flip. rewrite N.lxor_spec, (small_bit m E k) by assumption.
    rewrite N.shiftl_1_l, N.pow2_bits_eqb. destruct (N.eqb_spec (N.of_nat q) k); [lia|reflexivity]. }
  destruct (N.ltb_spec D (2 ^ N.of_nat m)) as [H|H].
  - apply N.ltb_lt. now apply G.
  - apply N.ltb_ge. destruct (N.lt_ge_cases (flip D q) (2 ^ N.of_nat m)) as [H'|H']; [|exact H']. apply G in H'. rewrite flip_flip in H'. lia.
Qed.
Lemma appstr_restr m s (v : vec) : (forall o, In o s -> (fst o < m)%nat) -> forall D,
  appstr (K:=R) s (fun E => if (E <? 2 ^ N.of_nat m)%N then v E else 0) D = if (D <? 2 ^ N.of_nat m)%N then appstr s v D else 0.
Proof.
  induction s as [|[p b] s IH]; intros H D; [reflexivity|]. cbn [appstr]. unfold app1. cbn [fst snd].
  rewrite IH by (intros o Ho; apply H; now right). rewrite low_flip by (apply (H (p, b)); now left).
  destruct (Bool.eqb (occ D p) b), (D <? 2 ^ N.of_nat m)%N; try reflexivity. destruct (below D p); cbn [sgn ropp R_CRing]; ring.
Qed.
Lemma toreg_Tact n s (v : vec) : (forall o, In o s -> (fst o < 2 * n)%nat) -> forall D,
  toreg n (Tact (K:=R) s v) D = Tact (f2qs n s) (toreg n v) D.
Proof.
  intros H D. unfold toreg. rewrite toblock_Tact by assumption. unfold Tact.
  assert (forall o, In o (f2qs n s) -> (fst o < 2 * n)%nat) as Hf.
  { intros o Ho. unfold f2qs in Ho. apply in_map_iff in Ho as (p & <- & Hp). cbn [fst]. apply f2q_lt. now apply H. }
  rewrite !appstr_restr.
  - destruct (D <? 2 ^ N.of_nat (2 * n))%N; [reflexivity|]. cbn [rsub R_CRing]. ring.
  - intros o Ho. unfold adjstr in Ho. apply in_rev in Ho. apply in_map_iff in Ho as ([p b] & <- & Ho). apply (Hf _ Ho).
  - exact Hf.
Qed.
Lemma toreg_comb n a b (f g : vec) D : toreg n (fun x => a * f x + b * g x) D = a * toreg n f D + b * toreg n g D.
Proof. unfold toreg. rewrite toblock_comb. destruct (D <? 2 ^ N.of_nat (2 * n))%N; ring. Qed.
Lemma toreg_ext n (f g : vec) : (forall x, f x = g x) -> forall D, toreg n f D = toreg n g D.
Proof. intros H D. unfold toreg. now rewrite (toblock_ext n f g H). Qed.
Lemma Tact_zero s D : Tact (K:=R) s (fun _ => 0) D = 0.
Proof.
  pose proof (lin_comb _ (Tact_linear s) 0 0 (fun _ => 0) (fun _ => 0) D) as H0.
  rewrite (lin_ext _ (Tact_linear _) _ (fun _ => 0)) in H0 by (intros ?; ring). rewrite H0. ring.
Qed.
(** One gate of the state-vector ansatz and the circuit with the same generator. *)
Lemma enc_closed n s t A (v w : vec) : (forall o, In o s -> (fst o < 2 * n)%nat) ->
  (forall (f : vec) x, opapp A f x = Tact (f2qs n s) f x) ->
  (forall x, w x = gact (Tact s) (closed_cs t) v x) -> forall D,
  closed (cos t) (sin t) (creop A) (enc n v) D = enc n w D.
Proof.
  intros Hs HA Hw D.
  assert (Etb : toreg n w D = toreg n v D + sin t * Tact (f2qs n s) (toreg n v) D + (1 - cos t) * Tact (f2qs n s) (Tact (f2qs n s) (toreg n v)) D).
  { rewrite (toreg_ext n w (fun x => 1 * v x + 1 * (sin t * Tact s v x + (1 - cos t) * Tact s (Tact s v) x))).
    2: { intros x. rewrite Hw. unfold gact, closed_cs. cbn [gsum]. ring. }
    rewrite toreg_comb, toreg_comb. rewrite !toreg_Tact by assumption.
    rewrite (lin_ext _ (Tact_linear _) (toreg n (Tact s v)) (Tact (f2qs n s) (toreg n v))) by (intros ?; now apply toreg_Tact). ring. }
  rewrite (surjective_pairing (closed _ _ _ _ D)), fst_closed, snd_closed. unfold enc, cre. cbn [fst snd]. f_equal.
  - rewrite Etb. rewrite HA, (opapp_ext A (opapp A _) (Tact (f2qs n s) (toreg n v))), HA by (intros; apply HA). reflexivity.
  - assert (Z : forall E, opapp A (fun _ => 0) E = 0) by (intros E; rewrite HA; apply Tact_zero).
    change (0 + sin t * opapp A (fun _ => 0) D + (1 - cos t) * opapp A (opapp A (fun _ => 0)) D = 0).
    rewrite (opapp_ext A (opapp A (fun _ => 0)) (fun _ => 0) Z), !Z. ring.
Qed.

(** ** One excitation *)
Definition half (t : R) : R * R := (cos (t / 2), sin (t / 2)).
Definition eighth (t : R) : R * R := (cos (t / 8), sin (t / 8)).
Notation s2 := (/ sqrt 2).
Notation single_c := (single_excitation half (cos (PI / 4)) (sin (PI / 4))).
Notation sa_single_c := (sa_single_excitation half (cos (PI / 4)) (sin (PI / 4))).
Notation double_c := (double_excitation eighth).

Lemma gact_op (T T' : vec -> vec) t v x : linear T' -> (forall w y, T w y = T' w y) ->
  gact T (closed_cs t) v x = gact T' (closed_cs t) v x.
Proof.
  intros HL H. unfold gact, closed_cs. cbn [gsum]. rewrite !H. rewrite (lin_ext T' HL (T v) (T' v)) by (intros ?; apply H). ring.
Qed.
Lemma single_circ k i n t : match single_excitation_efficient (cos (t / 2)) (sin (t / 2)) (cos (PI / 4)) (sin (PI / 4)) k i n with
    | Ok c => (f2q i n < f2q k n)%nat /\ forall (psi : qstate (K:=R)) x, run s2 c psi x = closed (cos t) (sin t) (creop (gen1 (f2q k n) (f2q i n))) psi x
    | Raise ValueError => (f2q k n <= f2q i n)%nat
    | _ => False
    end.
Proof.
  unfold single_excitation_efficient. rewrite quarter_eq.
  pose proof (single_spec (K:=R) s2 (cos (t / 2)) (sin (t / 2)) (cos (PI / 4)) (f2q k n) (f2q i n) (half_sq t) quarter_sq) as H.
  destruct (single_excitation_qubits _ _ _ _ _ _) as [c|e|]; [|exact H|exact H]. destruct H as [H1 H2]. split; [exact H1|].
  intros psi x. rewrite H2, creop_gen1. cbn [rmul radd rsub R_CRing]. now rewrite half_cos, half_sin.
Qed.
Lemma double_circ k l i j n t : distinct4 k l i j -> (k < 2 * n)%nat -> (l < 2 * n)%nat -> (i < 2 * n)%nat -> (j < 2 * n)%nat ->
  match double_excitation_efficient (cos (t / 8)) (sin (t / 8)) k l i j n with
  | Ok c => (i < k)%nat /\ (j < k)%nat /\ (i < l)%nat /\ (j < l)%nat /\ Nat.even (k + l + i + j) = true /\
      forall (psi : qstate (K:=R)) x, run s2 c psi x = closed (cos t) (sin t) (creop (gen2 (f2q k n) (f2q l n) (f2q i n) (f2q j n))) psi x
  | Raise ValueError => ~ ((i < k)%nat /\ (j < k)%nat /\ (i < l)%nat /\ (j < l)%nat /\ Nat.even (k + l + i + j) = true)
  | _ => False
  end.
Proof.
  intros HD Hk Hl Hi Hj.
  assert (cos (t / 8) * cos (t / 8) + sin (t / 8) * sin (t / 8) = 1) as H1 by (replace (t / 8) with (t / 4 / 2) by lra; apply half_sq).
  pose proof (double_spec (K:=R) s2 (cos (t / 8)) (sin (t / 8)) k l i j n s2_sq H1 HD Hk Hl Hi Hj) as H.
  destruct (double_excitation_efficient _ _ _ _ _ _ _) as [c|e|]; [|exact H|exact H].
  destruct H as (A1 & A2 & A3 & A4 & A5 & H). do 5 (split; [assumption|]). intros psi x. rewrite H, creop_gen2, oct_eighth. reflexivity.
Qed.

Section OneGate.
  Variables (tiny : R -> bool) (sp : space) (th : threads).
  Hypothesis HS : sector tiny sp th.
  Notation n := (sp_na sp).
  Notation d := (dim (sp_ci sp)).
  Notation kt := (ket (K:=R) (sp_na sp) (sp_ci sp)).

  (** A spin-orbital gate applies the closed form of its generator. *)
  Lemma gate_closed g l t st out : gate_ok n 0 (g, l) -> order_of g <> None -> length st = d -> ups_gate tiny sp th 0 (g, l) t st = Ok out ->
    forall x, kt out x = gact (Tact (gstr (fst (half_split l)) (snd (half_split l)))) (closed_cs t) (kt st) x.
  Proof.
    destruct HS as [Ht Hp (na & nb & Hc) Hth]. intros H Ho Hl E x.
    destruct (gate_state tiny sp th na nb Ht Hp Hc Hth 0 (g, l) H) as (D & _ & _ & S & HR). destruct (HR t st Hl) as (o & E' & _ & K).
    rewrite E' in E. injection E as <-. rewrite K.
    assert (gate_cs (fst (g, l)) t = closed_cs t) as -> by (destruct g; try reflexivity; now destruct Ho).
    apply gact_op; [apply Tact_linear|]. intros w y. rewrite S.
    assert (gen_spec 0 (g, l) w y = let '(iocc, avirt) := half_split (map (fun p => p + 2 * 0)%nat l) in Tact (gstr iocc avirt) w y) as -> by (destruct g; try reflexivity; now destruct Ho).
    replace (map (fun p => p + 2 * 0)%nat l) with l; [destruct (half_split l); reflexivity|].
    rewrite <- (map_id l) at 1. apply map_ext. intros; lia.
  Qed.

  Lemma single_gate_circuit i a t st out c : gate_ok n 0 (Single, [i; a]) -> single_c i a n t = Ok c -> length st = d ->
    ups_gate tiny sp th 0 (Single, [i; a]) t st = Ok out -> forall D, run s2 c (enc n (kt st)) D = enc n (kt out) D.
  Proof.
    intros H Hc Hl E D. pose proof (single_circ a i n t) as Hs. unfold single_excitation, half in Hc. cbn [fst snd] in Hc. rewrite Hc in Hs.
    destruct Hs as [_ Hs]. rewrite Hs. pose proof H as H0. destruct H0 as (_ & _ & Hb & _).
    apply (enc_closed n [(a, true); (i, false)]).
    - intros o [<-|[<-|[]]]; cbn [fst]; [specialize (Hb a)|specialize (Hb i)]; cbn in Hb; lia.
    - intros. apply gen1_Tact.
    - intros x. rewrite (gate_closed Single [i; a] t st out H ltac:(discriminate) Hl E). reflexivity.
  Qed.
  Lemma double_gate_circuit i j a b t st out c : gate_ok n 0 (Double, [i; j; a; b]) -> NoDup [i; j; a; b] -> double_c i j a b n t = Ok c -> length st = d ->
    ups_gate tiny sp th 0 (Double, [i; j; a; b]) t st = Ok out -> forall D, run s2 c (enc n (kt st)) D = enc n (kt out) D.
  Proof.
    intros H HN Hc Hl E D. pose proof H as H0. destruct H0 as (H1 & H2 & Hb & H4).
    assert (forall p, In p [i; j; a; b] -> (p < 2 * n)%nat) as Hb' by (intros p Hp; specialize (Hb p Hp); lia).
    assert (distinct4 a b i j) as HD.
    { repeat match goal with H : NoDup (_ :: _) |- _ => inversion_clear H end. cbn [In] in *. unfold distinct4. intuition congruence. }
    pose proof (double_circ a b i j n t HD (Hb' a ltac:(cbn; auto)) (Hb' b ltac:(cbn; auto)) (Hb' i ltac:(cbn; auto)) (Hb' j ltac:(cbn; auto))) as Hs.
    unfold double_excitation, eighth in Hc. cbn [fst snd] in Hc. rewrite Hc in Hs.
    destruct Hs as (_ & _ & _ & _ & _ & Hs). rewrite Hs.
    apply (enc_closed n [(a, true); (b, true); (j, false); (i, false)]).
    - intros o [<-|[<-|[<-|[<-|[]]]]]; cbn [fst]; apply Hb'; cbn; auto.
    - intros. apply gen2_Tact.
    - intros x. rewrite (gate_closed Double [i; j; a; b] t st out H ltac:(discriminate) Hl E). reflexivity.
  Qed.
  Lemma sa_single_gate_circuit i a t st out c : gate_ok n 0 (SaSingle, [i; a]) -> sa_single_c i a n t = Ok c -> length st = d ->
    ups_gate tiny sp th 0 (SaSingle, [i; a]) t st = Ok out -> forall D, run s2 c (enc n (kt st)) D = enc n (kt out) D.
  Proof.
    intros H Hc Hl E D. unfold sa_single_excitation, half, sa_single_excitation_efficient in Hc. cbn [fst snd] in Hc.
    pose proof (single_circ (2 * a) (2 * i) n t) as Ha. pose proof (single_circ (2 * a + 1) (2 * i + 1) n t) as Hb.
    destruct (single_excitation_efficient _ _ _ _ (2 * a) (2 * i) n) as [ca|?|]; try discriminate. cbn [bind] in Hc.
    destruct (single_excitation_efficient _ _ _ _ (2 * a + 1) (2 * i + 1) n) as [cb|?|]; try discriminate. cbn [bind] in Hc. injection Hc as <-.
    destruct Ha as [_ Ha], Hb as [_ Hb]. rewrite run_app'.
    pose proof H as H0. destruct H0 as (Hne & Hi & Hj). rewrite !Nat.add_0_r in Hi, Hj.
    set (sa := [((2 * a)%nat, true); ((2 * i)%nat, false)]). set (sb := [((2 * a + 1)%nat, true); ((2 * i + 1)%nat, false)]).
    set (v := kt st). set (w := gact (Tact sa) (closed_cs t) v).
    assert (forall E, run s2 ca (enc n v) E = enc n w E) as H1.
    { intros E0. rewrite Ha. apply (enc_closed n sa).
      - intros o [<-|[<-|[]]]; cbn [fst]; lia.
      - intros. apply gen1_Tact.
      - reflexivity. }
    rewrite (run_ext s2 cb _ _ H1). rewrite Hb. apply (enc_closed n sb).
    { intros o [<-|[<-|[]]]; cbn [fst]; lia. }
    { intros. apply gen1_Tact. }
    intros x. destruct HS as [Ht Hp (na & nb & Hci) Hth].
    destruct (gate_state tiny sp th na nb Ht Hp Hci Hth 0 (SaSingle, [i; a]) H) as (G & _ & _ & S & HR). destruct (HR t st Hl) as (o & E' & _ & Kx).
    rewrite E' in E. injection E as <-. rewrite Kx. fold v. unfold w.
    rewrite (two_gates (Tact sa) (Tact sb)); try apply Tact_linear.
    - cbn [fst gate_cs].
      assert (HSG : forall u y, sumop (Tact sa) (Tact sb) u y = opapp G u y).
      { intros u y. rewrite S. cbn [gen_spec]. rewrite !Nat.add_0_r, <- Tact_pair_E. reflexivity. }
      unfold gact. f_equal.
      assert (forall cs u, gsum (opapp G) cs u x = gsum (sumop (Tact sa) (Tact sb)) cs u x) as ->; [|reflexivity].
      induction cs as [|c0 cs IH]; intros u; cbn [gsum]; [reflexivity|]. rewrite IH. rewrite <- HSG. f_equal.
      apply (gsum_ext (sumop (Tact sa) (Tact sb)) (sumop_linear _ _ (Tact_linear sa) (Tact_linear sb))). intros y. symmetry. apply HSG.
    - intros u y.
      assert (L : forall s u w y, appstr (K:=R) s (fun z => u z - w z) y = appstr s u y - appstr s w y).
      { intros s0 u0 w0 y0. pose proof (appstr_add s0 u0 (fun z => - 1 * w0 z) y0) as E1. pose proof (appstr_scale s0 (-1) w0 y0) as E2.
        cbn in E1, E2. rewrite E2 in E1. rewrite (appstr_ext s0 _ (fun z => u0 z + -1 * w0 z)) by (intros; ring). rewrite E1. ring. }
      unfold Tact. cbn [R_CRing rsub]. rewrite !L.
      assert (Cm : forall s t, In s [sa; adjstr sa] -> In t [sb; adjstr sb] -> appstr (K:=R) s (appstr t u) y = appstr t (appstr s u) y).
      { intros s0 t0 Hs Ht0. destruct Hs as [<-|[<-|[]]]; destruct Ht0 as [<-|[<-|[]]]; unfold sa, sb, adjstr; cbn [map rev app fst snd negb]; apply pair_commute; lia. }
      cbn [In] in Cm. rewrite (Cm sa sb), (Cm sa (adjstr sb)), (Cm (adjstr sa) sb), (Cm (adjstr sa) (adjstr sb)) by auto. ring.
    - intros u y. refine (Tact_cube (K:=R) sa u y _ ltac:(discriminate)). cbn. constructor; [cbn; lia|]. constructor; [auto|constructor].
    - intros u y. refine (Tact_cube (K:=R) sb u y _ ltac:(discriminate)). cbn. constructor; [cbn; lia|]. constructor; [auto|constructor].
  Qed.
End OneGate.

(** ** Parameter names *)
Lemma name_eqb_eq a b : name_eqb a b = true <-> a = b.
Proof.
  revert b. induction a as [|x a IH]; intros [|y b]; cbn [name_eqb]; try (split; congruence).
  rewrite andb_true_iff, Nat.eqb_eq, IH. split; [intros [-> ->]; reflexivity|]. intros E. injection E as <- <-. auto.
Qed.
Definition dval_from (acc : nat) (l : list nat) : nat := fold_left (fun a d => 10 * a + d)%nat l acc.
Lemma dval_from_eq acc l : dval_from acc l = (acc * 10 ^ length l + dval_from 0 l)%nat.
Proof.
  revert acc. induction l as [|d l IH]; intros acc; [cbn; lia|]. cbn [dval_from fold_left length]. fold (dval_from (10 * acc + d) l). fold (dval_from (10 * 0 + d) l).
  rewrite IH, (IH (10 * 0 + d)%nat). rewrite Nat.pow_succ_r'. lia.
Qed.
Lemma dval_bound l : Forall (fun d => d < 10)%nat l -> (dval_from 0 l < 10 ^ length l)%nat.
Proof.
  induction l as [|d l IH]; intros H; [cbn; lia|]. inversion_clear H as [|? ? H1 H2]. specialize (IH H2). cbn [dval_from fold_left length].
  fold (dval_from (10 * 0 + d) l). rewrite dval_from_eq, Nat.pow_succ_r'. nia.
Qed.
Lemma name_le_val a b : length a = length b -> Forall (fun d => d < 10)%nat a -> Forall (fun d => d < 10)%nat b ->
  (dval_from 0 a <= dval_from 0 b)%nat -> name_le a b = true.
Proof.
  revert b. induction a as [|x a IH]; intros [|y b] Hl Ha Hb H; try discriminate; [reflexivity|]. cbn [length] in Hl. injection Hl as Hl.
  inversion_clear Ha as [|? ? Hx Ha']. inversion_clear Hb as [|? ? Hy Hb']. cbn [dval_from fold_left] in H.
  change (dval_from (10 * 0 + x) a <= dval_from (10 * 0 + y) b)%nat in H. rewrite (dval_from_eq _ a), (dval_from_eq _ b), Hl in H.
  pose proof (dval_bound a Ha') as B1. pose proof (dval_bound b Hb') as B2. rewrite Hl in B1. cbn [name_le].
  destruct (Nat.ltb_spec x y); [reflexivity|]. destruct (Nat.eqb_spec x y) as [->|]; cbn [orb andb]; [apply IH; auto; lia|]. nia.
Qed.
Lemma digits_len fuel n k : (0 < k)%nat -> (n < 10 ^ k)%nat -> (length (digits_loop fuel n) <= k)%nat.
Proof.
  revert n k. induction fuel as [|f IH]; intros n k Hk Hn; cbn [digits_loop]; [cbn; lia|].
  destruct (Nat.ltb_spec n 10); [cbn; lia|]. rewrite app_length. cbn [length]. destruct k as [|[|k]]; [lia|cbn in Hn; lia|].
  assert (length (digits_loop f (n / 10)) <= S k)%nat; [|lia]. apply IH; [lia|]. rewrite Nat.pow_succ_r' in Hn. apply Nat.div_lt_upper_bound; lia.
Qed.
Lemma pname_len n : (n < 10 ^ 9)%nat -> length (pname n) = 9%nat.
Proof.
  intros H. unfold pname. rewrite app_length, repeat_length. assert (length (digits n) <= 9)%nat; [|lia]. unfold digits. apply digits_len; [lia|exact H].
Qed.
Lemma pname_le m n : (m <= n)%nat -> (n < 10 ^ 9)%nat -> name_le (pname m) (pname n) = true.
Proof.
  intros H Hn. apply name_le_val.
  - rewrite !pname_len; auto. apply Nat.le_lt_trans with n; auto.
  - apply pname_digits.
  - apply pname_digits.
  - change (dval (pname m) <= dval (pname n))%nat. now rewrite !pname_val.
Qed.
Lemma sort_pnames lo len : (lo + len <= 10 ^ 9)%nat -> sort_names (map pname (seq lo len)) = map pname (seq lo len).
Proof.
  revert lo. induction len as [|len IH]; intros lo H; [reflexivity|]. cbn [seq map]. unfold sort_names in *. cbn [fold_right].
  rewrite IH by (rewrite Nat.add_succ_comm; exact H). destruct len as [|len]; [reflexivity|]. cbn [seq map insert_name]. rewrite pname_le; [reflexivity|lia|].
  apply Nat.lt_le_trans with (lo + S (S len))%nat; [lia|exact H].
Qed.
(** The k-th value is bound to the k-th parameter of the layout. *)
Lemma bound_pname {A} (dflt : A) vals k : (length vals <= 10 ^ 9)%nat -> (k < length vals)%nat ->
  bound_value dflt (map pname (seq 0 (length vals))) vals (pname k) = nth k vals dflt.
Proof.
  intros H Hk. unfold bound_value. rewrite sort_pnames by exact H.
  assert (G : forall lo vals k, (k < length vals)%nat ->
    match find (fun nv : list nat * A => name_eqb (pname (lo + k)) (fst nv)) (combine (map pname (seq lo (length vals))) vals) with Some nv => snd nv | None => dflt end = nth k vals dflt).
  { clear. intros lo vals. revert lo. induction vals as [|v vals IH]; intros lo k Hk; [cbn in Hk; lia|]. cbn [length seq map combine find fst].
    destruct k as [|k].
    - rewrite Nat.add_0_r. assert (name_eqb (pname lo) (pname lo) = true) as -> by now apply name_eqb_eq. reflexivity.
    - destruct (name_eqb (pname (lo + S k)) (pname lo)) eqn:E; [apply name_eqb_eq, pname_inj in E; lia|]. cbn [nth]. rewrite <- (IH (S lo)) by (cbn in Hk; lia).
      now rewrite Nat.add_succ_comm. }
  apply (G 0%nat). exact Hk.
Qed.

(** ** Whole layouts *)
(** Creation indices above annihilation indices, as the circuits demand. *)
Definition fits (e : exc) : Prop :=
  match e with
  | (Single, [i; a]) | (SaSingle, [i; a]) => (i < a)%nat
  | (Double, [i; j; a; b]) => (i < a)%nat /\ (i < b)%nat /\ (j < a)%nat /\ (j < b)%nat
  | _ => False
  end.
Definition shift_count (g : gtype) : nat := match g with SaSingle => 4 | _ => 2 end.

Lemma f2q_same i a n : (i < 2 * n)%nat -> (a < 2 * n)%nat -> Nat.even i = Nat.even a -> (f2q i n < f2q a n)%nat <-> (i < a)%nat.
Proof.
  intros Hi Ha He. unfold f2q.
  rewrite (Nat.div_mod i 2) in * by lia. rewrite (Nat.div_mod a 2) in * by lia.
  pose proof (Nat.mod_upper_bound i 2 ltac:(lia)). pose proof (Nat.mod_upper_bound a 2 ltac:(lia)).
  set (qi := (i / 2)%nat) in *. set (ri := (i mod 2)%nat) in *. set (qa := (a / 2)%nat) in *. set (ra := (a mod 2)%nat) in *.
  assert (forall q r, (r < 2)%nat -> (2 * q + r) mod 2 = r /\ (2 * q + r) / 2 = q)%nat as G.
  { intros q r Hr. replace (2 * q + r)%nat with (r + q * 2)%nat by lia. rewrite Nat.mod_add, Nat.div_add by lia. rewrite Nat.mod_small, Nat.div_small by lia. lia. }
  destruct (G qi ri) as [-> ->]; [lia|]. destruct (G qa ra) as [-> ->]; [lia|].
  assert (ri = ra) as ->.
  { rewrite !Nat.even_add, !Nat.even_mul in He. cbn [Nat.even orb] in He. destruct ri as [|[|]]; [| |lia]; destruct ra as [|[|]]; try lia; discriminate. }
  destruct (Nat.eqb_spec ra 0); lia.
Qed.

Section Layouts.
  Variables (tiny : R -> bool) (sp : space) (th : threads).
  Hypothesis HS : sector tiny sp th.
  Notation n := (sp_na sp).
  Notation d := (dim (sp_ci sp)).
  Notation kt := (ket (K:=R) (sp_na sp) (sp_ci sp)).
  Variable par : list nat -> R.
  Notation stepL := (layout_step half eighth (cos (PI / 4)) (sin (PI / 4)) par n).

  Lemma single_fits i a : gate_ok n 0 (Single, [i; a]) -> (f2q i n < f2q a n)%nat <-> (i < a)%nat.
  Proof.
    intros (_ & _ & Hb & Hs). apply f2q_same.
    - specialize (Hb i); cbn in Hb; lia.
    - specialize (Hb a); cbn in Hb; lia.
    - unfold spins_match in Hs. cbn [firstn skipn filter] in Hs. destruct (Nat.even i), (Nat.even a); cbn in Hs; congruence.
  Qed.
  Lemma double_even i j a b : gate_ok n 0 (Double, [i; j; a; b]) -> Nat.even (a + b + i + j) = true.
  Proof.
    intros (_ & _ & _ & Hs). unfold spins_match in Hs. cbn [firstn skipn filter] in Hs. rewrite !Nat.even_add.
    destruct (Nat.even i), (Nat.even j), (Nat.even a), (Nat.even b); cbn in *; congruence.
  Qed.

  Lemma exc_step qc Rs idx e : gate_ok n 0 e -> NoDup (snd e) ->
    match stepL (qc, Rs, idx) e with
    | Ok st' => fits e /\ exists c, st' = (qc ++ c, Rs ++ [(pname idx, shift_count (fst e))], idx + 1)%nat /\
        forall st out, length st = d -> ups_gate tiny sp th 0 e (par (pname idx)) st = Ok out ->
        forall D, run s2 c (enc n (kt st)) D = enc n (kt out) D
    | Raise ValueError => ~ fits e
    | _ => False
    end.
  Proof.
    intros H HN. destruct e as [g l]. cbn [snd fst] in *. unfold layout_step. cbn [fst snd].
    destruct g; try (intros Hf; exact Hf).
    - destruct l as [|i [|a [|? ?]]]; try (destruct H as (Hl & _); cbn in Hl; lia).
      pose proof (single_circ a i n (par (pname idx))) as Hs. unfold single_excitation at 1. cbn [half fst snd].
      destruct (single_excitation_efficient _ _ _ _ a i n) as [c|e|] eqn:E; cbn [bind].
      + split; [cbn [fits]; apply (single_fits i a H), Hs|]. exists c. split; [reflexivity|]. intros st out Hl Hg. exact (single_gate_circuit tiny sp th HS i a _ st out c H E Hl Hg).
      + destruct e; try contradiction. intros Hf. cbn [fits] in Hf. apply (single_fits i a H) in Hf. lia.
      + exact Hs.
    - destruct l as [|i [|j [|a [|b [|? ?]]]]]; try (destruct H as (Hl & _); cbn in Hl; lia).
      assert (forall p, In p [i; j; a; b] -> (p < 2 * n)%nat) as Hb' by (destruct H as (_ & _ & Hb & _); intros p Hp; specialize (Hb p Hp); lia).
      assert (distinct4 a b i j) as HD.
      { clear - HN. repeat match goal with H : NoDup (_ :: _) |- _ => inversion_clear H end. cbn [In] in *. unfold distinct4. intuition congruence. }
      pose proof (double_circ a b i j n (par (pname idx)) HD (Hb' a ltac:(cbn; auto)) (Hb' b ltac:(cbn; auto)) (Hb' i ltac:(cbn; auto)) (Hb' j ltac:(cbn; auto))) as Hs.
      unfold double_excitation at 1. cbn [eighth fst snd].
      destruct (double_excitation_efficient _ _ a b i j n) as [c|e|] eqn:E; cbn [bind].
      + split; [cbn [fits]; tauto|]. exists c. split; [reflexivity|]. intros st out Hl Hg. exact (double_gate_circuit tiny sp th HS i j a b _ st out c H HN E Hl Hg).
      + destruct e; try contradiction. intros Hf. apply Hs. pose proof (double_even i j a b H). cbn [fits] in Hf. tauto.
      + exact Hs.
    - destruct l as [|i [|a [|? ?]]]; try contradiction. pose proof H as (Hne & Hi & Ha). rewrite Nat.add_0_r in Hi, Ha.
      pose proof (single_circ (2 * a) (2 * i) n (par (pname idx))) as H1. pose proof (single_circ (2 * a + 1) (2 * i + 1) n (par (pname idx))) as H2.
      destruct (sa_single_c i a n (par (pname idx))) as [c|e|] eqn:E; cbn [bind].
      + split.
        { unfold sa_single_excitation, sa_single_excitation_efficient in E. cbn [half fst snd] in E.
          destruct (single_excitation_efficient _ _ _ _ (2 * a) (2 * i) n); try discriminate. destruct H1 as [H1 _].
          rewrite !f2q_even in H1. cbn [fits]. lia. }
        exists c. split; [reflexivity|]. intros st out Hl Hg. exact (sa_single_gate_circuit tiny sp th HS i a _ st out c H E Hl Hg).
      + unfold sa_single_excitation, sa_single_excitation_efficient in E. cbn [half fst snd] in E. rewrite !f2q_even in H1. rewrite !f2q_odd in H2.
        destruct (single_excitation_efficient _ _ _ _ (2 * a) (2 * i) n) as [?|e0|]; cbn [bind] in E; [|injection E as ->; destruct e; try contradiction; cbn [fits]; lia|discriminate].
        destruct (single_excitation_efficient _ _ _ _ (2 * a + 1) (2 * i + 1) n) as [?|e0|]; cbn [bind] in E; [discriminate|injection E as ->; destruct e; try contradiction; cbn [fits]; lia|discriminate].
      + unfold sa_single_excitation, sa_single_excitation_efficient in E. cbn [half fst snd] in E.
        destruct (single_excitation_efficient _ _ _ _ (2 * a) (2 * i) n) as [?|e0|]; cbn [bind] in E; try discriminate; [|exact H1].
        destruct (single_excitation_efficient _ _ _ _ (2 * a + 1) (2 * i + 1) n) as [?|e0|]; cbn [bind] in E; try discriminate; exact H2.
  Qed.

  Notation foldL := (fold_left (fun acc e => bind acc (fun st => stepL st e))).
  Lemma foldL_raise es x : foldL es (Raise x) = Raise x.
  Proof. induction es; [reflexivity|exact IHes]. Qed.
  Lemma foldL_hang es : foldL es Hang = Hang.
  Proof. induction es; [reflexivity|exact IHes]. Qed.

  Lemma layout_loop es ts qc Rs idx : List.Forall (fun e => gate_ok n 0 e /\ NoDup (snd e)) es -> length ts = length es ->
    (forall k, (k < length ts)%nat -> par (pname (idx + k)) = nth k ts 0) ->
    match foldL es (Ok (qc, Rs, idx)) with
    | Ok st' => List.Forall fits es /\ exists c,
        st' = (qc ++ c, Rs ++ map (fun ke => (pname (fst ke), shift_count (fst (snd ke)))) (combine (seq idx (length es)) es), idx + length es)%nat /\
        forall st, length st = d -> exists out, length out = d /\
          fold_left (fun acc (et : exc * R) => bind acc (fun out => if tiny (snd et) then Ok out else ups_gate tiny sp th 0 (fst et) (snd et) out)) (combine es ts) (Ok st) = Ok out /\
          forall D, run s2 c (enc n (kt st)) D = enc n (kt out) D
    | Raise ValueError => ~ List.Forall fits es
    | _ => False
    end.
  Proof.
    revert ts qc Rs idx. induction es as [|e es IH]; intros [|t ts] qc Rs idx HF Hl Hp; try discriminate.
    - cbn [fold_left]. split; [constructor|]. exists []. rewrite !app_nil_r, Nat.add_0_r. split; [reflexivity|]. intros st Hst. exists st. auto.
    - inversion_clear HF as [|? ? [He1 He2] HF']. cbn [fold_left]. change (bind (Ok (qc, Rs, idx)) (fun st => stepL st e)) with (stepL (qc, Rs, idx) e).
      pose proof (exc_step qc Rs idx e He1 He2) as Hs. destruct (stepL (qc, Rs, idx) e) as [st'|er|]; [|rewrite foldL_raise; destruct er; try contradiction; intros Hf; inversion_clear Hf; auto|rewrite foldL_hang; exact Hs].
      destruct Hs as (Hfit & c & -> & Hc).
      specialize (IH ts (qc ++ c) (Rs ++ [(pname idx, shift_count (fst e))]) (idx + 1)%nat HF').
      specialize (IH ltac:(cbn in Hl; lia)). 
      specialize (IH ltac:(intros k Hk; rewrite <- Nat.add_assoc; apply (Hp (1 + k)%nat); cbn [length]; lia)).
      destruct (foldL es _) as [st'|er|]; [|destruct er; try contradiction; intros Hf; inversion_clear Hf; auto|exact IH].
      destruct IH as (Hfits & c' & -> & Hc'). split; [constructor; auto|]. exists (c ++ c'). split.
      { cbn [length seq combine map fst snd]. rewrite <- !app_assoc. cbn [app]. replace (idx + S (length es))%nat with (idx + 1 + length es)%nat by lia. rewrite Nat.add_1_r. reflexivity. }
      intros st Hst. cbn [combine fold_left snd fst].
      destruct HS as [Ht Hpos (na & nb & Hci) Hth].
      assert (Ep : par (pname idx) = t) by (specialize (Hp 0%nat); rewrite Nat.add_0_r in Hp; apply Hp; cbn; lia). rewrite Ep in Hc.
      assert (exists o1, length o1 = d /\ (if tiny t then Ok st else ups_gate tiny sp th 0 e t st) = Ok o1 /\ forall D, run s2 c (enc n (kt st)) D = enc n (kt o1) D) as (o1 & L1 & E1 & S1).
      { destruct (gate_sem_ok tiny sp th HS 0 e He1) as (G & F & HG). destruct (gs_run _ _ _ _ _ _ _ HG t st Hst) as (o & Eo & Lo & So).
        destruct (tiny t) eqn:Et.
        - exists st. split; [exact Hst|]. split; [reflexivity|]. intros D. rewrite (Hc st o Hst Eo).
          assert (o = st) as ->; [|reflexivity]. apply (kt_eq tiny sp th HS); auto. intros y. rewrite So. apply Ht in Et. rewrite Et. apply (gs_zero _ _ _ _ _ _ _ HG).
        - exists o. split; [exact Lo|]. split; [exact Eo|]. apply (Hc st o Hst Eo). }
      destruct (Hc' o1 L1) as (out & Lout & Eout & Sout). exists out. split; [exact Lout|]. split.
      + rewrite <- Eout. f_equal. exact E1.
      + intros D. rewrite run_app'. rewrite (run_ext s2 c' _ _ S1). apply Sout.
  Qed.
End Layouts.
