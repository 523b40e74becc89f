(** The "sa_single" gate: two commuting generators with [A^3 = -A], [B^3 = -B]. *)
From Coq Require Import List Bool Arith NArith ZArith Reals Lra Lia Psatz.
From Verif Require Import Base RRing Fock FockMore FermiModel FermiProofs FermiAlgebra FermiFold OperatorsModel OperatorsProofs
  OperatorsGen OperatorsKeys SaPoly GateAlgebra UPSModel UPSProofs.
Import ListNotations.
Local Open Scope R_scope.

(** ** "sa_single": two commuting generators *)
Lemma pair_commute p q r s (a b c d : bool) (v : vec) x :
  p <> r -> p <> s -> q <> r -> q <> s ->
  appstr [(p, a); (q, b)] (appstr [(r, c); (s, d)] v) x = appstr [(r, c); (s, d)] (appstr [(p, a); (q, b)] v) x.
Proof.
  intros H1 H2 H3 H4. cbn [appstr].
  assert (Hs : forall o u w y, (forall z, u z = - w z) -> app1 o u y = - app1 (K:=R) o w y).
  { intros o u w y H. unfold app1. destruct (Bool.eqb _ _); cbn; [|ring]. unfold sgn. rewrite H. destruct (below y (fst o)); cbn; ring. }
  assert (Sw : forall p q a b u y, p <> q -> app1 (p, a) (app1 (q, b) u) y = - app1 (K:=R) (q, b) (app1 (p, a) u) y).
  { intros. refine (car_swap (K:=R) (C:=R_CRing) _ _ _ _ _ _ _). auto. }
  rewrite (Hs (p, a) _ (app1 (r, c) (app1 (q, b) (app1 (s, d) v)))) by (intros; now apply Sw).
  rewrite (Sw p r) by auto.
  rewrite (app1_ext (K:=R) (C:=R_CRing) (r, c) (app1 (p, a) (app1 (q, b) (app1 (s, d) v))) (app1 (s, d) (app1 (p, a) (app1 (q, b) v)))); [ring|]. intros z.
  rewrite (Hs (p, a) _ (app1 (s, d) (app1 (q, b) v))) by (intros; now apply Sw).
  rewrite (Sw p s) by auto. ring.
Qed.

Section TwoCommuting.
  Variables A B : vec -> vec.
  Hypothesis HA : linear A.
  Hypothesis HB : linear B.
  Hypothesis HC : forall v x, A (B v) x = B (A v) x.
  Hypothesis A3 : forall v x, A (A (A v)) x = - A v x.
  Hypothesis B3 : forall v x, B (B (B v)) x = - B v x.

  Definition sumop (v : vec) : vec := fun x => A v x + B v x.
  Lemma sumop_linear : linear sumop.
  Proof.
    constructor.
    - intros v w H x. unfold sumop. now rewrite (lin_ext A HA v w H x), (lin_ext B HB v w H x).
    - intros a b v w x. unfold sumop. rewrite (lin_comb A HA), (lin_comb B HB). ring.
  Qed.

  (** Nine-term calculus: vectors [sum c_kl A^k B^l v], k, l < 3. *)
  Definition comb9 (c : nat -> nat -> R) (v : vec) : vec := fun x =>
    c 0%nat 0%nat * v x + c 1%nat 0%nat * A v x + c 2%nat 0%nat * A (A v) x
    + c 0%nat 1%nat * B v x + c 1%nat 1%nat * A (B v) x + c 2%nat 1%nat * A (A (B v)) x
    + c 0%nat 2%nat * B (B v) x + c 1%nat 2%nat * A (B (B v)) x + c 2%nat 2%nat * A (A (B (B v))) x.

  Lemma lin9 (F : vec -> vec) : linear F -> forall c1 c2 c3 c4 c5 c6 c7 c8 c9 v1 v2 v3 v4 v5 v6 v7 v8 v9 x,
    F (fun x => c1 * v1 x + c2 * v2 x + c3 * v3 x + c4 * v4 x + c5 * v5 x + c6 * v6 x + c7 * v7 x + c8 * v8 x + c9 * v9 x) x
    = c1 * F v1 x + c2 * F v2 x + c3 * F v3 x + c4 * F v4 x + c5 * F v5 x + c6 * F v6 x + c7 * F v7 x + c8 * F v8 x + c9 * F v9 x.
  Proof.
    intros HF c1 c2 c3 c4 c5 c6 c7 c8 c9 v1 v2 v3 v4 v5 v6 v7 v8 v9 x.
    rewrite !(T_plus F HF), !(T_scal F HF). ring.
  Qed.

  Lemma comb9_A c v x : A (comb9 c v) x =
    comb9 (fun k l => match k with
                      | 0%nat => 0 | 1%nat => c 0%nat l - c 2%nat l | _ => c 1%nat l end) v x.
  Proof.
    unfold comb9. rewrite (lin9 A HA). rewrite !A3. ring.
  Qed.
  Lemma comb9_B c v x : B (comb9 c v) x =
    comb9 (fun k l => match l with
                      | 0%nat => 0 | 1%nat => c k 0%nat - c k 2%nat | _ => c k 1%nat end) v x.
  Proof.
    unfold comb9. rewrite (lin9 B HB).
    assert (E1 : forall w y, B (A w) y = A (B w) y) by (intros; now rewrite HC).
    assert (E2 : forall w y, B (A (A w)) y = A (A (B w)) y).
    { intros w y. rewrite E1. apply (lin_ext A HA). intros z. apply E1. }
    rewrite !E2, !E1.
    assert (E3 : forall y, A (B (B (B v))) y = - A (B v) y).
    { intros y. rewrite (lin_ext A HA (B (B (B v))) (fun z => -1 * B v z)) by (intros z; rewrite B3; ring).
      rewrite (T_scal A HA). ring. }
    assert (E4 : forall y, A (A (B (B (B v)))) y = - A (A (B v)) y).
    { intros y. rewrite (lin_ext A HA (A (B (B (B v)))) (fun z => -1 * A (B v) z)) by (intros z; rewrite E3; ring).
      rewrite (T_scal A HA). ring. }
    rewrite E4, E3, B3. ring.
  Qed.
  Lemma comb9_ext c d v x : (forall k l, (k < 3)%nat -> (l < 3)%nat -> c k l = d k l) -> comb9 c v x = comb9 d v x.
  Proof. intros H. unfold comb9. rewrite !H by lia. reflexivity. Qed.
  Lemma comb9_id v x : v x = comb9 (fun k l => match k, l with 0%nat, 0%nat => 1 | _, _ => 0 end) v x.
  Proof. unfold comb9. ring. Qed.
  Lemma comb9_add c d v x : comb9 c v x + comb9 d v x = comb9 (fun k l => c k l + d k l) v x.
  Proof. unfold comb9. ring. Qed.
  Lemma comb9_mul r c v x : r * comb9 c v x = comb9 (fun k l => r * c k l) v x.
  Proof. unfold comb9. ring. Qed.

  Definition isc (c : nat -> nat -> R) (v w : vec) : Prop := forall x, w x = comb9 c v x.
  Definition cA (c : nat -> nat -> R) : nat -> nat -> R :=
    fun k l => match k with 0%nat => 0 | 1%nat => c 0%nat l - c 2%nat l | _ => c 1%nat l end.
  Definition cB (c : nat -> nat -> R) : nat -> nat -> R :=
    fun k l => match l with 0%nat => 0 | 1%nat => c k 0%nat - c k 2%nat | _ => c k 1%nat end.
  Lemma isc_A c v w : isc c v w -> isc (cA c) v (A w).
  Proof. intros H x. rewrite (lin_ext A HA w _ H x). apply comb9_A. Qed.
  Lemma isc_B c v w : isc c v w -> isc (cB c) v (B w).
  Proof. intros H x. rewrite (lin_ext B HB w _ H x). apply comb9_B. Qed.
  Lemma isc_add c d v w u : isc c v w -> isc d v u -> isc (fun k l => c k l + d k l) v (fun x => w x + u x).
  Proof. intros H1 H2 x. rewrite (H1 x), (H2 x). apply comb9_add. Qed.
  Lemma isc_mul r c v w : isc c v w -> isc (fun k l => r * c k l) v (fun x => r * w x).
  Proof. intros H x. rewrite (H x). apply comb9_mul. Qed.
  Lemma isc_S c v w : isc c v w -> isc (fun k l => cA c k l + cB c k l) v (sumop w).
  Proof. intros H. unfold sumop. apply isc_add; [now apply isc_A|now apply isc_B]. Qed.
  Lemma isc_0 v : isc (fun k l => match k, l with 0%nat, 0%nat => 1 | _, _ => 0 end) v v.
  Proof. intros x. apply comb9_id. Qed.
  Lemma isc_eq c d v w u : isc c v w -> isc d v u -> (forall k l, (k < 3)%nat -> (l < 3)%nat -> c k l = d k l) ->
    forall x, w x = u x.
  Proof. intros H1 H2 H x. rewrite (H1 x), (H2 x). now apply comb9_ext. Qed.

  Lemma sum_poly v x : mpoly sumop (map sq [1; 2]) v x = 0.
  Proof.
    revert x. change (forall x, sumop (qpoly sumop (map sq [1; 2]) v) x = (fun _ => 0) x).
    assert (Hz : isc (fun _ _ => 0) v (fun _ => 0)) by (intros x; unfold comb9; ring).
    eapply isc_eq; [apply isc_S; cbn [map qpoly]; apply isc_add;
      [do 2 apply isc_S; apply isc_add; [do 2 apply isc_S; apply isc_0|apply isc_mul, isc_0]
      |apply isc_mul, isc_add; [do 2 apply isc_S; apply isc_0|apply isc_mul, isc_0]]|exact Hz|].
    intros k l Hk Hl. unfold sq.
    destruct k as [|[|[|k]]]; try lia; destruct l as [|[|[|l]]]; try lia; cbn [cA cB]; ring.
  Qed.

  Definition sas_cs (t : R) : list R :=
    let s := sin t in let c := 1 - cos t in
    [s + s * c / 3; c + c * c / 6; s * c / 3; c * c / 6].

  Lemma sas_interp : interp [1; 2] sas_cs.
  Proof.
    intros l t [<-|[<-|[]]]; unfold sas_cs; cbn [coe].
    - rewrite !Rmult_1_l. f_equal; field.
    - replace (2 * t) with (t + t) by ring. rewrite cos_plus, sin_plus. pose proof (sin2_cos2 t) as H. unfold Rsqr in H.
      f_equal; [|field]. replace (cos t * cos t - sin t * sin t - 1) with (2 * (cos t * cos t - 1)) by lra. field.
  Qed.
  Lemma sas_par t : sas_cs (- t) = altneg true (sas_cs t).
  Proof. unfold sas_cs. cbn. rewrite sin_neg, cos_neg. repeat (apply f_equal2; [field|]); reflexivity. Qed.

  Theorem two_gates t v x : gact B (closed_cs t) (gact A (closed_cs t) v) x = gact sumop (sas_cs t) v x.
  Proof.
    revert x. unfold gact. cbn [closed_cs sas_cs gsum].
    assert (Z : forall w : vec, isc (fun _ _ => 0) w (fun _ => 0)) by (intros w x; unfold comb9; ring).
    assert (HU : exists c, isc c v (fun x => v x + (sin t * A v x + ((1 - cos t) * A (A v) x + 0))) /\
      c = fun k l => match l with 0%nat => match k with 0%nat => 1 | 1%nat => sin t | 2%nat => 1 - cos t | _ => 0 end | _ => 0 end).
    { eexists. split; [|reflexivity]. intros x. unfold comb9. ring. }
    destruct HU as (c & HU & Ec).
    eapply isc_eq.
    - apply isc_add; [exact HU|]. apply isc_add; [apply isc_mul, isc_B, HU|].
      apply isc_add; [apply isc_mul, isc_B, isc_B, HU|apply Z].
    - apply isc_add; [apply isc_0|]. apply isc_add; [apply isc_mul, isc_S, isc_0|].
      apply isc_add; [apply isc_mul; do 2 apply isc_S; apply isc_0|].
      apply isc_add; [apply isc_mul; do 3 apply isc_S; apply isc_0|].
      apply isc_add; [apply isc_mul; do 4 apply isc_S; apply isc_0|apply Z].
    - subst c. pose proof (sin2_cos2 t) as H. unfold Rsqr in H. intros k l Hk Hl.
      destruct k as [|[|[|k]]]; try lia; destruct l as [|[|[|l]]]; try lia; cbn [cA cB]; try field; nra.
  Qed.
End TwoCommuting.

(** ** The generators of every gate type *)

(** Action of the generator, from the excitation operators: spin-orbital
    excitations [t - t^dagger], and their spin-adapted combinations written with
    the singlet one-electron excitations [Eact p q = sum_sigma a+_p a_q]. *)
Definition half_split (l : list nat) : list nat * list nat :=
  (firstn (length l / 2) l, skipn (length l / 2) l)%nat.

Definition sa_pair (e : R) (i j a b : nat) (v : vec) : vec := fun x =>
  (Eact a i (Eact b j v) x + e * Eact a j (Eact b i v) x)
  - (Eact j b (Eact i a v) x + e * Eact i b (Eact j a v) x).

Definition gen_spec (off : nat) (e : exc) (v : vec) : vec := fun x =>
  match e with
  | (SaSingle, [i; a]) => Eact (a + off) (i + off) v x - Eact (i + off) (a + off) v x
  | (SaDouble1, [i; j; a; b]) => / 4 * sa_pair 1 (i + off) (j + off) (a + off) (b + off) v x
  | (SaDouble2, [i; j; a; b]) | (SaDouble3, [i; j; a; b]) =>
      / (2 * sqrt 2) * sa_pair 1 (i + off) (j + off) (a + off) (b + off) v x
  | (SaDouble4, [i; j; a; b]) => / 2 * sa_pair 1 (i + off) (j + off) (a + off) (b + off) v x
  | (SaDouble5, [i; j; a; b]) => / (2 * sqrt 3) * sa_pair (-1) (i + off) (j + off) (a + off) (b + off) v x
  | (_, l) => let '(iocc, avirt) := half_split (map (fun p => p + 2 * off)%nat l) in Tact (gstr iocc avirt) v x
  end.

(** Number of indices of a spin-orbital excitation. *)
Definition order_of (g : gtype) : option nat :=
  match g with
  | Single => Some 1 | Double => Some 2 | Triple => Some 3 | Quadruple => Some 4 | Quintuple => Some 5 | Sextuple => Some 6
  | _ => None
  end%nat.

(** Excitations a structure may contain for [n] orbitals: as many occupied as
    virtual spin orbitals, no index on both sides, the same number of alpha (even)
    and of beta (odd) indices on both sides (an index repeated on one side gives
    the zero generator); spin-adapted ones with the index
    coincidences that belong to their case. *)
Definition spins_match (iocc avirt : list nat) : Prop :=
  length (filter Nat.even iocc) = length (filter Nat.even avirt).
Definition gate_ok (n off : nat) (e : exc) : Prop :=
  match e with
  | (SaSingle, [i; a]) => i <> a /\ (i + off < n)%nat /\ (a + off < n)%nat
  | (SaDouble1, [i; j; a; b]) => i = j /\ a = b /\ i <> a /\ (i + off < n)%nat /\ (a + off < n)%nat
  | (SaDouble2, [i; j; a; b]) => i = j /\ NoDup [i; a; b] /\ (i + off < n)%nat /\ (a + off < n)%nat /\ (b + off < n)%nat
  | (SaDouble3, [i; j; a; b]) => a = b /\ NoDup [i; j; a] /\ (i + off < n)%nat /\ (j + off < n)%nat /\ (a + off < n)%nat
  | (SaDouble4, [i; j; a; b]) | (SaDouble5, [i; j; a; b]) =>
      NoDup [i; j; a; b] /\ (i + off < n)%nat /\ (j + off < n)%nat /\ (a + off < n)%nat /\ (b + off < n)%nat
  | (g, l) => match order_of g with
              | None => False
              | Some k => length l = (2 * k)%nat /\ (forall p, In p (firstn k l) -> ~ In p (skipn k l)) /\ (forall p, In p l -> p + 2 * off < 2 * n)%nat /\
                          spins_match (firstn k l) (skipn k l)
              end
  end.

(** The operator applied by [get_grad_action]. *)
Definition gate_op (off : nat) (e : exc) : Res rdict :=
  match e with
  | (SaSingle, idx) => bind (sa_single_generators off idx) (fun T => mscale 1 (madd (Ok (fst T)) (Ok (snd T))))
  | e => generator off e
  end.
Definition gate_nodes (g : gtype) : list R :=
  match g with
  | SaSingle => [1; 2] | SaDouble2 | SaDouble3 => S23 | SaDouble4 => S4 | SaDouble5 => S5 | _ => [1]
  end.
Definition gate_cs (g : gtype) : R -> list R :=
  match g with
  | SaSingle => sas_cs
  | SaDouble2 | SaDouble3 => alternate S23 k23 true
  | SaDouble4 => alternate S4 k4 true | SaDouble5 => alternate S5 k5 true | _ => closed_cs
  end.

(** ** Balance of shifted excitations *)
Lemma chg_up w l : chg w (map (fun a => (a, true)) l) = fold_right (fun p acc => w p + acc)%Z 0%Z l.
Proof. induction l as [|p l IH]; cbn [map chg fold_right]; [reflexivity|]. now rewrite IH. Qed.
Lemma chg_down w l : chg w (map (fun a => (a, false)) l) = (- fold_right (fun p acc => w p + acc)%Z 0%Z l)%Z.
Proof. induction l as [|p l IH]; cbn [map chg fold_right]; [reflexivity|]. rewrite IH. lia. Qed.
Lemma chg_gstr w iocc avirt : chg w (gstr iocc avirt) =
  (fold_right (fun p acc => w p + acc) 0 avirt - fold_right (fun p acc => w p + acc) 0 iocc)%Z.
Proof.
  unfold gstr. rewrite chg_app, chg_up.
  rewrite (chg_perm w (map (fun a => (a, false)) (rev iocc)) (map (fun a => (a, false)) iocc)) by
    (apply Permutation.Permutation_map; apply Permutation.Permutation_sym, Permutation.Permutation_rev).
  rewrite chg_down. lia.
Qed.
Lemma even_shift p off : Nat.even (p + 2 * off) = Nat.even p.
Proof. rewrite Nat.even_add, Nat.even_mul. cbn. now destruct (Nat.even p). Qed.
Lemma sum_alpha off l : fold_right (fun p acc => alpha_w p + acc)%Z 0%Z (map (fun p => p + 2 * off)%nat l)
  = Z.of_nat (length (filter Nat.even l)).
Proof.
  induction l as [|p l IH]; [reflexivity|]. cbn [map fold_right filter]. rewrite IH. unfold alpha_w.
  rewrite even_shift. destruct (Nat.even p); cbn [length]; lia.
Qed.
Lemma sum_beta off l : fold_right (fun p acc => beta_w p + acc)%Z 0%Z (map (fun p => p + 2 * off)%nat l)
  = (Z.of_nat (length l) - Z.of_nat (length (filter Nat.even l)))%Z.
Proof.
  induction l as [|p l IH]; [reflexivity|]. cbn [map fold_right filter length]. rewrite IH. unfold beta_w.
  rewrite even_shift. destruct (Nat.even p); cbn [length]; lia.
Qed.

Lemma spin_bal n off iocc avirt : length avirt = length iocc -> spins_match iocc avirt ->
  (forall p, In p (iocc ++ avirt) -> p + 2 * off < 2 * n)%nat ->
  bal n (gstr (map (fun p => p + 2 * off)%nat iocc) (map (fun p => p + 2 * off)%nat avirt)).
Proof.
  intros Hl Hs Hb. unfold spins_match in Hs. split.
  - rewrite !chg_gstr, !sum_alpha, !sum_beta. lia.
  - intros o Ho. unfold gstr in Ho. apply in_app_or in Ho as [Ho|Ho]; apply in_map_iff in Ho as (p & <- & Hp).
    + apply in_map_iff in Hp as (q & <- & Hq). apply Hb, in_or_app. now right.
    + rewrite <- map_rev in Hp. apply in_map_iff in Hp as (q & <- & Hq). apply in_rev in Hq. apply Hb, in_or_app. now left.
Qed.

Lemma shift_inj off l : NoDup l -> NoDup (map (fun p => p + off)%nat l).
Proof. intros H. apply FinFun.Injective_map_NoDup; auto. intros x y E. lia. Qed.

Lemma spin_gate n off k l : length l = (2 * k)%nat -> (0 < k)%nat -> (forall p, In p (firstn k l) -> ~ In p (skipn k l)) ->
  (forall p, In p l -> p + 2 * off < 2 * n)%nat -> spins_match (firstn k l) (skipn k l) ->
  let l' := map (fun p => p + 2 * off)%nat l in
  exists T, Gn (K:=R) (firstn k l') (skipn k l') true = Ok T /\ gate_data n T [1] closed_cs /\
    forall v x, opapp T v x = let '(iocc, avirt) := half_split l' in Tact (gstr iocc avirt) v x.
Proof.
  intros Hl Hk Hn Hb Hs l'.
  assert (E : half_split l' = (firstn k l', skipn k l')).
  { unfold half_split. unfold l'. rewrite map_length, Hl. replace (2 * k / 2)%nat with k; [reflexivity|].
    rewrite Nat.mul_comm, Nat.div_mul; lia. }
  assert (Hk' : length (firstn k l) = k) by (rewrite firstn_length; lia).
  assert (Hm : length (skipn k l) = k) by (rewrite skipn_length; lia).
  destruct (Gn_gate n (firstn k l') (skipn k l')) as (T & E1 & E2 & E3).
  - unfold l'. rewrite firstn_map. destruct (firstn k l); [cbn in Hk'; lia|discriminate].
  - unfold l'. rewrite firstn_map, skipn_map, !map_length. congruence.
  - unfold l'. rewrite firstn_map, skipn_map. intros p Hp Hq. apply in_map_iff in Hp as (p1 & E1 & Hp), Hq as (p2 & E2 & Hq).
    apply (Hn p1 Hp). replace p1 with p2 by lia. assumption.
  - unfold l'. rewrite firstn_map, skipn_map. apply spin_bal; [congruence|assumption|]. now rewrite firstn_skipn.
  - exists T. rewrite E. auto.
Qed.

Lemma sa_pair_spec fac (e : Z) i j a b v x : fac * opapp (rop (Nsa e i j a b)) v x = fac * sa_pair (IZR e) i j a b v x.
Proof.
  rewrite <- saL_Nsa, saL_spec. unfold sa_pair. rewrite (Rmult_minus_distr_l fac). f_equal. 
  assert (E : opapp (adjop (saL fac (IZR e) i j a b)) v x
            = opapp (scl fac (prodl (EL j b) (EL i a) ++ scl (IZR e) (prodl (EL i b) (EL j a)))) v x).
  { unfold adjop, saL, scl, prodl, EL, adjstr. cbn -[Nat.mul Nat.add opapp appstr IZR Rmult]. cbn [opapp].
    cbn [radd rmul rO R_CRing rI]. ring. }
  rewrite E. change (opapp (saL fac (IZR e) j i b a) v x) with
     (opapp (scl fac (prodl (EL b j) (EL a i) ++ scl (IZR e) (prodl (EL b i) (EL a j)))) v x).
  rewrite scl_spec, opapp_app, scl_spec, !opapp_prodl.
  assert (G : forall p q r s, opapp (EL p q) (opapp (EL r s) v) x = Eact p q (Eact r s v) x).
  { intros p q r s. rewrite (opapp_ext (EL p q) (opapp (EL r s) v) (Eact r s v)) by (intros; apply EL_spec). apply EL_spec. }
  rewrite !G. reflexivity.
Qed.

Lemma sa_gate n i j a b case T ls cs : (1 <= case <= 5)%nat -> (i < n)%nat -> (j < n)%nat -> (a < n)%nat -> (b < n)%nat ->
  G2_sa fac1 fac2 fac4 fac5 i j a b case true = Ok T -> gate_data n T ls cs ->
  forall v x, opapp T v x = fac_of i j a b case * sa_pair (IZR (sgn_of case)) i j a b v x.
Proof.
  intros Hc Hi Hj Ha Hb E _ v x. destruct (G2sa_rep n i j a b case Hc Hi Hj Ha Hb) as (T' & E' & _ & S).
  assert (T' = T) as -> by congruence. rewrite S. apply sa_pair_spec.
Qed.

Lemma fac1_eq : fac1 = / 2. Proof. unfold fac1. rewrite sqrt_1. field. Qed.
Lemma fac2_eq : fac2 = / (2 * sqrt 2).
Proof. unfold fac2. pose proof sqrt2_nz. field. auto. Qed.
Lemma fac4_eq : fac4 = / 4.
Proof. unfold fac4. replace 4 with (2 * 2) at 1 by ring. rewrite sqrt_square by lra. field. Qed.
Lemma fac5_eq : fac5 = / (2 * sqrt 3).
Proof. unfold fac5. pose proof sqrt3_nz. field. auto. Qed.

Lemma eqb_off i j off : (i + off =? j + off)%nat = (i =? j)%nat.
Proof. destruct (Nat.eqb_spec i j) as [->|H]; [apply Nat.eqb_refl|]. apply Nat.eqb_neq. lia. Qed.

Lemma Tact_pair_E p q v x : Tact (K:=R) [(2 * p, true); (2 * q, false)]%nat v x
    + Tact (K:=R) [(2 * p + 1, true); (2 * q + 1, false)]%nat v x = Eact p q v x - Eact q p v x.
Proof. unfold Tact, Eact, pairop, adjstr. cbn -[Nat.mul Nat.add appstr]. cbn [appstr]. ring. Qed.

Lemma sa_single_gate n off i a : i <> a -> (i + off < n)%nat -> (a + off < n)%nat ->
  exists Ta Tb D, sa_single_generators off [i; a] = Ok (Ta, Tb) /\ gate_op off (SaSingle, [i; a]) = Ok D /\
    OPS (bal n) Ta /\ OPS (bal n) Tb /\ gate_data n D [1; 2] sas_cs /\
    (forall v x, opapp D v x = gen_spec off (SaSingle, [i; a]) v x) /\
    (forall t v x, gact (opapp Tb) (closed_cs t) (gact (opapp Ta) (closed_cs t) v) x = gact (opapp D) (sas_cs t) v x).
Proof.
  intros Hne Hi Ha.
  assert (G : forall b : nat, (b < 2)%nat -> exists T,
    Gn (K:=R) [(i + off) * 2 + b]%nat [(a + off) * 2 + b]%nat true = Ok T /\ gate_data n T [1] closed_cs /\
    forall v x, opapp T v x = Tact (gstr [(i + off) * 2 + b] [(a + off) * 2 + b])%nat v x).
  { intros b Hb. apply Gn_gate; auto; try discriminate.
    - intros p Hp Hq. cbn [In] in Hp, Hq. lia.
    - split.
      + rewrite !chg_gstr. cbn [fold_right]. unfold alpha_w, beta_w. 
        replace ((i + off) * 2 + b)%nat with (b + 2 * (i + off))%nat by lia.
        replace ((a + off) * 2 + b)%nat with (b + 2 * (a + off))%nat by lia. rewrite !even_shift. lia.
      + intros o [<-|[<-|[]]]; cbn; lia. }
  destruct (G 0%nat) as (Ta & Ea & Ga & Sa); [lia|]. destruct (G 1%nat) as (Tb & Eb & Gb & Sb); [lia|]. clear G.
  rewrite !Nat.add_0_r in Ea. rewrite !Nat.add_0_r in Sa.
  set (sa := (gstr [(i + off) * 2] [(a + off) * 2])%nat) in *. set (sb := (gstr [(i + off) * 2 + 1] [(a + off) * 2 + 1])%nat) in *.
  assert (Ra : rep (bal n) (Ok Ta) (Tact sa)) by (exists Ta; split; [reflexivity|split; [apply Ga|exact Sa]]).
  assert (Rb : rep (bal n) (Ok Tb) (Tact sb)) by (exists Tb; split; [reflexivity|split; [apply Gb|exact Sb]]).
  pose proof (rep_scale (bal n) 1 _ _ (rep_add R_exact_small (bal n) _ _ _ _ Ra Rb)) as Rs.
  assert (Na : NoDup (map fst sa)) by (cbn; constructor; [cbn; lia|]; constructor; [auto|constructor]).
  assert (Nb : NoDup (map fst sb)) by (cbn; constructor; [cbn; lia|]; constructor; [auto|constructor]).
  assert (HC : forall v x, Tact sa (Tact sb v) x = Tact sb (Tact (K:=R) sa v) x).
  { intros v x.
    assert (L : forall s u w y, appstr (K:=R) s (fun z => u z - w z) y = appstr s u y - appstr s w y).
    { intros s u w y. pose proof (appstr_add s u (fun z => - 1 * w z) y) as E1. pose proof (appstr_scale s (-1) w y) as E2.
      cbn in E1, E2. rewrite E2 in E1. rewrite (appstr_ext s _ (fun z => u z + -1 * w z)) by (intros; ring). rewrite E1. ring. }
    unfold Tact. cbn [R_CRing rsub]. rewrite !L.
    assert (C : forall s t, In s [sa; adjstr sa] -> In t [sb; adjstr sb] ->
       appstr (K:=R) s (appstr t v) x = appstr t (appstr s v) x).
    { intros s t Hs Ht. destruct Hs as [<-|[<-|[]]]; destruct Ht as [<-|[<-|[]]]; unfold sa, sb, gstr, adjstr; cbn [map rev app fst snd negb]; apply pair_commute; lia. }
    cbn [In] in C. rewrite (C sa sb), (C sa (adjstr sb)), (C (adjstr sa) sb), (C (adjstr sa) (adjstr sb)) by auto. ring. }
  assert (Hs : forall v x, 1 * (Tact sa v x + Tact sb v x) = sumop (Tact sa) (Tact sb) v x) by (intros; unfold sumop; ring).
  pose proof (rep_ext (bal n) _ _ _ Rs Hs) as Rs'. clear Rs.
  destruct (rep_gate n _ _ [1; 2] sas_cs Rs') as (D & ED & GD & SD).
  - apply sumop_linear; apply Tact_linear.
  - intros x y. unfold sumop. pose proof (Tact_adj (K:=R) sa x y) as E1. pose proof (Tact_adj (K:=R) sb x y) as E2.
    rewrite E1, E2. cbn [R_CRing ropp]. ring.
  - repeat constructor; lra.
  - cbn. unfold sq. nodup_tac.
  - intros v x. apply sum_poly; try apply Tact_linear; auto; intros w y.
    + exact (Tact_cube (K:=R) sa w y Na ltac:(discriminate)).
    + exact (Tact_cube (K:=R) sb w y Nb ltac:(discriminate)).
  - apply sas_interp.
  - apply sas_par.
  - exists Ta, Tb, D. split; [|split; [|split; [|split; [|split; [|split]]]]].
    + cbn [sa_single_generators]. unfold G1. rewrite Ea, Eb. reflexivity.
    + cbn [gate_op sa_single_generators]. unfold G1. rewrite Ea, Eb. cbn [bind fst snd]. exact ED.
    + apply Ga.
    + apply Gb.
    + exact GD.
    + intros v x. rewrite SD. unfold sumop. cbn [gen_spec]. rewrite <- Tact_pair_E. unfold sa, sb, gstr. cbn [map rev app].
      rewrite !(Nat.mul_comm 2). reflexivity.
    + intros t v x. 
      assert (Ea' : forall w y, gact (opapp Ta) (closed_cs t) w y = gact (Tact sa) (closed_cs t) w y).
      { intros w y. unfold gact. cbn [closed_cs gsum]. rewrite Sa.
        rewrite (opapp_ext Ta (opapp Ta w) (Tact sa w)) by (intros; apply Sa). now rewrite Sa. }
      assert (Eb' : forall w y, gact (opapp Tb) (closed_cs t) w y = gact (Tact sb) (closed_cs t) w y).
      { intros w y. unfold gact. cbn [closed_cs gsum]. rewrite Sb.
        rewrite (opapp_ext Tb (opapp Tb w) (Tact sb w)) by (intros; apply Sb). now rewrite Sb. }
      rewrite Eb'. rewrite (lin_ext _ (gact_linear _ (Tact_linear sb) (closed_cs t)) _ _ (Ea' v) x).
      rewrite (two_gates (Tact sa) (Tact sb)); try apply Tact_linear; auto.
      2:{ intros w y. exact (Tact_cube (K:=R) sa w y Na ltac:(discriminate)). }
      2:{ intros w y. exact (Tact_cube (K:=R) sb w y Nb ltac:(discriminate)). }
      assert (ES : forall w y, sumop (Tact sa) (Tact sb) w y = opapp D w y) by (intros; now rewrite SD).
      unfold gact. f_equal.
      assert (forall cs w, gsum (sumop (Tact sa) (Tact sb)) cs w x = gsum (opapp D) cs w x) as ->; [|reflexivity].
      induction cs as [|c cs IH]; intros w; cbn [gsum]; [reflexivity|]. rewrite ES, IH. f_equal.
      apply (gsum_ext (opapp D) (opapp_linear D)). intros y. apply ES.
Qed.

(** Every valid excitation has a generator with the tabulated data. *)
Theorem gate_generator n off e : gate_ok n off e ->
  exists D, gate_op off e = Ok D /\ gate_data n D (gate_nodes (fst e)) (gate_cs (fst e)) /\
    (forall v x, opapp D v x = gen_spec off e v x).
Proof.
  destruct e as [g l]. cbn [fst]. intros H.
  assert (Sp : forall k, order_of g = Some k -> length l = (2 * k)%nat /\ (forall p, In p (firstn k l) -> ~ In p (skipn k l)) /\
     (forall p, In p l -> p + 2 * off < 2 * n)%nat /\ spins_match (firstn k l) (skipn k l) ->
     exists T, Gn (K:=R) (firstn k (map (fun p => p + 2 * off)%nat l)) (skipn k (map (fun p => p + 2 * off)%nat l)) true = Ok T /\
     gate_data n T [1] closed_cs /\ 
     forall v x, opapp T v x = let '(iocc, avirt) := half_split (map (fun p => p + 2 * off)%nat l) in Tact (gstr iocc avirt) v x).
  { intros k Hk (H1 & H2 & H3 & H4). apply spin_gate; auto. destruct g; inversion Hk; lia. }
  destruct g; cbn [gate_nodes gate_cs]; cbn [gate_ok order_of] in H; try contradiction.
  1-6: destruct (Sp _ eq_refl H) as (T & E & G & S); exists T; split; [|split; [exact G|exact S]];
    destruct H as (Hl & _); repeat (destruct l as [|? l]; [discriminate|]); destruct l; [|discriminate]; exact E.
  - destruct l as [|i [|a [|? ?]]]; try contradiction. destruct H as (H1 & H2 & H3).
    destruct (sa_single_gate n off i a H1 H2 H3) as (Ta & Tb & D & _ & E & _ & _ & G & S & _). exists D. auto.
  - destruct l as [|i [|j [|a [|b [|? ?]]]]]; try contradiction. destruct H as (-> & -> & Hne & Hi & Ha).
    destruct (sa1_gate n (j + off) (b + off)) as (T & E & G); try lia. exists T. split; [exact E|]. split; [exact G|].
    intros v x. rewrite (sa_gate n _ _ _ _ 1 T _ _ ltac:(lia) Hi Hi Ha Ha E G). cbn [gen_spec fac_of sgn_of].
    rewrite !Nat.eqb_refl, fac4_eq. reflexivity.
  - destruct l as [|i [|j [|a [|b [|? ?]]]]]; try contradiction. destruct H as (-> & Hne & Hi & Ha & Hb).
    destruct (sa2_gate n (j + off) (a + off) (b + off)) as (T & E & G); auto; [apply (shift_inj off) in Hne; exact Hne|].
    exists T. split; [exact E|]. split; [exact G|].
    intros v x. rewrite (sa_gate n _ _ _ _ 2 T _ _ ltac:(lia) Hi Hi Ha Hb E G). cbn [gen_spec fac_of sgn_of].
    rewrite !Nat.eqb_refl, eqb_off. replace (a =? b)%nat with false; [now rewrite fac2_eq|].
    symmetry. apply Nat.eqb_neq. intros ->. inversion_clear Hne as [|? ? _ H1]. inversion_clear H1 as [|? ? H2 _]. cbn in H2. tauto.
  - destruct l as [|i [|j [|a [|b [|? ?]]]]]; try contradiction. destruct H as (-> & Hne & Hi & Hj & Hb).
    destruct (sa3_gate n (i + off) (j + off) (b + off)) as (T & E & G); auto; [apply (shift_inj off) in Hne; exact Hne|].
    exists T. split; [exact E|]. split; [exact G|].
    intros v x. rewrite (sa_gate n _ _ _ _ 3 T _ _ ltac:(lia) Hi Hj Hb Hb E G). cbn [gen_spec fac_of sgn_of].
    rewrite !Nat.eqb_refl, eqb_off. replace (i =? j)%nat with false; [now rewrite fac2_eq|].
    symmetry. apply Nat.eqb_neq. intros ->. inversion_clear Hne as [|? ? H1 _]. cbn in H1. tauto.
  - destruct l as [|i [|j [|a [|b [|? ?]]]]]; try contradiction. destruct H as (Hne & Hi & Hj & Ha & Hb).
    destruct (sa4_gate n (i + off) (j + off) (a + off) (b + off)) as (T & E & G); auto; [apply (shift_inj off) in Hne; exact Hne|].
    exists T. split; [exact E|]. split; [exact G|].
    intros v x. rewrite (sa_gate n _ _ _ _ 4 T _ _ ltac:(lia) Hi Hj Ha Hb E G). cbn [gen_spec fac_of sgn_of].
    rewrite !eqb_off. replace (i =? j)%nat with false. replace (a =? b)%nat with false; [now rewrite fac1_eq|].
    + symmetry. apply Nat.eqb_neq. intros ->. inversion_clear Hne as [|? ? _ H1]. inversion_clear H1 as [|? ? _ H2].
      inversion_clear H2 as [|? ? H3 _]. cbn in H3. tauto.
    + symmetry. apply Nat.eqb_neq. intros ->. inversion_clear Hne as [|? ? H1 _]. cbn in H1. tauto.
  - destruct l as [|i [|j [|a [|b [|? ?]]]]]; try contradiction. destruct H as (Hne & Hi & Hj & Ha & Hb).
    destruct (sa5_gate n (i + off) (j + off) (a + off) (b + off)) as (T & E & G); auto; [apply (shift_inj off) in Hne; exact Hne|].
    exists T. split; [exact E|]. split; [exact G|].
    intros v x. rewrite (sa_gate n _ _ _ _ 5 T _ _ ltac:(lia) Hi Hj Ha Hb E G). cbn [gen_spec fac_of sgn_of].
    now rewrite fac5_eq.
Qed.
