(** Proofs about the orbital spaces. *)
From Coq Require Import List Bool ZArith Lia FinFun.
From Verif Require Import Base SpaceModel.
Import ListNotations.
Local Open Scope Z_scope.

Lemma zrange_nil a b : b <= a -> zrange a b = [].
Proof. intros H. unfold zrange. replace (Z.to_nat (b - a)) with O by lia. reflexivity. Qed.
Lemma zrange_cons a b : a < b -> zrange a b = a :: zrange (a + 1) b.
Proof.
  intros H. unfold zrange. replace (Z.to_nat (b - a)) with (S (Z.to_nat (b - (a + 1)))) by lia. cbn [seq map]. f_equal; [lia|].
  rewrite <- seq_shift, map_map. apply map_ext. intros i. lia.
Qed.
Lemma zrange_length a b : length (zrange a b) = Z.to_nat (b - a).
Proof. unfold zrange. now rewrite map_length, seq_length. Qed.
Lemma in_zrange a b x : In x (zrange a b) <-> a <= x < b.
Proof.
  unfold zrange. rewrite in_map_iff. split.
  - intros (i & <- & Hi). apply in_seq in Hi. lia.
  - intros H. exists (Z.to_nat (x - a)). split; [lia|]. apply in_seq. lia.
Qed.
Lemma zrange_nodup a b : NoDup (zrange a b).
Proof. unfold zrange. apply Injective_map_NoDup; [|apply seq_NoDup]. intros i j H. lia. Qed.
Lemma zrange_app a b c : a <= b <= c -> zrange a c = zrange a b ++ zrange b c.
Proof.
  intros H. unfold zrange. replace (Z.to_nat (c - a)) with (Z.to_nat (b - a) + Z.to_nat (c - b))%nat by lia. rewrite seq_app, map_app. f_equal.
  rewrite Nat.add_0_l. rewrite <- (Nat.add_0_r (Z.to_nat (b - a))) at 1. generalize O. generalize (Z.to_nat (c - b)). induction n as [|n IH]; intros k; [reflexivity|]. cbn [seq map]. f_equal; [lia|]. rewrite <- (IH (S k)). now rewrite Nat.add_succ_r.
Qed.
Lemma zmem_spec x l : zmem x l = true <-> In x l.
Proof.
  unfold zmem. rewrite existsb_exists. split.
  - intros (y & Hy & E). apply Z.eqb_eq in E. now subst.
  - intros H. exists x. split; [exact H|apply Z.eqb_refl].
Qed.
Lemma zmem_false x l : zmem x l = false <-> ~ In x l.
Proof. rewrite <- zmem_spec. destruct (zmem x l); split; congruence. Qed.
Lemma zmem_zrange x a b : zmem x (zrange a b) = (a <=? x) && (x <? b).
Proof.
  apply eq_true_iff_eq. rewrite zmem_spec, in_zrange, andb_true_iff, Z.leb_le, Z.ltb_lt. reflexivity.
Qed.
Lemma zmem_app x l m : zmem x (l ++ m) = zmem x l || zmem x m.
Proof. unfold zmem. apply existsb_app. Qed.

(** Splitting a range at a threshold. *)
Lemma filter_above a b t : a <= t <= b -> filter (fun i => t <=? i) (zrange a b) = zrange t b /\ filter (fun i => negb (t <=? i)) (zrange a b) = zrange a t.
Proof.
  intros H. rewrite (zrange_app a t b) by lia. rewrite !filter_app.
  assert (filter (fun i => t <=? i) (zrange a t) = []) as ->.
  { assert (forall l, (forall i, In i l -> i < t) -> filter (fun i => t <=? i) l = []) as G.
    { induction l as [|i l IH]; intros Hl; [reflexivity|]. cbn [filter]. rewrite (proj2 (Z.leb_gt t i)) by (apply Hl; now left). apply IH. intros j Hj. apply Hl. now right. }
    apply G. intros i Hi. apply in_zrange in Hi. lia. }
  assert (filter (fun i => negb (t <=? i)) (zrange t b) = []) as ->.
  { assert (forall l, (forall i, In i l -> t <= i) -> filter (fun i => negb (t <=? i)) l = []) as G.
    { induction l as [|i l IH]; intros Hl; [reflexivity|]. cbn [filter]. rewrite (proj2 (Z.leb_le t i)) by (apply Hl; now left). apply IH. intros j Hj. apply Hl. now right. }
    apply G. intros i Hi. apply in_zrange in Hi. lia. }
  assert (forall (f : Z -> bool) l, (forall i, In i l -> f i = true) -> filter f l = l) as G.
  { intros f. induction l as [|i l IH]; intros Hl; [reflexivity|]. cbn [filter]. rewrite (Hl i) by now left. f_equal. apply IH. intros j Hj. apply Hl. now right. }
  rewrite !G; [split; [reflexivity|apply app_nil_r]| |].
  - intros i Hi. apply in_zrange in Hi. rewrite (proj2 (Z.leb_gt t i)) by lia. reflexivity.
  - intros i Hi. apply in_zrange in Hi. apply Z.leb_le. lia.
Qed.
Lemma filter_ext_in' (f g : Z -> bool) l : (forall i, In i l -> f i = g i) -> filter f l = filter g l.
Proof. induction l as [|i l IH]; intros H; [reflexivity|]. cbn [filter]. rewrite (H i) by now left. rewrite IH by (intros j Hj; apply H; now right). reflexivity. Qed.

Lemma fold_occ space l : forall s, fold_left (step_occ space) l s =
  {| inactive_spin := inactive_spin s ++ filter (fun i => negb (zmem i space)) l; active_spin := active_spin s ++ filter (fun i => zmem i space) l; virtual_spin := virtual_spin s;
     active_occ_spin := active_occ_spin s ++ filter (fun i => zmem i space) l; active_unocc_spin := active_unocc_spin s;
     num_active_elec := num_active_elec s + Z.of_nat (length (filter (fun i => zmem i space) l));
     num_active_spin_orbs := num_active_spin_orbs s + Z.of_nat (length (filter (fun i => zmem i space) l));
     num_inactive_spin_orbs := num_inactive_spin_orbs s + Z.of_nat (length (filter (fun i => negb (zmem i space)) l)); num_virtual_spin_orbs := num_virtual_spin_orbs s |}.
Proof.
  induction l as [|i l IH]; intros s; cbn [fold_left filter].
  - rewrite !app_nil_r, !Z.add_0_r. now destruct s.
  - rewrite IH. unfold step_occ. destruct (zmem i space); cbn [negb inactive_spin active_spin virtual_spin active_occ_spin active_unocc_spin num_active_elec num_active_spin_orbs num_inactive_spin_orbs num_virtual_spin_orbs length];
      rewrite <- !app_assoc; f_equal; lia.
Qed.
Lemma fold_unocc space l : forall s, fold_left (step_unocc space) l s =
  {| inactive_spin := inactive_spin s; active_spin := active_spin s ++ filter (fun i => zmem i space) l; virtual_spin := virtual_spin s ++ filter (fun i => negb (zmem i space)) l;
     active_occ_spin := active_occ_spin s; active_unocc_spin := active_unocc_spin s ++ filter (fun i => zmem i space) l;
     num_active_elec := num_active_elec s;
     num_active_spin_orbs := num_active_spin_orbs s + Z.of_nat (length (filter (fun i => zmem i space) l));
     num_inactive_spin_orbs := num_inactive_spin_orbs s; num_virtual_spin_orbs := num_virtual_spin_orbs s + Z.of_nat (length (filter (fun i => negb (zmem i space)) l)) |}.
Proof.
  induction l as [|i l IH]; intros s; cbn [fold_left filter].
  - rewrite !app_nil_r, !Z.add_0_r. now destruct s.
  - rewrite IH. unfold step_unocc. destruct (zmem i space); cbn [negb inactive_spin active_spin virtual_spin active_occ_spin active_unocc_spin num_active_elec num_active_spin_orbs num_inactive_spin_orbs num_virtual_spin_orbs length];
      rewrite <- !app_assoc; f_equal; lia.
Qed.
(** The two boundaries of the active space. *)
Definition lo (ne cas0 : Z) : Z := Z.max 0 (ne - Z.max 0 cas0).
Definition hi (ne nso cas0 cas1 : Z) : Z := Z.min nso (Z.max ne (ne + 2 * cas1 - Z.max 0 cas0)).
Lemma space_occ ne cas0 cas1 i : 0 <= i < ne -> zmem i (active_space ne cas0 cas1) = (lo ne cas0 <=? i).
Proof.
  intros H. unfold active_space, lo. rewrite zmem_app, !zmem_zrange, zrange_length. apply eq_true_iff_eq. rewrite orb_true_iff, !andb_true_iff, !Z.leb_le, !Z.ltb_lt. lia.
Qed.
Lemma space_unocc ne nso cas0 cas1 i : ne <= i < nso -> zmem i (active_space ne cas0 cas1) = negb (hi ne nso cas0 cas1 <=? i).
Proof.
  intros H. unfold active_space, hi. rewrite zmem_app, !zmem_zrange, zrange_length. apply eq_true_iff_eq. rewrite negb_true_iff, orb_true_iff, !andb_true_iff, !Z.leb_le, !Z.ltb_lt, Z.leb_gt. lia.
Qed.
Lemma lo_range ne cas0 : 0 <= ne -> 0 <= lo ne cas0 <= ne.
Proof. unfold lo. lia. Qed.
Lemma hi_range ne nso cas0 cas1 : ne <= nso -> ne <= hi ne nso cas0 cas1 <= nso.
Proof. unfold hi. lia. Qed.
Lemma spin_partition_spec check ne nso cas0 cas1 : 0 <= ne <= nso ->
  let l := lo ne cas0 in let h := hi ne nso cas0 cas1 in
  spin_partition check ne nso cas0 cas1 = if check && negb ((ne - l) mod 2 =? 0) then Raise ValueError else
    Ok {| inactive_spin := zrange 0 l; active_spin := zrange l h; virtual_spin := zrange h nso; active_occ_spin := zrange l ne; active_unocc_spin := zrange ne h;
          num_active_elec := ne - l; num_active_spin_orbs := h - l; num_inactive_spin_orbs := l; num_virtual_spin_orbs := nso - h |}.
Proof.
  intros H l h. pose proof (lo_range ne cas0 ltac:(lia)) as Hl. pose proof (hi_range ne nso cas0 cas1 ltac:(lia)) as Hh. unfold spin_partition. rewrite fold_occ, fold_unocc.
  cbn [empty_spaces inactive_spin active_spin virtual_spin active_occ_spin active_unocc_spin num_active_elec num_active_spin_orbs num_inactive_spin_orbs num_virtual_spin_orbs].
  assert (filter (fun i => zmem i (active_space ne cas0 cas1)) (zrange 0 ne) = zrange l ne) as ->.
  { rewrite (filter_ext_in' _ (fun i => l <=? i)) by (intros i Hi; apply in_zrange in Hi; now apply space_occ). now apply filter_above. }
  assert (filter (fun i => negb (zmem i (active_space ne cas0 cas1))) (zrange 0 ne) = zrange 0 l) as ->.
  { rewrite (filter_ext_in' _ (fun i => negb (l <=? i))) by (intros i Hi; apply in_zrange in Hi; f_equal; now apply space_occ). now apply filter_above. }
  assert (filter (fun i => zmem i (active_space ne cas0 cas1)) (zrange ne nso) = zrange ne h) as ->.
  { rewrite (filter_ext_in' _ (fun i => negb (h <=? i))) by (intros i Hi; apply in_zrange in Hi; now apply space_unocc). now apply filter_above. }
  assert (filter (fun i => negb (zmem i (active_space ne cas0 cas1))) (zrange ne nso) = zrange h nso) as ->.
  { rewrite (filter_ext_in' _ (fun i => h <=? i)) by (intros i Hi; apply in_zrange in Hi; rewrite (space_unocc ne nso) by exact Hi; apply negb_involutive). now apply filter_above. }
  rewrite !zrange_length. cbn [app]. rewrite <- zrange_app by (unfold l, h; lia). fold l h in Hl, Hh.
  rewrite !Z2Nat.id by lia. rewrite !Z.add_0_l, Z.sub_0_r. replace (ne - l + (h - ne)) with (h - l) by lia. reflexivity.
Qed.

(** The spatial indices. *)
Definition sp_step (l : list Z) (idx : Z) : list Z := if zmem (idx / 2) l then l else l ++ [idx / 2].
Lemma spatial_fold spin : spatial spin = fold_left sp_step spin [].
Proof. reflexivity. Qed.
Lemma spatial_double a b : a <= b -> forall acc, (forall i, In i acc -> i < a) -> fold_left sp_step (zrange (2 * a) (2 * b)) acc = acc ++ zrange a b.
Proof.
  intros H. replace b with (a + Z.of_nat (Z.to_nat (b - a))) by lia. generalize (Z.to_nat (b - a)). clear b H. intros n. revert a. induction n as [|n IH]; intros a acc Hacc.
  - rewrite !zrange_nil by lia. cbn. now rewrite app_nil_r.
  - rewrite (zrange_cons (2 * a)), (zrange_cons (2 * a + 1)) by lia. cbn [fold_left].
    assert (sp_step acc (2 * a) = acc ++ [a]) as ->.
    { unfold sp_step. replace (2 * a / 2) with a by (symmetry; rewrite Z.mul_comm; now apply Z.div_mul). rewrite (proj2 (zmem_false a acc)); [reflexivity|]. intros Hi. apply Hacc in Hi. lia. }
    assert (sp_step (acc ++ [a]) (2 * a + 1) = acc ++ [a]) as ->.
    { unfold sp_step. replace ((2 * a + 1) / 2) with a by (symmetry; rewrite Z.add_comm, Z.mul_comm; now rewrite Z.div_add). rewrite (proj2 (zmem_spec a (acc ++ [a]))); [reflexivity|]. apply in_or_app. right. now left. }
    rewrite (zrange_cons a) by lia. change (a :: zrange (a + 1) (a + Z.of_nat (S n))) with ([a] ++ zrange (a + 1) (a + Z.of_nat (S n))). rewrite app_assoc.
    replace (2 * a + 1 + 1) with (2 * (a + 1)) by lia. replace (a + Z.of_nat (S n)) with (a + 1 + Z.of_nat n) by lia. apply IH.
    intros i Hi. apply in_app_iff in Hi as [Hi|[<-|[]]]; [apply Hacc in Hi; lia|lia].
Qed.
Lemma spatial_range a b : a <= b -> spatial (zrange (2 * a) (2 * b)) = zrange a b.
Proof. intros H. rewrite spatial_fold, spatial_double by (auto; intros i []). reflexivity. Qed.

(** The shifts. *)
Lemma zmin_range a b : a < b -> zmin (zrange a b) = a.
Proof.
  intros H. rewrite zrange_cons by exact H. cbn [zmin]. assert (forall l, (forall i, In i l -> a <= i) -> fold_left Z.min l a = a) as G.
  { induction l as [|i l IH]; intros Hl; [reflexivity|]. cbn [fold_left]. rewrite Z.min_l by (apply Hl; now left). apply IH. intros j Hj. apply Hl. now right. }
  apply G. intros i Hi. apply in_zrange in Hi. lia.
Qed.
Lemma shift_range c d s : map (fun i => i - s) (zrange c d) = zrange (c - s) (d - s).
Proof. unfold zrange. rewrite map_map. replace (d - s - (c - s)) with (d - c) by lia. apply map_ext. intros i. lia. Qed.
Lemma shifted_range a b c d : a <= c -> d <= b -> shifted (zrange a b) (zrange c d) = zrange (c - a) (d - a).
Proof.
  intros H1 H2. destruct (Z.lt_ge_cases a b) as [H|H].
  - unfold shifted. rewrite (zmin_range a b H). rewrite (zrange_cons a b) by exact H. now apply shift_range.
  - rewrite (zrange_nil a b), (zrange_nil (c - a)) by lia. reflexivity.
Qed.

(** The rotation lists. *)
Lemma in_pairs n p q : In (p, q) (pairs n) <-> 0 <= p < q /\ q < n.
Proof.
  unfold pairs. rewrite in_flat_map. split.
  - intros (p' & Hp & H). apply in_map_iff in H as (q' & E & Hq). injection E as -> ->. apply in_zrange in Hp. apply in_zrange in Hq. lia.
  - intros H. exists p. split; [apply in_zrange; lia|]. apply in_map. apply in_zrange. lia.
Qed.
Lemma pairs_nodup n : NoDup (pairs n).
Proof.
  unfold pairs. pose proof (zrange_nodup 0 n) as H. induction (zrange 0 n) as [|p l IH]; cbn [flat_map]; [constructor|]. inversion H as [|? ? Hp Hl]; subst.
  assert (forall (A : Type) (a b : list A), NoDup a -> NoDup b -> (forall x, In x a -> ~ In x b) -> NoDup (a ++ b)) as G.
  { intros A a b Ha Hb Hd. induction Ha as [|x a Hx Ha IHa]; [exact Hb|]. cbn. constructor; [|apply IHa; intros y Hy; apply Hd; now right].
    intros Hi. apply in_app_iff in Hi as [Hi|Hi]; [contradiction|]. apply (Hd x); [now left|exact Hi]. }
  apply G; [|now apply IH|].
  - apply Injective_map_NoDup; [|apply zrange_nodup]. intros x y E. congruence.
  - intros [p' q'] Hx Hy. apply in_map_iff in Hx as (y & E & _). injection E as <- _. apply in_flat_map in Hy as (p'' & Hp'' & Hin). apply in_map_iff in Hin as (z & E & _). injection E as -> _. contradiction.
Qed.
Definition is_redundant (ina act vir : list Z) (include : bool) (pq : Z * Z) : bool :=
  zmem (fst pq) ina && zmem (snd pq) ina || zmem (fst pq) vir && zmem (snd pq) vir || negb include && (zmem (fst pq) act && zmem (snd pq) act).
Definition both_active (act : list Z) (pq : Z * Z) : bool := zmem (fst pq) act && zmem (snd pq) act.
Lemma kappa_fold ina act vir include l : forall k, fold_left (kappa_step ina act vir include) l k =
  {| kappa_idx := kappa_idx k ++ filter (fun pq => negb (is_redundant ina act vir include pq)) l;
     kappa_noaa := kappa_noaa k ++ filter (fun pq => negb (is_redundant ina act vir include pq) && negb (both_active act pq)) l;
     kappa_noaa_dagger := kappa_noaa_dagger k ++ map (fun pq => (snd pq, fst pq)) (filter (fun pq => negb (is_redundant ina act vir include pq) && negb (both_active act pq)) l);
     kappa_redundant := kappa_redundant k ++ filter (is_redundant ina act vir include) l |}.
Proof.
  induction l as [|[p q] l IH]; intros k; cbn [fold_left filter].
  - cbn [map]. rewrite !app_nil_r. now destruct k.
  - rewrite IH. unfold kappa_step. set (red := is_redundant ina act vir include) in *. set (bth := both_active act) in *.
    assert (red (p, q) = zmem p ina && zmem q ina || zmem p vir && zmem q vir || negb include && (zmem p act && zmem q act)) as -> by reflexivity.
    assert (bth (p, q) = zmem p act && zmem q act) as -> by reflexivity. clearbody red bth.
    destruct (zmem p ina && zmem q ina); cbn [orb negb andb kappa_idx kappa_noaa kappa_noaa_dagger kappa_redundant]; [rewrite <- !app_assoc; reflexivity|].
    destruct (zmem p vir && zmem q vir); cbn [orb negb andb kappa_idx kappa_noaa kappa_noaa_dagger kappa_redundant]; [rewrite <- !app_assoc; reflexivity|].
    destruct (zmem p act && zmem q act), include; cbn [orb negb andb kappa_idx kappa_noaa kappa_noaa_dagger kappa_redundant map fst snd]; rewrite <- !app_assoc; reflexivity.
Qed.
Lemma hf_like_fold ina vir occ unocc l : forall acc,
  fold_left (fun (l : list (Z * Z)) (pq : Z * Z) => let (p, q) := pq in
    if zmem p ina && zmem q vir then l ++ [(p, q)]
    else if zmem p ina && zmem q unocc then l ++ [(p, q)]
    else if zmem p occ && zmem q vir then l ++ [(p, q)]
    else l) l acc = acc ++ filter (fun pq => zmem (fst pq) ina && zmem (snd pq) vir || zmem (fst pq) ina && zmem (snd pq) unocc || zmem (fst pq) occ && zmem (snd pq) vir) l.
Proof.
  induction l as [|[p q] l IH]; intros acc; cbn [fold_left filter]; [now rewrite app_nil_r|]. rewrite IH. cbn [fst snd].
  destruct (zmem p ina && zmem q vir); cbn [orb]; [now rewrite <- app_assoc|]. destruct (zmem p ina && zmem q unocc); cbn [orb]; [now rewrite <- app_assoc|]. destruct (zmem p occ && zmem q vir); [now rewrite <- app_assoc|reflexivity].
Qed.
Lemma filter_nodup {A} (f : A -> bool) l : NoDup l -> NoDup (filter f l).
Proof. apply NoDup_filter. Qed.

(** The whole block, for an even number of electrons. *)
Lemma init_spec check include ne no cas0 cas1 sp : 0 <= ne <= no -> (cas0 <= 2 * ne \/ Z.even cas0 = true) -> Z.even (Z.max 0 (Z.min cas0 (2 * ne))) = true ->
  init_spaces check include (2 * ne) no cas0 cas1 = Ok sp ->
  exists l h, 0 <= l <= ne /\ ne <= h <= no /\ lo (2 * ne) cas0 = 2 * l /\ hi (2 * ne) (2 * no) cas0 cas1 = 2 * h /\
    inactive_idx sp = zrange 0 l /\ active_idx sp = zrange l h /\ virtual_idx sp = zrange h no /\ active_occ_idx sp = zrange l ne /\ active_unocc_idx sp = zrange ne h /\
    num_inactive_orbs sp = l /\ num_active_orbs sp = h - l /\ num_virtual_orbs sp = no - h /\ num_active_elec (sp_spin sp) = 2 * (ne - l) /\ num_active_elec_alpha sp = ne - l /\ num_active_elec_beta sp = ne - l /\
    active_idx_shifted sp = zrange 0 (h - l) /\ active_occ_idx_shifted sp = zrange 0 (ne - l) /\ active_unocc_idx_shifted sp = zrange (ne - l) (h - l) /\
    active_spin_idx_shifted sp = zrange 0 (2 * (h - l)) /\ active_occ_spin_idx_shifted sp = zrange 0 (2 * (ne - l)) /\ active_unocc_spin_idx_shifted sp = zrange (2 * (ne - l)) (2 * (h - l)) /\
    sp_kappas sp = kappa_lists (zrange 0 l) (zrange l h) (zrange h no) include no /\
    sp_hf_like sp = kappa_hf_like (zrange 0 l) (zrange h no) (zrange l ne) (zrange ne h) no.
Proof.
  intros H Hc He E. unfold init_spaces in E. rewrite spin_partition_spec in E by lia.
  assert (exists m, Z.max 0 (Z.min cas0 (2 * ne)) = 2 * m) as (m & Hm) by (apply Z.even_spec in He as (m & Hm); eauto).
  set (l := ne - m). assert (lo (2 * ne) cas0 = 2 * l) as El by (unfold lo, l; lia).
  assert (exists h, hi (2 * ne) (2 * no) cas0 cas1 = 2 * h) as (h & Eh).
  { unfold hi. assert (Z.even cas0 = true \/ cas0 <= 0) as Hp.
    { destruct Hc as [Hc|Hc]; [|now left]. destruct (Z.le_gt_cases cas0 0) as [H0|H0]; [now right|left]. rewrite Z.max_r, Z.min_l in Hm by lia. rewrite Hm. apply Z.even_spec. now exists m. }
    assert (exists c, Z.max 0 cas0 = 2 * c) as (c & Hcc).
    { destruct Hp as [Hp|Hp]; [|exists 0; lia]. apply Z.even_spec in Hp as (c & Hcc). exists (Z.max 0 c). lia. }
    rewrite Hcc. exists (Z.min no (Z.max ne (ne + cas1 - c))). lia. }
  pose proof (lo_range (2 * ne) cas0 ltac:(lia)) as Hl. pose proof (hi_range (2 * ne) (2 * no) cas0 cas1 ltac:(lia)) as Hh.
  rewrite El, Eh in *. exists l, h. destruct (check && negb ((2 * ne - 2 * l) mod 2 =? 0)); [discriminate|]. cbn [bind] in E. match type of E with Ok ?a = _ => assert (sp = a) as -> by (symmetry; exact (f_equal (fun r => match r with Ok s => s | _ => sp end) E)) end. clear E.
  cbn [sp_spin inactive_idx active_idx virtual_idx active_occ_idx active_unocc_idx num_inactive_orbs num_active_orbs num_virtual_orbs num_active_elec_alpha num_active_elec_beta active_idx_shifted active_occ_idx_shifted active_unocc_idx_shifted
    active_spin_idx_shifted active_occ_spin_idx_shifted active_unocc_spin_idx_shifted sp_kappas sp_hf_like inactive_spin active_spin virtual_spin active_occ_spin active_unocc_spin num_active_elec num_active_spin_orbs num_inactive_spin_orbs num_virtual_spin_orbs].
  replace (zrange 0 (2 * l)) with (zrange (2 * 0) (2 * l)) by reflexivity. rewrite !spatial_range by lia. rewrite !shifted_range by lia.
  assert (forall x, 2 * x / 2 = x) as D by (intros x; rewrite Z.mul_comm; now apply Z.div_mul).
  replace (2 * h - 2 * l) with (2 * (h - l)) by lia. replace (2 * no - 2 * h) with (2 * (no - h)) by lia. replace (2 * ne - 2 * l) with (2 * (ne - l)) by lia. rewrite !D, !Z.sub_diag.
  repeat split; try lia; reflexivity.
Qed.

(** The perfect-pairing determinant. *)
Definition pairs_of (k : nat) (b : bool) : list bool := repeat b (2 * k).
Lemma pp_all_zero r : forall fuel, (r <= fuel)%nat -> pp_loop fuel 0 (Z.of_nat r) = Ok (repeat false r).
Proof.
  induction r as [|r IH]; intros fuel Hf.
  - destruct fuel; reflexivity.
  - destruct fuel as [|fuel]; [lia|]. cbn [pp_loop]. rewrite (proj2 (Z.ltb_lt 0 _)) by lia. cbn [Z.leb Z.compare andb Z.eqb]. replace (Z.of_nat (S r) - 1) with (Z.of_nat r) by lia. rewrite IH by lia. reflexivity.
Qed.
Lemma pp_all_one r : forall fuel, (r <= fuel)%nat -> pp_loop fuel (Z.of_nat r) (Z.of_nat r) = Ok (repeat true r).
Proof.
  induction r as [|r IH]; intros fuel Hf.
  - destruct fuel; reflexivity.
  - destruct fuel as [|fuel]; [lia|]. cbn [pp_loop]. rewrite (proj2 (Z.ltb_lt 0 _)) by lia. rewrite (proj2 (Z.leb_gt (Z.of_nat (S r)) (Z.of_nat (S r) - 2))) by lia. rewrite andb_false_r.
    rewrite (proj2 (Z.eqb_neq (Z.of_nat (S r)) 0)) by lia. replace (Z.of_nat (S r) - 1) with (Z.of_nat r) by lia. rewrite IH by lia. reflexivity.
Qed.
(** Even electron and orbital counts: pairs of occupied and empty orbitals, then a tail
    that is either full or empty. *)
Lemma pp_shape o : forall e fuel, (e <= o)%nat -> (2 * o <= fuel)%nat ->
  exists k b m, pp_loop fuel (2 * Z.of_nat e) (2 * Z.of_nat o) = Ok (concat (repeat [true; true; false; false] k) ++ repeat b (2 * m)) /\ o = (2 * k + m)%nat /\ e = (k + if b then m else 0)%nat.
Proof.
  induction o as [o IH] using lt_wf_ind. intros e fuel He Hf. destruct (Nat.eq_dec e 0) as [->|Hn].
  - exists 0%nat, false, o. replace (2 * Z.of_nat o) with (Z.of_nat (2 * o)) by lia. change (2 * Z.of_nat 0) with 0. rewrite pp_all_zero by lia. repeat split; lia.
  - destruct (Nat.eq_dec e o) as [->|Hno].
    + exists 0%nat, true, o. replace (2 * Z.of_nat o) with (Z.of_nat (2 * o)) by lia. rewrite pp_all_one by lia. repeat split; lia.
    + destruct fuel as [|fuel]; [lia|]. cbn [pp_loop]. rewrite (proj2 (Z.ltb_lt 0 _)) by lia. rewrite (proj2 (Z.leb_le 2 _)), (proj2 (Z.leb_le 4 _)), (proj2 (Z.leb_le _ (2 * Z.of_nat o - 2))) by lia. cbn [andb].
      destruct (IH (o - 2)%nat ltac:(lia) (e - 1)%nat fuel ltac:(lia) ltac:(lia)) as (k & b & m & E & H1 & H2).
      replace (2 * Z.of_nat e - 2) with (2 * Z.of_nat (e - 1)) by lia. replace (2 * Z.of_nat o - 4) with (2 * Z.of_nat (o - 2)) by lia. rewrite E. cbn [bind].
      exists (S k), b, m. split; [reflexivity|]. split; [lia|]. destruct b; lia.
Qed.
Lemma count_repeat b n : count_occ bool_dec (repeat b n) true = if b then n else 0%nat.
Proof. induction n as [|n IH]; [destruct b; reflexivity|]. cbn [repeat count_occ]. destruct b; cbn; rewrite IH; reflexivity. Qed.
Lemma count_pp k : count_occ bool_dec (concat (repeat [true; true; false; false] k)) true = (2 * k)%nat.
Proof. induction k as [|k IH]; [reflexivity|]. cbn [repeat concat]. rewrite count_occ_app, IH. cbn. lia. Qed.
Lemma length_pp k : length (concat (repeat [true; true; false; false] k)) = (4 * k)%nat.
Proof. induction k as [|k IH]; [reflexivity|]. cbn [repeat concat]. rewrite app_length, IH. cbn. lia. Qed.
Lemma pp_det_shape e o fuel : (e <= o)%nat -> (2 * o <= fuel)%nat ->
  exists k b m, pp_det fuel (2 * Z.of_nat e) (2 * Z.of_nat o) = Ok (concat (repeat [true; true; false; false] k) ++ repeat b (2 * m)) /\ o = (2 * k + m)%nat /\ e = (k + if b then m else 0)%nat.
Proof.
  intros He Hf. destruct (pp_shape o e fuel He Hf) as (k & b & m & E & Ho & Hee). exists k, b, m. split; [|auto]. unfold pp_det. rewrite E. cbn [bind].
  rewrite count_occ_app, count_pp, count_repeat, app_length, length_pp, repeat_length. rewrite (proj2 (Z.eqb_eq _ _)), (proj2 (Z.eqb_eq _ _)); [reflexivity| |]; destruct b; lia.
Qed.

(** Holes and particles of closed-shell determinants. *)
Definition double (s : list bool) : list bool := flat_map (fun b => [b; b]) s.
Lemma double_app s t : double (s ++ t) = double s ++ double t.
Proof. unfold double. apply flat_map_app. Qed.
Lemma double_repeat b n : double (repeat b n) = repeat b (2 * n).
Proof. induction n as [|n IH]; [reflexivity|]. cbn [repeat]. replace (2 * S n)%nat with (S (S (2 * n))) by lia. cbn [repeat]. rewrite <- IH. reflexivity. Qed.
Lemma double_length s : length (double s) = (2 * length s)%nat.
Proof. induction s as [|b s IH]; [reflexivity|]. cbn [double flat_map app length]. unfold double in IH. rewrite IH. lia. Qed.
(** Positions, counted from [a], at which the bits satisfy [g]. *)
Fixpoint where2 (g : bool -> bool -> bool) (a : Z) (h p : list bool) : list Z :=
  match h, p with
  | x :: h', y :: p' => (if g x y then [a] else []) ++ where2 g (a + 1) h' p'
  | _, _ => []
  end.
Lemma where2_double g h : forall p a, length p = length h ->
  map fst (filter (fun x : Z * (bool * bool) => g (fst (snd x)) (snd (snd x))) (combine (zrange (2 * a) (2 * a + Z.of_nat (length (double h)))) (combine (double h) (double p)))) = flat_map (fun i => [2 * i; 2 * i + 1]) (where2 g a h p).
Proof.
  induction h as [|x h IH]; intros p a Hl; destruct p as [|y p]; cbn [length] in Hl; try lia.
  - cbn [double flat_map length combine]. now rewrite zrange_nil by lia.
  - rewrite double_length. cbn [length]. rewrite (zrange_cons (2 * a)), (zrange_cons (2 * a + 1)) by lia. cbn [double flat_map app combine filter fst snd].
    fold (double h) (double p). specialize (IH p (a + 1) ltac:(lia)). rewrite double_length in IH. replace (2 * a + Z.of_nat (2 * S (length h))) with (2 * (a + 1) + Z.of_nat (2 * length h)) by lia.
    replace (2 * a + 1 + 1) with (2 * (a + 1)) by lia. cbn [where2]. destruct (g x y); cbn [map fst app flat_map]; rewrite IH; reflexivity.
Qed.
Lemma where2_in g h : forall p a i, length p = length h -> In i (where2 g a h p) <-> a <= i < a + Z.of_nat (length h) /\ g (nth (Z.to_nat (i - a)) h false) (nth (Z.to_nat (i - a)) p false) = true.
Proof.
  induction h as [|x h IH]; intros p a i Hl; destruct p as [|y p]; cbn [length] in Hl; try lia; cbn [where2 length].
  - split; [intros []|lia].
  - rewrite in_app_iff, IH by lia. split.
    + intros [H|[H1 H2]].
      * destruct (g x y) eqn:E; [|destruct H]. destruct H as [<-|[]]. split; [lia|]. rewrite Z.sub_diag. exact E.
      * split; [lia|]. replace (Z.to_nat (i - a)) with (S (Z.to_nat (i - (a + 1)))) by lia. exact H2.
    + intros [H1 H2]. destruct (Z.eq_dec i a) as [->|Hn].
      * left. rewrite Z.sub_diag in H2. cbn [Z.to_nat nth] in H2. rewrite H2. now left.
      * right. split; [lia|]. replace (Z.to_nat (i - a)) with (S (Z.to_nat (i - (a + 1)))) in H2 by lia. exact H2.
Qed.
Lemma where2_nodup g h : forall p a, length p = length h -> NoDup (where2 g a h p).
Proof.
  induction h as [|x h IH]; intros p a Hl; destruct p as [|y p]; cbn [length] in Hl; try lia; cbn [where2]; [constructor|].
  specialize (IH p (a + 1) ltac:(lia)). destruct (g x y); [|exact IH]. cbn [app]. constructor; [|exact IH]. rewrite where2_in by lia. lia.
Qed.
Lemma spatial_pairs l : NoDup l -> forall acc, (forall i, In i l -> ~ In i acc) -> fold_left sp_step (flat_map (fun i => [2 * i; 2 * i + 1]) l) acc = acc ++ l.
Proof.
  induction l as [|a l IH]; intros Hn acc Hd; cbn [flat_map fold_left app]; [now rewrite app_nil_r|]. inversion Hn as [|? ? Ha Hl]; subst.
  assert (sp_step acc (2 * a) = acc ++ [a]) as ->.
  { unfold sp_step. replace (2 * a / 2) with a by (symmetry; rewrite Z.mul_comm; now apply Z.div_mul). rewrite (proj2 (zmem_false a acc)); [reflexivity|]. apply Hd. now left. }
  assert (sp_step (acc ++ [a]) (2 * a + 1) = acc ++ [a]) as ->.
  { unfold sp_step. replace ((2 * a + 1) / 2) with a by (symmetry; rewrite Z.add_comm, Z.mul_comm; now rewrite Z.div_add). rewrite (proj2 (zmem_spec a (acc ++ [a]))); [reflexivity|]. apply in_or_app. right. now left. }
  change (a :: l) with ([a] ++ l). rewrite app_assoc. apply IH; [exact Hl|]. intros i Hi H. apply in_app_iff in H as [H|[<-|[]]]; [|contradiction]. apply (Hd i); [now right|exact H].
Qed.
Lemma holes_spatial h p : length p = length h -> spatial (holes (double h) (double p)) = where2 (fun x y => x && negb y) 0 h p.
Proof.
  intros Hl. unfold holes. pose proof (where2_double (fun x y => x && negb y) h p 0 Hl) as E. cbn [Z.mul Z.add] in E. rewrite E, spatial_fold.
  rewrite spatial_pairs; [reflexivity|now apply where2_nodup|intros i _ []].
Qed.
Lemma parts_spatial h p : length p = length h -> spatial (parts (double h) (double p)) = where2 (fun x y => negb x && y) 0 h p.
Proof.
  intros Hl. unfold parts. pose proof (where2_double (fun x y => negb x && y) h p 0 Hl) as E. cbn [Z.mul Z.add] in E. rewrite E, spatial_fold.
  rewrite spatial_pairs; [reflexivity|now apply where2_nodup|intros i _ []].
Qed.
Lemma holes_parts_length h : forall p a b, length p = length h -> (length (where2 (fun x y => x && negb y) a h p) + count_occ bool_dec p true = length (where2 (fun x y => negb x && y) b h p) + count_occ bool_dec h true)%nat.
Proof.
  induction h as [|x h IH]; intros p a b Hl; destruct p as [|y p]; cbn [length] in Hl; try lia; cbn [where2]; [reflexivity|].
  rewrite !app_length. specialize (IH p (a + 1) (b + 1) ltac:(lia)). destruct x, y; cbn [andb negb length count_occ]; repeat (destruct (bool_dec _ _); try congruence); lia.
Qed.

(** Column assignment. *)
Fixpoint look (k : Z) (l : list (Z * Z)) : option Z := match l with [] => None | (t, f) :: r => if t =? k then Some f else look k r end.
Lemma put_nth {A} (d : A) acc t v k : (t < length acc)%nat -> nth k (firstn t acc ++ v :: skipn (S t) acc) d = if (k =? t)%nat then v else nth k acc d.
Proof.
  intros Ht. destruct (Nat.eqb_spec k t) as [->|Hn].
  - rewrite app_nth2 by (rewrite firstn_length; lia). rewrite firstn_length, Nat.min_l, Nat.sub_diag by lia. reflexivity.
  - destruct (Nat.lt_ge_cases k t) as [H|H].
    + rewrite app_nth1 by (rewrite firstn_length; lia). rewrite <- (firstn_skipn t acc) at 2. rewrite app_nth1 by (rewrite firstn_length; lia). reflexivity.
    + rewrite app_nth2 by (rewrite firstn_length; lia). rewrite firstn_length, Nat.min_l by lia. destruct (k - t)%nat as [|m] eqn:E; [lia|]. cbn [nth].
      rewrite <- (firstn_skipn (S t) acc) at 2. rewrite app_nth2 by (rewrite firstn_length; lia). rewrite firstn_length, Nat.min_l by lia. f_equal. lia.
Qed.
Lemma put_length {A} (acc : list A) t v : (t < length acc)%nat -> length (firstn t acc ++ v :: skipn (S t) acc) = length acc.
Proof. intros Ht. rewrite app_length, firstn_length. cbn [length]. rewrite skipn_length. lia. Qed.
Lemma look_app k l m : look k (l ++ m) = match look k l with Some f => Some f | None => look k m end.
Proof. induction l as [|[t f] l IH]; [reflexivity|]. cbn [app look]. destruct (t =? k); [reflexivity|exact IH]. Qed.
Lemma look_none k l : ~ In k (map fst l) <-> look k l = None.
Proof.
  induction l as [|[t f] l IH]; cbn [map look]; [split; [reflexivity|intros _ []]|]. cbn [fst]. destruct (Z.eqb_spec t k) as [->|Hn].
  - split; [intros H; exfalso; apply H; now left|discriminate].
  - rewrite <- IH. split; [intros H Hi; apply H; now right|intros H [E|Hi]; [contradiction|now apply H]].
Qed.
Lemma set_cols_nth {A} (d : A) cols (l : list (Z * Z)) : NoDup (map fst l) -> (forall tf, In tf l -> 0 <= fst tf < Z.of_nat (length cols)) ->
  forall acc, length acc = length cols -> forall k : nat,
  nth k (fold_left (fun acc tf => firstn (Z.to_nat (fst tf)) acc ++ nth (Z.to_nat (snd tf)) cols d :: skipn (S (Z.to_nat (fst tf))) acc) l acc) d =
  match look (Z.of_nat k) l with Some f => nth (Z.to_nat f) cols d | None => nth k acc d end.
Proof.
  induction l as [|[t f] l IH]; intros Hn Hr acc Ha k; cbn [fold_left look]; [reflexivity|]. cbn [map fst] in Hn. inversion Hn as [|? ? Ht Hl]; subst. cbn [fst snd].
  pose proof (Hr (t, f) (or_introl eq_refl)) as Hr0. cbn [fst] in Hr0. rewrite IH; [|exact Hl|intros tf Htf; apply Hr; now right|rewrite put_length by lia; exact Ha].
  rewrite put_nth by lia. destruct (Z.eqb_spec t (Z.of_nat k)) as [E|E].
  - assert (look (Z.of_nat k) l = None) as -> by (apply look_none; rewrite <- E; exact Ht). replace (k =? Z.to_nat t)%nat with true by (symmetry; apply Nat.eqb_eq; lia). reflexivity.
  - replace (k =? Z.to_nat t)%nat with false by (symmetry; apply Nat.eqb_neq; lia). reflexivity.
Qed.
Lemma set_cols_length {A} (d : A) cols (l : list (Z * Z)) : (forall tf, In tf l -> 0 <= fst tf < Z.of_nat (length cols)) ->
  forall acc, length acc = length cols -> length (fold_left (fun acc tf => firstn (Z.to_nat (fst tf)) acc ++ nth (Z.to_nat (snd tf)) cols d :: skipn (S (Z.to_nat (fst tf))) acc) l acc) = length cols.
Proof.
  induction l as [|[t f] l IH]; intros Hr acc Ha; cbn [fold_left]; [exact Ha|]. apply IH; [intros tf Htf; apply Hr; now right|]. pose proof (Hr (t, f) (or_introl eq_refl)) as Hr0. cbn [fst snd] in *. rewrite put_length by lia. exact Ha.
Qed.
Lemma combine_fst {A B} (l : list A) (m : list B) : length l = length m -> map fst (combine l m) = l.
Proof. revert m. induction l as [|a l IH]; intros [|b m] H; cbn in *; try lia; [reflexivity|]. f_equal. apply IH. lia. Qed.
Lemma look_combine_in k l m f : look k (combine l m) = Some f -> In k l /\ In f m.
Proof.
  revert m. induction l as [|a l IH]; intros [|b m]; cbn [combine look]; try discriminate. destruct (Z.eqb_spec a k) as [->|Hn].
  - intros E. injection E as <-. split; now left.
  - intros E. apply IH in E as [H1 H2]. split; now right.
Qed.
(** Looking back. *)
Lemma look_swap l m k f : NoDup l -> NoDup m -> look k (combine l m) = Some f -> look f (combine m l) = Some k.
Proof.
  intros Hl. revert m. induction Hl as [|a l Ha Hl IH]; intros m Hm; destruct m as [|b m]; cbn [combine look]; try discriminate. inversion Hm as [|? ? Hb Hm']; subst.
  destruct (Z.eqb_spec a k) as [->|Hn].
  - intros E. injection E as <-. now rewrite Z.eqb_refl.
  - intros E. destruct (Z.eqb_spec b f) as [->|Hbf]; [|now apply IH]. apply look_combine_in in E as [_ H]. contradiction.
Qed.
Definition swap_map (H P : list Z) (i : Z) : Z := match look i (combine H P ++ combine P H) with Some f => f | None => i end.
Lemma swap_map_spec H P i : NoDup H -> NoDup P -> (forall x, In x H -> ~ In x P) -> length H = length P ->
  swap_map H P (swap_map H P i) = i /\ (In i H -> In (swap_map H P i) P) /\ (In i P -> In (swap_map H P i) H) /\ (~ In i H -> ~ In i P -> swap_map H P i = i).
Proof.
  intros HH HP Hd Hl. assert (forall x, In x H -> exists f, look x (combine H P) = Some f) as G1.
  { intros x Hx. destruct (look x (combine H P)) eqn:E; [eauto|]. apply look_none in E. rewrite combine_fst in E by exact Hl. contradiction. }
  assert (forall x, In x P -> exists f, look x (combine P H) = Some f) as G2.
  { intros x Hx. destruct (look x (combine P H)) eqn:E; [eauto|]. apply look_none in E. rewrite combine_fst in E by (now symmetry). contradiction. }
  assert (forall x, ~ In x H -> look x (combine H P) = None) as N1 by (intros x Hx; apply look_none; now rewrite combine_fst).
  assert (forall x, ~ In x P -> look x (combine P H) = None) as N2 by (intros x Hx; apply look_none; rewrite combine_fst; [exact Hx|now symmetry]).
  assert (forall x f, look x (combine H P) = Some f -> swap_map H P x = f) as S1 by (intros x f E; unfold swap_map; now rewrite look_app, E).
  assert (forall x f, ~ In x H -> look x (combine P H) = Some f -> swap_map H P x = f) as S2 by (intros x f Hx E; unfold swap_map; now rewrite look_app, (N1 x Hx), E).
  split; [|split; [|split]].
  - destruct (in_dec Z.eq_dec i H) as [Hi|Hi].
    + destruct (G1 i Hi) as (f & E). rewrite (S1 i f E). apply S2; [|now apply look_swap]. intros Hf. apply look_combine_in in E as [_ E]. now apply (Hd f).
    + destruct (in_dec Z.eq_dec i P) as [Hp|Hp].
      * destruct (G2 i Hp) as (f & E). rewrite (S2 i f Hi E). apply S1. now apply look_swap.
      * assert (swap_map H P i = i) as -> by (unfold swap_map; now rewrite look_app, (N1 i Hi), (N2 i Hp)). unfold swap_map. now rewrite look_app, (N1 i Hi), (N2 i Hp).
  - intros Hi. destruct (G1 i Hi) as (f & E). rewrite (S1 i f E). now apply look_combine_in in E as [_ E].
  - intros Hp. destruct (G2 i Hp) as (f & E). rewrite (S2 i f); [now apply look_combine_in in E as [_ E]| |exact E]. intros Hi. now apply (Hd i).
  - intros Hi Hp. unfold swap_map. now rewrite look_app, (N1 i Hi), (N2 i Hp).
Qed.
Lemma combine_app {A B} (a b : list A) (c d : list B) : length a = length c -> combine (a ++ b) (c ++ d) = combine a c ++ combine b d.
Proof. revert c. induction a as [|x a IH]; intros [|y c] H; cbn in *; try lia; [reflexivity|]. f_equal. apply IH. lia. Qed.
Lemma nth_repeat_app e o k : (k < o)%nat -> (e <= o)%nat -> nth k (repeat true e ++ repeat false (o - e)) false = (k <? e)%nat.
Proof.
  intros Hk He. destruct (Nat.ltb_spec k e) as [H|H].
  - rewrite app_nth1 by (rewrite repeat_length; exact H). rewrite (nth_indep _ false true) by (rewrite repeat_length; exact H). apply nth_repeat.
  - rewrite app_nth2 by (rewrite repeat_length; exact H). apply nth_repeat.
Qed.
Lemma pp_columns {A} (d : A) (nin e o : nat) (s : list bool) (cols : list A) : length s = o -> count_occ bool_dec s true = e -> (nin + o <= length cols)%nat ->
  exists pi : nat -> nat, (forall i, (i < o)%nat -> (pi i < o)%nat /\ pi (pi i) = i) /\ (forall i, (i < o)%nat -> nth i s false = (pi i <? e)%nat) /\
    let new := pp_mo_coeffs d (Z.of_nat nin) (double (repeat true e ++ repeat false (o - e))) (double s) cols in
    length new = length cols /\ (forall i, (i < o)%nat -> nth (nin + i) new d = nth (nin + pi i) cols d) /\ (forall k, (k < nin \/ nin + o <= k)%nat -> nth k new d = nth k cols d).
Proof.
  intros Hs Hc Hl. set (h := repeat true e ++ repeat false (o - e)).
  assert (e <= o)%nat as Heo by (rewrite <- Hc, <- Hs; apply count_occ_bound).
  assert (length h = o) as Hh by (unfold h; rewrite app_length, !repeat_length; lia).
  assert (count_occ bool_dec h true = e) as Hch by (unfold h; rewrite count_occ_app, !count_repeat; lia).
  set (H := where2 (fun x y => x && negb y) 0 h s). set (P := where2 (fun x y => negb x && y) 0 h s).
  assert (NoDup H) as NH by (apply where2_nodup; lia). assert (NoDup P) as NP by (apply where2_nodup; lia).
  assert (length H = length P) as HL by (pose proof (holes_parts_length h s 0 0 ltac:(lia)); unfold H, P; lia).
  assert (forall i, In i H <-> 0 <= i < Z.of_nat o /\ i < Z.of_nat e /\ nth (Z.to_nat i) s false = false) as IH.
  { intros i. unfold H. rewrite where2_in by lia. rewrite Hh, Z.add_0_l, Z.sub_0_r. split.
    - intros [H1 H2]. unfold h in H2. rewrite nth_repeat_app in H2 by lia. apply andb_true_iff in H2 as [H2 H3]. apply Nat.ltb_lt in H2. apply negb_true_iff in H3. repeat split; try lia; exact H3.
    - intros (H1 & H2 & H3). split; [exact H1|]. unfold h. rewrite nth_repeat_app by lia. rewrite H3, (proj2 (Nat.ltb_lt _ _)) by lia. reflexivity. }
  assert (forall i, In i P <-> 0 <= i < Z.of_nat o /\ Z.of_nat e <= i /\ nth (Z.to_nat i) s false = true) as IP.
  { intros i. unfold P. rewrite where2_in by lia. rewrite Hh, Z.add_0_l, Z.sub_0_r. split.
    - intros [H1 H2]. unfold h in H2. rewrite nth_repeat_app in H2 by lia. apply andb_true_iff in H2 as [H2 H3]. apply negb_true_iff, Nat.ltb_ge in H2. repeat split; try lia; exact H3.
    - intros (H1 & H2 & H3). split; [exact H1|]. unfold h. rewrite nth_repeat_app by lia. rewrite H3, (proj2 (Nat.ltb_ge _ _)) by lia. reflexivity. }
  assert (forall x, In x H -> ~ In x P) as HD by (intros x Hx Hp; apply IH in Hx; apply IP in Hp; lia).
  pose proof (fun i => swap_map_spec H P i NH NP HD HL) as SW.
  exists (fun i => Z.to_nat (swap_map H P (Z.of_nat i))).
  assert (forall i, (i < o)%nat -> 0 <= swap_map H P (Z.of_nat i) < Z.of_nat o /\ (nth i s false = true <-> swap_map H P (Z.of_nat i) < Z.of_nat e)) as R.
  { intros i Hi. destruct (SW (Z.of_nat i)) as (_ & S1 & S2 & S3). destruct (in_dec Z.eq_dec (Z.of_nat i) H) as [Hin|Hin].
    - pose proof (S1 Hin) as Hp. apply IP in Hp. apply IH in Hin. rewrite Nat2Z.id in Hin. split; [lia|]. destruct Hin as (_ & _ & ->). split; [discriminate|lia].
    - destruct (in_dec Z.eq_dec (Z.of_nat i) P) as [Hp|Hp].
      + pose proof (S2 Hp) as Hq. apply IH in Hq. apply IP in Hp. rewrite Nat2Z.id in Hp. split; [lia|]. destruct Hp as (_ & _ & ->). split; [lia|reflexivity].
      + rewrite (S3 Hin Hp). split; [lia|]. split; intros Hx.
        * destruct (Z.lt_ge_cases (Z.of_nat i) (Z.of_nat e)) as [?|Hge]; [assumption|exfalso]. apply Hp, IP. rewrite Nat2Z.id. repeat split; try lia; exact Hx.
        * destruct (nth i s false) eqn:E; [reflexivity|exfalso]. apply Hin, IH. rewrite Nat2Z.id. repeat split; try lia; exact E. }
  split; [|split].
  - intros i Hi. destruct (R i Hi) as [R1 _]. split; [lia|]. rewrite Z2Nat.id by lia. destruct (SW (Z.of_nat i)) as (-> & _). apply Nat2Z.id.
  - intros i Hi. destruct (R i Hi) as [R1 R2]. apply eq_true_iff_eq. rewrite R2, Nat.ltb_lt. lia.
  - intros new. unfold new, pp_mo_coeffs, spatial_shift, set_cols. fold h. rewrite holes_spatial, parts_spatial by lia. fold H P.
    set (H' := map (fun i => i + Z.of_nat nin) H). set (P' := map (fun i => i + Z.of_nat nin) P).
    assert (length H' = length P') as HL' by (unfold H', P'; rewrite !map_length; exact HL).
    rewrite combine_app by exact HL'.
    assert (forall k, look (k + Z.of_nat nin) (combine H' P' ++ combine P' H') = match look k (combine H P ++ combine P H) with Some f => Some (f + Z.of_nat nin) | None => None end) as LK.
    { intros k. rewrite !look_app. assert (forall a b, look (k + Z.of_nat nin) (combine (map (fun i => i + Z.of_nat nin) a) (map (fun i => i + Z.of_nat nin) b)) = match look k (combine a b) with Some f => Some (f + Z.of_nat nin) | None => None end) as G.
      { induction a as [|x a IHa]; intros [|y b]; cbn [map combine look]; try reflexivity. replace (x + Z.of_nat nin =? k + Z.of_nat nin) with (x =? k); [|apply eq_true_iff_eq; rewrite !Z.eqb_eq; lia]. destruct (x =? k); [reflexivity|apply IHa]. }
      unfold H', P'. rewrite !G. destruct (look k (combine H P)); [reflexivity|]. reflexivity. }
    assert (map fst (combine H' P' ++ combine P' H') = H' ++ P') as MF by (rewrite map_app, !combine_fst by congruence; reflexivity).
    assert (forall x, In x (H' ++ P') -> Z.of_nat nin <= x < Z.of_nat (nin + o)) as RG.
    { intros x Hx. apply in_app_iff in Hx as [Hx|Hx]; apply in_map_iff in Hx as (y & <- & Hy); [apply IH in Hy|apply IP in Hy]; lia. }
    assert (NoDup (map fst (combine H' P' ++ combine P' H'))) as ND.
    { rewrite MF. unfold H', P'. rewrite <- map_app. apply Injective_map_NoDup; [intros x y; lia|].
      assert (forall a b : list Z, NoDup a -> NoDup b -> (forall x, In x a -> ~ In x b) -> NoDup (a ++ b)) as G.
      { intros a b Ha Hb Hab. induction Ha as [|x a Hx Ha IHa]; [exact Hb|]. cbn. constructor; [|apply IHa; intros y Hy; apply Hab; now right].
        intros Hi. apply in_app_iff in Hi as [Hi|Hi]; [contradiction|]. apply (Hab x); [now left|exact Hi]. }
      now apply G. }
    assert (forall tf, In tf (combine H' P' ++ combine P' H') -> 0 <= fst tf < Z.of_nat (length cols)) as RT.
    { intros tf Htf. apply (in_map fst) in Htf. rewrite MF in Htf. apply RG in Htf. lia. }
    split; [now apply set_cols_length|]. split.
    + intros i Hi. rewrite set_cols_nth by auto. replace (Z.of_nat (nin + i)) with (Z.of_nat i + Z.of_nat nin) by lia. rewrite LK. unfold swap_map. destruct (R i Hi) as [R1 _]. unfold swap_map in R1. destruct (look (Z.of_nat i) (combine H P ++ combine P H)) as [f|].
      * f_equal. lia.
      * f_equal. lia.
    + intros k Hk. rewrite set_cols_nth by auto. assert (look (Z.of_nat k) (combine H' P' ++ combine P' H') = None) as ->; [|reflexivity]. apply look_none. rewrite MF. intros Hi. apply RG in Hi. lia.
Qed.
