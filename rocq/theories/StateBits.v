(** Bit-level lemmas about the kernels of StateModel.v. *)
From Coq Require Import List Bool Arith NArith ZArith Lia Permutation Sorted.
From Verif Require Import Base Fock FermiModel FermiProofs FermiUnique OperatorsProofs OperatorsKeys CIModel CIProofs StateModel.
Import ListNotations.

(** ** bitcount *)

(** Number of set bits among the lowest [m]. *)
Definition setbits (m : nat) (x : N) : nat := length (filter (fun k => N.testbit x (N.of_nat k)) (seq 0 m)).

Lemma setbits_S m x : setbits (S m) x = (if N.odd x then 1 else 0) + setbits m (N.div2 x).
Proof.
  unfold setbits. cbn [seq filter]. rewrite <- seq_shift.
  assert (forall l, length (filter (fun k => N.testbit x (N.of_nat k)) (map S l))
                    = length (filter (fun k => N.testbit (N.div2 x) (N.of_nat k)) l)) as Hl.
  { induction l as [|k l IH]; [reflexivity|]. cbn [map filter]. rewrite Nat2N.inj_succ.
    rewrite N.div2_spec, N.shiftr_spec by lia. rewrite N.add_1_r. rewrite <- N.div2_spec.
    destruct (N.testbit x (N.succ (N.of_nat k))); cbn [length]; now rewrite IH. }
  change (N.of_nat 0) with 0%N. rewrite N.bit0_odd. destruct (N.odd x); cbn [length]; rewrite Hl; reflexivity.
Qed.

Lemma setbits_double m x : setbits (S m) (2 * x) = setbits m x.
Proof. rewrite setbits_S. rewrite N.odd_mul, N.div2_double. reflexivity. Qed.
Lemma setbits_double1 m x : setbits (S m) (2 * x + 1) = S (setbits m x).
Proof.
  rewrite setbits_S. replace (2 * x + 1)%N with (N.succ_double x) by (rewrite N.succ_double_spec; lia).
  rewrite N.div2_succ_double, N.succ_double_spec. rewrite N.odd_add, N.odd_mul. reflexivity.
Qed.

Lemma land_pred_even y : (0 < y)%N -> N.land (2 * y) (2 * y - 1) = (2 * N.land y (y - 1))%N.
Proof.
  intros Hy. apply N.bits_inj. intros k. rewrite N.land_spec.
  replace (2 * y - 1)%N with (2 * (y - 1) + 1)%N by lia.
  destruct (N.eq_dec k 0) as [->|Hk].
  - rewrite !N.testbit_even_0. reflexivity.
  - destruct (N.succ_pred k Hk). rewrite N.testbit_even_succ, N.testbit_odd_succ, N.testbit_even_succ by lia.
    now rewrite N.land_spec.
Qed.
Lemma land_pred_odd y : N.land (2 * y + 1) (2 * y + 1 - 1) = (2 * y)%N.
Proof.
  replace (2 * y + 1 - 1)%N with (2 * y)%N by lia. apply N.bits_inj. intros k. rewrite N.land_spec.
  destruct (N.eq_dec k 0) as [->|Hk].
  - rewrite !N.testbit_even_0. apply andb_false_r.
  - destruct (N.succ_pred k Hk). rewrite N.testbit_even_succ, N.testbit_odd_succ by lia. apply andb_diag.
Qed.

Lemma N_even_odd x : (exists y, x = (2 * y)%N) \/ (exists y, x = (2 * y + 1)%N).
Proof. destruct (N.Even_or_Odd x) as [[y ->]|[y ->]]; eauto. Qed.

Lemma setbits_clear m x : (0 < x)%N -> (x < 2 ^ N.of_nat m)%N -> setbits m x = S (setbits m (N.land x (x - 1))).
Proof.
  revert x. induction m as [|m IH]; intros x H0 Hx; [cbn in Hx; lia|].
  rewrite Nat2N.inj_succ, N.pow_succ_r' in Hx.
  destruct (N_even_odd x) as [[y ->]|[y ->]].
  - rewrite land_pred_even by lia. rewrite !setbits_double. apply IH; lia.
  - rewrite land_pred_odd. rewrite setbits_double1, setbits_double. reflexivity.
Qed.

Lemma land_pred_lt x m : (x < 2 ^ N.of_nat m)%N -> (N.land x (x - 1) < 2 ^ N.of_nat m)%N.
Proof.
  intros H. apply bits_small. intros k Hk. rewrite N.land_spec. now rewrite (small_bit m x k).
Qed.

Lemma setbits_le m x : setbits m x <= m.
Proof.
  unfold setbits. rewrite <- (seq_length m 0) at 2. generalize (seq 0 m). intros l.
  induction l as [|a l IH]; cbn; [lia|]. destruct (N.testbit x (N.of_nat a)); cbn; lia.
Qed.
Lemma setbits_0 m : setbits m 0 = 0.
Proof.
  unfold setbits. generalize (seq 0 m). induction l as [|a l IH]; [reflexivity|].
  cbn [filter]. now rewrite N.bits_0.
Qed.

Lemma bitcount_loop_spec m : forall fuel x b, (x < 2 ^ N.of_nat m)%N -> setbits m x < fuel ->
  bitcount_loop fuel x b = Some (b + setbits m x).
Proof.
  induction fuel as [|f IH]; intros x b Hx Hf; [lia|]. cbn [bitcount_loop].
  destruct (N.eqb_spec x 0) as [->|H0].
  - rewrite setbits_0. f_equal. lia.
  - assert (0 < x)%N as Hpos by lia. pose proof (setbits_clear m x Hpos Hx) as Hc.
    rewrite IH; [f_equal; lia| |lia]. now apply land_pred_lt.
Qed.

Lemma size_nat_lt x : (x < 2 ^ N.of_nat (N.size_nat x))%N.
Proof.
  assert (N.of_nat (N.size_nat x) = N.size x) as ->.
  { destruct x as [|p]; [reflexivity|]. cbn. induction p; cbn; auto; rewrite Pos.of_nat_succ in *; lia. }
  apply N.size_gt.
Qed.

Lemma setbits_above m x : (x < 2 ^ N.of_nat m)%N -> setbits (S m) x = setbits m x.
Proof.
  intros H. unfold setbits. rewrite seq_S, filter_app, app_length. cbn [filter Nat.add].
  rewrite (small_bit m x) by (auto; lia). cbn. lia.
Qed.
Lemma setbits_enough m k x : (x < 2 ^ N.of_nat m)%N -> m <= k -> setbits k x = setbits m x.
Proof.
  intros H Hk. induction Hk as [|k Hk IH]; [reflexivity|]. rewrite setbits_above; auto.
  eapply N.lt_le_trans; [exact H|]. apply N.pow_le_mono_r; lia.
Qed.

Lemma bitcount_spec m x : (x < 2 ^ N.of_nat m)%N -> bitcount x = setbits m x.
Proof.
  intros Hx. unfold bitcount.
  rewrite (bitcount_loop_spec (N.size_nat x)); [| apply size_nat_lt |pose proof (setbits_le (N.size_nat x) x); lia].
  cbn [Nat.add]. destruct (Nat.le_ge_cases m (N.size_nat x)) as [H|H].
  - now apply setbits_enough.
  - symmetry. apply setbits_enough; [apply size_nat_lt|exact H].
Qed.

(** ** parity masks *)

Lemma parity_fold m j (L : list N) : j <= m ->
  fold_left (fun (st : N * list N) i => let num := (fst st + 2 ^ N.of_nat i)%N in (num, snd st ++ [num]))
            (rev (seq 0 j)) ((2 ^ N.of_nat m - 2 ^ N.of_nat j)%N, L)
  = ((2 ^ N.of_nat m - 1)%N, L ++ map (fun t => (2 ^ N.of_nat m - 2 ^ N.of_nat (j - 1 - t))%N) (seq 0 j)).
Proof.
  revert L. induction j as [|j IH]; intros L Hj.
  - cbn. now rewrite app_nil_r.
  - rewrite (seq_S j 0) at 1. rewrite rev_app_distr. cbn [rev app fold_left Nat.add fst snd].
    assert (2 ^ N.of_nat (S j) <= 2 ^ N.of_nat m)%N as Hle by (apply N.pow_le_mono_r; lia).
    assert (2 ^ N.of_nat (S j) = 2 * 2 ^ N.of_nat j)%N as Hp by (rewrite Nat2N.inj_succ; apply N.pow_succ_r').
    replace (2 ^ N.of_nat m - 2 ^ N.of_nat (S j) + 2 ^ N.of_nat j)%N with (2 ^ N.of_nat m - 2 ^ N.of_nat j)%N by lia.
    rewrite IH by lia. f_equal. rewrite <- app_assoc. f_equal.
    cbn [seq map]. rewrite <- seq_shift, map_map. cbn [app]. f_equal.
    + f_equal. f_equal. f_equal. lia.
    + apply map_ext. intros t. f_equal. f_equal. f_equal. lia.
Qed.

Lemma parity_check_nth n k : k <= 2 * n ->
  nth k (parity_check n) 0%N = (2 ^ N.of_nat (2 * n) - 2 ^ N.of_nat (2 * n - k))%N.
Proof.
  intros Hk. unfold parity_check.
  pose proof (parity_fold (2 * n) (2 * n) [0%N] (Nat.le_refl _)) as H. rewrite N.sub_diag in H. cbv zeta in H. rewrite H.
  cbn [snd app]. destruct k as [|k]; cbn [nth].
  - rewrite Nat.sub_0_r. lia.
  - rewrite (nth_map_seq (fun t => (2 ^ N.of_nat (2 * n) - 2 ^ N.of_nat (2 * n - 1 - t))%N)) by lia.
    f_equal. f_equal. f_equal. lia.
Qed.

Lemma parity_bit n k j : k <= 2 * n ->
  N.testbit (nth k (parity_check n) 0%N) (N.of_nat j) = (2 * n - k <=? j) && (j <? 2 * n).
Proof.
  intros Hk. rewrite parity_check_nth by exact Hk.
  replace (2 ^ N.of_nat (2 * n) - 2 ^ N.of_nat (2 * n - k))%N
    with (N.shiftl (N.ones (N.of_nat k)) (N.of_nat (2 * n - k))).
  2:{ rewrite N.shiftl_mul_pow2, N.ones_equiv, <- N.sub_1_r.
      replace (2 * n) with (k + (2 * n - k)) at 2 by lia. rewrite Nat2N.inj_add, N.pow_add_r.
      assert (2 ^ N.of_nat k <> 0)%N by (apply N.pow_nonzero; lia). nia. }
  destruct (Nat.leb_spec (2 * n - k) j) as [H|H].
  - rewrite N.shiftl_spec_high by lia. cbn [andb].
    destruct (Nat.ltb_spec j (2 * n)).
    + apply N.ones_spec_low. lia.
    + apply N.ones_spec_high. lia.
  - rewrite N.shiftl_spec_low by lia. reflexivity.
Qed.

Lemma rev_range_perm m k : k <= m -> Permutation (map (fun p => m - 1 - p) (seq 0 k)) (seq (m - k) k).
Proof.
  induction k as [|k IH]; intros Hk; [constructor|].
  rewrite seq_S, map_app. cbn [map Nat.add]. eapply Permutation_trans; [apply Permutation_app_comm|].
  cbn [app seq]. replace (m - 1 - k) with (m - S k) by lia. constructor.
  replace (S (m - S k)) with (m - k) by lia. apply IH. lia.
Qed.

Lemma filter_perm_length {A} (f : A -> bool) l l' : Permutation l l' -> length (filter f l) = length (filter f l').
Proof.
  induction 1 as [|x l l' H IH|x y l|l1 l2 l3 H1 IH1 H2 IH2]; cbn; auto.
  - destruct (f x); cbn; lia.
  - destruct (f x), (f y); cbn; lia.
  - lia.
Qed.

Lemma filter_map_len {A B} (f : B -> bool) (g : A -> B) l :
  length (filter f (map g l)) = length (filter (fun a => f (g a)) l).
Proof. induction l as [|a l IH]; [reflexivity|]. cbn. destruct (f (g a)); cbn; lia. Qed.
Lemma filter_ext_len {A} (f g : A -> bool) l : (forall a, In a l -> f a = g a) ->
  length (filter f l) = length (filter g l).
Proof. intros H. f_equal. now apply filter_ext_in. Qed.
Lemma filter_none_len {A} (f : A -> bool) l : (forall a, In a l -> f a = false) -> length (filter f l) = 0.
Proof.
  induction l as [|a l IH]; intros H; [reflexivity|]. cbn. rewrite H by now left. apply IH. intros. apply H. now right.
Qed.

(** The masked bit count is the number of occupied orbitals before [k]. *)
Lemma bitcount_parity n d k : k <= 2 * n -> (d < 2 ^ N.of_nat (2 * n))%N ->
  bitcount (N.land d (nth k (parity_check n) 0%N)) = length (filter (occ (todet (2 * n) d)) (seq 0 k)).
Proof.
  intros Hk Hd. rewrite (bitcount_spec (2 * n)).
  2:{ apply bits_small. intros j Hj. rewrite N.land_spec. rewrite (small_bit (2 * n) d j) by assumption. reflexivity. }
  unfold setbits.
  replace (seq 0 (2 * n)) with (seq 0 (2 * n - k) ++ seq (2 * n - k) k).
  2:{ pose proof (seq_app (2 * n - k) k 0) as E. cbn [Nat.add] in E. rewrite <- E. f_equal. lia. }
  rewrite filter_app, app_length, filter_none_len.
  2:{ intros j Hj. apply in_seq in Hj. rewrite N.land_spec, parity_bit by exact Hk.
      destruct (Nat.leb_spec (2 * n - k) j); [lia|]. apply andb_false_r. }
  cbn [Nat.add]. rewrite (filter_ext_len _ (fun j => N.testbit d (N.of_nat j))).
  2:{ intros j Hj. apply in_seq in Hj. rewrite N.land_spec, parity_bit by exact Hk.
      destruct (Nat.leb_spec (2 * n - k) j); [|lia]. destruct (Nat.ltb_spec j (2 * n)); [|lia]. apply andb_true_r. }
  rewrite <- (filter_perm_length _ _ _ (rev_range_perm (2 * n) k Hk)), filter_map_len.
  apply filter_ext_len. intros p Hp. apply in_seq in Hp. rewrite occ_todet.
  destruct (Nat.ltb_spec p (2 * n)); [reflexivity|lia].
Qed.

Lemma below_count x k : below x k = Nat.odd (length (filter (occ x) (seq 0 k))).
Proof.
  induction k as [|k IH]; [reflexivity|]. rewrite seq_S, filter_app, app_length. cbn [below filter Nat.add].
  rewrite Nat.odd_add, <- IH. destruct (occ x k); cbn; destruct (below x k); reflexivity.
Qed.

(** ** Flips *)

Lemma testbit_orb_bit n p j : N.testbit (orb_bit n p) (N.of_nat j) = Nat.eqb j (2 * n - 1 - p).
Proof.
  unfold orb_bit. rewrite N.shiftl_1_l, N.pow2_bits_eqb.
  destruct (N.eqb_spec (N.of_nat (2 * n - 1 - p)) (N.of_nat j)), (Nat.eqb_spec j (2 * n - 1 - p)); lia || reflexivity.
Qed.

Lemma todet_flip n d p : p < 2 * n -> todet (2 * n) (N.lxor d (orb_bit n p)) = flip (todet (2 * n) d) p.
Proof.
  intros Hp. apply det_ext. intros q. destruct (Nat.eq_dec p q) as [<-|Hq].
  - rewrite occ_flip_same, !occ_todet. destruct (Nat.ltb_spec p (2 * n)); [|lia]. cbn [andb].
    rewrite N.lxor_spec, testbit_orb_bit, Nat.eqb_refl. apply xorb_true_r.
  - rewrite occ_flip_other by exact Hq. rewrite !occ_todet. destruct (Nat.ltb_spec q (2 * n)); [|reflexivity]. cbn [andb].
    rewrite N.lxor_spec, testbit_orb_bit. destruct (Nat.eqb_spec (2 * n - 1 - q) (2 * n - 1 - p)); [lia|].
    apply xorb_false_r.
Qed.

Lemma lxor_orb_small n d p : p < 2 * n -> (d < 2 ^ N.of_nat (2 * n))%N -> (N.lxor d (orb_bit n p) < 2 ^ N.of_nat (2 * n))%N.
Proof.
  intros Hp Hd. apply bits_small. intros k Hk. rewrite N.lxor_spec, (small_bit (2 * n) d k) by assumption.
  rewrite <- (N2Nat.id k), testbit_orb_bit. destruct (Nat.eqb_spec (N.to_nat k) (2 * n - 1 - p)); [lia|reflexivity].
Qed.

(** Successive flips with accumulated sign. *)
Definition flips (l : list nat) (st : bool * det) : bool * det :=
  fold_left (fun st p => (xorb (fst st) (below (snd st) p), flip (snd st) p)) l st.

Lemma flips_app l m st : flips (l ++ m) st = flips m (flips l st).
Proof. apply fold_left_app. Qed.

Lemma flip_loop_spec n l d : (forall p, In p l -> p < 2 * n) -> (d < 2 ^ N.of_nat (2 * n))%N ->
  forall ph,
  let r := fold_left (fun (st : N * nat) orb =>
               let d' := N.lxor (fst st) (orb_bit n orb) in
               (d', snd st + bitcount (N.land d' (nth orb (parity_check n) 0%N)))) l (d, ph) in
  (fst r < 2 ^ N.of_nat (2 * n))%N /\
  (Nat.odd (snd r), todet (2 * n) (fst r)) = flips l (Nat.odd ph, todet (2 * n) d).
Proof.
  revert d. induction l as [|p l IH]; intros d Hl Hd ph; cbn [fold_left]; [cbn; auto|].
  assert (p < 2 * n) as Hp by (apply Hl; now left).
  pose proof (lxor_orb_small n d p Hp Hd) as Hd'. cbn [fst snd].
  destruct (IH (N.lxor d (orb_bit n p)) (fun q Hq => Hl q (or_intror Hq)) Hd'
               (ph + bitcount (N.land (N.lxor d (orb_bit n p)) (nth p (parity_check n) 0%N)))) as [H1 H2].
  split; [exact H1|]. eapply eq_trans; [exact H2|]. cbn [flips fold_left fst snd]. unfold flips. f_equal. f_equal; [|now apply todet_flip].
  rewrite Nat.odd_add, bitcount_parity by (auto; lia). rewrite <- below_count, todet_flip by exact Hp.
  rewrite below_flip_ge by lia. reflexivity.
Qed.

Lemma flips_sign l sg d : flips l (sg, d) = (xorb sg (fst (flips l (false, d))), snd (flips l (false, d))).
Proof.
  revert sg d. induction l as [|p l IH]; intros sg d; cbn [flips fold_left fst snd]; [now rewrite xorb_false_r|].
  fold (flips l). change (fold_left _ l ?st) with (flips l st).
  rewrite IH, (IH (xorb false (below d p))). cbn [fst snd]. rewrite xorb_false_l, xorb_assoc. reflexivity.
Qed.

Lemma actdet_flips s d sg e : actdet s d = Some (sg, e) -> flips (rev (map fst s)) (false, d) = (sg, e).
Proof.
  revert sg e. induction s as [|[p a] s IH]; intros sg e H; cbn [actdet] in H; [now injection H as <- <-|].
  destruct (actdet s d) as [[sg1 e1]|]; [|discriminate]. destruct (Bool.eqb (occ e1 p) a); [discriminate|].
  injection H as <- <-. cbn [map fst rev]. rewrite flips_app, (IH sg1 e1 eq_refl). reflexivity.
Qed.

(** Moving one flip across distinct others. *)
Lemma flips_move p l d : ~ In p l ->
  flips (l ++ [p]) (false, d) = let r := flips (p :: l) (false, d) in (xorb (Nat.odd (length l)) (fst r), snd r).
Proof.
  revert d. induction l as [|q l IH]; intros d Hp.
  - cbn. now destruct (below d p).
  - assert (p <> q) as Hpq by (intros ->; apply Hp; now left).
    assert (~ In p l) as Hpl by (intros H; apply Hp; now right).
    cbn [app]. change (flips (q :: l ++ [p]) (false, d)) with (flips (l ++ [p]) (xorb false (below d q), flip d q)).
    rewrite flips_sign, (IH (flip d q) Hpl). cbv zeta. cbn [fst snd].
    change (flips (p :: l) (false, flip d q)) with (flips l (xorb false (below (flip d q) p), flip (flip d q) p)).
    change (flips (p :: q :: l) (false, d))
      with (flips l (xorb (xorb false (below d p)) (below (flip d p) q), flip (flip d p) q)).
    rewrite (flips_sign l (xorb false (below (flip d q) p))), (flips_sign l (xorb (xorb false (below d p)) _)).
    cbn [fst snd]. rewrite (flip_comm d q p). f_equal. rewrite !xorb_false_l.
    cbn [length]. rewrite Nat.odd_succ, <- Nat.negb_odd.
    destruct (Nat.lt_ge_cases p q) as [H|H].
    + rewrite (below_flip_lt d p q) by exact H. rewrite (below_flip_ge d q p) by lia.
      destruct (Nat.odd (length l)), (below d p), (below d q), (fst (flips l (false, flip (flip d p) q))); reflexivity.
    + rewrite (below_flip_lt d q p) by lia. rewrite (below_flip_ge d p q) by lia.
      destruct (Nat.odd (length l)), (below d p), (below d q), (fst (flips l (false, flip (flip d p) q))); reflexivity.
Qed.

(** Parity of [k (k - 1) / 2]. *)
Fixpoint tri (k : nat) : bool := match k with O => false | S k' => xorb (tri k') (Nat.odd k') end.

Lemma flips_rev l d : NoDup l ->
  flips (rev l) (false, d) = (xorb (tri (length l)) (fst (flips l (false, d))), snd (flips l (false, d))).
Proof.
  intros Hl. revert d. induction Hl as [|p l Hp Hl IH]; intros d; [reflexivity|].
  cbn [rev]. rewrite flips_move by now rewrite <- in_rev. cbv zeta. rewrite rev_length.
  change (flips (p :: rev l) (false, d)) with (flips (rev l) (xorb false (below d p), flip d p)).
  change (flips (p :: l) (false, d)) with (flips l (xorb false (below d p), flip d p)).
  rewrite flips_sign, (flips_sign l). rewrite IH. cbn [fst snd length tri]. f_equal.
  destruct (Nat.odd (length l)), (tri (length l)), (below d p), (fst (flips l (false, flip d p))); reflexivity.
Qed.

(** ** Screening *)

Lemma mask_bit n idx j : forall acc,
  N.testbit (fold_left (fun m orb => N.lor m (orb_bit n orb)) idx acc) (N.of_nat j)
  = N.testbit acc (N.of_nat j) || existsb (fun p => Nat.eqb j (2 * n - 1 - p)) idx.
Proof.
  induction idx as [|p idx IH]; intros acc; cbn [fold_left existsb]; [now rewrite orb_false_r|].
  rewrite IH, N.lor_spec, testbit_orb_bit. now rewrite orb_assoc.
Qed.
Lemma mask_testbit n idx p : (forall q, In q idx -> q < 2 * n) -> p < 2 * n ->
  N.testbit (mask n idx) (N.of_nat (2 * n - 1 - p)) = mem p idx.
Proof.
  intros Hi Hp. unfold mask. rewrite mask_bit, N.bits_0. cbn [orb]. unfold mem.
  induction idx as [|q idx IH]; [reflexivity|]. cbn [existsb].
  assert (q < 2 * n) by (apply Hi; now left).
  rewrite IH by (intros; apply Hi; now right). f_equal.
  destruct (Nat.eqb_spec (2 * n - 1 - p) (2 * n - 1 - q)), (Nat.eqb_spec p q); lia || reflexivity.
Qed.
Lemma mask_high n idx k : (forall q, In q idx -> q < 2 * n) -> (N.of_nat (2 * n) <= k)%N -> N.testbit (mask n idx) k = false.
Proof.
  intros Hi Hk. rewrite <- (N2Nat.id k). unfold mask. rewrite mask_bit, N.bits_0. cbn [orb].
  induction idx as [|q idx IH]; [reflexivity|]. cbn [existsb].
  assert (q < 2 * n) by (apply Hi; now left).
  destruct (Nat.eqb_spec (N.to_nat k) (2 * n - 1 - q)); [lia|]. apply IH. intros; apply Hi; now right.
Qed.

Lemma mask_must n idx d : (forall q, In q idx -> q < 2 * n) ->
  N.eqb (N.land d (mask n idx)) (mask n idx) = forallb (occ (todet (2 * n) d)) idx.
Proof.
  intros Hi. apply eq_true_iff_eq. rewrite N.eqb_eq, forallb_forall. split.
  - intros H p Hp. pose proof (Hi p Hp) as Hlt. rewrite occ_todet. destruct (Nat.ltb_spec p (2 * n)); [|lia]. cbn [andb].
    assert (N.testbit (mask n idx) (N.of_nat (2 * n - 1 - p)) = true) as Hm.
    { rewrite mask_testbit by assumption. now apply mem_In. }
    rewrite <- H, N.land_spec in Hm. now apply andb_true_iff in Hm.
  - intros H. apply N.bits_inj. intros k. rewrite N.land_spec.
    destruct (N.testbit (mask n idx) k) eqn:E; [|apply andb_false_r]. rewrite andb_true_r.
    destruct (N.lt_ge_cases k (N.of_nat (2 * n))) as [Hk|Hk]; [|rewrite mask_high in E by assumption; discriminate].
    replace k with (N.of_nat (2 * n - 1 - (2 * n - 1 - N.to_nat k))) in * by lia.
    rewrite mask_testbit in E by (auto; lia). apply mem_In in E. apply H in E. rewrite occ_todet in E.
    destruct (Nat.ltb_spec (2 * n - 1 - N.to_nat k) (2 * n)); [|lia]. exact E.
Qed.
Lemma mask_forbid n idx d : (forall q, In q idx -> q < 2 * n) ->
  N.eqb (N.land d (mask n idx)) 0 = forallb (fun p => negb (occ (todet (2 * n) d) p)) idx.
Proof.
  intros Hi. apply eq_true_iff_eq. rewrite N.eqb_eq, forallb_forall. split.
  - intros H p Hp. pose proof (Hi p Hp) as Hlt. rewrite occ_todet. destruct (Nat.ltb_spec p (2 * n)); [|lia]. cbn [andb].
    assert (N.testbit (mask n idx) (N.of_nat (2 * n - 1 - p)) = true) as Hm.
    { rewrite mask_testbit by assumption. now apply mem_In. }
    assert (N.testbit (N.land d (mask n idx)) (N.of_nat (2 * n - 1 - p)) = false) as Hz by (rewrite H; apply N.bits_0).
    rewrite N.land_spec, Hm, andb_true_r in Hz. now rewrite Hz.
  - intros H. apply N.bits_inj. intros k. rewrite N.land_spec, N.bits_0.
    destruct (N.testbit (mask n idx) k) eqn:E; [|apply andb_false_r]. rewrite andb_true_r.
    destruct (N.lt_ge_cases k (N.of_nat (2 * n))) as [Hk|Hk]; [|rewrite mask_high in E by assumption; discriminate].
    replace k with (N.of_nat (2 * n - 1 - (2 * n - 1 - N.to_nat k))) in * by lia.
    rewrite mask_testbit in E by (auto; lia). apply mem_In in E. apply H in E. rewrite occ_todet in E.
    destruct (Nat.ltb_spec (2 * n - 1 - N.to_nat k) (2 * n)); [|lia]. cbn [andb] in E. now apply negb_true_iff in E.
Qed.

(** When a normal-ordered string does not annihilate a determinant. *)
Lemma actdet_nonzero cs qs y : NoDup cs -> NoDup qs ->
  ((exists sg e, actdet (creators cs ++ annihilators qs) y = Some (sg, e)) <->
   (forall p, In p qs -> occ y p = true) /\ (forall p, In p cs -> ~ In p qs -> occ y p = false)).
Proof.
  intros Hc Hq. rewrite actdet_app. split.
  - intros (sg & e & H). destruct (actdet (annihilators qs) y) as [[sg1 e1]|] eqn:E1; [|discriminate].
    destruct (actdet (creators cs) e1) as [[sg2 e2]|] eqn:E2; [|discriminate].
    destruct (ann_act _ _ _ _ Hq E1) as [H1 H2]. destruct (cre_act _ _ _ _ Hc E2) as [H3 H4].
    split; [exact H1|]. intros p Hp Hn. specialize (H3 p Hp). rewrite H2 in H3.
    destruct (mem p qs) eqn:M; [apply mem_In in M; contradiction|]. now rewrite andb_true_r in H3.
  - intros [H1 H2]. destruct (ann_act_some qs y Hq H1) as (sg1 & e1 & E1). rewrite E1.
    destruct (ann_act _ _ _ _ Hq E1) as [_ H3].
    destruct (cre_act_some cs e1 Hc) as (sg2 & e2 & E2).
    + intros p Hp. rewrite H3. destruct (mem p qs) eqn:M; [apply andb_false_r|].
      rewrite H2; [reflexivity|exact Hp|]. intros X. apply mem_In in X. congruence.
    + rewrite E2. eauto.
Qed.

Lemma map_fst_creators cs : map fst (creators cs) = cs.
Proof. unfold creators. rewrite map_map. apply map_id. Qed.
Lemma map_fst_annihilators cs : map fst (annihilators cs) = cs.
Proof. unfold annihilators. rewrite map_map. apply map_id. Qed.

Lemma create_idx_normal cs qs : create_idx (creators cs ++ annihilators qs) = cs.
Proof.
  unfold create_idx. rewrite filter_app, map_app. unfold creators, annihilators.
  replace (filter _ (map (fun p : nat => (p, false)) qs)) with (@nil fop) by (induction qs; auto).
  rewrite app_nil_r. induction cs as [|c cs IH]; [reflexivity|]. cbn. now rewrite IH.
Qed.
Lemma anni_idx_normal cs qs : anni_idx (creators cs ++ annihilators qs) = qs.
Proof.
  unfold anni_idx. rewrite filter_app, map_app. unfold creators, annihilators.
  replace (filter _ (map (fun p : nat => (p, true)) cs)) with (@nil fop) by (induction cs; auto).
  cbn [map app]. induction qs as [|c qs IH]; [reflexivity|]. cbn. now rewrite IH.
Qed.

(** Sign picked up by the serial kernel, which applies each block in reverse. *)
Definition rsgn (s : fstring) : bool := xorb (tri (length (anni_idx s))) (tri (length (create_idx s))).

(** Orbital indices of a string lie in the space. *)
Definition inr (n : nat) (s : fstring) : Prop := forall o, In o s -> fst o < 2 * n.

Lemma inr_normal n cs qs : inr n (creators cs ++ annihilators qs) ->
  (forall p, In p cs -> p < 2 * n) /\ (forall p, In p qs -> p < 2 * n).
Proof.
  intros H. split; intros p Hp.
  - apply (H (p, true)). apply in_app_iff. left. unfold creators. apply in_map_iff. eauto.
  - apply (H (p, false)). apply in_app_iff. right. unfold annihilators. apply in_map_iff. eauto.
Qed.

Lemma in_screen l m p : In p (screen l m) <-> In p l /\ ~ In p m.
Proof.
  unfold screen. rewrite filter_In. fold (mem p m). split; intros [H1 H2]; split; auto.
  - intros H. apply mem_In in H. now rewrite H in H2.
  - apply negb_true_iff. destruct (mem p m) eqn:E; auto. apply mem_In in E. contradiction.
Qed.

Lemma kernel_screen n must forbid l d :
  (forall p, In p must -> p < 2 * n) -> (forall p, In p forbid -> p < 2 * n) -> (forall p, In p l -> p < 2 * n) ->
  (d < 2 ^ N.of_nat (2 * n))%N ->
  ((forall p, In p must -> occ (todet (2 * n) d) p = true) /\ (forall p, In p forbid -> occ (todet (2 * n) d) p = false) ->
   kernel_det n (parity_check n) must forbid l d =
   Some (todet (2 * n) (snd (flips l (false, todet (2 * n) d))), fst (flips l (false, todet (2 * n) d)))) /\
  (~ ((forall p, In p must -> occ (todet (2 * n) d) p = true) /\ (forall p, In p forbid -> occ (todet (2 * n) d) p = false)) ->
   kernel_det n (parity_check n) must forbid l d = None).
Proof.
  intros H1 H2 H3 Hd. unfold kernel_det. rewrite mask_must, mask_forbid by assumption. split.
  - intros [A B].
    assert (forallb (occ (todet (2 * n) d)) must = true) as -> by now apply forallb_forall.
    assert (forallb (fun p => negb (occ (todet (2 * n) d) p)) forbid = true) as ->.
    { apply forallb_forall. intros p Hp. now rewrite B. }
    cbn [negb]. destruct (flip_loop_spec n l d H3 Hd 0) as [E1 E2]. unfold flip_loop.
    destruct (fold_left _ l (d, 0)) as [d' ph]. cbn [fst snd] in E1, E2. change (Nat.odd 0) with false in E2.
    rewrite <- E2. cbn [fst snd]. now rewrite todet_invol.
  - intros HN. destruct (forallb (occ (todet (2 * n) d)) must) eqn:F1; [|reflexivity]. cbn [negb].
    destruct (forallb (fun p => negb (occ (todet (2 * n) d) p)) forbid) eqn:F2; [|reflexivity].
    exfalso. apply HN. rewrite forallb_forall in F1, F2. split; auto.
    intros p Hp. now apply negb_true_iff, F2.
Qed.

(** The serial kernel on one determinant. *)
Lemma kernel_serial n s d : normal s -> inr n s -> (d < 2 ^ N.of_nat (2 * n))%N ->
  kernel_det n (parity_check n) (anni_idx s) (screen (create_idx s) (anni_idx s)) (anni_idx s ++ create_idx s) d =
  match actdet s (todet (2 * n) d) with
  | Some (sg, y) => Some (todet (2 * n) y, xorb (rsgn s) sg)
  | None => None
  end.
Proof.
  intros (cs & qs & -> & Sc & Sq) Hr Hd. apply sorted_gt_nodup in Sc, Sq.
  destruct (inr_normal _ _ _ Hr) as [Rc Rq]. unfold rsgn. rewrite create_idx_normal, anni_idx_normal.
  destruct (kernel_screen n qs (screen cs qs) (qs ++ cs) d) as [K1 K2]; auto.
  { intros p Hp. apply in_screen in Hp. now apply Rc. }
  { intros p Hp. apply in_app_iff in Hp as [Hp|Hp]; auto. }
  pose proof (actdet_nonzero cs qs (todet (2 * n) d) Sc Sq) as Hnz.
  destruct (actdet (creators cs ++ annihilators qs) (todet (2 * n) d)) as [[sg y]|] eqn:E.
  - rewrite K1.
    2:{ destruct Hnz as [[A B] _]; [eauto|]. split; auto. intros p Hp. apply in_screen in Hp. now apply B. }
    apply actdet_flips in E. rewrite map_app, map_fst_creators, map_fst_annihilators, rev_app_distr in E.
    rewrite flips_app in E. rewrite flips_rev in E by exact Sq.
    rewrite flips_sign, flips_rev in E by exact Sc. cbn [fst snd] in E.
    rewrite flips_app. destruct (flips qs (false, todet (2 * n) d)) as [sq eq] eqn:Eq. cbn [fst snd] in E.
    rewrite (flips_sign cs sq eq). cbn [fst snd].
    injection E as <- <-. do 2 f_equal.
    destruct (tri (length qs)), sq, (tri (length cs)), (fst (flips cs (false, eq))); reflexivity.
  - apply K2. intros [A B]. destruct Hnz as [_ Hnz]. destruct Hnz as (? & ? & ?); [|discriminate].
    split; auto. intros p Hp Hn. apply B. apply in_screen. auto.
Qed.

(** The threaded kernel on one determinant: the adjoint string, exactly. *)
Lemma kernel_threaded n s d : normal s -> inr n s -> (d < 2 ^ N.of_nat (2 * n))%N ->
  kernel_det n (parity_check n) (create_idx s) (screen (anni_idx s) (create_idx s)) (create_idx s ++ anni_idx s) d =
  match actdet (adjstr s) (todet (2 * n) d) with
  | Some (sg, y) => Some (todet (2 * n) y, sg)
  | None => None
  end.
Proof.
  intros (cs & qs & -> & Sc & Sq) Hr Hd. apply sorted_gt_nodup in Sc, Sq.
  destruct (inr_normal _ _ _ Hr) as [Rc Rq]. rewrite create_idx_normal, anni_idx_normal.
  destruct (kernel_screen n cs (screen qs cs) (cs ++ qs) d) as [K1 K2]; auto.
  { intros p Hp. apply in_screen in Hp. now apply Rq. }
  { intros p Hp. apply in_app_iff in Hp as [Hp|Hp]; auto. }
  assert (adjstr (creators cs ++ annihilators qs) = creators (rev qs) ++ annihilators (rev cs)) as Ha.
  { unfold adjstr, creators, annihilators. rewrite map_app, rev_app_distr, !map_map. cbn [fst snd negb].
    now rewrite <- !map_rev. }
  rewrite Ha.
  pose proof (actdet_nonzero (rev qs) (rev cs) (todet (2 * n) d) (NoDup_rev Sq) (NoDup_rev Sc)) as Hnz.
  destruct (actdet (creators (rev qs) ++ annihilators (rev cs)) (todet (2 * n) d)) as [[sg y]|] eqn:E.
  - rewrite K1.
    2:{ destruct Hnz as [[A B] _]; [eauto|]. split.
        - intros p Hp. apply A. now rewrite <- in_rev.
        - intros p Hp. apply in_screen in Hp. apply B; rewrite <- in_rev; tauto. }
    apply actdet_flips in E. rewrite map_app, map_fst_creators, map_fst_annihilators, rev_app_distr, !rev_involutive in E.
    now rewrite E.
  - apply K2. intros [A B]. destruct Hnz as [_ Hnz]. destruct Hnz as (? & ? & ?); [|discriminate].
    split.
    + intros p Hp. apply A. now rewrite in_rev.
    + intros p Hp Hn. rewrite <- in_rev in Hp, Hn. apply B. apply in_screen. auto.
Qed.
