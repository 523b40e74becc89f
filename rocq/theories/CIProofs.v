(** Lemmas about the determinant indexing model (CIModel.v). *)
From Coq Require Import List Bool Arith NArith ZArith Lia.
From Verif Require Import Base Fock FermiModel FermiProofs FermiUnique OperatorsProofs OperatorsSums OperatorsKeys CIModel.
Import ListNotations.

(** ** Specification side: the determinant of Fock.v denoted by a CI integer. *)

(** Spin orbital [p] of [m] is bit [m - 1 - p] of the integer. *)
Definition todet (m : nat) (d : N) : det :=
  detof (filter (fun p => N.testbit d (N.of_nat (m - 1 - p))) (seq 0 m)).

Lemma occ_todet m d p : occ (todet m d) p = (p <? m) && N.testbit d (N.of_nat (m - 1 - p)).
Proof.
  unfold todet. rewrite occ_detof by apply NoDup_filter, seq_NoDup.
  apply eq_true_iff_eq. rewrite mem_In, filter_In, in_seq, andb_true_iff, Nat.ltb_lt. intuition lia.
Qed.

Lemma small_ext m d e : (d < 2 ^ N.of_nat m)%N -> (e < 2 ^ N.of_nat m)%N ->
  (forall k, k < m -> N.testbit d (N.of_nat k) = N.testbit e (N.of_nat k)) -> d = e.
Proof.
  intros Hd He H. apply N.bits_inj. intros k.
  destruct (N.lt_ge_cases k (N.of_nat m)) as [Hk|Hk].
  - rewrite <- (N2Nat.id k). apply H. lia.
  - assert (forall x, (x < 2 ^ N.of_nat m)%N -> N.testbit x k = false) as Hz.
    { intros x Hx. destruct (N.eq_dec x 0) as [->|Hx0]; [apply N.bits_0|].
      apply N.bits_above_log2. apply N.log2_lt_pow2; [lia|]. eapply N.lt_le_trans; [exact Hx|].
      apply N.pow_le_mono_r; lia. }
    rewrite !Hz by assumption. reflexivity.
Qed.

Lemma small_bit m d k : (d < 2 ^ N.of_nat m)%N -> (N.of_nat m <= k)%N -> N.testbit d k = false.
Proof.
  intros Hx Hk. destruct (N.eq_dec d 0) as [->|Hx0]; [apply N.bits_0|].
  apply N.bits_above_log2. apply N.log2_lt_pow2; [lia|]. eapply N.lt_le_trans; [exact Hx|].
  apply N.pow_le_mono_r; lia.
Qed.

Lemma bits_small m d : (forall k, (N.of_nat m <= k)%N -> N.testbit d k = false) -> (d < 2 ^ N.of_nat m)%N.
Proof.
  intros H. destruct (N.eq_dec d 0) as [->|Hd]; [apply N.neq_0_lt_0, N.pow_nonzero; lia|].
  apply N.log2_lt_pow2; [lia|].
  destruct (N.lt_ge_cases (N.log2 d) (N.of_nat m)) as [Hl|Hl]; [exact Hl|].
  specialize (H _ Hl). rewrite N.bit_log2 in H by exact Hd. discriminate.
Qed.

Lemma todet_small m d : (todet m d < 2 ^ N.of_nat m)%N.
Proof.
  apply bits_small. intros k Hk. rewrite <- (N2Nat.id k).
  change (occ (todet m d) (N.to_nat k) = false). rewrite occ_todet.
  destruct (Nat.ltb_spec (N.to_nat k) m); [lia|reflexivity].
Qed.

Lemma todet_inj m d e : (d < 2 ^ N.of_nat m)%N -> (e < 2 ^ N.of_nat m)%N -> todet m d = todet m e -> d = e.
Proof.
  intros Hd He H. apply (small_ext m); auto. intros k Hk.
  assert (occ (todet m d) (m - 1 - k) = occ (todet m e) (m - 1 - k)) as HH by now rewrite H.
  rewrite !occ_todet in HH. replace (m - 1 - (m - 1 - k)) with k in HH by lia.
  destruct (Nat.ltb_spec (m - 1 - k) m); [exact HH|lia].
Qed.

Lemma todet_invol m d : (d < 2 ^ N.of_nat m)%N -> todet m (todet m d) = d.
Proof.
  intros Hd. apply (small_ext m); auto using todet_small. intros k Hk.
  change (occ (todet m (todet m d)) k = N.testbit d (N.of_nat k)). rewrite occ_todet.
  change (N.testbit (todet m d) (N.of_nat (m - 1 - k))) with (occ (todet m d) (m - 1 - k)). rewrite occ_todet.
  replace (m - 1 - (m - 1 - k)) with k by lia.
  destruct (Nat.ltb_spec k m); [|lia]. destruct (Nat.ltb_spec (m - 1 - k) m); [reflexivity|lia].
Qed.

(** ** Binary strings *)

Definition bits2N (l : list bool) : N :=
  fold_left (fun acc (b : bool) => (2 * acc + (if b then 1 else 0))%N) l 0%N.

Lemma bits2N_acc l acc :
  fold_left (fun acc (b : bool) => (2 * acc + (if b then 1 else 0))%N) l acc
  = (acc * 2 ^ N.of_nat (length l) + bits2N l)%N.
Proof.
  unfold bits2N. revert acc. induction l as [|b l IH]; intros acc.
  - cbn. lia.
  - cbn [fold_left length]. rewrite IH, (IH (2 * 0 + (if b then 1 else 0))%N).
    rewrite Nat2N.inj_succ, N.pow_succ_r'. destruct b; lia.
Qed.

Lemma bits2N_cons b l : bits2N (b :: l) = ((if b then 2 ^ N.of_nat (length l) else 0) + bits2N l)%N.
Proof.
  unfold bits2N at 1. cbn [fold_left]. rewrite bits2N_acc. destruct b; lia.
Qed.

Lemma bits2N_lt l : (bits2N l < 2 ^ N.of_nat (length l))%N.
Proof.
  induction l as [|b l IH]; [cbn; lia|]. rewrite bits2N_cons. cbn [length].
  rewrite Nat2N.inj_succ, N.pow_succ_r'. destruct b; lia.
Qed.

Lemma testbit_high m x k : (x < 2 ^ m)%N -> N.testbit (2 ^ m + x) k = if N.eqb k m then true else N.testbit x k.
Proof.
  intros Hx.
  assert (N.testbit x m = false) as Hm.
  { rewrite <- (N2Nat.id m) in *. apply (small_bit (N.to_nat m)); [exact Hx|lia]. }
  rewrite N.add_nocarry_lxor.
  - rewrite N.lxor_spec, N.pow2_bits_eqb. rewrite (N.eqb_sym m k).
    destruct (N.eqb_spec k m) as [->|]; [now rewrite Hm|now destruct (N.testbit x k)].
  - apply N.bits_inj. intros j. rewrite N.land_spec, N.pow2_bits_eqb, N.bits_0.
    destruct (N.eqb_spec m j) as [<-|]; [now rewrite Hm|reflexivity].
Qed.

Lemma bits2N_testbit l p : p < length l -> N.testbit (bits2N l) (N.of_nat (length l - 1 - p)) = nth p l false.
Proof.
  revert p. induction l as [|b l IH]; intros p Hp; [cbn in Hp; lia|].
  rewrite bits2N_cons. cbn [length] in *. destruct p as [|p].
  - cbn [nth]. replace (S (length l) - 1 - 0) with (length l) by lia. destruct b.
    + rewrite testbit_high by apply bits2N_lt. now rewrite N.eqb_refl.
    + cbn [N.add]. apply (small_bit (length l)); [apply bits2N_lt|lia].
  - cbn [nth]. replace (S (length l) - 1 - S p) with (length l - 1 - p) by lia.
    destruct b; [|cbn [N.add]; apply IH; lia].
    rewrite testbit_high by apply bits2N_lt.
    destruct (N.eqb_spec (N.of_nat (length l - 1 - p)) (N.of_nat (length l))); [lia|]. apply IH; lia.
Qed.

Lemma nth_ext_bool (l l' : list bool) : length l = length l' ->
  (forall p, p < length l -> nth p l false = nth p l' false) -> l = l'.
Proof. intros H1 H2. apply (nth_ext l l' false false); auto. Qed.

Lemma bits2N_inj l l' : length l = length l' -> bits2N l = bits2N l' -> l = l'.
Proof.
  intros Hl H. apply nth_ext_bool; [exact Hl|]. intros p Hp.
  rewrite <- !bits2N_testbit by lia. now rewrite H, Hl.
Qed.

(** The bit string of an integer. *)
Definition tobits (m : nat) (d : N) : list bool := map (occ (todet m d)) (seq 0 m).

Lemma tobits_len m d : length (tobits m d) = m.
Proof. unfold tobits. now rewrite map_length, seq_length. Qed.

Lemma nth_map_seq {A} (f : nat -> A) m p x : p < m -> nth p (map f (seq 0 m)) x = f p.
Proof.
  intros Hp. rewrite (nth_indep _ x (f 0)) by (now rewrite map_length, seq_length).
  rewrite map_nth, seq_nth by exact Hp. reflexivity.
Qed.

Lemma bits2N_tobits m d : (d < 2 ^ N.of_nat m)%N -> bits2N (tobits m d) = d.
Proof.
  intros Hd. pose proof (bits2N_lt (tobits m d)) as Hb. rewrite tobits_len in Hb.
  apply (small_ext m); auto. intros k Hk.
  pose proof (bits2N_testbit (tobits m d) (m - 1 - k)) as H. rewrite tobits_len in H.
  replace (m - 1 - (m - 1 - k)) with k in H by lia. rewrite H by lia.
  unfold tobits. rewrite nth_map_seq by lia. rewrite occ_todet.
  replace (m - 1 - (m - 1 - k)) with k by lia. destruct (Nat.ltb_spec (m - 1 - k) m); [reflexivity|lia].
Qed.

Lemma occ_bits l p : occ (todet (length l) (bits2N l)) p = nth p l false.
Proof.
  rewrite occ_todet. destruct (Nat.ltb_spec p (length l)).
  - cbn [andb]. now apply bits2N_testbit.
  - now rewrite nth_overflow by lia.
Qed.

(** ** Interleaving *)

Lemma interleave_len a b : length a = length b -> length (interleave a b) = 2 * length a.
Proof.
  revert b. induction a as [|x a IH]; intros [|y b] H; cbn in *; try lia. rewrite IH by lia. lia.
Qed.

Lemma interleave_nth a b p : length a = length b ->
  nth (2 * p) (interleave a b) false = nth p a false /\ nth (2 * p + 1) (interleave a b) false = nth p b false.
Proof.
  revert b p. induction a as [|x a IH]; intros [|y b] p H; cbn [length] in H; try lia.
  - cbn [interleave]. rewrite !nth_overflow by (cbn; lia). auto.
  - cbn [interleave]. destruct p as [|p]; [cbn; auto|].
    replace (2 * S p) with (S (S (2 * p))) by lia. replace (S (S (2 * p)) + 1) with (S (S (2 * p + 1))) by lia.
    cbn [nth]. apply IH. lia.
Qed.

(** Alpha and beta strings of a determinant. *)
Definition abits (n : nat) (x : det) : list bool := map (fun p => occ x (2 * p)) (seq 0 n).
Definition bbits (n : nat) (x : det) : list bool := map (fun p => occ x (2 * p + 1)) (seq 0 n).

Lemma abits_len n x : length (abits n x) = n.
Proof. unfold abits. now rewrite map_length, seq_length. Qed.
Lemma bbits_len n x : length (bbits n x) = n.
Proof. unfold bbits. now rewrite map_length, seq_length. Qed.

Definition toN (ab : list bool * list bool) : N := bits2N (interleave (fst ab) (snd ab)).

Lemma toN_lt n a b : length a = n -> length b = n -> (toN (a, b) < 2 ^ N.of_nat (2 * n))%N.
Proof.
  intros Ha Hb. unfold toN. cbn [fst snd]. pose proof (bits2N_lt (interleave a b)) as H.
  rewrite interleave_len in H by lia. now rewrite Ha in H.
Qed.

Lemma toN_occ n a b p : length a = n -> length b = n ->
  occ (todet (2 * n) (toN (a, b))) (2 * p) = nth p a false /\
  occ (todet (2 * n) (toN (a, b))) (2 * p + 1) = nth p b false.
Proof.
  intros Ha Hb. unfold toN. cbn [fst snd]. pose proof (interleave_nth a b p ltac:(lia)) as [H1 H2].
  pose proof (occ_bits (interleave a b)) as H. rewrite interleave_len, Ha in H by lia. now rewrite !H, H1, H2.
Qed.

Lemma toN_abits n a b : length a = n -> length b = n -> abits n (todet (2 * n) (toN (a, b))) = a.
Proof.
  intros Ha Hb. apply nth_ext_bool; [now rewrite abits_len|]. rewrite abits_len. intros p Hp.
  unfold abits. rewrite (nth_map_seq (fun p => occ _ (2 * p))) by exact Hp. now apply toN_occ.
Qed.
Lemma toN_bbits n a b : length a = n -> length b = n -> bbits n (todet (2 * n) (toN (a, b))) = b.
Proof.
  intros Ha Hb. apply nth_ext_bool; [now rewrite bbits_len|]. rewrite bbits_len. intros p Hp.
  unfold bbits. rewrite (nth_map_seq (fun p => occ _ (2 * p + 1))) by exact Hp. now apply toN_occ.
Qed.

Lemma toN_todet n d : (d < 2 ^ N.of_nat (2 * n))%N ->
  toN (abits n (todet (2 * n) d), bbits n (todet (2 * n) d)) = d.
Proof.
  intros Hd.
  pose proof (abits_len n (todet (2 * n) d)) as La. pose proof (bbits_len n (todet (2 * n) d)) as Lb.
  apply (todet_inj (2 * n)); auto. { now apply toN_lt. }
  apply det_ext. intros p.
  destruct (Nat.lt_ge_cases p (2 * n)) as [Hp|Hp].
  - destruct (Nat.Even_or_Odd p) as [[q Hq]|[q Hq]]; rewrite Hq.
    + rewrite (proj1 (toN_occ n _ _ q La Lb)). unfold abits.
      rewrite (nth_map_seq (fun p => occ _ (2 * p))) by lia. reflexivity.
    + rewrite (proj2 (toN_occ n _ _ q La Lb)). unfold bbits.
      rewrite (nth_map_seq (fun p => occ _ (2 * p + 1))) by lia. reflexivity.
  - rewrite !occ_todet. destruct (Nat.ltb_spec p (2 * n)); [lia|reflexivity].
Qed.

Lemma ones_app a b : (ones (a ++ b) = ones a + ones b)%Z.
Proof. unfold ones. rewrite filter_app, app_length. lia. Qed.
Lemma ones_cons x a : (ones (x :: a) = (if x then 1 else 0) + ones a)%Z.
Proof. unfold ones. destruct x; cbn [filter length]; lia. Qed.
Lemma ones_nonneg a : (0 <= ones a)%Z.
Proof. unfold ones. lia. Qed.

Lemma ones_abits n x : ones (abits n x) = Z.of_nat (nalpha n x).
Proof.
  unfold abits. induction n as [|n IH]; [reflexivity|].
  rewrite seq_S, map_app, ones_app, IH. cbn [map Nat.add]. rewrite ones_cons. cbn [nalpha].
  destruct (occ x (2 * n)); cbn; lia.
Qed.
Lemma ones_bbits n x : ones (bbits n x) = Z.of_nat (nbeta n x).
Proof.
  unfold bbits. induction n as [|n IH]; [reflexivity|].
  rewrite seq_S, map_app, ones_app, IH. cbn [map Nat.add]. rewrite ones_cons. cbn [nbeta].
  destruct (occ x (2 * n + 1)); cbn; lia.
Qed.

(** ** Spin strings *)

Lemma NoDup_map_in {A B} (f : A -> B) l :
  (forall a b, In a l -> In b l -> f a = f b -> a = b) -> NoDup l -> NoDup (map f l).
Proof.
  intros Hf Hl. induction Hl as [|a l Ha Hl IH]; [constructor|]. cbn. constructor.
  - intros H. apply in_map_iff in H as (b & E & Hb). apply Ha.
    rewrite <- (Hf b a); auto; [now right|now left].
  - apply IH. intros x y Hx Hy. apply Hf; now right.
Qed.


Fixpoint strs (n k : nat) : list (list bool) :=
  match n, k with
  | n, O => [repeat false n]
  | O, S _ => []
  | S n', S k' => map (cons true) (strs n' k') ++ map (cons false) (strs n' k)
  end.

Lemma combs_map {A B} (f : A -> B) l k : combs (map f l) k = map (map f) (combs l k).
Proof.
  revert k. induction l as [|x l IH]; intros [|k]; cbn; try reflexivity.
  rewrite map_app, !IH, !map_map. reflexivity.
Qed.

Lemma upd_S_fold c b s :
  fold_left (fun s idx => upd idx true s) (map S c) (b :: s) = b :: fold_left (fun s idx => upd idx true s) c s.
Proof. revert s. induction c as [|i c IH]; intros s; cbn; auto. Qed.

Lemma spin_string_S n c : spin_string (S n) (map S c) = false :: spin_string n c.
Proof. unfold spin_string. cbn [repeat]. apply upd_S_fold. Qed.
Lemma spin_string_0 n c : spin_string (S n) (0 :: map S c) = true :: spin_string n c.
Proof. unfold spin_string. cbn [repeat fold_left upd]. apply upd_S_fold. Qed.

Lemma spin_strs n k : map (spin_string n) (combs (seq 0 n) k) = strs n k.
Proof.
  revert k. induction n as [|n IH]; intros [|k]; try reflexivity.
  cbn [strs seq combs]. rewrite <- seq_shift, !combs_map.
  rewrite map_app, !map_map. rewrite <- !IH, !map_map. f_equal; apply map_ext; intros c.
  - apply spin_string_0.
  - apply spin_string_S.
Qed.

Lemma ones_repeat_false n : ones (repeat false n) = 0%Z.
Proof. induction n; cbn [repeat]; [reflexivity|]. rewrite ones_cons. lia. Qed.
Lemma ones_repeat_true n : ones (repeat true n) = Z.of_nat n.
Proof. induction n; cbn [repeat]; [reflexivity|]. rewrite ones_cons. lia. Qed.

Lemma ones_zero l : ones l = 0%Z -> l = repeat false (length l).
Proof.
  induction l as [|b l IH]; [reflexivity|]. rewrite ones_cons. pose proof (ones_nonneg l).
  destruct b; intros H0; [lia|]. cbn. f_equal. apply IH. lia.
Qed.
Lemma ones_le l : (ones l <= Z.of_nat (length l))%Z.
Proof. induction l as [|b l IH]; [cbn; lia|]. rewrite ones_cons. cbn [length]. destruct b; lia. Qed.
Lemma ones_full l : ones l = Z.of_nat (length l) -> l = repeat true (length l).
Proof.
  induction l as [|b l IH]; [reflexivity|]. rewrite ones_cons. pose proof (ones_le l).
  cbn [length repeat]. destruct b; intros H0; [|lia]. f_equal. apply IH. lia.
Qed.

Lemma in_strs n k s : In s (strs n k) <-> length s = n /\ ones s = Z.of_nat k.
Proof.
  revert k s. induction n as [|n IH]; intros k s.
  - destruct k; cbn; split.
    + intros [<-|[]]. auto.
    + intros [H _]. destruct s; [auto|discriminate].
    + tauto.
    + intros [H1 H2]. destruct s; [|discriminate]. unfold ones in H2. cbn in H2. lia.
  - destruct k as [|k].
    + cbn [strs]. split.
      * intros [<-|[]]. rewrite repeat_length, ones_repeat_false. auto.
      * intros [H1 H2]. left. rewrite <- H1. symmetry. now apply ones_zero.
    + cbn [strs]. rewrite in_app_iff, !in_map_iff. split.
      * intros [(t & <- & Ht)|(t & <- & Ht)]; apply IH in Ht as [H1 H2]; rewrite ones_cons; cbn [length]; split; lia.
      * intros [H1 H2]. destruct s as [|b t]; [discriminate|]. rewrite ones_cons in H2. cbn in H1.
        destruct b; [left|right]; exists t; (split; [reflexivity|]); apply IH; split; lia.
Qed.

Lemma NoDup_strs n k : NoDup (strs n k).
Proof.
  revert k. induction n as [|n IH]; intros [|k]; cbn [strs].
  - repeat constructor; auto.
  - constructor.
  - repeat constructor; auto.
  - apply NoDup_app_disj.
    + apply NoDup_map_inj; auto. intros x y H. now injection H.
    + apply NoDup_map_inj; auto. intros x y H. now injection H.
    + intros s H1 H2. apply in_map_iff in H1 as (? & <- & _). apply in_map_iff in H2 as (? & H & _). discriminate.
Qed.

Lemma in_spin_strings n k s : In s (spin_strings n k) <-> length s = n /\ ones s = k.
Proof.
  unfold spin_strings. destruct (Z.ltb_spec k 0) as [H|H].
  - cbn. pose proof (ones_nonneg s). split; [tauto|]. intros [_ H1]. lia.
  - rewrite spin_strs, in_strs, Z2Nat.id by lia. reflexivity.
Qed.
Lemma NoDup_spin_strings n k : NoDup (spin_strings n k).
Proof.
  unfold spin_strings. destruct (Z.ltb k 0); [constructor|]. rewrite spin_strs. apply NoDup_strs.
Qed.

(** ** The loops *)

Lemma in_prod2 {A B} (l : list A) (m : list B) a b : In (a, b) (prod2 l m) <-> In a l /\ In b m.
Proof.
  unfold prod2. rewrite in_flat_map. split.
  - intros (x & H1 & H2). apply in_map_iff in H2 as (y & H & H2). injection H as -> ->. auto.
  - intros [H1 H2]. exists a. split; auto. apply in_map_iff. exists b. auto.
Qed.

Lemma NoDup_prod2 {A B} (l : list A) (m : list B) : NoDup l -> NoDup m -> NoDup (prod2 l m).
Proof.
  intros Hl Hm. unfold prod2. induction Hl as [|a l Ha Hl IH]; [constructor|]. cbn [flat_map].
  apply NoDup_app_disj.
  - apply NoDup_map_inj; auto. intros x y H. now injection H.
  - exact IH.
  - intros [x y] H1 H2. apply in_map_iff in H1 as (? & H & _). injection H as -> ->.
    fold (prod2 l m) in H2. apply in_prod2 in H2. tauto.
Qed.

Definition wf_ab (ab : list bool * list bool) : Prop := length (fst ab) = length (snd ab) /\ fst ab <> [].

Lemma int2_ok ab : wf_ab ab -> int2 (interleave (fst ab) (snd ab)) = Ok (toN ab).
Proof.
  destruct ab as [[|x a] [|y b]]; unfold wf_ab; cbn [fst snd length]; intros [H1 H2]; try lia; try congruence.
  reflexivity.
Qed.

Lemma ci_loop_ok push l st : Forall wf_ab l ->
  ci_loop push l (Ok st) = Ok (fold_left push (map toN l) st).
Proof.
  intros H. revert st. induction H as [|ab l Hab Hl IH]; intros st; [reflexivity|].
  unfold ci_loop. cbn [fold_left map bind]. rewrite int2_ok by exact Hab. cbn [bind].
  apply IH.
Qed.

(** The relation between the two maps. *)
Definition ci_inv (st : ci_state) : Prop :=
  let '(idx, ci) := st in
  idx = length (idx2det ci) /\ NoDup (idx2det ci) /\
  forall d i, lookup d (det2idx ci) = Some i <-> nth_error (idx2det ci) i = Some d.

Lemma lookup_insert d i m e :
  lookup e (insert d i m) = if N.eqb d e then Some i else lookup e m.
Proof.
  induction m as [|[k j] m IH]; cbn [insert lookup]; [reflexivity|].
  destruct (N.eqb_spec k d) as [->|Hk]; cbn [lookup].
  - destruct (N.eqb d e); reflexivity.
  - rewrite IH. destruct (N.eqb_spec k e) as [->|]; [|reflexivity].
    destruct (N.eqb_spec d e); [congruence|reflexivity].
Qed.

Lemma ci_push_inv st d : ci_inv st -> ~ In d (idx2det (snd st)) -> ci_inv (ci_push st d).
Proof.
  destruct st as [idx ci]. cbn [ci_inv snd fst ci_push idx2det det2idx]. intros (Hi & Hnd & Hl) Hn.
  repeat split.
  - rewrite app_length. cbn. lia.
  - apply NoDup_app_disj; auto; [repeat constructor; auto|].
    intros x H1 [<-|[]]. now apply Hn.
  - rewrite lookup_insert. destruct (N.eqb_spec d d0) as [->|Hd].
    + intros H. injection H as <-. subst idx. rewrite nth_error_app2 by lia. now rewrite Nat.sub_diag.
    + intros H. apply Hl in H. rewrite nth_error_app1; [exact H|].
      apply nth_error_Some. congruence.
  - intros H. rewrite lookup_insert. destruct (Nat.lt_ge_cases i (length (idx2det ci))) as [Hlt|Hge].
    + rewrite nth_error_app1 in H by exact Hlt. destruct (N.eqb_spec d d0) as [->|Hd].
      * exfalso. apply Hn. eapply nth_error_In; eauto.
      * now apply Hl.
    + rewrite nth_error_app2 in H by exact Hge. destruct (i - length (idx2det ci)) as [|k] eqn:E; cbn in H.
      * injection H as ->. rewrite N.eqb_refl. f_equal. lia.
      * destruct k; discriminate.
Qed.

Lemma fold_ci_push l st : ci_inv st -> NoDup l -> (forall d, In d l -> ~ In d (idx2det (snd st))) ->
  ci_inv (fold_left ci_push l st) /\ idx2det (snd (fold_left ci_push l st)) = idx2det (snd st) ++ l.
Proof.
  intros Hst Hl. revert st Hst. induction Hl as [|d l Hd Hl IH]; intros st Hst Hn.
  - cbn. now rewrite app_nil_r.
  - cbn [fold_left]. destruct (IH (ci_push st d)) as [H1 H2].
    + apply ci_push_inv; auto. apply Hn. now left.
    + intros e He. cbn [ci_push snd idx2det]. rewrite in_app_iff. intros [H|[->|[]]]; [|tauto].
      revert H. apply Hn. now right.
    + split; [exact H1|]. rewrite H2. cbn [ci_push snd idx2det]. now rewrite <- app_assoc.
Qed.

Lemma fold_ci_push_new l st : ci_inv st ->
  ci_inv (fold_left ci_push_new l st) /\
  forall d, In d (idx2det (snd (fold_left ci_push_new l st))) <-> In d (idx2det (snd st)) \/ In d l.
Proof.
  revert st. induction l as [|d l IH]; intros st Hst; [cbn; split; [auto|intros; tauto]|].
  cbn [fold_left]. unfold ci_push_new at 2 4.
  destruct (existsb (N.eqb d) (idx2det (snd st))) eqn:E.
  - destruct (IH st Hst) as [H1 H2]. split; [exact H1|]. intros e. rewrite H2. cbn.
    apply existsb_exists in E as (x & Hx & E). apply N.eqb_eq in E. subst x. intuition (subst; auto).
  - assert (~ In d (idx2det (snd st))) as Hn.
    { intros H. assert (existsb (N.eqb d) (idx2det (snd st)) = true) as E2; [|congruence].
      apply existsb_exists. exists d. split; auto. apply N.eqb_refl. }
    destruct (IH (ci_push st d)) as [H1 H2]; [now apply ci_push_inv|]. split; [exact H1|].
    intros e. rewrite H2. cbn [ci_push snd idx2det]. rewrite in_app_iff. cbn. intuition.
Qed.

Lemma ci_inv_empty : ci_inv ci_empty.
Proof.
  cbn. repeat split; [constructor|discriminate|]. intros H. destruct i; discriminate.
Qed.

(** Membership of an integer in the image of a list of string pairs. *)
Lemma in_map_toN n L d : (forall a b, In (a, b) L -> length a = n /\ length b = n) ->
  (In d (map toN L) <-> (d < 2 ^ N.of_nat (2 * n))%N /\
     In (abits n (todet (2 * n) d), bbits n (todet (2 * n) d)) L).
Proof.
  intros HL. rewrite in_map_iff. split.
  - intros ([a b] & <- & H). destruct (HL _ _ H) as [Ha Hb]. split; [now apply toN_lt|].
    now rewrite toN_abits, toN_bbits.
  - intros [Hd H]. eexists. split; [|exact H]. now apply toN_todet.
Qed.

Lemma NoDup_map_toN n L : (forall a b, In (a, b) L -> length a = n /\ length b = n) -> NoDup L -> NoDup (map toN L).
Proof.
  intros HL H. apply NoDup_map_in; auto. intros [a b] [c d] H1 H2 E.
  destruct (HL _ _ H1) as [Ha Hb], (HL _ _ H2) as [Hc Hd].
  pose proof (toN_abits n a b Ha Hb) as A1. pose proof (toN_bbits n a b Ha Hb) as B1.
  rewrite E in A1, B1. rewrite toN_abits in A1 by assumption. rewrite toN_bbits in B1 by assumption.
  congruence.
Qed.

Lemma get_indexing_pairs n na nb a b : In (a, b) (prod2 (spin_strings n na) (spin_strings n nb)) <->
  (length a = n /\ length b = n) /\ ones a = na /\ ones b = nb.
Proof. rewrite in_prod2, !in_spin_strings. tauto. Qed.

Lemma get_indexing_spec n na nb : (0 < n)%nat ->
  exists ci, get_indexing n na nb = Ok ci /\ ci_inv (length (idx2det ci), ci) /\
  idx2det ci = map toN (prod2 (spin_strings n na) (spin_strings n nb)).
Proof.
  intros Hn. unfold get_indexing. rewrite ci_loop_ok.
  - destruct (fold_ci_push (map toN (prod2 (spin_strings n na) (spin_strings n nb))) ci_empty) as [H1 H2].
    + apply ci_inv_empty.
    + apply (NoDup_map_toN n).
      * intros a b H. now apply get_indexing_pairs in H.
      * apply NoDup_prod2; apply NoDup_spin_strings.
    + intros d _ [].
    + cbn [bind]. destruct (fold_left ci_push _ ci_empty) as [idx ci]. cbn [snd] in *.
      exists ci. split; [reflexivity|]. cbn in H2. split; [|exact H2].
      cbn [ci_inv] in *. tauto.
  - apply Forall_forall. intros [a b] H. apply get_indexing_pairs in H as [[H1 H2] _].
    split; cbn [fst snd]; [lia|]. intros ->. cbn in H1. lia.
Qed.
