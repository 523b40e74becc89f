(** Lemmas about the extended determinant space (CIModel.v). *)
From Coq Require Import List Bool Arith NArith ZArith Lia.
From Verif Require Import Base Fock OperatorsKeys OperatorsSums CIModel CIProofs.
Import ListNotations.

Lemma in_combs0 {A} (l : list A) c : In c (combs l 0) <-> c = [].
Proof. destruct l; cbn; intuition. Qed.
Lemma in_combs1 {A} (l : list A) c : In c (combs l 1) <-> exists x, In x l /\ c = [x].
Proof.
  induction l as [|y l IH]; cbn [combs].
  - cbn. split; [tauto|]. intros (? & [] & _).
  - rewrite in_app_iff, in_map_iff, IH. split.
    + intros [(t & <- & Ht)|(x & Hx & ->)].
      * apply in_combs0 in Ht. subst t. exists y. cbn. auto.
      * exists x. cbn. auto.
    + intros (x & [->|Hx] & ->).
      * left. exists []. split; auto. apply in_combs0. reflexivity.
      * right. eauto.
Qed.
Lemma in_combs2 a n c : In c (combs (seq a n) 2) <-> exists i j, a <= i /\ i < j /\ j < a + n /\ c = [i; j].
Proof.
  revert a. induction n as [|n IH]; intros a.
  - cbn. split; [tauto|]. intros (i & j & H). lia.
  - cbn [seq combs]. rewrite in_app_iff, in_map_iff, IH. split.
    + intros [(t & <- & Ht)|(i & j & H1 & H2 & H3 & ->)].
      * apply in_combs1 in Ht as (x & Hx & ->). apply in_seq in Hx. exists a, x. repeat split; lia.
      * exists i, j. repeat split; lia.
    + intros (i & j & H1 & H2 & H3 & ->). destruct (Nat.eq_dec a i) as [->|Hn].
      * left. exists [j]. split; auto. apply in_combs1. exists j. split; auto. apply in_seq. lia.
      * right. exists i, j. repeat split; lia.
Qed.

Lemma spin_in n k s : length s = n -> ones s = Z.of_nat k ->
  exists c, In c (combs (seq 0 n) k) /\ spin_string n c = s.
Proof.
  intros H1 H2. assert (In s (strs n k)) as H by now apply in_strs.
  rewrite <- spin_strs in H. apply in_map_iff in H as (c & E & Hc). eauto.
Qed.
Lemma spin_out n k c : In c (combs (seq 0 n) k) -> length (spin_string n c) = n /\ ones (spin_string n c) = Z.of_nat k.
Proof. intros H. apply in_strs. rewrite <- spin_strs. now apply in_map. Qed.

(** Virtual patterns. *)
Lemma in_single_pat n s : In s (map (fun j => flag n j true (repeat false n)) (seq 0 (n + 1))) <->
  length s = n /\ (ones s <= 1)%Z.
Proof.
  rewrite in_map_iff. split.
  - intros (j & <- & Hj). apply in_seq in Hj. unfold flag. destruct (Nat.eqb_spec j n) as [->|Hn].
    + rewrite repeat_length, ones_repeat_false. lia.
    + destruct (spin_out n 1 [j]) as [H1 H2].
      * apply in_combs1. exists j. split; auto. apply in_seq. lia.
      * change (spin_string n [j]) with (upd j true (repeat false n)) in *. lia.
  - intros [H1 H2]. pose proof (ones_nonneg s).
    assert (ones s = 0 \/ ones s = 1)%Z as [E|E] by lia.
    + exists n. unfold flag. rewrite Nat.eqb_refl. split; [|apply in_seq; lia].
      rewrite <- H1. symmetry. now apply ones_zero.
    + destruct (spin_in n 1 s H1 E) as (c & Hc & <-). apply in_combs1 in Hc as (j & Hj & ->). apply in_seq in Hj.
      exists j. unfold flag. destruct (Nat.eqb_spec j n); [lia|]. split; [reflexivity|]. apply in_seq; lia.
Qed.

Lemma in_dpairs n i j : In (i, j) (dpairs n) <-> (i < j /\ j < n) \/ (i < n /\ j = n) \/ (i = n /\ j = n).
Proof.
  unfold dpairs. rewrite in_flat_map. split.
  - intros (x & Hx & H). apply in_map_iff in H as (y & E & Hy). injection E as -> ->.
    apply in_seq in Hx, Hy. lia.
  - intros H. exists i. split; [apply in_seq; lia|]. apply in_map_iff. exists j. split; auto. apply in_seq. lia.
Qed.

Lemma in_double_pat n s :
  In s (map (fun jj => flag n (snd jj) true (flag n (fst jj) true (repeat false n))) (dpairs n)) <->
  length s = n /\ (ones s <= 2)%Z.
Proof.
  rewrite in_map_iff. split.
  - intros ([i j] & <- & H). apply in_dpairs in H. cbn [fst snd]. unfold flag.
    destruct H as [[H1 H2]|[[H1 ->]|[-> ->]]].
    + destruct (Nat.eqb_spec i n); [lia|]. destruct (Nat.eqb_spec j n); [lia|].
      destruct (spin_out n 2 [i; j]) as [E1 E2].
      * apply in_combs2. exists i, j. repeat split; lia.
      * change (spin_string n [i; j]) with (upd j true (upd i true (repeat false n))) in *. lia.
    + destruct (Nat.eqb_spec i n); [lia|]. rewrite Nat.eqb_refl.
      destruct (spin_out n 1 [i]) as [E1 E2].
      * apply in_combs1. exists i. split; auto. apply in_seq. lia.
      * change (spin_string n [i]) with (upd i true (repeat false n)) in *. lia.
    + rewrite Nat.eqb_refl, repeat_length, ones_repeat_false. lia.
  - intros [H1 H2]. pose proof (ones_nonneg s).
    assert (ones s = 0 \/ ones s = 1 \/ ones s = 2)%Z as [E|[E|E]] by lia.
    + exists (n, n). unfold flag. cbn [fst snd]. rewrite Nat.eqb_refl. split; [|apply in_dpairs; lia].
      rewrite <- H1. symmetry. now apply ones_zero.
    + destruct (spin_in n 1 s H1 E) as (c & Hc & <-). apply in_combs1 in Hc as (j & Hj & ->). apply in_seq in Hj.
      exists (j, n). unfold flag. cbn [fst snd]. rewrite Nat.eqb_refl.
      destruct (Nat.eqb_spec j n); [lia|]. split; [reflexivity|]. apply in_dpairs; lia.
    + destruct (spin_in n 2 s H1 E) as (c & Hc & <-). apply in_combs2 in Hc as (i & j & G1 & G2 & G3 & ->).
      exists (i, j). unfold flag. cbn [fst snd].
      destruct (Nat.eqb_spec i n); [lia|]. destruct (Nat.eqb_spec j n); [lia|].
      split; [reflexivity|]. apply in_dpairs; lia.
Qed.

(** Inactive patterns are the negated virtual ones. *)
Lemma upd_map_negb i b s : upd i (negb b) (map negb s) = map negb (upd i b s).
Proof. revert i. induction s as [|x s IH]; intros [|i]; cbn; auto. now rewrite IH. Qed.
Lemma map_negb_repeat b n : repeat (negb b) n = map negb (repeat b n).
Proof. induction n; cbn; congruence. Qed.
Lemma flag_negb n i s : flag n i false (map negb s) = map negb (flag n i true s).
Proof. unfold flag. destruct (Nat.eqb i n); [reflexivity|]. apply (upd_map_negb i true). Qed.
Lemma map_negb_invol s : map negb (map negb s) = s.
Proof. rewrite map_map. erewrite map_ext; [apply map_id|]. apply negb_involutive. Qed.
Lemma ones_negb s : (ones (map negb s) = Z.of_nat (length s) - ones s)%Z.
Proof.
  induction s as [|b s IH]; [reflexivity|]. cbn [map length]. rewrite !ones_cons, IH. destruct b; cbn [negb]; lia.
Qed.

Lemma in_map_negb s L : In s (map (map negb) L) <-> In (map negb s) L.
Proof.
  rewrite in_map_iff. split.
  - intros (t & <- & H). now rewrite map_negb_invol.
  - intros H. eexists. split; [|exact H]. apply map_negb_invol.
Qed.

Lemma in_single_hole n s : In s (map (fun i => flag n i false (repeat true n)) (seq 0 (n + 1))) <->
  length s = n /\ (Z.of_nat n - 1 <= ones s)%Z.
Proof.
  rewrite (map_ext _ (fun i => map negb (flag n i true (repeat false n)))).
  2:{ intros i. change true with (negb false) at 1. rewrite map_negb_repeat. apply flag_negb. }
  rewrite <- map_map, in_map_negb, in_single_pat, map_length, ones_negb. intuition lia.
Qed.
Lemma in_double_hole n s :
  In s (map (fun ii => flag n (snd ii) false (flag n (fst ii) false (repeat true n))) (dpairs n)) <->
  length s = n /\ (Z.of_nat n - 2 <= ones s)%Z.
Proof.
  rewrite (map_ext _ (fun ii => map negb (flag n (snd ii) true (flag n (fst ii) true (repeat false n))))).
  2:{ intros i. change true with (negb false) at 1. rewrite map_negb_repeat. now rewrite !flag_negb. }
  rewrite <- map_map, in_map_negb, in_double_pat, map_length, ones_negb. intuition lia.
Qed.

Lemma in_singles ni nv i v : In (i, v) (singles ni nv) <->
  length i = ni /\ length v = nv /\ (Z.of_nat ni - 1 <= ones i)%Z /\ (ones v <= 1)%Z.
Proof. unfold singles. rewrite in_prod2, in_single_hole, in_single_pat. tauto. Qed.
Lemma in_doubles ni nv i v : In (i, v) (doubles ni nv) <->
  length i = ni /\ length v = nv /\ (Z.of_nat ni - 2 <= ones i)%Z /\ (ones v <= 2)%Z.
Proof. unfold doubles. rewrite in_prod2, in_double_hole, in_double_pat. tauto. Qed.

(** A full string split into its three parts. *)
Definition part1 (ni : nat) (s : list bool) := firstn ni s.
Definition part3 (ni nact : nat) (s : list bool) := skipn (ni + nact) s.
Definition holes (ni : nat) (s : list bool) : Z := (Z.of_nat ni - ones (part1 ni s))%Z.
Definition parts (ni nact : nat) (s : list bool) : Z := ones (part3 ni nact s).

Lemma split3 ni nact nv (s : list bool) : length s = ni + nact + nv ->
  s = part1 ni s ++ firstn nact (skipn ni s) ++ part3 ni nact s /\
  length (part1 ni s) = ni /\ length (firstn nact (skipn ni s)) = nact /\ length (part3 ni nact s) = nv.
Proof.
  intros H. unfold part1, part3.
  assert (forall a b (l : list bool), skipn (a + b) l = skipn b (skipn a l)) as Hsk.
  { intros a. induction a as [|a IH]; intros b l; [reflexivity|]. destruct l; [cbn; now rewrite !skipn_nil|apply IH]. }
  rewrite Hsk. rewrite firstn_skipn, firstn_skipn. repeat split.
  - rewrite firstn_length. lia.
  - rewrite firstn_length, skipn_length. lia.
  - rewrite !skipn_length. lia.
Qed.

Lemma parts_app ni nact i a v : length i = ni -> length a = nact ->
  part1 ni (i ++ a ++ v) = i /\ part3 ni nact (i ++ a ++ v) = v.
Proof.
  intros Hi Ha. unfold part1, part3. subst. split.
  - rewrite firstn_app, Nat.sub_diag, firstn_all, firstn_O. apply app_nil_r.
  - rewrite app_assoc, skipn_app, app_length, Nat.sub_diag, skipn_O.
    rewrite skipn_all2 by (rewrite app_length; lia). reflexivity.
Qed.

Lemma in_full ni nact nv N0 i v s : length i = ni -> length v = nv ->
  (In s (full_strings ni nact nv N0 (i, v)) <->
   length s = ni + nact + nv /\ (ones s = N0 + Z.of_nat ni)%Z /\ part1 ni s = i /\ part3 ni nact s = v).
Proof.
  intros Hi Hv. unfold full_strings. rewrite in_map_iff. cbn [fst snd]. unfold act_elec. cbn [fst snd]. split.
  - intros (a & <- & H). apply in_spin_strings in H as [H1 H2].
    rewrite !app_length, !ones_app. destruct (parts_app ni nact i a v Hi H1) as [E1 E2]. repeat split; auto; lia.
  - intros (H1 & H2 & <- & <-). destruct (split3 ni nact nv s H1) as (E & L1 & L2 & L3).
    exists (firstn nact (skipn ni s)). split; [now symmetry|]. apply in_spin_strings. split; [exact L2|].
    rewrite E in H2 at 1. rewrite !ones_app in H2. lia.
Qed.

Lemma in_ref ni nact nv N0 s :
  (In s (ref_strings ni nact nv N0) <->
   length s = ni + nact + nv /\ (ones s = N0 + Z.of_nat ni)%Z /\ holes ni s = 0%Z /\ parts ni nact s = 0%Z).
Proof.
  assert (ref_strings ni nact nv N0 = full_strings ni nact nv N0 (repeat true ni, repeat false nv)) as ->.
  { unfold ref_strings, full_strings, act_elec. cbn [fst snd]. rewrite ones_repeat_true, ones_repeat_false.
    do 2 f_equal. lia. }
  rewrite in_full by apply repeat_length. unfold holes, parts. split.
  - intros (H1 & H2 & E1 & E2). rewrite E1, E2, ones_repeat_true, ones_repeat_false. repeat split; lia.
  - intros (H1 & H2 & E1 & E2). destruct (split3 ni nact nv s H1) as (E & L1 & L2 & L3). repeat split; auto.
    + rewrite <- L1 at 2. apply ones_full. lia.
    + rewrite <- L3. now apply ones_zero.
Qed.

Definition sok ni nact nv N0 (s : list bool) : Prop :=
  length s = ni + nact + nv /\ (ones s = N0 + Z.of_nat ni)%Z.

Lemma in_full_any (L : list (list bool * list bool)) k ni nact nv N0 s :
  (forall i v, In (i, v) L <-> length i = ni /\ length v = nv /\ (Z.of_nat ni - k <= ones i)%Z /\ (ones v <= k)%Z) ->
  ((exists iv, In iv L /\ In s (full_strings ni nact nv N0 iv)) <->
   sok ni nact nv N0 s /\ (holes ni s <= k)%Z /\ (parts ni nact s <= k)%Z).
Proof.
  intros HL. unfold sok, holes, parts. split.
  - intros ([i v] & H1 & H2). apply HL in H1 as (L1 & L2 & B1 & B2). apply in_full in H2; auto.
    destruct H2 as (A & B & <- & <-). repeat split; auto. lia.
  - intros ((A & B) & C & D). destruct (split3 ni nact nv s A) as (E & L1 & L2 & L3).
    exists (part1 ni s, part3 ni nact s). split.
    + apply HL. repeat split; auto; lia.
    + apply in_full; auto.
Qed.

Lemma in_ext_pairs ni nact nv na nb o2 a b :
  In (a, b) (ext_pairs ni nact nv na nb o2) <->
  sok ni nact nv na a /\ sok ni nact nv nb b /\
  let m := if o2 then 2%Z else 1%Z in
  ((holes ni a <= m /\ parts ni nact a <= m /\ holes ni b = 0 /\ parts ni nact b = 0)%Z \/
   (holes ni b <= m /\ parts ni nact b <= m /\ holes ni a = 0 /\ parts ni nact a = 0)%Z \/
   (o2 = true /\ (holes ni a <= 1 /\ parts ni nact a <= 1 /\ holes ni b <= 1 /\ parts ni nact b <= 1)%Z)).
Proof.
  set (sd := singles ni nv ++ (if o2 then doubles ni nv else [])).
  assert (forall i v, In (i, v) sd <-> length i = ni /\ length v = nv /\
    (Z.of_nat ni - (if o2 then 2 else 1) <= ones i)%Z /\ (ones v <= (if o2 then 2 else 1))%Z) as Hsd.
  { intros i v. unfold sd. rewrite in_app_iff, in_singles. destruct o2.
    - rewrite in_doubles. intuition lia.
    - cbn. tauto. }
  assert (In (a, b) (flat_map (fun iv => prod2 (full_strings ni nact nv na iv) (ref_strings ni nact nv nb)) sd) <->
     (exists iv, In iv sd /\ In a (full_strings ni nact nv na iv)) /\ In b (ref_strings ni nact nv nb)) as E1.
  { rewrite in_flat_map. split.
    - intros (iv & H1 & H2). apply in_prod2 in H2 as [H2 H3]. eauto.
    - intros [(iv & H1 & H2) H3]. exists iv. rewrite in_prod2. auto. }
  assert (In (a, b) (flat_map (fun iv => prod2 (ref_strings ni nact nv na) (full_strings ni nact nv nb iv)) sd) <->
     (exists iv, In iv sd /\ In b (full_strings ni nact nv nb iv)) /\ In a (ref_strings ni nact nv na)) as E2.
  { rewrite in_flat_map. split.
    - intros (iv & H1 & H2). apply in_prod2 in H2 as [H2 H3]. eauto.
    - intros [(iv & H1 & H2) H3]. exists iv. rewrite in_prod2. auto. }
  assert (In (a, b) (flat_map (fun iva => flat_map (fun ivb =>
          prod2 (full_strings ni nact nv na iva) (full_strings ni nact nv nb ivb)) (singles ni nv)) (singles ni nv)) <->
     (exists iv, In iv (singles ni nv) /\ In a (full_strings ni nact nv na iv)) /\
     (exists iv, In iv (singles ni nv) /\ In b (full_strings ni nact nv nb iv))) as E3.
  { rewrite in_flat_map. split.
    - intros (iv & H1 & H2). apply in_flat_map in H2 as (iv' & H2 & H3). apply in_prod2 in H3 as [H3 H4]. eauto 6.
    - intros [(iv & H1 & H2) (iv' & H3 & H4)]. exists iv. split; auto. apply in_flat_map. exists iv'.
      rewrite in_prod2. auto. }
  rewrite (in_full_any _ _ ni nact nv na a Hsd), in_ref in E1.
  rewrite (in_full_any _ _ ni nact nv nb b Hsd), in_ref in E2.
  rewrite (in_full_any _ _ ni nact nv na a (in_singles ni nv)), (in_full_any _ _ ni nact nv nb b (in_singles ni nv)) in E3.
  unfold ext_pairs. fold sd. rewrite !in_app_iff, E1, E2, in_prod2, !in_ref. unfold sok.
  destruct o2; [rewrite E3; unfold sok|cbn [In]]; cbv zeta; intuition lia.
Qed.

Lemma get_indexing_extended_spec ni nact nv na nb order : (order <= 2)%Z -> (0 < ni + nact + nv)%nat ->
  exists ci, get_indexing_extended ni nact nv na nb order = Ok ci /\ ci_inv (length (idx2det ci), ci) /\
  forall d, In d (idx2det ci) <-> In d (map toN (ext_pairs ni nact nv na nb (Z.eqb order 2))).
Proof.
  intros Ho Hn. unfold get_indexing_extended. destruct (Z.ltb_spec 2 order); [lia|]. rewrite ci_loop_ok.
  - destruct (fold_ci_push_new (map toN (ext_pairs ni nact nv na nb (Z.eqb order 2))) ci_empty ci_inv_empty) as [H1 H2].
    cbn [bind]. destruct (fold_left ci_push_new _ ci_empty) as [idx ci]. cbn [snd] in *.
    exists ci. split; [reflexivity|]. split; [cbn [ci_inv] in *; tauto|].
    intros d. rewrite H2. cbn. tauto.
  - apply Forall_forall. intros [a b] H0. apply in_ext_pairs in H0 as [[H1 _] [[H2 _] _]].
    split; cbn [fst snd]; [lia|]. intros ->. cbn in H1. lia.
Qed.

(** Counting on the determinant. *)
Definition count_range (f : nat -> bool) (a k : nat) : Z := ones (map f (seq a k)).

Lemma abits_firstn n k x : k <= n -> firstn k (abits n x) = map (fun p => occ x (2 * p)) (seq 0 k).
Proof.
  intros H. unfold abits. rewrite firstn_map. f_equal.
  replace n with (k + (n - k)) by lia. rewrite seq_app, firstn_app, seq_length, Nat.sub_diag, firstn_O, app_nil_r.
  apply firstn_all2. rewrite seq_length. lia.
Qed.
Lemma bbits_firstn n k x : k <= n -> firstn k (bbits n x) = map (fun p => occ x (2 * p + 1)) (seq 0 k).
Proof.
  intros H. unfold bbits. rewrite firstn_map. f_equal.
  replace n with (k + (n - k)) by lia. rewrite seq_app, firstn_app, seq_length, Nat.sub_diag, firstn_O, app_nil_r.
  apply firstn_all2. rewrite seq_length. lia.
Qed.
Lemma map_skipn_seq {A} (f : nat -> A) k j : skipn k (map f (seq 0 (k + j))) = map f (seq k j).
Proof.
  rewrite seq_app, map_app, skipn_app, map_length, seq_length, Nat.sub_diag, skipn_O.
  rewrite skipn_all2 by (rewrite map_length, seq_length; lia). reflexivity.
Qed.
