(** Bitstrings, post-selection and repeated runs. *)
From Coq Require Import List Bool Arith NArith ZArith Lia Ring.
From Verif Require Import Base CliqueModel CliqueProofs OperatorsSums FockInner.
Import ListNotations.
Local Open Scope nat_scope.
Local Open Scope list_scope.

(** ** Bitstrings *)
Lemma size_nat_size x : N.size_nat x = N.to_nat (N.size x).
Proof. destruct x as [|p]; [reflexivity|]. cbn. induction p as [p IH|p IH|]; cbn [Pos.size_nat Pos.size]; rewrite ?IH; lia. Qed.
Lemma size_le w x : (x < 2 ^ N.of_nat w)%N -> N.size_nat x <= w.
Proof.
  intros Hx. rewrite size_nat_size. destruct (N.eq_dec x 0) as [->|H0]; [cbn; lia|].
  rewrite N.size_log2 by assumption. pose proof (proj1 (N.log2_lt_pow2 x (N.of_nat w) ltac:(lia)) Hx). lia.
Qed.
Lemma testbit_high x i : N.size_nat x <= i -> N.testbit x (N.of_nat i) = false.
Proof.
  intros Hi. destruct (N.eq_dec x 0) as [->|H0]; [apply N.bits_0|]. apply N.bits_above_log2. rewrite size_nat_size, N.size_log2 in Hi by assumption. lia.
Qed.
Lemma format_length w x : (x < 2 ^ N.of_nat w)%N -> (0 < w) -> List.length (format_b w x) = w.
Proof. intros Hx Hw. unfold format_b. rewrite map_length, seq_length. pose proof (size_le w x Hx). lia. Qed.
Lemma int_of_bits_snoc s b : int_of_bits (s ++ [b]) = (2 * int_of_bits s + (if b then 1 else 0))%N.
Proof. unfold int_of_bits. now rewrite fold_left_app. Qed.
Lemma int_of_bits_testbit s : forall j, N.testbit (int_of_bits s) (N.of_nat j) = if j <? List.length s then nth (List.length s - 1 - j) s false else false.
Proof.
  induction s as [|b s IH] using rev_ind; intros j; [apply N.bits_0|]. rewrite int_of_bits_snoc, app_length. cbn [List.length].
  assert ((2 * int_of_bits s + (if b then 1 else 0))%N = (2 * int_of_bits s + N.b2n b)%N) as -> by now destruct b.
  destruct j as [|j].
  - cbn [N.of_nat]. rewrite N.testbit_0_r. replace (0 <? List.length s + 1) with true by (symmetry; apply Nat.ltb_lt; lia).
    rewrite app_nth2 by lia. replace (List.length s + 1 - 1 - 0 - List.length s) with 0 by lia. reflexivity.
  - rewrite Nat2N.inj_succ, N.testbit_succ_r, IH. destruct (Nat.ltb_spec j (List.length s)).
    + replace (S j <? List.length s + 1) with true by (symmetry; apply Nat.ltb_lt; lia). rewrite app_nth1 by lia. f_equal. lia.
    + replace (S j <? List.length s + 1) with false by (symmetry; apply Nat.ltb_ge; lia). reflexivity.
Qed.
Lemma N_bits_ext (a b : N) : (forall j, N.testbit a (N.of_nat j) = N.testbit b (N.of_nat j)) -> a = b.
Proof. intros H. apply N.bits_inj. intros k. rewrite <- (N2Nat.id k). apply H. Qed.
Lemma int_format w x : int_of_bits (format_b w x) = x.
Proof.
  apply N_bits_ext. intros j. rewrite int_of_bits_testbit. unfold format_b. rewrite map_length, seq_length.
  set (len := Nat.max w (Nat.max 1 (N.size_nat x))). destruct (Nat.ltb_spec j len) as [H|H].
  - set (g i := N.testbit x (N.of_nat (len - 1 - i))). rewrite (nth_indep _ false (g 0)) by (rewrite map_length, seq_length; lia).
    rewrite map_nth, seq_nth by lia. unfold g. f_equal. f_equal. lia.
  - symmetry. apply testbit_high. lia.
Qed.
(** Most significant bit first. *)
Lemma format_eq w x : (x < 2 ^ N.of_nat w)%N -> (0 < w) -> format_b w x = map (fun i => N.testbit x (N.of_nat i)) (rev (seq 0 w)).
Proof.
  intros Hx Hw. unfold format_b. pose proof (size_le w x Hx) as Hs. replace (Nat.max w (Nat.max 1 (N.size_nat x))) with w by lia.
  clear Hs Hx. assert (forall w, map (fun i => N.testbit x (N.of_nat (w - 1 - i))) (seq 0 w) = map (fun i => N.testbit x (N.of_nat i)) (rev (seq 0 w))) as H; [|apply H].
  intros v. replace (rev (seq 0 v)) with (map (fun i => v - 1 - i) (seq 0 v)); [now rewrite map_map|].
  clear. apply nth_ext with (d := v - 1 - 0) (d' := 0); [now rewrite map_length, rev_length|]. rewrite map_length, seq_length. intros i Hi.
  rewrite (map_nth (fun i => v - 1 - i)), seq_nth by lia. rewrite rev_nth by (rewrite seq_length; lia). rewrite seq_length, seq_nth by lia. lia.
Qed.

Lemma count1_map_rev {A} (g : A -> bool) l : count1 (map g (rev l)) = List.length (filter g l).
Proof.
  unfold count1. induction l as [|a l IH]; [reflexivity|]. cbn [rev filter]. rewrite map_app, filter_app, app_length, IH. cbn. destruct (g a); cbn; lia.
Qed.

(** Number of occupied positions of [x] among [lo, lo + len). *)
Definition electrons (x : N) (lo len : nat) : nat := List.length (filter (fun i => N.testbit x (N.of_nat i)) (seq lo len)).

Lemma keep_jw_spec n na nb x : (0 < n) -> (x < 2 ^ N.of_nat (2 * n))%N ->
  keep_jw na nb (format_b (2 * n) x) = (electrons x 0 n =? na) && (electrons x n n =? nb).
Proof.
  intros Hn Hx. unfold keep_jw. rewrite format_length by (assumption || lia). rewrite format_eq by (assumption || lia).
  replace (2 * n / 2) with n by (rewrite Nat.mul_comm, Nat.div_mul; lia).
  replace (rev (seq 0 (2 * n))) with (rev (seq n n) ++ rev (seq 0 n)).
  2: { rewrite <- rev_app_distr. replace (2 * n) with (n + n) by lia. now rewrite seq_app. }
  rewrite map_app. set (hi := map _ (rev (seq n n))). set (lo := map _ (rev (seq 0 n))).
  assert (List.length hi = n) as Hl by (unfold hi; now rewrite map_length, rev_length, seq_length).
  rewrite firstn_app, skipn_app, Hl, Nat.sub_diag. rewrite (skipn_all2 hi) by lia. rewrite firstn_all2 by lia. cbn [firstn skipn].
  rewrite app_nil_r. cbn [List.app]. unfold hi, lo. now rewrite !count1_map_rev.
Qed.

(** ** Post-selection *)
Section Post.
  Context {K : Type} {C : CRing K}.
  Local Open Scope K_scope.
  Add Ring KringPost : (@rth K C).
  Notation dist := (dist (K:=K)).

  Lemma zset_fresh {V} k (v : V) d : ~ In k (map fst d) -> zset k v d = d ++ [(k, v)].
  Proof.
    induction d as [|[k' v'] d IH]; cbn; intros H; [reflexivity|]. destruct (N.eqb k k') eqn:E; [apply N.eqb_eq in E; elim H; auto|].
    rewrite IH; auto.
  Qed.
  Lemma zset_mid {V} k (v v' : V) a b : ~ In k (map fst a) -> zset k v (a ++ (k, v') :: b) = a ++ (k, v) :: b.
  Proof.
    induction a as [|[k0 v0] a IH]; cbn; intros H; [now rewrite N.eqb_refl|]. destruct (N.eqb k k0) eqn:E; [apply N.eqb_eq in E; elim H; auto|].
    rewrite IH; auto.
  Qed.

  (** Weight of a distribution. *)
  Definition weight (d : dist) : K := lsum d snd.

  Lemma select_run w (keep : list bool -> bool) (d : dist) : NoDup (map fst d) ->
    fold_left (fun (s : dist * K) kv => let '(nd, ps) := s in
          let bitstr := format_b w (fst kv) in
          if keep bitstr then (zset (int_of_bits bitstr) (snd kv) nd, ps + snd kv) else s) d (([] : dist), 0)
    = (filter (fun kv => keep (format_b w (fst kv))) d, weight (filter (fun kv => keep (format_b w (fst kv))) d)).
  Proof.
    induction d as [|kv d IH] using rev_ind; intros Hnd; [reflexivity|].
    rewrite map_app in Hnd. cbn in Hnd. rewrite fold_left_app, IH by (apply NoDup_remove_1 in Hnd; now rewrite app_nil_r in Hnd).
    cbn [fold_left]. rewrite filter_app. cbn [filter]. destruct (keep (format_b w (fst kv))) eqn:E; cbn [fst snd]; [|now rewrite app_nil_r].
    rewrite int_format, zset_fresh.
    - unfold weight. rewrite lsum_app. destruct kv as [k v]. f_equal. cbn. ring.
    - apply NoDup_remove_2 in Hnd. rewrite app_nil_r in Hnd. intros Hi. apply Hnd. apply in_map_iff in Hi as (x & Hx & Hi). apply filter_In in Hi as [Hi _].
      apply in_map_iff. eauto.
  Qed.
  Definition divides (kdiv : K -> K -> Res K) : Prop := forall a b, b <> 0 -> exists q, kdiv a b = Ok q /\ q * b = a.

  Lemma divide_run (kdiv : K -> K -> Res K) (W : K) (g : K -> K) (d : dist) : NoDup (map fst d) -> (forall a, kdiv a W = Ok (g a)) ->
    fold_left (fun r kv => bind r (fun nd => bind (kdiv (snd kv) W) (fun q => Ok (zset (fst kv) q nd)))) d (Ok d)
    = Ok (map (fun kv => (fst kv, g (snd kv))) d).
  Proof.
    intros Hnd Hg.
    assert (forall l a, NoDup (map fst (a ++ l)) ->
      fold_left (fun r kv => bind r (fun nd => bind (kdiv (snd kv) W) (fun q => Ok (zset (fst kv) q nd)))) l (Ok (map (fun kv => (fst kv, g (snd kv))) a ++ l))
      = Ok (map (fun kv => (fst kv, g (snd kv))) (a ++ l))) as H; [|exact (H d [] Hnd)].
    induction l as [|[k v] l IH]; intros a Ha; [now rewrite !app_nil_r|]. cbn [fold_left bind fst snd]. rewrite Hg. cbn [bind]. rewrite zset_mid.
    - replace (a ++ (k, v) :: l) with ((a ++ [(k, v)]) ++ l) in * by now rewrite <- app_assoc. rewrite <- (IH _ Ha).
      f_equal. f_equal. rewrite map_app. cbn. now rewrite <- app_assoc.
    - rewrite map_app in Ha. cbn in Ha. apply NoDup_remove_2 in Ha. intros Hi. apply Ha. apply in_or_app. left. rewrite map_map in Hi. exact Hi.
  Qed.
  Lemma nodup_filter_keys (P : N * K -> bool) (d : dist) : NoDup (map fst d) -> NoDup (map fst (filter P d)).
  Proof.
    induction d as [|x d IH]; cbn; intros H; [constructor|]. inversion_clear H as [|? ? Hx Hd]. destruct (P x); cbn; [|auto]. constructor; [|auto].
    intros Hi. apply Hx. apply in_map_iff in Hi as (y & Hy & Hi). apply filter_In in Hi as [Hi _]. apply in_map_iff. eauto.
  Qed.

  Definition keeps (m : mapper) (num_elec : nat * nat) (w : nat) (x : N) : bool :=
    match m with
    | JordanWigner => keep_jw (fst num_elec) (snd num_elec) (format_b w x)
    | _ => keep_parity (fst num_elec) (snd num_elec) (format_b w x)
    end.
  Lemma postselection_eq kdiv d m num_elec w : NoDup (map fst d) -> m <> OtherMapper ->
    let kept := filter (fun kv : N * K => keeps m num_elec w (fst kv)) d in
    postselection kdiv d m num_elec w =
      fold_left (fun r kv => bind r (fun nd => bind (kdiv (snd kv) (weight kept)) (fun q => Ok (zset (fst kv) q nd)))) kept (Ok kept).
  Proof.
    intros Hnd Hm. unfold postselection. destruct m; [| |easy]; rewrite select_run by assumption; reflexivity.
  Qed.
  (** The kept entries divided by their total weight. *)
  Lemma postselection_ok kdiv d m num_elec w : divides kdiv -> NoDup (map fst d) -> m <> OtherMapper ->
    let kept := filter (fun kv : N * K => keeps m num_elec w (fst kv)) d in
    weight kept <> 0 ->
    exists inv, inv * weight kept = 1 /\ postselection kdiv d m num_elec w = Ok (map (fun kv => (fst kv, snd kv * inv)) kept).
  Proof.
    intros Hdiv Hnd Hm kept HW. destruct (Hdiv 1 (weight kept) HW) as (inv & _ & Hi). exists inv. split; [exact Hi|].
    rewrite postselection_eq by assumption. fold kept.
    apply (divide_run kdiv (weight kept) (fun a => a * inv)); [now apply nodup_filter_keys|].
    intros a. destruct (Hdiv a (weight kept) HW) as (q & Eq & Hq). rewrite Eq. f_equal.
    transitivity (q * (inv * weight kept)); [rewrite Hi; ring|]. rewrite <- Hq. ring.
  Qed.
  Lemma weight_cons kv (d : dist) : weight (kv :: d) = snd kv + weight d.
  Proof. reflexivity. Qed.
  Lemma weight_scaled inv (d : dist) : weight (map (fun kv : N * K => (fst kv, snd kv * inv)) d) = weight d * inv.
  Proof.
    induction d as [|[k v] d IH]; [cbn; ring|]. cbn [map]. rewrite !weight_cons, IH. cbn. ring.
  Qed.
End Post.

(** ** The parity mapping *)

(** Number of changes along a string of bits that starts after [c]. *)
Fixpoint changes (c : bool) (s : list bool) : nat :=
  match s with [] => 0 | b :: s' => (if Bool.eqb b c then 0 else 1) + changes b s' end.
Lemma parity_scan_eq s c k : parity_scan s (c, k) = (last s c, k + changes c s).
Proof.
  revert c k. induction s as [|b s IH]; intros c k; [cbn; f_equal; lia|]. unfold parity_scan in *. cbn [fold_left fst snd].
  assert (last (b :: s) c = last s b) as -> by (clear; revert b c; induction s as [|x s IH]; intros b c; [reflexivity|]; cbn [last] in *; destruct s; [reflexivity|apply IH]).
  cbn [changes]. destruct (Bool.eqb b c) eqn:E; [apply eqb_prop in E as ->|]; rewrite IH; f_equal; lia.
Qed.
Lemma changes_snoc s c b : changes c (s ++ [b]) = changes c s + (if Bool.eqb b (last s c) then 0 else 1).
Proof.
  revert c. induction s as [|x s IH]; intros c; [cbn; lia|].
  assert (last (x :: s) c = last s x) as -> by (clear; revert x c; induction s as [|y s IH]; intros x c; [reflexivity|]; cbn [last] in *; destruct s; [reflexivity|apply IH]).
  cbn [List.app changes]. rewrite IH. lia.
Qed.
Lemma mod2_odd k : (k mod 2 =? 1) = Nat.odd k.
Proof. rewrite <- Nat.bit0_odd. rewrite Nat.bit0_eqb. reflexivity. Qed.
Lemma mod2_even k : (k mod 2 =? 0) = negb (Nat.odd k).
Proof.
  rewrite <- mod2_odd. pose proof (Nat.mod_upper_bound k 2 ltac:(lia)). destruct (Nat.eqb_spec (k mod 2) 0), (Nat.eqb_spec (k mod 2) 1); cbn; lia.
Qed.
Lemma keep_parity_eq na nb sb sa : List.length sb = List.length sa ->
  keep_parity na nb (sb ++ sa) =
    (changes false (sb ++ [Nat.odd nb]) =? na) && (changes (Nat.odd nb) (sa ++ [Nat.odd (na + nb)]) =? nb).
Proof.
  intros Hl. unfold keep_parity. rewrite app_length, <- Hl. replace ((List.length sb + List.length sb) / 2) with (List.length sb).
  2: { replace (List.length sb + List.length sb) with (List.length sb * 2) by lia. now rewrite Nat.div_mul. }
  rewrite firstn_app, skipn_app, Nat.sub_diag, firstn_all, skipn_all. cbn [firstn skipn]. rewrite app_nil_r. cbn [List.app].
  rewrite parity_scan_eq, !changes_snoc, !mod2_odd, !mod2_even. cbn [Nat.add].
  destruct (last sb false) eqn:E1, (Nat.odd nb) eqn:E2; cbn [andb negb Bool.eqb]; rewrite ?Nat.add_0_r, ?Nat.add_1_r.
  all: destruct (_ =? na); cbn [negb andb]; [|reflexivity]; rewrite parity_scan_eq; cbn [Nat.add].
  all: destruct (last sa _) eqn:E3, (Nat.odd (na + nb)) eqn:E4; cbn [andb negb Bool.eqb]; rewrite ?Nat.add_0_r, ?Nat.add_1_r; reflexivity.
Qed.

(** The parities met when occupations are read off one by one. *)
Fixpoint walk (c : bool) (fs : list bool) : list bool :=
  match fs with [] => [] | f :: fs' => xorb c f :: walk (xorb c f) fs' end.
Lemma changes_walk c fs : changes c (walk c fs) = count1 fs.
Proof.
  revert c. unfold count1. induction fs as [|f fs IH]; intros c; [reflexivity|]. cbn [walk changes]. rewrite IH. destruct c, f; cbn; lia.
Qed.
Fixpoint diffs (c : bool) (s : list bool) : list bool := match s with [] => [] | b :: s' => xorb c b :: diffs b s' end.
Lemma walk_diffs c s : walk c (diffs c s) = s.
Proof. revert c. induction s as [|b s IH]; intros c; [reflexivity|]. cbn. assert (xorb c (xorb c b) = b) as -> by now destruct c, b. now rewrite IH. Qed.
Lemma diffs_length c s : List.length (diffs c s) = List.length s.
Proof. revert c. induction s; intros; cbn; auto. Qed.

(** Parity of the electrons in the orbitals below [i]. *)
Definition prefix_parity (f : list bool) (i : nat) : bool := Nat.odd (count1 (firstn i f)).
Lemma count1_app a b : count1 (a ++ b) = count1 a + count1 b.
Proof. unfold count1. now rewrite filter_app, app_length. Qed.
Lemma count1_rev a : count1 (rev a) = count1 a.
Proof. induction a as [|x a IH]; [reflexivity|]. cbn [rev]. rewrite count1_app, IH. unfold count1. cbn. destruct x; cbn; lia. Qed.
Lemma prefix_parity_S f i : i < List.length f -> prefix_parity f (S i) = xorb (prefix_parity f i) (nth i f false).
Proof.
  intros Hi. unfold prefix_parity. assert (firstn (S i) f = firstn i f ++ [nth i f false]) as ->.
  { clear -Hi. revert f Hi. induction i as [|i IH]; intros [|x f] Hi; cbn in *; try lia; [reflexivity|]. f_equal. apply IH. lia. }
  rewrite count1_app, Nat.odd_add. f_equal. unfold count1. cbn. now destruct (nth i f false).
Qed.
Lemma walk_parities f lo len : lo + len <= List.length f ->
  walk (prefix_parity f (lo + len)) (rev (map (fun i => nth i f false) (seq lo len))) = map (prefix_parity f) (rev (seq lo len)).
Proof.
  revert lo. induction len as [|len IH]; intros lo Hl; [reflexivity|]. rewrite seq_S, map_app, !rev_app_distr. cbn [map rev List.app walk].
  replace (lo + S len) with (S (lo + len)) by lia. rewrite prefix_parity_S by lia.
  assert (forall a b, xorb (xorb a b) b = a) as X by (intros [] []; reflexivity). rewrite X. f_equal. apply IH. lia.
Qed.
(** The reduced parity encoding of the determinant [f] over [2 n] spin orbitals
    in blocked order: the qubits carry the parities of all but the last orbital
    of each spin block, most significant (last) first. *)
Definition encode (n : nat) (f : list bool) : list bool :=
  map (fun i => prefix_parity f (i + 1)) (rev (seq n (n - 1))) ++ map (fun i => prefix_parity f (i + 1)) (rev (seq 0 (n - 1))).

Lemma map_nth_seq (f : list bool) lo len : lo + len <= List.length f -> map (fun i => nth i f false) (seq lo len) = firstn len (skipn lo f).
Proof.
  revert f. induction lo as [|lo IH]; intros f Hl.
  - cbn [skipn]. revert f Hl. induction len as [|len IH]; intros [|x f] Hl; cbn in *; try lia; [reflexivity|reflexivity|]. f_equal.
    rewrite <- seq_shift, map_map. apply IH. lia.
  - destruct f as [|x f]; cbn in Hl; [lia|]. rewrite <- seq_shift, map_map. cbn [skipn nth]. apply IH. lia.
Qed.
Lemma encode_walks n f : 1 <= n -> List.length f = 2 * n ->
  map (fun i => prefix_parity f (i + 1)) (rev (seq n (n - 1))) ++ [prefix_parity f n] = walk (prefix_parity f (2 * n)) (rev (skipn n f)) /\
  map (fun i => prefix_parity f (i + 1)) (rev (seq 0 (n - 1))) ++ [prefix_parity f 0] = walk (prefix_parity f n) (rev (firstn n f)).
Proof.
  intros Hn Hl.
  assert (forall lo, map (fun i => prefix_parity f (i + 1)) (rev (seq lo (n - 1))) ++ [prefix_parity f lo] = map (prefix_parity f) (rev (seq lo n))) as H.
  { intros lo. replace (seq lo n) with (lo :: seq (S lo) (n - 1)) by (destruct n as [|k]; [lia|]; cbn; now rewrite Nat.sub_0_r).
    cbn [rev]. rewrite map_app. f_equal. rewrite <- seq_shift, <- map_rev, map_map. apply map_ext. intros i. now rewrite Nat.add_1_r. }
  rewrite !H. split.
  - replace (2 * n) with (n + n) by lia. rewrite <- walk_parities by lia. f_equal. f_equal. rewrite map_nth_seq by lia.
    apply firstn_all2. rewrite skipn_length. lia.
  - pose proof (walk_parities f 0 n ltac:(lia)) as W. cbn [Nat.add] in W. rewrite <- W. f_equal. f_equal. now rewrite map_nth_seq by lia.
Qed.
Lemma changes_odd c s : Nat.odd (changes c s) = xorb c (last s c).
Proof.
  revert c. induction s as [|b s IH]; intros c; [cbn; now destruct c|].
  assert (last (b :: s) c = last s b) as -> by (clear; revert b c; induction s as [|x s IH]; intros b c; [reflexivity|]; cbn [last] in *; destruct s; [reflexivity|apply IH]).
  cbn [changes]. rewrite Nat.odd_add, IH. destruct b, c; cbn; now destruct (last s _).
Qed.
Lemma count1_halves n f : List.length f = 2 * n -> count1 f = count1 (firstn n f) + count1 (skipn n f).
Proof. intros _. rewrite <- count1_app. now rewrite firstn_skipn. Qed.

Lemma keep_parity_encode n f na nb : 1 <= n -> List.length f = 2 * n -> count1 (firstn n f) = na -> count1 (skipn n f) = nb ->
  keep_parity na nb (encode n f) = (na =? nb).
Proof.
  intros Hn Hl Ha Hb. destruct (encode_walks n f Hn Hl) as [Wb Wa]. unfold encode.
  set (sb := map _ (rev (seq n (n - 1)))) in *. set (sa := map _ (rev (seq 0 (n - 1)))) in *.
  rewrite keep_parity_eq by (unfold sb, sa; now rewrite !map_length, !rev_length, !seq_length).
  assert (prefix_parity f n = Nat.odd na) as Pn by (unfold prefix_parity; now rewrite Ha).
  assert (prefix_parity f (2 * n) = Nat.odd (na + nb)) as P2.
  { unfold prefix_parity. rewrite <- Hl, firstn_all. rewrite (count1_halves n) by assumption. now rewrite Ha, Hb. }
  destruct (Bool.bool_dec (Nat.odd na) (Nat.odd nb)) as [E|E].
  - assert (Nat.odd (na + nb) = false) as E2 by (rewrite Nat.odd_add, E; apply xorb_nilpotent).
    rewrite E2 in *. rewrite Pn, E in Wb. rewrite P2 in Wb. rewrite Wb, changes_walk, count1_rev, Hb.
    rewrite Pn, E in Wa. replace (prefix_parity f 0) with false in Wa by reflexivity. rewrite Wa, changes_walk, count1_rev, Ha.
    rewrite (Nat.eqb_sym nb na). now destruct (na =? nb).
  - assert (na =? nb = false) as -> by (apply Nat.eqb_neq; congruence).
    assert (changes false (sb ++ [Nat.odd nb]) =? na = false) as ->; [|reflexivity]. apply Nat.eqb_neq. intros H.
    pose proof (changes_odd false (sb ++ [Nat.odd nb])) as O. rewrite H, last_last, xorb_false_l in O. congruence.
Qed.
Lemma keep_parity_complete n m s : 1 <= n -> List.length s = 2 * n - 2 -> keep_parity m m s = true ->
  exists f, List.length f = 2 * n /\ count1 (firstn n f) = m /\ count1 (skipn n f) = m /\ encode n f = s.
Proof.
  intros Hn Hl Hk. set (sb := firstn (n - 1) s). set (sa := skipn (n - 1) s).
  assert (s = sb ++ sa) as Es by (symmetry; apply firstn_skipn).
  assert (List.length sb = n - 1) as Lb by (unfold sb; rewrite firstn_length; lia).
  assert (List.length sa = n - 1) as La by (unfold sa; rewrite skipn_length; lia).
  rewrite Es, keep_parity_eq in Hk by lia. apply andb_prop in Hk as [Kb Ka]. apply Nat.eqb_eq in Kb, Ka.
  assert (Nat.odd (m + m) = false) as E2 by (rewrite Nat.odd_add; apply xorb_nilpotent). rewrite E2 in Ka.
  set (db := diffs false (sb ++ [Nat.odd m])). set (da := diffs (Nat.odd m) (sa ++ [false])).
  assert (List.length db = n) as Ldb by (unfold db; rewrite diffs_length, app_length; cbn; lia).
  assert (List.length da = n) as Lda by (unfold da; rewrite diffs_length, app_length; cbn; lia).
  assert (count1 db = m) as Cb by (rewrite <- (changes_walk false db); unfold db; now rewrite walk_diffs).
  assert (count1 da = m) as Ca by (rewrite <- (changes_walk (Nat.odd m) da); unfold da; now rewrite walk_diffs).
  set (f := rev da ++ rev db).
  assert (firstn n f = rev da) as F by (unfold f; rewrite firstn_app, rev_length, Lda, Nat.sub_diag, firstn_all2 by (rewrite rev_length; lia); cbn; apply app_nil_r).
  assert (skipn n f = rev db) as G by (unfold f; rewrite skipn_app, rev_length, Lda, Nat.sub_diag, skipn_all2 by (rewrite rev_length; lia); reflexivity).
  assert (List.length f = 2 * n) as Lf by (unfold f; rewrite app_length, !rev_length; lia).
  exists f. split; [exact Lf|]. rewrite F, G, !count1_rev. split; [exact Ca|]. split; [exact Cb|].
  destruct (encode_walks n f Hn Lf) as [Wb Wa]. rewrite G, rev_involutive in Wb. rewrite F, rev_involutive in Wa.
  assert (prefix_parity f n = Nat.odd m) as Pn by (unfold prefix_parity; now rewrite F, count1_rev, Ca).
  assert (prefix_parity f (2 * n) = false) as P2.
  { unfold prefix_parity. rewrite <- Lf, firstn_all, (count1_halves n) by assumption. now rewrite F, G, !count1_rev, Ca, Cb. }
  rewrite Pn, P2 in Wb. rewrite Pn in Wa. unfold db in Wb. unfold da in Wa. rewrite walk_diffs in Wb, Wa.
  change (prefix_parity f 0) with false in Wa.
  apply app_inj_tail in Wb as [Wb _]. apply app_inj_tail in Wa as [Wa _]. unfold encode. rewrite Wa, Wb. now symmetry.
Qed.

(** ** Repeated runs *)
Section Runs.
  Context {K : Type} {C : CRing K}.
  Local Open Scope K_scope.
  Add Ring KringRuns : (@rth K C).
  Notation dist := (dist (K:=K)).

  (** Value of a key, zero when absent. *)
  Definition at_key (k : N) (d : dist) : K := match zget k d with Some v => v | None => 0 end.
  Lemma at_nil k : at_key k [] = 0.
  Proof. reflexivity. Qed.
  Lemma at_cons k k' v d : at_key k ((k', v) :: d) = if N.eqb k k' then v else at_key k d.
  Proof. unfold at_key. cbn. now destruct (N.eqb k k'). Qed.
  Lemma combine_app {A B} (a a' : list A) (b b' : list B) : List.length a = List.length b -> combine (a ++ a') (b ++ b') = combine a b ++ combine a' b'.
  Proof. revert b. induction a as [|x a IH]; intros [|y b] H; cbn in *; try lia; [reflexivity|]. now rewrite IH by lia. Qed.
  Lemma at_zadd k k' v d : at_key k (zadd k' v d) = at_key k d + (if N.eqb k k' then v else 0).
  Proof.
    unfold at_key, zadd. destruct (N.eqb_spec k k') as [->|H].
    - rewrite zget_zset_same. destruct (zget k' d); ring.
    - rewrite zget_zset_other by assumption. destruct (zget k d); ring.
  Qed.
  Lemma zget_none {V} k (d : list (N * V)) : ~ In k (map fst d) -> zget k d = None.
  Proof. induction d as [|[k' v] d IH]; cbn; intros H; [reflexivity|]. destruct (N.eqb_spec k k'); [subst; elim H; auto|auto]. Qed.
  Lemma at_merge k d d0 : NoDup (map fst d) ->
    at_key k (fold_left (fun d kv => zadd (fst kv) (snd kv) d) d d0) = at_key k d0 + at_key k d.
  Proof.
    revert d0. induction d as [|[k' v] d IH]; intros d0 Hnd; [cbn [fold_left]; rewrite at_nil; ring|]. inversion_clear Hnd as [|? ? Hk Hd].
    cbn [fold_left fst snd]. rewrite IH, at_zadd by assumption. rewrite at_cons. destruct (N.eqb_spec k k') as [->|H].
    - replace (at_key k' d) with (0 : K); [ring|]. unfold at_key. now rewrite (zget_none k' d Hk).
    - ring.
  Qed.
  Lemma upd_at_nth {A} i (f : A -> A) l j dflt : (j < List.length l)%nat ->
    nth j (upd_at i f l) dflt = if (j =? i)%nat then f (nth j l dflt) else nth j l dflt.
  Proof.
    intros Hj. unfold upd_at.
    assert (forall l s, (j < List.length l)%nat -> nth j (map (fun ix : nat * A => if (fst ix =? i)%nat then f (snd ix) else snd ix) (combine (seq s (List.length l)) l)) dflt
              = if (s + j =? i)%nat then f (nth j l dflt) else nth j l dflt) as H; [|now rewrite H].
    clear. induction j as [|j IH]; intros [|x l] s Hj; cbn in Hj; try lia; cbn [List.length seq combine map nth fst snd].
    - now rewrite Nat.add_0_r.
    - rewrite IH by lia. now rewrite Nat.add_succ_r.
  Qed.
  Lemma upd_at_length {A} i (f : A -> A) l : List.length (upd_at i f l) = List.length l.
  Proof. unfold upd_at. rewrite map_length, combine_length, seq_length. lia. Qed.

  Definition merge (n : nat) (comb : list dist) (nd : nat * dist) : list dist :=
    upd_at (fst nd mod n) (fun d0 => fold_left (fun d kv => zadd (fst kv) (snd kv) d) (snd nd) d0) comb.
  Lemma fold_merge n l : forall comb, List.length comb = n -> Forall (fun nd : nat * dist => NoDup (map fst (snd nd))) l ->
    List.length (fold_left (merge n) l comb) = n /\
    forall j k, (j < n)%nat -> at_key k (nth j (fold_left (merge n) l comb) []) =
      at_key k (nth j comb []) + lsum (filter (fun nd : nat * dist => (j =? fst nd mod n)%nat) l) (fun nd => at_key k (snd nd)).
  Proof.
    induction l as [|nd l IH]; intros comb Hc Hl; cbn [fold_left].
    - split; [exact Hc|]. intros. cbn. ring.
    - inversion_clear Hl as [|? ? Hd Hl']. destruct (IH (merge n comb nd)) as [L V]; [unfold merge; now rewrite upd_at_length|exact Hl'|].
      split; [exact L|]. intros j k Hj. rewrite V by assumption. unfold merge. rewrite upd_at_nth by lia. cbn [filter].
      destruct (j =? fst nd mod n)%nat; [|reflexivity]. rewrite at_merge by assumption. rewrite lsum_cons. ring.
  Qed.
  Lemma at_map_key g k (d : dist) : (g 0 = 0) -> at_key k (map (fun kv : N * K => (fst kv, g (snd kv))) d) = g (at_key k d).
  Proof.
    intros Hg. unfold at_key. induction d as [|[k' v] d IH]; [now symmetry|]. cbn [map zget fst snd]. destruct (N.eqb k k'); [reflexivity|exact IH].
  Qed.
  Lemma divide_all (kdiv : K -> Res K) g (ds : list dist) : (forall a, kdiv a = Ok (g a)) ->
    fold_right (fun d r => bind (fold_right (fun kv r => bind (kdiv (snd kv)) (fun q => bind r (fun r => Ok ((fst kv, q) :: r)))) (Ok []) d)
                               (fun d => bind r (fun r => Ok (d :: r)))) (Ok []) ds = Ok (map (map (fun kv : N * K => (fst kv, g (snd kv)))) ds).
  Proof.
    intros Hg. induction ds as [|d ds IH]; [reflexivity|]. cbn [fold_right map]. rewrite IH.
    assert (fold_right (fun (kv : N * K) r => bind (kdiv (snd kv)) (fun q => bind r (fun r => Ok ((fst kv, q) :: r)))) (Ok []) d = Ok (map (fun kv : N * K => (fst kv, g (snd kv))) d)) as ->; [|reflexivity].
    induction d as [|kv d IHd]; [reflexivity|]. cbn [fold_right map]. rewrite IHd, Hg. reflexivity.
  Qed.
  (** Entry [j] of the block [r] of the flattened list of runs. *)
  Lemma flat_filter n (runs : list (list dist)) s : (0 < n)%nat -> Forall (fun r : list dist => List.length r = n) runs -> (s mod n = 0)%nat ->
    forall j (F : dist -> K), (j < n)%nat ->
    lsum (filter (fun nd : nat * dist => (j =? fst nd mod n)%nat) (combine (seq s (List.length (concat runs))) (concat runs))) (fun nd => F (snd nd))
    = lsum runs (fun r => F (nth j r [])).
  Proof.
    intros Hn. revert s. induction runs as [|r runs IH]; intros s Hr Hs j F Hj; [reflexivity|]. inversion_clear Hr as [|? ? Hl Hr'].
    cbn [concat]. rewrite app_length, seq_app, combine_app by now rewrite seq_length.
    rewrite filter_app, lsum_app, lsum_cons. rewrite (IH (s + List.length r)%nat Hr') by (try assumption; rewrite Hl, Nat.add_mod, Hs, Nat.mod_same by lia; cbn; now apply Nat.mod_0_l, Nat.neq_sym, Nat.lt_neq).
    f_equal.
    assert (forall l t, (t + List.length l <= n)%nat -> (t <= j)%nat ->
              lsum (filter (fun nd : nat * dist => (j =? fst nd mod n)%nat) (combine (seq (s + t) (List.length l)) l)) (fun nd => F (snd nd))
              = if (j <? t + List.length l)%nat then F (nth (j - t) l []) else 0) as H.
    { clear - Hn Hs Hj. induction l as [|x l IH]; intros t Ht Htj; cbn [List.length] in *.
      - replace (j <? t + 0)%nat with false by (symmetry; apply Nat.ltb_ge; lia). reflexivity.
      - cbn [seq combine filter fst snd]. replace ((s + t) mod n) with t.
        2: { rewrite Nat.add_mod, Hs by lia. cbn. rewrite Nat.mod_mod by lia. now rewrite Nat.mod_small by lia. }
        destruct (Nat.eqb_spec j t) as [->|Hne].
        + replace (t <? t + S (List.length l))%nat with true by (symmetry; apply Nat.ltb_lt; lia). rewrite Nat.sub_diag. cbn [nth]. rewrite lsum_cons. cbn [snd].
          assert (forall l u, (t < u)%nat -> (u + List.length l <= n)%nat -> filter (fun nd : nat * dist => (t =? fst nd mod n)%nat) (combine (seq (s + u) (List.length l)) l) = []) as Z.
          { clear - Hs Hn. induction l as [|x l IH]; intros u Hu Hul; [reflexivity|]. cbn [List.length seq combine filter fst] in *.
            replace ((s + u) mod n) with u by (rewrite Nat.add_mod, Hs by lia; cbn; rewrite Nat.mod_mod by lia; now rewrite Nat.mod_small by lia).
            replace (t =? u)%nat with false by (symmetry; apply Nat.eqb_neq; lia). replace (S (s + u)) with (s + S u)%nat by lia. apply IH; lia. }
          replace (S (s + t)) with (s + S t)%nat by lia. rewrite Z by lia. cbn. ring.
        + replace (S (s + t)) with (s + S t)%nat by lia. rewrite IH by lia. replace (S t + List.length l)%nat with (t + S (List.length l))%nat by lia.
          destruct (j <? t + S (List.length l))%nat; [|reflexivity]. replace (j - t)%nat with (S (j - S t)) by lia. reflexivity. }
    specialize (H r 0%nat). rewrite Nat.add_0_r in H. rewrite H by lia. cbn [Nat.add]. rewrite Nat.sub_0_r.
    replace (j <? List.length r)%nat with true by (symmetry; apply Nat.ltb_lt; lia). reflexivity.
  Qed.
End Runs.
