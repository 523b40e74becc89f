(** Proofs about the layout correction of read-out mitigation. *)
From Coq Require Import List Bool Arith NArith ZArith Lia Ring Permutation Sorted.
From Verif Require Import Base Fock CIProofs CliqueModel QubitModel QubitProofs LayoutModel LayoutPath.
Import ListNotations.
Local Open Scope list_scope.

(** ** Rows of bits *)
Lemma row_value_snoc (row : list bool) (b : bool) : row_value (row ++ [b]) = (2 * row_value row + (if b then 1 else 0))%N.
Proof. unfold row_value. rewrite fold_left_app. reflexivity. Qed.
Lemma testbit_snoc (v : N) (b : bool) k : N.testbit (2 * v + (if b then 1 else 0))%N (N.of_nat (S k)) = N.testbit v (N.of_nat k).
Proof.
  rewrite Nat2N.inj_succ. destruct b; [|rewrite N.add_0_r; apply N.testbit_even_succ; lia]. apply N.testbit_odd_succ. lia.
Qed.
Lemma row_value_bit row k : N.testbit (row_value row) (N.of_nat k) = (k <? length row) && nth (length row - 1 - k) row false.
Proof.
  revert k. induction row as [|b row IH] using rev_ind; intros k; [rewrite N.bits_0; now destruct k|].
  rewrite row_value_snoc, app_length. cbn [length]. rewrite Nat.add_1_r. destruct k as [|k].
  - cbn [N.of_nat]. replace (S (length row) - 1 - 0) with (length row) by lia. rewrite app_nth2, Nat.sub_diag by lia. cbn [nth].
    replace (0 <? S (length row)) with true by (symmetry; apply Nat.ltb_lt; lia). destruct b; [apply N.testbit_odd_0|rewrite N.add_0_r; apply N.testbit_even_0].
  - rewrite testbit_snoc, IH. change (S k <? S (length row)) with (k <? length row). destruct (Nat.ltb_spec k (length row)) as [H|H]; [|reflexivity]. cbn [andb].
    rewrite app_nth1 by lia. f_equal. lia.
Qed.
Lemma row_value_lt row : (row_value row < 2 ^ N.of_nat (length row))%N.
Proof.
  apply bits_small. intros k Hk. rewrite <- (N2Nat.id k), row_value_bit. replace (N.to_nat k <? length row) with false by (symmetry; apply Nat.ltb_ge; lia). reflexivity.
Qed.
Lemma binary_row_length n x : length (binary_row n x) = n.
Proof. unfold binary_row. now rewrite map_length, seq_length. Qed.
Lemma binary_row_nth n x k : k < n -> nth_error (binary_row n x) k = Some (N.testbit x (N.of_nat (n - 1 - k))).
Proof. intros H. unfold binary_row. rewrite nth_error_map. rewrite (nth_error_nth' _ 0) by (rewrite seq_length; lia). rewrite seq_nth by lia. reflexivity. Qed.
Lemma binary_row_value n row : length row = n -> binary_row n (row_value row) = row.
Proof.
  intros Hl. apply nth_error_ext. intros k. destruct (Nat.lt_ge_cases k n) as [H|H].
  - rewrite binary_row_nth by exact H. rewrite row_value_bit. rewrite Hl. replace (n - 1 - k <? n) with true by (symmetry; apply Nat.ltb_lt; lia). cbn [andb].
    replace (n - 1 - (n - 1 - k)) with k by lia. symmetry. apply nth_error_nth'. lia.
  - rewrite !(proj2 (nth_error_None _ k)); [reflexivity|lia|rewrite binary_row_length; lia].
Qed.
Lemma row_value_binary n x : (x < 2 ^ N.of_nat n)%N -> row_value (binary_row n x) = x.
Proof.
  intros Hx. apply (small_ext n); [|exact Hx|].
  - pose proof (row_value_lt (binary_row n x)) as H. now rewrite binary_row_length in H.
  - intros k Hk. rewrite row_value_bit, binary_row_length. replace (k <? n) with true by (symmetry; now apply Nat.ltb_lt). cbn [andb].
    apply nth_error_nth. rewrite binary_row_nth by lia. do 3 f_equal. lia.
Qed.

(** Exchange of the bits at positions [a], [b] counted from the most significant. *)
Definition bswap (n : nat) (ab : nat * nat) (x : N) : N :=
  match list_swap (binary_row n x) (fst ab) (snd ab) with Some row => row_value row | None => x end.
Definition inr (n : nat) (ab : nat * nat) : Prop := fst ab < n /\ snd ab < n.
Lemma bswap_row n ab x : inr n ab -> list_swap (binary_row n x) (fst ab) (snd ab) = Some (binary_row n (bswap n ab x)).
Proof.
  intros [Ha Hb]. unfold bswap. destruct (list_swap_some (binary_row n x) (fst ab) (snd ab)) as (row & E); [now rewrite binary_row_length..|].
  rewrite E. f_equal. symmetry. apply binary_row_value. destruct (list_swap_nth _ _ _ _ E) as (_ & _ & L & _). now rewrite L, binary_row_length.
Qed.
Lemma bswap_lt n ab x : inr n ab -> (bswap n ab x < 2 ^ N.of_nat n)%N.
Proof.
  intros [Ha Hb]. unfold bswap. destruct (list_swap_some (binary_row n x) (fst ab) (snd ab)) as (row & E); [now rewrite binary_row_length..|].
  rewrite E. destruct (list_swap_nth _ _ _ _ E) as (_ & _ & L & _). rewrite binary_row_length in L. rewrite <- L. apply row_value_lt.
Qed.
Lemma list_swap_invol {A} (l l' : list A) a b : list_swap l a b = Some l' -> list_swap l' a b = Some l.
Proof.
  intros E. destruct (list_swap_nth _ _ _ _ E) as (Ha & Hb & L & N). destruct (list_swap_some l' a b) as (l2 & E2); [now rewrite L..|].
  rewrite E2. f_equal. apply nth_error_ext. intros k. destruct (list_swap_nth _ _ _ _ E2) as (_ & _ & _ & N2). rewrite N2, N. now rewrite transp_invol.
Qed.
Lemma bswap_invol n ab x : inr n ab -> (x < 2 ^ N.of_nat n)%N -> bswap n ab (bswap n ab x) = x.
Proof.
  intros H Hx. pose proof (bswap_row n ab x H) as E. apply list_swap_invol in E. unfold bswap at 1. rewrite E. now apply row_value_binary.
Qed.

(** ** [argsort] of an involution *)
Notation plt := (fun a b : N * N => (fst a < fst b)%N).
Notation ple := (fun a b : N * N => (fst a <= fst b)%N).
Lemma insert_perm p l : Permutation (insert_pair p l) (p :: l).
Proof.
  induction l as [|q l IH]; cbn [insert_pair]; [reflexivity|]. destruct (fst p <=? fst q)%N; [reflexivity|].
  rewrite IH. apply perm_swap.
Qed.
Lemma insert_sorted p l : StronglySorted ple l -> StronglySorted ple (insert_pair p l).
Proof.
  induction l as [|q l IH]; intros H; cbn [insert_pair]; [repeat constructor|]. inversion_clear H as [|? ? Hl Hq].
  destruct (N.leb_spec (fst p) (fst q)) as [Hle|Hlt].
  - constructor; [now constructor|]. constructor; [exact Hle|]. apply (Forall_impl _ (P := fun b => (fst q <= fst b)%N)); [intros b Hb; lia|exact Hq].
  - constructor; [auto|]. apply Forall_forall. intros b Hb. apply (Permutation_in _ (insert_perm p l)) in Hb as [<-|Hb]; [lia|].
    rewrite Forall_forall in Hq. now apply Hq.
Qed.
Lemma sort_perm l : Permutation (fold_right insert_pair [] l) l.
Proof. induction l as [|p l IH]; [reflexivity|]. cbn [fold_right]. rewrite insert_perm. now constructor. Qed.
Lemma sort_sorted l : StronglySorted ple (fold_right insert_pair [] l).
Proof. induction l as [|p l IH]; [constructor|]. cbn [fold_right]. now apply insert_sorted. Qed.
Lemma sorted_strict l : StronglySorted ple l -> NoDup (map fst l) -> StronglySorted plt l.
Proof.
  induction 1 as [|p l Hl IH Hp]; cbn [map]; intros Hn; [constructor|]. inversion_clear Hn as [|? ? Hi Hn']. constructor; [auto|].
  apply Forall_forall. intros b Hb. rewrite Forall_forall in Hp. specialize (Hp b Hb). cbn in Hp.
  assert (fst p <> fst b); [|lia]. intros E. apply Hi. rewrite E. now apply in_map.
Qed.
Lemma strict_unique l l' : StronglySorted plt l -> StronglySorted plt l' -> (forall p, In p l <-> In p l') -> l = l'.
Proof.
  intros H. revert l'. induction H as [|x l Hl IH Hx]; intros l' H' Hi.
  - destruct l' as [|y l']; [reflexivity|]. exfalso. apply (proj2 (Hi y)). now left.
  - destruct H' as [|y l' Hl' Hy]; [exfalso; apply (proj1 (Hi x)); now left|]. rewrite Forall_forall in Hx, Hy.
    assert (x = y) as ->.
    { destruct (proj1 (Hi x) (or_introl eq_refl)) as [->|Hx']; [reflexivity|]. destruct (proj2 (Hi y) (or_introl eq_refl)) as [->|Hy']; [reflexivity|].
      specialize (Hx y Hy'). specialize (Hy x Hx'). cbn in *. lia. }
    f_equal. apply IH; [exact Hl'|]. intros p. specialize (Hi p). cbn [In] in Hi. split; intros Hp.
    + destruct (proj1 Hi (or_intror Hp)) as [->|H0]; [|exact H0]. specialize (Hx p Hp). cbn in Hx. lia.
    + destruct (proj2 Hi (or_intror Hp)) as [->|H0]; [|exact H0]. specialize (Hy p Hp). cbn in Hy. lia.
Qed.
Lemma range_length m : length (range m) = m.
Proof. unfold range. now rewrite map_length, seq_length. Qed.
Lemma range_nth m k : k < m -> nth_error (range m) k = Some (N.of_nat k).
Proof. intros H. unfold range. rewrite nth_error_map, (nth_error_nth' _ 0) by (rewrite seq_length; lia). rewrite seq_nth by lia. reflexivity. Qed.
Lemma in_range m x : In x (range m) <-> (x < N.of_nat m)%N.
Proof.
  unfold range. rewrite in_map_iff. split.
  - intros (k & <- & Hk). apply in_seq in Hk. lia.
  - intros H. exists (N.to_nat x). rewrite N2Nat.id, in_seq. split; [reflexivity|lia].
Qed.
Lemma range_NoDup m : NoDup (range m).
Proof. apply FinFun.Injective_map_NoDup; [intros a b H; lia|apply seq_NoDup]. Qed.
Lemma combine_map_self {A B} (f : A -> B) l : combine (map f l) l = map (fun x => (f x, x)) l.
Proof. induction l as [|x l IH]; cbn; [reflexivity|now rewrite IH]. Qed.
Lemma argsort_invol m (f : N -> N) : (forall x, (x < N.of_nat m)%N -> (f x < N.of_nat m)%N /\ f (f x) = x) ->
  argsort (map f (range m)) = map f (range m).
Proof.
  intros H. unfold argsort. rewrite map_length, range_length, combine_map_self.
  set (L := map (fun x => (f x, x)) (range m)).
  assert (fold_right insert_pair [] L = map (fun x => (x, f x)) (range m)) as ->; [|rewrite map_map; reflexivity].
  apply strict_unique.
  - apply sorted_strict; [apply sort_sorted|]. apply (Permutation_NoDup (l := map fst L)).
    + apply Permutation_map. symmetry. apply sort_perm.
    + unfold L. rewrite map_map. cbn [fst]. apply NoDup_nth_error. intros i j Hi Hij. rewrite map_length, range_length in Hi. rewrite !nth_error_map in Hij.
      rewrite range_nth in Hij by exact Hi. destruct (Nat.lt_ge_cases j m) as [Hj|Hj].
      * rewrite range_nth in Hij by exact Hj. cbn in Hij. injection Hij as Hij. apply (f_equal f) in Hij.
        rewrite (proj2 (H (N.of_nat i) ltac:(lia))), (proj2 (H (N.of_nat j) ltac:(lia))) in Hij. lia.
      * rewrite (proj2 (nth_error_None (range m) j)) in Hij by (rewrite range_length; lia). discriminate.
  - assert (forall k lo, StronglySorted plt (map (fun x => (x, f x)) (map N.of_nat (seq lo k)))) as G.
    { induction k as [|k IH]; intros lo; cbn [seq map]; [constructor|]. constructor; [apply IH|]. apply Forall_forall. intros p Hp.
      apply in_map_iff in Hp as (x & <- & Hx). apply in_map_iff in Hx as (j & <- & Hj). apply in_seq in Hj. cbn. lia. }
    apply (G m 0).
  - intros p. rewrite (Permutation_in' eq_refl (sort_perm L)). unfold L. rewrite !in_map_iff. split; intros (x & <- & Hx); apply in_range in Hx; exists (f x);
      destruct (H x Hx) as [H1 H2]; rewrite H2; (split; [reflexivity|]); now apply in_range.
Qed.
Lemma pow_of_nat n : N.of_nat (2 ^ n) = (2 ^ N.of_nat n)%N.
Proof. induction n as [|n IH]; [reflexivity|]. rewrite Nat.pow_succ_r', Nat2N.inj_mul, IH, (Nat2N.inj_succ n), N.pow_succ_r by lia. reflexivity. Qed.
Lemma swap_indices_spec n ab : inr n ab -> swap_indices n ab = Ok (map (bswap n ab) (range (2 ^ n))).
Proof.
  intros H. unfold swap_indices.
  assert (forall l acc, fold_left (fun acc x => bind acc (fun rows => bind (of_opt IndexError (list_swap (binary_row n x) (fst ab) (snd ab))) (fun row => Ok (rows ++ [row_value row])))) l (Ok acc)
    = Ok (acc ++ map (bswap n ab) l)) as G.
  { induction l as [|x l IH]; intros acc; cbn [fold_left bind map]; [now rewrite app_nil_r|].
    unfold bswap at 1. destruct (list_swap_some (binary_row n x) (fst ab) (snd ab)) as (row & E); [rewrite binary_row_length; apply H..|].
    rewrite E. cbn [of_opt bind]. rewrite IH, <- app_assoc. reflexivity. }
  rewrite G. cbn [bind app]. f_equal. apply argsort_invol. intros x Hx. rewrite pow_of_nat in *. split; [now apply bswap_lt|now apply bswap_invol].
Qed.

(** ** Sequences of swaps *)
Fixpoint lswaps {A} (sw : list (nat * nat)) (l : list A) : option (list A) :=
  match sw with [] => Some l | ab :: r => match list_swap l (fst ab) (snd ab) with Some l' => lswaps r l' | None => None end end.
Lemma lswaps_app {A} sw sw' (l : list A) : lswaps (sw ++ sw') l = match lswaps sw l with Some l' => lswaps sw' l' | None => None end.
Proof. revert l. induction sw as [|ab sw IH]; intros l; cbn [app lswaps]; [reflexivity|]. destruct (list_swap l (fst ab) (snd ab)); auto. Qed.
(** [s1 (s2 (... x))] and, on the reversed list, [... (s2 (s1 x))]. *)
Fixpoint fw (n : nat) (sw : list (nat * nat)) (x : N) : N := match sw with [] => x | ab :: r => bswap n ab (fw n r x) end.
Lemma fw_app n a b x : fw n (a ++ b) x = fw n a (fw n b x).
Proof. induction a as [|ab a IH]; cbn [app fw]; [reflexivity|now rewrite IH]. Qed.
Lemma fw_lt n sw x : Forall (inr n) sw -> (x < 2 ^ N.of_nat n)%N -> (fw n sw x < 2 ^ N.of_nat n)%N.
Proof. intros H Hx. destruct H as [|ab sw Hab H]; cbn [fw]; [exact Hx|now apply bswap_lt]. Qed.
Lemma fw_rev n sw x : Forall (inr n) sw -> (x < 2 ^ N.of_nat n)%N -> fw n sw (fw n (rev sw) x) = x /\ fw n (rev sw) (fw n sw x) = x.
Proof.
  intros H. revert x. induction H as [|ab sw Hab H IH]; intros x Hx; cbn [rev fw]; [auto|]. rewrite !fw_app. cbn [fw]. split.
  - destruct (IH (bswap n ab x)) as [-> _]; [now apply bswap_lt|]. now apply bswap_invol.
  - rewrite bswap_invol by (auto using fw_lt). now apply IH.
Qed.
Lemma lswaps_row n sw x : Forall (inr n) sw -> lswaps sw (binary_row n x) = Some (binary_row n (fw n (rev sw) x)).
Proof.
  intros H. revert x. induction H as [|ab sw Hab H IH]; intros x; cbn [rev lswaps]; [reflexivity|]. rewrite bswap_row by exact Hab. rewrite IH, fw_app. reflexivity.
Qed.
Lemma list_swap_combine {A B} (l : list A) (m : list B) a b l' m' : length l = length m ->
  list_swap l a b = Some l' -> list_swap m a b = Some m' -> list_swap (combine l m) a b = Some (combine l' m').
Proof.
  intros Hl E1 E2. destruct (list_swap_nth _ _ _ _ E1) as (Ha & Hb & L1 & N1). destruct (list_swap_nth _ _ _ _ E2) as (_ & _ & L2 & N2).
  destruct (list_swap_some (combine l m) a b) as (c & Ec); [rewrite combine_length; lia..|]. rewrite Ec. f_equal. apply nth_error_ext. intros k.
  destruct (list_swap_nth _ _ _ _ Ec) as (_ & _ & _ & N). rewrite N.
  assert (G : forall (l : list A) (m : list B) k, nth_error (combine l m) k = match nth_error l k, nth_error m k with Some x, Some y => Some (x, y) | _, _ => None end).
  { clear. induction l as [|x l IH]; intros [|y m] [|k]; cbn; auto. now destruct (nth_error l k). }
  rewrite !G, N1, N2. reflexivity.
Qed.
Lemma list_swap_length {A} (l l' : list A) a b : list_swap l a b = Some l' -> length l' = length l.
Proof. intros E. now destruct (list_swap_nth _ _ _ _ E) as (_ & _ & L & _). Qed.
Lemma list_swap_in {A} (l l' : list A) a b x : list_swap l a b = Some l' -> In x l' -> In x l.
Proof.
  intros E Hx. destruct (list_swap_nth _ _ _ _ E) as (_ & _ & _ & N). apply In_nth_error in Hx as (k & Ek). rewrite N in Ek. now apply nth_error_In in Ek.
Qed.
Lemma lswaps_combine {A B} sw (l : list A) (m : list B) l' m' : length l = length m ->
  lswaps sw l = Some l' -> lswaps sw m = Some m' -> forall p, In p (combine l' m') -> In p (combine l m).
Proof.
  revert l m. induction sw as [|ab sw IH]; intros l m Hl; cbn [lswaps].
  - intros E1 E2. injection E1 as ->. injection E2 as ->. auto.
  - destruct (list_swap l (fst ab) (snd ab)) as [l1|] eqn:E1; [|discriminate]. destruct (list_swap m (fst ab) (snd ab)) as [m1|] eqn:E2; [|discriminate].
    intros H1 H2 p Hp. apply (list_swap_in _ _ _ _ p (list_swap_combine _ _ _ _ _ _ Hl E1 E2)). apply (IH l1 m1); auto.
    rewrite (list_swap_length _ _ _ _ E1), (list_swap_length _ _ _ _ E2). exact Hl.
Qed.

Lemma nth_error_firstn_lt {A} (l : list A) i j : j < i -> nth_error (firstn i l) j = nth_error l j.
Proof. revert i j. induction l as [|x l IH]; intros [|i] [|j] H; cbn; auto; try lia. apply IH. lia. Qed.
Lemma nth_error_skipn {A} (l : list A) i j : nth_error (skipn i l) j = nth_error l (i + j).
Proof. revert i. induction l as [|x l IH]; intros [|i]; cbn; auto; now destruct j. Qed.

(** ** [find_swaps] *)
Lemma find_swaps_spec new ref : Permutation new ref -> NoDup ref ->
  exists sw, find_swaps new ref = Ok sw /\ lswaps sw new = Some ref /\ Forall (inr (length ref)) sw.
Proof.
  intros HP Hn. unfold find_swaps. pose proof (Permutation_length HP) as Hlen. rewrite Hlen.
  set (step := fun acc i => bind acc (fun st : list nat * list (nat * nat) => let '(list_in, swaps) := st in
          bind (of_opt IndexError (nth_error list_in i)) (fun x =>
          bind (of_opt IndexError (nth_error ref i)) (fun r =>
          if x =? r then Ok (list_in, swaps)
          else bind (of_opt ValueError (index_from list_in r i 0)) (fun swap_idx =>
               bind (of_opt IndexError (list_swap list_in i swap_idx)) (fun list_in' =>
               Ok (list_in', swaps ++ [(i, swap_idx)]))))))).
  assert (forall k i li sw, i + k = length ref -> length li = length ref -> NoDup li -> (forall q, In q ref -> In q li) -> lswaps sw new = Some li -> Forall (inr (length ref)) sw ->
    (forall j, j < i -> nth_error li j = nth_error ref j) ->
    exists sw', fold_left step (seq i k) (Ok (li, sw)) = Ok (ref, sw') /\ lswaps sw' new = Some ref /\ Forall (inr (length ref)) sw') as G.
  { induction k as [|k IH]; intros i li sw Hik Hl Hnd Hin Hs Hr Hj; cbn [seq fold_left].
    - assert (li = ref) as ->; [|eauto]. apply nth_error_ext. intros j. destruct (Nat.lt_ge_cases j i) as [H|H]; [auto|]. rewrite !(proj2 (nth_error_None _ j)) by lia. reflexivity.
    - destruct (nth_error ref i) as [r|] eqn:Er; [|apply nth_error_None in Er; lia]. destruct (nth_error li i) as [x|] eqn:Ex; [|apply nth_error_None in Ex; lia].
      unfold step at 2. cbn [bind]. rewrite Ex, Er. cbn [of_opt bind]. destruct (Nat.eqb_spec x r) as [->|Hne].
      + apply IH; auto; [lia|]. intros j Hji. destruct (Nat.eq_dec j i) as [->|]; [congruence|]. apply Hj. lia.
      + pose proof (index_from_spec li r i 0) as Hi. destruct (index_from li r i 0) as [p|].
        * destruct Hi as (H1 & _ & H2). rewrite Nat.sub_0_r in H2. cbn [of_opt bind].
          assert (p < length li) as Hp by (apply nth_error_Some; congruence).
          destruct (list_swap_some li i p) as (li' & El); [lia|exact Hp|]. rewrite El. cbn [of_opt bind].
          destruct (list_swap_nth _ _ _ _ El) as (_ & _ & L & N).
          assert (NoDup li') as Hnd' by exact (list_swap_NoDup _ _ _ _ El Hnd).
          apply IH.
          -- lia.
          -- congruence.
          -- exact Hnd'.
          -- intros q Hq. specialize (Hin q Hq). apply In_nth_error in Hin as (j & Ej). apply (nth_error_In _ (transp i p j)). rewrite N, transp_invol. exact Ej.
          -- rewrite lswaps_app, Hs. cbn [lswaps fst snd]. rewrite El. reflexivity.
          -- apply Forall_app. split; [exact Hr|]. constructor; [|constructor]. split; cbn; lia.
          -- intros j Hji. rewrite N. unfold transp. destruct (Nat.eqb_spec j i) as [->|Hji']; [congruence|].
             destruct (Nat.eqb_spec j p) as [->|Hjp]; [lia|]. apply Hj. lia.
        * exfalso. assert (In r li) as Hrl by (apply Hin; now apply nth_error_In in Er). apply In_nth_error in Hrl as (p & Ep).
          destruct (Nat.lt_ge_cases p i) as [H|H].
          -- rewrite Hj in Ep by exact H. assert (p = i); [|lia]. apply (proj1 (NoDup_nth_error ref) Hn); [lia|congruence].
          -- apply (Hi p); [exact H|lia|]. now rewrite Nat.sub_0_r. }
  destruct (G (length ref) 0 new []) as (sw & Ef & Hs & Hr); auto.
  - apply (Permutation_NoDup (Permutation_sym HP)). exact Hn.
  - intros q Hq. apply (Permutation_in _ (Permutation_sym HP) Hq).
  - intros j Hj. lia.
  - exists sw. fold step. rewrite Ef. auto.
Qed.

(** What a list of swaps does to positions. *)
Fixpoint moved (sw : list (nat * nat)) (k : nat) : nat := match sw with [] => k | ab :: r => transp (fst ab) (snd ab) (moved r k) end.
Lemma lswaps_nth {A} sw (l l' : list A) : lswaps sw l = Some l' -> forall k, nth_error l' k = nth_error l (moved sw k).
Proof.
  revert l. induction sw as [|ab sw IH]; intros l; cbn [lswaps moved]; [intros H; now injection H as ->|].
  destruct (list_swap l (fst ab) (snd ab)) as [l1|] eqn:E1; [|discriminate]. intros H k. rewrite (IH l1 H).
  destruct (list_swap_nth _ _ _ _ E1) as (_ & _ & _ & N). apply N.
Qed.
Lemma list_swap_perm {A} (l l' : list A) a b : list_swap l a b = Some l' -> Permutation l l'.
Proof.
  intros E. destruct (list_swap_nth _ _ _ _ E) as (Ha & Hb & L & N). apply Permutation_nth_error. split; [congruence|].
  exists (transp a b). split; [intros x y H; apply (f_equal (transp a b)) in H; now rewrite !transp_invol in H|exact N].
Qed.
Lemma lswaps_perm {A} sw (l l' : list A) : lswaps sw l = Some l' -> Permutation l l'.
Proof.
  revert l. induction sw as [|ab sw IH]; intros l; cbn [lswaps]; [intros H; now injection H as ->|].
  destruct (list_swap l (fst ab) (snd ab)) as [l1|] eqn:E1; [|discriminate]. intros H. rewrite (list_swap_perm _ _ _ _ E1). auto.
Qed.
Lemma find_swaps_total new ref : length new = length ref ->
  match find_swaps new ref with
  | Ok sw => lswaps sw new = Some ref /\ Forall (inr (length ref)) sw
  | Raise ValueError => ~ Permutation new ref
  | _ => False
  end.
Proof.
  intros Hlen. unfold find_swaps. rewrite Hlen.
  set (step := fun acc i => bind acc (fun st : list nat * list (nat * nat) => let '(list_in, swaps) := st in
          bind (of_opt IndexError (nth_error list_in i)) (fun x =>
          bind (of_opt IndexError (nth_error ref i)) (fun r =>
          if x =? r then Ok (list_in, swaps)
          else bind (of_opt ValueError (index_from list_in r i 0)) (fun swap_idx =>
               bind (of_opt IndexError (list_swap list_in i swap_idx)) (fun list_in' =>
               Ok (list_in', swaps ++ [(i, swap_idx)]))))))).
  assert (forall l e, fold_left step l (Raise e) = Raise e) as Fr by (induction l; intros e; [reflexivity|apply IHl]).
  assert (forall k i li sw, i + k = length ref -> length li = length ref -> lswaps sw new = Some li -> Forall (inr (length ref)) sw ->
    (forall j, j < i -> nth_error li j = nth_error ref j) ->
    match fold_left step (seq i k) (Ok (li, sw)) with
    | Ok (l, sw') => lswaps sw' new = Some ref /\ Forall (inr (length ref)) sw'
    | Raise ValueError => ~ Permutation new ref
    | _ => False end) as G.
  { induction k as [|k IH]; intros i li sw Hik Hl Hs Hr Hj; cbn [seq fold_left].
    - assert (li = ref) as ->; [|auto]. apply nth_error_ext. intros j. destruct (Nat.lt_ge_cases j i) as [H|H]; [auto|]. rewrite !(proj2 (nth_error_None _ j)) by lia. reflexivity.
    - destruct (nth_error ref i) as [r|] eqn:Er; [|apply nth_error_None in Er; lia]. destruct (nth_error li i) as [x|] eqn:Ex; [|apply nth_error_None in Ex; lia].
      unfold step at 2. cbn [bind]. rewrite Ex, Er. cbn [of_opt bind]. destruct (Nat.eqb_spec x r) as [->|Hne].
      + apply IH; auto; [lia|]. intros j Hji. destruct (Nat.eq_dec j i) as [->|]; [congruence|]. apply Hj. lia.
      + pose proof (index_from_spec li r i 0) as Hi. destruct (index_from li r i 0) as [p|].
        * destruct Hi as (H1 & _ & H2). rewrite Nat.sub_0_r in H2. cbn [of_opt bind].
          assert (p < length li) as Hp by (apply nth_error_Some; congruence).
          destruct (list_swap_some li i p) as (li' & El); [lia|exact Hp|]. rewrite El. cbn [of_opt bind].
          destruct (list_swap_nth _ _ _ _ El) as (_ & _ & L & N).
          apply IH.
          -- lia.
          -- congruence.
          -- rewrite lswaps_app, Hs. cbn [lswaps fst snd]. rewrite El. reflexivity.
          -- apply Forall_app. split; [exact Hr|]. constructor; [|constructor]. split; cbn; lia.
          -- intros j Hji. rewrite N. unfold transp. destruct (Nat.eqb_spec j i) as [->|Hji']; [congruence|].
             destruct (Nat.eqb_spec j p) as [->|Hjp]; [lia|]. apply Hj. lia.
        * cbn [of_opt bind]. rewrite Fr. intros HP. rewrite (lswaps_perm _ _ _ Hs) in HP.
          rewrite <- (firstn_skipn i li), <- (firstn_skipn i ref) in HP.
          assert (firstn i li = firstn i ref) as Ef.
          { apply nth_error_ext. intros j. destruct (Nat.lt_ge_cases j i) as [H|H].
            - rewrite !nth_error_firstn_lt by exact H. auto.
            - rewrite !(proj2 (nth_error_None _ j)) by (rewrite firstn_length; lia). reflexivity. }
          rewrite Ef in HP. apply Permutation_app_inv_l in HP.
          assert (In r (skipn i ref)) as Hin by (apply (nth_error_In _ 0); rewrite nth_error_skipn, Nat.add_0_r; exact Er).
          apply (Permutation_in _ (Permutation_sym HP)) in Hin. apply In_nth_error in Hin as (m & Em). rewrite nth_error_skipn in Em.
          apply (Hi (i + m)); [lia|lia|]. now rewrite Nat.sub_0_r. }
  pose proof (G (length ref) 0 new [] eq_refl Hlen eq_refl (Forall_nil _)) as H. fold step.
  destruct (fold_left step (seq 0 (length ref)) (Ok (new, []))) as [[l sw]|e|]; cbn [bind snd]; apply H; intros j Hj; lia.
Qed.

(** The bit permutation described by two layouts. *)
Definition relabels (new ref : list nat) (x y : N) : Prop :=
  forall i j q, nth_error new i = Some q -> nth_error ref j = Some q -> N.testbit y (N.of_nat j) = N.testbit x (N.of_nat i).
Lemma nth_error_rev {A} (l : list A) k : k < length l -> nth_error (rev l) k = nth_error l (length l - 1 - k).
Proof.
  intros H. destruct l as [|d l0]; [cbn in H; lia|]. set (l := d :: l0) in *. rewrite (nth_error_nth' _ d) by (rewrite rev_length; exact H).
  rewrite (nth_error_nth' _ d) by lia. f_equal. rewrite rev_nth by exact H. f_equal. lia.
Qed.
Lemma nth_error_combine {A B} (l : list A) (m : list B) k : nth_error (combine l m) k = match nth_error l k, nth_error m k with Some x, Some y => Some (x, y) | _, _ => None end.
Proof. revert m k. induction l as [|x l IH]; intros [|y m] [|k]; cbn; auto. now destruct (nth_error l k). Qed.
Lemma swaps_relabel new ref sw x : NoDup new -> Permutation new ref -> lswaps sw (rev new) = Some (rev ref) -> Forall (inr (length ref)) sw ->
  relabels new ref x (fw (length ref) (rev sw) x).
Proof.
  intros Hn HP Hs Hr i j q Hi Hj. set (n := length ref) in *. set (y := fw n (rev sw) x).
  assert (length new = n) as Hl by apply (Permutation_length HP).
  assert (j < n) as Hjn by (apply nth_error_Some; congruence).
  assert (In (q, N.testbit y (N.of_nat j)) (combine (rev ref) (binary_row n y))) as H1.
  { apply (nth_error_In _ (n - 1 - j)). rewrite nth_error_combine, nth_error_rev, binary_row_nth by (fold n; lia). fold n.
    replace (n - 1 - (n - 1 - j)) with j by lia. now rewrite Hj. }
  assert (length (rev new) = length (binary_row n x)) as Hlen by (rewrite rev_length, binary_row_length; exact Hl).
  pose proof (lswaps_combine sw (rev new) (binary_row n x) (rev ref) (binary_row n y) Hlen Hs (lswaps_row n sw x Hr) _ H1) as H.
  apply In_nth_error in H as (k & Ek). rewrite nth_error_combine in Ek. destruct (nth_error (rev new) k) as [q'|] eqn:E1; [|discriminate].
  assert (k < n) as Hk by (rewrite <- Hl, <- (rev_length new); apply nth_error_Some; congruence).
  rewrite binary_row_nth in Ek by exact Hk. injection Ek as -> <-. rewrite nth_error_rev in E1 by lia. rewrite Hl in E1.
  assert (n - 1 - k = i) as ->; [|reflexivity]. apply (proj1 (NoDup_nth_error new) Hn); [lia|congruence].
Qed.
Lemma relabels_unique new ref x y y' : Permutation new ref -> (y < 2 ^ N.of_nat (length ref))%N -> (y' < 2 ^ N.of_nat (length ref))%N ->
  relabels new ref x y -> relabels new ref x y' -> y = y'.
Proof.
  intros HP Hy Hy' H H'. apply (small_ext (length ref)); auto. intros j Hj. destruct (nth_error ref j) as [q|] eqn:Ej; [|apply nth_error_None in Ej; lia].
  assert (In q new) as Hq by (apply (Permutation_in _ (Permutation_sym HP)); now apply nth_error_In in Ej). apply In_nth_error in Hq as (i & Ei).
  now rewrite (H i j q Ei Ej), (H' i j q Ei Ej).
Qed.

(** ** Vectors, matrices, distributions *)
Section Vectors.
  Context {K : Type} {C : CRing K}.
  Local Open Scope K_scope.
  Add Ring KringLay : (@rth K C).

  Lemma take_map {A} m (g : N -> A) (idx : list N) : (forall x, In x idx -> (x < N.of_nat m)%N) -> take (map g (range m)) idx = Ok (map g idx).
  Proof.
    intros H. unfold take. assert (forall acc, fold_left (fun acc i => bind acc (fun out => bind (of_opt IndexError (nth_error (map g (range m)) (N.to_nat i))) (fun x => Ok (out ++ [x])))) idx (Ok acc) = Ok (acc ++ map g idx)) as G.
    { induction idx as [|i idx IH]; intros acc; cbn [fold_left bind map]; [now rewrite app_nil_r|].
      rewrite nth_error_map, range_nth by (specialize (H i (or_introl eq_refl)); lia). cbn [option_map of_opt bind]. rewrite N2Nat.id, IH, <- app_assoc; [reflexivity|].
      intros x Hx. apply H. now right. }
    apply (G []).
  Qed.
  Lemma apply_swaps_spec n sw (g : N -> K) : Forall (inr n) sw ->
    apply_swaps n sw (map g (range (2 ^ n))) = Ok (map (fun x => g (fw n sw x)) (range (2 ^ n))).
  Proof.
    intros H. revert g. induction H as [|ab sw Hab H IH]; intros g; unfold apply_swaps; cbn [fold_left bind]; [reflexivity|].
    rewrite swap_indices_spec by exact Hab. cbn [bind]. rewrite take_map.
    - rewrite map_map. apply (IH (fun x => g (bswap n ab x))).
    - intros x Hx. apply in_map_iff in Hx as (y & <- & _). rewrite pow_of_nat. now apply bswap_lt.
  Qed.

  Definition get0 (d : distribution K) (x : N) : K := match dict_get d x with Some v => v | None => 0 end.
  Lemma upd_map_range m (g : N -> K) k v : (k < N.of_nat m)%N -> upd (map g (range m)) (N.to_nat k) v = map (fun x => if (x =? k)%N then v else g x) (range m).
  Proof.
    intros Hk. apply nth_error_ext. intros j. rewrite nth_error_upd, map_length, range_length, !nth_error_map.
    replace (N.to_nat k <? m)%nat with true by (symmetry; apply Nat.ltb_lt; lia). rewrite andb_true_r.
    destruct (Nat.lt_ge_cases j m) as [Hj|Hj].
    - rewrite range_nth by exact Hj. cbn [option_map]. destruct (Nat.eqb_spec j (N.to_nat k)) as [->|Hne]; [rewrite N2Nat.id, N.eqb_refl; reflexivity|].
      destruct (N.eqb_spec (N.of_nat j) k) as [E|_]; [lia|reflexivity].
    - rewrite (proj2 (nth_error_None (range m) j)) by (rewrite range_length; lia). cbn [option_map]. destruct (Nat.eqb_spec j (N.to_nat k)); [lia|reflexivity].
  Qed.
  Lemma repeat_map_range m : repeat (0 : K) m = map (fun _ => 0) (range m).
  Proof. unfold range. rewrite map_map. generalize 0%nat. induction m as [|m IH]; intros lo; cbn; [reflexivity|now rewrite <- IH]. Qed.
  Lemma to_vector_spec m (dist : distribution K) : NoDup (map fst dist) -> (forall k v, In (k, v) dist -> (k < N.of_nat m)%N) ->
    to_vector m dist = Ok (map (get0 dist) (range m)).
  Proof.
    intros Hn Hlt. unfold to_vector. rewrite repeat_map_range.
    assert (forall g, fold_left (fun acc kp => bind acc (fun v => if (fst kp <? N.of_nat m)%N then Ok (upd v (N.to_nat (fst kp)) (snd kp)) else Raise IndexError)) dist (Ok (map g (range m)))
      = Ok (map (fun x => match dict_get dist x with Some v => v | None => g x end) (range m))) as G; [|apply G].
    induction dist as [|[k v] dist IH]; intros g; cbn [fold_left bind fst snd dict_get]; [reflexivity|].
    rewrite (proj2 (N.ltb_lt _ _)) by (apply (Hlt k v); now left). cbn [bind]. rewrite upd_map_range by (apply (Hlt k v); now left).
    cbn [map fst] in Hn. inversion_clear Hn as [|? ? Hk Hn']. rewrite IH; [|exact Hn'|intros k' v' Hi; apply (Hlt k' v'); now right].
    f_equal. apply map_ext. intros x. rewrite (N.eqb_sym k x). destruct (N.eqb_spec x k) as [->|_]; [|reflexivity].
    assert (dict_get dist k = None) as ->; [|reflexivity]. clear - Hk. induction dist as [|[a b] dist IH]; cbn [map fst dict_get] in *; [reflexivity|].
    destruct (N.eqb_spec a k) as [->|]; [exfalso; apply Hk; now left|]. apply IH. intros H. apply Hk. now right.
  Qed.

  (** Matrices as functions. *)
  Definition is_matrix (m : nat) (M : list (list K)) (F : N -> N -> K) : Prop := M = map (fun x => map (F x) (range m)) (range m).
  Definition entry (M : list (list K)) (r c : N) : K := nth (N.to_nat c) (nth (N.to_nat r) M []) 0.
  Definition square (m : nat) (M : list (list K)) : Prop := length M = m /\ Forall (fun row => length row = m) M.
  Lemma square_is_matrix m M : square m M -> is_matrix m M (entry M).
  Proof.
    intros [H1 H2]. unfold is_matrix. apply nth_error_ext. intros r. rewrite nth_error_map. destruct (Nat.lt_ge_cases r m) as [Hr|Hr].
    - rewrite range_nth by exact Hr. cbn [option_map]. rewrite (nth_error_nth' M []) by lia. f_equal. rewrite Forall_forall in H2.
      assert (r < length M)%nat as HrM by lia. specialize (H2 (nth r M []) (nth_In M [] HrM)). apply nth_error_ext. intros c. rewrite nth_error_map. destruct (Nat.lt_ge_cases c m) as [Hc|Hc].
      + rewrite range_nth by exact Hc. cbn [option_map]. rewrite (nth_error_nth' _ 0) by lia. unfold entry. now rewrite !Nat2N.id.
      + rewrite (proj2 (nth_error_None (range m) c)) by (rewrite range_length; lia). apply nth_error_None. lia.
    - rewrite (proj2 (nth_error_None (range m) r)) by (rewrite range_length; lia). apply nth_error_None. lia.
  Qed.
  Definition sumr (m : nat) (f : N -> K) : K := ksum (map f (range m)).
  Lemma dot_map m (f g : N -> K) : dot (map f (range m)) (map g (range m)) = sumr m (fun x => f x * g x).
  Proof.
    unfold dot, sumr. f_equal. generalize (range m). intros l. induction l as [|x l IH]; cbn [map combine]; [reflexivity|]. cbn [fst snd]. now rewrite IH.
  Qed.
  Lemma matvec_spec m F (g : N -> K) : matvec (map (fun x => map (F x) (range m)) (range m)) (map g (range m)) = Ok (map (fun x => sumr m (fun y => F x y * g y)) (range m)).
  Proof.
    unfold matvec.
    assert (forall l, forallb (fun row : list K => (length row =? length (map g (range m)))%nat) (map (fun x => map (F x) (range m)) l) = true) as G.
    { induction l as [|x l IH]; cbn [map forallb]; [reflexivity|]. rewrite IH, !map_length, Nat.eqb_refl. reflexivity. }
    rewrite G, map_map. f_equal. apply map_ext. intros x. apply dot_map.
  Qed.
  Lemma ksum_perm (l l' : list K) : Permutation l l' -> ksum l = ksum l'.
  Proof. induction 1; cbn; try ring; [rewrite IHPermutation; ring|congruence]. Qed.
  Lemma sumr_ext m (f g : N -> K) : (forall x, (x < N.of_nat m)%N -> f x = g x) -> sumr m f = sumr m g.
  Proof. intros H. unfold sumr. f_equal. apply map_ext_in. intros x Hx. apply H. now apply in_range. Qed.
  Lemma sumr_reindex m (p q : N -> N) (f : N -> K) : (forall x, (x < N.of_nat m)%N -> (p x < N.of_nat m)%N /\ (q x < N.of_nat m)%N /\ p (q x) = x /\ q (p x) = x) ->
    sumr m (fun x => f (p x)) = sumr m f.
  Proof.
    intros H. unfold sumr. rewrite <- (map_map p f). apply ksum_perm, Permutation_map. apply NoDup_Permutation.
    - apply NoDup_nth_error. intros i j Hi Hij. rewrite map_length, range_length in Hi. rewrite !nth_error_map, range_nth in Hij by exact Hi.
      destruct (Nat.lt_ge_cases j m) as [Hj|Hj]; [|rewrite (proj2 (nth_error_None (range m) j)) in Hij by (rewrite range_length; lia); discriminate].
      rewrite range_nth in Hij by exact Hj. cbn in Hij. injection Hij as Hij. apply (f_equal q) in Hij.
      destruct (H (N.of_nat i) ltac:(lia)) as (_ & _ & _ & Q1), (H (N.of_nat j) ltac:(lia)) as (_ & _ & _ & Q2). rewrite Q1, Q2 in Hij. lia.
    - apply range_NoDup.
    - intros x. rewrite in_map_iff, in_range. split.
      + intros (y & <- & Hy). apply in_range in Hy. now apply H.
      + intros Hx. destruct (H x Hx) as (_ & H1 & H2 & _). exists (q x). split; [exact H2|]. now apply in_range.
  Qed.
  Lemma sumr_scal m c (f : N -> K) : sumr m (fun x => c * f x) = c * sumr m f.
  Proof. unfold sumr. induction (range m) as [|x l IH]; cbn [map ksum]; [ring|rewrite IH; ring]. Qed.
  Lemma sumr_add m (f g : N -> K) : sumr m (fun x => f x + g x) = sumr m f + sumr m g.
  Proof. unfold sumr. induction (range m) as [|x l IH]; cbn [map ksum]; [ring|rewrite IH; ring]. Qed.
  Lemma sumr_comm m m' (f : N -> N -> K) : sumr m (fun x => sumr m' (f x)) = sumr m' (fun y => sumr m (fun x => f x y)).
  Proof.
    unfold sumr at 1. induction (range m) as [|x l IH] eqn:E in m |- *.
    - destruct m; [|discriminate]. unfold sumr at 2. cbn. unfold sumr. clear. induction (range m') as [|y l IH]; cbn [map ksum]; [reflexivity|]. rewrite <- IH. cbn. ring.
    - clear IH. assert (forall l, ksum (map (fun x => sumr m' (f x)) l) = sumr m' (fun y => ksum (map (fun x => f x y) l))) as G.
      { clear. induction l as [|a l IH]; cbn [map ksum].
        - unfold sumr. induction (range m') as [|y l IH]; cbn [map ksum]; [reflexivity|]. rewrite <- IH. ring.
        - rewrite IH. symmetry. apply (sumr_add m' (f a) (fun y => ksum (map (fun x => f x y) l))). }
      rewrite G. unfold sumr. now rewrite E.
  Qed.
  Lemma sumr_delta m a (f : N -> K) : (a < N.of_nat m)%N -> sumr m (fun x => (if (x =? a)%N then 1 else 0) * f x) = f a.
  Proof.
    intros Ha. unfold sumr. assert (In a (range m)) as Hi by now apply in_range. pose proof (range_NoDup m) as Hn. revert Hi Hn.
    induction (range m) as [|x l IH]; cbn [In map ksum]; intros Hi Hn; [destruct Hi|]. inversion_clear Hn as [|? ? Hx Hn'].
    destruct Hi as [->|Hi].
    - rewrite N.eqb_refl. assert (ksum (map (fun x => (if (x =? a)%N then 1 else 0) * f x) l) = 0) as ->; [|ring].
      clear - Hx. induction l as [|y l IH]; cbn [map ksum]; [reflexivity|]. rewrite IH by (intros H; apply Hx; now right).
      destruct (N.eqb_spec y a) as [->|]; [exfalso; apply Hx; now left|]. ring.
    - rewrite IH by assumption. destruct (N.eqb_spec x a) as [->|]; [contradiction|]. ring.
  Qed.

  Lemma dict_set_get (d : distribution K) k v x : dict_get (dict_set d k v) x = if (k =? x)%N then Some v else dict_get d x.
  Proof.
    induction d as [|[a w] d IH]; cbn [dict_set dict_get]; [reflexivity|]. destruct (N.eqb_spec a k) as [->|Ha]; cbn [dict_get].
    - destruct (N.eqb_spec k x); reflexivity.
    - rewrite IH. destruct (N.eqb_spec a x) as [->|]; [|reflexivity]. destruct (N.eqb_spec k x); [congruence|reflexivity].
  Qed.
  Lemma store_get m (d : distribution K) (g : N -> K) x : dict_get (store d (map g (range m))) x = if (x <? N.of_nat m)%N then Some (g x) else dict_get d x.
  Proof.
    unfold store. rewrite map_length, range_length.
    assert (forall l d, dict_get (fold_left (fun d kp => dict_set d (fst kp) (snd kp)) (combine l (map g l)) d) x = if existsb (N.eqb x) l then Some (g x) else dict_get d x) as G.
    { induction l as [|y l IH]; intros d'; cbn [map combine fold_left existsb fst snd]; [reflexivity|]. rewrite IH, dict_set_get.
      rewrite (N.eqb_sym x y). destruct (N.eqb_spec y x) as [->|]; cbn [orb]; [now destruct (existsb (N.eqb x) l)|reflexivity]. }
    rewrite G. assert (existsb (N.eqb x) (range m) = (x <? N.of_nat m)%N) as ->; [|reflexivity].
    apply eq_true_iff_eq. rewrite existsb_exists, N.ltb_lt. split.
    - intros (y & Hy & E). apply N.eqb_eq in E as ->. now apply in_range.
    - intros H. exists x. rewrite N.eqb_refl. split; [now apply in_range|reflexivity].
  Qed.
  Lemma store_keys m (d : distribution K) (g : N -> K) : (forall k v, In (k, v) d -> (k < N.of_nat m)%N) -> forall x,
    (exists v, dict_get (store d (map g (range m))) x = Some v) <-> (x < N.of_nat m)%N.
  Proof.
    intros H x. rewrite store_get. destruct (N.ltb_spec x (N.of_nat m)) as [Hx|Hx]; [split; eauto|]. split; [|lia].
    intros (v & Ev). exfalso. assert (In (x, v) d) as Hi; [|apply H in Hi; lia].
    clear - Ev. induction d as [|[a w] d IH]; cbn [dict_get] in Ev; [discriminate|]. destruct (N.eqb_spec a x) as [->|]; [injection Ev as ->; now left|right; auto].
  Qed.

  Lemma v2_spec n (dist : distribution K) M ref new : length ref = n -> square (2 ^ n) M -> NoDup new -> Permutation new ref -> NoDup (map fst dist) ->
    (forall k v, In (k, v) dist -> (k < N.of_nat (2 ^ n))%N) ->
    exists sw, find_swaps (rev new) (rev ref) = Ok sw /\ Forall (inr n) sw /\ lswaps sw (rev new) = Some (rev ref) /\
      correct_distribution_with_layout_v2 dist M ref new = Ok (store dist (map (fun x => sumr (2 ^ n) (fun y => entry M (fw n (rev sw) x) (fw n (rev sw) y) * get0 dist y)) (range (2 ^ n)))).
  Proof.
    intros Hn HM Hnd HP Hd Hlt.
    assert (Permutation (rev new) (rev ref)) as HP' by (rewrite <- !Permutation_rev; exact HP).
    assert (NoDup (rev ref)) as Hnr by (apply NoDup_rev, (Permutation_NoDup HP Hnd)).
    destruct (find_swaps_spec (rev new) (rev ref) HP' Hnr) as (sw & Ef & Hs & Hr). rewrite rev_length, Hn in Hr.
    exists sw. split; [exact Ef|]. split; [exact Hr|]. split; [exact Hs|].
    unfold correct_distribution_with_layout_v2. rewrite Ef, Hn. cbn [bind]. rewrite (proj1 HM), to_vector_spec by assumption. cbn [bind].
    rewrite apply_swaps_spec by exact Hr. cbn [bind]. pose proof (square_is_matrix _ _ HM) as EM. unfold is_matrix in EM. set (F := entry M) in *. clearbody F.
    rewrite EM, matvec_spec. cbn [bind].
    rewrite apply_swaps_spec by (apply Forall_rev; exact Hr). cbn [bind]. do 2 f_equal. apply map_ext_in. intros x _.
    rewrite <- (sumr_reindex (2 ^ n) (fw n (rev sw)) (fw n sw)).
    - apply sumr_ext. intros y Hy. rewrite pow_of_nat in Hy. now rewrite (proj1 (fw_rev n sw y Hr Hy)).
    - intros y Hy. rewrite pow_of_nat in *. destruct (fw_rev n sw y Hr Hy) as [H1 H2]. repeat split; auto using fw_lt, Forall_rev.
  Qed.

  Lemma correct_spec m (dist : distribution K) M : square m M -> NoDup (map fst dist) -> (forall k v, In (k, v) dist -> (k < N.of_nat m)%N) ->
    correct_distribution dist M = Ok (map (fun kp => (fst kp, sumr m (fun y => entry M (fst kp) y * get0 dist y))) dist).
  Proof.
    intros HM Hd Hlt. unfold correct_distribution. rewrite (proj1 HM), to_vector_spec by assumption. cbn [bind].
    pose proof (square_is_matrix _ _ HM) as EM. unfold is_matrix in EM. set (F := entry M) in *. clearbody F. rewrite EM, matvec_spec. cbn [bind]. f_equal. apply map_ext_in. intros [k v] Hi. cbn [fst]. f_equal.
    apply nth_error_nth. rewrite nth_error_map, range_nth by (specialize (Hlt k v Hi); lia). cbn [option_map]. now rewrite N2Nat.id.
  Qed.

  Lemma take_matrix_spec m F (p : N -> N) : (forall x, (x < N.of_nat m)%N -> (p x < N.of_nat m)%N) ->
    take_matrix (map (fun x => map (F x) (range m)) (range m)) (map p (range m)) = Ok (map (fun x => map (fun y => F (p x) (p y) : K) (range m)) (range m)).
  Proof.
    intros H. assert (forall x, In x (map p (range m)) -> (x < N.of_nat m)%N) as Hp by (intros x Hx; apply in_map_iff in Hx as (y & <- & Hy); apply H; now apply in_range).
    unfold take_matrix. rewrite take_map by exact Hp. cbn [bind]. rewrite map_map.
    assert (forall l acc, fold_left (fun acc row => bind acc (fun out => bind (take row (map p (range m))) (fun r => Ok (out ++ [r])))) (map (fun x => map (F (p x)) (range m)) l) (Ok acc)
      = Ok (acc ++ map (fun x => map (fun y => F (p x) (p y)) (range m)) l)) as G.
    { induction l as [|x l IH]; intros acc; cbn [map fold_left bind]; [now rewrite app_nil_r|]. rewrite take_map by exact Hp. cbn [bind]. rewrite IH, <- app_assoc, map_map. reflexivity. }
    apply (G _ []).
  Qed.
  Lemma v1_spec n inv (dist : distribution K) M ref new sw : length ref = n -> square (2 ^ n) M -> find_swaps (rev new) (rev ref) = Ok sw -> Forall (inr n) sw ->
    NoDup (map fst dist) -> (forall k v, In (k, v) dist -> (k < N.of_nat (2 ^ n))%N) ->
    forall d, correct_distribution_with_layout inv dist M ref new = Ok d ->
    exists W, inv (map (fun x => map (fun y => entry M (fw n sw x) (fw n sw y)) (range (2 ^ n))) (range (2 ^ n))) = Ok W /\ (square (2 ^ n) W ->
    d = store dist (map (fun x => sumr (2 ^ n) (fun y => entry W x y * get0 dist y)) (range (2 ^ n)))).
  Proof.
    intros Hn HM Ef Hr Hd Hlt d. unfold correct_distribution_with_layout. rewrite Ef, Hn. cbn [bind].
    assert (forall F, fold_left (fun acc swap => bind acc (fun M => bind (swap_indices n swap) (fun idx => take_matrix M idx))) sw (Ok (map (fun x => map (F x) (range (2 ^ n))) (range (2 ^ n))))
      = Ok (map (fun x => map (fun y => F (fw n sw x) (fw n sw y) : K) (range (2 ^ n))) (range (2 ^ n)))) as G.
    { clear - Hr. induction Hr as [|ab sw Hab Hr IH]; intros F; cbn [fold_left bind]; [reflexivity|]. rewrite swap_indices_spec by exact Hab. cbn [bind].
      rewrite take_matrix_spec by (intros x Hx; rewrite pow_of_nat; now apply bswap_lt). apply (IH (fun x y => F (bswap n ab x) (bswap n ab y))). }
    pose proof (square_is_matrix _ _ HM) as EM. unfold is_matrix in EM. set (F := entry M) in *. clearbody F. rewrite EM, G. cbn [bind].
    destruct (inv _) as [W| |] eqn:EW; try discriminate. cbn [bind]. rewrite map_length, range_length, to_vector_spec by assumption. cbn [bind]. intros Hd'.
    exists W. split; [reflexivity|]. intros HW. pose proof (square_is_matrix _ _ HW) as EW'. unfold is_matrix in EW'. set (F' := entry W) in *. clearbody F'.
    rewrite EW', matvec_spec in Hd'. cbn [bind] in Hd'. injection Hd' as <-. reflexivity.
  Qed.
End Vectors.

(** ** Calibration circuits and the calibration matrix *)
Section Calibration.
  Context {K : Type} {C : CRing K}.
  Local Open Scope K_scope.
  Add Ring KringCal : (@rth K C).
  Add Ring KringCalC : (@rth (K * K) Cx_CRing).

  Lemma x_gate (s2 : K) q (psi : qstate) x : gate_sem s2 (GX q) psi x = psi (flip x q).
  Proof.
    cbn [gate_sem]. unfold app1q, mX, setq. destruct (occ x q); cbn [Bool.eqb]; ring.
  Qed.
  Lemma run_calibration (s2 : K) bits lo (psi : qstate) x :
    exists y, run s2 (flat_map (fun ib : nat * bool => if snd ib then [GX (fst ib)] else []) (combine (seq lo (length bits)) bits)) psi x = psi y /\
      forall q, occ y q = xorb (occ x q) ((lo <=? q) && nth (q - lo) bits false)%nat.
  Proof.
    revert lo psi x. induction bits as [|b bits IH]; intros lo psi x; cbn [length seq combine flat_map fst snd].
    - exists x. split; [reflexivity|]. intros q. destruct (q - lo)%nat; cbn [nth]; rewrite andb_false_r; now destruct (occ x q).
    - rewrite run_app. destruct (IH (S lo) (run s2 (if b then [GX lo] else []) psi) x) as (y & Ey & Hy). rewrite Ey.
      assert (forall q, occ y q = xorb (occ x q) ((S lo <=? q) && nth (q - S lo) bits false)%nat) as Hy' by exact Hy. clear Ey Hy IH.
      destruct b.
      + exists (flip y lo). split; [cbn [run fold_left]; apply x_gate|]. intros q. destruct (Nat.eq_dec q lo) as [->|Hne].
        * rewrite occ_flip_same, Hy'. replace (S lo <=? lo)%nat with false by (symmetry; apply Nat.leb_gt; lia). rewrite Nat.leb_refl, Nat.sub_diag. cbn [andb nth]. now destruct (occ x lo).
        * rewrite occ_flip_other by congruence. rewrite Hy'. f_equal. destruct (Nat.leb_spec lo q) as [Hl|Hl].
          -- replace (S lo <=? q)%nat with true by (symmetry; apply Nat.leb_le; lia). replace (q - lo)%nat with (S (q - S lo)) by lia. reflexivity.
          -- replace (S lo <=? q)%nat with false by (symmetry; apply Nat.leb_gt; lia). reflexivity.
      + exists y. split; [reflexivity|]. intros q. rewrite Hy'. f_equal. destruct (Nat.leb_spec lo q) as [Hl|Hl].
        * destruct (Nat.eq_dec q lo) as [->|Hne].
          -- replace (S lo <=? lo)%nat with false by (symmetry; apply Nat.leb_gt; lia). now rewrite Nat.sub_diag.
          -- replace (S lo <=? q)%nat with true by (symmetry; apply Nat.leb_le; lia). replace (q - lo)%nat with (S (q - S lo)) by lia. reflexivity.
        * replace (S lo <=? q)%nat with false by (symmetry; apply Nat.leb_gt; lia). reflexivity.
  Qed.
  Lemma calibration_state (s2 : K) n nr x : (nr < 2 ^ N.of_nat n)%N ->
    run s2 (calibration_circuit n [] nr) zero_state x = if (x =? nr)%N then 1 else 0.
  Proof.
    intros Hnr. unfold calibration_circuit, product_bits. cbn [app]. set (bits := rev (binary_row n nr)).
    assert (length bits = n) as Hl by (unfold bits; rewrite rev_length; apply binary_row_length).
    rewrite <- Hl. destruct (run_calibration s2 bits 0 zero_state x) as (y & -> & Hy). unfold zero_state.
    assert (forall q, nth q bits false = occ nr q) as Hb.
    { intros q. unfold occ. destruct (Nat.lt_ge_cases q n) as [Hq|Hq].
      - apply nth_error_nth. unfold bits. rewrite nth_error_rev by (rewrite binary_row_length; exact Hq). rewrite binary_row_length, binary_row_nth by lia. do 3 f_equal. lia.
      - rewrite nth_overflow by lia. symmetry. apply (small_bit n); [exact Hnr|lia]. }
    assert (forall q, occ y q = xorb (occ x q) (occ nr q)) as Hy' by (intros q; rewrite Hy, Nat.sub_0_r, Hb; reflexivity).
    destruct (N.eqb_spec x nr) as [->|Hne].
    - assert (y = 0%N) as ->; [|reflexivity]. apply det_ext. intros q. rewrite Hy', xorb_nilpotent. unfold occ. now rewrite N.bits_0.
    - destruct (N.eqb_spec y 0) as [E|_]; [|reflexivity]. exfalso. apply Hne. apply det_ext. intros q. specialize (Hy' q). rewrite E in Hy'.
      unfold occ at 1 in Hy'. rewrite N.bits_0 in Hy'. now destruct (occ x q), (occ nr q).
  Qed.

  (** Matrices are determined by their entries. *)
  Notation mat m F := (map (fun x => map (F x) (range m)) (range m)).
  Lemma set_entry_spec m (F : N -> N -> K) r c v : (r < N.of_nat m)%N -> (c < N.of_nat m)%N ->
    set_entry (mat m F) r c v = Ok (mat m (fun x y => if ((x =? r) && (y =? c))%N then v else F x y)).
  Proof.
    intros Hr Hc. unfold set_entry. rewrite nth_error_map, range_nth by lia. cbn [option_map]. rewrite map_length, range_length.
    replace (N.to_nat c <? m)%nat with true by (symmetry; apply Nat.ltb_lt; lia). f_equal. rewrite N2Nat.id, (upd_map_range m (F r) c v) by exact Hc.
    apply nth_error_ext. intros j. rewrite nth_error_upd, map_length, range_length, !nth_error_map.
    replace (N.to_nat r <? m)%nat with true by (symmetry; apply Nat.ltb_lt; lia). rewrite andb_true_r.
    destruct (Nat.lt_ge_cases j m) as [Hj|Hj].
    - rewrite range_nth by exact Hj. cbn [option_map]. destruct (Nat.eqb_spec j (N.to_nat r)) as [->|Hne].
      + rewrite N2Nat.id, N.eqb_refl. reflexivity.
      + destruct (N.eqb_spec (N.of_nat j) r) as [E|_]; [lia|]. reflexivity.
    - rewrite (proj2 (nth_error_None (range m) j)) by (rewrite range_length; lia). cbn [option_map]. destruct (Nat.eqb_spec j (N.to_nat r)); [lia|reflexivity].
  Qed.
  Lemma mat_ext m (F G : N -> N -> K) : (forall x y, (x < N.of_nat m)%N -> (y < N.of_nat m)%N -> F x y = G x y) -> mat m F = mat m G.
  Proof. intros H. apply map_ext_in. intros x Hx. apply map_ext_in. intros y Hy. apply in_range in Hx, Hy. auto. Qed.
  Lemma column_spec m (F : N -> N -> K) c (P : distribution K) : (c < N.of_nat m)%N -> NoDup (map fst P) -> (forall k v, In (k, v) P -> (k < N.of_nat m)%N) ->
    fold_left (fun acc rp => bind acc (fun M => set_entry M (fst rp) c (snd rp))) P (Ok (mat m F)) =
    Ok (mat m (fun x y => if (y =? c)%N then match dict_get P x with Some v => v | None => F x y end else F x y)).
  Proof.
    intros Hc. revert F. induction P as [|[k v] P IH]; intros F Hn Hlt; cbn [fold_left bind fst snd dict_get].
    - f_equal. apply mat_ext. intros x y _ _. now destruct (y =? c)%N.
    - rewrite set_entry_spec by (try exact Hc; apply (Hlt k v); now left). cbn [map fst] in Hn. inversion_clear Hn as [|? ? Hk Hn'].
      rewrite IH; [|exact Hn'|intros k' v' Hi; apply (Hlt k' v'); now right]. f_equal. apply mat_ext. intros x y _ _.
      destruct (y =? c)%N; [|now rewrite andb_false_r]. rewrite andb_true_r, (N.eqb_sym k x). destruct (N.eqb_spec x k) as [->|]; [|reflexivity].
      assert (dict_get P k = None) as ->; [|reflexivity]. clear - Hk. induction P as [|[a b] P IH]; cbn [map fst dict_get] in *; [reflexivity|].
      destruct (N.eqb_spec a k) as [->|]; [exfalso; apply Hk; now left|]. apply IH. intros H. apply Hk. now right.
  Qed.
  Lemma make_M_spec n (P : N -> distribution K) : (forall c, NoDup (map fst (P c))) -> (forall c k v, In (k, v) (P c) -> (k < N.of_nat (2 ^ n))%N) ->
    make_M n (map P (range (2 ^ n))) = Ok (mat (2 ^ n) (fun r c => get0 (P c) r)).
  Proof.
    intros Hn Hlt. unfold make_M. rewrite map_length, range_length. set (m := (2 ^ n)%nat) in *.
    assert (repeat (repeat 0 m) m = mat m (fun _ _ => 0 : K)) as ->.
    { rewrite repeat_map_range. generalize (map (fun _ : N => 0 : K) (range m)). intros row. unfold range. rewrite map_map. generalize 0%nat, m.
      intros lo k. revert lo. induction k as [|k IH]; intros lo; cbn; [reflexivity|now rewrite <- IH]. }
    assert (forall l F, (forall c, In c l -> (c < N.of_nat m)%N) ->
      fold_left (fun acc cP => bind acc (fun M => fold_left (fun acc rp => bind acc (fun M => set_entry M (fst rp) (fst cP) (snd rp))) (snd cP) (Ok M))) (combine l (map P l)) (Ok (mat m F))
      = Ok (mat m (fun x y => if existsb (N.eqb y) l then match dict_get (P y) x with Some v => v | None => F x y end else F x y))) as G.
    { induction l as [|c l IH]; intros F Hl; cbn [map combine fold_left bind fst snd existsb]; [reflexivity|].
      rewrite (column_spec m F c (P c) (Hl c (or_introl eq_refl)) (Hn c) (Hlt c)). rewrite IH by (intros c' Hc'; apply Hl; now right). f_equal. apply mat_ext. intros x y _ _.
      destruct (N.eqb_spec y c) as [->|]; cbn [orb]; [|reflexivity]. destruct (existsb (N.eqb c) l), (dict_get (P c) x); reflexivity. }
    rewrite G by (intros c Hc; now apply in_range). f_equal. apply mat_ext. intros x y _ Hy.
    assert (existsb (N.eqb y) (range m) = true) as ->; [|reflexivity]. apply existsb_exists. exists y. rewrite N.eqb_refl. split; [now apply in_range|reflexivity].
  Qed.
  Lemma mat_square m (F : N -> N -> K) : square m (mat m F).
  Proof.
    split; [now rewrite map_length, range_length|]. apply Forall_forall. intros row Hr. apply in_map_iff in Hr as (x & <- & _). now rewrite map_length, range_length.
  Qed.
  Lemma mat_entry m (F : N -> N -> K) r c : (r < N.of_nat m)%N -> (c < N.of_nat m)%N -> entry (mat m F) r c = F r c.
  Proof.
    intros Hr Hc. unfold entry. assert (nth (N.to_nat r) (mat m F) [] = map (F r) (range m)) as ->.
    { apply nth_error_nth. rewrite nth_error_map, range_nth by lia. cbn [option_map]. now rewrite N2Nat.id. }
    apply nth_error_nth. rewrite nth_error_map, range_nth by lia. cbn [option_map]. now rewrite N2Nat.id.
  Qed.
End Calibration.

(** ** Routing on connected maps *)
Section Connected.
  Variable E : list (nat * nat).
  Variable n : nat.
  Hypothesis Hin : forall a b, adjE E a b -> a < n /\ b < n.
  Hypothesis Hconn : forall a b, a < n -> b < n -> exists k, wk E a b k.
  Lemma chain_in w t : chain E (w ++ [t]) -> t < n -> forall v, In v (w ++ [t]) -> v < n.
  Proof.
    induction w as [|a w IH]; cbn [app]; intros Hc Ht v Hv; [destruct Hv as [<-|[]]; exact Ht|].
    destruct w as [|b w]; cbn [app] in *; cbn [chain] in Hc; destruct Hc as [Ha Hc]; (destruct Hv as [<-|Hv]; [now apply Hin in Ha|auto]).
  Qed.
  Lemma perm_sane perm : Permutation perm (seq 0 n) -> sane n perm.
  Proof.
    intros H. constructor; [rewrite (Permutation_length H); apply seq_length|apply (Permutation_NoDup (Permutation_sym H)), seq_NoDup|].
    intros q Hq. apply (Permutation_in _ (Permutation_sym H)), in_seq. lia.
  Qed.
  Variable perm : list nat.
  Hypothesis Hperm : Permutation perm (seq 0 n).
  Lemma place_connected sw cur t : Permutation cur (seq 0 n) -> t < n -> exists sw' cur', place E perm (sw, cur) t = Ok (sw', cur') /\ Permutation cur' (seq 0 n).
  Proof.
    intros HP Ht. unfold place. assert (length perm = n) as Lp by (rewrite (Permutation_length Hperm); apply seq_length).
    assert (length cur = n) as Lc by (rewrite (Permutation_length HP); apply seq_length).
    destruct (nth_error perm t) as [q|] eqn:Eq; [|apply nth_error_None in Eq; lia]. cbn [of_opt bind snd].
    assert (In q cur) as Hq by (apply (Permutation_in _ (Permutation_sym HP)), (Permutation_in _ Hperm); now apply nth_error_In in Eq).
    pose proof (index_from_spec cur q 0 0) as Hi. destruct (index_from cur q 0 0) as [p|].
    2: { exfalso. apply In_nth_error in Hq as (k & Ek). apply (Hi k); [lia|lia|]. now rewrite Nat.sub_0_r. }
    destruct Hi as (_ & _ & Hp). rewrite Nat.sub_0_r in Hp. cbn [of_opt bind].
    assert (p < n) as Hpn by (rewrite <- Lc; apply nth_error_Some; congruence).
    destruct (Nat.eqb_spec p t) as [->|Hne]; [eauto|]. pose proof (find_best_path_spec E p t) as Hs.
    destruct (Hconn p t Hpn Ht) as (k & Hk). destruct (find_best_path E p t) as [path|[]|]; try (destruct Hs; fail); [|exfalso; exact (Hs k Hk)].
    cbn [bind]. destruct Hs as (w & -> & Hc & _). pose proof (chain_in w t Hc Ht) as Hv.
    destruct (w ++ [t]) as [|v0 l] eqn:Ew; [destruct w; discriminate|]. clear Ew Hc. revert v0 sw cur HP Lc Hq Hp Hv. induction l as [|v1 l IH]; intros v0 sw cur HP Lc Hq Hp Hv.
    - exists sw, cur. auto.
    - rewrite swap_path_cons. destruct (list_swap_some cur v0 v1) as (c1 & E1); [rewrite Lc; apply Hv; cbn; auto..|]. rewrite E1.
      pose proof (list_swap_perm _ _ _ _ E1) as HP1. clear Hp.
      assert (forall sw cur, Permutation cur (seq 0 n) -> forall l v0, (forall v, In v (v0 :: l) -> v < n) -> exists sw' cur', swap_path (v0 :: l) (sw, cur) = Ok (sw', cur') /\ Permutation cur' (seq 0 n)) as G.
      { clear. intros sw cur HP l. revert sw cur HP. induction l as [|v1 l IH]; intros sw cur HP v0 Hv; [exists sw, cur; auto|].
        rewrite swap_path_cons. assert (length cur = n) as Lc by (rewrite (Permutation_length HP); apply seq_length).
        destruct (list_swap_some cur v0 v1) as (c1 & E1); [rewrite Lc; apply Hv; cbn; auto..|]. rewrite E1. apply IH; [|intros v Hi; apply Hv; now right].
        now rewrite <- (list_swap_perm _ _ _ _ E1). }
      apply G; [now rewrite <- HP1|]. intros v Hi. apply Hv. now right.
  Qed.
  Lemma pass_connected sw cur : Permutation cur (seq 0 n) -> exists sw' cur', pass E perm (sw, cur) = Ok (sw', cur') /\ Permutation cur' (seq 0 n).
  Proof.
    intros HP. unfold pass. assert (length perm = n) as -> by (rewrite (Permutation_length Hperm); apply seq_length).
    assert (forall ts, (forall t, In t ts -> t < n) -> forall sw cur, Permutation cur (seq 0 n) ->
      exists sw' cur', fold_left (fun acc t => bind acc (fun st => place E perm st t)) ts (Ok (sw, cur)) = Ok (sw', cur') /\ Permutation cur' (seq 0 n)) as G.
    { induction ts as [|t ts IH]; intros Hts sw0 cur0 HP0; cbn [fold_left bind]; [eauto|].
      destruct (place_connected sw0 cur0 t HP0 (Hts t (or_introl eq_refl))) as (sw1 & cur1 & -> & HP1). apply IH; [intros u Hu; apply Hts; now right|exact HP1]. }
    apply G; [|exact HP]. intros t Ht. apply in_seq in Ht. lia.
  Qed.
  Lemma loop_connected fuel sw cur : Permutation cur (seq 0 n) -> (exists st, perm_loop fuel E perm (sw, cur) = Ok st) \/ perm_loop fuel E perm (sw, cur) = Hang.
  Proof.
    revert sw cur. induction fuel as [|fuel IH]; intros sw cur HP; cbn [perm_loop snd]; (destruct (list_eq_dec Nat.eq_dec cur perm); [eauto|]); [auto|].
    destruct (pass_connected sw cur HP) as (sw' & cur' & -> & HP'). cbn [bind]. auto.
  Qed.
End Connected.
