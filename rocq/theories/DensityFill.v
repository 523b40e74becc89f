(** The loops filling the one- to four-electron active-space density matrices. *)
From Coq Require Import List Bool Arith NArith Lia Ring Permutation.
From Verif Require Import Base Fock FockMore OperatorsModel OperatorsProofs OperatorsSums OperatorsActs OperatorsActive
  Props_Operators FockInner DensityModel DensityProofs DensityExpect.
Import ListNotations.

(** All permutations of a list. *)
Fixpoint inserts {A} (a : A) (l : list A) : list (list A) :=
  match l with
  | [] => [[a]]
  | b :: l' => (a :: b :: l') :: map (cons b) (inserts a l')
  end.
Fixpoint perms {A} (l : list A) : list (list A) :=
  match l with
  | [] => [[]]
  | a :: l' => flat_map (inserts a) (perms l')
  end.
Lemma in_inserts {A} (a : A) l1 l2 : In (l1 ++ a :: l2) (inserts a (l1 ++ l2)).
Proof.
  induction l1 as [|b l1 IH]; cbn [app].
  - destruct l2; cbn; now left.
  - cbn [inserts]. right. apply in_map_iff. eauto.
Qed.
Lemma in_perms {A} (l m : list A) : Permutation l m -> In m (perms l).
Proof.
  revert m. induction l as [|a l IH]; intros m P.
  - apply Permutation_nil in P. subst. now left.
  - assert (In a m) as Hi by (eapply Permutation_in; [exact P|now left]).
    apply in_split in Hi. destruct Hi as (m1 & m2 & ->). apply Permutation_cons_app_inv in P.
    cbn [perms]. apply in_flat_map. exists (m1 ++ m2). split; [now apply IH|apply in_inserts].
Qed.

Lemma inserts_perm {A} (a : A) l m : In m (inserts a l) -> Permutation (a :: l) m.
Proof.
  revert m. induction l as [|b l IH]; intros m H; cbn [inserts] in H.
  - destruct H as [<-|[]]. apply Permutation_refl.
  - destruct H as [<-|H]; [apply Permutation_refl|]. apply in_map_iff in H. destruct H as (m' & <- & H).
    apply IH in H. eapply perm_trans; [apply perm_swap|]. now apply perm_skip.
Qed.
Lemma perms_perm {A} (l m : list A) : In m (perms l) -> Permutation l m.
Proof.
  revert m. induction l as [|a l IH]; intros m H; cbn [perms] in H.
  - destruct H as [<-|[]]. apply Permutation_refl.
  - apply in_flat_map in H. destruct H as (m' & H1 & H2). apply inserts_perm in H2. apply IH in H1.
    eapply perm_trans; [|exact H2]. now apply perm_skip.
Qed.

Fixpoint prs (c : list nat) : list (nat * nat) :=
  match c with
  | a :: b :: c' => (a, b) :: prs c'
  | _ => []
  end.
Fixpoint flat (L : list (nat * nat)) : list nat :=
  match L with
  | [] => []
  | (a, b) :: L' => a :: b :: flat L'
  end.
Lemma prs_flat L : prs (flat L) = L.
Proof. induction L as [|[a b] L IH]; cbn; congruence. Qed.

Lemma swp_swp l : map swp (map swp l) = l.
Proof. rewrite map_map. rewrite <- (map_id l) at 2. apply map_ext. now intros []. Qed.

(** Some index of the pairs is the largest: bring its pair to the front, after
    reversing all pairs if it is a second index. *)
Lemma max_pair (L : list (nat * nat)) : L <> [] ->
  exists M pq R, (M = L \/ M = map swp L) /\ Permutation (pq :: R) M /\
    forall x, In x M -> fst x <= fst pq /\ snd x <= fst pq.
Proof.
  intros HL.
  assert (exists pq, In pq (L ++ map swp L) /\ forall x, In x L -> fst x <= fst pq /\ snd x <= fst pq) as (pq & Hin & Hmax).
  { clear - HL. induction L as [|[a b] L IH]; [easy|].
    destruct L as [|c L].
    - destruct (le_lt_dec b a).
      + exists (a, b). split; [now left|]. intros x [<-|[]]; cbn; lia.
      + exists (b, a). split; [right; now left|]. intros x [<-|[]]; cbn; lia.
    - destruct IH as (pq & Hin & Hmax); [easy|].
      destruct (le_lt_dec a (fst pq)) as [H1|H1]; destruct (le_lt_dec b (fst pq)) as [H2|H2].
      1: { exists pq. split.
           - apply in_app_iff in Hin. apply in_app_iff. destruct Hin; [left|right]; now right.
           - intros x [<-|Hx]; [cbn; lia|now apply Hmax]. }
      all: destruct (le_lt_dec b a) as [H3|H3].
      all: try lia.
      1: exists (b, a); split; [apply in_app_iff; right; now left|].
      2: exists (a, b); split; [apply in_app_iff; left; now left|].
      3: exists (a, b); split; [apply in_app_iff; left; now left|].
      4: exists (b, a); split; [apply in_app_iff; right; now left|].
      all: intros x [<-|Hx]; [cbn; lia|]; specialize (Hmax _ Hx); cbn; lia. }
  apply in_app_iff in Hin. destruct Hin as [Hin|Hin].
  - apply in_split in Hin as E. destruct E as (l1 & l2 & E). exists L, pq, (l1 ++ l2). split; [now left|]. split; [|exact Hmax].
    rewrite E. apply Permutation_middle.
  - apply in_split in Hin as E. destruct E as (l1 & l2 & E). exists (map swp L), pq, (l1 ++ l2). split; [now right|]. split.
    + rewrite E. apply Permutation_middle.
    + intros x Hx. apply in_map_iff in Hx. destruct Hx as (y & <- & Hy). specialize (Hmax _ Hy). cbn. lia.
Qed.

Section Fill.
  Context {K : Type} {C : CRing K}.
  Local Open Scope K_scope.
  Add Ring KringDF : (@rth K C).

  (** A loop body that never raises, keeps the entries that already have their
      final value [T] and gives the entries in [cov] their final value. *)
  Definition good (T : arr (K:=K)) (cov : list nat -> Prop) (body : arr (K:=K) -> Res arr) : Prop :=
    forall A, exists A', body A = Ok A' /\ (forall c, A c = T c -> A' c = T c) /\ (forall c, cov c -> A' c = T c).

  Lemma fold_good T (l : list nat) (body : nat -> arr (K:=K) -> Res arr) (cov : nat -> list nat -> Prop) :
    (forall p, In p l -> good T (cov p) (body p)) ->
    good T (fun c => exists p, In p l /\ cov p c) (fun A => fold_left (fun s p => bind s (body p)) l (Ok A)).
  Proof.
    induction l as [|p l IH]; intros H A.
    - exists A. split; [reflexivity|]. split; [auto|]. intros c (p & [] & _).
    - destruct (H p (or_introl eq_refl) A) as (A1 & E1 & K1 & C1).
      destruct (IH (fun q Hq => H q (or_intror Hq)) A1) as (A2 & E2 & K2 & C2).
      exists A2. split; [|split].
      + cbn [fold_left bind]. rewrite E1. exact E2.
      + auto.
      + intros c (q & [<-|Hq] & Hc); [apply K2, C1, Hc|apply C2; eauto].
  Qed.
  Lemma rloop_good T lo hi (body : nat -> arr (K:=K) -> Res arr) (cov : nat -> list nat -> Prop) :
    (forall p, (lo <= p < hi)%nat -> good T (cov p) (body p)) ->
    good T (fun c => exists p, (lo <= p < hi)%nat /\ cov p c) (rloop lo hi body).
  Proof.
    intros H A. destruct (fold_good T (seq lo (hi - lo)) body cov) with (A := A) as (A' & E & K1 & C1).
    - intros p Hp. apply in_seq in Hp. apply H. lia.
    - exists A'. split; [exact E|]. split; [exact K1|]. intros c (p & Hp & Hc). apply C1. exists p. split; [|exact Hc].
      apply in_seq. lia.
  Qed.
  Lemma upds_good (T : arr (K:=K)) cs v (A : arr) : (forall c, In c cs -> T c = v) ->
    (forall c, A c = T c -> upds cs v A c = T c) /\ (forall c, In c cs -> upds cs v A c = T c).
  Proof.
    intros H. unfold upds. revert A. induction cs as [|c0 cs IH]; intros A; cbn [fold_left]; [split; [auto|intros c []]|].
    destruct (IH (fun c Hc => H c (or_intror Hc)) (upd c0 v A)) as [I1 I2].
    assert (forall c, A c = T c \/ c = c0 -> upd c0 v A c = T c) as U.
    { intros c Hc. unfold upd. destruct (list_eq_dec Nat.eq_dec c c0) as [->|Hne].
      - symmetry. apply H. now left.
      - destruct Hc; [assumption|easy]. }
    split.
    - intros c Hc. apply I1, U. now left.
    - intros c [<-|Hc]; [apply I1, U; now right|now apply I2].
  Qed.

  Variables (N ni na : nat) (psi : amps (K:=K)).
  Hypothesis HN : (ni + na <= N)%nat.
  Notation ev F := (ip (2 * N) psi F).

  (** The density matrix element of the excitation with index pairs [L]. *)
  Definition Gk (L : list (nat * nat)) : K := ev (ek L psi).
  (** The array entry with (active) indices [c]. *)
  Definition TG (c : list nat) : K := Gk (prs (map (Nat.add ni) c)).

  Lemma Gk_perm L L' : Permutation L L' -> Gk L = Gk L'.
  Proof. intros P. apply ip_ext; [reflexivity|]. intros x. now apply ek_perm. Qed.
  Lemma Gk_swp L : (forall pq, In pq L -> (fst pq < N)%nat /\ (snd pq < N)%nat) -> Gk L = Gk (map swp L).
  Proof. intros H. unfold Gk. rewrite ip_ek by exact H. apply ip_sym. Qed.

  Definition addp (pq : nat * nat) : nat * nat := ((ni + fst pq)%nat, (ni + snd pq)%nat).
  Lemma prs_addp L : prs (map (Nat.add ni) (flat L)) = map addp L.
  Proof. induction L as [|[a b] L IH]; cbn; [reflexivity|]. now rewrite IH. Qed.

  Lemma TG_class L M : (forall pq, In pq L -> (fst pq < na)%nat /\ (snd pq < na)%nat) ->
    Permutation L M \/ Permutation (map swp L) M -> TG (flat M) = Gk (map addp L).
  Proof.
    intros HL P. unfold TG. rewrite prs_addp. destruct P as [P|P].
    - apply Gk_perm, Permutation_map, Permutation_sym, P.
    - rewrite (Gk_swp (map addp L)).
      + apply Gk_perm. rewrite <- (Permutation_map addp P). rewrite !map_map. apply Permutation_refl.
      + intros pq H. apply in_map_iff in H. destruct H as (x & <- & Hx). apply HL in Hx. cbn. lia.
  Qed.

  (** *** one electron *)
  Lemma rdm1_fill val : (forall p q, (ni <= p < ni + na)%nat -> (ni <= q < ni + na)%nat -> val p q = Ok (ev (Eact p q psi))) ->
    exists A, rdm1_loop val ni na = Ok A /\ forall i j, (i < na)%nat -> (j < na)%nat -> A [i; j] = Gk [((ni + i)%nat, (ni + j)%nat)].
  Proof.
    intros Hv.
    assert (good TG (fun c => exists p, (ni <= p < ni + na)%nat /\ exists q, (ni <= q < p + 1)%nat /\ In c [[p - ni; q - ni]; [q - ni; p - ni]]%nat)
       (rloop ni (ni + na) (fun p => rloop ni (p + 1) (fun q A =>
      bind (val p q) (fun v =>
        let p := (p - ni)%nat in let q := (q - ni)%nat in
        Ok (upds [[p; q]; [q; p]] v A)))))) as G.
    { apply rloop_good. intros p Hp. apply rloop_good. intros q Hq A. rewrite Hv by lia. cbn [bind].
      eexists. split; [reflexivity|]. apply upds_good.
      intros c Hc. assert (exists M, c = flat M /\ (Permutation [(p - ni, q - ni)%nat] M \/ Permutation (map swp [(p - ni, q - ni)%nat]) M)) as (M & -> & HM).
      { cbn in Hc. destruct Hc as [<-|[<-|[]]].
        - exists [(p - ni, q - ni)%nat]. split; [reflexivity|now left].
        - exists [(q - ni, p - ni)%nat]. split; [reflexivity|now right]. }
      rewrite (TG_class [(p - ni, q - ni)%nat] M); [|cbn; intros pq [<-|[]]; cbn; lia|exact HM].
      cbn. unfold addp. cbn. replace (ni + (p - ni))%nat with p by lia. replace (ni + (q - ni))%nat with q by lia. reflexivity. }
    destruct (G (fun _ => 0)) as (A & E & _ & HA). exists A. split; [exact E|].
    intros i j Hi Hj. rewrite (HA [i; j]); [reflexivity|].
    destruct (le_lt_dec j i) as [H|H].
    - exists (ni + i)%nat. split; [lia|]. exists (ni + j)%nat. split; [lia|]. left. f_equal; [lia|f_equal; lia].
    - exists (ni + j)%nat. split; [lia|]. exists (ni + i)%nat. split; [lia|]. right. left. f_equal; [lia|f_equal; lia].
  Qed.

  (** *** two electrons *)
  Lemma ev_EE p q r s : ev (Eact p q (Eact r s psi)) = Gk [(p, q); (r, s)] + kdelta q r * Gk [(p, s)].
  Proof.
    unfold Gk. rewrite <- (ip_scale (2 * N)), <- ip_add. apply ip_ext; [reflexivity|]. intros x.
    change (Eact r s psi) with (ek [(r, s)] psi). rewrite Eact_ek. cbn [length seq lsum fold_right nth firstn skipn app fst snd]. ring.
  Qed.
  Lemma ev_E_ek p q L : ev (Eact p q (ek L psi)) = Gk ((p, q) :: L)
    + lsum (seq 0 (length L)) (fun i => kdelta q (fst (nth i L (0, 0)%nat)) * Gk ((p, snd (nth i L (0, 0)%nat)) :: firstn i L ++ skipn (S i) L)).
  Proof.
    transitivity (ev (fun x => ek ((p, q) :: L) psi x + lsum (seq 0 (length L)) (fun i =>
          kdelta q (fst (nth i L (0, 0)%nat)) * ek ((p, snd (nth i L (0, 0)%nat)) :: firstn i L ++ skipn (S i) L) psi x))).
    - apply ip_ext; [reflexivity|]. intros x. apply Eact_ek.
    - rewrite ip_add. f_equal.
      rewrite (ip_lsum (2 * N) psi (seq 0 (length L)) (fun i x => kdelta q (fst (nth i L (0, 0)%nat)) * ek ((p, snd (nth i L (0, 0)%nat)) :: firstn i L ++ skipn (S i) L) psi x)).
      apply lsum_ext. intros i _. apply (ip_scale (2 * N)).
  Qed.

  Lemma sub_if_kd a b (x v : K) : sub_if (a =? b)%nat x v = v - kdelta a b * x.
  Proof. unfold sub_if, kdelta. destruct (a =? b)%nat; ring. Qed.
  Lemma sub_if_and b c (x v : K) : sub_if (b && c) x v = sub_if b (if c then x else 0) v.
  Proof. destruct b, c; unfold sub_if; cbn; try reflexivity; ring. Qed.

  Lemma s_lim_shift p q r : s_lim (ni + p) (ni + q) (ni + r) = (ni + s_lim p q r)%nat.
  Proof.
    unfold s_lim. destruct (Nat.eqb_spec (ni + p) (ni + q)), (Nat.eqb_spec p q); try lia;
    destruct (Nat.eqb_spec (ni + p) (ni + r)), (Nat.eqb_spec p r); try lia;
    destruct (Nat.ltb_spec (ni + q) (ni + r)), (Nat.ltb_spec q r); lia.
  Qed.

  Lemma rdm2_cover i j k l : (i < na)%nat -> (j < na)%nat -> (k < na)%nat -> (l < na)%nat ->
    exists p q r s, (p < na)%nat /\ (q <= p)%nat /\ (r <= p)%nat /\ (s < s_lim p q r)%nat /\ (s <= p)%nat /\
      In [i; j; k; l] [[p; q; r; s]; [r; s; p; q]; [q; p; s; r]; [s; r; q; p]].
  Proof.
    intros Hi Hj Hk Hl.
    assert (forall p q r s, (p < na)%nat -> (q <= p)%nat -> (r <= p)%nat -> (s <= p)%nat ->
      In [i; j; k; l] [[p; q; r; s]; [r; s; p; q]; [q; p; s; r]; [s; r; q; p]] ->
      exists p q r s, (p < na)%nat /\ (q <= p)%nat /\ (r <= p)%nat /\ (s < s_lim p q r)%nat /\ (s <= p)%nat /\
      In [i; j; k; l] [[p; q; r; s]; [r; s; p; q]; [q; p; s; r]; [s; r; q; p]]) as W.
    { intros p q r s Hp Hq Hr Hs Hin.
      destruct (Nat.eq_dec p q) as [->|Npq].
      { destruct (le_lt_dec s r).
        - exists q, q, r, s. repeat split; auto. unfold s_lim. rewrite Nat.eqb_refl. lia.
        - exists q, q, s, r. repeat split; auto. { unfold s_lim. rewrite Nat.eqb_refl. lia. }
          cbn in Hin |- *. tauto. }
      destruct (Nat.eq_dec p r) as [->|Npr].
      { destruct (le_lt_dec s q).
        - exists r, q, r, s. repeat split; auto. unfold s_lim. destruct (Nat.eqb_spec r q); [lia|]. rewrite Nat.eqb_refl. lia.
        - exists r, s, r, q. repeat split; auto.
          + unfold s_lim. destruct (Nat.eqb_spec r s); [lia|]. rewrite Nat.eqb_refl. lia.
          + cbn in Hin |- *. tauto. }
      destruct (Nat.ltb_spec q r) as [Hqr|Hqr].
      - destruct (Nat.eq_dec s p) as [->|Nsp].
        + exists p, r, q, p. repeat split; auto.
          * unfold s_lim. destruct (Nat.eqb_spec p r); [lia|]. destruct (Nat.eqb_spec p q); [lia|].
            destruct (Nat.ltb_spec r q); lia.
          * cbn in Hin |- *. tauto.
        + exists p, q, r, s. repeat split; auto. unfold s_lim. destruct (Nat.eqb_spec p r); [lia|]. destruct (Nat.eqb_spec p q); [lia|].
            destruct (Nat.ltb_spec q r); lia.
      - exists p, q, r, s. repeat split; auto. unfold s_lim. destruct (Nat.eqb_spec p r); [lia|]. destruct (Nat.eqb_spec p q); [lia|].
            destruct (Nat.ltb_spec q r); lia. }
    assert ((j <= i /\ k <= i /\ l <= i) \/ (i <= j /\ k <= j /\ l <= j) \/ (i <= k /\ j <= k /\ l <= k) \/ (i <= l /\ j <= l /\ k <= l))%nat
      as [?|[?|[?|?]]] by lia.
    - apply (W i j k l); try lia. cbn. tauto.
    - apply (W j i l k); try lia. cbn. tauto.
    - apply (W k l i j); try lia. cbn. tauto.
    - apply (W l k j i); try lia. cbn. tauto.
  Qed.

  Lemma rdm2_fill val (r1 : arr) :
    (forall p q r s, (ni <= p < ni + na)%nat -> (ni <= q < ni + na)%nat -> (ni <= r < ni + na)%nat -> (ni <= s < ni + na)%nat ->
      val p q r s = Ok (ev (Eact p q (Eact r s psi)))) ->
    (forall i j, (i < na)%nat -> (j < na)%nat -> r1 [i; j] = Gk [((ni + i)%nat, (ni + j)%nat)]) ->
    exists A, rdm2_loop val r1 ni na = Ok A /\
      forall i j k l, (i < na)%nat -> (j < na)%nat -> (k < na)%nat -> (l < na)%nat ->
        A [i; j; k; l] = Gk [((ni + i)%nat, (ni + j)%nat); ((ni + k)%nat, (ni + l)%nat)].
  Proof.
    intros Hv H1.
    set (W p q r s := [[p; q; r; s]; [r; s; p; q]; [q; p; s; r]; [s; r; q; p]] : list (list nat)).
    assert (good TG (fun c => exists p, (ni <= p < ni + na)%nat /\ exists q, (ni <= q < p + 1)%nat /\ exists r, (ni <= r < p + 1)%nat /\
       exists s, (ni <= s < s_lim p q r)%nat /\ In c (W (p - ni) (q - ni) (r - ni) (s - ni))%nat)
       (rloop ni (ni + na) (fun p => rloop ni (p + 1) (fun q => rloop ni (p + 1) (fun r =>
      rloop ni (s_lim p q r) (fun s A =>
        bind (val p q r s) (fun v =>
          let p := (p - ni)%nat in let q := (q - ni)%nat in let r := (r - ni)%nat in let s := (s - ni)%nat in
          let v := sub_if (q =? r)%nat (r1 [p; s]) v in
          Ok (upds (W p q r s) v A)))))))) as G.
    { apply rloop_good. intros p Hp. apply rloop_good. intros q Hq. apply rloop_good. intros r Hr. apply rloop_good. intros s Hs A.
      assert (s < p + 1)%nat as Hs'.
      { unfold s_lim in Hs. destruct (p =? q)%nat; [lia|]. destruct (p =? r)%nat; [lia|]. destruct (q <? r)%nat; lia. }
      rewrite Hv by lia. cbn [bind]. eexists. split; [reflexivity|]. apply upds_good.
      set (p' := (p - ni)%nat). set (q' := (q - ni)%nat). set (r' := (r - ni)%nat). set (s' := (s - ni)%nat).
      intros c Hc.
      assert (exists M, c = flat M /\ (Permutation [(p', q'); (r', s')] M \/ Permutation (map swp [(p', q'); (r', s')]) M)) as (M & -> & HM).
      { cbn in Hc. destruct Hc as [<-|[<-|[<-|[<-|[]]]]].
        - exists [(p', q'); (r', s')]. split; [reflexivity|now left].
        - exists [(r', s'); (p', q')]. split; [reflexivity|left; apply perm_swap].
        - exists [(q', p'); (s', r')]. split; [reflexivity|now right].
        - exists [(s', r'); (q', p')]. split; [reflexivity|right; apply perm_swap]. }
      rewrite (TG_class [(p', q'); (r', s')] M); [|cbn; intros pq [<-|[<-|[]]]; cbn; lia|exact HM].
      rewrite H1 by lia. rewrite ev_EE. rewrite sub_if_kd. cbn. unfold addp. cbn.
      replace (ni + p')%nat with p by lia. replace (ni + q')%nat with q by lia.
      replace (ni + r')%nat with r by lia. replace (ni + s')%nat with s by lia.
      assert (kdelta q' r' = kdelta q r) as ->.
      { unfold kdelta. destruct (Nat.eqb_spec q' r'), (Nat.eqb_spec q r); auto; lia. }
      ring. }
    destruct (G (fun _ => 0)) as (A & E & _ & HA). exists A. split; [exact E|].
    intros i j k l Hi Hj Hk Hl. rewrite (HA [i; j; k; l]); [reflexivity|].
    destruct (rdm2_cover i j k l Hi Hj Hk Hl) as (p & q & r & s & Hp & Hq & Hr & Hs & Hs' & Hin).
    exists (ni + p)%nat. split; [lia|]. exists (ni + q)%nat. split; [lia|]. exists (ni + r)%nat. split; [lia|].
    exists (ni + s)%nat. split; [rewrite s_lim_shift; lia|].
    replace (ni + p - ni)%nat with p by lia. replace (ni + q - ni)%nat with q by lia.
    replace (ni + r - ni)%nat with r by lia. replace (ni + s - ni)%nat with s by lia. exact Hin.
  Qed.

  (** *** three electrons *)
  Lemma kd_shift a b : (ni <= a)%nat -> (ni <= b)%nat -> kdelta (K:=K) (a - ni) (b - ni) = kdelta a b.
  Proof. intros. unfold kdelta. destruct (Nat.eqb_spec (a - ni) (b - ni)), (Nat.eqb_spec a b); auto; lia. Qed.

  Lemma ev_EEE p q r s t u : ev (Eact p q (Eact r s (Eact t u psi)))
    = Gk [(p, q); (r, s); (t, u)] + kdelta q r * Gk [(p, s); (t, u)] + kdelta q t * Gk [(p, u); (r, s)]
      + kdelta s t * (Gk [(p, q); (r, u)] + kdelta q r * Gk [(p, u)]).
  Proof.
    rewrite (ip_ext (2 * N) psi psi _ (fun x => Eact p q (ek [(r, s); (t, u)] psi) x + kdelta s t * Eact p q (ek [(r, u)] psi) x)); auto.
    - rewrite ip_add, (ip_scale (2 * N)), !ev_E_ek. cbn [length seq lsum fold_right nth firstn skipn app fst snd]. ring.
    - intros x. rewrite <- Eact_scale, <- Eact_add. apply Eact_ext. intros y.
      change (Eact t u psi) with (ek [(t, u)] psi). rewrite Eact_ek.
      cbn [length seq lsum fold_right nth firstn skipn app fst snd]. ring.
  Qed.

  (** The twelve (forty-eight) assignments are exactly the permutations of the
      pairs and of the reversed pairs. *)
  Definition images (L : list (nat * nat)) : list (list nat) := map flat (perms L ++ perms (map swp L)).
  Lemma in_images L c : In c (images L) -> exists M, c = flat M /\ (Permutation L M \/ Permutation (map swp L) M).
  Proof.
    unfold images. intros H. apply in_map_iff in H. destruct H as (M & <- & H). exists M. split; [reflexivity|].
    apply in_app_iff in H. destruct H as [H|H]; [left|right]; now apply perms_perm.
  Qed.
  Lemma images_in L M : Permutation L M \/ Permutation (map swp L) M -> In (flat M) (images L).
  Proof.
    intros H. unfold images. apply in_map. apply in_app_iff. destruct H as [H|H]; [left|right]; now apply in_perms.
  Qed.

  Ltac findin := repeat (first [left; reflexivity | right]).
  Ltac enum H := repeat (destruct H as [<-|H]; [findin|]); destruct H.

  Lemma rdm3_writes_images p q r s t u c : In c (rdm3_writes p q r s t u) <-> In c (images [(p, q); (r, s); (t, u)]).
  Proof.
    split; intros H; cbn in H |- *.
    - enum H.
    - enum H.
  Qed.
  Lemma rdm4_writes_images p q r s t u m n c :
    In c (rdm4_writes p q r s t u m n) <-> In c (images [(p, q); (r, s); (t, u); (m, n)]).
  Proof.
    split; intros H; cbn in H |- *.
    - enum H.
    - enum H.
  Qed.

  (** Every entry is one of the images of an index tuple visited by the loops. *)
  Lemma cover3 L : length L = 3%nat -> (forall pq, In pq L -> (fst pq < na)%nat /\ (snd pq < na)%nat) ->
    exists p q r s t u, (p < na)%nat /\ (q <= p)%nat /\ (r <= p)%nat /\ (s <= p)%nat /\ (t <= r)%nat /\ (u <= p)%nat /\
      (Permutation [(p, q); (r, s); (t, u)] L \/ Permutation (map swp [(p, q); (r, s); (t, u)]) L).
  Proof.
    intros Hlen HL. destruct (max_pair L) as (M & [p q] & R & HM & P & Hmax); [now intros ->|]. cbn [fst snd] in *.
    assert (forall a, In a M -> (fst a < na)%nat /\ (snd a < na)%nat) as HMb.
    { intros a Ha. destruct HM as [->| ->]; [now apply HL|]. apply in_map_iff in Ha. destruct Ha as (b & <- & Hb). apply HL in Hb. cbn. tauto. }
    assert (length M = 3%nat) as HlM by (destruct HM as [->| ->]; [|rewrite map_length]; exact Hlen).
    pose proof (Permutation_length P) as HlR. cbn in HlR.
    destruct R as [|[r s] [|[t u] [|]]]; cbn in HlR; try lia.
    pose proof (fun x Hx => Hmax x (Permutation_in x P Hx)) as Hmax'.
    pose proof (fun x Hx => HMb x (Permutation_in x P Hx)) as HMb'.
    pose proof (Hmax' _ (or_introl eq_refl)). pose proof (Hmax' _ (or_intror (or_introl eq_refl))).
    pose proof (Hmax' _ (or_intror (or_intror (or_introl eq_refl)))). pose proof (HMb' _ (or_introl eq_refl)). cbn [fst snd] in *.
    assert (forall X, Permutation X M -> Permutation X L \/ Permutation (map swp X) L) as PX.
    { intros X PX. destruct HM as [->| ->]; [now left|right]. rewrite <- (swp_swp L). now apply Permutation_map. }
    destruct (le_lt_dec t r).
    - exists p, q, r, s, t, u. repeat (split; [lia|]). now apply PX.
    - exists p, q, t, u, r, s. repeat (split; [lia|]). apply PX. eapply perm_trans; [|exact P]. apply perm_skip, perm_swap.
  Qed.
  Lemma cover4 L : length L = 4%nat -> (forall pq, In pq L -> (fst pq < na)%nat /\ (snd pq < na)%nat) ->
    exists p q r s t u m n, (p < na)%nat /\ (q <= p)%nat /\ (r <= p)%nat /\ (s <= p)%nat /\ (t <= r)%nat /\ (u <= p)%nat /\
      (m <= t)%nat /\ (n <= p)%nat /\
      (Permutation [(p, q); (r, s); (t, u); (m, n)] L \/ Permutation (map swp [(p, q); (r, s); (t, u); (m, n)]) L).
  Proof.
    intros Hlen HL. destruct (max_pair L) as (M & [p q] & R & HM & P & Hmax); [now intros ->|]. cbn [fst snd] in *.
    assert (forall a, In a M -> (fst a < na)%nat /\ (snd a < na)%nat) as HMb.
    { intros a Ha. destruct HM as [->| ->]; [now apply HL|]. apply in_map_iff in Ha. destruct Ha as (b & <- & Hb). apply HL in Hb. cbn. tauto. }
    assert (length M = 4%nat) as HlM by (destruct HM as [->| ->]; [|rewrite map_length]; exact Hlen).
    pose proof (Permutation_length P) as HlR. cbn in HlR.
    destruct R as [|[r s] [|[t u] [|[m n] [|]]]]; cbn in HlR; try lia.
    pose proof (fun x Hx => Hmax x (Permutation_in x P Hx)) as Hmax'.
    pose proof (fun x Hx => HMb x (Permutation_in x P Hx)) as HMb'.
    pose proof (Hmax' _ (or_introl eq_refl)). pose proof (Hmax' _ (or_intror (or_introl eq_refl))).
    pose proof (Hmax' _ (or_intror (or_intror (or_introl eq_refl)))).
    pose proof (Hmax' _ (or_intror (or_intror (or_intror (or_introl eq_refl))))). pose proof (HMb' _ (or_introl eq_refl)). cbn [fst snd] in *.
    assert (forall X, In X (perms [(p, q); (r, s); (t, u); (m, n)]) -> Permutation X L \/ Permutation (map swp X) L) as PX.
    { intros X HX. apply perms_perm in HX. assert (Permutation X M) as PX by (eapply perm_trans; [apply Permutation_sym, HX|exact P]).
      destruct HM as [->| ->]; [now left|right]. rewrite <- (swp_swp L). now apply Permutation_map. }
    destruct (le_lt_dec t r), (le_lt_dec m t), (le_lt_dec m r); try lia.
    - exists p, q, r, s, t, u, m, n. repeat (split; [lia|]). apply PX. cbn. findin.
    - exists p, q, r, s, m, n, t, u. repeat (split; [lia|]). apply PX. cbn. findin.
    - exists p, q, m, n, r, s, t, u. repeat (split; [lia|]). apply PX. cbn. findin.
    - exists p, q, t, u, r, s, m, n. repeat (split; [lia|]). apply PX. cbn. findin.
    - exists p, q, t, u, m, n, r, s. repeat (split; [lia|]). apply PX. cbn. findin.
    - exists p, q, m, n, t, u, r, s. repeat (split; [lia|]). apply PX. cbn. findin.
  Qed.

  Definition R1ok (r1 : arr (K:=K)) := forall i j, (i < na)%nat -> (j < na)%nat -> r1 [i; j] = Gk [((ni + i)%nat, (ni + j)%nat)].
  Definition R2ok (r2 : arr (K:=K)) := forall i j k l, (i < na)%nat -> (j < na)%nat -> (k < na)%nat -> (l < na)%nat ->
        r2 [i; j; k; l] = Gk [((ni + i)%nat, (ni + j)%nat); ((ni + k)%nat, (ni + l)%nat)].
  Definition R3ok (r3 : arr (K:=K)) := forall i j k l m n, (i < na)%nat -> (j < na)%nat -> (k < na)%nat -> (l < na)%nat ->
        (m < na)%nat -> (n < na)%nat ->
        r3 [i; j; k; l; m; n] = Gk [((ni + i)%nat, (ni + j)%nat); ((ni + k)%nat, (ni + l)%nat); ((ni + m)%nat, (ni + n)%nat)].
  Definition R4ok (r4 : arr (K:=K)) := forall i j k l m n a b, (i < na)%nat -> (j < na)%nat -> (k < na)%nat -> (l < na)%nat ->
        (m < na)%nat -> (n < na)%nat -> (a < na)%nat -> (b < na)%nat ->
        r4 [i; j; k; l; m; n; a; b] = Gk [((ni + i)%nat, (ni + j)%nat); ((ni + k)%nat, (ni + l)%nat);
                                           ((ni + m)%nat, (ni + n)%nat); ((ni + a)%nat, (ni + b)%nat)].
  Notation act p := (ni <= p < ni + na)%nat.

  Lemma rdm3_fill val (r1 r2 : arr) :
    (forall p q r s t u, act p -> act q -> act r -> act s -> act t -> act u ->
      val p q r s t u = Ok (ev (Eact p q (Eact r s (Eact t u psi))))) ->
    R1ok r1 -> R2ok r2 -> exists A, rdm3_loop val r1 r2 ni na = Ok A /\ R3ok A.
  Proof.
    intros Hv H1 H2.
    assert (good TG (fun c => exists p, act p /\ exists q, (ni <= q < p + 1)%nat /\ exists r, (ni <= r < p + 1)%nat /\
       exists s, (ni <= s < p + 1)%nat /\ exists t, (ni <= t < r + 1)%nat /\ exists u, (ni <= u < p + 1)%nat /\
       In c (rdm3_writes (p - ni) (q - ni) (r - ni) (s - ni) (t - ni) (u - ni)))
       (rloop ni (ni + na) (fun p => rloop ni (p + 1) (fun q => rloop ni (p + 1) (fun r => rloop ni (p + 1) (fun s =>
      rloop ni (r + 1) (fun t => rloop ni (p + 1) (fun u A =>
        bind (val p q r s t u) (fun v =>
          let p := (p - ni)%nat in let q := (q - ni)%nat in let r := (r - ni)%nat in
          let s := (s - ni)%nat in let t := (t - ni)%nat in let u := (u - ni)%nat in
          let v := sub_if (t =? s)%nat (r2 [p; q; r; u]) v in
          let v := sub_if (r =? q)%nat (r2 [p; s; t; u]) v in
          let v := sub_if (t =? q)%nat (r2 [p; u; r; s]) v in
          let v := sub_if ((t =? s) && (r =? q))%nat (r1 [p; u]) v in
          Ok (upds (rdm3_writes p q r s t u) v A)))))))))) as G.
    { apply rloop_good. intros p Hp. apply rloop_good. intros q Hq. apply rloop_good. intros r Hr. apply rloop_good. intros s Hs.
      apply rloop_good. intros t Ht. apply rloop_good. intros u Hu A.
      rewrite Hv by lia. cbn [bind]. eexists. split; [reflexivity|]. apply upds_good.
      intros c Hc. apply rdm3_writes_images, in_images in Hc. destruct Hc as (M & -> & HM).
      match type of HM with Permutation ?L _ \/ _ => rewrite (TG_class L M) by (exact HM || (cbn; intros pq [<-|[<-|[<-|[]]]]; cbn; lia)) end.
      rewrite H1, !H2 by lia. rewrite ev_EEE. cbn [map]. unfold addp. cbn [fst snd].
      replace (ni + (p - ni))%nat with p by lia. replace (ni + (q - ni))%nat with q by lia.
      replace (ni + (r - ni))%nat with r by lia. replace (ni + (s - ni))%nat with s by lia.
      replace (ni + (t - ni))%nat with t by lia. replace (ni + (u - ni))%nat with u by lia.
      rewrite sub_if_and, !sub_if_kd, !kd_shift by lia.
      rewrite (kdelta_sym t s), (kdelta_sym t q), (kdelta_sym r q).
      replace (if (r - ni =? q - ni)%nat then Gk [(p, u)] else 0) with (kdelta q r * Gk [(p, u)]).
      2:{ rewrite kdelta_sym, <- (kd_shift r q) by lia. unfold kdelta. destruct (_ =? _)%nat; ring. }
      ring. }
    destruct (G (fun _ => 0)) as (A & E & _ & HA). exists A. split; [exact E|].
    intros i j k l m n Hi Hj Hk Hl Hm Hn. rewrite (HA [i; j; k; l; m; n]); [reflexivity|].
    destruct (cover3 [(i, j); (k, l); (m, n)]) as (p & q & r & s & t & u & Hp & Hq & Hr & Hs & Ht & Hu & HP); [reflexivity| |].
    { cbn. intros pq [<-|[<-|[<-|[]]]]; cbn; lia. }
    exists (ni + p)%nat. split; [lia|]. exists (ni + q)%nat. split; [lia|]. exists (ni + r)%nat. split; [lia|].
    exists (ni + s)%nat. split; [lia|]. exists (ni + t)%nat. split; [lia|]. exists (ni + u)%nat. split; [lia|].
    rewrite !(Nat.add_comm ni), !Nat.add_sub. apply rdm3_writes_images.
    change [i; j; k; l; m; n] with (flat [(i, j); (k, l); (m, n)]). now apply images_in.
  Qed.

  (** *** four electrons *)
  Lemma ev_EEEE p q r s t u m n : ev (Eact p q (Eact r s (Eact t u (Eact m n psi))))
    = ev (Eact p q (ek [(r, s); (t, u); (m, n)] psi)) + kdelta s t * ev (Eact p q (ek [(r, u); (m, n)] psi))
      + kdelta s m * ev (Eact p q (ek [(r, n); (t, u)] psi))
      + kdelta u m * (ev (Eact p q (ek [(r, s); (t, n)] psi)) + kdelta s t * ev (Eact p q (ek [(r, n)] psi))).
  Proof.
    rewrite <- !(ip_scale (2 * N)). rewrite <- !ip_add. rewrite <- !(ip_scale (2 * N)). rewrite <- !ip_add.
    apply ip_ext; [reflexivity|]. intros x.
    transitivity (Eact p q (fun y => ek [(r, s); (t, u); (m, n)] psi y + kdelta s t * ek [(r, u); (m, n)] psi y
      + kdelta s m * ek [(r, n); (t, u)] psi y + kdelta u m * (ek [(r, s); (t, n)] psi y + kdelta s t * ek [(r, n)] psi y)) x).
    - apply Eact_ext. intros y.
      transitivity (Eact r s (fun z => ek [(t, u); (m, n)] psi z + kdelta u m * ek [(t, n)] psi z) y).
      + apply Eact_ext. intros z. change (Eact m n psi) with (ek [(m, n)] psi). rewrite Eact_ek.
        cbn [length seq lsum fold_right nth firstn skipn app fst snd]. ring.
      + rewrite Eact_add, Eact_scale, !Eact_ek. cbn [length seq lsum fold_right nth firstn skipn app fst snd]. ring.
    - rewrite !Eact_add, !Eact_scale, !Eact_add, !Eact_scale. ring.
  Qed.

  Lemma sub_if_3 a b c d e f (x v : K) :
    sub_if ((a =? b) && (c =? d) && (e =? f))%nat x v = v - kdelta a b * kdelta c d * kdelta e f * x.
  Proof. unfold sub_if, kdelta. destruct (a =? b)%nat, (c =? d)%nat, (e =? f)%nat; cbn; ring. Qed.
  Lemma sub_if_2 a b c d (x v : K) :
    sub_if ((a =? b) && (c =? d))%nat x v = v - kdelta a b * kdelta c d * x.
  Proof. unfold sub_if, kdelta. destruct (a =? b)%nat, (c =? d)%nat; cbn; ring. Qed.

  Lemma rdm4_fill val (r1 r2 r3 : arr) :
    (forall p q r s t u m n, act p -> act q -> act r -> act s -> act t -> act u -> act m -> act n ->
      val p q r s t u m n = Ok (ev (Eact p q (Eact r s (Eact t u (Eact m n psi)))))) ->
    R1ok r1 -> R2ok r2 -> R3ok r3 -> exists A, rdm4_loop val r1 r2 r3 ni na = Ok A /\ R4ok A.
  Proof.
    intros Hv H1 H2 H3.
    assert (good TG (fun c => exists p, act p /\ exists q, (ni <= q < p + 1)%nat /\ exists r, (ni <= r < p + 1)%nat /\
       exists s, (ni <= s < p + 1)%nat /\ exists t, (ni <= t < r + 1)%nat /\ exists u, (ni <= u < p + 1)%nat /\
       exists m, (ni <= m < t + 1)%nat /\ exists n, (ni <= n < p + 1)%nat /\
       In c (rdm4_writes (p - ni) (q - ni) (r - ni) (s - ni) (t - ni) (u - ni) (m - ni) (n - ni)))
       (rloop ni (ni + na) (fun p => rloop ni (p + 1) (fun q => rloop ni (p + 1) (fun r => rloop ni (p + 1) (fun s =>
      rloop ni (r + 1) (fun t => rloop ni (p + 1) (fun u => rloop ni (t + 1) (fun m => rloop ni (p + 1) (fun n A =>
        bind (val p q r s t u m n) (fun v =>
          let p := (p - ni)%nat in let q := (q - ni)%nat in let r := (r - ni)%nat in let s := (s - ni)%nat in
          let t := (t - ni)%nat in let u := (u - ni)%nat in let m := (m - ni)%nat in let n := (n - ni)%nat in
          let v := sub_if (r =? q)%nat (r3 [p; s; t; u; m; n]) v in
          let v := sub_if (t =? q)%nat (r3 [p; u; r; s; m; n]) v in
          let v := sub_if (m =? q)%nat (r3 [p; n; r; s; t; u]) v in
          let v := sub_if (m =? u)%nat (r3 [p; q; r; s; t; n]) v in
          let v := sub_if (t =? s)%nat (r3 [p; q; r; u; m; n]) v in
          let v := sub_if (m =? s)%nat (r3 [p; q; r; n; t; u]) v in
          let v := sub_if ((m =? u) && (r =? q))%nat (r2 [p; s; t; n]) v in
          let v := sub_if ((m =? u) && (t =? q))%nat (r2 [p; n; r; s]) v in
          let v := sub_if ((t =? s) && (m =? u))%nat (r2 [p; q; r; n]) v in
          let v := sub_if ((t =? s) && (r =? q))%nat (r2 [p; u; m; n]) v in
          let v := sub_if ((t =? s) && (m =? q))%nat (r2 [p; n; r; u]) v in
          let v := sub_if ((m =? s) && (r =? q))%nat (r2 [p; n; t; u]) v in
          let v := sub_if ((m =? s) && (t =? q))%nat (r2 [p; u; r; n]) v in
          let v := sub_if ((m =? u) && (t =? s) && (r =? q))%nat (r1 [p; n]) v in
          Ok (upds (rdm4_writes p q r s t u m n) v A)))))))))))) as G.
    { apply rloop_good. intros p Hp. apply rloop_good. intros q Hq. apply rloop_good. intros r Hr. apply rloop_good. intros s Hs.
      apply rloop_good. intros t Ht. apply rloop_good. intros u Hu. apply rloop_good. intros m Hm. apply rloop_good. intros n Hn A.
      rewrite Hv by lia. cbn [bind]. eexists. split; [reflexivity|]. apply upds_good.
      intros c Hc. apply rdm4_writes_images, in_images in Hc. destruct Hc as (M & -> & HM).
      match type of HM with Permutation ?L _ \/ _ => rewrite (TG_class L M) by (exact HM || (cbn; intros pq [<-|[<-|[<-|[<-|[]]]]]; cbn; lia)) end.
      rewrite H1, !H2, !H3 by lia. cbn [map]. unfold addp. cbn [fst snd].
      rewrite sub_if_3, !sub_if_2, !sub_if_kd, !kd_shift by lia.
      replace (ni + (p - ni))%nat with p by lia. replace (ni + (q - ni))%nat with q by lia.
      replace (ni + (r - ni))%nat with r by lia. replace (ni + (s - ni))%nat with s by lia.
      replace (ni + (t - ni))%nat with t by lia. replace (ni + (u - ni))%nat with u by lia.
      replace (ni + (m - ni))%nat with m by lia. replace (ni + (n - ni))%nat with n by lia.
      rewrite (kdelta_sym r q), (kdelta_sym t q), (kdelta_sym m q), (kdelta_sym m u), (kdelta_sym t s), (kdelta_sym m s).
      rewrite ev_EEEE, !ev_E_ek. cbn [length seq lsum fold_right nth firstn skipn app fst snd].
      ring. }
    destruct (G (fun _ => 0)) as (A & E & _ & HA). exists A. split; [exact E|].
    intros i j k l m n a b Hi Hj Hk Hl Hm Hn Ha Hb. rewrite (HA [i; j; k; l; m; n; a; b]); [reflexivity|].
    destruct (cover4 [(i, j); (k, l); (m, n); (a, b)]) as (p & q & r & s & t & u & x & y & Hp & Hq & Hr & Hs & Ht & Hu & Hx & Hy & HP); [reflexivity| |].
    { cbn. intros pq [<-|[<-|[<-|[<-|[]]]]]; cbn; lia. }
    exists (ni + p)%nat. split; [lia|]. exists (ni + q)%nat. split; [lia|]. exists (ni + r)%nat. split; [lia|].
    exists (ni + s)%nat. split; [lia|]. exists (ni + t)%nat. split; [lia|]. exists (ni + u)%nat. split; [lia|].
    exists (ni + x)%nat. split; [lia|]. exists (ni + y)%nat. split; [lia|].
    rewrite !(Nat.add_comm ni), !Nat.add_sub. apply rdm4_writes_images.
    change [i; j; k; l; m; n; a; b] with (flat [(i, j); (k, l); (m, n); (a, b)]). now apply images_in.
  Qed.
End Fill.
