(** Proofs about the index map [f2q], the reordering sign and the circuits for
    determinants and superpositions of two determinants. *)
From Coq Require Import List Bool Arith NArith ZArith Lia Ring.
From Verif Require Import Base Fock FockMore OperatorsSums CliqueModel QubitModel QubitProofs QubitCirc.
Import ListNotations.
Local Open Scope list_scope.

(** ** The index map *)
Lemma f2q_even r n : f2q (2 * r) n = r.
Proof.
  unfold f2q. replace ((2 * r) mod 2) with 0 by (rewrite Nat.mul_comm, Nat.mod_mul; lia). rewrite Nat.eqb_refl.
  rewrite Nat.mul_comm. apply Nat.div_mul. lia.
Qed.
Lemma f2q_odd r n : f2q (2 * r + 1) n = r + n.
Proof.
  unfold f2q. replace ((2 * r + 1) mod 2) with 1 by (rewrite Nat.add_comm, Nat.mul_comm, Nat.mod_add; [reflexivity|lia]).
  change (1 =? 0) with false. cbv iota. f_equal. rewrite Nat.add_comm, Nat.mul_comm, Nat.div_add; [reflexivity|lia].
Qed.
Lemma even_odd p : (exists r, p = 2 * r) \/ (exists r, p = 2 * r + 1).
Proof. destruct (Nat.Even_or_Odd p) as [[r ->]|[r ->]]; [left|right]; now exists r. Qed.
Lemma f2q_lt p n : p < 2 * n -> f2q p n < 2 * n.
Proof. destruct (even_odd p) as [[r ->]|[r ->]]; rewrite ?f2q_even, ?f2q_odd; lia. Qed.
Lemma f2q_inj p q n : p < 2 * n -> q < 2 * n -> f2q p n = f2q q n -> p = q.
Proof. destruct (even_odd p) as [[r ->]|[r ->]], (even_odd q) as [[s ->]|[s ->]]; rewrite ?f2q_even, ?f2q_odd; lia. Qed.
(** The inverse. *)
Definition q2f (q n : nat) : nat := if q <? n then 2 * q else 2 * (q - n) + 1.
Lemma f2q_q2f q n : q < 2 * n -> f2q (q2f q n) n = q /\ q2f q n < 2 * n.
Proof. intros H. unfold q2f. destruct (Nat.ltb_spec q n); rewrite ?f2q_even, ?f2q_odd; lia. Qed.
Lemma q2f_f2q p n : p < 2 * n -> q2f (f2q p n) n = p.
Proof. intros H. apply (f2q_inj _ _ n); [|exact H|]; now apply f2q_q2f, f2q_lt. Qed.

(** ** Determinants given by their occupations *)
Fixpoint from_occ (m : nat) (f : nat -> bool) : N :=
  match m with O => 0%N | S k => if f k then flip (from_occ k f) k else from_occ k f end.
Lemma occ_zero q : occ 0%N q = false.
Proof. unfold occ. apply N.bits_0. Qed.
Lemma occ_from m f q : occ (from_occ m f) q = (q <? m) && f q.
Proof.
  revert q. induction m as [|m IH]; intros q; [apply occ_zero|]. cbn [from_occ].
  destruct (Nat.eq_dec q m) as [->|Hq].
  - replace (m <? S m) with true by (symmetry; apply Nat.ltb_lt; lia). cbn [andb].
    destruct (f m) eqn:E; rewrite ?occ_flip_same, IH, Nat.ltb_irrefl; reflexivity.
  - transitivity (occ (from_occ m f) q); [destruct (f m); [apply occ_flip_other; auto|reflexivity]|].
    rewrite IH. destruct (Nat.ltb_spec q m), (Nat.ltb_spec q (S m)); try lia; reflexivity.
Qed.

(** ** Alpha and beta parities *)
Section Parities.
  (** Parity of [f] over [r, r + m). *)
  Fixpoint pf (f : nat -> bool) (r m : nat) : bool := match m with O => false | S k => xorb (f r) (pf f (S r) k) end.
  Lemma pf_ext f g r m : (forall q, r <= q < r + m -> f q = g q) -> pf f r m = pf g r m.
  Proof. revert r. induction m as [|m IH]; intros r H; [reflexivity|]. cbn [pf]. rewrite H by lia. f_equal. apply IH. intros q Hq. apply H. lia. Qed.
  Lemma pf_app f r a b : pf f r (a + b) = xorb (pf f r a) (pf f (r + a) b).
  Proof.
    revert r. induction a as [|a IH]; intros r; cbn [pf Nat.add]; [rewrite Nat.add_0_r; now destruct (pf f r b)|].
    rewrite IH, xorb_assoc. replace (S r + a) with (r + S a) by lia. reflexivity.
  Qed.
  Lemma pf_last f m : pf f 0 (S m) = xorb (pf f 0 m) (f m).
  Proof. replace (S m) with (m + 1) by lia. rewrite pf_app. cbn [pf]. now rewrite xorb_false_r. Qed.
  Lemma below_pf x q : below x q = pf (occ x) 0 q.
  Proof. induction q as [|q IH]; [reflexivity|]. rewrite pf_last, <- IH. cbn [below]. apply xorb_comm. Qed.
  (** Flipping one value. *)
  Definition upd (f : nat -> bool) (s : nat) : nat -> bool := fun q => if q =? s then negb (f q) else f q.
  Lemma pf_upd f s r m : pf (upd f s) r m = xorb (pf f r m) ((r <=? s) && (s <? r + m)).
  Proof.
    revert r. induction m as [|m IH]; intros r; cbn [pf].
    - destruct (Nat.leb_spec r s), (Nat.ltb_spec s (r + 0)); cbn; try lia; reflexivity.
    - rewrite IH. unfold upd. destruct (Nat.eqb_spec r s) as [->|Hrs].
      + rewrite Nat.leb_refl. destruct (Nat.leb_spec (S s) s), (Nat.ltb_spec s (s + S m)); try lia. destruct (f s), (pf f (S s) m); reflexivity.
      + destruct (Nat.leb_spec (S r) s), (Nat.leb_spec r s), (Nat.ltb_spec s (S r + m)), (Nat.ltb_spec s (r + S m)); try lia; cbn [andb]; destruct (f r), (pf f (S r) m); reflexivity.
  Qed.
  (** The reordering sign: every beta passes the alphas of higher orbitals. *)
  Fixpoint rs (a b : nat -> bool) (r m : nat) : bool :=
    match m with O => false | S k => xorb (b r && pf a (S r) k) (rs a b (S r) k) end.
  Lemma rs_ext a a' b b' r m : (forall q, r <= q < r + m -> a q = a' q /\ b q = b' q) -> rs a b r m = rs a' b' r m.
  Proof.
    revert r. induction m as [|m IH]; intros r H; [reflexivity|]. cbn [rs]. destruct (H r ltac:(lia)) as [_ ->].
    rewrite (pf_ext a a') by (intros; apply H; lia). rewrite IH; [reflexivity|]. intros q Hq; apply H; lia.
  Qed.
  Lemma rs_alpha a b s r m : r <= s < r + m -> rs (upd a s) b r m = xorb (rs a b r m) (pf b r (s - r)).
  Proof.
    revert r. induction m as [|m IH]; intros r H; [lia|]. cbn [rs]. rewrite pf_upd. destruct (Nat.eq_dec r s) as [->|Hrs].
    - replace (s - s) with 0 by lia. cbn [pf]. destruct (Nat.leb_spec (S s) s); [lia|]. cbn [andb]. rewrite !xorb_false_r. f_equal.
      apply rs_ext. intros q Hq. unfold upd. destruct (Nat.eqb_spec q s); [lia|auto].
    - rewrite IH by lia. replace (s - r) with (S (s - S r)) by lia. cbn [pf].
      destruct (Nat.leb_spec (S r) s), (Nat.ltb_spec s (S r + m)); try lia. cbn [andb].
      destruct (b r), (pf a (S r) m), (rs a b (S r) m), (pf b (S r) (s - S r)); reflexivity.
  Qed.
  Lemma rs_beta a b s r m : r <= s < r + m -> rs a (upd b s) r m = xorb (rs a b r m) (pf a (S s) (r + m - S s)).
  Proof.
    revert r. induction m as [|m IH]; intros r H; [lia|]. cbn [rs]. destruct (Nat.eq_dec r s) as [->|Hrs].
    - unfold upd at 1. rewrite Nat.eqb_refl. replace (s + S m - S s) with m by lia.
      rewrite (rs_ext a a (upd b s) b) by (intros q Hq; unfold upd; destruct (Nat.eqb_spec q s); [lia|auto]).
      destruct (b s), (pf a (S s) m), (rs a b (S s) m); reflexivity.
    - unfold upd at 1. destruct (Nat.eqb_spec r s); [lia|]. rewrite IH by lia. replace (r + S m - S s) with (S r + m - S s) by lia.
      now rewrite xorb_assoc.
  Qed.
End Parities.

(** ** The loop of [get_reordering_sign] *)
Section Sign.
  Definition rstep (st : Z * nat) (io : nat * bool) : Z * nat := let '(sign, alphas) := st in
           let '(i, occ) := io in
           if (i mod 2 =? 1)%nat && occ then (sign, S alphas)
           else if (i mod 2 =? 0)%nat && occ then (if (alphas mod 2 =? 1)%nat then ((sign * (-1))%Z, alphas) else (sign, alphas))
           else (sign, alphas).
  Definition rloop (det : list bool) := fold_left rstep (combine (seq 0 (List.length det)) (rev det)) (1%Z, 0%nat).
  Lemma combine_app {A B} (a a' : list A) (b b' : list B) : List.length a = List.length b -> combine (a ++ a') (b ++ b') = combine a b ++ combine a' b'.
  Proof. revert b. induction a as [|x a IH]; intros [|y b] H; cbn in *; try discriminate; [reflexivity|]. f_equal. apply IH. congruence. Qed.
  Lemma rloop_cons2 a0 b0 det : Nat.even (List.length det) = true ->
    rloop (a0 :: b0 :: det) = (let '(s, al) := rloop det in (if b0 && Nat.odd al then (s * (-1))%Z else s, if a0 then S al else al)).
  Proof.
    intros He. unfold rloop. cbn [List.length rev]. rewrite <- app_assoc. cbn [List.app].
    replace (S (S (List.length det))) with (List.length det + 2) by lia. rewrite seq_app. cbn [seq Nat.add].
    rewrite combine_app by now rewrite seq_length, rev_length. rewrite fold_left_app.
    destruct (fold_left rstep (combine (seq 0 (List.length det)) (rev det)) (1%Z, 0)) as [s al]. cbn [combine fold_left]. unfold rstep.
    apply Nat.even_spec in He as [m Hm].
    assert (List.length det mod 2 = 0) as -> by (rewrite Hm, Nat.mul_comm; apply Nat.mod_mul; lia).
    assert (S (List.length det) mod 2 = 1) as -> by (rewrite Hm; replace (S (2 * m)) with (1 + m * 2) by lia; rewrite Nat.mod_add by lia; reflexivity).
    change (0 =? 1) with false. change (0 =? 0) with true. change (1 =? 1) with true. change (1 =? 0) with false. cbn [andb].
    assert ((al mod 2 =? 1) = Nat.odd al) as ->.
    { destruct (even_odd al) as [[r ->]|[r ->]].
      - rewrite Nat.mul_comm, Nat.mod_mul by lia. rewrite Nat.odd_mul. now rewrite andb_comm.
      - rewrite Nat.add_comm, Nat.mul_comm, Nat.mod_add by lia. rewrite Nat.odd_add, Nat.odd_mul. now rewrite (andb_comm (Nat.odd r)). }
    destruct b0, (Nat.odd al), a0; reflexivity.
  Qed.
  (** The determinant string of the occupations of orbitals [r, r + m). *)
  Fixpoint dlist (a b : nat -> bool) (r m : nat) : list bool := match m with O => [] | S k => a r :: b r :: dlist a b (S r) k end.
  Lemma dlist_length a b r m : List.length (dlist a b r m) = 2 * m.
  Proof. revert r. induction m as [|m IH]; intros r; [reflexivity|]. cbn [dlist List.length]. rewrite IH. lia. Qed.
  Lemma rloop_dlist a b r m : fst (rloop (dlist a b r m)) = (if rs a b r m then (-1)%Z else 1%Z) /\ Nat.odd (snd (rloop (dlist a b r m))) = pf a r m.
  Proof.
    revert r. induction m as [|m IH]; intros r; [split; reflexivity|]. cbn [dlist].
    rewrite rloop_cons2 by (rewrite dlist_length, Nat.even_mul; reflexivity). specialize (IH (S r)).
    destruct (rloop (dlist a b (S r) m)) as [s al]. cbn [fst snd] in *. destruct IH as [-> Ha]. cbn [rs pf]. rewrite Ha. split.
    - destruct (b r), (pf a (S r) m), (rs a b (S r) m); reflexivity.
    - destruct (a r); [rewrite Nat.odd_succ, <- Nat.negb_odd, Ha|rewrite Ha]; now destruct (pf a (S r) m).
  Qed.
  Lemma reordering_sign_eq a b m : get_reordering_sign (dlist a b 0 m) = if rs a b 0 m then (-1)%Z else 1%Z.
  Proof. exact (proj1 (rloop_dlist a b 0 m)). Qed.
  Lemma dlist_of det m : List.length det = 2 * m -> det = dlist (fun r => nth (2 * r) det false) (fun r => nth (2 * r + 1) det false) 0 m.
  Proof.
    assert (forall pre d, List.length d = 2 * m -> Nat.even (List.length pre) = true ->
        d = dlist (fun r => nth (2 * r) (pre ++ d) false) (fun r => nth (2 * r + 1) (pre ++ d) false) (List.length pre / 2) m) as H.
    2: { intros Hl. exact (H [] det Hl eq_refl). }
    induction m as [|m IH]; intros pre d Hl He; [destruct d; [reflexivity|discriminate]|].
    destruct d as [|x [|y d]]; try (cbn in Hl; lia). cbn [dlist]. apply Nat.even_spec in He as [e He].
    assert (List.length pre / 2 = e) as Hd by (rewrite He, Nat.mul_comm; apply Nat.div_mul; lia). rewrite Hd.
    rewrite app_nth2 by lia. rewrite app_nth2 by lia. replace (2 * e - List.length pre) with 0 by lia. replace (2 * e + 1 - List.length pre) with 1 by lia.
    cbn [nth]. f_equal. f_equal. specialize (IH (pre ++ [x; y]) d). rewrite app_length in IH. cbn [List.length] in IH.
    rewrite <- app_assoc in IH. cbn [List.app] in IH. replace ((List.length pre + 2) / 2) with (S e) in IH.
    - apply IH; [cbn in Hl; lia|]. rewrite He. apply Nat.even_spec. exists (S e). lia.
    - rewrite He. replace (2 * e + 2) with (S e * 2) by lia. symmetry. apply Nat.div_mul. lia.
  Qed.
End Sign.

(** ** Interleaved and blocked ordering of the spin orbitals *)
Section Intertwine.
  Context {K : Type} {C : CRing K}.
  Local Open Scope K_scope.
  Add Ring KringQR : (@rth K C).
  (** The interleaved determinant of a blocked one. *)
  Definition unblock (n : nat) (D : N) : N := from_occ (2 * n) (fun p => occ D (f2q p n)).
  Definition al (n : nat) (D : N) (r : nat) : bool := occ D r.
  Definition be (n : nat) (D : N) (r : nat) : bool := occ D (r + n)%nat.
  Lemma below_split f n : pf f 0 (2 * n) = xorb (pf (fun r => f (2 * r)%nat) 0 n) (pf (fun r => f (2 * r + 1)%nat) 0 n).
  Proof.
    induction n as [|n IH]; [reflexivity|]. replace (2 * S n)%nat with (S (S (2 * n))) by lia. rewrite !pf_last, IH.
    replace (S (2 * n))%nat with (2 * n + 1)%nat by lia.
    destruct (pf (fun r => f (2 * r)%nat) 0 n), (pf (fun r => f (2 * r + 1)%nat) 0 n), (f (2 * n)%nat), (f (2 * n + 1)%nat); reflexivity.
  Qed.
  Lemma occ_unblock n D p : (p < 2 * n)%nat -> occ (unblock n D) p = occ D (f2q p n).
  Proof. intros H. unfold unblock. rewrite occ_from. apply Nat.ltb_lt in H as ->. reflexivity. Qed.
  Lemma unblock_flip n D p : (p < 2 * n)%nat -> unblock n (flip D (f2q p n)) = flip (unblock n D) p.
  Proof.
    intros H. apply det_ext. intros q. destruct (Nat.lt_ge_cases q (2 * n)) as [Hq|Hq].
    - rewrite occ_unblock by assumption. destruct (Nat.eq_dec q p) as [->|Hqp]; [now rewrite !occ_flip_same, occ_unblock|].
      rewrite !occ_flip_other; [now rewrite occ_unblock| |]; auto. intros E. apply f2q_inj in E; auto.
    - rewrite occ_flip_other by lia. unfold unblock. rewrite !occ_from. apply Nat.ltb_ge in Hq as ->. reflexivity.
  Qed.
  Lemma pf_shift D n r a : pf (occ D) (a + n) r = pf (fun t => occ D (t + n)%nat) a r.
  Proof. revert a. induction r as [|r IH]; intros a; [reflexivity|]. cbn [pf]. f_equal. exact (IH (S a)). Qed.
  (** The sign of a blocked determinant. *)
  Definition bsign (n : nat) (D : N) : bool := rs (fun r => occ D r) (fun r => occ D (r + n)%nat) 0 n.
  (** The change of the sign when spin orbital [p] is flipped, against the signs of
      the elementary operators in the two orderings. *)
  Lemma intertwine_sign n D p : (p < 2 * n)%nat ->
    xorb (bsign n D) (below (unblock n D) p) = xorb (below D (f2q p n)) (bsign n (flip D (f2q p n))).
  Proof.
    intros H. assert (forall q, (q <= 2 * n)%nat -> below (unblock n D) q = pf (fun p => occ D (f2q p n)) 0 q) as Hb.
    { intros q Hq. rewrite below_pf. apply pf_ext. intros t Ht. apply occ_unblock. lia. }
    rewrite Hb by lia. destruct (even_odd p) as [[r ->]|[r ->]].
    - rewrite below_split, f2q_even.
      rewrite (pf_ext (fun t => occ D (f2q (2 * t) n)) (occ D)) by (intros; now rewrite f2q_even).
      rewrite (pf_ext (fun t => occ D (f2q (2 * t + 1) n)) (fun t => occ D (t + n)%nat)) by (intros; now rewrite f2q_odd).
      rewrite below_pf. unfold bsign at 2.
      rewrite (rs_ext _ (upd (fun t => occ D t) r) _ (fun t => occ D (t + n)%nat)).
      2: { intros q Hq. split; [|apply occ_flip_other; lia]. unfold upd. destruct (Nat.eqb_spec q r) as [->|]; [apply occ_flip_same|apply occ_flip_other; auto]. }
      rewrite rs_alpha by lia. rewrite Nat.sub_0_r. unfold bsign.
      destruct (rs _ _ 0 n), (pf (occ D) 0 r), (pf (fun t => occ D (t + n)%nat) 0 r); reflexivity.
    - replace (2 * r + 1)%nat with (S (2 * r)) by lia. rewrite pf_last, below_split. replace (S (2 * r)) with (2 * r + 1)%nat by lia. rewrite f2q_even, f2q_odd.
      rewrite (pf_ext (fun t => occ D (f2q (2 * t) n)) (occ D)) by (intros; now rewrite f2q_even).
      rewrite (pf_ext (fun t => occ D (f2q (2 * t + 1) n)) (fun t => occ D (t + n)%nat)) by (intros; now rewrite f2q_odd).
      rewrite below_pf. unfold bsign at 2.
      rewrite (rs_ext _ (fun t => occ D t) _ (upd (fun t => occ D (t + n)%nat) r)).
      2: { intros q Hq. split; [apply occ_flip_other; lia|]. unfold upd. destruct (Nat.eqb_spec q r) as [->|]; [apply occ_flip_same|apply occ_flip_other; lia]. }
      rewrite rs_beta by lia. replace (r + n)%nat with (n + r)%nat by lia. rewrite pf_app.
      assert (pf (occ D) (0 + n) r = pf (fun t => occ D (t + n)%nat) 0 r) as ->.
      { exact (pf_shift D n r 0). }
      replace n with (S r + (0 + n - S r))%nat at 2 by lia. rewrite pf_app. rewrite pf_last. unfold bsign. cbn [Nat.add].
      destruct (rs _ _ 0 n), (pf (occ D) 0 r), (occ D r), (pf (fun t => occ D (t + n)%nat) 0 r), (pf (occ D) (S r) (n - S r)); reflexivity.
  Qed.
  (** The map of states from interleaved to blocked ordering. *)
  Definition toblock (n : nat) (psi : amps) : amps := fun D => sgn (bsign n D) (psi (unblock n D)).
  Lemma toblock_app1 n p b (psi : amps) D : (p < 2 * n)%nat -> toblock n (app1 (K:=K) (p, b) psi) D = app1 (f2q p n, b) (toblock n psi) D.
  Proof.
    intros H. unfold toblock, app1. cbn [fst snd]. rewrite occ_unblock by assumption.
    destruct (Bool.eqb (occ D (f2q p n)) b); [|destruct (bsign n D); cbn [sgn]; ring].
    rewrite unblock_flip by assumption. pose proof (intertwine_sign n D p H) as E.
    destruct (bsign n D), (below (unblock n D) p), (below D (f2q p n)), (bsign n (flip D (f2q p n))); cbn in E; try discriminate; cbn [sgn]; ring.
  Qed.
  Lemma toblock_ext n (f g : amps) : (forall x, f x = g x) -> forall D, toblock n f D = toblock n g D.
  Proof. intros H D. unfold toblock. now rewrite H. Qed.
  Lemma toblock_appstr n s (psi : amps) : (forall o, In o s -> (fst o < 2 * n)%nat) -> forall D,
    toblock n (appstr (K:=K) s psi) D = appstr (map (fun o => (f2q (fst o) n, snd o)) s) (toblock n psi) D.
  Proof.
    induction s as [|[p b] s IH]; intros H D; [reflexivity|]. cbn [appstr map fst snd]. rewrite toblock_app1 by (apply (H (p, b)); now left).
    unfold app1. cbn [fst snd]. rewrite IH; [reflexivity|]. intros o Ho. apply H. now right.
  Qed.
  Lemma toblock_opapp n A (psi : amps) : (forall s c o, In (s, c) A -> In o s -> (fst o < 2 * n)%nat) -> forall D,
    toblock n (opapp (K:=K) A psi) D = opapp (map (fun sc => (map (fun o => (f2q (fst o) n, snd o)) (fst sc), snd sc)) A) (toblock n psi) D.
  Proof.
    induction A as [|[s c] A IH]; intros H D; [unfold toblock; cbn; destruct (bsign n D); cbn [sgn]; ring|].
    cbn [opapp map fst snd]. rewrite <- IH by (intros; eapply H; [right|]; eassumption). rewrite <- toblock_appstr by (intros o Ho; eapply H; [now left|exact Ho]).
    unfold toblock. destruct (bsign n D); cbn [sgn]; ring.
  Qed.
End Intertwine.

(** ** Creation operators in ascending order *)
Section Creators.
  Context {K : Type} {C : CRing K}.
  Local Open Scope K_scope.
  Add Ring KringQRc : (@rth K C).
  Definition crea (f : nat -> bool) (lo len : nat) : list (nat * bool) := map (fun p => (p, true)) (filter f (seq lo len)).
  Lemma below_low d p : (forall q, (q < p)%nat -> occ d q = false) -> below d p = false.
  Proof. induction p as [|p IH]; intros H; [reflexivity|]. cbn [below]. rewrite H by lia. rewrite IH; [reflexivity|]. intros; apply H; lia. Qed.
  Lemma basis_flip d p e : basis (K:=K) d (flip e p) = basis (flip d p) e.
  Proof.
    unfold basis. destruct (N.eqb_spec d (flip e p)) as [E|E], (N.eqb_spec (flip d p) e) as [E'|E']; try reflexivity; exfalso.
    - apply E'. rewrite E. apply flip_flip.
    - apply E. rewrite <- E'. symmetry. apply flip_flip.
  Qed.
  Lemma app1_create_low d p : occ d p = false -> below d p = false -> forall e, app1 (p, true) (basis (K:=K) d) e = basis (flip d p) e.
  Proof.
    intros Ho Hb e. unfold app1. cbn [fst snd]. rewrite basis_flip. unfold basis. destruct (N.eqb_spec (flip d p) e) as [<-|He].
    - rewrite occ_flip_same, Ho. cbn [negb Bool.eqb]. rewrite below_flip_ge, Hb by lia. reflexivity.
    - destruct (Bool.eqb (occ e p) true), (below e p); cbn [sgn]; ring.
  Qed.
  Lemma crea_basis f m lo len : (lo + len = m)%nat -> forall e,
    appstr (crea f lo len) (basis 0%N) e = basis (K:=K) (from_occ m (fun q => (lo <=? q) && f q)) e.
  Proof.
    intros Hm. revert lo Hm. induction len as [|len IH]; intros lo Hm e.
    - cbn. f_equal. f_equal. apply det_ext. intros q. rewrite occ_from, occ_zero. destruct (Nat.ltb_spec q m), (Nat.leb_spec lo q); try lia; reflexivity.
    - unfold crea. cbn [seq filter]. destruct (f lo) eqn:Ef.
      + cbn [map appstr]. change (map (fun p => (p, true)) (filter f (seq (S lo) len))) with (crea f (S lo) len).
        transitivity (app1 (lo, true) (basis (K:=K) (from_occ m (fun q => (S lo <=? q) && f q))) e).
        { unfold app1. cbn [fst snd]. now rewrite IH by lia. }
        rewrite app1_create_low.
        * f_equal. apply det_ext. intros q. destruct (Nat.eq_dec q lo) as [->|Hq].
          -- rewrite occ_flip_same, !occ_from. rewrite Ef, Nat.leb_refl. destruct (Nat.ltb_spec lo m), (Nat.leb_spec (S lo) lo); try lia; reflexivity.
          -- rewrite occ_flip_other, !occ_from by auto. destruct (Nat.leb_spec (S lo) q), (Nat.leb_spec lo q); try lia; reflexivity.
        * rewrite occ_from. destruct (Nat.leb_spec (S lo) lo); [lia|]. apply andb_false_r.
        * apply below_low. intros q Hq. rewrite occ_from. destruct (Nat.leb_spec (S lo) q); [lia|]. apply andb_false_r.
      + change (map (fun p => (p, true)) (filter f (seq (S lo) len))) with (crea f (S lo) len). rewrite IH by lia.
        f_equal. apply det_ext. intros q. rewrite !occ_from. destruct (Nat.eq_dec q lo) as [->|Hq]; [rewrite Ef, !andb_false_r; reflexivity|].
        destruct (Nat.leb_spec (S lo) q), (Nat.leb_spec lo q); try lia; reflexivity.
  Qed.
End Creators.

(** ** Determinant circuits *)
Section Ref.
  Context {K : Type} {C : CRing K}.
  Local Open Scope K_scope.
  Add Ring KringQR2 : (@rth K C).
  Notation cx := (K * K)%type.
  Add Ring CxringQR2 : (@rth cx Cx_CRing).
  Notation qstate := (qstate (K:=K)).
  Notation gate := (gate (K:=K)).

  Lemma occ_lxor x d q : occ (N.lxor x d) q = xorb (occ x q) (occ d q).
  Proof. unfold occ. apply N.lxor_spec. Qed.
  Lemma x_sem s2 q (psi : qstate) x : gate_sem s2 (GX q) psi x = psi (flip x q).
  Proof. cbn [gate_sem]. rewrite app1q_eq. unfold mX. destruct (occ x q); cbn [Bool.eqb negb]; ring. Qed.
  (** [D] is the blocked determinant of the string [det]. *)
  Definition blocked (n : nat) (det : list bool) (D : N) : Prop :=
    (forall p, (p < 2 * n)%nat -> occ D (f2q p n) = nth p det false) /\ (forall q, (2 * n <= q)%nat -> occ D q = false).
  Lemma blocked_exists n det : blocked n det (from_occ (2 * n) (fun q => nth (q2f q n) det false)).
  Proof.
    split; [intros p Hp|intros q Hq]; rewrite occ_from.
    - pose proof (f2q_lt p n Hp) as H. apply Nat.ltb_lt in H as ->. now rewrite q2f_f2q by assumption.
    - apply Nat.ltb_ge in Hq as ->. reflexivity.
  Qed.
  Lemma blocked_unique n det D D' : blocked n det D -> blocked n det D' -> D = D'.
  Proof.
    intros [H1 H2] [H3 H4]. apply det_ext. intros q. destruct (Nat.lt_ge_cases q (2 * n)) as [Hq|Hq]; [|now rewrite H2, H4].
    destruct (f2q_q2f q n Hq) as [E Hp]. rewrite <- E. rewrite H1, H3 by exact Hp. reflexivity.
  Qed.
  (** A list of gates each reading the qubits indexed by a list of positions. *)
  Lemma flat_map_run_x s2 n det t (psi : qstate) x : (t + List.length det <= 2 * n)%nat ->
    run s2 (flat_map (fun io : nat * bool => if snd io then [GX (f2q (fst io) n)] else []) (combine (seq t (List.length det)) det)) psi x
    = psi (N.lxor x (from_occ (2 * n) (fun q => (t <=? q2f q n) && nth (q2f q n - t) det false))).
  Proof.
    revert t psi. induction det as [|b det IH]; intros t psi Ht.
    - cbn. f_equal. apply det_ext. intros q. rewrite occ_lxor, occ_from. destruct (q2f q n - t)%nat; rewrite ?andb_false_r, xorb_false_r; reflexivity.
    - cbn [List.length seq combine flat_map fst snd] in *. rewrite run_app, IH by lia.
      set (R := N.lxor x _). assert (occ R (f2q t n) = occ x (f2q t n)) as Hr.
      { unfold R. rewrite occ_lxor, occ_from, q2f_f2q by lia. destruct (Nat.leb_spec (S t) t); [lia|]. now rewrite andb_false_r, xorb_false_r. }
      assert (forall q, (q <> f2q t n) -> occ R q = occ (N.lxor x (from_occ (2 * n) (fun q => (t <=? q2f q n) && nth (q2f q n - t) (b :: det) false))) q) as Ho.
      { intros q Hq. unfold R. rewrite !occ_lxor, !occ_from. f_equal. destruct (Nat.ltb_spec q (2 * n)) as [Hl|]; [|reflexivity]. cbn [andb].
        assert (q2f q n <> t) by (intros <-; apply Hq; symmetry; now apply f2q_q2f).
        destruct (Nat.leb_spec (S t) (q2f q n)), (Nat.leb_spec t (q2f q n)); try (exfalso; lia); [|reflexivity]. cbn [andb].
        replace (q2f q n - t)%nat with (S (q2f q n - S t)) by lia. reflexivity. }
      destruct b.
      + cbn [run fold_left]. rewrite x_sem. f_equal. apply det_ext. intros q. destruct (Nat.eq_dec q (f2q t n)) as [->|Hq].
        * rewrite occ_flip_same, Hr, occ_lxor, occ_from, q2f_f2q by lia. pose proof (f2q_lt t n ltac:(lia)) as Hl. apply Nat.ltb_lt in Hl as ->.
          rewrite Nat.leb_refl, Nat.sub_diag. cbn. now rewrite xorb_true_r.
        * rewrite occ_flip_other by auto. now apply Ho.
      + cbn [run fold_left]. f_equal. apply det_ext. intros q. destruct (Nat.eq_dec q (f2q t n)) as [->|Hq]; [|now apply Ho].
        rewrite Hr, occ_lxor, occ_from, q2f_f2q by lia. rewrite Nat.leb_refl, Nat.sub_diag. cbn. now rewrite andb_false_r, xorb_false_r.
  Qed.
  Lemma run_x_gates s2 n det D (psi : qstate) x : List.length det = (2 * n)%nat -> blocked n det D -> run s2 (x_gates det n) psi x = psi (N.lxor x D).
  Proof.
    intros Hl HD. unfold x_gates. rewrite flat_map_run_x by lia. do 2 f_equal.
    apply (blocked_unique n det); [|exact HD]. destruct (blocked_exists n det) as [H1 H2]. split.
    - intros p Hp. rewrite <- H1 by assumption. rewrite !occ_from. now rewrite Nat.sub_0_r.
    - intros q Hq. rewrite occ_from. apply Nat.ltb_ge in Hq as ->. reflexivity.
  Qed.
  Lemma zero_lxor x D : zero_state (K:=K) (N.lxor x D) = basis D x.
  Proof.
    unfold zero_state, basis. destruct (N.eqb_spec (N.lxor x D) 0) as [H|H], (N.eqb_spec D x) as [E|E]; try reflexivity.
    - apply N.lxor_eq in H. congruence.
    - subst. now rewrite N.lxor_nilpotent in H.
  Qed.

  (** Controlled gates with one control. *)
  Lemma run_cx_gates s2 h n det1 det2 t (psi : qstate) x : (t + List.length det1 <= 2 * n)%nat -> List.length det2 = List.length det1 ->
    run s2 (flat_map (fun e : nat * (bool * bool) =>
      let '(i, (occ1, occ2)) := e in
      let idx := f2q i n in
      if Bool.eqb occ1 occ2 || (idx =? h)%nat then []
      else if occ1 || occ2 then [GCX h idx] else []) (combine (seq t (List.length det1)) (combine det1 det2))) psi x
    = psi (if occ x h then N.lxor x (from_occ (2 * n) (fun q => (t <=? q2f q n) && negb (q =? h)%nat && xorb (nth (q2f q n - t) det1 false) (nth (q2f q n - t) det2 false))) else x).
  Proof.
    revert t det2 psi. induction det1 as [|b1 det1 IH]; intros t [|b2 det2] psi Ht Hl; try discriminate.
    - cbn. f_equal. destruct (occ x h); [|reflexivity]. apply det_ext. intros q. rewrite occ_lxor, occ_from. destruct (q2f q n - t)%nat; cbn [xorb]; rewrite !andb_false_r, xorb_false_r; reflexivity.
    - cbn [List.length seq combine flat_map] in *. rewrite run_app, IH by lia.
      set (d := if Bool.eqb b1 b2 || (f2q t n =? h)%nat then [] else if b1 || b2 then [GCX (K:=K) h (f2q t n)] else []).
      assert (forall y, run s2 d psi y = psi (if occ y h && negb (f2q t n =? h)%nat && xorb b1 b2 then flip y (f2q t n) else y)) as Hd.
      { intros y. unfold d. destruct b1, b2, (f2q t n =? h)%nat; cbn; destruct (occ y h); reflexivity. }
      rewrite Hd. f_equal. destruct (occ x h) eqn:Eh; [|now rewrite Eh].
      set (R := N.lxor x _). assert (forall q, occ R q = xorb (occ x q) ((q <? 2 * n) && ((S t <=? q2f q n) && negb (q =? h)%nat && xorb (nth (q2f q n - S t) det1 false) (nth (q2f q n - S t) det2 false)))) as HR.
      { intros q. unfold R. now rewrite occ_lxor, occ_from. }
      assert (occ R h = true) as ->. { rewrite HR, Nat.eqb_refl. cbn [negb]. rewrite andb_false_r. cbn [andb]. now rewrite andb_false_r, xorb_false_r. }
      cbn [andb]. apply det_ext. intros q. destruct (Nat.eq_dec q (f2q t n)) as [->|Hq].
      + assert (occ R (f2q t n) = occ x (f2q t n)) as Hr.
        { rewrite HR, q2f_f2q by lia. destruct (Nat.leb_spec (S t) t); [lia|]. cbn [andb]. now rewrite andb_false_r, xorb_false_r. }
        rewrite occ_lxor, occ_from, q2f_f2q by lia. pose proof (f2q_lt t n ltac:(lia)) as Hlt. apply Nat.ltb_lt in Hlt as ->.
        rewrite Nat.leb_refl, Nat.sub_diag. cbn [nth andb].
        destruct (negb (f2q t n =? h)%nat && xorb b1 b2); rewrite ?occ_flip_same, Hr; destruct (occ x (f2q t n)); reflexivity.
      + transitivity (occ R q); [destruct (negb (f2q t n =? h)%nat && xorb b1 b2); [now apply occ_flip_other; auto|reflexivity]|].
        rewrite HR, occ_lxor, occ_from. f_equal. destruct (Nat.ltb_spec q (2 * n)) as [Hlq|]; [|reflexivity]. cbn [andb].
        assert (q2f q n <> t) by (intros <-; apply Hq; symmetry; now apply f2q_q2f).
        destruct (Nat.leb_spec (S t) (q2f q n)), (Nat.leb_spec t (q2f q n)); try (exfalso; lia); [|reflexivity]. cbn [andb].
        replace (q2f q n - t)%nat with (S (q2f q n - S t)) by lia. reflexivity.
  Qed.
  Lemma run_cx_gates' s2 h n det1 det2 D1 D2 (psi : qstate) x : List.length det1 = (2 * n)%nat -> List.length det2 = (2 * n)%nat -> (h < 2 * n)%nat ->
    blocked n det1 D1 -> blocked n det2 D2 -> xorb (occ D1 h) (occ D2 h) = true ->
    run s2 (cx_gates h det1 det2 n) psi x = psi (if occ x h then flip (N.lxor x (N.lxor D1 D2)) h else x).
  Proof.
    intros H1 H2 Hh [A1 A2] [B1 B2] Hx. unfold cx_gates, enum2. rewrite H1, H2, Nat.min_id. rewrite <- H1. rewrite run_cx_gates by lia.
    f_equal. destruct (occ x h); [|reflexivity]. apply det_ext. intros q. destruct (Nat.eq_dec q h) as [->|Hq].
    - rewrite occ_flip_same, !occ_lxor, occ_from, Hx, Nat.eqb_refl. cbn [negb andb]. rewrite andb_false_r, xorb_true_r, xorb_false_r. now rewrite negb_involutive.
    - rewrite occ_flip_other by auto. rewrite !occ_lxor, occ_from. f_equal. destruct (Nat.ltb_spec q (2 * n)) as [Hlq|Hlq].
      + destruct (Nat.eqb_spec q h); [contradiction|]. rewrite Nat.sub_0_r. cbn [andb negb]. destruct (f2q_q2f q n Hlq) as [E Hp].
        rewrite <- (A1 _ Hp), <- (B1 _ Hp), E. reflexivity.
      + now rewrite A2, B2 by lia.
  Qed.
  (** The loop looking for the Hadamard qubit. *)
  Lemma hadamard_spec n det1 det2 : List.length det1 = (2 * n)%nat -> List.length det2 = (2 * n)%nat ->
    match hadamard_index det1 det2 n with
    | Some h => exists p, (p < 2 * n)%nat /\ h = f2q p n /\ nth p det1 false = false /\ nth p det2 false = true
    | None => forall p, nth p det2 false = true -> nth p det1 false = true
    end.
  Proof.
    intros H1 H2. unfold hadamard_index, enum2. rewrite H1, H2, Nat.min_id. rewrite <- H1. assert (List.length det1 <= 2 * n)%nat as Hle by lia.
    assert (forall t, match find (fun e : nat * (bool * bool) => negb (fst (snd e)) && snd (snd e)) (combine (seq t (List.length det1)) (combine det1 det2)) with
      | Some e => exists p, (p < List.length det1)%nat /\ fst e = (t + p)%nat /\ nth p det1 false = false /\ nth p det2 false = true
      | None => forall p, nth p det2 false = true -> nth p det1 false = true end) as H.
    { assert (List.length det2 = List.length det1) as E by lia. clear - E. revert det2 E. induction det1 as [|a det1 IH]; intros [|b det2] E t; try discriminate.
      - cbn. intros [|p]; discriminate.
      - cbn [List.length seq combine find fst snd]. destruct (negb a && b) eqn:Eab.
        + exists 0%nat. apply andb_prop in Eab as [Ea ->]. destruct a; [discriminate|]. cbn. repeat split; lia.
        + specialize (IH det2 ltac:(cbn in E; lia) (S t)). destruct (find _ _) as [e|].
          * destruct IH as (p & Hp & -> & ? & ?). exists (S p). cbn. repeat split; auto; lia.
          * intros [|p]; cbn [nth]; [intros ->; destruct a; [reflexivity|discriminate]|apply IH]. }
    specialize (H 0%nat). destruct (find _ _) as [e|]; [|exact H]. destruct H as (p & Hp & -> & ? & ?). exists p. repeat split; auto; lia.
  Qed.
  Lemma superposition_spec s2 n det1 det2 D1 D2 : List.length det1 = (2 * n)%nat -> List.length det2 = (2 * n)%nat ->
    blocked n det1 D1 -> blocked n det2 D2 ->
    match get_determinant_superposition_reference (K:=K) det1 det2 n JordanWigner with
    | Ok c => forall x, run s2 c zero_state x = cre s2 * (basis D1 x + basis D2 x)
    | Raise ValueError => forall p, nth p det2 false = true -> nth p det1 false = true
    | _ => False
    end.
  Proof.
    intros H1 H2 B1 B2. unfold get_determinant_superposition_reference. pose proof (hadamard_spec n det1 det2 H1 H2) as Hh.
    destruct (hadamard_index det1 det2 n) as [h|]; [|exact Hh]. destruct Hh as (p & Hp & -> & Ha & Hb).
    set (h := f2q p n). assert (occ D1 h = false) as O1 by (unfold h; rewrite (proj1 B1) by assumption; exact Ha).
    assert (occ D2 h = true) as O2 by (unfold h; rewrite (proj1 B2) by assumption; exact Hb).
    intros x. rewrite run_app'. change (run s2 (GH h :: ?l) ?psi x) with (run s2 l (gate_sem s2 (GH h) psi) x).
    rewrite (run_cx_gates' s2 h n det1 det2 D1 D2) by (auto; (apply f2q_lt; exact Hp) || now rewrite O1, O2).
    cbn [gate_sem]. rewrite app1q_eq. rewrite !(run_x_gates s2 n det1 D1), !zero_lxor by assumption.
    assert (forall D e, basis (K:=K*K) D e = if N.eqb D e then 1 else 0) as Hbas by reflexivity.
    assert (forall D e, occ D h <> occ e h -> basis (K:=K*K) D e = 0) as Hne.
    { intros D e H. rewrite Hbas. destruct (N.eqb_spec D e) as [->|]; [now elim H|reflexivity]. }
    destruct (occ x h) eqn:Ex.
    - rewrite occ_flip_same, !occ_lxor, Ex, O1, O2. cbn [xorb negb]. unfold mH. cbn [andb].
      rewrite (Hne D1 x) by (rewrite Ex, O1; discriminate). rewrite flip_flip.
      rewrite (Hne D1 (flip (N.lxor x (N.lxor D1 D2)) h)) by (rewrite O1, occ_flip_same, !occ_lxor, Ex, O1, O2; discriminate).
      replace (basis (K:=K*K) D1 (N.lxor x (N.lxor D1 D2))) with (basis (K:=K*K) D2 x); [ring|].
      rewrite !Hbas. destruct (N.eqb_spec D2 x) as [E|E], (N.eqb_spec D1 (N.lxor x (N.lxor D1 D2))) as [E'|E']; try reflexivity; exfalso.
      + apply E'. rewrite <- E. apply det_ext. intros q. rewrite !occ_lxor. destruct (occ D1 q), (occ D2 q); reflexivity.
      + apply E. apply det_ext. intros q. assert (occ D1 q = occ (N.lxor x (N.lxor D1 D2)) q) as Eq by (now rewrite <- E'). rewrite !occ_lxor in Eq.
        destruct (occ D1 q), (occ D2 q), (occ x q); cbn in Eq; congruence.
    - rewrite Ex. rewrite (Hne D2 x) by (rewrite Ex, O2; discriminate). rewrite (Hne D1 (flip x h)) by (rewrite occ_flip_same, Ex, O1; discriminate).
      unfold mH. cbn [andb]. ring.
  Qed.
End Ref.
