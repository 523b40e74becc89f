(** More facts about the Fock-space specification. *)
From Coq Require Import List Bool Arith NArith ZArith Lia Ring.
From Verif Require Import Base Fock.
Import ListNotations.

Section More.
  Context {K : Type} {C : CRing K}.
  Local Open Scope K_scope.
  Add Ring KringM : (@rth K C).

  (** Gathering view of a string: the amplitude at [x] comes from at most one
      determinant, the one the adjoint string maps [x] to. *)
  Lemma appstr_gather s (f : amps) x :
    appstr (K:=K) s f x =
    match actdet (adjstr s) x with
    | Some (sg, y) => sgn sg (f y)
    | None => 0
    end.
  Proof.
    revert x. induction s as [|[p a] s IH]; intros x; [reflexivity|].
    cbn [appstr]. unfold app1. cbn [fst snd]. unfold adjstr. cbn [map rev]. fold (adjstr s).
    rewrite actdet_app. cbn [actdet fst snd].
    destruct (occ x p), a; simpl; auto; rewrite IH;
      destruct (actdet (adjstr s) (flip x p)) as [[sg y]|]; rewrite ?sgn_0, ?sgn_sgn; destruct (below x p); reflexivity.
  Qed.

  (** Two term lists with the same matrix elements act in the same way on every
      state. *)
  Fixpoint dsum (g : det -> K) (l : list (det * K)) : K :=
    match l with [] => 0 | (y, c) :: l' => c * g y + dsum g l' end.

  Fixpoint dcoef (y : det) (l : list (det * K)) : K :=
    match l with [] => 0 | (z, c) :: l' => (if N.eqb z y then c else 0) + dcoef y l' end.

  Definition dwithout (y : det) (l : list (det * K)) := filter (fun zc => negb (N.eqb (fst zc) y)) l.

  Lemma dsum_without g y l : dsum g l = dcoef y l * g y + dsum g (dwithout y l).
  Proof.
    induction l as [|[z c] l IH]; simpl; [ring|]. rewrite IH.
    destruct (N.eqb_spec z y) as [->|]; simpl; ring.
  Qed.

  Lemma dcoef_without y z l : dcoef z (dwithout y l) = if N.eqb z y then 0 else dcoef z l.
  Proof.
    induction l as [|[w c] l IH]; simpl.
    - now destruct (N.eqb z y).
    - destruct (N.eqb_spec w y) as [->|Hne]; simpl.
      + rewrite IH. destruct (N.eqb_spec z y) as [->|Hz]; auto.
        destruct (N.eqb_spec y z) as [->|]; [congruence|ring].
      + rewrite IH. destruct (N.eqb_spec z y) as [->|Hz]; auto.
        destruct (N.eqb_spec w y); [congruence|ring].
  Qed.

  Lemma dwithout_length y l : (length (dwithout y l) <= length l)%nat.
  Proof. unfold dwithout. induction l as [|a l IH]; simpl; auto. destruct (negb _); simpl; lia. Qed.

  Lemma dsum_zero g l : (forall y, dcoef y l = 0) -> dsum g l = 0.
  Proof.
    remember (length l) as n eqn:En. assert (Hn : (length l <= n)%nat) by lia. clear En.
    revert l Hn. induction n as [|n IH]; intros l Hn H.
    - destruct l; simpl in *; auto; lia.
    - destruct l as [|[y c] l]; auto. rewrite (dsum_without g y), H, IH; [ring| |].
      + assert (E : dwithout y ((y, c) :: l) = dwithout y l) by (unfold dwithout; simpl; now rewrite N.eqb_refl).
        rewrite E. eapply Nat.le_trans; [apply dwithout_length|]. apply le_S_n. exact Hn.
      + intros z. rewrite dcoef_without, H. now destruct (N.eqb z y).
  Qed.

  Definition gterms (l : list (fstring * K)) (x : det) : list (det * K) :=
    flat_map (fun sc => match actdet (adjstr (fst sc)) x with
                        | Some (sg, y) => [(y, sgn sg (snd sc))]
                        | None => [] end) l.

  Lemma dsum_app g l m : dsum g (l ++ m) = dsum g l + dsum g m.
  Proof. induction l as [|[y c] l IH]; simpl; [ring|]. rewrite IH. ring. Qed.
  Lemma dcoef_app y l m : dcoef y (l ++ m) = dcoef y l + dcoef y m.
  Proof. induction l as [|[z c] l IH]; simpl; [ring|]. rewrite IH. ring. Qed.

  Lemma opapp_gterms l (f : amps) x : opapp l f x = dsum f (gterms l x).
  Proof.
    induction l as [|[s c] l IH]; [reflexivity|]. cbn [opapp gterms flat_map fst snd].
    rewrite dsum_app, IH. unfold gterms at 1. rewrite appstr_gather.
    destruct (actdet (adjstr s) x) as [[sg y]|]; simpl; [|ring].
    destruct sg; simpl; ring.
  Qed.

  Lemma mel_gterms l x y : mel l x y = dcoef y (gterms l x).
  Proof.
    unfold mel. rewrite opapp_gterms. induction (gterms l x) as [|[z c] t IH]; [reflexivity|].
    cbn [dsum dcoef]. rewrite IH. unfold basis. rewrite (N.eqb_sym y z).
    destruct (N.eqb z y); ring.
  Qed.

  Lemma dsum_neg g l : dsum g (map (fun zc => (fst zc, - snd zc)) l) = - dsum g l.
  Proof. induction l as [|[z c] l IH]; simpl; [ring|]. rewrite IH. ring. Qed.
  Lemma dcoef_neg y l : dcoef y (map (fun zc => (fst zc, - snd zc)) l) = - dcoef y l.
  Proof. induction l as [|[z c] l IH]; simpl; [ring|]. rewrite IH. destruct (N.eqb z y); ring. Qed.

  Lemma mel_determines (A B : list (fstring * K)) :
    (forall x y, mel A x y = mel B x y) -> forall (f : amps) x, opapp A f x = opapp B f x.
  Proof.
    intros H f x. rewrite !opapp_gterms.
    assert (Hz : dsum f (gterms A x ++ map (fun zc => (fst zc, - snd zc)) (gterms B x)) = 0).
    { apply dsum_zero. intros y. rewrite dcoef_app, dcoef_neg, <- !mel_gterms, H. ring. }
    rewrite dsum_app, dsum_neg in Hz.
    transitivity (dsum f (gterms B x) + (dsum f (gterms A x) + - dsum f (gterms B x))); [ring|].
    rewrite Hz. ring.
  Qed.

  (** Canonical anticommutation relation in one formula. *)
  Definition cdelta (o o' : fop) : K :=
    if Nat.eqb (fst o) (fst o') && xorb (snd o) (snd o') then 1 else 0.

  Lemma car_gen (o o' : fop) (f : amps) x :
    app1 o (app1 o' f) x = cdelta o o' * f x - app1 o' (app1 o f) x.
  Proof.
    destruct o as [p a], o' as [q b]. unfold cdelta. cbn [fst snd].
    destruct (Nat.eqb_spec p q) as [->|Hne]; cbn [andb].
    - destruct a, b; cbn [xorb].
      + rewrite car_square. ring.
      + rewrite (car_contract q f x). ring.
      + rewrite (car_contract q f x). ring.
      + rewrite car_square. ring.
    - rewrite car_swap by auto. ring.
  Qed.

  (** Pair operator a_p^+ a_q. *)
  Definition pairop (p q : nat) (f : amps) : amps := app1 (p, true) (app1 (q, false) f).

  Definition kdelta (p q : nat) : K := if Nat.eqb p q then 1 else 0.

  Lemma app1_lin3 o (a b : K) (f g : amps) x :
    app1 o (fun e => a * f e - b * g e) x = a * app1 o f x - b * app1 o g x.
  Proof.
    rewrite (app1_ext o _ (fun e => a * f e + (- b) * g e)) by (intros; ring).
    rewrite (app1_add o (fun e => a * f e) (fun e => - b * g e)), !app1_scale. ring.
  Qed.

  (** a_p^+ a_q a_r^+ a_s = delta_qr a_p^+ a_s - a_p^+ a_r^+ a_q a_s *)
  Lemma pairop_comp p q r s (f : amps) x :
    pairop p q (pairop r s f) x =
    kdelta q r * pairop p s f x
    - app1 (p, true) (app1 (r, true) (app1 (q, false) (app1 (s, false) f))) x.
  Proof.
    unfold pairop.
    rewrite (app1_ext (p, true) _ (fun e => kdelta q r * app1 (s, false) f e
               - 1 * app1 (r, true) (app1 (q, false) (app1 (s, false) f)) e)).
    - rewrite app1_lin3. ring.
    - intros e. rewrite car_gen. unfold cdelta, kdelta. cbn [fst snd xorb].
      rewrite andb_true_r. ring.
  Qed.

  Lemma quad_swap p q r s (f : amps) x :
    app1 (p, true) (app1 (r, true) (app1 (q, false) (app1 (s, false) f))) x =
    app1 (r, true) (app1 (p, true) (app1 (s, false) (app1 (q, false) f))) x.
  Proof.
    rewrite car_swap by auto.
    rewrite (app1_ext (r, true) _ (fun e => - app1 (p, true) (app1 (s, false) (app1 (q, false) f)) e)).
    - rewrite app1_opp. ring.
    - intros e. rewrite (app1_ext (p, true) _ (fun e' => - app1 (s, false) (app1 (q, false) f) e')).
      + apply app1_opp.
      + intros e'. now rewrite car_swap by auto.
  Qed.

  Lemma pairop_commutator p q r s (f : amps) x :
    pairop p q (pairop r s f) x - pairop r s (pairop p q f) x =
    kdelta q r * pairop p s f x - kdelta p s * pairop r q f x.
  Proof.
    rewrite !pairop_comp. rewrite (quad_swap p q r s).
    assert (E : kdelta s p = kdelta p s) by (unfold kdelta; now rewrite Nat.eqb_sym). rewrite E. ring.
  Qed.
End More.
