(** The iterator adapters of core that the crate relies on, as loops over iterator states
    (core::iter::Iterator::{cmp, partial_cmp, eq, all}).  These are library code, modelled from
    their documented behaviour: both iterators are stepped once per round, the first one
    first, stopping at the first difference. *)
From Coq Require Import List NArith Arith Bool Lia.
From Verif Require Import Base Spec SpecMap SpecOrd SpecTrait Sim.
Import ListNotations.

Section Two.
Context {S1 S2 A B : Type}.
Variable next1 : S1 -> res (option A * S1).
Variable next2 : S2 -> res (option B * S2).

Fixpoint iter_partial_cmp (cmp : A -> B -> option comparison) (fuel : nat) (s1 : S1) (s2 : S2)
  : res (option comparison) :=
  match fuel with
  | O => Diverge
  | S fuel =>
      let! (oa, s1) := next1 s1 in
      match oa with
      | None =>
          let! (ob, _) := next2 s2 in
          Ok (Some (match ob with None => Eq | Some _ => Lt end))
      | Some a =>
          let! (ob, s2) := next2 s2 in
          match ob with
          | None => Ok (Some Gt)
          | Some b => match cmp a b with
                      | Some Eq => iter_partial_cmp cmp fuel s1 s2
                      | c => Ok c
                      end
          end
      end
  end.

Fixpoint iter_cmp (cmp : A -> B -> comparison) (fuel : nat) (s1 : S1) (s2 : S2) : res comparison :=
  match fuel with
  | O => Diverge
  | S fuel =>
      let! (oa, s1) := next1 s1 in
      match oa with
      | None =>
          let! (ob, _) := next2 s2 in
          Ok (match ob with None => Eq | Some _ => Lt end)
      | Some a =>
          let! (ob, s2) := next2 s2 in
          match ob with
          | None => Ok Gt
          | Some b => match cmp a b with
                      | Eq => iter_cmp cmp fuel s1 s2
                      | c => Ok c
                      end
          end
      end
  end.

Fixpoint iter_eq (eqb : A -> B -> bool) (fuel : nat) (s1 : S1) (s2 : S2) : res bool :=
  match fuel with
  | O => Diverge
  | S fuel =>
      let! (oa, s1) := next1 s1 in
      match oa with
      | None =>
          let! (ob, _) := next2 s2 in
          Ok (match ob with None => true | Some _ => false end)
      | Some a =>
          let! (ob, s2) := next2 s2 in
          match ob with
          | None => Ok false
          | Some b => if eqb a b then iter_eq eqb fuel s1 s2 else Ok false
          end
      end
  end.
End Two.

(** [Iterator::all] with a predicate that may panic *)
Fixpoint iter_all {S A} (next : S -> res (option A * S)) (p : A -> res bool) (fuel : nat) (s : S) : res bool :=
  match fuel with
  | O => Diverge
  | S fuel =>
      let! (o, s) := next s in
      match o with
      | None => Ok true
      | Some a => let! b := p a in if b : bool then iter_all next p fuel s else Ok false
      end
  end.

Section Lemmas.
Context {S1 S2 A B : Type}.
Variable next1 : S1 -> res (option A * S1).
Variable next2 : S2 -> res (option B * S2).
Variable I1 : S1 -> list A -> Prop.
Variable I2 : S2 -> list B -> Prop.
Hypothesis H1 : iter_sim0 next1 I1.
Hypothesis H2 : iter_sim0 next2 I2.

Lemma iter_partial_cmp_ok : forall cmp l1 fuel s1 l2 s2, I1 s1 l1 -> I2 s2 l2 -> length l1 < fuel ->
  iter_partial_cmp next1 next2 cmp fuel s1 s2 = Ok (plex cmp l1 l2).
Proof using H1 H2.
  intros cmp. induction l1 as [|a l1 IH]; intros fuel s1 l2 s2 HI1 HI2 Hf; (destruct fuel as [|fuel]; [cbn in Hf; lia|]);
    cbn [iter_partial_cmp]; destruct (H1 _ _ HI1) as (s1' & -> & HI1'); destruct (H2 _ _ HI2) as (s2' & E2 & HI2');
    cbn [bind hd_error]; rewrite E2; cbn [bind]; destruct l2 as [|b l2]; cbn [hd_error plex]; try reflexivity.
  destruct (cmp a b) as [[| |]|]; try reflexivity. apply IH; [assumption|assumption|cbn in Hf; lia].
Qed.
Lemma iter_cmp_ok : forall cmp l1 fuel s1 l2 s2, I1 s1 l1 -> I2 s2 l2 -> length l1 < fuel ->
  iter_partial_cmp next1 next2 (fun a b => Some (cmp a b)) fuel s1 s2 = let! c := iter_cmp next1 next2 cmp fuel s1 s2 in Ok (Some c).
Proof using H1 H2.
  intros cmp. induction l1 as [|a l1 IH]; intros fuel s1 l2 s2 HI1 HI2 Hf; (destruct fuel as [|fuel]; [cbn in Hf; lia|]);
    cbn [iter_partial_cmp iter_cmp]; destruct (H1 _ _ HI1) as (s1' & -> & HI1'); destruct (H2 _ _ HI2) as (s2' & E2 & HI2');
    cbn [bind hd_error]; rewrite E2; cbn [bind]; destruct l2 as [|b l2]; cbn [hd_error plex]; try reflexivity.
  destruct (cmp a b); try reflexivity. apply (IH fuel s1' l2 s2'); [assumption|assumption|cbn in Hf; lia].
Qed.
Lemma iter_eq_ok : forall eqb l1 fuel s1 l2 s2, I1 s1 l1 -> I2 s2 l2 -> length l1 < fuel ->
  exists r, iter_eq next1 next2 eqb fuel s1 s2 = Ok r /\ (r = true <-> seq_equal eqb l1 l2).
Proof using H1 H2.
  intros eqb. induction l1 as [|a l1 IH]; intros fuel s1 l2 s2 HI1 HI2 Hf; (destruct fuel as [|fuel]; [cbn in Hf; lia|]);
    cbn [iter_eq]; destruct (H1 _ _ HI1) as (s1' & -> & HI1'); destruct (H2 _ _ HI2) as (s2' & E2 & HI2');
    cbn [bind hd_error]; rewrite E2; cbn [bind]; destruct l2 as [|b l2]; cbn [hd_error seq_equal];
    try (eexists; split; [reflexivity|]; intuition congruence).
  destruct (eqb a b).
  - destruct (IH fuel s1' l2 s2' HI1' HI2' ltac:(cbn in Hf; lia)) as (r & -> & Hr). exists r. split; [reflexivity|]. rewrite Hr. intuition.
  - eexists. split; [reflexivity|]. intuition congruence.
Qed.
Lemma iter_all_ok : forall p f l fuel s, I1 s l -> (forall a, In a l -> p a = Ok (f a)) -> length l < fuel ->
  iter_all next1 p fuel s = Ok (forallb f l).
Proof using H1.
  intros p f. induction l as [|a l IH]; intros fuel s HI Hp Hf; (destruct fuel as [|fuel]; [cbn in Hf; lia|]);
    cbn [iter_all]; destruct (H1 _ _ HI) as (s' & -> & HI'); cbn [bind hd_error forallb]; [reflexivity|].
  rewrite (Hp a (or_introl eq_refl)). cbn [bind]. destruct (f a); [|reflexivity]. cbn [andb].
  apply IH; [assumption|intros x Hx; apply Hp; now right|cbn in Hf; lia].
Qed.
End Lemmas.

Lemma plex_lex : forall A (cmp : A -> A -> comparison) l1 l2, plex (fun a b => Some (cmp a b)) l1 l2 = Some (lex cmp l1 l2).
Proof. intros A cmp. induction l1 as [|a l1 IH]; intros [|b l2]; try reflexivity. cbn [plex lex]. destruct (cmp a b); auto. Qed.

Lemma iter_cmp_lex : forall S1 S2 A (next1 : S1 -> res (option A * S1)) (next2 : S2 -> res (option A * S2)) I1 I2,
  iter_sim0 next1 I1 -> iter_sim0 next2 I2 -> forall cmp l1 fuel s1 l2 s2, I1 s1 l1 -> I2 s2 l2 -> length l1 < fuel ->
  iter_cmp next1 next2 cmp fuel s1 s2 = Ok (lex cmp l1 l2).
Proof.
  intros S1 S2 A next1 next2 I1 I2 H1 H2 cmp l1 fuel s1 l2 s2 HI1 HI2 Hf.
  pose proof (iter_cmp_ok next1 next2 I1 I2 H1 H2 cmp l1 fuel s1 l2 s2 HI1 HI2 Hf) as E.
  rewrite (iter_partial_cmp_ok next1 next2 I1 I2 H1 H2 _ l1 fuel s1 l2 s2 HI1 HI2 Hf), plex_lex in E.
  destruct (iter_cmp next1 next2 cmp fuel s1 s2); cbn [bind] in E; congruence.
Qed.

(** ** Lawful element orders give lawful sequence orders. *)
Lemma lex_laws : forall A (cmp : A -> A -> comparison), ord_laws cmp -> ord_laws (lex cmp).
Proof.
  intros A cmp OL.
  assert (Sym : forall a b, cmp a b = CompOpp (cmp b a)) by apply (ol_sym _ OL).
  constructor.
  - induction a as [|x a IH]; intros [|y b]; try reflexivity. cbn [lex]. rewrite (Sym x y). destruct (cmp y x); cbn [CompOpp]; auto.
  - induction a as [|x a IH]; intros [|y b] [|z c]; cbn [lex]; try discriminate; auto.
    destruct (cmp x y) eqn:E1; try discriminate.
    + rewrite (ol_eq _ OL _ _ z E1). destruct (cmp y z); try discriminate; auto. apply IH.
    + intros _. destruct (cmp y z) eqn:E2; try discriminate.
      * intros _. assert (E3 : cmp x z = Lt).
        { rewrite Sym in E2. destruct (cmp z y) eqn:E3; try discriminate. pose proof (ol_eq _ OL _ _ x E3) as E4.
          rewrite Sym, E4, <- Sym. exact E1. }
        now rewrite E3.
      * intros _. now rewrite (ol_trans _ OL _ _ _ E1 E2).
  - induction a as [|x a IH]; intros [|y b] [|z c]; cbn [lex]; try discriminate; auto.
    destruct (cmp x y) eqn:E1; try discriminate. intros H. rewrite (ol_eq _ OL _ _ z E1). destruct (cmp y z); auto.
Qed.

Lemma pair_laws : forall K V (kcmp : K -> K -> comparison) (vcmp : V -> V -> comparison),
  ord_laws kcmp -> ord_laws vcmp -> ord_laws (pair_cmp kcmp vcmp).
Proof.
  intros K V kcmp vcmp KL VL. unfold pair_cmp. constructor.
  - intros a b. rewrite (ol_sym _ KL (fst a) (fst b)). destruct (kcmp (fst b) (fst a)); cbn [CompOpp]; auto. apply (ol_sym _ VL).
  - intros a b c. destruct (kcmp (fst a) (fst b)) eqn:E1; try discriminate.
    + rewrite (ol_eq _ KL _ _ (fst c) E1). destruct (kcmp (fst b) (fst c)); try discriminate; auto. apply (ol_trans _ VL).
    + intros _. destruct (kcmp (fst b) (fst c)) eqn:E2; try discriminate.
      * intros _. rewrite (ol_sym _ KL) in E2. destruct (kcmp (fst c) (fst b)) eqn:E3; try discriminate.
        rewrite (ol_sym _ KL), (ol_eq _ KL _ _ (fst a) E3), <- (ol_sym _ KL), E1. reflexivity.
      * intros _. now rewrite (ol_trans _ KL _ _ _ E1 E2).
  - intros a b c. destruct (kcmp (fst a) (fst b)) eqn:E1; try discriminate. intros H.
    rewrite (ol_eq _ KL _ _ (fst c) E1). destruct (kcmp (fst b) (fst c)); auto. apply (ol_eq _ VL _ _ _ H).
Qed.

Lemma lex_eq : forall A (cmp : A -> A -> comparison) l1 l2, lex cmp l1 l2 = Eq <-> seq_equal (eq_of cmp) l1 l2.
Proof.
  intros A cmp. induction l1 as [|a l1 IH]; intros [|b l2]; cbn [lex seq_equal]; try (split; [discriminate|tauto]); [tauto|].
  unfold eq_of at 1. destruct (cmp a b); rewrite <- ?IH; intuition discriminate.
Qed.

Lemma seq_equal_equiv : forall A (eqb : A -> A -> bool), equivalence eqb ->
  (forall l, seq_equal eqb l l) /\ (forall l1 l2, seq_equal eqb l1 l2 -> seq_equal eqb l2 l1) /\
  (forall l1 l2 l3, seq_equal eqb l1 l2 -> seq_equal eqb l2 l3 -> seq_equal eqb l1 l3).
Proof.
  intros A eqb E. repeat split.
  - induction l; cbn [seq_equal]; auto. split; [apply (eqv_refl _ E)|assumption].
  - induction l1 as [|a l1 IH]; intros [|b l2]; cbn [seq_equal]; auto. intros [H1 H2]. split; [now apply (eqv_sym _ E)|auto].
  - induction l1 as [|a l1 IH]; intros [|b l2] [|c l3]; cbn [seq_equal]; auto; try tauto.
    intros [H1 H2] [H3 H4]. split; [eapply (eqv_trans _ E); eassumption|eauto].
Qed.

Lemma seq_equal_length : forall A B (eqb : A -> B -> bool) l1 l2, seq_equal eqb l1 l2 -> length l1 = length l2.
Proof. intros A B eqb. induction l1 as [|a l1 IH]; intros [|b l2]; cbn [seq_equal length]; try tauto. intros [_ H]. f_equal. auto. Qed.

Lemma seq_feed_respects : forall A (eqb : A -> A -> bool) h, feed_respects eqb h ->
  forall l1 l2, seq_equal eqb l1 l2 -> seq_feed h l1 = seq_feed h l2.
Proof.
  intros A eqb h H l1 l2 E. unfold seq_feed. rewrite (seq_equal_length _ _ _ _ _ E). f_equal.
  revert l2 E. induction l1 as [|a l1 IH]; intros [|b l2]; cbn [seq_equal map concat]; try tauto.
  intros [H1 H2]. now rewrite (H _ _ H1), (IH _ H2).
Qed.

Lemma seq_feed_delimits : forall A (eqb : A -> A -> bool) h, feed_delimits eqb h ->
  forall l1 l2 r1 r2, seq_feed h l1 ++ r1 = seq_feed h l2 ++ r2 -> seq_equal eqb l1 l2 /\ r1 = r2.
Proof.
  intros A eqb h H l1 l2 r1 r2 E. unfold seq_feed in E. cbn [app] in E. injection E as En E.
  revert l2 En E. induction l1 as [|a l1 IH]; intros [|b l2] En E; cbn in En; try discriminate; cbn [map concat seq_equal] in *.
  - auto.
  - rewrite <- !app_assoc in E. apply H in E as [H1 E]. injection En as En. destruct (IH l2 En E). auto.
Qed.
