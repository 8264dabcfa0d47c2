(** * Programs that only read *)
From Coq Require Import List Arith Lia Bool Permutation.
From Verif Require Import Base PermSolve HeapModel HeapProofs HeapSafe HeapDrive.
Import ListNotations.
Local Open Scope prog_scope.

Section L.
Context {C : Type} (kids : C -> list addr).
Notation own := (@own C).
Notation safe := (safe kids).

(** [looks n p G Q]: in a thread that owns [G], [p] makes at most [n] reads, all of them of
    cells it has a pointer to, and nothing else, and what it returns satisfies [Q]. *)
Fixpoint looks {A} (n : nat) (p : prog C A) (G : list own) (Q : A -> Prop) : Prop :=
  match p with
  | Ret x => Q x
  | Read a k => exists n' c ts, n = S n' /\ lent (PT a c ts) G /\ looks n' (k c) G Q
  | _ => False
  end.

Lemma looks_le : forall {A} (p : prog C A) n m G Q, looks n p G Q -> n <= m -> looks m p G Q.
Proof.
  intros A p. induction p; intros n m G Q; cbn [looks]; try easy.
  intros (n' & c & ts & -> & L & S) Lm. destruct m as [|m]; [lia|]. exists m, c, ts. splits; trivial.
  eapply H; [exact S|lia].
Qed.

Lemma looks_post : forall {A} (p : prog C A) n G (Q Q' : A -> Prop),
  looks n p G Q -> (forall x, Q x -> Q' x) -> looks n p G Q'.
Proof.
  intros A p. induction p; intros n G Q Q'; cbn [looks]; try easy; auto.
  intros (n' & c & ts & -> & L & S) I. exists n', c, ts. splits; trivial. eapply H; eauto.
Qed.

Lemma looks_bind : forall {A B} (p : prog C A) (f : A -> prog C B) n m G (Q : A -> Prop) R,
  looks n p G Q -> (forall x, Q x -> looks m (f x) G R) -> looks (n + m) (pbind p f) G R.
Proof.
  intros A B p. induction p; intros f n m G Q R; cbn [looks pbind]; try easy; auto.
  - intros q K. eapply looks_le; [apply K; trivial|lia].
  - intros (n' & c & ts & -> & L & S) K. exists (n' + m), c, ts. splits; trivial. eapply H; eauto.
Qed.

Lemma looks_safe : forall {A} (p : prog C A) n G Q,
  looks n p G Q -> safe 0 p G (fun x G' => G' = G /\ Q x).
Proof.
  intros A p. induction p; intros n G Q; cbn [looks HeapSafe.safe]; try easy.
  - intros q. exists G. auto.
  - intros (n' & c & ts & -> & L & S). exists c, ts. split; trivial. intros _. eauto.
Qed.

(** One read. *)
Lemma looks_read : forall {A} n a c ts G (k : C -> prog C A) Q,
  lent (PT a c ts) G -> looks n (k c) G Q -> looks (S n) (Read a k) G Q.
Proof. intros A n a c ts G k Q L S. exists n, c, ts. auto. Qed.

Lemma looks_lift : forall {A B} n (r : res A) x G (k : A -> prog C B) Q,
  r = Ok x -> looks n (k x) G Q -> looks n (let* y := lift r in k y) G Q.
Proof. intros A B n r x G k Q -> S. exact S. Qed.

(** ** The drivers, against the value-level ones *)
Section Drive.
Context {St St' A : Type}.
Context (R : St -> St' -> Prop) (G : list own).
(** [pot]: what the calls still to come may cost together; [top]: what one call may cost. *)
Context (pot : St' -> nat) (top : nat).

Definition follows (p : prog C (option A * St)) (r : res (option A * St')) (s' : St') : Prop :=
  forall o s'', r = Ok (o, s'') ->
  exists n, looks n p G (fun x => fst x = o /\ R (snd x) s'') /\ n + pot s'' <= pot s' /\ n <= top.

Lemma pruns2_looks : forall next back hint next' back' hint',
  (forall s s', R s s' -> hint s = hint' s') ->
  (forall s s', R s s' -> follows (next s) (next' s') s') ->
  (forall s s', R s s' -> follows (back s) (back' s') s') ->
  forall ds s s' r, R s s' -> runs2 next' back' hint' ds s' = Ok r ->
  looks (Nat.min (pot s') (length ds * top)) (pruns2 next back hint ds s) G (fun x => x = r).
Proof.
  intros next back hint next' back' hint' Hh Hn Hb ds s s' r HR E.
  enough (exists n, looks n (pruns2 next back hint ds s) G (fun x => x = r) /\ n <= pot s' /\ n <= length ds * top)
    as (n & L & B1 & B2) by (eapply looks_le; [exact L|lia]).
  revert s s' r HR E. induction ds as [|d ds IH]; intros s s' r HR E; cbn [runs2 pruns2] in *.
  { injection E as <-. exists 0. cbn. splits; trivial; lia. }
  rewrite (Hh _ _ HR). destruct (hint' s') as [h| |] eqn:Eh; cbn [bind] in E; try discriminate. cbn [lift pbind].
  assert (F : follows (if d then back s else next s) (if d then back' s' else next' s') s') by (destruct d; auto).
  destruct (if d then back' s' else next' s') as [[o s'']| |] eqn:Es; cbn [bind] in E; try discriminate.
  destruct (F o s'' eq_refl) as (n & L & B1 & B2).
  destruct (runs2 next' back' hint' ds s'') as [r'| |] eqn:Er; cbn [bind] in E; try discriminate.
  injection E as <-.
  enough (exists m, (forall x, fst x = o /\ R (snd x) s'' ->
            looks m (let* r0 := pruns2 next back hint ds (snd x) in Ret ((h, fst x) :: r0)) G (fun x => x = (h, o) :: r'))
          /\ m <= pot s'' /\ m <= length ds * top) as (m & M & B3 & B4).
  { exists (n + m). splits; [|lia|cbn [length Nat.mul]; lia].
    eapply looks_bind; [exact L|]. intros [o' t] X. exact (M _ X). }
  exists (Nat.min (pot s'') (length ds * top)). splits; [|lia..].
  intros [o' t] [<- Rt]. cbn [fst snd] in *. destruct (IH t s'' r' Rt Er) as (m & M & B3 & B4).
  rewrite <- (Nat.add_0_r (Nat.min _ _)).
  eapply looks_bind; [eapply looks_le; [exact M|lia]|]. intros x ->. reflexivity.
Qed.

Lemma pruns_looks : forall next hint next' hint',
  (forall s s', R s s' -> hint s = hint' s') ->
  (forall s s', R s s' -> follows (next s) (next' s') s') ->
  forall k s s' r, R s s' -> runs next' hint' k s' = Ok r ->
  looks (Nat.min (pot s') (k * top)) (pruns next hint k s) G (fun x => x = r).
Proof.
  intros next hint next' hint' Hh Hn k s s' r HR E.
  enough (exists n, looks n (pruns next hint k s) G (fun x => x = r) /\ n <= pot s' /\ n <= k * top)
    as (n & L & B1 & B2) by (eapply looks_le; [exact L|lia]).
  revert s s' r HR E. induction k as [|k IH]; intros s s' r HR E; cbn [runs pruns] in *.
  { injection E as <-. exists 0. cbn. splits; trivial; lia. }
  rewrite (Hh _ _ HR). destruct (hint' s') as [h| |] eqn:Eh; cbn [bind] in E; try discriminate. cbn [lift pbind].
  pose proof (Hn _ _ HR) as F.
  destruct (next' s') as [[o s'']| |] eqn:Es; cbn [bind] in E; try discriminate.
  destruct (F o s'' eq_refl) as (n & L & B1 & B2).
  destruct (runs next' hint' k s'') as [r'| |] eqn:Er; cbn [bind] in E; try discriminate.
  injection E as <-.
  exists (n + Nat.min (pot s'') (k * top)). splits; [|lia|cbn [Nat.mul]; lia].
  eapply looks_bind; [exact L|]. intros [o' t] [<- Rt]. cbn [fst snd] in *.
  destruct (IH t s'' r' Rt Er) as (m & M & B3 & B4).
  rewrite <- (Nat.add_0_r (Nat.min _ _)).
  eapply looks_bind; [eapply looks_le; [exact M|lia]|]. intros x ->. reflexivity.
Qed.

Lemma pcollect_looks : forall next next',
  (forall s s', R s s' -> follows (next s) (next' s') s') ->
  forall k s s' r, R s s' -> collect next' k s' = Ok r ->
  looks (Nat.min (pot s') (k * top)) (pcollect next k s) G (fun x => x = r).
Proof.
  intros next next' Hn k s s' r HR E.
  enough (exists n, looks n (pcollect next k s) G (fun x => x = r) /\ n <= pot s' /\ n <= k * top)
    as (n & L & B1 & B2) by (eapply looks_le; [exact L|lia]).
  revert s s' r HR E. induction k as [|k IH]; intros s s' r HR E; cbn [collect pcollect] in *; [discriminate|].
  pose proof (Hn _ _ HR) as F.
  destruct (next' s') as [[o s'']| |] eqn:Es; cbn [bind] in E; try discriminate.
  destruct (F o s'' eq_refl) as (n & L & B1 & B2).
  destruct o as [a|].
  - destruct (collect next' k s'') as [r'| |] eqn:Er; cbn [bind] in E; try discriminate. injection E as <-.
    exists (n + Nat.min (pot s'') (k * top)). splits; [|lia|cbn [Nat.mul]; lia].
    eapply looks_bind; [exact L|]. intros [o' t] [Eo Rt]. cbn [fst snd] in *. subst o'.
    destruct (IH t s'' r' Rt Er) as (m & M & B3 & B4).
    rewrite <- (Nat.add_0_r (Nat.min _ _)).
    eapply looks_bind; [eapply looks_le; [exact M|lia]|]. intros x ->. reflexivity.
  - injection E as <-. exists n. splits; [|lia|cbn [Nat.mul]; lia].
    rewrite <- (Nat.add_0_r n). eapply looks_bind; [exact L|]. intros [o' t] [Eo Rt]. cbn [fst snd] in *. subst o'. reflexivity.
Qed.
End Drive.

(** ** By shape alone: a program that does nothing but read *)
Fixpoint quiet {A} (p : prog C A) : Prop :=
  match p with
  | Ret _ | Fail => True
  | Read _ k => forall c, quiet (k c)
  | _ => False
  end.

Lemma quiet_bind : forall {A B} (p : prog C A) (f : A -> prog C B),
  quiet p -> (forall x, quiet (f x)) -> quiet (pbind p f).
Proof. intros A B p. induction p; intros f; cbn [quiet pbind]; try easy; auto. Qed.

Lemma quiet_lift : forall {A} (r : res A), quiet (lift r).
Proof. intros A [x| |]; exact I. Qed.

Lemma quiet_runs2 : forall {St A} (next back : St -> prog C (option A * St)) hint,
  (forall s, quiet (next s)) -> (forall s, quiet (back s)) -> forall ds s, quiet (pruns2 next back hint ds s).
Proof.
  intros St A next back hint Hn Hb. induction ds as [|d ds IH]; intros s; cbn [pruns2]; [exact I|].
  apply quiet_bind; [apply quiet_lift|]. intros h. apply quiet_bind; [destruct d; auto|]. intros [o s'].
  apply quiet_bind; [apply IH|]. intros r. exact I.
Qed.

Lemma quiet_runs : forall {St A} (next : St -> prog C (option A * St)) hint,
  (forall s, quiet (next s)) -> forall k s, quiet (pruns next hint k s).
Proof.
  intros St A next hint Hn. induction k as [|k IH]; intros s; cbn [pruns]; [exact I|].
  apply quiet_bind; [apply quiet_lift|]. intros h. apply quiet_bind; [auto|]. intros [o s'].
  apply quiet_bind; [apply IH|]. intros r. exact I.
Qed.

Lemma quiet_collect : forall {St A} (next : St -> prog C (option A * St)),
  (forall s, quiet (next s)) -> forall k s, quiet (pcollect next k s).
Proof.
  intros St A next Hn. induction k as [|k IH]; intros s; cbn [pcollect]; [exact I|].
  apply quiet_bind; [auto|]. intros [[a|] s']; [|exact I]. apply quiet_bind; [apply IH|]. intros r. exact I.
Qed.
End L.

Ltac hush :=
  repeat first
    [ exact I
    | assumption
    | apply quiet_lift
    | match goal with
      | |- quiet (pbind _ _) => apply quiet_bind
      | |- quiet (Read _ _) => intro
      | |- quiet (let (_, _) := ?x in _) => destruct x
      | |- quiet (match ?x with _ => _ end) => destruct x
      | |- forall _, _ => intro
      | H : _ |- quiet _ => apply H
      end ].
