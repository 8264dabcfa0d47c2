(** Generic simulation lemmas: histories and iterators. *)
From Coq Require Import List Arith Bool Lia.
From Verif Require Import Base Spec.
Import ListNotations.

Lemma sim_exec : forall (M S O X : Type) (R : M -> S -> Prop)
  (step_m : O -> M -> res (M * X)) (step_s : O -> S -> S * X),
  (forall o m s, R m s ->
     exists m', step_m o m = Ok (m', snd (step_s o s)) /\ R m' (fst (step_s o s))) ->
  forall ops m s, R m s ->
  exists m', exec_m step_m ops m = Ok (m', snd (exec_s step_s ops s)) /\
             R m' (fst (exec_s step_s ops s)).
Proof.
  intros M S O X R step_m step_s Hstep. induction ops as [|o ops IH]; intros m s HR; simpl.
  - eauto.
  - destruct (Hstep o m s HR) as (m' & E & HR').
    rewrite E; simpl. destruct (step_s o s) as [s' x] eqn:Es; simpl in *.
    destruct (IH m' s' HR') as (m'' & E' & HR'').
    rewrite E'; simpl. destruct (exec_s step_s ops s') as [s'' xs]; simpl in *. eauto.
Qed.

(** The simulation relation between an iterator state and the elements left. *)
Definition iter_sim {St A} (next : St -> res (option A * St)) (hint : St -> res nat)
  (I : St -> list A -> Prop) : Prop :=
  forall s l, I s l ->
    hint s = Ok (length l) /\
    exists s', next s = Ok (hd_error l, s') /\ I s' (tl l).

Lemma sim_runs : forall St A next hint (I : St -> list A -> Prop),
  iter_sim next hint I ->
  forall k s l, I s l -> runs next hint k s = Ok (fwd_spec k l).
Proof.
  intros St A next hint I H. induction k as [|k IH]; intros s l HI; simpl; [reflexivity|].
  destruct (H s l HI) as (Hh & s' & E & HI').
  rewrite Hh, E; simpl. rewrite (IH s' (tl l) HI'); reflexivity.
Qed.

(** Weaker relation, without size hints, enough for draining. *)
Definition iter_sim0 {St A} (next : St -> res (option A * St))
  (I : St -> list A -> Prop) : Prop :=
  forall s l, I s l -> exists s', next s = Ok (hd_error l, s') /\ I s' (tl l).

Lemma iter_sim_sim0 : forall St A next hint (I : St -> list A -> Prop),
  iter_sim next hint I -> iter_sim0 next I.
Proof. intros St A next hint I H s l HI. destruct (H s l HI) as (_ & ?). assumption. Qed.

Lemma sim_collect : forall St A next (I : St -> list A -> Prop),
  iter_sim0 next I ->
  forall l fuel s, I s l -> length l < fuel -> collect next fuel s = Ok l.
Proof.
  intros St A next I H. induction l as [|a l IH]; intros fuel s HI Hf;
    (destruct fuel as [|fuel]; [simpl in Hf; lia|]); simpl;
    destruct (H s _ HI) as (s' & E & HI'); rewrite E; simpl.
  - reflexivity.
  - simpl in HI'. rewrite (IH fuel s' HI') by (simpl in Hf; lia). reflexivity.
Qed.

Definition iter_sim2 {St A} (next next_back : St -> res (option A * St)) (hint : St -> res nat)
  (I : St -> list A -> Prop) : Prop :=
  forall s l, I s l ->
    hint s = Ok (length l) /\
    (exists s', next s = Ok (hd_error l, s') /\ I s' (tl l)) /\
    (exists s', next_back s = Ok (last_error l, s') /\ I s' (removelast l)).

Lemma sim_runs2 : forall St A next next_back hint (I : St -> list A -> Prop),
  iter_sim2 next next_back hint I ->
  forall ds s l, I s l -> runs2 next next_back hint ds s = Ok (de_spec ds l).
Proof.
  intros St A next nb hint I H. induction ds as [|d ds IH]; intros s l HI; simpl; [reflexivity|].
  destruct (H s l HI) as (Hh & (s1 & E1 & H1) & (s2 & E2 & H2)).
  rewrite Hh; simpl. destruct d.
  - rewrite E2; simpl. rewrite (IH _ _ H2); reflexivity.
  - rewrite E1; simpl. rewrite (IH _ _ H1); reflexivity.
Qed.

Lemma hd_error_tl : forall A (l : list A) a, hd_error l = Some a -> l = a :: tl l.
Proof. destruct l; simpl; congruence. Qed.
