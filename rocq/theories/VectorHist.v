(** Histories of Vector operations. *)
From Coq Require Import List NArith ZArith Arith Bool Lia.
From Verif Require Import Base Spec Sim VectorModel VectorProofs VectorOps VectorIter.
Import ListNotations.
Local Open Scope N_scope.

Lemma sim_exec_within : forall (M S O X : Type) (R : M -> S -> Prop) (size : S -> N) (limit : N)
  (step_m : O -> M -> res (M * X)) (step_s : O -> S -> S * X),
  (forall o m s, R m s -> size s <= limit -> size (fst (step_s o s)) <= limit ->
     exists m', step_m o m = Ok (m', snd (step_s o s)) /\ R m' (fst (step_s o s))) ->
  forall ops m s, R m s -> stays_within size limit step_s ops s ->
  exists m', exec_m step_m ops m = Ok (m', snd (exec_s step_s ops s)) /\
             R m' (fst (exec_s step_s ops s)).
Proof.
  intros M S O X R size limit step_m step_s Hstep.
  induction ops as [|o ops IH]; intros m s HR [Hsz Hw].
  - cbn. eauto.
  - assert (Hsz' : size (fst (step_s o s)) <= limit) by (destruct ops; destruct Hw; assumption).
    destruct (Hstep o m s HR Hsz Hsz') as (m' & E & HR'). cbn.
    rewrite E; cbn. destruct (step_s o s) as [s' x] eqn:Es; cbn in *.
    destruct (IH m' s' HR' Hw) as (m'' & E' & HR'').
    rewrite E'; cbn. destruct (exec_s step_s ops s') as [s'' xs]; cbn in *. eauto.
Qed.

Lemma stays_within_last : forall (S O X : Type) (size : S -> N) limit (step : O -> S -> S * X) ops s,
  stays_within size limit step ops s -> size (fst (exec_s step ops s)) <= limit.
Proof.
  intros S O X size limit step. induction ops as [|o ops IH]; intros s [H1 H2]; cbn.
  - exact H1.
  - destruct (step o s) as [s' x] eqn:E. cbn in H2. specialize (IH _ H2).
    destruct (exec_s step ops s') as [s'' xs]. exact IH.
Qed.

Section VH.
Variable ubits : N.
Variable dbg : bool.
Variable bits : N.
Hypothesis Hu : 8 <= ubits.
Hypothesis Hb : 0 < bits.
Hypothesis Hbu : bits < ubits.
Context {T : Type}.
Notation limit := (vec_limit ubits dbg bits).
Notation v_rep := (VectorOps.v_rep bits).

Lemma v_step_ok : forall (o : vec_op T) v l, v_rep v l ->
  len l <= limit -> len (fst (vec_spec o l)) <= limit ->
  exists v', v_step ubits dbg o v = Ok (v', snd (vec_spec o l)) /\ v_rep v' (fst (vec_spec o l)).
Proof using Hu Hb Hbu.
  intros o v l Hr Hl Hl'. pose proof (limit_lt ubits dbg bits Hu Hb Hbu) as HL.
  assert (Hlt : len l < 2 ^ ubits) by lia.
  destruct o; cbn [v_step vec_spec fst snd] in *.
  - rewrite len_app, len_cons, len_nil in Hl'.
    destruct (v_push_ok ubits dbg bits Hu Hb Hbu v l v0 Hr) as (v' & E & Hr'); [lia|].
    unfold v_push_back. rewrite E. cbn [bind]. eauto.
  - rewrite len_app, len_cons, len_nil in Hl'.
    destruct (v_push_ok ubits dbg bits Hu Hb Hbu v l v0 Hr) as (v' & E & Hr'); [lia|].
    rewrite E. cbn [bind]. eauto.
  - rewrite len_app in Hl'.
    destruct (v_extend_ok ubits dbg bits Hu Hb Hbu l0 v l Hr Hl') as (v' & E & Hr').
    rewrite E. cbn [bind]. eauto.
  - destruct (v_drop_last_ok ubits dbg bits Hu Hb Hbu v l Hr) as (v' & E & Hr').
    unfold v_drop_last. rewrite E. cbn [bind]. destruct l as [|x l]; cbn [is_nil negb] in *; eauto.
  - destruct (v_drop_last_ok ubits dbg bits Hu Hb Hbu v l Hr) as (v' & E & Hr').
    rewrite E. cbn [bind]. eauto.
  - destruct (v_set_mut_ok ubits dbg bits Hu Hb Hbu v l i v0 Hr Hl) as (v' & E & Hr').
    unfold v_set. rewrite E. cbn [bind]. unfold map_at_N in *. destruct (in_range i l); eauto.
  - destruct (v_set_mut_ok ubits dbg bits Hu Hb Hbu v l i v0 Hr Hl) as (v' & E & Hr').
    rewrite E. cbn [bind]. eauto.
  - destruct (v_get_mut_ok ubits dbg bits Hu Hb Hbu v l i f Hr Hlt) as (v' & E & Hr').
    rewrite E. cbn [bind]. eauto.
  - rewrite (v_get_ok ubits dbg bits Hu Hb Hbu v l i Hr Hlt). cbn [bind]. eauto.
  - rewrite (v_first_ok ubits dbg bits Hu Hb Hbu v l Hr Hlt). cbn [bind]. eauto.
  - rewrite (v_last_ok ubits dbg bits Hu Hb Hbu v l Hr Hlt). cbn [bind]. eauto.
  - exists v. split; [|exact Hr]. destruct Hr as (_ & E & _). unfold v_len. rewrite E.
    unfold len. now rewrite Nat2N.id.
  - exists v. split; [|exact Hr]. destruct Hr as (_ & E & _). unfold v_is_empty, v_len. rewrite E.
    destruct l; [reflexivity|]. rewrite len_cons. destruct (N.eqb_spec (len l + 1) 0); [lia|reflexivity].
  - rewrite (vi_runs2 ubits dbg bits Hu Hb Hbu v l Hr Hlt). cbn [bind]. eauto.
Qed.

Lemma vector_history : forall (ops : list (vec_op T)),
  stays_within len limit vec_spec ops [] ->
  exists v0 v, v_new_with_bits bits = Ok v0 /\
    exec_m (v_step ubits dbg) ops v0 = Ok (v, snd (exec_s vec_spec ops [])) /\
    v_rep v (fst (exec_s vec_spec ops [])).
Proof using Hu Hb Hbu.
  intros ops Hw.
  destruct (v_new_with_bits (T := T) bits) as [v0| |] eqn:E0.
  - destruct (sim_exec_within _ _ _ _ v_rep len limit (v_step ubits dbg) vec_spec v_step_ok ops v0 []
                (v_rep_new ubits dbg bits Hu Hb Hbu v0 E0) Hw) as (v & E & Hr).
    eauto.
  - unfold v_new_with_bits in E0. destruct (N.ltb_spec 0 bits); [discriminate|lia].
  - unfold v_new_with_bits in E0. destruct (0 <? bits); discriminate.
Qed.
End VH.

(** A vector made by new_with_bits(bits) and a history of operations along which the length
    never exceeds the capacity limit; [l] is the sequence the same history builds. *)
Definition vec_reached {T} (ubits : N) (dbg : bool) (bits : N) (v : rvec T) (l : list T) : Prop :=
  exists v0 ops outs,
    v_new_with_bits bits = Ok v0 /\
    stays_within len (vec_limit ubits dbg bits) vec_spec ops [] /\
    exec_m (v_step ubits dbg) ops v0 = Ok (v, outs) /\
    l = fst (exec_s vec_spec ops []).

Section VR.
Variable ubits : N.
Variable dbg : bool.
Variable bits : N.
Hypothesis Hu : 8 <= ubits.
Hypothesis Hb : 0 < bits.
Hypothesis Hbu : bits < ubits.
Context {T : Type}.
Notation limit := (vec_limit ubits dbg bits).
Notation v_rep := (VectorOps.v_rep bits).

Lemma reached_rep : forall (v : rvec T) l, vec_reached ubits dbg bits v l ->
  v_rep v l /\ len l <= limit /\ len l < 2 ^ ubits.
Proof using Hu Hb Hbu.
  intros v l (v0 & ops & outs & E0 & Hw & E & ->).
  destruct (vector_history ubits dbg bits Hu Hb Hbu ops Hw) as (v0' & v' & E0' & E' & Hr).
  rewrite E0 in E0'. injection E0' as <-. rewrite E in E'. injection E' as <- _.
  split; [exact Hr|]. pose proof (stays_within_last _ _ _ _ _ _ _ _ Hw).
  pose proof (limit_lt ubits dbg bits Hu Hb Hbu). lia.
Qed.

(** All leaves hang at the same depth [d]. *)
Inductive uniform : vnode T -> N -> Prop :=
| un_leaf : forall a, uniform (VLeaf a) 0
| un_branch : forall a d, a <> [] -> (forall c, In c a -> uniform c d) -> uniform (VBranch a) (d + 1).

Lemma rep_uniform : forall h n (l : list T), rep bits h n l -> uniform n (N.of_nat h).
Proof using Hu Hb Hbu.
  induction h as [|h IH]; intros n l Hr.
  - destruct Hr as [-> _]. constructor.
  - destruct Hr as (cs & -> & Hc & _). replace (N.of_nat (S h)) with (N.of_nat h + 1) by lia.
    constructor.
    + inversion Hc; discriminate.
    + intros c Hin. destruct (crep_in _ _ _ _ (pow2_pos _) Hc c Hin) as (lc & Hr & _). eauto.
Qed.

Lemma min_height : forall (v : rvec T) l, vec_reached ubits dbg bits v l ->
  exists h, v_height ubits dbg v = Ok h /\ uniform (v_root v) h /\
    forall levels, 1 <= levels -> (h + 1 <= levels <-> len l <= (2 ^ bits) ^ levels).
Proof using Hu Hb Hbu.
  intros v l H. destruct (reached_rep v l H) as (Hr & _ & Hlt).
  destruct (v_height_rep ubits dbg bits Hu Hb Hbu v l Hr Hlt) as (h & E & Hs & Hrep).
  exists (N.of_nat h). split; [exact E|]. split; [eapply rep_uniform; eassumption|].
  intros k Hk. rewrite <- N.pow_mul_r. fold (dp bits k).
  assert (Hd : forall a b, a <= b -> dp bits a <= dp bits b) by (intros; apply (dp_le ubits dbg bits Hu Hb Hbu); assumption).
  destruct Hs as [[H1 H0]|(H1 & H2 & H3)].
  - rewrite H0. split; [intros _|lia]. pose proof (dp_pos ubits dbg bits Hu Hb Hbu k). lia.
  - split; intros Hx.
    + specialize (Hd _ _ Hx). lia.
    + destruct (N.le_gt_cases (N.of_nat h + 1) k); [assumption|].
      assert (k <= N.of_nat h) by lia. specialize (Hd _ _ H4). lia.
Qed.
End VR.
