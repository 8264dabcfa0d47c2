(** * Programs that hold iterators: Vector

    The facts about the vectors of HeapVec.v that HeapIterWorld.v asks for. *)
From Coq Require Import List NArith Arith Lia Bool Permutation.
From Verif Require Import Base Spec Sim VectorModel VectorProofs VectorIter PermSolve HeapModel HeapProofs HeapSafe HeapLooks
  HeapClient HeapWorld HeapVec HeapVecProofs HeapNest HeapWork HeapWorkVec HeapIterWorld HeapIterSeq.
From Verif Require Prop_HeapVec Prop_HeapWork.
Import ListNotations.
Local Open Scope prog_scope.
Local Open Scope nat_scope.

Notation fits := Prop_HeapVec.fits.

Section Vec.
Context (ubits : N) (dbg : bool) (bits : N) {T : Type}.
Hypothesis Hu : (8 <= ubits)%N.
Hypothesis Hb : (0 < bits)%N.
Hypothesis Hbu : (bits < ubits)%N.

(** vector/mod.rs:478-485, 715-725: [iter]; it reads nothing *)
Definition hv_open (_ : unit) (v : hvec) : prog (@vcell T) hviter := Ret (hvi_new v).
Definition hv_inext := step2 (@hvi_next ubits dbg T) (hvi_next_back ubits dbg) (hvi_size_hint ubits dbg).

Definition vec_reads (o : vec_op T) : bool :=
  match o with VGet _ | VFirst | VLast | VLen | VIsEmpty | VIter _ => true | _ => false end.

Definition vi_delivers (it : viter) (l : list T) : Prop :=
  forall ds, runs2 (vi_next ubits dbg) (vi_next_back ubits dbg) (vi_size_hint ubits dbg) ds it = Ok (de_spec ds l).

Definition virel (v : list T) (it : hviter) (l : list T) (G : list own) : Prop :=
  exists t w h it', lent t G /\ vtree (v_root w) t /\ udep (v_root w) (N.of_nat h) /\ v_height ubits dbg w = Ok (N.of_nat h) /\
    S h = levels bits (len v) /\ itrel G t w h it it' /\ vi_delivers it' l.

Lemma quiet_hvn_get : forall f b c i h, quiet (@hvn_get ubits dbg T f b c i h).
Proof. induction f as [|f IH]; intros b c i h; cbn [hvn_get]; hush. Qed.
Lemma quiet_hv_get : forall v i, quiet (@hv_get ubits dbg T v i).
Proof. intros v i. pose proof quiet_hvn_get. unfold hv_get. hush. Qed.

Lemma vec_reads_gentle : forall o (c : hvec), vec_reads o = true -> gentle c (@hv_step ubits dbg T o c).
Proof.
  intros o c E. destruct o; try discriminate E; cbn [hv_step]; try reflexivity; apply gentle_answer;
    [apply quiet_hv_get|apply quiet_hv_get| |apply quiet_hv_iter].
  unfold hv_last. destruct (_ =? _)%N; [exact I|apply quiet_hv_get].
Qed.
Lemma vec_reads_same : forall o v, vec_reads o = true -> fst (@vec_spec T o v) = v.
Proof. intros o v E. destruct o; try discriminate E; reflexivity. Qed.

Lemma hv_clone_keeps : forall c (v : list T) G, hvrep ubits dbg bits c v G ->
  safe vkids 0 (hv_clone c) G (fun c' G' => exists G2, G' = G ++ G2 /\ hvrep ubits dbg bits c' v G2).
Proof.
  intros v l G (w & R & L & [a c ts] & -> & Vt & ->). unfold hv_clone. cbn [hv_root pa].
  exists c, ts. split; [apply lent_in; now left|]. apply safe_ret.
  exists [Tree (PT a c ts)]. split; trivial. exists w; splits; trivial; exists (PT a c ts); auto.
Qed.

Lemma hv_open_looks : forall a (c : hvec) (v : list T) G, hvrep ubits dbg bits c v G -> any_arg a v ->
  looks 0 (hv_open a c) G (fun it => exists l, all_of a v l /\ virel v it l G).
Proof.
  intros a c v G (w & R & L & t & -> & Vt & ->) _. exists v. split; [reflexivity|].
  pose proof (limit_lt' ubits dbg bits Hu Hb Hbu).
  destruct (rep_height ubits dbg bits Hu Hb Hbu w v R L) as (h & Hh & U & Eh & _).
  exists t, w, h, (vi_new w). splits; trivial.
  - apply lent_in. now left.
  - apply hvi_new_rel.
  - intros ds. apply (vi_runs2 ubits dbg bits Hu Hb Hbu _ v R); lia.
Qed.

Lemma hv_next_looks : forall (v : list T) it l G d, virel v it l G ->
  looks (7 * levels bits (len v)) (hv_inext d it) G (fun r => snd r = snd (snext2 d l) /\ virel v (fst r) (fst (snext2 d l)) G).
Proof.
  intros v it l G d (t & w & h & it' & Lt & Vt & U & Hh & Eh & R & E). eapply looks_post.
  - rewrite <- Eh. apply (step2_looks (itrel G t w h) G (itpot w) (7 * S h) (hvi_next ubits dbg) (hvi_next_back ubits dbg)
      (hvi_size_hint ubits dbg) (vi_next ubits dbg) (vi_next_back ubits dbg) (vi_size_hint ubits dbg)) with (s' := it') (l := l); trivial.
    + exact (hvi_hint_is ubits dbg G t w h).
    + exact (hvi_next_follows ubits dbg bits Hu Hb Hbu G t w h Lt Vt U Hh).
    + exact (hvi_back_follows ubits dbg bits Hu Hb Hbu G t w h Lt Vt U Hh).
  - intros r (Er & it'' & R' & E'). split; [exact Er|]. exists t, w, h, it''. splits; trivial.
Qed.

Theorem vector_holds : holds_iterators vkids (hv_new bits) hv_clone (hv_drop ubits dbg) (hv_step ubits dbg) hv_open hv_inext
  Prop_HeapVec.hv_roots (@nil T) vec_spec snext2 all_of vec_reads (fits ubits dbg bits) any_arg
  (ways bits + 3) 1 1 (vec_price bits) (fun _ _ => 0) (fun v => 7 * levels bits (len v)).
Proof.
  eapply (holds_iterators_ok vkids (ways bits + 2) (thin bits) _ _ _ _ _ _ _ (hvrep ubits dbg bits) virel).
  - refine (sp (hv_new_ok ubits dbg bits Hu Hb Hbu) (Prop_HeapWork.hv_new_pays T bits)).
  - intros c v G R. exact (sp (hv_clone_keeps _ _ _ R) (hv_clone_pays ubits bits Hu Hb Hbu _ _)).
  - intros c v G R. refine (sp (hv_drop_ok ubits dbg bits Hu Hb Hbu _ _ _ R) _).
    eapply (hv_drop_pays ubits dbg bits _ (fun _ => 1)); [apply (v_drops ubits bits Hu Hb Hbu)|trivial].
  - intros o c v G R F. exact (hv_step_dear ubits dbg bits Hu Hb Hbu o _ _ _ R F).
  - apply vec_reads_gentle.
  - apply vec_reads_same.
  - apply Prop_HeapVec.hv_rep_roots.
  - apply hv_open_looks.
  - apply hv_next_looks.
Qed.
End Vec.
