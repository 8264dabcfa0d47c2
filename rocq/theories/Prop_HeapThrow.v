(** * Property C65: dropping a whole version while the [Drop] of elements, keys or values panics

    [drops_contained] is stated in HeapThrowProofs.v; the programs are those of HeapThrow.v.  [tb], [kb] and
    [vb] say which elements, keys and values panic when they are dropped.  The Boolean that ends each statement
    is [true] for the collections whose drop nests the same also when a value panics. *)
From Coq Require Import List NArith Arith Lia Bool.
From Verif Require Import Base Spec Sim SpecMap SpecOrd ListModel SparseModel HashModel HashProofs HashHist HashExtraProofs Prop_Hash
  RBModel RBHist Prop_RB VectorModel VectorProofs HeapModel HeapProofs HeapSafe HeapClient HeapWorld HeapSpace
  HeapList HeapListProofs HeapSeqProofs HeapVec HeapVecProofs HeapRB HeapRBProofs HeapRBMap HeapHash HeapHashProofs HeapHashMap HeapSet
  HeapSpaceColl HeapDepth HeapHolds HeapThrow HeapThrowProofs Prop_HeapSeq Prop_HeapVec Prop_HeapRB Prop_HeapHash Prop_HeapSet.
Import ListNotations.
Local Open Scope nat_scope.

Theorem C65_list_drop : forall (T : Type) (tb : T -> bool),
  drops_contained (Ret hl_new) hlp_clone hlp_drop (hlp_throw tb) hl_step (@nil T) list_spec Prop_HeapSeq.always (l_booms tb) (how_many tb) (@NoDup T) false.
Proof.
  intros T tb. apply (drops_contained_ok lkids _ _ _ _ _ hlrep _ _ _ 0 list_cost) with (w1 := l_value tb) (w2 := fun _ => 0) (W1 := how_many tb) (W2 := fun _ => 0).
  - apply hl_new_ok.
  - apply hlp_clone_ok.
  - apply hlp_drop_ok.
  - intros. now apply hl_step_ok.
  - apply as_hlp.
  - apply deep_hlp.
  - intros c. rewrite Nat.add_0_r. reflexivity.
  - intros v. lia.
  - intros c v G. apply list_values.
  - intros. apply covers_none.
  - intros c v G h R Wf. rewrite <- sum_how_many. apply (low_holds _ _ lkids LE (l_booms tb) (fun x => if1 (tb x)) v G h); [congruence|reflexivity|exact (list_holds _ _ _ _ R)|exact Wf].
Qed.
Print Assumptions C65_list_drop.

Theorem C65_stack_drop : forall (T : Type) (tb : T -> bool),
  drops_contained (Ret hl_new) hlp_clone hlp_drop (hlp_throw tb) hs_step (@nil T) stack_spec Prop_HeapSeq.always (l_booms tb) (how_many tb) (@NoDup T) false.
Proof.
  intros T tb. apply (drops_contained_ok lkids _ _ _ _ _ hlrep _ _ _ 0 stack_cost) with (w1 := l_value tb) (w2 := fun _ => 0) (W1 := how_many tb) (W2 := fun _ => 0).
  - apply hl_new_ok.
  - apply hlp_clone_ok.
  - apply hlp_drop_ok.
  - intros. now apply hs_step_ok.
  - apply as_hlp.
  - apply deep_hlp.
  - intros c. rewrite Nat.add_0_r. reflexivity.
  - intros v. lia.
  - intros c v G. apply list_values.
  - intros. apply covers_none.
  - intros c v G h R Wf. rewrite <- sum_how_many. apply (low_holds _ _ lkids LE (l_booms tb) (fun x => if1 (tb x)) v G h); [congruence|reflexivity|exact (list_holds _ _ _ _ R)|exact Wf].
Qed.
Print Assumptions C65_stack_drop.

Theorem C65_queue_drop : forall (T : Type) (tb : T -> bool),
  drops_contained (Ret hq_new) hq_clone hq_drop (hq_throw tb) hq_step (@nil T) queue_spec Prop_HeapSeq.always (l_booms tb) (how_many tb) (@NoDup T) false.
Proof.
  intros T tb. apply (drops_contained_ok lkids _ _ _ _ _ hqrep _ _ _ 0 queue_cost) with (w1 := l_value tb) (w2 := fun _ => 0) (W1 := how_many tb) (W2 := fun _ => 0).
  - apply hq_new_ok.
  - apply hq_clone_ok.
  - apply hq_drop_ok.
  - intros. now apply hq_step_ok.
  - apply as_hq.
  - apply deep_hq.
  - intros c. rewrite Nat.add_0_r. reflexivity.
  - intros v. lia.
  - intros c v G. apply queue_values.
  - intros. apply covers_none.
  - intros c v G h R Wf. rewrite <- sum_how_many. apply (low_holds _ _ lkids LE (l_booms tb) (fun x => if1 (tb x)) v G h); [congruence|reflexivity|exact (queue_holds _ _ _ _ R)|exact Wf].
Qed.
Print Assumptions C65_queue_drop.

Theorem C65_vector_drop : forall (T : Type) (ubits : N) (dbg : bool) (bits : N) (tb : T -> bool),
  (8 <= ubits)%N -> (0 < bits < ubits)%N ->
  drops_contained (hv_new bits) hv_clone (hv_drop ubits dbg) (hv_throw ubits dbg tb) (hv_step ubits dbg) (@nil T) vec_spec (fits ubits dbg bits)
    (v_booms tb) (how_many tb) (@NoDup T) true.
Proof.
  intros T ubits dbg bits tb Hu [Hb Hbu].
  apply (drops_contained_ok vkids _ _ _ _ _ (hvrep ubits dbg bits) _ _ _ 1 (vec_cost bits)) with (w1 := v_value tb) (w2 := fun _ => 0) (W1 := how_many tb) (W2 := fun _ => 0).
  - now apply hv_new_ok.
  - apply hv_clone_ok.
  - now apply hv_drop_ok.
  - intros. now apply hv_step_ok.
  - apply as_hv.
  - apply deep_hv.
  - intros c. rewrite Nat.add_0_r. destruct c; reflexivity.
  - intros v. lia.
  - intros c v G R. eapply vec_values; eassumption.
  - intros. apply covers_none.
  - intros c v G h R Wf. rewrite <- sum_how_many. apply (low_holds _ _ vkids VE (v_booms tb) (fun x => if1 (tb x)) v G h); [congruence|reflexivity|exact (vec_holds _ _ _ _ _ _ _ R)|exact Wf].
Qed.
Print Assumptions C65_vector_drop.

(** Keys and values that panic are counted separately. *)
Theorem C65_rb_map_drop : forall (K V Q : Type) (dbg : bool)
  (kcmp : K -> K -> comparison) (borrow : K -> Q) (qcmp : Q -> Q -> comparison) (kb : K -> bool) (vb : V -> bool),
  ord_laws qcmp -> borrow_agrees kcmp borrow qcmp ->
  drops_contained (@hb_new K V) hb_clone hb_drop (hb_throw kb vb) (hb_step dbg kcmp borrow qcmp)
    (@nil (K * V)) (rb_call_spec kcmp borrow qcmp) always
    (r_booms kb vb) (fun m => how_many (fun e => kb (fst e)) m + how_many (fun e => vb (snd e)) m) (fun _ => True) true.
Proof.
  intros K V Q dbg kcmp borrow qcmp kb vb OL KB.
  apply (drops_contained_ok rkids _ _ _ _ _ (hbrep kcmp) _ _ _ 0 rb_cost)
    with (w1 := r_entry (fun e => kb (fst e))) (w2 := r_entry (fun e => vb (snd e)))
         (W1 := how_many (fun e => kb (fst e))) (W2 := how_many (fun e => vb (snd e))).
  - apply hb_new_ok.
  - apply hb_clone_ok.
  - apply hb_drop_ok.
  - intros. now apply hb_step_ok.
  - apply as_hb.
  - apply deep_hb.
  - intros c. destruct c; reflexivity.
  - reflexivity.
  - intros c v G. apply rb_values.
  - intros c v G. apply rb_values.
  - intros c v G h R Wf. rewrite <- !sum_how_many, <- sum_plus.
    destruct (low_holds _ _ rkids RE (r_booms kb vb) (fun e => if1 (kb (fst e)) + if1 (vb (snd e))) v G h) as (A & B); [congruence|reflexivity|exact (rb_holds _ _ _ _ _ _ R)|exact Wf|].
    split; [exact A|]. intros _. apply B. eapply unique_nodup with (keq := eq_of kcmp); [intros k; unfold eq_of; rewrite KB; now rewrite (RBHist.cmp_refl _ OL)|]. destruct R as (w & Rw & _). exact (rep_unique kcmp borrow qcmp OL KB _ _ Rw).
Qed.
Print Assumptions C65_rb_map_drop.

Theorem C65_rb_set_drop : forall (T Q : Type) (dbg : bool)
  (tcmp : T -> T -> comparison) (borrow : T -> Q) (qcmp : Q -> Q -> comparison) (tb : T -> bool),
  ord_laws qcmp -> borrow_agrees tcmp borrow qcmp ->
  drops_contained (@hb_new T unit) hb_clone hb_drop (hb_throw tb (fun _ => false)) (ss_step dbg tcmp borrow qcmp)
    (@nil T) (ss_spec tcmp borrow qcmp) always (r_booms tb (fun _ => false)) (how_many tb) (fun _ => True) true.
Proof.
  intros T Q dbg tcmp borrow qcmp tb OL KB.
  apply (drops_contained_ok rkids _ _ _ _ _ (ssrep tcmp) _ _ _ 0 ss_cost) with (w1 := r_entry (fun e => tb (fst e))) (w2 := fun _ => 0) (W1 := how_many tb) (W2 := fun _ => 0).
  - apply hb_new_ok.
  - intros c v G. apply (hb_clone_ok tcmp c (map ut v)).
  - intros c v G. apply (hb_drop_ok tcmp c (map ut v)).
  - intros. now apply ss_step_ok.
  - apply as_hb.
  - apply deep_hb.
  - intros c. rewrite Nat.add_0_r. destruct c; [reflexivity|]. apply Nat.add_0_r.
  - intros v. lia.
  - intros c v G. apply ss_values.
  - intros. apply covers_none.
  - intros c v G h R Wf. rewrite <- sum_how_many.
    destruct (low_holds _ _ rkids RE (r_booms tb (fun _ => false)) (fun e => if1 (tb (fst e)) + 0) (map ut v) G h) as (A & B); [congruence|reflexivity|exact (rb_holds _ _ _ _ _ _ R)|exact Wf|].
    rewrite map_map in A, B. rewrite (map_ext _ (fun x => if1 (tb x))) in A, B by (intros; apply Nat.add_0_r).
    split; [exact A|]. intros _. apply B. eapply unique_nodup with (keq := eq_of tcmp); [intros k; unfold eq_of; rewrite KB; now rewrite (RBHist.cmp_refl _ OL)|]. destruct R as (w & Rw & _). exact (rep_unique tcmp borrow qcmp OL KB _ _ Rw).
Qed.
Print Assumptions C65_rb_set_drop.

Theorem C65_hash_map_drop : forall (K V Q : Type) (ubits : N) (dbg : bool)
  (keq : K -> K -> bool) (borrow : K -> Q) (qeq : Q -> Q -> bool) (hash : K -> N) (qhash : Q -> N) (kb : K -> bool) (vb : V -> bool),
  (ubits <= 64)%N -> key_laws keq borrow qeq -> hash_laws borrow qeq hash qhash ->
  forall (degree : N) (fuel : nat), supported ubits degree -> 2 * digits degree < fuel ->
  drops_contained (@hh_new ubits K V degree) hh_clone hh_drop (hh_throw kb vb)
    (hh_step ubits dbg keq borrow qeq hash qhash fuel)
    (@nil (K * V)) (ht_call_spec keq borrow qeq) always
    (t_booms kb vb) (fun m => how_many (fun e => kb (fst e)) m + how_many (fun e => vb (snd e)) m) (fun _ => True) false.
Proof.
  intros K V Q ubits dbg keq borrow qeq hash qhash kb vb Hub KL HL degree fuel (b & Hb & -> & Hd) Hf.
  rewrite digits_D in *.
  apply (drops_contained_ok tkids _ _ _ _ _ (hhrep ubits b keq hash) _ _ _ 1 (ht_cost b hash qhash))
    with (w1 := t_entry (fun e => kb (fst e))) (w2 := t_entry (fun e => vb (snd e)))
         (W1 := how_many (fun e => kb (fst e))) (W2 := how_many (fun e => vb (snd e))).
  - now apply (hh_new_ok ubits dbg b Hb Hd Hub keq borrow qeq hash qhash KL HL fuel Hf).
  - apply hh_clone_ok.
  - now apply hh_drop_ok.
  - intros. now apply hh_step_ok.
  - apply as_hh.
  - apply deep_hh.
  - intros c. destruct c; reflexivity.
  - reflexivity.
  - intros c v G. apply hash_values.
  - intros c v G. apply hash_values.
  - intros c v G h R Wf. rewrite <- !sum_how_many, <- sum_plus.
    destruct (low_holds _ _ tkids TE (t_booms kb vb) (fun e => if1 (kb (fst e)) + if1 (vb (snd e))) v G h) as (A & B); [congruence|reflexivity|exact (hash_holds _ _ _ _ _ _ _ _ _ R)|exact Wf|].
    split; [exact A|]. intros _. apply B. eapply unique_nodup with (keq := keq); [intros k; rewrite (kl_borrow _ _ _ KL); apply (kl_refl _ _ _ KL)|]. destruct R as (w & (es & _ & _ & _ & U & _) & _). exact U.
Qed.
Print Assumptions C65_hash_map_drop.

Theorem C65_hash_set_drop : forall (T Q : Type) (ubits : N) (dbg : bool)
  (teq : T -> T -> bool) (borrow : T -> Q) (qeq : Q -> Q -> bool) (hash : T -> N) (qhash : Q -> N) (tb : T -> bool),
  (ubits <= 64)%N -> key_laws teq borrow qeq -> hash_laws borrow qeq hash qhash ->
  forall (degree : N) (fuel : nat), supported ubits degree -> 2 * digits degree < fuel ->
  drops_contained (@hh_new ubits T unit degree) hh_clone hh_drop (hh_throw tb (fun _ => false))
    (us_step ubits dbg teq borrow qeq hash qhash fuel)
    (@nil T) (us_spec teq borrow qeq) always (t_booms tb (fun _ => false)) (how_many tb) (fun _ => True) false.
Proof.
  intros T Q ubits dbg teq borrow qeq hash qhash tb Hub KL HL degree fuel (b & Hb & -> & Hd) Hf.
  rewrite digits_D in *.
  apply (drops_contained_ok tkids _ _ _ _ _ (usrep ubits b teq hash) _ _ _ 1 (us_cost b hash qhash))
    with (w1 := t_entry (fun e => tb (fst e))) (w2 := fun _ => 0) (W1 := how_many tb) (W2 := fun _ => 0).
  - now apply (hh_new_ok ubits dbg b Hb Hd Hub teq borrow qeq hash qhash KL HL fuel Hf).
  - intros c v G. apply (hh_clone_ok ubits b teq hash c (map ut v)).
  - intros c v G. now apply (hh_drop_ok ubits b Hb Hd Hub teq hash c (map ut v)).
  - intros. now apply us_step_ok.
  - apply as_hh.
  - apply deep_hh.
  - intros c. rewrite Nat.add_0_r. destruct c; try reflexivity. apply Nat.add_0_r.
  - intros v. lia.
  - intros c v G. apply us_values.
  - intros. apply covers_none.
  - intros c v G h R Wf. rewrite <- sum_how_many.
    destruct (low_holds _ _ tkids TE (t_booms tb (fun _ => false)) (fun e => if1 (tb (fst e)) + 0) (map ut v) G h) as (A & B); [congruence|reflexivity|exact (hash_holds _ _ _ _ _ _ _ _ _ R)|exact Wf|].
    rewrite map_map in A, B. rewrite (map_ext _ (fun x => if1 (tb x))) in A, B by (intros; apply Nat.add_0_r).
    split; [exact A|]. intros _. apply B. eapply unique_nodup with (keq := teq); [intros k; rewrite (kl_borrow _ _ _ KL); apply (kl_refl _ _ _ KL)|]. destruct R as (w & (es & _ & _ & _ & U & _) & _). exact U.
Qed.
Print Assumptions C65_hash_set_drop.

(** ** Cases

    Element 2 panics.  Two versions share it: dropping the first does not panic, dropping the second does,
    and all memory is released. *)
Definition throw_main : list (cmd (list_op nat)) :=
  CNew :: map (fun x => COp 0 (LPushMut x)) [3; 2; 1] ++ [CClone 0; COp 0 (LPushMut 0); CDrop 0; COp 1 LFirst; CDrop 1].
Example C65_case_list : exists h rs,
  run [] (tclient (Ret hl_new) hlp_clone (hlp_throw (Nat.eqb 2)) hl_step throw_main []) =
    Some (h, Some (rs, [OUnit; OUnit; OUnit; OUnit; OElem (Some 1)], [false; true])) /\
  forallb (fun x => match x with None => true | Some _ => false end) h = true.
Proof. eexists _, _. split; vm_compute; reflexivity. Qed.
(** Two elements that panic: the process aborts when both are released by one drop, not when each is by one. *)
Example C65_case_abort : exists h,
  run [] (tclient (Ret hl_new) hlp_clone (hlp_throw (fun x => Nat.leb x 1)) hl_step throw_main []) = Some (h, Some ([None; None], [OUnit; OUnit; OUnit; OUnit; OElem (Some 1)], [true; true])).
Proof. eexists. vm_compute. reflexivity. Qed.
Example C65_case_abort_two : exists h,
  run [] (tclient (Ret hl_new) hlp_clone (hlp_throw (fun x => Nat.leb 2 x)) hl_step throw_main []) = Some (h, None).
Proof. eexists. vm_compute. reflexivity. Qed.
(** A key and its value: the value panics while the panic of the key unwinds. *)
Definition throw_map : list (cmd (@rb_call nat nat nat)) :=
  CNew :: map (fun i => COp 0 (BOp (MInsertMut i i))) [0; 1; 2; 3; 4; 5; 6] ++ [CDrop 0].
Example C65_case_entry : exists h h' xs,
  run [] (tclient (@hb_new nat nat) hb_clone (hb_throw (Nat.eqb 3) (fun _ => false)) (hb_step true Nat.compare (fun k => k) Nat.compare) throw_map []) =
    Some (h, Some ([None], xs, [true])) /\
  forallb (fun x => match x with None => true | Some _ => false end) h = true /\
  run [] (tclient (@hb_new nat nat) hb_clone (hb_throw (Nat.eqb 3) (Nat.eqb 3)) (hb_step true Nat.compare (fun k => k) Nat.compare) throw_map []) = Some (h', None).
Proof. eexists _, _, _. split; [|split]; vm_compute; reflexivity. Qed.
(** Seven elements, all in one version: the drop nests one call deep, but six when the element the loop frees
    first panics, and four when the third does. *)
Definition throw_seven : list (cmd (list_op nat)) := CNew :: map (fun x => COp 0 (LPushMut x)) [7; 6; 5; 4; 3; 2; 1].
Definition throw_nests (tb : nat -> bool) : option nat :=
  match run [] (hclient (Ret hl_new) hlp_clone hlp_drop hl_step throw_seven []) with
  | Some (h, ([Some c], _)) => match depth_run 0 0 h (hlp_throw tb c false) with Some (_, _, _, mx) => Some mx | None => None end
  | _ => None
  end.
Example C65_case_nests : throw_nests (fun _ => false) = Some 1 /\ throw_nests (Nat.eqb 1) = Some 6 /\ throw_nests (Nat.eqb 3) = Some 4.
Proof. vm_compute. repeat split. Qed.
