(** * Property C56: caught panics of user code in calls on sequences

    What Vector, List, Stack and Queue run of the user's while they change something is
    [Clone::clone] of an element ([Vector::get_mut] on a shared element) and [Iterator::next] (in
    [extend] and [from_iter]).  The programs are those of HeapCrashSeq.v, the property is
    [unwinding_contained_within] of HeapCrash.v: whichever of these calls unwind, on whichever
    thread, each version is left with the elements said below, no other version notices, no count
    is ever wrong, and nothing leaks. *)
From Coq Require Import List NArith Arith Lia Bool Permutation.
From Verif Require Import Base Spec VectorModel VectorProofs HeapModel HeapProofs HeapSafe HeapClient HeapWorld
  HeapVec HeapVecProofs Prop_HeapVec HeapList HeapListProofs HeapSeqProofs Prop_HeapSeq HeapCrash HeapCrashSeq.
Import ListNotations.

(** ** Vector *)
(** A call [(n, o)], the [n]-th user call of which (from 0) unwinds if it comes to that.
    [get_mut] makes at most one, the clone of the element, and leaves the elements as they were;
    [extend] makes one for each element and one for the end, and leaves exactly the elements it
    took; [v = iter.collect()] leaves [v] as it was.  No other call can unwind.  The calls allowed
    are those the result of which is within the limit of C11, and [collect] for vectors of
    DEFAULT_BITS. *)
Definition vector_after {T} (no : nat * with_collect (vec_op T) T) (l l' : list T) (x : option (obs T)) : Prop :=
  let (n, o) := no in
  match x with
  | Some y =>
      match o with
      | Call (VExtend xs) => (l', y) = (l ++ xs, OUnit) /\ length xs < n
      | Call o => (l', y) = vec_spec o l
      | Collect xs => (l', y) = (xs, OUnit) /\ length xs < n
      end
  | None =>
      match o with
      | Call (VGetMut i _) => n = 0 /\ (i < N.of_nat (length l))%N /\ l' = l
      | Call (VExtend xs) => n <= length xs /\ l' = l ++ firstn n xs
      | Collect xs => n <= length xs /\ l' = l
      | _ => False
      end
  end.
Definition vector_allowed {T} (ubits : N) (dbg : bool) (bits : N) (no : nat * with_collect (vec_op T) T) (l : list T) : Prop :=
  match snd no with
  | Call o => fits ubits dbg bits o l
  | Collect xs => (N.of_nat (length xs) <= vec_limit ubits dbg bits)%N /\ bits = 5%N
  end.

Theorem C56_vector_unwinding : forall (T : Type) (ubits : N) (dbg : bool) (bits : N),
  (8 <= ubits)%N -> (0 < bits < ubits)%N ->
  unwinding_contained_within vkids (hv_new bits) hv_clone (hv_drop ubits dbg) (xv_step ubits dbg) hv_roots
    (@nil T) vector_after (vector_allowed ubits dbg bits).
Proof.
  intros T ubits dbg bits Hu [Hb Hbu].
  eapply (unwinding_contained_within_ok vkids _ _ _ _ _ (hvrep ubits dbg bits) _ _ (@length T) 1 vec_grow (vec_xcost bits)).
  - now apply hv_new_ok.
  - apply hv_clone_ok.
  - now apply hv_drop_ok.
  - intros [n o] v l G A R.
    assert (F : vec_fits ubits dbg bits (n, o) l).
    { unfold vec_fits. cbn [snd]. destruct o as [o|xs]; cbn [vec_xspec fst]; [split; [exact A|exact I]|exact A]. }
    eapply safe_mono; [apply le_n| |apply (xv_step_ok ubits dbg bits Hu Hb Hbu (n, o) v l G F R)].
    intros r G' (l' & H & R'). exists l'. split; [|exact R'].
    destruct (snd r) as [y|]; cbn [vec_after vector_after] in *; [|exact H].
    destruct o as [[]|xs]; cbn [vec_xspec vec_spec] in *; tauto.
  - intros [n o] l l' x H. apply (vec_after_size (n, o) l l' x).
    destruct x as [y|]; cbn [vec_after vector_after] in *; [|exact H]. destruct o as [[]|xs]; cbn [vec_xspec vec_spec] in *; tauto.
  - now apply vec_xcost_mono.
  - apply hv_rep_roots.
Qed.
Print Assumptions C56_vector_unwinding.

(** Five elements in two-way nodes and a clone: get_mut unwinds in the clone of a shared element
    after having copied the nodes above it, extend is interrupted after two of four elements (which
    are in), and the other version has noticed nothing.  An element that is not shared is not
    cloned, and get_mut completes.  Dropping everything leaves no cell. *)
Definition vec_crash_example : list (cmd (nat * with_collect (vec_op nat) nat)) :=
  [CNew; COp 0 (9, Call (VExtend [1; 2; 3; 4; 5])); CClone 0;
   COp 0 (0, Call (VGetMut 1%N (fun x => 10 * x)));
   COp 0 (2, Call (VExtend [6; 7; 8; 9]));
   COp 0 (0, Call (VGetMut 6%N (fun x => 10 * x)));
   COp 1 (0, Call VDropMut);
   COp 0 (1, Call (VGetMut 1%N (fun x => 10 * x)));
   COp 0 (0, Call (VIter (repeat false 7))); COp 1 (0, Call (VIter (repeat false 5)))].

Example vec_crash_example_runs :
  match run [] (hclient (hv_new 1) hv_clone (hv_drop 64 true) (xv_step 64 true) (vec_crash_example ++ [CDrop 0; CDrop 1]) []) with
  | Some (h, (_, out)) => (out, forallb (fun x => match x with None => true | Some _ => false end) h)
  | None => ([], false)
  end =
  ([Some OUnit; None; None; Some (OBool true); Some (OBool true); Some (OBool true);
    Some (OSteps [(7, Some 1); (6, Some 20); (5, Some 3); (4, Some 4); (3, Some 5); (2, Some 6); (1, Some 70)]);
    Some (OSteps [(4, Some 1); (3, Some 2); (2, Some 3); (1, Some 4); (0, None)])], true).
Proof. vm_compute. reflexivity. Qed.

(** A program meets the hypothesis whatever unwinds if all it might ever put in is within the
    limit. *)
Lemma small_program : forall (T : Type) ubits dbg bits (l : list (cmd (nat * with_collect (vec_op T) T))) vs s,
  sized (@length T) s vs ->
  (N.of_nat (s + list_sum (map (fun c => match c with COp _ no => vec_grow no | _ => 0 end) l))%nat <= vec_limit ubits dbg bits)%N ->
  (forall i n xs, In (COp i (n, Collect xs)) l -> bits = 5%N) ->
  rwithin [] vector_after (vector_allowed ubits dbg bits) l vs.
Proof.
  intros T ubits dbg bits l. induction l as [|[|i|i [n o]|i] l IH]; intros vs s Hs L Hc; cbn [rwithin]; trivial.
  - apply (IH _ s); [apply sized_app; [exact Hs|cbn; lia]|exact L|intros i n xs Hi; eapply Hc; right; exact Hi].
  - cbn [map] in L. change (list_sum (?a :: ?b)) with (a + list_sum b) in L.
    destruct (nth_error vs i) as [[v|]|] eqn:E; (apply (IH _ s); [|lia|intros j n xs Hi; eapply Hc; right; exact Hi]); trivial.
    apply sized_app; [exact Hs|]. eapply Hs. exact E.
  - cbn [map] in L. change (list_sum (?a :: ?b)) with (a + list_sum b) in L.
    destruct (nth_error vs i) as [[v|]|] eqn:E.
    2,3: apply (IH _ s); [exact Hs|lia|intros j m xs Hi; eapply Hc; right; exact Hi].
    assert (Lv := Hs _ _ E). split.
    + destruct o as [o|xs]; unfold vector_allowed; cbn [snd].
      * unfold fits. pose proof (vec_spec_size o v). unfold vec_grow in *. cbn [snd] in *. lia.
      * split; [unfold vec_grow in L; cbn [snd] in L; lia|]. eapply Hc. left. reflexivity.
    + intros v' x A. apply (IH _ (vec_grow (n, o) + s)); [|lia|intros j m xs Hi; eapply Hc; right; exact Hi].
      apply sized_upd; [exact Hs|].
      assert (X : length v' <= vec_grow (n, o) + length v); [|lia].
      apply (vec_after_size (n, o) v v' x). destruct x as [y|]; cbn [vec_after vector_after] in *; [|exact A].
      destruct o as [[]|xs]; cbn [vec_xspec vec_spec] in *; tauto.
  - cbn [map] in L. change (list_sum (?a :: ?b)) with (a + list_sum b) in L.
    destruct (nth_error vs i) as [[v|]|] eqn:E; (apply (IH _ s); [|lia|intros j n xs Hi; eapply Hc; right; exact Hi]); trivial.
    now apply sized_drop.
Qed.

Example vec_crash_example_within : rwithin [] vector_after (vector_allowed 64 true 1) vec_crash_example [].
Proof.
  apply (small_program _ _ _ _ _ _ 0); [intros i v E; now destruct i|vm_compute; discriminate|].
  intros i n xs H. cbn in H. repeat (destruct H as [H|H]; [discriminate|]). contradiction.
Qed.

(** [collect] in the default shape: interrupted, the register keeps what it had and the vector
    being built is freed; uninterrupted, it replaces it. *)
Example vec_collect_example :
  match run [] (hclient (hv_new 5) hv_clone (hv_drop 64 true) (xv_step 64 true)
                  [CNew; COp 0 (9, Call (VExtend [1; 2; 3])); COp 0 (2, Collect [4; 5; 6; 7]);
                   COp 0 (0, Call (VIter (repeat false 3))); COp 0 (4, Collect [4; 5; 6; 7]);
                   COp 0 (5, Collect [4; 5; 6; 7]); COp 0 (0, Call (VIter (repeat true 4))); CDrop 0] []) with
  | Some (h, (_, out)) => (out, forallb (fun x => match x with None => true | Some _ => false end) h)
  | None => ([], false)
  end =
  ([Some OUnit; None; Some (OSteps [(3, Some 1); (2, Some 2); (1, Some 3)]); None; Some OUnit;
    Some (OSteps [(4, Some 7); (3, Some 6); (2, Some 5); (1, Some 4)])], true).
Proof. vm_compute. reflexivity. Qed.

(** ** List, Stack, Queue *)
(** Only [from_iter] runs user code; interrupted, it leaves everything as it was. *)
Theorem C56_list_unwinding : forall T : Type,
  unwinding_contained_within lkids (Ret hl_new) hlp_clone hlp_drop xl_step hl_roots (@nil T)
    (fun '(n, o) l l' x =>
       let src := match o with LFromIter xs => Some xs | _ => None end in
       match x with
       | Some y => (l', y) = list_spec o l /\ match src with Some xs => length xs < n | None => True end
       | None => l' = l /\ match src with Some xs => n <= length xs | None => False end
       end)
    (fun _ _ => True).
Proof.
  intros T. eapply (unwinding_contained_within_ok lkids _ _ _ _ _ hlrep _ _ (@length T) 0 list_grow list_xcost).
  - apply hl_new_ok.
  - apply hlp_clone_ok.
  - apply hlp_drop_ok.
  - intros [n o] l s G _ R. apply (xl_step_ok (n, o) l s G R).
  - intros [n o] l l' x H. apply (list_after_size (n, o) l l' x H).
  - apply list_xcost_mono.
  - apply hl_rep_roots.
Qed.
Print Assumptions C56_list_unwinding.

Theorem C56_stack_unwinding : forall T : Type,
  unwinding_contained_within lkids (Ret hl_new) hlp_clone hlp_drop xs_step hl_roots (@nil T)
    (fun '(n, o) l l' x =>
       match o, x with
       | Call o, Some y => (l', y) = stack_spec o l
       | Collect xs, Some y => l' = xs /\ y = OUnit /\ length xs < n
       | Call _, None => False
       | Collect xs, None => l' = l /\ n <= length xs
       end)
    (fun _ _ => True).
Proof.
  intros T. eapply (unwinding_contained_within_ok lkids _ _ _ _ _ hlrep _ _ (@length T) 0 stack_grow stack_xcost).
  - apply hl_new_ok.
  - apply hlp_clone_ok.
  - apply hlp_drop_ok.
  - intros [n o] l s G _ R.
    eapply safe_mono; [apply le_n| |apply (xs_step_ok (n, o) l s G R)].
    intros r G' (s' & H & R'). exists s'. split; [|exact R'].
    destruct o as [o|xs], (snd r) as [y|]; cbn [seq_after stack_src stack_xspec] in H; try tauto.
    destruct H as [H ?]. injection H as -> ->. auto.
  - intros [n o] l l' x H. apply (stack_after_size (n, o) l l' x).
    destruct o as [o|xs], x as [y|]; cbn [seq_after stack_src stack_xspec]; try tauto.
    destruct H as (-> & -> & H). auto.
  - apply stack_xcost_mono.
  - apply hl_rep_roots.
Qed.
Print Assumptions C56_stack_unwinding.

Theorem C56_queue_unwinding : forall T : Type,
  unwinding_contained_within lkids (Ret hq_new) hq_clone hq_drop xq_step hq_roots (@nil T)
    (fun '(n, o) l l' x =>
       let src := match o with QFromIter xs => Some xs | _ => None end in
       match x with
       | Some y => (l', y) = queue_spec o l /\ match src with Some xs => length xs < n | None => True end
       | None => l' = l /\ match src with Some xs => n <= length xs | None => False end
       end)
    (fun _ _ => True).
Proof.
  intros T. eapply (unwinding_contained_within_ok lkids _ _ _ _ _ hqrep _ _ (@length T) 0 queue_grow queue_xcost).
  - apply hq_new_ok.
  - apply hq_clone_ok.
  - apply hq_drop_ok.
  - intros [n o] l s G _ R. apply (xq_step_ok (n, o) l s G R).
  - intros [n o] l l' x H. apply (queue_after_size (n, o) l l' x H).
  - apply queue_xcost_mono.
  - apply hq_rep_roots.
Qed.
Print Assumptions C56_queue_unwinding.

(** A queue with elements in both lists; the interrupted from_iter leaves it alone. *)
Example queue_crash_example :
  match run [] (hclient (Ret hq_new) hq_clone hq_drop xq_step
                  [CNew; COp 0 (0, QEnqMut 1); COp 0 (0, QEnqMut 2); COp 0 (0, QDeqMut); COp 0 (0, QEnqMut 3); CClone 0;
                   COp 0 (1, QFromIter [7; 8; 9]); COp 0 (0, QIter 3); COp 0 (4, QFromIter [7; 8; 9]); COp 0 (0, QIter 4);
                   COp 1 (0, QIter 3); CDrop 0; CDrop 1] []) with
  | Some (h, (_, out)) => (skipn 4 out, forallb (fun x => match x with None => true | Some _ => false end) h)
  | None => ([], false)
  end =
  ([None; Some (OSteps [(2, Some 2); (1, Some 3); (0, None)]); Some OUnit;
    Some (OSteps [(3, Some 7); (2, Some 8); (1, Some 9); (0, None)]);
    Some (OSteps [(2, Some 2); (1, Some 3); (0, None)])], true).
Proof. vm_compute. reflexivity. Qed.
