(** * Properties C36, C37, C38, C40 and C42 for HashTrieSet and RedBlackTreeSet

    The sets on the shared, reference counted heap (HeapSet.v), with the properties
    of HeapWorld.v.  The specifications [us_spec] and [ss_spec] (HeapSet.v) are
    those of SpecMap.v on duplicate-free lists; the sorted set adds both ends and
    iteration, read off the ascending listing. *)
From Coq Require Import List NArith Arith Lia Bool Permutation.
From Verif Require Import Base Spec Sim SpecMap SpecOrd SparseModel HashModel HashProofs HashHist HashExtraProofs Prop_Hash
  RBModel RBHist Prop_RB HeapModel HeapProofs HeapSafe HeapClient HeapWorld HeapHash HeapHashProofs HeapHashMap
  HeapRB HeapRBProofs HeapRBMap HeapSet Prop_HeapRB Prop_HeapHash.
Import ListNotations.
Local Open Scope nat_scope.

(** ** HashTrieSet *)
Theorem C36_hash_set_persistent : forall (T Q : Type) (ubits : N) (dbg : bool)
  (teq : T -> T -> bool) (borrow : T -> Q) (qeq : Q -> Q -> bool) (hash : T -> N) (qhash : Q -> N),
  (ubits <= 64)%N -> key_laws teq borrow qeq -> hash_laws borrow qeq hash qhash ->
  forall (degree : N) (fuel : nat), supported ubits degree -> 2 * digits degree < fuel ->
  persistent (@hh_new ubits T unit degree) hh_clone hh_drop
    (us_step ubits dbg teq borrow qeq hash qhash fuel)
    (@nil T) (us_spec teq borrow qeq) always.
Proof.
  intros T Q ubits dbg teq borrow qeq hash qhash Hub KL HL degree fuel (b & Hb & -> & Hd) Hf.
  rewrite digits_D in *.
  eapply (persistent_ok tkids _ _ _ _ (usrep ubits b teq hash) _ _ _ 1 (us_cost b hash qhash)).
  - now apply (hh_new_ok ubits dbg b Hb Hd Hub teq borrow qeq hash qhash KL HL fuel Hf).
  - intros c v G. apply (hh_clone_ok ubits b teq hash c (map ut v)).
  - intros c v G. now apply (hh_drop_ok ubits b Hb Hd Hub teq hash c (map ut v)).
  - intros. now apply us_step_ok.
Qed.
Print Assumptions C36_hash_set_persistent.

Theorem C38_hash_set_counts_exact : forall (T Q : Type) (ubits : N) (dbg : bool)
  (teq : T -> T -> bool) (borrow : T -> Q) (qeq : Q -> Q -> bool) (hash : T -> N) (qhash : Q -> N),
  (ubits <= 64)%N -> key_laws teq borrow qeq -> hash_laws borrow qeq hash qhash ->
  forall (degree : N) (fuel : nat), supported ubits degree -> 2 * digits degree < fuel ->
  counts_exact tkids (@hh_new ubits T unit degree) hh_clone hh_drop
    (us_step ubits dbg teq borrow qeq hash qhash fuel) hh_roots
    (@nil T) (us_spec teq borrow qeq) always.
Proof.
  intros T Q ubits dbg teq borrow qeq hash qhash Hub KL HL degree fuel (b & Hb & -> & Hd) Hf.
  rewrite digits_D in *.
  eapply (counts_exact_ok tkids _ _ _ _ _ (usrep ubits b teq hash) _ _ _ 1 (us_cost b hash qhash)).
  - now apply (hh_new_ok ubits dbg b Hb Hd Hub teq borrow qeq hash qhash KL HL fuel Hf).
  - intros c v G. apply (hh_clone_ok ubits b teq hash c (map ut v)).
  - intros c v G. now apply (hh_drop_ok ubits b Hb Hd Hub teq hash c (map ut v)).
  - intros. now apply us_step_ok.
  - intros c v G. apply (hh_rep_roots ubits b _ _ teq hash c (map ut v)).
Qed.
Print Assumptions C38_hash_set_counts_exact.

Theorem C40_hash_set_non_interfering : forall (T Q : Type) (ubits : N) (dbg : bool)
  (teq : T -> T -> bool) (borrow : T -> Q) (qeq : Q -> Q -> bool) (hash : T -> N) (qhash : Q -> N),
  (ubits <= 64)%N -> key_laws teq borrow qeq -> hash_laws borrow qeq hash qhash ->
  forall (degree : N) (fuel : nat), supported ubits degree -> 2 * digits degree < fuel ->
  non_interfering (@hh_new ubits T unit degree) hh_clone hh_drop
    (us_step ubits dbg teq borrow qeq hash qhash fuel)
    (@nil T) (us_spec teq borrow qeq) always.
Proof.
  intros T Q ubits dbg teq borrow qeq hash qhash Hub KL HL degree fuel (b & Hb & -> & Hd) Hf.
  rewrite digits_D in *.
  eapply (non_interfering_ok tkids _ _ _ _ hh_roots (usrep ubits b teq hash) _ _ _ 1 (us_cost b hash qhash)).
  - now apply (hh_new_ok ubits dbg b Hb Hd Hub teq borrow qeq hash qhash KL HL fuel Hf).
  - intros c v G. apply (hh_clone_ok ubits b teq hash c (map ut v)).
  - intros c v G. now apply (hh_drop_ok ubits b Hb Hd Hub teq hash c (map ut v)).
  - intros. now apply us_step_ok.
  - intros c v G. apply (hh_rep_roots ubits b _ _ teq hash c (map ut v)).
Qed.
Print Assumptions C40_hash_set_non_interfering.

Theorem C42_hash_set_allocates : forall (T Q : Type) (ubits : N) (dbg : bool)
  (teq : T -> T -> bool) (borrow : T -> Q) (qeq : Q -> Q -> bool) (hash : T -> N) (qhash : Q -> N),
  (ubits <= 64)%N -> key_laws teq borrow qeq -> hash_laws borrow qeq hash qhash ->
  forall (degree : N) (fuel : nat), supported ubits degree -> 2 * digits degree < fuel ->
  allocates_at_most (@hh_new ubits T unit degree) hh_clone hh_drop
    (us_step ubits dbg teq borrow qeq hash qhash fuel)
    (@nil T) (us_spec teq borrow qeq) always
    (fun o s => let clashes h := length (filter (fun x => (hash x =? h)%N) s) in
                match o with
                | UkOp (SetInsert t) | UkOp (SetInsertMut t) => 2 * digits degree + 2 * clashes (hash t) + 6
                | UkOp (SetRemove q) | UkOp (SetRemoveMut q) => 2 * digits degree + 2 * clashes (qhash q) + 3
                | _ => 0
                end).
Proof.
  intros T Q ubits dbg teq borrow qeq hash qhash Hub KL HL degree fuel (b & Hb & -> & Hd) Hf.
  rewrite digits_D in *.
  eapply (allocates_ok tkids _ _ _ _ (usrep ubits b teq hash) _ _ _ 1 _).
  - now apply (hh_new_ok ubits dbg b Hb Hd Hub teq borrow qeq hash qhash KL HL fuel Hf).
  - intros c v G. apply (hh_clone_ok ubits b teq hash c (map ut v)).
  - intros c v G. now apply (hh_drop_ok ubits b Hb Hd Hub teq hash c (map ut v)).
  - intros o c v G R _.
    assert (E : forall h, clash hash h (map ut v) = length (filter (fun x => (hash x =? h)%N) v)).
    { intros h. unfold clash. now rewrite (filter_ut (fun x => (hash x =? h)%N)), map_length. }
    pose proof (us_step_ok T Q ubits dbg b teq borrow qeq hash qhash fuel Hb Hd Hub KL HL Hf o c v G R) as H.
    destruct o as [[t|t|q|q|q|q| | |]|k|p]; unfold us_cost in H; cbn [us_map map_call ht_cost] in H;
      rewrite ?E in H; exact H.
Qed.
Print Assumptions C42_hash_set_allocates.

(** ** RedBlackTreeSet *)
Theorem C37_rb_set_persistent : forall (T Q : Type) (dbg : bool)
  (tcmp : T -> T -> comparison) (borrow : T -> Q) (qcmp : Q -> Q -> comparison),
  ord_laws qcmp -> borrow_agrees tcmp borrow qcmp ->
  persistent (@hb_new T unit) hb_clone hb_drop (ss_step dbg tcmp borrow qcmp)
    (@nil T) (ss_spec tcmp borrow qcmp) always.
Proof.
  intros T Q dbg tcmp borrow qcmp OL KB.
  eapply (persistent_ok rkids _ _ _ _ (ssrep tcmp) _ _ _ 0 ss_cost).
  - apply hb_new_ok.
  - intros c v G. apply (hb_clone_ok tcmp c (map ut v)).
  - intros c v G. apply (hb_drop_ok tcmp c (map ut v)).
  - intros. now apply ss_step_ok.
Qed.
Print Assumptions C37_rb_set_persistent.

Theorem C38_rb_set_counts_exact : forall (T Q : Type) (dbg : bool)
  (tcmp : T -> T -> comparison) (borrow : T -> Q) (qcmp : Q -> Q -> comparison),
  ord_laws qcmp -> borrow_agrees tcmp borrow qcmp ->
  counts_exact rkids (@hb_new T unit) hb_clone hb_drop (ss_step dbg tcmp borrow qcmp) hb_roots
    (@nil T) (ss_spec tcmp borrow qcmp) always.
Proof.
  intros T Q dbg tcmp borrow qcmp OL KB.
  eapply (counts_exact_ok rkids _ _ _ _ _ (ssrep tcmp) _ _ _ 0 ss_cost).
  - apply hb_new_ok.
  - intros c v G. apply (hb_clone_ok tcmp c (map ut v)).
  - intros c v G. apply (hb_drop_ok tcmp c (map ut v)).
  - intros. now apply ss_step_ok.
  - intros c v G. apply (hb_rep_roots _ _ tcmp c (map ut v)).
Qed.
Print Assumptions C38_rb_set_counts_exact.

Theorem C40_rb_set_non_interfering : forall (T Q : Type) (dbg : bool)
  (tcmp : T -> T -> comparison) (borrow : T -> Q) (qcmp : Q -> Q -> comparison),
  ord_laws qcmp -> borrow_agrees tcmp borrow qcmp ->
  non_interfering (@hb_new T unit) hb_clone hb_drop (ss_step dbg tcmp borrow qcmp)
    (@nil T) (ss_spec tcmp borrow qcmp) always.
Proof.
  intros T Q dbg tcmp borrow qcmp OL KB.
  eapply (non_interfering_ok rkids _ _ _ _ hb_roots (ssrep tcmp) _ _ _ 0 ss_cost).
  - apply hb_new_ok.
  - intros c v G. apply (hb_clone_ok tcmp c (map ut v)).
  - intros c v G. apply (hb_drop_ok tcmp c (map ut v)).
  - intros. now apply ss_step_ok.
  - intros c v G. apply (hb_rep_roots _ _ tcmp c (map ut v)).
Qed.
Print Assumptions C40_rb_set_non_interfering.

Theorem C42_rb_set_allocates : forall (T Q : Type) (dbg : bool)
  (tcmp : T -> T -> comparison) (borrow : T -> Q) (qcmp : Q -> Q -> comparison),
  ord_laws qcmp -> borrow_agrees tcmp borrow qcmp ->
  allocates_at_most (@hb_new T unit) hb_clone hb_drop (ss_step dbg tcmp borrow qcmp)
    (@nil T) (ss_spec tcmp borrow qcmp) always
    (fun o s => let levels := 2 * Nat.log2 (length s + 1) in
                match o with
                | SkOp (SetInsert _) | SkOp (SetInsertMut _) => 3 * levels + 2
                | SkOp (SetRemove _) | SkOp (SetRemoveMut _) => 14 * levels
                | _ => 0
                end).
Proof.
  intros T Q dbg tcmp borrow qcmp OL KB.
  eapply (allocates_ok rkids _ _ _ _ (ssrep tcmp) _ _ _ 0 _).
  - apply hb_new_ok.
  - intros c v G. apply (hb_clone_ok tcmp c (map ut v)).
  - intros c v G. apply (hb_drop_ok tcmp c (map ut v)).
  - intros o c v G R _.
    pose proof (ss_step_ok T Q dbg tcmp borrow qcmp OL KB o c v G R) as H.
    destruct o as [[t|t|q|q|q|q| | |]| | |ds]; unfold ss_cost in H; cbn [ss_map map_call rb_cost] in H;
      rewrite ?map_length in H; exact H.
Qed.
Print Assumptions C42_rb_set_allocates.

(** ** Cases *)

(** Sets with two versions alive; in the hash set 0, 1, 2 collide. *)
Definition us_example : list (cmd (hs_call N N)) :=
  CNew :: map (fun t => COp 0 (UkOp (SetInsertMut t))) [0; 1; 2; 3]%N ++
  [CClone 0; COp 0 (UkOp (SetRemoveMut 1%N)); COp 1 (UkOp (SetInsert 4%N)); COp 0 (UkOp (SetGet 1%N));
   COp 1 (UkOp (SetGet 1%N)); COp 0 (UkOp SetSize); COp 1 (UkOp SetSize); COp 1 (UkCount (fun t => (t <? 3)%N)); CDrop 0].
Example C36_hash_set_example :
  within (@nil N) (us_spec N.eqb (fun t => t) N.eqb) always us_example [] /\
  match run [] (hclient (@hh_new 64 N unit 4) hh_clone hh_drop
                  (us_step 64 true N.eqb (fun t => t) N.eqb hx_hash hx_hash 65) us_example []) with
  | Some (_, (_, out)) => skipn 4 out
  | None => []
  end =
  [UkObs (SetoBool true); UkObs SetoUnit; UkObs (SetoElem None); UkObs (SetoElem (Some 1%N));
   UkObs (SetoNat 3); UkObs (SetoNat 5); UkNum 3].
Proof. split; [vm_compute; repeat split|vm_compute; reflexivity]. Qed.

Definition ss_example : list (cmd (ss_call nat nat)) :=
  CNew :: map (fun t => COp 0 (SkOp (SetInsertMut t))) [4; 2; 6; 1; 3] ++
  [CClone 0; COp 0 (SkOp (SetRemoveMut 1)); COp 1 (SkOp (SetInsert 9)); COp 0 SkFirst; COp 1 SkFirst; COp 0 SkLast; COp 1 SkLast;
   COp 0 (SkIter [false; true; false]); CDrop 0].
Example C37_rb_set_example :
  within (@nil nat) (ss_spec Nat.compare (fun t => t) Nat.compare) always ss_example [] /\
  match run [] (hclient hb_new hb_clone hb_drop
                  (ss_step true Nat.compare (fun t => t) Nat.compare) ss_example []) with
  | Some (_, (_, out)) => skipn 5 out
  | None => []
  end =
  [SkObs (SetoBool true); SkObs SetoUnit; SkObs (SetoElem (Some 2)); SkObs (SetoElem (Some 1));
   SkObs (SetoElem (Some 6)); SkObs (SetoElem (Some 9)); SkSteps [(4, Some 2); (3, Some 6); (2, Some 3)]].
Proof. split; [vm_compute; repeat split|vm_compute; reflexivity]. Qed.

(** Threads: each takes one of two clones. *)
Example C40_sets_case :
  let umain := [CNew; COp 0 (UkOp (SetInsertMut 0%N)); COp 0 (UkOp (SetInsertMut 1%N)); CClone 0] in
  let ujobs := [mkJob [0] [COp 0 (UkOp (SetRemoveMut 0%N)); CDrop 0]; mkJob [1] [COp 0 (UkOp (SetInsertMut 2%N)); CDrop 0]] in
  let us := us_spec N.eqb (fun t => t) N.eqb in
  let vs := fst (sclient (@nil N) us umain []) in
  within [] us always umain [] /\ Permutation (concat (map job_regs ujobs)) (seq 0 (length vs)) /\
  Forall (job_within [] us always vs) ujobs /\ Forall (fun j => Forall (eq None) (fst (job_spec [] us vs j))) ujobs.
Proof.
  cbn zeta. split; [vm_compute; repeat split|]. split; [apply Permutation_refl|].
  split; [|vm_compute; repeat constructor].
  repeat (constructor; [vm_compute; repeat split|]). constructor.
Qed.
