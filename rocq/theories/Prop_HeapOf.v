(** * Property C63

    Collections of collections, nested to any depth: [nested I S] holds of the eight collections
    and of [List<X>], [Stack<X>], [Queue<X>], [Vector<X>], [RedBlackTreeMap<K, X>] and [HashTrieMap<K, X>] for
    every [X] it holds of.  For all of them the properties of C34, C38, C40 and C62 hold, with [persistent], [non_interfering],
    [counts_exact] and [guarded] as stated there (HeapWorld.v, HeapLock.v): the elements are then
    versions of collections themselves, whose nodes are shared between elements, between versions
    of the outer collection and between threads, and are dropped by the [Drop] of the inner
    collection when the last pointer to the element goes, wherever that happens.  As plain values
    ([list_of_spec], [queue_of_spec], [vector_of_spec], [rb_map_of_spec], [hash_map_of_spec]) every
    element is a value of its own. *)
From Coq Require Import List NArith Arith Lia Bool Permutation.
From Verif Require Import Base Spec Sim SpecMap SpecOrd SparseModel HashModel HashProofs HashHist HashExtraProofs RBModel RBProofs RBHist RBIter
  RBExtra RBExtraProofs Prop_RB Prop_Hash
  VectorModel VectorProofs
  HeapModel HeapProofs HeapSafe HeapDrive HeapClient HeapWorld HeapList HeapListProofs HeapSeqProofs HeapVec HeapVecProofs
  HeapRB HeapRBProofs HeapRBMap HeapHash HeapHashMap HeapSet HeapLooks
  HeapWork HeapWorkSeq HeapWorkVec HeapWorkRB HeapIterWorld HeapIterSeq HeapIterVec HeapIterRB HeapIterHash HeapShare HeapLock
  HeapIn HeapInProofs HeapOf HeapOfProofs HeapOfVec HeapOfVecProofs
  HeapOfMap HeapOfRB HeapOfRBProofs HeapOfHash HeapOfHashProofs.
From Verif Require Prop_HeapSeq Prop_HeapVec Prop_HeapRB Prop_HeapHash Prop_HeapSet Prop_HeapIter Prop_HeapShare Prop_HeapLock.
Import ListNotations.
Local Open Scope nat_scope.

(** The eight collections, as in C34 to C62. *)
Definition list_impl (T : Type) : impl (lcell T) hlist (list_op T) (obs T) :=
  mkImpl lkids Prop_HeapSeq.hl_roots (Ret hl_new) hlp_clone hlp_drop hl_step.
Definition list_vals (T : Type) : spec (list T) (list_op T) (obs T) := mkSpec [] list_spec always.

Definition stack_impl (T : Type) : impl (lcell T) hlist (stack_op T) (obs T) :=
  mkImpl lkids Prop_HeapSeq.hl_roots (Ret hl_new) hlp_clone hlp_drop hs_step.
Definition stack_vals (T : Type) : spec (list T) (stack_op T) (obs T) := mkSpec [] stack_spec always.

Definition queue_impl (T : Type) : impl (lcell T) hqueue (queue_op T) (obs T) :=
  mkImpl lkids Prop_HeapSeq.hq_roots (Ret hq_new) hq_clone hq_drop hq_step.
Definition queue_vals (T : Type) : spec (list T) (queue_op T) (obs T) := mkSpec [] queue_spec always.

Definition vector_impl (T : Type) (ubits : N) (dbg : bool) (bits : N) : impl (vcell T) hvec (vec_op T) (obs T) :=
  mkImpl vkids Prop_HeapVec.hv_roots (hv_new bits) hv_clone (hv_drop ubits dbg) (hv_step ubits dbg).
Definition vector_vals (T : Type) (ubits : N) (dbg : bool) (bits : N) : spec (list T) (vec_op T) (obs T) :=
  mkSpec [] vec_spec (fits ubits dbg bits).

Section Ordered.
Context {K V Q : Type} (dbg : bool) (kcmp : K -> K -> comparison) (borrow : K -> Q) (qcmp : Q -> Q -> comparison).
Definition rb_map_impl := mkImpl rkids Prop_HeapRB.hb_roots (@hb_new K V) hb_clone hb_drop (hb_step dbg kcmp borrow qcmp).
Definition rb_map_vals := mkSpec (@nil (K * V)) (rb_call_spec kcmp borrow qcmp) always.
Definition rb_set_impl := mkImpl rkids Prop_HeapRB.hb_roots (@hb_new K unit) hb_clone hb_drop (ss_step dbg kcmp borrow qcmp).
Definition rb_set_vals := mkSpec (@nil K) (ss_spec kcmp borrow qcmp) always.
End Ordered.

Section Hashed.
Context {K V Q : Type} (ubits : N) (dbg : bool) (keq : K -> K -> bool) (borrow : K -> Q) (qeq : Q -> Q -> bool)
  (hash : K -> N) (qhash : Q -> N) (degree : N) (fuel : nat).
Definition hash_map_impl := mkImpl tkids Prop_HeapHash.hh_roots (@hh_new ubits K V degree) hh_clone hh_drop
  (hh_step ubits dbg keq borrow qeq hash qhash fuel).
Definition hash_map_vals := mkSpec (@nil (K * V)) (ht_call_spec keq borrow qeq) always.
Definition hash_set_impl := mkImpl tkids Prop_HeapHash.hh_roots (@hh_new ubits K unit degree) hh_clone hh_drop
  (us_step ubits dbg keq borrow qeq hash qhash fuel).
Definition hash_set_vals := mkSpec (@nil K) (us_spec keq borrow qeq) always.
End Hashed.

(** Nested to any depth. *)
Inductive nested : forall C Coll Val Op Out : Type, impl C Coll Op Out -> spec Val Op Out -> Prop :=
| nested_list : forall T, nested _ _ _ _ _ (list_impl T) (list_vals T)
| nested_stack : forall T, nested _ _ _ _ _ (stack_impl T) (stack_vals T)
| nested_queue : forall T, nested _ _ _ _ _ (queue_impl T) (queue_vals T)
| nested_vector : forall T ubits dbg bits, (8 <= ubits)%N -> (0 < bits)%N -> (bits < ubits)%N ->
    nested _ _ _ _ _ (vector_impl T ubits dbg bits) (vector_vals T ubits dbg bits)
| nested_rb_map : forall (K V Q : Type) dbg (kcmp : K -> K -> comparison) (borrow : K -> Q) qcmp,
    ord_laws qcmp -> borrow_agrees kcmp borrow qcmp ->
    nested _ _ _ _ _ (rb_map_impl dbg kcmp borrow qcmp) (rb_map_vals (V := V) kcmp borrow qcmp)
| nested_rb_set : forall (T Q : Type) dbg (tcmp : T -> T -> comparison) (borrow : T -> Q) qcmp,
    ord_laws qcmp -> borrow_agrees tcmp borrow qcmp ->
    nested _ _ _ _ _ (rb_set_impl dbg tcmp borrow qcmp) (rb_set_vals tcmp borrow qcmp)
| nested_hash_map : forall (K V Q : Type) ubits dbg (keq : K -> K -> bool) (borrow : K -> Q) qeq hash qhash,
    (ubits <= 64)%N -> key_laws keq borrow qeq -> hash_laws borrow qeq hash qhash ->
    forall degree fuel, supported ubits degree -> 2 * digits degree < fuel ->
    nested _ _ _ _ _ (hash_map_impl ubits dbg keq borrow qeq hash qhash degree fuel) (hash_map_vals (V := V) keq borrow qeq)
| nested_hash_set : forall (T Q : Type) ubits dbg (teq : T -> T -> bool) (borrow : T -> Q) qeq hash qhash,
    (ubits <= 64)%N -> key_laws teq borrow qeq -> hash_laws borrow qeq hash qhash ->
    forall degree fuel, supported ubits degree -> 2 * digits degree < fuel ->
    nested _ _ _ _ _ (hash_set_impl ubits dbg teq borrow qeq hash qhash degree fuel) (hash_set_vals teq borrow qeq)
| nested_list_of : forall C Coll Val Op Out I S, nested C Coll Val Op Out I S ->
    nested _ _ _ _ _ (list_of I) (list_of_spec S)
| nested_queue_of : forall C Coll Val Op Out I S, nested C Coll Val Op Out I S ->
    nested _ _ _ _ _ (queue_of I) (queue_of_spec S)
| nested_vector_of : forall C Coll Val Op Out I S ubits dbg bits, (8 <= ubits)%N -> (0 < bits)%N -> (bits < ubits)%N ->
    nested C Coll Val Op Out I S ->
    nested _ _ _ _ _ (vector_of ubits dbg I bits) (vector_of_spec S ubits dbg bits)
| nested_rb_map_of : forall C Coll Val Op Out I S (K Q : Type) dbg (kcmp : K -> K -> comparison) (borrow : K -> Q) qcmp,
    ord_laws qcmp -> borrow_agrees kcmp borrow qcmp -> nested C Coll Val Op Out I S ->
    nested _ _ _ _ _ (rb_map_of dbg kcmp borrow qcmp I) (rb_map_of_spec S kcmp borrow qcmp)
| nested_hash_map_of : forall C Coll Val Op Out I S (K Q : Type) ubits dbg (keq : K -> K -> bool) (borrow : K -> Q) qeq hash qhash,
    (ubits <= 64)%N -> key_laws keq borrow qeq -> hash_laws borrow qeq hash qhash ->
    forall degree fuel, supported ubits degree -> 2 * digits degree < fuel -> nested C Coll Val Op Out I S ->
    nested _ _ _ _ _ (hash_map_of ubits dbg keq borrow qeq hash qhash fuel I degree) (hash_map_of_spec S keq borrow qeq).
Arguments nested {C Coll Val Op Out}.

Lemma nested_implements : forall C Coll Val Op Out (I : impl C Coll Op Out) (S : spec Val Op Out),
  nested I S -> implements I S.
Proof.
  intros C Coll Val Op Out I S N.
  induction N as [T|T|T|T ubits dbg bits Hu Hb Hbu|K V Q dbg kcmp borrow qcmp OL KB|T Q dbg tcmp borrow qcmp OL KB
    |K V Q ubits dbg keq borrow qeq hash qhash Hub KL HL degree fuel (b & Hb & -> & Hd) Hf
    |T Q ubits dbg teq borrow qeq hash qhash Hub KL HL degree fuel (b & Hb & -> & Hd) Hf
    |C Coll Val Op Out I S N IH|C Coll Val Op Out I S N IH|C Coll Val Op Out I S ubits dbg bits Hu Hb Hbu N IH
    |C Coll Val Op Out I S K Q dbg kcmp borrow qcmp OL KB N IH
    |C Coll Val Op Out I S K Q ubits dbg keq borrow qeq hash qhash Hub KL HL degree fuel (b & Hb & -> & Hd) Hf N IH].
  - exists hlrep, 0, list_cost. constructor; unfold list_impl, list_vals; cbn [i_kids i_roots i_new i_clone i_drop i_op s_new s_op s_pre].
    + apply Prop_HeapSeq.hl_new_ok.
    + apply hl_clone_keeps.
    + apply Prop_HeapShare.copying_list.
    + apply hlp_drop_ok.
    + intros. now apply hl_step_ok.
    + apply Prop_HeapSeq.hl_rep_roots.
  - exists hlrep, 0, stack_cost. constructor; unfold stack_impl, stack_vals; cbn [i_kids i_roots i_new i_clone i_drop i_op s_new s_op s_pre].
    + apply Prop_HeapSeq.hl_new_ok.
    + apply hl_clone_keeps.
    + apply Prop_HeapShare.copying_list.
    + apply hlp_drop_ok.
    + intros. now apply hs_step_ok.
    + apply Prop_HeapSeq.hl_rep_roots.
  - exists hqrep, 0, queue_cost. constructor; unfold queue_impl, queue_vals; cbn [i_kids i_roots i_new i_clone i_drop i_op s_new s_op s_pre].
    + apply Prop_HeapSeq.hq_new_ok.
    + apply hq_clone_keeps.
    + intros c. unfold hq_clone. apply Prop_HeapShare.copying_bind; [apply Prop_HeapShare.copying_list|]. intros i.
      apply Prop_HeapShare.copying_bind; [apply Prop_HeapShare.copying_list|]. intros o. exact I.
    + apply hq_drop_ok.
    + intros. now apply hq_step_ok.
    + apply Prop_HeapSeq.hq_rep_roots.
  - exists (hvrep ubits dbg bits), 1, (vec_cost bits).
    constructor; unfold vector_impl, vector_vals; cbn [i_kids i_roots i_new i_clone i_drop i_op s_new s_op s_pre].
    + now apply hv_new_ok.
    + apply hv_clone_keeps.
    + intros c. exact I.
    + now apply hv_drop_ok.
    + intros. now apply hv_step_ok.
    + apply Prop_HeapVec.hv_rep_roots.
  - exists (hbrep kcmp), 0, rb_cost.
    constructor; unfold rb_map_impl, rb_map_vals; cbn [i_kids i_roots i_new i_clone i_drop i_op s_new s_op s_pre].
    + apply hb_new_ok.
    + apply hb_clone_keeps.
    + intros [[r|] s]; exact I.
    + apply hb_drop_ok.
    + intros. now apply hb_step_ok.
    + apply Prop_HeapRB.hb_rep_roots.
  - exists (ssrep tcmp), 0, ss_cost.
    constructor; unfold rb_set_impl, rb_set_vals; cbn [i_kids i_roots i_new i_clone i_drop i_op s_new s_op s_pre].
    + apply hb_new_ok.
    + intros c v G. apply (hb_clone_keeps tcmp c (map ut v)).
    + intros [[r|] s]; exact I.
    + intros c v G. apply (hb_drop_ok tcmp c (map ut v)).
    + intros. now apply ss_step_ok.
    + intros c v G. apply (Prop_HeapRB.hb_rep_roots _ _ tcmp c (map ut v)).
  - rewrite digits_D in *. exists (hhrep ubits b keq hash), 1, (ht_cost b hash qhash).
    constructor; unfold hash_map_impl, hash_map_vals; cbn [i_kids i_roots i_new i_clone i_drop i_op s_new s_op s_pre].
    + now apply (hh_new_ok ubits dbg b Hb Hd Hub keq borrow qeq hash qhash KL HL fuel Hf).
    + apply Prop_HeapShare.hh_clone_safe.
    + intros c. exact I.
    + now apply hh_drop_ok.
    + intros. now apply hh_step_ok.
    + apply Prop_HeapHash.hh_rep_roots.
  - rewrite digits_D in *. exists (usrep ubits b teq hash), 1, (us_cost b hash qhash).
    constructor; unfold hash_set_impl, hash_set_vals; cbn [i_kids i_roots i_new i_clone i_drop i_op s_new s_op s_pre].
    + now apply (hh_new_ok ubits dbg b Hb Hd Hub teq borrow qeq hash qhash KL HL fuel Hf).
    + intros c v G. now apply (Prop_HeapShare.hh_clone_safe _ _ ubits b teq hash c (map ut v)).
    + intros c. exact I.
    + intros c v G. now apply (hh_drop_ok ubits b Hb Hd Hub teq hash c (map ut v)).
    + intros. now apply us_step_ok.
    + intros c v G. apply (Prop_HeapHash.hh_rep_roots ubits b _ _ teq hash c (map ut v)).
  - now apply list_of_ok.
  - now apply queue_of_ok.
  - now apply vector_of_ok.
  - now apply rb_map_of_ok.
  - rewrite digits_D in *. now apply hash_map_of_ok.
Qed.

(** ** The four properties *)
Section Theorems.
Context {C Coll Val Op Out : Type} (I : impl C Coll Op Out) (S : spec Val Op Out) (N : nested I S).

Theorem C63_nested_persistent :
  persistent (i_new I) (i_clone I) (i_drop I) (i_op I) (s_new S) (s_op S) (s_pre S).
Proof.
  destruct (nested_implements _ _ _ _ _ _ _ N) as (rep & ncost & cost & [a b _ d e f]).
  eapply (persistent_ok (i_kids I) _ _ _ _ rep _ _ _ ncost cost); trivial.
  intros c v G r. apply Prop_HeapLock.weaken; auto.
Qed.

Theorem C63_nested_non_interfering :
  non_interfering (i_new I) (i_clone I) (i_drop I) (i_op I) (s_new S) (s_op S) (s_pre S).
Proof.
  destruct (nested_implements _ _ _ _ _ _ _ N) as (rep & ncost & cost & [a b _ d e f]).
  eapply (non_interfering_ok (i_kids I) _ _ _ _ (i_roots I) rep _ _ _ ncost cost); trivial.
  intros c v G r. apply Prop_HeapLock.weaken; auto.
Qed.

Theorem C63_nested_counts_exact :
  counts_exact (i_kids I) (i_new I) (i_clone I) (i_drop I) (i_op I) (i_roots I) (s_new S) (s_op S) (s_pre S).
Proof.
  destruct (nested_implements _ _ _ _ _ _ _ N) as (rep & ncost & cost & [a b _ d e f]).
  eapply (counts_exact_ok (i_kids I) _ _ _ _ _ rep _ _ _ ncost cost); trivial.
  intros c v G r. apply Prop_HeapLock.weaken; auto.
Qed.

Theorem C63_nested_guarded :
  guarded (i_kids I) (i_new I) (i_clone I) (i_drop I) (i_op I) (i_roots I) (s_new S) (s_op S) (s_pre S).
Proof.
  destruct (nested_implements _ _ _ _ _ _ _ N) as (rep & ncost & cost & [a b _ d e f]).
  eapply (guarded_ok (i_kids I) _ _ _ _ _ rep _ _ _ ncost cost); trivial.
  intros c v G r. apply Prop_HeapLock.weaken; auto.
Qed.
End Theorems.
Print Assumptions C63_nested_persistent.
Print Assumptions C63_nested_non_interfering.
Print Assumptions C63_nested_counts_exact.
Print Assumptions C63_nested_guarded.

(** ** Examples *)

(** What a program on one thread shows, and how many cells are not free at the end. *)
Definition shown {C Coll Op Out : Type} (I : impl C Coll Op Out) (l : list (cmd Op)) : option (list Out * nat) :=
  match run [] (hclient (i_new I) (i_clone I) (i_drop I) (i_op I) l []) with
  | Some (h, (_, out)) => Some (out, length (filter (fun x => match x with None => false | Some _ => true end) h))
  | None => None
  end.

(** [List<List<nat>>].  [[1; 2]] is pushed; its clone, with 0 pushed onto it, is pushed as well, so that
    the nodes of [1; 2] belong to two elements; the outer list is cloned; the first version loses
    its first element, the second is reversed in place, and its elements are looked at. *)
Definition lists := list_of (list_impl nat).
Definition lists_vals := list_of_spec (list_vals nat).
Example lists_nested : nested lists lists_vals.
Proof. repeat constructor. Qed.
Definition lists_example : list (cmd (nop (list_op nat))) :=
  [CNew; COp 0 (NPushMut [LPushMut 2; LPushMut 1]); COp 0 (NCopy [LPushMut 0]); CClone 0;
   COp 0 NDropMut; COp 1 NRevMut; COp 0 (NEach [LIter 5]); COp 1 (NEach [LIter 5]);
   COp 1 (NFirst [LDropMut; LFirst]); COp 1 (NLast [LRevMut; LFirst])].
Example lists_may : within (s_new lists_vals) (s_op lists_vals) (s_pre lists_vals) lists_example [].
Proof. cbn. repeat (split || constructor). Qed.
Example lists_shown :
  shown lists lists_example =
  Some ([NOuts (Some [OUnit; OUnit]); NOuts (Some [OUnit]); NBool true; NUnit;
         NAll [[OSteps [(2, Some 1); (1, Some 2); (0, None); (0, None); (0, None)]]];
         NAll [[OSteps [(2, Some 1); (1, Some 2); (0, None); (0, None); (0, None)]];
               [OSteps [(3, Some 0); (2, Some 1); (1, Some 2); (0, None); (0, None)]]];
         NOuts (Some [OBool true; OElem (Some 2)]);
         NOuts (Some [OUnit; OElem (Some 2)])], 11).
Proof. vm_compute. reflexivity. Qed.
(** When one of the versions is dropped its own nodes go; when both are, all do. *)
Example lists_freed_one : option_map snd (shown lists (lists_example ++ [CDrop 1])) = Some 6.
Proof. vm_compute. reflexivity. Qed.
Example lists_freed : option_map snd (shown lists (lists_example ++ [CDrop 1; CDrop 0])) = Some 0.
Proof. vm_compute. reflexivity. Qed.

(** [Queue<HashTrieMap>], degree 4 and the hash [k / 3] of Prop_HeapHash.v, on two threads.  The main
    thread enqueues the map of 0, 1, 2 and a copy of it with 3 inserted, and clones the queue.  One
    thread dequeues the first map and inserts into a copy of the second, in the queue; the other
    removes from a copy of the first; both drop their queues. *)
Definition maps := queue_of (hash_map_impl (V := nat) 64 true N.eqb (fun k => k) N.eqb Prop_HeapHash.hx_hash Prop_HeapHash.hx_hash 4 65).
Definition maps_vals := queue_of_spec (hash_map_vals (V := nat) N.eqb (fun k : N => k) N.eqb).
Example maps_nested : nested maps maps_vals.
Proof.
  constructor. constructor.
  - discriminate.
  - constructor; intros; try (now rewrite !N.eqb_eq in *; subst); try apply N.eqb_refl; try apply N.eqb_sym; auto.
  - constructor; intros; trivial.
    + now rewrite N.eqb_eq in *; subst.
    + apply N.mod_lt. discriminate.
  - exists 2%N. repeat split; discriminate.
  - apply Nat.ltb_lt. reflexivity.
Qed.
Definition maps_main : list (cmd (nqop (ht_call N nat N))) :=
  [CNew; COp 0 (NEnqMut (map (fun k => TOp (MInsertMut k (N.to_nat k * 10))) [0; 1; 2]%N));
   COp 0 (NRequeue [TOp (MInsertMut 3%N 30)]); CClone 0].
Definition maps_jobs : list (job (Op := nqop (ht_call N nat N))) :=
  [mkJob [0] [COp 0 NDeqMut; COp 0 (NRequeue [TOp (MInsertMut 1%N 77)]); COp 0 NDeqMut;
              COp 0 (NPeek (map (fun k => TOp (MGet k)) [0; 1; 3; 4]%N)); CDrop 0];
   mkJob [1] [COp 0 (NPeek [TOp (MRemoveMut 1%N); TOp (MGet 1%N); TOp (MGet 2%N)]);
              COp 0 (NRequeue [TOp (MRemove 2%N)]); COp 0 NDeq; COp 0 (NPeek (map (fun k => TOp (MGet k)) [1; 2; 3]%N));
              COp 0 NQLen; CDrop 0]].
Example maps_hypotheses :
  within (s_new maps_vals) (s_op maps_vals) (s_pre maps_vals) maps_main [] /\
  let vs := fst (sclient (s_new maps_vals) (s_op maps_vals) maps_main []) in
  Permutation (concat (map job_regs maps_jobs)) (List.seq 0 (length vs)) /\
  Forall (job_within (s_new maps_vals) (s_op maps_vals) (s_pre maps_vals) vs) maps_jobs.
Proof.
  split; [vm_compute; repeat split|]. cbn zeta. split; [apply Permutation_refl|].
  repeat (constructor; [vm_compute; repeat split|]). constructor.
Qed.
Example maps_run :
  match run [] (hclient (i_new maps) (i_clone maps) (i_drop maps) (i_op maps) maps_main []) with
  | Some (h, (rs, _)) =>
      let cf := exec (flat_map (fun _ => [0; 1; 1; 0; 1]) (List.seq 0 900))
                  (h, map (job_start (i_new maps) (i_clone maps) (i_drop maps) (i_op maps) rs) maps_jobs) in
      (map (fun p => match p with Ret r => Some (snd r) | _ => None end) (snd cf),
       forallb (fun x => match x with None => true | Some _ => false end) (fst cf))
  | None => ([], false)
  end =
  ([Some [NBool true; NOuts (Some [TObs MoUnit]); NBool true;
          NOuts (Some (map (fun o => TObs (MoVal o)) [Some 0; Some 77; Some 30; None]))];
    Some [NOuts (Some [TObs (MoBool true); TObs (MoVal None); TObs (MoVal (Some 20))]); NOuts (Some [TObs MoUnit]);
          NBool true; NOuts (Some (map (fun o => TObs (MoVal o)) [Some 10; Some 20; Some 30])); NNat 2]], true).
Proof. vm_compute. reflexivity. Qed.

(** Three levels, [List<Queue<List<nat>>>], behind a lock. *)
Definition deep := list_of (queue_of (list_impl nat)).
Definition deep_vals := list_of_spec (queue_of_spec (list_vals nat)).
Example deep_nested : nested deep deep_vals.
Proof. repeat constructor. Qed.
Lemma vmay_always : forall {V Op Out} (S : spec V Op Out), (forall o v, s_pre S o v) -> forall l v, vmay S l v.
Proof. intros V Op Out S P l. induction l as [|o l IH]; intros v; cbn [vmay]; auto. Qed.
Lemma list_always : forall {V Op Out} (S : spec V Op Out), (forall o v, s_pre S o v) -> forall o s, nl_pre S o s.
Proof.
  intros V Op Out S P o s. destruct o; cbn [nl_pre]; trivial; try now apply vmay_always.
  - destruct (hd_error s); cbn; trivial. now apply vmay_always.
  - destruct (hd_error s); cbn; trivial. now apply vmay_always.
  - destruct (last_error s); cbn; trivial. now apply vmay_always.
  - apply Forall_forall. intros x _. now apply vmay_always.
Qed.
Lemma queue_always : forall {V Op Out} (S : spec V Op Out), (forall o v, s_pre S o v) -> forall o s, nq_pre S o s.
Proof.
  intros V Op Out S P o s. destruct o; cbn [nq_pre]; trivial; try now apply vmay_always.
  - destruct (hd_error s); cbn; trivial. now apply vmay_always.
  - destruct (hd_error s); cbn; trivial. now apply vmay_always.
Qed.
Notation deep_op := (nop (nqop (list_op nat))).
(** The queue of [2; 1] and [5; 2; 1], and on top of it a copy without its first list. *)
Definition deep_main : list (cmd deep_op) :=
  [CNew; COp 0 (NPushMut [NEnqMut [LPushMut 1; LPushMut 2]; NRequeue [LPushMut 5]]); COp 0 (NCopy [NDeqMut])].
Definition deep_jobs : list (list nat * list (lcmd deep_op)) :=
  [([], [Locked 0 [COp 0 (NCopy [NRequeue [LDropMut]]); CClone 0]; Mine (COp 0 (NFirst [NDeqMut; NPeek [LIter 3]])); Mine (CDrop 0);
         Locked 0 [COp 0 NDropMut]]);
   ([], [Locked 0 [CClone 0; COp 0 NRevMut]; Mine (COp 0 (NEach [NQLen; NPeek [LIter 3]])); Mine (CDrop 0);
         Locked 0 [COp 0 (NFirst [NQLen; NPeek [LIter 3]]); COp 0 (NLast [NQLen])]])].
Example deep_hypotheses :
  within (s_new deep_vals) (s_op deep_vals) (s_pre deep_vals) deep_main [] /\
  let vs := fst (sclient (s_new deep_vals) (s_op deep_vals) deep_main []) in
  Permutation ([0] ++ concat (map fst deep_jobs)) (List.seq 0 (length vs)) /\
  forall order, let vst := vexec (s_new deep_vals) (s_op deep_vals) order (vstart vs [0] deep_jobs) in
    Forall (next_ok (s_new deep_vals) (s_op deep_vals) (s_pre deep_vals) (fst vst)) (snd vst).
Proof.
  assert (A : forall o v, s_pre deep_vals o v) by (apply list_always; apply queue_always; intros; exact I).
  split; [now apply Prop_HeapLock.within_always|]. cbn zeta. split; [apply Permutation_refl|].
  apply Prop_HeapLock.all_orders; [exact A|]. repeat constructor; cbn; intuition discriminate.
Qed.
Example deep_run :
  Prop_HeapLock.lock_run (i_new deep) (i_clone deep) (i_drop deep) (i_op deep) deep_main [0] deep_jobs (Prop_HeapLock.turns 300) =
  (let l521 := OSteps [(3, Some 5); (2, Some 2); (1, Some 1)] in
   let l21 := OSteps [(2, Some 2); (1, Some 1); (0, None)] in
   ([0; 1; 0; 1; 0; 0; 1; 1],
    [Some [NOuts (Some [NOuts (Some [OBool true])]); NOuts (Some [NBool true; NOuts (Some [l21])]); NBool true];
     Some [NUnit; NAll [[NNat 2; NOuts (Some [l521])]; [NNat 1; NOuts (Some [l521])]; [NNat 2; NOuts (Some [l21])]];
           NOuts (Some [NNat 1; NOuts (Some [l521])]); NOuts (Some [NNat 2])]], true)).
Proof. vm_compute. reflexivity. Qed.

(** [Vector<List<nat>>] with two children per node.  Four lists are pushed; the vector is cloned.  One
    thread pushes onto the list at 1 through [get_mut], appends a copy of the list at 0, and
    replaces the one at 2; the other, in its version, pops off the list at 1 and drops the last
    two lists.  Each looks at all of its lists from both ends and drops its vector. *)
Definition vectors := vector_of 64 true (list_impl nat) 1.
Definition vectors_vals := vector_of_spec (list_vals nat) 64 true 1.
Example vectors_nested : nested vectors vectors_vals.
Proof. repeat constructor; discriminate. Qed.
Definition vectors_main : list (cmd (nvop (list_op nat))) :=
  [CNew; COp 0 (NVPushMut [LPushMut 1]); COp 0 (NVPush [LPushMut 2; LPushMut 3]);
   COp 0 (NVExtend [[LPushMut 4]; [LPushMut 5; LPushMut 6]]); CClone 0].
Definition vectors_jobs : list (job (Op := nvop (list_op nat))) :=
  [mkJob [0] [COp 0 (NVUpdate 1 [LPushMut 7]); COp 0 (NVCopy 0 [LPushMut 8]); COp 0 (NVSet 2 [LPushMut 9]); COp 0 (NVSetMut 5 []);
              COp 0 (NVIter [false; true; false; true; false; true] [LIter 4]); COp 0 NVLen; CDrop 0];
   mkJob [1] [COp 0 (NVUpdate 1 [LDropMut]); COp 0 NVDropMut; COp 0 NVDrop; COp 0 (NVUpdate 2 [LDropMut]);
              COp 0 (NVGet 1 [LIter 4]); COp 0 (NVLast [LFirst]); COp 0 (NVFirst [LFirst]); COp 0 NVLen; CDrop 0]].
Example vectors_hypotheses :
  within (s_new vectors_vals) (s_op vectors_vals) (s_pre vectors_vals) vectors_main [] /\
  let vs := fst (sclient (s_new vectors_vals) (s_op vectors_vals) vectors_main []) in
  Permutation (concat (map job_regs vectors_jobs)) (List.seq 0 (length vs)) /\
  Forall (job_within (s_new vectors_vals) (s_op vectors_vals) (s_pre vectors_vals) vs) vectors_jobs.
Proof.
  split; [vm_compute; repeat (split || constructor); discriminate|]. cbn zeta. split; [apply Permutation_refl|].
  repeat (constructor; [vm_compute; repeat (split || constructor); discriminate|]). constructor.
Qed.
Example vectors_run :
  match run [] (hclient (i_new vectors) (i_clone vectors) (i_drop vectors) (i_op vectors) vectors_main []) with
  | Some (h, (rs, _)) =>
      let cf := exec (flat_map (fun _ => [0; 1; 1; 0; 1]) (List.seq 0 900))
                  (h, map (job_start (i_new vectors) (i_clone vectors) (i_drop vectors) (i_op vectors) rs) vectors_jobs) in
      (map (fun p => match p with Ret r => Some (snd r) | _ => None end) (snd cf),
       forallb (fun x => match x with None => true | Some _ => false end) (fst cf))
  | None => ([], false)
  end =
  ([Some [NOuts (Some [OUnit]); NOuts (Some [OUnit]); NMade true [[OUnit]]; NMade false [[]];
          NSteps
            [(5, Some [OSteps [(1, Some 1); (0, None); (0, None); (0, None)]]);
             (4, Some [OSteps [(2, Some 8); (1, Some 1); (0, None); (0, None)]]);
             (3, Some [OSteps [(3, Some 7); (2, Some 3); (1, Some 2); (0, None)]]);
             (2, Some [OSteps [(2, Some 6); (1, Some 5); (0, None); (0, None)]]);
             (1, Some [OSteps [(1, Some 9); (0, None); (0, None); (0, None)]]);
             (0, None)]; NNat 5];
    Some [NOuts (Some [OBool true]); NBool true; NBool true; NOuts None;
          NOuts (Some [OSteps [(1, Some 2); (0, None); (0, None); (0, None)]]);
          NOuts (Some [OElem (Some 2)]); NOuts (Some [OElem (Some 1)]); NNat 2]], true).
Proof. vm_compute. reflexivity. Qed.

(** The same list four times in a [Vector<Vector<List<nat>>>], and once changed in place: cells are shared
    at all three levels, and all are free in the end. *)
Definition grid := vector_of 64 true vectors 1.
Definition grid_vals := vector_of_spec vectors_vals 64 true 1.
Example grid_nested : nested grid grid_vals.
Proof. repeat constructor; discriminate. Qed.
Definition grid_example : list (cmd (nvop (nvop (list_op nat)))) :=
  [CNew; COp 0 (NVPushMut [NVPushMut [LPushMut 2; LPushMut 1]; NVCopy 0 []]); COp 0 (NVCopy 0 []); CClone 0;
   COp 0 (NVUpdate 1 [NVUpdate 0 [LPushMut 5]]); COp 0 (NVFirst [NVIter [true; false] [LFirst]]);
   COp 0 (NVLast [NVIter [true; false] [LFirst]]); COp 1 (NVGet 1 [NVIter [true; false] [LFirst]])].
Example grid_may : within (s_new grid_vals) (s_op grid_vals) (s_pre grid_vals) grid_example [].
Proof. vm_compute. repeat (split || constructor); discriminate. Qed.
Example grid_shown :
  shown grid grid_example =
  (let row x y := Some [NSteps [(2, Some [OElem (Some x)]); (1, Some [OElem (Some y)])]] in
   Some ([NAll [[NAll [[OUnit; OUnit]]; NOuts (Some [])]]; NOuts (Some []); NOuts (Some [NOuts (Some [OUnit])]);
          NOuts (row 1 1); NOuts (row 1 5); NOuts (row 1 1)], 16)).
Proof. vm_compute. reflexivity. Qed.
Example grid_freed : option_map snd (shown grid (grid_example ++ [CDrop 1; CDrop 0])) = Some 0.
Proof. vm_compute. reflexivity. Qed.

(** [RedBlackTreeMap<nat, List<nat>>].  Five lists are inserted and the map is cloned.  One thread
    pushes onto the list at 2 through [get_mut], inserts a copy of the list at 1 under 9 and
    another over the one at 4, and removes 3; the other, in its version, pops off the list at 2 and
    removes 1.  Each looks at its lists from both ends and drops its map. *)
Definition rmaps := rb_map_of true Nat.compare (fun k : nat => k) Nat.compare (list_impl nat).
Definition rmaps_vals := rb_map_of_spec (list_vals nat) Nat.compare (fun k : nat => k) Nat.compare.
Lemma nat_keys : ord_laws Nat.compare /\ borrow_agrees Nat.compare (fun k => k) Nat.compare.
Proof.
  split; [|intros a b; reflexivity]. constructor.
  - intros a b. apply Nat.compare_antisym.
  - intros a b c. rewrite !Nat.compare_lt_iff. lia.
  - intros a b c E. apply Nat.compare_eq_iff in E. now subst.
Qed.
Example rmaps_nested : nested rmaps rmaps_vals.
Proof. constructor; try apply nat_keys. constructor. Qed.
Definition rmaps_main : list (cmd (nbop nat nat (list_op nat))) :=
  [CNew; COp 0 (NBMap (NMInsertMut 3 [LPushMut 1])); COp 0 (NBMap (NMInsert 1 [LPushMut 2; LPushMut 3]));
   COp 0 (NBMap (NMInsertMut 2 [LPushMut 4])); COp 0 (NBMap (NMInsertMut 5 [])); COp 0 (NBMap (NMInsert 4 [LPushMut 5; LPushMut 6])); CClone 0].
Definition rmaps_jobs : list (job (Op := nbop nat nat (list_op nat))) :=
  [mkJob [0] [COp 0 (NBMap (NMUpdate 2 [LPushMut 7])); COp 0 (NBMap (NMCopy 1 9 [LPushMut 8])); COp 0 (NBMap (NMCopy 1 4 [LDropMut]));
              COp 0 (NBMap (NMRemoveMut 3)); COp 0 (NBIter [false; true; false; true; false; true] [LIter 3]); COp 0 (NBMap NMSize); CDrop 0];
   mkJob [1] [COp 0 (NBMap (NMUpdate 2 [LDropMut])); COp 0 (NBMap (NMRemove 1)); COp 0 (NBMap (NMUpdate 9 [LDropMut]));
              COp 0 (NBMap (NMGetKeyValue 4 [LIter 3])); COp 0 (NBLast [LFirst]); COp 0 (NBFirst [LFirst]); COp 0 (NBMap (NMGet 1 []));
              COp 0 (NBMap NMSize); CDrop 0]].
Example rmaps_hypotheses :
  within (s_new rmaps_vals) (s_op rmaps_vals) (s_pre rmaps_vals) rmaps_main [] /\
  let vs := fst (sclient (s_new rmaps_vals) (s_op rmaps_vals) rmaps_main []) in
  Permutation (concat (map job_regs rmaps_jobs)) (List.seq 0 (length vs)) /\
  Forall (job_within (s_new rmaps_vals) (s_op rmaps_vals) (s_pre rmaps_vals) vs) rmaps_jobs.
Proof.
  split; [vm_compute; repeat (split || constructor)|]. cbn zeta. split; [apply Permutation_refl|].
  repeat (constructor; [vm_compute; repeat (split || constructor)|]). constructor.
Qed.
Example rmaps_run :
  match run [] (hclient (i_new rmaps) (i_clone rmaps) (i_drop rmaps) (i_op rmaps) rmaps_main []) with
  | Some (h, (rs, _)) =>
      let cf := exec (flat_map (fun _ => [0; 1; 1; 0; 1]) (List.seq 0 900))
                  (h, map (job_start (i_new rmaps) (i_clone rmaps) (i_drop rmaps) (i_op rmaps) rs) rmaps_jobs) in
      (map (fun p => match p with Ret r => Some (snd r) | _ => None end) (snd cf),
       forallb (fun x => match x with None => true | Some _ => false end) (fst cf))
  | None => ([], false)
  end =
  ([Some
      [NMOut (NOuts (Some [OUnit])); NMOut (NOuts (Some [OUnit])); NMOut (NOuts (Some [OBool true])); NMOut (NBool true);
       NMSteps
         [(5, Some (1, [OSteps [(2, Some 3); (1, Some 2); (0, None)]]));
          (4, Some (9, [OSteps [(3, Some 8); (2, Some 3); (1, Some 2)]]));
          (3, Some (2, [OSteps [(2, Some 7); (1, Some 4); (0, None)]]));
          (2, Some (5, [OSteps [(0, None); (0, None); (0, None)]]));
          (1, Some (4, [OSteps [(1, Some 2); (0, None); (0, None)]]));
          (0, None)]; NMOut (NNat 5)];
    Some
      [NMOut (NOuts (Some [OBool true])); NMOut NUnit; NMOut (NOuts None);
       NMEntry (Some (4, [OSteps [(2, Some 6); (1, Some 5); (0, None)]]));
       NMEntry (Some (5, [OElem None])); NMEntry (Some (2, [OElem None])); NMOut (NOuts None); NMOut (NNat 4)]], true).
Proof. vm_compute. reflexivity. Qed.

(** [RedBlackTreeMap<nat, RedBlackTreeMap<nat, List<nat>>>]: the map at 1 is copied to 2 and both are
    changed, in two versions; their lists are shared until then. *)
Definition tables := rb_map_of true Nat.compare (fun k : nat => k) Nat.compare rmaps.
Definition tables_vals := rb_map_of_spec rmaps_vals Nat.compare (fun k : nat => k) Nat.compare.
Example tables_nested : nested tables tables_vals.
Proof. constructor; try apply nat_keys. apply rmaps_nested. Qed.
Definition tables_example : list (cmd (nbop nat nat (nbop nat nat (list_op nat)))) :=
  [CNew; COp 0 (NBMap (NMInsert 1 [NBMap (NMInsert 10 [LPushMut 1; LPushMut 2]); NBMap (NMInsert 20 [LPushMut 3])]));
   COp 0 (NBMap (NMCopy 1 2 [NBMap (NMRemoveMut 20)])); CClone 0;
   COp 1 (NBMap (NMUpdate 1 [NBMap (NMUpdate 10 [LPushMut 4]); NBMap (NMUpdate 30 [])]));
   COp 0 (NBMap (NMRemoveMut 1)); COp 0 (NBMap (NMGet 2 [NBMap (NMGet 10 [LIter 3]); NBMap (NMGet 20 [])]));
   COp 1 (NBFirst [NBFirst [LIter 3]; NBLast [LFirst]]); COp 1 (NBLast [NBFirst [LIter 3]])].
Example tables_may : within (s_new tables_vals) (s_op tables_vals) (s_pre tables_vals) tables_example [].
Proof. vm_compute. repeat (split || constructor). Qed.
Example tables_shown :
  shown tables tables_example =
  (let l21 := OSteps [(2, Some 2); (1, Some 1); (0, None)] in
   Some ([NMOut (NAll [[NMOut (NAll [[OUnit; OUnit]]); NMOut (NAll [[OUnit]])]]);
          NMOut (NOuts (Some [NMOut (NBool true)]));
          NMOut (NOuts (Some [NMOut (NOuts (Some [OUnit])); NMOut (NOuts None)])); NMOut (NBool true);
          NMOut (NOuts (Some [NMOut (NOuts (Some [l21])); NMOut (NOuts None)]));
          NMEntry (Some (1, [NMEntry (Some (10, [OSteps [(3, Some 4); (2, Some 2); (1, Some 1)]])); NMEntry (Some (20, [OElem (Some 3)]))]));
          NMEntry (Some (2, [NMEntry (Some (10, [l21]))]))], 19)).
Proof. vm_compute. reflexivity. Qed.
Example tables_freed : option_map snd (shown tables (tables_example ++ [CDrop 1; CDrop 0])) = Some 0.
Proof. vm_compute. reflexivity. Qed.

(** [HashTrieMap<N, List<nat>>], degree 4 and the hash [k / 3], so that 0, 1 and 2 are in one bucket.  Four
    lists are inserted and the map is cloned.  One thread pushes onto the list at 1 through
    [get_mut], inserts a copy of the list at 0 under 9, and removes 2; the other, in its version,
    pops off the lists at 1 and 3 and puts a copy of the list at 0 over the one at 2.  Each looks
    at its lists and drops its map. *)
Definition hmaps := hash_map_of 64 true N.eqb (fun k => k) N.eqb Prop_HeapHash.hx_hash Prop_HeapHash.hx_hash 65 (list_impl nat) 4.
Definition hmaps_vals := hash_map_of_spec (list_vals nat) N.eqb (fun k : N => k) N.eqb.
Lemma N_keys : key_laws N.eqb (fun k => k) N.eqb /\ hash_laws (fun k => k) N.eqb Prop_HeapHash.hx_hash Prop_HeapHash.hx_hash.
Proof.
  split.
  - constructor; intros; try (now rewrite !N.eqb_eq in *; subst); try apply N.eqb_refl; try apply N.eqb_sym; auto.
  - constructor; intros; trivial.
    + now rewrite N.eqb_eq in *; subst.
    + apply N.mod_lt. discriminate.
Qed.
Example hmaps_nested : nested hmaps hmaps_vals.
Proof.
  constructor; try apply N_keys.
  - discriminate.
  - exists 2%N. repeat split; discriminate.
  - apply Nat.ltb_lt. reflexivity.
  - constructor.
Qed.
Notation hmaps_op := (nhop N N (list_op nat) (obs nat)).
Definition hmaps_main : list (cmd hmaps_op) :=
  [CNew; COp 0 (NHMap (NMInsertMut 0%N [LPushMut 1])); COp 0 (NHMap (NMInsert 1%N [LPushMut 2; LPushMut 3]));
   COp 0 (NHMap (NMInsertMut 2%N [LPushMut 4])); COp 0 (NHMap (NMInsertMut 3%N [LPushMut 5])); CClone 0].
Definition starts (x : nat) (y : N * list (obs nat)) : bool :=
  match snd y with [OElem (Some z)] => Nat.eqb z x | _ => false end.
Definition hmaps_jobs : list (job (Op := hmaps_op)) :=
  [mkJob [0] [COp 0 (NHMap (NMUpdate 1%N [LPushMut 7])); COp 0 (NHMap (NMCopy 0%N 9%N [LPushMut 7])); COp 0 (NHMap (NMRemoveMut 2%N));
              COp 0 (NHSteps 5); COp 0 (NHCount [LFirst] (starts 7)); COp 0 (NHMap (NMGet 1%N [LIter 3])); COp 0 (NHMap (NMGet 0%N [LIter 3])); CDrop 0];
   mkJob [1] [COp 0 (NHMap (NMUpdate 1%N [LDropMut])); COp 0 (NHMap (NMUpdate 3%N [LDropMut])); COp 0 (NHMap (NMCopy 0%N 2%N [LPushMut 8]));
              COp 0 (NHMap (NMGetKeyValue 2%N [LIter 3])); COp 0 (NHMap (NMGet 1%N [LIter 3])); COp 0 (NHMap (NMGet 3%N [LFirst]));
              COp 0 (NHCount [LFirst] (starts 7)); COp 0 (NHMap NMSize); CDrop 0]].
Example hmaps_hypotheses :
  within (s_new hmaps_vals) (s_op hmaps_vals) (s_pre hmaps_vals) hmaps_main [] /\
  let vs := fst (sclient (s_new hmaps_vals) (s_op hmaps_vals) hmaps_main []) in
  Permutation (concat (map job_regs hmaps_jobs)) (List.seq 0 (length vs)) /\
  Forall (job_within (s_new hmaps_vals) (s_op hmaps_vals) (s_pre hmaps_vals) vs) hmaps_jobs.
Proof.
  split; [vm_compute; repeat (split || constructor)|]. cbn zeta. split; [apply Permutation_refl|].
  repeat (constructor; [vm_compute; repeat (split || constructor)|]). constructor.
Qed.
Example hmaps_run :
  match run [] (hclient (i_new hmaps) (i_clone hmaps) (i_drop hmaps) (i_op hmaps) hmaps_main []) with
  | Some (h, (rs, _)) =>
      let cf := exec (flat_map (fun _ => [0; 1; 1; 0; 1]) (List.seq 0 900))
                  (h, map (job_start (i_new hmaps) (i_clone hmaps) (i_drop hmaps) (i_op hmaps) rs) hmaps_jobs) in
      (map (fun p => match p with Ret r => Some (snd r) | _ => None end) (snd cf),
       forallb (fun x => match x with None => true | Some _ => false end) (fst cf))
  | None => ([], false)
  end =
  ([Some
      [NHOut (NMOut (NOuts (Some [OUnit]))); NHOut (NMOut (NOuts (Some [OUnit]))); NHOut (NMOut (NBool true));
       NHHints [(4, true); (3, true); (2, true); (1, true); (0, false)]; NHNum 2;
       NHOut (NMOut (NOuts (Some [OSteps [(3, Some 7); (2, Some 3); (1, Some 2)]])));
       NHOut (NMOut (NOuts (Some [OSteps [(1, Some 1); (0, None); (0, None)]])))];
    Some
      [NHOut (NMOut (NOuts (Some [OBool true]))); NHOut (NMOut (NOuts (Some [OBool true]))); NHOut (NMOut (NOuts (Some [OUnit])));
       NHOut (NMEntry (Some (2%N, [OSteps [(2, Some 8); (1, Some 1); (0, None)]])));
       NHOut (NMOut (NOuts (Some [OSteps [(1, Some 2); (0, None); (0, None)]])));
       NHOut (NMOut (NOuts (Some [OElem None]))); NHNum 0; NHOut (NMOut (NNat 4))]], true).
Proof. vm_compute. reflexivity. Qed.

(** [HashTrieMap<N, HashTrieMap<N, List<nat>>>]: the map at 1 is copied to 2, in the same bucket, and
    both are changed, in two versions; their lists are shared until then. *)
Definition index_ := hash_map_of 64 true N.eqb (fun k => k) N.eqb Prop_HeapHash.hx_hash Prop_HeapHash.hx_hash 65 hmaps 4.
Definition index_vals := hash_map_of_spec hmaps_vals N.eqb (fun k : N => k) N.eqb.
Example index_nested : nested index_ index_vals.
Proof.
  constructor; try apply N_keys.
  - discriminate.
  - exists 2%N. repeat split; discriminate.
  - apply Nat.ltb_lt. reflexivity.
  - apply hmaps_nested.
Qed.
Definition index_example : list (cmd (nhop N N hmaps_op (nhout N (obs nat)))) :=
  [CNew; COp 0 (NHMap (NMInsert 1%N [NHMap (NMInsert 10%N [LPushMut 1; LPushMut 2]); NHMap (NMInsert 11%N [LPushMut 3])]));
   COp 0 (NHMap (NMCopy 1%N 2%N [NHMap (NMRemoveMut 11%N)])); CClone 0;
   COp 1 (NHMap (NMUpdate 1%N [NHMap (NMUpdate 10%N [LPushMut 4]); NHMap (NMUpdate 30%N [])]));
   COp 0 (NHMap (NMRemoveMut 1%N)); COp 0 (NHMap (NMGet 2%N [NHMap (NMGet 10%N [LIter 3]); NHMap (NMGet 11%N [])]));
   COp 1 (NHMap (NMGet 1%N [NHMap (NMGet 10%N [LIter 3])])); COp 1 (NHMap (NMGet 2%N [NHMap (NMGet 10%N [LIter 3])]))].
Example index_may : within (s_new index_vals) (s_op index_vals) (s_pre index_vals) index_example [].
Proof. vm_compute. repeat (split || constructor). Qed.
Example index_shown :
  shown index_ index_example =
  (let l21 := OSteps [(2, Some 2); (1, Some 1); (0, None)] in
   Some ([NHOut (NMOut (NAll [[NHOut (NMOut (NAll [[OUnit; OUnit]])); NHOut (NMOut (NAll [[OUnit]]))]]));
          NHOut (NMOut (NOuts (Some [NHOut (NMOut (NBool true))])));
          NHOut (NMOut (NOuts (Some [NHOut (NMOut (NOuts (Some [OUnit]))); NHOut (NMOut (NOuts None))])));
          NHOut (NMOut (NBool true));
          NHOut (NMOut (NOuts (Some [NHOut (NMOut (NOuts (Some [l21]))); NHOut (NMOut (NOuts None))])));
          NHOut (NMOut (NOuts (Some [NHOut (NMOut (NOuts (Some [OSteps [(3, Some 4); (2, Some 2); (1, Some 1)]])))])));
          NHOut (NMOut (NOuts (Some [NHOut (NMOut (NOuts (Some [l21])))])))], 89)).
Proof. vm_compute. reflexivity. Qed.
Example index_freed : option_map snd (shown index_ (index_example ++ [CDrop 1; CDrop 0])) = Some 0.
Proof. vm_compute. reflexivity. Qed.
