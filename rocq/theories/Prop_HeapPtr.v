(** * Property C41: ptr_eq is sound and detects clones

    For HashTrieMap, HashTrieSet, RedBlackTreeMap and RedBlackTreeSet on the shared
    heap.  The statements [ptr_eq_sound], [ptr_eq_clone] and [ptr_eq_fresh] are in
    HeapPtr.v: versions that are [ptr_eq] have the same entries, in any threads; a
    version is [ptr_eq] to itself and to a clone, and a clone put through a call
    that changes nothing, such as [remove] of an absent key, still is; after
    [insert] or [insert_mut] a version is [ptr_eq] to no other version. *)
From Coq Require Import List NArith Arith Lia Bool Permutation.
From Verif Require Import Base Spec Sim SpecMap SpecOrd SparseModel HashModel HashProofs HashHist HashExtraProofs Prop_Hash
  RBModel RBHist RBExtra Prop_RB HeapModel HeapProofs HeapSafe HeapClient HeapWorld HeapHash HeapHashProofs HeapHashMap
  HeapRB HeapRBProofs HeapRBMap HeapSet HeapPtr Prop_HeapRB Prop_HeapHash HeapPtrMaps.
Import ListNotations.
Local Open Scope nat_scope.

(** ** HashTrieMap *)
Theorem C41_hash_map_ptr_eq_sound : forall (T V Q : Type) (ubits : N) (dbg : bool)
  (teq : T -> T -> bool) (borrow : T -> Q) (qeq : Q -> Q -> bool) (hash : T -> N) (qhash : Q -> N),
  (ubits <= 64)%N -> key_laws teq borrow qeq -> hash_laws borrow qeq hash qhash ->
  forall (degree : N) (fuel : nat), supported ubits degree -> 2 * digits degree < fuel ->
  ptr_eq_sound (@hh_new ubits T V degree) hh_clone hh_drop
    (@hh_step ubits dbg T V Q teq borrow qeq hash qhash fuel)
    (@nil (T * V)) (ht_call_spec teq borrow qeq) always hh_ptr_eq (@Permutation _).
Proof.
  intros T V Q ubits dbg teq borrow qeq hash qhash Hub KL HL degree fuel (b & Hb & -> & Hd) Hf.
  rewrite digits_D in *.
  eapply (ptr_eq_sound_ok tkids _ _ _ _ hh_roots (hhrep ubits b teq hash) _ _ _ 1 (ht_cost b hash qhash)).
  - now apply (hh_new_ok ubits dbg b Hb Hd Hub teq borrow qeq hash qhash KL HL fuel Hf).
  - intros c v G. apply (hh_clone_ok ubits b teq hash c v).
  - intros c v G. now apply (hh_drop_ok ubits b Hb Hd Hub teq hash c v).
  - intros. now apply hh_step_ok.
  - intros c v G. apply (hh_rep_roots ubits b _ _ teq hash c v).
  - intros v. apply Permutation_refl.
  - intros m1 v1 G1 m2 v2 G2 h F. apply (hh_same ubits b teq hash fuel Hf m1 v1 G1 m2 v2 G2 h F).
Qed.
Print Assumptions C41_hash_map_ptr_eq_sound.

Theorem C41_hash_map_ptr_eq_clone : forall (T V Q : Type) (ubits : N) (dbg : bool)
  (teq : T -> T -> bool) (borrow : T -> Q) (qeq : Q -> Q -> bool) (hash : T -> N) (qhash : Q -> N),
  (ubits <= 64)%N -> key_laws teq borrow qeq -> hash_laws borrow qeq hash qhash ->
  forall (degree : N) (fuel : nat), supported ubits degree -> 2 * digits degree < fuel ->
  ptr_eq_clone (@hh_new ubits T V degree) hh_clone hh_drop
    (@hh_step ubits dbg T V Q teq borrow qeq hash qhash fuel)
    (@nil (T * V)) (ht_call_spec teq borrow qeq) always hh_ptr_eq
    (fun o m => match o with
                | TOp (MRemove q) => fm_find borrow qeq q m = None
                | TOp (MInsert _ _) | TOp (MInsertMut _ _) | TOp (MRemoveMut _) | TOp (MGetMut _ _) => False
                | _ => True
                end).
Proof.
  intros T V Q ubits dbg teq borrow qeq hash qhash Hub KL HL degree fuel (b & Hb & -> & Hd) Hf.
  rewrite digits_D in *.
  eapply (ptr_eq_clone_ok tkids _ _ _ _ (hhrep ubits b teq hash) _ _ _ 1 (ht_cost b hash qhash)).
  - now apply (hh_new_ok ubits dbg b Hb Hd Hub teq borrow qeq hash qhash KL HL fuel Hf).
  - intros c v G. apply (hh_clone_ok ubits b teq hash c v).
  - intros c v G. now apply (hh_drop_ok ubits b Hb Hd Hub teq hash c v).
  - intros. now apply hh_step_ok.
  - intros m. unfold hh_ptr_eq; apply Nat.eqb_refl.
  - apply hh_clone_same.
  - intros o m v G h F h' r R W L _ E. eapply (hh_leaves ubits dbg b Hb Hd Hub teq borrow qeq hash qhash KL HL fuel Hf); eassumption.
Qed.
Print Assumptions C41_hash_map_ptr_eq_clone.

Theorem C41_hash_map_insert_not_ptr_eq : forall (T V Q : Type) (ubits : N) (dbg : bool)
  (teq : T -> T -> bool) (borrow : T -> Q) (qeq : Q -> Q -> bool) (hash : T -> N) (qhash : Q -> N),
  (ubits <= 64)%N -> key_laws teq borrow qeq -> hash_laws borrow qeq hash qhash ->
  forall (degree : N) (fuel : nat), supported ubits degree -> 2 * digits degree < fuel ->
  ptr_eq_fresh (@hh_new ubits T V degree) hh_clone hh_drop
    (@hh_step ubits dbg T V Q teq borrow qeq hash qhash fuel)
    (@nil (T * V)) (ht_call_spec teq borrow qeq) always hh_ptr_eq
    (fun o => match o with TOp (MInsert _ _) | TOp (MInsertMut _ _) => True | _ => False end).
Proof.
  intros T V Q ubits dbg teq borrow qeq hash qhash Hub KL HL degree fuel (b & Hb & -> & Hd) Hf.
  rewrite digits_D in *.
  eapply (ptr_eq_fresh_ok tkids _ _ _ _ hh_roots (hhrep ubits b teq hash) _ _ _ 1 (ht_cost b hash qhash)).
  - now apply (hh_new_ok ubits dbg b Hb Hd Hub teq borrow qeq hash qhash KL HL fuel Hf).
  - intros c v G. apply (hh_clone_ok ubits b teq hash c v).
  - intros c v G. now apply (hh_drop_ok ubits b Hb Hd Hub teq hash c v).
  - intros. now apply hh_step_ok.
  - intros c v G. apply (hh_rep_roots ubits b _ _ teq hash c v).
  - intros m1 m2 E. apply Nat.eqb_eq in E. unfold hh_roots. congruence.
  - intros o m h h' r I E. eapply (hh_inserts ubits dbg teq borrow qeq hash qhash fuel); eassumption.
Qed.
Print Assumptions C41_hash_map_insert_not_ptr_eq.

(** ** HashTrieSet *)
Theorem C41_hash_set_ptr_eq_sound : forall (T Q : Type) (ubits : N) (dbg : bool)
  (teq : T -> T -> bool) (borrow : T -> Q) (qeq : Q -> Q -> bool) (hash : T -> N) (qhash : Q -> N),
  (ubits <= 64)%N -> key_laws teq borrow qeq -> hash_laws borrow qeq hash qhash ->
  forall (degree : N) (fuel : nat), supported ubits degree -> 2 * digits degree < fuel ->
  ptr_eq_sound (@hh_new ubits T unit degree) hh_clone hh_drop
    (us_step ubits dbg teq borrow qeq hash qhash fuel)
    (@nil T) (us_spec teq borrow qeq) always hh_ptr_eq (@Permutation _).
Proof.
  intros T Q ubits dbg teq borrow qeq hash qhash Hub KL HL degree fuel (b & Hb & -> & Hd) Hf.
  rewrite digits_D in *.
  eapply (ptr_eq_sound_ok tkids _ _ _ _ hh_roots (usrep ubits b teq hash) _ _ _ 1 (us_cost b hash qhash)).
  - now apply (hh_new_ok ubits dbg b Hb Hd Hub teq borrow qeq hash qhash KL HL fuel Hf).
  - intros c v G. apply (hh_clone_ok ubits b teq hash c (map ut v)).
  - intros c v G. now apply (hh_drop_ok ubits b Hb Hd Hub teq hash c (map ut v)).
  - intros. now apply us_step_ok.
  - intros c v G. apply (hh_rep_roots ubits b _ _ teq hash c (map ut v)).
  - intros v. apply Permutation_refl.
  - intros m1 v1 G1 m2 v2 G2 h F R1 R2 W E.
    pose proof (hh_same ubits b teq hash fuel Hf m1 (map ut v1) G1 m2 (map ut v2) G2 h F R1 R2 W E) as P.
    apply (Permutation_map fst) in P. rewrite !map_map in P. cbn in P. now rewrite !map_id in P.
Qed.
Print Assumptions C41_hash_set_ptr_eq_sound.

Theorem C41_hash_set_ptr_eq_clone : forall (T Q : Type) (ubits : N) (dbg : bool)
  (teq : T -> T -> bool) (borrow : T -> Q) (qeq : Q -> Q -> bool) (hash : T -> N) (qhash : Q -> N),
  (ubits <= 64)%N -> key_laws teq borrow qeq -> hash_laws borrow qeq hash qhash ->
  forall (degree : N) (fuel : nat), supported ubits degree -> 2 * digits degree < fuel ->
  ptr_eq_clone (@hh_new ubits T unit degree) hh_clone hh_drop
    (us_step ubits dbg teq borrow qeq hash qhash fuel)
    (@nil T) (us_spec teq borrow qeq) always hh_ptr_eq
    (fun o s => match o with
                | UkOp (SetRemove q) => set_find borrow qeq q s = None
                | UkOp (SetInsert _) | UkOp (SetInsertMut _) | UkOp (SetRemoveMut _) => False
                | _ => True
                end).
Proof.
  intros T Q ubits dbg teq borrow qeq hash qhash Hub KL HL degree fuel (b & Hb & -> & Hd) Hf.
  rewrite digits_D in *.
  eapply (ptr_eq_clone_ok tkids _ _ _ _ (usrep ubits b teq hash) _ _ _ 1 (us_cost b hash qhash)).
  - now apply (hh_new_ok ubits dbg b Hb Hd Hub teq borrow qeq hash qhash KL HL fuel Hf).
  - intros c v G. apply (hh_clone_ok ubits b teq hash c (map ut v)).
  - intros c v G. now apply (hh_drop_ok ubits b Hb Hd Hub teq hash c (map ut v)).
  - intros. now apply us_step_ok.
  - intros m. unfold hh_ptr_eq; apply Nat.eqb_refl.
  - apply hh_clone_same.
  - intros o m v G h F h' r R W L _ E. unfold us_step in E.
    apply run_bind in E. destruct E as (h1 & [m1 x] & E & E'). cbn [run] in E'. injection E' as _ <-. cbn [fst].
    apply (hh_leaves ubits dbg b Hb Hd Hub teq borrow qeq hash qhash KL HL fuel Hf (us_map o) m (map ut v) G h F h1 (m1, x)); trivial.
    destruct o as [[t|t|q|q|q|q| | |]|k|p]; cbn [us_map map_call ht_leaves] in *; trivial.
    unfold fm_find, set_find in *. rewrite (find_ut (fun t => qeq (borrow t) q) v), L. reflexivity.
Qed.
Print Assumptions C41_hash_set_ptr_eq_clone.

Theorem C41_hash_set_insert_not_ptr_eq : forall (T Q : Type) (ubits : N) (dbg : bool)
  (teq : T -> T -> bool) (borrow : T -> Q) (qeq : Q -> Q -> bool) (hash : T -> N) (qhash : Q -> N),
  (ubits <= 64)%N -> key_laws teq borrow qeq -> hash_laws borrow qeq hash qhash ->
  forall (degree : N) (fuel : nat), supported ubits degree -> 2 * digits degree < fuel ->
  ptr_eq_fresh (@hh_new ubits T unit degree) hh_clone hh_drop
    (us_step ubits dbg teq borrow qeq hash qhash fuel)
    (@nil T) (us_spec teq borrow qeq) always hh_ptr_eq
    (fun o => match o with UkOp (SetInsert _) | UkOp (SetInsertMut _) => True | _ => False end).
Proof.
  intros T Q ubits dbg teq borrow qeq hash qhash Hub KL HL degree fuel (b & Hb & -> & Hd) Hf.
  rewrite digits_D in *.
  eapply (ptr_eq_fresh_ok tkids _ _ _ _ hh_roots (usrep ubits b teq hash) _ _ _ 1 (us_cost b hash qhash)).
  - now apply (hh_new_ok ubits dbg b Hb Hd Hub teq borrow qeq hash qhash KL HL fuel Hf).
  - intros c v G. apply (hh_clone_ok ubits b teq hash c (map ut v)).
  - intros c v G. now apply (hh_drop_ok ubits b Hb Hd Hub teq hash c (map ut v)).
  - intros. now apply us_step_ok.
  - intros c v G. apply (hh_rep_roots ubits b _ _ teq hash c (map ut v)).
  - intros m1 m2 E. apply Nat.eqb_eq in E. unfold hh_roots. congruence.
  - intros o m h h' r I E. unfold us_step in E.
    apply run_bind in E. destruct E as (h1 & [m1 x] & E & E'). cbn [run] in E'. injection E' as <- <-. cbn [fst].
    apply (hh_inserts ubits dbg teq borrow qeq hash qhash fuel (us_map o) m h h1 (m1, x)); trivial.
    destruct o as [[t|t|q|q|q|q| | |]|k|p]; try contradiction; exact I.
Qed.
Print Assumptions C41_hash_set_insert_not_ptr_eq.

(** ** RedBlackTreeMap *)
Theorem C41_rb_map_ptr_eq_sound : forall (T V Q : Type) (dbg : bool)
  (tcmp : T -> T -> comparison) (borrow : T -> Q) (qcmp : Q -> Q -> comparison),
  ord_laws qcmp -> borrow_agrees tcmp borrow qcmp ->
  ptr_eq_sound (@hb_new T V) hb_clone hb_drop (@hb_step T V Q dbg tcmp borrow qcmp)
    (@nil (T * V)) (rb_call_spec tcmp borrow qcmp) always hb_ptr_eq (@Permutation _).
Proof.
  intros T V Q dbg tcmp borrow qcmp OL KB.
  eapply (ptr_eq_sound_ok rkids _ _ _ _ hb_roots (hbrep tcmp) _ _ _ 0 rb_cost).
  - apply hb_new_ok.
  - intros c v G. apply (hb_clone_ok tcmp c v).
  - intros c v G. apply (hb_drop_ok tcmp c v).
  - intros. now apply hb_step_ok.
  - intros c v G. apply (hb_rep_roots _ _ tcmp c v).
  - intros v. apply Permutation_refl.
  - intros m1 v1 G1 m2 v2 G2 h F. apply (hb_same tcmp m1 v1 G1 m2 v2 G2 h F).
Qed.
Print Assumptions C41_rb_map_ptr_eq_sound.

Theorem C41_rb_map_ptr_eq_clone : forall (T V Q : Type) (dbg : bool)
  (tcmp : T -> T -> comparison) (borrow : T -> Q) (qcmp : Q -> Q -> comparison),
  ord_laws qcmp -> borrow_agrees tcmp borrow qcmp ->
  ptr_eq_clone (@hb_new T V) hb_clone hb_drop (@hb_step T V Q dbg tcmp borrow qcmp)
    (@nil (T * V)) (rb_call_spec tcmp borrow qcmp) always hb_ptr_eq
    (fun o m => match o with
                | BOp (MRemove q) => fm_find borrow (eq_of qcmp) q m = None
                | BOp (MInsert _ _) | BOp (MInsertMut _ _) | BOp (MRemoveMut _) | BOp (MGetMut _ _) => False
                | _ => True
                end).
Proof.
  intros T V Q dbg tcmp borrow qcmp OL KB.
  eapply (ptr_eq_clone_ok rkids _ _ _ _ (hbrep tcmp) _ _ _ 0 rb_cost).
  - apply hb_new_ok.
  - intros c v G. apply (hb_clone_ok tcmp c v).
  - intros c v G. apply (hb_drop_ok tcmp c v).
  - intros. now apply hb_step_ok.
  - intros m. now apply hb_ptr_eq_iff.
  - apply hb_clone_same.
  - intros o m v G h F h' r R W L _ E. eapply (hb_leaves dbg tcmp borrow qcmp OL KB); eassumption.
Qed.
Print Assumptions C41_rb_map_ptr_eq_clone.

Theorem C41_rb_map_insert_not_ptr_eq : forall (T V Q : Type) (dbg : bool)
  (tcmp : T -> T -> comparison) (borrow : T -> Q) (qcmp : Q -> Q -> comparison),
  ord_laws qcmp -> borrow_agrees tcmp borrow qcmp ->
  ptr_eq_fresh (@hb_new T V) hb_clone hb_drop (@hb_step T V Q dbg tcmp borrow qcmp)
    (@nil (T * V)) (rb_call_spec tcmp borrow qcmp) always hb_ptr_eq
    (fun o => match o with BOp (MInsert _ _) | BOp (MInsertMut _ _) => True | _ => False end).
Proof.
  intros T V Q dbg tcmp borrow qcmp OL KB.
  eapply (ptr_eq_fresh_ok rkids _ _ _ _ hb_roots (hbrep tcmp) _ _ _ 0 rb_cost).
  - apply hb_new_ok.
  - intros c v G. apply (hb_clone_ok tcmp c v).
  - intros c v G. apply (hb_drop_ok tcmp c v).
  - intros. now apply hb_step_ok.
  - intros c v G. apply (hb_rep_roots _ _ tcmp c v).
  - intros m1 m2 E. apply hb_ptr_eq_iff in E. unfold hb_roots. now rewrite E.
  - intros o m h h' r I E. eapply (hb_inserts dbg tcmp borrow qcmp); eassumption.
Qed.
Print Assumptions C41_rb_map_insert_not_ptr_eq.

(** ** RedBlackTreeSet *)
Theorem C41_rb_set_ptr_eq_sound : forall (T Q : Type) (dbg : bool)
  (tcmp : T -> T -> comparison) (borrow : T -> Q) (qcmp : Q -> Q -> comparison),
  ord_laws qcmp -> borrow_agrees tcmp borrow qcmp ->
  ptr_eq_sound (@hb_new T unit) hb_clone hb_drop (ss_step dbg tcmp borrow qcmp)
    (@nil T) (ss_spec tcmp borrow qcmp) always hb_ptr_eq (@Permutation _).
Proof.
  intros T Q dbg tcmp borrow qcmp OL KB.
  eapply (ptr_eq_sound_ok rkids _ _ _ _ hb_roots (ssrep tcmp) _ _ _ 0 ss_cost).
  - apply hb_new_ok.
  - intros c v G. apply (hb_clone_ok tcmp c (map ut v)).
  - intros c v G. apply (hb_drop_ok tcmp c (map ut v)).
  - intros. now apply ss_step_ok.
  - intros c v G. apply (hb_rep_roots _ _ tcmp c (map ut v)).
  - intros v. apply Permutation_refl.
  - intros m1 v1 G1 m2 v2 G2 h F R1 R2 W E.
    pose proof (hb_same tcmp m1 (map ut v1) G1 m2 (map ut v2) G2 h F R1 R2 W E) as P.
    apply (Permutation_map fst) in P. rewrite !map_map in P. cbn in P. now rewrite !map_id in P.
Qed.
Print Assumptions C41_rb_set_ptr_eq_sound.

Theorem C41_rb_set_ptr_eq_clone : forall (T Q : Type) (dbg : bool)
  (tcmp : T -> T -> comparison) (borrow : T -> Q) (qcmp : Q -> Q -> comparison),
  ord_laws qcmp -> borrow_agrees tcmp borrow qcmp ->
  ptr_eq_clone (@hb_new T unit) hb_clone hb_drop (ss_step dbg tcmp borrow qcmp)
    (@nil T) (ss_spec tcmp borrow qcmp) always hb_ptr_eq
    (fun o s => match o with
                | SkOp (SetRemove q) => set_find borrow (eq_of qcmp) q s = None
                | SkOp (SetInsert _) | SkOp (SetInsertMut _) | SkOp (SetRemoveMut _) => False
                | _ => True
                end).
Proof.
  intros T Q dbg tcmp borrow qcmp OL KB.
  eapply (ptr_eq_clone_ok rkids _ _ _ _ (ssrep tcmp) _ _ _ 0 ss_cost).
  - apply hb_new_ok.
  - intros c v G. apply (hb_clone_ok tcmp c (map ut v)).
  - intros c v G. apply (hb_drop_ok tcmp c (map ut v)).
  - intros. now apply ss_step_ok.
  - intros m. now apply hb_ptr_eq_iff.
  - apply hb_clone_same.
  - intros o m v G h F h' r R W L _ E. unfold ss_step in E.
    apply run_bind in E. destruct E as (h1 & [m1 x] & E & E'). cbn [run] in E'. injection E' as _ <-. cbn [fst].
    apply (hb_leaves dbg tcmp borrow qcmp OL KB (ss_map o) m (map ut v) G h F h1 (m1, x)); trivial.
    destruct o as [[t|t|q|q|q|q| | |]| | |ds]; cbn [ss_map map_call rb_leaves] in *; trivial.
    unfold fm_find, set_find in *. rewrite (find_ut (fun t => eq_of qcmp (borrow t) q) v), L. reflexivity.
Qed.
Print Assumptions C41_rb_set_ptr_eq_clone.

Theorem C41_rb_set_insert_not_ptr_eq : forall (T Q : Type) (dbg : bool)
  (tcmp : T -> T -> comparison) (borrow : T -> Q) (qcmp : Q -> Q -> comparison),
  ord_laws qcmp -> borrow_agrees tcmp borrow qcmp ->
  ptr_eq_fresh (@hb_new T unit) hb_clone hb_drop (ss_step dbg tcmp borrow qcmp)
    (@nil T) (ss_spec tcmp borrow qcmp) always hb_ptr_eq
    (fun o => match o with SkOp (SetInsert _) | SkOp (SetInsertMut _) => True | _ => False end).
Proof.
  intros T Q dbg tcmp borrow qcmp OL KB.
  eapply (ptr_eq_fresh_ok rkids _ _ _ _ hb_roots (ssrep tcmp) _ _ _ 0 ss_cost).
  - apply hb_new_ok.
  - intros c v G. apply (hb_clone_ok tcmp c (map ut v)).
  - intros c v G. apply (hb_drop_ok tcmp c (map ut v)).
  - intros. now apply ss_step_ok.
  - intros c v G. apply (hb_rep_roots _ _ tcmp c (map ut v)).
  - intros m1 m2 E. apply hb_ptr_eq_iff in E. unfold hb_roots. now rewrite E.
  - intros o m h h' r I E. unfold ss_step in E.
    apply run_bind in E. destruct E as (h1 & [m1 x] & E & E'). cbn [run] in E'. injection E' as <- <-. cbn [fst].
    apply (hb_inserts dbg tcmp borrow qcmp (ss_map o) m h h1 (m1, x)); trivial.
    destruct o as [[t|t|q|q|q|q| | |]| | |ds]; try contradiction; exact I.
Qed.
Print Assumptions C41_rb_set_insert_not_ptr_eq.

(** ** Cases *)

(** All pairs of registers that are [ptr_eq]. *)
Definition alikes {Coll} (pe : Coll -> Coll -> bool) (rs : list (option Coll)) : list (nat * nat) :=
  filter (fun p => match nth (fst p) rs None, nth (snd p) rs None with
                   | Some a, Some b => (fst p <? snd p) && pe a b
                   | _, _ => false
                   end)
    (list_prod (seq 0 (length rs)) (seq 0 (length rs))).

(** Five clones of a map of three entries: one untouched, [insert], [insert] of an entry that
    is there already, [remove] of an absent key, [remove_mut] of an absent key (which copies
    the path it searches, and so stops being [ptr_eq]). *)
Definition pe_ops {Op} (f : map_op N nat N -> Op) : list (cmd Op) :=
  CNew :: map (fun k => COp 0 (f (MInsertMut k 5))) [0; 1; 7]%N ++ repeat (CClone 0) 5 ++
  [COp 2 (f (MInsert 9%N 5)); COp 3 (f (MInsert 1%N 5)); COp 4 (f (MRemove 8%N)); COp 5 (f (MRemoveMut 8%N))].
Example C41_hash_map_case :
  within (@nil (N * nat)) (ht_call_spec N.eqb (fun k => k) N.eqb) always (pe_ops (@TOp N nat N)) [] /\
  match run [] (hclient (@hh_new 64 N nat 4) hh_clone hh_drop hx_step (pe_ops (@TOp N nat N)) []) with
  | Some (_, (rs, _)) => alikes hh_ptr_eq rs
  | None => []
  end = [(0, 1); (0, 4); (1, 4)].
Proof. split; [vm_compute; repeat split|vm_compute; reflexivity]. Qed.
Example C41_rb_map_case :
  within (@nil (N * nat)) (rb_call_spec N.compare (fun k => k) N.compare) always (pe_ops BOp) [] /\
  match run [] (hclient (@hb_new N nat) hb_clone hb_drop (@hb_step N nat N true N.compare (fun k => k) N.compare) (pe_ops BOp) []) with
  | Some (_, (rs, _)) => alikes hb_ptr_eq rs
  | None => []
  end = [(0, 1); (0, 4); (1, 4)].
Proof. split; [vm_compute; repeat split|vm_compute; reflexivity]. Qed.

(** The same for sets, with two empty sets first: the sorted sets are [ptr_eq] (both have no
    tree), the hash sets are not (each has a root of its own). *)
Definition pe_set_ops {Op} (f : set_op N N -> Op) : list (cmd Op) :=
  [CNew; CNew; CNew; COp 2 (f (SetInsertMut 3%N)); COp 2 (f (SetInsertMut 4%N)); CClone 2; CClone 2;
   COp 3 (f (SetRemove 8%N)); COp 4 (f (SetInsert 4%N))].
Example C41_hash_set_case :
  within (@nil N) (us_spec N.eqb (fun k => k) N.eqb) always (pe_set_ops UkOp) [] /\
  match run [] (hclient (@hh_new 64 N unit 4) hh_clone hh_drop
                 (us_step 64 true N.eqb (fun t => t) N.eqb hx_hash hx_hash 65) (pe_set_ops UkOp) []) with
  | Some (_, (rs, _)) => alikes hh_ptr_eq rs
  | None => []
  end = [(2, 3)].
Proof. split; [vm_compute; repeat split|vm_compute; reflexivity]. Qed.
Example C41_rb_set_case :
  within (@nil N) (ss_spec N.compare (fun k => k) N.compare) always (pe_set_ops SkOp) [] /\
  match run [] (hclient (@hb_new N unit) hb_clone hb_drop (ss_step true N.compare (fun k => k) N.compare) (pe_set_ops SkOp) []) with
  | Some (_, (rs, _)) => alikes hb_ptr_eq rs
  | None => []
  end = [(0, 1); (2, 3)].
Proof. split; [vm_compute; repeat split|vm_compute; reflexivity]. Qed.
