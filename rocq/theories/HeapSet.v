(** * HashTrieSet and RedBlackTreeSet on the shared heap

    A set is a struct around a map with unit values, and every function of a set
    calls the function of the map of the same name. *)
From Coq Require Import List NArith Arith Lia Bool Permutation.
From Verif Require Import Base Spec Sim SpecMap SpecOrd HashModel HashProofs HashHist HashExtraProofs RBModel RBHist RBExtra Prop_RB
  PermSolve HeapModel HeapProofs HeapSafe HeapClient HeapWorld HeapHash HeapHashProofs HeapHashMap HeapRB HeapRBProofs HeapRBMap.
Import ListNotations.
Local Open Scope prog_scope.

(** ** Specification *)

(** The elements of a set in ascending order. *)
Fixpoint put_asc {T} (tcmp : T -> T -> comparison) (t : T) (l : list T) : list T :=
  match l with
  | [] => [t]
  | x :: l' => match tcmp t x with Lt => t :: l | _ => x :: put_asc tcmp t l' end
  end.
Definition ascending {T} (tcmp : T -> T -> comparison) (s : list T) : list T := fold_right (put_asc tcmp) [] s.

(** Calls on a sorted set: those of SpecMap.v, both ends, and iteration from either end. *)
Inductive ss_call (T Q : Type) := SkOp (o : set_op T Q) | SkFirst | SkLast | SkIter (ds : list bool).
Arguments SkOp {T Q} o. Arguments SkFirst {T Q}. Arguments SkLast {T Q}. Arguments SkIter {T Q} ds.
Inductive ss_result (T : Type) := SkObs (x : set_obs T) | SkSteps (l : list (nat * option T)).
Arguments SkObs {T} x. Arguments SkSteps {T} l.

Definition ss_spec {T Q} (tcmp : T -> T -> comparison) (borrow : T -> Q) (qcmp : Q -> Q -> comparison)
  (o : ss_call T Q) (s : list T) : list T * ss_result T :=
  match o with
  | SkOp o => let r := set_spec (eq_of tcmp) borrow (eq_of qcmp) o s in (fst r, SkObs (snd r))
  | SkFirst => (s, SkObs (SetoElem (hd_error (ascending tcmp s))))
  | SkLast => (s, SkObs (SetoElem (last_error (ascending tcmp s))))
  | SkIter ds => (s, SkSteps (de_spec ds (ascending tcmp s)))
  end.

(** Calls on a hash set; iteration is observed as in HeapHash.v. *)
Inductive hs_call (T Q : Type) := UkOp (o : set_op T Q) | UkSteps (k : nat) | UkCount (p : T -> bool).
Arguments UkOp {T Q} o. Arguments UkSteps {T Q} k. Arguments UkCount {T Q} p.
Inductive hs_result (T : Type) := UkObs (x : set_obs T) | UkHints (l : list (nat * bool)) | UkNum (n : nat).
Arguments UkObs {T} x. Arguments UkHints {T} l. Arguments UkNum {T} n.

Definition us_spec {T Q} (teq : T -> T -> bool) (borrow : T -> Q) (qeq : Q -> Q -> bool)
  (o : hs_call T Q) (s : list T) : list T * hs_result T :=
  match o with
  | UkOp o => let r := set_spec teq borrow qeq o s in (fst r, UkObs (snd r))
  | UkSteps k => (s, UkHints (map (fun i => (length s - i, i <? length s)) (List.seq 0 k)))
  | UkCount p => (s, UkNum (length (filter p s)))
  end.

(** ** Programs *)
Section Prog.
Context {T Q : Type}.

(** The function of the map that the function of the set calls, and what it makes of the
    answer: hash_trie_set/mod.rs:159-201, 233-258; red_black_tree_set/mod.rs:134-176, 255-265,
    284-288. *)
Definition map_call (o : set_op T Q) : map_op T unit Q :=
  match o with
  | SetInsert t => MInsert t tt
  | SetInsertMut t => MInsertMut t tt
  | SetRemove q => MRemove q
  | SetRemoveMut q => MRemoveMut q
  | SetGet q => MGetKeyValue q
  | SetContains q => MContains q
  | SetSize => MSize
  | SetIsEmpty => MIsEmpty
  | SetClone => MClone
  end.
Definition set_answer (x : map_obs T unit) : set_obs T :=
  match x with
  | MoUnit | MoVal _ => SetoUnit
  | MoBool b => SetoBool b
  | MoNat n => SetoNat n
  | MoKV o => SetoElem (option_map fst o)
  end.

(** red_black_tree_set/mod.rs:178-186, 267-269 *)
Definition ss_map (o : ss_call T Q) : rb_call (K := T) (V := unit) (Q := Q) :=
  match o with SkOp o => BOp (map_call o) | SkFirst => BFirst | SkLast => BLast | SkIter ds => BIter ds end.
Definition ss_answer (x : rb_result) : ss_result T :=
  match x with
  | BObs x => SkObs (set_answer x)
  | BSteps l => SkSteps (map (fun y => (fst y, option_map fst (snd y))) l)
  end.
Definition ss_step (dbg : bool) (tcmp : T -> T -> comparison) (borrow : T -> Q) (qcmp : Q -> Q -> comparison)
  (o : ss_call T Q) (s : hrb) : prog (rcell T unit) (hrb * ss_result T) :=
  let* (s', x) := hb_step dbg tcmp borrow qcmp (ss_map o) s in Ret (s', ss_answer x).

(** hash_trie_set/mod.rs:245-248 *)
Definition us_map (o : hs_call T Q) : ht_call T unit Q :=
  match o with UkOp o => TOp (map_call o) | UkSteps k => TSteps k | UkCount p => TCount (fun x => p (fst x)) end.
Definition us_answer (x : ht_result T unit) : hs_result T :=
  match x with TObs x => UkObs (set_answer x) | THints l => UkHints l | TNum n => UkNum n end.
Definition us_step (ubits : N) (dbg : bool) (teq : T -> T -> bool) (borrow : T -> Q) (qeq : Q -> Q -> bool)
  (hash : T -> N) (qhash : Q -> N) (fuel : nat) (o : hs_call T Q) (s : hht) : prog (tcell T unit) (hht * hs_result T) :=
  let* (s', x) := hh_step ubits dbg teq borrow qeq hash qhash fuel (us_map o) s in Ret (s', us_answer x).
End Prog.

(** ** Proofs *)
Lemma map_set_spec : forall T Q (teq : T -> T -> bool) (borrow : T -> Q) qeq (o : set_op T Q) s,
  fst (map_spec teq borrow qeq (map_call o) (map ut s)) = map ut (fst (set_spec teq borrow qeq o s)) /\
  set_answer (snd (map_spec teq borrow qeq (map_call o) (map ut s))) = snd (set_spec teq borrow qeq o s).
Proof.
  intros T Q teq borrow qeq o s.
  assert (Hf : forall q, fm_find borrow qeq q (map ut s) = option_map ut (set_find borrow qeq q s)).
  { intros q. unfold fm_find, set_find. exact (find_ut (fun t => qeq (borrow t) q) s). }
  assert (Hr : forall q, fm_remove borrow qeq q (map ut s) = map ut (filter (fun x => negb (qeq (borrow x) q)) s)).
  { intros q. unfold fm_remove. exact (filter_ut (fun x => negb (qeq (borrow x) q)) s). }
  assert (Hi : forall t, fm_insert teq t tt (map ut s) = map ut (t :: filter (fun x => negb (teq x t)) s)).
  { intros t. unfold fm_insert. cbn [map]. f_equal. exact (filter_ut (fun x => negb (teq x t)) s). }
  destruct o as [t|t|q|q|q|q| | |]; cbn [map_call map_spec set_spec fst snd set_answer];
    rewrite ?Hf, ?Hr, ?Hi, ?map_length; try (split; reflexivity).
  - split; [reflexivity|]. now destruct (set_find borrow qeq q s).
  - split; [reflexivity|]. now destruct (set_find borrow qeq q s).
  - split; [reflexivity|]. now destruct (set_find borrow qeq q s).
  - split; [reflexivity|]. now destruct s.
Qed.

Lemma by_key_ut : forall T (tcmp : T -> T -> comparison) s, by_key tcmp (map ut s) = map ut (ascending tcmp s).
Proof.
  intros T tcmp s. unfold by_key, ascending. induction s as [|t s IH]; [reflexivity|]. cbn [map fold_right]. rewrite IH.
  generalize (fold_right (put_asc tcmp) [] s). clear. induction l as [|x l IH]; [reflexivity|].
  cbn [map put_by_key put_asc ut fst]. destruct (tcmp t x); cbn [map]; now rewrite ?IH.
Qed.

Lemma last_error_map : forall A B (f : A -> B) l, last_error (map f l) = option_map f (last_error l).
Proof.
  intros A B f. induction l as [|x [|y l] IH]; try reflexivity. cbn [map last_error] in *. exact IH.
Qed.

Lemma removelast_map : forall A B (f : A -> B) l, removelast (map f l) = map f (removelast l).
Proof.
  intros A B f. induction l as [|x [|y l] IH]; try reflexivity. cbn [map removelast] in *. f_equal. exact IH.
Qed.
Lemma de_spec_ut : forall T ds (l : list T),
  map (fun y => (fst y, option_map fst (snd y))) (de_spec ds (map ut l)) = de_spec ds l.
Proof.
  intros T. induction ds as [|[|] ds IH]; intros l; [reflexivity| |]; cbn [de_spec map fst snd]; rewrite map_length.
  - rewrite last_error_map, removelast_map, IH. f_equal. now destruct (last_error l).
  - destruct l as [|x l]; [exact (f_equal _ (IH []))|]. cbn [map tl hd_error option_map]. now rewrite IH.
Qed.

Lemma ss_map_spec : forall T Q (tcmp : T -> T -> comparison) (borrow : T -> Q) qcmp (o : ss_call T Q) s,
  fst (rb_call_spec tcmp borrow qcmp (ss_map o) (map ut s)) = map ut (fst (ss_spec tcmp borrow qcmp o s)) /\
  ss_answer (snd (rb_call_spec tcmp borrow qcmp (ss_map o) (map ut s))) = snd (ss_spec tcmp borrow qcmp o s).
Proof.
  intros T Q tcmp borrow qcmp o s.
  destruct o as [o| | |ds]; cbn [ss_map rb_call_spec ss_spec fst snd ss_answer set_answer].
  - destruct (map_set_spec T Q (eq_of tcmp) borrow (eq_of qcmp) o s) as [E1 E2]. rewrite E1, E2. auto.
  - split; [reflexivity|]. rewrite by_key_ut. now destruct (ascending tcmp s).
  - split; [reflexivity|]. rewrite by_key_ut, last_error_map. now destruct (last_error (ascending tcmp s)).
  - split; [reflexivity|]. now rewrite by_key_ut, de_spec_ut.
Qed.

Lemma us_map_spec : forall T Q (teq : T -> T -> bool) (borrow : T -> Q) qeq (o : hs_call T Q) s,
  fst (ht_call_spec teq borrow qeq (us_map o) (map ut s)) = map ut (fst (us_spec teq borrow qeq o s)) /\
  us_answer (snd (ht_call_spec teq borrow qeq (us_map o) (map ut s))) = snd (us_spec teq borrow qeq o s).
Proof.
  intros T Q teq borrow qeq o s.
  destruct o as [o|k|p]; cbn [us_map ht_call_spec us_spec fst snd us_answer].
  - destruct (map_set_spec T Q teq borrow qeq o s) as [E1 E2]. rewrite E1, E2. auto.
  - now rewrite map_length.
  - split; [reflexivity|]. now rewrite (filter_ut p), map_length.
Qed.

(** A wrapper of a collection that meets its specification meets the wrapped specification. *)
Lemma wrap_ok : forall C (kids : C -> list addr) Coll (X Y : Type) n (p : prog C (Coll * X)) (f : X -> Y) G (P : Coll -> list own -> Prop) x,
  safe kids n p G (fun r G' => snd r = x /\ P (fst r) G') ->
  safe kids n (let* (c, y) := p in Ret (c, f y)) G (fun r G' => snd r = f x /\ P (fst r) G').
Proof.
  intros C kids Coll X Y n p f G P x H.
  eapply (safe_seq kids _ _ n 0 n _ G [] (fun r G' => snd r = x /\ P (fst r) G')); [exact H|perm| |lia].
  intros [c y] G' (E & HP). cbn [fst snd] in *. subst y. apply safe_ret. rewrite app_nil_r. auto.
Qed.

Definition ssrep {T} (tcmp : T -> T -> comparison) (m : hrb) (s : list T) G : Prop := hbrep tcmp m (map ut s) G.
Definition usrep {T} ubits b (teq : T -> T -> bool) (hash : T -> N) (m : hht) (s : list T) G : Prop :=
  hhrep ubits b teq hash m (map ut s) G.
Definition ss_cost {T Q} (o : ss_call T Q) (s : list T) : nat := rb_cost (ss_map o) (map ut s).
Definition us_cost {T Q} b (hash : T -> N) (qhash : Q -> N) (o : hs_call T Q) (s : list T) : nat :=
  ht_cost b hash qhash (us_map o) (map ut s).

Lemma ss_step_ok : forall T Q dbg (tcmp : T -> T -> comparison) (borrow : T -> Q) qcmp,
  ord_laws qcmp -> borrow_agrees tcmp borrow qcmp ->
  forall o m s G, ssrep tcmp m s G ->
  safe rkids (ss_cost o s) (ss_step dbg tcmp borrow qcmp o m) G
    (fun r G' => snd r = snd (ss_spec tcmp borrow qcmp o s) /\ ssrep tcmp (fst r) (fst (ss_spec tcmp borrow qcmp o s)) G').
Proof.
  intros T Q dbg tcmp borrow qcmp OL KB o m s G R. destruct (ss_map_spec T Q tcmp borrow qcmp o s) as [E1 E2].
  rewrite <- E2. unfold ssrep. rewrite <- E1.
  apply (wrap_ok _ rkids _ _ _ _ _ ss_answer G (fun c => hbrep tcmp c (fst (rb_call_spec tcmp borrow qcmp (ss_map o) (map ut s))))
           (snd (rb_call_spec tcmp borrow qcmp (ss_map o) (map ut s)))).
  apply (hb_step_ok dbg tcmp borrow qcmp OL KB (ss_map o) m (map ut s) G R).
Qed.

Lemma us_step_ok : forall T Q ubits dbg b (teq : T -> T -> bool) (borrow : T -> Q) qeq hash qhash fuel,
  (0 < b)%N -> (2 ^ b <= ubits)%N -> (ubits <= 64)%N -> key_laws teq borrow qeq -> hash_laws borrow qeq hash qhash ->
  2 * D b < fuel -> forall o m s G, usrep ubits b teq hash m s G ->
  safe tkids (us_cost b hash qhash o s) (us_step ubits dbg teq borrow qeq hash qhash fuel o m) G
    (fun r G' => snd r = snd (us_spec teq borrow qeq o s) /\
                 usrep ubits b teq hash (fst r) (fst (us_spec teq borrow qeq o s)) G').
Proof.
  intros T Q ubits dbg b teq borrow qeq hash qhash fuel Hb Hd Hub KL HL Hf o m s G R.
  destruct (us_map_spec T Q teq borrow qeq o s) as [E1 E2].
  rewrite <- E2. unfold usrep. rewrite <- E1.
  apply (wrap_ok _ tkids _ _ _ _ _ us_answer G (fun c => hhrep ubits b teq hash c (fst (ht_call_spec teq borrow qeq (us_map o) (map ut s))))
           (snd (ht_call_spec teq borrow qeq (us_map o) (map ut s)))).
  now apply hh_step_ok.
Qed.
