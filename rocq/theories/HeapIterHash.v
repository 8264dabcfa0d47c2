(** * Programs that hold iterators: HashTrieMap and HashTrieSet

    The facts about the tries of HeapHash.v that HeapIterWorld.v asks for. *)
From Coq Require Import List NArith Arith Lia Bool Permutation.
From Verif Require Import Base Spec Sim SpecMap SparseModel HashModel HashProofs HashHist HashExtraProofs Prop_Hash
  PermSolve HeapModel HeapProofs HeapSafe HeapDrive HeapLooks HeapClient HeapWorld HeapList HeapHash HeapHashProofs HeapHashIter HeapHashMap
  HeapSet HeapNest HeapWork HeapWorkHash HeapWorkHashMap HeapIterWorld HeapIterSeq.
From Verif Require Prop_HeapHash Prop_HeapWorkHash HeapIterRB.
Import ListNotations.
Local Open Scope prog_scope.
Local Open Scope nat_scope.

(** What the iterator is to deliver: what the collection holds, in some order. *)
Definition in_some_order {A T} (a : A) (v l : list T) : Prop := Permutation l v.

Section Map.
Context {K V Q : Type} (ubits : N) (dbg : bool).
Context (keq : K -> K -> bool) (borrow : K -> Q) (qeq : Q -> Q -> bool) (hash : K -> N) (qhash : Q -> N).
Context (Hub : (ubits <= 64)%N) (KL : key_laws keq borrow qeq) (HL : hash_laws borrow qeq hash qhash).
Context (b : N) (fuel : nat) (Hb : (0 < b)%N) (Hd : (2 ^ b <= ubits)%N) (Hf : 2 * D b < fuel).
Notation w := (N.to_nat (2 ^ b)).
Notation C := (tcell K V).
Notation own := (@own C).

(** hash_trie_map/mod.rs:875-882, 1103-1111: the root is read *)
Definition hh_open (_ : unit) (m : hht) : prog C hhiter := hhi_new m.
Definition hh_inext := step1 (@hhi_next K V fuel) hhi_hint.

Definition ht_reads (o : ht_call K V Q) : bool :=
  match o with
  | TOp (MGet _) | TOp (MGetKeyValue _) | TOp (MContains _) | TOp MSize | TOp MIsEmpty | TSteps _ | TCount _ => true
  | _ => false
  end.

Lemma quiet_tmatches : forall same h e, quiet (@tmatches K V same h e).
Proof. intros same h e. unfold tmatches, read_entry. hush. Qed.
Lemma quiet_tfind : forall p, (forall e, quiet (p e)) -> forall rem cur, quiet (@tfind_loop K V p rem cur).
Proof.
  intros p Hp. induction rem as [|rem IH]; intros [a|]; cbn [tfind_loop]; try exact I. unfold read_node, read_elem.
  intros c. destruct (t_isN c) as [[v nx]|]; [|exact I]. intros d. destruct (t_isE d) as [e|]; [|exact I].
  apply quiet_bind; [apply Hp|]. intros [|]; [exact I|apply IH].
Qed.
Lemma quiet_tb_find : forall p, (forall e, quiet (p e)) -> forall c, quiet (@tb_find K V p c).
Proof.
  intros p Hp [s|e|l|v nx|e|e]; cbn [tb_find]; try exact I; [|now apply quiet_tfind].
  apply quiet_bind; [apply Hp|]. intros [|]; exact I.
Qed.
Lemma quiet_tn_get : forall f q h c d g, quiet (@tn_get ubits dbg K V Q borrow qeq f q h c d g).
Proof.
  induction f as [|f IH]; intros q h c d g; cbn [tn_get]; [exact I|].
  destruct c; try (apply quiet_tb_find; apply quiet_tmatches).
  apply quiet_bind; [apply quiet_lift|]. intros oi. apply quiet_bind; [apply quiet_lift|]. intros i.
  apply quiet_bind; [apply quiet_lift|]. intros [p|]; [|exact I]. intros x. apply IH.
Qed.
Lemma quiet_hh_get : forall m q, quiet (@hh_get ubits dbg K V Q borrow qeq qhash fuel m q).
Proof.
  intros m q c. apply quiet_bind; [apply quiet_tn_get|]. intros [e|]; [|exact I]. unfold read_entry. hush.
Qed.

Lemma ht_reads_gentle : forall o (c : hht), ht_reads o = true ->
  gentle c (hh_step ubits dbg keq borrow qeq hash qhash fuel o c).
Proof.
  intros o c E. destruct o as [o| |]; [destruct o; try discriminate E|..]; cbn [hh_step]; try reflexivity;
    apply gentle_answer; first [apply quiet_hh_get|apply quiet_hh_iter|apply quiet_hh_entries].
Qed.
Lemma ht_reads_same : forall o v, ht_reads o = true -> fst (@ht_call_spec K V Q keq borrow qeq o v) = v.
Proof. intros o v E. destruct o as [o| |]; [destruct o; try discriminate E|..]; reflexivity. Qed.

Lemma hh_clone_keeps : forall m (fm : list (K * V)) G cr fine, hhrep ubits b keq hash m fm G ->
  dear tkids cr fine 1 (hh_clone m) G (fun m' G' => exists G2, G' = G ++ G2 /\ hhrep ubits b keq hash m' fm G2).
Proof.
  intros m fm G cr fine R. assert (R' := R). destruct R' as (x & Rw & Es & Ed & [a c ts] & T & Ep & ->). unfold hh_clone.
  rewrite <- Ep. cbn [pa]. eapply dear_clone; [apply lent_in; now left|apply le_n|]. apply dear_ret.
  eexists [_]. split; [reflexivity|exact R].
Qed.

Definition hmirel (v : list (K * V)) (it : hhiter) (l : list (K * V)) (G : list own) : Prop :=
  hirel true ubits b G (D b) it l.

Lemma hh_open_looks : forall a m (v : list (K * V)) G, hhrep ubits b keq hash m v G -> any_arg a v ->
  looks 1 (hh_open a m) G (fun it => exists l, in_some_order a v l /\ hmirel v it l G).
Proof.
  intros a m fm G (x & Rw & Es & Ed & t & T & Ep & ->) _. assert (R' := Rw). destruct R' as (es & Hr & _ & Hp & _ & Hz & _).
  assert (Le : length es = length fm) by (rewrite <- (Permutation_length Hp); now rewrite map_length).
  eapply looks_post; [apply (hhi_new_looks true ubits b _ (D b) m (hm_root x) t es); trivial; [apply lent_in; now left|congruence]|].
  intros it Hi. exists (map kv_of es). split; [exact Hp|exact Hi].
Qed.

Lemma hh_next_looks : forall (v : list (K * V)) it l G d, hmirel v it l G ->
  looks (3 * D b + 3) (hh_inext d it) G (fun r => snd r = snd (snext1 d l) /\ hmirel v (fst r) (fst (snext1 d l)) G).
Proof.
  intros v it l G d R. unfold hh_inext, step1.
  assert (Eh : hhi_hint it = Ok (length l)) by (destruct R as (es & -> & _ & E); unfold hhi_hint; now rewrite E, map_length).
  rewrite Eh. cbn [lift pbind]. eapply looks_le with (n := match l with [] => 0 | _ => 3 * D b + 3 end + 0); [|destruct l; lia].
  eapply looks_bind; [apply (hhi_next_looks true ubits b G (D b) fuel it l); [lia|exact R]|].
  intros [o it'] [Eo R']. cbn [fst snd looks] in *. subst o. split; [reflexivity|exact R'].
Qed.

Theorem hash_map_holds : holds_iterators tkids (@hh_new ubits K V (2 ^ b)) hh_clone hh_drop
  (hh_step ubits dbg keq borrow qeq hash qhash fuel) hh_open hh_inext Prop_HeapHash.hh_roots
  (@nil (K * V)) (ht_call_spec keq borrow qeq) snext1 in_some_order ht_reads always any_arg
  (w + 4) 1 1 (Prop_HeapWorkHash.map_price w (D b) hash qhash) (fun _ _ => 1) (fun _ => 3 * D b + 3).
Proof.
  eapply (holds_iterators_ok tkids (w + 3) (fun c => length (tkids c) <= w) _ _ _ _ _ _ _ (hhrep ubits b keq hash) hmirel).
  - eapply dear_le; [apply (hh_new_dear ubits dbg b Hb Hd Hub keq borrow qeq hash qhash KL HL fuel Hf)|lia].
  - intros c v G R. now apply hh_clone_keeps.
  - intros c v G R. now apply (hh_drop_dear ubits b Hb Hd Hub keq hash c v).
  - intros o c v G R _. rewrite <- Prop_HeapWorkHash.price_is. now apply hh_step_dear.
  - apply ht_reads_gentle.
  - apply ht_reads_same.
  - apply Prop_HeapHash.hh_rep_roots.
  - apply hh_open_looks.
  - apply hh_next_looks.
Qed.
End Map.

(** ** HashTrieSet *)
Section Set_.
Context {T Q : Type} (ubits : N) (dbg : bool).
Context (teq : T -> T -> bool) (borrow : T -> Q) (qeq : Q -> Q -> bool) (hash : T -> N) (qhash : Q -> N).
Context (Hub : (ubits <= 64)%N) (KL : key_laws teq borrow qeq) (HL : hash_laws borrow qeq hash qhash).
Context (b : N) (fuel : nat) (Hb : (0 < b)%N) (Hd : (2 ^ b <= ubits)%N) (Hf : 2 * D b < fuel).
Notation w := (N.to_nat (2 ^ b)).

(** hash_trie_set/mod.rs:246-248: [iter] is [keys] *)
Definition us_open := @hh_open T unit.
Definition us_inext (d : unit) (it : hhiter) : prog (tcell T unit) (hhiter * (nat * option T)) :=
  let* (it', (h, o)) := @hh_inext T unit fuel d it in Ret (it', (h, option_map fst o)).

Definition us_reads (o : hs_call T Q) : bool :=
  match o with
  | UkOp (SetGet _) | UkOp (SetContains _) | UkOp SetSize | UkOp SetIsEmpty | UkSteps _ | UkCount _ => true
  | _ => false
  end.

Definition usirel (v : list T) (it : hhiter) (s : list T) (G : list own) : Prop :=
  exists s', hmirel ubits b (map ut v) it s' G /\ s = map fst s'.

Lemma us_reads_map : forall o, us_reads o = true -> ht_reads (us_map o) = true.
Proof. intros [[]| |] E; try discriminate E; reflexivity. Qed.

Lemma us_open_looks : forall a m (v : list T) G, usrep ubits b teq hash m v G -> any_arg a v ->
  looks 1 (us_open a m) G (fun it => exists l, in_some_order a v l /\ usirel v it l G).
Proof.
  intros a c v G R P. eapply looks_post; [apply (hh_open_looks ubits teq hash b a c (map ut v) G R I)|].
  intros it (s & Hs & Hi). exists (map fst s). split; [|exists s; auto].
  unfold in_some_order in *. rewrite <- (HeapIterRB.fst_ut v). now apply Permutation_map.
Qed.

Lemma us_next_looks : forall (v : list T) it l G d, usirel v it l G ->
  looks (3 * D b + 3) (us_inext d it) G (fun r => snd r = snd (snext1 d l) /\ usirel v (fst r) (fst (snext1 d l)) G).
Proof.
  intros v it s G d (s' & R & ->). unfold us_inext.
  assert (X := hh_next_looks ubits Hub b fuel Hb Hd Hf (map ut v) it s' G d R).
  rewrite <- (Nat.add_0_r (_ + 3)). eapply looks_bind; [exact X|]. intros [j [h o]] (Ea & R'). cbn [fst snd looks snext1] in *.
  injection Ea as -> ->. rewrite map_length. split; [now destruct s'|]. exists (tl s'). split; [exact R'|now destruct s'].
Qed.

Lemma us_reads_gentle : forall o c, us_reads o = true -> gentle c (us_step ubits dbg teq borrow qeq hash qhash fuel o c).
Proof. intros o c E. apply HeapIterRB.gentle_wrap, ht_reads_gentle. now apply us_reads_map. Qed.

Lemma us_reads_same : forall o v, us_reads o = true -> fst (us_spec teq borrow qeq o v) = v.
Proof.
  intros o v E. destruct (us_map_spec T Q teq borrow qeq o v) as [E1 _].
  rewrite (ht_reads_same teq borrow qeq _ _ (us_reads_map _ E)) in E1.
  rewrite <- (HeapIterRB.fst_ut (fst (us_spec teq borrow qeq o v))), <- E1. apply HeapIterRB.fst_ut.
Qed.

Theorem hash_set_holds : holds_iterators tkids (@hh_new ubits T unit (2 ^ b)) hh_clone hh_drop
  (us_step ubits dbg teq borrow qeq hash qhash fuel) us_open us_inext Prop_HeapHash.hh_roots
  (@nil T) (us_spec teq borrow qeq) snext1 in_some_order us_reads always any_arg
  (w + 4) 1 1 (fun o s => Prop_HeapWorkHash.map_price w (D b) hash qhash (us_map o) (map ut s)) (fun _ _ => 1) (fun _ => 3 * D b + 3).
Proof.
  eapply (holds_iterators_ok tkids (w + 3) (fun c => length (tkids c) <= w) _ _ _ _ _ _ _ (usrep ubits b teq hash) usirel).
  - eapply dear_le; [apply (hh_new_dear ubits dbg b Hb Hd Hub teq borrow qeq hash qhash KL HL fuel Hf)|lia].
  - intros c v G R. now apply hh_clone_keeps.
  - intros c v G R. now apply (hh_drop_dear ubits b Hb Hd Hub teq hash c (map ut v)).
  - intros o c v G R _. rewrite <- Prop_HeapWorkHash.price_is. destruct (us_map_spec T Q teq borrow qeq o v) as [E1 E2].
    rewrite <- E2. unfold usrep. rewrite <- E1.
    apply (dear_wrap tkids (w + 3) _ _ _ us_answer G
             (fun c => hhrep ubits b teq hash c (fst (ht_call_spec teq borrow qeq (us_map o) (map ut v))))
             (snd (ht_call_spec teq borrow qeq (us_map o) (map ut v)))).
    now apply hh_step_dear.
  - apply us_reads_gentle.
  - apply us_reads_same.
  - intros c v G R. exact (Prop_HeapHash.hh_rep_roots _ _ _ _ _ _ _ _ _ R).
  - apply us_open_looks.
  - apply us_next_looks.
Qed.
End Set_.
