(** * ptr_eq of the four maps and sets on the shared heap: proofs for C41 *)
From Coq Require Import List NArith Arith Lia Bool Permutation.
From Verif Require RBIter.
From Verif Require Import Base Spec Sim SpecMap SpecOrd HashModel HashProofs HashHist HashExtraProofs RBModel RBProofs RBHist RBExtra Prop_RB
  PermSolve HeapModel HeapProofs HeapSafe HeapClient HeapWorld HeapList HeapHash HeapHashProofs HeapHashNodes HeapHashMap
  HeapRB HeapRBProofs HeapRBMap HeapSet HeapPtr Prop_HeapRB Prop_HeapHash.
Import ListNotations.
Local Open Scope prog_scope.

(** ** The functions *)

(** hash_trie_map/mod.rs:850-860; hash_trie_set/mod.rs:212-217.  Comparing maps with
    different pointer kinds is the comparison of addresses too. *)
Definition hh_ptr_eq (m1 m2 : hht) : bool := hh_root m1 =? hh_root m2.

(** red_black_tree_map/mod.rs:902-913; red_black_tree_set/mod.rs:214-216.  The null
    pointer stands for an empty tree. *)
Definition hb_ptr_eq (m1 m2 : hrb) : bool :=
  match hb_root m1, hb_root m2 with
  | None, None => true
  | Some a, Some b => a =? b
  | _, _ => false
  end.

(** ** HashTrieMap *)
Section HT.
Variable ubits : N.
Variable dbg : bool.
Variable b : N.
Hypothesis Hb : (0 < b)%N.
Hypothesis Hdeg : (2 ^ b <= ubits)%N.
Hypothesis Hub : (ubits <= 64)%N.
Context {K V Q : Type}.
Variable keq : K -> K -> bool.
Variable borrow : K -> Q.
Variable qeq : Q -> Q -> bool.
Variable hash : K -> N.
Variable qhash : Q -> N.
Hypothesis KL : key_laws keq borrow qeq.
Hypothesis HL : hash_laws borrow qeq hash qhash.
Variable fuel : nat.
Hypothesis Hfuel : (2 * D b < fuel)%nat.
Notation rep := (hhrep ubits b keq hash).
Notation step := (@hh_step ubits dbg K V Q keq borrow qeq hash qhash fuel).

Lemma hh_same : forall m1 (v1 : fmap K V) G1 m2 v2 G2 h F, rep m1 v1 G1 -> rep m2 v2 G2 -> WF (@tkids K V) h (G1 ++ G2 ++ F) ->
  hh_ptr_eq m1 m2 = true -> Permutation v1 v2.
Proof.
  clear HL KL Hub Hdeg Hb.
  intros m1 v1 G1 m2 v2 G2 h F (w1 & R1 & _ & _ & t1 & T1 & E1 & ->) (w2 & R2 & _ & _ & t2 & T2 & E2 & ->) W Pe.
  apply Nat.eqb_eq in Pe.
  destruct R1 as (es1 & H1 & _ & P1 & _). destruct R2 as (es2 & H2 & _ & P2 & _).
  assert (A1 : safe (@tkids K V) 0 (tread fuel (pa t1)) [Tree t1] (fun n G' => G' = [Tree t1] /\ n = hm_root w1)).
  { apply (tread_ok fuel (D b) (hm_root w1) t1 [Tree t1]); trivial;
      [eapply hrep_tall; exact H1|clear - Hfuel; lia|apply lent_in; now left]. }
  assert (A2 : safe (@tkids K V) 0 (tread fuel (pa t2)) [Tree t2] (fun n G' => G' = [Tree t2] /\ n = hm_root w2)).
  { apply (tread_ok fuel (D b) (hm_root w2) t2 [Tree t2]); trivial;
      [eapply hrep_tall; exact H2|clear - Hfuel; lia|apply lent_in; now left]. }
  destruct (run_sound _ _ _ _ (Tree t2 :: F) _ h A1 W) as (h1 & x1 & G1' & X1 & (_ & ->) & _).
  destruct (run_sound _ _ _ _ (Tree t1 :: F) _ h A2) as (h2 & x2 & G2' & X2 & (_ & ->) & _).
  { eapply WF_perm; [|exact W]. perm. }
  rewrite E1, Pe, <- E2, X2 in X1. injection X1 as _ Er.
  apply hrep_entries in H1. apply hrep_entries in H2. rewrite <- P1, <- P2, H1, H2, Er. reflexivity.
Qed.

Lemma hh_clone_same : forall h (c : hht) h' c', run h (@hh_clone K V c) = Some (h', c') -> c' = c.
Proof using.
  intros h c h' c' E. unfold hh_clone in E. cbn [run] in E.
  destruct (get h (hh_root c)) as [[n x|]|]; [|discriminate..]. now injection E.
Qed.

(** The calls after which the map is as it was. *)
Definition ht_leaves (o : ht_call K V Q) (m : fmap K V) : Prop :=
  match o with
  | TOp (MRemove q) => fm_find borrow qeq q m = None
  | TOp (MInsert _ _) | TOp (MInsertMut _ _) | TOp (MRemoveMut _) | TOp (MGetMut _ _) => False
  | _ => True
  end.

Lemma hh_leaves : forall o m v G h F h' r, rep m v G -> WF (@tkids K V) h (G ++ F) -> ht_leaves o v ->
  run h (step o m) = Some (h', r) -> hh_ptr_eq m (fst r) = true.
Proof using Hb Hdeg Hub KL HL Hfuel.
  intros o m v G h F h' r R W L E.
  assert (Same : fst r = m -> hh_ptr_eq m (fst r) = true) by (intros ->; unfold hh_ptr_eq; apply Nat.eqb_refl).
  destruct o as [[k x|k x|q|q|q f|q|q|q| | |]|k|p]; cbn [ht_leaves hh_step] in *; try contradiction.
  - apply Same. unfold hh_remove in E.
    apply run_bind in E. destruct E as (h1 & n & E & E').
    apply run_bind in E. destruct E as (h2 & n2 & Ec & E).
    pose proof (hh_clone_same _ _ _ _ Ec) as ->.
    apply run_bind in E. destruct E as (h3 & [n' fl] & Er & E).
    pose proof (hh_clone_ok ubits b keq hash m v G R) as S.
    destruct (run_sound _ _ _ _ _ _ _ S W) as (hx & cx & Gx & Ex & (G1 & G2 & -> & R1 & R2) & Wx & _).
    rewrite Ec in Ex. injection Ex as <- <-.
    pose proof (hh_remove_mut_ok ubits dbg b Hb Hdeg Hub keq borrow qeq hash qhash KL HL fuel Hfuel m v G2 q R2) as S2.
    destruct (run_sound _ _ _ _ (G1 ++ F) _ h2 S2) as (hy & cy & Gy & Ey & (Fy & _) & _).
    { eapply WF_perm; [|exact Wx]. perm. }
    rewrite Er in Ey. injection Ey as <- <-. cbn [snd] in Fy. rewrite L in Fy. cbn in Fy. subst fl.
    apply run_bind in E. destruct E as (h4 & c & Ec2 & E).
    pose proof (hh_clone_same _ _ _ _ Ec2) as ->.
    apply run_bind in E. destruct E as (h5 & u & _ & E). cbn [run] in E. injection E as <- <-.
    apply run_bind in E'. destruct E' as (h6 & u' & _ & E'). cbn [run] in E'. now injection E' as _ <-.
  - apply Same. apply run_bind in E. destruct E as (h1 & x & _ & E). cbn [run] in E. now injection E as _ <-.
  - apply Same. apply run_bind in E. destruct E as (h1 & x & _ & E). cbn [run] in E. now injection E as _ <-.
  - apply Same. apply run_bind in E. destruct E as (h1 & x & _ & E). cbn [run] in E. now injection E as _ <-.
  - apply Same. cbn [run] in E. now injection E as _ <-.
  - apply Same. cbn [run] in E. now injection E as _ <-.
  - apply Same. apply run_bind in E. destruct E as (h1 & x & _ & E).
    apply run_bind in E. destruct E as (h2 & y & _ & E). cbn [run] in E. now injection E as _ <-.
  - apply Same. apply run_bind in E. destruct E as (h1 & x & _ & E). cbn [run] in E. now injection E as _ <-.
  - apply Same. apply run_bind in E. destruct E as (h1 & x & _ & E). cbn [run] in E. now injection E as _ <-.
Qed.

Definition ht_inserts (o : ht_call K V Q) : Prop :=
  match o with TOp (MInsert _ _) | TOp (MInsertMut _ _) => True | _ => False end.

Lemma hl_loop_drops : forall f fd head, drops (@hl_drop_loop (tcell K V) (@tkids K V) (@t_isN K V) 2 f fd head).
Proof using.
  induction f as [|f IH]; intros fd [a|]; cbn [hl_drop_loop]; try exact I.
  cbn [drops]. intros [c|]; [|apply drops_ptr]. destruct (t_isN c) as [[x nx]|]; [|exact I].
  apply drops_bind; [apply drops_ptr|]. intros _. apply IH.
Qed.

Lemma hl_drop_drops : forall l, drops (@tl_drop K V l).
Proof using.
  intros l. unfold tl_drop, hl_drop. apply drops_bind; [apply hl_loop_drops|]. intros _.
  unfold drop_opt. destruct (hl_last l); [apply drops_ptr|exact I].
Qed.

Lemma tdrop_drops : forall f a, drops (@tdrop K V f a).
Proof using.
  induction f as [|f IH]; intros a; [exact I|]. cbn [tdrop drops]. intros [c|]; [|exact I]. cbn [drops].
  apply drops_bind; [|intros; exact I]. destruct c; cbn [tglue]; try exact I;
    [now apply drops_each|apply drops_ptr|apply hl_drop_drops].
Qed.

Lemma hh_insert_mut_one : forall m k v h h' m', run h (@hh_insert_mut ubits dbg K V keq hash fuel m k v) = Some (h', m') ->
  exists c, get h' (hh_root m') = Some (Full 1 c).
Proof using.
  intros m k v h h' m' E. unfold hh_insert_mut in E. cbn [run] in E.
  apply run_bind in E. destruct E as (h1 & [a c] & _ & E).
  apply run_bind in E. destruct E as (h2 & [c' nw] & _ & E). cbn [run] in E.
  destruct (get h2 a) as [[n x|]|] eqn:Ea; try discriminate. injection E as <- <-. exists c'. cbn [hh_root].
  rewrite (get_set _ _ _ _ _ Ea). now destruct (Nat.eq_dec a a).
Qed.

Lemma hh_inserts : forall o m h h' r, ht_inserts o -> run h (step o m) = Some (h', r) ->
  exists a, In a (hh_roots (fst r)) /\ forall n c, get h' a = Some (Full n c) -> n <= 1.
Proof using.
  intros o m h h' r I E. destruct o as [[k x|k x|q|q|q f|q|q|q| | |]|k|p]; cbn [ht_inserts hh_step] in *; try contradiction.
  - apply run_bind in E. destruct E as (h1 & m' & E & E').
    unfold hh_insert in E. apply run_bind in E. destruct E as (h2 & m2 & _ & E).
    apply hh_insert_mut_one in E. destruct E as (c & Ec).
    apply run_bind in E'. destruct E' as (h3 & u & Ed & E'). cbn [run] in E'. injection E' as <- <-.
    exists (hh_root m'). split; [now left|]. intros n d En.
    destruct (drops_run _ _ _ _ _ (tdrop_drops _ _) Ed _ _ _ En) as (k0 & Lk & Ek).
    rewrite Ec in Ek. injection Ek as <- _. exact Lk.
  - apply run_bind in E. destruct E as (h1 & m' & E & E'). cbn [run] in E'. injection E' as <- <-.
    apply hh_insert_mut_one in E. destruct E as (c & Ec).
    exists (hh_root m'). split; [now left|]. intros n d En. rewrite Ec in En. now injection En as <- _.
Qed.
End HT.

(** ** RedBlackTreeMap *)
Section RB.
Context {K V Q : Type}.
Variable dbg : bool.
Variable kcmp : K -> K -> comparison.
Variable borrow : K -> Q.
Variable qcmp : Q -> Q -> comparison.
Hypothesis OL : ord_laws qcmp.
Hypothesis KB : borrow_agrees kcmp borrow qcmp.
Notation rep := (@hbrep K V kcmp).
Notation step := (@hb_step K V Q dbg kcmp borrow qcmp).

Lemma hb_ptr_eq_iff : forall m1 m2, hb_ptr_eq m1 m2 = true <-> hb_root m1 = hb_root m2.
Proof using.
  intros m1 m2. unfold hb_ptr_eq. destruct (hb_root m1), (hb_root m2); split; intros H; try discriminate; trivial;
    [apply Nat.eqb_eq in H; now subst|injection H as ->; apply Nat.eqb_refl].
Qed.

Lemma hb_same : forall m1 (v1 : fmap K V) G1 m2 v2 G2 h F, rep m1 v1 G1 -> rep m2 v2 G2 -> WF (@rkids K V) h (G1 ++ G2 ++ F) ->
  hb_ptr_eq m1 m2 = true -> Permutation v1 v2.
Proof using.
  intros m1 v1 G1 m2 v2 G2 h F (w1 & R1 & _ & ts1 & T1 & ->) (w2 & R2 & _ & ts2 & T2 & ->) W Pe.
  apply hb_ptr_eq_iff in Pe. destruct R1 as (_ & P1 & _). destruct R2 as (_ & P2 & _).
  set (f := S (RBIter.hgt (rb_root w1) + RBIter.hgt (rb_root w2))).
  assert (A1 : safe (@rkids K V) 0 (let* x := hread f (hb_root m1) in Ret x) (map Tree ts1) (fun n _ => n = rb_root w1)).
  { apply (hread_ok f (rb_root w1) (hb_root m1) ts1); [unfold f; lia|exact T1| |now apply safe_ret].
    intros u I. now apply lent_in, in_map. }
  assert (A2 : safe (@rkids K V) 0 (let* x := hread f (hb_root m2) in Ret x) (map Tree ts2) (fun n _ => n = rb_root w2)).
  { apply (hread_ok f (rb_root w2) (hb_root m2) ts2); [unfold f; lia|exact T2| |now apply safe_ret].
    intros u I. now apply lent_in, in_map. }
  destruct (run_sound _ _ _ _ _ _ h A1 W) as (h1 & x1 & G1' & X1 & -> & _).
  destruct (run_sound _ _ _ _ (map Tree ts1 ++ F) _ h A2) as (h2 & x2 & G2' & X2 & -> & _).
  { eapply WF_perm; [|exact W]. perm. }
  rewrite Pe, X2 in X1. injection X1 as _ Er. rewrite <- P1, <- P2, Er. reflexivity.
Qed.

Lemma hb_clone_same : forall h (c : hrb) h' c', run h (@hb_clone K V c) = Some (h', c') -> c' = c.
Proof using.
  intros h c h' c' E. unfold hb_clone, clone_opt in E. destruct (hb_root c); cbn [run] in E; [|now injection E].
  destruct (get h a) as [[n x|]|]; [|discriminate..]. now injection E.
Qed.

Definition rb_leaves (o : rb_call (K := K) (V := V) (Q := Q)) (m : fmap K V) : Prop :=
  match o with
  | BOp (MRemove q) => fm_find borrow (eq_of qcmp) q m = None
  | BOp (MInsert _ _) | BOp (MInsertMut _ _) | BOp (MRemoveMut _) | BOp (MGetMut _ _) => False
  | _ => True
  end.

Lemma hb_leaves : forall o m v G h F h' r, rep m v G -> WF (@rkids K V) h (G ++ F) -> rb_leaves o v ->
  run h (step o m) = Some (h', r) -> hb_ptr_eq m (fst r) = true.
Proof using OL KB.
  intros o m v G h F h' r R W L E.
  assert (Same : fst r = m -> hb_ptr_eq m (fst r) = true) by (intros ->; now apply hb_ptr_eq_iff).
  destruct o as [[k x|k x|q|q|q f|q|q|q| | |]| | |ds]; cbn [rb_leaves hb_step] in *; try contradiction.
  - apply Same. unfold hb_remove in E.
    apply run_bind in E. destruct E as (h1 & n & E & E').
    apply run_bind in E. destruct E as (h2 & n2 & Ec & E).
    pose proof (hb_clone_same _ _ _ _ Ec) as ->.
    apply run_bind in E. destruct E as (h3 & [n' fl] & Er & E).
    pose proof (hb_clone_ok kcmp m v G R) as S.
    destruct (run_sound _ _ _ _ _ _ _ S W) as (hx & cx & Gx & Ex & (G1 & G2 & -> & R1 & R2) & Wx & _).
    rewrite Ec in Ex. injection Ex as <- <-.
    pose proof (hb_remove_mut_ok dbg kcmp borrow qcmp OL KB m v G2 q R2) as S2.
    destruct (run_sound _ _ _ _ (G1 ++ F) _ h2 S2) as (hy & cy & Gy & Ey & (Fy & _) & _).
    { eapply WF_perm; [|exact Wx]. perm. }
    rewrite Er in Ey. injection Ey as <- <-. cbn [snd] in Fy. rewrite L in Fy. cbn in Fy. subst fl.
    apply run_bind in E. destruct E as (h4 & c & Ec2 & E).
    pose proof (hb_clone_same _ _ _ _ Ec2) as ->.
    apply run_bind in E. destruct E as (h5 & u & _ & E).
    apply run_bind in E. destruct E as (h6 & u' & _ & E). cbn [run] in E, E'. injection E as <- <-. now injection E' as _ <-.
  - apply Same. apply run_bind in E. destruct E as (h1 & x & _ & E). cbn [run] in E. now injection E as _ <-.
  - apply Same. apply run_bind in E. destruct E as (h1 & x & _ & E). cbn [run] in E. now injection E as _ <-.
  - apply Same. apply run_bind in E. destruct E as (h1 & x & _ & E). cbn [run] in E. now injection E as _ <-.
  - apply Same. cbn [run] in E. now injection E as _ <-.
  - apply Same. cbn [run] in E. now injection E as _ <-.
  - apply Same. apply run_bind in E. destruct E as (h1 & x & _ & E).
    apply run_bind in E. destruct E as (h2 & y & _ & E). cbn [run] in E. now injection E as _ <-.
  - apply Same. apply run_bind in E. destruct E as (h1 & x & _ & E). cbn [run] in E. now injection E as _ <-.
  - apply Same. apply run_bind in E. destruct E as (h1 & x & _ & E). cbn [run] in E. now injection E as _ <-.
  - apply Same. apply run_bind in E. destruct E as (h1 & x & _ & E). cbn [run] in E. now injection E as _ <-.
Qed.

Definition rb_inserts (o : rb_call (K := K) (V := V) (Q := Q)) : Prop :=
  match o with BOp (MInsert _ _) | BOp (MInsertMut _ _) => True | _ => False end.

Lemma hb_insert_mut_one : forall m k v h h' m', run h (@hb_insert_mut K V kcmp m k v) = Some (h', m') ->
  exists a c, hb_root m' = Some a /\ get h' a = Some (Full 1 c).
Proof using.
  intros m k v h h' m' E. unfold hb_insert_mut in E.
  apply run_bind in E. destruct E as (h1 & [ro nk] & E & E'). cbn [run] in E'. injection E' as <- <-.
  cbn [hins hb_root] in *. destruct (hb_root m) as [a|].
  - apply run_bind in E. destruct E as (h2 & [p nd] & _ & E). unfold see_entry in E. cbn [run] in E.
    destruct (get h2 (hn_entry nd)) as [[n [e|x]|]|]; try discriminate.
    apply run_bind in E. destruct E as (h3 & [nd' rt] & _ & E). cbn [run] in E.
    destruct (get h3 p) as [[n0 x9|]|] eqn:Ea; try discriminate. injection E as <- <- <-.
    eexists _, _. split; [reflexivity|]. rewrite (get_set _ _ _ _ _ Ea). now destruct (Nat.eq_dec p p).
  - unfold hnew_node in E. cbn [pbind run] in E. injection E as <- <- <-. eexists _, _. split; [reflexivity|].
    unfold get. rewrite nth_error_app2 by lia. rewrite Nat.sub_diag. reflexivity.
Qed.

Lemma hb_inserts : forall o m h h' r, rb_inserts o -> run h (step o m) = Some (h', r) ->
  exists a, In a (hb_roots (fst r)) /\ forall n c, get h' a = Some (Full n c) -> n <= 1.
Proof using.
  intros o m h h' r I E. destruct o as [[k x|k x|q|q|q f|q|q|q| | |]| | |ds]; cbn [rb_inserts hb_step] in *; try contradiction.
  - apply run_bind in E. destruct E as (h1 & m' & E & E'). cbn [run] in E'. injection E' as <- <-.
    unfold hb_insert in E. apply run_bind in E. destruct E as (h2 & m2 & _ & E).
    apply run_bind in E. destruct E as (h3 & m3 & E & E').
    apply hb_insert_mut_one in E. destruct E as (a & c & Er & Ec).
    apply run_bind in E'. destruct E' as (h4 & u & Ed & E'). cbn [run] in E'. injection E' as <- <-.
    exists a. cbn [fst]. split; [unfold hb_roots; rewrite Er; now left|]. intros n d En.
    assert (Dr : drops (@hb_drop K V m)) by (unfold hb_drop, drop_opt; destruct (hb_root m); [apply drops_ptr|constructor]).
    destruct (drops_run _ _ _ _ _ Dr Ed _ _ _ En) as (k0 & Lk & Ek).
    rewrite Ec in Ek. injection Ek as <- _. exact Lk.
  - apply run_bind in E. destruct E as (h1 & m' & E & E'). cbn [run] in E'. injection E' as <- <-.
    apply hb_insert_mut_one in E. destruct E as (a & c & Er & Ec).
    exists a. cbn [fst]. split; [unfold hb_roots; rewrite Er; now left|]. intros n d En. rewrite Ec in En. now injection En as <- _.
Qed.
End RB.
