(** Property C47: the maps with user code that keeps no law -- an [Ord], [Eq], [Hash], [Borrow],
    [Clone] or [RangeBounds] that answers anything, differently at every call, and may panic. *)
From Coq Require Import List NArith Arith Bool Lia Permutation.
From Verif Require Import Base Spec SpecMap SpecOrd SpecLoose Sim ListModel RBModel RBProofs RBHist RBIter
  RBExtraProofs HashModel HashProofs HashHist Prop_RB Prop_Hash LawlessModel LawlessRB LawlessHash
  LawlessIter LawlessAgree CrashModel LawlessCrash.
Import ListNotations.

(** ** RedBlackTreeMap *)

(** The maps made by any calls with the user code [U]; panics of [U] are caught and the map is
    used on. *)
Definition w_rb_reached {W K V Q} (dbg : bool) (U : ord_code W K V Q) (m : rbmap K V) : Prop :=
  exists ops w0 w outs, w_exec (w_rb_step dbg U) ops w0 rb_new = Ok (w, m, outs).
Lemma w_rb_reached_shape : forall W K V Q dbg (U : ord_code W K V Q) m, w_rb_reached dbg U m -> rb_shape m.
Proof.
  intros W K V Q dbg U m (ops & w0 & w & outs & E).
  destruct (w_hist_ok dbg U ops rb_new w0 shape_new) as (w' & m' & l & E' & H & _). congruence.
Qed.

(** One call.  It neither panics by itself nor runs forever; it asks at most
    [2 log2 (size + 1)] comparisons and believes each answer; it does to the entries and answers
    exactly what those answers say; if user code panics the map is as before. *)
Theorem C47_rb_call : forall (W K V Q : Type) (dbg : bool) (U : ord_code W K V Q) (m : rbmap K V),
  w_rb_reached dbg U m -> forall (w : W) (shared : bool) (o : map_op K V Q), exists w' log h x,
  w_rb_step dbg U w shared o m = Ok (w', x) /\
  w_rb_step dbg (logged U) (w, []) shared o m = Ok (w', log, x) /\
  said log h /\ (N.of_nat (length log) <= 2 * N.log2 (N.of_nat (rb_size m) + 1))%N /\
  let copy e e' := exists w w', oc_clone U w e = (w', Some e') in
  match x with
  | Gave (m', a) => loose copy shared o h (elems (rb_root m)) (Some a) (elems (rb_root m'))
  | Torn m' => m' = m /\ loose copy shared o h (elems (rb_root m)) None (elems (rb_root m))
  end.
Proof.
  intros W K V Q dbg U m Hr w sh o. apply w_rb_reached_shape in Hr.
  destruct (w_step_ok dbg U sh o m w [] Hr) as (w' & log & h & x & E & Hs & Hl & H).
  exists w', log, h, x. split; [now rewrite (forget_step dbg U w []), E|]. split; [exact E|]. split; [exact Hs|].
  split; [pose proof (shape_hgt m Hr); lia|]. destruct x as [[m' a]|m']; [apply H|exact H].
Qed.
Print Assumptions C47_rb_call.

(** Histories: never a panic of the library, an entry for every insertion that found nothing and
    none less than the removals that found something took; the size is right; the tree has kept
    the red-black shape, so that every later call is as cheap as with a lawful order. *)
Theorem C47_rb_history : forall (W K V Q : Type) (dbg : bool) (U : ord_code W K V Q)
  (ops : list (bool * map_op K V Q)) (w0 : W), exists w m outs,
  w_exec (w_rb_step dbg U) ops w0 rb_new = Ok (w, m, outs) /\
  loose_hist (fun e e' => exists w w', oc_clone U w e = (w', Some e')) eq ops [] outs (elems (rb_root m)) /\
  rb_size m = length (elems (rb_root m)) /\
  (match rb_root m with Tree _ c _ _ => c = Black | Leaf => True end) /\
  (forall p, path (rb_root m) p -> no_red_red p) /\
  (forall p1 p2, path (rb_root m) p1 -> path (rb_root m) p2 -> blacks p1 = blacks p2) /\
  (forall p, path (rb_root m) p -> (N.of_nat (length p) <= 2 * N.log2 (N.of_nat (rb_size m) + 1))%N).
Proof.
  intros W K V Q dbg U ops w0. destruct (w_hist_ok dbg U ops rb_new w0 shape_new) as (w & m & outs & E & Hs & Hl).
  exists w, m, outs. split; [exact E|]. split; [exact Hl|]. pose proof (shape_hgt m Hs) as Hh.
  destruct Hs as (Hz & (n & Hr) & Hn). split; [exact Hz|].
  split; [destruct (rb_root m) as [|? [|] ? ?]; [exact I|contradiction|reflexivity]|].
  split; [intros p Hp; now apply (path_blacks _ _ _ _ Hr)|].
  split; [intros p1 p2 H1 H2; destruct (path_blacks _ _ _ _ Hr p1 H1) as [-> _]; now destruct (path_blacks _ _ _ _ Hr p2 H2) as [-> _]|].
  intros p Hp. apply path_hgt in Hp. lia.
Qed.
Print Assumptions C47_rb_history.

(** [iter] from one end gives every entry once and then ends, and calls no user code at all. *)
Theorem C47_rb_iter_one_way : forall (W K V Q : Type) (dbg : bool) (U : ord_code W K V Q) (m : rbmap K V),
  w_rb_reached dbg U m -> forall (gt : W -> K -> K -> W * option bool) (w : W) (backwards : bool) (k : nat),
  let l := if backwards then rev (elems (rb_root m)) else elems (rb_root m) in
  exists i', w_iterate (wt_step (full_range gt)) (repeat backwards k) w (wt_new m)
    = Ok (w, i', map (fun p => Some (snd p)) (fwd_spec k l)).
Proof.
  intros W K V Q dbg U m Hr gt w bw k. apply w_rb_reached_shape in Hr. cbv zeta.
  destruct (w_one_way_ok gt k bw m w (wt_new m) 0) as (i' & E); try (destruct bw; reflexivity).
  - destruct Hr as (Hz & _). cbn [wt_new snd skipn]. unfold seq, ord. rewrite Hz. destruct bw; [now rewrite rev_length|reflexivity].
  - exists i'. rewrite E. reflexivity.
Qed.
Print Assumptions C47_rb_iter_one_way.

(** [iter] from both ends in any order: never a panic of the library, and no entry is given
    twice -- the items from the front, then those from the back reversed, are entries in their
    order in the map. *)
Theorem C47_rb_iter : forall (W K V Q : Type) (dbg : bool) (U : ord_code W K V Q) (m : rbmap K V),
  w_rb_reached dbg U m -> forall (gt : W -> K -> K -> W * option bool) (w : W) (ds : list bool), exists w' i' outs,
  w_iterate (wt_step (full_range gt)) ds w (wt_new m) = Ok (w', i', outs) /\ length outs = length ds /\
  thinned (items false ds outs ++ rev (items true ds outs)) (elems (rb_root m)).
Proof.
  intros W K V Q dbg U m Hr gt w ds. apply w_rb_reached_shape in Hr. destruct Hr as (Hz & _).
  destruct (w_full_ok gt ds m w (wt_new m) 0 0 [] [] _ eq_refl eq_refl eq_refl eq_refl) as (w' & i' & outs & E & Hl & Ht).
  - cbn [wt_new snd]. lia.
  - constructor.
  - constructor.
  - exists w', i', outs. auto.
Qed.
Print Assumptions C47_rb_iter.

(** [range] of any map, with any bounds and any order: never a panic of the library; the items from the
    front are entries in their order, each at most once, and so are those from the back. *)
Theorem C47_rb_range : forall (W K V : Type) (m : rbmap K V) (R : range_code W K) (w : W) (ds : list bool),
  exists w' i' outs,
  w_iterate (wi_step R) ds w (wi_new m) = Ok (w', i', outs) /\ length outs = length ds /\
  thinned (items false ds outs) (elems (rb_root m)) /\ thinned (items true ds outs) (rev (elems (rb_root m))).
Proof.
  intros W K V m R w ds.
  destruct (w_range_ok R ds m w (wi_new m) [] [] eq_refl eq_refl eq_refl) as (w' & i' & outs & E & Hl & H1 & H2).
  exists w', i', outs. auto.
Qed.
Print Assumptions C47_rb_range.

(** Lawful code gives the maps of the other properties: the model above with user code that
    does not touch the world is the model of RBModel.v and RBIter.v. *)
Theorem C47_rb_agrees : forall (W K V Q : Type) (dbg : bool)
  (kcmp : K -> K -> comparison) (borrow : K -> Q) (qcmp : Q -> Q -> comparison) (w : W),
  (forall shared o (m : rbmap K V), w_rb_step dbg (pure_ord kcmp borrow qcmp) w shared o m
     = (let! r := rb_step dbg kcmp borrow qcmp o m in Ok (w, Gave r))) /\
  (forall (i : riter K V Q), 
     let w_next backwards := w_iterate (wi_step (pure_range kcmp borrow qcmp (ri_start i) (ri_end i))) [backwards] w (strip i) in
     w_next false = (let! (o, i') := ri_next kcmp borrow qcmp i in Ok (w, strip i', [Some o])) /\
     w_next true = (let! (o, i') := ri_next_back kcmp borrow qcmp i in Ok (w, strip i', [Some o]))).
Proof.
  intros W K V Q dbg kcmp borrow qcmp w. split.
  - intros sh o m. rewrite agree_rb_step. unfold good. now destruct (rb_step dbg kcmp borrow qcmp o m).
  - intros i w_next. subst w_next. split; cbn [w_iterate]; rewrite agree_iter by reflexivity; unfold good.
    + now destruct (ri_next kcmp borrow qcmp i) as [[o i']| |].
    + now destruct (ri_next_back kcmp borrow qcmp i) as [[o i']| |].
Qed.
Print Assumptions C47_rb_agrees.

(** With comparisons that are functions for [n] calls and panic at the next one, it is the model
    of the interrupted calls of C43. *)
Theorem C47_rb_agrees_crash : forall (K V Q : Type) (dbg : bool)
  (kcmp : K -> K -> comparison) (borrow : K -> Q) (qcmp : Q -> Q -> comparison)
  (n : nat) (shared : bool) (o : map_op K V Q) (m : rbmap K V),
  c_rb_step dbg kcmp borrow qcmp n shared o m
  = (let! (n', x) := w_rb_step dbg (fused_ord kcmp borrow qcmp) n shared o m in
     Ok (match x with Gave a => Done n' a | Torn s => Unwound s end)).
Proof. intros. symmetry. apply ac_rb_step. Qed.
Print Assumptions C47_rb_agrees_crash.

(** *** What is not kept *)

(** An order that draws its answers from a list: the world. *)
Definition draw {A} (d : A) (w : list A) : list A * option A :=
  match w with [] => ([], Some d) | a :: w' => (w', Some a) end.
Definition fickle : ord_code (list comparison) N N N :=
  mkOrd _ _ _ _ (fun w _ _ => draw Lt w) (fun w _ _ => draw Lt w) (fun w e => (w, Some e)).
Local Open Scope N_scope.
Definition exl_ops : list (bool * map_op N N N) :=
  [(false, MInsertMut 2 20); (false, MInsertMut 1 10); (false, MInsertMut 3 30)].

(** With a [>] that keeps no law an [iter] used from both ends can leave out entries, although
    its length said otherwise; a [range] can give an entry twice. *)
Theorem C47_rb_iter_both_ends_refuted : exists (m : rbmap N N) i outs i' outs',
  let gt b (w : unit) (_ _ : N) := (w, Some b) in
  w_rb_reached true fickle m /\ snd (wt_new m) = 3%nat /\
  w_iterate (wt_step (full_range (gt true))) [false; true; true] tt (wt_new m) = Ok (tt, i, outs) /\
  items false [false; true; true] outs = [(1, 10)] /\ items true [false; true; true] outs = [] /\
  w_iterate (wi_step (full_range (gt false))) [false; false; true; true] tt (wi_new m) = Ok (tt, i', outs') /\
  items false [false; false; true; true] outs' = [(1, 10); (2, 20)] /\
  items true [false; false; true; true] outs' = [(3, 30); (2, 20)].
Proof.
  eexists _, _, _, _, _. split; [eexists exl_ops, [Lt; Gt; Gt], _, _; vm_compute; reflexivity|].
  split; [reflexivity|]. split; [vm_compute; reflexivity|]. split; [reflexivity|]. split; [reflexivity|].
  split; [vm_compute; reflexivity|]. split; reflexivity.
Qed.
Print Assumptions C47_rb_iter_both_ends_refuted.

(** A map with the same key three times, out of order; a lookup that finds whatever the order
    says; a panic in [Clone]. *)
Example C47_example_rb :
  let U := mkOrd (list comparison) N N N (fun w _ _ => draw Lt w) (fun w _ _ => draw Lt w) (fun w _ => (w, None)) in
  match w_exec (w_rb_step true U)
    [(false, MInsertMut 7 1); (false, MInsertMut 7 2); (false, MInsert 7 3); (false, MInsertMut 4 4); (false, MGet 9);
     (true, MGetMut 7 (N.add 1)); (false, MGetMut 7 (N.add 1)); (false, MRemoveMut 5); (false, MSize)]
    [Lt; Gt; Gt; Gt; Eq; Gt; Eq; Lt; Eq; Lt; Eq] rb_new with
  | Ok (_, m, outs) => (elems (rb_root m), outs)
  | _ => ([], [])
  end = ([(7, 2); (7, 3); (4, 4)],
         [Some MoUnit; Some MoUnit; Some MoUnit; Some MoUnit; Some (MoVal (Some 3)); None; Some (MoVal (Some 1));
          Some (MoBool true); Some (MoNat 3)]).
Proof. vm_compute. reflexivity. Qed.

(** ** HashTrieMap *)
Local Open Scope nat_scope.

(** With an [Eq] that does not panic and repeats its answer when the same question is asked
    again at once -- and is otherwise arbitrary, as are [Hash], [Borrow] and [Clone], which may
    also panic -- the map never panics by itself nor runs forever; every call does to the
    entries what the answers say; the size is right and iteration gives exactly the entries. *)
Theorem C47_hash_history : forall (W K V Q : Type) (ubits : N) (dbg : bool) (U : hash_code W K V Q),
  (ubits <= 64)%N -> 
  (forall w a b, exists w1 x w2, hc_key U w a b = (w1, Some x) /\ hc_key U w1 a b = (w2, Some x)) ->
  (forall w k q, exists w1 x, hc_query U w k q = (w1, Some x)) ->
  forall (degree : N) (fuel : nat), supported ubits degree -> 2 * digits degree < fuel ->
  forall (ops : list (bool * map_op K V Q)) (w0 : W), exists m0 w m outs l,
  hm_new_with_degree ubits degree = Ok m0 /\
  w_exec (w_hm_step ubits dbg U fuel) ops w0 m0 = Ok (w, m, outs) /\
  hm_entries m = Ok l /\ hm_len m = length l /\
  (forall k, runs hi_next hi_hint k (hi_new m) = Ok (fwd_spec k l)) /\
  loose_hist (fun e e' => exists w w', hc_clone U w e = (w', Some e')) (@Permutation _) ops [] outs l.
Proof.
  intros W K V Q ubits dbg U Hub H1 H2 degree fuel (b & Hb & -> & Hd) Hf ops w0. rewrite digits_D in Hf.
  assert (HT : tame U) by (constructor; assumption).
  destruct (holds_new ubits dbg b Hb Hd Hub (K:=K) (V:=V)) as (m0 & E0 & H0).
  destruct (w_hm_hist_ok ubits dbg b Hb Hd Hub U HT fuel Hf ops m0 [] w0 H0) as (w & m & outs & es & E & Hm & Hl).
  destruct (holds_iter ubits dbg b Hb Hd Hub m es Hm) as (He & Hi).
  exists m0, w, m, outs, (map kv es). split; [exact E0|]. split; [exact E|]. split; [exact He|].
  split; [rewrite map_length; apply Hm|]. split; [exact Hi|exact Hl].
Qed.
Print Assumptions C47_hash_history.

(** Lawful code gives the hash maps of the other properties. *)
Theorem C47_hash_agrees : forall (W K V Q : Type) (ubits : N) (dbg : bool)
  (keq : K -> K -> bool) (borrow : K -> Q) (qeq : Q -> Q -> bool) (hash : K -> N) (qhash : Q -> N) (fuel : nat)
  (w : W) (shared : bool) (o : map_op K V Q) (m : hmap K V),
  w_hm_step ubits dbg (pure_hash keq borrow qeq hash qhash) fuel w shared o m
  = (let! r := hm_step ubits dbg keq borrow qeq hash qhash fuel o m in Ok (w, Gave r)).
Proof.
  intros. rewrite agree_hm_step. unfold good. now destruct (hm_step _ _ _ _ _ _ _ _ _ _).
Qed.
Print Assumptions C47_hash_agrees.

Theorem C47_hash_agrees_crash : forall (K V Q : Type) (ubits : N) (dbg : bool)
  (keq : K -> K -> bool) (borrow : K -> Q) (qeq : Q -> Q -> bool) (hash : K -> N) (qhash : Q -> N) (fuel : nat)
  (n : nat) (shared : bool) (o : map_op K V Q) (m : hmap K V),
  c_hm_step ubits dbg keq borrow qeq hash qhash fuel n shared o m
  = (let! (n', x) := w_hm_step ubits dbg (fused_hash keq borrow qeq hash qhash) fuel n shared o m in
     Ok (match x with Gave a => Done n' a | Torn s => Unwound s end)).
Proof. intros. symmetry. apply ac_hm_step. Qed.
Print Assumptions C47_hash_agrees_crash.

(** The condition on [Eq] is needed.  [moody]: keys are their own hashes, comparisons draw
    their answers. *)
Definition moody : hash_code (list bool) N N N :=
  mkHash _ _ _ _ (fun w k => (w, Some k)) (fun w q => (w, Some q)) (fun w _ _ => draw false w) (fun w _ _ => draw false w)
    (fun w e => (w, Some e)).
Definition moody_run (ops : list (map_op N N N)) (w : list bool) : res (list bool * hmap N N * list (option (map_obs N N))) :=
  let! m0 := hm_new_with_degree 64 64 in w_exec (w_hm_step 64 true moody 129) (map (pair false) ops) w m0.

(** "Equal" answered when asked whether the key is there, "unequal" when asked at once again:
    two entries share a bucket next to the root, and the next insertion hits the library's
    [unreachable!].  The other way round: the entry is replaced and the size counts two. *)
Theorem C47_hash_unstable_refuted :
  moody_run [MInsertMut 5 0; MInsertMut 5 1; MInsertMut 69 2]%N [true; false] = Panic /\
  exists w m outs, moody_run [MInsertMut 5 0; MInsertMut 5 1]%N (repeat false 11 ++ [true]) = Ok (w, m, outs) /\
    outs = [Some MoUnit; Some MoUnit] /\ hm_len m = 2 /\ hm_entries m = Ok [(5, 1)]%N.
Proof.
  split; [vm_compute; reflexivity|]. eexists _, _, _. split; [vm_compute; reflexivity|]. repeat split; vm_compute; reflexivity.
Qed.
Print Assumptions C47_hash_unstable_refuted.

(** A world in which the same questions get different answers at different times, within the
    condition of [C47_hash_history], with hashes that change and clones that panic. *)
Definition shifty : hash_code N N N N :=
  mkHash _ _ _ _ (fun w k => (w + 1, if w mod 7 =? 6 then None else Some ((k + w / 3) mod 4)) )%N
    (fun w q => (w + 1, Some ((q + w / 3) mod 4)))%N
    (fun w a b => (w, Some ((a + b + w) mod 2 =? 0)))%N (fun w a b => (w + 1, Some ((a + b + w) mod 2 =? 0)))%N
    (fun w e => (w + 1, None))%N.
Example C47_example_hash :
  (forall w a b, exists w1 x w2, hc_key shifty w a b = (w1, Some x) /\ hc_key shifty w1 a b = (w2, Some x)) /\
  (forall w k q, exists w1 x, hc_query shifty w k q = (w1, Some x)) /\
  match (let! m0 := hm_new_with_degree 64 64 in
    w_exec (w_hm_step 64 true shifty 129) [(false, MInsertMut 1 10); (false, MInsertMut 1 11); (false, MInsert 2 20);
      (false, MInsertMut 3 30); (true, MGetMut 1 (N.add 1)); (false, MInsertMut 4 40); (false, MInsertMut 1 12);
      (false, MRemoveMut 2); (false, MGet 2); (false, MSize)]%N 0%N m0) with
  | Ok (_, m, outs) => (hm_entries m, outs)
  | _ => (Panic, [])
  end = (Ok [(3, 30); (1, 11); (4, 40); (1, 12)]%N,
    [Some MoUnit; Some MoUnit; Some MoUnit; Some MoUnit; None; Some MoUnit; Some MoUnit; Some (MoBool false);
     Some (MoVal None); Some (MoNat 4)]).
Proof.
  split; [intros; cbn; eauto|]. split; [intros; cbn; eauto|]. vm_compute. reflexivity.
Qed.
