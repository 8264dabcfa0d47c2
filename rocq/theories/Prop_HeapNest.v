(** * Property C48: dropping a tree does not recurse along its size

    [depth_run] and [depth_exec] (HeapDepth.v) measure how deep calls of drop
    glue nest.  For the vector and the sorted map and set the bounds hold for
    any number of threads under every schedule; for the hash map and set they
    hold for one thread, and are refuted for maps shared between threads. *)
From Coq Require Import List NArith Arith Lia Bool Permutation.
From Verif Require Import Base Spec SpecMap SpecOrd VectorModel HashModel HashProofs HashExtra Prop_Hash RBModel RBExtra Prop_RB
  HeapModel HeapProofs HeapSafe HeapClient HeapWorld HeapList HeapVec HeapVecProofs HeapHash HeapHashMap HeapRB HeapRBMap HeapSet
  Prop_HeapSeq Prop_HeapVec Prop_HeapHash Prop_HeapRB Prop_HeapSet HeapDepth Prop_HeapDepth HeapNest HeapNestHash.
Import ListNotations.
Local Open Scope prog_scope.

(** ** Threads

    A thread makes versions of a collection and hands them out to other threads.
    Nothing crashes, and at no point of any schedule are there more than [d n]
    calls of drop glue on the stack of a thread, [n] being the number of calls
    of operations that led there. *)
Definition shallow_threads {C Coll Op Val Out : Type} (d : nat -> nat) (hnew : prog C Coll) (hclone : Coll -> prog C Coll)
    (hdrop : Coll -> prog C unit) (hop : Op -> Coll -> prog C (Coll * Out))
    (vnew : Val) (vop : Op -> Val -> Val * Out) (pre : Op -> Val -> Prop) : Prop :=
  forall main jobs, within vnew vop pre main [] ->
  let vs := fst (sclient vnew vop main []) in
  Permutation (concat (map job_regs jobs)) (seq 0 (length vs)) ->
  Forall (job_within vnew vop pre vs) jobs ->
  exists h rs mx,
    depth_run 0 0 [] (hclient hnew hclone hdrop hop main []) = Some (h, (rs, snd (sclient vnew vop main [])), 0, mx) /\
    mx <= d (length main) /\
    forall sched,
      ~ In Fail (snd (exec sched (h, map (job_start hnew hclone hdrop hop rs) jobs))) /\
      forall i j, nth_error jobs i = Some j ->
        depth_exec i sched (h, map (job_start hnew hclone hdrop hop rs) jobs) 0 <= d (length main + length (job_cmds j)).

Lemma shallow_threads_ok : forall C Coll Op Val Out d (hnew : prog C Coll) hclone hdrop hop (vnew : Val)
    (vop : Op -> Val -> Val * Out) pre (inv : nat -> Coll -> Prop),
  non_interfering hnew hclone hdrop hop vnew vop pre ->
  (forall n n' c, n <= n' -> inv n c -> inv n' c) ->
  (forall n n', n <= n' -> d n <= d n') ->
  level (d 0) hnew (inv 0) ->
  (forall n c, inv n c -> level (d n) (hclone c) (inv n)) ->
  (forall n c, inv n c -> level (d n) (hdrop c) (fun _ => True)) ->
  (forall n o c, inv n c -> level (d (S n)) (hop o c) (fun r => inv (S n) (fst r))) ->
  shallow_threads d hnew hclone hdrop hop vnew vop pre.
Proof.
  intros C Coll Op Val Out d hnew hclone hdrop hop vnew vop pre inv NI I1 I2 Hn Hc Hd Ho main jobs W vs Pj Wj.
  destruct (NI main jobs W Pj Wj) as (h & rs & E & T).
  assert (LC := level_client hnew hclone hdrop hop inv d I1 I2 Hn Hc Hd Ho).
  assert (D := depth_run_run _ (hclient hnew hclone hdrop hop main []) 0 0 []). rewrite E in D.
  destruct D as (cur & mx & D). exists h, rs, mx.
  assert (N : nests (d (length main)) 0 (hclient hnew hclone hdrop hop main [])
                (fun c r => c = 0 /\ regs_inv inv (length main) (fst r))).
  { apply (LC main 0 [] (Forall_nil _) 0 (d (length main))). apply le_n. }
  destruct (nests_run _ _ _ _ _ _ _ _ _ _ _ N D) as [L [-> R]]. cbn [fst] in R.
  split; [exact D|]. split; [lia|]. intros sched. split; [exact (proj1 (T sched))|].
  intros i j Ej. eapply depth_exec_le.
  - rewrite nth_error_map, Ej. reflexivity.
  - lia.
  - apply (LC (job_cmds j) (length main) (hand rs (job_regs j)) (regs_hand inv _ _ _ R) 0 (d (length main + length (job_cmds j)))). apply le_n.
Qed.

(** ** RedBlackTreeMap and RedBlackTreeSet

    At most twice the logarithm of the number of calls, plus two. *)
Theorem C48_rb_map_drop_depth : forall (K V Q : Type) (dbg : bool)
  (kcmp : K -> K -> comparison) (borrow : K -> Q) (qcmp : Q -> Q -> comparison),
  ord_laws qcmp -> borrow_agrees kcmp borrow qcmp ->
  shallow_threads (fun n => 2 * Nat.log2 (n + 1) + 2)
    (@hb_new K V) hb_clone hb_drop (hb_step dbg kcmp borrow qcmp)
    (@nil (K * V)) (rb_call_spec kcmp borrow qcmp) always.
Proof.
  intros K V Q dbg kcmp borrow qcmp OL KB. apply (shallow_threads_ok _ _ _ _ _ rb_depth) with (inv := rb_small).
  - now apply C40_rb_map_non_interfering.
  - unfold rb_small. intros. lia.
  - apply rb_depth_le.
  - apply level_ret. unfold rb_small. cbn. lia.
  - apply lv_hb_clone.
  - apply lv_hb_drop.
  - apply lv_hb_step.
Qed.
Print Assumptions C48_rb_map_drop_depth.

Theorem C48_rb_set_drop_depth : forall (T Q : Type) (dbg : bool)
  (tcmp : T -> T -> comparison) (borrow : T -> Q) (qcmp : Q -> Q -> comparison),
  ord_laws qcmp -> borrow_agrees tcmp borrow qcmp ->
  shallow_threads (fun n => 2 * Nat.log2 (n + 1) + 2)
    (@hb_new T unit) hb_clone hb_drop (ss_step dbg tcmp borrow qcmp)
    (@nil T) (ss_spec tcmp borrow qcmp) always.
Proof.
  intros T Q dbg tcmp borrow qcmp OL KB. apply (shallow_threads_ok _ _ _ _ _ rb_depth) with (inv := rb_small).
  - now apply C40_rb_set_non_interfering.
  - unfold rb_small. intros. lia.
  - apply rb_depth_le.
  - apply level_ret. unfold rb_small. cbn. lia.
  - apply lv_hb_clone.
  - apply lv_hb_drop.
  - intros n o c L. unfold ss_step. eapply level_bind; [now apply lv_hb_step|]. intros [m x] Hm. now apply level_ret.
Qed.
Print Assumptions C48_rb_set_drop_depth.

(** Dropping one version: twice the logarithm of what [size] says, plus one. *)
Theorem C48_rb_drop_one : forall (K V : Type) (m : hrb) (h h' : heap (rcell K V)) cur mx,
  depth_run 0 0 h (hb_drop m) = Some (h', tt, cur, mx) -> cur = 0 /\ mx <= 2 * Nat.log2 (hb_size m + 1) + 1.
Proof.
  intros K V m h h' cur mx E.
  assert (F : flat (2 * Nat.log2 (hb_size m + 1) + 1) (@hb_drop K V m)).
  { unfold hb_drop, hb_levels. destruct (hb_root m) as [a|]; [|apply flat_ret]. eapply flat_le; [|apply flat_drop]. lia. }
  destruct (F _ _ _ _ _ _ _ E) as [-> L]. split; [trivial|lia].
Qed.
Print Assumptions C48_rb_drop_one.

(** Sixty-three keys inserted in ascending order, cloned, one of the two changed, both dropped:
    an entry is freed at depth seven; the bound is fourteen. *)
Definition rb_nest_example : list (cmd (@rb_call nat nat nat)) :=
  CNew :: map (fun i => COp 0 (BOp (MInsertMut i i))) (seq 0 63) ++
  [CClone 0; COp 1 (BOp (MRemoveMut 9)); CDrop 0; CDrop 1].
Example C48_rb_example :
  exists h rs xs, depth_run 0 0 [] (hclient (@hb_new nat nat) hb_clone hb_drop
    (hb_step true Nat.compare (fun x => x) Nat.compare) rb_nest_example []) = Some (h, (rs, xs), 0, 7) /\
  forallb (fun x => match x with None => true | Some _ => false end) h = true.
Proof. eexists _, _, _. split; vm_compute; reflexivity. Qed.

(** ** Vector

    As many as a length of one machine word has digits in base [2 ^ bits], plus one,
    whatever the vector and the number of calls. *)
Theorem C48_vector_drop_depth : forall (T : Type) (ubits : N) (dbg : bool) (bits : N),
  (8 <= ubits)%N -> (0 < bits < ubits)%N ->
  shallow_threads (fun _ => S (N.to_nat ((ubits + bits - 1) / bits)))
    (hv_new bits) hv_clone (hv_drop ubits dbg) (hv_step ubits dbg) (@nil T) vec_spec (fits ubits dbg bits).
Proof.
  intros T ubits dbg bits Hu [Hb Hbu].
  apply (shallow_threads_ok _ _ _ _ _ (vec_depth ubits bits)) with (inv := fun _ => vec_ok ubits bits 0).
  - now apply C40_vector_non_interfering.
  - auto.
  - intros n n' _. apply le_n.
  - unfold hv_new. destruct (0 <? bits)%N; [|apply level_fail]. apply level_new. intros a. apply level_ret. split; [reflexivity|]. cbn [hv_length].
    assert (0 < 2 ^ ubits)%N by (pose proof (N.pow_nonzero 2 ubits ltac:(lia)); lia). lia.
  - intros n c H. apply (lv_hv_clone ubits bits). exact H.
  - intros n c H. apply (lv_hv_drop ubits dbg bits); try lia. exact H.
  - intros n o c H. apply (lv_hv_step ubits dbg bits); try lia. exact H.
Qed.
Print Assumptions C48_vector_drop_depth.

(** The default of 32-way nodes on a 64-bit machine: fourteen.  On an 8-bit machine without overflow checks and with
    two-way nodes the bound is nine, and a vector of 129 elements gets there. *)
Example C48_vector_default : S (N.to_nat ((64 + 5 - 1) / 5)) = 14.
Proof. reflexivity. Qed.
Example C48_vector_example :
  within (@nil nat) vec_spec (fits 8 false 1) [CNew; COp 0 (VExtend (seq 0 129)); CDrop 0] [] /\
  exists h rs xs, depth_run 0 0 [] (hclient (hv_new 1) hv_clone (hv_drop 8 false) (hv_step 8 false)
    [CNew; COp 0 (VExtend (seq 0 129)); CDrop 0] []) = Some (h, (rs, xs), 0, 9).
Proof.
  split; [vm_compute; repeat (split; [discriminate|]); exact I|]. eexists _, _, _. vm_compute. reflexivity.
Qed.

(** ** HashTrieMap and HashTrieSet: one thread

    As many as a hash has digits in base [degree], plus three: the bucket, and in it an
    element of the list and its entry.  How many keys collide does not matter. *)
Lemma digits_deep : forall ubits degree, supported ubits degree ->
  ht_depth degree = 3 + N.to_nat ((64 + N.log2 degree - 1) / N.log2 degree).
Proof.
  intros ubits degree (b & Hb & -> & Hd). unfold ht_depth. rewrite N.log2_pow2 by lia.
  assert (1 <= (64 + b - 1) / b)%N by (apply N.div_le_lower_bound; lia). lia.
Qed.

Lemma shallow_inv : forall C Coll Op Val Out d (inv : Coll -> Prop) (hnew : prog C Coll) hclone hdrop hop (vnew : Val)
    (vop : Op -> Val -> Val * Out) pre,
  persistent hnew hclone hdrop hop vnew vop pre ->
  flatq d hnew inv -> (forall c, inv c -> flatq d (hclone c) inv) -> (forall c, inv c -> flat d (hdrop c)) ->
  (forall o c, inv c -> flatq d (hop o c) (fun r => inv (fst r))) ->
  shallow d hnew hclone hdrop hop vnew vop pre.
Proof.
  intros C Coll Op Val Out d inv hnew hclone hdrop hop vnew vop pre P Fn Fc Fd Fo main W.
  destruct (P main W) as (h & rs & E).
  assert (D := depth_run_run _ (hclient hnew hclone hdrop hop main []) 0 0 []). rewrite E in D.
  destruct D as (cur & mx & D). exists h, rs, mx.
  destruct (flatq_client _ _ _ d inv hnew hclone hdrop hop Fn Fc Fd Fo main [] (Forall_nil _) _ _ _ _ _ _ _ D) as [-> L].
  split; [trivial|lia].
Qed.

Theorem C48_hash_map_drop_depth : forall (K V Q : Type) (ubits : N) (dbg : bool)
  (keq : K -> K -> bool) (borrow : K -> Q) (qeq : Q -> Q -> bool) (hash : K -> N) (qhash : Q -> N),
  (ubits <= 64)%N -> key_laws keq borrow qeq -> hash_laws borrow qeq hash qhash ->
  forall (degree : N) (fuel : nat), supported ubits degree -> 2 * digits degree < fuel ->
  shallow (3 + N.to_nat ((64 + N.log2 degree - 1) / N.log2 degree))
    (@hh_new ubits K V degree) hh_clone hh_drop (hh_step ubits dbg keq borrow qeq hash qhash fuel)
    (@nil (K * V)) (ht_call_spec keq borrow qeq) always.
Proof.
  intros K V Q ubits dbg keq borrow qeq hash qhash Hub KL HL degree fuel Hs Hf. rewrite <- (digits_deep ubits) by trivial.
  apply shallow_inv with (inv := ht_inv degree).
  - now apply C36_hash_map_persistent.
  - apply flatq_hh_new.
  - apply flatq_hh_clone.
  - apply flat_hh_drop.
  - apply flatq_hh_step.
Qed.
Print Assumptions C48_hash_map_drop_depth.

Theorem C48_hash_set_drop_depth : forall (T Q : Type) (ubits : N) (dbg : bool)
  (teq : T -> T -> bool) (borrow : T -> Q) (qeq : Q -> Q -> bool) (hash : T -> N) (qhash : Q -> N),
  (ubits <= 64)%N -> key_laws teq borrow qeq -> hash_laws borrow qeq hash qhash ->
  forall (degree : N) (fuel : nat), supported ubits degree -> 2 * digits degree < fuel ->
  shallow (3 + N.to_nat ((64 + N.log2 degree - 1) / N.log2 degree))
    (@hh_new ubits T unit degree) hh_clone hh_drop (us_step ubits dbg teq borrow qeq hash qhash fuel)
    (@nil T) (us_spec teq borrow qeq) always.
Proof.
  intros T Q ubits dbg teq borrow qeq hash qhash Hub KL HL degree fuel Hs Hf. rewrite <- (digits_deep ubits) by trivial.
  apply shallow_inv with (inv := ht_inv degree).
  - now apply C36_hash_set_persistent.
  - apply flatq_hh_new.
  - apply flatq_hh_clone.
  - apply flat_hh_drop.
  - apply flatq_us_step.
Qed.
Print Assumptions C48_hash_set_drop_depth.

(** Thirty keys with the same hash, a clone of the map with another value for the last of
    them, both dropped.  With the default degree the bound is fourteen, and it is reached. *)
Definition clash_main : list (cmd (ht_call nat nat nat)) :=
  CNew :: map (fun k => COp 0 (TOp (MInsertMut k k))) (seq 0 30) ++ [CClone 0; COp 1 (TOp (MInsertMut 29 7))].
Notation clash_step := (hh_step 64 true Nat.eqb (fun x => x) Nat.eqb (fun _ : nat => 0%N) (fun _ : nat => 0%N) 30).

Example C48_hash_example :
  3 + N.to_nat ((64 + N.log2 64 - 1) / N.log2 64) = 14 /\
  exists h rs xs, depth_run 0 0 [] (hclient (@hh_new 64 nat nat 64) hh_clone hh_drop clash_step
    (clash_main ++ [CDrop 0; CDrop 1]) []) = Some (h, (rs, xs), 0, 14) /\
  forallb (fun x => match x with None => true | Some _ => false end) h = true.
Proof. split; [reflexivity|]. eexists _, _, _. split; vm_compute; reflexivity. Qed.

(** ** HashTrieMap: several threads, refuted

    The two maps of the example, each dropped by a thread of its own.  Their buckets are two
    lists with the same tail, so they race as two lists do (C39), and there is a schedule
    after which a thread is 36 calls deep. *)
Theorem C48_sync_hash_map_drop_depth_refuted :
  exists h rs mx sched,
    depth_run 0 0 [] (hclient (@hh_new 64 nat nat 64) hh_clone hh_drop clash_step clash_main []) =
      Some (h, (rs, snd (sclient (@nil (nat * nat)) (ht_call_spec Nat.eqb (fun x => x) Nat.eqb) clash_main [])), 0, mx) /\
    depth_exec 0 sched (h, map (job_start (@hh_new 64 nat nat 64) hh_clone hh_drop clash_step rs)
      [mkJob [0] [CDrop 0]; mkJob [1] [CDrop 0]]) 0 = 36.
Proof.
  eexists _, _, _, (repeat 0 32 ++ repeat 1 200 ++ repeat 0 174). split; [vm_compute; reflexivity|]. vm_compute. reflexivity.
Qed.
Print Assumptions C48_sync_hash_map_drop_depth_refuted.
