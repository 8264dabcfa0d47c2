(** * Property C39: dropping a List does not recurse along its length

    [depth_run] and [depth_exec] (HeapDepth.v) measure how deep calls of drop
    glue nest.  The claim is proved for one thread, and refuted for lists
    shared between threads. *)
From Coq Require Import List Arith Lia Bool Permutation.
From Verif Require Import Base Spec ListModel HeapModel HeapProofs HeapSafe HeapClient HeapWorld
  HeapList HeapListBoom HeapListProofs HeapSeqProofs Prop_HeapSeq HeapDepth.
Import ListNotations.

(** ** One thread: any program, any sharing, any length

    Every program over any number of lists (made, cloned, updated, observed and
    dropped in any order) runs, and at no point of the run are there more than
    [d] calls of drop glue on the stack. *)
Definition shallow {C Coll Op Val Out : Type} (d : nat) (hnew : prog C Coll) (hclone : Coll -> prog C Coll)
    (hdrop : Coll -> prog C unit) (hop : Op -> Coll -> prog C (Coll * Out))
    (vnew : Val) (vop : Op -> Val -> Val * Out) (pre : Op -> Val -> Prop) : Prop :=
  forall main, within vnew vop pre main [] ->
  exists h rs mx,
    depth_run 0 0 [] (hclient hnew hclone hdrop hop main []) =
      Some (h, (rs, snd (sclient vnew vop main [])), 0, mx) /\ mx <= d.

Lemma shallow_ok : forall C Coll Op Val Out d (hnew : prog C Coll) hclone hdrop hop (vnew : Val)
    (vop : Op -> Val -> Val * Out) pre,
  persistent hnew hclone hdrop hop vnew vop pre ->
  flat d hnew -> (forall c, flat d (hclone c)) -> (forall c, flat d (hdrop c)) -> (forall o c, flat d (hop o c)) ->
  shallow d hnew hclone hdrop hop vnew vop pre.
Proof.
  intros C Coll Op Val Out d hnew hclone hdrop hop vnew vop pre P Fn Fc Fd Fo main W.
  destruct (P main W) as (h & rs & E).
  assert (D := depth_run_run _ (hclient hnew hclone hdrop hop main []) 0 0 []). rewrite E in D.
  destruct D as (cur & mx & D). exists h, rs, mx.
  destruct (flat_client _ _ _ d hnew hclone hdrop hop Fn Fc Fd Fo _ _ _ _ _ _ _ _ _ D) as [-> L].
  split; [trivial|lia].
Qed.

Theorem C39_list_drop_depth : forall T : Type,
  shallow 3 (Ret hl_new) hlp_clone hlp_drop hl_step (@nil T) list_spec always.
Proof.
  intros T. apply shallow_ok.
  - apply C34_list_persistent.
  - apply flat_ret.
  - intros c. eapply flat_le; [|apply flat_hlp_clone]. lia.
  - intros c. eapply flat_le; [|apply flat_hlp_drop]. lia.
  - apply flat_list.
Qed.
Print Assumptions C39_list_drop_depth.

Theorem C39_stack_drop_depth : forall T : Type,
  shallow 3 (Ret hl_new) hlp_clone hlp_drop hs_step (@nil T) stack_spec always.
Proof.
  intros T. apply shallow_ok.
  - apply C34_stack_persistent.
  - apply flat_ret.
  - intros c. eapply flat_le; [|apply flat_hlp_clone]. lia.
  - intros c. eapply flat_le; [|apply flat_hlp_drop]. lia.
  - apply flat_stack.
Qed.
Print Assumptions C39_stack_drop_depth.

Theorem C39_queue_drop_depth : forall T : Type,
  shallow 3 (Ret hq_new) hq_clone hq_drop hq_step (@nil T) queue_spec always.
Proof.
  intros T. apply shallow_ok.
  - apply C34_queue_persistent.
  - apply flat_ret.
  - apply flat_hq_clone.
  - apply flat_hq_drop.
  - apply flat_queue.
Qed.
Print Assumptions C39_queue_drop_depth.

(** Dropping is at depth one throughout: each element is freed at depth one,
    each node at depth zero. *)
Theorem C39_list_drop_one : forall (T : Type) (l : hlist) h h' cur mx,
  depth_run 0 0 h (@hlp_drop T l) = Some (h', tt, cur, mx) -> cur = 0 /\ mx <= 1.
Proof. intros T l h h' cur mx E. destruct (flat_hlp_drop l _ _ _ _ _ _ _ E). split; [trivial|lia]. Qed.
Print Assumptions C39_list_drop_one.

(** A hundred elements, shared with a list that was pushed onto, dropped; then
    the other one. *)
Example C39_example :
  exists h rs xs, depth_run 0 0 [] (hclient (Ret hl_new) hlp_clone hlp_drop hl_step
    (CNew :: map (fun i => COp 0 (LPushMut i)) (seq 0 100) ++ [CClone 0; COp 1 (LPushMut 7); CDrop 0; CDrop 1]) []) =
    Some (h, (rs, xs), 0, 1) /\ forallb (fun x => match x with None => true | Some _ => false end) h = true.
Proof. eexists _, _, _. split; vm_compute; reflexivity. Qed.

(** ** Several threads: refuted

    A list of [n + 1] elements and a clone of it, each dropped by a thread of
    its own.  There is a schedule after which the first thread is [n + 1] calls
    deep: the two [try_unwrap]s of the head node fail, the second thread drops
    its pointer, and the pointer the first thread gets back from [try_unwrap]
    is by then the last one, so dropping it drops the whole chain, by nested
    calls.  (list/mod.rs:403-421.) *)
Definition race_main {T : Type} (x : T) (n : nat) : list (cmd (list_op T)) :=
  CNew :: repeat (COp 0 (LPushMut x)) (S n) ++ [CClone 0].
Definition race_jobs {T : Type} : list (job (Op := list_op T)) := [mkJob [0] [CDrop 0]; mkJob [1] [CDrop 0]].

Section Race.
Context {T : Type} (x : T).
Notation H := (heap (lcell T)).

(** A chain of [n + 1] nodes with counts one. *)
Definition low (h : H) (n : nat) : Prop := forall i, i <= n ->
  get h (2 * i + 1) = Some (Full 1 (LN (2 * i) (match i with 0 => None | S j => Some (2 * j + 1) end))) /\
  exists m, get h (2 * i) = Some (Full (S m) (LE x)).

Lemma drop_elem : forall cur h v m f, get h v = Some (Full (S m) (LE x)) ->
  exists h', goes cur h (drop_ptr lkids (S f) v) cur h' (Ret tt) /\ forall b, b <> v -> get h' b = get h b.
Proof.
  intros cur h v m f G. destruct m as [|m].
  - exists (set h v None). split; [|intros b N; apply get_set_ne; congruence].
    eapply goes_step; [cbn [drop_ptr pstep]; rewrite G; reflexivity|]. cbn [lkids each pbind].
    eapply goes_step; [reflexivity|]. eapply goes_step; [reflexivity|]. cbn [Nat.sub].
    rewrite Nat.sub_0_r. constructor.
  - exists (set h v (Some (Full (S m) (LE x)))). split; [|intros b N; apply get_set_ne; congruence].
    eapply goes_step; [cbn [drop_ptr pstep]; rewrite G; reflexivity|]. constructor.
Qed.

Lemma dive : forall n h cur f, n < f -> low h n ->
  exists h' p', goes cur h (drop_ptr lkids f (2 * n + 1)) (cur + S n) h' p'.
Proof.
  induction n as [|n IH]; intros h cur f L W; (destruct f as [|f]; [lia|]).
  - destruct (W 0 (le_n 0)) as [G _]. cbn [Nat.mul Nat.add] in G. eexists _, _.
    eapply goes_step; [cbn [drop_ptr pstep Nat.mul Nat.add]; rewrite G; reflexivity|].
    eapply goes_step; [reflexivity|]. cbn [drop_ptr]. replace (cur + 1) with (S cur) by lia. apply goes_refl.
  - destruct (W (S n) (le_n _)) as [G (m & Gv)]. destruct f as [|f]; [lia|].
    set (h1 := set h (2 * S n + 1) None).
    destruct (drop_elem (S cur) h1 (2 * S n) m f) as (h2 & G2 & K2).
    { unfold h1. rewrite get_set_ne by lia. exact Gv. }
    destruct (IH h2 (S cur) (S f)) as (h3 & p3 & G3); [lia| |].
    { intros i Li. rewrite !K2 by lia. unfold h1. rewrite !get_set_ne by lia. apply W. lia. }
    eexists h3, _.
    eapply goes_step; [cbn [drop_ptr pstep]; rewrite G; reflexivity|].
    eapply goes_step; [reflexivity|]. change (set h (2 * S n + 1) None) with h1.
    cbn [lkids opt_list each]. replace (cur + S (S n)) with (S cur + S n) by lia.
    eapply goes_trans; [eapply goes_bind; eapply goes_bind; exact G2|].
    exact (goes_bind _ _ _ _ _ (fun _ => Leave (Ret tt)) _ _ _ (goes_bind _ _ _ _ _ (fun _ => Ret tt) _ _ _ G3)).
Qed.

Definition reg (n : nat) : hlist := mkHL (Some (2 * n + 1)) (Some 0) (S n).
Notation client := (hclient (Ret hl_new) hlp_clone hlp_drop (@hl_step T)).

Lemma get_app_l : forall (h : H) k a, a < length h -> get (h ++ k) a = get h a.
Proof. intros h k a L. unfold get. now rewrite nth_error_app1. Qed.
Lemma get_app_last : forall (h : H) c, get (h ++ [Some c]) (length h) = Some c.
Proof. intros h c. unfold get. rewrite nth_error_app2, Nat.sub_diag by lia. reflexivity. Qed.

Lemma pushes : forall k n (h : H) rest, low h n -> length h = 2 * n + 2 ->
  exists h', low h' (n + k) /\ length h' = 2 * (n + k) + 2 /\
    run h (client (repeat (COp 0 (LPushMut x)) k ++ rest) [Some (reg n)]) =
    match run h' (client rest [Some (reg (n + k))]) with
    | Some (h2, (rs, xs)) => Some (h2, (rs, repeat OUnit k ++ xs))
    | None => None
    end.
Proof.
  induction k as [|k IH]; intros n h rest W L.
  - exists h. rewrite Nat.add_0_r. splits; trivial. cbn [repeat app].
    destruct (run h (client rest [Some (reg n)])) as [[h2 [rs xs]]|]; trivial.
  - set (h1 := (h ++ [Some (Full 1 (LE x))]) ++ [Some (Full 1 (LN (length h) (Some (2 * n + 1))))]).
    assert (L1 : length h1 = 2 * S n + 2) by (unfold h1; rewrite !app_length; cbn [length]; lia).
    destruct (IH (S n) h1 rest) as (h' & W' & L' & E); trivial.
    { intros i Li. destruct (Nat.eq_dec i (S n)) as [->|N].
      - unfold h1. split.
        + replace (2 * S n + 1) with (length (h ++ [Some (Full 1 (LE x))])) by (rewrite app_length; cbn [length]; lia).
          rewrite get_app_last. rewrite L. do 3 f_equal; lia.
        + exists 0. replace (2 * S n) with (length h) by lia. rewrite get_app_l by (rewrite app_length; cbn [length]; lia).
          apply get_app_last.
      - unfold h1. rewrite !get_app_l by (rewrite ?app_length; cbn [length]; lia). apply W. lia. }
    rewrite Nat.add_succ_comm in *. exists h'. splits; trivial.
    cbn [repeat app hclient nth_error hl_step]. unfold hlp_push, hl_push, hl_push_ptr.
    cbn [pbind run reg hl_len hl_head hl_last Nat.eqb upd].
    rewrite run_pbind. fold h1.
    match goal with |- context [mkHL ?a ?b ?c] => replace (mkHL a b c) with (reg (S n)) end.
    2:{ unfold reg. rewrite app_length. cbn [length]. f_equal; [f_equal; lia|lia]. }
    unfold HeapModel.addr in *. rewrite E. destruct (run h' (client rest [Some (reg (n + S k))])) as [[h2 [rs xs]]|]; trivial.
Qed.

Lemma race_heap : forall n, exists h, length h = 2 * n + 2 /\
  (forall i, i <= n -> exists m,
     get h (2 * i + 1) = Some (Full (if i =? n then 2 else 1) (LN (2 * i) (match i with 0 => None | S j => Some (2 * j + 1) end))) /\
     get h (2 * i) = Some (Full (S m) (LE x))) /\
  run [] (client (race_main x n) []) = Some (h, ([Some (reg n); Some (reg n)], repeat OUnit (S n))).
Proof.
  intros n. set (h0 := [Some (Full 2 (LE x)); Some (Full 1 (LN 0 None))] : H).
  destruct (pushes n 0 h0 [CClone 0]) as (h' & W & L & E).
  { intros i Li. replace i with 0 by lia. cbn. eauto. }
  { reflexivity. }
  cbn [Nat.add] in W, L, E.
  destruct (W n (le_n n)) as [Gn _]. destruct (W 0 (Nat.le_0_l n)) as [_ (m0 & G0)]. cbn [Nat.mul] in G0.
  set (h1 := set h' (2 * n + 1) (Some (Full 2 (LN (2 * n) (match n with 0 => None | S j => Some (2 * j + 1) end))))).
  exists (set h1 0 (Some (Full (S (S m0)) (LE x)))). splits.
  - unfold h1. now rewrite !set_length.
  - intros i Li. destruct (W i Li) as [Gi (m & Gv)].
    exists (if i =? 0 then S m0 else m). split.
    + rewrite get_set_ne by lia. unfold h1. destruct (Nat.eqb_spec i n) as [->|N].
      * apply get_set_eq. lia.
      * rewrite get_set_ne by lia. exact Gi.
    + destruct (Nat.eqb_spec i 0) as [->|N].
      * cbn [Nat.mul]. apply get_set_eq. unfold h1. rewrite set_length. lia.
      * rewrite get_set_ne by lia. unfold h1. rewrite get_set_ne by lia. exact Gv.
  - unfold race_main. cbn [repeat app hclient nth_error hl_step pbind]. unfold hlp_push, hl_push, hl_push_ptr.
    cbn [pbind run hl_new hl_len hl_head hl_last Nat.eqb upd app length Nat.add nth_error hl_step drop_opt get set].
    rewrite run_pbind. fold h0. change (mkHL (Some 1) (Some 0) 1) with (reg 0). rewrite E.
    cbn [hclient nth_error]. unfold hlp_clone, hl_clone. cbn [clone_opt reg hl_head hl_last pbind run].
    rewrite Gn. fold h1. replace (get h1 0) with (Some (Full (S m0) (LE x))).
    2:{ unfold h1. rewrite get_set_ne by lia. symmetry. exact G0. }
    cbn [run app pbind hclient]. now rewrite app_nil_r.
Qed.
End Race.

Theorem C39_sync_drop_depth_refuted : forall (T : Type) (x : T) (n : nat),
  exists h rs,
    run [] (hclient (Ret hl_new) hlp_clone hlp_drop hl_step (race_main x n) []) =
      Some (h, (rs, snd (sclient [] list_spec (race_main x n) []))) /\
    exists sched,
      depth_exec 0 sched (h, map (job_start (Ret hl_new) hlp_clone hlp_drop hl_step rs) race_jobs) 0 = S n.
Proof.
  intros T x n. destruct (race_heap x n) as (h & L & W & E).
  exists h, [Some (reg n); Some (reg n)]. split.
  { destruct (C34_list_persistent T (race_main x n) (within_always _ _ _ _)) as (h' & rs & E').
    rewrite E in E'. assert (X : snd (sclient [] list_spec (race_main x n) []) = repeat OUnit (S n)) by congruence.
    rewrite X. exact E. }
  destruct (W n (le_n n)) as (m & Gn & Gv). rewrite Nat.eqb_refl in Gn.
  set (c := LN (2 * n) (match n with 0 => None | S j => Some (2 * j + 1) end)) in *.
  set (h1 := set h (2 * n + 1) (Some (Full 1 c))).
  destruct (dive x n h1 0 (S n + 1)) as (h2 & p2 & G); [lia| |].
  { intros i Li. destruct (W i Li) as (mi & Gi & Gvi). unfold h1. split.
    - destruct (Nat.eqb_spec i n) as [->|N].
      + apply get_set_eq. lia.
      + rewrite get_set_ne by lia. exact Gi.
    - exists mi. rewrite get_set_ne by lia. exact Gvi. }
  set (k0 := fun _ : unit => drop_opt (@lkids T) 1 (Some 0)).
  set (k1 := fun _ : unit => Ret ([None], []) : prog (lcell T) (list (option hlist) * list (obs T))).
  apply (goes_bind _ _ _ _ _ k0) in G. apply (goes_bind _ _ _ _ _ k1) in G.
  destruct (goes_exec _ _ _ _ _ _ _ G) as (k & K).
  exists (0 :: 1 :: 1 :: repeat 0 k).
  cbn [race_jobs map]. unfold job_start. cbn [job_cmds job_regs hand hclient map nth_error nth].
  unfold hlp_drop, hl_drop. cbn [reg hl_len hl_head hl_last hl_drop_loop pbind].
  cbn [depth_exec]. unfold cstep at 3. cbn [nth_error pstep]. rewrite Gn. cbn [upd].
  unfold cstep at 2. cbn [nth_error pstep]. rewrite Gn. cbn [upd].
  unfold cstep at 1. cbn [Nat.add drop_ptr nth_error pbind pstep]. rewrite Gn. cbn [upd snd Nat.eqb nth_error].
  fold h1. cbn [Nat.add] in K. apply K.
Qed.
Print Assumptions C39_sync_drop_depth_refuted.

(** ** An element that panics when it is dropped: refuted

    When the [Drop] of an element panics in the loop, the local variable [head] owns the rest
    of the chain, and unwinding drops it by nested calls.  Still nothing leaks. *)
Section Boom.
Context {T : Type} (x : T).
Notation H := (heap (lcell T)).

(** A chain of [n + 1] nodes, made by as many pushes, and nothing else. *)
Definition chain (h : H) (n : nat) : Prop :=
  (forall i, i <= n ->
    get h (2 * i + 1) = Some (Full 1 (LN (2 * i) (match i with 0 => None | S j => Some (2 * j + 1) end))) /\
    get h (2 * i) = Some (Full (if i =? 0 then 2 else 1) (LE x))) /\
  forall a, 2 * n + 2 <= a -> get h a = None.

Lemma get_set_none : forall (h : H) a, get (set h a None) a = None.
Proof.
  intros h a. destruct (Nat.lt_ge_cases a (length h)) as [L|L]; [now apply get_set_eq|].
  unfold get. rewrite (proj2 (nth_error_None _ _)); [reflexivity|]. now rewrite set_length.
Qed.

Lemma chain_less : forall h n, chain h (S n) -> chain (set (set h (2 * S n + 1) None) (2 * S n) None) n.
Proof.
  intros h n (W & N). split.
  - intros i Li. destruct (W i ltac:(lia)) as [G1 G2]. now rewrite !get_set_ne by lia.
  - intros a La. destruct (Nat.eq_dec a (2 * S n)) as [->|N1]; [apply get_set_none|].
    rewrite get_set_ne by lia. destruct (Nat.eq_dec a (2 * S n + 1)) as [->|N2]; [apply get_set_none|].
    rewrite get_set_ne by lia. apply N. lia.
Qed.

(** What is left when only the pointer of [last] is: one element. *)
Definition one_elem (h : H) : Prop := get h 0 = Some (Full 1 (LE x)) /\ forall a, a <> 0 -> get h a = None.

Ltac tup := apply f_equal; apply f_equal2; [apply f_equal2; [reflexivity|lia]|lia].

Lemma glue_chain : forall n h cur mx f, S n < f -> chain h n -> exists h',
  depth_run cur mx h (drop_ptr lkids f (2 * n + 1)) = Some (h', tt, cur, Nat.max mx (cur + S n)) /\ one_elem h'.
Proof.
  induction n as [|n IH]; intros h cur mx f L W; (destruct f as [|[|f]]; [lia|lia|]).
  - destruct W as (W & N). destruct (W 0 (le_n 0)) as [G1 G0]. cbn [Nat.mul Nat.add Nat.eqb] in *.
    set (h1 := set h 1 None). assert (G0' : get h1 0 = Some (Full 2 (LE x))) by (unfold h1; now rewrite get_set_ne).
    exists (set h1 0 (Some (Full 1 (LE x)))). split.
    + cbn [drop_ptr depth_run]. rewrite G1. fold h1. cbn [lkids opt_list each pbind depth_run drop_ptr]. rewrite G0'.
      cbn [pbind depth_run]. tup.
    + split.
      * apply get_set_eq. unfold h1. rewrite set_length. unfold get in G0. destruct h; [discriminate|cbn; lia].
      * intros a Na. rewrite get_set_ne by lia. unfold h1. destruct (Nat.eq_dec a 1) as [->|N1]; [apply get_set_none|].
        rewrite get_set_ne by lia. apply N. lia.
  - pose proof (chain_less h n W) as W'. destruct W as (W & _). destruct (W (S n) (le_n _)) as [G1 G0].
    cbn [Nat.eqb] in G0. set (h1 := set h (2 * S n + 1) None) in *. set (h2 := set h1 (2 * S n) None) in *.
    assert (G0' : get h1 (2 * S n) = Some (Full 1 (LE x))) by (unfold h1; rewrite get_set_ne by lia; exact G0).
    destruct (IH h2 (S cur) (Nat.max (Nat.max mx (S cur)) (S (S cur))) (S f) ltac:(lia) W') as (h' & E & HO).
    exists h'. split; [|exact HO].
    remember (S f) as f1 eqn:Ef.
    cbn [drop_ptr depth_run]. rewrite G1. fold h1. cbn [depth_run].
    cbn [lkids opt_list each]. rewrite depth_run_bind, depth_run_bind.
    assert (E1 : depth_run (S cur) (Nat.max mx (S cur)) h1 (drop_ptr lkids f1 (2 * S n)) =
      Some (h2, tt, S cur, Nat.max (Nat.max mx (S cur)) (S (S cur)))).
    { subst f1. cbn [drop_ptr depth_run]. rewrite G0'. fold h2. cbn [lkids each pbind depth_run]. tup. }
    rewrite E1, depth_run_bind, E. cbn [depth_run]. tup.
Qed.

Lemma boom_loop : forall j n h mx f fd, j < n -> n < f -> n < fd -> chain h n -> exists h' mx',
  depth_run 0 mx h (hl_boom_loop j f fd (Some (2 * n + 1))) = Some (h', tt, 0, mx') /\ n - j <= mx' /\ one_elem h'.
Proof.
  induction j as [|j IH]; intros n h mx f fd Hj Hf Hd W; (destruct n as [|n]; [lia|]); (destruct f as [|f]; [lia|]);
    pose proof (chain_less h n W) as W'; destruct W as (W & _); destruct (W (S n) (le_n _)) as [G1 G0]; cbn [Nat.eqb] in G0;
    set (h1 := set h (2 * S n + 1) None) in *; set (h2 := set h1 (2 * S n) None) in *;
    assert (G0' : get h1 (2 * S n) = Some (Full 1 (LE x))) by (unfold h1; rewrite get_set_ne by lia; exact G0);
    cbn [hl_boom_loop]; cbn [depth_run]; rewrite G1; fold h1; cbn [l_isN]; cbn [depth_run]; rewrite G0'; fold h2;
    cbn [depth_run].
  - cbn [drop_opt]. destruct (glue_chain n h2 (1 - 1) (Nat.max mx 1) fd ltac:(lia) W') as (h' & E & HO).
    rewrite E. eexists _, _. split; [reflexivity|]. split; [lia|exact HO].
  - destruct (IH n h2 (Nat.max mx 1) f fd ltac:(lia) ltac:(lia) ltac:(lia) W') as (h' & mx' & E & L & HO).
    exists h', mx'. split; [exact E|]. split; [lia|exact HO].
Qed.

Lemma chain_pushes : forall k n (h : H), chain h n -> length h = 2 * n + 2 -> exists h', chain h' (n + k) /\
    run h (hclient (Ret hl_new) hlp_clone hlp_drop hl_step (repeat (COp 0 (LPushMut x)) k) [Some (reg n)]) =
      Some (h', ([Some (reg (n + k))], repeat OUnit k)).
Proof.
  induction k as [|k IH]; intros n h (W & N) L.
  - exists h. rewrite Nat.add_0_r. split; [now split|]. reflexivity.
  - set (h1 := (h ++ [Some (Full 1 (LE x))]) ++ [Some (Full 1 (LN (length h) (Some (2 * n + 1))))]).
    assert (L1 : length h1 = 2 * S n + 2) by (unfold h1; rewrite !app_length; cbn [length]; lia).
    destruct (IH (S n) h1) as (h' & W' & E); trivial.
    { split.
      - intros i Li. destruct (Nat.eq_dec i (S n)) as [->|Ni].
        + unfold h1. split.
          * replace (2 * S n + 1) with (length (h ++ [Some (Full 1 (LE x))])) by (rewrite app_length; cbn [length]; lia).
            rewrite get_app_last. rewrite L. do 3 f_equal; lia.
          * replace (2 * S n) with (length h) by lia. rewrite get_app_l by (rewrite app_length; cbn [length]; lia).
            apply get_app_last.
        + unfold h1. rewrite !get_app_l by (rewrite ?app_length; cbn [length]; lia). apply W. lia.
      - intros a La. unfold get. rewrite (proj2 (nth_error_None _ _)); [reflexivity|lia]. }
    rewrite Nat.add_succ_comm in *. exists h'. split; [exact W'|].
    cbn [repeat hclient nth_error hl_step]. unfold hlp_push, hl_push, hl_push_ptr.
    cbn [pbind run reg hl_len hl_head hl_last Nat.eqb upd].
    rewrite run_pbind. fold h1.
    match goal with |- context [mkHL ?a ?b ?c] => replace (mkHL a b c) with (reg (S n)) end.
    2:{ unfold reg. rewrite app_length. cbn [length]. f_equal; [f_equal; lia|lia]. }
    unfold HeapModel.addr in *. rewrite E. reflexivity.
Qed.
End Boom.

Theorem C39_panicking_drop_depth_refuted : forall (T : Type) (x : T) (n j : nat), j < n ->
  exists h l, run [] (hclient (Ret hl_new) hlp_clone hlp_drop hl_step (CNew :: repeat (COp 0 (LPushMut x)) (S n)) []) =
      Some (h, ([Some l], repeat OUnit (S n))) /\
    exists h' mx, depth_run 0 0 h (hlp_drop_boom j l) = Some (h', tt, 0, mx) /\ n - j <= mx /\
      forall a, get h' a = None.
Proof.
  intros T x n j Hj. set (h0 := [Some (Full 2 (LE x)); Some (Full 1 (LN 0 None))] : heap (lcell T)).
  destruct (chain_pushes x n 0 h0) as (h & W & E).
  { split.
    - intros i Li. replace i with 0 by lia. cbn. auto.
    - intros a La. unfold get. rewrite (proj2 (nth_error_None _ _)); [reflexivity|cbn; lia]. }
  { reflexivity. }
  cbn [Nat.add] in W, E. exists h, (reg n). split.
  { cbn [repeat hclient nth_error hl_step pbind]. unfold hlp_push, hl_push, hl_push_ptr.
    cbn [pbind run hl_new hl_len hl_head hl_last Nat.eqb upd app length Nat.add nth_error hl_step drop_opt get set].
    rewrite run_pbind. fold h0. change (mkHL (Some 1) (Some 0) 1) with (reg 0). rewrite E. reflexivity. }
  destruct (boom_loop x j n h 0 (S n) (S n + 1) Hj ltac:(lia) ltac:(lia) W) as (h' & mx & E' & L & G & N).
  unfold hlp_drop_boom. cbn [reg hl_len hl_head hl_last]. rewrite depth_run_bind, E'. cbn [drop_opt drop_ptr depth_run].
  rewrite G. cbn [lkids each pbind depth_run]. eexists _, _. split; [reflexivity|]. split; [lia|].
  intros a. destruct (Nat.eq_dec a 0) as [->|Na]; [apply get_set_none|]. rewrite get_set_ne by lia. now apply N.
Qed.
Print Assumptions C39_panicking_drop_depth_refuted.

(** A hundred elements, the third of which panics when it is dropped. *)
Example C39_panicking_drop_example :
  match run [] (hclient (Ret hl_new) hlp_clone hlp_drop hl_step (CNew :: repeat (COp 0 (LPushMut 7)) 100) []) with
  | Some (h, ([Some l], _)) =>
      match depth_run 0 0 h (hlp_drop_boom 2 l) with
      | Some (_, _, cur, mx) => (cur, mx) = (0, 97)
      | None => False
      end
  | _ => False
  end.
Proof. vm_compute. reflexivity. Qed.
