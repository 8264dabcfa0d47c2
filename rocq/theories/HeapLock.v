(** * Versions behind locks

    Generic over the collection.  Threads keep versions in registers of their own and share
    some versions each behind a lock ([Mutex<ListSync<T>>] and so on: the [..Sync] aliases,
    list/mod.rs:135, queue/mod.rs:105, stack/mod.rs:98, vector/mod.rs:104,
    hash_trie_map/mod.rs:127, red_black_tree_map/mod.rs:111 and the sets).  A thread
    - works on its own registers ([Mine]);
    - takes a lock and works on the version behind it, its register 0, and its own registers
      ([Locked]): [Locked k [CClone 0]] takes a snapshot, [Locked k [COp 0 o]] updates in place;
    - exchanges the version behind a lock with one of its registers ([Swap], [mem::swap] on the
      guard): publishing a new version, or handing a version to another thread.
    The versions behind the locks and in the registers of all threads may share nodes, and nothing
    but the lock on one version keeps their steps apart.

    Modelled: the steps of the heap programs (HeapModel.v), interleaved at will; a thread at a
    taken lock waits.  Not modelled: several locks held at once (a matter of the locks and not of
    the collections), poisoning. *)
From Coq Require Import List Arith Lia Bool Permutation.
From Verif Require Import Base Spec PermSolve HeapModel HeapProofs HeapSafe HeapClient HeapWorld HeapIterWorld.
Import ListNotations.
Local Open Scope prog_scope.

Inductive lcmd (Op : Type) := Mine (c : cmd Op) | Locked (k : nat) (l : list (cmd Op)) | Swap (k i : nat).
Arguments Mine {Op} c. Arguments Locked {Op} k l. Arguments Swap {Op} k i.

(** ** The specification: each command at once, each version a value of its own *)
Section Spec.
Context {Val Op Out : Type} (vnew : Val) (vop : Op -> Val -> Val * Out) (pre : Op -> Val -> Prop).

Record vthread := mkVT { vt_todo : list (lcmd Op); vt_outs : list Out; vt_regs : list (option Val) }.

(** One whole command of thread [i]; [vl] are the values behind the locks. *)
Definition vstep (i : nat) (st : list Val * list vthread) : list Val * list vthread :=
  let (vl, ts) := st in
  match nth_error ts i with
  | None => st
  | Some t =>
      match vt_todo t with
      | [] => st
      | Mine c :: rest =>
          let (rs, xs) := sclient vnew vop [c] (vt_regs t) in
          (vl, upd ts i (mkVT rest (vt_outs t ++ xs) rs))
      | Locked k l :: rest =>
          match nth_error vl k with
          | None => (vl, upd ts i (mkVT rest (vt_outs t) (vt_regs t)))
          | Some v =>
              let (rs, xs) := sclient vnew vop l (Some v :: vt_regs t) in
              (upd vl k (match hd None rs with Some v' => v' | None => v end),
               upd ts i (mkVT rest (vt_outs t ++ xs) (tl rs)))
          end
      | Swap k j :: rest =>
          match nth_error vl k, nth_error (vt_regs t) j with
          | Some v, Some (Some w) => (upd vl k w, upd ts i (mkVT rest (vt_outs t) (upd (vt_regs t) j (Some v))))
          | _, _ => (vl, upd ts i (mkVT rest (vt_outs t) (vt_regs t)))
          end
      end
  end.

Fixpoint vexec (order : list nat) (st : list Val * list vthread) : list Val * list vthread :=
  match order with [] => st | i :: order' => vexec order' (vstep i st) end.

(** The next command of a thread meets the preconditions of its calls and does not drop the
    version behind the lock (there is nothing to put back then). *)
Definition next_ok (vl : list Val) (t : vthread) : Prop :=
  match vt_todo t with
  | Mine c :: _ => within vnew vop pre [c] (vt_regs t)
  | Locked k l :: _ =>
      ~ In (CDrop 0) l /\
      match nth_error vl k with Some v => within vnew vop pre l (Some v :: vt_regs t) | None => True end
  | _ => True
  end.

Lemma vexec_app : forall s1 s2 st, vexec (s1 ++ s2) st = vexec s2 (vexec s1 st).
Proof. induction s1; intros; cbn; auto. Qed.

Lemma sclient_keeps : forall l v rs, ~ In (CDrop 0) l ->
  exists v', hd None (fst (sclient vnew vop l (Some v :: rs))) = Some v'.
Proof.
  induction l as [|x l IH]; intros v rs N; cbn [sclient fst].
  - exists v. reflexivity.
  - assert (N' : ~ In (CDrop 0) l) by (intros I; apply N; now right). destruct x as [|i|i o|i].
    + exact (IH v (rs ++ [Some vnew]) N').
    + destruct (nth_error (Some v :: rs) i) as [[w|]|]; exact (IH v _ N').
    + destruct (nth_error (Some v :: rs) i) as [[w|]|]; [|exact (IH v _ N')..].
      destruct (vop o w) as [w' x]. destruct i as [|i]; cbn [upd].
      * destruct (IH w' rs N') as (v' & E). destruct (sclient vnew vop l (Some w' :: rs)). eauto.
      * destruct (IH v (upd rs i (Some w')) N') as (v' & E). destruct (sclient vnew vop l (Some v :: upd rs i (Some w'))). eauto.
    + destruct (nth_error (Some v :: rs) i) as [[w|]|]; [|exact (IH v _ N')..].
      destruct i as [|i]; [exfalso; apply N; now left|]. cbn [upd]. exact (IH v _ N').
Qed.
End Spec.
Arguments vthread Val Op Out : clear implicits.

Section Lock.
Context {C : Type} (kids : C -> list addr).
Context {Coll Val Op Out : Type}.
Context (hnew : prog C Coll) (hclone : Coll -> prog C Coll) (hdrop : Coll -> prog C unit)
        (hop : Op -> Coll -> prog C (Coll * Out)).
Context (roots : Coll -> list addr).
Notation own := (@own C).
Context (rep : Coll -> Val -> list own -> Prop).
Context (vnew : Val) (vop : Op -> Val -> Val * Out) (pre : Op -> Val -> Prop)
        (ncost : nat) (cost : Op -> Val -> nat).
Notation regs := (list (option Coll)).
Notation hclient := (hclient hnew hclone hdrop hop).

(** ** The machine *)

(** A lock: free, with the version behind it, or taken by a thread, which has the version. *)
Inductive slot := Free (c : Coll) | Taken (i : nat).

(** A thread between two commands, in one of its own, or inside lock [k]. *)
Inductive phase :=
| Idle (rs : regs)
| Alone (p : prog C (regs * list Out))
| Inside (k : nat) (p : prog C (regs * list Out)).

Record lthread := mkLT { lt_todo : list (lcmd Op); lt_outs : list Out; lt_phase : phase }.

(** The log: which thread began a command - with a lock: got it -, in the order this happened. *)
Record lstate := mkLS { ls_heap : heap C; ls_slots : list slot; ls_threads : list lthread; ls_log : list nat }.

Definition put (st : lstate) (i : nat) (t : lthread) : lstate :=
  mkLS (ls_heap st) (ls_slots st) (upd (ls_threads st) i t) (ls_log st).
Definition logged (st : lstate) (i : nat) : lstate :=
  mkLS (ls_heap st) (ls_slots st) (ls_threads st) (ls_log st ++ [i]).
Definition with_slot (st : lstate) (k : nat) (s : slot) : lstate :=
  mkLS (ls_heap st) (upd (ls_slots st) k s) (ls_threads st) (ls_log st).
Definition with_heap (st : lstate) (h : heap C) : lstate :=
  mkLS h (ls_slots st) (ls_threads st) (ls_log st).

(** Thread [i] makes one step, if it can. *)
Definition lstep (i : nat) (st : lstate) : lstate :=
  match nth_error (ls_threads st) i with
  | None => st
  | Some (mkLT todo outs ph) =>
      match ph with
      | Idle rs =>
          match todo with
          | [] => st
          | Mine c :: rest => put (logged st i) i (mkLT rest outs (Alone (hclient [c] rs)))
          | Locked k l :: rest =>
              match nth_error (ls_slots st) k with
              | None => put (logged st i) i (mkLT rest outs (Idle rs))
              | Some (Free c) =>
                  put (with_slot (logged st i) k (Taken i)) i (mkLT rest outs (Inside k (hclient l (Some c :: rs))))
              | Some (Taken _) => st
              end
          | Swap k j :: rest =>
              match nth_error (ls_slots st) k with
              | None => put (logged st i) i (mkLT rest outs (Idle rs))
              | Some (Free c) =>
                  match nth_error rs j with
                  | Some (Some c') =>
                      put (with_slot (logged st i) k (Free c')) i (mkLT rest outs (Idle (upd rs j (Some c))))
                  | _ => put (logged st i) i (mkLT rest outs (Idle rs))
                  end
              | Some (Taken _) => st
              end
          end
      | Alone (Ret (rs, xs)) => put st i (mkLT todo (outs ++ xs) (Idle rs))
      | Alone p =>
          match pstep (ls_heap st) p with
          | Stop _ => st
          | Crash => put st i (mkLT todo outs (Alone Fail))
          | Step h p' => put (with_heap st h) i (mkLT todo outs (Alone p'))
          end
      | Inside k (Ret (rs, xs)) =>
          match hd None rs with
          | Some c => put (with_slot st k (Free c)) i (mkLT todo (outs ++ xs) (Idle (tl rs)))
          | None => put st i (mkLT todo outs (Inside k Fail)) (* the version was dropped *)
          end
      | Inside k p =>
          match pstep (ls_heap st) p with
          | Stop _ => st
          | Crash => put st i (mkLT todo outs (Inside k Fail))
          | Step h p' => put (with_heap st h) i (mkLT todo outs (Inside k p'))
          end
      end
  end.

Fixpoint lexec (sched : list nat) (st : lstate) : lstate :=
  match sched with [] => st | i :: sched' => lexec sched' (lstep i st) end.

Definition crashed (t : lthread) : Prop :=
  match lt_phase t with Alone Fail | Inside _ Fail => True | _ => False end.
Definition done (t : lthread) : Prop :=
  lt_todo t = [] /\ exists rs, lt_phase t = Idle rs.
Definition thread_roots (t : lthread) : list addr :=
  match lt_phase t with Idle rs => reg_roots roots rs | _ => [] end.

(** ** The property

    A main thread runs any program; the registers [slots] go behind locks, the others to the
    threads, each with a list of commands.  For every schedule, in every state reached:
    - no thread has crashed, and every thread can still finish: there is no deadlock;
    - the counts are exact;
    - let every command be executed at once, with all versions values, in the order in which the
      commands were begun (the locks taken): a thread between two commands has exactly these
      outputs left behind and these commands to do, and whatever program looks at its versions
      sees exactly these values;
    - behind a free lock is a version with exactly this value, whatever program looks at it;
    - if all have finished, all locks are free and the main thread goes on with the versions
      behind them as with these values. *)
Definition lstart (h : heap C) (rs : regs) (slots : list nat) (jobs : list (list nat * list (lcmd Op))) : lstate :=
  mkLS h (flat_map (fun k => match nth k rs None with Some c => [Free c] | None => [] end) slots)
       (map (fun j => mkLT (snd j) [] (Idle (hand rs (fst j)))) jobs) [].
Definition vstart (vs : list (option Val)) (slots : list nat) (jobs : list (list nat * list (lcmd Op))) :
  list Val * list (vthread Val Op Out) :=
  (flat_map (fun k => match nth k vs None with Some v => [v] | None => [] end) slots,
   map (fun j => mkVT (snd j) [] (hand vs (fst j))) jobs).

Definition guarded : Prop := forall main (slots : list nat) (jobs : list (list nat * list (lcmd Op))),
  within vnew vop pre main [] ->
  let vs := fst (sclient vnew vop main []) in
  Permutation (slots ++ concat (map fst jobs)) (seq 0 (length vs)) ->
  (forall order, let vst := vexec vnew vop order (vstart vs slots jobs) in
     Forall (next_ok vnew vop pre (fst vst)) (snd vst)) ->
  exists h rs,
    run [] (hclient main []) = Some (h, (rs, snd (sclient vnew vop main []))) /\
    forall sched,
      let st := lexec sched (lstart h rs slots jobs) in
      let vst := vexec vnew vop (ls_log st) (vstart vs slots jobs) in
      (forall t, In t (ls_threads st) -> ~ crashed t) /\
      (exists sched', Forall done (ls_threads (lexec sched' st))) /\
      (exists held, exact_point kids (ls_heap st) held) /\
      (forall i t rs', nth_error (ls_threads st) i = Some t -> lt_phase t = Idle rs' ->
         exists vt, nth_error (snd vst) i = Some vt /\ lt_todo t = vt_todo vt /\ lt_outs t = vt_outs vt /\
           forall l, within vnew vop pre l (vt_regs vt) ->
             exists h' rs2, run (ls_heap st) (hclient l rs') = Some (h', (rs2, snd (sclient vnew vop l (vt_regs vt))))) /\
      (forall k c, nth_error (ls_slots st) k = Some (Free c) ->
         exists v, nth_error (fst vst) k = Some v /\
           forall l, within vnew vop pre l [Some v] ->
             exists h' rs2, run (ls_heap st) (hclient l [Some c]) = Some (h', (rs2, snd (sclient vnew vop l [Some v])))) /\
      (Forall done (ls_threads st) ->
         exists cs, ls_slots st = map Free cs /\
           exact_heap kids (ls_heap st) (flat_map thread_roots (ls_threads st) ++ flat_map roots cs) /\
           forall l, within vnew vop pre l (map Some (fst vst)) ->
             exists h' rs', run (ls_heap st) (hclient l (map Some cs)) =
               Some (h', (rs', snd (sclient vnew vop l (map Some (fst vst)))))).

(** ** Correctness, from that of each call *)
Hypothesis new_ok : safe kids ncost hnew [] (fun c G => rep c vnew G).
Hypothesis clone_ok : forall c v G, rep c v G ->
  safe kids 0 (hclone c) G (fun c' G' => exists G1 G2, G' = G1 ++ G2 /\ rep c v G1 /\ rep c' v G2).
Hypothesis drop_ok : forall c v G, rep c v G -> safe kids 0 (hdrop c) G (fun _ G' => G' = []).
Hypothesis op_ok : forall o c v G, rep c v G -> pre o v ->
  safe kids (cost o v) (hop o c) G
    (fun r G' => snd r = snd (vop o v) /\ rep (fst r) (fst (vop o v)) G').
Hypothesis rep_roots : forall c v G, rep c v G -> exists ts, G = map Tree ts /\ roots c = map pa ts.
Notation reps := (reps rep).

Lemma client_ok : forall l cs vs G, reps cs vs G -> within vnew vop pre l vs ->
  exists n, safe kids n (hclient l cs) G
    (fun r G' => snd r = snd (sclient vnew vop l vs) /\ reps (fst r) (fst (sclient vnew vop l vs)) G').
Proof.
  intros l cs vs G R W. eexists.
  exact (client_safe kids hnew hclone hdrop hop rep vnew vop pre ncost cost new_ok clone_ok drop_ok op_ok l cs vs G R W).
Qed.

(** What a thread owns, against the thread of the specification, in which the command that has
    begun is done. *)
Definition trel (i : nat) (ss : list slot) (vl : list Val) (t : lthread) (vt : vthread Val Op Out) (G : list own) : Prop :=
  lt_todo t = vt_todo vt /\
  match lt_phase t with
  | Idle rs => lt_outs t = vt_outs vt /\ reps rs (vt_regs vt) G
  | Alone p => exists n, safe kids n p G (fun r G' => lt_outs t ++ snd r = vt_outs vt /\ reps (fst r) (vt_regs vt) G')
  | Inside k p =>
      nth_error ss k = Some (Taken i) /\ exists v, nth_error vl k = Some v /\
      exists n, safe kids n p G (fun r G' => lt_outs t ++ snd r = vt_outs vt /\ reps (fst r) (Some v :: vt_regs vt) G')
  end.

(** A free lock owns the version behind it; a taken one is taken by a thread inside it. *)
Definition srel (ts : list lthread) (k : nat) (s : slot) (v : Val) (G : list own) : Prop :=
  match s with
  | Free c => rep c v G
  | Taken i => G = [] /\ exists t p, nth_error ts i = Some t /\ lt_phase t = Inside k p
  end.

Definition linv (st : lstate) (vst : list Val * list (vthread Val Op Out)) : Prop :=
  exists Gs Ls,
    length Gs = length (ls_threads st) /\ length (snd vst) = length (ls_threads st) /\
    length Ls = length (ls_slots st) /\ length (fst vst) = length (ls_slots st) /\
    WF kids (ls_heap st) (concat Gs ++ concat Ls) /\
    (forall i t, nth_error (ls_threads st) i = Some t ->
       exists vt, nth_error (snd vst) i = Some vt /\ trel i (ls_slots st) (fst vst) t vt (nth i Gs [])) /\
    (forall k s, nth_error (ls_slots st) k = Some s ->
       exists v, nth_error (fst vst) k = Some v /\ srel (ls_threads st) k s v (nth k Ls [])).

Lemma trel_frame : forall i ss vl ss' vl' t vt G, trel i ss vl t vt G ->
  (forall k, nth_error ss k = Some (Taken i) -> nth_error ss' k = Some (Taken i) /\ nth_error vl' k = nth_error vl k) ->
  trel i ss' vl' t vt G.
Proof.
  intros i ss vl ss' vl' t vt G (E & T) Fr. split; [exact E|]. destruct (lt_phase t) as [rs|p|k p]; trivial.
  destruct T as (Ek & v & Ev & T). destruct (Fr k Ek) as (Ek' & Ev'). split; [exact Ek'|]. exists v. split; [congruence|exact T].
Qed.

Lemma nth_upd_eq : forall {X} (l : list X) i x d, i < length l -> nth i (upd l i x) d = x.
Proof. intros X l. induction l as [|y l IH]; intros [|i] x d L; cbn in *; try lia; trivial. apply IH. lia. Qed.
Lemma nth_upd_other : forall {X} (l : list X) i j x d, i <> j -> nth j (upd l i x) d = nth j l d.
Proof. intros X l. induction l as [|y l IH]; intros [|i] [|j] x d N; cbn; trivial; try congruence. apply IH. congruence. Qed.

(** Thread [i] steps: what has to be shown of it and of the lock it uses, if any. *)
Lemma linv_put : forall st vst Gs h ss vl vts log i t t' vt' G' Ls',
  length Gs = length (ls_threads st) -> length (snd vst) = length (ls_threads st) ->
  length Ls' = length ss -> length vl = length ss ->
  (forall j u, nth_error (ls_threads st) j = Some u ->
     exists vt, nth_error (snd vst) j = Some vt /\ trel j (ls_slots st) (fst vst) u vt (nth j Gs [])) ->
  nth_error (ls_threads st) i = Some t ->
  WF kids h (G' ++ concat (upd Gs i []) ++ concat Ls') ->
  vts = upd (snd vst) i vt' ->
  trel i ss vl t' vt' G' ->
  (forall j k, j <> i -> nth_error (ls_slots st) k = Some (Taken j) ->
     nth_error ss k = Some (Taken j) /\ nth_error vl k = nth_error (fst vst) k) ->
  (forall k s, nth_error ss k = Some s ->
     exists v, nth_error vl k = Some v /\ srel (upd (ls_threads st) i t') k s v (nth k Ls' [])) ->
  linv (mkLS h ss (upd (ls_threads st) i t') log) (vl, vts).
Proof.
  intros st vst Gs h ss vl vts log i t t' vt' G' Ls' L1 L2 L3 L4 T Ei W -> Ti Fr S.
  assert (Li := nth_error_lt _ _ _ Ei).
  exists (upd Gs i G'), Ls'. cbn [ls_threads ls_slots ls_heap fst snd]. rewrite !length_upd. splits; trivial.
  - eapply WF_perm; [|exact W]. rewrite app_assoc. apply Permutation_app_tail. apply Permutation_sym, concat_upd. lia.
  - intros j u Ej. destruct (Nat.eq_dec i j) as [<-|N].
    + rewrite (nth_upd _ _ _ _ Ei) in Ej. injection Ej as <-. exists vt'.
      destruct (nth_error (snd vst) i) eqn:E; [|apply nth_error_None in E; lia].
      rewrite (nth_upd _ _ _ _ E), nth_upd_eq by lia. auto.
    + rewrite nth_upd_ne in Ej by trivial. destruct (T j u Ej) as (vt & Ev & Tj).
      exists vt. rewrite nth_upd_ne, nth_upd_other by trivial. split; [trivial|].
      eapply trel_frame; [exact Tj|]. intros k Ek. apply Fr; auto.
Qed.

(** The locks that thread [i] does not touch. *)
Lemma srel_put : forall ts i t t' k s v G, nth_error ts i = Some t -> srel ts k s v G ->
  (forall p, lt_phase t = Inside k p -> s = Taken i -> exists p', lt_phase t' = Inside k p') ->
  srel (upd ts i t') k s v G.
Proof.
  intros ts i t t' k [c|j] v G Ei S Hp; cbn [srel] in *; trivial.
  destruct S as (-> & u & p & Ej & Ep). split; [trivial|]. destruct (Nat.eq_dec i j) as [<-|N].
  - assert (u = t) by congruence. subst u. destruct (Hp p Ep eq_refl) as (p' & Ep'). exists t', p'.
    split; [eapply nth_upd; eauto|trivial].
  - exists u, p. rewrite nth_upd_ne by trivial. auto.
Qed.

Lemma hd_tl : forall {X} (l : list (option X)) x, hd None l = Some x -> l = Some x :: tl l.
Proof. intros X [|y l] x E; cbn in *; congruence. Qed.

Lemma reps_head : forall cs v vs G, reps cs (Some v :: vs) G ->
  exists c G1 G2, hd None cs = Some c /\ rep c v G1 /\ reps (tl cs) vs G2 /\ G = G1 ++ G2.
Proof. intros cs v vs G R. inversion R; subst. cbn. eauto 8. Qed.

(** A step of a heap program. *)
Lemma safe_go : forall (p : prog C (regs * list Out)) n G F Q h, safe kids n p G Q -> WF kids h (G ++ F) ->
  (exists x, p = Ret x) \/
  exists h' p' n' G', pstep h p = Step h' p' /\ safe kids n' p' G' Q /\ WF kids h' (G' ++ F).
Proof.
  intros p n G F Q h S W. assert (X := safe_step kids p n G F Q h S W).
  destruct (pstep h p) as [x| |h' p'] eqn:E.
  - left. exists x. destruct p; cbn in E; repeat match type of E with context [match ?y with _ => _ end] => destruct y end;
      try discriminate; congruence.
  - contradiction.
  - right. destruct X as (n' & G' & S' & W' & _). eauto 10.
Qed.

Theorem linv_step : forall st vst i, linv st vst -> Forall (next_ok vnew vop pre (fst vst)) (snd vst) ->
  (linv (lstep i st) vst /\ ls_log (lstep i st) = ls_log st) \/
  (linv (lstep i st) (vstep vnew vop i vst) /\ ls_log (lstep i st) = ls_log st ++ [i]).
Proof.
  intros st [vl vts] i I Ok. assert (I' := I). destruct I' as (Gs & Ls & L1 & L2 & L3 & L4 & W & T & S).
  cbn [fst snd] in *. unfold lstep. destruct (nth_error (ls_threads st) i) as [[todo outs ph]|] eqn:Ei; [|left; auto].
  assert (Li := nth_error_lt _ _ _ Ei).
  destruct (T i _ Ei) as (vt & Ev & Et & Tp). cbn [lt_todo lt_phase lt_outs] in *.
  assert (Okt : next_ok vnew vop pre vl vt) by (rewrite Forall_forall in Ok; exact (Ok vt (nth_error_In _ _ Ev))).
  assert (Uvt : forall x, nth_error vts i = Some x -> upd vts i x = vts) by (intros x Ex; now apply upd_same).
  assert (Wi : WF kids (ls_heap st) (nth i Gs [] ++ concat (upd Gs i []) ++ concat Ls)).
  { eapply WF_perm; [|exact W]. rewrite app_assoc. apply Permutation_app_tail, concat_take. lia. }
  destruct ph as [rs|p|k p].
  - (* between two commands *)
    destruct Tp as (Eo & R). destruct todo as [|[c|k l|k j] rest]; [left; auto|..].
    + (* Mine *)
      right. unfold vstep. rewrite Ev, <- Et. unfold next_ok in Okt. rewrite <- Et in Okt.
      destruct (client_ok [c] rs (vt_regs vt) _ R Okt) as (n & Sa).
      destruct (sclient vnew vop [c] (vt_regs vt)) as [vrs xs] eqn:Es. cbn [fst snd] in Sa.
      split; [|reflexivity].
      unfold put, logged. cbn [ls_heap ls_slots ls_threads ls_log].
      eapply (linv_put st (vl, vts) Gs _ _ _ _ _ i _ _ _ (nth i Gs []) Ls); cbn [fst snd]; try eassumption; trivial.
      * split; [reflexivity|]. cbn [lt_phase lt_outs vt_outs vt_regs]. exists n.
        eapply safe_mono; [apply le_n| |exact Sa]. cbn beta. intros r G' (-> & R'). rewrite Eo. auto.
      * intros j k _ E. auto.
      * intros k s Ek. destruct (S k s Ek) as (v & Evk & Sk). exists v. split; [trivial|].
        eapply srel_put; [exact Ei|exact Sk|]. cbn. discriminate.
    + (* Locked *)
      destruct (nth_error (ls_slots st) k) as [[c|j]|] eqn:Ek; [|left; auto|].
      * (* free *)
        right. destruct (S k _ Ek) as (v & Evk & Sk). cbn [srel] in Sk.
        unfold vstep. rewrite Ev, <- Et, Evk. unfold next_ok in Okt. rewrite <- Et in Okt. destruct Okt as (Nd & Wn).
        rewrite Evk in Wn.
        assert (R2 : reps (Some c :: rs) (Some v :: vt_regs vt) (nth k Ls [] ++ nth i Gs [])) by now constructor.
        destruct (client_ok l (Some c :: rs) (Some v :: vt_regs vt) _ R2 Wn) as (n & Sa).
        destruct (sclient_keeps vnew vop l v (vt_regs vt) Nd) as (v' & Hd).
        destruct (sclient vnew vop l (Some v :: vt_regs vt)) as [vrs xs] eqn:Es. cbn [fst snd] in Sa, Hd.
        split; [|reflexivity]. rewrite Hd.
        assert (Lk := nth_error_lt _ _ _ Ek).
        unfold put, logged, with_slot. cbn [ls_heap ls_slots ls_threads ls_log].
        eapply (linv_put st (vl, vts) Gs _ _ _ _ _ i _ _ _ (nth k Ls [] ++ nth i Gs []) (upd Ls k [])); cbn [fst snd];
          try eassumption; rewrite ?length_upd; trivial.
        -- eapply WF_perm; [|exact Wi].
           eapply Permutation_trans; [apply Permutation_app_head, Permutation_app_head, (concat_take Ls k); lia|]. perm.
        -- split; [reflexivity|]. cbn [lt_phase lt_outs vt_outs vt_regs]. split; [eapply nth_upd; eauto|].
           exists v'. split; [eapply nth_upd; eauto|]. exists n.
           eapply safe_mono; [apply le_n| |exact Sa]. cbn beta. intros r G' (-> & R'). rewrite Eo. split; [trivial|].
           rewrite (hd_tl _ _ Hd) in R'. exact R'.
        -- intros j k' Nj E. assert (k <> k') by congruence. rewrite !nth_upd_ne by trivial. auto.
        -- intros k' s Ek'. destruct (Nat.eq_dec k k') as [<-|N].
           ++ rewrite (nth_upd _ _ _ _ Ek) in Ek'. injection Ek' as <-. exists v'. split; [eapply nth_upd; eauto|].
              rewrite nth_upd_eq by lia. split; [trivial|]. eexists _, _. split; [eapply nth_upd; eauto|reflexivity].
           ++ rewrite nth_upd_ne in Ek' by trivial. destruct (S k' s Ek') as (w & Ew & Sw). exists w.
              rewrite nth_upd_ne, nth_upd_other by trivial. split; [trivial|].
              eapply srel_put; [exact Ei|exact Sw|]. cbn. discriminate.
      * (* no such lock *)
        right. unfold vstep. rewrite Ev, <- Et.
        assert (En : nth_error vl k = None) by (apply nth_error_None in Ek; apply nth_error_None; lia). rewrite En.
        split; [|reflexivity]. unfold put, logged. cbn [ls_heap ls_slots ls_threads ls_log].
        eapply (linv_put st (vl, vts) Gs _ _ _ _ _ i _ _ _ (nth i Gs []) Ls); cbn [fst snd]; try eassumption; trivial.
        -- split; [reflexivity|]. cbn. auto.
        -- intros j k' _ E. auto.
        -- intros k' s Ek'. destruct (S k' s Ek') as (v & Evk & Sk). exists v. split; [trivial|].
           eapply srel_put; [exact Ei|exact Sk|]. cbn. discriminate.
    + (* Swap *)
      assert (Skip : nth_error vl k = None \/ (forall w, nth_error (vt_regs vt) j <> Some (Some w)) ->
        linv (put (logged st i) i (mkLT rest outs (Idle rs))) (vstep vnew vop i (vl, vts)) /\
        ls_log (put (logged st i) i (mkLT rest outs (Idle rs))) = ls_log st ++ [i]).
      { intros Sk. split; [|reflexivity]. unfold vstep. rewrite Ev, <- Et.
        replace (match nth_error vl k with
                 | Some v => match nth_error (vt_regs vt) j with
                     | Some (Some w) => (upd vl k w, upd vts i (mkVT rest (vt_outs vt) (upd (vt_regs vt) j (Some v))))
                     | _ => (vl, upd vts i (mkVT rest (vt_outs vt) (vt_regs vt)))
                     end
                 | None => (vl, upd vts i (mkVT rest (vt_outs vt) (vt_regs vt)))
                 end) with (vl, upd vts i (mkVT rest (vt_outs vt) (vt_regs vt))).
        2:{ destruct (nth_error vl k); trivial. destruct (nth_error (vt_regs vt) j) as [[w|]|] eqn:Ew; trivial.
            destruct Sk as [D|D]; [discriminate|]. now destruct (D w). }
        unfold put, logged. cbn [ls_heap ls_slots ls_threads ls_log].
        eapply (linv_put st (vl, vts) Gs _ _ _ _ _ i _ _ _ (nth i Gs []) Ls); cbn [fst snd]; try eassumption; trivial.
        - split; [reflexivity|]. cbn. auto.
        - intros j' k' _ E. auto.
        - intros k' s Ek'. destruct (S k' s Ek') as (v & Evk & Sv). exists v. split; [trivial|].
          eapply srel_put; [exact Ei|exact Sv|]. cbn. discriminate. }
      destruct (nth_error (ls_slots st) k) as [[c|jj]|] eqn:Ek; [|left; auto|].
      2:{ right. apply Skip. left. apply nth_error_None in Ek. apply nth_error_None. lia. }
      assert (N := reps_nth rep _ _ _ j R). destruct (nth_error (vt_regs vt) j) as [[w|]|] eqn:Ew.
      2,3: rewrite N; right; apply Skip; right; congruence.
      destruct N as (c' & G1 & G2 & Ec & r & P & U & _). rewrite Ec. right.
      destruct (S k _ Ek) as (v & Evk & Sk). cbn [srel] in Sk.
      destruct (U c v _ Sk) as (G3 & P3 & R3).
      unfold vstep. rewrite Ev, <- Et, Evk, Ew. split; [|reflexivity].
      assert (Lk := nth_error_lt _ _ _ Ek).
      unfold put, logged, with_slot. cbn [ls_heap ls_slots ls_threads ls_log].
      eapply (linv_put st (vl, vts) Gs _ _ _ _ _ i _ _ _ G3 (upd Ls k G1)); cbn [fst snd];
        try eassumption; rewrite ?length_upd; trivial.
      * eapply WF_perm; [|exact Wi].
        eapply Permutation_trans; [apply Permutation_app; [exact P|apply Permutation_app_head, (concat_take Ls k); lia]|].
        eapply Permutation_trans; [|apply Permutation_app; [exact P3|apply Permutation_app_head, Permutation_sym, concat_upd; lia]].
        perm.
      * split; [reflexivity|]. cbn [lt_phase lt_outs vt_outs vt_regs]. auto.
      * intros j' k' Nj E. assert (k <> k') by congruence. rewrite !nth_upd_ne by trivial. auto.
      * intros k' s Ek'. destruct (Nat.eq_dec k k') as [<-|N].
        -- rewrite (nth_upd _ _ _ _ Ek) in Ek'. injection Ek' as <-. exists w. split; [eapply nth_upd; eauto|].
           rewrite nth_upd_eq by lia. exact r.
        -- rewrite nth_upd_ne in Ek' by trivial. destruct (S k' s Ek') as (w' & Ew' & Sw). exists w'.
           rewrite nth_upd_ne, nth_upd_other by trivial. split; [trivial|].
           eapply srel_put; [exact Ei|exact Sw|]. cbn. discriminate.
  - (* in a command of its own *)
    destruct Tp as (n & Sa). left.
    destruct (safe_go p n _ _ _ _ Sa Wi) as [([rs xs] & ->)|(h' & p' & n' & G' & Ep & S' & W')].
    + cbn in Sa. destruct Sa as (G' & P & Eo & R). split; [|reflexivity].
      unfold put. rewrite <- (Uvt vt Ev) at 1.
      eapply (linv_put st (vl, vts) Gs _ _ _ _ _ i _ _ _ G' Ls); cbn [fst snd]; try eassumption; trivial.
      * eapply WF_perm; [apply Permutation_app_tail; exact P|exact Wi].
      * split; [exact Et|]. cbn. auto.
      * intros j k _ E. auto.
      * intros k s Ek. destruct (S k s Ek) as (v & Evk & Sk). exists v. split; [trivial|].
        eapply srel_put; [exact Ei|exact Sk|]. cbn. discriminate.
    + assert (E : match p with
        | Ret (rs, xs) => put st i (mkLT todo (outs ++ xs) (Idle rs))
        | _ => match pstep (ls_heap st) p with
               | Stop _ => st
               | Crash => put st i (mkLT todo outs (Alone Fail))
               | Step h q => put (with_heap st h) i (mkLT todo outs (Alone q))
               end
        end = put (with_heap st h') i (mkLT todo outs (Alone p'))).
      { destruct p; [cbn in Ep; discriminate Ep|rewrite Ep; reflexivity..]. }
      rewrite E. split; [|reflexivity]. unfold put, with_heap. cbn [ls_heap ls_slots ls_threads ls_log].
      rewrite <- (Uvt vt Ev) at 1.
      eapply (linv_put st (vl, vts) Gs _ _ _ _ _ i _ _ _ G' Ls); cbn [fst snd]; try eassumption; trivial.
      * split; [exact Et|]. cbn. eauto.
      * intros j k _ E'. auto.
      * intros k s Ek. destruct (S k s Ek) as (v & Evk & Sk). exists v. split; [trivial|].
        eapply srel_put; [exact Ei|exact Sk|]. cbn. discriminate.
  - (* inside a lock *)
    destruct Tp as (Ek & v & Evk & n & Sa). left.
    destruct (safe_go p n _ _ _ _ Sa Wi) as [([rs xs] & ->)|(h' & p' & n' & G' & Ep & S' & W')].
    + cbn in Sa. destruct Sa as (G' & P & Eo & R). cbn [fst snd] in *.
      destruct (reps_head _ _ _ _ R) as (c & G1 & G2 & Hd & r & R2 & ->). rewrite Hd. split; [|reflexivity].
      destruct (S k _ Ek) as (v2 & _ & Sk). cbn [srel] in Sk. destruct Sk as (El & _).
      assert (Lk := nth_error_lt _ _ _ Ek).
      unfold put, with_slot. cbn [ls_heap ls_slots ls_threads ls_log]. rewrite <- (Uvt vt Ev) at 1.
      eapply (linv_put st (vl, vts) Gs _ _ _ _ _ i _ _ _ G2 (upd Ls k G1)); cbn [fst snd];
        try eassumption; rewrite ?length_upd; trivial.
      * eapply WF_perm; [|exact Wi].
        eapply Permutation_trans; [apply Permutation_app; [exact P|apply Permutation_app_head, (concat_take Ls k); lia]|].
        rewrite El. cbn [app].
        eapply Permutation_trans; [|apply Permutation_app_head, Permutation_app_head, Permutation_sym, concat_upd; lia]. perm.
      * split; [exact Et|]. cbn. auto.
      * intros j k' Nj E. assert (k <> k') by congruence. rewrite !nth_upd_ne by trivial. auto.
      * intros k' s Ek'. destruct (Nat.eq_dec k k') as [<-|N].
        -- rewrite (nth_upd _ _ _ _ Ek) in Ek'. injection Ek' as <-. exists v. split; [trivial|].
           rewrite nth_upd_eq by lia. exact r.
        -- rewrite nth_upd_ne in Ek' by trivial. destruct (S k' s Ek') as (w' & Ew' & Sw). exists w'.
           rewrite nth_upd_other by trivial. split; [trivial|].
           eapply srel_put; [exact Ei|exact Sw|]. cbn. intros p0 Hp. congruence.
    + assert (E : match p with
        | Ret (rs, xs) =>
            match hd None rs with
            | Some c => put (with_slot st k (Free c)) i (mkLT todo (outs ++ xs) (Idle (tl rs)))
            | None => put st i (mkLT todo outs (Inside k Fail))
            end
        | _ => match pstep (ls_heap st) p with
               | Stop _ => st
               | Crash => put st i (mkLT todo outs (Inside k Fail))
               | Step h q => put (with_heap st h) i (mkLT todo outs (Inside k q))
               end
        end = put (with_heap st h') i (mkLT todo outs (Inside k p'))).
      { destruct p; [cbn in Ep; discriminate Ep|rewrite Ep; reflexivity..]. }
      rewrite E. split; [|reflexivity]. unfold put, with_heap. cbn [ls_heap ls_slots ls_threads ls_log].
      rewrite <- (Uvt vt Ev) at 1.
      eapply (linv_put st (vl, vts) Gs _ _ _ _ _ i _ _ _ G' Ls); cbn [fst snd]; try eassumption; trivial.
      * split; [exact Et|]. cbn. eauto 6.
      * intros j k' _ E'. auto.
      * intros k' s Ek'. destruct (S k' s Ek') as (v' & Evk' & Sk). exists v'. split; [trivial|].
        eapply srel_put; [exact Ei|exact Sk|]. cbn [lt_phase]. intros p0 Hp _. assert (k = k') by congruence. subst k'. eauto.
Qed.

(** *** No crash, no deadlock *)
Lemma linv_no_crash : forall st vst t, linv st vst -> In t (ls_threads st) -> ~ crashed t.
Proof.
  intros st vst t (Gs & Ls & _ & _ & _ & _ & _ & T & _) I. apply In_nth_error in I. destruct I as (i & Ei).
  destruct (T i t Ei) as (vt & _ & _ & Tp). unfold crashed. destruct (lt_phase t) as [rs|p|k p]; [easy|..].
  - destruct Tp as (n & Sa). now destruct p.
  - destruct Tp as (_ & v & _ & n & Sa). now destruct p.
Qed.

Definition in_phase (ph : phase) (p : prog C (regs * list Out)) : Prop := ph = Alone p \/ exists k, ph = Inside k p.
Definition idle (t : lthread) : Prop := exists rs, lt_phase t = Idle rs.

Lemma go_step : forall st vst i t p, linv st vst -> nth_error (ls_threads st) i = Some t -> in_phase (lt_phase t) p ->
  (exists t', idle t' /\ lt_todo t' = lt_todo t /\ ls_threads (lstep i st) = upd (ls_threads st) i t') \/
  (exists h' p' t', pstep (ls_heap st) p = Step h' p' /\ in_phase (lt_phase t') p' /\ lt_todo t' = lt_todo t /\
     ls_threads (lstep i st) = upd (ls_threads st) i t').
Proof.
  intros st vst i [todo outs ph] p (Gs & Ls & L1 & L2 & L3 & L4 & W & T & S) Ei Ph.
  assert (Li := nth_error_lt _ _ _ Ei). destruct (T i _ Ei) as (vt & Ev & Et & Tp). cbn [lt_phase lt_outs lt_todo] in *.
  assert (Wi : WF kids (ls_heap st) (nth i Gs [] ++ concat (upd Gs i []) ++ concat Ls)).
  { eapply WF_perm; [|exact W]. rewrite app_assoc. apply Permutation_app_tail, concat_take. lia. }
  unfold lstep. rewrite Ei. destruct Ph as [->|(k & ->)].
  - destruct Tp as (n & Sa). destruct (safe_go p n _ _ _ _ Sa Wi) as [([rs xs] & ->)|(h' & p' & n' & G' & Ep & _ & _)].
    + left. eexists. split; [|split; [|reflexivity]]; [eexists; reflexivity|reflexivity].
    + right. exists h', p', (mkLT todo outs (Alone p')). splits; trivial; [now left|].
      destruct p; try (cbn in Ep; discriminate Ep); cbv beta iota; rewrite Ep; reflexivity.
  - destruct Tp as (_ & v & _ & n & Sa). destruct (safe_go p n _ _ _ _ Sa Wi) as [([rs xs] & ->)|(h' & p' & n' & G' & Ep & _ & _)].
    + left. cbn in Sa. destruct Sa as (G' & P & Eo & R). cbn [fst snd] in R.
      destruct (reps_head _ _ _ _ R) as (c & G1 & G2 & Hd & _). rewrite Hd.
      eexists. split; [|split; [|reflexivity]]; [eexists; reflexivity|reflexivity].
    + right. exists h', p', (mkLT todo outs (Inside k p')). splits; trivial; [right; exists k; reflexivity|].
      destruct p; try (cbn in Ep; discriminate Ep); cbv beta iota; rewrite Ep; reflexivity.
Qed.

Section From.
Context (vst0 : list Val * list (vthread Val Op Out)).
Hypothesis all_ok : forall order, Forall (next_ok vnew vop pre (fst (vexec vnew vop order vst0))) (snd (vexec vnew vop order vst0)).

Definition good (st : lstate) : Prop := linv st (vexec vnew vop (ls_log st) vst0).

Lemma good_step : forall st i, good st -> good (lstep i st).
Proof.
  intros st i I. unfold good. destruct (linv_step st _ i I (all_ok _)) as [(I' & E)|(I' & E)]; rewrite E; trivial.
  now rewrite vexec_app.
Qed.
Lemma good_exec : forall sched st, good st -> good (lexec sched st).
Proof. induction sched; intros; cbn; auto. apply IHsched. now apply good_step. Qed.
Lemma lexec_app : forall s1 s2 st, lexec (s1 ++ s2) st = lexec s2 (lexec s1 st).
Proof. induction s1; intros; cbn; auto. Qed.

Lemma drain : forall p st i t, good st -> nth_error (ls_threads st) i = Some t -> in_phase (lt_phase t) p ->
  exists sched t', idle t' /\ lt_todo t' = lt_todo t /\ ls_threads (lexec sched st) = upd (ls_threads st) i t'.
Proof.
  assert (X : forall p (sub : prog C (regs * list Out) -> Prop),
    (forall q, sub q -> forall st i t, good st -> nth_error (ls_threads st) i = Some t -> in_phase (lt_phase t) q ->
       exists sched t', idle t' /\ lt_todo t' = lt_todo t /\ ls_threads (lexec sched st) = upd (ls_threads st) i t') ->
    (forall h h' q, pstep h p = Step h' q -> sub q) ->
    forall st i t, good st -> nth_error (ls_threads st) i = Some t -> in_phase (lt_phase t) p ->
       exists sched t', idle t' /\ lt_todo t' = lt_todo t /\ ls_threads (lexec sched st) = upd (ls_threads st) i t').
  { intros p sub IH Sub st i t I Ei Ph. destruct (go_step st _ i t p I Ei Ph) as [(t' & Id & Et & E)|(h' & q & t' & Ep & Ph' & Et & E)].
    - exists [i], t'. auto.
    - destruct (IH q (Sub _ _ _ Ep) (lstep i st) i t') as (s & t2 & Id & Et2 & E2).
      + now apply good_step.
      + rewrite E. eapply nth_upd; eauto.
      + exact Ph'.
      + exists (i :: s), t2. splits; trivial; [congruence|]. cbn [lexec]. rewrite E2, E. apply upd_upd. }
  induction p.
  - apply (X _ (fun _ => False)); [easy|]. intros h h' q E. discriminate E.
  - apply (X _ (fun _ => False)); [easy|]. intros h h' q E. discriminate E.
  - apply (X _ (fun q => exists a, q = k a)); [intros q (a & ->); apply H|]. intros h h' q E. cbn in E. injection E as <- <-. eauto.
  - apply (X _ (fun q => exists a, q = k a)); [intros q (a & ->); apply H|]. intros h h' q E. cbn in E. injection E as <- <-. eauto.
  - apply (X _ (fun q => q = p)); [intros q ->; apply IHp|]. intros h h' q E. cbn in E.
    repeat match type of E with context [match ?y with _ => _ end] => destruct y end; try discriminate; congruence.
  - apply (X _ (fun q => exists c, q = k c)); [intros q (c & ->); apply H|]. intros h h' q E. cbn in E.
    repeat match type of E with context [match ?y with _ => _ end] => destruct y end; try discriminate; injection E as <- <-; eauto.
  - apply (X _ (fun q => exists c, q = k c)); [intros q (c & ->); apply H|]. intros h h' q E. cbn in E.
    repeat match type of E with context [match ?y with _ => _ end] => destruct y end; try discriminate; injection E as <- <-; eauto.
  - apply (X _ (fun q => exists c, q = k c)); [intros q (c & ->); apply H|]. intros h h' q E. cbn in E.
    repeat match type of E with context [match ?y with _ => _ end] => destruct y end; try discriminate; injection E as <- <-; eauto.
  - apply (X _ (fun q => q = p)); [intros q ->; apply IHp|]. intros h h' q E. cbn in E.
    repeat match type of E with context [match ?y with _ => _ end] => destruct y end; try discriminate; congruence.
  - apply (X _ (fun q => exists c, q = k c)); [intros q (c & ->); apply H|]. intros h h' q E. cbn in E.
    repeat match type of E with context [match ?y with _ => _ end] => destruct y end; try discriminate; injection E as <- <-; eauto.
  - apply (X _ (fun q => q = p)); [intros q ->; apply IHp|]. intros h h' q E. cbn in E. congruence.
  - apply (X _ (fun q => q = p)); [intros q ->; apply IHp|]. intros h h' q E. cbn in E. congruence.
Qed.

Lemma map_upd_same : forall {X Y} (f : X -> Y) l i x y, nth_error l i = Some y -> f x = f y -> map f (upd l i x) = map f l.
Proof.
  intros X Y f l. induction l as [|z l IH]; intros [|i] x y E1 E2; cbn in *; try discriminate; [congruence|].
  f_equal. eauto.
Qed.

Lemma rest_all : forall n st, good st -> n <= length (ls_threads st) ->
  exists sched, map lt_todo (ls_threads (lexec sched st)) = map lt_todo (ls_threads st) /\
    forall i t, i < n -> nth_error (ls_threads (lexec sched st)) i = Some t -> idle t.
Proof.
  induction n as [|n IH]; intros st I L.
  - exists []. split; [trivial|]. intros. lia.
  - destruct (IH st I) as (s & Es & F); [lia|].
    assert (Ll : length (ls_threads (lexec s st)) = length (ls_threads st)).
    { apply (f_equal (@length _)) in Es. now rewrite !map_length in Es. }
    destruct (nth_error (ls_threads (lexec s st)) n) as [t|] eqn:En; [|apply nth_error_None in En; lia].
    assert (Go : forall s2 t', idle t' -> lt_todo t' = lt_todo t ->
      ls_threads (lexec s2 (lexec s st)) = upd (ls_threads (lexec s st)) n t' ->
      exists sched, map lt_todo (ls_threads (lexec sched st)) = map lt_todo (ls_threads st) /\
        forall i t, i < S n -> nth_error (ls_threads (lexec sched st)) i = Some t -> idle t).
    { intros s2 t' Id Et E2. exists (s ++ s2). rewrite lexec_app, E2. split.
      - rewrite <- Es. eapply map_upd_same; eauto.
      - intros i u Li Eu. destruct (Nat.eq_dec n i) as [<-|N].
        + rewrite (nth_upd _ _ _ _ En) in Eu. congruence.
        + rewrite nth_upd_ne in Eu by trivial. apply (F i); trivial. lia. }
    destruct (lt_phase t) as [rs|p|k p] eqn:Ph.
    + apply (Go [] t); trivial; [eexists; eauto|]. cbn. now rewrite upd_same.
    + destruct (drain p (lexec s st) n t) as (s2 & t' & Id & Et & E); [now apply good_exec|trivial|rewrite Ph; now left|eauto].
    + destruct (drain p (lexec s st) n t) as (s2 & t' & Id & Et & E); [now apply good_exec|trivial|rewrite Ph; right; eauto|eauto].
Qed.

Lemma all_idle : forall st, good st -> exists sched,
  map lt_todo (ls_threads (lexec sched st)) = map lt_todo (ls_threads st) /\ Forall idle (ls_threads (lexec sched st)).
Proof.
  intros st I. destruct (rest_all _ st I (le_n _)) as (s & E & F). exists s. split; [trivial|].
  apply Forall_forall. intros t It. apply In_nth_error in It. destruct It as (i & Ei). apply (F i); trivial.
  assert (L := f_equal (@length _) E). rewrite !map_length in L. rewrite <- L. now apply nth_error_lt in Ei.
Qed.

(** All threads idle: all locks are free. *)
Lemma idle_free : forall st, good st -> Forall idle (ls_threads st) ->
  exists cs, ls_slots st = map Free cs.
Proof.
  intros st (Gs & Ls & _ & _ & _ & _ & _ & _ & S) Id.
  assert (F : forall k s, nth_error (ls_slots st) k = Some s -> exists c, s = Free c).
  { intros k s Ek. destruct (S k s Ek) as (v & _ & Sk). destruct s as [c|i]; [eauto|].
    destruct Sk as (_ & t & p & Ei & Ep). rewrite Forall_forall in Id. destruct (Id t (nth_error_In _ _ Ei)) as (rs & E). congruence. }
  clear - F. induction (ls_slots st) as [|s ss IH]; [exists []; trivial|].
  destruct (F 0 s eq_refl) as (c & ->). destruct IH as (cs & ->); [intros k; exact (F (S k))|]. exists (c :: cs). trivial.
Qed.

Lemma list_sum_upd : forall l i x y, nth_error l i = Some y -> list_sum (upd l i x) + y = list_sum l + x.
Proof.
  induction l as [|z l IH]; intros [|i] x y E; cbn [nth_error] in E; try discriminate; cbn [upd].
  - injection E as ->. change (x + list_sum l + y = y + list_sum l + x). lia.
  - specialize (IH i x y E). change (z + list_sum (upd l i x) + y = z + list_sum l + x). lia.
Qed.

Lemma map_upd : forall {X Y} (f : X -> Y) l i x, map f (upd l i x) = upd (map f l) i (f x).
Proof. intros X Y f l. induction l as [|z l IH]; intros [|i] x; cbn; trivial. f_equal. apply IH. Qed.

Lemma begins : forall st i rest c outs rs, good st -> Forall idle (ls_threads st) ->
  nth_error (ls_threads st) i = Some (mkLT (c :: rest) outs (Idle rs)) ->
  exists t', lt_todo t' = rest /\ ls_threads (lstep i st) = upd (ls_threads st) i t'.
Proof.
  intros st i rest c outs rs I Id Ei. destruct (idle_free st I Id) as (cs & Es).
  unfold lstep. rewrite Ei. destruct c as [c|k l|k j].
  - eexists. split; [|reflexivity]. reflexivity.
  - rewrite Es, nth_error_map. destruct (nth_error cs k); cbn [option_map]; (eexists; split; [|reflexivity]; reflexivity).
  - rewrite Es, nth_error_map. destruct (nth_error cs k); cbn [option_map].
    + destruct (nth_error rs j) as [[c'|]|]; (eexists; split; [|reflexivity]; reflexivity).
    + eexists; split; [|reflexivity]; reflexivity.
Qed.

Lemma can_finish : forall st, good st -> exists sched, Forall done (ls_threads (lexec sched st)).
Proof.
  assert (X : forall n st, good st -> Forall idle (ls_threads st) ->
    list_sum (map (@length _) (map lt_todo (ls_threads st))) = n -> exists sched, Forall done (ls_threads (lexec sched st))).
  { induction n as [n IH] using lt_wf_ind. intros st I Id En.
    assert (D : Forall done (ls_threads st) \/ exists i t, nth_error (ls_threads st) i = Some t /\ lt_todo t <> []).
    { clear - Id. induction Id as [|t ts (rs & E) Id IH]; [now left|].
      destruct (lt_todo t) as [|x l] eqn:Et.
      - destruct IH as [D|(i & u & Ei & Eu)]; [left; constructor; trivial; split; eauto|right; exists (S i), u; auto].
      - right. exists 0, t. split; [trivial|congruence]. }
    destruct D as [D|(i & [[|c rest] outs ph] & Ei & Eu)]; [exists []; exact D|easy|].
    assert (Iu := Id). rewrite Forall_forall in Iu. destruct (Iu _ (nth_error_In _ _ Ei)) as (rs & E). cbn in E. subst ph.
    destruct (begins st i rest c outs rs I Id Ei) as (t' & Et & El).
    destruct (all_idle (lstep i st)) as (s & Es & Id2); [now apply good_step|].
    destruct (IH (n - 1)) with (st := lexec s (lstep i st)) as (s2 & F).
    - assert (Y := list_sum_upd (map (@length _) (map lt_todo (ls_threads st))) i (length rest) (S (length rest))).
      rewrite !map_map, nth_error_map, Ei in Y. specialize (Y eq_refl). rewrite !map_map in En. lia.
    - apply good_exec. now apply good_step.
    - trivial.
    - rewrite Es, El, !map_upd, Et.
      assert (Y := list_sum_upd (map (@length _) (map lt_todo (ls_threads st))) i (length rest) (S (length rest))).
      assert (E2 : nth_error (map (@length _) (map lt_todo (ls_threads st))) i = Some (S (length rest))).
      { now rewrite !nth_error_map, Ei. }
      specialize (Y E2). lia.
    - exists (i :: s ++ s2). cbn [lexec]. now rewrite lexec_app. }
  intros st I. destruct (all_idle st I) as (s & _ & Id).
  destruct (fun a b => X _ (lexec s st) a b eq_refl) as (s2 & F); [now apply good_exec|trivial|].
  exists (s ++ s2). now rewrite lexec_app.
Qed.
End From.

Lemma nth_error_nth_gs : forall {X} (l : list (list X)) i, i < length l -> nth_error l i = Some (nth i l []).
Proof. intros X l. induction l as [|x l IH]; intros [|i] L; cbn in *; try lia; trivial. apply IH. lia. Qed.

Theorem guarded_ok : guarded.
Proof.
  intros main slots jobs Wm vs Pj Ok.
  destruct (client_runs kids hnew hclone hdrop hop rep vnew vop pre ncost cost new_ok clone_ok drop_ok op_ok
              main [] [] [] [] [])
    as (h & rs & G & E & R & W & _); [constructor|exact Wm|apply WF_nil|].
  rewrite app_nil_r in W. fold vs in R. exists h, rs. split; [exact E|].
  destruct (reps_pieces rep _ _ _ R) as (Gs & -> & L1 & L2 & P).
  set (at_ := fun i => nth i Gs []).
  set (Ls := flat_map (fun k => match nth k rs None with Some _ => [at_ k] | None => [] end) slots).
  set (Ts := map (fun j : list nat * list (lcmd Op) => flat_map at_ (fst j)) jobs).
  assert (I0 : good (vstart vs slots jobs) (lstart h rs slots jobs)).
  { unfold good. cbn [lstart ls_log vexec]. exists Ts, Ls. unfold lstart, vstart.
    cbn [ls_threads ls_slots ls_heap fst snd]. subst Ts. rewrite !map_length.
    assert (SL : length Ls = length (flat_map (fun k => match nth k rs None with Some c => [Free c] | None => [] end) slots) /\
      length (flat_map (fun k => match nth k vs None with Some v => [v] | None => [] end) slots) =
        length (flat_map (fun k => match nth k rs None with Some c => [Free c] | None => [] end) slots) /\
      (forall k s, nth_error (flat_map (fun k => match nth k rs None with Some c => [Free c] | None => [] end) slots) k = Some s ->
         exists v c, nth_error (flat_map (fun k => match nth k vs None with Some v => [v] | None => [] end) slots) k = Some v /\
           s = Free c /\ rep c v (nth k Ls [])) /\
      Permutation (flat_map at_ slots) (concat Ls)).
    { subst Ls. clear Pj Ok. induction slots as [|k slots (I1 & I2 & I3 & I4)]; cbn [flat_map].
      - splits; trivial. intros [|k] s Ek; discriminate Ek.
      - specialize (P k). unfold piece in P. fold (at_ k) in P.
        destruct (nth k rs None) as [c|], (nth k vs None) as [v|]; try easy; cbn [app length].
        + splits; try congruence.
          * intros [|k'] s Ek; cbn in Ek |- *; [injection Ek as <-; eauto|apply I3; trivial].
          * cbn [concat]. now apply Permutation_app_head.
        + splits; try congruence; trivial. rewrite P. exact I4. }
    destruct SL as (S1 & S2 & S3 & S4). splits; trivial.
    - eapply WF_perm; [|exact W]. rewrite concat_seq, L1, <- L2. fold at_.
      eapply Permutation_trans; [apply Permutation_flat_map, Permutation_sym; exact Pj|].
      rewrite flat_map_app. eapply Permutation_trans; [apply Permutation_app_comm|]. apply Permutation_app; [|exact S4].
      clear. induction jobs as [|j jobs IH]; cbn [map concat]; [apply perm_nil|]. rewrite flat_map_app. now apply Permutation_app_head.
    - intros i t Ei. rewrite nth_error_map in Ei. destruct (nth_error jobs i) as [j|] eqn:Ej; [|discriminate]. cbn in Ei.
      injection Ei as <-. eexists. split; [rewrite nth_error_map, Ej; reflexivity|]. split; [reflexivity|].
      cbn [lt_phase lt_outs vt_outs vt_regs]. split; [trivial|].
      assert (En : nth i (map (fun j : list nat * list (lcmd Op) => flat_map at_ (fst j)) jobs) [] = flat_map at_ (fst j)).
      { apply nth_error_nth. now rewrite nth_error_map, Ej. }
      rewrite En. now apply hand_reps.
    - intros k s Ek. destruct (S3 k s Ek) as (v & c & Ev & -> & r). exists v. auto. }
  intros sched st vst.
  assert (Is : good (vstart vs slots jobs) st) by (apply good_exec; trivial).
  assert (Is' := Is). destruct Is' as (Gt & Lt & M1 & M2 & M3 & M4 & Wt & Tt & St). fold vst in M2, M4, Tt, St.
  splits.
  - intros t. exact (linv_no_crash _ _ t Is).
  - apply (can_finish _ Ok). exact Is.
  - eexists. apply WF_point. exact Wt.
  - intros i t rs' Ei Ep. destruct (Tt i t Ei) as (vt & Ev & Et & Tp). exists vt. rewrite Ep in Tp. destruct Tp as (Eo & Ri).
    splits; trivial. intros l Wl.
    destruct (client_runs kids hnew hclone hdrop hop rep vnew vop pre ncost cost new_ok clone_ok drop_ok op_ok
                l (ls_heap st) (concat (upd Gt i []) ++ concat Lt) rs' (vt_regs vt) _ Ri Wl) as (h' & cs' & G' & El & _); [|eauto].
    eapply WF_perm; [|exact Wt]. rewrite app_assoc. apply Permutation_app_tail, concat_take.
    rewrite M1. now apply nth_error_lt in Ei.
  - intros k c Ek. destruct (St k _ Ek) as (v & Ev & r). cbn [srel] in r. exists v. split; [exact Ev|]. intros l Wl.
    assert (Rk : reps [Some c] [Some v] (nth k Lt [] ++ [])) by (constructor; [exact r|constructor]). rewrite app_nil_r in Rk.
    destruct (client_runs kids hnew hclone hdrop hop rep vnew vop pre ncost cost new_ok clone_ok drop_ok op_ok
                l (ls_heap st) (concat Gt ++ concat (upd Lt k [])) _ _ _ Rk Wl) as (h' & cs' & G' & El & _); [|eauto].
    eapply WF_perm; [|exact Wt].
    eapply Permutation_trans; [apply Permutation_app_head, (concat_take Lt k); rewrite M3; now apply nth_error_lt in Ek|]. perm.
  - intros D. assert (Id : Forall idle (ls_threads st)).
    { eapply Forall_impl; [|exact D]. intros t (_ & rs' & Et). now exists rs'. }
    destruct (idle_free _ st Is Id) as (cs & Es). exists cs. split; [exact Es|].
    assert (Rl : reps (map Some cs) (map Some (fst vst)) (concat Lt)).
    { rewrite Es, map_length in M3, M4. assert (Sl : forall k c, nth_error cs k = Some c -> exists v, nth_error (fst vst) k = Some v /\ rep c v (nth k Lt [])).
      { intros k c Ek. apply (St k (Free c)). rewrite Es, nth_error_map, Ek. reflexivity. }
      clear - M3 M4 Sl. revert Lt M3 Sl M4. generalize (fst vst). induction cs as [|c cs IH]; intros vl Lt M3 Sl M4.
      - destruct Lt, vl; try discriminate. constructor.
      - destruct Lt as [|L Lt], vl as [|v vl]; try discriminate. cbn [map concat].
        destruct (Sl 0 c eq_refl) as (v' & Ev & r). cbn in Ev, r. injection Ev as <-.
        constructor; [exact r|]. apply IH; [now injection M3|intros k; exact (Sl (S k))|now injection M4]. }
    assert (Rt : exists us, Permutation (concat Gt) (map Tree us) /\ flat_map thread_roots (ls_threads st) = map pa us).
    { assert (Tr : forall i t, nth_error (ls_threads st) i = Some t -> exists vrs rs', lt_phase t = Idle rs' /\ reps rs' vrs (nth i Gt [])).
      { intros i t Ei. destruct (Tt i t Ei) as (vt & _ & _ & Tp). rewrite Forall_forall in Id.
        destruct (Id t (nth_error_In _ _ Ei)) as (rs' & Ep). rewrite Ep in Tp. destruct Tp. eauto. }
      clear - M1 Tr rep_roots. revert Gt M1 Tr. induction (ls_threads st) as [|t ts IH]; intros Gt M1 Tr.
      - destruct Gt; [|discriminate]. exists []. split; [apply perm_nil|trivial].
      - destruct Gt as [|G Gt]; [discriminate|]. destruct (IH Gt) as (us & Pu & Eu); [now injection M1|intros i; exact (Tr (S i))|].
        destruct (Tr 0 t eq_refl) as (vrs & rs' & Ep & R). cbn in R.
        destruct (reps_roots roots rep rep_roots _ _ _ R) as (ws & -> & Ew). exists (ws ++ us).
        cbn [concat flat_map]. rewrite !map_app, Eu. unfold thread_roots at 1. rewrite Ep, Ew. split; [now apply Permutation_app_head|trivial]. }
    destruct Rt as (us & Pu & Eu).
    destruct (reps_roots roots rep rep_roots _ _ _ Rl) as (ws & Ews & Ew).
    assert (Er : reg_roots roots (map Some cs) = flat_map roots cs).
    { clear. unfold reg_roots. induction cs as [|c cs IH]; cbn; [trivial|]. now rewrite IH. }
    rewrite Er in Ew. split.
    + rewrite Eu, Ew, <- map_app. apply WF_exact. rewrite map_app. eapply WF_perm; [|exact Wt].
      rewrite Ews. now apply Permutation_app_tail.
    + intros l Wl.
      destruct (client_runs kids hnew hclone hdrop hop rep vnew vop pre ncost cost new_ok clone_ok drop_ok op_ok
                  l (ls_heap st) (concat Gt) (map Some cs) (map Some (fst vst)) (concat Lt) Rl Wl)
        as (h' & cs' & G' & El & _); [eapply WF_perm; [apply Permutation_app_comm|exact Wt]|]. eauto.
Qed.
End Lock.
