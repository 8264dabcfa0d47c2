(** * Whole runs: a main thread, then any number of threads

    A run starts with an empty heap.  The main thread executes a client
    program; its registers are then handed out, each to one thread, and the
    threads execute their own programs under any schedule.  (A thread with an
    empty program just keeps its registers.) *)
From Coq Require Import List Arith Lia Bool Permutation.
From Verif Require Import PermSolve HeapModel HeapProofs HeapSafe HeapClient.
Import ListNotations.

(** ** Specification: a heap in which the counts are exact *)
Section Exact.
Context {C : Type} (kids : C -> list addr).

(** All the pointers stored in live cells. *)
Definition pointers (h : heap C) : list addr :=
  flat_map (fun x => match x with Some (Full _ c) => kids c | _ => [] end) h.

Inductive reach (h : heap C) (roots : list addr) : addr -> Prop :=
| reach_root : forall a, In a roots -> reach h roots a
| reach_kid : forall a b n c, reach h roots a -> get h a = Some (Full n c) -> In b (kids c) ->
    reach h roots b.

Definition exact_heap (h : heap C) (roots : list addr) : Prop :=
  (* no dangling pointer *)
  (forall a, In a (roots ++ pointers h) -> exists n c, get h a = Some (Full n c)) /\
  (* every count is the number of pointers *)
  (forall a n c, get h a = Some (Full n c) -> n = count_occ Nat.eq_dec (roots ++ pointers h) a) /\
  (* no leak *)
  (forall a, get h a <> None -> reach h roots a).

(** The same at any point of a run, when a thread may have cells mutably
    borrowed: [held] are the pointers the threads have in hand.  A borrowed
    cell has one pointer. *)
Definition exact_point (h : heap C) (held : list addr) : Prop :=
  (forall a, In a (held ++ pointers h) -> get h a <> None) /\
  (forall a n c, get h a = Some (Full n c) -> n = count_occ Nat.eq_dec (held ++ pointers h) a) /\
  (forall a, get h a = Some Hole -> 1 = count_occ Nat.eq_dec (held ++ pointers h) a) /\
  (forall a, get h a <> None -> reach h held a).

(** With no pointers left there are no cells left. *)
Lemma exact_heap_nil : forall h, exact_heap h [] -> forall a, get h a = None.
Proof.
  intros h (_ & _ & X3) a. destruct (get h a) eqn:E; trivial. exfalso.
  assert (R : reach h [] a) by (apply X3; congruence).
  clear X3 E. induction R; trivial.
Qed.

Lemma cnt_pointers : forall h a, cnt a (pointers h) = indeg kids h a.
Proof.
  intros h a. induction h as [|x h IH]; [trivial|].
  unfold pointers in *. cbn [flat_map indeg]. rewrite cnt_app, IH. f_equal.
  now destruct x as [[n c|]|].
Qed.

Lemma WF_exact : forall h ts, WF kids h (map Tree ts) -> exact_heap h (map pa ts).
Proof.
  intros h ts (W1 & W2 & W3). rewrite map_oa_Tree in W1. unfold exact_heap. splits.
  - intros a I. rewrite in_app_iff in I. destruct I as [I|I].
    + apply in_map_iff in I. destruct I as (t & <- & I). rewrite Forall_forall in W2.
      specialize (W2 (Tree t) (in_map Tree _ _ I)). cbn in W2.
      exact (phys_live kids h t _ W2 (pas_head t)).
    + apply (count_occ_In Nat.eq_dec) in I. fold (cnt a (pointers h)) in I.
      rewrite cnt_pointers in I. specialize (W1 a).
      destruct (get h a) as [[n c|]|] eqn:E; [eauto| |cbn in W1; lia].
      exfalso. destruct (W3 a) as (o & Io & Ia); [congruence|].
      apply in_map_iff in Io. destruct Io as (t & <- & It). cbn in Ia.
      rewrite Forall_forall in W2. specialize (W2 (Tree t) (in_map Tree _ _ It)). cbn in W2.
      destruct (phys_live kids h t _ W2 Ia) as (n & c & E'). congruence.
  - intros a n c E. specialize (W1 a). rewrite E in W1. cbn in W1.
    fold (cnt a (map pa ts ++ pointers h)). now rewrite cnt_app, cnt_pointers.
  - intros a N. destruct (W3 a N) as (o & Io & Ia).
    apply in_map_iff in Io. destruct Io as (t & <- & It). cbn in Ia.
    rewrite Forall_forall in W2. specialize (W2 (Tree t) (in_map Tree _ _ It)). cbn in W2.
    assert (R : reach h (map pa ts) (pa t)) by (constructor; now apply in_map).
    clear It W1 W3 N. revert R W2 Ia. induction t as [b c us IH] using (@ptree_rect2 C).
    intros R W2 Ia. cbn in Ia. destruct Ia as [->|Ia]; [trivial|].
    rewrite phys_eq in W2. destruct W2 as ((n & E) & K & F).
    apply in_flat_map in Ia. destruct Ia as (u & Iu & Ia). rewrite Forall_forall in IH, F.
    apply (IH u Iu); trivial; [|now apply F].
    eapply reach_kid; [exact R|exact E|]. rewrite K. now apply in_map.
Qed.

Lemma WF_point : forall h G, WF kids h G -> exact_point h (map oa G).
Proof.
  intros h G (W1 & W2 & W3). unfold exact_point. rewrite Forall_forall in W2. splits.
  - intros a I E. apply (count_occ_In Nat.eq_dec) in I. fold (cnt a (map oa G ++ pointers h)) in I.
    rewrite cnt_app, cnt_pointers in I. specialize (W1 a). rewrite E in W1. cbn in W1. lia.
  - intros a n c E. specialize (W1 a). rewrite E in W1. cbn in W1.
    fold (cnt a (map oa G ++ pointers h)). now rewrite cnt_app, cnt_pointers.
  - intros a E. specialize (W1 a). rewrite E in W1. cbn in W1.
    fold (cnt a (map oa G ++ pointers h)). now rewrite cnt_app, cnt_pointers.
  - intros a N. destruct (W3 a N) as (o & Io & Ia).
    assert (R : reach h (map oa G) (oa o)) by (constructor; now apply in_map).
    specialize (W2 o Io). clear Io W1 W3 N. destruct o as [t|b]; cbn in R, W2, Ia.
    2:{ now destruct Ia as [->|[]]. }
    revert R W2 Ia. induction t as [b c us IH] using (@ptree_rect2 C).
    intros R W2 Ia. cbn in Ia. destruct Ia as [->|Ia]; [trivial|].
    rewrite phys_eq in W2. destruct W2 as ((n & E) & K & F).
    apply in_flat_map in Ia. destruct Ia as (u & Iu & Ia). rewrite Forall_forall in IH, F.
    apply (IH u Iu); trivial; [|now apply F].
    eapply reach_kid; [exact R|exact E|]. rewrite K. now apply in_map.
Qed.
End Exact.

(** ** Every configuration can be run to its end *)
Section Finish.
Context {C : Type} (kids : C -> list addr) {A : Type}.

Definition finished (p : prog C A) : Prop := exists x, p = Ret x.

Lemma exec_app : forall s1 s2 (cf : heap C * list (prog C A)),
  exec (s1 ++ s2) cf = exec s2 (exec s1 cf).
Proof. induction s1; intros; cbn; auto. Qed.

Lemma nth_upd : forall {X} (l : list X) i x y, nth_error l i = Some y -> nth_error (upd l i x) i = Some x.
Proof. intros X l. induction l; intros [|i] x y E; cbn in *; try discriminate; eauto. Qed.
Lemma nth_upd_ne : forall {X} (l : list X) i j x, i <> j -> nth_error (upd l i x) j = nth_error l j.
Proof. intros X l. induction l; intros [|i] [|j] x E; cbn in *; try congruence; auto. Qed.
Lemma length_upd : forall {X} (l : list X) i x, length (upd l i x) = length l.
Proof. intros X l. induction l; intros [|i] x; cbn; congruence. Qed.
Lemma upd_upd : forall {X} (l : list X) i x y, upd (upd l i x) i y = upd l i y.
Proof. intros X l. induction l; intros [|i] x y; cbn; congruence. Qed.

Lemma finish_one : forall p h (ps : list (prog C A)) i, nth_error ps i = Some p ->
  exists sched h' p', exec sched (h, ps) = (h', upd ps i p') /\ (finished p' \/ p' = Fail).
Proof.
  assert (X : forall k (K : prog C A), (forall h (ps : list (prog C A)) i, nth_error ps i = Some k ->
      exists sched h' p', exec sched (h, ps) = (h', upd ps i p') /\ (finished p' \/ p' = Fail)) ->
    forall h h1 ps i, nth_error ps i = Some K -> pstep h K = Step h1 k ->
      exists sched h' p', exec sched (h, ps) = (h', upd ps i p') /\ (finished p' \/ p' = Fail)).
  { intros k K IH h h1 ps i E S.
    destruct (IH h1 (upd ps i k) i) as (s & h' & p' & E' & D); [eapply nth_upd; eauto|].
    exists (i :: s), h', p'. split; trivial. cbn [exec]. unfold cstep. rewrite E, S, E'. now rewrite upd_upd. }
  assert (Y : forall (K : prog C A) h ps i, nth_error ps i = Some K -> pstep h K = Crash ->
      exists sched h' p', exec sched (h, ps) = (h', upd ps i p') /\ (finished p' \/ p' = Fail)).
  { intros K h ps i E S. exists [i], h, Fail. cbn. rewrite E, S. auto. }
  assert (U : forall (ps : list (prog C A)) i p, nth_error ps i = Some p -> upd ps i p = ps).
  { induction ps; intros [|i] p E; cbn in *; try discriminate; [congruence|]. now rewrite IHps. }
  induction p; intros h ps i E.
  - exists [], h, (Ret x). cbn. rewrite (U _ _ _ E). split; trivial. left. eexists. reflexivity.
  - exists [], h, Fail. cbn. rewrite (U _ _ _ E). auto.
  - eapply X; [apply H|exact E|reflexivity].
  - eapply X; [apply H|exact E|reflexivity].
  - destruct (get h a) as [[n c|]|] eqn:G.
    2,3: eapply Y; [exact E|cbn; now rewrite G].
    eapply X; [apply IHp|exact E|cbn; now rewrite G].
  - destruct (get h a) as [[n c|]|] eqn:G.
    2,3: eapply Y; [exact E|cbn; now rewrite G].
    eapply X; [apply H|exact E|cbn; now rewrite G].
  - destruct (get h a) as [[[|[|n]] c|]|] eqn:G.
    1,4,5: eapply Y; [exact E|cbn; now rewrite G].
    all: eapply X; [apply H|exact E|cbn; now rewrite G].
  - destruct (get h a) as [[[|[|n]] c|]|] eqn:G.
    4,5: eapply Y; [exact E|cbn; now rewrite G].
    all: eapply X; [apply H|exact E|cbn; now rewrite G].
  - destruct (get h a) as [[n d|]|] eqn:G.
    1,3: eapply Y; [exact E|cbn; now rewrite G].
    eapply X; [apply IHp|exact E|cbn; now rewrite G].
  - destruct (get h a) as [[[|[|n]] c|]|] eqn:G.
    4,5: eapply Y; [exact E|cbn; now rewrite G].
    all: eapply X; [apply H|exact E|cbn; now rewrite G].
  - eapply X; [apply IHp|exact E|reflexivity].
  - eapply X; [apply IHp|exact E|reflexivity].
Qed.

Lemma finish_all : forall k h (ps : list (prog C A)), k <= length ps ->
  exists sched, length (snd (exec sched (h, ps))) = length ps /\
    forall i p, i < k -> nth_error (snd (exec sched (h, ps))) i = Some p -> finished p \/ p = Fail.
Proof.
  induction k as [|k IH]; intros h ps L.
  - exists []. split; [trivial|]. intros. lia.
  - destruct (IH h ps) as (s & Ls & F); [lia|].
    destruct (exec s (h, ps)) as [h1 ps1] eqn:E1. cbn [snd] in *.
    destruct (nth_error ps1 k) as [p|] eqn:Ep.
    2:{ apply nth_error_None in Ep. lia. }
    destruct (finish_one p h1 ps1 k Ep) as (s2 & h2 & p2 & E2 & D).
    exists (s ++ s2). rewrite exec_app, E1, E2. cbn [snd]. rewrite length_upd. split; trivial.
    intros i q Li Eq. destruct (Nat.eq_dec k i) as [<-|N].
    + rewrite (nth_upd _ _ _ _ Ep) in Eq. now injection Eq as <-.
    + rewrite nth_upd_ne in Eq by trivial. apply (F i); trivial. lia.
Qed.
End Finish.

Section World.
Context {C : Type} (kids : C -> list addr).
Context {Coll Val Op Out : Type}.
Context (hnew : prog C Coll) (hclone : Coll -> prog C Coll) (hdrop : Coll -> prog C unit)
        (hop : Op -> Coll -> prog C (Coll * Out)).
(** The pointers a collection value itself holds. *)
Context (roots : Coll -> list addr).
Notation own := (@own C).
Context (rep : Coll -> Val -> list own -> Prop).
Context (vnew : Val) (vop : Op -> Val -> Val * Out) (pre : Op -> Val -> Prop)
        (ncost : nat) (cost : Op -> Val -> nat).

(** What one thread is given: which registers of the main thread, and what to do. *)
Record job := mkJob { job_regs : list nat; job_cmds : list (cmd Op) }.

Definition hand {X} (rs : list (option X)) (js : list nat) : list (option X) :=
  map (fun j => nth j rs None) js.

Definition job_start (rs : list (option Coll)) (j : job) :=
  hclient hnew hclone hdrop hop (job_cmds j) (hand rs (job_regs j)).
Definition job_spec (vs : list (option Val)) (j : job) :=
  sclient vnew vop (job_cmds j) (hand vs (job_regs j)).
Definition job_cost (vs : list (option Val)) (j : job) :=
  cost_of vnew vop ncost cost (job_cmds j) (hand vs (job_regs j)).
Definition job_within (vs : list (option Val)) (j : job) : Prop :=
  within vnew vop pre (job_cmds j) (hand vs (job_regs j)).

(** Pointers held by registers. *)
Definition reg_roots (rs : list (option Coll)) : list addr :=
  flat_map (fun r => match r with Some c => roots c | None => [] end) rs.

Hypothesis new_ok : safe kids ncost hnew [] (fun c G => rep c vnew G).
Hypothesis clone_ok : forall c v G, rep c v G ->
  safe kids 0 (hclone c) G (fun c' G' => exists G1 G2, G' = G1 ++ G2 /\ rep c v G1 /\ rep c' v G2).
Hypothesis drop_ok : forall c v G, rep c v G -> safe kids 0 (hdrop c) G (fun _ G' => G' = []).
Hypothesis op_ok : forall o c v G, rep c v G -> pre o v ->
  safe kids (cost o v) (hop o c) G
    (fun r G' => snd r = snd (vop o v) /\ rep (fst r) (fst (vop o v)) G').
Hypothesis rep_roots : forall c v G, rep c v G -> exists ts, G = map Tree ts /\ roots c = map pa ts.

Lemma reps_roots : forall rs vs G, reps rep rs vs G ->
  exists ts, G = map Tree ts /\ reg_roots rs = map pa ts.
Proof.
  intros rs vs G R. induction R as [|c v G cs vs Gs r R (ts & -> & E)|cs vs Gs R (ts & -> & E)].
  - exists []. auto.
  - destruct (rep_roots _ _ _ r) as (us & -> & E'). exists (us ++ ts). unfold reg_roots in *.
    cbn [flat_map]. now rewrite !map_app, E, E'.
  - exists ts. auto.
Qed.

(** The registers as separate pieces of ownership. *)
Definition piece (c : option Coll) (v : option Val) (G : list own) : Prop :=
  match c, v with
  | Some c, Some v => rep c v G
  | None, None => G = []
  | _, _ => False
  end.

Lemma reps_pieces : forall rs vs G, reps rep rs vs G ->
  exists Gs, G = concat Gs /\ length Gs = length rs /\ length vs = length rs /\
    forall j, piece (nth j rs None) (nth j vs None) (nth j Gs []).
Proof.
  intros rs vs G R. induction R as [|c v G cs vs Gs r R (Hs & -> & L1 & L2 & P)|cs vs Gs R (Hs & -> & L1 & L2 & P)].
  - exists []. splits; trivial. intros [|j]; reflexivity.
  - exists (G :: Hs). cbn. splits; try congruence. intros [|j]; cbn; [trivial|apply P].
  - exists ([] :: Hs). cbn. splits; try congruence. intros [|j]; cbn; [trivial|apply P].
Qed.

Lemma reps_cat : forall rs vs G rs' vs' G', reps rep rs vs G -> reps rep rs' vs' G' ->
  reps rep (rs ++ rs') (vs ++ vs') (G ++ G').
Proof.
  intros rs vs G rs' vs' G' R R'. induction R; cbn; [trivial| |now constructor].
  rewrite <- app_assoc. now constructor.
Qed.

Lemma hand_reps : forall rs vs Gs js, (forall j, piece (nth j rs None) (nth j vs None) (nth j Gs [])) ->
  reps rep (hand rs js) (hand vs js) (flat_map (fun j => nth j Gs []) js).
Proof.
  intros rs vs Gs js P. induction js as [|j js IH]; cbn; [constructor|].
  specialize (P j). unfold piece in P.
  destruct (nth j rs None), (nth j vs None); try easy; [now constructor|].
  rewrite P. cbn. now constructor.
Qed.

Lemma concat_seq : forall {X} (Gs : list (list X)),
  concat Gs = flat_map (fun j => nth j Gs []) (seq 0 (length Gs)).
Proof.
  intros X Gs. induction Gs as [|G Gs IH]; [trivial|].
  cbn [concat length seq flat_map nth]. f_equal. rewrite IH, <- seq_shift.
  rewrite !flat_map_concat_map, map_map. reflexivity.
Qed.

Theorem world_sound : forall main jobs,
  within vnew vop pre main [] ->
  let vs := fst (sclient vnew vop main []) in
  Permutation (concat (map job_regs jobs)) (seq 0 (length vs)) ->
  Forall (job_within vs) jobs ->
  exists h rs,
    run [] (hclient hnew hclone hdrop hop main []) = Some (h, (rs, snd (sclient vnew vop main []))) /\
    length h <= cost_of vnew vop ncost cost main [] /\
    exact_heap kids h (reg_roots rs) /\
    forall sched,
      let cf := exec sched (h, map (job_start rs) jobs) in
      ~ In Fail (snd cf) /\
      length (fst cf) <= length h + list_sum (map (job_cost vs) jobs) /\
      (exists held, exact_point kids (fst cf) held) /\
      (forall i j r, nth_error jobs i = Some j -> nth_error (snd cf) i = Some (Ret r) ->
         snd r = snd (job_spec vs j)) /\
      (exists sched', Forall finished (snd (exec sched' cf))) /\
      (forall rs', snd cf = map Ret rs' ->
         exact_heap kids (fst cf) (flat_map (fun r => reg_roots (fst r)) rs') /\
         (Forall (fun j => Forall (eq None) (fst (job_spec vs j))) jobs ->
          forall a, get (fst cf) a = None) /\
         exists G, reps rep (flat_map fst rs') (flat_map (fun j => fst (job_spec vs j)) jobs) G /\
           WF kids (fst cf) G).
Proof.
  intros main jobs Wm vs Pj Wj.
  destruct (client_runs kids hnew hclone hdrop hop rep vnew vop pre ncost cost new_ok clone_ok drop_ok op_ok
              main [] [] [] [] [])
    as (h & rs & G & E & R & W & L); [constructor|exact Wm|apply WF_nil|].
  rewrite app_nil_r in W. fold vs in R. exists h, rs.
  split; [exact E|]. split; [exact L|].
  split. { destruct (reps_roots _ _ _ R) as (us & -> & ->). now apply WF_exact. }
  intros sched cf.
  destruct (reps_pieces _ _ _ R) as (Gs & -> & L1 & L2 & P).
  set (T := fun j => mkThread (job_cmds j) (hand rs (job_regs j)) (hand vs (job_regs j))
                       (flat_map (fun i => nth i Gs []) (job_regs j))).
  assert (Fo : Forall (thread_ok rep vnew vop pre) (map T jobs)).
  { apply Forall_map. eapply Forall_impl; [|exact Wj]. intros j Wi. split; [now apply hand_reps|exact Wi]. }
  assert (Wo : WF kids h (flat_map (@th_own _ _ _ _) (map T jobs))).
  { eapply WF_perm; [|exact W]. rewrite concat_seq, L1, <- L2.
    apply Permutation_sym.
    assert (X : flat_map (@th_own _ _ _ _) (map T jobs) =
                flat_map (fun i => nth i Gs []) (concat (map job_regs jobs))).
    { clear. induction jobs as [|j jobs IH]; cbn; [trivial|]. rewrite flat_map_app, IH. trivial. }
    rewrite X. apply Permutation_flat_map. exact Pj. }
  assert (Es : map (th_start hnew hclone hdrop hop) (map T jobs) = map (job_start rs) jobs).
  { rewrite map_map. trivial. }
  assert (Ec : map (th_cost vnew vop ncost cost) (map T jobs) = map (job_cost vs) jobs).
  { rewrite map_map. trivial. }
  assert (S := clients_sound kids hnew hclone hdrop hop rep vnew vop pre ncost cost new_ok clone_ok drop_ok op_ok
                (map T jobs) h).
  rewrite Es, Ec in S.
  destruct (S sched Fo Wo) as (S1 & S2 & S3 & S4 & S5). fold cf in S1, S2, S3, S4, S5.
  splits; trivial.
  - destruct S3 as (G & W3). exists (map oa G). now apply WF_point.
  - intros i j r Ej Er. apply (S4 i (T j) r); trivial. now rewrite nth_error_map, Ej.
  - destruct (finish_all (length (snd cf)) (fst cf) (snd cf) (le_n _)) as (s & Ls & F).
    exists s. replace cf with (fst cf, snd cf) by now destruct cf.
    apply Forall_forall. intros p I. apply In_nth_error in I. destruct I as (i & Ei).
    destruct (F i p) as [D|D]; trivial.
    + rewrite <- Ls. apply nth_error_Some. congruence.
    + subst p. exfalso. destruct (S (sched ++ s) Fo Wo) as (N & _). apply N.
      rewrite exec_app. fold cf. replace cf with (fst cf, snd cf) by now destruct cf.
      eapply nth_error_In; eauto.
  - intros rs' Er. destruct (S5 rs' Er) as (Gs' & F2 & W').
    assert (Lr : length rs' = length jobs).
    { assert (X : forall s (c : heap C * list (prog C (list (option Coll) * list Out))), length (snd (exec s c)) = length (snd c)).
      { clear. induction s as [|i s IH]; intros [h ps]; cbn [exec]; [trivial|]. rewrite IH. unfold cstep.
        destruct (nth_error ps i); [|trivial]. destruct (pstep h p); cbn [snd]; trivial; apply length_upd. }
      specialize (X sched (h, map (job_start rs) jobs)). fold cf in X. rewrite Er in X. cbn [snd] in X.
      now rewrite !map_length in X. }
    assert (Z : exists ts, concat Gs' = map Tree ts /\
              flat_map (fun r => reg_roots (fst r)) rs' = map pa ts).
    { clear -F2 Lr rep_roots. revert jobs Gs' Lr F2. induction rs' as [|r rs' IH]; intros [|j jobs] Gs' Lr F2;
        cbn in *; try discriminate; inversion F2; subst.
      - exists []. auto.
      - destruct (IH jobs l') as (ts & E1 & E2); [lia|trivial|].
        destruct (reps_roots _ _ _ H1) as (us & -> & E3). exists (us ++ ts). cbn in *.
        rewrite !map_app. rewrite E1, E2, E3. auto. }
    destruct Z as (ts & E1 & ->). split; [apply WF_exact; congruence|]. split.
    2:{ exists (concat Gs'). split; [|exact W'].
        clear -F2 Lr. revert jobs Gs' Lr F2. induction rs' as [|r rs' IH]; intros [|j jobs] Gs' Lr F2;
          cbn in *; try discriminate; inversion F2; subst; [constructor|].
        cbn [concat]. apply reps_cat; [assumption|]. apply IH; [lia|assumption]. }
    intros Fn. apply (WF_empty_heap kids). replace (@nil own) with (concat Gs'); trivial.
    clear -F2 Lr Fn. revert jobs Gs' Lr F2 Fn. induction rs' as [|r rs' IH]; intros [|j jobs] Gs' Lr F2 Fn;
        cbn in *; try discriminate; inversion F2; subst; trivial.
    inversion Fn; subst. cbn. rewrite (reps_none_own rep _ _ _ H1) by trivial. cbn.
    eapply IH; eauto.
Qed.

(** The properties, for any collection. *)

(** Every program over any number of versions, run on the shared heap, gives
    the outputs it has when every version is a value of its own. *)
Definition persistent : Prop := forall main, within vnew vop pre main [] ->
  exists h rs,
    run [] (hclient hnew hclone hdrop hop main []) = Some (h, (rs, snd (sclient vnew vop main []))).

(** Threads, under every schedule: no thread ever crashes; every thread can
    still finish; a thread that has finished has the outputs it has alone. *)
Definition non_interfering : Prop := forall main jobs,
  within vnew vop pre main [] ->
  let vs := fst (sclient vnew vop main []) in
  Permutation (concat (map job_regs jobs)) (seq 0 (length vs)) ->
  Forall (job_within vs) jobs ->
  exists h rs,
    run [] (hclient hnew hclone hdrop hop main []) = Some (h, (rs, snd (sclient vnew vop main []))) /\
    forall sched,
      let cf := exec sched (h, map (job_start rs) jobs) in
      ~ In Fail (snd cf) /\
      (forall i j r, nth_error jobs i = Some j -> nth_error (snd cf) i = Some (Ret r) ->
         snd r = snd (job_spec vs j)) /\
      (exists sched', Forall finished (snd (exec sched' cf))).

(** Counts are exact at every point of every schedule; when every thread has
    finished the pointers there are are those of the registers and of the
    cells; when every version has been dropped there are no cells. *)
Definition counts_exact : Prop := forall main jobs,
  within vnew vop pre main [] ->
  let vs := fst (sclient vnew vop main []) in
  Permutation (concat (map job_regs jobs)) (seq 0 (length vs)) ->
  Forall (job_within vs) jobs ->
  exists h rs,
    run [] (hclient hnew hclone hdrop hop main []) = Some (h, (rs, snd (sclient vnew vop main []))) /\
    exact_heap kids h (reg_roots rs) /\
    forall sched,
      let cf := exec sched (h, map (job_start rs) jobs) in
      ~ In Fail (snd cf) /\
      (exists held, exact_point kids (fst cf) held) /\
      (forall rs', snd cf = map Ret rs' ->
         exact_heap kids (fst cf) (flat_map (fun r => reg_roots (fst r)) rs') /\
         (Forall (fun j => Forall (eq None) (fst (job_spec vs j))) jobs ->
          forall a, get (fst cf) a = None)).

(** What a call allocates, in any state any program can reach. *)
Definition allocates_at_most : Prop := forall main i o v,
  within vnew vop pre main [] ->
  nth_error (fst (sclient vnew vop main [])) i = Some (Some v) -> pre o v ->
  exists h rs h' rs',
    run [] (hclient hnew hclone hdrop hop main []) = Some (h, (rs, snd (sclient vnew vop main []))) /\
    run h (hclient hnew hclone hdrop hop [COp i o] rs) = Some (h', (rs', [snd (vop o v)])) /\
    length h' <= length h + cost o v.

Theorem persistent_ok : persistent.
Proof.
  intros main Wm.
  destruct (client_runs kids hnew hclone hdrop hop rep vnew vop pre ncost cost new_ok clone_ok drop_ok op_ok
              main [] [] [] [] [])
    as (h & rs & G & E & R & W & L); [constructor|exact Wm|apply WF_nil|]. eauto.
Qed.

Theorem non_interfering_ok : non_interfering.
Proof.
  intros main jobs Wm vs Pj Wj. destruct (world_sound main jobs Wm Pj Wj) as (h & rs & E & _ & _ & S).
  exists h, rs. split; [exact E|]. intros sched cf. destruct (S sched) as (S1 & _ & _ & S2 & S3 & _). auto.
Qed.

Theorem counts_exact_ok : counts_exact.
Proof.
  intros main jobs Wm vs Pj Wj. destruct (world_sound main jobs Wm Pj Wj) as (h & rs & E & _ & X & S).
  exists h, rs. split; [exact E|]. split; [exact X|].
  intros sched cf. destruct (S sched) as (S1 & _ & S2 & _ & _ & S3). splits; trivial.
  intros rs' Er. destruct (S3 rs' Er) as (S4 & S5 & _). auto.
Qed.

Theorem allocates_ok : allocates_at_most.
Proof.
  intros main i o v Wm Ev Po. set (vs := fst (sclient vnew vop main [])) in *.
  destruct (client_runs kids hnew hclone hdrop hop rep vnew vop pre ncost cost new_ok clone_ok drop_ok op_ok
              main [] [] [] [] [])
    as (h & rs & G & E & R & W & L); [constructor|exact Wm|apply WF_nil|].
  rewrite app_nil_r in W. fold vs in R.
  destruct (client_runs kids hnew hclone hdrop hop rep vnew vop pre ncost cost new_ok clone_ok drop_ok op_ok
              [COp i o] h [] rs vs G)
    as (h' & rs' & G' & E' & R' & W' & L').
  { exact R. }
  { cbn [within]. rewrite Ev. auto. }
  { now rewrite app_nil_r. }
  exists h, rs, h', rs'. cbn [sclient cost_of] in E', L'. rewrite Ev in E', L'.
  destruct (vop o v) as [v' x] eqn:Eo. cbn [fst snd] in *. splits; trivial. lia.
Qed.
End World.

Arguments mkJob {Op}.
Arguments job_regs {Op}.
Arguments job_cmds {Op}.
