(** * Clients whose calls may unwind

    As HeapClient.v and HeapWorld.v, but the outcome of a call is not a function of the value it
    is applied to: a call may be cut short by a panic of user code, and whether it is may depend
    on how the cells are shared.  [after o v v' x] says that the call [o] on the value [v] may
    leave [v'] and deliver [x].  The clients are those of HeapClient.v: they catch the panic and
    go on using, cloning and dropping their versions. *)
From Coq Require Import List Arith Lia Bool Permutation.
From Verif Require Import PermSolve HeapModel HeapProofs HeapSafe HeapClient HeapWorld.
Import ListNotations.
Local Open Scope prog_scope.

Section RSpec.
Context {Val Op Out : Type} (vnew : Val) (after : Op -> Val -> Val -> Out -> Prop).

(** [rclient l rs xs rs']: the program [l] started with the values [rs] may deliver [xs] and end
    with the values [rs'].  Each register is a value of its own: a call changes the register it
    is applied to and no other. *)
Fixpoint rclient (l : list (cmd Op)) (rs : list (option Val)) (xs : list Out) (rs' : list (option Val)) : Prop :=
  match l with
  | [] => xs = [] /\ rs' = rs
  | CNew :: l' => rclient l' (rs ++ [Some vnew]) xs rs'
  | CClone i :: l' =>
      match nth_error rs i with
      | Some (Some v) => rclient l' (rs ++ [Some v]) xs rs'
      | _ => rclient l' rs xs rs'
      end
  | COp i o :: l' =>
      match nth_error rs i with
      | Some (Some v) => exists v' x xs', after o v v' x /\ xs = x :: xs' /\ rclient l' (upd rs i (Some v')) xs' rs'
      | _ => rclient l' rs xs rs'
      end
  | CDrop i :: l' =>
      match nth_error rs i with
      | Some (Some v) => rclient l' (upd rs i None) xs rs'
      | _ => rclient l' rs xs rs'
      end
  end.

(** Every call the program comes to, whatever the calls before it leave, is one the property
    speaks of ([allowed] plays the part it has in HeapClient.v). *)
Fixpoint rwithin (allowed : Op -> Val -> Prop) (l : list (cmd Op)) (rs : list (option Val)) : Prop :=
  match l with
  | [] => True
  | CNew :: l' => rwithin allowed l' (rs ++ [Some vnew])
  | CClone i :: l' =>
      match nth_error rs i with
      | Some (Some v) => rwithin allowed l' (rs ++ [Some v])
      | _ => rwithin allowed l' rs
      end
  | COp i o :: l' =>
      match nth_error rs i with
      | Some (Some v) => allowed o v /\ forall v' x, after o v v' x -> rwithin allowed l' (upd rs i (Some v'))
      | _ => rwithin allowed l' rs
      end
  | CDrop i :: l' =>
      match nth_error rs i with
      | Some (Some v) => rwithin allowed l' (upd rs i None)
      | _ => rwithin allowed l' rs
      end
  end.
End RSpec.

Section Rel.
Context {C : Type} (kids : C -> list addr).
Context {Coll Val Op Out : Type}.
Context (hnew : prog C Coll) (hclone : Coll -> prog C Coll) (hdrop : Coll -> prog C unit)
        (hop : Op -> Coll -> prog C (Coll * Out)).
Context (roots : Coll -> list addr).
Notation own := (@own C).
Context (rep : Coll -> Val -> list own -> Prop).
Context (vnew : Val) (after : Op -> Val -> Val -> Out -> Prop).
(** The size of a value, by which the cost of a call is bounded. *)
Context (vsize : Val -> nat) (ncost : nat) (grow : Op -> nat) (cost : Op -> nat -> nat).
Context (allowed : Op -> Val -> Prop).

Notation hclient := (hclient hnew hclone hdrop hop).
Notation rclient := (rclient vnew after).
Notation rwithin := (rwithin vnew after allowed).
Notation reps := (reps rep).

Hypothesis new_ok : safe kids ncost hnew [] (fun c G => rep c vnew G).
Hypothesis clone_ok : forall c v G, rep c v G ->
  safe kids 0 (hclone c) G (fun c' G' => exists G1 G2, G' = G1 ++ G2 /\ rep c v G1 /\ rep c' v G2).
Hypothesis drop_ok : forall c v G, rep c v G -> safe kids 0 (hdrop c) G (fun _ G' => G' = []).
Hypothesis op_ok : forall o c v G, allowed o v -> rep c v G ->
  safe kids (cost o (vsize v)) (hop o c) G (fun r G' => exists v', after o v v' (snd r) /\ rep (fst r) v' G').
Hypothesis after_size : forall o v v' x, after o v v' x -> vsize v' <= grow o + vsize v.
Hypothesis cost_mono : forall o n m, n <= m -> cost o n <= cost o m.
Hypothesis rep_roots : forall c v G, rep c v G -> exists ts, G = map Tree ts /\ roots c = map pa ts.

(** What a program may allocate if its values have at most [s] elements to begin with. *)
Fixpoint rcost (l : list (cmd Op)) (s : nat) : nat :=
  match l with
  | [] => 0
  | CNew :: l' => ncost + rcost l' s
  | COp _ o :: l' => cost o s + rcost l' (grow o + s)
  | _ :: l' => rcost l' s
  end.
Lemma rcost_mono : forall l n m, n <= m -> rcost l n <= rcost l m.
Proof using cost_mono.
  induction l as [|[|i|i o|i] l IH]; intros n m H; cbn [rcost]; auto.
  - specialize (IH _ _ H). lia.
  - pose proof (cost_mono o _ _ H). specialize (IH (grow o + n) (grow o + m)). lia.
Qed.

Definition sized (s : nat) (vs : list (option Val)) : Prop :=
  forall i v, nth_error vs i = Some (Some v) -> vsize v <= s.
Lemma sized_app : forall s vs v, sized s vs -> vsize v <= s -> sized s (vs ++ [Some v]).
Proof using.
  intros s vs v H L i w E. destruct (Nat.lt_ge_cases i (length vs)) as [Hi|Hi].
  - rewrite nth_error_app1 in E by trivial. eauto.
  - rewrite nth_error_app2 in E by trivial. destruct (i - length vs) as [|[|j]]; cbn in E; try discriminate.
    now injection E as <-.
Qed.
Lemma sized_upd : forall s g vs i o, sized s vs -> match o with Some v => vsize v <= g + s | None => True end -> sized (g + s) (upd vs i o).
Proof using.
  intros s g vs i o H L j w E. destruct (nth_error vs i) as [y|] eqn:Ei.
  - destruct (Nat.eq_dec i j) as [<-|N].
    + rewrite (nth_upd _ _ _ _ Ei) in E. injection E as ->. exact L.
    + rewrite nth_upd_ne in E by trivial. specialize (H _ _ E). lia.
  - assert (X : forall (l : list (option Val)) i o, nth_error l i = None -> upd l i o = l).
    { clear. induction l as [|x l IH]; intros [|i] o E; cbn in *; try discriminate; trivial. now rewrite IH. }
    rewrite (X _ _ _ Ei) in E. specialize (H _ _ E). lia.
Qed.
Lemma sized_drop : forall s vs i, sized s vs -> sized s (upd vs i None).
Proof using.
  intros s vs i H j w E. destruct (nth_error vs i) as [y|] eqn:Ei.
  - destruct (Nat.eq_dec i j) as [<-|N].
    + rewrite (nth_upd _ _ _ _ Ei) in E. discriminate.
    + rewrite nth_upd_ne in E by trivial. eauto.
  - assert (X : forall (l : list (option Val)) i o, nth_error l i = None -> upd l i o = l).
    { clear. induction l as [|x l IH]; intros [|i] o E; cbn in *; try discriminate; trivial. now rewrite IH. }
    rewrite (X _ _ _ Ei) in E. eauto.
Qed.

Lemma rclient_safe : forall l cs vs G s, rwithin l vs -> reps cs vs G -> vsize vnew <= s -> sized s vs ->
  safe kids (rcost l s) (hclient l cs) G
    (fun r G' => exists vs', rclient l vs (snd r) vs' /\ reps (fst r) vs' G').
Proof using new_ok clone_ok drop_ok op_ok after_size cost_mono.
  induction l as [|x l IH]; intros cs vs G s W R Hn Hs.
  - apply safe_ret. exists vs. cbn. auto.
  - destruct x as [|i|i o|i]; cbn [HeapClient.hclient HeapCrash.rclient HeapCrash.rwithin rcost] in *.
    + change G with ([] ++ G). eapply safe_bind; [exact new_ok|].
      intros c G' r. destruct (reps_app _ _ _ _ _ _ _ R r) as (G'' & P & R').
      eapply safe_perm; [|apply IH; [exact W|exact R'|exact Hn|now apply sized_app]].
      apply Permutation_sym. eapply Permutation_trans; [|exact P]. perm.
    + assert (N := reps_nth _ _ _ _ i R). destruct (nth_error vs i) as [[v|]|] eqn:Ev;
        [|rewrite N; now apply IH..].
      destruct N as (c & G1 & G2 & E & r & P & U & _). rewrite E.
      eapply safe_perm; [apply Permutation_sym; exact P|].
      apply (safe_bind kids _ _ 0 _ G1 G2 _ _ (clone_ok _ _ _ r)).
      intros c' G' (G3 & G4 & -> & r1 & r2).
      destruct (U c v G3 r1) as (G5 & P5 & R5).
      rewrite (upd_same cs), (upd_same vs) in R5 by trivial.
      destruct (reps_app _ _ _ _ _ _ _ R5 r2) as (G6 & P6 & R6).
      eapply safe_perm; [|apply IH; [exact W|exact R6|exact Hn|apply sized_app; eauto]].
      apply Permutation_sym. eapply Permutation_trans; [|exact P6].
      eapply Permutation_trans; [|apply Permutation_app_tail; exact P5]. perm.
    + assert (N := reps_nth _ _ _ _ i R). destruct (nth_error vs i) as [[v|]|] eqn:Ev.
      2,3: rewrite N; eapply safe_mono; [|intros ? ? X; exact X|apply (IH _ _ _ s W R Hn Hs)];
           pose proof (rcost_mono l s (grow o + s)); lia.
      destruct N as (c & G1 & G2 & E & r & P & U & _). rewrite E.
      eapply safe_perm; [apply Permutation_sym; exact P|].
      assert (Lv := Hs _ _ Ev). destruct W as [Wo W].
      eapply (safe_seq kids _ _ (cost o (vsize v)) (rcost l (grow o + s)) _ _ G1 G2); [apply (op_ok o _ _ _ Wo r)|perm| |].
      2:{ pose proof (cost_mono o _ _ Lv). lia. }
      intros [c' y] G' (v' & Ha & r'). cbn [fst snd] in *.
      destruct (U c' v' G' r') as (G5 & P5 & R5).
      eapply safe_perm; [apply Permutation_sym; exact P5|].
      rewrite <- (app_nil_r G5).
      rewrite <- (Nat.add_0_r (rcost _ _)).
      eapply safe_bind; [apply (IH _ _ _ (grow o + s) (W _ _ Ha) R5); [lia|]|].
      { apply sized_upd; trivial. specialize (after_size _ _ _ _ Ha). lia. }
      intros [rs xs] G6 (vs' & E6 & R6). cbn [fst snd] in *. apply safe_ret. rewrite app_nil_r.
      exists vs'. split; [|exact R6]. exists v', y, xs. auto.
    + assert (N := reps_nth _ _ _ _ i R). destruct (nth_error vs i) as [[v|]|] eqn:Ev;
        [|rewrite N; now apply IH..].
      destruct N as (c & G1 & G2 & E & r & P & _ & G5 & P5 & R5). rewrite E.
      eapply safe_perm; [apply Permutation_sym; exact P|].
      apply (safe_bind kids _ _ 0 _ G1 G2 _ _ (drop_ok _ _ _ r)).
      intros [] G' ->. eapply safe_perm; [|apply IH; [exact W|exact R5|exact Hn|now apply sized_drop]].
      cbn [app]. now apply Permutation_sym.
Qed.

Notation job_start := (job_start hnew hclone hdrop hop).
Notation reg_roots := (reg_roots roots).

(** A run: a main thread starting with an empty heap, whose registers are then handed out, each to
    one thread.  The main thread finishes whatever panics its calls meet, its outputs and the
    values of its registers are as [after] allows call by call, and the counts are exact: nothing
    dangles and nothing leaks.  Under any schedule no thread ever fails, the counts are exact at
    every point, a thread that has finished has behaved as [after] allows on the values it was
    given, every thread can be run to its end, and when all have finished the counts are exact
    again; if they have dropped all they had, the heap is empty. *)
Definition unwinding_contained_within : Prop := forall main, rwithin main [] -> exists h rs xs vs,
  run [] (hclient main []) = Some (h, (rs, xs)) /\ rclient main [] xs vs /\ length vs = length rs /\
  exact_heap kids h (reg_roots rs) /\
  forall jobs : list job, Permutation (concat (map job_regs jobs)) (seq 0 (length vs)) ->
    Forall (fun j => rwithin (job_cmds j) (hand vs (job_regs j))) jobs -> forall sched,
    let cf := exec sched (h, map (job_start rs) jobs) in
    ~ In Fail (snd cf) /\
    (exists held, exact_point kids (fst cf) held) /\
    (forall i j r, nth_error jobs i = Some j -> nth_error (snd cf) i = Some (Ret r) ->
       exists vs', rclient (job_cmds j) (hand vs (job_regs j)) (snd r) vs') /\
    (exists sched', Forall finished (snd (exec sched' cf))) /\
    (forall rs', snd cf = map Ret rs' ->
       exact_heap kids (fst cf) (flat_map (fun r => reg_roots (fst r)) rs') /\
       (Forall (fun r => Forall (eq None) (fst r)) rs' -> forall a, get (fst cf) a = None)).

Theorem unwinding_contained_within_ok : unwinding_contained_within.
Proof using new_ok clone_ok drop_ok op_ok after_size cost_mono rep_roots.
  intros main Wm.
  destruct (run_sound kids _ _ [] [] _ [] (rclient_safe main [] [] [] (vsize vnew) Wm (reps_nil rep) (le_n _)
              (fun i v E => ltac:(destruct i; discriminate E))) (WF_nil kids))
    as (h & [rs xs] & G & E & (vs & Sp & R) & W & L). cbn [fst snd] in Sp, R. rewrite app_nil_r in W.
  destruct (reps_roots roots rep rep_roots _ _ _ R) as (us & EG & Eu).
  destruct (reps_pieces rep _ _ _ R) as (Gs & -> & L1 & L2 & P).
  exists h, rs, xs, vs. split; [exact E|]. split; [exact Sp|]. split; [exact L2|].
  split. { rewrite Eu. apply WF_exact. now rewrite <- EG. }
  intros jobs Pj Wj sched cf.
  set (own_j := fun j : @job Op => flat_map (fun i => nth i Gs []) (job_regs j)).
  set (Q := fun (j : @job Op) (r : list (option Coll) * list Out) G =>
              exists vs', rclient (job_cmds j) (hand vs (job_regs j)) (snd r) vs' /\ reps (fst r) vs' G).
  assert (Hb : exists s, vsize vnew <= s /\ sized s vs).
  { clear. exists (vsize vnew + list_sum (map (fun o => match o with Some v => vsize v | None => 0 end) vs)).
    split; [lia|]. intros i v E. apply nth_error_In in E.
    assert (X : vsize v <= list_sum (map (fun o => match o with Some v => vsize v | None => 0 end) vs)); [|lia].
    induction vs as [|o vs IH]; [easy|]. cbn [map].
    change (list_sum (?a :: ?b)) with (a + list_sum b). destruct E as [->|E]; [lia|]. specialize (IH E). lia. }
  destruct Hb as (s & Hs1 & Hs2).
  assert (T : threads_ok kids (map (job_start rs) jobs) (map Q jobs) (map (fun j => (rcost (job_cmds j) s, own_j j)) jobs)).
  { clear cf Pj. induction Wj as [|j jobs Wj1 Wj IH]; cbn [map]; constructor; trivial.
    apply rclient_safe; trivial; [now apply hand_reps|].
    intros i v Ei. unfold hand in Ei. rewrite nth_error_map in Ei. destruct (nth_error (job_regs j) i) as [m|]; [|discriminate].
    cbn in Ei. injection Ei as Ei. apply (Hs2 m). destruct (nth_error vs m) as [o|] eqn:Em.
    - now rewrite (nth_error_nth _ _ _ Em) in Ei; subst.
    - apply nth_error_None in Em. rewrite nth_overflow in Ei by trivial. discriminate. }
  assert (Wo : WF kids h (owned_by (map (fun j => (rcost (job_cmds j) s, own_j j)) jobs) ++ [])).
  { rewrite app_nil_r. eapply WF_perm; [|exact W]. rewrite concat_seq, L1, <- L2.
    apply Permutation_sym.
    assert (X : owned_by (map (fun j => (rcost (job_cmds j) s, own_j j)) jobs) =
                flat_map (fun i => nth i Gs []) (concat (map job_regs jobs))).
    { clear. unfold owned_by. induction jobs as [|j jobs IH]; cbn; [trivial|]. rewrite flat_map_app, IH. trivial. }
    rewrite X. apply Permutation_flat_map. exact Pj. }
  destruct (exec_sound kids sched h _ _ _ [] T Wo) as (ss & T' & W' & _). fold cf in T', W'. rewrite app_nil_r in W'.
  split; [eapply threads_no_fail; eauto|].
  split; [eexists; exact (WF_point kids _ _ W')|].
  split; [|split].
  - intros i j r Et Er. destruct (threads_nth kids _ _ _ _ _ T' Er)
      as (Q' & n & G & s1 & s2 & EQ & -> & S & _).
    rewrite nth_error_map, Et in EQ. cbn in EQ. injection EQ as <-.
    cbn in S. destruct S as (G' & _ & vs' & E1 & _). eauto.
  - destruct cf as [h1 ps] eqn:Ec. cbn [fst snd] in *.
    destruct (finish_all (length ps) h1 ps (le_n _)) as (s' & Ls & F). exists s'.
    assert (T2 : exists ss2, threads_ok kids (snd (exec s' (h1, ps))) (map Q jobs) ss2).
    { destruct (exec_sound kids s' h1 _ _ _ [] T') as (ss2 & X & _); [now rewrite app_nil_r|eauto]. }
    destruct T2 as (ss2 & T2). apply Forall_forall. intros p Ip.
    apply In_nth_error in Ip. destruct Ip as (i & Ei).
    assert (Hi : i < length ps). { rewrite <- Ls. apply nth_error_Some. congruence. }
    destruct (F i p Hi Ei) as [D|D]; [exact D|]. exfalso. subst p.
    apply (threads_no_fail kids _ _ _ T2). eapply nth_error_In; exact Ei.
  - intros rs' Er.
    assert (X : forall (rs' : list (list (option Coll) * list Out)) jobs ss, threads_ok kids (map Ret rs') (map Q jobs) ss ->
      exists us, Permutation (owned_by ss) (map Tree us) /\ flat_map (fun r => reg_roots (fst r)) rs' = map pa us /\
        (Forall (fun r => Forall (eq None) (fst r)) rs' -> us = [])).
    { clear - rep_roots. induction rs' as [|r rs' IH]; intros jobs ss T; inversion T; subst.
      - exists []. cbn. splits; trivial.
      - destruct jobs as [|j jobs]; [discriminate|].
        match goal with H : ?x :: ?l = map Q (j :: jobs) |- _ => cbn in H; injection H as -> -> end.
        match goal with H : threads_ok _ _ _ _ |- _ => destruct (IH _ _ H) as (us & P2 & E2 & N2) end.
        match goal with H : safe _ _ _ _ _ |- _ => cbn in H; destruct H as (G' & P & vs' & E1 & R') end.
        destruct (reps_roots roots rep rep_roots _ _ _ R') as (us' & -> & Eu').
        exists (us' ++ us). splits.
        + unfold owned_by in *. cbn. rewrite map_app. now apply Permutation_app.
        + cbn [flat_map]. now rewrite map_app, E2, Eu'.
        + intros Fn. inversion Fn as [|? ? F1 F2]; subst. rewrite (N2 F2), app_nil_r.
          assert (Z : forall (cs : list (option Coll)), Forall (eq None) cs -> reg_roots cs = []).
          { clear. induction cs as [|c cs IH]; intros F; [reflexivity|]. inversion F; subst. cbn. auto. }
          rewrite (Z _ F1) in Eu'. now destruct us'. }
    rewrite Er in T'. destruct (X _ _ _ T') as (us' & P' & E' & N').
    assert (W2 : WF kids (fst cf) (map Tree us')) by (eapply WF_perm; eauto).
    split; [rewrite E'; now apply WF_exact|].
    intros Fn. apply (WF_empty_heap kids). rewrite (N' Fn) in W2. exact W2.
Qed.
End Rel.

(** The same for collections all calls of which are spoken of. *)
Section Free.
Context {C : Type} (kids : C -> list addr).
Context {Coll Val Op Out : Type}.
Context (hnew : prog C Coll) (hclone : Coll -> prog C Coll) (hdrop : Coll -> prog C unit)
        (hop : Op -> Coll -> prog C (Coll * Out)).
Context (roots : Coll -> list addr).
Notation own := (@own C).
Context (rep : Coll -> Val -> list own -> Prop).
Context (vnew : Val) (after : Op -> Val -> Val -> Out -> Prop).
Context (vsize : Val -> nat) (ncost : nat) (cost : Op -> nat -> nat).

Notation hclient := (hclient hnew hclone hdrop hop).
Notation rclient := (rclient vnew after).
Notation job_start := (job_start hnew hclone hdrop hop).
Notation reg_roots := (reg_roots roots).

Hypothesis new_ok : safe kids ncost hnew [] (fun c G => rep c vnew G).
Hypothesis clone_ok : forall c v G, rep c v G ->
  safe kids 0 (hclone c) G (fun c' G' => exists G1 G2, G' = G1 ++ G2 /\ rep c v G1 /\ rep c' v G2).
Hypothesis drop_ok : forall c v G, rep c v G -> safe kids 0 (hdrop c) G (fun _ G' => G' = []).
Hypothesis op_ok : forall o c v G, rep c v G ->
  safe kids (cost o (vsize v)) (hop o c) G (fun r G' => exists v', after o v v' (snd r) /\ rep (fst r) v' G').
Hypothesis after_size : forall o v v' x, after o v v' x -> vsize v' <= S (vsize v).
Hypothesis cost_mono : forall o n m, n <= m -> cost o n <= cost o m.
Hypothesis rep_roots : forall c v G, rep c v G -> exists ts, G = map Tree ts /\ roots c = map pa ts.

Definition unwinding_contained : Prop := forall main, exists h rs xs vs,
  run [] (hclient main []) = Some (h, (rs, xs)) /\ rclient main [] xs vs /\ length vs = length rs /\
  exact_heap kids h (reg_roots rs) /\
  forall jobs : list job, Permutation (concat (map job_regs jobs)) (seq 0 (length vs)) -> forall sched,
    let cf := exec sched (h, map (job_start rs) jobs) in
    ~ In Fail (snd cf) /\
    (exists held, exact_point kids (fst cf) held) /\
    (forall i j r, nth_error jobs i = Some j -> nth_error (snd cf) i = Some (Ret r) ->
       exists vs', rclient (job_cmds j) (hand vs (job_regs j)) (snd r) vs') /\
    (exists sched', Forall finished (snd (exec sched' cf))) /\
    (forall rs', snd cf = map Ret rs' ->
       exact_heap kids (fst cf) (flat_map (fun r => reg_roots (fst r)) rs') /\
       (Forall (fun r => Forall (eq None) (fst r)) rs' -> forall a, get (fst cf) a = None)).

Lemma rwithin_any : forall l rs, rwithin vnew after (fun _ _ => True) l rs.
Proof using.
  induction l as [|[|i|i o|i] l IH]; intros rs; cbn [rwithin]; trivial; destruct (nth_error rs i) as [[v|]|]; auto.
Qed.

Theorem unwinding_contained_ok : unwinding_contained.
Proof using new_ok clone_ok drop_ok op_ok after_size cost_mono rep_roots.
  intros main.
  destruct (unwinding_contained_within_ok kids hnew hclone hdrop hop roots rep vnew after vsize ncost (fun _ => 1) cost
              (fun _ _ => True) new_ok clone_ok drop_ok (fun o c v G _ => op_ok o c v G) after_size cost_mono rep_roots
              main (rwithin_any _ _)) as (h & rs & xs & vs & H1 & H2 & H3 & H4 & H5).
  exists h, rs, xs, vs. split; [exact H1|]. split; [exact H2|]. split; [exact H3|]. split; [exact H4|].
  intros jobs P. apply H5; [exact P|]. apply Forall_forall. intros j _. apply rwithin_any.
Qed.
End Free.
