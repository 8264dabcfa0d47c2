(** * ptr_eq on the shared heap (for C41)

    Generic part: what pointer equality of two versions says, for any collection
    that meets the hypotheses of HeapWorld.v. *)
From Coq Require Import List Arith Lia Bool Permutation.
From Verif Require Import PermSolve HeapModel HeapProofs HeapSafe HeapClient HeapWorld.
Import ListNotations.
Local Open Scope prog_scope.

Section Run.
Context {C : Type}.

Lemma run_bind : forall A B (p : prog C A) (f : A -> prog C B) h r, run h (pbind p f) = Some r ->
  exists h1 x, run h p = Some (h1, x) /\ run h1 (f x) = Some r.
Proof.
  intros A B p f. induction p; intros h r E; cbn [pbind run] in *; eauto; try discriminate.
  - destruct (get h a) as [[n c|]|]; [eauto|discriminate..].
  - destruct (get h a) as [[n c|]|]; [eauto|discriminate..].
  - destruct (get h a) as [[[|[|n]] c|]|]; try discriminate; eauto.
  - destruct (get h a) as [[[|[|n]] c|]|]; try discriminate; eauto.
  - destruct (get h a) as [[n d|]|]; try discriminate; eauto.
  - destruct (get h a) as [[[|[|n]] c|]|]; try discriminate; eauto.
Qed.

(** A program that only drops. *)
Fixpoint drops {A} (p : prog C A) : Prop :=
  match p with
  | Ret _ | Fail => True
  | Read _ k => forall c, drops (k c)
  | Dec _ k | Unwrap _ k => forall r, drops (k r)
  | Enter k | Leave k => drops k
  | _ => False
  end.

Lemma drops_bind : forall A B (p : prog C A) (f : A -> prog C B),
  drops p -> (forall x, drops (f x)) -> drops (pbind p f).
Proof. intros A B p f. induction p; cbn; intros; auto; contradiction. Qed.

Lemma drops_each : forall p l, (forall a, drops (p a)) -> drops (each (C := C) p l).
Proof. intros p l H. induction l; [exact I|]. cbn. now apply drops_bind. Qed.

Lemma drops_ptr : forall kids f a, drops (drop_ptr (C := C) kids f a).
Proof.
  intros kids. induction f as [|f IH]; intros a; [exact I|]. cbn. intros [c|]; [|exact I].
  cbn. apply drops_bind; [|intros; exact I]. now apply drops_each.
Qed.

Lemma get_set : forall (h : heap C) a b x y, get h a = Some y -> get (set h a x) b = if Nat.eq_dec a b then x else get h b.
Proof.
  intros h a b x y E. destruct (Nat.eq_dec a b) as [<-|N]; [apply get_set_eq; eapply get_lt; eauto|now apply get_set_ne].
Qed.

(** Dropping raises no count. *)
Lemma drops_run : forall A (p : prog C A) h h' x, drops p -> run h p = Some (h', x) ->
  forall a n c, get h' a = Some (Full n c) -> exists m, n <= m /\ get h a = Some (Full m c).
Proof.
  intros A p. induction p; intros h0 h' y D E b n0 c0 G; cbn [drops run] in *; try contradiction; try discriminate.
  - injection E as -> ->. eauto.
  - destruct (get h0 a) as [[n d|]|]; try discriminate. eauto.
  - destruct (get h0 a) as [[[|[|n]] d|]|] eqn:Ea; try discriminate;
      destruct (H _ _ _ _ (D _) E _ _ _ G) as (m & L & Gm); rewrite (get_set _ _ _ _ _ Ea) in Gm;
      destruct (Nat.eq_dec a b) as [<-|]; try discriminate; eauto.
    injection Gm as <- <-. exists (S (S n)). split; [lia|exact Ea].
  - destruct (get h0 a) as [[[|[|n]] d|]|] eqn:Ea; try discriminate; [eauto| |eauto].
    destruct (H _ _ _ _ (D _) E _ _ _ G) as (m & L & Gm); rewrite (get_set _ _ _ _ _ Ea) in Gm.
    destruct (Nat.eq_dec a b) as [<-|]; try discriminate; eauto.
  - eauto.
  - eauto.
Qed.
End Run.

Section Ptr.
Context {C : Type} (kids : C -> list addr).
Context {Coll Val Op Out : Type}.
Context (hnew : prog C Coll) (hclone : Coll -> prog C Coll) (hdrop : Coll -> prog C unit)
        (hop : Op -> Coll -> prog C (Coll * Out)).
Context (roots : Coll -> list addr).
Notation own := (@own C).
Context (rep : Coll -> Val -> list own -> Prop).
Context (vnew : Val) (vop : Op -> Val -> Val * Out) (pre : Op -> Val -> Prop)
        (ncost : nat) (cost : Op -> Val -> nat).
Context (ptr_eq : Coll -> Coll -> bool).
Notation hclient := (hclient hnew hclone hdrop hop).
Notation sclient := (sclient vnew vop).

(** ** Statements *)

(** When every thread has finished, any two versions held anywhere that are
    [ptr_eq] have the same contents.  (With one thread and no commands for it,
    these are the versions of one sequential program.) *)
Definition ptr_eq_sound (same : Val -> Val -> Prop) : Prop := forall main jobs,
  within vnew vop pre main [] ->
  let vs := fst (sclient main []) in
  Permutation (concat (map job_regs jobs)) (seq 0 (length vs)) ->
  Forall (job_within vnew vop pre vs) jobs ->
  exists h rs,
    run [] (hclient main []) = Some (h, (rs, snd (sclient main []))) /\
    forall sched ends,
      snd (exec sched (h, map (job_start hnew hclone hdrop hop rs) jobs)) = map Ret ends ->
      let regs := flat_map fst ends in
      let vals := flat_map (fun j => fst (job_spec vnew vop vs j)) jobs in
      length regs = length vals /\
      forall i j m1 m2 v1 v2,
        nth_error regs i = Some (Some m1) -> nth_error regs j = Some (Some m2) ->
        nth_error vals i = Some (Some v1) -> nth_error vals j = Some (Some v2) ->
        ptr_eq m1 m2 = true -> same v1 v2.

(** In every state a program can reach, a version is [ptr_eq] to itself and to
    a clone of it, and stays so when the clone is put through a call that
    [leaves] the contents as they are. *)
Definition ptr_eq_clone (leaves : Op -> Val -> Prop) : Prop := forall main i v,
  within vnew vop pre main [] ->
  nth_error (fst (sclient main [])) i = Some (Some v) ->
  exists h rs h1 m, let n := length rs in
    run [] (hclient main []) = Some (h, (rs, snd (sclient main []))) /\
    nth_error rs i = Some (Some m) /\ ptr_eq m m = true /\
    run h (hclient [CClone i] rs) = Some (h1, (rs ++ [Some m], [])) /\
    forall o, leaves o v -> pre o v ->
      exists h2 m',
        run h1 (hclient [COp n o] (rs ++ [Some m])) = Some (h2, (rs ++ [Some m'], [snd (vop o v)])) /\
        ptr_eq m m' = true.

(** In every state a program can reach, a version put through a call that
    [remakes] it is afterwards [ptr_eq] to no other version. *)
Definition ptr_eq_fresh (remakes : Op -> Prop) : Prop := forall main i o v,
  within vnew vop pre main [] ->
  nth_error (fst (sclient main [])) i = Some (Some v) -> remakes o -> pre o v ->
  exists h rs h' m',
    run [] (hclient main []) = Some (h, (rs, snd (sclient main []))) /\
    run h (hclient [COp i o] rs) = Some (h', (upd rs i (Some m'), [snd (vop o v)])) /\
    forall j m, j <> i -> nth_error rs j = Some (Some m) -> ptr_eq m' m = false.

(** ** Proofs *)
Hypothesis new_ok : safe kids ncost hnew [] (fun c G => rep c vnew G).
Hypothesis clone_ok : forall c v G, rep c v G ->
  safe kids 0 (hclone c) G (fun c' G' => exists G1 G2, G' = G1 ++ G2 /\ rep c v G1 /\ rep c' v G2).
Hypothesis drop_ok : forall c v G, rep c v G -> safe kids 0 (hdrop c) G (fun _ G' => G' = []).
Hypothesis op_ok : forall o c v G, rep c v G -> pre o v ->
  safe kids (cost o v) (hop o c) G
    (fun r G' => snd r = snd (vop o v) /\ rep (fst r) (fst (vop o v)) G').
Hypothesis rep_roots : forall c v G, rep c v G -> exists ts, G = map Tree ts /\ roots c = map pa ts.

Lemma reps_two : forall rs vs G i j m1 m2 v1 v2, reps rep rs vs G -> i <> j ->
  nth_error rs i = Some (Some m1) -> nth_error rs j = Some (Some m2) ->
  nth_error vs i = Some (Some v1) -> nth_error vs j = Some (Some v2) ->
  exists G1 G2 G3, Permutation G (G1 ++ G2 ++ G3) /\ rep m1 v1 G1 /\ rep m2 v2 G2.
Proof.
  intros rs vs G i j m1 m2 v1 v2 R N E1 E2 F1 F2.
  assert (X := reps_nth rep _ _ _ i R). rewrite F1 in X.
  destruct X as (c & G1 & G2 & Ec & r & P & _ & G3 & P3 & R3). rewrite E1 in Ec. injection Ec as <-.
  assert (Y := reps_nth rep _ _ _ j R3). rewrite nth_upd_ne in Y by trivial. rewrite F2 in Y.
  destruct Y as (c & G4 & G5 & Ec & r2 & P5 & _). rewrite nth_upd_ne in Ec by trivial. rewrite E2 in Ec.
  injection Ec as <-. exists G1, G4, G5. split; [|auto].
  eapply Permutation_trans; [exact P|]. apply Permutation_app_head.
  eapply Permutation_trans; eassumption.
Qed.

Theorem ptr_eq_sound_ok : forall same : Val -> Val -> Prop, (forall v, same v v) ->
  (forall m1 v1 G1 m2 v2 G2 h F, rep m1 v1 G1 -> rep m2 v2 G2 -> WF kids h (G1 ++ G2 ++ F) ->
     ptr_eq m1 m2 = true -> same v1 v2) -> ptr_eq_sound same.
Proof.
  intros same Hr Hs main jobs Wm vs Pj Wj.
  destruct (world_sound kids hnew hclone hdrop hop roots rep vnew vop pre ncost cost new_ok clone_ok drop_ok op_ok rep_roots
              main jobs Wm Pj Wj) as (h & rs & E & _ & _ & S).
  exists h, rs. split; [exact E|]. intros sched ends Ee regs vals.
  destruct (S sched) as (_ & _ & _ & _ & _ & S5). destruct (S5 ends Ee) as (_ & _ & G & R & W).
  fold regs in R. fold vs in R. fold vals in R. split.
  { clear -R. induction R; cbn; congruence. }
  intros i j m1 m2 v1 v2 E1 E2 F1 F2 Pe. destruct (Nat.eq_dec i j) as [<-|N].
  { rewrite F1 in F2. injection F2 as <-. apply Hr. }
  destruct (reps_two _ _ _ i j _ _ _ _ R N E1 E2 F1 F2) as (G1 & G2 & G3 & P & r1 & r2).
  eapply (Hs m1 v1 G1 m2 v2 G2 _ G3); eauto. eapply WF_perm; eauto.
Qed.

Lemma upd_last : forall X (l : list X) x y, upd (l ++ [x]) (length l) y = l ++ [y].
Proof. intros X l x y. induction l; cbn; congruence. Qed.

Theorem ptr_eq_clone_ok : forall leaves : Op -> Val -> Prop,
  (forall m, ptr_eq m m = true) -> (forall h c h' c', run h (hclone c) = Some (h', c') -> c' = c) ->
  (forall o m v G h F h' r, rep m v G -> WF kids h (G ++ F) -> leaves o v -> pre o v ->
     run h (hop o m) = Some (h', r) -> ptr_eq m (fst r) = true) ->
  ptr_eq_clone leaves.
Proof.
  intros leaves Hr Hc Hl main i v Wm Ev.
  destruct (client_runs kids hnew hclone hdrop hop rep vnew vop pre ncost cost new_ok clone_ok drop_ok op_ok
              main [] [] [] [] [])
    as (h & rs & G & E & R & W & _); [constructor|exact Wm|apply WF_nil|].
  set (vs := fst (sclient main [])) in *. rewrite app_nil_r in W.
  assert (N := reps_nth rep _ _ _ i R). rewrite Ev in N. destruct N as (m & G1 & G2 & Em & r & P & U & _).
  destruct (client_runs kids hnew hclone hdrop hop rep vnew vop pre ncost cost new_ok clone_ok drop_ok op_ok
              [CClone i] h [] rs vs G)
    as (h1 & rs1 & G3 & E3 & R3 & W3 & _).
  { exact R. } { cbn [within]. now rewrite Ev. } { now rewrite app_nil_r. }
  cbn [HeapClient.sclient] in E3, R3. rewrite Ev in E3, R3. cbn [fst snd] in E3, R3.
  assert (Ers : rs1 = rs ++ [Some m]).
  { cbn [HeapClient.hclient] in E3. rewrite Em in E3.
    destruct (run_bind _ _ _ _ _ _ E3) as (h2 & c & X1 & X2). apply Hc in X1. subst c.
    cbn [run] in X2. now injection X2 as _ ->. }
  subst rs1. exists h, rs, h1, m. intros n.
  split; [exact E|]. split; [exact Em|]. split; [apply Hr|]. split; [exact E3|].
  intros o Lo Po.
  assert (Ln : length rs = length vs) by (clear -R; induction R; cbn; congruence).
  assert (Ev' : nth_error (vs ++ [Some v]) n = Some (Some v)).
  { unfold n. rewrite nth_error_app2 by lia. rewrite Ln, Nat.sub_diag. reflexivity. }
  assert (Em' : nth_error (rs ++ [Some m]) n = Some (Some m)).
  { unfold n. rewrite nth_error_app2 by lia. rewrite Nat.sub_diag. reflexivity. }
  destruct (client_runs kids hnew hclone hdrop hop rep vnew vop pre ncost cost new_ok clone_ok drop_ok op_ok
              [COp n o] h1 [] (rs ++ [Some m]) (vs ++ [Some v]) G3)
    as (h2 & rs2 & G4 & E4 & R4 & W4 & _).
  { exact R3. } { cbn [within]. rewrite Ev'. auto. } { exact W3. }
  cbn [HeapClient.sclient] in E4. rewrite Ev' in E4. destruct (vop o v) as [v' x] eqn:Eo. cbn [fst snd] in *.
  assert (N := reps_nth rep _ _ _ n R3). rewrite Ev' in N.
  destruct N as (m0 & G5 & G6 & Em0 & r5 & P5 & _). rewrite Em' in Em0. injection Em0 as <-.
  cbn [HeapClient.hclient] in E4. rewrite Em' in E4. pose proof E4 as E5.
  destruct (run_bind _ _ _ _ _ _ E5) as (h4 & [m' y] & X1 & X2). cbn [HeapClient.hclient pbind run] in X2.
  unfold n in X2. rewrite upd_last in X2. injection X2 as -> <- Ey.
  exists h2, m'. split; [cbn [HeapClient.hclient]; rewrite Em'; exact E4|].
  apply (Hl o m v G5 h1 G6 h2 (m', y)); trivial. eapply WF_perm; [exact P5|]. now rewrite app_nil_r in W3.
Qed.

Lemma count_flat : forall (rs : list (option Coll)) i a m, nth_error rs i = Some (Some m) -> In a (roots m) ->
  1 <= count_occ Nat.eq_dec (reg_roots roots rs) a.
Proof.
  intros rs i a m E I. apply (count_occ_In Nat.eq_dec). unfold reg_roots. apply in_flat_map.
  exists (Some m). split; [|exact I]. eapply nth_error_In; eauto.
Qed.
Lemma count_two : forall (rs : list (option Coll)) i j a m m', i <> j ->
  nth_error rs i = Some (Some m) -> nth_error rs j = Some (Some m') -> In a (roots m) -> In a (roots m') ->
  2 <= count_occ Nat.eq_dec (reg_roots roots rs) a.
Proof.
  intros rs. induction rs as [|r rs IH]; intros i j a m m' N E1 E2 I1 I2; [destruct i; discriminate|].
  change (reg_roots roots (r :: rs)) with (match r with Some c => roots c | None => [] end ++ reg_roots roots rs).
  rewrite count_occ_app.
  destruct i as [|i], j as [|j]; cbn [nth_error] in E1, E2.
  - congruence.
  - injection E1 as ->. pose proof (proj1 (count_occ_In Nat.eq_dec _ _) I1) as X.
    assert (Y := count_flat _ _ _ _ E2 I2). unfold addr in *; lia.
  - injection E2 as ->. pose proof (proj1 (count_occ_In Nat.eq_dec _ _) I2) as X.
    assert (Y := count_flat _ _ _ _ E1 I1). unfold addr in *; lia.
  - assert (X := IH i j a m m' ltac:(congruence) E1 E2 I1 I2). unfold addr in *; lia.
Qed.

Theorem ptr_eq_fresh_ok : forall remakes : Op -> Prop,
  (forall m1 m2, ptr_eq m1 m2 = true -> roots m1 = roots m2) ->
  (forall o m h h' r, remakes o -> run h (hop o m) = Some (h', r) ->
     exists a, In a (roots (fst r)) /\ forall n c, get h' a = Some (Full n c) -> n <= 1) ->
  ptr_eq_fresh remakes.
Proof.
  intros remakes Hp Hm main i o v Wm Ev Ro Po.
  destruct (client_runs kids hnew hclone hdrop hop rep vnew vop pre ncost cost new_ok clone_ok drop_ok op_ok
              main [] [] [] [] [])
    as (h & rs & G & E & R & W & _); [constructor|exact Wm|apply WF_nil|].
  set (vs := fst (sclient main [])) in *. rewrite app_nil_r in W.
  assert (N := reps_nth rep _ _ _ i R). rewrite Ev in N. destruct N as (m & G1 & G2 & Em & _).
  destruct (client_runs kids hnew hclone hdrop hop rep vnew vop pre ncost cost new_ok clone_ok drop_ok op_ok
              [COp i o] h [] rs vs G)
    as (h' & rs' & G' & E' & R' & W' & _).
  { exact R. } { cbn [within]. now rewrite Ev. } { now rewrite app_nil_r. }
  cbn [HeapClient.sclient] in E', R'. rewrite Ev in E', R'. destruct (vop o v) as [v' x] eqn:Eo. cbn [fst snd] in *.
  cbn [HeapClient.hclient] in E'. rewrite Em in E'. pose proof E' as E2.
  destruct (run_bind _ _ _ _ _ _ E2) as (h4 & [m' y] & X1 & X2). cbn [HeapClient.hclient pbind run] in X2.
  injection X2 as -> <- Ey. exists h, rs, h', m'. split; [exact E|].
  split; [cbn [HeapClient.hclient]; rewrite Em; exact E'|].
  intros j m2 N Em2. destruct (ptr_eq m' m2) eqn:Pe; [exfalso|reflexivity].
  apply Hp in Pe. destruct (Hm o m h h' (m', y) Ro X1) as (a & Ia & Ha). cbn [fst] in *.
  destruct (reps_roots roots rep rep_roots _ _ _ R') as (ts & -> & Er).
  rewrite app_nil_r in W'. apply WF_exact in W'. destruct W' as (W1 & W2 & _). rewrite <- Er in W1, W2.
  assert (Ei : nth_error (upd rs i (Some m')) i = Some (Some m')) by (eapply nth_upd; eauto).
  assert (Ej : nth_error (upd rs i (Some m')) j = Some (Some m2)) by (rewrite nth_upd_ne; trivial; congruence).
  assert (Two := count_two _ i j a m' m2 ltac:(congruence) Ei Ej Ia ltac:(congruence)).
  destruct (W1 a) as (n & c & Ea).
  { apply in_or_app. left. unfold reg_roots. apply in_flat_map. exists (Some m'). split; [|exact Ia]. eapply nth_error_In; eauto. }
  specialize (Ha n c Ea). specialize (W2 a n c Ea). rewrite count_occ_app in W2. unfold addr in *. lia.
Qed.
End Ptr.
