(** * What the heap holds

    Generic over the collection.  After a program, and when all its threads have finished,
    the cells that are still there, weighed in any way, weigh no more than the versions the
    program still has, each taken as a value of its own. *)
From Coq Require Import List Arith Lia Bool Permutation.
From Verif Require Import PermSolve HeapModel HeapProofs HeapSafe HeapClient HeapWorld.
Import ListNotations.

(** ** Specification *)
Section Weigh.
Context {C : Type}.
(** The contents of the live cells. *)
Definition live (h : heap C) : list C :=
  flat_map (fun x => match x with Some (Full _ c) => [c] | _ => [] end) h.
Definition weigh (w : C -> nat) (h : heap C) : nat := list_sum (map w (live h)).
End Weigh.

Definition held {Val : Type} (W : Val -> nat) (vs : list (option Val)) : nat :=
  list_sum (map (fun v => match v with Some v => W v | None => 0 end) vs).

(** [how_many p l]: how many elements of [l] have the property. *)
Definition how_many {A} (p : A -> bool) (l : list A) : nat := length (filter p l).

(** Writing one cell. *)
Lemma weigh_put : forall {C : Type} (w : C -> nat) (h : heap C) a n c x, get h a = Some (Full n c) ->
  weigh w h + match x with Some (Full _ d) => w d | _ => 0 end = w c + weigh w (set h a x).
Proof.
  intros C w. unfold weigh, live, get. induction h as [|y h IH]; intros [|a] n c x E; cbn [nth_error] in E; try discriminate.
  - destruct y as [y|]; [|discriminate]. inversion E; subst. cbn [set flat_map]. rewrite !map_app, !list_sum_app.
    destruct x as [[m d|]|]; unfold list_sum; cbn [map fold_right app]; lia.
  - cbn [set flat_map]. rewrite !map_app, !list_sum_app. specialize (IH a n c x E). lia.
Qed.

(** ** The cells of a tree *)
Section Cells.
Context {C : Type} (kids : C -> list addr).
Notation ptree := (@ptree C).
Notation own := (@own C).

Fixpoint pnodes (t : ptree) : list (addr * C) := match t with PT a c ts => (a, c) :: flat_map pnodes ts end.
Lemma pnodes_phys : forall h t, phys kids h t -> forall a, In a (pas t) -> exists n c, get h a = Some (Full n c) /\ In (a, c) (pnodes t).
Proof.
  intros h t. induction t as [b c ts IH] using (@ptree_rect2 C). intros Ph a I. rewrite phys_eq in Ph.
  destruct Ph as ((n & E) & _ & F). cbn [pas] in I. destruct I as [<-|I]; [exists n, c; cbn [pnodes]; auto with datatypes|].
  apply in_flat_map in I. destruct I as (t & It & Ia). rewrite Forall_forall in IH, F.
  destruct (IH t It (F t It) a Ia) as (m & d & E' & I'). exists m, d. split; [trivial|]. cbn [pnodes]. right.
  apply in_flat_map. eauto.
Qed.

Lemma sum_incl : forall {X} (f : X -> nat) (l m : list X), NoDup l -> incl l m -> list_sum (map f l) <= list_sum (map f m).
Proof.
  intros X f l. induction l as [|x l IH]; intros m N I; [cbn; lia|]. inversion N; subst.
  assert (Ix : In x m) by (apply I; now left). destruct (in_split _ _ Ix) as (m1 & m2 & ->).
  assert (L : list_sum (map f l) <= list_sum (map f (m1 ++ m2))).
  { apply IH; [trivial|]. intros y Iy. assert (Z := I y (or_intror Iy)). rewrite in_app_iff in *.
    destruct Z as [|[->|]]; [auto|contradiction|auto]. }
  rewrite map_app, list_sum_app in *. cbn [map].
  change (list_sum (f x :: ?l)) with (f x + list_sum l). lia.
Qed.

(** The live cells with their addresses. *)
Fixpoint at_from (i : nat) (h : heap C) : list (addr * C) :=
  match h with
  | [] => []
  | x :: h' => match x with Some (Full _ c) => [(i, c)] | _ => [] end ++ at_from (S i) h'
  end.
Lemma at_from_in : forall h i a c, In (a, c) (at_from i h) -> i <= a /\ exists n, get h (a - i) = Some (Full n c).
Proof.
  induction h as [|x h IH]; intros i a c I; cbn [at_from] in I; [contradiction|]. apply in_app_iff in I. destruct I as [I|I].
  - destruct x as [[n d|]|]; try contradiction. destruct I as [E|[]]. injection E as -> ->. split; [lia|]. exists n.
    now rewrite Nat.sub_diag.
  - destruct (IH _ _ _ I) as (L & n & E). split; [lia|]. exists n. replace (a - i) with (S (a - S i)) by lia. exact E.
Qed.
Lemma at_from_nodup : forall h i, NoDup (at_from i h).
Proof.
  induction h as [|x h IH]; intros i; cbn [at_from]; [constructor|].
  destruct x as [[n d|]|]; cbn [app]; trivial. constructor; trivial. intros I.
  destruct (at_from_in _ _ _ _ I) as (L & _). lia.
Qed.
Lemma at_from_live : forall h i, map snd (at_from i h) = live h.
Proof.
  induction h as [|x h IH]; intros i; [trivial|]. cbn [at_from live flat_map]. rewrite map_app, IH.
  now destruct x as [[n d|]|].
Qed.

Definition gnodes (G : list own) : list (addr * C) :=
  flat_map (fun o => match o with Tree t => pnodes t | Held _ => [] end) G.

(** The cells of [ts], each counted once however many pointers to it there are, weigh at
    most [n]. *)
Definition covers (w : C -> nat) (ts : list ptree) (n : nat) : Prop :=
  exists N, incl (flat_map pnodes ts) N /\ list_sum (map (fun x => w (snd x)) N) <= n.
Definition gcovers (w : C -> nat) (G : list own) (n : nat) : Prop :=
  exists N, incl (gnodes G) N /\ list_sum (map (fun x => w (snd x)) N) <= n.

Lemma live_weigh : forall w h G n, WF kids h G -> gcovers w G n -> weigh w h <= n.
Proof.
  intros w h G n (_ & F & X) (N & In & Ln). unfold weigh. rewrite <- (at_from_live h 0), map_map.
  etransitivity; [|exact Ln]. apply sum_incl; [apply at_from_nodup|]. intros (a, c) I. apply In.
  destruct (at_from_in _ _ _ _ I) as (_ & k & Ea). rewrite Nat.sub_0_r in Ea.
  destruct (X a) as (o & Io & Ia); [congruence|]. unfold gnodes. apply in_flat_map. exists o. split; [trivial|].
  rewrite Forall_forall in F. specialize (F o Io). destruct o as [t|b]; cbn [own_wf own_as] in *.
  - destruct (pnodes_phys h t F a Ia) as (m & d & E' & I'). congruence.
  - destruct Ia as [->|[]]. congruence.
Qed.

Lemma gcovers_app : forall w G G' n n', gcovers w G n -> gcovers w G' n' -> gcovers w (G ++ G') (n + n').
Proof.
  intros w G G' n n' (N & I & L) (N' & I' & L'). exists (N ++ N'). split.
  - unfold gnodes. rewrite flat_map_app. apply incl_app; [now apply incl_appl|now apply incl_appr].
  - rewrite map_app, list_sum_app. lia.
Qed.
Lemma gcovers_trees : forall w ts n, covers w ts n -> gcovers w (map Tree ts) n.
Proof.
  intros w ts n (N & I & L). exists N. split; [|exact L]. intros x Ix. apply I. unfold gnodes in Ix. rewrite flat_map_concat_map, map_map in Ix.
  now rewrite flat_map_concat_map.
Qed.
Lemma covers_nil : forall w n, covers w [] n.
Proof. intros w n. exists []. split; [intros x []|cbn; lia]. Qed.
Lemma covers_app : forall w ts us n m, covers w ts n -> covers w us m -> covers w (ts ++ us) (n + m).
Proof.
  intros w ts us n m (N & I & L) (N' & I' & L'). exists (N ++ N'). split.
  - rewrite flat_map_app. apply incl_app; [now apply incl_appl|now apply incl_appr].
  - rewrite map_app, list_sum_app. lia.
Qed.
Lemma covers_node : forall w a c ts n, covers w ts n -> covers w [PT a c ts] (w c + n).
Proof.
  intros w a c ts n (N & I & L). exists ((a, c) :: N). split.
  - cbn [flat_map pnodes]. rewrite app_nil_r. now apply incl_cons; [left|apply incl_tl].
  - cbn [map snd]. change (list_sum (w c :: ?l)) with (w c + list_sum l). lia.
Qed.
Lemma covers_le : forall w ts n m, covers w ts n -> n <= m -> covers w ts m.
Proof. intros w ts n m (N & I & L) Le. exists N. split; [exact I|lia]. Qed.
(** Pointers to cells that are there already. *)
Lemma covers_more : forall w ts us n, covers w ts n -> incl (flat_map pnodes us) (flat_map pnodes ts) -> covers w (ts ++ us) n.
Proof.
  intros w ts us n (N & I & L) Iu. exists N. split; [|exact L]. rewrite flat_map_app. apply incl_app; [exact I|].
  eapply incl_tran; [exact Iu|exact I].
Qed.
End Cells.

(** ** The property *)
Section Space.
Context {C : Type} (kids : C -> list addr).
Context {Coll Val Op Out : Type} (hnew : prog C Coll) (hclone : Coll -> prog C Coll) (hdrop : Coll -> prog C unit)
        (hop : Op -> Coll -> prog C (Coll * Out)) (roots : Coll -> list addr).
Notation own := (@own C).
Context (rep : Coll -> Val -> list own -> Prop) (vnew : Val) (vop : Op -> Val -> Val * Out)
        (pre : Op -> Val -> Prop) (ncost : nat) (cost : Op -> Val -> nat).
Context (w : C -> nat) (W : Val -> nat).

(** After any program the live cells weigh at most what the versions in its registers do;
    so they do when its registers have been handed to threads and these have finished. *)
Definition holds_at_most : Prop := forall main jobs,
  within vnew vop pre main [] ->
  let vs := fst (sclient vnew vop main []) in
  Permutation (concat (map job_regs jobs)) (seq 0 (length vs)) ->
  Forall (job_within vnew vop pre vs) jobs ->
  exists h rs,
    run [] (hclient hnew hclone hdrop hop main []) = Some (h, (rs, snd (sclient vnew vop main []))) /\
    weigh w h <= held W vs /\
    forall sched rs',
      let cf := exec sched (h, map (job_start hnew hclone hdrop hop rs) jobs) in
      snd cf = map Ret rs' ->
      weigh w (fst cf) <= held W (flat_map (fun j => fst (job_spec vnew vop vs j)) jobs).

Hypothesis new_ok : safe kids ncost hnew [] (fun c G => rep c vnew G).
Hypothesis clone_ok : forall c v G, rep c v G ->
  safe kids 0 (hclone c) G (fun c' G' => exists G1 G2, G' = G1 ++ G2 /\ rep c v G1 /\ rep c' v G2).
Hypothesis drop_ok : forall c v G, rep c v G -> safe kids 0 (hdrop c) G (fun _ G' => G' = []).
Hypothesis op_ok : forall o c v G, rep c v G -> pre o v ->
  safe kids (cost o v) (hop o c) G
    (fun r G' => snd r = snd (vop o v) /\ rep (fst r) (fst (vop o v)) G').
Hypothesis rep_roots : forall c v G, rep c v G -> exists ts, G = map Tree ts /\ roots c = map pa ts.
Hypothesis rep_weigh : forall c v G, rep c v G -> gcovers w G (W v).

Lemma reps_weigh : forall cs vs G, reps rep cs vs G -> gcovers w G (held W vs).
Proof.
  intros cs vs G R. induction R as [|c v G cs vs Gs r R IH|cs vs Gs R IH]; [exists []; split; [intros x []|cbn; lia]| |exact IH].
  apply gcovers_app; [apply (rep_weigh _ _ _ r)|exact IH].
Qed.

Theorem holds_at_most_ok : holds_at_most.
Proof.
  intros main jobs Wm vs Pj Wj.
  destruct (world_sound kids hnew hclone hdrop hop roots rep vnew vop pre ncost cost new_ok clone_ok drop_ok op_ok rep_roots
              main jobs Wm Pj Wj) as (h & rs & E & _ & _ & S).
  exists h, rs. split; [exact E|]. split.
  - destruct (client_runs kids hnew hclone hdrop hop rep vnew vop pre ncost cost new_ok clone_ok drop_ok op_ok
                main [] [] [] [] []) as (h' & rs' & G & E' & R & Wf & _); [constructor|exact Wm|apply WF_nil|].
    rewrite E in E'. injection E' as <- <-. rewrite app_nil_r in Wf.
    exact (live_weigh kids w h G _ Wf (reps_weigh _ _ _ R)).
  - intros sched rs' cf Er. destruct (S sched) as (_ & _ & _ & _ & _ & S6).
    destruct (S6 rs' Er) as (_ & _ & G & R & Wf).
    exact (live_weigh kids w _ G _ Wf (reps_weigh _ _ _ R)).
Qed.
End Space.
