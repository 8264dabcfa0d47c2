(** * List, Stack and Queue on the shared heap: every call *)
From Coq Require Import List Arith Lia Bool Permutation.
From Verif Require Import Base Spec Sim ListModel ListProofs PermSolve HeapModel HeapProofs HeapSafe HeapLooks
  HeapClient HeapList HeapListProofs.
Import ListNotations.
Local Open Scope prog_scope.

Section Seq.
Context {T : Type}.
Notation C := (lcell T).
Notation own := (@own C).
Notation safe := (safe (@lkids T)).

Definition perep (e x : T) (ts : list (@ptree C)) : Prop := e = x /\ ts = [].

(** The list [L], owning [G], stands for the sequence [s]. *)
Definition hlrep (L : hlist) (s : list T) (G : list own) : Prop :=
  lrep LN LE perep L s (last_error s) G.

Fact H1 : forall v nx, l_isN (@LN T v nx) = Some (v, nx).
Proof. reflexivity. Qed.
Fact H2 : forall e, l_isE (@LE T e) = Some e.
Proof. reflexivity. Qed.
Fact H3 : forall v nx, lkids (@LN T v nx) = v :: opt_list nx.
Proof. reflexivity. Qed.
Fact H4 : forall e x ts, perep e x ts -> lkids (LE e) = map pa ts.
Proof. now intros e x ts (-> & ->). Qed.
Fact H5 : forall e x ts a, perep e x ts -> pdepth (PT a (LE e) ts) <= 1.
Proof. intros e x ts a (-> & ->). cbn. lia. Qed.

Lemma last_cons : forall (x : T) s,
  last_error (x :: s) = match s with [] => Some x | _ => last_error s end.
Proof. intros x [|y s]; reflexivity. Qed.

Lemma last_error_rev : forall (s : list T), last_error (rev s) = hd_error s.
Proof.
  intros [|x s]; [reflexivity|]. cbn. induction (rev s) as [|y l IH]; [reflexivity|].
  cbn [app]. rewrite last_cons. destruct l; [reflexivity|exact IH].
Qed.

Lemma hlp_push_ok : forall L s G x, hlrep L s G ->
  safe 2 (hlp_push x L) G (fun L' G' => hlrep L' (x :: s) G').
Proof.
  intros L s G x R. eapply safe_mono; [| |eapply (push_ok _ _ _ 1 perep H3 H4 H5 L s _ G x x []); [exact R|split; trivial]].
  - lia.
  - intros L' G' R'. unfold hlrep. rewrite last_cons. exact R'.
Qed.

Lemma hlp_drop_first_ok : forall L s G, hlrep L s G ->
  safe 0 (hlp_drop_first L) G (fun r G' => snd r = negb (is_nil s) /\ hlrep (fst r) (tl s) G').
Proof.
  intros L s G R. eapply safe_mono; [| |eapply (drop_first_ok _ _ _ _ 1 perep H1 H3 H5 L s); exact R].
  - lia.
  - intros [L' b] G' (E & R'). split; trivial. unfold hlrep. cbn [fst] in *.
    destruct s as [|x [|y s]]; exact R'.
Qed.

Lemma hlp_reverse_ok : forall L s G, hlrep L s G ->
  safe (length s) (hlp_reverse L) G (fun L' G' => exists G1, G' = G ++ G1 /\ hlrep L' (rev s) G1).
Proof.
  intros L s G R. eapply safe_mono; [| |eapply (reverse_ok _ _ _ _ 1 perep H1 H3 H5 L s); exact R].
  - lia.
  - intros L' G' (G1 & -> & R'). exists G1. split; trivial. unfold hlrep. now rewrite last_error_rev.
Qed.

Lemma hlp_reverse_mut_ok : forall L s G, hlrep L s G ->
  safe (length s) (hlp_reverse_mut L) G (fun L' G' => hlrep L' (rev s) G').
Proof.
  intros L s G R. eapply safe_mono; [| |eapply (reverse_mut_ok _ _ _ _ 1 perep H1 H3 H5 L s); exact R].
  - lia.
  - intros L' G' R'. unfold hlrep. now rewrite last_error_rev.
Qed.

Lemma hlp_clone_ok : forall L s G, hlrep L s G ->
  safe 0 (hlp_clone L) G (fun L' G' => exists G1 G2, G' = G1 ++ G2 /\ hlrep L s G1 /\ hlrep L' s G2).
Proof. intros L s G R. eapply clone_ok; exact R. Qed.

Lemma hlp_drop_ok : forall L s G, hlrep L s G -> safe 0 (hlp_drop L) G (fun _ G' => G' = []).
Proof. intros L s G R. eapply (drop_ok _ _ _ _ 1 perep H1 H5); exact R. Qed.

Lemma hlp_first_ok : forall L s G, hlrep L s G ->
  safe 0 (hlp_first L) G (fun r G' => G' = G /\ r = hd_error s).
Proof.
  intros L s G R. eapply safe_mono; [| |eapply (first_ok (@lkids T) _ _ _ _ perep H1 H2 L s); exact R]; [lia|].
  intros r G' (-> & M). split; trivial. destruct s; [trivial|].
  destruct M as (e & ts & -> & -> & _). reflexivity.
Qed.

Lemma hlp_last_ok : forall L s G, hlrep L s G ->
  safe 0 (hlp_last L) G (fun r G' => G' = G /\ r = last_error s).
Proof.
  intros L s G R. eapply safe_mono; [| |eapply (last_ok (@lkids T) _ _ _ perep H2 L s); exact R]; [lia|].
  intros r G' (-> & M). split; trivial. destruct (last_error s); [|trivial].
  now destruct M as (e & ts & -> & -> & _).
Qed.

(** *** The iterator, against that of ListModel.v *)
Notation lentc := (lentc LN LE perep).

Definition lirel (G : list own) (it : hliter) (it' : @l_iter T) : Prop :=
  exists ts, lentc (fst it') ts G /\ it = (hd_error (map pa ts), length (fst it')) /\ snd it' = length (fst it').

Lemma lirel_new : forall L s G lo, hlrep L s G -> lirel G (hl_iter_new L) (l_iter_new (mkL s lo (length s))).
Proof.
  intros L s G lo (ts & tl & -> & Ch & Lt & ->). exists ts. splits; trivial. split; trivial.
  intros u I. apply lent_in. apply in_map. apply in_app_iff. now left.
Qed.

Lemma plain_elem : forall {A} (x : T) t n G (k : T -> prog C A) Q, elemt LE perep x t -> lent t G ->
  looks n (k x) G Q -> looks (S n) (read_elem l_isE (pa t) k) G Q.
Proof.
  intros A x t n G k Q Et Lt K. eapply (elem_looks _ _ perep H2); [exact Et|exact Lt|]. intros e ts [-> ->]. exact K.
Qed.

Lemma hl_next_follows : forall G it it', lirel G it it' ->
  follows (lirel G) G (fun it => 2 * length (fst it)) 2 (hl_next l_isN l_isE it) (l_iter_next it') it'.
Proof.
  intros G it [s n] (ts & Lc & -> & E) o it'' Eo. cbn [fst snd] in *. subst n. unfold hl_next.
  destruct s as [|x s]; cbn [l_iter_next fst snd length] in Eo.
  - injection Eo as <- <-. exists 0. cbn [fst length]. splits; [|lia..].
    change 0 with (Nat.min 1 (length (@nil T)) + 0) at 1.
    eapply looks_bind; [apply (next_ptr_looks _ _ _ perep H1 [] ts G Lc)|]. intros r ->. split; trivial.
    exists []. splits; trivial. split; [constructor|]. intros u [].
  - unfold csub in Eo. cbn [Nat.leb bind] in Eo.
    injection Eo as <- <-. exists 2. cbn [fst length]. splits; [|lia..].
    change 2 with (Nat.min 1 (length (x :: s)) + 1) at 1.
    eapply looks_bind; [apply (next_ptr_looks _ _ _ perep H1 (x :: s) ts G Lc)|].
    intros r (t & ts' & -> & Et & Lt & Lc'). eapply plain_elem; eauto. cbn. split; trivial.
    exists ts'. cbn. splits; trivial. lia.
Qed.

Lemma hlp_runs_looks : forall k L s G, hlrep L s G ->
  looks (Nat.min (2 * length s) (k * 2)) (hlp_runs k L) G (fun r => r = fwd_spec k s).
Proof.
  intros k L s G R. pose proof (lirel_new L s G (last_error s) R) as I.
  destruct (l_step_sim (LIter k) (mkL s (last_error s) (length s)) s) as (l' & El & _); [now split|].
  cbn [l_step list_spec snd] in El.
  destruct (runs l_iter_next l_iter_hint k _) as [r| |] eqn:Er; cbn in El; try discriminate.
  injection El as _ ->.
  unfold hlp_runs, hl_runs. eapply looks_le.
  - eapply (pruns_looks (lirel G) G (fun it => 2 * length (fst it)) 2); [|apply hl_next_follows|exact I|exact Er].
    intros it it' (ts & Lc & -> & E). unfold hl_hint, l_iter_hint. now rewrite E.
  - cbn [l_iter_new fst l_head]. lia.
Qed.

Lemma hlp_runs_ok : forall k L s G, hlrep L s G ->
  safe 0 (hlp_runs k L) G (fun r G' => G' = G /\ r = fwd_spec k s).
Proof. intros k L s G R. eapply looks_safe. apply (hlp_runs_looks k L s G R). Qed.

Lemma hlrep_new : hlrep hl_new [] [].
Proof. apply lrep_new. Qed.

Lemma hlp_push_all_ok : forall vs L s G, hlrep L s G ->
  safe (2 * length vs) (hl_push_all (@lkids T) LN LE 1 vs L) G (fun L' G' => hlrep L' (rev vs ++ s) G').
Proof.
  induction vs as [|v vs IH]; intros L s G R; cbn [hl_push_all]; [now apply safe_ret|].
  eapply (safe_seq _ _ _ 2 (2 * length vs) _ _ G []); [apply (hlp_push_ok L s G v R)|perm| |cbn; lia].
  intros L' G' R'. rewrite app_nil_r. eapply safe_mono; [| |apply (IH L' (v :: s) G' R')]; [lia|].
  intros L2 G2 R2. cbn [rev]. rewrite <- app_assoc. exact R2.
Qed.

Lemma hlp_from_iter_ok : forall vs,
  safe (2 * length vs) (hlp_from_iter vs) [] (fun L' G' => hlrep L' vs G').
Proof.
  intros vs. eapply safe_mono; [| |apply (hlp_push_all_ok (rev vs) hl_new [] [] hlrep_new)].
  - now rewrite rev_length.
  - intros L' G' R. now rewrite rev_involutive, app_nil_r in R.
Qed.

Lemma hlrep_len : forall L s G, hlrep L s G -> hl_len L = length s.
Proof. now intros L s G (ts & tl & -> & Ch & Lt & ->). Qed.

Lemma len0 : forall (s : list T), (length s =? 0) = is_nil s.
Proof. now intros []. Qed.

(** What one call may allocate. *)
Definition list_cost (o : list_op T) (s : list T) : nat :=
  match o with
  | LPush _ | LPushMut _ => 2
  | LFromIter vs => 2 * length vs
  | LRev | LRevMut => length s
  | _ => 0
  end.

Ltac seq n1 n2 G1 F tac := eapply (safe_seq _ _ _ n1 n2 _ _ G1 F); [tac|perm| |lia].

Theorem hl_step_ok : forall o L s G, hlrep L s G ->
  safe (list_cost o s) (hl_step o L) G
    (fun r G' => snd r = snd (list_spec o s) /\ hlrep (fst r) (fst (list_spec o s)) G').
Proof.
  intros o L s G R. destruct o; cbn [hl_step list_cost list_spec fst snd].
  - seq 0 0 G (@nil own) ltac:(apply (hlp_drop_ok L s G R)).
    intros [] G' ->. apply safe_ret. split; [trivial|apply hlrep_new].
  - seq (2 * length l) 0 (@nil own) G ltac:(apply hlp_from_iter_ok).
    intros L' G' R'. seq 0 0 G G' ltac:(apply (hlp_drop_ok L s G R)).
    intros [] G2 ->. now apply safe_ret.
  - seq 0 2 G (@nil own) ltac:(apply (hlp_clone_ok L s G R)).
    intros n G' (G1 & G2 & -> & R1 & R2).
    seq 2 0 G2 G1 ltac:(apply (hlp_push_ok n s G2 v R2)).
    intros n' G' R'. seq 0 0 G1 G' ltac:(apply (hlp_drop_ok L s G1 R1)).
    intros [] G3 ->. now apply safe_ret.
  - seq 2 0 G (@nil own) ltac:(apply (hlp_push_ok L s G v R)).
    intros n' G' R'. apply safe_ret. now rewrite app_nil_r.
  - seq 0 0 G (@nil own) ltac:(apply (hlp_clone_ok L s G R)).
    intros n G' (G1 & G2 & -> & R1 & R2).
    seq 0 0 G2 G1 ltac:(apply (hlp_drop_first_ok n s G2 R2)).
    intros [n' b] G' (E & R'). cbn [fst snd] in *. subst b. destruct s as [|x s]; cbn [is_nil negb].
    + seq 0 0 G' G1 ltac:(apply (hlp_drop_ok n' _ G' R')).
      intros [] G3 ->. now apply safe_ret.
    + seq 0 0 G1 G' ltac:(apply (hlp_drop_ok L _ G1 R1)).
      intros [] G3 ->. now apply safe_ret.
  - seq 0 0 G (@nil own) ltac:(apply (hlp_drop_first_ok L s G R)).
    intros [n' b] G' (E & R'). cbn [fst snd] in *. subst b. apply safe_ret. now rewrite app_nil_r.
  - seq (length s) 0 G (@nil own) ltac:(apply (hlp_reverse_ok L s G R)).
    intros n G' (G1 & -> & R1). seq 0 0 G G1 ltac:(apply (hlp_drop_ok L s G R)).
    intros [] G3 ->. now apply safe_ret.
  - seq (length s) 0 G (@nil own) ltac:(apply (hlp_reverse_mut_ok L s G R)).
    intros n G' R1. apply safe_ret. now rewrite app_nil_r.
  - seq 0 0 G (@nil own) ltac:(apply (hlp_first_ok L s G R)).
    intros x G' (-> & ->). apply safe_ret. now rewrite app_nil_r.
  - seq 0 0 G (@nil own) ltac:(apply (hlp_last_ok L s G R)).
    intros x G' (-> & ->). apply safe_ret. now rewrite app_nil_r.
  - apply safe_ret. cbn [fst snd]. rewrite (hlrep_len L s G R). auto.
  - apply safe_ret. cbn [fst snd]. rewrite (hlrep_len L s G R), len0. auto.
  - seq 0 0 G (@nil own) ltac:(apply (hlp_runs_ok k L s G R)).
    intros x G' (-> & ->). apply safe_ret. now rewrite app_nil_r.
Qed.

(** ** Stack *)
Definition stack_cost (o : stack_op T) (s : list T) : nat :=
  match o with SPush _ | SPushMut _ => 2 | _ => 0 end.

Theorem hs_step_ok : forall o L s G, hlrep L s G ->
  safe (stack_cost o s) (hs_step o L) G
    (fun r G' => snd r = snd (stack_spec o s) /\ hlrep (fst r) (fst (stack_spec o s)) G').
Proof.
  intros o L s G R. destruct o.
  - exact (hl_step_ok LNew L s G R).
  - exact (hl_step_ok (LPush v) L s G R).
  - exact (hl_step_ok (LPushMut v) L s G R).
  - exact (hl_step_ok LDrop L s G R).
  - exact (hl_step_ok LDropMut L s G R).
  - exact (hl_step_ok LFirst L s G R).
  - exact (hl_step_ok LLen L s G R).
  - exact (hl_step_ok LIsEmpty L s G R).
  - exact (hl_step_ok (LIter k) L s G R).
Qed.

(** ** Queue *)
Definition hqrep (q : hqueue) (s : list T) (G : list own) : Prop :=
  exists i o Gi Go, hlrep (hq_in q) i Gi /\ hlrep (hq_out q) o Go /\ s = o ++ rev i /\ G = Gi ++ Go.

Definition queue_cost (o : queue_op T) (s : list T) : nat :=
  match o with
  | QEnq _ | QEnqMut _ => 2
  | QFromIter vs => 2 * length vs
  | QDeq | QDeqMut => length s
  | _ => 0
  end.

Lemma hqrep_new : hqrep hq_new [] [].
Proof. exists [], [], [], []. splits; trivial; apply hlrep_new. Qed.

Lemma hq_clone_ok : forall q s G, hqrep q s G ->
  safe 0 (hq_clone q) G (fun q' G' => exists G1 G2, G' = G1 ++ G2 /\ hqrep q s G1 /\ hqrep q' s G2).
Proof.
  intros q s G (i & o & Gi & Go & Ri & Ro & -> & ->). unfold hq_clone.
  seq 0 0 Gi Go ltac:(apply (hlp_clone_ok _ i Gi Ri)).
  intros i' G' (G1 & G2 & -> & R1 & R2).
  seq 0 0 Go (G1 ++ G2) ltac:(apply (hlp_clone_ok _ o Go Ro)).
  intros o' G' (G3 & G4 & -> & R3 & R4).
  exists ((G1 ++ G3) ++ (G2 ++ G4)). split; [perm|].
  exists (G1 ++ G3), (G2 ++ G4). splits; trivial.
  - exists i, o, G1, G3. auto.
  - exists i, o, G2, G4. auto.
Qed.

Lemma hq_drop_ok : forall q s G, hqrep q s G -> safe 0 (hq_drop q) G (fun _ G' => G' = []).
Proof.
  intros q s G (i & o & Gi & Go & Ri & Ro & -> & ->). unfold hq_drop.
  seq 0 0 Gi Go ltac:(apply (hlp_drop_ok _ i Gi Ri)).
  intros [] G' ->. apply (hlp_drop_ok _ o Go Ro).
Qed.

Lemma hq_enqueue_mut_ok : forall v q s G, hqrep q s G ->
  safe 2 (hq_enqueue_mut v q) G (fun q' G' => hqrep q' (s ++ [v]) G').
Proof.
  intros v q s G (i & o & Gi & Go & Ri & Ro & -> & ->). unfold hq_enqueue_mut.
  seq 2 0 Gi Go ltac:(apply (hlp_push_ok _ i Gi v Ri)).
  intros i' G' R'. apply safe_ret. exists (v :: i), o, G', Go. splits; trivial.
  cbn [rev]. now rewrite app_assoc.
Qed.

Lemma hq_dequeue_mut_ok : forall q s G, hqrep q s G ->
  safe (length s) (hq_dequeue_mut q) G (fun r G' => snd r = negb (is_nil s) /\ hqrep (fst r) (tl s) G').
Proof.
  intros q s G (i & o & Gi & Go & Ri & Ro & -> & ->). unfold hq_dequeue_mut.
  rewrite (hlrep_len _ _ _ Ri), (hlrep_len _ _ _ Ro).
  destruct o as [|x o]; cbn [length Nat.eqb negb].
  - destruct i as [|y i]; cbn [length Nat.eqb negb].
    + apply safe_ret. cbn [fst snd]. split; trivial. exists [], [], Gi, Go. auto.
    + cbn [app]. rewrite rev_length.
      seq (length (y :: i)) 0 Gi Go ltac:(apply (hlp_reverse_mut_ok _ (y :: i) Gi Ri)).
      intros o' G' R'. seq 0 0 G' Go ltac:(apply (hlp_drop_first_ok _ _ G' R')).
      intros [o2 b] G2 (E & R2). apply (safe_perm _ _ _ (Go ++ G2)); [perm|]. apply safe_ret.
      cbn [fst snd] in *. split.
      * cbn [app]. cbn [rev]. now destruct (rev i).
      * exists [], (tl (rev (y :: i))), Go, G2. splits; trivial. cbn [app].
        now rewrite app_nil_r.
  - seq 0 0 Go Gi ltac:(apply (hlp_drop_first_ok _ _ Go Ro)).
    intros [o2 b] G2 (E & R2). apply (safe_perm _ _ _ (Gi ++ G2)); [perm|]. apply safe_ret.
    cbn [fst snd] in *. split; trivial. exists i, o, Gi, G2. splits; trivial.
Qed.

(** *** The iterator.  [m] bounds the number of elements that came in. *)
Definition lazyrel (G : list own) (m : nat) (b : hlazy) (b' : @lazy_iter T) : Prop :=
  match b, b' with
  | HUninit L, Uninit l =>
      exists ts, lentc (l_head l) ts G /\ hl_iter_new L = (hd_error (map pa ts), length (l_head l)) /\
        l_rep l (l_head l) /\ length (l_head l) <= m
  | HInit vec c, Init vec' c' =>
      Forall2 (fun v x => exists t, v = pa t /\ elemt LE perep x t /\ lent t G) vec vec' /\ c = c'
  | _, _ => False
  end.

Definition lazypot (b' : @lazy_iter T) : nat :=
  match b' with
  | Uninit l => 2 * length (l_head l)
  | Init _ (Some i) => i + 1
  | Init _ None => 0
  end.

Definition qirel (G : list own) (m : nat) (it : hqiter) (it' : @q_iter T) : Prop :=
  match fst it, fst it' with
  | Some a, Some a' => lirel G a a'
  | None, None => True
  | _, _ => False
  end /\ lazyrel G m (snd it) (snd it').

Definition qipot (it' : @q_iter T) : nat :=
  match fst it' with Some a' => 2 * length (fst a') | None => 0 end + lazypot (snd it').

(** What a pointer iterator delivers, against what the value-level one does. *)
Definition delivers {St St'} (G : list own) (R : St -> St' -> Prop) (o : option T) (s' : St') (r : option addr * St) : Prop :=
  match fst r, o with
  | Some v, Some x => exists t, v = pa t /\ elemt LE perep x t /\ lent t G
  | None, None => True
  | _, _ => False
  end /\ R (snd r) s'.

Definition one {X} (o : option X) : nat := match o with Some _ => 1 | None => 0 end.

Lemma lazy_init_looks : forall G m vec vec' c o b',
  Forall2 (fun v x => exists t, v = pa t /\ elemt LE perep x t /\ lent t G) vec vec' ->
  lazy_next_init vec' c = Ok (o, b') ->
  looks 0 (hlazy_next_init vec c) G (delivers G (lazyrel G m) o b') /\ one o + lazypot b' <= lazypot (Init vec' c).
Proof.
  intros G m vec vec' c o b' F E. unfold lazy_next_init in E. unfold hlazy_next_init.
  destruct c as [i|]; cbn [bind lift pbind] in *.
  - destruct (nth_error vec' i) as [x|] eqn:En; cbn [bind] in E; [|discriminate]. injection E as <- <-.
    assert (X : exists v, nth_error vec i = Some v /\ exists t, v = pa t /\ elemt LE perep x t /\ lent t G).
    { clear - F En. revert i En. induction F as [|v y l l' Hv F IH]; intros [|i]; cbn [nth_error]; try discriminate.
      - intros [= ->]. eauto.
      - apply IH. }
    destruct X as (v & -> & t & -> & Et & Lt). cbn [lift pbind]. split.
    + split; cbn [fst snd]; eauto. split; trivial.
    + cbn [one]. destruct i as [|i]; cbn [lazypot]; lia.
  - injection E as <- <-. split; [|cbn; lia]. split; cbn; trivial. split; trivial.
Qed.

Lemma hlazy_looks : forall G m b b' o c', lazyrel G m b b' -> lazy_next b' = Ok (o, c') ->
  exists n, looks n (hlazy_next b) G (delivers G (lazyrel G m) o c') /\ n + one o + lazypot c' <= lazypot b' /\ n <= m.
Proof.
  intros G m b b' o c' R E. destruct b as [L|vec c], b' as [l|vec' d]; cbn [lazyrel] in R; try contradiction.
  - destruct R as (ts & Lc & Ei & El & Hm). cbn [lazy_next] in E.
    rewrite (l_elems_ok _ _ El) in E. destruct El as (_ & _ & El). cbn [bind] in E. unfold l_len in E. rewrite El in E.
    set (c := if 0 <? length (l_head l) then Some (length (l_head l) - 1) else None) in *.
    exists (length (l_head l) + 0). splits; [|cbn [lazypot]|lia].
    + cbn [hlazy_next]. assert (hl_len L = length (l_head l)) as -> by now injection Ei.
      rewrite Ei. eapply looks_bind; [apply (collect_ptr_looks _ _ _ perep H1 _ ts G _ Lc); lia|].
      intros vec F. fold c. apply (lazy_init_looks G m vec _ c _ _ F E).
    + enough (one o + lazypot c' <= lazypot (Init (l_head l) c)) as X.
      { unfold c in X. destruct (Nat.ltb_spec 0 (length (l_head l))); cbn [lazypot] in X; lia. }
      clear - E. unfold lazy_next_init in E. destruct c as [i|]; cbn [bind] in E.
      * destruct (nth_error (l_head l) i); cbn [bind] in E; [|discriminate]. injection E as <- <-.
        destruct i; cbn [one lazypot]; lia.
      * injection E as <- <-. cbn. lia.
  - destruct R as [F ->]. destruct (lazy_init_looks G m vec vec' d o c' F E) as [L B]. exists 0. splits; [exact L|lia..].
Qed.

Lemma hq_next_follows : forall G m it it', qirel G m it it' ->
  follows (qirel G m) G qipot (m + 2) (hq_next it) (q_iter_next it') it'.
Proof.
  intros G m [a b] [a' b'] [Ra Rb] o it'' Eo. cbn [fst snd] in *.
  assert (X : exists n, looks n (hq_next_ptr (a, b)) G (delivers G (qirel G m) o it'') /\
            n + one o + qipot it'' <= qipot (a', b') /\ n <= m + 1).
  { assert (Y : forall o c', lazy_next b' = Ok (o, c') ->
      exists n, looks n (let* (o', b1) := hlazy_next b in Ret (o', (None, b1))) G (delivers G (qirel G m) o (None, c')) /\
        n + one o + lazypot c' <= lazypot b' /\ n <= m).
    { intros o1 c1 E1. destruct (hlazy_looks G m b b' o1 c1 Rb E1) as (n & L & B & Bm). exists (n + 0). splits; [|lia..].
      eapply looks_bind; [exact L|]. intros [v b1] [D1 D2]. split; [exact D1|]. split; [exact I|exact D2]. }
    destruct a as [a|], a' as [a'|]; try contradiction; cbn [q_iter_next hq_next_ptr] in *.
    - destruct Ra as (ts & Lc & -> & E). destruct a' as [s n]. cbn [fst snd] in *. subst n.
      destruct s as [|x s]; cbn [l_iter_next fst snd] in Eo.
      + cbn [bind] in Eo. destruct (lazy_next b') as [[o1 c1]| |] eqn:E1; cbn [bind] in Eo; try discriminate.
        injection Eo as <- <-. destruct (Y _ _ eq_refl) as (n & L & B & Bm). exists (0 + n). splits; [|unfold qipot; cbn [fst snd length]; lia|lia].
        change 0 with (Nat.min 1 (length (@nil T))) at 1.
        eapply looks_bind; [apply (next_ptr_looks _ _ _ perep H1 [] ts G Lc)|]. intros r ->. exact L.
      + unfold csub in Eo. cbn [length Nat.leb bind] in Eo. injection Eo as <- <-. exists 1.
        splits; [|unfold qipot; cbn [one fst snd length]; lia|lia].
        change 1 with (Nat.min 1 (length (x :: s)) + 0) at 1.
        eapply looks_bind; [apply (next_ptr_looks _ _ _ perep H1 (x :: s) ts G Lc)|].
        intros r (t & ts' & -> & Et & Lt & Lc'). split; cbn [fst snd]; [eauto|]. split; trivial. cbn [fst].
        exists ts'. cbn [fst snd]. splits; trivial. lia.
    - destruct (lazy_next b') as [[o1 c1]| |] eqn:E1; cbn [bind] in Eo; try discriminate. injection Eo as <- <-.
      destruct (Y _ _ eq_refl) as (n & L & B & Bm). exists n. splits; [exact L|unfold qipot; cbn [fst snd]; lia|lia]. }
  destruct X as (n & L & B & Bm). exists (n + one o). splits; [|lia|destruct o; cbn [one]; lia].
  unfold hq_next. eapply looks_bind; [exact L|]. intros [v it1] [D1 D2]. cbn [fst snd] in *.
  destruct v as [v|], o as [x|]; try contradiction; cbn [one].
  - destruct D1 as (t & -> & Et & Lt). eapply plain_elem; eauto. now split.
  - now split.
Qed.

Lemma hq_new_rel : forall q i o Gi Go, hlrep (hq_in q) i Gi -> hlrep (hq_out q) o Go ->
  qirel (Gi ++ Go) (length i) (hq_iter_new q)
    (q_iter_new (mkQ (mkL i (last_error i) (length i)) (mkL o (last_error o) (length o)))).
Proof.
  intros q i o Gi Go Ri Ro. split; cbn [fst snd hq_iter_new q_iter_new q_in q_out].
  - destruct (lirel_new _ _ _ (last_error o) Ro) as (ts & [Ch Ln] & E1 & E2). exists ts. splits; trivial. split; trivial.
    intros u I. eapply lent_incl; [apply Ln, I|]. intros x. rewrite in_app_iff. auto.
  - destruct (lirel_new _ _ _ (last_error i) Ri) as (ts & [Ch Ln] & E1 & E2). exists ts. cbn in *. splits; trivial; [|now split]. split; trivial.
    intros u I. eapply lent_incl; [apply Ln, I|]. intros x. rewrite in_app_iff. auto.
Qed.

Lemma hq_hint_is : forall G m it it', qirel G m it it' -> hq_hint it = q_iter_hint it'.
Proof.
  intros G m [a b] [a' b'] [Ra Rb]. cbn [fst snd] in *.
  assert (hlazy_hint b = lazy_hint b') as Eb.
  { destruct b, b'; cbn [lazyrel] in Rb; try contradiction.
    - destruct Rb as (ts & _ & Ei & (_ & _ & El) & _). cbn. injection Ei as _ ->. unfold l_len. now rewrite El.
    - destruct Rb as [_ ->]. reflexivity. }
  destruct a as [a|], a' as [a'|]; try contradiction; cbn [hq_hint q_iter_hint]; trivial.
  destruct Ra as (ts & _ & -> & E). unfold hl_hint, l_iter_hint. cbn [snd bind]. now rewrite Eb, E.
Qed.

Lemma hq_iter_looks : forall k q s G, hqrep q s G ->
  looks (Nat.min (2 * length s) (k * (length s + 2))) (hq_iter k q) G (fun r => r = fwd_spec k s).
Proof.
  intros k q s G (i & o & Gi & Go & Ri & Ro & -> & ->). unfold hq_iter.
  set (Q := mkQ (mkL i (last_error i) (length i)) (mkL o (last_error o) (length o))).
  destruct (q_step_sim (QIter k) Q (o ++ rev i)) as (q' & Eq & _).
  { exists i, o. splits; trivial; now split. }
  cbn [q_step queue_spec snd] in Eq.
  destruct (runs q_iter_next q_iter_hint k _) as [r| |] eqn:Er; cbn in Eq; try discriminate.
  injection Eq as _ ->.
  eapply looks_post; [eapply looks_le|].
  - eapply (pruns_looks (qirel (Gi ++ Go) (length i)) (Gi ++ Go) qipot (length i + 2));
      [apply hq_hint_is|apply hq_next_follows|apply (hq_new_rel q i o Gi Go Ri Ro)|exact Er].
  - rewrite app_length, rev_length. unfold qipot. cbn.
    assert (k * (length i + 2) <= k * (length o + length i + 2)) by (apply Nat.mul_le_mono_l; lia). lia.
  - intros x ->. reflexivity.
Qed.

Lemma hq_iter_ok : forall k q s G, hqrep q s G ->
  safe 0 (hq_iter k q) G (fun r G' => G' = G /\ r = fwd_spec k s).
Proof. intros k q s G R. eapply looks_safe. apply (hq_iter_looks k q s G R). Qed.

Theorem hq_step_ok : forall o q s G, hqrep q s G ->
  safe (queue_cost o s) (hq_step o q) G
    (fun r G' => snd r = snd (queue_spec o s) /\ hqrep (fst r) (fst (queue_spec o s)) G').
Proof.
  intros o q s G R. destruct o; cbn [hq_step queue_cost queue_spec fst snd].
  - seq 0 0 G (@nil own) ltac:(apply (hq_drop_ok q s G R)).
    intros [] G' ->. apply safe_ret. split; [trivial|apply hqrep_new].
  - seq (2 * length l) 0 (@nil own) G ltac:(apply hlp_from_iter_ok).
    intros L' G' R'. seq 0 0 G G' ltac:(apply (hq_drop_ok q s G R)).
    intros [] G2 ->. apply safe_ret. split; trivial. exists [], l, [], G'.
    splits; trivial; [apply hlrep_new|]. now rewrite app_nil_r.
  - seq 0 2 G (@nil own) ltac:(apply (hq_clone_ok q s G R)).
    intros n G' (G1 & G2 & -> & R1 & R2).
    seq 2 0 G2 G1 ltac:(apply (hq_enqueue_mut_ok v n s G2 R2)).
    intros n' G' R'. seq 0 0 G1 G' ltac:(apply (hq_drop_ok q s G1 R1)).
    intros [] G3 ->. now apply safe_ret.
  - seq 2 0 G (@nil own) ltac:(apply (hq_enqueue_mut_ok v q s G R)).
    intros n' G' R'. apply safe_ret. now rewrite app_nil_r.
  - seq 0 (length s) G (@nil own) ltac:(apply (hq_clone_ok q s G R)).
    intros n G' (G1 & G2 & -> & R1 & R2).
    seq (length s) 0 G2 G1 ltac:(apply (hq_dequeue_mut_ok n s G2 R2)).
    intros [n' b] G' (E & R'). cbn [fst snd] in *. subst b. destruct s as [|x s]; cbn [is_nil negb].
    + seq 0 0 G' G1 ltac:(apply (hq_drop_ok n' _ G' R')).
      intros [] G3 ->. now apply safe_ret.
    + seq 0 0 G1 G' ltac:(apply (hq_drop_ok q _ G1 R1)).
      intros [] G3 ->. now apply safe_ret.
  - seq (length s) 0 G (@nil own) ltac:(apply (hq_dequeue_mut_ok q s G R)).
    intros [n' b] G' (E & R'). cbn [fst snd] in *. subst b. apply safe_ret. now rewrite app_nil_r.
  - destruct R as (i & o & Gi & Go & Ri & Ro & -> & ->). unfold hq_peek.
    rewrite (hlrep_len _ _ _ Ro). destruct o as [|x o]; cbn [length Nat.eqb negb].
    + seq 0 0 Gi Go ltac:(apply (hlp_last_ok _ _ _ Ri)).
      intros x G' (-> & ->). apply safe_ret. cbn [fst snd app]. split.
      * now rewrite <- (last_error_rev (rev i)), rev_involutive.
      * exists i, [], Gi, Go. auto.
    + seq 0 0 Go Gi ltac:(apply (hlp_first_ok _ _ _ Ro)).
      intros y G' (-> & ->). apply (safe_perm _ _ _ (Gi ++ Go)); [perm|].
      apply safe_ret. cbn [fst snd]. split; trivial. exists i, (x :: o), Gi, Go. auto.
  - apply safe_ret. split; trivial. cbn [fst snd]. destruct R as (i & o & Gi & Go & Ri & Ro & -> & ->).
    rewrite (hlrep_len _ _ _ Ri), (hlrep_len _ _ _ Ro), app_length, rev_length. f_equal. lia.
  - apply safe_ret. split; trivial. cbn [fst snd]. destruct R as (i & o & Gi & Go & Ri & Ro & -> & ->).
    rewrite (hlrep_len _ _ _ Ri), (hlrep_len _ _ _ Ro), <- len0, app_length, rev_length. do 2 f_equal. lia.
  - seq 0 0 G (@nil own) ltac:(apply (hq_iter_ok k q s G R)).
    intros x G' (-> & ->). apply safe_ret. now rewrite app_nil_r.
Qed.

End Seq.
