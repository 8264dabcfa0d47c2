(** Iterators of RedBlackTreeMap with comparisons that keep no law: proofs. *)
From Coq Require Import List NArith Arith Bool Lia.
From Verif Require Import Base Spec SpecMap SpecLoose Sim RBModel RBProofs RBIter LawlessModel.
Import ListNotations.

(** ** Leaving items out *)
Section Thin.
Context {A : Type}.
Lemma th_refl : forall l : list A, thinned l l.
Proof. induction l; constructor; assumption. Qed.
Lemma th_none : forall l : list A, thinned [] l.
Proof. induction l; constructor; assumption. Qed.
Lemma th_app : forall a' a b' b : list A, thinned a' a -> thinned b' b -> thinned (a' ++ b') (a ++ b).
Proof. intros a' a b' b H Hb. induction H; cbn [app]; [assumption|constructor; assumption|constructor; assumption]. Qed.
Lemma th_trans : forall a b c : list A, thinned a b -> thinned b c -> thinned a c.
Proof.
  intros a b c H1 H2. revert a H1. induction H2 as [|x b c H2 IH|x b c H2 IH]; intros a H1.
  - assumption.
  - inversion H1; subst; constructor; now apply IH.
  - constructor. now apply IH.
Qed.
Lemma th_rev : forall a b : list A, thinned a b -> thinned (rev a) (rev b).
Proof.
  intros a b H. induction H; cbn [rev].
  - constructor.
  - apply th_app; [assumption|apply th_refl].
  - rewrite <- (app_nil_r (rev l')). apply th_app; [assumption|apply th_none].
Qed.
Lemma th_tl : forall l : list A, thinned (tl l) l.
Proof. intros [|x l]; [constructor|]. cbn [tl]. constructor. apply th_refl. Qed.
End Thin.

Section IterProofs.
Context {W K V : Type}.
Notation tree := (tree K V).
Notation entry := (prod K V).

Definition nl (t : tree) : Prop := t <> Leaf.
Lemma cur_raw : forall bw (s : istk K V), Forall nl (s_stack s) -> s_current s = hd_error (raw bw (s_stack s)).
Proof. intros bw [[|[|e c l r] st] d] H; try reflexivity. cbn [s_stack] in H. inversion H as [|? ? Hn ?]; subst. now destruct Hn. Qed.
Lemma nl_dig : forall bw (t : tree) st, Forall nl st -> Forall nl (s_dig bw t st).
Proof.
  intros bw. induction t as [|e c l IHl r IHr]; intros st H; cbn [s_dig]; [assumption|].
  destruct bw; [apply IHr|apply IHl]; (constructor; [discriminate|assumption]).
Qed.

(** A stack with the entries [L] before it. *)
Definition stk (bw : bool) (s : istk K V) (L : list entry) : Prop :=
  s_backwards s = bw /\ Forall nl (s_stack s) /\ raw bw (s_stack s) = L.

Section Range.
Variable R : range_code W K.

Lemma w_dig_ok : forall bw (t : tree) w st, Forall nl st -> let '(w', o) := w_dig_towards R w bw t st in
  forall st', o = Some st' -> Forall nl st' /\ exists l, raw bw st' = l ++ raw bw st /\ thinned l (seq bw t).
Proof.
  intros bw t. induction t as [|e c l IHl r IHr]; intros w st Hst; cbn [w_dig_towards].
  - intros st' E. injection E as <-. split; [assumption|]. exists []. split; [reflexivity|]. unfold seq, ord. destruct bw; constructor.
  - rewrite seq_node. destruct (if bw then rg_end R w (fst e) else rg_start R w (fst e)) as [w1 [[|]|]].
    + assert (Hn : Forall nl (Tree e c l r :: st)) by (constructor; [discriminate|assumption]).
      assert (X : forall (near far : tree) o, near = (if bw then r else l) -> far = (if bw then l else r) ->
        (forall st', o = Some st' -> Forall nl st' /\ exists l0, raw bw st' = l0 ++ raw bw (Tree e c l r :: st) /\ thinned l0 (seq bw near)) ->
        forall st', o = Some st' -> Forall nl st' /\ exists l0, raw bw st' = l0 ++ raw bw st /\ thinned l0 (seq bw near ++ e :: seq bw far)).
      { intros near far o En Ef H st' E. destruct (H st' E) as (H1 & l0 & H2 & H3). split; [assumption|].
        exists (l0 ++ e :: seq bw far). split; [|apply th_app; [assumption|apply th_refl]]. rewrite H2. cbn [raw flat_map rest].
        rewrite Ef, <- app_assoc. reflexivity. }
      destruct bw; [specialize (IHr w1 _ Hn)|specialize (IHl w1 _ Hn)];
        destruct (w_dig_towards R w1 _ _ _) as [w2 o]; eapply X; eauto.
    + assert (X : forall (near far : tree) o,
        (forall st', o = Some st' -> Forall nl st' /\ exists l0, raw bw st' = l0 ++ raw bw st /\ thinned l0 (seq bw far)) ->
        forall st', o = Some st' -> Forall nl st' /\ exists l0, raw bw st' = l0 ++ raw bw st /\ thinned l0 (seq bw near ++ e :: seq bw far)).
      { intros near far o H st' E. destruct (H st' E) as (H1 & l0 & H2 & H3). split; [assumption|].
        exists l0. split; [assumption|]. change l0 with ([] ++ l0). apply th_app; [apply th_none|]. now constructor. }
      destruct bw; [specialize (IHl w1 _ Hst)|specialize (IHr w1 _ Hst)];
        destruct (w_dig_towards R w1 _ _ _) as [w2 o]; eapply X; eauto.
    + discriminate.
Qed.

Lemma w_clear_ok : forall bw w s L, stk bw s L -> let '(w', x) := w_clear_if_finished R w s in
  exists L', stk bw match x with Gave s' => s' | Torn s' => s' end L' /\ (L' = L \/ L' = []).
Proof.
  intros bw w s L (Hb & Hn & Hr). unfold w_clear_if_finished.
  destruct (s_current s) as [e|].
  - destruct (if s_backwards s then rg_start R w (fst e) else rg_end R w (fst e)) as [w1 [[|]|]].
    + exists L. split; [now repeat split|now left].
    + exists []. split; [|now right]. split; [exact Hb|]. split; [constructor|reflexivity].
    + exists L. split; [now repeat split|now left].
  - exists L. split; [now repeat split|now left].
Qed.

Lemma w_new_ok : forall bw w (m : rbmap K V), let '(w', o) := w_s_new R w m bw in
  forall s, o = Some s -> exists L, stk bw s L /\ thinned L (seq bw (rb_root m)).
Proof.
  intros bw w m. unfold w_s_new. pose proof (w_dig_ok bw (rb_root m) w [] ltac:(constructor)) as H.
  destruct (w_dig_towards R w bw (rb_root m) []) as [w1 [st|]]; [|discriminate].
  destruct (H st eq_refl) as (Hn & l & Hr & Ht). cbn [raw flat_map] in Hr. rewrite app_nil_r in Hr.
  pose proof (w_clear_ok bw w1 (mkStk st bw) l ltac:(split; [reflexivity|split; [exact Hn|exact Hr]])) as Hc.
  destruct (w_clear_if_finished R w1 (mkStk st bw)) as [w2 [s|s]]; [|discriminate].
  intros s' E. injection E as <-. destruct Hc as (L' & HL & [->| ->]).
  - eauto.
  - exists []. split; [assumption|apply th_none].
Qed.

Lemma adv_stack : forall bw (e : entry) c (l r : tree) st L, Forall nl (Tree e c l r :: st) -> raw bw (Tree e c l r :: st) = L ->
  stk bw (mkStk (s_dig bw (if bw then l else r) st) bw) (tl L).
Proof.
  intros bw e c l r st L Hn Hr. split; [reflexivity|]. split; [apply nl_dig; now inversion Hn|].
  cbn [s_stack]. rewrite dig_raw. cbn [raw flat_map rest app] in Hr. subst L. reflexivity.
Qed.

Lemma w_advance_ok : forall bw w s L, stk bw s L -> let '(w', x) := w_s_advance R w s in
  exists L', stk bw match x with Gave s' => s' | Torn s' => s' end L' /\ (L' = tl L \/ L' = []).
Proof.
  intros bw w [[|[|e c l r] st] b] L (Hb & Hn & Hr); cbn [s_stack s_backwards] in *; subst b.
  - cbn. exists L. cbn in Hr. subst L. split; [repeat split; constructor|now left].
  - exfalso. inversion Hn as [|? ? X ?]; subst. now destruct X.
  - unfold w_s_advance. cbn [s_stack s_backwards as_node]. unfold far. cbn [n_left n_right].
    apply w_clear_ok. eapply adv_stack; eassumption.
Qed.

(** What the iterator may still give in direction [bw], [g] having been given. *)
Definition dir_ok (m : rbmap K V) (bw : bool) (i : witer K V) (g : list entry) : Prop :=
  match wi_stack bw i with
  | None => g = []
  | Some s => exists L, stk bw s L /\ thinned (g ++ L) (seq bw (rb_root m))
  end.
Definition opt_list {A} (o : option A) : list A := match o with Some x => [x] | None => [] end.

Lemma put_same : forall bw (i : witer K V) s, wi_stack bw (wi_put bw i s) = Some s.
Proof. intros [|] i s; reflexivity. Qed.
Lemma put_other : forall bw (i : witer K V) s, wi_stack (negb bw) (wi_put bw i s) = wi_stack (negb bw) i.
Proof. intros [|] i s; reflexivity. Qed.
Lemma put_map : forall bw (i : witer K V) s, wi_map (wi_put bw i s) = wi_map i.
Proof. intros [|] i s; reflexivity. Qed.

Lemma wi_step_ok : forall m bw w i g gn, wi_map i = m -> dir_ok m bw i g -> dir_ok m (negb bw) i gn ->
  exists w' x, wi_step R bw w i = Ok (w', x) /\
  let '(i', o) := match x with Gave (i', o) => (i', o) | Torn i' => (i', None) end in
  wi_map i' = m /\ dir_ok m bw i' (g ++ opt_list o) /\ dir_ok m (negb bw) i' gn.
Proof.
  intros m bw w i g gn Hm Hd Hn. unfold wi_step.
  assert (Hi : let '(w1, o) := wi_init R bw w i in forall i1, o = Some i1 ->
    wi_map i1 = m /\ dir_ok m bw i1 g /\ dir_ok m (negb bw) i1 gn /\ wi_stack bw i1 <> None).
  { unfold wi_init. destruct (wi_stack bw i) as [s|] eqn:Es.
    - intros i1 E. injection E as <-. rewrite Es. repeat split; auto. discriminate.
    - pose proof (w_new_ok bw w (wi_map i)) as H. destruct (w_s_new R w (wi_map i) bw) as [w1 [s|]]; [|discriminate].
      intros i1 E. injection E as <-. destruct (H s eq_refl) as (L & H1 & H2). rewrite put_map. split; [assumption|].
      split; [|split].
      + unfold dir_ok in *. rewrite put_same. rewrite Es in Hd. subst g. exists L. split; [assumption|]. now rewrite <- Hm.
      + unfold dir_ok in *. now rewrite put_other.
      + rewrite put_same. discriminate. }
  destruct (wi_init R bw w i) as [w1 [i1|]]; cbn [wcall].
  2:{ exists w1, (Torn i). split; [reflexivity|]. cbn [opt_list]. rewrite app_nil_r. auto. }
  destruct (Hi i1 eq_refl) as (Hm1 & Hd1 & Hn1 & Hs1). clear Hi Hm Hd Hn.
  destruct (wi_is_empty R w1 i1) as [w2 [e|]]; cbn [wcall].
  2:{ exists w2, (Torn i1). split; [reflexivity|]. cbn [opt_list]. rewrite app_nil_r. auto. }
  pose proof Hd1 as Hd2. unfold dir_ok in Hd2. destruct (wi_stack bw i1) as [s|] eqn:Es; [|contradiction].
  destruct Hd2 as (L & Hs & HL).
  assert (Hc : exists cur, (if e then Ok None else let! s := unwrap (Some s) in Ok (s_current s)) = Ok cur /\
    (cur = None \/ cur = hd_error L)).
  { destruct e; eexists; (split; [reflexivity|]); [now left|right]. destruct Hs as (_ & H1 & <-). now apply cur_raw. }
  destruct Hc as (cur & -> & Hcur). cbn [bind unwrap].
  pose proof (w_advance_ok bw w2 s L Hs) as Ha. destruct (w_s_advance R w2 s) as [w3 x].
  destruct Ha as (L' & HL' & HLL).
  assert (Hfin : forall s' o, o = None \/ o = cur -> stk bw s' L' ->
    wi_map (wi_put bw i1 s') = m /\ dir_ok m bw (wi_put bw i1 s') (g ++ opt_list o) /\ dir_ok m (negb bw) (wi_put bw i1 s') gn).
  { intros s' o Ho Hs'. rewrite put_map. split; [assumption|]. split; [|unfold dir_ok in *; now rewrite put_other].
    unfold dir_ok. rewrite put_same. exists L'. split; [assumption|].
    eapply th_trans; [|exact HL]. rewrite <- app_assoc. apply th_app; [apply th_refl|].
    assert (Ht : thinned L' (tl L)) by (destruct HLL as [-> | ->]; [apply th_refl|apply th_none]).
    assert (Ho' : o = None \/ o = hd_error L) by (destruct Ho as [->| ->]; tauto).
    destruct Ho' as [->| ->]; cbn [opt_list app].
    - eapply th_trans; [exact Ht|apply th_tl].
    - destruct L as [|x0 L]; cbn [hd_error opt_list app tl] in *; [assumption|]. now constructor. }
  destruct x as [s'|s'].
  - eexists w3, _. split; [reflexivity|]. cbv iota beta. apply Hfin; [now right|assumption].
  - eexists w3, _. split; [reflexivity|]. cbv iota beta. apply Hfin; [now left|assumption].
Qed.

Lemma w_range_ok : forall ds m w i gf gb, wi_map i = m -> dir_ok m false i gf -> dir_ok m true i gb ->
  exists w' i' outs, w_iterate (wi_step R) ds w i = Ok (w', i', outs) /\ length outs = length ds /\
    thinned (gf ++ items false ds outs) (seq false (rb_root m)) /\ thinned (gb ++ items true ds outs) (seq true (rb_root m)).
Proof.
  induction ds as [|bw ds IH]; intros m w i gf gb Hm Hf Hb; cbn [w_iterate].
  - exists w, i, []. split; [reflexivity|]. split; [reflexivity|]. cbn [items]. rewrite !app_nil_r.
    assert (X : forall d g, dir_ok m d i g -> thinned g (seq d (rb_root m))).
    { intros d g H. unfold dir_ok in H. destruct (wi_stack d i) as [s|]; [|subst; apply th_none].
      destruct H as (L & _ & H). eapply th_trans; [|exact H]. rewrite <- (app_nil_r g) at 1.
      apply th_app; [apply th_refl|apply th_none]. }
    auto.
  - assert (Hs : exists w' x, wi_step R bw w i = Ok (w', x) /\
      let '(i', o) := match x with Gave (i', o) => (i', o) | Torn i' => (i', None) end in
      wi_map i' = m /\ dir_ok m false i' (if bw then gf else gf ++ opt_list o) /\ dir_ok m true i' (if bw then gb ++ opt_list o else gb)).
    { destruct bw.
      - destruct (wi_step_ok m true w i gb gf Hm Hb Hf) as (w' & x & E & H). exists w', x. split; [assumption|].
        destruct (match x with Gave (i', o) => (i', o) | Torn i' => (i', None) end) as [i' o]. tauto.
      - destruct (wi_step_ok m false w i gf gb Hm Hf Hb) as (w' & x & E & H). exists w', x. split; [assumption|].
        destruct (match x with Gave (i', o) => (i', o) | Torn i' => (i', None) end) as [i' o]. tauto. }
    destruct Hs as (w1 & x & -> & Hs). cbn [bind].
    destruct x as [[i1 o]|i1]; destruct Hs as (Hm1 & Hf1 & Hb1);
      destruct (IH m w1 i1 _ _ Hm1 Hf1 Hb1) as (w2 & i2 & outs & -> & El & H1 & H2); cbn [bind].
    + exists w2, i2, (Some o :: outs). split; [reflexivity|]. split; [cbn [length]; congruence|]. cbn [items].
      destruct o as [y|]; cbn [opt_list] in *; [|destruct bw; rewrite app_nil_r in *; auto].
      destruct bw; cbn [Bool.eqb]; rewrite <- app_assoc in *; cbn [app] in *; auto.
    + exists w2, i2, (None :: outs). split; [reflexivity|]. split; [cbn [length]; congruence|]. cbn [items].
      cbn [opt_list] in *. destruct bw; rewrite app_nil_r in *; auto.
Qed.
End Range.

(** ** The whole map *)
Section Full.
Variable gt : W -> K -> K -> W * option bool.
Notation R := (full_range gt).

Lemma full_dig : forall bw (t : tree) w st, w_dig_towards R w bw t st = (w, Some (s_dig bw t st)).
Proof.
  intros bw. induction t as [|e c l IHl r IHr]; intros w st; cbn [w_dig_towards s_dig]; [reflexivity|].
  destruct bw; cbn [full_range rg_start rg_end]; auto.
Qed.
Lemma full_clear : forall w (s : istk K V), w_clear_if_finished R w s = (w, Gave s).
Proof. intros w s. unfold w_clear_if_finished. destruct (s_current s); [|reflexivity]. now destruct (s_backwards s). Qed.
Lemma full_new : forall bw w (m : rbmap K V), exists s, w_s_new R w m bw = (w, Some s) /\ stk bw s (seq bw (rb_root m)).
Proof.
  intros bw w m. unfold w_s_new. rewrite full_dig, full_clear. eexists. split; [reflexivity|].
  split; [reflexivity|]. split; [apply nl_dig; constructor|]. cbn [s_stack]. rewrite dig_raw. cbn [raw flat_map]. apply app_nil_r.
Qed.
Lemma full_advance : forall bw w s L, stk bw s L -> exists s', w_s_advance R w s = (w, Gave s') /\ stk bw s' (tl L).
Proof.
  intros bw w [[|[|e c l r] st] b] L (Hb & Hn & Hr); cbn [s_stack s_backwards] in *; subst b.
  - cbn. eexists. split; [reflexivity|]. cbn in Hr. subst L. split; [reflexivity|]. split; [constructor|reflexivity].
  - exfalso. inversion Hn as [|? ? X ?]; subst. now destruct X.
  - unfold w_s_advance. cbn [s_stack s_backwards as_node]. unfold far. cbn [n_left n_right]. rewrite full_clear.
    eexists. split; [reflexivity|]. eapply adv_stack; eassumption.
Qed.

(** [a] entries have been passed in direction [bw]. *)
Definition at_pos (m : rbmap K V) (bw : bool) (i : witer K V) (a : nat) : Prop :=
  match wi_stack bw i with
  | None => a = 0
  | Some s => stk bw s (skipn a (seq bw (rb_root m)))
  end.

Lemma tl_skipn : forall A a (l : list A), tl (skipn a l) = skipn (S a) l.
Proof. intros A. induction a as [|a IH]; intros [|x l]; try reflexivity. cbn [skipn] in *. rewrite IH. reflexivity. Qed.
Lemma hd_skipn : forall A a (l : list A), hd_error (skipn a l) = nth_error l a.
Proof. intros A. induction a as [|a IH]; intros [|x l]; try reflexivity. cbn [skipn nth_error]. apply IH. Qed.

Lemma full_step : forall m bw w i a an, wi_map i = m -> at_pos m bw i a -> at_pos m (negb bw) i an ->
  exists w' x, wi_step R bw w i = Ok (w', x) /\
  match x with
  | Gave (i', o) => wi_map i' = m /\ at_pos m bw i' (S a) /\ at_pos m (negb bw) i' an /\
      (o = None \/ o = nth_error (seq bw (rb_root m)) a) /\
      (wi_stack (negb bw) i = None -> w' = w /\ wi_stack (negb bw) i' = None /\ o = nth_error (seq bw (rb_root m)) a)
  | Torn i' => wi_map i' = m /\ at_pos m bw i' a /\ at_pos m (negb bw) i' an /\ wi_stack (negb bw) i <> None
  end.
Proof.
  intros m bw w i a an Hm Hd Hn. unfold wi_step.
  assert (Hi : exists i1 s, wi_init R bw w i = (w, Some i1) /\ wi_map i1 = m /\ wi_stack bw i1 = Some s /\
    stk bw s (skipn a (seq bw (rb_root m))) /\ wi_stack (negb bw) i1 = wi_stack (negb bw) i).
  { unfold wi_init, at_pos in *. destruct (wi_stack bw i) as [s|] eqn:Es.
    - exists i, s. auto.
    - destruct (full_new bw w (wi_map i)) as (s & -> & Hs). exists (wi_put bw i s), s. rewrite put_map, put_same, put_other.
      subst a. cbn [skipn]. rewrite <- Hm at 2. auto. }
  destruct Hi as (i1 & s & -> & Hm1 & Es & Hs & Eo). cbn [wcall].
  assert (Hn1 : at_pos m (negb bw) i1 an) by (unfold at_pos in *; now rewrite Eo).
  assert (Hone : wi_stack (negb bw) i = None -> wi_is_empty R w i1 = (w, Some false)).
  { intros E. rewrite E in Eo. unfold wi_is_empty. destruct bw; cbn [wi_stack negb] in *; rewrite Eo; [reflexivity|]. now destruct (wi_fwd i1). }
  destruct (wi_is_empty R w i1) as [w2 [e|]] eqn:Ee; cbn [wcall].
  2:{ exists w2, (Torn i1). split; [reflexivity|]. split; [assumption|]. split; [unfold at_pos; now rewrite Es|]. split; [assumption|].
      intros X. specialize (Hone X). discriminate. }
  rewrite Es. cbn [unwrap bind].
  assert (Hc : s_current s = nth_error (seq bw (rb_root m)) a).
  { rewrite <- hd_skipn. destruct Hs as (_ & H1 & <-). now apply cur_raw. }
  destruct (full_advance bw w2 s _ Hs) as (s' & Ea & Hs'). rewrite tl_skipn in Hs'.
  assert (Hp : wi_map (wi_put bw i1 s') = m /\ at_pos m bw (wi_put bw i1 s') (S a) /\ at_pos m (negb bw) (wi_put bw i1 s') an).
  { rewrite put_map. split; [assumption|]. unfold at_pos in *. rewrite put_same, put_other. auto. }
  destruct Hp as (P1 & P2 & P3).
  destruct e; cbn [bind]; rewrite Ea; eexists w2, _; (split; [reflexivity|]); cbv iota beta;
    (split; [exact P1|]); (split; [exact P2|]); (split; [exact P3|]).
  - split; [now left|]. intros X. specialize (Hone X). congruence.
  - split; [now right|]. intros X. specialize (Hone X). injection Hone as <-. rewrite put_other, Eo. auto.
Qed.

Lemma th_snoc : forall (E : list entry) a g o, thinned g (firstn a E) -> o = None \/ o = nth_error E a ->
  thinned (g ++ opt_list o) (firstn (S a) E).
Proof.
  intros E a g o Hg Ho.
  assert (Hs : firstn (S a) E = firstn a E ++ opt_list (nth_error E a)).
  { clear. revert a. induction E as [|x E IH]; intros [|a]; try reflexivity. cbn [firstn nth_error app] in *. f_equal. apply IH. }
  rewrite Hs. apply th_app; [assumption|]. destruct Ho as [->| ->]; [apply th_none|apply th_refl].
Qed.
Lemma th_longer : forall (E : list entry) a g, thinned g (firstn a E) -> thinned g (firstn (S a) E).
Proof. intros E a g Hg. rewrite <- (app_nil_r g). apply (th_snoc E a g None Hg). now left. Qed.

Lemma wt_zero : forall bw w (i : witer K V * nat), snd i <= 0 -> wt_step R bw w i = Ok (w, Gave (i, None)).
Proof. intros bw w i H. unfold wt_step. destruct (Nat.ltb_spec 0 (snd i)); [lia|reflexivity]. Qed.
Lemma wt_succ : forall bw w (i : witer K V) n, wt_step R bw w (i, S n)
  = wbind (wi_step R bw w i) (fun r => (r, n)) (fun w '(r, o) => Ok (w, Gave ((r, n), o))).
Proof. intros bw w i n. unfold wt_step. cbn [fst snd]. rewrite csub_S. reflexivity. Qed.

Lemma w_full_ok : forall ds m w i a b gf gb E, E = elems (rb_root m) -> wi_map (fst i) = m ->
  at_pos m false (fst i) a -> at_pos m true (fst i) b -> a + b + snd i <= length E ->
  thinned gf (firstn a E) -> thinned gb (firstn b (rev E)) ->
  exists w' i' outs, w_iterate (wt_step R) ds w i = Ok (w', i', outs) /\ length outs = length ds /\
    thinned ((gf ++ items false ds outs) ++ rev (gb ++ items true ds outs)) E.
Proof.
  induction ds as [|bw ds IH]; intros m w i a b gf gb E HE Hm Ha Hb Hlen Hf Hg; cbn [w_iterate].
  - exists w, i, []. split; [reflexivity|]. split; [reflexivity|]. cbn [items]. rewrite !app_nil_r.
    rewrite <- (firstn_skipn a E) at 1. apply th_app; [assumption|].
    assert (Hr : thinned (rev gb) (skipn (length E - b) E)).
    { rewrite <- (rev_involutive (skipn (length E - b) E)). apply th_rev.
      replace (rev (skipn (length E - b) E)) with (firstn b (rev E)); [assumption|].
      rewrite <- (firstn_skipn (length E - b) E) at 1. rewrite rev_app_distr, firstn_app.
      rewrite firstn_all2 by (rewrite rev_length, skipn_length; lia). rewrite rev_length, skipn_length.
      replace (b - (length E - (length E - b))) with 0 by lia. now rewrite app_nil_r. }
    replace (length E - b) with ((length E - b - a) + a) in Hr by lia.
    assert (X : forall A n k (l : list A), skipn (n + k) l = skipn n (skipn k l)).
    { clear. intros A n k. revert n. induction k as [|k IH]; intros n l.
      - now rewrite Nat.add_0_r.
      - rewrite Nat.add_succ_r. destruct l as [|x l]; [cbn [skipn]; now rewrite skipn_nil|]. cbn [skipn]. apply IH. }
    rewrite X in Hr. set (n := length E - b - a) in Hr. clearbody n. set (T := skipn a E) in *. clearbody T.
    rewrite <- (firstn_skipn n T). change (rev gb) with ([] ++ rev gb). apply th_app; [apply th_none|assumption].
  - destruct (Nat.lt_ge_cases 0 (snd i)) as [Hpos|Hpos].
    2:{ rewrite wt_zero by assumption. cbn [bind]. destruct (IH m w i a b gf gb E HE Hm Ha Hb Hlen Hf Hg) as (w2 & i2 & outs & Eo & El & H).
        rewrite Eo. cbn [bind].
        exists w2, i2, (Some None :: outs). split; [reflexivity|]. split; [cbn [length]; congruence|]. exact H. }
    destruct i as [i [|n]]; cbn [fst snd] in *; [lia|]. rewrite wt_succ.
    assert (Hs : exists w' x, wi_step R bw w i = Ok (w', x) /\
      let '(i', o) := match x with Gave (i', o) => (i', o) | Torn i' => (i', None) end in
      exists a' b', wi_map i' = m /\ at_pos m false i' a' /\ at_pos m true i' b' /\ a' + b' + n <= length E /\
        thinned (if bw then gf else gf ++ opt_list o) (firstn a' E) /\ thinned (if bw then gb ++ opt_list o else gb) (firstn b' (rev E))).
    { destruct bw.
      - destruct (full_step m true w i b a Hm Hb Ha) as (w' & x & Ex & H). exists w', x. split; [assumption|].
        destruct x as [[i' o]|i'].
        + destruct H as (H1 & H2 & H3 & H4 & _). exists a, (S b). repeat split; auto; [lia|]. apply th_snoc; [assumption|].
          subst E. exact H4.
        + destruct H as (H1 & H2 & H3 & _). exists a, b. repeat split; auto; [lia|]. cbn [opt_list]. now rewrite app_nil_r.
      - destruct (full_step m false w i a b Hm Ha Hb) as (w' & x & Ex & H). exists w', x. split; [assumption|].
        destruct x as [[i' o]|i'].
        + destruct H as (H1 & H2 & H3 & H4 & _). exists (S a), b. repeat split; auto; [lia|]. apply th_snoc; [assumption|].
          subst E. exact H4.
        + destruct H as (H1 & H2 & H3 & _). exists a, b. repeat split; auto; [lia|]. cbn [opt_list]. now rewrite app_nil_r. }
    destruct Hs as (w1 & x & -> & Hs). cbn [wbind bind].
    destruct x as [[i1 o]|i1]; destruct Hs as (a' & b' & Hm1 & Ha1 & Hb1 & Hl1 & Hf1 & Hg1); cbn [bind];
      destruct (IH m w1 (i1, n) a' b' _ _ E HE Hm1 Ha1 Hb1 Hl1 Hf1 Hg1) as (w2 & i2 & outs & -> & El & H); cbn [bind].
    + exists w2, i2, (Some o :: outs). split; [reflexivity|]. split; [cbn [length]; congruence|]. cbn [items].
      destruct o as [y|]; cbn [opt_list] in *; [|destruct bw; rewrite app_nil_r in H; exact H].
      destruct bw; cbn [Bool.eqb].
      * rewrite <- (app_assoc gb) in H. exact H.
      * rewrite <- (app_assoc gf) in H. exact H.
    + exists w2, i2, (None :: outs). split; [reflexivity|]. split; [cbn [length]; congruence|]. cbn [items].
      cbn [opt_list] in *. destruct bw; rewrite app_nil_r in H; exact H.
Qed.

(** In one direction no user code is called at all. *)
Lemma w_one_way_ok : forall k bw m w i a, wi_map (fst i) = m -> at_pos m bw (fst i) a -> wi_stack (negb bw) (fst i) = None ->
  snd i = length (skipn a (seq bw (rb_root m))) ->
  exists i', w_iterate (wt_step R) (repeat bw k) w i
    = Ok (w, i', map (fun p => Some (snd p)) (fwd_spec k (skipn a (seq bw (rb_root m))))).
Proof.
  induction k as [|k IH]; intros bw m w i a Hm Ha Hn Hlen; cbn [repeat w_iterate fwd_spec map].
  - eauto.
  - destruct (Nat.lt_ge_cases 0 (snd i)) as [Hpos|Hpos].
    + destruct i as [i [|n]]; cbn [fst snd] in *; [lia|]. rewrite wt_succ.
      assert (Hn0 : at_pos m (negb bw) i 0) by (unfold at_pos; now rewrite Hn).
      destruct (full_step m bw w i a 0 Hm Ha Hn0) as (w' & x & -> & H). destruct x as [[i1 o]|i1].
      2:{ destruct H as (_ & _ & _ & H). contradiction. }
      destruct H as (Hm1 & Ha1 & _ & _ & H). destruct (H Hn) as (-> & Hn1 & ->). cbn [wbind bind].
      assert (Hl1 : n = length (skipn (S a) (seq bw (rb_root m)))).
      { rewrite <- tl_skipn. destruct (skipn a (seq bw (rb_root m))); cbn [length tl] in *; lia. }
      destruct (IH bw m w (i1, n) (S a) Hm1 Ha1 Hn1 Hl1) as (i2 & ->). cbn [bind snd].
      exists i2. rewrite <- hd_skipn, tl_skipn. reflexivity.
    + assert (E : skipn a (seq bw (rb_root m)) = []) by (destruct (skipn a (seq bw (rb_root m))); cbn [length] in *; [reflexivity|lia]).
      rewrite wt_zero by assumption. cbn [bind]. destruct (IH bw m w i a Hm Ha Hn Hlen) as (i2 & Ei). rewrite Ei. cbn [bind].
      exists i2. rewrite E. reflexivity.
Qed.
End Full.
End IterProofs.
