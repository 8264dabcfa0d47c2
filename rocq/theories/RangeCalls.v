(** What the iterators of RedBlackTreeMap ask user code: proofs. *)
From Coq Require Import List NArith Arith Bool Lia Sorted.
From Verif Require Import Base Spec SpecMap SpecOrd SpecLoose SpecTalk SpecRange Sim RBModel RBProofs RBHist RBIter LawlessModel LawlessIter
  LawlessRelModel LawlessRel.
Import ListNotations.

Definition r_ask {W K} (R : range_code W K) (w : W) (q : range_call K) : W * option bool :=
  match q with
  | RStart k => rg_start R w k
  | REnd k => rg_end R w k
  | RGt k k' => rg_gt R w k k'
  end.

Section Lists.
Context {K : Type}.
Notation conv := (list (range_call K * option bool)).
Lemma about_nil : forall f (ks : list K), about f ks [].
Proof. intros f ks q []. Qed.
Lemma about_cons : forall f (ks : list K) k a l, In k ks -> about f ks l -> about f ks ((f k, a) :: l).
Proof. intros f ks k a l Hk H q [<-|Hq]; [exists k; auto|now apply H]. Qed.
Lemma about_incl : forall f (ks ks' : list K) l, incl ks ks' -> about f ks l -> about f ks' l.
Proof. intros f ks ks' l Hi H q Hq. destruct (H q Hq) as (k & Hk & E). exists k. auto. Qed.
Lemma order_nil : forall (ks : list K), order_of ks [].
Proof. intros ks q []. Qed.
Lemma ans_nil : answered (@nil (range_call K * option bool)).
Proof. intros q []. Qed.
Lemma ans_cons : forall (x : range_call K) b l, answered l -> answered ((x, Some b) :: l).
Proof. intros x b l H q [<-|Hq]; [discriminate|now apply H]. Qed.
Lemma ans_app : forall l l' : conv, answered l -> answered l' -> answered (l ++ l').
Proof. intros l l' H H' q Hq. apply in_app_iff in Hq as [Hq|Hq]; auto. Qed.
Lemma brk_app : forall l l' : conv, answered l -> broken_off l' -> broken_off (l ++ l').
Proof. intros l l' H (l1 & x & -> & H1). exists (l ++ l1), x. split; [now rewrite app_assoc|now apply ans_app]. Qed.
Lemma brk_cons : forall (x : range_call K) b l, broken_off l -> broken_off ((x, Some b) :: l).
Proof. intros x b l H. apply (brk_app [(x, Some b)]); [apply ans_cons, ans_nil|exact H]. Qed.
Lemma brk_one : forall x : range_call K, broken_off [(x, None)].
Proof. intros x. exists [], x. split; [reflexivity|apply ans_nil]. Qed.
End Lists.

Section Calls.
Context {W K V : Type}.
Variable R : range_code W K.
Notation tree := (tree K V).
Notation entry := (prod K V).
Notation ask := (r_ask R).
Definition tkeys (t : tree) : list K := map fst (elems t).
(** [None]: user code panicked *)
Definition ok_end {A} (o : option A) (l : list (range_call K * option bool)) : Prop :=
  match o with None => broken_off l | Some _ => answered l end.

Lemma near_ask : forall (bw : bool) (w : W) (k : K), (if bw then rg_end R w k else rg_start R w k) = ask w (near bw k).
Proof. intros [|]; reflexivity. Qed.
Lemma beyond_ask : forall (bw : bool) (w : W) (k : K), (if bw then rg_start R w k else rg_end R w k) = ask w (beyond bw k).
Proof. intros [|]; reflexivity. Qed.

Lemma tkeys_l : forall e c (l r : tree), incl (tkeys l) (tkeys (Tree e c l r)).
Proof. intros e c l r k Hk. unfold tkeys in *. cbn [elems]. rewrite map_app, in_app_iff. now left. Qed.
Lemma tkeys_r : forall e c (l r : tree), incl (tkeys r) (tkeys (Tree e c l r)).
Proof. intros e c l r k Hk. unfold tkeys in *. cbn [elems map]. rewrite map_app, in_app_iff. right. now right. Qed.
Lemma tkeys_e : forall e c (l r : tree), In (fst e) (tkeys (Tree e c l r)).
Proof. intros e c l r. unfold tkeys. cbn [elems]. rewrite map_app, in_app_iff. right. now left. Qed.

Lemma dig_talk : forall bw (t : tree) w st, let '(w', o) := w_dig_towards R w bw t st in
  exists s, talk ask w s w' /\ about (near bw) (tkeys t) s /\ length s <= hgt t /\ ok_end o s.
Proof.
  intros bw. induction t as [|e c l IHl r IHr]; intros w st; cbn [w_dig_towards].
  - exists []. split; [constructor|]. split; [apply about_nil|]. split; [apply Nat.le_0_l|apply ans_nil].
  - rewrite near_ask. destruct (ask w (near bw (fst e))) as [w1 [b|]] eqn:Ea.
    2:{ exists [(near bw (fst e), None)]. split; [now apply talk_one|]. split; [apply about_cons; [apply tkeys_e|apply about_nil]|].
        split; [cbn [hgt length]; lia|apply brk_one]. }
    cbv zeta. set (st' := if b then _ else st). clearbody st'.
    assert (X : forall t', incl (tkeys t') (tkeys (Tree e c l r)) -> hgt t' < hgt (Tree e c l r) ->
      (let '(w', o) := w_dig_towards R w1 bw t' st' in exists s, talk ask w1 s w' /\ about (near bw) (tkeys t') s /\ length s <= hgt t' /\ ok_end o s) ->
      let '(w', o) := w_dig_towards R w1 bw t' st' in
      exists s, talk ask w s w' /\ about (near bw) (tkeys (Tree e c l r)) s /\ length s <= hgt (Tree e c l r) /\ ok_end o s).
    { intros t' Hi Hh. destruct (w_dig_towards R w1 bw t' st') as [w2 o]. intros (s & H1 & H2 & H3 & H4).
      exists ((near bw (fst e), Some b) :: s). split; [econstructor; eassumption|].
      split; [apply about_cons; [apply tkeys_e|eapply about_incl; eassumption]|]. split; [cbn [length]; lia|].
      destruct o; cbn [ok_end] in *; [now apply ans_cons|now apply brk_cons]. }
    assert (Hl : hgt l < hgt (Tree e c l r)) by (cbn [hgt]; lia).
    assert (Hr : hgt r < hgt (Tree e c l r)) by (cbn [hgt]; lia).
    destruct bw, b; apply X; first [apply tkeys_l|apply tkeys_r|exact Hl|exact Hr|apply IHl|apply IHr].
Qed.

(** The entries on the stack are of the tree [t0]. *)
Definition from (t0 : tree) (bw : bool) (s : istk K V) : Prop :=
  s_backwards s = bw /\ Forall nl (s_stack s) /\ incl (map fst (raw bw (s_stack s))) (tkeys t0).

Lemma thin_incl : forall A (a b : list A), thinned a b -> incl a b.
Proof. intros A a b H. induction H as [|x l l' H IH|x l l' H IH]; intros y Hy; auto; [destruct Hy as [->|Hy]; [now left|right; auto]|right; auto]. Qed.
Lemma seq_keys : forall bw (t : tree), incl (map fst (seq bw t)) (tkeys t).
Proof. intros [|] t k Hk; unfold seq, ord, tkeys in *; [|exact Hk]. apply in_map_iff in Hk as (x & <- & Hx). apply in_map. now apply in_rev. Qed.
Lemma stk_from : forall bw (t0 : tree) s L, stk bw s L -> incl (map fst L) (tkeys t0) -> from t0 bw s.
Proof. intros bw t0 s L (H1 & H2 & <-) H. now repeat split. Qed.
Lemma from_stk : forall bw (t0 : tree) s, from t0 bw s -> exists L, stk bw s L /\ incl (map fst L) (tkeys t0).
Proof. intros bw t0 s (H1 & H2 & H3). exists (raw bw (s_stack s)). split; [now repeat split|exact H3]. Qed.
Lemma from_cur : forall bw (t0 : tree) s e, from t0 bw s -> s_current s = Some e -> In (fst e) (tkeys t0).
Proof.
  intros bw t0 s e (_ & H2 & H3) E. rewrite (cur_raw bw) in E by exact H2. apply H3, in_map.
  destruct (raw bw (s_stack s)); [discriminate|]. injection E as ->. now left.
Qed.

Definition got {S} (x : uout S S) : S := match x with Gave s => s | Torn s => s end.

Lemma clear_talk : forall bw (t0 : tree) s w, from t0 bw s -> let '(w', x) := w_clear_if_finished R w s in
  exists l, talk ask w l w' /\ about (beyond bw) (tkeys t0) l /\ length l <= 1 /\ ok_end (told x) l /\ from t0 bw (got x).
Proof.
  intros bw t0 s w H. pose proof H as (Hb & Hn & Hk). unfold w_clear_if_finished. destruct (s_current s) as [e|] eqn:Ec.
  - rewrite Hb, beyond_ask. pose proof (from_cur _ _ _ _ H Ec) as Hin.
    destruct (ask w (beyond bw (fst e))) as [w1 [b|]] eqn:Ea.
    + exists [(beyond bw (fst e), Some b)]. split; [now apply talk_one|]. split; [apply about_cons; [exact Hin|apply about_nil]|].
      split; [cbn; lia|]. split; [apply ans_cons, ans_nil|]. cbn [got]. destruct b; [exact H|].
      split; [reflexivity|]. split; [constructor|]. intros k [].
    + exists [(beyond bw (fst e), None)]. split; [now apply talk_one|]. split; [apply about_cons; [exact Hin|apply about_nil]|].
      split; [cbn; lia|]. split; [apply brk_one|exact H].
  - exists []. split; [constructor|]. split; [apply about_nil|]. split; [cbn; lia|]. split; [apply ans_nil|exact H].
Qed.

Lemma new_talk : forall bw (m : rbmap K V) w, let '(w', o) := w_s_new R w m bw in
  exists s c, talk ask w (s ++ c) w' /\ about (near bw) (tkeys (rb_root m)) s /\ length s <= hgt (rb_root m) /\
    about (beyond bw) (tkeys (rb_root m)) c /\ length c <= 1 /\ ok_end o (s ++ c) /\
    (forall x, o = Some x -> from (rb_root m) bw x).
Proof.
  intros bw m w. unfold w_s_new. pose proof (dig_talk bw (rb_root m) w []) as H.
  pose proof (w_dig_ok R bw (rb_root m) w [] ltac:(constructor)) as Hd.
  destruct (w_dig_towards R w bw (rb_root m) []) as [w1 [st|]]; destruct H as (s & H1 & H2 & H3 & H4).
  2:{ exists s, []. rewrite app_nil_r. split; [exact H1|]. split; [exact H2|]. split; [exact H3|]. split; [apply about_nil|].
      split; [cbn; lia|]. split; [exact H4|discriminate]. }
  destruct (Hd st eq_refl) as (Hn & l & Hr & Ht). cbn [raw flat_map] in Hr. rewrite app_nil_r in Hr.
  assert (Hf : from (rb_root m) bw (mkStk st bw)).
  { split; [reflexivity|]. split; [exact Hn|]. cbn [s_stack]. unfold raw in *. rewrite Hr. intros k Hk. apply (seq_keys bw).
    apply in_map_iff in Hk as (x & <- & Hx). apply in_map. now apply (thin_incl _ _ _ Ht). }
  pose proof (clear_talk bw _ _ w1 Hf) as Hc. destruct (w_clear_if_finished R w1 (mkStk st bw)) as [w2 x].
  destruct Hc as (c & C1 & C2 & C3 & C4 & C5).
  assert (Y : forall o, (forall z, o = Some z -> z = got x) -> (o = None <-> told x = None) ->
    exists s c, talk ask w (s ++ c) w2 /\ about (near bw) (tkeys (rb_root m)) s /\ length s <= hgt (rb_root m) /\
    about (beyond bw) (tkeys (rb_root m)) c /\ length c <= 1 /\ ok_end o (s ++ c) /\
    (forall x, o = Some x -> from (rb_root m) bw x)).
  { intros o Ho Hn'. exists s, c. split; [eapply talk_app; eassumption|]. split; [exact H2|]. split; [exact H3|]. split; [exact C2|].
    split; [exact C3|]. split.
    - cbn [ok_end] in H4. destruct o as [z|], (told x) eqn:Et; cbn [ok_end] in *; try (destruct Hn' as [N1 N2]; (discriminate (N1 eq_refl) || discriminate (N2 eq_refl))).
      + now apply ans_app.
      + now apply brk_app.
    - intros z Ez. rewrite (Ho z Ez). exact C5. }
  destruct x as [s'|s']; apply Y; cbn [told got]; try (intros z Ez; congruence); split; congruence.
Qed.

Lemma advance_talk : forall bw (t0 : tree) s w, from t0 bw s -> let '(w', x) := w_s_advance R w s in
  exists l, talk ask w l w' /\ about (beyond bw) (tkeys t0) l /\ length l <= 1 /\ ok_end (told x) l /\ from t0 bw (got x).
Proof.
  intros bw t0 [[|[|e c l r] st] b] w H; pose proof H as (Hb & Hn & Hk); cbn [s_stack s_backwards] in *; subst b.
  - cbn. exists []. split; [constructor|]. split; [apply about_nil|]. split; [apply Nat.le_0_l|]. split; [apply ans_nil|exact H].
  - exfalso. inversion Hn as [|? ? X ?]; subst. now destruct X.
  - unfold w_s_advance. cbn [s_stack s_backwards as_node]. unfold far. cbn [n_left n_right]. apply clear_talk.
    eapply stk_from; [eapply adv_stack; [exact Hn|reflexivity]|]. intros k Hkk. apply Hk. cbn [raw flat_map rest app map tl] in *. now right.
Qed.

(** ** An iterator *)
Definition iok (m : rbmap K V) (i : witer K V) : Prop :=
  wi_map i = m /\ forall bw s, wi_stack bw i = Some s -> from (rb_root m) bw s.
Definition begun (bw : bool) (i : witer K V) : bool := match wi_stack bw i with Some _ => true | None => false end.
(** The iterator after a call, which panicked or not. *)
Definition after {A} (x : uout (witer K V) (witer K V * A)) : witer K V :=
  match x with Gave (i, _) => i | Torn i => i end.
Definition tore {S A} (x : uout S A) : bool := match x with Gave _ => false | Torn _ => true end.

Lemma iok_new : forall m, iok m (wi_new m).
Proof. intros m. split; [reflexivity|]. intros [|] s E; discriminate. Qed.
Lemma iok_put : forall m bw i s, iok m i -> from (rb_root m) bw s -> iok m (wi_put bw i s).
Proof.
  intros m bw i s (Hm & Hs) Hf. split; [now rewrite put_map|]. intros d s' E. destruct (Bool.eqb_spec d bw) as [->|Hne].
  - rewrite put_same in E. congruence.
  - replace d with (negb bw) in * by (destruct d, bw; tauto || reflexivity). rewrite put_other in E. now apply Hs.
Qed.

Lemma about_app_r : forall f (ks : list K) l l', about f ks l -> about f ks l' -> about f ks (l ++ l').
Proof. intros f ks l l' H H' q Hq. apply in_app_iff in Hq as [Hq|Hq]; auto. Qed.

Lemma step_talk : forall m bw w i, iok m i -> exists w' x l,
  wi_step R bw w i = Ok (w', x) /\ talk ask w l w' /\
  asks (hgt (rb_root m)) (tkeys (rb_root m)) bw (begun bw i) (negb (begun (negb bw) i)) l (tore x) /\
  iok m (after x) /\ begun (negb bw) (after x) = begun (negb bw) i /\
  (begun bw i = true -> begun bw (after x) = true) /\ (tore x = false -> begun bw (after x) = true) /\
  (begun bw (after x) = false -> length l <= hgt (rb_root m) + 1).
Proof.
  intros m bw w i Hi. unfold wi_step.
  (* the first search *)
  assert (Hinit : let '(w1, o) := wi_init R bw w i in
    exists s c, talk ask w (s ++ c) w1 /\ about (near bw) (tkeys (rb_root m)) s /\ length s <= (if begun bw i then 0 else hgt (rb_root m)) /\
      about (beyond bw) (tkeys (rb_root m)) c /\ length c <= (if begun bw i then 0 else 1) /\ ok_end o (s ++ c) /\
      (forall i1, o = Some i1 -> iok m i1 /\ begun bw i1 = true /\ wi_stack (negb bw) i1 = wi_stack (negb bw) i) /\
      (o = None -> begun bw i = false)).
  { unfold wi_init, begun. destruct (wi_stack bw i) as [s|] eqn:Es.
    - exists [], []. split; [constructor|]. split; [apply about_nil|]. split; [apply le_n|]. split; [apply about_nil|]. split; [apply le_n|].
      split; [apply ans_nil|]. split; [|discriminate]. intros i1 E. injection E as <-. rewrite Es. auto.
    - destruct Hi as (Hm & Hs). rewrite Hm. pose proof (new_talk bw m w) as H. destruct (w_s_new R w m bw) as [w1 o].
      destruct H as (s & c & H1 & H2 & H3 & H4 & H5 & H6 & H7).
      destruct o as [s1|]; exists s, c; (split; [exact H1|]); (split; [exact H2|]); (split; [exact H3|]); (split; [exact H4|]); (split; [exact H5|]);
        (split; [exact H6|]); (split; [|congruence]).
      + intros i1 E. injection E as <-. split; [apply iok_put; [now split|now apply H7]|]. rewrite put_same, put_other. auto.
      + discriminate. }
  destruct (wi_init R bw w i) as [w1 [i1|]]; destruct Hinit as (s & c & T1 & A1 & L1 & A2 & L2 & E1 & Hi1 & Hno); cbn [wcall].
  2:{ exists w1, (Torn i), (s ++ c). split; [reflexivity|]. split; [exact T1|]. specialize (Hno eq_refl). split.
      - split; [|exact E1]. exists s, c, [], []. rewrite !app_nil_r. split; [reflexivity|]. split; [exact A1|]. split; [exact L1|]. split; [exact A2|].
        split; [exact L2|]. split; [apply order_nil|]. split; [apply Nat.le_0_l|]. split; [apply about_nil|apply Nat.le_0_l].
      - cbn [after tore]. split; [exact Hi|]. split; [reflexivity|]. split; [congruence|]. split; [discriminate|].
        intros _. rewrite app_length. rewrite Hno in L1, L2. lia. }
  destruct (Hi1 i1 eq_refl) as (Hok & Hb & Ho). clear Hi1 Hno. cbn [ok_end] in E1.
  (* is_empty *)
  assert (Hemp : let '(w2, o) := wi_is_empty R w1 i1 in
    exists g, talk ask w1 g w2 /\ order_of (tkeys (rb_root m)) g /\ length g <= (if negb (begun (negb bw) i) then 0 else 1) /\ ok_end o g).
  { assert (Hq : forall o : option bool, o <> None -> exists g, talk ask w1 g w1 /\ order_of (tkeys (rb_root m)) g /\ length g <= (if negb (begun (negb bw) i) then 0 else 1) /\ ok_end o g).
    { intros o Hne. exists []. split; [constructor|]. split; [apply order_nil|]. split; [apply Nat.le_0_l|]. destruct o; [apply ans_nil|contradiction]. }
    unfold wi_is_empty. destruct (wi_fwd i1) as [f|] eqn:Ef; [|apply Hq; discriminate]. destruct (wi_bwd i1) as [b|] eqn:Eb; [|apply Hq; discriminate].
    destruct (s_current f) as [lft|] eqn:Cf; [|apply Hq; discriminate]. destruct (s_current b) as [rgt|] eqn:Cb; [|apply Hq; discriminate].
    assert (Hbo : begun (negb bw) i = true).
    { unfold begun. rewrite <- Ho. destruct bw; cbn [negb wi_stack]; [now rewrite Ef|now rewrite Eb]. }
    rewrite Hbo. cbn [negb]. destruct Hok as (_ & Hst).
    pose proof (from_cur _ _ _ _ (Hst false f Ef) Cf) as If. pose proof (from_cur _ _ _ _ (Hst true b Eb) Cb) as Ib.
    destruct (rg_gt R w1 (fst lft) (fst rgt)) as [w2 o] eqn:Eg. exists [(RGt (fst lft) (fst rgt), o)].
    split; [apply talk_one; exact Eg|]. split; [intros q [<-|[]]; eauto|]. split; [apply le_n|].
    destruct o; cbn [ok_end]; [apply ans_cons, ans_nil|apply brk_one]. }
  destruct (wi_is_empty R w1 i1) as [w2 [e|]]; destruct Hemp as (g & T2 & A3 & L3 & E2); cbn [wcall ok_end] in *.
  2:{ exists w2, (Torn i1), (s ++ c ++ g). split; [reflexivity|]. split; [rewrite app_assoc; eapply talk_app; eassumption|]. split.
      - split; [|cbn [tore]; rewrite app_assoc; now apply brk_app]. exists s, c, g, []. rewrite !app_nil_r. split; [reflexivity|]. split; [exact A1|]. split; [exact L1|]. split; [exact A2|].
        split; [exact L2|]. split; [exact A3|]. split; [exact L3|]. split; [apply about_nil|apply Nat.le_0_l].
      - cbn [after tore]. split; [exact Hok|]. split; [unfold begun; now rewrite Ho|]. split; [auto|]. split; [auto|]. rewrite Hb. discriminate. }
  destruct (wi_stack bw i1) as [st|] eqn:Es; [|unfold begun in Hb; rewrite Es in Hb; discriminate].
  assert (Hc : exists cur, (if e then Ok None else let! s := unwrap (Some st) in Ok (s_current s)) = Ok cur) by (destruct e; eexists; reflexivity).
  destruct Hc as (cur & ->). cbn [bind unwrap].
  pose proof (advance_talk bw (rb_root m) st w2 (proj2 Hok bw st Es)) as Ha. destruct (w_s_advance R w2 st) as [w3 x].
  destruct Ha as (a & T3 & A4 & L4 & E3 & Hf).
  assert (Hfin : forall y, after y = wi_put bw i1 (got x) -> tore y = tore x ->
    talk ask w (s ++ c ++ g ++ a) w3 /\
    asks (hgt (rb_root m)) (tkeys (rb_root m)) bw (begun bw i) (negb (begun (negb bw) i)) (s ++ c ++ g ++ a) (tore y) /\
    iok m (after (A:=option entry) y) /\ begun (negb bw) (after y) = begun (negb bw) i /\
    (begun bw i = true -> begun bw (after y) = true) /\ (tore y = false -> begun bw (after y) = true) /\
    (begun bw (after y) = false -> length (s ++ c ++ g ++ a) <= hgt (rb_root m) + 1)).
  { intros y Ey Et. rewrite Ey, Et. assert (Hbp : begun bw (wi_put bw i1 (got x)) = true) by (unfold begun; now rewrite put_same). rewrite Hbp. split.
    - rewrite !app_assoc. eapply talk_app; [|exact T3]. eapply talk_app; eassumption.
    - split.
      + split.
        * exists s, c, g, a. split; [reflexivity|]. split; [exact A1|]. split; [exact L1|]. split; [exact A2|].
          split; [exact L2|]. split; [exact A3|]. split; [exact L3|]. split; [exact A4|exact L4].
        * assert (Hsc : answered ((s ++ c) ++ g)) by now apply ans_app. rewrite !app_assoc.
          destruct x; cbn [tore told ok_end] in *; [now apply ans_app|now apply brk_app].
      + split; [now apply iok_put|]. split; [unfold begun; now rewrite put_other, Ho|]. split; [auto|]. split; [auto|discriminate]. }
  destruct x as [s'|s']; [exists w3, (Gave (wi_put bw i1 s', cur))|exists w3, (Torn (wi_put bw i1 s'))]; exists (s ++ c ++ g ++ a);
    (split; [reflexivity|]); apply Hfin; reflexivity.
Qed.

(** ** A run *)
Lemma run_talk : forall ds m w i, iok m i -> exists w' i' outs l,
  w_iterate (wi_step R) ds w i = Ok (w', i', outs) /\ talk ask w l w' /\ iok m i' /\ length outs = length ds /\
  (forall d, begun d i = true -> begun d i' = true) /\
  (forall d, been_here d ds outs -> begun d i' = true) /\
  (forall d, begun d i = false -> ~ In d ds -> begun d i' = false) /\
  length l + (hgt (rb_root m) + 1) * ((if begun false i' then 0 else 1) + (if begun true i' then 0 else 1)) <=
    2 * length ds + (hgt (rb_root m) + 1) * (stopped outs + ((if begun false i then 0 else 1) + (if begun true i then 0 else 1))).
Proof.
  induction ds as [|bw ds IH]; intros m w i Hi; cbn [w_iterate].
  - exists w, i, [], []. split; [reflexivity|]. split; [constructor|]. split; [exact Hi|]. split; [reflexivity|]. split; [auto|].
    split; [intros d (j & a & E & _); destruct j; discriminate|]. split; [auto|]. cbn [length stopped filter]. lia.
  - destruct (step_talk m bw w i Hi) as (w1 & x & l1 & -> & T1 & Ha & Hi1 & Ho & Hk & Hg & Hs). cbn [bind].
    assert (Hd : forall d, begun d i = true -> begun d (after x) = true).
    { intros d E. destruct (Bool.eqb_spec d bw) as [->|Hne]; [auto|]. replace d with (negb bw) in * by (destruct d, bw; tauto || reflexivity). congruence. }
    assert (Hl1 : length l1 <= 2 + (if begun bw i then 0 else hgt (rb_root m) + 1)).
    { destruct Ha as ((s & c & g & e & -> & _ & L1 & _ & L2 & _ & L3 & _ & L4) & _). rewrite !app_length.
      destruct (begun bw i), (begun (negb bw) i); cbn [negb] in *; lia. }
    assert (Hcost : length l1 + (hgt (rb_root m) + 1) * ((if begun false (after x) then 0 else 1) + (if begun true (after x) then 0 else 1)) <=
      2 + (hgt (rb_root m) + 1) * ((if tore x then 1 else 0) + ((if begun false i then 0 else 1) + (if begun true i then 0 else 1)))).
    { set (h := hgt (rb_root m) + 1) in *. destruct bw; cbn [negb] in *; rewrite Ho.
      - destruct (begun true i) eqn:B1; [rewrite (Hk eq_refl)|destruct (begun true (after x)) eqn:B2; [|specialize (Hs eq_refl); destruct (tore x); [|specialize (Hg eq_refl); discriminate]]];
          try destruct (begun false i); try destruct (tore x); lia.
      - destruct (begun false i) eqn:B1; [rewrite (Hk eq_refl)|destruct (begun false (after x)) eqn:B2; [|specialize (Hs eq_refl); destruct (tore x); [|specialize (Hg eq_refl); discriminate]]];
          try destruct (begun true i); try destruct (tore x); lia. }
    assert (Hx : exists i1 a, match x with Gave (i', a) => (i', Some a) | Torn i' => (i', None) end = (i1, a) /\ i1 = after x /\ (a = None <-> tore x = true)).
    { destruct x as [[i1 o]|i1]; eexists _, _; (split; [reflexivity|]); (split; [reflexivity|]); cbn [tore]; split; congruence. }
    destruct Hx as (i1 & a & Ex & -> & Hat). rewrite Ex. clear Ex.
    destruct (IH m w1 (after x) Hi1) as (w2 & i2 & outs & l2 & -> & T2 & Hi2 & Hlen & H1 & H2 & H3 & H4). cbn [bind].
    exists w2, i2, (a :: outs), (l1 ++ l2). split; [reflexivity|]. split; [eapply talk_app; eassumption|]. split; [exact Hi2|].
    split; [cbn [length]; congruence|]. split; [auto|]. split.
    { intros d (j & y & E1 & E2). destruct j as [|j]; cbn [nth_error] in *.
      - injection E1 as ->. apply H1, Hg. destruct (tore x); [|reflexivity]. assert (X : a = None) by tauto. congruence.
      - apply H2. now exists j, y. }
    split.
    { intros d E Hin. apply H3; [|intros X; apply Hin; now right]. assert (d = negb bw) as -> by (destruct d, bw; try reflexivity; exfalso; apply Hin; now left). congruence. }
    rewrite app_length. cbn [length]. 
    assert (Hst : stopped (a :: outs) = (if tore x then 1 else 0) + stopped outs).
    { unfold stopped. cbn [filter]. destruct a; cbn [length]; destruct (tore x); try reflexivity; [assert (X : Some o = None) by tauto; discriminate|assert (X : false = true) by tauto; discriminate]. }
    rewrite Hst. clear - H4 Hcost. set (h := hgt (rb_root m) + 1) in *. lia.
Qed.
End Calls.

(** ** Lawful bounds, calls from one end *)
Section Lawful.
Context {W K V Q : Type}.
Variable kcmp : K -> K -> comparison.
Variable borrow : K -> Q.
Variable qcmp : Q -> Q -> comparison.
Hypothesis OL : ord_laws qcmp.
Hypothesis KB : forall a b, kcmp a b = qcmp (borrow a) (borrow b).
Variable sb eb : bound Q.
Variable R : range_code W K.
Hypothesis Hstart : forall w k, snd (rg_start R w k) = Some (above qcmp sb (borrow k)).
Hypothesis Hend : forall w k, snd (rg_end R w k) = Some (below qcmp eb (borrow k)).
Variable bw : bool.
Notation tree := (tree K V).
Notation entry := (prod K V).
Notation ask := (r_ask R).
Notation pre := (pre borrow qcmp sb eb bw).
Notation post := (post borrow qcmp sb eb bw).
Notation dlt := (dlt kcmp bw).

Lemma law_near : forall (w : W) (e : entry), snd (if bw then rg_end R w (fst e) else rg_start R w (fst e)) = Some (pre e).
Proof using Hstart Hend. intros w e. unfold RBIter.pre. destruct bw; auto. Qed.
Lemma law_beyond : forall (w : W) (e : entry), snd (ask w (beyond bw (fst e))) = Some (post e).
Proof using Hstart Hend. intros w e. unfold RBIter.post. destruct bw; cbn [beyond r_ask]; auto. Qed.

Lemma law_dig : forall (t : tree) w st, snd (w_dig_towards R w bw t st) = Some (s_dig_towards borrow qcmp bw sb eb t st).
Proof using Hstart Hend.
  induction t as [|e c l IHl r IHr]; intros w st; cbn [w_dig_towards s_dig_towards]; [reflexivity|].
  pose proof (law_near w e) as H.
  change (if bw then below qcmp eb (borrow (fst e)) else above qcmp sb (borrow (fst e))) with (pre e).
  destruct (if bw then rg_end R w (fst e) else rg_start R w (fst e)) as [w1 o]. cbn [snd] in H. subst o. cbv zeta.
  destruct (pre e); revert IHl IHr; destruct bw; auto.
Qed.

(** [A] are the entries from where the iterator is to the end of the map; the first has been
    tested. *)
Definition left_over (A : list entry) : list entry := match A with a :: _ => if post a then A else [] | [] => [] end.
Definition at_list (s : istk K V) (A : list entry) : Prop :=
  s_backwards s = bw /\ Forall nl (s_stack s) /\ raw bw (s_stack s) = left_over A.
Notation tested A := (map (fun e : entry => beyond bw (fst e)) A).

Lemma law_clear : forall s A w, s_backwards s = bw -> Forall nl (s_stack s) -> raw bw (s_stack s) = A ->
  exists w' s' l, w_clear_if_finished R w s = (w', Gave s') /\ talk ask w l w' /\ map fst l = tested (firstn 1 A) /\ at_list s' A.
Proof using Hstart Hend.
  intros s A w Hb Hn Hr. unfold w_clear_if_finished. pose proof (cur_raw bw s Hn) as Hc. rewrite Hr in Hc. rewrite Hc. destruct A as [|a A]; cbn [hd_error].
  - exists w, s, []. split; [reflexivity|]. split; [constructor|]. split; [reflexivity|]. now repeat split.
  - rewrite Hb, beyond_ask. pose proof (law_beyond w a) as H. destruct (ask w (beyond bw (fst a))) as [w1 o] eqn:Ea. cbn [snd] in H. subst o.
    exists w1, (if post a then s else mkStk [] bw), [(beyond bw (fst a), Some (post a))].
    split; [reflexivity|]. split; [now apply talk_one|]. split; [reflexivity|]. unfold at_list, left_over. destruct (post a).
    + now repeat split.
    + repeat split; constructor.
Qed.

Definition next_list (A : list entry) : list entry := match A with a :: A' => if post a then A' else A | [] => [] end.
Definition next_test (A : list entry) : list entry := match A with a :: A' => if post a then firstn 1 A' else [] | [] => [] end.

Lemma law_step : forall i s A w, wi_stack bw i = Some s -> wi_stack (negb bw) i = None -> at_list s A ->
  exists w' s' l, wi_step R bw w i = Ok (w', Gave (wi_put bw i s', hd_error (left_over A))) /\
    talk ask w l w' /\ map fst l = tested (next_test A) /\ at_list s' (next_list A).
Proof using Hstart Hend.
  intros i s A w Hs Ho HA. unfold wi_step, wi_init. rewrite Hs. cbn [wcall].
  assert (He : wi_is_empty R w i = (w, Some false)).
  { unfold wi_is_empty. destruct bw; cbn [negb wi_stack] in *; rewrite Ho; [reflexivity|]. now destruct (wi_fwd i). }
  rewrite He. cbn [wcall]. rewrite Hs. cbn [unwrap bind].
  pose proof HA as (Hb & Hn & Hr). rewrite (cur_raw bw s Hn), Hr.
  destruct A as [|a A]; [|unfold left_over in Hr; destruct (post a) eqn:Ep].
  - cbn [left_over] in Hr. destruct s as [[|t st] b]; [|exfalso; cbn [s_stack] in *; inversion Hn as [|? ? X ?]; subst; destruct t; [now destruct X|discriminate]].
    cbn [w_s_advance s_stack]. exists w, (mkStk [] b), []. split; [reflexivity|]. split; [constructor|]. split; [reflexivity|exact HA].
  - destruct s as [[|[|e c l r] st] b]; cbn [s_stack s_backwards] in *; [discriminate|exfalso; inversion Hn as [|? ? X ?]; subst; now destruct X|].
    subst b. unfold w_s_advance. cbn [s_stack s_backwards as_node]. unfold far. cbn [n_left n_right].
    pose proof (adv_stack bw e c l r st (a :: A) Hn Hr) as (S1 & S2 & S3). cbn [tl] in S3.
    destruct (law_clear _ A w S1 S2 S3) as (w' & s' & lg & -> & H1 & H2 & H3).
    exists w', s', lg. cbn [left_over next_test next_list]. rewrite Ep. cbn [hd_error]. auto.
  - destruct s as [[|t st] b]; [|exfalso; cbn [s_stack] in *; inversion Hn as [|? ? X ?]; subst; destruct t; [now destruct X|discriminate]].
    cbn [w_s_advance s_stack]. exists w, (mkStk [] b), []. cbn [left_over next_test next_list]. rewrite Ep. split; [reflexivity|].
    split; [constructor|]. split; [reflexivity|exact HA].
Qed.

Fixpoint tests (n : nat) (A : list entry) : list entry :=
  match n with O => [] | S n => next_test A ++ tests n (next_list A) end.

Lemma post_left : forall A, StronglySorted dlt A -> hd_error (filter post A) = hd_error (left_over A) /\
  tl (filter post A) = filter post (next_list A) /\ StronglySorted dlt (next_list A).
Proof using OL KB.
  intros [|a A] H; [repeat split; constructor|]. cbn [filter left_over next_list]. inversion H as [|? ? H1 H2]; subst.
  destruct (post a) eqn:E; [now repeat split|].
  assert (Hnone : filter post A = []).
  { apply filter_none. intros x Hx. destruct (post x) eqn:Ex; [|reflexivity]. rewrite <- E. symmetry.
    rewrite Forall_forall in H2. eapply (post_mono kcmp borrow qcmp OL KB sb eb bw); [apply H2; exact Hx|exact Ex]. }
  rewrite Hnone. cbn [filter]. rewrite E, Hnone. auto.
Qed.
Lemma tests_firstn : forall n A, StronglySorted dlt A ->
  firstn 1 A ++ tests n A = firstn (S n) (firstn (S (length (filter post A))) A).
Proof using OL KB.
  assert (Hstop : forall n a A, post a = false -> tests n (a :: A) = []).
  { induction n as [|n IH]; intros a A E; [reflexivity|]. cbn [tests next_test next_list]. rewrite E. cbn [app]. auto. }
  assert (Hnil : forall n, tests n [] = []) by (induction n as [|n IH]; [reflexivity|]; cbn [tests next_test next_list app]; exact IH).
  induction n as [|n IH]; intros [|a A] H; try reflexivity.
  - cbn [tests next_test next_list]. rewrite Hnil. reflexivity.
  - destruct (post_left (a :: A) H) as (_ & Ht & _). cbn [tests next_test next_list filter] in *. inversion H; subst. destruct (post a) eqn:E.
    + cbn [length]. rewrite IH by assumption. reflexivity.
    + cbn [filter tl] in *. destruct (filter post A) as [|b F] eqn:Ef.
      * rewrite Hstop by assumption. reflexivity.
      * rewrite E in Ht. cbn [tl] in Ht. exfalso. clear - Ht. assert (X : length F = length (b :: F)) by congruence. cbn [length] in X. lia.
Qed.

Lemma law_run : forall n i s A w, wi_stack bw i = Some s -> wi_stack (negb bw) i = None -> at_list s A -> StronglySorted dlt A ->
  exists w' i' l, w_iterate (wi_step R) (repeat bw n) w i = Ok (w', i', map (fun p => Some (snd p)) (fwd_spec n (filter post A))) /\
    talk ask w l w' /\ map fst l = tested (tests n A).
Proof using OL KB Hstart Hend.
  induction n as [|n IH]; intros i s A w Hs Ho HA HS; cbn [repeat w_iterate fwd_spec map tests].
  - exists w, i, []. split; [reflexivity|]. split; [constructor|reflexivity].
  - destruct (law_step i s A w Hs Ho HA) as (w1 & s1 & l1 & -> & T1 & E1 & H1). cbn [bind].
    destruct (post_left A HS) as (Hh & Ht & HS').
    destruct (IH (wi_put bw i s1) s1 (next_list A) w1) as (w2 & i2 & l2 & -> & T2 & E2); auto using put_same.
    { now rewrite put_other. }
    cbn [bind snd]. exists w2, i2, (l1 ++ l2). split; [rewrite <- Hh, <- Ht; reflexivity|]. split; [eapply talk_app; eassumption|].
    rewrite !map_app. congruence.
Qed.

Lemma law_range : forall n (m : rbmap K V) w, sorted kcmp (elems (rb_root m)) ->
  exists w' i' s l, w_iterate (wi_step R) (repeat bw (S n)) w (wi_new m)
      = Ok (w', i', map (fun p => Some (snd p)) (fwd_spec (S n) (filter post (filter pre (seq bw (rb_root m)))))) /\
    talk ask w (s ++ l) w' /\ about (near bw) (tkeys (rb_root m)) s /\ length s <= hgt (rb_root m) /\
    let A := filter pre (seq bw (rb_root m)) in
    map fst l = tested (firstn (S (S n)) (firstn (S (length (filter post A))) A)).
Proof using OL KB Hstart Hend.
  intros n m w Hs. cbv zeta. set (A := filter pre (seq bw (rb_root m))).
  assert (Hsd : StronglySorted dlt (seq bw (rb_root m))) by now apply (ord_sorted kcmp bw).
  assert (HA : StronglySorted dlt A) by now apply SS_filter.
  (* the search *)
  pose proof (dig_talk R bw (rb_root m) w []) as Hd. pose proof (law_dig (rb_root m) w []) as Hl.
  pose proof (w_dig_ok R bw (rb_root m) w [] ltac:(constructor)) as Hk.
  assert (Hnew : exists w1 st lc lx, w_s_new R w m bw = (w1, Some st) /\ talk ask w (lc ++ lx) w1 /\ about (near bw) (tkeys (rb_root m)) lc /\
    length lc <= hgt (rb_root m) /\ map fst lx = tested (firstn 1 A) /\ at_list st A).
  { unfold w_s_new. destruct (w_dig_towards R w bw (rb_root m) []) as [w1 o]. cbn [snd] in Hl. subst o.
    destruct Hd as (lc & D1 & D2 & D3 & _). destruct (Hk _ eq_refl) as (Hn & _).
    assert (Hraw : raw bw (s_dig_towards borrow qcmp bw sb eb (rb_root m) []) = A).
    { unfold A. rewrite (dig_towards_raw kcmp borrow qcmp OL KB sb eb bw) by assumption. cbn [raw flat_map]. apply app_nil_r. }
    destruct (law_clear (mkStk (s_dig_towards borrow qcmp bw sb eb (rb_root m) []) bw) A w1 eq_refl Hn Hraw) as (w2 & s2 & lx & -> & C1 & C2 & C3).
    exists w2, s2, lc, lx. split; [reflexivity|]. split; [eapply talk_app; eassumption|]. auto. }
  destruct Hnew as (w1 & st & lc & lx & En & T1 & A1 & L1 & E1 & HL).
  assert (Hrun : w_iterate (wi_step R) (repeat bw (S n)) w (wi_new m) = w_iterate (wi_step R) (repeat bw (S n)) w1 (wi_put bw (wi_new m) st)).
  { cbn [repeat w_iterate]. f_equal. unfold wi_step, wi_init. rewrite put_same.
    replace (wi_stack bw (wi_new m)) with (@None (istk K V)) by now destruct bw. cbn [wi_new wi_map]. rewrite En. reflexivity. }
  destruct (law_run (S n) (wi_put bw (wi_new m) st) st A w1 (put_same _ _ _)) as (w2 & i2 & l & E2 & T2 & E3); auto.
  { rewrite put_other. now destruct bw. }
  exists w2, i2, lc, (lx ++ l). split; [rewrite Hrun; exact E2|]. split; [rewrite app_assoc; eapply talk_app; eassumption|].
  split; [exact A1|]. split; [exact L1|]. rewrite map_app, E1, E3, <- map_app. f_equal. apply tests_firstn. exact HA.
Qed.
End Lawful.

(** ** The whole map *)
Section Whole.
Context {W K V : Type}.
Variable gt : W -> K -> K -> W * option bool.
Notation R := (full_range gt).
Notation asked := (fun w (q : K * K) => gt w (fst q) (snd q)).
Notation entry := (prod K V).

Lemma whole_step : forall (m : rbmap K V) bw w i, iok m i -> exists w' x l,
  wi_step R bw w i = Ok (w', x) /\ talk asked w l w' /\ length l <= 1 /\
  (forall q, In q l -> In (fst (fst q)) (tkeys (rb_root m)) /\ In (snd (fst q)) (tkeys (rb_root m))) /\ iok m (after x).
Proof.
  intros m bw w i Hi. destruct (step_talk R m bw w i Hi) as (w' & x & _ & E & _ & _ & Hi' & _). exists w', x.
  enough (exists l, talk asked w l w' /\ length l <= 1 /\
    (forall q, In q l -> In (fst (fst q)) (tkeys (rb_root m)) /\ In (snd (fst q)) (tkeys (rb_root m)))) as (l & H) by (exists l; tauto).
  clear Hi'. unfold wi_step in E.
  assert (Hinit : exists i1, wi_init R bw w i = (w, Some i1) /\ iok m i1).
  { unfold wi_init. destruct (wi_stack bw i) as [s|] eqn:Es; [eauto|]. destruct Hi as (Hm & Hs).
    destruct (full_new gt bw w (wi_map i)) as (s & -> & Hst). exists (wi_put bw i s). split; [reflexivity|].
    apply iok_put; [now split|]. eapply stk_from; [exact Hst|]. rewrite Hm. apply seq_keys. }
  destruct Hinit as (i1 & Ei & Hi1). rewrite Ei in E. cbn [wcall] in E.
  assert (Hemp : exists l, talk asked w l (fst (wi_is_empty R w i1)) /\ length l <= 1 /\
    (forall q, In q l -> In (fst (fst q)) (tkeys (rb_root m)) /\ In (snd (fst q)) (tkeys (rb_root m)))).
  { unfold wi_is_empty.
    assert (Hq : exists l, talk asked w l w /\ length l <= 1 /\ (forall q, In q l -> In (fst (fst q)) (tkeys (rb_root m)) /\ In (snd (fst q)) (tkeys (rb_root m)))).
    { exists []. split; [constructor|]. split; [apply Nat.le_0_l|intros q []]. }
    destruct (wi_fwd i1) as [f|] eqn:Ef; [|exact Hq]. destruct (wi_bwd i1) as [b|] eqn:Eb; [|exact Hq].
    destruct (s_current f) as [lft|] eqn:Cf; [|exact Hq]. destruct (s_current b) as [rgt|] eqn:Cb; [|exact Hq].
    destruct Hi1 as (_ & Hst). pose proof (from_cur _ _ _ _ (Hst false f Ef) Cf) as If. pose proof (from_cur _ _ _ _ (Hst true b Eb) Cb) as Ib.
    cbn [full_range rg_gt]. exists [((fst lft, fst rgt), snd (gt w (fst lft) (fst rgt)))].
    split; [apply talk_one; cbn [fst snd]; now destruct (gt w (fst lft) (fst rgt))|]. split; [apply le_n|]. intros q [<-|[]]. auto. }
  destruct Hemp as (l & T & L & Hin). exists l. split; [|auto].
  replace w' with (fst (wi_is_empty R w i1)); [exact T|].
  destruct (wi_is_empty R w i1) as [w2 [e|]]; cbn [wcall fst] in *; [|congruence].
  destruct (wi_stack bw i1) as [s|] eqn:Es; [|destruct e; discriminate].
  assert (Hc : exists cur, (if e then Ok None else let! s := unwrap (Some s) in Ok (s_current s)) = Ok cur) by (destruct e; eexists; reflexivity).
  destruct Hc as (cur & Ec). rewrite Ec in E. cbn [bind unwrap] in E.
  destruct (from_stk _ _ _ (proj2 Hi1 bw s Es)) as (L0 & HL0 & _).
  destruct (full_advance gt bw w2 s L0 HL0) as (s' & Ea & _). rewrite Ea in E. congruence.
Qed.

Lemma whole_run : forall ds (m : rbmap K V) w i, iok m (fst i) -> exists w' i' outs l,
  w_iterate (wt_step R) ds w i = Ok (w', i', outs) /\ talk asked w l w' /\
  length l <= Nat.min (length ds) (snd i) /\
  (forall q, In q l -> In (fst (fst q)) (tkeys (rb_root m)) /\ In (snd (fst q)) (tkeys (rb_root m))).
Proof.
  induction ds as [|bw ds IH]; intros m w i Hi; cbn [w_iterate].
  - exists w, i, [], []. split; [reflexivity|]. split; [constructor|]. split; [apply Nat.le_0_l|intros q []].
  - destruct i as [i [|n]]; cbn [fst snd] in *.
    + rewrite wt_zero by apply le_n. cbn [bind]. destruct (IH m w (i, 0) Hi) as (w' & i' & outs & l & -> & T & L & H). cbn [bind].
      exists w', i', (Some None :: outs), l. split; [reflexivity|]. split; [exact T|]. split; [cbn [snd] in L; lia|exact H].
    + rewrite wt_succ. destruct (whole_step m bw w i Hi) as (w1 & x & l1 & -> & T1 & L1 & H1 & Hi1). cbn [wbind bind].
      assert (X : exists y a, match x with Gave (r, o) => Ok (w1, Gave ((r, n), o)) | Torn s => Ok (w1, Torn (s, n)) end = Ok (w1, y) /\
        match y with Gave (i', a) => (i', Some a) | Torn i' => (i', @None (option entry)) end = ((after x, n), a)).
      { destruct x as [[r o]|r]; eexists _, _; (split; [reflexivity|]); reflexivity. }
      destruct X as (y & a & Ey & Ea).
      match goal with |- context [bind ?z _] => change z with (match x with Gave (r, o) => Ok (w1, Gave ((r, n), o)) | Torn s => Ok (w1, Torn (s, n)) end) end.
      rewrite Ey. cbn [bind]. rewrite Ea.
      destruct (IH m w1 (after x, n) Hi1) as (w2 & i2 & outs & l2 & -> & T2 & L2 & H2). cbn [bind].
      exists w2, i2, (a :: outs), (l1 ++ l2). split; [reflexivity|]. split; [eapply talk_app; eassumption|].
      split; [rewrite app_length; cbn [length snd] in *; lia|]. intros q Hq. apply in_app_iff in Hq as [Hq|Hq]; auto.
Qed.
End Whole.
