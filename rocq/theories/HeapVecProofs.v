(** * The heap programs of Vector do what the sequences do *)
From Coq Require Import List NArith ZArith Arith Lia Bool Permutation.
From Verif Require Import Base Spec VectorModel VectorProofs VectorOps VectorIter VectorHist
  PermSolve HeapModel HeapProofs HeapSafe HeapClient HeapVec HeapLooks.
Import ListNotations.
Local Open Scope prog_scope.

(** What a sequence of length [n] needs in levels of [2^bits]-way nodes. *)
Definition levels (bits n : N) : nat := S (N.to_nat (N.log2 (n - 1) / bits)).

Lemma levels_mono : forall bits n m, (0 < bits)%N -> (n <= m)%N -> levels bits n <= levels bits m.
Proof.
  intros bits n m Hb H. unfold levels. apply le_n_S.
  assert (X : (N.log2 (n - 1) / bits <= N.log2 (m - 1) / bits)%N).
  { apply N.div_le_mono; [lia|]. apply N.log2_le_mono. lia. }
  lia.
Qed.

Lemma Forall2_nth : forall {X Y} (R : X -> Y -> Prop) l m i x, Forall2 R l m -> nth_error l i = Some x ->
  exists l1 l2 m1 y m2, l = l1 ++ x :: l2 /\ m = m1 ++ y :: m2 /\ length m1 = i /\ length l1 = i /\
    R x y /\ Forall2 R l1 m1 /\ Forall2 R l2 m2.
Proof.
  intros X Y R l m i x H. revert i. induction H as [|a b l m Hab H IH]; intros i E; [destruct i; discriminate|].
  destruct i; cbn in E.
  - injection E as <-. exists [], l, [], b, m. splits; auto.
  - destruct (IH i E) as (l1 & l2 & m1 & y & m2 & -> & -> & L & L' & Hy & F1 & F2).
    exists (a :: l1), l2, (b :: m1), y, m2. splits; trivial; cbn; auto.
Qed.

Lemma nth_app_len : forall {X} (l1 : list X) x l2, nth_error (l1 ++ x :: l2) (length l1) = Some x.
Proof. induction l1; cbn; auto. Qed.

Lemma put_app : forall {X} (l1 : list X) x y l2, put (l1 ++ x :: l2) (length l1) y = l1 ++ y :: l2.
Proof. induction l1; intros; cbn; [|rewrite IHl1]; trivial. Qed.

Lemma update_app : forall {X} f (l1 : list X) x l2 r, update_nth f (length l1) (l1 ++ x :: l2) = Ok r ->
  exists y, f x = Ok y /\ r = l1 ++ y :: l2.
Proof.
  induction l1 as [|a l1 IH]; intros x l2 r H; cbn in H.
  - destruct (f x) as [y| |]; try discriminate. injection H as <-. eauto.
  - destruct (update_nth f (length l1) (l1 ++ x :: l2)) as [s| |] eqn:E; try discriminate.
    injection H as <-. destruct (IH _ _ _ E) as (y & Ey & ->). eauto.
Qed.

Lemma update_some : forall {X} f (l : list X) i r, update_nth f i l = Ok r -> exists x, nth_error l i = Some x.
Proof.
  intros X f l. induction l as [|a l IH]; intros i r H; [destruct i; discriminate|].
  destruct i; cbn in *; [eauto|]. destruct (update_nth f i l) eqn:E; try discriminate. eauto.
Qed.

Lemma removelast_map : forall {X Y} (f : X -> Y) l, removelast (map f l) = map f (removelast l).
Proof. intros X Y f l. induction l as [|x [|y l] IH]; trivial. cbn [map removelast] in *. now rewrite IH. Qed.

Lemma Forall2_snoc : forall {X Y} (R : X -> Y -> Prop) l x m, Forall2 R (l ++ [x]) m ->
  exists m' y, m = m' ++ [y] /\ Forall2 R l m' /\ R x y.
Proof.
  intros X Y R l x m H. apply Forall2_app_inv_l in H. destruct H as (m1 & m2 & F1 & F2 & ->).
  inversion F2 as [|? y ? ? Rxy F3]; subst. inversion F3; subst. eauto.
Qed.

Lemma on_last_snoc : forall {X} f (l : list X) x r, on_last f (l ++ [x]) = Ok r ->
  exists y e, f x = Ok (y, e) /\ r = if e then l else l ++ [y].
Proof.
  induction l as [|a l IH]; intros x r H.
  - cbn in H. destruct (f x) as [[y e]| |]; try discriminate. cbn in H. injection H as <-. eauto.
  - cbn [app on_last] in H. destruct (l ++ [x]) eqn:E; [destruct l; discriminate|].
    rewrite <- E in H.
    match type of H with context [bind ?u _] => change u with (on_last f (l ++ [x])) in H end.
    destruct (on_last f (l ++ [x])) as [s| |] eqn:Es; try discriminate. cbn in H. injection H as <-.
    destruct (IH _ _ Es) as (y & e & Ey & ->). exists y, e. split; trivial. now destruct e.
Qed.

Lemma snoc_cases : forall {X} (l : list X), l = [] \/ exists l' x, l = l' ++ [x].
Proof. intros X l. destruct l as [|x l _] using rev_ind; eauto. Qed.

Section VP.
Variable ubits : N.
Variable dbg : bool.
Variable bits : N.
Hypothesis Hu : (8 <= ubits)%N.
Hypothesis Hb : (0 < bits)%N.
Hypothesis Hbu : (bits < ubits)%N.
Context {T : Type}.
Notation C := (vcell T).
Notation own := (@own C).
Notation ptree := (@ptree C).
Notation safe := (safe (@vkids T)).
Notation limit := (vec_limit ubits dbg bits).
Notation v_rep := (VectorOps.v_rep bits).

(** The cell of an element, of a node; the contents of a node. *)
Inductive velem (x : T) : ptree -> Prop := ve_intro : forall a, velem x (PT a (VE x) []).

Inductive vtree : vnode T -> ptree -> Prop :=
| vt_intro : forall n a c ts, vcont n c ts -> vtree n (PT a c ts)
with vcont : vnode T -> C -> list ptree -> Prop :=
| vc_branch : forall ns ts, Forall2 vtree ns ts -> vcont (VBranch ns) (VB (map pa ts)) ts
| vc_leaf : forall xs ts, Forall2 velem xs ts -> vcont (VLeaf xs) (VL (map pa ts)) ts.

(** Leaves exactly [h] levels down. *)
Inductive udep : vnode T -> N -> Prop :=
| ud_leaf : forall xs, udep (VLeaf xs) 0
| ud_branch : forall ns h, (0 < h)%N -> (forall n, In n ns -> udep n (h - 1)) -> udep (VBranch ns) h.

Lemma udep_uniform : forall n h, uniform n h -> udep n h.
Proof.
  intros n h H. induction H as [|a d Ha _ IH]; [constructor|]. constructor; [lia|].
  intros c I. replace (d + 1 - 1)%N with d by lia. auto.
Qed.

Lemma vcont_kids : forall n c ts, vcont n c ts -> vkids c = map pa ts.
Proof. intros n c ts H. now destruct H. Qed.

Lemma F2_length : forall {X Y} (R : X -> Y -> Prop) l m, Forall2 R l m -> length l = length m.
Proof. intros X Y R l m H. induction H; cbn; auto. Qed.

Lemma vcont_used : forall n c ts, vcont n c ts -> hused c = used n /\ length ts = used n.
Proof.
  intros n c ts H. unfold hused. destruct H as [ns ts F|xs ts F]; cbn [vkids used];
    rewrite map_length, (F2_length _ _ _ F); auto.
Qed.

Lemma vcont_depth : forall h n c ts a, vcont n c ts -> udep n (N.of_nat h) -> pdepth (PT a c ts) <= h + 2.
Proof.
  induction h as [|h IH]; intros n c ts a V U; cbn [pdepth].
  - inversion U; subst; [|lia]. inversion V as [|? ? F]; subst.
    change (0 + 2) with (S 1). apply le_n_S. apply list_max_le. rewrite Forall_map. clear -F.
    induction F as [|x t l m E F IH]; constructor; auto. destruct E. cbn. lia.
  - inversion U as [|ns h' Hh Un]; subst. inversion V as [? ? F|]; subst.
    change (S h + 2) with (S (h + 2)). apply le_n_S. apply list_max_le. rewrite Forall_map.
    clear -F Un IH. induction F as [|x t l m E F IHF]; constructor.
    + destruct E. eapply IH; [eassumption|]. replace (N.of_nat h) with (N.of_nat (S h) - 1)%N by lia.
      apply Un. now left.
    + apply IHF. intros n I. apply Un. now right.
Qed.

Ltac seq n1 n2 G1 F tac := eapply (safe_seq _ _ _ n1 n2 _ _ G1 F); [tac|perm| |lia].

Lemma lift_inv : forall {A B} (r : res A) (f : A -> res B) y, bind r f = Ok y ->
  exists x, r = Ok x /\ f x = Ok y.
Proof. intros A B r f y H. destruct r; try discriminate. eauto. Qed.

Ltac inv H x E := apply lift_inv in H; destruct H as (x & E & H).

Lemma usub1 : forall h, (0 < h)%N -> usub ubits dbg h 1 = Ok (h - 1)%N.
Proof. intros h H. unfold usub. destruct (N.leb_spec 1 h); [trivial|lia]. Qed.

Lemma lv_pred : forall h, (0 < h)%N -> N.to_nat h = lv (h - 1).
Proof. intros h H. unfold lv. lia. Qed.

(** One child of a branch worked on through [make_mut]. *)
Lemma child_ok : forall (go : C -> prog C C) ns1 n n' ns2 ts1 t ts2 b k,
  Forall2 vtree ns1 ts1 -> vtree n t -> Forall2 vtree ns2 ts2 -> length ts1 = b ->
  (forall c ts, vcont n c ts ->
     safe k (go c) (map Tree ts) (fun c' G => exists ts', G = map Tree ts' /\ vcont n' c' ts')) ->
  safe (S k)
    (let* (p', d) := make_mut vkids (pa t) in
     let* d' := go d in
     Fill p' d' (Ret (VB (put (map pa (ts1 ++ t :: ts2)) b p'))))
    (map Tree (ts1 ++ t :: ts2))
    (fun c' G => exists ts', G = map Tree ts' /\ vcont (VBranch (ns1 ++ n' :: ns2)) c' ts').
Proof.
  intros go ns1 n n' ns2 ts1 t ts2 b k F1 V F2 Lb K. inversion V as [? a c ts Vc]; subst. cbn [pa].
  rewrite (map_app Tree). cbn [map].
  seq 1 k [Tree (PT a c ts)] (map Tree ts1 ++ map Tree ts2) ltac:(apply safe_make_mut).
  intros r G (a' & -> & ->). cbn [app].
  seq k 0 (map Tree ts) (Held a' :: map Tree ts1 ++ map Tree ts2) ltac:(apply (K c ts Vc)).
  intros c' G (ts' & -> & V'). cbn [HeapSafe.safe].
  exists ts', (map Tree ts1 ++ map Tree ts2). splits; [perm|eapply vcont_kids; exact V'|].
  exists (map Tree (ts1 ++ PT a' c' ts' :: ts2)). split; [rewrite map_app; cbn [map]; perm|].
  exists (ts1 ++ PT a' c' ts' :: ts2). split; trivial.
  replace (put (map pa (ts1 ++ PT a c ts :: ts2)) (length ts1) a') with (map pa (ts1 ++ PT a' c' ts' :: ts2)).
  - constructor. apply Forall2_app; trivial. constructor; trivial. now constructor.
  - rewrite !map_app. cbn [map pa]. rewrite <- (map_length pa ts1), put_app. trivial.
Qed.

(** vector/mod.rs:139-173 *)
Lemma hvn_assoc_ok : forall f index value height n n' c ts,
  vn_assoc ubits dbg f bits index n value height = Ok n' -> udep n height -> vcont n c ts ->
  safe (lv height) (hvn_assoc ubits dbg (lv height) bits index c value height) (map Tree ts)
    (fun c' G => exists ts', G = map Tree ts' /\ vcont n' c' ts').
Proof.
  induction f as [|f IH]; intros index value height n n' c ts E U V; [discriminate|].
  cbn [vn_assoc] in E. unfold lv at 2. cbn [hvn_assoc]. inv E b Eb. rewrite Eb. cbn [lift pbind].
  destruct V as [ns ts F|xs ts F].
  - inversion U as [|? ? Hh Un]; subst. inv E u Ed. rewrite Ed. cbn [lift pbind].
    rewrite (lv_pred height Hh). rewrite usub1 in * by trivial.
    destruct (nth_error ns (N.to_nat b)) as [n0|] eqn:En.
    + destruct (Forall2_nth _ _ _ _ _ F En) as (l1 & l2 & m1 & y & m2 & -> & -> & L1 & L2 & Vy & F1 & F2).
      cbn [bind] in E. inv E r Er. injection E as <-. rewrite <- L2 in Er.
      destruct (update_app _ _ _ _ _ Er) as (s & Es & ->).
      rewrite map_app at 1. cbn [map]. rewrite <- L1. rewrite <- (map_length pa m1) at 1. rewrite nth_app_len.
      eapply safe_mono; [| |apply (child_ok (fun c' => hvn_assoc ubits dbg (lv (height - 1)) bits index c' value (height - 1)) l1 n0 s l2 m1 y m2 (length m1) (lv (height - 1)))]; trivial.
      * unfold lv. lia.
      * intros c ts V. eapply IH; [exact Es| |exact V]. apply Un. apply in_app_iff. right. now left.
    + assert (En' : nth_error (map pa ts) (N.to_nat b) = None).
      { apply nth_error_None. rewrite map_length, <- (F2_length _ _ _ F). now apply nth_error_None. }
      rewrite En'. cbn [bind] in E. inv E s Es. injection E as <-. cbn [lift pbind].
      assert (X : exists n0 c0, (if (1 <? height)%N then VBranch [] else VLeaf []) = n0 /\
                  (if (1 <? height)%N then VB [] else VL []) = c0 /\ udep n0 (height - 1) /\ vcont n0 c0 []).
      { destruct (N.ltb_spec 1 height).
        - do 2 eexists. splits; trivial; [constructor; [lia|easy]|]. apply (vc_branch [] []). constructor.
        - do 2 eexists. splits; trivial; [replace (height - 1)%N with 0%N by lia; constructor|].
          apply (vc_leaf [] []). constructor. }
      destruct X as (n0 & c0 & En0 & Ec0 & U0 & V0). rewrite En0 in Es. rewrite Ec0.
      eapply (safe_seq _ _ _ (lv (height - 1)) 1 _ _ [] (map Tree ts));
        [apply (IH _ _ _ _ _ _ _ Es U0 V0)|perm| |unfold lv; lia].
      intros c' G (ts' & -> & V'). exists 0, ts', (map Tree ts).
      splits; [trivial|perm|eapply vcont_kids; exact V'|].
      intros a. exists (map Tree (ts ++ [PT a c' ts'])). split; [rewrite map_app; cbn [map]; perm|].
      exists (ts ++ [PT a c' ts']). split; trivial.
      replace (map pa ts ++ [a]) with (map pa (ts ++ [PT a c' ts'])) by now rewrite map_app.
      constructor. apply Forall2_app; trivial. repeat constructor. trivial.
  - inversion U; subst. inv E u Ed. rewrite Ed. cbn [lift pbind].
    rewrite map_length, <- (F2_length _ _ _ F).
    destruct (N.eqb_spec (N.of_nat (length xs)) b) as [El|El].
    + injection E as <-. exists (N.to_nat 0), [], (map Tree ts). splits; [reflexivity|perm|reflexivity|].
      intros a. exists (map Tree (ts ++ [PT a (VE value) []])). split; [rewrite map_app; cbn [map]; perm|].
      exists (ts ++ [PT a (VE value) []]). split; trivial.
      replace (map pa ts ++ [a]) with (map pa (ts ++ [PT a (VE value) []])) by now rewrite map_app.
      constructor. apply Forall2_app; trivial. repeat constructor.
    + inv E r Er. injection E as <-. destruct (update_some _ _ _ _ Er) as (x & Ex).
      destruct (Forall2_nth _ _ _ _ _ F Ex) as (l1 & l2 & m1 & y & m2 & -> & -> & L1 & L2 & Vy & F1 & F2).
      rewrite <- L2 in Er. destruct (update_app _ _ _ _ _ Er) as (s & Es & ->). injection Es as <-.
      exists (N.to_nat 0), [], (map Tree (m1 ++ y :: m2)). splits; [reflexivity|perm|reflexivity|].
      intros a. unfold index_nth. rewrite map_app at 1. cbn [map].
      rewrite <- L1 at 1. rewrite <- (map_length pa m1) at 1. rewrite nth_app_len. cbn [unwrap lift pbind].
      rewrite (map_app Tree). cbn [map].
      seq 0 0 [Tree y] (Tree (PT a (VE value) []) :: map Tree m1 ++ map Tree m2)
        ltac:(apply safe_drop; destruct Vy; cbn; lia).
      intros [] G ->. cbn [app].
      exists (map Tree (m1 ++ PT a (VE value) [] :: m2)). split; [rewrite map_app; cbn [map]; perm|].
      exists (m1 ++ PT a (VE value) [] :: m2). split; trivial.
      replace (put (map pa (m1 ++ y :: m2)) (N.to_nat b) a) with (map pa (m1 ++ PT a (VE value) [] :: m2)).
      * constructor. apply Forall2_app; trivial. repeat constructor. trivial.
      * rewrite !map_app. cbn [map pa]. rewrite <- L1, <- (map_length pa m1), put_app. trivial.
Qed.

Lemma used_inv : forall n c ts, vcont n c ts -> (hused c =? 0) = vn_is_empty n.
Proof. intros n c ts V. unfold vn_is_empty. now destruct (vcont_used _ _ _ V) as [-> _]. Qed.

Lemma last_snoc : forall {X} (l : list X) x, last_error (l ++ [x]) = Some x.
Proof. exact last_error_app. Qed.

(** vector/mod.rs:197-215 *)
Lemma hvn_drop_last_ok : forall h n n' e c ts,
  vn_drop_last n = Ok (n', e) -> udep n (N.of_nat h) -> vcont n c ts ->
  safe h (hvn_drop_last (S h) c) (map Tree ts)
    (fun r G => snd r = e /\ exists ts', G = map Tree ts' /\ vcont n' (fst r) ts').
Proof.
  induction h as [|h IH]; intros n n' e c ts E U V.
  all: cbn [hvn_drop_last]; rewrite (used_inv _ _ _ V).
  all: destruct n as [ns|xs]; cbn [vn_drop_last] in E.
  - inversion U; lia.
  - destruct (vn_is_empty (VLeaf xs)) eqn:Em; [injection E as <- <-; inversion V; subst; apply safe_ret; eauto|].
    cbn [bind] in E. injection E as <- <-. inversion V as [|? ? F]; subst.
    destruct (snoc_cases xs) as [->|(l & x & ->)]; [discriminate|].
    destruct (Forall2_snoc _ _ _ _ F) as (ts1 & t & -> & F1 & Vt).
    rewrite !map_app at 1. cbn [map]. rewrite last_snoc. cbn [unwrap lift pbind].
    rewrite map_app. cbn [map].
    apply safe_assoc.
    seq 0 0 [Tree t] (map Tree ts1) ltac:(apply safe_drop; destruct Vt; cbn; lia).
    intros [] G ->. cbn [app pbind]. rewrite removelast_last.
    assert (V' : vcont (VLeaf (removelast (l ++ [x]))) (VL (map pa ts1)) ts1).
    { rewrite removelast_last. now constructor. }
    apply safe_ret. cbn [fst snd]. split; [apply (used_inv _ _ _ V')|eauto].
  - destruct (vn_is_empty (VBranch ns)) eqn:Em; [injection E as <- <-; inversion V; subst; apply safe_ret; eauto|].
    inversion U as [|? ? Hh Un]; subst. inversion V as [? ? F|]; subst.
    inv E m Em'. inv Em' a Ea. injection Em' as <-. injection E as <- <-.
    destruct (snoc_cases ns) as [->|(l & x & ->)]; [discriminate|].
    destruct (on_last_snoc _ _ _ _ Ea) as (y & e & Ey & ->).
    destruct (Forall2_snoc _ _ _ _ F) as (ts1 & t & -> & F1 & Vt). destruct Vt as [x p c us Vc].
    rewrite !map_app at 1. cbn [map pa]. rewrite last_snoc. cbn [unwrap lift pbind].
    rewrite map_app. cbn [map]. apply safe_assoc.
    seq 1 h [Tree (PT p c us)] (map Tree ts1) ltac:(apply safe_make_mut).
    intros r G (a' & -> & ->). cbn [app]. apply safe_assoc.
    assert (Ux : udep x (N.of_nat h)).
    { replace (N.of_nat h) with (N.of_nat (S h) - 1)%N by lia. apply Un. apply in_app_iff. right. now left. }
    seq h 0 (map Tree us) (Held a' :: map Tree ts1) ltac:(apply (IH x y e c us Ey Ux Vc)).
    intros [d' e'] G (Ee & us' & -> & V'). cbn [fst snd] in *. subst e'. cbn [HeapSafe.safe pbind].
    exists us', (map Tree ts1). splits; [perm|eapply vcont_kids; exact V'|].
    rewrite removelast_last. destruct e; cbn [pbind].
    + assert (Le : us' = []).
      { destruct x as [xs|xs]; cbn [vn_drop_last] in Ey.
        all: match type of Ey with (if ?u then _ else _) = _ => destruct u eqn:Eu end.
        1,3: injection Ey as <-; destruct (vcont_used _ _ _ V') as [_ L]; unfold vn_is_empty in Eu;
             apply Nat.eqb_eq in Eu; rewrite Eu in L; destruct us'; trivial; discriminate.
        all: inv Ey m Em1; injection Ey as -> Ev; destruct (vcont_used _ _ _ V') as [_ L];
             unfold vn_is_empty in Ev; apply Nat.eqb_eq in Ev; rewrite Ev in L; destruct us'; trivial; discriminate. }
      subst us'. apply safe_assoc.
      seq 0 0 [Tree (PT a' d' [])] (map Tree ts1) ltac:(apply (safe_drop _ 1 (PT a' d' [])); cbn; lia).
      intros [] G ->. cbn [app pbind].
      assert (V2 : vcont (VBranch l) (VB (map pa ts1)) ts1) by now constructor.
      apply safe_ret. cbn [fst snd]. split; [apply (used_inv _ _ _ V2)|eauto].
    + assert (V2 : vcont (VBranch (l ++ [y])) (VB (map pa ts1 ++ [a'])) (ts1 ++ [PT a' d' us'])).
      { replace (map pa ts1 ++ [a']) with (map pa (ts1 ++ [PT a' d' us'])) by now rewrite map_app.
        constructor. apply Forall2_app; trivial. repeat constructor. trivial. }
      exists (map Tree (ts1 ++ [PT a' d' us'])). split; [rewrite map_app; cbn [map]; perm|].
      cbn [fst snd]. split; [apply (used_inv _ _ _ V2)|eauto].
  - inversion U; lia.
Qed.

(** vector/mod.rs:222-239 *)
Lemma hvn_get_mut_ok : forall f g index height n n' c ts,
  vn_get_mut ubits dbg f bits g n index height = Ok n' -> udep n height -> vcont n c ts ->
  safe (lv height) (hvn_get_mut ubits dbg (lv height) bits g c index height) (map Tree ts)
    (fun c' G => exists ts', G = map Tree ts' /\ vcont n' c' ts').
Proof.
  induction f as [|f IH]; intros g index height n n' c ts E U V; [discriminate|].
  cbn [vn_get_mut] in E. unfold lv at 2. cbn [hvn_get_mut]. inv E b Eb. rewrite Eb. cbn [lift pbind].
  destruct V as [ns ts F|xs ts F].
  - inversion U as [|? ? Hh Un]; subst. rewrite (lv_pred height Hh). rewrite usub1 in * by trivial.
    cbn [bind lift pbind] in *. inv E r Er. injection E as <-.
    destruct (update_some _ _ _ _ Er) as (n0 & En).
    destruct (Forall2_nth _ _ _ _ _ F En) as (l1 & l2 & m1 & y & m2 & -> & -> & L1 & L2 & Vy & F1 & F2).
    rewrite <- L2 in Er. destruct (update_app _ _ _ _ _ Er) as (s & Es & ->).
    unfold index_nth. rewrite map_app at 1. cbn [map]. rewrite <- L1. rewrite <- (map_length pa m1) at 1.
    rewrite nth_app_len. cbn [unwrap lift pbind].
    eapply safe_mono; [| |apply (child_ok (fun c' => hvn_get_mut ubits dbg (lv (height - 1)) bits g c' index (height - 1)) l1 n0 s l2 m1 y m2 (length m1) (lv (height - 1)))]; trivial.
    + unfold lv. lia.
    + intros c ts V. eapply IH; [exact Es| |exact V]. apply Un. apply in_app_iff. right. now left.
  - inversion U; subst. inv E u Ed. rewrite Ed. cbn [lift pbind]. inv E r Er. injection E as <-.
    destruct (update_some _ _ _ _ Er) as (x & Ex).
    destruct (Forall2_nth _ _ _ _ _ F Ex) as (l1 & l2 & m1 & y & m2 & -> & -> & L1 & L2 & Vy & F1 & F2).
    rewrite <- L2 in Er. destruct (update_app _ _ _ _ _ Er) as (s & Es & ->). injection Es as <-.
    unfold index_nth. rewrite map_app at 1. cbn [map]. rewrite <- L1. rewrite <- (map_length pa m1) at 1.
    rewrite nth_app_len. cbn [unwrap lift pbind]. destruct Vy as [p]. cbn [pa].
    rewrite (map_app Tree). cbn [map]. change (lv 0) with 1.
    seq 1 0 [Tree (PT p (VE x) [])] (map Tree m1 ++ map Tree m2) ltac:(apply safe_make_mut).
    intros r G (a' & -> & ->). cbn [HeapSafe.safe map app].
    exists [], (map Tree m1 ++ map Tree m2). splits; [perm|reflexivity|].
    exists (map Tree (m1 ++ PT a' (VE (g x)) [] :: m2)). split; [rewrite map_app; cbn [map]; perm|].
    exists (m1 ++ PT a' (VE (g x)) [] :: m2). split; trivial.
    replace (put (map pa (m1 ++ PT p (VE x) [] :: m2)) (length m1) a')
      with (map pa (m1 ++ PT a' (VE (g x)) [] :: m2)).
    + constructor. apply Forall2_app; trivial. repeat constructor. trivial.
    + rewrite !map_app. cbn [map pa]. rewrite <- (map_length pa m1), put_app. trivial.
Qed.

(** vector/mod.rs:127-137 *)
Lemma hvn_get_ok : forall f index height n x c ts G,
  vn_get ubits dbg f bits n index height = Ok x -> udep n height -> vcont n c ts ->
  (forall t, In t ts -> lent t G) ->
  safe 0 (hvn_get ubits dbg (lv height) bits c index height) G (fun r G' => G' = G /\ r = x).
Proof.
  induction f as [|f IH]; intros index height n x c ts G E U V L; [discriminate|].
  cbn [vn_get] in E. unfold lv. cbn [hvn_get]. inv E b Eb. rewrite Eb. cbn [lift pbind].
  destruct V as [ns ts F|xs ts F].
  - inversion U as [|? ? Hh Un]; subst. rewrite (lv_pred height Hh). rewrite usub1 in * by trivial.
    unfold index_nth in *. inv E n0 En. cbn [bind] in E.
    destruct (nth_error ns (N.to_nat b)) as [n1|] eqn:En'; [|discriminate]. injection En as ->.
    destruct (Forall2_nth _ _ _ _ _ F En') as (l1 & l2 & m1 & y & m2 & -> & -> & L1 & L2 & Vy & F1 & F2).
    rewrite map_app. cbn [map]. rewrite <- L1. rewrite <- (map_length pa m1) at 1.
    rewrite nth_app_len. cbn [unwrap lift pbind].
    assert (Ly : lent y G) by (apply L; apply in_app_iff; right; now left).
    destruct Vy as [n0 a c' us Vc]. cbn [pa]. exists c', us. split; trivial. intros _.
    apply (IH _ _ n0 x c' us); trivial.
    + apply Un. apply in_app_iff. right. now left.
    + intros t I. eapply lent_kid; eauto.
  - inversion U; subst. inv E u Ed. rewrite Ed. cbn [lift pbind]. unfold index_nth in *.
    destruct (nth_error xs (N.to_nat b)) as [x'|] eqn:En'; [|discriminate]. injection E as ->.
    destruct (Forall2_nth _ _ _ _ _ F En') as (l1 & l2 & m1 & y & m2 & -> & -> & L1 & L2 & Vy & F1 & F2).
    rewrite map_app. cbn [map]. rewrite <- L1. rewrite <- (map_length pa m1) at 1.
    rewrite nth_app_len. cbn [unwrap lift pbind].
    assert (Ly : lent y G) by (apply L; apply in_app_iff; right; now left).
    destruct Vy as [a]. cbn [pa]. exists (VE x), []. split; trivial. intros _. now apply safe_ret.
Qed.

(** ** Iteration: the stacks of the iterator, level by level

    What is left of the children after the current one. *)
Definition after {X} (bw : bool) (a : list X) (i : Z) : list X :=
  if bw then firstn (Z.to_nat i) a else skipn (Z.to_nat (i + 1)) a.

Lemma nth_map_pa : forall (ts : list ptree) i p, nth_error (map pa ts) i = Some p ->
  exists t, nth_error ts i = Some t /\ p = pa t.
Proof.
  induction ts as [|t ts IH]; intros [|i] p E; try discriminate; cbn in *; [injection E as <-; eauto|auto].
Qed.

Lemma F2_nth : forall {X Y} (R : X -> Y -> Prop) l m i x, Forall2 R l m -> nth_error l i = Some x ->
  exists y, nth_error m i = Some y /\ R x y.
Proof.
  intros X Y R l m i x F. revert i. induction F as [|a b l m Rab F IH]; intros [|i] E; try discriminate; cbn in *.
  - injection E as <-. eauto.
  - auto.
Qed.

Lemma sum_cons : forall x l, list_sum (x :: l) = x + list_sum l.
Proof. reflexivity. Qed.

(** What walking a fresh subtree costs, at most; a part of it that is left. *)
Fixpoint walk (n : vnode T) : nat :=
  match n with
  | VLeaf xs => 4 + 4 * length xs
  | VBranch ns => S (list_sum (map (fun c => 4 + walk c) ns))
  end.
Definition walks (l : list (vnode T)) : nat := list_sum (map (fun c => 4 + walk c) l).
Definition rest_of (bw : bool) (e : selem) : nat :=
  match fst e with
  | VLeaf xs => 3 + 4 * length (after bw xs (snd e))
  | VBranch ns => 1 + walks (after bw ns (snd e))
  end.
Definition rests (bw : bool) (s : list selem) : nat := list_sum (map (rest_of bw) s).

Section It.
Variable G : list own.
Variable top : nat.   (** the height of the root *)

Definition inside (bw : bool) (e : @selem T) : Prop :=
  if bw then (snd e < Z.of_nat (used (fst e)))%Z else (0 <= snd e)%Z.

Definition srel (bw : bool) (he : hselem) (ve : selem) (h : nat) : Prop :=
  snd he = snd ve /\ inside bw ve /\ udep (fst ve) (N.of_nat h) /\
  exists t, pa t = fst he /\ vtree (fst ve) t /\ lent t G.

(** The stack of the program and that of VectorModel.v, with the top at height [h]. *)
Inductive stk (bw : bool) : list hselem -> list selem -> nat -> Prop :=
| sk_nil : stk bw [] [] (S top)
| sk_cons : forall he hs ve vs h, srel bw he ve h -> stk bw hs vs (S h) -> stk bw (he :: hs) (ve :: vs) h.

Lemma stk_len : forall bw hs vs h, stk bw hs vs h -> length vs + h = S top.
Proof. intros bw hs vs h S. induction S; cbn [length]; lia. Qed.

Lemma hse_new_looks : forall bw n t, vtree n t -> lent t G ->
  looks 1 (@hse_new T (pa t) bw) G (fun e => e = (pa t, snd (se_new n bw))).
Proof.
  intros bw n t V L. unfold hse_new, se_new. destruct bw; [|reflexivity].
  destruct V as [n a c ts Vc]. cbn [pa]. eapply looks_read; [exact L|].
  destruct (vcont_used _ _ _ Vc) as [-> _]. reflexivity.
Qed.

Lemma se_new_inside : forall bw (n : vnode T), inside bw (se_new n bw).
Proof. intros [|] n; unfold inside, se_new; cbn [fst snd]; lia. Qed.

Lemma dig_unfold : forall bw ns i (rest : list (@selem T)),
  dig ((VBranch ns, i) :: rest) bw =
  if (i <? 0)%Z then Panic
  else match nth_error ns (Z.to_nat i) with
       | Some c => dig (se_new c bw :: (VBranch ns, i) :: rest) bw
       | None => Panic
       end.
Proof.
  intros bw ns i rest. unfold dig. cbn [dig_from]. destruct (i <? 0)%Z; [reflexivity|].
  rewrite at_nth_eq. destruct (nth_error ns (Z.to_nat i)) as [c|]; [|reflexivity]. cbv zeta.
  unfold se_new. cbn [snd]. destruct (dig_from c _ bw) as [up| |]; cbn [bind]; try reflexivity.
  now rewrite <- app_assoc.
Qed.

(** The cost of digging at the top of a stack. *)
Definition below (e : @selem T) : nat :=
  match fst e with
  | VLeaf _ => 1
  | VBranch ns => match nth_error ns (Z.to_nat (snd e)) with Some c => 3 + walk c | None => 0 end
  end.

Lemma fresh_rest : forall bw (n : vnode T), below (se_new n bw) + rest_of bw (se_new n bw) <= walk n \/
  exists ns, n = VBranch ns /\ nth_error ns (Z.to_nat (snd (se_new n bw))) = None.
Proof.
  intros bw n. unfold below, rest_of, se_new, after. cbn [fst snd]. destruct n as [ns|xs]; cbn [used walk].
  - destruct bw.
    + destruct (snoc_cases ns) as [->|(m & c & ->)]; [right; exists []; split; [trivial|now destruct (Z.to_nat _)]|left].
      rewrite app_length. cbn [length].
      replace (Z.to_nat (Z.of_nat (length m + 1) - 1)) with (length m) by lia.
      rewrite nth_app_len, firstn_app, firstn_all, Nat.sub_diag, firstn_O, app_nil_r.
      unfold walks. rewrite map_app, list_sum_app. cbn [map]. change (list_sum [4 + walk c]) with (4 + walk c + 0). lia.
    + destruct ns as [|c ns]; [right; exists []; auto|left]. change (Z.to_nat 0) with 0.
      change (Z.to_nat (0 + 1)) with 1. cbn [nth_error skipn]. unfold walks.
      cbn [map]. rewrite !sum_cons. lia.
  - left. destruct bw.
    + rewrite firstn_length. lia.
    + rewrite skipn_length. lia.
Qed.

Lemma hdig_looks : forall h bw hs vs f vs', stk bw hs vs h -> h < f -> dig vs bw = Ok vs' ->
  exists k hs' e rest, vs = e :: rest /\ looks k (@hdig T f hs bw) G (fun r => r = hs') /\ stk bw hs' vs' 0 /\
    k <= 1 + 3 * h /\ k + rests bw vs' <= rests bw vs + below e.
Proof.
  induction h as [|h IH]; intros bw hs vs f vs' S Hf E.
  - inversion S as [|he hs0 e rest h Re S']; subst; clear S; rename S' into S, hs0 into hs.
    destruct Re as (E1 & In & U & t & Et & V & L).
    destruct e as [n i], he as [a j]. cbn [fst snd] in *. subst a j.
    destruct f as [|f]; [lia|]. inversion U as [xs|]; subst; [|lia].
    unfold dig in E. cbn in E. injection E as <-.
    exists 1, ((pa t, i) :: hs), (VLeaf xs, i), rest. splits; trivial; try (unfold below; cbn [fst]; lia).
    + cbn [hdig fst]. inversion V as [n a c ts Vc]; subst. cbn [pa]. eapply looks_read; [exact L|]. inversion Vc; subst. reflexivity.
    + constructor; trivial. unfold srel. splits; trivial. exists t. auto.
  - inversion S as [|he hs0 e rest h' Re S']; subst; [discriminate|]; clear S; rename S' into S, hs0 into hs.
    assert (Re' := Re). destruct Re as (E1 & In & U & t & Et & V & L).
    destruct e as [n i], he as [a j]. cbn [fst snd] in *. subst a j.
    destruct f as [|f]; [lia|]. inversion U as [|ns h' Hh Un]; subst.
    rewrite dig_unfold in E. destruct (i <? 0)%Z eqn:Ei; [discriminate|]. apply Z.ltb_ge in Ei.
    destruct (nth_error ns (Z.to_nat i)) as [c|] eqn:En; [|discriminate].
    inversion V as [n a cc ts Vc]; subst. inversion Vc as [? ? F|]; subst.
    destruct (F2_nth _ _ _ _ _ F En) as (u & Eu & Vu).
    assert (Lu : lent u G) by (eapply lent_kid; [exact L|]; eapply nth_error_In; eauto).
    assert (Sn : stk bw ((pa u, snd (se_new c bw)) :: (a, i) :: hs) (se_new c bw :: (VBranch ns, i) :: rest) h).
    { constructor.
      - unfold srel. splits; [reflexivity|apply se_new_inside| |exists u; auto].
        replace (N.of_nat h) with (N.of_nat (Datatypes.S h) - 1)%N by lia. apply Un. eapply nth_error_In; eauto.
      - constructor; trivial. }
    destruct (IH bw _ _ f vs' Sn ltac:(lia) E) as (k & hs' & e & rest' & Ee & Lk & Sk & B1 & B2).
    injection Ee as <- <-.
    exists (3 + k), hs', (VBranch ns, i), rest. splits; trivial; [|lia|].
    + cbn [hdig fst pa]. change (3 + k) with (Datatypes.S (1 + (1 + k))). eapply looks_read; [exact L|]. cbn beta iota.
      eapply (looks_bind _ _ 1 (1 + k)).
      { unfold hse_current_node. cbn [fst snd]. eapply looks_read; [exact L|]. cbn beta iota.
        unfold index_z. apply Z.ltb_ge in Ei. rewrite Ei.
        rewrite (map_nth_error pa _ _ Eu). cbn [unwrap lift]. exact (eq_refl (pa u)). }
      intros p <-. eapply (looks_bind _ _ 1 k); [apply (hse_new_looks bw c u Vu Lu)|].
      intros e ->. exact Lk.
    + unfold rests in *. cbn [map] in *.
      rewrite !sum_cons in *.
      unfold below at 1. cbn [fst snd]. rewrite En.
      destruct (fresh_rest bw c) as [Fr|(ms & -> & Em)]; [lia|].
      exfalso. clear -E Em. unfold se_new in E. rewrite dig_unfold in E. unfold se_new in Em. cbn [snd] in Em.
      rewrite Em in E. destruct (_ <? _)%Z; discriminate.
Qed.

Lemma after_step : forall {X} (bw : bool) (a : list X) (i : Z), (if bw then i < Z.of_nat (length a) else 0 <= i)%Z ->
  (if bw then i - 1 <? 0 else Z.of_nat (length a) <=? i + 1)%Z = false ->
  exists x, nth_error a (Z.to_nat (if bw then i - 1 else i + 1)%Z) = Some x /\
    (after bw a i = after bw a (if bw then i - 1 else i + 1)%Z ++ [x] \/
     after bw a i = x :: after bw a (if bw then i - 1 else i + 1)%Z).
Proof.
  intros X bw a i B F. unfold after. destruct bw.
  - apply Z.ltb_ge in F. destruct (nth_error a (Z.to_nat (i - 1))) as [x|] eqn:E.
    2:{ apply nth_error_None in E. lia. }
    exists x. split; trivial. left. replace (Z.to_nat i) with (S (Z.to_nat (i - 1))) by lia.
    clear B F. revert E. generalize (Z.to_nat (i - 1)). intros j. revert j.
    induction a as [|y a IH]; intros [|j] E; try discriminate; cbn in *.
    + injection E as <-. reflexivity.
    + now rewrite (IH _ E).
  - apply Z.leb_gt in F. destruct (nth_error a (Z.to_nat (i + 1))) as [x|] eqn:E.
    2:{ apply nth_error_None in E. lia. }
    exists x. split; trivial. right. rewrite (skipn_nth _ _ _ _ E). f_equal. f_equal. lia.
Qed.

Lemma hse_advance_looks : forall bw he ve h, srel bw he ve h ->
  looks 1 (@hse_advance T he bw) G (fun r => r = ((fst he, snd (fst (se_advance ve bw))), snd (se_advance ve bw))).
Proof.
  intros bw [a j] [n i] h (E1 & In & U & t & Et & V & L). cbn [fst snd] in *. subst a j.
  unfold hse_advance, se_advance. cbn [fst snd]. destruct bw; [reflexivity|].
  destruct V as [n a c ts Vc]. cbn [pa]. eapply looks_read; [exact L|].
  destruct (vcont_used _ _ _ Vc) as [-> _]. reflexivity.
Qed.

Definition leafy (s : list (@selem T)) : nat := match s with (VLeaf _, _) :: _ => 2 | _ => 0 end.

Lemma hit_advance_looks : forall bw hs vs h vs', stk bw hs vs h -> it_advance vs bw = Ok vs' ->
  exists k hs' h', looks k (@hit_advance T (S top) hs bw) G (fun r => r = hs') /\ stk bw hs' vs' h' /\
    k <= length vs + 1 + 3 * top /\ k + rests bw vs' + leafy vs <= rests bw vs.
Proof.
  intros bw hs vs h vs' S. induction S as [|he hs ve vs h Re S IH]; intros E.
  - injection E as <-. exists 0, [], (Datatypes.S top). splits; [reflexivity|constructor|cbn; lia..].
  - cbn [it_advance] in E. pose proof (stk_len _ _ _ _ S) as Ls.
    pose proof (hse_advance_looks bw he ve h Re) as La.
    assert (Re' := Re). destruct Re as (E1 & In & U & t & Et & V & L).
    destruct ve as [n i], he as [a j]. cbn [fst snd] in *. subst a j.
    assert (Ea : se_advance (n, i) bw =
      ((n, (if bw then i - 1 else i + 1)%Z), (if bw then i - 1 <? 0 else Z.of_nat (used n) <=? i + 1)%Z)).
    { unfold se_advance. cbn [fst snd]. now destruct bw. }
    rewrite Ea in *. cbn [fst snd] in La.
    destruct (if bw then i - 1 <? 0 else Z.of_nat (used n) <=? i + 1)%Z eqn:Fi.
    + destruct (IH E) as (k & hs' & h' & Lk & Sk & B1 & B2). exists (1 + k), hs', h'. splits; trivial.
      * cbn [hit_advance]. eapply looks_bind; [exact La|]. intros x ->. exact Lk.
      * cbn [length]. lia.
      * unfold rests in *. cbn [map]. rewrite !sum_cons.
        unfold rest_of at 2. cbn [fst snd leafy]. destruct n as [ns|xs]; lia.
    + assert (Sn : stk bw ((pa t, (if bw then i - 1 else i + 1)%Z) :: hs) ((n, (if bw then i - 1 else i + 1)%Z) :: vs) h).
      { constructor; trivial. unfold srel. cbn [fst snd]. splits; trivial; [|exists t; auto].
        unfold inside in *. cbn [fst snd] in *. destruct bw; lia. }
      destruct (hdig_looks h bw _ _ (Datatypes.S top) vs' Sn ltac:(lia) E) as (k & hs' & e & rest & Ee & Lk & Sk & B1 & B2).
      injection Ee as <- <-. exists (1 + k), hs', 0. splits; trivial.
      * cbn [hit_advance]. eapply looks_bind; [exact La|]. intros x ->. exact Lk.
      * cbn [length]. lia.
      * unfold rests in *. cbn [map] in *. rewrite !sum_cons in *.
        revert B2. generalize (list_sum (map (rest_of bw) vs)) (list_sum (map (rest_of bw) vs')). intros r r' B2.
        unfold rest_of, below in *. cbn [fst snd leafy] in *. destruct n as [ns|xs]; unfold inside in In; cbn [used fst snd] in *.
        -- destruct (after_step bw ns i In Fi) as (c & Ec & Ha). rewrite Ec in B2.
           assert (walks (after bw ns i) = walks (after bw ns (if bw then i - 1 else i + 1)%Z) + (4 + walk c)); [|lia].
           unfold walks. destruct Ha as [Ha|Ha]; rewrite Ha.
           ++ rewrite map_app, list_sum_app. cbn [map]. change (list_sum [4 + walk c]) with (4 + walk c + 0). lia.
           ++ cbn [map]. rewrite !sum_cons. lia.
        -- destruct (after_step bw xs i In Fi) as (c & Ec & Ha).
           assert (length (after bw xs i) = 1 + (length (after bw xs (if bw then i - 1 else i + 1)%Z))); [|lia].
           destruct Ha as [Ha|Ha]; rewrite Ha; [rewrite app_length; cbn; lia|reflexivity].
Qed.

Lemma hit_current_looks : forall bw hs vs h o, stk bw hs vs h -> it_current vs = Ok o ->
  looks (leafy vs) (@hit_current T hs) G (fun r => r = o).
Proof.
  intros bw hs vs h o S E. destruct S as [|he hs ve vs h Re S]; cbn [it_current hit_current] in *.
  - injection E as <-. reflexivity.
  - destruct Re as (E1 & In & U & t & Et & V & L). destruct ve as [n i], he as [a j]. cbn [fst snd] in *. subst a j.
    unfold se_current_elem in E. cbn [fst snd] in E. destruct n as [ns|xs]; [discriminate|]. cbn [leafy].
    unfold index_z in E. destruct (i <? 0)%Z eqn:Ei; [discriminate|].
    destruct (nth_error xs (Z.to_nat i)) as [x|] eqn:En; [|discriminate]. cbn in E. injection E as <-.
    inversion V as [n a cc ts Vc]; subst. inversion Vc as [|? ? F]; subst. destruct (F2_nth _ _ _ _ _ F En) as (u & Eu & Vu).
    assert (Lu : lent u G) by (eapply lent_kid; [exact L|]; eapply nth_error_In; eauto).
    eapply (looks_bind _ _ 1 1).
    { unfold hse_current_elem. cbn [fst snd pa]. eapply looks_read; [exact L|]. cbn beta iota. unfold index_z. rewrite Ei.
      rewrite (map_nth_error pa _ _ Eu). cbn [unwrap lift]. exact (eq_refl (pa u)). }
    intros p <-. destruct Vu. cbn [pa]. eapply looks_read; [exact Lu|]. reflexivity.
Qed.
End It.

(** ** The vector *)

(** The vector [v], owning [G], stands for the sequence [l]. *)
Definition hvtree (v : hvec) (w : rvec T) (G : list own) : Prop :=
  exists t, v = mkHV (pa t) (v_bits w) (v_length w) /\ vtree (v_root w) t /\ G = [Tree t].
Definition hvrep (v : hvec) (l : list T) (G : list own) : Prop :=
  exists w, v_rep w l /\ (len l <= limit)%N /\ hvtree v w G.

Lemma height_levels : forall n h, hspec bits n h -> S (N.to_nat h) = levels bits n.
Proof.
  intros n h [[H ->]|(H1 & H2 & H3)]; unfold levels.
  - replace (n - 1)%N with 0%N by lia. cbn [N.log2]. rewrite N.div_0_l by lia. trivial.
  - f_equal. f_equal. unfold dp in *.
    assert (L1 : (bits * h <= N.log2 (n - 1))%N) by (apply N.log2_le_pow2; lia).
    assert (L2 : (N.log2 (n - 1) < bits * (h + 1))%N) by (apply N.log2_lt_pow2; lia).
    apply (N.div_unique _ _ _ (N.log2 (n - 1) - bits * h)); lia.
Qed.

Lemma limit_lt' : (limit < 2 ^ ubits)%N.
Proof. exact (limit_lt ubits dbg bits Hu Hb Hbu). Qed.

Lemma rep_height : forall (w : rvec T) l, v_rep w l -> (len l <= limit)%N ->
  exists h, v_height ubits dbg w = Ok (N.of_nat h) /\ udep (v_root w) (N.of_nat h) /\
    S h = levels bits (len l) /\ hspec bits (len l) (N.of_nat h).
Proof.
  intros w l R L. pose proof limit_lt'. destruct (v_height_rep ubits dbg bits Hu Hb Hbu w l R) as (h & E & Hs & Hr); [lia|].
  exists h. splits; trivial.
  - apply udep_uniform. exact (rep_uniform ubits bits Hu Hb Hbu h _ _ Hr).
  - rewrite <- (height_levels _ _ Hs). lia.
Qed.

Lemma lv_nat : forall h, lv (N.of_nat h) = S h.
Proof. intros. unfold lv. lia. Qed.

(** vector/mod.rs:361-376 *)
Lemma hv_assoc_ok : forall v w w' G index x h,
  v_assoc ubits dbg w index x = Ok w' -> v_bits w = bits -> v_height ubits dbg w = Ok (N.of_nat h) ->
  udep (v_root w) (N.of_nat h) -> hvtree v w G ->
  safe (h + 2) (hv_assoc ubits dbg v index x) G (fun v' G' => hvtree v' w' G').
Proof.
  intros v w w' G index x h E Hbits Hh U (t & -> & Vt & ->). unfold v_assoc in E. unfold hv_assoc.
  cbn [hv_bits hv_length hv_root] in *.
  change (v_root_max_capacity ubits dbg (hv_shape (mkHV (pa t) (v_bits w) (v_length w))))
    with (v_root_max_capacity ubits dbg w).
  change (hv_height ubits dbg (mkHV (pa t) (v_bits w) (v_length w))) with (v_height ubits dbg w).
  inv E u E1. rewrite E1. cbn [lift pbind]. rewrite Hh in *. cbn [bind lift pbind] in *.
  inv E r Er. destruct Vt as [n a c ts Vc]. cbn [pa].
  rewrite Hbits in Er. rewrite Hbits.
  seq 1 (h + 1) [Tree (PT a c ts)] (@nil own) ltac:(apply safe_make_mut).
  intros r0 G (a' & -> & ->). rewrite app_nil_r.
  seq (S h) 0 (map Tree ts) [Held (C := C) a'] ltac:(rewrite <- (lv_nat h) at 1; apply (hvn_assoc_ok _ _ _ _ _ _ _ _ Er U Vc)).
  intros c' G (ts' & -> & V'). exists ts', []. splits; [perm|eapply vcont_kids; exact V'|].
  destruct (v_length w <=? index)%N.
  - inv E k El. rewrite El. injection E as <-. cbn [lift pbind].
    apply safe_ret. exists (PT a' c' ts'). rewrite Hbits. splits; trivial. now constructor.
  - injection E as <-. apply safe_ret. exists (PT a' c' ts'). rewrite Hbits. splits; trivial. now constructor.
Qed.

Lemma rep_bits : forall (w : rvec T) l, v_rep w l -> v_bits w = bits /\ v_length w = len l.
Proof. intros w l (H1 & H2 & _). auto. Qed.

(** vector/mod.rs:346-354 *)
Lemma hv_set_mut_ok : forall v l G i x, hvrep v l G ->
  safe (levels bits (len l) + 1) (hv_set_mut ubits dbg v i x) G
    (fun r G' => snd r = in_range i l /\ hvrep (fst r) (map_at_N (fun _ => x) i l) G').
Proof.
  intros v l G i x (w & R & L & Tw). destruct (v_set_mut_ok ubits dbg bits Hu Hb Hbu w l i x R L) as (w' & E & R').
  destruct (rep_height w l R L) as (h & Hh & U & Eh & _). destruct (rep_bits w l R) as [B1 B2].
  pose proof Tw as (t & -> & _). unfold v_set_mut in E. unfold hv_set_mut. cbn [hv_length].
  destruct (v_length w <=? i)%N eqn:Ei.
  - injection E as <- Er. apply safe_ret. cbn [fst snd]. split; trivial. exists w. splits; trivial.
    unfold map_at_N. now rewrite <- Er.
  - inv E w2 E2. injection E as <- Er.
    seq (h + 2) 0 G (@nil own) ltac:(apply (hv_assoc_ok _ w w2 G i x h E2 B1 Hh U Tw)).
    intros v' G' T'. rewrite app_nil_r. apply safe_ret. cbn [fst snd]. split; trivial. exists w2. splits; trivial.
    unfold map_at_N. destruct (in_range i l); trivial. unfold len. rewrite map_at_length. exact L.
Qed.

Lemma push_heights : forall (w : rvec T) l, v_rep w l -> (len l + 1 <= limit)%N ->
  exists h full, v_height ubits dbg w = Ok (N.of_nat h) /\ udep (v_root w) (N.of_nat h) /\
    v_is_root_full ubits dbg w = Ok full /\
    (full = true -> v_height ubits dbg (mkV (VBranch [v_root w]) (v_bits w) (len l + 1)) = Ok (N.of_nat (S h)) /\
                    S (S h) = levels bits (len l + 1)).
Proof.
  intros w l R L. pose proof limit_lt' as HL. destruct (rep_height w l R) as (h & Hh & U & Eh & Hs); [lia|].
  destruct (rep_bits w l R) as [B1 B2]. exists h, (len l =? dp bits (N.of_nat h + 1))%N. splits; trivial.
  - rewrite (is_root_full_ok ubits dbg bits Hu Hb Hbu w (N.of_nat h)); auto; try (rewrite B2; auto; lia).
  - intros Hf. apply N.eqb_eq in Hf.
    assert (Hs1 : hspec bits (len l + 1) (N.of_nat (S h))).
    { right. pose proof (dp_pos ubits dbg bits Hu Hb Hbu (N.of_nat h + 1)).
      pose proof (dp_1_ge ubits dbg bits Hu Hb Hbu).
      replace (N.of_nat (S h)) with (N.of_nat h + 1)%N by lia.
      rewrite (dp_S ubits dbg bits Hu Hb Hbu (N.of_nat h + 1)). splits; nia. }
    destruct (height_ok ubits dbg bits Hu Hb Hbu (mkV (VBranch [v_root w]) (v_bits w) (len l + 1)) B1)
      as (h' & E1 & Hs'); [cbn [v_length]; lia|].
    rewrite (hspec_unique ubits dbg bits Hu Hb Hbu _ _ _ Hs' Hs1) in E1. split; trivial.
    rewrite <- (height_levels _ _ Hs1). lia.
Qed.

(** vector/mod.rs:404-422 *)
Lemma hv_push_ok : forall v l G x, hvrep v l G -> (len l + 1 <= limit)%N ->
  safe (levels bits (len l + 1) + 2) (hv_push_back_mut ubits dbg v x) G
    (fun v' G' => hvrep v' (l ++ [x]) G').
Proof.
  intros v l G x (w & R & L & Tw) Hl.
  destruct (v_push_ok ubits dbg bits Hu Hb Hbu w l x R Hl) as (w' & E & R').
  destruct (push_heights w l R Hl) as (h & full & Hh & U & Ef & Hf).
  destruct (rep_height w l R L) as (h0 & Hh0 & _ & Eh & _). rewrite Hh in Hh0. injection Hh0 as Hh0.
  assert (h0 = h) by lia. subst h0. clear Hh0.
  assert (Hl' : (len (l ++ [x]) <= limit)%N) by (rewrite len_app, len_cons, len_nil; lia).
  destruct (rep_bits w l R) as [B1 B2]. unfold v_push_back_mut in E. unfold hv_push_back_mut.
  destruct Tw as (t & -> & Vt & ->). cbn [hv_length hv_bits hv_root].
  change (v_is_root_full ubits dbg (hv_shape (mkHV (pa t) (v_bits w) (v_length w)))) with (v_is_root_full ubits dbg w).
  rewrite Ef in *. cbn [lift pbind bind] in *. rewrite B2 in *. destruct full.
  - destruct Hf as [Hh1 El]; trivial. inv E n En. rewrite En in *.
    assert (n = len l + 1)%N.
    { unfold uadd in En. pose proof limit_lt'. destruct (N.ltb_spec (len l + 1) (2 ^ ubits)); [|lia].
      now injection En. }
    subst n. pose proof Vt as Vt'. destruct Vt' as [n a c ts Vc]. cbn [pa].
    exists c, ts. split; [apply lent_in; now left|].
    exists (h + 3), [PT a c ts], [Tree (PT a c ts)]. splits; [lia|perm|reflexivity|]. intros r.
    seq 0 (h + 3) [Tree (PT a c ts); Tree (PT r (VB [a]) [PT a c ts])] (@nil own)
      ltac:(apply (safe_drop_shared _ 0 (PT a c ts) [Tree (PT r (VB [a]) [PT a c ts])] 0
                     (fun _ G => G = [Tree (PT r (VB [a]) [PT a c ts])])); [|trivial]).
    { eapply (lent_kid _ r (VB [a]) [PT a c ts]); [apply lent_in; now left|now left]. }
    intros [] G ->. cbn [app lift pbind].
    eapply safe_mono; [| |eapply (hv_assoc_ok (mkHV r (v_bits w) (len l + 1)) _ w' _ (len l) x (S h) E B1 Hh1)].
    + lia.
    + intros v' G' T'. exists w'. auto.
    + constructor; [lia|]. intros m [<-|[]]. replace (N.of_nat (S h) - 1)%N with (N.of_nat h) by lia. exact U.
    + exists (PT r (VB [a]) [PT a c ts]). cbn [pa v_bits v_length v_root]. splits; trivial.
      constructor. apply (vc_branch [n] [PT a c ts]). constructor; [|constructor]. exact Vt.
  - eapply safe_mono; [| |eapply (hv_assoc_ok (mkHV (pa t) (v_bits w) (len l)) w w' _ (len l) x h E B1 Hh U)].
    + pose proof (levels_mono bits (len l) (len l + 1) Hb). lia.
    + intros v' G' T'. exists w'. auto.
    + exists t. rewrite B2. auto.
Qed.

(** vector/mod.rs:638-647 *)
Lemma hv_extend_ok : forall xs v l G, hvrep v l G -> (len l + len xs <= limit)%N ->
  safe (length xs * (levels bits (len l + len xs) + 2)) (hv_extend ubits dbg v xs) G
    (fun v' G' => hvrep v' (l ++ xs) G').
Proof.
  induction xs as [|x xs IH]; intros v l G R L; cbn [hv_extend].
  - apply safe_ret. now rewrite app_nil_r.
  - rewrite len_cons in *. set (k := levels bits (len l + (len xs + 1))) in *.
    assert (levels bits (len l + 1) <= k) by (apply levels_mono; trivial; lia).
    eapply (safe_seq _ _ _ (k + 2) (length xs * (k + 2)) _ _ G []);
      [|perm| |cbn [length]; lia].
    + eapply safe_mono with (Q := fun v' G' => hvrep v' (l ++ [x]) G'); [| |apply (hv_push_ok v l G x R)]; [lia| |lia].
      intros v' G' R'. exact R'.
    + cbn beta. intros v' G' R'. rewrite app_nil_r.
      eapply safe_mono; [| |apply (IH v' (l ++ [x]) G' R')].
      * rewrite len_app, len_cons, len_nil. unfold k.
        replace (len l + (0 + 1) + len xs)%N with (len l + (len xs + 1))%N by lia. lia.
      * intros v2 G2 R2. now rewrite <- app_assoc in R2.
      * rewrite len_app, len_cons, len_nil. lia.
Qed.

(** vector/mod.rs:428-464 *)
Lemma hv_drop_last_ok : forall v l G, hvrep v l G ->
  safe (levels bits (len l)) (hv_drop_last_mut ubits dbg v) G
    (fun r G' => snd r = negb (is_nil l) /\ hvrep (fst r) (removelast l) G').
Proof.
  intros v l G (w & R & L & Tw).
  destruct (v_drop_last_ok ubits dbg bits Hu Hb Hbu w l R) as (w' & E & R').
  destruct (rep_height w l R L) as (h & Hh & U & Eh & _). destruct (rep_bits w l R) as [B1 B2].
  assert (L' : (len (removelast l) <= limit)%N).
  { destruct (snoc_cases l) as [->|(l1 & x & ->)]; [trivial|]. rewrite removelast_last.
    rewrite len_app, len_cons, len_nil in L. lia. }
  pose proof Tw as (t & -> & Vt & ->). unfold v_drop_last_mut in E. unfold hv_drop_last_mut. cbn [hv_length hv_bits hv_root].
  destruct (0 <? v_length w)%N.
  - inv E p Ep. destruct p as [n' e]. inv E k Ek. injection E as <- Er.
    destruct t as [a c ts] eqn:Et. inversion Vt as [? ? ? ? Vc]; subst. cbn [pa].
    rewrite <- Eh. seq 1 h [Tree (PT a c ts)] (@nil own) ltac:(apply safe_make_mut).
    intros r0 G (a' & -> & ->). rewrite app_nil_r.
    change (hv_height ubits dbg (mkHV a (v_bits w) (v_length w))) with (v_height ubits dbg w).
    rewrite Hh. cbn [lift pbind]. rewrite lv_nat.
    seq h 0 (map Tree ts) [Held (C := C) a'] ltac:(apply (hvn_drop_last_ok h _ _ _ _ _ Ep U Vc)).
    intros [c' e'] G (_ & ts' & -> & V'). cbn [fst] in V'. rewrite Ek. cbn [lift pbind].
    assert (Same : forall w2, v_rep w2 (removelast l) -> w2 = mkV n' (v_bits w) k ->
      safe 0 (Fill a' c' (Ret (mkHV a' (v_bits w) k, true))) (map Tree ts' ++ [Held a'])
        (fun r G' => snd r = negb (is_nil l) /\ hvrep (fst r) (removelast l) G')).
    { intros w2 R2 ->. exists ts', []. splits; [perm|eapply vcont_kids; exact V'|]. apply safe_ret. cbn [fst snd].
      split; trivial. exists (mkV n' (v_bits w) k). splits; trivial. exists (PT a' c' ts'). splits; trivial. now constructor. }
    inversion V' as [ns us F|xs us F]; subst; cbn [v_compress_root] in R'.
    + destruct F as [|n1 u1 ns us V1 F]; [cbn in R' |- *; eapply Same; [exact R'|trivial]|].
      destruct F as [|n2 u2 ns us V2 F].
      * cbn in R'. cbn [map]. exists [], [Tree u1]. splits; [cbn [map]; perm|reflexivity|].
        seq 0 0 [Tree (PT a' (@VB T []) [])] [Tree u1] ltac:(apply (safe_drop _ 1 (PT a' (@VB T []) [])); cbn; lia).
        intros [] G ->. apply safe_ret. cbn [fst snd]. split; trivial.
        exists (mkV n1 (v_bits w) k). splits; trivial. exists u1. auto.
      * unfold vn_is_singleton in R'. cbn [used length Nat.eqb] in R'. cbn [map] in *.
        eapply Same; [exact R'|trivial].
    + eapply Same; [exact R'|trivial].
  - injection E as <- Er. apply safe_ret. cbn [fst snd]. split; trivial. exists w. splits; trivial.
Qed.

(** vector/mod.rs:494-507 *)
Lemma hv_get_mut_ok : forall v l G i g, hvrep v l G ->
  safe (levels bits (len l) + 1) (hv_get_mut ubits dbg v i g) G
    (fun r G' => snd r = in_range i l /\ hvrep (fst r) (map_at_N g i l) G').
Proof.
  intros v l G i g (w & R & L & Tw). pose proof limit_lt'.
  destruct (v_get_mut_ok ubits dbg bits Hu Hb Hbu w l i g R) as (w' & E & R'); [lia|].
  destruct (rep_height w l R L) as (h & Hh & U & Eh & _). destruct (rep_bits w l R) as [B1 B2].
  assert (L' : (len (map_at_N g i l) <= limit)%N).
  { unfold map_at_N. destruct (in_range i l); trivial. unfold len. rewrite map_at_length. exact L. }
  pose proof Tw as (t & -> & Vt & ->). unfold v_get_mut in E. unfold hv_get_mut. cbn [hv_length hv_bits hv_root].
  destruct (v_length w <=? i)%N eqn:Ei.
  - injection E as <- Er. apply safe_ret. cbn [fst snd]. split; trivial. exists w. splits; trivial.
  - change (hv_height ubits dbg (mkHV (pa t) (v_bits w) (v_length w))) with (v_height ubits dbg w).
    rewrite Hh in *. cbn [bind lift pbind] in *. inv E r Er. injection E as <- Eb.
    destruct t as [a c ts] eqn:Et. inversion Vt as [? ? ? ? Vc]; subst. cbn [pa]. rewrite B1 in *.
    seq 1 (S h) [Tree (PT a c ts)] (@nil own) ltac:(apply safe_make_mut).
    intros r0 G (a' & -> & ->). rewrite app_nil_r.
    seq (S h) 0 (map Tree ts) [Held (C := C) a'] ltac:(rewrite <- (lv_nat h) at 1; apply (hvn_get_mut_ok _ _ _ _ _ _ _ _ Er U Vc)).
    intros c' G (ts' & -> & V'). exists ts', []. splits; [perm|eapply vcont_kids; exact V'|].
    apply safe_ret. cbn [fst snd]. split; trivial. eexists. splits; [exact R'|trivial|].
    exists (PT a' c' ts'). splits; trivial. now constructor.
Qed.

(** vector/mod.rs:329-337 *)
Lemma hv_get_ok : forall v l G i, hvrep v l G ->
  safe 0 (hv_get ubits dbg v i) G (fun r G' => G' = G /\ r = at_N l i).
Proof.
  intros v l G i (w & R & L & Tw). pose proof limit_lt'.
  pose proof (v_get_ok ubits dbg bits Hu Hb Hbu w l i R ltac:(lia)) as E.
  destruct (rep_height w l R L) as (h & Hh & U & Eh & _). destruct (rep_bits w l R) as [B1 B2].
  pose proof Tw as (t & -> & Vt & ->). unfold v_get in E. unfold hv_get. cbn [hv_length hv_bits hv_root].
  destruct (v_length w <=? i)%N eqn:Ei.
  - injection E as <-. now apply safe_ret.
  - change (hv_height ubits dbg (mkHV (pa t) (v_bits w) (v_length w))) with (v_height ubits dbg w).
    rewrite Hh in *. cbn [bind lift pbind] in *. inv E x Er. injection E as <-.
    destruct Vt as [n a c ts Vc]. cbn [pa]. rewrite B1 in *.
    exists c, ts. split; [apply lent_in; now left|]. intros _.
    seq 0 0 [Tree (PT a c ts)] (@nil own) ltac:(eapply (hvn_get_ok _ _ _ _ _ _ _ _ Er U Vc)).
    { intros t I. eapply lent_kid; [apply lent_in; now left|exact I]. }
    intros r G (-> & ->). now apply safe_ret.
Qed.

Lemma hv_last_ok : forall v l G, hvrep v l G ->
  safe 0 (hv_last ubits dbg v) G (fun r G' => G' = G /\ r = last_error l).
Proof.
  intros v l G R. pose proof R as (w & Rw & L & t & -> & _). pose proof limit_lt'. unfold hv_last. cbn [hv_length].
  pose proof (v_last_ok ubits dbg bits Hu Hb Hbu w l Rw ltac:(lia)) as E. unfold v_last in E.
  destruct (v_length w =? 0)%N.
  - injection E as <-. now apply safe_ret.
  - rewrite (v_get_ok ubits dbg bits Hu Hb Hbu w l _ Rw ltac:(lia)) in E. injection E as <-. now apply hv_get_ok.
Qed.

Lemma hv_first_ok : forall v l G, hvrep v l G ->
  safe 0 (hv_first ubits dbg v) G (fun r G' => G' = G /\ r = hd_error l).
Proof.
  intros v l G R. pose proof R as (w & Rw & L & t & -> & _). pose proof limit_lt'. unfold hv_first.
  pose proof (v_first_ok ubits dbg bits Hu Hb Hbu w l Rw ltac:(lia)) as E. unfold v_first in E.
  rewrite (v_get_ok ubits dbg bits Hu Hb Hbu w l _ Rw ltac:(lia)) in E. injection E as <-. now apply hv_get_ok.
Qed.

(** ** The iterator of the program and that of VectorModel.v *)
Section Iter.
Variables (G : list own) (t : ptree) (w : rvec T) (top : nat).
Hypothesis Lt : lent t G.
Hypothesis Vt : vtree (v_root w) t.
Hypothesis Ut : udep (v_root w) (N.of_nat top).
Hypothesis Hh : v_height ubits dbg w = Ok (N.of_nat top).
Notation hv := (mkHV (pa t) (v_bits w) (v_length w)).

Definition srels (bw : bool) (hs : option (list hselem)) (vs : option (list (@selem T))) : Prop :=
  match hs, vs with
  | None, None => True
  | Some hs, Some vs => exists h, stk G top bw hs vs h
  | _, _ => False
  end.
Definition itrel (it : hviter) (it' : viter) : Prop :=
  hvi_vec it = hv /\ vi_vec it' = w /\ hvi_left it = vi_left it' /\ hvi_right it = vi_right it' /\
  srels false (hvi_fwd it) (vi_fwd it') /\ srels true (hvi_bwd it) (vi_bwd it').

Definition orest (bw : bool) (s : option (list (@selem T))) : nat :=
  match s with None => 1 + walk (v_root w) | Some s => rests bw s end.
Definition itpot (it' : viter) : nat := orest false (vi_fwd it') + orest true (vi_bwd it').

Lemma fuel_is : hvi_fuel ubits dbg (T := T) hv = S top.
Proof.
  unfold hvi_fuel. change (hv_height ubits dbg hv) with (v_height ubits dbg w). rewrite Hh. apply lv_nat.
Qed.

Lemma hinit_looks : forall bw s', init_stack ubits dbg w bw = Ok s' ->
  exists k hs, looks k (hinit_stack ubits dbg (T := T) hv bw) G (fun r => r = hs) /\ srels bw (Some hs) (Some s') /\
    k <= 2 + 3 * top /\ k + rests bw s' <= 1 + walk (v_root w).
Proof.
  intros bw s' E. unfold init_stack in E. rewrite Hh in E. cbn [bind] in E.
  destruct (uadd ubits dbg (N.of_nat top) 1) as [u| |] eqn:Eu; try discriminate. cbn [bind] in E.
  assert (Sn : stk G top bw [(pa t, snd (se_new (v_root w) bw))] [se_new (v_root w) bw] top).
  { constructor; [|constructor]. unfold srel. splits; [reflexivity|apply se_new_inside|exact Ut|exists t; auto]. }
  destruct (hdig_looks G top top bw _ _ (S top) s' Sn ltac:(lia) E) as (k & hs & e & rest & Ee & Lk & Sk & B1 & B2).
  injection Ee as <- <-. exists (1 + k), hs. splits; [|exists 0; exact Sk|lia|].
  - unfold hinit_stack. change (hv_height ubits dbg hv) with (v_height ubits dbg w). rewrite Hh. cbn [lift pbind].
    rewrite Eu. cbn [lift pbind hv_root]. eapply looks_bind; [apply (hse_new_looks G bw _ t Vt Lt)|].
    intros e ->. rewrite fuel_is. exact Lk.
  - unfold rests in B2 at 2. cbn [map] in B2. rewrite sum_cons in B2. change (list_sum []) with 0 in B2.
    destruct (fresh_rest bw (v_root w)) as [Fr|(ms & Em & En)]; [lia|].
    exfalso. clear -E Em En. unfold se_new in E, En. rewrite Em in *. rewrite dig_unfold in E. cbn [snd] in En.
    rewrite En in E. destruct (_ <? _)%Z; discriminate.
Qed.

Lemma leafy_rests : forall bw s, leafy s <= rests bw s.
Proof.
  intros bw [|[[ns|xs] i] s]; cbn [leafy]; try lia. unfold rests. cbn [map]. rewrite sum_cons. unfold rest_of. cbn [fst]. lia.
Qed.

Lemma fits : forall k l h bw hs (vs : list (@selem T)), stk G top bw hs vs h ->
  k <= length vs + 1 + 3 * top -> l <= 2 + 3 * top -> k + leafy vs + l <= 7 * S top.
Proof.
  intros k l h bw hs vs S K L. pose proof (stk_len _ _ _ _ _ _ S). assert (leafy vs <= 2) by (destruct vs as [|[[|] ?] ?]; cbn; lia).
  lia.
Qed.

Lemma hvi_next_follows : forall it it', itrel it it' ->
  follows itrel G itpot (7 * S top) (hvi_next ubits dbg it) (vi_next ubits dbg it') it'.
Proof.
  intros [v f b l r] [v' f' b' l' r'] (E1 & E2 & E3 & E4 & Rf & Rb). cbn in E1, E2, E3, E4, Rf, Rb. subst v v' l' r'.
  intros o it2 E. unfold vi_next in E.
  assert (I : exists k it1 s1, vi_init_if_needed ubits dbg (mkVI w f' b' l r) false = Ok (mkVI w (Some s1) b' l r) /\
     looks k (hvi_init_if_needed ubits dbg (T := T) (mkHVI hv f b l r) false) G (fun x => x = mkHVI hv (Some it1) b l r) /\
     srels false (Some it1) (Some s1) /\ k <= 2 + 3 * top /\ k + rests false s1 <= orest false f').
  { unfold hvi_init_if_needed, vi_init_if_needed in *. cbn [vi_fwd hvi_fwd vi_vec hvi_vec hvi_bwd vi_bwd hvi_left vi_left hvi_right vi_right] in *.
    destruct f as [hs|], f' as [vs|]; try easy.
    - exists 0, hs, vs. splits; [reflexivity|reflexivity|exact Rf|lia|cbn; lia].
    - destruct (init_stack ubits dbg w false) as [s'| |] eqn:Es; try discriminate.
      destruct (hinit_looks false s' Es) as (k & hs & Lk & Sk & B1 & B2).
      exists k, hs, s'. splits; [reflexivity| |exact Sk|lia|cbn [orest]; lia].
      rewrite <- (Nat.add_0_r k). eapply looks_bind; [exact Lk|]. intros x ->. reflexivity. }
  destruct I as (k1 & hs & vs & I1 & L1 & S1 & B1 & P1). rewrite I1 in E. cbn [bind] in E. clear I1.
  unfold vi_current_forward, vi_advance_forward, vi_non_empty in E. cbn [vi_left vi_right vi_fwd vi_vec vi_bwd] in E.
  destruct S1 as (h & S1). destruct (l <? r)%N eqn:Ne; cbn [unwrap bind] in E.
  - destruct (it_current vs) as [c| |] eqn:Ec; cbn [bind] in E; try discriminate.
    destruct (it_advance vs false) as [s2| |] eqn:Ea; cbn [bind] in E; try discriminate.
    destruct (uadd ubits dbg l 1) as [l2| |] eqn:El; cbn [bind] in E; try discriminate. injection E as <- <-.
    destruct (hit_advance_looks G top false hs vs h s2 S1 Ea) as (k2 & hs2 & h2 & L2 & S2 & B2 & P2).
    exists (k1 + (leafy vs + k2)). splits.
    + unfold hvi_next. eapply looks_bind; [exact L1|]. intros x ->.
      unfold hvi_current_forward, hvi_advance_forward, hvi_non_empty. cbn [hvi_left hvi_right hvi_fwd hvi_vec hvi_bwd].
      rewrite Ne. cbn [unwrap lift pbind]. eapply looks_bind; [exact (hit_current_looks G top false hs vs h c S1 Ec)|].
      intros x ->. rewrite fuel_is. rewrite <- (Nat.add_0_r k2).
      eapply (looks_bind _ _ k2 0 _ (fun x => x = mkHVI hv (Some hs2) b l2 r)).
      { rewrite <- (Nat.add_0_r k2). eapply looks_bind; [exact L2|]. intros x ->. rewrite El. reflexivity. }
      intros x ->. cbn [looks fst snd]. split; trivial.
      unfold itrel. cbn. splits; trivial. eauto.
    + unfold itpot. cbn [vi_fwd vi_bwd orest]. lia.
    + pose proof (fits k2 k1 h false hs vs S1 B2 B1). lia.
  - injection E as <- <-. exists k1. splits.
    + unfold hvi_next. rewrite <- (Nat.add_0_r k1). eapply looks_bind; [exact L1|]. intros x ->.
      unfold hvi_current_forward, hvi_advance_forward, hvi_non_empty. cbn [hvi_left hvi_right hvi_fwd hvi_vec hvi_bwd].
      rewrite Ne. cbn [pbind looks fst snd]. split; trivial. unfold itrel. cbn. splits; trivial. eauto.
    + unfold itpot. cbn [vi_fwd vi_bwd orest] in *. lia.
    + lia.
Qed.

Lemma hvi_back_follows : forall it it', itrel it it' ->
  follows itrel G itpot (7 * S top) (hvi_next_back ubits dbg it) (vi_next_back ubits dbg it') it'.
Proof.
  intros [v f b l r] [v' f' b' l' r'] (E1 & E2 & E3 & E4 & Rf & Rb). cbn in E1, E2, E3, E4, Rf, Rb. subst v v' l' r'.
  intros o it2 E. unfold vi_next_back in E.
  assert (I : exists k it1 s1, vi_init_if_needed ubits dbg (mkVI w f' b' l r) true = Ok (mkVI w f' (Some s1) l r) /\
     looks k (hvi_init_if_needed ubits dbg (T := T) (mkHVI hv f b l r) true) G (fun x => x = mkHVI hv f (Some it1) l r) /\
     srels true (Some it1) (Some s1) /\ k <= 2 + 3 * top /\ k + rests true s1 <= orest true b').
  { unfold hvi_init_if_needed, vi_init_if_needed in *. cbn [vi_fwd hvi_fwd vi_vec hvi_vec hvi_bwd vi_bwd hvi_left vi_left hvi_right vi_right] in *.
    destruct b as [hs|], b' as [vs|]; try easy.
    - exists 0, hs, vs. splits; [reflexivity|reflexivity|exact Rb|lia|cbn; lia].
    - destruct (init_stack ubits dbg w true) as [s'| |] eqn:Es; try discriminate.
      destruct (hinit_looks true s' Es) as (k & hs & Lk & Sk & B1 & B2).
      exists k, hs, s'. splits; [reflexivity| |exact Sk|lia|cbn [orest]; lia].
      rewrite <- (Nat.add_0_r k). eapply looks_bind; [exact Lk|]. intros x ->. reflexivity. }
  destruct I as (k1 & hs & vs & I1 & L1 & S1 & B1 & P1). rewrite I1 in E. cbn [bind] in E. clear I1.
  unfold vi_current_backward, vi_advance_backward, vi_non_empty in E. cbn [vi_left vi_right vi_fwd vi_vec vi_bwd] in E.
  destruct S1 as (h & S1). destruct (l <? r)%N eqn:Ne; cbn [unwrap bind] in E.
  - destruct (it_current vs) as [c| |] eqn:Ec; cbn [bind] in E; try discriminate.
    destruct (it_advance vs true) as [s2| |] eqn:Ea; cbn [bind] in E; try discriminate.
    destruct (usub ubits dbg r 1) as [l2| |] eqn:El; cbn [bind] in E; try discriminate. injection E as <- <-.
    destruct (hit_advance_looks G top true hs vs h s2 S1 Ea) as (k2 & hs2 & h2 & L2 & S2 & B2 & P2).
    exists (k1 + (leafy vs + k2)). splits.
    + unfold hvi_next_back. eapply looks_bind; [exact L1|]. intros x ->.
      unfold hvi_current_backward, hvi_advance_backward, hvi_non_empty. cbn [hvi_left hvi_right hvi_fwd hvi_vec hvi_bwd].
      rewrite Ne. cbn [unwrap lift pbind]. eapply looks_bind; [exact (hit_current_looks G top true hs vs h c S1 Ec)|].
      intros x ->. rewrite fuel_is. rewrite <- (Nat.add_0_r k2).
      eapply (looks_bind _ _ k2 0 _ (fun x => x = mkHVI hv f (Some hs2) l l2)).
      { rewrite <- (Nat.add_0_r k2). eapply looks_bind; [exact L2|]. intros x ->. rewrite El. reflexivity. }
      intros x ->. cbn [looks fst snd]. split; trivial.
      unfold itrel. cbn. splits; trivial. eauto.
    + unfold itpot. cbn [vi_fwd vi_bwd orest]. lia.
    + pose proof (fits k2 k1 h true hs vs S1 B2 B1). lia.
  - injection E as <- <-. exists k1. splits.
    + unfold hvi_next_back. rewrite <- (Nat.add_0_r k1). eapply looks_bind; [exact L1|]. intros x ->.
      unfold hvi_current_backward, hvi_advance_backward, hvi_non_empty. cbn [hvi_left hvi_right hvi_fwd hvi_vec hvi_bwd].
      rewrite Ne. cbn [pbind looks fst snd]. split; trivial. unfold itrel. cbn. splits; trivial. eauto.
    + unfold itpot. cbn [vi_fwd vi_bwd orest] in *. lia.
    + lia.
Qed.

Lemma hvi_hint_is : forall it it', itrel it it' -> hvi_size_hint ubits dbg it = vi_size_hint ubits dbg it'.
Proof.
  intros it it' (_ & _ & El & Er & _). unfold hvi_size_hint, vi_size_hint. now rewrite El, Er.
Qed.

Lemma hvi_new_rel : itrel (hvi_new hv) (vi_new w).
Proof. unfold itrel. cbn. splits; trivial. Qed.
End Iter.

(** A bound on a whole traversal: [2 * (1 + walk)] for both ends; and one on [k] calls. *)
Lemma hv_iter_looks : forall v l G ds w t, v_rep w l -> (len l <= limit)%N -> v = mkHV (pa t) (v_bits w) (v_length w) ->
  vtree (v_root w) t -> lent t G ->
  looks (Nat.min (2 * (1 + walk (v_root w))) (length ds * (7 * levels bits (len l))))
    (hv_iter ubits dbg v ds) G (fun r => r = de_spec ds l).
Proof.
  intros v l G ds w t R L -> V Lt. pose proof limit_lt'.
  destruct (rep_height w l R L) as (h & Hh & U & Eh & _).
  pose proof (vi_runs2 ubits dbg bits Hu Hb Hbu _ l R ltac:(lia) ds) as E.
  rewrite <- Eh. eapply looks_le; [eapply (pruns2_looks (itrel G t w h) G (itpot w) (7 * S h) _ _ _ _ _ _
    (hvi_hint_is G t w h) (hvi_next_follows G t w h Lt V U Hh) (hvi_back_follows G t w h Lt V U Hh) ds _ _ _ (hvi_new_rel G t w h) E)|].
  unfold itpot. cbn [vi_new vi_fwd vi_bwd orest]. lia.
Qed.

Lemma hv_iter_ok : forall v l G ds, hvrep v l G ->
  safe 0 (hv_iter ubits dbg v ds) G (fun r G' => G' = G /\ r = de_spec ds l).
Proof.
  intros v l G ds (w & R & L & t & -> & Vt & ->). eapply looks_safe.
  apply (hv_iter_looks _ l [Tree t] ds w t R L eq_refl Vt). apply lent_in. now left.
Qed.

Lemma hv_new_ok : safe 1 (hv_new bits) [] (fun v G => hvrep v [] G).
Proof.
  unfold hv_new. destruct (N.ltb_spec 0 bits); [|lia]. exists 0, [], []. splits; [reflexivity|perm|reflexivity|].
  intros a. apply safe_ret. exists (mkV (VLeaf []) bits 0). splits.
  - apply (v_rep_new ubits dbg bits Hu Hb Hbu). unfold v_new_with_bits. destruct (N.ltb_spec 0 bits); [trivial|lia].
  - rewrite len_nil. lia.
  - exists (PT a (VL []) []). splits; trivial. constructor. apply (vc_leaf [] []). constructor.
Qed.

Lemma hv_clone_ok : forall v l G, hvrep v l G ->
  safe 0 (hv_clone v) G (fun v' G' => exists G1 G2, G' = G1 ++ G2 /\ hvrep v l G1 /\ hvrep v' l G2).
Proof.
  intros v l G (w & R & L & [a c ts] & -> & Vt & ->). unfold hv_clone. cbn [hv_root pa].
  exists c, ts. split; [apply lent_in; now left|]. apply safe_ret.
  exists [Tree (PT a c ts)], [Tree (PT a c ts)]. splits; trivial.
  all: exists w; splits; trivial; exists (PT a c ts); auto.
Qed.

Lemma hv_drop_ok : forall v l G, hvrep v l G -> safe 0 (hv_drop ubits dbg v) G (fun _ G' => G' = []).
Proof.
  intros v l G (w & R & L & t & -> & Vt & ->). unfold hv_drop. cbn [hv_root].
  destruct (rep_height w l R L) as (h & Hh & U & Eh & _).
  change (hv_height ubits dbg (mkHV (pa t) (v_bits w) (v_length w))) with (v_height ubits dbg w).
  rewrite Hh. cbn [lift pbind]. apply safe_drop. destruct Vt as [n a c ts Vc].
  pose proof (vcont_depth h n c ts a Vc U). rewrite lv_nat. lia.
Qed.

(** What one call may allocate. *)
Definition vec_cost (o : vec_op T) (l : list T) : nat :=
  match o with
  | VPush _ | VPushMut _ => levels bits (len l + 1) + 2
  | VExtend xs => length xs * (levels bits (len l + len xs) + 2)
  | VSet _ _ | VSetMut _ _ | VGetMut _ _ => levels bits (len l) + 1
  | VDrop | VDropMut => levels bits (len l)
  | _ => 0
  end.

Lemma persistently_ok : forall {X} (op : hvec -> prog C (hvec * X)) keep v l l' x G k,
  hvrep v l G -> (keep x = false -> l' = l) ->
  (forall n G, hvrep n l G -> safe k (op n) G (fun r G' => snd r = x /\ hvrep (fst r) l' G')) ->
  safe k (persistently ubits dbg op keep v) G (fun r G' => snd r = x /\ hvrep (fst r) l' G').
Proof.
  intros X op keep v l l' x G k R K S. unfold persistently.
  seq 0 k G (@nil own) ltac:(apply (hv_clone_ok v l G R)).
  intros n G' (G1 & G2 & -> & R1 & R2).
  seq k 0 G2 G1 ltac:(apply (S n G2 R2)).
  intros [n' x'] G' (E & R'). cbn [fst snd] in *. subst x'. destruct (keep x) eqn:Ek.
  - seq 0 0 G1 G' ltac:(apply (hv_drop_ok v l G1 R1)). intros [] G3 ->. now apply safe_ret.
  - seq 0 0 G' G1 ltac:(apply (hv_drop_ok n' l' G' R')). intros [] G3 ->. apply safe_ret. cbn [fst snd].
    split; trivial. now rewrite K.
Qed.

Theorem hv_step_ok : forall o v l G, hvrep v l G -> (len (fst (vec_spec o l)) <= limit)%N ->
  safe (vec_cost o l) (hv_step ubits dbg o v) G
    (fun r G' => snd r = snd (vec_spec o l) /\ hvrep (fst r) (fst (vec_spec o l)) G').
Proof.
  intros o v l G R L. destruct o; cbn [hv_step vec_cost vec_spec fst snd] in *.
  - rewrite len_app, len_cons, len_nil in L. set (k := levels bits (len l + 1) + 2).
    seq k 0 G (@nil own) ltac:(apply (persistently_ok _ _ v l (l ++ [v0]) tt G k R); [discriminate|]).
    + intros n G' R'. seq k 0 G' (@nil own) ltac:(apply (hv_push_ok n l G' v0 R'); lia).
      intros v' G2 R2. apply safe_ret. rewrite app_nil_r. auto.
    + intros [v' []] G' (_ & R'). apply safe_ret. rewrite app_nil_r. auto.
  - rewrite len_app, len_cons, len_nil in L.
    seq (levels bits (len l + 1) + 2) 0 G (@nil own) ltac:(apply (hv_push_ok v l G v0 R); lia).
    intros v' G2 R2. apply safe_ret. rewrite app_nil_r. auto.
  - rewrite len_app in L.
    seq (length l0 * (levels bits (len l + len l0) + 2)) 0 G (@nil own) ltac:(apply (hv_extend_ok l0 v l G R); lia).
    intros v' G2 R2. apply safe_ret. rewrite app_nil_r. auto.
  - seq (levels bits (len l)) 0 G (@nil own)
      ltac:(apply (persistently_ok _ _ v l (removelast l) (negb (is_nil l)) G _ R);
            [destruct l; [trivial|discriminate]|intros; now apply hv_drop_last_ok]).
    intros [v' b] G' (E & R'). cbn [fst snd] in *. subst b. apply safe_ret. rewrite app_nil_r. auto.
  - seq (levels bits (len l)) 0 G (@nil own) ltac:(apply (hv_drop_last_ok v l G R)).
    intros [v' b] G' (E & R'). cbn [fst snd] in *. subst b. apply safe_ret. rewrite app_nil_r. auto.
  - seq (levels bits (len l) + 1) 0 G (@nil own)
      ltac:(apply (persistently_ok _ _ v l (map_at_N (fun _ => v0) i l) (in_range i l) G _ R);
            [unfold map_at_N; now intros ->|intros; now apply hv_set_mut_ok]).
    intros [v' b] G' (E & R'). cbn [fst snd] in *. subst b. apply safe_ret. rewrite app_nil_r. auto.
  - seq (levels bits (len l) + 1) 0 G (@nil own) ltac:(apply (hv_set_mut_ok v l G i v0 R)).
    intros [v' b] G' (E & R'). cbn [fst snd] in *. subst b. apply safe_ret. rewrite app_nil_r. auto.
  - seq (levels bits (len l) + 1) 0 G (@nil own) ltac:(apply (hv_get_mut_ok v l G i f R)).
    intros [v' b] G' (E & R'). cbn [fst snd] in *. subst b. apply safe_ret. rewrite app_nil_r. auto.
  - seq 0 0 G (@nil own) ltac:(apply (hv_get_ok v l G i R)).
    intros r G' (-> & ->). apply safe_ret. rewrite app_nil_r. auto.
  - seq 0 0 G (@nil own) ltac:(apply (hv_first_ok v l G R)).
    intros r G' (-> & ->). apply safe_ret. rewrite app_nil_r. auto.
  - seq 0 0 G (@nil own) ltac:(apply (hv_last_ok v l G R)).
    intros r G' (-> & ->). apply safe_ret. rewrite app_nil_r. auto.
  - apply safe_ret. cbn [fst snd]. split; trivial. destruct R as (w & (_ & E & _) & _ & t & -> & _).
    cbn [hv_length]. rewrite E. unfold len. now rewrite Nat2N.id.
  - apply safe_ret. cbn [fst snd]. split; trivial. destruct R as (w & (_ & E & _) & _ & t & -> & _).
    cbn [hv_length]. rewrite E. destruct l; [reflexivity|]. rewrite len_cons.
    destruct (N.eqb_spec (len l + 1) 0); [lia|reflexivity].
  - seq 0 0 G (@nil own) ltac:(apply (hv_iter_ok v l G ds R)).
    intros r G' (-> & ->). apply safe_ret. rewrite app_nil_r. auto.
Qed.

End VP.
