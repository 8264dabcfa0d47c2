(** RedBlackTreeMap: refinement to finite maps, histories. *)
From Coq Require Import List NArith Arith Bool Lia Permutation Sorted.
From Verif Require Import Base Spec SpecMap SpecOrd Sim HashProofs HashHist RBModel RBProofs.
Import ListNotations.

Section Ord.
Context {A : Type}.
Variable cmp : A -> A -> comparison.
Hypothesis OL : ord_laws cmp.

Lemma cmp_refl : forall a, cmp a a = Eq.
Proof. intros a. pose proof (ol_sym _ OL a a). destruct (cmp a a); [reflexivity|discriminate|discriminate]. Qed.
Lemma cmp_gt : forall a b, cmp a b = Gt <-> cmp b a = Lt.
Proof. intros a b. rewrite (ol_sym _ OL a b). destruct (cmp b a); simpl; split; congruence. Qed.
Lemma cmp_eq_sym : forall a b, cmp a b = Eq <-> cmp b a = Eq.
Proof. intros a b. rewrite (ol_sym _ OL a b). destruct (cmp b a); simpl; split; congruence. Qed.
Lemma cmp_eq_r : forall a b c, cmp a b = Eq -> cmp c a = cmp c b.
Proof. intros a b c H. rewrite (ol_sym _ OL c a), (ol_sym _ OL c b). now rewrite (ol_eq _ OL a b c H). Qed.
Lemma cmp_trans_gt : forall a b c, cmp a b = Gt -> cmp b c = Gt -> cmp a c = Gt.
Proof. intros a b c H1 H2. rewrite cmp_gt in *. eapply (ol_trans _ OL); eassumption. Qed.
End Ord.

Lemma SS_app : forall A (R : A -> A -> Prop) l1 l2, StronglySorted R (l1 ++ l2) <->
  StronglySorted R l1 /\ StronglySorted R l2 /\ forall x y, In x l1 -> In y l2 -> R x y.
Proof.
  intros A R. induction l1 as [|a l1 IH]; intros l2; cbn [app].
  - split; [intros H; split; [constructor|split; [exact H|intros x y []]]|tauto].
  - split.
    + intros H. inversion H as [|? ? H1 H2]; subst. apply IH in H1 as (S1 & S2 & S3). rewrite Forall_forall in H2.
      split; [constructor; [assumption|]|split; [assumption|]].
      * apply Forall_forall. intros x Hx. apply H2, in_app_iff. now left.
      * intros x y [<-|Hx] Hy; [apply H2, in_app_iff; now right|auto].
    + intros (H1 & H2 & H3). inversion H1 as [|? ? H4 H5]; subst. constructor.
      * apply IH. split; [assumption|]. split; [assumption|]. intros x y Hx Hy. apply H3; [now right|assumption].
      * rewrite Forall_forall in *. intros x Hx. apply in_app_iff in Hx as [Hx|Hx]; [auto|]. apply H3; [now left|assumption].
Qed.

Lemma SS_filter : forall A (R : A -> A -> Prop) p l, StronglySorted R l -> StronglySorted R (filter p l).
Proof.
  intros A R p. induction l as [|a l IH]; intros H; simpl; [assumption|]. inversion H as [|? ? H1 H2]; subst.
  destruct (p a); [constructor|]; auto. rewrite Forall_forall in *. intros x Hx. apply filter_In in Hx as [Hx _]. auto.
Qed.

Lemma filter_all : forall A (p : A -> bool) l, (forall x, In x l -> p x = true) -> filter p l = l.
Proof.
  intros A p. induction l as [|a l IH]; intros H; simpl; [reflexivity|].
  rewrite (H a (or_introl eq_refl)). f_equal. apply IH. intros x Hx. apply H. now right.
Qed.
Lemma filter_none : forall A (p : A -> bool) l, (forall x, In x l -> p x = false) -> filter p l = [].
Proof. intros A p l H. apply nomatch_filter0. exact H. Qed.

Lemma rbt_kids : forall K V h (e : K * V) c l r, rbt h (Tree e c l r) -> exists h', rbt h' l /\ rbt h' r /\
  (c = Red -> h = h' /\ notred l /\ notred r) /\ (c = Black -> h = S h').
Proof. intros K V h e c l r H. inversion H; subst; eexists; (split; [eassumption|]); (split; [eassumption|]); split; intros E; try discriminate; auto. Qed.

Lemma notred_color : forall K V (t t' : tree K V), tcolor t' = tcolor t -> notred t -> notred t'.
Proof. intros K V [|? [|] ? ?] [|? [|] ? ?] H; cbn in *; try discriminate; auto. Qed.

Section RB.
Context {K V Q : Type}.
Variable dbg : bool.
Variable kcmp : K -> K -> comparison.
Variable borrow : K -> Q.
Variable qcmp : Q -> Q -> comparison.
Hypothesis OL : ord_laws qcmp.
Hypothesis KB : forall a b, kcmp a b = qcmp (borrow a) (borrow b).
Set Default Proof Using "OL KB".

Notation tree := (tree K V).
Notation entry := (prod K V).
Notation eqq := (eq_of qcmp).
Notation eqk := (eq_of kcmp).

Lemma ord_k : ord_laws kcmp.
Proof.
  constructor; intros a b; rewrite ?KB.
  - apply (ol_sym _ OL).
  - intros c. rewrite !KB. apply (ol_trans _ OL).
  - intros c. rewrite !KB. apply (ol_eq _ OL).
Qed.

Lemma kl_of : key_laws eqk borrow eqq.
Proof.
  constructor; unfold eq_of.
  - intros a. now rewrite (cmp_refl _ OL).
  - intros a b. rewrite (ol_sym _ OL a b). destruct (qcmp b a); simpl; congruence.
  - intros a b c H1 H2. destruct (qcmp a b) eqn:E1; try discriminate. now rewrite (ol_eq _ OL a b c E1).
  - intros a b. now rewrite KB.
Qed.

Definition q_of (q : Q) (x : entry) : comparison := qcmp (borrow (fst x)) q.
Definition m_of (q : Q) (x : entry) : bool := eqq (borrow (fst x)) q.

Lemma sorted_node : forall l (e : entry) r, sorted kcmp (l ++ e :: r) ->
  sorted kcmp l /\ sorted kcmp r /\ (forall x, In x l -> kcmp (fst x) (fst e) = Lt) /\
  (forall x, In x r -> kcmp (fst e) (fst x) = Lt) /\ (forall x y, In x l -> In y r -> kcmp (fst x) (fst y) = Lt).
Proof using.
  intros l e r H. apply SS_app in H as (H1 & H2 & H3). inversion H2 as [|? ? H4 H5]; subst. rewrite Forall_forall in H5.
  repeat split; auto; [intros x Hx; apply H3; [assumption|now left]|intros x y Hx Hy; apply H3; [assumption|now right]].
Qed.

Lemma side_lt : forall q l (e : entry) r, sorted kcmp (l ++ e :: r) -> qcmp q (borrow (fst e)) = Lt ->
  forall x, In x (e :: r) -> q_of q x = Gt.
Proof.
  intros q l e r Hs Hq x Hx. apply sorted_node in Hs as (_ & _ & _ & Hr & _). unfold q_of. apply (cmp_gt _ OL).
  destruct Hx as [<-|Hx]; [assumption|]. apply Hr in Hx. rewrite KB in Hx. eapply (ol_trans _ OL); eassumption.
Qed.
Lemma side_gt : forall q l (e : entry) r, sorted kcmp (l ++ e :: r) -> qcmp q (borrow (fst e)) = Gt ->
  forall x, In x (l ++ [e]) -> q_of q x = Lt.
Proof.
  intros q l e r Hs Hq x Hx. apply sorted_node in Hs as (_ & _ & Hl & _). unfold q_of. apply (cmp_gt _ OL) in Hq.
  apply in_app_iff in Hx as [Hx|[<-|[]]]; [|assumption]. apply Hl in Hx. rewrite KB in Hx. eapply (ol_trans _ OL); eassumption.
Qed.
Lemma side_eq : forall q l (e : entry) r, sorted kcmp (l ++ e :: r) -> qcmp q (borrow (fst e)) = Eq ->
  (forall x, In x l -> q_of q x = Lt) /\ q_of q e = Eq /\ (forall x, In x r -> q_of q x = Gt).
Proof.
  intros q l e r Hs Hq. apply sorted_node in Hs as (_ & _ & Hl & Hr & _). unfold q_of.
  apply (cmp_eq_sym _ OL) in Hq. split; [|split; [assumption|]].
  - intros x Hx. rewrite <- (cmp_eq_r _ OL _ _ (borrow (fst x)) Hq). rewrite <- KB. auto.
  - intros x Hx. rewrite <- (cmp_eq_r _ OL _ _ (borrow (fst x)) Hq). apply (cmp_gt _ OL). rewrite <- KB. auto.
Qed.

Lemma m_q : forall q x c, q_of q x = c -> m_of q x = match c with Eq => true | _ => false end.
Proof using. intros q x c H. unfold m_of, eq_of. unfold q_of in H. now rewrite H. Qed.

Lemma nomatch_c : forall q l c, c <> Eq -> (forall x, In x l -> q_of q x = c) -> nomatch (m_of q) l.
Proof using. intros q l c Hc H x Hx. rewrite (m_q q x c (H x Hx)). now destruct c. Qed.

(** ** Lookup *)
Lemma t_get_ok : forall q t, sorted kcmp (elems t) -> t_get borrow qcmp t q = find (m_of q) (elems t).
Proof.
  intros q. induction t as [|e c l IHl r IHr]; intros Hs; [reflexivity|]. cbn [t_get elems] in *.
  pose proof (sorted_node _ _ _ Hs) as (Hsl & Hsr & _).
  destruct (qcmp q (borrow (fst e))) eqn:E.
  - destruct (side_eq q _ _ _ Hs E) as (H1 & H2 & H3).
    rewrite find_app, (nomatch_find _ (elems l)) by (eapply nomatch_c; [|exact H1]; discriminate).
    cbn [find]. now rewrite (m_q _ _ _ H2).
  - pose proof (side_lt q _ _ _ Hs E) as H. rewrite find_app.
    rewrite (nomatch_find _ (e :: elems r)) by (eapply nomatch_c; [|exact H]; discriminate).
    rewrite (IHl Hsl). now destruct (find (m_of q) (elems l)).
  - pose proof (side_gt q _ _ _ Hs E) as H. change (e :: elems r) with ([e] ++ elems r). rewrite app_assoc, find_app.
    rewrite (nomatch_find _ (elems l ++ [e])) by (eapply nomatch_c; [|exact H]; discriminate). auto.
Qed.

Lemma t_first_ok : forall t : tree, t_first t = hd_error (elems t).
Proof using.
  induction t as [|e c l IHl r IHr]; [reflexivity|]. cbn [t_first elems]. destruct l as [|e' c' l' r']; [reflexivity|].
  rewrite IHl. cbn [elems]. destruct (elems l'); reflexivity.
Qed.
Lemma t_last_ok : forall t : tree, t_last t = last_error (elems t).
Proof using.
  induction t as [|e c l IHl r IHr]; [reflexivity|]. cbn [t_last elems]. destruct r as [|e' c' l' r'].
  - cbn [elems]. now rewrite last_error_app.
  - rewrite IHr. cbn [elems]. set (x := elems l' ++ e' :: elems r'). assert (Hx : x <> []) by (unfold x; destruct (elems l'); discriminate).
    clearbody x. destruct x as [|a x] using rev_ind; [contradiction|]. rewrite app_comm_cons, app_assoc, !last_error_app. reflexivity.
Qed.

(** ** Insertion *)
Definition lts (q : Q) (x : entry) : bool := match q_of q x with Lt => true | _ => false end.
Definition gts (q : Q) (x : entry) : bool := match q_of q x with Gt => true | _ => false end.
Definition ins_list (k : K) (v : V) (l : list entry) : list entry :=
  filter (lts (borrow k)) l ++ (k, v) :: filter (gts (borrow k)) l.

Lemma filter_lts_gt : forall q l, (forall x, In x l -> q_of q x = Gt) -> filter (lts q) l = [] /\ filter (gts q) l = l.
Proof using.
  intros q l H. split; [apply filter_none|apply filter_all]; intros x Hx; unfold lts, gts; now rewrite (H x Hx).
Qed.
Lemma filter_lts_lt : forall q l, (forall x, In x l -> q_of q x = Lt) -> filter (lts q) l = l /\ filter (gts q) l = [].
Proof using.
  intros q l H. split; [apply filter_all|apply filter_none]; intros x Hx; unfold lts, gts; now rewrite (H x Hx).
Qed.

Lemma ins_ok : forall k v t h, sorted kcmp (elems t) -> rbt h t ->
  exists t' new, ins kcmp t k v false = Ok (t', new) /\ elems t' = ins_list k v (elems t) /\
    new = negb (is_some (find (m_of (borrow k)) (elems t))) /\
    arbt h t' /\ (notred t -> rbt h t') /\ (new = false -> rbt h t' /\ tcolor t' = tcolor t).
Proof.
  intros k v. induction t as [|e c l IHl r IHr]; intros h Hs Hr.
  - exists (Tree (k, v) Red Leaf Leaf), true. apply rbt_leaf_inv in Hr. subst h.
    assert (rbt 0 (Tree (k, v) Red Leaf Leaf)) by (repeat constructor).
    repeat split; auto; try discriminate. now left.
  - cbn [ins elems] in *. pose proof (sorted_node _ _ _ Hs) as (Hsl & Hsr & _). rewrite KB.
    destruct (qcmp (borrow k) (borrow (fst e))) eqn:E.
    + destruct (side_eq _ _ _ _ Hs E) as (H1 & H2 & H3).
      exists (Tree (k, v) c l r), false. split; [reflexivity|]. split; [|split; [|split; [|split]]].
      * unfold ins_list. rewrite !filter_app. cbn [filter].
        destruct (filter_lts_lt _ _ H1) as [-> ->]. destruct (filter_lts_gt _ _ H3) as [-> ->].
        unfold lts, gts. rewrite H2. now rewrite app_nil_r.
      * rewrite find_app, (nomatch_find _ (elems l)) by (eapply nomatch_c; [|exact H1]; discriminate).
        cbn [find]. now rewrite (m_q _ _ _ H2).
      * left. inversion Hr; subst; constructor; auto.
      * intros _. inversion Hr; subst; constructor; auto.
      * intros _. split; [inversion Hr; subst; constructor; auto|reflexivity].
    + pose proof (side_lt _ _ _ _ Hs E) as H.
      assert (Hlist : ins_list k v (elems l ++ e :: elems r) = ins_list k v (elems l) ++ e :: elems r).
      { unfold ins_list. rewrite !filter_app. destruct (filter_lts_gt _ _ H) as [-> ->].
        now rewrite app_nil_r, <- app_assoc. }
      assert (Hfind : find (m_of (borrow k)) (elems l ++ e :: elems r) = find (m_of (borrow k)) (elems l)).
      { rewrite find_app, (nomatch_find _ (e :: elems r)) by (eapply nomatch_c; [|exact H]; discriminate).
        now destruct (find _ (elems l)). }
      rewrite Hlist, Hfind.
      destruct (rbt_kids _ _ _ _ _ _ _ Hr) as (h' & Rl & Rr & HR & HB).
      destruct (IHl h' Hsl Rl) as (l' & new & -> & El & En & Ha & Hn & Hf). cbn [bind].
      destruct new; cbn [bind].
      * destruct c.
        -- destruct (HR eq_refl) as (-> & N1 & N2).
           exists (Tree e Red l' r), true. split; [reflexivity|]. cbn [elems]. rewrite El. split; [reflexivity|].
           split; [exact En|]. split; [right; auto|]. split; [intros []|discriminate].
        -- rewrite (HB eq_refl).
           destruct (balance_ok h' e l' r) as (n' & Eb & Ee & Rb); [now left|].
           change (set_left (mkNode e Black l r) l') with (mkNode e Black l' r). rewrite Eb. cbn [bind].
           exists (some n'), true. split; [reflexivity|]. rewrite Ee, El. split; [reflexivity|].
           split; [exact En|]. split; [now left|]. split; [auto|discriminate].
      * destruct (Hf eq_refl) as (Hr' & Hc).
        assert (R : rbt h (Tree e c l' r)).
        { destruct c.
          - destruct (HR eq_refl) as (-> & N1 & N2). constructor; auto. eapply notred_color; eassumption.
          - rewrite (HB eq_refl). constructor; auto. }
        exists (Tree e c l' r), false. split; [reflexivity|]. cbn [elems]. rewrite El. split; [reflexivity|].
        split; [exact En|]. split; [now left|]. split; auto.
    + pose proof (side_gt _ _ _ _ Hs E) as H.
      assert (Hlist : ins_list k v (elems l ++ e :: elems r) = elems l ++ e :: ins_list k v (elems r)).
      { unfold ins_list. change (e :: elems r) with ([e] ++ elems r). rewrite app_assoc, !filter_app, <- !filter_app.
        rewrite filter_app. destruct (filter_lts_lt _ _ H) as [-> Hg]. rewrite (filter_app _ (elems l ++ [e])), Hg.
        now rewrite <- !app_assoc. }
      assert (Hfind : find (m_of (borrow k)) (elems l ++ e :: elems r) = find (m_of (borrow k)) (elems r)).
      { change (e :: elems r) with ([e] ++ elems r). rewrite app_assoc, find_app.
        now rewrite (nomatch_find _ (elems l ++ [e])) by (eapply nomatch_c; [|exact H]; discriminate). }
      rewrite Hlist, Hfind.
      destruct (rbt_kids _ _ _ _ _ _ _ Hr) as (h' & Rl & Rr & HR & HB).
      destruct (IHr h' Hsr Rr) as (r' & new & -> & El & En & Ha & Hn & Hf). cbn [bind].
      destruct new; cbn [bind].
      * destruct c.
        -- destruct (HR eq_refl) as (-> & N1 & N2).
           exists (Tree e Red l r'), true. split; [reflexivity|]. cbn [elems]. rewrite El. split; [reflexivity|].
           split; [exact En|]. split; [right; auto|]. split; [intros []|discriminate].
        -- rewrite (HB eq_refl).
           destruct (balance_ok h' e l r') as (n' & Eb & Ee & Rb); [now right|].
           change (set_right (mkNode e Black l r) r') with (mkNode e Black l r'). rewrite Eb. cbn [bind].
           exists (some n'), true. split; [reflexivity|]. rewrite Ee, El. split; [reflexivity|].
           split; [exact En|]. split; [now left|]. split; [auto|discriminate].
      * destruct (Hf eq_refl) as (Hr' & Hc).
        assert (R : rbt h (Tree e c l r')).
        { destruct c.
          - destruct (HR eq_refl) as (-> & N1 & N2). constructor; auto. eapply notred_color; eassumption.
          - rewrite (HB eq_refl). constructor; auto. }
        exists (Tree e c l r'), false. split; [reflexivity|]. cbn [elems]. rewrite El. split; [reflexivity|].
        split; [exact En|]. split; [now left|]. split; auto.
Qed.

Definition blacken (t : tree) : tree := match t with Leaf => Leaf | Tree e _ l r => Tree e Black l r end.

Lemma ins_root : forall k v t, ins kcmp t k v true = let! (t', new) := ins kcmp t k v false in Ok (blacken t', new).
Proof using.
  intros k v [|e c l r]; [reflexivity|]. cbn [ins].
  match goal with |- bind ?x _ = _ => destruct x as [[n b]| |]; reflexivity end.
Qed.
Lemma blacken_elems : forall t : tree, elems (blacken t) = elems t.
Proof using. intros []; reflexivity. Qed.
Lemma blacken_notred : forall t : tree, notred (blacken t).
Proof using. intros [|? ? ? ?]; exact I. Qed.
Lemma blacken_rbt : forall h (t : tree), arbt h t -> exists h', rbt h' (blacken t).
Proof using.
  intros h [|e [|] l r] H; cbn [blacken].
  - exists 0. constructor.
  - apply arbt_red in H as [H1 H2]. exists (S h). now constructor.
  - exists h. destruct H as [H|[]]. exact H.
Qed.

(** ** Removal *)
Lemma del_ok : forall q t h, sorted kcmp (elems t) -> rbt h t ->
  exists t', del dbg borrow qcmp t q false = Ok (t', is_some (find (m_of q) (elems t))) /\
    elems t' = filter (fun x => negb (m_of q x)) (elems t) /\
    (tcolor t = Some Black -> exists h', h = S h' /\ arbt h' t') /\ (tcolor t <> Some Black -> rbt h t').
Proof.
  intros q. induction t as [|e c l IHl r IHr]; intros h Hs Hr.
  - exists Leaf. repeat split; auto; discriminate.
  - cbn [del elems] in *. pose proof (sorted_node _ _ _ Hs) as (Hsl & Hsr & _).
    destruct (rbt_kids _ _ _ _ _ _ _ Hr) as (h' & Rl & Rr & HR & HB).
    destruct (qcmp q (borrow (fst e))) eqn:E.
    + destruct (side_eq _ _ _ _ Hs E) as (H1 & H2 & H3).
      cbn [n_left n_right].
      destruct (remove_fuse_ok dbg (set_right (set_left (mkNode e c l r) Leaf) Leaf) l r h' Rl Rr) as ((n & f) & -> & Ee & Ha & Hb).
      cbn [bind]. exists (fused_tree (n, f)).
      rewrite find_app, (nomatch_find _ (elems l)) by (eapply nomatch_c; [|exact H1]; discriminate).
      cbn [find]. rewrite (m_q _ _ _ H2). cbn [is_some]. split; [destruct f; reflexivity|]. split.
      { rewrite Ee, filter_app. cbn [filter]. rewrite (m_q _ _ _ H2). cbn [negb].
        rewrite (nomatch_filter _ (elems l)) by (eapply nomatch_c; [|exact H1]; discriminate).
        rewrite (nomatch_filter _ (elems r)) by (eapply nomatch_c; [|exact H3]; discriminate). reflexivity. }
      split; intros Hc.
      * cbn in Hc. injection Hc as ->. exists h'. auto.
      * destruct c; [|now contradiction Hc]. destruct (HR eq_refl) as (-> & N1 & N2). auto.
    + pose proof (side_lt _ _ _ _ Hs E) as H. cbn [left_color n_left].
      destruct (IHl h' Hsl Rl) as (l' & -> & El & HB' & HR'). cbn [bind]. pose proof El as El0.
      rewrite find_app, (nomatch_find _ (e :: elems r)) by (eapply nomatch_c; [|exact H]; discriminate).
      rewrite filter_app, (nomatch_filter _ (e :: elems r)) by (eapply nomatch_c; [|exact H]; discriminate).
      replace (is_some match find (m_of q) (elems l) with Some x => Some x | None => None end)
        with (is_some (find (m_of q) (elems l))) by (now destruct (find (m_of q) (elems l))).
      rewrite <- El. clear El IHl.
      change (set_color (set_left (mkNode e c l r) l') Red) with (mkNode e Red l' r).
      unfold left_color. cbn [n_left].
      destruct (tcolor l) as [[|]|] eqn:Cl.
      * cbn [bind]. exists (Tree e Red l' r). split; [reflexivity|]. split; [reflexivity|]. specialize (HR' ltac:(discriminate)).
        split; intros Hc.
        -- injection Hc as ->. exists h'. split; [now apply HB|]. right; auto.
        -- destruct c; [|now contradiction Hc]. destruct (HR eq_refl) as (-> & N1 & N2).
           destruct l as [|? [|] ? ?]; try discriminate; contradiction.
      * destruct (HB' eq_refl) as (h2 & -> & Ha). 
        destruct (remove_balance_left_ok dbg h2 e Red l' r Ha Rr) as (n' & -> & Ee & An & Rn). cbn [bind].
        exists (some n'). split; [reflexivity|]. split; [exact Ee|]. split; intros Hc.
        -- injection Hc as ->. exists (S h2). split; [now apply HB|exact An].
        -- destruct c; [|now contradiction Hc]. destruct (HR eq_refl) as (-> & N1 & N2). auto.
      * cbn [bind]. exists (Tree e Red l' r). split; [reflexivity|]. split; [reflexivity|]. specialize (HR' ltac:(discriminate)).
        split; intros Hc.
        -- injection Hc as ->. exists h'. split; [now apply HB|]. right; auto.
        -- destruct c; [|now contradiction Hc]. destruct (HR eq_refl) as (-> & N1 & N2).
           destruct l as [|? ? ? ?]; [|discriminate]. apply rbt_leaf_inv in Rl. subst h'.
           rewrite (elems_nil _ El0). repeat constructor; auto.
    + pose proof (side_gt _ _ _ _ Hs E) as H. cbn [right_color n_right].
      destruct (IHr h' Hsr Rr) as (r' & -> & El & HB' & HR'). cbn [bind]. pose proof El as El0.
      change (e :: elems r) with ([e] ++ elems r). rewrite app_assoc.
      rewrite find_app, (nomatch_find _ (elems l ++ [e])) by (eapply nomatch_c; [|exact H]; discriminate).
      rewrite filter_app, (nomatch_filter _ (elems l ++ [e])) by (eapply nomatch_c; [|exact H]; discriminate).
      rewrite <- El, <- app_assoc. cbn [app]. clear El IHr.
      change (set_color (set_right (mkNode e c l r) r') Red) with (mkNode e Red l r').
      unfold right_color. cbn [n_right].
      destruct (tcolor r) as [[|]|] eqn:Cl.
      * cbn [bind]. exists (Tree e Red l r'). split; [reflexivity|]. split; [reflexivity|]. specialize (HR' ltac:(discriminate)).
        split; intros Hc.
        -- injection Hc as ->. exists h'. split; [now apply HB|]. right; auto.
        -- destruct c; [|now contradiction Hc]. destruct (HR eq_refl) as (-> & N1 & N2).
           destruct r as [|? [|] ? ?]; try discriminate; contradiction.
      * destruct (HB' eq_refl) as (h2 & -> & Ha).
        destruct (remove_balance_right_ok dbg h2 e Red l r' Rl Ha) as (n' & -> & Ee & An & Rn). cbn [bind].
        exists (some n'). split; [reflexivity|]. split; [exact Ee|]. split; intros Hc.
        -- injection Hc as ->. exists (S h2). split; [now apply HB|exact An].
        -- destruct c; [|now contradiction Hc]. destruct (HR eq_refl) as (-> & N1 & N2). auto.
      * cbn [bind]. exists (Tree e Red l r'). split; [reflexivity|]. split; [reflexivity|]. specialize (HR' ltac:(discriminate)).
        split; intros Hc.
        -- injection Hc as ->. exists h'. split; [now apply HB|]. right; auto.
        -- destruct c; [|now contradiction Hc]. destruct (HR eq_refl) as (-> & N1 & N2).
           destruct r as [|? ? ? ?]; [|discriminate]. apply rbt_leaf_inv in Rr. subst h'.
           rewrite (elems_nil _ El0). repeat constructor; auto.
Qed.

Lemma del_root : forall q t, del dbg borrow qcmp t q true = let! (t', b) := del dbg borrow qcmp t q false in Ok (blacken t', b).
Proof using.
  intros q [|e c l r]; [reflexivity|]. cbn [del].
  match goal with |- bind ?x _ = _ => destruct x as [[[n b] m]| |]; [destruct m; reflexivity|reflexivity|reflexivity] end.
Qed.

(** ** get_mut *)
Lemma t_get_mut_ok : forall q f t, sorted kcmp (elems t) ->
  exists t', t_get_mut borrow qcmp t q f = (t', option_map snd (find (m_of q) (elems t))) /\
    elems t' = map (fun x => if m_of q x then (fst x, f (snd x)) else x) (elems t) /\
    tcolor t' = tcolor t /\ forall h, rbt h t -> rbt h t'.
Proof.
  intros q f. induction t as [|e c l IHl r IHr]; intros Hs.
  - exists Leaf. repeat split; auto.
  - cbn [t_get_mut elems] in *. pose proof (sorted_node _ _ _ Hs) as (Hsl & Hsr & _).
    destruct (qcmp q (borrow (fst e))) eqn:E.
    + destruct (side_eq _ _ _ _ Hs E) as (H1 & H2 & H3).
      rewrite find_app, (nomatch_find _ (elems l)) by (eapply nomatch_c; [|exact H1]; discriminate).
      cbn [find]. rewrite (m_q _ _ _ H2). eexists. split; [reflexivity|]. split; [|split; [reflexivity|]].
      * cbn [elems]. rewrite map_app. cbn [map]. rewrite (m_q _ _ _ H2).
        rewrite (nomatch_map _ (fun x => (fst x, f (snd x))) (elems l)) by (eapply nomatch_c; [|exact H1]; discriminate).
        rewrite (nomatch_map _ (fun x => (fst x, f (snd x))) (elems r)) by (eapply nomatch_c; [|exact H3]; discriminate). reflexivity.
      * intros h Hr. inversion Hr; subst; constructor; auto.
    + pose proof (side_lt _ _ _ _ Hs E) as H.
      rewrite find_app, (nomatch_find _ (e :: elems r)) by (eapply nomatch_c; [|exact H]; discriminate).
      rewrite map_app, (nomatch_map _ (fun x => (fst x, f (snd x))) (e :: elems r)) by (eapply nomatch_c; [|exact H]; discriminate).
      destruct (IHl Hsl) as (l' & -> & El & Ec & Hr'). exists (Tree e c l' r).
      split; [now destruct (find (m_of q) (elems l))|]. cbn [elems]. rewrite El. split; [reflexivity|]. split; [reflexivity|].
      intros h Hr. inversion Hr; subst; constructor; auto. eapply notred_color; eassumption.
    + pose proof (side_gt _ _ _ _ Hs E) as H.
      change (e :: elems r) with ([e] ++ elems r). rewrite app_assoc.
      rewrite find_app, (nomatch_find _ (elems l ++ [e])) by (eapply nomatch_c; [|exact H]; discriminate).
      rewrite map_app, (nomatch_map _ (fun x => (fst x, f (snd x))) (elems l ++ [e])) by (eapply nomatch_c; [|exact H]; discriminate).
      destruct (IHr Hsr) as (r' & -> & El & Ec & Hr'). exists (Tree e c l r').
      split; [reflexivity|]. cbn [elems]. rewrite El, <- app_assoc. split; [reflexivity|]. split; [reflexivity|].
      intros h Hr. inversion Hr; subst; constructor; auto. eapply notred_color; eassumption.
Qed.

(** ** Sorted lists as finite maps *)
Lemma sorted_unique : forall l : list entry, sorted kcmp l -> unique_keys eqk l.
Proof using.
  induction l as [|a l IH]; intros H; [constructor|]. inversion H as [|? ? H1 H2]; subst. constructor; [|now apply IH].
  rewrite Forall_forall in *. intros x Hx. unfold eq_of. now rewrite (H2 x Hx).
Qed.

Lemma sorted_filter : forall p (l : list entry), sorted kcmp l -> sorted kcmp (filter p l).
Proof using. intros. now apply SS_filter. Qed.

Lemma sorted_ins : forall k v l, sorted kcmp l -> sorted kcmp (ins_list k v l).
Proof.
  intros k v l H. unfold ins_list. apply SS_app. split; [now apply sorted_filter|]. split.
  - constructor; [now apply sorted_filter|]. apply Forall_forall. intros x Hx. apply filter_In in Hx as [_ Hx].
    unfold gts, q_of in Hx. cbn [fst]. rewrite KB. apply (cmp_gt _ OL).
    destruct (qcmp (borrow (fst x)) (borrow k)) eqn:E; congruence.
  - assert (HL : forall x, In x (filter (lts (borrow k)) l) -> qcmp (borrow (fst x)) (borrow k) = Lt).
    { intros x Hx. apply filter_In in Hx as [_ Hx]. unfold lts, q_of in Hx.
      destruct (qcmp (borrow (fst x)) (borrow k)); congruence. }
    intros x y Hx Hy. apply HL in Hx. rewrite KB. destruct Hy as [<-|Hy]; [exact Hx|].
    apply filter_In in Hy as [_ Hy]. unfold gts, q_of in Hy.
    destruct (qcmp (borrow (fst y)) (borrow k)) eqn:E; try discriminate.
    apply (cmp_gt _ OL) in E. eapply (ol_trans _ OL); eassumption.
Qed.

Lemma perm_ins : forall k v l fm, Permutation l fm -> Permutation (ins_list k v l) (fm_insert eqk k v fm).
Proof.
  intros k v l fm H. unfold ins_list, fm_insert. rewrite <- Permutation_middle. constructor.
  rewrite <- (Permutation_filter _ _ _ _ H). clear H fm. induction l as [|a l IH]; [constructor|]. cbn [filter].
  unfold lts at 1, gts at 1, q_of, eq_of at 1. rewrite <- KB.
  destruct (kcmp (fst a) k); cbn [negb]; [exact IH|cbn [app]; now constructor|].
  rewrite <- Permutation_middle. now constructor.
Qed.

Lemma sorted_map_val : forall (g : entry -> entry) (l : list entry), (forall x, fst (g x) = fst x) -> sorted kcmp l -> sorted kcmp (map g l).
Proof using.
  intros g l Hg. induction l as [|a l IH]; intros H; [constructor|]. inversion H as [|? ? H1 H2]; subst. cbn [map].
  constructor; [now apply IH|]. rewrite Forall_forall in *. intros x Hx. apply in_map_iff in Hx as (y & <- & Hy).
  rewrite !Hg. auto.
Qed.

(** ** The map *)
Definition rb_rep (m : rbmap K V) (fm : fmap K V) : Prop :=
  sorted kcmp (elems (rb_root m)) /\ Permutation (elems (rb_root m)) fm /\ rb_size m = length fm /\
  (exists h, rbt h (rb_root m)) /\ notred (rb_root m).

Lemma rep_find : forall m fm q, rb_rep m fm -> find (m_of q) (elems (rb_root m)) = fm_find borrow eqq q fm.
Proof.
  intros m fm q (Hs & Hp & _). unfold fm_find. apply find_perm; [assumption|].
  exact (unique_uniq eqk borrow eqq kl_of _ q (sorted_unique _ Hs)).
Qed.

Lemma rep_unique : forall m fm, rb_rep m fm -> unique_keys eqk fm.
Proof. intros m fm (Hs & Hp & _). eapply unique_perm; [exact kl_of|exact Hp|now apply sorted_unique]. Qed.

Lemma rb_get_ok : forall m fm q, rb_rep m fm -> t_get borrow qcmp (rb_root m) q = fm_find borrow eqq q fm.
Proof. intros m fm q H. rewrite <- (rep_find m fm q H). apply t_get_ok. apply H. Qed.

Lemma rb_insert_ok : forall m fm k v, rb_rep m fm ->
  exists m', rb_insert_mut kcmp m k v = Ok m' /\ rb_rep m' (fm_insert eqk k v fm).
Proof.
  intros m fm k v H. pose proof H as (Hs & Hp & Hz & (h & Hr) & Hn).
  destruct (ins_ok k v (rb_root m) h Hs Hr) as (t' & new & E & El & En & Ha & _).
  unfold rb_insert_mut, n_insert. rewrite ins_root, E. cbn [bind].
  eexists. split; [reflexivity|]. unfold rb_rep. cbn [rb_root rb_size]. rewrite blacken_elems, El.
  split; [now apply sorted_ins|]. split; [now apply perm_ins|]. split.
  - rewrite En, (rep_find m fm _ H). unfold fm_insert. cbn [length].
    rewrite (filter_len_uniq (fun x => eqk (fst x) k)) by (exact (unique_uniq_key eqk borrow eqq kl_of fm k (rep_unique _ _ H))).
    assert (Ef : find (fun x => eqk (fst x) k) fm = fm_find borrow eqq (borrow k) fm).
    { unfold fm_find. apply find_ext_in. intros x _. apply (kl_borrow _ _ _ kl_of). }
    rewrite Ef, Hz. destruct (fm_find borrow eqq (borrow k) fm) eqn:F; cbn [is_some negb]; [|lia].
    unfold fm_find in F. destruct fm; [discriminate|]. cbn [length]. lia.
  - split; [eapply blacken_rbt; exact Ha|apply blacken_notred].
Qed.

Lemma rb_remove_ok : forall m fm q, rb_rep m fm ->
  exists m', rb_remove_mut dbg borrow qcmp m q = Ok (m', is_some (fm_find borrow eqq q fm)) /\ rb_rep m' (fm_remove borrow eqq q fm).
Proof.
  intros m fm q H. pose proof H as (Hs & Hp & Hz & (h & Hr) & Hn).
  destruct (del_ok q (rb_root m) h Hs Hr) as (t' & E & El & HB & HR).
  unfold rb_remove_mut, n_remove. rewrite del_root, E. cbn [bind]. rewrite (rep_find m fm q H).
  assert (Ha : exists h', arbt h' t').
  { destruct (rb_root m) as [|e [|] l r]; [exists h; left; apply HR; discriminate|destruct Hn|].
    destruct (HB eq_refl) as (h' & _ & Ha). eauto. }
  destruct Ha as (h' & Ha).
  assert (Hlen : length (fm_remove borrow eqq q fm) = length fm - (if is_some (fm_find borrow eqq q fm) then 1 else 0)).
  { exact (filter_len_uniq (fun x => eqq (borrow (fst x)) q) fm (unique_uniq eqk borrow eqq kl_of fm q (rep_unique _ _ H))). }
  assert (Rep : forall n, n = length (fm_remove borrow eqq q fm) -> rb_rep (mkRB (blacken t') n) (fm_remove borrow eqq q fm)).
  { intros n Hx. unfold rb_rep. cbn [rb_root rb_size]. rewrite blacken_elems, El.
    split; [now apply sorted_filter|]. split; [now apply Permutation_filter|]. split; [exact Hx|].
    split; [eapply blacken_rbt; exact Ha|apply blacken_notred]. }
  destruct (is_some (fm_find borrow eqq q fm)) eqn:Ei.
  - assert (1 <= length fm) by (unfold fm_find in Ei; destruct fm; [discriminate|cbn; lia]).
    rewrite Hz, csub_ok by assumption. cbn [bind]. eexists. split; [reflexivity|]. apply Rep. now rewrite Hlen.
  - cbn [bind]. eexists. split; [reflexivity|]. apply Rep. rewrite Hlen, Hz. lia.
Qed.

Lemma remove_absent : forall (fm : fmap K V) q, is_some (fm_find borrow eqq q fm) = false -> fm_remove borrow eqq q fm = fm.
Proof using.
  intros fm q H. apply (nomatch_filter (fun x => eqq (borrow (fst x)) q)). apply find_none. unfold fm_find in H.
  destruct (find _ fm); [discriminate|reflexivity].
Qed.

Lemma rb_get_mut_ok : forall m fm q f, rb_rep m fm ->
  exists m', rb_get_mut borrow qcmp m q f = (m', option_map snd (fm_find borrow eqq q fm)) /\ rb_rep m' (fm_modify borrow eqq q f fm).
Proof.
  intros m fm q f H. pose proof H as (Hs & Hp & Hz & (h & Hr) & Hn). unfold rb_get_mut.
  destruct (t_get_mut_ok q f (rb_root m) Hs) as (t' & -> & El & Ec & Hr'). rewrite (rep_find m fm q H).
  eexists. split; [reflexivity|]. unfold rb_rep. cbn [rb_root rb_size]. rewrite El. repeat split.
  - apply sorted_map_val; [|assumption]. intros x. now destruct (m_of q x).
  - unfold fm_modify. now apply Permutation_map.
  - unfold fm_modify. now rewrite map_length.
  - exists h. auto.
  - eapply notred_color; eassumption.
Qed.

Lemma rb_step_ok : forall o m fm, rb_rep m fm ->
  exists m', rb_step dbg kcmp borrow qcmp o m = Ok (m', snd (map_spec eqk borrow eqq o fm)) /\
             rb_rep m' (fst (map_spec eqk borrow eqq o fm)).
Proof.
  intros o m fm H. destruct o as [k v|k v|q|q|q f|q|q|q| | |]; cbn [rb_step map_spec fst snd].
  - unfold rb_insert. destruct (rb_insert_ok m fm k v H) as (m' & -> & H'). cbn [bind]. eauto.
  - destruct (rb_insert_ok m fm k v H) as (m' & -> & H'). cbn [bind]. eauto.
  - unfold rb_remove. destruct (rb_remove_ok m fm q H) as (m' & -> & H'). cbn [bind].
    destruct (is_some (fm_find borrow eqq q fm)) eqn:E; [eauto|]. rewrite (remove_absent _ _ E). eauto.
  - destruct (rb_remove_ok m fm q H) as (m' & -> & H'). cbn [bind]. eauto.
  - destruct (rb_get_mut_ok m fm q f H) as (m' & -> & H'). cbn [bind]. eauto.
  - exists m. unfold rb_get. rewrite (rb_get_ok m fm q H). auto.
  - exists m. unfold rb_get_key_value. rewrite (rb_get_ok m fm q H). auto.
  - exists m. unfold rb_contains_key, rb_get. rewrite (rb_get_ok m fm q H), is_some_map. auto.
  - exists m. pose proof H as (_ & _ & E & _). rewrite E. auto.
  - exists m. unfold rb_is_empty. pose proof H as (_ & _ & -> & _). split; [now destruct fm|exact H].
  - exists m. auto.
Qed.

Lemma rb_new_ok : rb_rep (@rb_new K V) [].
Proof using. repeat split; cbn; try constructor. exists 0. constructor. Qed.

Lemma rb_history : forall ops, exists m,
  exec_m (rb_step dbg kcmp borrow qcmp) ops rb_new = Ok (m, snd (exec_s (map_spec eqk borrow eqq) ops [])) /\
  rb_rep m (fst (exec_s (map_spec eqk borrow eqq) ops [])).
Proof. intros ops. exact (sim_exec _ _ _ _ rb_rep _ _ rb_step_ok ops _ _ rb_new_ok). Qed.

Lemma rb_extend_ok : forall kvs m fm, rb_rep m fm -> exists m', rb_extend kcmp m kvs = Ok m' /\
  rb_rep m' (fold_left (fun acc x => fm_insert eqk (fst x) (snd x) acc) kvs fm).
Proof.
  induction kvs as [|[k v] kvs IH]; intros m fm H; cbn [rb_extend fold_left fst snd]; [eauto|].
  destruct (rb_insert_ok m fm k v H) as (m' & -> & H'). cbn [bind]. now apply IH.
Qed.
End RB.
