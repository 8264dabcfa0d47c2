(** * The iterators of RedBlackTreeMap on the shared heap: what they deliver and read *)
From Coq Require Import List Arith Lia Bool Permutation.
From Verif Require Import Base Spec Sim SpecMap SpecOrd RBModel RBProofs RBHist RBIter
  PermSolve HeapModel HeapProofs HeapSafe HeapLooks HeapClient HeapList HeapRB HeapRBProofs.
Import ListNotations.
Local Open Scope prog_scope.

Section R.
Context {K V Q : Type}.
Variable kcmp : K -> K -> comparison.
Variable borrow : K -> Q.
Variable qcmp : Q -> Q -> comparison.
Notation C := (rcell K V).
Notation P := (prog C).
Notation own := (@own C).
Notation tree := (tree K V).
Notation istk := (istk K V).
Context (G : list own) (H : nat).

(** A tree within reach behind an optional pointer. *)
Definition opt_at (o : option addr) (t : tree) : Prop := exists ts, topt t o ts /\ forall u, In u ts -> lent u G.

Lemma at_node : forall a t, opt_at (Some a) t ->
  exists e c l r te ol or us, t = TNode e c l r /\ lent (PT a (RN (mkHN (pa te) c ol or)) us) G /\
    etree e te /\ lent te G /\ opt_at ol l /\ opt_at or r.
Proof.
  intros a t (ts & T & L). inversion T as [|a' e c l r te ol tl or tr He Hl Hr]; subst.
  assert (L1 := L _ (or_introl eq_refl)).
  exists e, c, l, r, te, ol, or, (te :: tl ++ tr). splits; trivial.
  - eapply lent_kid; [exact L1|now left].
  - exists tl. split; trivial. intros u I. eapply lent_kid; [exact L1|]. right. apply in_app_iff. auto.
  - exists tr. split; trivial. intros u I. eapply lent_kid; [exact L1|]. right. apply in_app_iff. auto.
Qed.
Lemma at_none : forall t, opt_at None t -> t = Leaf.
Proof. intros t (ts & T & L). now inversion T. Qed.

Definition tsz (t : tree) : nat := length (elems t).
Lemma sz_node : forall e c l r, tsz (TNode e c l r) = S (tsz l + tsz r).
Proof. intros. unfold tsz. cbn [elems]. rewrite app_length. cbn [length]. lia. Qed.

(** The subtree visited after a node; what the stack has still to visit below it. *)
Definition fart (bw : bool) (t : tree) : tree :=
  match t with Leaf => Leaf | TNode _ _ l r => if bw then l else r end.
Definition ahead (bw : bool) (st : list tree) : nat := list_sum (map (fun t => tsz (fart bw t)) st).
Lemma rem_cons : forall bw t st, ahead bw (t :: st) = tsz (fart bw t) + ahead bw st.
Proof. reflexivity. Qed.

Definition node_on (a : addr) (t : tree) : Prop := opt_at (Some a) t /\ hgt t <= H.
Definition srel (s : hstk) (s' : istk) : Prop :=
  Forall2 node_on (hsk_stack s) (s_stack s') /\ hsk_backwards s = s_backwards s'.
Definition srem (s' : istk) : nat := ahead (s_backwards s') (s_stack s').

(** A pointer to an entry. *)
Definition entry_at (o : option addr) (e : option (K * V)) : Prop :=
  match o, e with
  | Some a, Some e => exists te, a = pa te /\ etree e te /\ lent te G
  | None, None => True
  | _, _ => False
  end.

Lemma node_looks : forall {A} a hn us n (k : hnode -> P A) R, lent (PT a (RN hn) us) G ->
  looks n (k hn) G R -> looks (S n) (see_node a k) G R.
Proof. intros A a hn us n k R L S. eapply looks_read; [exact L|exact S]. Qed.
Lemma entry_looks : forall {A} e te n (k : K * V -> P A) R, etree e te -> lent te G ->
  looks n (k e) G R -> looks (S n) (see_entry (pa te) k) G R.
Proof. intros A e te n k R [a e'] L S. eapply looks_read; [exact L|exact S]. Qed.

Lemma current_looks : forall s s', srel s s' ->
  looks 1 (hsk_current s) G (fun o => entry_at o (s_current s')).
Proof.
  intros [st bw] [st' bw'] [F E]. cbn in F, E. subst bw'. unfold hsk_current, s_current. cbn [hsk_stack s_stack].
  destruct F as [|a t st st' [Ha _] F]; [exact I|].
  destruct (at_node _ _ Ha) as (e & c & l & r & te & ol & or & us & -> & L & He & Le & _ & _).
  eapply node_looks; [exact L|]. cbn. eauto.
Qed.

Lemma above_looks : forall sb e te, etree e te -> lent te G ->
  looks 1 (habove borrow qcmp sb (pa te)) G (fun b => b = above qcmp sb (borrow (fst e))).
Proof.
  intros sb e te He Le. destruct sb; cbn [habove]; [| |reflexivity]; (eapply entry_looks; [exact He|exact Le|reflexivity]).
Qed.
Lemma below_looks : forall eb e te, etree e te -> lent te G ->
  looks 1 (hbelow borrow qcmp eb (pa te)) G (fun b => b = below qcmp eb (borrow (fst e))).
Proof.
  intros sb e te He Le. destruct sb; cbn [hbelow]; [| |reflexivity]; (eapply entry_looks; [exact He|exact Le|reflexivity]).
Qed.

Lemma clear_looks : forall sb eb s s', srel s s' ->
  looks 2 (hsk_clear_if_finished borrow qcmp sb eb s) G
    (fun r => srel r (s_clear_if_finished borrow qcmp sb eb s')).
Proof.
  intros sb eb s s' R. unfold hsk_clear_if_finished, s_clear_if_finished.
  change 2 with (1 + 1). eapply looks_bind; [apply (current_looks _ _ R)|]. intros o Ho.
  destruct o as [a|], (s_current s') as [e|]; try contradiction; [|exact R].
  destruct Ho as (te & -> & He & Le). destruct R as [F E]. rewrite E. change 1 with (1 + 0).
  eapply looks_bind with (Q := fun b => b = if s_backwards s' then above qcmp sb (borrow (fst e)) else below qcmp eb (borrow (fst e))).
  - destruct (s_backwards s'); [apply above_looks|apply below_looks]; trivial.
  - intros b ->. destruct (if s_backwards s' then _ else _); split; trivial; constructor.
Qed.

Lemma clear_rem : forall sb eb s', srem (s_clear_if_finished borrow qcmp sb eb s') <= srem s'.
Proof.
  intros sb eb s'. unfold s_clear_if_finished. destruct (s_current s'); [|lia].
  destruct (if s_backwards s' then _ else _); [lia|]. cbn. lia.
Qed.

Lemma dig_looks : forall bw f a t st st', node_on a t -> Forall2 node_on st st' -> hgt t <= f ->
  exists n, looks n (hsk_dig f bw (a :: st)) G (fun r => Forall2 node_on r (s_dig bw t st')) /\
    n + ahead bw (s_dig bw t st') <= tsz t + ahead bw st' /\ n <= hgt t.
Proof.
  induction f as [|f IH]; intros a t st st' [Ha Hh] F Hf.
  - destruct (at_node _ _ Ha) as (e & c & l & r & te & ol & or & us & -> & _). cbn [hgt] in Hf. lia.
  - destruct (at_node _ _ Ha) as (e & c & l & r & te & ol & or & us & -> & L & He & Le & Hl & Hr).
    cbn [hgt] in Hf, Hh. rewrite sz_node. cbn [hgt].
    assert (F' : Forall2 node_on (a :: st) (TNode e c l r :: st')) by (constructor; trivial; split; trivial; cbn [hgt]; lia).
    set (ch := if bw then r else l). set (oc := if bw then or else ol).
    assert (X : exists n, looks n (match oc with Some c0 => hsk_dig f bw (c0 :: a :: st) | None => Ret (a :: st) end) G
                  (fun r0 => Forall2 node_on r0 (s_dig bw ch (TNode e c l r :: st'))) /\
                n + ahead bw (s_dig bw ch (TNode e c l r :: st')) <= tsz ch + ahead bw (TNode e c l r :: st') /\ n <= hgt ch).
    { assert (Hc : opt_at oc ch) by (destruct bw; trivial). assert (hgt ch <= f /\ hgt ch <= H) as [X1 X2] by (subst ch; destruct bw; lia).
      destruct oc as [c0|].
      - apply IH; [now split|exact F'|lia].
      - apply at_none in Hc. rewrite Hc. exists 0. cbn. splits; trivial; lia. }
    destruct X as (n & Ln & B1 & B2). exists (S n). splits.
    + cbn [hsk_dig]. eapply node_looks; [exact L|]. cbn [hn_left hn_right s_dig]. subst ch oc. exact Ln.
    + cbn [s_dig]. fold ch. rewrite rem_cons in B1. cbn [fart] in B1. subst ch. destruct bw; lia.
    + subst ch. destruct bw; lia.
Qed.

Lemma dig_towards_looks : forall bw sb eb f a t st st', node_on a t -> Forall2 node_on st st' -> hgt t <= f ->
  exists n, looks n (hsk_dig_towards borrow qcmp f bw sb eb a st) G
              (fun r => Forall2 node_on r (s_dig_towards borrow qcmp bw sb eb t st')) /\
    n + ahead bw (s_dig_towards borrow qcmp bw sb eb t st') <= 2 * tsz t + ahead bw st' /\ n <= 2 * hgt t.
Proof.
  intros bw sb eb. induction f as [|f IH]; intros a t st st' [Ha Hh] F Hf.
  - destruct (at_node _ _ Ha) as (e & c & l & r & te & ol & or & us & -> & _). cbn [hgt] in Hf. lia.
  - destruct (at_node _ _ Ha) as (e & c & l & r & te & ol & or & us & -> & L & He & Le & Hl & Hr).
    cbn [hgt] in Hf, Hh. rewrite sz_node. cbn [hgt].
    assert (F' : Forall2 node_on (a :: st) (TNode e c l r :: st')) by (constructor; trivial; split; trivial; cbn [hgt]; lia).
    set (b := if bw then below qcmp eb (borrow (fst e)) else above qcmp sb (borrow (fst e))).
    set (ch := if Bool.eqb bw b then r else l). set (oc := if Bool.eqb bw b then or else ol).
    set (st2 := if b then a :: st else st). set (st2' := if b then TNode e c l r :: st' else st').
    assert (Ev : s_dig_towards borrow qcmp bw sb eb (TNode e c l r) st' = s_dig_towards borrow qcmp bw sb eb ch st2').
    { cbn [s_dig_towards]. fold b. fold st2'. subst ch. now destruct bw, b. }
    assert (F2 : Forall2 node_on st2 st2') by (subst st2 st2'; now destruct b).
    assert (X : exists n, looks n (match oc with Some c0 => hsk_dig_towards borrow qcmp f bw sb eb c0 st2 | None => Ret st2 end) G
                  (fun r0 => Forall2 node_on r0 (s_dig_towards borrow qcmp bw sb eb ch st2')) /\
                n + ahead bw (s_dig_towards borrow qcmp bw sb eb ch st2') <= 2 * tsz ch + ahead bw st2' /\ n <= 2 * hgt ch).
    { assert (Hc : opt_at oc ch) by (subst oc ch; now destruct (Bool.eqb bw b)).
      assert (hgt ch <= f /\ hgt ch <= H) as [X1 X2] by (subst ch; destruct (Bool.eqb bw b); lia).
      destruct oc as [c0|].
      - apply IH; [now split|exact F2|lia].
      - apply at_none in Hc. rewrite Hc. exists 0. cbn. splits; trivial; lia. }
    destruct X as (n & Ln & B1 & B2). exists (2 + n). rewrite Ev. splits.
    + cbn [hsk_dig_towards]. change (2 + n) with (S (1 + n)). eapply node_looks; [exact L|]. cbn [hn_left hn_right hn_entry].
      eapply looks_bind with (Q := fun x => x = b).
      { subst b. destruct bw; [apply below_looks|apply above_looks]; trivial. }
      intros x ->. fold st2. clearbody b. destruct bw, b; exact Ln.
    + assert (ahead bw st2' <= (if b then tsz (fart bw (TNode e c l r)) else 0) + ahead bw st') by (subst st2'; destruct b; [rewrite rem_cons|]; lia).
      subst ch. clearbody b. cbn [fart] in *. destruct bw, b; cbn [Bool.eqb] in *; lia.
    + subst ch. destruct (Bool.eqb bw b); lia.
Qed.

Lemma s_new_looks : forall m m' sb eb bw, opt_at (hb_root m) (rb_root m') -> hgt (rb_root m') <= H -> H <= hb_levels m ->
  exists n, looks n (hsk_new borrow qcmp m sb eb bw) G (fun s => srel s (s_new borrow qcmp m' sb eb bw)) /\
    n + srem (s_new borrow qcmp m' sb eb bw) <= 2 * tsz (rb_root m') + 2 /\ n <= 2 * H + 2.
Proof.
  intros m m' sb eb bw Ho Hh HL. unfold hsk_new, s_new.
  set (st' := s_dig_towards borrow qcmp bw sb eb (rb_root m') []).
  assert (X : exists n, looks n (match hb_root m with Some a => hsk_dig_towards borrow qcmp (S (hb_levels m)) bw sb eb a [] | None => Ret [] end) G
            (fun r => Forall2 node_on r st') /\ n + ahead bw st' <= 2 * tsz (rb_root m') /\ n <= 2 * H).
  { destruct (hb_root m) as [a|].
    - destruct (dig_towards_looks bw sb eb (S (hb_levels m)) a (rb_root m') [] []) as (n & Ln & B1 & B2);
        [now split|constructor|lia|]. exists n. splits; [exact Ln|subst st'; change (ahead bw []) with 0 in B1; lia|lia].
    - apply at_none in Ho. subst st'. rewrite Ho. exists 0. splits; [constructor|cbn; lia|lia]. }
  destruct X as (n & Ln & B1 & B2). exists (n + 2). splits; [|pose proof (clear_rem sb eb (mkStk st' bw)) as Y; change (srem (mkStk st' bw)) with (ahead bw st') in Y; fold st'; lia|lia].
  eapply looks_bind; [exact Ln|]. intros r F. apply clear_looks. split; trivial.
Qed.

Lemma s_advance_looks : forall f sb eb s s', srel s s' -> H <= f ->
  exists n, looks n (hsk_advance borrow qcmp f sb eb s) G (fun r => srel r (s_advance borrow qcmp sb eb s')) /\
    n + srem (s_advance borrow qcmp sb eb s') <= srem s' + 3 /\ n <= H + 3.
Proof.
  intros f sb eb [st bw] [st' bw'] [F E] Hf. cbn [hsk_stack s_stack hsk_backwards s_backwards] in *. subst bw'.
  unfold hsk_advance, s_advance. cbn [hsk_stack s_stack hsk_backwards s_backwards].
  destruct F as [|a t st st' [Ha Hh] F].
  { exists 0. splits; [|lia..]. split; trivial. constructor. }
  destruct (at_node _ _ Ha) as (e & c & l & r & te & ol & or & us & -> & L & He & Le & Hl & Hr). cbn [as_node].
  set (n0 := mkNode e c l r). cbn [hgt] in Hh.
  set (ch := far bw n0). set (oc := if bw then ol else or).
  assert (X : exists n, looks n (match oc with Some c0 => hsk_dig f bw (c0 :: st) | None => Ret st end) G
                  (fun r0 => Forall2 node_on r0 (s_dig bw ch st')) /\
                n + ahead bw (s_dig bw ch st') <= tsz ch + ahead bw st' /\ n <= hgt ch).
  { assert (Hc : opt_at oc ch) by (subst oc ch n0; now destruct bw).
    assert (hgt ch <= H) as X1 by (subst ch n0; unfold far; destruct bw; cbn [n_left n_right]; lia).
    destruct oc as [c0|].
    - apply dig_looks; [now split|exact F|lia].
    - apply at_none in Hc. rewrite Hc. exists 0. cbn. splits; trivial; lia. }
  destruct X as (n & Ln & B1 & B2). exists (S (n + 2)). splits.
  - eapply node_looks; [exact L|]. cbn [hn_left hn_right]. fold oc. eapply looks_bind; [exact Ln|]. intros r0 F0.
    apply clear_looks. split; trivial.
  - pose proof (clear_rem sb eb (mkStk (s_dig bw ch st') bw)) as Y.
    change (srem (mkStk (s_dig bw ch st') bw)) with (ahead bw (s_dig bw ch st')) in Y.
    change (srem (mkStk (TNode e c l r :: st') bw)) with (ahead bw (TNode e c l r :: st')). rewrite rem_cons. assert (fart bw (TNode e c l r) = ch) as -> by (subst ch n0; now destruct bw). lia.
  - assert (hgt ch <= H) as X1 by (subst ch n0; unfold far; destruct bw; cbn [n_left n_right]; lia). lia.
Qed.

(** What is left to visit, in values. *)
Lemma dig_rem : forall bw t st', ahead bw (s_dig bw t st') <= tsz t + ahead bw st'.
Proof.
  intros bw. induction t as [|e c l IHl r IHr]; intros st'; [unfold tsz; cbn [s_dig elems length]; lia|]. cbn [s_dig]. rewrite sz_node.
  destruct bw; [eapply Nat.le_trans; [apply IHr|]|eapply Nat.le_trans; [apply IHl|]]; rewrite rem_cons; cbn [fart]; lia.
Qed.
Lemma advance_rem : forall sb eb s', srem (s_advance borrow qcmp sb eb s') <= srem s' + 3.
Proof.
  intros sb eb [st' bw]. unfold s_advance. cbn [s_stack s_backwards]. destruct st' as [|t st']; [cbn; lia|].
  assert (X : forall ch, tsz ch <= tsz (fart bw t) ->
    srem (s_clear_if_finished borrow qcmp sb eb (mkStk (s_dig bw ch st') bw)) <= srem (mkStk (t :: st') bw) + 3).
  { intros ch Hc. eapply Nat.le_trans; [apply clear_rem|]. unfold srem. cbn [s_backwards s_stack]. rewrite rem_cons.
    pose proof (dig_rem bw ch st'). lia. }
  destruct t as [|e c l r]; cbn [as_node].
  - exact (X Leaf (le_n _)).
  - apply X. now destruct bw.
Qed.

(** ** The range iterator *)
Definition osrel (o : option hstk) (o' : option istk) : Prop :=
  match o, o' with Some s, Some s' => srel s s' | None, None => True | _, _ => False end.
Definition rirel (i : hriter Q) (i' : riter K V Q) : Prop :=
  opt_at (hb_root (hri_map i)) (rb_root (ri_map i')) /\ hgt (rb_root (ri_map i')) <= H /\ H <= hb_levels (hri_map i) /\
  osrel (hri_fwd i) (ri_fwd i') /\ osrel (hri_bwd i) (ri_bwd i') /\
  hri_start i = ri_start i' /\ hri_end i = ri_end i'.
Definition orem (t : tree) (o : option istk) : nat := match o with Some s => srem s | None => 2 * tsz t end.
Definition ripot (i' : riter K V Q) : nat := orem (rb_root (ri_map i')) (ri_fwd i') + orem (rb_root (ri_map i')) (ri_bwd i').

Definition ri_step (bw : bool) := if bw then @ri_next_back K V Q kcmp borrow qcmp else ri_next kcmp borrow qcmp.
Definition ri_cur (bw : bool) := if bw then @ri_current_backward K V Q kcmp else ri_current_forward kcmp.
Definition ri_adv (bw : bool) := if bw then @ri_advance_backward K V Q borrow qcmp else ri_advance_forward borrow qcmp.

Lemma init_looks : forall bw i i', rirel i i' ->
  exists n, looks n (hri_init borrow qcmp bw i) G (fun r => rirel r (ri_init borrow qcmp bw i')) /\
    n + ripot (ri_init borrow qcmp bw i') <= ripot i' + 2 /\ n <= 2 * H + 2.
Proof.
  intros bw [m f b sb eb] [m' f' b' sb' eb'] (Ho & Hh & HL & Hf & Hb & E1 & E2).
  cbn [hri_map hri_fwd hri_bwd hri_start hri_end ri_map ri_fwd ri_bwd ri_start ri_end] in *. subst sb' eb'.
  destruct (s_new_looks m m' sb eb bw Ho Hh HL) as (n & Ln & B1 & B2).
  destruct bw; cbn [hri_init ri_init hri_map hri_fwd hri_bwd hri_start hri_end ri_map ri_fwd ri_bwd ri_start ri_end].
  - destruct b as [b|], b' as [b'|]; try contradiction.
    + exists 0. splits; [|lia..]. unfold rirel. cbn. splits; trivial.
    + exists (n + 0). splits; [|unfold ripot; cbn [ri_map ri_fwd ri_bwd orem] in *; lia|lia].
      eapply looks_bind; [exact Ln|]. intros s Rs. unfold rirel. cbn. splits; trivial.
  - destruct f as [f|], f' as [f'|]; try contradiction.
    + exists 0. splits; [|lia..]. unfold rirel. cbn. splits; trivial.
    + exists (n + 0). splits; [|unfold ripot; cbn [ri_map ri_fwd ri_bwd orem] in *; lia|lia].
      eapply looks_bind; [exact Ln|]. intros s Rs. unfold rirel. cbn. splits; trivial.
Qed.

Lemma empty_looks : forall i i', rirel i i' ->
  looks 4 (hri_is_empty kcmp i) G (fun b => b = ri_is_empty kcmp i').
Proof.
  intros i i' (Ho & Hh & HL & Hf & Hb & E1 & E2). unfold hri_is_empty, ri_is_empty.
  destruct (hri_fwd i) as [f|], (ri_fwd i') as [f'|]; try contradiction; [|reflexivity].
  destruct (hri_bwd i) as [b|], (ri_bwd i') as [b'|]; try contradiction; [|reflexivity].
  cbn [osrel] in *. change 4 with (1 + (1 + 2)).
  eapply looks_bind; [apply (current_looks _ _ Hf)|]. intros x Hx.
  eapply looks_bind; [apply (current_looks _ _ Hb)|]. intros y Hy.
  destruct x as [x|], (s_current f') as [e|]; try contradiction; [|reflexivity].
  destruct y as [y|], (s_current b') as [e'|]; try contradiction; [|reflexivity].
  destruct Hx as (te & -> & He & Le). destruct Hy as (te' & -> & He' & Le').
  eapply entry_looks; [exact He|exact Le|]. eapply entry_looks; [exact He'|exact Le'|]. reflexivity.
Qed.

Lemma cur_looks : forall bw i i' o, rirel i i' -> ri_cur bw i' = Ok o ->
  looks 5 (hri_current kcmp bw i) G (fun r => entry_at r o).
Proof.
  intros bw i i' o R E. unfold hri_current. change 5 with (4 + 1).
  eapply looks_bind; [apply (empty_looks _ _ R)|]. intros b ->.
  destruct R as (_ & _ & _ & Hf & Hb & _).
  destruct bw; cbn [ri_cur] in E; unfold ri_current_forward, ri_current_backward in E; destruct (ri_is_empty kcmp i');
    try (injection E as <-; exact I).
  - destruct (hri_bwd i) as [b|], (ri_bwd i') as [b'|]; try contradiction; cbn [unwrap bind] in E; [|discriminate].
    injection E as <-. cbn [unwrap lift pbind]. now apply current_looks.
  - destruct (hri_fwd i) as [b|], (ri_fwd i') as [b'|]; try contradiction; cbn [unwrap bind] in E; [|discriminate].
    injection E as <-. cbn [unwrap lift pbind]. now apply current_looks.
Qed.

Lemma adv_looks : forall bw i i' j', rirel i i' -> ri_adv bw i' = Ok j' ->
  exists n, looks n (hri_advance borrow qcmp bw i) G (fun r => rirel r j') /\
    n + ripot j' <= ripot i' + 3 /\ n <= H + 3.
Proof.
  intros bw [m f b sb eb] [m' f' b' sb' eb'] j' (Ho & Hh & HL & Hf & Hb & E1 & E2) E.
  unfold hri_advance. cbn [hri_map hri_fwd hri_bwd hri_start hri_end ri_map ri_fwd ri_bwd ri_start ri_end] in *. subst sb' eb'.
  destruct bw; cbn [ri_adv] in E; unfold ri_advance_forward, ri_advance_backward in E; cbn [ri_map ri_fwd ri_bwd ri_start ri_end] in E.
  - destruct b as [b|], b' as [b'|]; try contradiction; cbn [unwrap bind] in E; [|discriminate]. injection E as <-.
    destruct (s_advance_looks (S (hb_levels m)) sb eb b b' Hb ltac:(lia)) as (n & Ln & B1 & B2).
    exists (n + 0). splits; [|unfold ripot in *; cbn [ri_map ri_fwd ri_bwd orem] in *; lia|lia].
    cbn [unwrap lift pbind]. eapply looks_bind; [exact Ln|]. intros s Rs. unfold rirel. cbn. splits; trivial.
  - destruct f as [b0|], f' as [b0'|]; try contradiction; cbn [unwrap bind] in E; [|discriminate]. injection E as <-.
    destruct (s_advance_looks (S (hb_levels m)) sb eb b0 b0' Hf ltac:(lia)) as (n & Ln & B1 & B2).
    exists (n + 0). splits; [|unfold ripot in *; cbn [ri_map ri_fwd ri_bwd orem] in *; lia|lia].
    cbn [unwrap lift pbind]. eapply looks_bind; [exact Ln|]. intros s Rs. unfold rirel. cbn. splits; trivial.
Qed.

Lemma next_looks : forall bw i i' o j', rirel i i' -> ri_step bw i' = Ok (o, j') ->
  exists n, looks n (hri_next kcmp borrow qcmp bw i) G (fun r => entry_at (fst r) o /\ rirel (snd r) j') /\
    n + ripot j' <= ripot i' + 10 /\ n <= 3 * H + 10.
Proof.
  intros bw i i' o j' R E. unfold hri_next.
  destruct (init_looks bw i i' R) as (n1 & L1 & B1 & B1'). set (i1 := ri_init borrow qcmp bw i') in *.
  assert (E' : exists o', ri_cur bw i1 = Ok o' /\ ri_adv bw i1 = Ok j' /\ o = o').
  { destruct bw; cbn [ri_step ri_cur ri_adv] in *; unfold ri_next, ri_next_back in E; fold i1 in E.
    - destruct (ri_current_backward kcmp i1) as [x| |]; cbn [bind] in E; try discriminate.
      destruct (ri_advance_backward borrow qcmp i1) as [y| |]; cbn [bind] in E; try discriminate. injection E as <- <-. eauto.
    - destruct (ri_current_forward kcmp i1) as [x| |]; cbn [bind] in E; try discriminate.
      destruct (ri_advance_forward borrow qcmp i1) as [y| |]; cbn [bind] in E; try discriminate. injection E as <- <-. eauto. }
  destruct E' as (o' & Ec & Ea & ->).
  assert (X : exists n, (forall x, rirel x i1 ->
      looks (5 + n) (let* current := hri_current kcmp bw x in let* j := hri_advance borrow qcmp bw x in Ret (current, j)) G
        (fun r => entry_at (fst r) o' /\ rirel (snd r) j')) /\ n + ripot j' <= ripot i1 + 3 /\ n <= H + 3).
  { exists (Nat.min (ripot i1 + 3 - ripot j') (H + 3)).
    assert (ripot j' <= ripot i1 + 3).
    { clear - Ea. destruct bw; cbn [ri_adv] in Ea; unfold ri_advance_forward, ri_advance_backward in Ea; destruct i1 as [m' f' b' sb' eb'];
        cbn [ri_map ri_fwd ri_bwd ri_start ri_end] in Ea.
      - destruct b' as [b'|]; cbn [unwrap bind] in Ea; [|discriminate]. injection Ea as <-.
        pose proof (advance_rem sb' eb' b'). unfold ripot. cbn [ri_map ri_fwd ri_bwd orem] in *. lia.
      - destruct f' as [f'|]; cbn [unwrap bind] in Ea; [|discriminate]. injection Ea as <-.
        pose proof (advance_rem sb' eb' f'). unfold ripot. cbn [ri_map ri_fwd ri_bwd orem] in *. lia. }
    splits; [|lia..]. intros x Rx. eapply looks_bind; [apply (cur_looks bw _ _ _ Rx Ec)|]. intros cur Hc.
    destruct (adv_looks bw x i1 j' Rx Ea) as (n & Ln & Bn & Bn').
    rewrite <- (Nat.add_0_r (Nat.min _ _)). eapply looks_bind; [eapply looks_le; [exact Ln|lia]|].
    intros j Rj. split; trivial. }
  destruct X as (n & X & B2 & B2'). exists (n1 + (5 + n)). splits; [|lia..].
  eapply looks_bind; [exact L1|]. intros x Rx. apply X, Rx.
Qed.

(** An entry handed out is read once more. *)
Lemma deliver_looks : forall {St} n (p : P (option addr * St)) o (R : St -> Prop),
  looks n p G (fun r => entry_at (fst r) o /\ R (snd r)) ->
  looks (n + 1) (deliver p) G (fun r => fst r = o /\ R (snd r)).
Proof.
  intros St n p o R L. unfold deliver. eapply looks_bind; [exact L|]. intros [x i] [Hx Hi]. cbn [fst snd] in *.
  destruct x as [x|], o as [e|]; try contradiction.
  - destruct Hx as (te & -> & He & Le). eapply entry_looks; [exact He|exact Le|]. now split.
  - now split.
Qed.

(** One step of a range iterator. *)
Lemma range_follows : forall bw i i' o j', rirel i i' -> ri_step bw i' = Ok (o, j') ->
  exists n, looks n (hb_range_next kcmp borrow qcmp bw i) G (fun r => fst r = o /\ rirel (snd r) j') /\
    n + ripot j' <= ripot i' + 11 /\ n <= 3 * H + 11.
Proof.
  intros bw i i' o j' R E. destruct (next_looks bw i i' o j' R E) as (n & Ln & B1 & B2).
  exists (n + 1). splits; [|lia..]. exact (deliver_looks n _ o (fun j => rirel j j') Ln).
Qed.

Lemma hri_new_rel : forall m m' sb eb, opt_at (hb_root m) (rb_root m') -> hgt (rb_root m') <= H -> H <= hb_levels m ->
  rirel (hri_new m sb eb) (ri_new m' sb eb).
Proof. intros m m' sb eb Ho Hh HL. unfold rirel. cbn. auto 10. Qed.
End R.

Section F.
Context {K V : Type}.
Variable kcmp : K -> K -> comparison.
Notation C := (rcell K V).
Notation P := (prog C).
Notation own := (@own C).
Context (G : list own) (H : nat).
Notation rel := (rirel (Q := K) G H).

Definition birel (i : hbiter) (i' : rbiter K V) : Prop := rel (hbi_range i) (it_range i') /\ hbi_size i = it_size i'.
Definition bipot (i' : rbiter K V) : nat := ripot (it_range i') + 11 * it_size i'.
Definition it_step (bw : bool) := if bw then it_next_back (V := V) kcmp else it_next kcmp.

Lemma hbi_next_follows : forall bw i i', birel i i' ->
  follows birel G bipot (3 * H + 11) (hbi_next kcmp bw i) (it_step bw i') i'.
Proof.
  intros bw i i' [R E] o s'' Ev. unfold hbi_next, hbi_next_ptr. rewrite E.
  assert (Ev' : (if Nat.ltb 0 (it_size i') then
      let! size := csub (it_size i') 1 in let! (o, r) := ri_step kcmp (fun k => k) kcmp bw (it_range i') in Ok (o, mkIt r size)
      else Ok (None, i')) = Ok (o, s'')) by (destruct bw; exact Ev). clear Ev.
  destruct (Nat.ltb_spec 0 (it_size i')) as [Hlt|_].
  - destruct (it_size i') as [|n] eqn:Ez; [lia|]. rewrite csub_S in *. cbn [bind lift pbind] in *.
    destruct (ri_step kcmp (fun k => k) kcmp bw (it_range i')) as [[o' r']| |] eqn:Er; cbn [bind] in Ev'; try discriminate.
    injection Ev' as <- <-.
    destruct (next_looks kcmp (fun k => k) kcmp G H bw _ _ _ _ R Er) as (m & Lm & B1 & B2).
    exists (m + 0 + 1). splits; [|unfold bipot; cbn [it_range it_size]; rewrite Ez; lia|lia].
    apply (deliver_looks G (m + 0) _ o' (fun j => birel j (mkIt r' n))).
    eapply looks_bind; [exact Lm|]. intros [x j] [Hx Hj]. cbn [fst snd] in *. split; [exact Hx|]. split; [exact Hj|reflexivity].
  - injection Ev' as <- <-. exists 0. splits; [|lia..]. split; [reflexivity|]. now split.
Qed.

Lemma hbi_new_rel : forall m w, hb_size m = rb_size w -> opt_at G (hb_root m) (rb_root w) ->
  hgt (rb_root w) <= H -> H <= hb_levels m -> birel (hbi_new m) (it_new w).
Proof. intros m w Hz Ho Hh HL. split; [now apply hri_new_rel|exact Hz]. Qed.
Lemma hbi_hint_is : forall i i', birel i i' -> hbi_hint i = it_hint i'.
Proof. intros i i' [_ E]. unfold hbi_hint, it_hint. now rewrite E. Qed.

Lemma hb_iter_looks : forall ds m w l, hb_size m = rb_size w -> opt_at G (hb_root m) (rb_root w) ->
  hgt (rb_root w) <= H -> H <= hb_levels m -> rb_size w = length (elems (rb_root w)) ->
  runs2 (it_next kcmp) (it_next_back kcmp) it_hint ds (it_new w) = Ok l ->
  looks (Nat.min (15 * rb_size w) (length ds * (3 * H + 11))) (hb_iter kcmp m ds) G (fun x => x = l).
Proof.
  intros ds m w l Hz Ho Hh HL Hn E. unfold hb_iter.
  assert (X : bipot (it_new w) = 15 * rb_size w).
  { unfold bipot, ripot. cbn [it_new it_range it_size ri_new ri_fwd ri_bwd orem ri_map]. unfold tsz. rewrite <- Hn. lia. }
  rewrite <- X.
  eapply (pruns2_looks birel G bipot); [| | | |exact E].
  - intros s s' Rs. apply hbi_hint_is, Rs.
  - intros s s' Rs. apply (hbi_next_follows false), Rs.
  - intros s s' Rs. apply (hbi_next_follows true), Rs.
  - now apply hbi_new_rel.
Qed.
End F.

(** ** None of it allocates, counts or frees *)
Section Quiet.
Context {K V Q : Type}.
Variable kcmp : K -> K -> comparison.
Variable borrow : K -> Q.
Variable qcmp : Q -> Q -> comparison.
Notation P := (prog (rcell K V)).

Lemma bquiet_node : forall {A} a (k : hnode -> P A), (forall n, quiet (k n)) -> quiet (see_node a k).
Proof. intros A a k Hk [n|e]; cbn; trivial. Qed.
Lemma bquiet_entry : forall {A} a (k : K * V -> P A), (forall e, quiet (k e)) -> quiet (see_entry a k).
Proof. intros A a k Hk [n|e]; cbn; trivial. Qed.
Lemma bquiet_current : forall s, quiet (@hsk_current K V s).
Proof. intros [[|a st] bw]; [exact I|]. apply bquiet_node. intros n. exact I. Qed.
Lemma bquiet_above : forall sb a, quiet (@habove K V Q borrow qcmp sb a).
Proof. intros [x|x|] a; [apply bquiet_entry; intros; exact I..|exact I]. Qed.
Lemma bquiet_below : forall sb a, quiet (@hbelow K V Q borrow qcmp sb a).
Proof. intros [x|x|] a; [apply bquiet_entry; intros; exact I..|exact I]. Qed.
Lemma bquiet_clear : forall sb eb s, quiet (@hsk_clear_if_finished K V Q borrow qcmp sb eb s).
Proof.
  intros sb eb s. apply quiet_bind; [apply bquiet_current|]. intros [a|]; [|exact I].
  apply quiet_bind; [destruct (hsk_backwards s); [apply bquiet_above|apply bquiet_below]|]. hush.
Qed.
Lemma bquiet_dig : forall bw f st, quiet (@hsk_dig K V f bw st).
Proof.
  intros bw. induction f as [|f IH]; intros [|a st]; cbn [hsk_dig]; try exact I. apply bquiet_node. intros n.
  match goal with |- quiet (match ?x with _ => _ end) => destruct x end; [apply IH|exact I].
Qed.
Lemma bquiet_dig_towards : forall bw sb eb f a st, quiet (@hsk_dig_towards K V Q borrow qcmp f bw sb eb a st).
Proof.
  intros bw sb eb. induction f as [|f IH]; intros a st; cbn [hsk_dig_towards]; [exact I|]. apply bquiet_node. intros n.
  apply quiet_bind; [destruct bw; [apply bquiet_below|apply bquiet_above]|]. intros b.
  match goal with |- quiet (match ?x with _ => _ end) => destruct x end; [apply IH|exact I].
Qed.
Lemma bquiet_new : forall m sb eb bw, quiet (@hsk_new K V Q borrow qcmp m sb eb bw).
Proof.
  intros m sb eb bw. apply quiet_bind; [destruct (hb_root m); [apply bquiet_dig_towards|exact I]|].
  intros st. apply bquiet_clear.
Qed.
Lemma bquiet_advance : forall f sb eb s, quiet (@hsk_advance K V Q borrow qcmp f sb eb s).
Proof.
  intros f sb eb [[|a st] bw]; [exact I|]. apply bquiet_node. intros n. apply quiet_bind; [|intros st'; apply bquiet_clear].
  cbn [hsk_backwards]. match goal with |- quiet (match ?x with _ => _ end) => destruct x end; [apply bquiet_dig|exact I].
Qed.
Lemma bquiet_next : forall bw i, quiet (@hri_next K V Q kcmp borrow qcmp bw i).
Proof.
  intros bw i. pose proof bquiet_current. pose proof bquiet_new. pose proof bquiet_advance. pose proof @bquiet_entry.
  unfold hri_next, hri_init, hri_current, hri_is_empty, hri_advance. hush.
Qed.
Lemma bquiet_deliver : forall {St} (p : P (option addr * St)), quiet p -> quiet (deliver p).
Proof. intros St p Hp. apply quiet_bind; [exact Hp|]. intros [[a|] s]; [apply bquiet_entry; intros; exact I|exact I]. Qed.
End Quiet.

Lemma quiet_hb_iter : forall {K V} kcmp m ds, quiet (@hb_iter K V kcmp m ds).
Proof.
  intros K V kcmp m ds.
  assert (N : forall bw i, quiet (@hbi_next K V kcmp bw i)).
  { intros bw i. apply bquiet_deliver. unfold hbi_next_ptr. destruct (Nat.ltb 0 (hbi_size i)); [|exact I].
    apply quiet_bind; [apply quiet_lift|]. intros z. apply quiet_bind; [apply bquiet_next|]. hush. }
  apply quiet_runs2; apply N.
Qed.
