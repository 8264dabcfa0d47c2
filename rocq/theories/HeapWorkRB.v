(** * Steps of RedBlackTreeMap and RedBlackTreeSet (for C50)

    [pays] for the functions of HeapRB.v.  A node holds at most three pointers. *)
From Coq Require Import List NArith Arith Lia Bool Permutation.
From Verif Require Import Base Spec Sim SpecMap SpecOrd RBModel RBProofs RBHist RBIter RBExtra RBExtraProofs Prop_RB
  HeapModel HeapProofs HeapSafe HeapLooks HeapClient HeapWorld HeapList HeapRB HeapRBProofs HeapRBMap HeapSet HeapWork HeapWorkSeq.
Import ListNotations.
Local Open Scope prog_scope.

Section RB.
Context {K V Q : Type} (dbg : bool).
Context (kcmp : K -> K -> comparison) (borrow : K -> Q) (qcmp : Q -> Q -> comparison).
Notation C := (rcell K V).
Notation every := (fun _ : C => True).
Context (credit : nat) (dc : nat -> nat).
Hypothesis drops : forall f a, pays credit every (dc f) (drop_ptr (@rkids K V) f a) any.
Notation pays := (pays credit every).
Notation tm := (6 + credit + dc 2).

Lemma rkids_few : forall c : C, True -> length (rkids c) <= 3.
Proof. intros [[e c [l|] [r|]]|e] _; cbn; lia. Qed.

Lemma mm3 : forall a, pays tm (make_mut (@rkids K V) a) any.
Proof.
  intros a. eapply pays_mono; [| |apply (pays_make_mut _ _ _ 3 (dc 2) rkids_few); apply drops]; [lia|trivial].
Qed.
Lemma tm_pays : forall o, pays tm (@take_mut K V o) any.
Proof.
  intros [a|]; [|exact I]. unfold take_mut. eapply pay_call; [apply mm3|lia|]. intros [a' [n|e]] _; exact I.
Qed.
Lemma pay_see_node : forall {A} n a (k : hnode -> prog C A) R,
  1 <= n -> (forall x, pays (n - 1) (k x) R) -> pays n (see_node a k) R.
Proof. intros A n a k R L S. apply pay_read; trivial. intros [x|e] _; [apply S|exact I]. Qed.
Lemma pay_see_entry : forall {A} n a (k : K * V -> prog C A) R,
  1 <= n -> (forall x, pays (n - 1) (k x) R) -> pays n (see_entry a k) R.
Proof. intros A n a k R L S. apply pay_read; trivial. intros [x|e] _; [exact I|apply S]. Qed.

Lemma hcolor_pays : forall o, pays 1 (@hcolor K V o) any.
Proof. intros [a|]; [|exact I]. apply pay_see_node; [lia|]. intros n. exact I. Qed.
Lemma then_left_pays : forall o, pays 2 (@hthen_left_color K V o) any.
Proof.
  intros [a|]; [|exact I]. apply pay_see_node; [lia|]. intros n. eapply pays_le; [apply hcolor_pays|lia].
Qed.
Lemma then_right_pays : forall o, pays 2 (@hthen_right_color K V o) any.
Proof.
  intros [a|]; [|exact I]. apply pay_see_node; [lia|]. intros n. eapply pays_le; [apply hcolor_pays|lia].
Qed.

Ltac take := eapply pay_call; [apply tm_pays|lia|intros [? ?] _].
Ltac fill := apply pay_fill; [lia|exact I|].

Lemma bal_pays : forall n : hnode,
  pays (2 * tm + 2) (@hbal1 K V n) any /\ pays (2 * tm + 2) (@hbal2 K V n) any /\
  pays (2 * tm + 2) (@hbal3 K V n) any /\ pays (2 * tm + 2) (@hbal4 K V n) any.
Proof.
  intros n. repeat split; unfold hbal1, hbal2, hbal3, hbal4; take; take; fill; fill; exact I.
Qed.

Notation bal := (2 * tm + 12).
Lemma hbalance_pays : forall n, pays bal (@hbalance K V n) any.
Proof.
  intros n. destruct (bal_pays n) as (B1 & B2 & B3 & B4). unfold hbalance. destruct (hn_color n); [exact I|].
  eapply pay_call; [apply hcolor_pays|lia|]. intros cl _.
  eapply pay_call; [apply then_left_pays|lia|]. intros cll _.
  eapply pay_call; [apply then_right_pays|lia|]. intros clr _.
  eapply pay_call; [apply hcolor_pays|lia|]. intros cr _.
  eapply pay_call; [apply then_left_pays|lia|]. intros crl _.
  eapply pay_call; [apply then_right_pays|lia|]. intros crr _.
  destruct cl as [[]|], cll as [[]|], clr as [[]|], cr as [[]|], crl as [[]|], crr as [[]|];
    try exact I; eapply pays_le; try eassumption; lia.
Qed.

Lemma hins_pays : forall f o k v is_root,
  pays (f * (tm + 2 + bal) + 2 + 2 * credit + dc 1) (hins kcmp f o k v is_root) any.
Proof.
  induction f as [|f IH]; intros o k v is_root; cbn [hins]; [exact I|]. destruct o as [a|].
  - take. apply pay_see_entry; [lia|]. intros e.
    eapply pay_call with (R := any) (n1 := f * (tm + 2 + bal) + 2 + 2 * credit + dc 1 + bal); [|lia|].
    + destruct (kcmp k (fst e)).
      * apply pay_new; [lia|exact I|]. intros e'. eapply pay_call; [apply drops|lia|]. intros _ _. exact I.
      * eapply pay_call; [apply IH|lia|]. intros [l' []] _; [|exact I].
        eapply pay_call; [apply hbalance_pays|lia|]. intros n' _. exact I.
      * eapply pay_call; [apply IH|lia|]. intros [l' []] _; [|exact I].
        eapply pay_call; [apply hbalance_pays|lia|]. intros n' _. exact I.
    + intros [n' ret] _. fill. exact I.
  - unfold hnew_node. apply pay_new; [lia|exact I|]. intros p. apply pay_new; [lia|exact I|]. intros a. exact I.
Qed.

Lemma hremove_balance_pays : forall n, pays (2 + bal) (@hremove_balance K V dbg n) any.
Proof.
  intros n. unfold hremove_balance.
  assert (Bal : pays bal (if dbg && match hn_color n with Black => false | Red => true end then Fail
                          else @hbalance K V n) any).
  { destruct (dbg && _); [exact I|apply hbalance_pays]. }
  eapply pay_call; [apply hcolor_pays|lia|]. intros cl _.
  eapply pay_call; [apply hcolor_pays|lia|]. intros cr _.
  destruct cl as [[]|], cr as [[]|]; try (eapply pays_le; [exact Bal|lia]).
  take. fill. take. fill. exact I.
Qed.

Notation rbl := (3 * tm + bal + 9).
Lemma hremove_balance_left_pays : forall n, pays rbl (@hremove_balance_left K V dbg n) any.
Proof.
  intros n. unfold hremove_balance_left.
  eapply pay_call; [apply hcolor_pays|lia|]. intros cl _.
  eapply pay_call; [apply hcolor_pays|lia|]. intros cr _.
  eapply pay_call; [apply then_left_pays|lia|]. intros crl _.
  destruct cl as [[]|], cr as [[]|], crl as [[]|]; try exact I;
    first [ now (take; fill)
          | take; fill; eapply pays_le; [apply hremove_balance_pays|lia]
          | take; take; take; fill; eapply pay_call; [apply hremove_balance_pays|lia|]; intros sr _; fill; fill; exact I ].
Qed.
Lemma hremove_balance_right_pays : forall n, pays rbl (@hremove_balance_right K V dbg n) any.
Proof.
  intros n. unfold hremove_balance_right.
  eapply pay_call; [apply hcolor_pays|lia|]. intros cr _.
  eapply pay_call; [apply hcolor_pays|lia|]. intros cl _.
  eapply pay_call; [apply then_right_pays|lia|]. intros clr _.
  destruct cl as [[]|], cr as [[]|], clr as [[]|]; try exact I;
    first [ now (take; fill)
          | take; fill; eapply pays_le; [apply hremove_balance_pays|lia]
          | take; take; take; fill; eapply pay_call; [apply hremove_balance_pays|lia|]; intros sr _; fill; fill; exact I ].
Qed.

Lemma hreplace_pays : forall d s, pays (tm + 1 + dc 2) (@hreplace K V d s) any.
Proof.
  intros d s. unfold hreplace. take. fill. eapply pay_call; [apply drops|lia|]. intros _ _. exact I.
Qed.

Lemma fuse_rr_pays : forall pl pr l r n fused, pays (2 + dc 2) (@hfuse_red_red K V pl pr l r n fused) any.
Proof.
  intros pl pr l r n fused. unfold hfuse_red_red. destruct (hn_color n), fused; fill; fill; try exact I;
    (eapply pay_call; [apply drops|lia|]; intros _ _; exact I).
Qed.
Lemma fuse_bb_pays : forall pl pr l r n fused,
  pays (2 + rbl + dc 2) (@hfuse_black_black K V dbg pl pr l r n fused) any.
Proof.
  intros pl pr l r n fused. unfold hfuse_black_black. destruct (hn_color n), fused; fill; fill; try exact I;
    (eapply pay_call; [apply hremove_balance_left_pays|lia|]; intros n' _); try exact I;
    (eapply pay_call; [apply drops|lia|]; intros _ _; exact I).
Qed.

Notation fz := (4 + 2 * tm + rbl + dc 2).
Lemma hremove_fuse_pays : forall f n l r, pays (f * fz) (@hremove_fuse K V dbg f n l r) any.
Proof.
  induction f as [|f IH]; intros n l r; cbn [hremove_fuse]; [exact I|].
  destruct l as [a|], r as [b|]; try exact I;
    try (eapply pay_call; [apply hreplace_pays|lia|]; intros n' _; exact I).
  apply pay_see_node; [lia|]. intros ln. apply pay_see_node; [lia|]. intros rn.
  eapply pay_call with (R := any) (n1 := f * fz + 2 * tm + 2 + rbl + dc 2); [|lia|intros n' _; exact I].
  destruct (hn_color ln), (hn_color rn).
  - take. take. eapply pay_call; [apply IH|lia|]. intros [n' fu] _. eapply pays_le; [apply fuse_rr_pays|lia].
  - take. eapply pay_call; [apply IH|lia|]. intros [n' fu] _. fill. exact I.
  - take. eapply pay_call; [apply IH|lia|]. intros [n' fu] _. fill. exact I.
  - take. take. eapply pay_call; [apply IH|lia|]. intros [n' fu] _. eapply pays_le; [apply fuse_bb_pays|lia].
Qed.

Lemma hdel_pays : forall f g o k is_root,
  pays (f * (tm + 3 + rbl + dc 2) + g * fz) (@hdel K V Q dbg borrow qcmp f g o k is_root) any.
Proof.
  induction f as [|f IH]; intros g o k is_root; cbn [hdel]; [exact I|]. destruct o as [a|]; [|exact I].
  take. apply pay_see_entry; [lia|]. intros e.
  eapply pay_call with (R := any) (n1 := f * (tm + 3 + rbl + dc 2) + g * fz + 1 + rbl); [|lia|].
  - destruct (qcmp k (borrow (fst e))).
    + eapply pay_call; [apply hremove_fuse_pays|lia|]. intros [n' fu] _. exact I.
    + eapply pay_call; [apply hcolor_pays|lia|]. intros c _.
      eapply pay_call; [apply IH|lia|]. intros [l' rem] _. destruct c as [[]|]; try exact I.
      eapply pay_call; [apply hremove_balance_left_pays|lia|]. intros n' _. exact I.
    + eapply pay_call; [apply hcolor_pays|lia|]. intros c _.
      eapply pay_call; [apply IH|lia|]. intros [l' rem] _. destruct c as [[]|]; try exact I.
      eapply pay_call; [apply hremove_balance_right_pays|lia|]. intros n' _. exact I.
  - intros [[n' rem] none] _. fill. destruct none; [|exact I].
    eapply pay_call; [apply drops|lia|]. intros _ _. exact I.
Qed.

Lemma hget_mut_pays : forall f o k g,
  pays (f * (tm + 2) + tm + 1) (@hget_mut K V Q borrow qcmp f o k g) any.
Proof.
  induction f as [|f IH]; intros o k g; cbn [hget_mut]; [exact I|]. destruct o as [a|]; [|exact I].
  take. apply pay_see_entry; [lia|]. intros e. destruct (qcmp k (borrow (fst e))).
  - eapply pay_call; [apply mm3|lia|]. intros [pe [n|e']] _; [exact I|]. fill. fill. exact I.
  - eapply pay_call; [apply IH|lia|]. intros [l' x] _. fill. exact I.
  - eapply pay_call; [apply IH|lia|]. intros [l' x] _. fill. exact I.
Qed.

Lemma hget_pays : forall f o k, pays (f * 2) (@hget K V Q borrow qcmp f o k) any.
Proof.
  induction f as [|f IH]; intros o k; cbn [hget]; [exact I|]. destruct o as [a|]; [|exact I].
  apply pay_see_node; [lia|]. intros n. apply pay_see_entry; [lia|]. intros e.
  destruct (qcmp k (borrow (fst e))); try exact I; (eapply pays_le; [apply IH|lia]).
Qed.
Lemma hfirst_pays : forall f o, pays (f + 1) (@hfirst K V f o) any.
Proof.
  induction f as [|f IH]; intros o; cbn [hfirst]; [exact I|]. destruct o as [a|]; [|exact I].
  apply pay_see_node; [lia|]. intros n. destruct (hn_left n); [eapply pays_le; [apply IH|lia]|].
  apply pay_see_entry; [lia|]. intros e. exact I.
Qed.
Lemma hlast_pays : forall f o, pays (f + 1) (@hlast K V f o) any.
Proof.
  induction f as [|f IH]; intros o; cbn [hlast]; [exact I|]. destruct o as [a|]; [|exact I].
  apply pay_see_node; [lia|]. intros n. destruct (hn_right n); [eapply pays_le; [apply IH|lia]|].
  apply pay_see_entry; [lia|]. intros e. exact I.
Qed.

(** ** The calls, on a map of [n] entries with at most [L] levels *)
Notation L m := (hb_levels m).
Lemma insert_mut_pays : forall m k v,
  pays ((L m + 1) * (tm + 2 + bal) + 2 + 2 * credit + dc 1) (@hb_insert_mut K V kcmp m k v) any.
Proof.
  intros m k v. unfold hb_insert_mut. eapply pay_call; [apply hins_pays|lia|]. intros [r b] _. exact I.
Qed.
Lemma remove_mut_pays : forall m q,
  pays ((L m + 1) * (tm + 3 + rbl + dc 2) + (2 * L m + 1) * fz) (@hb_remove_mut K V Q dbg borrow qcmp m q) any.
Proof.
  intros m q. unfold hb_remove_mut. eapply pay_call; [apply hdel_pays|lia|]. intros [r b] _. exact I.
Qed.
Lemma get_mut_pays : forall m q g,
  pays ((L m + 1) * (tm + 2) + tm + 1) (@hb_get_mut K V Q borrow qcmp m q g) any.
Proof.
  intros m q g. unfold hb_get_mut. eapply pay_call; [apply hget_mut_pays|lia|]. intros [r b] _. exact I.
Qed.
Lemma get_pays : forall m q, pays (2 * (L m + 1)) (@hb_get K V Q borrow qcmp m q) any.
Proof. intros m q. eapply pays_le; [apply hget_pays|lia]. Qed.
Lemma hb_first_pays : forall m, pays (L m + 2) (@hb_first K V m) any.
Proof. intros m. eapply pays_le; [apply hfirst_pays|lia]. Qed.
Lemma hb_last_pays : forall m, pays (L m + 2) (@hb_last K V m) any.
Proof. intros m. eapply pays_le; [apply hlast_pays|lia]. Qed.
Lemma hb_clone_pays : forall m, pays 1 (@hb_clone K V m) (fun m' => m' = m).
Proof. intros m. unfold hb_clone. destruct (hb_root m); [apply pay_clone; [lia|]|]; reflexivity. Qed.
End RB.

Section Calls.
Context {K V Q : Type} (dbg : bool).
Context (kcmp : K -> K -> comparison) (borrow : K -> Q) (qcmp : Q -> Q -> comparison).
Notation C := (rcell K V).
Notation every := (fun _ : C => True).

(** On a map of [n] entries, which has at most [L] levels. *)
Definition rb_price (o : rb_call (K := K) (V := V) (Q := Q)) (n : nat) : nat :=
  let L := 2 * Nat.log2 (n + 1) in
  match o with
  | BOp (MInsert _ _) => 50 * (L + 1) + 15
  | BOp (MInsertMut _ _) => 50 * (L + 1) + 13
  | BOp (MRemove _) => 97 * (L + 1) + 110 * (2 * L + 1) + 4
  | BOp (MRemoveMut _) => 97 * (L + 1) + 110 * (2 * L + 1)
  | BOp (MGetMut _ _) => 14 * (L + 1) + 13
  | BOp (MGet _) | BOp (MGetKeyValue _) | BOp (MContains _) => 2 * (L + 1)
  | BOp MSize | BOp MIsEmpty => 0
  | BOp MClone => 2
  | BFirst | BLast => L + 2
  | BIter ds => Nat.min (15 * n) (length ds * (3 * L + 11))
  end.
Definition rb_direct (o : rb_call (K := K) (V := V) (Q := Q)) : bool :=
  match o with BOp (MInsert _ _) | BOp (MRemove _) | BOp MClone => false | _ => true end.
Definition rb_limit (o : rb_call (K := K) (V := V) (Q := Q)) (n : nat) : nat :=
  let L := 2 * Nat.log2 (n + 1) in
  match o with
  | BOp (MInsertMut _ _) => 68 * (L + 1) + 5
  | BOp (MRemoveMut _) => 144 * (L + 1) + 163 * (2 * L + 1)
  | BOp (MGetMut _ _) => 20 * (L + 1) + 19
  | BOp (MGet _) | BOp (MGetKeyValue _) | BOp (MContains _) => 2 * (L + 1)
  | BFirst | BLast => L + 2
  | BIter ds => Nat.min (15 * n) (length ds * (3 * L + 11))
  | _ => 0
  end.

Lemma b_drops : forall f a, pays 5 every 1 (drop_ptr (@rkids K V) f a) any.
Proof. apply pays_drop. intros c _. pose proof (rkids_few c I). lia. Qed.
Lemma b_drops_raw : forall f a, pays 0 every (raw 3 f) (drop_ptr (@rkids K V) f a) any.
Proof. apply pays_drop_raw. apply rkids_few. Qed.

Lemma b_drop : forall m, pays 5 every 1 (@hb_drop K V m) any.
Proof. intros m. unfold hb_drop, drop_opt. destruct (hb_root m); [apply b_drops|exact I]. Qed.

Definition no_iter (o : rb_call (K := K) (V := V) (Q := Q)) : Prop := match o with BIter _ => False | _ => True end.

Lemma hb_step_price : forall o m, no_iter o -> pays 5 every (rb_price o (hb_size m)) (hb_step dbg kcmp borrow qcmp o m) any.
Proof.
  intros o m NI.
  assert (E : 2 * Nat.log2 (hb_size m + 1) = hb_levels m) by reflexivity.
  destruct o as [[k v|k v|q|q|q f|q|q|q| | |]| | |ds]; unfold rb_price; cbn [hb_step]; rewrite ?E; try exact I;
    try contradiction.
  - unfold hb_insert. eapply pay_call with (R := any) (n1 := 50 * (hb_levels m + 1) + 15); [|lia|intros x _; exact I].
    eapply pay_call; [apply hb_clone_pays|lia|]. intros n ->.
    eapply pay_call; [apply (insert_mut_pays kcmp 5 (fun _ => 1) b_drops)|lia|]. intros n _.
    eapply pay_call; [apply b_drop|lia|]. intros _ _. exact I.
  - eapply pay_call; [apply (insert_mut_pays kcmp 5 (fun _ => 1) b_drops)|lia|]. intros n _. exact I.
  - unfold hb_remove. eapply pay_call with (R := any) (n1 := 97 * (hb_levels m + 1) + 110 * (2 * hb_levels m + 1) + 4);
      [|lia|intros x _; exact I].
    eapply pay_call; [apply hb_clone_pays|lia|]. intros n ->.
    eapply pay_call; [apply (remove_mut_pays dbg borrow qcmp 5 (fun _ => 1) b_drops)|lia|]. intros [n []] _.
    + eapply pay_call; [apply b_drop|lia|]. intros _ _. exact I.
    + eapply pay_call; [apply hb_clone_pays|lia|]. intros c _.
      eapply pay_call; [apply b_drop|lia|]. intros _ _. eapply pay_call; [apply b_drop|lia|]. intros _ _. exact I.
  - eapply pay_call; [apply (remove_mut_pays dbg borrow qcmp 5 (fun _ => 1) b_drops)|lia|]. intros [n b] _. exact I.
  - eapply pay_call; [apply (get_mut_pays borrow qcmp 5 (fun _ => 1) b_drops)|lia|]. intros [n b] _. exact I.
  - eapply pay_call; [apply get_pays|lia|]. intros x _. exact I.
  - eapply pay_call; [apply get_pays|lia|]. intros x _. exact I.
  - eapply pay_call; [apply get_pays|lia|]. intros x _. exact I.
  - eapply pay_call; [apply hb_clone_pays|lia|]. intros c _. eapply pay_call; [apply b_drop|lia|]. intros _ _. exact I.
  - eapply pay_call; [apply hb_first_pays|lia|]. intros x _. exact I.
  - eapply pay_call; [apply hb_last_pays|lia|]. intros x _. exact I.
Qed.

Lemma hb_step_limit : forall o m, no_iter o -> rb_direct o = true ->
  pays 0 every (rb_limit o (hb_size m)) (hb_step dbg kcmp borrow qcmp o m) any.
Proof.
  intros o m NI D.
  assert (E : 2 * Nat.log2 (hb_size m + 1) = hb_levels m) by reflexivity.
  destruct o as [[k v|k v|q|q|q f|q|q|q| | |]| | |ds]; try discriminate; unfold rb_limit; cbn [hb_step]; rewrite ?E;
    try exact I; try contradiction.
  - eapply pay_call; [apply (insert_mut_pays kcmp 0 (raw 3) b_drops_raw)|cbn [raw]; lia|]. intros n _. exact I.
  - eapply pay_call; [apply (remove_mut_pays dbg borrow qcmp 0 (raw 3) b_drops_raw)|cbn [raw]; lia|]. intros [n b] _. exact I.
  - eapply pay_call; [apply (get_mut_pays borrow qcmp 0 (raw 3) b_drops_raw)|cbn [raw]; lia|]. intros [n b] _. exact I.
  - eapply pay_call; [apply get_pays|lia|]. intros x _. exact I.
  - eapply pay_call; [apply get_pays|lia|]. intros x _. exact I.
  - eapply pay_call; [apply get_pays|lia|]. intros x _. exact I.
  - eapply pay_call; [apply hb_first_pays|lia|]. intros x _. exact I.
  - eapply pay_call; [apply hb_last_pays|lia|]. intros x _. exact I.
Qed.

Lemma rep_size : forall m (fm : fmap K V) G, hbrep kcmp m fm G -> hb_size m = length fm.
Proof.
  intros m fm G (w & (Hs & Hp & Hz & _) & E & _). now rewrite E, Hz.
Qed.

Hypothesis OL : ord_laws qcmp.
Hypothesis KB : borrow_agrees kcmp borrow qcmp.
Notation own := (@own C).
Notation tree := (tree K V).
Notation P := (prog C).
Notation spec := (rb_call_spec kcmp borrow qcmp).
Notation after o fm := (fun r (G' : list own) => snd r = snd (spec o fm) /\ hbrep kcmp (fst r) (fst (spec o fm)) G').

Lemma hb_iter_dear : forall cr ds m (fm : fmap K V) G, hbrep kcmp m fm G ->
  dear (@rkids K V) cr every (Nat.min (15 * length fm) (length ds * (3 * rb_levels (length fm) + 11)))
    (hb_step dbg kcmp borrow qcmp (BIter ds) m) G (after (BIter ds) fm).
Proof.
  intros cr ds m fm G R. cbn [hb_step]. rewrite <- (Nat.add_0_r (Nat.min _ _)).
  eapply looks_dear.
  - eapply looks_bind with (R := fun x => x = (m, BSteps (de_spec ds (by_key kcmp fm))));
      [apply (hb_iter_reads kcmp borrow qcmp OL KB ds m fm G R)|]. intros x ->. reflexivity.
  - intros x ->. cbn [rb_call_spec fst snd]. auto.
Qed.

Lemma hb_step_dear : forall o m (fm : fmap K V) G, hbrep kcmp m fm G ->
  dear (@rkids K V) 5 every (rb_price o (length fm)) (hb_step dbg kcmp borrow qcmp o m) G (after o fm).
Proof.
  intros o m fm G R. assert (E := rep_size _ _ _ R).
  assert (D : no_iter o \/ exists ds, o = BIter ds) by (destruct o; cbn; eauto).
  destruct D as [D|[ds ->]]; [|now apply hb_iter_dear].
  eapply safe_pays; [apply (hb_step_ok dbg kcmp borrow qcmp OL KB _ _ _ _ R)|].
  rewrite <- E. apply hb_step_price, D.
Qed.

Lemma hb_step_direct : forall o m (fm : fmap K V) G, hbrep kcmp m fm G -> rb_direct o = true ->
  dear (@rkids K V) 0 every (rb_limit o (length fm)) (hb_step dbg kcmp borrow qcmp o m) G (after o fm).
Proof.
  intros o m fm G R Di. assert (E := rep_size _ _ _ R).
  assert (D : no_iter o \/ exists ds, o = BIter ds) by (destruct o; cbn; eauto).
  destruct D as [D|[ds ->]]; [|now apply hb_iter_dear].
  eapply safe_pays; [apply (hb_step_ok dbg kcmp borrow qcmp OL KB _ _ _ _ R)|].
  rewrite <- E. now apply hb_step_limit.
Qed.
End Calls.
