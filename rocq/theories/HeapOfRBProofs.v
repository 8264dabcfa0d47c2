(** * RedBlackTreeMap whose values are collections: the proofs *)
From Coq Require Import List NArith Arith Lia Bool Permutation.
From Verif Require Import Base Spec SpecMap SpecOrd RBModel RBProofs RBHist RBIter RBExtra Prop_RB PermSolve HeapModel HeapProofs HeapSafe HeapShare HeapDrive
  HeapList HeapRB HeapRBProofs HeapRBMap HeapIn HeapInProofs HeapHost HeapHostProofs HeapOfVecProofs HeapOfMap HeapOfMapProofs HeapOfRB.
Import ListNotations.
Local Open Scope prog_scope.

Definition r_map {K Y Z} (f : Y -> Z) (c : rcell K Y) : rcell K Z :=
  match c with RN n => RN n | RE e => RE (kv_map f e) end.

Section Tr.
Context {K Q E V : Type}.
Variable dbg : bool.
Variable kcmp : K -> K -> comparison.
Variable borrow : K -> Q.
Variable qcmp : Q -> Q -> comparison.
Notation X := (E * V)%type.
Notation erase := (r_map (K := K) (@fst E V)).
Notation traces := (traces erase (@r_elem K X)).
Notation same := (@same E V).
Notation tr_drop := (tr_drop rkids erase (@r_elem K X) rkids).

Lemma r_kids_erase : forall b : rcell K X, rkids (erase b) = rkids b.
Proof using. now intros []. Qed.
Lemma r_elem_erase : forall b : rcell K X, r_elem (erase b) = option_map fst (r_elem b).
Proof using. now intros []. Qed.

Lemma tr_see_node : forall {A A'} (R : A' -> A -> list X -> Prop) fl a k' k,
  (forall n, traces R fl (k' n) (k n)) -> traces R fl (see_node a k') (see_node a k).
Proof using. intros A A' R fl a k' k H. apply tr_read. intros [n|e]; cbn; [apply H|apply tr_fail]. Qed.
Lemma tr_see_entry : forall {A A'} (R : A' -> A -> list X -> Prop) fl a k' k,
  (forall e, traces R fl (k' e) (k (kv_map fst e))) -> traces R fl (see_entry a k') (see_entry a k).
Proof using. intros A A' R fl a k' k H. apply tr_read. intros [n|e]; cbn; [apply tr_fail|apply H]. Qed.

Lemma r_take_mut : forall {A A'} (R : A' -> A -> list X -> Prop) fl o f' f,
  (forall x, traces R fl (f' x) (f x)) -> traces R fl (pbind (take_mut o) f') (pbind (take_mut o) f).
Proof using.
  intros A A' R fl o f' f H. apply tr_same; [|exact H]. destruct o as [a|]; cbn [take_mut]; [|apply tr_fail].
  apply tr_make_mut; [apply r_kids_erase| |].
  - intros a' [n|e] Hn; cbn; [now apply tr_ret|easy].
  - intros a' [n|e] Hn; cbn; easy.
Qed.

Lemma r_drop : forall {A A'} (R : A' -> A -> list X -> Prop) fl n a k' k,
  (forall u, traces R fl (k' u) (k u)) -> traces R fl (pbind (drop_ptr rkids n a) k') (pbind (drop_ptr rkids n a) k).
Proof using. intros A A' R fl n a k' k H. apply tr_same; [apply tr_drop, r_kids_erase|exact H]. Qed.

Ltac tr :=
  repeat first
    [ apply tr_ret; split; reflexivity
    | apply tr_fail
    | apply r_take_mut; intros [? ?]
    | apply r_drop; intros _
    | apply tr_see_node; intros ?
    | apply tr_fill; [reflexivity|reflexivity|]
    | match goal with |- traces _ _ (match ?x with _ => _ end) (match ?x with _ => _ end) => destruct x end ].

Lemma tr_hcolor : forall fl o, traces (same fl) fl (hcolor o) (hcolor o).
Proof using. intros fl [a|]; cbn [hcolor]; tr. Qed.
Lemma tr_then_left : forall fl o, traces (same fl) fl (hthen_left_color o) (hthen_left_color o).
Proof using. intros fl [a|]; cbn [hthen_left_color]; tr. apply tr_hcolor. Qed.
Lemma tr_then_right : forall fl o, traces (same fl) fl (hthen_right_color o) (hthen_right_color o).
Proof using. intros fl [a|]; cbn [hthen_right_color]; tr. apply tr_hcolor. Qed.

Lemma tr_bal1 : forall fl n, traces (same fl) fl (hbal1 n) (hbal1 n).
Proof using. intros fl n. unfold hbal1. tr. Qed.
Lemma tr_bal2 : forall fl n, traces (same fl) fl (hbal2 n) (hbal2 n).
Proof using. intros fl n. unfold hbal2. tr. Qed.
Lemma tr_bal3 : forall fl n, traces (same fl) fl (hbal3 n) (hbal3 n).
Proof using. intros fl n. unfold hbal3. tr. Qed.
Lemma tr_bal4 : forall fl n, traces (same fl) fl (hbal4 n) (hbal4 n).
Proof using. intros fl n. unfold hbal4. tr. Qed.

Ltac colors :=
  repeat (eapply tr_same; [first [apply tr_hcolor | apply tr_then_left | apply tr_then_right]|intros ?]).

Lemma tr_balance : forall fl n, traces (same fl) fl (hbalance n) (hbalance n).
Proof using.
  intros fl n. unfold hbalance. destruct (hn_color n); [tr|]. colors.
  repeat match goal with
  | |- traces _ _ (match ?x with _ => _ end) _ => destruct x
  end; first [apply tr_bal1 | apply tr_bal2 | apply tr_bal3 | apply tr_bal4 | tr].
Qed.

Lemma tr_hins : forall y fl f o k r, traces (same fl) (y :: fl) (hins kcmp f o k y r) (hins kcmp f o k (fst y) r).
Proof using.
  intros y fl f. induction f as [|f IH]; intros o k r; cbn [hins]; [apply tr_fail|]. destruct o as [a|].
  - apply r_take_mut. intros [p node]. apply tr_see_entry. intros e. cbn [kv_map fst].
    eapply (tr_bind _ _ (same fl)).
    + destruct (kcmp k (fst e)).
      * apply (tr_put _ _ _ y); trivial. intros e'. tr.
      * eapply tr_bind; [apply IH|]. intros [l' b] x fl1 (<- & ->).
        apply tr_same; [destruct b; [apply tr_balance|tr]|]. intros n. tr.
      * eapply tr_bind; [apply IH|]. intros [l' b] x fl1 (<- & ->).
        apply tr_same; [destruct b; [apply tr_balance|tr]|]. intros n. tr.
    + intros [n b] x fl1 (<- & ->). tr.
  - unfold hnew_node. cbn [pbind]. apply (tr_put _ _ _ y); trivial. intros p. apply tr_new; trivial. intros a'. tr.
Qed.

Lemma tr_remove_balance : forall fl n, traces (same fl) fl (hremove_balance dbg n) (hremove_balance dbg n).
Proof using.
  intros fl n. unfold hremove_balance. colors.
  repeat match goal with
  | |- traces _ _ (match ?x with _ => _ end) _ => destruct x
  end; first [apply tr_balance | solve [tr]].
Qed.
Lemma tr_remove_balance_left : forall fl n, traces (same fl) fl (hremove_balance_left dbg n) (hremove_balance_left dbg n).
Proof using.
  intros fl n. unfold hremove_balance_left. colors.
  repeat match goal with
  | |- traces _ _ (match ?x with _ => _ end) _ => destruct x
  end; tr; try apply tr_remove_balance.
  all: apply tr_same; [apply tr_remove_balance|]; intros m; tr.
Qed.
Lemma tr_remove_balance_right : forall fl n, traces (same fl) fl (hremove_balance_right dbg n) (hremove_balance_right dbg n).
Proof using.
  intros fl n. unfold hremove_balance_right. colors.
  repeat match goal with
  | |- traces _ _ (match ?x with _ => _ end) _ => destruct x
  end; tr; try apply tr_remove_balance.
  all: apply tr_same; [apply tr_remove_balance|]; intros m; tr.
Qed.
Lemma tr_replace : forall fl n o, traces (same fl) fl (hreplace n o) (hreplace n o).
Proof using. intros fl n o. unfold hreplace. tr. Qed.
Lemma tr_fuse_red : forall fl pl pr l r n b, traces (same fl) fl (hfuse_red_red pl pr l r n b) (hfuse_red_red pl pr l r n b).
Proof using. intros. unfold hfuse_red_red. destruct (hn_color n), b; tr. Qed.
Lemma tr_fuse_black : forall fl pl pr l r n b,
  traces (same fl) fl (hfuse_black_black dbg pl pr l r n b) (hfuse_black_black dbg pl pr l r n b).
Proof using.
  intros. unfold hfuse_black_black. destruct (hn_color n), b; tr; (apply tr_same; [apply tr_remove_balance_left|]; intros m; tr).
Qed.

Lemma tr_remove_fuse : forall fl f n lo ro, traces (same fl) fl (hremove_fuse dbg f n lo ro) (hremove_fuse dbg f n lo ro).
Proof using.
  intros fl f. induction f as [|f IH]; intros n lo ro; cbn [hremove_fuse]; [apply tr_fail|].
  destruct lo as [a|], ro as [b|].
  - apply tr_see_node. intros ln. apply tr_see_node. intros rn. apply tr_same; [|intros m; tr].
    destruct (hn_color ln), (hn_color rn).
    + apply r_take_mut; intros [pr r]. apply r_take_mut; intros [pl l]. apply tr_same; [apply IH|]. intros [m fu]. apply tr_fuse_red.
    + apply r_take_mut; intros [pl l]. apply tr_same; [apply IH|]. intros [m fu]. tr.
    + apply r_take_mut; intros [pr r]. apply tr_same; [apply IH|]. intros [m fu]. tr.
    + apply r_take_mut; intros [pr r]. apply r_take_mut; intros [pl l]. apply tr_same; [apply IH|]. intros [m fu]. apply tr_fuse_black.
  - apply tr_same; [apply tr_replace|]. intros m. tr.
  - apply tr_same; [apply tr_replace|]. intros m. tr.
  - tr.
Qed.

Lemma tr_hdel : forall fl f g o k r, traces (same fl) fl (hdel dbg borrow qcmp f g o k r) (hdel dbg borrow qcmp f g o k r).
Proof using.
  intros fl f. induction f as [|f IH]; intros g o k r; cbn [hdel]; [apply tr_fail|]. destruct o as [a|]; [|tr].
  apply r_take_mut. intros [p node]. apply tr_see_entry. intros e. cbn [kv_map fst].
  apply tr_same; [|intros [[n rem] none]; tr].
  destruct (qcmp k (borrow (fst e))).
  - apply tr_same; [apply tr_remove_fuse|]. intros [m fu]. tr.
  - apply tr_same; [apply tr_hcolor|]. intros c. apply tr_same; [apply IH|]. intros [l' rem].
    apply tr_same; [|intros m; tr]. destruct c as [[|]|]; [tr|apply tr_remove_balance_left|tr].
  - apply tr_same; [apply tr_hcolor|]. intros c. apply tr_same; [apply IH|]. intros [l' rem].
    apply tr_same; [|intros m; tr]. destruct c as [[|]|]; [tr|apply tr_remove_balance_right|tr].
Qed.

Definition ents (fl0 : list X) (x' : option (K * X)) (x : option (K * E)) (fl : list X) : Prop :=
  x = option_map (kv_map fst) x' /\ fl = fl0.

Lemma tr_hget : forall fl f o q, traces (ents fl) fl (hget borrow qcmp f o q) (hget borrow qcmp f o q).
Proof using.
  intros fl f. induction f as [|f IH]; intros o q; cbn [hget]; [apply tr_fail|]. destruct o as [a|]; [|tr].
  apply tr_see_node. intros n. apply tr_see_entry. intros e. cbn [kv_map fst].
  destruct (qcmp q (borrow (fst e))); [tr|apply IH|apply IH].
Qed.
Lemma tr_hfirst : forall fl f o, traces (ents fl) fl (hfirst f o) (hfirst f o).
Proof using.
  intros fl f. induction f as [|f IH]; intros o; cbn [hfirst]; [apply tr_fail|]. destruct o as [a|]; [|tr].
  apply tr_see_node. intros n. destruct (hn_left n); [apply IH|]. apply tr_see_entry. intros e. tr.
Qed.
Lemma tr_hlast : forall fl f o, traces (ents fl) fl (hlast f o) (hlast f o).
Proof using.
  intros fl f. induction f as [|f IH]; intros o; cbn [hlast]; [apply tr_fail|]. destruct o as [a|]; [|tr].
  apply tr_see_node. intros n. destruct (hn_right n); [apply IH|]. apply tr_see_entry. intros e. tr.
Qed.

(** The iterators only read. *)
Lemma tr_current : forall fl s, traces (same fl) fl (hsk_current s) (hsk_current s).
Proof using. intros fl s. unfold hsk_current. destruct (hsk_stack s); tr. Qed.
Lemma tr_above : forall fl (sb : bound K) e, traces (same fl) fl (habove (fun k => k) kcmp sb e) (habove (fun k => k) kcmp sb e).
Proof using. intros fl sb e. unfold habove. destruct sb; [| |tr]; apply tr_see_entry; intros x; cbn [kv_map fst]; tr. Qed.
Lemma tr_below : forall fl (sb : bound K) e, traces (same fl) fl (hbelow (fun k => k) kcmp sb e) (hbelow (fun k => k) kcmp sb e).
Proof using. intros fl sb e. unfold hbelow. destruct sb; [| |tr]; apply tr_see_entry; intros x; cbn [kv_map fst]; tr. Qed.
Lemma tr_clear : forall fl (sb eb : bound K) s,
  traces (same fl) fl (hsk_clear_if_finished (fun k => k) kcmp sb eb s) (hsk_clear_if_finished (fun k => k) kcmp sb eb s).
Proof using.
  intros fl sb eb s. unfold hsk_clear_if_finished. apply tr_same; [apply tr_current|]. intros [e|]; [|tr].
  apply tr_same; [destruct (hsk_backwards s); [apply tr_above|apply tr_below]|]. intros b. tr.
Qed.
Lemma tr_dig : forall fl f bw st, traces (same fl) fl (hsk_dig f bw st) (hsk_dig f bw st).
Proof using.
  intros fl f. induction f as [|f IH]; intros bw st; cbn [hsk_dig]; [apply tr_fail|]. destruct st as [|a st]; [tr|].
  apply tr_see_node. intros n. destruct (if bw then hn_right n else hn_left n); [apply IH|tr].
Qed.
Lemma tr_dig_towards : forall fl f bw (sb eb : bound K) a st,
  traces (same fl) fl (hsk_dig_towards (fun k => k) kcmp f bw sb eb a st) (hsk_dig_towards (fun k => k) kcmp f bw sb eb a st).
Proof using.
  intros fl f. induction f as [|f IH]; intros bw sb eb a st; cbn [hsk_dig_towards]; [apply tr_fail|].
  apply tr_see_node. intros n. apply tr_same; [destruct bw; [apply tr_below|apply tr_above]|]. intros b.
  match goal with |- traces _ _ (match ?x with _ => _ end) _ => destruct x end; [apply IH|tr].
Qed.
Lemma tr_sk_new : forall fl m (sb eb : bound K) bw,
  traces (same fl) fl (hsk_new (fun k => k) kcmp m sb eb bw) (hsk_new (fun k => k) kcmp m sb eb bw).
Proof using.
  intros fl m sb eb bw. unfold hsk_new. apply tr_same; [destruct (hb_root m); [apply tr_dig_towards|tr]|]. intros s. apply tr_clear.
Qed.
Lemma tr_sk_advance : forall fl f (sb eb : bound K) s,
  traces (same fl) fl (hsk_advance (fun k => k) kcmp f sb eb s) (hsk_advance (fun k => k) kcmp f sb eb s).
Proof using.
  intros fl f sb eb s. unfold hsk_advance. destruct (hsk_stack s) as [|a st]; [tr|]. apply tr_see_node. intros n.
  apply tr_same; [|intros s'; apply tr_clear]. destruct (if hsk_backwards s then hn_left n else hn_right n); [apply tr_dig|tr].
Qed.
Lemma tr_ri_next : forall fl bw (i : hriter K),
  traces (same fl) fl (hri_next kcmp (fun k => k) kcmp bw i) (hri_next kcmp (fun k => k) kcmp bw i).
Proof using.
  intros fl bw i. unfold hri_next. apply tr_same.
  - unfold hri_init. destruct bw; [destruct (hri_bwd i)|destruct (hri_fwd i)]; try solve [tr].
    all: apply tr_same; [apply tr_sk_new|]; intros s; tr.
  - clear i. intros i. apply tr_same.
    + unfold hri_current. apply tr_same.
      * unfold hri_is_empty. destruct (hri_fwd i), (hri_bwd i); try solve [tr].
        apply tr_same; [apply tr_current|]. intros [a|]; (apply tr_same; [apply tr_current|]; intros [b|]; [|solve [tr]]); [|solve [tr]].
        apply tr_see_entry. intros x. apply tr_see_entry. intros y. cbn [kv_map fst]. apply tr_ret. split; reflexivity.
      * intros b. destruct b; [tr|]. apply tr_lift. intros s. apply tr_current.
    + intros c. apply tr_same; [|intros j; tr]. unfold hri_advance. apply tr_lift. intros s.
      apply tr_same; [apply tr_sk_advance|]. intros s'. tr.
Qed.

Definition nexts (fl0 : list X) (x' : option (K * X) * hbiter (K := K)) (x : option (K * E) * hbiter (K := K)) (fl : list X) : Prop :=
  x = (option_map (kv_map fst) (fst x'), snd x') /\ fl = fl0.
Lemma tr_bi_next : forall fl bw (i : hbiter (K := K)), traces (nexts fl) fl (hbi_next kcmp bw i) (hbi_next kcmp bw i).
Proof using.
  intros fl bw i. unfold hbi_next, deliver. apply tr_same.
  - unfold hbi_next_ptr. destruct (Nat.ltb 0 (hbi_size i)); [|tr]. apply tr_lift. intros sz.
    apply tr_same; [apply tr_ri_next|]. intros [o r]. tr.
  - intros [[e|] j]; [apply tr_see_entry; intros x|]; tr.
Qed.

Definition steps (fl0 : list X) (x' : list (nat * option (K * X))) (x : list (nat * option (K * E))) (fl : list X) : Prop :=
  x = map (fun r => (fst r, option_map (kv_map fst) (snd r))) x' /\ fl = fl0.
Lemma tr_b_iter : forall fl ds m, traces (steps fl) fl (hb_iter kcmp m ds) (hb_iter kcmp m ds).
Proof using.
  intros fl ds m. unfold hb_iter. generalize (hbi_new (K := K) m) as it.
  induction ds as [|d ds IH]; intros it; cbn [pruns2]; [now apply tr_ret|]. apply tr_lift. intros h.
  eapply (tr_bind _ _ (nexts fl)); [destruct d; apply tr_bi_next|].
  intros [o it'] x fl1 (-> & ->). cbn [fst snd]. eapply tr_bind; [apply IH|].
  intros r' r fl1 (-> & ->). now apply tr_ret.
Qed.

(** The map *)
Lemma tr_b_insert : forall y fl m k, traces (same fl) (y :: fl) (hb_insert_mut kcmp m k y) (hb_insert_mut kcmp m k (fst y)).
Proof using. intros y fl m k. unfold hb_insert_mut. eapply tr_bind; [apply tr_hins|]. intros [r b] x fl1 (<- & ->). tr. Qed.
Lemma tr_b_remove : forall fl m q, traces (same fl) fl (hb_remove_mut dbg borrow qcmp m q) (hb_remove_mut dbg borrow qcmp m q).
Proof using. intros fl m q. unfold hb_remove_mut. apply tr_same; [apply tr_hdel|]. intros [r b]. tr. Qed.
Lemma tr_b_clone : forall fl m, traces (same fl) fl (hb_clone m) (hb_clone m).
Proof using. intros fl m. unfold hb_clone. destruct (hb_root m); cbn [clone_opt]; [apply tr_clone|]; tr. Qed.
Lemma tr_b_drop : forall fl m, traces (same fl) fl (hb_drop m) (hb_drop m).
Proof using. intros fl m. unfold hb_drop. destruct (hb_root m); cbn [drop_opt]; [apply tr_drop, r_kids_erase|tr]. Qed.

Definition res_map {Y Z} (f : Y -> Z) (r : rb_result (K := K) (V := Y)) : rb_result (K := K) (V := Z) :=
  match r with
  | BObs o => BObs (mobs_map f o)
  | BSteps l => BSteps (map (fun r => (fst r, option_map (kv_map f) (snd r))) l)
  end.
Definition call_map {Y Z} (f : Y -> Z) (o : rb_call (K := K) (V := Y) (Q := Q)) : rb_call (K := K) (V := Z) (Q := Q) :=
  match o with BOp o => BOp (mop_map f o) | BFirst => BFirst | BLast => BLast | BIter ds => BIter ds end.
Definition call_args {Y} (o : rb_call (K := K) (V := Y) (Q := Q)) : list Y := match o with BOp o => mop_args o | _ => [] end.
Definition call_no_gm {Y} (o : rb_call (K := K) (V := Y) (Q := Q)) : Prop := match o with BOp o => no_gm o | _ => True end.

Lemma tr_b_step : forall o m, call_no_gm o ->
  traces (fun x' x _ => x = (fst x', res_map fst (snd x'))) (call_args o)
    (hb_step dbg kcmp borrow qcmp o m) (hb_step dbg kcmp borrow qcmp (call_map fst o) m).
Proof using.
  intros o m Ho. destruct o as [[k v|k v|q|q|q f|q|q|q| | |]| | |ds]; cbn [hb_step call_args call_map mop_args mop_map]; try now apply tr_ret; try easy.
  - unfold hb_insert. eapply (tr_bind _ _ (same [])); [|intros m1' m1 fl1 (-> & _); now apply tr_ret].
    apply tr_same; [apply tr_b_clone|]. intros n. eapply tr_bind; [apply tr_b_insert|]. intros n1' n1 fl1 (-> & ->).
    apply tr_same; [apply tr_b_drop|]. intros _. now apply tr_ret.
  - eapply tr_bind; [apply tr_b_insert|]. intros n1' n1 fl1 (-> & ->). now apply tr_ret.
  - apply tr_same; [|intros m1; now apply tr_ret]. unfold hb_remove.
    apply tr_same; [apply tr_b_clone|]. intros n. apply tr_same; [apply tr_b_remove|]. intros [n1 b]. destruct b.
    + apply tr_same; [apply tr_b_drop|]. intros _. tr.
    + apply tr_same; [apply tr_b_clone|]. intros c. apply tr_same; [apply tr_b_drop|]. intros _.
      apply tr_same; [apply tr_b_drop|]. intros _. tr.
  - apply tr_same; [apply tr_b_remove|]. intros [n1 b]. now apply tr_ret.
  - destruct Ho.
  - eapply tr_bind; [apply tr_hget|]. intros x' x fl1 (-> & ->). apply tr_ret. now destruct x'.
  - eapply tr_bind; [apply tr_hget|]. intros x' x fl1 (-> & ->). now apply tr_ret.
  - eapply tr_bind; [apply tr_hget|]. intros x' x fl1 (-> & ->). apply tr_ret. now destruct x'.
  - apply tr_same; [apply tr_b_clone|]. intros c. apply tr_same; [apply tr_b_drop|]. intros _. now apply tr_ret.
  - eapply tr_bind; [apply tr_hfirst|]. intros x' x fl1 (-> & ->). now apply tr_ret.
  - eapply tr_bind; [apply tr_hlast|]. intros x' x fl1 (-> & ->). now apply tr_ret.
  - eapply tr_bind; [apply tr_b_iter|]. intros x' x fl1 (-> & ->). now apply tr_ret.
Qed.

Lemma tr_rb_step : forall o m, no_gm o ->
  traces (fun x' x _ => x = (fst x', mobs_map fst (snd x'))) (mop_args o)
    (rb_step dbg kcmp borrow qcmp o m) (rb_step dbg kcmp borrow qcmp (mop_map fst o) m).
Proof using.
  intros o m Ho. unfold rb_step. eapply tr_bind; [exact (tr_b_step (BOp o) m Ho)|].
  intros [m1 r] x fl1 ->. cbn [fst snd]. destruct r; cbn [res_map]; [now apply tr_ret|apply tr_fail].
Qed.
End Tr.

Lemma put_by_key_mv : forall {K Y Z} (kcmp : K -> K -> comparison) (f : Y -> Z) e l,
  put_by_key kcmp (kv_map f e) (mv f l) = mv f (put_by_key kcmp e l).
Proof.
  intros K Y Z kcmp f e l. unfold mv. induction l as [|x l IH]; cbn; [trivial|].
  destruct (kcmp (fst e) (fst x)); cbn; now rewrite ?IH.
Qed.
Lemma by_key_mv : forall {K Y Z} (kcmp : K -> K -> comparison) (f : Y -> Z) l, by_key kcmp (mv f l) = mv f (by_key kcmp l).
Proof.
  intros K Y Z kcmp f l. unfold by_key. induction l as [|x l IH]; [trivial|].
  change (mv f (x :: l)) with (kv_map f x :: mv f l). cbn [fold_right]. rewrite IH. apply put_by_key_mv.
Qed.

Section RBOf.
Context {K Q : Type}.
Variable dbg : bool.
Variable kcmp : K -> K -> comparison.
Variable borrow : K -> Q.
Variable qcmp : Q -> Q -> comparison.
Hypothesis OL : ord_laws qcmp.
Hypothesis KB : borrow_agrees kcmp borrow qcmp.
Context {C E V Op Out : Type} (I : impl C E Op Out) (S : spec V Op Out).
Context (rep : E -> V -> list (@own C) -> Prop) (ncost : nat) (cost : Op -> V -> nat).
Hypothesis by_I : implements_by I S rep ncost cost.
Notation X := (E * V)%type.
Notation B := (rcell K E).
Notation B' := (rcell K X).
Notation D := (dcell B C).
Notation erase := (r_map (K := K) (@fst E V)).
Notation elem := (@r_elem K E).
Notation elem' := (@r_elem K X).
Notation kids := (dkids I elem rkids).
Notation safe := (safe kids).
Notation exts := (Forall2 (exto rep erase elem')).
Notation loose := (loose (B := B) rep).
Notation msafe := (msafe I rep elem rkids erase elem').
Notation vrun := (vrun S).
Notation irun_cost := (irun_cost S cost).
Notation hbrep := (hbrep (V := X) kcmp).
Notation found := (fm_find borrow (eq_of qcmp)).
Notation TNode := (RBModel.Tree).

Lemma r_elem_bkids : forall (b : B) e, elem b = Some e -> rkids b = [].
Proof using. now intros []. Qed.
Lemma r_elem_kids : forall (b : B') y, elem' b = Some y -> rkids b = [].
Proof using. now intros []. Qed.

Notation mcalls := (mcalls I S rep ncost cost by_I elem rkids erase elem' rkids r_elem_erase r_kids_erase r_elem_kids).
Notation calls_ok := (calls_ok I S rep ncost cost by_I elem rkids erase elem' rkids r_elem_erase r_kids_erase r_elem_kids).
Notation mseq := (mseq I rep elem rkids erase elem').
Notation mfill := (mfill I rep elem rkids erase elem' rkids r_elem_erase r_kids_erase).

(** *** [get_mut] *)
Lemma wtake_ok : forall a n ts,
  msafe 1 (wtake_mut I (Some a)) [Tree (PT a (RN n) ts)]
    (fun r G => exists a', r = (a', n) /\ G = Held a' :: map Tree ts).
Proof.
  intros a n ts. unfold wtake_mut.
  eapply (mseq _ _ 1 0 _ _ [Tree (PT a (RN n) ts)] []); [|rewrite app_nil_r; apply Permutation_refl| |lia].
  - unfold node_mut.
    apply (mcalls (fun x' x => x = (fst x', erase (snd x')))
      (let* (a', b) := make_mut rkids a in match elem' b with None => Ret (a', b) | Some _ => Fail end) _ 1 _
      (fun r G => exists a', r = (a', RN n) /\ G = Held a' :: map Tree ts)).
    + apply tr_make_mut; [apply r_kids_erase| |].
      * intros a' b Hn. rewrite r_elem_erase, Hn. now apply tr_ret.
      * intros a' b Hn. now destruct (elem' b).
    + eapply (safe_seq rkids _ _ 1 0 _ _ [Tree (PT a (RN n) ts)] []); [apply safe_make_mut|perm| |lia].
      intros r G (a' & -> & ->). cbn [r_elem]. apply safe_ret. rewrite app_nil_r. eauto.
  - cbn beta. intros r G (r' & -> & (a' & -> & ->)). cbn [fst snd r_map]. apply mret. rewrite app_nil_r. eauto.
Qed.

Lemma wkey_ok : forall a (e : K * X),
  msafe 0 (calls I elem (see_entry a (fun e => Ret (fst e))) []) [Tree (PT a (RE e) [])]
    (fun k G => k = fst e /\ G = [Tree (PT a (RE e) [])]).
Proof.
  intros a e.
  eapply mmono; [apply le_n| |apply (mcalls eq (see_entry a (fun e => Ret (fst e))) _ 0 _
    (fun k G => k = fst e /\ G = [Tree (PT a (RE e) [])]))].
  - cbn beta. intros k G (k' & <- & H). exact H.
  - apply tr_see_entry. intros x. now apply tr_ret.
  - unfold see_entry. cbn [HeapSafe.safe]. exists (RE e), []. split; [apply lent_in; now left|]. intros _.
    eexists. split; [apply Permutation_refl|]. auto.
Qed.

Ltac mseq n1 n2 G1 F tac := eapply (mseq _ _ n1 n2 _ _ G1 F); [tac|perm| |lia].

Notation at_ l o := (option_map (fun kv : K * X => snd (snd kv)) o) (only parsing).

Lemma wbn_get_mut_ok : forall f t q l o ts, hgt t < f -> topt t o ts ->
  opt_may S l (option_map (fun kv : K * X => snd (snd kv)) (t_get borrow qcmp t q)) ->
  msafe (1 + hgt t + opt_cost S cost l (option_map (fun kv => snd (snd kv)) (t_get borrow qcmp t q)))
    (wbn_get_mut borrow qcmp I f o q l) (map Tree ts)
    (fun r G => snd r = option_map (fun kv => snd (vrun l (snd (snd kv)))) (t_get borrow qcmp t q) /\
       exists g, (forall kv, t_get borrow qcmp t q = Some kv -> snd (g (snd kv)) = fst (vrun l (snd (snd kv)))) /\
         tpost (fst (t_get_mut borrow qcmp t q g)) (fst r) G).
Proof.
  induction f as [|f IH]; intros t q l o ts Hf H M; [lia|].
  destruct t as [|e c lt rt].
  - inversion H; subst. cbn [wbn_get_mut]. apply mret. cbn. split; [reflexivity|]. exists (fun y => y).
    split; [discriminate|]. exists []. split; [constructor|reflexivity].
  - inversion H as [|a ? ? ? ? te ol tl or tr HE Hl Hr]; subst. cbn [wbn_get_mut t_get t_get_mut hgt] in *.
    destruct HE as [ae e]. cbn [pa] in *.
    set (n := mkHN ae c ol or).
    mseq 1 (1 + Nat.max (hgt lt) (hgt rt) + opt_cost S cost l (option_map (fun kv => snd (snd kv))
        match qcmp q (borrow (fst e)) with Lt => t_get borrow qcmp lt q | Eq => Some e | Gt => t_get borrow qcmp rt q end))
      [Tree (PT a (RN (K := K) (V := X) n) (PT ae (RE e) [] :: tl ++ tr))] (@nil (@own B')) ltac:(apply wtake_ok).
    intros r G (p & -> & ->). cbn [map]. rewrite app_nil_r, map_app.
    eapply (mseq _ _ 0 (1 + Nat.max (hgt lt) (hgt rt) + _) _ _ [Tree (PT ae (RE e) [])] (Held p :: map Tree tl ++ map Tree tr));
      [apply wkey_ok|cbn [app]; perm| |apply le_n].
    intros k G (-> & ->). cbn [app].
    destruct (qcmp q (borrow (fst e))) eqn:Ec.
    + cbn [option_map opt_may opt_cost] in *. destruct e as [k [v x]]. cbn [fst snd] in *.
      mseq (1 + irun_cost l x) 0 [Tree (PT ae (RE (k, (v, x))) [])] (Held (C := B') p :: map Tree tl ++ map Tree tr)
        ltac:(apply (update_ok I S rep ncost cost by_I elem rkids erase elem' r_elem_erase r_elem_bkids r_put r_put
              ltac:(now intros []) ltac:(now intros []) l ae (RE (k, (v, x))) v x eq_refl M)).
      intros [a' xs] G (Exs & e' & ->). cbn [fst snd r_put app] in *. subst xs.
      set (te := PT a' (RE (k, (e', fst (vrun l x)))) []).
      apply (mfill p (RN (hset_entry n a')) (te :: tl ++ tr) _ []); trivial.
      * cbn [map app]. rewrite map_app, app_nil_r. perm.
      * exact (node_kids te c lt ol tl rt or tr Hl Hr).
      * apply mret. cbn [fst snd]. split; [reflexivity|]. exists (fun _ => (e', fst (vrun l x))). split; [intros kv Ek; now injection Ek as <-|].
        exists [PT p (RN (hset_entry n a')) (te :: tl ++ tr)]. split; [|reflexivity].
        apply (to_node p (k, (e', fst (vrun l x))) c lt rt te ol tl or tr); trivial. constructor.
    + mseq (1 + hgt lt + opt_cost S cost l (option_map (fun kv => snd (snd kv)) (t_get borrow qcmp lt q))) 0
        (map Tree tl) (Held p :: Tree (PT ae (RE e) []) :: map Tree tr) ltac:(apply (IH lt); [lia|exact Hl|exact M]).
      intros [o1 xs] G (Exs & g & Hg & tl1 & Hl1 & ->). cbn [fst snd] in *. subst xs.
      destruct (t_get_mut borrow qcmp lt q g) as [l1 x1] eqn:Eg. cbn [fst] in *.
      set (te := PT ae (RE e) []) in *.
      apply (mfill p (RN (hset_left n o1)) (te :: tl1 ++ tr) _ []); trivial.
      * cbn [map app]. rewrite map_app, app_nil_r. perm.
      * exact (node_kids te c l1 o1 tl1 rt or tr Hl1 Hr).
      * apply mret. cbn [fst snd]. split; [reflexivity|]. exists g. split; [exact Hg|]. rewrite Eg. cbn [fst].
        exists [PT p (RN (hset_left n o1)) (te :: tl1 ++ tr)]. split; [|reflexivity].
        apply (to_node p e c l1 rt te o1 tl1 or tr); trivial. constructor.
    + mseq (1 + hgt rt + opt_cost S cost l (option_map (fun kv => snd (snd kv)) (t_get borrow qcmp rt q))) 0
        (map Tree tr) (Held p :: Tree (PT ae (RE e) []) :: map Tree tl) ltac:(apply (IH rt); [lia|exact Hr|exact M]).
      intros [o1 xs] G (Exs & g & Hg & tr1 & Hr1 & ->). cbn [fst snd] in *. subst xs.
      destruct (t_get_mut borrow qcmp rt q g) as [r1 x1] eqn:Eg. cbn [fst] in *.
      set (te := PT ae (RE e) []) in *.
      apply (mfill p (RN (hset_right n o1)) (te :: tl ++ tr1) _ []); trivial.
      * cbn [map app]. rewrite map_app, app_nil_r. perm.
      * exact (node_kids te c lt ol tl r1 o1 tr1 Hl Hr1).
      * apply mret. cbn [fst snd]. split; [reflexivity|]. exists g. split; [exact Hg|]. rewrite Eg. cbn [fst].
        exists [PT p (RN (hset_right n o1)) (te :: tl ++ tr1)]. split; [|reflexivity].
        apply (to_node p e c lt r1 te ol tl o1 tr1); trivial. constructor.
Qed.

Definition r_ic (k : K) (ks : list K) : nat := 3 * rb_levels (length ks) + 2.
Definition r_rc (q : Q) (ks : list K) : nat := 14 * rb_levels (length ks).
Definition r_gc (q : Q) (ks : list K) : nat := rb_levels (length ks) + 1.

Lemma wb_get_mut_ok : forall q l m s G, hbrep m s G -> opt_may S l (option_map (fun kv => snd (snd kv)) (found q s)) ->
  msafe (r_gc q (map fst s) + opt_cost S cost l (option_map (fun kv => snd (snd kv)) (found q s))) (wb_get_mut borrow qcmp I m q l) G
    (fun r G' => snd r = option_map (fun kv => snd (vrun l (snd (snd kv)))) (found q s) /\
       exists g, (forall kv, found q s = Some kv -> snd (g (snd kv)) = fst (vrun l (snd (snd kv)))) /\
         hbrep (fst r) (fm_modify borrow (eq_of qcmp) q g s) G').
Proof.
  intros q l m s G (w & R & Hz & ts & T & ->) M. unfold wb_get_mut, r_gc. rewrite map_length.
  destruct (rep_levels kcmp _ _ R) as [L1 L2]. specialize (L2 _ Hz).
  rewrite <- (rb_get_ok kcmp borrow qcmp OL KB w s q R) in *.
  mseq (1 + hgt (rb_root w) + opt_cost S cost l (option_map (fun kv => snd (snd kv)) (t_get borrow qcmp (rb_root w) q))) 0 (map (@Tree B') ts) (@nil (@own B'))
    ltac:(apply (wbn_get_mut_ok _ (rb_root w)); [lia|exact T|exact M]).
  intros [o xs] G (Exs & g & Hg & Tp). cbn [fst snd] in *. subst xs. apply mret. cbn [fst snd]. rewrite app_nil_r.
  split; [reflexivity|]. exists g. split; [exact Hg|].
  destruct (rb_get_mut_ok kcmp borrow qcmp OL KB w s q g R) as (w' & E1 & R').
  unfold rb_get_mut in E1. destruct (t_get_mut borrow qcmp (rb_root w) q g) as [t x]. injection E1 as <- _.
  eexists. split; [exact R'|]. cbn [rb_size rb_root hb_size hb_root fst] in *. split; [congruence|exact Tp].
Qed.

(** *** The values are where the references point. *)
Lemma topt_held : forall (t : tree K X) o ts kv, topt t o ts -> In kv (elems t) -> exists a u, In u ts /\ sub (PT a (RE kv) []) u.
Proof using.
  intros t o ts kv H. induction H as [|a e c l r te ol tl or tr HE Hl IHl Hr IHr]; intros Hi; [easy|].
  cbn [elems] in Hi. apply in_app_iff in Hi as [Hi|[<-|Hi]].
  - destruct (IHl Hi) as (a' & u & Hu & Su). eexists a', _. split; [now left|].
    econstructor; [right; apply in_app_iff; left; exact Hu|exact Su].
  - destruct HE as [ae e]. eexists ae, _. split; [now left|]. econstructor; [now left|constructor].
  - destruct (IHr Hi) as (a' & u & Hu & Su). eexists a', _. split; [now left|].
    econstructor; [right; apply in_app_iff; right; exact Hu|exact Su].
Qed.

Lemma r_all_held : forall m s G (kv : K * X), hbrep m s G -> In kv s -> holds elem' (snd kv) G.
Proof using.
  intros m s G kv (w & R & Hz & ts & T & ->) Hi.
  assert (Hi' : In kv (elems (rb_root w))) by (eapply Permutation_in; [apply Permutation_sym, R|exact Hi]).
  destruct (topt_held _ _ _ _ T Hi') as (a & u & Hu & Su). exists a, (RE kv). split; [reflexivity|].
  exists u. split; [now apply in_map|exact Su].
Qed.

Lemma r_only_one : forall m s G q (kv : K * X), hbrep m s G -> In kv s -> eq_of qcmp (borrow (fst kv)) q = true -> found q s = Some kv.
Proof.
  intros m s G q kv (w & R & _) Hi Hq. eapply find_only; [apply (kl_of kcmp borrow qcmp OL KB)|exact (rep_unique kcmp borrow qcmp OL KB _ _ R)|exact Hi|exact Hq].
Qed.

Lemma rb_step_safe : forall o m s G, hbrep m s G ->
  HeapSafe.safe rkids (mc r_ic r_rc r_gc o (map fst s)) (rb_step dbg kcmp borrow qcmp o m) G
    (fun r G' => snd r = snd (map_spec (eq_of kcmp) borrow (eq_of qcmp) o s) /\
       hbrep (fst r) (fst (map_spec (eq_of kcmp) borrow (eq_of qcmp) o s)) G').
Proof.
  intros o m s G R. unfold rb_step.
  eapply (safe_seq rkids _ _ (mc r_ic r_rc r_gc o (map fst s)) 0 _ _ G []); [|rewrite app_nil_r; apply Permutation_refl| |lia].
  - eapply safe_mono; [| |exact (hb_step_ok dbg kcmp borrow qcmp OL KB (BOp o) m s G R)].
    + destruct o; cbn [rb_cost mc]; unfold r_ic, r_rc, r_gc; rewrite ?map_length; lia.
    + intros r G' H. exact H.
  - intros [m1 r1] G' (E1 & R1). cbn [fst snd rb_call_spec] in *. subst r1. apply safe_ret. rewrite app_nil_r. auto.
Qed.

(** *** Every call *)
Definition wbrep : hrb -> fmap K V -> list (@own D) -> Prop := wmrep rep erase elem' hbrep.

Definition wb_cost (o : nbop K Q Op) (s : fmap K V) : nat :=
  match o with
  | NBMap o => wm_cost S ncost cost borrow (eq_of qcmp) r_ic r_rc r_gc o s
  | NBFirst l => opt_cost S cost l (option_map snd (hd_error (by_key kcmp s)))
  | NBLast l => opt_cost S cost l (option_map snd (last_error (by_key kcmp s)))
  | NBIter ds l => sum_cost S cost l (map (fun r => option_map snd (snd r)) (de_spec ds (by_key kcmp s)))
  end.

Notation seq n1 n2 G1 F := (safe_seq kids _ _ n1 n2 _ _ G1 F).
Ltac ap := rewrite app_nil_r; apply Permutation_refl.

Lemma call_ok : forall o m l G0 G, call_no_gm o -> call_args o = [] -> hbrep m l G0 -> exts G0 G ->
  safe (rb_cost o l) (calls I elem (hb_step dbg kcmp borrow qcmp (call_map fst o) m) []) G
    (fun r G' => exists G1, snd r = res_map fst (snd (rb_call_spec kcmp borrow qcmp o l)) /\
       hbrep (fst r) (fst (rb_call_spec kcmp borrow qcmp o l)) G1 /\ exts G1 G').
Proof.
  intros o m l G0 G Ho Ha R Ex.
  pose proof (calls_ok _ _ _ _ _ _ _ _ [] (tr_b_step dbg kcmp borrow qcmp o m Ho) (hb_step_ok dbg kcmp borrow qcmp OL KB o m l G0 R) Ex) as H.
  rewrite Ha, app_nil_r in H. eapply safe_mono; [apply le_n| |apply H; constructor].
  cbn beta. intros r G' (r' & G1 & -> & (E1 & R1) & Ex1). exists G1. cbn [fst snd]. now rewrite E1.
Qed.

Lemma entry_ok : forall p m l G0 G (o : option (K * X)), hbrep m l G0 -> exts G0 G -> (forall kv, o = Some kv -> In kv l) ->
  opt_may S p (option_map (fun kv => snd (snd kv)) o) ->
  safe (opt_cost S cost p (option_map (fun kv => snd (snd kv)) o)) (wb_entry I m p (option_map (kv_map fst) o)) G
    (fun r G' => snd r = NMEntry (option_map (fun kv => (fst kv, snd (vrun p (snd (snd kv))))) o) /\ wbrep (fst r) (mv snd l) G').
Proof.
  intros p m l G0 G o R Ex Hi M. unfold wb_entry.
  eapply (seq _ 0 G []).
  - pose proof (peek_ok I S rep ncost cost by_I elem rkids erase elem' p (option_map snd o) G0 G) as H.
    replace (option_map fst (option_map snd o)) with (option_map snd (option_map (kv_map fst) o)) in H by now destruct o.
    apply H; trivial.
    + intros y Ey. destruct o as [kv|]; [|easy]. injection Ey as <-. eapply r_all_held; [exact R|now apply Hi].
    + now destruct o.
  - ap.
  - intros r G' (-> & ->). rewrite app_nil_r. destruct o as [[k y]|]; cbn [option_map kv_map fst snd];
      apply safe_ret; cbn [fst snd]; (split; [reflexivity|]); exists l, G0; auto.
  - destruct o; cbn; lia.
Qed.

Lemma wb_step_ok : forall o m s G, wbrep m s G -> wb_pre S kcmp borrow qcmp o s ->
  safe (wb_cost o s) (wb_step dbg kcmp borrow qcmp I o m) G
    (fun r G' => snd r = snd (wb_val S kcmp borrow qcmp o s) /\ wbrep (fst r) (fst (wb_val S kcmp borrow qcmp o s)) G').
Proof.
  intros o m s G R M. destruct o as [o|p|p|ds p]; cbn [wb_step wb_val wb_cost wb_pre fst snd] in *.
  - exact (wm_step_ok I S rep ncost cost by_I elem rkids erase elem' rkids r_elem_erase r_kids_erase r_elem_kids
      (eq_of kcmp) borrow (eq_of qcmp) (rb_step dbg kcmp borrow qcmp) (wb_get_mut borrow qcmp I) (rb_step dbg kcmp borrow qcmp)
      hbrep r_ic r_rc r_gc (tr_rb_step dbg kcmp borrow qcmp) rb_step_safe wb_get_mut_ok r_all_held r_only_one o m s G R M).
  - destruct R as (l & G0 & R & Ex & ->). rewrite by_key_mv in *. unfold mv in M |- *. rewrite hd_error_map in *.
    eapply (seq 0 _ G []); [exact (call_ok BFirst m l G0 G Logic.I eq_refl R Ex)|ap| |apply le_n].
    cbn beta. intros [m1 o1] G' (G1 & E1 & R1 & Ex1). cbn [fst snd rb_call_spec res_map mobs_map] in *. subst o1. rewrite app_nil_r.
    replace (option_map snd (option_map (kv_map snd) (hd_error (by_key kcmp l)))) with
      (option_map (fun kv => snd (snd kv)) (hd_error (by_key kcmp l))) in * by now destruct (hd_error (by_key kcmp l)).
    eapply safe_mono; [apply le_n| |apply (entry_ok p m1 l G1 G' (hd_error (by_key kcmp l)) R1 Ex1); [|exact M]].
    + intros r G2 (-> & R2). split; [|exact R2]. now destruct (hd_error (by_key kcmp l)).
    + intros kv Hk. eapply Permutation_in; [apply (by_key_perm kcmp)|]. now apply hd_error_in.
  - destruct R as (l & G0 & R & Ex & ->). rewrite by_key_mv in *. unfold mv in M |- *. rewrite last_error_map in *.
    eapply (seq 0 _ G []); [exact (call_ok BLast m l G0 G Logic.I eq_refl R Ex)|ap| |apply le_n].
    cbn beta. intros [m1 o1] G' (G1 & E1 & R1 & Ex1). cbn [fst snd rb_call_spec res_map mobs_map] in *. subst o1. rewrite app_nil_r.
    replace (option_map snd (option_map (kv_map snd) (last_error (by_key kcmp l)))) with
      (option_map (fun kv => snd (snd kv)) (last_error (by_key kcmp l))) in * by now destruct (last_error (by_key kcmp l)).
    eapply safe_mono; [apply le_n| |apply (entry_ok p m1 l G1 G' (last_error (by_key kcmp l)) R1 Ex1); [|exact M]].
    + intros r G2 (-> & R2). split; [|exact R2]. now destruct (last_error (by_key kcmp l)).
    + intros kv Hk. eapply Permutation_in; [apply (by_key_perm kcmp)|]. now apply last_error_in.
  - destruct R as (l & G0 & R & Ex & ->). rewrite by_key_mv. unfold mv at 1 2. rewrite de_spec_map.
    set (os := de_spec ds (by_key kcmp l)).
    assert (Hos : forall n kv, In (n, Some kv) os -> In kv l).
    { intros n kv Hi. eapply Permutation_in; [apply (by_key_perm kcmp)|]. eapply de_spec_in, Hi. }
    eapply (seq 0 _ G []); [exact (call_ok (BIter ds) m l G0 G Logic.I eq_refl R Ex)|ap| |apply le_n].
    cbn beta. intros [m1 o1] G' (G1 & E1 & R1 & Ex1). cbn [fst snd rb_call_spec res_map mobs_map] in *. subst o1. rewrite app_nil_r.
    fold os. set (ys := map (fun r : nat * option (K * X) => (fst r, option_map fst (snd r), option_map snd (snd r))) os).
    eapply (seq _ 0 G' []).
    + pose proof (peeks_ok I S rep ncost cost by_I elem rkids erase elem' p ys G1 G') as H.
      replace (map (fun x => (fst x, option_map fst (snd x), option_map snd (snd x)))
         (map (fun r => (fst r, option_map (kv_map fst) (snd r))) os)) with
        (map (fun r => (fst r, option_map fst (snd r))) ys); [apply H|].
      * intros n y Hi. unfold ys in Hi. apply in_map_iff in Hi as ([n0 [kv|]] & Hy & Hi); cbn in Hy; [|discriminate].
        injection Hy as _ <-. eapply r_all_held; [exact R1|]. eapply Hos, Hi.
      * exact Ex1.
      * intros n y Hi. unfold ys in Hi. apply in_map_iff in Hi as ([n0 [kv|]] & Hy & Hi); cbn in Hy; [|discriminate].
        injection Hy as _ <-. unfold mv in M. rewrite Forall_map, Forall_forall in M. apply (M kv). eapply Hos, Hi.
      * unfold ys. rewrite !map_map. apply map_ext. now intros [n [[k [e x]]|]].
    + ap.
    + intros r G2 (-> & ->). rewrite app_nil_r. apply safe_ret. cbn [fst snd]. split; [|exists l, G1; auto].
      f_equal. unfold ys. rewrite !map_map. apply map_ext. now intros [n [[k [e x]]|]].
    + rewrite Nat.add_0_r. unfold ys. rewrite !map_map. apply Nat.eq_le_incl. f_equal. apply map_ext. now intros [n [[k [e x]]|]].
Qed.

Lemma wb_roots : forall m s G, wbrep m s G -> exists ts, G = map Tree ts /\ opt_list (hb_root m) = map pa ts.
Proof using.
  intros m s G (l & G0 & (w & _ & _ & ts & T & ->) & Ex & _).
  destruct (trees_exts rep erase elem' _ _ Ex) as (ts' & -> & F). exists ts'. split; [reflexivity|].
  rewrite (topt_kids _ _ _ T). exact (exts_pas rep erase elem' _ _ F).
Qed.

Theorem rb_map_of_by : implements_by (rb_map_of dbg kcmp borrow qcmp I) (rb_map_of_spec S kcmp borrow qcmp) wbrep 0 wb_cost.
Proof.
  constructor.
  - cbn [i_kids i_new rb_map_of s_new rb_map_of_spec]. unfold calls, hb_new. cbn [host pbind drop_left].
    apply safe_ret. exists [], []. splits; [|constructor|reflexivity].
    exists (@rb_new K X). split; [apply rb_new_ok|]. split; [reflexivity|]. exists []. split; [constructor|reflexivity].
  - intros m s G R. destruct (wb_roots _ _ _ R) as (ts & -> & Er). cbn [i_kids i_clone rb_map_of].
    unfold calls, hb_clone. destruct (hb_root m) as [a|] eqn:Em; cbn [opt_list] in Er.
    + destruct ts as [|[a' c us] [|]]; try discriminate. injection Er as ->. cbn [clone_opt host pbind drop_left].
      cbn [HeapSafe.safe map pa]. exists c, us. split; [apply lent_in; now left|]. eexists. split; [apply Permutation_refl|].
      exists [Tree (PT a' c us)]. split; [reflexivity|exact R].
    + destruct ts; [|discriminate]. cbn [clone_opt host pbind drop_left map]. apply safe_ret. exists []. split; [reflexivity|exact R].
  - intros m. cbn [i_clone rb_map_of]. unfold calls, hb_clone. destruct (hb_root m); cbn [clone_opt host pbind drop_left]; repeat constructor.
  - intros m s G (l & G0 & R & Ex & _). cbn [i_kids i_drop rb_map_of].
    eapply safe_mono; [apply le_n| |apply (mcalls (fun _ _ => True) _ _ 0 G0 _ (tr_mono _ _ _ _ _ _ _ (tr_b_drop [] m) (fun _ _ _ _ => Logic.I)) (hb_drop_ok kcmp m l G0 R) G Ex)].
    cbn beta. intros x G' (G1 & (x' & _ & ->) & Ex1). now inversion Ex1.
  - intros o m s G R H. exact (wb_step_ok o m s G R H).
  - intros m s G R. exact (wb_roots m s G R).
Qed.
End RBOf.

Theorem rb_map_of_ok : forall {K Q C E V Op Out} (I : impl C E Op Out) (S : spec V Op Out) dbg
  (kcmp : K -> K -> comparison) (borrow : K -> Q) qcmp, ord_laws qcmp -> borrow_agrees kcmp borrow qcmp -> implements I S ->
  implements (rb_map_of dbg kcmp borrow qcmp I) (rb_map_of_spec S kcmp borrow qcmp).
Proof.
  intros K Q C E V Op Out I S dbg kcmp borrow qcmp OL KB (rep & ncost & cost & H).
  do 3 eexists. exact (rb_map_of_by dbg kcmp borrow qcmp OL KB I S rep ncost cost H).
Qed.
