(** * How deep calls of drop glue nest in a HashTrieMap of one thread (for C48)

    As HeapDepth.v; a collision bucket is a list, whose [Drop] is a loop. *)
From Coq Require Import List NArith Arith Lia Bool Permutation.
From Verif Require Import Base Spec SpecMap ListModel SparseModel HashModel HeapModel HeapProofs HeapSafe HeapClient HeapWorld
  HeapList HeapVec HeapHash HeapHashIter HeapSet HeapDepth.
Import ListNotations.
Local Open Scope prog_scope.

(** [flat], and what is returned satisfies [Q]. *)
Definition flatq {C A} (d : nat) (p : prog C A) (Q : A -> Prop) : Prop := forall cur mx h h' x cur' mx',
  depth_run cur mx h p = Some (h', x, cur', mx') -> (cur' = cur /\ mx' <= Nat.max mx (cur + d)) /\ Q x.

Section Post.
Context {C : Type}.
Lemma flatq_flat : forall A d (p : prog C A) Q, flatq d p Q -> flat d p.
Proof. intros A d p Q F cur mx h h' x cur' mx' E. now destruct (F _ _ _ _ _ _ _ E). Qed.
Lemma flatq_true : forall A d (p : prog C A), flat d p -> flatq d p (fun _ => True).
Proof. intros A d p F cur mx h h' x cur' mx' E. split; [now destruct (F _ _ _ _ _ _ _ E)|exact I]. Qed.
Lemma flatq_bind : forall A B d (p : prog C A) (f : A -> prog C B) P Q,
  flatq d p P -> (forall x, P x -> flatq d (f x) Q) -> flatq d (pbind p f) Q.
Proof.
  intros A B d p f P Q Fp Ff cur mx h h' x cur' mx' E. rewrite depth_run_bind in E.
  destruct (depth_run cur mx h p) as [[[[h1 y] cur1] mx1]|] eqn:E1; [|discriminate].
  destruct (Fp _ _ _ _ _ _ _ E1) as [[-> L1] Py]. destruct (Ff _ Py _ _ _ _ _ _ _ E) as [[-> L2] Qx]. repeat split; trivial; lia.
Qed.
Lemma flatq_seq : forall A B d (p : prog C A) (f : A -> prog C B) Q,
  flat d p -> (forall x, flatq d (f x) Q) -> flatq d (pbind p f) Q.
Proof. intros A B d p f Q Fp Ff. eapply flatq_bind; [apply flatq_true; exact Fp|]. auto. Qed.
Lemma flatq_ret : forall A d (x : A) (Q : A -> Prop), Q x -> flatq d (@Ret C A x) Q.
Proof. intros A d x Q H cur mx h h' y cur' mx' E. injection E as <- <- <- <-. repeat split; trivial; lia. Qed.
Lemma flatq_fail : forall A d (Q : A -> Prop), flatq d (@Fail C A) Q.
Proof. intros A d Q cur mx h h' y cur' mx' E. discriminate. Qed.
Lemma flatq_new : forall A d c (k : addr -> prog C A) Q, (forall a, flatq d (k a) Q) -> flatq d (New c k) Q.
Proof. intros A d c k Q F cur mx h h' y cur' mx' E. eapply F. exact E. Qed.
Lemma flatq_clone : forall A d a (k : prog C A) Q, flatq d k Q -> flatq d (Clone a k) Q.
Proof.
  intros A d a k Q F cur mx h h' y cur' mx' E. cbn in E. destruct (get h a) as [[n c|]|]; try discriminate. eapply F. exact E.
Qed.
Lemma flatq_fill : forall A d a c (k : prog C A) Q, flatq d k Q -> flatq d (Fill a c k) Q.
Proof.
  intros A d a c k Q F cur mx h h' y cur' mx' E. cbn in E. destruct (get h a) as [[n c'|]|]; try discriminate. eapply F. exact E.
Qed.
Lemma flatq_lift : forall A d (r : res A) (Q : A -> Prop), (forall x, r = Ok x -> Q x) -> flatq d (@lift C A r) Q.
Proof. intros A d [x| |] Q H; cbn [lift]; [apply flatq_ret; auto|apply flatq_fail|apply flatq_fail]. Qed.

Lemma flatq_client : forall Coll Op Out d (inv : Coll -> Prop) (hnew : prog C Coll) hclone hdrop
    (hop : Op -> Coll -> prog C (Coll * Out)),
  flatq d hnew inv -> (forall c, inv c -> flatq d (hclone c) inv) -> (forall c, inv c -> flat d (hdrop c)) ->
  (forall o c, inv c -> flatq d (hop o c) (fun r => inv (fst r))) ->
  forall l rs, Forall (fun r => match r with Some c => inv c | None => True end) rs ->
  flat d (hclient hnew hclone hdrop hop l rs).
Proof.
  intros Coll Op Out d inv hnew hclone hdrop hop Fn Fc Fd Fo.
  assert (Up : forall rs i r, Forall (fun r => match r with Some c => inv c | None => True end) rs ->
    match r with Some c => inv c | None => True end -> Forall (fun r => match r with Some c => inv c | None => True end) (upd rs i r)).
  { intros rs i r F. revert i. induction F; intros [|i] Hr; cbn; constructor; auto. }
  assert (G : forall l rs, Forall (fun r => match r with Some c => inv c | None => True end) rs ->
     flatq d (hclient hnew hclone hdrop hop l rs) (fun _ => True)).
  2:{ intros l rs F. eapply flatq_flat, G, F. }
  assert (Nth : forall rs i c, Forall (fun r => match r with Some c => inv c | None => True end) rs ->
     nth_error rs i = Some (Some c) -> inv c).
  { intros rs i c F E. apply nth_error_In in E. rewrite Forall_forall in F. exact (F _ E). }
  induction l as [|[|i|i o|i] l IH]; intros rs F; cbn [hclient]; [now apply flatq_ret| | | |].
  - eapply flatq_bind; [exact Fn|]. intros c Hc. apply IH. apply Forall_app. split; [exact F|]. now constructor.
  - destruct (nth_error rs i) as [[c|]|] eqn:E; auto. pose proof (Nth _ _ _ F E) as Hc.
    eapply flatq_bind; [exact (Fc c Hc)|]. intros c' Hc'. apply IH. apply Forall_app. split; [exact F|]. now constructor.
  - destruct (nth_error rs i) as [[c|]|] eqn:E; auto. pose proof (Nth _ _ _ F E) as Hc.
    eapply flatq_bind; [exact (Fo o c Hc)|]. intros [c' x] Hc'. eapply flatq_bind; [apply IH, Up; trivial|]. intros [rs' xs] _. now apply flatq_ret.
  - destruct (nth_error rs i) as [[c|]|] eqn:E; auto. pose proof (Nth _ _ _ F E) as Hc.
    apply flatq_seq; [exact (Fd c Hc)|]. intros _. apply IH, Up; trivial.
Qed.
End Post.

Section HT.
Variable ubits : N.
Variable dbg : bool.
Context {K V Q : Type}.
Variable keq : K -> K -> bool.
Variable borrow : K -> Q.
Variable qeq : Q -> Q -> bool.
Variable hash : K -> N.
Variable qhash : Q -> N.
Variable fuel : nat.

Lemma flat_lift : forall A d (r : res A), flat d (@lift (tcell K V) A r).
Proof. intros A d [x| |]; cbn [lift]; [apply flat_ret|apply flat_fail|apply flat_fail]. Qed.

Lemma flat_tl_loop : forall f fd head, flat 2 (hl_drop_loop (@tkids K V) t_isN 2 f fd head).
Proof.
  induction f as [|f IH]; intros fd [a|]; cbn [hl_drop_loop]; flat_tac.
  apply flat_unwrap. intros c. flat_tac. apply IH.
Qed.
Lemma flat_tl_drop : forall l, flat 2 (@tl_drop K V l).
Proof. intros l. unfold tl_drop, hl_drop, drop_opt. apply flat_bind; [apply flat_tl_loop|]. intros _. flat_tac. Qed.
Lemma flat_tdrop : forall f a, flat (f + 2) (@tdrop K V f a).
Proof.
  induction f as [|f IH]; intros a; cbn [tdrop]; [apply flat_fail|]. apply flat_dec. intros [c|]; [|apply flat_ret].
  cbn [Nat.add]. apply flat_scope. unfold tglue. destruct c; try apply flat_fail.
  - apply flat_each. exact IH.
  - flat_tac.
  - eapply flat_le; [|apply flat_tl_drop]. lia.
Qed.
Lemma flat_tmake_mut : forall a, flat 4 (@tmake_mut K V a).
Proof.
  intros a. unfold tmake_mut. apply flat_take. intros [c|]; [apply flat_ret|]. apply flat_read. intros c.
  induction (tkids c) as [|b l IH]; cbn [clone_all]; [|now apply flat_clone].
  apply flat_reserve. intros a'. apply flat_bind; [apply (flat_tdrop 2)|]. intros _. apply flat_ret.
Qed.

Lemma flat_tl_push : forall e l, flat 4 (@tl_push K V e l).
Proof. intros. unfold tl_push, hl_push, hl_push_ptr, drop_opt. flat_tac. Qed.
Lemma flat_tl_first : forall l, flat 4 (@tl_first K V l).
Proof. intros. unfold tl_first, hl_first, read_node, read_elem. flat_tac. Qed.
Lemma flat_tl_drop_first : forall l, flat 4 (@tl_drop_first K V l).
Proof. intros. unfold tl_drop_first, hl_drop_first, read_node, clone_opt, drop_opt. flat_tac. Qed.
Lemma flat_tmatches : forall s h e, flat 4 (@tmatches K V s h e).
Proof. intros. unfold tmatches, read_entry. flat_tac. Qed.

Ltac known1 := first
  [ apply flat_lift | apply flat_tmake_mut | apply flat_tl_push | apply flat_tl_first | apply flat_tl_drop_first | apply flat_tmatches
  | eapply flat_le; [|apply flat_tl_drop]; lia | eapply flat_le; [|apply (flat_tdrop 1)]; lia ].
Ltac known2 := fail.
Ltac fl := repeat first
  [ known1 | known2 | match goal with H : _ |- _ => apply H end | progress cbn beta iota zeta
  | eapply flat_le; [|apply flat_drop]; lia | eapply flat_le; [|apply flat_make_mut]; lia
  | match goal with
    | |- flat _ (Ret _) => apply flat_ret
    | |- flat _ Fail => apply flat_fail
    | |- flat _ (New _ _) => apply flat_new; intros ?
    | |- flat _ (Clone _ _) => apply flat_clone
    | |- flat _ (Read _ _) => apply flat_read; intros ?
    | |- flat _ (Fill _ _ _) => apply flat_fill
    | |- flat _ (pbind _ _) => apply flat_bind; [|intros ?]
    | |- flat _ (match ?x with _ => _ end) => destruct x
    end ].

Lemma flat_tlrf : forall p, (forall e, flat 4 (p e)) -> forall f b r, flat 4 (@tlrf_loop K V f p b r).
Proof.
  intros p F. induction f as [|f IH]; intros b r; cbn [tlrf_loop]; [apply flat_fail|]. fl.
Qed.
Lemma flat_tpush_back : forall b l, flat 4 (@tpush_back K V b l).
Proof. induction b as [|e b IH]; intros l; cbn [tpush_back]; fl. Qed.
Lemma flat_trf : forall l p, (forall e, flat 4 (p e)) -> flat 4 (@tlist_remove_first K V l p).
Proof.
  intros l p F. unfold tlist_remove_first. apply flat_bind; [now apply flat_tlrf|]. intros [[r b] o].
  apply flat_bind; [apply flat_tpush_back|]. intros l'. apply flat_ret.
Qed.
Ltac known2 ::= apply flat_trf; [assumption].
Lemma flat_tfind_loop : forall p, (forall e, flat 4 (p e)) -> forall r c, flat 4 (@tfind_loop K V p r c).
Proof.
  intros p F. induction r as [|r IH]; intros [a|]; cbn [tfind_loop]; unfold read_node, read_elem; fl.
Qed.
Lemma flat_tb_find : forall p c, (forall e, flat 4 (p e)) -> flat 4 (@tb_find K V p c).
Proof. intros p c F. unfold tb_find. fl. now apply flat_tfind_loop. Qed.
Lemma flat_tb_get_mut : forall p g c, (forall e, flat 4 (p e)) -> flat 4 (@tb_get_mut K V p g c).
Proof. intros p g c F. unfold tb_get_mut. fl. Qed.
Lemma flat_tb_insert : forall p e c, (forall e, flat 4 (p e)) -> flat 4 (@tb_insert K V p e c).
Proof. intros p e c F. unfold tb_insert, drop_removed. fl. Qed.
Lemma flat_tb_remove : forall p c, (forall e, flat 4 (p e)) -> flat 4 (@tb_remove K V p c).
Proof. intros p c F. unfold tb_remove, drop_removed. fl. Qed.

Ltac known2 ::= first [ apply flat_tb_find; intros; apply flat_tmatches | apply flat_tb_get_mut; intros; apply flat_tmatches | apply flat_tb_insert; intros; apply flat_tmatches | apply flat_tb_remove; intros; apply flat_tmatches ].
Lemma flat_tn_get : forall f q h c d g, flat 4 (tn_get ubits dbg borrow qeq f q h c d g : prog (tcell K V) _).
Proof.
  induction f as [|f IH]; intros q h c d g; cbn [tn_get]; [apply flat_fail|].
  destruct c; try (apply flat_tb_find; intros; apply flat_tmatches). fl.
Qed.
Lemma flat_tn_get_mut : forall f q h w c d g, flat 4 (tn_get_mut ubits dbg borrow qeq f q h w c d g : prog (tcell K V) _).
Proof.
  induction f as [|f IH]; intros q h w c d g; cbn [tn_get_mut]; [apply flat_fail|].
  destruct c; try (apply flat_tb_get_mut; intros; apply flat_tmatches). fl.
Qed.
Lemma flat_tn_insert : forall f k e c d g, flat 4 (tn_insert ubits dbg keq f k e c d g : prog (tcell K V) _).
Proof.
  induction f as [|f IH]; intros k e c d g; cbn [tn_insert]; [apply flat_fail|].
  unfold read_entry.
  destruct c; fl; try (apply flat_tb_find; intros; apply flat_tmatches); try (apply flat_tb_insert; intros; apply flat_tmatches); apply IH.
Qed.
Lemma flat_compress : forall c, flat 4 (@tn_compress K V c).
Proof. intros c. unfold tn_compress. fl. Qed.
Lemma flat_tn_remove : forall f q h c d g, flat 4 (tn_remove ubits dbg borrow qeq f q h c d g : prog (tcell K V) _).
Proof.
  induction f as [|f IH]; intros q h c d g; cbn [tn_remove]; [apply flat_fail|]. unfold tn_is_empty.
  destruct c; fl; try apply flat_compress; try apply IH; try (apply flat_tb_remove; intros; apply flat_tmatches);
    unfold tglue; fl.
Qed.

(** ** The map *)
Variable degree : N.
Definition ht_depth : nat := Nat.max 4 (3 + N.to_nat ((64 + N.log2 degree - 1) / N.log2 degree)).
Definition ht_inv (m : hht) : Prop := hh_degree m = degree.

Lemma flat4 : forall A (p : prog (tcell K V) A), flat 4 p -> flat ht_depth p.
Proof. intros A p F. eapply flat_le; [|exact F]. unfold ht_depth. lia. Qed.
Lemma flat_hh_drop : forall m, ht_inv m -> flat ht_depth (@hh_drop K V m).
Proof.
  intros m E. unfold hh_drop, hh_levels. rewrite E. eapply flat_le; [|apply flat_tdrop]. unfold ht_depth. lia.
Qed.
Lemma flatq_hh_clone : forall m, ht_inv m -> flatq ht_depth (@hh_clone K V m) ht_inv.
Proof. intros m E. apply flatq_clone. now apply flatq_ret. Qed.
Lemma flatq_hh_new : flatq ht_depth (@hh_new ubits K V degree) ht_inv.
Proof.
  unfold hh_new. eapply flatq_bind.
  - apply flatq_lift. intros m E. exact E.
  - intros m E. apply flatq_new. intros a. apply flatq_ret. unfold ht_inv. cbn [hh_degree]. unfold hm_new_with_degree in E. unfold bind in E.
    repeat match type of E with context [if ?b then _ else _] => destruct b; try discriminate E end. now injection E as <-.
Qed.
Lemma flatq_hh_insert_mut : forall m k (v : V), ht_inv m -> flatq ht_depth (hh_insert_mut ubits dbg keq hash fuel m k v) ht_inv.
Proof.
  intros m k v E. unfold hh_insert_mut. apply flatq_new. intros p. apply flatq_seq; [apply flat4, flat_tmake_mut|]. intros [r c].
  apply flatq_seq; [apply flat4, flat_tn_insert|]. intros [c' b]. now apply flatq_fill, flatq_ret.
Qed.
Lemma flatq_hh_insert : forall m k (v : V), ht_inv m -> flatq ht_depth (hh_insert ubits dbg keq hash fuel m k v) ht_inv.
Proof. intros m k v E. eapply flatq_bind; [now apply flatq_hh_clone|]. intros n En. now apply flatq_hh_insert_mut. Qed.
Lemma flatq_hh_remove_mut : forall m q, ht_inv m ->
  flatq ht_depth (hh_remove_mut ubits dbg borrow qeq qhash fuel m q : prog (tcell K V) _) (fun r => ht_inv (fst r)).
Proof.
  intros m q E. unfold hh_remove_mut. apply flatq_seq; [apply flat4, flat_tmake_mut|]. intros [r c].
  apply flatq_seq; [apply flat4, flat_tn_remove|]. intros [c' [|]]; apply flatq_fill; [|now apply flatq_ret].
  apply flatq_seq; [apply flat_lift|]. intros s. now apply flatq_ret.
Qed.
Lemma flatq_hh_remove : forall m q, ht_inv m ->
  flatq ht_depth (hh_remove ubits dbg borrow qeq qhash fuel m q : prog (tcell K V) _) ht_inv.
Proof.
  intros m q E. unfold hh_remove. eapply flatq_bind; [now apply flatq_hh_clone|]. intros n En.
  eapply flatq_bind; [now apply flatq_hh_remove_mut|]. intros [n' [|]] En'; [now apply flatq_ret|].
  eapply flatq_bind; [apply flatq_hh_clone; exact E|]. intros c Ec. apply flatq_seq; [now apply flat_hh_drop|]. intros _. now apply flatq_ret.
Qed.
Lemma flatq_hh_get_mut : forall m q g, ht_inv m ->
  flatq ht_depth (hh_get_mut ubits dbg borrow qeq qhash fuel m q g : prog (tcell K V) _) (fun r => ht_inv (fst r)).
Proof.
  intros m q g E. unfold hh_get_mut. apply flatq_seq; [apply flat4, flat_tmake_mut|]. intros [r c].
  apply flatq_seq; [apply flat4, flat_tn_get_mut|]. intros [c' x]. now apply flatq_fill, flatq_ret.
Qed.
Lemma flat_hh_get : forall m q, flat ht_depth (hh_get ubits dbg borrow qeq qhash fuel m q : prog (tcell K V) _).
Proof.
  intros m q. unfold hh_get. apply flat_read. intros c. apply flat_bind; [apply flat4, flat_tn_get|]. intros o. unfold read_entry. flat_tac.
Qed.

Lemma flatq_hh_step : forall o m, ht_inv m ->
  flatq ht_depth (hh_step ubits dbg keq borrow qeq hash qhash fuel o m : prog (tcell K V) _) (fun r => ht_inv (fst r)).
Proof.
  intros o m E.
  assert (G : forall q (f : option (K * V) -> ht_result K V),
    flatq ht_depth (let* o := hh_get ubits dbg borrow qeq qhash fuel m q in Ret (m, f o)) (fun r => ht_inv (fst r))).
  { intros q f. apply flatq_seq; [apply flat_hh_get|]. intros x. now apply flatq_ret. }
  destruct o as [[k v|k v|q|q|q g|q|q|q| | |]|k|p]; cbn [hh_step]; try apply (G _ (fun o => TObs _)); try (now apply flatq_ret).
  - eapply flatq_bind; [now apply flatq_hh_insert|]. intros n En. apply flatq_seq; [now apply flat_hh_drop|]. intros _. now apply flatq_ret.
  - eapply flatq_bind; [now apply flatq_hh_insert_mut|]. intros n En. now apply flatq_ret.
  - eapply flatq_bind; [now apply flatq_hh_remove|]. intros n En. apply flatq_seq; [now apply flat_hh_drop|]. intros _. now apply flatq_ret.
  - eapply flatq_bind; [now apply flatq_hh_remove_mut|]. intros [n b] En. now apply flatq_ret.
  - eapply flatq_bind; [now apply flatq_hh_get_mut|]. intros [n b] En. now apply flatq_ret.
  - eapply flatq_bind; [now apply flatq_hh_clone|]. intros n En. apply flatq_seq; [now apply flat_hh_drop|]. intros _. now apply flatq_ret.
  - apply flatq_seq; [apply flat_quiet, quiet_hh_iter|]. intros x. now apply flatq_ret.
  - apply flatq_seq; [apply flat_quiet, quiet_hh_entries|]. intros x. now apply flatq_ret.
Qed.
End HT.

Lemma flatq_us_step : forall T Q ubits dbg teq (borrow : T -> Q) qeq hash qhash fuel degree o m, ht_inv degree m ->
  flatq (ht_depth degree) (us_step ubits dbg teq borrow qeq hash qhash fuel o m) (fun r => ht_inv degree (fst r)).
Proof.
  intros. unfold us_step. eapply flatq_bind; [now apply flatq_hh_step|]. intros [m' x] Em. now apply flatq_ret.
Qed.
