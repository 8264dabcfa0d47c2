(** * HashTrieMap whose values are collections: the proofs *)
From Coq Require Import List NArith Arith Lia Bool Permutation.
From Verif Require Import Base Spec Sim SpecMap ListModel ListProofs SparseModel SparseProofs HashModel HashProofs HashHist
  PermSolve HeapModel HeapProofs HeapSafe HeapShare HeapDrive HeapClient
  HeapList HeapListProofs HeapVec HeapVecProofs HeapLooks HeapHash HeapHashProofs HeapHashNodes HeapHashMap
  HeapIn HeapInProofs HeapHost HeapHostProofs HeapOfVecProofs HeapOfMap HeapOfMapProofs HeapOfHash.
Import ListNotations.
Local Open Scope prog_scope.

Definition t_map {K Y Z} (f : Y -> Z) (c : tcell K Y) : tcell K Z :=
  match c with
  | TB s => TB s
  | TS e => TS e
  | TC l => TC l
  | TLN v nx => TLN v nx
  | TLE e => TLE e
  | TE e => TE (kv_map f e)
  end.

Section Tr.
Variable ubits : N.
Variable dbg : bool.
Context {K Q E V : Type}.
Variable keq : K -> K -> bool.
Variable borrow : K -> Q.
Variable qeq : Q -> Q -> bool.
Variable hash : K -> N.
Variable qhash : Q -> N.
Variable fuel : nat.
Notation X := (E * V)%type.
Notation erase := (t_map (K := K) (@fst E V)).
Notation traces := (traces erase (@t_elem K X)).
Notation same := (@same E V).
Notation tr_drop := (tr_drop tkids erase (@t_elem K X) tkids).

Lemma t_kids_erase : forall b : tcell K X, tkids (erase b) = tkids b.
Proof using. now intros []. Qed.
Lemma t_elem_erase : forall b : tcell K X, t_elem (erase b) = option_map fst (t_elem b).
Proof using. now intros []. Qed.

Lemma tr_see : forall {A A'} (R : A' -> A -> list X -> Prop) fl e k' k,
  (forall x, traces R fl (k' x) (k (kv_map fst x))) -> traces R fl (read_entry e k') (read_entry e k).
Proof using. intros A A' R fl e k' k H. apply tr_read. intros []; cbn; try apply tr_fail. apply H. Qed.
Lemma tr_see_n : forall {A A'} (R : A' -> A -> list X -> Prop) fl a k' k,
  (forall v nx, traces R fl (k' v nx) (k v nx)) -> traces R fl (read_node t_isN a k') (read_node t_isN a k).
Proof using. intros A A' R fl a k' k H. apply tr_read. intros []; cbn; try apply tr_fail. apply H. Qed.
Lemma tr_see_e : forall {A A'} (R : A' -> A -> list X -> Prop) fl a k' k,
  (forall e, traces R fl (k' e) (k e)) -> traces R fl (read_elem t_isE a k') (read_elem t_isE a k).
Proof using. intros A A' R fl a k' k H. apply tr_read. intros []; cbn; try apply tr_fail. apply H. Qed.
Lemma tr_one : forall fl n a, traces (same fl) fl (drop_ptr tkids n a) (drop_ptr tkids n a).
Proof using. intros. apply tr_drop, t_kids_erase. Qed.
Lemma tr_one_opt : forall fl n o, traces (same fl) fl (drop_opt tkids n o) (drop_opt tkids n o).
Proof using. intros fl n [a|]; cbn [drop_opt]; [apply tr_one|now apply tr_ret]. Qed.
Lemma t_drop : forall {A A'} (R : A' -> A -> list X -> Prop) fl n a k' k,
  (forall u, traces R fl (k' u) (k u)) -> traces R fl (pbind (drop_ptr tkids n a) k') (pbind (drop_ptr tkids n a) k).
Proof using. intros A A' R fl n a k' k H. apply tr_same; [apply tr_one|exact H]. Qed.

Ltac tr :=
  repeat first
    [ apply tr_ret; repeat split; reflexivity
    | apply tr_ret; repeat split; now intros ? [= <-]
    | apply tr_fail
    | apply t_drop; intros _
    | apply tr_see_n; intros ? ?
    | apply tr_see_e; intros ?
    | apply tr_see; intros ?; cbn [kv_map fst snd]
    | apply tr_clone
    | apply tr_new; [reflexivity|reflexivity|intros ?]
    | apply tr_fill; [reflexivity|reflexivity|]
    | apply tr_lift; intros ?
    | match goal with |- traces _ _ (match ?x with _ => _ end) (match ?x with _ => _ end) => destruct x end ].

(** Lists of entries *)
Lemma tr_l_push : forall fl e l, traces (same fl) fl (tl_push e l) (tl_push e l).
Proof using.
  intros fl e l. unfold tl_push, hl_push, hl_push_ptr. apply tr_new; trivial. intros v.
  apply tr_same; [|intros o; tr]. destruct (hl_len l =? 0); [|tr]. apply tr_clone. apply tr_same; [apply tr_one_opt|]. intros _. tr.
Qed.
Lemma tr_l_drop_first : forall fl l, traces (same fl) fl (tl_drop_first l) (tl_drop_first l).
Proof using.
  intros fl l. unfold tl_drop_first, hl_drop_first. destruct (hl_head l) as [a|]; [|tr]. apply tr_see_n. intros v nx.
  assert (H : traces (same fl) fl
      (match hl_len l with
       | 0 => Fail
       | S n => let* last := (if n =? 0 then let* _ := drop_opt (@tkids K X) 2 (hl_last l) in Ret None else Ret (hl_last l)) in
                let* _ := drop_ptr tkids 4 a in Ret (mkHL nx last n, true)
       end)
      (match hl_len l with
       | 0 => Fail
       | S n => let* last := (if n =? 0 then let* _ := drop_opt (@tkids K E) 2 (hl_last l) in Ret None else Ret (hl_last l)) in
                let* _ := drop_ptr tkids 4 a in Ret (mkHL nx last n, true)
       end)).
  { destruct (hl_len l) as [|n]; [tr|]. apply tr_same; [|intros o; tr]. destruct (n =? 0); [|tr].
    apply tr_same; [apply tr_one_opt|]. intros _. tr. }
  destruct nx as [b|]; cbn [clone_opt]; [apply tr_clone|]; exact H.
Qed.
Lemma tr_l_first : forall fl l, traces (same fl) fl (tl_first l) (tl_first l).
Proof using. intros fl l. unfold tl_first, hl_first. destruct (hl_head l); tr. Qed.
Lemma tr_l_drop : forall fl l, traces (same fl) fl (tl_drop l) (tl_drop l).
Proof using.
  intros fl l. unfold tl_drop, hl_drop. apply tr_same; [|intros _; apply tr_one_opt].
  generalize (hl_len l + 2) as fd. intros fd. generalize (hl_head l) as o. generalize (hl_len l) as f. induction f as [|f IH]; intros [a|]; cbn [hl_drop_loop]; tr.
  apply tr_unwrap; [apply tr_one| |].
  - intros [] Hb; cbn [t_map t_isN]; try apply tr_fail. apply t_drop. intros _. apply IH.
  - now intros [] Hb.
Qed.

(** Drop glue and [make_mut] *)
Lemma tr_glue : forall fl dn' dn c, (forall a, traces (same fl) fl (dn' a) (dn a)) -> traces (same fl) fl (tglue dn' c) (tglue dn (erase c)).
Proof using.
  intros fl dn' dn [] H; cbn [tglue t_map]; try apply tr_fail; [now apply tr_each|apply tr_one|apply tr_l_drop].
Qed.
Lemma tr_tdrop : forall fl f a, traces (same fl) fl (tdrop f a) (tdrop f a).
Proof using.
  intros fl f. induction f as [|f IH]; intros a; cbn [tdrop]; [tr|]. apply tr_dec; [tr|]. intros b. apply tr_enter.
  apply tr_same; [apply tr_glue, IH|]. intros _. apply tr_leave. tr.
Qed.
Lemma tr_tmake_mut : forall {A A'} (R : A' -> A -> list X -> Prop) fl a f' f,
  (forall a' b, t_elem b = None -> traces R fl (f' (a', b)) (f (a', erase b))) ->
  (forall a' b, t_elem b <> None -> f' (a', b) = Fail) ->
  traces R fl (pbind (tmake_mut a) f') (pbind (tmake_mut a) f).
Proof using.
  intros A A' R fl a f' f H Hf. unfold tmake_mut. cbn [pbind]. apply tr_take.
  - cbn [pbind]. apply tr_read. intros b.
    rewrite t_kids_erase. generalize (tkids b) as l. induction l as [|x l IH]; cbn [clone_all pbind]; [|now apply tr_clone].
    apply tr_reserve. intros a'. apply (tr_bind _ _ (fun x' x fl1 => x' = (a', b) /\ x = (a', erase b) /\ fl1 = fl)).
    + apply tr_same; [apply tr_tdrop|]. intros _. now apply tr_ret.
    + intros x' x fl1 (-> & -> & ->). destruct (t_elem b) eqn:Eb; [|now apply H].
      rewrite Hf by congruence. apply tr_fail.
  - intros b Hb. cbn [pbind]. now apply H.
  - intros b Hb. cbn [pbind]. now apply Hf.
Qed.

(** Buckets *)
Definition tests_tr (p' : hewh -> prog (tcell K X) bool) (p : hewh -> prog (tcell K E) bool) : Prop :=
  forall fl e, traces (same fl) fl (p' e) (p e).
Lemma tr_matches : forall sm h, tests_tr (tmatches sm h) (tmatches sm h).
Proof using. intros sm h fl e. unfold tmatches. tr. Qed.

Definition cellr {A} (fl0 : list X) (x' : tcell K X * A) (x : tcell K E * A) (fl : list X) : Prop :=
  x = (erase (fst x'), snd x') /\ t_elem (fst x') = None /\ fl = fl0.

Section P.
Variable p' : hewh -> prog (tcell K X) bool.
Variable p : hewh -> prog (tcell K E) bool.
Hypothesis Hp : tests_tr p' p.

Lemma tr_remove_first : forall fl l, traces (same fl) fl (tlist_remove_first l p') (tlist_remove_first l p).
Proof using Hp.
  intros fl l. unfold tlist_remove_first. apply tr_same.
  - generalize (S (hl_len l)) as f. generalize (@nil hewh) as before. intros before f. revert before l.
    induction f as [|f IH]; intros before l; cbn [tlrf_loop]; [tr|]. destruct (hl_len l =? 0); [tr|].
    apply tr_same; [apply tr_l_first|]. intros [e|]; [|tr]. apply tr_clone. apply tr_same; [apply tr_l_drop_first|]. intros [l' d].
    apply tr_same; [apply Hp|]. intros b. destruct b; [tr|apply IH].
  - intros [[l' before] o]. apply tr_same; [|intros l2; tr]. revert l'. induction before as [|e before IH]; intros l'; cbn [tpush_back]; [tr|].
    apply tr_same; [apply tr_l_push|]. intros l2. apply IH.
Qed.
Lemma tr_find : forall fl c, traces (same fl) fl (tb_find p' c) (tb_find p (erase c)).
Proof using Hp.
  intros fl c. destruct c as [s|e|l|v nx|e|kv]; cbn [tb_find t_map]; try apply tr_fail.
  - apply tr_same; [apply Hp|]. intros b. tr.
  - generalize (hl_head l) as o. generalize (hl_len l) as f. induction f as [|f IH]; intros [a|]; cbn [tfind_loop]; tr.
    apply tr_same; [apply Hp|]. intros b. destruct b; [tr|apply IH].
Qed.
Lemma tr_drop_removed : forall fl o, traces (same fl) fl (drop_removed o) (drop_removed o).
Proof using. intros fl [e|]; cbn [drop_removed]; [apply tr_one|tr]. Qed.
Lemma tr_binsert : forall fl e c, traces (cellr fl) fl (tb_insert p' e c) (tb_insert p e (erase c)).
Proof using Hp.
  intros fl e c. destruct c as [s|e0|l|v nx|e0|kv]; cbn [tb_insert t_map]; try apply tr_fail.
  - apply tr_same; [apply Hp|]. intros b. destruct b; [tr|]. apply tr_clone. apply tr_same; [apply tr_l_push|]. intros l.
    apply tr_same; [apply tr_l_push|]. intros l2. tr.
  - apply tr_same; [apply tr_remove_first|]. intros [l' o]. apply tr_same; [apply tr_drop_removed|]. intros _.
    apply tr_same; [apply tr_l_push|]. intros l2. tr.
Qed.
Definition ocellr {A} (fl0 : list X) (x' : option (tcell K X) * A) (x : option (tcell K E) * A) (fl : list X) : Prop :=
  x = (option_map erase (fst x'), snd x') /\ (forall c, fst x' = Some c -> t_elem c = None) /\ fl = fl0.
Lemma tr_bremove : forall fl c, traces (ocellr fl) fl (tb_remove p' c) (tb_remove p (erase c)).
Proof using Hp.
  intros fl c. destruct c as [s|e0|l|v nx|e0|kv]; cbn [tb_remove t_map]; try apply tr_fail.
  - apply tr_same; [apply Hp|]. intros b. destruct b; tr.
  - apply tr_same; [apply tr_remove_first|]. intros [l' o]. apply tr_same; [apply tr_drop_removed|]. intros _.
    destruct (hl_len l') as [|[|n]]; [tr| |tr].
    apply tr_same; [apply tr_l_first|]. intros [e|]; [|tr]. apply tr_clone. apply tr_same; [apply tr_l_drop|]. intros _. tr.
Qed.
End P.

(** Nodes *)
Lemma tr_nget : forall fl q h f c d dg, traces (same fl) fl (tn_get ubits dbg borrow qeq f q h c d dg) (tn_get ubits dbg borrow qeq f q h (erase c) d dg).
Proof using.
  intros fl q h f. induction f as [|f IH]; intros c d dg; [tr|].
  destruct c as [s|e|l|v nx|e|kv].
  - cbn [tn_get t_map]. tr. apply tr_read. intros b. apply IH.
  - exact (tr_find _ _ (tr_matches _ h) fl (TS e)).
  - exact (tr_find _ _ (tr_matches _ h) fl (TC l)).
  - tr.
  - tr.
  - tr.
Qed.

Lemma tn_insert_TE : forall {Y} f k e (kv : K * Y) d dg, tn_insert ubits dbg keq f k e (TE kv) d dg = Fail.
Proof using. intros Y [|f] k e kv d dg; [trivial|]. cbn [tn_insert]. now destruct (index_from_hash dbg (snd e) d dg). Qed.
Lemma tn_remove_TE : forall {Y} f q h (kv : K * Y) d dg, tn_remove ubits dbg borrow qeq f q h (TE kv) d dg = Fail.
Proof using. now intros Y [|f] q h kv d dg. Qed.

Lemma tr_ninsert : forall fl f k e c d dg, traces (cellr fl) fl (tn_insert ubits dbg keq f k e c d dg) (tn_insert ubits dbg keq f k e (erase c) d dg).
Proof using.
  intros fl f. induction f as [|f IH]; intros k e c d dg; [tr|].
  destruct c as [s|e0|l|v nx|e0|kv]; cbn [tn_insert t_map].
  - apply tr_lift. intros oi. apply tr_lift. intros i. apply tr_lift. intros [[p w]|].
    + apply tr_tmake_mut.
      * intros p' b Hb. eapply tr_bind; [apply IH|]. intros [d' x] y fl1 (-> & Hd & ->). cbn [fst snd] in *.
        apply tr_fill; trivial. tr.
      * intros a' b Hb. destruct b; try now destruct Hb. now rewrite tn_insert_TE.
    + tr.
  - apply tr_lift. intros oi. apply tr_same; [exact (tr_find _ _ (tr_matches _ _) fl (TS e0))|]. intros o.
    destruct (negb (is_some oi)); [exact (tr_binsert _ _ (tr_matches _ _) fl e (TS e0))|].
    destruct (is_some o); [exact (tr_binsert _ _ (tr_matches _ _) fl e (TS e0))|].
    apply tr_clone. apply t_drop. intros _. apply tr_see. intros kv. cbn [kv_map fst snd].
    eapply tr_bind; [exact (IH (fst kv) e0 (TB sa_new) d dg)|]. intros [c1 x1] y1 fl1 (-> & _ & ->). cbn [fst snd].
    eapply tr_bind; [apply IH|]. intros [c2 x2] y2 fl2 (-> & Hc & ->). cbn [fst snd] in *. now apply tr_ret.
  - apply tr_lift. intros oi. apply tr_same; [exact (tr_find _ _ (tr_matches _ _) fl (TC l))|]. intros o.
    destruct (negb (is_some oi)); [exact (tr_binsert _ _ (tr_matches _ _) fl e (TC l))|].
    destruct (is_some o); [exact (tr_binsert _ _ (tr_matches _ _) fl e (TC l))|]. tr.
  - apply tr_lift. intros oi. tr.
  - apply tr_lift. intros oi. tr.
  - apply tr_lift. intros oi. tr.
Qed.

Lemma tr_compress : forall fl s, traces (fun x' x fl1 => x = erase x' /\ t_elem x' = None /\ fl1 = fl) fl (tn_compress (TB s)) (tn_compress (TB s)).
Proof using.
  intros fl s. cbn [tn_compress]. destruct (sa_size s) as [|[|n]]; [tr| |tr].
  apply tr_lift. intros p. apply tr_read. intros [s1|e|l|v nx|e|kv]; cbn [t_map]; try tr.
  apply tr_tmake_mut.
  - intros p' [s2|e2|l2|v2 nx2|e2|kv2] _; cbn [t_map]; try apply tr_fail. apply tr_fill; trivial.
    apply tr_same; [apply tr_tdrop|]. intros _. tr.
  - now intros p' [] Hb.
Qed.
Lemma tr_is_empty : forall fl c, traces (same fl) fl (tn_is_empty dbg c) (tn_is_empty dbg (erase c)).
Proof using. intros fl c. destruct c; cbn [tn_is_empty t_map]; tr. Qed.

Lemma tr_nremove : forall fl f q h c d dg, traces (cellr fl) fl (tn_remove ubits dbg borrow qeq f q h c d dg) (tn_remove ubits dbg borrow qeq f q h (erase c) d dg).
Proof using.
  assert (B : forall fl q h (c : tcell K X), t_elem c = None -> traces (cellr fl) fl
    (let* (oc, removed) := tb_remove (tmatches (fun k => qeq (borrow k) q) h) c in
     match oc with Some c' => Ret (c', removed) | None => let* _ := tglue (fun _ => Fail) c in Ret (TB sa_new, removed) end)
    (let* (oc, removed) := tb_remove (tmatches (fun k => qeq (borrow k) q) h) (erase c) in
     match oc with Some c' => Ret (c', removed) | None => let* _ := tglue (fun _ => Fail) (erase c) in Ret (TB sa_new, removed) end)).
  { intros fl q h c Hc. eapply tr_bind; [apply (tr_bremove _ _ (tr_matches _ h) fl c)|].
    intros [[c'|] x] y fl1 (-> & Hx & ->); cbn [fst snd option_map] in *.
    - apply tr_ret. repeat split. now apply Hx.
    - apply tr_same; [apply tr_glue; intros a; apply tr_fail|]. intros _. tr. }
  intros fl f. induction f as [|f IH]; intros q h c d dg; [tr|].
  destruct c as [s|e0|l|v nx|e0|kv]; [|now apply (B fl q h (TS e0))|now apply (B fl q h (TC l))|cbn [tn_remove t_map]; tr|cbn [tn_remove t_map]; tr|cbn [tn_remove t_map]; tr].
  cbn [tn_remove t_map]. apply tr_lift. intros oi. apply tr_lift. intros i. apply tr_lift. intros [[p w]|]; [|tr].
  apply tr_tmake_mut.
  - intros p' b Hb. eapply tr_bind; [apply IH|]. intros [d' x] y fl1 (-> & Hd & ->). cbn [fst snd] in *.
    apply tr_same; [apply tr_is_empty|]. intros em. apply tr_fill; trivial.
    destruct em, x; [| tr | | tr].
    + apply tr_lift. intros s2. apply tr_same; [apply tr_tdrop|]. intros _.
      eapply tr_bind; [apply tr_compress|]. intros c' y fl1 (-> & Hc & ->). now apply tr_ret.
    + eapply tr_bind; [apply tr_compress|]. intros c' y fl1 (-> & Hc & ->). now apply tr_ret.
  - intros a' b Hb. destruct b; try now destruct Hb. now rewrite tn_remove_TE.
Qed.

(** The map *)
Lemma tr_h_clone : forall fl m, traces (same fl) fl (hh_clone m) (hh_clone m).
Proof using. intros fl m. unfold hh_clone. tr. Qed.
Lemma tr_h_drop : forall fl m, traces (same fl) fl (hh_drop m) (hh_drop m).
Proof using. intros fl m. unfold hh_drop. apply tr_tdrop. Qed.
Lemma tr_h_new : forall fl dg, traces (same fl) fl (hh_new (K := K) (V := X) ubits dg) (hh_new (K := K) (V := E) ubits dg).
Proof using.
  intros fl dg. unfold hh_new, hm_new_with_degree. destruct (negb (is_power_of_two dg)); [tr|].
  destruct (negb (dg <=? DEFAULT_DEGREE ubits)%N); [tr|]. cbn [lift pbind hm_size hm_degree]. tr.
Qed.
Lemma tr_h_insert : forall m k y, traces (same []) [y]
  (hh_insert_mut ubits dbg keq hash fuel m k y) (hh_insert_mut ubits dbg keq hash fuel m k (fst y)).
Proof using.
  intros m k y. unfold hh_insert_mut. eapply tr_put; [reflexivity|reflexivity|]. intros p. apply tr_tmake_mut.
  - intros r b Hb. eapply tr_bind; [apply tr_ninsert|]. intros [c' x] z fl1 (-> & Hc & ->). cbn [fst snd] in *.
    apply tr_fill; trivial. tr.
  - intros a' b Hb. destruct b; try now destruct Hb. now rewrite tn_insert_TE.
Qed.
Lemma tr_h_remove : forall fl m q, traces (same fl) fl
  (hh_remove_mut ubits dbg borrow qeq qhash fuel m q) (hh_remove_mut ubits dbg borrow qeq qhash fuel m q).
Proof using.
  intros fl m q. unfold hh_remove_mut. apply tr_tmake_mut.
  - intros r b Hb. eapply tr_bind; [apply tr_nremove|]. intros [c' x] z fl1 (-> & Hc & ->). cbn [fst snd] in *.
    apply tr_fill; trivial. destruct x; tr.
  - intros a' b Hb. destruct b; try now destruct Hb. now rewrite tn_remove_TE.
Qed.
Lemma tr_h_get : forall fl m q, traces (fun x' x fl1 => x = option_map (kv_map fst) x' /\ fl1 = fl) fl
  (hh_get ubits dbg borrow qeq qhash fuel m q) (hh_get ubits dbg borrow qeq qhash fuel m q).
Proof using.
  intros fl m q. unfold hh_get. apply tr_read. intros b. apply tr_same; [apply tr_nget|]. intros [e|]; [|now apply tr_ret].
  apply tr_see. intros kv. now apply tr_ret.
Qed.

(** Iterators *)
Lemma tr_his_new : forall fl a, traces (same fl) fl (his_new a) (his_new a).
Proof using. intros fl a. unfold his_new. apply tr_read. intros []; cbn [t_map]; tr. Qed.
Lemma tr_his_next : forall fl el, traces (same fl) fl (his_next el) (his_next el).
Proof using.
  intros fl el. destruct el as [a i n|it|[e|]]; cbn [his_next]; try tr.
  - apply tr_read. intros []; cbn [t_map]; try tr. apply tr_read.
    intros []; cbn [t_map]; try tr; (apply tr_same; [apply tr_his_new|intros ?; tr]).
  - apply tr_same; [|intros [o it']; tr]. unfold hl_next_ptr. tr.
Qed.
Lemma tr_hhi_next : forall fl it, traces (fun x' x fl1 => x = (option_map (kv_map fst) (fst x'), snd x') /\ fl1 = fl) fl
  (hhi_next fuel it) (hhi_next fuel it).
Proof using.
  intros fl it. unfold hhi_next, hhi_next_ptr. apply tr_same.
  - revert it. generalize (2 * fuel) as f. induction f as [|f IH]; intros [st sz]; cbn [hhi_loop]; [tr|].
    destruct st as [|el st]; [tr|]. apply tr_same; [apply tr_his_next|].
    intros [[[e|new]|] el']; [tr|apply IH|apply IH].
  - intros [[e|] it']; [|now apply tr_ret]. apply tr_read. intros []; cbn [t_map]; try apply tr_fail. now apply tr_ret.
Qed.
Lemma tr_hhi_new : forall fl m, traces (same fl) fl (hhi_new m) (hhi_new m).
Proof using. intros fl m. unfold hhi_new. destruct (0 <? hh_size m); [|tr]. apply tr_same; [apply tr_his_new|]. intros el. tr. Qed.
Lemma tr_hh_iter : forall fl k m, traces (fun x' x fl1 => x = map (fun r => (fst r, option_map (kv_map fst) (snd r))) x' /\ fl1 = fl) fl
  (hh_iter fuel k m) (hh_iter fuel k m).
Proof using.
  intros fl k m. unfold hh_iter. apply tr_same; [apply tr_hhi_new|].
  induction k as [|k IH]; intros it; cbn [pruns]; [now apply tr_ret|]. apply tr_lift. intros h.
  eapply tr_bind; [apply tr_hhi_next|]. intros [o it'] z fl1 (-> & ->). cbn [fst snd].
  eapply tr_bind; [apply IH|]. intros r z fl1 (-> & ->). now apply tr_ret.
Qed.
Lemma tr_hh_entries : forall fl m, traces (fun x' x fl1 => x = mv fst x' /\ fl1 = fl) fl (hh_entries fuel m) (hh_entries fuel m).
Proof using.
  intros fl m. unfold hh_entries. apply tr_same; [apply tr_hhi_new|]. generalize (S (hh_size m)) as f.
  induction f as [|f IH]; intros it; cbn [pcollect]; [tr|].
  eapply tr_bind; [apply tr_hhi_next|]. intros [[o|] it'] z fl1 (-> & ->); cbn [fst snd option_map]; [|now apply tr_ret].
  eapply tr_bind; [apply IH|]. intros r z fl1 (-> & ->). now apply tr_ret.
Qed.

Lemma tr_ht_step : forall o m, no_gm o ->
  traces (fun x' x _ => x = (fst x', mobs_map fst (snd x'))) (mop_args o)
    (ht_step ubits dbg keq borrow qeq hash qhash fuel o m) (ht_step ubits dbg keq borrow qeq hash qhash fuel (mop_map fst o) m).
Proof using.
  intros o m Ho. unfold ht_step.
  apply (tr_bind _ _ (fun x' x _ => exists r, snd x' = TObs r /\ x = (fst x', TObs (mobs_map fst r)))).
  2: { intros [m1 r1] x fl1 (r & Er & ->). cbn [fst snd] in *. subst r1. now apply tr_ret. }
  Ltac fin := apply tr_ret; eexists; (split; [reflexivity|]); cbn [mobs_map fst].
  destruct o as [k v|k v|q|q|q f|q|q|q| | |]; cbn [hh_step mop_args mop_map].
  - unfold hh_insert. apply (tr_bind _ _ (same [])).
    + apply tr_same; [apply tr_h_clone|]. intros n. apply tr_h_insert.
    + intros n1' n1 fl1 (-> & ->). apply tr_same; [apply tr_h_drop|]. intros _. now fin.
  - eapply tr_bind; [apply tr_h_insert|]. intros n1' n1 fl1 (-> & ->). now fin.
  - apply tr_same.
    + unfold hh_remove. apply tr_same; [apply tr_h_clone|]. intros n. apply tr_same; [apply tr_h_remove|]. intros [n1 b].
      destruct b; [tr|]. apply tr_same; [apply tr_h_clone|]. intros c. apply tr_same; [apply tr_h_drop|]. intros _. tr.
    + intros n. apply tr_same; [apply tr_h_drop|]. intros _. now fin.
  - apply tr_same; [apply tr_h_remove|]. intros [n1 b]. now fin.
  - destruct Ho.
  - eapply tr_bind; [apply tr_h_get|]. intros x' x fl1 (-> & ->). fin. now destruct x'.
  - eapply tr_bind; [apply tr_h_get|]. intros x' x fl1 (-> & ->). now fin.
  - eapply tr_bind; [apply tr_h_get|]. intros x' x fl1 (-> & ->). fin. now destruct x'.
  - now fin.
  - now fin.
  - apply tr_same; [apply tr_h_clone|]. intros c. apply tr_same; [apply tr_h_drop|]. intros _. now fin.
Qed.
Lemma tr_hh_steps : forall k m, traces (fun x' x _ => exists hs, x' = (m, THints hs) /\ x = (m, THints hs)) []
  (hh_step ubits dbg keq borrow qeq hash qhash fuel (TSteps k) m) (hh_step ubits dbg keq borrow qeq hash qhash fuel (TSteps k) m).
Proof using.
  intros k m. cbn [hh_step]. eapply tr_bind; [apply tr_hh_iter|]. intros r z fl1 (-> & ->). apply tr_ret.
  eexists. split; [reflexivity|]. rewrite map_map. do 2 f_equal. apply map_ext. now intros [n [e|]].
Qed.
End Tr.

(** Where the entries of a trie are *)
Section Held.
Context {K V : Type}.
Notation C := (tcell K V).
Notation entry := (hentry K V).
Notation tchain := (chain (C := C) (T := entry) TLN TLE terep).

Lemma tchain_held : forall s us (x : entry), tchain s us -> In x s -> exists a u, In u us /\ sub (PT a (TE (kv x)) []) u.
Proof using.
  intros s us x H. induction H as [|y s t ts a Et Ch IH]; intros Hi; [easy|]. destruct Hi as [->|Hi].
  - destruct Et as [v e ts1 (-> & Ee)]. eexists (fst e), _. split; [now left|].
    econstructor; [now left|]. econstructor; [now left|]. apply sub_refl.
  - destruct (IH Hi) as (a' & u & Hu & Su). eexists a', _. split; [now left|]. econstructor; [right; exact Hu|exact Su].
Qed.

Lemma ncont_held : forall ubits b strict r d (n : hnode K V) c ts es x, @hrepg ubits b K V strict r d n es -> ncont n c ts -> In x es ->
  exists a u, In u ts /\ sub (PT a (TE (kv x)) []) u.
Proof using.
  intros ubits b strict. induction r as [|r IH]; intros d n c ts es x R Hc Hi; destruct n as [s|[e|l]]; cbn [hrepg] in R; try contradiction.
  1, 4: subst es; destruct Hi as [->|[]]; inversion Hc; subst; eexists _, _; (split; [now left|]); apply sub_refl.
  1, 3: destruct R as (_ & Rl & _); inversion Hc as [| |L l' s ts' R1 R2]; subst; apply trep_inv in R2 as (us & tl & -> & Ch & _);
    (assert (Es : s = es) by (destruct Rl as (<- & _), R1 as (<- & _); reflexivity)); rewrite Es in Ch;
    destruct (tchain_held _ _ _ Ch Hi) as (a & u & Hu & Su); exists a, u; (split; [apply in_app_iff; now left|exact Su]).
  destruct R as (al & (_ & Ea & _) & Hl). inversion Hc as [s0 s' ts' E1 E2 F| |]; subst.
  assert (X : exists n es', In n (sa_array s) /\ @hrepg ubits b K V strict r (S d) n es' /\ In x es').
  { rewrite Ea. clear - Hl Hi. induction Hl as [|i c es al rest Hr Hn Hd Hs Hl IH]; [easy|]. apply in_app_iff in Hi as [Hi|Hi].
    - exists c, es. split; [now left|]. auto.
    - destruct (IH Hi) as (n & es' & Hn' & H). exists n, es'. split; [now right|exact H]. }
  destruct X as (n & es' & Hn & Hr & Hx).
  assert (Y : exists t, In t ts /\ ntree n t).
  { clear - F Hn. induction F as [|n0 t0 ns ts Ht F IH]; [easy|]. destruct Hn as [->|Hn]; [exists t0; split; [now left|exact Ht]|].
    destruct (IH Hn) as (t & It & H). exists t. split; [now right|exact H]. }
  destruct Y as (t & It & Ht). inversion Ht as [n1 p cc tts Hc']; subst.
  destruct (IH (S d) n cc tts es' x Hr Hc' Hx) as (a & u & Hu & Su). exists a, (PT p cc tts). split; [exact It|].
  econstructor; [exact Hu|exact Su].
Qed.
End Held.

Section HashOf.
Variable ubits : N.
Variable dbg : bool.
Variable b : N.
Hypothesis Hb : (0 < b)%N.
Hypothesis Hdeg : (2 ^ b <= ubits)%N.
Hypothesis Hub : (ubits <= 64)%N.
Context {K Q : Type}.
Variable keq : K -> K -> bool.
Variable borrow : K -> Q.
Variable qeq : Q -> Q -> bool.
Variable hash : K -> N.
Variable qhash : Q -> N.
Hypothesis KL : key_laws keq borrow qeq.
Hypothesis HL : hash_laws borrow qeq hash qhash.
Variable fuel : nat.
Hypothesis Hfuel : (2 * D b < fuel)%nat.
Context {C E V Op Out : Type} (I : impl C E Op Out) (S : spec V Op Out).
Context (rep : E -> V -> list (@own C) -> Prop) (ncost : nat) (cost : Op -> V -> nat).
Hypothesis by_I : implements_by I S rep ncost cost.
Notation X := (E * V)%type.
Notation B := (tcell K E).
Notation B' := (tcell K X).
Notation D := (dcell B C).
Notation erase := (t_map (K := K) (@fst E V)).
Notation elem := (@t_elem K E).
Notation elem' := (@t_elem K X).
Notation kids := (dkids I elem tkids).
Notation safe := (safe kids).
Notation exts := (Forall2 (exto rep erase elem')).
Notation msafe := (msafe I rep elem tkids erase elem').
Notation vrun := (vrun S).
Notation irun_cost := (irun_cost S cost).
Notation hhrep := (hhrep (V := X) ubits b keq hash).
Notation found := (fm_find borrow qeq).
Notation degree := (2 ^ b)%N.

Lemma t_elem_bkids : forall (c : B) e, elem c = Some e -> tkids c = [].
Proof using. now intros []. Qed.
Lemma t_elem_kids : forall (c : B') y, elem' c = Some y -> tkids c = [].
Proof using. now intros []. Qed.

Notation mcalls := (mcalls I S rep ncost cost by_I elem tkids erase elem' tkids t_elem_erase t_kids_erase t_elem_kids).
Notation calls_ok := (calls_ok I S rep ncost cost by_I elem tkids erase elem' tkids t_elem_erase t_kids_erase t_elem_kids).
Notation mseq := (mseq I rep elem tkids erase elem').
Notation mfill := (mfill I rep elem tkids erase elem' tkids t_elem_erase t_kids_erase).
Ltac mseq n1 n2 G1 F tac := eapply (mseq _ _ n1 n2 _ _ G1 F); [tac|perm| |lia].

Lemma mperm : forall {A} (p : prog D A) n G G' Qp, Permutation G G' -> msafe n p G Qp -> msafe n p G' Qp.
Proof using.
  intros A p n G G' Qp P M G1 Ex. destruct (Forall2_perm _ _ _ (Permutation_sym P) _ Ex) as (m & Pm & Fm).
  eapply safe_perm; [apply Permutation_sym, Pm|]. now apply M.
Qed.

(** *** [get_mut] *)
Lemma wcell_ok : forall a (c : B') ts, elem' c = None ->
  msafe 1 (node_mut I elem (make_mut tkids) a) [Tree (PT a c ts)] (fun r G => exists a', r = (a', erase c) /\ G = Held a' :: map Tree ts).
Proof.
  intros a c ts Hc. unfold node_mut. eapply mmono; [apply le_n| |
  apply (mcalls (fun x' x => x = (fst x', erase (snd x')))
    (let* (a', b) := make_mut tkids a in match elem' b with None => Ret (a', b) | Some _ => Fail end) _ 1 _
    (fun r G => exists a', r = (a', c) /\ G = Held a' :: map Tree ts))].
  - cbn beta. intros r G (r' & -> & (a' & -> & ->)). eauto.
  - apply tr_make_mut; [apply t_kids_erase| |].
    + intros a' b0 Hn. rewrite t_elem_erase, Hn. now apply tr_ret.
    + intros a' b0 Hn. now destruct (elem' b0).
  - eapply (safe_seq tkids _ _ 1 0 _ _ [Tree (PT a c ts)] []); [apply safe_make_mut|perm| |lia].
    intros r G (a' & -> & ->). rewrite Hc. apply safe_ret. rewrite app_nil_r. eauto.
Qed.
Lemma ncont_elem : forall n (c : B') ts, ncont n c ts -> elem' c = None.
Proof using. now intros n c ts []. Qed.
Lemma wnode_ok : forall n a (c : B') ts, ncont n c ts ->
  msafe 1 (node_mut I elem tmake_mut a) [Tree (PT a c ts)] (fun r G => exists a', r = (a', erase c) /\ G = Held a' :: map Tree ts).
Proof.
  intros n a c ts Hc. unfold node_mut. eapply mmono; [apply le_n| |
  apply (mcalls (fun x' x => x = (fst x', erase (snd x')))
    (let* (a', b) := tmake_mut a in match elem' b with None => Ret (a', b) | Some _ => Fail end) _ 1 _
    (fun r G => exists a', r = (a', c) /\ G = Held a' :: map Tree ts))].
  - cbn beta. intros r G (r' & -> & (a' & -> & ->)). eauto.
  - apply tr_tmake_mut.
    + intros a' b0 Hn. rewrite t_elem_erase, Hn. now apply tr_ret.
    + intros a' b0 Hn. now destruct (elem' b0).
  - eapply (safe_seq tkids _ _ 1 0 _ _ [Tree (PT a c ts)] []); [eapply tmake_mut_ok, Hc|perm| |lia].
    intros r G (a' & -> & ->). rewrite (ncont_elem _ _ _ Hc). apply safe_ret. rewrite app_nil_r. eauto.
Qed.

Definition at_post (l : list Op) (o : option X) (get : (X -> X) -> hnode K X -> Prop) (r : B * option (list Out)) (G : list (@own B')) : Prop :=
  snd r = option_map (fun y => snd (vrun l (snd y))) o /\
  exists g, (forall y, o = Some y -> snd (g y) = fst (vrun l (snd y))) /\
  exists n' c' ts', get g n' /\ fst r = erase c' /\ ncont n' c' ts' /\ G = map Tree ts'.

Notation mt q h := (@matches K X Q borrow qeq q h).

Lemma wtb_get_mut_ok : forall q h l bk c ts o cap, ncont (HLeaf bk) c ts ->
  (forall g, exists bk', b_get_mut borrow qeq q h g bk = Ok (bk', o)) -> bcap bk cap -> opt_may S l (option_map snd o) ->
  msafe (2 * cap + 5 + opt_cost S cost l (option_map snd o)) (wtb_get_mut I (tmatches (fun k => qeq (borrow k) q) h) l (erase c)) (map Tree ts)
    (at_post l o (fun g n' => exists bk', n' = HLeaf bk' /\ b_get_mut borrow qeq q h g bk = Ok (bk', o))).
Proof.
  intros q h l bk c ts o cap Hc H Hcap M. destruct (H (fun y => y)) as (bk0 & H0).
  inversion Hc as [|e x Ex|L ll s ts' R1 R2]; subst; cbn [wtb_get_mut t_map b_get_mut bcap] in *.
  - eapply (mseq _ _ 0 (2 * cap + 5 + opt_cost S cost l (option_map snd o)) _ _ [Tree (et e x)] []); [|perm| |apply le_n].
    { apply (mcalls eq (tmatches (fun k => qeq (borrow k) q) h e) _ 0 _ (fun v G => v = mt q h x /\ G = [Tree (et e x)])).
      - eapply tr_mono; [apply (tr_matches (fun k => qeq (borrow k) q) h [] e)|]. intros ? ? ? (-> & _). reflexivity.
      - apply (tests_q borrow qeq q h e x); trivial. apply lent_in. now left. }
    intros v G (v' & <- & (-> & ->)). rewrite app_nil_r. destruct (mt q h x).
    + injection H0 as _ <-. cbn [option_map opt_may opt_cost] in *. destruct (e_val x) as [v x0] eqn:Ev. cbn [fst snd] in *.
      unfold et. rewrite Ev.
      mseq (1 + irun_cost l x0) 0 [Tree (PT (fst e) (TE (e_key x, (v, x0))) [])] (@nil (@own B'))
        ltac:(apply (update_ok I S rep ncost cost by_I elem tkids erase elem' t_elem_erase t_elem_bkids t_put t_put
              ltac:(now intros []) ltac:(now intros []) l (fst e) (TE (e_key x, (v, x0))) v x0 eq_refl M)).
      intros [a' xs] G (Exs & e' & ->). cbn [fst snd t_put app] in *. subst xs. apply mret.
      split; [reflexivity|]. exists (fun _ => (e', fst (vrun l x0))). split; [intros y [= <-]; reflexivity|].
      set (x' := e_write (fun _ => (e', fst (vrun l x0))) x).
      eexists (HLeaf (BSingle x')), (TS (a', snd e)), [et (a', snd e) x']. splits; trivial; [eauto|]. now constructor.
    + injection H0 as _ <-. apply mret. split; [reflexivity|]. exists (fun y => y). split; [discriminate|].
      exists (HLeaf (BSingle x)), (TS e), [et e x]. splits; trivial. eauto.
  - destruct (lrf_value (mt q h) ll s R1) as (l' & El & Rl). rewrite El in *. cbn [bind] in *.
    assert (Els : l_len ll = length s) by apply R1.
    eapply (mseq _ _ (2 * length s) (5 + opt_cost S cost l (option_map snd o)) _ _ (map Tree ts) []); [|perm| |lia].
    { apply (mcalls eq (tlist_remove_first L (tmatches (fun k => qeq (borrow k) q) h)) _ _ _
        (fun r G' => exists G1, lrep TLN TLE terep (fst r) (rf (mt q h) s) (last_error (rf (mt q h) s)) G1 /\
           match find (mt q h) s with
           | None => snd r = None /\ G' = G1
           | Some x => exists e, snd r = Some e /\ snd e = e_hash x /\ G' = Tree (et e x) :: G1
           end)).
      - eapply tr_mono; [apply (tr_remove_first _ _ (tr_matches (fun k => qeq (borrow k) q) h) [])|]. intros ? ? ? (-> & _). reflexivity.
      - apply tlist_remove_first_ok; trivial. apply tests_q. }
    intros r G' (r' & <- & (G1 & RL & Hf)). destruct r' as [L' rm]. cbn [fst snd] in *. rewrite app_nil_r.
    pose proof (rf_length (mt q h) s) as Hlen.
    destruct (find (mt q h) s) as [x|] eqn:Ef.
    + destruct Hf as (oe & -> & Eo & ->). cbn [is_some] in Hlen.
      pose proof (l_rep_push l' _ x Rl) as Rp. unfold l_push_front_mut in *. rewrite (l_rep_first _ _ Rp) in *.
      cbn [hd_error option_map] in *. injection H0 as _ <-. cbn [option_map opt_may opt_cost] in *.
      destruct (e_val x) as [v x0] eqn:Ev. cbn [fst snd] in *.
      eapply (mseq _ _ 2 (3 + irun_cost l x0) _ _ (Tree (et oe x) :: G1) []); [|perm| |lia].
      { apply (mcalls eq (tl_push oe L') _ _ _ (fun L2 G' => lrep TLN TLE terep L2 (x :: rf (mt q h) s) (last_error (x :: rf (mt q h) s)) G')).
        - eapply tr_mono; [apply tr_l_push|]. intros ? ? ? (-> & _). reflexivity.
        - now apply tl_push_ok. }
      intros L2 G2 (L2' & <- & (us & tl & -> & Ch & Lt & ->)). rewrite app_nil_r.
      inversion Ch as [|x' s' t us' a Et Ch']; subst. destruct Et as [vn e ts1 (-> & Ee)].
      cbn [hl_head HeapList.hl_last hl_len map hd_error pa app].
      eapply (mseq _ _ 1 (2 + irun_cost l x0) _ _ [Tree (PT a (TLN vn (hd_error (map pa us'))) (PT vn (TLE e) [et e x] :: us'))] (map Tree tl));
        [apply wcell_ok; reflexivity|perm| |lia].
      intros r G (a' & -> & ->). cbn [map t_map].
      eapply (mseq _ _ 1 (1 + irun_cost l x0) _ _ [Tree (PT vn (TLE e) [et e x])] (Held a' :: map Tree us' ++ map Tree tl));
        [apply wcell_ok; reflexivity|perm| |lia].
      intros r G (v' & -> & ->). cbn [map t_map].
      assert (Et : et e x = PT (fst e) (TE (e_key x, (v, x0))) []) by (unfold et; now rewrite Ev). rewrite Et.
      mseq (1 + irun_cost l x0) 0 [Tree (PT (fst e) (TE (e_key x, (v, x0))) [])] (Held (C := B') v' :: Held a' :: map Tree us' ++ map Tree tl)
        ltac:(apply (update_ok I S rep ncost cost by_I elem tkids erase elem' t_elem_erase t_elem_bkids t_put t_put
              ltac:(now intros []) ltac:(now intros []) l (fst e) (TE (e_key x, (v, x0))) v x0 eq_refl M)).
      intros [p' xs] G (Exs & e' & ->). cbn [fst snd t_put app] in *. subst xs.
      set (g := fun _ : X => (e', fst (vrun l x0))). set (x' := e_write g x). set (en := (p', snd e)).
      change (DO (TLE en)) with (@DO B C (erase (TLE en))).
      apply (mfill v' (TLE en) [et en x'] _ (Held a' :: map Tree us' ++ map Tree tl)); [reflexivity| |reflexivity|].
      { assert (Etn : et en x' = PT p' (TE (e_key x, (e', fst (vrun l x0)))) []) by reflexivity. rewrite Etn. cbn [map app]. perm. }
      change (DO (TLN v' (hd_error (map pa us')))) with (@DO B C (erase (TLN v' (hd_error (map pa us'))))).
      apply (mfill a' (TLN v' (hd_error (map pa us'))) (PT v' (TLE en) [et en x'] :: us') _ (map Tree tl)); [reflexivity| | |].
      { cbn [map]; perm. }
      { cbn [tkids map pa]. f_equal. apply (chain_opt _ _ _ _ _ Ch'). }
      set (nd := PT a' (TLN v' (hd_error (map pa us'))) (PT v' (TLE en) [et en x'] :: us')).
      apply mret. split; [reflexivity|]. exists g. split; [intros y [= <-]; reflexivity|].
      destruct (H g) as (bk' & Hg). exists (HLeaf bk'), (TC (mkHL (Some a') (hd_error (map pa tl)) (length (x :: rf (mt q h) s)))), ([nd] ++ tl).
      split; [exists bk'; split; [reflexivity|exact Hg]|]. split; [reflexivity|]. split; [|reflexivity].
      injection Hg as <-.
      apply (nc_coll _ _ (x' :: rf (mt q h) s)).
      * destruct Rl as (P1 & P2 & P3). repeat split; cbn [l_head ListModel.l_last l_length length].
        -- now rewrite P1.
        -- rewrite P2, P3. destruct (rf (mt q h) s) as [|y fs']; [cbn [length] in Hlen; lia|]. reflexivity.
        -- rewrite P3. lia.
      * exists [nd], tl. splits.
        -- reflexivity.
        -- apply (ch_cons TLN TLE terep x' (rf (mt q h) s) (PT v' (TLE en) [et en x']) us' a'); trivial.
           constructor. split; [trivial|exact Ee].
        -- rewrite last_error_cons in *. destruct (rf (mt q h) s); [cbn [length] in Hlen; lia|].
           destruct Lt as [|z0 q0 Eq0 En]; [discriminate|]. constructor; [trivial|]. inversion Ch'; subst us'.
           inversion En; subst. now constructor.
        -- reflexivity.
    + destruct Hf as (-> & ->). injection H0 as _ <-. apply mret. split; [reflexivity|]. exists (fun y => y). split; [discriminate|].
      destruct RL as (us & tl & -> & Ch & Lt & EL).
      exists (HLeaf (BCollision l')), (TC L'), (us ++ tl). splits; trivial; [eauto|].
      apply (nc_coll _ _ (rf (mt q h) s)); trivial. exists us, tl. splits; trivial.
Qed.

Lemma wtn_get_mut_ok : forall q h l r d n c ts o cap fl, tall r n -> pcap ubits dbg degree r d h n cap ->
  (forall g, exists n', hn_get_mut ubits dbg borrow qeq fl q h g n d degree = Ok (n', o)) -> ncont n c ts ->
  opt_may S l (option_map snd o) ->
  msafe (r + 2 * cap + 5 + opt_cost S cost l (option_map snd o)) (wtn_get_mut ubits dbg borrow qeq I fl q h l (erase c) d degree) (map Tree ts)
    (at_post l o (fun g n' => hn_get_mut ubits dbg borrow qeq fl q h g n d degree = Ok (n', o))).
Proof.
  intros q h l. induction r as [|r IH]; intros d n c ts o cap fl T P H Hc M; (destruct fl as [|fl]; [destruct (H (fun y => y)); discriminate|]);
    destruct n as [s|bk]; try (destruct T; fail).
  1, 3: cbn [hn_get_mut pcap] in *;
    (eapply mmono; [| |enough (Y : msafe (2 * cap + 5 + opt_cost S cost l (option_map snd o))
        (wtb_get_mut I (tmatches (fun k => qeq (borrow k) q) h) l (erase c)) (map Tree ts)
        (at_post l o (fun g n' => exists bk', n' = HLeaf bk' /\ b_get_mut borrow qeq q h g bk = Ok (bk', o))));
      [inversion Hc; subst; exact Y|apply wtb_get_mut_ok with (bk := bk); trivial]]);
    [lia| |intros g; destruct (H g) as (n' & Hg); apply lift_inv in Hg; destruct Hg as ([bk' o'] & Hg & E1); injection E1 as <- <-; eauto];
    intros x G (E1 & g & Hg & n' & c' & ts' & (bk' & -> & Hb') & E2); (split; [exact E1|]); exists g; (split; [exact Hg|]);
    exists (HLeaf bk'), c', ts'; rewrite Hb'; auto.
  inversion Hc as [s0 s' ts' E1 E2 F| |]; subst. cbn [hn_get_mut wtn_get_mut tall pcap t_map] in *.
  destruct (H (fun y => y)) as (n0 & H0).
  apply lift_inv in H0. destruct H0 as (oi & Ei & H0). rewrite Ei in *. cbn [bind] in H.
  apply lift_inv in H0. destruct H0 as (i & Eu & H0). cbn [lift pbind]. rewrite Eu in *. cbn [lift pbind bind] in *.
  assert (oi = Some i) by (destruct oi; cbn in Eu; congruence). subst oi.
  apply lift_inv in H0. destruct H0 as (y & Eg & H0). rewrite Eg in *. cbn [bind] in *.
  assert (Sm : sim s s' ts) by now repeat split. pose proof (sim_get_mut ubits dbg _ _ _ _ _ Sm Eg) as Sg.
  destruct y as [[n w]|].
  - destruct Sg as (Hg & ts1 & t & ts2 & w' & -> & Ht & Eg' & Hw & _ & Harr).
    rewrite Eg'. cbn [lift pbind]. inversion Ht as [n1 p cc tts Hc']; subst. cbn [pa].
    eapply (mseq _ _ 1 (r + 2 * cap + 5 + opt_cost S cost l (option_map snd o)) _ _ [Tree (PT p cc tts)] (map Tree (ts1 ++ ts2)));
      [eapply wnode_ok, Hc'|perm| |lia].
    intros r0 G' (p' & -> & ->).
    assert (Tn : tall r n).
    { destruct (Harr n) as (l1 & l2 & E3 & _). rewrite E3 in T. rewrite Forall_forall in T. apply T, in_elt. }
    eapply (mseq _ _ (r + 2 * cap + 5 + opt_cost S cost l (option_map snd o)) 0 _ _ (map Tree tts) (Held p' :: map Tree (ts1 ++ ts2)));
      [|perm| |lia].
    { apply (IH (Datatypes.S d) n cc tts o cap fl); trivial; [exact (P _ _ eq_refl Hg)|].
      intros g. destruct (H g) as (n' & Hn). apply lift_inv in Hn. destruct Hn as ([c' f'] & Hn & E3). injection E3 as <- <-. eauto. }
    intros [cr xs] G1 (E3 & g & Hgg & n' & c1 & ts' & Hn & E4 & Hc1 & ->). cbn [fst snd] in *. subst xs cr.
    apply (mfill p' c1 ts' _ (map Tree (ts1 ++ ts2))); [exact (ncont_elem _ _ _ Hc1)|perm|exact (ncont_kids _ _ _ Hc1)|].
    eapply (mperm _ _ (map Tree (ts1 ++ PT p' c1 ts' :: ts2))); [perm|]. apply mret.
    split; [reflexivity|]. exists g. split; [exact Hgg|].
    exists (HBranch (w n')), (TB (w' p')), (ts1 ++ PT p' c1 ts' :: ts2).
    split; [cbn [bind]; rewrite ?Eu; cbn [bind]; rewrite ?Eg; cbn [bind]; rewrite Hn; reflexivity|]. splits; trivial.
    apply sim_cont. apply (Hw n' (PT p' c1 ts')). now constructor.
  - rewrite Sg. cbn [lift pbind]. injection H0 as _ <-. apply mret. split; [reflexivity|]. exists (fun y => y). split; [discriminate|].
    exists (HBranch s), (TB s'), ts. split; [cbn [bind]; rewrite ?Eu; cbn [bind]; rewrite ?Eg; reflexivity|]. auto.
Qed.

Definition kclash (h : N) (ks : list K) : nat := length (filter (fun k => (hash k =? h)%N) ks).
Lemma clash_keys : forall h (m : fmap K X), clash hash h m = kclash h (map fst m).
Proof using.
  intros h m. unfold clash, kclash. induction m as [|[k y] m IH]; cbn; [trivial|]. destruct (hash k =? h)%N; cbn; congruence.
Qed.
Notation lv := (HashProofs.D b).
Definition h_ic (k : K) (ks : list K) : nat := 2 * lv + 2 * kclash (hash k) ks + 6.
Definition h_rc (q : Q) (ks : list K) : nat := 2 * lv + 2 * kclash (qhash q) ks + 3.
Definition h_gc (q : Q) (ks : list K) : nat := lv + 2 * kclash (qhash q) ks + 8.

Lemma wh_get_mut_ok : forall q l m s G, hhrep m s G -> opt_may S l (option_map (fun kv => snd (snd kv)) (found q s)) ->
  msafe (h_gc q (map fst s) + opt_cost S cost l (option_map (fun kv => snd (snd kv)) (found q s)))
    (wh_get_mut ubits dbg borrow qeq qhash fuel I m q l) G
    (fun r G' => snd r = option_map (fun kv => snd (vrun l (snd (snd kv)))) (found q s) /\
       exists g, (forall kv, found q s = Some kv -> snd (g (snd kv)) = fst (vrun l (snd (snd kv)))) /\
         hhrep (fst r) (fm_modify borrow qeq q g s) G').
Proof.
  intros q l m s G R M.
  destruct (hhrep_inv _ _ _ _ _ _ _ R) as (w & es & a & c & ts & Rw & Hr & Hh & Hp & Hu & Hs & Hd & -> & Hc & ->).
  unfold wh_get_mut, h_gc. rewrite <- clash_keys. cbn [hh_root hh_size hh_degree].
  assert (Hgm := fun g => hm_get_mut_ok ubits dbg b Hb Hdeg Hub keq borrow qeq hash qhash KL HL fuel Hfuel w s q g Rw).
  set (o := option_map snd (found q s)) in *.
  assert (Eo : option_map (fun kv : K * X => snd (snd kv)) (found q s) = option_map snd o) by (unfold o; now destruct (found q s)).
  rewrite Eo in *.
  eapply (mseq _ _ 1 (lv + 2 * (clash hash (qhash q) s + 1) + 5 + opt_cost S cost l (option_map snd o)) _ _ [Tree (PT a c ts)] []);
    [eapply wnode_ok, Hc|perm| |lia].
  intros r G (a' & -> & ->). rewrite app_nil_r.
  eapply (mseq _ _ (lv + 2 * (clash hash (qhash q) s + 1) + 5 + opt_cost S cost l (option_map snd o)) 0 _ _ (map Tree ts) [Held a']); [|perm| |lia].
  { apply (wtn_get_mut_ok q (qhash q) l lv 0 (hm_root w) c ts o); trivial.
    - eapply hrep_tall. exact Hr.
    - eapply (rep_pcap ubits dbg b Hb Hdeg Hub borrow qeq hash qhash HL); eauto. apply (hl_range _ _ _ _ HL).
    - intros g. destruct (Hgm g) as (w' & E1 & _). unfold hm_get_mut in E1. rewrite Hd in E1.
      apply lift_inv in E1. destruct E1 as ([n' f'] & E1 & E2). injection E2 as <- <-. eauto. }
  intros [cr xs] G (E1 & g & Hg & n' & c1 & ts' & Hn & E2 & Hc1 & ->). cbn [fst snd] in *. subst xs cr.
  apply (mfill a' c1 ts' _ []); [exact (ncont_elem _ _ _ Hc1)|perm|exact (ncont_kids _ _ _ Hc1)|].
  apply mret. cbn [fst snd]. split; [unfold o; now destruct (found q s)|]. exists g. split.
  { intros kv Hk. apply Hg. unfold o. now rewrite Hk. }
  destruct (Hgm g) as (w' & E1 & R'). unfold hm_get_mut in E1. rewrite Hd, Hn in E1. cbn [bind] in E1. injection E1 as <-.
  exact (hhrep_intro _ _ _ _ _ _ c1 ts' a' R' Hc1).
Qed.

Lemma h_all_held : forall m s G (kv : K * X), hhrep m s G -> In kv s -> holds elem' (snd kv) G.
Proof using.
  intros m s G kv R Hi. destruct R as (w & (es & Hr & _ & Hp & _) & _ & _ & t & T & _ & ->).
  apply (Permutation_in _ (Permutation_sym Hp)) in Hi. apply in_map_iff in Hi as (x & <- & Hi).
  inversion T as [n a c ts Hc]; subst.
  destruct (ncont_held _ _ _ _ _ _ _ _ _ _ Hr Hc Hi) as (p & u & Hu & Su). exists p, (TE (HashHist.kv x)). split; [reflexivity|].
  eexists. split; [now left|]. econstructor; [exact Hu|exact Su].
Qed.
Lemma h_only_one : forall m s G q (kv : K * X), hhrep m s G -> In kv s -> qeq (borrow (fst kv)) q = true -> found q s = Some kv.
Proof using KL.
  intros m s G q kv (w & (es & _ & _ & _ & Hu & _) & _) Hi Hq. eapply find_only; [exact KL|exact Hu|exact Hi|exact Hq].
Qed.

Lemma ht_step_safe : forall o m s G, hhrep m s G ->
  HeapSafe.safe tkids (mc h_ic h_rc h_gc o (map fst s)) (ht_step ubits dbg keq borrow qeq hash qhash fuel o m) G
    (fun r G' => snd r = snd (map_spec keq borrow qeq o s) /\ hhrep (fst r) (fst (map_spec keq borrow qeq o s)) G').
Proof.
  intros o m s G R. unfold ht_step.
  eapply (safe_seq tkids _ _ (mc h_ic h_rc h_gc o (map fst s)) 0 _ _ G []); [|rewrite app_nil_r; apply Permutation_refl| |lia].
  - eapply safe_mono; [| |exact (hh_step_ok ubits dbg b Hb Hdeg Hub keq borrow qeq hash qhash KL HL fuel Hfuel (TOp o) m s G R)].
    + destruct o; cbn [ht_cost mc]; unfold h_ic, h_rc, h_gc; rewrite <- ?clash_keys; lia.
    + intros r G' H. exact H.
  - intros [m1 r1] G' (E1 & R1). cbn [fst snd ht_call_spec] in *. subst r1. apply safe_ret. rewrite app_nil_r. auto.
Qed.

(** *** Every call *)
Definition whrep : hht -> fmap K V -> list (@own D) -> Prop := wmrep rep erase elem' hhrep.

Definition wh_cost (o : nhop K Q Op Out) (s : fmap K V) : nat :=
  match o with
  | NHMap o => wm_cost S ncost cost borrow qeq h_ic h_rc h_gc o s
  | NHSteps _ => 0
  | NHCount l _ => sum_cost S cost l (map (fun kv => Some (snd kv)) s)
  end.

Notation seq n1 n2 G1 F := (safe_seq kids _ _ n1 n2 _ _ G1 F).
Ltac ap := rewrite app_nil_r; apply Permutation_refl.

Lemma sum_cost_perm : forall l (s s' : list (option V)), Permutation s s' -> sum_cost S cost l s = sum_cost S cost l s'.
Proof using.
  clear Hb Hdeg Hub Hfuel. intros l s s' H. unfold sum_cost. induction H as [|o s s' H IH|o o' s|s s' s'' H1 IH1 H2 IH2]; cbn [map].
  - reflexivity.
  - unfold list_sum in *. cbn [fold_right]. now rewrite IH.
  - unfold list_sum. cbn [fold_right]. lia.
  - congruence.
Qed.

Lemma wh_step_ok : forall o m s G, whrep m s G -> wh_pre S borrow qeq o s ->
  safe (wh_cost o s) (wh_step ubits dbg keq borrow qeq hash qhash fuel I o m) G
    (fun r G' => snd r = snd (wh_val S keq borrow qeq o s) /\ whrep (fst r) (fst (wh_val S keq borrow qeq o s)) G').
Proof.
  intros o m s G R M. destruct o as [o|k|l p]; cbn [wh_step wh_val wh_cost wh_pre fst snd] in *.
  - eapply (seq _ 0 G []); [|ap| |rewrite Nat.add_0_r; apply le_n].
    { exact (wm_step_ok I S rep ncost cost by_I elem tkids erase elem' tkids t_elem_erase t_kids_erase t_elem_kids
        keq borrow qeq (ht_step ubits dbg keq borrow qeq hash qhash fuel) (wh_get_mut ubits dbg borrow qeq qhash fuel I)
        (ht_step ubits dbg keq borrow qeq hash qhash fuel)
        hhrep h_ic h_rc h_gc (tr_ht_step ubits dbg keq borrow qeq hash qhash fuel) ht_step_safe wh_get_mut_ok h_all_held h_only_one o m s G R M). }
    cbn beta. intros [m1 r1] G' (E1 & R1). cbn [fst snd] in *. subst r1. apply safe_ret. rewrite app_nil_r. auto.
  - destruct R as (l & G0 & R & Ex & ->).
    eapply (seq 0 0 G []); [|ap| |lia].
    { apply (mcalls _ _ _ 0 G0 _ (tr_hh_steps ubits dbg keq borrow qeq hash qhash fuel k m)
        (hh_step_ok ubits dbg b Hb Hdeg Hub keq borrow qeq hash qhash KL HL fuel Hfuel (TSteps k) m l G0 R) G Ex). }
    cbn beta. intros r G' (G1 & (r' & (hs & -> & ->) & (E1 & R1)) & Ex1). cbn [fst snd ht_call_spec] in *. injection E1 as ->.
    rewrite app_nil_r. apply safe_ret. cbn [fst snd]. rewrite length_mv. split; [reflexivity|]. exists l, G1. auto.
  - destruct R as (s0 & G0 & R & Ex & ->).
    destruct (hh_iter_reads ubits b Hb Hdeg Hub keq hash fuel Hfuel m s0 G0 R) as (es & Pe & _ & He).
    set (ys := map (fun kv : K * X => (fst kv, Some (snd kv))) es).
    eapply (seq 0 _ G []); [|ap| |apply le_n].
    { apply (mcalls (fun x' x => x = mv fst x') (hh_entries fuel m) _ 0 G0 (fun r G' => G' = G0 /\ r = es)).
      - eapply tr_mono; [apply tr_hh_entries|]. intros ? ? ? (-> & _). reflexivity.
      - eapply looks_safe, He.
      - exact Ex. }
    cbn beta. intros r G' (G1 & (r' & -> & (-> & ->)) & Ex1). rewrite app_nil_r.
    eapply (seq _ 0 G' []).
    + pose proof (peeks_ok I S rep ncost cost by_I elem tkids erase elem' l ys G0 G') as H.
      replace (map (fun r => (fst r, option_map fst (snd r))) ys) with (map (fun e => (fst e, Some (snd e))) (mv (K := K) (@fst E V) es)) in H
        by (unfold ys, mv; rewrite !map_map; reflexivity).
      apply H.
      * intros n y Hi. unfold ys in Hi. apply in_map_iff in Hi as (kv & [= <- <-] & Hi). eapply h_all_held; [exact R|].
        eapply Permutation_in; [exact Pe|exact Hi].
      * exact Ex1.
      * intros n y Hi. unfold ys in Hi. apply in_map_iff in Hi as (kv & [= <- <-] & Hi).
        unfold mv in M. rewrite Forall_map, Forall_forall in M. apply (M kv). eapply Permutation_in; [exact Pe|exact Hi].
    + ap.
    + intros r G2 (-> & ->). rewrite app_nil_r. apply safe_ret. cbn [fst snd]. split; [|exists s0, G0; auto].
      f_equal. transitivity (length (filter (fun kv : K * X => p (fst kv, snd (vrun l (snd (snd kv))))) es)).
      * unfold ys. clear. induction es as [|[k [e x]] es IH]; cbn; [reflexivity|]. destruct (p (k, snd (vrun l x))); cbn; congruence.
      * rewrite (Permutation_length (Permutation_filter _ _ _ _ Pe)). unfold mv. clear.
        induction s0 as [|[k [e x]] s0 IH]; cbn; [reflexivity|]. destruct (p (k, snd (vrun l x))); cbn; congruence.
    + rewrite Nat.add_0_r. apply Nat.eq_le_incl. apply sum_cost_perm. unfold ys, mv. rewrite !map_map. now apply Permutation_map.
Qed.

Lemma wh_roots : forall m s G, whrep m s G -> exists ts, G = map Tree ts /\ [hh_root m] = map pa ts.
Proof using.
  intros m s G (l & G0 & (w & _ & _ & _ & t & _ & Ep & ->) & Ex & _).
  destruct (trees_exts rep erase elem' [t] _ Ex) as (ts' & -> & F). exists ts'. split; [reflexivity|].
  rewrite <- (exts_pas rep erase elem' _ _ F). cbn. now rewrite Ep.
Qed.

Theorem hash_map_of_by : implements_by (hash_map_of ubits dbg keq borrow qeq hash qhash fuel I degree) (hash_map_of_spec S keq borrow qeq) whrep 1 wh_cost.
Proof.
  constructor.
  - cbn [i_kids i_new hash_map_of s_new hash_map_of_spec].
    eapply safe_mono; [apply le_n| |apply (mcalls eq (hh_new ubits degree) _ 1 [] (fun m G => hhrep m [] G))].
    + cbn beta. intros m G (G1 & (m' & <- & R) & Ex). exists [], G1. auto.
    + eapply tr_mono; [apply tr_h_new|]. intros ? ? ? (-> & _). reflexivity.
    + apply (hh_new_ok ubits dbg b Hb Hdeg Hub keq borrow qeq hash qhash KL HL fuel Hfuel).
    + constructor.
  - intros m s G R. destruct (wh_roots _ _ _ R) as (ts & -> & Er). cbn [i_kids i_clone hash_map_of].
    unfold calls, hh_clone. destruct ts as [|[a' c us] [|]]; try discriminate. injection Er as Er. cbn [host pbind drop_left].
    cbn [HeapSafe.safe map pa] in *. rewrite Er. exists c, us. split; [apply lent_in; now left|]. eexists. split; [apply Permutation_refl|].
    exists [Tree (PT a' c us)]. split; [reflexivity|exact R].
  - intros m. cbn [i_clone hash_map_of]. unfold calls, hh_clone. cbn [host pbind drop_left]. repeat constructor.
  - intros m s G (l & G0 & R & Ex & _). cbn [i_kids i_drop hash_map_of].
    eapply safe_mono; [apply le_n| |apply (mcalls (fun _ _ => True) _ _ 0 G0 _ (tr_mono _ _ _ _ _ _ _ (tr_h_drop [] m) (fun _ _ _ _ => Logic.I))
      (hh_drop_ok ubits b Hb Hdeg Hub keq hash m l G0 R) G Ex)].
    cbn beta. intros x G' (G1 & (x' & _ & ->) & Ex1). now inversion Ex1.
  - intros o m s G R H. exact (wh_step_ok o m s G R H).
  - intros m s G R. exact (wh_roots m s G R).
Qed.
End HashOf.

Theorem hash_map_of_ok : forall {K Q C E V Op Out} (I : impl C E Op Out) (S : spec V Op Out) ubits dbg
  (keq : K -> K -> bool) (borrow : K -> Q) qeq hash qhash fuel b, (0 < b)%N -> (2 ^ b <= ubits)%N -> (ubits <= 64)%N ->
  key_laws keq borrow qeq -> hash_laws borrow qeq hash qhash -> 2 * D b < fuel -> implements I S ->
  implements (hash_map_of ubits dbg keq borrow qeq hash qhash fuel I (2 ^ b)) (hash_map_of_spec S keq borrow qeq).
Proof.
  intros K Q C E V Op Out I S ubits dbg keq borrow qeq hash qhash fuel b Hb Hdeg Hub KL HL Hfuel (rep & ncost & cost & H).
  do 3 eexists. exact (hash_map_of_by ubits dbg b Hb Hdeg Hub keq borrow qeq hash qhash KL HL fuel Hfuel I S rep ncost cost H).
Qed.
