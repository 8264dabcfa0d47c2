(** Proofs about the crash model. *)
From Coq Require Import List NArith Arith Bool Lia Permutation.
From Verif Require Import Base Spec SpecMap Sim ListModel SparseModel RBModel HashModel HashProofs HashHist
  HashExtraProofs HashIter CrashModel.
Import ListNotations.

(** [cruns run r P]: there is a number of user calls below which [run] unwinds with a state in
    [P], and from which on it does what [r] does. *)
Definition cruns {S A} (run : nat -> res (crash S A)) (r : res A) (P : S -> Prop) : Prop :=
  exists c, forall n,
    (c <= n -> run n = rmap (Done (n - c)) r) /\
    (n < c -> exists s, run n = Ok (Unwound s) /\ P s).

Lemma cruns_ret : forall S A (a : A) (P : S -> Prop), cruns (fun n => Ok (Done n a)) (Ok a) P.
Proof. intros. exists 0. intros n. split; [|lia]. intros _. cbn. now rewrite Nat.sub_0_r. Qed.

Lemma cruns_call : forall S A (s : S) (f : nat -> res (crash S A)) r (P : S -> Prop),
  P s -> cruns f r P -> cruns (fun n => ucall n s f) r P.
Proof.
  intros S A s f r P Hs (c & H). exists (Datatypes.S c). intros [|n]; cbn [ucall].
  - split; [lia|]. eauto.
  - destruct (H n) as (H1 & H2). split; intros Hn; [rewrite H1 by lia|apply H2; lia]. reflexivity.
Qed.

Lemma cruns_bind : forall S S' A B (m : nat -> res (crash S A)) r (P : S -> Prop) (k : S -> S')
  (f : nat -> A -> res (crash S' B)) (g : A -> res B) (P' : S' -> Prop),
  cruns m r P -> (forall s, P s -> P' (k s)) ->
  (forall a, r = Ok a -> cruns (fun n => f n a) (g a) P') ->
  cruns (fun n => cbind (m n) k f) (let! a := r in g a) P'.
Proof.
  intros S S' A B m r P k f g P' (c1 & H1) Hk Hf.
  assert (Hun : forall n, n < c1 -> exists s, cbind (m n) k f = Ok (Unwound s) /\ P' s).
  { intros n Hn. destruct (proj2 (H1 n) Hn) as (s & E & Hs). unfold cbind. rewrite E. cbn. eauto. }
  destruct r as [a| |].
  - destruct (Hf a eq_refl) as (c2 & H2). exists (c1 + c2). intros n. destruct (Nat.lt_ge_cases n c1) as [Hlt|Hge].
    + split; [lia|]. intros _. now apply Hun.
    + assert (E : cbind (m n) k f = f (n - c1) a) by (unfold cbind; rewrite (proj1 (H1 n) Hge); reflexivity).
      rewrite E. destruct (H2 (n - c1)) as (H3 & H4). split; intros Hn.
      * cbn [bind]. rewrite H3 by lia. now replace (n - c1 - c2) with (n - (c1 + c2)) by lia.
      * apply H4. lia.
  - exists c1. intros n. split; [|apply Hun]. intros Hn. unfold cbind. now rewrite (proj1 (H1 n) Hn).
  - exists c1. intros n. split; [|apply Hun]. intros Hn. unfold cbind. now rewrite (proj1 (H1 n) Hn).
Qed.

Lemma cruns_res : forall S A B (r : res A) (f : nat -> A -> res (crash S B)) (g : A -> res B) (P : S -> Prop),
  (forall a, r = Ok a -> cruns (fun n => f n a) (g a) P) ->
  cruns (fun n => let! a := r in f n a) (let! a := r in g a) P.
Proof.
  intros S A B r f g P H. destruct r as [a| |]; [exact (H a eq_refl)| |]; exists 0; intros n; split; try lia; reflexivity.
Qed.

Lemma cruns_panic : forall S A (P : S -> Prop), cruns (fun _ => @Panic (crash S A)) Panic P.
Proof. intros. exists 0. intros n. split; [reflexivity|lia]. Qed.
Lemma cruns_diverge : forall S A (P : S -> Prop), cruns (fun _ => @Diverge (crash S A)) Diverge P.
Proof. intros. exists 0. intros n. split; [reflexivity|lia]. Qed.

Lemma cruns_weaken : forall S A (m : nat -> res (crash S A)) r r' (P P' : S -> Prop),
  cruns m r P -> r = r' -> (forall s, P s -> P' s) -> cruns m r' P'.
Proof.
  intros S A m r r' P P' (c & H) -> Hp. exists c. intros n. split; [apply H|]. intros Hn.
  destruct (proj2 (H n) Hn) as (s & E & Hs). eauto.
Qed.

Lemma cruns_ext : forall S A (m m' : nat -> res (crash S A)) r (P : S -> Prop),
  (forall n, m n = m' n) -> cruns m r P -> cruns m' r P.
Proof.
  intros S A m m' r P E (c & H). exists c. intros n. rewrite <- E. apply H.
Qed.

(** ** RedBlackTreeMap: an unwound call changes nothing. *)
Section RBP.
Context {K V Q : Type}.
Variable dbg : bool.
Variable kcmp : K -> K -> comparison.
Variable borrow : K -> Q.
Variable qcmp : Q -> Q -> comparison.

Lemma c_t_get_ok : forall (t : tree K V) q, cruns (fun n => c_t_get borrow qcmp n t q) (Ok (t_get borrow qcmp t q)) (fun _ => True).
Proof.
  induction t as [|e c l IHl r IHr]; intros q; cbn [c_t_get t_get]; [apply cruns_ret|].
  apply cruns_call; [exact I|]. destruct (qcmp q (borrow (fst e))); [apply cruns_ret|apply IHl|apply IHr].
Qed.

Lemma c_ins_ok : forall (t : tree K V) k v root,
  cruns (fun n => c_ins kcmp n t k v root) (ins kcmp t k v root) (eq t).
Proof.
  induction t as [|e c l IHl r IHr]; intros k v root; cbn [c_ins ins]; [apply cruns_ret|].
  apply cruns_call; [reflexivity|].
  destruct (kcmp k (fst e)).
  - cbn [bind]. apply cruns_ret.
  - eapply cruns_weaken; [eapply cruns_bind with (P' := eq (Tree e c l r)) (g := fun x : tree K V * bool => let (l', b) := x in let! node := (if b then balance (set_left (mkNode e c l r) l') else Ok (set_left (mkNode e c l r) l')) in Ok (some (if root then set_color node Black else node), b)); [apply IHl|now intros s <-|]| |intros s H; exact H].
    + intros [l' b] _. cbv beta iota zeta. apply cruns_res with (g := fun node =>
        Ok (some (if root then set_color node Black else node), b)). intros node _. apply cruns_ret.
    + destruct (ins kcmp l k v false) as [[l' b]| |]; [cbn [bind]|reflexivity|reflexivity].
      destruct (if b : bool then balance _ else Ok _); reflexivity.
  - eapply cruns_weaken; [eapply cruns_bind with (P' := eq (Tree e c l r)) (g := fun x : tree K V * bool => let (l', b) := x in let! node := (if b then balance (set_right (mkNode e c l r) l') else Ok (set_right (mkNode e c l r) l')) in Ok (some (if root then set_color node Black else node), b)); [apply IHr|now intros s <-|]| |intros s H; exact H].
    + intros [l' b] _. cbv beta iota zeta. apply cruns_res with (g := fun node =>
        Ok (some (if root then set_color node Black else node), b)). intros node _. apply cruns_ret.
    + destruct (ins kcmp r k v false) as [[l' b]| |]; [cbn [bind]|reflexivity|reflexivity].
      destruct (if b : bool then balance _ else Ok _); reflexivity.
Qed.

Lemma c_del_ok : forall (t : tree K V) k root,
  cruns (fun n => c_del dbg borrow qcmp n t k root) (del dbg borrow qcmp t k root) (eq t).
Proof.
  induction t as [|e c l IHl r IHr]; intros k root; cbn [c_del del]; [apply cruns_ret|].
  apply cruns_call; [reflexivity|].
  destruct (qcmp k (borrow (fst e))).
  - eapply cruns_weaken; [eapply cruns_res with (P := eq (Tree e c l r)) (g := fun x : node K V * bool => let (node, fused) := x in Ok (if negb fused then Leaf else some (if root then set_color node Black else node), true))| |intros s H; exact H].
    + intros [node fused] _. cbv beta iota zeta. apply cruns_ret.
    + cbn [n_left n_right]. destruct (remove_fuse _ _ _ _) as [[node fused]| |]; reflexivity.
  - eapply cruns_weaken; [eapply cruns_bind with (P' := eq (Tree e c l r)) (g := fun x : tree K V * bool => let (l', b) := x in let! node := (let node := set_color (set_left (mkNode e c l r) l') Red in match left_color (mkNode e c l r) with Some Black => remove_balance_left dbg node | _ => Ok node end) in Ok (some (if root then set_color node Black else node), b)); [apply IHl|now intros s <-|]| |intros s H; exact H].
    + intros [l' b] _. cbv beta iota zeta. apply cruns_res with (g := fun node =>
        Ok (some (if root then set_color node Black else node), b)). intros node _. apply cruns_ret.
    + destruct (del dbg borrow qcmp l k false) as [[l' b]| |]; [cbn [bind]|reflexivity|reflexivity].
      destruct (match left_color _ with Some Black => _ | _ => _ end); reflexivity.
  - eapply cruns_weaken; [eapply cruns_bind with (P' := eq (Tree e c l r)) (g := fun x : tree K V * bool => let (l', b) := x in let! node := (let node := set_color (set_right (mkNode e c l r) l') Red in match right_color (mkNode e c l r) with Some Black => remove_balance_right dbg node | _ => Ok node end) in Ok (some (if root then set_color node Black else node), b)); [apply IHr|now intros s <-|]| |intros s H; exact H].
    + intros [l' b] _. cbv beta iota zeta. apply cruns_res with (g := fun node =>
        Ok (some (if root then set_color node Black else node), b)). intros node _. apply cruns_ret.
    + destruct (del dbg borrow qcmp r k false) as [[l' b]| |]; [cbn [bind]|reflexivity|reflexivity].
      destruct (match right_color _ with Some Black => _ | _ => _ end); reflexivity.
Qed.

Lemma c_t_get_mut_ok : forall shared (t : tree K V) q f,
  cruns (fun n => c_t_get_mut borrow qcmp n shared t q f) (Ok (t_get_mut borrow qcmp t q f)) (eq t).
Proof.
  induction t as [|e c l IHl r IHr]; intros q f; cbn [c_t_get_mut t_get_mut]; [apply cruns_ret|].
  apply cruns_call; [reflexivity|].
  destruct (qcmp q (borrow (fst e))).
  - destruct shared; [|apply cruns_ret]. apply cruns_call; [reflexivity|].
    apply cruns_call; [reflexivity|]. apply cruns_ret.
  - eapply cruns_weaken; [eapply cruns_bind with (P' := eq (Tree e c l r)) (g := fun x : tree K V * option V => let (l', o) := x in Ok (Tree e c l' r, o)); [apply IHl|now intros s <-|]| |intros s H; exact H].
    + intros [l' b] _. cbv beta iota zeta. apply cruns_ret.
    + cbn [bind]. destruct (t_get_mut borrow qcmp l q f). reflexivity.
  - eapply cruns_weaken; [eapply cruns_bind with (P' := eq (Tree e c l r)) (g := fun x : tree K V * option V => let (r', o) := x in Ok (Tree e c l r', o)); [apply IHr|now intros s <-|]| |intros s H; exact H].
    + intros [l' b] _. cbv beta iota zeta. apply cruns_ret.
    + cbn [bind]. destruct (t_get_mut borrow qcmp r q f). reflexivity.
Qed.

Lemma c_rb_step_ok : forall shared (o : map_op K V Q) (m : rbmap K V),
  cruns (fun n => c_rb_step dbg kcmp borrow qcmp n shared o m) (rb_step dbg kcmp borrow qcmp o m) (eq m).
Proof.
  intros shared o m.
  assert (Hw : forall t, rb_root m = t -> m = rb_with m t) by (intros t <-; now destruct m).
  assert (Hins : forall k v, cruns (fun n => c_rb_insert_mut kcmp n m k v) (rb_insert_mut kcmp m k v) (eq m)).
  { intros k v. unfold c_rb_insert_mut, rb_insert_mut.
    eapply cruns_bind; [apply c_ins_ok|exact Hw|]. intros [t b] _. apply cruns_ret. }
  assert (Hrem : forall q, cruns (fun n => c_rb_remove_mut dbg borrow qcmp n m q) (rb_remove_mut dbg borrow qcmp m q) (eq m)).
  { intros q. unfold c_rb_remove_mut, rb_remove_mut.
    eapply cruns_bind; [apply c_del_ok|exact Hw|]. intros [t b] _. apply cruns_res. intros a _. apply cruns_ret. }
  assert (Hfind : forall q, cruns (fun n => c_rb_find borrow qcmp n m q) (Ok (rb_get_key_value borrow qcmp m q)) (eq m)).
  { intros q. unfold c_rb_find, rb_get_key_value.
    eapply cruns_weaken; [eapply cruns_bind with (P' := eq m); [apply c_t_get_ok|auto|]|reflexivity|intros s H; exact H].
    intros a _. apply cruns_ret. }
  destruct o as [k v|k v|q|q|q f|q|q|q| | |]; cbn [c_rb_step rb_step]; try apply cruns_ret.
  - unfold rb_insert. eapply cruns_bind; [apply Hins|auto|]. intros a _. apply cruns_ret.
  - eapply cruns_bind; [apply Hins|auto|]. intros a _. apply cruns_ret.
  - eapply cruns_weaken; [eapply cruns_bind with (P' := eq m) (g := fun x : rbmap K V * bool => let (m', b) return res (rbmap K V * map_obs K V) := x in Ok (if b then m' else m, MoUnit)); [apply Hrem|auto|]| |intros s H; exact H].
    + intros [m' b] _. apply cruns_ret.
    + unfold rb_remove. destruct (rb_remove_mut _ _ _ _ _) as [[m' b]| |]; reflexivity.
  - eapply cruns_bind; [apply Hrem|auto|]. intros [m' b] _. apply cruns_ret.
  - eapply cruns_weaken; [eapply cruns_bind with (P' := eq m) (P := eq m) (r := Ok (rb_get_mut borrow qcmp m q f)) (g := fun x : rbmap K V * option V => let (m', o) return res (rbmap K V * map_obs K V) := x in Ok (m', MoVal o)); [|auto|]| |intros s H; exact H].
    + unfold c_rb_get_mut, rb_get_mut.
      eapply cruns_weaken; [eapply cruns_bind with (g := fun x : tree K V * option V => let (root, o) := x in Ok (mkRB root (rb_size m), o)); [apply c_t_get_mut_ok|exact Hw|]| |intros s H; exact H].
      * intros [t b] _. apply cruns_ret.
      * cbn [bind]. now destruct (t_get_mut _ _ _ _ _).
    + intros [m' b] _. apply cruns_ret.
    + cbn [bind]. now destruct (rb_get_mut _ _ _ _ _).
  - eapply cruns_weaken; [eapply cruns_bind with (P' := eq m); [apply Hfind|auto|]| |intros s H; exact H].
    + intros a _. apply cruns_ret.
    + reflexivity.
  - eapply cruns_weaken; [eapply cruns_bind with (P' := eq m); [apply Hfind|auto|]| |intros s H; exact H].
    + intros a _. apply cruns_ret.
    + reflexivity.
  - eapply cruns_weaken; [eapply cruns_bind with (P' := eq m); [apply Hfind|auto|]| |intros s H; exact H].
    + intros a _. apply cruns_ret.
    + cbn [bind]. unfold rb_contains_key, rb_get, rb_get_key_value. now destruct (t_get _ _ _ _).
Qed.
End RBP.

(** ** HashTrieMap *)
From Verif Require Import ListProofs SparseProofs.

Section ListC.
Context {T : Type}.
Variables pre p : T -> bool.
Hypothesis Hpre : forall e, p e = true -> pre e = true.

Lemma cruns_ask : forall S A (s : S) e (f : nat -> bool -> res (crash S A)) r (P : S -> Prop),
  (pre e = true -> P s) -> cruns (fun n => f n (p e)) r P -> cruns (fun n => ask pre p n s e f) r P.
Proof.
  intros S A s e f r P Hs H. unfold ask. destruct (pre e) eqn:E.
  - apply cruns_call; auto.
  - destruct (p e) eqn:Ep; [apply Hpre in Ep; congruence|assumption].
Qed.

Lemma c_find_ok : forall l, cruns (fun n => c_find pre p n l) (Ok (find p l)) (fun _ => True).
Proof.
  induction l as [|e l IH]; cbn [c_find find]; [apply cruns_ret|].
  apply cruns_ask; [auto|]. destruct (p e); [apply cruns_ret|exact IH].
Qed.

(** On unwinding, the list has lost a non-empty prefix. *)
Definition cut (l l' : rlist T) : Prop := forall s, l_rep l s ->
  exists lost e s', s = lost ++ e :: s' /\ pre e = true /\ l_rep l' s'.

Lemma c_lrf_loop_ok : forall fuel before l,
  cruns (fun n => c_lrf_loop pre p fuel n before l) (lrf_loop fuel p before l) (cut l).
Proof.
  induction fuel as [|fuel IH]; intros before l; cbn [c_lrf_loop lrf_loop]; [apply cruns_diverge|].
  destruct (l_is_empty l); [apply cruns_ret|].
  apply cruns_res. intros e Ee. apply cruns_res. intros [l' x] El. cbv beta iota.
  assert (Hl : forall s, l_rep l s -> exists s', s = e :: s' /\ l_rep l' s').
  { intros s Hl. rewrite (l_rep_first _ _ Hl) in Ee. destruct s as [|a s]; [discriminate|]. cbn in Ee.
    destruct (l_rep_drop _ _ Hl) as (l2 & E2 & Hl2). rewrite E2 in El. cbn [tl] in Hl2.
    assert (a = e) by congruence. assert (l2 = l') by congruence. subst. eauto. }
  apply cruns_ask.
  - intros Hp s Hs. destruct (Hl s Hs) as (s' & -> & Hs'). exists [], e, s'. auto.
  - destruct (p e); [apply cruns_ret|]. eapply cruns_weaken; [apply IH|reflexivity|].
    intros l2 Hc s Hs. destruct (Hl s Hs) as (s' & -> & Hs'). destruct (Hc s' Hs') as (lost & e' & s2 & -> & Hp & H2).
    exists (e :: lost), e', s2. auto.
Qed.

Lemma c_list_remove_first_ok : forall l,
  cruns (fun n => c_list_remove_first pre p n l) (list_remove_first l p) (cut l).
Proof.
  intros l. unfold c_list_remove_first, list_remove_first.
  eapply cruns_bind; [apply c_lrf_loop_ok|auto|]. intros [[rem before] removed] _. apply cruns_ret.
Qed.
End ListC.

Section HC.
Variable ubits : N.
Variable dbg : bool.
Variable b : N.
Hypothesis Hb : (0 < b)%N.
Hypothesis Hdeg : (2 ^ b <= ubits)%N.
Hypothesis Hub : (ubits <= 64)%N.
Context {K V Q : Type}.
Variable keq : K -> K -> bool.
Variable borrow : K -> Q.
Variable qeq : Q -> Q -> bool.

Notation entry := (hentry K V).
Notation bucket := (hbucket K V).
Notation node := (hnode K V).
Notation degree := (2 ^ b)%N.
Notation D := (D b).
Notation wrep := (@hrepg ubits b K V false).
Local Open Scope N_scope.
Set Default Proof Using "dbg Hb Hdeg Hub".

Lemma pre_matches : forall q h e, matches borrow qeq q h e = true -> @same_hash K V h e = true.
Proof using. intros q h e H. now apply andb_true_iff in H as [H _]. Qed.
Lemma pre_matches_key : forall k h e, matches_key keq k h e = true -> @same_hash K V h e = true.
Proof using. intros q h e H. now apply andb_true_iff in H as [H _]. Qed.

(** What an unwound call leaves of a bucket: a single entry stays; a collision list keeps the
    entries behind the one being compared, or is only reordered. *)
Definition bpost (m : entry -> bool) (bk bk' : bucket) : Prop :=
  match bk with
  | BSingle e => bk' = bk
  | BCollision l => forall es, l_rep l es -> uniq m es ->
      exists l' es' lost, bk' = BCollision l' /\ l_rep l' es' /\ Permutation (es' ++ lost) es
  end.

Lemma cut_bpost : forall m pre l l', cut pre l l' -> bpost m (BCollision l) (BCollision l').
Proof using.
  intros m pre l l' Hc es Hl _. destruct (Hc es Hl) as (lost & e & s' & -> & _ & H').
  exists l', s', (lost ++ [e]). repeat split; try apply H'. rewrite Permutation_app_comm, <- app_assoc. reflexivity.
Qed.

Lemma c_b_find_ok : forall h m (bk : bucket), (forall e, m e = true -> same_hash h e = true) ->
  cruns (fun n => c_b_find n h m bk) (b_find m bk) (fun _ => True).
Proof using.
  intros h m [e|l] Hm; cbn [c_b_find b_find].
  - apply cruns_ask; auto. apply cruns_ret.
  - apply cruns_res. intros es _. now apply c_find_ok.
Qed.

Lemma c_b_get_mut_ok : forall shared q h f (bk : bucket),
  cruns (fun n => c_b_get_mut borrow qeq n shared q h f bk) (b_get_mut borrow qeq q h f bk)
    (bpost (matches borrow qeq q h) bk).
Proof.
  intros shared q h f [e|l]; cbn [c_b_get_mut b_get_mut].
  - apply cruns_ask; [apply pre_matches|reflexivity|].
    destruct (matches borrow qeq q h e); [|apply cruns_ret].
    destruct shared; [|apply cruns_ret]. apply cruns_call; [reflexivity|]. apply cruns_call; [reflexivity|]. apply cruns_ret.
  - eapply cruns_bind; [apply c_list_remove_first_ok, pre_matches|intros l'; apply cut_bpost|].
    intros [l' removed] E. destruct removed as [x|]; [|apply cruns_ret].
    assert (Hb2 : bpost (matches borrow qeq q h) (BCollision l) (BCollision (l_push_front_mut x l'))).
    { intros es Hl Hu. destruct (list_remove_first_ok _ l es Hl Hu) as (l2 & E2 & Hl2).
      assert (l2 = l') by congruence. assert (Hf : find (matches borrow qeq q h) es = Some x) by congruence. subst l2.
      eexists _, _, []. split; [reflexivity|]. split; [apply l_rep_push; exact Hl2|]. rewrite app_nil_r.
      pose proof (perm_find_uniq ubits dbg b Hb Hdeg Hub (matches borrow qeq q h) (fun e => e) es x Hu Hf) as Hp. cbv beta in Hp.
      rewrite Hp. rewrite (map_ext _ (fun e => e)) by (intros a; now destruct (matches _ _ _ _ a)). now rewrite map_id. }
    destruct shared; [|apply cruns_ret]. apply cruns_call; [assumption|]. apply cruns_call; [assumption|]. apply cruns_ret.
Qed.

Lemma c_b_insert_ok : forall e (bk : bucket),
  cruns (fun n => c_b_insert keq n e bk) (b_insert keq e bk) (bpost (matches_key keq (e_key e) (e_hash e)) bk).
Proof using.
  intros e [o|l]; cbn [c_b_insert b_insert].
  - apply cruns_ask; [apply pre_matches_key|reflexivity|]. destruct (matches_key _ _ _ o); apply cruns_ret.
  - eapply cruns_bind; [apply c_list_remove_first_ok, pre_matches_key|intros l'; apply cut_bpost|].
    intros [l' removed] _. apply cruns_ret.
Qed.

Lemma c_b_remove_ok : forall q h (bk : bucket),
  cruns (fun n => c_b_remove borrow qeq n q h bk) (b_remove borrow qeq q h bk) (bpost (matches borrow qeq q h) bk).
Proof using.
  intros q h [e|l]; cbn [c_b_remove b_remove].
  - apply cruns_ask; [apply pre_matches|reflexivity|]. destruct (matches _ _ _ _ e); apply cruns_ret.
  - eapply cruns_bind; [apply c_list_remove_first_ok, pre_matches|intros l'; apply cut_bpost|].
    intros [l' removed] _. destruct (l_len l') as [|[|k]]; [apply cruns_panic| |apply cruns_ret].
    apply cruns_res. intros x _. apply cruns_ret.
Qed.

(** ** Nodes *)

(** At most one entry has hash [h]. *)
Definition alone (h : N) (es : list entry) : Prop := uniq (same_hash h) es.

(** The hashes agree with [h] on the digits consumed above depth [d]. *)
Definition on_path (h : N) (d : nat) (es : list entry) : Prop :=
  forall e, In e es -> e_hash e mod 2 ^ (N.of_nat d * b) = h mod 2 ^ (N.of_nat d * b).

(** What an unwound call leaves of a node: it may lose entries with hash [h], and if there
    was only one of these, nothing. *)
Definition npost (h : N) (m : entry -> bool) (d : nat) (n n' : node) : Prop :=
  forall r es, wrep r d n es -> (d + r = D)%nat -> on_path h d es ->
    (forall e, In e es -> e_hash e < 2 ^ 64) -> h < 2 ^ 64 -> uniq m es ->
    (exists lost, Permutation (n_entries n' ++ lost) es /\ forall e, In e lost -> e_hash e = h) /\
    lists_ok n' /\ (alone h es -> wrep r d n' es).

Lemma npost_refl : forall h m d n, npost h m d n n.
Proof using.
  intros h m d n r es H _ _ _ _ _. split; [|split; [exact (hrep_lists _ _ _ _ _ _ _ _ _ H)|auto]]. exists []. rewrite app_nil_r.
  rewrite (hrep_entries ubits b r d n es H). split; [reflexivity|intros e []].
Qed.

Lemma path_end : forall h es, on_path h D es -> (forall e, In e es -> e_hash e < 2 ^ 64) -> h < 2 ^ 64 ->
  forall e, In e es -> e_hash e = h.
Proof.
  intros h es Hp Hr Hh e He. specialize (Hp e He).
  assert (H64 : 64 <= N.of_nat D * b).
  { destruct (N.le_gt_cases 64 (N.of_nat D * b)) as [Hx|Hx]; [assumption|exfalso].
    apply (D_spec ubits dbg b Hb Hdeg Hub) in Hx. lia. }
  assert (Hle : 2 ^ 64 <= 2 ^ (N.of_nat D * b)) by (apply N.pow_le_mono_r; lia).
  rewrite !N.mod_small in Hp; [assumption| |]; eapply N.lt_le_trans; eauto.
Qed.

Lemma npost_leaf : forall h m d (bk bk' : bucket), bpost m bk bk' -> npost h m d (HLeaf bk) (HLeaf bk').
Proof.
  intros h m d bk bk' Hp r es H Hd Hpath Hr Hh Hu. destruct bk as [e|l]; cbn [bpost] in Hp.
  - subst bk'. now apply (npost_refl h m d (HLeaf (BSingle e)) r es).
  - destruct r; cbn [hrepg] in H; [|destruct H as (H & _); discriminate].
    destruct H as (_ & Hl & Hlen). assert (d = D) by lia. subst d.
    assert (Hall := path_end h es Hpath Hr Hh).
    destruct (Hp es Hl Hu) as (l' & es' & lost & -> & Hl' & Hperm). split; [|split; [exists es'; now apply l_rep_lax|]].
    + exists lost. cbn [n_entries]. assert (E : l_head l' = es') by apply Hl'. rewrite E. split; [assumption|].
      intros e He. apply Hall. apply (Permutation_in _ Hperm). apply in_app_iff. now right.
    + intros Ha. exfalso. unfold alone, uniq in Ha.
      assert (E : filter (same_hash h) es = es).
      { clear - Hall. induction es as [|a es IH]; [reflexivity|]. cbn [filter]. unfold same_hash at 1.
        rewrite (Hall a (or_introl eq_refl)), N.eqb_refl, IH; [reflexivity|]. intros e He. apply Hall. now right. }
      rewrite E in Ha. lia.
Qed.

Lemma npost_branch : forall h m d s i c w c', (forall e, m e = true -> e_hash e = h) ->
  index_from_hash dbg h d degree = Ok (Some i) -> sa_get_mut ubits dbg s i = Ok (Some (c, w)) ->
  npost h m (S d) c c' -> npost h m d (HBranch s) (HBranch (w c')).
Proof.
  intros h m d s i c w c' Hm Ei Eg Hc r es H Hd Hpath Hr Hh Hu.
  destruct r as [|r]; [destruct H|]. cbn [hrepg] in H. destruct H as (al & Hw & Hch).
  rewrite (index_ok ubits dbg b Hb Hdeg Hub) in Ei by lia.
  destruct (Nat.ltb_spec d D) as [_|]; [|lia]. assert (i = idx b d h) by congruence. subst i. clear Ei.
  destruct (sa_access ubits dbg (Hu0 ubits dbg b Hb Hdeg Hub) s al (idx b d h) Hw (idx_lt ubits dbg b Hb Hdeg Hub d h))
    as [(l1 & l2 & -> & B & A & _ & Eg' & _)|(l1 & c0 & l2 & -> & B & A & _ & (w0 & Eg' & Hset) & _)];
    rewrite Eg in Eg'; [discriminate|]. assert (c0 = c) by congruence. assert (w0 = w) by congruence. subst c0 w0.
  assert (Hsm : forall e : entry, same_hash h e = true -> idx b d (e_hash e) = idx b d h).
  { intros e He. apply N.eqb_eq in He. now rewrite He. }
  destruct (chl_focus ubits dbg b Hb Hdeg Hub _ _ (same_hash h) _ _ _ _ _ Hch B A Hsm)
    as (es1 & ec & es2 & -> & N1 & N2 & C1 & C2 & Hrc & Hne & Hdg & _).
  assert (Hin : forall e, In e ec -> In e (es1 ++ ec ++ es2)) by (intros; rewrite !in_app_iff; auto).
  assert (Hpath' : on_path h (S d) ec).
  { intros e He. rewrite !(digits_step ubits dbg b Hb Hdeg Hub). rewrite (Hdg e He). f_equal. apply Hpath. auto. }
  destruct (Hc r ec Hrc ltac:(lia) Hpath' ltac:(auto) Hh (uniq_focus _ _ _ _ Hu)) as ((lost & Hp & Hlost) & Hli & Hal).
  split; [|split].
  - exists lost. split; [|assumption]. cbn [n_entries].
    assert (Ea : sa_array (w c') = map snd (l1 ++ (idx b d h, c') :: l2)) by apply (Hset c'). rewrite Ea.
    rewrite !map_app, concat_app. cbn [map concat snd].
    rewrite <- (chl_entries _ _ _ _ (fun n es => hrep_entries ubits b r (S d) n es) C1).
    rewrite <- (chl_entries _ _ _ _ (fun n es => hrep_entries ubits b r (S d) n es) C2).
    rewrite <- !app_assoc. apply Permutation_app_head. rewrite <- Hp, <- app_assoc. apply Permutation_app_head.
    apply Permutation_app_comm.
  - apply (branch_lists _ _ _ _ _ (Hset c')). now apply (chl_lists_mid ubits b _ _ _ _ _ _ _ _ _ _ _ _ Hch).
  - intros Ha. cbn [hrepg]. exists (l1 ++ (idx b d h, c') :: l2). split; [apply Hset|].
    apply (chl_put ubits dbg b Hb Hdeg Hub); auto.
    + apply Hal. exact (uniq_focus _ _ _ _ Ha).
    + discriminate.
Qed.

Lemma matches_hash : forall q h (e : entry), matches borrow qeq q h e = true -> e_hash e = h.
Proof using. intros q h e H. apply pre_matches in H. now apply N.eqb_eq. Qed.
Lemma matches_key_hash : forall k h (e : entry), matches_key keq k h e = true -> e_hash e = h.
Proof using. intros q h e H. apply pre_matches_key in H. now apply N.eqb_eq. Qed.

Lemma unwrap_ok : forall A (o : option A) a, unwrap o = Ok a -> o = Some a.
Proof using. intros A [x|] a H; [|discriminate]. cbn in H. congruence. Qed.

Lemma c_hn_get_ok : forall q h fuel (nd : node) d,
  cruns (fun n => c_hn_get ubits dbg borrow qeq fuel n q h nd d degree)
    (hn_get ubits dbg borrow qeq fuel q h nd d degree) (fun _ => True).
Proof using.
  intros q h. induction fuel as [|fuel IH]; intros nd d; cbn [c_hn_get hn_get]; [apply cruns_diverge|].
  destruct nd as [s|bk].
  - apply cruns_res. intros oi _. apply cruns_res. intros i _. apply cruns_res. intros [c|] _; [apply IH|apply cruns_ret].
  - apply c_b_find_ok. apply pre_matches.
Qed.

Lemma c_hn_get_mut_ok : forall shared q h f fuel (nd : node) d,
  cruns (fun n => c_hn_get_mut ubits dbg borrow qeq fuel n shared q h f nd d degree)
    (hn_get_mut ubits dbg borrow qeq fuel q h f nd d degree) (npost h (matches borrow qeq q h) d nd).
Proof.
  intros shared q h f. induction fuel as [|fuel IH]; intros nd d; cbn [c_hn_get_mut hn_get_mut]; [apply cruns_diverge|].
  destruct nd as [s|bk].
  - apply cruns_res. intros oi Eoi. apply cruns_res. intros i Ei. apply unwrap_ok in Ei. subst oi.
    apply cruns_res. intros [[c w]|] Eg; [|apply cruns_ret].
    eapply cruns_bind; [apply IH| |intros [c' x] _; apply cruns_ret].
    intros c' Hc. eapply npost_branch; eauto. apply matches_hash.
  - eapply cruns_bind; [apply c_b_get_mut_ok| |intros [c' x] _; apply cruns_ret].
    intros bk' Hp. now apply npost_leaf.
Qed.

Lemma c_hn_remove_ok : forall q h fuel (nd : node) d,
  cruns (fun n => c_hn_remove ubits dbg borrow qeq fuel n q h nd d degree)
    (hn_remove ubits dbg borrow qeq fuel q h nd d degree) (npost h (matches borrow qeq q h) d nd).
Proof.
  intros q h. induction fuel as [|fuel IH]; intros nd d; cbn [c_hn_remove hn_remove]; [apply cruns_diverge|].
  destruct nd as [s|bk].
  - apply cruns_res. intros oi Eoi. apply cruns_res. intros i Ei. apply unwrap_ok in Ei. subst oi.
    apply cruns_res. intros [[c w]|] Eg; [|apply cruns_ret].
    eapply cruns_bind; [apply IH| |].
    + intros c' Hc. eapply npost_branch; eauto. apply matches_hash.
    + intros [c' x] _. cbv beta iota zeta. apply cruns_res. intros em _.
      destruct em, x; try apply cruns_ret.
      * apply cruns_res. intros s2 _. apply cruns_res. intros n' _. apply cruns_ret.
      * apply cruns_res. intros n' _. apply cruns_ret.
  - eapply cruns_bind; [apply c_b_remove_ok| |intros [c' x] _; apply cruns_ret].
    intros bk' Hp. now apply npost_leaf.
Qed.

(** Inserting into an empty branch makes no comparison. *)
Lemma c_insert_empty : forall fuel n e d,
  c_hn_insert ubits dbg keq fuel n e new_empty_branch d degree
    = rmap (Done n) (hn_insert ubits dbg keq fuel e (new_empty_branch : node) d degree).
Proof using.
  intros [|fuel] n e d; [reflexivity|]. unfold new_empty_branch. cbn [c_hn_insert hn_insert]. unfold rmap.
  destruct (index_from_hash dbg (e_hash e) d degree) as [oi| |]; [cbn [bind]|reflexivity|reflexivity].
  destruct oi as [i|]; [cbn [unwrap bind]|reflexivity].
  assert (E : match sa_get_mut ubits dbg (sa_new : sarr node) i with Ok (Some _) => False | _ => True end).
  { unfold sa_get_mut. destruct (debug_assert _ _); [cbn [bind]|exact I|exact I].
    destruct (map_index _ _ _ _) as [[j|]| |]; try exact I. cbn [sa_new sa_array bind]. destruct j; exact I. }
  destruct (sa_get_mut ubits dbg (sa_new : sarr node) i) as [[x|]| |]; try reflexivity; [destruct E|].
  cbn [bind]. destruct (sa_set _ _ _ _ _); reflexivity.
Qed.

Lemma insert_empty_rep : forall r d e fuel n1 x, (d + S r = D)%nat ->
  hn_insert ubits dbg keq fuel e new_empty_branch d degree = Ok (n1, x) -> wrep (S r) d n1 [e].
Proof.
  intros r d e [|fuel] n1 x Hd E; [discriminate|]. unfold new_empty_branch in E. cbn [hn_insert] in E.
  rewrite (index_ok ubits dbg b Hb Hdeg Hub) in E by lia. destruct (Nat.ltb_spec d D) as [_|]; [|lia].
  cbn [bind unwrap] in E.
  pose proof (Hu0 ubits dbg b Hb Hdeg Hub) as Hu.
  destruct (sa_access ubits dbg Hu (sa_new : sarr node) [] (idx b d (e_hash e)) (sa_wf_new ubits dbg Hu)
      (idx_lt ubits dbg b Hb Hdeg Hub d (e_hash e)))
    as [(l1 & l2 & E0 & B & A & _ & Eg & _ & Hset)|(l1 & c & l2 & E0 & _)]; [|destruct l1; discriminate].
  rewrite Eg in E. destruct (Hset (HLeaf (BSingle e))) as (s' & Es & Hw'). cbn [bind] in E. rewrite Es in E. cbn [bind] in E.
  assert (n1 = HBranch s') by congruence. subst n1.
  destruct l1; [|discriminate]. destruct l2; [|discriminate].
  cbn [hrepg]. eexists. split; [exact Hw'|].
  change [e] with ([] ++ [e] ++ [] : list entry). apply (chl_put ubits dbg b Hb Hdeg Hub); try constructor.
  - destruct r; reflexivity.
  - discriminate.
  - intros y [<-|[]]. reflexivity.
  - discriminate.
Qed.

Lemma c_hn_insert_ok : forall fuel (e : entry) (nd : node) d,
  cruns (fun n => c_hn_insert ubits dbg keq fuel n e nd d degree)
    (hn_insert ubits dbg keq fuel e nd d degree)
    (npost (e_hash e) (matches_key keq (e_key e) (e_hash e)) d nd).
Proof.
  induction fuel as [|fuel IH]; intros e nd d; cbn [c_hn_insert hn_insert]; [apply cruns_diverge|].
  destruct nd as [s|bk].
  - apply cruns_res. intros oi Eoi. apply cruns_res. intros i Ei. apply unwrap_ok in Ei. subst oi.
    apply cruns_res. intros [[c w]|] Eg.
    + eapply cruns_bind; [apply IH| |intros [c' x] _; apply cruns_ret].
      intros c' Hc. eapply npost_branch; eauto. apply matches_key_hash.
    + apply cruns_res. intros s' _. apply cruns_ret.
  - apply cruns_res. intros oi Eoi. cbv zeta.
    set (mx := negb (is_some oi)).
    set (m := matches_key keq (e_key e) (e_hash e)).
    assert (Hins : cruns (fun n => cbind (c_b_insert keq n e bk) (fun b' : bucket => HLeaf b')
                                     (fun n '(b', new) => Ok (Done n (HLeaf b', new))))
                     (let! (b', new) := b_insert keq e bk in Ok (HLeaf b', new))
                     (npost (e_hash e) m d (HLeaf bk))).
    { eapply cruns_bind; [apply c_b_insert_ok| |intros [c' x] _; apply cruns_ret].
      intros bk' Hp. now apply npost_leaf. }
    eapply cruns_weaken with (P := npost (e_hash e) m d (HLeaf bk))
      (r := let! o := b_find m bk in
            (if mx then let! (b', new) := b_insert keq e bk in Ok (HLeaf b', new)
             else if is_some o then let! (b', new) := b_insert keq e bk in Ok (HLeaf b', new)
             else match bk with
                  | BCollision _ => Panic
                  | BSingle old =>
                      let! (n1, _) := hn_insert ubits dbg keq fuel old new_empty_branch d degree in
                      let! (n2, _) := hn_insert ubits dbg keq fuel e n1 d degree in
                      Ok (n2, true)
                  end)).
    + eapply cruns_bind; [apply c_b_find_ok; apply pre_matches_key|intros _ _; apply npost_refl|].
      intros o _. destruct mx eqn:Emx; [exact Hins|]. destruct (is_some o); [exact Hins|]. clear Hins.
      destruct bk as [old|l]; [|apply cruns_panic].
      eapply cruns_bind with (P := fun _ => False); [|intros s []|].
      * exists 0%nat. intros n. split; [|lia]. intros _. rewrite c_insert_empty, Nat.sub_0_r. reflexivity.
      * intros [n1 x] E1. eapply cruns_bind; [apply IH| |intros [n2 y] _; apply cruns_ret].
        intros n2 Hp r es H Hd Hpath Hr Hh Hu. assert (Ees : es = [old]) by (destruct r; exact H). subst es.
        destruct r as [|r].
        -- exfalso. rewrite (index_ok ubits dbg b Hb Hdeg Hub) in Eoi by lia.
           destruct (Nat.ltb_spec d D) as [|_]; [lia|]. assert (oi = None) by congruence. subst oi. discriminate.
        -- exact (Hp (S r) [old] (insert_empty_rep r d old fuel n1 x Hd E1) Hd Hpath Hr Hh Hu).
    + unfold b_contains_key. fold m. destruct (b_find m bk) as [o| |]; [|reflexivity|reflexivity].
      cbn [bind]. destruct mx; reflexivity.
    + auto.
Qed.
End HC.
Unset Default Proof Using.

(** The strict invariant implies the weak one. *)
Lemma chl_mono : forall K V (R1 R2 : hnode K V -> list (hentry K V) -> Prop) dig al es,
  (forall n es, R1 n es -> R2 n es) -> @chl K V true R1 dig al es -> @chl K V false R2 dig al es.
Proof.
  intros K V R1 R2 dig al es HR H. induction H as [|i c ec al rest Hr Hne Hd Hb2 Hrest IH]; constructor; auto; discriminate.
Qed.
Lemma hrepg_mono : forall ubits b K V r d (n : hnode K V) es,
  @hrepg ubits b K V true r d n es -> @hrepg ubits b K V false r d n es.
Proof.
  induction r as [|r IH]; intros d n es H; destruct n as [s|[e|l]]; cbn [hrepg] in *; auto.
  destruct H as (al & Hw & Hc). exists al. split; [assumption|]. eapply chl_mono; [|exact Hc]. intros. eapply IH; eassumption.
Qed.

Section HM.
Variable ubits : N.
Variable dbg : bool.
Variable b : N.
Hypothesis Hb : (0 < b)%N.
Hypothesis Hdeg : (2 ^ b <= ubits)%N.
Hypothesis Hub : (ubits <= 64)%N.
Context {K V Q : Type}.
Variable keq : K -> K -> bool.
Variable borrow : K -> Q.
Variable qeq : Q -> Q -> bool.
Variable hash : K -> N.
Variable qhash : Q -> N.
Hypothesis KL : key_laws keq borrow qeq.
Hypothesis HL : hash_laws borrow qeq hash qhash.
Variable fuel : nat.
Hypothesis Hfuel : (2 * D b < fuel)%nat.

Notation entry := (hentry K V).
Notation node := (hnode K V).
Notation degree := (2 ^ b)%N.
Notation wrep := (@hrepg ubits b K V false).
Notation wmrep := (@hm_repg ubits b K V keq hash false).
Local Open Scope N_scope.
Set Default Proof Using "dbg Hb Hdeg Hub KL HL Hfuel".

Definition crowd (h : N) (fm : fmap K V) : nat := length (filter (fun x => hash (fst x) =? h) fm).

(** What an unwound call on a map leaves. *)
Definition mpost (h : N) (m : hmap K V) (fm : fmap K V) (m' : hmap K V) : Prop :=
  hm_size m' = hm_size m /\ hm_degree m' = hm_degree m /\
  (exists lost, Permutation (map kv (n_entries (hm_root m')) ++ lost) fm /\
     forall x, In x lost -> hash (fst x) = h) /\
  lists_ok (hm_root m') /\ ((crowd h fm <= 1)%nat -> wmrep m' fm).

Lemma crowd_alone : forall h es fm, hash_ok hash es -> Permutation (map kv es) fm ->
  crowd h fm = length (filter (@same_hash K V h) es).
Proof using.
  intros h es fm Hh Hp. unfold crowd. rewrite <- (Permutation_length (Permutation_filter _ _ _ _ Hp)).
  rewrite filter_map, map_length. f_equal. apply filter_ext_in. intros e He. unfold same_hash. now rewrite (Hh e He).
Qed.

Lemma on_path_0 : forall h es, @on_path b K V h 0 es.
Proof using. intros h es e _. change (N.of_nat 0) with 0. now rewrite N.mul_0_l, N.pow_0_r, !N.mod_1_r. Qed.

Lemma npost_mpost : forall h m fm mt n', (forall e : entry, mt e = true -> e_hash e = h) -> h < 2 ^ 64 ->
  wmrep m fm -> (forall es, hash_ok hash es -> Permutation (map kv es) fm -> uniq mt es) ->
  @npost ubits b K V h mt 0 (hm_root m) n' -> mpost h m fm (hm_with m n').
Proof.
  intros h m fm mt n' Hm Hh (es & Hr & Hho & Hp & Hu & Hs & Hd) Huq Hn.
  assert (Hrange : forall e, In e es -> e_hash e < 2 ^ 64).
  { intros e He. rewrite (Hho e He), (hl_borrow _ _ _ _ HL). apply (hl_range _ _ _ _ HL). }
  destruct (Hn (D b) es Hr eq_refl (on_path_0 h es) Hrange Hh (Huq es Hho Hp)) as ((lost & Hpl & Hlost) & Hli & Hal).
  split; [reflexivity|]. split; [reflexivity|]. split; [|split; [exact Hli|]].
  - exists (map kv lost). split; [rewrite <- map_app, <- Hp; cbn [hm_with hm_root]; now apply Permutation_map|].
    intros x Hx. apply in_map_iff in Hx as (e & <- & He). cbn [kv fst]. rewrite <- (Hho e).
    + now apply Hlost.
    + apply (Permutation_in _ Hpl). apply in_app_iff. now right.
  - intros Hc. exists es. cbn [hm_with hm_root hm_size hm_degree]. repeat split; auto.
    apply Hal. unfold alone, uniq. rewrite <- (crowd_alone h es fm Hho Hp). assumption.
Qed.

(** The hash of the key an operation works on, if it works in place. *)
Definition op_hash (o : map_op K V Q) : option N :=
  match o with
  | MInsertMut k _ => Some (hash k)
  | MRemoveMut q | MGetMut q _ => Some (qhash q)
  | _ => None
  end.

Definition opost (o : map_op K V Q) (m : hmap K V) (fm : fmap K V) (m' : hmap K V) : Prop :=
  match op_hash o with Some h => mpost h m fm m' | None => m' = m end.

Lemma mpost_refl : forall h m fm, wmrep m fm -> mpost h m fm m.
Proof using.
  intros h m fm (es & Hr & Hho & Hp & Hu & Hs & Hd). split; [reflexivity|]. split; [reflexivity|]. split; [|split; [exact (hrep_lists _ _ _ _ _ _ _ _ _ Hr)|]].
  - exists []. rewrite app_nil_r. rewrite <- (hrep_entries ubits b _ _ _ _ Hr). split; [assumption|intros x []].
  - intros _. exists es. repeat split; auto.
Qed.

Lemma c_hm_step_ok : forall shared (o : map_op K V Q) m fm, wmrep m fm ->
  cruns (fun n => c_hm_step ubits dbg keq borrow qeq hash qhash fuel n shared o m)
    (hm_step ubits dbg keq borrow qeq hash qhash fuel o m) (opost o m fm).
Proof.
  intros shared o m fm Hm. assert (Hd : hm_degree m = degree) by (destruct Hm as (es & _ & _ & _ & _ & _ & Hd); exact Hd).
  assert (Hhr : forall k, hash k < 2 ^ 64).
  { intros k. rewrite (hl_borrow _ _ _ _ HL). apply (hl_range _ _ _ _ HL). }
  assert (Hu : unique_keys keq fm) by (destruct Hm as (es & _ & _ & _ & Hu & _); exact Hu).
  assert (Hins : forall k v, cruns (fun n => c_hm_insert_mut ubits dbg keq hash fuel n m k v)
      (hm_insert_mut ubits dbg keq hash fuel m k v) (mpost (hash k) m fm)).
  { intros k v. unfold c_hm_insert_mut, hm_insert_mut. rewrite Hd.
    apply cruns_call; [now apply mpost_refl|].
    eapply cruns_bind; [apply (c_hn_insert_ok ubits dbg b Hb Hdeg Hub)| |intros [root new] _; apply cruns_ret].
    intros n' Hn. eapply npost_mpost; eauto.
    - apply matches_key_hash.
    - intros es Hho Hp. cbn [e_key e_hash]. eapply (rep_uniq_k ubits dbg b Hb Hdeg Hub keq borrow qeq hash qhash KL HL fuel Hfuel); eauto. }
  assert (Hrem : forall q, cruns (fun n => c_hm_remove_mut ubits dbg borrow qeq qhash fuel n m q)
      (hm_remove_mut ubits dbg borrow qeq qhash fuel m q) (mpost (qhash q) m fm)).
  { intros q. unfold c_hm_remove_mut, hm_remove_mut. rewrite Hd.
    apply cruns_call; [now apply mpost_refl|].
    eapply cruns_bind; [apply (c_hn_remove_ok ubits dbg b Hb Hdeg Hub)| |].
    - intros n' Hn. eapply npost_mpost; eauto.
      + apply matches_hash.
      + apply (hl_range _ _ _ _ HL).
      + intros es Hho Hp. eapply (rep_uniq_q ubits dbg b Hb Hdeg Hub keq borrow qeq hash qhash KL HL fuel Hfuel); eauto.
    - intros [root removed] _. cbv beta iota. destruct removed; [|apply cruns_ret].
      apply cruns_res. intros a _. apply cruns_ret. }
  assert (Hgm : forall q f, cruns (fun n => c_hm_get_mut ubits dbg borrow qeq qhash fuel n shared m q f)
      (hm_get_mut ubits dbg borrow qeq qhash fuel m q f) (mpost (qhash q) m fm)).
  { intros q f. unfold c_hm_get_mut, hm_get_mut. rewrite Hd.
    apply cruns_call; [now apply mpost_refl|].
    eapply cruns_bind; [apply (c_hn_get_mut_ok ubits dbg b Hb Hdeg Hub)| |intros [root r] _; apply cruns_ret].
    intros n' Hn. eapply npost_mpost; eauto.
    - apply matches_hash.
    - apply (hl_range _ _ _ _ HL).
    - intros es Hho Hp. eapply (rep_uniq_q ubits dbg b Hb Hdeg Hub keq borrow qeq hash qhash KL HL fuel Hfuel); eauto. }
  assert (Hfind : forall q, cruns (fun n => c_hm_find ubits dbg borrow qeq qhash fuel n m q)
      (hm_find ubits dbg borrow qeq qhash fuel m q) (fun m' => m' = m)).
  { intros q. unfold c_hm_find, hm_find. rewrite Hd. apply cruns_call; [reflexivity|].
    eapply cruns_weaken; [eapply cruns_bind with (P' := fun m' => m' = m) (g := fun o => Ok o);
      [apply (c_hn_get_ok ubits dbg b)|auto|intros a _; apply cruns_ret]| |auto].
    now destruct (hn_get _ _ _ _ _ _ _ _ _ _). }
  unfold opost.
  destruct o as [k v|k v|q|q|q f|q|q|q| | |]; cbn [c_hm_step hm_step op_hash]; try apply cruns_ret.
  - unfold hm_insert. eapply cruns_bind; [apply Hins|auto|]. intros a _. apply cruns_ret.
  - eapply cruns_bind; [apply Hins|auto|]. intros a _. apply cruns_ret.
  - unfold hm_remove. eapply cruns_weaken with (r := let! (m', removed) := hm_remove_mut ubits dbg borrow qeq qhash fuel m q in Ok (if removed : bool then m' else m, MoUnit)) (P := fun m' => m' = m).
    + eapply cruns_bind with (P' := fun m' => m' = m); [apply Hrem|reflexivity|]. intros [m' x] _. cbv beta iota. apply cruns_ret.
    + now destruct (hm_remove_mut _ _ _ _ _ _ _ _) as [[m' x]| |].
    + auto.
  - eapply cruns_bind; [apply Hrem|auto|]. intros [m' x] _. apply cruns_ret.
  - eapply cruns_bind; [apply Hgm|auto|]. intros [m' x] _. apply cruns_ret.
  - unfold hm_get. eapply cruns_weaken with (P := fun m' => m' = m) (r := let! o := hm_find ubits dbg borrow qeq qhash fuel m q in Ok (m, MoVal (option_map e_val o))).
    + eapply cruns_bind; [apply Hfind|auto|]. intros o _. apply cruns_ret.
    + now destruct (hm_find _ _ _ _ _ _ _ _).
    + auto.
  - unfold hm_get_key_value. eapply cruns_weaken with (P := fun m' => m' = m) (r := let! o := hm_find ubits dbg borrow qeq qhash fuel m q in
        Ok (m, MoKV (option_map (fun e => (e_key e, e_val e)) o))).
    + eapply cruns_bind; [apply Hfind|auto|]. intros o _. apply cruns_ret.
    + now destruct (hm_find _ _ _ _ _ _ _ _).
    + auto.
  - unfold hm_contains_key, hm_get. eapply cruns_weaken with (P := fun m' => m' = m) (r := let! o := hm_find ubits dbg borrow qeq qhash fuel m q in Ok (m, MoBool (is_some o))).
    + eapply cruns_bind; [apply Hfind|auto|]. intros o _. apply cruns_ret.
    + destruct (hm_find _ _ _ _ _ _ _ _) as [[e|]| |]; reflexivity.
    + auto.
Qed.
End HM.
Unset Default Proof Using.

(** ** Histories *)
Section CHist.
Context {M S O X : Type}.

(** The calls that completed, and what they answered. *)
Fixpoint completed (ops : list (nat * bool * O)) (outs : list (option X)) : list O :=
  match ops, outs with
  | (_, o) :: ops, Some _ :: outs => o :: completed ops outs
  | _ :: ops, None :: outs => completed ops outs
  | _, _ => []
  end.
Fixpoint answers (outs : list (option X)) : list X :=
  match outs with
  | [] => []
  | Some x :: outs => x :: answers outs
  | None :: outs => answers outs
  end.

Variable c_step : nat -> bool -> O -> M -> res (crash M (M * X)).
Variable step_m : O -> M -> res (M * X).
Variable step_s : O -> S -> S * X.
Variable R : M -> S -> Prop.
Variable good : O -> S -> bool.
Hypothesis Hc : forall sh o m s, R m s ->
  cruns (fun n => c_step n sh o m) (step_m o m) (fun m' => good o s = true -> R m' s).
Hypothesis Hs : forall o m s, R m s ->
  exists m', step_m o m = Ok (m', snd (step_s o s)) /\ R m' (fst (step_s o s)).

(** [c_exec] answers the completed calls like the specification run on these alone. *)
Definition as_completed (ops : list (nat * bool * O)) (m : M) (s : S) (m' : M) (outs : list (option X)) : Prop :=
  c_exec c_step ops m = Ok (m', outs) /\ length outs = length ops /\
  answers outs = snd (exec_s step_s (completed ops outs) s) /\
  R m' (fst (exec_s step_s (completed ops outs) s)).

Lemma crash_history : forall ops m s, R m s ->
  (exists m' outs, as_completed ops m s m' outs) \/
  (exists ops1 n sh o ops2 m1 outs1 m2, ops = ops1 ++ (n, sh, o) :: ops2 /\
     as_completed ops1 m s m1 outs1 /\ c_step n sh o m1 = Ok (Unwound m2) /\
     good o (fst (exec_s step_s (completed ops1 outs1) s)) = false).
Proof.
  induction ops as [|((n & sh) & o) ops IH]; intros m s HR.
  - left. exists m, []. repeat split. exact HR.
  - assert (Hx : (exists k r, c_step n sh o m = Ok (Done k r) /\ step_m o m = Ok r) \/
                 (exists m2, c_step n sh o m = Ok (Unwound m2) /\ (good o s = true -> R m2 s))).
    { destruct (Hc sh o m s HR) as (c & H). destruct (H n) as (H1 & H2).
      destruct (Nat.lt_ge_cases n c) as [Hn|Hn]; [right; exact (H2 Hn)|left].
      destruct (Hs o m s HR) as (m' & E & _). rewrite E in H1. exists (n - c), (m', snd (step_s o s)). auto. }
    destruct Hx as [(k & [m1 x] & E & Em)|(m2 & E & Hg)].
    + destruct (Hs o m s HR) as (m1' & Em' & HR'). rewrite Em in Em'. assert (m1' = m1) by congruence. subst m1'.
      assert (Ex : x = snd (step_s o s)) by congruence.
      destruct (IH m1 _ HR') as [(m' & outs & E1 & E2 & E3 & E4)|(ops1 & n' & sh' & o' & ops2 & m3 & outs1 & m4 & -> & (E1 & E2 & E3 & E4) & E5 & E6)].
      * left. exists m', (Some x :: outs). split.
        { cbn [c_exec]. rewrite E. cbn [bind]. rewrite E1. reflexivity. }
        cbn [length answers completed exec_s]. destruct (step_s o s) as [s1 x1] eqn:Es. cbn [fst snd] in *.
        destruct (exec_s step_s (completed ops outs) s1) as [s2 xs]. cbn [fst snd] in *.
        repeat split; [congruence|congruence|assumption].
      * right. exists ((n, sh, o) :: ops1), n', sh', o', ops2, m3, (Some x :: outs1), m4.
        split; [reflexivity|]. split; [split; [|]|].
        { cbn [c_exec]. rewrite E. cbn [bind]. rewrite E1. reflexivity. }
        { cbn [length answers completed exec_s]. destruct (step_s o s) as [s1 x1] eqn:Es. cbn [fst snd] in *.
          destruct (exec_s step_s (completed ops1 outs1) s1) as [s2 xs]. cbn [fst snd] in *.
          repeat split; [congruence|congruence|assumption]. }
        split; [assumption|]. cbn [completed exec_s]. destruct (step_s o s) as [s1 x1] eqn:Es. cbn [fst snd] in *.
        destruct (exec_s step_s (completed ops1 outs1) s1) as [s2 xs]. exact E6.
    + destruct (good o s) eqn:Eg.
      * destruct (IH m2 s (Hg eq_refl)) as [(m' & outs & E1 & E2 & E3 & E4)|(ops1 & n' & sh' & o' & ops2 & m3 & outs1 & m4 & -> & (E1 & E2 & E3 & E4) & E5 & E6)].
        -- left. exists m', (None :: outs). split; [|split; [|split]].
           ++ cbn [c_exec]. rewrite E. cbn [bind]. rewrite E1. reflexivity.
           ++ cbn [length]. congruence.
           ++ exact E3.
           ++ exact E4.
        -- right. exists ((n, sh, o) :: ops1), n', sh', o', ops2, m3, (None :: outs1), m4.
           split; [reflexivity|]. split; [split; [|split; [|split]]|].
           ++ cbn [c_exec]. rewrite E. cbn [bind]. rewrite E1. reflexivity.
           ++ cbn [length]. congruence.
           ++ exact E3.
           ++ exact E4.
           ++ split; [assumption|exact E6].
      * right. exists [], n, sh, o, ops, m, [], m2. repeat split; auto.
Qed.
End CHist.

(** ** Crowded hashes: the first comparison loses an entry. *)
Section Loss.
Variable ubits : N.
Variable dbg : bool.
Variable b : N.
Hypothesis Hb : (0 < b)%N.
Hypothesis Hdeg : (2 ^ b <= ubits)%N.
Hypothesis Hub : (ubits <= 64)%N.
Context {K V Q : Type}.
Variable borrow : K -> Q.
Variable qeq : Q -> Q -> bool.
Notation entry := (hentry K V).
Notation node := (hnode K V).
Notation degree := (2 ^ b)%N.
Notation D := (D b).
Notation wrep := (@hrepg ubits b K V false).
Local Open Scope N_scope.

Lemma c_lrf_first : forall (h : N) (p : entry -> bool) (l : rlist entry) e es, l_rep l (e :: es) -> e_hash e = h ->
  exists l', c_list_remove_first (same_hash h) p 0 l = Ok (Unwound l') /\ l_rep l' es.
Proof using.
  intros h p l e es Hl He. unfold c_list_remove_first. cbn [c_lrf_loop].
  rewrite (l_rep_is_empty _ _ Hl). cbn [is_nil]. rewrite (l_rep_first _ _ Hl). cbn [hd_error unwrap bind].
  destruct (l_rep_drop _ _ Hl) as (l' & -> & Hl'). cbn [bind tl] in *. unfold ask, same_hash.
  rewrite He, N.eqb_refl. cbn [ucall]. unfold cbind. cbn [bind]. eauto.
Qed.

Lemma crowded_node : forall {Y : Type} (h : N) (run : nat -> node -> nat -> res (crash node Y)),
  (forall fuel s d index c w c', index_from_hash dbg h d degree = Ok (Some index) ->
     sa_get_mut ubits dbg s index = Ok (Some (c, w)) -> run fuel c (S d) = Ok (Unwound c') ->
     run (S fuel) (HBranch s) d = Ok (Unwound (HBranch (w c')))) ->
  (forall fuel l d e es, l_rep l (e :: es) -> e_hash e = h ->
     exists l', run (S fuel) (HLeaf (BCollision l)) d = Ok (Unwound (HLeaf (BCollision l'))) /\ l_rep l' es) ->
  forall r d n es fuel, wrep r d n es -> (d + r = D)%nat -> (r < fuel)%nat -> @on_path b K V h d es ->
    (forall e, In e es -> e_hash e < 2 ^ 64) -> h < 2 ^ 64 -> ~ alone h es ->
    exists n', run fuel n d = Ok (Unwound n') /\ S (length (n_entries n')) = length es /\ lists_ok n'.
Proof using dbg Hb Hdeg Hub.
  intros Y h run Hbr Hco. induction r as [|r IH]; intros d n es fuel H Hd Hf Hpath Hr Hh Ha;
    (destruct fuel as [|fuel]; [lia|]); destruct n as [s|[e|l]].
  - destruct H.
  - exfalso. apply Ha. cbn [hrepg] in H. subst es. unfold alone, uniq. cbn [filter]. destruct (same_hash h e); simpl; lia.
  - cbn [hrepg] in H. destruct H as (_ & Hl & Hlen). assert (d = D) by lia. subst d.
    pose proof (path_end ubits dbg b Hb Hdeg Hub h es Hpath Hr Hh) as Hall.
    destruct es as [|e es]; [simpl in Hlen; lia|].
    destruct (Hco fuel l D e es Hl (Hall e (or_introl eq_refl))) as (l' & E & Hl').
    eexists. split; [exact E|]. split; [|exists es; now apply l_rep_lax]. cbn [n_entries length]. f_equal. assert (El : l_head l' = es) by apply Hl'. now rewrite El.
  - cbn [hrepg] in H. destruct H as (al & Hw & Hch).
    assert (Ei : index_from_hash dbg h d degree = Ok (Some (idx b d h))).
    { rewrite (index_ok ubits dbg b Hb Hdeg Hub) by lia. destruct (Nat.ltb_spec d D) as [_|]; [reflexivity|lia]. }
    assert (Hsm : forall e : entry, same_hash h e = true -> idx b d (e_hash e) = idx b d h).
    { intros e He. apply N.eqb_eq in He. now rewrite He. }
    destruct (sa_access ubits dbg (Hu0 ubits dbg b Hb Hdeg Hub) s al (idx b d h) Hw (idx_lt ubits dbg b Hb Hdeg Hub d h))
      as [(l1 & l2 & -> & B & A & _ & Eg & _)|(l1 & c & l2 & -> & B & A & _ & (w & Eg & Hset) & _)].
    + exfalso. apply Ha. unfold alone, uniq.
      pose proof (chl_hole ubits dbg b Hb Hdeg Hub _ _ (same_hash h) _ _ _ _ Hch B A Hsm) as Hn.
      apply nomatch_filter0 in Hn. rewrite Hn. simpl. lia.
    + destruct (chl_focus ubits dbg b Hb Hdeg Hub _ _ (same_hash h) _ _ _ _ _ Hch B A Hsm)
        as (es1 & ec & es2 & -> & N1 & N2 & C1 & C2 & Hrc & Hne & Hdg & _).
      assert (Hin : forall e, In e ec -> In e (es1 ++ ec ++ es2)) by (intros; rewrite !in_app_iff; auto).
      destruct (IH (S d) c ec fuel Hrc ltac:(lia) ltac:(lia)) as (c' & E & Hlen & Hli); auto.
      * intros e He. rewrite !(digits_step ubits dbg b Hb Hdeg Hub). rewrite (Hdg e He). f_equal. apply Hpath. auto.
      * intros Hx. apply Ha. unfold alone, uniq in *. rewrite !filter_app, !app_length.
        apply nomatch_filter0 in N1. apply nomatch_filter0 in N2. rewrite N1, N2. simpl. lia.
      * exists (HBranch (w c')). split; [exact (Hbr fuel s d _ c w c' Ei Eg E)|]. split;
          [|apply (branch_lists _ _ _ _ _ (Hset c')); now apply (chl_lists_mid ubits b _ _ _ _ _ _ _ _ _ _ _ _ Hch)].
        cbn [n_entries].
        assert (Ea : sa_array (w c') = map snd (l1 ++ (idx b d h, c') :: l2)) by apply (Hset c'). rewrite Ea.
        rewrite !map_app, concat_app. cbn [map concat snd].
        rewrite <- (chl_entries _ _ _ _ (fun n es => hrep_entries ubits b r (S d) n es) C1).
        rewrite <- (chl_entries _ _ _ _ (fun n es => hrep_entries ubits b r (S d) n es) C2).
        rewrite !app_length. lia.
  - exfalso. apply Ha. cbn [hrepg] in H. subst es. unfold alone, uniq. cbn [filter]. destruct (same_hash h e); simpl; lia.
  - destruct H as (H & _). discriminate.
Qed.

Lemma c_hn_remove_crowded : forall q h r d n es fuel, wrep r d n es -> (d + r = D)%nat -> (r < fuel)%nat ->
  @on_path b K V h d es -> (forall e, In e es -> e_hash e < 2 ^ 64) -> h < 2 ^ 64 -> ~ alone h es ->
  exists n', c_hn_remove ubits dbg borrow qeq fuel 0 q h n d degree = Ok (Unwound n') /\
    S (length (n_entries n')) = length es /\ lists_ok n'.
Proof using Hb Hdeg Hub.
  intros q h. apply (crowded_node h (fun fuel n d => c_hn_remove ubits dbg borrow qeq fuel 0 q h n d degree)).
  - intros fuel s d index c w c' Ei Eg E. cbn [c_hn_remove]. rewrite Ei. cbn [bind unwrap]. rewrite Eg. cbn [bind].
    rewrite E. reflexivity.
  - intros fuel l d e es Hl He. destruct (c_lrf_first h (matches borrow qeq q h) l e es Hl He) as (l' & E & Hl').
    exists l'. split; [|assumption]. cbn [c_hn_remove c_b_remove]. rewrite E. reflexivity.
Qed.

Lemma c_hn_get_mut_crowded : forall sh q f h r d n es fuel, wrep r d n es -> (d + r = D)%nat -> (r < fuel)%nat ->
  @on_path b K V h d es -> (forall e, In e es -> e_hash e < 2 ^ 64) -> h < 2 ^ 64 -> ~ alone h es ->
  exists n', c_hn_get_mut ubits dbg borrow qeq fuel 0 sh q h f n d degree = Ok (Unwound n') /\
    S (length (n_entries n')) = length es /\ lists_ok n'.
Proof using Hb Hdeg Hub.
  intros sh q f h. apply (crowded_node h (fun fuel n d => c_hn_get_mut ubits dbg borrow qeq fuel 0 sh q h f n d degree)).
  - intros fuel s d index c w c' Ei Eg E. cbn [c_hn_get_mut]. rewrite Ei. cbn [bind unwrap]. rewrite Eg. cbn [bind].
    rewrite E. reflexivity.
  - intros fuel l d e es Hl He. destruct (c_lrf_first h (matches borrow qeq q h) l e es Hl He) as (l' & E & Hl').
    exists l'. split; [|assumption]. cbn [c_hn_get_mut c_b_get_mut]. rewrite E. reflexivity.
Qed.
End Loss.
