(** With user code that keeps the laws, the functions of LawlessModel.v are those of RBModel.v
    and HashModel.v. *)
From Coq Require Import List NArith Arith Bool Lia.
From Verif Require Import Base Spec SpecMap ListModel SparseModel RBModel HashModel LawlessModel.
Import ListNotations.

Definition good {W S A} (w : W) (r : res A) : res (W * uout S A) := rmap (fun a => (w, Gave a)) r.

Section RB.
Context {W K V Q : Type}.
Variable dbg : bool.
Variable kcmp : K -> K -> comparison.
Variable borrow : K -> Q.
Variable qcmp : Q -> Q -> comparison.

(** Comparisons that are functions and do not panic; clones are equal. *)
Definition pure_ord : ord_code W K V Q :=
  mkOrd _ _ _ _ (fun w a b => (w, Some (kcmp a b))) (fun w q k => (w, Some (qcmp q (borrow k)))) (fun w e => (w, Some e)).

Lemma agree_get : forall w (t : tree K V) q, w_t_get pure_ord w t q = good w (Ok (t_get borrow qcmp t q)).
Proof.
  intros w. induction t as [|e c l IHl r IHr]; intros q; cbn [w_t_get t_get]; [reflexivity|].
  cbn [pure_ord oc_query wcall]. destruct (qcmp q (borrow (fst e))); auto.
Qed.

Lemma agree_ins : forall w (t : tree K V) k v root, w_ins pure_ord w t k v root = good w (ins kcmp t k v root).
Proof.
  intros w. induction t as [|e c l IHl r IHr]; intros k v root; cbn [w_ins ins]; [reflexivity|].
  cbn [pure_ord oc_key wcall]. destruct (kcmp k (fst e)).
  - reflexivity.
  - rewrite IHl. unfold good, rmap, wbind. destruct (ins kcmp l k v false) as [[l' new]| |]; try reflexivity. cbn [bind].
    destruct new; [|reflexivity]. destruct (balance _) as [n| |]; reflexivity.
  - rewrite IHr. unfold good, rmap, wbind. destruct (ins kcmp r k v false) as [[r' new]| |]; try reflexivity. cbn [bind].
    destruct new; [|reflexivity]. destruct (balance _) as [n| |]; reflexivity.
Qed.

Lemma agree_del : forall w (t : tree K V) q root, w_del dbg pure_ord w t q root = good w (del dbg borrow qcmp t q root).
Proof.
  intros w. induction t as [|e c l IHl r IHr]; intros q root; cbn [w_del del]; [reflexivity|].
  cbn [pure_ord oc_query wcall]. destruct (qcmp q (borrow (fst e))).
  - destruct (remove_fuse dbg _ _ _) as [[n fused]| |]; try reflexivity.
  - rewrite IHl. unfold good, rmap, wbind. destruct (del dbg borrow qcmp l q false) as [[l' rem]| |]; try reflexivity. cbn [bind].
    destruct (left_color (mkNode e c l r)) as [[|]|]; try reflexivity. destruct (remove_balance_left dbg _) as [n| |]; reflexivity.
  - rewrite IHr. unfold good, rmap, wbind. destruct (del dbg borrow qcmp r q false) as [[r' rem]| |]; try reflexivity. cbn [bind].
    destruct (right_color (mkNode e c l r)) as [[|]|]; try reflexivity. destruct (remove_balance_right dbg _) as [n| |]; reflexivity.
Qed.

Lemma agree_get_mut : forall w sh (t : tree K V) q f, w_t_get_mut pure_ord w sh t q f = good w (Ok (t_get_mut borrow qcmp t q f)).
Proof.
  intros w sh. induction t as [|e c l IHl r IHr]; intros q f; cbn [w_t_get_mut t_get_mut]; [reflexivity|].
  cbn [pure_ord oc_query wcall]. destruct (qcmp q (borrow (fst e))).
  - destruct sh; reflexivity.
  - rewrite IHl. cbn. destruct (t_get_mut borrow qcmp l q f). reflexivity.
  - rewrite IHr. cbn. destruct (t_get_mut borrow qcmp r q f). reflexivity.
Qed.

Lemma agree_rb_step : forall w sh o (m : rbmap K V),
  w_rb_step dbg pure_ord w sh o m = good w (rb_step dbg kcmp borrow qcmp o m).
Proof.
  intros w sh o m. destruct o as [k v|k v|q|q|q f|q|q|q| | |]; cbn [w_rb_step rb_step]; try reflexivity.
  - unfold rb_insert, rb_insert_mut, n_insert, w_rb_insert_mut. rewrite agree_ins. destruct (ins kcmp (rb_root m) k v true) as [[t new]| |]; reflexivity.
  - unfold rb_insert_mut, n_insert, w_rb_insert_mut. rewrite agree_ins. destruct (ins kcmp (rb_root m) k v true) as [[t new]| |]; reflexivity.
  - unfold rb_remove, rb_remove_mut, n_remove, w_rb_remove_mut. rewrite agree_del. destruct (del dbg borrow qcmp (rb_root m) q true) as [[t rem]| |]; try reflexivity.
    cbn. destruct rem; [destruct (csub (rb_size m) 1)|]; reflexivity.
  - unfold rb_remove_mut, n_remove, w_rb_remove_mut. rewrite agree_del. destruct (del dbg borrow qcmp (rb_root m) q true) as [[t rem]| |]; try reflexivity.
    cbn. destruct rem; [destruct (csub (rb_size m) 1)|]; reflexivity.
  - unfold rb_get_mut, w_rb_get_mut. rewrite agree_get_mut. destruct (t_get_mut borrow qcmp (rb_root m) q f). reflexivity.
  - unfold w_rb_find. rewrite agree_get. reflexivity.
  - unfold w_rb_find. rewrite agree_get. reflexivity.
  - unfold w_rb_find, rb_contains_key, rb_get. rewrite agree_get. cbn. destruct (t_get borrow qcmp (rb_root m) q); reflexivity.
Qed.

(** ** Iterators *)
Variable sb eb : bound Q.
Definition pure_range : range_code W K :=
  mkRange _ _ (fun w k => (w, Some (above qcmp sb (borrow k)))) (fun w k => (w, Some (below qcmp eb (borrow k))))
    (fun w a b => (w, Some match kcmp a b with Gt => true | _ => false end)).

Definition strip (i : riter K V Q) : witer K V := mkWI (ri_map i) (ri_fwd i) (ri_bwd i).

Lemma agree_dig : forall w bw (t : tree K V) st, w_dig_towards pure_range w bw t st = (w, Some (s_dig_towards borrow qcmp bw sb eb t st)).
Proof.
  intros w bw. induction t as [|e c l IHl r IHr]; intros st; cbn [w_dig_towards s_dig_towards]; [reflexivity|].
  destruct bw; cbn [pure_range rg_start rg_end]; [destruct (below qcmp eb (borrow (fst e)))|destruct (above qcmp sb (borrow (fst e)))]; auto.
Qed.
Lemma agree_clear : forall w (s : istk K V), w_clear_if_finished pure_range w s = (w, Gave (s_clear_if_finished borrow qcmp sb eb s)).
Proof.
  intros w s. unfold w_clear_if_finished, s_clear_if_finished. destruct (s_current s); [|reflexivity].
  destruct (s_backwards s); reflexivity.
Qed.
Lemma agree_advance : forall w (s : istk K V), w_s_advance pure_range w s = (w, Gave (s_advance borrow qcmp sb eb s)).
Proof. intros w s. unfold w_s_advance, s_advance. destruct (s_stack s); [reflexivity|]. apply agree_clear. Qed.
Lemma agree_init : forall w bw (i : riter K V Q), ri_start i = sb -> ri_end i = eb ->
  wi_init pure_range bw w (strip i) = (w, Some (strip (ri_init borrow qcmp bw i))).
Proof.
  intros w bw i H1 H2. unfold wi_init, ri_init, w_s_new, s_new. cbn [strip wi_map].
  destruct bw; cbn [wi_stack strip wi_fwd wi_bwd].
  - destruct (ri_bwd i) eqn:E; [reflexivity|]. rewrite agree_dig, agree_clear, H1, H2. reflexivity.
  - destruct (ri_fwd i) eqn:E; [reflexivity|]. rewrite agree_dig, agree_clear, H1, H2. reflexivity.
Qed.
Lemma agree_iter : forall w bw (i : riter K V Q), ri_start i = sb -> ri_end i = eb ->
  wi_step pure_range bw w (strip i)
    = good w (rmap (fun p => (strip (snd p), fst p))
        (if bw then ri_next_back kcmp borrow qcmp i else ri_next kcmp borrow qcmp i)).
Proof.
  intros w bw i H1 H2. unfold wi_step. rewrite agree_init by assumption. cbn [wcall].
  assert (H3 : ri_start (ri_init borrow qcmp bw i) = sb /\ ri_end (ri_init borrow qcmp bw i) = eb).
  { unfold ri_init. destruct bw; [destruct (ri_bwd i)|destruct (ri_fwd i)]; auto. }
  destruct H3 as [H3 H4]. unfold ri_next, ri_next_back.
  assert (He : forall j : riter K V Q, wi_is_empty pure_range w (strip j) = (w, Some (ri_is_empty kcmp j))).
  { intros j. unfold wi_is_empty, ri_is_empty. cbn [strip wi_fwd wi_bwd]. destruct (ri_fwd j), (ri_bwd j); try reflexivity.
    destruct (s_current i0), (s_current i1); reflexivity. }
  destruct bw; set (j := ri_init borrow qcmp _ i) in *; clearbody j; rewrite He; cbn [wcall];
    unfold ri_current_forward, ri_current_backward, ri_advance_forward, ri_advance_backward; cbn [wi_stack strip wi_fwd wi_bwd].
  - destruct (ri_is_empty kcmp j), (ri_bwd j) as [s|]; cbn [unwrap bind]; try reflexivity; rewrite agree_advance, H3, H4; reflexivity.
  - destruct (ri_is_empty kcmp j), (ri_fwd j) as [s|]; cbn [unwrap bind]; try reflexivity; rewrite agree_advance, H3, H4; reflexivity.
Qed.
End RB.

Section Hash.
Variable ubits : N.
Variable dbg : bool.
Context {W K V Q : Type}.
Variable keq : K -> K -> bool.
Variable borrow : K -> Q.
Variable qeq : Q -> Q -> bool.
Variable hash : K -> N.
Variable qhash : Q -> N.

Definition pure_hash : hash_code W K V Q :=
  mkHash _ _ _ _ (fun w k => (w, Some (hash k))) (fun w q => (w, Some (qhash q))) (fun w a b => (w, Some (keq a b)))
    (fun w k q => (w, Some (qeq (borrow k) q))) (fun w e => (w, Some e)).

Notation entry := (hentry K V).
Lemma pure_matches : forall q h w (e : entry), w_matches pure_hash q h w e = (w, Some (matches borrow qeq q h e)).
Proof. intros q h w e. unfold w_matches, matches. destruct (N.eqb (e_hash e) h); reflexivity. Qed.
Lemma pure_matches_key : forall k h w (e : entry), w_matches_key pure_hash k h w e = (w, Some (matches_key keq k h e)).
Proof. intros k h w e. unfold w_matches_key, matches_key. destruct (N.eqb (e_hash e) h); reflexivity. Qed.

Section Test.
Variable test : W -> entry -> W * option bool.
Variable p : entry -> bool.
Hypothesis Hp : forall w e, test w e = (w, Some (p e)).
Lemma agree_find : forall w l, w_find test w l = good w (Ok (find p l)).
Proof using Hp. intros w. induction l as [|a l IH]; cbn [w_find find]; [reflexivity|]. rewrite Hp. cbn [wcall]. destruct (p a); [reflexivity|exact IH]. Qed.
Lemma agree_lrf : forall fuel w before l, w_lrf_loop test fuel w before l = good w (lrf_loop fuel p before l).
Proof using Hp.
  induction fuel as [|fuel IH]; intros w before l; cbn [w_lrf_loop lrf_loop]; [reflexivity|].
  destruct (l_is_empty l); [reflexivity|]. destruct (unwrap (l_first l)); [|reflexivity|reflexivity]. cbn [bind].
  destruct (l_drop_first_mut l) as [[l' ?]| |]; [|reflexivity|reflexivity]. cbn [bind]. rewrite Hp. cbn [wcall].
  destruct (p a); [reflexivity|]. apply IH.
Qed.
Lemma agree_remove_first : forall w l, w_list_remove_first test w l = good w (list_remove_first l p).
Proof using Hp.
  intros w l. unfold w_list_remove_first, list_remove_first. rewrite agree_lrf.
  destruct (lrf_loop (S (l_len l)) p [] l) as [[[rem bef] o]| |]; reflexivity.
Qed.
Lemma agree_b_find : forall w b, w_b_find w test b = good w (b_find p b).
Proof using Hp.
  intros w [e|l]; cbn [w_b_find b_find]; [rewrite Hp; reflexivity|]. destruct (l_elems l); try reflexivity. apply agree_find.
Qed.
End Test.

Lemma agree_b_get_mut : forall w sh q h f (b : hbucket K V), w_b_get_mut pure_hash w sh q h f b = good w (b_get_mut borrow qeq q h f b).
Proof.
  intros w sh q h f [e|l]; cbn [w_b_get_mut b_get_mut].
  - rewrite pure_matches. cbn [wcall]. destruct (matches borrow qeq q h e); [|reflexivity].
    unfold w_value_mut. destruct sh; reflexivity.
  - rewrite (agree_remove_first _ _ (pure_matches q h)). destruct (list_remove_first l (matches borrow qeq q h)) as [[l' [e|]]| |]; try reflexivity.
    unfold w_value_mut. destruct sh; reflexivity.
Qed.
Lemma agree_b_insert : forall w e (b : hbucket K V), w_b_insert pure_hash w e b = good w (b_insert keq e b).
Proof.
  intros w e [o|l]; cbn [w_b_insert b_insert].
  - rewrite pure_matches_key. cbn [wcall]. destruct (matches_key keq (e_key e) (e_hash e) o); reflexivity.
  - rewrite (agree_remove_first _ _ (pure_matches_key (e_key e) (e_hash e))).
    destruct (list_remove_first l (matches_key keq (e_key e) (e_hash e))) as [[l' o]| |]; reflexivity.
Qed.
Lemma agree_b_remove : forall w q h (b : hbucket K V), w_b_remove pure_hash w q h b = good w (b_remove borrow qeq q h b).
Proof.
  intros w q h [o|l]; cbn [w_b_remove b_remove].
  - rewrite pure_matches. cbn [wcall]. destruct (matches borrow qeq q h o); reflexivity.
  - rewrite (agree_remove_first _ _ (pure_matches q h)). destruct (list_remove_first l (matches borrow qeq q h)) as [[l' o]| |]; try reflexivity.
    cbn. destruct (l_len l') as [|[|?]]; try reflexivity. destruct (unwrap (l_first l')); reflexivity.
Qed.

Lemma agree_hn_get : forall fuel w q h (n : hnode K V) d deg,
  w_hn_get ubits dbg pure_hash fuel w q h n d deg = good w (hn_get ubits dbg borrow qeq fuel q h n d deg).
Proof.
  induction fuel as [|fuel IH]; intros w q h n d deg; cbn [w_hn_get hn_get]; [reflexivity|]. destruct n as [s|b].
  - destruct (index_from_hash dbg h d deg) as [oi| |]; try reflexivity. cbn [bind].
    destruct (unwrap oi) as [i| |]; try reflexivity. cbn [bind]. destruct (sa_get ubits dbg s i) as [[c|]| |]; try reflexivity. apply IH.
  - apply agree_b_find. intros. apply pure_matches.
Qed.
Lemma agree_hn_get_mut : forall fuel w sh q h f (n : hnode K V) d deg,
  w_hn_get_mut ubits dbg pure_hash fuel w sh q h f n d deg = good w (hn_get_mut ubits dbg borrow qeq fuel q h f n d deg).
Proof.
  induction fuel as [|fuel IH]; intros w sh q h f n d deg; cbn [w_hn_get_mut hn_get_mut]; [reflexivity|]. destruct n as [s|b].
  - destruct (index_from_hash dbg h d deg) as [oi| |]; try reflexivity. cbn [bind].
    destruct (unwrap oi) as [i| |]; try reflexivity. cbn [bind]. destruct (sa_get_mut ubits dbg s i) as [[[c wr]|]| |]; try reflexivity.
    cbn [bind]. rewrite IH. destruct (hn_get_mut ubits dbg borrow qeq fuel q h f c (S d) deg) as [[c' r]| |]; reflexivity.
  - rewrite agree_b_get_mut. destruct (b_get_mut borrow qeq q h f b) as [[b' r]| |]; reflexivity.
Qed.
Lemma agree_hn_insert : forall fuel w e (n : hnode K V) d deg,
  w_hn_insert ubits dbg pure_hash fuel w e n d deg = good w (hn_insert ubits dbg keq fuel e n d deg).
Proof.
  induction fuel as [|fuel IH]; intros w e n d deg; cbn [w_hn_insert hn_insert]; [reflexivity|]. destruct n as [s|b].
  - destruct (index_from_hash dbg (e_hash e) d deg) as [oi| |]; try reflexivity. cbn [bind].
    destruct (unwrap oi) as [i| |]; try reflexivity. cbn [bind]. destruct (sa_get_mut ubits dbg s i) as [[[c wr]|]| |]; try reflexivity; cbn [bind].
    + rewrite IH. destruct (hn_insert ubits dbg keq fuel e c (S d) deg) as [[c' r]| |]; reflexivity.
    + destruct (sa_set ubits dbg s i (HLeaf (BSingle e))); reflexivity.
  - destruct (index_from_hash dbg (e_hash e) d deg) as [oi| |]; try reflexivity. cbn [bind]. unfold b_contains_key.
    rewrite (agree_b_find _ _ (pure_matches_key (e_key e) (e_hash e))).
    destruct (b_find (matches_key keq (e_key e) (e_hash e)) b) as [o| |]; try reflexivity. cbn [good rmap wbind bind].
    assert (X : forall w, wbind (w_b_insert pure_hash w e b) (fun b' : hbucket K V => HLeaf b')
        (fun w0 '(b', new) => Ok (w0, Gave (HLeaf b', new))) = good w (let! (b', new) := b_insert keq e b in Ok (HLeaf b', new))).
    { intros w0. rewrite agree_b_insert. destruct (b_insert keq e b) as [[b' new]| |]; reflexivity. }
    destruct (negb (is_some oi)); [apply X|]. destruct (is_some o); [apply X|]. destruct b as [old|l]; [|reflexivity].
    rewrite IH. destruct (hn_insert ubits dbg keq fuel old new_empty_branch d deg) as [[n1 b1]| |]; try reflexivity. cbn [good rmap wbind bind].
    rewrite IH. destruct (hn_insert ubits dbg keq fuel e n1 d deg) as [[n2 b2]| |]; reflexivity.
Qed.
Lemma agree_hn_remove : forall fuel w q h (n : hnode K V) d deg,
  w_hn_remove ubits dbg pure_hash fuel w q h n d deg = good w (hn_remove ubits dbg borrow qeq fuel q h n d deg).
Proof.
  induction fuel as [|fuel IH]; intros w q h n d deg; cbn [w_hn_remove hn_remove]; [reflexivity|]. destruct n as [s|b].
  - destruct (index_from_hash dbg h d deg) as [oi| |]; try reflexivity. cbn [bind].
    destruct (unwrap oi) as [i| |]; try reflexivity. cbn [bind]. destruct (sa_get_mut ubits dbg s i) as [[[c wr]|]| |]; try reflexivity.
    cbn [bind]. rewrite IH. destruct (hn_remove ubits dbg borrow qeq fuel q h c (S d) deg) as [[c' r]| |]; try reflexivity.
    cbn [good rmap wbind bind]. destruct (hn_is_empty dbg c') as [em| |]; try reflexivity. cbn [bind]. destruct em, r; try reflexivity.
    + destruct (sa_remove ubits dbg (wr c') i) as [s2| |]; try reflexivity. cbn [bind]. destruct (hn_compress (HBranch s2)); reflexivity.
    + destruct (hn_compress (HBranch (wr c'))); reflexivity.
  - rewrite agree_b_remove. destruct (b_remove borrow qeq q h b) as [[ob r]| |]; reflexivity.
Qed.

Variable fuel : nat.
Lemma agree_hm_step : forall w sh o (m : hmap K V),
  w_hm_step ubits dbg pure_hash fuel w sh o m = good w (hm_step ubits dbg keq borrow qeq hash qhash fuel o m).
Proof.
  intros w sh o m. destruct o as [k v|k v|q|q|q f|q|q|q| | |]; cbn [w_hm_step hm_step]; try reflexivity.
  - unfold hm_insert, hm_insert_mut, w_hm_insert_mut. cbn [pure_hash hc_hash wcall]. fold pure_hash. rewrite agree_hn_insert.
    destruct (hn_insert ubits dbg keq fuel _ _ _ _) as [[r new]| |]; reflexivity.
  - unfold hm_insert_mut, w_hm_insert_mut. cbn [pure_hash hc_hash wcall]. fold pure_hash. rewrite agree_hn_insert.
    destruct (hn_insert ubits dbg keq fuel _ _ _ _) as [[r new]| |]; reflexivity.
  - unfold hm_remove, hm_remove_mut, w_hm_remove_mut. cbn [pure_hash hc_query_hash wcall]. fold pure_hash. rewrite agree_hn_remove.
    destruct (hn_remove ubits dbg borrow qeq fuel _ _ _ _ _) as [[r [|]]| |]; try reflexivity. cbn. destruct (csub (hm_size m) 1); reflexivity.
  - unfold hm_remove_mut, w_hm_remove_mut. cbn [pure_hash hc_query_hash wcall]. fold pure_hash. rewrite agree_hn_remove.
    destruct (hn_remove ubits dbg borrow qeq fuel _ _ _ _ _) as [[r [|]]| |]; try reflexivity. cbn. destruct (csub (hm_size m) 1); reflexivity.
  - unfold hm_get_mut, w_hm_get_mut. cbn [pure_hash hc_query_hash wcall]. fold pure_hash. rewrite agree_hn_get_mut.
    destruct (hn_get_mut ubits dbg borrow qeq fuel _ _ _ _ _ _) as [[r x]| |]; reflexivity.
  - unfold hm_get, hm_find, w_hm_find. cbn [pure_hash hc_query_hash wcall]. fold pure_hash. rewrite agree_hn_get.
    destruct (hn_get ubits dbg borrow qeq fuel _ _ _ _ _) as [x| |]; reflexivity.
  - unfold hm_get_key_value, hm_find, w_hm_find. cbn [pure_hash hc_query_hash wcall]. fold pure_hash. rewrite agree_hn_get.
    destruct (hn_get ubits dbg borrow qeq fuel _ _ _ _ _) as [x| |]; reflexivity.
  - unfold hm_contains_key, hm_get, hm_find, w_hm_find. cbn [pure_hash hc_query_hash wcall]. fold pure_hash. rewrite agree_hn_get.
    destruct (hn_get ubits dbg borrow qeq fuel _ _ _ _ _) as [[x|]| |]; reflexivity.
Qed.
End Hash.
