(** How often HashTrieMap calls user code.  The functions of LawlessModel.v are run with user
    code that also writes down each call. *)
From Coq Require Import List NArith Arith Bool Lia.
From Verif Require Import Base Spec SpecMap Sim ListModel ListProofs SparseModel SparseProofs HashModel HashProofs HashHist LawlessModel.
Import ListNotations.

(** [Hash::hash]; [Eq::eq] with the key [k] of the map; [Clone::clone] of an entry. *)
Inductive ucall (K : Type) : Type :=
| CHash
| CEq (k : K)
| CClone.
Arguments CHash {K}.
Arguments CEq {K} k.
Arguments CClone {K}.

(** The log is in the world, the latest call first. *)
Definition log1 {W A K} (c : ucall K) (L : list (ucall K)) (r : W * option A) : W * list (ucall K) * option A :=
  (fst r, c :: L, snd r).
Definition noted {W K V Q} (U : hash_code W K V Q) : hash_code (W * list (ucall K)) K V Q :=
  mkHash _ _ _ _
    (fun '(w, L) k => log1 CHash L (hc_hash U w k))
    (fun '(w, L) q => log1 CHash L (hc_query_hash U w q))
    (fun '(w, L) a b => log1 (CEq a) L (hc_key U w a b))
    (fun '(w, L) k q => log1 (CEq k) L (hc_query U w k q))
    (fun '(w, L) e => log1 CClone L (hc_clone U w e)).

Section Forget.
Variable ubits : N.
Variable dbg : bool.
Context {W K V Q : Type}.
Variable U : hash_code W K V Q.
Notation LW := (W * list (ucall K))%type.
Notation entry := (hentry K V).
Notation NU := (noted U).

Definition unlog {X} (r : res (LW * X)) : res (W * X) := let! (w, x) := r in Ok (fst w, x).

Lemma un_bind : forall S S' A B (r : res (W * uout S A)) rl (k : S -> S') (f : W -> A -> res (W * uout S' B)) g,
  unlog rl = r -> (forall w L x, unlog (g (w, L) x) = f w x) -> unlog (wbind rl k g) = wbind r k f.
Proof. intros S S' A B r rl k f g <- H. destruct rl as [[[w L] [a|s]]| |]; try reflexivity. cbn. apply H. Qed.
Lemma un_call : forall X S A (r : W * option X) (rl : LW * option X) (s : S) (f : W -> X -> res (W * uout S A)) g,
  (fst (fst rl), snd rl) = r -> (forall w L x, unlog (g (w, L) x) = f w x) -> unlog (wcall rl s g) = wcall r s f.
Proof. intros X S A r [[w L] [x|]] s f g <- H; [|reflexivity]. cbn. apply H. Qed.
Lemma un_pure : forall A B (r : res A) (f : A -> res (LW * B)) g,
  (forall a, unlog (f a) = g a) -> unlog (bind r f) = bind r g.
Proof. intros A B [a| |] f g H; try reflexivity. apply H. Qed.
Ltac un := repeat first
  [ reflexivity
  | match goal with
    | H : _ |- _ => apply H
    | |- unlog (wbind _ _ _) = _ => apply un_bind; [|intros ? ? ?; cbv beta]
    | |- unlog (bind _ _) = _ => apply un_pure; intros ?
    | |- unlog (let '(_, _) := ?x in _) = _ => destruct x
    | |- unlog (match ?x with _ => _ end) = _ => destruct x
    end ].

Definition same_test (t' : LW -> entry -> LW * option bool) (t : W -> entry -> W * option bool) : Prop :=
  forall w L e, (fst (fst (t' (w, L) e)), snd (t' (w, L) e)) = t w e.
Lemma same_query : forall q h, same_test (w_matches NU q h) (w_matches U q h).
Proof.
  intros q h w L e. unfold w_matches. destruct (N.eqb (e_hash e) h); [|reflexivity]. cbn. symmetry. apply surjective_pairing.
Qed.
Lemma same_key : forall k h, same_test (w_matches_key NU k h) (w_matches_key U k h).
Proof.
  intros q h w L e. unfold w_matches_key. destruct (N.eqb (e_hash e) h); [|reflexivity]. cbn. symmetry. apply surjective_pairing.
Qed.

Section Test.
Variable t' : LW -> entry -> LW * option bool.
Variable t : W -> entry -> W * option bool.
Hypothesis Ht : same_test t' t.
Lemma un_find : forall l w L, unlog (w_find t' (w, L) l) = w_find t w l.
Proof using Ht.
  induction l as [|a l IH]; intros w L; cbn [w_find]; [reflexivity|]. apply un_call; [apply Ht|]. intros w1 L1 x. un.
Qed.
Lemma un_loop : forall fuel w L bef l, unlog (w_lrf_loop t' fuel (w, L) bef l) = w_lrf_loop t fuel w bef l.
Proof using Ht.
  induction fuel as [|fuel IH]; intros w L bef l; cbn [w_lrf_loop]; [reflexivity|]. destruct (l_is_empty l); [reflexivity|].
  apply un_pure. intros e. apply un_pure. intros [l' ?]. apply un_call; [apply Ht|]. intros w1 L1 x. un.
Qed.
Lemma un_remove_first : forall w L l, unlog (w_list_remove_first t' (w, L) l) = w_list_remove_first t w l.
Proof using Ht.
  intros w L l. unfold w_list_remove_first. apply un_bind; [apply un_loop|]. intros w1 L1 [[? ?] ?]. reflexivity.
Qed.
Lemma un_b_find : forall w L b, unlog (w_b_find (w, L) t' b) = w_b_find w t b.
Proof using Ht.
  intros w L [e|l]; cbn [w_b_find]; [apply un_call; [apply Ht|]; reflexivity|]. apply un_pure. intros es. apply un_find.
Qed.
End Test.

Lemma un_value_mut : forall w L sh f e b k, unlog (w_value_mut NU (w, L) sh f e b k) = w_value_mut U w sh f e b k.
Proof.
  intros w L sh f e b k. unfold w_value_mut. apply un_call; [|reflexivity].
  destruct sh; [|reflexivity]. cbn. symmetry. apply surjective_pairing.
Qed.
Lemma un_b_get_mut : forall w L sh q h f b, unlog (w_b_get_mut NU (w, L) sh q h f b) = w_b_get_mut U w sh q h f b.
Proof.
  intros w L sh q h f [e|l]; cbn [w_b_get_mut].
  - apply un_call; [apply same_query|]. intros w1 L1 [|]; [apply un_value_mut|reflexivity].
  - apply un_bind; [apply un_remove_first, same_query|]. intros w1 L1 [l' [x|]]; [apply un_value_mut|reflexivity].
Qed.
Lemma un_b_insert : forall w L e b, unlog (w_b_insert NU (w, L) e b) = w_b_insert U w e b.
Proof.
  intros w L e [o|l]; cbn [w_b_insert].
  - apply un_call; [apply same_key|]. intros w1 L1 [|]; reflexivity.
  - apply un_bind; [apply un_remove_first, same_key|]. intros w1 L1 [l' x]. reflexivity.
Qed.
Lemma un_b_remove : forall w L q h b, unlog (w_b_remove NU (w, L) q h b) = w_b_remove U w q h b.
Proof.
  intros w L q h [o|l]; cbn [w_b_remove].
  - apply un_call; [apply same_query|]. intros w1 L1 [|]; reflexivity.
  - apply un_bind; [apply un_remove_first, same_query|]. intros w1 L1 [l' x]. destruct (l_len l') as [|[|?]]; un.
Qed.

Lemma un_hn_get : forall fuel w L q h n d deg, unlog (w_hn_get ubits dbg NU fuel (w, L) q h n d deg) = w_hn_get ubits dbg U fuel w q h n d deg.
Proof.
  induction fuel as [|fuel IH]; intros w L q h n d deg; cbn [w_hn_get]; [reflexivity|].
  destruct n as [s|b]; [un|apply un_b_find, same_query].
Qed.
Lemma un_hn_get_mut : forall fuel w L sh q h f n d deg,
  unlog (w_hn_get_mut ubits dbg NU fuel (w, L) sh q h f n d deg) = w_hn_get_mut ubits dbg U fuel w sh q h f n d deg.
Proof.
  induction fuel as [|fuel IH]; intros w L sh q h f n d deg; cbn [w_hn_get_mut]; [reflexivity|].
  destruct n as [s|b]; [un|apply un_bind; [apply un_b_get_mut|intros ? ? [? ?]; reflexivity]].
Qed.
Lemma un_hn_insert : forall fuel w L e n d deg,
  unlog (w_hn_insert ubits dbg NU fuel (w, L) e n d deg) = w_hn_insert ubits dbg U fuel w e n d deg.
Proof.
  induction fuel as [|fuel IH]; intros w L e n d deg; cbn [w_hn_insert]; [reflexivity|].
  destruct n as [s|b]; [un|]. apply un_pure. intros oi. apply un_bind; [apply un_b_find, same_key|].
  intros w1 L1 o. destruct (negb (is_some oi)); [|destruct (is_some o)].
  - apply un_bind; [apply un_b_insert|intros ? ? [? ?]; reflexivity].
  - apply un_bind; [apply un_b_insert|intros ? ? [? ?]; reflexivity].
  - un.
Qed.
Lemma un_hn_remove : forall fuel w L q h n d deg,
  unlog (w_hn_remove ubits dbg NU fuel (w, L) q h n d deg) = w_hn_remove ubits dbg U fuel w q h n d deg.
Proof.
  induction fuel as [|fuel IH]; intros w L q h n d deg; cbn [w_hn_remove]; [reflexivity|].
  destruct n as [s|b]; [un|apply un_bind; [apply un_b_remove|intros ? ? [? ?]; reflexivity]].
Qed.

Variable fuel : nat.
Lemma un_hm_step : forall w L sh o m,
  unlog (w_hm_step ubits dbg NU fuel (w, L) sh o m) = w_hm_step ubits dbg U fuel w sh o m.
Proof.
  assert (Hc : forall S A (c : ucall K) L (r : W * option N) (s : S) (f : W -> N -> res (W * uout S A)) g,
    (forall w L x, unlog (g (w, L) x) = f w x) -> unlog (wcall (log1 c L r) s g) = wcall r s f).
  { intros S A c L r s f g H. apply un_call; [now destruct r|exact H]. }
  intros w L sh o m. destruct o; cbn [w_hm_step]; try reflexivity; (apply un_bind; [|intros; un]);
    (apply Hc; intros w1 L1 h; apply un_bind; [|intros; un]).
  - apply un_hn_insert.
  - apply un_hn_insert.
  - apply un_hn_remove.
  - apply un_hn_remove.
  - apply un_hn_get_mut.
  - apply un_hn_get.
  - apply un_hn_get.
  - apply un_hn_get.
Qed.
End Forget.

Section Count.
Variable ubits : N.
Variable dbg : bool.
Variable b : N.
Hypothesis Hb : (0 < b)%N.
Hypothesis Hdeg : (2 ^ b <= ubits)%N.
Hypothesis Hub : (ubits <= 64)%N.
Context {W K V Q : Type}.
Variable U : hash_code W K V Q.
Context {strict : bool}.

Notation LW := (W * list (ucall K))%type.
Notation entry := (hentry K V).
Notation bucket := (hbucket K V).
Notation node := (hnode K V).
Notation degree := (2 ^ b)%N.
Notation D := (D b).
Notation rep := (@hrepg ubits b K V strict).
Notation NU := (noted U).
Notation sim_access := (sa_access ubits dbg (Hu0 ubits dbg b Hb Hdeg Hub)).
Notation calls := (list (ucall K)).
Set Default Proof Using "dbg Hb Hdeg Hub".

(** If [r] ends, it has put calls on the log [L] that satisfy [P] together with the outcome. *)
Definition spends {S A} (L : calls) (P : calls -> uout S A -> Prop) (r : res (LW * uout S A)) : Prop :=
  forall w L' x, r = Ok (w, L', x) -> exists l, L' = l ++ L /\ P l x.

Lemma sp_gave : forall S A L (P : calls -> uout S A -> Prop) w x, P [] x -> spends L P (Ok (w, L, x)).
Proof. intros S A L P w x H w' L' x' E. injection E as <- <- <-. exists []. split; [reflexivity|exact H]. Qed.
Lemma sp_bind : forall S S' A B L (P : calls -> uout S A -> Prop) (P' : calls -> uout S' B -> Prop) r (k : S -> S') f,
  spends L P r -> (forall w l a, P l (Gave a) -> spends (l ++ L) (fun l' x => P' (l' ++ l) x) (f (w, l ++ L) a)) ->
  (forall l s, P l (Torn s) -> P' l (Torn (k s))) -> spends L P' (wbind r k f).
Proof.
  intros S S' A B L P P' r k f Hr Hf Hk w L' x E. destruct r as [[[w1 L1] [a|s]]| |]; try discriminate; cbn in E;
    destruct (Hr _ _ _ eq_refl) as (l & -> & Hl).
  - destruct (Hf w1 l a Hl _ _ _ E) as (l' & -> & H). exists (l' ++ l). split; [apply app_assoc|exact H].
  - injection E as <- <- <-. exists l. split; [reflexivity|]. now apply Hk.
Qed.
Lemma sp_pure : forall S A B L (P : calls -> uout S A -> Prop) (r : res B) f,
  (forall y, r = Ok y -> spends L P (f y)) -> spends L P (bind r f).
Proof. intros S A B L P [y| |] f H w L' x E; try discriminate. exact (H y eq_refl _ _ _ E). Qed.
Lemma sp_weak : forall S A L (P P' : calls -> uout S A -> Prop) r, spends L P r -> (forall l x, P l x -> P' l x) -> spends L P' r.
Proof. intros S A L P P' r H HP w L' x E. destruct (H _ _ _ E) as (l & E' & Hl). eauto. Qed.
Lemma sp_call : forall X S A L (P : calls -> uout S A -> Prop) w c (o : option X) s f,
  (o = None -> P c (Torn s)) -> (forall x, spends (c ++ L) (fun l' y => P (l' ++ c) y) (f (w, c ++ L) x)) ->
  spends L P (wcall (w, c ++ L, o) s f).
Proof.
  intros X S A L P w c [x|] s f H1 H2 w' L' y E; cbn [wcall] in E.
  - destruct (H2 x _ _ _ E) as (l & -> & H). exists (l ++ c). split; [apply app_assoc|exact H].
  - injection E as <- <- <-. exists c. auto.
Qed.

(** [n] comparisons at most, all of them with keys of [es] with the hash [h]. *)
Definition cmps (n : nat) (h : N) (es : list entry) (l : calls) : Prop :=
  length l <= n /\ forall c, In c l -> exists e, In e es /\ e_hash e = h /\ c = CEq (e_key e).
Definition cnt (h : N) (es : list entry) : nat := length (filter (fun e => N.eqb (e_hash e) h) es).
Definition asked (h : N) (e : entry) : calls := if N.eqb (e_hash e) h then [CEq (e_key e)] else [].

Lemma cmps_nil : forall n h es, cmps n h es [].
Proof. intros n h es. split; [simpl; lia|]. intros c []. Qed.
Lemma cmps_app : forall n n' h es l l', cmps n h es l -> cmps n' h es l' -> cmps (n + n') h es (l ++ l').
Proof.
  intros n n' h es l l' [H1 H2] [H3 H4]. split; [rewrite app_length; lia|]. intros c Hc. apply in_app_iff in Hc as [Hc|Hc]; auto.
Qed.
Lemma cmps_weak : forall n n' h es es' l, cmps n h es l -> n <= n' -> (forall e, In e es -> In e es') -> cmps n' h es' l.
Proof.
  intros n n' h es es' l [H1 H2] Hn Hs. split; [lia|]. intros c Hc. destruct (H2 c Hc) as (e & He & H). exists e. auto.
Qed.
Lemma cmps_asked : forall h e, cmps (cnt h [e]) h [e] (asked h e).
Proof.
  intros h e. unfold cnt, asked, cmps. cbn [filter]. destruct (N.eqb_spec (e_hash e) h) as [E|E]; cbn [length]; split; try lia.
  - intros c [<-|[]]. exists e. split; [now left|auto].
  - intros c [].
Qed.
Lemma cnt_cons : forall h e es, cnt h (e :: es) = cnt h [e] + cnt h es.
Proof. intros h e es. unfold cnt. cbn [filter]. destruct (N.eqb (e_hash e) h); reflexivity. Qed.
Lemma cnt_app : forall h es es', cnt h (es ++ es') = cnt h es + cnt h es'.
Proof. intros h es es'. unfold cnt. now rewrite filter_app, app_length. Qed.

Definition asks_of (h : N) (test : LW -> entry -> LW * option bool) : Prop :=
  forall w L e, exists w' x, test (w, L) e = (w', asked h e ++ L, x).
Lemma query_asks : forall q h, asks_of h (w_matches NU q h).
Proof. intros q h w L e. unfold w_matches, asked. destruct (N.eqb (e_hash e) h); do 2 eexists; reflexivity. Qed.
Lemma key_asks : forall k h, asks_of h (w_matches_key NU k h).
Proof. intros k h w L e. unfold w_matches_key, asked. destruct (N.eqb (e_hash e) h); do 2 eexists; reflexivity. Qed.

Section Test.
Variable h : N.
Variable test : LW -> entry -> LW * option bool.
Hypothesis Ht : asks_of h test.

Lemma sp_find : forall es w L, spends L (fun l _ => cmps (cnt h es) h es l) (w_find test (w, L) es).
Proof using dbg Hb Hdeg Hub Ht.
  induction es as [|e es IH]; intros w L; cbn [w_find]; [apply sp_gave, cmps_nil|].
  destruct (Ht w L e) as (w' & x & ->).
  assert (H1 : cmps (cnt h (e :: es)) h (e :: es) (asked h e)).
  { eapply cmps_weak; [apply cmps_asked|rewrite (cnt_cons h e es); lia|]. intros y [<-|[]]. now left. }
  apply sp_call; [auto|]. intros [|]; [now apply sp_gave|]. eapply sp_weak; [apply IH|].
  intros l ? H. cbv beta. rewrite (cnt_cons h e es), Nat.add_comm. apply cmps_app.
  - eapply cmps_weak; [exact H|lia|]. now right.
  - eapply cmps_weak; [apply cmps_asked|lia|]. intros y [<-|[]]. now left.
Qed.
Lemma sp_loop : forall es fuel w L bef l, l_rep l es -> spends L (fun l _ => cmps (cnt h es) h es l) (w_lrf_loop test fuel (w, L) bef l).
Proof using dbg Hb Hdeg Hub Ht.
  induction es as [|e es IH]; intros [|fuel] w L bef l Hl; cbn [w_lrf_loop]; try (intros ? ? ? E; discriminate E);
    rewrite (l_rep_is_empty l _ Hl); cbn [is_nil]; [apply sp_gave, cmps_nil|].
  rewrite (l_rep_first l _ Hl). cbn [hd_error unwrap bind]. destruct (l_rep_drop l _ Hl) as (l' & -> & Hl'). cbn [bind tl] in *.
  destruct (Ht w L e) as (w' & x & ->).
  assert (H1 : cmps (cnt h (e :: es)) h (e :: es) (asked h e)).
  { eapply cmps_weak; [apply cmps_asked|rewrite (cnt_cons h e es); lia|]. intros y [<-|[]]. now left. }
  apply sp_call; [auto|]. intros [|]; [now apply sp_gave|]. eapply sp_weak; [apply IH; exact Hl'|].
  intros ls ? H. cbv beta. rewrite (cnt_cons h e es), Nat.add_comm. apply cmps_app.
  - eapply cmps_weak; [exact H|lia|]. now right.
  - eapply cmps_weak; [apply cmps_asked|lia|]. intros y [<-|[]]. now left.
Qed.
Lemma sp_remove_first : forall es w L l, l_rep l es ->
  spends L (fun l _ => cmps (cnt h es) h es l) (w_list_remove_first test (w, L) l).
Proof using dbg Hb Hdeg Hub Ht.
  intros es w L l Hl. unfold w_list_remove_first. eapply sp_bind; [apply (sp_loop es); exact Hl| |auto].
  intros w1 l1 [[? ?] ?] H. apply sp_gave. exact H.
Qed.
Lemma sp_b_find : forall bk es r d w L, rep r d (HLeaf bk) es ->
  spends L (fun l _ => cmps (cnt h es) h es l) (w_b_find (w, L) test bk).
Proof using dbg Hb Hdeg Hub Ht.
  intros [e|l] es r d w L H; cbn [w_b_find].
  - assert (es = [e]) by (destruct r; exact H). subst es. destruct (Ht w L e) as (w' & x & ->).
    apply sp_call; [intros _; apply cmps_asked|]. intros [|]; apply sp_gave, cmps_asked.
  - assert (Hl : l_rep l es) by (destruct r; apply H). rewrite (l_elems_ok _ _ Hl). apply sp_find.
Qed.
End Test.

(** The entries with the hash [h] are in the child for [h]. *)
Lemma focus : forall r d s es h, rep (S r) d (HBranch s) es -> exists al, sa_wf ubits s al /\
  (forall l1 l2, al = l1 ++ l2 -> below (idx b d h) l1 -> above (idx b d h) l2 -> cnt h es = 0) /\
  (forall l1 c l2, al = l1 ++ (idx b d h, c) :: l2 -> below (idx b d h) l1 -> above (idx b d h) l2 ->
     exists ec, rep r (S d) c ec /\ cnt h es = cnt h ec /\ forall e, In e ec -> In e es).
Proof.
  intros r d s es h (al & Hw & Hc). exists al. split; [exact Hw|].
  assert (Hm : forall e : entry, N.eqb (e_hash e) h = true -> idx b d (e_hash e) = idx b d h).
  { intros e E. apply N.eqb_eq in E. now rewrite E. }
  assert (Hn : forall es, nomatch (fun e : entry => N.eqb (e_hash e) h) es -> cnt h es = 0).
  { intros es' H. unfold cnt. induction es' as [|e es' IH]; [reflexivity|]. cbn [filter].
    rewrite (H e (or_introl eq_refl)). apply IH. intros x Hx. apply H. now right. }
  split.
  - intros l1 l2 -> B A. apply Hn. eapply (chl_hole ubits dbg b Hb Hdeg Hub); eauto.
  - intros l1 c l2 -> B A.
    destruct (chl_focus ubits dbg b Hb Hdeg Hub _ _ _ _ _ _ _ _ Hc B A Hm) as (es1 & ec & es2 & -> & N1 & N2 & _ & _ & Hr & _).
    exists ec. split; [exact Hr|]. rewrite !cnt_app, (Hn _ N1), (Hn _ N2). split; [lia|]. intros e He. rewrite !in_app_iff. auto.
Qed.

Lemma sp_hn_get : forall q h r d n es fuel w L, rep r d n es -> d + r = D ->
  spends L (fun l _ => cmps (cnt h es) h es l) (w_hn_get ubits dbg NU fuel (w, L) q h n d degree).
Proof.
  intros q h. induction r as [|r IH]; intros d n es [|fuel] w L H Hd; cbn [w_hn_get]; try (intros ? ? ? E; discriminate E);
    destruct n as [s|bk]; try (eapply sp_b_find; [apply query_asks|exact H]); [destruct H|].
  rewrite (index_ok ubits dbg b Hb Hdeg Hub) by lia. destruct (Nat.ltb_spec d D) as [_|]; [|lia]. cbn [bind unwrap].
  destruct (focus r d s es h H) as (al & Hw & _ & F).
  destruct (sim_access s al (idx b d h) Hw (idx_lt ubits dbg b Hb Hdeg Hub d h))
    as [(l1 & l2 & -> & B & A & -> & _)|(l1 & c & l2 & -> & B & A & -> & _)]; cbn [bind].
  - apply sp_gave, cmps_nil.
  - destruct (F _ _ _ eq_refl B A) as (ec & Hr & -> & Hin). eapply sp_weak; [apply (IH (S d) c ec); [exact Hr|lia]|].
    intros l ? Hl. exact (cmps_weak _ _ _ _ _ _ Hl (le_n _) Hin).
Qed.

Definition gm_calls {S A} (sh : bool) (h : N) (es : list entry) (l : calls) (x : uout S (A * option V)) : Prop :=
  exists lc l', l = lc ++ l' /\ cmps (cnt h es) h es l' /\
  match x with
  | Gave (_, o) => lc = if sh && is_some o then [CClone] else []
  | Torn _ => lc = [] \/ lc = [CClone] /\ sh = true
  end.
Lemma sp_value_mut : forall w L (sh : bool) f e bk k, spends L (fun l (x : uout bucket (bucket * option V)) =>
  match x with Gave (_, None) => False | Gave (_, Some _) => l = if sh then [CClone] else [] | Torn _ => l = [CClone] /\ sh = true end)
  (w_value_mut NU (w, L) sh f e bk k).
Proof.
  intros w L sh f e bk k. unfold w_value_mut. destruct sh.
  - cbn [hc_clone noted]. unfold log1. change (CClone :: L) with ([CClone] ++ L). apply sp_call; [auto|].
    intros x. apply sp_gave. reflexivity.
  - change L with ([] ++ L) at 2. apply sp_call; [discriminate|]. intros x. apply sp_gave. reflexivity.
Qed.

Lemma sp_hn_get_mut : forall sh q h f r d n es fuel w L, rep r d n es -> d + r = D ->
  spends L (gm_calls sh h es) (w_hn_get_mut ubits dbg NU fuel (w, L) sh q h f n d degree).
Proof.
  intros sh q h f.
  assert (Hleaf : forall bk r d es w L, rep r d (HLeaf bk) es -> spends L (gm_calls sh h es) (w_b_get_mut NU (w, L) sh q h f bk)).
  { intros [e|l] r d es w L H; cbn [w_b_get_mut].
    - assert (es = [e]) by (destruct r; exact H). subst es. destruct (query_asks q h w L e) as (w1 & x & ->).
      apply sp_call; [intros _; exists [], (asked h e); split; [reflexivity|]; split; [apply cmps_asked|now left]|].
      intros [|].
      + eapply sp_weak; [apply sp_value_mut|]. intros lc x' Hx. exists lc, (asked h e). split; [reflexivity|].
        split; [apply cmps_asked|]. destruct x' as [[? [v|]]|?]; [|contradiction|auto]. cbn [is_some]. now rewrite andb_true_r.
      + apply sp_gave. exists [], (asked h e). split; [reflexivity|]. split; [apply cmps_asked|]. cbn [is_some]. now rewrite andb_false_r.
    - assert (Hl : l_rep l es) by (destruct r; apply H).
      eapply sp_bind; [eapply sp_remove_first; [apply query_asks|exact Hl]| |].
      + intros w1 l1 [l' [x|]] H1; cbv beta iota.
        * eapply sp_weak; [apply sp_value_mut|]. intros lc x' Hx. exists lc, l1. split; [reflexivity|].
          split; [exact H1|]. destruct x' as [[? [v|]]|?]; [|contradiction|auto]. cbn [is_some]. now rewrite andb_true_r.
        * apply sp_gave. exists [], l1. split; [reflexivity|]. split; [exact H1|]. cbn [is_some]. now rewrite andb_false_r.
      + intros l1 s H1. exists [], l1. split; [reflexivity|]. split; [exact H1|]. now left. }
  assert (Hleaf' : forall bk r d es w L, rep r d (HLeaf bk) es -> spends L (gm_calls sh h es)
    (wbind (w_b_get_mut NU (w, L) sh q h f bk) (fun b' => HLeaf b') (fun w '(b', r) => Ok (w, Gave (HLeaf b', r))))).
  { intros bk r d es w L H. eapply sp_bind; [eapply Hleaf; exact H| |].
    - intros w1 l1 [b' o] H1. apply sp_gave. exact H1.
    - intros l1 s H1. exact H1. }
  induction r as [|r IH]; intros d n es [|fuel] w L H Hd; cbn [w_hn_get_mut]; try (intros ? ? ? E; discriminate E);
    destruct n as [s|bk]; try (eapply Hleaf'; exact H); [destruct H|].
  rewrite (index_ok ubits dbg b Hb Hdeg Hub) by lia. destruct (Nat.ltb_spec d D) as [_|]; [|lia]. cbn [bind unwrap].
  destruct (focus r d s es h H) as (al & Hw & _ & F).
  destruct (sim_access s al (idx b d h) Hw (idx_lt ubits dbg b Hb Hdeg Hub d h))
    as [(l1 & l2 & -> & B & A & _ & -> & _)|(l1 & c & l2 & -> & B & A & _ & (wr & -> & Hset) & _)]; cbn [bind].
  - apply sp_gave. exists [], []. split; [reflexivity|]. split; [apply cmps_nil|]. cbn [is_some]. now rewrite andb_false_r.
  - destruct (F _ _ _ eq_refl B A) as (ec & Hr & Ec & Hin).
    assert (Hup : forall S A l (x : uout S (A * option V)), gm_calls sh h ec l x -> gm_calls sh h es l x).
    { intros S0 A0 l x (lc & l' & -> & H1 & H2). exists lc, l'. split; [reflexivity|]. split; [|exact H2].
      rewrite Ec. exact (cmps_weak _ _ _ _ _ _ H1 (le_n _) Hin). }
    eapply sp_bind; [eapply sp_weak; [apply (IH (S d) c ec fuel w L Hr); lia|apply Hup]| |].
    + intros w1 l' [c' o] H1. apply sp_gave. exact H1.
    + intros l' s' H1. exact H1.
Qed.

(** insert *)
Definition ins_bound (r n : nat) : nat := match n with 0 => 0 | 1 => r + 2 | _ => 2 * n end.
Lemma cnt_one : forall h e, cnt h [e] = if N.eqb (e_hash e) h then 1 else 0.
Proof. intros h e. unfold cnt. cbn [filter]. now destruct (N.eqb (e_hash e) h). Qed.

Lemma sp_empty : forall d o fuel w L, d < D ->
  spends L (fun l (x : uout node (node * bool)) => l = [] /\ match x with Gave (n1, _) => exists s1, n1 = HBranch s1 /\
      sa_wf ubits s1 [(idx b d (e_hash o), HLeaf (BSingle o))] | Torn _ => False end)
    (w_hn_insert ubits dbg NU fuel (w, L) o new_empty_branch d degree).
Proof.
  intros d o [|fuel] w L Hd; [intros ? ? ? E; discriminate E|]. unfold new_empty_branch. cbn [w_hn_insert].
  rewrite (index_ok ubits dbg b Hb Hdeg Hub) by lia. destruct (Nat.ltb_spec d D) as [_|]; [|lia]. cbn [bind unwrap].
  destruct (sim_access (sa_new : sarr node) [] (idx b d (e_hash o)) (sa_wf_new ubits dbg (Hu0 ubits dbg b Hb Hdeg Hub)) (idx_lt ubits dbg b Hb Hdeg Hub d (e_hash o)))
    as [(l1 & l2 & E & B & A & _ & -> & _ & Hset)|(l1 & c & l2 & E & _)]; [|destruct l1; discriminate].
  destruct (Hset (HLeaf (BSingle o))) as (s' & -> & Hw'). cbn [bind].
  destruct l1; [|discriminate]. destruct l2; [|discriminate].
  apply sp_gave. split; [reflexivity|]. exists s'. split; [reflexivity|exact Hw'].
Qed.

Lemma sp_insert_single : forall e r d o fuel w L, d + r = D ->
  spends L (fun l _ => cmps (ins_bound r (cnt (e_hash e) [o])) (e_hash e) [o] l)
    (w_hn_insert ubits dbg NU fuel (w, L) e (HLeaf (BSingle o)) d degree).
Proof using dbg Hb Hdeg Hub strict.
  intros e. set (h := e_hash e).
  assert (Hone : forall o w L, spends L (fun l _ => cmps (cnt h [o]) h [o] l)
     (wbind (w_b_insert NU (w, L) e (BSingle o)) (fun b' => HLeaf b') (fun w '(b', new) => Ok (w, Gave (HLeaf b', new))))).
  { intros o w L. eapply (sp_bind _ _ _ _ _ (fun l _ => cmps (cnt h [o]) h [o] l)); [| |auto].
    - cbn [w_b_insert]. destruct (key_asks (e_key e) h w L o) as (w1 & x & E). fold h. rewrite E.
      apply sp_call; [intros _; apply cmps_asked|]. intros [|]; apply sp_gave, cmps_asked.
    - intros w1 l1 [b' new] H. apply sp_gave. exact H. }
  assert (Htwo : forall r o w L, spends L (fun l _ => cmps (ins_bound r (cnt h [o])) h [o] l)
     (wbind (w_b_find (w, L) (w_matches_key NU (e_key e) h) (BSingle o)) (fun _ => HLeaf (BSingle o)) (fun w _ =>
      wbind (w_b_insert NU w e (BSingle o)) (fun b' => HLeaf b') (fun w '(b', new) => Ok (w, Gave (HLeaf b', new)))))).
  { intros r o w L. assert (Hn : cnt h [o] + cnt h [o] <= ins_bound r (cnt h [o])).
    { rewrite cnt_one. destruct (N.eqb (e_hash o) h); cbn [ins_bound]; lia. }
    eapply sp_bind; [apply (sp_b_find h _ (key_asks (e_key e) h) (BSingle o) [o] 0 0); reflexivity| |].
    - intros w1 l1 ? H1. eapply sp_weak; [apply Hone|]. intros l2 ? H2. cbv beta.
      eapply cmps_weak; [apply cmps_app; [exact H2|exact H1]|exact Hn|auto].
    - intros l s H. eapply cmps_weak; [exact H|lia|auto]. }
  induction r as [|r IH]; intros d o [|fuel] w L Hd; try (intros ? ? ? E; discriminate E); cbn [w_hn_insert];
    rewrite (index_ok ubits dbg b Hb Hdeg Hub) by lia; fold h.
  - destruct (Nat.ltb_spec d D) as [|_]; [lia|]. cbn [bind is_some negb]. apply Htwo.
  - destruct (Nat.ltb_spec d D) as [_|]; [|lia]. cbn [bind is_some negb].
    eapply sp_bind; [apply (sp_b_find h _ (key_asks (e_key e) h) (BSingle o) [o] 0 0); reflexivity| |].
    2:{ intros l s H. eapply cmps_weak; [exact H| |auto]. rewrite cnt_one. destruct (N.eqb (e_hash o) h); cbn [ins_bound]; lia. }
    intros w1 l1 x H1. destruct (is_some x).
    { eapply sp_weak; [apply Hone|]. intros l2 ? H2. cbv beta. eapply cmps_weak; [apply cmps_app; [exact H2|exact H1]| |auto].
      rewrite cnt_one. destruct (N.eqb (e_hash o) h); cbn [ins_bound]; lia. }
    eapply sp_bind; [apply (sp_empty d o fuel w1 (l1 ++ L)); lia| |intros l s [_ []]].
    intros w2 l2 [n1 ?] (-> & s1 & -> & Hw). cbn [app]. eapply (sp_bind _ _ _ _ _ (fun l _ => cmps (ins_bound r (cnt h [o])) h [o] l)).
    + destruct fuel as [|fuel]; [intros ? ? ? E; discriminate E|]. cbn [w_hn_insert].
      rewrite (index_ok ubits dbg b Hb Hdeg Hub) by lia. destruct (Nat.ltb_spec d D) as [_|]; [|lia]. cbn [bind unwrap]. fold h.
      destruct (sim_access s1 _ (idx b d h) Hw (idx_lt ubits dbg b Hb Hdeg Hub d h))
        as [(k1 & k2 & Eal & B & A & _ & -> & _ & Hset)|(k1 & c & k2 & Eal & B & A & _ & (wr & -> & Hset) & _)]; cbn [bind].
      * destruct (Hset (HLeaf (BSingle e))) as (s' & -> & Hw'). cbn [bind]. apply sp_gave, cmps_nil.
      * destruct k1 as [|p k1]; cbn [app] in Eal; [|exfalso; injection Eal as _ Eal; destruct k1; discriminate].
        injection Eal as Ei <- <-. eapply sp_bind; [apply (IH (S d) o fuel); lia| |auto].
        intros w3 l3 [c' ?] H3. apply sp_gave. exact H3.
    + intros w3 l3 [n2 ?] H3. apply sp_gave. cbn [app]. rewrite app_nil_r.
      eapply cmps_weak; [apply cmps_app; [exact H3|exact H1]| |auto]. rewrite cnt_one. destruct (N.eqb (e_hash o) h); cbn [ins_bound]; lia.
    + intros l3 s3 H3. rewrite app_nil_r. eapply cmps_weak; [apply cmps_app; [exact H3|exact H1]| |auto].
      rewrite cnt_one. destruct (N.eqb (e_hash o) h); cbn [ins_bound]; lia.
Qed.

Lemma sp_hn_insert : forall e r d n es fuel w L, rep r d n es -> d + r = D ->
  spends L (fun l _ => cmps (ins_bound r (cnt (e_hash e) es)) (e_hash e) es l)
    (w_hn_insert ubits dbg NU fuel (w, L) e n d degree).
Proof.
  intros e. set (h := e_hash e).
  induction r as [|r IH]; intros d n es [|fuel] w L H Hd; try (intros ? ? ? E; discriminate E); destruct n as [s|[o|l]];
    try (assert (es = [o]) by exact H; subst es; now apply sp_insert_single); cbn [w_hn_insert].
  - destruct H.
  - destruct H as (_ & Hl & Hlen). rewrite (index_ok ubits dbg b Hb Hdeg Hub) by lia. fold h.
    destruct (Nat.ltb_spec d D) as [|_]; [lia|]. cbn [bind is_some negb w_b_find].
    rewrite (l_elems_ok l es Hl). cbn [bind].
    assert (Hn : cnt h es + cnt h es <= ins_bound 0 (cnt h es)) by (unfold ins_bound; destruct (cnt h es) as [|[|?]]; lia).
    eapply sp_bind; [apply sp_find, key_asks| |].
    + intros w1 l1 x H1. eapply (sp_bind _ _ _ _ _ (fun l _ => cmps (cnt h es) h es l)).
      * cbn [w_b_insert]. eapply sp_bind; [eapply sp_remove_first; [apply key_asks|exact Hl]| |auto].
        intros w2 l2 [? ?] H2. apply sp_gave. exact H2.
      * intros w2 l2 [? ?] H2. apply sp_gave. cbn [app]. eapply cmps_weak; [apply cmps_app; [exact H2|exact H1]|exact Hn|auto].
      * intros l2 s2 H2. eapply cmps_weak; [apply cmps_app; [exact H2|exact H1]|exact Hn|auto].
    + intros l1 s1 H1. eapply cmps_weak; [exact H1|lia|auto].
  - rewrite (index_ok ubits dbg b Hb Hdeg Hub) by lia. destruct (Nat.ltb_spec d D) as [_|]; [|lia]. cbn [bind unwrap]. fold h.
    destruct (focus r d s es h H) as (al & Hw & _ & F).
    destruct (sim_access s al (idx b d h) Hw (idx_lt ubits dbg b Hb Hdeg Hub d h))
      as [(l1 & l2 & -> & B & A & _ & -> & _ & Hset)|(l1 & c & l2 & -> & B & A & _ & (wr & -> & Hset) & _)]; cbn [bind].
    + destruct (Hset (HLeaf (BSingle e))) as (s' & -> & Hw'). cbn [bind]. apply sp_gave, cmps_nil.
    + destruct (F _ _ _ eq_refl B A) as (ec & Hr & Ec & Hin).
      assert (Hup : forall l, cmps (ins_bound r (cnt h ec)) h ec l -> cmps (ins_bound (S r) (cnt h es)) h es l).
      { intros l Hl. rewrite Ec. eapply cmps_weak; [exact Hl| |exact Hin]. unfold ins_bound. destruct (cnt h ec) as [|[|?]]; lia. }
      eapply sp_bind; [apply (IH (S d) c ec fuel w L Hr); lia| |].
      * intros w1 l' [c' ?] H1. apply sp_gave. now apply Hup.
      * intros l' s' H1. now apply Hup.
  - destruct H as (H & _). discriminate.
Qed.

(** remove *)
Lemma sp_hn_remove : forall q h r d n es fuel w L, rep r d n es -> d + r = D ->
  spends L (fun l _ => cmps (cnt h es) h es l) (w_hn_remove ubits dbg NU fuel (w, L) q h n d degree).
Proof.
  intros q h.
  assert (Hleaf : forall bk r d es w L, rep r d (HLeaf bk) es -> spends L (fun l _ => cmps (cnt h es) h es l)
    (wbind (w_b_remove NU (w, L) q h bk) (fun b' => HLeaf b') (fun w '(ob, removed) =>
     Ok (w, Gave (match ob with None => new_empty_branch | Some b' => HLeaf b' end, removed))))).
  { intros bk r d es w L H. eapply (sp_bind _ _ _ _ _ (fun l _ => cmps (cnt h es) h es l)); [| |auto].
    - destruct bk as [e|l]; cbn [w_b_remove].
      + assert (es = [e]) by (destruct r; exact H). subst es. destruct (query_asks q h w L e) as (w1 & x & ->).
        apply sp_call; [intros _; apply cmps_asked|]. intros [|]; apply sp_gave, cmps_asked.
      + assert (Hl : l_rep l es) by (destruct r; apply H).
        eapply sp_bind; [eapply sp_remove_first; [apply query_asks|exact Hl]| |auto].
        intros w1 l1 [l' x] H1. destruct (l_len l') as [|[|?]]; [intros ? ? ? E; discriminate E| |now apply sp_gave].
        apply sp_pure. intros e _. now apply sp_gave.
    - intros w1 l1 [ob x] H1. now apply sp_gave. }
  induction r as [|r IH]; intros d n es [|fuel] w L H Hd; cbn [w_hn_remove]; try (intros ? ? ? E; discriminate E);
    destruct n as [s|bk]; try (eapply Hleaf; exact H); [destruct H|].
  rewrite (index_ok ubits dbg b Hb Hdeg Hub) by lia. destruct (Nat.ltb_spec d D) as [_|]; [|lia]. cbn [bind unwrap].
  destruct (focus r d s es h H) as (al & Hw & _ & F).
  destruct (sim_access s al (idx b d h) Hw (idx_lt ubits dbg b Hb Hdeg Hub d h))
    as [(l1 & l2 & -> & B & A & _ & -> & _)|(l1 & c & l2 & -> & B & A & _ & (wr & -> & Hset) & _)]; cbn [bind].
  - apply sp_gave, cmps_nil.
  - destruct (F _ _ _ eq_refl B A) as (ec & Hr & -> & Hin).
    assert (Hup : forall l, cmps (cnt h ec) h ec l -> cmps (cnt h ec) h es l) by (intros l Hl; exact (cmps_weak _ _ _ _ _ _ Hl (le_n _) Hin)).
    eapply sp_bind; [apply (IH (S d) c ec fuel w L Hr); lia| |].
    + intros w1 l' [c' removed] H1. apply sp_pure. intros emp _. apply Hup in H1. destruct emp, removed;
        repeat first [apply sp_gave; exact H1|apply sp_pure; intros ? _].
    + intros l' s' H1. now apply Hup.
Qed.

(** The map.  What hashing the key of an operation answers, if it has one. *)
Definition op_hash (w : W) (o : map_op K V Q) : option (option N) :=
  match o with
  | MInsert k _ | MInsertMut k _ => Some (snd (hc_hash U w k))
  | MRemove q | MRemoveMut q | MGetMut q _ | MGet q | MGetKeyValue q | MContains q => Some (snd (hc_query_hash U w q))
  | MSize | MIsEmpty | MClone => None
  end.
(** The calls after that. *)
Definition op_calls {S A} (shared : bool) (o : map_op K V Q) (h : N) (es : list entry) (l : calls) (x : uout S (A * map_obs K V)) : Prop :=
  match o with
  | MInsert _ _ | MInsertMut _ _ => cmps (ins_bound D (cnt h es)) h es l
  | MGetMut _ _ => exists lc l', l = lc ++ l' /\ cmps (cnt h es) h es l' /\
      match x with
      | Gave (_, a) => exists v, a = MoVal v /\ lc = if shared && is_some v then [CClone] else []
      | Torn _ => lc = [] \/ lc = [CClone] /\ shared = true
      end
  | _ => cmps (cnt h es) h es l
  end.

Definition hashed (r : W * option N) (P : N -> calls -> Prop) (l : calls) : Prop :=
  match snd r with None => l = [CHash] | Some h => exists l', l = l' ++ [CHash] /\ P h l' end.
Lemma sp_hash : forall S A L (r : W * option N) (P : calls -> uout S A -> Prop) (s : S) f,
  (snd r = None -> P [CHash] (Torn s)) ->
  (forall h w, snd r = Some h -> spends (CHash :: L) (fun l x => P (l ++ [CHash]) x) (f (w, CHash :: L) h)) ->
  spends L P (wcall (log1 CHash L r) s f).
Proof.
  intros S A L [w1 [h|]] P s f H1 H2 w' L' x E; unfold log1 in E; cbn [fst snd wcall] in *.
  - destruct (H2 h w1 eq_refl _ _ _ E) as (l & -> & H). exists (l ++ [CHash]). split; [now rewrite <- app_assoc|exact H].
  - injection E as <- <- <-. exists [CHash]. split; [reflexivity|auto].
Qed.

Lemma sp_hm_step : forall fuel shared o m es w L, rep D 0 (hm_root m) es -> hm_degree m = degree ->
  spends L (fun l x => match op_hash w o with
    | None => l = []
    | Some None => l = [CHash]
    | Some (Some h) => exists l', l = l' ++ [CHash] /\ op_calls shared o h es l' x
    end) (w_hm_step ubits dbg NU fuel (w, L) shared o m).
Proof.
  intros fuel shared o m es w L H Hd.
  assert (Hins : forall k v, spends L (fun l _ => hashed (hc_hash U w k) (fun h l => cmps (ins_bound D (cnt h es)) h es l) l)
     (w_hm_insert_mut ubits dbg NU fuel (w, L) m k v)).
  { intros k v. apply sp_hash; unfold hashed; [intros ->; reflexivity|]. intros h w1 ->. rewrite Hd.
    eapply sp_bind; [apply (sp_hn_insert (mkE k v h) D 0 (hm_root m) es); [exact H|lia]| |].
    - intros w2 l2 [? ?] H2. apply sp_gave. exists l2. split; [reflexivity|exact H2].
    - intros l2 s2 H2. exists l2. split; [reflexivity|exact H2]. }
  assert (Hrem : forall q, spends L (fun l _ => hashed (hc_query_hash U w q) (fun h l => cmps (cnt h es) h es l) l)
     (w_hm_remove_mut ubits dbg NU fuel (w, L) m q)).
  { intros q. apply sp_hash; unfold hashed; [intros ->; reflexivity|]. intros h w1 ->. rewrite Hd.
    eapply sp_bind; [apply (sp_hn_remove q h D 0 (hm_root m) es); [exact H|lia]| |].
    - intros w2 l2 [? [|]] H2; [apply sp_pure; intros ? _|]; apply sp_gave; exists l2; (split; [reflexivity|exact H2]).
    - intros l2 s2 H2. exists l2. split; [reflexivity|exact H2]. }
  assert (Hfind : forall q, spends L (fun l _ => hashed (hc_query_hash U w q) (fun h l => cmps (cnt h es) h es l) l)
     (w_hm_find ubits dbg NU fuel (w, L) m q)).
  { intros q. apply sp_hash; unfold hashed; [intros ->; reflexivity|]. intros h w1 ->. rewrite Hd.
    eapply sp_bind; [apply (sp_hn_get q h D 0 (hm_root m) es); [exact H|lia]| |].
    - intros w2 l2 ? H2. apply sp_gave. exists l2. split; [reflexivity|exact H2].
    - intros l2 s2 H2. exists l2. split; [reflexivity|exact H2]. }
  assert (Hgm : forall q f, spends L (fun l x => hashed (hc_query_hash U w q) (fun h l => gm_calls shared h es l x) l)
     (w_hm_get_mut ubits dbg NU fuel (w, L) shared m q f)).
  { intros q f. apply sp_hash; unfold hashed; [intros ->; reflexivity|]. intros h w1 ->. rewrite Hd.
    eapply sp_bind; [apply (sp_hn_get_mut shared q h f D 0 (hm_root m) es); [exact H|lia]| |].
    - intros w2 l2 [? ?] H2. apply sp_gave. exists l2. split; [reflexivity|exact H2].
    - intros l2 s2 H2. exists l2. split; [reflexivity|exact H2]. }
  unfold hashed in *.
  destruct o as [k v|k v|q|q|q f|q|q|q| | |]; cbn [w_hm_step op_hash op_calls]; try (apply sp_gave; reflexivity).
  - eapply sp_bind; [apply Hins| |auto]. intros w1 l1 ? H1. apply sp_gave. exact H1.
  - eapply sp_bind; [apply Hins| |auto]. intros w1 l1 ? H1. apply sp_gave. exact H1.
  - eapply sp_bind; [apply Hrem| |auto]. intros w1 l1 [? ?] H1. apply sp_gave. exact H1.
  - eapply sp_bind; [apply Hrem| |auto]. intros w1 l1 [? ?] H1. apply sp_gave. exact H1.
  - eapply sp_bind; [apply Hgm| |].
    + intros w1 l1 [m' v] H1. apply sp_gave. cbn [app]. destruct (snd (hc_query_hash U w q)) as [h|]; [|exact H1].
      destruct H1 as (l' & -> & lc & l2 & -> & H1 & H2). eexists. split; [reflexivity|]. exists lc, l2.
      split; [reflexivity|]. split; [exact H1|]. exists v. auto.
    + intros l1 s1 H1. destruct (snd (hc_query_hash U w q)) as [h|]; [|exact H1].
      destruct H1 as (l' & -> & lc & l2 & -> & H1 & H2). eexists. split; [reflexivity|]. exists lc, l2. auto.
  - eapply sp_bind; [apply Hfind| |auto]. intros w1 l1 ? H1. apply sp_gave. exact H1.
  - eapply sp_bind; [apply Hfind| |auto]. intros w1 l1 ? H1. apply sp_gave. exact H1.
  - eapply sp_bind; [apply Hfind| |auto]. intros w1 l1 ? H1. apply sp_gave. exact H1.
Qed.
End Count.
