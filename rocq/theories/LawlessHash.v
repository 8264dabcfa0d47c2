(** HashTrieMap with user code that keeps no law: proofs. *)
From Coq Require Import List NArith Arith Bool Lia Permutation.
From Verif Require Import Base Spec SpecMap SpecLoose Sim ListModel ListProofs SparseModel SparseProofs HashModel HashProofs HashHist
  LawlessModel LawlessRB.
Import ListNotations.

(** What is left of the laws of [Eq]: comparing does not panic, and a question that is asked
    again at once gets the same answer. *)
Record tame {W K V Q} (U : hash_code W K V Q) : Prop := {
  tm_key : forall w a b, exists w1 x w2, hc_key U w a b = (w1, Some x) /\ hc_key U w1 a b = (w2, Some x);
  tm_query : forall w k q, exists w1 x, hc_query U w k q = (w1, Some x)
}.

Section Lrf.
Context {W T : Type}.
Variable test : W -> T -> W * option bool.
Hypothesis Htest : forall w e, exists w' x, test w e = (w', Some x).

Definition passed (e : T) : Prop := exists w w', test w e = (w', Some true).

Lemma w_find_ok : forall l w, exists w' o, w_find test w l = Ok (w', Gave o) /\
  match o with Some e => In e l /\ passed e | None => True end.
Proof using Htest.
  induction l as [|a l IH]; intros w; cbn [w_find].
  - exists w, None. auto.
  - destruct (Htest w a) as (w1 & [|] & E); rewrite E; cbn [wcall].
    + exists w1, (Some a). split; [reflexivity|]. split; [now left|]. exists w, w1. exact E.
    + destruct (IH w1) as (w2 & o & -> & H). exists w2, o. split; [reflexivity|].
      destruct o; [|exact I]. destruct H as [H1 H2]. split; [now right|exact H2].
Qed.

Lemma w_lrf_loop_ok : forall s fuel w before l, l_rep l s -> (length s < fuel)%nat -> exists w',
  (exists l', w_lrf_loop test fuel w before l = Ok (w', Gave (l', rev s ++ before, None)) /\ l_rep l' []) \/
  (exists l' s1 x s2, s = s1 ++ x :: s2 /\ passed x /\
     w_lrf_loop test fuel w before l = Ok (w', Gave (l', rev s1 ++ before, Some x)) /\ l_rep l' s2).
Proof using Htest.
  induction s as [|a s IH]; intros fuel w before l Hl Hf;
    (destruct fuel as [|fuel]; [simpl in Hf; lia|]); cbn [w_lrf_loop]; rewrite (l_rep_is_empty l _ Hl).
  - exists w. left. exists l. split; [reflexivity|exact Hl].
  - cbn [is_nil]. rewrite (l_rep_first l _ Hl). cbn [hd_error unwrap bind].
    destruct (l_rep_drop l _ Hl) as (l' & -> & Hl'). cbn [bind tl] in *.
    destruct (Htest w a) as (w1 & [|] & E); rewrite E; cbn [wcall].
    + exists w1. right. exists l', [], a, s. split; [reflexivity|]. split; [exists w, w1; exact E|]. split; [reflexivity|exact Hl'].
    + simpl in Hf. destruct (IH fuel w1 (a :: before) l' Hl' ltac:(lia)) as (w2 & [(l2 & -> & H)|(l2 & s1 & x & s2 & -> & H1 & -> & H2)]).
      * exists w2. left. exists l2. cbn [rev]. rewrite <- app_assoc. auto.
      * exists w2. right. exists l2, (a :: s1), x, s2. cbn [rev]. rewrite <- app_assoc. auto.
Qed.

Lemma w_list_remove_first_ok : forall l s w, l_rep l s -> exists w' l' o,
  w_list_remove_first test w l = Ok (w', Gave (l', o)) /\
  match o with
  | None => l_rep l' s
  | Some x => passed x /\ exists s1 s2, s = s1 ++ x :: s2 /\ l_rep l' (s1 ++ s2)
  end.
Proof using Htest.
  intros l s w Hl. unfold w_list_remove_first. assert (El : l_len l = length s) by apply Hl.
  destruct (w_lrf_loop_ok s (S (l_len l)) w [] l Hl ltac:(lia)) as (w' & [(l' & -> & H)|(l' & s1 & x & s2 & -> & H1 & -> & H2)]);
    cbn [wbind bind].
  - eexists w', _, None. split; [reflexivity|]. rewrite app_nil_r.
    pose proof (l_rep_fold_push (rev s) l' [] H) as X. rewrite rev_involutive, app_nil_r in X. exact X.
  - eexists w', _, (Some x). split; [reflexivity|]. split; [exact H1|]. exists s1, s2. split; [reflexivity|].
    rewrite app_nil_r. pose proof (l_rep_fold_push (rev s1) l' s2 H2) as X. rewrite rev_involutive in X. exact X.
Qed.
End Lrf.

Section HL.
Variable ubits : N.
Variable dbg : bool.
Variable b : N.
Hypothesis Hb : (0 < b)%N.
Hypothesis Hdeg : (2 ^ b <= ubits)%N.
Hypothesis Hub : (ubits <= 64)%N.
Context {W K V Q : Type}.
Variable U : hash_code W K V Q.
Hypothesis HT : tame U.

Notation entry := (hentry K V).
Notation bucket := (hbucket K V).
Notation node := (hnode K V).
Notation degree := (2 ^ b)%N.
Notation D := (D b).
Notation wrep := (@hrepg ubits b K V false).
Notation sim_access := (sa_access ubits dbg (Hu0 ubits dbg b Hb Hdeg Hub)).
Local Open Scope N_scope.
Set Default Proof Using "dbg Hb Hdeg Hub HT".

Lemma test_query : forall q h w (e : entry), exists w' x, w_matches U q h w e = (w', Some x).
Proof using HT.
  intros q h w e. unfold w_matches. destruct (e_hash e =? h); [|eauto]. apply (tm_query _ HT).
Qed.
Lemma test_key : forall k h w (e : entry), exists w' x, w_matches_key U k h w e = (w', Some x).
Proof using HT.
  intros k h w e. unfold w_matches_key. destruct (e_hash e =? h); [|eauto].
  destruct (tm_key _ HT w (e_key e) k) as (w1 & x & _ & E & _). eauto.
Qed.
Lemma passed_query : forall q h (e : entry), passed (w_matches U q h) e -> e_hash e = h.
Proof using.
  intros q h e (w & w' & E). unfold w_matches in E. destruct (N.eqb_spec (e_hash e) h); [assumption|discriminate].
Qed.
Lemma passed_key : forall k h (e : entry), passed (w_matches_key U k h) e -> e_hash e = h.
Proof using.
  intros q h e (w & w' & E). unfold w_matches_key in E. destruct (N.eqb_spec (e_hash e) h); [assumption|discriminate].
Qed.
(** The same question again. *)
Lemma ask_again : forall k h w (e : entry) w1 x, w_matches_key U k h w e = (w1, Some x) ->
  exists w2, w_matches_key U k h w1 e = (w2, Some x).
Proof using HT.
  intros k h w e w1 x. unfold w_matches_key. destruct (e_hash e =? h).
  - intros E. destruct (tm_key _ HT w (e_key e) k) as (w1' & x' & w2 & E1 & E2). exists w2. congruence.
  - intros E. exists w1. congruence.
Qed.

(** One entry more, less or exchanged, in whatever order. *)
Definition added (e : entry) (es es' : list entry) : Prop := Permutation es' (e :: es).
Definition taken (h : N) (x : entry) (es es' : list entry) : Prop := e_hash x = h /\ Permutation es (x :: es').
Definition swapped (h : N) (x y : entry) (es es' : list entry) : Prop :=
  e_hash x = h /\ e_hash y = h /\ exists l, Permutation es (x :: l) /\ Permutation es' (y :: l).

Lemma added_focus : forall e es1 ec ec' es2, added e ec ec' -> added e (es1 ++ ec ++ es2) (es1 ++ ec' ++ es2).
Proof using. intros e es1 ec ec' es2 H. unfold added in *. rewrite H. cbn [app]. symmetry. apply Permutation_middle. Qed.
Lemma taken_focus : forall h x es1 ec ec' es2, taken h x ec ec' -> taken h x (es1 ++ ec ++ es2) (es1 ++ ec' ++ es2).
Proof using.
  intros h x es1 ec ec' es2 [H1 H]. split; [assumption|]. rewrite H. cbn [app]. symmetry. apply Permutation_middle.
Qed.
Lemma swapped_focus : forall h x y es1 ec ec' es2, swapped h x y ec ec' -> swapped h x y (es1 ++ ec ++ es2) (es1 ++ ec' ++ es2).
Proof using.
  intros h x y es1 ec ec' es2 (H0 & H1 & l & H2 & H3). split; [assumption|]. split; [assumption|]. exists (es1 ++ l ++ es2).
  split; [rewrite H2|rewrite H3]; cbn [app]; symmetry; apply Permutation_middle.
Qed.

(** ** Lookup *)
Lemma w_b_find_ok : forall w (test : W -> entry -> W * option bool) (bk : bucket) es r d, (forall w e, exists w' x, test w e = (w', Some x)) ->
  wrep r d (HLeaf bk) es -> exists w' o, w_b_find w test bk = Ok (w', Gave o) /\
  match o with Some e => In e es /\ passed test e | None => True end.
Proof using.
  intros w test [e|l] es r d Ht H; cbn [w_b_find].
  - assert (es = [e]) by (destruct r; exact H). subst es. destruct (Ht w e) as (w' & [|] & E); rewrite E; cbn [wcall].
    + exists w', (Some e). split; [reflexivity|]. split; [now left|]. exists w, w'. exact E.
    + exists w', None. auto.
  - assert (Hl : l_rep l es) by (destruct r; apply H). rewrite (l_elems_ok _ _ Hl). cbn [bind]. now apply w_find_ok.
Qed.

Lemma w_hn_get_ok : forall q h r d n es fuel w, wrep r d n es -> (d + r = D)%nat -> (r < fuel)%nat ->
  exists w' o, w_hn_get ubits dbg U fuel w q h n d degree = Ok (w', Gave o) /\
    match o with Some e => In e es | None => True end.
Proof.
  intros q h. induction r as [|r IH]; intros d n es fuel w H Hd Hf; (destruct fuel as [|fuel]; [lia|]); cbn [w_hn_get];
    destruct n as [s|bk]; try (destruct (w_b_find_ok w (w_matches U q h) bk es _ d (test_query q h) H) as (w' & o & -> & Ho); exists w', o;
      split; [reflexivity|]; destruct o; [apply Ho|exact I]).
  - destruct H.
  - cbn [hrepg] in H. destruct H as (al & Hw & Hc). rewrite (index_ok ubits dbg b Hb Hdeg Hub) by lia.
    destruct (Nat.ltb_spec d D) as [_|]; [|lia]. cbn [bind unwrap].
    destruct (sim_access s al (idx b d h) Hw (idx_lt ubits dbg b Hb Hdeg Hub d h))
      as [(l1 & l2 & -> & B & A & -> & _)|(l1 & c & l2 & -> & B & A & -> & _)]; cbn [bind].
    + exists w, None. auto.
    + apply (chl_app ubits dbg b Hb Hdeg Hub) in Hc as (es1 & es2 & -> & C1 & C2).
      inversion C2 as [|? ? ec ? rest Hr Hne Hdg Hb2 Hrest]; subst.
      destruct (IH (S d) c ec fuel w Hr ltac:(lia) ltac:(lia)) as (w' & o & -> & Ho). exists w', o. split; [reflexivity|].
      destruct o; [|exact I]. rewrite !in_app_iff. auto.
Qed.

(** ** get_mut *)
Definition copied (shared : bool) (x : entry) (y : K * V) : Prop :=
  if shared then exists w w', hc_clone U w (e_key x, e_val x) = (w', Some y) else y = (e_key x, e_val x).

Definition gm_post (shared : bool) (h : N) (f : V -> V) (rep : list entry -> node -> Prop) (es : list entry) (r : res (W * uout node (node * option V))) : Prop :=
  exists w' o, r = Ok (w', o) /\
  match o with
  | Torn n' => shared = true /\ exists x, In x es /\ exists es', rep es' n' /\ Permutation es es'
  | Gave (n', None) => rep es n'
  | Gave (n', Some v) => exists x y es', v = snd y /\ copied shared x y /\ rep es' n' /\
      swapped h x (mkE (fst y) (f (snd y)) (e_hash x)) es es'
  end.

Lemma w_hn_get_mut_ok : forall q h f shared r d n es fuel w, wrep r d n es -> (d + r = D)%nat -> (r < fuel)%nat ->
  gm_post shared h f (fun es n => wrep r d n es) es (w_hn_get_mut ubits dbg U fuel w shared q h f n d degree).
Proof.
  intros q h f shared.
  assert (Hsingle : forall r d e fuel w, gm_post shared h f (fun es n => wrep r d n es) [e]
     (w_hn_get_mut ubits dbg U (S fuel) w shared q h f (HLeaf (BSingle e)) d degree)).
  { intros r d e fuel w. cbn [w_hn_get_mut w_b_get_mut]. destruct (test_query q h w e) as (w1 & x & E). rewrite E. cbn [wcall].
    destruct x; [|exists w1, (Gave (HLeaf (BSingle e), None)); split; [reflexivity|]; destruct r; reflexivity].
    assert (He : e_hash e = h) by (apply (passed_query q); exists w, w1; exact E).
    assert (Hs : forall y, swapped h e (mkE (fst y) (f (snd y)) (e_hash e)) [e] [mkE (fst y) (f (snd y)) (e_hash e)]).
    { intros y. split; [assumption|]. split; [exact He|]. exists []. split; reflexivity. }
    unfold w_value_mut. destruct shared.
    - destruct (hc_clone U w1 (e_key e, e_val e)) as [w2 [y|]] eqn:Ec; cbn [wcall wbind bind].
      + exists w2. eexists. split; [reflexivity|]. cbv iota beta. exists e, y, [mkE (fst y) (f (snd y)) (e_hash e)].
        split; [reflexivity|]. split; [exists w1, w2; exact Ec|]. split; [destruct r; reflexivity|apply Hs].
      + exists w2. eexists. split; [reflexivity|]. cbv iota beta. split; [reflexivity|]. exists e. split; [now left|].
        exists [e]. split; [destruct r; reflexivity|reflexivity].
    - cbn [wcall wbind bind]. exists w1. eexists. split; [reflexivity|]. cbv iota beta.
      exists e, (e_key e, e_val e), [mkE (e_key e) (f (e_val e)) (e_hash e)].
      split; [reflexivity|]. split; [reflexivity|]. split; [destruct r; reflexivity|apply (Hs (e_key e, e_val e))]. }
  induction r as [|r IH]; intros d n es fuel w H Hd Hf; (destruct fuel as [|fuel]; [lia|]);
    destruct n as [s|[e|l]]; cbn [hrepg] in H; try (subst es; now apply Hsingle).
  - destruct H.
  - destruct H as (_ & Hl & Hlen). cbn [w_hn_get_mut w_b_get_mut].
    destruct (w_list_remove_first_ok _ (test_query q h) l es w Hl) as (w1 & l' & o & -> & Ho). cbn [wbind bind].
    destruct o as [x|].
    2:{ exists w1, (Gave (HLeaf (BCollision l'), None)). split; [reflexivity|]. cbn [hrepg]. auto. }
    destruct Ho as (Hx & s1 & s2 & -> & Hl'). apply passed_query in Hx.
    pose proof (l_rep_push l' _ x Hl') as Hp.
    assert (Hlen' : (1 <= length (s1 ++ s2))%nat) by (rewrite app_length in *; cbn [length] in Hlen; lia).
    assert (Hm : forall y, l_rep (fst (l_first_mut (fun _ => y) (l_push_front_ptr_mut x l'))) (y :: s1 ++ s2)).
    { intros y. destruct Hp as (P1 & P2 & P3). unfold l_first_mut. rewrite P1. cbn [fst].
      repeat split; cbn [l_head ListModel.l_last l_length]; [|assumption].
      rewrite P2. destruct (s1 ++ s2) as [|z fs']; [simpl in Hlen'; lia|]. reflexivity. }
    assert (Hs : forall y, swapped h x (mkE (fst y) (f (snd y)) (e_hash x)) (s1 ++ x :: s2) (mkE (fst y) (f (snd y)) (e_hash x) :: s1 ++ s2)).
    { intros y. split; [assumption|]. split; [exact Hx|]. exists (s1 ++ s2). split; [symmetry; apply Permutation_middle|reflexivity]. }
    unfold w_value_mut. unfold l_push_front_mut. destruct shared.
    + destruct (hc_clone U w1 (e_key x, e_val x)) as [w2 [y|]] eqn:Ec; cbn [wcall wbind bind].
      * exists w2. eexists. split; [reflexivity|]. cbv iota beta. eexists x, y, _.
        split; [reflexivity|]. split; [exists w1, w2; exact Ec|]. split; [|apply Hs]. cbn [hrepg].
        split; [reflexivity|]. split; [apply Hm|cbn [length]; lia].
      * exists w2. eexists. split; [reflexivity|]. cbv iota beta. split; [reflexivity|]. exists x. split; [apply in_elt|].
        exists (x :: s1 ++ s2). split; [|symmetry; apply Permutation_middle]. cbn [hrepg].
        split; [reflexivity|]. split; [exact Hp|cbn [length]; lia].
    + cbn [wcall wbind bind]. exists w1. eexists. split; [reflexivity|]. cbv iota beta.
      eexists x, (e_key x, e_val x), _. split; [reflexivity|]. split; [reflexivity|]. split; [|apply Hs]. cbn [hrepg].
      split; [reflexivity|]. split; [apply Hm|cbn [length]; lia].
  - destruct H as (al & Hw & Hc). cbn [w_hn_get_mut]. rewrite (index_ok ubits dbg b Hb Hdeg Hub) by lia.
    destruct (Nat.ltb_spec d D) as [_|]; [|lia]. cbn [bind unwrap].
    destruct (sim_access s al (idx b d h) Hw (idx_lt ubits dbg b Hb Hdeg Hub d h))
      as [(l1 & l2 & -> & B & A & _ & -> & _)|(l1 & c & l2 & -> & B & A & _ & (wr & -> & Hset) & _)]; cbn [bind].
    + exists w, (Gave (HBranch s, None)). split; [reflexivity|]. cbn [hrepg]. eauto.
    + apply (chl_app ubits dbg b Hb Hdeg Hub) in Hc as (es1 & es2 & -> & C1 & C2).
      inversion C2 as [|? ? ec ? rest Hr Hne Hdg Hb2 Hrest]; subst.
      assert (Hput : forall c' ec', wrep r (S d) c' ec' -> ec' <> [] -> (forall e, In e ec' -> idx b d (e_hash e) = idx b d h) ->
                wrep (S r) d (HBranch (wr c')) (es1 ++ ec' ++ rest)).
      { intros c' ec' Hc' Hn' Hd'. cbn [hrepg]. exists (l1 ++ (idx b d h, c') :: l2). split; [apply Hset|].
        apply (chl_put ubits dbg b Hb Hdeg Hub); auto. discriminate. }
      destruct (IH (S d) c ec fuel w Hr ltac:(lia) ltac:(lia)) as (w' & o & -> & Ho). cbn [wbind bind].
      destruct o as [[c' [v|]]|c'].
      * destruct Ho as (x & y & ec' & -> & H2 & H3 & H4). exists w'. eexists. split; [reflexivity|]. cbv iota beta.
        exists x, y, (es1 ++ ec' ++ rest). split; [reflexivity|]. split; [assumption|].
        split; [|now apply swapped_focus]. destruct H4 as (Ex & Ey & l & P1 & P2). apply Hput; [assumption| |].
        -- intros ->. apply Permutation_nil in P2. discriminate.
        -- intros e He. apply (Permutation_in _ P2) in He as [<-|He]; [now rewrite Ey|].
           apply Hdg. apply (Permutation_in _ (Permutation_sym P1)). now right.
      * exists w'. eexists. split; [reflexivity|]. cbv iota beta. apply Hput; auto.
      * destruct Ho as (Hsh & x & Hx & ec' & H3 & Hp). exists w'. eexists. split; [reflexivity|]. cbv iota beta.
        split; [assumption|]. exists x. split; [rewrite !in_app_iff; auto|]. exists (es1 ++ ec' ++ rest).
        split; [|now rewrite Hp]. apply Hput; [assumption| |].
        -- intros ->. apply Permutation_sym, Permutation_nil in Hp. contradiction.
        -- intros e He. apply Hdg. apply (Permutation_in _ (Permutation_sym Hp)). assumption.
  - destruct H as (H & _). discriminate.
Qed.

(** ** insert *)
Definition wi_post (e : entry) (rep : list entry -> node -> Prop) (es : list entry) (r : res (W * uout node (node * bool))) : Prop :=
  exists w' n' new es', r = Ok (w', Gave (n', new)) /\ rep es' n' /\
  if new : bool then added e es es' else exists x, swapped (e_hash e) x e es es'.

(** Putting [e] in a branch, given what happens in the child. *)
Lemma w_ins_branch : forall r d e s es fuel w,
  (forall c ec w, wrep r (S d) c ec -> ec <> [] -> (exists es1 es2, es = es1 ++ ec ++ es2) ->
     wi_post e (fun es n => wrep r (S d) n es) ec (w_hn_insert ubits dbg U fuel w e c (S d) degree)) ->
  wrep (S r) d (HBranch s) es -> (d + S r = D)%nat ->
  wi_post e (fun es n => wrep (S r) d n es) es (w_hn_insert ubits dbg U (S fuel) w e (HBranch s) d degree).
Proof.
  intros r d e s es fuel w IH H Hd. cbn [hrepg] in H. destruct H as (al & Hw & Hc).
  cbn [w_hn_insert]. rewrite (index_ok ubits dbg b Hb Hdeg Hub) by lia.
  destruct (Nat.ltb_spec d D) as [_|]; [|lia]. cbn [bind unwrap].
  destruct (sim_access s al (idx b d (e_hash e)) Hw (idx_lt ubits dbg b Hb Hdeg Hub d (e_hash e)))
    as [(l1 & l2 & -> & B & A & _ & -> & _ & Hset)|(l1 & c & l2 & -> & B & A & _ & (wr & -> & Hset) & _)]; cbn [bind].
  - destruct (Hset (HLeaf (BSingle e))) as (s' & -> & Hw'). cbn [bind].
    apply (chl_app ubits dbg b Hb Hdeg Hub) in Hc as (es1 & es2 & -> & C1 & C2).
    exists w, (HBranch s'), true, (es1 ++ [e] ++ es2). split; [reflexivity|]. split.
    + cbn [hrepg]. eexists. split; [exact Hw'|]. apply (chl_put ubits dbg b Hb Hdeg Hub); auto.
      * destruct r; reflexivity.
      * discriminate.
      * intros e' [<-|[]]. reflexivity.
      * discriminate.
    + unfold added. cbn [app]. symmetry. apply Permutation_middle.
  - apply (chl_app ubits dbg b Hb Hdeg Hub) in Hc as (es1 & es2 & -> & C1 & C2).
    inversion C2 as [|? ? ec ? rest Hr Hne Hdg Hb2 Hrest]; subst.
    destruct (IH c ec w Hr Hne ltac:(eauto)) as (w' & c' & new & ec' & -> & Hr' & Hp). cbn [wbind bind].
    exists w', (HBranch (wr c')), new, (es1 ++ ec' ++ rest). split; [reflexivity|]. split.
    + cbn [hrepg]. exists (l1 ++ (idx b d (e_hash e), c') :: l2). split; [apply Hset|].
      apply (chl_put ubits dbg b Hb Hdeg Hub); auto; try discriminate.
      * intros ->. destruct new.
        -- unfold added in Hp. apply Permutation_nil in Hp. discriminate.
        -- destruct Hp as (x & _ & _ & l & _ & Hp). apply Permutation_nil in Hp. discriminate.
      * intros x Hx. destruct new.
        -- apply (Permutation_in _ Hp) in Hx as [<-|Hx]; [reflexivity|]. now apply Hdg.
        -- destruct Hp as (y & _ & _ & l & P1 & P2). apply (Permutation_in _ P2) in Hx as [<-|Hx]; [reflexivity|].
           apply Hdg. apply (Permutation_in _ (Permutation_sym P1)). now right.
    + destruct new; [now apply added_focus|]. destruct Hp as (x & Hp). exists x. now apply swapped_focus.
Qed.

(** A branch with [o] alone. *)
Lemma w_ins_empty : forall d o fuel w, (d < D)%nat ->
  exists s1, w_hn_insert ubits dbg U (S fuel) w o new_empty_branch d degree = Ok (w, Gave (HBranch s1, true)) /\
    sa_wf ubits s1 [(idx b d (e_hash o), HLeaf (BSingle o))].
Proof.
  intros d o fuel w Hd. unfold new_empty_branch. cbn [w_hn_insert]. rewrite (index_ok ubits dbg b Hb Hdeg Hub) by lia.
  destruct (Nat.ltb_spec d D) as [_|]; [|lia]. cbn [bind unwrap].
  destruct (sim_access (sa_new : sarr node) [] (idx b d (e_hash o)) (sa_wf_new ubits dbg (Hu0 ubits dbg b Hb Hdeg Hub)) (idx_lt ubits dbg b Hb Hdeg Hub d (e_hash o)))
    as [(l1 & l2 & E & B & A & _ & -> & _ & Hset)|(l1 & c & l2 & E & _)]; [|destruct l1; discriminate].
  destruct (Hset (HLeaf (BSingle o))) as (s' & -> & Hw'). cbn [bind].
  destruct l1; [|discriminate]. destruct l2; [|discriminate].
  exists s'. split; [reflexivity|exact Hw'].
Qed.

(** [o] is alone, and is said to differ from [e]: both end up in the trie. *)
Definition refuses (w : W) (o e : entry) : Prop := snd (w_matches_key U (e_key e) (e_hash e) w o) = Some false.
Definition split_post (e o : entry) (rep : list entry -> node -> Prop) (r : res (W * uout node (node * bool))) : Prop :=
  exists w' n' es', r = Ok (w', Gave (n', true)) /\ rep es' n' /\ added e [o] es'.

Lemma w_split_ok : forall e o r d fuel w, (d + r = D)%nat -> (2 * r < fuel)%nat -> refuses w o e ->
  split_post e o (fun es n => wrep r d n es) (w_hn_insert ubits dbg U fuel w e (HLeaf (BSingle o)) d degree).
Proof.
  intros e o.
  induction r as [|r IH]; intros d fuel w Hd Hf Hr; (destruct fuel as [|fuel]; [lia|]);
    cbn [w_hn_insert]; rewrite (index_ok ubits dbg b Hb Hdeg Hub) by lia;
    unfold refuses in Hr; destruct (test_key (e_key e) (e_hash e) w o) as (w1 & x & E1); rewrite E1 in Hr;
    cbn [snd] in Hr; assert (x = false) by congruence; subst x;
    destruct (ask_again _ _ _ _ _ _ E1) as (w2 & E2); cbn [w_b_find bind]; rewrite E1; cbn [wcall wbind bind is_some].
  - destruct (Nat.ltb_spec d D) as [|_]; [lia|]. cbn [is_some negb w_b_insert]. rewrite E2. cbn [wcall wbind bind].
    eexists w2, _, [e; o]. split; [reflexivity|]. split; [|apply Permutation_refl]. cbn [hrepg]. split; [reflexivity|].
    split; [|simpl; lia]. apply l_rep_push. apply l_rep_push. apply l_rep_new.
  - destruct (Nat.ltb_spec d D) as [_|]; [|lia]. cbn [is_some negb]. destruct fuel as [|fuel]; [lia|].
    destruct (w_ins_empty d o fuel w1 ltac:(lia)) as (s1 & -> & Hw). cbn [wbind bind].
    assert (Hrf : refuses w1 o e) by (unfold refuses; now rewrite E2).
    cbn [w_hn_insert]. rewrite (index_ok ubits dbg b Hb Hdeg Hub) by lia.
    destruct (Nat.ltb_spec d D) as [_|]; [|lia]. cbn [bind unwrap].
    assert (Hone : forall r (e : entry), wrep r (S d) (HLeaf (BSingle e)) [e]) by (intros [|?] ?; reflexivity).
    destruct (sim_access s1 _ (idx b d (e_hash e)) Hw (idx_lt ubits dbg b Hb Hdeg Hub d (e_hash e)))
      as [(l1 & l2 & Eal & B & A & _ & -> & _ & Hset)|(l1 & c & l2 & Eal & B & A & _ & (wr & -> & Hset) & _)]; cbn [bind].
    + destruct (Hset (HLeaf (BSingle e))) as (s' & -> & Hw'). cbn [bind].
      assert (Hch : @chl K V false (wrep r (S d)) (fun e => idx b d (e_hash e)) (l1 ++ l2) [o]).
      { rewrite <- Eal. change [o] with ([o] ++ []). constructor.
        - apply Hone.
        - discriminate.
        - intros z [<-|[]]. reflexivity.
        - discriminate.
        - constructor. }
      apply (chl_app ubits dbg b Hb Hdeg Hub) in Hch as (es1 & es2 & Ees & C1 & C2).
      exists w1, (HBranch s'), (es1 ++ [e] ++ es2). split; [reflexivity|]. split.
      * cbn [hrepg]. eexists. split; [exact Hw'|]. apply (chl_put ubits dbg b Hb Hdeg Hub); auto.
        -- discriminate.
        -- intros e' [<-|[]]. reflexivity.
        -- discriminate.
      * unfold added. rewrite Ees. cbn [app]. symmetry. apply Permutation_middle.
    + destruct l1 as [|p l1]; cbn [app] in Eal; [|exfalso; injection Eal as _ Eal; destruct l1; discriminate].
      injection Eal as Ei <- <-.
      destruct (IH (S d) fuel w1 ltac:(lia) ltac:(lia) Hrf) as (w' & c' & ec' & -> & Hr' & Hp). cbn [wbind bind].
      exists w', (HBranch (wr c')), (ec' ++ []). split; [reflexivity|]. split; [|now rewrite app_nil_r].
      cbn [hrepg]. exists [(idx b d (e_hash e), c')]. split; [apply (Hset c')|]. constructor.
      * exact Hr'.
      * intros ->. unfold added in Hp. apply Permutation_nil in Hp. discriminate.
      * intros z Hz. apply (Permutation_in _ Hp) in Hz as [<-|[<-|[]]]; [reflexivity|exact Ei].
      * discriminate.
      * constructor.
Qed.

Lemma w_hn_insert_ok : forall e r d n es fuel w, wrep r d n es -> (d + r = D)%nat -> (2 * r < fuel)%nat ->
  wi_post e (fun es n => wrep r d n es) es (w_hn_insert ubits dbg U fuel w e n d degree).
Proof.
  intros e.
  assert (Hsingle : forall r d o fuel w, (d + r = D)%nat -> (2 * r < fuel)%nat ->
    wi_post e (fun es n => wrep r d n es) [o] (w_hn_insert ubits dbg U fuel w e (HLeaf (BSingle o)) d degree)).
  { intros r d o fuel w Hd Hf. destruct (test_key (e_key e) (e_hash e) w o) as (w1 & x & E1).
    destruct x.
    - assert (Ho : e_hash o = e_hash e) by (apply (passed_key (e_key e)); exists w, w1; exact E1).
      destruct (ask_again _ _ _ _ _ _ E1) as (w2 & E2).
      destruct fuel as [|fuel]; [lia|]. cbn [w_hn_insert]. rewrite (index_ok ubits dbg b Hb Hdeg Hub) by lia.
      cbn [w_b_find w_b_insert bind]. rewrite E1. cbn [wcall wbind bind is_some]. rewrite E2. cbn [wcall wbind bind].
      exists w2, (HLeaf (BSingle e)), false, [e].
      split; [now destruct (negb _)|]. split; [destruct r; reflexivity|]. exists o. split; [assumption|].
      split; [reflexivity|]. exists []. split; reflexivity.
    - destruct (w_split_ok e o r d fuel w Hd Hf) as (w' & n' & es' & -> & Hr & Hp).
      { unfold refuses. now rewrite E1. }
      exists w', n', true, es'. auto. }
  induction r as [|r IH]; intros d n es fuel w H Hd Hf; destruct n as [s|[o|l]]; cbn [hrepg] in H;
    try (subst es; now apply Hsingle).
  - destruct H.
  - destruct H as (_ & Hl & Hlen). destruct fuel as [|fuel]; [lia|].
    cbn [w_hn_insert]. rewrite (index_ok ubits dbg b Hb Hdeg Hub) by lia.
    destruct (Nat.ltb_spec d D) as [|_]; [lia|]. cbn [bind is_some negb w_b_find].
    rewrite (l_elems_ok l es Hl). cbn [bind].
    destruct (w_find_ok _ (test_key (e_key e) (e_hash e)) es w) as (w1 & o & -> & _). cbn [wbind bind w_b_insert].
    destruct (w_list_remove_first_ok _ (test_key (e_key e) (e_hash e)) l es w1 Hl) as (w2 & l' & [x|] & -> & Ho);
      cbn [wbind bind].
    + destruct Ho as (Hx & s1 & s2 & -> & Hl'). apply passed_key in Hx.
      eexists w2, _, false, (e :: s1 ++ s2). split; [reflexivity|]. split.
      * cbn [hrepg]. split; [reflexivity|]. split; [now apply l_rep_push|].
        rewrite app_length in *. cbn [length] in *. rewrite app_length. lia.
      * exists x. split; [assumption|]. split; [reflexivity|]. exists (s1 ++ s2).
        split; [symmetry; apply Permutation_middle|reflexivity].
    + eexists w2, _, true, (e :: es). split; [reflexivity|]. split; [|apply Permutation_refl].
      cbn [hrepg]. split; [reflexivity|]. split; [now apply l_rep_push|cbn [length]; lia].
  - destruct fuel as [|fuel]; [lia|]. apply w_ins_branch; [|cbn [hrepg]; assumption|assumption].
    intros c ec w' Hr _ _. apply IH; [assumption|lia|lia].
  - destruct H as (H & _). discriminate.
Qed.

(** ** remove *)
Definition wr_post (h : N) (rep : list entry -> node -> Prop) (es : list entry) (r : res (W * uout node (node * bool))) : Prop :=
  exists w' n' removed es', r = Ok (w', Gave (n', removed)) /\
  (if removed : bool then exists x, taken h x es es' else es' = es) /\
  (es' = [] /\ n' = new_empty_branch \/ es' <> [] /\ rep es' n').

Lemma w_hn_remove_ok : forall q h r d n es fuel w, wrep r d n es -> (d + r = D)%nat -> (r < fuel)%nat ->
  (es <> [] \/ n = new_empty_branch) ->
  wr_post h (fun es n => wrep r d n es) es (w_hn_remove ubits dbg U fuel w q h n d degree).
Proof.
  intros q h.
  assert (Hsingle : forall r d e fuel w,
    wr_post h (fun es n => wrep r d n es) [e] (w_hn_remove ubits dbg U (S fuel) w q h (HLeaf (BSingle e)) d degree)).
  { intros r d e fuel w. cbn [w_hn_remove w_b_remove]. destruct (test_query q h w e) as (w1 & [|] & E); rewrite E; cbn [wcall wbind bind].
    - eexists w1, _, true, []. split; [reflexivity|]. split; [|now left]. exists e. split; [|reflexivity].
      apply (passed_query q). exists w, w1. exact E.
    - eexists w1, _, false, [e]. split; [reflexivity|]. split; [reflexivity|]. right. split; [discriminate|destruct r; reflexivity]. }
  induction r as [|r IH]; intros d n es fuel w H Hd Hf Hne; (destruct fuel as [|fuel]; [lia|]);
    destruct n as [s|[e|l]]; cbn [hrepg] in H; try (subst es; now apply Hsingle).
  - destruct H.
  - destruct H as (_ & Hl & Hlen). cbn [w_hn_remove w_b_remove].
    destruct (w_list_remove_first_ok _ (test_query q h) l es w Hl) as (w1 & l' & o & -> & Ho). cbn [wbind bind].
    assert (Hes : exists es' , l_rep l' es' /\ (1 <= length es')%nat /\ (if is_some o then exists x, taken h x es es' else es' = es)).
    { destruct o as [x|]; cbn [is_some].
      - destruct Ho as (Hx & s1 & s2 & -> & Hl'). apply passed_query in Hx. exists (s1 ++ s2). split; [assumption|].
        split; [rewrite app_length in *; cbn [length] in Hlen; lia|]. exists x. split; [assumption|].
        symmetry. apply Permutation_middle.
      - exists es. split; [assumption|]. split; [lia|reflexivity]. }
    destruct Hes as (es' & Hl' & Hlen' & Hx). assert (El : l_len l' = length es') by apply Hl'. rewrite El.
    destruct es' as [|x [|y es']]; cbn [length] in *; [lia| |].
    + rewrite (l_rep_first _ _ Hl'). cbn [hd_error unwrap bind wbind].
      eexists w1, _, _, _. split; [reflexivity|]. split; [exact Hx|]. right. split; [discriminate|reflexivity].
    + cbn [bind wbind]. eexists w1, _, _, _. split; [reflexivity|]. split; [exact Hx|]. right. split; [discriminate|].
      cbn [hrepg]. split; [reflexivity|]. split; [exact Hl'|cbn [length]; lia].
  - destruct H as (al & Hw & Hc). cbn [w_hn_remove]. rewrite (index_ok ubits dbg b Hb Hdeg Hub) by lia.
    destruct (Nat.ltb_spec d D) as [_|]; [|lia]. cbn [bind unwrap].
    destruct (sim_access s al (idx b d h) Hw (idx_lt ubits dbg b Hb Hdeg Hub d h))
      as [(l1 & l2 & -> & B & A & _ & -> & _)|(l1 & c & l2 & -> & B & A & _ & (wr & -> & Hset) & _)]; cbn [bind].
    + eexists w, _, false, es. split; [reflexivity|]. split; [reflexivity|].
      destruct es as [|e es]; [left|right].
      * split; [reflexivity|]. destruct Hne as [Hne|Hne]; [now destruct Hne|assumption].
      * split; [discriminate|]. cbn [hrepg]. eauto.
    + apply (chl_app ubits dbg b Hb Hdeg Hub) in Hc as (es1 & es2 & -> & C1 & C2).
      inversion C2 as [|? ? ec ? rest Hr Hnec Hdg Hb2 Hrest]; subst.
      destruct (IH (S d) c ec fuel w Hr ltac:(lia) ltac:(lia) (or_introl Hnec)) as (w' & c' & removed & ec' & -> & Hp & Hcase).
      cbn [wbind bind]. destruct Hcase as [(-> & ->)|(Hnee & Hr')].
      * (* the child disappears *)
        destruct removed; [|congruence]. destruct Hp as (x & Hp).
        change (hn_is_empty dbg new_empty_branch) with (Ok true). cbn [bind].
        destruct (sim_access _ _ (idx b d h) (Hset new_empty_branch) (idx_lt ubits dbg b Hb Hdeg Hub d h))
          as [(k1 & k2 & E1 & B1 & A1 & _)|(k1 & c1 & k2 & E1 & B1 & A1 & _ & _ & (s2 & -> & Hw2) & _)].
        { exfalso. assert (Hin : In (idx b d h, new_empty_branch) (k1 ++ k2)).
          { rewrite <- E1. apply in_elt. }
          apply in_app_iff in Hin as [Hin|Hin]; [apply B1 in Hin|apply A1 in Hin]; simpl in Hin; lia. }
        cbn [bind].
        assert (Ek : k1 = l1 /\ k2 = l2).
        { assert (X : forall (a1 : list (N * node)) x a2 b1 y b2, a1 ++ (idx b d h, x) :: a2 = b1 ++ (idx b d h, y) :: b2 ->
            below (idx b d h) a1 -> below (idx b d h) b1 -> b1 = a1 /\ b2 = a2).
          { induction a1 as [|p a1 IHa]; intros x0 a2 b1 y b2 Eq Ba Bb; destruct b1 as [|p' b1].
            - split; [reflexivity|cbn [app] in Eq; congruence].
            - exfalso. assert (p' = (idx b d h, x0)) by (cbn [app] in Eq; congruence). subst p'.
              specialize (Bb _ (or_introl eq_refl)). simpl in Bb. lia.
            - exfalso. assert (p = (idx b d h, y)) by (cbn [app] in Eq; congruence). subst p.
              specialize (Ba _ (or_introl eq_refl)). simpl in Ba. lia.
            - assert (p = p') by (cbn [app] in Eq; congruence). subst p'.
              destruct (IHa x0 a2 b1 y b2) as [-> ->]; [cbn [app] in Eq; congruence| | |auto];
                intros z Hz; [apply Ba|apply Bb]; now right. }
          exact (X _ _ _ _ _ _ E1 B B1). }
        destruct Ek as [-> ->].
        assert (H2 : wrep (S r) d (HBranch s2) (es1 ++ rest)).
        { cbn [hrepg]. exists (l1 ++ l2). split; [assumption|]. apply (chl_app ubits dbg b Hb Hdeg Hub). eauto. }
        destruct (compress_ok ubits dbg b Hb Hdeg Hub r d s2 _ H2) as (n' & -> & Hn' & _ & Hnil). cbn [bind].
        exists w', n', true, (es1 ++ rest). split; [reflexivity|]. split.
        -- exists x. apply (taken_focus h x es1 ec [] rest Hp).
        -- destruct (es1 ++ rest) as [|z zs] eqn:Ees; [left|right; split; [discriminate|assumption]].
           split; [reflexivity|]. rewrite (Hnil eq_refl). apply app_eq_nil in Ees as [-> ->].
           assert (l1 = []) by (apply (chl_length ubits dbg b Hb Hdeg Hub) in C1; destruct l1; [reflexivity|simpl in C1; lia]).
           assert (l2 = []) by (apply (chl_length ubits dbg b Hb Hdeg Hub) in Hrest; destruct l2; [reflexivity|simpl in Hrest; lia]).
           subst l1 l2. destruct Hw2 as (Eb & Ea & _). destruct s2 as [bm ar]. cbn in Eb, Ea. now subst.
      * rewrite (hn_is_empty_ok ubits dbg b Hb Hdeg Hub r (S d) c' ec' Hnee Hr'). cbn [bind].
        assert (Hw' : wrep (S r) d (HBranch (wr c')) (es1 ++ ec' ++ rest)).
        { cbn [hrepg]. exists (l1 ++ (idx b d h, c') :: l2). split; [apply Hset|].
          apply (chl_put ubits dbg b Hb Hdeg Hub); auto; [|discriminate].
          intros z Hz. apply Hdg. destruct removed; [|congruence]. destruct Hp as (x & _ & Hp).
          apply (Permutation_in _ (Permutation_sym Hp)). now right. }
        assert (Hnn : es1 ++ ec' ++ rest <> []).
        { intros Hx. apply app_eq_nil in Hx as [_ Hx]. apply app_eq_nil in Hx as [Hx _]. contradiction. }
        destruct removed.
        -- destruct (compress_ok ubits dbg b Hb Hdeg Hub r d _ _ Hw') as (n' & -> & Hn' & _ & Hnil). cbn [bind].
           exists w', n', true, (es1 ++ ec' ++ rest). split; [reflexivity|]. split; [|now right].
           destruct Hp as (x & Hp). exists x. now apply taken_focus.
        -- subst ec'. eexists w', _, false, _. split; [reflexivity|]. split; [reflexivity|]. now right.
  - destruct H as (H & _). discriminate.
Qed.

(** ** The map *)
Definition hclone_of (e e' : K * V) : Prop := exists w w', hc_clone U w e = (w', Some e').

Variable fuel : nat.
Hypothesis Hfuel : (2 * D < fuel)%nat.
Set Default Proof Using "dbg Hb Hdeg Hub HT Hfuel".

(** [m] holds the entries [es]. *)
Definition holds (m : hmap K V) (es : list entry) : Prop :=
  wrep D 0 (hm_root m) es /\ hm_size m = length es /\ hm_degree m = degree.

Lemma holds_empty : forall (n : node) es, wrep D 0 n es -> es <> [] \/ n = new_empty_branch.
Proof using dbg Hb Hdeg Hub.
  clear Hfuel fuel.
  intros n es H. destruct es as [|e es]; [right|left; discriminate].
  pose proof (D_pos ubits dbg b Hb Hdeg Hub) as HD. destruct D as [|r]; [lia|].
  destruct n as [s|[e|l]]; cbn [hrepg] in H.
  - destruct H as (al & Hw & Hc). apply (chl_length ubits dbg b Hb Hdeg Hub) in Hc.
    destruct al; [|simpl in Hc; lia]. destruct Hw as (E1 & E2 & _). destruct s as [bm ar]. cbn in E1, E2. now subst.
  - discriminate.
  - destruct H as (H & _). discriminate.
Qed.

Lemma empty_rep : wrep D 0 new_empty_branch [].
Proof using dbg Hb Hdeg Hub.
  clear Hfuel fuel.
  pose proof (D_pos ubits dbg b Hb Hdeg Hub) as HD. destruct D as [|r]; [lia|].
  cbn [hrepg new_empty_branch]. exists []. split; [|constructor].
  apply (sa_wf_new ubits dbg). apply (Hu0 ubits dbg b Hb Hdeg Hub).
Qed.

Lemma holds_new : exists m0, @hm_new_with_degree ubits K V degree = Ok m0 /\ holds m0 [].
Proof using dbg Hb Hdeg Hub.
  clear Hfuel fuel.
  unfold hm_new_with_degree, is_power_of_two, DEFAULT_DEGREE. rewrite count_ones_pow2. cbn [Nat.eqb negb].
  destruct (N.leb_spec (2 ^ b) ubits); [|lia]. cbn [negb]. eexists. split; [reflexivity|].
  split; [exact empty_rep|]. split; reflexivity.
Qed.

Definition step_post (sh : bool) (o : map_op K V Q) (es : list entry) (r : res (W * uout (hmap K V) (hmap K V * map_obs K V))) : Prop :=
  exists w' x, r = Ok (w', x) /\
    let '(m', a) := match x with Gave (m', a) => (m', Some a) | Torn m' => (m', None) end in
    exists h es0 es1 es', Permutation (map kv es) es0 /\ loose hclone_of sh o h es0 a es1 /\
      Permutation es1 (map kv es') /\ holds m' es'.

Lemma same_post : forall sh o es h a m w, holds m es ->
  loose hclone_of sh o h (map kv es) (Some a) (map kv es) -> step_post sh o es (Ok (w, Gave (m, a))).
Proof using.
  intros sh o es h a m w Hm Hl. exists w, (Gave (m, a)). split; [reflexivity|].
  exists h, (map kv es), (map kv es), es. auto.
Qed.
Lemma thrown_post : forall sh o es m w, holds m es -> asks o -> step_post sh o es (Ok (w, Torn m)).
Proof using.
  intros sh o es m w Hm Ho. exists w, (Torn m). split; [reflexivity|].
  exists Thrown, (map kv es), (map kv es), es. repeat split; auto; try apply Hm. now constructor.
Qed.

Definition im_post (k : K) (v : V) (m : hmap K V) (es : list entry) (r : res (W * uout (hmap K V) (hmap K V))) : Prop :=
  exists w' x, r = Ok (w', x) /\ match x with
  | Torn m' => m' = m
  | Gave m' => exists h es', holds m' es' /\ (added (mkE k v h) es es' \/ exists x, swapped h x (mkE k v h) es es')
  end.
Lemma w_hm_insert_ok : forall k v m es w, holds m es -> im_post k v m es (w_hm_insert_mut ubits dbg U fuel w m k v).
Proof.
  intros k v m es w (Hr & Hs & Hd). unfold w_hm_insert_mut. destruct (hc_hash U w k) as [w1 [h|]]; cbn [wcall].
  - rewrite Hd. destruct (w_hn_insert_ok (mkE k v h) D 0 (hm_root m) es fuel w1 Hr ltac:(lia) Hfuel) as (w2 & n' & new & es' & -> & H1 & H2).
    cbn [wbind bind]. exists w2. eexists. split; [reflexivity|]. cbv iota beta. exists h, es'. split.
    + split; [exact H1|]. split; [|reflexivity]. cbn [hm_size]. destruct new.
      * apply Permutation_length in H2. cbn [length] in H2. lia.
      * destruct H2 as (x & _ & _ & l & P1 & P2). apply Permutation_length in P1, P2. cbn [length] in *. lia.
    + destruct new; [now left|]. right. exact H2.
  - exists w1, (Torn m). split; reflexivity.
Qed.

Definition rm_post (m : hmap K V) (es : list entry) (r : res (W * uout (hmap K V) (hmap K V * bool))) : Prop :=
  exists w' x, r = Ok (w', x) /\ match x with
  | Torn m' => m' = m
  | Gave (m', removed) => exists es', holds m' es' /\ if removed : bool then exists h x, taken h x es es' else es' = es
  end.
Lemma w_hm_remove_ok : forall q m es w, holds m es -> rm_post m es (w_hm_remove_mut ubits dbg U fuel w m q).
Proof.
  intros q m es w (Hr & Hs & Hd). unfold w_hm_remove_mut. destruct (hc_query_hash U w q) as [w1 [h|]]; cbn [wcall].
  - rewrite Hd. destruct (w_hn_remove_ok q h D 0 (hm_root m) es fuel w1 Hr ltac:(lia) ltac:(lia) (holds_empty _ _ Hr))
      as (w2 & n' & removed & es' & -> & H1 & H2).
    assert (Hr' : wrep D 0 n' es') by (destruct H2 as [(-> & ->)|(_ & H2)]; [apply empty_rep|exact H2]).
    cbn [wbind bind]. destruct removed.
    + destruct H1 as (x & H1). pose proof H1 as (_ & Hp). apply Permutation_length in Hp. cbn [length] in Hp.
      rewrite Hs, Hp, csub_S. cbn [bind]. exists w2. eexists. split; [reflexivity|]. cbv iota beta.
      exists es'. split; [|eauto]. split; [exact Hr'|]. split; reflexivity.
    + exists w2. eexists. split; [reflexivity|]. cbv iota beta. exists es'. split; [|exact H1]. subst es'.
      split; [exact Hr'|]. split; [exact Hs|reflexivity].
  - exists w1, (Torn m). split; reflexivity.
Qed.

Definition fd_post (m : hmap K V) (es : list entry) (r : res (W * uout (hmap K V) (option entry))) : Prop :=
  exists w' x, r = Ok (w', x) /\ match x with
  | Torn m' => m' = m
  | Gave (Some e) => In e es
  | Gave None => True
  end.
Lemma w_hm_find_ok : forall q m es w, holds m es -> fd_post m es (w_hm_find ubits dbg U fuel w m q).
Proof.
  intros q m es w (Hr & Hs & Hd). unfold w_hm_find. destruct (hc_query_hash U w q) as [w1 [h|]]; cbn [wcall].
  - rewrite Hd. destruct (w_hn_get_ok q h D 0 (hm_root m) es fuel w1 Hr ltac:(lia) ltac:(lia)) as (w2 & o & -> & Ho).
    cbn [wbind bind]. exists w2, (Gave o). split; [reflexivity|exact Ho].
  - exists w1, (Torn m). split; reflexivity.
Qed.

Lemma kv_e : forall e : entry, kv e = (e_key e, e_val e).
Proof using. reflexivity. Qed.
Lemma in_kv : forall (e : entry) es, In e es -> In (e_key e, e_val e) (map kv es).
Proof using. intros e es H. exact (in_map kv es e H). Qed.

Lemma w_hm_step_ok : forall sh o m es w, holds m es -> step_post sh o es (w_hm_step ubits dbg U fuel w sh o m).
Proof.
  intros sh o m es w Hm.
  assert (Hins : forall k v, o = MInsert k v \/ o = MInsertMut k v -> forall (back : hmap K V -> hmap K V),
    (forall m, back m = m) -> step_post sh o es
      (wbind (w_hm_insert_mut ubits dbg U fuel w m k v) back (fun w m' => Ok (w, Gave (m', MoUnit))))).
  { intros k v Ho back Hback. destruct (w_hm_insert_ok k v m es w Hm) as (w' & x & -> & H). destruct x as [m'|s]; cbn [wbind bind].
    - destruct H as (h & es' & Hm' & H). exists w'. eexists. split; [reflexivity|]. cbv iota beta. destruct H as [H|(x & _ & _ & l & P1 & P2)].
      + exists Nothing, (map kv es), ((k, v) :: map kv es), es'. split; [reflexivity|]. split; [|split; [|exact Hm']].
        * eapply lo_add; [exact Ho|]. exists [], (map kv es). split; reflexivity.
        * symmetry. exact (Permutation_map kv H).
      + exists (Match (e_key x)), (map kv (x :: l)), ((k, v) :: map kv l), es'. split; [exact (Permutation_map kv P1)|].
        split; [|split; [|exact Hm']].
        * eapply lo_replace; [exact Ho|]. exists [], (map kv l). split; reflexivity.
        * symmetry. exact (Permutation_map kv P2).
    - subst s. rewrite Hback. apply thrown_post; [exact Hm|]. destruct Ho as [-> | ->]; exact I. }
  assert (Hfind : asks o -> forall (f : option entry -> map_obs K V),
    (forall e, In e es -> loose hclone_of sh o (Match (e_key e)) (map kv es) (Some (f (Some e))) (map kv es)) ->
    loose hclone_of sh o Nothing (map kv es) (Some (f None)) (map kv es) ->
    forall q, step_post sh o es (wbind (w_hm_find ubits dbg U fuel w m q) (fun m' => m') (fun w o => Ok (w, Gave (m, f o))))).
  { intros Ho f H1 H2 q. destruct (w_hm_find_ok q m es w Hm) as (w' & x & -> & H). destruct x as [[e|]|s]; cbn [wbind bind].
    - eapply same_post; [exact Hm|]. apply H1. exact H.
    - eapply same_post; [exact Hm|]. exact H2.
    - subst s. now apply thrown_post. }
  destruct o as [k v|k v|q|q|q f|q|q|q| | |]; cbn [w_hm_step].
  - (* insert *)
    assert (Hw : step_post sh (MInsert k v) es (wbind (w_hm_insert_mut ubits dbg U fuel w m k v) (fun m' => m') (fun w m' => Ok (w, Gave (m', MoUnit))))).
    { apply Hins; auto. }
    destruct (w_hm_insert_ok k v m es w Hm) as (w' & x & E & H). rewrite E in Hw |- *. destruct x; [exact Hw|].
    cbn [wbind bind] in *. now apply thrown_post.
  - apply Hins; auto.
  - destruct (w_hm_remove_ok q m es w Hm) as (w' & x & -> & H). destruct x as [[m' removed]|s]; cbn [wbind bind].
    + destruct H as (es' & Hm' & H). destruct removed.
      * destruct H as (h & x & _ & P). exists w'. eexists. split; [reflexivity|]. cbv iota beta.
        exists (Match (e_key x)), (map kv (x :: es')), (map kv es'), es'.
        split; [exact (Permutation_map kv P)|]. split; [|split; [reflexivity|exact Hm']].
        eapply lo_removed. exists [], (map kv es'). split; reflexivity.
      * eapply same_post; [exact Hm|]. constructor.
    + now apply thrown_post.
  - destruct (w_hm_remove_ok q m es w Hm) as (w' & x & -> & H). destruct x as [[m' removed]|s]; cbn [wbind bind].
    + destruct H as (es' & Hm' & H). destruct removed.
      * destruct H as (h & x & _ & P). exists w'. eexists. split; [reflexivity|]. cbv iota beta.
        exists (Match (e_key x)), (map kv (x :: es')), (map kv es'), es'.
        split; [exact (Permutation_map kv P)|]. split; [|split; [reflexivity|exact Hm']].
        eapply lo_removed_mut. exists [], (map kv es'). split; reflexivity.
      * subst es'. eapply same_post; [exact Hm'|]. constructor.
    + subst s. now apply thrown_post.
  - unfold w_hm_get_mut. destruct Hm as (Hr & Hs & Hd). destruct (hc_query_hash U w q) as [w1 [h|]]; cbn [wcall wbind bind].
    2:{ apply thrown_post; [split; auto|exact I]. }
    rewrite Hd. destruct (w_hn_get_mut_ok q h f sh D 0 (hm_root m) es fuel w1 Hr ltac:(lia) ltac:(lia)) as (w2 & o & -> & Ho).
    destruct o as [[n' [v|]]|n']; cbn [wbind bind].
    + destruct Ho as (x & y & es' & -> & Hc & Hr' & _ & _ & l & P1 & P2). exists w2. eexists. split; [reflexivity|]. cbv iota beta.
      exists (Match (e_key x)), (map kv (x :: l)), (map kv (mkE (fst y) (f (snd y)) (e_hash x) :: l)), es'.
      split; [exact (Permutation_map kv P1)|]. split; [|split].
      * eapply (lo_written _ _ q f (e_key x) (e_val x) y).
        -- unfold copied in Hc. destruct sh; exact Hc.
        -- exists [], (map kv l). split; reflexivity.
      * symmetry. exact (Permutation_map kv P2).
      * split; [exact Hr'|]. split; [|reflexivity]. cbn [hm_size]. apply Permutation_length in P1, P2. cbn [length] in *. lia.
    + apply (same_post sh (MGetMut q f) es Nothing); [|constructor]. split; [exact Ho|]. split; [exact Hs|reflexivity].
    + destruct Ho as (Hsh & x & Hx & es' & Hr' & P). exists w2. eexists. split; [reflexivity|]. cbv iota beta.
      exists (Match (e_key x)), (map kv es), (map kv es), es'. split; [reflexivity|]. split; [|split].
      * eapply lo_no_clone; [exact Hsh|apply in_kv; exact Hx].
      * exact (Permutation_map kv P).
      * split; [exact Hr'|]. split; [|exact Hd]. cbn [hm_put hm_size]. rewrite Hs. apply Permutation_length. assumption.
  - apply (Hfind I (fun o => MoVal (option_map e_val o))); [|constructor].
    intros e He. cbn [option_map]. eapply lo_get. now apply in_kv.
  - apply (Hfind I (fun o => MoKV (option_map (fun e => (e_key e, e_val e)) o))); [|constructor].
    intros e He. cbn [option_map]. eapply lo_kv. now apply in_kv.
  - apply (Hfind I (fun o => MoBool (is_some o))); [|constructor].
    intros e He. cbn [is_some]. eapply lo_contains. now apply in_kv.
  - eapply same_post; [exact Hm|]. unfold hm_len. destruct Hm as (_ & -> & _). rewrite <- (map_length kv). constructor.
  - eapply same_post; [exact Hm|]. unfold hm_is_empty. destruct Hm as (_ & -> & _).
    replace (Nat.eqb (length es) 0) with (is_nil (map kv es)) by (destruct es; reflexivity). constructor.
  - eapply same_post; [exact Hm|]. constructor.
Qed.

Lemma lh_start : forall copy ops (a a' : list (K * V)) l b0, Permutation a a' ->
  loose_hist copy (@Permutation (K * V)) (ops : list (bool * map_op K V Q)) a' l b0 ->
  loose_hist copy (@Permutation (K * V)) ops a l b0.
Proof using.
  intros copy ops a a' l b0 P H. destruct H as [es es' Hs|sh o ops h es es0 x es1 l es2 Hs Hl Hh].
  - constructor. now rewrite P.
  - econstructor; [|exact Hl|exact Hh]. now rewrite P.
Qed.

Lemma w_hm_hist_ok : forall ops m es w, holds m es -> exists w' m' l es',
  w_exec (w_hm_step ubits dbg U fuel) ops w m = Ok (w', m', l) /\ holds m' es' /\
  loose_hist hclone_of (@Permutation (K * V)) ops (map kv es) l (map kv es').
Proof.
  induction ops as [|[sh o] ops IH]; intros m es w Hm; cbn [w_exec].
  - exists w, m, [], es. split; [reflexivity|]. split; [assumption|]. now constructor.
  - destruct (w_hm_step_ok sh o m es w Hm) as (w1 & x & -> & H). cbn [bind].
    destruct (match x with Gave (m', a) => (m', Some a) | Torn m' => (m', None) end) as [m1 a].
    destruct H as (h & es0 & es1 & esn & P0 & Hl & P1 & Hm1).
    destruct (IH m1 esn w1 Hm1) as (w2 & m2 & l & es' & -> & Hm2 & Hh). cbn [bind].
    exists w2, m2, (a :: l), es'. split; [reflexivity|]. split; [assumption|].
    econstructor; [exact P0|exact Hl|]. eapply lh_start; eassumption.
Qed.

(** Iteration shows exactly the entries, whatever the user code. *)
Lemma holds_iter : forall m es, holds m es ->
  hm_entries m = Ok (map kv es) /\ forall k, runs hi_next hi_hint k (hi_new m) = Ok (fwd_spec k (map kv es)).
Proof using dbg Hb Hdeg Hub.
  clear Hfuel fuel.
  intros m es (Hr & Hs & Hd).
  assert (KL : key_laws (fun _ _ : K => true) (fun _ => tt) (fun _ _ : unit => true)) by (constructor; intros; reflexivity).
  assert (HL : hash_laws (fun _ : K => tt) (fun _ _ : unit => true) (fun _ => 0) (fun _ => 0)) by (constructor; intros; reflexivity).
  assert (Hi : hi_rep (strict := false) ubits b (hi_new m) (map kv es)).
  { exists es. unfold hi_new. cbn [fst snd].
    repeat split; auto. destruct (Nat.ltb_spec 0 (hm_size m)) as [H|H].
    - rewrite <- (app_nil_r es). constructor; [|constructor].
      refine (is_new_rep ubits dbg b Hb Hdeg Hub _ _ _ _ _ KL HL (S (2 * D)) _ _ _ _); [lia|]. exists D, 0%nat. assumption.
    - destruct es; [constructor|simpl in Hs; lia]. }
  pose proof (@hi_sim ubits dbg b Hb Hdeg Hub K V _ _ _ _ _ _ KL HL (S (2 * D)) ltac:(lia) false) as Hsim. split.
  - unfold hm_entries. eapply sim_collect; [exact (iter_sim_sim0 _ _ _ _ _ Hsim)|exact Hi|].
    rewrite map_length. lia.
  - intros k. eapply sim_runs; [exact Hsim|exact Hi].
Qed.
End HL.
Unset Default Proof Using.
