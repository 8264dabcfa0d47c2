(** Relations between whole hash maps with user code that keeps no law: proofs. *)
From Coq Require Import List NArith Arith Bool Lia.
From Verif Require Import Base Spec SpecMap SpecTrait SpecTalk Sim ListModel ListProofs SparseModel SparseProofs HashModel HashProofs HashHist
  SpecSerde TraitProofs LawlessModel LawlessHash LawlessRelModel LawlessRel.
Import ListNotations.

Section Find.
Context {W K V : Type}.
Variable U : hash_code W K V K.
Notation entry := (hentry K V).

Lemma find_skip : forall k h w l1 (l2 : list entry), (forall e, In e l1 -> e_hash e <> h) ->
  w_find (w_matches U k h) w (l1 ++ l2) = w_find (w_matches U k h) w l2.
Proof.
  intros k h w l1. induction l1 as [|a l1 IH]; intros l2 H; cbn [app w_find]; [reflexivity|]. unfold w_matches at 1.
  destruct (N.eqb_spec (e_hash a) h) as [E|_]; [now destruct (H a (or_introl eq_refl))|]. cbn [wcall]. apply IH. intros e He. apply H. now right.
Qed.
Lemma find_none : forall k h w (l : list entry), (forall e, In e l -> e_hash e <> h) ->
  w_find (w_matches U k h) w l = Ok (w, Gave None).
Proof. intros k h w l H. rewrite <- (app_nil_r l), find_skip by assumption. reflexivity. Qed.
Lemma find_tail : forall k h (l1 l2 : list entry) w, (forall e, In e l2 -> e_hash e <> h) ->
  w_find (w_matches U k h) w (l1 ++ l2) = w_find (w_matches U k h) w l1.
Proof.
  intros k h l1 l2 w H. revert w. induction l1 as [|a l1 IH]; intros w; cbn [app w_find]; [now apply find_none|].
  destruct (w_matches U k h w a) as [w1 [[|]|]]; cbn [wcall]; [reflexivity|apply IH|reflexivity].
Qed.

Variable veq : W -> V -> V -> W * option bool.
(** The user code of [==], with the hasher of the other map. *)
Definition hash_asks (w : W) (c : hash_call K V) : W * option hash_answer :=
  match c with
  | HHash k => let '(w, o) := hc_query_hash U w k in (w, option_map HNum o)
  | HKey k' k => let '(w, o) := hc_query U w k' k in (w, option_map HBool o)
  | HVal v v' => let '(w, o) := veq w v v' in (w, option_map HBool o)
  end.
Definition stored (e : entry) : (K * V) * N := (kv e, e_hash e).

Lemma find_talk : forall k h es w, exists w' l x, w_find (w_matches U k h) w es = Ok (w', x) /\ talk hash_asks w l w' /\
  hash_look (map stored es) k ((HHash k, Some (HNum h)) :: l) (option_map (option_map kv) (told x)).
Proof.
  intros k h es. enough (H : forall w, exists w' l x, w_find (w_matches U k h) w es = Ok (w', x) /\ talk hash_asks w l w' /\
    let same := filter (fun e => N.eqb (snd e) h) (map stored es) in
    match x with
    | Gave None => l = map (no k) same
    | Gave (Some e) => exists l1 l2, same = l1 ++ stored e :: l2 /\ l = map (no k) l1 ++ [(HKey (e_key e) k, Some (HBool true))]
    | Torn _ => exists l1 e l2, same = l1 ++ stored e :: l2 /\ l = map (no k) l1 ++ [(HKey (e_key e) k, None)]
    end).
  { intros w. destruct (H w) as (w' & l & x & E & Ht & Hx). exists w', l, x. split; [exact E|]. split; [exact Ht|].
    cbv zeta in Hx. destruct x as [[e|]|]; cbn [told option_map].
    - destruct Hx as (l1 & l2 & E1 & ->). exact (hl_found _ k h l1 (stored e) l2 E1).
    - subst l. apply hl_absent.
    - destruct Hx as (l1 & e & l2 & E1 & ->). exact (hl_panic _ k h l1 (stored e) l2 E1). }
  induction es as [|a es IH]; intros w; cbn [w_find].
  - exists w, [], (Gave None). split; [reflexivity|]. split; [constructor|reflexivity].
  - unfold w_matches at 1. cbn [map filter]. change (snd (stored a)) with (e_hash a). destruct (N.eqb (e_hash a) h) eqn:Eh.
    + destruct (hc_query U w (e_key a) k) as [w1 [[|]|]] eqn:Eq; cbn [wcall].
      * exists w1, [(HKey (e_key a) k, Some (HBool true))], (Gave (Some a)). split; [reflexivity|].
        split; [apply talk_one; cbn [hash_asks]; now rewrite Eq|]. exists []. eexists. split; reflexivity.
      * destruct (IH w1) as (w2 & l & x & -> & Ht & Hx). exists w2, ((HKey (e_key a) k, Some (HBool false)) :: l), x. split; [reflexivity|].
        split; [econstructor; [cbn [hash_asks]; rewrite Eq; reflexivity|exact Ht]|]. cbv zeta in *.
        destruct x as [[e|]|].
        -- destruct Hx as (l1 & l2 & -> & ->). exists (stored a :: l1), l2. split; reflexivity.
        -- now rewrite Hx.
        -- destruct Hx as (l1 & e & l2 & -> & ->). exists (stored a :: l1), e, l2. split; reflexivity.
      * exists w1, [(HKey (e_key a) k, None)], (Torn tt). split; [reflexivity|].
        split; [apply talk_one; cbn [hash_asks]; now rewrite Eq|]. exists [], a. eexists. split; reflexivity.
    + cbn [wcall]. apply IH.
Qed.
End Find.

Section HR.
Variable ubits : N.
Variable dbg : bool.
Variable b : N.
Hypothesis Hb : (0 < b)%N.
Hypothesis Hdeg : (2 ^ b <= ubits)%N.
Hypothesis Hub : (ubits <= 64)%N.
Context {W K V : Type}.
Variable U : hash_code W K V K.
Notation entry := (hentry K V).
Notation node := (hnode K V).
Notation degree := (2 ^ b)%N.
Notation D := (D b).
Notation wrep := (@hrepg ubits b K V false).
Notation sim_access := (sa_access ubits dbg (Hu0 ubits dbg b Hb Hdeg Hub)).

(** A lookup is a search through all entries, of which those with other hashes do not count. *)
Lemma get_find : forall k h r d (n : node) es fuel w, wrep r d n es -> d + r = D -> r < fuel ->
  w_hn_get ubits dbg U fuel w k h n d degree = w_find (w_matches U k h) w es.
Proof using Hb Hdeg Hub.
  intros k h. set (m := fun e : entry => N.eqb (e_hash e) h).
  assert (Hm : forall d (e : entry), m e = true -> idx b d (e_hash e) = idx b d h).
  { intros d e H. apply N.eqb_eq in H. now rewrite H. }
  assert (Hn : forall es, nomatch m es -> forall e, In e es -> e_hash e <> h).
  { intros es H e He E. specialize (H e He). unfold m in H. rewrite E, N.eqb_refl in H. discriminate. }
  assert (Hl : forall w bk es r d, wrep r d (HLeaf bk) es -> w_b_find w (w_matches U k h) bk = w_find (w_matches U k h) w es).
  { intros w [e|l] es r d H; cbn [w_b_find].
    - assert (es = [e]) by (destruct r; exact H). subst es. cbn [w_find].
      destruct (w_matches U k h w e) as [w1 [[|]|]]; reflexivity.
    - assert (Hl : l_rep l es) by (destruct r; apply H). rewrite (l_elems_ok _ _ Hl). reflexivity. }
  induction r as [|r IH]; intros d n es fuel w H Hd Hf; (destruct fuel as [|fuel]; [lia|]); cbn [w_hn_get];
    destruct n as [s|bk]; try (eapply Hl; exact H).
  - destruct H.
  - cbn [hrepg] in H. destruct H as (al & Hw & Hc). rewrite (index_ok ubits dbg b Hb Hdeg Hub) by lia.
    destruct (Nat.ltb_spec d D) as [_|]; [|lia]. cbn [bind unwrap].
    destruct (sim_access s al (idx b d h) Hw (idx_lt ubits dbg b Hb Hdeg Hub d h))
      as [(l1 & l2 & -> & B & A & -> & _)|(l1 & c & l2 & -> & B & A & -> & _)]; cbn [bind].
    + rewrite find_none; [reflexivity|]. apply Hn. exact (chl_hole ubits dbg b Hb Hdeg Hub _ _ m _ _ _ _ Hc B A (Hm d)).
    + destruct (chl_focus ubits dbg b Hb Hdeg Hub _ _ m _ _ _ _ _ Hc B A (Hm d)) as (es1 & ec & es2 & -> & N1 & N2 & _ & _ & Hr & _).
      rewrite find_skip by (now apply Hn). rewrite find_tail by (now apply Hn). apply IH; [exact Hr|lia|lia].
Qed.

Variable fuel : nat.
Hypothesis Hfuel : D < fuel.
Variable veq : W -> V -> V -> W * option bool.

Lemma hm_find_talk : forall k (m : hmap K V) es w, holds ubits b m es -> exists w' l x,
  w_hm_find ubits dbg U fuel w m k = Ok (w', x) /\ talk (hash_asks U veq) w l w' /\
  hash_look (map stored es) k l (option_map (option_map kv) (told x)).
Proof using Hb Hdeg Hub Hfuel.
  intros k m es w (Hr & _ & Hd). unfold w_hm_find. destruct (hc_query_hash U w k) as [w1 [h|]] eqn:Eh; cbn [wcall].
  2:{ exists w1, [(HHash k, None)], (Torn m). split; [reflexivity|]. split; [apply talk_one; cbn [hash_asks]; now rewrite Eh|constructor]. }
  rewrite Hd, (get_find k h D 0 _ es) by (assumption || lia).
  destruct (find_talk U veq k h es w1) as (w2 & l & x & -> & Ht & Hx). cbn [wbind bind].
  exists w2, ((HHash k, Some (HNum h)) :: l), (match x with Gave o => Gave o | Torn _ => Torn m end).
  split; [now destruct x|]. split; [econstructor; [cbn [hash_asks]; rewrite Eh; reflexivity|exact Ht]|]. now destruct x.
Qed.
End HR.

Lemma holds_iterates : forall ubits b K V (dbg : bool) (m : hmap K V) es, (0 < b)%N -> (2 ^ b <= ubits)%N -> (ubits <= 64)%N ->
  holds ubits b m es -> iterates hi_next hi_hint (hi_new m) (map kv es).
Proof. intros ubits b K V dbg m es Hb Hd Hub H. exact (proj2 (holds_iter ubits dbg b Hb Hd Hub m es H)). Qed.

(** The two maps may have different degrees. *)
Section Two.
Variable ubits : N.
Variable dbg : bool.
Variable b1 b2 : N.
Hypothesis Hb1 : (0 < b1)%N.
Hypothesis Hb2 : (0 < b2)%N.
Hypothesis Hd1 : (2 ^ b1 <= ubits)%N.
Hypothesis Hd2 : (2 ^ b2 <= ubits)%N.
Hypothesis Hub : (ubits <= 64)%N.
Context {W K V : Type}.
Variable U : hash_code W K V K.
Variable fuel : nat.
Hypothesis Hfuel : D b2 < fuel.
Variable veq : W -> V -> V -> W * option bool.

Lemma hm_all_talk : forall p P (m : hmap K V) es w, holds ubits b1 m es ->
  (forall a : K * V, In a (map kv es) -> forall w, exists w' l x, p w a = Ok (w', x) /\ talk (hash_asks U veq) w l w' /\ P a l (told x)) ->
  exists w' l x, w_iter_all hm_next p (S (hm_len m)) w (hi_new m) = Ok (w', x) /\ talk (hash_asks U veq) w l w' /\
    for_each P (map kv es) l (told x).
Proof using dbg Hb1 Hd1 Hub.
  clear Hfuel fuel Hb2 Hd2 b2. intros p P m es w H Hp.
  apply (all_ok hm_next (iterates hi_next hi_hint) (quiet_sim W _ _ _ _ (iterates_sim0 _ _ _ _)) _ _ (hash_asks U veq) p P (map kv es)).
  - exact Hp.
  - exact (holds_iterates ubits b1 K V dbg m es Hb1 Hd1 Hub H).
  - rewrite map_length. destruct H as (_ & H & _). unfold hm_len. lia.
Qed.

Lemma hm_eq_talk : forall (m other : hmap K V) es1 es2 w, holds ubits b1 m es1 -> holds ubits b2 other es2 ->
  exists w' l x, w_hm_eq ubits dbg U fuel veq w false m other = Ok (w', x) /\ talk (hash_asks U veq) w l w' /\
  (length es1 <> length es2 -> l = [] /\ x = Gave false) /\
  (length es1 = length es2 -> for_each (hash_same (map stored es2)) (map kv es1) l (told x)).
Proof using Hb1 Hb2 Hd1 Hd2 Hub Hfuel.
  intros m other es1 es2 w H1 H2. unfold w_hm_eq.
  assert (E1 : hm_len m = length es1) by apply H1. assert (E2 : hm_len other = length es2) by apply H2.
  destruct (Nat.eqb_spec (hm_len m) (hm_len other)) as [E|E]; rewrite E1, E2 in E; cbn [negb].
  2:{ exists w, [], (Gave false). split; [reflexivity|]. split; [constructor|]. split; [auto|contradiction]. }
  match goal with |- exists w' l x, w_iter_all _ ?p _ _ _ = _ /\ _ =>
    destruct (hm_all_talk p (hash_same (map stored es2)) m es1 w H1) as (w' & l & x & Ex & Ht & Hf) end.
  - intros [k v] _ w0. destruct (hm_find_talk ubits dbg b2 Hb2 Hd2 Hub U fuel Hfuel veq k other es2 w0 H2) as (w1 & l & x & -> & Ht & Hx).
    cbn [wbind bind]. destruct x as [[e|]|]; cbn [told option_map] in Hx.
    + destruct (veq w1 v (e_val e)) as [w2 c] eqn:Ev. exists w2, (l ++ [(HVal v (e_val e), option_map HBool c)]),
        (match c with Some c => Gave c | None => Torn tt end).
      split; [now destruct c|]. split; [eapply talk_app; [exact Ht|]; apply talk_one; cbn [hash_asks]; now rewrite Ev|].
      replace (told _) with c by (now destruct c). exact (hs_value _ (k, v) l (e_key e) (e_val e) c Hx).
    + exists w1, l, (Gave false). split; [reflexivity|]. split; [exact Ht|]. now apply hs_absent.
    + exists w1, l, (Torn tt). split; [reflexivity|]. split; [exact Ht|]. now apply hs_panic.
  - exists w', l, x. split; [exact Ex|]. split; [exact Ht|]. split; [contradiction|auto].
Qed.

Lemma has_talk : forall (yes : bool) (other : hmap K V) es2 w k v, holds ubits b2 other es2 -> exists w' l x,
  wbind (w_hm_find ubits dbg U fuel w other k) (fun _ => tt) (fun w o => Ok (w, Gave (if yes then is_some o else negb (is_some o)))) = Ok (w', x) /\
  talk (hash_asks U veq) w l w' /\ hash_has yes (map stored es2) (k, v) l (told x).
Proof using Hb2 Hd2 Hub Hfuel.
  intros yes other es2 w k v H2.
  destruct (hm_find_talk ubits dbg b2 Hb2 Hd2 Hub U fuel Hfuel veq k other es2 w H2) as (w1 & l & x & -> & Ht & Hx).
  cbn [wbind bind]. destruct x as [o|].
  - eexists w1, l, _. split; [reflexivity|]. split; [exact Ht|]. eexists. split; [exact Hx|]. destruct o, yes; reflexivity.
  - eexists w1, l, _. split; [reflexivity|]. split; [exact Ht|]. eexists. split; [exact Hx|]. reflexivity.
Qed.

Lemma hs_disjoint_talk : forall (s other : hmap K V) es1 es2 w, holds ubits b1 s es1 -> holds ubits b2 other es2 ->
  exists w' l x, w_hs_is_disjoint ubits dbg U fuel w s other = Ok (w', x) /\ talk (hash_asks U veq) w l w' /\
  for_each (hash_has false (map stored es2)) (map kv es1) l (told x).
Proof using Hb1 Hb2 Hd1 Hd2 Hub Hfuel.
  intros s other es1 es2 w H1 H2. unfold w_hs_is_disjoint. apply hm_all_talk; [exact H1|].
  intros [k v] _ w0. exact (has_talk false other es2 w0 k v H2).
Qed.

Lemma hs_subset_talk : forall (s other : hmap K V) es1 es2 w, holds ubits b1 s es1 -> holds ubits b2 other es2 ->
  exists w' l x, w_hs_is_subset ubits dbg U fuel w false s other = Ok (w', x) /\ talk (hash_asks U veq) w l w' /\
  (length es2 < length es1 -> l = [] /\ x = Gave false) /\
  (length es1 <= length es2 -> for_each (hash_has true (map stored es2)) (map kv es1) l (told x)).
Proof using Hb1 Hb2 Hd1 Hd2 Hub Hfuel.
  intros s other es1 es2 w H1 H2. unfold w_hs_is_subset.
  assert (E1 : hm_len s = length es1) by apply H1. assert (E2 : hm_len other = length es2) by apply H2.
  destruct (Nat.leb_spec (hm_len s) (hm_len other)) as [E|E]; rewrite E1, E2 in E; cbn [negb].
  2:{ exists w, [], (Gave false). split; [reflexivity|]. split; [constructor|]. split; [auto|lia]. }
  match goal with |- exists w' l x, w_iter_all _ ?p _ _ _ = _ /\ _ =>
    destruct (hm_all_talk p (hash_has true (map stored es2)) s es1 w H1) as (w' & l & x & Ex & Ht & Hf) end.
  - intros [k v] _ w0. exact (has_talk true other es2 w0 k v H2).
  - exists w', l, x. split; [exact Ex|]. split; [exact Ht|]. split; [lia|auto].
Qed.
End Two.
