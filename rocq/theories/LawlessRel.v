(** Relations between whole collections with user code that keeps no law: proofs. *)
From Coq Require Import List NArith Arith Bool Lia.
From Verif Require Import Base Spec SpecMap SpecTalk Sim ListModel RBModel RBProofs RBHist RBIter LawlessModel LawlessIter
  LawlessRelModel.
Import ListNotations.

(** The panic of user code as [None], as in the specification. *)
Definition told {S A} (x : uout S A) : option A := match x with Gave a => Some a | Torn _ => None end.

Lemma talk_app : forall W X A (ask : W -> X -> W * option A) w l w1 l' w2,
  talk ask w l w1 -> talk ask w1 l' w2 -> talk ask w (l ++ l') w2.
Proof. intros W X A ask w l w1 l' w2 H. revert l' w2. induction H; intros; cbn [app]; [assumption|econstructor; eauto]. Qed.
Lemma talk_one : forall W X A (ask : W -> X -> W * option A) w x w1 a, ask w x = (w1, a) -> talk ask w [(x, a)] w1.
Proof. intros. econstructor; [eassumption|constructor]. Qed.

Lemma ended_cons : forall X A (q : X * A) l a, ended l a -> ended (q :: l) a.
Proof. intros X A q l a (l' & x & ->). exists (q :: l'), x. reflexivity. Qed.
Lemma ended_one : forall X A (x : X) (a : A), ended [(x, a)] a.
Proof. intros. exists [], x. reflexivity. Qed.
Lemma ended_inv : forall X A (x : X) (a b : A) l, ended ((x, a) :: l) b -> l = [] /\ a = b \/ ended l b.
Proof.
  intros X A x a b l ([|q l'] & y & E); cbn [app] in E.
  - injection E as -> -> ->. auto.
  - injection E as _ ->. right. exists l', y. reflexivity.
Qed.
Lemma ended_nil : forall X A (a : A), ~ ended (@nil (X * A)) a.
Proof. intros X A a ([|? ?] & y & E); discriminate. Qed.

(** ** Iterators that call no user code on their way *)
Definition w_sim {W St A} (next : w_next W St A) (I : St -> list A -> Prop) : Prop :=
  forall w s l, I s l -> exists s', next w s = Ok (w, Gave (hd_error l, s')) /\ I s' (tl l).

Lemma quiet_sim : forall W St A (next : St -> res (option A * St)) I, iter_sim0 next I -> w_sim (W:=W) (quiet_next next) I.
Proof.
  intros W St A next I H w s l Hs. destruct (H s l Hs) as (s' & E & H'). exists s'. unfold quiet_next. rewrite E. auto.
Qed.

Section Compare.
Context {W S1 S2 A B R : Type}.
Variable next1 : w_next W S1 A.
Variable next2 : w_next W S2 B.
Variable I1 : S1 -> list A -> Prop.
Variable I2 : S2 -> list B -> Prop.
Hypothesis H1 : w_sim next1 I1.
Hypothesis H2 : w_sim next2 I2.

Lemma compare_ok : forall (ask : W -> A * B -> W * option R) equal ends l1 l2 fuel w s1 s2,
  I1 s1 l1 -> I2 s2 l2 -> length l1 < fuel -> exists w' l x,
  w_iter_compare next1 next2 ask equal ends fuel w s1 s2 = Ok (w', x) /\
  talk ask w l w' /\ in_step equal l1 l2 l /\ verdict equal ends l1 l2 l (told x).
Proof using H1 H2.
  intros ask equal ends. induction l1 as [|a l1 IH]; intros l2 fuel w s1 s2 Hs1 Hs2 Hf; (destruct fuel as [|fuel]; [lia|]);
    cbn [w_iter_compare]; destruct (H1 w s1 _ Hs1) as (s1' & -> & Hs1'); cbn [wbind bind hd_error tl] in *;
    destruct (H2 w s2 _ Hs2) as (s2' & -> & Hs2'); cbn [wbind bind].
  - exists w, [], (Gave (ends match l2 with [] => Eq | _ => Lt end)). split; [destruct l2; reflexivity|]. split; [constructor|].
    split; [intros [|i] ? ? ? E; discriminate|]. right. split; [destruct l2; reflexivity|]. split; [reflexivity|]. intros q [].
  - destruct l2 as [|b l2]; cbn [hd_error tl] in *.
    + exists w, [], (Gave (ends Gt)). split; [reflexivity|]. split; [constructor|]. split; [intros [|i] ? ? ? E; discriminate|].
      right. split; [reflexivity|]. split; [reflexivity|]. intros q [].
    + destruct (ask w (a, b)) as [w1 [r|]] eqn:Ea; cbn [wcall].
      2:{ exists w1, [((a, b), None)], (Torn tt). split; [reflexivity|]. split; [now apply talk_one|]. split; [|apply ended_one].
          intros [|[|i]] a0 b0 r0 E; try discriminate. injection E as <- <- <-. split; [reflexivity|]. split; [reflexivity|].
          cbn [length]. lia. }
      destruct (equal r) eqn:Er.
      * destruct (IH l2 fuel w1 s1' s2' Hs1' Hs2' ltac:(cbn in Hf; lia)) as (w2 & l & x & -> & Ht & Hi & Hv).
        exists w2, (((a, b), Some r) :: l), x. split; [reflexivity|]. split; [econstructor; eassumption|]. split.
        -- intros [|i] a0 b0 r0 E.
           ++ injection E as <- <- <-. split; [reflexivity|]. split; [reflexivity|]. eauto.
           ++ destruct (Hi i a0 b0 r0 E) as (X1 & X2 & X3). split; [exact X1|]. split; [exact X2|].
              intros X. apply X3. cbn [length] in X. lia.
        -- unfold verdict in *. destruct (told x) as [y|]; [|now apply ended_cons].
           destruct Hv as [(X1 & X2)|(X1 & X2 & X3)]; [left; split; [now apply ended_cons|assumption]|right].
           split; [exact X1|]. split; [cbn [length]; rewrite X2; reflexivity|].
           intros q [<-|Hq]; [exists r; auto|auto].
      * exists w1, [((a, b), Some r)], (Gave r). split; [reflexivity|]. split; [now apply talk_one|]. split.
        -- intros [|[|i]] a0 b0 r0 E; try discriminate. injection E as <- <- <-. split; [reflexivity|]. split; [reflexivity|].
           cbn [length]. lia.
        -- left. split; [apply ended_one|exact Er].
Qed.

Lemma all_ok : forall X C (ask : W -> X -> W * option C) p (P : A -> list (X * option C) -> option bool -> Prop) l1 fuel w s1,
  (forall a, In a l1 -> forall w, exists w' l x, p w a = Ok (w', x) /\ talk ask w l w' /\ P a l (told x)) ->
  I1 s1 l1 -> length l1 < fuel -> exists w' l x,
  w_iter_all next1 p fuel w s1 = Ok (w', x) /\ talk ask w l w' /\ for_each P l1 l (told x).
Proof using H1.
  intros X C ask p P. induction l1 as [|a l1 IH]; intros fuel w s1 Hp Hs1 Hf; (destruct fuel as [|fuel]; [lia|]);
    cbn [w_iter_all]; destruct (H1 w s1 _ Hs1) as (s1' & -> & Hs1'); cbn [wbind bind hd_error tl] in *.
  - exists w, [], (Gave true). split; [reflexivity|]. split; constructor.
  - destruct (Hp a (or_introl eq_refl) w) as (w1 & l & x & -> & Ht & HP). cbn [wbind bind]. destruct x as [[|]|[]]; cbn [told] in HP.
    + destruct (IH fuel w1 s1' (fun a Ha => Hp a (or_intror Ha)) Hs1' ltac:(cbn in Hf; lia)) as (w2 & l' & x & -> & Ht' & HP').
      exists w2, (l ++ l'), x. split; [reflexivity|]. split; [eapply talk_app; eassumption|]. now constructor.
    + exists w1, l, (Gave false). split; [reflexivity|]. split; [exact Ht|]. apply fe_stop; [exact HP|discriminate].
    + exists w1, l, (Torn tt). split; [reflexivity|]. split; [exact Ht|]. apply fe_stop; [exact HP|discriminate].
Qed.
End Compare.

(** ** RedBlackTreeMap *)
Section RB.
Context {W K V : Type}.
Variable gt : W -> K -> K -> W * option bool.
Notation it := (witer K V * nat)%type.

(** The iterator has [L] before it. *)
Definition ahead (i : it) (L : list (K * V)) : Prop :=
  exists a, at_pos (wi_map (fst i)) false (fst i) a /\ wi_stack true (fst i) = None /\
    L = skipn a (seq false (rb_root (wi_map (fst i)))) /\ snd i = length L.
Lemma ahead_new : forall m : rbmap K V, rb_size m = length (elems (rb_root m)) -> ahead (wt_new m) (elems (rb_root m)).
Proof. intros m H. exists 0. repeat split. exact H. Qed.
Lemma ahead_sim : w_sim (rb_next gt) ahead.
Proof.
  intros w [i n] L (a & Ha & Hb & -> & Hn). cbn [fst snd] in *. unfold rb_next.
  destruct n as [|n].
  - rewrite (wt_zero gt) by (cbn [snd]; lia). cbn [wbind bind].
    destruct (skipn a (seq false (rb_root (wi_map i)))) as [|e L] eqn:E; [|discriminate].
    exists (i, 0). split; [reflexivity|]. exists a. cbn [fst snd tl]. rewrite E. auto.
  - rewrite wt_succ. destruct (full_step gt (wi_map i) false w i a 0 eq_refl Ha) as (w' & x & -> & H); [unfold at_pos; cbn [negb]; now rewrite Hb|].
    destruct x as [[i' o]|i']; [|destruct H as (_ & _ & _ & H); contradiction].
    destruct H as (Hm & Ha' & _ & _ & H). destruct (H Hb) as (-> & Hb' & ->). cbn [wbind bind].
    exists (i', n). rewrite hd_skipn. split; [reflexivity|]. exists (S a). cbn [fst snd]. rewrite Hm, tl_skipn.
    split; [exact Ha'|]. split; [exact Hb'|]. split; [reflexivity|].
    rewrite <- tl_skipn. destruct (skipn a (seq false (rb_root (wi_map i)))); cbn [length tl] in *; lia.
Qed.

Definition kahead (i : it) (L : list K) : Prop := exists L', ahead i L' /\ L = map fst L'.
Lemma kahead_new : forall m : rbmap K V, rb_size m = length (elems (rb_root m)) -> kahead (wt_new m) (map fst (elems (rb_root m))).
Proof. intros m H. eexists. split; [now apply ahead_new|reflexivity]. Qed.
Lemma kahead_sim : w_sim (rs_next gt) kahead.
Proof.
  intros w i L (L' & H & ->). unfold rs_next. destruct (ahead_sim w i L' H) as (i' & -> & H'). cbn [wbind bind].
  exists i'. split; [now destruct L'|]. exists (tl L'). split; [assumption|]. now destruct L'.
Qed.

Variable U : ord_code W K V K.
Variable veq : W -> V -> V -> W * option bool.

(** The user code of [==]. *)
Definition ord_asks (w : W) (c : ord_call K V) : W * option ord_answer :=
  match c with
  | OCmp k k' => let '(w, o) := oc_query U w k k' in (w, option_map AOrd o)
  | OVal v v' => let '(w, o) := veq w v v' in (w, option_map ABool o)
  end.

Lemma look_more : forall n es es' k (l : list (ord_call K V * option ord_answer)) o k' c,
  ord_look n es k l o -> (forall e, In e es -> In e es') -> In k' (map fst es') -> c <> Eq ->
  ord_look (S n) es' k ((OCmp k k', Some (AOrd c)) :: l) o.
Proof.
  intros n es es' k l o k' c H Hin Hk Hc.
  assert (Hd : forall l, Forall (differs es k) l -> Forall (differs es' k) ((OCmp k k', Some (AOrd c)) :: l)).
  { intros l0 H0. constructor; [exists k', c; auto|]. eapply Forall_impl; [|exact H0].
    intros q (k0 & c0 & Hi & E & Hn). exists k0, c0. split; [|auto]. apply in_map_iff in Hi as (e & <- & He). apply in_map. auto. }
  inversion H; subst.
  - apply ol_absent; [now apply Hd|cbn [length]; lia].
  - change (ord_look (S n) es' k (((OCmp k k', Some (AOrd c)) :: l0) ++ [(OCmp k k'0, Some (AOrd Eq))]) (Some (Some (k'0, v')))).
    apply ol_found; [now apply Hd|now apply Hin|cbn [length]; lia].
  - change (ord_look (S n) es' k (((OCmp k k', Some (AOrd c)) :: l0) ++ [(OCmp k k'0, None)]) None).
    apply ol_panic; [now apply Hd| |cbn [length]; lia]. apply in_map_iff in H1 as (e & <- & He). apply in_map. auto.
Qed.
Lemma look_le : forall n n' es k (l : list (ord_call K V * option ord_answer)) o, ord_look n es k l o -> n <= n' -> ord_look n' es k l o.
Proof. intros n n' es k l o H Hn. inversion H; subst; constructor; auto; lia. Qed.

Lemma get_look : forall (t : tree K V) k w, exists w' l x, w_t_get U w t k = Ok (w', x) /\
  talk ord_asks w l w' /\ ord_look (hgt t) (elems t) k l (told x).
Proof.
  induction t as [|e c l IHl r IHr]; intros k w; cbn [w_t_get hgt].
  - exists w, [], (Gave None). split; [reflexivity|]. split; [constructor|]. now apply ol_absent.
  - destruct (oc_query U w k (fst e)) as [w1 [a|]] eqn:Eq; cbn [wcall].
    2:{ exists w1, [(OCmp k (fst e), None)], (Torn tt). split; [reflexivity|]. split; [apply talk_one; cbn [ord_asks]; now rewrite Eq|].
        apply (ol_panic _ _ _ []); [constructor| |cbn [length]; lia]. apply in_map. cbn [elems]. apply in_elt. }
    assert (Ha : ord_asks w (OCmp k (fst e)) = (w1, Some (AOrd a))) by (cbn [ord_asks]; now rewrite Eq).
    assert (Hk : In (fst e) (map fst (elems (Tree e c l r)))) by (apply in_map; cbn [elems]; apply in_elt).
    destruct a.
    + exists w1, [(OCmp k (fst e), Some (AOrd Datatypes.Eq))], (Gave (Some e)). split; [reflexivity|]. split; [now apply talk_one|].
      cbn [told]. destruct e as [k' v']. apply (ol_found _ _ _ []); [constructor|cbn [elems]; apply in_elt|cbn [length]; lia].
    + destruct (IHl k w1) as (w2 & l0 & x & -> & Ht & Hx). exists w2, ((OCmp k (fst e), Some (AOrd Lt)) :: l0), x.
      split; [reflexivity|]. split; [econstructor; eassumption|]. eapply look_le; [|apply le_n_S, Nat.le_max_l].
      eapply look_more; [exact Hx|intros y Hy; cbn [elems]; apply in_app_iff; auto|exact Hk|discriminate].
    + destruct (IHr k w1) as (w2 & l0 & x & -> & Ht & Hx). exists w2, ((OCmp k (fst e), Some (AOrd Gt)) :: l0), x.
      split; [reflexivity|]. split; [econstructor; eassumption|]. eapply look_le; [|apply le_n_S, Nat.le_max_r].
      eapply look_more; [exact Hx|intros y Hy; cbn [elems]; apply in_app_iff; right; now right|exact Hk|discriminate].
Qed.

Lemma rb_eq_talk : forall (m other : rbmap K V) w, rb_size m = length (elems (rb_root m)) ->
  exists w' l x, w_rb_eq U gt veq w false m other = Ok (w', x) /\ talk ord_asks w l w' /\
  (rb_size m <> rb_size other -> l = [] /\ x = Gave false) /\
  (rb_size m = rb_size other -> for_each (ord_same (hgt (rb_root other)) (elems (rb_root other))) (elems (rb_root m)) l (told x)).
Proof.
  intros m other w Hm. unfold w_rb_eq. destruct (Nat.eqb_spec (rb_size m) (rb_size other)) as [E|E]; cbn [negb].
  2:{ exists w, [], (Gave false). split; [reflexivity|]. split; [constructor|]. split; [auto|contradiction]. }
  match goal with |- exists w' l x, w_iter_all _ ?p _ _ _ = _ /\ _ =>
    destruct (all_ok (rb_next gt) ahead ahead_sim _ _ ord_asks p (ord_same (hgt (rb_root other)) (elems (rb_root other)))
      (elems (rb_root m)) (S (rb_size m)) w (wt_new m)) as (w' & l & x & Ex & Ht & Hf) end.
  - intros [k v] _ w0. destruct (get_look (rb_root other) k w0) as (w1 & l & x & -> & Ht & Hx). cbn [wbind bind].
    destruct x as [[[k' v']|]|[]]; cbn [told] in Hx.
    + destruct (veq w1 v v') as [w2 b] eqn:Ev. exists w2, (l ++ [(OVal v v', option_map ABool b)]),
        (match b with Some b => Gave b | None => Torn tt end).
      split; [now destruct b|]. split; [eapply talk_app; [exact Ht|]; apply talk_one; cbn [ord_asks]; now rewrite Ev|].
      replace (told _) with b by (now destruct b). exact (os_value _ _ (k, v) l k' v' b Hx).
    + exists w1, l, (Gave false). split; [reflexivity|]. split; [exact Ht|]. now apply os_absent.
    + exists w1, l, (Torn tt). split; [reflexivity|]. split; [exact Ht|]. now apply os_panic.
  - now apply ahead_new.
  - rewrite Hm. lia.
  - exists w', l, x. split; [exact Ex|]. split; [exact Ht|]. split; [contradiction|auto].
Qed.

(** ** The sets *)
Definition key_asks (w : W) (p : K * K) : W * option comparison := oc_key U w (fst p) (snd p).

Lemma disjoint_loop_ok : forall n L1 L2 fuel w i1 i2, length L1 + length L2 <= n -> n < fuel ->
  kahead i1 (tl L1) -> kahead i2 (tl L2) -> exists w' l x,
  w_disjoint_loop U gt fuel w (hd_error L1) (hd_error L2) i1 i2 = Ok (w', x) /\
  talk key_asks w l w' /\ side_by_side L1 L2 l /\ disjoint_verdict L1 L2 l (told x) /\
  length l <= length L1 + length L2 - 1 /\ (L1 = [] \/ L2 = [] -> l = []).
Proof.
  assert (Hnil : forall (L1 L2 : list K), L1 = [] \/ L2 = [] -> side_by_side L1 L2 [] /\ disjoint_verdict L1 L2 [] (Some true)).
  { intros L1 L2 H. split; [intros [|i] ? ? ? E; discriminate|]. split; [reflexivity|]. split; [apply ended_nil|].
    destruct H as [->| ->]; [left|right]; reflexivity. }
  induction n as [|n IH]; intros L1 L2 fuel w i1 i2 Hn Hf K1 K2; (destruct fuel as [|fuel]; [lia|]); cbn [w_disjoint_loop];
    (destruct L1 as [|v L1]; [exists w, [], (Gave true); split; [reflexivity|]; split; [constructor|];
      destruct (Hnil [] L2 (or_introl eq_refl)); split; [assumption|]; split; [assumption|]; split; [cbn; lia|auto]|]);
    (destruct L2 as [|u L2]; [exists w, [], (Gave true); split; [reflexivity|]; split; [constructor|];
      destruct (Hnil (v :: L1) [] (or_intror eq_refl)); split; [assumption|]; split; [assumption|]; split; [cbn; lia|auto]|]);
    [cbn in Hn; lia|]. cbn [hd_error tl] in *.
  destruct (oc_key U w v u) as [w1 [a|]] eqn:Ea; cbn [wcall].
  2:{ exists w1, [((v, u), None)], (Torn tt). split; [reflexivity|]. split; [now apply talk_one|]. split; [|split; [apply ended_one|split; [cbn; lia|intros [?|?]; discriminate]]].
      intros [|[|i]] v0 u0 a0 E; try discriminate. injection E as <- <- <-. split; [reflexivity|]. split; [reflexivity|]. cbn [length]. lia. }
  destruct a.
  - exists w1, [((v, u), Some Eq)], (Gave false). split; [reflexivity|]. split; [now apply talk_one|]. split; [|split; [apply ended_one|split; [cbn; lia|intros [?|?]; discriminate]]].
    intros [|[|i]] v0 u0 a0 E; try discriminate. injection E as <- <- <-. split; [reflexivity|]. split; [reflexivity|]. cbn [length]. lia.
  - destruct (kahead_sim w1 i1 L1 K1) as (i1' & -> & K1'). cbn [wbind bind].
    destruct (IH L1 (u :: L2) fuel w1 i1' i2 ltac:(cbn in *; lia) ltac:(lia) K1' K2) as (w2 & l & x & E2 & Ht & Hs & Hv & Hl & Hz).
    cbn [hd_error] in E2. rewrite E2.
    exists w2, (((v, u), Some Lt) :: l), x. split; [reflexivity|]. split; [econstructor; [exact Ea|exact Ht]|]. split; [|split; [|split]].
    + intros [|i] v0 u0 a0 E.
      * injection E as <- <- <-. split; [reflexivity|]. split; [reflexivity|]. auto.
      * destruct (Hs i v0 u0 a0 E) as (X1 & X2 & X3). split; [exact X1|]. split; [exact X2|]. intros X. apply X3. cbn [length] in X. lia.
    + destruct (told x) as [[|]|]; cbn [disjoint_verdict] in *; try now apply ended_cons.
      destruct Hv as (X1 & X2 & X3). split; [exact X1|]. split; [|destruct X3 as [X3|X3]; [left|right]; [cbn [heard filter snd length] in *; unfold heard in *; cbn [filter snd length]; now rewrite X3|exact X3]].
      intros X. apply ended_inv in X as [(_ & X)|X]; [discriminate|contradiction].
    + cbn [length] in *. destruct L1; [rewrite (Hz (or_introl eq_refl)); cbn; lia|cbn [length] in *; lia].
    + intros [?|?]; discriminate.
  - destruct (kahead_sim w1 i2 L2 K2) as (i2' & -> & K2'). cbn [wbind bind].
    destruct (IH (v :: L1) L2 fuel w1 i1 i2' ltac:(cbn in *; lia) ltac:(lia) K1 K2') as (w2 & l & x & E2 & Ht & Hs & Hv & Hl & Hz).
    cbn [hd_error] in E2. rewrite E2.
    exists w2, (((v, u), Some Gt) :: l), x. split; [reflexivity|]. split; [econstructor; [exact Ea|exact Ht]|]. split; [|split; [|split]].
    + intros [|i] v0 u0 a0 E.
      * injection E as <- <- <-. split; [reflexivity|]. split; [reflexivity|]. auto.
      * destruct (Hs i v0 u0 a0 E) as (X1 & X2 & X3). split; [exact X1|]. split; [exact X2|]. intros X. apply X3. cbn [length] in X. lia.
    + destruct (told x) as [[|]|]; cbn [disjoint_verdict] in *; try now apply ended_cons.
      destruct Hv as (X1 & X2 & X3). split; [exact X1|]. split; [|destruct X3 as [X3|X3]; [left|right]; [exact X3|unfold heard in *; cbn [filter snd length]; now rewrite X3]].
      intros X. apply ended_inv in X as [(_ & X)|X]; [discriminate|contradiction].
    + cbn [length] in *. destruct L2; [rewrite (Hz (or_intror eq_refl)); cbn; lia|cbn [length] in *; lia].
    + intros [?|?]; discriminate.
Qed.

Lemma disjoint_ok : forall (s other : rbmap K V) w,
  rb_size s = length (elems (rb_root s)) -> rb_size other = length (elems (rb_root other)) ->
  let L1 := map fst (elems (rb_root s)) in let L2 := map fst (elems (rb_root other)) in exists w' l x,
  w_rs_is_disjoint U gt w s other = Ok (w', x) /\ talk key_asks w l w' /\ side_by_side L1 L2 l /\ disjoint_verdict L1 L2 l (told x) /\
  length l <= rb_size s + rb_size other - 1 /\ (rb_size s = 0 \/ rb_size other = 0 -> l = []).
Proof.
  intros s other w Hs Ho L1 L2. unfold w_rs_is_disjoint.
  destruct (kahead_sim w _ _ (kahead_new s Hs)) as (i1 & -> & K1). cbn [wbind bind].
  destruct (kahead_sim w _ _ (kahead_new other Ho)) as (i2 & -> & K2). cbn [wbind bind].
  destruct (disjoint_loop_ok (rb_size s + rb_size other) L1 L2 (S (rb_size s + rb_size other)) w i1 i2) as (w' & l & x & E & Ht & H1 & H2 & H3 & H4);
    [subst L1 L2; rewrite !map_length; lia|lia|exact K1|exact K2|].
  exists w', l, x. split; [exact E|]. split; [exact Ht|]. split; [exact H1|]. split; [exact H2|].
  subst L1 L2. rewrite !map_length, <- Hs, <- Ho in H3. split; [exact H3|].
  rewrite Hs, Ho. intros [X|X]; apply H4; [left|right]; apply length_zero_iff_nil in X; now rewrite X.
Qed.

(** Both loops of [is_subset] as one. *)
Inductive sub_talk : list K -> list K -> list ((K * K) * option comparison) -> option bool -> Prop :=
| st_done : forall L2, sub_talk [] L2 [] (Some true)
| st_short : forall v L1, sub_talk (v :: L1) [] [] (Some false)
| st_lt : forall v L1 u L2 l x, sub_talk (v :: L1) L2 l x -> sub_talk (v :: L1) (u :: L2) (((u, v), Some Lt) :: l) x
| st_eq : forall v L1 u L2 l x, sub_talk L1 L2 l x -> sub_talk (v :: L1) (u :: L2) (((u, v), Some Eq) :: l) x
| st_gt : forall v L1 u L2, sub_talk (v :: L1) (u :: L2) [((u, v), Some Gt)] (Some false)
| st_panic : forall v L1 u L2, sub_talk (v :: L1) (u :: L2) [((u, v), None)] None.

Lemma sub_talk_spec : forall L1 L2 l x, sub_talk L1 L2 l x -> sweeping L1 L2 l /\ subset_verdict L1 L2 l x /\ (L1 = [] -> l = []).
Proof.
  intros L1 L2 l x H. induction H as [L2|v L1|v L1 u L2 l x H IH|v L1 u L2 l x H IH|v L1 u L2|v L1 u L2].
  - split; [intros [|i] ? ? ? E; discriminate|]. split; [|auto]. split; [reflexivity|]. split; [reflexivity|apply ended_nil].
  - split; [intros [|i] ? ? ? E; discriminate|]. split; [|auto]. right. split; [reflexivity|]. split; [cbn; lia|]. split; [reflexivity|apply ended_nil].
  - destruct IH as (H1 & H2 & _). split; [|split; [|discriminate]].
    + intros [|i] u0 v0 a0 E; [injection E as <- <- <-; split; [reflexivity|]; split; [reflexivity|auto]|].
      destruct (H1 i u0 v0 a0 E) as (X1 & X2 & X3). split; [exact X1|]. split; [exact X2|]. intros X. apply X3. cbn [length] in X. lia.
    + assert (Hn : ~ ended l None -> ~ ended (((u, v), Some Lt) :: l) None).
      { intros X Y. apply ended_inv in Y as [(_ & Y)|Y]; [discriminate|contradiction]. }
      destruct x as [[|]|]; cbn [subset_verdict] in *; [| |now apply ended_cons].
      * destruct H2 as (X1 & X2 & X3). auto.
      * destruct H2 as [X|(X1 & X2 & X3 & X4)]; [left; now apply ended_cons|right]. split; [cbn [length]; now rewrite X1|]. auto.
  - destruct IH as (H1 & H2 & _). split; [|split; [|discriminate]].
    + intros [|i] u0 v0 a0 E; [injection E as <- <- <-; split; [reflexivity|]; split; [reflexivity|auto]|].
      destruct (H1 i u0 v0 a0 E) as (X1 & X2 & X3). split; [exact X1|]. split; [exact X2|]. intros X. apply X3. cbn [length] in X. lia.
    + assert (Hn : ~ ended l None -> ~ ended (((u, v), Some Eq) :: l) None).
      { intros X Y. apply ended_inv in Y as [(_ & Y)|Y]; [discriminate|contradiction]. }
      assert (He : heard Eq (((u, v), Some Eq) :: l) = S (heard Eq l)) by reflexivity.
      destruct x as [[|]|]; cbn [subset_verdict] in *; [| |now apply ended_cons].
      * destruct H2 as (X1 & X2 & X3). rewrite He. cbn [length]. auto.
      * destruct H2 as [X|(X1 & X2 & X3 & X4)]; [left; now apply ended_cons|right]. split; [cbn [length]; now rewrite X1|].
        rewrite He. cbn [length]. split; [lia|auto].
  - split; [|split; [left; apply ended_one|discriminate]].
    intros [|[|i]] u0 v0 a0 E; try discriminate. injection E as <- <- <-. split; [reflexivity|]. split; [reflexivity|]. cbn [length]. lia.
  - split; [|split; [apply ended_one|discriminate]].
    intros [|[|i]] u0 v0 a0 E; try discriminate. injection E as <- <- <-. split; [reflexivity|]. split; [reflexivity|]. cbn [length]. lia.
Qed.

Lemma seek_ok : forall v L1 L2 fuel w i2, kahead i2 L2 -> length L2 < fuel -> exists w' l x,
  w_subset_seek U gt fuel w v i2 = Ok (w', x) /\ talk key_asks w l w' /\
  match x with
  | Gave (Some i2') => exists L2', kahead i2' L2' /\ length L2' <= length L2 /\
      forall l' y, sub_talk L1 L2' l' y -> sub_talk (v :: L1) L2 (l ++ l') y
  | Gave None => sub_talk (v :: L1) L2 l (Some false)
  | Torn _ => sub_talk (v :: L1) L2 l None
  end.
Proof.
  intros v L1. induction L2 as [|u L2 IH]; intros fuel w i2 K2 Hf; (destruct fuel as [|fuel]; [lia|]); cbn [w_subset_seek];
    destruct (kahead_sim w i2 _ K2) as (i2' & -> & K2'); cbn [wbind bind hd_error tl] in *.
  - exists w, [], (Gave None). split; [reflexivity|]. split; constructor.
  - destruct (oc_key U w u v) as [w1 [a|]] eqn:Ea; cbn [wcall].
    2:{ exists w1, [((u, v), None)], (Torn tt). split; [reflexivity|]. split; [now apply talk_one|constructor]. }
    destruct a.
    + exists w1, [((u, v), Some Eq)], (Gave (Some i2')). split; [reflexivity|]. split; [now apply talk_one|].
      exists L2. split; [exact K2'|]. split; [cbn; lia|]. intros l' y H. now apply st_eq.
    + destruct (IH fuel w1 i2' K2' ltac:(cbn in Hf; lia)) as (w2 & l & x & -> & Ht & Hx).
      exists w2, (((u, v), Some Lt) :: l), x. split; [reflexivity|]. split; [econstructor; [exact Ea|exact Ht]|].
      destruct x as [[i3|]|[]]; [|now apply st_lt|now apply st_lt].
      destruct Hx as (L3 & K3 & Hl & Hx). exists L3. split; [exact K3|]. split; [cbn; lia|]. intros l' y H. apply st_lt. auto.
    + exists w1, [((u, v), Some Gt)], (Gave None). split; [reflexivity|]. split; [now apply talk_one|constructor].
Qed.

Lemma subset_loop_ok : forall L1 L2 fuel fuel' w i1 i2, kahead i1 L1 -> kahead i2 L2 -> length L1 < fuel -> length L2 < fuel' ->
  exists w' l x, w_subset_loop U gt fuel fuel' w i1 i2 = Ok (w', x) /\ talk key_asks w l w' /\ sub_talk L1 L2 l (told x).
Proof.
  induction L1 as [|v L1 IH]; intros L2 fuel fuel' w i1 i2 K1 K2 Hf Hf'; (destruct fuel as [|fuel]; [lia|]); cbn [w_subset_loop];
    destruct (kahead_sim w i1 _ K1) as (i1' & -> & K1'); cbn [wbind bind hd_error tl] in *.
  - exists w, [], (Gave true). split; [reflexivity|]. split; constructor.
  - destruct (seek_ok v L1 L2 fuel' w i2 K2 Hf') as (w1 & l & x & -> & Ht & Hx). cbn [wbind bind]. destruct x as [[i2'|]|[]].
    + destruct Hx as (L3 & K3 & Hl & Hx).
      destruct (IH L3 fuel fuel' w1 i1' i2' K1' K3 ltac:(cbn in Hf; lia) ltac:(lia)) as (w2 & l' & x & -> & Ht' & Hx').
      exists w2, (l ++ l'), x. split; [reflexivity|]. split; [eapply talk_app; eassumption|auto].
    + exists w1, l, (Gave false). auto.
    + exists w1, l, (Torn tt). auto.
Qed.

Lemma sweep_len : forall (L1 L2 : list K) l, sweeping L1 L2 l -> length l <= length L2.
Proof.
  intros L1 L2 l H. destruct l as [|q l] using rev_ind; [cbn; lia|]. clear IHl.
  destruct q as [[u v] a]. destruct (H (length l) u v a) as (X & _); [rewrite nth_error_app2, Nat.sub_diag by lia; reflexivity|].
  assert (length l < length L2) by (apply nth_error_Some; congruence). rewrite app_length. cbn [length]. lia.
Qed.

Lemma subset_ok : forall (s other : rbmap K V) w,
  rb_size s = length (elems (rb_root s)) -> rb_size other = length (elems (rb_root other)) ->
  let L1 := map fst (elems (rb_root s)) in let L2 := map fst (elems (rb_root other)) in exists w' l x,
  w_rs_is_subset U gt w false s other = Ok (w', x) /\ talk key_asks w l w' /\
  (rb_size other < rb_size s -> l = [] /\ x = Gave false) /\
  (rb_size s <= rb_size other -> sweeping L1 L2 l /\ subset_verdict L1 L2 l (told x)) /\ length l <= rb_size other.
Proof.
  intros s other w Hs Ho L1 L2. unfold w_rs_is_subset. destruct (Nat.ltb_spec (rb_size other) (rb_size s)) as [Hlt|Hle].
  - exists w, [], (Gave false). split; [reflexivity|]. split; [constructor|]. split; [auto|]. split; [lia|cbn; lia].
  - destruct (subset_loop_ok L1 L2 (S (rb_size s)) (S (rb_size other)) w (wt_new s) (wt_new other)) as (w' & l & x & E & Ht & Hx);
      try (now apply kahead_new); try (subst L1 L2; rewrite map_length; lia).
    destruct (sub_talk_spec _ _ _ _ Hx) as (H1 & H2 & _). exists w', l, x. split; [exact E|]. split; [exact Ht|]. split; [lia|].
    split; [auto|]. apply sweep_len in H1. subst L2. rewrite map_length in H1. lia.
Qed.
End RB.
