(** * Threads that drop versions while the [Drop] of values panics

    The programs of HeapThrow.v in the logic of HeapSafe.v, which covers every schedule. *)
From Coq Require Import List NArith Arith Lia Bool Permutation.
From Verif Require Import Base PermSolve SparseModel HashModel HashProofs RBModel RBIter RBHist VectorModel VectorProofs VectorOps HeapModel HeapProofs HeapSafe HeapClient HeapWorld
  HeapList HeapListProofs HeapSeqProofs HeapVec HeapVecProofs HeapRB HeapRBProofs HeapRBMap HeapHash HeapHashProofs HeapHashNodes HeapHashMap HeapThrow HeapSpace.
Import ListNotations.
Local Open Scope nat_scope.

Section Glue.
Context {C : Type} (kids : C -> list addr) (booms : C -> nat).
Notation own := (@own C).
Notation safe := (safe kids).
Notation ptree := (@ptree C).

Definition quiet : Prop := forall c, booms c = 0.
(** All that was owned is gone; with no values that panic the state of the thread is the same. *)
Definition gone (u : bool) (o : outcome) (G : list own) : Prop :=
  match o with Went u' => G = [] /\ (quiet -> u' = u) | Aborted => ~ quiet end.

Lemma gone_trans : forall u u' o G, (quiet -> u' = u) -> gone u' o G -> gone u o G.
Proof. intros u u' [v|] G E H; [|exact H]. destruct H as (-> & H). split; [trivial|]. intros q. rewrite (H q). auto. Qed.

Lemma safe_went : forall u, safe 0 (Ret (Went u)) [] (gone u).
Proof. intros u. apply safe_ret. split; auto. Qed.

Lemma safe_onward : forall (p : prog C outcome) k u G F,
  safe 0 p G (gone u) -> (forall u', safe 0 (k u') F (gone u')) ->
  safe 0 (pbind p (fun o => onward o k)) (G ++ F) (gone u).
Proof.
  intros p k u G F Hp Hk. apply (safe_bind kids p _ 0 0 G F (gone u)); [exact Hp|].
  intros [u'|] G' H; cbn [onward].
  - destruct H as (-> & E). cbn [app]. eapply safe_mono; [apply le_n| |apply Hk].
    intros o G' H. eapply gone_trans; eauto.
  - apply safe_ret. exact H.
Qed.

Lemma safe_hit : forall c u (k : bool -> prog C outcome) F,
  (forall u', safe 0 (k u') F (gone u')) -> safe 0 (onward (hit (booms c) u) k) F (gone u).
Proof.
  intros c u k F Hk.
  assert (X : match hit (booms c) u with Went u' => quiet -> u' = u | Aborted => ~ quiet end).
  { destruct (booms c) as [|n] eqn:E; cbn [hit]; [auto|].
    assert (Nq : ~ quiet) by (intros q; rewrite (q c) in E; discriminate).
    destruct u; [exact Nq|]. destruct n; cbn [hit]; [intros q; destruct (Nq q)|exact Nq]. }
  destruct (hit (booms c) u) as [u'|]; cbn [onward].
  - eapply safe_mono; [apply le_n| |apply Hk]. intros o G H. eapply gone_trans; eauto.
  - apply safe_ret. exact X.
Qed.

Lemma safe_each : forall (d : addr -> bool -> prog C outcome) (ts : list ptree),
  (forall t u, In t ts -> safe 0 (d (pa t) u) [Tree t] (gone u)) ->
  forall u, safe 0 (each_throw d (map pa ts) u) (map Tree ts) (gone u).
Proof.
  intros d ts. induction ts as [|t ts IH]; intros H u; cbn [each_throw map]; [apply safe_went|].
  apply (safe_onward _ _ u [Tree t] (map Tree ts)); [apply H; now left|].
  apply IH. intros t' u' I. apply H. now right.
Qed.

Lemma safe_throw : forall f t u, pdepth t <= f ->
  safe 0 (throw_ptr kids booms f (pa t) u) [Tree t] (gone u).
Proof.
  induction f as [|f IH]; intros [a c ts] u D; cbn [pdepth] in D; [lia|]. cbn [throw_ptr pa].
  exists c, ts, []. split; [apply Permutation_refl|]. split; [apply safe_went|].
  intros Sh _. inversion Sh as [? ? ? K Fs]; subst. rewrite K, app_nil_r. cbn [HeapSafe.safe].
  apply safe_hit. intros u1. rewrite <- (app_nil_r (map Tree ts)). apply safe_onward.
  - apply safe_each. intros t u2 I. apply IH.
    assert (X : list_max (map pdepth ts) <= f) by lia. apply list_max_le in X.
    rewrite Forall_forall in X. apply X. now apply in_map.
  - intros u2. cbn [HeapSafe.safe]. exists []. split; [constructor|]. split; auto.
Qed.

Section Lists.
Context {E T : Type} (mkN : addr -> option addr -> C) (isN : C -> option (addr * option addr)) (mkE : E -> C) (ef : nat)
  (erep : E -> T -> list ptree -> Prop).
Hypothesis isN_mkN : forall v nx, isN (mkN v nx) = Some (v, nx).
Hypothesis edepth : forall e x ts a, erep e x ts -> pdepth (PT a (mkE e) ts) <= ef.
Notation chain := (chain mkN mkE erep).

Lemma throw_loop_ok : forall s ts f fd u,
  chain s ts -> length s <= f -> length s + ef <= fd ->
  safe 0 (throw_loop kids booms isN ef f fd (hd_error (map pa ts)) u) (map Tree ts) (gone u).
Proof.
  induction s as [|x s IH]; intros ts f fd u Ch Lf Ld; inversion Ch as [|x' s' t ts' a Et Ch']; subst.
  - cbn [map hd_error]. destruct f; apply safe_went.
  - cbn [length] in *. destruct f as [|f]; [lia|]. cbn [map hd_error pa throw_loop].
    set (nd := PT a (mkN (pa t) (hd_error (map pa ts'))) (t :: ts')) in *.
    eexists _, _, []. split; [apply Permutation_refl|]. split.
    + apply (safe_throw fd nd). pose proof (chain_depth _ _ _ _ edepth _ _ Ch) as X. inversion X; subst. cbn [length] in *. lia.
    + intros _ _. rewrite isN_mkN. cbn [map]. rewrite app_nil_r.
      apply (safe_onward _ _ u [Tree t] (map Tree ts')).
      * apply safe_throw. eapply elemt_depth; eauto.
      * intros u'. destruct (eqb u u'); [apply IH; trivial; lia|].
        pose proof (chain_depth _ _ _ _ edepth _ _ Ch') as X.
        inversion Ch' as [|y s2 t2 ts2 a2 Et2 Ch2]; subst; cbn [map hd_error throw_opt pa]; [apply safe_went|].
        inversion X; subst.
        match goal with |- HeapSafe.safe _ _ _ [Tree ?t] _ => apply (safe_throw fd t) end. lia.
Qed.

Lemma throw_list_ok : forall L s lo G u,
  lrep mkN mkE erep L s lo G -> safe 0 (throw_list kids booms isN ef L u) G (gone u).
Proof.
  intros L s lo G u (ts & tl & -> & Ch & Lt & ->). unfold throw_list. cbn [hl_head hl_len hl_last].
  rewrite map_app. apply safe_onward; [apply (throw_loop_ok s ts (length s) (length s + ef) u Ch); lia|].
  intros u'. inversion Lt; subst; cbn [map hd_error throw_opt]; [apply safe_went|].
  match goal with |- HeapSafe.safe _ _ _ [Tree ?t] _ => apply (safe_throw ef t) end.
  eapply elemt_depth; eauto.
Qed.
End Lists.
End Glue.

(** ** The collections *)
Lemma hlp_throw_ok : forall T (tb : T -> bool) L s G u, hlrep L s G ->
  safe lkids 0 (hlp_throw tb L u) G (gone (l_booms tb) u).
Proof. intros T tb L s G u R. eapply (throw_list_ok lkids (l_booms tb) _ _ _ 1 perep H1 H5); exact R. Qed.

Lemma hq_throw_ok : forall T (tb : T -> bool) q s G u, hqrep q s G ->
  safe lkids 0 (hq_throw tb q u) G (gone (l_booms tb) u).
Proof.
  intros T tb q s G u (i & o & Gi & Go & Ri & Ro & -> & ->). unfold hq_throw.
  apply safe_onward; [now apply hlp_throw_ok with (s := i)|]. intros u'. now apply hlp_throw_ok with (s := o).
Qed.

Lemma hv_throw_ok : forall T (ubits : N) (dbg : bool) (bits : N) (tb : T -> bool),
  (8 <= ubits)%N -> (0 < bits)%N -> (bits < ubits)%N ->
  forall v l G u, hvrep ubits dbg bits v l G ->
  safe vkids 0 (hv_throw ubits dbg tb v u) G (gone (v_booms tb) u).
Proof.
  intros T ubits dbg bits tb Hu Hb Hbu v l G u (w & R & L & t & -> & Vt & ->). unfold hv_throw. cbn [hv_root].
  destruct (rep_height ubits dbg bits Hu Hb Hbu w l R L) as (h & Hh & U & Eh & _).
  change (hv_height (T := T) ubits dbg (mkHV (pa t) (v_bits w) (v_length w))) with (v_height ubits dbg w).
  rewrite Hh. cbn [lift pbind]. apply safe_throw. destruct Vt as [n a c ts Vc].
  pose proof (vcont_depth ubits bits Hu Hb Hbu h n c ts a Vc U). rewrite (lv_nat ubits bits Hu Hb Hbu). lia.
Qed.

Lemma hb_throw_ok : forall K V (kcmp : K -> K -> comparison) (kb : K -> bool) (vb : V -> bool) m fm G u,
  hbrep kcmp m fm G -> safe rkids 0 (hb_throw kb vb m u) G (gone (r_booms kb vb) u).
Proof.
  intros K V kcmp kb vb m fm G u (w & R & Hz & ts & T & ->). unfold hb_throw.
  destruct (rep_levels kcmp _ _ R) as [_ L]. specialize (L _ Hz).
  pose proof (topt_depth _ _ _ T) as D.
  inversion T as [Ew Eo|a e c l r te ol tl or tr E Hl Hr Ew Eo]; subst.
  - apply safe_went.
  - cbn [throw_opt map].
    match goal with |- HeapSafe.safe _ _ _ [Tree ?t] _ => set (x := t) in *; change a with (pa x) end.
    apply safe_throw. rewrite <- Ew in L, D. cbn [map list_max fold_right] in D. lia.
Qed.

Section Hash.
Context {K V : Type} (kb : K -> bool) (vb : V -> bool).
Notation gone := (gone (t_booms kb vb)).
Notation safe := (safe (@tkids K V)).

Lemma tthrow_ok : forall f r n t u, tall r n -> r < f -> ntree n t ->
  safe 0 (tthrow kb vb f (pa t) u) [Tree t] (gone u).
Proof.
  induction f as [|f IH]; intros r n t u T L H; [lia|]. inversion H as [n' a c ts Hc]; subst. cbn [tthrow pa].
  eexists _, _, []. split; [apply Permutation_refl|]. split; [apply safe_went|].
  intros _ _. cbn [HeapSafe.safe]. apply safe_onward.
  2:{ intros u'. cbn [HeapSafe.safe]. exists []. split; [constructor|]. split; auto. }
  inversion Hc as [s s' ts' E1 E2 F|e x E|L' l s ts' R1 R2]; subst; cbn [throw_node].
  - rewrite E2. apply safe_each. intros t u' I. destruct r as [|r]; [destruct T|]. cbn [tall] in T.
    assert (X : exists n, ntree n t /\ In n (sa_array s)).
    { clear - F I. induction F as [|n x l m Hn F IHF]; [destruct I|]. destruct I as [->|I].
      - exists n. split; [trivial|now left].
      - destruct (IHF I) as (n1 & H1 & H2). exists n1. split; [trivial|now right]. }
    destruct X as (n & Hn & In_). apply (IH r n t); trivial; [|lia].
    rewrite Forall_forall in T. auto.
  - match goal with |- HeapSafe.safe _ _ _ (map Tree [?t]) _ => apply (safe_throw tkids (t_booms kb vb) 1 t) end. cbn. lia.
  - eapply (throw_list_ok tkids (t_booms kb vb) TLN t_isN TLE 2 terep t_isN_N terep_depth); eauto.
Qed.
End Hash.

Lemma hh_throw_ok : forall K V (ubits b : N), (0 < b)%N -> (2 ^ b <= ubits)%N -> (ubits <= 64)%N ->
  forall (keq : K -> K -> bool) (hash : K -> N) (kb : K -> bool) (vb : V -> bool) m fm G u,
  hhrep ubits b keq hash m fm G -> safe tkids 0 (hh_throw kb vb m u) G (gone (t_booms kb vb) u).
Proof.
  intros K V ubits b Hb Hd Hub keq hash kb vb m fm G u (w & Rw & Es & Ed & t & T & Ep & ->). unfold hh_throw. rewrite <- Ep.
  destruct Rw as (es & Hr & _ & _ & _ & _ & Hd'). apply (tthrow_ok kb vb _ (D b) (hm_root w)); [eapply hrep_tall; exact Hr| |exact T].
  unfold hh_levels. rewrite Ed, Hd', N.log2_pow2 by lia. unfold D. lia.
Qed.

(** ** How many drops panic

    [spends n p Q]: [n] panicking values were released before [p], which allocates nothing and does not write;
    whatever it finds in memory, [Q] holds of its result and of the values released by then. *)
Section Spend.
Context {C : Type} (booms : C -> nat).
Notation P := (prog C).

Definition worth (r : option C) : nat := match r with Some c => booms c | None => 0 end.
Fixpoint spends {A} (n : nat) (p : P A) (Q : A -> nat -> Prop) : Prop :=
  match p with
  | Ret x => Q x n
  | Fail => True
  | Clone _ k | Enter k | Leave k => spends n k Q
  | Read _ k => forall c, spends n (k c) Q
  | Dec _ k | Unwrap _ k => forall r, spends (n + worth r) (k r) Q
  | New _ _ | Reserve _ | Take _ _ | Fill _ _ _ => False
  end.

Lemma spends_mono : forall A (p : P A) n (Q Q' : A -> nat -> Prop),
  (forall x m, Q x m -> Q' x m) -> spends n p Q -> spends n p Q'.
Proof. intros A p. induction p; intros n Q Q' HQ S; cbn [spends] in *; eauto; try intros; eauto. Qed.

Lemma spends_bind : forall A B (p : P A) (k : A -> P B) n (Q : B -> nat -> Prop),
  spends n p (fun x m => spends m (k x) Q) -> spends n (pbind p k) Q.
Proof. intros A B p. induction p; intros k' n Q S; cbn [spends pbind] in *; eauto; try intros; eauto. Qed.

(** A panic starts for each value released, until there is a second one. *)
Definition tallied (n : nat) (u : bool) (o : outcome) (m : nat) : Prop :=
  match o with Went u' => m + b2n u = n + b2n u' | Aborted => True end.

Lemma tallied_trans : forall n u m u' o k, m + b2n u = n + b2n u' -> tallied m u' o k -> tallied n u o k.
Proof. intros n u m u' [v|] k E H; cbn [tallied] in *; [lia|trivial]. Qed.

Lemma spends_onward : forall (p : P outcome) k n u,
  spends n p (tallied n u) -> (forall m u', spends m (k u') (tallied m u')) ->
  spends n (pbind p (fun o => onward o k)) (tallied n u).
Proof.
  intros p k n u Hp Hk. apply spends_bind. eapply spends_mono; [|exact Hp].
  intros [u'|] m T; cbn [onward]; [|exact T].
  eapply spends_mono; [|apply Hk]. intros o j H. eapply tallied_trans; eauto.
Qed.

Lemma spends_went : forall n u, spends n (Ret (Went u)) (tallied n u).
Proof. intros n u. reflexivity. Qed.

Lemma spends_hit : forall b u n (k : bool -> P outcome),
  (forall m u', spends m (k u') (tallied m u')) -> spends (n + b) (onward (hit b u) k) (tallied n u).
Proof.
  intros b u n k Hk.
  assert (X : match hit b u with Went u' => b + b2n u = b2n u' | Aborted => True end).
  { destruct b as [|b], u; cbn [hit b2n]; trivial. destruct b; cbn [hit b2n]; trivial. }
  destruct (hit b u) as [u'|]; cbn [onward]; [|exact Logic.I].
  eapply spends_mono; [|apply Hk]. intros o j H. eapply tallied_trans; [|exact H]. lia.
Qed.

Context (kids : C -> list addr).
Lemma spends_each : forall (d : addr -> bool -> P outcome), (forall a m u, spends m (d a u) (tallied m u)) ->
  forall l n u, spends n (each_throw d l u) (tallied n u).
Proof.
  intros d H. induction l as [|a l IH]; intros n u; cbn [each_throw]; [apply spends_went|].
  apply spends_onward; auto.
Qed.
Lemma spends_throw : forall f a n u, spends n (throw_ptr kids booms f a u) (tallied n u).
Proof.
  induction f as [|f IH]; intros a n u; cbn [throw_ptr spends]; [trivial|].
  intros [c|]; cbn [worth]; [|rewrite Nat.add_0_r; apply spends_went]. cbn [spends].
  apply spends_hit. intros m u'. apply spends_onward; [now apply spends_each|]. intros. apply spends_went.
Qed.
Lemma spends_opt : forall f o n u, spends n (throw_opt kids booms f o u) (tallied n u).
Proof. intros f [a|] n u; [apply spends_throw|apply spends_went]. Qed.

Context (isN : C -> option (addr * option addr)) (ef : nat).
Hypothesis boomN : forall c v nx, isN c = Some (v, nx) -> booms c = 0.
Lemma spends_list : forall L n u, spends n (throw_list kids booms isN ef L u) (tallied n u).
Proof.
  intros L n u. unfold throw_list. apply spends_onward; [|intros; apply spends_opt].
  generalize (hl_len L + ef). intros fd. generalize (hl_len L). intros f. generalize (hl_head L). intros o. revert o n u.
  induction f as [|f IH]; intros [a|] n u; cbn [throw_loop spends]; try apply spends_went; [trivial|].
  intros [c|]; cbn [worth]; [|rewrite Nat.add_0_r; apply spends_throw].
  destruct (isN c) as [[v nx]|] eqn:E; cbn [spends]; [|trivial]. rewrite (boomN _ _ _ E), Nat.add_0_r.
  apply spends_onward; [apply spends_throw|]. intros m u'. destruct (eqb u u'); [apply IH|apply spends_opt].
Qed.
End Spend.

Lemma hlp_spends : forall T (tb : T -> bool) L n u, spends (l_booms tb) n (hlp_throw tb L u) (tallied n u).
Proof. intros T tb L n u. apply spends_list. intros [v nx|x] v' nx' E; [reflexivity|discriminate]. Qed.
Lemma hq_spends : forall T (tb : T -> bool) q n u, spends (l_booms tb) n (hq_throw tb q u) (tallied n u).
Proof. intros T tb q n u. apply spends_onward; intros; apply hlp_spends. Qed.
Lemma hv_spends : forall T ubits dbg (tb : T -> bool) v n u, spends (v_booms tb) n (hv_throw ubits dbg tb v u) (tallied n u).
Proof.
  intros T ubits dbg tb v n u. unfold hv_throw. destruct (hv_height (T := T) ubits dbg v); cbn [lift pbind spends]; trivial.
  apply spends_throw.
Qed.
Lemma hb_spends : forall K V (kb : K -> bool) (vb : V -> bool) m n u, spends (r_booms kb vb) n (hb_throw kb vb m u) (tallied n u).
Proof. intros. apply spends_opt. Qed.
Lemma hh_spends : forall K V (kb : K -> bool) (vb : V -> bool) m n u, spends (t_booms kb vb) n (hh_throw kb vb m u) (tallied n u).
Proof.
  intros K V kb vb m. unfold hh_throw. generalize (S (hh_levels m)) (hh_root m). intros f. induction f as [|f IH]; intros a n u; cbn [tthrow spends]; [trivial|].
  intros [c|]; cbn [worth]; [|rewrite Nat.add_0_r; apply spends_went]. cbn [spends].
  apply spends_bind.
  assert (X : spends (t_booms kb vb) (n + t_booms kb vb c) (throw_node kb vb (tthrow kb vb f) c u) (tallied n u)).
  { destruct c; cbn [throw_node t_booms spends]; rewrite ?Nat.add_0_r; trivial.
    - now apply spends_each.
    - apply spends_throw.
    - apply spends_list. intros d x nx E. destruct d; try discriminate; reflexivity. }
  eapply spends_mono; [|exact X]. intros [u'|] k T; exact T.
Qed.

Lemma hlp_clone_spends : forall T (tb : T -> bool) L n, spends (l_booms tb) n (hlp_clone L) (fun _ m => m = n).
Proof. intros T tb L n. unfold hlp_clone, hl_clone. destruct (hl_head L), (HeapList.hl_last L); reflexivity. Qed.
Lemma hq_clone_spends : forall T (tb : T -> bool) q n, spends (l_booms tb) n (hq_clone q) (fun _ m => m = n).
Proof.
  intros T tb q n. unfold hq_clone. apply spends_bind. eapply spends_mono; [|apply hlp_clone_spends]. cbn beta. intros i m ->.
  apply spends_bind. eapply spends_mono; [|apply hlp_clone_spends]. cbn beta. intros o m ->. reflexivity.
Qed.
Lemma hv_clone_spends : forall T (tb : T -> bool) v n, spends (v_booms tb) n (hv_clone v) (fun _ m => m = n).
Proof. reflexivity. Qed.
Lemma hb_clone_spends : forall K V (kb : K -> bool) (vb : V -> bool) m n, spends (r_booms kb vb) n (hb_clone m) (fun _ k => k = n).
Proof. intros K V kb vb m n. unfold hb_clone. destruct (hb_root m); reflexivity. Qed.
Lemma hh_clone_spends : forall K V (kb : K -> bool) (vb : V -> bool) m n, spends (t_booms kb vb) n (hh_clone m) (fun _ k => k = n).
Proof. reflexivity. Qed.

(** A client that only clones and drops. *)
Definition only_drops {Op} (c : cmd Op) : Prop := match c with CClone _ | CDrop _ => True | _ => False end.
Definition panics {C Coll Out : Type} (p : prog C (option (list (option Coll) * list Out * list bool))) : nat :=
  match p with Ret (Some (_, _, bs)) => length (filter (fun b => b) bs) | _ => 0 end.

Section Count.
Context {C : Type} (booms : C -> nat).
Context {Coll Op Out : Type}.
Context (hnew : prog C Coll) (hclone : Coll -> prog C Coll) (hthrow : Coll -> bool -> prog C outcome)
        (hop : Op -> Coll -> prog C (Coll * Out)).
Hypothesis clone_spends : forall c n, spends booms n (hclone c) (fun _ m => m = n).
Hypothesis throw_spends : forall c n u, spends booms n (hthrow c u) (tallied n u).

Definition counted (r : option (list (option Coll) * list Out * list bool)) (m : nat) : Prop :=
  match r with Some (_, _, bs) => m = length (filter (fun b => b) bs) | None => True end.

Lemma tclient_spends : forall l, Forall only_drops l -> forall rs n (Q : _ -> nat -> Prop),
  (forall r m, match r with Some (_, _, bs) => m = n + length (filter (fun b => b) bs) | None => True end -> Q r m) ->
  spends booms n (tclient hnew hclone hthrow hop l rs) Q.
Proof.
  intros l F. induction F as [|c l O F IH]; intros rs n Q HQ; cbn [tclient].
  - cbn [spends]. apply HQ. cbn. lia.
  - destruct c as [|i|i o|i]; try destruct O.
    + destruct (nth_error rs i) as [[c|]|]; [|now apply IH..].
      apply spends_bind. eapply spends_mono; [|apply clone_spends]. cbn beta. intros c' m ->. now apply IH.
    + destruct (nth_error rs i) as [[c|]|]; [|now apply IH..].
      apply spends_bind. eapply spends_mono; [|apply throw_spends]. intros [u|] m T; cbn [tallied b2n] in T; [|cbn [spends]; now apply HQ].
      apply spends_bind. apply IH. intros [[[rs' xs] bs]|] k E; cbn [spends]; [|now apply HQ].
      apply HQ. subst k. destruct u; cbn [filter length b2n] in *; lia.
Qed.

Lemma get_set_weigh : forall (h : heap C) a n m c, get h a = Some (Full n c) -> weigh booms (set h a (Some (Full m c))) = weigh booms h.
Proof. intros h a n m c E. pose proof (weigh_put booms h a n c (Some (Full m c)) E). cbn beta iota in *. lia. Qed.

Lemma spends_step : forall A (p : prog C A) h n (Q : A -> nat -> Prop), spends booms n p Q ->
  match pstep h p with
  | Step h' p' => exists m, spends booms m p' Q /\ m + weigh booms h' = n + weigh booms h
  | _ => True
  end.
Proof.
  intros A p h n Q S. destruct p; cbn [pstep spends] in *; trivial; try now destruct S.
  - destruct (get h a) as [[k c|]|] eqn:E; trivial. exists n. split; [exact S|]. now rewrite (get_set_weigh h a k).
  - destruct (get h a) as [[k' c|]|] eqn:E; trivial. exists n. split; [apply S|reflexivity].
  - destruct (get h a) as [[[|[|k']] c|]|] eqn:E; trivial.
    + exists (n + booms c). split; [exact (S (Some c))|]. pose proof (weigh_put booms h a 1 c None E). cbn beta iota in *. lia.
    + exists n. split; [rewrite <- (Nat.add_0_r n); exact (S None)|]. now rewrite (get_set_weigh h a (Datatypes.S (Datatypes.S k'))).
  - destruct (get h a) as [[[|[|k']] c|]|] eqn:E; trivial.
    + exists n. split; [rewrite <- (Nat.add_0_r n); exact (S None)|reflexivity].
    + exists (n + booms c). split; [exact (S (Some c))|]. pose proof (weigh_put booms h a 1 c None E). cbn beta iota in *. lia.
    + exists n. split; [rewrite <- (Nat.add_0_r n); exact (S None)|reflexivity].
  - exists n. auto.
  - exists n. auto.
Qed.

Lemma spends_exec : forall A (Q : A -> nat -> Prop) sched h (ps : list (prog C A)) ns,
  Forall2 (fun p n => spends booms n p Q) ps ns ->
  exists ms, Forall2 (fun p n => spends booms n p Q) (snd (exec sched (h, ps))) ms /\
    list_sum ms + weigh booms (fst (exec sched (h, ps))) = list_sum ns + weigh booms h.
Proof.
  intros A Q. induction sched as [|i s IH]; intros h ps ns F; cbn [exec]; [exists ns; auto|].
  unfold cstep. destruct (nth_error ps i) as [p|] eqn:Ei; [|now apply IH].
  assert (X : exists n, nth_error ns i = Some n /\ spends booms n p Q /\
    (forall p' m, spends booms m p' Q -> exists ms, Forall2 (fun p n => spends booms n p Q) (upd ps i p') ms /\ list_sum ms + n = list_sum ns + m)).
  { clear IH. revert i Ei. induction F as [|q k ps ns S F IHF]; intros [|i] Ei; cbn [nth_error] in Ei; try discriminate.
    - injection Ei as ->. exists k. splits; trivial. intros p' m S'. exists (m :: ns). split; [now constructor|].
      unfold list_sum. cbn [fold_right]. lia.
    - destruct (IHF i Ei) as (n & E & S' & U). exists n. splits; trivial. intros p' m Sm.
      destruct (U p' m Sm) as (ms & Fm & Em). exists (k :: ms). split; [cbn [upd]; now constructor|].
      unfold list_sum in *. cbn [fold_right]. lia. }
  destruct X as (n & En & S & U). pose proof (spends_step A p h n Q S) as Z.
  destruct (pstep h p) as [x| |h' p'] eqn:Ep; [now apply IH| |].
  - destruct (U Fail n Logic.I) as (ms & Fm & Em). destruct (IH h _ _ Fm) as (ks & Fk & Ek).
    exists ks. split; [exact Fk|]. lia.
  - destruct Z as (m & Sm & Ew). destruct (U p' m Sm) as (ms & Fm & Em). destruct (IH h' _ _ Fm) as (ks & Fk & Ek).
    exists ks. split; [exact Fk|]. lia.
Qed.

Lemma weigh_empty : forall h : heap C, (forall a, get h a = None) -> weigh booms h = 0.
Proof.
  unfold weigh, live, get. induction h as [|x h IH]; intros N; [reflexivity|].
  pose proof (N 0) as N0. cbn [nth_error] in N0. destruct x; [discriminate|]. cbn [flat_map app].
  apply IH. intros a. exact (N (Datatypes.S a)).
Qed.

Lemma threads_spend : forall (progs : list (list (cmd Op) * list (option Coll))) h sched,
  Forall (fun p => Forall only_drops (fst p)) progs ->
  let cf := exec sched (h, map (fun p => tclient hnew hclone hthrow hop (fst p) (snd p)) progs) in
  list_sum (map panics (snd cf)) + weigh booms (fst cf) <= weigh booms h /\
  forall rs', snd cf = map (fun r => Ret (Some r)) rs' -> list_sum (map panics (snd cf)) + weigh booms (fst cf) = weigh booms h.
Proof.
  intros progs h sched F cf.
  assert (F2 : Forall2 (fun p n => spends booms n p counted) (map (fun p => tclient hnew hclone hthrow hop (fst p) (snd p)) progs) (map (fun _ => 0) progs)).
  { clear cf. induction F as [|p progs Fp F IH]; cbn [map]; constructor; [|exact IH].
    apply tclient_spends; [exact Fp|]. intros [[[? ?] ?]|] m E; exact E. }
  destruct (spends_exec _ _ sched h _ _ F2) as (ms & Fm & Em). fold cf in Fm, Em.
  assert (Z : list_sum (map (fun _ : list (cmd Op) * list (option Coll) => 0) progs) = 0).
  { clear. unfold list_sum. induction progs; cbn; trivial. }
  rewrite Z in Em. cbn [Nat.add] in Em. split.
  - assert (X : list_sum (map panics (snd cf)) <= list_sum ms); [|lia]. clear - Fm.
    induction Fm as [|p n ps ns S Fm IH]; [reflexivity|]. unfold list_sum in *. cbn [map fold_right].
    assert (panics p <= n); [|lia]. unfold panics. destruct p as [[[[rs xs] bs]|]| | | | | | | | | | |]; try lia. cbn in S. lia.
  - intros rs' E. assert (X : list_sum (map panics (snd cf)) = list_sum ms); [|lia]. rewrite E in *. clear - Fm.
    revert ms Fm. induction rs' as [|[[rs xs] bs] rs' IH]; intros ms Fm; inversion Fm as [|? n ? ns S Fm']; subst; [reflexivity|].
    unfold list_sum in *. cbn [map fold_right]. rewrite (IH _ Fm'). cbn in S. subst n. reflexivity.
Qed.
End Count.

(** ** Threads *)
Section Threads.
Context {C : Type} (kids : C -> list addr).
Context {Coll Val Op Out : Type}.
Context (hnew : prog C Coll) (hclone : Coll -> prog C Coll) (hdrop : Coll -> prog C unit) (hthrow : Coll -> bool -> prog C outcome)
        (hop : Op -> Coll -> prog C (Coll * Out)).
Context (roots : Coll -> list addr).
Notation own := (@own C).
Context (rep : Coll -> Val -> list own -> Prop).
Context (vnew : Val) (vop : Op -> Val -> Val * Out) (pre : Op -> Val -> Prop)
        (ncost : nat) (cost : Op -> Val -> nat) (booms : C -> nat).
Notation job := (@job Op).
Notation spec_of := (job_spec vnew vop).

Definition job_throw (rs : list (option Coll)) (j : job) :=
  tclient hnew hclone hthrow hop (job_cmds j) (hand rs (job_regs j)).

(** Main builds versions and hands them to threads, which catch the panics of their drops.  Under every
    schedule: no thread ever crashes; the counts are exact at every point, also while a thread unwinds; a
    thread that ends has the outputs it has alone with values of its own; it aborts, or a drop of it
    panics, only if there are values that panic; every thread can still end.  When none has aborted the counts
    are those of the registers left, and when all versions were dropped all memory is released, whoever
    panicked.
    If the threads only clone and drop, no more of their drops have panicked than panicking values are gone
    from the heap ([weigh], HeapSpace.v); as many when none has aborted; and when all versions were dropped, one
    for each panicking value in the heap that main left. *)
Definition throws_apart : Prop := forall main jobs,
  within vnew vop pre main [] ->
  let vs := fst (sclient vnew vop main []) in
  Permutation (concat (map job_regs jobs)) (List.seq 0 (length vs)) ->
  Forall (job_within vnew vop pre vs) jobs ->
  exists h rs,
    run [] (hclient hnew hclone hdrop hop main []) = Some (h, (rs, snd (sclient vnew vop main []))) /\
    exact_heap kids h (reg_roots roots rs) /\
    forall sched,
      let cf := exec sched (h, map (job_throw rs) jobs) in
      ~ In Fail (snd cf) /\
      (exists held, exact_point kids (fst cf) held) /\
      (forall i j r, nth_error jobs i = Some j -> nth_error (snd cf) i = Some (Ret r) ->
         match r with
         | Some (_, xs, bs) => xs = snd (spec_of vs j) /\ ((forall c, booms c = 0) -> Forall (eq false) bs)
         | None => ~ forall c, booms c = 0
         end) /\
      (exists sched', Forall finished (snd (exec sched' cf))) /\
      (forall rs', snd cf = map (fun r => Ret (Some r)) rs' ->
         exact_heap kids (fst cf) (flat_map (fun r => reg_roots roots (fst (fst r))) rs') /\
         (Forall (fun j => Forall (eq None) (fst (spec_of vs j))) jobs -> forall a, get (fst cf) a = None)) /\
      (Forall (fun j => Forall only_drops (job_cmds j)) jobs ->
         list_sum (map panics (snd cf)) + weigh booms (fst cf) <= weigh booms h /\
         forall rs', snd cf = map (fun r => Ret (Some r)) rs' ->
           list_sum (map panics (snd cf)) + weigh booms (fst cf) = weigh booms h /\
           (Forall (fun j => Forall (eq None) (fst (spec_of vs j))) jobs -> list_sum (map panics (snd cf)) = weigh booms h)).

Hypothesis new_ok : safe kids ncost hnew [] (fun c G => rep c vnew G).
Hypothesis clone_ok : forall c v G, rep c v G ->
  safe kids 0 (hclone c) G (fun c' G' => exists G1 G2, G' = G1 ++ G2 /\ rep c v G1 /\ rep c' v G2).
Hypothesis drop_ok : forall c v G, rep c v G -> safe kids 0 (hdrop c) G (fun _ G' => G' = []).
Hypothesis throw_ok : forall c v G u, rep c v G -> safe kids 0 (hthrow c u) G (gone booms u).
Hypothesis op_ok : forall o c v G, rep c v G -> pre o v ->
  safe kids (cost o v) (hop o c) G
    (fun r G' => snd r = snd (vop o v) /\ rep (fst r) (fst (vop o v)) G').
Hypothesis clone_spends : forall c n, spends booms n (hclone c) (fun _ m => m = n).
Hypothesis throw_spends : forall c n u, spends booms n (hthrow c u) (tallied n u).
Hypothesis rep_roots : forall c v G, rep c v G -> exists ts, G = map Tree ts /\ roots c = map pa ts.

Definition tpost (sp : list (option Val) * list Out) (r : option (list (option Coll) * list Out * list bool)) (G : list own) : Prop :=
  match r with
  | Some (rs, xs, bs) => xs = snd sp /\ reps rep rs (fst sp) G /\ (quiet booms -> Forall (eq false) bs)
  | None => ~ quiet booms
  end.

Lemma tclient_safe : forall l cs vs G,
  reps rep cs vs G -> within vnew vop pre l vs ->
  safe kids (cost_of vnew vop ncost cost l vs) (tclient hnew hclone hthrow hop l cs) G (tpost (sclient vnew vop l vs)).
Proof.
  induction l as [|x l IH]; intros cs vs G R W.
  - apply safe_ret. cbn. auto.
  - destruct x as [|i|i o|i]; cbn [tclient sclient within cost_of] in *.
    + change G with ([] ++ G). eapply safe_bind; [exact new_ok|].
      intros c G' r. destruct (reps_app _ _ _ _ _ _ _ R r) as (G'' & P & R').
      eapply safe_perm; [|apply IH; [exact R'|exact W]].
      apply Permutation_sym. eapply Permutation_trans; [|exact P]. perm.
    + assert (N := reps_nth _ _ _ _ i R). destruct (nth_error vs i) as [[v|]|] eqn:Ev;
        [|rewrite N; now apply IH..].
      destruct N as (c & G1 & G2 & E & r & P & U & _). rewrite E.
      eapply safe_perm; [apply Permutation_sym; exact P|].
      apply (safe_bind kids _ _ 0 _ G1 G2 _ _ (clone_ok _ _ _ r)).
      intros c' G' (G3 & G4 & -> & r1 & r2).
      destruct (U c v G3 r1) as (G5 & P5 & R5).
      rewrite (upd_same cs), (upd_same vs) in R5 by trivial.
      destruct (reps_app _ _ _ _ _ _ _ R5 r2) as (G6 & P6 & R6).
      eapply safe_perm; [|apply IH; [exact R6|exact W]].
      apply Permutation_sym. eapply Permutation_trans; [|exact P6].
      eapply Permutation_trans; [|apply Permutation_app_tail; exact P5]. perm.
    + assert (N := reps_nth _ _ _ _ i R). destruct (nth_error vs i) as [[v|]|] eqn:Ev;
        [|rewrite N; now apply IH..].
      destruct N as (c & G1 & G2 & E & r & P & U & _). rewrite E. destruct W as [W1 W2].
      eapply safe_perm; [apply Permutation_sym; exact P|].
      apply (safe_bind kids _ _ _ _ G1 G2 _ _ (op_ok _ _ _ _ r W1)).
      intros [c' y] G' (Ex & r'). cbn [fst snd] in *.
      destruct (vop o v) as [v' y']. cbn [fst snd] in *. subst y'.
      destruct (U c' v' G' r') as (G5 & P5 & R5).
      eapply safe_perm; [apply Permutation_sym; exact P5|].
      rewrite <- (app_nil_r G5).
      rewrite <- (Nat.add_0_r (cost_of _ _ _ _ _ _)).
      eapply safe_bind; [apply IH; [exact R5|exact W2]|].
      intros [[[rs xs] bs]|] G6 Z; apply safe_ret; rewrite app_nil_r;
        destruct (sclient vnew vop l (upd vs i (Some v'))) as [vs' ys]; cbn [tpost fst snd] in *; [|exact Z].
      destruct Z as (-> & R6 & B). auto.
    + assert (N := reps_nth _ _ _ _ i R). destruct (nth_error vs i) as [[v|]|] eqn:Ev;
        [|rewrite N; now apply IH..].
      destruct N as (c & G1 & G2 & E & r & P & _ & G5 & P5 & R5). rewrite E.
      eapply safe_perm; [apply Permutation_sym; exact P|].
      apply (safe_bind kids _ _ 0 (cost_of vnew vop ncost cost l (upd vs i None)) G1 G2 _ _ (throw_ok _ _ _ false r)).
      intros [u|] G' Z; cbn [gone] in Z; [|now apply safe_ret]. destruct Z as (-> & Zu).
      cbn [app]. eapply safe_perm; [apply Permutation_sym; exact P5|].
      rewrite <- (app_nil_r G5).
      rewrite <- (Nat.add_0_r (cost_of _ _ _ _ _ _)).
      eapply safe_bind; [apply IH; [exact R5|exact W]|].
      intros [[[rs xs] bs]|] G6 Z; apply safe_ret; rewrite app_nil_r; cbn [tpost] in *; [|exact Z].
      destruct Z as (Ex & R6 & B). splits; trivial. intros q. constructor; [symmetry|]; auto.
Qed.

Theorem throws_apart_ok : throws_apart.
Proof.
  intros main jobs Wm vs Pj Wj.
  destruct (client_runs kids hnew hclone hdrop hop rep vnew vop pre ncost cost new_ok clone_ok drop_ok op_ok
              main [] [] [] [] [])
    as (h & rs & G & E & R & W & L); [constructor|exact Wm|apply WF_nil|].
  rewrite app_nil_r in W. fold vs in R. exists h, rs.
  split; [exact E|].
  split. { destruct (reps_roots roots rep rep_roots _ _ _ R) as (us & -> & ->). now apply WF_exact. }
  destruct (reps_pieces _ _ _ _ R) as (Gs & -> & L1 & L2 & P).
  set (Q := fun j : job => tpost (spec_of vs j)).
  set (O := fun j : job => flat_map (fun i => nth i Gs []) (job_regs j)).
  assert (T : threads_ok kids (map (job_throw rs) jobs) (map Q jobs) (map (fun j => (job_cost vnew vop ncost cost vs j, O j)) jobs)).
  { clear Pj. induction Wj as [|j jobs Wi F IH]; cbn [map]; constructor; trivial.
    apply tclient_safe; [now apply hand_reps|exact Wi]. }
  assert (Wo : WF kids h (owned_by (map (fun j => (job_cost vnew vop ncost cost vs j, O j)) jobs) ++ [])).
  { rewrite app_nil_r. eapply WF_perm; [|exact W]. rewrite concat_seq, L1, <- L2.
    apply Permutation_sym.
    assert (X : owned_by (map (fun j => (job_cost vnew vop ncost cost vs j, O j)) jobs) =
                flat_map (fun i => nth i Gs []) (concat (map job_regs jobs))).
    { clear. unfold owned_by. induction jobs as [|j jobs IH]; cbn; [trivial|]. rewrite flat_map_app, IH. trivial. }
    rewrite X. apply Permutation_flat_map. exact Pj. }
  intros sched cf.
  assert (Fin : forall rs', snd cf = map (fun r => Ret (Some r)) rs' ->
         exact_heap kids (fst cf) (flat_map (fun r => reg_roots roots (fst (fst r))) rs') /\
         (Forall (fun j => Forall (eq None) (fst (spec_of vs j))) jobs -> forall a, get (fst cf) a = None)).
  2:{ destruct (exec_sound kids sched h _ _ _ [] T Wo) as (ss & T' & W' & _). fold cf in T', W'. rewrite app_nil_r in W'.
  splits.
  - eapply threads_no_fail; eauto.
  - exists (map oa (owned_by ss)). now apply WF_point.
  - intros i j r Ej Er. destruct (threads_nth kids _ _ _ _ _ T' Er) as (Q' & n & G & s1 & s2 & EQ & -> & S & _).
    rewrite nth_error_map, Ej in EQ. cbn in EQ. injection EQ as <-.
    cbn in S. destruct S as (G' & _ & Z). unfold Q in Z. destruct r as [[[rs' xs] bs]|]; cbn [tpost] in Z; [|exact Z].
    destruct Z as (-> & _ & B). auto.
  - destruct (finish_all (length (snd cf)) (fst cf) (snd cf) (le_n _)) as (s & Ls & F).
    exists s. replace cf with (fst cf, snd cf) by now destruct cf.
    apply Forall_forall. intros p I. apply In_nth_error in I. destruct I as (i & Ei).
    destruct (F i p) as [D|D]; trivial.
    + rewrite <- Ls. apply nth_error_Some. congruence.
    + subst p. exfalso. destruct (exec_sound kids (sched ++ s) h _ _ _ [] T Wo) as (ss2 & T2 & _).
      apply (threads_no_fail kids _ _ _ T2).
      rewrite exec_app. fold cf. replace cf with (fst cf, snd cf) by now destruct cf.
      eapply nth_error_In; eauto.
  - exact Fin.
  - intros Fd.
    destruct (threads_spend booms hnew hclone hthrow hop clone_spends throw_spends
                (map (fun j : job => (job_cmds j, hand rs (job_regs j))) jobs) h sched) as (S1 & S2).
    { apply Forall_map. exact Fd. }
    rewrite map_map in S1, S2. cbn [fst snd] in S1, S2.
    change (map (fun j : job => tclient hnew hclone hthrow hop (job_cmds j) (hand rs (job_regs j))) jobs) with (map (job_throw rs) jobs) in S1, S2.
    fold cf in S1, S2. split; [exact S1|]. intros rs' Er. specialize (S2 rs' Er). split; [exact S2|].
    intros Fn. destruct (Fin rs' Er) as (_ & N). specialize (N Fn). rewrite (weigh_empty booms _ N), Nat.add_0_r in S2. exact S2. }
  destruct (exec_sound kids sched h _ _ _ [] T Wo) as (ss & T' & W' & _). fold cf in T', W'. rewrite app_nil_r in W'.
  intros rs' Er. rewrite Er in T'.
    assert (X : forall rs' jobs ss, threads_ok kids (map (fun r => Ret (Some r)) rs') (map Q jobs) ss ->
      exists G ts, Permutation (owned_by ss) G /\ G = map Tree ts /\
        flat_map (fun r => reg_roots roots (fst (fst r))) rs' = map pa ts /\
        (Forall (fun j => Forall (eq None) (fst (spec_of vs j))) jobs -> G = [])).
    { clear - rep_roots. induction rs' as [|[[r xs] bs] rs' IH]; intros jobs ss T; inversion T; subst.
      - exists [], []. splits; trivial.
      - destruct jobs as [|j jobs]; [discriminate|].
        match goal with H : _ = map Q (j :: jobs) |- _ => cbn in H; injection H as -> -> end.
        match goal with H : threads_ok _ _ _ _ |- _ => destruct (IH _ _ H) as (G1 & ts & P1 & -> & E1 & N1) end.
        match goal with H : safe _ _ _ _ _ |- _ => cbn in H; destruct H as (G' & P & _ & R' & _) end.
        destruct (reps_roots roots rep rep_roots _ _ _ R') as (us & -> & Eu).
        exists (map Tree (us ++ ts)), (us ++ ts). splits; trivial.
        + rewrite map_app. unfold owned_by in *. cbn. now apply Permutation_app.
        + cbn [flat_map fst]. rewrite Eu, E1. now rewrite map_app.
        + intros F. inversion F; subst. rewrite map_app, (reps_none_own rep _ _ _ R'), N1 by trivial. trivial. }
    destruct (X _ _ _ T') as (G & ts & Pm & -> & -> & N). split.
    + apply WF_exact. eapply WF_perm; eauto.
    + intros F. apply (WF_empty_heap kids). eapply WF_perm; [|exact W']. rewrite <- (N F). exact Pm.
Qed.
End Threads.
