(** Proofs about panics in the [Drop] of elements ([DropModel]). *)
From Coq Require Import List NArith ZArith Arith Bool Lia Permutation.
From Verif Require Import Base Spec SpecMap Sim ListModel VectorModel VectorProofs VectorOps DropModel.
Import ListNotations.

(** [d] is the call [r], perhaps with a panic when all the work is done. *)
Definition lands {M X} (boom : bool) (d : res (fall M (M * X))) (r : res (M * X)) : Prop :=
  d = calmly r \/ boom = true /\ d = (let! (m', _) := r in Ok (Thrown m')).

(** The same for a call that returns the new state only. *)
Definition lands0 {M} (boom : bool) (d : res (fall M M)) (r : res M) : Prop :=
  d = calmly r \/ boom = true /\ d = (let! m' := r in Ok (Thrown m')).

Lemma lands_false : forall M X (d : res (fall M (M * X))) r, lands false d r -> d = calmly r.
Proof. intros M X d r [H|[H _]]; [exact H|discriminate]. Qed.

Lemma lands_calm : forall M X boom (r : res (M * X)), lands boom (calmly r) r.
Proof. intros. now left. Qed.

Lemma lands_bind : forall M M' X X' boom (d : res (fall M (M * X))) r (k : M -> M') (g : X -> X'),
  lands boom d r ->
  lands boom (fbind d k (fun '(m', x) => Ok (Calm (k m', g x)))) (let! (m', x) := r in Ok (k m', g x)).
Proof.
  intros M M' X X' boom d r k g [->|[-> ->]].
  - left. destruct r as [[m' x]| |]; reflexivity.
  - right. split; [reflexivity|]. destruct r as [[m' x]| |]; reflexivity.
Qed.

(** What is heard of a history: each call its answer, or nothing if it panicked. *)
Inductive told {O X} : list (bool * O) -> list (option X) -> list X -> Prop :=
| told_nil : told [] [] []
| told_calm : forall b o ops outs x xs, told ops outs xs -> told ((b, o) :: ops) (Some x :: outs) (x :: xs)
| told_thrown : forall o ops outs x xs, told ops outs xs -> told ((true, o) :: ops) (None :: outs) (x :: xs).

Lemma d_history : forall M O X (dstep : bool -> O -> M -> res (fall M (M * X))) step (P : M -> Prop) (Q : bool -> O -> Prop),
  (forall b o m, P m -> Q b o -> lands b (dstep b o m) (step o m)) ->
  (forall o m m' x, P m -> step o m = Ok (m', x) -> P m') ->
  forall ops m m' xs, P m -> Forall (fun bo => Q (fst bo) (snd bo)) ops ->
    exec_m step (map snd ops) m = Ok (m', xs) ->
    exists outs, d_exec dstep ops m = Ok (m', outs) /\ told ops outs xs.
Proof.
  intros M O X dstep step P Q Hl HP. induction ops as [|[b o] ops IH]; intros m m' xs Hm HQ H; cbn [map snd exec_m d_exec] in *.
  - injection H as <- <-. exists []. split; [reflexivity|constructor].
  - inversion HQ as [|? ? Hq HQ']; subst. cbn [fst snd] in Hq.
    destruct (step o m) as [[m1 x]| |] eqn:E; try discriminate. cbn [bind] in H.
    destruct (exec_m step (map snd ops) m1) as [[m2 xs']| |] eqn:E2; try discriminate. injection H as -> <-.
    destruct (IH m1 m' xs' (HP _ _ _ _ Hm E) HQ' E2) as (outs & Eo & Ht).
    destruct (Hl b o m Hm Hq) as [Ed|[-> Ed]]; rewrite E in Ed; cbn [calmly bind] in Ed; rewrite Ed; cbn [bind]; rewrite Eo; cbn [bind].
    + exists (Some x :: outs). split; [reflexivity|]. now constructor.
    + exists (None :: outs). split; [reflexivity|]. now constructor.
Qed.

(** ** List, Stack, Queue *)
Section Seq.
Context {T : Type}.

Lemma d_l_drop_first_lands : forall boom (l : rlist T), lands boom (d_l_drop_first_mut boom l) (l_drop_first_mut l).
Proof.
  intros boom l. unfold d_l_drop_first_mut, l_drop_first_mut. destruct (l_head l) as [|v next]; [now left|].
  destruct (csub (l_length l) 1) as [len| |]; cbn [bind]; [|now left|now left].
  destruct boom; [right|left]; auto.
Qed.

Lemma d_l_step_lands : forall boom o (l : rlist T), lands boom (d_l_step boom o l) (l_step o l).
Proof.
  intros boom o l. destruct o; try apply lands_calm. cbn [d_l_step l_step].
  apply (lands_bind _ _ _ _ _ _ _ (fun l => l) OBool), d_l_drop_first_lands.
Qed.

Lemma d_s_step_lands : forall boom o (s : rstack T), lands boom (d_s_step boom o s) (s_step o s).
Proof.
  intros boom o s. destruct o; try apply lands_calm. cbn [d_s_step s_step].
  apply (lands_bind _ _ _ _ _ _ _ (fun l => l) OBool). unfold d_s_pop_mut, s_pop_mut.
  apply (lands_bind _ _ _ _ _ _ _ mkS (fun b => b)), d_l_drop_first_lands.
Qed.

Lemma d_q_step_lands : forall boom o (q : rqueue T), lands boom (d_q_step boom o q) (q_step o q).
Proof.
  intros boom o q. destruct o; try apply lands_calm. cbn [d_q_step q_step].
  apply (lands_bind _ _ _ _ _ _ _ (fun l => l) OBool). unfold d_q_dequeue_mut, q_dequeue_mut.
  destruct (negb (l_is_empty (q_out q))); [|destruct (negb (l_is_empty (q_in q)))]; [| |now left].
  - apply (lands_bind _ _ _ _ _ _ _ (fun o => mkQ (q_in q) o) (fun _ => true)), d_l_drop_first_lands.
  - apply (lands_bind _ _ _ _ _ _ _ (fun o => mkQ (q_out q) o) (fun _ => true)), d_l_drop_first_lands.
Qed.
End Seq.

(** ** Vector *)
Section Vec.
Variable ubits : N.
Variable dbg : bool.
Context {T : Type}.
Local Open Scope N_scope.

Lemma d_update_nth_lands : forall A boom (f : A -> res (fall A A)) g, (forall x, lands0 boom (f x) (g x)) ->
  forall l i, lands0 boom (d_update_nth f i l) (update_nth g i l).
Proof.
  intros A boom f g H. induction l as [|x l IH]; intros i; [left; now destruct i|]. destruct i as [|i]; cbn [d_update_nth update_nth].
  - destruct (H x) as [->|[-> ->]]; [left|right; split; [reflexivity|]]; now destruct (g x).
  - destruct (IH i) as [->|[-> ->]]; [left|right; split; [reflexivity|]]; now destruct (update_nth g i l).
Qed.

Lemma d_assoc_empty : forall boom fuel bits index (x : T) n h, used n = 0%nat ->
  d_vn_assoc ubits dbg boom fuel bits index n x h = calmly (vn_assoc ubits dbg fuel bits index n x h).
Proof.
  intros boom. induction fuel as [|fuel IH]; intros bits index x n h Hn; [reflexivity|]. cbn [d_vn_assoc vn_assoc].
  destruct (bucket ubits dbg bits index h) as [b| |]; try reflexivity. cbn [bind].
  destruct n as [a|a]; cbn [used] in Hn; (destruct a; [|discriminate]); cbn [length].
  - destruct (debug_assert dbg (0 <? h)) as [[]| |]; try reflexivity. cbn [bind]. destruct (N.to_nat b); cbn [nth_error].
    all: destruct (usub ubits dbg h 1) as [h'| |]; try reflexivity; cbn [bind].
    all: rewrite IH by (now destruct (1 <? h)).
    all: destruct (vn_assoc ubits dbg fuel bits index (if 1 <? h then VBranch [] else VLeaf []) x h'); reflexivity.
  - destruct (debug_assert dbg (h =? 0)) as [[]| |]; try reflexivity. cbn [bind].
    destruct (N.of_nat 0 =? b); [reflexivity|]. now destruct (N.to_nat b).
Qed.

Lemma d_vn_assoc_lands : forall boom fuel bits index (x : T) n h,
  lands0 boom (d_vn_assoc ubits dbg boom fuel bits index n x h) (vn_assoc ubits dbg fuel bits index n x h).
Proof.
  intros boom. induction fuel as [|fuel IH]; intros bits index x n h; [now left|]. cbn [d_vn_assoc vn_assoc].
  destruct (bucket ubits dbg bits index h) as [b| |]; try now left. cbn [bind]. destruct n as [a|a].
  - destruct (debug_assert dbg (0 <? h)) as [[]| |]; try now left. cbn [bind].
    destruct (nth_error a (N.to_nat b)).
    + destruct (usub ubits dbg h 1) as [h'| |]; try now left. cbn [bind].
      destruct (d_update_nth_lands _ boom _ _ (fun s => IH bits index x s h') a (N.to_nat b)) as [->|[-> ->]];
        [left|right; split; [reflexivity|]];
        now destruct (update_nth (fun s => vn_assoc ubits dbg fuel bits index s x h') (N.to_nat b) a).
    + left. destruct (usub ubits dbg h 1) as [h'| |]; try reflexivity. cbn [bind].
      rewrite d_assoc_empty by (now destruct (1 <? h)).
      destruct (vn_assoc ubits dbg fuel bits index (if 1 <? h then VBranch [] else VLeaf []) x h'); reflexivity.
  - destruct (debug_assert dbg (h =? 0)) as [[]| |]; try now left. cbn [bind].
    destruct (N.of_nat (length a) =? b); [now left|].
    destruct (update_nth (fun _ => Ok x) (N.to_nat b) a) as [a'| |]; cbn [bind]; try now left.
    destruct boom; [right|left]; auto.
Qed.

Lemma d_v_set_mut_lands : forall boom (v : rvec T) i x,
  lands boom (d_v_set_mut ubits dbg boom v i x) (v_set_mut ubits dbg v i x).
Proof.
  intros boom v i x. unfold d_v_set_mut, v_set_mut. destruct (v_length v <=? i) eqn:Ei.
  { destruct boom; [right|left]; auto. }
  unfold d_v_assoc, v_assoc. rewrite Ei.
  destruct (if dbg then let! c := v_root_max_capacity ubits dbg v in debug_assert dbg (i <? c) else Ok tt) as [[]| |]; try now left.
  cbn [bind]. destruct (v_height ubits dbg v) as [h| |]; try now left. cbn [bind].
  destruct (d_vn_assoc_lands boom (v_fuel v h) (v_bits v) i x (v_root v) h) as [->|[-> ->]];
    [left|right; split; [reflexivity|]]; now destruct (vn_assoc ubits dbg (v_fuel v h) (v_bits v) i (v_root v) x h).
Qed.

(** *** [drop_last_mut]: without a panic nothing changes. *)
Lemma vnode_ind2 : forall (P : vnode T -> Prop),
  (forall a, P (VLeaf a)) -> (forall cs, (forall c, In c cs -> P c) -> P (VBranch cs)) -> forall n, P n.
Proof.
  intros P Hl Hb. fix IH 1. intros [cs|a]; [|apply Hl]. apply Hb. induction cs as [|c cs IHc]; [intros c' []|].
  assert (Hc : P c) by apply IH. intros c' [<-|Hin]; [exact Hc|now apply IHc].
Qed.

Lemma d_vn_drop_last_calm : forall n : vnode T, d_vn_drop_last false n = calmly (vn_drop_last n).
Proof.
  induction n as [a|cs IH] using vnode_ind2; cbn [d_vn_drop_last vn_drop_last].
  - destruct (vn_is_empty (VLeaf a)); reflexivity.
  - destruct (vn_is_empty (VBranch cs)); [reflexivity|].
    assert (E : d_on_last (d_vn_drop_last false) cs = calmly (on_last vn_drop_last cs)).
    { clear - IH. induction cs as [|c cs IHc]; [reflexivity|]. cbn [d_on_last on_last]. destruct cs as [|c' cs].
      - rewrite (IH c (or_introl eq_refl)). now destruct (vn_drop_last c) as [[? [|]]| |].
      - rewrite IHc by (intros; apply IH; now right). destruct (on_last vn_drop_last (c' :: cs)); reflexivity. }
    rewrite E. destruct (on_last vn_drop_last cs); reflexivity.
Qed.

Lemma d_v_step_calm : forall o (v : rvec T), d_v_step ubits dbg false o v = calmly (v_step ubits dbg o v).
Proof.
  intros o v. destruct o; try reflexivity; cbn [d_v_step v_step].
  - unfold d_v_drop_last_mut, v_drop_last_mut. destruct (0 <? v_length v); [|reflexivity].
    rewrite d_vn_drop_last_calm. destruct (vn_drop_last (v_root v)) as [[root ?]| |]; try reflexivity. cbn [calmly fbind bind].
    now destruct (usub ubits dbg (v_length v) 1).
  - rewrite (lands_false _ _ _ _ (d_v_set_mut_lands false v i v0)). now destruct (v_set_mut ubits dbg v i v0) as [[? ?]| |].
Qed.

Lemma d_v_step_lands : forall boom o (v : rvec T), (boom = true -> o <> VDropMut) ->
  lands boom (d_v_step ubits dbg boom o v) (v_step ubits dbg o v).
Proof.
  intros boom o v Ho. destruct boom; [|left; apply d_v_step_calm]. destruct o; try apply lands_calm; cbn [d_v_step v_step].
  - exfalso. now apply Ho.
  - apply (lands_bind _ _ _ _ _ _ _ (fun l => l) OBool), d_v_set_mut_lands.
Qed.
End Vec.

(** *** [drop_last_mut] with a panic. *)
Section VecThrown.
Variable ubits : N.
Variable dbg : bool.
Variable bits : N.
Hypothesis Hu : (8 <= ubits)%N.
Hypothesis Hb : (0 < bits)%N.
Hypothesis Hbu : (bits < ubits)%N.
Context {T : Type}.
Notation dp := (VectorProofs.dp bits).
Notation rep := (VectorProofs.rep bits).
Local Open Scope N_scope.

Lemma d_drop_last_branch : forall (ns1 : list (vnode T)) m m', d_vn_drop_last true m = Ok (Thrown m') ->
  d_vn_drop_last true (VBranch (ns1 ++ [m])) = Ok (Thrown (VBranch (ns1 ++ [m']))).
Proof.
  intros ns1 m m' E. cbn [d_vn_drop_last].
  replace (vn_is_empty (VBranch (ns1 ++ [m]))) with false
    by (unfold vn_is_empty; simpl; rewrite app_length; simpl; symmetry; apply Nat.eqb_neq; lia).
  assert (G : d_on_last (d_vn_drop_last true) (ns1 ++ [m]) = Ok (Thrown (ns1 ++ [m']))).
  { induction ns1 as [|y ns1 IH].
    - simpl. now rewrite E.
    - cbn [app d_on_last]. destruct (ns1 ++ [m]) eqn:E2; [destruct ns1; discriminate|]. now rewrite IH. }
  rewrite G. reflexivity.
Qed.

(** The trie after the throw: positions before the last are where they were, the last one is
    out of bounds of its leaf. *)
Lemma thrown_drop_last : forall h (n : vnode T) l x, rep h n (l ++ [x]) ->
  exists n', d_vn_drop_last true n = Ok (Thrown n') /\
    forall index extra, bits * N.of_nat h < ubits ->
      index mod dp (N.of_nat h + 1) < len l + 1 ->
      vn_get ubits dbg (S h + extra) bits n' index (N.of_nat h)
        = unwrap (nth_error l (N.to_nat (index mod dp (N.of_nat h + 1)))).
Proof.
  induction h as [|h IH]; intros n l x Hr0; pose proof Hr0 as Hr.
  - destruct Hr as [-> Hl]. cbn [d_vn_drop_last].
    replace (vn_is_empty (VLeaf (l ++ [x]))) with false
      by (unfold vn_is_empty; simpl; rewrite app_length; simpl; symmetry; apply Nat.eqb_neq; lia).
    rewrite removelast_snoc. eexists. split; [reflexivity|]. intros index extra Hs Hi.
    cbn [Nat.add vn_get]. rewrite (bucket_ok ubits dbg bits Hu Hb Hbu) by exact Hs. cbn [bind].
    rewrite (dassert_true ubits dbg bits Hu Hb Hbu _ (N.eqb_refl _)). cbn [bind]. rewrite (digit ubits dbg bits Hu Hb Hbu).
    change (N.of_nat 0) with 0. rewrite (dp_0 ubits dbg bits Hu Hb Hbu), N.div_1_r. reflexivity.
  - destruct Hr as (cs & -> & Hc & Hl).
    destruct (crep_last ubits dbg bits Hu Hb Hbu _ _ _ _ (dp_pos ubits dbg bits Hu Hb Hbu _) Hc) as
      (ns1 & m & l1 & lc & -> & El & HRm & Hlc & E1 & Hk & Hrest).
    destruct lc as [|y lc0] using rev_ind; [rewrite len_nil in Hlc; lia|]. clear IHlc0.
    rewrite app_assoc in El. apply app_inj_tail in El. destruct El as [-> <-].
    destruct (IH m lc0 x HRm) as (m' & Em & Hm').
    eexists. split; [apply d_drop_last_branch, Em|]. intros index extra Hs Hi.
    pose proof (dp_pos ubits dbg bits Hu Hb Hbu (N.of_nat (S h))) as Hp.
    set (j := index mod dp (N.of_nat (S h) + 1)) in *.
    rewrite len_app in Hi.
    destruct (N.lt_ge_cases j (len l1)) as [Hj|Hj].
    + (* the children before the last are untouched *)
      destruct (rep_get_x ubits dbg bits Hu Hb Hbu (S h) _ _ index extra Hr0 Hs) as (z & Ez & En).
      { fold j. rewrite !len_app. lia. }
      fold j in En. pose proof (len_to_nat _ l1) as HL1.
      rewrite <- app_assoc, nth_error_app1 in En by lia. rewrite nth_error_app1 by lia. rewrite En. cbn [unwrap].
      rewrite <- Ez. change (S (S h) + extra)%nat with (S (S h + extra)).
      set (fu := (S h + extra)%nat). cbn [vn_get]. rewrite (bucket_ok ubits dbg bits Hu Hb Hbu) by exact Hs. cbn [bind].
      rewrite (digit ubits dbg bits Hu Hb Hbu). fold j.
      assert (Hjd : j / dp (N.of_nat (S h)) < len ns1) by (apply N.div_lt_upper_bound; lia).
      pose proof (len_to_nat _ ns1) as HN1. unfold index_nth. rewrite !nth_error_app1 by lia. reflexivity.
    + (* the last child *)
      assert (Hlc' : len lc0 + 1 <= dp (N.of_nat (S h))) by (rewrite len_app, len_cons, len_nil in Hlc; lia).
      assert (Hjd : j / dp (N.of_nat (S h)) = len ns1).
      { symmetry. apply N.div_unique with (r := j - len l1); lia. }
      assert (Hjm : j mod dp (N.of_nat (S h)) = j - len l1).
      { symmetry. apply N.mod_unique with (q := len ns1); lia. }
      assert (Hjr : j mod dp (N.of_nat (S h)) = index mod dp (N.of_nat (S h))) by (unfold j; apply (digit_rest ubits dbg bits Hu Hb Hbu)).
      change (S (S h) + extra)%nat with (S (S h + extra)). specialize (Hm' index extra).
      set (fu := (S h + extra)%nat) in *. clearbody fu.
      cbn [vn_get]. rewrite (bucket_ok ubits dbg bits Hu Hb Hbu) by exact Hs. cbn [bind].
      rewrite (digit ubits dbg bits Hu Hb Hbu). fold j. rewrite (index_focus _ ns1 m' [] _ (eq_sym Hjd)). cbn [bind].
      rewrite (usub_S ubits dbg bits Hu Hb Hbu). cbn [bind].
      replace (N.of_nat (S h)) with (N.of_nat h + 1) in * by lia.
      rewrite Hm'; [|nia|lia].
      f_equal. pose proof (len_to_nat _ l1) as HL1. rewrite nth_error_app2 by lia. f_equal. lia.
Qed.

(** Writing at the last position mends the trie. *)
Lemma thrown_repair : forall h (n : vnode T) l x y, rep h n (l ++ [x]) ->
  exists n', d_vn_drop_last true n = Ok (Thrown n') /\
    forall index extra, bits * N.of_nat h < ubits ->
      index mod dp (N.of_nat h + 1) = len l ->
      exists n'', vn_assoc ubits dbg (S h + extra) bits index n' y (N.of_nat h) = Ok n'' /\ rep h n'' (l ++ [y]).
Proof.
  induction h as [|h IH]; intros n l x y Hr.
  - destruct Hr as [-> Hl]. cbn [d_vn_drop_last].
    replace (vn_is_empty (VLeaf (l ++ [x]))) with false
      by (unfold vn_is_empty; simpl; rewrite app_length; simpl; symmetry; apply Nat.eqb_neq; lia).
    rewrite removelast_snoc. eexists. split; [reflexivity|]. intros index extra Hs Hi.
    cbn [Nat.add vn_assoc]. rewrite (bucket_ok ubits dbg bits Hu Hb Hbu) by exact Hs. cbn [bind].
    rewrite (dassert_true ubits dbg bits Hu Hb Hbu _ (N.eqb_refl _)). cbn [bind]. rewrite (digit ubits dbg bits Hu Hb Hbu).
    rewrite Hi. change (N.of_nat 0) with 0. rewrite (dp_0 ubits dbg bits Hu Hb Hbu), N.div_1_r.
    unfold len at 1. rewrite N.eqb_refl. eexists. split; [reflexivity|]. split; [reflexivity|].
    rewrite !len_app, !len_cons, !len_nil in *. lia.
  - destruct Hr as (cs & -> & Hc & Hl).
    destruct (crep_last ubits dbg bits Hu Hb Hbu _ _ _ _ (dp_pos ubits dbg bits Hu Hb Hbu _) Hc) as
      (ns1 & m & l1 & lc & -> & El & HRm & Hlc & E1 & Hk & Hrest).
    destruct lc as [|y0 lc0] using rev_ind; [rewrite len_nil in Hlc; lia|]. clear IHlc0.
    rewrite app_assoc in El. apply app_inj_tail in El. destruct El as [-> <-].
    destruct (IH m lc0 x y HRm) as (m' & Em & Hm').
    eexists. split; [apply d_drop_last_branch, Em|]. intros index extra Hs Hi.
    pose proof (dp_pos ubits dbg bits Hu Hb Hbu (N.of_nat (S h))) as Hp.
    set (j := index mod dp (N.of_nat (S h) + 1)) in *.
    rewrite len_app in Hi.
    assert (Hlc' : len lc0 + 1 <= dp (N.of_nat (S h))) by (rewrite len_app, len_cons, len_nil in Hlc; lia).
    assert (Hjd : j / dp (N.of_nat (S h)) = len ns1).
    { symmetry. apply N.div_unique with (r := j - len l1); lia. }
    assert (Hjm : j mod dp (N.of_nat (S h)) = j - len l1).
    { symmetry. apply N.mod_unique with (q := len ns1); lia. }
    assert (Hjr : j mod dp (N.of_nat (S h)) = index mod dp (N.of_nat (S h))) by (unfold j; apply (digit_rest ubits dbg bits Hu Hb Hbu)).
    change (S (S h) + extra)%nat with (S (S h + extra)). specialize (Hm' index extra).
    set (fu := (S h + extra)%nat) in *. clearbody fu.
    cbn [vn_assoc]. rewrite (bucket_ok ubits dbg bits Hu Hb Hbu) by exact Hs. cbn [bind].
    rewrite (digit ubits dbg bits Hu Hb Hbu). fold j. rewrite Hjd, len_to_nat.
    rewrite (dassert_true ubits dbg bits Hu Hb Hbu) by (apply N.ltb_lt; lia). cbn [bind].
    rewrite nth_error_focus, (usub_S ubits dbg bits Hu Hb Hbu). cbn [bind]. rewrite update_nth_focus.
    replace (N.of_nat (S h)) with (N.of_nat h + 1) in * by lia.
    destruct Hm' as (m'' & Em'' & Hrm); [nia|lia|]. rewrite Em''. cbn [bind].
    eexists. split; [reflexivity|]. eexists. split; [reflexivity|]. rewrite <- app_assoc.
    replace (N.of_nat (S h)) with (N.of_nat h + 1) by lia. split.
    + apply Hk; [exact Hrm|]. rewrite !len_app, !len_cons, !len_nil in *. lia.
    + rewrite !len_app, !len_cons, !len_nil in *. lia.
Qed.
Notation v_rep := (VectorOps.v_rep bits).

Lemma d_v_drop_last_thrown : forall (v : rvec T) l x, v_rep v (l ++ [x]) -> len (l ++ [x]) < 2 ^ ubits ->
  exists v', d_v_drop_last_mut ubits dbg true v = Ok (Thrown v') /\
    v_length v' = len (l ++ [x]) /\ v_bits v' = bits /\
    forall i, i <= len l -> v_get ubits dbg v' i = (let! y := unwrap (nth_error l (N.to_nat i)) in Ok (Some y)).
Proof.
  intros v l x Hr Hlt. pose proof Hr as (Hv & Hl & h & Hs & Hrep). unfold d_v_drop_last_mut. rewrite Hl.
  assert (Hlen : len (l ++ [x]) = len l + 1) by (rewrite len_app, len_cons, len_nil; lia).
  rewrite Hlen in *. destruct (N.ltb_spec 0 (len l + 1)); [|lia].
  destruct (thrown_drop_last h _ _ _ Hrep) as (n' & En & Hn'). rewrite En. cbn [fbind bind].
  eexists. split; [reflexivity|]. split; [reflexivity|]. split; [exact Hv|]. intros i Hi.
  unfold v_get. cbn [v_length]. destruct (N.leb_spec (len l + 1) i); [lia|].
  assert (Eh : v_height ubits dbg (mkV n' (v_bits v) (len l + 1)) = Ok (N.of_nat h)).
  { destruct (height_ok ubits dbg bits Hu Hb Hbu (mkV n' (v_bits v) (len l + 1)) Hv) as (h' & E & Hs'); [exact Hlt|].
    cbn [v_length] in Hs'. now rewrite (hspec_unique ubits dbg bits Hu Hb Hbu _ _ _ Hs' Hs) in E. }
  rewrite Eh. cbn [bind]. rewrite to_nat_fuel. cbn [v_root v_bits]. rewrite Hv.
  assert (Hm : i mod dp (N.of_nat h + 1) = i).
  { apply N.mod_small. pose proof (hspec_cap ubits dbg bits Hu Hb Hbu _ _ Hs). lia. }
  rewrite Hn'; rewrite ?Hm; [reflexivity| |lia].
  exact (hspec_shift ubits dbg bits Hu Hb Hbu _ _ Hlt Hs).
Qed.

Lemma d_v_drop_last_repair : forall (v : rvec T) l x y, v_rep v (l ++ [x]) -> len (l ++ [x]) <= vec_limit ubits dbg bits ->
  exists v' v'', d_v_drop_last_mut ubits dbg true v = Ok (Thrown v') /\
    v_set_mut ubits dbg v' (len l) y = Ok (v'', true) /\ v_rep v'' (l ++ [y]).
Proof.
  intros v l x y Hr Hlim. pose proof (limit_lt ubits dbg bits Hu Hb Hbu) as HL.
  assert (Hlt : len (l ++ [x]) < 2 ^ ubits) by lia.
  pose proof Hr as (Hv & Hl & h & Hs & Hrep). unfold d_v_drop_last_mut. rewrite Hl.
  destruct (v_set_mut_ok ubits dbg bits Hu Hb Hbu v (l ++ [x]) (len l) y Hr Hlim) as (v2 & E2 & _).
  assert (Hlen : len (l ++ [x]) = len l + 1) by (rewrite len_app, len_cons, len_nil; lia).
  rewrite Hlen in *. destruct (N.ltb_spec 0 (len l + 1)); [|lia].
  destruct (thrown_repair h _ _ _ y Hrep) as (n' & En & Hn'). rewrite En. cbn [fbind bind].
  assert (Hcap := hspec_cap ubits dbg bits Hu Hb Hbu _ _ Hs).
  assert (Hm : len l mod dp (N.of_nat h + 1) = len l) by (apply N.mod_small; lia).
  assert (Hw : forall extra, exists n'', vn_assoc ubits dbg (S h + extra) bits (len l) n' y (N.of_nat h) = Ok n'' /\ rep h n'' (l ++ [y])).
  { intros extra. apply Hn'; [exact (hspec_shift ubits dbg bits Hu Hb Hbu _ _ Hlt Hs)|exact Hm]. }
  set (v' := mkV n' (v_bits v) (len l + 1)).
  assert (Hsame : forall u : rvec T, v_bits u = bits -> v_length u = len l + 1 -> v_height ubits dbg u = Ok (N.of_nat h)).
  { intros u Hub Hul. destruct (height_ok ubits dbg bits Hu Hb Hbu u Hub) as (h' & E & Hs'); [now rewrite Hul|].
    rewrite Hul in Hs'. now rewrite (hspec_unique ubits dbg bits Hu Hb Hbu _ _ _ Hs' Hs) in E. }
  unfold v_set_mut, v_assoc in E2. rewrite Hl in E2. destruct (N.leb_spec (len l + 1) (len l)) in E2; [lia|].
  exists v'. unfold v_set_mut, v_assoc. change (v_length v') with (len l + 1). change (v_bits v') with (v_bits v). change (v_root v') with n'.
  destruct (N.leb_spec (len l + 1) (len l)); [lia|].
  assert (Ec : v_root_max_capacity ubits dbg v' = v_root_max_capacity ubits dbg v).
  { unfold v_root_max_capacity. rewrite (Hsame v'), (Hsame v); auto. }
  rewrite Ec. destruct (if dbg then let! c := v_root_max_capacity ubits dbg v in debug_assert dbg (len l <? c) else Ok tt) as [[]| |];
    try discriminate. cbn [bind].
  rewrite (Hsame v') by auto. cbn [bind]. rewrite to_nat_fuel, Hv. change (v_root v') with n'.
  destruct (Hw (vdepth n')) as (n'' & E'' & Hr''). rewrite E''. cbn [bind].
  eexists. split; [reflexivity|]. split; [reflexivity|].
  assert (Hly : len (l ++ [y]) = len l + 1) by (rewrite len_app, len_cons, len_nil; lia).
  split; [reflexivity|]. cbn [v_length v_root]. split; [now rewrite Hly|]. exists h. rewrite Hly. auto.
Qed.
End VecThrown.
