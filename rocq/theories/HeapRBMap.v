(** * RedBlackTreeMap on the heap: the calls against their specification *)
From Coq Require Import List NArith Arith Lia Bool Permutation Sorted.
From Verif Require Import Base Spec Sim SpecMap SpecOrd RBModel RBProofs RBHist RBIter RBExtra RBExtraProofs Prop_RB
  PermSolve HeapModel HeapProofs HeapSafe HeapLooks HeapClient HeapList HeapRB HeapRBProofs HeapRBIter.
Import ListNotations.
Local Open Scope prog_scope.

(** ** [by_key] *)
Section ByKey.
Context {K V : Type} (kcmp : K -> K -> comparison).
Hypothesis OL : ord_laws kcmp.

Lemma put_by_key_perm : forall (e : K * V) l, Permutation (put_by_key kcmp e l) (e :: l).
Proof using.
  intros e l. induction l as [|x l IH]; [reflexivity|]. cbn [put_by_key].
  destruct (kcmp (fst e) (fst x)); [|reflexivity|]; (etransitivity; [constructor; exact IH|constructor]).
Qed.
Lemma by_key_perm : forall m : list (K * V), Permutation (by_key kcmp m) m.
Proof using.
  induction m as [|e m IH]; [constructor|]. cbn. etransitivity; [apply put_by_key_perm|]. now constructor.
Qed.
Lemma put_by_key_sorted : forall (e : K * V) l, sorted kcmp l -> Forall (fun x => kcmp (fst e) (fst x) <> Eq) l ->
  sorted kcmp (put_by_key kcmp e l).
Proof.
  intros e l S F. induction l as [|x l IH]; [repeat constructor|].
  inversion S as [|? ? S1 S2]; subst. inversion F as [|? ? F1 F2]; subst. cbn [put_by_key].
  destruct (kcmp (fst e) (fst x)) eqn:E; [congruence| |].
  - constructor; [exact S|]. constructor; [exact E|]. eapply Forall_impl; [|exact S2].
    intros y Hy. cbn in Hy. eapply (ol_trans _ OL); eassumption.
  - constructor; [now apply IH|]. eapply Permutation_Forall; [apply Permutation_sym, put_by_key_perm|].
    constructor; [|exact S2]. rewrite (ol_sym _ OL), E. reflexivity.
Qed.
Lemma by_key_sorted : forall m : list (K * V), unique_keys (eq_of kcmp) m -> sorted kcmp (by_key kcmp m).
Proof.
  induction m as [|e m IH]; intros U; [constructor|]. inversion U as [|? ? U1 U2]; subst. cbn.
  apply put_by_key_sorted; [now apply IH|].
  eapply Permutation_Forall; [apply Permutation_sym, by_key_perm|].
  eapply Forall_impl; [|exact U1]. intros x Hx. unfold eq_of in Hx. now destruct (kcmp (fst e) (fst x)).
Qed.
End ByKey.

Section M.
Context {K V Q : Type}.
Variable dbg : bool.
Variable kcmp : K -> K -> comparison.
Variable borrow : K -> Q.
Variable qcmp : Q -> Q -> comparison.
Hypothesis OL : ord_laws qcmp.
Hypothesis KB : borrow_agrees kcmp borrow qcmp.
Notation C := (rcell K V).
Notation own := (@own C).
Notation safe := (safe (@rkids K V)).
Notation step := (@hb_step K V Q dbg kcmp borrow qcmp).
Notation spec := (@map_spec K V Q (eq_of kcmp) borrow (eq_of qcmp)).

(** What the calls mean on finite maps. *)
Definition rb_call_spec (o : rb_call (K := K) (V := V) (Q := Q)) (m : fmap K V) : fmap K V * rb_result :=
  match o with
  | BOp o => (fst (spec o m), BObs (snd (spec o m)))
  | BFirst => (m, BObs (MoKV (hd_error (by_key kcmp m))))
  | BLast => (m, BObs (MoKV (last_error (by_key kcmp m))))
  | BIter ds => (m, BSteps (de_spec ds (by_key kcmp m)))
  end.

(** What they may allocate. *)
Definition rb_levels (n : nat) : nat := 2 * Nat.log2 (n + 1).
Definition rb_cost (o : rb_call (K := K) (V := V) (Q := Q)) (m : fmap K V) : nat :=
  match o with
  | BOp (MInsert _ _) | BOp (MInsertMut _ _) => 3 * rb_levels (length m) + 2
  | BOp (MRemove _) | BOp (MRemoveMut _) => 14 * rb_levels (length m)
  | BOp (MGetMut _ _) => rb_levels (length m) + 1
  | _ => 0
  end.

Definition hbrep (m : hrb) (fm : fmap K V) (G : list own) : Prop :=
  exists w : rbmap K V, rb_rep kcmp w fm /\ hb_size m = rb_size w /\ tpost (rb_root w) (hb_root m) G.

Lemma rep_levels : forall (w : rbmap K V) fm, rb_rep kcmp w fm -> hgt (rb_root w) <= rb_levels (length fm) /\
  forall m, hb_size m = rb_size w -> hgt (rb_root w) <= hb_levels m.
Proof using.
  intros w fm (Hs & Hp & Hz & (n & Hr) & Hn). pose proof (rbt_size _ _ _ _ Hr) as H1.
  pose proof (rbt_hgt _ _ _ _ Hr) as H2. rewrite (Permutation_length Hp) in H1.
  assert (H0 : hgt (rb_root w) <= rb_levels (length fm)).
  { assert (H3 : hgt (rb_root w) <= 2 * n) by (destruct (rb_root w) as [|? [|] ? ?]; [lia|contradiction|lia]).
    assert (H4 : n <= Nat.log2 (length fm + 1)) by (apply Nat.log2_le_pow2; lia).
    unfold rb_levels. lia. }
  split; [exact H0|]. intros m Hm. unfold hb_levels. rewrite Hm, Hz. exact H0.
Qed.
Lemma rep_by_key : forall (w : rbmap K V) fm, rb_rep kcmp w fm -> elems (rb_root w) = by_key kcmp fm.
Proof.
  intros w fm H. pose proof (ord_k kcmp borrow qcmp OL KB) as OK.
  eapply sorted_perm_unique; [exact OK|apply H| |].
  - apply by_key_sorted; [exact OK|]. exact (rep_unique kcmp borrow qcmp OL KB _ _ H).
  - etransitivity; [apply H|]. apply Permutation_sym, by_key_perm.
Qed.

Ltac seq n1 n2 G1 F tac := eapply (safe_seq _ _ _ n1 n2 _ _ G1 F); [tac|perm| |lia].

Lemma hb_new_ok : safe 0 hb_new [] (fun m G => hbrep m [] G).
Proof using.
  apply safe_ret. exists (@rb_new K V). split; [apply rb_new_ok|]. split; [reflexivity|].
  exists []. split; [constructor|reflexivity].
Qed.

Lemma hb_clone_ok : forall m fm G, hbrep m fm G ->
  safe 0 (hb_clone m) G (fun m' G' => exists G1 G2, G' = G1 ++ G2 /\ hbrep m fm G1 /\ hbrep m' fm G2).
Proof using.
  intros m fm G (w & R & Hz & ts & T & ->). unfold hb_clone.
  assert (R' : hbrep m fm (map Tree ts)) by (exists w; splits; trivial; exists ts; auto).
  inversion T as [|a e c l r te ol tl or tr E Hl Hr Ew Eo]; subst.
  - apply safe_ret. exists [], []. splits; trivial.
  - cbn [clone_opt]. eexists _, _. split; [apply lent_in; now left|]. apply safe_ret.
    eexists [_], [_]. split; [reflexivity|]. split; exact R'.
Qed.

Lemma hb_drop_ok : forall m fm G, hbrep m fm G -> safe 0 (hb_drop m) G (fun _ G' => G' = []).
Proof using.
  intros m fm G (w & R & Hz & ts & T & ->). unfold hb_drop. destruct (rep_levels _ _ R) as [_ L]. specialize (L _ Hz).
  pose proof (topt_depth _ _ _ T) as D.
  inversion T as [Ew Eo|a e c l r te ol tl or tr E Hl Hr Ew Eo]; subst.
  - now apply safe_ret.
  - cbn [drop_opt map].
    match goal with |- HeapSafe.safe _ _ _ [Tree ?t] _ => set (u := t) in *; change a with (pa u) end.
    apply safe_drop. rewrite <- Ew in L, D. cbn [map list_max fold_right] in D. lia.
Qed.

Lemma hb_insert_mut_ok : forall m fm G k v, hbrep m fm G ->
  safe (3 * rb_levels (length fm) + 2) (hb_insert_mut kcmp m k v) G
    (fun m' G' => hbrep m' (fm_insert (eq_of kcmp) k v fm) G').
Proof.
  intros m fm G k v (w & R & Hz & ts & T & ->). unfold hb_insert_mut.
  destruct (rep_levels _ _ R) as [L1 L2]. specialize (L2 _ Hz).
  destruct (rb_insert_ok kcmp borrow qcmp OL KB w fm k v R) as (w' & E & R').
  unfold rb_insert_mut, n_insert in E.
  destruct (ins kcmp (rb_root w) k v true) as [[t b]| |] eqn:Ei; try discriminate E. cbn [bind] in E.
  injection E as <-.
  seq (3 * hgt (rb_root w) + 2) 0 (map (@Tree C) ts) (@nil own)
    ltac:(eapply hins_ok; [|exact T|exact Ei]; lia).
  intros [o b'] G' [Eb Tp]. cbn [fst snd] in *. subst b'. rewrite app_nil_r. apply safe_ret.
  eexists. split; [exact R'|]. cbn [rb_size rb_root hb_size hb_root]. split; [destruct b; congruence|exact Tp].
Qed.

Lemma hb_remove_mut_ok : forall m fm G q, hbrep m fm G ->
  safe (14 * rb_levels (length fm)) (hb_remove_mut dbg borrow qcmp m q) G
    (fun x G' => snd x = is_some (fm_find borrow (eq_of qcmp) q fm) /\
       hbrep (fst x) (fm_remove borrow (eq_of qcmp) q fm) G').
Proof.
  intros m fm G q (w & R & Hz & ts & T & ->). unfold hb_remove_mut.
  destruct (rep_levels _ _ R) as [L1 L2]. specialize (L2 _ Hz).
  destruct (rb_remove_ok dbg kcmp borrow qcmp OL KB w fm q R) as (w' & E & R').
  unfold rb_remove_mut, n_remove in E.
  destruct (del dbg borrow qcmp (rb_root w) q true) as [[t b]| |] eqn:Ei; try discriminate E. cbn [bind] in E.
  seq (14 * hgt (rb_root w)) 0 (map (@Tree C) ts) (@nil own)
    ltac:(eapply hdel_ok; [| |exact T|exact Ei]; lia).
  intros [o b'] G' [Eb Tp]. cbn [fst snd] in *. subst b'. rewrite app_nil_r. apply safe_ret.
  cbn [fst snd].
  destruct b; unfold csub in E.
  - destruct (1 <=? rb_size w); try discriminate E. cbn [bind] in E. injection E as <- <-. split; [reflexivity|].
    eexists. split; [exact R'|]. cbn [rb_size rb_root hb_size hb_root]. split; [congruence|exact Tp].
  - cbn [bind] in E. injection E as <- <-. split; [reflexivity|].
    eexists. split; [exact R'|]. cbn [rb_size rb_root hb_size hb_root]. split; [congruence|exact Tp].
Qed.

Lemma hb_get_mut_ok : forall m fm G q g, hbrep m fm G ->
  safe (rb_levels (length fm) + 1) (hb_get_mut borrow qcmp m q g) G
    (fun x G' => snd x = option_map snd (fm_find borrow (eq_of qcmp) q fm) /\
       hbrep (fst x) (fm_modify borrow (eq_of qcmp) q g fm) G').
Proof.
  intros m fm G q g (w & R & Hz & ts & T & ->). unfold hb_get_mut.
  destruct (rep_levels _ _ R) as [L1 L2]. specialize (L2 _ Hz).
  destruct (rb_get_mut_ok kcmp borrow qcmp OL KB w fm q g R) as (w' & E & R').
  unfold rb_get_mut in E.
  destruct (t_get_mut borrow qcmp (rb_root w) q g) as [t x] eqn:Ei. injection E as <- Ex.
  seq (S (hgt (rb_root w))) 0 (map (@Tree C) ts) (@nil own)
    ltac:(eapply (hget_mut_ok _ _ _ (rb_root w) q g); [|exact T]; lia).
  intros [o b'] G' [Eb Tp]. rewrite Ei in Eb, Tp. cbn [fst snd] in *. subst b'. rewrite app_nil_r. apply safe_ret.
  split; [exact Ex|].
  eexists. split; [exact R'|]. cbn [rb_size rb_root hb_size hb_root fst]. split; [congruence|exact Tp].
Qed.

Lemma own_lent : forall (ts : list (@ptree C)) u, In u ts -> lent u (map Tree ts).
Proof using. intros ts u I. apply lent_in. now apply in_map. Qed.

(** Iterating: at most 15 reads for each entry altogether, and [3 * levels + 11] for a step. *)
Lemma hb_iter_reads : forall ds m fm G, hbrep m fm G ->
  looks (Nat.min (15 * length fm) (length ds * (3 * rb_levels (length fm) + 11))) (hb_iter kcmp m ds) G
    (fun x => x = de_spec ds (by_key kcmp fm)).
Proof.
  intros ds m fm G (w & Rw & Hz & ts & T & ->). destruct (rep_levels _ _ Rw) as [L1 L2]. specialize (L2 _ Hz).
  pose proof (ord_k kcmp borrow qcmp OL KB) as OK.
  assert (Ez : rb_size w = length fm) by apply Rw. rewrite <- Ez in *.
  apply (hb_iter_looks kcmp _ (rb_levels (rb_size w)) ds m w); trivial.
  - exists ts. split; [exact T|apply own_lent].
  - unfold hb_levels. now rewrite Hz.
  - eapply rep_size; eassumption.
  - rewrite <- (rep_by_key w fm Rw). eapply sim_runs2; [apply (it_sim2 kcmp OK w); apply Rw|].
    apply it_new_ok. eapply rep_size; eassumption.
Qed.

Theorem hb_step_ok : forall o m fm G, hbrep m fm G ->
  safe (rb_cost o fm) (step o m) G
    (fun r G' => snd r = snd (rb_call_spec o fm) /\ hbrep (fst r) (fst (rb_call_spec o fm)) G').
Proof.
  intros o m fm G R.
  assert (Get : forall q (f : option (K * V) -> map_obs K V),
    safe 0 (let* o := hb_get borrow qcmp m q in Ret (m, BObs (f o))) G
      (fun r G' => snd r = BObs (f (fm_find borrow (eq_of qcmp) q fm)) /\ hbrep (fst r) fm G')).
  { intros q f. assert (R' := R). destruct R' as (w & Rw & Hz & ts & T & ->). destruct (rep_levels _ _ Rw) as [L1 L2]. specialize (L2 _ Hz).
    unfold hb_get. eapply (hget_ok borrow qcmp _ (rb_root w)); [lia|exact T|apply own_lent|].
    apply safe_ret. rewrite (rb_get_ok kcmp borrow qcmp OL KB w fm q Rw). auto. }
  destruct o as [[k v|k v|q|q|q f|q|q|q| | |]| | |ds]; cbn [hb_step rb_cost rb_call_spec map_spec fst snd].
  - unfold hb_insert. apply safe_assoc. seq 0 (3 * rb_levels (length fm) + 2) G (@nil own) ltac:(apply (hb_clone_ok m fm G R)).
    intros n G' (G1 & G2 & -> & R1 & R2). apply safe_assoc.
    seq (3 * rb_levels (length fm) + 2) 0 G2 G1 ltac:(apply (hb_insert_mut_ok n fm G2 k v R2)).
    intros n' G' R'. apply safe_assoc.
    seq 0 0 G1 G' ltac:(apply (hb_drop_ok m fm G1 R1)). intros [] G3 ->. apply safe_ret. auto.
  - seq (3 * rb_levels (length fm) + 2) 0 G (@nil own) ltac:(apply (hb_insert_mut_ok m fm G k v R)).
    intros n' G' R'. apply safe_ret. rewrite app_nil_r. auto.
  - unfold hb_remove. apply safe_assoc. seq 0 (14 * rb_levels (length fm)) G (@nil own) ltac:(apply (hb_clone_ok m fm G R)).
    intros n G' (G1 & G2 & -> & R1 & R2). apply safe_assoc.
    seq (14 * rb_levels (length fm)) 0 G2 G1 ltac:(apply (hb_remove_mut_ok n fm G2 q R2)).
    intros [n' b] G' [Eb R']. cbn [fst snd] in *. subst b.
    destruct (is_some (fm_find borrow (eq_of qcmp) q fm)) eqn:E.
    + apply safe_assoc. seq 0 0 G1 G' ltac:(apply (hb_drop_ok m fm G1 R1)). intros [] G3 ->. apply safe_ret. auto.
    + apply safe_assoc. seq 0 0 G1 G' ltac:(apply (hb_clone_ok m fm G1 R1)).
      intros c G3 (G4 & G5 & -> & R4 & R5). apply safe_assoc.
      seq 0 0 G' (G4 ++ G5) ltac:(apply (hb_drop_ok n' _ G' R')). intros [] G6 ->. apply safe_assoc.
      seq 0 0 G4 G5 ltac:(apply (hb_drop_ok m fm G4 R4)). intros [] G7 ->. apply safe_ret.
      split; [reflexivity|]. cbn [fst app]. now rewrite (remove_absent borrow qcmp fm q E).
  - seq (14 * rb_levels (length fm)) 0 G (@nil own) ltac:(apply (hb_remove_mut_ok m fm G q R)).
    intros [n' b] G' [Eb R']. cbn [fst snd] in *. subst b. apply safe_ret. rewrite app_nil_r. auto.
  - seq (rb_levels (length fm) + 1) 0 G (@nil own) ltac:(apply (hb_get_mut_ok m fm G q f R)).
    intros [n' x] G' [Eb R']. cbn [fst snd] in *. subst x. apply safe_ret. rewrite app_nil_r. auto.
  - apply (Get q (fun o => MoVal (option_map snd o))).
  - apply (Get q (fun o => MoKV o)).
  - apply (Get q (fun o => MoBool (is_some o))).
  - apply safe_ret. cbn [fst snd]. split; [|exact R]. destruct R as (w & (_ & _ & E & _) & Hz & _). congruence.
  - apply safe_ret. cbn [fst snd]. split; [|exact R]. destruct R as (w & (_ & _ & E & _) & Hz & _).
    rewrite Hz, E. now destruct fm.
  - seq 0 0 G (@nil own) ltac:(apply (hb_clone_ok m fm G R)).
    intros c G' (G1 & G2 & -> & R1 & R2).
    seq 0 0 G2 G1 ltac:(apply (hb_drop_ok c fm G2 R2)). intros [] G3 ->. apply safe_ret. auto.
  - assert (R' := R). destruct R' as (w & Rw & Hz & ts & T & ->). destruct (rep_levels _ _ Rw) as [L1 L2]. specialize (L2 _ Hz).
    unfold hb_first. eapply (hfirst_ok _ (rb_root w)); [lia|exact T|apply own_lent|].
    apply safe_ret. rewrite t_first_ok, (rep_by_key w fm Rw). auto.
  - assert (R' := R). destruct R' as (w & Rw & Hz & ts & T & ->). destruct (rep_levels _ _ Rw) as [L1 L2]. specialize (L2 _ Hz).
    unfold hb_last. eapply (hlast_ok _ (rb_root w)); [lia|exact T|apply own_lent|].
    apply safe_ret. rewrite t_last_ok, (rep_by_key w fm Rw). auto.
  - eapply (safe_seq _ _ _ 0 0 _ _ G (@nil own)); [|perm| |lia].
    + eapply looks_safe, (hb_iter_reads ds m fm G R).
    + intros l G' [-> ->]. apply safe_ret. rewrite app_nil_r. auto.
Qed.
End M.
