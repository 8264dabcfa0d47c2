(** Properties of RedBlackTreeMap and RedBlackTreeSet: C21-C27, C30, and the red-black parts
    of C15, C29, C33, C44 and C45. *)
From Coq Require Import List NArith Arith Bool Lia Permutation Sorted.
From Verif Require Import Base Spec SpecMap SpecOrd SpecTrait Sim IterStd HashProofs HashHist HashExtraProofs Prop_Hash
  RBModel RBProofs RBHist RBIter RBExtra RBExtraProofs.
Import ListNotations.

(** The contract of [Borrow]: the borrowed form is ordered like the key. *)
Definition borrow_agrees {K Q} (kcmp : K -> K -> comparison) (borrow : K -> Q) (qcmp : Q -> Q -> comparison) : Prop :=
  forall a b, kcmp a b = qcmp (borrow a) (borrow b).

(** The maps obtained from [new] by some history, with the finite map the history describes. *)
Definition rb_reached {K V Q} (dbg : bool) (kcmp : K -> K -> comparison) (borrow : K -> Q) (qcmp : Q -> Q -> comparison)
  (m : rbmap K V) (fm : fmap K V) : Prop :=
  exists ops outs,
    exec_m (rb_step dbg kcmp borrow qcmp) ops rb_new = Ok (m, outs) /\
    fm = fst (exec_s (map_spec (eq_of kcmp) borrow (eq_of qcmp)) ops []).
Definition rs_reached {T Q} (dbg : bool) (tcmp : T -> T -> comparison) (borrow : T -> Q) (qcmp : Q -> Q -> comparison)
  (m : rset T) (s : list T) : Prop :=
  exists ops outs,
    exec_m (rs_step dbg tcmp borrow qcmp) ops rs_new = Ok (m, outs) /\
    s = fst (exec_s (set_spec (eq_of tcmp) borrow (eq_of qcmp)) ops []).

Lemma rb_reached_rep : forall K V Q dbg kcmp (borrow : K -> Q) qcmp (m : rbmap K V) fm,
  ord_laws qcmp -> borrow_agrees kcmp borrow qcmp ->
  rb_reached dbg kcmp borrow qcmp m fm -> rb_rep kcmp m fm.
Proof.
  intros K V Q dbg kcmp borrow qcmp m fm OL KB (ops & outs & E & ->).
  destruct (rb_history dbg kcmp borrow qcmp OL KB ops) as (m' & E' & H). assert (m' = m) by congruence. now subst m'.
Qed.
Lemma rs_hist : forall T Q dbg tcmp (borrow : T -> Q) qcmp ops, ord_laws qcmp -> borrow_agrees tcmp borrow qcmp ->
  exists m, exec_m (rs_step dbg tcmp borrow qcmp) ops rs_new = Ok (m, snd (exec_s (set_spec (eq_of tcmp) borrow (eq_of qcmp)) ops [])) /\
    rs_rep tcmp m (fst (exec_s (set_spec (eq_of tcmp) borrow (eq_of qcmp)) ops [])).
Proof.
  intros T Q dbg tcmp borrow qcmp ops OL KB.
  exact (sim_exec _ _ _ _ (rs_rep tcmp) _ _ (rs_step_ok dbg tcmp borrow qcmp OL KB) ops rs_new [] (rb_new_ok tcmp)).
Qed.
Lemma rs_reached_rep : forall T Q dbg tcmp (borrow : T -> Q) qcmp (m : rset T) s,
  ord_laws qcmp -> borrow_agrees tcmp borrow qcmp -> rs_reached dbg tcmp borrow qcmp m s -> rs_rep tcmp m s.
Proof.
  intros T Q dbg tcmp borrow qcmp m s OL KB (ops & outs & E & ->).
  destruct (rs_hist T Q dbg tcmp borrow qcmp ops OL KB) as (m' & E' & H). assert (m' = m) by congruence. now subst m'.
Qed.

Lemma SS_perm_unique : forall A (R : A -> A -> Prop), (forall a, ~ R a a) -> (forall a b c, R a b -> R b c -> R a c) ->
  forall l l', StronglySorted R l -> StronglySorted R l' -> Permutation l l' -> l = l'.
Proof.
  intros A R Irr Tr. induction l as [|a l IH]; intros l' Hs Hs' Hp.
  - apply Permutation_nil in Hp. now subst.
  - destruct l' as [|b l']; [symmetry in Hp; now apply Permutation_nil in Hp|].
    inversion Hs as [|? ? Hs1 F1]; subst. inversion Hs' as [|? ? Hs2 F2]; subst. rewrite Forall_forall in F1, F2.
    assert (a = b).
    { assert (Ha : In a (b :: l')) by (eapply Permutation_in; [exact Hp|now left]).
      assert (Hb : In b (a :: l)) by (eapply Permutation_in; [symmetry; exact Hp|now left]).
      destruct Ha as [->|Ha]; [reflexivity|]. destruct Hb as [->|Hb]; [reflexivity|].
      exfalso. apply (Irr a). eapply Tr; [apply (F1 b Hb)|apply (F2 a Ha)]. }
    subst b. f_equal. apply IH; auto. now apply Permutation_cons_inv in Hp.
Qed.
(** The ascending listing of a finite map is unique. *)
Lemma sorted_perm_unique : forall K V (kcmp : K -> K -> comparison) (l l' : list (K * V)), ord_laws kcmp ->
  sorted kcmp l -> sorted kcmp l' -> Permutation l l' -> l = l'.
Proof.
  intros K V kcmp l l' OL. apply SS_perm_unique.
  - intros a E. rewrite (cmp_refl _ OL) in E. discriminate.
  - intros a b c. apply (ol_trans _ OL).
Qed.

(** ** C21 *)
Theorem C21_rb_map_history : forall (K V Q : Type) (dbg : bool)
  (kcmp : K -> K -> comparison) (borrow : K -> Q) (qcmp : Q -> Q -> comparison),
  ord_laws qcmp -> borrow_agrees kcmp borrow qcmp ->
  forall (ops : list (map_op K V Q)), exists m,
    exec_m (rb_step dbg kcmp borrow qcmp) ops rb_new
      = Ok (m, snd (exec_s (map_spec (eq_of kcmp) borrow (eq_of qcmp)) ops [])).
Proof.
  intros K V Q dbg kcmp borrow qcmp OL KB ops.
  destruct (rb_history dbg kcmp borrow qcmp OL KB ops) as (m & E & _). eauto.
Qed.
Print Assumptions C21_rb_map_history.

Theorem C21_rb_map_index : forall (K V Q : Type) (dbg : bool)
  (kcmp : K -> K -> comparison) (borrow : K -> Q) (qcmp : Q -> Q -> comparison),
  ord_laws qcmp -> borrow_agrees kcmp borrow qcmp ->
  forall (m : rbmap K V) (fm : fmap K V), rb_reached dbg kcmp borrow qcmp m fm ->
  unique_keys (eq_of kcmp) fm /\
  forall q, rb_index borrow qcmp m q = match fm_find borrow (eq_of qcmp) q fm with Some x => Ok (snd x) | None => Panic end.
Proof.
  intros K V Q dbg kcmp borrow qcmp OL KB m fm H. apply rb_reached_rep in H; auto. split.
  - eapply rep_unique; eassumption.
  - intros q. unfold rb_index, rb_get. rewrite (rb_get_ok kcmp borrow qcmp OL KB m fm q H). now destruct (fm_find _ _ _ _).
Qed.
Print Assumptions C21_rb_map_index.

(** ** C22 *)
Theorem C22_rb_map_iteration : forall (K V Q : Type) (dbg : bool)
  (kcmp : K -> K -> comparison) (borrow : K -> Q) (qcmp : Q -> Q -> comparison),
  ord_laws qcmp -> borrow_agrees kcmp borrow qcmp ->
  forall (m : rbmap K V) (fm : fmap K V), rb_reached dbg kcmp borrow qcmp m fm ->
  exists l, Permutation l fm /\ sorted kcmp l /\
    (forall ds, runs2 (it_next kcmp) (it_next_back kcmp) it_hint ds (it_new m) = Ok (de_spec ds l)) /\
    rb_keys kcmp m = Ok (map fst l) /\ rb_values kcmp m = Ok (map snd l).
Proof.
  intros K V Q dbg kcmp borrow qcmp OL KB m fm H. apply rb_reached_rep in H; auto.
  pose proof (ord_k kcmp borrow qcmp OL KB) as OK.
  exists (elems (rb_root m)). split; [apply H|]. split; [apply H|]. split.
  - intros ds. eapply sim_runs2; [apply (it_sim2 kcmp OK m); apply H|]. apply it_new_ok. eapply rep_size; eassumption.
  - unfold rb_keys, rb_values. rewrite (rb_entries_ok kcmp OK m); [auto|apply H|eapply rep_size; eassumption].
Qed.
Print Assumptions C22_rb_map_iteration.

(** ** C23 *)
Theorem C23_rb_map_first_last : forall (K V Q : Type) (dbg : bool)
  (kcmp : K -> K -> comparison) (borrow : K -> Q) (qcmp : Q -> Q -> comparison),
  ord_laws qcmp -> borrow_agrees kcmp borrow qcmp ->
  forall (m : rbmap K V) (fm : fmap K V), rb_reached dbg kcmp borrow qcmp m fm ->
  match rb_first m with
  | Some e => In e fm /\ forall x, In x fm -> x = e \/ kcmp (fst e) (fst x) = Lt
  | None => fm = []
  end /\
  match rb_last m with
  | Some e => In e fm /\ forall x, In x fm -> x = e \/ kcmp (fst x) (fst e) = Lt
  | None => fm = []
  end.
Proof.
  intros K V Q dbg kcmp borrow qcmp OL KB m fm H. apply rb_reached_rep in H; auto. destruct H as (Hs & Hp & _).
  unfold rb_first, rb_last. rewrite t_first_ok, t_last_ok.
  assert (Hin : forall x, In x fm <-> In x (elems (rb_root m))).
  { intros x. split; apply Permutation_in; auto using Permutation_sym. }
  assert (Hn : elems (rb_root m) = [] -> fm = []).
  { intros E. rewrite E in Hp. now apply Permutation_nil in Hp. }
  split.
  - destruct (elems (rb_root m)) as [|a l]; cbn [hd_error]; [auto|]. split; [apply Hin; now left|].
    intros x Hx. apply Hin in Hx as [->|Hx]; [now left|]. right. inversion Hs as [|? ? _ F]; subst.
    rewrite Forall_forall in F. auto.
  - remember (elems (rb_root m)) as L eqn:EL. clear EL. destruct L as [|a l _] using rev_ind; [cbn; auto|]. rewrite last_error_app.
    split; [apply Hin; apply in_or_app; right; now left|].
    intros x Hx. apply Hin in Hx. apply in_app_or in Hx as [Hx|[->|[]]]; [right|now left].
    apply SS_app in Hs as (_ & _ & F). apply F; [assumption|now left].
Qed.
Print Assumptions C23_rb_map_first_last.

(** ** C24 *)
(** What a bound says about a key. *)
Definition from_start {Q} (qcmp : Q -> Q -> comparison) (b : bound Q) (k : Q) : Prop :=
  match b with Included s => qcmp s k <> Gt | Excluded s => qcmp s k = Lt | Unbounded => True end.
Definition to_end {Q} (qcmp : Q -> Q -> comparison) (b : bound Q) (k : Q) : Prop :=
  match b with Included e => qcmp k e <> Gt | Excluded e => qcmp k e = Lt | Unbounded => True end.
(** The documented panics. *)
Definition bad_range {Q} (qcmp : Q -> Q -> comparison) (sb eb : bound Q) : Prop :=
  match sb, eb with
  | Excluded s, Excluded e => qcmp s e <> Lt
  | Included s, Included e | Included s, Excluded e | Excluded s, Included e => qcmp s e = Gt
  | _, _ => False
  end.
(** Calls from either end, without size hints, and the state they leave. *)
Fixpoint drive2 {St A : Type} (next next_back : St -> res (option A * St)) (ds : list bool) (s : St) : res (list (option A) * St) :=
  match ds with
  | [] => Ok ([], s)
  | d :: ds' =>
      let! (o, s') := (if d then next_back s else next s) in
      let! (os, s'') := drive2 next next_back ds' s' in
      Ok (o :: os, s'')
  end.
Lemma drive2_ok : forall St A next next_back (I : St -> list A -> Prop),
  (forall s l, I s l -> (exists s', next s = Ok (hd_error l, s') /\ I s' (tl l)) /\
                        (exists s', next_back s = Ok (last_error l, s') /\ I s' (removelast l))) ->
  forall ds s l, I s l -> exists s' l', drive2 next next_back ds s = Ok (map snd (de_spec ds l), s') /\ I s' l'.
Proof.
  intros St A next nb I H. induction ds as [|d ds IH]; intros s l HI; cbn [drive2 de_spec map]; [eauto|].
  destruct (H s l HI) as ((s1 & E1 & H1) & (s2 & E2 & H2)).
  destruct d; rewrite ?E1, ?E2; cbn [bind].
  - destruct (IH s2 _ H2) as (s' & l' & -> & HI'). cbn [bind map snd]. eauto.
  - destruct (IH s1 _ H1) as (s' & l' & -> & HI'). cbn [bind map snd]. eauto.
Qed.

Lemma above_iff : forall Q (qcmp : Q -> Q -> comparison) b k, above qcmp b k = true <-> from_start qcmp b k.
Proof. intros Q qcmp [s|s|] k; cbn; unfold q_le, q_lt; try destruct (qcmp s k); intuition congruence. Qed.
Lemma below_iff : forall Q (qcmp : Q -> Q -> comparison) b k, below qcmp b k = true <-> to_end qcmp b k.
Proof. intros Q qcmp [s|s|] k; cbn; unfold q_le, q_lt; try destruct (qcmp k s); intuition congruence. Qed.

Lemma rb_range_cases : forall K V Q (qcmp : Q -> Q -> comparison) (m : rbmap K V) sb eb, ord_laws qcmp ->
  (rb_range qcmp m sb eb = Panic /\ bad_range qcmp sb eb) \/ (rb_range qcmp m sb eb = Ok (ri_new m sb eb) /\ ~ bad_range qcmp sb eb).
Proof.
  intros K V Q qcmp m sb eb OL. unfold rb_range, bad_range, q_lt, q_eqb.
  destruct sb as [s|s|], eb as [e|e|]; try (right; split; [reflexivity|tauto]);
    rewrite (ol_sym _ OL s e); destruct (qcmp e s) eqn:E; cbn [CompOpp]; try (left; split; [reflexivity|congruence]);
    right; (split; [reflexivity|congruence]).
Qed.

(** [l], the entries the bounds admit in ascending order, is what is left to read. *)
Theorem C24_rb_map_range : forall (K V Q : Type) (dbg : bool)
  (kcmp : K -> K -> comparison) (borrow : K -> Q) (qcmp : Q -> Q -> comparison),
  ord_laws qcmp -> borrow_agrees kcmp borrow qcmp ->
  forall (m : rbmap K V) (fm : fmap K V), rb_reached dbg kcmp borrow qcmp m fm ->
  forall (sb eb : bound Q),
  (bad_range qcmp sb eb -> rb_range qcmp m sb eb = Panic) /\
  (~ bad_range qcmp sb eb -> exists i l,
     rb_range qcmp m sb eb = Ok i /\ sorted kcmp l /\
     (forall x, In x l <-> In x fm /\ from_start qcmp sb (borrow (fst x)) /\ to_end qcmp eb (borrow (fst x))) /\
     forall ds, exists i', drive2 (ri_next kcmp borrow qcmp) (ri_next_back kcmp borrow qcmp) ds i = Ok (map snd (de_spec ds l), i')).
Proof.
  intros K V Q dbg kcmp borrow qcmp OL KB m fm H sb eb. apply rb_reached_rep in H; auto.
  destruct (rb_range_cases K V Q qcmp m sb eb OL) as [(E & Hb)|(E & Hb)]; (split; [intros Hb'|intros Hb']); try contradiction; auto.
  exists (ri_new m sb eb), (filter (inr borrow qcmp sb eb) (elems (rb_root m))). split; [exact E|].
  destruct H as (Hs & Hp & _). split; [now apply SS_filter|]. split.
  - intros x. rewrite filter_In. unfold inr. rewrite andb_true_iff, above_iff, below_iff. split.
    + intros (Hx & Hy). split; [|exact Hy]. eapply Permutation_in; eassumption.
    + intros (Hx & Hy). split; [|exact Hy]. eapply Permutation_in; [symmetry|]; eassumption.
  - intros ds. destruct (drive2_ok _ _ (ri_next kcmp borrow qcmp) (ri_next_back kcmp borrow qcmp) (ri_ok kcmp borrow qcmp sb eb m)) with (ds := ds) (s := ri_new m sb eb) (l := filter (inr borrow qcmp sb eb) (elems (rb_root m))) as (i' & l' & E' & _).
    + intros i l Hi. split; [now apply (ri_next_ok kcmp borrow qcmp OL KB)|now apply (ri_next_back_ok kcmp borrow qcmp OL KB)].
    + apply ri_new_ok.
    + eauto.
Qed.
Print Assumptions C24_rb_map_range.

(** ** C25 *)
(** The colours on a path from the root down to a missing child. *)
Inductive path {K V} : tree K V -> list color -> Prop :=
| path_leaf : path Leaf []
| path_left : forall e c l r p, path l p -> path (Tree e c l r) (c :: p)
| path_right : forall e c l r p, path r p -> path (Tree e c l r) (c :: p).
Definition blacks (p : list color) : nat := length (filter (fun c => match c with Black => true | Red => false end) p).
Fixpoint no_red_red (p : list color) : Prop :=
  match p with
  | Red :: ((Red :: _) as p') => False
  | _ :: p' => no_red_red p'
  | [] => True
  end.

(** Lookup, counting the nodes it visits: the code of [t_get]. *)
Fixpoint t_get_visits {K V Q} (borrow : K -> Q) (qcmp : Q -> Q -> comparison) (t : tree K V) (q : Q) : option (K * V) * nat :=
  match t with
  | Leaf => (None, 0)
  | Tree e c l r =>
      match qcmp q (borrow (fst e)) with
      | Lt => let (o, n) := t_get_visits borrow qcmp l q in (o, S n)
      | Eq => (Some e, 1)
      | Gt => let (o, n) := t_get_visits borrow qcmp r q in (o, S n)
      end
  end.

Lemma path_blacks : forall K V n (t : tree K V), rbt n t -> forall p, path t p -> blacks p = n /\ no_red_red p.
Proof.
  intros K V n t H. induction H as [|n e l r Hl Hr Rl IHl Rr IHr|n e l r Rl IHl Rr IHr]; intros p Hp;
    inversion Hp as [|? ? ? ? p0 Hp0|? ? ? ? p0 Hp0]; subst.
  - now split.
  - destruct (IHl _ Hp0) as [Hb Hn]. split; [exact Hb|]. destruct p0 as [|c p0]; [exact I|].
    inversion Hp0; subst; destruct c; try contradiction; exact Hn.
  - destruct (IHr _ Hp0) as [Hb Hn]. split; [exact Hb|]. destruct p0 as [|c p0]; [exact I|].
    inversion Hp0; subst; destruct c; try contradiction; exact Hn.
  - destruct (IHl _ Hp0) as [Hb Hn]. split; [unfold blacks in *; cbn; now rewrite Hb|exact Hn].
  - destruct (IHr _ Hp0) as [Hb Hn]. split; [unfold blacks in *; cbn; now rewrite Hb|exact Hn].
Qed.
Lemma path_hgt : forall K V (t : tree K V) p, path t p -> length p <= hgt t.
Proof. intros K V t p H. induction H; cbn [length hgt]; lia. Qed.
Lemma visits_hgt : forall K V Q (borrow : K -> Q) qcmp (t : tree K V) q, snd (t_get_visits borrow qcmp t q) <= hgt t.
Proof.
  intros K V Q borrow qcmp t q. induction t as [|e c l IHl r IHr]; cbn [t_get_visits hgt snd]; [lia|].
  destruct (qcmp q (borrow (fst e))).
  - cbn. lia.
  - destruct (t_get_visits borrow qcmp l q). cbn [snd] in *. lia.
  - destruct (t_get_visits borrow qcmp r q). cbn [snd] in *. lia.
Qed.
Lemma visits_get : forall K V Q (borrow : K -> Q) qcmp (t : tree K V) q, fst (t_get_visits borrow qcmp t q) = t_get borrow qcmp t q.
Proof.
  intros K V Q borrow qcmp t q. induction t as [|e c l IHl r IHr]; cbn [t_get_visits t_get fst]; [reflexivity|].
  destruct (qcmp q (borrow (fst e))); [reflexivity| |].
  - destruct (t_get_visits borrow qcmp l q). exact IHl.
  - destruct (t_get_visits borrow qcmp r q). exact IHr.
Qed.

Lemma rep_hgt : forall K V (kcmp : K -> K -> comparison) (m : rbmap K V) fm, rb_rep kcmp m fm ->
  (N.of_nat (hgt (rb_root m)) <= 2 * N.log2 (N.of_nat (length fm) + 1))%N.
Proof.
  intros K V kcmp m fm (Hs & Hp & Hz & (n & Hr) & Hn). pose proof (rbt_size _ _ _ _ Hr) as H1.
  pose proof (rbt_hgt _ _ _ _ Hr) as H2. rewrite (Permutation_length Hp) in H1.
  assert (H3 : hgt (rb_root m) <= 2 * n) by (destruct (rb_root m) as [|? [|] ? ?]; [lia|contradiction|lia]).
  assert (H4 : (N.of_nat n <= N.log2 (N.of_nat (length fm) + 1))%N).
  { apply N.log2_le_pow2; [lia|]. assert (E : N.of_nat (2 ^ n) = (2 ^ N.of_nat n)%N).
    { clear. induction n as [|n IH]; [reflexivity|]. rewrite Nat2N.inj_succ, N.pow_succ_r'. cbn [Nat.pow]. lia. }
    lia. }
  lia.
Qed.

Theorem C25_rb_map_balanced : forall (K V Q : Type) (dbg : bool)
  (kcmp : K -> K -> comparison) (borrow : K -> Q) (qcmp : Q -> Q -> comparison),
  ord_laws qcmp -> borrow_agrees kcmp borrow qcmp ->
  forall (m : rbmap K V) (fm : fmap K V), rb_reached dbg kcmp borrow qcmp m fm ->
  (* a search tree with a black root *)
  sorted kcmp (elems (rb_root m)) /\
  (match rb_root m with Tree _ c _ _ => c = Black | Leaf => True end) /\
  (* no red node has a red child; all paths have the same number of black nodes *)
  (forall p, path (rb_root m) p -> no_red_red p) /\
  (forall p1 p2, path (rb_root m) p1 -> path (rb_root m) p2 -> blacks p1 = blacks p2) /\
  (* logarithmic height and lookup cost *)
  (forall p, path (rb_root m) p -> (N.of_nat (length p) <= 2 * N.log2 (N.of_nat (rb_size m) + 1))%N) /\
  (forall q, rb_get_key_value borrow qcmp m q = fst (t_get_visits borrow qcmp (rb_root m) q) /\
     (N.of_nat (snd (t_get_visits borrow qcmp (rb_root m) q)) <= 2 * N.log2 (N.of_nat (rb_size m) + 1))%N).
Proof.
  intros K V Q dbg kcmp borrow qcmp OL KB m fm H. apply rb_reached_rep in H; auto.
  pose proof (rep_hgt _ _ _ _ _ H) as Hh. pose proof H as (Hs & Hp & Hz & (n & Hr) & Hn). rewrite Hz.
  split; [exact Hs|]. split; [destruct (rb_root m) as [|? [|] ? ?]; [exact I|contradiction|reflexivity]|].
  split; [intros p Hpt; now apply (path_blacks _ _ _ _ Hr)|].
  split; [intros p1 p2 H1 H2; destruct (path_blacks _ _ _ _ Hr p1 H1) as [-> _]; now destruct (path_blacks _ _ _ _ Hr p2 H2) as [-> _]|].
  split.
  - intros p Hpt. apply path_hgt in Hpt. lia.
  - intros q. split; [symmetry; apply visits_get|]. pose proof (visits_hgt _ _ _ borrow qcmp (rb_root m) q). lia.
Qed.
Print Assumptions C25_rb_map_balanced.

(** The capacity given to the iterator stacks, [conservative_height(size) + 1]
    (red_black_tree_map/mod.rs 1163-1184), is computed without overflow and never exceeded,
    by any calls on any range iterator; [ubits] is [usize::BITS]. *)
Theorem C25_rb_map_stack_capacity : forall (K V Q : Type) (ubits : N) (dbg : bool)
  (kcmp : K -> K -> comparison) (borrow : K -> Q) (qcmp : Q -> Q -> comparison),
  ord_laws qcmp -> borrow_agrees kcmp borrow qcmp ->
  forall (m : rbmap K V) (fm : fmap K V), rb_reached dbg kcmp borrow qcmp m fm ->
  (N.of_nat (rb_size m) + 1 < 2 ^ ubits)%N ->
  exists h, conservative_height ubits dbg (N.of_nat (rb_size m)) = Ok h /\
  (h <= 2 * N.log2 (N.of_nat (rb_size m) + 1))%N /\
  forall (sb eb : bound Q) ds os i,
    drive2 (ri_next kcmp borrow qcmp) (ri_next_back kcmp borrow qcmp) ds (ri_new m sb eb) = Ok (os, i) ->
    (forall s, ri_fwd i = Some s -> (N.of_nat (length (s_stack s)) <= h)%N) /\
    (forall s, ri_bwd i = Some s -> (N.of_nat (length (s_stack s)) <= h)%N).
Proof.
  intros K V Q ubits dbg kcmp borrow qcmp OL KB m fm H Hu. apply rb_reached_rep in H; auto.
  pose proof (rep_hgt _ _ _ _ _ H) as Hh. pose proof H as (Hs & Hp & Hz & _). rewrite <- Hz in Hh.
  assert (Hlog : (N.log2 (N.of_nat (rb_size m) + 1) < ubits)%N) by (apply N.log2_lt_pow2; [lia|exact Hu]).
  assert (Hx : (2 * N.log2 (N.of_nat (rb_size m) + 1) < 2 ^ ubits)%N).
  { set (x := N.log2 (N.of_nat (rb_size m) + 1)) in *. pose proof (N.pow_gt_lin_r 2 x ltac:(lia)) as H2.
    assert (H3 : (2 ^ N.succ x <= 2 ^ ubits)%N) by (apply N.pow_le_mono_r; lia). rewrite N.pow_succ_r' in H3. lia. }
  eexists. split; [now apply conservative_ok|]. split; [destruct (0 <? N.of_nat (rb_size m))%N; lia|].
  intros sb eb ds os i E.
  destruct (drive2_ok _ _ (ri_next kcmp borrow qcmp) (ri_next_back kcmp borrow qcmp) (ri_ok kcmp borrow qcmp sb eb m)) with (ds := ds) (s := ri_new m sb eb) (l := filter (inr borrow qcmp sb eb) (elems (rb_root m))) as (i' & l' & E' & Hi).
  - intros j l Hi. split; [now apply (ri_next_ok kcmp borrow qcmp OL KB)|now apply (ri_next_back_ok kcmp borrow qcmp OL KB)].
  - apply ri_new_ok.
  - assert (i' = i) by congruence. subst i'. apply ri_depth in Hi as (H1 & H2).
    assert (Hle : (N.of_nat (hgt (rb_root m)) <= (if (0 <? N.of_nat (rb_size m))%N then 2 * N.log2 (N.of_nat (rb_size m) + 1) else 0))%N).
    { destruct (N.ltb_spec 0 (N.of_nat (rb_size m))) as [Hlt|Hlt]; [exact Hh|].
      replace (N.of_nat (rb_size m)) with 0%N in Hh by lia. exact Hh. }
    split; intros s Es; [specialize (H1 s Es)|specialize (H2 s Es)]; lia.
Qed.
Print Assumptions C25_rb_map_stack_capacity.

(** ** C26 *)
(** Every panic in the model is a panic of the code ([unwrap], [unreachable!], overflow in
    [size], [debug_assert]); none is reached, with or without debug assertions. *)
Theorem C26_rb_map_no_internal_panic : forall (K V Q : Type) (dbg : bool)
  (kcmp : K -> K -> comparison) (borrow : K -> Q) (qcmp : Q -> Q -> comparison),
  ord_laws qcmp -> borrow_agrees kcmp borrow qcmp ->
  forall (m : rbmap K V) (fm : fmap K V), rb_reached dbg kcmp borrow qcmp m fm ->
  (forall (dbg' : bool) (o : map_op K V Q), exists m' out, rb_step dbg' kcmp borrow qcmp o m = Ok (m', out)) /\
  (forall ds, exists os i, drive2 (it_next kcmp) (it_next_back kcmp) ds (it_new m) = Ok (os, i)) /\
  (forall sb eb ds, exists os i,
     drive2 (ri_next kcmp borrow qcmp) (ri_next_back kcmp borrow qcmp) ds (ri_new m sb eb) = Ok (os, i)).
Proof.
  intros K V Q dbg kcmp borrow qcmp OL KB m fm H. apply rb_reached_rep in H; auto.
  pose proof (ord_k kcmp borrow qcmp OL KB) as OK. split; [|split].
  - intros dbg' o. destruct (rb_step_ok dbg' kcmp borrow qcmp OL KB o m fm H) as (m' & E & _). eauto.
  - intros ds. destruct (drive2_ok _ _ (it_next kcmp) (it_next_back kcmp) (it_ok kcmp m)) with (ds := ds) (s := it_new m) (l := elems (rb_root m)) as (i & l & E & _); eauto.
    + intros i l Hi. destruct (it_sim2 kcmp OK m (proj1 H) i l Hi) as (_ & ?). assumption.
    + apply it_new_ok. eapply rep_size; eassumption.
  - intros sb eb ds. destruct (drive2_ok _ _ (ri_next kcmp borrow qcmp) (ri_next_back kcmp borrow qcmp) (ri_ok kcmp borrow qcmp sb eb m)) with (ds := ds) (s := ri_new m sb eb) (l := filter (inr borrow qcmp sb eb) (elems (rb_root m))) as (i & l & E & _); eauto.
    + intros j l Hi. pose proof (proj1 H). split; [now apply (ri_next_ok kcmp borrow qcmp OL KB)|now apply (ri_next_back_ok kcmp borrow qcmp OL KB)].
    + apply ri_new_ok.
Qed.
Print Assumptions C26_rb_map_no_internal_panic.

(** ** C27 *)
(** [same] is the outcome of the pointer comparison: when it is true the roots are the same. *)
Theorem C27_rb_map_equality : forall (K V Q : Type) (dbg : bool)
  (kcmp : K -> K -> comparison) (borrow : K -> Q) (qcmp : Q -> Q -> comparison),
  ord_laws qcmp -> borrow_agrees kcmp borrow qcmp ->
  forall (m1 m2 : rbmap K V) (f1 f2 : fmap K V),
  rb_reached dbg kcmp borrow qcmp m1 f1 -> rb_reached dbg kcmp borrow qcmp m2 f2 ->
  forall (veq : V -> V -> bool) (same : bool),
  (same = true -> rb_root m1 = rb_root m2 /\ forall v, veq v v = true) ->
  exists r, rb_eq kcmp veq same m1 m2 = Ok r /\ (r = true <-> fm_equal (eq_of kcmp) veq f1 f2).
Proof.
  intros K V Q dbg kcmp borrow qcmp OL KB m1 m2 f1 f2 H1 H2 veq same Hs.
  apply rb_reached_rep in H1; auto. apply rb_reached_rep in H2; auto.
  exact (rb_eq_ok kcmp (ord_k kcmp borrow qcmp OL KB) veq same m1 m2 f1 f2 H1 H2 Hs).
Qed.
Print Assumptions C27_rb_map_equality.

(** [l1] and [l2] are the ascending listings of the two maps. *)
Theorem C27_rb_map_ordering : forall (K V Q : Type) (dbg : bool)
  (kcmp : K -> K -> comparison) (borrow : K -> Q) (qcmp : Q -> Q -> comparison) (vcmp : V -> V -> comparison),
  ord_laws qcmp -> borrow_agrees kcmp borrow qcmp -> ord_laws vcmp ->
  ord_laws (lex (pair_cmp kcmp vcmp)) /\
  forall (m1 m2 : rbmap K V) (f1 f2 : fmap K V),
  rb_reached dbg kcmp borrow qcmp m1 f1 -> rb_reached dbg kcmp borrow qcmp m2 f2 ->
  exists c, rb_cmp kcmp vcmp m1 m2 = Ok c /\
    rb_partial_cmp kcmp (fun a b => Some (vcmp a b)) m1 m2 = Ok (Some c) /\
    (c = Eq <-> fm_equal (eq_of kcmp) (eq_of vcmp) f1 f2) /\
    forall l1 l2, sorted kcmp l1 -> Permutation l1 f1 -> sorted kcmp l2 -> Permutation l2 f2 ->
      c = lex (pair_cmp kcmp vcmp) l1 l2.
Proof.
  intros K V Q dbg kcmp borrow qcmp vcmp OL KB VL. pose proof (ord_k kcmp borrow qcmp OL KB) as OK.
  split; [apply lex_laws; now apply pair_laws|]. intros m1 m2 f1 f2 H1 H2.
  apply rb_reached_rep in H1; auto. apply rb_reached_rep in H2; auto.
  eexists. split; [exact (rb_cmp_ok kcmp OK vcmp m1 m2 f1 f2 H1 H2)|]. split; [|split].
  - rewrite (rb_partial_cmp_ok kcmp OK _ m1 m2 f1 f2 H1 H2). f_equal. rewrite <- plex_lex.
    set (l2 := elems (rb_root m2)). generalize (elems (rb_root m1)) as l1. clearbody l2. revert l2.
    intros l2 l1. revert l2. induction l1 as [|a l1 IH]; intros [|b l2]; cbn [plex]; try reflexivity.
    unfold pair_cmp at 1. destruct (kcmp (fst a) (fst b)); [|reflexivity|reflexivity]. destruct (vcmp (snd a) (snd b)); auto.
  - rewrite (rep_equal kcmp OK (eq_of vcmp) m1 m2 f1 f2 H1 H2), lex_eq.
    assert (E : forall l1 l2, seq_equal (eq_of (pair_cmp kcmp vcmp)) l1 l2 <-> seq_equal (ent_eq kcmp (eq_of vcmp)) l1 l2).
    { induction l1 as [|a l1 IH]; intros [|b l2]; cbn [seq_equal]; try tauto. rewrite IH.
      assert (Eh : eq_of (pair_cmp kcmp vcmp) a b = ent_eq kcmp (eq_of vcmp) a b).
      { unfold ent_eq, eq_of, pair_cmp. now destruct (kcmp (fst a) (fst b)). }
      now rewrite Eh. }
    apply E.
  - intros l1 l2 S1 P1 S2 P2.
    assert (E1 : l1 = elems (rb_root m1)) by (apply (sorted_perm_unique _ _ kcmp); auto; [apply H1|rewrite P1; symmetry; apply H1]).
    assert (E2 : l2 = elems (rb_root m2)) by (apply (sorted_perm_unique _ _ kcmp); auto; [apply H2|rewrite P2; symmetry; apply H2]).
    now rewrite E1, E2.
Qed.
Print Assumptions C27_rb_map_ordering.

(** [hk] and [hv] are what hashing a key and a value writes to the hasher. *)
Theorem C27_rb_map_hash : forall (K V Q : Type) (dbg : bool)
  (kcmp : K -> K -> comparison) (borrow : K -> Q) (qcmp : Q -> Q -> comparison),
  ord_laws qcmp -> borrow_agrees kcmp borrow qcmp ->
  forall (veq : V -> V -> bool) (hk : K -> feed) (hv : V -> feed),
  feed_respects (eq_of kcmp) hk -> feed_respects veq hv ->
  forall (m1 m2 : rbmap K V) (f1 f2 : fmap K V),
  rb_reached dbg kcmp borrow qcmp m1 f1 -> rb_reached dbg kcmp borrow qcmp m2 f2 ->
  fm_equal (eq_of kcmp) veq f1 f2 ->
  exists h, rb_hash kcmp hk hv m1 = Ok h /\ rb_hash kcmp hk hv m2 = Ok h.
Proof.
  intros K V Q dbg kcmp borrow qcmp OL KB veq hk hv Hk Hv m1 m2 f1 f2 H1 H2 E.
  pose proof (ord_k kcmp borrow qcmp OL KB) as OK. apply rb_reached_rep in H1; auto. apply rb_reached_rep in H2; auto.
  rewrite (rb_hash_ok kcmp OK hk hv m1 f1 H1), (rb_hash_ok kcmp OK hk hv m2 f2 H2).
  eexists. split; [reflexivity|]. f_equal. symmetry. apply (seq_feed_respects _ (ent_eq kcmp veq)).
  - intros a b Eab. apply andb_true_iff in Eab as [Ea Eb]. now rewrite (Hk _ _ Ea), (Hv _ _ Eb).
  - now apply (rep_equal kcmp OK veq m1 m2 f1 f2 H1 H2).
Qed.
Print Assumptions C27_rb_map_hash.

(** ** C29, for RedBlackTreeMap *)
Theorem C29_rb_map_feed_delimits : forall (K V Q : Type) (dbg : bool)
  (kcmp : K -> K -> comparison) (borrow : K -> Q) (qcmp : Q -> Q -> comparison),
  ord_laws qcmp -> borrow_agrees kcmp borrow qcmp ->
  forall (veq : V -> V -> bool) (hk : K -> feed) (hv : V -> feed),
  feed_delimits (eq_of kcmp) hk -> feed_delimits veq hv ->
  forall (m1 m2 : rbmap K V) (f1 f2 : fmap K V) (h1 h2 r1 r2 : feed),
  rb_reached dbg kcmp borrow qcmp m1 f1 -> rb_reached dbg kcmp borrow qcmp m2 f2 ->
  rb_hash kcmp hk hv m1 = Ok h1 -> rb_hash kcmp hk hv m2 = Ok h2 ->
  h1 ++ r1 = h2 ++ r2 -> fm_equal (eq_of kcmp) veq f1 f2 /\ r1 = r2.
Proof.
  intros K V Q dbg kcmp borrow qcmp OL KB veq hk hv Hk Hv m1 m2 f1 f2 h1 h2 r1 r2 H1 H2 E1 E2 E.
  pose proof (ord_k kcmp borrow qcmp OL KB) as OK. apply rb_reached_rep in H1; auto. apply rb_reached_rep in H2; auto.
  rewrite (rb_hash_ok kcmp OK hk hv m1 f1 H1) in E1. rewrite (rb_hash_ok kcmp OK hk hv m2 f2 H2) in E2.
  injection E1 as <-. injection E2 as <-.
  assert (Hd : feed_delimits (ent_eq kcmp veq) (fun e => hk (fst e) ++ hv (snd e))).
  { intros a b s1 s2 Es. rewrite <- !app_assoc in Es. apply Hk in Es as [Ek Es]. apply Hv in Es as [Ev Es].
    split; [unfold ent_eq; now rewrite Ek, Ev|exact Es]. }
  destruct (seq_feed_delimits _ _ _ Hd _ _ _ _ E) as [Eq ->].
  split; [|reflexivity]. now apply (rep_equal kcmp OK veq m1 m2 f1 f2 H1 H2).
Qed.
Print Assumptions C29_rb_map_feed_delimits.

(** ** C45, for RedBlackTreeMap *)
(** Without sharing, [==] and [partial_cmp] depend on the entries only, for every [PartialEq]
    and [PartialOrd] of the values, and [partial_cmp] is [Some(Equal)] exactly when [==]. *)
Theorem C45_rb_map_unshared_partial_eq : forall (K V Q : Type) (dbg : bool)
  (kcmp : K -> K -> comparison) (borrow : K -> Q) (qcmp : Q -> Q -> comparison),
  ord_laws qcmp -> borrow_agrees kcmp borrow qcmp ->
  forall (veq : V -> V -> bool) (vcmp : V -> V -> option comparison),
  (forall a b, vcmp a b = Some Eq <-> veq a b = true) ->
  forall (m1 m2 : rbmap K V) (f1 f2 : fmap K V),
  rb_reached dbg kcmp borrow qcmp m1 f1 -> rb_reached dbg kcmp borrow qcmp m2 f2 ->
  exists r c, rb_eq kcmp veq false m1 m2 = Ok r /\ rb_partial_cmp kcmp vcmp m1 m2 = Ok c /\
    (r = true <-> fm_equal (eq_of kcmp) veq f1 f2) /\ (c = Some Eq <-> r = true).
Proof.
  intros K V Q dbg kcmp borrow qcmp OL KB veq vcmp Hc m1 m2 f1 f2 H1 H2.
  pose proof (ord_k kcmp borrow qcmp OL KB) as OK. apply rb_reached_rep in H1; auto. apply rb_reached_rep in H2; auto.
  destruct (rb_eq_ok kcmp OK veq false m1 m2 f1 f2 H1 H2 ltac:(discriminate)) as (r & Er & Hr).
  exists r. eexists. split; [exact Er|]. split; [exact (rb_partial_cmp_ok kcmp OK vcmp m1 m2 f1 f2 H1 H2)|].
  split; [exact Hr|]. rewrite Hr, (rep_equal kcmp OK veq m1 m2 f1 f2 H1 H2).
  generalize (elems (rb_root m2)) as l2. generalize (elems (rb_root m1)) as l1. clear - Hc.
  induction l1 as [|a l1 IH]; intros [|b l2]; cbn [plex seq_equal]; try (split; [discriminate|tauto]); [tauto|].
  rewrite <- IH. unfold ent_eq, eq_of. specialize (Hc (snd a) (snd b)). destruct (kcmp (fst a) (fst b)).
  - cbn [andb]. rewrite <- Hc. destruct (vcmp (snd a) (snd b)) as [[| |]|]; intuition congruence.
  - split; [discriminate|]. intros [? _]. discriminate.
  - split; [discriminate|]. intros [? _]. discriminate.
Qed.
Print Assumptions C45_rb_map_unshared_partial_eq.

(** With sharing the claim is false: the shortcut makes a map equal to itself though a value
    is not, while [partial_cmp] says incomparable. *)
Theorem C45_rb_map_sharing_visible_refuted : forall (dbg : bool),
  exists (m : rbmap N N) (fm : fmap N N) (veq : N -> N -> bool) (vcmp : N -> N -> option comparison),
    rb_reached dbg N.compare (fun k => k) N.compare m fm /\
    (forall a b, vcmp a b = Some Eq <-> veq a b = true) /\
    rb_eq N.compare veq true m m = Ok true /\ rb_eq N.compare veq false m m = Ok false /\
    rb_partial_cmp N.compare vcmp m m = Ok None.
Proof.
  intros dbg. exists (mkRB (Tree (1, 7)%N Black Leaf Leaf) 1), [(1, 7)%N], (fun _ _ => false), (fun _ _ => None).
  split; [exists [MInsert 1%N 7%N], [MoUnit]; split; reflexivity|].
  split; [split; discriminate|]. repeat split.
Qed.
Print Assumptions C45_rb_map_sharing_visible_refuted.

(** The exact answer of [==], shared or not. *)
Theorem C45_rb_map_partial_eq : forall (K V Q : Type) (dbg : bool)
  (kcmp : K -> K -> comparison) (borrow : K -> Q) (qcmp : Q -> Q -> comparison),
  ord_laws qcmp -> borrow_agrees kcmp borrow qcmp ->
  forall (m1 m2 : rbmap K V) (f1 f2 : fmap K V),
  rb_reached dbg kcmp borrow qcmp m1 f1 -> rb_reached dbg kcmp borrow qcmp m2 f2 ->
  forall (veq : V -> V -> bool) (same : bool),
  exists r, rb_eq kcmp veq same m1 m2 = Ok r /\ (r = true <-> same = true \/ fm_equal (eq_of kcmp) veq f1 f2).
Proof.
  intros K V Q dbg kcmp borrow qcmp OL KB m1 m2 f1 f2 H1 H2 veq same.
  destruct same; [exists true; split; [reflexivity|tauto]|].
  destruct (C27_rb_map_equality K V Q dbg kcmp borrow qcmp OL KB m1 m2 f1 f2 H1 H2 veq false ltac:(discriminate)) as (r & E & Hr).
  exists r. split; [exact E|]. rewrite Hr. intuition discriminate.
Qed.
Print Assumptions C45_rb_map_partial_eq.

(** Whenever some stored value is not equal to itself, [==] depends on sharing and a map is
    equal to its clone without comparing equal to it. *)
Theorem C45_rb_map_non_reflexive_refuted : forall (K V Q : Type) (dbg : bool)
  (kcmp : K -> K -> comparison) (borrow : K -> Q) (qcmp : Q -> Q -> comparison),
  ord_laws qcmp -> borrow_agrees kcmp borrow qcmp ->
  forall (m : rbmap K V) (fm : fmap K V), rb_reached dbg kcmp borrow qcmp m fm ->
  forall (veq : V -> V -> bool) (vcmp : V -> V -> option comparison),
  (forall a b, vcmp a b = Some Eq <-> veq a b = true) ->
  forall x, In x fm -> veq (snd x) (snd x) = false ->
  rb_eq kcmp veq true m m = Ok true /\ rb_eq kcmp veq false m m = Ok false /\
  exists c, rb_partial_cmp kcmp vcmp m m = Ok c /\ c <> Some Eq.
Proof.
  intros K V Q dbg kcmp borrow qcmp OL KB m fm H veq vcmp Hc x Hx Hv. split; [reflexivity|].
  destruct (C45_rb_map_unshared_partial_eq K V Q dbg kcmp borrow qcmp OL KB veq vcmp Hc m m fm fm H H) as (r & c & -> & Ec & Hr & Hcr).
  pose proof (kl_of kcmp borrow qcmp OL KB) as KL.
  assert (Hne : ~ fm_equal (eq_of kcmp) veq fm fm).
  { apply rb_reached_rep in H; auto. eapply (fm_equal_self K V _ _ fm x (kl_refl _ _ _ (key_laws_id _ _ _ KL)) (kl_sym _ _ _ (key_laws_id _ _ _ KL))); eauto.
    exact (rep_unique kcmp borrow qcmp OL KB m fm H). }
  assert (r = false) by (destruct r; [exfalso; apply Hne, Hr; reflexivity|reflexivity]). subst r.
  split; [reflexivity|]. exists c. split; [exact Ec|]. intros ->. destruct Hcr as [Hcr _]. discriminate (Hcr eq_refl).
Qed.
Print Assumptions C45_rb_map_non_reflexive_refuted.

(** ** C15 *)
Theorem C15_rb_map_insert_replaces : forall (K V Q : Type) (dbg : bool)
  (kcmp : K -> K -> comparison) (borrow : K -> Q) (qcmp : Q -> Q -> comparison),
  ord_laws qcmp -> borrow_agrees kcmp borrow qcmp ->
  forall (m : rbmap K V) (fm : fmap K V), rb_reached dbg kcmp borrow qcmp m fm ->
  forall (k : K) (v : V), exists m', rb_insert kcmp m k v = Ok m' /\
    (forall q, qcmp (borrow k) q = Eq -> rb_get_key_value borrow qcmp m' q = Some (k, v)) /\
    (forall q, qcmp (borrow k) q <> Eq -> rb_get_key_value borrow qcmp m' q = rb_get_key_value borrow qcmp m q) /\
    rb_size m' = rb_size m + (if rb_contains_key borrow qcmp m (borrow k) then 0 else 1).
Proof.
  intros K V Q dbg kcmp borrow qcmp OL KB m fm H k v. apply rb_reached_rep in H; auto.
  pose proof (kl_of kcmp borrow qcmp OL KB) as KL.
  destruct (rb_insert_ok kcmp borrow qcmp OL KB m fm k v H) as (m' & E & H').
  exists m'. split; [exact E|].
  pose proof (rep_unique kcmp borrow qcmp OL KB m fm H) as U. unfold rb_get_key_value.
  split; [|split].
  - intros q Hq. rewrite (rb_get_ok kcmp borrow qcmp OL KB m' _ q H'). unfold fm_find, fm_insert. cbn [find fst]. unfold eq_of at 1. now rewrite Hq.
  - intros q Hq. rewrite (rb_get_ok kcmp borrow qcmp OL KB m' _ q H'), (rb_get_ok kcmp borrow qcmp OL KB m _ q H).
    assert (Hq' : eq_of qcmp (borrow k) q = false) by (unfold eq_of; destruct (qcmp (borrow k) q); congruence).
    unfold fm_find, fm_insert. cbn [find fst]. rewrite Hq'.
    clear - KL Hq'. induction fm as [|a fm IH]; [reflexivity|]. cbn [filter].
    destruct (eq_of kcmp (fst a) k) eqn:Ea; cbn [negb find].
    + rewrite (keq_qeq (eq_of kcmp) borrow (eq_of qcmp) KL _ _ q Ea), Hq'. exact IH.
    + destruct (eq_of qcmp (borrow (fst a)) q); [reflexivity|exact IH].
  - unfold rb_contains_key, rb_get. rewrite is_some_map, (rb_get_ok kcmp borrow qcmp OL KB m fm (borrow k) H).
    destruct H as (_ & _ & -> & _), H' as (_ & _ & -> & _). unfold fm_insert. cbn [length].
    rewrite (filter_len_uniq (fun x => eq_of kcmp (fst x) k)) by (exact (unique_uniq_key (eq_of kcmp) borrow (eq_of qcmp) KL fm k U)).
    assert (Ef : find (fun x => eq_of kcmp (fst x) k) fm = fm_find borrow (eq_of qcmp) (borrow k) fm).
    { unfold fm_find. apply find_ext_in. intros x _. apply (kl_borrow _ _ _ KL). }
    rewrite Ef. destruct (fm_find borrow (eq_of qcmp) (borrow k) fm) as [e|] eqn:Eo; cbn [is_some]; [|lia].
    unfold fm_find in Eo. destruct fm; [discriminate|]. cbn [length]. lia.
Qed.
Print Assumptions C15_rb_map_insert_replaces.

(** ** C33 *)
Theorem C33_rb_map_from_iter : forall (K V Q : Type)
  (kcmp : K -> K -> comparison) (borrow : K -> Q) (qcmp : Q -> Q -> comparison),
  ord_laws qcmp -> borrow_agrees kcmp borrow qcmp ->
  forall (kvs : list (K * V)), exists m, rb_from_iter kcmp kvs = Ok m /\
    forall q, rb_get_key_value borrow qcmp m q = find (fun x => eq_of qcmp (borrow (fst x)) q) (rev kvs).
Proof.
  intros K V Q kcmp borrow qcmp OL KB kvs.
  destruct (rb_extend_ok kcmp borrow qcmp OL KB kvs rb_new [] (rb_new_ok kcmp)) as (m & E & H).
  exists m. split; [exact E|]. intros q. unfold rb_get_key_value. rewrite (rb_get_ok kcmp borrow qcmp OL KB m _ q H).
  rewrite (fold_insert_find K V Q (eq_of kcmp) borrow (eq_of qcmp) (kl_of kcmp borrow qcmp OL KB)).
  now destruct (find _ (rev kvs)).
Qed.
Print Assumptions C33_rb_map_from_iter.

(** ** C44 *)
Theorem C44_rb_map_get_mut : forall (K V Q : Type) (dbg : bool)
  (kcmp : K -> K -> comparison) (borrow : K -> Q) (qcmp : Q -> Q -> comparison),
  ord_laws qcmp -> borrow_agrees kcmp borrow qcmp ->
  forall (m : rbmap K V) (fm : fmap K V), rb_reached dbg kcmp borrow qcmp m fm ->
  forall (q : Q) (f : V -> V), exists m',
    rb_get_mut borrow qcmp m q f = (m', rb_get borrow qcmp m q) /\
    rb_size m' = rb_size m /\
    forall p, rb_get_key_value borrow qcmp m' p =
      if eq_of qcmp p q then option_map (fun kv => (fst kv, f (snd kv))) (rb_get_key_value borrow qcmp m p)
      else rb_get_key_value borrow qcmp m p.
Proof.
  intros K V Q dbg kcmp borrow qcmp OL KB m fm H q f. apply rb_reached_rep in H; auto.
  pose proof (kl_of kcmp borrow qcmp OL KB) as KL.
  destruct (rb_get_mut_ok kcmp borrow qcmp OL KB m fm q f H) as (m' & E & H').
  exists m'. split; [rewrite E; unfold rb_get; now rewrite (rb_get_ok kcmp borrow qcmp OL KB m fm q H)|]. split.
  { destruct H as (_ & _ & -> & _), H' as (_ & _ & -> & _). unfold fm_modify. apply map_length. }
  intros p. unfold rb_get_key_value. rewrite (rb_get_ok kcmp borrow qcmp OL KB m' _ p H'), (rb_get_ok kcmp borrow qcmp OL KB m _ p H).
  unfold fm_find, fm_modify. clear - KL. induction fm as [|a fm IH]; cbn [map find]; [now destruct (eq_of qcmp p q)|].
  destruct (eq_of qcmp (borrow (fst a)) q) eqn:Ea; cbn [fst].
  - destruct (eq_of qcmp (borrow (fst a)) p) eqn:Ep; [|exact IH].
    assert (Hpq : eq_of qcmp p q = true) by (apply (kl_trans _ _ _ KL p (borrow (fst a)) q); [now apply (kl_sym _ _ _ KL)|assumption]).
    rewrite Hpq. reflexivity.
  - destruct (eq_of qcmp (borrow (fst a)) p) eqn:Ep; [|exact IH].
    destruct (eq_of qcmp p q) eqn:Hpq; [|reflexivity].
    pose proof (kl_trans _ _ _ KL _ _ _ Ep Hpq). congruence.
Qed.
Print Assumptions C44_rb_map_get_mut.

(** ** C30 *)
Theorem C30_rb_set_history : forall (T Q : Type) (dbg : bool)
  (tcmp : T -> T -> comparison) (borrow : T -> Q) (qcmp : Q -> Q -> comparison),
  ord_laws qcmp -> borrow_agrees tcmp borrow qcmp ->
  forall (ops : list (set_op T Q)), exists m l,
    exec_m (rs_step dbg tcmp borrow qcmp) ops rs_new
      = Ok (m, snd (exec_s (set_spec (eq_of tcmp) borrow (eq_of qcmp)) ops [])) /\
    (* double-ended iteration, ascending, each element once *)
    Permutation l (fst (exec_s (set_spec (eq_of tcmp) borrow (eq_of qcmp)) ops [])) /\
    StronglySorted (fun a b => tcmp a b = Lt) l /\
    (forall ds, runs2 (si_next tcmp) (si_next_back tcmp) it_hint ds (it_new m) = Ok (de_spec ds l)) /\
    rs_first m = hd_error l /\ rs_last m = last_error l.
Proof.
  intros T Q dbg tcmp borrow qcmp OL KB ops. destruct (rs_hist T Q dbg tcmp borrow qcmp ops OL KB) as (m & E & H).
  pose proof (ord_k tcmp borrow qcmp OL KB) as OK. exists m, (elts m). split; [exact E|].
  split; [exact (elts_perm tcmp OK m _ H)|]. split; [exact (elts_sorted tcmp OK m _ H)|]. split.
  - intros ds. eapply sim_runs2; [apply (si_sim2 tcmp OK m); apply H|]. exact (si_new_ok tcmp OK m _ H).
  - unfold rs_first, rs_last, rb_first, rb_last, elts. now rewrite t_first_ok, t_last_ok, hd_map, last_map.
Qed.
Print Assumptions C30_rb_set_history.

Theorem C30_rb_set_relations : forall (T Q : Type) (dbg : bool)
  (tcmp : T -> T -> comparison) (borrow : T -> Q) (qcmp : Q -> Q -> comparison),
  ord_laws qcmp -> borrow_agrees tcmp borrow qcmp ->
  forall (m1 m2 : rset T) (s1 s2 : list T),
  rs_reached dbg tcmp borrow qcmp m1 s1 -> rs_reached dbg tcmp borrow qcmp m2 s2 ->
  forall same, (same = true -> rb_root m1 = rb_root m2) ->
  (exists r, rs_is_subset tcmp same m1 m2 = Ok r /\ (r = true <-> subset (eq_of tcmp) s1 s2)) /\
  (exists r, rs_is_superset tcmp same m1 m2 = Ok r /\ (r = true <-> subset (eq_of tcmp) s2 s1)) /\
  (exists r, rs_is_disjoint tcmp m1 m2 = Ok r /\ (r = true <-> disjoint (eq_of tcmp) s1 s2)) /\
  (exists r, rs_eq tcmp same m1 m2 = Ok r /\ (r = true <-> set_equal (eq_of tcmp) s1 s2)) /\
  (forall x, rs_contains borrow qcmp m1 (borrow x) = true <-> has (eq_of tcmp) s1 x).
Proof.
  intros T Q dbg tcmp borrow qcmp OL KB m1 m2 s1 s2 H1 H2 same Hs.
  pose proof (ord_k tcmp borrow qcmp OL KB) as OK.
  apply rs_reached_rep in H1; auto. apply rs_reached_rep in H2; auto.
  split; [|split; [|split; [|split]]].
  - now apply (rs_is_subset_ok tcmp OK same).
  - apply (rs_is_subset_ok tcmp OK same); auto. intros E. symmetry. auto.
  - now apply (rs_is_disjoint_ok tcmp OK).
  - now apply (rs_eq_ok tcmp OK same).
  - intros x. rewrite (has_find (eq_of tcmp) (KLt tcmp OK)). unfold rs_contains, rb_contains_key, rb_get.
    rewrite is_some_map, (rb_get_ok tcmp borrow qcmp OL KB m1 _ (borrow x) H1). unfold fm_find.
    rewrite (find_ut (fun t => eq_of qcmp (borrow t) (borrow x)) s1), is_some_map.
    rewrite (find_ext_in _ (fun t => eq_of qcmp (borrow t) (borrow x)) (fun t => eq_of tcmp t x) s1); [reflexivity|].
    intros t _. unfold eq_of. now rewrite KB.
Qed.
Print Assumptions C30_rb_set_relations.

Theorem C30_rb_set_range : forall (T Q : Type) (dbg : bool)
  (tcmp : T -> T -> comparison) (borrow : T -> Q) (qcmp : Q -> Q -> comparison),
  ord_laws qcmp -> borrow_agrees tcmp borrow qcmp ->
  forall (m : rset T) (s : list T), rs_reached dbg tcmp borrow qcmp m s ->
  forall (sb eb : bound Q),
  (bad_range qcmp sb eb -> rs_range qcmp m sb eb = Panic) /\
  (~ bad_range qcmp sb eb -> exists i l,
     rs_range qcmp m sb eb = Ok i /\ StronglySorted (fun a b => tcmp a b = Lt) l /\
     (forall x, In x l <-> In x s /\ from_start qcmp sb (borrow x) /\ to_end qcmp eb (borrow x)) /\
     forall ds, exists i', drive2 (sr_next tcmp borrow qcmp) (sr_next_back tcmp borrow qcmp) ds i = Ok (map snd (de_spec ds l), i')).
Proof.
  intros T Q dbg tcmp borrow qcmp OL KB m s H sb eb. apply rs_reached_rep in H; auto.
  pose proof (ord_k tcmp borrow qcmp OL KB) as OK. unfold rs_range.
  destruct (rb_range_cases T unit Q qcmp m sb eb OL) as [(E & Hb)|(E & Hb)]; (split; [intros Hb'|intros Hb']); try contradiction; auto.
  set (p := fun t => above qcmp sb (borrow t) && below qcmp eb (borrow t)).
  assert (Ef : map fst (filter (inr borrow qcmp sb eb) (elems (rb_root m))) = filter p (elts m)).
  { unfold elts. generalize (elems (rb_root m)) as l. induction l as [|a l IH]; [reflexivity|]. cbn [filter map].
    unfold inr at 1, p at 1. destruct (_ && _); cbn [map]; now rewrite IH. }
  exists (ri_new m sb eb), (filter p (elts m)). split; [exact E|].
  split; [apply SS_filter; exact (elts_sorted tcmp OK m s H)|]. split.
  - intros x. rewrite filter_In. unfold p. rewrite andb_true_iff, above_iff, below_iff.
    pose proof (elts_perm tcmp OK m s H) as Hp. split.
    + intros (Hx & Hy). split; [|exact Hy]. eapply Permutation_in; eassumption.
    + intros (Hx & Hy). split; [|exact Hy]. eapply Permutation_in; [symmetry|]; eassumption.
  - intros ds. destruct (drive2_ok _ _ (sr_next tcmp borrow qcmp) (sr_next_back tcmp borrow qcmp)
      (fun i L => exists X, L = map fst X /\ ri_ok tcmp borrow qcmp sb eb m i X)) with (ds := ds) (s := ri_new m sb eb) (l := filter p (elts m)) as (i' & l' & E' & _).
    + intros i L (X & -> & Hi). pose proof (proj1 H) as Hs. unfold sr_next, sr_next_back. split.
      * destruct (ri_next_ok tcmp borrow qcmp OL KB sb eb m i X Hs Hi) as (i' & -> & Hi'). cbn [bind]. rewrite hd_map, tl_map. eauto.
      * destruct (ri_next_back_ok tcmp borrow qcmp OL KB sb eb m i X Hs Hi) as (i' & -> & Hi'). cbn [bind]. rewrite last_map, removelast_map. eauto.
    + exists (filter (inr borrow qcmp sb eb) (elems (rb_root m))). split; [now symmetry|apply ri_new_ok].
    + eauto.
Qed.
Print Assumptions C30_rb_set_range.

(** ** C27, for sets: the order and the hash of the ascending listing *)
Theorem C27_rb_set_ordering_hash : forall (T Q : Type) (dbg : bool)
  (tcmp : T -> T -> comparison) (borrow : T -> Q) (qcmp : Q -> Q -> comparison),
  ord_laws qcmp -> borrow_agrees tcmp borrow qcmp ->
  ord_laws (lex tcmp) /\
  forall (m1 m2 : rset T) (s1 s2 : list T),
  rs_reached dbg tcmp borrow qcmp m1 s1 -> rs_reached dbg tcmp borrow qcmp m2 s2 ->
  (exists c, rs_cmp tcmp m1 m2 = Ok c /\ rs_partial_cmp tcmp m1 m2 = Ok (Some c) /\
    (c = Eq <-> set_equal (eq_of tcmp) s1 s2) /\
    forall l1 l2, StronglySorted (fun a b => tcmp a b = Lt) l1 -> Permutation l1 s1 ->
                  StronglySorted (fun a b => tcmp a b = Lt) l2 -> Permutation l2 s2 -> c = lex tcmp l1 l2) /\
  (forall h : T -> feed, feed_respects (eq_of tcmp) h -> set_equal (eq_of tcmp) s1 s2 ->
     exists x, rs_hash tcmp h m1 = Ok x /\ rs_hash tcmp h m2 = Ok x) /\
  (forall (h : T -> feed) x1 x2 r1 r2, feed_delimits (eq_of tcmp) h ->
     rs_hash tcmp h m1 = Ok x1 -> rs_hash tcmp h m2 = Ok x2 -> x1 ++ r1 = x2 ++ r2 ->
     set_equal (eq_of tcmp) s1 s2 /\ r1 = r2).
Proof.
  intros T Q dbg tcmp borrow qcmp OL KB. pose proof (ord_k tcmp borrow qcmp OL KB) as OK.
  split; [now apply lex_laws|]. intros m1 m2 s1 s2 H1 H2.
  apply rs_reached_rep in H1; auto. apply rs_reached_rep in H2; auto.
  pose proof (rep_sorted _ _ _ H1) as S1. pose proof (rep_sorted _ _ _ H2) as S2.
  assert (Hlen : length (elts m1) < S (rs_size m1)) by (rewrite (elts_size tcmp OK m1 s1 H1); lia).
  assert (Ec : rs_cmp tcmp m1 m2 = Ok (lex tcmp (elts m1) (elts m2))).
  { unfold rs_cmp. eapply (iter_cmp_lex _ _ _ _ _ (si_ok tcmp m1) (si_ok tcmp m2)); [now apply si_sim0|now apply si_sim0| | |exact Hlen];
      eapply (si_new_ok tcmp OK); eassumption. }
  assert (Eq1 : seq_equal (eq_of tcmp) (elts m1) (elts m2) <-> set_equal (eq_of tcmp) s1 s2).
  { rewrite (set_equal_fm (eq_of tcmp) (KLt tcmp OK)), (rep_equal tcmp OK (fun _ _ => true) m1 m2 _ _ H1 H2). unfold elts.
    generalize (elems (rb_root m2)) as l2. generalize (elems (rb_root m1)) as l1.
    induction l1 as [|a l1 IH]; intros [|b l2]; cbn [map seq_equal]; try tauto. rewrite IH. unfold ent_eq. now rewrite andb_true_r. }
  assert (Eh : forall h m s, rs_rep tcmp m s -> rs_hash tcmp h m = Ok (seq_feed h (elts m))).
  { intros h m s H. unfold rs_hash. rewrite (rs_elems_ok tcmp OK m s H). cbn [bind]. unfold seq_feed. now rewrite (elts_size tcmp OK m s H). }
  split; [|split].
  - eexists. split; [exact Ec|]. split; [|split].
    + unfold rs_partial_cmp. rewrite (iter_partial_cmp_ok _ _ (si_ok tcmp m1) (si_ok tcmp m2)) with (l1 := elts m1) (l2 := elts m2);
        [now rewrite plex_lex|now apply si_sim0|now apply si_sim0| | |exact Hlen]; eapply (si_new_ok tcmp OK); eassumption.
    + now rewrite lex_eq.
    + intros l1 l2 L1 P1 L2 P2.
      assert (U : forall l m s, rs_rep tcmp m s -> StronglySorted (fun a b => tcmp a b = Lt) l -> Permutation l s -> l = elts m).
      { intros l m s H L P. apply (SS_perm_unique _ (fun a b => tcmp a b = Lt)).
        - intros a E. rewrite (cmp_refl _ OK) in E. discriminate.
        - intros a b c. apply (ol_trans _ OK).
        - exact L.
        - exact (elts_sorted tcmp OK m s H).
        - rewrite P. symmetry. exact (elts_perm tcmp OK m s H). }
      now rewrite (U l1 m1 s1 H1 L1 P1), (U l2 m2 s2 H2 L2 P2).
  - intros h Hh Heq. rewrite (Eh h m1 s1 H1), (Eh h m2 s2 H2). eexists. split; [reflexivity|]. f_equal. symmetry.
    apply (seq_feed_respects _ (eq_of tcmp)); [assumption|]. now apply Eq1.
  - intros h x1 x2 r1 r2 Hd E1 E2 E. rewrite (Eh h m1 s1 H1) in E1. rewrite (Eh h m2 s2 H2) in E2.
    injection E1 as <-. injection E2 as <-. destruct (seq_feed_delimits _ _ _ Hd _ _ _ _ E) as [Es ->].
    split; [now apply Eq1|reflexivity].
Qed.
Print Assumptions C27_rb_set_ordering_hash.

(** ** C15 and C33, for sets *)
Theorem C15_rb_set_insert_replaces : forall (T Q : Type) (dbg : bool)
  (tcmp : T -> T -> comparison) (borrow : T -> Q) (qcmp : Q -> Q -> comparison),
  ord_laws qcmp -> borrow_agrees tcmp borrow qcmp ->
  forall (m : rset T) (s : list T), rs_reached dbg tcmp borrow qcmp m s ->
  forall (t : T), exists m', rs_insert tcmp m t = Ok m' /\
    (forall q, qcmp (borrow t) q = Eq -> rs_get borrow qcmp m' q = Some t) /\
    (forall q, qcmp (borrow t) q <> Eq -> rs_get borrow qcmp m' q = rs_get borrow qcmp m q).
Proof.
  intros T Q dbg tcmp borrow qcmp OL KB m s H t. apply rs_reached_rep in H; auto.
  pose proof (kl_of tcmp borrow qcmp OL KB) as KL.
  destruct (rb_insert_ok tcmp borrow qcmp OL KB m (map ut s) t tt H) as (m' & E & H').
  exists m'. split; [exact E|]. unfold rs_get, rb_get_key_value. split.
  - intros q Hq. rewrite (rb_get_ok tcmp borrow qcmp OL KB m' _ q H'). unfold fm_find, fm_insert. cbn [find fst].
    unfold eq_of at 1. now rewrite Hq.
  - intros q Hq. rewrite (rb_get_ok tcmp borrow qcmp OL KB m' _ q H'), (rb_get_ok tcmp borrow qcmp OL KB m _ q H). f_equal.
    assert (Hq' : eq_of qcmp (borrow t) q = false) by (unfold eq_of; destruct (qcmp (borrow t) q); congruence).
    unfold fm_find, fm_insert. cbn [find fst]. rewrite Hq'. generalize (map ut s) as fm.
    induction fm as [|a fm IH]; [reflexivity|]. cbn [filter].
    destruct (eq_of tcmp (fst a) t) eqn:Ea; cbn [negb find].
    + rewrite (keq_qeq (eq_of tcmp) borrow (eq_of qcmp) KL _ _ q Ea), Hq'. exact IH.
    + destruct (eq_of qcmp (borrow (fst a)) q); [reflexivity|exact IH].
Qed.
Print Assumptions C15_rb_set_insert_replaces.

Theorem C33_rb_set_from_iter : forall (T Q : Type)
  (tcmp : T -> T -> comparison) (borrow : T -> Q) (qcmp : Q -> Q -> comparison),
  ord_laws qcmp -> borrow_agrees tcmp borrow qcmp ->
  forall (ts : list T), exists m, rs_from_iter tcmp ts = Ok m /\
    forall q, rs_get borrow qcmp m q = find (fun x => eq_of qcmp (borrow x) q) (rev ts).
Proof.
  intros T Q tcmp borrow qcmp OL KB ts.
  assert (E : forall ts m, rs_extend tcmp m ts = rb_extend tcmp m (map ut ts)).
  { induction ts0 as [|t ts0 IH]; intros m; [reflexivity|]. cbn [rs_extend rb_extend map]. unfold rs_insert_mut.
    cbn [ut fst snd]. destruct (rb_insert_mut tcmp m t tt); cbn [bind]; auto. }
  destruct (C33_rb_map_from_iter T unit Q tcmp borrow qcmp OL KB (map ut ts)) as (m & Em & Hg).
  exists m. unfold rs_from_iter. rewrite E. split; [exact Em|]. intros q. unfold rs_get. rewrite Hg, <- map_rev.
  rewrite (find_ut (fun t => eq_of qcmp (borrow t) q)). now destruct (find _ (rev ts)).
Qed.
Print Assumptions C33_rb_set_from_iter.

(** ** Concrete cases: keys that compare equal without being identical, found through a view *)
Definition ex_cmp (a b : N * N) : comparison := N.compare (fst a) (fst b).
Example ex_ord_laws : ord_laws N.compare.
Proof.
  constructor.
  - intros a b. apply N.compare_antisym.
  - intros a b c H1 H2. rewrite N.compare_lt_iff in *. lia.
  - intros a b c H. apply N.compare_eq in H. now subst.
Qed.
Example ex_borrow_agrees : borrow_agrees ex_cmp fst N.compare.
Proof. intros a b. reflexivity. Qed.
Example ex_borrow_id : borrow_agrees N.compare (fun k => k) N.compare.
Proof. intros a b. reflexivity. Qed.

Definition ex_rb_ops : list (map_op (N * N) N N) :=
  [MInsert (2, 0) 10; MInsert (3, 0) 11; MInsert (9, 0) 12; MInsert (1, 0) 5; MInsert (7, 0) 6; MInsert (2, 1) 13;
   MGetKeyValue 2; MSize; MRemoveMut 3; MRemoveMut 3; MGetMut 9 (N.add 1); MGet 9; MContains 3; MSize]%N.
Example C21_example : exists m,
  exec_m (rb_step true ex_cmp fst N.compare) ex_rb_ops rb_new = Ok (m,
    [MoUnit; MoUnit; MoUnit; MoUnit; MoUnit; MoUnit; MoKV (Some ((2, 1), 13)); MoNat 5;
     MoBool true; MoBool false; MoVal (Some 12); MoVal (Some 13); MoBool false; MoNat 4]%N).
Proof. eexists. vm_compute. reflexivity. Qed.

(** A reachable map, as the hypotheses of C22-C26 ask, with a range and both ends consumed. *)
Definition ex_rb : rbmap (N * N) N :=
  match exec_m (rb_step true ex_cmp fst N.compare) ex_rb_ops rb_new with Ok p => fst p | _ => rb_new end.
Example C22_C26_example :
  (exists fm, rb_reached true ex_cmp fst N.compare ex_rb fm) /\
  runs2 (it_next ex_cmp) (it_next_back ex_cmp) it_hint [false; true; true; false; false] (it_new ex_rb)
    = Ok [(4, Some (1, 0, 5)%N); (3, Some (9, 0, 13)%N); (2, Some (7, 0, 6)%N); (1, Some (2, 1, 13)%N); (0, None)] /\
  rb_first ex_rb = Some (1, 0, 5)%N /\ rb_last ex_rb = Some (9, 0, 13)%N /\
  (let! i := rb_range N.compare ex_rb (Excluded 1%N) (Included 8%N) in
   let! (os, _) := drive2 (ri_next ex_cmp fst N.compare) (ri_next_back ex_cmp fst N.compare) [true; false; false] i in
   Ok os) = Ok [Some (7, 0, 6); Some (2, 1, 13); None]%N /\
  rb_range N.compare ex_rb (Excluded 3%N) (Excluded 3%N) = Panic /\
  conservative_height 64 true 4 = Ok 4%N.
Proof.
  split; [|vm_compute; repeat split; reflexivity].
  eexists. eexists ex_rb_ops, _. split; [vm_compute; reflexivity|reflexivity].
Qed.

(** Two maps built along different histories: equal, and ordered against a third. *)
Example C27_example :
  exists m1 m2 m3 f1 f2 f3,
    rb_reached true N.compare (fun k => k) N.compare m1 f1 /\
    rb_reached true N.compare (fun k => k) N.compare m2 f2 /\
    rb_reached true N.compare (fun k => k) N.compare m3 f3 /\
    rb_eq N.compare N.eqb false m1 m2 = Ok true /\ rb_root m1 <> rb_root m2 /\
    rb_cmp N.compare N.compare m1 m2 = Ok Eq /\ rb_cmp N.compare N.compare m1 m3 = Ok Lt /\
    rb_hash N.compare (fun k => [HData k]) (fun v => [HData v]) m1
      = rb_hash N.compare (fun k => [HData k]) (fun v => [HData v]) m2.
Proof.
  eexists _, _, _, _, _, _.
  split; [eexists [MInsert 1 1; MInsert 2 2; MInsert 3 3; MInsert 4 4]%N, _; split; [vm_compute; reflexivity|reflexivity]|].
  split; [eexists [MInsert 4 4; MInsert 3 3; MInsert 2 2; MInsert 1 1]%N, _; split; [vm_compute; reflexivity|reflexivity]|].
  split; [eexists [MInsert 1 1; MInsert 2 7]%N, _; split; [vm_compute; reflexivity|reflexivity]|].
  vm_compute. repeat split; try reflexivity. discriminate.
Qed.

Example C30_example :
  exists m1 m2 s1 s2,
    rs_reached true N.compare (fun k => k) N.compare m1 s1 /\
    rs_reached true N.compare (fun k => k) N.compare m2 s2 /\
    rs_is_subset N.compare false m1 m2 = Ok true /\ rs_is_superset N.compare false m1 m2 = Ok false /\
    rs_is_disjoint N.compare m1 m2 = Ok false /\ rs_eq N.compare false m1 m2 = Ok false /\
    rs_first m2 = Some 1%N /\ rs_last m2 = Some 9%N.
Proof.
  eexists _, _, _, _.
  split; [eexists [SetInsert 5; SetInsert 3; SetInsert 2; SetRemove 2]%N, _; split; [vm_compute; reflexivity|reflexivity]|].
  split; [eexists [SetInsert 9; SetInsert 3; SetInsert 1; SetInsert 5]%N, _; split; [vm_compute; reflexivity|reflexivity]|].
  vm_compute. repeat split; reflexivity.
Qed.

Example C33_rb_example : exists m,
  rb_from_iter ex_cmp [((2, 0), 1); ((3, 0), 2); ((2, 9), 3)]%N = Ok m /\
  rb_get_key_value fst N.compare m 2%N = Some ((2, 9), 3)%N.
Proof. eexists. split; [vm_compute; reflexivity|]. vm_compute. reflexivity. Qed.

Example C29_rb_example : feed_respects N.eqb (fun k => [HData k]) /\ feed_delimits N.eqb (fun k => [HData k]).
Proof.
  split.
  - intros a b E. apply N.eqb_eq in E. now subst.
  - intros a b r1 r2 E. injection E as -> ->. split; [apply N.eqb_refl|reflexivity].
Qed.
