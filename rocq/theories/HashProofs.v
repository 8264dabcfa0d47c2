(** Invariant of the hash trie and correctness of the node operations. *)
From Coq Require Import List NArith Arith Bool Lia Permutation.
From Verif Require Import Base Spec SpecMap Sim ListModel ListProofs SparseModel SparseProofs HashModel.
Import ListNotations.

(** ** Lists with at most one match *)
Section ListAux.
Context {T : Type}.
Variable m : T -> bool.
Implicit Types l : list T.

Definition nomatch l : Prop := forall x, In x l -> m x = false.
Definition uniq l : Prop := (length (filter m l) <= 1)%nat.

Lemma nomatch_find : forall l, nomatch l -> find m l = None.
Proof using.
  induction l as [|a l IH]; intros H; simpl; [reflexivity|].
  rewrite (H a (or_introl eq_refl)). apply IH. intros x Hx. apply H. now right.
Qed.
Lemma nomatch_filter : forall l, nomatch l -> filter (fun x => negb (m x)) l = l.
Proof using.
  induction l as [|a l IH]; intros H; simpl; [reflexivity|].
  rewrite (H a (or_introl eq_refl)). simpl. f_equal. apply IH. intros x Hx. apply H. now right.
Qed.
Lemma nomatch_filter0 : forall l, nomatch l <-> filter m l = [].
Proof using.
  induction l as [|a l IH]; simpl; split; intros H; try reflexivity.
  - intros x [].
  - rewrite (H a (or_introl eq_refl)). apply IH. intros x Hx. apply H. now right.
  - destruct (m a) eqn:E; [discriminate|]. intros x [<-|Hx]; [assumption|]. apply IH; assumption.
Qed.
Lemma nomatch_map : forall (g : T -> T) l, nomatch l -> map (fun x => if m x then g x else x) l = l.
Proof using.
  induction l as [|a l IH]; intros H; simpl; [reflexivity|].
  rewrite (H a (or_introl eq_refl)). simpl. f_equal. apply IH. intros x Hx. apply H. now right.
Qed.
Lemma find_app : forall l1 l2, find m (l1 ++ l2) = match find m l1 with Some x => Some x | None => find m l2 end.
Proof using. induction l1 as [|a l1 IH]; intros l2; simpl; [reflexivity|]. destruct (m a); auto. Qed.
Lemma find_focus : forall l1 l l2, nomatch l1 -> nomatch l2 -> find m (l1 ++ l ++ l2) = find m l.
Proof using.
  intros. rewrite !find_app, (nomatch_find l1), (nomatch_find l2) by assumption. now destruct (find m l).
Qed.
Lemma filter_focus : forall l1 l l2, nomatch l1 -> nomatch l2 ->
  filter (fun x => negb (m x)) (l1 ++ l ++ l2) = l1 ++ filter (fun x => negb (m x)) l ++ l2.
Proof using. intros. rewrite !filter_app, (nomatch_filter l1), (nomatch_filter l2); auto. Qed.
Lemma map_focus : forall (g : T -> T) l1 l l2, nomatch l1 -> nomatch l2 ->
  map (fun x => if m x then g x else x) (l1 ++ l ++ l2) = l1 ++ map (fun x => if m x then g x else x) l ++ l2.
Proof using. intros. rewrite !map_app, (nomatch_map g l1), (nomatch_map g l2); auto. Qed.
Lemma uniq_focus : forall l1 l l2, uniq (l1 ++ l ++ l2) -> uniq l.
Proof using. unfold uniq. intros l1 l l2. rewrite !filter_app, !app_length. lia. Qed.

Lemma find_none : forall l, find m l = None <-> nomatch l.
Proof using.
  intros l. split; [|apply nomatch_find]. intros H x Hx. exact (find_none m l H x Hx).
Qed.

(** the first match, split out *)
Lemma find_split : forall l x, find m l = Some x ->
  exists l1 l2, l = l1 ++ x :: l2 /\ nomatch l1 /\ m x = true.
Proof using.
  induction l as [|a l IH]; intros x H; simpl in H; [discriminate|].
  destruct (m a) eqn:E.
  - exists [], l. assert (a = x) by congruence. subst a. repeat split; [|assumption]. intros y [].
  - destruct (IH x H) as (l1 & l2 & -> & H1 & H2). exists (a :: l1), l2.
    repeat split; [|assumption]. intros y [<-|Hy]; auto.
Qed.

Lemma uniq_split : forall l1 x l2, uniq (l1 ++ x :: l2) -> m x = true -> nomatch l2.
Proof using.
  unfold uniq. intros l1 x l2 H E. rewrite filter_app in H. simpl in H. rewrite E in H.
  rewrite app_length in H. simpl in H. apply nomatch_filter0. destruct (filter m l2); [reflexivity|].
  simpl in H. lia.
Qed.

Lemma filter_split : forall l1 x l2, nomatch l1 -> nomatch l2 -> m x = true ->
  filter (fun x => negb (m x)) (l1 ++ x :: l2) = l1 ++ l2.
Proof using.
  intros. rewrite filter_app. simpl. rewrite H1. simpl. now rewrite !nomatch_filter.
Qed.

Lemma filter_len_uniq : forall l, uniq l ->
  length (filter (fun x => negb (m x)) l) = (length l - (if is_some (find m l) then 1 else 0))%nat.
Proof using.
  intros l H. destruct (find m l) as [x|] eqn:E.
  - destruct (find_split l x E) as (l1 & l2 & -> & H1 & H2).
    rewrite filter_split by eauto using uniq_split. rewrite !app_length. simpl. lia.
  - simpl. rewrite nomatch_filter by (now apply find_none). lia.
Qed.
End ListAux.

Section Lrf.
Context {T : Type}.
Variable p : T -> bool.

Lemma lrf_loop_ok : forall s fuel before l, l_rep l s -> (length s < fuel)%nat ->
  match find p s with
  | None => exists l', lrf_loop fuel p before l = Ok (l', rev s ++ before, None) /\ l_rep l' []
  | Some x => exists l' s1 s2, s = s1 ++ x :: s2 /\ nomatch p s1 /\ p x = true /\
      lrf_loop fuel p before l = Ok (l', rev s1 ++ before, Some x) /\ l_rep l' s2
  end.
Proof using.
  induction s as [|a s IH]; intros fuel before l Hl Hf;
    (destruct fuel as [|fuel]; [simpl in Hf; lia|]); cbn [lrf_loop];
    rewrite (l_rep_is_empty l _ Hl).
  - simpl. eauto.
  - cbn [is_nil]. rewrite (l_rep_first l _ Hl). cbn [hd_error unwrap bind].
    destruct (l_rep_drop l _ Hl) as (l' & -> & Hl'). cbn [bind tl] in *.
    cbn [find]. destruct (p a) eqn:E.
    + exists l', [], s. repeat split; auto. intros x []. apply Hl'. apply Hl'. apply Hl'.
    + specialize (IH fuel (a :: before) l' Hl'). simpl in Hf. specialize (IH ltac:(lia)).
      destruct (find p s) as [x|].
      * destruct IH as (l2 & s1 & s2 & -> & H1 & H2 & E' & Hr). exists l2, (a :: s1), s2.
        simpl. rewrite <- app_assoc. repeat split; auto. intros y [<-|Hy]; auto. apply Hr. apply Hr. apply Hr.
      * destruct IH as (l2 & E' & Hr). exists l2. simpl. rewrite <- app_assoc. auto.
Qed.

Lemma list_remove_first_ok : forall l s, l_rep l s -> uniq p s ->
  exists l', list_remove_first l p = Ok (l', find p s) /\
             l_rep l' (filter (fun x => negb (p x)) s).
Proof using.
  intros l s Hl Hu. unfold list_remove_first.
  pose proof (lrf_loop_ok s (S (l_len l)) [] l Hl) as H.
  assert (El : l_len l = length s) by apply Hl. specialize (H ltac:(lia)).
  destruct (find p s) as [x|] eqn:E.
  - destruct H as (l' & s1 & s2 & -> & H1 & H2 & -> & Hr). cbn [bind]. eexists. split; [reflexivity|].
    rewrite filter_split by eauto using uniq_split. rewrite app_nil_r.
    pose proof (l_rep_fold_push (rev s1) l' s2 Hr) as X. rewrite rev_involutive in X. exact X.
  - destruct H as (l' & -> & Hr). cbn [bind]. eexists. split; [reflexivity|].
    rewrite nomatch_filter by (now apply find_none). rewrite app_nil_r.
    pose proof (l_rep_fold_push (rev s) l' [] Hr) as X. rewrite rev_involutive, app_nil_r in X. exact X.
Qed.
End Lrf.

(** ** Hash digits *)
Lemma count_ones_pow2 : forall b, count_ones (2 ^ b) = 1%nat.
Proof.
  intros b. rewrite <- N.shiftl_1_l. pose proof (count_ones_setbit b 0) as H.
  unfold N.setbit in H. rewrite N.lor_0_l in H. rewrite H; [reflexivity|apply N.bits_0].
Qed.

Lemma tz_double : forall n, (0 < n)%N -> trailing_zeros (2 * n) = (1 + trailing_zeros n)%N.
Proof. intros [|p] H; [lia|]. reflexivity. Qed.

Lemma tz_pow2 : forall b, trailing_zeros (2 ^ b) = b.
Proof.
  intros b. induction b as [|b IH] using N.peano_ind; [reflexivity|].
  rewrite N.pow_succ_r', tz_double, IH; [lia|]. apply N.neq_0_lt_0. apply N.pow_nonzero. lia.
Qed.

Section HP.
Variable ubits : N.
Variable dbg : bool.
Variable b : N.                (* log2 of the degree *)
Hypothesis Hb : (0 < b)%N.
Hypothesis Hdeg : (2 ^ b <= ubits)%N.
Hypothesis Hub : (ubits <= 64)%N.
Context {K V Q : Type}.
Variable keq : K -> K -> bool.
Variable borrow : K -> Q.
Variable qeq : Q -> Q -> bool.

Notation entry := (hentry K V).
Notation node := (hnode K V).
Notation degree := (2 ^ b)%N.

Local Open Scope N_scope.
Set Default Proof Using "dbg Hb Hdeg Hub".

Lemma b_small : b <= 6.
Proof.
  destruct (N.le_gt_cases b 6) as [H|H]; [assumption|exfalso].
  assert (2 ^ 7 <= 2 ^ b) by (apply N.pow_le_mono_r; lia). change (2 ^ 7) with 128 in *. lia.
Qed.
Lemma Hu0 : 0 < ubits.
Proof. pose proof (N.pow_nonzero 2 b). lia. Qed.

(** levels of branches: the smallest [D] with [64 <= D * b] *)
Definition D : nat := N.to_nat ((64 + b - 1) / b).

Lemma D_spec : forall d, (d < D)%nat <-> N.of_nat d * b < 64.
Proof.
  intros d. unfold D. split; intros H.
  - assert (N.of_nat d < (64 + b - 1) / b) by lia.
    pose proof (N.mul_div_le (64 + b - 1) b ltac:(lia)).
    assert (N.of_nat d + 1 <= (64 + b - 1) / b) by lia.
    assert (b * (N.of_nat d + 1) <= b * ((64 + b - 1) / b)) by (apply N.mul_le_mono_l; assumption). lia.
  - assert (N.of_nat d < (64 + b - 1) / b); [|lia].
    apply N.lt_le_trans with (N.of_nat d + 1); [lia|]. apply N.div_le_lower_bound; lia.
Qed.
Lemma D_pos : (0 < D)%nat.
Proof. apply D_spec. lia. Qed.
Lemma D_le : (D <= 64)%nat.
Proof.
  destruct (Nat.le_gt_cases D 64) as [H|H]; [assumption|exfalso]. apply (D_spec 64) in H. lia.
Qed.

Definition idx (d : nat) (h : N) : N := N.land (N.shiftr h (N.of_nat d * b)) (degree - 1).

Lemma idx_eq : forall d h, idx d h = (h / 2 ^ (N.of_nat d * b)) mod 2 ^ b.
Proof.
  intros d h. unfold idx. rewrite N.shiftr_div_pow2.
  replace (degree - 1) with (N.ones b) by (rewrite N.ones_equiv; lia). apply N.land_ones.
Qed.
Lemma idx_lt : forall d h, idx d h < ubits.
Proof.
  intros d h. rewrite idx_eq. eapply N.lt_le_trans; [|exact Hdeg]. apply N.mod_lt.
  apply N.pow_nonzero. lia.
Qed.

Lemma index_ok : forall h d, (d <= D)%nat ->
  index_from_hash dbg h d degree = Ok (if (d <? D)%nat then Some (idx d h) else None).
Proof.
  intros h d Hd. unfold index_from_hash, is_power_of_two. rewrite count_ones_pow2, tz_pow2.
  unfold debug_assert. rewrite andb_false_r. cbn [bind]. unfold umul.
  pose proof b_small. pose proof D_le.
  assert (Hm : N.of_nat d * b <= 64 * 6) by (apply N.mul_le_mono; lia).
  destruct (N.ltb_spec (N.of_nat d * b) (2 ^ 32)) as [_|Hx];
    [|change (2 ^ 32) with 4294967296 in Hx; lia]. cbn [bind].
  destruct (Nat.ltb_spec d D) as [Hl|Hl].
  - apply D_spec in Hl. destruct (N.ltb_spec (N.of_nat d * b) 64); [|lia].
    unfold usub. pose proof (N.pow_nonzero 2 b). destruct (N.leb_spec 1 (2 ^ b)); [|lia]. reflexivity.
  - destruct (N.ltb_spec (N.of_nat d * b) 64) as [Hx|]; [|reflexivity].
    apply D_spec in Hx. lia.
Qed.

(** ** Invariant *)

(** [st]: whether branches below the root have two entries or more.  That holds of every map
    that a history reaches; it is not needed by the operations, and a comparison that panics
    can break it (see CrashModel.v). *)
Context {st : bool}.

Definition is_branch (n : node) : bool := match n with HBranch _ => true | HLeaf _ => false end.

Inductive chl (R : node -> list entry -> Prop) (dig : entry -> N) : list (N * node) -> list entry -> Prop :=
| chl_nil : chl R dig [] []
| chl_cons : forall i c es al rest,
    R c es -> es <> [] -> (forall e, In e es -> dig e = i) ->
    (st = true -> is_branch c = true -> (2 <= length es)%nat) ->
    chl R dig al rest -> chl R dig ((i, c) :: al) (es ++ rest).

Fixpoint hrepg (r : nat) (d : nat) (n : node) (es : list entry) : Prop :=
  match n with
  | HLeaf (BSingle e) => es = [e]
  | HLeaf (BCollision l) => r = 0%nat /\ l_rep l es /\ (2 <= length es)%nat
  | HBranch s =>
      match r with
      | O => False
      | S r' => exists al, sa_wf ubits s al /\ chl (hrepg r' (S d)) (fun e => idx d (e_hash e)) al es
      end
  end.

Lemma chl_app : forall R dig l1 l2 es, chl R dig (l1 ++ l2) es <->
  exists es1 es2, es = es1 ++ es2 /\ chl R dig l1 es1 /\ chl R dig l2 es2.
Proof.
  intros R dig. induction l1 as [|[i c] l1 IH]; intros l2 es; simpl; split.
  - intros H. exists [], es. repeat split; [constructor|assumption].
  - intros (es1 & es2 & -> & H1 & H2). inversion H1; subst. assumption.
  - intros H. inversion H as [|? ? ec ? rest Hr Hne Hd Hb2 Hrest]; subst.
    apply IH in Hrest as (es1 & es2 & -> & H1 & H2).
    exists (ec ++ es1), es2. rewrite app_assoc. repeat split; [|assumption]. constructor; auto.
  - intros (es1 & es2 & -> & H1 & H2).
    inversion H1 as [|? ? ec ? rest Hr Hne Hd Hb2 Hrest]; subst.
    rewrite <- app_assoc. constructor; auto. apply IH. eauto.
Qed.

Lemma chl_in : forall R dig al es e, chl R dig al es -> In e es -> exists p, In p al /\ fst p = dig e.
Proof.
  intros R dig al es e H. induction H as [|i c ec al rest Hr Hne Hd Hb2 Hrest IH]; intros Hin; [destruct Hin|].
  apply in_app_iff in Hin as [Hin|Hin].
  - exists (i, c). split; [now left|]. simpl. symmetry. now apply Hd.
  - destruct (IH Hin) as (p & Hp & E). exists p. split; [now right|assumption].
Qed.

Lemma chl_hole : forall R dig m i l1 l2 es, chl R dig (l1 ++ l2) es -> below i l1 -> above i l2 ->
  (forall e, m e = true -> dig e = i) -> nomatch m es.
Proof.
  intros R dig m i l1 l2 es H B A Hm e He. destruct (m e) eqn:E; [|reflexivity].
  destruct (chl_in _ _ _ _ _ H He) as (p & Hp & Ep). rewrite (Hm e E) in Ep.
  apply in_app_iff in Hp as [Hp|Hp]; [specialize (B p Hp)|specialize (A p Hp)]; lia.
Qed.

(** Focus on the child under index [i]. *)
Lemma chl_focus : forall R dig m i c l1 l2 es, chl R dig (l1 ++ (i, c) :: l2) es ->
  below i l1 -> above i l2 -> (forall e, m e = true -> dig e = i) ->
  exists es1 ec es2, es = es1 ++ ec ++ es2 /\ nomatch m es1 /\ nomatch m es2 /\
    chl R dig l1 es1 /\ chl R dig l2 es2 /\
    R c ec /\ ec <> [] /\ (forall e, In e ec -> dig e = i) /\
    (st = true -> is_branch c = true -> (2 <= length ec)%nat).
Proof.
  intros R dig m i c l1 l2 es H B A Hm. apply chl_app in H as (es1 & es2 & -> & H1 & H2).
  inversion H2 as [|? ? ec ? rest Hr Hne Hd Hb2 Hrest]; subst.
  exists es1, ec, rest. repeat split; auto.
  - eapply (chl_hole R dig m i l1 []); [rewrite app_nil_r; eassumption|assumption|intros ? []|assumption].
  - eapply (chl_hole R dig m i [] l2); [eassumption|intros ? []|assumption|assumption].
Qed.

Lemma chl_put : forall R dig i c l1 l2 es1 ec es2, chl R dig l1 es1 -> chl R dig l2 es2 ->
  R c ec -> ec <> [] -> (forall e, In e ec -> dig e = i) ->
  (st = true -> is_branch c = true -> (2 <= length ec)%nat) ->
  chl R dig (l1 ++ (i, c) :: l2) (es1 ++ ec ++ es2).
Proof. intros. apply chl_app. exists es1, (ec ++ es2). repeat split; auto. constructor; auto. Qed.

(** ** Lookup *)
Lemma hn_get_ok : forall q h r d n es fuel, hrepg r d n es -> (d + r = D)%nat -> (r < fuel)%nat ->
  hn_get ubits dbg borrow qeq fuel q h n d degree = Ok (find (matches borrow qeq q h) es).
Proof.
  intros q h. set (m := matches borrow qeq q h).
  assert (Hm : forall d e, m e = true -> idx d (e_hash e) = idx d h).
  { intros d e H. unfold m, matches in H. apply andb_true_iff in H as [H _]. apply N.eqb_eq in H. now rewrite H. }
  induction r as [|r IH]; intros d n es fuel H Hd Hf; (destruct fuel as [|fuel]; [lia|]); cbn [hn_get];
    destruct n as [s|[e|l]]; cbn [hrepg] in H.
  - destruct H.
  - subst es. unfold b_get, b_find. cbn [find]. fold m. now destruct (m e).
  - destruct H as (_ & H & _). unfold b_get, b_find. rewrite (l_elems_ok l es H). reflexivity.
  - destruct H as (al & Hw & Hc). rewrite index_ok by lia.
    destruct (Nat.ltb_spec d D) as [_|]; [|lia]. cbn [bind unwrap].
    destruct (sa_access ubits dbg Hu0 s al (idx d h) Hw (idx_lt d h))
      as [(l1 & l2 & -> & B & A & -> & _)|(l1 & c & l2 & -> & B & A & -> & _)]; cbn [bind].
    + rewrite nomatch_find; [reflexivity|]. exact (chl_hole _ _ m _ _ _ _ Hc B A (Hm d)).
    + destruct (chl_focus _ _ m _ _ _ _ _ Hc B A (Hm d)) as (es1 & ec & es2 & -> & N1 & N2 & C1 & C2 & Hr & _).
      rewrite find_focus by assumption. apply IH; [assumption|lia|lia].
  - subst es. unfold b_get, b_find. cbn [find]. fold m. now destruct (m e).
  - destruct H as (H & _). discriminate.
Qed.

(** ** get_mut *)
Lemma perm_find_uniq : forall (m : entry -> bool) (g : entry -> entry) es x, uniq m es -> find m es = Some x ->
  Permutation (g x :: filter (fun e => negb (m e)) es) (map (fun e => if m e then g e else e) es).
Proof.
  intros m g es x Hu E. destruct (find_split m es x E) as (l1 & l2 & -> & H1 & H2).
  pose proof (uniq_split m _ _ _ Hu H2) as H3. rewrite filter_split by assumption.
  rewrite map_app. cbn [map]. rewrite H2, !nomatch_map by assumption. apply Permutation_middle.
Qed.

Lemma hn_get_mut_ok : forall q h f r d n es fuel, hrepg r d n es -> (d + r = D)%nat -> (r < fuel)%nat ->
  uniq (matches borrow qeq q h) es ->
  exists n' es', hn_get_mut ubits dbg borrow qeq fuel q h f n d degree
      = Ok (n', option_map e_val (find (matches borrow qeq q h) es)) /\
    hrepg r d n' es' /\ is_branch n' = is_branch n /\
    Permutation es' (map (fun e => if matches borrow qeq q h e then e_write f e else e) es).
Proof.
  intros q h f. set (m := matches borrow qeq q h).
  assert (Hm : forall d e, m e = true -> idx d (e_hash e) = idx d h).
  { intros d e H. unfold m, matches in H. apply andb_true_iff in H as [H _]. apply N.eqb_eq in H. now rewrite H. }
  assert (Hsingle : forall r d e es fuel, es = [e] ->
     exists n' es', hn_get_mut ubits dbg borrow qeq (S fuel) q h f (HLeaf (BSingle e)) d degree
      = Ok (n', option_map e_val (find m es)) /\ hrepg r d n' es' /\ is_branch n' = false /\
        Permutation es' (map (fun e => if m e then e_write f e else e) es)).
  { intros r d e es fuel ->. cbn [hn_get_mut b_get_mut find map]. fold m. destruct (m e); cbn [bind option_map].
    - exists (HLeaf (BSingle (e_write f e))), [e_write f e]. repeat split; [destruct r; reflexivity|reflexivity].
    - exists (HLeaf (BSingle e)), [e]. repeat split; [destruct r; reflexivity|reflexivity]. }
  induction r as [|r IH]; intros d n es fuel H Hd Hf Hu; (destruct fuel as [|fuel]; [lia|]);
    destruct n as [s|[e|l]]; cbn [hrepg] in H; try (now apply Hsingle).
  - destruct H.
  - destruct H as (_ & Hl & Hlen). cbn [hn_get_mut b_get_mut].
    destruct (list_remove_first_ok m l es Hl Hu) as (l' & E & Hl'). fold m. rewrite E. cbn [bind].
    destruct (find m es) as [x|] eqn:Ef; cbn [bind option_map].
    + pose proof (l_rep_push l' _ x Hl') as Hp.
      set (fs := filter (fun e => negb (m e)) es) in *.
      assert (Hfl : (1 <= length fs)%nat).
      { unfold fs. rewrite filter_len_uniq by assumption. rewrite Ef. simpl. lia. }
      unfold l_push_front_mut. rewrite (l_rep_first _ _ Hp). cbn [hd_error option_map].
      eexists _, (e_write f x :: fs). split; [reflexivity|]. split; [|split; [reflexivity|]].
      * cbn [hrepg]. split; [reflexivity|]. split; [|cbn [length]; lia].
        destruct Hp as (P1 & P2 & P3). unfold l_first_mut. rewrite P1. cbn [fst].
        repeat split; cbn [l_head ListModel.l_last l_length]; [|assumption].
        rewrite P2. destruct fs as [|y fs']; [simpl in Hfl; lia|]. reflexivity.
      * now apply perm_find_uniq.
    + exists (HLeaf (BCollision l')), es. rewrite nomatch_filter in Hl' by (now apply find_none).
      repeat split; auto; try apply Hl'. rewrite nomatch_map by (now apply find_none). reflexivity.
  - destruct H as (al & Hw & Hc). cbn [hn_get_mut]. rewrite index_ok by lia.
    destruct (Nat.ltb_spec d D) as [_|]; [|lia]. cbn [bind unwrap].
    destruct (sa_access ubits dbg Hu0 s al (idx d h) Hw (idx_lt d h))
      as [(l1 & l2 & -> & B & A & _ & -> & _)|(l1 & c & l2 & -> & B & A & _ & (w & -> & Hset) & _)]; cbn [bind].
    + assert (Hn : nomatch m es) by exact (chl_hole _ _ m _ _ _ _ Hc B A (Hm d)).
      exists (HBranch s), es. rewrite nomatch_find, nomatch_map by assumption.
      repeat split; auto. cbn [hrepg]. eauto.
    + destruct (chl_focus _ _ m _ _ _ _ _ Hc B A (Hm d)) as (es1 & ec & es2 & -> & N1 & N2 & C1 & C2 & Hr & Hne & Hdg & Hbr).
      rewrite find_focus by assumption. rewrite map_focus by assumption.
      destruct (IH (S d) c ec fuel Hr ltac:(lia) ltac:(lia) (uniq_focus _ _ _ _ Hu)) as (c' & ec' & E & Hr' & Hb' & Hp).
      rewrite E. cbn [bind]. exists (HBranch (w c')), (es1 ++ ec' ++ es2).
      split; [reflexivity|]. split; [|split; [reflexivity|]].
      * cbn [hrepg]. exists (l1 ++ (idx d h, c') :: l2). split; [apply Hset|].
        pose proof (Permutation_length Hp) as Hlen. rewrite map_length in Hlen.
        apply chl_put; auto.
        -- intros ->. destruct ec; [now apply Hne|discriminate].
        -- intros e He. apply (Permutation_in _ Hp) in He. apply in_map_iff in He as (e0 & <- & He0).
           destruct (m e0); [cbn [e_write e_hash]|]; apply Hdg; assumption.
        -- rewrite Hb', Hlen. assumption.
      * apply Permutation_app_head. apply Permutation_app_tail. assumption.
  - destruct H as (H & _). discriminate.
Qed.

(** ** insert *)
Lemma existsb_find : forall (m : entry -> bool) es, is_some (find m es) = existsb m es.
Proof. intros m. induction es as [|a es IH]; simpl; [reflexivity|]. destruct (m a); auto. Qed.

Lemma perm_insert_focus : forall (m : entry -> bool) e es1 ec ec' es2, nomatch m es1 -> nomatch m es2 ->
  Permutation ec' (e :: filter (fun x => negb (m x)) ec) ->
  Permutation (es1 ++ ec' ++ es2) (e :: filter (fun x => negb (m x)) (es1 ++ ec ++ es2)).
Proof.
  intros m e es1 ec ec' es2 N1 N2 Hp. rewrite filter_focus by assumption.
  rewrite Hp. cbn [app]. symmetry. apply Permutation_middle.
Qed.

Definition ins_post (r d : nat) (e : entry) (n : node) (es : list entry) (x : res (node * bool)) : Prop :=
  let m := matches_key keq (e_key e) (e_hash e) in
  exists n' es', x = Ok (n', negb (is_some (find m es))) /\ hrepg r d n' es' /\
    Permutation es' (e :: filter (fun x => negb (m x)) es) /\
    (is_branch n' = true -> is_branch n = true \/ (2 <= length es')%nat).

Lemma ins_branch : forall r d e s es fuel,
  (forall c ec, hrepg r (S d) c ec -> uniq (matches_key keq (e_key e) (e_hash e)) ec ->
     ins_post r (S d) e c ec (hn_insert ubits dbg keq fuel e c (S d) degree)) ->
  hrepg (S r) d (HBranch s) es -> (d + S r = D)%nat -> uniq (matches_key keq (e_key e) (e_hash e)) es ->
  ins_post (S r) d e (HBranch s) es (hn_insert ubits dbg keq (S fuel) e (HBranch s) d degree).
Proof.
  intros r d e s es fuel IH (al & Hw & Hc) Hd Hu. unfold ins_post.
  set (m := matches_key keq (e_key e) (e_hash e)) in *.
  assert (Hm : forall e', m e' = true -> idx d (e_hash e') = idx d (e_hash e)).
  { intros e' H. unfold m, matches_key in H. apply andb_true_iff in H as [H _]. apply N.eqb_eq in H. now rewrite H. }
  cbn [hn_insert]. rewrite index_ok by lia.
  destruct (Nat.ltb_spec d D) as [_|]; [|lia]. cbn [bind unwrap].
  destruct (sa_access ubits dbg Hu0 s al (idx d (e_hash e)) Hw (idx_lt d (e_hash e)))
    as [(l1 & l2 & -> & B & A & _ & -> & _ & Hset)|(l1 & c & l2 & -> & B & A & _ & (w & -> & Hset) & _)]; cbn [bind].
  - assert (Hn : nomatch m es) by exact (chl_hole _ _ m _ _ _ _ Hc B A Hm).
    destruct (Hset (HLeaf (BSingle e))) as (s' & -> & Hw'). cbn [bind].
    apply chl_app in Hc as (es1 & es2 & -> & C1 & C2).
    exists (HBranch s'), (es1 ++ [e] ++ es2). rewrite nomatch_find by assumption.
    split; [reflexivity|]. split; [|split].
    + cbn [hrepg]. eexists. split; [exact Hw'|]. apply chl_put; auto.
      * destruct r; reflexivity.
      * discriminate.
      * intros e' [<-|[]]. reflexivity.
      * discriminate.
    + rewrite nomatch_filter by assumption. cbn [app]. symmetry. apply Permutation_middle.
    + now left.
  - destruct (chl_focus _ _ m _ _ _ _ _ Hc B A Hm) as (es1 & ec & es2 & -> & N1 & N2 & C1 & C2 & Hr & Hne & Hdg & Hbr).
    rewrite find_focus by assumption.
    destruct (IH c ec Hr (uniq_focus _ _ _ _ Hu)) as (c' & ec' & E & Hr' & Hp & Hb').
    fold m in E, Hp. rewrite E. cbn [bind]. exists (HBranch (w c')), (es1 ++ ec' ++ es2).
    split; [reflexivity|]. split; [|split].
    + cbn [hrepg]. exists (l1 ++ (idx d (e_hash e), c') :: l2). split; [apply Hset|].
      apply chl_put; auto.
      * intros ->. apply Permutation_nil in Hp. discriminate.
      * intros x Hx. apply (Permutation_in _ Hp) in Hx as [<-|Hx]; [reflexivity|].
        apply filter_In in Hx as [Hx _]. now apply Hdg.
      * intros Hst Hx. destruct (Hb' Hx) as [Hx'|Hx']; [|assumption].
        specialize (Hbr Hst Hx'). apply Permutation_length in Hp. cbn [length] in Hp.
        rewrite filter_len_uniq in Hp by (eapply uniq_focus; eassumption).
        destruct (is_some (find m ec)); lia.
    + now apply perm_insert_focus.
    + now left.
Qed.

Lemma hn_insert_ok : forall e r d n es fuel, hrepg r d n es -> (d + r = D)%nat -> (2 * r < fuel)%nat ->
  uniq (matches_key keq (e_key e) (e_hash e)) es ->
  ins_post r d e n es (hn_insert ubits dbg keq fuel e n d degree).
Proof.
  intros e. set (m := matches_key keq (e_key e) (e_hash e)).
  assert (Hrepl : forall r d o fuel, m o = true -> (d + r = D)%nat ->
    ins_post r d e (HLeaf (BSingle o)) [o] (hn_insert ubits dbg keq (S fuel) e (HLeaf (BSingle o)) d degree)).
  { intros r d o fuel Hmo Hd. unfold ins_post. fold m. cbn [hn_insert]. rewrite index_ok by lia. cbn [bind].
    unfold b_contains_key, b_find. fold m. cbn [find filter]. rewrite Hmo. cbn [bind is_some b_insert]. fold m.
    rewrite Hmo. cbn [bind negb]. exists (HLeaf (BSingle e)), [e].
    split; [now destruct (negb _)|]. repeat split; [destruct r; reflexivity|reflexivity|discriminate]. }
  induction r as [|r IH]; intros d n es fuel H Hd Hf Hu; (destruct fuel as [|fuel]; [lia|]);
    destruct n as [s|[o|l]]; cbn [hrepg] in H.
  - destruct H.
  - subst es. destruct (m o) eqn:Hmo; [now apply Hrepl|]. unfold ins_post. fold m.
    cbn [hn_insert]. rewrite index_ok by lia. destruct (Nat.ltb_spec d D) as [|_]; [lia|]. cbn [bind is_some negb].
    unfold b_contains_key, b_find. fold m. cbn [find filter]. rewrite Hmo. cbn [bind is_some b_insert negb]. fold m.
    rewrite Hmo. cbn [bind negb]. eexists _, [e; o]. split; [reflexivity|].
    split; [|split; [reflexivity|discriminate]]. cbn [hrepg]. split; [reflexivity|]. split; [|simpl; lia].
    apply l_rep_push. apply l_rep_push. apply l_rep_new.
  - destruct H as (_ & Hl & Hlen). unfold ins_post. fold m.
    cbn [hn_insert]. rewrite index_ok by lia. destruct (Nat.ltb_spec d D) as [|_]; [lia|]. cbn [bind is_some negb].
    unfold b_contains_key, b_find. rewrite (l_elems_ok l es Hl). cbn [bind b_insert]. fold m.
    destruct (list_remove_first_ok m l es Hl Hu) as (l' & -> & Hl'). cbn [bind].
    eexists _, (e :: filter (fun x => negb (m x)) es). split; [reflexivity|].
    split; [|split; [reflexivity|discriminate]]. cbn [hrepg]. split; [reflexivity|].
    split; [now apply l_rep_push|]. cbn [length]. rewrite filter_len_uniq by assumption.
    destruct (is_some (find m es)); lia.
  - apply ins_branch; auto. intros c ec Hr Hu'. apply IH; auto; lia.
  - subst es. destruct (m o) eqn:Hmo; [now apply Hrepl|].
    destruct fuel as [|fuel]; [lia|].
    assert (Hempty : exists s1, hn_insert ubits dbg keq (S fuel) o new_empty_branch d degree = Ok (HBranch s1, true) /\
              hrepg (S r) d (HBranch s1) [o]).
    { unfold new_empty_branch. cbn [hn_insert]. rewrite index_ok by lia.
      destruct (Nat.ltb_spec d D) as [_|]; [|lia]. cbn [bind unwrap].
      destruct (sa_access ubits dbg Hu0 (sa_new : sarr node) [] (idx d (e_hash o)) (sa_wf_new ubits dbg Hu0) (idx_lt d (e_hash o)))
        as [(l1 & l2 & E & B & A & _ & -> & _ & Hset)|(l1 & c & l2 & E & _)]; [|destruct l1; discriminate].
      destruct (Hset (HLeaf (BSingle o))) as (s' & -> & Hw'). cbn [bind].
      destruct l1; [|discriminate]. destruct l2; [|discriminate].
      exists s'. split; [reflexivity|]. cbn [hrepg]. eexists. split; [exact Hw'|].
      change [o] with ([] ++ [o] ++ [] : list entry). apply chl_put; try constructor.
      - destruct r; reflexivity.
      - discriminate.
      - intros x [<-|[]]. reflexivity.
      - discriminate. }
    destruct Hempty as (s1 & E1 & H1).
    assert (Hi : ins_post (S r) d e (HBranch s1) [o] (hn_insert ubits dbg keq (S fuel) e (HBranch s1) d degree)).
    { apply ins_branch; auto. intros c ec Hr Hu'. apply IH; auto; lia. }
    destruct Hi as (n2 & es2 & E2 & H2 & Hp & _). fold m in E2, Hp. cbn [find filter] in E2, Hp.
    rewrite Hmo in E2, Hp. cbn [is_some negb] in E2, Hp.
    unfold ins_post. fold m. cbn [find filter]. rewrite Hmo. cbn [is_some negb].
    remember (S fuel) as fuel1. cbn [hn_insert]. rewrite index_ok by lia.
    destruct (Nat.ltb_spec d D) as [_|]; [|lia]. cbn [bind is_some negb].
    unfold b_contains_key, b_find. fold m. rewrite Hmo. cbn [bind is_some].
    rewrite E1. cbn [bind]. rewrite E2. cbn [bind]. exists n2, es2. split; [reflexivity|].
    split; [assumption|]. split; [assumption|]. intros _. right. apply Permutation_length in Hp. simpl in Hp. lia.
  - destruct H as (H & _). discriminate.
Qed.

(** ** remove *)
Lemma chl_length : forall R dig al es, chl R dig al es -> (length al <= length es)%nat.
Proof.
  intros R dig al es H. induction H as [|i c ec al rest Hr Hne Hd Hb2 Hrest IH]; simpl; [lia|].
  rewrite app_length. destruct ec; [now destruct Hne|]. simpl. lia.
Qed.

(** After compression a branch holding exactly one entry is a leaf with it. *)
Lemma compress_ok : forall r d s es, hrepg (S r) d (HBranch s) es ->
  exists n', hn_compress (HBranch s) = Ok n' /\ hrepg (S r) d n' es /\
    (st = true -> is_branch n' = true -> (length es <> 1)%nat) /\ (es = [] -> n' = HBranch s).
Proof.
  intros r d s es (al & Hw & Hc). unfold hn_compress.
  rewrite (sa_size_ok ubits dbg Hu0 s al Hw).
  pose proof Hw as (_ & Ea & _).
  destruct al as [|[i c] [|p al]].
  - exists (HBranch s). cbn [length]. inversion Hc; subst. repeat split; [cbn [hrepg]; eauto|discriminate].
  - cbn [length]. unfold sa_first, sa_pop. rewrite Ea. cbn [map snd hd_error unwrap bind].
    inversion Hc as [|? ? ec ? rest Hr Hne Hdg Hb2 Hrest]; subst. inversion Hrest; subst.
    rewrite app_nil_r in *. destruct c as [s'|[e|l]].
    + exists (HBranch s). split; [reflexivity|]. split; [cbn [hrepg]; eauto|].
      split; [intros Hst _; specialize (Hb2 Hst eq_refl); lia|intros ->; now destruct Hne].
    + exists (HLeaf (BSingle e)). split; [reflexivity|]. destruct r; cbn [hrepg] in Hr; subst ec;
        (split; [reflexivity|split; [discriminate|discriminate]]).
    + exists (HBranch s). split; [reflexivity|]. split; [cbn [hrepg]; eauto|].
      destruct r; cbn [hrepg] in Hr; destruct Hr as (Hr0 & Hl & Hlen); [|discriminate].
      split; [intros _ _; lia|intros ->; simpl in Hlen; lia].
  - exists (HBranch s). cbn [length]. split; [reflexivity|]. split; [cbn [hrepg]; eauto|].
    pose proof (chl_length _ _ _ _ Hc) as Hlen. simpl in Hlen.
    split; [intros _ _; lia|intros ->; simpl in Hlen; lia].
Qed.

Definition rem_post (r d : nat) (m : entry -> bool) (n : node) (es : list entry) (x : res (node * bool)) : Prop :=
  exists n', x = Ok (n', is_some (find m es)) /\
    let es' := filter (fun x => negb (m x)) es in
    (es' = [] /\ n' = new_empty_branch \/ es' <> [] /\ hrepg r d n' es') /\
    (is_branch n' = true -> (is_some (find m es) = true \/ is_branch n = true) /\
       (st = true -> is_some (find m es) = true -> length es' <> 1%nat)).

Lemma hn_is_empty_ok : forall r d n es, es <> [] -> hrepg r d n es -> hn_is_empty dbg n = Ok false.
Proof.
  intros r d n es Hne H. destruct n as [s|[e|l]]; unfold hn_is_empty.
  - destruct r; [destruct H|]. destruct H as (al & Hw & Hc).
    rewrite (sa_size_ok ubits dbg Hu0 s al Hw). destruct al; [inversion Hc; subst; now destruct Hne|reflexivity].
  - reflexivity.
  - assert (Hx : l_rep l es /\ (2 <= length es)%nat) by (destruct r; apply H). destruct Hx as (Hl & Hlen).
    assert (E : l_len l = length es) by apply Hl. rewrite E.
    unfold debug_assert. destruct (Nat.leb_spec 2 (length es)); [|lia]. now rewrite andb_false_r.
Qed.

Lemma hn_remove_ok : forall q h r d n es fuel, hrepg r d n es -> (d + r = D)%nat -> (r < fuel)%nat ->
  (es <> [] \/ n = new_empty_branch) ->
  uniq (matches borrow qeq q h) es ->
  rem_post r d (matches borrow qeq q h) n es (hn_remove ubits dbg borrow qeq fuel q h n d degree).
Proof.
  intros q h. set (m := matches borrow qeq q h).
  assert (Hm : forall d e, m e = true -> idx d (e_hash e) = idx d h).
  { intros d e H. unfold m, matches in H. apply andb_true_iff in H as [H _]. apply N.eqb_eq in H. now rewrite H. }
  assert (Hsingle : forall r d e es fuel, es = [e] ->
    rem_post r d m (HLeaf (BSingle e)) es (hn_remove ubits dbg borrow qeq (S fuel) q h (HLeaf (BSingle e)) d degree)).
  { intros r d e es fuel ->. unfold rem_post. cbn [hn_remove b_remove find filter]. fold m.
    destruct (m e) eqn:E; cbn [bind negb is_some].
    - eexists. split; [reflexivity|]. split; [now left|]. intros _. split; [now left|simpl; lia].
    - eexists. split; [reflexivity|]. split; [right; split; [discriminate|destruct r; reflexivity]|discriminate]. }
  induction r as [|r IH]; intros d n es fuel H Hd Hf Hne Hu; (destruct fuel as [|fuel]; [lia|]);
    destruct n as [s|[e|l]]; cbn [hrepg] in H; try (now apply Hsingle).
  - destruct H.
  - destruct H as (_ & Hl & Hlen). unfold rem_post. cbn [hn_remove b_remove].
    destruct (list_remove_first_ok m l es Hl Hu) as (l' & E & Hl'). fold m. rewrite E. cbn [bind].
    set (fs := filter (fun e => negb (m e)) es) in *.
    assert (Hfl : length fs = (length es - (if is_some (find m es) then 1 else 0))%nat).
    { unfold fs. now rewrite filter_len_uniq. }
    assert (El : l_len l' = length fs) by apply Hl'. rewrite El.
    clearbody fs. destruct fs as [|x [|y fs]]; cbn [length] in *.
    + destruct (is_some (find m es)); lia.
    + rewrite (l_rep_first _ _ Hl'). cbn [hd_error unwrap bind]. eexists. split; [reflexivity|].
      split; [right; split; [discriminate|reflexivity]|discriminate].
    + cbn [bind]. eexists. split; [reflexivity|]. split; [right; split; [discriminate|]|discriminate].
      cbn [hrepg]. split; [reflexivity|]. split; [assumption|simpl; lia].
  - destruct H as (al & Hw & Hc). unfold rem_post. cbn [hn_remove]. rewrite index_ok by lia.
    destruct (Nat.ltb_spec d D) as [_|]; [|lia]. cbn [bind unwrap].
    destruct (sa_access ubits dbg Hu0 s al (idx d h) Hw (idx_lt d h))
      as [(l1 & l2 & -> & B & A & _ & -> & _)|(l1 & c & l2 & -> & B & A & _ & (w & -> & Hset) & _)]; cbn [bind].
    + assert (Hn : nomatch m es) by exact (chl_hole _ _ m _ _ _ _ Hc B A (Hm d)).
      rewrite nomatch_find, nomatch_filter by assumption. cbn [is_some].
      exists (HBranch s). split; [reflexivity|]. split.
      * destruct es as [|e es]; [left|right].
        -- split; [reflexivity|]. destruct Hne as [Hne|Hne]; [now destruct Hne|assumption].
        -- split; [discriminate|]. cbn [hrepg]. eauto.
      * intros _. split; [now right|intros _; discriminate].
    + destruct (chl_focus _ _ m _ _ _ _ _ Hc B A (Hm d)) as (es1 & ec & es2 & -> & N1 & N2 & C1 & C2 & Hr & Hnec & Hdg & Hbr).
      rewrite find_focus, filter_focus by assumption.
      destruct (IH (S d) c ec fuel Hr ltac:(lia) ltac:(lia) (or_introl Hnec) (uniq_focus _ _ _ _ Hu))
        as (c' & E & Hcase & Hbc).
      rewrite E. cbn [bind].
      pose proof (filter_len_uniq m ec (uniq_focus _ _ _ _ Hu)) as Hfl.
      set (ec' := filter (fun e => negb (m e)) ec) in *. cbv zeta in Hcase, Hbc.
      destruct Hcase as [(Hempty & ->)|(Hnee & Hr')].
      * (* the child disappears *)
        assert (Hrem : is_some (find m ec) = true).
        { destruct (is_some (find m ec)); [reflexivity|]. rewrite Hempty in Hfl. destruct ec; [now destruct Hnec|]. simpl in Hfl. lia. }
        rewrite Hrem, Hempty. cbn [app].
        change (hn_is_empty dbg new_empty_branch) with (Ok true). cbn [bind].
        destruct (sa_access ubits dbg Hu0 _ _ (idx d h) (Hset new_empty_branch) (idx_lt d h))
          as [(k1 & k2 & E1 & B1 & A1 & _)|(k1 & c1 & k2 & E1 & B1 & A1 & _ & _ & (s2 & -> & Hw2) & _)].
        { exfalso. assert (Hin : In (idx d h, new_empty_branch) (k1 ++ k2)).
          { rewrite <- E1. apply in_elt. }
          apply in_app_iff in Hin as [Hin|Hin]; [apply B1 in Hin|apply A1 in Hin]; simpl in Hin; lia. }
        cbn [bind].
        assert (Ek : k1 = l1 /\ k2 = l2).
        { assert (X : forall (a1 : list (N * node)) x a2 b1 y b2, a1 ++ (idx d h, x) :: a2 = b1 ++ (idx d h, y) :: b2 ->
            below (idx d h) a1 -> below (idx d h) b1 -> b1 = a1 /\ b2 = a2).
          { induction a1 as [|p a1 IHa]; intros x a2 b1 y b2 Eq Ba Bb; destruct b1 as [|p' b1].
            - split; [reflexivity|cbn [app] in Eq; congruence].
            - exfalso. assert (p' = (idx d h, x)) by (cbn [app] in Eq; congruence). subst p'.
              specialize (Bb _ (or_introl eq_refl)). simpl in Bb. lia.
            - exfalso. assert (p = (idx d h, y)) by (cbn [app] in Eq; congruence). subst p.
              specialize (Ba _ (or_introl eq_refl)). simpl in Ba. lia.
            - assert (p = p') by (cbn [app] in Eq; congruence). subst p'.
              destruct (IHa x a2 b1 y b2) as [-> ->]; [cbn [app] in Eq; congruence| | |auto];
                intros z Hz; [apply Ba|apply Bb]; now right. }
          exact (X _ _ _ _ _ _ E1 B B1). }
        destruct Ek as [-> ->].
        assert (H2 : hrepg (S r) d (HBranch s2) (es1 ++ es2)).
        { cbn [hrepg]. exists (l1 ++ l2). split; [assumption|]. apply chl_app. eauto. }
        destruct (compress_ok r d s2 _ H2) as (n' & -> & Hn' & Hbn & Hnil). cbn [bind].
        exists n'. split; [reflexivity|]. split.
        -- destruct (es1 ++ es2) as [|x xs] eqn:Ees; [left|right; split; [discriminate|assumption]].
           split; [reflexivity|]. rewrite (Hnil eq_refl). apply app_eq_nil in Ees as [-> ->].
           assert (l1 = []) by (apply chl_length in C1; destruct l1; [reflexivity|simpl in C1; lia]).
           assert (l2 = []) by (apply chl_length in C2; destruct l2; [reflexivity|simpl in C2; lia]).
           subst l1 l2. destruct Hw2 as (Eb & Ea & _). destruct s2 as [bm ar]. cbn in Eb, Ea. now subst.
        -- intros Hx. split; [now left|]. intros Hst _. now apply Hbn.
      * rewrite (hn_is_empty_ok r (S d) c' ec' Hnee Hr'). cbn [bind].
        assert (H2 : is_some (find m ec) = true \/ is_some (find m ec) = false) by (destruct (is_some (find m ec)); auto).
        assert (Hw' : hrepg (S r) d (HBranch (w c')) (es1 ++ ec' ++ es2)).
        { cbn [hrepg]. exists (l1 ++ (idx d h, c') :: l2). split; [apply Hset|]. apply chl_put; auto.
          - intros x Hx. apply filter_In in Hx as [Hx _]. now apply Hdg.
          - intros Hst Hx. destruct (Hbc Hx) as (Ho & Hone).
            destruct (is_some (find m ec)) eqn:Eis.
            + specialize (Hone Hst eq_refl). destruct ec' as [|? [|? ?]]; [now destruct Hnee|now destruct Hone|simpl; lia].
            + destruct Ho as [Ho|Ho]; [discriminate|]. specialize (Hbr Hst Ho). lia. }
        destruct (is_some (find m ec)).
        -- destruct (compress_ok r d _ _ Hw') as (n' & -> & Hn' & Hbn & Hnil). cbn [bind].
           exists n'. split; [reflexivity|]. split.
           ++ right. split; [|assumption]. intros Hx. apply app_eq_nil in Hx as [_ Hx].
              apply app_eq_nil in Hx as [Hx _]. contradiction.
           ++ intros Hx. split; [now left|]. intros Hst _. now apply Hbn.
        -- exists (HBranch (w c')). split; [reflexivity|]. split.
           ++ right. split; [|assumption]. intros Hx. apply app_eq_nil in Hx as [_ Hx].
              apply app_eq_nil in Hx as [Hx _]. contradiction.
           ++ intros _. split; [now right|intros _; discriminate].
  - destruct H as (H & _). discriminate.
Qed.
End HP.

(** Every map that a history reaches satisfies the strict form. *)
Notation hrep ubits b := (@hrepg ubits b _ _ true).
