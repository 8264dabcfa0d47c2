(** Iteration over a HashTrieMap whose size may exceed the number of its entries, and whose
    nodes need not be where the hashes say: what is left after a caught panic. *)
From Coq Require Import List NArith Arith Bool Lia Permutation.
From Verif Require Import Base Spec Sim ListModel ListProofs SparseModel SparseProofs HashModel HashProofs HashHist HashExtraProofs.
Import ListNotations.

(** A list whose length is right; its cached last element, which no bucket reads, may be stale
    ([first_mut] on a list of one element leaves it so). *)
Definition l_lax {T} (l : rlist T) (s : list T) : Prop := l_head l = s /\ l_length l = length s.
Lemma l_rep_lax : forall T (l : rlist T) s, l_rep l s -> l_lax l s.
Proof. intros T l s (H1 & _ & H3). now split. Qed.

(** Every collision list in the trie has the right length. *)
Fixpoint lists_ok {K V} (n : hnode K V) : Prop :=
  match n with
  | HBranch s => fold_right and True (map lists_ok (sa_array s))
  | HLeaf (BSingle _) => True
  | HLeaf (BCollision l) => exists es, l_lax l es
  end.

Lemma all_Forall : forall A (P : A -> Prop) l, fold_right and True (map P l) <-> Forall P l.
Proof.
  intros A P l. induction l as [|a l IH]; cbn [map fold_right]; [split; constructor|].
  rewrite IH. split; [intros [H1 H2]; now constructor|intros H; inversion H; auto].
Qed.

Lemma lists_branch : forall K V (s : sarr (hnode K V)), lists_ok (HBranch s) <-> Forall lists_ok (sa_array s).
Proof. intros K V s. cbn [lists_ok]. apply all_Forall. Qed.

Lemma chl_lists : forall K V st (R : hnode K V -> list (hentry K V) -> Prop) dig al es,
  (forall n es, R n es -> lists_ok n) -> @chl K V st R dig al es -> Forall lists_ok (map snd al).
Proof. intros K V st R dig al es HR H. induction H; cbn [map snd]; constructor; eauto. Qed.

Lemma hrep_lists : forall ubits b K V st r d (n : hnode K V) es, @hrepg ubits b K V st r d n es -> lists_ok n.
Proof.
  intros ubits b K V st. induction r as [|r IH]; intros d n es H; destruct n as [s|[e|l]]; cbn [hrepg] in *.
  - destruct H.
  - exact I.
  - cbn [lists_ok]. exists es. apply l_rep_lax, H.
  - destruct H as (al & (_ & Ea & _) & Hc). apply lists_branch. rewrite Ea. revert Hc. apply chl_lists. intros n es'. apply IH.
  - exact I.
  - destruct H as (H & _). discriminate.
Qed.

Lemma branch_lists : forall ubits K V (s : sarr (hnode K V)) al, sa_wf ubits s al -> Forall lists_ok (map snd al) -> lists_ok (HBranch s).
Proof. intros ubits K V s al (_ & E & _) H. apply lists_branch. now rewrite E. Qed.

(** One child replaced. *)
Lemma chl_lists_mid : forall ubits b K V st r d dig l1 i (c c' : hnode K V) l2 es,
  @chl K V st (@hrepg ubits b K V st r d) dig (l1 ++ (i, c) :: l2) es -> lists_ok c' ->
  Forall lists_ok (map snd (l1 ++ (i, c') :: l2)).
Proof.
  intros ubits b K V st r d dig l1 i c c' l2 es H Hc'. apply (chl_lists _ _ _ _ _ _ _ (fun n es => hrep_lists ubits b K V st r d n es)) in H.
  rewrite map_app in H |- *. apply Forall_app in H as [H1 H2]. inversion H2; subst. apply Forall_app. split; [assumption|]. now constructor.
Qed.

Section HI.
Context {K V : Type}.
Notation entry := (hentry K V).
Notation node := (hnode K V).

Definition wel_rep (el : @istack K V) (es : list entry) : Prop :=
  match el with
  | ISBranch l => Forall lists_ok l /\ es = concat (map n_entries l)
  | ISColl it => l_iter_rep it es
  | ISSingle o => es = match o with Some e => [e] | None => [] end
  end.

Inductive wst_rep : list (@istack K V) -> list entry -> Prop :=
| wst_nil : wst_rep [] []
| wst_cons : forall el es st rest, wel_rep el es -> wst_rep st rest -> wst_rep (el :: st) (es ++ rest).

Lemma is_new_wrep : forall n : node, lists_ok n -> wel_rep (is_new n) (n_entries n).
Proof.
  intros [s|[e|l]] H; cbn [is_new wel_rep n_entries].
  - split; [|reflexivity]. unfold sa_iter. now apply lists_branch.
  - reflexivity.
  - destruct H as (es & H). assert (E : l_head l = es) by apply H. rewrite E. exact H.
Qed.

Lemma new_weight : forall n : node, (el_weight (is_new n) < n_weight n)%nat.
Proof. intros [s|[e|l]]; simpl; unfold sa_iter; lia. Qed.

Lemma hi_loop_wok : forall n st es size, wst_rep st es -> (st_weight st < n)%nat -> length es <= size ->
  exists st' size', hi_loop n (st, size) = Ok (hd_error (map kv es), (st', size')) /\ wst_rep st' (tl es) /\ length (tl es) <= size'.
Proof.
  induction n as [|n IH]; intros st es size H Hn Hz; [lia|]. cbn [hi_loop].
  destruct H as [|el es0 st rest He Hst]; [simpl; eexists _, _; split; [reflexivity|split; [constructor|lia]]|].
  destruct el as [l|it|o]; cbn [is_next].
  - destruct He as (HF & ->). destruct l as [|c l]; inversion HF as [|? ? Hc HF']; subst.
    + cbn [bind concat map app] in *. apply IH; [assumption| |assumption]. unfold st_weight in *. simpl in Hn |- *. lia.
    + cbn [bind concat map] in *.
      assert (Hgen : forall r, r = inr (is_new c) -> exists st' size',
        match r : hentry K V + istack with
        | inl e => let! size' := csub size 1 in Ok (Some (e_key e, e_val e), (ISBranch l :: st, size'))
        | inr new => hi_loop n (new :: ISBranch l :: st, size)
        end = Ok (hd_error (map kv ((n_entries c ++ concat (map n_entries l)) ++ rest)), (st', size')) /\
        wst_rep st' (tl ((n_entries c ++ concat (map n_entries l)) ++ rest)) /\
        length (tl ((n_entries c ++ concat (map n_entries l)) ++ rest)) <= size').
      { intros r ->. rewrite <- app_assoc in *. apply IH; [| |assumption].
        - constructor; [now apply is_new_wrep|]. constructor; [|assumption]. split; [assumption|reflexivity].
        - pose proof (new_weight c). unfold st_weight in *. cbn [map fold_right el_weight] in *. lia. }
      destruct c as [s|[e|l']]; [exact (Hgen _ eq_refl)| |exact (Hgen _ eq_refl)]. clear Hgen.
      cbn [n_entries app length] in *. destruct size as [|size]; [lia|]. rewrite csub_S. cbn [bind map hd_error tl].
      eexists _, _. split; [reflexivity|]. split; [|lia]. constructor; [|assumption]. split; [assumption|reflexivity].
  - destruct (l_iter_sim it es0 He) as (_ & it' & E & He'). rewrite E. cbn [bind].
    destruct es0 as [|e es0]; cbn [hd_error option_map].
    + cbn [app] in *. apply IH; [assumption| |assumption]. unfold st_weight in *. simpl in Hn |- *. lia.
    + cbn [app length] in *. destruct size as [|size]; [lia|]. rewrite csub_S. cbn [bind map hd_error tl].
      eexists _, _. split; [reflexivity|]. split; [|lia]. now constructor.
  - destruct o as [e|]; cbn [wel_rep] in He; subst es0.
    + cbn [bind app length] in *. destruct size as [|size]; [lia|]. rewrite csub_S. cbn [bind map hd_error tl].
      eexists _, _. split; [reflexivity|]. split; [|lia]. change rest with ([] ++ rest). constructor; [reflexivity|assumption].
    + cbn [bind app] in *. apply IH; [assumption| |assumption]. unfold st_weight in *. simpl in Hn |- *. lia.
Qed.

Definition whi_rep (it : @hiter K V) (l : list (K * V)) : Prop :=
  exists es, wst_rep (fst it) es /\ map kv es = l /\ length es <= snd it.

Lemma whi_sim0 : iter_sim0 (@hi_next K V) whi_rep.
Proof.
  intros [st size] l (es & H & <- & E). cbn [fst snd] in *. unfold hi_next. cbn [fst].
  destruct (hi_loop_wok (S (st_weight st)) st es size H ltac:(lia) E) as (st' & size' & E' & H' & Hz').
  rewrite E'. eexists. split; [reflexivity|]. exists (tl es). cbn [fst snd]. split; [assumption|]. split; [now destruct es|assumption].
Qed.

(** The iterator delivers just the entries that are there. *)
Lemma hm_entries_stale : forall m : hmap K V, lists_ok (hm_root m) -> length (n_entries (hm_root m)) <= hm_size m ->
  hm_entries m = Ok (map kv (n_entries (hm_root m))).
Proof.
  intros m Hl Hz. unfold hm_entries. eapply sim_collect; [exact whi_sim0| |rewrite map_length; lia].
  exists (n_entries (hm_root m)). unfold hi_new. cbn [fst snd]. split; [|split; [reflexivity|assumption]].
  destruct (Nat.ltb_spec 0 (hm_size m)) as [H|H].
  - rewrite <- (app_nil_r (n_entries _)). constructor; [now apply is_new_wrep|constructor].
  - destruct (n_entries (hm_root m)); [constructor|simpl in Hz; lia].
Qed.
End HI.
