(** * Collections of collections do what sequences of values do *)
From Coq Require Import List Arith Lia Bool Permutation.
From Verif Require Import Base Spec ListModel PermSolve HeapModel HeapProofs HeapSafe HeapLooks HeapShare HeapClient HeapList
  HeapListProofs HeapIn HeapInProofs HeapOf.
Import ListNotations.
Local Open Scope prog_scope.

Section OfProofs.
Context {C E V Op Out : Type} (I : impl C E Op Out) (S : spec V Op Out).
Context (rep : E -> V -> list (@own C) -> Prop) (ncost : nat) (cost : Op -> V -> nat).
Hypothesis by_I : implements_by I S rep ncost cost.

Notation D := (ncell E C).
Notation iown := (@own C).
Notation itree := (@ptree C).
Notation own := (@own D).
Notation ptree := (@ptree D).
Notation kids := (nkids I).
Notation safe := (safe kids).
Notation isafe := (HeapSafe.safe (i_kids I)).

Notation up := (up (@NI E C)).
Notation inj := (inj (@NI E C) n_isI).
Notation erep := (erep rep (@NI E C)).
Fact isI_mkI : forall c, n_isI (@NI E C c) = Some c.
Proof. reflexivity. Qed.
Fact kids_I : forall c, kids (NI c) = i_kids I c.
Proof. reflexivity. Qed.

Notation irun_cost := (irun_cost S cost).
Notation opt_cost := (opt_cost S cost).
Let idrop_ok := idrop_ok I S rep ncost cost by_I NI n_isI kids isI_mkI kids_I.
Let clone_elem := clone_elem I S rep ncost cost by_I NI n_isI kids isI_mkI kids_I.
Let rep_erep := rep_erep (D := D) I S rep ncost cost by_I NI.
Let work_ok := work_ok I S rep ncost cost by_I NI n_isI kids isI_mkI kids_I.
Let make_ok := make_ok I S rep ncost cost by_I NI n_isI kids isI_mkI kids_I.
Let try_out_ok := try_out_ok I S rep ncost cost by_I NI n_isI kids isI_mkI kids_I.

(** ** Elements *)
Lemma erep_kids : forall e v ts, erep e v ts -> kids (NE e) = map pa ts.
Proof. exact (erep_pas (D := D) I S rep ncost cost by_I NI). Qed.

Fact isN_mkN : forall v nx, n_isN (@NN E C v nx) = Some (v, nx).
Proof. reflexivity. Qed.
Fact isE_mkE : forall e, n_isE (@NE E C e) = Some e.
Proof. reflexivity. Qed.
Fact kids_N : forall v nx, kids (NN v nx) = v :: opt_list nx.
Proof. reflexivity. Qed.

Notation elemt := (elemt (C := D) NE erep).
Notation chain := (chain (C := D) NN NE erep).
Notation lastt := (lastt (C := D) NE erep).
Notation lrep := (lrep (C := D) NN NE erep).
Notation lentc := (lentc (C := D) NN NE erep).

Lemma elem_drop : forall x t f, elemt x t -> 1 <= f -> safe 0 (ndrop I f (pa t)) [Tree t] (fun _ G => G = []).
Proof.
  intros x t f [a e ts Er] Lf. destruct f as [|f]; [lia|]. cbn [ndrop pa].
  exists (NE e), ts, []. split; [apply Permutation_refl|]. split; [now apply safe_ret|].
  intros _ _. cbn [HeapSafe.safe]. destruct Er as (us & R & ->).
  eapply (safe_seq kids _ _ 0 0 0 _ (map up (map Tree us)) []
            (fun _ G => G = [])); [apply (idrop_ok _ _ _ R)| |intros [] G' ->|lia].
  - rewrite map_up_tree. perm.
  - cbn [HeapSafe.safe app]. eexists. split; [apply Permutation_refl|reflexivity].
Qed.

Lemma chain_drop : forall s ts, chain s ts -> forall f, length s + 1 <= f ->
  forall t, In t ts -> safe 0 (ndrop I f (pa t)) [Tree t] (fun _ G => G = []).
Proof.
  intros s ts Ch. induction Ch as [|x s t ts a Et Ch IH]; intros f Lf u Hu; [destruct Hu|].
  destruct Hu as [<-|[]]. cbn [length] in Lf. destruct f as [|f]; [lia|]. cbn [ndrop pa].
  eexists _, _, []. split; [apply Permutation_refl|]. split; [now apply safe_ret|].
  intros _ _. cbn [HeapSafe.safe]. rewrite app_nil_r.
  eapply (safe_seq kids _ _ 0 0 0 _ (map Tree (t :: ts)) [] (fun _ G => G = []));
    [|perm|intros [] G' ->; cbn [HeapSafe.safe app]; eexists; split; [apply Permutation_refl|reflexivity]|lia].
  cbn [map].
  eapply (safe_seq kids _ _ 0 0 0 _ [Tree t] (map Tree ts)); [apply (elem_drop x); trivial; lia|perm| |lia].
  intros [] G' ->. cbn [app].
  destruct (chain_one _ _ _ _ _ Ch) as [->|(u & ->)]; cbn [map hd_error]; [now apply safe_ret|].
  apply IH; [lia|now left].
Qed.

Lemma drop_last : forall us lo tl, lastt us lo tl ->
  safe 0 (ndrop_opt I 1 (hd_error (map pa tl))) (map Tree tl) (fun _ G => G = []).
Proof.
  intros us lo tl H. destruct H; cbn [map hd_error ndrop_opt]; [now apply safe_ret|]. now apply (elem_drop x).
Qed.

Lemma drop_shared : forall f t G n (Q : unit -> list own -> Prop),
  lent t G -> Q tt G -> safe n (ndrop I (Datatypes.S f) (pa t)) (Tree t :: G) Q.
Proof.
  intros f [a c ts] G n Q L q. cbn [ndrop pa]. exists c, ts, G.
  split; [apply Permutation_refl|]. split; [now apply safe_ret|].
  intros _ Al. exfalso. destruct L as (t' & Hi & Su). apply (Al _ Hi).
  apply (sub_pas _ _ Su). cbn. now left.
Qed.

Lemma nl_push_ptr_ok : forall L s lo G x t,
  lrep L s lo G -> elemt x t ->
  safe 1 (nl_push_ptr I (pa t) L) (Tree t :: G)
    (fun L' G' => lrep L' (x :: s) (match s with [] => Some x | _ => lo end) G').
Proof.
  intros L s lo G x t (ts & tl & -> & Ch & Lt & ->) Et. unfold nl_push_ptr. cbn [hl_len hl_head hl_last].
  assert (Fin : forall tl' lo', (forall a c, lastt [PT a c (t :: ts)] lo' tl') ->
    lo' = match s with [] => Some x | _ => lo end ->
    safe 1 (New (NN (pa t) (hd_error (map pa ts)))
              (fun a => Ret (mkHL (Some a) (hd_error (map pa tl')) (length s + 1))))
      (Tree t :: map Tree ts ++ map Tree tl')
      (fun L' G' => lrep L' (x :: s) (match s with [] => Some x | _ => lo end) G')).
  { intros tl' lo' Lt' El. exists 0, (t :: ts), (map Tree tl'). splits; trivial.
    - rewrite kids_N, (chain_opt _ _ _ s ts Ch). reflexivity.
    - intros a. apply safe_ret.
      exists [PT a (NN (pa t) (hd_error (map pa ts))) (t :: ts)], tl'. splits.
      + now rewrite map_app.
      + now constructor.
      + now rewrite <- El.
      + cbn. f_equal. lia. }
  rewrite map_app. destruct s as [|y s].
  - cbn [length Nat.eqb]. inversion Ch; subst ts. cbn [map app].
    destruct t as [a c us] eqn:Et'. cbn [pa pbind].
    exists c, us. split; [apply lent_in; now left|].
    apply safe_assoc.
    eapply (safe_seq kids _ _ 0 1 1 _ (map Tree tl) [Tree (PT a c us); Tree (PT a c us)]).
    + eapply drop_last; eauto.
    + perm.
    + intros [] G' ->. cbn [app pbind].
      apply (Fin [PT a c us] (Some x)); [|trivial]. intros. constructor; [trivial|constructor].
    + lia.
  - cbn [length Nat.eqb pbind]. apply (Fin tl lo); trivial. intros. inversion Ch; subst ts.
    inversion Lt as [|z u Eu En]; subst; [discriminate|]. constructor; [trivial|]. now constructor.
Qed.

Lemma nl_push_ok0 : forall L s lo G x e ts,
  lrep L s lo G -> erep e x ts ->
  safe 2 (nl_push I e L) (map Tree ts ++ G)
    (fun L' G' => lrep L' (x :: s) (match s with [] => Some x | _ => lo end) G').
Proof.
  intros L s lo G x e ts R Er. exists 1, ts, G. splits; trivial.
  - eapply erep_kids; eauto.
  - intros v. apply (nl_push_ptr_ok L s lo G x (PT v (NE e) ts) R). now constructor.
Qed.

Lemma nl_drop_first_ok0 : forall L s lo G,
  lrep L s lo G ->
  safe 0 (nl_drop_first I L) G
    (fun r G' => snd r = negb (is_nil s) /\
       lrep (fst r) (tl s) (match s with [] => lo | [_] => None | _ => lo end) G').
Proof.
  intros L s lo G (ts & tl & -> & Ch & Lt & ->). unfold nl_drop_first. cbn [hl_head hl_len hl_last].
  inversion Ch as [|x s' t ts' a Et Ch']; subst.
  - cbn [map hd_error]. apply safe_ret. split; trivial. exists [], tl. splits; trivial; constructor.
  - cbn [map hd_error pa length]. unfold read_node.
    rewrite map_app. cbn [map app].
    set (nd := PT a (NN (pa t) (hd_error (map pa ts'))) (t :: ts')).
    exists (NN (pa t) (hd_error (map pa ts'))), (t :: ts').
    split; [apply lent_in; now left|]. intros Sh. rewrite isN_mkN.
    (* the clone of the rest of the chain *)
    apply safe_clone_opt; [eapply chain_one; eauto| |].
    { intros u Iu. eapply lent_kid; [apply lent_in; now left|]. now right. }
    apply (safe_perm kids _ _ (Tree nd :: map Tree ts' ++ map Tree tl)); [perm|].
    assert (Fin : forall tl' lo', lastt ts' lo' tl' ->
      lo' = match s' with [] => None | _ => lo end ->
      safe 0 (let* _ := ndrop I 2 a in
              Ret (mkHL (hd_error (map pa ts')) (hd_error (map pa tl')) (length s'), true))
        (Tree nd :: map Tree ts' ++ map Tree tl')
        (fun r G' => snd r = negb (is_nil (x :: s')) /\
           lrep (fst r) (List.tl (x :: s')) (match s' with [] => None | _ => lo end) G')).
    { intros tl' lo' Lt' El.
      eapply (safe_seq kids _ _ 0 0 0 _ (Tree nd :: map Tree ts') (map Tree tl')
        (fun _ G => G = map Tree ts')); [| |intros [] G' ->|lia].
      - cbn [ndrop]. eexists _, _, (map Tree ts'). split; [apply Permutation_refl|].
        split; [now apply safe_ret|]. intros _ _. cbn [HeapSafe.safe map app].
        eapply (safe_seq kids _ _ 0 0 0 _ (Tree t :: map Tree ts' ++ map Tree ts') []
          (fun _ G => G = map Tree ts')); [|perm| |lia].
        + eapply (safe_seq kids _ _ 0 0 0 _ [Tree t] (map Tree ts' ++ map Tree ts'));
            [apply (elem_drop x t 1); trivial|perm| |lia].
          intros [] G' ->. cbn [app]. destruct Ch'; [now apply safe_ret|].
          cbn [map app hd_error].
          match goal with |- HeapSafe.safe _ _ _ [Tree ?u; Tree ?u] _ =>
            apply (drop_shared 0 u [Tree u]) end; [apply lent_in; now left|reflexivity].
        + intros [] G' ->. cbn [HeapSafe.safe]. rewrite app_nil_r. eexists. split; [apply Permutation_refl|reflexivity].
      - perm.
      - apply safe_ret. cbn [fst snd]. split; trivial. exists ts', tl'. rewrite map_app.
        splits; trivial. now rewrite <- El. }
    destruct s' as [|y s'].
    + cbn [length Nat.eqb]. inversion Ch'; subst ts'. apply safe_assoc.
      eapply (safe_seq kids _ _ 0 0 0 _ (map Tree tl) [Tree nd] (fun _ G => G = []));
        [eapply drop_last; eauto|perm| |lia].
      intros [] G' ->. cbn [pbind]. cbn [length] in Fin. apply (Fin [] None); [now constructor|trivial].
    + cbn [length Nat.eqb pbind]. apply (Fin tl lo); [|trivial]. inversion Ch'; subst ts'.
      inversion Lt as [|z u Eu En]; subst; [discriminate|]. constructor; [trivial|]. now inversion En; subst.
Qed.

Lemma nl_reverse_mut_ok0 : forall L s lo G,
  lrep L s lo G ->
  safe (length s) (nl_reverse_mut I L) G
    (fun L' G' => lrep L' (rev s) (hd_error s) G').
Proof.
  intros L s lo G (ts & tl & -> & Ch & Lt & ->). unfold nl_reverse_mut. cbn [hl_head hl_len hl_last].
  assert (Fin : forall tl', (forall rs, (forall a c t ts', ts = [PT a c (t :: ts')] -> ends rs t) -> (s = [] -> rs = []) -> lastt rs (hd_error s) tl') ->
    safe (length s) (let* h := hl_rev_loop kids NN n_isN (length s) None (hd_error (map pa ts)) in
            Ret (mkHL h (hd_error (map pa tl')) (length s)))
      (map Tree ts ++ map Tree tl')
      (fun L' G' => lrep L' (rev s) (hd_error s) G')).
  { intros tl' Lt'.
    eapply (safe_seq kids _ _ (length s) 0 _ _ (map Tree ts ++ map Tree []) (map Tree tl'));
      [apply (rev_loop_ok kids NN n_isN NE erep isN_mkN kids_N s [] ts [] (length s)); trivial; constructor|perm| |lia].
    intros h G' (rs & Cr & -> & -> & _ & En). apply safe_ret. rewrite rev_append_rev', app_nil_r in Cr.
    exists rs, tl'. rewrite map_app. splits; trivial; [|now rewrite rev_length].
    apply Lt'; [eauto|]. intros ->. now inversion Cr. }
  rewrite map_app. inversion Ch as [|x s' t ts' a Et Ch']; subst.
  - cbn [map hd_error length]. apply safe_assoc.
    eapply (safe_seq kids _ _ 0 0 0 _ (map Tree tl) [] (fun _ G => G = []));
      [eapply drop_last; eauto|perm| |lia].
    intros [] G' ->. cbn [pbind app]. apply (Fin []). intros rs _ Z. constructor. auto.
  - cbn [map hd_error pa]. unfold read_node. cbn [pbind].
    set (nd := PT a (NN (pa t) (hd_error (map pa ts'))) (t :: ts')) in *.
    eexists _, _. split; [apply (lent_in nd); now left|]. intros _. rewrite isN_mkN. cbn [pbind].
    assert (Lt2 : lent t (Tree nd :: map Tree tl)).
    { eapply lent_kid; [apply (lent_in nd); now left|]. now left. }
    destruct t as [v c us] eqn:Et'. cbn [pa].
    exists c, us. split; [exact Lt2|]. apply safe_assoc. rewrite <- Et' in *.
    eapply (safe_seq kids _ _ 0 (length (x :: s')) _ _ (map Tree tl) [Tree t; Tree nd] (fun _ G => G = []));
      [eapply drop_last; eauto|perm| |lia].
    intros [] G' ->. cbn [pbind app].
    eapply safe_perm; [|replace v with (pa t) by (now subst t); apply (Fin [t])].
    + perm.
    + intros rs En _. constructor; [trivial|]. rewrite Et'. now apply (En _ _ _ _ eq_refl).
Qed.

Lemma nl_rev_ptrs_ok : forall s ts L s0 lo G0 G f,
  chain s ts -> (forall u, In u ts -> lent u G) -> lrep L s0 lo G0 -> length s <= f ->
  safe (length s) (nl_rev_ptrs I f (hd_error (map pa ts)) (length s) L) (G ++ G0)
    (fun L' G' => exists G1, G' = G ++ G1 /\
       lrep L' (rev s ++ s0) (match s0, s with [], x :: _ => Some x | _, _ => lo end) G1).
Proof.
  induction s as [|x s IH]; intros ts L s0 lo G0 G f Ch Ln R Lf;
    inversion Ch as [|x' s' t ts' a Et Ch']; subst.
  - cbn [map hd_error]. destruct f; cbn [nl_rev_ptrs]; apply safe_ret; exists G0; split; trivial;
      now destruct s0.
  - cbn [length] in *. destruct f as [|f]; [lia|]. cbn [map hd_error pa nl_rev_ptrs].
    unfold read_node. set (nd := PT a (NN (pa t) (hd_error (map pa ts'))) (t :: ts')) in *.
    assert (Lnd : lent nd G) by (apply Ln; now left).
    eexists _, _. split; [apply lent_app; exact Lnd|]. intros _. rewrite isN_mkN.
    assert (Lt : lent t G) by (eapply lent_kid; [exact Lnd|now left]).
    destruct t as [v c us] eqn:Et'. cbn [pa]. exists c, us. split; [now apply lent_app|].
    rewrite <- Et' in *. replace v with (pa t) by (now subst t).
    eapply (safe_seq kids _ _ 1 (length s) _ _ (Tree t :: G0) G);
      [apply (nl_push_ptr_ok L s0 lo G0 x t R Et)|perm| |lia].
    intros L' G' R'. eapply safe_perm; [|eapply safe_mono; [| |apply (IH ts' L' (x :: s0) (match s0 with [] => Some x | _ => lo end) G' G f Ch')]]; trivial.
    + perm.
    + intros L2 G2 (G1 & -> & R2). exists G1. split; trivial. cbn [rev]. rewrite <- app_assoc.
      destruct s0; exact R2.
    + intros u Iu. eapply lent_kid; [exact Lnd|]. now right.
    + lia.
Qed.

Lemma nl_drop_loop_ok : forall s ts f fd,
  chain s ts -> length s <= f -> length s + 1 <= fd ->
  safe 0 (nl_drop_loop I f fd (hd_error (map pa ts))) (map Tree ts) (fun _ G => G = []).
Proof.
  induction s as [|x s IH]; intros ts f fd Ch Lf Ld; inversion Ch as [|x' s' t ts' a Et Ch']; subst.
  - cbn [map hd_error]. destruct f; now apply safe_ret.
  - cbn [length] in *. destruct f as [|f]; [lia|]. cbn [map hd_error pa nl_drop_loop].
    set (nd := PT a (NN (pa t) (hd_error (map pa ts'))) (t :: ts')) in *.
    eexists _, _, []. split; [apply Permutation_refl|]. split.
    + apply (chain_drop _ _ Ch fd Ld nd). now left.
    + intros _ _. rewrite isN_mkN. cbn [map app]. rewrite app_nil_r.
      eapply (safe_seq kids _ _ 0 0 0 _ [Tree t] (map Tree ts'));
        [apply (elem_drop x); trivial|perm| |lia].
      intros [] G' ->. apply IH; trivial; lia.
Qed.

(** ** The list *)
Definition nlrep (L : hlist) (s : list V) (G : list own) : Prop := lrep L s (last_error s) G.

Lemma nl_push_ok : forall L s G x e ts, nlrep L s G -> erep e x ts ->
  safe 2 (nl_push I e L) (map Tree ts ++ G) (fun L' G' => nlrep L' (x :: s) G').
Proof.
  intros L s G x e ts R Er. eapply safe_mono; [apply le_n| |exact (nl_push_ok0 L s _ G x e ts R Er)].
  intros L' G' R'. unfold nlrep. destruct s; exact R'.
Qed.

Lemma nl_drop_first_ok : forall L s G, nlrep L s G ->
  safe 0 (nl_drop_first I L) G (fun r G' => snd r = negb (is_nil s) /\ nlrep (fst r) (tl s) G').
Proof.
  intros L s G R. eapply safe_mono; [apply le_n| |exact (nl_drop_first_ok0 L s _ G R)].
  intros [L' b] G' (Eb & R'). split; trivial. unfold nlrep. cbn [fst] in *.
  destruct s as [|x [|y s]]; exact R'.
Qed.

Lemma last_rev : forall (s : list V), last_error (rev s) = hd_error s.
Proof.
  intros [|x s]; [reflexivity|]. cbn. induction (rev s) as [|y l IH]; [reflexivity|].
  cbn [app]. destruct l; [reflexivity|exact IH].
Qed.

Lemma nl_reverse_ok : forall L s G, nlrep L s G ->
  safe (length s) (nl_reverse I L) G (fun L' G' => exists G1, G' = G ++ G1 /\ nlrep L' (rev s) G1).
Proof.
  intros L s G R. destruct R as (ts & tl & -> & Ch & Lt & ->).
  unfold nl_reverse. cbn [hl_head hl_len].
  apply (safe_perm kids _ _ (map Tree (ts ++ tl) ++ [])); [perm|].
  eapply safe_mono; [apply le_n| |apply (nl_rev_ptrs_ok s ts hl_new [] None [])]; trivial.
  - intros L' G' (G1 & -> & R'). rewrite app_nil_r in R'. exists G1. split; trivial.
    unfold nlrep. now rewrite last_rev.
  - intros u Iu. apply lent_in. apply in_map. apply in_app_iff. now left.
  - apply lrep_new.
Qed.

Lemma nl_reverse_mut_ok : forall L s G, nlrep L s G ->
  safe (length s) (nl_reverse_mut I L) G (fun L' G' => nlrep L' (rev s) G').
Proof.
  intros L s G R. eapply safe_mono; [apply le_n| |exact (nl_reverse_mut_ok0 L s _ G R)].
  intros L' G' R'. unfold nlrep. now rewrite last_rev.
Qed.

Lemma nl_clone_ok : forall L s G, nlrep L s G ->
  safe 0 (nl_clone L) G (fun L' G' => exists G2, G' = G ++ G2 /\ nlrep L' s G2).
Proof.
  intros L s G R. assert (R0 := R). destruct R as (ts & tl & -> & Ch & Lt & ->).
  unfold nl_clone, hl_clone. cbn [hl_head hl_len hl_last].
  apply safe_clone_opt; [eapply chain_one; eauto| |].
  { intros u Iu. apply lent_in. apply in_map. apply in_app_iff. now left. }
  apply safe_clone_opt; [eapply lastt_one; eauto| |].
  { intros u Iu. apply lent_in. apply in_app_iff. right. apply in_map. apply in_app_iff. now right. }
  exists (map Tree (ts ++ tl) ++ map Tree (ts ++ tl)). split; [perm|].
  eexists. split; [reflexivity|exact R0].
Qed.

Lemma nl_copies : forall L, copying (nl_clone L : prog D hlist).
Proof. intros L. unfold nl_clone, hl_clone. now destruct (hl_head L), (hl_last L). Qed.

Lemma nl_drop_ok : forall L s G, nlrep L s G -> safe 0 (nl_drop I L) G (fun _ G' => G' = []).
Proof.
  intros L s G (ts & tl & -> & Ch & Lt & ->). unfold nl_drop. cbn [hl_head hl_len hl_last].
  eapply (safe_seq kids _ _ 0 0 0 _ (map Tree ts) (map Tree tl));
    [apply (nl_drop_loop_ok s ts (length s) (length s + 1) Ch); lia|perm| |lia].
  intros [] G' ->. cbn [app]. eapply drop_last; eauto.
Qed.

Lemma fetch : forall x t F, elemt x t -> lent t F ->
  safe 0 (read_elem n_isE (pa t) (fun e => let* e' := inj (i_clone I e) in Ret (Some e'))) F
    (fun o G' => exists e G2, o = Some e /\ G' = F ++ map up G2 /\ rep e x G2).
Proof.
  intros x t F [a e us Er] Lt. unfold read_elem. cbn [pa]. exists (NE e), us. split; [exact Lt|]. intros _.
  rewrite isE_mkE.
  eapply (safe_seq kids _ _ 0 0 0 _ F []); [apply (clone_elem e x us F Er)|perm| |lia].
  - intros u Hu. eapply lent_kid; eauto.
  - intros e' G' (G2 & -> & R2). rewrite app_nil_r. apply safe_ret. eauto.
Qed.

Lemma nl_first_ok : forall L s G, nlrep L s G ->
  safe 0 (nl_first I L) G (fun o G' => match hd_error s with
    | None => o = None /\ G' = G
    | Some x => exists e G2, o = Some e /\ G' = G ++ map up G2 /\ rep e x G2 end).
Proof.
  intros L s G (ts & tl & -> & Ch & Lt & ->). unfold nl_first. cbn [hl_head].
  inversion Ch as [|x s' t ts' a Et Ch']; subst; cbn [map hd_error pa].
  - now apply safe_ret.
  - set (nd := PT a (NN (pa t) (hd_error (map pa ts'))) (t :: ts')).
    assert (Ln : lent nd (map Tree ([nd] ++ tl))) by (apply lent_in; now left).
    eexists _, _. split; [exact Ln|]. intros _. rewrite isN_mkN.
    apply (fetch x t); trivial. eapply lent_kid; [exact Ln|now left].
Qed.

Lemma nl_last_ok : forall L s G, nlrep L s G ->
  safe 0 (nl_last I L) G (fun o G' => match last_error s with
    | None => o = None /\ G' = G
    | Some x => exists e G2, o = Some e /\ G' = G ++ map up G2 /\ rep e x G2 end).
Proof.
  intros L s G (ts & tl & -> & Ch & Lt & ->). unfold nl_last. cbn [hl_last].
  inversion Lt as [Et Ex|x t Et En Ex]; subst; cbn [map hd_error pa].
  - now apply safe_ret.
  - apply (fetch x t); trivial. apply lent_in. rewrite map_app. apply in_app_iff. right. now left.
Qed.

Lemma nl_each_ok : forall l s ts F f, lentc s ts F -> length s < f -> Forall (vmay S l) s ->
  safe (list_sum (map (irun_cost l) s)) (nl_each I l f (hd_error (map pa ts), length s)) F
    (fun r G' => G' = F /\ r = map (fun x => snd (vrun S l x)) s).
Proof.
  intros l. induction s as [|x s IH]; intros ts F [|f] Lc Lf M; cbn [length] in Lf; try lia; cbn [nl_each].
  - eapply (safe_seq kids _ _ 0 0 0 _ F []);
      [eapply looks_safe, (next_ptr_looks NN n_isN NE erep isN_mkN [] ts F Lc)|perm| |lia].
    intros r G' (-> & ->). rewrite app_nil_r. now apply safe_ret.
  - inversion M as [|? ? Mx Ms]; subst. cbn [map].
    change (list_sum (irun_cost l x :: map (irun_cost l) s)) with (irun_cost l x + list_sum (map (irun_cost l) s)).
    eapply (safe_seq kids _ _ 0 (irun_cost l x + list_sum (map (irun_cost l) s)) _ _ F []);
      [eapply looks_safe, (next_ptr_looks NN n_isN NE erep isN_mkN (x :: s) ts F Lc)|perm| |lia].
    intros r G' (-> & t & ts' & -> & Et & Lt & Lc'). rewrite app_nil_r.
    destruct Et as [a e us Er]. unfold read_elem. cbn [pa].
    exists (NE e), us. split; [exact Lt|]. intros _. rewrite isE_mkE.
    eapply (safe_seq kids _ _ 0 (irun_cost l x + list_sum (map (irun_cost l) s)) _ _ F []);
      [apply (clone_elem e x us F Er)|perm| |lia].
    { intros u Hu. eapply lent_kid; eauto. }
    intros e' G' (G2 & -> & R2). rewrite app_nil_r.
    eapply (safe_seq kids _ _ (irun_cost l x) (list_sum (map (irun_cost l) s)) _ _ (map up G2) F);
      [apply (work_ok l e' x G2 R2 Mx)|perm| |lia].
    intros [e2 xs] G' (G3 & -> & Ex & R3). cbn [fst snd] in *. subst xs.
    eapply (safe_seq kids _ _ 0 (list_sum (map (irun_cost l) s)) _ _ (map up G3) F); [apply (idrop_ok _ _ _ R3)|perm| |lia].
    intros [] G' ->. cbn [app].
    eapply (safe_seq kids _ _ (list_sum (map (irun_cost l) s)) 0 _ _ F []); [apply (IH ts' F f Lc'); [lia|trivial]|perm| |lia].
    intros r G' (-> & ->). rewrite app_nil_r. now apply safe_ret.
Qed.

Lemma nlrep_len : forall L s G, nlrep L s G -> hl_len L = length s.
Proof. now intros L s G (ts & tl & -> & Ch & Lt & ->). Qed.

Lemma nlrep_new : nlrep hl_new [] [].
Proof. apply lrep_new. Qed.

(** What one call may allocate. *)
Definition nl_cost (o : nop Op) (s : list V) : nat :=
  match o with
  | NPush l | NPushMut l => ncost + irun_cost l (s_new S) + 2
  | NCopy l => opt_cost l (hd_error s) + 2
  | NRev | NRevMut => length s
  | NFirst l => opt_cost l (hd_error s)
  | NLast l => opt_cost l (last_error s)
  | NEach l => list_sum (map (irun_cost l) s)
  | NDrop | NDropMut | NLen => 0
  end.

Ltac seq n1 n2 G1 F tac := eapply (safe_seq kids _ _ n1 n2 _ _ G1 F); [tac|perm| |lia].

Theorem nl_step_ok : forall o L s G, nlrep L s G -> nl_pre S o s ->
  safe (nl_cost o s) (nl_step I o L) G
    (fun r G' => snd r = snd (nl_spec S o s) /\ nlrep (fst r) (fst (nl_spec S o s)) G').
Proof.
  intros o L s G R Pr. destruct o as [l|l|l| | | | |l|l|l|]; cbn [nl_step nl_cost nl_spec nl_pre] in *.
  - (* NPush *)
    seq (ncost + irun_cost l (s_new S)) 2 (@nil own) G ltac:(apply (make_ok l Pr)).
    intros [e xs] G' (ts & -> & Ex & Er). cbn [fst snd] in *.
    destruct (vrun S l (s_new S)) as [v xs']. cbn [fst snd] in *. subst xs'.
    seq 0 2 G (map (@Tree D) ts) ltac:(apply (nl_clone_ok L s G R)).
    intros n G' (G2 & -> & R2).
    seq 2 0 (map (@Tree D) ts ++ G2) G ltac:(apply (nl_push_ok n s G2 v e ts R2 Er)).
    intros n' G' R'. seq 0 0 G G' ltac:(apply (nl_drop_ok L s G R)).
    intros [] G3 ->. now apply safe_ret.
  - seq (ncost + irun_cost l (s_new S)) 2 (@nil own) G ltac:(apply (make_ok l Pr)).
    intros [e xs] G' (ts & -> & Ex & Er). cbn [fst snd] in *.
    destruct (vrun S l (s_new S)) as [v xs']. cbn [fst snd] in *. subst xs'.
    seq 2 0 (map (@Tree D) ts ++ G) (@nil own) ltac:(apply (nl_push_ok L s G v e ts R Er)).
    intros n' G' R'. rewrite app_nil_r. now apply safe_ret.
  - (* NCopy *)
    seq 0 (opt_cost l (hd_error s) + 2) G (@nil own) ltac:(apply (nl_first_ok L s G R)).
    intros o G' H. rewrite app_nil_r. destruct s as [|x s]; cbn [hd_error opt_cost opt_may] in *.
    + destruct H as (-> & ->). now apply safe_ret.
    + destruct H as (e & G2 & -> & -> & R2).
      seq (irun_cost l x) 2 (map up G2) G ltac:(apply (work_ok l e x G2 R2 Pr)).
      intros [e' xs] G' (G3 & -> & Ex & R3). cbn [fst snd] in *.
      destruct (rep_erep _ _ _ R3) as (ts & -> & Er).
      destruct (vrun S l x) as [v xs']. cbn [fst snd] in *. subst xs'.
      seq 2 0 (map (@Tree D) ts ++ G) (@nil own) ltac:(apply (nl_push_ok L (x :: s) G v e' ts R Er)).
      intros n' G' R'. rewrite app_nil_r. now apply safe_ret.
  - seq 0 0 G (@nil own) ltac:(apply (nl_clone_ok L s G R)).
    intros n G' (G2 & -> & R2). rewrite app_nil_r.
    seq 0 0 G2 G ltac:(apply (nl_drop_first_ok n s G2 R2)).
    intros [n' b] G' (Eb & R'). cbn [fst snd] in *. subst b. destruct s as [|x s]; cbn [is_nil negb].
    + seq 0 0 G' G ltac:(apply (nl_drop_ok n' _ G' R')).
      intros [] G3 ->. now apply safe_ret.
    + seq 0 0 G G' ltac:(apply (nl_drop_ok L _ G R)).
      intros [] G3 ->. now apply safe_ret.
  - seq 0 0 G (@nil own) ltac:(apply (nl_drop_first_ok L s G R)).
    intros [n' b] G' (Eb & R'). cbn [fst snd] in *. subst b. apply safe_ret. now rewrite app_nil_r.
  - seq (length s) 0 G (@nil own) ltac:(apply (nl_reverse_ok L s G R)).
    intros n G' (G1 & -> & R1). seq 0 0 G G1 ltac:(apply (nl_drop_ok L s G R)).
    intros [] G3 ->. now apply safe_ret.
  - seq (length s) 0 G (@nil own) ltac:(apply (nl_reverse_mut_ok L s G R)).
    intros n G' R1. apply safe_ret. now rewrite app_nil_r.
  - seq 0 (opt_cost l (hd_error s)) G (@nil own) ltac:(apply (nl_first_ok L s G R)).
    intros o G' H. rewrite app_nil_r.
    seq (opt_cost l (hd_error s)) 0 G' (@nil own) ltac:(apply (try_out_ok l (hd_error s) o G G' Pr H)).
    intros r G2 (-> & ->). rewrite app_nil_r. now apply safe_ret.
  - seq 0 (opt_cost l (last_error s)) G (@nil own) ltac:(apply (nl_last_ok L s G R)).
    intros o G' H. rewrite app_nil_r.
    seq (opt_cost l (last_error s)) 0 G' (@nil own) ltac:(apply (try_out_ok l (last_error s) o G G' Pr H)).
    intros r G2 (-> & ->). rewrite app_nil_r. now apply safe_ret.
  - assert (R0 := R). destruct R as (ts & tl & -> & Ch & Lt & ->). unfold hl_iter_new. cbn [hl_head hl_len].
    seq (list_sum (map (irun_cost l) s)) 0 (map (@Tree D) (ts ++ tl)) (@nil own)
      ltac:(apply (nl_each_ok l s ts (map Tree (ts ++ tl)) (Datatypes.S (length s))); [|lia|exact Pr]).
    { split; trivial. intros u Hu. apply lent_in, in_map, in_app_iff. now left. }
    intros r G' (-> & ->). rewrite app_nil_r. now apply safe_ret.
  - apply safe_ret. cbn [fst snd]. rewrite (nlrep_len L s G R). auto.
Qed.

Lemma nl_rep_roots : forall L s G, nlrep L s G -> exists ts, G = map Tree ts /\ nl_roots L = map pa ts.
Proof.
  intros L s G (ts & tl & -> & Ch & Lt & ->). exists (ts ++ tl). split; trivial.
  unfold nl_roots. cbn [hl_head hl_last]. rewrite map_app.
  now rewrite (chain_opt _ _ _ _ _ Ch), (lastt_opt _ _ _ _ _ Lt).
Qed.

Theorem list_of_by : implements_by (list_of I) (list_of_spec S) nlrep 0 nl_cost.
Proof.
  constructor; cbn [list_of list_of_spec queue_of queue_of_spec i_kids i_roots i_new i_clone i_drop i_op s_new s_op s_pre].
  - apply safe_ret, nlrep_new.
  - apply nl_clone_ok.
  - apply nl_copies.
  - apply nl_drop_ok.
  - apply nl_step_ok.
  - apply nl_rep_roots.
Qed.

(** ** The queue *)
Definition nqrep (q : hqueue) (s : list V) (G : list own) : Prop :=
  exists i o Gi Go, nlrep (hq_in q) i Gi /\ nlrep (hq_out q) o Go /\ s = o ++ rev i /\ G = Gi ++ Go.

Lemma nqrep_new : nqrep hq_new [] [].
Proof. exists [], [], [], []. splits; trivial; apply nlrep_new. Qed.

Lemma nq_clone_ok : forall q s G, nqrep q s G ->
  safe 0 (nq_clone q) G (fun q' G' => exists G2, G' = G ++ G2 /\ nqrep q' s G2).
Proof.
  intros q s G (i & o & Gi & Go & Ri & Ro & -> & ->). unfold nq_clone.
  seq 0 0 Gi Go ltac:(apply (nl_clone_ok _ i Gi Ri)).
  intros i' G' (G2 & -> & R2).
  seq 0 0 Go (Gi ++ G2) ltac:(apply (nl_clone_ok _ o Go Ro)).
  intros o' G' (G4 & -> & R4).
  exists ((Gi ++ Go) ++ (G2 ++ G4)). split; [perm|].
  exists (G2 ++ G4). split; trivial. exists i, o, G2, G4. auto.
Qed.

Lemma nq_copies : forall q, copying (nq_clone q : prog D hqueue).
Proof.
  intros q. unfold nq_clone. destruct (hq_in q) as [[|] [|] ?], (hq_out q) as [[|] [|] ?]; exact Logic.I.
Qed.

Lemma nq_drop_ok : forall q s G, nqrep q s G -> safe 0 (nq_drop I q) G (fun _ G' => G' = []).
Proof.
  intros q s G (i & o & Gi & Go & Ri & Ro & -> & ->). unfold nq_drop.
  seq 0 0 Gi Go ltac:(apply (nl_drop_ok _ i Gi Ri)).
  intros [] G' ->. apply (nl_drop_ok _ o Go Ro).
Qed.

Lemma nq_enqueue_mut_ok : forall e v ts q s G, nqrep q s G -> erep e v ts ->
  safe 2 (nq_enqueue_mut I e q) (map Tree ts ++ G) (fun q' G' => nqrep q' (s ++ [v]) G').
Proof.
  intros e v ts q s G (i & o & Gi & Go & Ri & Ro & -> & ->) Er. unfold nq_enqueue_mut.
  seq 2 0 (map (@Tree D) ts ++ Gi) Go ltac:(apply (nl_push_ok _ i Gi v e ts Ri Er)).
  intros i' G' R'. apply safe_ret. exists (v :: i), o, G', Go. splits; trivial.
  cbn [rev]. now rewrite app_assoc.
Qed.

Lemma nq_dequeue_mut_ok : forall q s G, nqrep q s G ->
  safe (length s) (nq_dequeue_mut I q) G (fun r G' => snd r = negb (is_nil s) /\ nqrep (fst r) (tl s) G').
Proof.
  intros q s G (i & o & Gi & Go & Ri & Ro & -> & ->). unfold nq_dequeue_mut.
  rewrite (nlrep_len _ _ _ Ri), (nlrep_len _ _ _ Ro).
  destruct o as [|x o]; cbn [length Nat.eqb negb].
  - destruct i as [|y i]; cbn [length Nat.eqb negb].
    + apply safe_ret. cbn [fst snd]. split; trivial. exists [], [], Gi, Go. auto.
    + cbn [app]. rewrite rev_length.
      seq (length (y :: i)) 0 Gi Go ltac:(apply (nl_reverse_mut_ok _ (y :: i) Gi Ri)).
      intros o' G' R'. seq 0 0 G' Go ltac:(apply (nl_drop_first_ok _ _ G' R')).
      intros [o2 b] G2 (Eb & R2). apply (safe_perm _ _ _ (Go ++ G2)); [perm|]. apply safe_ret.
      cbn [fst snd] in *. split.
      * cbn [app]. cbn [rev]. now destruct (rev i).
      * exists [], (tl (rev (y :: i))), Go, G2. splits; trivial. cbn [app].
        now rewrite app_nil_r.
  - seq 0 0 Go Gi ltac:(apply (nl_drop_first_ok _ _ Go Ro)).
    intros [o2 b] G2 (Eb & R2). apply (safe_perm _ _ _ (Gi ++ G2)); [perm|]. apply safe_ret.
    cbn [fst snd] in *. split; trivial. exists i, o, Gi, G2. splits; trivial.
Qed.

Lemma nq_peek_ok : forall q s G, nqrep q s G ->
  safe 0 (nq_peek I q) G (fun o G' => match hd_error s with
    | None => o = None /\ G' = G
    | Some x => exists e G2, o = Some e /\ G' = G ++ map up G2 /\ rep e x G2 end).
Proof.
  intros q s G (i & o & Gi & Go & Ri & Ro & -> & ->). unfold nq_peek. rewrite (nlrep_len _ _ _ Ro).
  assert (Fin : forall F F' (ov : option V) (o : option E) G', Permutation (G' ++ F') G' \/ True ->
    match ov with
    | None => o = None /\ G' = F
    | Some x => exists e G2, o = Some e /\ G' = F ++ map up G2 /\ rep e x G2 end ->
    Permutation (F ++ F') (Gi ++ Go) ->
    exists G2, Permutation (G' ++ F') G2 /\
    match ov with
    | None => o = None /\ G2 = Gi ++ Go
    | Some x => exists e G3, o = Some e /\ G2 = (Gi ++ Go) ++ map up G3 /\ rep e x G3 end).
  { intros F F' [v|] o' G' _ H Pm.
    - destruct H as (e & G2 & -> & -> & R). exists ((Gi ++ Go) ++ map up G2). split; [|eauto].
      eapply Permutation_trans; [|apply Permutation_app_tail, Pm]. perm.
    - destruct H as (-> & ->). eauto. }
  destruct o as [|x o]; cbn [length Nat.eqb negb].
  - assert (Hd : hd_error ([] ++ rev i) = last_error i).
    { cbn [app]. rewrite <- (rev_involutive i) at 2. now rewrite last_rev. }
    rewrite Hd. eapply (safe_frame kids _ 0 0 _ Gi Go); [apply (nl_last_ok _ i Gi Ri)|perm| |lia].
    cbv beta. intros o' G' H. apply (Fin Gi Go _ _ _ (or_intror Logic.I) H). perm.
  - eapply (safe_frame kids _ 0 0 _ Go Gi); [apply (nl_first_ok _ (x :: o) Go Ro)|perm| |lia].
    cbv beta. intros o' G' H. apply (Fin Go Gi (hd_error (x :: o)) _ _ (or_intror Logic.I) H). perm.
Qed.

Definition nq_cost (o : nqop Op) (s : list V) : nat :=
  match o with
  | NEnq l | NEnqMut l => ncost + irun_cost l (s_new S) + 2
  | NRequeue l => opt_cost l (hd_error s) + 2
  | NDeq | NDeqMut => length s
  | NPeek l => opt_cost l (hd_error s)
  | NQLen => 0
  end.

Theorem nq_step_ok : forall o q s G, nqrep q s G -> nq_pre S o s ->
  safe (nq_cost o s) (nq_step I o q) G
    (fun r G' => snd r = snd (nq_spec S o s) /\ nqrep (fst r) (fst (nq_spec S o s)) G').
Proof.
  intros o q s G R Pr. destruct o as [l|l|l| | |l|]; cbn [nq_step nq_cost nq_spec nq_pre] in *.
  - seq (ncost + irun_cost l (s_new S)) 2 (@nil own) G ltac:(apply (make_ok l Pr)).
    intros [e xs] G' (ts & -> & Ex & Er). cbn [fst snd] in *.
    destruct (vrun S l (s_new S)) as [v xs']. cbn [fst snd] in *. subst xs'.
    seq 0 2 G (map (@Tree D) ts) ltac:(apply (nq_clone_ok q s G R)).
    intros n G' (G2 & -> & R2).
    seq 2 0 (map (@Tree D) ts ++ G2) G ltac:(apply (nq_enqueue_mut_ok e v ts n s G2 R2 Er)).
    intros n' G' R'. seq 0 0 G G' ltac:(apply (nq_drop_ok q s G R)).
    intros [] G3 ->. now apply safe_ret.
  - seq (ncost + irun_cost l (s_new S)) 2 (@nil own) G ltac:(apply (make_ok l Pr)).
    intros [e xs] G' (ts & -> & Ex & Er). cbn [fst snd] in *.
    destruct (vrun S l (s_new S)) as [v xs']. cbn [fst snd] in *. subst xs'.
    seq 2 0 (map (@Tree D) ts ++ G) (@nil own) ltac:(apply (nq_enqueue_mut_ok e v ts q s G R Er)).
    intros n' G' R'. rewrite app_nil_r. now apply safe_ret.
  - seq 0 (opt_cost l (hd_error s) + 2) G (@nil own) ltac:(apply (nq_peek_ok q s G R)).
    intros o G' H. rewrite app_nil_r. destruct s as [|x s]; cbn [hd_error opt_cost opt_may] in *.
    + destruct H as (-> & ->). now apply safe_ret.
    + destruct H as (e & G2 & -> & -> & R2).
      seq (irun_cost l x) 2 (map up G2) G ltac:(apply (work_ok l e x G2 R2 Pr)).
      intros [e' xs] G' (G3 & -> & Ex & R3). cbn [fst snd] in *.
      destruct (rep_erep _ _ _ R3) as (ts & -> & Er).
      destruct (vrun S l x) as [v xs']. cbn [fst snd] in *. subst xs'.
      seq 2 0 (map (@Tree D) ts ++ G) (@nil own) ltac:(apply (nq_enqueue_mut_ok e' v ts q (x :: s) G R Er)).
      intros n' G' R'. rewrite app_nil_r. now apply safe_ret.
  - seq 0 (length s) G (@nil own) ltac:(apply (nq_clone_ok q s G R)).
    intros n G' (G2 & -> & R2). rewrite app_nil_r.
    seq (length s) 0 G2 G ltac:(apply (nq_dequeue_mut_ok n s G2 R2)).
    intros [n' b] G' (Eb & R'). cbn [fst snd] in *. subst b. destruct s as [|x s]; cbn [is_nil negb].
    + seq 0 0 G' G ltac:(apply (nq_drop_ok n' _ G' R')).
      intros [] G3 ->. now apply safe_ret.
    + seq 0 0 G G' ltac:(apply (nq_drop_ok q _ G R)).
      intros [] G3 ->. now apply safe_ret.
  - seq (length s) 0 G (@nil own) ltac:(apply (nq_dequeue_mut_ok q s G R)).
    intros [n' b] G' (Eb & R'). cbn [fst snd] in *. subst b. apply safe_ret. now rewrite app_nil_r.
  - seq 0 (opt_cost l (hd_error s)) G (@nil own) ltac:(apply (nq_peek_ok q s G R)).
    intros o G' H. rewrite app_nil_r.
    seq (opt_cost l (hd_error s)) 0 G' (@nil own) ltac:(apply (try_out_ok l (hd_error s) o G G' Pr H)).
    intros r G2 (-> & ->). rewrite app_nil_r. now apply safe_ret.
  - apply safe_ret. cbn [fst snd]. split; trivial. destruct R as (i & o & Gi & Go & Ri & Ro & -> & ->).
    rewrite (nlrep_len _ _ _ Ri), (nlrep_len _ _ _ Ro), app_length, rev_length. f_equal. lia.
Qed.

Lemma nq_rep_roots : forall q s G, nqrep q s G -> exists ts, G = map Tree ts /\ nq_roots q = map pa ts.
Proof.
  intros q s G (i & o & Gi & Go & Ri & Ro & -> & ->).
  destruct (nl_rep_roots _ _ _ Ri) as (ti & -> & Ei). destruct (nl_rep_roots _ _ _ Ro) as (to & -> & Eo).
  exists (ti ++ to). unfold nq_roots. now rewrite !map_app, Ei, Eo.
Qed.

Theorem queue_of_by : implements_by (queue_of I) (queue_of_spec S) nqrep 0 nq_cost.
Proof.
  constructor; cbn [list_of list_of_spec queue_of queue_of_spec i_kids i_roots i_new i_clone i_drop i_op s_new s_op s_pre].
  - apply safe_ret, nqrep_new.
  - apply nq_clone_ok.
  - apply nq_copies.
  - apply nq_drop_ok.
  - apply nq_step_ok.
  - apply nq_rep_roots.
Qed.
End OfProofs.

Theorem list_of_ok : forall {C E V Op Out : Type} (I : impl C E Op Out) (S : spec V Op Out),
  implements I S -> implements (list_of I) (list_of_spec S).
Proof. intros C E V Op Out I S (rep & n & cost & H). eexists _, _, _. apply (list_of_by I S rep n cost H). Qed.

Theorem queue_of_ok : forall {C E V Op Out : Type} (I : impl C E Op Out) (S : spec V Op Out),
  implements I S -> implements (queue_of I) (queue_of_spec S).
Proof. intros C E V Op Out I S (rep & n & cost & H). eexists _, _, _. apply (queue_of_by I S rep n cost H). Qed.
