(** * The heap programs of List, Stack and Queue do what the sequences do *)
From Coq Require Import List Arith Lia Bool Permutation.
From Verif Require Import Spec PermSolve HeapModel HeapProofs HeapSafe HeapLooks HeapClient HeapList.
Import ListNotations.
Local Open Scope prog_scope.

Section HLP.
Context {C : Type} (kids : C -> list addr).
Context {E T : Type}.
Context (mkN : addr -> option addr -> C) (isN : C -> option (addr * option addr)).
Context (mkE : E -> C) (isE : C -> option E) (ef : nat).
Context (erep : E -> T -> list (@ptree C) -> Prop).

Hypothesis isN_mkN : forall v nx, isN (mkN v nx) = Some (v, nx).
Hypothesis isE_mkE : forall e, isE (mkE e) = Some e.
Hypothesis kids_N : forall v nx, kids (mkN v nx) = v :: opt_list nx.
Hypothesis erep_kids : forall e x ts, erep e x ts -> kids (mkE e) = map pa ts.
Hypothesis erep_depth : forall e x ts a, erep e x ts -> pdepth (PT a (mkE e) ts) <= ef.

Notation ptree := (@ptree C).
Notation own := (@own C).
Notation safe := (safe kids).

(** The cell of an element that stands for [x]. *)
Inductive elemt (x : T) : ptree -> Prop :=
| elemt_intro : forall a e ts, erep e x ts -> elemt x (PT a (mkE e) ts).

(** The chain of nodes that stands for [s]: no cell when empty, else one. *)
Inductive chain : list T -> list ptree -> Prop :=
| ch_nil : chain [] []
| ch_cons : forall x s t ts a, elemt x t -> chain s ts ->
    chain (x :: s) [PT a (mkN (pa t) (hd_error (map pa ts))) (t :: ts)].

(** The element of the last node of a chain. *)
Inductive ends : list ptree -> ptree -> Prop :=
| en_one : forall a c t, ends [PT a c [t]] t
| en_more : forall a c t u v, ends [u] v -> ends [PT a c [t; u]] v.

(** The cached last pointer: it is the pointer to the element of the last node. *)
Inductive lastt (ts : list ptree) : option T -> list ptree -> Prop :=
| lt_none : ts = [] -> lastt ts None []
| lt_some : forall x t, elemt x t -> ends ts t -> lastt ts (Some x) [t].

Definition lrep (L : hlist) (s : list T) (lo : option T) (G : list own) : Prop :=
  exists ts tl, G = map Tree (ts ++ tl) /\ chain s ts /\ lastt ts lo tl /\
    L = mkHL (hd_error (map pa ts)) (hd_error (map pa tl)) (length s).

Lemma chain_one : forall s ts, chain s ts -> ts = [] \/ exists u, ts = [u].
Proof. intros s ts H. destruct H; eauto. Qed.

Lemma chain_opt : forall s ts, chain s ts -> opt_list (hd_error (map pa ts)) = map pa ts.
Proof. intros s ts H. now destruct H. Qed.

Lemma lastt_opt : forall us lo ts, lastt us lo ts -> opt_list (hd_error (map pa ts)) = map pa ts.
Proof. intros us s ts H. now destruct H. Qed.

Lemma elemt_depth : forall x t, elemt x t -> pdepth t <= ef.
Proof. intros x t H. destruct H. eauto. Qed.

Lemma chain_depth : forall s ts, chain s ts -> Forall (fun t => pdepth t <= length s + ef) ts.
Proof.
  intros s ts H. induction H; constructor; [|constructor].
  cbn [pdepth map length plus list_max fold_right].
  change (fold_right Nat.max 0 (map pdepth ts)) with (list_max (map pdepth ts)).
  assert (list_max (map pdepth ts) <= length s + ef).
  { apply list_max_le. rewrite Forall_map. exact IHchain. }
  pose proof (elemt_depth _ _ H). lia.
Qed.

Lemma safe_drop_elem : forall x t f, elemt x t -> ef <= f ->
  safe 0 (drop_ptr kids f (pa t)) [Tree t] (fun _ G => G = []).
Proof. intros. apply safe_drop. pose proof (elemt_depth _ _ H). lia. Qed.

Lemma safe_drop_last : forall us lo tl, lastt us lo tl ->
  safe 0 (drop_opt kids ef (hd_error (map pa tl))) (map Tree tl) (fun _ G => G = []).
Proof.
  intros us lo tl H. destruct H; cbn [map hd_error drop_opt]; [now apply safe_ret|]. now apply (safe_drop_elem x).
Qed.

Lemma safe_clone_opt : forall A us (k : prog C A) n Gx Q, (us = [] \/ exists u, us = [u]) ->
  (forall u, In u us -> lent u Gx) ->
  safe n k (map Tree us ++ Gx) Q -> safe n (clone_opt (hd_error (map pa us)) k) Gx Q.
Proof.
  intros A us k n Gx Q [->|([a c vs] & ->)] Lu S; cbn [map hd_error clone_opt pa]; [exact S|].
  exists c, vs. split; [apply Lu; now left|exact S].
Qed.

Lemma lastt_one : forall us s ts, lastt us s ts -> ts = [] \/ exists u, ts = [u].
Proof. intros us s ts H. destruct H; eauto. Qed.

Lemma lrep_new : lrep hl_new [] None [].
Proof. exists [], []. splits; constructor; trivial. Qed.

(** The element pointer [t] is handed over to the list. *)
Lemma push_ptr_ok : forall L s lo G x t,
  lrep L s lo G -> elemt x t -> 
  safe 1 (hl_push_ptr kids mkN ef (pa t) L) (Tree t :: G)
    (fun L' G' => lrep L' (x :: s) (match s with [] => Some x | _ => lo end) G').
Proof.
  intros L s lo G x t (ts & tl & -> & Ch & Lt & ->) Et. unfold hl_push_ptr. cbn [hl_len hl_head hl_last].
  assert (Fin : forall tl' lo', (forall a c, lastt [PT a c (t :: ts)] lo' tl') ->
    lo' = match s with [] => Some x | _ => lo end ->
    safe 1 (New (mkN (pa t) (hd_error (map pa ts)))
              (fun a => Ret (mkHL (Some a) (hd_error (map pa tl')) (length s + 1))))
      (Tree t :: map Tree ts ++ map Tree tl')
      (fun L' G' => lrep L' (x :: s) (match s with [] => Some x | _ => lo end) G')).
  { intros tl' lo' Lt' El. exists 0, (t :: ts), (map Tree tl'). splits; trivial.
    - rewrite kids_N, (chain_opt s ts Ch). reflexivity.
    - intros a. apply safe_ret.
      exists [PT a (mkN (pa t) (hd_error (map pa ts))) (t :: ts)], tl'. splits.
      + now rewrite map_app.
      + now constructor.
      + now rewrite <- El.
      + cbn. f_equal. lia. }
  rewrite map_app. destruct s as [|y s].
  - cbn [length Nat.eqb]. inversion Ch; subst ts. cbn [map app].
    destruct t as [a c us] eqn:Et'. cbn [pa pbind].
    exists c, us. split; [apply lent_in; now left|].
    apply safe_assoc.
    eapply (safe_seq kids _ _ 0 1 1 _ (map Tree tl) [Tree (PT a c us); Tree (PT a c us)]).
    + eapply safe_drop_last; eauto.
    + perm.
    + intros [] G' ->. cbn [app pbind].
      apply (Fin [PT a c us] (Some x)); [|trivial]. intros. constructor; [trivial|constructor].
    + lia.
  - cbn [length Nat.eqb pbind]. apply (Fin tl lo); trivial. intros. inversion Ch; subst ts.
    inversion Lt as [|z u Eu En]; subst; [discriminate|]. constructor; [trivial|]. now constructor.
Qed.

Lemma push_ok : forall L s lo G x e ts,
  lrep L s lo G -> erep e x ts ->
  safe 2 (hl_push kids mkN mkE ef e L) (map Tree ts ++ G)
    (fun L' G' => lrep L' (x :: s) (match s with [] => Some x | _ => lo end) G').
Proof.
  intros L s lo G x e ts R Er. exists 1, ts, G. splits; trivial.
  - eapply erep_kids; eauto.
  - intros v. apply (push_ptr_ok L s lo G x (PT v (mkE e) ts) R). now constructor.
Qed.

Lemma drop_first_ok : forall L s lo G,
  lrep L s lo G ->
  safe 0 (hl_drop_first kids isN ef L) G
    (fun r G' => snd r = negb (is_nil s) /\
       lrep (fst r) (tl s) (match s with [] => lo | [_] => None | _ => lo end) G').
Proof.
  intros L s lo G (ts & tl & -> & Ch & Lt & ->). unfold hl_drop_first. cbn [hl_head hl_len hl_last].
  inversion Ch as [|x s' t ts' a Et Ch']; subst.
  - cbn [map hd_error]. apply safe_ret. split; trivial. exists [], tl. splits; trivial; constructor.
  - cbn [map hd_error pa length]. unfold read_node.
    rewrite map_app. cbn [map app].
    set (nd := PT a (mkN (pa t) (hd_error (map pa ts'))) (t :: ts')).
    exists (mkN (pa t) (hd_error (map pa ts'))), (t :: ts').
    split; [apply lent_in; now left|]. intros Sh. rewrite isN_mkN.
    (* the clone of the rest of the chain *)
    apply safe_clone_opt; [eapply chain_one; eauto| |].
    { intros u Iu. eapply lent_kid; [apply lent_in; now left|]. now right. }
    apply (safe_perm kids _ _ (Tree nd :: map Tree ts' ++ map Tree tl)); [perm|].
    assert (Fin : forall tl' lo', lastt ts' lo' tl' ->
      lo' = match s' with [] => None | _ => lo end ->
      safe 0 (let* _ := drop_ptr kids (S (S ef)) a in
              Ret (mkHL (hd_error (map pa ts')) (hd_error (map pa tl')) (length s'), true))
        (Tree nd :: map Tree ts' ++ map Tree tl')
        (fun r G' => snd r = negb (is_nil (x :: s')) /\
           lrep (fst r) (List.tl (x :: s')) (match s' with [] => None | _ => lo end) G')).
    { intros tl' lo' Lt' El.
      eapply (safe_seq kids _ _ 0 0 0 _ (Tree nd :: map Tree ts') (map Tree tl')
        (fun _ G => G = map Tree ts')); [| |intros [] G' ->|lia].
      - rewrite drop_ptr_eq. eexists _, _, (map Tree ts'). split; [apply Permutation_refl|].
        split; [now apply safe_ret|]. intros _ _.
        rewrite kids_N, (chain_opt _ _ Ch'). cbn [safe map app].
        eapply (safe_seq kids _ _ 0 0 0 _ (Tree t :: map Tree ts' ++ map Tree ts') []
          (fun _ G => G = map Tree ts')); [|perm| |lia].
        + rewrite drop_all_cons.
          eapply (safe_seq kids _ _ 0 0 0 _ [Tree t] (map Tree ts' ++ map Tree ts'));
            [apply (safe_drop_elem x); trivial; lia|perm| |lia].
          intros [] G' ->. cbn [app]. destruct Ch'; [now apply safe_ret|].
          cbn [map app]. rewrite drop_all_cons.
          match goal with |- HeapSafe.safe _ _ (pbind (drop_ptr _ _ (pa ?u)) _) _ _ =>
            eapply (safe_seq kids _ _ 0 0 0 _ [Tree u; Tree u] [] (fun _ G => G = [Tree u]))
          end; [|perm| |lia].
          * apply safe_drop_shared; trivial. apply lent_in. now left.
          * intros [] G' ->. now apply safe_ret.
        + intros [] G' ->. rewrite app_nil_r. now apply safe_ret.
      - perm.
      - apply safe_ret. cbn [fst snd]. split; trivial. exists ts', tl'. rewrite map_app.
        splits; trivial. now rewrite <- El. }
    destruct s' as [|y s'].
    + cbn [length Nat.eqb]. inversion Ch'; subst ts'. apply safe_assoc.
      eapply (safe_seq kids _ _ 0 0 0 _ (map Tree tl) [Tree nd] (fun _ G => G = []));
        [eapply safe_drop_last; eauto|perm| |lia].
      intros [] G' ->. cbn [pbind]. cbn [length] in Fin. apply (Fin [] None); [now constructor|trivial].
    + cbn [length Nat.eqb pbind]. apply (Fin tl lo); [|trivial]. inversion Ch'; subst ts'.
      inversion Lt as [|z u Eu En]; subst; [discriminate|]. constructor; [trivial|]. now inversion En; subst.
Qed.

Lemma rev_loop_ok : forall s p ts ps f,
  chain s ts -> chain p ps -> length s <= f ->
  safe (length s) (hl_rev_loop kids mkN isN f (hd_error (map pa ps)) (hd_error (map pa ts)))
    (map Tree ts ++ map Tree ps)
    (fun r G => exists rs, chain (rev_append s p) rs /\ r = hd_error (map pa rs) /\ G = map Tree rs /\
       (forall t, ends ps t -> ends rs t) /\
       (forall a c t ts', ts = [PT a c (t :: ts')] -> ps = [] -> ends rs t)).
Proof.
  induction s as [|x s IH]; intros p ts ps f Ch Cp Lf; inversion Ch as [|x' s' t ts' a Et Ch']; subst.
  - cbn [map hd_error]. destruct f; cbn [hl_rev_loop]; apply safe_ret; cbn [rev_append app]; exists ps;
      splits; trivial; discriminate.
  - cbn [length] in Lf. destruct f as [|f]; [lia|]. cbn [map hd_error pa hl_rev_loop length].
    eapply (safe_seq kids _ _ 1 (length s) (S (length s)) _
      [Tree (PT a (mkN (pa t) (hd_error (map pa ts'))) (t :: ts'))] (map Tree ps));
      [apply safe_make_mut|perm| |lia].
    intros [a' c] G' (b & [= -> ->] & ->). rewrite isN_mkN.
    exists (t :: ps), (map Tree ts'). splits.
    + perm.
    + rewrite kids_N, (chain_opt _ _ Cp). reflexivity.
    + eapply safe_perm; [|eapply safe_mono; [| |apply (IH (x :: p) ts' [PT b (mkN (pa t) (hd_error (map pa ps))) (t :: ps)] f)]];
        trivial.
      * perm.
      * intros r G (rs & Cr & -> & -> & En & _). exists rs. splits; trivial.
        -- intros u Eu. apply En. destruct (chain_one _ _ Cp) as [->|(v & ->)]; [inversion Eu|now constructor].
        -- intros a0 c0 t0 ts0 [= _ _ -> _] ->. apply En. constructor.
      * now constructor.
      * lia.
Qed.

Lemma rev_append_rev' : forall (s p : list T), rev_append s p = rev s ++ p.
Proof. intros. apply rev_append_rev. Qed.

Lemma reverse_mut_ok : forall L s lo G,
  lrep L s lo G ->
  safe (length s) (hl_reverse_mut kids mkN isN ef L) G
    (fun L' G' => lrep L' (rev s) (hd_error s) G').
Proof.
  intros L s lo G (ts & tl & -> & Ch & Lt & ->). unfold hl_reverse_mut. cbn [hl_head hl_len hl_last].
  assert (Fin : forall tl', (forall rs, (forall a c t ts', ts = [PT a c (t :: ts')] -> ends rs t) -> (s = [] -> rs = []) -> lastt rs (hd_error s) tl') ->
    safe (length s) (let* h := hl_rev_loop kids mkN isN (length s) None (hd_error (map pa ts)) in
            Ret (mkHL h (hd_error (map pa tl')) (length s)))
      (map Tree ts ++ map Tree tl')
      (fun L' G' => lrep L' (rev s) (hd_error s) G')).
  { intros tl' Lt'.
    eapply (safe_seq kids _ _ (length s) 0 _ _ (map Tree ts ++ map Tree []) (map Tree tl'));
      [apply (rev_loop_ok s [] ts [] (length s)); trivial; constructor|perm| |lia].
    intros h G' (rs & Cr & -> & -> & _ & En). apply safe_ret. rewrite rev_append_rev', app_nil_r in Cr.
    exists rs, tl'. rewrite map_app. splits; trivial; [|now rewrite rev_length].
    apply Lt'; [eauto|]. intros ->. now inversion Cr. }
  rewrite map_app. inversion Ch as [|x s' t ts' a Et Ch']; subst.
  - cbn [map hd_error length]. apply safe_assoc.
    eapply (safe_seq kids _ _ 0 0 0 _ (map Tree tl) [] (fun _ G => G = []));
      [eapply safe_drop_last; eauto|perm| |lia].
    intros [] G' ->. cbn [pbind app]. apply (Fin []). intros rs _ Z. constructor. auto.
  - cbn [map hd_error pa]. unfold read_node. cbn [pbind].
    set (nd := PT a (mkN (pa t) (hd_error (map pa ts'))) (t :: ts')) in *.
    eexists _, _. split; [apply (lent_in nd); now left|]. intros _. rewrite isN_mkN. cbn [pbind].
    assert (Lt2 : lent t (Tree nd :: map Tree tl)).
    { eapply lent_kid; [apply (lent_in nd); now left|]. now left. }
    destruct t as [v c us] eqn:Et'. cbn [pa].
    exists c, us. split; [exact Lt2|]. apply safe_assoc. rewrite <- Et' in *.
    eapply (safe_seq kids _ _ 0 (length (x :: s')) _ _ (map Tree tl) [Tree t; Tree nd] (fun _ G => G = []));
      [eapply safe_drop_last; eauto|perm| |lia].
    intros [] G' ->. cbn [pbind app].
    eapply safe_perm; [|replace v with (pa t) by (now subst t); apply (Fin [t])].
    + perm.
    + intros rs En _. constructor; [trivial|]. rewrite Et'. now apply (En _ _ _ _ eq_refl).
Qed.

Lemma rev_ptrs_ok : forall s ts L s0 lo G0 G f,
  chain s ts -> (forall u, In u ts -> lent u G) -> lrep L s0 lo G0 -> length s <= f ->
  safe (length s) (hl_rev_ptrs kids mkN isN ef f (hd_error (map pa ts)) (length s) L) (G ++ G0)
    (fun L' G' => exists G1, G' = G ++ G1 /\
       lrep L' (rev s ++ s0) (match s0, s with [], x :: _ => Some x | _, _ => lo end) G1).
Proof.
  induction s as [|x s IH]; intros ts L s0 lo G0 G f Ch Ln R Lf;
    inversion Ch as [|x' s' t ts' a Et Ch']; subst.
  - cbn [map hd_error]. destruct f; cbn [hl_rev_ptrs]; apply safe_ret; exists G0; split; trivial;
      now destruct s0.
  - cbn [length] in *. destruct f as [|f]; [lia|]. cbn [map hd_error pa hl_rev_ptrs].
    unfold read_node. set (nd := PT a (mkN (pa t) (hd_error (map pa ts'))) (t :: ts')) in *.
    assert (Lnd : lent nd G) by (apply Ln; now left).
    eexists _, _. split; [apply lent_app; exact Lnd|]. intros _. rewrite isN_mkN.
    assert (Lt : lent t G) by (eapply lent_kid; [exact Lnd|now left]).
    destruct t as [v c us] eqn:Et'. cbn [pa]. exists c, us. split; [now apply lent_app|].
    rewrite <- Et' in *. replace v with (pa t) by (now subst t).
    eapply (safe_seq kids _ _ 1 (length s) _ _ (Tree t :: G0) G);
      [apply (push_ptr_ok L s0 lo G0 x t R Et)|perm| |lia].
    intros L' G' R'. eapply safe_perm; [|eapply safe_mono; [| |apply (IH ts' L' (x :: s0) (match s0 with [] => Some x | _ => lo end) G' G f Ch')]]; trivial.
    + perm.
    + intros L2 G2 (G1 & -> & R2). exists G1. split; trivial. cbn [rev]. rewrite <- app_assoc.
      destruct s0; exact R2.
    + intros u Iu. eapply lent_kid; [exact Lnd|]. now right.
    + lia.
Qed.

Lemma reverse_ok : forall L s lo G,
  lrep L s lo G ->
  safe (length s) (hl_reverse kids mkN isN ef L) G
    (fun L' G' => exists G1, G' = G ++ G1 /\ lrep L' (rev s) (hd_error s) G1).
Proof.
  intros L s lo G R. assert (R0 := R). destruct R as (ts & tl & -> & Ch & Lt & ->).
  unfold hl_reverse. cbn [hl_head hl_len].
  apply (safe_perm kids _ _ (map Tree (ts ++ tl) ++ [])); [perm|].
  eapply safe_mono; [| |apply (rev_ptrs_ok s ts hl_new [] None [])]; trivial.
  - intros L' G' (G1 & -> & R'). rewrite app_nil_r in R'. exists G1. split; trivial.
  - intros u Iu. apply lent_in. apply in_map. apply in_app_iff. now left.
  - apply lrep_new.
Qed.

Lemma clone_ok : forall L s lo G,
  lrep L s lo G ->
  safe 0 (hl_clone L) G
    (fun L' G' => exists G1 G2, G' = G1 ++ G2 /\ lrep L s lo G1 /\ lrep L' s lo G2).
Proof.
  intros L s lo G R. assert (R0 := R). destruct R as (ts & tl & -> & Ch & Lt & ->).
  unfold hl_clone. cbn [hl_head hl_len hl_last].
  apply safe_clone_opt; [eapply chain_one; eauto| |].
  { intros u Iu. apply lent_in. apply in_map. apply in_app_iff. now left. }
  apply safe_clone_opt; [eapply lastt_one; eauto| |].
  { intros u Iu. apply lent_in. apply in_app_iff. right. apply in_map. apply in_app_iff. now right. }
  exists (map Tree (ts ++ tl) ++ map Tree (ts ++ tl)). split; [perm|].
  eexists _, _. splits; [reflexivity|exact R0|exact R0].
Qed.

Lemma drop_loop_ok : forall s ts f fd,
  chain s ts -> length s <= f -> length s + ef <= fd ->
  safe 0 (hl_drop_loop kids isN ef f fd (hd_error (map pa ts))) (map Tree ts) (fun _ G => G = []).
Proof.
  induction s as [|x s IH]; intros ts f fd Ch Lf Ld; inversion Ch as [|x' s' t ts' a Et Ch']; subst.
  - cbn [map hd_error]. destruct f; now apply safe_ret.
  - cbn [length] in *. destruct f as [|f]; [lia|]. cbn [map hd_error pa hl_drop_loop].
    set (nd := PT a (mkN (pa t) (hd_error (map pa ts'))) (t :: ts')) in *.
    eexists _, _, []. split; [apply Permutation_refl|]. split.
    + apply (safe_drop kids fd nd). apply chain_depth in Ch. inversion Ch; subst. cbn [length] in *. lia.
    + intros _ _. rewrite isN_mkN. cbn [map app]. rewrite app_nil_r.
      eapply (safe_seq kids _ _ 0 0 0 _ [Tree t] (map Tree ts'));
        [apply (safe_drop_elem x); trivial|perm| |lia].
      intros [] G' ->. apply IH; trivial; lia.
Qed.

Lemma drop_ok : forall L s lo G,
  lrep L s lo G -> safe 0 (hl_drop kids isN ef L) G (fun _ G' => G' = []).
Proof.
  intros L s lo G (ts & tl & -> & Ch & Lt & ->). unfold hl_drop. cbn [hl_head hl_len hl_last].
  eapply (safe_seq kids _ _ 0 0 0 _ (map Tree ts) (map Tree tl));
    [apply (drop_loop_ok s ts (length s) (length s + ef) Ch); lia|perm| |lia].
  intros [] G' ->. cbn [app]. eapply safe_drop_last; eauto.
Qed.

(** ** Observations: they give back what they were lent *)
Lemma first_ok : forall L s lo G,
  lrep L s lo G ->
  safe 0 (hl_first isN isE L) G
    (fun r G' => G' = G /\ match s with [] => r = None | x :: _ => exists e ts, r = Some e /\ erep e x ts end).
Proof.
  intros L s lo G (ts & tl & -> & Ch & Lt & ->). unfold hl_first. cbn [hl_head].
  inversion Ch as [|x s' t ts' a Et Ch']; subst; cbn [map hd_error pa].
  - now apply safe_ret.
  - set (nd := PT a (mkN (pa t) (hd_error (map pa ts'))) (t :: ts')).
    assert (Ln : lent nd (map Tree ([nd] ++ tl))) by (apply lent_in; now left).
    eexists _, _. split; [exact Ln|]. intros _. rewrite isN_mkN.
    assert (Lt' : lent t (map Tree ([nd] ++ tl))) by (eapply lent_kid; [exact Ln|now left]).
    destruct Et as [v e us Er]. cbn [pa].
    exists (mkE e), us. split; [exact Lt'|]. intros _. rewrite isE_mkE.
    apply safe_ret. split; trivial. eauto.
Qed.

Lemma last_ok : forall L s lo G,
  lrep L s lo G ->
  safe 0 (hl_last_elem isE L) G
    (fun r G' => G' = G /\ match lo with None => r = None | Some x => exists e ts, r = Some e /\ erep e x ts end).
Proof.
  intros L s lo G (ts & tl & -> & Ch & Lt & ->). unfold hl_last_elem. cbn [hl_last].
  inversion Lt as [|x t Et]; subst; cbn [map hd_error pa].
  - now apply safe_ret.
  - destruct Et as [v e us Er]. cbn [pa].
    exists (mkE e), us. split.
    { apply lent_in. rewrite map_app. apply in_app_iff. right. now left. }
    intros _. rewrite isE_mkE. apply safe_ret. split; trivial. eauto.
Qed.

(** [chain], all of it reachable from what a thread owns. *)
Definition lentc (s : list T) (ts : list ptree) (G : list own) : Prop :=
  chain s ts /\ forall u, In u ts -> lent u G.

(** One step of [IterPtr]: the node is read, and its two pointers are good. *)
Lemma next_ptr_looks : forall s ts G, lentc s ts G ->
  looks (Nat.min 1 (length s)) (hl_next_ptr isN (hd_error (map pa ts), length s)) G
    (fun r => match s with
              | [] => r = (None, (None, 0))
              | x :: s' => exists t ts', r = (Some (pa t), (hd_error (map pa ts'), length s')) /\
                  elemt x t /\ lent t G /\ lentc s' ts' G
              end).
Proof.
  intros s ts G (Ch & Ln). unfold hl_next_ptr. inversion Ch as [|x s' t ts' a Et Ch']; subst; cbn [fst snd map hd_error pa length].
  - reflexivity.
  - assert (Lnd := Ln _ (or_introl eq_refl)).
    eapply looks_read; [exact Lnd|]. rewrite isN_mkN. exists t, ts'. splits; trivial.
    + eapply lent_kid; [exact Lnd|now left].
    + split; trivial. intros u Iu. eapply lent_kid; [exact Lnd|]. now right.
Qed.

Lemma elem_looks : forall {A} x t n G (k : E -> prog C A) Q, elemt x t -> lent t G ->
  (forall e ts, erep e x ts -> looks n (k e) G Q) -> looks (S n) (read_elem isE (pa t) k) G Q.
Proof.
  intros A x t n G k Q [a e us Er] Lt K. eapply looks_read; [exact Lt|]. rewrite isE_mkE. eauto.
Qed.

(** All of [IterPtr]. *)
Lemma collect_ptr_looks : forall s ts G f, lentc s ts G -> length s < f ->
  looks (length s) (pcollect (hl_next_ptr isN) f (hd_error (map pa ts), length s)) G
    (fun vec => Forall2 (fun v x => exists t, v = pa t /\ elemt x t /\ lent t G) vec s).
Proof.
  induction s as [|x s IH]; intros ts G [|f] Lc Lf; cbn [length] in Lf; try lia; cbn [pcollect].
  - change (length (@nil T)) with (0 + 0). eapply looks_bind; [apply (next_ptr_looks [] ts G Lc)|]. intros r ->. constructor.
  - change (length (x :: s)) with (1 + length s) at 1.
    eapply looks_bind; [apply (next_ptr_looks (x :: s) ts G Lc)|]. intros r (t & ts' & -> & Et & Lt & Lc').
    rewrite <- (Nat.add_0_r (length s)). eapply looks_bind; [rewrite Nat.add_0_r; apply (IH ts' G f Lc'); lia|].
    intros vs F. constructor; eauto.
Qed.

(** Write through [first_mut], for two elements or more: the cells are copied when shared,
    so only this list changes.  (With one element the cached last pointer, a second owner of
    the element, keeps the old one: the two pointers are no longer to the same cell.) *)
Lemma first_mut_ok : forall L s lo G (g : E -> E) (gv : T -> T),
  lrep L s lo G -> 1 < length s -> (forall e x ts, erep e x ts -> erep (g e) (gv x) ts) ->
  safe 2 (hl_first_mut kids mkN isN mkE isE g L) G
    (fun r G' => snd r = negb (is_nil s) /\
       lrep (fst r) (match s with [] => [] | x :: s' => gv x :: s' end) lo G').
Proof.
  intros L s lo G g gv (ts & tl & -> & Ch & Lt & ->) Ls Hg. unfold hl_first_mut. cbn [hl_head hl_len hl_last].
  inversion Ch as [|x s' t ts' a Et Ch']; subst; cbn [map hd_error pa].
  - apply safe_ret. split; trivial. exists [], tl. splits; trivial.
  - eapply (safe_seq kids _ _ 1 1 2 _
      [Tree (PT a (mkN (pa t) (hd_error (map pa ts'))) (t :: ts'))] (map Tree tl));
      [apply safe_make_mut|perm| |lia].
    intros [a' c] G' (b & [= -> ->] & ->). rewrite isN_mkN.
    destruct Et as [v e us Er]. cbn [pa map app].
    eapply (safe_seq kids _ _ 1 0 1 _ [Tree (PT v (mkE e) us)] (Held b :: map Tree ts' ++ map Tree tl));
      [apply safe_make_mut|perm| |lia].
    intros [v' d] G' (w & [= -> ->] & ->). rewrite isE_mkE.
    exists us, (Held b :: map Tree ts' ++ map Tree tl). splits; [perm|eapply erep_kids; eauto|].
    exists (PT w (mkE (g e)) us :: ts'), (map Tree tl). splits; [perm| |].
    + rewrite kids_N, (chain_opt _ _ Ch'). reflexivity.
    + apply safe_ret. split; trivial. eexists [_], tl. splits; [reflexivity| | |reflexivity].
      2:{ destruct Ch' as [|y s' u us' b' Eu Cu]; [cbn in Ls; lia|].
          inversion Lt as [|z q Eq En]; subst; [discriminate|]. constructor; [trivial|]. inversion En; subst. now constructor. }
      apply (ch_cons (gv x) s' (PT w (mkE (g e)) us) ts' b); trivial. constructor; auto.
Qed.
End HLP.
