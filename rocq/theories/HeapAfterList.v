(** * Collision lists and tries on the heap that interrupted calls have damaged

    A call on a damaged map may write through the first element of a list of one element; the cached
    [last] of that list then points to the old element (C02).  No bucket reads it.  The
    representation of lists and of nodes here leaves it open what [last] points to; otherwise it is
    that of HeapListProofs.v and HeapHashProofs.v. *)
From Coq Require Import List NArith Arith Lia Bool Permutation.
From Verif Require Import Base Spec SpecMap Sim ListModel ListProofs SparseModel SparseProofs HashModel HashProofs HashIter
  CrashModel CrashAfter
  PermSolve HeapModel HeapProofs HeapSafe HeapClient HeapList HeapListProofs HeapVec HeapVecProofs HeapHash HeapHashProofs
  HeapHashNodes HeapCrashHash HeapCrashHashProofs.
Import ListNotations.
Local Open Scope prog_scope.

Section Lists.
Context {K V : Type}.
Notation C := (tcell K V).
Notation own := (@own C).
Notation ptree := (@ptree C).
Notation safe := (safe (@tkids K V)).
Notation entry := (hentry K V).
Notation node := (hnode K V).
Notation tchain := (chain (T := entry) TLN TLE terep).
Notation telem := (elemt (T := entry) TLE terep).

(** What the [last] field owns: nothing, or some element. *)
Definition lastx (tl : list ptree) : Prop := tl = [] \/ exists x t, tl = [t] /\ telem x t.

Definition drl (L : hlist) (s : list entry) (G : list own) : Prop :=
  exists ts tl, G = map Tree (ts ++ tl) /\ tchain s ts /\ lastx tl /\
    L = mkHL (hd_error (map pa ts)) (hd_error (map pa tl)) (length s).

Lemma lastx_opt : forall tl, lastx tl -> opt_list (hd_error (map pa tl)) = map pa tl.
Proof. intros tl [->|(x & t & -> & _)]; reflexivity. Qed.
Lemma lastx_one : forall tl, lastx tl -> tl = [] \/ exists u, tl = [u].
Proof. intros tl [->|(x & t & -> & _)]; eauto. Qed.
Lemma lastx_drop : forall tl, lastx tl -> safe 0 (drop_opt tkids 2 (hd_error (map pa tl))) (map Tree tl) (fun _ G => G = []).
Proof.
  intros tl [->|(x & t & -> & Et)]; cbn [map hd_error drop_opt]; [now apply safe_ret|].
  apply (safe_drop_elem tkids TLE 2 terep terep_depth x); trivial.
Qed.

Lemma drl_len : forall L s G, drl L s G -> hl_len L = length s.
Proof. intros L s G (? & ? & ? & ? & ? & ->). reflexivity. Qed.
Lemma drl_new : drl hl_new [] [].
Proof. exists [], []. splits; trivial; [constructor|now left]. Qed.
Lemma drl_trees : forall L s G, drl L s G -> exists ts, G = map Tree ts.
Proof. intros L s G (us & tl & -> & _). eauto. Qed.
Lemma drl_inv : forall L s ts, drl L s (map Tree ts) ->
  exists us tl, ts = us ++ tl /\ tchain s us /\ lastx tl /\ L = mkHL (hd_error (map pa us)) (hd_error (map pa tl)) (length s).
Proof. intros L s ts (us & tl & E & R). apply map_tree_inj in E. eauto. Qed.

Lemma drl_push : forall L s G e x, drl L s G -> snd e = e_hash x ->
  safe 2 (tl_push e L) (Tree (et e x) :: G) (fun L' G' => drl L' (x :: s) G').
Proof.
  intros L s G e x (ts & tl & -> & Ch & Lt & ->) Ee. unfold tl_push, hl_push, hl_push_ptr.
  exists 1, [et e x], (map Tree (ts ++ tl)). splits; trivial. intros v. set (t := PT v (TLE e) [et e x]).
  assert (Et : telem x t) by (constructor; now split).
  cbn [hl_len hl_head HeapList.hl_last].
  assert (Fin : forall tl', lastx tl' ->
    safe 1 (New (TLN v (hd_error (map pa ts))) (fun a => Ret (mkHL (Some a) (hd_error (map pa tl')) (length s + 1))))
      (Tree t :: map Tree ts ++ map Tree tl') (fun L' G' => drl L' (x :: s) G')).
  { intros tl' Lt'. exists 0, (t :: ts), (map Tree tl'). splits; trivial.
    - rewrite tkids_N, (chain_opt _ _ _ s ts Ch). reflexivity.
    - intros a. apply safe_ret. exists [PT a (TLN v (hd_error (map pa ts))) (t :: ts)], tl'. splits; trivial.
      + apply (ch_cons TLN TLE terep x s t ts a); trivial.
      + cbn. f_equal. lia. }
  rewrite map_app. destruct s as [|y s].
  - cbn [length Nat.eqb]. inversion Ch; subst ts. cbn [map app pbind].
    exists (TLE e), [et e x]. split; [apply lent_in; now left|]. apply safe_assoc.
    eapply (safe_seq tkids _ _ 0 1 1 _ (map Tree tl) [Tree t; Tree t]); [now apply lastx_drop|unfold t; perm| |lia].
    intros [] G' ->. cbn [app pbind]. apply (Fin [t]). right. eauto.
  - cbn [length Nat.eqb pbind]. now apply (Fin tl).
Qed.

Lemma drl_drop_first : forall L x s G, drl L (x :: s) G ->
  safe 0 (tl_drop_first L) G (fun r G' => drl (fst r) s G').
Proof.
  intros L x s G (ts & tl & -> & Ch & Lt & ->). unfold tl_drop_first, hl_drop_first. cbn [hl_head hl_len HeapList.hl_last].
  inversion Ch as [|x' s' t ts' a Et Ch']; subst.
  cbn [map hd_error pa length]. unfold read_node. rewrite map_app. cbn [map app].
  set (nd := PT a (TLN (pa t) (hd_error (map pa ts'))) (t :: ts')).
  exists (TLN (pa t) (hd_error (map pa ts'))), (t :: ts').
  split; [apply lent_in; now left|]. intros Sh. rewrite t_isN_N.
  apply safe_clone_opt; [eapply chain_one; eauto| |].
  { intros u Iu. eapply lent_kid; [apply lent_in; now left|]. now right. }
  apply (safe_perm tkids _ _ (Tree nd :: map Tree ts' ++ map Tree tl)); [perm|].
  assert (Fin : forall tl', lastx tl' ->
    safe 0 (let* _ := drop_ptr tkids 4 a in
            Ret (mkHL (hd_error (map pa ts')) (hd_error (map pa tl')) (length s), true))
      (Tree nd :: map Tree ts' ++ map Tree tl') (fun r G' => drl (fst r) s G')).
  { intros tl' Lt'.
    eapply (safe_seq tkids _ _ 0 0 0 _ (Tree nd :: map Tree ts') (map Tree tl')
      (fun _ G => G = map Tree ts')); [| |intros [] G' ->|lia].
    - rewrite drop_ptr_eq. eexists _, _, (map Tree ts'). split; [apply Permutation_refl|].
      split; [now apply safe_ret|]. intros _ _.
      rewrite tkids_N, (chain_opt _ _ _ _ _ Ch'). cbn [HeapSafe.safe map app].
      eapply (safe_seq tkids _ _ 0 0 0 _ (Tree t :: map Tree ts' ++ map Tree ts') []
        (fun _ G => G = map Tree ts')); [|perm| |lia].
      + rewrite drop_all_cons.
        eapply (safe_seq tkids _ _ 0 0 0 _ [Tree t] (map Tree ts' ++ map Tree ts'));
          [apply (safe_drop_elem tkids TLE 2 terep terep_depth x); trivial; lia|perm| |lia].
        intros [] G' ->. cbn [app]. destruct Ch'; [now apply safe_ret|].
        cbn [map app]. rewrite drop_all_cons.
        match goal with |- HeapSafe.safe _ _ (pbind (drop_ptr _ _ (pa ?u)) _) _ _ =>
          eapply (safe_seq tkids _ _ 0 0 0 _ [Tree u; Tree u] [] (fun _ G => G = [Tree u]))
        end; [|perm| |lia].
        * apply safe_drop_shared; trivial. apply lent_in. now left.
        * intros [] G' ->. now apply safe_ret.
      + intros [] G' ->. rewrite app_nil_r. cbn [HeapSafe.safe]. exists (map Tree ts'). split; [apply Permutation_refl|reflexivity].
    - perm.
    - apply safe_ret. cbn [fst snd]. exists ts', tl'. rewrite map_app. splits; trivial. }
  destruct s as [|y s].
  - cbn [length Nat.eqb]. inversion Ch'; subst ts'. apply safe_assoc.
    eapply (safe_seq tkids _ _ 0 0 0 _ (map Tree tl) [Tree nd] (fun _ G => G = []));
      [now apply lastx_drop|perm| |lia].
    intros [] G' ->. cbn [pbind]. cbn [length] in Fin. apply (Fin []). now left.
  - cbn [length Nat.eqb pbind]. now apply (Fin tl).
Qed.

Lemma drl_drop : forall L s G, drl L s G -> safe 0 (tl_drop L) G (fun _ G' => G' = []).
Proof.
  intros L s G (ts & tl & -> & Ch & Lt & ->). unfold tl_drop, hl_drop. cbn [hl_head hl_len HeapList.hl_last].
  eapply (safe_seq tkids _ _ 0 0 0 _ (map Tree ts) (map Tree tl));
    [apply (drop_loop_ok tkids TLN t_isN TLE 2 terep t_isN_N terep_depth s ts (length s) (length s + 2) Ch); lia|perm| |lia].
  intros [] G' ->. cbn [app]. now apply lastx_drop.
Qed.

Lemma drl_first : forall L x s G, drl L (x :: s) G ->
  exists e, snd e = e_hash x /\ lent (et e x) G /\
    forall A (k : option hewh -> prog C A) n F Q, safe n (k (Some e)) (F ++ G) Q ->
      safe n (let* o := tl_first L in k o) (F ++ G) Q.
Proof.
  intros L x s G (ts & tl & -> & Ch & Lt & ->). inversion Ch as [|x' s' t ts' a Et Ch']; subst.
  destruct Et as [v e us (-> & E)].
  set (t := PT v (TLE e) [et e x]) in *. set (nd := PT a (TLN (pa t) (hd_error (map pa ts'))) (t :: ts')) in *.
  assert (Ln : lent nd (map Tree ([nd] ++ tl))) by (apply lent_in; now left).
  assert (Lt' : lent t (map Tree ([nd] ++ tl))) by (eapply lent_kid; [exact Ln|now left]).
  exists e. split; [exact E|]. split; [eapply lent_kid; [exact Lt'|now left]|].
  intros A k n F Q S. cbn [tl_first hl_first hl_head map hd_error pa nd]. unfold tl_first, hl_first.
  cbn [hl_head map hd_error pa nd pbind read_node read_elem].
  eexists _, _. split; [eapply lent_incl; [exact Ln|apply incl_appr, incl_refl]|]. intros _. cbn [t_isN pbind].
  eexists _, _. split; [eapply lent_incl; [exact Lt'|apply incl_appr, incl_refl]|]. intros _. cbn [t_isE pbind].
  exact S.
Qed.

Lemma drl_push_back : forall bs L s G, drl L s G -> Forall good bs ->
  safe (2 * length bs) (tpush_back (map fst bs) L) (map Tree (ets bs) ++ G)
    (fun L' G' => drl L' (rev (map snd bs) ++ s) G').
Proof.
  induction bs as [|[e x] bs IH]; intros L s G R Gb; cbn [map fst snd tpush_back length rev].
  - now apply safe_ret.
  - change (map Tree (ets ((e, x) :: bs))) with (Tree (et e x) :: map Tree (ets bs)).
    inversion Gb as [|? ? G1 G2]; subst.
    seq 2 (2 * length bs) (Tree (et e x) :: G) (map Tree (ets bs)) ltac:(apply (drl_push L s G e x R G1)).
    intros L' G' R'. eapply safe_perm; [|eapply safe_mono; [apply le_n| |apply (IH L' (x :: s) G' R' G2)]].
    + perm.
    + intros L2 G3 R3. rewrite <- app_assoc. exact R3.
Qed.

(** ** Nodes *)
Inductive dtree : node -> ptree -> Prop :=
| dt_intro : forall n a c ts, dcont n c ts -> dtree n (PT a c ts)
with dcont : node -> C -> list ptree -> Prop :=
| dc_branch : forall s s' ts, sa_bitmap s' = sa_bitmap s -> sa_array s' = map pa ts ->
    Forall2 dtree (sa_array s) ts -> dcont (HBranch s) (TB s') ts
| dc_single : forall e x, snd e = e_hash x -> dcont (HLeaf (BSingle x)) (TS e) [et e x]
| dc_coll : forall L l s ts, l_lax l s -> drl L s (map Tree ts) -> dcont (HLeaf (BCollision l)) (TC L) ts.

Lemma dc_list : forall L l s G, l_lax l s -> drl L s G -> exists ts, G = map Tree ts /\ dcont (HLeaf (BCollision l)) (TC L) ts.
Proof. intros L l s G Hl R. destruct (drl_trees _ _ _ R) as (ts & ->). exists ts. split; [reflexivity|]. now apply dc_coll with (s := s). Qed.

Lemma dcont_kids : forall n c ts, dcont n c ts -> tkids c = map pa ts.
Proof.
  intros n c ts H. destruct H as [s s' ts E1 E2 F|e x E|L l s ts R1 R2]; trivial.
  destruct (drl_inv _ _ _ R2) as (us & tl & -> & Ch & Lt & ->). cbn [tkids hl_head HeapList.hl_last].
  rewrite (chain_opt _ _ _ _ _ Ch), (lastx_opt _ Lt), map_app. reflexivity.
Qed.

Lemma ddrop_ok : forall f r n t, tall r n -> r < f -> dtree n t ->
  safe 0 (tdrop f (pa t)) [Tree t] (fun _ G => G = []).
Proof.
  induction f as [|f IH]; intros r n t T L H; [lia|]. inversion H as [n' a c ts Hc]; subst. cbn [tdrop pa].
  eexists _, _, []. split; [apply Permutation_refl|]. split; [now apply safe_ret|].
  intros _ _. rewrite app_nil_r. cbn [HeapSafe.safe].
  seqq 0 0 (map (@Tree C) ts) (@nil own) (fun (_ : unit) (G : list own) => G = []);
    [|intros [] G ->; cbn [HeapSafe.safe app]; exists []; split; [constructor|reflexivity]].
  inversion Hc as [s s' ts' E1 E2 F|e x E|L' l s ts' R1 R2]; subst; cbn [tglue].
  - rewrite E2. apply each_ok. intros t I. destruct r as [|r]; [destruct T|]. cbn [tall] in T.
    assert (X : exists n, dtree n t /\ In n (sa_array s)).
    { clear - F I. induction F as [|n u l m Hn F IHF]; [destruct I|]. destruct I as [->|I].
      - exists n. split; [trivial|now left].
      - destruct (IHF I) as (n1 & H1 & H2). exists n1. split; [trivial|now right]. }
    destruct X as (n & Hn & In_). apply (IH r n t); trivial; [|lia].
    rewrite Forall_forall in T. auto.
  - apply et_drop.
  - eapply drl_drop; eauto.
Qed.

Lemma ddrop_empty : forall s t, sa_array s = [] -> dtree (HBranch s) t ->
  safe 0 (tdrop 1 (pa t)) [Tree t] (fun _ G => G = []).
Proof.
  intros s t E H. inversion H as [n' a c ts Hc]; subst. cbn [tdrop pa].
  inversion Hc as [s1 s' ts' E1 E2 F| |]; subst. rewrite E in F. inversion F; subst.
  eexists _, _, []. split; [apply Permutation_refl|]. split; [now apply safe_ret|].
  intros _ _. cbn [map app tglue]. rewrite E2. cbn [map each HeapSafe.safe pbind].
  exists []. split; [constructor|reflexivity].
Qed.

Lemma dglue_shared : forall n c ts G, dcont n c ts -> (forall t, In t ts -> lent t G) ->
  safe 0 (tglue (tdrop 1) c) (map Tree ts ++ G) (fun _ G' => G' = G).
Proof.
  intros n c ts G Hc H. destruct Hc as [s s' ts E1 E2 F|e x E|L l s ts R1 R2]; cbn [tglue].
  - rewrite E2. now apply each_shared.
  - cbn [map app]. apply (safe_drop_shared tkids 0 (et e x)); trivial. apply H. now left.
  - destruct (drl_inv _ _ _ R2) as (us & tl & -> & Ch & Lt & ->). unfold tl_drop, hl_drop.
    cbn [hl_head HeapList.hl_last hl_len].
    seqq 0 0 (map Tree us ++ map Tree tl ++ G) (@nil own) (fun (_ : unit) G' => G' = map Tree tl ++ G).
    + inversion Ch as [|x s' t ts' a Et Ch']; subst; cbn [map hd_error app].
      * cbn [hl_drop_loop]. apply (safe_ret tkids tt 0 _ (fun _ G' => G' = map Tree tl ++ G)). reflexivity.
      * cbn [length hl_drop_loop pa].
        eexists _, _, (map Tree tl ++ G). split; [apply Permutation_refl|].
        set (nd := PT a (TLN (pa t) (hd_error (map pa ts'))) (t :: ts')) in *.
        assert (Lnd : lent nd (map Tree tl ++ G)).
        { eapply lent_incl; [apply H; apply in_app_iff; left; now left|]. apply incl_appr, incl_refl. }
        split.
        -- change (S (length s') + 2) with (S (length s' + 2)). now apply (safe_drop_shared tkids _ nd).
        -- intros _ Al. exfalso. destruct Lnd as (t' & I & S). apply (Al _ I).
           apply (sub_pas _ _ S). cbn. now left.
    + intros [] G' ->. rewrite app_nil_r. apply shared_opt.
      * now apply lastx_one.
      * intros t I. apply H. apply in_app_iff. now right.
Qed.

Lemma dmake_mut_ok : forall n a c ts, dcont n c ts ->
  safe 1 (tmake_mut a) [Tree (PT a c ts)]
    (fun r G => exists a', r = (a', c) /\ G = Held a' :: map Tree ts).
Proof.
  intros n a c ts Hc. unfold tmake_mut. exists c, ts, []. split; [apply Permutation_refl|]. split.
  - exists c, ts. split; [apply lent_in; now left|]. intros _. rewrite (dcont_kids _ _ _ Hc).
    apply safe_clone_all.
    + rewrite Forall_forall. intros t T. eapply lent_kid; [apply lent_in; now left|exact T].
    + exists 0. split; [reflexivity|]. intros a'.
      apply (safe_perm _ _ _ (Tree (PT a c ts) :: (map Tree ts ++ [Held a']))); [perm|].
      cbn [tdrop pbind]. eexists _, _, (map Tree ts ++ [Held a']).
      split; [apply Permutation_refl|]. split.
      * exists (Held a' :: map Tree ts). split; [perm|]. eauto.
      * intros _ _. cbn [pbind HeapSafe.safe]. apply safe_assoc.
        seq 0 0 (map Tree ts ++ map Tree ts ++ [Held a']) (@nil own) ltac:(eapply dglue_shared; [exact Hc|]).
        { intros t T. apply lent_in. apply in_app_iff. left. now apply in_map. }
        intros [] G' ->. rewrite app_nil_r. cbn [pbind HeapSafe.safe].
        exists (Held a' :: map Tree ts). split; [perm|]. eauto.
  - intros _ _. apply safe_ret. exists a. split; [reflexivity|]. rewrite app_nil_r. reflexivity.
Qed.

(** ** Sparse arrays of nodes and of pointers *)
Variable ubits : N.
Variable dbg : bool.

Definition dsim (s : sarr node) (s' : sarr addr) (ts : list ptree) : Prop :=
  sa_bitmap s' = sa_bitmap s /\ sa_array s' = map pa ts /\ Forall2 dtree (sa_array s) ts.

Lemma dsim_cont : forall s s' ts, dsim s s' ts -> dcont (HBranch s) (TB s') ts.
Proof. intros s s' ts (E1 & E2 & F). now constructor. Qed.
Lemma dsim_new : dsim sa_new sa_new [].
Proof. repeat split. constructor. Qed.

Lemma dsim_get : forall s s' ts i o, dsim s s' ts -> sa_get ubits dbg s i = Ok o ->
  match o with
  | None => sa_get ubits dbg s' i = Ok None
  | Some n => exists t, In t ts /\ dtree n t /\ sa_get ubits dbg s' i = Ok (Some (pa t))
  end.
Proof.
  intros s s' ts i o (E1 & E2 & F) H. unfold sa_get in *. rewrite E1, E2.
  apply lift_inv in H. destruct H as ([] & -> & H). cbn [bind] in *.
  apply lift_inv in H. destruct H as ([j|] & -> & H); cbn [bind] in *.
  - apply lift_inv in H. destruct H as (x & E & H). injection H as <-.
    destruct (nth_error (sa_array s) j) as [y|] eqn:Ej; [|discriminate]. injection E as ->.
    destruct (nth_split2 _ _ _ _ _ F Ej) as (l1 & l2 & m1 & t & m2 & El & -> & L1 & L2 & F1 & Ht & F2).
    exists t. split; [apply in_elt|]. split; trivial.
    rewrite map_app. cbn [map]. rewrite (nth_split j) by (now rewrite map_length). reflexivity.
  - now injection H as <-.
Qed.

Lemma dsim_get_mut : forall s s' ts i o, dsim s s' ts -> sa_get_mut ubits dbg s i = Ok o ->
  match o with
  | None => sa_get_mut ubits dbg s' i = Ok None
  | Some (n, w) => sa_get ubits dbg s i = Ok (Some n) /\
      exists ts1 t ts2 w', ts = ts1 ++ t :: ts2 /\ dtree n t /\
      sa_get_mut ubits dbg s' i = Ok (Some (pa t, w')) /\
      (forall n' t', dtree n' t' -> dsim (w n') (w' (pa t')) (ts1 ++ t' :: ts2)) /\
      (forall n' p' s2, sa_remove ubits dbg (w n') i = Ok s2 ->
         exists s2', sa_remove ubits dbg (w' p') i = Ok s2' /\ dsim s2 s2' (ts1 ++ ts2)) /\
      (forall n', exists l1 l2, sa_array s = l1 ++ n :: l2 /\ sa_array (w n') = l1 ++ n' :: l2)
  end.
Proof.
  intros s s' ts i o (E1 & E2 & F) H. unfold sa_get_mut, sa_get in *. rewrite E1, E2.
  apply lift_inv in H. destruct H as ([] & -> & H). cbn [bind] in *.
  apply lift_inv in H. destruct H as ([j|] & Ej & H); cbn [bind] in *; rewrite Ej; cbn [bind].
  - apply lift_inv in H. destruct H as (x & E & H). injection H as <-.
    destruct (nth_error (sa_array s) j) as [y|] eqn:En; [|discriminate]. injection E as ->. split; [reflexivity|].
    destruct (nth_split2 _ _ _ _ _ F En) as (l1 & l2 & m1 & t & m2 & El & -> & L1 & L2 & F1 & Ht & F2).
    exists m1, t, m2. eexists. split; [reflexivity|]. split; [exact Ht|]. split; [|split; [|split]].
    + rewrite map_app. cbn [map]. rewrite (nth_split j) by (now rewrite map_length). reflexivity.
    + intros n' t' Ht'. cbv beta.
      rewrite (map_at_split (pa t')) by (now rewrite map_length).
      rewrite El, (map_at_split n') by trivial. repeat split; cbn [sa_array sa_bitmap].
      * rewrite map_app. reflexivity.
      * apply Forall2_app; trivial. now constructor.
    + intros n' p' s2. unfold sa_remove. cbv beta. cbn [sa_bitmap sa_array].
      rewrite Ej. cbn [bind]. intros Hr.
      apply lift_inv in Hr. destruct Hr as (one & -> & Hr). apply lift_inv in Hr. destruct Hr as (a & Er & Hr).
      injection Hr as <-. cbn [bind]. rewrite El, (map_at_split n'), vec_remove_split in Er by trivial. injection Er as <-.
      rewrite (map_at_split p'), vec_remove_split by (now rewrite map_length). cbn [bind].
      eexists. split; [reflexivity|]. repeat split; cbn [sa_array sa_bitmap].
      * now rewrite map_app.
      * now apply Forall2_app.
    + intros n'. exists l1, l2. split; [trivial|]. cbn [sa_array]. rewrite El. now apply map_at_split.
  - now injection H as <-.
Qed.

Lemma dsim_set_none : forall s s' ts i n s2, dsim s s' ts -> sa_get_mut ubits dbg s i = Ok None ->
  sa_set ubits dbg s i n = Ok s2 ->
  exists ts1 ts2, ts = ts1 ++ ts2 /\ forall t, dtree n t ->
    exists s2', sa_set ubits dbg s' i (pa t) = Ok s2' /\ dsim s2 s2' (ts1 ++ t :: ts2).
Proof.
  intros s s' ts i n s2 (E1 & E2 & F) Hg H. unfold sa_get_mut in Hg. unfold sa_set in *. rewrite E1, E2.
  apply lift_inv in H. destruct H as ([] & Ea & H). rewrite Ea in *. cbn [bind] in *.
  apply lift_inv in H. destruct H as ([j|] & Ej & H); rewrite Ej in *; cbn [bind] in *.
  { destruct (nth_error (sa_array s) j); discriminate. }
  apply lift_inv in H. destruct H as (j & -> & H). cbn [bind].
  apply lift_inv in H. destruct H as (one & -> & H). cbn [bind].
  apply lift_inv in H. destruct H as (a & Ei & H). injection H as <-.
  destruct (vec_insert_inv _ _ _ _ Ei) as (l1 & l2 & El & L1 & ->). rewrite El in F.
  destruct (split2 _ _ _ _ F) as (m1 & m2 & -> & L2 & F1 & F2).
  exists m1, m2. split; [trivial|]. intros t Ht.
  rewrite map_app, (vec_insert_split j) by (rewrite map_length; congruence). cbn [bind].
  eexists. split; [reflexivity|]. repeat split; cbn [sa_array sa_bitmap].
  - rewrite map_app. reflexivity.
  - apply Forall2_app; trivial. now constructor.
Qed.

End Lists.
