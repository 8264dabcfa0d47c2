(** * The heap programs of the hash trie do what the trie does *)
From Coq Require Import List NArith Arith Lia Bool Permutation.
From Verif Require Import Base Spec SpecMap Sim ListModel ListProofs SparseModel SparseProofs HashModel HashProofs
  PermSolve HeapModel HeapProofs HeapSafe HeapClient HeapList HeapListProofs HeapVec HeapVecProofs HeapHash.
Import ListNotations.
Local Open Scope prog_scope.

Ltac seq n1 n2 G1 F tac := eapply (safe_seq _ _ _ n1 n2 _ _ G1 F); [tac|perm| |lia].

Ltac seqq n1 n2 G1 F Q1 := eapply (safe_seq _ _ _ n1 n2 _ _ G1 F Q1); [|perm| |lia].

Section Rep.
Context {K V : Type}.
Notation C := (tcell K V).
Notation own := (@own C).
Notation ptree := (@ptree C).
Notation safe := (safe (@tkids K V)).
Notation entry := (hentry K V).
Notation node := (hnode K V).

(** The cell of an entry, and the entry with the hash stored beside the pointer. *)
Definition et (e : hewh) (x : entry) : ptree := PT (fst e) (TE (e_key x, e_val x)) [].
Definition terep (e : hewh) (x : entry) (ts : list ptree) : Prop := ts = [et e x] /\ snd e = e_hash x.

Notation trep L s G := (lrep (T := entry) TLN TLE terep L s (last_error s) G).
Notation tchain := (chain (T := entry) TLN TLE terep).

(** Cells that stand for a node; contents that do. *)
Inductive ntree : node -> ptree -> Prop :=
| nt_intro : forall n a c ts, ncont n c ts -> ntree n (PT a c ts)
with ncont : node -> C -> list ptree -> Prop :=
| nc_branch : forall s s' ts, sa_bitmap s' = sa_bitmap s -> sa_array s' = map pa ts ->
    Forall2 ntree (sa_array s) ts -> ncont (HBranch s) (TB s') ts
| nc_single : forall e x, snd e = e_hash x -> ncont (HLeaf (BSingle x)) (TS e) [et e x]
| nc_coll : forall L l s ts, l_rep l s -> trep L s (map Tree ts) -> ncont (HLeaf (BCollision l)) (TC L) ts.

Lemma terep_kids : forall e x ts, terep e x ts -> @tkids K V (TLE e) = map pa ts.
Proof. intros e x ts (-> & _). reflexivity. Qed.
Lemma terep_depth : forall e x ts a, terep e x ts -> pdepth (PT a (@TLE K V e) ts) <= 2.
Proof. intros e x ts a (-> & _). cbn. lia. Qed.
Lemma t_isN_N : forall v nx, t_isN (@TLN K V v nx) = Some (v, nx).
Proof. reflexivity. Qed.
Lemma t_isE_E : forall e, t_isE (@TLE K V e) = Some e.
Proof. reflexivity. Qed.
Lemma tkids_N : forall v nx, tkids (@TLN K V v nx) = v :: opt_list nx.
Proof. reflexivity. Qed.

Lemma map_tree_inj : forall (l m : list ptree), map Tree l = map Tree m -> l = m.
Proof.
  induction l as [|x l IH]; intros [|y m] H; try discriminate; trivial. cbn in H. injection H as -> H. f_equal. auto.
Qed.

Lemma trep_inv : forall L s ts, trep L s (map Tree ts) ->
  exists us tl, ts = us ++ tl /\ tchain s us /\ lastt TLE terep us (last_error s) tl /\
    L = mkHL (hd_error (map pa us)) (hd_error (map pa tl)) (length s).
Proof. intros L s ts (us & tl & E & R). apply map_tree_inj in E. eauto. Qed.

Lemma ncont_kids : forall n c ts, ncont n c ts -> tkids c = map pa ts.
Proof.
  intros n c ts H. destruct H as [s s' ts E1 E2 F|e x E|L l s ts R1 R2]; trivial.
  destruct (trep_inv _ _ _ R2) as (us & tl & -> & Ch & Lt & ->). cbn [tkids hl_head HeapList.hl_last].
  rewrite (chain_opt _ _ _ _ _ Ch), (lastt_opt _ _ _ _ _ Lt), map_app. reflexivity.
Qed.

(** ** Dropping nodes *)

(** Leaves at most [r] levels down. *)
Fixpoint tall (r : nat) (n : node) : Prop :=
  match n with
  | HLeaf _ => True
  | HBranch s => match r with 0 => False | S r' => Forall (tall r') (sa_array s) end
  end.

Lemma each_ok : forall (dn : addr -> prog C unit) (ts : list ptree),
  (forall t, In t ts -> safe 0 (dn (pa t)) [Tree t] (fun _ G => G = [])) ->
  safe 0 (each dn (map pa ts)) (map Tree ts) (fun _ G => G = []).
Proof.
  intros dn ts. induction ts as [|t ts IH]; intros H; cbn [each map]; [now apply safe_ret|].
  seq 0 0 [Tree t] (map Tree ts) ltac:(apply H; now left).
  intros [] G ->. apply IH. intros u I. apply H. now right.
Qed.

Lemma et_drop : forall e x f, safe 0 (drop_ptr tkids (S f) (fst e)) [Tree (et e x)] (fun _ G => G = []).
Proof. intros e x f. apply (safe_drop tkids (S f) (et e x)). cbn. lia. Qed.

Lemma tl_drop_ok : forall L s G, trep L s G -> safe 0 (tl_drop L) G (fun _ G' => G' = []).
Proof.
  intros L s G R. eapply (drop_ok tkids TLN t_isN TLE 2 terep t_isN_N terep_depth). exact R.
Qed.

Lemma tdrop_ok : forall f r n t, tall r n -> r < f -> ntree n t ->
  safe 0 (tdrop f (pa t)) [Tree t] (fun _ G => G = []).
Proof.
  induction f as [|f IH]; intros r n t T L H; [lia|]. inversion H as [n' a c ts Hc]; subst. cbn [tdrop pa].
  eexists _, _, []. split; [apply Permutation_refl|]. split; [now apply safe_ret|].
  intros _ _. rewrite app_nil_r. cbn [HeapSafe.safe].
  seqq 0 0 (map (@Tree C) ts) (@nil own) (fun (_ : unit) (G : list own) => G = []);
    [|intros [] G ->; cbn [HeapSafe.safe app]; exists []; split; [constructor|reflexivity]].
  inversion Hc as [s s' ts' E1 E2 F|e x E|L' l s ts' R1 R2]; subst; cbn [tglue].
  - rewrite E2. apply each_ok. intros t I. destruct r as [|r]; [destruct T|]. cbn [tall] in T.
    destruct (In_nth_error _ _ I) as (i & Ei).
    assert (X : exists n, ntree n t /\ In n (sa_array s)).
    { clear - F I. induction F as [|n u l m Hn F IHF]; [destruct I|]. destruct I as [->|I].
      - exists n. split; [trivial|now left].
      - destruct (IHF I) as (n1 & H1 & H2). exists n1. split; [trivial|now right]. }
    destruct X as (n & Hn & In_). apply (IH r n t); trivial; [|lia].
    rewrite Forall_forall in T. auto.
  - apply et_drop.
  - eapply tl_drop_ok; eauto.
Qed.

Lemma tdrop_empty : forall s t, sa_array s = [] -> ntree (HBranch s) t ->
  safe 0 (tdrop 1 (pa t)) [Tree t] (fun _ G => G = []).
Proof.
  intros s t E H. inversion H as [n' a c ts Hc]; subst. cbn [tdrop pa].
  inversion Hc as [s1 s' ts' E1 E2 F| |]; subst. rewrite E in F. inversion F; subst.
  eexists _, _, []. split; [apply Permutation_refl|]. split; [now apply safe_ret|].
  intros _ _. cbn [map app tglue]. rewrite E2. cbn [map each HeapSafe.safe pbind].
  exists []. split; [constructor|reflexivity].
Qed.

(** ** [make_mut] of a node *)
Lemma tdrop_shared : forall f t G n (Q : unit -> list own -> Prop),
  lent t G -> Q tt G -> safe n (tdrop (S f) (pa t)) (Tree t :: G) Q.
Proof.
  intros f [a c ts] G n Q L q. cbn [tdrop pa]. exists c, ts, G.
  split; [apply Permutation_refl|]. split; [now apply safe_ret|].
  intros _ Al. exfalso. destruct L as (t' & I & S). apply (Al _ I).
  apply (sub_pas _ _ S). cbn. now left.
Qed.

Lemma each_shared : forall (us : list ptree) G, (forall t, In t us -> lent t G) ->
  safe 0 (each (tdrop 1) (map pa us)) (map Tree us ++ G) (fun _ G' => G' = G).
Proof.
  induction us as [|t us IH]; intros G H; cbn [each map app]; [now apply safe_ret|].
  assert (S : safe 0 (tdrop 1 (pa t)) (Tree t :: map Tree us ++ G) (fun _ G' => G' = map Tree us ++ G)).
  { apply tdrop_shared; trivial. eapply lent_incl; [apply H; now left|]. apply incl_appr, incl_refl. }
  seq 0 0 (Tree t :: map Tree us ++ G) (@nil own) ltac:(exact S).
  intros [] G' ->. rewrite app_nil_r. apply IH. intros u I. apply H. now right.
Qed.

Lemma shared_opt : forall f (us : list ptree) G, us = [] \/ (exists u, us = [u]) ->
  (forall t, In t us -> lent t G) ->
  safe 0 (drop_opt tkids (S f) (hd_error (map pa us))) (map Tree us ++ G) (fun _ G' => G' = G).
Proof.
  intros f us G [->|(u & ->)] H; cbn [map hd_error drop_opt app]; [now apply safe_ret|].
  apply safe_drop_shared; trivial. apply H. now left.
Qed.

Lemma glue_shared : forall n c ts G, ncont n c ts -> (forall t, In t ts -> lent t G) ->
  safe 0 (tglue (tdrop 1) c) (map Tree ts ++ G) (fun _ G' => G' = G).
Proof.
  intros n c ts G Hc H. destruct Hc as [s s' ts E1 E2 F|e x E|L l s ts R1 R2]; cbn [tglue].
  - rewrite E2. now apply each_shared.
  - cbn [map app]. apply (safe_drop_shared tkids 0 (et e x)); trivial. apply H. now left.
  - destruct (trep_inv _ _ _ R2) as (us & tl & -> & Ch & Lt & ->). unfold tl_drop, hl_drop.
    cbn [hl_head HeapList.hl_last hl_len].
    seqq 0 0 (map Tree us ++ map Tree tl ++ G) (@nil own) (fun (_ : unit) G' => G' = map Tree tl ++ G).
    + inversion Ch as [|x s' t ts' a Et Ch']; subst; cbn [map hd_error app].
      * cbn [hl_drop_loop]. apply (safe_ret tkids tt 0 _ (fun _ G' => G' = map Tree tl ++ G)). reflexivity.
      * cbn [length hl_drop_loop pa].
        eexists _, _, (map Tree tl ++ G). split; [apply Permutation_refl|].
        set (nd := PT a (TLN (pa t) (hd_error (map pa ts'))) (t :: ts')) in *.
        assert (Lnd : lent nd (map Tree tl ++ G)).
        { eapply lent_incl; [apply H; apply in_app_iff; left; now left|]. apply incl_appr, incl_refl. }
        split.
        -- change (S (length s') + 2) with (S (length s' + 2)). now apply (safe_drop_shared tkids _ nd).
        -- intros _ Al. exfalso. destruct Lnd as (t' & I & S). apply (Al _ I).
           apply (sub_pas _ _ S). cbn. now left.
    + intros [] G' ->. rewrite app_nil_r. apply shared_opt.
      * now apply (lastt_one _ _ _ _ _ Lt).
      * intros t I. apply H. apply in_app_iff. now right.
Qed.

Lemma tmake_mut_ok : forall n a c ts, ncont n c ts ->
  safe 1 (tmake_mut a) [Tree (PT a c ts)]
    (fun r G => exists a', r = (a', c) /\ G = Held a' :: map Tree ts).
Proof.
  intros n a c ts Hc. unfold tmake_mut. exists c, ts, []. split; [apply Permutation_refl|]. split.
  - exists c, ts. split; [apply lent_in; now left|]. intros _. rewrite (ncont_kids _ _ _ Hc).
    apply safe_clone_all.
    + rewrite Forall_forall. intros t T. eapply lent_kid; [apply lent_in; now left|exact T].
    + exists 0. split; [reflexivity|]. intros a'.
      apply (safe_perm _ _ _ (Tree (PT a c ts) :: (map Tree ts ++ [Held a']))); [perm|].
      cbn [tdrop pbind]. eexists _, _, (map Tree ts ++ [Held a']).
      split; [apply Permutation_refl|]. split.
      * exists (Held a' :: map Tree ts). split; [perm|]. eauto.
      * intros _ _. cbn [pbind HeapSafe.safe]. apply safe_assoc.
        seq 0 0 (map Tree ts ++ map Tree ts ++ [Held a']) (@nil own) ltac:(eapply glue_shared; [exact Hc|]).
        { intros t T. apply lent_in. apply in_app_iff. left. now apply in_map. }
        intros [] G' ->. rewrite app_nil_r. cbn [pbind HeapSafe.safe].
        exists (Held a' :: map Tree ts). split; [perm|]. eauto.
  - intros _ _. apply safe_ret. exists a. split; [reflexivity|]. rewrite app_nil_r. reflexivity.
Qed.

(** ** Entries and lists of entries *)
Lemma entry_lent : forall A e x (k : K * V -> prog C A) n G Q, lent (et e x) G ->
  safe n (k (e_key x, e_val x)) G Q -> safe n (read_entry e k) G Q.
Proof. intros A e x k n G Q L S. eexists _, _. split; [exact L|]. intros _. exact S. Qed.

(** A test on entries, reading through the pointer. *)
Definition tests (p : hewh -> prog C bool) (m : entry -> bool) : Prop :=
  forall e x G, snd e = e_hash x -> lent (et e x) G -> safe 0 (p e) G (fun b G' => b = m x /\ G' = G).

Lemma tmatches_ok : forall same h,
  tests (tmatches same h) (fun x => (e_hash x =? h)%N && same (e_key x)).
Proof.
  intros same h e x G E L. unfold tmatches. rewrite E. destruct (e_hash x =? h)%N; cbn [andb].
  - apply (entry_lent _ e x); trivial. now apply safe_ret.
  - now apply safe_ret.
Qed.

Lemma last_error_cons : forall {X} (x : X) s, last_error (x :: s) = match s with [] => Some x | _ => last_error s end.
Proof. intros X x [|y s]; reflexivity. Qed.

Lemma tl_push_ok : forall L s G e x, trep L s G -> snd e = e_hash x ->
  safe 2 (tl_push e L) (Tree (et e x) :: G) (fun L' G' => trep L' (x :: s) G').
Proof.
  intros L s G e x R E. rewrite last_error_cons.
  apply (push_ok tkids TLN TLE 2 terep tkids_N terep_kids terep_depth L s (last_error s) G x e [et e x] R).
  now split.
Qed.

Lemma tl_drop_first_ok : forall L x s G, trep L (x :: s) G ->
  safe 0 (tl_drop_first L) G (fun r G' => trep (fst r) s G').
Proof.
  intros L x s G R.
  eapply safe_mono; [apply le_n| |
    apply (drop_first_ok tkids TLN t_isN TLE 2 terep t_isN_N tkids_N terep_depth L (x :: s) _ G R)].
  intros r G' (_ & H). rewrite last_error_cons in H. destruct s; exact H.
Qed.

(** The entries taken out so far. *)
Definition good (p : hewh * entry) : Prop := snd (fst p) = e_hash (snd p).
Definition ets (bs : list (hewh * entry)) : list ptree := map (fun p => et (fst p) (snd p)) bs.

Lemma tfirst_lent : forall L x s G, trep L (x :: s) G ->
  exists e, snd e = e_hash x /\ lent (et e x) G /\
    forall A (k : option hewh -> prog C A) n F Q, safe n (k (Some e)) (F ++ G) Q ->
      safe n (let* o := tl_first L in k o) (F ++ G) Q.
Proof.
  intros L x s G (ts & tl & -> & Ch & Lt & ->). inversion Ch as [|x' s' t ts' a Et Ch']; subst.
  destruct Et as [v e us (-> & E)].
  set (t := PT v (TLE e) [et e x]) in *. set (nd := PT a (TLN (pa t) (hd_error (map pa ts'))) (t :: ts')) in *.
  assert (Ln : lent nd (map Tree ([nd] ++ tl))) by (apply lent_in; now left).
  assert (Lt' : lent t (map Tree ([nd] ++ tl))) by (eapply lent_kid; [exact Ln|now left]).
  exists e. split; [exact E|]. split; [eapply lent_kid; [exact Lt'|now left]|].
  intros A k n F Q S. cbn [tl_first hl_first hl_head map hd_error pa nd]. unfold tl_first, hl_first.
  cbn [hl_head map hd_error pa nd pbind read_node read_elem].
  eexists _, _. split; [eapply lent_incl; [exact Ln|apply incl_appr, incl_refl]|]. intros _. cbn [t_isN pbind].
  eexists _, _. split; [eapply lent_incl; [exact Lt'|apply incl_appr, incl_refl]|]. intros _. cbn [t_isE pbind].
  exact S.
Qed.

Lemma tlrf_loop_ok : forall p m, tests p m -> forall s f bs L G, trep L s G -> length s < f -> Forall good bs ->
  safe 0 (tlrf_loop f p (map fst bs) L) (map Tree (ets bs) ++ G)
    (fun r G' => exists L' bs' G1, Forall good bs' /\
       match find m s with
       | None => r = (L', map fst bs', None) /\ map snd bs' = rev s ++ map snd bs /\ trep L' [] G1 /\
                 G' = map Tree (ets bs') ++ G1
       | Some x => exists e s1 s2, s = s1 ++ x :: s2 /\ nomatch m s1 /\ m x = true /\
                 r = (L', map fst bs', Some e) /\ good (e, x) /\ map snd bs' = rev s1 ++ map snd bs /\
                 trep L' s2 G1 /\ G' = Tree (et e x) :: map Tree (ets bs') ++ G1
       end).
Proof.
  intros p m Hp. induction s as [|x s IH]; intros f bs L G R Lf Gb; (destruct f as [|f]; [cbn in Lf; lia|]);
    cbn [tlrf_loop find].
  - assert (E : hl_len L = 0) by (destruct R as (? & ? & ? & ? & ? & ->); reflexivity). rewrite E. cbn [Nat.eqb].
    apply safe_ret. exists L, bs, G. split; trivial. splits; trivial.
  - assert (E : hl_len L = S (length s)) by (destruct R as (? & ? & ? & ? & ? & ->); reflexivity).
    rewrite E. cbn [Nat.eqb].
    destruct (tfirst_lent L x s G R) as (e & Ee & Le & First). apply First.
    eexists _, _. split; [eapply lent_incl; [exact Le|apply incl_appr, incl_refl]|].
    fold (et e x).
    seq 0 0 G (Tree (et e x) :: map Tree (ets bs)) ltac:(apply (tl_drop_first_ok L x s G R)).
    intros [L' b] G' R'. cbn [fst] in R'.
    assert (Sp : safe 0 (p e) (G' ++ Tree (et e x) :: map Tree (ets bs))
      (fun b G2 => b = m x /\ G2 = G' ++ Tree (et e x) :: map Tree (ets bs))).
    { apply (Hp e x); trivial. apply lent_in. apply in_app_iff. right. now left. }
    seq 0 0 (G' ++ Tree (et e x) :: map Tree (ets bs)) (@nil own) ltac:(exact Sp).
    intros y G2 (-> & ->). rewrite app_nil_r. destruct (m x) eqn:Em.
    + exists (Tree (et e x) :: map Tree (ets bs) ++ G'). split; [perm|].
      exists L', bs, G'. split; trivial. exists e, [], s. splits; trivial. intros y [].
    + change (e :: map fst bs) with (map fst ((e, x) :: bs)).
      eapply safe_perm; [|eapply safe_mono; [apply le_n| |apply (IH f ((e, x) :: bs) L' G' R')]].
      * change (map Tree (ets ((e, x) :: bs))) with (Tree (et e x) :: map Tree (ets bs)). perm.
      * intros r G3 (L2 & bs' & G1 & Gb' & H). exists L2, bs', G1. split; trivial.
        destruct (find m s) as [y|].
        -- destruct H as (e' & s1 & s2 & -> & N1 & My & -> & Ge & Eb & R2 & ->).
           exists e', (x :: s1), s2. splits; trivial.
           ++ intros z [<-|I]; auto.
           ++ rewrite Eb. cbn [map snd rev]. now rewrite <- app_assoc.
        -- destruct H as (-> & Eb & R2 & ->). splits; trivial. rewrite Eb. cbn [map snd rev]. now rewrite <- app_assoc.
      * cbn [length] in Lf. lia.
      * constructor; trivial.
Qed.

Lemma tpush_back_ok : forall bs L s G, trep L s G -> Forall good bs ->
  safe (2 * length bs) (tpush_back (map fst bs) L) (map Tree (ets bs) ++ G)
    (fun L' G' => trep L' (rev (map snd bs) ++ s) G').
Proof.
  induction bs as [|[e x] bs IH]; intros L s G R Gb; cbn [map fst snd tpush_back length rev].
  - now apply safe_ret.
  - change (map Tree (ets ((e, x) :: bs))) with (Tree (et e x) :: map Tree (ets bs)).
    inversion Gb as [|? ? G1 G2]; subst.
    seq 2 (2 * length bs) (Tree (et e x) :: G) (map Tree (ets bs)) ltac:(apply (tl_push_ok L s G e x R G1)).
    intros L' G' R'. eapply safe_perm; [|eapply safe_mono; [apply le_n| |apply (IH L' (x :: s) G' R' G2)]].
    + perm.
    + intros L2 G3 R3. rewrite <- app_assoc. exact R3.
Qed.

(** [s] without its first match *)
Fixpoint rf (m : entry -> bool) (s : list entry) : list entry :=
  match s with [] => [] | x :: s' => if m x then s' else x :: rf m s' end.

Lemma rf_split : forall m s1 x s2, nomatch m s1 -> m x = true -> rf m (s1 ++ x :: s2) = s1 ++ s2.
Proof.
  intros m. induction s1 as [|y s1 IH]; intros x s2 N M; cbn [app rf]; [now rewrite M|].
  rewrite (N y) by now left. f_equal. apply IH; trivial. intros z I. apply N. now right.
Qed.
Lemma rf_nomatch : forall m s, nomatch m s -> rf m s = s.
Proof.
  intros m. induction s as [|y s IH]; intros N; cbn [rf]; [trivial|].
  rewrite (N y) by now left. f_equal. apply IH. intros z I. apply N. now right.
Qed.
Lemma rf_length : forall m s, length (rf m s) = length s - (if is_some (find m s) then 1 else 0).
Proof.
  intros m. induction s as [|y s IH]; cbn [rf find length is_some]; [trivial|]. destruct (m y); cbn [is_some length].
  - lia.
  - rewrite IH. destruct (find m s) eqn:E; cbn [is_some]; [|lia]. destruct s; [discriminate|cbn [length]; lia].
Qed.

Lemma lrf_value : forall (m : entry -> bool) l s, l_rep l s ->
  exists l', list_remove_first l m = Ok (l', find m s) /\ l_rep l' (rf m s).
Proof.
  intros m l s Hl. unfold list_remove_first.
  pose proof (lrf_loop_ok m s (S (l_len l)) [] l Hl) as H.
  assert (El : l_len l = length s) by apply Hl. specialize (H ltac:(lia)).
  destruct (find m s) as [x|] eqn:E.
  - destruct H as (l' & s1 & s2 & -> & H1 & H2 & -> & Hr). cbn [bind]. eexists. split; [reflexivity|].
    rewrite rf_split by trivial. rewrite app_nil_r.
    pose proof (l_rep_fold_push (rev s1) l' s2 Hr) as X. rewrite rev_involutive in X. exact X.
  - destruct H as (l' & -> & Hr). cbn [bind]. eexists. split; [reflexivity|].
    rewrite rf_nomatch by (now apply find_none). rewrite app_nil_r.
    pose proof (l_rep_fold_push (rev s) l' [] Hr) as X. rewrite rev_involutive, app_nil_r in X. exact X.
Qed.

Lemma tlist_remove_first_ok : forall p m, tests p m -> forall L s G, trep L s G ->
  safe (2 * length s) (tlist_remove_first L p) G
    (fun r G' => exists G1, trep (fst r) (rf m s) G1 /\
       match find m s with
       | None => snd r = None /\ G' = G1
       | Some x => exists e, snd r = Some e /\ snd e = e_hash x /\ G' = Tree (et e x) :: G1
       end).
Proof.
  intros p m Hp L s G R. unfold tlist_remove_first.
  assert (E : hl_len L = length s) by (destruct R as (? & ? & ? & ? & ? & ->); reflexivity). rewrite E.
  assert (S := tlrf_loop_ok p m Hp s (S (length s)) [] L G R ltac:(lia) ltac:(constructor)).
  cbn [map ets app] in S.
  seq 0 (2 * length s) G (@nil own) ltac:(exact S).
  intros r G' (L' & bs & G1 & Gb & H). rewrite app_nil_r.
  destruct (find m s) as [x|] eqn:Ef.
  - destruct H as (e & s1 & s2 & -> & N1 & Mx & -> & Ge & Eb & R1 & ->). rewrite app_nil_r in Eb.
    rewrite rf_split by trivial.
    assert (Lb : length bs = length s1) by (rewrite <- (map_length snd bs), Eb; apply rev_length).
    rewrite app_length. cbn [length].
    seq (2 * length bs) 0 (map Tree (ets bs) ++ G1) [Tree (et e x)] ltac:(apply (tpush_back_ok bs L' s2 G1 R1 Gb)).
    intros L2 G2 R2. rewrite Eb, rev_involutive in R2.
    exists (Tree (et e x) :: G2). split; [perm|]. exists G2. cbn [fst snd]. split; trivial. exists e. auto.
  - destruct H as (-> & Eb & R1 & ->). rewrite app_nil_r in Eb.
    rewrite rf_nomatch by (now apply find_none).
    assert (Lb : length bs = length s) by (rewrite <- (map_length snd bs), Eb; apply rev_length).
    seq (2 * length bs) 0 (map Tree (ets bs) ++ G1) (@nil own) ltac:(apply (tpush_back_ok bs L' [] G1 R1 Gb)).
    intros L2 G2 R2. rewrite Eb, rev_involutive, app_nil_r in R2. rewrite app_nil_r.
    apply safe_ret. exists G2. cbn [fst snd]. auto.
Qed.
End Rep.
