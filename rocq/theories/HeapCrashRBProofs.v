(** * The heap programs of HeapCrashRB.v do what the functions of CrashModel.v do *)
From Coq Require Import List Arith Lia Bool Permutation.
From Verif Require Import Base Spec Sim SpecMap SpecOrd RBModel RBProofs RBHist RBIter CrashModel CrashProofs
  PermSolve HeapModel HeapProofs HeapSafe HeapClient HeapList HeapRB HeapRBProofs HeapRBMap HeapCrashRB.
Import ListNotations.
Local Open Scope prog_scope.

Section XP.
Context {K V Q : Type}.
Variable dbg : bool.
Variable kcmp : K -> K -> comparison.
Variable borrow : K -> Q.
Variable qcmp : Q -> Q -> comparison.
Notation C := (rcell K V).
Notation P := (prog C).
Notation pt := (@ptree C).
Notation own := (@own C).
Notation node := (node K V).
Notation tree := (tree K V).
Notation safe := (safe (@rkids K V)).

Ltac pickl ts G :=
  lazymatch ts with
  | [] => G
  | [?t] => pick (Tree t) G
  | _ => pick (map (@Tree C) ts) G
  end.
Ltac topt_of o :=
  lazymatch o with
  | None => constr:(@to_leaf K V)
  | _ => match goal with H : topt _ o _ |- _ => constr:(H) end
  end.
Ltac reduce :=
  cbv beta iota zeta delta [hset_entry hset_color hset_left hset_right hn_entry hn_color hn_left hn_right];
  cbn [pbind].
Ltac put_ :=
  lazymatch goal with
  | |- HeapSafe.safe _ _ (Fill ?a (RN (mkHN (pa ?te) ?c ?ol ?or)) _) ?G _ =>
      let Hl := topt_of ol in
      let Hr := topt_of or in
      match goal with HE : etree _ te |- _ =>
      lazymatch type of Hl with topt _ _ ?tl =>
      lazymatch type of Hr with topt _ _ ?tr =>
        let F1 := pick (@Held C a) G in
        let F2 := pick (Tree te) F1 in
        let F3 := pickl tl F2 in
        let F4 := pickl tr F3 in
        eapply (put_ok _ a _ te c _ ol tl _ or tr F4); [exact HE|exact Hl|exact Hr|perm|];
        intros; reduce
      end end end
  end.
Ltac fin :=
  lazymatch goal with
  | |- HeapSafe.safe _ _ (Ret (mkHN (pa ?te) ?c ?ol ?or)) ?G _ =>
      let Hl := topt_of ol in
      let Hr := topt_of or in
      match goal with HE : etree _ te |- _ =>
      lazymatch type of Hl with topt _ _ ?tl =>
      lazymatch type of Hr with topt _ _ ?tr =>
        exists (Tree te :: map Tree tl ++ map Tree tr); split; [perm|];
        exists te, ol, tl, or, tr; splits; [reflexivity|exact HE|exact Hl|exact Hr|reflexivity]
      end end end
  end.
Ltac entry_ :=
  lazymatch goal with
  | |- HeapSafe.safe _ _ (see_entry (pa ?te) _) ?G _ =>
      match goal with HE : etree _ te |- _ =>
        let F := pick (Tree te) G in
        eapply (see_entry_ok _ _ te _ G); [exact HE|apply (lent_part te [te] G F); [perm|now left]|] end
  end; reduce.

(** The outcome on the heap is that of CrashModel.v. *)
Definition cmatch {B} (r : crash tree (tree * B)) (x : crash (option addr) (option addr * B)) (G : list own) : Prop :=
  match r, x with
  | Done n (t, b), Done n' (o, b') => n' = n /\ b' = b /\ tpost t o G
  | Unwound t, Unwound o => tpost t o G
  | _, _ => False
  end.

Lemma xins_ok : forall f n t k v root o ts r,
  hgt t < f -> topt t o ts -> c_ins kcmp n t k v root = Ok r ->
  safe (3 * hgt t + 2) (xins kcmp f n o k v root) (map Tree ts) (cmatch r).
Proof.
  induction f as [|f IH]; intros n t k v root o ts x Hf H E; [lia|].
  destruct t as [|e c l r].
  - inversion H; subst. cbn in E. injection E as <-. cbn [xins].
    unfold hnew_node. cbn [pbind map].
    exists 1, [], []. splits; [reflexivity|perm|reflexivity|]. intros p.
    exists 0, [PT p (RE (k, v)) []], []. splits; [reflexivity|perm|reflexivity|]. intros a.
    apply safe_ret. split; [reflexivity|]. split; [reflexivity|].
    exists [PT a (RN (mkHN p (if root then Black else Red) None None)) [PT p (RE (k, v)) []]].
    split; [|reflexivity]. destruct root; cbn [some n_entry n_color n_left n_right new_black new_red];
      exact (to_node a (k, v) _ Leaf Leaf (PT p (RE (k, v)) []) None [] None [] (et_intro p _) to_leaf to_leaf).
  - destruct (topt_some _ _ _ _ _ _ H) as [a ->]. cbn [xins].
    replace (3 * hgt (TNode e c l r) + 2) with (S (3 * Nat.max (hgt l) (hgt r) + 4))
      by (cbn [hgt]; lia).
    cbn [hgt] in Hf. cbn [c_ins] in E.
    replace (map (@Tree C) ts) with (map (@Tree C) ts ++ []) by apply app_nil_r.
    eapply (take_ok _ _ _ _ _ _ ts []); [exact H|perm|]. intros p te ol tl or tr HE Hl Hr. reduce. entry_.
    destruct n as [|n]; cbn [ucall hucall] in E |- *.
    { injection E as <-. put_. apply safe_ret. eexists; (split; [eassumption|reflexivity]). }
    assert (X : forall m (b : bool) n' hn G', npost n' hn G' ->
      safe 0 (Fill p (RN (if root then hset_color hn Black else hn)) (Ret (Done m (Some p, b)))) (Held p :: G')
        (cmatch (Done m (some (if root then set_color n' Black else n'), b)))).
    { intros m b n' hn G' (te' & ol' & tl' & or' & tr' & -> & HE' & Hl' & Hr' & ->). clear - HE' Hl' Hr'.
      destruct root; reduce; put_; apply safe_ret; (split; [reflexivity|]); (split; [reflexivity|]);
        eexists; (split; [eassumption|reflexivity]). }
    assert (Bal : forall e te c l ol tl r or tr n1 (b : bool),
      (if b then balance (mkNode e c l r) else Ok (mkNode e c l r)) = Ok n1 ->
      etree e te -> topt l ol tl -> topt r or tr ->
      safe 2 (if b then hbalance (mkHN (pa te) c ol or) else Ret (mkHN (pa te) c ol or))
        (Tree te :: map Tree tl ++ map Tree tr) (npost n1)).
    { intros e1 te1 c1 l1 ol1 tl1 r1 or1 tr1 n1 [] B E1 L1 R1.
      - eapply hbalance_ok; eassumption.
      - injection B as <-. fin. }
    destruct (kcmp k (fst e)) eqn:Ec.
    + (* the same key *)
      injection E as <-.
      cbn [pbind]. exists (3 * Nat.max (hgt l) (hgt r) + 3), [].
      eexists (Held p :: Tree te :: map Tree tl ++ map Tree tr).
      splits; [lia|perm|reflexivity|]. intros e'.
      eapply (safe_seq _ _ _ 0 0 _ _ [Tree te] (Tree (PT e' (RE (k, v)) []) :: Held p :: map Tree tl ++ map Tree tr));
        [eapply drop_entry; exact HE|perm| |lia].
      intros [] G' ->. cbn [pbind]. reduce.
      eapply safe_perm; [|apply (X n false (mkNode (k, v) c l r) (mkHN e' c ol or))].
      2:{ exists (PT e' (RE (k, v)) []), ol, tl, or, tr. splits; [reflexivity|constructor|exact Hl|exact Hr|reflexivity]. }
      perm.
    + unfold cbind in E. destruct (c_ins kcmp n l k v false) as [y| |] eqn:El; try discriminate E. cbn [bind] in E.
      eapply (safe_seq _ _ _ (3 * hgt l + 2) 2 _ _ (map Tree tl) (Held p :: Tree te :: map Tree tr));
        [eapply IH; [lia|exact Hl|exact El]|perm| |lia].
      intros [m [ol1 b2]|ol1] G' M; destruct y as [m' [l' b1]|l']; try contradiction M.
      * destruct M as (-> & -> & tl1 & Hl1 & ->).
        match type of E with (let! _ := ?B in _) = _ => destruct B as [n1| |] eqn:EB end;
          try discriminate E. cbn [bind] in E. injection E as <-. reduce.
        eapply (safe_seq _ _ _ 2 0 _ _ (Tree te :: map Tree tl1 ++ map Tree tr) [Held p]);
          [eapply Bal; [exact EB|exact HE|exact Hl1|exact Hr]|perm| |lia].
        intros hn G' q. eapply safe_perm; [apply Permutation_cons_append|]. exact (X _ _ _ _ _ q).
      * destruct M as (tl1 & Hl1 & ->). injection E as <-. reduce. put_. apply safe_ret.
        eexists; (split; [eassumption|reflexivity]).
    + unfold cbind in E. destruct (c_ins kcmp n r k v false) as [y| |] eqn:El; try discriminate E. cbn [bind] in E.
      eapply (safe_seq _ _ _ (3 * hgt r + 2) 2 _ _ (map Tree tr) (Held p :: Tree te :: map Tree tl));
        [eapply IH; [lia|exact Hr|exact El]|perm| |lia].
      intros [m [or1 b2]|or1] G' M; destruct y as [m' [r' b1]|r']; try contradiction M.
      * destruct M as (-> & -> & tr1 & Hr1 & ->).
        match type of E with (let! _ := ?B in _) = _ => destruct B as [n1| |] eqn:EB end;
          try discriminate E. cbn [bind] in E. injection E as <-. reduce.
        eapply (safe_seq _ _ _ 2 0 _ _ (Tree te :: map Tree tl ++ map Tree tr1) [Held p]);
          [eapply Bal; [exact EB|exact HE|exact Hl|exact Hr1]|perm| |lia].
        intros hn G' q. eapply safe_perm; [apply Permutation_cons_append|]. exact (X _ _ _ _ _ q).
      * destruct M as (tr1 & Hr1 & ->). injection E as <-. reduce. put_. apply safe_ret.
        eexists; (split; [eassumption|reflexivity]).
Qed.

Lemma xdel_ok : forall f g n t q root o ts r,
  hgt t < f -> 2 * hgt t <= g -> topt t o ts -> c_del dbg borrow qcmp n t q root = Ok r ->
  safe (14 * hgt t) (xdel dbg borrow qcmp f g n o q root) (map Tree ts) (cmatch r).
Proof.
  induction f as [|f IH]; intros g n t q root o ts x Hf Hg H E; [lia|].
  destruct t as [|e c l r].
  - inversion H; subst. cbn in E. injection E as <-. cbn [xdel].
    apply safe_ret. split; [reflexivity|]. split; [reflexivity|]. exists []. split; [constructor|reflexivity].
  - destruct (topt_some _ _ _ _ _ _ H) as [a ->]. cbn [xdel].
    replace (14 * hgt (TNode e c l r)) with (S (14 * Nat.max (hgt l) (hgt r) + 13))
      by (cbn [hgt]; lia).
    cbn [hgt] in Hf, Hg. cbn [c_del] in E.
    replace (map (@Tree C) ts) with (map (@Tree C) ts ++ []) by apply app_nil_r.
    eapply (take_ok _ _ _ _ _ _ ts []); [exact H|perm|]. intros p te ol tl or tr HE Hl Hr. reduce. entry_.
    destruct n as [|n]; cbn [ucall hucall] in E |- *.
    { injection E as <-. put_. apply safe_ret. eexists; (split; [eassumption|reflexivity]). }
    assert (X : forall m (b : bool) n' hn G', npost n' hn G' ->
      safe 0 (Fill p (RN (if root then hset_color hn Black else hn)) (Ret (Done m (Some p, b)))) (Held p :: G')
        (cmatch (Done m (some (if root then set_color n' Black else n'), b)))).
    { intros m b n' hn G' (te' & ol' & tl' & or' & tr' & -> & HE' & Hl' & Hr' & ->). clear - HE' Hl' Hr'.
      destruct root; reduce; put_; apply safe_ret; (split; [reflexivity|]); (split; [reflexivity|]);
        eexists; (split; [eassumption|reflexivity]). }
    destruct (qcmp q (borrow (fst e))) eqn:Ec.
    + (* found *)
      cbv beta iota zeta delta [n_left n_right set_left set_right n_entry n_color] in E.
      destruct (remove_fuse dbg (mkNode e c Leaf Leaf) l r) as [[n1 b1]| |] eqn:B; try discriminate E.
      cbn [bind] in E. injection E as <-.
      eapply (safe_seq _ _ _ (7 * (hgt l + hgt r) + 1) 0 _ _ (Tree te :: map Tree tl ++ map Tree tr) [Held p]);
        [eapply hremove_fuse_ok; [|exact HE|exact Hl|exact Hr|exact B]|perm| |].
      1:{ lia. }
      2:{ lia. }
      intros [hn b2] G' [Eb q1]. cbn [fst snd] in *. subst b2. reduce.
      destruct b1; cbn [negb].
      * eapply safe_perm; [apply Permutation_cons_append|]. exact (X _ _ _ _ _ q1).
      * apply fuse_not in B. destruct B as (-> & -> & ->).
        destruct q1 as (te' & ol' & tl' & or' & tr' & -> & HE' & Hl' & Hr' & ->).
        cbn [n_entry n_color n_left n_right] in *. inversion Hl'; inversion Hr'; subst.
        assert (Y : forall c1, safe 0 (Fill p (RN (mkHN (pa te') c1 None None))
            (let* _ := drop_ptr rkids 2 p in Ret (Done n (None, true))))
          ((Tree te' :: map Tree [] ++ map Tree []) ++ [Held p])
          (cmatch (Done n (Leaf, true)))).
        { intros c1. cbn [map app]. put_.
          eapply (safe_seq _ _ _ 0 0 _ _ [Tree t] []); [eapply drop_bare; eassumption|perm| |lia].
          intros [] G' ->. apply safe_ret. split; [reflexivity|]. split; [reflexivity|]. exists []. split; [constructor|reflexivity]. }
        destruct root; reduce; apply Y.
    + cbv beta iota zeta delta [left_color n_left] in E.
      unfold cbind in E. destruct (c_del dbg borrow qcmp n l q false) as [y| |] eqn:El; try discriminate E. cbn [bind] in E.
      eapply (hcolor_ok _ _ _ tl); [exact Hl|intros u; apply (lent_part u tl _ (Held p :: Tree te :: map Tree tr)); perm|].
      eapply (safe_seq _ _ _ (14 * hgt l) 5 _ _ (map Tree tl) (Held p :: Tree te :: map Tree tr));
        [eapply IH; [lia|lia|exact Hl|exact El]|perm| |lia].
      intros [m [ol1 b2]|ol1] G' M; destruct y as [m' [l' b1]|l']; try contradiction M.
      * destruct M as (-> & -> & tl1 & Hl1 & ->).
        cbv beta iota zeta delta [n_left n_right set_left set_color n_entry n_color] in E.
        match type of E with (let! _ := ?B in _) = _ => destruct B as [n1| |] eqn:EB end;
          try discriminate E. cbn [bind] in E. injection E as <-. reduce.
        eapply (safe_seq _ _ _ 5 0 _ _ (Tree te :: map Tree tl1 ++ map Tree tr) [Held p]);
          [instantiate (1 := npost n1)|perm| |lia].
        1:{ destruct (tcolor l) as [[|]|]; try (injection EB as <-; fin).
            eapply hremove_balance_left_ok; [exact HE|exact Hl1|exact Hr|exact EB]. }
        intros hn G' q1. eapply safe_perm; [apply Permutation_cons_append|]. exact (X _ _ _ _ _ q1).
      * destruct M as (tl1 & Hl1 & ->). injection E as <-. reduce. put_. apply safe_ret.
        eexists; (split; [eassumption|reflexivity]).
    + cbv beta iota zeta delta [right_color n_right] in E.
      unfold cbind in E. destruct (c_del dbg borrow qcmp n r q false) as [y| |] eqn:El; try discriminate E. cbn [bind] in E.
      eapply (hcolor_ok _ _ _ tr); [exact Hr|intros u; apply (lent_part u tr _ (Held p :: Tree te :: map Tree tl)); perm|].
      eapply (safe_seq _ _ _ (14 * hgt r) 5 _ _ (map Tree tr) (Held p :: Tree te :: map Tree tl));
        [eapply IH; [lia|lia|exact Hr|exact El]|perm| |lia].
      intros [m [or1 b2]|or1] G' M; destruct y as [m' [r' b1]|r']; try contradiction M.
      * destruct M as (-> & -> & tr1 & Hr1 & ->).
        cbv beta iota zeta delta [n_left n_right set_right set_color n_entry n_color] in E.
        match type of E with (let! _ := ?B in _) = _ => destruct B as [n1| |] eqn:EB end;
          try discriminate E. cbn [bind] in E. injection E as <-. reduce.
        eapply (safe_seq _ _ _ 5 0 _ _ (Tree te :: map Tree tl ++ map Tree tr1) [Held p]);
          [instantiate (1 := npost n1)|perm| |lia].
        1:{ destruct (tcolor r) as [[|]|]; try (injection EB as <-; fin).
            eapply hremove_balance_right_ok; [exact HE|exact Hl|exact Hr1|exact EB]. }
        intros hn G' q1. eapply safe_perm; [apply Permutation_cons_append|]. exact (X _ _ _ _ _ q1).
      * destruct M as (tr1 & Hr1 & ->). injection E as <-. reduce. put_. apply safe_ret.
        eexists; (split; [eassumption|reflexivity]).
Qed.

(** Whether the clones are made depends on how the entry is shared. *)
Lemma xentry_mut_ok : forall n a c,
  safe 1 (xentry_mut n a) [Tree (PT a c [])]
    (fun r G => match r with
                | Done m (a', c') => c' = c /\ G = [Held a'] /\ (m = n \/ n = 2 + m)
                | Unwound _ => n < 2 /\ G = [Tree (PT a c [])]
                end).
Proof using.
  intros n a c. unfold xentry_mut. exists c, [], []. split; [apply Permutation_refl|]. split.
  - exists c, []. split; [exists (PT a c []); split; [now left|constructor]|].
    intros Sh. inversion Sh as [? ? ? Kk Fs]; subst. cbn [map] in Kk. rewrite Kk.
    destruct n as [|[|n]]; cbn [hucall]; [apply safe_ret; split; [lia|reflexivity]..|].
    cbn [clone_all]. exists 0. split; [reflexivity|]. intros a'.
    change (drop_ptr rkids 2 a) with (drop_ptr (@rkids K V) 2 (pa (PT a c []))).
    eapply (safe_seq _ _ _ 0 0 _ _ [Tree (PT a c [])] [Held a']); [apply safe_drop; cbn; lia|perm| |lia].
    intros [] G' ->. apply safe_ret. auto.
  - intros _ _. exists [Held a]. split; [apply Permutation_refl|]. auto.
Qed.

Lemma xget_mut_ok : forall f n t q g o ts, hgt t < f -> topt t o ts ->
  safe (S (hgt t)) (xget_mut borrow qcmp f n o q g) (map Tree ts)
    (fun x G => exists shared r, c_t_get_mut borrow qcmp n shared t q g = Ok r /\ cmatch r x G).
Proof.
  induction f as [|f IH]; intros n t q g o ts Hf H; [lia|].
  destruct t as [|e c l r].
  - inversion H; subst. cbn [xget_mut]. apply safe_ret. exists false. eexists. split; [reflexivity|].
    cbn. split; [reflexivity|]. split; [reflexivity|]. exists []. split; [constructor|reflexivity].
  - destruct (topt_some _ _ _ _ _ _ H) as [a ->]. cbn [xget_mut c_t_get_mut hgt]. cbn [hgt] in Hf.
    replace (map (@Tree C) ts) with (map (@Tree C) ts ++ []) by apply app_nil_r.
    eapply (take_ok _ _ _ _ _ _ ts []); [exact H|perm|]. intros p te ol tl or tr HE Hl Hr. reduce. entry_.
    destruct n as [|n]; cbn [ucall hucall].
    { put_. apply safe_ret. exists false. eexists. split; [reflexivity|]. cbn. eexists; (split; [eassumption|reflexivity]). }
    destruct (qcmp q (borrow (fst e))) eqn:Ec.
    + destruct HE as [ae e]. cbn [pa].
      eapply (safe_seq _ _ _ 1 0 _ _ [Tree (PT ae (RE e) [])] (Held p :: map Tree tl ++ map Tree tr));
        [apply xentry_mut_ok|perm| |lia].
      intros [m [a1 x]|u] G' M.
      * destruct M as (-> & -> & M).
        exists [], (Held p :: map Tree tl ++ map Tree tr). splits; [perm|reflexivity|].
        eapply (put_ok _ p (fst e, g (snd e)) (PT a1 (RE (fst e, g (snd e))) []) c l ol tl r or tr []);
          [constructor|exact Hl|exact Hr|perm|].
        intros t Ht _. apply safe_ret.
        exists (if Nat.eq_dec m n then false else true), (Done m (TNode (fst e, g (snd e)) c l r, Some (snd e))). split.
        -- destruct (Nat.eq_dec m n) as [->|]; [reflexivity|]. destruct M as [->| ->]; [congruence|]. reflexivity.
        -- cbn. split; [reflexivity|]. split; [reflexivity|]. exists [t]. split; [exact Ht|reflexivity].
      * destruct M as (Hn & ->). cbn [app].
        eapply (put_ok _ p e (PT ae (RE e) []) c l ol tl r or tr []); [constructor|exact Hl|exact Hr|perm|].
        intros t Ht _. apply safe_ret. exists true, (Unwound (TNode e c l r)). split.
        -- destruct n as [|[|n]]; [reflexivity|reflexivity|lia].
        -- cbn. exists [t]. split; [exact Ht|reflexivity].
    + eapply (safe_seq _ _ _ (S (hgt l)) 0 _ _ (map Tree tl) (Held p :: Tree te :: map Tree tr));
        [eapply (IH n l); [lia|exact Hl]|perm| |lia].
      intros [m [ol1 b2]|ol1] G' (sh & y & El & M); destruct y as [m' [l' b1]|l']; try contradiction M.
      * destruct M as (-> & -> & tl1 & Hl1 & ->). reduce. put_. apply safe_ret. exists sh. rewrite El.
        eexists. split; [reflexivity|]. split; [reflexivity|]. split; [reflexivity|].
        eexists; (split; [eassumption|reflexivity]).
      * destruct M as (tl1 & Hl1 & ->). reduce. put_. apply safe_ret. exists sh. rewrite El.
        eexists. split; [reflexivity|]. cbn. eexists; (split; [eassumption|reflexivity]).
    + eapply (safe_seq _ _ _ (S (hgt r)) 0 _ _ (map Tree tr) (Held p :: Tree te :: map Tree tl));
        [eapply (IH n r); [lia|exact Hr]|perm| |lia].
      intros [m [or1 b2]|or1] G' (sh & y & El & M); destruct y as [m' [r' b1]|r']; try contradiction M.
      * destruct M as (-> & -> & tr1 & Hr1 & ->). reduce. put_. apply safe_ret. exists sh. rewrite El.
        eexists. split; [reflexivity|]. split; [reflexivity|]. split; [reflexivity|].
        eexists; (split; [eassumption|reflexivity]).
      * destruct M as (tr1 & Hr1 & ->). reduce. put_. apply safe_ret. exists sh. rewrite El.
        eexists. split; [reflexivity|]. cbn. eexists; (split; [eassumption|reflexivity]).
Qed.

Lemma xget_ok : forall {A} f t q o ts n m (k : crash unit (option (K * V)) -> P A) (G : list own) R,
  hgt t < f -> topt t o ts -> (forall u, In u ts -> lent u G) ->
  (forall r, c_t_get borrow qcmp n t q = Ok r -> safe m (k r) G R) ->
  safe m (let* x := xget borrow qcmp f n o q in k x) G R.
Proof.
  intros A f. induction f as [|f IH]; intros t q o ts n m k G R Hf H L S; [lia|].
  destruct t as [|e c l r]; [inversion H; subst; exact (S _ eq_refl)|].
  destruct (topt_some _ _ _ _ _ _ H) as [a ->]. cbn [xget].
  cbn [hgt] in Hf. cbn [c_t_get] in S. inversion H as [|? ? ? ? ? te ol tl or tr HE Hl Hr]; subst.
  assert (L1 := L _ (or_introl eq_refl)). cbn [see_node pbind]. eexists _, _. split; [exact L1|].
  intros _. reduce. destruct HE as [ae e]. cbn [see_entry pbind pa].
  eexists _, _. split; [eapply lent_kid; [exact L1|now left]|]. intros _. cbv beta iota.
  destruct n as [|n]; cbn [ucall hucall] in S |- *; [exact (S _ eq_refl)|].
  destruct (qcmp q (borrow (fst e))).
  - exact (S _ eq_refl).
  - eapply IH; [|exact Hl| |exact S]; [lia|].
    intros u Iu. eapply lent_kid; [exact L1|]. right. apply in_app_iff. auto.
  - eapply IH; [|exact Hr| |exact S]; [lia|].
    intros u Iu. eapply lent_kid; [exact L1|]. right. apply in_app_iff. auto.
Qed.

(** A call makes at most one comparison for each level and two clones. *)
Lemma c_ins_calls : forall (t : tree) n k v root u, c_ins kcmp n t k v root = Ok (Unwound u) -> n < hgt t.
Proof using.
  induction t as [|e c l IHl r IHr]; intros n k v root u E; cbn [c_ins] in E; [discriminate|].
  cbn [hgt]. destruct n as [|n]; [lia|]. cbn [ucall] in E. unfold cbind in E.
  destruct (kcmp k (fst e)); [discriminate| |].
  - destruct (c_ins kcmp n l k v false) as [[m [l' b]|w]| |] eqn:El; try discriminate E; cbn [bind] in E.
    + destruct (if b : bool then _ else _); discriminate E.
    + specialize (IHl _ _ _ _ _ El). lia.
  - destruct (c_ins kcmp n r k v false) as [[m [l' b]|w]| |] eqn:El; try discriminate E; cbn [bind] in E.
    + destruct (if b : bool then _ else _); discriminate E.
    + specialize (IHr _ _ _ _ _ El). lia.
Qed.
Lemma c_del_calls : forall (t : tree) n k root u, c_del dbg borrow qcmp n t k root = Ok (Unwound u) -> n < hgt t.
Proof using.
  induction t as [|e c l IHl r IHr]; intros n k root u E; cbn [c_del] in E; [discriminate|].
  cbn [hgt]. destruct n as [|n]; [lia|]. cbn [ucall] in E. unfold cbind in E.
  destruct (qcmp k (borrow (fst e))).
  - destruct (remove_fuse dbg _ _ _) as [[? ?]| |]; discriminate E.
  - destruct (c_del dbg borrow qcmp n l k false) as [[m [l' b]|w]| |] eqn:El; try discriminate E; cbn [bind] in E.
    + match type of E with (let! _ := ?B in _) = _ => destruct B end; discriminate E.
    + specialize (IHl _ _ _ _ El). lia.
  - destruct (c_del dbg borrow qcmp n r k false) as [[m [l' b]|w]| |] eqn:El; try discriminate E; cbn [bind] in E.
    + match type of E with (let! _ := ?B in _) = _ => destruct B end; discriminate E.
    + specialize (IHr _ _ _ _ El). lia.
Qed.
Lemma c_get_mut_calls : forall (t : tree) n sh k g u, c_t_get_mut borrow qcmp n sh t k g = Ok (Unwound u) -> n < hgt t + 2.
Proof using.
  induction t as [|e c l IHl r IHr]; intros n sh k g u E; cbn [c_t_get_mut] in E; [discriminate|].
  cbn [hgt]. destruct n as [|n]; [lia|]. cbn [ucall] in E. unfold cbind in E.
  destruct (qcmp k (borrow (fst e))).
  - destruct sh; [|discriminate]. destruct n as [|[|n]]; cbn in E; [lia|lia|discriminate].
  - destruct (c_t_get_mut borrow qcmp n sh l k g) as [[m [l' b]|w]| |] eqn:El; try discriminate E; cbn [bind] in E.
    specialize (IHl _ _ _ _ _ El). lia.
  - destruct (c_t_get_mut borrow qcmp n sh r k g) as [[m [l' b]|w]| |] eqn:El; try discriminate E; cbn [bind] in E.
    specialize (IHr _ _ _ _ _ El). lia.
Qed.
Lemma c_get_calls : forall (t : tree) n k u, c_t_get borrow qcmp n t k = Ok (Unwound u) -> n < hgt t.
Proof using.
  induction t as [|e c l IHl r IHr]; intros n k u E; cbn [c_t_get] in E; [discriminate|].
  cbn [hgt]. destruct n as [|n]; [lia|]. cbn [ucall] in E.
  destruct (qcmp k (borrow (fst e))); [discriminate| |].
  - specialize (IHl _ _ _ E). lia.
  - specialize (IHr _ _ _ E). lia.
Qed.
End XP.
