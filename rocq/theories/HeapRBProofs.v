(** * The heap programs of RedBlackTreeMap do what the functions of RBModel.v do *)
From Coq Require Import List Arith Lia Bool Permutation.
From Verif Require Import Base Spec Sim SpecMap SpecOrd RBModel RBProofs RBHist RBIter
  PermSolve HeapModel HeapProofs HeapSafe HeapClient HeapList HeapRB.
Import ListNotations.
Local Open Scope prog_scope.

Notation TNode := RBModel.Tree.

(** [pick x G]: the rest of the list expression [G] without [x]. *)
Ltac pick x G :=
  lazymatch G with
  | x :: ?F => F
  | x => constr:(ltac:(match type of x with ?T => exact (@nil (ltac:(match T with list ?U => exact U end))) end))
  | ?y :: ?F => let F' := pick x F in constr:(y :: F')
  | ?A ++ ?B =>
      match goal with
      | _ => let A' := pick x A in constr:(A' ++ B)
      | _ => let B' := pick x B in constr:(A ++ B')
      end
  end.

Section RBH.
Context {K V Q : Type}.
Variable dbg : bool.
Variable kcmp : K -> K -> comparison.
Variable borrow : K -> Q.
Variable qcmp : Q -> Q -> comparison.
Notation C := (rcell K V).
Notation P := (prog C).
Notation pt := (@ptree C).
Notation own := (@own C).
Notation node := (node K V).
Notation tree := (tree K V).
Notation safe := (safe (@rkids K V)).

(** The cells a tree is made of. *)
Inductive etree : K * V -> pt -> Prop :=
| et_intro : forall a e, etree e (PT a (RE e) []).
Inductive topt : tree -> option addr -> list pt -> Prop :=
| to_leaf : topt Leaf None []
| to_node : forall a e c l r te ol tl or tr, etree e te -> topt l ol tl -> topt r or tr ->
    topt (TNode e c l r) (Some a) [PT a (RN (mkHN (pa te) c ol or)) (te :: tl ++ tr)].

(** The contents of a node, in hand. *)
Definition npost (n : node) (hn : hnode) (G : list own) : Prop :=
  exists te ol tl or tr, hn = mkHN (pa te) (n_color n) ol or /\
    etree (n_entry n) te /\ topt (n_left n) ol tl /\ topt (n_right n) or tr /\
    G = Tree te :: map Tree tl ++ map Tree tr.
(** A tree behind an optional pointer. *)
Definition tpost (t : tree) (o : option addr) (G : list own) : Prop :=
  exists ts, topt t o ts /\ G = map Tree ts.

Lemma topt_kids : forall t o ts, topt t o ts -> opt_list o = map pa ts.
Proof. intros t o ts H. destruct H; reflexivity. Qed.

Lemma node_kids : forall te c l ol tl r or tr, topt l ol tl -> topt r or tr ->
  rkids (RN (mkHN (pa te) c ol or) : C) = map pa (te :: tl ++ tr).
Proof.
  intros. cbn [rkids hn_entry hn_left hn_right map]. rewrite map_app.
  now rewrite (topt_kids _ _ _ H), (topt_kids _ _ _ H0).
Qed.

Lemma lent_part : forall (t : pt) ts (G : list own) F, Permutation G (map Tree ts ++ F) -> In t ts -> lent t G.
Proof.
  intros t ts G F p I. apply lent_in. eapply Permutation_in; [apply Permutation_sym; exact p|].
  apply in_app_iff. left. now apply in_map.
Qed.

Lemma see_node_ok : forall {A} n a hn ts (k : hnode -> P A) G R,
  lent (PT a (RN hn) ts) G -> safe n (k hn) G R -> safe n (see_node a k) G R.
Proof. intros A n a hn ts k G R L S. exists (RN hn), ts. auto. Qed.

Lemma see_entry_ok : forall {A} n e te (k : K * V -> P A) (G : list own) R,
  etree e te -> lent te G -> safe n (k e) G R -> safe n (see_entry (pa te) k) G R.
Proof. intros A n e te k G R E L S. destruct E as [a e]. exists (RE e), []. auto. Qed.

Lemma hcolor_ok : forall {A} n t o ts (f : option color -> P A) G R,
  topt t o ts -> (forall u, In u ts -> lent u G) -> safe n (f (tcolor t)) G R ->
  safe n (let* x := hcolor o in f x) G R.
Proof.
  intros A n t o ts f G R H L S. destruct H as [|a e c l r te ol tl or tr E Hl Hr]; [exact S|].
  eexists _, _. split; [apply L; left; reflexivity|]. intros _. exact S.
Qed.

Lemma hthen_left_ok : forall {A} n t o ts (f : option color -> P A) G R,
  topt t o ts -> (forall u, In u ts -> lent u G) -> safe n (f (then_left_color t)) G R ->
  safe n (let* x := hthen_left_color o in f x) G R.
Proof.
  intros A n t o ts f G R H L S. destruct H as [|a e c l r te ol tl or tr E Hl Hr]; [exact S|].
  assert (L1 := L _ (or_introl eq_refl)).
  eexists _, _. split; [exact L1|]. intros _. cbn [hn_left].
  eapply hcolor_ok; [exact Hl| |exact S].
  intros u Iu. eapply lent_kid; [exact L1|]. right. apply in_app_iff. auto.
Qed.

Lemma hthen_right_ok : forall {A} n t o ts (f : option color -> P A) G R,
  topt t o ts -> (forall u, In u ts -> lent u G) -> safe n (f (then_right_color t)) G R ->
  safe n (let* x := hthen_right_color o in f x) G R.
Proof.
  intros A n t o ts f G R H L S. destruct H as [|a e c l r te ol tl or tr E Hl Hr]; [exact S|].
  assert (L1 := L _ (or_introl eq_refl)).
  eexists _, _. split; [exact L1|]. intros _. cbn [hn_right].
  eapply hcolor_ok; [exact Hr| |exact S].
  intros u Iu. eapply lent_kid; [exact L1|]. right. apply in_app_iff. auto.
Qed.

Lemma take_ok : forall {A} n e c l r o ts F (f : addr * hnode -> P A) (G : list own) R,
  topt (TNode e c l r) o ts -> Permutation G (map Tree ts ++ F) ->
  (forall a te ol tl or tr, etree e te -> topt l ol tl -> topt r or tr ->
     safe n (f (a, mkHN (pa te) c ol or)) (Held a :: Tree te :: map Tree tl ++ map Tree tr ++ F) R) ->
  safe (S n) (let* x := take_mut o in f x) G R.
Proof.
  intros A n e c l r o ts F f G R H p S. inversion H as [|a ? ? ? ? te ol tl or tr E Hl Hr]; subst.
  unfold take_mut. apply safe_assoc.
  eapply (safe_seq _ _ _ 1 n _ _ _ F); [apply safe_make_mut|exact p| |lia].
  intros [a1 x] G' (a2 & E2 & ->). injection E2 as -> ->. cbn [pbind].
  eapply safe_perm; [|apply (S a2 te ol tl or tr E Hl Hr)]. perm.
Qed.

Lemma put_ok : forall {A} n a e te c l ol tl r or tr F (k : P A) (G : list own) R,
  etree e te -> topt l ol tl -> topt r or tr ->
  Permutation G (Held a :: Tree te :: map Tree tl ++ map Tree tr ++ F) ->
  (forall t, topt (TNode e c l r) (Some a) [t] -> pa t = a -> safe n k (Tree t :: F) R) ->
  safe n (Fill a (RN (mkHN (pa te) c ol or)) k) G R.
Proof.
  intros A n a e te c l ol tl r or tr F k G R E Hl Hr p S.
  exists (te :: tl ++ tr), F. splits.
  - eapply Permutation_trans; [exact p|]. perm.
  - eapply node_kids; eauto.
  - apply S; [|reflexivity]. now constructor.
Qed.

(** *** Symbolic execution *)
Ltac pickl ts G :=
  lazymatch ts with
  | [] => G
  | [?t] => pick (Tree t) G
  | _ => pick (map (@Tree C) ts) G
  end.
Ltac topt_of o :=
  lazymatch o with
  | None => constr:(to_leaf)
  | _ => match goal with H : topt _ o _ |- _ => constr:(H) end
  end.
Ltac reduce :=
  cbv beta iota zeta delta [hset_entry hset_color hset_left hset_right hn_entry hn_color hn_left hn_right];
  cbn [pbind].
Ltac vreduce :=
  cbn [set_entry set_color set_left set_right n_entry n_color n_left n_right some as_node unwrap bind
       tcolor left_color right_color then_left_color then_right_color] in *.
Ltac look :=
  lazymatch goal with
  | |- HeapSafe.safe _ _ _ ?G _ =>
      match goal with
      | |- HeapSafe.safe _ _ (pbind (hcolor ?o) _) _ _ =>
          let H := topt_of o in
          lazymatch type of H with topt _ _ ?ts =>
            let F := pickl ts G in
            eapply hcolor_ok; [exact H|intros ?u; apply (lent_part u ts G F); perm|] end
      | |- HeapSafe.safe _ _ (pbind (hthen_left_color ?o) _) _ _ =>
          let H := topt_of o in
          lazymatch type of H with topt _ _ ?ts =>
            let F := pickl ts G in
            eapply hthen_left_ok; [exact H|intros ?u; apply (lent_part u ts G F); perm|] end
      | |- HeapSafe.safe _ _ (pbind (hthen_right_color ?o) _) _ _ =>
          let H := topt_of o in
          lazymatch type of H with topt _ _ ?ts =>
            let F := pickl ts G in
            eapply hthen_right_ok; [exact H|intros ?u; apply (lent_part u ts G F); perm|] end
      end
  end; vreduce.
Ltac take_ :=
  lazymatch goal with
  | |- HeapSafe.safe _ _ (pbind (take_mut ?o) _) ?G _ =>
      let H := topt_of o in
      lazymatch type of H with topt _ _ ?ts =>
        let F := pickl ts G in
        eapply (take_ok _ _ _ _ _ o ts F); [exact H|perm|]; clear H; intros; reduce end
  end.
Ltac put_ :=
  lazymatch goal with
  | |- HeapSafe.safe _ _ (Fill ?a (RN (mkHN (pa ?te) ?c ?ol ?or)) _) ?G _ =>
      let Hl := topt_of ol in
      let Hr := topt_of or in
      match goal with HE : etree _ te |- _ =>
      lazymatch type of Hl with topt _ _ ?tl =>
      lazymatch type of Hr with topt _ _ ?tr =>
        let F1 := pick (@Held C a) G in
        let F2 := pick (Tree te) F1 in
        let F3 := pickl tl F2 in
        let F4 := pickl tr F3 in
        eapply (put_ok _ a _ te c _ ol tl _ or tr F4); [exact HE|exact Hl|exact Hr|perm|];
        intros; reduce
      end end end
  end.
Ltac fin :=
  lazymatch goal with
  | |- HeapSafe.safe _ _ (Ret (mkHN (pa ?te) ?c ?ol ?or)) ?G _ =>
      let Hl := topt_of ol in
      let Hr := topt_of or in
      match goal with HE : etree _ te |- _ =>
      lazymatch type of Hl with topt _ _ ?tl =>
      lazymatch type of Hr with topt _ _ ?tr =>
        exists (Tree te :: map Tree tl ++ map Tree tr); split; [perm|];
        exists te, ol, tl, or, tr; splits; [reflexivity|exact HE|exact Hl|exact Hr|reflexivity]
      end end end
  end.

Lemma hbal1_ok : forall e te le l1e a b lr ol tl r or tr,
  etree e te -> topt (TNode le Red (TNode l1e Red a b) lr) ol tl -> topt r or tr ->
  safe 2 (hbal1 (mkHN (pa te) Black ol or)) (Tree te :: map Tree tl ++ map Tree tr)
    (npost (mkNode le Red (TNode l1e Black a b) (TNode e Black lr r))).
Proof. intros. unfold hbal1. reduce. take_. take_. put_. put_. fin. Qed.
Lemma hbal2_ok : forall e te le l1e a b ll ol tl r or tr,
  etree e te -> topt (TNode le Red ll (TNode l1e Red a b)) ol tl -> topt r or tr ->
  safe 2 (hbal2 (mkHN (pa te) Black ol or)) (Tree te :: map Tree tl ++ map Tree tr)
    (npost (mkNode l1e Red (TNode le Black ll a) (TNode e Black b r))).
Proof. intros. unfold hbal2. reduce. take_. take_. put_. put_. fin. Qed.
Lemma hbal3_ok : forall e te re r1e a b rr ol tl l or tr,
  etree e te -> topt l ol tl -> topt (TNode re Red (TNode r1e Red a b) rr) or tr ->
  safe 2 (hbal3 (mkHN (pa te) Black ol or)) (Tree te :: map Tree tl ++ map Tree tr)
    (npost (mkNode r1e Red (TNode e Black l a) (TNode re Black b rr))).
Proof. intros. unfold hbal3. reduce. take_. take_. put_. put_. fin. Qed.
Lemma hbal4_ok : forall e te re r1e a b rl ol tl l or tr,
  etree e te -> topt l ol tl -> topt (TNode re Red rl (TNode r1e Red a b)) or tr ->
  safe 2 (hbal4 (mkHN (pa te) Black ol or)) (Tree te :: map Tree tl ++ map Tree tr)
    (npost (mkNode re Red (TNode e Black l rl) (TNode r1e Black a b))).
Proof. intros. unfold hbal4. reduce. take_. take_. put_. put_. fin. Qed.

Lemma hbalance_ok : forall e te c l ol tl r or tr n',
  etree e te -> topt l ol tl -> topt r or tr -> balance (mkNode e c l r) = Ok n' ->
  safe 2 (hbalance (mkHN (pa te) c ol or)) (Tree te :: map Tree tl ++ map Tree tr) (npost n').
Proof.
  intros e te c l ol tl r or tr n' HE Hl Hr E. unfold hbalance. reduce.
  destruct c; [injection E as <-; fin|].
  do 6 look.
  assert (B : balance (mkNode e Black l r) = Ok n') by exact E. clear E.
  destruct l as [|le [|] [|lle [|] lll llr] [|lre [|] lrl lrr]];
  destruct r as [|re [|] [|rle [|] rll rlr] [|rre [|] rrl rrr]];
  cbn [tcolor then_left_color then_right_color as_node left_color right_color n_left n_right];
  vm_compute in B; injection B as <-;
  first [fin | eapply hbal1_ok; eassumption | eapply hbal2_ok; eassumption
        | eapply hbal3_ok; eassumption | eapply hbal4_ok; eassumption].
Qed.

Lemma hremove_balance_ok : forall e te c l ol tl r or tr n',
  etree e te -> topt l ol tl -> topt r or tr -> remove_balance dbg (mkNode e c l r) = Ok n' ->
  safe 2 (hremove_balance dbg (mkHN (pa te) c ol or)) (Tree te :: map Tree tl ++ map Tree tr) (npost n').
Proof.
  intros e te c l ol tl r or tr n' HE Hl Hr E. unfold hremove_balance. reduce.
  do 2 look.
  assert (X : (let! _ := debug_assert dbg (match c with Black => true | Red => false end) in
               balance (mkNode e c l r)) = Ok n' ->
     safe 2 (if dbg && match c with Black => false | Red => true end then Fail
             else hbalance (mkHN (pa te) c ol or)) (Tree te :: map Tree tl ++ map Tree tr) (npost n')).
  { intros B. unfold debug_assert in B. destruct dbg, c; cbn [andb bind] in *; try discriminate B;
      eapply hbalance_ok; eassumption. }
  destruct l as [|le [|] ll lr]; destruct r as [|re [|] rl rr]; cbn [tcolor] in *;
    try (apply X; exact E).
  clear X. cbn in E. injection E as <-. take_. put_. take_. put_. fin.
Qed.

Ltac call lem n2 :=
  lazymatch goal with
  | |- HeapSafe.safe _ ?n (pbind (_ (mkHN (pa ?te) ?c ?ol ?or)) _) ?G _ =>
      let Hl := topt_of ol in
      let Hr := topt_of or in
      match goal with HE : etree _ te |- _ =>
      lazymatch type of Hl with topt _ _ ?tl =>
      lazymatch type of Hr with topt _ _ ?tr =>
        let F2 := pick (Tree te) G in
        let F3 := pickl tl F2 in
        let F4 := pickl tr F3 in
        eapply (safe_seq _ _ _ 2 n2 n G (Tree te :: map Tree tl ++ map Tree tr) F4);
        [eapply lem; [exact HE|exact Hl|exact Hr|eassumption]|perm| |lia]
      end end end
  end.

Lemma hremove_balance_left_ok : forall e te c l ol tl r or tr n',
  etree e te -> topt l ol tl -> topt r or tr -> remove_balance_left dbg (mkNode e c l r) = Ok n' ->
  safe 5 (hremove_balance_left dbg (mkHN (pa te) c ol or)) (Tree te :: map Tree tl ++ map Tree tr) (npost n').
Proof.
  intros e te c l ol tl r or tr n' HE Hl Hr E. unfold hremove_balance_left. reduce.
  do 3 look.
  assert (X : forall re rl rr, r = TNode re Black rl rr ->
     remove_balance dbg (mkNode e Black l (TNode re Red rl rr)) = Ok n' ->
     safe 5 (let* (pr, self_r) := take_mut or in
             Fill pr (RN (hset_color self_r Red))
               (hremove_balance dbg (hset_right (hset_color (mkHN (pa te) c ol or) Black) (Some pr))))
       (Tree te :: map Tree tl ++ map Tree tr) (npost n')).
  { intros re rl rr -> B. take_. put_.
    eapply safe_frame with (F := []); [eapply hremove_balance_ok; [exact HE|exact Hl|eassumption|exact B]|perm| |lia].
    intros x G' q. rewrite app_nil_r. eauto. }
  assert (Y : forall re rle rll rlr rre rrc rrl rrr n1,
     r = TNode re Red (TNode rle Black rll rlr) (TNode rre rrc rrl rrr) ->
     remove_balance dbg (mkNode re Black rlr (TNode rre Red rrl rrr)) = Ok n1 ->
     n' = mkNode rle Red (TNode e Black l rll) (some n1) ->
     safe 5 (let* (pr, self_r) := take_mut or in
      let* (prl, self_r_l) := take_mut (hn_left self_r) in
      let self_r := hset_left self_r None in
      let new_r_l := hn_right self_r_l in
      let self_r_l := hset_right self_r_l None in
      let self_r := hset_color self_r Black in
      let self_r := hset_left self_r new_r_l in
      let* (prr, self_r_r) := take_mut (hn_right self_r) in
      Fill prr (RN (hset_color self_r_r Red))
        (let self_r := hset_right self_r (Some prr) in
         let* self_r := hremove_balance dbg self_r in
         Fill pr (RN self_r)
           (let self := hset_right (mkHN (pa te) c ol or) (Some pr) in
            let self := hset_color self Red in
            let self_r_l := hset_left (hset_right self_r_l (hn_left self_r_l)) None in
            let self_r_l := hset_left self_r_l (hn_left self) in
            let self := hset_left self None in
            let '(self, self_r_l) := (hset_entry self (hn_entry self_r_l), hset_entry self_r_l (hn_entry self)) in
            Fill prl (RN self_r_l) (Ret (hset_left self (Some prl))))))
      (Tree te :: map Tree tl ++ map Tree tr) (npost n')).
  { intros re rle rll rlr rre rrc rrl rrr n1 -> B ->. take_. take_. take_. put_.
    call hremove_balance_ok 0.
    intros hn G' (te' & ol' & tl' & or' & tr' & -> & HE' & Hl' & Hr' & ->). reduce.
    put_. put_. fin. }
  destruct l as [|le [|] ll lr].
  2:{ cbn in E. injection E as <-. cbn [tcolor] in *. take_. put_. fin. }
  - destruct r as [|re [|] [|rle [|] rll rlr] rr]; cbn [tcolor then_left_color as_node left_color n_left] in *;
      try discriminate E; try (eapply X; [reflexivity|exact E]).
    destruct rr as [|rre rrc rrl rrr]; [discriminate E|].
    cbn [remove_balance_left left_color right_color tcolor then_left_color as_node n_left n_right unwrap bind
      set_left set_right set_color set_entry n_entry n_color some] in E.
    match type of E with (let! _ := ?b in _) = _ => destruct b eqn:B; [|discriminate..] end.
    cbn [bind] in E. injection E as <-.
    eapply Y; [reflexivity|exact B|reflexivity].
  - destruct r as [|re [|] [|rle [|] rll rlr] rr]; cbn [tcolor then_left_color as_node left_color n_left] in *;
      try discriminate E; try (eapply X; [reflexivity|exact E]).
    destruct rr as [|rre rrc rrl rrr]; [discriminate E|].
    match type of E with _ = Ok ?x => change (match remove_balance dbg (mkNode re Black rlr (TNode rre Red rrl rrr)) with
      | Ok n1 => Ok (mkNode rle Red (TNode e Black (TNode le Black ll lr) rll) (some n1))
      | Panic => Panic | Diverge => Diverge end = Ok x) in E end.
    destruct (remove_balance dbg (mkNode re Black rlr (TNode rre Red rrl rrr))) eqn:B; try discriminate.
    injection E as <-.
    eapply Y; [reflexivity|exact B|reflexivity].
Qed.

Lemma hremove_balance_right_ok : forall e te c l ol tl r or tr n',
  etree e te -> topt l ol tl -> topt r or tr -> remove_balance_right dbg (mkNode e c l r) = Ok n' ->
  safe 5 (hremove_balance_right dbg (mkHN (pa te) c ol or)) (Tree te :: map Tree tl ++ map Tree tr) (npost n').
Proof.
  intros e te c l ol tl r or tr n' HE Hl Hr E. unfold hremove_balance_right. reduce.
  do 3 look.
  assert (X : forall le ll lr, l = TNode le Black ll lr ->
     remove_balance dbg (mkNode e Black (TNode le Red ll lr) r) = Ok n' ->
     safe 5 (let* (pl, self_l) := take_mut ol in
             Fill pl (RN (hset_color self_l Red))
               (hremove_balance dbg (hset_left (hset_color (mkHN (pa te) c ol or) Black) (Some pl))))
       (Tree te :: map Tree tl ++ map Tree tr) (npost n')).
  { intros le ll lr -> B. take_. put_.
    eapply safe_frame with (F := []); [eapply hremove_balance_ok; [exact HE|eassumption|exact Hr|exact B]|perm| |lia].
    intros x G' q. rewrite app_nil_r. eauto. }
  assert (Y : forall le lle llc lll llr lre lrl lrr n1,
     l = TNode le Red (TNode lle llc lll llr) (TNode lre Black lrl lrr) ->
     remove_balance dbg (mkNode le Black (TNode lle Red lll llr) lrl) = Ok n1 ->
     n' = mkNode lre Red (some n1) (TNode e Black lrr r) ->
     safe 5 (let* (pl, self_l) := take_mut ol in
      let* (plr, self_l_r) := take_mut (hn_right self_l) in
      let self_l := hset_right self_l None in
      let new_l_r := hn_left self_l_r in
      let self_l_r := hset_left self_l_r None in
      let self_l := hset_color self_l Black in
      let self_l := hset_right self_l new_l_r in
      let* (pll, self_l_l) := take_mut (hn_left self_l) in
      Fill pll (RN (hset_color self_l_l Red))
        (let self_l := hset_left self_l (Some pll) in
         let* self_l := hremove_balance dbg self_l in
         Fill pl (RN self_l)
           (let self := hset_left (mkHN (pa te) c ol or) (Some pl) in
            let self := hset_color self Red in
            let self_l_r := hset_right (hset_left self_l_r (hn_right self_l_r)) None in
            let self_l_r := hset_right self_l_r (hn_right self) in
            let self := hset_right self None in
            let '(self, self_l_r) := (hset_entry self (hn_entry self_l_r), hset_entry self_l_r (hn_entry self)) in
            Fill plr (RN self_l_r) (Ret (hset_right self (Some plr))))))
      (Tree te :: map Tree tl ++ map Tree tr) (npost n')).
  { intros le lle llc lll llr lre lrl lrr n1 -> B ->. take_. take_. take_. put_.
    call hremove_balance_ok 0.
    intros hn G' (te' & ol' & tl' & or' & tr' & -> & HE' & Hl' & Hr' & ->). reduce.
    put_. put_. fin. }
  assert (Z : tcolor r <> Some Red ->
     match l with
     | TNode _ Black _ _ | TNode _ Red _ (TNode _ Black _ _) => True | _ => False end).
  { intros N. destruct l as [|le [|] ll [|lre [|] lrl lrr]], r as [|re [|] rl rr]; cbn in N; trivial;
      try congruence; discriminate E. }
  destruct (tcolor r) as [[|]|] eqn:Er.
  - destruct r as [|re ? rl rr]; [discriminate|]. injection Er as ->.
    replace n' with (mkNode e Red l (TNode re Black rl rr))
      by (destruct l as [|? [|] ? [|? [|] ? ?]]; vm_compute in E; injection E as <-; reflexivity).
    destruct l as [|? [|] ? [|? [|] ? ?]]; cbn [tcolor then_right_color as_node right_color n_right] in *;
      take_; put_; fin.
  - specialize (Z ltac:(congruence)).
    destruct l as [|le [|] ll [|lre [|] lrl lrr]]; try contradiction;
      cbn [tcolor then_right_color as_node right_color n_right] in *;
      destruct r as [|re ? rl rr]; try discriminate; injection Er as ->;
      try (eapply X; [reflexivity|exact E]).
    destruct ll as [|lle llc lll llr]; [discriminate E|].
    match type of E with _ = Ok ?x => change (match remove_balance dbg (mkNode le Black (TNode lle Red lll llr) lrl) with
      | Ok n1 => Ok (mkNode lre Red (some n1) (TNode e Black lrr (TNode re Black rl rr)))
      | Panic => Panic | Diverge => Diverge end = Ok x) in E end.
    destruct (remove_balance dbg (mkNode le Black (TNode lle Red lll llr) lrl)) eqn:B; try discriminate.
    injection E as <-. eapply Y; [reflexivity|exact B|reflexivity].
  - specialize (Z ltac:(congruence)).
    destruct l as [|le [|] ll [|lre [|] lrl lrr]]; try contradiction;
      cbn [tcolor then_right_color as_node right_color n_right] in *;
      destruct r as [|re ? rl rr]; try discriminate;
      try (eapply X; [reflexivity|exact E]).
    destruct ll as [|lle llc lll llr]; [discriminate E|].
    match type of E with _ = Ok ?x => change (match remove_balance dbg (mkNode le Black (TNode lle Red lll llr) lrl) with
      | Ok n1 => Ok (mkNode lre Red (some n1) (TNode e Black lrr Leaf))
      | Panic => Panic | Diverge => Diverge end = Ok x) in E end.
    destruct (remove_balance dbg (mkNode le Black (TNode lle Red lll llr) lrl)) eqn:B; try discriminate.
    injection E as <-. eapply Y; [reflexivity|exact B|reflexivity].
Qed.

(** *** Fusing *)
Lemma etree_depth : forall e te, etree e te -> pdepth te = 1.
Proof. intros e te H. destruct H. reflexivity. Qed.
Lemma topt_depth : forall t o ts, topt t o ts -> list_max (map (@pdepth C) ts) <= match t with Leaf => 0 | _ => S (hgt t) end.
Proof.
  intros t o ts H. induction H as [|a e c l r te ol tl or tr E Hl IHl Hr IHr]; [cbn; lia|].
  cbn [map list_max fold_right pdepth].
  change (fold_right Nat.max 0) with list_max. rewrite map_app.
  rewrite (etree_depth _ _ E), list_max_app. cbn [hgt].
  destruct l, r; cbn [hgt] in *; lia.
Qed.

(** A node with nothing below, dropped. *)
Lemma drop_bare : forall e c a t, topt (TNode e c Leaf Leaf) (Some a) [t] ->
  safe 0 (drop_ptr rkids 2 a) [Tree t] (fun _ G => G = []).
Proof.
  intros e c a t H. assert (D := topt_depth _ _ _ H). assert (E := topt_kids _ _ _ H).
  injection E as ->. apply safe_drop. cbn in D. lia.
Qed.

Lemma hreplace_ok : forall e0 t0 c0 e c l r o ts,
  etree e0 t0 -> topt (TNode e c l r) o ts ->
  safe 1 (hreplace (mkHN (pa t0) c0 None None) o) (Tree t0 :: map Tree ts) (npost (mkNode e c l r)).
Proof.
  intros. unfold hreplace. take_. put_.
  eapply (safe_seq _ _ _ 0 0 _ _ [Tree t] (Tree te :: map Tree tl ++ map Tree tr));
    [eapply drop_bare; eassumption|perm| |lia].
  intros [] G' ->. fin.
Qed.

Lemma fuse_not : forall (n0 : node) l r n, remove_fuse dbg n0 l r = Ok (n, false) -> n = n0 /\ l = Leaf /\ r = Leaf.
Proof.
  intros n0 [|le lc ll lr] [|re rc rl rr] n E; try (cbn in E; injection E as <- ; auto; fail).
  - cbn in E. discriminate.
  - cbn in E. discriminate.
  - exfalso. destruct lc, rc; [rewrite fuse_rr in E|rewrite fuse_rb in E|rewrite fuse_br in E|rewrite fuse_bb in E];
    match type of E with (let! _ := ?b in _) = _ => destruct b; try discriminate E end; cbn [bind] in E.
    match type of E with (let! _ := ?b in _) = _ => destruct b; discriminate E end.
Qed.

Lemma topt_some : forall e c l r o ts, topt (TNode e c l r) o ts -> exists a, o = Some a.
Proof. intros e c l r o ts H. inversion H. eauto. Qed.

Lemma see_topt_ok : forall {A} n e c l r a ts (k : hnode -> P A) (G : list own) R,
  topt (TNode e c l r) (Some a) ts -> (forall u, In u ts -> lent u G) ->
  (forall te ol tl or tr, etree e te -> topt l ol tl -> topt r or tr -> lent te G ->
     (forall u, In u tl -> lent u G) -> (forall u, In u tr -> lent u G) ->
     safe n (k (mkHN (pa te) c ol or)) G R) ->
  safe n (see_node a k) G R.
Proof.
  intros A n e c l r a ts k G R H L S. inversion H as [|? ? ? ? ? te ol tl or tr HE Hl Hr]; subst.
  assert (L1 := L _ (or_introl eq_refl)).
  eapply see_node_ok; [exact L1|]. apply (S te ol tl or tr); trivial.
  - eapply lent_kid; [exact L1|]. now left.
  - intros u Iu. eapply lent_kid; [exact L1|]. right. apply in_app_iff. auto.
  - intros u Iu. eapply lent_kid; [exact L1|]. right. apply in_app_iff. auto.
Qed.

Lemma hfuse_red_red_ok : forall pl pr le tle lc ll oll tll re tre rc rr orr trr n hn b Gn,
  etree le tle -> topt ll oll tll -> etree re tre -> topt rr orr trr -> npost n hn Gn ->
  (b = false -> n_left n = Leaf /\ n_right n = Leaf) ->
  safe 0 (hfuse_red_red pl pr (mkHN (pa tle) lc oll None) (mkHN (pa tre) rc None orr) hn b)
    (Held pl :: Held pr :: Tree tle :: map Tree tll ++ Tree tre :: map Tree trr ++ Gn)
    (npost (fuse_red_red (mkNode le lc ll Leaf) (mkNode re rc Leaf rr) n b)).
Proof.
  intros pl pr le tle lc ll oll tll re tre rc rr orr trr n hn b Gn E1 H1 E2 H2
    (te & ol & tl & or & tr & -> & HE & Hl & Hr & ->) Nb.
  destruct n as [e c l r]. cbn [n_entry n_color n_left n_right] in *.
  unfold hfuse_red_red, fuse_red_red. reduce. cbn [n_color].
  assert (Y : b = true -> safe 0
    (Fill pl (RN (mkHN (pa te) c ol or))
      (Fill pr (RN (mkHN (pa tre) rc (Some pl) orr)) (Ret (mkHN (pa tle) lc oll (Some pr)))))
    (Held pl :: Held pr :: Tree tle :: map Tree tll ++ Tree tre :: map Tree trr ++
      Tree te :: map Tree tl ++ map Tree tr)
    (npost (mkNode le lc ll (TNode re rc (TNode e c l r) rr)))).
  { intros _. put_. put_. fin. }
  assert (N : b = false -> safe 0
    (Fill pl (RN (mkHN (pa te) c ol or))
      (Fill pr (RN (mkHN (pa tre) rc None orr))
         (let* _ := drop_ptr rkids 2 pl in Ret (mkHN (pa tle) lc oll (Some pr)))))
    (Held pl :: Held pr :: Tree tle :: map Tree tll ++ Tree tre :: map Tree trr ++
      Tree te :: map Tree tl ++ map Tree tr)
    (npost (mkNode le lc ll (TNode re rc Leaf rr)))).
  { intros Eb. destruct (Nb Eb) as [-> ->]. put_. put_.
    eapply (safe_seq _ _ _ 0 0 _ _ [Tree t] (Tree t0 :: Tree tle :: map Tree tll));
      [eapply drop_bare; eassumption|perm| |lia].
    intros [] G' ->. fin. }
  destruct c, b; try (apply Y; reflexivity); try (apply N; reflexivity).
  put_. put_. fin.
Qed.

Lemma hfuse_black_black_ok : forall pl pr le tle lc ll oll tll re tre rc rr orr trr n hn b Gn n',
  etree le tle -> topt ll oll tll -> etree re tre -> topt rr orr trr -> npost n hn Gn ->
  (b = false -> n_left n = Leaf /\ n_right n = Leaf) ->
  fuse_black_black dbg (mkNode le lc ll Leaf) (mkNode re rc Leaf rr) n b = Ok n' ->
  safe 5 (hfuse_black_black dbg pl pr (mkHN (pa tle) lc oll None) (mkHN (pa tre) rc None orr) hn b)
    (Held pl :: Held pr :: Tree tle :: map Tree tll ++ Tree tre :: map Tree trr ++ Gn)
    (npost n').
Proof.
  intros pl pr le tle lc ll oll tll re tre rc rr orr trr n hn b Gn n' E1 H1 E2 H2
    (te & ol & tl & or & tr & -> & HE & Hl & Hr & ->) Nb EV.
  destruct n as [e c l r]. cbn [n_entry n_color n_left n_right] in *.
  unfold hfuse_black_black, fuse_black_black in *. reduce. cbn [n_color] in EV.
  assert (Y : remove_balance_left dbg (mkNode le Red ll (TNode re rc (TNode e c l r) rr)) = Ok n' -> safe 5
    (Fill pl (RN (mkHN (pa te) c ol or))
      (Fill pr (RN (mkHN (pa tre) rc (Some pl) orr))
        (let* node := hremove_balance_left dbg (mkHN (pa tle) Red oll (Some pr)) in Ret node)))
    (Held pl :: Held pr :: Tree tle :: map Tree tll ++ Tree tre :: map Tree trr ++
      Tree te :: map Tree tl ++ map Tree tr)
    (npost n')).
  { intros B. put_. put_.
    eapply (safe_seq _ _ _ 5 0 _ _ (Tree tle :: map Tree tll ++ map Tree [t0]) []);
      [eapply hremove_balance_left_ok; [exact E1|exact H1|eassumption|exact B]|perm| |lia].
    intros x G' q. rewrite app_nil_r. now apply safe_ret. }
  assert (N : b = false -> remove_balance_left dbg (mkNode le Red ll (TNode re rc Leaf rr)) = Ok n' -> safe 5
    (Fill pl (RN (mkHN (pa te) c ol or))
      (Fill pr (RN (mkHN (pa tre) rc None orr))
        (let* node := hremove_balance_left dbg (mkHN (pa tle) Red oll (Some pr)) in
         let* _ := drop_ptr rkids 2 pl in Ret node)))
    (Held pl :: Held pr :: Tree tle :: map Tree tll ++ Tree tre :: map Tree trr ++
      Tree te :: map Tree tl ++ map Tree tr)
    (npost n')).
  { intros Eb B. destruct (Nb Eb) as [-> ->]. put_. put_.
    eapply (safe_seq _ _ _ 5 0 _ _ (Tree tle :: map Tree tll ++ map Tree [t0]) [Tree t]);
      [eapply hremove_balance_left_ok; [exact E1|exact H1|eassumption|exact B]|perm| |lia].
    intros x G' q.
    eapply (safe_seq _ _ _ 0 0 _ _ [Tree t] G');
      [eapply drop_bare; eassumption|apply Permutation_app_comm| |lia].
    intros [] G2 ->. now apply safe_ret. }
  destruct c, b; try (apply Y; exact EV); try (apply N; [reflexivity|exact EV]).
  injection EV as <-. put_. put_. fin.
Qed.

Lemma hremove_fuse_ok : forall f l r n b e0 t0 c0 ol tl or tr,
  hgt l + hgt r < f -> etree e0 t0 -> topt l ol tl -> topt r or tr ->
  remove_fuse dbg (mkNode e0 c0 Leaf Leaf) l r = Ok (n, b) ->
  safe (7 * (hgt l + hgt r) + 1) (hremove_fuse dbg f (mkHN (pa t0) c0 None None) ol or)
    (Tree t0 :: map Tree tl ++ map Tree tr) (fun x G => snd x = b /\ npost n (fst x) G).
Proof.
  induction f as [|f IH]; intros l r n b e0 t0 c0 ol tl or tr Hf HE Hl Hr E; [lia|].
  destruct l as [|le lc ll lr], r as [|re rc rl rr].
  - cbn in E. injection E as <- <-. inversion Hl; inversion Hr; subst. cbn [hremove_fuse].
    apply safe_ret. split; [reflexivity|]. exists t0, None, [], None, [].
    splits; try constructor; trivial.
  - cbn in E. injection E as <- <-. inversion Hl; subst. destruct (topt_some _ _ _ _ _ _ Hr) as [a ->].
    cbn [hremove_fuse].
    eapply (safe_seq _ _ _ 1 0 _ _ (Tree t0 :: map Tree tr) []); [eapply hreplace_ok; eassumption|perm| |lia].
    intros x G' q. rewrite app_nil_r. now apply safe_ret.
  - cbn in E. injection E as <- <-. inversion Hr; subst. destruct (topt_some _ _ _ _ _ _ Hl) as [a ->].
    cbn [hremove_fuse].
    eapply (safe_seq _ _ _ 1 0 _ _ (Tree t0 :: map Tree tl) []); [eapply hreplace_ok; eassumption|perm| |lia].
    intros x G' q. rewrite app_nil_r. now apply safe_ret.
  - destruct (topt_some _ _ _ _ _ _ Hl) as [a ->]. destruct (topt_some _ _ _ _ _ _ Hr) as [a' ->].
    cbn [hremove_fuse].
    eapply see_topt_ok; [exact Hl|intros u; eapply (lent_part u tl _ (Tree t0 :: map Tree tr)); perm|].
    intros te1 ol1 tl1 or1 tr1 _ _ _ _ _ _. reduce. clear te1 ol1 tl1 or1 tr1.
    eapply see_topt_ok; [exact Hr|intros u; eapply (lent_part u tr _ (Tree t0 :: map Tree tl)); perm|].
    intros te2 ol2 tl2 or2 tr2 _ _ _ _ _ _. reduce. clear te2 ol2 tl2 or2 tr2.
    assert (Hh : 7 * (hgt (TNode le lc ll lr) + hgt (TNode re rc rl rr)) + 1 =
                 S (S (7 * (Nat.max (hgt ll) (hgt lr) + Nat.max (hgt rl) (hgt rr)) + 13))).
    { cbn [hgt]. lia. }
    rewrite Hh. cbn [hgt] in Hf.
    destruct lc, rc.
    + change (remove_fuse dbg (mkNode e0 c0 Leaf Leaf) (TNode le Red ll lr) (TNode re Red rl rr)) with
        (let! node := (let! (node, fused) := remove_fuse dbg (mkNode e0 c0 Leaf Leaf) lr rl in
          Ok (fuse_red_red (mkNode le Red ll Leaf) (mkNode re Red Leaf rr) node fused)) in Ok (node, true)) in E.
      destruct (remove_fuse dbg (mkNode e0 c0 Leaf Leaf) lr rl) as [[n1 b1]| |] eqn:B; try discriminate E.
      cbn [bind] in E. injection E as <- <-.
      apply safe_assoc. take_. apply safe_assoc. take_. apply safe_assoc.
      eapply (safe_seq _ _ _ (7 * (hgt lr + hgt rl) + 1) 0 _ _ (Tree t0 :: map Tree tr1 ++ map Tree tl0));
        [eapply IH; [lia|exact HE|eassumption|eassumption|exact B]| | |lia].
      1:{ match goal with |- Permutation ?G ?G1 => idtac end.
          instantiate (1 := Held a0 :: Held a1 :: Tree te0 :: Tree te :: map Tree tl1 ++ map Tree tr0). perm. }
      intros [hn b2] G' [Eb q]. cbn [fst snd] in *. subst b2.
      eapply (safe_seq _ _ _ 0 0 _ _ _ []); [eapply hfuse_red_red_ok; [| | | |exact q|]| | |lia];
        [| | | | | |].
      * eassumption.
      * eassumption.
      * eassumption.
      * eassumption.
      * intros ->. apply fuse_not in B. destruct B as (-> & _). auto.
      * perm.
      * intros x G2 q2. rewrite app_nil_r. apply safe_ret. auto.
    + change (remove_fuse dbg (mkNode e0 c0 Leaf Leaf) (TNode le Red ll lr) (TNode re Black rl rr)) with
        (let! node := (let! (node, _) := remove_fuse dbg (mkNode e0 c0 Leaf Leaf) lr (TNode re Black rl rr) in
          Ok (mkNode le Red ll (some node))) in Ok (node, true)) in E.
      destruct (remove_fuse dbg (mkNode e0 c0 Leaf Leaf) lr (TNode re Black rl rr)) as [[n1 b1]| |] eqn:B;
        try discriminate E.
      cbn [bind] in E. injection E as <- <-.
      apply safe_assoc. take_. apply safe_assoc.
      eapply (safe_seq _ _ _ (7 * (hgt lr + hgt (TNode re Black rl rr)) + 1) 0 _ _ (Tree t0 :: map Tree tr0 ++ map Tree tr)
               (Held a0 :: Tree te :: map Tree tl0));
        [eapply IH; [cbn [hgt]; lia|exact HE|eassumption|eassumption|exact B]|perm| |cbn [hgt]; lia].
      intros [hn b2] G' [Eb (te' & ol' & tl' & or' & tr' & Ehn & HE' & Hl' & Hr' & ->)]. cbn [fst snd] in *.
      subst hn b2. reduce. put_.
      exists (Tree te :: map Tree tl0 ++ map Tree [t]). split; [perm|]. split; [reflexivity|].
      eexists te, ol, tl0, (Some a0), [t]. splits; try reflexivity; try eassumption.
    + change (remove_fuse dbg (mkNode e0 c0 Leaf Leaf) (TNode le Black ll lr) (TNode re Red rl rr)) with
        (let! node := (let! (node, _) := remove_fuse dbg (mkNode e0 c0 Leaf Leaf) (TNode le Black ll lr) rl in
          Ok (mkNode re Red (some node) rr)) in Ok (node, true)) in E.
      destruct (remove_fuse dbg (mkNode e0 c0 Leaf Leaf) (TNode le Black ll lr) rl) as [[n1 b1]| |] eqn:B;
        try discriminate E.
      cbn [bind] in E. injection E as <- <-.
      apply safe_assoc. take_. apply safe_assoc.
      eapply (safe_seq _ _ _ (7 * (hgt (TNode le Black ll lr) + hgt rl) + 1) 0 _ _ (Tree t0 :: map Tree tl ++ map Tree tl0)
               (Held a0 :: Tree te :: map Tree tr0));
        [eapply IH; [cbn [hgt]; lia|exact HE|eassumption|eassumption|exact B]|perm| |cbn [hgt]; lia].
      intros [hn b2] G' [Eb (te' & ol' & tl' & or' & tr' & Ehn & HE' & Hl' & Hr' & ->)]. cbn [fst snd] in *.
      subst hn b2. reduce. put_.
      exists (Tree te :: map Tree [t] ++ map Tree tr0). split; [perm|]. split; [reflexivity|].
      eexists te, (Some a0), [t], or, tr0. splits; try reflexivity; try eassumption.
    + change (remove_fuse dbg (mkNode e0 c0 Leaf Leaf) (TNode le Black ll lr) (TNode re Black rl rr)) with
        (let! node := (let! (node, fused) := remove_fuse dbg (mkNode e0 c0 Leaf Leaf) lr rl in
          fuse_black_black dbg (mkNode le Black ll Leaf) (mkNode re Black Leaf rr) node fused) in Ok (node, true)) in E.
      destruct (remove_fuse dbg (mkNode e0 c0 Leaf Leaf) lr rl) as [[n1 b1]| |] eqn:B; try discriminate E.
      cbn [bind] in E.
      destruct (fuse_black_black dbg (mkNode le Black ll Leaf) (mkNode re Black Leaf rr) n1 b1) as [n2| |] eqn:B2;
        try discriminate E.
      injection E as <- <-.
      apply safe_assoc. take_. apply safe_assoc. take_. apply safe_assoc.
      eapply (safe_seq _ _ _ (7 * (hgt lr + hgt rl) + 1) 5 _ _ (Tree t0 :: map Tree tr1 ++ map Tree tl0)
               (Held a0 :: Held a1 :: Tree te0 :: Tree te :: map Tree tl1 ++ map Tree tr0));
        [eapply IH; [lia|exact HE|eassumption|eassumption|exact B]|perm| |lia].
      intros [hn b2] G' [Eb q]. cbn [fst snd] in *. subst b2.
      eapply (safe_seq _ _ _ 5 0 _ _ _ []);
        [eapply hfuse_black_black_ok; [| | | |exact q| |exact B2]| | |lia].
      * eassumption.
      * eassumption.
      * eassumption.
      * eassumption.
      * intros ->. apply fuse_not in B. destruct B as (-> & _). auto.
      * perm.
      * intros x G2 q2. rewrite app_nil_r. apply safe_ret. auto.
Qed.

(** *** Insertion *)
Lemma drop_entry : forall e te, etree e te -> safe 0 (drop_ptr rkids 1 (pa te)) [Tree te] (fun _ G => G = []).
Proof. intros e te H. apply safe_drop. rewrite (etree_depth _ _ H). lia. Qed.

(** The entry of a node in hand can be read. *)
Ltac entry_ :=
  lazymatch goal with
  | |- HeapSafe.safe _ _ (see_entry (pa ?te) _) ?G _ =>
      match goal with HE : etree _ te |- _ =>
        let F := pick (Tree te) G in
        eapply (see_entry_ok _ _ te _ G); [exact HE|apply (lent_part te [te] G F); [perm|now left]|] end
  end; reduce.

Lemma hins_ok : forall f t k v root o ts t' b,
  hgt t < f -> topt t o ts -> ins kcmp t k v root = Ok (t', b) ->
  safe (3 * hgt t + 2) (hins kcmp f o k v root) (map Tree ts)
    (fun x G => snd x = b /\ tpost t' (fst x) G).
Proof.
  induction f as [|f IH]; intros t k v root o ts t' b Hf H E; [lia|].
  destruct t as [|e c l r].
  - inversion H; subst. cbn in E. injection E as <- <-. cbn [hins].
    unfold hnew_node. cbn [pbind map].
    exists 1, [], []. splits; [reflexivity|perm|reflexivity|]. intros p.
    exists 0, [PT p (RE (k, v)) []], []. splits; [reflexivity|perm|reflexivity|]. intros a.
    apply safe_ret. split; [reflexivity|].
    exists [PT a (RN (mkHN p (if root then Black else Red) None None)) [PT p (RE (k, v)) []]].
    split; [|reflexivity]. destruct root; cbn [some n_entry n_color n_left n_right new_black new_red];
      exact (to_node a (k, v) _ Leaf Leaf (PT p (RE (k, v)) []) None [] None [] (et_intro p _) to_leaf to_leaf).
  - destruct (topt_some _ _ _ _ _ _ H) as [a ->]. cbn [hins].
    replace (3 * hgt (TNode e c l r) + 2) with (S (3 * Nat.max (hgt l) (hgt r) + 4))
      by (cbn [hgt]; lia).
    cbn [hgt] in Hf. cbn [ins] in E.
    replace (map (@Tree C) ts) with (map (@Tree C) ts ++ []) by apply app_nil_r.
    eapply (take_ok _ _ _ _ _ _ ts []); [exact H|perm|]. intros p te ol tl or tr HE Hl Hr. reduce. entry_.
    (* what the three cases have in common *)
    assert (X : forall n' hn G', npost n' hn G' -> t' = some (if root then set_color n' Black else n') ->
      safe 0 (Fill p (RN (if root then hset_color hn Black else hn)) (Ret (Some p, b))) (Held p :: G')
        (fun x G => snd x = b /\ tpost t' (fst x) G)).
    { intros n' hn G' (te' & ol' & tl' & or' & tr' & -> & HE' & Hl' & Hr' & ->) ->. clear - HE' Hl' Hr'.
      destruct root; reduce; put_; apply safe_ret; (split; [reflexivity|]); eexists; (split; [eassumption|reflexivity]). }
    assert (Bal : forall e te c l ol tl r or tr n1 (b : bool),
      (if b then balance (mkNode e c l r) else Ok (mkNode e c l r)) = Ok n1 ->
      etree e te -> topt l ol tl -> topt r or tr ->
      safe 2 (if b then hbalance (mkHN (pa te) c ol or) else Ret (mkHN (pa te) c ol or))
        (Tree te :: map Tree tl ++ map Tree tr) (npost n1)).
    { intros e1 te1 c1 l1 ol1 tl1 r1 or1 tr1 n1 [] B E1 L1 R1.
      - eapply hbalance_ok; eassumption.
      - injection B as <-. fin. }
    destruct (kcmp k (fst e)) eqn:Ec.
    + (* the same key *)
      injection E as Et <-.
      cbn [pbind]. exists (3 * Nat.max (hgt l) (hgt r) + 3), [].
      eexists (Held p :: Tree te :: map Tree tl ++ map Tree tr).
      splits; [lia|perm|reflexivity|]. intros e'.
      apply safe_assoc.
      eapply (safe_seq _ _ _ 0 0 _ _ [Tree te] (Tree (PT e' (RE (k, v)) []) :: Held p :: map Tree tl ++ map Tree tr));
        [eapply drop_entry; exact HE|perm| |lia].
      intros [] G' ->. cbn [pbind]. reduce.
      eapply safe_perm; [|apply (X (mkNode (k, v) c l r) (mkHN e' c ol or))].
      3:{ exact (eq_sym Et). }
      2:{ exists (PT e' (RE (k, v)) []), ol, tl, or, tr. splits; [reflexivity|constructor|exact Hl|exact Hr|reflexivity]. }
      perm.
    + destruct (ins kcmp l k v false) as [[l' b1]| |] eqn:El; try discriminate E. cbn [bind] in E.
      match type of E with (let! _ := (let! _ := ?B in _) in _) = _ => destruct B as [n1| |] eqn:EB end;
        try discriminate E. cbn [bind] in E. injection E as Et <-.
      apply safe_assoc.
      eapply (safe_seq _ _ _ (3 * hgt l + 2) 2 _ _ (map Tree tl) (Held p :: Tree te :: map Tree tr));
        [eapply IH; [lia|exact Hl|exact El]|perm| |lia].
      intros [ol1 b2] G' [Eb (tl1 & Hl1 & ->)]. cbn [fst snd] in *. subst b2. reduce.
      apply safe_assoc.
      eapply (safe_seq _ _ _ 2 0 _ _ (Tree te :: map Tree tl1 ++ map Tree tr) [Held p]);
        [eapply Bal; [exact EB|exact HE|exact Hl1|exact Hr]|perm| |lia].
      intros hn G' q. cbn [pbind].
      eapply safe_perm; [apply Permutation_cons_append|]. eapply X; [exact q|congruence].
    + destruct (ins kcmp r k v false) as [[r' b1]| |] eqn:El; try discriminate E. cbn [bind] in E.
      match type of E with (let! _ := (let! _ := ?B in _) in _) = _ => destruct B as [n1| |] eqn:EB end;
        try discriminate E. cbn [bind] in E. injection E as Et <-.
      apply safe_assoc.
      eapply (safe_seq _ _ _ (3 * hgt r + 2) 2 _ _ (map Tree tr) (Held p :: Tree te :: map Tree tl));
        [eapply IH; [lia|exact Hr|exact El]|perm| |lia].
      intros [or1 b2] G' [Eb (tr1 & Hr1 & ->)]. cbn [fst snd] in *. subst b2. reduce.
      apply safe_assoc.
      eapply (safe_seq _ _ _ 2 0 _ _ (Tree te :: map Tree tl ++ map Tree tr1) [Held p]);
        [eapply Bal; [exact EB|exact HE|exact Hl|exact Hr1]|perm| |lia].
      intros hn G' q. cbn [pbind].
      eapply safe_perm; [apply Permutation_cons_append|]. eapply X; [exact q|congruence].
Qed.

(** *** Removal *)
Lemma hdel_ok : forall f g t q root o ts t' b,
  hgt t < f -> 2 * hgt t <= g -> topt t o ts -> del dbg borrow qcmp t q root = Ok (t', b) ->
  safe (14 * hgt t) (hdel dbg borrow qcmp f g o q root) (map Tree ts)
    (fun x G => snd x = b /\ tpost t' (fst x) G).
Proof.
  induction f as [|f IH]; intros g t q root o ts t' b Hf Hg H E; [lia|].
  destruct t as [|e c l r].
  - inversion H; subst. cbn in E. injection E as <- <-. cbn [hdel].
    apply safe_ret. split; [reflexivity|]. exists []. split; [constructor|reflexivity].
  - destruct (topt_some _ _ _ _ _ _ H) as [a ->]. cbn [hdel].
    replace (14 * hgt (TNode e c l r)) with (S (14 * Nat.max (hgt l) (hgt r) + 13))
      by (cbn [hgt]; lia).
    cbn [hgt] in Hf, Hg. cbn [del] in E.
    replace (map (@Tree C) ts) with (map (@Tree C) ts ++ []) by apply app_nil_r.
    eapply (take_ok _ _ _ _ _ _ ts []); [exact H|perm|]. intros p te ol tl or tr HE Hl Hr. reduce. entry_.
    assert (X : forall n' hn G', npost n' hn G' -> t' = some (if root then set_color n' Black else n') ->
      safe 0 (Fill p (RN (if root then hset_color hn Black else hn)) (Ret (Some p, b))) (Held p :: G')
        (fun x G => snd x = b /\ tpost t' (fst x) G)).
    { intros n' hn G' (te' & ol' & tl' & or' & tr' & -> & HE' & Hl' & Hr' & ->) ->. clear - HE' Hl' Hr'.
      destruct root; reduce; put_; apply safe_ret; (split; [reflexivity|]); eexists; (split; [eassumption|reflexivity]). }
    destruct (qcmp q (borrow (fst e))) eqn:Ec.
    + (* found *)
      cbv beta iota zeta delta [n_left n_right set_left set_right n_entry n_color] in E.
      destruct (remove_fuse dbg (mkNode e c Leaf Leaf) l r) as [[n1 b1]| |] eqn:B; try discriminate E.
      cbn [bind] in E. injection E as Et <-.
      apply safe_assoc.
      eapply (safe_seq _ _ _ (7 * (hgt l + hgt r) + 1) 0 _ _ (Tree te :: map Tree tl ++ map Tree tr) [Held p]);
        [eapply hremove_fuse_ok; [|exact HE|exact Hl|exact Hr|exact B]|perm| |].
      1:{ lia. }
      2:{ lia. }
      intros [hn b2] G' [Eb q1]. cbn [fst snd] in *. subst b2. reduce.
      destruct b1; cbn [negb] in Et |- *.
      * eapply safe_perm; [apply Permutation_cons_append|]. eapply X; [exact q1|symmetry; exact Et].
      * apply fuse_not in B. destruct B as (-> & -> & ->).
        destruct q1 as (te' & ol' & tl' & or' & tr' & -> & HE' & Hl' & Hr' & ->).
        cbn [n_entry n_color n_left n_right] in *. inversion Hl'; inversion Hr'; subst.
        assert (Y : forall c1, safe 0 (Fill p (RN (mkHN (pa te') c1 None None))
            (let* _ := drop_ptr rkids 2 p in Ret (None, true)))
          ((Tree te' :: map Tree [] ++ map Tree []) ++ [Held p])
          (fun x G => snd x = true /\ tpost Leaf (fst x) G)).
        { intros c1. cbn [map app]. put_.
          eapply (safe_seq _ _ _ 0 0 _ _ [Tree t] []); [eapply drop_bare; eassumption|perm| |lia].
          intros [] G' ->. apply safe_ret. split; [reflexivity|]. exists []. split; [constructor|reflexivity]. }
        destruct root; reduce; apply Y.
    + destruct (del dbg borrow qcmp l q false) as [[l' b1]| |] eqn:El; try discriminate E. cbn [bind] in E.
      cbv beta iota zeta delta [left_color n_left n_right set_left set_color n_entry n_color] in E.
      match type of E with (let! _ := (let! _ := ?B in _) in _) = _ => destruct B as [n1| |] eqn:EB end;
        try discriminate E. cbn [bind] in E. injection E as Et <-.
      apply safe_assoc.
      eapply (hcolor_ok _ _ _ tl); [exact Hl|intros u; apply (lent_part u tl _ (Held p :: Tree te :: map Tree tr)); perm|].
      apply safe_assoc.
      eapply (safe_seq _ _ _ (14 * hgt l) 5 _ _ (map Tree tl) (Held p :: Tree te :: map Tree tr));
        [eapply IH; [lia|lia|exact Hl|exact El]|perm| |lia].
      intros [ol1 b2] G' [Eb (tl1 & Hl1 & ->)]. cbn [fst snd] in *. subst b2. reduce.
      apply safe_assoc.
      eapply (safe_seq _ _ _ 5 0 _ _ (Tree te :: map Tree tl1 ++ map Tree tr) [Held p]);
        [instantiate (1 := npost n1)|perm| |lia].
      1:{ destruct (tcolor l) as [[|]|]; try (injection EB as <-; fin).
          eapply hremove_balance_left_ok; [exact HE|exact Hl1|exact Hr|exact EB]. }
      intros hn G' q1. cbn [pbind].
      eapply safe_perm; [apply Permutation_cons_append|]. eapply X; [exact q1|symmetry; exact Et].
    + destruct (del dbg borrow qcmp r q false) as [[r' b1]| |] eqn:El; try discriminate E. cbn [bind] in E.
      cbv beta iota zeta delta [right_color n_left n_right set_right set_color n_entry n_color] in E.
      match type of E with (let! _ := (let! _ := ?B in _) in _) = _ => destruct B as [n1| |] eqn:EB end;
        try discriminate E. cbn [bind] in E. injection E as Et <-.
      apply safe_assoc.
      eapply (hcolor_ok _ _ _ tr); [exact Hr|intros u; apply (lent_part u tr _ (Held p :: Tree te :: map Tree tl)); perm|].
      apply safe_assoc.
      eapply (safe_seq _ _ _ (14 * hgt r) 5 _ _ (map Tree tr) (Held p :: Tree te :: map Tree tl));
        [eapply IH; [lia|lia|exact Hr|exact El]|perm| |lia].
      intros [or1 b2] G' [Eb (tr1 & Hr1 & ->)]. cbn [fst snd] in *. subst b2. reduce.
      apply safe_assoc.
      eapply (safe_seq _ _ _ 5 0 _ _ (Tree te :: map Tree tl ++ map Tree tr1) [Held p]);
        [instantiate (1 := npost n1)|perm| |lia].
      1:{ destruct (tcolor r) as [[|]|]; try (injection EB as <-; fin).
          eapply hremove_balance_right_ok; [exact HE|exact Hl|exact Hr1|exact EB]. }
      intros hn G' q1. cbn [pbind].
      eapply safe_perm; [apply Permutation_cons_append|]. eapply X; [exact q1|symmetry; exact Et].
Qed.

(** *** Access *)
Lemma hget_mut_ok : forall f t q g o ts,
  hgt t < f -> topt t o ts ->
  safe (S (hgt t)) (hget_mut borrow qcmp f o q g) (map Tree ts)
    (fun x G => snd x = snd (t_get_mut borrow qcmp t q g) /\ tpost (fst (t_get_mut borrow qcmp t q g)) (fst x) G).
Proof.
  induction f as [|f IH]; intros t q g o ts Hf H; [lia|].
  destruct t as [|e c l r].
  - inversion H; subst. cbn [hget_mut]. apply safe_ret. split; [reflexivity|]. exists []. split; [constructor|reflexivity].
  - destruct (topt_some _ _ _ _ _ _ H) as [a ->]. cbn [hget_mut t_get_mut hgt]. cbn [hgt] in Hf.
    replace (map (@Tree C) ts) with (map (@Tree C) ts ++ []) by apply app_nil_r.
    eapply (take_ok _ _ _ _ _ _ ts []); [exact H|perm|]. intros p te ol tl or tr HE Hl Hr. reduce. entry_.
    destruct (qcmp q (borrow (fst e))) eqn:Ec.
    + destruct HE as [ae e]. cbn [pa].
      eapply (safe_seq _ _ _ 1 0 _ _ [Tree (PT ae (RE e) [])] (Held p :: map Tree tl ++ map Tree tr));
        [apply safe_make_mut|perm| |lia].
      intros [a1 x] G' (a2 & E2 & ->). injection E2 as -> ->.
      exists [], (Held p :: map Tree tl ++ map Tree tr). splits; [perm|reflexivity|].
      eapply (put_ok _ p (fst e, g (snd e)) (PT a2 (RE (fst e, g (snd e))) []) c l ol tl r or tr []);
        [constructor|exact Hl|exact Hr|perm|].
      intros t Ht _. apply safe_ret. split; [reflexivity|]. exists [t]. split; [exact Ht|reflexivity].
    + eapply (safe_seq _ _ _ (S (hgt l)) 0 _ _ (map Tree tl) (Held p :: Tree te :: map Tree tr));
        [eapply (IH l); [lia|exact Hl]|perm| |lia].
      intros [ol1 x] G' [Eb (tl1 & Hl1 & ->)]. cbn [fst snd] in *.
      destruct (t_get_mut borrow qcmp l q g) as [l' x']. cbn [fst snd] in *. subst x'. reduce.
      put_. apply safe_ret. split; [reflexivity|]. eexists; (split; [eassumption|reflexivity]).
    + eapply (safe_seq _ _ _ (S (hgt r)) 0 _ _ (map Tree tr) (Held p :: Tree te :: map Tree tl));
        [eapply (IH r); [lia|exact Hr]|perm| |lia].
      intros [or1 x] G' [Eb (tr1 & Hr1 & ->)]. cbn [fst snd] in *.
      destruct (t_get_mut borrow qcmp r q g) as [r' x']. cbn [fst snd] in *. subst x'. reduce.
      put_. apply safe_ret. split; [reflexivity|]. eexists; (split; [eassumption|reflexivity]).
Qed.

Lemma hget_ok : forall {A} f t q o ts n (k : option (K * V) -> P A) (G : list own) R,
  hgt t < f -> topt t o ts -> (forall u, In u ts -> lent u G) ->
  safe n (k (t_get borrow qcmp t q)) G R ->
  safe n (let* x := hget borrow qcmp f o q in k x) G R.
Proof.
  intros A f. induction f as [|f IH]; intros t q o ts n k G R Hf H L S; [lia|].
  destruct t as [|e c l r]; [inversion H; subst; exact S|].
  destruct (topt_some _ _ _ _ _ _ H) as [a ->]. cbn [hget].
  cbn [hgt] in Hf. cbn [t_get] in S. inversion H as [|? ? ? ? ? te ol tl or tr HE Hl Hr]; subst.
  assert (L1 := L _ (or_introl eq_refl)). cbn [see_node pbind]. eexists _, _. split; [exact L1|].
  intros _. reduce. destruct HE as [ae e]. cbn [see_entry pbind pa].
  eexists _, _. split; [eapply lent_kid; [exact L1|now left]|]. intros _. cbv beta iota.
  destruct (qcmp q (borrow (fst e))).
  - exact S.
  - eapply IH; [|exact Hl| |exact S]; [lia|].
    intros u Iu. eapply lent_kid; [exact L1|]. right. apply in_app_iff. auto.
  - eapply IH; [|exact Hr| |exact S]; [lia|].
    intros u Iu. eapply lent_kid; [exact L1|]. right. apply in_app_iff. auto.
Qed.

Lemma hfirst_ok : forall {A} f t o ts n (k : option (K * V) -> P A) (G : list own) R,
  hgt t < f -> topt t o ts -> (forall u, In u ts -> lent u G) ->
  safe n (k (t_first t)) G R ->
  safe n (let* x := hfirst f o in k x) G R.
Proof.
  intros A f. induction f as [|f IH]; intros t o ts n k G R Hf H L S; [lia|].
  destruct t as [|e c l r]; [inversion H; subst; exact S|].
  destruct (topt_some _ _ _ _ _ _ H) as [a ->]. cbn [hfirst].
  cbn [hgt] in Hf. inversion H as [|? ? ? ? ? te ol tl or tr HE Hl Hr]; subst.
  assert (L1 := L _ (or_introl eq_refl)). cbn [see_node pbind]. eexists _, _. split; [exact L1|].
  intros _. reduce. destruct l as [|le lc ll lr].
  - inversion Hl; subst. destruct HE as [ae e]. cbn [see_entry pbind pa].
    eexists _, _. split; [eapply lent_kid; [exact L1|now left]|]. intros _. exact S.
  - destruct (topt_some _ _ _ _ _ _ Hl) as [b ->]. eapply IH; [|exact Hl| |exact S]; [lia|].
    intros u Iu. eapply lent_kid; [exact L1|]. right. apply in_app_iff. auto.
Qed.

Lemma hlast_ok : forall {A} f t o ts n (k : option (K * V) -> P A) (G : list own) R,
  hgt t < f -> topt t o ts -> (forall u, In u ts -> lent u G) ->
  safe n (k (t_last t)) G R ->
  safe n (let* x := hlast f o in k x) G R.
Proof.
  intros A f. induction f as [|f IH]; intros t o ts n k G R Hf H L S; [lia|].
  destruct t as [|e c l r]; [inversion H; subst; exact S|].
  destruct (topt_some _ _ _ _ _ _ H) as [a ->]. cbn [hlast].
  cbn [hgt] in Hf. inversion H as [|? ? ? ? ? te ol tl or tr HE Hl Hr]; subst.
  assert (L1 := L _ (or_introl eq_refl)). cbn [see_node pbind]. eexists _, _. split; [exact L1|].
  intros _. reduce. destruct r as [|re rc rl rr].
  - inversion Hr; subst. destruct HE as [ae e]. cbn [see_entry pbind pa].
    eexists _, _. split; [eapply lent_kid; [exact L1|now left]|]. intros _. exact S.
  - destruct (topt_some _ _ _ _ _ _ Hr) as [b ->]. eapply IH; [|exact Hr| |exact S]; [lia|].
    intros u Iu. eapply lent_kid; [exact L1|]. right. apply in_app_iff. auto.
Qed.

(** The whole tree read through the pointers: a device of the proofs of C38, not code. *)
Fixpoint hread (f : nat) (o : option addr) : P tree :=
  match f with
  | 0 => Fail
  | S f' =>
      match o with
      | None => Ret (@Leaf K V)
      | Some a =>
          see_node a (fun n => see_entry (hn_entry n) (fun e =>
            let* l := hread f' (hn_left n) in
            let* r := hread f' (hn_right n) in
            Ret (TNode e (hn_color n) l r)))
      end
  end.

Lemma hread_ok : forall {A} f t o ts n (k : tree -> P A) (G : list own) R,
  hgt t < f -> topt t o ts -> (forall u, In u ts -> lent u G) ->
  safe n (k t) G R ->
  safe n (let* x := hread f o in k x) G R.
Proof.
  intros A f. induction f as [|f IH]; intros t o ts n k G R Hf H L S; [lia|].
  destruct t as [|e c l r]; [inversion H; subst; exact S|].
  destruct (topt_some _ _ _ _ _ _ H) as [a ->]. cbn [hread].
  cbn [hgt] in Hf. inversion H as [|? ? ? ? ? te ol tl or tr HE Hl Hr]; subst.
  assert (L1 := L _ (or_introl eq_refl)). cbn [see_node pbind]. eexists _, _. split; [exact L1|].
  intros _. reduce. destruct HE as [ae e]. cbn [see_entry pbind pa].
  eexists _, _. split; [eapply lent_kid; [exact L1|now left]|]. intros _.
  apply safe_assoc. eapply IH; [|exact Hl| |]; [lia| |].
  { intros u Iu. eapply lent_kid; [exact L1|]. right. apply in_app_iff. auto. }
  apply safe_assoc. eapply IH; [|exact Hr| |]; [lia| |].
  { intros u Iu. eapply lent_kid; [exact L1|]. right. apply in_app_iff. auto. }
  exact S.
Qed.

End RBH.
